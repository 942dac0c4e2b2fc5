(** Property C86: numbers in cgd files are read as the nearest f64.

    In C54-C59 the conversion of a number to f64 is an arbitrary function; here it is [rnd64] (F64Round.v), rounding to
    the nearest f64.  [fits q]: [q] is the value of an f64 (C85_fits); [Qcabs] is the absolute value; [number_text t q]:
    the text [t] denotes the number [q] (CgdGrammar.v). *)
From Coq Require Import String Ascii List ZArith NArith Lia Bool PeanoNat QArith Qcanon Qcabs.
From Verif Require Import Base Scalars ZQ Text ParseOp OpGrammar Cgd CgdGrammar CgdLine CgdFields Props_Cgd F64 F64Exact F64Round.
Import ListNotations.
Close Scope Q_scope. Close Scope Qc_scope.
Local Open Scope list_scope.
Open Scope nat_scope.

(** the result is an f64, and no f64 is nearer *)
Theorem C86_nearest q r : rnd64 q = Some r -> fits r /\ forall y, fits y -> (Qcabs (q - r) <= Qcabs (q - y))%Qc.
Proof. intros E. split; [apply (rnd64_fits q r E)|]. intros y F. apply (rnd64_nearest q r y E F). Qed.
Print Assumptions C86_nearest.

(** if another f64 is as near, they are neighbours and the result is the one with even mantissa *)
Theorem C86_ties q r y : rnd64 q = Some r -> fits y -> y <> r -> Qcabs (q - r)%Qc = Qcabs (q - y)%Qc ->
  exists M E, Z.even M = true /\ (Z.abs M <= 2 ^ 53)%Z /\ r = (ZQ M * pow2 E)%Qc /\
    (y = (ZQ (M + 1) * pow2 E)%Qc \/ y = (ZQ (M - 1) * pow2 E)%Qc).
Proof. intros E F. apply (rnd64_nearest q r y E F). Qed.
Print Assumptions C86_ties.

(** there is no finite result exactly from half a unit above the largest f64 *)
Theorem C86_overflow q : rnd64 q = None <-> (ZQ (2 ^ 1024 - 2 ^ 970) <= Qcabs q)%Qc.
Proof. apply rnd64_overflow. Qed.
Print Assumptions C86_overflow.

(** numbers with an f64 of the same value are not changed *)
Theorem C86_exact q : fits q -> rnd64 q = Some q.
Proof. apply rnd64_exact. Qed.
Print Assumptions C86_exact.

(** the conversion is determined by these properties, up to the choice between two neighbours *)
Theorem C86_unique q r r' : rnd64 q = Some r -> fits r' -> (forall y, fits y -> (Qcabs (q - r') <= Qcabs (q - y))%Qc) ->
  r' = r \/ exists M E, Z.even M = true /\ r = (ZQ M * pow2 E)%Qc /\ (r' = (ZQ (M + 1) * pow2 E)%Qc \/ r' = (ZQ (M - 1) * pow2 E)%Qc).
Proof.
  intros E F H. destruct (Qc_eq_dec r' r) as [D|D]; [left; auto|right].
  destruct (C86_nearest q r E) as (Fr & Hr).
  destruct (C86_ties q r r' E F D) as (M & G & A & _ & B & C); [apply Qcle_antisym; auto|]. eauto 6.
Qed.
Print Assumptions C86_unique.

(** ** what is read *)
Definition reads_as (t : text) (f : field) : Prop := parse_cgd_line rnd64 t = Ret (Some ([], [f])).

Lemma number_clear t q : number_text t q -> forall c r, t = c :: r -> ~ letter c.
Proof.
  assert (D : forall c d, digit c d -> ~ letter c) by (intros c d (D1 & ->) L; unfold letter in L; lia).
  assert (N : forall ds n, numeral ds n -> exists c r d, ds = c :: r /\ digit c d).
  { induction 1 as [c0 d H|ds n c0 d _ (c & r & d' & -> & H) _]; [exists c0, [], d; auto|]. exists c, (r ++ [c0]), d'. auto. }
  intros T c r E. destruct T as [s k m n places x e Hs Hm Hx].
  assert (M : exists c r, m = c :: r /\ ~ letter c).
  { destruct Hm as [ds n H|ds n H|a f n H Hf].
    - destruct (N _ _ H) as (c1 & r1 & d1 & -> & H1). eexists _, _. split; [reflexivity|]. eapply D; eauto.
    - destruct (N _ _ H) as (c1 & r1 & d1 & -> & H1). eexists _, _. split; [reflexivity|]. eapply D; eauto.
    - destruct a as [|c1 a].
      + eexists _, _. split; [reflexivity|]. intros L; unfold letter in L; vm_compute in L; intuition discriminate.
      + destruct (N _ _ H) as (c2 & r1 & d1 & E1 & H1). injection E1 as <- _. eexists _, _. split; [reflexivity|]. eapply D; eauto. }
  destruct M as (c1 & r1 & -> & L1). destruct Hs; cbn [app] in E; injection E as <- _; auto; intros L; unfold letter in L; vm_compute in L; intuition discriminate.
Qed.

(** A decimal number alone on a line is one field: an integer if its nearest f64 is an integer in the range of i32, otherwise the nearest
    f64, or an infinity. *)
Theorem C86_numbers t q : number_text t q ->
  (forall r n, rnd64 q = Some r -> r = ZQ n -> i32_range n -> reads_as t (Int n)) /\
  (forall r, rnd64 q = Some r -> (forall n, i32_range n -> r <> ZQ n) -> reads_as t (Double (Finite r))) /\
  (rnd64 q = None -> reads_as t (Double (Infinite (Qnum q <? 0)%Z))).
Proof.
  intros T. assert (G : forall f, number_field rnd64 q f -> reads_as t f).
  { intros f F. unfold reads_as. pose proof (C59_complete rnd64 [] t [f] [] []) as C. cbn [app] in C. rewrite app_nil_r in C. apply C; try constructor; auto.
    - constructor. eapply clear_number; eauto.
    - apply (number_clear t q T). }
  splits.
  - intros r n E -> H. apply G. constructor; auto.
  - intros r E H. apply G. constructor; auto.
  - intros E. apply G. constructor; auto.
Qed.
Print Assumptions C86_numbers.

Lemma fits_integer n : (Z.abs n < 2 ^ 53)%Z -> fits (ZQ n).
Proof. intros H. exists n, 0%Z. splits; auto; try lia. change (pow2 0) with (ZQ 1). change (ZQ 1) with 1%Qc. ring. Qed.

(** Integers in the range of i32 are read as themselves, in whatever way they are written. *)
Theorem C86_integers t n : number_text t (ZQ n) -> i32_range n -> reads_as t (Int n).
Proof.
  intros T H. destruct (C86_numbers t (ZQ n) T) as (C & _). apply (C (ZQ n) n); auto. apply rnd64_exact. apply fits_integer.
  unfold i32_range in H. lia.
Qed.
Print Assumptions C86_integers.

(** Other numbers that have an f64 of the same value are read exactly. *)
Theorem C86_doubles t q : number_text t q -> fits q -> (forall n, i32_range n -> q <> ZQ n) -> reads_as t (Double (Finite q)).
Proof. intros T F H. apply (C86_numbers t q T); auto. apply rnd64_exact. auto. Qed.
Print Assumptions C86_doubles.

Definition reads (s : string) : outcome (option (text * list field)) := parse_cgd_line rnd64 (str s).
Example C86_examples :
  reads "0.5" = Ret (Some ([], [Double (Finite (1 / ZQ 2)%Qc)])) /\
  reads "1e-400" = Ret (Some ([], [Int 0])) /\
  reads "-1e400" = Ret (Some ([], [Double (Infinite true)])) /\
  reads "0.99999999999999999999" = Ret (Some ([], [Int 1])) /\
  reads "0.1" = Ret (Some ([], [Double (Finite (ZQ 3602879701896397 / ZQ 36028797018963968)%Qc)])) /\
  reads "9007199254740993" = Ret (Some ([], [Double (Finite (ZQ 9007199254740992))])) /\
  reads "25e-1" = Ret (Some ([], [Double (Finite (ZQ 5 / ZQ 2)%Qc)])).
Proof.
  assert (H : forall a b : Qc, Qeq_bool a b = true -> Ret (Some (@nil char, [Double (Finite a)])) = Ret (Some ([], [Double (Finite b)]))).
  { intros a b E. apply Qeq_bool_eq, Qc_is_canon in E. rewrite E. reflexivity. }
  splits; vm_compute; first [reflexivity|apply H; vm_compute; reflexivity].
Qed.
Example C86_hypotheses : fits (ZQ 5 / ZQ 2)%Qc /\ number_text (str "25e-1") (ZQ 5 / ZQ 2)%Qc /\ ~ fits (ZQ (2 ^ 53 + 1)).
Proof.
  assert (D : forall k, (0 <= k <= 9)%Z -> digit (Z.to_N (48 + k)) k) by (intros k H; split; auto). splits.
  - exists 5%Z, (-1)%Z. splits; try lia. apply Qc_is_canon. reflexivity.
  - replace (ZQ 5 / ZQ 2)%Qc with (ZQ (1 * 25) * ten_to (-1 - Z.of_nat 0))%Qc by (apply Qc_is_canon; reflexivity).
    apply (number_parts [] 1 (str "25") 25 0 (str "e-1") (-1)%Z).
    + constructor.
    + constructor. change (str "25") with ([Z.to_N (48 + 2)] ++ [Z.to_N (48 + 5)]). change 25%Z with (10 * 2 + 5)%Z. econstructor; [|apply D; lia]. constructor. apply D. lia.
    + change (-1)%Z with (-1 * 1)%Z. apply (exponent_some (chr "e") (str "-") (-1) (str "1") 1); [left; reflexivity|constructor|constructor; apply (D 1%Z); lia].
  - intros F. apply rnd64_exact in F. vm_compute in F. discriminate F.
Qed.
