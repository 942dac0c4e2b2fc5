(** Vectors over an integral domain as lists: linear combinations, spans and
    echelon bases.  This file is pure mathematics used by the specifications
    and proofs about src/arithmetic; it models no code. *)
From Coq Require Import List ZArith Lia Bool PeanoNat Ring Setoid.
From Coq Require Import QArith Qcanon.
From Verif Require Import Base.
Import ListNotations.
Close Scope Q_scope.
Open Scope nat_scope.

(** operations of a scalar type *)
Class Dom (R : Type) := {
  r0 : R; r1 : R;
  radd : R -> R -> R; rmul : R -> R -> R; rsub : R -> R -> R; ropp : R -> R;
  reqb : R -> R -> bool }.

(** it is an integral domain with decidable equality *)
Class DomLaws (R : Type) `{Dom R} : Prop := {
  r_th : ring_theory r0 r1 radd rmul rsub ropp (@eq R);
  r_int : forall a b : R, rmul a b = r0 -> a = r0 \/ b = r0;
  r_nontriv : r1 <> r0;
  r_eqb : forall a b : R, reqb a b = true <-> a = b }.

#[global] Instance Z_dom : Dom Z := {|
  r0 := 0%Z; r1 := 1%Z; radd := Z.add; rmul := Z.mul; rsub := Z.sub; ropp := Z.opp;
  reqb := Z.eqb |}.

#[global] Instance Z_laws : DomLaws Z.
Proof.
  constructor; simpl.
  - exact InitialRing.Zth.
  - intros a b H. apply Z.mul_eq_0 in H. auto.
  - discriminate.
  - apply Z.eqb_eq.
Qed.

Definition Qc_eqb (a b : Qc) : bool :=
  Z.eqb (Qnum a) (Qnum b) && Pos.eqb (Qden a) (Qden b).

Lemma Qc_eqb_spec a b : reflect (a = b) (Qc_eqb a b).
Proof.
  unfold Qc_eqb. destruct (Z.eqb_spec (Qnum a) (Qnum b)) as [H1|H1]; simpl.
  - destruct (Pos.eqb_spec (Qden a) (Qden b)) as [H2|H2]; constructor.
    + apply Qc_is_canon. unfold Qeq. congruence.
    + intros ->; congruence.
  - constructor. intros ->; congruence.
Qed.

#[global] Instance Qc_dom : Dom Qc := {|
  r0 := 0%Qc; r1 := 1%Qc; radd := Qcplus; rmul := Qcmult; rsub := Qcminus; ropp := Qcopp;
  reqb := Qc_eqb |}.

#[global] Instance Qc_laws : DomLaws Qc.
Proof.
  constructor; simpl.
  - exact Qcrt.
  - intros a b H. apply Qcmult_integral in H. auto.
  - discriminate.
  - intros a b. destruct (Qc_eqb_spec a b); split; congruence.
Qed.

Section Vec.
  Context {R : Type} {RD : Dom R} {DL : DomLaws R}.

  Local Lemma Rth : ring_theory r0 r1 radd rmul rsub ropp (@eq R).
  Proof. apply r_th. Qed.
  Add Ring RingVec : Rth.

  Local Notation "0" := r0.
  Local Notation "1" := r1.
  Local Infix "+" := radd.
  Local Infix "*" := rmul.
  Local Infix "-" := rsub.
  Local Notation "- x" := (ropp x).

  Notation vec := (list R).

  Lemma r_eqb_spec (a b : R) : reflect (a = b) (reqb a b).
  Proof. apply iff_reflect. symmetry. apply r_eqb. Qed.

  Lemma reqb_refl a : reqb a a = true.
  Proof. destruct (r_eqb_spec a a); congruence. Qed.

  Lemma r_cancel a b c : a <> 0 -> a * b = a * c -> b = c.
  Proof.
    intros Ha H. assert (E : a * (b - c) = 0).
    { replace (a * (b - c)) with (a * b - a * c) by ring. rewrite H. ring. }
    apply r_int in E as [E|E]; [congruence|].
    replace b with ((b - c) + c) by ring. rewrite E. ring.
  Qed.

  Lemma rmul_nz a b : a <> 0 -> b <> 0 -> a * b <> 0.
  Proof. intros Ha Hb E. apply r_int in E as [E|E]; auto. Qed.

  (** *** finite sums *)
  Fixpoint sumf (n : nat) (f : nat -> R) : R :=
    match n with
    | O => 0
    | S n' => sumf n' f + f n'
    end.

  Lemma sumf_ext n f g : (forall i, (i < n)%nat -> f i = g i) -> sumf n f = sumf n g.
  Proof.
    induction n as [|n IH]; intros Hf; simpl; auto.
    rewrite IH by (intros; apply Hf; lia). rewrite Hf by lia. auto.
  Qed.

  Lemma sumf_zero n f : (forall i, (i < n)%nat -> f i = 0) -> sumf n f = 0.
  Proof.
    induction n as [|n IH]; intros Hf; simpl; auto.
    rewrite IH by (intros; apply Hf; lia). rewrite Hf by lia. ring.
  Qed.

  Lemma sumf_add n f g : sumf n (fun i => f i + g i) = sumf n f + sumf n g.
  Proof. induction n as [|n IH]; simpl; [ring|]. rewrite IH. ring. Qed.

  Lemma sumf_scale n c f : sumf n (fun i => c * f i) = c * sumf n f.
  Proof. induction n as [|n IH]; simpl; [ring|]. rewrite IH. ring. Qed.

  Lemma sumf_S_l n f : sumf (S n) f = f O + sumf n (fun i => f (S i)).
  Proof. induction n as [|n IH]; simpl in *; [ring|]. rewrite IH. ring. Qed.

  Lemma sumf_swap n m (f : nat -> nat -> R) :
    sumf n (fun i => sumf m (fun j => f i j)) = sumf m (fun j => sumf n (fun i => f i j)).
  Proof.
    induction n as [|n IH]; simpl.
    - symmetry. apply sumf_zero. auto.
    - rewrite IH. rewrite <- sumf_add. reflexivity.
  Qed.

  Lemma sumf_single n f k :
    (k < n)%nat -> (forall i, (i < n)%nat -> i <> k -> f i = 0) -> sumf n f = f k.
  Proof.
    intros Hk Hf. induction n as [|n IH]; [lia|]. simpl.
    destruct (Nat.eq_dec k n) as [->|Hn].
    - rewrite sumf_zero; [ring|]. intros; apply Hf; lia.
    - rewrite IH by (try lia; intros; apply Hf; lia).
      rewrite (Hf n) by lia. ring.
  Qed.

  Lemma sumf_split n m f : sumf (n + m)%nat f = sumf n f + sumf m (fun i => f (n + i)%nat).
  Proof.
    induction m as [|m IH]; simpl.
    - rewrite Nat.add_0_r. ring.
    - rewrite Nat.add_succ_r. simpl. rewrite IH. ring.
  Qed.

  (** *** vectors *)
  Fixpoint zipw (f : R -> R -> R) (u v : vec) : vec :=
    match u, v with
    | a :: u', b :: v' => f a b :: zipw f u' v'
    | _, _ => []
    end.

  Definition vzero (n : nat) : vec := repeat 0 n.
  Definition vadd (u v : vec) : vec := zipw radd u v.
  Definition vscale (c : R) (v : vec) : vec := map (fun x => c * x) v.
  Definition vget (v : vec) (i : nat) : R := nth i v 0.

  (** unit vector *)
  Definition vunit (n k : nat) : vec := map (fun j => if Nat.eqb j k then 1 else 0) (seq 0 n).

  Fixpoint dot (u v : vec) : R :=
    match u, v with
    | a :: u', b :: v' => a * b + dot u' v'
    | _, _ => 0
    end.

  (** linear combination of vectors of length [n] *)
  Fixpoint lincomb (n : nat) (cs : list R) (vs : list vec) : vec :=
    match cs, vs with
    | c :: cs', v :: vs' => vadd (vscale c v) (lincomb n cs' vs')
    | _, _ => vzero n
    end.

  (** [x] is a linear combination of [vs] with coefficients in [R] *)
  Definition span (n : nat) (vs : list vec) (x : vec) : Prop :=
    exists cs, length cs = length vs /\ x = lincomb n cs vs.

  Definition lens (n : nat) (vs : list vec) : Prop := Forall (fun v => length v = n) vs.

  Lemma lens_cons n b bs : lens n (b :: bs) -> length b = n /\ lens n bs.
  Proof. intros L. inversion L; auto. Qed.

  Lemma lens_In n vs v : lens n vs -> In v vs -> length v = n.
  Proof. unfold lens. rewrite Forall_forall. auto. Qed.

  Lemma vzero_length n : length (vzero n) = n.
  Proof. apply repeat_length. Qed.

  Lemma zipw_length f u v : length (zipw f u v) = Nat.min (length u) (length v).
  Proof. revert v; induction u; intros [|b v]; simpl; auto. Qed.

  Lemma vadd_length u v : length u = length v -> length (vadd u v) = length u.
  Proof. intros E. unfold vadd. rewrite zipw_length, E. lia. Qed.

  Lemma vscale_length c v : length (vscale c v) = length v.
  Proof. apply map_length. Qed.

  Lemma vget_vadd u v i : length u = length v -> vget (vadd u v) i = vget u i + vget v i.
  Proof.
    unfold vget. revert v i; induction u as [|a u IH]; intros [|b v] i E; simpl in *; try lia.
    - destruct i; simpl; ring.
    - destruct i as [|i]; simpl; auto.
  Qed.

  Lemma vget_vscale c v i : vget (vscale c v) i = c * vget v i.
  Proof.
    unfold vget. revert i; induction v as [|b v IH]; intros [|i]; simpl; auto; ring.
  Qed.

  Lemma vget_vzero n i : vget (vzero n) i = 0.
  Proof. unfold vget, vzero. revert i; induction n; intros [|i]; simpl; auto. Qed.

  Lemma vget_over v i : (length v <= i)%nat -> vget v i = 0.
  Proof. intros. unfold vget. apply nth_overflow; auto. Qed.

  Lemma vec_ext u v :
    length u = length v -> (forall i, (i < length u)%nat -> vget u i = vget v i) -> u = v.
  Proof.
    revert v; induction u as [|a u IH]; intros [|b v] E Hg; simpl in *; try lia; auto.
    f_equal.
    - apply (Hg O). lia.
    - apply IH; [lia|]. intros i Hi. apply (Hg (S i)). lia.
  Qed.

  Lemma vunit_length n k : length (vunit n k) = n.
  Proof. unfold vunit. rewrite map_length, seq_length. auto. Qed.

  Lemma vget_vunit n k i :
    vget (vunit n k) i = if Nat.eqb i k && Nat.ltb i n then 1 else 0.
  Proof.
    unfold vget, vunit. destruct (Nat.ltb_spec i n) as [Hi|Hi].
    - rewrite andb_true_r.
      rewrite (nth_indep _ 0 (if Nat.eqb 0 k then 1 else 0)) by (rewrite map_length, seq_length; auto).
      rewrite (map_nth (fun j => if Nat.eqb j k then 1 else 0) (seq 0 n) O i), seq_nth by auto. reflexivity.
    - rewrite andb_false_r. apply nth_overflow. rewrite map_length, seq_length; auto.
  Qed.

  Lemma vadd_comm u v : vadd u v = vadd v u.
  Proof.
    unfold vadd. revert v; induction u as [|a u IH]; intros [|b v]; simpl; auto.
    rewrite IH. f_equal. ring.
  Qed.

  Lemma vadd_assoc u v w : vadd u (vadd v w) = vadd (vadd u v) w.
  Proof.
    unfold vadd. revert v w; induction u as [|a u IH]; intros [|b v] [|c w]; simpl; auto.
    rewrite IH. f_equal. ring.
  Qed.

  Lemma vscale_vadd c u v : vscale c (vadd u v) = vadd (vscale c u) (vscale c v).
  Proof.
    unfold vadd, vscale. revert v; induction u as [|a u IH]; intros [|b v]; simpl; auto.
    rewrite IH. f_equal. ring.
  Qed.

  Lemma vscale_add c d v : vscale (c + d) v = vadd (vscale c v) (vscale d v).
  Proof.
    unfold vadd, vscale. induction v as [|a v IH]; simpl; auto. rewrite IH. f_equal. ring.
  Qed.

  Lemma vscale_mul c d v : vscale c (vscale d v) = vscale (c * d) v.
  Proof. unfold vscale. rewrite map_map. apply map_ext. intros; ring. Qed.

  Lemma vscale_1 v : vscale 1 v = v.
  Proof. unfold vscale. rewrite <- (map_id v) at 2. apply map_ext. intros; ring. Qed.

  Lemma vscale_0 v : vscale 0 v = vzero (length v).
  Proof. unfold vscale, vzero. induction v as [|a v IH]; simpl; auto. rewrite IH. f_equal. ring. Qed.

  Lemma vscale_vzero c n : vscale c (vzero n) = vzero n.
  Proof. unfold vscale, vzero. induction n as [|n IH]; simpl; auto. rewrite IH. f_equal. ring. Qed.

  Lemma vadd_0_l n v : length v = n -> vadd (vzero n) v = v.
  Proof.
    intros <-. unfold vadd, vzero. induction v as [|a v IH]; simpl; auto. rewrite IH. f_equal. ring.
  Qed.

  Lemma vadd_0_r n v : length v = n -> vadd v (vzero n) = v.
  Proof. intros. rewrite vadd_comm. apply vadd_0_l; auto. Qed.

  Lemma vadd_vzero n : vadd (vzero n) (vzero n) = vzero n.
  Proof. apply vadd_0_l. apply vzero_length. Qed.

  Lemma lincomb_length n cs vs : lens n vs -> length (lincomb n cs vs) = n.
  Proof.
    revert vs; induction cs as [|c cs IH]; intros vs L; simpl; [apply vzero_length|].
    destruct L as [|v vs Hv L]; simpl; [apply vzero_length|].
    rewrite vadd_length; rewrite vscale_length; auto. rewrite IH; auto.
  Qed.

  Lemma span_length n vs x : lens n vs -> span n vs x -> length x = n.
  Proof. intros L (cs & _ & ->). apply lincomb_length; auto. Qed.

  Lemma lincomb_zero n vs : lens n vs -> lincomb n (vzero (length vs)) vs = vzero n.
  Proof.
    induction 1 as [|v vs Hv L IH]; simpl; auto.
    unfold vzero in IH at 1. rewrite IH. rewrite vscale_0, Hv. apply vadd_vzero.
  Qed.

  Lemma lincomb_add n cs ds vs :
    length cs = length vs -> length ds = length vs ->
    vadd (lincomb n cs vs) (lincomb n ds vs) = lincomb n (vadd cs ds) vs.
  Proof.
    revert cs ds; induction vs as [|v vs IH]; intros [|c cs] [|d ds] E1 E2; simpl in *; try lia.
    - apply vadd_vzero.
    - rewrite <- IH by lia. rewrite vscale_add.
      rewrite !vadd_assoc. f_equal. rewrite <- !vadd_assoc. f_equal. apply vadd_comm.
  Qed.

  Lemma lincomb_scale n c cs vs :
    vscale c (lincomb n cs vs) = lincomb n (vscale c cs) vs.
  Proof.
    revert vs; induction cs as [|d cs IH]; intros [|v vs]; simpl; try apply vscale_vzero.
    rewrite vscale_vadd, vscale_mul, IH. reflexivity.
  Qed.

  Lemma lincomb_unit n vs k v :
    lens n vs -> nth_error vs k = Some v -> lincomb n (vunit (length vs) k) vs = v.
  Proof.
    intros L; revert k. 
    assert (Hs : forall m k s, map (fun j => if Nat.eqb j (s + k) then 1 else 0) (seq s m) = vunit m k).
    { intros m k s. unfold vunit. 
      assert (G : forall m s t, map (fun j => if Nat.eqb j (s + k) then 1 else 0) (seq (s + t) m)
         = map (fun j => if Nat.eqb j k then 1 else 0) (seq t m)).
      { clear. induction m as [|m IH]; intros s t; simpl; auto. f_equal.
        - destruct (Nat.eqb_spec (s + t)%nat (s + k)%nat), (Nat.eqb_spec t k); auto; lia.
        - rewrite <- (IH s (S t)). repeat f_equal. lia. }
      specialize (G m s O). rewrite Nat.add_0_r in G. exact G. }
    induction L as [|w vs Hw L IH]; intros [|k] E; simpl in E; try discriminate.
    - injection E as ->. simpl length. unfold vunit. simpl.
      rewrite vscale_1. rewrite <- seq_shift, map_map. simpl.
      assert (map (fun _ : nat => 0) (seq 0 (length vs)) = vzero (length vs)) as ->.
      { unfold vzero. clear. generalize O. induction (length vs) as [|m IH]; intros s; simpl; auto.
        rewrite IH; auto. }
      rewrite lincomb_zero by auto. apply vadd_0_r; auto.
    - simpl length. unfold vunit. simpl.
      rewrite (Hs (length vs) k 1%nat : map (fun j => if Nat.eqb j (S k) then 1 else 0) (seq 1 (length vs)) = _).
      rewrite IH by auto. rewrite vscale_0, Hw. apply vadd_0_l.
      apply nth_error_In in E. unfold lens in L. rewrite Forall_forall in L. auto.
  Qed.

  Lemma span_zero n vs : lens n vs -> span n vs (vzero n).
  Proof.
    intros L. exists (vzero (length vs)). rewrite vzero_length, lincomb_zero; auto.
  Qed.

  Lemma span_add n vs x y : span n vs x -> span n vs y -> span n vs (vadd x y).
  Proof.
    intros (cs & Hc & ->) (ds & Hd & ->). exists (vadd cs ds). split.
    - rewrite vadd_length; congruence.
    - apply lincomb_add; auto.
  Qed.

  Lemma span_scale n vs c x : span n vs x -> span n vs (vscale c x).
  Proof.
    intros (cs & Hc & ->). exists (vscale c cs). split.
    - rewrite vscale_length; auto.
    - apply lincomb_scale.
  Qed.

  Lemma span_In n vs v : lens n vs -> In v vs -> span n vs v.
  Proof.
    intros L Hin. apply In_nth_error in Hin as [k Hk].
    exists (vunit (length vs) k). rewrite vunit_length. split; auto.
    symmetry. apply lincomb_unit; auto.
  Qed.

  (** a set closed under the operations contains the span *)
  Lemma span_ind n vs (P : vec -> Prop) :
    P (vzero n) -> (forall x y, P x -> P y -> P (vadd x y)) -> (forall c x, P x -> P (vscale c x)) ->
    (forall v, In v vs -> P v) -> forall x, span n vs x -> P x.
  Proof.
    intros H0 Ha Hs Hv x (cs & Hc & ->). revert vs Hv Hc.
    induction cs as [|c cs IH]; intros [|v vs] Hv Hc; simpl in *; try lia; auto.
  Qed.

  Lemma span_trans n vs ws x :
    lens n ws -> (forall v, In v vs -> span n ws v) -> span n vs x -> span n ws x.
  Proof.
    intros L Hv. apply span_ind; auto using span_zero, span_add, span_scale.
  Qed.

  Lemma span_incl n vs ws x : lens n ws -> incl vs ws -> span n vs x -> span n ws x.
  Proof. intros L Hi. apply span_trans; auto. intros; apply span_In; auto. Qed.

  Lemma span_nil n x : span n [] x <-> x = vzero n.
  Proof.
    split.
    - intros (cs & Hc & ->). destruct cs; simpl in *; auto; discriminate.
    - intros ->. exists []. auto.
  Qed.

  Lemma span_cons n v vs x :
    span n (v :: vs) x <-> exists c y, span n vs y /\ x = vadd (vscale c v) y.
  Proof.
    split.
    - intros (cs & Hc & ->). destruct cs as [|c cs]; simpl in *; [discriminate|].
      exists c, (lincomb n cs vs). split; auto. exists cs. auto.
    - intros (c & y & (cs & Hc & ->) & ->). exists (c :: cs). simpl. auto.
  Qed.

  Definition same_span (n : nat) (vs ws : list vec) : Prop :=
    forall x, span n vs x <-> span n ws x.

  (** *** dot product *)
  Lemma dot_vadd_l u v x : length u = length v -> dot (vadd u v) x = dot u x + dot v x.
  Proof.
    unfold vadd. revert v x; induction u as [|a u IH]; intros [|b v] x E; simpl in *; try lia.
    - ring.
    - destruct x as [|c x]; [ring|]. rewrite IH by lia. ring.
  Qed.

  Lemma dot_vscale_l c u x : dot (vscale c u) x = c * dot u x.
  Proof.
    revert x; induction u as [|a u IH]; intros [|b x]; simpl; try ring. rewrite IH. ring.
  Qed.

  Lemma dot_vzero_l n x : dot (vzero n) x = 0.
  Proof.
    revert x; induction n as [|n IH]; intros [|b x]; simpl; auto.
    unfold vzero in IH. rewrite IH. ring.
  Qed.

  Lemma dot_comm u v : dot u v = dot v u.
  Proof. revert v; induction u as [|a u IH]; intros [|b v]; simpl; auto. rewrite IH. ring. Qed.

  Lemma dot_sumf n u v : length u = n -> length v = n -> dot u v = sumf n (fun i => vget u i * vget v i).
  Proof.
    revert u v; induction n as [|n IH]; intros [|a u] [|b v] E1 E2; simpl in E1, E2; try discriminate; auto.
    rewrite sumf_S_l. simpl. rewrite (IH u v) by lia. reflexivity.
  Qed.

  Lemma dot_vunit n v k : length v = n -> dot v (vunit n k) = vget v k.
  Proof.
    intros L. destruct (Nat.lt_ge_cases k n) as [Hk|Hk].
    - rewrite (dot_sumf n) by (rewrite ?vunit_length; auto).
      rewrite (sumf_single n _ k); auto.
      + rewrite vget_vunit, Nat.eqb_refl. destruct (Nat.ltb_spec k n); [simpl; ring|lia].
      + intros i Hi Hik. rewrite vget_vunit. destruct (Nat.eqb_spec i k); [lia|]. simpl. ring.
    - rewrite vget_over by lia. rewrite (dot_sumf n) by (rewrite ?vunit_length; auto).
      apply sumf_zero. intros i Hi. rewrite vget_vunit.
      destruct (Nat.eqb_spec i k); [lia|]. simpl. ring.
  Qed.

  (** *** pivots *)
  Fixpoint pivot (v : vec) : option nat :=
    match v with
    | [] => None
    | a :: v' => if reqb a 0 then option_map S (pivot v') else Some O
    end.

  Lemma pivot_Some v k :
    pivot v = Some k <->
    (k < length v)%nat /\ vget v k <> 0 /\ (forall i, (i < k)%nat -> vget v i = 0).
  Proof.
    unfold vget. revert k; induction v as [|a v IH]; intros k; simpl.
    - split; [discriminate|]. intros (A & _). lia.
    - destruct (r_eqb_spec a 0) as [->|Ha].
      + destruct (pivot v) as [j|] eqn:Ej; simpl.
        * assert (Hj : (j < length v)%nat /\ nth j v 0 <> 0 /\ (forall i, (i < j)%nat -> nth i v 0 = 0))
            by (apply IH; auto).
          split.
          -- intros [= <-]. destruct Hj as (A & B & C). repeat split; auto; [lia|].
             intros [|i] Hi; simpl; auto. apply C. lia.
          -- intros (A & B & C). f_equal. destruct Hj as (A' & B' & C').
             destruct k as [|k]; [simpl in B; congruence|]. simpl in B.
             destruct (Nat.lt_trichotomy j k) as [G|[G|G]]; [|auto|].
             ++ specialize (C (S j)). simpl in C. exfalso; apply B'. apply C. lia.
             ++ exfalso; apply B. apply C'. lia.
        * split; [discriminate|]. intros (A & B & C). exfalso.
          destruct k as [|k]; [simpl in B; congruence|]. simpl in B.
          assert (G : None = Some k).
          { apply IH. repeat split; auto; [lia|]. intros i Hi. apply (C (S i)). lia. }
          discriminate.
      + split.
        * intros [= <-]. repeat split; auto; [lia|]. intros i Hi; lia.
        * intros (A & B & C). destruct k; auto. exfalso. apply Ha. apply (C O). lia.
  Qed.

  Lemma pivot_None v : pivot v = None <-> v = vzero (length v).
  Proof.
    unfold vzero. induction v as [|a v IH]; simpl; [tauto|].
    destruct (r_eqb_spec a 0) as [->|Ha].
    - destruct (pivot v); simpl.
      + split; [discriminate|]. intros [= E]. apply IH in E. discriminate.
      + split; auto. intros _. f_equal. apply IH. auto.
    - split; [discriminate|]. intros [= E _]. congruence.
  Qed.

  (** rows with strictly increasing pivot columns, all at least [k] *)
  Inductive echelon_from : nat -> list vec -> Prop :=
  | ech_nil k : echelon_from k []
  | ech_cons k p b bs : pivot b = Some p -> (k <= p)%nat ->
      echelon_from (S p) bs -> echelon_from k (b :: bs).

  Definition echelon (bs : list vec) : Prop := echelon_from O bs.

  Lemma echelon_weaken k k' bs : (k' <= k)%nat -> echelon_from k bs -> echelon_from k' bs.
  Proof. intros Hk H1. inversion H1; subst; [constructor|]. econstructor; eauto; lia. Qed.

  Lemma echelon_zero_before k bs v i :
    echelon_from k bs -> In v bs -> (i < k)%nat -> vget v i = 0.
  Proof.
    intros H1; revert i; induction H1 as [|k p b bs Hp Hk H1 IH]; intros i Hin Hi; [destruct Hin|];
      destruct Hin as [<-|Hin].
    - apply pivot_Some in Hp as (_ & _ & Hz). apply Hz. lia.
    - apply IH; auto. lia.
  Qed.

  Lemma span_zero_at n vs i : lens n vs -> (forall v, In v vs -> vget v i = 0) ->
    forall x, span n vs x -> vget x i = 0.
  Proof.
    intros L Hv x (cs & Hc & ->). revert vs L Hv Hc.
    induction cs as [|c cs IH]; intros vs L Hv Hc; destruct L as [|v vs Hl L]; simpl in *; try lia;
      try apply vget_vzero.
    rewrite vget_vadd.
    - rewrite vget_vscale, Hv by auto. rewrite IH by auto. ring.
    - rewrite vscale_length, lincomb_length; auto.
  Qed.

  (** coefficients over an echelon basis are determined *)
  Lemma echelon_independent n k bs cs :
    lens n bs -> echelon_from k bs -> length cs = length bs ->
    lincomb n cs bs = vzero n -> cs = vzero (length bs).
  Proof.
    intros L E; revert cs; induction E as [k|k p b bs Hp Hk E IH]; intros [|c cs] Hc Hl;
      simpl in *; try lia; auto.
    inversion L as [|? ? Hb L']; subst.
    assert (Lc : length (lincomb (length b) cs bs) = length b) by (apply lincomb_length; auto).
    assert (Hcz : c = 0).
    { apply pivot_Some in Hp as (Hpl & Hpn & _).
      assert (G : vget (vadd (vscale c b) (lincomb (length b) cs bs)) p = 0)
        by (rewrite Hl; apply vget_vzero).
      rewrite vget_vadd in G by (rewrite vscale_length; auto).
      rewrite vget_vscale in G.
      assert (Y : vget (lincomb (length b) cs bs) p = 0).
      { apply (span_zero_at (length b) bs p L').
        - intros v Hv. eapply echelon_zero_before; eauto.
        - exists cs. split; auto. }
      rewrite Y in G. assert (c * vget b p = 0) as G' by (rewrite <- G; ring).
      apply r_int in G' as [G'|G']; auto. congruence. }
    subst c. rewrite vscale_0, vadd_0_l in Hl by auto.
    unfold vzero. simpl. f_equal. apply IH; auto.
  Qed.

  Definition pivots (bs : list vec) : list nat :=
    flat_map (fun b => match pivot b with Some p => [p] | None => [] end) bs.

  (** the pivot of any vector in the span of an echelon basis is one of its pivots *)
  Lemma span_pivot n k bs x p :
    lens n bs -> echelon_from k bs -> span n bs x -> pivot x = Some p -> In p (pivots bs).
  Proof.
    intros L E; revert x; induction E as [k|k q b bs Hq Hk E IH]; intros x Hx Hp.
    - apply span_nil in Hx as ->. apply pivot_Some in Hp as (_ & Hp & _).
      rewrite vget_vzero in Hp. congruence.
    - inversion L as [|? ? Hb L']; subst. simpl. rewrite Hq. simpl.
      apply span_cons in Hx as (c & y & Hy & ->).
      assert (Ly : length y = length b) by (eapply span_length; eauto).
      destruct (r_eqb_spec c 0) as [->|Hc].
      + right. rewrite vscale_0, vadd_0_l in Hp by auto. apply (IH L' y); auto.
      + left. apply pivot_Some in Hq as (Hql & Hqn & Hqz).
        apply pivot_Some in Hp as (Hpl & Hpn & Hpz).
        assert (Hyz : forall i, (i <= q)%nat -> vget y i = 0).
        { intros i Hi. eapply span_zero_at; [exact L'| |exact Hy].
          intros v Hv. eapply echelon_zero_before; eauto. lia. }
        assert (Hval : forall i, vget (vadd (vscale c b) y) i = c * vget b i + vget y i).
        { intros i. rewrite vget_vadd by (rewrite vscale_length; auto). rewrite vget_vscale. auto. }
        destruct (Nat.lt_trichotomy q p) as [G|[G|G]]; auto.
        * specialize (Hpz q G). rewrite Hval, (Hyz q) in Hpz by lia.
          exfalso. apply (rmul_nz c (vget b q)); auto. rewrite <- Hpz. ring.
        * exfalso. apply Hpn. rewrite Hval, (Hyz p) by lia. rewrite (Hqz p) by lia. ring.
  Qed.

  Lemma pivots_length k bs : echelon_from k bs -> length (pivots bs) = length bs.
  Proof. induction 1 as [|k p b bs Hp Hk E IH]; simpl; auto. rewrite Hp. simpl. rewrite IH; auto. Qed.

  Lemma pivots_ge k bs p : echelon_from k bs -> In p (pivots bs) -> (k <= p)%nat.
  Proof.
    induction 1 as [|k q b bs Hp Hk E IH]; simpl; [tauto|].
    rewrite Hp. simpl. intros [->|Hin]; auto. specialize (IH Hin). lia.
  Qed.

  Lemma echelon_app k bs b p :
    echelon_from k bs -> pivot b = Some p -> (k <= p)%nat ->
    (forall q, In q (pivots bs) -> (q < p)%nat) -> echelon_from k (bs ++ [b]).
  Proof.
    induction 1 as [|k q c bs Hp Hk E IH]; intros Hb Hkp Hq; simpl.
    - econstructor; eauto. constructor.
    - simpl in Hq. rewrite Hp in Hq. simpl in Hq. econstructor; eauto.
      apply IH; auto. specialize (Hq q (or_introl eq_refl)). lia.
  Qed.

  (** triangular systems are solvable up to a non-zero factor *)
  Lemma echelon_solvable n k bs (w : list R) :
    lens n bs -> echelon_from k bs -> length w = length bs ->
    exists d z, d <> 0 /\ length z = n /\ map (fun b => dot b z) bs = vscale d w.
  Proof.
    intros L E; revert w; induction E as [k|k p b bs Hp Hk E IH]; intros w Hw.
    - destruct w; [|discriminate]. exists 1, (vzero n). repeat split; auto using r_nontriv, vzero_length.
    - destruct w as [|w0 w]; [discriminate|]. inversion L as [|? ? Hb L']; subst. simpl in Hw.
      destruct (IH L' w) as (d & z & Hd & Hz & Hm); [lia|].
      pose proof Hp as Hp'. apply pivot_Some in Hp' as (Hpl & Hpn & Hpz).
      set (al := vget b p). set (be := d * w0 - dot b z).
      exists (al * d), (vadd (vscale al z) (vscale be (vunit (length b) p))).
      assert (Hdot : forall c, length c = length b ->
        dot c (vadd (vscale al z) (vscale be (vunit (length b) p))) = al * dot c z + be * vget c p).
      { intros c Hc. rewrite dot_comm, dot_vadd_l by (rewrite !vscale_length, vunit_length; auto).
        rewrite !dot_vscale_l. rewrite (dot_comm z c), (dot_comm (vunit (length b) p) c), dot_vunit by auto. auto. }
      split; [apply rmul_nz; auto|]. split.
      { rewrite vadd_length; rewrite !vscale_length; auto. rewrite vunit_length; auto. }
      simpl. f_equal.
      + rewrite Hdot by auto. fold al. unfold be. ring.
      + rewrite <- vscale_mul, <- Hm.
        unfold vscale at 3. rewrite map_map. apply map_ext_in. intros c Hc.
        unfold lens in L'. rewrite Forall_forall in L'.
        rewrite Hdot by auto. rewrite (echelon_zero_before (S p) bs c p); auto. ring.
  Qed.
End Vec.
