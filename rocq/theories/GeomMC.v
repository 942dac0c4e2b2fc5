(** Bridge between the mathcomp facts and the plain statements about
    geometry.rs: two-sided inverses and Sylvester's criterion over [Qc]. *)
From Coq Require Import ZArith QArith Qcanon List Lia.
From mathcomp Require Import all_ssreflect all_algebra.
From mathcomp Require Import ssrZ.
From Verif Require Import Base QcTac Vec Elim Matrix MatrixMore Scalars LinAlg Shapes MC Det Rank Sylvester Props_Det.
Set Implicit Arguments.
Unset Strict Implicit.
Unset Printing Implicit Defensive.
Import GRing.Theory.
Local Open Scope ring_scope.

Lemma Qc_solves_comm n (f x : nat -> nat -> Qc) : solves n n n f delta x -> solves n n n x delta f.
Proof. exact: (@solves_comm Qc_idomainType). Qed.
Lemma Z_solves_comm n (f x : nat -> nat -> Z) : solves n n n f delta x -> solves n n n x delta f.
Proof. exact: (@solves_comm [idomainType of Z]). Qed.

(** the quadratic form of [f] on the coordinate vectors [u], [v] *)
Definition qform (n : nat) (f : nat -> nat -> Qc) (u v : nat -> Qc) : Qc :=
  sumf n (fun i => sumf n (fun j => rmul (rmul (u i) (f i j)) (v j))).

Lemma form_qform n (f : nat -> nat -> Qc) (u v : nat -> Qc) :
  form (mxf n n f : 'M[F]_n) (\col_(i < n) u i) (\col_(i < n) v i) = qform n f u v.
Proof.
  rewrite /form /qform mxE (@sumf_big Qc_idomainType).
  transitivity (\sum_(j < n) \sum_(i < n) ((u i * f i j) * v j : F)).
  - apply: eq_bigr => j _. rewrite !mxE big_distrl /=. apply: eq_bigr => i _. by rewrite !mxE.
  - rewrite exchange_big /=. apply: eq_bigr => i _. by rewrite (@sumf_big Qc_idomainType).
Qed.

Lemma qform_ext n f g u v : (forall i j, (i < n)%coq_nat -> (j < n)%coq_nat -> f i j = g i j) ->
  qform n f u v = qform n g u v.
Proof. move=> H. apply: sumf_ext => i Hi. apply: sumf_ext => j Hj. by rewrite H. Qed.

Lemma sylvester_q n (f : nat -> nat -> Qc) : (forall i j, (i < n)%coq_nat -> (j < n)%coq_nat -> f i j = f j i) ->
  ((forall k d, (1 <= k)%coq_nat -> (k <= n)%coq_nat -> determinant (mk k k f) = Ret d -> (0 < d)%Qc) <->
   (forall u : nat -> Qc, (exists i, (i < n)%coq_nat /\ u i <> 0%Qc) -> (0 < qform n f u u)%Qc)).
Proof.
  move=> sym.
  pose g i j := if Nat.ltb i n && Nat.ltb j n then f i j else 0%Qc.
  have gf : forall i j, (i < n)%coq_nat -> (j < n)%coq_nat -> g i j = f i j.
  { move=> i j Hi Hj. rewrite /g. by case: Nat.ltb_spec => [_|]; [case: Nat.ltb_spec => // |]; lia. }
  have gsym : forall i j, g i j = g j i.
  { move=> i j. rewrite /g. case: (Nat.ltb_spec i n) => Hi; case: (Nat.ltb_spec j n) => Hj //=. exact: sym. }
  have S := sylvester gsym n.
  have D : forall k, (k <= n)%coq_nat -> determinant (mk k k f) = Ret (\det (mxf k k g : 'M[F]_k)).
  { move=> k Hk. rewrite (@determinant_mk Qc_idomainType). congr (Ret (\det _)).
    apply/matrixP => i j. rewrite !mxE gf //.
    - have /ltP := ltn_ord i. lia.
    - have /ltP := ltn_ord j. lia. }
  split.
  - move=> H u [i [Hi Ui]]. rewrite -(qform_ext u u gf) -form_qform.
    have P := (proj1 S). apply: P.
    + move=> k /andP [/leP H1 /leP H2]. apply: (H k) => //. exact: D.
    + apply/eqP => /matrixP E. have /ltP Hi' := Hi. have := E (Ordinal Hi') ord0. by rewrite !mxE.
  - move=> H k d H1 H2. rewrite D //. case=> <-. apply: (proj2 S); last by apply/andP; split; apply/leP.
    move=> u Hu. 
    pose w (i : nat) : Qc := match insub i with Some o => u o ord0 | None => 0 end.
    have Ew : u = \col_(i < n) w i.
    { apply/matrixP => i j. rewrite mxE (ord1 j) /w. by rewrite valK. }
    rewrite Ew form_qform (qform_ext w w gf). apply: H.
    have [i Hi] : exists i, u i ord0 != 0.
    { apply/existsP. rewrite -negb_forall. apply: contra Hu => /forallP A.
      apply/eqP/matrixP => i j. rewrite (ord1 j) mxE. by apply/eqP; exact: A. }
    exists i. split; first exact/ltP. rewrite /w valK. exact/eqP.
Qed.

Lemma Qc_det_inverse (a : mat Qc) : wfm a -> nrows a = ncols a -> (0 < nrows a)%coq_nat ->
  exists r d, inverse a = Ret r /\ determinant a = Ret d /\ match r with Some _ => d <> 0%Qc | None => d = 0%Qc end.
Proof.
  move=> W E /ltP H. have [r [id [d [H1 [H2 [H3 H4]]]]]] := C12_inverse_rational W E H.
  exists r, d. splits=> //. case: r H1 H4 => [b|] _; tauto.
Qed.
