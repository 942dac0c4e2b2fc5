(** Properties C43-C47 of src/spacegroups/lattices.rs: lattices over the rational numbers. *)
From Coq Require Import List ZArith Lia Bool PeanoNat QArith Qcanon Qround Sorting.Sorted.
From Verif Require Import Base Vec Elim Scalars ZQ QcTac OrdSet Component Lattices RatLattice Reduce Voronoi ReducedBasis.
From Verif Require RankQ.
Import ListNotations.
Close Scope Q_scope. Close Scope Qc_scope.
Open Scope nat_scope.

(** ** specification *)
(** Points of Q^d are lists of d numbers. *)
Definition point (d : nat) (x : list Qc) : Prop := length x = d.
Definition coordinate (i : nat) (x : list Qc) : Qc := nth i x 0%Qc.
Definition from_coordinates (d : nat) (f : nat -> Qc) : list Qc := map f (seq 0 d).
Definition plus (d : nat) (x y : list Qc) : list Qc := from_coordinates d (fun i => coordinate i x + coordinate i y)%Qc.
Definition minus (d : nat) (x y : list Qc) : list Qc := from_coordinates d (fun i => coordinate i x - coordinate i y)%Qc.
Definition multiple (d : nat) (t : Qc) (x : list Qc) : list Qc := from_coordinates d (fun i => t * coordinate i x)%Qc.
Definition origin (d : nat) : list Qc := from_coordinates d (fun _ => 0%Qc).
(** the vector whose i-th coordinate is the sum of c * coordinate i v over the pairs (c, v) *)
Definition combination (d : nat) (cs : list Qc) (vs : list (list Qc)) : list Qc :=
  from_coordinates d (fun i => fold_right (fun cv s => fst cv * coordinate i (snd cv) + s)%Qc 0%Qc (combine cs vs)).
(** integer combinations of vs *)
Definition in_lattice (d : nat) (vs : list (list Qc)) (x : list Qc) : Prop :=
  exists zs : list Z, length zs = length vs /\ x = combination d (map ZQ zs) vs.
(** rational combinations of vs *)
Definition in_space (d : nat) (vs : list (list Qc)) (x : list Qc) : Prop :=
  exists cs : list Qc, length cs = length vs /\ x = combination d cs vs.
(** d independent vectors *)
Record is_basis (d : nat) (vs : list (list Qc)) : Prop := {
  ba_points : Forall (point d) vs;
  ba_length : length vs = d;
  ba_independent : forall cs, length cs = length vs -> combination d cs vs = origin d -> Forall (fun c => c = 0%Qc) cs }.
(** positive definite symmetric bilinear *)
Record scalar_product (d : nat) (dot : list Qc -> list Qc -> Qc) : Prop := {
  sp_sym : forall x y, point d x -> point d y -> dot x y = dot y x;
  sp_plus : forall x y z, point d x -> point d y -> point d z -> dot (plus d x y) z = (dot x z + dot y z)%Qc;
  sp_multiple : forall t x z, point d x -> point d z -> dot (multiple d t x) z = (t * dot x z)%Qc;
  sp_positive : forall x, point d x -> x <> origin d -> (0 < dot x x)%Qc }.
Definition generate_same (d : nat) (vs ws : list (list Qc)) : Prop := forall x, in_lattice d vs x <-> in_lattice d ws x.

(** ** from the specification to the proofs *)
Lemma from_length d f : length (from_coordinates d f) = d.
Proof. unfold from_coordinates. rewrite map_length, seq_length. auto. Qed.
Lemma from_get d f k : k < d -> nth k (from_coordinates d f) 0%Qc = f k.
Proof. intros H. unfold from_coordinates. rewrite nth_indep with (d' := f 0) by (rewrite map_length, seq_length; auto). rewrite map_nth, seq_nth by auto. auto. Qed.
Lemma ext_lt d (x y : list Qc) : length x = d -> length y = d -> (forall k, k < d -> nth k x 0%Qc = nth k y 0%Qc) -> x = y.
Proof. intros Lx Ly H. apply (nth_ext x y 0%Qc 0%Qc); [congruence|]. intros k Hk. apply H. lia. Qed.
Lemma plus_ladd d x y : point d x -> point d y -> plus d x y = ladd x y.
Proof.
  intros Lx Ly. unfold point in *. apply (ext_lt d); [apply from_length|apply ladd_length; auto|]. intros k Hk. unfold plus. rewrite from_get by auto.
  symmetry. exact (lget_add d x y k Lx Ly).
Qed.
Lemma minus_lsub d x y : point d x -> point d y -> minus d x y = lsub x y.
Proof.
  intros Lx Ly. unfold point in *. apply (ext_lt d); [apply from_length|apply lsub_length; auto|]. intros k Hk. unfold minus. rewrite from_get by auto.
  symmetry. exact (lget_sub d x y k Lx Ly).
Qed.
Lemma multiple_lmulc d t x : point d x -> multiple d t x = lmulc x t.
Proof.
  intros Lx. unfold point in *. apply (ext_lt d); [apply from_length|rewrite lmulc_length; auto|]. intros k Hk. unfold multiple. rewrite from_get by auto.
  pose proof (lget_mulc x t k) as H. cbn beta in H. rewrite H. unfold coordinate. ring.
Qed.
Lemma origin_zero d : origin d = repeat 0%Qc d.
Proof.
  apply (ext_lt d); [apply from_length|apply repeat_length|]. intros k Hk. unfold origin. rewrite from_get by auto. symmetry. exact (lget_zero d k).
Qed.
Lemma combination_lincomb d cs vs : lens d vs -> combination d cs vs = lincomb d cs vs.
Proof.
  intros L. apply (ext_lt d); [apply from_length|apply lincomb_length; auto|]. intros k Hk. unfold combination. rewrite from_get by auto.
  revert vs L. induction cs as [|c cs IH]; intros vs L; cbn [combine fold_right lincomb]; [rewrite vzero_rep; symmetry; exact (lget_zero d k)|].
  destruct L as [|v vs Lv L]; cbn [combine fold_right lincomb fst snd]; [rewrite vzero_rep; symmetry; exact (lget_zero d k)|].
  rewrite IH by auto. rewrite vadd_ladd, vscale_lmulc. pose proof (lget_add d (lmulc v c) (lincomb d cs vs) k) as H. cbn beta in H.
  rewrite H; [|rewrite lmulc_length; auto|apply (lincomb_length (R := Qc)); auto]. pose proof (lget_mulc v c k) as H2. cbn beta in H2. rewrite H2. unfold coordinate. ring.
Qed.
Lemma in_lattice_zcomb d vs x : lens d vs -> in_lattice d vs x <-> zcomb d vs x.
Proof.
  intros L. unfold in_lattice, zcomb. split; intros (zs & Lz & ->); exists zs; split; auto; [apply combination_lincomb; auto|symmetry; apply combination_lincomb; auto].
Qed.
Lemma in_space_span d vs x : lens d vs -> in_space d vs x <-> span d vs x.
Proof.
  intros L. unfold in_space, span. split; intros (zs & Lz & ->); exists zs; split; auto; [apply combination_lincomb; auto|symmetry; apply combination_lincomb; auto].
Qed.
Lemma is_basis_rk d vs : is_basis d vs <-> lens d vs /\ length vs = d /\ rk d vs = d.
Proof.
  split.
  - intros [P L I]. splits; auto. rewrite <- L at 2. apply (@RankQ.indep_rk); auto. intros cs Lc E. rewrite <- combination_lincomb, vzero_rep, <- origin_zero in E by auto.
    apply I in E; auto. rewrite vzero_rep. apply (ext_lt (length vs)); auto; [apply repeat_length|]. intros k Hk. pose proof (lget_zero (length vs) k) as Z. cbn beta in Z. rewrite Z.
    rewrite Forall_forall in E. apply E. apply nth_In. lia.
  - intros (P & L & R). constructor; auto. intros cs Lc E. rewrite combination_lincomb, origin_zero, <- vzero_rep in E by auto.
    apply (@RankQ.rk_indep) in E; auto; [|congruence]. rewrite E, vzero_rep. apply Forall_forall. intros c Hc. apply repeat_spec in Hc. auto.
Qed.
Lemma sp_hyps d dot : scalar_product d dot ->
  (forall x y, length x = d -> length y = d -> dot x y = dot y x) /\
  (forall x y z, length x = d -> length y = d -> length z = d -> dot (ladd x y) z = (dot x z + dot y z)%Qc) /\
  (forall x t z, length x = d -> length z = d -> dot (lmulc x t) z = (t * dot x z)%Qc) /\
  (forall x, length x = d -> x <> repeat 0%Qc d -> (0 < dot x x)%Qc).
Proof.
  intros [H1 H2 H3 H4]. splits.
  - exact H1.
  - intros x y z Lx Ly Lz. rewrite <- plus_ladd with (d := d) by auto. apply H2; auto.
  - intros x t z Lx Lz. rewrite <- multiple_lmulc with (d := d) by auto. apply H3; auto.
  - intros x Lx N. apply H4; auto. rewrite origin_zero. auto.
Qed.
Lemma same_generate d vs ws : same_lattice d vs ws -> generate_same d vs ws.
Proof. intros S x. pose proof S as (Lv & Lw & _). rewrite !in_lattice_zcomb by auto. apply same_lattice_iff. auto. Qed.

(** ** more fuel gives the same result; the vectors are not zero *)
Lemma lagrange_mono dot eps k k' u v r : k <= k' -> lagrange_reduced dot eps k u v = Ret r -> lagrange_reduced dot eps k' u v = Ret r.
Proof.
  intros Hk. unfold lagrange_reduced. destruct (if q_ltb (dot v v) (dot u u) then (v, u) else (u, v)) as [u0 v0].
  destruct (loop (lr_body dot eps) k (u0, v0)) as [x| |] eqn:E; cbn [bind]; try discriminate. rewrite (loop_mono _ _ _ _ _ Hk E). auto.
Qed.
Lemma selling_mono dot eps k k' u v w r : k <= k' -> selling_reduced dot eps k u v w = Ret r -> selling_reduced dot eps k' u v w = Ret r.
Proof.
  intros Hk. unfold selling_reduced.
  destruct (loop (selling_body dot eps) k _) as [x| |] eqn:E; cbn [bind]; try discriminate. rewrite (loop_mono _ _ _ _ _ Hk E). auto.
Qed.
Lemma dirichlet_vectors_mono dot eps k k' basis ws : k <= k' -> dirichlet_vectors dot eps k basis = Ret ws -> dirichlet_vectors dot eps k' basis = Ret ws.
Proof.
  intros Hk. unfold dirichlet_vectors. destruct (assert _); cbn [bind]; try discriminate.
  destruct basis as [|b0 [|b1 [|b2 [|]]]]; auto.
  - destruct (lagrange_reduced dot eps k b0 b1) as [x| |] eqn:E; cbn [bind]; try discriminate. rewrite (lagrange_mono _ _ _ _ _ _ _ Hk E). auto.
  - destruct (selling_reduced dot eps k b0 b1 b2) as [x| |] eqn:E; cbn [bind]; try discriminate. rewrite (selling_mono _ _ _ _ _ _ _ _ Hk E). auto.
Qed.
Lemma comb_nz d vs cs : lens d vs -> rk d vs = length vs -> length cs = length vs -> existsb (fun c => negb (Qc_eqb c 0%Qc)) cs = true -> lincomb d cs vs <> repeat 0%Qc d.
Proof.
  intros L R Lc Ex E. rewrite <- vzero_rep in E. apply (@RankQ.rk_indep) in E; auto. apply existsb_exists in Ex as (c & Hc & N). rewrite E, vzero_rep in Hc. apply repeat_spec in Hc as ->. discriminate.
Qed.
Lemma dirichlet_nonzero d dot :
  (forall x y, length x = d -> length y = d -> dot x y = dot y x) ->
  (forall x y z, length x = d -> length y = d -> length z = d -> dot (ladd x y) z = (dot x z + dot y z)%Qc) ->
  (forall x t z, length x = d -> length z = d -> dot (lmulc x t) z = (t * dot x z)%Qc) ->
  (forall x, length x = d -> x <> repeat 0%Qc d -> (0 < dot x x)%Qc) ->
  forall basis ws fuel, lens d basis -> length basis = d -> rk d basis = d -> dirichlet_vectors dot 0%Qc fuel basis = Ret ws -> forall w, In w ws -> w <> repeat 0%Qc d.
Proof.
  intros H1 H2 H3 H4 basis ws fuel L Ln R. unfold dirichlet_vectors. destruct (assert _); cbn [bind]; try discriminate.
  assert (one : forall vs cs w, lens d vs -> rk d vs = length vs -> length cs = length vs -> existsb (fun c => negb (Qc_eqb c 0%Qc)) cs = true -> w = lincomb d cs vs -> w <> repeat 0%Qc d).
  { intros vs cs w ? ? ? ? ->. apply comb_nz; auto. }
  destruct basis as [|b0 [|b1 [|b2 [|]]]]; try discriminate.
  - intros [= <-] w [].
  - intros [= <-] w Hw. apply (independent_nz d [b0]); auto. congruence.
  - assert (L0 : length b0 = d) by (eapply lens_In; [exact L|simpl; auto]). assert (L1 : length b1 = d) by (eapply lens_In; [exact L|simpl; auto]).
    destruct (lagrange_reduced dot 0%Qc fuel b0 b1) as [x| |] eqn:E; cbn [bind]; try discriminate.
    destruct (lagrange_ok d dot H1 H2 H3 H4 b0 b1 L0 L1) as (k0 & u & v & E' & Lu & Lv & SL & _); [rewrite R, <- Ln; reflexivity|].
    apply (lagrange_mono _ _ _ _ _ _ _ (Nat.le_max_r k0 fuel)) in E. rewrite (E' _ (Nat.le_max_l k0 fuel)) in E. injection E as <-. intros [= <-].
    assert (Luv : lens d [u; v]) by (repeat constructor; auto). assert (Ruv : rk d [u; v] = 2) by (rewrite <- (same_lattice_rk d _ _ SL), R, <- Ln; reflexivity).
    intros w [<-|[<-|[<-|[]]]].
    + apply (independent_nz d [u; v]); simpl; auto.
    + apply (independent_nz d [u; v]); simpl; auto.
    + apply (one [u; v] [1%Qc; 1%Qc]); auto. match goal with |- ?l = _ => remember l as x eqn:Ex end. cbn [lincomb]. rewrite !vadd_ladd, !vscale_lmulc, vzero_rep, Ex. vring d.
  - assert (L0 : length b0 = d) by (eapply lens_In; [exact L|simpl; auto]). assert (L1 : length b1 = d) by (eapply lens_In; [exact L|simpl; auto]). assert (L2 : length b2 = d) by (eapply lens_In; [exact L|simpl; auto]).
    destruct (selling_reduced dot 0%Qc fuel b0 b1 b2) as [x| |] eqn:E; cbn [bind]; try discriminate.
    destruct (selling_ok d dot H1 H2 H3 H4 b0 b1 b2 L0 L1 L2) as (k0 & u & v & w & s & E' & Sb & _).
    apply (selling_mono _ _ _ _ _ _ _ _ (Nat.le_max_r k0 fuel)) in E. rewrite (E' _ (Nat.le_max_l k0 fuel)) in E. injection E as <-. intros [= <-].
    pose proof Sb as [Lu Lv Lw Ls Su SL].
    assert (Lr : lens d [u; v; w]) by (repeat constructor; auto). assert (L4 : lens d [u; v; w; s]) by (repeat constructor; auto).
    assert (Rr : rk d [u; v; w] = 3).
    { apply Nat.le_antisymm; [apply (@RankQ.rk_length)|]. cbn in Ln. replace 3 with (rk d [u; v; w; s]) by (rewrite <- (same_lattice_rk d _ _ SL), R; auto). apply (@RankQ.rk_mono); auto.
      intros x [<-|[<-|[<-|[<-|[]]]]]; try (apply (span_In (R := Qc)); simpl; auto; fail).
      assert (Es : s = lmulc (ladd (ladd u v) w) (- (1))%Qc).
      { apply (lvec_ext d); [vlen|vlen|]. intros k. pose proof (sum_get d u v w s k Lu Lv Lw Ls Su) as Sk. rewrite lget_mulc. repeat rewrite (lget_add d) by vlen.
        cbn beta in Sk |- *. generalize dependent (nth k u 0%Qc). generalize (nth k v 0%Qc), (nth k w 0%Qc), (nth k s 0%Qc). intros. qclra. }
      rewrite Es. apply span_scale'. apply span_add'; [apply span_add'|]; apply (span_In (R := Qc)); simpl; auto. }
    intros x [<-|[<-|[<-|[<-|[<-|[<-|[<-|[]]]]]]]].
    1-3: apply (independent_nz d [u; v; w]); simpl; auto.
    + apply (one [u; v; w] [1%Qc; 1%Qc; 0%Qc]); auto. match goal with |- ?l = _ => remember l as x eqn:Ex end. cbn [lincomb]. rewrite !vadd_ladd, !vscale_lmulc, vzero_rep, Ex. vring d.
    + apply (one [u; v; w] [1%Qc; 0%Qc; 1%Qc]); auto. match goal with |- ?l = _ => remember l as x eqn:Ex end. cbn [lincomb]. rewrite !vadd_ladd, !vscale_lmulc, vzero_rep, Ex. vring d.
    + apply (one [u; v; w] [0%Qc; 1%Qc; 1%Qc]); auto. match goal with |- ?l = _ => remember l as x eqn:Ex end. cbn [lincomb]. rewrite !vadd_ladd, !vscale_lmulc, vzero_rep, Ex. vring d.
    + apply (one [u; v; w] [1%Qc; 1%Qc; 1%Qc]); auto. match goal with |- ?l = _ => remember l as x eqn:Ex end. cbn [lincomb]. rewrite !vadd_ladd, !vscale_lmulc, vzero_rep, Ex. vring d.
Qed.

(** ** examples *)
Definition euclid (x y : list Qc) : Qc := fold_right (fun ab s => fst ab * snd ab + s)%Qc 0%Qc (combine x y).
Lemma euclid_scalar d : scalar_product d euclid.
Proof.
  unfold point. constructor; unfold point.
  - intros x. revert d. induction x as [|a x IH]; intros d [|b y] Lx Ly; auto. unfold euclid in *. cbn in *. rewrite (IH (length x)); [ring|auto|lia].
  - intros x y z Lx Ly Lz. rewrite plus_ladd by auto. revert d y z Lx Ly Lz. unfold ladd, euclid. induction x as [|a x IH]; intros d [|b y] [|c z] Lx Ly Lz; cbn in *; subst; try discriminate; [ring|].
    rewrite (IH (length x)) by lia. ring.
  - intros t x z Lx Lz. rewrite multiple_lmulc by auto. revert d z Lx Lz. unfold lmulc, euclid. induction x as [|a x IH]; intros d [|c z] Lx Lz; cbn in *; subst; try discriminate; try ring.
    rewrite (IH (length x)) by lia. ring.
  - intros x Lx N. rewrite origin_zero in N. revert d Lx N. unfold euclid. induction x as [|a x IH]; intros d Lx N; cbn in *; subst; [exfalso; apply N; reflexivity|].
    assert (P : forall y : list Qc, (0 <= fold_right (fun ab s => fst ab * snd ab + s)%Qc 0%Qc (combine y y))%Qc).
    { induction y as [|b y IHy]; cbn [combine fold_right fst snd]; [apply Qcle_refl|]. pose proof (Qc_sq_nonneg b). qclra. }
    destruct (Qc_eq_dec a 0%Qc) as [->|Ha].
    + assert (Nx : x <> repeat 0%Qc (length x)) by (intros E; apply N; cbn; rewrite <- E; auto). pose proof (IH _ eq_refl Nx). qclra.
    + pose proof (P x). pose proof (Qc_sq_pos a Ha). qclra.
Qed.
(** the lattice of the integer points in the plane, badly presented *)
Definition skewed : list (list Qc) := [[ZQ 5; ZQ 3]; [ZQ 3; ZQ 2]].
(** a body-centred cubic lattice *)
Definition bcc : list (list Qc) := [[ZQ 1; ZQ 1; ZQ 1]; [ZQ 2; ZQ 0; ZQ 0]; [ZQ 0; ZQ 2; ZQ 0]].
Lemma basis_by_det2 (a b c e : Qc) : (a * e - b * c <> 0)%Qc -> is_basis 2 [[a; b]; [c; e]].
Proof.
  intros D. constructor; [repeat constructor|reflexivity|]. intros [|x [|y [|]]] L E; try discriminate.
  unfold combination, origin, from_coordinates, coordinate in E. cbn [combine fold_right fst snd seq map] in E.
  pose proof (f_equal (fun l => nth 0 l 0%Qc) E) as E0. pose proof (f_equal (fun l => nth 1 l 0%Qc) E) as E1. cbn [nth] in E0, E1. clear E.
  repeat constructor.
  - assert (X : (x * (a * e - b * c) = 0)%Qc) by (transitivity (e * (x * a + (y * c + 0)) - c * (x * b + (y * e + 0)))%Qc; [ring|rewrite E0, E1; ring]).
    apply Qcmult_integral in X as [X|X]; [auto|contradiction].
  - assert (X : (y * (a * e - b * c) = 0)%Qc) by (transitivity (a * (x * b + (y * e + 0)) - b * (x * a + (y * c + 0)))%Qc; [ring|rewrite E0, E1; ring]).
    apply Qcmult_integral in X as [X|X]; [auto|contradiction].
Qed.
Lemma skewed_basis : is_basis 2 skewed.
Proof. apply basis_by_det2. intros H. apply (f_equal (fun q : Qc => Qnum (this q))) in H. vm_compute in H. discriminate. Qed.
Lemma bcc_basis : is_basis 3 bcc.
Proof.
  constructor; [repeat constructor|reflexivity|]. intros [|x [|y [|z [|]]]] L E; try discriminate.
  unfold combination, origin, from_coordinates, coordinate, bcc in E. cbn [combine fold_right fst snd seq map] in E.
  pose proof (f_equal (fun l => nth 0 l 0%Qc) E) as E0. pose proof (f_equal (fun l => nth 1 l 0%Qc) E) as E1. pose proof (f_equal (fun l => nth 2 l 0%Qc) E) as E2. cbn [nth] in E0, E1, E2. clear E.
  change (ZQ 0) with 0%Qc in *. change (ZQ 1) with 1%Qc in *. change (ZQ 2) with (1 + 1)%Qc in *.
  assert (x = 0%Qc) by qclra. assert (y = 0%Qc) by qclra. assert (z = 0%Qc) by qclra. repeat constructor; auto.
Qed.

(** ** C43 *)
Definition integer_vector (d : nat) (z : list Z) : list Qc := from_coordinates d (fun i => ZQ (nth i z 0%Z)).
(** c is the least positive integer such that c * x is an integer for all entries x *)
Definition least_denominator (vs : list (list Qc)) (c : Z) : Prop :=
  (0 < c)%Z /\ (forall v x, In v vs -> In x v -> exists z, (x * ZQ c = ZQ z)%Qc) /\
  forall c', (0 < c')%Z -> (forall v x, In v vs -> In x v -> exists z, (x * ZQ c' = ZQ z)%Qc) -> (c <= c')%Z.
Definition fits_i32 (z : Z) : Prop := (- 2 ^ 31 <= z < 2 ^ 31)%Z.

Lemma lincomb_app d cs cs' vs ws : lens d vs -> lens d ws -> length cs = length vs -> lincomb d (cs ++ cs') (vs ++ ws) = ladd (lincomb d cs vs) (lincomb d cs' ws).
Proof.
  intros Lv Lw. revert cs. induction Lv as [|v vs Hv Lv IH]; intros [|c cs] Lc; try discriminate; cbn [app lincomb].
  - rewrite vzero_rep. assert (H := lincomb_length (R := Qc) d cs' ws Lw). vring d.
  - cbn in Lc. injection Lc as Lc. rewrite IH by auto. rewrite !vadd_ladd, vscale_lmulc. assert (H := lincomb_length (R := Qc) d cs' ws Lw). assert (H' := lincomb_length (R := Qc) d cs vs Lv). vring d.
Qed.
Lemma lincomb_units d (cs : list Qc) : length cs = d -> lincomb d cs (units d) = cs.
Proof.
  intros Lc. assert (Lu : lens d (units d)) by (apply Forall_forall; intros r Hr; apply in_map_iff in Hr as (k & <- & _); rewrite map_length, seq_length; auto).
  rewrite <- combination_lincomb by auto. apply (ext_lt d); auto; [apply from_length|]. intros i Hi. unfold combination. rewrite from_get by auto.
  unfold units. assert (G : forall m (cs : list Qc), fold_right (fun cv s => (fst cv * coordinate i (snd cv) + s)%Qc) 0%Qc (combine cs (map (fun k => map (fun j => if j =? k then 1%Qc else 0%Qc) (seq 0 d)) (seq m (length cs)))) =
    if m <=? i then nth (i - m) cs 0%Qc else 0%Qc).
  { intros m c. revert m. induction c as [|x c IH]; intros m; cbn [length seq map combine fold_right fst snd].
    - destruct (m <=? i); auto. destruct (i - m); auto.
    - rewrite IH. assert (E : coordinate i (map (fun j => if j =? m then 1%Qc else 0%Qc) (seq 0 d)) = if i =? m then 1%Qc else 0%Qc) by (unfold coordinate; apply (from_get d (fun j => if j =? m then 1%Qc else 0%Qc)); auto).
      rewrite E. destruct (Nat.leb_spec (S m) i) as [H|H].
      + destruct (Nat.leb_spec m i); [|lia]. destruct (Nat.eqb_spec i m); [lia|]. replace (i - m) with (S (i - S m)) by lia. cbn [nth]. ring.
      + destruct (Nat.leb_spec m i).
        * assert (i = m) as -> by lia. rewrite Nat.eqb_refl, Nat.sub_diag. cbn [nth]. ring.
        * destruct (Nat.eqb_spec i m); [lia|]. ring. }
  specialize (G 0 cs). rewrite Lc in G. rewrite G. cbn [Nat.leb]. rewrite Nat.sub_0_r. auto.
Qed.

Lemma int_vec d zs : length zs = d -> map ZQ zs = integer_vector d zs.
Proof.
  intros L. apply (ext_lt d); [rewrite map_length; auto|apply from_length|]. intros k Hk. unfold integer_vector. rewrite from_get by auto. change 0%Qc with (ZQ 0). apply map_nth.
Qed.
Lemma integer_vector_exists d z : exists zs, length zs = d /\ integer_vector d z = map ZQ zs.
Proof.
  exists (map (fun i => nth i z 0%Z) (seq 0 d)). rewrite map_length, seq_length. split; auto. unfold integer_vector, from_coordinates. rewrite map_map. auto.
Qed.

(** The result is a basis of the lattice of all sums of an integer vector and an integer combination of the given vectors. *)
Theorem C43_rational_lattice_basis d vs bs : Forall (point d) vs -> rational_lattice_basis vs = Ret bs ->
  is_basis d bs /\ forall x, in_lattice d bs x <-> exists z y, in_lattice d vs y /\ x = plus d (integer_vector d z) y.
Proof.
  intros L E. destruct (rational_lattice_basis_ok d vs bs L E) as (Lb & Lbs & H).
  assert (Lu : lens d (units d)) by (apply Forall_forall; intros r Hr; apply in_map_iff in Hr as (k & <- & _); rewrite map_length, seq_length; auto).
  assert (LL : lens d (units d ++ vs)) by (apply Forall_app; auto).
  assert (Hu : length (units d) = d) by (unfold units; rewrite map_length, seq_length; auto).
  split.
  - apply is_basis_rk. splits; auto. apply Nat.le_antisymm; [apply (@RankQ.rk_dim)|].
    destruct (@RankQ.rk_units d) as [U1 U2]. rewrite <- U2 at 1. apply (@RankQ.rk_mono); auto. intros v Hv. apply zcomb_span; auto. apply H.
    apply zcomb_In; auto. apply in_app_iff. left. apply in_map_iff in Hv as (k & <- & Hk). unfold units. apply in_map_iff. exists k. split; auto.
  - intros x. rewrite in_lattice_zcomb, H by auto. split.
    + intros (cs & Lc & ->). rewrite app_length, Hu in Lc. rewrite <- (firstn_skipn d cs), map_app. assert (Lf : length (firstn d cs) = d) by (rewrite firstn_length; lia).
      assert (Ls : length (skipn d cs) = length vs) by (rewrite skipn_length; lia).
      rewrite lincomb_app by (auto; rewrite map_length; lia). rewrite lincomb_units by (rewrite map_length; auto).
      exists (firstn d cs), (lincomb d (map ZQ (skipn d cs)) vs). split.
      * apply in_lattice_zcomb; auto. exists (skipn d cs). split; auto.
      * rewrite <- int_vec by auto. symmetry. apply plus_ladd; unfold point; [rewrite map_length; auto|apply (lincomb_length (R := Qc)); auto].
    + intros (z & y & Hy & ->). apply in_lattice_zcomb in Hy as (cs & Lc & ->); auto. destruct (integer_vector_exists d z) as (zs & Lz & ->).
      exists (zs ++ cs). split; [rewrite !app_length, Hu; congruence|]. rewrite map_app, lincomb_app by (auto; rewrite map_length; lia). rewrite lincomb_units by (rewrite map_length; auto).
      apply plus_ladd; unfold point; [rewrite map_length; auto|apply (lincomb_length (R := Qc)); auto].
Qed.

(** It returns a value exactly if there is a vector, and the least common denominator and all scaled entries are in the range of i32. *)
Theorem C43_when_it_returns d vs c : Forall (point d) vs -> least_denominator vs c ->
  ((exists bs, rational_lattice_basis vs = Ret bs) <->
   vs <> [] /\ fits_i32 c /\ forall v x z, In v vs -> In x v -> (x * ZQ c = ZQ z)%Qc -> fits_i32 z) /\
  rational_lattice_basis vs <> Timeout.
Proof.
  intros L (Hc & Hi & Hl). assert (Ec : c = common_denom vs).
  { apply Z.le_antisymm; [apply Hl; [apply common_denom_pos|apply common_denom_int]|apply common_denom_least; auto]. }
  assert (Tot : vs <> [] -> fits_i32 c -> (forall v x z, In v vs -> In x v -> (x * ZQ c = ZQ z)%Qc -> fits_i32 z) -> exists bs, rational_lattice_basis vs = Ret bs).
  { intros N F G. apply (rational_lattice_basis_total d); auto; [unfold fits_i32 in F; lia|]. rewrite <- Ec. intros v x Hv Hx. destruct (Hi v x Hv Hx) as [z Ez].
    pose proof (G v x z Hv Hx Ez) as Fz. unfold fits_i32 in Fz. rewrite Ez, <- ZQ_opp. split; [apply ZQ_le; lia|apply ZQ_lt; lia]. }
  destruct vs as [|v0 vs']; [split; [split; [intros [bs E]; discriminate|intros [N _]; congruence]|discriminate]|].
  set (vs := v0 :: vs') in *. assert (Hd : length v0 = d) by (inversion L; auto).
  assert (NE : vs <> []) by discriminate.
  assert (Back : (fits_i32 c /\ forall v x z, In v vs -> In x v -> (x * ZQ c = ZQ z)%Qc -> fits_i32 z) \/ rational_lattice_basis vs = Panic).
  { unfold rational_lattice_basis. unfold vs at 2. cbn [nth_error unwrap bind]. fold vs. rewrite <- Ec, Hd.
    unfold to_i32. destruct ((- 2 ^ 31 <=? c) && (c <? 2 ^ 31))%Z eqn:B; [|cbn; auto]. apply andb_true_iff in B as [B1 B2]. apply Z.leb_le in B1. apply Z.ltb_lt in B2. cbn [unwrap bind].
    rewrite (foldM_map (fun bs v => extend_basis v bs) (fun k => map (fun j => if j =? k then c else 0%Z) (seq 0 d))). fold (unit_rows d c).
    assert (Lu : lens d (unit_rows d c)). { apply Forall_forall. intros r Hr. apply in_map_iff in Hr as (k & <- & _). rewrite map_length, seq_length. auto. }
    destruct (extend_all_span _ _ Lu) as (b1 & Eb & _). unfold extend_all in Eb. rewrite Eb. cbn [bind].
    assert (M : forall (v : list Qc), (exists l, mapM (fun x => unwrap (r_to_i32 (x * ZQ c)%Qc)) v = Ret l /\ length l = length v /\ forall x z, In x v -> (x * ZQ c = ZQ z)%Qc -> fits_i32 z) \/
       mapM (fun x => unwrap (r_to_i32 (x * ZQ c)%Qc)) v = Panic).
    { induction v as [|x v IH]; cbn [mapM]; [|destruct IH as [(l & -> & Ll & Hf)| ->]].
      - left. exists []. splits; auto. intros x z [].
      - destruct (r_to_i32 (x * ZQ c)%Qc) as [z|] eqn:E; cbn [unwrap bind]; [left|right; auto]. exists (z :: l). splits; auto; [cbn; congruence|].
        apply r_to_i32_Some in E as [E F]. intros y z' [<-|Hy] Ez; [|eapply Hf; eauto]. rewrite E in Ez. apply ZQ_inj in Ez. subst z'. exact F.
      - destruct (r_to_i32 (x * ZQ c)%Qc); cbn [unwrap bind]; right; auto. }
    assert (G : forall l rows b, lens d l -> lens d rows -> foldM (fun bs v => extend_basis v bs) [] rows = Ret b ->
      (forall v x z, In v l -> In x v -> (x * ZQ c = ZQ z)%Qc -> fits_i32 z) \/ foldM (fun bs d => do d' <- mapM (fun x => unwrap (r_to_i32 (x * ZQ c)%Qc)) d; extend_basis d' bs) b l = Panic).
    { induction l as [|v l IH]; intros rows b Ll Lr Er; [left; intros v x z []|]. apply Forall_inv in Ll as Hv. apply Forall_inv_tail in Ll. cbn [foldM].
      destruct (M v) as [(r & -> & Lrv & Hf)| ->]; [|right; auto]. cbn [bind].
      assert (Lr' : lens d (rows ++ [r])) by (apply Forall_app; split; auto; repeat constructor; congruence).
      destruct (extend_all_span _ _ Lr') as (b' & Eb' & _). unfold extend_all in Eb'. pose proof Eb' as Eb2. rewrite foldM_app, Er in Eb2. cbn [bind foldM] in Eb2.
      destruct (extend_basis r b) as [b2| |]; cbn [bind] in Eb2 |- *; try discriminate. injection Eb2 as ->.
      destruct (IH (rows ++ [r]) b' Ll Lr' Eb') as [H|H]; [left|right; auto]. intros w x z [<-|Hw] Hx Ez; [eapply Hf; eauto|eapply H; eauto]. }
    destruct (G vs (unit_rows d c) b1 L Lu Eb) as [H|H]; [left; split; [unfold fits_i32; lia|auto]|right; rewrite H; reflexivity]. }
  destruct Back as [[F G]|P].
  - destruct (Tot NE F G) as [bs E]. split; [split; auto; intros _; exists bs; auto|congruence].
  - split; [split; [intros [bs E]; congruence|intros (_ & F & G); auto]|congruence].
Qed.

Definition halves : list (list Qc) := [[Q2Qc (1 # 2); Q2Qc (1 # 2)]; [0%Qc; Q2Qc (1 # 3)]].
Example C43_example : Forall (point 2) halves /\ least_denominator halves 6 /\
  rational_lattice_basis halves = Ret [[Q2Qc (- 1 # 2); Q2Qc (- 1 # 2)]; [0%Qc; Q2Qc (- 1 # 3)]].
Proof.
  split; [repeat constructor|split; [|qc_compute]].
  assert (E : 6%Z = common_denom halves) by (vm_compute; reflexivity). rewrite E. split; [apply common_denom_pos|split; [apply common_denom_int|intros; apply common_denom_least; auto]].
Qed.

(** ** C44 *)
(** The two reductions end with vectors that generate the same lattice; together with the negative of their sum they make pairwise non-acute angles. *)
Theorem C44_lagrange_reduced d dot b0 b1 : scalar_product d dot -> point d b0 -> point d b1 ->
  (forall c0 c1, combination d [c0; c1] [b0; b1] = origin d -> c0 = 0%Qc /\ c1 = 0%Qc) ->
  exists enough u v, (forall fuel, enough <= fuel -> lagrange_reduced dot 0%Qc fuel b0 b1 = Ret (u, v)) /\
    point d u /\ point d v /\ generate_same d [b0; b1] [u; v] /\
    let s := multiple d (- (1))%Qc (plus d u v) in
    (dot u v <= 0)%Qc /\ (dot u s <= 0)%Qc /\ (dot v s <= 0)%Qc.
Proof.
  intros Sp L0 L1 I. destruct (sp_hyps d dot Sp) as (H1 & H2 & H3 & H4).
  assert (L : lens d [b0; b1]) by (repeat constructor; auto).
  assert (R : rk d [b0; b1] = 2).
  { apply (@RankQ.indep_rk d [b0; b1]); auto. intros [|c0 [|c1 [|]]] Lc E; try discriminate. rewrite <- combination_lincomb, vzero_rep, <- origin_zero in E by auto. apply I in E as [-> ->]. reflexivity. }
  destruct (lagrange_ok d dot H1 H2 H3 H4 b0 b1 L0 L1 R) as (k0 & u & v & E & Lu & Lv & SL & D1 & D2 & D3).
  exists k0, u, v. splits; auto; [apply same_generate; auto|]. cbn zeta. rewrite plus_ladd by auto.
  assert (Ls : point d (ladd u v)) by (unfold point; vlen). rewrite multiple_lmulc by auto. unfold point in *. splits; auto.
  - rewrite H1, H3, H2 by (auto; vlen). rewrite (H1 v u) by auto. qclra.
  - rewrite H1, H3, H2 by (auto; vlen). qclra.
Qed.

Theorem C44_selling_reduced d dot b0 b1 b2 : scalar_product d dot -> point d b0 -> point d b1 -> point d b2 ->
  exists enough u v w, (forall fuel, enough <= fuel -> selling_reduced dot 0%Qc fuel b0 b1 b2 = Ret (u, v, w)) /\
    point d u /\ point d v /\ point d w /\ generate_same d [b0; b1; b2] [u; v; w] /\
    let s := multiple d (- (1))%Qc (plus d (plus d u v) w) in
    (dot u v <= 0)%Qc /\ (dot u w <= 0)%Qc /\ (dot v w <= 0)%Qc /\ (dot u s <= 0)%Qc /\ (dot v s <= 0)%Qc /\ (dot w s <= 0)%Qc.
Proof.
  intros Sp L0 L1 L2. destruct (sp_hyps d dot Sp) as (H1 & H2 & H3 & H4).
  destruct (selling_ok d dot H1 H2 H3 H4 b0 b1 b2 L0 L1 L2) as (k0 & u & v & w & s & E & Sb & D01 & D02 & D03 & D12 & D13 & D23).
  pose proof Sb as [Lu Lv Lw Ls Su SL]. exists k0, u, v, w.
  assert (Es : s = lmulc (ladd (ladd u v) w) (- (1))%Qc).
  { apply (lvec_ext d); [vlen|vlen|]. intros k. pose proof (sum_get d u v w s k Lu Lv Lw Ls Su) as Sk. rewrite lget_mulc. repeat rewrite (lget_add d) by vlen.
    cbn beta in Sk |- *. generalize dependent (nth k u 0%Qc). generalize (nth k v 0%Qc), (nth k w 0%Qc), (nth k s 0%Qc). intros. qclra. }
  assert (Lr : lens d [u; v; w]) by (repeat constructor; auto).
  splits; auto.
  - apply same_generate. eapply same_lattice_trans; [exact SL|]. apply same_lattice_sym. unfold same_lattice. splits; auto.
    + repeat constructor; auto.
    + intros x [<-|[<-|[<-|[]]]]; apply zcomb_In; try (repeat constructor; auto; fail); simpl; auto.
    + intros x [<-|[<-|[<-|[<-|[]]]]]; try (apply zcomb_In; simpl; auto; fail). rewrite Es. change (- (1))%Qc with (ZQ (-1)).
      apply zcomb_scale; auto. apply zcomb_add; auto; [apply zcomb_add; auto|]; apply zcomb_In; simpl; auto.
  - cbn zeta. rewrite (plus_ladd d u v) by auto. rewrite (plus_ladd d (ladd u v) w) by (auto; unfold point; vlen). rewrite multiple_lmulc by (unfold point; vlen). rewrite <- Es. splits; auto.
Qed.

Example C44_example : lagrange_reduced euclid 0%Qc 10 [ZQ 5; ZQ 3] [ZQ 3; ZQ 2] = Ret ([ZQ (-1); ZQ 0], [ZQ 0; ZQ (-1)]) /\
  (forall c0 c1, combination 2 [c0; c1] skewed = origin 2 -> c0 = 0%Qc /\ c1 = 0%Qc) /\
  exists r, selling_reduced euclid 0%Qc 10 [ZQ 1; ZQ 1; ZQ 1] [ZQ 2; ZQ 0; ZQ 0] [ZQ 0; ZQ 2; ZQ 0] = Ret r /\ fst (fst r) = [ZQ 1; ZQ 1; ZQ 1] /\ snd r = [ZQ (-1); ZQ 1; ZQ (-1)].
Proof.
  splits.
  - qc_compute.
  - intros c0 c1 E. destruct skewed_basis as [_ _ I]. specialize (I [c0; c1] eq_refl E). inversion_clear I as [|? ? A B]. inversion_clear B. auto.
  - eexists. split; [qc_compute|split; qc_compute].
Qed.

(** ** C45 *)
(** x is not closer to any lattice vector than to the origin *)
Definition in_cell (d : nat) (dot : list Qc -> list Qc -> Qc) (basis : list (list Qc)) (x : list Qc) : Prop :=
  forall y, in_lattice d basis y -> (dot x x <= dot (minus d x y) (minus d x y))%Qc.
Definition in_slab (dot : list Qc -> list Qc -> Qc) (w x : list Qc) : Prop :=
  (- dot w w <= dot x w + dot x w)%Qc /\ (dot x w + dot x w <= dot w w)%Qc.

Theorem C45_dirichlet_vectors d dot basis : scalar_product d dot -> is_basis d basis -> d <= 3 ->
  exists enough ws, (forall fuel, enough <= fuel -> dirichlet_vectors dot 0%Qc fuel basis = Ret ws) /\
    (forall w, In w ws -> in_lattice d basis w) /\
    forall x, point d x -> ((forall w, In w ws -> in_slab dot w x) <-> in_cell d dot basis x).
Proof.
  intros Sp B Hd. destruct (sp_hyps d dot Sp) as (H1 & H2 & H3 & H4). apply is_basis_rk in B as (L & Ln & R).
  destruct (dirichlet_ok d dot H1 H2 H3 H4 basis L Ln Hd R) as (k0 & ws & v0 & v1 & v2 & v3 & E & Sb & Ob & C). exists k0, ws. splits; auto.
  - intros w Hw. apply in_lattice_zcomb; auto. apply (same_lattice_iff d _ _ (sb_lat _ _ _ _ _ _ Sb)). apply C. auto.
  - intros x Lx. pose proof (dirichlet_cell d dot H1 H2 H3 ws v0 v1 v2 v3 basis x Sb Ob C Lx) as Cell. unfold in_cell. split.
    + intros H y Hy. apply in_lattice_zcomb in Hy; auto. rewrite minus_lsub by (auto; apply (zcomb_length d basis); auto). apply Cell; auto.
    + intros H. apply Cell. intros y Hy. rewrite <- minus_lsub with (d := d) by (auto; apply (zcomb_length d basis); auto). apply H. apply in_lattice_zcomb; auto.
Qed.
(** In four or more dimensions, or for vectors of another length, it panics. *)
Theorem C45_other_dimensions dot eps fuel basis : 4 <= length basis \/ (exists v, In v basis /\ length v <> length basis) ->
  dirichlet_vectors dot eps fuel basis = Panic.
Proof.
  unfold dirichlet_vectors. intros H. destruct (forallb (fun v => length v =? length basis) basis) eqn:F; [|reflexivity]. cbn [assert bind].
  destruct H as [H|(v & Hv & N)].
  - destruct basis as [|? [|? [|? [|]]]]; cbn in H; try lia. reflexivity.
  - exfalso. rewrite forallb_forall in F. apply F, Nat.eqb_eq in Hv. contradiction.
Qed.
Example C45_example : is_basis 3 bcc /\ exists ws, dirichlet_vectors euclid 0%Qc 10 bcc = Ret ws /\ length ws = 7 /\ In [ZQ 1; ZQ 1; ZQ (-1)] ws /\ In [ZQ 2; ZQ 0; ZQ 0] ws.
Proof.
  split; [apply bcc_basis|]. eexists. split; [qc_compute|]. split; [reflexivity|]. split.
  - do 6 right. left. qc_compute.
  - do 3 right. left. qc_compute.
Qed.

(** ** C46 *)
Theorem C46_shift_for_dirichlet_domain d dot p vs : scalar_product d dot -> point d p -> Forall (point d) vs -> Forall (fun v => v <> origin d) vs ->
  exists enough s, (forall fuel, enough <= fuel -> shift_for_dirichlet_domain dot 0%Qc fuel p vs = Ret s) /\
    in_lattice d vs s /\ forall v, In v vs -> in_slab dot v (plus d p s).
Proof.
  intros Sp Lp L Nz. destruct (sp_hyps d dot Sp) as (H1 & H2 & H3 & H4).
  destruct (shift_ok d dot H1 H2 H3 H4 p vs Lp L) as (k0 & s & E & Z & In).
  - intros v Hv. rewrite Forall_forall in Nz. rewrite <- origin_zero. auto.
  - exists k0, s. splits; auto; [apply in_lattice_zcomb; auto|]. intros v Hv. rewrite plus_ladd by (auto; apply (zcomb_length d vs); auto). apply In. auto.
Qed.
(** Together with dirichlet_vectors it moves a point by a lattice vector to a place nearest to the origin. *)
Theorem C46_nearest d dot basis ws fuel p : scalar_product d dot -> is_basis d basis -> d <= 3 -> point d p ->
  dirichlet_vectors dot 0%Qc fuel basis = Ret ws ->
  (exists enough s, (forall fuel, enough <= fuel -> shift_for_dirichlet_domain dot 0%Qc fuel p ws = Ret s) /\
    in_lattice d basis s /\ forall y, in_lattice d basis y -> (dot (plus d p s) (plus d p s) <= dot (plus d p y) (plus d p y))%Qc).
Proof.
  intros Sp B Hd Lp E0. destruct (sp_hyps d dot Sp) as (H1 & H2 & H3 & H4).
  destruct (C45_dirichlet_vectors d dot basis Sp B Hd) as (k1 & ws' & E1 & Hin & Cell).
  assert (ws' = ws) as ->.
  { pose proof (E1 (Nat.max k1 fuel) (Nat.le_max_l _ _)) as E2. pose proof (dirichlet_vectors_mono dot 0%Qc fuel (Nat.max k1 fuel) basis ws (Nat.le_max_r _ _) E0). congruence. }
  pose proof (proj1 (is_basis_rk d basis) B) as (L & Ln & R).
  assert (Lw : lens d ws) by (apply Forall_forall; intros w Hw; apply (zcomb_length d basis); auto; apply in_lattice_zcomb; auto).
  assert (Nz : Forall (fun v => v <> origin d) ws).
  { apply Forall_forall. intros w Hw. rewrite origin_zero. apply (dirichlet_nonzero d dot H1 H2 H3 H4 basis ws fuel); auto. }
  destruct (C46_shift_for_dirichlet_domain d dot p ws Sp Lp Lw Nz) as (k0 & s & E & Z & Sl).
  assert (Zs : in_lattice d basis s).
  { apply in_lattice_zcomb; auto. apply in_lattice_zcomb in Z; auto. revert Z. apply zcomb_trans; auto. intros v Hv. apply in_lattice_zcomb; auto. }
  assert (Ls : point d s) by (apply (zcomb_length d basis); auto; apply in_lattice_zcomb; auto).
  exists k0, s. splits; auto. assert (Lps : point d (plus d p s)) by apply from_length.
  pose proof (proj1 (Cell _ Lps) Sl) as C. intros y Hy. pose proof Hy as Hy'. apply in_lattice_zcomb in Hy'; auto. pose proof (zcomb_length d _ _ L Hy') as Ly.
  specialize (C (minus d s y)). assert (Em : minus d (plus d p s) (minus d s y) = plus d p y).
  { rewrite (plus_ladd d p s), (plus_ladd d p y), (minus_lsub d s y) by auto. rewrite minus_lsub by (unfold point; vlen). unfold point in *. vring d. }
  rewrite Em in C. apply C. apply in_lattice_zcomb; auto. rewrite minus_lsub by auto. apply zcomb_sub; auto. apply in_lattice_zcomb; auto.
Qed.
Example C46_example : shift_for_dirichlet_domain euclid 0%Qc 10 [Q2Qc (7 # 3); Q2Qc (- 9 # 2)] [[ZQ 0; ZQ (-1)]; [ZQ (-1); ZQ 0]; [ZQ (-1); ZQ (-1)]] = Ret [ZQ (-2); ZQ 5] /\
  Forall (fun v => v <> origin 2) [[ZQ 0; ZQ (-1)]; [ZQ (-1); ZQ 0]; [ZQ (-1); ZQ (-1)]].
Proof.
  split; [qc_compute|]. repeat constructor; intros H; apply (f_equal (fun l => map (fun q : Qc => Qnum (this q)) l)) in H; vm_compute in H; discriminate.
Qed.

Lemma loop_panic {S R} (body : S -> outcome (S + R)) n s : body s = Panic -> loop body n s = Panic.
Proof.
  intros E. assert (H : whl body n s = Panic); [|unfold loop; rewrite H; auto]. induction n as [|n IH]; cbn [whl]; [auto|]. rewrite IH. auto.
Qed.
(** A vector of length zero is divided by: the function panics. *)
Theorem C46_zero_vector : forall dot p vs v fuel, In v vs -> dot v v = 0%Qc -> shift_for_dirichlet_domain dot 0%Qc fuel p vs = Panic.
Proof.
  intros dot p vs v fuel Hv E. apply loop_panic. unfold sd_body.
  assert (P : forall st, sd_pass dot 0%Qc p vs st = Panic); [|rewrite P; reflexivity].
  induction vs as [|w vs IH]; [destruct Hv|]. intros [s b]. unfold sd_pass. cbn [foldM]. destruct Hv as [->|Hv].
  - rewrite E. reflexivity.
  - unfold q_div at 1. destruct (Qc_eqb (dot w w) 0%Qc); cbn [bind]; [reflexivity|]. apply (IH Hv).
Qed.
Example C46_zero_example : shift_for_dirichlet_domain euclid 0%Qc 10 [ZQ 1; ZQ 2] [[ZQ 1; ZQ 0]; [ZQ 0; ZQ 0]] = Panic.
Proof. apply (C46_zero_vector euclid _ _ [ZQ 0; ZQ 0]); [simpl; auto|qc_compute]. Qed.
(** So does the reduction of two vectors of which one is zero. *)
Theorem C44_zero_vector : forall d dot v fuel, scalar_product d dot -> point d v -> v <> origin d ->
  lagrange_reduced dot 0%Qc fuel (origin d) v = Panic /\ lagrange_reduced dot 0%Qc fuel v (origin d) = Panic.
Proof.
  intros d dot v fuel Sp Lv Nv. pose proof (sp_positive d dot Sp v Lv Nv) as Pv. assert (Lo : point d (origin d)) by (unfold point, origin; apply from_length).
  assert (Z : dot (origin d) (origin d) = 0%Qc).
  { destruct (sp_hyps d dot Sp) as (_ & _ & H3 & _). rewrite origin_zero. assert (E : repeat 0%Qc d = lmulc (repeat 0%Qc d) 0%Qc) by (unfold lmulc; clear; induction d as [|d IH]; cbn [repeat map]; [reflexivity|rewrite <- IH; f_equal; ring]).
    rewrite E at 1. rewrite H3 by apply repeat_length. ring. }
  assert (P : lr_body dot 0%Qc (origin d, v) = Panic).
  { unfold lr_body. destruct (q_ltb_spec (dot (origin d) (origin d)) (dot v v * (1 - 0))%Qc) as [H|H]; [|exfalso; apply H; rewrite Z; replace (dot v v * (1 - 0))%Qc with (dot v v) by ring; auto].
    unfold q_div. rewrite Z. reflexivity. }
  unfold lagrange_reduced. split.
  - destruct (q_ltb_spec (dot v v) (dot (origin d) (origin d))) as [H|H]; [rewrite Z in H; qclra|]. rewrite loop_panic by exact P. reflexivity.
  - destruct (q_ltb_spec (dot (origin d) (origin d)) (dot v v)) as [H|H]; [|rewrite Z in H; contradiction]. rewrite loop_panic by exact P. reflexivity.
Qed.

(** ** C47 *)
Theorem C47_reduced_lattice_basis d dot basis : scalar_product d dot -> is_basis d basis -> 1 <= d <= 3 ->
  exists enough bs, (forall fuel, enough <= fuel -> reduced_lattice_basis dot 0%Qc fuel basis = Ret (Some bs)) /\
    is_basis d bs /\ generate_same d basis bs /\
    (forall i j, i <= j < d -> (dot (nth i bs []) (nth i bs []) <= dot (nth j bs []) (nth j bs []))%Qc) /\
    (forall y, in_lattice d basis y -> y <> origin d -> (dot (nth 0 bs []) (nth 0 bs []) <= dot y y)%Qc) /\
    (forall j, 0 < j < d -> (dot (nth 0 bs []) (nth j bs []) <= 0)%Qc) /\
    (* each vector is shortest among the lattice vectors independent of the earlier ones *)
    (forall i y, i < d -> in_lattice d basis y -> ~ in_space d (firstn i bs) y -> (dot (nth i bs []) (nth i bs []) <= dot y y)%Qc).
Proof.
  intros Sp B Hd. destruct (sp_hyps d dot Sp) as (H1 & H2 & H3 & H4). apply is_basis_rk in B as (L & Ln & R).
  destruct (reduced_ok d dot H1 H2 H3 H4 basis L Ln Hd R) as (k0 & a & E & La & SL & So & Mi & Ne). exists k0, a. pose proof SL as (_ & Lla & _).
  assert (Min : forall i y, i < d -> in_lattice d basis y -> ~ in_space d (firstn i a) y -> (dot (nth i a []) (nth i a []) <= dot y y)%Qc).
  { intros i y Hi Hy N. apply (Mi i); [apply nth_error_nth'; lia|apply in_lattice_zcomb; auto|]. intros S. apply N. apply in_space_span; auto.
    apply Forall_forall. intros x Hx. apply (lens_In d a); auto. eapply In_firstn; eauto. }
  splits; auto.
  - apply is_basis_rk. splits; auto. rewrite <- (same_lattice_rk d _ _ SL). auto.
  - apply same_generate. auto.
  - intros i j [Hij Hj]. rewrite <- La in Hj. clear -So Hij Hj. revert i j Hij Hj. induction So as [|x l Sl IH Fl]; intros i j Hij Hj; cbn in Hj; [lia|].
    destruct j as [|j]; [assert (i = 0) as -> by lia; apply Qcle_refl|]. destruct i as [|i]; cbn [nth].
    + rewrite Forall_forall in Fl. apply Fl. apply nth_In. lia.
    + apply IH; lia.
  - intros y Hy N. apply Min; auto; [lia|]. intros (cs & Lc & Ey). destruct cs; [|discriminate]. apply N. exact Ey.
  - intros j Hj. destruct a as [|a0 a]; [cbn in La; lia|]. destruct j as [|j]; [lia|]. cbn [nth]. apply Ne. cbn [tl]. apply nth_In. cbn in La. lia.
Qed.
Example C47_example : is_basis 2 skewed /\ reduced_lattice_basis euclid 0%Qc 10 skewed = Ret (Some [[ZQ (-1); ZQ 0]; [ZQ 0; ZQ (-1)]]) /\
  reduced_lattice_basis euclid 0%Qc 10 bcc = Ret (Some [[ZQ 1; ZQ 1; ZQ 1]; [ZQ (-1); ZQ (-1); ZQ 1]; [ZQ (-1); ZQ 1; ZQ (-1)]]).
Proof. split; [apply skewed_basis|split; qc_compute]. Qed.

Print Assumptions C43_rational_lattice_basis.
Print Assumptions C43_when_it_returns.
Print Assumptions C44_lagrange_reduced.
Print Assumptions C44_selling_reduced.
Print Assumptions C45_dirichlet_vectors.
Print Assumptions C45_other_dimensions.
Print Assumptions C46_shift_for_dirichlet_domain.
Print Assumptions C46_zero_vector.
Print Assumptions C44_zero_vector.
Print Assumptions C46_nearest.
Print Assumptions C47_reduced_lattice_basis.
