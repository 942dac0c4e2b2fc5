(** Property C96: the reductions of src/spacegroups/lattices.rs with a tolerance [epsilon], an argument of all its public functions
    (C43-C47 are about the tolerance zero, the only one the library itself uses). *)
From Coq Require Import List ZArith Lia Bool PeanoNat QArith Qcanon Qround Sorting.Sorted.
From Verif Require Import Base Vec Elim Scalars ZQ QcTac OrdSet Component Lattices RatLattice Reduce Voronoi ReducedBasis Tolerance Props_Lattices.
From Verif Require RankQ.
Import ListNotations.
Close Scope Q_scope. Close Scope Qc_scope.
Open Scope nat_scope.

(** ** specification: points, in_lattice, generate_same, is_basis, scalar_product, in_slab, in_cell are in Props_Lattices *)
(** a slab that reaches a bit too far on one side *)
Definition in_wide_slab (dot : list Qc -> list Qc -> Qc) (eps : Qc) (w x : list Qc) : Prop :=
  (- dot w w <= dot x w + dot x w)%Qc /\ (dot x w + dot x w <= (1 + eps) * dot w w)%Qc.

(** ** a tolerance that is not negative *)
(** The shift ends in the wider slabs and is a lattice vector. *)
Theorem C96_shift d dot eps p vs : (0 <= eps)%Qc -> scalar_product d dot -> point d p -> Forall (point d) vs -> Forall (fun v => v <> origin d) vs ->
  exists enough s, (forall fuel, enough <= fuel -> shift_for_dirichlet_domain dot eps fuel p vs = Ret s) /\
    in_lattice d vs s /\ forall v, In v vs -> in_wide_slab dot eps v (plus d p s).
Proof.
  intros He Sp Lp L Nz. destruct (sp_hyps d dot Sp) as (H1 & H2 & H3 & H4).
  destruct (shift_tol d dot H1 H2 H3 H4 eps p vs He Lp L) as (k0 & s & E & Z & In).
  - intros v Hv. rewrite Forall_forall in Nz. rewrite <- origin_zero. auto.
  - exists k0, s. splits; auto; [apply in_lattice_zcomb; auto|]. intros v Hv. rewrite plus_ladd; auto; [apply In; auto|]. apply (zcomb_length d vs); auto.
Qed.

(** Two vectors are reduced to two vectors of the same lattice with a non-acute angle; the second is not much longer than the first. *)
Theorem C96_lagrange_reduced d dot eps b0 b1 : (0 <= eps)%Qc -> scalar_product d dot -> point d b0 -> point d b1 ->
  (forall c0 c1, combination d [c0; c1] [b0; b1] = origin d -> c0 = 0%Qc /\ c1 = 0%Qc) ->
  exists enough u v, (forall fuel, enough <= fuel -> lagrange_reduced dot eps fuel b0 b1 = Ret (u, v)) /\
    point d u /\ point d v /\ generate_same d [b0; b1] [u; v] /\
    (dot u v <= 0)%Qc /\ (- dot v v <= dot u v)%Qc /\ (dot v v * (1 - eps) <= dot u u)%Qc.
Proof.
  intros He Sp L0 L1 I. destruct (sp_hyps d dot Sp) as (H1 & H2 & H3 & H4).
  assert (L : lens d [b0; b1]) by (repeat constructor; auto).
  assert (R : rk d [b0; b1] = 2).
  { apply (@RankQ.indep_rk d [b0; b1]); auto. intros [|c0 [|c1 [|]]] Lc E; try discriminate. rewrite <- combination_lincomb, vzero_rep, <- origin_zero in E by auto. apply I in E as [-> ->]. reflexivity. }
  destruct (lagrange_tol d dot H1 H2 H3 H4 eps b0 b1 He L0 L1 R) as (k0 & u & v & E & Lu & Lv & SL & D1 & D2 & D3).
  exists k0, u, v. splits; auto. apply same_generate; auto.
Qed.

(** Three vectors are reduced to three vectors of the same lattice; no two of them and the negative of their sum have a product above the tolerance. *)
Definition products_at_most (d : nat) (dot : list Qc -> list Qc -> Qc) (eps : Qc) (u v w : list Qc) : Prop :=
  let s := multiple d (- (1))%Qc (plus d (plus d u v) w) in
  (dot u v <= eps)%Qc /\ (dot u w <= eps)%Qc /\ (dot v w <= eps)%Qc /\ (dot u s <= eps)%Qc /\ (dot v s <= eps)%Qc /\ (dot w s <= eps)%Qc.
Lemma superbase_sum d bs u v w s : superbase d bs u v w s -> s = multiple d (- (1))%Qc (plus d (plus d u v) w).
Proof.
  intros [Lu Lv Lw Ls Su SL]. rewrite (plus_ladd d u v) by auto. rewrite (plus_ladd d (ladd u v) w) by (auto; unfold point; vlen). rewrite multiple_lmulc by (unfold point; vlen).
  apply (lvec_ext d); [vlen|vlen|]. intros k. pose proof (sum_get d u v w s k Lu Lv Lw Ls Su) as Sk. rewrite lget_mulc. repeat rewrite (lget_add d) by vlen.
  cbn beta in Sk |- *. generalize dependent (nth k u 0%Qc). generalize (nth k v 0%Qc), (nth k w 0%Qc), (nth k s 0%Qc). intros. qclra.
Qed.
Theorem C96_selling_reduced d dot eps b0 b1 b2 : (0 <= eps)%Qc -> scalar_product d dot -> point d b0 -> point d b1 -> point d b2 ->
  exists enough u v w, (forall fuel, enough <= fuel -> selling_reduced dot eps fuel b0 b1 b2 = Ret (u, v, w)) /\
    point d u /\ point d v /\ point d w /\ generate_same d [b0; b1; b2] [u; v; w] /\ products_at_most d dot eps u v w.
Proof.
  intros He Sp L0 L1 L2. destruct (sp_hyps d dot Sp) as (H1 & H2 & H3 & H4).
  destruct (selling_tol d dot H1 H2 H3 H4 eps b0 b1 b2 He L0 L1 L2) as (k0 & u & v & w & s & E & Sb & D01 & D02 & D03 & D12 & D13 & D23).
  pose proof Sb as [Lu Lv Lw Ls Su SL]. exists k0, u, v, w. splits; auto; [apply same_generate; eapply superbase_three; eauto|].
  unfold products_at_most. cbn zeta. rewrite <- (superbase_sum d _ _ _ _ _ Sb). splits; auto.
Qed.
(** For every tolerance, also a negative one: if three vectors are returned, they are such vectors. *)
Lemma start_sb d u v w : length u = d -> length v = d -> length w = d -> sb_inv d [u; v; w] [u; v; w; lneg (ladd (ladd u v) w)].
Proof.
  intros Lu Lv Lw. exists u, v, w, (lneg (ladd (ladd u v) w)). split; auto. assert (L3 : lens d [u; v; w]) by (repeat constructor; auto). split; vlen.
  - vring d.
  - assert (Lx : lens d [u; v; w; lneg (ladd (ladd u v) w)]) by (repeat constructor; vlen).
    split; auto. split; auto. split.
    + intros x [<-|[<-|[<-|[]]]]; apply zcomb_In; simpl; auto.
    + intros x [<-|[<-|[<-|[<-|[]]]]]; try (apply zcomb_In; simpl; auto; fail).
      apply zcomb_neg; auto. apply zcomb_add; auto. apply zcomb_add; auto. all: apply zcomb_In; simpl; auto.
Qed.
Theorem C96_selling_returned d dot eps b0 b1 b2 u v w fuel : scalar_product d dot -> point d b0 -> point d b1 -> point d b2 ->
  selling_reduced dot eps fuel b0 b1 b2 = Ret (u, v, w) ->
  point d u /\ point d v /\ point d w /\ generate_same d [b0; b1; b2] [u; v; w] /\ products_at_most d dot eps u v w.
Proof.
  intros Sp L0 L1 L2. destruct (sp_hyps d dot Sp) as (H1 & H2 & H3 & H4). unfold selling_reduced.
  destruct (loop (selling_body dot eps) fuel _) as [vs| |] eqn:E; cbn [bind]; try discriminate. intros Ei.
  assert (I : sb_small d dot eps [b0; b1; b2] vs).
  { revert E. apply (loop_partial (selling_body dot eps) (sb_inv d [b0; b1; b2])); [|apply start_sb; auto].
    intros s Is. destruct (selling_body_ok d dot H1 H2 H3 eps [b0; b1; b2] s Is) as (r & -> & Hr). destruct r; auto. }
  destruct I as [(v0 & v1 & v2 & v3 & -> & Sb) Ho]. unfold sel in Ei. cbn [nth] in Ei. injection Ei as <- <- <-.
  pose proof Sb as [Lu Lv Lw Ls Su SL]. splits; auto; [apply same_generate; eapply superbase_three; eauto|].
  unfold products_at_most. cbn zeta. rewrite <- (superbase_sum d _ _ _ _ _ Sb). splits; [apply (Ho 0 1)|apply (Ho 0 2)|apply (Ho 1 2)|apply (Ho 0 3)|apply (Ho 1 3)|apply (Ho 2 3)]; cbn; auto 10.
Qed.

(** The Dirichlet vectors generate the lattice, and the points nearest to the origin lie in their slabs (not conversely: see below). *)
Theorem C96_dirichlet_vectors d dot eps basis : (0 <= eps)%Qc -> scalar_product d dot -> is_basis d basis -> d <= 3 ->
  exists enough ws, (forall fuel, enough <= fuel -> dirichlet_vectors dot eps fuel basis = Ret ws) /\ generate_same d basis ws /\
    forall x, point d x -> in_cell d dot basis x -> forall w, In w ws -> in_slab dot w x.
Proof.
  intros He Sp B Hd. destruct (sp_hyps d dot Sp) as (H1 & H2 & H3 & H4). apply is_basis_rk in B as (L & Ln & R).
  assert (G : exists k0 ws, (forall k, k0 <= k -> dirichlet_vectors dot eps k basis = Ret ws) /\ same_lattice d basis ws).
  { destruct (Nat.eq_dec d 0) as [->|N].
    - destruct basis; try discriminate. exists 0, []. split; [reflexivity|]. apply same_lattice_refl; auto.
    - assert (Hd' : 1 <= d <= 3) by lia. destruct (dirichlet_shape d dot H1 H2 H3 H4 eps basis He L Ln Hd' R) as (k0 & base & Ed & SL & Lb). exists k0, (map (P d base) (subsets d)). split; auto.
      eapply same_lattice_trans; [exact SL|]. pose proof SL as (_ & Lbase & _). pose proof (subset_len d Hd') as Hs. rewrite Forall_forall in Hs.
      assert (Lm : lens d (map (P d base) (subsets d))) by (apply Forall_forall; intros x Hx; apply in_map_iff in Hx as (c & <- & _); apply P_length; auto).
      unfold same_lattice. splits; auto.
      + intros v Hv. apply In_nth_error in Hv as (k & Ek). assert (Hk : k < d) by (rewrite <- Lb; apply nth_error_Some; congruence).
        apply zcomb_In; auto. rewrite <- (P_unit d base Lbase k v Ek), Lb. apply in_map. apply subset_units; auto.
      + intros x Hx. apply in_map_iff in Hx as (c & <- & Hc). apply P_in. rewrite Hs by auto. auto. }
  destruct G as (k0 & ws & E & SL). exists k0, ws. splits; auto; [apply same_generate; auto|].
  intros x Lx Hc w Hw. pose proof SL as (_ & Lws & _ & Zw). specialize (Zw w Hw). pose proof (zcomb_length d _ _ L Zw) as Lw.
  assert (Ln' : point d (lneg w)) by (unfold point; vlen).
  pose proof (Hc w ltac:(apply in_lattice_zcomb; auto)) as C1. pose proof (Hc (lneg w) ltac:(apply in_lattice_zcomb; auto; apply zcomb_neg; auto)) as C2.
  rewrite minus_lsub in C1, C2 by auto. unfold point in *. pose proof (dsub d dot H2 H3) as D1. pose proof (dsub_r d dot H1 H2 H3) as D2. pose proof (dneg d dot H3) as D3. pose proof (dneg_r d dot H1 H3) as D4.
  rewrite D1, !D2, (H1 w x) in C1 by vlen. rewrite D1, !D2, !D3, !D4, (H1 w x) in C2 by vlen. split; qclra.
Qed.

(** If the coordinates are multiples of a number that is not below the tolerance, so that no small coordinate is set to zero by mistake, the vectors returned are a basis of the lattice,
    ordered by length, the first in a non-acute angle with the others, and each the shortest among the Dirichlet vectors independent of the earlier ones. *)
Definition multiples_of (q : Qc) (x : list Qc) : Prop := Forall (fun c => exists z, c = (q * ZQ z)%Qc) x.
Lemma multiples_lattice d q basis : Forall (point d) basis -> Forall (multiples_of q) basis -> forall y, zcomb d basis y -> multiples_of q y.
Proof.
  intros L M. rewrite Forall_forall in M. apply zcomb_ind; auto.
  - apply Forall_forall. intros x Hx. apply repeat_spec in Hx as ->. exists 0%Z. change (ZQ 0) with 0%Qc. ring.
  - intros v z x Hv Hx IH. pose proof (zcomb_length d _ _ L Hx) as Lx. assert (Lv : length v = d) by exact (lens_In _ _ _ L Hv). specialize (M v Hv).
    assert (G : forall k, exists y, nth k (ladd (lmulc v (ZQ z)) x) 0%Qc = (q * ZQ y)%Qc).
    { intros k. assert (Gv : forall l, multiples_of q l -> exists y, nth k l 0%Qc = (q * ZQ y)%Qc).
      { intros l Hl. destruct (nth_in_or_default k l 0%Qc) as [Hi| ->]; [unfold multiples_of in Hl; rewrite Forall_forall in Hl; apply Hl; auto|]. exists 0%Z. change (ZQ 0) with 0%Qc. ring. }
      destruct (Gv v M) as [a Ea]. destruct (Gv x IH) as [b Eb]. exists (a * z + b)%Z. pose proof (lget_add d (lmulc v (ZQ z)) x k ltac:(vlen) Lx) as E1. cbn beta in E1. rewrite E1.
      pose proof (lget_mulc v (ZQ z) k) as E2. cbn beta in E2. rewrite E2, Ea, Eb, ZQ_add, ZQ_mul. ring. }
    apply Forall_forall. intros c Hc. apply (In_nth _ _ 0%Qc) in Hc as (k & _ & <-). apply G.
Qed.
Theorem C96_reduced_lattice_basis d dot eps q basis : (0 <= eps)%Qc -> (0 < q)%Qc -> (eps <= q)%Qc -> Forall (multiples_of q) basis ->
  scalar_product d dot -> is_basis d basis -> 1 <= d <= 3 ->
  exists enough bs ws, (forall fuel, enough <= fuel -> reduced_lattice_basis dot eps fuel basis = Ret (Some bs) /\ dirichlet_vectors dot eps fuel basis = Ret ws) /\
    is_basis d bs /\ generate_same d basis bs /\
    (forall i j, i <= j < d -> (dot (nth i bs []) (nth i bs []) <= dot (nth j bs []) (nth j bs []))%Qc) /\
    (forall j, 0 < j < d -> (dot (nth 0 bs []) (nth j bs []) <= 0)%Qc) /\
    (forall i y, i < d -> In y ws -> ~ in_space d (firstn i bs) y -> (dot (nth i bs []) (nth i bs []) <= dot y y)%Qc).
Proof.
  intros He Hq Hle M Sp B Hd. destruct (sp_hyps d dot Sp) as (H1 & H2 & H3 & H4). apply is_basis_rk in B as (L & Ln & R).
  assert (In0 : forall y, zcomb d basis y -> inert eps y).
  { intros y Hy x Hx. apply (multiples_lattice d q basis L M) in Hy. unfold multiples_of in Hy. rewrite Forall_forall in Hy. destruct (Hy x Hx) as [z ->]. clear Hx.
    assert (T : (z = 0 \/ 1 <= z \/ 1 <= - z)%Z) by lia. destruct T as [->|[T|T]]; [left; change (ZQ 0) with 0%Qc; ring|right; left|right; right].
    - apply ZQ_le in T. change (ZQ 1) with 1%Qc in T. generalize dependent (ZQ z). intros t T. assert (X : (0 <= q * (t - 1))%Qc) by (apply Qcmult_le_0_compat'; qclra). qclra.
    - apply ZQ_le in T. rewrite ZQ_opp in T. change (ZQ 1) with 1%Qc in T. generalize dependent (ZQ z). intros t T. assert (X : (0 <= q * (- t - 1))%Qc) by (apply Qcmult_le_0_compat'; qclra). qclra. }
  destruct (reduced_tol d dot H1 H2 H3 H4 eps basis He In0 L Ln Hd R) as (k0 & a & ws & E & La & SL & So & Mi & Ne). exists k0, a, ws. pose proof SL as (_ & Lla & _).
  splits; auto.
  - apply is_basis_rk. splits; auto. rewrite <- (same_lattice_rk d _ _ SL). auto.
  - apply same_generate. auto.
  - intros i j [Hij Hj]. rewrite <- La in Hj. clear -So Hij Hj. revert i j Hij Hj. induction So as [|x l Sl IH Fl]; intros i j Hij Hj; cbn in Hj; [lia|].
    destruct j as [|j]; [assert (i = 0) as -> by lia; apply Qcle_refl|]. destruct i as [|i]; cbn [nth].
    + rewrite Forall_forall in Fl. apply Fl. apply nth_In. lia.
    + apply IH; lia.
  - intros j Hj. destruct a as [|a0 a]; [cbn in La; lia|]. destruct j as [|j]; [lia|]. cbn [nth]. apply Ne. cbn [tl]. apply nth_In. cbn in La. lia.
  - intros i y Hi Hy N. apply (Mi i); [apply nth_error_nth'; lia|auto|]. intros S. apply N. apply in_space_span; auto.
    apply Forall_forall. intros x Hx. apply (lens_In d a); auto. eapply In_firstn; eauto.
Qed.

Example C96_example : shift_for_dirichlet_domain euclid (Q2Qc (1 # 10)) 10 [Q2Qc (7 # 3); Q2Qc (- 9 # 2)] [[ZQ 0; ZQ (-1)]; [ZQ (-1); ZQ 0]; [ZQ (-1); ZQ (-1)]] = Ret [ZQ (-2); ZQ 5] /\
  lagrange_reduced euclid (Q2Qc (1 # 10)) 10 [ZQ 5; ZQ 3] [ZQ 3; ZQ 2] = Ret ([ZQ (-1); ZQ 0], [ZQ 0; ZQ (-1)]) /\
  Forall (multiples_of 1%Qc) bcc /\ is_basis 3 bcc /\
  reduced_lattice_basis euclid (Q2Qc (1 # 10)) 10 bcc = Ret (Some [[ZQ 1; ZQ 1; ZQ 1]; [ZQ (-1); ZQ (-1); ZQ 1]; [ZQ (-1); ZQ 1; ZQ (-1)]]).
Proof.
  split; [qc_compute|]. split; [qc_compute|]. split; [|split; [apply bcc_basis|qc_compute]].
  repeat constructor; match goal with |- exists z, ZQ ?a = _ => exists a; ring end.
Qed.

(** ** what a tolerance costs *)
(** The vectors need not be short, and points in all the slabs need not be nearest to the origin. *)
Theorem C96_shortest_refuted : exists eps basis bs, (0 < eps)%Qc /\ (eps <= 1)%Qc /\ is_basis 2 basis /\ Forall (multiples_of 1%Qc) basis /\
  reduced_lattice_basis euclid eps 10 basis = Ret (Some bs) /\
  exists y, in_lattice 2 basis y /\ y <> origin 2 /\ (euclid y y < euclid (nth 0 bs []) (nth 0 bs []))%Qc.
Proof.
  exists 1%Qc, skewed, [[ZQ (-2); ZQ (-1)]; [ZQ 3; ZQ 2]]. split; [reflexivity|]. split; [apply Qcle_refl|]. split; [apply skewed_basis|]. split.
  { repeat constructor; match goal with |- exists z, ZQ ?a = _ => exists a; ring end. }
  split; [qc_compute|]. exists [ZQ 1; ZQ 0]. split; [exists [2; -3]%Z; split; [reflexivity|qc_compute]|]. split; [|reflexivity].
  intros H. apply (f_equal (fun l => map (fun q : Qc => Qnum (this q)) l)) in H. vm_compute in H. discriminate.
Qed.
Theorem C96_cell_refuted : exists eps basis ws x, (0 < eps)%Qc /\ (eps <= 1)%Qc /\ is_basis 2 basis /\ dirichlet_vectors euclid eps 10 basis = Ret ws /\
  point 2 x /\ (forall w, In w ws -> in_slab euclid w x) /\ ~ in_cell 2 euclid basis x.
Proof.
  exists 1%Qc, skewed, [[ZQ 3; ZQ 2]; [ZQ (-5); ZQ (-3)]; [ZQ (-2); ZQ (-1)]], [Q2Qc (3 # 5); 0%Qc]. split; [reflexivity|]. split; [apply Qcle_refl|]. split; [apply skewed_basis|].
  split; [qc_compute|]. split; [reflexivity|]. split.
  - intros w [<-|[<-|[<-|[]]]]; split; unfold Qcle; vm_compute; discriminate.
  - intros H. specialize (H [ZQ 1; ZQ 0]). apply Qcle_not_lt in H; [apply H; reflexivity|]. exists [2; -3]%Z. split; [reflexivity|qc_compute].
Qed.
(** A tolerance above the smallest coordinate makes the vectors leave the lattice, or leaves no basis at all. *)
Theorem C96_rounding_refuted : exists eps basis bs, (0 < eps)%Qc /\ is_basis 2 basis /\ reduced_lattice_basis euclid eps 10 basis = Ret (Some bs) /\
  exists b, In b bs /\ ~ in_lattice 2 basis b.
Proof.
  exists (ZQ 2), [[ZQ 1; ZQ 10]; [ZQ (-10); ZQ 1]], [[ZQ (-10); ZQ 0]; [ZQ 0; ZQ 10]]. split; [reflexivity|]. split.
  { apply basis_by_det2. intros H. apply (f_equal (fun q : Qc => Qnum (this q))) in H. vm_compute in H. discriminate. }
  split; [qc_compute|]. exists [ZQ 0; ZQ 10]. split; [simpl; auto|]. intros (zs & Lz & E). destruct zs as [|x [|y [|]]]; try discriminate.
  unfold combination, from_coordinates, coordinate in E. cbn [combine fold_right fst snd seq map] in E.
  pose proof (f_equal (fun l => nth 0 l 0%Qc) E) as E0. pose proof (f_equal (fun l => nth 1 l 0%Qc) E) as E1. cbn [nth] in E0, E1. clear E.
  change 0%Qc with (ZQ 0) in E0, E1. rewrite <- !ZQ_mul, <- !ZQ_add in E0, E1. apply ZQ_inj in E0, E1. lia.
Qed.
Theorem C96_basis_refuted : exists eps basis, (0 < eps)%Qc /\ is_basis 2 basis /\ reduced_lattice_basis euclid eps 10 basis = Ret None.
Proof.
  exists (ZQ 2), [[ZQ 1; ZQ 0]; [ZQ 0; ZQ 1]]. split; [reflexivity|]. split; [|qc_compute].
  apply basis_by_det2. intros H. apply (f_equal (fun q : Qc => Qnum (this q))) in H. vm_compute in H. discriminate.
Qed.

(** ** a negative tolerance: the functions need not end *)
Lemma loop_never {S R} (body : S -> outcome (S + R)) (Inv : S -> Prop) : (forall s, Inv s -> exists s', body s = Ret (inl s') /\ Inv s') -> forall n s, Inv s -> loop body n s = Timeout.
Proof.
  intros H n s I. assert (G : exists s', whl body n s = Ret (inl s') /\ Inv s'); [|destruct G as (s' & E & _); unfold loop; rewrite E; auto].
  revert s I. induction n as [|n IH]; intros s I; cbn [whl]; [apply H; auto|]. destruct (IH s I) as (s1 & -> & I1). apply IH. auto.
Qed.
Lemma q_round_small t : (0 <= t)%Qc -> (t + t < 1)%Qc -> q_round t = 0%Qc.
Proof.
  intros H0 H1. destruct (q_round_spec t) as (z & Ez & R1 & R2). rewrite Ez. assert (B : (-1 < z < 2)%Z).
  { split; apply ZQ_lt; [change (ZQ (-1)) with (- (1))%Qc|change (ZQ 2) with (1 + 1)%Qc]; generalize dependent (ZQ z); intros; qclra. }
  assert (z = 0 \/ z = 1)%Z as [->| ->] by lia; auto. change (ZQ 1) with 1%Qc in R1. exfalso. qclra.
Qed.
Lemma half_interval eps : (eps < 0)%Qc -> exists t, (0 <= t)%Qc /\ (t + t < 1)%Qc /\ (1 + eps < t + t)%Qc.
Proof.
  intros He. destruct (Qclt_le_dec (- (1))%Qc eps) as [H|H].
  - exists ((1 + 1 + eps) / (1 + 1 + 1 + 1))%Qc. set (t := ((1 + 1 + eps) / (1 + 1 + 1 + 1))%Qc). assert (E : ((1 + 1 + 1 + 1) * t = 1 + 1 + eps)%Qc) by (unfold t; field; discriminate).
    clearbody t. splits; qclra.
  - exists (Q2Qc (1 # 4)). assert (E : (Q2Qc (1 # 4) * (1 + 1 + 1 + 1) = 1)%Qc) by qc_compute. generalize dependent (Q2Qc (1 # 4)). intros t E. splits; qclra.
Qed.
(** for every negative tolerance and every vector there is a point that is never accepted *)
Theorem C96_shift_negative_refuted d dot eps v : (eps < 0)%Qc -> scalar_product d dot -> point d v -> v <> origin d ->
  exists p, point d p /\ forall fuel, shift_for_dirichlet_domain dot eps fuel p [v] = Timeout.
Proof.
  intros He Sp Lv Nv. destruct (half_interval eps He) as (t & T0 & T1 & T2). destruct (sp_hyps d dot Sp) as (H1 & H2 & H3 & H4).
  pose proof (sp_positive d dot Sp v Lv Nv) as Pv. unfold point in *. exists (lmulc v t). split; [vlen|]. intros fuel. unfold shift_for_dirichlet_domain.
  apply (loop_never _ (fun s => s = repeat 0%Qc (length (lmulc v t)))); auto. intros s ->. exists (repeat 0%Qc (length (lmulc v t))). split; auto.
  set (o := repeat 0%Qc (length (lmulc v t))). assert (Lo : length o = d) by (unfold o; rewrite repeat_length; vlen).
  unfold sd_body, sd_pass. cbn [foldM]. assert (Ea : ladd (lmulc v t) o = lmulc v t) by (unfold o; rewrite lmulc_length, Lv; vring d). rewrite Ea, H3 by auto.
  rewrite q_div_ret by (intros X; rewrite X in Pv; qclra). cbn [bind]. assert (Et : (t * dot v v / dot v v = t)%Qc) by (field; intros X; rewrite X in Pv; qclra). rewrite Et.
  destruct (q_ltb_spec (1 + eps)%Qc (t + t)%Qc) as [_|N]; [|contradiction]. rewrite orb_true_r. cbn [bind]. rewrite (q_round_small t) by auto.
  do 2 f_equal. unfold o. rewrite lmulc_length, Lv. vring d.
Qed.
(** two orthogonal vectors of equal length are exchanged for ever *)
Theorem C96_lagrange_negative_refuted d dot eps u v : (eps < 0)%Qc -> scalar_product d dot -> point d u -> point d v -> u <> origin d -> dot u v = 0%Qc -> dot u u = dot v v ->
  forall fuel, lagrange_reduced dot eps fuel u v = Timeout.
Proof.
  intros He Sp Lu Lv Nu Huv Hn fuel. destruct (sp_hyps d dot Sp) as (H1 & H2 & H3 & H4). pose proof (sp_positive d dot Sp u Lu Nu) as Pu. unfold point in *.
  unfold lagrange_reduced. destruct (q_ltb_spec (dot v v) (dot u u)) as [H|_]; [rewrite Hn in H; exfalso; qclra|].
  rewrite (loop_never (lr_body dot eps) (fun st => st = (u, v) \/ st = (v, u))); auto.
  assert (R0 : q_round 0%Qc = 0%Qc) by reflexivity.
  assert (G : forall a b, length a = d -> length b = d -> dot a b = 0%Qc -> dot a a = dot b b -> (0 < dot a a)%Qc -> lr_body dot eps (a, b) = Ret (inl (b, a))).
  { intros a b La Lb Hab Hnn Pa. unfold lr_body. destruct (q_ltb_spec (dot a a) (dot b b * (1 - eps))%Qc) as [_|N].
    - rewrite Hab. rewrite q_div_ret by (intros X; rewrite X in Pa; qclra). cbn [bind]. assert (E : (0 / dot a a = 0)%Qc) by (unfold Qcdiv; ring). rewrite E, R0. do 3 f_equal. vring d.
    - exfalso. apply N. rewrite <- Hnn. assert (X : (0 < dot a a * (- eps))%Qc) by qcnra. replace (dot a a * (1 - eps))%Qc with (dot a a + dot a a * (- eps))%Qc by ring. qclra. }
  intros st [->| ->].
  - exists (v, u). split; auto.
  - exists (u, v). split; auto. apply G; auto; [rewrite H1; auto|rewrite <- Hn; auto].
Qed.
(** the cubic lattice has no strictly obtuse superbase: the search for one does not end *)
Theorem C96_selling_negative_refuted d dot eps b0 b1 b2 : (eps < 0)%Qc -> scalar_product d dot -> point d b0 -> point d b1 -> point d b2 ->
  dot b0 b0 = 1%Qc -> dot b1 b1 = 1%Qc -> dot b2 b2 = 1%Qc -> dot b0 b1 = 0%Qc -> dot b0 b2 = 0%Qc -> dot b1 b2 = 0%Qc ->
  forall fuel, selling_reduced dot eps fuel b0 b1 b2 = Timeout.
Proof.
  intros He Sp L0 L1 L2 N0 N1 N2 N01 N02 N12 fuel. destruct (sp_hyps d dot Sp) as (H1 & H2 & H3 & H4). unfold point in *.
  unfold selling_reduced. rewrite (loop_never (selling_body dot eps) (sb_inv d [b0; b1; b2])); auto; [|apply start_sb; auto].
  intros s Is. destruct (selling_body_ok d dot H1 H2 H3 eps [b0; b1; b2] s Is) as (r & E & Hr). destruct r as [s'|r]; [exists s'; auto|exfalso].
  destruct Hr as [(v0 & v1 & v2 & v3 & -> & Sb) Ho]. pose proof Sb as [Lu Lv Lw Ls Su SL]. unfold sel in Ho.
  pose proof (Ho 0 1 ltac:(cbn; auto 10)) as O01. pose proof (Ho 0 2 ltac:(cbn; auto 10)) as O02. pose proof (Ho 0 3 ltac:(cbn; auto 10)) as O03.
  pose proof (Ho 1 2 ltac:(cbn; auto 10)) as O12. pose proof (Ho 1 3 ltac:(cbn; auto 10)) as O13. pose proof (Ho 2 3 ltac:(cbn; auto 10)) as O23. cbn [nth] in *. clear Ho.
  assert (Lb : lens d [b0; b1; b2]) by (repeat constructor; auto). assert (L4 : lens d [v0; v1; v2; v3]) by (repeat constructor; auto).
  (* all products of lattice vectors are integers *)
  assert (Int : forall x y, zcomb d [b0; b1; b2] x -> zcomb d [b0; b1; b2] y -> exists z, dot x y = ZQ z).
  { intros x y (cs & Lc & ->) (ds & Ld & ->). destruct cs as [|x0 [|x1 [|x2 [|]]]]; try discriminate. destruct ds as [|y0 [|y1 [|y2 [|]]]]; try discriminate.
    cbn [map lincomb]. rewrite !vadd_ladd, !vscale_lmulc, vzero_rep. exists (x0 * y0 + x1 * y1 + x2 * y2)%Z. rewrite !ZQ_add, !ZQ_mul.
    pose proof (dadd_r d dot H1 H2) as D1. pose proof (dmul_r d dot H1 H3) as D2. pose proof (dzero d dot H3) as D3. pose proof (dzero_r d dot H1 H3) as D4.
    repeat first [rewrite H2 by vlen | rewrite H3 by vlen | rewrite D1 by vlen | rewrite D2 by vlen | rewrite D3 by vlen | rewrite D4 by vlen].
    rewrite (H1 b1 b0), (H1 b2 b0), (H1 b2 b1), N0, N1, N2, N01, N02, N12 by auto. ring. }
  destruct SL as (_ & _ & SL1 & SL2).
  assert (Neg : forall x y, In x [v0; v1; v2; v3] -> In y [v0; v1; v2; v3] -> (dot x y <= eps)%Qc -> (dot x y <= - (1))%Qc).
  { intros x y Hx Hy Hle. destruct (Int x y (SL2 x Hx) (SL2 y Hy)) as [z E']. rewrite E' in *. change (- (1))%Qc with (ZQ (-1)). apply ZQ_le.
    assert (Hlt : (ZQ z < ZQ 0)%Qc) by (exact (Qcle_lt_trans _ _ _ Hle He)). apply (proj1 (ZQ_lt z 0)) in Hlt. lia. }
  apply Neg in O01, O02, O03, O12, O13, O23; try (simpl; auto; fail).
  assert (Ob : obtuse dot v0 v1 v2 v3) by (unfold obtuse; splits; qclra).
  (* but there is a vector of length 1 *)
  assert (Z0 : zcomb d [v0; v1; v2; v3] b0) by (apply SL1; simpl; auto).
  destruct (outside d dot H1 H2 H3 H4 v0 v1 v2 v3 Lu Lv Lw Ls Su Ob [] b0 ltac:(constructor) Z0) as (c0 & c1 & c2 & c3 & B0 & B1 & B2 & B3 & Nz & Hle).
  { intros (cs & Lc & E'). destruct cs; try discriminate. cbn [lincomb] in E'. rewrite vzero_rep in E'. rewrite E', (dzero d dot H3) in N0 by vlen. discriminate. }
  rewrite N0 in Hle.
  pose proof (sum_dot d dot H2 H3 v0 v1 v2 v3 v0 Lu Lv Lw Ls Su Lu) as S0. pose proof (sum_dot d dot H2 H3 v0 v1 v2 v3 v1 Lu Lv Lw Ls Su Lv) as S1.
  pose proof (sum_dot d dot H2 H3 v0 v1 v2 v3 v2 Lu Lv Lw Ls Su Lw) as S2. pose proof (sum_dot d dot H2 H3 v0 v1 v2 v3 v3 Lu Lv Lw Ls Su Ls) as S3.
  rewrite (H1 v1 v0), (H1 v2 v0), (H1 v3 v0) in S0 by auto. rewrite (H1 v2 v1), (H1 v3 v1) in S1 by auto. rewrite (H1 v3 v2) in S2 by auto.
  assert (Zero : forall x, x = repeat 0%Qc d -> ~ span d [] x -> False).
  { intros x -> N. apply N. rewrite <- vzero_rep. apply (span_zero (R := Qc)). constructor. }
  pose proof (dadd_r d dot H1 H2) as D1. pose proof (dmul_r d dot H1 H3) as D2.
  destruct B0 as [->| ->], B1 as [->| ->], B2 as [->| ->], B3 as [->| ->].
  1: { apply (Zero _ (comb_0 d v0 v1 v2 v3 Lu Lv Lw Ls)); auto. }
  15: { apply (Zero (comb v0 v1 v2 v3 1 1 1 1)); auto. rewrite <- Su. unfold comb. change (ZQ 1) with 1%Qc. vring d. }
  all: unfold comb in Hle; change (ZQ 1) with 1%Qc in Hle; change (ZQ 0) with 0%Qc in Hle;
    repeat first [rewrite H2 in Hle by vlen | rewrite H3 in Hle by vlen | rewrite D1 in Hle by vlen | rewrite D2 in Hle by vlen];
    rewrite (H1 v1 v0), (H1 v2 v0), (H1 v3 v0), (H1 v2 v1), (H1 v3 v1), (H1 v3 v2) in Hle by auto; qclra.
Qed.
Example C96_negative_case : dirichlet_vectors euclid (Q2Qc (-1 # 10)) 12 [[1; 0]; [0; 1]]%Qc = Timeout.
Proof. vm_compute. reflexivity. Qed.

Print Assumptions C96_shift.
Print Assumptions C96_lagrange_reduced.
Print Assumptions C96_selling_reduced.
Print Assumptions C96_selling_returned.
Print Assumptions C96_dirichlet_vectors.
Print Assumptions C96_reduced_lattice_basis.
Print Assumptions C96_shortest_refuted.
Print Assumptions C96_cell_refuted.
Print Assumptions C96_rounding_refuted.
Print Assumptions C96_basis_refuted.
Print Assumptions C96_shift_negative_refuted.
Print Assumptions C96_lagrange_negative_refuted.
Print Assumptions C96_selling_negative_refuted.
