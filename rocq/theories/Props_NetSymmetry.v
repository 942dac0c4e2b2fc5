(** Property C92: is_ladder, is_minimal and translational_orbits (symmetries.rs) in terms of the translations of the infinite net; they do
    not depend on the graph that describes the net. *)
From Coq Require Import List ZArith Lia Bool PeanoNat QArith Qcanon Permutation.
From Verif Require Import Base Partition Vec Elim Scalars Matrix LinAlg Geometry ZQ QcTac ModSolver ModSolve OrdSet PGraph Net PGraphBase Traverse Placement Harmonic Placed Stability
  Lattices RatLattice Periodic Symmetries Automorph Group SymFront Orbits NetAuto Invariance.
From Verif Require Import Props_PGraph Props_Placement Props_Symmetries Props_Ladder Props_Net Props_MinImage Props_Invariance.
Import ListNotations.
Close Scope Q_scope. Close Scope Qc_scope.
Open Scope nat_scope.

(** ** specification.  translation_symmetry and lattice_translation are in Props_MinImage.v. *)
(** the nodes a and b have the same place in the barycentric placement *)
Definition same_point (chk : Z -> outcome Z) (g : graph) (a b : node) : Prop :=
  exists p q, position chk g (fst a) = Ret p /\ position chk g (fst b) = Ret q /\
    forall k, k < gdim g -> (coord k p + ZQ (nth k (snd a) 0%Z) = coord k q + ZQ (nth k (snd b) 0%Z))%Qc.

(** ** from symmetries of the quotient graph to the net *)
Lemma identity_injective d : injective d identity_matrix.
Proof.
  apply injective_linj. intros x y Lx Ly Exy. apply (linj_delta d); auto. rewrite !(mapp_ext d Matrix.delta identity_matrix); auto;
    intros i j _ _; unfold identity_matrix, Matrix.delta; rewrite Nat.eqb_sym; destruct (i =? j); reflexivity.
Qed.
Lemma ztimes_ext d M M' t : (forall i j, i < d -> j < d -> M i j = M' i j) -> ztimes d M t = ztimes d M' t.
Proof.
  intros H. unfold ztimes. apply map_ext_in. intros i Hi. apply in_seq in Hi.
  assert (Q : forall l, (forall k, In k l -> k < d) -> fold_right (fun k s => (M i k * nth k t 0 + s)%Z) 0%Z l = fold_right (fun k s => (M' i k * nth k t 0 + s)%Z) 0%Z l).
  { induction l as [|k l IH]; intros Hl; cbn [fold_right]; auto. rewrite IH by (intros; apply Hl; simpl; auto). rewrite H by (try lia; apply Hl; simpl; auto). auto. }
  apply Q. intros k Hk. apply in_seq in Hk. lia.
Qed.
Lemma rational_unit i j : rational unit_matrix i j = identity_matrix i j.
Proof. unfold rational, unit_matrix, identity_matrix. destruct (i =? j); reflexivity. Qed.
Lemma ztimes_unit d t : length t = d -> ztimes d unit_matrix t = t.
Proof.
  intros Lt. apply (zvec_ext _ _ d); auto; [apply ztimes_length|]. intros k Hk. rewrite vget_ztimes by auto.
  transitivity (lapp d Matrix.delta (fun j => ZQ (vget t j)) k).
  - unfold lapp. apply sumf_ext. intros j Hj. f_equal. fold (rational unit_matrix k j). rewrite rational_unit. unfold identity_matrix, Matrix.delta. rewrite Nat.eqb_sym. destruct (j =? k); reflexivity.
  - rewrite lapp_delta; auto.
Qed.
Lemma symmetry_ext chk g m m' f F : (forall i j, i < gdim g -> j < gdim g -> m i j = m' i j) -> symmetry chk g m f F -> symmetry chk g m' f F.
Proof.
  intros E [H1 H2 H3 H4 H5 H6 H7 H8 H9 H10]. constructor; auto. intros e He. destruct (H10 e He) as (x & Ex & Ey). exists x. split; auto. rewrite Ey. f_equal.
  rewrite !times_mapp. apply mapp_ext. auto.
Qed.

Lemma lift_translation chk g t F a b : sound chk g -> symmetry chk g identity_matrix t F -> is_node g a -> is_node g b -> fst b = t (fst a) ->
  exists psi, translation_symmetry g psi /\ induces g psi t F /\ psi a = b.
Proof.
  intros So Sy Na Nb E. destruct (C69_lift chk g identity_matrix t F a b So (identity_injective _) Sy Na Nb E) as (M & psi & EM & Iso & Per & In & Ea).
  exists psi. splits; auto. split; auto. intros c s Nc Ls. rewrite Per by auto. f_equal. apply ztimes_ext. intros i j Hi Hj. apply ZQ_inj.
  fold (rational M i j). rewrite <- EM, <- rational_unit by auto. reflexivity.
Qed.
Lemma descend_translation chk g psi : sound chk g -> translation_symmetry g psi -> exists t F, symmetry chk g identity_matrix t F /\ induces g psi t F.
Proof.
  intros So [Iso Per]. destruct (C69_descend chk g unit_matrix psi So Iso Per) as (_ & t & F & Sy & In). exists t, F. split; auto.
  eapply symmetry_ext; [|eauto]. intros i j _ _. apply rational_unit.
Qed.

(** two vertices are in the same orbit of translations if a translation of the net takes nodes over one to nodes over the other *)
Lemma orbit_net chk g v w : sound chk g -> is_vertex g v -> is_vertex g w ->
  (exists t F, symmetry chk g identity_matrix t F /\ t v = w) <-> exists psi, translation_symmetry g psi /\ fst (psi (v, repeat 0%Z (gdim g))) = w.
Proof.
  intros So Hv Hw. assert (Nv : is_node g (v, repeat 0%Z (gdim g))) by (split; auto; apply repeat_length). split.
  - intros (t & F & Sy & E). destruct (lift_translation chk g t F (v, repeat 0%Z (gdim g)) (w, repeat 0%Z (gdim g)) So Sy) as (psi & T & _ & Ep); auto; [split; auto; apply repeat_length|].
    exists psi. split; auto. rewrite Ep. auto.
  - intros (psi & T & E). destruct (descend_translation chk g psi So T) as (t & F & Sy & [In _]). exists t, F. split; auto. rewrite <- E, In; auto.
Qed.

Theorem C92_translational_orbits : forall chk g, sound chk g -> is_ladder chk g = Ret false -> exists cls, translational_orbits chk g = Ret cls /\
  classes_under (fun v w => exists psi, translation_symmetry g psi /\ fst (psi (v, repeat 0%Z (gdim g))) = w) (vertices g) cls.
Proof.
  intros chk g So La. destruct (C41_translational_orbits chk g So La) as (cls & E & H1 & H2 & H3). exists cls. split; auto. unfold classes_under. splits; auto.
  intros v w Hv Hw. rewrite H3 by auto. apply (orbit_net chk g v w So); apply vertices_In; auto.
Qed.
Print Assumptions C92_translational_orbits.

Lemma translate_symmetry g u : length u = gdim g -> translation_symmetry g (translate u).
Proof.
  intros Lu. assert (Nt : forall u' a, length u' = gdim g -> is_node g a -> is_node g (translate u' a)).
  { intros u' [v s] L' [Hv Ls]. split; auto. unfold translate. cbn [fst snd] in *. slen. }
  assert (Ln : length (sneg u) = gdim g) by (rewrite sneg_length; auto).
  assert (Bk : forall a, is_node g a -> translate (sneg u) (translate u a) = a /\ translate u (translate (sneg u) a) = a).
  { intros [v s] [_ Ls]. unfold translate. cbn [fst snd] in *. split; f_equal; seq. }
  split; [constructor|].
  - auto.
  - intros a b Na Nb E. rewrite <- (proj1 (Bk a Na)), <- (proj1 (Bk b Nb)). congruence.
  - intros b Nb. exists (translate (sneg u) b). split; auto. apply Bk; auto.
  - intros a b Na Nb. split; intros A.
    + apply adjacent_translate; auto.
    + rewrite <- (proj1 (Bk a Na)), <- (proj1 (Bk b Nb)). apply adjacent_translate; auto.
  - intros [v s] t [_ Ls] Lt. cbn [fst snd] in *. rewrite ztimes_unit by auto. unfold translate. cbn [fst snd]. f_equal. seq.
Qed.

(** a translation of the net that takes some node to one over the same vertex is a lattice translation *)
Lemma fixed_lattice chk g psi v : sound chk g -> translation_symmetry g psi -> is_vertex g v -> fst (psi (v, repeat 0%Z (gdim g))) = v -> lattice_translation g psi.
Proof.
  intros So T Hv E. destruct (descend_translation chk g psi So T) as (t & F & Sy & In). set (a0 := (v, repeat 0%Z (gdim g)) : node) in *.
  assert (N0 : is_node g a0) by (split; auto; apply repeat_length).
  set (u := snd (psi a0)). assert (Lu : length u = gdim g) by apply (ni_node _ _ _ (proj1 T) a0 N0). exists u. split; auto.
  destruct (setup chk g So) as (pos & P & CC & LS). pose proof (translation_trans chk g pos So P CC LS t F) as X. apply X in Sy as Tr. clear X.
  pose proof (so_constructed _ _ So) as C.
  destruct (hom_unique g pos (conn g CC) LS (fun x => x) t F (fun v => v) (fun e => e) v Tr (trans_id g pos) Hv) as [Ht HF]; [transitivity (fst (psi a0)); auto; symmetry; apply (proj1 In a0 N0)|].
  apply (C69_unique chk g psi (translate u) (fun v => v) (fun e => e) a0 So (proj1 T) (proj1 (translate_symmetry g u Lu))); auto.
  - destruct In as [I1 I2]. split.
    + intros a Na. rewrite I1 by auto. apply Ht. apply Na.
    + intros e x He Lx. rewrite I2 by auto. rewrite HF; auto. apply dedges_In; auto.
  - split; [reflexivity|]. intros e x He Lx. apply directed_In in He. pose proof (dedges_dim g C e He). unfold translate. cbn [fst snd]. f_equal. seq.
  - unfold translate, a0. cbn [fst snd]. fold a0. rewrite (surjective_pairing (psi a0)), E. fold u. f_equal. change (repeat 0%Z (gdim g)) with (szero (gdim g)). rewrite sadd_0_l; auto.
Qed.

(** is_minimal: the translations of the net are those of the graph *)
Theorem C92_is_minimal : forall chk g, sound chk g -> is_ladder chk g = Ret false -> exists b, is_minimal chk g = Ret b /\
  (b = true <-> forall psi, translation_symmetry g psi -> lattice_translation g psi).
Proof.
  intros chk g So La. destruct (C41_is_minimal chk g So La) as (b & E & H). exists b. split; auto. rewrite H. clear b E H. destruct (so_vertex _ _ So) as [v0 Hv0]. split.
  - intros H psi T. destruct (descend_translation chk g psi So T) as (t & F & Sy & In). apply (fixed_lattice chk g psi v0 So T Hv0).
    rewrite (proj1 In); [apply (H t F Sy); auto|]. split; auto. apply repeat_length.
  - intros H t F Sy v Hv. assert (Nv : is_node g (v, repeat 0%Z (gdim g))) by (split; auto; apply repeat_length).
    destruct (lift_translation chk g t F (v, repeat 0%Z (gdim g)) (t v, repeat 0%Z (gdim g)) So Sy) as (psi & T & In & Ep); auto.
    { split; [apply (sym_vertex _ _ _ _ _ Sy); auto|apply repeat_length]. }
    destruct (H psi T) as (u & Lu & Hu). specialize (Hu _ Nv). rewrite Ep in Hu. unfold translate in Hu. cbn [fst snd] in Hu. congruence.
Qed.
Print Assumptions C92_is_minimal.

(** is_ladder: some translation of the net moves nodes, but not their places *)
Theorem C92_is_ladder : forall chk g, sound chk g -> exists b, is_ladder chk g = Ret b /\
  (b = true <-> exists psi a, translation_symmetry g psi /\ is_node g a /\ psi a <> a /\ same_point chk g a (psi a)).
Proof.
  intros chk g So. destruct (C62_is_ladder chk g So) as (b & E & H). exists b. split; auto. rewrite H. clear b E H.
  destruct (setup chk g So) as (pos & P & CC & LS). split.
  - intros (t & F & Sy & v & p & q & Hv & Nt & Ep & Eq & [Lpq Df]). assert (Htv : is_vertex g (t v)) by (apply (sym_vertex _ _ _ _ _ Sy); auto).
    assert (Lp : length p = gdim g). { rewrite (pl_ret _ _ _ P) in Ep by auto. injection Ep as <-. apply (pl_len _ _ _ P); auto. }
    destruct (choice_below (fun k n => k < gdim g -> (coord k p - coord k q)%Qc = ZQ n) (gdim g)) as [s Hs].
    { intros k. destruct (Nat.lt_ge_cases k (gdim g)) as [Hk|Hk]; [|exists 0%Z; lia]. rewrite Lp in Df. destruct (Df k Hk) as [z Ez]. exists z. auto. }
    set (a0 := (v, repeat 0%Z (gdim g)) : node). set (b0 := (t v, map s (seq 0 (gdim g))) : node).
    destruct (lift_translation chk g t F a0 b0 So Sy) as (psi & T & In & Ea).
    { split; auto. apply repeat_length. } { split; auto. cbn [b0 snd]. rewrite map_length, seq_length. auto. } { reflexivity. }
    exists psi, a0. splits; auto.
    + split; auto. apply repeat_length.
    + rewrite Ea. unfold a0, b0. intros E. apply Nt. congruence.
    + rewrite Ea. exists p, q. splits; auto. intros k Hk. cbn [a0 b0 snd fst]. rewrite nth_repeat.
      assert (Gt : nth k (map s (seq 0 (gdim g))) 0%Z = s k) by (erewrite nth_error_nth; [|rewrite nth_error_map_seq by auto; reflexivity]; auto).
      rewrite Gt, <- Hs by auto. change (ZQ 0) with 0%Qc. ring.
  - intros (psi & a & T & Na & Nf & p & q & Ep & Eq & Hpq). destruct (descend_translation chk g psi So T) as (t & F & Sy & In). exists t, F. split; auto.
    pose proof (proj1 In a Na) as Et. exists (fst a), p, q. splits; auto.
    + apply Na.
    + intros E. apply Nf. rewrite E in Et. destruct a as [v s], (psi (v, s)) as [w u] eqn:Ew. cbn [fst snd] in *. subst w. f_equal. 
      pose proof (ni_node _ _ _ (proj1 T) _ Na) as [_ Lu]. rewrite Ew in Lu. cbn [snd] in Lu. destruct Na as [_ Ls]. cbn [snd] in Ls.
      assert (p = q) by congruence. subst q. apply (zvec_ext _ _ (gdim g)); auto. intros k Hk. specialize (Hpq k Hk). change (vget u k) with (nth k u 0%Z). change (vget s k) with (nth k s 0%Z). qclra.
    + congruence.
    + assert (V1 : is_vertex g (fst a)) by apply Na. assert (V2 : is_vertex g (fst (psi a))) by apply (ni_node _ _ _ (proj1 T) _ Na).
      rewrite (pl_ret _ _ _ P) in Ep, Eq by auto. injection Ep as <-. injection Eq as <-. unfold differ_by_integers.
      rewrite !(pl_len _ _ _ P) by auto. split; auto. intros k Hk. exists (nth k (snd (psi a)) 0 - nth k (snd a) 0)%Z. specialize (Hpq k Hk). rewrite ZQ_sub. qclra.
Qed.
Print Assumptions C92_is_ladder.

Lemma ztimes_zero d M : ztimes d M (szero d) = szero d.
Proof.
  apply (zvec_ext _ _ d); [apply ztimes_length|apply szero_length|]. intros k Hk. rewrite vget_ztimes, vget_szero by auto. unfold lapp.
  rewrite sumf_zero; [reflexivity|]. intros j Hj. rewrite vget_szero. change (ZQ 0) with 0%Qc. cbn [rmul Qc_dom]. change (r0 : Qc) with 0%Qc. ring.
Qed.

(** ** the same net in two descriptions with cells of the same size *)
Record same_cell (chk chk' : Z -> outcome Z) (g h : graph) (M N : nat -> nat -> Z) (phi : node -> node) : Prop := {
  sc_g : sound chk g; sc_h : sound chk' h; sc_dim : gdim h = gdim g;
  sc_iso : net_isomorphism g h phi; sc_periodic : periodic_map g M phi; sc_inverse : inverse_matrices (gdim g) M N }.

Section Inverse.
  Variables (g h : graph) (M N : nat -> nat -> Z) (phi : node -> node).
  Hypotheses (Iso : net_isomorphism g h phi) (Per : periodic_map g M phi) (MN : inverse_matrices (gdim g) M N) (Ed : gdim h = gdim g).
  Notation d := (gdim g).
  Notation r := (ff g phi).
  Notation z := (zv g phi).

  Lemma cell_node v s : is_vertex g v -> length s = d -> phi (v, s) = (r v, sadd (z v) (ztimes d M s)).
  Proof. exact (i_node g phi M Per v s). Qed.
  Lemma z_length v : is_vertex g v -> length (z v) = d.
  Proof. intros Hv. assert (Nv : is_node g (v, szero d)) by (apply nodeO; auto). pose proof (ni_node _ _ _ Iso _ Nv) as [_ L]. rewrite Ed in L. exact L. Qed.
  Lemma r_inj v w : is_vertex g v -> is_vertex g w -> r v = r w -> v = w.
  Proof.
    intros Hv Hw E. pose proof (z_length v Hv) as Lv. pose proof (z_length w Hw) as Lw. set (s := ztimes d N (ssub (z v) (z w))). assert (Ls : length s = d) by apply ztimes_length.
    assert (X : phi (v, szero d) = phi (w, s)).
    { rewrite !cell_node by (auto; apply szero_length). f_equal; auto. unfold s. assert (Lz : length (ssub (z v) (z w)) = d) by slen. rewrite (proj2 (MN _ Lz)). rewrite ztimes_zero. seq. }
    apply (ni_inj _ _ _ Iso) in X; [congruence|apply nodeO; auto|split; auto].
  Qed.
  Definition back_vertex (w : nat) : nat := hd 0 (filter (fun v => r v =? w) (vertices g)).
  Lemma back_vertex_ok v : is_vertex g v -> back_vertex (r v) = v.
  Proof.
    intros Hv. unfold back_vertex. destruct (filter (fun x => r x =? r v) (vertices g)) as [|x l] eqn:Ef.
    - exfalso. assert (I : In v (filter (fun x => r x =? r v) (vertices g))) by (apply filter_In; split; [apply vertices_In; auto|apply Nat.eqb_refl]). rewrite Ef in I. destruct I.
    - assert (I : In x (filter (fun x => r x =? r v) (vertices g))) by (rewrite Ef; left; auto). apply filter_In in I as [Ix Ex]. apply Nat.eqb_eq in Ex. cbn [hd]. apply r_inj; auto. apply vertices_In; auto.
  Qed.
  Definition back (b : node) : node := (back_vertex (fst b), ztimes d N (ssub (snd b) (z (back_vertex (fst b))))).
  Lemma back_phi a : is_node g a -> back (phi a) = a.
  Proof.
    destruct a as [v s]. intros [Hv Ls]. cbn [fst snd] in *. rewrite cell_node by auto. unfold back. cbn [fst snd]. rewrite back_vertex_ok by auto. f_equal.
    pose proof (z_length v Hv) as Lv. pose proof (ztimes_length d M s) as Lm. replace (ssub (sadd (z v) (ztimes d M s)) (z v)) with (ztimes d M s) by seq. apply MN; auto.
  Qed.
  Lemma phi_back b : is_node h b -> phi (back b) = b /\ is_node g (back b).
  Proof. intros Nb. destruct (ni_surj _ _ _ Iso b Nb) as (a & Na & <-). rewrite back_phi by auto. auto. Qed.

  Lemma carry psi : translation_symmetry g psi -> translation_symmetry h (fun b => phi (psi (back b))).
  Proof.
    intros [I T]. split; [constructor|].
    - intros b Nb. apply (ni_node _ _ _ Iso), (ni_node _ _ _ I), phi_back; auto.
    - intros b c Nb Nc E. apply (ni_inj _ _ _ Iso) in E; try (apply (ni_node _ _ _ I), phi_back; auto). apply (ni_inj _ _ _ I) in E; try (apply phi_back; auto).
      rewrite <- (proj1 (phi_back b Nb)), <- (proj1 (phi_back c Nc)). congruence.
    - intros c Nc. destruct (ni_surj _ _ _ Iso c Nc) as (x & Nx & <-). destruct (ni_surj _ _ _ I x Nx) as (y & Ny & <-). exists (phi y). split; [apply (ni_node _ _ _ Iso); auto|].
      rewrite back_phi; auto.
    - intros b c Nb Nc. destruct (ni_surj _ _ _ Iso b Nb) as (x & Nx & <-). destruct (ni_surj _ _ _ Iso c Nc) as (y & Ny & <-). rewrite !back_phi by auto.
      rewrite <- (ni_adjacent _ _ _ Iso x y) by auto. rewrite (ni_adjacent _ _ _ I x y) by auto. apply (ni_adjacent _ _ _ Iso); apply (ni_node _ _ _ I); auto.
    - intros b t Nb Lt. rewrite ztimes_unit by auto. rewrite Ed in Lt. destruct (ni_surj _ _ _ Iso b Nb) as (x & Nx & <-).
      assert (Ln : length (ztimes d N t) = d) by apply ztimes_length.
      assert (E : translate t (phi x) = phi (translate (ztimes d N t) x)) by (rewrite Per by auto; rewrite (proj2 (MN t Lt)); auto).
      assert (Nx' : is_node g (translate (ztimes d N t) x)) by (destruct x as [v s], Nx as [Hv Ls]; split; auto; unfold translate; cbn [fst snd] in *; slen).
      rewrite E, !back_phi by auto. rewrite T by auto. rewrite ztimes_unit by auto. rewrite Per by (auto; apply (ni_node _ _ _ I); auto). rewrite (proj2 (MN t Lt)). auto.
  Qed.
  (** the inverse map *)
  Lemma back_iso : net_isomorphism h g back.
  Proof.
    constructor.
    - intros b Nb. apply phi_back; auto.
    - intros b c Nb Nc E. rewrite <- (proj1 (phi_back b Nb)), <- (proj1 (phi_back c Nc)). congruence.
    - intros a Na. exists (phi a). split; [apply (ni_node _ _ _ Iso); auto|apply back_phi; auto].
    - intros b c Nb Nc. destruct (ni_surj _ _ _ Iso b Nb) as (x & Nx & <-). destruct (ni_surj _ _ _ Iso c Nc) as (y & Ny & <-). rewrite !back_phi by auto.
      symmetry. apply (ni_adjacent _ _ _ Iso); auto.
  Qed.
  Lemma back_periodic : periodic_map h N back.
  Proof.
    intros b t Nb Lt. rewrite Ed in Lt. rewrite Ed. destruct (ni_surj _ _ _ Iso b Nb) as (x & Nx & <-). assert (Ln : length (ztimes d N t) = d) by apply ztimes_length.
    assert (E : translate t (phi x) = phi (translate (ztimes d N t) x)) by (rewrite Per by auto; rewrite (proj2 (MN t Lt)); auto).
    assert (Nx' : is_node g (translate (ztimes d N t) x)) by (destruct x as [v s], Nx as [Hv Ls]; split; auto; unfold translate; cbn [fst snd] in *; slen).
    rewrite E, !back_phi by auto. auto.
  Qed.
End Inverse.

Section Cell.
  Variables (chk chk' : Z -> outcome Z) (g h : graph) (M N : nat -> nat -> Z) (phi : node -> node).
  Hypothesis SC : same_cell chk chk' g h M N phi.
  Let Iso : net_isomorphism g h phi. Proof. apply SC. Qed.
  Let Per : periodic_map g M phi. Proof. apply SC. Qed.
  Let MN : inverse_matrices (gdim g) M N. Proof. apply SC. Qed.
  Let Ed : gdim h = gdim g. Proof. apply SC. Qed.
  Notation d := (gdim g).
  Notation r := (ff g phi).
  Notation back := (back g N phi).
  Let back_phi a : is_node g a -> back (phi a) = a. Proof. exact (back_phi g h M N phi Iso Per MN Ed a). Qed.
  Let carry psi : translation_symmetry g psi -> translation_symmetry h (fun b => phi (psi (back b))). Proof. exact (carry g h M N phi Iso Per MN Ed psi). Qed.

  Lemma cell_back : same_cell chk' chk h g N M back.
  Proof.
    constructor; [apply SC|apply SC|auto|apply (back_iso g h M N phi Iso Per MN Ed)|apply (back_periodic g h M N phi Iso Per MN Ed)|].
    intros t Lt. rewrite Ed in *. split; apply MN; auto.
  Qed.
  Lemma cell_net : same_net chk chk' g h M phi.
  Proof.
    pose proof SC as [Sg Sh _ _ _ _]. destruct (setup chk g Sg) as (pos & P & _). destruct (setup chk' h Sh) as (pos' & P' & _).
    destruct (so_vertex _ _ Sg) as [v Hv]. destruct (so_vertex _ _ Sh) as [w Hw].
    constructor; auto; try apply Sg; try apply Sh; [exists v, (pos v); apply (pl_ret _ _ _ P); auto|exists w, (pos' w); apply (pl_ret _ _ _ P'); auto].
  Qed.
  Lemma point_carry a b : is_node g a -> is_node g b -> same_point chk g a b -> same_point chk' h (phi a) (phi b).
  Proof.
    intros Na Nb (p & q & Ep & Eq & H). destruct (C91_position chk chk' g h M phi cell_net) as (s & Hs). destruct a as [v x], b as [w y]. cbn [fst snd] in *.
    destruct (Hs v x Na) as (p0 & p' & E1 & E2 & H1). destruct (Hs w y Nb) as (q0 & q' & E3 & E4 & H2). assert (p0 = p) by congruence. assert (q0 = q) by congruence. subst p0 q0.
    exists p', q'. splits; auto. intros k Hk. rewrite Ed in Hk. rewrite H1, H2 by auto. f_equal. f_equal. f_equal. apply map_ext_in. intros j Hj. apply in_seq in Hj. apply H. lia.
  Qed.
  Lemma ladder_carry : is_ladder chk g = Ret true -> is_ladder chk' h = Ret true.
  Proof.
    intros E. pose proof SC as [Sg Sh _ _ _ _]. destruct (C92_is_ladder chk g Sg) as (b & Eb & Hb). destruct (C92_is_ladder chk' h Sh) as (b' & Eb' & Hb').
    assert (b = true) by congruence. destruct (proj1 Hb H) as (psi & a & T & Na & Nf & Sp). rewrite Eb'. f_equal. apply Hb'. exists (fun b => phi (psi (back b))), (phi a). splits.
    - apply carry; auto.
    - apply (ni_node _ _ _ Iso); auto.
    - rewrite back_phi by auto. intros X. apply Nf. apply (ni_inj _ _ _ Iso); auto. apply (ni_node _ _ _ (proj1 T)); auto.
    - rewrite back_phi by auto. apply point_carry; auto. apply (ni_node _ _ _ (proj1 T)); auto.
  Qed.
  Lemma minimal_carry : (forall psi, translation_symmetry h psi -> lattice_translation h psi) -> forall psi, translation_symmetry g psi -> lattice_translation g psi.
  Proof.
    intros H psi T. destruct (H _ (carry psi T)) as (u & Lu & Hu). rewrite Ed in Lu. exists (ztimes d N u). split; [apply ztimes_length|]. intros a Na.
    specialize (Hu (phi a) (ni_node _ _ _ Iso a Na)). rewrite back_phi in Hu by auto. apply (ni_inj _ _ _ Iso).
    - apply (ni_node _ _ _ (proj1 T)); auto.
    - destruct a as [v s], Na as [Hv Ls]. split; auto. unfold translate. cbn [fst snd] in *. pose proof (ztimes_length d N u). slen.
    - rewrite Hu, Per by (auto; apply ztimes_length). rewrite (proj2 (MN u Lu)). auto.
  Qed.
  Lemma orbit_carry v w : is_vertex g v -> is_vertex g w -> (exists psi, translation_symmetry g psi /\ fst (psi (v, repeat 0%Z (gdim g))) = w) ->
    exists psi, translation_symmetry h psi /\ fst (psi (r v, repeat 0%Z (gdim h))) = r w.
  Proof.
    intros Hv Hw (psi & T & E). pose proof SC as [Sg Sh _ _ _ _].
    assert (Hrv : is_vertex h (r v)) by apply (i_vertex g h phi Iso v Hv). assert (Hrw : is_vertex h (r w)) by apply (i_vertex g h phi Iso w Hw).
    exists (fun b => phi (psi (back b))). split; [apply carry; auto|].
    destruct (descend_translation chk' h _ Sh (carry psi T)) as (t & F & Sy & [In _]). rewrite (In (r v, _)) by (split; auto; apply repeat_length). cbn [fst].
    assert (N0 : is_node g (v, repeat 0%Z d)) by (split; auto; apply repeat_length). pose proof (ni_node _ _ _ Iso _ N0) as N1. specialize (In _ N1). rewrite back_phi in In by auto.
    change (fst (phi (v, repeat 0%Z d))) with (r v) in In. rewrite <- In. pose proof (ni_node _ _ _ (proj1 T) _ N0) as N2. destruct (psi (v, repeat 0%Z d)) as [w' s]. cbn [fst] in E. subst w'.
    rewrite (cell_node g M phi Per); [auto|auto|apply N2].
  Qed.
End Cell.

Theorem C92_invariance : forall chk chk' g h M N phi, same_cell chk chk' g h M N phi ->
  is_ladder chk' h = is_ladder chk g /\
  (is_ladder chk g = Ret false -> is_minimal chk' h = is_minimal chk g /\
   exists cls cls', translational_orbits chk g = Ret cls /\ translational_orbits chk' h = Ret cls' /\
     forall v w, is_vertex g v -> is_vertex g w -> let f u := fst (phi (u, repeat 0%Z (gdim g))) in
       (exists c, In c cls /\ In v c /\ In w c) <-> (exists c, In c cls' /\ In (f v) c /\ In (f w) c)).
Proof.
  intros chk chk' g h M N phi SC. pose proof (cell_back _ _ _ _ _ _ _ SC) as SB. pose proof SC as [Sg Sh Ed Iso _ _].
  assert (L : is_ladder chk' h = is_ladder chk g).
  { destruct (C92_is_ladder chk g Sg) as (b & Eb & _). destruct (C92_is_ladder chk' h Sh) as (b' & Eb' & _). pose proof (ladder_carry _ _ _ _ _ _ _ SC) as X. pose proof (ladder_carry _ _ _ _ _ _ _ SB) as Y.
    rewrite Eb, Eb' in *. destruct b, b'; auto; symmetry; auto. }
  split; [exact L|]. intros La. assert (La' : is_ladder chk' h = Ret false) by congruence. split.
  - destruct (C92_is_minimal chk g Sg La) as (b & Eb & Hb). destruct (C92_is_minimal chk' h Sh La') as (b' & Eb' & Hb'). rewrite Eb, Eb'. f_equal. apply eq_true_iff_eq. rewrite Hb, Hb'. split.
    + apply (minimal_carry _ _ _ _ _ _ _ SC).
    + apply (minimal_carry _ _ _ _ _ _ _ SB).
  - destruct (C92_translational_orbits chk g Sg La) as (cls & Ec & _ & _ & Hc). destruct (C92_translational_orbits chk' h Sh La') as (cls' & Ec' & _ & _ & Hc'). exists cls, cls'. splits; auto.
    intros v w Hv Hw f. assert (Hfv : is_vertex h (f v)) by apply (i_vertex g h phi Iso v Hv). assert (Hfw : is_vertex h (f w)) by apply (i_vertex g h phi Iso w Hw).
    rewrite Hc, Hc' by (apply vertices_In; auto). split.
    + apply (orbit_carry _ _ _ _ _ _ _ SC); auto.
    + intros X. apply (orbit_carry _ _ _ _ _ _ _ SB) in X; auto. 
      assert (B : forall u, is_vertex g u -> fst (back g N phi (f u, repeat 0%Z (gdim h))) = u).
      { intros u Hu. unfold back. cbn [fst]. apply (back_vertex_ok g h M N phi Iso (sc_periodic _ _ _ _ _ _ _ SC) (sc_inverse _ _ _ _ _ _ _ SC) Ed); auto. }
      change (exists psi, translation_symmetry g psi /\ fst (psi (fst (back g N phi (f v, repeat 0%Z (gdim h))), repeat 0%Z (gdim g))) = fst (back g N phi (f w, repeat 0%Z (gdim h)))) in X.
      rewrite !B in X by auto. auto.
Qed.
Print Assumptions C92_invariance.

(** ** examples *)
(** the honeycomb net and the renumbered, moved and sheared copy of C91_case *)
Lemma honeycomb'_sound : sound chk64 honeycomb'.
Proof.
  pose proof C91_case as []. constructor; auto.
  exists 3. apply vertices_In. vm_compute. auto.
Qed.
Example C92_case : same_cell chk64 chk64 honeycomb honeycomb' shear shear_back (rewrite_node 2 new_name new_origin shear).
Proof.
  pose proof C91_case as []. constructor; auto; [apply honeycomb_sound|apply honeycomb'_sound|].
  intros t Lt. change (gdim honeycomb) with 2 in *. destruct t as [|x [|y [|? ?]]]; try discriminate Lt.
  unfold ztimes, shear, shear_back. cbn [seq map fold_right nth]. split; repeat (apply (f_equal2 cons); [lia|]); reflexivity.
Qed.
Example C92_case_minimal : is_ladder chk64 honeycomb' = Ret false /\ is_minimal chk64 honeycomb' = Ret true.
Proof.
  destruct (C92_invariance _ _ _ _ _ _ _ C92_case) as [L H]. assert (E : is_ladder chk64 honeycomb = Ret false) by (vm_compute; reflexivity).
  rewrite L. split; [exact E|]. rewrite (proj1 (H E)). vm_compute. reflexivity.
Qed.
(** the doubled square lattice is not minimal: half_step (Props_MinImage.v) is a translation of the net but not of the graph; two_chains is a ladder *)
Example C92_cases : is_ladder chk64 sql2 = Ret false /\ is_minimal chk64 sql2 = Ret false /\ is_ladder chk64 two_chains = Ret true.
Proof. splits; [apply C62_case|apply C41_case|apply C62_case]. Qed.
