(** Property C70: when minimal_image (symmetries.rs) returns a graph, that graph describes the same net with the smallest possible cell. *)
From Coq Require Import List ZArith Lia Bool PeanoNat QArith Qcanon Permutation.
From Verif Require Import Base Partition Vec Elim Scalars Matrix LinAlg Geometry ZQ QcTac ModSolver ModSolve OrdSet PGraph Net PGraphBase Traverse Placement Placed Stability Lattices RatLattice Periodic Symmetries Automorph Group SymFront Orbits NetAuto MinImage.
From Verif Require Import Props_Placement Props_Symmetries Props_Net.
Import ListNotations.
Close Scope Q_scope. Close Scope Qc_scope.
Open Scope nat_scope.

(** ** specification.  The vocabulary is in Net.v (is_node), NetAuto.v (net_isomorphism, periodic_map, translate) and Props_Symmetries.v (sound). *)
Definition unit_matrix (i j : nat) : Z := if i =? j then 1%Z else 0%Z.
(** a translation symmetry of the net: an automorphism that commutes with the lattice translations *)
Definition translation_symmetry (g : graph) (psi : node -> node) : Prop := net_isomorphism g g psi /\ periodic_map g unit_matrix psi.
(** the map only moves by a lattice vector *)
Definition lattice_translation (g : graph) (psi : node -> node) : Prop :=
  exists u, length u = gdim g /\ forall a, is_node g a -> psi a = translate u a.

(** ** C70.  The image has the same net: there is an isomorphism phi that takes lattice translations to lattice translations;
    and phi turns every translation symmetry of the net of g into a lattice translation of the image. *)
Theorem C70_minimal_image : forall chk g h, sound chk g -> is_ladder chk g = Ret false -> minimal_image chk g = Ret (Some h) ->
  constructed h /\ gdim h = gdim g /\
  exists M phi, net_isomorphism g h phi /\ periodic_map g M phi /\
    forall psi, translation_symmetry g psi -> exists u, length u = gdim h /\ forall a, is_node g a -> phi (psi a) = translate u (phi a).
Proof.
  intros chk g h So La E. destruct (setup chk g So) as (pos & P & CC & LS). destruct So as [C Hd Fi Cn St NE].
  destruct (img_inv chk g pos C P Hd CC NE LS h St La Fi E) as (imgf & rep & m & bs & v0 & r & J).
  assert (Pl : forall v w, is_vertex g v -> trel g pos v w -> (forall k, k < gdim g -> isZ (pget (pos w) k - pget (pos v) k)%Qc) -> v = w).
  { intros v w Hv T. apply (places chk g pos C P Hd CC NE LS); auto. }
  splits; [apply (im_con _ _ _ _ _ _ _ _ _ J)|apply (im_dim _ _ _ _ _ _ _ _ _ J)|].
  exists (mz m), (fi g pos imgf rep m). splits.
  - apply (fi_iso chk g pos C P Hd CC NE LS h imgf rep m bs v0 r J Pl).
  - intros a t Na Lt. apply (fi_translate g pos C CC h imgf rep m bs v0 r J a t Na Lt).
  - intros psi [I Pe]. rewrite (im_dim _ _ _ _ _ _ _ _ _ J). apply (fi_minimal chk g pos C P CC LS h imgf rep m bs v0 r J psi I Pe).
Qed.
(** All translation symmetries of the image are lattice translations ... *)
Theorem C70_image_translations : forall chk g h psi, sound chk g -> is_ladder chk g = Ret false -> minimal_image chk g = Ret (Some h) ->
  translation_symmetry h psi -> lattice_translation h psi.
Proof.
  intros chk g h psi So La E [I Pe]. destruct (setup chk g So) as (pos & P & CC & LS). destruct So as [C Hd Fi Cn St NE].
  destruct (img_inv chk g pos C P Hd CC NE LS h St La Fi E) as (imgf & rep & m & bs & v0 & r & J).
  assert (Pl : forall v w, is_vertex g v -> trel g pos v w -> (forall k, k < gdim g -> isZ (pget (pos w) k - pget (pos v) k)%Qc) -> v = w).
  { intros v w Hv T. apply (places chk g pos C P Hd CC NE LS); auto. }
  unfold lattice_translation. rewrite (im_dim _ _ _ _ _ _ _ _ _ J). apply (image_minimal chk g pos C P Hd CC NE LS h imgf rep m bs v0 r J Pl psi I Pe).
Qed.
(** ... so the code itself calls the image minimal. *)
Theorem C70_image_is_minimal : forall chk g h, sound chk g -> is_ladder chk g = Ret false -> minimal_image chk g = Ret (Some h) -> sound chk h ->
  is_ladder chk h = Ret false /\ is_minimal chk h = Ret true /\ minimal_image chk h = Ret None.
Proof.
  intros chk g h So La E Sh.
  assert (Tr : forall t F, symmetry chk h identity_matrix t F -> forall v, is_vertex h v -> t v = v).
  { intros t F Sy v Hv.
    assert (Ij : injective (gdim h) identity_matrix).
    { apply injective_linj. intros x y Lx Ly Exy. apply (linj_delta (gdim h)); auto. rewrite !(mapp_ext (gdim h) Matrix.delta identity_matrix); auto; intros i j _ _; unfold identity_matrix, Matrix.delta; rewrite Nat.eqb_sym; destruct (i =? j); reflexivity. }
    assert (N1 : is_node h (v, szero (gdim h))) by (apply nodeO; auto). assert (N2 : is_node h (t v, szero (gdim h))) by (apply nodeO; apply (sym_vertex _ _ _ _ _ Sy); auto).
    destruct (C69_lift chk h identity_matrix t F _ _ Sh Ij Sy N1 N2 eq_refl) as (M & phi & HM & Iso & Per & [I1 _] & _).
    destruct (C70_image_translations chk g h phi So La E) as (u & _ & Hu).
    { split; auto. intros a s Na Ls. rewrite Per by auto. f_equal. unfold ztimes. apply map_ext_in. intros i Hi. apply in_seq in Hi. assert (Q : forall l, (forall k, In k l -> k < gdim h) ->
        fold_right (fun k s0 => (M i k * nth k s 0 + s0)%Z) 0%Z l = fold_right (fun k s0 => (unit_matrix i k * nth k s 0 + s0)%Z) 0%Z l).
      { induction l as [|k l IH]; intros Hl; cbn [fold_right]; auto. rewrite IH by (intros; apply Hl; simpl; auto). f_equal. f_equal.
        apply ZQ_inj. pose proof (HM i k ltac:(lia) ltac:(apply Hl; simpl; auto)) as X. unfold rational in X. rewrite <- X. unfold identity_matrix, unit_matrix. destruct (i =? k); reflexivity. }
      apply Q. intros k Hk. apply in_seq in Hk. lia. }
    specialize (I1 _ N1). rewrite Hu in I1 by auto. symmetry. exact I1. }
  assert (Lh : is_ladder chk h = Ret false).
  { destruct (setup chk h Sh) as (pos & P & CC & LS). pose proof (translation_trans chk h pos Sh P CC LS) as T. destruct Sh as [C Hd Fi Cn St NE].
    destruct (raw_orbits_ok chk h pos C P Hd CC NE LS) as (p & p' & cls & ops & v0 & r & cls' & Nv & E1 & Ec & G & R & Hp & Ecl & E0 & ND & Hvs & Hhd).
    assert (Hv0 : is_vertex h v0) by (apply Hvs; simpl; auto). unfold is_ladder. rewrite St. cbn [bind assert].
    destruct (C34_is_stable chk h v0 (pos v0) C Hd Fi) as (b & Eb & _); [apply (pl_ret _ _ _ P); auto|]. rewrite Eb. cbn [bind]. destruct b; auto.
    unfold raw_translational_orbits. rewrite E1. cbn [bind]. rewrite Ec. cbn [omap bind snd]. rewrite Ecl. cbn [nth_error unwrap bind]. rewrite (same_place_ret chk h pos P) by auto.
    destruct r as [|w r]; auto. exfalso. destruct Hp as (_ & _ & H3 & _).
    assert (X : trel h pos v0 w). { apply H3; [apply vertices_In; auto|apply vertices_In; apply Hvs; simpl; auto|]. exists (v0 :: w :: r). splits; [rewrite Ecl; simpl; auto|simpl; auto|simpl; auto]. }
    destruct X as (t & F & Ht & Et). apply T in Ht. rewrite (Tr t F Ht v0 Hv0) in Et. subst w. inversion ND as [|? ? N _]. apply N. simpl; auto. }
  destruct (C41_is_minimal chk h Sh Lh) as (b & Eb & Hb). rewrite (proj2 Hb Tr) in Eb. splits; auto. apply (C42_none chk h true Eb). auto.
Qed.
Print Assumptions C70_minimal_image.
Print Assumptions C70_image_translations.
Print Assumptions C70_image_is_minimal.

(** ** examples: the square lattice with a double cell *)
Example C70_example : is_ladder chk64 sql2 = Ret false /\ exists h, minimal_image chk64 sql2 = Ret (Some h) /\ gedges h = [Edge 1 1 [0; 1]; Edge 1 1 [1; 0]]%Z.
Proof. split; [vm_compute; reflexivity|]. eexists. split; vm_compute; reflexivity. Qed.
Lemma sql2_image : forall h, minimal_image chk64 sql2 = Ret (Some h) -> sound chk64 h.
Proof.
  intros h E. vm_compute in E. injection E as <-. split; [| | |vm_compute; reflexivity|vm_compute; reflexivity|].
  - exists [Edge 1 1 [0; 1]; Edge 1 1 [1; 0]]%Z. split; [|vm_compute; reflexivity]. intros e He. repeat (destruct He as [<-|He]; [reflexivity|]). destruct He.
  - vm_compute; lia.
  - split; [vm_compute; reflexivity|]. right. splits; auto; [vm_compute; discriminate|]. exists 1%Z. split; [|vm_compute; discriminate].
    intros e x He Hx. vm_compute in He. repeat (destruct He as [<-|He]; [simpl in Hx; intuition lia|]). destruct He.
  - exists 1. apply vertices_In. vm_compute. auto.
Qed.
(** a translation symmetry of sql2 that is not a lattice translation: half a step along the long axis *)
Definition half_step (a : node) : node := if fst a =? 1 then (2, snd a) else (1, sadd (snd a) [1; 0]%Z).
Definition half_back (a : node) : node := if fst a =? 1 then (2, sadd (snd a) [-1; 0]%Z) else (1, snd a).
Lemma sql2_vertex v : is_vertex sql2 v <-> v = 1 \/ v = 2.
Proof. rewrite <- vertices_In. assert (E : vertices sql2 = [1; 2]) by (vm_compute; reflexivity). rewrite E. simpl. intuition. Qed.
Lemma sql2_edge e : In e (gedges sql2) <-> e = Edge 1 1 [0; 1]%Z \/ e = Edge 1 2 [-1; 0]%Z \/ e = Edge 1 2 [0; 0]%Z \/ e = Edge 2 2 [0; 1]%Z.
Proof.
  assert (E : gedges sql2 = [Edge 1 1 [0; 1]; Edge 1 2 [-1; 0]; Edge 1 2 [0; 0]; Edge 2 2 [0; 1]]%Z) by (vm_compute; reflexivity). rewrite E. simpl. intuition.
Qed.
Lemma half_node a : is_node sql2 a -> is_node sql2 (half_step a) /\ is_node sql2 (half_back a) /\ half_back (half_step a) = a /\ half_step (half_back a) = a.
Proof.
  intros [Hv L]. destruct a as [v s]. cbn [fst snd] in *. change (gdim sql2) with 2 in L. destruct s as [|x [|y [|? ?]]]; try discriminate L. apply sql2_vertex in Hv as [->| ->]; unfold half_step, half_back; cbn;
    (splits; [split; [apply sql2_vertex; auto|reflexivity]|split; [apply sql2_vertex; auto|reflexivity]| |]);
    try reflexivity; f_equal; repeat (apply (f_equal2 cons); [lia|]); reflexivity.
Qed.
Lemma half_adjacent a b : is_node sql2 a -> is_node sql2 b -> adjacent sql2 a b -> adjacent sql2 (half_step a) (half_step b).
Proof.
  intros [_ La] [_ Lb] (e & He & H). destruct a as [v s], b as [w t]. cbn [fst snd] in *. change (gdim sql2) with 2 in *.
  destruct s as [|x [|y [|? ?]]]; try discriminate La. destruct t as [|x' [|y' [|? ?]]]; try discriminate Lb.
  assert (Q : forall e', In e' (gedges sql2) ->
    ((fst (half_step (v, [x; y])) = head e' /\ fst (half_step (w, [x'; y'])) = tail e' /\ snd (half_step (w, [x'; y'])) = sadd (snd (half_step (v, [x; y]))) (shift e')) \/
     (fst (half_step (w, [x'; y'])) = head e' /\ fst (half_step (v, [x; y])) = tail e' /\ snd (half_step (v, [x; y])) = sadd (snd (half_step (w, [x'; y']))) (shift e'))) ->
    adjacent sql2 (half_step (v, [x; y])) (half_step (w, [x'; y']))) by (intros e' H1 H2; exists e'; split; auto).
  apply sql2_edge in He as [->|[->|[->| ->]]]; cbn [head tail shift] in H.
  - apply (Q (Edge 2 2 [0; 1]%Z)); [apply sql2_edge; auto|]. destruct H as [(-> & -> & H)|(-> & -> & H)]; cbn in H; injection H as H1 H2; [left|right]; cbn; splits; auto; repeat (apply (f_equal2 cons); [lia|]); reflexivity.
  - apply (Q (Edge 1 2 [0; 0]%Z)); [apply sql2_edge; auto|]. destruct H as [(-> & -> & H)|(-> & -> & H)]; cbn in H; injection H as H1 H2; [right|left]; cbn; splits; auto; repeat (apply (f_equal2 cons); [lia|]); reflexivity.
  - apply (Q (Edge 1 2 [-1; 0]%Z)); [apply sql2_edge; auto|]. destruct H as [(-> & -> & H)|(-> & -> & H)]; cbn in H; injection H as H1 H2; [right|left]; cbn; splits; auto; repeat (apply (f_equal2 cons); [lia|]); reflexivity.
  - apply (Q (Edge 1 1 [0; 1]%Z)); [apply sql2_edge; auto|]. destruct H as [(-> & -> & H)|(-> & -> & H)]; cbn in H; injection H as H1 H2; [left|right]; cbn; splits; auto; repeat (apply (f_equal2 cons); [lia|]); reflexivity.
Qed.
Lemma half_twice a : is_node sql2 a -> half_step (half_step a) = translate [1; 0]%Z a.
Proof.
  intros [Hv L]. destruct a as [v s]. cbn [fst snd] in *. apply sql2_vertex in Hv as [->| ->]; reflexivity.
Qed.
Lemma half_adjacent' a b : is_node sql2 a -> is_node sql2 b -> adjacent sql2 (half_step a) (half_step b) -> adjacent sql2 a b.
Proof.
  intros Na Nb A. destruct (half_node a Na) as (Ha & _). destruct (half_node b Nb) as (Hb & _). apply half_adjacent in A; auto. rewrite !half_twice in A by auto.
  apply (adjacent_translate sql2 _ _ [-1; 0]%Z) in A.
  destruct a as [v s], b as [w t]. destruct Na as [_ La], Nb as [_ Lb]. cbn [translate fst snd] in *. change (gdim sql2) with 2 in *.
  destruct s as [|x [|y [|? ?]]]; try discriminate La. destruct t as [|x' [|y' [|? ?]]]; try discriminate Lb.
  replace [x; y] with (sadd (sadd [x; y] [1; 0]) [-1; 0])%Z by (cbn; repeat (apply (f_equal2 cons); [lia|]); reflexivity).
  replace [x'; y'] with (sadd (sadd [x'; y'] [1; 0]) [-1; 0])%Z by (cbn; repeat (apply (f_equal2 cons); [lia|]); reflexivity). exact A.
Qed.
Example C70_half_step : translation_symmetry sql2 half_step /\ ~ lattice_translation sql2 half_step.
Proof.
  assert (V : is_vertex sql2 1) by (apply vertices_In; vm_compute; auto). assert (N : is_node sql2 (1, [0; 0]%Z)) by (split; auto; reflexivity). split; [split; [split|]|].
  - intros a Na. apply half_node; auto.
  - intros a b Na Nb E. destruct (half_node a Na) as (_ & _ & <- & _). destruct (half_node b Nb) as (_ & _ & <- & _). congruence.
  - intros b Nb. exists (half_back b). apply half_node in Nb. intuition.
  - intros a b Na Nb. split; [apply half_adjacent; auto|apply half_adjacent'; auto].
  - intros [v s] t [Hv L] Lt. change (gdim sql2) with 2 in *. cbn [fst snd] in *.
    destruct s as [|x [|y [|? ?]]]; try discriminate L. destruct t as [|x' [|y' [|? ?]]]; try discriminate Lt.
    apply sql2_vertex in Hv as [->| ->]; unfold half_step, translate, ztimes, unit_matrix; cbn [fst snd Nat.eqb seq map fold_right nth sadd zipw]; f_equal; unfold sadd; cbn [zipw]; repeat (apply (f_equal2 cons); [lia|]); reflexivity.
  - intros (u & _ & H). specialize (H _ N). vm_compute in H. discriminate H.
Qed.
