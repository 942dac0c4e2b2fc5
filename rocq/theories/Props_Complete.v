(** Properties C72 and C73: which frames characteristic_edge_lists (src/symmetries.rs) returns, and which symmetries the function symmetries finds. *)
From Coq Require Import List ZArith Lia Bool PeanoNat QArith Qcanon Permutation.
From Verif Require Import Base Partition Vec Elim Scalars Matrix LinAlg Geometry ZQ QcTac ModSolver ModSolve OrdSet PGraph Net PGraphBase Traverse Placement Placed Stability Lattices Periodic Symmetries Automorph Group SymFront Orbits NetAuto Frames SymComplete.
From Verif Require RankQ.
From Verif Require Import Props_Placement Props_Symmetries.
Import ListNotations.
Close Scope Q_scope. Close Scope Qc_scope.
Open Scope nat_scope.

(** ** specification.  [sound], [directed], [symmetry], [represents], [injective], [identity_matrix], [times] are in Props_Symmetries.v. *)
(** the vectors of vs are linearly independent *)
Definition independent (n : nat) (vs : list (list Qc)) : Prop :=
  forall cs, length cs = length vs -> (forall k, k < n -> total (fun i => nth i cs 0 * coord k (nth i vs []))%Qc (seq 0 (length vs)) = 0%Qc) -> forall i, nth i cs 0%Qc = 0%Qc.
(** as many directed edges as the net has dimensions, with linearly independent barycentric vectors *)
Definition frame (chk : Z -> outcome Z) (g : graph) (l : list edge) : Prop :=
  length l = gdim g /\ (forall e, In e l -> directed g e) /\
  exists vs, length vs = length l /\ (forall i e, nth_error l i = Some e -> edge_vector chk g e = Ret (nth i vs [])) /\ independent (gdim g) vs.
(** all edges start at one vertex; each edge starts where the preceding one ends *)
Definition star (l : list edge) : Prop := forall e e', In e l -> In e' l -> head e = head e'.
Definition path (l : list edge) : Prop := forall i e e', nth_error l i = Some e -> nth_error l (S i) = Some e' -> tail e = head e'.

(** ** from the specification to the proofs *)
Lemma independent_rk n vs : lens n vs -> independent n vs <-> RankQ.rk n vs = length vs.
Proof.
  intros L.
  assert (Z : forall cs, length cs = length vs -> (forall k, k < n -> total (fun i => nth i cs 0 * coord k (nth i vs []))%Qc (seq 0 (length vs)) = 0%Qc) <-> lincomb n cs vs = vzero n).
  { intros cs Lc. split.
    - intros H. apply vec_ext; [rewrite lincomb_length, vzero_length; auto|]. rewrite lincomb_length by auto. intros k Hk. rewrite vget_lincomb, vget_vzero by auto.
      etransitivity; [|apply (H k Hk)]. rewrite total_sumf. reflexivity.
    - intros H k Hk. rewrite total_sumf. etransitivity; [|exact (vget_vzero n k)]. rewrite <- H. rewrite vget_lincomb by auto. reflexivity. }
  split.
  - intros H. apply (@RankQ.indep_rk); auto. intros cs Lc E. apply vec_ext; [rewrite vzero_length; auto|]. intros i Hi. rewrite vget_vzero. apply H; auto. apply Z; auto.
  - intros H cs Lc E i. apply Z in E; auto. apply ((@RankQ.rk_indep) n vs) in E; auto. rewrite E. exact (vget_vzero (length vs) i).
Qed.
Section S.
  Variables (chk : Z -> outcome Z) (g : graph) (pos : nat -> point).
  Hypothesis C : constructed g.
  Hypothesis P : Placed chk g pos.
  Notation d := (gdim g).
  Notation evs := (map (evec (gdim g) pos)).

  Lemma frame_chr l : frame chk g l <-> chr g pos l.
  Proof.
    split.
    - intros (L & Dl & vs & Lv & Hv & In0). unfold chr. assert (Il : incl l (dedges g)) by (intros e He; apply directed_In; auto). splits; auto.
      assert (Ev : evs l = vs).
      { apply nth_ext with (d := []) (d' := []); rewrite map_length; auto. intros i Hi. assert (E : nth_error l i <> None) by (apply nth_error_Some; auto). destruct (nth_error l i) as [e|] eqn:Ee; [|congruence].
        specialize (Hv i e Ee). rewrite (edge_vector_ret chk g pos) in Hv by (auto; apply Il; eapply nth_error_In; eauto). injection Hv as <-. apply nth_error_nth. rewrite nth_error_map, Ee. reflexivity. }
      rewrite Ev. transitivity (length vs); [|congruence]. apply independent_rk; auto. rewrite <- Ev. apply evs_lens.
    - intros (L & Il & R). split; auto. split; [intros e He; apply directed_In; auto|]. exists (evs l). splits.
      + apply map_length.
      + intros i e Ee. rewrite (edge_vector_ret chk g pos) by (auto; apply Il; eapply nth_error_In; eauto). apply (f_equal Ret). symmetry. apply nth_error_nth. rewrite nth_error_map, Ee. reflexivity.
      + apply independent_rk; [apply evs_lens|]. rewrite map_length. congruence.
  Qed.
  Lemma star_star l : 0 < d -> star_frame g pos l <-> frame chk g l /\ star l.
  Proof.
    intros Hd. rewrite frame_chr. unfold star_frame. split; intros [H1 H2]; split; auto.
    - destruct H2 as (v & _ & I). intros e e' He He'. apply I, inc_In in He as [_ ->]. apply I, inc_In in He' as [_ ->]. auto.
    - destruct H1 as (L & I & _). destruct l as [|e l]; [simpl in L; lia|]. exists (head e). split; [apply dedges_vertices; apply I; simpl; auto|]. intros e' He'. apply inc_In. split; auto. apply H2; simpl; auto.
  Qed.
End S.
Lemma chain_path l : chain l <-> path l.
Proof.
  induction l as [|e l IH]; cbn [chain].
  - split; auto. intros _ [|i] e e' E; discriminate E.
  - rewrite IH. split.
    + intros [H1 H2] [|i] a b Ea Eb; cbn [nth_error] in *; [|apply (H2 i); auto]. injection Ea as <-. destruct l; [discriminate Eb|]. injection Eb as <-. auto.
    + intros H. split; [destruct l as [|e' l]; auto; apply (H 0 e e'); auto|]. intros i a b Ea Eb. apply (H (S i)); auto.
Qed.

(** ** C72: the frames.  They are all the frames that are stars; if there is no such frame, all those that are paths; if there is none of them either, all frames. *)
Theorem C72_characteristic_edge_lists : forall chk g, sound chk g -> exists lists, characteristic_edge_lists chk g = Ret lists /\ lists <> [] /\
  ((exists l, frame chk g l /\ star l) -> forall l, In l lists <-> frame chk g l /\ star l) /\
  ((forall l, frame chk g l -> ~ star l) -> (exists l, frame chk g l /\ path l) -> forall l, In l lists <-> frame chk g l /\ path l) /\
  ((forall l, frame chk g l -> ~ star l) -> (forall l, frame chk g l -> ~ path l) -> forall l, In l lists <-> frame chk g l).
Proof.
  intros chk g So. destruct (setup chk g So) as (pos & P & CC & LS). destruct So as [C Hd Fi Cn St NE].
  destruct (characteristic_ret chk g pos C P Hd CC NE LS) as (r & E & HF & N). exists r. splits; auto.
  all: destruct (characteristic_spec chk g pos C P Hd CC NE LS r E) as [S|[[NS S]|(NS & NC & S)]].
  all: assert (Fc : forall l, frame chk g l <-> SymFront.chr g pos l) by (apply frame_chr; auto).
  all: assert (Fs : forall l, star_frame g pos l <-> frame chk g l /\ star l) by (intros; apply star_star; auto).
  all: assert (Fp : forall l, chain_frame g pos l <-> frame chk g l /\ path l) by (intros l; unfold chain_frame; rewrite Fc, chain_path; tauto).
  - intros _ l. rewrite S. apply Fs.
  - intros (l & Hl). apply Fs in Hl. destruct (NS l Hl).
  - intros (l & Hl). apply Fs in Hl. destruct (NS l Hl).
  - intros H. exfalso. destruct r as [|c r]; [congruence|]. assert (I : In c (c :: r)) by (simpl; auto). apply S, Fs in I as [I1 I2]. apply (H c); auto.
  - intros _ _ l. rewrite S. apply Fp.
  - intros _ (l & Hl). apply Fp in Hl. destruct (NC l Hl).
  - intros H. exfalso. destruct r as [|c r]; [congruence|]. assert (I : In c (c :: r)) by (simpl; auto). apply S, Fs in I as [I1 I2]. apply (H c); auto.
  - intros _ H. exfalso. destruct r as [|c r]; [congruence|]. assert (I : In c (c :: r)) by (simpl; auto). apply S, Fp in I as [I1 I2]. apply (H c); auto.
  - intros _ _ l. rewrite Fc. apply S.
Qed.
Print Assumptions C72_characteristic_edge_lists.
(** every symmetry permutes them *)
Theorem C72_symmetric : forall chk g lists m f F, sound chk g -> characteristic_edge_lists chk g = Ret lists -> injective (gdim g) m -> symmetry chk g m f F ->
  forall l, In l lists -> In (map F l) lists.
Proof.
  intros chk g lists m f F So E I Sy. destruct (setup chk g So) as (pos & P & CC & LS). apply injective_linj in I. apply (symmetry_hom chk g pos So P CC LS) in Sy; auto. destruct So as [C Hd Fi Cn St NE].
  apply (characteristic_map chk g pos C P Hd CC NE LS m f F I Sy lists E).
Qed.
Print Assumptions C72_symmetric.

(** ** C73: what symmetries finds *)
(** all symmetries with matrix identity, so that one can compute translations from the result *)
Lemma found_represents g pos res f F : found g pos res f F -> exists a, In a res /\ represents g a f F.
Proof.
  intros (a & Ha & (m & V) & Ev & Ee). exists a. split; auto. apply (represents_ext g a (vact a) (act a)); auto. apply (represents_valid g pos a m V).
Qed.
Theorem C73_translations : forall chk g f F, sound chk g -> symmetry chk g identity_matrix f F -> exists syms a, symmetries chk g = Ret syms /\ In a syms /\ represents g a f F.
Proof.
  intros chk g f F So Sy. destruct (setup chk g So) as (pos & P & CC & LS).
  assert (E : forall i j, i < gdim g -> j < gdim g -> identity_matrix i j = Matrix.delta i j) by (intros i j _ _; unfold identity_matrix, Matrix.delta; rewrite Nat.eqb_sym; destruct (j =? i); reflexivity).
  assert (I : linj (gdim g) identity_matrix). { intros x y Lx Ly Exy. rewrite !(mapp_ext (gdim g) identity_matrix Matrix.delta) in Exy by auto. apply (linj_delta (gdim g)); auto. }
  apply (symmetry_hom chk g pos So P CC LS) in Sy; auto. destruct So as [C Hd Fi Cn St NE]. destruct (characteristic_ret chk g pos C P Hd CC NE LS) as (r & Er & _).
  destruct (symmetries_found chk g pos C P Hd CC NE LS St r Er) as (id & gens & res & l0 & _ & _ & A1 & _ & Es & Cl & _ & C0 & Hs & Fd).
  destruct (found_represents g pos res f F) as (a & Ha & Ra); [|exists res, a; auto]. apply (translation_found g pos CC LS res l0 Hs Fd identity_matrix); auto.
Qed.
Print Assumptions C73_translations.

(** the frame that comes first; b k j is coordinate j of the vector of its edge number k *)
Definition first_frame (chk : Z -> outcome Z) (g : graph) (l0 : list edge) (b : nat -> nat -> Qc) : Prop :=
  (exists lists, characteristic_edge_lists chk g = Ret (l0 :: lists)) /\
  forall k e, nth_error l0 k = Some e -> exists x, edge_vector chk g e = Ret x /\ forall j, j < gdim g -> coord j x = b k j.
(** m' b = b m^T *)
Definition conjugate (n : nat) (b m m' : nat -> nat -> Qc) : Prop :=
  forall i j, i < n -> j < n -> total (fun k => m' i k * b k j)%Qc (seq 0 n) = total (fun k => b i k * m j k)%Qc (seq 0 n).

Lemma conjugate_partner chk g pos l0 b m m' : constructed g -> Placed chk g pos -> 0 < gdim g -> first_frame chk g l0 b -> SymFront.chr g pos l0 -> conjugate (gdim g) b m m' <-> partner g pos l0 m m'.
Proof.
  intros C P Hd [_ Hb] (L & I & _).
  assert (E : forall k j, k < gdim g -> j < gdim g -> b k j = mxe g pos l0 k j).
  { intros k j Hk Hj. assert (N : nth_error l0 k <> None) by (apply nth_error_Some; lia). destruct (nth_error l0 k) as [e|] eqn:Ee; [|congruence]. destruct (Hb k e Ee) as (x & Ex & Hx).
    rewrite (edge_vector_ret chk g pos) in Ex by (auto; apply I; eapply nth_error_In; eauto). injection Ex as <-. rewrite <- Hx by auto. unfold mxe. erewrite nth_error_nth; [reflexivity|]. rewrite nth_error_map, Ee. reflexivity. }
  unfold conjugate, partner. split; intros H i j Hi Hj; specialize (H i j Hi Hj); rewrite ?total_sumf in *.
  - etransitivity; [|etransitivity; [exact H|]]; apply sumf_ext; intros k Hk; rewrite E by auto; cbn [rmul Qc_dom]; try reflexivity. ring.
  - etransitivity; [|etransitivity; [exact H|]]; apply sumf_ext; intros k Hk; rewrite E by auto; cbn [rmul Qc_dom]; try reflexivity. ring.
Qed.

Section P.
  Variables (chk : Z -> outcome Z) (g : graph) (l0 : list edge) (b : nat -> nat -> Qc).
  Hypothesis So : sound chk g.
  Hypothesis Ff : first_frame chk g l0 b.
  Lemma frame_setup : exists pos id gens res, Placed chk g pos /\ (forall a c, is_node g a -> is_node g c -> joined g a c) /\ (forall v, NoDup (map (evec (gdim g) pos) (inc g v))) /\
    Valid g pos id Matrix.delta /\ (forall e, act id e = e) /\ symmetries chk g = Ret res /\ is_closure g pos id gens res /\ SymFront.chr g pos l0 /\ is_vertex g (seed l0) /\
    forall m f F adj, linj (gdim g) m -> hom g pos (mapp (gdim g) m) f F -> partner g pos l0 m adj ->
        found g pos res f F \/ (exists a m', In a res /\ Valid g pos a m' /\ (forall i j, i < gdim g -> j < gdim g -> m' i j = adj i j) /\ vact a (seed l0) = f (seed l0)) \/
        (forall f' F', linj (gdim g) adj -> hom g pos (mapp (gdim g) adj) f' F' -> f' (seed l0) <> f (seed l0)).
  Proof.
    destruct (setup chk g So) as (pos & P & CC & LS). destruct So as [C Hd Fi Cn St NE]. destruct (proj1 Ff) as (lists & Er).
    destruct (symmetries_found chk g pos C P Hd CC NE LS St _ Er) as (id & gens & res & l0' & _ & Vid & A1 & _ & Es & Cl & E0 & C0 & Hs & Fd). injection E0 as <-.
    exists pos, id, gens, res. splits; auto.
  Qed.

  (** a symmetry whose matrix m satisfies m b = b m^T *)
  Theorem C73_selfconjugate : forall m f F, injective (gdim g) m -> symmetry chk g m f F -> conjugate (gdim g) b m m -> exists syms a, symmetries chk g = Ret syms /\ In a syms /\ represents g a f F.
  Proof.
    intros m f F I Sy Co. destruct frame_setup as (pos & id & gens & res & P & CC & LS & Vid & A1 & Es & Cl & C0 & Hs & Fd). apply injective_linj in I. apply (symmetry_hom chk g pos So P CC LS) in Sy; auto.
    apply (conjugate_partner chk g pos l0 b m m (so_constructed _ _ So) P (so_dim _ _ So) Ff C0) in Co.
    destruct (found_represents g pos res f F) as (a & Ha & Ra); [|exists res, a; auto]. apply (self_partner g pos CC LS res l0 Hs Fd m); auto.
  Qed.

  (** All symmetries are found if for each symmetry, with matrix m, there is one with matrix b m^T b^-1 that takes the first vertex of the frame to the same image. *)
  Theorem C73_complete : (forall m f F, injective (gdim g) m -> symmetry chk g m f F -> exists m' f' F', injective (gdim g) m' /\ symmetry chk g m' f' F' /\ conjugate (gdim g) b m m' /\
      forall e, nth_error l0 0 = Some e -> f' (head e) = f (head e)) ->
    forall m f F, injective (gdim g) m -> symmetry chk g m f F -> exists syms a, symmetries chk g = Ret syms /\ In a syms /\ represents g a f F.
  Proof.
    intros Hyp m f F I Sy. destruct frame_setup as (pos & id & gens & res & P & CC & LS & Vid & A1 & Es & Cl & C0 & Hs & Fd). apply injective_linj in I. apply (symmetry_hom chk g pos So P CC LS) in Sy; auto.
    destruct (found_represents g pos res f F) as (a & Ha & Ra); [|exists res, a; auto].
    apply (all_found g pos (so_constructed _ _ So) (so_dim _ _ So) CC (so_vertex _ _ So) LS id gens res l0 A1 Cl C0 Hs Fd) with (m := m); auto.
    clear m f F I Sy. intros m f F I H. destruct (Hyp m f F) as (m' & f' & F' & I' & Sy' & Co & Hf); [apply injective_linj; auto|apply (symmetry_hom chk g pos So P CC LS); auto|].
    apply injective_linj in I'. exists m', f', F'. splits; auto; [apply (conjugate_partner chk g pos l0 b m m' (so_constructed _ _ So) P (so_dim _ _ So) Ff C0); auto|apply (symmetry_hom chk g pos So P CC LS); auto|].
    unfold seed. destruct C0 as (L & _). destruct l0 as [|e l]; [simpl in L; pose proof (so_dim _ _ So); lia|]. apply Hf. reflexivity.
  Qed.
End P.
Print Assumptions C73_selfconjugate.
Print Assumptions C73_complete.

(** ** non-trivial cases *)
Ltac sound_case := split; [eexists; split; [|reflexivity]; intros e He; repeat (destruct He as [<-|He]; [reflexivity|]); destruct He|vm_compute; lia|
  split; [vm_compute; reflexivity|]; right; splits; auto; [vm_compute; discriminate|]; exists 1%Z; split; [|vm_compute; discriminate];
    intros e x He Hx; vm_compute in He; repeat (destruct He as [<-|He]; [simpl in Hx; intuition lia|]); destruct He|
  vm_compute; reflexivity|vm_compute; reflexivity|exists 1; apply vertices_In; vm_compute; auto].
(** the honeycomb net has frames that are stars; in the srs net all vertices have degree 3 and lie in the plane of their neighbours: there are paths only *)
Definition srs : graph := gnew 3 [Edge 1 2 [0; 0; 0]; Edge 1 3 [0; 0; 0]; Edge 1 4 [0; 0; 0]; Edge 2 3 [1; 0; 0]; Edge 3 4 [0; 1; 0]; Edge 4 2 [0; 0; 1]]%Z.
Lemma srs_sound : sound chk64 srs.
Proof. sound_case. Qed.
Example C72_case : exists l1 l2 r1 r2, characteristic_edge_lists chk64 honeycomb = Ret (l1 :: r1) /\ length r1 = 11 /\ l1 = [Edge 1 2 [0; 0]; Edge 1 2 [0; 1]]%Z /\
  characteristic_edge_lists chk64 srs = Ret (l2 :: r2) /\ length r2 = 47 /\ l2 = [Edge 1 2 [0; 0; 0]; Edge 2 3 [1; 0; 0]; Edge 3 1 [0; 0; 0]]%Z.
Proof. eexists _, _, _, _. splits; vm_compute; reflexivity. Qed.
(** the square lattice with a cell of double size has a translation that swaps the vertices *)
Definition swap12 (v : nat) : nat := if v =? 1 then 2 else if v =? 2 then 1 else v.
Example C73_translations_case : exists a, automorphism chk64 sql2 1 2 (affine_map 2 identity_matrix (fun _ => 0%Qc)) = Ret (Some a) /\ vmap a = [(1, 2); (2, 1)].
Proof. eexists. split; vm_compute; reflexivity. Qed.
(** the square lattice meets the hypothesis of C73_complete: it has 8 symmetries, and all of them are found *)
Definition square : graph := gnew 2 [Edge 1 1 [1; 0]; Edge 1 1 [0; 1]]%Z.
Lemma square_sound : sound chk64 square.
Proof. sound_case. Qed.
Definition swap_rows : nat -> nat -> Qc := of_rows [[0; 1]; [1; 0]]%Z.
Lemma square_frame : first_frame chk64 square [Edge 1 1 [0; 1]; Edge 1 1 [1; 0]]%Z swap_rows.
Proof.
  split; [eexists; vm_compute; reflexivity|]. intros [|[|k]] e Ee; cbn in Ee; [injection Ee as <-|injection Ee as <-|destruct k; discriminate Ee]; (eexists; split; [vm_compute; reflexivity|]); intros [|[|j]] Hj; cbn in Hj; try lia; vm_compute; reflexivity.
Qed.
Lemma times2 m x y : times 2 m [x; y] = [m 0%nat 0%nat * x + m 0%nat 1%nat * y; m 1%nat 0%nat * x + m 1%nat 1%nat * y]%Qc.
Proof. unfold times, total, coord. cbn [map seq fold_right nth]. apply (f_equal2 cons); [ring|]. apply (f_equal2 cons); [ring|reflexivity]. Qed.
Ltac injective_case := intros [|x [|y [|? ?]]] [|x' [|y' [|? ?]]] Lx Ly E; try discriminate; rewrite !times2 in E; unfold of_rows in E; cbn [nth] in E;
  pose proof (f_equal (fun l => nth 0 l 0%Qc) E) as E1; pose proof (f_equal (fun l => nth 1 l 0%Qc) E) as E2; cbn [nth] in E1, E2;
  change (ZQ (-1)) with (- (1))%Qc in *; change (ZQ 1) with 1%Qc in *; change (ZQ 0) with 0%Qc in *;
  assert (x = x') by qclra; assert (y = y') by qclra; congruence.
Lemma square_conjugates : forall m f F, injective 2 m -> symmetry chk64 square m f F -> exists m' f' F', injective 2 m' /\ symmetry chk64 square m' f' F' /\ conjugate 2 swap_rows m m' /\
  forall e, nth_error [Edge 1 1 [0; 1]; Edge 1 1 [1; 0]]%Z 0 = Some e -> f' (head e) = f (head e).
Proof.
  intros m f F I Sy.
  assert (V1 : is_vertex square 1) by (apply vertices_In; vm_compute; auto).
  assert (Vo : forall v, is_vertex square v -> v = 1) by (intros v Hv; apply vertices_In in Hv; vm_compute in Hv; intuition auto).
  assert (Ef : f 1 = 1) by (apply Vo; apply (sym_vertex _ _ _ _ _ Sy); auto).
  assert (X : forall e, directed square e -> exists e', In e' [Edge 1 1 [1; 0]; Edge 1 1 [-1; 0]; Edge 1 1 [0; 1]; Edge 1 1 [0; -1]]%Z /\ exists x, edge_vector chk64 square e = Ret x /\ edge_vector chk64 square e' = Ret (times 2 m x)).
  { intros e He. exists (F e). split; [|apply (sym_vector _ _ _ _ _ Sy); auto]. apply (sym_edge _ _ _ _ _ Sy) in He. apply directed_In in He. vm_compute in He. simpl. intuition auto. }
  destruct (X (Edge 1 1 [1; 0]%Z)) as (e1 & H1 & x1 & A1 & B1); [eexists; split; [|left; reflexivity]; vm_compute; auto|].
  destruct (X (Edge 1 1 [0; 1]%Z)) as (e2 & H2 & x2 & A2 & B2); [eexists; split; [|left; reflexivity]; vm_compute; auto|].
  assert (E1 : x1 = [1; 0]%Qc) by (assert (Q : edge_vector chk64 square (Edge 1 1 [1; 0]%Z) = Ret [1; 0]%Qc) by (vm_compute; reflexivity); congruence).
  assert (E2 : x2 = [0; 1]%Qc) by (assert (Q : edge_vector chk64 square (Edge 1 1 [0; 1]%Z) = Ret [0; 1]%Qc) by (vm_compute; reflexivity); congruence).
  subst x1 x2. rewrite times2 in B1, B2.
  assert (Q : exists a b c d, m 0 0 = ZQ a /\ m 0 1 = ZQ b /\ m 1 0 = ZQ c /\ m 1 1 = ZQ d /\ In [a; c] [[1; 0]; [-1; 0]; [0; 1]; [0; -1]]%Z /\ In [b; d] [[1; 0]; [-1; 0]; [0; 1]; [0; -1]]%Z).
  { assert (Y : forall e u v, In e [Edge 1 1 [1; 0]; Edge 1 1 [-1; 0]; Edge 1 1 [0; 1]; Edge 1 1 [0; -1]]%Z -> edge_vector chk64 square e = Ret [u; v] ->
      exists a c, u = ZQ a /\ v = ZQ c /\ In [a; c] [[1; 0]; [-1; 0]; [0; 1]; [0; -1]]%Z).
    { intros e u v He E. exists (nth 0 (shift e) 0%Z), (nth 1 (shift e) 0%Z).
      assert (Q : edge_vector chk64 square e = Ret [ZQ (nth 0 (shift e) 0%Z); ZQ (nth 1 (shift e) 0%Z)]) by (repeat (destruct He as [<-|He]; [vm_compute; reflexivity|]); destruct He).
      rewrite E in Q. injection Q as -> ->. splits; auto. repeat (destruct He as [<-|He]; [simpl; auto|]). destruct He. }
    destruct (Y _ _ _ H1 B1) as (a & c & Ea & Ec & Hac). destruct (Y _ _ _ H2 B2) as (b & d & Eb & Ed & Hbd). exists a, b, c, d. splits; auto; [rewrite <- Ea|rewrite <- Eb|rewrite <- Ec|rewrite <- Ed]; ring. }
  clear - I V1 Vo Ef Q. destruct Q as (a & b & c & d & Ea & Eb & Ec & Ed & Hac & Hbd).
  assert (Go : injective 2 (of_rows [[d; b]; [c; a]]) -> (exists r, automorphism chk64 square 1 1 (affine_map 2 (of_rows [[d; b]; [c; a]]) (fun _ => 0%Qc)) = Ret (Some r)) ->
    exists m' f' F', injective 2 m' /\ symmetry chk64 square m' f' F' /\ conjugate 2 swap_rows m m' /\ forall e, nth_error [Edge 1 1 [0; 1]; Edge 1 1 [1; 0]]%Z 0 = Some e -> f' (head e) = f (head e)).
  { intros I' (r & Er). destruct (C36_automorphism chk64 square _ _ 1 1 r square_sound I' V1 Er) as (f' & F' & Sy' & E' & _). exists (of_rows [[d; b]; [c; a]]), f', F'. splits; auto.
    - intros i j Hi Hj. assert (i = 0 \/ i = 1) as [-> | ->] by lia; assert (j = 0 \/ j = 1) as [-> | ->] by lia; unfold total, swap_rows, of_rows; cbn [seq fold_right nth]; rewrite ?Ea, ?Eb, ?Ec, ?Ed; change (ZQ 1) with 1%Qc; change (ZQ 0) with 0%Qc; ring.
    - intros e [= <-]. cbn [head]. congruence. }
  assert (Nonsing : (forall x y, m 0%nat 0%nat * x + m 0%nat 1%nat * y = 0 -> m 1%nat 0%nat * x + m 1%nat 1%nat * y = 0 -> [x; y] = [0; 0])%Qc).
  { intros x y Q1 Q2. apply I; auto. rewrite !times2, Q1, Q2. apply (f_equal2 cons); [ring|]. apply (f_equal2 cons); [ring|reflexivity]. }
  destruct Hac as [Hac|[Hac|[Hac|[Hac|[]]]]]; destruct Hbd as [Hbd|[Hbd|[Hbd|[Hbd|[]]]]]; injection Hac as <- <-; injection Hbd as <- <-; rewrite Ea, Eb, Ec, Ed in Nonsing;
    first [apply Go; [injective_case|eexists; vm_compute; reflexivity]
      |exfalso; discriminate (Nonsing 1%Qc 1%Qc ltac:(vm_compute; reflexivity) ltac:(vm_compute; reflexivity))
      |exfalso; discriminate (Nonsing 1%Qc (- (1))%Qc ltac:(vm_compute; reflexivity) ltac:(vm_compute; reflexivity))].
Qed.
Example C73_complete_case : forall m f F, injective 2 m -> symmetry chk64 square m f F -> exists syms a, symmetries chk64 square = Ret syms /\ In a syms /\ represents square a f F.
Proof. apply (C73_complete chk64 square _ swap_rows square_sound square_frame). exact square_conjugates. Qed.
(** The hypothesis is needed: in the srs net the rotation of order 3 about vertex 1, which takes the loops [1;0;0] -> [0;1;0] -> [0;0;1], is a symmetry,
    but no element of the result of symmetries takes vertex 1 to itself and 2 to 3. *)
Example C73_srs : exists a syms, automorphism chk64 srs 1 1 (affine_map 3 (of_rows [[0; 0; 1]; [1; 0; 0]; [0; 1; 0]]%Z) (fun _ => 0%Qc)) = Ret (Some a) /\
  vmap a = [(1, 1); (2, 3); (3, 4); (4, 2)] /\ symmetries chk64 srs = Ret syms /\ length syms = 8 /\
  forallb (fun b => match aget Nat.eqb 1 (vmap b), aget Nat.eqb 2 (vmap b) with Some 1, Some 3 => false | _, _ => true end) syms = true.
Proof.
  assert (K : match symmetries chk64 srs with Ret syms => (length syms =? 8) &&
    forallb (fun b => match aget Nat.eqb 1 (vmap b), aget Nat.eqb 2 (vmap b) with Some 1, Some 3 => false | _, _ => true end) syms | _ => false end = true) by (vm_cast_no_check (eq_refl true)).
  destruct (symmetries chk64 srs) as [syms| |]; try discriminate K. apply andb_true_iff in K as [K1 K2]. apply Nat.eqb_eq in K1.
  eexists _, syms. split; [vm_compute; reflexivity|]. split; [vm_compute; reflexivity|]. split; [reflexivity|]. split; [exact K1|exact K2].
Qed.
