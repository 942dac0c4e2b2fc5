(** Properties C36-C42 of src/symmetries.rs and of the orbit functions in
    src/pgraphs.rs: symmetries of periodic graphs. *)
From Coq Require Import List ZArith Lia Bool PeanoNat QArith Qcanon Permutation.
From Verif Require Import Base Partition Vec Elim Scalars Matrix LinAlg Geometry ZQ QcTac ModSolver ModSolve OrdSet PGraph Net PGraphBase Traverse Placement Placed Stability Lattices Periodic Symmetries Automorph Group SymFront Orbits.
From Verif Require Props_PGraph Props_Geometry.
From Verif Require Import Props_Placement.
Import ListNotations.
Close Scope Q_scope. Close Scope Qc_scope.
Open Scope nat_scope.

(** ** specification *)
(** the graphs in question: constructed by the user, of dimension at least 1, within the
    arithmetic bounds, connected, locally stable, and not empty *)
Record sound (chk : Z -> outcome Z) (g : graph) : Prop := {
  so_constructed : constructed g;
  so_dim : 0 < gdim g;
  so_fits : fits chk g;
  so_connected : is_connected g = Ret true;
  so_stable : is_locally_stable chk g = Ret true;
  so_vertex : exists v, is_vertex g v }.

(** edges with a direction *)
Definition directed (g : graph) (e : edge) : Prop := exists e0, In e0 (gedges g) /\ (e = e0 \/ e = rev e0).

(** the d x d matrix m times the column x *)
Definition times (d : nat) (m : nat -> nat -> Qc) (x : list Qc) : list Qc :=
  map (fun i => total (fun k => m i k * coord k x)%Qc (seq 0 d)) (seq 0 d).
Definition injective (d : nat) (m : nat -> nat -> Qc) : Prop :=
  forall x y, length x = d -> length y = d -> times d m x = times d m y -> x = y.
(** the affine map with matrix m and shift s *)
Definition affine_map (d : nat) (m : nat -> nat -> Qc) (s : nat -> Qc) : affmap := Affine (mk d d m) (mk d 1 (fun i _ => s i)).
Definition identity_matrix (i j : nat) : Qc := if i =? j then 1%Qc else 0%Qc.

(** f permutes the vertices and F the directed edges, compatibly; edge vectors are multiplied by m *)
Record symmetry (chk : Z -> outcome Z) (g : graph) (m : nat -> nat -> Qc) (f : nat -> nat) (F : edge -> edge) : Prop := {
  sym_vertex : forall v, is_vertex g v -> is_vertex g (f v);
  sym_edge : forall e, directed g e -> directed g (F e);
  sym_vertex_inj : forall v w, is_vertex g v -> is_vertex g w -> f v = f w -> v = w;
  sym_edge_inj : forall e e', directed g e -> directed g e' -> F e = F e' -> e = e';
  sym_vertex_surj : forall w, is_vertex g w -> exists v, is_vertex g v /\ f v = w;
  sym_edge_surj : forall e', directed g e' -> exists e, directed g e /\ F e = e';
  sym_head : forall e, directed g e -> head (F e) = f (head e);
  sym_tail : forall e, directed g e -> tail (F e) = f (tail e);
  sym_rev : forall e, directed g e -> F (rev e) = rev (F e);
  sym_vector : forall e, directed g e -> exists x, edge_vector chk g e = Ret x /\ edge_vector chk g (F e) = Ret (times (gdim g) m x) }.

(** the two hash maps of the Automorphism a hold the functions f and F *)
Definition represents (g : graph) (a : auto) (f : nat -> nat) (F : edge -> edge) : Prop :=
  (forall v w, aget Nat.eqb v (vmap a) = Some w <-> is_vertex g v /\ w = f v) /\
  (forall e x, aget edge_eqb e (emap a) = Some x <-> directed g e /\ x = F e).

(** [cls] lists the classes of the elements [elms] under the relation R *)
Definition classes_under {T} (R : T -> T -> Prop) (elms : list T) (cls : list (list T)) : Prop :=
  Permutation (concat cls) elms /\ Forall (fun c => c <> []) cls /\
  forall v w, In v elms -> In w elms -> ((exists c, In c cls /\ In v c /\ In w c) <-> R v w).

(** ** from the specification to the proofs *)
Lemma total_sumf (f : nat -> Qc) n : total f (seq 0 n) = sumf n f.
Proof.
  assert (S : forall a b, total f (a ++ b) = (total f a + total f b)%Qc).
  { intros a b. induction a as [|x a IH]; simpl; [ring|]. rewrite IH. ring. }
  induction n as [|n IH]; auto. rewrite seq_S, S, IH. cbn [sumf total fold_right]. cbn [radd Qc_dom]. simpl. ring.
Qed.
Lemma times_mapp d m x : times d m x = mapp d m x.
Proof. unfold times, mapp, lapp. apply map_ext. intros i. rewrite total_sumf. reflexivity. Qed.
Lemma injective_linj d m : injective d m <-> linj d m.
Proof. unfold injective, linj. split; intros H x y Lx Ly E; apply H; auto; rewrite ?times_mapp in *; auto. Qed.
Lemma directed_In g e : directed g e <-> In e (dedges g).
Proof. symmetry. apply dedges_In. Qed.

Lemma setup chk g : sound chk g -> exists pos, Placed chk g pos /\ (forall a c, is_node g a -> is_node g c -> joined g a c) /\
  (forall v, NoDup (map (evec (gdim g) pos) (inc g v))).
Proof.
  intros [C Hd F Cn St [v0 Hv0]].
  destruct (Props_PGraph.C31_is_connected g C) as (b & Eb & Hb). rewrite Cn in Eb. injection Eb as <-.
  assert (P : exists pos, Placed chk g pos).
  { destruct (placed_or_panic chk g C Hd F) as [H1 H2].
    assert (N : vertices g <> []) by (intros E; apply vertices_In in Hv0; rewrite E in Hv0; destruct Hv0).
    destruct (Znumtheory.Zdivide_dec 9999991 (the_det g)) as [D|D]; [|auto]. exfalso. specialize (H2 (or_intror D)).
    unfold is_locally_stable in St. destruct (vertices g) as [|v vs] eqn:Ev; [congruence|].
    assert (V : is_vertex g v) by (apply vertices_In; rewrite Ev; simpl; auto).
    rewrite incidences_vertex in St by auto. cbn [bind] in St. apply vertices_dedges in V as (e & He & Eh).
    assert (I : In e (inc g v)) by (apply inc_In; auto). destruct (inc g v) as [|e0 es]; [destruct I|].
    cbn [no_repetition] in St. unfold edge_vector in St. rewrite H2 in St. cbn [bind] in St. discriminate. }
  destruct P as [pos P]. exists pos. splits; auto.
  - apply Hb. auto.
  - rewrite (is_locally_stable_ret chk g pos C P) in St. injection St as St. rewrite forallb_forall in St.
    intros v. destruct (is_vertex_dec g v) as [Hv|Hv].
    + specialize (St v (proj2 (vertices_In g v) Hv)). apply negb_true_iff, (repeats_spec _ p_eqb_spec) in St. apply St.
    + apply inc_nil in Hv. rewrite Hv. constructor.
Qed.

Section S.
  Variables (chk : Z -> outcome Z) (g : graph) (pos : nat -> point).
  Hypothesis So : sound chk g.
  Hypothesis P : Placed chk g pos.
  Hypothesis CC : forall a c, is_node g a -> is_node g c -> joined g a c.
  Hypothesis LS : forall v, NoDup (map (evec (gdim g) pos) (inc g v)).
  Notation d := (gdim g).
  Let C := so_constructed _ _ So.

  Lemma symmetry_hom m f F : linj d m -> hom g pos (mapp d m) f F <-> symmetry chk g m f F.
  Proof.
    intros I. split.
    - intros H. pose proof (conn g CC) as Cn. split.
      + intros v. eapply hom_vertex; eauto.
      + intros e He. apply directed_In. apply directed_In in He. apply (H e He).
      + apply (hom_f_inj g pos Cn LS (mapp d m) f F); auto.
      + intros e e' He He'. apply (hom_F_inj g pos Cn LS (mapp d m) f F); auto; apply directed_In; auto.
      + apply (hom_f_surj g pos Cn LS (mapp d m) f F); auto.
      + intros e He. apply directed_In in He. destruct (hom_F_surj g pos Cn LS (mapp d m) f F H I e He) as (e' & He' & E). exists e'. split; auto. apply directed_In; auto.
      + intros e He. apply directed_In in He. apply (H e He).
      + intros e He. apply directed_In in He. apply (H e He).
      + intros e He. apply directed_In in He. apply (hom_rev g pos LS m f F); auto.
      + intros e He. apply directed_In in He. destruct (H e He) as (H1 & H2 & H3 & H4). exists (evec d pos e). split; [apply edge_vector_ret; auto|].
        rewrite times_mapp, <- H4. apply edge_vector_ret; auto.
    - intros S e He. apply directed_In in He. assert (H1 : In (F e) (dedges g)) by (apply directed_In, (sym_edge _ _ _ _ _ S); auto). splits; auto.
      + apply (sym_head _ _ _ _ _ S); auto.
      + apply (sym_tail _ _ _ _ _ S); auto.
      + destruct (sym_vector _ _ _ _ _ S e He) as (x & E1 & E2). apply directed_In in He. rewrite (edge_vector_ret chk g pos) in E1, E2 by auto.
        injection E1 as <-. injection E2 as E2. rewrite E2. apply times_mapp.
  Qed.

  Lemma represents_holds a f F : (forall v, aget Nat.eqb v (vmap a) = if is_vertex_dec g v then Some (f v) else None) ->
    (forall e, aget edge_eqb e (emap a) = if memb edge_eqb e (dedges g) then Some (F e) else None) -> represents g a f F.
  Proof.
    intros Hv He. split.
    - intros v w. rewrite Hv. destruct (is_vertex_dec g v); split; intuition congruence.
    - intros e x. rewrite He. destruct (memb edge_eqb e (dedges g)) eqn:M.
      + apply (memb_spec _ edge_eqb_spec), directed_In in M. split; intuition congruence.
      + split; [discriminate|]. intros [D _]. apply directed_In, (memb_spec _ edge_eqb_spec) in D. congruence.
  Qed.
  Lemma represents_valid a m : Valid g pos a m -> represents g a (vact a) (act a).
  Proof.
    intros V. split.
    - intros v w. split.
      + intros E. assert (Hv : is_vertex g v) by (apply (va_v _ _ _ _ V), (aget_keys _ Nat.eqb_spec); eauto). split; auto. rewrite (valid_vget g pos a m) in E by auto. congruence.
      + intros [Hv ->]. apply (valid_vget g pos a m); auto.
    - intros e x. split.
      + intros E. assert (He : In e (dedges g)) by (apply (va_e _ _ _ _ V), (aget_keys _ edge_eqb_spec); eauto). split; [apply directed_In; auto|]. rewrite (valid_eget g pos a m) in E by auto. congruence.
      + intros [He ->]. apply (valid_eget g pos a m); auto. apply directed_In; auto.
  Qed.
  Lemma represents_agree a m f F : Valid g pos a m -> represents g a f F -> (forall v, is_vertex g v -> vact a v = f v) /\ (forall e, In e (dedges g) -> act a e = F e).
  Proof.
    intros V [R1 R2]. split.
    - intros v Hv. unfold vact. rewrite (proj2 (R1 v (f v))); auto.
    - intros e He. unfold act. rewrite (proj2 (R2 e (F e))); auto. split; auto. apply directed_In; auto.
  Qed.
  Lemma represents_ext a f F f' F' : (forall v, is_vertex g v -> f v = f' v) -> (forall e, In e (dedges g) -> F e = F' e) -> represents g a f F -> represents g a f' F'.
  Proof.
    intros Ef EF [R1 R2]. split.
    - intros v w. rewrite R1. split; intros [Hv ->]; split; auto. rewrite Ef; auto.
    - intros e x. rewrite R2. split; intros [Hv ->]; split; auto; rewrite EF; auto; apply directed_In; auto.
  Qed.
End S.

(** ** C36, C37: the search for one automorphism *)
Theorem C36_automorphism : forall chk g m s v w a, sound chk g -> injective (gdim g) m -> is_vertex g v ->
  automorphism chk g v w (affine_map (gdim g) m s) = Ret (Some a) ->
  exists f F, symmetry chk g m f F /\ f v = w /\ represents g a f F /\ xform a = affine_map (gdim g) m s.
Proof.
  intros chk g m s v w a So I Hv E. destruct (setup chk g So) as (pos & P & CC & LS). apply injective_linj in I.
  destruct (automorphism_valid chk g pos (so_constructed _ _ So) P CC LS m s v w I Hv) as (r & E' & Po).
  change (affine_map (gdim g) m s) with (am (gdim g) m s) in *. rewrite E in E'. injection E' as <-. destruct Po as (H & X & Ev & (_ & _ & H1 & H2) & _).
  exists (vact a), (act a). splits; auto; [apply (symmetry_hom chk g pos So P CC LS); auto|]. apply represents_holds; auto.
Qed.
Print Assumptions C36_automorphism.

Theorem C37_automorphism_complete : forall chk g m s v w, sound chk g -> injective (gdim g) m -> is_vertex g v ->
  exists r, automorphism chk g v w (affine_map (gdim g) m s) = Ret r /\
    (forall f F, symmetry chk g m f F -> f v = w -> exists a, r = Some a /\ represents g a f F /\ xform a = affine_map (gdim g) m s) /\
    ((forall f F, symmetry chk g m f F -> f v <> w) -> r = None).
Proof.
  intros chk g m s v w So I Hv. destruct (setup chk g So) as (pos & P & CC & LS). apply injective_linj in I.
  destruct (automorphism_valid chk g pos (so_constructed _ _ So) P CC LS m s v w I Hv) as (r & E' & Po).
  exists r. split; [exact E'|]. split.
  - intros f F Sy Ef. apply (symmetry_hom chk g pos So P CC LS) in Sy; auto. destruct r as [a|]; [|exfalso; exact (Po f F Sy Ef)].
    destruct Po as (H & X & Ev & (_ & _ & H1 & H2) & _). exists a. splits; auto.
    destruct (hom_unique g pos (conn g CC) LS (mapp (gdim g) m) (vact a) (act a) f F v H Sy Hv) as [Uf UF]; [congruence|].
    apply (represents_ext g a (vact a) (act a)); auto. apply represents_holds; auto.
  - intros N. destruct r as [a|]; auto. exfalso. destruct Po as (H & X & Ev & _). apply (symmetry_hom chk g pos So P CC LS) in H; auto. exact (N _ _ H Ev).
Qed.
Print Assumptions C37_automorphism_complete.

(** ** C38: the group *)
Theorem C38_symmetries : forall chk g, sound chk g -> exists syms, symmetries chk g = Ret syms /\
  (* each element is a symmetry of the net *)
  (forall a, In a syms -> exists m f F, injective (gdim g) m /\ symmetry chk g m f F /\ represents g a f F /\ xform a = affine_map (gdim g) m (fun _ => 0%Qc)) /\
  (* no repetitions *)
  (forall i j a b, i <> j -> nth_error syms i = Some a -> nth_error syms j = Some b -> exists e, directed g e /\ aget edge_eqb e (emap a) <> aget edge_eqb e (emap b)) /\
  (* the identity *)
  (exists a, In a syms /\ represents g a (fun v => v) (fun e => e)) /\
  (* products *)
  (forall a b f F f' F', In a syms -> In b syms -> represents g a f F -> represents g b f' F' ->
     (exists c, In c syms /\ represents g c (fun v => f (f' v)) (fun e => F (F' e))) /\
     exists ab c, auto_mul a b = Ret ab /\ In c syms /\ auto_eqb ab c = true) /\
  (* inverses *)
  (forall a f F, In a syms -> represents g a f F -> exists b f' F', In b syms /\ represents g b f' F' /\
     (forall v, is_vertex g v -> f (f' v) = v /\ f' (f v) = v) /\ (forall e, directed g e -> F (F' e) = e /\ F' (F e) = e)).
Proof.
  intros chk g So. destruct (setup chk g So) as (pos & P & CC & LS). destruct So as [C Hd Fi Cn St NE]. pose proof (Build_sound _ _ C Hd Fi Cn St NE) as So.
  destruct (symmetries_ok chk g pos C P Hd CC NE LS St) as (id & gens & res & Eid & Vid & Aid & Avid & Es & Cl).
  pose proof (span_edges g pos C CC NE) as Sp.
  exists res. splits; auto.
  - intros a Ha. destruct (cl_valid _ _ _ _ _ Cl a Ha) as (m & V). exists m, (vact a), (act a). splits.
    + apply injective_linj, (va_inj _ _ _ _ V).
    + apply (symmetry_hom chk g pos So P CC LS); [apply (va_inj _ _ _ _ V)|apply (va_hom _ _ _ _ V)].
    + apply (represents_valid g pos a m V).
    + apply (va_x _ _ _ _ V).
  - intros i j a b N Ea Eb. pose proof (cl_nd _ _ _ _ _ Cl) as ND.
    destruct (cl_valid _ _ _ _ _ Cl a (nth_error_In _ _ Ea)) as (ma & Va). destruct (cl_valid _ _ _ _ _ Cl b (nth_error_In _ _ Eb)) as (mb & Vb).
    assert (K : key g a <> key g b).
    { intros K. apply N. apply (proj1 (NoDup_nth_error (map (key g) res)) ND); [apply nth_error_Some; rewrite nth_error_map, Ea; discriminate|].
      rewrite !nth_error_map, Ea, Eb. cbn. congruence. }
    assert (X : exists e, In e (dedges g) /\ act a e <> act b e).
    { revert K. unfold key. generalize (dedges g). induction l as [|e l IH]; intros K; [destruct K; auto|]. cbn [map] in K.
      destruct (edge_eqb_spec (act a e) (act b e)) as [Ee|Ne]; [|exists e; simpl; auto].
      destruct IH as (e' & I & N'); [congruence|]. exists e'. simpl; auto. }
    destruct X as (e & He & Ne). exists e. split; [apply directed_In; auto|]. rewrite (valid_eget g pos a ma), (valid_eget g pos b mb) by auto. congruence.
  - exists id. split; [apply (cl_id _ _ _ _ _ Cl)|]. apply (represents_ext g id (vact id) (act id)); auto. apply (represents_valid g pos id _ Vid).
  - intros a b f F f' F' Ha Hb Ra Rb. destruct (cl_valid _ _ _ _ _ Cl a Ha) as (ma & Va). destruct (cl_valid _ _ _ _ _ Cl b Hb) as (mb & Vb).
    destruct (represents_agree g pos a ma f F Va Ra) as [Af AF]. destruct (represents_agree g pos b mb f' F' Vb Rb) as [Bf BF]. split.
    + destruct (res_mul g pos id gens res Cl a b Ha Hb) as (c & Hc & E1 & E2). exists c. split; auto. destruct (cl_valid _ _ _ _ _ Cl c Hc) as (mc & Vc).
      apply (represents_ext g c (vact c) (act c)); [| |apply (represents_valid g pos c _ Vc)].
      * intros v Hv. rewrite E2, <- Bf, <- Af by (auto; eapply valid_vact; eauto). auto.
      * intros e He. rewrite E1, <- BF, <- AF by (auto; eapply valid_act; eauto). auto.
    + destruct (mul_valid g pos Hd a b ma mb Va Vb) as (ab & Eab & Vab & A1 & A2). destruct (cl_mul _ _ _ _ _ Cl a b Ha Hb) as (c & Hc & Kc).
      exists ab, c. splits; auto. destruct (cl_valid _ _ _ _ _ Cl c Hc) as (mc & Vc). apply (auto_eqb_key g pos Sp ab c _ mc Vab Vc).
      rewrite Kc. unfold key. rewrite map_map. apply map_ext_in. auto.
  - intros a f F Ha Ra. destruct (cl_valid _ _ _ _ _ Cl a Ha) as (ma & Va). destruct (represents_agree g pos a ma f F Va Ra) as [Af AF].
    destruct (res_inv g pos CC LS id gens res Aid Cl a Ha) as (b & Hb & E1 & E2). destruct (cl_valid _ _ _ _ _ Cl b Hb) as (mb & Vb).
    exists b, (vact b), (act b). splits; auto; [apply (represents_valid g pos b _ Vb)| |].
    + intros v Hv. destruct (E2 v Hv) as [X Y]. rewrite <- Af by (eapply valid_vact; eauto). rewrite <- Af by auto. auto.
    + intros e He. apply directed_In in He. destruct (E1 e He) as [X Y]. rewrite <- AF by (eapply valid_act; eauto). rewrite <- AF by auto. auto.
Qed.
Print Assumptions C38_symmetries.

(** the call is refused if the graph is not locally stable *)
Theorem C38_refused : forall chk g, is_locally_stable chk g = Ret false -> symmetries chk g = Panic.
Proof. intros chk g E. unfold symmetries. rewrite E. reflexivity. Qed.

(** ** C40: orbits *)
Theorem C40_vertex_orbits : forall chk g, sound chk g -> exists syms cls, symmetries chk g = Ret syms /\ vertex_orbits chk g = Ret cls /\
  classes_under (fun v w => exists a, In a syms /\ aget Nat.eqb v (vmap a) = Some w) (vertices g) cls.
Proof.
  intros chk g So. destruct (setup chk g So) as (pos & P & CC & LS). destruct So as [C Hd Fi Cn St NE].
  destruct (symmetries_ok chk g pos C P Hd CC NE LS St) as (id & gens & res & Eid & Vid & Aid & Avid & Es & Cl).
  destruct (vertex_orbits_ok chk g pos CC LS id gens res Aid Avid Cl Es) as (cls & Ec & (H1 & H2 & H3 & _)).
  exists res, cls. splits; auto. unfold classes_under. splits; auto. intros v w Hv Hw. rewrite H3 by auto. apply vertices_In in Hv.
  split; intros (a & Ha & E); exists a; split; auto; destruct (cl_valid _ _ _ _ _ Cl a Ha) as (m & V).
  - rewrite (valid_vget g pos a m) by auto. congruence.
  - rewrite (valid_vget g pos a m) in E by auto. congruence.
Qed.
Print Assumptions C40_vertex_orbits.

Theorem C40_edge_orbits : forall chk g, sound chk g -> exists syms cls, symmetries chk g = Ret syms /\ edge_orbits chk g = Ret cls /\
  classes_under (fun e f => exists a, In a syms /\ (aget edge_eqb e (emap a) = Some f \/ aget edge_eqb e (emap a) = Some (rev f))) (gedges g) cls.
Proof.
  intros chk g So. destruct (setup chk g So) as (pos & P & CC & LS). destruct So as [C Hd Fi Cn St NE].
  destruct (symmetries_ok chk g pos C P Hd CC NE LS St) as (id & gens & res & Eid & Vid & Aid & Avid & Es & Cl).
  destruct (edge_orbits_ok chk g pos C CC LS id gens res Aid Cl Es) as (cls & Ec & (H1 & H2 & H3 & _)).
  exists res, cls. splits; auto. unfold classes_under. splits; auto. intros v w Hv Hw. rewrite H3 by auto.
  assert (Hd' : In v (dedges g)) by (apply dedges_In; eauto).
  split; intros (a & Ha & E); exists a; split; auto; destruct (cl_valid _ _ _ _ _ Cl a Ha) as (m & V).
  - rewrite (valid_eget g pos a m) by auto. destruct E; [left|right]; congruence.
  - rewrite (valid_eget g pos a m) in E by auto. destruct E; [left|right]; congruence.
Qed.
Print Assumptions C40_edge_orbits.

(** ** C41: translations *)
Lemma translation_trans chk g pos : sound chk g -> Placed chk g pos -> (forall a c, is_node g a -> is_node g c -> joined g a c) ->
  (forall v, NoDup (map (evec (gdim g) pos) (inc g v))) -> forall t F, symmetry chk g identity_matrix t F <-> trans g pos t F.
Proof.
  intros So P CC LS t F. rewrite <- trans_delta.
  assert (E : forall x, mapp (gdim g) identity_matrix x = mapp (gdim g) Matrix.delta x).
  { intros x. apply mapp_ext. intros i j _ _. unfold identity_matrix, Matrix.delta. rewrite Nat.eqb_sym. destruct (j =? i); reflexivity. }
  rewrite <- (symmetry_hom chk g pos So P CC LS); [split; apply hom_ext; auto|].
  intros x y Lx Ly Exy. rewrite !E in Exy. apply (linj_delta (gdim g)); auto.
Qed.

Theorem C41_translational_orbits : forall chk g, sound chk g -> is_ladder chk g = Ret false -> exists cls, translational_orbits chk g = Ret cls /\
  classes_under (fun v w => exists t F, symmetry chk g identity_matrix t F /\ t v = w) (vertices g) cls.
Proof.
  intros chk g So La. destruct (setup chk g So) as (pos & P & CC & LS). pose proof (translation_trans chk g pos So P CC LS) as T. destruct So as [C Hd Fi Cn St NE].
  destruct (not_ladder_orbits chk g pos C P Hd CC NE LS St La Fi) as (cls & v0 & r & cls' & E & (H1 & H2 & H3 & _) & _).
  exists cls. split; auto. unfold classes_under. splits; auto. intros v w Hv Hw. rewrite H3 by auto. unfold trel.
  split; intros (t & F & H & Et); exists t, F; split; auto; apply T; auto.
Qed.
Print Assumptions C41_translational_orbits.
(** the calls are refused if the graph is not locally stable *)
Theorem C41_refused : forall chk g, is_locally_stable chk g = Ret false -> translational_orbits chk g = Panic /\ is_minimal chk g = Panic /\ minimal_image chk g = Panic.
Proof. intros chk g E. unfold translational_orbits, is_minimal, minimal_image. rewrite E. auto. Qed.
Print Assumptions C41_refused.
Example C41_refused_case : is_locally_stable chk64 colliding = Ret false /\ translational_orbits chk64 colliding = Panic.
Proof. split; vm_compute; reflexivity. Qed.

Theorem C41_is_minimal : forall chk g, sound chk g -> is_ladder chk g = Ret false -> exists b, is_minimal chk g = Ret b /\
  (b = true <-> forall t F, symmetry chk g identity_matrix t F -> forall v, is_vertex g v -> t v = v).
Proof.
  intros chk g So La. destruct (setup chk g So) as (pos & P & CC & LS). pose proof (translation_trans chk g pos So P CC LS) as T. destruct So as [C Hd Fi Cn St NE].
  destruct (not_ladder_orbits chk g pos C P Hd CC NE LS St La Fi) as (cls & v0 & r & cls' & E & Hp & -> & Hh & Hc).
  unfold is_minimal. rewrite St. cbn [bind assert]. rewrite E. cbn [bind nth_error unwrap]. eexists. split; [reflexivity|]. rewrite Nat.eqb_eq.
  assert (ND : NoDup (v0 :: r)).
  { destruct Hp as (Pm & _). assert (N : NoDup (concat ((v0 :: r) :: cls'))) by (eapply Permutation_NoDup; [apply Permutation_sym; eauto|]; apply (usort_NoDup _ nat_cmp_laws)).
    cbn [concat] in N. revert N. generalize (v0 :: r) (concat cls'). clear. induction l as [|x l IH]; intros l' ND; constructor; inversion ND as [|? ? N ND']; subst; [|eapply IH; eauto].
    intros I. apply N. apply in_or_app; auto. }
  assert (V0 : is_vertex g v0) by (apply (Hc v0); simpl; auto). split.
  - intros L t F H v Hv. destruct r; [|discriminate]. apply T in H. rewrite (trans_eq g pos CC LS t F (fun v => v) (fun e => e) v0 H); auto; [apply trans_id|].
    assert (I : In (t v0) [v0]) by (apply Hc; split; [eapply trans_vertex; eauto|exists t, F; auto]). destruct I as [<-|[]]; auto.
  - intros H. destruct r as [|v1 r]; auto. exfalso. assert (I : In v1 (v0 :: v1 :: r)) by (simpl; auto). apply Hc in I as (V1 & t & F & Ht & Et).
    apply T in Ht. rewrite (H t F Ht v0 V0) in Et. subst v1. inversion ND as [|? ? N _]. apply N. simpl; auto.
Qed.
Print Assumptions C41_is_minimal.

(** ** a non-trivial case: the honeycomb net *)
Lemma honeycomb_sound : sound chk64 honeycomb.
Proof.
  split; [apply honeycomb_constructed|vm_compute; lia|apply honeycomb_fits|vm_compute; reflexivity|vm_compute; reflexivity|].
  exists 1. apply vertices_In. vm_compute. auto.
Qed.
Definition of_rows (rows : list (list Z)) (i j : nat) : Qc := ZQ (nth j (nth i rows []) 0%Z).
(** the rotation by 120 degrees about vertex 1; a reflection that swaps the vertices *)
Example C36_case : exists a b, automorphism chk64 honeycomb 1 1 (affine_map 2 (of_rows [[-1; -1]; [1; 0]]%Z) (fun _ => 0%Qc)) = Ret (Some a) /\
  vmap a = [(1, 1); (2, 2)] /\
  automorphism chk64 honeycomb 1 2 (affine_map 2 (of_rows [[0; -1]; [-1; 0]]%Z) (fun _ => 0%Qc)) = Ret (Some b) /\ vmap b = [(1, 2); (2, 1)] /\
  automorphism chk64 honeycomb 1 2 (affine_map 2 (of_rows [[1; 0]; [0; 1]]%Z) (fun _ => 0%Qc)) = Ret None.
Proof. eexists _, _. splits; vm_compute; reflexivity. Qed.
Example C36_case_injective : injective 2 (of_rows [[-1; -1]; [1; 0]]%Z).
Proof.
  intros [|x [|y [|? ?]]] [|x' [|y' [|? ?]]] Lx Ly E; try discriminate. unfold times, total, of_rows in E. cbn [map seq fold_right nth coord] in E.
  pose proof (f_equal (fun l => nth 0 l 0%Qc) E) as E1. pose proof (f_equal (fun l => nth 1 l 0%Qc) E) as E2. unfold coord in E1, E2. cbn [nth] in E1, E2.
  change (ZQ (-1)) with (- (1))%Qc in *. change (ZQ 1) with 1%Qc in *. change (ZQ 0) with 0%Qc in *.
  assert (x = x') by qclra. assert (y = y') by qclra. congruence.
Qed.
Example C38_case : exists syms, symmetries chk64 honeycomb = Ret syms /\ length syms = 12.
Proof. eexists. split; vm_compute; reflexivity. Qed.
Example C40_case : vertex_orbits chk64 honeycomb = Ret [[1; 2]] /\ exists es, edge_orbits chk64 honeycomb = Ret [es] /\ length es = 3.
Proof. split; [vm_compute; reflexivity|]. eexists. split; vm_compute; reflexivity. Qed.
(** the square lattice with a cell of double size *)
Definition sql2 : graph := gnew 2 [Edge 1 2 [0; 0]; Edge 2 1 [1; 0]; Edge 1 1 [0; 1]; Edge 2 2 [0; 1]]%Z.
Lemma sql2_sound : sound chk64 sql2.
Proof.
  split; [| | |vm_compute; reflexivity|vm_compute; reflexivity|].
  - eexists. split; [|reflexivity]. intros e He. repeat (destruct He as [<-|He]; [reflexivity|]). destruct He.
  - vm_compute; lia.
  - split; [vm_compute; reflexivity|]. right. splits; auto; [vm_compute; discriminate|]. exists 1%Z. split; [|vm_compute; discriminate].
    intros e x He Hx. vm_compute in He. repeat (destruct He as [<-|He]; [simpl in Hx; intuition lia|]). destruct He.
  - exists 1. apply vertices_In. vm_compute. auto.
Qed.
Example C41_case : is_ladder chk64 sql2 = Ret false /\ translational_orbits chk64 sql2 = Ret [[1; 2]] /\ is_minimal chk64 sql2 = Ret false /\
  is_ladder chk64 honeycomb = Ret false /\ translational_orbits chk64 honeycomb = Ret [[1]; [2]] /\ is_minimal chk64 honeycomb = Ret true.
Proof. splits; vm_compute; reflexivity. Qed.

(** ** C39: symmetries() misses symmetries *)
Definition skew : graph := gnew 2 [Edge 1 1 [1; 0]; Edge 1 1 [1; 1]]%Z.
Lemma skew_sound : sound chk64 skew.
Proof.
  split; [| | |vm_compute; reflexivity|vm_compute; reflexivity|].
  - eexists. split; [|reflexivity]. intros e He. repeat (destruct He as [<-|He]; [reflexivity|]). destruct He.
  - vm_compute; lia.
  - split; [vm_compute; reflexivity|]. right. splits; auto; [vm_compute; discriminate|]. exists 1%Z. split; [|vm_compute; discriminate].
    intros e x He Hx. vm_compute in He. repeat (destruct He as [<-|He]; [simpl in Hx; intuition lia|]). destruct He.
  - exists 1. apply vertices_In. vm_compute. auto.
Qed.
Theorem C39_symmetries_incomplete_refuted :
  ~ (forall chk g syms m f F, sound chk g -> symmetries chk g = Ret syms -> injective (gdim g) m -> symmetry chk g m f F ->
       exists a, In a syms /\ represents g a f F).
Proof.
  intros H.
  set (m := of_rows [[1; -2]; [1; -1]]%Z).
  assert (I : injective 2 m).
  { intros [|x [|y [|? ?]]] [|x' [|y' [|? ?]]] Lx Ly E; try discriminate. unfold times, total, m, of_rows in E. cbn [map seq fold_right nth coord] in E.
    pose proof (f_equal (fun l => nth 0 l 0%Qc) E) as E1. pose proof (f_equal (fun l => nth 1 l 0%Qc) E) as E2. unfold coord in E1, E2. cbn [nth] in E1, E2.
    change (ZQ (-1)) with (- (1))%Qc in *. change (ZQ (-2)) with (- (1 + 1))%Qc in *. change (ZQ 1) with 1%Qc in *. change (ZQ 0) with 0%Qc in *.
    assert (x = x') by qclra. assert (y = y') by qclra. congruence. }
  assert (V : is_vertex skew 1) by (apply vertices_In; vm_compute; auto).
  destruct (symmetries chk64 skew) as [syms| |] eqn:Es; [|vm_compute in Es; discriminate|vm_compute in Es; discriminate].
  destruct (automorphism chk64 skew 1 1 (affine_map 2 m (fun _ => 0%Qc))) as [[a|]| |] eqn:Ea;
    [|vm_compute in Ea; discriminate|vm_compute in Ea; discriminate|vm_compute in Ea; discriminate].
  destruct (C36_automorphism chk64 skew m (fun _ => 0%Qc) 1 1 a skew_sound I V Ea) as (f & F & Sy & Ef & [_ R] & _).
  destruct (H chk64 skew syms m f F skew_sound Es I Sy) as (b & Hb & [_ R']).
  assert (X : exists x, aget edge_eqb (Edge 1 1 [1; 0]%Z) (emap a) = Some x /\ x = Edge 1 1 [1; 1]%Z) by (vm_compute in Ea; injection Ea as <-; eexists; split; vm_compute; reflexivity).
  destruct X as (x & Ex & ->). apply R in Ex. apply R' in Ex.
  vm_compute in Es. injection Es as <-. destruct Hb as [<-|[<-|[]]]; vm_compute in Ex; discriminate.
Qed.
Print Assumptions C39_symmetries_incomplete_refuted.
(** the same net has 8 or 2 symmetries, depending on the chosen lattice basis *)
Example C39_case : exists s8 s2, symmetries chk64 (gnew 2 [Edge 1 1 [1; 0]; Edge 1 1 [0; 1]]%Z) = Ret s8 /\ length s8 = 8 /\ symmetries chk64 skew = Ret s2 /\ length s2 = 2.
Proof. eexists _, _. splits; vm_compute; reflexivity. Qed.

(** ** C42: minimal_image *)
(** None exactly for minimal nets *)
Theorem C42_none : forall chk g b, is_minimal chk g = Ret b -> (minimal_image chk g = Ret None <-> b = true).
Proof.
  intros chk g b. unfold is_minimal, minimal_image. destruct (is_locally_stable chk g) as [[]| |]; cbn [bind assert]; try discriminate.
  destruct (translational_orbits chk g) as [orbs| |]; cbn [bind]; try discriminate. destruct (unwrap (nth_error orbs 0)) as [o| |]; cbn [bind]; try discriminate.
  intros [= <-]. destruct (length o =? 1); [tauto|]. split; [|discriminate]. intros E. exfalso. revert E.
  repeat match goal with |- (do _ <- ?x; _) = _ -> _ => destruct x as [?| |]; cbn [bind]; try discriminate end.
  match goal with |- (let '(_, _) := ?x in _) = _ -> _ => destruct x end.
  repeat match goal with |- (do _ <- ?x; _) = _ -> _ => destruct x as [?| |]; cbn [bind]; try discriminate end.
Qed.
Definition centred : graph := gnew 2 [Edge 1 2 [0; 0]; Edge 1 2 [-1; 0]; Edge 1 2 [0; -1]; Edge 1 2 [-1; -1]]%Z.
Lemma centred_sound : sound chk64 centred.
Proof.
  split; [| | |vm_compute; reflexivity|vm_compute; reflexivity|].
  - eexists. split; [|reflexivity]. intros e He. repeat (destruct He as [<-|He]; [reflexivity|]). destruct He.
  - vm_compute; lia.
  - split; [vm_compute; reflexivity|]. right. splits; auto; [vm_compute; discriminate|]. exists 1%Z. split; [|vm_compute; discriminate].
    intros e x He Hx. vm_compute in He. repeat (destruct He as [<-|He]; [simpl in Hx; intuition lia|]). destruct He.
  - exists 1. apply vertices_In. vm_compute. auto.
Qed.
Theorem C42_minimal_image_refuted :
  ~ (forall chk g, sound chk g -> is_ladder chk g = Ret false -> exists r, minimal_image chk g = Ret r).
Proof.
  intros H. destruct (H chk64 centred centred_sound) as (r & E); [vm_compute; reflexivity|]. vm_compute in E. discriminate.
Qed.
Print Assumptions C42_minimal_image_refuted.
Example C42_case : minimal_image chk64 centred = Panic /\ translational_orbits chk64 centred = Ret [[1; 2]] /\
  exists h, minimal_image chk64 sql2 = Ret (Some h) /\ gedges h = [Edge 1 1 [0; 1]; Edge 1 1 [1; 0]]%Z.
Proof. splits; try (vm_compute; reflexivity). eexists. split; vm_compute; reflexivity. Qed.
