(** Properties C15-C18 of src/arithmetic/geometry.rs, for rational
    coordinates. *)
From Coq Require Import List ZArith QArith Qcanon Lia Bool PeanoNat Ring Setoid.
From Verif Require Import Base QcTac Vec Elim Matrix MatrixMore Scalars LinAlg Shapes ZQ Geometry GeomMC.
Import ListNotations.
Close Scope Q_scope.
Open Scope nat_scope.

(** *** specification vocabulary *)

(** a coordinate column of dimension [n]: a point or a vector *)
Definition column (n : nat) (v : mat Qc) : Prop := wfm v /\ nrows v = n /\ ncols v = 1.

(** an affine map of dimension [n] *)
Definition affine_map (n : nat) (a : affine) : Prop :=
  wfm (lin a) /\ nrows (lin a) = n /\ ncols (lin a) = n /\ column n (shift a).

(** [a] and [b] undo each other on all points and all vectors *)
Definition mutually_inverse (n : nat) (a b : @affine Qc) : Prop :=
  forall p, column n p ->
    (exists q, aff_point a p = Ret q /\ aff_point b q = Ret p) /\
    (exists q, aff_point b p = Ret q /\ aff_point a q = Ret p) /\
    (exists q, aff_vector a p = Ret q /\ aff_vector b q = Ret p) /\
    (exists q, aff_vector b p = Ret q /\ aff_vector a q = Ret p).

(** the sum of [f i] over [i < n] *)
Fixpoint total (n : nat) (f : nat -> Qc) : Qc := match n with 0 => 0%Qc | S k => (total k f + f k)%Qc end.

Lemma total_sumf n f : total n f = sumf n f.
Proof. induction n as [|n IH]; simpl; [reflexivity|]. rewrite IH. reflexivity. Qed.

(** *** views *)
Lemma column_cv n v : column n v <-> exists u, v = cv n u.
Proof.
  split.
  - intros (W & H1 & H2). destruct (cv_of v n W H1 H2) as [u ->]. eauto.
  - intros [u ->]. unfold column. splits; auto. apply mk_wf. lia.
Qed.

Lemma affine_am n a : 0 < n -> affine_map n a <-> exists f s, a = am n f s.
Proof.
  intros Hn. split.
  - intros (W & H1 & H2 & H3). apply column_cv in H3 as [s Es]. destruct (wf_mk (lin a) n n W H1 H2) as [f Ef].
    exists f, s. destruct a as [l t]. cbn [lin shift] in *. unfold am. congruence.
  - intros (f & s & ->). unfold affine_map, am. cbn [lin shift]. splits; auto. apply mk_wf; auto. apply column_cv. eauto.
Qed.

Ltac views Hn :=
  repeat match goal with
  | H : column _ _ |- _ => apply column_cv in H as [? ->]
  | H : affine_map _ _ |- _ => apply (proj1 (affine_am _ _ Hn)) in H as (? & ? & ->)
  end.

(** ** C15 *)

(** what applying a map means *)
Theorem C15_application : forall n a p, 0 < n -> affine_map n a -> column n p ->
  (exists q, aff_point a p = Ret q /\ column n q /\
     forall i, i < n -> ent q i 0 = (total n (fun k => ent (lin a) i k * ent p k 0) + ent (shift a) i 0)%Qc) /\
  (exists q, aff_vector a p = Ret q /\ column n q /\
     forall i, i < n -> ent q i 0 = total n (fun k => ent (lin a) i k * ent p k 0)%Qc).
Proof.
  intros n a p Hn A P. views Hn. rewrite aff_point_am, aff_vector_am.
  assert (E : forall i, i < n -> total n (fun k => (ent (lin (am n x0 x1)) i k * ent (cv n x) k 0)%Qc) = lapp n x0 x i).
  { intros i Hi. rewrite total_sumf. apply sumf_ext. intros k Hk. unfold am, cv. cbn [lin].
    rewrite !mk_ent by lia. reflexivity. }
  split; eexists; (splits; [reflexivity|apply column_cv; eauto|]); intros i Hi; rewrite E by auto;
    unfold cv; rewrite !mk_ent by lia; auto.
  unfold am, cv. cbn [shift]. rewrite mk_ent by lia. reflexivity.
Qed.
Print Assumptions C15_application.

Theorem C15_composition : forall n a b p, 0 < n -> affine_map n a -> affine_map n b -> column n p ->
  exists ab, aff_mul a b = Ret ab /\ affine_map n ab /\
    (exists q r, aff_point b p = Ret q /\ aff_point a q = Ret r /\ aff_point ab p = Ret r) /\
    (exists q r, aff_vector b p = Ret q /\ aff_vector a q = Ret r /\ aff_vector ab p = Ret r).
Proof.
  intros n a b p Hn A B P. views Hn. rename x into v. eexists. rewrite aff_mul_am by auto. splits; [reflexivity| | |].
  - apply (affine_am _ _ Hn). eauto.
  - rewrite aff_point_am. do 2 eexists. splits; [reflexivity|apply aff_point_am|].
    rewrite aff_point_am. f_equal. apply cv_ext. intros i Hi.
    rewrite lapp_lmul. rewrite lapp_add. cbn [radd Qc_dom]. ring.
  - rewrite aff_vector_am. do 2 eexists. splits; [reflexivity|apply aff_vector_am|].
    rewrite aff_vector_am. f_equal. apply cv_ext. intros i Hi. rewrite lapp_lmul. reflexivity.
Qed.
Print Assumptions C15_composition.

Theorem C15_associative : forall n a b c, 0 < n -> affine_map n a -> affine_map n b -> affine_map n c ->
  exists ab bc r, aff_mul a b = Ret ab /\ aff_mul b c = Ret bc /\ aff_mul ab c = Ret r /\ aff_mul a bc = Ret r.
Proof.
  intros n a b c Hn A B C. views Hn. rewrite !aff_mul_am by auto. do 3 eexists.
  splits; [reflexivity|reflexivity|rewrite aff_mul_am by auto; reflexivity|].
  rewrite aff_mul_am by auto. f_equal. apply am_ext; intros.
  - symmetry. apply lmul_assoc.
  - rewrite lapp_lmul, lapp_add. cbn [radd Qc_dom]. ring.
Qed.
Print Assumptions C15_associative.

Theorem C15_identity : forall n, 0 < n -> exists e, aff_identity n = Ret e /\ affine_map n e /\
  (forall p, column n p -> aff_point e p = Ret p /\ aff_vector e p = Ret p) /\
  (forall a, affine_map n a -> aff_mul e a = Ret a /\ aff_mul a e = Ret a).
Proof.
  intros n Hn. rewrite aff_identity_am by auto. eexists. splits; [reflexivity| | |].
  - apply (affine_am _ _ Hn). eauto.
  - intros p P. views Hn. rewrite aff_point_am, aff_vector_am. split; f_equal; apply cv_ext; intros i Hi;
      rewrite lapp_delta by auto; auto. cbn [radd r0 Qc_dom]. ring.
  - intros a A. views Hn. rewrite !aff_mul_am by auto. split; f_equal; apply am_ext; intros.
    + rewrite lmul_delta_l; auto.
    + rewrite lapp_delta by auto. cbn [radd r0 Qc_dom]. ring.
    + rewrite lmul_delta_r; auto.
    + unfold lapp. rewrite (sumf_ext n _ (fun _ => 0%Qc)) by (intros; cbn [rmul r0 Qc_dom]; ring).
      replace (sumf n (fun _ => 0%Qc)) with 0%Qc; [cbn [radd Qc_dom]; ring|]. clear. induction n; simpl; auto.
      rewrite <- IHn. cbn [radd Qc_dom]. ring.
Qed.
Print Assumptions C15_identity.

(** the difference of the images of two points is the image of their difference *)
Theorem C15_differences : forall n a p q, 0 < n -> affine_map n a -> column n p -> column n q ->
  exists d p' q' d', point_sub p q = Ret d /\ column n d /\ aff_point a p = Ret p' /\ aff_point a q = Ret q' /\
    point_sub p' q' = Ret d' /\ aff_vector a d = Ret d'.
Proof.
  intros n a p q Hn A P Q. views Hn.
  assert (PS : forall u v : nat -> Qc, point_sub (cv n u) (cv n v) = Ret (cv n (fun i => (u i - v i)%Qc))).
  { intros u v. unfold point_sub. unfold cv at 1 2. unfold mat_sub. rewrite mat_zip_mk. cbn [bind].
    apply (vec_new_data n (fun i => (u i - v i)%Qc)). }
  rewrite PS, !aff_point_am. do 4 eexists. splits; [reflexivity|apply column_cv; eauto|reflexivity|reflexivity|apply PS|].
  rewrite aff_vector_am. f_equal. apply cv_ext. intros i Hi.
  change (fun i0 => (?u i0 - ?v i0)%Qc) with (fun i0 => rsub (u i0) (v i0)).
  rewrite (lapp_sub n x1 x0 x i). cbn [radd rsub Qc_dom]. ring.
Qed.
Print Assumptions C15_differences.

Lemma inverse_am n f s : 0 < n ->
  (exists g t, aff_inverse (am n f s) = Ret (Some (am n g t)) /\ linv n f g /\ linv n g f /\
     (forall i, i < n -> t i = ropp (lapp n g s i))) \/
  (aff_inverse (am n f s) = Ret None /\ ~ exists x, linv n f x).
Proof.
  intros Hn. destruct (inverse_correct n f Hn) as [(x & E & S)|(E & S)].
  - left. exists x, (fun i => ropp (lapp n x s i)). splits; auto.
    + apply aff_inverse_some; auto.
    + apply Qc_solves_comm; auto.
  - right. split; auto. apply aff_inverse_none; auto.
Qed.

Lemma linv_lapp n f g v i : linv n f g -> i < n -> lapp n f (lapp n g v) i = v i.
Proof.
  intros S Hi. rewrite <- lapp_lmul. transitivity (lapp n delta v i); [|apply lapp_delta; auto].
  apply lapp_ext; auto. intros j Hj. apply S; auto.
Qed.

Lemma am_inverse_mul n f s g t : 0 < n -> linv n f g -> linv n g f -> (forall i, i < n -> t i = ropp (lapp n g s i)) ->
  aff_mul (am n f s) (am n g t) = Ret (am n delta (fun _ => 0%Qc)) /\
  aff_mul (am n g t) (am n f s) = Ret (am n delta (fun _ => 0%Qc)).
Proof.
  intros Hn S1 S2 T. rewrite !aff_mul_am by auto. split; f_equal; apply am_ext; intros.
  - apply S1; auto.
  - rewrite (lapp_ext n f f t (fun i => ropp (lapp n g s i))) by auto. rewrite lapp_opp, linv_lapp by auto.
    cbn [radd ropp Qc_dom]. ring.
  - apply S2; auto.
  - rewrite T by auto. cbn [radd ropp Qc_dom]. ring.
Qed.

(** inverses: [Some] exactly when the linear part has non-zero determinant *)
Theorem C15_inverse : forall n a, 0 < n -> affine_map n a ->
  exists r e, aff_inverse a = Ret r /\ aff_identity n = Ret e /\
    match r with
    | Some b => affine_map n b /\ aff_mul a b = Ret e /\ aff_mul b a = Ret e /\ mutually_inverse n a b
    | None => forall b, affine_map n b -> aff_mul a b <> Ret e
    end.
Proof.
  intros n a Hn A. views Hn. rename x into f, x0 into s. destruct (inverse_am n f s Hn) as [(g & t & E & S1 & S2 & T)|(E & S)].
  - exists (Some (am n g t)), (am n delta (fun _ => 0%Qc)). rewrite E, aff_identity_am by auto.
    destruct (am_inverse_mul n f s g t Hn S1 S2 T) as [M1 M2].
    splits; auto. { apply (affine_am _ _ Hn); eauto. }
    intros p P. views Hn. rename x into p. rewrite !aff_point_am, !aff_vector_am. splits; eexists; (split; [reflexivity|]).
    + rewrite aff_point_am. f_equal. apply cv_ext. intros i Hi. rewrite lapp_add, linv_lapp, T by auto. cbn [radd ropp Qc_dom]. ring.
    + rewrite aff_point_am. f_equal. apply cv_ext. intros i Hi.
      rewrite (lapp_ext n f f _ (fun i => radd (lapp n g p i) (ropp (lapp n g s i)))) by (auto; intros; rewrite T; auto).
      rewrite lapp_add, lapp_opp, !linv_lapp by auto. cbn [radd ropp Qc_dom]. ring.
    + rewrite aff_vector_am. f_equal. apply cv_ext. intros i Hi. apply linv_lapp; auto.
    + rewrite aff_vector_am. f_equal. apply cv_ext. intros i Hi. apply linv_lapp; auto.
  - exists None, (am n delta (fun _ => 0%Qc)). rewrite E, aff_identity_am by auto. splits; auto.
    intros b B. views Hn. rewrite aff_mul_am by auto. intros C. apply S. exists x. intros i j Hi Hj.
    assert (C' : am n (lmul n f x) (fun i => radd (lapp n f x0 i) (s i)) = am n delta (fun _ => 0%Qc)) by congruence.
    apply am_inj in C' as [C1 _]. apply C1; auto.
Qed.
Print Assumptions C15_inverse.

Theorem C15_inverse_singular : forall n a, 0 < n -> affine_map n a ->
  exists d, determinant (lin a) = Ret d /\ (aff_inverse a = Ret None <-> d = 0%Qc).
Proof.
  intros n a Hn A. pose proof A as A'. destruct A' as (W & H1 & H2 & _).
  destruct (Qc_det_inverse (a := lin a) W) as (r & d & Ei & Ed & H); [congruence|lia|].
  exists d. split; auto. views Hn. cbn [lin am] in *.
  unfold aff_inverse. cbn [lin am]. rewrite Ei. cbn [bind]. destruct r as [b|].
  - split; [|intros; contradiction]. intros C. exfalso.
    destruct (inverse_am n x x0 Hn) as [(g & t & E & _)|(E & S)].
    + unfold aff_inverse in E. cbn [lin am] in E. rewrite Ei in E. cbn [bind] in E. congruence.
    + destruct (inverse_correct n x Hn) as [(y & E' & S')|(E' & S')]; [apply S; exists y; auto|congruence].
  - split; auto.
Qed.
Print Assumptions C15_inverse_singular.

Example C15_case :
  let a := Affine (Mat 2 2 [ZQ 2; ZQ 1; ZQ 1; ZQ 1]) (Mat 2 1 [ZQ 3; ZQ (-1)]) in
  affine_map 2 a /\
  aff_inverse a = Ret (Some (Affine (Mat 2 2 [ZQ 1; ZQ (-1); ZQ (-1); ZQ 2]) (Mat 2 1 [ZQ (-4); ZQ 5]))).
Proof.
  split.
  - unfold affine_map, column, wfm. simpl. splits; auto; discriminate.
  - qc_compute.
Qed.

(** ** C16 *)

(** the coordinate maps a program can construct, in dimension [n] *)
Inductive built (n : nat) : @cmap Qc -> Prop :=
| built_new a c : affine_map n a -> cmap_new a = Ret c -> built n c
| built_from m c : wfm m -> nrows m = n -> ncols m = n -> cmap_from m = Ret c -> built n c
| built_identity c : cmap_identity n = Ret c -> built n c
| built_from_basis vs c : length vs = n -> Forall (column n) vs -> cmap_from_basis vs = Ret c -> built n c
| built_to_basis vs c : length vs = n -> Forall (column n) vs -> cmap_to_basis vs = Ret c -> built n c
| built_inverse c : built n c -> built n (cmap_inverse c)
| built_mul c d r : built n c -> built n d -> cmap_mul c d = Ret r -> built n r.

(** [c] is of the form forward (f, s), backward (g, t) with mutually inverse parts *)
Definition good (n : nat) (c : cmap) : Prop :=
  exists f s g t, c = CMap (am n f s) (am n g t) /\ linv n f g /\ linv n g f /\ (forall i, i < n -> t i = ropp (lapp n g s i)).

Lemma good_new n a c : 0 < n -> affine_map n a -> cmap_new a = Ret c -> good n c /\ fwd c = a.
Proof.
  intros Hn A E. views Hn. rename x into f, x0 into s. unfold cmap_new in E.
  destruct (inverse_am n f s Hn) as [(g & t & Ei & S1 & S2 & T)|(Ei & S)]; rewrite Ei in E; cbn [bind unwrap] in E; [|discriminate].
  assert (c = CMap (am n f s) (am n g t)) by congruence. subst. split; auto. exists f, s, g, t. auto.
Qed.

Lemma good_inverse n c : 0 < n -> good n c -> good n (cmap_inverse c).
Proof.
  intros Hn (f & s & g & t & -> & S1 & S2 & T). exists g, t, f, s. splits; auto.
  intros i Hi. rewrite (lapp_ext n f f t (fun i => ropp (lapp n g s i))) by auto.
  rewrite lapp_opp, linv_lapp by auto. cbn [ropp Qc_dom]. ring.
Qed.

Lemma lmul_linv n f g f' g' : linv n f g -> linv n f' g' -> linv n (lmul n f f') (lmul n g' g).
Proof.
  intros S1 S2 i j Hi Hj. change (lapp n (lmul n f f') (fun l => lapp n g' (fun k => g k j) l) i = delta i j).
  rewrite lapp_lmul. rewrite (lapp_ext n f f _ (fun k => g k j)); auto.
  - apply S1; auto.
  - intros k Hk. apply (linv_lapp n f' g' (fun k => g k j) k); auto.
Qed.

Lemma good_mul n c d r : 0 < n -> good n c -> good n d -> cmap_mul c d = Ret r ->
  good n r /\ aff_mul (fwd c) (fwd d) = Ret (fwd r).
Proof.
  intros Hn (f & s & g & t & -> & S1 & S2 & T) (f' & s' & g' & t' & -> & S1' & S2' & T') E.
  unfold cmap_mul in E. cbn [fwd bwd] in *. rewrite !aff_mul_am in * by auto. cbn [bind] in E. inversion E. subst r. clear E.
  split; auto. do 4 eexists. splits; [reflexivity| | |].
  - apply lmul_linv; auto.
  - apply lmul_linv; auto.
  - intros i Hi. cbv beta. rewrite lapp_lmul.
    rewrite (lapp_ext n g' g' t (fun i => ropp (lapp n g s i))) by auto. rewrite lapp_opp, T' by auto.
    assert (E : lapp n g' (lapp n g (fun i0 => radd (lapp n f s' i0) (s i0))) i =
                radd (lapp n g' s' i) (lapp n g' (lapp n g s) i)).
    { rewrite (lapp_ext n g' g' _ (fun k => radd (s' k) (lapp n g s k))); auto.
      - apply lapp_add.
      - intros k Hk. rewrite lapp_add, linv_lapp by auto. reflexivity. }
    etransitivity; [|apply f_equal; symmetry; exact E]. cbn [radd ropp Qc_dom]. ring.
Qed.

Lemma hstack_columns n (vs : list (mat Qc)) : 0 < n -> length vs = n -> Forall (column n) vs ->
  exists f, hstack vs = Ret (mk n n f) /\ forall k v, nth_error vs k = Some v -> v = cv n (fun i => f i k).
Proof.
  intros Hn L F.
  assert (H : exists us : list (list Qc), vs = map (fun c => mk n 1 (fun i _ => vget c i)) us).
  { clear L. induction F as [|v vs Hv F IH]; [exists []; auto|]. destruct IH as [us ->].
    apply column_cv in Hv as [u ->]. exists (map u (seq 0 n) :: us). cbn [map]. f_equal.
    apply mk_ext. intros i _ Hi _. symmetry. apply vget_map_seq; auto. }
  destruct H as [us ->]. rewrite map_length in L.
  exists (fun i j => vget (nth j us []) i). split.
  - rewrite hstack_mk_cols by lia. rewrite L. reflexivity.
  - intros k v E. rewrite nth_error_map in E. destruct (nth_error us k) eqn:E1; [|discriminate].
    cbn [option_map] in E. inversion E. apply cv_ext. intros i Hi. f_equal. symmetry. apply nth_error_nth; auto.
Qed.

Lemma built_good n c : 0 < n -> built n c -> good n c.
Proof.
  intros Hn B. induction B as [a c A E|m c W H1 H2 E|c E|vs c L F E|vs c L F E|c B IH|c d r B1 IH1 B2 IH2 E].
  - apply (good_new n a c Hn A E).
  - unfold cmap_from in E. destruct (wf_mk m n n W H1 H2) as [f ->]. rewrite aff_from_am in E. cbn [bind] in E.
    eapply good_new; eauto. apply (affine_am _ _ Hn). eauto.
  - unfold cmap_identity in E. rewrite aff_identity_am in E by auto. cbn [bind] in E.
    eapply good_new; eauto. apply (affine_am _ _ Hn). eauto.
  - unfold cmap_from_basis in E. destruct (hstack_columns n vs Hn L F) as (f & Eh & _). rewrite Eh in E. cbn [bind] in E.
    rewrite aff_from_am in E. cbn [bind] in E. eapply good_new; eauto. apply (affine_am _ _ Hn). eauto.
  - unfold cmap_to_basis in E. unfold cmap_from_basis in E. destruct (hstack_columns n vs Hn L F) as (f & Eh & _). rewrite Eh in E. cbn [bind] in E.
    rewrite aff_from_am in E. cbn [bind] in E.
    destruct (cmap_new (am n f (fun _ => r0))) eqn:E1; [|discriminate|discriminate]. inversion E. subst.
    apply good_inverse; auto. eapply good_new; eauto. apply (affine_am _ _ Hn). eauto.
  - apply good_inverse; auto.
  - apply (good_mul n c d r Hn IH1 IH2 E).
Qed.

(** forward and backward undo each other, whatever the construction history *)
Theorem C16_invertible : forall n c, 0 < n -> built n c ->
  affine_map n (fwd c) /\ affine_map n (bwd c) /\ mutually_inverse n (fwd c) (bwd c).
Proof.
  intros n c Hn B. destruct (built_good n c Hn B) as (f & s & g & t & -> & S1 & S2 & T). cbn [fwd bwd].
  splits; [apply (affine_am _ _ Hn); eauto|apply (affine_am _ _ Hn); eauto|].
  intros p P. views Hn. rename x into p. rewrite !aff_point_am, !aff_vector_am. splits; eexists; (split; [reflexivity|]).
  - rewrite aff_point_am. f_equal. apply cv_ext. intros i Hi. rewrite lapp_add, linv_lapp, T by auto. cbn [radd ropp Qc_dom]. ring.
  - rewrite aff_point_am. f_equal. apply cv_ext. intros i Hi.
    rewrite (lapp_ext n f f _ (fun i => radd (lapp n g p i) (ropp (lapp n g s i)))) by (auto; intros; rewrite T; auto).
    rewrite lapp_add, lapp_opp, !linv_lapp by auto. cbn [radd ropp Qc_dom]. ring.
  - rewrite aff_vector_am. f_equal. apply cv_ext. intros i Hi. apply linv_lapp; auto.
  - rewrite aff_vector_am. f_equal. apply cv_ext. intros i Hi. apply linv_lapp; auto.
Qed.
Print Assumptions C16_invertible.

(** (c * m) * (c * p) == c * (m * p), for points and for vectors *)
Theorem C16_commutes : forall n c m p, 0 < n -> built n c -> affine_map n m -> column n p ->
  exists cm, cmap_affine c m = Ret cm /\ affine_map n cm /\
    (exists cp mp r, cmap_point c p = Ret cp /\ aff_point m p = Ret mp /\ cmap_point c mp = Ret r /\ aff_point cm cp = Ret r) /\
    (exists cp mp r, cmap_vector c p = Ret cp /\ aff_vector m p = Ret mp /\ cmap_vector c mp = Ret r /\ aff_vector cm cp = Ret r).
Proof.
  intros n c m p Hn B M P. destruct (C16_invertible n c Hn B) as (A1 & A2 & I).
  destruct (C15_composition n (fwd c) m p Hn A1 M P) as (cm1 & E1 & A3 & (q1 & r1 & H1 & H2 & H3) & (q2 & r2 & H4 & H5 & H6)).
  destruct (I p P) as ((cp & F1 & F2) & _ & (cv' & F3 & F4) & _).
  assert (C1 : column n cp).
  { destruct (C15_application n (fwd c) p Hn A1 P) as ((q & Eq & Cq & _) & _). congruence. }
  assert (C2 : column n cv').
  { destruct (C15_application n (fwd c) p Hn A1 P) as (_ & (q & Eq & Cq & _)). congruence. }
  destruct (C15_composition n cm1 (bwd c) cp Hn A3 A2 C1) as (cm & E2 & A4 & (q3 & r3 & G1 & G2 & G3) & _).
  destruct (C15_composition n cm1 (bwd c) cv' Hn A3 A2 C2) as (cm' & E2' & _ & _ & (q4 & r4 & G4 & G5 & G6)).
  assert (cm' = cm) by congruence. subst cm'.
  exists cm. unfold cmap_affine, cmap_point, cmap_vector. rewrite E1. cbn [bind]. splits; auto.
  - exists cp, q1, r1. splits; auto. congruence.
  - exists cv', q2, r2. splits; auto. congruence.
Qed.
Print Assumptions C16_commutes.

Theorem C16_composition : forall n c d p, 0 < n -> built n c -> built n d -> column n p ->
  exists cd, cmap_mul c d = Ret cd /\ built n cd /\
    (exists q r, cmap_point d p = Ret q /\ cmap_point c q = Ret r /\ cmap_point cd p = Ret r) /\
    (exists q r, cmap_vector d p = Ret q /\ cmap_vector c q = Ret r /\ cmap_vector cd p = Ret r).
Proof.
  intros n c d p Hn B1 B2 P.
  destruct (C16_invertible n c Hn B1) as (A1 & A2 & _). destruct (C16_invertible n d Hn B2) as (A3 & A4 & _).
  destruct (C15_composition n (fwd c) (fwd d) p Hn A1 A3 P) as (f & E1 & _ & H1 & H2).
  destruct (C15_composition n (bwd d) (bwd c) p Hn A4 A2 P) as (g & E2 & _).
  exists (CMap f g). unfold cmap_mul. rewrite E1, E2. cbn [bind]. splits; auto.
  eapply built_mul with (c := c) (d := d); auto. unfold cmap_mul. rewrite E1, E2. reflexivity.
Qed.
Print Assumptions C16_composition.

(** from_basis and to_basis convert between basis vectors and unit vectors;
    they panic only if the vectors are no basis *)
Theorem C16_basis : forall n vs, 0 < n -> length vs = n -> Forall (column n) vs ->
  (exists c d, cmap_from_basis vs = Ret c /\ cmap_to_basis vs = Ret d /\ cmap_inverse c = d /\
     forall k v, nth_error vs k = Some v -> exists e, vec_unit n k = Ret e /\
       cmap_vector c e = Ret v /\ cmap_vector d v = Ret e) \/
  (cmap_from_basis vs = Panic /\ cmap_to_basis vs = Panic /\
   exists m, hstack vs = Ret m /\ determinant m = Ret 0%Qc).
Proof.
  intros n vs Hn L F. destruct (hstack_columns n vs Hn L F) as (f & E & H).
  unfold cmap_to_basis, cmap_from_basis. rewrite E. cbn [bind]. rewrite aff_from_am. cbn [bind].
  assert (A : affine_map n (am n f (fun _ => r0))) by (apply (affine_am _ _ Hn); eauto).
  destruct (inverse_am n f (fun _ => r0) Hn) as [(g & t & Ei & S1 & S2 & T)|(Ei & S)].
  - left. unfold cmap_new. rewrite Ei. cbn [bind unwrap omap]. do 2 eexists. splits; [reflexivity|reflexivity|reflexivity|].
    intros k v Ek. pose proof (H k v Ek) as ->. assert (Hk : k < n) by (rewrite <- L; apply nth_error_Some; congruence).
    rewrite vec_unit_cv by auto. eexists. splits; [reflexivity| |]; unfold cmap_vector; cbn [fwd bwd cmap_inverse].
    + rewrite aff_vector_am. f_equal. apply cv_ext. intros i Hi. apply lapp_unit; auto.
    + rewrite aff_vector_am. f_equal. apply cv_ext. intros i Hi. rewrite <- (linv_lapp n g f (fun j => if Nat.eqb j k then r1 else r0) i S2 Hi).
      apply lapp_ext; auto. intros j Hj. symmetry. apply lapp_unit; auto.
  - right. unfold cmap_new. rewrite Ei. cbn [bind unwrap omap]. splits; auto. exists (mk n n f). split; auto.
    destruct (C15_inverse_singular n _ Hn A) as (d & Ed & D). cbn [lin am] in Ed. rewrite Ed. f_equal. apply D; auto.
Qed.
Print Assumptions C16_basis.

Example C16_case : exists c, cmap_from_basis [Mat 2 1 [ZQ 2; ZQ 1]; Mat 2 1 [ZQ 1; ZQ 1]] = Ret c /\ built 2 c.
Proof.
  eexists. split.
  - transitivity (Ret (CMap (Affine (Mat 2 2 [ZQ 2; ZQ 1; ZQ 1; ZQ 1]) (Mat 2 1 [ZQ 0; ZQ 0]))
                            (Affine (Mat 2 2 [ZQ 1; ZQ (-1); ZQ (-1); ZQ 2]) (Mat 2 1 [ZQ 0; ZQ 0])))); [|reflexivity].
    qc_compute.
  - apply (built_from_basis 2 [Mat 2 1 [ZQ 2; ZQ 1]; Mat 2 1 [ZQ 1; ZQ 1]]); [reflexivity| |qc_compute].
    repeat constructor; simpl; auto; discriminate.
Qed.

(** ** C17 *)

(** u^T m v *)
Definition bilinear (n : nat) (m u v : mat Qc) : Qc :=
  total n (fun i => total n (fun j => (ent u i 0 * ent m i j * ent v j 0)%Qc)).

Definition positive_definite (n : nat) (m : mat Qc) : Prop :=
  forall u, column n u -> (exists i, i < n /\ ent u i 0 <> 0%Qc) -> (0 < bilinear n m u u)%Qc.

Definition symmetric (n : nat) (m : mat Qc) : Prop := forall i j, i < n -> j < n -> ent m i j = ent m j i.

Lemma bilinear_qform n f u v : bilinear n (mk n n f) (cv n u) (cv n v) = qform n f u v.
Proof.
  unfold bilinear, qform. rewrite total_sumf. apply sumf_ext. intros i Hi. rewrite total_sumf. apply sumf_ext.
  intros j Hj. unfold cv. rewrite !mk_ent by lia. reflexivity.
Qed.

Lemma Qc_pos_spec x : Qc_pos x = true <-> (0 < x)%Qc.
Proof.
  unfold Qc_pos, Qclt, Qlt. cbn [Qnum Qden]. rewrite Z.ltb_lt. cbn. lia.
Qed.

Lemma forallb_combine_eq (a b : list Qc) : length a = length b ->
  forallb (fun p => reqb (fst p) (snd p)) (combine a b) = true -> a = b.
Proof.
  revert b. induction a as [|x a IH]; intros [|y b]; simpl; try discriminate; auto. intros L H.
  apply andb_true_iff in H as [H1 H2]. f_equal; auto. apply r_eqb; auto.
Qed.

Lemma mat_eqb_spec (a b : mat Qc) : mat_eqb a b = true <-> a = b.
Proof.
  unfold mat_eqb. split.
  - intros H. repeat rewrite andb_true_iff in H. destruct H as (((H1 & H2) & H3) & H4).
    apply Nat.eqb_eq in H1, H2, H3. apply forallb_combine_eq in H4; auto. destruct a, b. simpl in *. congruence.
  - intros ->. rewrite !Nat.eqb_refl. cbn [andb]. induction (data b) as [|x l IH]; auto.
    cbn [combine forallb fst snd]. rewrite IH, andb_true_r. apply r_eqb. auto.
Qed.

Lemma mapM_assert {A} (f : A -> outcome unit) l :
  (exists us, mapM f l = Ret us) <-> forall x, In x l -> f x = Ret tt.
Proof.
  induction l as [|x l IH]; cbn [mapM].
  - split; [intros _ y []|intros; eexists; reflexivity].
  - split.
    + intros [us E] y [->|Hy].
      * destruct (f y) as [[]| |]; cbn [bind] in E; auto; discriminate.
      * destruct (f x); cbn [bind] in E; try discriminate.
        destruct (mapM f l) eqn:El; cbn [bind] in E; try discriminate. apply IH; eauto.
    + intros H. rewrite (H x) by (left; auto). cbn [bind]. destruct (proj2 IH) as [us E].
      * intros; apply H; right; auto.
      * rewrite E. cbn [bind]. eexists; reflexivity.
Qed.

Lemma sprod_from_mk n f : 0 < n ->
  (sprod_from (mk n n f) = Ret (mk n n f) \/ sprod_from (mk n n f) = Panic) /\
  (sprod_from (mk n n f) = Ret (mk n n f) <->
   (forall i j, i < n -> j < n -> f i j = f j i) /\
   (forall u, (exists i, i < n /\ u i <> 0%Qc) -> (0 < qform n f u u)%Qc)).
Proof.
  intros Hn. unfold sprod_from. rewrite transpose_mk by auto. cbn [bind].
  destruct (mat_eqb (mk n n f) (mk n n (fun i j => f j i))) eqn:E; cbn [assert bind].
  2:{ split; auto. split; [discriminate|]. intros [S _]. exfalso.
      assert (H : mk n n f = mk n n (fun i j => f j i)) by (apply mk_ext; auto).
      apply mat_eqb_spec in H. congruence. }
  apply mat_eqb_spec in E. assert (S : forall i j, i < n -> j < n -> f i j = f j i) by apply (mk_inj _ _ _ _ E).
  cbn [nrows mk].
  set (h := fun i => _).
  assert (D : forall k, 1 <= k <= n -> exists d, determinant (mk k k f) = Ret d /\ h k = assert (Qc_pos d)).
  { intros k Hk. unfold h. rewrite submatrix_mk by lia. cbn [bind].
    replace (mk (k - 0) (k - 0) (fun i j => f (i + 0) (j + 0))) with (mk k k f).
    - destruct (Qc_det_inverse (a := mk k k f)) as (_ & d & _ & Ed & _); [apply mk_wf; lia|auto|simpl; lia|].
      exists d. rewrite Ed. auto.
    - rewrite Nat.sub_0_r. apply mk_ext. intros. rewrite !Nat.add_0_r. auto. }
  assert (R : (exists us, mapM h (seq 1 n) = Ret us) \/ mapM h (seq 1 n) = Panic).
  { assert (H : forall l, (forall k, In k l -> 1 <= k <= n) -> (exists us, mapM h l = Ret us) \/ mapM h l = Panic).
    { induction l as [|k l IH]; intros H; cbn [mapM]; [left; eexists; reflexivity|].
      destruct (D k) as (d & _ & Eh); [apply H; left; auto|]. rewrite Eh. destruct (Qc_pos d); cbn [assert bind]; auto.
      destruct IH as [[us Eu]|Eu]; [intros; apply H; right; auto| |]; rewrite Eu; cbn [bind]; auto. left. eexists; reflexivity. }
    apply H. intros k Hk. apply in_seq in Hk. lia. }
  assert (P : (exists us, mapM h (seq 1 n) = Ret us) <->
              (forall u, (exists i, i < n /\ u i <> 0%Qc) -> (0 < qform n f u u)%Qc)).
  { rewrite mapM_assert. rewrite <- (sylvester_q (n := n) (f := f)) by auto. split.
    - intros H k d H1 H2 Ed. destruct (D k) as (d' & Ed' & Eh); [lia|]. assert (d' = d) by congruence. subst.
      rewrite H in Eh by (apply in_seq; lia). apply Qc_pos_spec. destruct (Qc_pos d); auto. discriminate.
    - intros H k Hk. apply in_seq in Hk. destruct (D k) as (d & Ed & Eh); [lia|]. rewrite Eh.
      replace (Qc_pos d) with true; auto. symmetry. apply Qc_pos_spec. apply (H k); auto; lia. }
  destruct R as [[us E1]|E1]; rewrite E1; cbn [bind].
  - split; auto. split; auto. intros _. split; auto. apply P. eauto.
  - split; auto. split; [discriminate|]. intros [_ H]. apply P in H as [us Eu]. congruence.
Qed.

Theorem C17_scalar_product_accepts : forall m : mat Qc, wfm m -> 0 < nrows m ->
  (sprod_from m = Ret m \/ sprod_from m = Panic) /\
  (sprod_from m = Ret m <-> nrows m = ncols m /\ symmetric (nrows m) m /\ positive_definite (nrows m) m).
Proof.
  intros m W Hn. destruct (Nat.eq_dec (nrows m) (ncols m)) as [E|E].
  - destruct (wf_mk m (nrows m) (nrows m) W eq_refl (eq_sym E)) as [f Ef]. revert Hn E Ef. generalize (nrows m). intros n Hn E Ef.
    clear W. subst m. cbn [ncols mk]. destruct (sprod_from_mk n f Hn) as [H1 H2]. split; auto. rewrite H2. clear H1 H2.
    split.
    + intros [S P]. splits; auto.
      * intros i j Hi Hj. rewrite !mk_ent by auto. auto.
      * intros u U (i & Hi & Hu). views Hn. rewrite bilinear_qform. apply P. exists i. split; auto.
        unfold cv in Hu. rewrite mk_ent in Hu by lia. auto.
    + intros (_ & S & P). split.
      * intros i j Hi Hj. specialize (S i j Hi Hj). rewrite !mk_ent in S by auto. auto.
      * intros u (i & Hi & Hu). rewrite <- bilinear_qform. apply P; [apply column_cv; eauto|]. exists i. split; auto.
        unfold cv. rewrite mk_ent by lia. auto.
  - destruct (wf_mk m (nrows m) (ncols m) W eq_refl eq_refl) as [f Ef]. revert Hn E Ef.
    generalize (nrows m) (ncols m). intros n k Hn E Ef. clear W. subst m.
    assert (P : sprod_from (mk n k f) = Panic).
    { unfold sprod_from. rewrite transpose_mk by auto. cbn [bind]. unfold mat_eqb. cbn [nrows ncols mk].
      destruct (Nat.eqb_spec n k); [congruence|]. reflexivity. }
    rewrite P. split; auto. split; [discriminate|]. cbn [nrows ncols mk]. tauto.
Qed.
Print Assumptions C17_scalar_product_accepts.

Example C17_case :
  sprod_from (Mat 2 2 [ZQ 2; ZQ (-1); ZQ (-1); ZQ 2]) = Ret (Mat 2 2 [ZQ 2; ZQ (-1); ZQ (-1); ZQ 2]) /\
  sprod_from (Mat 2 2 [ZQ 1; ZQ 2; ZQ 2; ZQ 1]) = Panic.
Proof. split; [qc_compute|reflexivity]. Qed.

Lemma list_prod_app_l {A B} (a b : list A) (c : list B) : list_prod (a ++ b) c = list_prod a c ++ list_prod b c.
Proof. induction a as [|x a IH]; simpl; auto. rewrite IH, app_assoc. auto. Qed.

(** what apply computes *)
Lemma apply_cv n f u v : sprod_apply (mk n n f) (cv n u) (cv n v) = Ret (qform n f u v).
Proof.
  unfold sprod_apply. cbn [nrows mk cv]. rewrite Nat.eqb_refl. cbn [assert bind].
  set (h := fun (t : Qc) (ij : nat * nat) => _).
  assert (H : forall k, k <= n -> forall t i, i < n ->
             foldM h t (map (fun j => (i, j)) (seq 0 k)) = Ret (t + sumf k (fun j => rmul (rmul (u i) (f i j)) (v j)))%Qc).
  { intros k Hk t i Hi. induction k as [|k IH].
    - cbn. f_equal. ring.
    - rewrite seq_S, map_app, foldM_app, IH by lia. cbn [bind map foldM plus]. unfold h at 1. cbn [fst snd].
      unfold cv. rewrite !index_mk by lia. cbn [bind]. f_equal. cbn [sumf]. cbn [radd rmul Qc_dom]. ring. }
  assert (G : forall k, k <= n -> foldM h 0%Qc (list_prod (seq 0 k) (seq 0 n)) =
             Ret (sumf k (fun i => sumf n (fun j => rmul (rmul (u i) (f i j)) (v j))))).
  { intros k Hk. induction k as [|k IH]; [reflexivity|]. rewrite seq_S, list_prod_app_l, foldM_app, IH by lia.
    cbn [bind plus list_prod]. rewrite app_nil_r, H by lia. reflexivity. }
  apply G. lia.
Qed.

Theorem C17_apply : forall n m u v, nrows m = n -> ncols m = n -> wfm m -> column n u -> column n v ->
  sprod_apply m u v = Ret (bilinear n m u v).
Proof.
  intros n m u v H1 H2 W U V. destruct (wf_mk m n n W H1 H2) as [f ->].
  apply column_cv in U as [u' ->]. apply column_cv in V as [v' ->]. rewrite bilinear_qform. apply apply_cv.
Qed.
Print Assumptions C17_apply.

(** ** C18 *)
Lemma qform_lapp n f g u v : qform n f (lapp n g u) (lapp n g v) =
  qform n (lmul n (lmul n (fun i j => g j i) f) g) u v.
Proof.
  assert (Q : forall f u v, qform n f u v = sumf n (fun i => rmul (u i) (lapp n f v i))).
  { intros f0 u0 v0. unfold qform, lapp. apply sumf_ext. intros i Hi. rewrite <- sumf_scale. apply sumf_ext. intros j Hj.
    cbn [rmul Qc_dom]. ring. }
  rewrite !Q. rewrite (sumf_ext n (fun i => rmul (u i) _) (fun i => rmul (u i) (lapp n (fun i j => g j i) (lapp n f (lapp n g v)) i))).
  2:{ intros i Hi. f_equal. rewrite lapp_lmul, lapp_lmul. reflexivity. }
  set (w := lapp n f (lapp n g v)). unfold lapp at 1 2.
  transitivity (sumf n (fun i => sumf n (fun k => rmul (rmul (g i k) (u k)) (w i)))).
  - apply sumf_ext. intros i Hi.
    rewrite (sumf_ext n (fun k => rmul (rmul (g i k) (u k)) (w i)) (fun k => rmul (w i) (rmul (g i k) (u k))))
      by (intros; cbn [rmul Qc_dom]; ring).
    rewrite sumf_scale. cbn [rmul Qc_dom]. ring.
  - rewrite sumf_swap. apply sumf_ext. intros k Hk. rewrite <- sumf_scale. apply sumf_ext. intros i Hi. cbn [rmul Qc_dom]. ring.
Qed.

Lemma qform_ext2 n f u v u' v' : (forall i, i < n -> u i = u' i) -> (forall i, i < n -> v i = v' i) ->
  qform n f u v = qform n f u' v'.
Proof. intros H1 H2. apply sumf_ext. intros i Hi. apply sumf_ext. intros j Hj. rewrite H1, H2; auto. Qed.

Theorem C18_isometry : forall n c d u v, 0 < n -> built n c -> nrows d = n -> wfm d -> sprod_from d = Ret d ->
  column n u -> column n v ->
  exists d' u' v' x, cmap_sprod c d = Ret d' /\ cmap_vector c u = Ret u' /\ cmap_vector c v = Ret v' /\
    sprod_apply d u v = Ret x /\ sprod_apply d' u' v' = Ret x /\
    nrows d' = n /\ sprod_from d' = Ret d'.
Proof.
  intros n c d u v Hn B N W A U V. destruct (built_good n c Hn B) as (f & s & g & t & -> & S1 & S2 & T).
  assert (Hc : ncols d = n).
  { pose proof (proj1 (proj2 (C17_scalar_product_accepts d W ltac:(lia))) A). lia. }
  destruct (wf_mk d n n W N Hc) as [h ->]. views Hn. rename x into u', x0 into u. rename u' into v.
  destruct (sprod_from_mk n h Hn) as [_ H]. apply H in A as [Sy P]. clear H.
  unfold cmap_sprod, cmap_vector. cbn [bwd fwd lin am]. rewrite transpose_mk by auto. cbn [bind].
  rewrite mat_mul_mk by auto. cbn [bind]. rewrite mat_mul_mk by auto. cbn [bind]. fold (am n f s). rewrite !aff_vector_am.
  set (k := fun i j => sumf n (fun k => rmul (sumf n (fun k0 => rmul (g k0 i) (h k0 k))) (g k j))).
  assert (K : forall x y, qform n k (lapp n f x) (lapp n f y) = qform n h x y).
  { intros x y. change k with (lmul n (lmul n (fun i j => g j i) h) g). rewrite <- qform_lapp.
    apply qform_ext2; intros; apply linv_lapp; auto. }
  assert (K2 : forall x y, qform n k x y = qform n h (lapp n g x) (lapp n g y)).
  { intros x y. rewrite <- K. apply qform_ext2; intros; symmetry; apply linv_lapp; auto. }
  assert (Ek : sprod_from (mk n n k) = Ret (mk n n k)).
  { apply (sprod_from_mk n k Hn). split.
    - intros i j Hi Hj. unfold k.
      transitivity (sumf n (fun a => sumf n (fun b => rmul (rmul (g b i) (h b a)) (g a j)))).
      { apply sumf_ext. intros a Ha.
        rewrite (sumf_ext n (fun b => rmul (rmul (g b i) (h b a)) (g a j)) (fun b => rmul (g a j) (rmul (g b i) (h b a))))
          by (intros; cbn [rmul Qc_dom]; ring).
        rewrite sumf_scale. cbn [rmul Qc_dom]. ring. }
      rewrite sumf_swap. apply sumf_ext. intros b Hb.
      transitivity (sumf n (fun a => rmul (g b i) (rmul (g a j) (h a b)))).
      { apply sumf_ext. intros a Ha. rewrite (Sy b a) by auto. cbn [rmul Qc_dom]. ring. }
      rewrite sumf_scale. cbn [rmul Qc_dom]. ring.
    - intros x (i & Hi & Hx). rewrite K2. apply P.
      destruct (existsb (fun j => negb (reqb (lapp n g x j) 0%Qc)) (seq 0 n)) eqn:Ex.
      + apply existsb_exists in Ex as (j & Hj & Ej). apply in_seq in Hj. exists j. split; [lia|]. intros C.
        rewrite C in Ej. discriminate.
      + exfalso. apply Hx. rewrite <- (linv_lapp n f g x i S1 Hi).
        assert (Z0 : forall j, j < n -> lapp n g x j = 0%Qc).
        { intros j Hj. destruct (reqb (lapp n g x j) 0%Qc) eqn:Ej; [apply r_eqb; auto|]. exfalso.
          assert (existsb (fun j => negb (reqb (lapp n g x j) 0%Qc)) (seq 0 n) = true); [|congruence].
          apply existsb_exists. exists j. rewrite Ej. split; auto. apply in_seq. lia. }
        rewrite (lapp_ext n f f _ (fun _ => 0%Qc)) by auto. unfold lapp.
        rewrite (sumf_ext n _ (fun _ => 0%Qc)) by (intros; cbn [rmul Qc_dom]; ring).
        clear. induction n; cbn [sumf]; [reflexivity|]. rewrite IHn. cbn [radd Qc_dom]. ring. }
  exists (mk n n k). do 3 eexists. rewrite Ek, !apply_cv. splits; try reflexivity; auto. f_equal. apply K.
Qed.
Print Assumptions C18_isometry.

Example C18_case : exists c,
  cmap_from (Mat 2 2 [ZQ 2; ZQ 1; ZQ 1; ZQ 1]) = Ret c /\ built 2 c /\
  sprod_from (Mat 2 2 [ZQ 2; ZQ (-1); ZQ (-1); ZQ 2]) = Ret (Mat 2 2 [ZQ 2; ZQ (-1); ZQ (-1); ZQ 2]) /\
  cmap_sprod c (Mat 2 2 [ZQ 2; ZQ (-1); ZQ (-1); ZQ 2]) = Ret (Mat 2 2 [ZQ 6; ZQ (-9); ZQ (-9); ZQ 14]).
Proof.
  assert (E : cmap_from (Mat 2 2 [ZQ 2; ZQ 1; ZQ 1; ZQ 1]) =
    Ret (CMap (Affine (Mat 2 2 [ZQ 2; ZQ 1; ZQ 1; ZQ 1]) (Mat 2 1 [ZQ 0; ZQ 0]))
              (Affine (Mat 2 2 [ZQ 1; ZQ (-1); ZQ (-1); ZQ 2]) (Mat 2 1 [ZQ 0; ZQ 0])))) by qc_compute.
  eexists. splits; [exact E| |qc_compute|qc_compute].
  eapply built_from; [| | |exact E]; try reflexivity. split; [reflexivity|discriminate].
Qed.
