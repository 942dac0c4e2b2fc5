(** Property C57 of src/spacegroups/basics.rs: PrimitiveSetting::new. *)
From Coq Require Import List ZArith Lia Bool PeanoNat QArith Qcanon Qround.
From Verif Require Import Base QcTac Vec Elim Scalars Matrix MatrixMore LinAlg ZQ Lattices Reduce Props_Lattices Geometry Props_Geometry Basics Generate Gram Props_Basics.
From Verif Require PGraphBase SymFront RatLattice.
Import ListNotations.
Close Scope Q_scope. Close Scope Qc_scope.
Open Scope nat_scope.

(** ** C57 *)
(** the shifts of the operators whose linear part is the identity *)
Definition translation_by (d : nat) (ops : list aff) (v : list Qc) : Prop :=
  exists op, In op ops /\ identity d = Ret (lin op) /\ v = data (shift op).
(** integer vectors plus integer combinations of translations in the list *)
Definition translation_lattice (d : nat) (ops : list aff) (x : list Qc) : Prop :=
  exists z vs y, (forall v, In v vs -> translation_by d ops v) /\ in_lattice d vs y /\ x = plus d (integer_vector d z) y.

Lemma translations_spec d ops v : 0 < d -> Forall (isam d) ops -> In v (translations (mk d d delta) (cv d (fun _ => 0%Qc)) ops) <-> translation_by d ops v /\ v <> origin d.
Proof.
  intros Hd F. assert (Z : forall s : nat -> Qc, data (cv d s) = origin d <-> cv d s = cv d (fun _ => 0%Qc)).
  { intros s. rewrite cv_data. unfold origin, from_coordinates. split.
    - intros E. apply cv_ext. intros i Hi. apply (f_equal (fun l => nth i l 0%Qc)) in E. rewrite !nth_map_seq in E by auto. auto.
    - intros E. apply map_ext_in. intros i Hi. apply in_seq in Hi. apply (cv_inj d _ _ E). lia. }
  unfold translations. rewrite in_flat_map. rewrite Forall_forall in F. split.
  - intros (op & Hop & Hv). destruct (F op Hop) as (f & s & ->). cbn [am lin shift] in Hv. destruct (mat_eqb (mk d d f) (mk d d delta)) eqn:E1; cbn [andb] in Hv; [|destruct Hv].
    destruct (mat_eqb (cv d s) (cv d (fun _ => 0%Qc))) eqn:E2; cbn [negb] in Hv; [destruct Hv|]. destruct Hv as [<-|[]]. apply mat_eqb_spec in E1. split.
    + exists (am d f s). splits; auto. rewrite identity_mk by auto. cbn [am lin]. congruence.
    + intros E. apply Z in E. assert (mat_eqb (cv d s) (cv d (fun _ => 0%Qc)) = true) by (apply mat_eqb_spec; auto). congruence.
  - intros ((op & Hop & E & ->) & N). exists op. split; auto. destruct (F op Hop) as (f & s & ->). cbn [am lin shift] in *. rewrite identity_mk in E by auto. injection E as E.
    assert (M : mat_eqb (mk d d f) (mk d d delta) = true) by (apply mat_eqb_spec; unfold mk; congruence). rewrite M. cbn [andb].
    destruct (mat_eqb (cv d s) (cv d (fun _ => 0%Qc))) eqn:E2; cbn [negb]; [|left; auto]. exfalso. apply N. apply Z. apply mat_eqb_spec. auto.
Qed.
Lemma translation_point d ops v : 0 < d -> Forall (isam d) ops -> translation_by d ops v -> point d v.
Proof.
  intros Hd F (op & Hop & _ & ->). rewrite Forall_forall in F. destruct (F op Hop) as (f & s & ->). cbn [am shift]. unfold point. rewrite cv_data, map_length, seq_length. auto.
Qed.

Lemma mapM_vec_new rows : mapM vec_new rows = Ret (map (fun r => cv (length r) (vget r)) rows).
Proof. induction rows as [|r rows IH]; cbn [mapM map]; auto. rewrite vec_new_cv. cbn [bind]. rewrite IH. reflexivity. Qed.

(** the transformed operators *)
Lemma prim_fold d to ops : 0 < d -> good d to -> Forall (isam d) ops -> exists seen res, foldM (prim_step to) ([], []) ops = Ret (seen, res) /\ NoDup res /\
  (forall op, In op ops -> exists t m, cmap_affine to op = Ret t /\ aff_mod_z t = Ret m /\ In m res) /\
  (forall m, In m res -> exists op t, In op ops /\ cmap_affine to op = Ret t /\ aff_mod_z t = Ret m).
Proof.
  intros Hd (f & s & g & t & -> & _) F.
  assert (One : forall op, isam d op -> exists x m, cmap_affine (CMap (am d f s) (am d g t)) op = Ret x /\ isam d x /\ aff_mod_z x = Ret m).
  { intros op (f1 & s1 & ->). unfold cmap_affine. cbn [fwd bwd]. rewrite aff_mul_am by auto. cbn [bind]. rewrite aff_mul_am by auto. do 2 eexists. splits; [reflexivity|unfold isam; eauto|apply mod_z_am]. }
  destruct (foldM_inv (prim_step (CMap (am d f s) (am d g t))) (fun pre st => (forall x, In x (fst st) <-> In x (snd st)) /\ NoDup (snd st) /\
     (forall op, In op pre -> exists x m, cmap_affine (CMap (am d f s) (am d g t)) op = Ret x /\ aff_mod_z x = Ret m /\ In m (snd st)) /\
     (forall m, In m (snd st) -> exists op x, In op pre /\ cmap_affine (CMap (am d f s) (am d g t)) op = Ret x /\ aff_mod_z x = Ret m)) ops ([], [])) as ([seen res] & E & H1 & H2 & H3 & H4).
  - cbn [fst snd]. splits; [tauto|constructor|intros op []|intros m []].
  - intros pre op [seen res] Inc (H1 & H2 & H3 & H4). cbn [fst snd] in *. rewrite Forall_forall in F. destruct (One op) as (x & m & Ex & Ix & Em); [apply F; apply Inc; apply in_or_app; right; left; auto|].
    cbn [prim_step]. rewrite Ex. cbn [bind]. rewrite Em. cbn [bind]. destruct (existsb (aff_eqb m) seen) eqn:Q.
    + eexists. split; [reflexivity|]. cbn [fst snd]. splits; auto.
      * intros o Ho. apply in_app_iff in Ho as [Ho|[<-|[]]]; auto. exists x, m. splits; auto. apply existsb_exists in Q as (m' & Hm & E). apply aff_eqb_eq in E as <-. apply H1. auto.
      * intros m' Hm. destruct (H4 m' Hm) as (o & y & Ho & Ey). exists o, y. split; auto. apply in_or_app. auto.
    + assert (Nm : ~ In m res). { intros C. apply H1 in C. assert (existsb (aff_eqb m) seen = true); [|congruence]. apply existsb_exists. exists m. split; auto. apply aff_eqb_eq. auto. }
      eexists. split; [reflexivity|]. cbn [fst snd]. splits.
      * intros y. rewrite in_app_iff. cbn. rewrite H1. tauto.
      * apply PGraphBase.NoDup_snoc; auto.
      * intros o Ho. apply in_app_iff in Ho as [Ho|[<-|[]]].
        -- destruct (H3 o Ho) as (y & m' & E1 & E2 & E3). exists y, m'. splits; auto. apply in_or_app. auto.
        -- exists x, m. splits; auto. apply in_or_app. right. left. auto.
      * intros m' Hm. apply in_app_iff in Hm as [Hm|[<-|[]]].
        -- destruct (H4 m' Hm) as (o & y & Ho & Ey). exists o, y. split; auto. apply in_or_app. auto.
        -- exists op, x. splits; auto. apply in_or_app. right. left. auto.
  - exists seen, res. splits; auto.
Qed.

(** the parts of the result *)
Lemma primitive_parts d ops p : 0 < d -> Forall (affine_map d) ops -> primitive_new ops = Ret p ->
  exists ts rows f g, (forall v, In v ts <-> translation_by d ops v /\ v <> origin d) /\ rational_lattice_basis ts = Ret rows /\ length rows = d /\
    p_cell p = map (fun r => cv (length r) (vget r)) rows /\ map data (p_cell p) = rows /\
    p_to p = CMap (am d g (fun _ => 0%Qc)) (am d f (fun _ => 0%Qc)) /\ linv d f g /\ linv d g f /\ (forall i k, i < d -> k < d -> f i k = vget (nth k rows []) i) /\
    cmap_to_basis (p_cell p) = Ret (p_to p) /\ exists seen, foldM (prim_step (p_to p)) ([], []) ops = Ret (seen, p_ops p).
Proof.
  intros Hd F. pose proof (isam_all d ops Hd F) as G. unfold primitive_new. destruct ops as [|op0 ops0] eqn:Eo; [discriminate|]. cbn [nth_error unwrap bind]. rewrite <- Eo in *.
  assert (D0 : aff_dim op0 = d). { rewrite Forall_forall in G. destruct (G op0) as (f & s & ->); [rewrite Eo; left; auto|reflexivity]. }
  rewrite D0, identity_mk by auto. cbn [bind]. rewrite vec_zero_cv. cbn [bind]. change (cv d (fun _ => r0)) with (cv d (fun _ => 0%Qc)).
  set (ts := translations (mk d d delta) (cv d (fun _ => 0%Qc)) ops).
  assert (Ht : forall v, In v ts <-> translation_by d ops v /\ v <> origin d) by (intros v; apply translations_spec; auto).
  destruct (rational_lattice_basis ts) as [rows| |] eqn:Er; cbn [bind]; try discriminate.
  assert (Pt : Forall (point d) ts) by (apply Forall_forall; intros v Hv; apply Ht in Hv; apply (translation_point d ops); auto; apply Hv).
  destruct (C43_rational_lattice_basis d ts rows Pt Er) as [[Bp Bl Bi] _].
  rewrite mapM_vec_new. cbn [bind]. set (cell := map (fun r => cv (length r) (vget r)) rows).
  assert (Fc : Forall (column d) cell). { apply Forall_forall. intros c Hc. apply in_map_iff in Hc as (r & <- & Hr). rewrite Forall_forall in Bp. rewrite (Bp r Hr). apply column_cv. eauto. }
  assert (Lc : length cell = d) by (unfold cell; rewrite map_length; auto).
  destruct (hstack_columns d cell Hd Lc Fc) as (f & Eh & Hf). destruct (cmap_to_basis cell) as [to| |] eqn:Et; cbn [bind]; try discriminate.
  pose proof Et as Et'. unfold cmap_to_basis, cmap_from_basis in Et. rewrite Eh in Et. cbn [bind] in Et. rewrite aff_from_am in Et. cbn [bind] in Et.
  assert (Aff : affine_map d (am d f (fun _ => r0))) by (apply affine_am; eauto).
  destruct (inverse_am d f (fun _ => r0) Hd) as [(g & t & Ei & S1 & S2 & T)|(Ei & S)]; unfold cmap_new in Et; rewrite Ei in Et; cbn [bind unwrap omap] in Et; [|discriminate].
  injection Et as <-. unfold cmap_inverse. cbn [fwd bwd].
  assert (T0 : am d g t = am d g (fun _ => 0%Qc)).
  { apply am_ext; auto. intros i Hi. rewrite T by auto. unfold lapp. rewrite (sumf_ext d _ (fun _ => 0%Qc)) by (intros; cbn [rmul r0 Qc_dom]; ring).
    assert (Z : forall n, sumf n (fun _ : nat => 0%Qc) = 0%Qc) by (induction n as [|n IH]; cbn [sumf]; auto; rewrite IH; reflexivity). rewrite Z. reflexivity. }
  rewrite T0. destruct (foldM (prim_step _) ([], []) ops) as [[seen res]| |] eqn:Ef; cbn [bind]; try discriminate. intros [= <-]. cbn [p_cell p_to p_ops snd].
  exists ts, rows, f, g. splits; auto.
  - unfold cell. rewrite map_map. rewrite <- (map_id rows) at 2. apply map_ext_in. intros r Hr. rewrite cv_data. apply nth_ext with (d := 0%Qc) (d' := 0%Qc); [rewrite map_length, seq_length; auto|].
    intros i Hi. rewrite map_length, seq_length in Hi. rewrite nth_map_seq by auto. reflexivity.
  - intros i k Hi Hk. assert (Ek : nth_error cell k = Some (cv (length (nth k rows [])) (vget (nth k rows [])))).
    { unfold cell. rewrite nth_error_map. rewrite (nth_error_nth' rows []) by (rewrite Bl; auto). reflexivity. }
    pose proof (Hf k _ Ek) as E. rewrite Forall_forall in Bp. rewrite (Bp (nth k rows [])) in E by (apply nth_In; rewrite Bl; auto). symmetry. apply (cv_inj d _ _ E i Hi).
  - rewrite Et'. unfold cmap_inverse. cbn [fwd bwd]. rewrite T0. reflexivity.
  - exists seen. auto.
Qed.

Lemma lens_translations d ops vs : 0 < d -> Forall (isam d) ops -> (forall v, In v vs -> translation_by d ops v) -> lens d vs.
Proof. intros Hd F H. apply Forall_forall. intros v Hv. apply (translation_point d ops); auto. Qed.

(** The cell vectors are a basis of the lattice of all translations, integer vectors included. *)
Theorem C57_cell d ops p : 0 < d -> Forall (affine_map d) ops -> primitive_new ops = Ret p ->
  is_basis d (map data (p_cell p)) /\ forall x, in_lattice d (map data (p_cell p)) x <-> translation_lattice d ops x.
Proof.
  intros Hd F E. destruct (primitive_parts d ops p Hd F E) as (ts & rows & f & g & Ht & Er & _ & _ & -> & _). pose proof (isam_all d ops Hd F) as G.
  assert (Lt : lens d ts) by (apply (lens_translations d ops); auto; intros v Hv; apply Ht; auto).
  destruct (C43_rational_lattice_basis d ts rows Lt Er) as [B H]. split; auto. intros x. rewrite H. unfold translation_lattice. split.
  - intros (z & y & Hy & ->). exists z, ts, y. splits; auto. intros v Hv. apply Ht. auto.
  - intros (z & vs & y & Hv & Hy & ->). assert (Lv : lens d vs) by (apply (lens_translations d ops); auto). exists z, y. split; auto.
    apply in_lattice_zcomb in Hy; auto. apply in_lattice_zcomb; auto. apply zcomb_trans with vs; auto. intros v Iv.
    destruct (list_eq_dec Qc_eq_dec v (origin d)) as [->|N].
    + rewrite origin_zero. apply zcomb_0. auto.
    + apply zcomb_In; auto. apply Ht. auto.
Qed.
Print Assumptions C57_cell.

(** The coordinate change is invertible and sends the cell vectors to the unit vectors. *)
Theorem C57_coordinates d ops p : 0 < d -> Forall (affine_map d) ops -> primitive_new ops = Ret p ->
  built d (p_to p) /\ length (p_cell p) = d /\ Forall (column d) (p_cell p) /\
  (forall k v, nth_error (p_cell p) k = Some v -> exists e, vec_unit d k = Ret e /\ cmap_vector (p_to p) v = Ret e) /\
  exists o, vec_zero d = Ret o /\ cmap_point (p_to p) o = Ret o.
Proof.
  intros Hd F E. destruct (C57_cell d ops p Hd F E) as [B _]. destruct (primitive_parts d ops p Hd F E) as (ts & rows & f & g & Ht & Er & Lr & Ec & Ed & Et & S1 & S2 & Hf & Eb & _).
  assert (Lc : length (p_cell p) = d) by (rewrite Ec, map_length; auto).
  assert (Fc : Forall (column d) (p_cell p)).
  { rewrite Ec. apply Forall_forall. intros c Hc. apply in_map_iff in Hc as (r & <- & Hr). destruct B as [Bp _ _]. rewrite Ed, Forall_forall in Bp. rewrite (Bp r Hr). apply column_cv. eauto. }
  splits; auto.
  - eapply built_to_basis; eauto.
  - intros k v Hk. destruct (C16_basis d (p_cell p) Hd Lc Fc) as [(c & c' & E1 & E2 & _ & H)|(_ & E2 & _)]; [|congruence]. assert (c' = p_to p) as -> by congruence.
    destruct (H k v Hk) as (e & He & _ & H2). exists e. auto.
  - rewrite vec_zero_cv. eexists. split; [reflexivity|]. rewrite Et. unfold cmap_point. cbn [fwd]. rewrite aff_point_am. f_equal. apply cv_ext. intros i Hi.
    unfold lapp. rewrite (sumf_ext d _ (fun _ => 0%Qc)) by (intros; cbn [rmul r0 Qc_dom]; ring).
    assert (Z : forall n, sumf n (fun _ : nat => 0%Qc) = 0%Qc) by (induction n as [|n IH]; cbn [sumf]; auto; rewrite IH; reflexivity). rewrite Z. reflexivity.
Qed.
Print Assumptions C57_coordinates.

(** The operators of the result are the images of the given ones under the coordinate change, up to integer translations, none twice. *)
Theorem C57_operators d ops p : 0 < d -> Forall (affine_map d) ops -> primitive_new ops = Ret p ->
  NoDup (p_ops p) /\
  (forall op, In op ops -> exists t m, cmap_affine (p_to p) op = Ret t /\ In m (p_ops p) /\ congruent d m t) /\
  (forall m, In m (p_ops p) -> (forall i, i < d -> (-(1) < ent (shift m) i 0)%Qc /\ (ent (shift m) i 0 < 1)%Qc) /\
     exists op t, In op ops /\ cmap_affine (p_to p) op = Ret t /\ congruent d m t).
Proof.
  intros Hd F E. pose proof (isam_all d ops Hd F) as G. destruct (C57_coordinates d ops p Hd F E) as (Bu & _). pose proof (built_good d _ Hd Bu) as Go.
  destruct (primitive_parts d ops p Hd F E) as (ts & rows & f & g & _ & _ & _ & _ & _ & _ & _ & _ & _ & _ & seen & Ef).
  destruct (prim_fold d (p_to p) ops Hd Go G) as (seen' & res & Ef' & N & H1 & H2). rewrite Ef in Ef'. injection Ef' as <- <-.
  assert (Im : forall op t, In op ops -> cmap_affine (p_to p) op = Ret t -> isam d t).
  { intros op t Ho Et. rewrite Forall_forall in F. destruct (C16_commutes d (p_to p) op (cv d (fun _ => 0%Qc)) Hd Bu (F op Ho)) as (cm & E1 & A & _); [apply column_cv; eauto|].
    assert (t = cm) as -> by congruence. apply isam_affine; auto. }
  splits; auto.
  - intros op Ho. destruct (H1 op Ho) as (t & m & E1 & E2 & Hm). exists t, m. splits; auto. destruct (mod_z_cong d t (Im op t Ho E1)) as (m' & E3 & C).
    assert (m' = m) as -> by congruence. apply congruent_cong; auto.
  - intros m Hm. destruct (H2 m Hm) as (op & t & Ho & E1 & E2). destruct (Im op t Ho E1) as (f0 & s0 & ->). split.
    + rewrite mod_z_am in E2. injection E2 as <-. intros i Hi. cbn [am shift]. unfold cv. rewrite mk_ent by lia. apply q_rem1_range.
    + exists op, (am d f0 s0). splits; auto. destruct (mod_z_cong d (am d f0 s0)) as (m' & E3 & C); [unfold isam; eauto|]. assert (m' = m) as -> by congruence. apply congruent_cong; auto.
Qed.
Print Assumptions C57_operators.

(** coordinates with respect to the cell *)
Lemma integral_coordinates d rows f g (x : nat -> Qc) : is_basis d rows -> linv d f g -> linv d g f -> (forall i k, i < d -> k < d -> f i k = vget (nth k rows []) i) ->
  in_lattice d rows (from_coordinates d x) <-> forall i, i < d -> isint (lapp d g x i).
Proof.
  intros [Bp Bl _] S1 S2 Hf. rewrite in_lattice_zcomb by auto. unfold RatLattice.zcomb.
  assert (K : forall cs i, length cs = d -> i < d -> vget (lincomb d cs rows) i = lapp d f (vget cs) i).
  { intros cs i Lc Hi. rewrite (SymFront.vget_lincomb d cs rows i Bp) by congruence. rewrite Bl. unfold lapp. apply sumf_ext. intros k Hk. rewrite Hf by auto. cbn [rmul Qc_dom]. ring. }
  split.
  - intros (zs & Lz & Ex) i Hi. assert (Lm : length (map ZQ zs) = d) by (rewrite map_length; congruence).
    rewrite (lapp_ext d g g x (lapp d f (vget (map ZQ zs)))); auto.
    + rewrite linv_lapp by auto. exists (nth i zs 0%Z). unfold vget. change (@r0 Qc _) with (ZQ 0). apply map_nth.
    + intros k Hk. rewrite <- (from_get d x k Hk), Ex. apply (K _ _ Lm Hk).
  - intros H. assert (C : exists zs : list Z, length zs = d /\ forall i, i < d -> lapp d g x i = vget (map ZQ zs) i).
    { clear - H. revert H. generalize (lapp d g x). intros c H. induction d as [|d IH]; [exists []; split; auto; intros; lia|].
      destruct IH as (zs & L & E); [intros; apply H; lia|]. destruct (H d) as [z Ez]; [lia|]. exists (zs ++ [z]). split; [rewrite app_length; cbn; lia|].
      intros i Hi. unfold vget in *. rewrite map_app. destruct (Nat.eq_dec i d) as [->|N].
      - rewrite app_nth2 by (rewrite map_length; lia). rewrite map_length, L, Nat.sub_diag. auto.
      - rewrite app_nth1 by (rewrite map_length; lia). apply E. lia. }
    destruct C as (zs & L & Ez). exists zs. split; [congruence|]. assert (Lm : length (map ZQ zs) = d) by (rewrite map_length; auto).
    apply (ext_lt d); [apply from_length|apply (lincomb_length (R := Qc)); auto|]. intros i Hi. rewrite from_get by auto. symmetry. etransitivity; [apply (K _ _ Lm Hi)|].
    rewrite (lapp_ext d f f _ (lapp d g x)); auto; [apply linv_lapp; auto|]. intros k Hk. rewrite Ez by auto. auto.
Qed.

Lemma image_am d f g h s : 0 < d -> cmap_affine (CMap (am d g (fun _ => 0%Qc)) (am d f (fun _ => 0%Qc))) (am d h s) = Ret (am d (lmul d g (lmul d h f)) (lapp d g s)).
Proof.
  intros Hd. unfold cmap_affine. cbn [fwd bwd]. rewrite aff_mul_am by auto. cbn [bind]. rewrite aff_mul_am by auto. f_equal. apply am_ext.
  - intros i j Hi Hj. apply lmul_assoc.
  - intros i Hi. assert (Z : forall u, lapp d u (fun _ => 0%Qc) i = 0%Qc).
    { intros u. unfold lapp. rewrite (sumf_ext d _ (fun _ => 0%Qc)) by (intros; cbn [rmul r0 Qc_dom]; ring).
      assert (Z : forall n, sumf n (fun _ : nat => 0%Qc) = 0%Qc) by (induction n as [|n IH]; cbn [sumf]; auto; rewrite IH; reflexivity). apply Z. }
    rewrite Z. cbn [radd Qc_dom]. ring.
Qed.

(** No translation is left: the only operator of the result whose linear part is the identity is the identity. *)
Theorem C57_no_translations_left d ops p m : 0 < d -> Forall (affine_map d) ops -> primitive_new ops = Ret p -> In m (p_ops p) -> identity d = Ret (lin m) ->
  aff_identity d = Ret m.
Proof.
  intros Hd F E Hm Em. destruct (C57_operators d ops p Hd F E) as (_ & _ & H). destruct (H m Hm) as (Sm & op & t & Ho & Et & Cm). destruct (C57_cell d ops p Hd F E) as [B Hl].
  destruct (primitive_parts d ops p Hd F E) as (ts & rows & f & g & Ht & Er & Lr & Ec & Ed & Eto & S1 & S2 & Hf & _). rewrite Ed in *.
  pose proof (isam_all d ops Hd F) as G. rewrite Forall_forall in G. destruct (G op Ho) as (h & s & Eop). subst op. rewrite Eto, image_am in Et by auto. injection Et as <-.
  destruct Cm as (Am & _ & El & Hs). apply affine_am in Am as (fm & sm & ->); auto. rewrite identity_mk in Em by auto. injection Em as Em. cbn [am lin shift] in *.
  assert (Efm : forall i j, i < d -> j < d -> delta i j = fm i j).
  { intros i j Hi Hj. apply (am_inj d delta fm (fun _ => 0%Qc) (fun _ => 0%Qc)); auto. unfold am. f_equal. unfold mk. f_equal. exact Em. }
  assert (Eh : forall i j, i < d -> j < d -> h i j = delta i j).
  { intros i j Hi Hj. assert (Q : forall u v, u < d -> v < d -> lmul d g (lmul d h f) u v = delta u v).
    { intros u v Hu Hv. rewrite Efm by auto. symmetry. apply (am_inj d fm (lmul d g (lmul d h f)) (fun _ => 0%Qc) (fun _ => 0%Qc)); auto. unfold am. f_equal. exact El. }
    rewrite <- (lapp_unit d h j i) by auto. set (u := fun k => if Nat.eqb k j then r1 else r0).
    rewrite (lapp_ext d h h u (lapp d f (lapp d g u))) by (auto; intros; symmetry; apply linv_lapp; auto).
    rewrite <- (linv_lapp d f g (lapp d h (lapp d f (lapp d g u))) i S1 Hi).
    rewrite (lapp_ext d f f _ (lapp d g u)); [rewrite linv_lapp by auto; unfold u, delta; rewrite Nat.eqb_sym; destruct (Nat.eqb_spec j i); auto|auto|].
    intros k Hk.
    transitivity (lapp d (lmul d g (lmul d h f)) (lapp d g u) k).
    - rewrite lapp_lmul. apply lapp_ext; auto. intros; symmetry; apply lapp_lmul.
    - rewrite (lapp_ext d _ delta _ (lapp d g u)) by auto. apply lapp_delta; auto. }
  assert (T : translation_by d ops (data (cv d s))).
  { exists (am d h s). splits; auto. rewrite identity_mk by auto. cbn [am lin]. f_equal. apply mk_ext. intros; symmetry; auto. }
  assert (I : forall i, i < d -> isint (lapp d g s i)).
  { apply (integral_coordinates d rows f g s B S1 S2 Hf). apply Hl. exists [], [data (cv d s)], (data (cv d s)). splits.
    - intros v [<-|[]]; auto.
    - exists [1%Z]. split; auto. rewrite cv_data. unfold combination, from_coordinates. apply map_ext_in. intros i Hi. apply in_seq in Hi. cbn [map combine fold_right fst snd]. unfold coordinate. rewrite nth_map_seq by lia.
      change (ZQ 1) with 1%Qc. ring.
    - rewrite cv_data. unfold plus, integer_vector, from_coordinates. apply map_ext_in. intros i Hi. apply in_seq in Hi. unfold coordinate. rewrite !nth_map_seq by lia. destruct i; cbn [nth]; change (ZQ 0) with 0%Qc; ring. }
  rewrite aff_identity_am by auto. f_equal. apply am_ext; auto. intros i Hi. specialize (Hs i Hi). specialize (Sm i Hi). unfold cv in Hs, Sm. rewrite !mk_ent in Hs by lia. rewrite mk_ent in Sm by lia.
  assert (J : isint (sm i)). { replace (sm i) with ((sm i - lapp d g s i) + lapp d g s i)%Qc by ring. apply isint_add; auto. }
  destruct J as [z Ez]. rewrite Ez in *. destruct Sm as [Sa Sb]. change (-(1))%Qc with (ZQ (-1)) in Sa. change 1%Qc with (ZQ 1) in Sb. rewrite ZQ_lt in Sa. rewrite ZQ_lt in Sb. assert (z = 0%Z) as -> by lia. reflexivity.
Qed.
Print Assumptions C57_no_translations_left.

(** closed under products and inverses, up to integer translations; by C48_group, generate returns such lists *)
Definition group_of (d : nat) (ops : list aff) : Prop :=
  (forall a b, In a ops -> In b ops -> exists ab c, aff_mul a b = Ret ab /\ In c ops /\ congruent d c ab) /\
  (forall a, In a ops -> exists b ab ba e, In b ops /\ aff_mul a b = Ret ab /\ aff_mul b a = Ret ba /\ aff_identity d = Ret e /\ congruent d ab e /\ congruent d ba e).
Definition integral (d : nat) (a : aff) : Prop := forall i j, i < d -> j < d -> integer (ent (lin a) i j).

(** a group of operators maps translations to translations *)
Lemma conjugate d ops a v : 0 < d -> Forall (affine_map d) ops -> group_of d ops -> In a ops -> integral d a -> translation_by d ops v ->
  exists f s w, a = am d f s /\ translation_by d ops w /\ forall i, i < d -> isint (lapp d f (vget v) i - vget w i)%Qc.
Proof.
  intros Hd F [Mul Inv] Ha Ia (b & Hb & Eb & ->). pose proof (isam_all d ops Hd F) as G. rewrite Forall_forall in G.
  destruct (Inv a Ha) as (a' & aa & _ & e & Ha' & E1 & _ & Ee & C1 & _). destruct (Mul a b Ha Hb) as (ab & c & E2 & Hc & C2). destruct (Mul c a' Hc Ha') as (ca & c' & E3 & Hc' & C3).
  destruct (G a Ha) as (f & s & ->), (G b Hb) as (fb & v & ->), (G a' Ha') as (f' & s' & ->), (G c Hc) as (fc & sc & ->), (G c' Hc') as (fd & sd & ->).
  rewrite aff_mul_am in E1, E2, E3 by auto. injection E1 as <-. injection E2 as <-. injection E3 as <-.
  apply congruent_cong in C1, C2, C3; auto. apply (word_ide_eq d Hd) in Ee as ->. unfold ide in C1. apply cong_am in C1 as [L1 T1], C2 as [L2 T2], C3 as [L3 T3].
  rewrite identity_mk in Eb by auto. cbn [am lin shift] in *. injection Eb as Eb.
  assert (Lb : forall i j, i < d -> j < d -> fb i j = delta i j).
  { intros i j Hi Hj. symmetry. apply (am_inj d delta fb (fun _ => 0%Qc) (fun _ => 0%Qc)); auto. unfold am, mk. congruence. }
  assert (Lc : forall i j, i < d -> j < d -> fc i j = f i j).
  { intros i j Hi Hj. rewrite L2 by auto. transitivity (lmul d f delta i j); [|apply lmul_delta_r; auto]. unfold lmul. apply sumf_ext. intros k Hk. rewrite Lb; auto. }
  exists f, s, (data (cv d sd)). splits; auto.
  - exists (am d fd sd). splits; auto. rewrite identity_mk by auto. cbn [am lin]. f_equal. apply mk_ext. intros i j Hi Hj. rewrite L3, <- L1 by auto. unfold lmul. apply sumf_ext. intros k Hk. rewrite Lc; auto.
  - intros i Hi. assert (Gd : forall w, vget (data (cv d w)) i = w i) by (intros w; rewrite cv_data; unfold vget; apply nth_map_seq; auto).
    rewrite Gd. assert (Ev : lapp d f (vget (data (cv d v))) i = lapp d f v i). { apply lapp_ext; auto. intros k Hk. rewrite cv_data. unfold vget. apply nth_map_seq. auto. }
    rewrite Ev. specialize (T1 i Hi). specialize (T2 i Hi). specialize (T3 i Hi). cbn [radd Qc_dom] in *.
    rewrite (lapp_ext d fc f s' s' i) in T3 by auto.
    replace (lapp d f v i - sd i)%Qc with (- (sd i - (lapp d f s' i + sc i)) + (- (sc i - (lapp d f v i + s i)) + - (lapp d f s' i + s i - 0)))%Qc by ring.
    repeat apply isint_add; apply isint_opp; auto.
Qed.

Lemma lapp_plus d f (u v : nat -> Qc) i : lapp d f (fun k => u k + v k)%Qc i = (lapp d f u i + lapp d f v i)%Qc.
Proof. exact (lapp_add d f u v i). Qed.
Lemma lapp_times d f (c : Qc) v i : lapp d f (fun k => c * v k)%Qc i = (c * lapp d f v i)%Qc.
Proof. unfold lapp. induction d as [|d IH]; cbn [sumf radd rmul r0 Qc_dom] in *; [ring|]. rewrite IH. ring. Qed.

(** For a group of operators with integral linear parts, the linear parts in the primitive setting are integral. *)
Theorem C57_integral d ops p : 0 < d -> Forall (affine_map d) ops -> group_of d ops -> Forall (integral d) ops -> primitive_new ops = Ret p ->
  Forall (integral d) (p_ops p).
Proof.
  intros Hd F Gr I E. destruct (C57_operators d ops p Hd F E) as (_ & _ & H). destruct (C57_cell d ops p Hd F E) as [B Hl].
  destruct (primitive_parts d ops p Hd F E) as (ts & rows & f & g & Ht & Er & Lr & Ec & Ed & Eto & S1 & S2 & Hf & _). rewrite Ed in *.
  pose proof (isam_all d ops Hd F) as G. rewrite Forall_forall in G, I. apply Forall_forall. intros m Hm.
  destruct (H m Hm) as (_ & op & t & Ho & Et & Cm). destruct (G op Ho) as (h & s & Eop). pose proof (I op Ho) as Io. pose proof Ho as Ho'. rewrite Eop in Et, Io. rewrite Eto, image_am in Et by auto. injection Et as <-.
  assert (Ih : forall i j, i < d -> j < d -> isint (h i j)). { intros i j Hi Hj. specialize (Io i j Hi Hj). cbn [am lin] in Io. rewrite mk_ent in Io by auto. exact Io. }
  destruct Cm as (_ & _ & El & _). intros i j Hi Hj. rewrite El. cbn [am lin]. rewrite mk_ent by auto.
  assert (IC := fun x => integral_coordinates d rows f g x B S1 S2 Hf).
  (* integer vectors and translations of the lattice *)
  assert (IZ : forall x, (forall k, k < d -> isint (x k)) -> forall k, k < d -> isint (lapp d g x k)).
  { intros x Hx. apply IC. apply Hl. assert (C : exists zs : list Z, forall k, k < d -> x k = ZQ (nth k zs 0%Z)).
    { clear - Hx. induction d as [|d IH]; [exists []; intros; lia|]. destruct IH as (zs & Q); [intros; apply Hx; lia|]. destruct (Hx d) as [z Ez]; [lia|].
      exists (map (fun k => if k =? d then z else nth k zs 0%Z) (seq 0 (S d))). intros k Hk. rewrite nth_map_seq by auto. destruct (Nat.eqb_spec k d) as [->|N]; auto. apply Q. lia. }
    destruct C as (zs & Hz). exists zs, [], (origin d). splits.
    - intros v [].
    - exists []. split; auto.
    - unfold plus, integer_vector, origin, from_coordinates. apply map_ext_in. intros k Hk. apply in_seq in Hk. unfold coordinate. rewrite !nth_map_seq by lia. rewrite Hz by lia. ring. }
  assert (IT : forall v, translation_by d ops v -> forall k, k < d -> isint (lapp d g (vget v) k)).
  { intros v Tv. pose proof (translation_point d ops v Hd ltac:(apply Forall_forall; auto) Tv) as Pv. apply IC. apply Hl. exists [], [v], v. splits.
    - intros w [<-|[]]; auto.
    - exists [1%Z]. split; auto. apply (ext_lt d); [exact Pv|apply from_length|]. intros k Hk. unfold combination. rewrite from_get by auto. cbn [map combine fold_right fst snd]. unfold coordinate. change (ZQ 1) with 1%Qc. ring.
    - apply (ext_lt d); [apply from_length|apply from_length|]. intros k Hk. unfold plus, integer_vector. rewrite !from_get by auto. unfold coordinate. rewrite from_get by auto. destruct k; cbn [nth]; change (ZQ 0) with 0%Qc; unfold vget; cbn [r0 Qc_dom]; ring. }
  (* the operator keeps the lattice *)
  assert (Keep : forall y, translation_lattice d ops y -> forall k, k < d -> isint (lapp d g (lapp d h (vget y)) k)).
  { intros y (z & vs & w & Hv & Hw & ->). assert (Lv : lens d vs) by (apply (lens_translations d ops); auto; apply Forall_forall; auto).
    assert (K2 : forall k, k < d -> isint (lapp d g (lapp d h (vget w)) k)).
    { apply in_lattice_zcomb in Hw; auto. revert w Hw. apply (zcomb_ind d vs (fun w => forall k, k < d -> isint (lapp d g (lapp d h (vget w)) k)) Lv).
      - intros k Hk. apply IZ; auto. intros l Hl'. apply lapp_int; auto. intros n Hn. exists 0%Z. exact (lget_zero d n).
      - intros v c x Iv Zx IHx k Hk. destruct (conjugate d ops op v Hd F Gr Ho' (I op Ho') (Hv v Iv)) as (h' & s' & w & Eo & Tw & Iw).
        rewrite Eop in Eo. apply am_inj in Eo as [Eh _].
        assert (Lx : length x = d) by (eapply zcomb_length; eauto). pose proof (lens_In _ _ _ Lv Iv) as Lvv.
        rewrite (lapp_ext d g g _ (fun l => (ZQ c * (lapp d h (vget v) l - vget w l) + (ZQ c * vget w l + lapp d h (vget x) l))%Qc)).
        + rewrite lapp_plus, lapp_plus, !lapp_times. repeat apply isint_add; try (apply isint_mul; [exists c; auto|]).
          * apply IZ; auto. intros l Hl'. replace (lapp d h (vget v) l) with (lapp d h' (vget v) l) by (apply lapp_ext; auto; intros; symmetry; apply Eh; auto). auto.
          * apply IT; auto.
          * apply IHx; auto.
        + auto.
        + intros l Hl'. rewrite (lapp_ext d h h _ (fun n => ZQ c * vget v n + vget x n)%Qc); auto.
          * rewrite lapp_plus, lapp_times. ring.
          * intros n Hn. unfold vget. etransitivity; [exact (lget_add d (lmulc v (ZQ c)) x n ltac:(rewrite lmulc_length; auto) Lx)|].
            pose proof (lget_mulc v (ZQ c) n) as Q. cbn beta in Q |- *. rewrite Q. cbn [r0 Qc_dom]. ring. }
    intros k Hk. rewrite (lapp_ext d g g _ (fun l => lapp d h (vget (integer_vector d z)) l + lapp d h (vget w) l)%Qc); auto.
    - rewrite lapp_plus. apply isint_add; auto. apply IZ; auto. intros l Hl'. apply lapp_int; auto. intros n Hn. unfold vget, integer_vector. exists (nth n z 0%Z). apply (from_get d); auto.
    - intros l Hl'. rewrite <- lapp_plus. apply lapp_ext; auto. intros n Hn. unfold vget, plus. etransitivity; [apply (from_get d); auto|]. reflexivity. }
  (* the column is the image of a cell vector *)
  assert (Lj : in_lattice d rows (nth j rows [])).
  { destruct B as [Bp Bl _]. apply in_lattice_zcomb; auto. apply zcomb_In; auto. apply nth_In. lia. }
  apply Hl in Lj. pose proof (Keep _ Lj i Hi) as K.
  replace (lmul d g (lmul d h f) i j) with (lapp d g (lapp d h (vget (nth j rows []))) i); [exact K|].
  unfold lmul at 1. unfold lapp at 1. apply sumf_ext. intros k Hk. f_equal. unfold lapp, lmul. apply sumf_ext. intros l Hl'. rewrite Hf by auto. reflexivity.
Qed.
Print Assumptions C57_integral.

(** ... in particular for what generate returns for unimodular generators. *)
Theorem C57_generated d fuel gens ops p : 0 < d -> gens <> [] -> Forall (unimodular d) gens -> generate fuel gens = Ret ops -> primitive_new ops = Ret p ->
  Forall (integral d) (p_ops p).
Proof.
  intros Hd Ne U E Ep. assert (F : Forall (affine_map d) gens) by (revert U; apply Forall_impl; intros a Ha; apply Ha).
  destruct (C48_generate d fuel gens ops Hd Ne F E) as (_ & _ & H & _).
  apply (C57_integral d ops p Hd); auto.
  - apply Forall_forall. intros a Ha. apply (H a Ha).
  - exact (C48_group d fuel gens ops Hd Ne U E).
  - apply Forall_forall. intros a Ha i j Hi Hj. destruct (H a Ha) as (_ & _ & w & Hw & Cw). apply product_word in Hw.
    assert (HI : Forall (int_inv d) gens) by (revert U; apply Forall_impl; intros b Hb; apply unimodular_inv; auto).
    destruct (word_int_inv d gens Hd HI w Hw) as [(f & s & -> & Hf) _]. destruct Cw as (_ & _ & -> & _). cbn [am lin]. rewrite mk_ent by auto. apply Hf; auto.
Qed.
Print Assumptions C57_generated.

(** It returns a value exactly if there is a translation other than 0, and the least common denominator of the translations and their
    scaled entries are in the range of i32; otherwise it panics. *)
Theorem C57_when_it_returns d ops ts c : 0 < d -> ops <> [] -> Forall (affine_map d) ops ->
  (forall v, In v ts <-> translation_by d ops v /\ v <> origin d) -> least_denominator ts c ->
  ((exists p, primitive_new ops = Ret p) <->
   ts <> [] /\ fits_i32 c /\ forall v x z, In v ts -> In x v -> (x * ZQ c = ZQ z)%Qc -> fits_i32 z) /\
  primitive_new ops <> Timeout.
Proof.
  intros Hd Ne F Ht (Hc & Hi & Hm). pose proof (isam_all d ops Hd F) as G. set (ts' := translations (mk d d delta) (cv d (fun _ => 0%Qc)) ops).
  assert (Same : forall v, In v ts <-> In v ts') by (intros v; rewrite Ht; symmetry; apply translations_spec; auto).
  assert (Lt : lens d ts') by (apply (lens_translations d ops); auto; intros v Hv; apply Same, Ht in Hv; apply Hv).
  assert (LD : least_denominator ts' c). { unfold least_denominator. splits; auto; [intros v x Hv Hx; apply (Hi v x); auto; apply Same; auto|]. intros c' Hc' H. apply Hm; auto. intros v x Hv Hx. apply (H v x); auto. apply Same; auto. }
  destruct (C43_when_it_returns d ts' c Lt LD) as [W NT].
  assert (W' : (exists bs, rational_lattice_basis ts' = Ret bs) <-> ts <> [] /\ fits_i32 c /\ forall v x z, In v ts -> In x v -> (x * ZQ c = ZQ z)%Qc -> fits_i32 z).
  { rewrite W. split; intros (H1 & H2 & H3); splits; auto.
    - intros ->. destruct ts' as [|v l]; [congruence|]. apply (Same v). left. auto.
    - intros v x z Hv. apply H3. apply Same. auto.
    - intros Q. rewrite Q in Same. destruct ts as [|v l]; [congruence|]. apply (Same v). left. auto.
    - intros v x z Hv. apply H3. apply Same. auto. }
  assert (T : exists op0 l, ops = op0 :: l) by (destruct ops; [congruence|eauto]). destruct T as (op0 & l & Eo).
  assert (D0 : aff_dim op0 = d). { rewrite Forall_forall in G. destruct (G op0) as (f & s & ->); [rewrite Eo; left; auto|reflexivity]. }
  assert (P : primitive_new ops = do rows <- rational_lattice_basis ts'; do cell <- mapM vec_new rows; do to <- cmap_to_basis cell; do st <- foldM (prim_step to) ([], []) ops; Ret (Primitive cell to (snd st))).
  { unfold primitive_new. rewrite Eo at 1. cbn [nth_error unwrap bind]. rewrite D0, identity_mk by auto. cbn [bind]. rewrite vec_zero_cv. cbn [bind]. reflexivity. }
  rewrite P. rewrite <- W'. destruct (rational_lattice_basis ts') as [rows| |] eqn:Er; cbn [bind].
  2: { split; [split; intros [? Q]; discriminate Q|discriminate]. }
  2: congruence.
  destruct (C43_rational_lattice_basis d ts' rows Lt Er) as [[Bp Bl Bi] Hl]. rewrite mapM_vec_new. cbn [bind]. set (cell := map (fun r => cv (length r) (vget r)) rows).
  assert (Fc : Forall (column d) cell). { apply Forall_forall. intros x Hx. apply in_map_iff in Hx as (r & <- & Hr). rewrite Forall_forall in Bp. rewrite (Bp r Hr). apply column_cv. eauto. }
  assert (Lc : length cell = d) by (unfold cell; rewrite map_length; auto).
  assert (Tot : exists to, cmap_to_basis cell = Ret to).
  { destruct (hstack_columns d cell Hd Lc Fc) as (f & Eh & Hf). unfold cmap_to_basis, cmap_from_basis. rewrite Eh. cbn [bind]. rewrite aff_from_am. cbn [bind].
    destruct (inverse_am d f (fun _ => r0) Hd) as [(g & t & Ei & _)|(Ei & S)]; unfold cmap_new; rewrite Ei; cbn [bind unwrap omap]; [eauto|]. exfalso. apply S.
    assert (U : forall k, k < d -> exists u : nat -> Qc, forall i, i < d -> lapp d f u i = delta i k).
    { intros k Hk. assert (L : in_lattice d rows (integer_vector d (map (fun i => if k =? i then 1%Z else 0%Z) (seq 0 d)))).
      { apply Hl. exists (map (fun i => if k =? i then 1%Z else 0%Z) (seq 0 d)), (origin d). split.
        - apply in_lattice_zcomb; auto. rewrite origin_zero. apply zcomb_0. auto.
        - apply (ext_lt d); [apply from_length|apply from_length|]. intros i Hi'. unfold plus. rewrite from_get by auto. unfold coordinate, origin. rewrite from_get by auto. cbn beta. ring. }
      apply in_lattice_zcomb in L; auto. destruct L as (zs & Lz & Ez). exists (vget (map ZQ zs)). intros i Hi'.
      apply (f_equal (fun l => vget l i)) in Ez. rewrite (SymFront.vget_lincomb d _ rows i Bp) in Ez by (rewrite map_length; congruence). rewrite Bl in Ez.
      transitivity (vget (integer_vector d (map (fun i => if k =? i then 1%Z else 0%Z) (seq 0 d))) i).
      - rewrite Ez. unfold lapp. apply sumf_ext. intros l' Hl'. assert (El : nth_error cell l' = Some (cv (length (nth l' rows [])) (vget (nth l' rows [])))).
        { unfold cell. rewrite nth_error_map. rewrite (nth_error_nth' rows []) by (rewrite Bl; auto). reflexivity. }
        pose proof (Hf l' _ El) as Q. rewrite (lens_In d rows (nth l' rows []) Bp) in Q by (apply nth_In; lia). rewrite <- (cv_inj d _ _ Q i Hi'). cbn [rmul Qc_dom]. ring.
      - unfold vget, integer_vector. etransitivity; [apply (from_get d); auto|]. rewrite nth_map_seq by auto. unfold delta. destruct (k =? i); reflexivity. }
    destruct (choose_list d Hd (fun k u => forall i, i < d -> lapp d f u i = delta i k) d U) as (us & Lu & Hu).
    exists (fun i k => nth k us (fun _ => 0%Qc) i). intros i k Hi' Hk. apply (Hu k); auto. rewrite (nth_error_nth' us (fun _ => 0%Qc)) by lia. reflexivity. }
  destruct Tot as (to & Et). rewrite Et. cbn [bind].
  destruct (prim_fold d to ops Hd) as (seen & res & -> & _); auto; [apply built_good; auto; eapply built_to_basis; eauto|]. cbn [bind]. split; [split; intros _; eauto|discriminate].
Qed.
Print Assumptions C57_when_it_returns.

(** A list of operators without translations, such as the one for a primitive cell, makes it panic. *)
Theorem C57_panics_without_translations d ops : 0 < d -> Forall (affine_map d) ops -> (forall v, translation_by d ops v -> v = origin d) -> primitive_new ops = Panic.
Proof.
  intros Hd F H. destruct ops as [|op0 l]; [reflexivity|]. set (ops := op0 :: l) in *.
  destruct (C57_when_it_returns d ops [] 1 Hd ltac:(discriminate) F) as [W T].
  - intros v. split; [intros []|intros [Tv N]; apply N; auto].
  - unfold least_denominator. splits; [lia|intros v x []|intros c' Hc' _; lia].
  - destruct (primitive_new ops) as [p| |] eqn:E; auto; [|congruence]. destruct W as [W _]. destruct (W ltac:(eauto)) as [N _]. congruence.
Qed.
Print Assumptions C57_panics_without_translations.

Example C57_example : omap (fun q => (length (p_cell q), length (p_ops q))) (do ops <- generate 10 [mirror; centering]; primitive_new ops) = Ret (2, 2).
Proof. vm_compute. reflexivity. Qed.
Example C57_example_none : primitive_new [mirror] = Panic.
Proof. vm_compute. reflexivity. Qed.
