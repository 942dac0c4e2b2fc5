(** Properties C79-C81: the small operators of src/arithmetic/matrices.rs and
    src/arithmetic/geometry.rs.  [is_mat m r c f] (MatrixMore.v): [m] stores, row
    by row, the entries [f i j] of an r x c matrix.  [column n v]
    (Props_Geometry.v): [v] is a well-formed n x 1 matrix, the representation of
    a vector or a point.  [vec_add], [vec_sub] are + and - of a vector to a
    vector or a point, [point_sub] is the difference of two points. *)
From Coq Require Import List ZArith QArith Qcanon Lia Bool PeanoNat Ring Field.
From Verif Require Import Base QcTac Vec Elim Matrix MatrixMore Scalars LinAlg Shapes ZQ Geometry GeomMC VecOps
  Basics Generate Props_Geometry.
From Verif Require Props_Det.
Import ListNotations.
Close Scope Q_scope. Close Scope Qc_scope.
Open Scope nat_scope.

(** ** C79: vectors and points *)
Lemma Ret_inv {A} (a b : A) : Ret a = Ret b -> a = b. Proof. congruence. Qed.

(** the component [i] of a column *)
Definition comp (v : mat Qc) (i : nat) : Qc := nth i (data v) 0%Qc.

Lemma comp_cv n v i : i < n -> comp (cv n v) i = v i.
Proof. intros H. unfold comp. rewrite cv_data. rewrite (nth_indep _ _ (v 0)) by (rewrite map_length, seq_length; auto).
  rewrite map_nth, seq_nth by auto. reflexivity. Qed.

Lemma vec_add_cv n u v : vec_add (cv n u) (cv n v) = Ret (cv n (fun i => u i + v i)%Qc).
Proof. unfold vec_add, vdim. cbn [nrows cv mk]. rewrite Nat.eqb_refl. cbn [assert bind]. unfold cv, mat_add. rewrite mat_zip_mk. reflexivity. Qed.
Lemma vec_sub_cv n u v : vec_sub (cv n u) (cv n v) = Ret (cv n (fun i => u i - v i)%Qc).
Proof. unfold vec_sub, vdim. cbn [nrows cv mk]. rewrite Nat.eqb_refl. cbn [assert bind]. unfold cv, mat_sub. rewrite mat_zip_mk. reflexivity. Qed.
Lemma point_sub_cv n u v : point_sub (cv n u) (cv n v) = Ret (cv n (fun i => u i - v i)%Qc).
Proof. unfold point_sub. unfold cv at 1 2. unfold mat_sub. rewrite mat_zip_mk. cbn [bind]. apply (vec_new_data n (fun i => u i - v i)%Qc). Qed.
Lemma vec_neg_cv n u : vec_neg (cv n u) = Ret (cv n (fun i => - u i)%Qc).
Proof. unfold vec_neg, cv. rewrite mat_neg_mk by lia. reflexivity. Qed.
Lemma vec_scale_cv n u x : vec_scale (cv n u) x = Ret (cv n (fun i => u i * x)%Qc).
Proof. unfold vec_scale, cv. rewrite mat_scale_mk. reflexivity. Qed.
Lemma div_q_ok x y : y <> 0%Qc -> div_q x y = Ret (x / y)%Qc.
Proof. intros H. unfold div_q. destruct (Qc_eq_bool y 0) eqn:E; auto. apply Qc_eq_bool_correct in E. contradiction. Qed.
Lemma mat_div_mk r c f x : x <> 0%Qc -> mat_div div_q (mk r c f) x = Ret (mk r c (fun i j => f i j / x)%Qc).
Proof.
  intros H. unfold mat_div. rewrite (mapM_Ret _ (fun y => y / x)%Qc) by (intros; apply div_q_ok; auto). cbn [bind]. f_equal.
  cbn [nrows ncols mk]. apply (map_data_mk r c f (fun y => y / x)%Qc).
Qed.
Lemma vec_div_cv n u x : x <> 0%Qc -> vec_div div_q (cv n u) x = Ret (cv n (fun i => u i / x)%Qc).
Proof. intros H. unfold vec_div, cv. apply mat_div_mk; auto. Qed.
Lemma vec_mod_z_cv n u : vec_mod_z (cv n u) = Ret (cv n (fun i => q_rem1 (u i))).
Proof. unfold vec_mod_z. rewrite cv_data, map_map, <- (cv_data n (fun i => q_rem1 (u i))). apply vec_new_data. Qed.

Lemma rem1_idem x : q_rem1 (q_rem1 x) = q_rem1 x.
Proof.
  destruct (Generate.q_rem1_int (q_rem1 x)) as [z Ez].
  assert (H : (-(1) < ZQ z)%Qc /\ (ZQ z < 1)%Qc).
  { rewrite <- Ez. destruct (Qclt_le_dec x 0) as [H|H].
    - destruct (Generate.q_rem1_neg x) as [A B]; [apply Qclt_le_weak; auto|]. destruct (Generate.q_rem1_neg (q_rem1 x) B) as [C D].
      generalize dependent (q_rem1 (q_rem1 x)). generalize dependent (q_rem1 x). intros. split; qclra.
    - destruct (Generate.q_rem1_pos x H) as [A B]. destruct (Generate.q_rem1_pos (q_rem1 x) A) as [C D].
      generalize dependent (q_rem1 (q_rem1 x)). generalize dependent (q_rem1 x). intros. split; qclra. }
  assert (z = 0%Z) as ->.
  { destruct H as [H1 H2]. change 1%Qc with (ZQ 1) in H1, H2. rewrite <- ZQ_opp in H1. apply (proj1 (ZQ_lt _ _)) in H1. apply (proj1 (ZQ_lt _ _)) in H2. lia. }
  change (ZQ 0) with 0%Qc in Ez. transitivity (q_rem1 (q_rem1 x) - q_rem1 x + q_rem1 x)%Qc; [ring|]. rewrite Ez. ring.
Qed.

Ltac cols := repeat match goal with H : column _ _ |- _ => apply column_cv in H as [? ->] end.
Ltac col_ok := apply column_cv; eexists; reflexivity.

(** the operators work component by component *)
Theorem C79_components : forall n u v x, column n u -> column n v ->
  (exists w, vec_add u v = Ret w /\ column n w /\ forall i, i < n -> comp w i = (comp u i + comp v i)%Qc) /\
  (exists w, vec_sub u v = Ret w /\ column n w /\ forall i, i < n -> comp w i = (comp u i - comp v i)%Qc) /\
  (exists w, point_sub u v = Ret w /\ column n w /\ forall i, i < n -> comp w i = (comp u i - comp v i)%Qc) /\
  (exists w, vec_neg u = Ret w /\ column n w /\ forall i, i < n -> comp w i = (- comp u i)%Qc) /\
  (exists w, vec_scale u x = Ret w /\ column n w /\ forall i, i < n -> comp w i = (comp u i * x)%Qc) /\
  (x <> 0%Qc -> exists w, vec_div div_q u x = Ret w /\ column n w /\ forall i, i < n -> comp w i = (comp u i / x)%Qc).
Proof.
  intros n u v x Hu Hv. cols. rename x1 into u, x0 into v.
  rewrite vec_add_cv, vec_sub_cv, point_sub_cv, vec_neg_cv, vec_scale_cv. splits; try (intros Hx; rewrite vec_div_cv by auto);
    eexists; (splits; [reflexivity|col_ok|]); intros i Hi; rewrite !comp_cv by auto; reflexivity.
Qed.
Print Assumptions C79_components.

(** vectors act on points as translations *)
Theorem C79_affine_space : forall n p q u v, column n p -> column n q -> column n u -> column n v ->
  (exists d, point_sub q p = Ret d /\ vec_add p d = Ret q) /\
  (exists r, vec_add p u = Ret r /\ vec_sub r u = Ret p /\ point_sub r p = Ret u) /\
  (exists pu uv r, vec_add p u = Ret pu /\ vec_add u v = Ret uv /\ vec_add pu v = Ret r /\ vec_add p uv = Ret r) /\
  (exists z, vec_zero n = Ret z /\ vec_add p z = Ret p /\ point_sub p p = Ret z) /\
  (exists nu r, vec_neg u = Ret nu /\ vec_sub p u = Ret r /\ vec_add p nu = Ret r) /\
  (exists w, vec_add u v = Ret w /\ vec_add v u = Ret w).
Proof.
  intros n p q u v P Q U V. cols. rewrite ?vec_zero_cv, ?vec_add_cv, ?vec_sub_cv, ?point_sub_cv, ?vec_neg_cv.
  splits.
  - eexists; split; [reflexivity|]. rewrite vec_add_cv. f_equal. apply cv_ext. intros; ring.
  - eexists; splits; [reflexivity| |]; rewrite ?vec_sub_cv, ?point_sub_cv; f_equal; apply cv_ext; intros; ring.
  - do 3 eexists; splits; [reflexivity|reflexivity|apply vec_add_cv|]. rewrite vec_add_cv. f_equal. apply cv_ext. intros; ring.
  - eexists; splits; [reflexivity| |]; rewrite ?vec_add_cv; f_equal; apply cv_ext; intros; cbn [r0 Qc_dom]; ring.
  - do 2 eexists; splits; [reflexivity|reflexivity|]. rewrite vec_add_cv. reflexivity.
  - eexists; split; [reflexivity|]. f_equal. apply cv_ext. intros; ring.
Qed.
Print Assumptions C79_affine_space.

(** the numbers act on the vectors *)
Theorem C79_vector_space : forall n u v x y, column n u -> column n v ->
  (exists uv r xu xv, vec_add u v = Ret uv /\ vec_scale uv x = Ret r /\ vec_scale u x = Ret xu /\ vec_scale v x = Ret xv /\
     vec_add xu xv = Ret r) /\
  (exists xu yu r, vec_scale u x = Ret xu /\ vec_scale u y = Ret yu /\ vec_scale u (x + y)%Qc = Ret r /\ vec_add xu yu = Ret r) /\
  (exists xu r, vec_scale u x = Ret xu /\ vec_scale xu y = Ret r /\ vec_scale u (x * y)%Qc = Ret r) /\
  vec_scale u 1%Qc = Ret u /\
  (x <> 0%Qc -> exists xu, vec_scale u x = Ret xu /\ vec_div div_q xu x = Ret u).
Proof.
  intros n u v x y U V. cols. rewrite ?vec_add_cv, ?vec_scale_cv.
  splits.
  - do 4 eexists; splits; [reflexivity|apply vec_scale_cv|reflexivity|reflexivity|]. rewrite vec_add_cv. f_equal. apply cv_ext. intros; ring.
  - do 3 eexists; splits; [reflexivity|reflexivity|reflexivity|]. rewrite vec_add_cv. f_equal. apply cv_ext. intros; ring.
  - do 2 eexists; splits; [reflexivity|apply vec_scale_cv|]. f_equal. apply cv_ext. intros; ring.
  - f_equal. apply cv_ext. intros; ring.
  - intros Hx. eexists; split; [reflexivity|]. rewrite vec_div_cv by auto. f_equal. apply cv_ext. intros. field. auto.
Qed.
Print Assumptions C79_vector_space.

(** columns of different dimensions cannot be combined, and nothing but the
    empty vector can be divided by zero *)
Theorem C79_panics : forall n m u v, column n u -> column m v -> n <> m ->
  vec_add u v = Panic /\ vec_sub u v = Panic /\ point_sub u v = Panic /\
  (0 < n -> vec_div div_q u 0%Qc = Panic) /\
  (forall i, n <= i -> vec_at u i = Panic /\ forall x, vec_set u i x = Panic) /\
  (forall k, n <= k -> @vec_unit Qc _ n k = Panic /\ @unit_vector Qc _ n k = Panic).
Proof.
  intros n m u v U V H. cols.
  assert (E : Nat.eqb n m = false) by (apply Nat.eqb_neq; auto). splits.
  - unfold vec_add, vdim. cbn [nrows cv mk]. rewrite E. reflexivity.
  - unfold vec_sub, vdim. cbn [nrows cv mk]. rewrite E. reflexivity.
  - unfold point_sub, mat_sub, mat_zip, cv. cbn [data mk]. rewrite !mk_data_length. rewrite !Nat.mul_1_r, E. reflexivity.
  - intros Hn. unfold vec_div, mat_div. rewrite cv_data. destruct n as [|n]; [lia|]. reflexivity.
  - intros i Hi. split; [|intros y]; [apply index_mk_out; auto|apply mat_set_out; auto].
  - intros k Hk. unfold vec_unit, unit_vector. destruct (Nat.ltb_spec k n); [lia|]. auto.
Qed.
Print Assumptions C79_panics.

(** reduction modulo 1 keeps the sign: it removes a whole number and leaves
    less than one in absolute value *)
Theorem C79_mod_z : forall n u, column n u -> exists w, vec_mod_z u = Ret w /\ column n w /\ vec_mod_z w = Ret w /\
  forall i, i < n ->
    (exists z : Z, (comp u i - comp w i)%Qc = ZQ z) /\
    (0 <= comp u i -> 0 <= comp w i /\ comp w i < 1)%Qc /\ (comp u i <= 0 -> - (1) < comp w i /\ comp w i <= 0)%Qc.
Proof.
  intros n u U. cols. rename x into u. rewrite vec_mod_z_cv. eexists. splits; [reflexivity|col_ok| |].
  - rewrite vec_mod_z_cv. f_equal. apply cv_ext. intros i Hi. apply rem1_idem.
  - intros i Hi. rewrite !comp_cv by auto. splits.
    + destruct (Generate.q_rem1_int (u i)) as [z Ez]. exists (- z)%Z. rewrite ZQ_opp, <- Ez. ring.
    + apply Generate.q_rem1_pos.
    + apply Generate.q_rem1_neg.
Qed.
Print Assumptions C79_mod_z.

Example C79_case : let u := Mat 2 1 [ZQ 1; ZQ (-3)] in let v := Mat 2 1 [ZQ 2; ZQ 5] in
  column 2 u /\ column 2 v /\ vec_add u v = Ret (Mat 2 1 [ZQ 3; ZQ 2]) /\ vec_sub u v = Ret (Mat 2 1 [ZQ (-1); ZQ (-8)]) /\
  vec_mod_z (Mat 2 1 [Q2Qc (-7 # 2); Q2Qc (7 # 2)]) = Ret (Mat 2 1 [Q2Qc (-1 # 2); Q2Qc (1 # 2)]).
Proof.
  cbv zeta. splits; try qc_compute; unfold column, wfm; simpl; splits; auto; discriminate.
Qed.

(** ** C80: entries of matrices *)
Section C80.
  Context (R : Type) (RD : Dom R) (DL : DomLaws R).

  (** an assignment changes one entry and nothing else *)
  Theorem C80_assign : forall (m : mat R) r c f i j x, is_mat m r c f ->
    (i < r -> j < c -> exists m', mat_set m i j x = Ret m' /\
       is_mat m' r c (fun a b => if Nat.eqb a i && Nat.eqb b j then x else f a b)) /\
    (r <= i \/ c <= j -> mat_set m i j x = Panic).
  Proof.
    intros m r c f i j x H. rewrite (is_mat_eq _ _ _ _ H). split.
    - intros Hi Hj. rewrite mat_set_mk by auto. eexists; split; [reflexivity|apply is_mat_mk].
    - apply mat_set_out.
  Qed.

  (** reshape keeps the numbers in order *)
  Theorem C80_reshape : forall (m : mat R) nc,
    (forall m', reshape m nc = Ret m' -> wfm m' /\ ncols m' = nc /\ data m' = data m) /\
    (reshape m nc = Panic <-> data m <> [] /\ (nc = 0 \/ length (data m) mod nc <> 0)) /\
    (wfm m -> 0 < nrows m -> reshape m (ncols m) = Ret m).
  Proof.
    intros m nc. splits.
    - intros m'. apply mat_new_wf.
    - unfold reshape, mat_new. destruct (Nat.eqb_spec (length (data m)) 0) as [E|E].
      + split; [discriminate|]. intros [H _]. destruct (data m); simpl in E; [congruence|lia].
      + assert (data m <> []) by (intros Z; rewrite Z in E; auto).
        destruct (Nat.eqb_spec nc 0) as [->|Hc]; [tauto|].
        assert (D := Nat.div_mod (length (data m)) nc Hc).
        destruct (Nat.eqb_spec (length (data m)) (length (data m) / nc * nc)) as [E2|E2]; simpl.
        * split; [discriminate|]. intros [_ [?|?]]; lia.
        * split; auto. intros _. split; auto. right. lia.
    - intros [W1 W2] Hr. unfold reshape, mat_new.
      assert (data m <> []) by (intros Z; apply W2 in Z; lia).
      destruct (Nat.eqb_spec (length (data m)) 0) as [E|E]; [destruct (data m); [congruence|discriminate]|].
      assert (ncols m <> 0) by (intros Z; rewrite Z in W1; lia).
      destruct (Nat.eqb_spec (ncols m) 0); [lia|]. rewrite W1, Nat.div_mul by auto. rewrite Nat.eqb_refl. cbn [assert bind].
      destruct m; reflexivity.
  Qed.

  (** adding or subtracting a number changes every entry *)
  Theorem C80_numbers : forall (m : mat R) r c f x, is_mat m r c f ->
    (exists m', mat_add_num m x = Ret m' /\ is_mat m' r c (fun i j => radd (f i j) x)) /\
    (exists m', mat_sub_num m x = Ret m' /\ is_mat m' r c (fun i j => rsub (f i j) x)).
  Proof.
    intros m r c f x H. rewrite (is_mat_eq _ _ _ _ H). unfold mat_add_num, mat_sub_num. cbn [nrows ncols mk].
    pose proof (map_data_mk r c f (fun y => radd y x)) as E1. pose proof (map_data_mk r c f (fun y => rsub y x)) as E2.
    cbn [data mk] in E1, E2 |- *. rewrite E1, E2. split; eexists; (split; [reflexivity|apply is_mat_mk]).
  Qed.

  (** unit vectors, the identity matrix and the test for it *)
  Theorem C80_unit_vectors : forall n k, k < n ->
    (exists m, @unit_vector R _ n k = Ret m /\ is_mat m 1 n (fun _ j => if Nat.eqb j k then r1 else r0)) /\
    (exists v, @vec_unit R _ n k = Ret v /\ is_mat v n 1 (fun i _ => if Nat.eqb i k then r1 else r0)).
  Proof.
    intros n k H. split.
    - unfold unit_vector. destruct (Nat.ltb_spec k n); [|lia]. cbn [assert bind].
      replace (vunit n k) with (concat (frows 1 n (fun _ j => if Nat.eqb j k then r1 else r0))).
      { rewrite mat_new_frows by lia. eexists; split; [reflexivity|apply is_mat_mk]. }
      unfold frows. simpl. rewrite app_nil_r. apply vec_ext; [rewrite frow_length, vunit_length; auto|].
      intros i Hi. rewrite frow_length in Hi. rewrite vget_frow by auto. rewrite vget_vunit.
      destruct (Nat.eqb i k) eqn:E; auto. destruct (Nat.ltb_spec i n); auto; lia.
    - rewrite vec_unit_cv by auto. eexists; split; [reflexivity|apply is_mat_mk].
  Qed.

  Theorem C80_is_identity : forall m : mat R, wfm m -> exists b, is_identity m = Ret b /\
    (b = true <-> nrows m = ncols m /\ forall i j x, index m i j = Ret x -> x = if Nat.eqb i j then r1 else r0) /\
    (0 < nrows m -> (b = true <-> identity (nrows m) = Ret m)).
  Proof.
    intros m W. unfold is_identity. destruct (Nat.eqb_spec (nrows m) (ncols m)) as [E|E]; cbn [negb].
    2:{ exists false. splits; auto.
        - split; [discriminate|]. intros [H _]; congruence.
        - intros Hn. split; [discriminate|]. intros H. rewrite identity_mk in H by auto. apply Ret_inv in H. exfalso. apply E. rewrite <- H. reflexivity. }
    rewrite (mapM_Ret _ (fun ij => if Nat.eqb (snd ij) (fst ij) then reqb (ent m (fst ij) (snd ij)) r1 else reqb (ent m (fst ij) (snd ij)) r0)).
    2:{ intros [i j] H. apply in_prod_iff in H as [H1 H2]. apply in_seq in H1, H2. cbn [fst snd]. rewrite index_wf by (auto; lia). reflexivity. }
    cbn [omap bind]. eexists. split; [reflexivity|].
    assert (A : forallb id (map (fun ij => if Nat.eqb (snd ij) (fst ij) then reqb (ent m (fst ij) (snd ij)) r1 else reqb (ent m (fst ij) (snd ij)) r0)
        (list_prod (seq 0 (nrows m)) (seq 0 (ncols m)))) = true <->
        forall i j, i < nrows m -> j < ncols m -> ent m i j = if Nat.eqb i j then r1 else r0).
    { rewrite forallb_forall. split.
      - intros H i j Hi Hj. specialize (H (if Nat.eqb j i then reqb (ent m i j) r1 else reqb (ent m i j) r0)). unfold id in H.
        assert (In (if Nat.eqb j i then reqb (ent m i j) r1 else reqb (ent m i j) r0)
          (map (fun ij => if Nat.eqb (snd ij) (fst ij) then reqb (ent m (fst ij) (snd ij)) r1 else reqb (ent m (fst ij) (snd ij)) r0)
            (list_prod (seq 0 (nrows m)) (seq 0 (ncols m))))).
        { apply in_map_iff. exists (i, j). split; auto. apply in_prod_iff. split; apply in_seq; lia. }
        apply H in H0. rewrite (Nat.eqb_sym i j). destruct (Nat.eqb j i); apply r_eqb; auto.
      - intros H b Hb. apply in_map_iff in Hb as ([i j] & <- & Hb). apply in_prod_iff in Hb as [H1 H2]. apply in_seq in H1, H2. cbn [fst snd].
        unfold id. rewrite (H i j) by lia. rewrite (Nat.eqb_sym i j). destruct (Nat.eqb j i); apply r_eqb; auto. }
    assert (B : (forall i j, i < nrows m -> j < ncols m -> ent m i j = if Nat.eqb i j then r1 else r0) <->
        forall i j x, index m i j = Ret x -> x = if Nat.eqb i j then r1 else r0).
    { split.
      - intros H i j x Hx. destruct (Nat.lt_ge_cases j (ncols m)) as [Hj|Hj].
        + destruct (Nat.lt_ge_cases i (nrows m)) as [Hi|Hi].
          * rewrite index_wf in Hx by auto. apply Ret_inv in Hx. subst x. auto.
          * rewrite (wfm_eq_mk m W), index_mk_out in Hx; [discriminate|lia|auto].
        + unfold index in Hx. destruct (Nat.ltb _ _); cbn [assert bind] in Hx; [|discriminate].
          destruct (Nat.ltb_spec j (ncols m)); [lia|]. discriminate.
      - intros H i j Hi Hj. apply H. apply index_wf; auto. }
    split; [rewrite A, B; tauto|]. intros Hn. rewrite A. rewrite identity_mk by auto. split.
    - intros H. f_equal. transitivity (mk (nrows m) (ncols m) (ent m)); [|symmetry; apply wfm_eq_mk; auto]. rewrite <- E. apply mk_ext. intros i j Hi Hj. rewrite H by lia.
      unfold delta. rewrite (Nat.eqb_sym j i). reflexivity.
    - intros H i j Hi Hj. apply Ret_inv in H. transitivity (ent (mk (nrows m) (nrows m) (@delta R RD)) i j); [congruence|]. rewrite mk_ent by lia. unfold delta. rewrite (Nat.eqb_sym j i). reflexivity.
  Qed.

  (** the loops of the code that assign entry after entry give the matrices
      that the other definitions of the model describe directly *)
  Theorem C80_loops :
    (forall n, @identity_loop R _ n = identity n) /\
    (forall n k, @unit_vector_loop R _ n k = unit_vector n k) /\
    (forall n k, @vec_unit_loop R _ n k = vec_unit n k) /\
    (forall a b : mat R, wfm a -> wfm b -> mat_mul_loop a b = mat_mul a b).
  Proof.
    splits.
    - intros n. destruct n as [|n]; [reflexivity|]. unfold identity_loop. rewrite mat_zero_mk by lia. cbn [bind].
      rewrite identity_mk by lia.
      assert (H : forall k, k <= S n -> foldM (fun id i => mat_set id i i r1) (mk (S n) (S n) (fun _ _ => r0)) (seq 0 k) =
          Ret (mk (S n) (S n) (fun a b => if Nat.eqb a b && Nat.ltb a k then r1 else r0))).
      { induction k as [|k IH]; intros Hk.
        - cbn [seq foldM]. f_equal. apply mk_ext. intros a b _ _. destruct (Nat.eqb a b); reflexivity.
        - rewrite seq_S, foldM_app, IH by lia. cbn [bind foldM Nat.add]. rewrite mat_set_mk by lia. cbn [bind]. f_equal. apply mk_ext.
          intros a b _ _. destruct (Nat.eqb_spec a k) as [->|Na], (Nat.eqb_spec b k) as [->|Nb]; cbn [andb].
          + rewrite Nat.eqb_refl. destruct (Nat.ltb_spec k (S k)); auto; lia.
          + destruct (Nat.eqb_spec k b); [lia|]. reflexivity.
          + destruct (Nat.eqb_spec a k); [lia|]. reflexivity.
          + destruct (Nat.eqb_spec a b); cbn [andb]; auto. destruct (Nat.ltb_spec a k), (Nat.ltb_spec a (S k)); auto; lia. }
      rewrite H by lia. f_equal. apply mk_ext. intros a b Ha _. destruct (Nat.ltb_spec a (S n)); [|lia]. rewrite andb_true_r. unfold delta. rewrite (Nat.eqb_sym b a). reflexivity.
    - intros n k. unfold unit_vector_loop. destruct (Nat.ltb_spec k n) as [H|H].
      + destruct (C80_unit_vectors n k H) as [(m & Em & Im) _]. rewrite Em. cbn [assert bind]. rewrite mat_zero_mk by lia. cbn [bind].
        rewrite mat_set_mk by lia. f_equal. rewrite (is_mat_eq _ _ _ _ Im). apply mk_ext. intros a b Ha _.
        destruct (Nat.eqb_spec a 0); [|lia]. reflexivity.
      + unfold unit_vector. destruct (Nat.ltb_spec k n); [lia|]. reflexivity.
    - intros n k. unfold vec_unit_loop. destruct (Nat.ltb_spec k n) as [H|H].
      + rewrite vec_unit_cv by auto. cbn [assert bind]. rewrite vec_zero_cv. cbn [bind]. unfold vec_set, cv.
        rewrite mat_set_mk by lia. f_equal. apply mk_ext. intros a b _ Hb. destruct (Nat.eqb_spec b 0); [|lia]. rewrite andb_true_r. reflexivity.
      + unfold vec_unit. destruct (Nat.ltb_spec k n); [lia|]. reflexivity.
    - intros a b Wa Wb. unfold mat_mul_loop, mat_mul. destruct (Nat.eqb_spec (ncols a) (nrows b)) as [E|E]; [|reflexivity].
      cbn [assert bind]. destruct (Nat.eq_dec (ncols b) 0) as [Z|Z].
      + rewrite Z. cbn [seq]. unfold mat_zero. rewrite Nat.mul_0_r. cbn [repeat]. unfold mat_new at 1. cbn [length Nat.eqb bind].
        rewrite (mapM_Ret _ (fun _ => [])) by reflexivity. cbn [bind].
        replace (concat (map (fun _ : nat => @nil R) (seq 0 (nrows a)))) with (@nil R) by (generalize (seq 0 (nrows a)); induction l; auto).
        unfold mat_new. cbn [length Nat.eqb]. generalize (seq 0 (nrows a)). induction l; cbn [foldM bind]; auto.
      + rewrite mat_zero_mk by lia. cbn [bind].
        destruct (wf_mk a (nrows a) (ncols a) Wa eq_refl eq_refl) as [f Ef]. destruct (wf_mk b (ncols a) (ncols b) Wb (eq_sym E) eq_refl) as [g Eg].
        assert (HE : forall i j, i < nrows a -> j < ncols b -> mul_entry a b i j = Ret (sumf (ncols a) (fun k => rmul (f i k) (g k j)))).
        { intros i j Hi Hj. rewrite Ef, Eg. cbn [ncols mk nrows]. apply mul_entry_mk; auto. }
        rewrite (foldM_ext _ (fun m i => foldM (fun m j => mat_set m i j (sumf (ncols a) (fun k => rmul (f i k) (g k j)))) m (seq 0 (ncols b)))).
        2:{ intros s i Hi. apply in_seq in Hi. apply foldM_ext. intros s' j Hj. apply in_seq in Hj. rewrite HE by lia. reflexivity. }
        rewrite (fill_all (nrows a) (ncols b) _ (fun i j => sumf (ncols a) (fun k => rmul (f i k) (g k j)))) by lia.
        rewrite (mapM_Ret _ (fun i => map (fun j => sumf (ncols a) (fun k => rmul (f i k) (g k j))) (seq 0 (ncols b)))).
        2:{ intros i Hi. apply in_seq in Hi. apply mapM_Ret. intros j Hj. apply in_seq in Hj. apply HE; lia. }
        cbn [bind]. fold (frows (nrows a) (ncols b) (fun i j => sumf (ncols a) (fun k => rmul (f i k) (g k j)))).
        transitivity (Ret (mk (nrows a) (ncols b) (fun i j => sumf (ncols a) (fun k => rmul (f i k) (g k j))))).
        2:{ symmetry. apply (mat_new_frows (ncols b) (nrows a) (fun i j => sumf (ncols a) (fun k => rmul (f i k) (g k j)))). lia. }
        f_equal. apply mk_ext. intros i j Hi _. destruct (Nat.ltb_spec i (nrows a)); auto; lia.
  Qed.
End C80.
Print Assumptions C80_assign.
Print Assumptions C80_reshape.
Print Assumptions C80_numbers.
Print Assumptions C80_unit_vectors.
Print Assumptions C80_is_identity.
Print Assumptions C80_loops.

(** division of every entry; integers are rounded towards zero *)
Theorem C80_division :
  (forall (m : mat Qc) r c f x, is_mat m r c f -> x <> 0%Qc ->
     exists m', mat_div div_q m x = Ret m' /\ is_mat m' r c (fun i j => f i j / x)%Qc) /\
  (forall (m : mat Z) r c f x, is_mat m r c f -> x <> 0%Z ->
     exists m' g, mat_div div_z m x = Ret m' /\ is_mat m' r c g /\
       forall i j, i < r -> j < c ->
         (Z.abs (g i j * x) <= Z.abs (f i j) /\ Z.abs (f i j - g i j * x) < Z.abs x /\ 0 <= (f i j - g i j * x) * f i j)%Z) /\
  (forall (m : mat Qc) (m' : mat Z), data m <> [] -> data m' <> [] ->
     mat_div div_q m 0%Qc = Panic /\ mat_div div_z m' 0%Z = Panic).
Proof.
  splits.
  - intros m r c f x H Hx. rewrite (is_mat_eq _ _ _ _ H), mat_div_mk by auto. eexists; split; [reflexivity|apply is_mat_mk].
  - intros m r c f x H Hx. rewrite (is_mat_eq _ _ _ _ H). exists (mk r c (fun i j => Z.quot (f i j) x)), (fun i j => Z.quot (f i j) x).
    splits.
    + unfold mat_div. rewrite (mapM_Ret _ (fun y => Z.quot y x)).
      2:{ intros y _. unfold div_z. destruct (Z.eqb_spec x 0); auto; lia. }
      cbn [bind nrows ncols mk]. f_equal. apply (map_data_mk r c f (fun y => Z.quot y x)).
    + apply is_mat_mk.
    + intros i j _ _. pose proof (Z.quot_rem' (f i j) x) as E. pose proof (Z.rem_bound_abs (f i j) x Hx) as B.
      pose proof (Z.rem_sign_mul (f i j) x Hx) as S. replace (f i j - f i j ÷ x * x)%Z with (Z.rem (f i j) x) by lia. splits; auto.
      set (q := (f i j ÷ x * x)%Z) in *. assert (f i j = q + Z.rem (f i j) x)%Z by (unfold q; lia).
      assert (Q : (0 <= q * f i j)%Z).
      { unfold q. clear - Hx. generalize (f i j). intros a.
        pose proof (Z.quot_rem' a x) as E. pose proof (Z.rem_bound_abs a x Hx) as B. pose proof (Z.rem_sign_mul a x Hx) as S.
        set (p := (x * (a ÷ x))%Z) in *. replace (a ÷ x * x)%Z with p by (unfold p; ring).
        destruct (Z.eq_dec (a ÷ x) 0) as [Z0|Z0]. { assert (p = 0%Z) by (unfold p; rewrite Z0; ring). nia. }
        assert (Z.abs x <= Z.abs p)%Z by (unfold p; rewrite Z.abs_mul; nia). nia. }
      assert (Q0 : f i j = 0%Z -> q = 0%Z) by (unfold q; intros ->; rewrite Z.quot_0_l by auto; reflexivity).
      clearbody q. generalize dependent (Z.rem (f i j) x). generalize dependent (f i j). clear. intros a Q Q0 t _ _ S E.
      destruct (Z.lt_trichotomy a 0) as [A|[A|A]]; [|rewrite Q0 by auto; lia|].
      - assert (t <= 0)%Z by nia. assert (q <= 0)%Z by nia. lia.
      - assert (0 <= t)%Z by nia. assert (0 <= q)%Z by nia. lia.
  - intros m m' H H'. unfold mat_div. split.
    + destruct (data m) as [|a l]; [congruence|]. reflexivity.
    + destruct (data m') as [|a l]; [congruence|]. reflexivity.
Qed.
Print Assumptions C80_division.

Example C80_case : let m := Mat 2 2 [1; 2; 3; 4]%Z in
  is_mat m 2 2 (fun i j => (2 * Z.of_nat i + Z.of_nat j + 1)%Z) /\
  mat_set m 1 0 (-5)%Z = Ret (Mat 2 2 [1; 2; -5; 4]%Z) /\
  mat_add_num m 3%Z = Ret (Mat 2 2 [4; 5; 6; 7]%Z) /\ mat_div div_z (Mat 2 2 [4; 5; -6; -7]%Z) 2%Z = Ret (Mat 2 2 [2; 2; -3; -3]%Z) /\
  @unit_vector Z _ 5 2 = Ret (Mat 1 5 [0; 0; 1; 0; 0]%Z) /\ is_identity m = Ret false /\ is_identity (Mat 2 2 [1; 0; 0; 1]%Z) = Ret true.
Proof.
  cbv zeta. splits; try reflexivity. unfold is_mat. simpl. splits; auto.
  intros [|[|i]] [|[|j]] Hi Hj; try lia; reflexivity.
Qed.

(** ** C81: tests and constants of geometry.rs *)

(** is_identity holds for the maps that fix every point, and for no others *)
Theorem C81_is_identity : forall n a, 0 < n -> affine_map n a -> exists b, aff_is_identity a = Ret b /\
  (b = true <-> forall p, column n p -> aff_point a p = Ret p) /\ (b = true <-> aff_identity n = Ret a).
Proof.
  intros n a Hn A. pose proof A as (W & H1 & H2 & _). destruct (C80_is_identity Qc _ _ (lin a) W) as (b & Eb & _ & Hb).
  rewrite H1 in Hb. specialize (Hb Hn). apply (proj1 (affine_am _ _ Hn)) in A as (f & s & ->). unfold aff_is_identity. rewrite Eb. cbn [bind].
  eexists. split; [reflexivity|]. rewrite identity_mk in Hb by auto. rewrite aff_identity_am by auto.
  assert (S0 : forallb (fun x : Qc => reqb x r0) (data (shift (am n f s))) = true <-> forall i, i < n -> s i = 0%Qc).
  { unfold am. cbn [shift]. rewrite cv_data, forallb_forall. split.
    - intros H i Hi. apply (proj1 (r_eqb (s i) 0%Qc)). apply H. apply in_map. apply in_seq. lia.
    - intros H x Hx. apply in_map_iff in Hx as (i & <- & Hi). apply in_seq in Hi. apply r_eqb. apply H. lia. }
  assert (L0 : b = true <-> forall i j, i < n -> j < n -> f i j = delta i j).
  { rewrite Hb. unfold am. cbn [lin]. split.
    - intros H. apply Ret_inv in H. intros i j Hi Hj. symmetry. apply (mk_inj _ _ _ _ H); auto.
    - intros H. f_equal. apply mk_ext. intros. symmetry. auto. }
  rewrite andb_true_iff, S0, L0. split; split.
  - intros [L S] p P. cols. rewrite aff_point_am. f_equal. apply cv_ext. intros i Hi.
    rewrite (lapp_ext n f delta x x) by auto. rewrite lapp_delta by auto. rewrite S by auto. cbn [radd Qc_dom]. ring.
  - intros H. assert (S : forall i, i < n -> s i = 0%Qc).
    { intros i Hi. specialize (H (cv n (fun _ => 0%Qc)) ltac:(col_ok)). rewrite aff_point_am in H. apply Ret_inv in H.
      pose proof (cv_inj n _ _ H i Hi) as E. cbv beta in E. rewrite <- E. unfold lapp.
      assert (Z : sumf n (fun k => rmul (f i k) (0%Qc : Qc)) = 0%Qc).
      { clear. induction n as [|n IH]; cbn [sumf]; auto. rewrite IH. cbn [radd rmul Qc_dom]. ring. }
      rewrite Z. cbn [radd Qc_dom]. ring. }
    split; auto. intros i j Hi Hj. specialize (H (cv n (fun k => if Nat.eqb k j then 1%Qc else 0%Qc)) ltac:(col_ok)).
    rewrite aff_point_am in H. apply Ret_inv in H. pose proof (cv_inj n _ _ H i Hi) as E. cbv beta in E.
    pose proof (lapp_unit n f j i Hj) as U. cbn [r1 r0 Qc_dom] in U. rewrite U, S in E by auto. cbn [radd Qc_dom] in E.
    unfold delta. cbn [r1 r0 Qc_dom]. rewrite Nat.eqb_sym. rewrite <- E. ring.
  - intros [L S]. f_equal. apply am_ext; intros; symmetry; auto.
  - intros H. apply Ret_inv in H. apply am_inj in H as [E1 E2]. split; intros; symmetry; auto.
Qed.
Print Assumptions C81_is_identity.

(** determinants of products *)
Lemma det_mk_mul n (f g : nat -> nat -> Qc) : 0 < n -> exists x y,
  determinant (mk n n f) = Ret x /\ determinant (mk n n g) = Ret y /\ determinant (mk n n (lmul n f g)) = Ret (x * y)%Qc.
Proof.
  intros Hn. destruct (proj2 Props_Det.C07_multiplicative (mk n n f) (mk n n g) n) as (p & u & v & E1 & E2 & E3 & E4); auto using mk_wf.
  { destruct (@ssrnat.ltP 0 n) as [H|H]; [reflexivity|contradiction]. }
  rewrite mat_mul_mk in E1 by auto. apply Ret_inv in E1. subst p. exists u, v. auto.
Qed.

Lemma idem_one (u : Qc) : u <> 0%Qc -> u = (u * u)%Qc -> u = 1%Qc.
Proof. intros N E. transitivity (u * u / u)%Qc; [field; auto|rewrite <- E; field; auto]. Qed.

Lemma linv_delta n : linv n delta (@delta Qc _).
Proof. intros i j Hi Hj. apply (lmul_delta_l n delta i j Hi). Qed.

Lemma det_delta n : 0 < n -> determinant (mk n n (@delta Qc _)) = Ret 1%Qc.
Proof.
  intros Hn. destruct (det_mk_mul n delta delta Hn) as (u & v & E1 & E2 & E3).
  rewrite (mk_ext n n (lmul n delta delta) delta) in E3 by (intros i j Hi Hj; apply lmul_delta_l; auto).
  rewrite E1 in E2, E3. apply Ret_inv in E2. subst v. apply Ret_inv in E3. rewrite E1. f_equal. apply idem_one; auto.
  destruct (inverse_correct (R := Qc) n delta Hn) as [(x & Ex & Sx)|(_ & N)]; [|exfalso; apply N; exists delta; apply linv_delta].
  destruct (Qc_det_inverse (a := mk n n (@delta Qc _))) as (r & d & Ei & Ed & H); [apply mk_wf; auto|reflexivity|auto|].
  rewrite Ex in Ei. apply Ret_inv in Ei. subst r. rewrite E1 in Ed. apply Ret_inv in Ed. subst d. exact H.
Qed.

Lemma det_linv n (f g : nat -> nat -> Qc) : 0 < n -> linv n f g -> exists x,
  x <> 0%Qc /\ determinant (mk n n f) = Ret x /\ determinant (mk n n g) = Ret (/ x)%Qc.
Proof.
  intros Hn I. destruct (det_mk_mul n f g Hn) as (x & y & E1 & E2 & E3).
  rewrite (mk_ext n n (lmul n f g) delta) in E3 by (intros i j Hi Hj; apply I; auto).
  rewrite det_delta in E3 by auto. apply Ret_inv in E3.
  assert (N : x <> 0%Qc) by (intros ->; rewrite Qcmult_0_l in E3; discriminate E3).
  exists x. splits; auto. rewrite E2. f_equal. transitivity (x * y / x)%Qc; [field; auto|]. rewrite <- E3. field. auto.
Qed.

(** the determinant of a change of coordinates is never zero, multiplies when
    changes are composed, and the change back has the reciprocal *)
Theorem C81_determinant : forall n c d, 0 < n -> built n c -> built n d -> exists x y r,
  cmap_determinant c = Ret x /\ x <> 0%Qc /\ cmap_determinant (cmap_inverse c) = Ret (/ x)%Qc /\
  cmap_determinant d = Ret y /\ cmap_mul c d = Ret r /\ cmap_determinant r = Ret (x * y)%Qc.
Proof.
  intros n c d Hn B1 B2. apply built_good in B1 as (f & s & g & t & -> & S1 & S2 & T), B2 as (f' & s' & g' & t' & -> & S1' & S2' & T'); auto.
  destruct (det_linv n f g Hn S1) as (x & Nx & E1 & E2). destruct (det_mk_mul n f f' Hn) as (x' & y & E1' & E3 & E4).
  rewrite E1 in E1'. apply Ret_inv in E1'. subst x'.
  unfold cmap_determinant, cmap_inverse, cmap_mul. cbn [fwd bwd]. rewrite !aff_mul_am by auto. cbn [bind].
  exists x, y. eexists. unfold am. splits; [exact E1|exact Nx|exact E2|exact E3|reflexivity|exact E4].
Qed.
Print Assumptions C81_determinant.

(** the identity change of coordinates changes nothing *)
Theorem C81_identity_map : forall n, 0 < n -> exists c, @cmap_identity Qc _ _ n = Ret c /\ built n c /\
  cmap_is_identity c = Ret true /\ cmap_determinant c = Ret 1%Qc /\ cmap_inverse c = c /\
  (forall p, column n p -> cmap_point c p = Ret p /\ cmap_vector c p = Ret p) /\
  (forall a, affine_map n a -> cmap_affine c a = Ret a).
Proof.
  intros n Hn. unfold cmap_identity. rewrite aff_identity_am by auto. cbn [bind].
  assert (I : linv n delta (@delta Qc _)).
  { intros i j Hi Hj. apply (lmul_delta_l n delta i j Hi). }
  destruct (inverse_correct (R := Qc) n delta Hn) as [(x & Ex & Sx)|(_ & N)]; [|exfalso; apply N; exists delta; exact I].
  assert (X : forall i j, i < n -> j < n -> x i j = delta i j).
  { intros i j Hi Hj. rewrite <- (Sx i j Hi Hj). symmetry. apply (lmul_delta_l n x i j Hi). }
  unfold cmap_new. rewrite (aff_inverse_some n delta (fun _ => r0) x Hn Ex). cbn [bind unwrap].
  assert (E : am n x (fun i => ropp (lapp n x (fun _ => r0) i)) = am n (@delta Qc _) (fun _ => r0)).
  { apply am_ext; auto. intros i Hi. rewrite (lapp_ext n x delta _ (fun _ => r0)) by auto. rewrite lapp_delta by auto. reflexivity. }
  rewrite E.
  assert (HC : cmap_identity n = Ret (CMap (am n (@delta Qc _) (fun _ => r0)) (am n (@delta Qc _) (fun _ => r0)))).
  { unfold cmap_identity. rewrite aff_identity_am by auto. cbn [bind]. unfold cmap_new. rewrite (aff_inverse_some n delta (fun _ => r0) x Hn Ex).
    cbn [bind unwrap]. rewrite E. reflexivity. }
  destruct (C15_identity n Hn) as (e & Ee & Ae & Pe & Me). rewrite aff_identity_am in Ee by auto. apply Ret_inv in Ee. subst e.
  eexists. splits; [reflexivity|apply (built_identity n _ HC)| | |reflexivity| |].
  - unfold cmap_is_identity. cbn [fwd]. destruct (C81_is_identity n _ Hn Ae) as (b & Eb & _ & H). rewrite Eb. f_equal. apply H. apply aff_identity_am; auto.
  - unfold cmap_determinant, am. cbn [fwd lin]. apply det_delta; auto.
  - intros p P. unfold cmap_point, cmap_vector. cbn [fwd]. apply Pe; auto.
  - intros a A. unfold cmap_affine. cbn [fwd bwd]. destruct (Me a A) as [M1 M2]. rewrite M1. cbn [bind]. exact M2.
Qed.
Print Assumptions C81_identity_map.

(** the default scalar product is accepted and is the sum of the products *)
Theorem C81_default_product : forall n u v, 0 < n -> column n u -> column n v -> exists m,
  sprod_default n = Ret m /\ sprod_from m = Ret m /\
  sprod_apply m u v = Ret (total n (fun i => comp u i * comp v i)%Qc).
Proof.
  intros n u v Hn U V. cols. rename x0 into u, x into v. exists (mk n n delta). unfold sprod_default. rewrite identity_mk by auto.
  assert (Q : forall a b, qform n delta a b = total n (fun i => a i * b i)%Qc).
  { intros a b. unfold qform. rewrite (total_sumf n (fun i => a i * b i)%Qc). apply sumf_ext. intros i Hi.
    transitivity (rmul (a i) (lapp n delta b i)).
    - unfold lapp. rewrite <- sumf_scale. apply sumf_ext. intros j Hj. cbn [rmul Qc_dom]. ring.
    - rewrite lapp_delta by auto. reflexivity. }
  splits; [reflexivity| |].
  - apply sprod_from_mk; auto. split.
    + intros i j Hi Hj. unfold delta. rewrite Nat.eqb_sym. reflexivity.
    + intros w (i & Hi & Nz). rewrite Q. clear - Hi Nz.
      assert (P : forall k, (0 <= total k (fun i => w i * w i))%Qc /\ (i < k -> (0 < total k (fun i => w i * w i))%Qc)).
      { induction k as [|k [IH1 IH2]]; cbn [total]; [split; [apply Qcle_refl|lia]|].
        assert (K : (0 <= w k * w k)%Qc) by apply Qc_sq_nonneg. split; [qclra|]. intros H.
        destruct (Nat.eq_dec i k) as [->|]; [|specialize (IH2 ltac:(lia)); qclra].
        assert (K2 : (w k * w k)%Qc <> 0%Qc) by (intros E; apply Qcmult_integral in E; tauto).
        apply Qcle_lt_or_eq in K as [K|K]; [qclra|exfalso; apply K2; auto]. }
      apply P. auto.
  - rewrite apply_cv, Q. f_equal. etransitivity; [apply total_sumf|]. etransitivity; [|symmetry; apply total_sumf]. apply sumf_ext. intros i Hi. rewrite !comp_cv by auto. reflexivity.
Qed.
Print Assumptions C81_default_product.

(** a change of coordinates with determinant 6, whose inverse has 1/6 *)
Example C81_case :
  (do c <- cmap_from (Mat 2 2 [ZQ 2; ZQ 1; ZQ 0; ZQ 3]); do x <- cmap_determinant c; do y <- cmap_determinant (cmap_inverse c);
   do b <- cmap_is_identity c; Ret (Qc_eqb x (ZQ 6), Qc_eqb y (1 / ZQ 6)%Qc, b)) = Ret (true, true, false).
Proof. vm_compute. reflexivity. Qed.
