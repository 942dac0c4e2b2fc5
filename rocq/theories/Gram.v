(** Proofs about [gram_space] and [shift_space]: solutions of homogeneous linear equations. *)
From Coq Require Import List ZArith Lia Bool PeanoNat QArith Qcanon Qround.
From Verif Require Import Base QcTac Vec Elim Scalars Matrix MatrixMore LinAlg ZQ Lattices Reduce Geometry Basics Generate.
From Verif Require Component Normalize.
Import ListNotations.
Close Scope Q_scope. Close Scope Qc_scope.
Open Scope nat_scope.

(** ** bases of kernels *)
Lemma kernel_same n rows eqns bs : lens n rows -> lens n eqns -> same_span n rows eqns -> kernel_basis n eqns bs -> kernel_basis (R := Qc) n rows bs.
Proof.
  intros Lr Le S (Lb & Ind & K). unfold kernel_basis. splits; auto. intros z Lz. rewrite <- (K z Lz).
  assert (T : forall us vs : list (list Qc), lens n us -> lens n vs -> (forall x, span n us x -> span n vs x) -> (forall b, In b vs -> dot b z = 0%Qc) -> forall b, In b us -> dot b z = 0%Qc).
  { intros us vs Lu Lv H Hz b Hb. apply (span_In n us b Lu) in Hb. apply H in Hb. clear H. cut (length b = n /\ dot b z = 0%Qc); [tauto|]. revert b Hb. apply (span_ind n vs (fun b => length b = n /\ dot b z = 0%Qc)); auto.
    - split; [apply vzero_length|]. exact (dot_vzero_l n z).
    - intros x y [L1 E1] [L2 E2]. split; [rewrite vadd_length; lia|]. pose proof (dot_vadd_l x y z) as E. rewrite E by congruence. rewrite E1, E2. cbn [radd Qc_dom]. ring.
    - intros c x [L1 E1]. split; [rewrite vscale_length; auto|]. pose proof (dot_vscale_l c x z) as E. rewrite E, E1. cbn [rmul Qc_dom]. ring.
    - intros v Hv. split; auto. exact (lens_In _ _ _ Lv Hv). }
  split; apply T; auto; apply S.
Qed.

(** the matrix with columns bs *)
Definition of_columns (n : nat) (bs : list (list Qc)) : mat Qc := mrows (length bs) (cols n bs).

Lemma solve_rows n rows : 0 < n -> lens n rows -> exists eqns, extend_all [] rows = Ret eqns /\
  ((eqns = [] /\ forall x, span n rows x -> x = vzero n) \/
   (eqns <> [] /\ exists r, (do ms <- mapM mat_row eqns; do e <- vstack ms; null_space e) = Ret r /\
     ((exists bs, bs <> [] /\ r = Some (of_columns n bs) /\ kernel_basis n rows bs) \/ (r = None /\ kernel_basis n rows [])))).
Proof.
  intros Hn L. destruct (extend_all_span n rows L) as (eqns & E & Le & _ & S & _). exists eqns. split; auto.
  destruct eqns as [|e0 es] eqn:Ee; [left; split; auto; intros x Hx; apply S in Hx; apply span_nil in Hx; auto|right]. split; [discriminate|]. rewrite <- Ee in *.
  assert (Ne : eqns <> []) by (rewrite Ee; discriminate).
  pose proof (vstack_rows n eqns Hn Le Ne) as V.
  destruct (mapM mat_row eqns) as [ms| |] eqn:Em; cbn [bind] in V |- *; try discriminate. rewrite V. cbn [bind].
  assert (W : wfm (mrows n eqns)) by (rewrite mrows_mk by auto; apply mk_wf; auto).
  destruct (wf_mk (mrows n eqns) (length eqns) n W) as [f Ef]; auto. rewrite Ef.
  assert (Fr : frows (length eqns) n f = eqns).
  { pose proof (get_rows_mk (length eqns) n f Hn) as G1. rewrite <- Ef in G1. pose proof (get_rows_mrows n eqns Hn Le) as G2. congruence. }
  assert (Hm : 0 < length eqns) by (rewrite Ee; cbn; lia).
  destruct (null_space_correct (length eqns) n f Hm Hn) as [(bs & Hb & En & K)|(En & K)]; rewrite En; eexists; (split; [reflexivity|]); rewrite Fr in K.
  - left. exists bs. splits; auto. apply (kernel_same n rows eqns); auto.
  - right. split; auto. apply (kernel_same n rows eqns); auto.
Qed.

(** ** shift_space *)
Lemma foldM_flat {A B S} (f : S -> B -> outcome S) (g : A -> list B) l : forall s, foldM (fun s a => foldM f s (g a)) s l = foldM f s (flat_map g l).
Proof. induction l as [|a l IH]; intros s; cbn [foldM flat_map]; auto. rewrite foldM_app. destruct (foldM f s (g a)); cbn [bind]; auto. Qed.
Lemma foldM_ext_in {A S} (f g : S -> A -> outcome S) l : (forall s a, In a l -> f s a = g s a) -> forall s, foldM f s l = foldM g s l.
Proof. induction l as [|a l IH]; intros H s; cbn [foldM]; auto. rewrite H by (left; auto). destruct (g s a); cbn [bind]; auto. apply IH. intros. apply H. right. auto. Qed.

Definition linf (a : aff) : nat -> nat -> Qc := fun i j => ent (lin a) i j.
Lemma linf_am d f s i j : i < d -> j < d -> linf (am d f s) i j = f i j.
Proof. intros. unfold linf, am. cbn [lin]. rewrite mk_ent by auto. auto. Qed.
Definition shift_rows (d : nat) (op : aff) : list (list Qc) := frows d d (fun i j => (linf op i j - delta i j)%Qc).

Lemma shift_space_rows d op0 ops : 0 < d -> isam d op0 -> Forall (isam d) ops ->
  (do id <- identity (aff_dim op0); foldM (fun eqns op => do l <- mat_sub (lin op) id; do rows <- get_rows l; foldM (fun eqns row => extend_basis row eqns) eqns rows) [] ops)
  = extend_all [] (flat_map (shift_rows d) ops).
Proof.
  intros Hd (f0 & s0 & ->) F. unfold aff_dim, vdim, am. cbn [shift nrows cv mk]. rewrite identity_mk by auto. cbn [bind]. unfold extend_all. rewrite <- foldM_flat.
  apply foldM_ext_in. intros s op Hop. rewrite Forall_forall in F. destruct (F op Hop) as (f & t & ->). cbn [am lin]. unfold mat_sub. rewrite mat_zip_mk. cbn [bind].
  rewrite get_rows_mk by auto. cbn [bind]. f_equal. unfold shift_rows. apply frows_ext. intros i j Hi Hj. rewrite linf_am by auto. reflexivity.
Qed.

Lemma dot_frow n (f : nat -> nat -> Qc) i z : length z = n -> dot (frow n f i) z = sumf n (fun j => (f i j * vget z j)%Qc).
Proof.
  intros L. pose proof (dot_sumf n (frow n f i) z) as E. rewrite E; auto; [|apply frow_length]. apply sumf_ext. intros j Hj. unfold frow. rewrite (vget_map_seq n (f i) j Hj). reflexivity.
Qed.
Lemma shift_kernel d ops z : 0 < d -> length z = d -> ((forall b, In b (flat_map (shift_rows d) ops) -> dot b z = 0%Qc) <->
  forall op i, In op ops -> i < d -> sumf d (fun j => (linf op i j * vget z j)%Qc) = vget z i).
Proof.
  intros Hd L.
  assert (E : forall op i, i < d -> dot (frow d (fun i j => (linf op i j - delta i j)%Qc) i) z = (sumf d (fun j => (linf op i j * vget z j)%Qc) - vget z i)%Qc).
  { intros op i Hi. rewrite dot_frow by auto. pose proof (lapp_delta d (vget z) i Hi) as D. unfold lapp in D. rewrite <- D. clear D Hi.
    clear. induction d as [|d IH]; cbn [sumf]; cbn [r0 radd rmul Qc_dom] in *; [ring|]. rewrite IH. ring. }
  split.
  - intros H op i Hop Hi. specialize (H (frow d (fun i j => (linf op i j - delta i j)%Qc) i)). rewrite E in H by auto.
    assert (X : (sumf d (fun j => (linf op i j * vget z j)%Qc) - vget z i)%Qc = 0%Qc).
    { apply H. apply in_flat_map. exists op. split; auto. unfold shift_rows, frows. apply in_map_iff. exists i. split; auto. apply in_seq. lia. }
    qclra.
  - intros H b Hb. apply in_flat_map in Hb as (op & Hop & Hb). unfold shift_rows, frows in Hb. apply in_map_iff in Hb as (i & <- & Hi). apply in_seq in Hi.
    rewrite E by lia. rewrite H by (auto; lia). ring.
Qed.

(** ** gram_matrix_configuration_space *)
(** the entries of the upper triangle, row by row *)
Definition triangle (d : nat) (g : nat -> nat -> Qc) : list Qc := flat_map (fun i => map (fun j => g i j) (seq i (d - i))) (seq 0 d).
Lemma triangle_map d g : triangle d g = map (fun ij => g (fst ij) (snd ij)) (upper d).
Proof.
  unfold triangle, upper. induction (seq 0 d) as [|i l IH]; cbn [flat_map map]; auto. rewrite map_app, IH, map_map. auto.
Qed.
Lemma upper_In d i j : In (i, j) (upper d) <-> i <= j < d.
Proof.
  unfold upper. rewrite in_flat_map. split.
  - intros (i' & Hi & H). apply in_map_iff in H as (j' & [= -> ->] & Hj). apply in_seq in Hi, Hj. lia.
  - intros H. exists i. split; [apply in_seq; lia|]. apply in_map_iff. exists j. split; auto. apply in_seq. lia.
Qed.
Lemma NoDup_flat {A B} (f : A -> list B) l : NoDup l -> (forall a, In a l -> NoDup (f a)) -> (forall a b x, In a l -> In b l -> In x (f a) -> In x (f b) -> a = b) -> NoDup (flat_map f l).
Proof.
  induction 1 as [|a l N ND IH]; intros H1 H2; cbn [flat_map]; [constructor|]. apply Normalize.NoDup_app_disj.
  - apply H1. left. auto.
  - apply IH; [intros; apply H1; right; auto|]. intros b c x Hb Hc. apply H2; right; auto.
  - intros x Hx Hx'. apply in_flat_map in Hx' as (b & Hb & Hxb). assert (a = b) as -> by (apply (H2 a b x); auto; [left|right]; auto). auto.
Qed.
Lemma upper_NoDup d : NoDup (upper d).
Proof.
  unfold upper. apply NoDup_flat; [apply seq_NoDup| |].
  - intros i _. apply FinFun.Injective_map_NoDup; [|apply seq_NoDup]. intros a b [= ->]. auto.
  - intros i i' [a b] _ _ H1 H2. apply in_map_iff in H1 as (j & [= -> ->] & _). apply in_map_iff in H2 as (j & [= -> ->] & _). auto.
Qed.
Definition kstep (km : (nat -> nat -> nat) * nat) (ij : nat * nat) : (nat -> nat -> nat) * nat :=
  let '(k, m) := km in let '(i, j) := ij in (fun a b => if (a =? i) && (b =? j) || (a =? j) && (b =? i) then m else k a b, m + 1).
Lemma kstep_fold l : NoDup l -> (forall i j, In (i, j) l -> i <= j) -> let km := fold_left kstep l (fun _ _ => 0, 0) in
  snd km = length l /\ forall p i j, nth_error l p = Some (i, j) -> fst km i j = p /\ fst km j i = p.
Proof.
  induction l as [|[i0 j0] l IH] using rev_ind; intros ND H.
  - split; auto. intros [|p] i j E; discriminate.
  - apply NoDup_remove in ND as [ND N]. rewrite app_nil_r in ND, N. cbn zeta in *. rewrite fold_left_app. cbn [fold_left].
    destruct IH as [IH1 IH2]; auto. { intros. apply H. apply in_or_app. auto. }
    destruct (fold_left kstep l (fun _ _ => 0, 0)) as [k m]. cbn [fst snd kstep] in *. split; [rewrite app_length; cbn; lia|].
    intros p i j E. assert (L0 : i0 <= j0) by (apply H; apply in_or_app; right; left; auto). destruct (Nat.lt_ge_cases p (length l)) as [P|P].
    + rewrite nth_error_app1 in E by auto. pose proof (nth_error_In _ _ E) as I. assert (Lij : i <= j) by (apply H; apply in_or_app; auto).
      assert (Ne : ~ (i = i0 /\ j = j0)) by (intros [-> ->]; auto). specialize (IH2 p i j E).
      destruct (Nat.eqb_spec i i0), (Nat.eqb_spec j j0), (Nat.eqb_spec i j0), (Nat.eqb_spec j i0); cbn; auto; exfalso; apply Ne; lia.
    + rewrite nth_error_app2 in E by auto. destruct (p - length l) as [|q] eqn:Ep; cbn in E; [|destruct q; discriminate]. injection E as -> ->.
      rewrite !Nat.eqb_refl. cbn. rewrite orb_true_r. lia.
Qed.
Lemma k_table_fold d : k_table d = fold_left kstep (upper d) (fun _ _ => 0, 0).
Proof. reflexivity. Qed.
Definition tri (d : nat) : nat := length (upper d).
Lemma triangle_length d g : length (triangle d g) = tri d.
Proof. rewrite triangle_map, map_length. auto. Qed.
Lemma k_table_ok d : snd (k_table d) = tri d /\ forall g i j, (forall a b, g a b = g b a) -> i < d -> j < d ->
  fst (k_table d) i j < tri d /\ nth (fst (k_table d) i j) (triangle d g) 0%Qc = g i j.
Proof.
  rewrite k_table_fold. destruct (kstep_fold (upper d) (upper_NoDup d)) as [H1 H2]; [intros i j H; apply upper_In in H; lia|]. cbn zeta in *.
  split; auto. intros g i j Hs Hi Hj.
  assert (E : exists p i' j', nth_error (upper d) p = Some (i', j') /\ ((i = i' /\ j = j') \/ (i = j' /\ j = i'))).
  { destruct (Nat.le_ge_cases i j) as [L|L].
    - destruct (In_nth_error (upper d) (i, j)) as [p Ep]; [apply upper_In; lia|]. exists p, i, j. auto.
    - destruct (In_nth_error (upper d) (j, i)) as [p Ep]; [apply upper_In; lia|]. exists p, j, i. auto. }
  destruct E as (p & i' & j' & Ep & HH). destruct (H2 p i' j' Ep) as [K1 K2].
  assert (K : fst (fold_left kstep (upper d) (fun _ _ => 0, 0)) i j = p) by (destruct HH as [[-> ->]|[-> ->]]; auto). rewrite K.
  split; [apply nth_error_Some; congruence|]. rewrite triangle_map. apply nth_error_nth. rewrite nth_error_map, Ep. cbn [option_map fst snd]. f_equal.
  destruct HH as [[-> ->]|[-> ->]]; auto.
Qed.

Lemma add_at_length k x l : length (add_at k x l) = length l.
Proof. revert k. induction l as [|y l IH]; intros [|k]; cbn; auto. Qed.
Lemma add_at_dot k x l z : k < length l -> length z = length l -> dot (add_at k x l) z = (dot l z + x * nth k z 0)%Qc.
Proof.
  revert k z. induction l as [|y l IH]; intros k z Hk Lz; [cbn in Hk; lia|]. destruct z as [|w z]; [discriminate|]. cbn [length] in *.
  destruct k as [|k]; cbn [add_at dot nth]; cbn [radd rmul Qc_dom]; [ring|]. rewrite IH by lia. ring.
Qed.

Definition prodsum (d : nat) (s g : nat -> nat -> Qc) (a b : nat) : Qc := sumf d (fun i => sumf d (fun j => (s a i * s b j * g i j)%Qc)).
Lemma foldl_prod {S} (f : S -> nat * nat -> S) l1 l2 s : fold_left f (list_prod l1 l2) s = fold_left (fun s i => fold_left (fun s j => f s (i, j)) l2 s) l1 s.
Proof.
  revert s. induction l1 as [|i l1 IH]; intros s; cbn [list_prod fold_left]; auto. rewrite fold_left_app, IH. f_equal. generalize s. clear. induction l2 as [|j l2 IH]; intros s; cbn; auto.
Qed.
Lemma gram_eqn_ok d s (t : nat -> nat -> Qc) a b : s = mk d d t -> a < d -> b < d ->
  exists e, gram_eqn d (fst (k_table d)) (snd (k_table d)) s (a, b) = Ret e /\ length e = tri d /\
    forall g, (forall i j, g i j = g j i) -> dot e (triangle d g) = (prodsum d t g a b - g a b)%Qc.
Proof.
  intros -> Ha Hb. destruct (k_table_ok d) as [Km Kd]. rewrite Km. set (k := fst (k_table d)) in *.
  assert (Kl : forall i j, i < d -> j < d -> k i j < tri d). { intros i j Hi Hj. apply (Kd (fun _ _ => 0%Qc) i j); auto. }
  unfold gram_eqn. set (step := fun e jab => add_at (k (fst jab) (snd jab)) (t a (fst jab) * t b (snd jab))%Qc e).
  assert (F : forall l e, (forall p, In p l -> fst p < d /\ snd p < d) -> foldM (fun eqn jab => do x <- index (mk d d t) a (fst jab); do y <- index (mk d d t) b (snd jab); Ret (add_at (k (fst jab) (snd jab)) (x * y)%Qc eqn)) e l
     = Ret (fold_left step l e)).
  { induction l as [|p l IH]; intros e H; cbn [foldM fold_left]; auto. destruct (H p) as [H1 H2]; [left; auto|]. rewrite !index_mk by auto. cbn [bind]. apply IH. intros. apply H. right. auto. }
  rewrite F; [|intros [i j] Hp; apply in_prod_iff in Hp as [H1 H2]; apply in_seq in H1, H2; cbn; lia]. cbn [bind]. clear F.
  assert (L : forall l e, length (fold_left step l e) = length e).
  { induction l as [|p l IH]; intros e; cbn [fold_left]; auto. rewrite IH. apply add_at_length. }
  eexists. split; [reflexivity|]. split; [rewrite add_at_length, L, repeat_length; auto|]. intros g Sg.
  assert (D : forall l e, (forall p, In p l -> fst p < d /\ snd p < d) -> length e = tri d ->
     dot (fold_left step l e) (triangle d g) = fold_left (fun acc p => (acc + t a (fst p) * t b (snd p) * g (fst p) (snd p))%Qc) l (dot e (triangle d g))).
  { induction l as [|p l IH]; intros e H Le; cbn [fold_left]; auto. destruct (H p) as [H1 H2]; [left; auto|]. rewrite IH; [|intros; apply H; right; auto|unfold step; rewrite add_at_length; auto]. f_equal.
    unfold step. rewrite add_at_dot; [|rewrite Le; auto|rewrite triangle_length; auto]. destruct (Kd g (fst p) (snd p) Sg H1 H2) as [_ E]. rewrite E. ring. }
  rewrite add_at_dot; [|rewrite L, repeat_length; auto|rewrite L, repeat_length, triangle_length; auto].
  destruct (Kd g a b Sg Ha Hb) as [_ E]. rewrite E. rewrite D; [|intros [i j] Hp; apply in_prod_iff in Hp as [H1 H2]; apply in_seq in H1, H2; cbn; lia|apply repeat_length].
  rewrite foldl_prod. cbn [fst snd]. pose proof (dot_vzero_l (tri d) (triangle d g)) as Z. change (repeat 0%Qc (tri d)) with (vzero (R := Qc) (tri d)). rewrite Z. cbn [r0 Qc_dom].
  enough (G : fold_left (fun s i => fold_left (fun s0 j => (s0 + t a i * t b j * g i j)%Qc) (seq 0 d) s) (seq 0 d) 0%Qc = prodsum d t g a b) by (rewrite G; ring).
  assert (I : forall n i acc, fold_left (fun s0 j => (s0 + t a i * t b j * g i j)%Qc) (seq 0 n) acc = (acc + sumf n (fun j => t a i * t b j * g i j))%Qc).
  { induction n as [|n IH]; intros i acc; [cbn; cbn [r0 Qc_dom]; ring|]. rewrite seq_S, fold_left_app, IH. cbn [fold_left sumf Nat.add]. cbn [radd Qc_dom]. ring. }
  unfold prodsum. generalize d at 2 3. intros m. induction m as [|m IH]; [reflexivity|]. rewrite seq_S, fold_left_app, IH. cbn [fold_left sumf Nat.add]. rewrite I. reflexivity.
Qed.

Lemma prodsum_sym d s g a b : (forall i j, g i j = g j i) -> prodsum d s g a b = prodsum d s g b a.
Proof.
  intros Sg. unfold prodsum. pose proof (sumf_swap d d (fun i j => (s a i * s b j * g i j)%Qc)) as E. rewrite E. apply sumf_ext. intros j _. apply sumf_ext. intros i _. rewrite (Sg i j). cbn [rmul Qc_dom]. ring.
Qed.

Lemma gram_rows d op0 ops : 0 < d -> isam d op0 -> Forall (isam d) ops -> exists rows, lens (tri d) rows /\
  (let '(k, m) := k_table (aff_dim op0) in foldM (fun eqns op => foldM (fun eqns iab => do e <- gram_eqn (aff_dim op0) k m (lin op) iab; extend_basis e eqns) eqns (upper (aff_dim op0))) [] ops) = extend_all [] rows /\
  forall g, (forall i j, g i j = g j i) -> ((forall b, In b rows -> dot b (triangle d g) = 0%Qc) <-> forall op a b, In op ops -> a < d -> b < d -> prodsum d (linf op) g a b = g a b).
Proof.
  intros Hd (f0 & s0 & ->) F. unfold aff_dim, vdim. cbn [shift am nrows cv mk]. destruct (k_table d) as [k m] eqn:Ek.
  assert (One : forall op, isam d op -> forall l, (forall ij, In ij l -> fst ij < d /\ snd ij < d) -> exists rows, lens (tri d) rows /\
     (forall eqns, foldM (fun eqns iab => do e <- gram_eqn d k m (lin op) iab; extend_basis e eqns) eqns l = extend_all eqns rows) /\
     forall g, (forall i j, g i j = g j i) -> ((forall b, In b rows -> dot b (triangle d g) = 0%Qc) <-> forall a b, In (a, b) l -> prodsum d (linf op) g a b = g a b)).
  { intros op (f & s & ->). induction l as [|[a b] l IH]; intros Hl.
    - exists []. splits; [constructor|auto|]. intros g _. split; [intros _ a b []|intros _ b []].
    - destruct IH as (rows & Lr & Er & Hr); [intros; apply Hl; right; auto|]. destruct (Hl (a, b)) as [Ha Hb]; [left; auto|]. cbn [fst snd] in *.
      destruct (gram_eqn_ok d (mk d d f) f a b eq_refl Ha Hb) as (e & Ee & Le & He). rewrite Ek in Ee. cbn [fst snd] in Ee.
      exists (e :: rows). splits; [constructor; auto| |].
      + intros eqns. cbn [foldM]. unfold extend_all. cbn [foldM]. cbn [am lin]. rewrite Ee. cbn [bind]. destruct (extend_basis e eqns); cbn [bind]; auto. apply Er.
      + intros g Sg. specialize (Hr g Sg).
        assert (P : prodsum d (linf (am d f s)) g a b = prodsum d f g a b).
        { unfold prodsum. apply sumf_ext. intros i Hi. apply sumf_ext. intros j Hj. rewrite !linf_am by auto. auto. }
        split.
        * intros H a' b' [[= <- <-]|H']; [|apply Hr; auto; intros; apply H; right; auto]. rewrite P. assert (X : dot e (triangle d g) = 0%Qc) by (apply H; left; auto). rewrite He in X by auto. qclra.
        * intros H v [<-|Hv]; [|apply Hr; auto; intros; apply H; right; auto]. rewrite He by auto. rewrite <- P, H by (left; auto). ring. }
  induction F as [|op ops Hop F IH].
  - exists []. splits; [constructor|reflexivity|]. intros g _. split; [intros _ op a b []|intros _ b []].
  - destruct (One op Hop (upper d)) as (r1 & L1 & E1 & H1); [intros [i j] H; apply upper_In in H; cbn; lia|].
    assert (All : forall ops', Forall (isam d) ops' -> exists r2, lens (tri d) r2 /\ (forall eqns, foldM (fun eqns op => foldM (fun eqns iab => do e <- gram_eqn d k m (lin op) iab; extend_basis e eqns) eqns (upper d)) eqns ops' = extend_all eqns r2) /\
       forall g, (forall i j, g i j = g j i) -> ((forall b, In b r2 -> dot b (triangle d g) = 0%Qc) <-> forall op a b, In op ops' -> a < d -> b < d -> prodsum d (linf op) g a b = g a b)).
    { clear - One. induction 1 as [|op ops Hop F IH].
      - exists []. splits; [constructor|reflexivity|]. intros g _. split; [intros _ op a b []|intros _ b []].
      - destruct (One op Hop (upper d)) as (r1 & L1 & E1 & H1); [intros [i j] H; apply upper_In in H; cbn; lia|]. destruct IH as (r2 & L2 & E2 & H2).
        exists (r1 ++ r2). splits; [apply Forall_app; auto| |].
        + intros eqns. cbn [foldM]. rewrite E1. unfold extend_all in *. rewrite foldM_app. destruct (foldM _ eqns r1); cbn [bind]; auto.
        + intros g Sg. specialize (H1 g Sg). specialize (H2 g Sg). split.
          * intros H op' a b [<-|Ho] Ha Hb; [|apply H2; auto; intros; apply H; apply in_or_app; auto].
            assert (H1' := proj1 H1 (fun v Hv => H v (in_or_app _ _ _ (or_introl Hv)))). destruct (Nat.le_ge_cases a b) as [Lab|Lab].
            -- apply H1'. apply upper_In. lia.
            -- rewrite prodsum_sym, (Sg a b) by auto. apply H1'. apply upper_In. lia.
          * intros H v Hv. apply in_app_iff in Hv as [Hv|Hv].
            -- apply H1; auto. intros a b Hab. apply upper_In in Hab. apply H; [left; auto|lia|lia].
            -- apply H2; auto. intros. apply H; auto. right. auto. }
    destruct (All (op :: ops) (Forall_cons _ Hop F)) as (rows & L & E & H). exists rows. auto.
Qed.
