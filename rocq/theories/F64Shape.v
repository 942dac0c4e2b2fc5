(** The shape of the results of elimination on Matrix<f64>: proofs about F64.v. *)
From Coq Require Import List ZArith Lia Bool PeanoNat.
From Coq Require Import Floats.SpecFloat.
From Verif Require Import Base Vec Elim Scalars Matrix LinAlg F64.
Import ListNotations.
Open Scope nat_scope.

(** ** reduced_basis *)

(** reduced row echelon form with pivot columns [ps]: every pivot is 1.0, the entries before it count as zero, the entries above it are +0.0 *)
Definition rref (n : nat) (ps : list nat) (rs : list fvec) : Prop :=
  lens n rs /\ length ps = length rs /\
  (forall i j, i < j -> j < length ps -> nth i ps 0 < nth j ps 0) /\
  (forall i, i < length ps -> nth i ps 0 < n /\ vget (nth i rs []) (nth i ps 0) = f_one /\
     (forall c, c < nth i ps 0 -> isz (vget (nth i rs []) c) = true) /\
     (forall k, k < i -> vget (nth k rs []) (nth i ps 0) = f_zero)).

Lemma next_nz_f (b : fvec) col p : pivot b = Some p -> col <= p -> next_nz b col = Ret p.
Proof.
  intros Hp. apply fpivot_Some in Hp as (Lp & Np & Zp). unfold next_nz.
  assert (G : forall d col, col + d = p -> next_nz_from col (skipn col b) = Ret p).
  { induction d as [|d IH]; intros c Hc.
    - assert (c = p) as -> by lia. destruct (skipn p b) as [|a w] eqn:Es.
      + apply (f_equal (@length float)) in Es. rewrite skipn_length in Es. simpl in Es. lia.
      + assert (vget b p = a).
        { unfold vget. rewrite <- (Nat.add_0_r p), <- nth_skipn, Es. reflexivity. }
        simpl. change (SFeqb a f_zero) with (isz a). subst a. rewrite Np. reflexivity.
    - destruct (skipn c b) as [|a w] eqn:Es.
      + apply (f_equal (@length float)) in Es. rewrite skipn_length in Es. simpl in Es. lia.
      + assert (vget b c = a).
        { unfold vget. rewrite <- (Nat.add_0_r c), <- nth_skipn, Es. reflexivity. }
        assert (w = skipn (S c) b) as ->.
        { clear -Es. revert b Es; induction c as [|c IH]; intros [|x b] Es; simpl in *; try discriminate.
          - injection Es as _ <-. reflexivity.
          - destruct b; [destruct c; discriminate|]. apply (IH _ Es). }
        simpl. change (SFeqb a f_zero) with (isz a). subst a. rewrite Zp by lia. apply IH. lia. }
  intros Hc. apply (G (p - col)). lia.
Qed.

Lemma normalize_f (b : fvec) p : pivot b = Some p ->
  exists b', s_normalize p b = Ret b' /\ length b' = length b /\ vget b' p = f_one /\
    (forall c, c < p -> isz (vget b' c) = true).
Proof.
  intros Hp. apply fpivot_Some in Hp as (Lp & Np & Zp). simpl. unfold normalize_column_f.
  rewrite nth_error_fget by auto. simpl. eexists. split; [reflexivity|].
  rewrite map_from_length, upd_length. splits; auto.
  - rewrite vget_map_from by (rewrite upd_length; auto). destruct (Nat.ltb_spec p (S p)); [|lia].
    rewrite vget_upd, Nat.eqb_refl by auto. auto.
  - intros c Hc. rewrite vget_map_from by (rewrite upd_length; lia). destruct (Nat.ltb_spec c (S p)); [|lia].
    rewrite vget_upd by auto. destruct (Nat.eqb_spec c p); [lia|]. auto.
Qed.

Lemma reduce_f (v b : fvec) p : length v = length b -> p < length b ->
  exists v', s_reduce p v b = Ret v' /\ length v' = length b /\ vget v' p = f_zero /\
    (forall c, c < p -> vget v' c = vget v c).
Proof.
  intros Hl Hp. simpl. unfold reduce_column_f. rewrite nth_error_fget by lia. simpl.
  rewrite covers_ok by auto. simpl. eexists. split; [reflexivity|].
  rewrite zip_from_length, upd_length. splits; auto.
  - rewrite vget_zip_from by (rewrite upd_length; lia). destruct (Nat.ltb_spec p (S p)); [|lia].
    rewrite vget_upd, Nat.eqb_refl by lia. auto.
  - intros c Hc. rewrite vget_zip_from by (rewrite upd_length; lia). destruct (Nat.ltb_spec c (S p)); [|lia].
    rewrite vget_upd by lia. destruct (Nat.eqb_spec c p); [lia|]. auto.
Qed.

Lemma reduce_all_f (n : nat) (b : fvec) p : length b = n -> p < n -> forall done, lens n done ->
  exists done', mapM (fun v => s_reduce p v b) done = Ret done' /\ lens n done' /\ length done' = length done /\
    forall k, k < length done -> vget (nth k done' []) p = f_zero /\
      (forall c, c < p -> vget (nth k done' []) c = vget (nth k done []) c).
Proof.
  intros Hb Hp. induction done as [|v done IH]; intros L.
  - exists []. splits; auto. simpl. intros; lia.
  - apply lens_cons in L as (Lv & L). destruct (IH L) as (d' & E & L' & N & G).
    destruct (reduce_f v b p) as (v' & Ev & Lv' & A & B); [congruence|lia|].
    exists (v' :: d'). cbn [mapM]. rewrite Ev. cbn [bind]. rewrite E. splits; auto; simpl; try congruence.
    + constructor; auto. congruence.
    + intros [|k] Hk; auto. apply G. lia.
Qed.

Lemma rref_snoc n ps rs b p rs' :
  rref n ps rs -> (forall q, In q ps -> q < p) -> p < n -> length b = n -> vget b p = f_one ->
  (forall c, c < p -> isz (vget b c) = true) ->
  lens n rs' -> length rs' = length rs ->
  (forall k, k < length rs -> vget (nth k rs' []) p = f_zero /\
      (forall c, c < p -> vget (nth k rs' []) c = vget (nth k rs []) c)) ->
  rref n (ps ++ [p]) (rs' ++ [b]).
Proof.
  intros (L & N & M & R) Hq Hp Hb H1 Hz L' N' G.
  assert (Hps : forall i, i < length ps -> nth i (ps ++ [p]) 0 = nth i ps 0 /\ nth i ps 0 < p).
  { intros i Hi. rewrite app_nth1 by auto. split; auto. apply Hq, nth_In; auto. }
  assert (Hl : nth (length ps) (ps ++ [p]) 0 = p) by (rewrite app_nth2, Nat.sub_diag by lia; reflexivity).
  unfold rref. rewrite !app_length. simpl. splits; try lia.
  - unfold lens. rewrite Forall_app. split; auto.
  - intros i j Hij Hj. destruct (Nat.eq_dec j (length ps)) as [->|Hn].
    + rewrite Hl. destruct (Hps i) as (-> & Hlt); auto; lia.
    + destruct (Hps i) as (-> & _); [lia|]. destruct (Hps j) as (-> & _); [lia|]. apply M; lia.
  - intros i Hi. destruct (Nat.eq_dec i (length ps)) as [->|Hn].
    + rewrite Hl. rewrite N, <- N', app_nth2, Nat.sub_diag by lia. simpl. splits; auto.
      intros k Hk. rewrite app_nth1 by lia. apply G. lia.
    + destruct (Hps i) as (-> & Hlt); [lia|]. destruct (R i) as (R1 & R2 & R3 & R4); [lia|].
      destruct (G i) as (G1 & G2); [lia|].
      rewrite app_nth1 by lia. rewrite G2 by auto. splits; auto.
      * intros c Hc. rewrite G2 by lia. auto.
      * intros k Hk. rewrite app_nth1 by lia. destruct (G k) as (_ & G3); [lia|]. rewrite G3 by auto. auto.
Qed.

Lemma reduce_rows_f n todo : forall done ps col K,
  rref n ps done -> lens n todo -> (forall q, In q ps -> q < K) -> echelon_from K todo -> col <= K ->
  exists rs, reduce_rows done todo col = Ret rs /\ rref n (ps ++ pivots todo) rs.
Proof.
  induction todo as [|b todo IH]; intros done ps col K R L Hq E Hc; cbn [reduce_rows].
  - exists done. simpl. rewrite app_nil_r. auto.
  - apply lens_cons in L as (Lb & L). inversion E as [|? p ? ? Hp Hk E']; subst.
    rewrite (next_nz_f b col p) by (auto; lia). cbn [bind].
    destruct (normalize_f b p Hp) as (b' & En & Lb' & H1 & Hz). rewrite En. cbn [bind].
    assert (Hpl : p < length b) by (apply fpivot_Some in Hp; tauto).
    destruct (reduce_all_f (length b) b' p Lb' Hpl done) as (done' & Ed & Ld & Nd & G); [apply R|].
    rewrite Ed. cbn [bind].
    destruct (IH (done' ++ [b']) (ps ++ [p]) p (S p)) as (rs & Er & Rr); auto.
    + eapply rref_snoc; eauto. intros q Hi. specialize (Hq q Hi). lia.
    + intros q. rewrite in_app_iff. simpl. intros [Hi|[<-|[]]]; auto. specialize (Hq q Hi). lia.
    + exists rs. split; auto. simpl. rewrite Hp. simpl. rewrite <- app_assoc in Rr. exact Rr.
Qed.

Lemma rref_nil n : rref n [] [].
Proof. unfold rref. splits; auto; simpl; try (intros; lia). constructor. Qed.

(** reduced_basis on the list of rows: the same pivot columns as after the elimination *)
Lemma reduced_rows_f n rows : lens n rows ->
  exists bs rs, extend_all [] rows = Ret bs /\ lens n bs /\ echelon_from 0 bs /\ length bs <= length rows /\
    reduced_rows rows = Ret rs /\ rref n (pivots bs) rs /\ length rs = length bs.
Proof.
  intros L. destruct (extend_all_f n rows []) as (bs & E & Lb & Ee & Hl); auto; try constructor.
  destruct (reduce_rows_f n bs [] [] 0 0) as (rs & Er & R); auto; [apply rref_nil|intros q []|].
  exists bs, rs. unfold reduced_rows. rewrite E. cbn [bind]. simpl in R, Hl. splits; auto; try lia.
  destruct R as (_ & N & _). rewrite <- N. apply (pivots_length 0); auto.
Qed.

(** the rows are an echelon basis again *)
Lemma rref_echelon n ps rs : rref n ps rs -> echelon_from 0 rs /\ pivots rs = ps.
Proof.
  revert ps. induction rs as [|b rs IH] using rev_ind; intros ps R.
  - destruct R as (_ & N & _). destruct ps; [|discriminate]. split; [constructor|reflexivity].
  - destruct ps as [|p ps _] using rev_ind.
    { destruct R as (_ & N & _). rewrite app_length in N. simpl in N. lia. }
    destruct R as (L & N & M & R). rewrite !app_length in N. simpl in N.
    assert (N' : length ps = length rs) by lia.
    assert (Hl : nth (length ps) (ps ++ [p]) 0 = p) by (rewrite app_nth2, Nat.sub_diag by lia; reflexivity).
    assert (Hb : nth (length ps) (rs ++ [b]) [] = b) by (rewrite N', app_nth2, Nat.sub_diag by lia; reflexivity).
    apply Forall_app in L as (L & Lb). inversion Lb as [|? ? Lb' _]; subst.
    assert (R' : rref (length b) ps rs).
    { unfold rref. splits; auto.
      - intros i j Hij Hj. specialize (M i j Hij). rewrite app_length in M. simpl in M. rewrite !app_nth1 in M by lia. apply M. lia.
      - intros i Hi. specialize (R i). rewrite app_length in R. simpl in R. rewrite !app_nth1 in R by lia.
        destruct R as (R1 & R2 & R3 & R4); [lia|]. splits; auto. intros k Hk. specialize (R4 k Hk). rewrite app_nth1 in R4 by lia. auto. }
    destruct (IH ps R') as (E & P).
    specialize (R (length ps)). rewrite Hl, Hb, app_length in R. simpl in R. destruct R as (R1 & R2 & R3 & R4); [lia|].
    assert (Hp : pivot b = Some p).
    { apply fpivot_Some. splits; auto. rewrite R2. reflexivity. }
    split.
    + apply (echelon_app 0 rs b p); auto; [lia|]. rewrite P. intros q Hq. apply In_nth with (d := 0) in Hq as (i & Hi & <-).
      specialize (M i (length ps)). rewrite Hl, app_length in M. simpl in M. rewrite app_nth1 in M by lia. apply M; lia.
    + unfold pivots. rewrite flat_map_app. fold (pivots rs). rewrite P. simpl. rewrite Hp. reflexivity.
Qed.

(** ** elimination on a matrix with an identity matrix at its right *)

(** entry [m + i] is not zero, the entries after it are zero or NaN *)
Definition tagged (m i : nat) (b : fvec) : Prop :=
  isz (vget b (m + i)) = false /\ forall j, i < j -> soft (vget b (m + j)).

Lemma soft_zero : soft f_zero.
Proof. left. reflexivity. Qed.

Lemma soft_over (b : fvec) i : length b <= i -> soft (vget b i).
Proof. intros. rewrite vget_over by auto. apply soft_zero. Qed.

Lemma tagged_pivot m i (b : fvec) p : tagged m i b -> pivot b = Some p -> p <= m + i.
Proof.
  intros (A & _) Hp. apply fpivot_Some in Hp as (_ & _ & Z). destruct (Nat.le_gt_cases p (m + i)); auto.
  rewrite Z in A by auto. discriminate.
Qed.

Lemma tagged_has_pivot m i (b : fvec) : tagged m i b -> exists p, pivot b = Some p.
Proof.
  intros (A & _). destruct (pivot b) as [p|] eqn:E; eauto. exfalso.
  pose proof (proj1 (fpivot_None b) E) as Z. destruct (Nat.le_gt_cases (length b) (m + i)) as [H|H].
  - rewrite vget_over in A by auto. discriminate.
  - rewrite Z in A by auto. discriminate.
Qed.

Lemma vget_map_opp (v : fvec) i : vget (map SFopp v) i = if Nat.ltb i (length v) then SFopp (vget v i) else f_zero.
Proof.
  unfold vget. revert i; induction v as [|a v IH]; intros [|i]; simpl; auto. rewrite IH.
  destruct (length v); reflexivity.
Qed.

Lemma soft_opp x : soft x -> soft (SFopp x).
Proof. intros [H| ->]; [left; rewrite isz_opp; auto|right; reflexivity]. Qed.

Lemma tagged_opp m i (v : fvec) : tagged m i v -> tagged m i (map SFopp v).
Proof.
  intros (A & B). split.
  - rewrite vget_map_opp. destruct (Nat.ltb_spec (m + i) (length v)); [rewrite isz_opp; auto|].
    rewrite vget_over in A by auto. discriminate.
  - intros j Hj. rewrite vget_map_opp. destruct (Nat.ltb_spec (m + j) (length v)); [|apply soft_zero].
    apply soft_opp; auto.
Qed.

Lemma tagged_clear m i i' col (v b v' : fvec) :
  length v = length b -> tagged m i v -> tagged m i' b -> i' < i -> pivot b = Some col ->
  s_clear col v b = Ret (v', b) -> tagged m i v'.
Proof.
  intros Hl (A & B) T' Hi Hp E. pose proof (tagged_pivot _ _ _ _ T' Hp) as Hc. destruct T' as (A' & B').
  apply fpivot_Some in Hp as (Lp & _).
  destruct (clear_f col v b Hl Lp) as (v2 & E2 & L2 & _ & _ & G). assert (v2 = v') as -> by congruence.
  split.
  - destruct (Nat.le_gt_cases (length b) (m + i)) as [H|H].
    { rewrite (vget_over v) in A by lia. discriminate. }
    rewrite G by lia. apply hard_sub; auto. apply soft_mul, B'. auto.
  - intros j Hj. destruct (Nat.le_gt_cases (length b) (m + j)) as [H|H].
    { apply soft_over. lia. }
    rewrite G by lia. apply soft_sub; auto. apply soft_mul, B'. lia.
Qed.

Lemma extend_tagged m i n bs : forall (v : fvec) k,
  lens n bs -> length v = n -> echelon_from k bs -> tagged m i v ->
  Forall (fun b => exists i', i' < i /\ tagged m i' b) bs ->
  exists bs', extend_basis v bs = Ret bs' /\ length bs' = S (length bs) /\
    Forall (fun b => exists i', i' <= i /\ tagged m i' b) bs'.
Proof.
  induction bs as [|b bs IH]; intros v k L Hv E T F; cbn [extend_basis length].
  - destruct (tagged_has_pivot _ _ _ T) as (p & ->). exists [v]. splits; auto.
    constructor; auto. exists i. auto.
  - apply lens_cons in L as (Lb & L). inversion E as [|? p ? ? Hp Hk E']; subst.
    inversion F as [|? ? (i' & Hi' & T') F']; subst.
    rewrite Hv, Nat.eqb_refl. cbn [assert bind].
    destruct (tagged_has_pivot _ _ _ T) as (col & Hc). rewrite Hc, Hp. cbn [unwrap bind].
    assert (W : forall l, Forall (fun b => exists i', i' < i /\ tagged m i' b) l -> Forall (fun b => exists i', i' <= i /\ tagged m i' b) l).
    { intros l Hl. eapply Forall_impl; [|exact Hl]. cbn beta. intros x (j & Hj & Tj). exists j. split; auto. lia. }
    destruct (Nat.ltb_spec col p) as [Hlt|Hge].
    + eexists. split; [reflexivity|]. split; [reflexivity|]. constructor.
      * exists i. split; auto. destruct (Nat.odd _); auto. apply tagged_opp; auto.
      * apply W; auto.
    + destruct (Nat.eqb_spec col p) as [->|Hne].
      * pose proof Hp as Hp'. apply fpivot_Some in Hp' as (Lp & _ & Zp).
        destruct (clear_f p v b) as (v' & Ev & Lv & _); [congruence|congruence|].
        rewrite Ev. cbn [bind].
        destruct (IH v' (S p)) as (bs' & Eb & Hlen & Hf); auto.
        { apply (tagged_clear m i i' p v b); auto. }
        rewrite Eb. cbn [bind]. eexists. split; [reflexivity|]. simpl. rewrite Hlen. split; auto.
        constructor; auto. exists i'. split; auto. lia.
      * destruct (IH v (S p)) as (bs' & Eb & Hlen & Hf); auto.
        rewrite Eb. cbn [bind]. eexists. split; [reflexivity|]. simpl. rewrite Hlen. split; auto.
        constructor; auto. exists i'. split; auto. lia.
Qed.

Lemma extend_all_tagged m n rows : forall s bs,
  lens n bs -> lens n rows -> echelon_from 0 bs ->
  Forall (fun b => exists i', i' < s /\ tagged m i' b) bs ->
  (forall i, i < length rows -> tagged m (s + i) (nth i rows [])) ->
  exists bs', extend_all bs rows = Ret bs' /\ length bs' = length bs + length rows.
Proof.
  unfold extend_all. induction rows as [|v rows IH]; intros s bs Lb Lr E F T; simpl.
  - exists bs. split; auto.
  - apply lens_cons in Lr as (Lv & Lr).
    assert (T0 : tagged m s v) by (specialize (T 0); simpl in T; rewrite Nat.add_0_r in T; apply T; lia).
    destruct (extend_tagged m s n bs v 0) as (bs1 & E1 & N1 & F1); auto.
    destruct (extend_f n bs v 0) as (bs2 & E2 & L2 & Ee2 & H2); auto; [lia|].
    assert (bs2 = bs1) as -> by congruence.
    rewrite E1. simpl. destruct (IH (S s) bs1) as (bs3 & E3 & N3); auto.
    + eapply Forall_impl; [|exact F1]. cbn beta. intros x (j & Hj & Tj). exists j. split; auto. lia.
    + intros i Hi. specialize (T (S i)). simpl in T. replace (S s + i) with (s + S i) by lia. apply T. lia.
    + exists bs3. split; auto. lia.
Qed.

(** rows of [ m | identity ] *)
Lemma tagged_hrows m r (xs : list fvec) i : lens m xs -> length xs = r -> i < r ->
  tagged m i (nth i (hrows xs (map (vunit r) (seq 0 r))) []).
Proof.
  intros L N Hi. rewrite nth_hrows by (rewrite ?map_length, ?seq_length; lia).
  assert (Lx : length (nth i xs []) = m) by (eapply lens_In; eauto; apply nth_In; lia).
  assert (En : nth i (map (vunit r) (seq 0 r)) [] = vunit r i).
  { rewrite nth_indep with (d' := vunit r 0) by (rewrite map_length, seq_length; auto).
    rewrite map_nth, seq_nth by auto. reflexivity. }
  rewrite En.
  assert (G : forall j, vget (nth i xs [] ++ vunit r i) (m + j) = vget (vunit r i) j).
  { intros j. unfold vget. rewrite app_nth2 by lia. f_equal. lia. }
  split; [|intros j Hj]; rewrite G, vget_vunit.
  - rewrite Nat.eqb_refl. destruct (Nat.ltb_spec i r); [reflexivity|lia].
  - destruct (Nat.eqb_spec j i); [lia|]. apply soft_zero.
Qed.

Lemma extend_identity m r (xs : list fvec) : lens m xs -> length xs = r ->
  exists bs, extend_all [] (hrows xs (map (vunit r) (seq 0 r))) = Ret bs /\ length bs = r.
Proof.
  intros L N.
  assert (Li : lens r (map (vunit r) (seq 0 r))).
  { apply Forall_forall. intros v Hv. apply in_map_iff in Hv as (j & <- & _). apply vunit_length. }
  assert (Nh : length (hrows xs (map (vunit r) (seq 0 r))) = r)
    by (rewrite hrows_length; rewrite ?map_length, ?seq_length; auto).
  destruct (extend_all_tagged m (m + r) (hrows xs (map (vunit r) (seq 0 r))) 0 []) as (bs & E & Hb).
  - constructor.
  - apply hrows_lens; auto. rewrite map_length, seq_length. auto.
  - constructor.
  - constructor.
  - intros i Hi. apply tagged_hrows; auto. lia.
  - exists bs. split; auto. simpl in Hb. lia.
Qed.
