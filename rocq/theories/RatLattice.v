(** rational_lattice_basis of lattices.rs *)
From Coq Require Import List ZArith Lia Bool PeanoNat QArith Qcanon Qround Znumtheory.
From Verif Require Import Base Vec Elim Scalars ZQ QcTac OrdSet Lattices Component.
From Verif Require Rank.
Import ListNotations.
Close Scope Q_scope. Close Scope Qc_scope.
Open Scope nat_scope.
Notation vZQ := Rank.vZQ.

(** integer combinations *)
Definition zcomb (d : nat) (vs : list qvec) (x : qvec) : Prop :=
  exists cs : list Z, length cs = length vs /\ x = lincomb d (map ZQ cs) vs.

(** *** denominators *)
Lemma Qc_num_den (x : Qc) : (x * ZQ (Zpos (Qden x)) = ZQ (Qnum x))%Qc.
Proof.
  apply Qc_is_canon. rewrite this_mul. unfold ZQ. rewrite !this_Q2Qc. destruct x as [[n q] C]. cbn. unfold Qeq, inject_Z. cbn. lia.
Qed.

Lemma ZQ_den z : Qden (ZQ z) = 1%positive /\ Qnum (ZQ z) = z.
Proof.
  unfold ZQ, Q2Qc. cbn [this]. assert (E : Qred (inject_Z z) = inject_Z z).
  { unfold Qred, inject_Z. pose proof (Z.ggcd_gcd z 1). pose proof (Z.ggcd_correct_divisors z 1).
    destruct (Z.ggcd z 1) as [g [a b]]. cbn in *. rewrite Z.gcd_1_r in H. subst g. destruct H0. rewrite Z.mul_1_l in *. subst. reflexivity. }
  rewrite E. split; reflexivity.
Qed.
Lemma ZQ_of_int (x : Qc) : Qden x = 1%positive -> x = ZQ (Qnum x).
Proof. intros H. rewrite <- Qc_num_den, H. change (ZQ 1) with 1%Qc. ring. Qed.

(** c x is an integer iff the denominator divides c *)
Lemma denom_divides (x : Qc) c : (exists z, x * ZQ c = ZQ z)%Qc <-> (Zpos (Qden x) | c)%Z.
Proof.
  split.
  - intros [z E]. apply Qc_eq_Q in E. rewrite this_mul in E. unfold ZQ in E. rewrite !this_Q2Qc in E. destruct x as [[n q] C]. cbn in *.
    unfold Qeq, inject_Z in E. cbn in E. assert (E' : (n * c = z * Zpos q)%Z) by lia. clear E.
    assert (G : Z.gcd n (Zpos q) = 1%Z).
    { unfold Qred in C. pose proof (Z.ggcd_gcd n (Zpos q)) as G1. pose proof (Z.ggcd_correct_divisors n (Zpos q)) as G2.
      destruct (Z.ggcd n (Zpos q)) as [g [a b]]. cbn [fst] in *. destruct G2 as [G2 G3]. injection C as C1 C2.
      assert (0 <= g)%Z by (subst g; apply Z.gcd_nonneg). assert (Hb : b = Zpos q) by (destruct b; cbn in C2; try lia; nia).
      rewrite <- G1. rewrite Hb in G3. nia. }
    apply Gauss with n; [exists z; lia|]. apply Zgcd_1_rel_prime. rewrite Z.gcd_comm. auto.
  - intros [k ->]. exists (k * Qnum x)%Z. rewrite !ZQ_mul, <- (Qc_num_den x). ring.
Qed.

Lemma common_denom_spec_gen (l : list Qc) : forall c, (0 < c)%Z ->
  let r := fold_left (fun c (x : Qc) => c * (Zpos (Qden x) / Z.gcd c (Zpos (Qden x))))%Z l c in
  (0 < r)%Z /\ (c | r)%Z /\ (forall x : Qc, In x l -> (Zpos (Qden x) | r)%Z) /\
  forall m, (c | m)%Z -> (forall x : Qc, In x l -> (Zpos (Qden x) | m)%Z) -> (r | m)%Z.
Proof.
  induction l as [|x l IH]; intros c Hc; cbn [fold_left].
  - splits; auto; [apply Z.divide_refl|intros x []].
  - set (q := Zpos (Qden x)). assert (Hq : (0 < q)%Z) by (unfold q; lia). set (g := Z.gcd c q).
    assert (Hg : (0 < g)%Z). { pose proof (Z.gcd_nonneg c q). assert (g <> 0%Z); [|unfold g in *; lia]. unfold g. intros E. apply Z.gcd_eq_0_r in E. lia. }
    destruct (Z.gcd_divide_l c q) as [a Ha]. destruct (Z.gcd_divide_r c q) as [b Hb]. fold g in Ha, Hb.
    assert (Eb : (q / g = b)%Z) by (rewrite Hb; apply Z.div_mul; lia).
    assert (R : rel_prime a b).
    { apply Zgcd_1_rel_prime. assert (g = g * Z.gcd a b)%Z; [|nia]. rewrite <- Z.gcd_mul_mono_l_nonneg by lia. rewrite (Z.mul_comm g a), (Z.mul_comm g b), <- Ha, <- Hb. reflexivity. }
    rewrite Eb. assert (Hb0 : (0 < b)%Z) by nia. destruct (IH (c * b)%Z ltac:(nia)) as (I1 & I2 & I3 & I4).
    splits; auto.
    + eapply Z.divide_trans; [|exact I2]. exists b. lia.
    + intros y [<-|Hy]; auto. eapply Z.divide_trans; [|exact I2]. fold q. exists a. rewrite Hb. rewrite Ha at 1. ring.
    + intros m Hm Hx. apply I4; [|intros; apply Hx; right; auto]. destruct Hm as [m1 Em]. destruct (Hx x (or_introl eq_refl)) as [m2 Em2]. fold q in Em2.
      assert (E : (m1 * a = m2 * b)%Z) by (rewrite Ha in Em; rewrite Hb in Em2; apply (Z.mul_reg_r _ _ g); nia).
      assert (D : (b | m1)%Z). { apply Gauss with a; [exists m2; lia|]. apply rel_prime_sym; auto. }
      destruct D as [k ->]. exists k. rewrite Em. ring.
Qed.

(** the common denominator: the least positive c that makes all components integers *)
Lemma common_denom_pos vs : (0 < common_denom vs)%Z.
Proof. apply (common_denom_spec_gen (concat vs) 1%Z). lia. Qed.
Lemma common_denom_int vs v x : In v vs -> In x v -> exists z, (x * ZQ (common_denom vs) = ZQ z)%Qc.
Proof.
  intros Hv Hx. apply denom_divides. apply (common_denom_spec_gen (concat vs) 1%Z ltac:(lia)). apply in_concat. eauto.
Qed.
Lemma common_denom_least vs c : (0 < c)%Z -> (forall v x, In v vs -> In x v -> exists z, (x * ZQ c = ZQ z)%Qc) -> (common_denom vs <= c)%Z.
Proof.
  intros Hc H. apply Z.divide_pos_le; auto. apply (common_denom_spec_gen (concat vs) 1%Z ltac:(lia)); [apply Z.divide_1_l|].
  intros x Hx. apply in_concat in Hx as (v & Hv & Hx). apply denom_divides. eauto.
Qed.

(** *** scaling *)
Lemma lincomb_map_scale d (c : Qc) (cs : list Qc) (vs : list qvec) : lens d vs ->
  lincomb d cs (map (vscale c) vs) = vscale c (lincomb d cs vs).
Proof.
  intros L. revert cs. induction L as [|v vs Hv L IH]; intros [|a cs]; cbn [map lincomb]; try (rewrite vscale_vzero; reflexivity).
  rewrite IH, vscale_vadd, !vscale_mul. do 2 f_equal. apply Qcmult_comm.
Qed.

Definition unscale (c : Z) (rows : list (list Z)) : list qvec := map (map (fun x => ZQ x / ZQ c)%Qc) rows.

Lemma unscale_eq c rows : unscale c rows = map (vscale (/ ZQ c)%Qc) (map vZQ rows).
Proof.
  unfold unscale. rewrite map_map. apply map_ext. intros r. unfold vZQ, Rank.vZQ, vscale. rewrite map_map. apply map_ext. intros x.
  cbn. unfold Qcdiv. apply Qcmult_comm.
Qed.

Lemma unscale_zcomb d c rows x : c <> 0%Z -> lens d rows ->
  zcomb d (unscale c rows) x <-> exists z, span d rows z /\ vZQ z = vscale (ZQ c) x.
Proof.
  intros Hc L. assert (Hc' : ZQ c <> 0%Qc) by (intros E; apply Hc, ZQ_eq0; auto).
  rewrite unscale_eq. unfold zcomb. rewrite !map_length. split.
  - intros (cs & Hl & ->). exists (lincomb d cs rows). split; [exists cs; auto|].
    rewrite lincomb_map_scale by (apply Rank.vZQ_lens; auto). rewrite vscale_mul. rewrite Rank.vZQ_lincomb.
    replace (rmul (ZQ c) (/ ZQ c)%Qc) with (@r1 Qc _); [rewrite vscale_1; reflexivity|]. cbn. rewrite Qcmult_inv_r; auto.
  - intros (z & (cs & Hl & ->) & E). exists cs. split; auto.
    rewrite lincomb_map_scale by (apply Rank.vZQ_lens; auto). change (map ZQ cs) with (vZQ cs). rewrite <- Rank.vZQ_lincomb, E, vscale_mul.
    replace (rmul (/ ZQ c)%Qc (ZQ c)) with (@r1 Qc _); [rewrite vscale_1; reflexivity|]. cbn. rewrite Qcmult_comm, Qcmult_inv_r; auto.
Qed.

Lemma r_to_i32_Some x z : r_to_i32 x = Some z <-> x = ZQ z /\ (- 2 ^ 31 <= z < 2 ^ 31)%Z.
Proof.
  unfold r_to_i32, to_i32. split.
  - destruct (Pos.eqb_spec (Qden x) 1) as [E|]; [|discriminate].
    destruct (Z.leb_spec (-2 ^ 31) (Qnum x)); [|discriminate]. destruct (Z.ltb_spec (Qnum x) (2 ^ 31)); [|discriminate]. intros [= <-].
    split; [apply ZQ_of_int; auto|]. lia.
  - intros [-> H]. destruct (ZQ_den z) as [E1 E2]. rewrite E1, E2. cbn [Pos.eqb].
    destruct (Z.leb_spec (-2 ^ 31) z); [|lia]. destruct (Z.ltb_spec z (2 ^ 31)); [|lia]. reflexivity.
Qed.

Lemma mapM_r_to_i32 (v : qvec) c l : mapM (fun x => unwrap (r_to_i32 (x * ZQ c)%Qc)) v = Ret l ->
  vZQ l = vscale (ZQ c) v.
Proof.
  revert l. induction v as [|x v IH]; intros l; cbn [mapM].
  - intros [= <-]. reflexivity.
  - destruct (r_to_i32 (x * ZQ c)%Qc) as [z|] eqn:E; cbn [unwrap bind]; [|discriminate].
    destruct (mapM _ v) as [l'| |] eqn:E'; cbn [bind]; try discriminate. intros [= <-].
    apply r_to_i32_Some in E as [E _]. unfold vZQ, Rank.vZQ in *. cbn. rewrite (IH l' eq_refl). f_equal. rewrite <- E. cbn. apply Qcmult_comm.
Qed.

Lemma foldM_rows c vs : forall bs r,
  foldM (fun bs d => do d' <- mapM (fun x => unwrap (r_to_i32 (x * ZQ c)%Qc)) d; extend_basis d' bs) bs vs = Ret r ->
  exists rows, map vZQ rows = map (vscale (ZQ c)) vs /\ foldM (fun bs v => extend_basis v bs) bs rows = Ret r.
Proof.
  induction vs as [|v vs IH]; intros bs r; cbn [foldM].
  - intros [= <-]. exists []. auto.
  - destruct (mapM _ v) as [l| |] eqn:E; cbn [bind]; try discriminate.
    destruct (extend_basis l bs) as [bs'| |] eqn:Eb; cbn [bind]; try discriminate.
    intros H. apply IH in H as (rows & E1 & E2). exists (l :: rows). cbn [map foldM]. rewrite E1, (mapM_r_to_i32 _ _ _ E), Eb. auto.
Qed.

Definition unit_rows (d : nat) (c : Z) : list (list Z) := map (fun k => map (fun j => if j =? k then c else 0%Z) (seq 0 d)) (seq 0 d).
Definition units (d : nat) : list qvec := map (fun k => map (fun j => if j =? k then 1%Qc else 0%Qc) (seq 0 d)) (seq 0 d).

Lemma unit_rows_unscale d c : c <> 0%Z -> unscale c (unit_rows d c) = units d.
Proof.
  intros Hc. unfold unscale, unit_rows, units. rewrite map_map. apply map_ext. intros k. rewrite map_map. apply map_ext. intros j.
  destruct (j =? k).
  - apply Qcmult_inv_r. intros E. apply Hc, ZQ_eq0; auto.
  - rewrite ZQ_0. unfold Qcdiv. ring.
Qed.

Lemma unscale_rows c (rows : list (list Z)) (vs : list qvec) : c <> 0%Z -> map vZQ rows = map (vscale (ZQ c)) vs -> unscale c rows = vs.
Proof.
  intros Hc E. rewrite unscale_eq, E, map_map. rewrite <- (map_id vs) at 2. apply map_ext. intros v. rewrite vscale_mul.
  replace (rmul (/ ZQ c)%Qc (ZQ c)) with (@r1 Qc _); [apply vscale_1|]. cbn. rewrite Qcmult_comm, Qcmult_inv_r; auto.
  intros E'. apply Hc, ZQ_eq0; auto.
Qed.

Lemma vget_unit_row d (c : Z) k j : j < d -> vget (map (fun j => if j =? k then c else 0%Z) (seq 0 d)) j = if j =? k then c else 0%Z.
Proof. intros Hj. unfold vget. rewrite (nth_indep _ _ (if 0 =? k then c else 0%Z)) by (rewrite map_length, seq_length; auto).
  rewrite (map_nth (fun j => if j =? k then c else 0%Z)), seq_nth by auto. reflexivity. Qed.

(** a list spanning multiples of all unit vectors has rank d *)
Lemma full_rank d c (bs : list (list Z)) : c <> 0%Z -> lens d bs -> echelon bs ->
  (forall k, k < d -> span d bs (map (fun j => if j =? k then c else 0%Z) (seq 0 d))) -> length bs = d.
Proof.
  intros Hc L E H. rewrite <- (pivots_length _ _ E).
  assert (I : incl (seq 0 d) (pivots bs)).
  { intros k Hk. apply in_seq in Hk. eapply span_pivot; [exact L|exact E|apply (H k); lia|].
    apply pivot_Some. splits.
    - rewrite map_length, seq_length. lia.
    - rewrite vget_unit_row by lia. rewrite Nat.eqb_refl. auto.
    - intros j Hj. rewrite vget_unit_row by lia. destruct (Nat.eqb_spec j k); [lia|reflexivity]. }
  pose proof (NoDup_incl_length (seq_NoDup d 0) I) as I1. rewrite seq_length in I1.
  assert (B : forall k (bs : list (list Z)), lens d bs -> echelon_from k bs -> k <= d -> length (pivots bs) + k <= d).
  { clear. intros k bs L E. induction E as [k|k p b bs Hp Hk E IH]; intros Hd; cbn; [lia|].
    destruct (lens_cons _ _ _ L) as [Hb L']. rewrite Hp. cbn. apply pivot_Some in Hp as (Hp & _). specialize (IH L' ltac:(lia)). unfold pivots in IH. lia. }
  specialize (B 0 bs L E ltac:(lia)). lia.
Qed.

Lemma map_vZQ_lens d c (rows : list (list Z)) (vs : list qvec) : lens d vs -> map vZQ rows = map (vscale (ZQ c)) vs -> lens d rows.
Proof.
  intros L. revert rows. induction L as [|v vs Hv L IH]; intros [|r rows]; cbn [map]; try discriminate; intros E; constructor.
  - apply (f_equal (fun l => length (hd [] l))) in E. cbn [hd] in E. rewrite Rank.vZQ_length, vscale_length in E. congruence.
  - apply IH. apply (f_equal (@tl _)) in E. exact E.
Qed.

Lemma rational_lattice_basis_ok d vs bs : lens d vs -> rational_lattice_basis vs = Ret bs ->
  length bs = d /\ lens d bs /\ forall x, zcomb d bs x <-> zcomb d (units d ++ vs) x.
Proof.
  intros L. unfold rational_lattice_basis. destruct vs as [|v0 vs']; [discriminate|]. cbn [nth_error unwrap bind].
  set (vs := v0 :: vs') in *. assert (Hd : length v0 = d) by (inversion L; auto). rewrite Hd.
  destruct (to_i32 (common_denom vs)) as [c|] eqn:Ec; cbn [unwrap bind]; [|discriminate].
  assert (Hc : (0 < c)%Z). { unfold to_i32 in Ec. destruct (_ && _) in Ec; [|discriminate]. injection Ec as <-. apply common_denom_pos. }
  assert (Hc0 : c <> 0%Z) by lia.
  rewrite (foldM_map (fun bs v => extend_basis v bs) (fun k => map (fun j => if j =? k then c else 0%Z) (seq 0 d))). fold (unit_rows d c).
  destruct (foldM _ [] (unit_rows d c)) as [b1| |] eqn:E1; cbn [bind]; try discriminate.
  destruct (foldM _ b1 vs) as [b2| |] eqn:E2; cbn [bind]; try discriminate. intros [= <-].
  apply foldM_rows in E2 as (rows & Er & E2).
  assert (Lu : lens d (unit_rows d c)). { apply Forall_forall. intros r Hr. apply in_map_iff in Hr as (k & <- & _). rewrite map_length, seq_length. auto. }
  assert (Lr : lens d rows) by (eapply map_vZQ_lens; eauto).
  assert (LL : lens d (unit_rows d c ++ rows)) by (apply Forall_app; auto).
  destruct (extend_all_span d _ LL) as (bs & Eb & Lb & Ech & Sp & _). unfold extend_all in Eb. rewrite foldM_app, E1 in Eb. cbn [bind] in Eb.
  assert (bs = b2) by congruence. subst bs. fold (unscale c b2). splits.
  - unfold unscale. rewrite map_length. eapply full_rank; eauto. intros k Hk. apply Sp. apply span_In; auto. apply in_app_iff. left.
    unfold unit_rows. apply in_map_iff. exists k. split; auto. apply in_seq. lia.
  - apply Forall_forall. intros r Hr. apply in_map_iff in Hr as (r' & <- & Hr'). rewrite map_length. eapply lens_In; eauto.
  - intros x. rewrite <- (unscale_rows c rows vs Hc0 Er), <- (unit_rows_unscale d c Hc0). unfold unscale at 2 3. rewrite <- map_app. fold (unscale c (unit_rows d c ++ rows)).
    rewrite !unscale_zcomb; auto. split; intros (z & Hz & E); exists z; split; auto; apply Sp; auto.
Qed.

(** it fails exactly when there is no vector or a number does not fit into 32 bits *)
Lemma rational_lattice_basis_total d vs : lens d vs -> vs <> [] -> (common_denom vs < 2 ^ 31)%Z ->
  (forall v x, In v vs -> In x v -> (- ZQ (2 ^ 31) <= x * ZQ (common_denom vs))%Qc /\ (x * ZQ (common_denom vs) < ZQ (2 ^ 31))%Qc) ->
  exists bs, rational_lattice_basis vs = Ret bs.
Proof.
  intros L Hne Hc Hx. unfold rational_lattice_basis. destruct vs as [|v0 vs']; [congruence|]. cbn [nth_error unwrap bind].
  set (vs := v0 :: vs') in *. assert (Hd : length v0 = d) by (inversion L; auto). rewrite Hd.
  pose proof (common_denom_pos vs) as Hp. set (c := common_denom vs) in *.
  assert (Ec : to_i32 c = Some c). { unfold to_i32. destruct (Z.leb_spec (-2 ^ 31) c); [|lia]. destruct (Z.ltb_spec c (2 ^ 31)); [auto|lia]. }
  rewrite Ec. cbn [unwrap bind].
  rewrite (foldM_map (fun bs v => extend_basis v bs) (fun k => map (fun j => if j =? k then c else 0%Z) (seq 0 d))). fold (unit_rows d c).
  assert (Lu : lens d (unit_rows d c)). { apply Forall_forall. intros r Hr. apply in_map_iff in Hr as (k & <- & _). rewrite map_length, seq_length. auto. }
  assert (R : forall l, incl l vs -> exists rows, lens d rows /\ forall b r, foldM (fun bs v => extend_basis v bs) b rows = Ret r ->
     foldM (fun bs d => do d' <- mapM (fun x => unwrap (r_to_i32 (x * ZQ c)%Qc)) d; extend_basis d' bs) b l = Ret r).
  { induction l as [|v l IH]; intros Hl.
    - exists []. split; [constructor|]. auto.
    - destruct IH as (rows & Lr & H); [intros y Hy; apply Hl; right; auto|].
      assert (Hv : In v vs) by (apply Hl; left; auto).
      assert (M : exists r, mapM (fun x => unwrap (r_to_i32 (x * ZQ c)%Qc)) v = Ret r /\ length r = length v).
      { assert (Hv' : forall x, In x v -> exists z, r_to_i32 (x * ZQ c)%Qc = Some z).
        { intros x Hxv. destruct (common_denom_int vs v x Hv Hxv) as [z Ez]. fold c in Ez. exists z. apply r_to_i32_Some. split; auto.
          destruct (Hx v x Hv Hxv) as [H1 H2]. rewrite Ez in H1, H2. rewrite <- ZQ_opp in H1. rewrite ZQ_le in H1. rewrite ZQ_lt in H2. lia. }
        clear -Hv'. induction v as [|x v IH]; cbn [mapM]; [exists []; auto|].
        destruct (Hv' x (or_introl eq_refl)) as [z ->]. cbn [unwrap bind].
        destruct IH as (r & -> & Hr); [intros; apply Hv'; right; auto|]. cbn [bind]. exists (z :: r). cbn. auto. }
      destruct M as (r & Mr & Hr). exists (r :: rows). split; [constructor; auto; rewrite Hr; eapply lens_In; eauto|].
      intros b r'. cbn [foldM]. rewrite Mr. cbn [bind]. destruct (extend_basis r b); cbn [bind]; try discriminate. apply H. }
  destruct (R vs (incl_refl _)) as (rows & Lr & H).
  assert (LL : lens d (unit_rows d c ++ rows)) by (apply Forall_app; auto).
  destruct (extend_all_span d _ LL) as (bs & Eb & _). unfold extend_all in Eb. rewrite foldM_app in Eb.
  destruct (foldM _ [] (unit_rows d c)) as [b1| |]; cbn [bind] in Eb |- *; try discriminate.
  rewrite (H b1 bs Eb). cbn [bind]. eauto.
Qed.
