(** Proofs about the lattice reductions of Lattices.v. *)
From Coq Require Import List ZArith Lia Bool PeanoNat QArith Qcanon Qround Wf_nat.
From Verif Require Import Base Vec Elim Scalars ZQ QcTac OrdSet Lattices RatLattice.
From Verif Require RankQ.
Import ListNotations.
Close Scope Q_scope. Close Scope Qc_scope.
Open Scope nat_scope.
Notation rk := RankQ.rk.

(** ** lattice operations, coordinate by coordinate *)
Notation lget := (fun (v : qvec) k => nth k v 0%Qc).
Lemma lneg_length v : length (lneg v) = length v.
Proof. apply map_length. Qed.
Lemma ladd_length n v w : length v = n -> length w = n -> length (ladd v w) = n.
Proof. intros <- L. unfold ladd. rewrite zipw_length, L. lia. Qed.
Lemma lsub_length n v w : length v = n -> length w = n -> length (lsub v w) = n.
Proof. intros <- L. unfold lsub. rewrite zipw_length, L. lia. Qed.
Lemma lmulc_length v t : length (lmulc v t) = length v.
Proof. apply map_length. Qed.
Lemma lget_neg v k : lget (lneg v) k = (- lget v k)%Qc.
Proof. unfold lneg. change 0%Qc with (Qcopp 0) at 1. exact (map_nth Qcopp v 0%Qc k). Qed.
Lemma lget_add n v w k : length v = n -> length w = n -> lget (ladd v w) k = (lget v k + lget w k)%Qc.
Proof.
  intros L. revert n w k L. unfold ladd. induction v as [|x v IH]; intros n [|y w] [|k] <- L'; try discriminate; cbn [zipw nth]; try ring.
  cbn in L'. apply (IH (length v)); auto.
Qed.
Lemma lget_sub n v w k : length v = n -> length w = n -> lget (lsub v w) k = (lget v k - lget w k)%Qc.
Proof.
  intros L. revert n w k L. unfold lsub. induction v as [|x v IH]; intros n [|y w] [|k] <- L'; try discriminate; cbn [zipw nth]; try ring.
  cbn in L'. apply (IH (length v)); auto.
Qed.
Lemma lget_mulc v t k : lget (lmulc v t) k = (lget v k * t)%Qc.
Proof. unfold lmulc. assert (E : 0%Qc = ((fun x => x * t) 0)%Qc) by ring. rewrite E at 1. exact (map_nth (fun x => x * t)%Qc v 0%Qc k). Qed.
Lemma lget_zero n k : lget (repeat 0%Qc n) k = 0%Qc.
Proof. revert k; induction n; destruct k; cbn; auto. Qed.
Lemma lvec_ext n (v w : qvec) : length v = n -> length w = n -> (forall k, lget v k = lget w k) -> v = w.
Proof. intros Lv Lw H. apply (nth_ext _ _ 0%Qc 0%Qc); [congruence|]. intros k _. apply H. Qed.

Ltac vlen := auto; repeat first [rewrite lneg_length | rewrite lmulc_length | rewrite repeat_length | apply ladd_length | apply lsub_length]; auto.
(** equations between vectors of length n *)
Ltac vring n := apply (lvec_ext n); [vlen|vlen|];
  let k := fresh "k" in intros k; cbn beta;
  repeat first [rewrite lget_neg | rewrite lget_mulc | rewrite lget_zero | rewrite (lget_add n) by vlen | rewrite (lget_sub n) by vlen]; try ring.

Lemma vadd_ladd v w : vadd v w = ladd v w.
Proof. reflexivity. Qed.
Lemma vscale_lmulc c v : vscale c v = lmulc v c.
Proof. unfold vscale, lmulc. apply map_ext. intros x. cbn. ring. Qed.
Lemma vzero_rep n : vzero (R := Qc) n = repeat 0%Qc n.
Proof. reflexivity. Qed.

(** ** integer combinations *)
Section Z.
  Variable n : nat.
  Lemma zcomb_length vs x : lens n vs -> zcomb n vs x -> length x = n.
  Proof. intros L (cs & _ & ->). apply (lincomb_length (R := Qc)); auto. Qed.
  Lemma zcomb_0 vs : lens n vs -> zcomb n vs (repeat 0%Qc n).
  Proof.
    intros L. exists (repeat 0%Z (length vs)). split; [apply repeat_length|]. assert (E : map ZQ (repeat 0%Z (length vs)) = vzero (R := Qc) (length vs)).
    { unfold vzero. induction (length vs) as [|k IH]; auto. cbn [repeat map]. rewrite IH. reflexivity. }
    rewrite E. symmetry. exact (lincomb_zero (R := Qc) n vs L).
  Qed.
  Lemma zcomb_add vs x y : lens n vs -> zcomb n vs x -> zcomb n vs y -> zcomb n vs (ladd x y).
  Proof.
    intros L (cs & Lc & ->) (ds & Ld & ->). exists (zipw (R := Z) Z.add cs ds). split.
    - pose proof (zipw_length (R := Z) Z.add cs ds) as E. rewrite E. lia.
    - rewrite <- vadd_ladd, (lincomb_add (R := Qc)) by (rewrite ?map_length; auto; congruence). f_equal.
      clear L. assert (E : length cs = length ds) by congruence. clear Lc Ld. revert ds E. unfold vadd. induction cs as [|c cs IH]; intros [|d ds] E; try discriminate; auto.
      cbn [map zipw]. rewrite ZQ_add. cbn in E. rewrite IH by lia. reflexivity.
  Qed.
  Lemma zcomb_scale vs z x : lens n vs -> zcomb n vs x -> zcomb n vs (lmulc x (ZQ z)).
  Proof.
    intros L (cs & Lc & ->). exists (map (Z.mul z) cs). split; [rewrite map_length; auto|].
    rewrite <- vscale_lmulc, (lincomb_scale (R := Qc)). f_equal. unfold vscale. rewrite !map_map. apply map_ext. intros c. rewrite ZQ_mul. reflexivity.
  Qed.
  Lemma zcomb_neg vs x : lens n vs -> zcomb n vs x -> zcomb n vs (lneg x).
  Proof.
    intros L H. assert (E : lneg x = lmulc x (ZQ (-1))); [|rewrite E; apply zcomb_scale; auto].
    unfold lneg, lmulc. apply map_ext. intros c. change (ZQ (-1)) with (- (1))%Qc. ring.
  Qed.
  Lemma zcomb_sub vs x y : lens n vs -> zcomb n vs x -> zcomb n vs y -> zcomb n vs (lsub x y).
  Proof.
    intros L Hx Hy. pose proof (zcomb_length _ _ L Hx). pose proof (zcomb_length _ _ L Hy).
    assert (E : lsub x y = ladd x (lneg y)) by (vring n). rewrite E. apply zcomb_add; auto. apply zcomb_neg; auto.
  Qed.
  Lemma zcomb_In vs v : lens n vs -> In v vs -> zcomb n vs v.
  Proof.
    intros L I. apply In_nth_error in I as (k & E). pose proof (proj1 (nth_error_Some vs k) ltac:(congruence)) as Hk.
    exists (vunit (R := Z) (length vs) k). split; [apply vunit_length|]. rewrite <- (lincomb_unit (R := Qc) n vs k v); auto. f_equal.
    unfold vunit. rewrite map_map. apply map_ext. intros j. destruct (j =? k); reflexivity.
  Qed.
  (** an induction principle *)
  Lemma zcomb_ind vs (P : qvec -> Prop) : lens n vs -> P (repeat 0%Qc n) -> (forall v z x, In v vs -> zcomb n vs x -> P x -> P (ladd (lmulc v (ZQ z)) x)) ->
    forall x, zcomb n vs x -> P x.
  Proof.
    intros L P0 PS.
    assert (G : forall ws, incl ws vs -> forall cs, length cs = length ws -> P (lincomb n (map ZQ cs) ws) /\ zcomb n vs (lincomb n (map ZQ cs) ws)).
    { induction ws as [|w ws IH]; intros I [|c cs] Lc; try discriminate; cbn [map lincomb].
      - split; [exact P0|]. apply zcomb_0; auto.
      - assert (Iw : In w vs) by (apply I; simpl; auto). destruct (IH ltac:(intros y Hy; apply I; simpl; auto) cs ltac:(cbn in Lc; lia)) as [H1 H2].
        rewrite vscale_lmulc, vadd_ladd. split; [apply PS; auto|]. apply zcomb_add; auto. apply zcomb_scale, zcomb_In; auto. }
    intros x (cs & Lc & ->). apply (G vs (incl_refl vs) cs Lc).
  Qed.
  Lemma zcomb_trans vs ws x : lens n vs -> lens n ws -> (forall v, In v vs -> zcomb n ws v) -> zcomb n vs x -> zcomb n ws x.
  Proof. intros Lv Lw H. apply zcomb_ind; auto; [apply zcomb_0; auto|]. intros v z y Hv _ Hy. apply zcomb_add; auto. apply zcomb_scale; auto. Qed.
  Lemma zcomb_span vs x : lens n vs -> zcomb n vs x -> span n vs x.
  Proof. intros L (cs & Lc & ->). exists (map ZQ cs). split; auto. rewrite map_length; auto. Qed.

  (** the same lattice *)
  Definition same_lattice (vs ws : list qvec) : Prop := lens n vs /\ lens n ws /\ (forall v, In v vs -> zcomb n ws v) /\ (forall w, In w ws -> zcomb n vs w).
  Lemma same_lattice_refl vs : lens n vs -> same_lattice vs vs.
  Proof. intros L. unfold same_lattice. splits; auto; intros v Hv; apply zcomb_In; auto. Qed.
  Lemma same_lattice_sym vs ws : same_lattice vs ws -> same_lattice ws vs.
  Proof. unfold same_lattice. tauto. Qed.
  Lemma same_lattice_trans a b c : same_lattice a b -> same_lattice b c -> same_lattice a c.
  Proof.
    intros (A & B & H1 & H2) (_ & D & H3 & H4). unfold same_lattice. splits; auto.
    - intros v Hv. apply (zcomb_trans b); auto.
    - intros v Hv. apply (zcomb_trans b); auto.
  Qed.
  Lemma same_lattice_iff vs ws : same_lattice vs ws -> forall x, zcomb n vs x <-> zcomb n ws x.
  Proof. intros (A & B & H1 & H2) x. split; apply zcomb_trans; auto. Qed.
  Lemma same_lattice_rk vs ws : same_lattice vs ws -> rk n vs = rk n ws.
  Proof.
    intros (A & B & H1 & H2). apply Nat.le_antisymm; apply (@RankQ.rk_mono); auto; intros v Hv; apply zcomb_span; auto.
  Qed.
End Z.

(** a common denominator *)
Lemma common_den (l : list Qc) : exists D, (0 < D)%Z /\ forall x, In x l -> exists z, (x * ZQ D = ZQ z)%Qc.
Proof.
  induction l as [|x l (D & HD & H)]; [exists 1%Z; split; [lia|intros x []]|].
  exists (D * Zpos (Qden x))%Z. split; [nia|]. intros y [->|Hy].
  - exists (Qnum y * D)%Z. rewrite !ZQ_mul, <- (Qc_num_den y). ring.
  - destruct (H y Hy) as (z & E). exists (z * Zpos (Qden x))%Z. rewrite !ZQ_mul, <- E. ring.
Qed.

Lemma q_div_ret a b : b <> 0%Qc -> q_div a b = Ret (a / b)%Qc.
Proof. intros H. unfold q_div. destruct (Qc_eqb_spec b 0%Qc); auto. contradiction. Qed.

(** rounding *)
Lemma q_ltb_spec a b : reflect (a < b)%Qc (q_ltb a b).
Proof. apply iff_reflect. unfold q_ltb. rewrite Qclt_alt. destruct (a ?= b)%Qc; split; congruence. Qed.
Lemma q_pos_spec a : reflect (0 < a)%Qc (q_pos a).
Proof. apply q_ltb_spec. Qed.
Lemma q_neg_spec a : reflect (a < 0)%Qc (q_neg a).
Proof. apply q_ltb_spec. Qed.
Lemma floor_bounds (a : Qc) : (ZQ (Qfloor a) <= a)%Qc /\ (a < ZQ (Qfloor a) + 1)%Qc.
Proof.
  pose proof (Qfloor_le a) as H1. pose proof (Qlt_floor a) as H2. unfold ZQ. split; unfold Qcle, Qclt.
  - rewrite this_Q2Qc. auto.
  - rewrite this_add, this_Q2Qc, this_1. rewrite inject_Z_plus in H2. auto.
Qed.
Lemma q_round_spec a : exists z, q_round a = ZQ z /\ (- (1) <= (a - ZQ z) + (a - ZQ z))%Qc /\ ((a - ZQ z) + (a - ZQ z) <= 1)%Qc.
Proof.
  assert (H : (Q2Qc (1 # 2) + Q2Qc (1 # 2) = 1)%Qc) by qc_compute. set (h := Q2Qc (1 # 2)) in *.
  unfold q_round. fold h. destruct (q_neg_spec a).
  - exists (- Qfloor (- a + h)%Qc)%Z. rewrite ZQ_opp. split; auto. destruct (floor_bounds (- a + h)%Qc). generalize dependent (ZQ (Qfloor (- a + h)%Qc)). intros f F1 F2. clearbody h. split; qclra.
  - exists (Qfloor (a + h)%Qc). split; auto. destruct (floor_bounds (a + h)%Qc). generalize dependent (ZQ (Qfloor (a + h)%Qc)). intros f F1 F2. clearbody h. split; qclra.
Qed.

Lemma Qcmult_le_0_compat' a b : (0 <= a)%Qc -> (0 <= b)%Qc -> (0 <= a * b)%Qc.
Proof. intros. qcnra. Qed.

(** ** scalar products *)
Section D.
  Variables (n : nat) (dot : qvec -> qvec -> Qc).
  Hypothesis dsym : forall x y, length x = n -> length y = n -> dot x y = dot y x.
  Hypothesis dadd : forall x y z, length x = n -> length y = n -> length z = n -> dot (ladd x y) z = (dot x z + dot y z)%Qc.
  Hypothesis dmul : forall x t z, length x = n -> length z = n -> dot (lmulc x t) z = (t * dot x z)%Qc.
  Hypothesis dpos : forall x, length x = n -> x <> repeat 0%Qc n -> (0 < dot x x)%Qc.
  Notation zero := (repeat 0%Qc n).
  Notation norm x := (dot x x).

  Lemma dneg x z : length x = n -> length z = n -> dot (lneg x) z = (- dot x z)%Qc.
  Proof.
    intros Lx Lz. assert (E : lneg x = lmulc x (- (1))%Qc) by (vring n). rewrite E, dmul by auto. ring.
  Qed.
  Lemma dsub x y z : length x = n -> length y = n -> length z = n -> dot (lsub x y) z = (dot x z - dot y z)%Qc.
  Proof.
    intros Lx Ly Lz. assert (E : lsub x y = ladd x (lneg y)) by (vring n). rewrite E, dadd, dneg by vlen. ring.
  Qed.
  Lemma dzero z : length z = n -> dot zero z = 0%Qc.
  Proof.
    intros Lz. assert (E : zero = lmulc zero 0%Qc) by (vring n). rewrite E, dmul by vlen. ring.
  Qed.
  Lemma dadd_r x y z : length x = n -> length y = n -> length z = n -> dot z (ladd x y) = (dot z x + dot z y)%Qc.
  Proof. intros Lx Ly Lz. rewrite dsym, dadd, (dsym x), (dsym y) by vlen. auto. Qed.
  Lemma dmul_r x t z : length x = n -> length z = n -> dot z (lmulc x t) = (t * dot z x)%Qc.
  Proof. intros Lx Lz. rewrite dsym, dmul, (dsym x) by vlen. auto. Qed.
  Lemma dneg_r x z : length x = n -> length z = n -> dot z (lneg x) = (- dot z x)%Qc.
  Proof. intros Lx Lz. rewrite dsym, dneg, (dsym x) by vlen. auto. Qed.
  Lemma dsub_r x y z : length x = n -> length y = n -> length z = n -> dot z (lsub x y) = (dot z x - dot z y)%Qc.
  Proof. intros Lx Ly Lz. rewrite dsym, dsub, (dsym x), (dsym y) by vlen. auto. Qed.
  Lemma dzero_r z : length z = n -> dot z zero = 0%Qc.
  Proof. intros Lz. rewrite dsym, dzero by vlen. auto. Qed.
  Ltac dexp := repeat first [rewrite dadd by vlen | rewrite dsub by vlen | rewrite dmul by vlen | rewrite dneg by vlen | rewrite dzero by vlen
    | rewrite dadd_r by vlen | rewrite dsub_r by vlen | rewrite dmul_r by vlen | rewrite dneg_r by vlen | rewrite dzero_r by vlen].
  Lemma norm_nonneg x : length x = n -> (0 <= norm x)%Qc.
  Proof.
    intros L. destruct (list_eq_dec Qc_eq_dec x zero) as [->|N]; [rewrite dzero by vlen; apply Qcle_refl|]. apply Qclt_le_weak. apply dpos; auto.
  Qed.
  Lemma dpos' x : length x = n -> norm x <> 0%Qc -> x <> zero.
  Proof. intros L H ->. apply H. apply dzero. vlen. Qed.

  (** products of lattice vectors are multiples of a fixed fraction *)
  Lemma integral vs : lens n vs -> exists D, (0 < D)%Z /\ forall x y, zcomb n vs x -> zcomb n vs y -> exists z, (dot x y * ZQ D = ZQ z)%Qc.
  Proof.
    intros L. destruct (common_den (flat_map (fun v => map (dot v) vs) vs)) as (D & HD & H). exists D. split; auto.
    assert (G : forall v, In v vs -> forall y, zcomb n vs y -> exists z, (dot v y * ZQ D = ZQ z)%Qc).
    { intros v Hv. assert (Lv : length v = n) by (apply (lens_In n vs); auto). apply zcomb_ind; auto.
      - exists 0%Z. dexp. change (ZQ 0) with 0%Qc. ring.
      - intros w z x Hw Hx (zx & Ex). assert (Lw : length w = n) by (apply (lens_In n vs); auto). pose proof (zcomb_length n _ _ L Hx) as Lx.
        destruct (H (dot v w)) as (zw & Ew); [apply in_flat_map; exists v; split; auto; apply in_map; auto|].
        exists (z * zw + zx)%Z. dexp. rewrite ZQ_add, ZQ_mul, <- Ex, <- Ew. ring. }
    intros x y Hx Hy. pose proof (zcomb_length n _ _ L Hy) as Ly. revert x Hx. apply zcomb_ind; auto.
    - exists 0%Z. dexp. change (ZQ 0) with 0%Qc. ring.
    - intros w z x Hw Hx (zx & Ex). assert (Lw : length w = n) by (apply (lens_In n vs); auto). pose proof (zcomb_length n _ _ L Hx) as Lx.
      destruct (G w Hw y Hy) as (zw & Ew). exists (z * zw + zx)%Z. dexp. rewrite ZQ_add, ZQ_mul, <- Ex, <- Ew. ring.
  Qed.

  (** a decreasing measure with values that are non-negative multiples of 1/D *)
  Lemma frac_acc {S} (f : S -> Qc) (D : Z) (Inv : S -> Prop) : (0 < D)%Z -> (forall s, Inv s -> (0 <= f s)%Qc /\ exists z, (f s * ZQ D = ZQ z)%Qc) ->
    forall s, Inv s -> Acc (fun a b => Inv a /\ Inv b /\ (f a < f b)%Qc) s.
  Proof.
    intros HD H. assert (G : forall k s z, Inv s -> (f s * ZQ D = ZQ z)%Qc -> (z <= Z.of_nat k)%Z -> Acc (fun a b => Inv a /\ Inv b /\ (f a < f b)%Qc) s).
    { assert (HQ : (0 < ZQ D)%Qc) by (change 0%Qc with (ZQ 0); apply ZQ_lt; auto).
      induction k as [|k IH]; intros s z Is Ez Hz; constructor; intros a (Ia & _ & Lt); destruct (H a Ia) as [P (za & Ea)].
      - exfalso. assert (Hf : (ZQ z <= ZQ 0)%Qc) by (apply ZQ_le; lia). change (ZQ 0) with 0%Qc in Hf. rewrite <- Ez in Hf. qcnra.
      - apply (IH a za); auto. assert (Hl : (ZQ za < ZQ z)%Qc) by (rewrite <- Ea, <- Ez; qcnra). rewrite ZQ_lt in Hl. lia. }
    intros s Is. destruct (H s Is) as [_ (z & Ez)]. apply (G (Z.to_nat z) s z); auto. lia.
  Qed.

  (** *** shift_for_dirichlet_domain *)
  Definition inside (q v : qvec) : Prop := (- dot v v <= dot q v + dot q v)%Qc /\ (dot q v + dot q v <= dot v v)%Qc.
  (** with a tolerance *)
  Definition inside_tol (eps : Qc) (q v : qvec) : Prop := (- dot v v <= dot q v + dot q v)%Qc /\ (dot q v + dot q v <= (1 + eps) * dot v v)%Qc.
  Section Shift.
    Variables (eps : Qc) (p : qvec) (vs : list qvec).
    Hypothesis Heps : (0 <= eps)%Qc.
    Hypothesis Lp : length p = n.
    Hypothesis Lvs : lens n vs.
    Hypothesis Nz : forall v, In v vs -> v <> zero.

    Lemma sd_step s v : length s = n -> In v vs ->
      let t := (dot (ladd p s) v / dot v v)%Qc in
      if q_ltb (t + t) (-(1))%Qc || q_ltb (1 + eps)%Qc (t + t)%Qc
      then zcomb n vs (lmulc v (q_round t)) /\ (norm (ladd p (lsub s (lmulc v (q_round t)))) < norm (ladd p s))%Qc
      else inside_tol eps (ladd p s) v.
    Proof.
      intros Ls Hv t. assert (Lv : length v = n) by (apply (lens_In n vs); auto).
      pose proof (dpos v Lv (Nz v Hv)) as Pv. set (q := ladd p s). assert (Lq : length q = n) by (unfold q; vlen).
      assert (Et : dot q v = (t * dot v v)%Qc) by (unfold t, q; field; intros X; rewrite X in Pv; qclra).
      destruct (q_ltb_spec (t + t) (-(1))%Qc) as [H1|H1], (q_ltb_spec (1 + eps)%Qc (t + t)%Qc) as [H2|H2]; cbn [orb].
      1-3: destruct (q_round_spec t) as (z & Ez & R1 & R2); split; [rewrite Ez; apply zcomb_scale, zcomb_In; auto|];
        rewrite Ez; assert (E : ladd p (lsub s (lmulc v (ZQ z))) = lsub q (lmulc v (ZQ z))) by (unfold q; vring n); rewrite E; clearbody q; clear E;
        dexp; rewrite (dsym v q), Et by auto;
        assert (X : ((t - ZQ z) * (t - ZQ z) < t * t)%Qc) by (clear - H1 H2 R1 R2 Heps; qcnra);
        assert (Y : (norm q - ZQ z * (t * norm v) - (ZQ z * (t * norm v - ZQ z * norm v)) = norm q + norm v * ((t - ZQ z) * (t - ZQ z) - t * t))%Qc) by ring;
        clear - X Y Pv; qcnra.
      unfold inside_tol. rewrite Et. apply Qcnot_lt_le in H1, H2. clear Et. clearbody t. clear - H1 H2 Pv. generalize dependent (dot v v). intros N Pv. split; qcnra.
    Qed.

    Lemma sd_pass_ok l s b : incl l vs -> zcomb n vs s ->
      exists s' b', sd_pass dot eps p l (s, b) = Ret (s', b') /\
      zcomb n vs s' /\ ((s' = s /\ b' = b /\ forall v, In v l -> inside_tol eps (ladd p s) v) \/ (b' = true /\ (norm (ladd p s') < norm (ladd p s))%Qc)).
    Proof.
      revert s b. induction l as [|v l IH]; intros s b I Hs.
      - exists s, b. split; auto. split; auto. left. splits; auto. intros v [].
      - pose proof (zcomb_length n _ _ Lvs Hs) as Ls. assert (Hv : In v vs) by (apply I; simpl; auto). pose proof (sd_step s v Ls Hv) as St. cbv zeta in St.
        set (t := (dot (ladd p s) v / dot v v)%Qc) in *.
        assert (I' : incl l vs) by (intros x Hx; apply I; simpl; auto).
        assert (Eq : q_div (dot (ladd p s) v) (dot v v) = Ret t).
        { apply q_div_ret. assert (Lv : length v = n) by (apply (lens_In n vs); auto). pose proof (dpos v Lv (Nz v Hv)) as Pv. intros X. rewrite X in Pv. qclra. }
        unfold sd_pass. cbn [foldM]. rewrite Eq. cbn [bind].
        destruct (q_ltb (t + t) (-(1))%Qc || q_ltb (1 + eps)%Qc (t + t)%Qc).
        + destruct St as [Z Lt]. destruct (IH (lsub s (lmulc v (q_round t))) true I' (zcomb_sub n vs _ _ Lvs Hs Z)) as (s' & b' & E & Z' & H). exists s', b'. split; [exact E|].
          split; auto. right. destruct H as [(-> & -> & _)|[-> Lt']]; split; auto. eapply Qclt_trans; eauto.
        + destruct (IH s b I' Hs) as (s' & b' & E & Z' & H). exists s', b'. split; [exact E|]. split; auto. destruct H as [(-> & -> & H)|[-> Lt']]; auto.
          left. splits; auto. intros w [<-|Hw]; auto.
    Qed.

    Theorem shift_tol : exists k0 s, (forall k, k0 <= k -> shift_for_dirichlet_domain dot eps k p vs = Ret s) /\
      zcomb n vs s /\ forall v, In v vs -> inside_tol eps (ladd p s) v.
    Proof.
      assert (L' : lens n (p :: vs)) by (constructor; auto). destruct (integral (p :: vs) L') as (D & HD & HI).
      assert (Hz : forall s, zcomb n vs s -> zcomb n (p :: vs) (ladd p s)).
      { intros s Hs. apply zcomb_add; auto; [apply zcomb_In; simpl; auto|]. apply (zcomb_trans n vs); auto. intros v Hv. apply zcomb_In; simpl; auto. }
      assert (Acc0 : Acc (fun a b => zcomb n vs a /\ zcomb n vs b /\ (norm (ladd p a) < norm (ladd p b))%Qc) zero).
      { apply (frac_acc (fun s => norm (ladd p s)) D (zcomb n vs)); auto; [|apply zcomb_0; auto].
        intros s Hs. split; [apply norm_nonneg; vlen; apply (zcomb_length n vs); auto|]. apply HI; auto. }
      destruct (loop_wf (sd_body dot eps p vs) (zcomb n vs) (fun a b => zcomb n vs a /\ zcomb n vs b /\ (norm (ladd p a) < norm (ladd p b))%Qc)
        (fun s => zcomb n vs s /\ forall v, In v vs -> inside_tol eps (ladd p s) v) zero) as (k0 & s & E & H); auto.
      - intros s Hs. unfold sd_body. destruct (sd_pass_ok vs s false (incl_refl vs) Hs) as (s' & b' & -> & Z & St). cbn [bind].
        destruct St as [(-> & -> & H)|[-> Lt]]; auto.
      - apply zcomb_0; auto.
      - exists k0, s. split; auto. intros k Hk. unfold shift_for_dirichlet_domain. rewrite Lp. auto.
    Qed.
  End Shift.
  Theorem shift_ok p vs : length p = n -> lens n vs -> (forall v, In v vs -> v <> zero) ->
    exists k0 s, (forall k, k0 <= k -> shift_for_dirichlet_domain dot 0%Qc k p vs = Ret s) /\
      zcomb n vs s /\ forall v, In v vs -> inside (ladd p s) v.
  Proof.
    intros Lp Lvs Nz. destruct (shift_tol 0%Qc p vs (Qcle_refl _) Lp Lvs Nz) as (k0 & s & E & Z & H). exists k0, s. splits; auto.
    intros v Hv. destruct (H v Hv) as [H1 H2]. split; auto. replace ((1 + 0) * dot v v)%Qc with (dot v v) in H2 by ring. auto.
  Qed.

  (** *** lagrange_reduced *)
  Definition lr_inv (b0 b1 : qvec) (st : qvec * qvec) : Prop := let '(u, v) := st in
    length u = n /\ length v = n /\ same_lattice n [b0; b1] [u; v] /\
    ((norm u <= norm v)%Qc \/ ((- norm v <= dot u v + dot u v)%Qc /\ (dot u v + dot u v <= norm v)%Qc)).

  Lemma lat2 u v u' v' : length u = n -> length v = n -> length u' = n -> length v' = n ->
    zcomb n [u; v] u' -> zcomb n [u; v] v' -> zcomb n [u'; v'] u -> zcomb n [u'; v'] v -> same_lattice n [u; v] [u'; v'].
  Proof.
    intros. assert (lens n [u; v]) by (repeat constructor; auto). assert (lens n [u'; v']) by (repeat constructor; auto).
    unfold same_lattice. splits; auto; intros x [<-|[<-|[]]]; auto.
  Qed.
  Lemma independent_nz vs : lens n vs -> rk n vs = length vs -> forall v, In v vs -> v <> zero.
  Proof.
    intros L R v Hv ->. apply In_nth_error in Hv as (k & E). pose proof (proj1 (nth_error_Some vs k) ltac:(congruence)) as Hk.
    pose proof (lincomb_unit (R := Qc) n vs k _ L E) as H. apply (@RankQ.rk_indep) in H; auto; [|apply vunit_length].
    pose proof (f_equal (fun l => vget l k) H) as H'. cbn beta in H'. rewrite vget_vunit, vget_vzero, Nat.eqb_refl in H'.
    destruct (Nat.ltb_spec k (length vs)); [|lia]. cbn in H'. discriminate.
  Qed.

  Theorem lagrange_tol eps b0 b1 : (0 <= eps)%Qc -> length b0 = n -> length b1 = n -> rk n [b0; b1] = 2 ->
    exists k0 u v, (forall k, k0 <= k -> lagrange_reduced dot eps k b0 b1 = Ret (u, v)) /\ length u = n /\ length v = n /\ same_lattice n [b0; b1] [u; v] /\
      (dot u v <= 0)%Qc /\ (- norm v <= dot u v)%Qc /\ (norm v * (1 - eps) <= norm u)%Qc.
  Proof.
    intros Heps L0 L1 R. assert (L : lens n [b0; b1]) by (repeat constructor; auto). destruct (integral [b0; b1] L) as (D & HD & HI).
    unfold lagrange_reduced. set (st0 := if q_ltb (dot b1 b1) (dot b0 b0) then (b1, b0) else (b0, b1)).
    assert (I0 : lr_inv b0 b1 st0).
    { unfold st0, lr_inv. destruct (q_ltb_spec (dot b1 b1) (dot b0 b0)) as [H|H].
      - splits; auto; [|left; apply Qclt_le_weak; auto]. assert (lens n [b1; b0]) by (repeat constructor; auto). apply lat2; auto; apply zcomb_In; simpl; auto.
      - splits; auto; [|left; apply Qcnot_lt_le; auto]. apply same_lattice_refl; auto. }
    destruct st0 as [u0 v0].
    destruct (loop_wf (lr_body dot eps) (lr_inv b0 b1) (fun a b => lr_inv b0 b1 a /\ lr_inv b0 b1 b /\ (norm (snd a) < norm (snd b))%Qc)
      (fun st => lr_inv b0 b1 st /\ (norm (snd st) * (1 - eps) <= norm (fst st))%Qc) (u0, v0)) as (k0 & [u v] & E & I & Le); auto.
    - intros [u v] I. pose proof I as (Lu & Lv & SL & _). unfold lr_body.
      destruct (q_ltb_spec (dot u u) (dot v v * (1 - eps))%Qc) as [H|H].
      2: { split; auto. cbn [fst snd]. apply Qcnot_lt_le in H. auto. }
      assert (Hlt : (dot u u < dot v v)%Qc).
      { pose proof (norm_nonneg v Lv) as Pv. assert (Xv : (0 <= dot v v * eps)%Qc) by (apply Qcmult_le_0_compat'; auto). generalize dependent (dot u u). generalize dependent (dot v v). intros Nv Pv Xv Nu H. replace (Nv * (1 - eps))%Qc with (Nv - Nv * eps)%Qc in H by ring. qclra. }
      clear H. rename Hlt into H.
      assert (Luv : lens n [u; v]) by (repeat constructor; auto).
      assert (Nu : u <> zero).
      { apply (independent_nz [u; v]); auto; [|simpl; auto]. rewrite <- (same_lattice_rk n _ _ SL). auto. }
      pose proof (dpos u Lu Nu) as Pu. rewrite q_div_ret by (intros X; rewrite X in Pu; qclra). cbn [bind]. destruct (q_round_spec (dot u v / dot u u)%Qc) as (z & Ez & R1 & R2). rewrite Ez.
      assert (Lw : length (lsub v (lmulc u (ZQ z))) = n) by vlen.
      assert (Et : (dot u v = (dot u v / dot u u) * dot u u)%Qc) by (field; intros X; rewrite X in Pu; qclra).
      assert (I' : lr_inv b0 b1 (lsub v (lmulc u (ZQ z)), u)).
      { unfold lr_inv. splits; auto.
        - eapply same_lattice_trans; [exact SL|]. assert (lens n [lsub v (lmulc u (ZQ z)); u]) by (repeat constructor; auto). apply lat2; auto.
          + apply zcomb_sub; auto; [apply zcomb_In; simpl; auto|]. apply zcomb_scale, zcomb_In; simpl; auto.
          + apply zcomb_In; simpl; auto.
          + apply zcomb_In; simpl; auto.
          + assert (Ev : v = ladd (lsub v (lmulc u (ZQ z))) (lmulc u (ZQ z))) by (vring n). rewrite Ev at 2.
            apply zcomb_add; auto; [apply zcomb_In; simpl; auto|]. apply zcomb_scale, zcomb_In; simpl; auto.
        - right. dexp. rewrite (dsym v u), Et by auto. generalize dependent (dot u v / dot u u)%Qc. intros t _ R1 R2 _. generalize dependent (dot u u). intros N _ Pu.
          assert (X : (0 <= N * (1 - ((t - ZQ z) + (t - ZQ z))))%Qc) by (apply Qcmult_le_0_compat'; qclra).
          assert (Y : (0 <= N * (1 + ((t - ZQ z) + (t - ZQ z))))%Qc) by (apply Qcmult_le_0_compat'; qclra).
          split; qclra. }
      splits; auto.
    - apply (frac_acc (fun st => norm (snd st)) D (lr_inv b0 b1)); auto. intros [u v] (Lu & Lv & SL & _). cbn [snd]. split; [apply norm_nonneg; auto|].
      assert (Zv : zcomb n [b0; b1] v) by (apply SL; simpl; auto). apply HI; auto.
    - destruct I as (Lu & Lv & SL & HH). cbn [fst snd] in Le.
      assert (B : (- norm v <= dot u v)%Qc /\ (dot u v <= norm v)%Qc).
      { pose proof (norm_nonneg (ladd u v) ltac:(vlen)) as P1. pose proof (norm_nonneg (lsub u v) ltac:(vlen)) as P2. revert P1 P2. dexp. rewrite (dsym v u) by auto.
        pose proof (norm_nonneg v Lv) as Pv. pose proof (norm_nonneg u Lu) as Pu. intros P1 P2. destruct HH as [HH|[H1 H2]]; splits; qclra. }
      destruct B as (B3 & B4).
      destruct (q_pos_spec (dot u v)) as [Pq|Pq].
      + exists k0, u, (lneg v). assert (Ln : length (lneg v) = n) by vlen. splits; auto.
        * intros k Hk. rewrite E by auto. cbn [bind]. destruct (q_pos_spec (dot u v)); [reflexivity|contradiction].
        * eapply same_lattice_trans; [exact SL|]. assert (lens n [u; lneg v]) by (repeat constructor; auto). assert (lens n [u; v]) by (repeat constructor; auto). apply lat2; auto.
          -- apply zcomb_In; simpl; auto.
          -- apply zcomb_neg, zcomb_In; simpl; auto.
          -- apply zcomb_In; simpl; auto.
          -- assert (Ev : v = lneg (lneg v)) by (vring n). rewrite Ev at 2. apply zcomb_neg, zcomb_In; simpl; auto.
        * dexp. qclra.
        * dexp. qclra.
        * dexp. qclra.
      + apply Qcnot_lt_le in Pq. exists k0, u, v. splits; auto. intros k Hk. rewrite E by auto. cbn [bind]. destruct (q_pos_spec (dot u v)); [|reflexivity]. qclra.
  Qed.

  Theorem lagrange_ok b0 b1 : length b0 = n -> length b1 = n -> rk n [b0; b1] = 2 ->
    exists k0 u v, (forall k, k0 <= k -> lagrange_reduced dot 0%Qc k b0 b1 = Ret (u, v)) /\ length u = n /\ length v = n /\ same_lattice n [b0; b1] [u; v] /\
      (dot u v <= 0)%Qc /\ (- norm u <= dot u v)%Qc /\ (- norm v <= dot u v)%Qc.
  Proof.
    intros L0 L1 R. destruct (lagrange_tol 0%Qc b0 b1 (Qcle_refl _) L0 L1 R) as (k0 & u & v & E & Lu & Lv & SL & H1 & H2 & H3).
    exists k0, u, v. splits; auto. pose proof (norm_nonneg (ladd u v) ltac:(vlen)) as P1. revert P1. dexp. rewrite (dsym v u) by auto.
    replace (norm v * (1 - 0))%Qc with (norm v) in H3 by ring. intros. qclra.
  Qed.

  (** *** selling_reduced *)
  (** four vectors that add up to zero and generate the lattice *)
  Record superbase (bs : list qvec) (v0 v1 v2 v3 : qvec) : Prop := {
    sb_0 : length v0 = n; sb_1 : length v1 = n; sb_2 : length v2 = n; sb_3 : length v3 = n;
    sb_sum : ladd (ladd (ladd v0 v1) v2) v3 = zero;
    sb_lat : same_lattice n bs [v0; v1; v2; v3] }.

  Lemma lat4 a b c e a' b' c' e' : length a = n -> length b = n -> length c = n -> length e = n -> length a' = n -> length b' = n -> length c' = n -> length e' = n ->
    (forall vs, lens n vs -> zcomb n vs a -> zcomb n vs b -> zcomb n vs c -> zcomb n vs e -> zcomb n vs a' /\ zcomb n vs b' /\ zcomb n vs c' /\ zcomb n vs e') ->
    (forall vs, lens n vs -> zcomb n vs a' -> zcomb n vs b' -> zcomb n vs c' -> zcomb n vs e' -> zcomb n vs a /\ zcomb n vs b /\ zcomb n vs c /\ zcomb n vs e) ->
    same_lattice n [a; b; c; e] [a'; b'; c'; e'].
  Proof.
    intros ? ? ? ? ? ? ? ? H1 H2. assert (L : lens n [a; b; c; e]) by (repeat constructor; auto). assert (L' : lens n [a'; b'; c'; e']) by (repeat constructor; auto).
    destruct (H1 [a; b; c; e] L) as (? & ? & ? & ?); try (apply zcomb_In; simpl; auto 6; fail).
    destruct (H2 [a'; b'; c'; e'] L') as (? & ? & ? & ?); try (apply zcomb_In; simpl; auto 6; fail).
    unfold same_lattice. splits; auto; intros x [<-|[<-|[<-|[<-|[]]]]]; auto.
  Qed.

  Lemma sum_get a b c e k : length a = n -> length b = n -> length c = n -> length e = n -> ladd (ladd (ladd a b) c) e = zero ->
    (lget a k + lget b k + lget c k + lget e k)%Qc = 0%Qc.
  Proof.
    intros La Lb Lc Le E. pose proof (f_equal (fun l => lget l k) E) as H. cbn beta in H. rewrite !(lget_add n), lget_zero in H by vlen. exact H.
  Qed.
  Lemma sum_dot a b c e x : length a = n -> length b = n -> length c = n -> length e = n -> ladd (ladd (ladd a b) c) e = zero -> length x = n ->
    (dot a x + dot b x + dot c x + dot e x)%Qc = 0%Qc.
  Proof.
    intros La Lb Lc Le E Lx. pose proof (f_equal (fun y => dot y x) E) as H. cbn beta in H. rewrite !dadd, dzero in H by vlen. exact H.
  Qed.

  Definition norms (vs : list qvec) : Qc := fold_right (fun v s => (norm v + s)%Qc) 0%Qc vs.
  Definition sb_inv (bs vs : list qvec) : Prop := exists v0 v1 v2 v3, vs = [v0; v1; v2; v3] /\ superbase bs v0 v1 v2 v3.

  Section Selling.
  Variable eps : Qc.
  Lemma selling_step_ok bs vs b i j : In (i, j) selling_pairs -> sb_inv bs vs ->
    let '(vs', b') := selling_step dot eps (vs, b) (i, j) in
    sb_inv bs vs' /\ ((vs' = vs /\ b' = b /\ (dot (sel vs i) (sel vs j) <= eps)%Qc) \/ (b' = true /\ ((0 <= eps)%Qc -> (norms vs' < norms vs)%Qc))).
  Proof.
    intros Hij (v0 & v1 & v2 & v3 & -> & [L0 L1 L2 L3 Su La]). unfold selling_step.
    destruct (q_ltb_spec eps (dot (sel [v0; v1; v2; v3] i) (sel [v0; v1; v2; v3] j))) as [H|H].
    2: { apply Qcnot_lt_le in H. split; [exists v0, v1, v2, v3; split; auto; split; auto|]. auto. }
    pose proof (sum_dot v0 v1 v2 v3 v0 L0 L1 L2 L3 Su L0) as S0. pose proof (sum_dot v0 v1 v2 v3 v1 L0 L1 L2 L3 Su L1) as S1.
    pose proof (sum_dot v0 v1 v2 v3 v2 L0 L1 L2 L3 Su L2) as S2. pose proof (sum_dot v0 v1 v2 v3 v3 L0 L1 L2 L3 Su L3) as S3.
    rewrite (dsym v1 v0), (dsym v2 v0), (dsym v3 v0) in S0 by auto. rewrite (dsym v2 v1), (dsym v3 v1) in S1 by auto. rewrite (dsym v3 v2) in S2 by auto.
    cbn in Hij. decompose [or] Hij; clear Hij; try contradiction;
      match goal with E : (_, _) = (_, _) |- _ => injection E as <- <- end; unfold sel in *; cbn [nth map seq Nat.eqb] in *; split.
    all: try (right; split; [reflexivity|]; intros Heps; unfold norms; cbn [fold_right]; dexp;
      rewrite ?(dsym v1 v0), ?(dsym v2 v0), ?(dsym v3 v0), ?(dsym v2 v1), ?(dsym v3 v1), ?(dsym v3 v2) by auto; qclra).
    all: eexists _, _, _, _; split; [reflexivity|]; split; [vlen|vlen|vlen|vlen| |].
    all: try (apply (lvec_ext n); [vlen|vlen|]; intros k; pose proof (sum_get v0 v1 v2 v3 k L0 L1 L2 L3 Su) as Sk; cbn beta;
      repeat first [rewrite lget_neg | rewrite lget_zero | rewrite (lget_add n) by vlen]; transitivity (lget v0 k + lget v1 k + lget v2 k + lget v3 k)%Qc; [ring | exact Sk]).
    all: eapply same_lattice_trans; [exact La|]; apply lat4; vlen.
    all: try (intros vs Lvs Z0 Z1 Z2 Z3; splits; auto; try (apply zcomb_neg; auto); try (apply zcomb_add; auto); fail).
    all: intros vs Lvs Z0 Z1 Z2 Z3.
    all: assert (NN : forall x, length x = n -> zcomb n vs (lneg x) -> zcomb n vs x) by
      (intros x Lx Zx; assert (Ex : x = lneg (lneg x)) by (vring n); rewrite Ex; apply zcomb_neg; auto).
    all: assert (SS : forall x y, length x = n -> length y = n -> zcomb n vs y -> zcomb n vs (ladd x y) -> zcomb n vs x) by
      (intros x y Lx Ly Zy Zx; assert (Ex : x = lsub (ladd x y) y) by (vring n); rewrite Ex; apply zcomb_sub; auto).
    all: splits; eauto.
  Qed.

  Lemma selling_fold bs l : incl l selling_pairs -> forall vs b, sb_inv bs vs ->
    let '(vs', b') := fold_left (selling_step dot eps) l (vs, b) in
    sb_inv bs vs' /\ ((vs' = vs /\ b' = b /\ forall i j, In (i, j) l -> (dot (sel vs i) (sel vs j) <= eps)%Qc) \/ (b' = true /\ ((0 <= eps)%Qc -> (norms vs' < norms vs)%Qc))).
  Proof.
    induction l as [|[i j] l IH]; intros Hl vs b I; cbn [fold_left].
    - split; auto. left. splits; auto. intros i j [].
    - pose proof (selling_step_ok bs vs b i j (Hl _ (or_introl eq_refl)) I) as H1. destruct (selling_step dot eps (vs, b) (i, j)) as [vs1 b1].
      destruct H1 as [I1 H1]. pose proof (IH (fun x Hx => Hl x (or_intror Hx)) vs1 b1 I1) as H2. destruct (fold_left (selling_step dot eps) l (vs1, b1)) as [vs2 b2].
      destruct H2 as [I2 H2]. split; auto. destruct H1 as [(-> & -> & H1)|[-> H1]]; destruct H2 as [(-> & -> & H2)|[-> H2]].
      + left. splits; auto. intros i' j' [E|E]; [injection E as <- <-; auto|auto].
      + right. auto.
      + right. auto.
      + right. split; auto. intros He. eapply Qclt_trans; [apply H2|apply H1]; auto.
  Qed.

  (** for every tolerance: what is returned *)
  Definition sb_small (bs vs : list qvec) : Prop := sb_inv bs vs /\ forall i j, In (i, j) selling_pairs -> (dot (sel vs i) (sel vs j) <= eps)%Qc.
  Lemma selling_body_ok bs vs : sb_inv bs vs -> exists r, selling_body dot eps vs = Ret r /\ match r with inl vs' => sb_inv bs vs' | inr vs' => sb_small bs vs' end.
  Proof.
    intros I. unfold selling_body. pose proof (selling_fold bs selling_pairs (fun x Hx => Hx) vs false I) as H.
    destruct (fold_left (selling_step dot eps) selling_pairs (vs, false)) as [s' b]. destruct H as [I1 [(-> & -> & H)|[-> H]]]; eexists; (split; [reflexivity|]); auto. split; auto.
  Qed.

  Lemma norms_nonneg vs : lens n vs -> (0 <= norms vs)%Qc.
  Proof.
    induction 1 as [|v vs Lv Lvs IH]; cbn [norms fold_right]; [apply Qcle_refl|]. pose proof (norm_nonneg v Lv). fold (norms vs). qclra.
  Qed.

  Theorem selling_tol u v w : (0 <= eps)%Qc -> length u = n -> length v = n -> length w = n ->
    exists k0 v0 v1 v2 v3, (forall k, k0 <= k -> selling_reduced dot eps k u v w = Ret (v0, v1, v2)) /\ superbase [u; v; w] v0 v1 v2 v3 /\
      (dot v0 v1 <= eps /\ dot v0 v2 <= eps /\ dot v0 v3 <= eps /\ dot v1 v2 <= eps /\ dot v1 v3 <= eps /\ dot v2 v3 <= eps)%Qc.
  Proof.
    intros Heps Lu Lv Lw. assert (L3 : lens n [u; v; w]) by (repeat constructor; auto).
    destruct (integral [u; v; w] L3) as (D & HD & Int).
    set (Inv := sb_inv [u; v; w]). set (lt := fun s' s => Inv s' /\ Inv s /\ (norms s' < norms s)%Qc).
    set (Post := fun vs => sb_inv [u; v; w] vs /\ forall i j, In (i, j) selling_pairs -> (dot (sel vs i) (sel vs j) <= eps)%Qc).
    assert (I0 : Inv [u; v; w; lneg (ladd (ladd u v) w)]).
    { exists u, v, w, (lneg (ladd (ladd u v) w)). split; auto. split; vlen.
      - vring n.
      - assert (Lx : lens n [u; v; w; lneg (ladd (ladd u v) w)]) by (repeat constructor; vlen).
        split; auto. split; auto. split.
        + intros x [<-|[<-|[<-|[]]]]; apply zcomb_In; simpl; auto.
        + intros x [<-|[<-|[<-|[<-|[]]]]]; try (apply zcomb_In; simpl; auto; fail).
          apply zcomb_neg; auto. apply zcomb_add; auto. apply zcomb_add; auto. all: apply zcomb_In; simpl; auto. }
    destruct (loop_wf (selling_body dot eps) Inv lt Post [u; v; w; lneg (ladd (ladd u v) w)]) as (k0 & r & Hr & (v0 & v1 & v2 & v3 & -> & Sb) & Ho).
    - intros s Is. unfold selling_body. pose proof (selling_fold [u; v; w] selling_pairs (fun x Hx => Hx) s false Is) as H.
      destruct (fold_left (selling_step dot eps) selling_pairs (s, false)) as [s' b]. destruct H as [I1 [(-> & -> & H)|[-> H]]].
      + split; auto.
      + split; auto. unfold lt. auto.
    - exact I0.
    - apply (frac_acc norms D Inv HD); [|exact I0]. intros s (w0 & w1 & w2 & w3 & -> & [L0 L1 L2 L3' _ La]).
      split; [apply norms_nonneg; repeat constructor; auto|]. destruct La as (_ & _ & _ & La).
      assert (Z : forall x, In x [w0; w1; w2; w3] -> exists z, (norm x * ZQ D = ZQ z)%Qc) by (intros x Hx; apply Int; apply La; auto).
      destruct (Z w0) as [z0 E0]; [simpl; auto|]. destruct (Z w1) as [z1 E1]; [simpl; auto|]. destruct (Z w2) as [z2 E2]; [simpl; auto|]. destruct (Z w3) as [z3 E3]; [simpl; auto|].
      exists (z0 + z1 + z2 + z3)%Z. unfold norms. cbn [fold_right]. rewrite !ZQ_add, <- E0, <- E1, <- E2, <- E3. ring.
    - exists k0, v0, v1, v2, v3. split; [|split; [exact Sb|]].
      + intros k Hk. unfold selling_reduced. rewrite (Hr k Hk). reflexivity.
      + splits; [apply (Ho 0 1)|apply (Ho 0 2)|apply (Ho 0 3)|apply (Ho 1 2)|apply (Ho 1 3)|apply (Ho 2 3)]; cbn; auto 10.
  Qed.
  End Selling.
  Theorem selling_ok u v w : length u = n -> length v = n -> length w = n ->
    exists k0 v0 v1 v2 v3, (forall k, k0 <= k -> selling_reduced dot 0%Qc k u v w = Ret (v0, v1, v2)) /\ superbase [u; v; w] v0 v1 v2 v3 /\
      (dot v0 v1 <= 0 /\ dot v0 v2 <= 0 /\ dot v0 v3 <= 0 /\ dot v1 v2 <= 0 /\ dot v1 v3 <= 0 /\ dot v2 v3 <= 0)%Qc.
  Proof. exact (fun Lu Lv Lw => selling_tol 0%Qc u v w (Qcle_refl _) Lu Lv Lw). Qed.
End D.
