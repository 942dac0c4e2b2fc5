(** Proofs about [generate]: the operators it lists are the products of the generators,
    up to integer translations. *)
From Coq Require Import List ZArith Lia Bool PeanoNat QArith Qcanon Qround.
From Verif Require Import Base QcTac Vec Elim Scalars Matrix MatrixMore LinAlg ZQ Lattices Reduce Geometry Basics.
From Verif Require PGraphBase Periodic Props_Geometry.
Import ListNotations.
Close Scope Q_scope. Close Scope Qc_scope.
Open Scope nat_scope.

Definition isint (q : Qc) : Prop := exists z : Z, q = ZQ z.
Lemma isint_0 : isint 0%Qc. Proof. exists 0%Z. reflexivity. Qed.
Lemma isint_add p q : isint p -> isint q -> isint (p + q)%Qc.
Proof. intros [z ->] [w ->]. exists (z + w)%Z. rewrite ZQ_add. auto. Qed.
Lemma isint_opp p : isint p -> isint (- p)%Qc.
Proof. intros [z ->]. exists (- z)%Z. rewrite ZQ_opp. auto. Qed.
Lemma isint_mul p q : isint p -> isint q -> isint (p * q)%Qc.
Proof. intros [z ->] [w ->]. exists (z * w)%Z. rewrite ZQ_mul. auto. Qed.
Lemma isint_sum n f : (forall i, i < n -> isint (f i)) -> isint (sumf n f).
Proof.
  induction n as [|n IH]; intros H; cbn [sumf]; [apply isint_0|]. apply isint_add; auto.
Qed.

Lemma q_rem1_int x : isint (q_rem1 x - x)%Qc.
Proof.
  unfold q_rem1. destruct (q_neg x).
  - exists (Qfloor (- x)%Qc). ring.
  - exists (- Qfloor x)%Z. rewrite ZQ_opp. ring.
Qed.
Lemma q_rem1_pos x : (0 <= x)%Qc -> (0 <= q_rem1 x)%Qc /\ (q_rem1 x < 1)%Qc.
Proof.
  intros H. unfold q_rem1. destruct (q_neg_spec x) as [N|N]; [exfalso; apply Qcle_not_lt in H; auto|].
  destruct (floor_bounds x) as [H1 H2]. generalize dependent (ZQ (Qfloor x)). intros f H1 H2. split; qclra.
Qed.
Lemma q_rem1_neg x : (x <= 0)%Qc -> (-(1) < q_rem1 x)%Qc /\ (q_rem1 x <= 0)%Qc.
Proof.
  intros H. unfold q_rem1. destruct (q_neg_spec x) as [N|N].
  - destruct (floor_bounds (- x)%Qc) as [H1 H2]. generalize dependent (ZQ (Qfloor (- x)%Qc)). intros f H1 H2. split; qclra.
  - assert (x = 0%Qc) as ->. { apply Qcnot_lt_le in N. apply Qcle_antisym; auto. } split; vm_compute; congruence.
Qed.
Lemma q_rem1_range x : (-(1) < q_rem1 x)%Qc /\ (q_rem1 x < 1)%Qc.
Proof.
  destruct (Qclt_le_dec x 0) as [H|H].
  - destruct (q_rem1_neg x) as [A B]; [apply Qclt_le_weak; auto|]. split; auto. qclra.
  - destruct (q_rem1_pos x) as [A B]; auto. split; auto. qclra.
Qed.

Lemma mat_eqb_eq (a b : mat Qc) : mat_eqb a b = true <-> a = b.
Proof. apply Props_Geometry.mat_eqb_spec. Qed.
Lemma aff_eqb_eq (a b : aff) : aff_eqb a b = true <-> a = b.
Proof.
  unfold aff_eqb. rewrite andb_true_iff, !mat_eqb_eq. destruct a as [la sa], b as [lb sb]; cbn [lin shift]. split; [intros [-> ->]; auto|intros [= -> ->]; auto].
Qed.

Lemma mod_z_am d f s : aff_mod_z (am d f s) = Ret (am d f (fun i => q_rem1 (s i))).
Proof.
  unfold aff_mod_z, vec_mod_z, am. cbn [lin shift]. rewrite cv_data, map_map. rewrite <- (cv_data d (fun i => q_rem1 (s i))).
  rewrite vec_new_data. cbn [bind]. apply aff_new_am.
Qed.

(** same linear part, shifts that differ by an integer vector *)
Definition cong (d : nat) (a b : aff) : Prop := exists f s g t, a = am d f s /\ b = am d g t /\
  (forall i j, i < d -> j < d -> f i j = g i j) /\ (forall i, i < d -> isint (s i - t i)%Qc).
Definition isam (d : nat) (a : aff) : Prop := exists f s, a = am d f s.

Lemma cong_am d f s g t : cong d (am d f s) (am d g t) <->
  (forall i j, i < d -> j < d -> f i j = g i j) /\ (forall i, i < d -> isint (s i - t i)%Qc).
Proof.
  split.
  - intros (f' & s' & g' & t' & E1 & E2 & H1 & H2). apply am_inj in E1 as [A1 A2]. apply am_inj in E2 as [B1 B2]. split; intros.
    + rewrite A1, B1 by auto. auto.
    + rewrite A2, B2 by auto. auto.
  - intros [H1 H2]. exists f, s, g, t. splits; auto.
Qed.
Lemma cong_isam d a b : cong d a b -> isam d a /\ isam d b.
Proof. intros (f & s & g & t & -> & -> & _). split; unfold isam; eauto. Qed.
Lemma cong_refl d a : isam d a -> cong d a a.
Proof. intros (f & s & ->). apply cong_am. split; auto. intros. replace (s i - s i)%Qc with 0%Qc by ring. apply isint_0. Qed.
Lemma cong_sym d a b : cong d a b -> cong d b a.
Proof.
  intros (f & s & g & t & -> & -> & H1 & H2). apply cong_am. split; [intros; symmetry; auto|].
  intros i Hi. replace (t i - s i)%Qc with (- (s i - t i))%Qc by ring. apply isint_opp. auto.
Qed.
Lemma cong_trans d a b c : cong d a b -> cong d b c -> cong d a c.
Proof.
  intros (f & s & g & t & -> & -> & H1 & H2) (g' & t' & h & u & E & -> & H3 & H4). apply am_inj in E as [E1 E2]. apply cong_am. split.
  - intros. rewrite H1, E1 by auto. auto.
  - intros i Hi. replace (s i - u i)%Qc with ((s i - t i) + (t' i - u i))%Qc by (rewrite E2 by auto; ring). apply isint_add; auto.
Qed.
Lemma mod_z_cong d a : isam d a -> exists b, aff_mod_z a = Ret b /\ cong d b a.
Proof.
  intros (f & s & ->). eexists. split; [apply mod_z_am|]. apply cong_am. split; auto. intros. apply q_rem1_int.
Qed.

(** composition on the right keeps congruence; on the left it does so for integral linear parts *)
Lemma cong_mul_r d a a' b : 0 < d -> cong d a a' -> isam d b -> exists p p', aff_mul a b = Ret p /\ aff_mul a' b = Ret p' /\ cong d p p'.
Proof.
  intros Hd (f & s & g & t & -> & -> & H1 & H2) (h & u & ->). rewrite !aff_mul_am by auto. do 2 eexists. splits; auto. apply cong_am. split.
  - intros i j Hi Hj. unfold lmul. apply sumf_ext. intros k Hk. rewrite H1 by auto. auto.
  - intros i Hi. rewrite (lapp_ext d f g u u i) by auto. cbn [radd Qc_dom]. replace (lapp d g u i + s i - (lapp d g u i + t i))%Qc with (s i - t i)%Qc by ring. auto.
Qed.
Definition intlin (d : nat) (a : aff) : Prop := exists f s, a = am d f s /\ forall i j, i < d -> j < d -> isint (f i j).
Lemma intlin_am d f s : intlin d (am d f s) <-> forall i j, i < d -> j < d -> isint (f i j).
Proof.
  split; [|intros H; exists f, s; auto]. intros (g & t & E & H) i j Hi Hj. apply am_inj in E as [E _]. rewrite E by auto. auto.
Qed.
Lemma lapp_int d f v i : (forall k, k < d -> isint (f i k)) -> (forall k, k < d -> isint (v k)) -> isint (lapp d f v i).
Proof. intros Hf Hv. apply isint_sum. intros k Hk. apply isint_mul; auto. Qed.
Lemma cong_mul_l d a b b' : 0 < d -> intlin d a -> cong d b b' -> exists p p', aff_mul a b = Ret p /\ aff_mul a b' = Ret p' /\ cong d p p'.
Proof.
  intros Hd (h & u & -> & HI) (f & s & g & t & -> & -> & H1 & H2). rewrite !aff_mul_am by auto. do 2 eexists. splits; auto. apply cong_am. split.
  - intros i j Hi Hj. unfold lmul. apply sumf_ext. intros k Hk. rewrite H1 by auto. auto.
  - intros i Hi. cbn [radd Qc_dom]. replace (lapp d h s i + u i - (lapp d h t i + u i))%Qc with (lapp d h s i - lapp d h t i)%Qc by ring.
    pose proof (lapp_sub d h s t i) as E. cbn [rsub Qc_dom] in E. rewrite <- E. apply lapp_int; auto.
Qed.
Lemma intlin_mul d a b p : 0 < d -> intlin d a -> intlin d b -> aff_mul a b = Ret p -> intlin d p.
Proof.
  intros Hd (f & s & -> & Hf) (g & t & -> & Hg). rewrite aff_mul_am by auto. intros [= <-]. apply intlin_am. intros i j Hi Hj.
  apply isint_sum. intros k Hk. apply isint_mul; auto.
Qed.
Lemma mul_isam d a b : 0 < d -> isam d a -> isam d b -> exists p, aff_mul a b = Ret p /\ isam d p.
Proof. intros Hd (f & s & ->) (g & t & ->). rewrite aff_mul_am by auto. eexists. split; auto. unfold isam; eauto. Qed.

(** ** products of generators *)
Inductive word (d : nat) (gens : list aff) : aff -> Prop :=
| word_id e : aff_identity d = Ret e -> word d gens e
| word_mul a b p : word d gens a -> In b gens -> aff_mul a b = Ret p -> word d gens p.

Section Gen.
  Context (d : nat) (gens : list aff) (Hd : 0 < d) (Hg : Forall (isam d) gens).

  Lemma gens_isam b : In b gens -> isam d b.
  Proof. rewrite Forall_forall in Hg. auto. Qed.
  Lemma word_isam w : word d gens w -> isam d w.
  Proof.
    induction 1 as [e E|a b p Ha IH Hb E].
    - rewrite aff_identity_am in E by auto. injection E as <-. unfold isam; eauto.
    - destruct (mul_isam d a b Hd IH (gens_isam b Hb)) as (p' & E' & I). congruence.
  Qed.

  Definition pm (a b x : aff) : Prop := exists p, aff_mul a b = Ret p /\ aff_mod_z p = Ret x.
  Lemma pm_total a b : isam d a -> isam d b -> exists x, pm a b x /\ isam d x.
  Proof.
    intros Ha Hb. destruct (mul_isam d a b Hd Ha Hb) as (p & E & Ip). destruct (mod_z_cong d p Ip) as (x & Ex & C). exists x.
    split; [exists p; auto|]. apply (cong_isam d x p C).
  Qed.

  Lemma gen_fold a bs : isam d a -> incl bs gens -> forall seen res, (forall x, In x seen <-> In x res) -> NoDup res ->
    exists seen' ext, foldM (gen_step a) (seen, res) bs = Ret (seen', res ++ ext) /\ (forall x, In x seen' <-> In x (res ++ ext)) /\ NoDup (res ++ ext) /\
      (forall x, In x ext -> exists b, In b bs /\ pm a b x) /\ (forall b, In b bs -> exists x, In x (res ++ ext) /\ pm a b x).
  Proof.
    intros Ha. induction bs as [|b bs IH]; intros Inc seen res HS ND.
    - exists seen, []. rewrite app_nil_r. splits; auto; simpl; tauto.
    - destruct (pm_total a b Ha (gens_isam b (Inc b (or_introl eq_refl)))) as (x & (p & E1 & E2) & Ix). cbn [foldM gen_step]. rewrite E1. cbn [bind]. rewrite E2. cbn [bind].
      assert (Inc' : incl bs gens) by (intros y Hy; apply Inc; right; auto).
      destruct (existsb (aff_eqb x) seen) eqn:Ex.
      + destruct (IH Inc' seen res HS ND) as (seen' & ext & F & HS' & ND' & P1 & P2). exists seen', ext. splits; auto.
        * intros y Hy. destruct (P1 y Hy) as (c & Hc & Pc). exists c. split; auto. right. auto.
        * intros c [<-|Hc]; auto. apply existsb_exists in Ex as (y & Hy & E). apply aff_eqb_eq in E as <-. exists x. split; [|exists p; auto].
          apply in_or_app. left. apply HS. auto.
      + assert (Nx : ~ In x res). { intros C. apply HS in C. assert (existsb (aff_eqb x) seen = true); [|congruence]. apply existsb_exists. exists x. split; auto. apply aff_eqb_eq. auto. }
        destruct (IH Inc' (x :: seen) (res ++ [x])) as (seen' & ext & F & HS' & ND' & P1 & P2).
        * intros y. rewrite in_app_iff. simpl. rewrite HS. tauto.
        * apply PGraphBase.NoDup_snoc; auto.
        * exists seen', (x :: ext). rewrite <- app_assoc in F, HS', ND', P2. cbn [app] in *. splits; auto.
          { intros y [<-|Hy]; [exists b; split; [left; auto|exists p; auto]|]. destruct (P1 y Hy) as (c & Hc & Pc). exists c. split; auto. right. auto. }
          { intros c [<-|Hc]; auto. exists x. split; [|exists p; auto]. apply in_or_app. right. left. auto. }
  Qed.
  (** ** the loop *)
  Definition small (a : aff) : Prop := exists f s, a = am d f s /\ forall i, i < d -> (-(1) < s i)%Qc /\ (s i < 1)%Qc.
  Lemma pm_small a b x : isam d a -> isam d b -> pm a b x -> small x.
  Proof.
    intros (f & s & ->) (g & t & ->) (p & E1 & E2). rewrite aff_mul_am in E1 by auto. injection E1 as <-. rewrite mod_z_am in E2. injection E2 as <-.
    do 2 eexists. split; [reflexivity|]. intros i Hi. apply q_rem1_range.
  Qed.
  Lemma pm_cong a b x w : cong d a w -> isam d b -> pm a b x -> exists p, aff_mul w b = Ret p /\ cong d x p.
  Proof.
    intros C Hb (p & E1 & E2). destruct (cong_mul_r d a w b Hd C Hb) as (p1 & p2 & F1 & F2 & C2). exists p2. split; auto.
    rewrite E1 in F1. injection F1 as <-. destruct (mod_z_cong d p) as (y & Ey & Cy); [apply (cong_isam d p p2 C2)|].
    rewrite E2 in Ey. injection Ey as <-. apply cong_trans with p; auto.
  Qed.

  Definition ide : aff := am d (@Matrix.delta Qc _) (fun _ => 0%Qc).
  Record ginv (st : nat * (list aff * list aff)) : Prop := {
    gi_le : fst st <= length (snd (snd st));
    gi_seen : forall x, In x (fst (snd st)) <-> In x (snd (snd st));
    gi_nd : NoDup (snd (snd st));
    gi_id : nth_error (snd (snd st)) 0 = Some ide;
    gi_small : forall x, In x (snd (snd st)) -> small x;
    gi_word : forall x, In x (snd (snd st)) -> exists w, word d gens w /\ cong d x w;
    gi_done : forall j a b, j < fst st -> nth_error (snd (snd st)) j = Some a -> In b gens -> exists x, In x (snd (snd st)) /\ pm a b x }.

  Lemma small_isam a : small a -> isam d a.
  Proof. intros (f & s & -> & _). unfold isam; eauto. Qed.
  Lemma ginv_init : ginv (0, ([ide], [ide])).
  Proof.
    constructor; cbn [fst snd]; auto.
    - lia.
    - tauto.
    - repeat constructor. simpl. tauto.
    - intros x [<-|[]]. exists delta, (fun _ => 0%Qc). split; auto. intros. split; reflexivity.
    - intros x [<-|[]]. exists ide. split; [apply word_id; exact (aff_identity_am d Hd)|]. apply cong_refl. unfold isam, ide; eauto.
    - intros. lia.
  Qed.
  Lemma ginv_step i seen res : ginv (i, (seen, res)) -> i < length res ->
    exists st', gen_body gens (i, (seen, res)) = Ret (inl (i + 1, st')) /\ ginv (i + 1, st').
  Proof.
    intros G Hi. destruct G as [G1 G2 G3 G4 G5 G6 G7]. cbn [fst snd] in *. unfold gen_body. destruct (Nat.ltb_spec i (length res)); [|lia].
    destruct (nth_error res i) as [a|] eqn:Ea; [|apply nth_error_None in Ea; lia]. cbn [unwrap bind].
    pose proof (nth_error_In _ _ Ea) as Ia. pose proof (small_isam a (G5 a Ia)) as Sa.
    destruct (gen_fold a gens Sa (incl_refl _) seen res G2 G3) as (seen' & ext & F & P1 & P2 & P3 & P4). rewrite F. cbn [bind].
    eexists. split; [reflexivity|]. constructor; cbn [fst snd]; auto.
    - rewrite app_length. lia.
    - rewrite nth_error_app1; auto. lia.
    - intros x Hx. apply in_app_iff in Hx as [Hx|Hx]; auto. destruct (P3 x Hx) as (b & Hb & Pb). apply (pm_small a b); auto. apply gens_isam; auto.
    - intros x Hx. apply in_app_iff in Hx as [Hx|Hx]; auto. destruct (P3 x Hx) as (b & Hb & Pb). destruct (G6 a Ia) as (w & Ww & Cw).
      destruct (pm_cong a b x w Cw (gens_isam b Hb) Pb) as (p & Ep & Cp). exists p. split; auto. apply (word_mul d gens w b); auto.
    - intros j a' b Hj Ej Hb. destruct (Nat.eq_dec j i) as [->|N].
      + rewrite nth_error_app1 in Ej by auto. assert (a' = a) as -> by congruence. auto.
      + rewrite nth_error_app1 in Ej by lia. destruct (G7 j a' b) as (x & Hx & Px); auto; [lia|]. exists x. split; auto. apply in_or_app. auto.
  Qed.

  Lemma unfold_generate fuel : gens <> [] -> generate fuel gens = loop (gen_body gens) fuel (0, ([ide], [ide])).
  Proof.
    unfold generate. destruct gens as [|g0 gs] eqn:Eg; [congruence|]. intros _. cbn [nth_error unwrap bind].
    inversion Hg as [|? ? (f & s & ->) _]. unfold aff_dim, am. cbn [shift vdim nrows cv mk]. rewrite aff_identity_am by auto. cbn [bind]. auto.
  Qed.

  Record gpost (r : list aff) : Prop := {
    gp_nd : NoDup r;
    gp_id : nth_error r 0 = Some ide;
    gp_small : forall x, In x r -> small x;
    gp_word : forall x, In x r -> exists w, word d gens w /\ cong d x w;
    gp_done : forall a b, In a r -> In b gens -> exists x, In x r /\ pm a b x }.
  Lemma ginv_end i seen res : ginv (i, (seen, res)) -> ~ i < length res -> gpost res.
  Proof.
    intros [G1 G2 G3 G4 G5 G6 G7] N. cbn [fst snd] in *. constructor; auto. intros a b Ha Hb. apply In_nth_error in Ha as [j Ej].
    apply (G7 j a b); auto. assert (j < length res) by (apply nth_error_Some; congruence). lia.
  Qed.
  Lemma generate_post fuel r : gens <> [] -> generate fuel gens = Ret r -> gpost r.
  Proof.
    intros Ne E. rewrite unfold_generate in E by auto. revert E. apply loop_partial with (Inv := ginv); [|apply ginv_init].
    intros (i & seen & res) G. destruct (Nat.lt_ge_cases i (length res)) as [L|L].
    - destruct (ginv_step i seen res G L) as (st' & E & G'). rewrite E. auto.
    - unfold gen_body. destruct (Nat.ltb_spec i (length res)); [lia|]. apply (ginv_end i seen res G). lia.
  Qed.

  Lemma post_words r : gpost r -> forall w, word d gens w -> exists a, In a r /\ cong d a w.
  Proof.
    intros [P1 P2 P3 P4 P5] w Hw. induction Hw as [e E|a b p Ha IH Hb E].
    - rewrite aff_identity_am in E by auto. injection E as <-. exists ide. split; [apply (nth_error_In _ _ P2)|]. apply cong_refl. unfold isam, ide; eauto.
    - destruct IH as (x & Hx & Cx). destruct (P5 x b Hx Hb) as (y & Hy & Py). destruct (pm_cong x b y a Cx (gens_isam b Hb) Py) as (p' & Ep & Cp).
      exists y. split; auto. congruence.
  Qed.

  (** ** termination *)
  (** the vectors of length n with coordinates x or x - 1 or x + 1 *)
  Fixpoint variants (n : nat) (v : nat -> Qc) : list (nat -> Qc) :=
    match n with
    | 0 => [fun _ => 0%Qc]
    | S k => flat_map (fun u => map (fun e => fun i => if i =? k then (q_rem1 (v k) + e)%Qc else u i) [0%Qc; 1%Qc; (-(1))%Qc]) (variants k v)
    end.
  Lemma near_int x y : (-(1) < x)%Qc -> (x < 1)%Qc -> (-(1) < y)%Qc -> (y < 1)%Qc -> isint (x - y)%Qc -> (x = y + 0 \/ x = y + 1 \/ x = y + -(1))%Qc.
  Proof.
    intros H1 H2 H3 H4 [z Ez]. assert (A : (ZQ (-2) < ZQ z)%Qc) by (change (ZQ (-2)) with (-(1) - 1)%Qc; rewrite <- Ez; qclra).
    assert (B : (ZQ z < ZQ 2)%Qc) by (change (ZQ 2) with (1 + 1)%Qc; rewrite <- Ez; qclra).
    rewrite ZQ_lt in A, B. assert (z = 0 \/ z = 1 \/ z = -1)%Z as [->|[->| ->]] by lia.
    - left. change (ZQ 0) with 0%Qc in Ez. rewrite <- Ez. ring.
    - right. left. change (ZQ 1) with 1%Qc in Ez. rewrite <- Ez. ring.
    - right. right. change (ZQ (-1)) with (-(1))%Qc in Ez. rewrite <- Ez. ring.
  Qed.
  Lemma variants_ok n v s : (forall i, i < n -> (-(1) < s i)%Qc /\ (s i < 1)%Qc) -> (forall i, i < n -> isint (s i - v i)%Qc) ->
    exists u, In u (variants n v) /\ forall i, i < n -> u i = s i.
  Proof.
    intros H1 H2. induction n as [|n IH]; cbn [variants].
    - eexists. split; [left; reflexivity|]. intros. lia.
    - destruct IH as (u & Hu & Eu); auto.
      assert (N : exists e, In e [0%Qc; 1%Qc; (-(1))%Qc] /\ (s n = q_rem1 (v n) + e)%Qc).
      { destruct (q_rem1_range (v n)) as [A B]. destruct (H1 n) as [C D]; auto. destruct (near_int (s n) (q_rem1 (v n))) as [E|[E|E]]; auto.
        - replace (s n - q_rem1 (v n))%Qc with ((s n - v n) + - (q_rem1 (v n) - v n))%Qc by ring. apply isint_add; auto. apply isint_opp. apply q_rem1_int.
        - exists 0%Qc. split; [left|]; auto.
        - exists 1%Qc. split; [right; left|]; auto.
        - exists (-(1))%Qc. split; [right; right; left|]; auto. }
      destruct N as (e & He & Ee). exists (fun i => if i =? n then (q_rem1 (v n) + e)%Qc else u i). split.
      + apply in_flat_map. exists u. split; auto. apply in_map_iff. exists e. auto.
      + intros i Hi. destruct (Nat.eqb_spec i n) as [->|N]; auto. apply Eu. lia.
  Qed.
  Definition reps (c : aff) : list aff := map (fun u => Affine (lin c) (cv d u)) (variants d (fun i => ent (shift c) i 0)).
  Lemma reps_ok a c : small a -> cong d a c -> In a (reps c).
  Proof.
    intros (f & s & -> & Hs) C. destruct (cong_isam d _ _ C) as [_ (g & t & ->)]. apply cong_am in C as [C1 C2]. unfold reps. cbn [lin shift am].
    destruct (variants_ok d (fun i => ent (cv d t) i 0) s Hs) as (u & Hu & Eu).
    { intros i Hi. unfold cv. rewrite mk_ent by lia. auto. }
    apply in_map_iff. exists u. split; auto. change (Affine (mk d d g) (cv d u)) with (am d g u). apply am_ext; auto. intros. symmetry. auto.
  Qed.

  Lemma generate_total cls : gens <> [] -> (forall w, word d gens w -> exists c, In c cls /\ cong d w c) ->
    exists r enough, forall fuel, enough <= fuel -> generate fuel gens = Ret r.
  Proof.
    intros Ne HC. pose (B := length (flat_map reps cls)).
    assert (bound : forall st, ginv st -> length (snd (snd st)) <= B).
    { intros st G. apply NoDup_incl_length; [apply (gi_nd st G)|]. intros x Hx. destruct (gi_word st G x Hx) as (w & Ww & Cw). destruct (HC w Ww) as (c & Hc & Cc).
      apply in_flat_map. exists c. split; auto. apply reps_ok; [apply (gi_small st G); auto|]. apply cong_trans with w; auto. }
    destruct (loop_rule (gen_body gens) ginv (fun st => Z.of_nat (B - fst st)) gpost (B + 1) (0, ([ide], [ide]))) as (r & Er & _).
    - intros (i & seen & res) G. pose proof (bound _ G) as Bd. cbn [snd] in Bd. destruct (Nat.lt_ge_cases i (length res)) as [L|L].
      + destruct (ginv_step i seen res G L) as (st' & E & G'). rewrite E. split; auto. cbn [fst]. lia.
      + unfold gen_body. destruct (Nat.ltb_spec i (length res)); [lia|]. apply (ginv_end i seen res G). lia.
    - apply ginv_init.
    - cbn [fst]. pose proof (Z.pow_gt_lin_r 2 (Z.of_nat (B + 1))). lia.
    - exists r, (B + 1). intros fuel Hf. rewrite unfold_generate by auto. apply (loop_mono _ _ _ _ _ Hf Er).
  Qed.

  (** ** the classes of products form a group *)
  Lemma mul_assoc a b c ab r : isam d a -> isam d b -> isam d c -> aff_mul a b = Ret ab -> aff_mul ab c = Ret r ->
    exists bc, aff_mul b c = Ret bc /\ aff_mul a bc = Ret r.
  Proof.
    intros (fa & sa & ->) (fb & sb & ->) (fc & sc & ->). rewrite !aff_mul_am by auto. intros [= <-]. rewrite aff_mul_am by auto. intros [= <-].
    eexists. split; [reflexivity|]. rewrite aff_mul_am by auto. f_equal. apply am_ext; intros.
    - symmetry. apply lmul_assoc.
    - rewrite lapp_lmul, lapp_add. cbn [radd Qc_dom]. ring.
  Qed.
  Lemma mul_assoc' a b c bc r : isam d a -> isam d b -> isam d c -> aff_mul b c = Ret bc -> aff_mul a bc = Ret r ->
    exists ab, aff_mul a b = Ret ab /\ aff_mul ab c = Ret r.
  Proof.
    intros Ha Hb Hc E1 E2. destruct (mul_isam d a b Hd Ha Hb) as (ab & E3 & I3). destruct (mul_isam d ab c Hd I3 Hc) as (r' & E4 & _).
    exists ab. split; auto. destruct (mul_assoc a b c ab r' Ha Hb Hc E3 E4) as (bc' & F1 & F2). congruence.
  Qed.
  Lemma mul_id a : isam d a -> aff_mul ide a = Ret a /\ aff_mul a ide = Ret a.
  Proof.
    intros Ha. destruct (Props_Geometry.C15_identity d Hd) as (e & Ee & _ & _ & H). assert (e = ide) as ->.
    { pose proof (aff_identity_am d Hd) as E. rewrite Ee in E. injection E as E. exact E. }
    apply H. apply Props_Geometry.affine_am; auto.
  Qed.
  Lemma ide_isam : isam d ide. Proof. unfold isam, ide; eauto. Qed.
  Lemma word_ide : word d gens ide. Proof. apply word_id. exact (aff_identity_am d Hd). Qed.
  Lemma word_ide_eq e : aff_identity d = Ret e -> e = ide.
  Proof. intros E. pose proof (aff_identity_am d Hd) as E'. rewrite E in E'. injection E' as E'. exact E'. Qed.

  Lemma word_concat u v : word d gens u -> word d gens v -> exists p, aff_mul u v = Ret p /\ word d gens p.
  Proof.
    intros Hu Hv. pose proof (word_isam u Hu) as Iu. induction Hv as [e E|a b p Ha IH Hb E].
    - apply word_ide_eq in E as ->. exists u. split; auto. apply mul_id. auto.
    - destruct IH as (ua & Ea & Wa). pose proof (word_isam a Ha) as Ia. pose proof (gens_isam b Hb) as Ib.
      destruct (mul_isam d ua b Hd (word_isam ua Wa) Ib) as (r & Er & _). exists r. split; [|apply (word_mul d gens ua b); auto].
      destruct (mul_assoc u a b ua r Iu Ia Ib Ea Er) as (p' & F1 & F2). congruence.
  Qed.

  Definition int_inv (a : aff) : Prop := intlin d a /\ exists b, intlin d b /\ aff_mul b a = Ret ide.
  Lemma intlin_isam a : intlin d a -> isam d a.
  Proof. intros (f & s & -> & _). unfold isam; eauto. Qed.
  Lemma ide_intlin : intlin d ide.
  Proof. apply intlin_am. intros i j _ _. unfold delta. destruct (j =? i); [exists 1%Z|exists 0%Z]; reflexivity. Qed.

  Section Inverses.
    Context (HI : Forall int_inv gens).
    Lemma word_int_inv w : word d gens w -> int_inv w.
    Proof.
      induction 1 as [e E|a b p Ha IH Hb E].
      - apply word_ide_eq in E as ->. split; [apply ide_intlin|]. exists ide. split; [apply ide_intlin|apply mul_id; apply ide_isam].
      - destruct IH as (La & a' & La' & Ea). rewrite Forall_forall in HI. destruct (HI b Hb) as (Lb & b' & Lb' & Eb). split; [apply (intlin_mul d a b); auto|].
        pose proof (intlin_isam _ La). pose proof (intlin_isam _ La'). pose proof (intlin_isam _ Lb). pose proof (intlin_isam _ Lb').
        destruct (mul_isam d b' a' Hd) as (p' & Ep' & Ip'); auto. exists p'. split; [apply (intlin_mul d b' a'); auto|].
        destruct (mul_isam d a b Hd) as (p1 & Ep1 & Ip1); auto. assert (p1 = p) as -> by congruence.
        assert (F : aff_mul a' p = Ret b).
        { destruct (mul_isam d a' p Hd) as (q & Eq & _); auto. destruct (mul_assoc' a' a b p q) as (r1 & F1 & F2); auto. rewrite Ea in F1. injection F1 as <-.
          destruct (mul_id b) as [M _]; auto. congruence. }
        destruct (mul_isam d p' p Hd) as (q & Eq & _); auto. destruct (mul_assoc b' a' p p' q) as (r1 & F1 & F2); auto. rewrite F in F1. injection F1 as <-. congruence.
    Qed.

    Fixpoint power (w : aff) (k : nat) (x : aff) : Prop := match k with 0 => x = ide | S k' => exists y, power w k' y /\ aff_mul w y = Ret x end.
    Lemma power_word w : word d gens w -> forall k, exists x, power w k x /\ word d gens x.
    Proof.
      intros Hw. induction k as [|k (x & Px & Wx)]; [exists ide; split; [reflexivity|apply word_ide]|].
      destruct (word_concat w x Hw Wx) as (p & Ep & Wp). exists p. split; auto. exists x. auto.
    Qed.
    Lemma power_fun w k : forall x y, power w k x -> power w k y -> x = y.
    Proof. induction k as [|k IH]; cbn [power]; [congruence|]. intros x y (x' & Px & Ex) (y' & Py & Ey). assert (x' = y') by auto. congruence. Qed.

    (** cancel a factor on the left *)
    Lemma cancel w x y px py : word d gens w -> isam d x -> isam d y -> aff_mul w x = Ret px -> aff_mul w y = Ret py -> cong d px py -> cong d x y.
    Proof.
      intros Hw Ix Iy Ex Ey C. destruct (word_int_inv w Hw) as (Lw & w' & Lw' & Ew). destruct (cong_mul_l d w' px py Hd Lw' C) as (q1 & q2 & F1 & F2 & C2).
      pose proof (intlin_isam _ Lw). pose proof (intlin_isam _ Lw').
      destruct (mul_assoc' w' w x px q1) as (r1 & G1 & G2); auto. destruct (mul_assoc' w' w y py q2) as (r2 & G3 & G4); auto.
      rewrite Ew in G1, G3. injection G1 as <-. injection G3 as <-. destruct (mul_id x Ix) as [M1 _]. destruct (mul_id y Iy) as [M2 _].
      assert (q1 = x) by congruence. assert (q2 = y) by congruence. subst. auto.
    Qed.
    Lemma power_cancel w i : word d gens w -> forall j x y, power w i x -> power w (i + j) y -> cong d x y -> exists z, power w j z /\ cong d ide z.
    Proof.
      intros Hw. induction i as [|i IH]; intros j x y Px Py C; cbn [Nat.add power] in *.
      - exists y. subst. auto.
      - destruct Px as (x' & Px & Ex), Py as (y' & Py & Ey). apply (IH j x' y'); auto.
        destruct (power_word w Hw i) as (x2 & Px2 & Wx). destruct (power_word w Hw (i + j)) as (y2 & Py2 & Wy).
        rewrite (power_fun w i x' x2) in * by auto. rewrite (power_fun w (i + j) y' y2) in * by auto.
        apply (cancel w x2 y2 x y); auto; apply word_isam; auto.
    Qed.
    Lemma aff_dec (x y : aff) : {x = y} + {x <> y}.
    Proof. destruct (aff_eqb x y) eqn:E; [left; apply aff_eqb_eq; auto|right; intros ->; assert (aff_eqb y y = true) by (apply aff_eqb_eq; auto); congruence]. Qed.

    Lemma choose_list {A} (P : nat -> A -> Prop) n : (forall k, k < n -> exists a, P k a) -> exists l, length l = n /\ forall k a, nth_error l k = Some a -> P k a.
    Proof.
      induction n as [|n IH]; intros H; [exists []; split; auto; intros [|k] a E; discriminate|]. destruct IH as (l & L & Hl); [intros; apply H; lia|].
      destruct (H n) as (a & Ha); [lia|]. exists (l ++ [a]). split; [rewrite app_length; cbn; lia|]. intros k b E. destruct (Nat.lt_ge_cases k n) as [K|K].
      - rewrite nth_error_app1 in E by lia. auto.
      - rewrite nth_error_app2 in E by lia. rewrite L in E. destruct (k - n) as [|m] eqn:Ek; cbn in E; [|destruct m; discriminate]. injection E as <-. assert (k = n) as -> by lia. auto.
    Qed.

    Lemma word_inverse r w : gpost r -> word d gens w -> exists v p, word d gens v /\ aff_mul w v = Ret p /\ cong d p ide.
    Proof.
      intros G Hw. destruct (choose_list (fun k a => In a r /\ exists x, power w k x /\ word d gens x /\ cong d a x) (S (length r))) as (l & Ll & Hl).
      { intros k _. destruct (power_word w Hw k) as (x & Px & Wx). destruct (post_words r G x Wx) as (a & Ha & Ca). exists a. eauto 6. }
      destruct (Periodic.pigeon aff_dec r (fun i => nth i l ide) (S (length r))) as (i & j & Hij & Hj & E).
      { intros i Hi. apply (Hl i). apply nth_error_nth'. lia. }
      { lia. }
      destruct (Hl i (nth i l ide)) as (_ & x & Px & Wx & Cx); [apply nth_error_nth'; lia|].
      destruct (Hl j (nth j l ide)) as (_ & y & Py & Wy & Cy); [apply nth_error_nth'; lia|]. rewrite <- E in Cy.
      replace j with (i + S (j - i - 1)) in Py by lia. destruct (power_cancel w i Hw _ x y Px Py) as (z & Pz & Cz).
      { apply cong_trans with (nth i l ide); auto. apply cong_sym. auto. }
      cbn [power] in Pz. destruct Pz as (v & Pv & Ev). destruct (power_word w Hw (j - i - 1)) as (v2 & Pv2 & Wv). assert (v2 = v) as -> by (apply (power_fun w (j - i - 1)); auto).
      exists v, z. splits; auto. apply cong_sym. auto.
    Qed.
  End Inverses.
End Gen.
