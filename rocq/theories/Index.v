(** The index of a lattice with a triangular basis is the absolute value of
    the product of the diagonal (used by graph_component_measures,
    src/pgraphs.rs 703-736). *)
From Coq Require Import List ZArith Lia Bool PeanoNat.
From Verif Require Import Base Vec Elim Scalars Props_LinAlg OrdSet PGraph PGraphBase.
Import ListNotations.
Open Scope nat_scope.

Definition upper (d : nat) (bs : list (list Z)) : Prop :=
  length bs = d /\ lens d bs /\
  forall i, i < d -> (forall j, j < i -> vget (nth i bs []) j = 0%Z) /\ vget (nth i bs []) i <> 0%Z.

Lemma full_echelon d (bs : list (list Z)) ps : lens d bs -> row_echelon d bs ps -> length bs = d -> upper d bs.
Proof.
  intros L [Hl H] Hd.
  assert (P : forall i, i < d -> nth i ps 0 = i).
  { assert (Lo : forall i, i < d -> i <= nth i ps 0).
    { induction i as [|i IH]; intros Hi; [lia|]. assert (i <= nth i ps 0) by (apply IH; lia).
      destruct (H (S i)) as (_ & _ & _ & Hm); [lia|]. specialize (Hm i). lia. }
    assert (Hi : forall k i, i + k = d - 1 -> i < d -> nth i ps 0 <= i).
    { induction k as [|k IH]; intros i E Hi.
      - destruct (H i) as (B & _); lia.
      - assert (nth (S i) ps 0 <= S i) by (apply IH; lia). destruct (H (S i)) as (_ & _ & _ & Hm); [lia|].
        specialize (Hm i). lia. }
    intros i Hlt. specialize (Lo i Hlt). specialize (Hi (d - 1 - i) i). lia. }
  unfold upper. splits; auto. intros i Hi. destruct (H i) as (_ & B & D & _); [lia|]. rewrite P in B, D by auto. auto.
Qed.

Inductive tri : nat -> list (list Z) -> Prop :=
| tri_0 : tri 0 []
| tri_S d a r bs : a <> 0%Z -> length r = d -> tri d bs -> tri (S d) ((a :: r) :: map (cons 0%Z) bs).

Lemma upper_tri d bs : upper d bs -> tri d bs.
Proof.
  revert bs. induction d as [|d IH]; intros bs (Hl & L & H).
  - destruct bs; [constructor|discriminate].
  - destruct bs as [|b bs]; [discriminate|]. apply lens_cons in L as [Lb L].
    destruct b as [|a r]; [discriminate|].
    assert (E : bs = map (cons 0%Z) (map (@tl Z) bs)).
    { rewrite map_map. rewrite <- (map_id bs) at 1. apply map_ext_in. intros b Hb.
      destruct (In_nth _ _ [] Hb) as (i & Hi & E). destruct (H (S i)) as [Hz _]; [simpl in *; lia|].
      specialize (Hz 0). simpl in Hz. rewrite E in Hz. destruct b as [|x b].
      - pose proof (lens_In _ _ _ L Hb). discriminate.
      - unfold vget in Hz. simpl in *. rewrite Hz; auto; lia. }
    rewrite E. constructor.
    + destruct (H 0) as [_ Hn]; [lia|]. auto.
    + simpl in Lb. lia.
    + apply IH. unfold upper. splits.
      * rewrite map_length. simpl in Hl. lia.
      * unfold lens. rewrite Forall_forall. intros x Hx. apply in_map_iff in Hx as (y & <- & Hy).
        pose proof (lens_In _ _ _ L Hy). destruct y; simpl in *; lia.
      * intros i Hi. destruct (H (S i)) as [Hz Hn]; [lia|].
        assert (Et : forall j, vget (nth i (map (@tl Z) bs) []) j = vget (nth (S i) ((a :: r) :: bs) []) (S j)).
        { intros j. change (@nil Z) with (@tl Z []) at 1. rewrite map_nth. simpl. unfold vget. destruct (nth i bs []); auto. destruct j; auto. }
        split; [intros j Hj; rewrite Et; apply Hz; lia|rewrite Et; auto].
Qed.

Definition diag (bs : list (list Z)) : list Z := map (fun i => vget (nth i bs []) i) (seq 0 (length bs)).

Lemma diag_cons a r bs : diag ((a :: r) :: map (cons 0%Z) bs) = a :: diag bs.
Proof.
  unfold diag. simpl. f_equal. rewrite map_length, <- seq_shift, map_map. apply map_ext_in.
  intros i Hi. apply in_seq in Hi. simpl. rewrite (nth_indep _ _ (0%Z :: [])) by (rewrite map_length; lia).
  rewrite map_nth. reflexivity.
Qed.

(** representatives of the classes modulo a triangular lattice *)
Fixpoint box (ds : list Z) : list (list Z) :=
  match ds with
  | [] => [[]]
  | a :: ds => flat_map (fun i => map (cons (Z.of_nat i)) (box ds)) (seq 0 (Z.to_nat (Z.abs a)))
  end.
Fixpoint zprod (ds : list Z) : Z := match ds with [] => 1%Z | a :: ds => (a * zprod ds)%Z end.

Lemma box_length ds : length (box ds) = Z.to_nat (Z.abs (zprod ds)).
Proof.
  induction ds as [|a ds IH]; simpl; auto.
  assert (E : forall l : list nat, length (flat_map (fun i => map (cons (Z.of_nat i)) (box ds)) l) = length l * length (box ds)).
  { induction l; simpl; auto. rewrite app_length, map_length, IHl. auto. }
  rewrite E, seq_length, IH, Z.abs_mul, Z2Nat.inj_mul by lia. auto.
Qed.
Lemma box_In ds y : In y (box ds) <-> length y = length ds /\ forall i, i < length ds -> (0 <= vget y i < Z.abs (vget ds i))%Z.
Proof.
  revert y. induction ds as [|a ds IH]; intros y; simpl.
  - split; [intros [<-|[]]; split; auto; lia|]. intros [H _]. destruct y; auto; discriminate.
  - rewrite in_flat_map. split.
    + intros (i & Hi & Hy). apply in_seq in Hi. apply in_map_iff in Hy as (z & <- & Hz). apply IH in Hz as [Hz1 Hz2].
      split; [simpl; lia|]. intros [|j] Hj; unfold vget; simpl; [lia|]. apply Hz2. lia.
    + intros [Hl H]. destruct y as [|x y]; [discriminate|]. simpl in Hl.
      exists (Z.to_nat x). assert (H0 := H 0 ltac:(lia)). unfold vget in H0; simpl in H0.
      split; [apply in_seq; lia|]. rewrite Z2Nat.id by lia. apply in_map. apply IH. split; [lia|].
      intros i Hi. apply (H (S i)). lia.
Qed.
Lemma box_NoDup ds : NoDup (box ds).
Proof.
  induction ds as [|a ds IH]; simpl; [repeat constructor; auto|].
  assert (H : forall n k, NoDup (flat_map (fun i => map (cons (Z.of_nat i)) (box ds)) (seq k n)) ).
  { induction n as [|n IHn]; intros k; simpl; [constructor|].
    assert (D : forall x, In x (map (cons (Z.of_nat k)) (box ds)) -> ~ In x (flat_map (fun i => map (cons (Z.of_nat i)) (box ds)) (seq (S k) n))).
    { intros x Hx Hy. apply in_map_iff in Hx as (y & <- & _). apply in_flat_map in Hy as (i & Hi & Hy). apply in_seq in Hi.
      apply in_map_iff in Hy as (z & E & _). injection E as E _. lia. }
    assert (N1 : NoDup (map (cons (Z.of_nat k)) (box ds))) by (apply FinFun.Injective_map_NoDup; auto; intros x y E; congruence).
    revert N1 D. generalize (map (cons (Z.of_nat k)) (box ds)) as l. specialize (IHn (S k)). revert IHn.
    generalize (flat_map (fun i => map (cons (Z.of_nat i)) (box ds)) (seq (S k) n)) as l'. clear.
    intros l' Hl'. induction l as [|x l IH]; intros N D; simpl; auto. inversion N; subst. constructor.
    - rewrite in_app_iff. intros [|]; auto. apply (D x); simpl; auto.
    - apply IH; auto. intros y Hy. apply D. right; auto. }
  apply H.
Qed.

Lemma span_map0 d bs x : lens d bs -> span (S d) (map (cons 0%Z) bs) x <-> exists y, x = (0%Z : Z) :: y /\ span d bs y.
Proof.
  intros L. assert (E : forall cs, length cs = length bs -> lincomb (S d) cs (map (cons 0%Z) bs) = 0%Z :: lincomb d cs bs).
  { induction L as [|b bs Hb L IH]; intros [|c cs] Hc; simpl in *; try lia; auto.
    rewrite IH by lia. unfold vadd. simpl. f_equal. lia. }
  split.
  - intros (cs & Hc & ->). rewrite map_length in Hc. rewrite E by auto. exists (lincomb d cs bs). split; auto. exists cs; auto.
  - intros (y & -> & cs & Hc & ->). exists cs. rewrite map_length. split; auto. symmetry. auto.
Qed.

Lemma tri_lens d bs : tri d bs -> lens d bs /\ length bs = d.
Proof.
  induction 1 as [|d a r bs Ha Hr T [L Hl]]; [split; auto; constructor|]. split; [|simpl; rewrite map_length; lia].
  constructor; [simpl; lia|]. unfold lens. rewrite Forall_map. eapply Forall_impl; [|exact L]. simpl. intros; lia.
Qed.

Lemma span_tri d a r bs x y : length r = d -> tri d bs -> length y = d ->
  span (S d) ((a :: r) :: map (cons 0%Z) bs) ((x :: y) : list Z) <-> exists c, x = (c * a)%Z /\ span d bs (ssub y (vscale c r)).
Proof.
  intros Hr T Hy. destruct (tri_lens _ _ T) as [L _]. rewrite span_cons. split.
  - intros (c & z & Hz & E). apply (span_map0 d bs z L) in Hz as (z' & -> & Hz). exists c.
    pose proof (span_length _ _ _ L Hz) as Lz.
    assert (E1 : x = (c * a)%Z) by (apply (f_equal (fun l => nth 0 l 0%Z)) in E; simpl in E; change radd with Z.add in E; change rmul with Z.mul in E; lia).
    assert (E2 : y = sadd (vscale c r) z') by (apply (f_equal (@tl Z)) in E; exact E).
    split; auto. replace (ssub y (vscale c r)) with z'; auto. rewrite E2.
    pose proof (vscale_length (R := Z) c r). seq.
  - intros (c & -> & H). exists c, (0%Z :: ssub y (vscale c r)). split; [apply span_map0; eauto|].
    assert (E : y = sadd (vscale c r) (ssub y (vscale c r))) by (pose proof (vscale_length (R := Z) c r); seq).
    change (vadd (vscale c (a :: r)) (0%Z :: ssub y (vscale c r))) with ((c * a + 0)%Z :: sadd (vscale c r) (ssub y (vscale c r))).
    rewrite <- E. f_equal. lia.
Qed.

Lemma tri_reps d bs : tri d bs -> forall x, length x = d ->
  exists y, In y (box (diag bs)) /\ span d bs (ssub x y) /\
    forall y', In y' (box (diag bs)) -> span d bs (ssub x y') -> y' = y.
Proof.
  induction 1 as [|d a r bs Ha Hr T IH]; intros x Hx.
  - destruct x; [|discriminate]. exists []. splits.
    + left; auto. + exists []. auto. + intros y' [<-|[]] _. auto.
  - destruct x as [|x xs]; [discriminate|]. simpl in Hx. rewrite diag_cons. simpl box.
    destruct (tri_lens _ _ T) as [L Hl].
    set (x0 := (x mod Z.abs a)%Z). assert (B0 : (0 <= x0 < Z.abs a)%Z) by (apply Z.mod_pos_bound; lia).
    assert (Q : exists c, (x - x0 = c * a)%Z).
    { unfold x0. rewrite Z.mod_eq by lia. exists (x / Z.abs a * Z.sgn a)%Z. assert (Z.sgn a * a = Z.abs a)%Z by lia.
      rewrite <- Z.mul_assoc, H. lia. }
    destruct Q as [c Hc].
    assert (Ld : length (diag bs) = d) by (unfold diag; rewrite map_length, seq_length; auto).
    assert (Lb : forall y, In y (box (diag bs)) -> length y = d) by (intros y Hy; apply box_In in Hy as [Hy _]; lia).
    assert (Lv : length (vscale c r) = d) by (rewrite (vscale_length (R := Z)); auto).
    destruct (IH (ssub xs (vscale c r))) as (y & Hy & Sy & Uy); [slen|].
    pose proof (Lb _ Hy) as Ly.
    assert (Sw : forall y c, length y = d -> ssub (ssub xs y) (vscale c r) = ssub (ssub xs (vscale c r)) y).
    { intros. pose proof (vscale_length (R := Z) c0 r). seq. }
    exists (x0 :: y). splits.
    + apply in_flat_map. exists (Z.to_nat x0). split; [apply in_seq; lia|]. rewrite Z2Nat.id by lia. apply in_map; auto.
    + change (ssub (x :: xs) (x0 :: y)) with ((x - x0)%Z :: ssub xs y). apply span_tri; auto; [slen|].
      exists c. split; auto. rewrite Sw by auto. auto.
    + intros y' Hy' S'. apply in_flat_map in Hy' as (i & Hi & Hy'). apply in_seq in Hi. apply in_map_iff in Hy' as (z & <- & Hz).
      pose proof (Lb _ Hz) as Lz.
      change (ssub (x :: xs) (Z.of_nat i :: z)) with ((x - Z.of_nat i)%Z :: ssub xs z) in S'. apply span_tri in S'; auto; [|slen].
      destruct S' as (c' & E' & S').
      assert (c' = c).
      { assert (((c' - c) * a = x0 - Z.of_nat i)%Z) by (rewrite Z.mul_sub_distr_r; lia).
        assert (B : (Z.abs ((c' - c) * a) < Z.abs a)%Z) by (rewrite H; lia). rewrite Z.abs_mul in B.
        destruct (Z.eq_dec c' c); auto. assert (1 <= Z.abs (c' - c))%Z by lia. nia. }
      subst c'. f_equal; [lia|]. apply Uy; auto. rewrite <- Sw by auto. auto.
Qed.
