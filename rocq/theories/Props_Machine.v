(** Properties C82 and C83: the code with the machine integers i32 and i64
    (Machine.v) compared with the code on unbounded integers. *)
From Coq Require Import List ZArith Lia Bool PeanoNat Permutation.
From Verif Require Import Base Vec Elim Scalars Matrix LinAlg OrdSet PGraph Net PGraphBase Label Machine MachineRef MachineFits MachineEv MachineMono.
Import ListNotations.
Open Scope Z_scope.

(** [m] panics or is [u] *)
Definition never_wrong {A} (m u : outcome A) : Prop := m = Panic \/ m = u.
Lemma never_safe {A} (m u : outcome A) : safe m u -> never_wrong m u.
Proof. intros [H|H]; [right|left]; exact H. Qed.

Lemma checked_safe bits z : checked bits z = Ret z \/ checked bits z = Panic.
Proof. unfold checked. destruct (fits_bits bits z); auto. Qed.
Lemma checked_ok bits z : Z.abs z <= 2 ^ (bits - 1) - 1 -> checked bits z = Ret z.
Proof. intros H. unfold checked, fits_bits. destruct (Z.leb_spec (- 2 ^ (bits - 1)) z), (Z.ltb_spec z (2 ^ (bits - 1))); cbn [andb]; auto; lia. Qed.

Lemma wrapping_ok bits z : 1 <= bits -> Z.abs z <= 2 ^ (bits - 1) - 1 -> wrapping bits z = Ret z.
Proof.
  intros B H. unfold wrapping. rewrite Z.mod_small; [f_equal; lia|].
  assert (E : 2 ^ bits = 2 * 2 ^ (bits - 1)) by (rewrite <- Z.pow_succ_r by lia; f_equal; lia). lia.
Qed.
Lemma wrapping_agrees bits : 1 <= bits -> forall z, safe (checked bits z) (wrapping bits z).
Proof.
  intros B z. unfold checked, fits_bits. destruct (Z.leb_spec (- 2 ^ (bits - 1)) z), (Z.ltb_spec z (2 ^ (bits - 1))); cbn [andb]; try (right; reflexivity).
  left. unfold wrapping. rewrite Z.mod_small; [f_equal; lia|].
  assert (E : 2 ^ bits = 2 * 2 ^ (bits - 1)) by (rewrite <- Z.pow_succ_r by lia; f_equal; lia). lia.
Qed.

(** with enough bits, with or without overflow checks, [m] is [u] *)
Definition exact_if_wide {A} (m : (Z -> outcome Z) -> outcome A) (u : outcome A) : Prop :=
  exists n, forall bits, n <= bits -> m (checked bits) = u /\ m (wrapping bits) = u.
Lemma ev_wide {A} (m : _ -> outcome A) u : ev m u -> exact_if_wide m u.
Proof.
  intros [B H]. exists (Z.max B 0 + 2). intros bits Hb.
  assert (P : B <= 2 ^ (bits - 1) - 1).
  { assert (bits - 1 < 2 ^ (bits - 1)) by (apply Z.pow_gt_lin_r; lia). lia. }
  split; apply H; intros z Hz; [apply checked_ok; lia|apply wrapping_ok; lia].
Qed.

(** ** C82: graphs *)

(** In a build with overflow checks, the functions of Graph either panic or
    return what they return on unbounded integers. *)
Theorem C82_never_wrong : forall bits g d raw v order k st,
  never_wrong (m_gnew (checked bits) d raw) (Ret (gnew d raw)) /\
  never_wrong (m_incidences (checked bits) g v) (incidences g v) /\
  never_wrong (m_directed_edges (checked bits) g) (directed_edges g) /\
  never_wrong (m_cs_take (checked bits) order g k st) (cs_take order g k st) /\
  never_wrong (m_shift_normalized (checked bits) g) (shift_normalized g) /\
  never_wrong (m_component_measures (checked bits) g v) (component_measures g v) /\
  never_wrong (m_is_connected (checked bits) g) (is_connected g).
Proof.
  intros bits g d raw v order k st. pose proof (checked_safe bits) as H. splits; apply never_safe.
  - apply gnew_safe; auto.
  - apply incidences_safe; auto.
  - apply directed_edges_safe; auto.
  - apply cs_take_safe; auto.
  - apply shift_normalized_safe; auto.
  - apply component_measures_safe; auto.
  - apply is_connected_safe; auto.
Qed.
Print Assumptions C82_never_wrong.

(** With overflow checks the same function panics or agrees with the build
    without them: a build without checks is only wrong where the other panics. *)
Theorem C82_release : forall bits g d raw v order k st, 1 <= bits ->
  let c := checked bits in let w := wrapping bits in
  never_wrong (m_gnew c d raw) (m_gnew w d raw) /\
  never_wrong (m_incidences c g v) (m_incidences w g v) /\
  never_wrong (m_directed_edges c g) (m_directed_edges w g) /\
  never_wrong (m_cs_take c order g k st) (m_cs_take w order g k st) /\
  never_wrong (m_shift_normalized c g) (m_shift_normalized w g) /\
  never_wrong (m_component_measures c g v) (m_component_measures w g v) /\
  never_wrong (m_is_connected c g) (m_is_connected w g).
Proof.
  intros bits g d raw v order k st B c w. pose proof (wrapping_agrees bits B) as H. fold c in H. fold w in H. splits; apply never_safe.
  - apply mono_gnew; auto.
  - apply mono_incidences; auto.
  - apply mono_directed_edges; auto.
  - apply mono_cs_take; auto.
  - apply mono_shift_normalized; auto.
  - apply mono_component_measures; auto.
  - apply mono_is_connected; auto.
Qed.
Print Assumptions C82_release.

(** There is no other reason to panic: for every input there is a word size
    from which on the result is that of unbounded integers. *)
Theorem C82_enough_bits : forall g d raw v order k st,
  exact_if_wide (fun c => m_gnew c d raw) (Ret (gnew d raw)) /\
  exact_if_wide (fun c => m_incidences c g v) (incidences g v) /\
  exact_if_wide (fun c => m_directed_edges c g) (directed_edges g) /\
  exact_if_wide (fun c => m_cs_take c order g k st) (cs_take order g k st) /\
  exact_if_wide (fun c => m_shift_normalized c g) (shift_normalized g) /\
  exact_if_wide (fun c => m_component_measures c g v) (component_measures g v) /\
  exact_if_wide (fun c => m_is_connected c g) (is_connected g).
Proof.
  intros g d raw v order k st. splits; apply ev_wide.
  - apply gnew_ev.
  - apply incidences_ev.
  - apply directed_edges_ev.
  - apply cs_take_ev.
  - apply shift_normalized_ev.
  - apply component_measures_ev.
  - apply is_connected_ev.
Qed.
Print Assumptions C82_enough_bits.

(** If no component of a shift exceeds [b], building the graph, incidences and
    normalisation of shifts do not overflow as long as (2n - 1) b < 2^31, n the
    number of vertices, nor do the first k terms of a coordination sequence as
    long as k b < 2^31. *)
Theorem C82_no_overflow : forall d raw b,
  (forall e x, In e raw -> In x (shift e) -> Z.abs x <= b) -> 0 <= b < 2 ^ 31 ->
  let g := gnew d raw in
  m_gnew (checked 32) d raw = Ret g /\
  (forall v, m_incidences (checked 32) g v = incidences g v) /\
  m_directed_edges (checked 32) g = directed_edges g /\
  (forall v k order, (forall i l, Permutation (order i l) l) -> Z.of_nat k * b < 2 ^ 31 ->
     m_cs_take (checked 32) order g k (cs_new g v) = cs_take order g k (cs_new g v)) /\
  ((2 * Z.of_nat (length (vertices g)) - 1) * b < 2 ^ 31 -> m_shift_normalized (checked 32) g = shift_normalized g).
Proof.
  intros d raw b Hb B g.
  assert (Ok : forall z, Z.abs z <= 2 ^ 31 - 1 -> checked 32 z = Ret z) by (intros z; apply (checked_ok 32)).
  assert (W : edges_within b raw) by (intros e He; apply Forall_forall; intros x Hx; eapply Hb; eauto).
  assert (Wg : edges_within b (gedges g)) by (apply edges_within_gnew; auto).
  assert (L : b <= 2 ^ 31 - 1) by lia. splits.
  - apply (gnew_fits _ _ Ok). apply (edges_within_mono b); auto.
  - intros v. apply (incidences_fits _ _ Ok). apply (edges_within_mono b); auto.
  - apply (directed_edges_fits _ _ Ok). apply (edges_within_mono b); auto.
  - intros v k order Po Hk. apply (cs_take_fits _ _ Ok g b ltac:(lia) Wg order k [] [(v, szero (gdim g))] 0); auto; try lia.
    intros w [<-|[]]. apply within_szero. lia.
  - intros Hn. apply (shift_normalized_fits _ _ Ok g b ltac:(lia) Wg). unfold nv. lia.
Qed.
Print Assumptions C82_no_overflow.

(** the operators on label vectors are those of Label.v *)
Theorem C82_labels :
  (forall a b : lv2, m_sadd (checked 32) (to_vec2 a) (to_vec2 b) = omap to_vec2 (add2 a b) /\
     m_ssub (checked 32) (to_vec2 a) (to_vec2 b) = omap to_vec2 (sub2 a b) /\
     m_sneg (checked 32) (to_vec2 a) = omap to_vec2 (neg2 a)) /\
  (forall a b : lv3, m_sadd (checked 32) (to_vec3 a) (to_vec3 b) = omap to_vec3 (add3 a b) /\
     m_ssub (checked 32) (to_vec3 a) (to_vec3 b) = omap to_vec3 (sub3 a b) /\
     m_sneg (checked 32) (to_vec3 a) = omap to_vec3 (neg3 a)).
Proof.
  assert (E : forall z, checked 32 z = i32 z) by reflexivity.
  split; [intros [x y] [x' y']|intros [x y z] [x' y' z']]; splits;
    unfold m_sadd, m_ssub, m_sneg, to_vec2, to_vec3, add2, sub2, neg2, add3, sub3, neg3, sadd, ssub, sneg, omap; cbn [zipw map mapM x2 y2 x3 y3 z3 bind];
    rewrite ?E; repeat (match goal with |- context [i32 ?z] => destruct (i32 z); cbn [bind]; rewrite ?E; auto end).
Qed.
Print Assumptions C82_labels.

(** The smallest i32 has no negative: an edge with such a component cannot be
    turned round, and a graph with such an edge has no incidences. *)
Theorem C82_smallest_panics : forall d es e v, In e es -> In (- 2 ^ 31) (shift e) ->
  m_incidences (checked 32) (Graph d es) v = Panic /\
  ((tail e < head e)%nat -> m_gnew (checked 32) d es = Panic).
Proof.
  intros d es e v He Hx.
  assert (P : forall s, In (- 2 ^ 31) s -> m_sneg (checked 32) s = Panic).
  { clear. unfold m_sneg. induction s as [|x s IH]; [intros []|]. intros [->|H]; [reflexivity|].
    cbn [sneg map mapM]. change (map Z.opp s) with (sneg s). rewrite IH by auto.
    destruct (checked_safe 32 (- x)) as [-> | ->]; reflexivity. }
  assert (PR : forall f, In (- 2 ^ 31) (shift f) -> m_rev (checked 32) f = Panic) by (intros f Hf; unfold m_rev; rewrite P; auto).
  assert (PM : forall A B (f : A -> outcome B) x l, (forall y, f y = Panic \/ exists z, f y = Ret z) -> In x l -> f x = Panic -> mapM f l = Panic).
  { clear. intros A B f x l T. induction l as [|y l IH]; [intros []|]. intros [->|H] E; cbn [mapM]; [rewrite E; reflexivity|].
    rewrite IH by auto. destruct (T y) as [-> | [z ->]]; reflexivity. }
  split.
  - unfold m_incidences, m_incidence_map. cbn [gedges].
    rewrite (PM _ _ (fun e => do r <- m_rev (checked 32) e; Ret [e; r]) e es); auto.
    + intros f. destruct (rev_safe (checked 32) (checked_safe 32) f) as [-> | ->]; [right; eexists; reflexivity|left; reflexivity].
    + rewrite PR; auto.
  - intros Ho. unfold m_gnew. rewrite (PM _ _ (m_canonical (checked 32)) e es); auto.
    + intros f. destruct (canonical_safe (checked 32) (checked_safe 32) f) as [-> | ->]; [right; eexists; reflexivity|left; reflexivity].
    + unfold m_canonical. destruct (Nat.ltb_spec (tail e) (head e)); [|lia]. cbn [orb]. apply PR; auto.
Qed.
Print Assumptions C82_smallest_panics.

(** With overflow checks is_connected panics for a connected net whose shifts
    are below 10^5; without them it reports that a lattice of index 2^32 + 1
    is the whole lattice. *)
Theorem C82_connected_refuted :
  (exists raw, (forall e x, In e raw -> In x (shift e) -> Z.abs x < 100000) /\
     is_connected (gnew 2 raw) = Ret true /\ m_is_connected (checked 32) (gnew 2 raw) = Panic) /\
  (exists raw, (forall e x, In e raw -> In x (shift e) -> Z.abs x < 10000000) /\
     is_connected (gnew 2 raw) = Ret false /\ m_is_connected (wrapping 32) (gnew 2 raw) = Ret true).
Proof.
  split.
  - exists [Edge 1 1 [75025; 0]; Edge 1 1 [46368; 0]; Edge 1 1 [0; 1]]. splits; [|vm_compute; reflexivity|vm_compute; reflexivity].
    intros e x [<-|[<-|[<-|[]]]] [<-|[<-|[]]]; cbn; lia.
  - exists [Edge 1 1 [641; 0]; Edge 1 1 [0; 6700417]]. splits; [|vm_compute; reflexivity|vm_compute; reflexivity].
    intros e x [<-|[<-|[]]] [<-|[<-|[]]]; cbn; lia.
Qed.
Print Assumptions C82_connected_refuted.

(** two vertices, shifts up to 10^8: construction, normalisation and 20 terms of
    the coordination sequence do not overflow *)
Example C82_case : let raw := [Edge 1 2 [0; 0]; Edge 1 2 [100000000; 1]; Edge 2 2 [0; 5]] in
  (forall e x, In e raw -> In x (shift e) -> Z.abs x <= 100000000) /\ 0 <= 100000000 < 2 ^ 31 /\
  (2 * Z.of_nat (length (vertices (gnew 2 raw))) - 1) * 100000000 < 2 ^ 31 /\ Z.of_nat 20 * 100000000 < 2 ^ 31 /\
  is_vertex (gnew 2 raw) 1.
Proof.
  cbv zeta. splits; [| | |vm_compute; reflexivity|vm_compute; reflexivity|].
  - intros e x [<-|[<-|[<-|[]]]] [<-|[<-|[]]]; cbn [Z.abs]; lia.
  - lia.
  - lia.
  - exists (Edge 1 2 [0; 0]). split; [vm_compute; auto|left; reflexivity].
Qed.

(** ** C83: linear algebra over i32 and i64 *)

(** In a build with overflow checks, the functions on integer matrices either
    panic or return what they return on unbounded integers. *)
Theorem C83_never_wrong : forall bits (a b : mat Z) v bs,
  never_wrong (m_extend_basis (checked bits) v bs) (extend_basis v bs) /\
  never_wrong (m_rank (checked bits) a) (rank a) /\
  never_wrong (m_determinant (checked bits) a) (determinant a) /\
  never_wrong (m_reduced_basis (checked bits) a) (reduced_basis a) /\
  never_wrong (m_solve (checked bits) a b) (solve a b) /\
  never_wrong (m_null_space (checked bits) a) (null_space a) /\
  never_wrong (m_inverse (checked bits) a) (inverse a) /\
  never_wrong (m_mat_mul (checked bits) a b) (mat_mul a b).
Proof.
  intros bits a b v bs. pose proof (checked_safe bits) as H. splits; apply never_safe.
  - apply extend_safe; auto.
  - apply rank_safe; auto.
  - apply determinant_safe; auto.
  - apply reduced_basis_safe; auto.
  - apply solve_safe; auto.
  - apply null_space_safe; auto.
  - apply inverse_safe; auto.
  - apply mat_mul_safe; auto.
Qed.
Print Assumptions C83_never_wrong.

Theorem C83_release : forall bits (a b : mat Z) v bs, 1 <= bits ->
  let c := checked bits in let w := wrapping bits in
  never_wrong (m_extend_basis c v bs) (m_extend_basis w v bs) /\
  never_wrong (m_rank c a) (m_rank w a) /\
  never_wrong (m_determinant c a) (m_determinant w a) /\
  never_wrong (m_reduced_basis c a) (m_reduced_basis w a) /\
  never_wrong (m_solve c a b) (m_solve w a b) /\
  never_wrong (m_null_space c a) (m_null_space w a) /\
  never_wrong (m_inverse c a) (m_inverse w a) /\
  never_wrong (m_mat_mul c a b) (m_mat_mul w a b).
Proof.
  intros bits a b v bs B c w. pose proof (wrapping_agrees bits B) as H. fold c in H. fold w in H. splits; apply never_safe.
  - apply mono_extend; auto.
  - apply mono_rank; auto.
  - apply mono_determinant; auto.
  - apply mono_reduced_basis; auto.
  - apply mono_solve; auto.
  - apply mono_null_space; auto.
  - apply mono_inverse; auto.
  - apply mono_mat_mul; auto.
Qed.
Print Assumptions C83_release.

Theorem C83_enough_bits : forall (a b : mat Z) v bs,
  exact_if_wide (fun c => m_extend_basis c v bs) (extend_basis v bs) /\
  exact_if_wide (fun c => m_rank c a) (rank a) /\
  exact_if_wide (fun c => m_determinant c a) (determinant a) /\
  exact_if_wide (fun c => m_reduced_basis c a) (reduced_basis a) /\
  exact_if_wide (fun c => m_solve c a b) (solve a b) /\
  exact_if_wide (fun c => m_null_space c a) (null_space a) /\
  exact_if_wide (fun c => m_inverse c a) (inverse a) /\
  exact_if_wide (fun c => m_mat_mul c a b) (mat_mul a b).
Proof.
  intros a b v bs. splits; apply ev_wide.
  - apply extend_ev.
  - apply rank_ev.
  - apply determinant_ev.
  - apply reduced_basis_ev.
  - apply solve_ev.
  - apply null_space_ev.
  - apply inverse_ev.
  - apply mat_mul_ev.
Qed.
Print Assumptions C83_enough_bits.

(** gcdx never overflows, except for the smallest number *)
Theorem C83_gcdx : forall bits a b, Z.abs a < 2 ^ (bits - 1) -> Z.abs b < 2 ^ (bits - 1) ->
  m_gcdx (checked bits) a b = gcdx a b.
Proof.
  intros bits a b Ha Hb. unfold m_gcdx, gcdx.
  apply (loop_same _ _ (fun st => exists k, iter gcdx_step k (gcdx_init a b) = Ret (inl st))); [|exists 0%nat; reflexivity].
  intros st [k Hk]. split.
  - unfold m_gcdx_step, gcdx_step. destruct st as [[[[[x xn] r] rn] s] sn]. destruct (Z.eqb_spec xn 0) as [E|E]; auto.
    pose proof (gcdx_bounds a b k _ Hk E) as B. unfold gcdx_intermediates in B.
    assert (C : forall z, Z.abs z <= Z.max (Z.abs a) (Z.abs b) -> checked bits z = Ret z) by (intros z Hz; apply checked_ok; lia).
    unfold m_quot, m_submul. destruct (Z.eqb_spec xn 0) as [|_]; [contradiction|].
    repeat match goal with H : Forall _ (_ :: _) |- _ => apply Forall_cons_iff in H as [? H] end.
    rewrite (C (Z.quot x xn)) by auto. cbn [bind].
    rewrite (C (Z.quot x xn * xn)) by auto. cbn [bind]. rewrite (C (x - Z.quot x xn * xn)) by auto. cbn [bind].
    rewrite (C (Z.quot x xn * rn)) by auto. cbn [bind]. rewrite (C (r - Z.quot x xn * rn)) by auto. cbn [bind].
    rewrite (C (Z.quot x xn * sn)) by auto. cbn [bind]. rewrite (C (s - Z.quot x xn * sn)) by auto. reflexivity.
  - destruct (gcdx_step st) as [[st'|]| |] eqn:E; auto. exists (k + 1)%nat. rewrite iter_add, Hk. cbn [iter]. rewrite E. reflexivity.
Qed.
Print Assumptions C83_gcdx.

Lemma index_In (m : mat Z) i j x : index m i j = Ret x -> In x (data m).
Proof.
  unfold index. destruct (Nat.ltb _ _); [|discriminate]. destruct (Nat.ltb _ _); [|discriminate]. cbn [assert bind].
  destruct (nth_error (data m) _) as [y|] eqn:E; [|discriminate]. intros H. apply nth_error_In in E. injection H as <-. exact E.
Qed.

(** Determinants of 2 x 2 and 3 x 3 matrices and products of matrices with
    small entries do not overflow. *)
Theorem C83_small : forall bits (a c : mat Z) b b', 
  (forall x, In x (data a) -> Z.abs x <= b) -> (forall x, In x (data c) -> Z.abs x <= b') -> 0 <= b -> 0 <= b' ->
  (nrows a = 2%nat -> 2 * b ^ 2 < 2 ^ (bits - 1) -> m_determinant (checked bits) a = determinant a) /\
  (nrows a = 3%nat -> 6 * b ^ 3 < 2 ^ (bits - 1) -> b < 2 ^ (bits - 1) -> m_determinant (checked bits) a = determinant a) /\
  (Z.of_nat (ncols a) * (b * b') < 2 ^ (bits - 1) -> m_mat_mul (checked bits) a c = mat_mul a c).
Proof.
  intros bits a c b b' Ha Hc B0 B0'.
  assert (Ok : forall z, Z.abs z <= 2 ^ (bits - 1) - 1 -> checked bits z = Ret z) by (intros z; apply checked_ok).
  set (M := 2 ^ (bits - 1)) in *. clearbody M.
  assert (M2 : forall x y c d, 0 <= c -> 0 <= d -> Z.abs x <= c -> Z.abs y <= d -> Z.abs (x * y) <= c * d) by (intros; rewrite Z.abs_mul; apply Z.mul_le_mono_nonneg; auto; apply Z.abs_nonneg).
  splits.
  - intros E H. unfold m_determinant, determinant. rewrite E. destruct (Nat.eqb 2 (ncols a)); [|reflexivity]. cbn [assert bind].
    destruct (index a 0 0) as [x| |] eqn:E1; auto. destruct (index a 0 1) as [y| |] eqn:E2; auto.
    destruct (index a 1 0) as [z| |] eqn:E3; auto. destruct (index a 1 1) as [w| |] eqn:E4; auto. cbn [bind].
    apply index_In, Ha in E1, E2, E3, E4. pose proof (M2 x w b b B0 B0 E1 E4). pose proof (M2 y z b b B0 B0 E2 E3).
    replace (b ^ 2) with (b * b) in H by ring. set (p := b * b) in *. set (q := x * w) in *. set (r := y * z) in *.
    rewrite (Ok q), (Ok r) by lia. cbn [bind]. rewrite (Ok (q - r)) by lia. reflexivity.
  - intros E H Hb. unfold m_determinant, determinant. rewrite E. destruct (Nat.eqb 3 (ncols a)); [|reflexivity]. cbn [assert bind].
    destruct (index a 0 0) as [a00| |] eqn:E00; cbn [bind]; [|reflexivity|reflexivity]. apply index_In, Ha in E00.
    destruct (index a 0 1) as [a01| |] eqn:E01; cbn [bind]; [|reflexivity|reflexivity]. apply index_In, Ha in E01.
    destruct (index a 0 2) as [a02| |] eqn:E02; cbn [bind]; [|reflexivity|reflexivity]. apply index_In, Ha in E02.
    destruct (index a 1 0) as [a10| |] eqn:E10; cbn [bind]; [|reflexivity|reflexivity]. apply index_In, Ha in E10.
    destruct (index a 1 1) as [a11| |] eqn:E11; cbn [bind]; [|reflexivity|reflexivity]. apply index_In, Ha in E11.
    destruct (index a 1 2) as [a12| |] eqn:E12; cbn [bind]; [|reflexivity|reflexivity]. apply index_In, Ha in E12.
    destruct (index a 2 0) as [a20| |] eqn:E20; cbn [bind]; [|reflexivity|reflexivity]. apply index_In, Ha in E20.
    destruct (index a 2 1) as [a21| |] eqn:E21; cbn [bind]; [|reflexivity|reflexivity]. apply index_In, Ha in E21.
    destruct (index a 2 2) as [a22| |] eqn:E22; cbn [bind]; [|reflexivity|reflexivity]. apply index_In, Ha in E22.
    assert (H2 : b * b <= M - 1).
    { destruct (Z.eq_dec b 0); [subst; lia|]. replace (b ^ 3) with (b * b * b) in H by ring. nia. }
    assert (M3 : forall x y z, Z.abs x <= b -> Z.abs y <= b -> Z.abs z <= b -> m_mul3 (checked bits) x y z = Ret (x * y * z) /\ Z.abs (x * y * z) <= b ^ 3).
    { intros x y z Hx Hy Hz. pose proof (M2 x y b b B0 B0 Hx Hy). pose proof (M2 (x * y) z (b * b) b ltac:(nia) B0 H0 Hz).
      replace (b ^ 3) with (b * b * b) in * by ring. split; auto. unfold m_mul3. rewrite (Ok (x * y)) by lia. cbn [bind]. apply Ok. lia. }
    change (@rmul Z Z_dom) with Z.mul. change (@radd Z Z_dom) with Z.add. change (@rsub Z Z_dom) with Z.sub.
    destruct (M3 a00 a11 a22 E00 E11 E22) as [A0 B6]. rewrite A0. clear A0. set (p0 := a00 * a11 * a22) in *. clearbody p0.
    destruct (M3 a01 a12 a20 E01 E12 E20) as [A1 B1]. rewrite A1. clear A1. set (p1 := a01 * a12 * a20) in *. clearbody p1.
    destruct (M3 a02 a10 a21 E02 E10 E21) as [A2 B2]. rewrite A2. clear A2. set (p2 := a02 * a10 * a21) in *. clearbody p2.
    destruct (M3 a02 a11 a20 E02 E11 E20) as [A3 B3]. rewrite A3. clear A3. set (p3 := a02 * a11 * a20) in *. clearbody p3.
    destruct (M3 a00 a12 a21 E00 E12 E21) as [A4 B4]. rewrite A4. clear A4. set (p4 := a00 * a12 * a21) in *. clearbody p4.
    destruct (M3 a01 a10 a22 E01 E10 E22) as [A5 B5]. rewrite A5. clear A5. set (p5 := a01 * a10 * a22) in *. clearbody p5.
    clear - Ok H B6 B1 B2 B3 B4 B5. generalize dependent (b ^ 3). intros c3 Hc3 C0 C1 C2 C3 C4 C5. cbn [bind].
    rewrite (Ok (p0 + p1)) by lia. cbn [bind].
    rewrite (Ok (p0 + p1 + p2)) by lia. cbn [bind].
    rewrite (Ok (p0 + p1 + p2 - p3)) by lia. cbn [bind].
    rewrite (Ok (p0 + p1 + p2 - p3 - p4)) by lia. cbn [bind].
    rewrite (Ok (p0 + p1 + p2 - p3 - p4 - p5)) by lia. cbn [bind].
    reflexivity.
  - intros H. unfold m_mat_mul, mat_mul. destruct (Nat.eqb (ncols a) (nrows c)); [|reflexivity]. cbn [assert bind].
    erewrite mapM_ext; [reflexivity|]. intros i _. apply mapM_ext. intros j _. unfold m_mul_entry, mul_entry.
    assert (P : 0 <= b * b') by nia. set (p := b * b') in *.
    assert (G : forall l s k, Z.abs s <= Z.of_nat k * p -> Z.of_nat (k + length l) * p < M ->
      foldM (fun s k => do x <- index a i k; do y <- index c k j; do p <- checked bits (x * y); checked bits (s + p)) s l =
      foldM (fun s k => do x <- index a i k; do y <- index c k j; Ret (radd s (rmul x y))) s l).
    { induction l as [|x l IH]; intros s k Hs Hl; cbn [foldM]; auto. cbn [length] in Hl.
      destruct (index a i x) as [u| |] eqn:E1; auto. destruct (index c x j) as [w| |] eqn:E2; auto. cbn [bind].
      apply index_In, Ha in E1. apply index_In, Hc in E2. pose proof (M2 u w b b' B0 B0' E1 E2) as Q. fold p in Q.
      change (radd s (rmul u w)) with (s + u * w). set (q := u * w) in *.
      rewrite (Ok q) by nia. cbn [bind]. rewrite (Ok (s + q)) by nia. cbn [bind]. apply (IH _ (S k)); [nia|]. replace (S k + length l)%nat with (k + S (length l))%nat by lia. exact Hl. }
    apply (G _ _ 0%nat); [cbn; lia|]. rewrite seq_length. cbn [Nat.add]. exact H.
Qed.
Print Assumptions C83_small.

(** Larger determinants go through elimination: with overflow checks the i32
    determinant and inverse of a matrix with entries below 2 * 10^5 and
    determinant 1 panic; i64 suffices for it. *)
Theorem C83_determinant_refuted : exists a : mat Z,
  nrows a = 4%nat /\ (forall x, In x (data a) -> Z.abs x < 200000) /\ determinant a = Ret 1 /\
  m_determinant (checked 32) a = Panic /\ m_inverse (checked 32) a = Panic /\
  m_determinant (checked 64) a = Ret 1 /\ m_inverse (checked 64) a = inverse a.
Proof.
  exists (Mat 4 4 [75025; 46368; 0; 0; 121393; 75025; 0; 0; 0; 0; 1; 0; 0; 0; 0; 1]).
  splits; try (vm_compute; reflexivity). intros x Hx. cbn [data] in Hx.
  repeat (destruct Hx as [<-|Hx]; [cbn; lia|]). destruct Hx.
Qed.
Print Assumptions C83_determinant_refuted.

Example C83_case : let a := Mat 3 3 [700; -700; 3; 4; 5; 6; 7; 8; 700] in
  (forall x, In x (data a) -> Z.abs x <= 700) /\ 6 * 700 ^ 3 < 2 ^ (32 - 1) /\ 700 < 2 ^ (32 - 1) /\
  m_determinant (checked 32) a = Ret 4346991.
Proof. cbv zeta. splits; try (vm_compute; congruence). intros x Hx. cbn [data] in Hx. repeat (destruct Hx as [<-|Hx]; [cbn; lia|]). destruct Hx. Qed.
