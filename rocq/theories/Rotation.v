(** Axes and the sense of rotation of 3 x 3 matrices of finite order.
    Pure mathematics used by the proofs about finder.rs; it models no code. *)
From Coq Require Import List ZArith QArith Qcanon Lia Bool PeanoNat.
From Verif Require Import Base QcTac ZQ Crystal.
Import ListNotations.
Close Scope Q_scope.
Open Scope nat_scope.

(** ** vectors, axes and the sense of rotation *)
Record v3 := V3 { vx : Qc; vy : Qc; vz : Qc }.
Definition app3 (a : m3) (v : v3) : v3 := V3 (c00 a * vx v + c01 a * vy v + c02 a * vz v)%Qc (c10 a * vx v + c11 a * vy v + c12 a * vz v)%Qc (c20 a * vx v + c21 a * vy v + c22 a * vz v)%Qc.
Definition comb3 (x : Qc) (v : v3) (y : Qc) (w : v3) : v3 := V3 (x * vx v + y * vx w)%Qc (x * vy v + y * vy w)%Qc (x * vz v + y * vz w)%Qc.
Definition zv3 : v3 := V3 0%Qc 0%Qc 0%Qc.
Definition cols3 (a v w : v3) : m3 := M3 (vx a) (vx v) (vx w) (vy a) (vy v) (vy w) (vz a) (vz v) (vz w).
Definition vol (a v w : v3) : Qc := det3 (cols3 a v w).
Definition indep2 (v w : v3) : Prop := forall x y, comb3 x v y w = zv3 -> x = 0%Qc /\ y = 0%Qc.

Ltac v3ring := unfold vol, cols3, comb3, zv3, app3, mul3, id3, tr3, add3, scale3, zero3, adj3, det3, trace3; cbn [c00 c01 c02 c10 c11 c12 c20 c21 c22 vx vy vz];
  match goal with |- @eq m3 _ _ => f_equal; ring | |- @eq v3 _ _ => f_equal; ring | _ => ring end.
Lemma app3_mul a b v : app3 (mul3 a b) v = app3 a (app3 b v). Proof. v3ring. Qed.
Lemma app3_1 v : app3 id3 v = v. Proof. destruct v. v3ring. Qed.
Lemma app3_comb p x v y w : app3 p (comb3 x v y w) = comb3 x (app3 p v) y (app3 p w). Proof. v3ring. Qed.
Lemma trace3_comm a b : trace3 (mul3 a b) = trace3 (mul3 b a). Proof. v3ring. Qed.
Lemma v3_eq a b : vx a = vx b -> vy a = vy b -> vz a = vz b -> a = b.
Proof. destruct a, b. cbn. intros -> -> ->. auto. Qed.
Lemma Qc_sub_eq (a b : Qc) : (a - b)%Qc = 0%Qc -> a = b.
Proof. intros H. replace a with ((a - b) + b)%Qc by ring. rewrite H. ring. Qed.

(** two independent vectors have a non-zero cross product *)
Definition cross (v w : v3) : v3 := V3 (vy v * vz w - vz v * vy w)%Qc (vz v * vx w - vx v * vz w)%Qc (vx v * vy w - vy v * vx w)%Qc.
Lemma cross_nz v w : indep2 v w -> cross v w <> zv3.
Proof.
  intros I E. pose proof (f_equal vx E) as E1. pose proof (f_equal vy E) as E2. pose proof (f_equal vz E) as E3. cbn in E1, E2, E3.
  assert (A : forall x y, comb3 x v y w = zv3 -> y = 0%Qc) by (intros x y H; apply (I x y H)).
  assert (Nx : vx v = 0%Qc). { cut ((- vx v)%Qc = 0%Qc); [intros H; replace (vx v) with (- - vx v)%Qc by ring; rewrite H; reflexivity|]. apply (A (vx w)). unfold comb3, zv3. f_equal; [ring| |].
    - replace (vx w * vy v + - vx v * vy w)%Qc with (- (vx v * vy w - vy v * vx w))%Qc by ring. rewrite E3. reflexivity.
    - replace (vx w * vz v + - vx v * vz w)%Qc with (vz v * vx w - vx v * vz w)%Qc by ring. exact E2. }
  assert (Ny : vy v = 0%Qc). { cut ((- vy v)%Qc = 0%Qc); [intros H; replace (vy v) with (- - vy v)%Qc by ring; rewrite H; reflexivity|]. apply (A (vy w)). unfold comb3, zv3. f_equal; [|ring|].
    - replace (vy w * vx v + - vy v * vx w)%Qc with (vx v * vy w - vy v * vx w)%Qc by ring. exact E3.
    - replace (vy w * vz v + - vy v * vz w)%Qc with (- (vy v * vz w - vz v * vy w))%Qc by ring. rewrite E1. reflexivity. }
  assert (Nz : vz v = 0%Qc). { cut ((- vz v)%Qc = 0%Qc); [intros H; replace (vz v) with (- - vz v)%Qc by ring; rewrite H; reflexivity|]. apply (A (vz w)). unfold comb3, zv3. f_equal; [| |ring].
    - replace (vz w * vx v + - vz v * vx w)%Qc with (- (vz v * vx w - vx v * vz w))%Qc by ring. rewrite E2. reflexivity.
    - replace (vz w * vy v + - vz v * vy w)%Qc with (vy v * vz w - vz v * vy w)%Qc by ring. exact E1. }
  destruct (I 1%Qc 0%Qc) as [C _]; [|discriminate C]. apply v3_eq; cbn; rewrite ?Nx, ?Ny, ?Nz; ring.
Qed.

(** a matrix of finite order, determinant 1 that fixes two independent vectors is the identity *)
Lemma rank1 (r0 r1 r2 c0 c1 c2 w0 w1 w2 z0 z1 z2 : Qc) : c0 = (w1 * z2 - w2 * z1)%Qc -> c1 = (w2 * z0 - w0 * z2)%Qc -> c2 = (w0 * z1 - w1 * z0)%Qc ->
  (r0 * w0 + r1 * w1 + r2 * w2)%Qc = 0%Qc -> (r0 * z0 + r1 * z1 + r2 * z2)%Qc = 0%Qc ->
  (r0 * c1 = r1 * c0)%Qc /\ (r0 * c2 = r2 * c0)%Qc /\ (r1 * c2 = r2 * c1)%Qc.
Proof.
  intros -> -> -> H1 H2. splits; apply Qc_sub_eq.
  - replace (_ - _)%Qc with (z2 * - (r0 * w0 + r1 * w1 + r2 * w2) + w2 * (r0 * z0 + r1 * z1 + r2 * z2))%Qc by ring. rewrite H1, H2. ring.
  - replace (_ - _)%Qc with (z1 * (r0 * w0 + r1 * w1 + r2 * w2) - w1 * (r0 * z0 + r1 * z1 + r2 * z2))%Qc by ring. rewrite H1, H2. ring.
  - replace (_ - _)%Qc with (z0 * - (r0 * w0 + r1 * w1 + r2 * w2) + w0 * (r0 * z0 + r1 * z1 + r2 * z2))%Qc by ring. rewrite H1, H2. ring.
Qed.
Lemma outer_factor (r0 r1 r2 c0 c1 c2 : Qc) : ~ (c0 = 0%Qc /\ c1 = 0%Qc /\ c2 = 0%Qc) -> (r0 * c1 = r1 * c0)%Qc -> (r0 * c2 = r2 * c0)%Qc -> (r1 * c2 = r2 * c1)%Qc ->
  exists l, r0 = (l * c0)%Qc /\ r1 = (l * c1)%Qc /\ r2 = (l * c2)%Qc.
Proof.
  intros N H1 H2 H3. destruct (Qc_eq_dec c0 0%Qc) as [Z0|N0]; [destruct (Qc_eq_dec c1 0%Qc) as [Z1|N1]; [destruct (Qc_eq_dec c2 0%Qc) as [Z2|N2]; [tauto|]|]|].
  - exists (r2 / c2)%Qc. splits; field_simplify_eq; auto; rewrite ?H2, ?H3; ring.
  - exists (r1 / c1)%Qc. splits; field_simplify_eq; auto; rewrite <- ?H3, ?H1; ring.
  - exists (r0 / c0)%Qc. splits; field_simplify_eq; auto; rewrite ?H1, ?H2; ring.
Qed.
Lemma two_fixed p k v w : 0 < k -> pow3 p k = id3 -> det3 p = 1%Qc -> indep2 v w -> app3 p v = v -> app3 p w = w -> p = id3.
Proof.
  intros Hk Hp D I Ev Ew. pose proof (cross_nz v w I) as Nc. set (c := cross v w) in *.
  assert (Nc' : ~ (vx c = 0%Qc /\ vy c = 0%Qc /\ vz c = 0%Qc)) by (intros (? & ? & ?); apply Nc; apply v3_eq; auto).
  assert (F : forall r0 r1 r2, (r0 * vx v + r1 * vy v + r2 * vz v)%Qc = 0%Qc -> (r0 * vx w + r1 * vy w + r2 * vz w)%Qc = 0%Qc -> exists l, r0 = (l * vx c)%Qc /\ r1 = (l * vy c)%Qc /\ r2 = (l * vz c)%Qc).
  { intros r0 r1 r2 H1 H2. destruct (rank1 r0 r1 r2 (vx c) (vy c) (vz c) (vx v) (vy v) (vz v) (vx w) (vy w) (vz w)) as (A1 & A2 & A3); auto. apply outer_factor; auto. }
  pose proof (f_equal vx Ev) as V0. pose proof (f_equal vy Ev) as V1. pose proof (f_equal vz Ev) as V2.
  pose proof (f_equal vx Ew) as W0. pose proof (f_equal vy Ew) as W1. pose proof (f_equal vz Ew) as W2. cbn [app3 vx vy vz] in *.
  destruct (F (c00 p - 1)%Qc (c01 p) (c02 p)) as (l0 & A00 & A01 & A02).
  { replace ((c00 p - 1) * vx v + c01 p * vy v + c02 p * vz v)%Qc with (c00 p * vx v + c01 p * vy v + c02 p * vz v - vx v)%Qc by ring. rewrite V0. ring. }
  { replace ((c00 p - 1) * vx w + c01 p * vy w + c02 p * vz w)%Qc with (c00 p * vx w + c01 p * vy w + c02 p * vz w - vx w)%Qc by ring. rewrite W0. ring. }
  destruct (F (c10 p) (c11 p - 1)%Qc (c12 p)) as (l1 & A10 & A11 & A12).
  { replace (c10 p * vx v + (c11 p - 1) * vy v + c12 p * vz v)%Qc with (c10 p * vx v + c11 p * vy v + c12 p * vz v - vy v)%Qc by ring. rewrite V1. ring. }
  { replace (c10 p * vx w + (c11 p - 1) * vy w + c12 p * vz w)%Qc with (c10 p * vx w + c11 p * vy w + c12 p * vz w - vy w)%Qc by ring. rewrite W1. ring. }
  destruct (F (c20 p) (c21 p) (c22 p - 1)%Qc) as (l2 & A20 & A21 & A22).
  { replace (c20 p * vx v + c21 p * vy v + (c22 p - 1) * vz v)%Qc with (c20 p * vx v + c21 p * vy v + c22 p * vz v - vz v)%Qc by ring. rewrite V2. ring. }
  { replace (c20 p * vx w + c21 p * vy w + (c22 p - 1) * vz w)%Qc with (c20 p * vx w + c21 p * vy w + c22 p * vz w - vz w)%Qc by ring. rewrite W2. ring. }
  assert (E0 : c00 p = (1 + l0 * vx c)%Qc) by (rewrite <- A00; ring). assert (E1 : c11 p = (1 + l1 * vy c)%Qc) by (rewrite <- A11; ring).
  assert (E2 : c22 p = (1 + l2 * vz c)%Qc) by (rewrite <- A22; ring).
  set (tau := (l0 * vx c + l1 * vy c + l2 * vz c)%Qc).
  assert (Ep : p = M3 (1 + l0 * vx c) (l0 * vy c) (l0 * vz c) (l1 * vx c) (1 + l1 * vy c) (l1 * vz c) (l2 * vx c) (l2 * vy c) (1 + l2 * vz c))
    by (destruct p; cbn in *; f_equal; auto).
  assert (T0 : tau = 0%Qc).
  { rewrite Ep in D. unfold det3 in D. cbn [c00 c01 c02 c10 c11 c12 c20 c21 c22] in D.
    match type of D with ?x = _ => replace tau with (x - 1)%Qc by (unfold tau; ring); rewrite D end. ring. }
  set (nn := M3 (l0 * vx c) (l0 * vy c) (l0 * vz c) (l1 * vx c) (l1 * vy c) (l1 * vz c) (l2 * vx c) (l2 * vy c) (l2 * vz c)).
  assert (Pn : p = add3 id3 nn) by (rewrite Ep; unfold nn; m3ring).
  assert (Sq : mul3 nn nn = zero3). { transitivity (scale3 tau nn); [unfold nn, tau; m3ring|]. rewrite T0. m3ring. }
  assert (Pk : forall j, pow3 p j = add3 id3 (scale3 (ZQ (Z.of_nat j)) nn)).
  { induction j as [|j IH]; [cbn [pow3]; change (ZQ (Z.of_nat 0)) with 0%Qc; destruct nn; m3ring|]. cbn [pow3]. rewrite IH. rewrite Pn at 1. rewrite mul3_add_r, mul3_1r, mul3_add_l, mul3_1l, mul3_scale_l, Sq.
    rewrite Nat2Z.inj_succ. unfold Z.succ. rewrite ZQ_add. change (ZQ 1) with 1%Qc. generalize (ZQ (Z.of_nat j)). intros z. destruct nn. m3ring. }
  pose proof (Pk k) as Q. rewrite Hp in Q. assert (Kz : ZQ (Z.of_nat k) <> 0%Qc) by (intros C; apply (ZQ_eq0 _) in C; lia).
  assert (N0 : nn = zero3).
  { apply entries3_eq. intros e He. apply (f_equal e) in Q. rewrite entries3_lin, entries3_scale in Q by auto.
    assert (X : (ZQ (Z.of_nat k) * e nn)%Qc = 0%Qc) by (replace (ZQ (Z.of_nat k) * e nn)%Qc with ((e id3 + ZQ (Z.of_nat k) * e nn) - e id3)%Qc by ring; rewrite <- Q; ring).
    apply Qcmult_integral in X as [X|X]; [congruence|]. rewrite X. unfold entries3 in He. cbn [In] in He. repeat (destruct He as [<-|He]; [reflexivity|]). destruct He. }
  rewrite Pn, N0. m3ring.
Qed.

(** the sense of rotation about the axis does not depend on the vector *)
Definition sense (p : m3) (a v : v3) : Qc := vol a v (app3 p v).
Lemma plucker a v w x y : (vol a x y * vol a v w)%Qc = (vol a x w * vol a v y - vol a v x * vol a y w)%Qc.
Proof. v3ring. Qed.
Lemma vol_app p a v w : vol (app3 p a) (app3 p v) (app3 p w) = (det3 p * vol a v w)%Qc.
Proof. v3ring. Qed.
Lemma vol_trace p a v w : (vol (app3 p a) v w + vol a (app3 p v) w + vol a v (app3 p w))%Qc = (trace3 p * vol a v w)%Qc.
Proof. v3ring. Qed.
Lemma sense_indep p k a v w : 0 < k -> pow3 p k = id3 -> det3 p = 1%Qc -> pow3 p 2 <> id3 -> app3 p a = a -> vol a v w <> 0%Qc -> (0 < sense p a v * sense p a w)%Qc.
Proof.
  intros Hk Hp D N2 Ea Nv. set (d := vol a v w) in *. set (b := vol a (app3 p v) w). set (g := vol a v (app3 p w)).
  assert (E1 : (sense p a v * sense p a w)%Qc = (d * d - b * g)%Qc).
  { pose proof (plucker a v w (app3 p v) (app3 p w)) as P. rewrite <- Ea in P at 1. rewrite vol_app, D in P. fold d b g in P.
    assert (A : vol a (app3 p w) w = (- sense p a w)%Qc) by (unfold sense; v3ring). rewrite A in P. unfold sense at 1. unfold sense at 1 in P.
    assert (P' : (d * d)%Qc = (b * g - vol a v (app3 p v) * - vol a w (app3 p w))%Qc) by (rewrite <- P; ring). rewrite P'. unfold sense. ring. }
  assert (E2 : (b + g)%Qc = ((trace3 p - 1) * d)%Qc).
  { pose proof (vol_trace p a v w) as T. rewrite Ea in T. fold d b g in T. replace (b + g)%Qc with ((d + b + g) - d)%Qc by ring. rewrite T. ring. }
  rewrite E1. pose proof (Qc_sq_pos d Nv) as Dp. pose proof (Qc_sq_nonneg (b - g)) as Sq.
  assert (Four : (b * g + b * g + b * g + b * g)%Qc = ((b + g) * (b + g) - (b - g) * (b - g))%Qc) by ring.
  assert (Ss : ((b + g) * (b + g) <= d * d)%Qc).
  { rewrite E2. destruct (restriction3_cases p k Hk Hp D) as [(S & _)|[(S & _)|[(S & _)|[S|S]]]].
    - rewrite S. replace (0 * d * (0 * d))%Qc with 0%Qc by ring. qclra.
    - rewrite S. replace (1 * d * (1 * d))%Qc with (d * d)%Qc by ring. apply Qcle_refl.
    - rewrite S. replace (- (1) * d * (- (1) * d))%Qc with (d * d)%Qc by ring. apply Qcle_refl.
    - exfalso. apply N2. change 2 with (1 + 1). rewrite pow3_add, S. apply mul3_1l.
    - contradiction. }
  qclra.
Qed.
Lemma cross_vol a v w : vol a v w = (vx (cross a v) * vx w + vy (cross a v) * vy w + vz (cross a v) * vz w)%Qc.
Proof. unfold cross. v3ring. Qed.
Lemma norm_pos c : c <> zv3 -> (0 < vx c * vx c + vy c * vy c + vz c * vz c)%Qc.
Proof.
  intros N. pose proof (Qc_sq_nonneg (vx c)). pose proof (Qc_sq_nonneg (vy c)). pose proof (Qc_sq_nonneg (vz c)).
  destruct (Qc_eq_dec (vx c) 0%Qc) as [Zx|Nx]; [|pose proof (Qc_sq_pos _ Nx); qclra].
  destruct (Qc_eq_dec (vy c) 0%Qc) as [Zy|Ny]; [|pose proof (Qc_sq_pos _ Ny); qclra].
  destruct (Qc_eq_dec (vz c) 0%Qc) as [Zz|Nz]; [|pose proof (Qc_sq_pos _ Nz); qclra]. exfalso. apply N. apply v3_eq; auto.
Qed.
Lemma Qc_pos_nz (x : Qc) : (0 < x)%Qc -> x <> 0%Qc.
Proof. intros H ->. qclra. Qed.
Theorem sense_constant p k a v w : 0 < k -> pow3 p k = id3 -> det3 p = 1%Qc -> pow3 p 2 <> id3 -> app3 p a = a -> indep2 a v -> indep2 a w -> (0 < sense p a v * sense p a w)%Qc.
Proof.
  intros Hk Hp D N2 Ea Iv Iw. destruct (Qc_eq_dec (vol a v w) 0%Qc) as [Z|N]; [|eapply sense_indep; eauto].
  pose proof (norm_pos _ (cross_nz a v Iv)) as Cv. pose proof (norm_pos _ (cross_nz a w Iw)) as Cw. set (u := cross a v) in *.
  assert (U1 : vol a v u <> 0%Qc) by (rewrite cross_vol; fold u; apply Qc_pos_nz; auto).
  assert (U2 : vol a w u <> 0%Qc).
  { intros C. set (c := cross a w) in *.
    assert (L : (vol a w u * vol a w u)%Qc = ((vx u * vx u + vy u * vy u + vz u * vz u) * (vx c * vx c + vy c * vy c + vz c * vz c)
      - (vx a * vx a + vy a * vy a + vz a * vz a) * (vol a v w * vol a v w))%Qc) by (unfold c, u, cross; v3ring).
    rewrite C, Z in L. pose proof (Qc_mul_pos _ _ Cv Cw) as X. apply (Qc_pos_nz _ X). transitivity (0 * 0)%Qc; [|reflexivity]. rewrite L. ring. }
  pose proof (sense_indep p k a v u Hk Hp D N2 Ea U1) as H1. pose proof (sense_indep p k a w u Hk Hp D N2 Ea U2) as H2.
  pose proof (Qc_mul_pos _ _ H1 H2) as H3. set (x := sense p a v) in *. set (y := sense p a w) in *. set (z := sense p a u) in *.
  assert (Nz : z <> 0%Qc) by (intros C; rewrite C in H1; apply (Qc_pos_nz _ H1); ring).
  apply (Qc_mul_pos_inv (z * z) (x * y)); [apply Qc_sq_pos; auto|]. replace (z * z * (x * y))%Qc with (x * z * (y * z))%Qc by ring. exact H3.
Qed.
(** the inverse turns the other way *)
Lemma sense_inverse p q a v : app3 p a = a -> mul3 p q = id3 -> det3 p = 1%Qc -> sense q a v = (- sense p a (app3 q v))%Qc.
Proof.
  intros Ea E D. unfold sense. rewrite <- (app3_mul p q), E, app3_1. v3ring.
Qed.
(** a matrix of finite order and determinant 1 fixes a vector *)
Ltac byopp H := match type of H with ?x = _ => match goal with |- ?y = _ => first [replace y with x by ring; exact H | replace y with (- x)%Qc by ring; rewrite H; reflexivity] end end.
Lemma kernel3' b : det3 b = 0%Qc -> exists v, v <> zv3 /\ app3 b v = zv3.
Proof.
  intros D. assert (A : mul3 b (adj3 b) = zero3) by (rewrite mul3_adj, D; m3ring).
  assert (T : forall x y z, ~ (x = 0%Qc /\ y = 0%Qc /\ z = 0%Qc) -> (c00 b * x + c01 b * y + c02 b * z)%Qc = 0%Qc -> (c10 b * x + c11 b * y + c12 b * z)%Qc = 0%Qc ->
     (c20 b * x + c21 b * y + c22 b * z)%Qc = 0%Qc -> exists v, v <> zv3 /\ app3 b v = zv3).
  { intros x y z N E1 E2 E3. exists (V3 x y z). split; [intros C; apply N; repeat split; [exact (f_equal vx C)|exact (f_equal vy C)|exact (f_equal vz C)]|]. apply v3_eq; auto. }
  assert (P : forall e, In e entries3 -> e (mul3 b (adj3 b)) = 0%Qc).
  { intros e He. rewrite A. unfold entries3 in He. cbn [In] in He. repeat (destruct He as [<-|He]; [reflexivity|]). destruct He. }
  unfold entries3 in P. set (j := adj3 b) in *.
  destruct (Qc_eq_dec (c00 j) 0%Qc) as [Z0|N0]; [destruct (Qc_eq_dec (c10 j) 0%Qc) as [Z1|N1]; [destruct (Qc_eq_dec (c20 j) 0%Qc) as [Z2|N2]|]|].
  2:{ apply (T (c00 j) (c10 j) (c20 j)); [tauto|apply (P c00)|apply (P c10)|apply (P c20)]; cbn; tauto. }
  2:{ apply (T (c00 j) (c10 j) (c20 j)); [tauto|apply (P c00)|apply (P c10)|apply (P c20)]; cbn; tauto. }
  2:{ apply (T (c00 j) (c10 j) (c20 j)); [tauto|apply (P c00)|apply (P c10)|apply (P c20)]; cbn; tauto. }
  destruct (Qc_eq_dec (c01 j) 0%Qc) as [Y0|N0]; [destruct (Qc_eq_dec (c11 j) 0%Qc) as [Y1|N1]; [destruct (Qc_eq_dec (c21 j) 0%Qc) as [Y2|N2]|]|].
  2:{ apply (T (c01 j) (c11 j) (c21 j)); [tauto|apply (P c01)|apply (P c11)|apply (P c21)]; cbn; tauto. }
  2:{ apply (T (c01 j) (c11 j) (c21 j)); [tauto|apply (P c01)|apply (P c11)|apply (P c21)]; cbn; tauto. }
  2:{ apply (T (c01 j) (c11 j) (c21 j)); [tauto|apply (P c01)|apply (P c11)|apply (P c21)]; cbn; tauto. }
  destruct (Qc_eq_dec (c02 j) 0%Qc) as [X0|N0]; [destruct (Qc_eq_dec (c12 j) 0%Qc) as [X1|N1]; [destruct (Qc_eq_dec (c22 j) 0%Qc) as [X2|N2]|]|].
  2:{ apply (T (c02 j) (c12 j) (c22 j)); [tauto|apply (P c02)|apply (P c12)|apply (P c22)]; cbn; tauto. }
  2:{ apply (T (c02 j) (c12 j) (c22 j)); [tauto|apply (P c02)|apply (P c12)|apply (P c22)]; cbn; tauto. }
  2:{ apply (T (c02 j) (c12 j) (c22 j)); [tauto|apply (P c02)|apply (P c12)|apply (P c22)]; cbn; tauto. }
  unfold j, adj3 in Z0, Z1, Z2, Y0, Y1, Y2, X0, X1, X2. cbn [c00 c01 c02 c10 c11 c12 c20 c21 c22] in Z0, Z1, Z2, Y0, Y1, Y2, X0, X1, X2. clear T P A D j.
  (* all minors vanish *)
  assert (T : forall x y z, ~ (x = 0%Qc /\ y = 0%Qc /\ z = 0%Qc) -> (c00 b * x + c01 b * y + c02 b * z)%Qc = 0%Qc -> (c10 b * x + c11 b * y + c12 b * z)%Qc = 0%Qc ->
     (c20 b * x + c21 b * y + c22 b * z)%Qc = 0%Qc -> exists v, v <> zv3 /\ app3 b v = zv3).
  { intros x y z N E1 E2 E3. exists (V3 x y z). split; [intros C; apply N; repeat split; [exact (f_equal vx C)|exact (f_equal vy C)|exact (f_equal vz C)]|]. apply v3_eq; auto. }
  assert (K : forall r0 r1 x0 x1 : Qc, (r0 * x1 - r1 * x0)%Qc = 0%Qc -> (x0 * r1 + x1 * - r0)%Qc = 0%Qc) by (intros r0 r1 x0 x1 H; replace (x0 * r1 + x1 * - r0)%Qc with (- (r0 * x1 - r1 * x0))%Qc by ring; rewrite H; reflexivity).
  assert (K' : forall r0 r1 x0 x1 : Qc, (r1 * x0 - r0 * x1)%Qc = 0%Qc -> (x0 * r1 + x1 * - r0)%Qc = 0%Qc) by (intros r0 r1 x0 x1 H; rewrite <- H; ring).
  assert (O : forall x : Qc, x <> 0%Qc -> (- x)%Qc <> 0%Qc) by (intros x N C; apply N; replace x with (- - x)%Qc by ring; rewrite C; reflexivity).
  assert (B : forall x0 x1 x2 : Qc, (x0 <> 0%Qc \/ x1 <> 0%Qc \/ x2 <> 0%Qc) \/ (x0 = 0%Qc /\ x1 = 0%Qc /\ x2 = 0%Qc)).
  { intros x0 x1 x2. destruct (Qc_eq_dec x0 0%Qc), (Qc_eq_dec x1 0%Qc), (Qc_eq_dec x2 0%Qc); tauto. }
  assert (Pad : forall x y z : Qc, (x + y)%Qc = 0%Qc -> (x + y + z * 0)%Qc = 0%Qc) by (intros x y z H; rewrite H; ring).
  destruct (Qc_eq_dec (c00 b) 0%Qc) as [B0|B0]; [destruct (Qc_eq_dec (c10 b) 0%Qc) as [B1|B1]; [destruct (Qc_eq_dec (c20 b) 0%Qc) as [B2|B2]|]|].
  - apply (T 1%Qc 0%Qc 0%Qc); [intros (C & _); discriminate C|rewrite B0; ring|rewrite B1; ring|rewrite B2; ring].
  - apply (T (c21 b) (- c20 b)%Qc 0%Qc); [intros (_ & C & _); exact (O _ B2 C)| | |]; apply Pad; [apply K'|apply K'|ring].
    + byopp Y2. + byopp Z2.
  - apply (T (c11 b) (- c10 b)%Qc 0%Qc); [intros (_ & C & _); exact (O _ B1 C)| | |]; apply Pad; [apply K'|ring|apply K'].
    + byopp X2. + byopp Z2.
  - apply (T (c01 b) (- c00 b)%Qc 0%Qc); [intros (_ & C & _); exact (O _ B0 C)| | |]; apply Pad; [ring|apply K'|apply K'].
    + byopp X2. + byopp Y2.
Qed.
Lemma fixed_vector p k : 0 < k -> pow3 p k = id3 -> det3 p = 1%Qc -> exists v, v <> zv3 /\ app3 p v = v.
Proof.
  intros Hk Hp D. pose proof (finite_trace p k Hk Hp D) as T.
  destruct (kernel3' (add3 p (scale3 (- (1))%Qc id3))) as (v & N & E).
  - transitivity (det3 p - trace3 (adj3 p) + trace3 p - 1)%Qc; [m3ring|]. rewrite D, <- T. ring.
  - exists v. split; auto. apply v3_eq; [apply (f_equal vx) in E|apply (f_equal vy) in E|apply (f_equal vz) in E]; apply Qc_sub_eq; (etransitivity; [|exact E]); v3ring.
Qed.
