(** Proofs about crystal_system_and_basis_2d (finder.rs). *)
From Coq Require Import String Ascii List ZArith NArith Lia Bool PeanoNat Permutation QArith Qcanon.
From Verif Require Import Base QcTac Vec Elim Scalars Matrix MatrixMore LinAlg ZQ Lattices Reduce Geometry Text ParseOp Table Generate Group Crystal Rotation Finder Details Sense Plane.
Import ListNotations.
Close Scope Q_scope. Close Scope Qc_scope.
Local Open Scope list_scope.
Open Scope nat_scope.

Definition of2 (a : m2) : mat Qc := Mat 2 2 [e00 a; e01 a; e10 a; e11 a].
Definition col2 (v : v2) : mat Qc := Mat 2 1 [wx v; wy v].
Lemma of2_mk a : of2 a = mk 2 2 (ent2 a). Proof. reflexivity. Qed.
Lemma of2_inj a b : of2 a = of2 b -> a = b.
Proof. intros H. assert (D : data (of2 a) = data (of2 b)) by (rewrite H; auto). cbn [of2 data] in D. injection D as A B C E. apply m2_eq; auto. Qed.
Lemma mul_of2 a b : mat_mul (of2 a) (of2 b) = Ret (of2 (mul2 a b)).
Proof. rewrite !of2_mk, mul_mk by lia. f_equal. apply mk_ext. apply meq_sym. apply ent2_mul. Qed.
Lemma col2_mk v : col2 v = mk 2 1 (fun i _ => match i with 0 => wx v | _ => wy v end). Proof. reflexivity. Qed.
Lemma mul_col2 a v : mat_mul (of2 a) (col2 v) = Ret (col2 (app2 a v)).
Proof. rewrite of2_mk, !col2_mk, mat_mul_mk by lia. f_equal. apply mk_ext. intros i j Hi Hj. rewrite sumf_2. destruct i as [|[|i]]; try lia; reflexivity. Qed.
Lemma sub_col2 v w : mat_sub (col2 v) (col2 w) = Ret (col2 (V2 (wx v - wx w)%Qc (wy v - wy w)%Qc)). Proof. reflexivity. Qed.
Lemma neg_col2 v : mat_neg (col2 v) = Ret (col2 (neg_v v)). Proof. reflexivity. Qed.
Lemma hand_col2 v w : (do b <- hstack [col2 v; col2 w]; is_left_handed b) = Ret (q_neg (ar v w)).
Proof.
  change (hstack [col2 v; col2 w]) with (Ret (mk 2 2 (ent2 (M2 (wx v) (wx w) (wy v) (wy w))))). cbn [bind]. unfold is_left_handed. rewrite det_mk by lia. cbn [bind]. rewrite ent2_det. unfold det2, ar. cbn [e00 e01 e10 e11]. f_equal. f_equal. ring.
Qed.

(** ** one element *)
Record dspec (a : m2) (o : details) : Prop := {
  ds_matrix : od_matrix o = of2 a;
  ds_order : ord2 a (od_order o);
  ds_pres : od_preserving o = true <-> det2 a = 1%Qc;
  ds_axis : det2 a <> 1%Qc -> exists v, od_axis o = Some [wx v; wy v] /\ v <> zv2 /\ app2 a v = v;
  ds_sense : 2 < od_order o -> det2 a = 1%Qc -> forall v, v <> zv2 -> if od_clockwise o then (ar v (app2 a v) < 0)%Qc else (0 < ar v (app2 a v))%Qc }.
Lemma details2 a n : ord2 a n -> exists o, details_from (of2 a) = Ret o /\ dspec a o.
Proof.
  intros O. rewrite of2_mk. destruct (details_ok 2 (ent2 a) ltac:(lia)) as (ax & n' & c & E & On & Sa & Sc). eexists. split; [exact E|]. pose proof O as (Hn & Pn & Mn). destruct (restriction2 a n O) as [_ D].
  assert (Hn' : 0 < n'). { destruct On as [[-> X]|[X _]]; auto. exfalso. apply (X n); auto. apply ent2_pow_id. auto. }
  pose proof (ent2_order a n' On Hn') as O'. rewrite ent2_det in *.
  assert (P : negb (q_neg (det2 a)) = true <-> det2 a = 1%Qc). { destruct D as [-> | ->]; cbn; split; try reflexivity; intros X; discriminate X. }
  constructor; cbn [od_matrix od_order od_preserving od_axis od_clockwise]; auto.
  - intros ND. pose proof (axis_none 2 (ent2 a) n' ltac:(lia) On Hn' ax Sa) as AN. destruct ax as [v|].
    + destruct Sa as (L & Pv & Ev & _). destruct v as [|x [|y [|]]]; try discriminate L. exists (V2 x y). splits; auto.
      * destruct (lead_nz _ _ Pv) as (i & Hi & N). intros C. injection C as -> ->. destruct i as [|[|i]]; [apply N; reflexivity|apply N; reflexivity|lia].
      * pose proof (Ev 0 ltac:(lia)) as E0. pose proof (Ev 1 ltac:(lia)) as E1. unfold lapp in E0, E1. rewrite sumf_2 in E0, E1. change (axis_sign 2 (ent2 a)) with 1%Qc in *. cbn [rmul Qc_dom ent2 vget nth] in E0, E1. apply v2_eq; cbn [app2 wx wy]; [rewrite E0|rewrite E1]; ring.
    + exfalso. destruct AN as [AN _]. destruct (AN eq_refl) as [[_ C]|[C _]]; [rewrite ent2_det in C; contradiction|discriminate C].
  - intros H2 D1 v Nv. destruct Sc as (_ & _ & S & _). specialize (S eq_refl H2 (proj2 P D1) (wx v) (wy v)).
    assert (N : ~ (wx v = 0%Qc /\ wy v = 0%Qc)) by (intros [X Y]; apply Nv; apply v2_eq; auto). specialize (S N).
    assert (T : turn2 (ent2 a) (wx v) (wy v) = ar v (app2 a v)) by (unfold turn2, area, ar, app2, ent2; cbn [wx wy]; ring). rewrite T in S. exact S.
Qed.
(** reflections *)
Lemma reflection a v : det2 a = (- (1))%Qc -> v <> zv2 -> app2 a v = v -> tr2 a = 0%Qc /\ mul2 a a = id2.
Proof.
  intros D Nv F. assert (T : tr2 a = 0%Qc).
  { assert (Z : (1 - tr2 a + det2 a)%Qc = 0%Qc).
    { pose proof (f_equal wx F) as X. pose proof (f_equal wy F) as Y. cbn [app2 wx wy] in X, Y. unfold tr2, det2.
      assert (Q1 : ((1 - (e00 a + e11 a) + (e00 a * e11 a - e01 a * e10 a)) * wx v)%Qc = 0%Qc).
      { transitivity ((e11 a - 1) * (e00 a * wx v + e01 a * wy v - wx v) - e01 a * (e10 a * wx v + e11 a * wy v - wy v))%Qc; [ring|]. rewrite X, Y. ring. }
      assert (Q2 : ((1 - (e00 a + e11 a) + (e00 a * e11 a - e01 a * e10 a)) * wy v)%Qc = 0%Qc).
      { transitivity ((e00 a - 1) * (e10 a * wx v + e11 a * wy v - wy v) - e10 a * (e00 a * wx v + e01 a * wy v - wx v))%Qc; [ring|]. rewrite X, Y. ring. }
      destruct (Qcmult_integral _ _ Q1) as [|X0]; auto. destruct (Qcmult_integral _ _ Q2) as [|Y0]; auto. exfalso. apply Nv. apply v2_eq; auto. }
    rewrite D in Z. revert Z. generalize (tr2 a). clear. intros. qclra. }
  split; auto. rewrite ch2, T, D. apply m2_eq; cbn [lin2 id2 e00 e01 e10 e11]; ring.
Qed.
Lemma reflection_order a n : ord2 a n -> det2 a <> 1%Qc -> n = 2.
Proof.
  intros O D. destruct (details2 a n O) as (o & _ & Sp). destruct (ds_axis a o Sp D) as (v & _ & Nv & F). destruct (restriction2 a n O) as [_ [D'|D']]; [contradiction|].
  destruct (reflection a v D' Nv F) as [_ S]. apply (ord2_unique a); auto. unfold ord2. splits; [lia|rewrite pow2_2; auto|]. intros j Hj C. assert (j = 1) as -> by lia. rewrite pow2_1 in C. subst a. apply D. reflexivity.
Qed.

(** ** the list *)
Lemma max_opt l : l <> [] -> exists n, list_max_opt l = Some n /\ In n l /\ forall x, In x l -> x <= n.
Proof.
  destruct l as [|x l]; [congruence|]. intros _. cbn [list_max_opt]. eexists. split; [reflexivity|].
  assert (G : forall l x, (fold_left Nat.max l x = x \/ In (fold_left Nat.max l x) l) /\ x <= fold_left Nat.max l x /\ forall y, In y l -> y <= fold_left Nat.max l x).
  { clear. induction l as [|z l IH]; intros x; cbn [fold_left]; [splits; auto; intros y []|]. destruct (IH (Nat.max x z)) as (A & B & C). splits.
    - destruct A as [A|A]; [|right; right; auto]. rewrite A. destruct (Nat.max_spec x z) as [[_ ->]|[_ ->]]; [right; left|left]; auto.
    - lia.
    - intros y [<-|Hy]; [lia|auto]. }
  destruct (G l x) as (A & B & C). split; [destruct A as [-> |A]; [left|right]; auto|intros y [<-|Hy]; auto].
Qed.
Lemma mapM_details gs : (forall a, In a gs -> exists n, ord2 a n) -> exists ds, mapM details_from (map of2 gs) = Ret ds /\ Forall2 dspec gs ds.
Proof.
  induction gs as [|a gs IH]; intros H; [exists []; split; [reflexivity|constructor]|]. destruct (H a (or_introl eq_refl)) as (n & O). destruct (details2 a n O) as (o & E & S). destruct IH as (ds & Ed & F); [intros b Hb; apply H; right; auto|].
  exists (o :: ds). split; [|constructor; auto]. cbn [map mapM]. rewrite E. cbn [bind]. rewrite Ed. reflexivity.
Qed.
Lemma F2_right {A B} (R : A -> B -> Prop) l m : Forall2 R l m -> forall y, In y m -> exists x, In x l /\ R x y.
Proof. induction 1 as [|x y l m H _ IH]; intros z Hz; [destruct Hz|]. destruct Hz as [<-|Hz]; [exists x; split; [left|]; auto|]. destruct (IH z Hz) as (x' & Hx & Rx). exists x'. split; [right|]; auto. Qed.
Lemma F2_left {A B} (R : A -> B -> Prop) l m : Forall2 R l m -> forall x, In x l -> exists y, In y m /\ R x y.
Proof. induction 1 as [|x y l m H _ IH]; intros z Hz; [destruct Hz|]. destruct Hz as [<-|Hz]; [exists y; split; [left|]; auto|]. destruct (IH z Hz) as (x' & Hx & Rx). exists x'. split; [right|]; auto. Qed.

(** what is claimed about the result *)
Definition system_spec (gs : list m2) (s : crystal_system) : Prop :=
  match s with
  | Hexagonal => exists a, In a gs /\ ord2 a 3
  | Square => exists a, In a gs /\ ord2 a 4
  | Rectangular => (exists a, In a gs /\ det2 a <> 1%Qc) /\ forall a, In a gs -> pow2 a 2 = id2
  | Oblique => (forall a, In a gs -> det2 a = 1%Qc) /\ forall a, In a gs -> pow2 a 2 = id2
  | _ => False
  end.
Definition basis_spec (f : form2) (s : crystal_system) (x y : v2) : Prop :=
  match s with
  | Hexagonal => bil f y y = bil f x x /\ ((1 + 1) * bil f x y)%Qc = bil f x x
  | Square => bil f y y = bil f x x /\ bil f x y = 0%Qc
  | Rectangular => bil f x y = 0%Qc
  | _ => True
  end.
Definition x_spec (gs : list m2) (x : v2) : Prop :=
  x <> zv2 /\ ((exists a, In a gs /\ det2 a <> 1%Qc) -> exists a, In a gs /\ det2 a <> 1%Qc /\ app2 a x = x).

Lemma order_square a n : ord2 a n -> n <= 2 -> pow2 a 2 = id2.
Proof. intros O Hn. apply (ord2_divide a n 2 O). destruct O as (H & _). assert (n = 1 \/ n = 2) as [-> | ->] by lia; [exists 2|exists 1]; auto. Qed.
Lemma system_ok gs ds n : group2 gs -> Forall2 dspec gs ds -> In n (map od_order ds) -> (forall k, In k (map od_order ds) -> k <= n) ->
  In n [1; 2; 3; 4; 6] /\ system_spec gs (system_of n (filter (fun o => negb (od_preserving o)) ds)).
Proof.
  intros G F Hn Mx. apply in_map_iff in Hn as (o & Eo & Ho). destruct (F2_right _ _ _ F o Ho) as (a & Ha & Sa). pose proof (ds_order a o Sa) as Oa. rewrite Eo in Oa.
  destruct (restriction2 a n Oa) as [Hin _]. split; auto.
  assert (Sq : n <= 2 -> forall b, In b gs -> pow2 b 2 = id2).
  { intros H2 b Hb. destruct (F2_left _ _ _ F b Hb) as (o' & Ho' & Sb). apply (order_square b _ (ds_order b o' Sb)). specialize (Mx (od_order o') (in_map od_order ds o' Ho')). lia. }
  assert (M : match filter (fun o => negb (od_preserving o)) ds with [] => forall b, In b gs -> det2 b = 1%Qc | _ :: _ => exists b, In b gs /\ det2 b <> 1%Qc end).
  { destruct (filter _ ds) as [|p l] eqn:E.
    - intros b Hb. destruct (F2_left _ _ _ F b Hb) as (o' & Ho' & Sb). apply (ds_pres b o' Sb). destruct (od_preserving o') eqn:P; auto. exfalso. assert (In o' (filter (fun o => negb (od_preserving o)) ds)) by (apply filter_In; rewrite P; auto). rewrite E in H. destruct H.
    - assert (Hp : In p (filter (fun o => negb (od_preserving o)) ds)) by (rewrite E; left; auto). apply filter_In in Hp as [Hp P]. destruct (F2_right _ _ _ F p Hp) as (b & Hb & Sb). exists b. split; auto. intros C. apply (ds_pres b p Sb) in C. rewrite C in P. discriminate P. }
  unfold system_of. cbn [In] in Hin. destruct Hin as [<-|[<-|[<-|[<-|[<-|[]]]]]]; cbn [system_spec].
  - destruct (filter _ ds); cbn [system_spec]; split; auto.
  - destruct (filter _ ds); cbn [system_spec]; split; auto.
  - exists a. auto.
  - exists a. auto.
  - exists (pow2 a 2). split; [apply pow2_in; auto|]. unfold ord2. splits; [lia|rewrite <- pow2_mul; apply (ord2_divide a 6 6 Oa); apply Nat.divide_refl|]. intros j Hj C. rewrite <- pow2_mul in C. apply (ord2_divide a 6 _ Oa) in C as (k & Hk). lia.
Qed.

(** an element of order m >= 3, turning clockwise *)
Lemma inverse_sense a b v : det2 a = 1%Qc -> mul2 b a = id2 -> ar v (app2 b v) = (- ar (app2 b v) (app2 a (app2 b v)))%Qc \/ mul2 a b <> id2.
Proof. intros D E. destruct (m2_dec (mul2 a b) id2) as [E'|]; auto. left. rewrite <- (app2_mul a b v), E', app2_1. unfold ar. ring. Qed.
Lemma clockwise_found gs ds m : group2 gs -> Forall2 dspec gs ds -> 2 < m -> (exists a, In a gs /\ ord2 a m) ->
  exists o a, find (fun s => od_preserving s && od_clockwise s && (od_order s =? m)) ds = Some o /\ In a gs /\ dspec a o /\ ord2 a m /\ det2 a = 1%Qc /\ forall v, v <> zv2 -> (ar v (app2 a v) < 0)%Qc.
Proof.
  intros G F Hm (a & Ha & Oa). assert (Da : forall b, ord2 b m -> det2 b = 1%Qc). { intros b Ob. destruct (Qc_eq_dec (det2 b) 1%Qc); auto. pose proof (reflection_order b m Ob n). lia. }
  assert (E : exists o, In o ds /\ od_preserving o && od_clockwise o && (od_order o =? m) = true).
  { destruct (F2_left _ _ _ F a Ha) as (o & Ho & So). pose proof (ord2_unique a _ _ (ds_order a o So) Oa) as Eo. pose proof (Da a Oa) as D1.
    assert (Po : od_preserving o = true) by (apply (ds_pres a o So); auto).
    destruct (od_clockwise o) eqn:Co; [exists o; split; auto; rewrite Po, Co, Eo, Nat.eqb_refl; auto|].
    destruct (g_inv gs G a Ha) as (b & Hb & E). pose proof (inv_unique gs a b G Ha Hb E) as E'. destruct (F2_left _ _ _ F b Hb) as (o' & Ho' & So').
    assert (Ob : ord2 b m).
    { assert (K : forall k, pow2 b k = id2 <-> pow2 a k = id2).
      { intros k. assert (C : mul2 (pow2 a k) (pow2 b k) = id2) by (rewrite <- pow2_comm by congruence; rewrite E'; apply pow2_id). split; intros X; rewrite X in C; [rewrite mul2_1r in C|rewrite mul2_1l in C]; auto. }
      destruct Oa as (A1 & A2 & A3). unfold ord2. splits; auto; [apply K; auto|]. intros j Hj C. apply (A3 j Hj). apply K. auto. }
    pose proof (ord2_unique b _ _ (ds_order b o' So') Ob) as Eo'. pose proof (Da b Ob) as D2.
    exists o'. split; auto. assert (Po' : od_preserving o' = true) by (apply (ds_pres b o' So'); auto). rewrite Po', Eo', Nat.eqb_refl. cbn [andb]. rewrite andb_true_r.
    destruct (od_clockwise o') eqn:Co'; auto. exfalso.
    assert (Nv : V2 1%Qc 0%Qc <> zv2) by (intros C; discriminate C). set (v := V2 1%Qc 0%Qc) in *.
    pose proof (ds_sense b o' So' ltac:(lia) D2 v Nv) as S'. rewrite Co' in S'.
    assert (Nw : app2 b v <> zv2). { intros C. apply Nv. rewrite <- (app2_1 v), <- E', app2_mul, C. unfold app2, zv2. cbn [wx wy]. f_equal; ring. }
    pose proof (ds_sense a o So ltac:(lia) D1 (app2 b v) Nw) as S. rewrite Co in S.
    destruct (inverse_sense a b v D1 E) as [I|I]; [|contradiction]. rewrite I in S'. revert S S'. generalize (ar (app2 b v) (app2 a (app2 b v))). clear. intros. qclra. }
  destruct E as (o1 & Ho1 & Q1). destruct (find (fun s => od_preserving s && od_clockwise s && (od_order s =? m)) ds) as [o|] eqn:Fd.
  - apply find_some in Fd as [Ho Q]. destruct (F2_right _ _ _ F o Ho) as (b & Hb & Sb). exists o, b. apply andb_true_iff in Q as [Q Q3]. apply andb_true_iff in Q as [Q2 Q4]. apply Nat.eqb_eq in Q3.
    assert (Ob : ord2 b m) by (rewrite <- Q3; apply Sb). splits; auto. intros v Nv. pose proof (ds_sense b o Sb ltac:(lia) (Da b Ob) v Nv) as S. rewrite Q4 in S. auto.
  - pose proof (find_none _ _ Fd o1 Ho1) as X. cbn beta in X. congruence.
Qed.

Lemma reflect_orthogonal f a x y : invariant f a -> app2 a x = x -> app2 a y = neg_v y -> bil f x y = 0%Qc.
Proof.
  intros I Ex Ey. pose proof (I x y) as H. rewrite Ex, Ey in H. assert (N : bil f x (neg_v y) = (- bil f x y)%Qc) by (unfold bil, neg_v; cbn [wx wy]; ring). rewrite N in H. revert H. generalize (bil f x y). clear. intros. qclra.
Qed.
Lemma independent_ar x y f : positive f -> x <> zv2 -> y <> zv2 -> bil f x y = 0%Qc -> ar x y <> 0%Qc.
Proof.
  intros P Nx Ny Z A. pose proof (P x Nx) as Px. pose proof (P y Ny) as Py.
  assert (Q : (bil f x x * bil f y y - bil f x y * bil f x y)%Qc = ((fp f * fr f - fq f * fq f) * (ar x y * ar x y))%Qc) by (unfold bil, ar; ring). rewrite A, Z in Q.
  assert (R : (bil f x x * bil f y y)%Qc = 0%Qc) by (transitivity (bil f x x * bil f y y - 0 * 0)%Qc; [ring|rewrite Q; ring]). destruct (Qcmult_integral _ _ R) as [H|H]; [apply (Qc_pos_nz _ Px H)|apply (Qc_pos_nz _ Py H)].
Qed.

Theorem crystal_ok gs : group2 gs -> NoDup gs -> exists s x y, crystal_system_and_basis_2d (map of2 gs) = Ret (s, [col2 x; col2 y]) /\
  system_spec gs s /\ x_spec gs x /\ (0 < ar x y)%Qc /\ forall f, positive f -> (forall a, In a gs -> invariant f a) -> basis_spec f s x y.
Proof.
  intros G ND. destruct (mapM_details gs) as (ds & E & F); [intros a Ha; apply (finite_order gs a G Ha)|]. unfold crystal_system_and_basis_2d. rewrite E. cbn [bind]. clear E.
  set (mirrors := filter (fun o => negb (od_preserving o)) ds).
  destruct (max_opt (map od_order ds)) as (n & En & Hn & Mx). { intros C. pose proof (g_id gs G) as I. destruct F; [destruct I|discriminate C]. }
  rewrite En. cbn [unwrap bind]. destruct (system_ok gs ds n G F Hn Mx) as [Hin Sy]. fold mirrors in Sy.
  (* mirrors *)
  assert (Mm : forall o, In o mirrors -> exists a, In a gs /\ dspec a o /\ det2 a = (- (1))%Qc).
  { intros o Ho. apply filter_In in Ho as [Ho P]. destruct (F2_right _ _ _ F o Ho) as (a & Ha & Sa). exists a. splits; auto. destruct (restriction2 a _ (ds_order a o Sa)) as [_ [D|D]]; auto. apply (ds_pres a o Sa) in D. rewrite D in P. discriminate P. }
  assert (Mi : forall a, In a gs -> det2 a <> 1%Qc -> exists o, In o mirrors /\ dspec a o).
  { intros a Ha D. destruct (F2_left _ _ _ F a Ha) as (o & Ho & So). exists o. split; auto. apply filter_In. split; auto. destruct (od_preserving o) eqn:P; auto. exfalso. apply D. apply (ds_pres a o So). auto. }
  assert (Dm : (- (1))%Qc <> 1%Qc) by (intros C; discriminate C).
  (* x *)
  assert (X : exists x, first_axis mirrors = Ret (col2 x) /\ x_spec gs x /\ match mirrors with [] => x = V2 1%Qc 0%Qc | o :: _ => exists a, In a gs /\ dspec a o /\ det2 a = (- (1))%Qc /\ app2 a x = x end).
  { unfold first_axis. destruct mirrors as [|o l].
    - exists (V2 1%Qc 0%Qc). splits; auto. split; [intros C; discriminate C|]. intros (a & Ha & D). destruct (Mi a Ha D) as (o & [] & _).
    - destruct (Mm o (or_introl eq_refl)) as (a & Ha & Sa & D). destruct (ds_axis a o Sa ltac:(rewrite D; auto)) as (v & Ev & Nv & Fv). rewrite Ev. cbn [unwrap bind]. exists v. splits; [reflexivity| |exists a; auto].
      split; auto. intros _. exists a. splits; auto. rewrite D. auto. }
  destruct X as (x & Ex & Sx & Hx). rewrite Ex. cbn [bind].
  (* y *)
  assert (Y : exists y, second_axis ds mirrors (if n =? 6 then 3 else n) (col2 x) = Ret (col2 y) /\ ar x y <> 0%Qc /\
      forall f, positive f -> (forall a, In a gs -> invariant f a) -> basis_spec f (system_of n mirrors) x (if q_neg (ar x y) then neg_v y else y)).
  { pose proof (proj1 Sx) as Nx. unfold second_axis. set (m := if n =? 6 then 3 else n). destruct (Nat.leb_spec 3 m) as [Hm|Hm].
    - assert (Om : exists a, In a gs /\ ord2 a m).
      { cbn [In] in Hin. destruct Hin as [<-|[<-|[<-|[<-|[<-|[]]]]]]; try (exfalso; unfold m in Hm; cbn in Hm; lia); exact Sy. }
      destruct (clockwise_found gs ds m G F ltac:(lia) Om) as (o & a & Ef & Ha & Sa & Oa & Da & Cl). rewrite Ef. cbn [unwrap bind]. rewrite (ds_matrix a o Sa), mul_col2. exists (app2 a x). pose proof (Cl x Nx) as C. splits; auto.
      + intros Z. rewrite Z in C. apply (Qclt_not_eq _ _ C). auto.
      + intros f P I. destruct (q_neg_spec (ar x (app2 a x))) as [_|N]; [|contradiction].
        assert (Bn : forall u w, bil f u (neg_v w) = (- bil f u w)%Qc) by (intros; unfold bil, neg_v; cbn [wx wy]; ring). assert (Bn' : forall u w, bil f (neg_v u) w = (- bil f u w)%Qc) by (intros; unfold bil, neg_v; cbn [wx wy]; ring).
        assert (B1 : bil f (app2 a x) (app2 a x) = bil f x x) by (apply I; auto).
        assert (A2 : app2 a (app2 a x) = V2 (tr2 a * wx (app2 a x) - wx x)%Qc (tr2 a * wy (app2 a x) - wy x)%Qc).
        { rewrite <- app2_mul, ch2, Da. unfold lin2, app2. cbn [e00 e01 e10 e11 wx wy]. apply v2_eq; cbn [wx wy]; ring. }
        assert (B2 : bil f x (app2 a x) = (tr2 a * bil f x x - bil f x (app2 a x))%Qc).
        { rewrite <- (I a Ha x (app2 a x)) at 1. rewrite A2. transitivity (tr2 a * bil f (app2 a x) (app2 a x) - bil f (app2 a x) x)%Qc; [unfold bil; cbn [wx wy]; ring|]. rewrite B1, (bil_sym f (app2 a x) x). auto. }
        assert (Hs : m = 3 /\ system_of n mirrors = Hexagonal \/ m = 4 /\ system_of n mirrors = Square).
        { cbn [In] in Hin. destruct Hin as [<-|[<-|[<-|[<-|[<-|[]]]]]]; try (exfalso; unfold m in Hm; cbn in Hm; lia); auto. }
        destruct Hs as [[-> ->]|[-> ->]]; cbn [basis_spec].
        * rewrite (order3_ok a Da Oa) in B2. rewrite Bn, Bn, Bn'. split; [rewrite B1; ring|]. revert B2. generalize (bil f x (app2 a x)), (bil f x x). clear. intros. qclra.
        * rewrite (order4_ok a Da Oa) in B2. rewrite Bn, Bn, Bn'. split; [rewrite B1; ring|]. revert B2. generalize (bil f x (app2 a x)), (bil f x x). clear. intros. qclra.
    - assert (H2 : n <= 2) by (unfold m in Hm; destruct (Nat.eqb_spec n 6); lia).
      assert (Ss : system_of n mirrors = match mirrors with [] => Oblique | _ :: _ => Rectangular end) by (unfold system_of; destruct n as [|[|[|]]]; auto; lia).
      assert (Neg : forall f u w, basis_spec f Rectangular u w -> forall b : bool, basis_spec f Rectangular u (if b then neg_v w else w)).
      { intros f u w B [|]; auto. cbn [basis_spec] in *. transitivity (- bil f u w)%Qc; [unfold bil, neg_v; cbn [wx wy]; ring|]. rewrite B. reflexivity. }
      destruct (invariant_form gs G) as (f0 & P0 & I0).
      destruct mirrors as [|o1 [|o2 l]] eqn:Em.
      + (* none *) rewrite Hx. change (index (col2 (V2 1%Qc 0%Qc)) 0 0) with (@Ret Qc 1%Qc). cbn [bind]. change (Qc_eqb 1%Qc 0%Qc) with false. cbv iota. change (mat_col [0; 1]%Qc) with (Ret (col2 (V2 0%Qc 1%Qc))). cbn [bind]. exists (V2 0%Qc 1%Qc). splits; auto.
        * intros C. discriminate C.
        * intros f _ _. rewrite Ss. exact I.
      + (* one *) destruct Hx as (a & Ha & Sa & Da & Fx). destruct (reflection a x Da Nx Fx) as [Ta Aa].
        set (t := if Qc_eqb (wx x) 0%Qc then V2 1%Qc 0%Qc else V2 0%Qc 1%Qc).
        change (index (col2 x) 0 0) with (Ret (wx x)). cbn [bind]. assert (Et : (if Qc_eqb (wx x) 0%Qc then mat_col [1; 0]%Qc else mat_col [0; 1]%Qc) = Ret (col2 t)) by (unfold t; destruct (Qc_eqb (wx x) 0%Qc); reflexivity). rewrite Et. cbn [bind].
        rewrite (ds_matrix a o1 Sa), mul_col2. cbn [bind]. rewrite sub_col2. set (y := V2 (wx t - wx (app2 a t))%Qc (wy t - wy (app2 a t))%Qc). exists y.
        assert (Ay : app2 a y = neg_v y).
        { transitivity (V2 (wx (app2 a t) - wx (app2 a (app2 a t)))%Qc (wy (app2 a t) - wy (app2 a (app2 a t)))%Qc); [unfold y, app2; cbn [wx wy]; f_equal; ring|]. rewrite <- (app2_mul a a t), Aa, app2_1. unfold neg_v, y. cbn [wx wy]. f_equal; ring. }
        assert (Ort : forall f, positive f -> (forall a, In a gs -> invariant f a) -> bil f x y = 0%Qc) by (intros f P I; apply (reflect_orthogonal f a); auto).
        assert (Ny : y <> zv2).
        { intros C. assert (At : app2 a t = t). { apply v2_eq; symmetry; apply Qc_sub_eq; [exact (f_equal wx C)|exact (f_equal wy C)]. }
          assert (Z : a = id2).
          { (* both x and t are fixed *)
            assert (Dt : ar x t <> 0%Qc). { unfold t, ar. destruct (Qc_eqb_spec (wx x) 0%Qc) as [Zx|Zx]; cbn [wx wy]; intros W; [apply Nx; apply v2_eq; auto; transitivity (- (wx x * 0 - wy x * 1))%Qc; [ring|rewrite W; reflexivity]|apply Zx; transitivity (wx x * 1 - wy x * 0)%Qc; [ring|auto]]. }
            pose proof (f_equal wx Fx) as F1. pose proof (f_equal wy Fx) as F2. pose proof (f_equal wx At) as F3. pose proof (f_equal wy At) as F4. cbn [app2 wx wy] in F1, F2, F3, F4. unfold ar in Dt.
            revert F1 F2 F3 F4 Dt. generalize (wx x), (wy x), (wx t), (wy t). destruct a as [p q r s]. cbn [e00 e01 e10 e11]. clear. intros x1 x2 t1 t2 F1 F2 F3 F4 Dt.
            apply m2_eq; cbn [id2 e00 e01 e10 e11]; apply (Qcmult_cancel (x1 * t2 - x2 * t1)%Qc); auto.
            - transitivity ((p * x1 + q * x2) * t2 - (p * t1 + q * t2) * x2)%Qc; [ring|]. rewrite F1, F3. ring.
            - transitivity ((p * t1 + q * t2) * x1 - (p * x1 + q * x2) * t1)%Qc; [ring|]. rewrite F1, F3. ring.
            - transitivity ((r * x1 + s * x2) * t2 - (r * t1 + s * t2) * x2)%Qc; [ring|]. rewrite F2, F4. ring.
            - transitivity ((r * t1 + s * t2) * x1 - (r * x1 + s * x2) * t1)%Qc; [ring|]. rewrite F2, F4. ring. }
          rewrite Z in Da. discriminate Da. }
        splits; auto; [apply (independent_ar x y f0); auto|]. intros f P I. rewrite Ss. apply Neg. cbn [basis_spec]. auto.
      + (* two or more *) destruct Hx as (a & Ha & Sa & Da & Fx). destruct (reflection a x Da Nx Fx) as [Ta Aa]. destruct (Mm o2 (or_intror (or_introl eq_refl))) as (b & Hb & Sb & Db).
        destruct (ds_axis b o2 Sb ltac:(rewrite Db; auto)) as (y & Ey & Ny & Fy). rewrite Ey. cbn [unwrap bind]. change (mat_col [wx y; wy y]) with (Ret (col2 y)). exists y.
        destruct (reflection b y Db Ny Fy) as [Tb Bb].
        assert (Nab : a <> b).
        { intros <-. (* the two mirrors are at different places of the list *)
          assert (Nd : NoDup (map od_matrix ds)). { assert (Q : map od_matrix ds = map of2 gs) by (clear -F; induction F as [|u v l m H _ IH]; cbn [map]; auto; rewrite IH, (ds_matrix u v H); auto). rewrite Q. apply FinFun.Injective_map_NoDup; auto. intros u v. apply of2_inj. }
          assert (Nm : NoDup (map od_matrix (filter (fun o => negb (od_preserving o)) ds))).
          { clear -Nd. induction ds as [|o l IH]; cbn [filter map] in *; [constructor|]. inversion Nd as [|? ? A B]. destruct (negb (od_preserving o)); cbn [map]; auto. constructor; auto. intros C. apply A. apply in_map_iff in C as (o' & <- & Ho'). apply filter_In in Ho' as [Ho' _]. apply in_map. auto. }
          fold mirrors in Nm. rewrite Em in Nm. cbn [map] in Nm. inversion Nm as [|? ? A _]. apply A. left. rewrite (ds_matrix a o1 Sa), (ds_matrix a o2 Sb). auto. }
        assert (Hc : mul2 a b = neg2 id2).
        { destruct (finite_order gs (mul2 a b) G (g_mul gs G a b Ha Hb)) as (k & Ok). assert (D1 : det2 (mul2 a b) = 1%Qc) by (rewrite det2_mul, Da, Db; reflexivity).
          destruct (F2_left _ _ _ F (mul2 a b) (g_mul gs G a b Ha Hb)) as (o & Ho & So). pose proof (ord2_unique _ _ _ (ds_order _ _ So) Ok) as Ek. pose proof (Mx (od_order o) (in_map od_order ds o Ho)) as Lk. rewrite Ek in Lk.
          pose proof Ok as (Pk & Pp & _). assert (k = 1 \/ k = 2) as [-> | ->] by lia.
          - exfalso. rewrite pow2_1 in Pp. apply Nab. rewrite <- (mul2_1r a), <- Bb, <- mul2_assoc, Pp, mul2_1l. auto.
          - apply order2_ok; auto. }
        assert (Ab : app2 a y = neg_v y). { rewrite <- Fy at 1. rewrite <- app2_mul, Hc. unfold app2, neg2, id2, neg_v. cbn [e00 e01 e10 e11 wx wy]. f_equal; ring. }
        assert (Ort : forall f, positive f -> (forall a, In a gs -> invariant f a) -> bil f x y = 0%Qc) by (intros f P I; apply (reflect_orthogonal f a); auto).
        splits; auto; [apply (independent_ar x y f0); auto|]. intros f P I. rewrite Ss. apply Neg. cbn [basis_spec]. auto. }
  destruct Y as (y & Ey & Ny & By). rewrite Ey. cbn [bind].
  assert (H : forall (r : crystal_system * list (mat Qc)) r', (do b <- hstack [col2 x; col2 y]; do l <- is_left_handed b; if l : bool then r' else Ret r) = if q_neg (ar x y) then r' else Ret r).
  { intros r r'. pose proof (hand_col2 x y) as H. destruct (hstack [col2 x; col2 y]) as [b| |]; cbn [bind] in H |- *; try discriminate H. rewrite H. cbn [bind]. reflexivity. }
  rewrite H. rewrite neg_col2. cbn [bind]. exists (system_of n mirrors), x, (if q_neg (ar x y) then neg_v y else y). splits; auto.
  - destruct (q_neg (ar x y)); reflexivity.
  - destruct (q_neg_spec (ar x y)) as [N|N].
    + assert (Q : ar x (neg_v y) = (- ar x y)%Qc) by (unfold ar, neg_v; cbn [wx wy]; ring). rewrite Q. revert N. generalize (ar x y). clear. intros. qclra.
    + destruct (Qc_dec (ar x y) 0%Qc) as [[C|C]|C]; auto; contradiction.
Qed.
