(** Property C66 of src/spacegroups/finder.rs: crystal system and basis of a plane point group. *)
From Coq Require Import String Ascii List ZArith NArith Lia Bool PeanoNat Permutation QArith Qcanon.
From Verif Require Import Base QcTac Vec Elim Scalars Matrix MatrixMore LinAlg ZQ Lattices Reduce Props_Lattices Geometry Text ParseOp Table Generate Group Crystal Rotation Finder Details Sense Plane CrystalSys Props_Finder.
Import ListNotations.
Close Scope Q_scope. Close Scope Qc_scope.
Local Open Scope list_scope.
Open Scope nat_scope.

(** ** specification *)
(** the elements of a finite group of 2x2 matrices, perhaps with repetitions *)
Record finite_group (ops : list (mat Qc)) : Prop := {
  fg_square : forall m, In m ops -> square_matrix 2 m;
  fg_identity : exists e, is_identity 2 e /\ In e ops;
  fg_product : forall a b c, In a ops -> In b ops -> mat_mul a b = Ret c -> In c ops;
  fg_inverse : forall a, In a ops -> exists b e, In b ops /\ is_identity 2 e /\ mat_mul b a = Ret e }.
(** the first power of m that is the identity is the n-th *)
Definition of_order (m : mat Qc) (n : nat) : Prop :=
  0 < n /\ forall e, is_identity 2 e -> power m n e /\ forall j, 0 < j < n -> ~ power m j e.
Definition reverses (m : mat Qc) : Prop := exists d, determinant m = Ret d /\ (d < 0)%Qc.
Definition has_order (ops : list (mat Qc)) (n : nat) : Prop := exists m, In m ops /\ of_order m n.
Definition has_mirror (ops : list (mat Qc)) : Prop := exists m, In m ops /\ reverses m.
Definition invariant_product (ops : list (mat Qc)) (dot : list Qc -> list Qc -> Qc) : Prop :=
  scalar_product 2 dot /\ forall m v w, In m ops -> point 2 v -> point 2 w -> dot (image 2 m v) (image 2 m w) = dot v w.

(** ** from the specification to the proofs *)
Definition to2 (m : mat Qc) : m2 := M2 (ent m 0 0) (ent m 0 1) (ent m 1 0) (ent m 1 1).
Lemma to2_of2 m : square_matrix 2 m -> of2 (to2 m) = m.
Proof. intros Sq. rewrite (square_mk 2 m Sq) at 2. rewrite of2_mk. apply mk_ext. intros i j Hi Hj. destruct i as [|[|i]], j as [|[|j]]; try lia; reflexivity. Qed.
Lemma id_of2 : identity 2 = Ret (of2 id2). Proof. reflexivity. Qed.
Lemma is_id_of2 m : is_identity 2 m <-> m = of2 id2.
Proof. unfold is_identity. rewrite id_of2. split; [intros H; injection H as <-; auto|intros ->; auto]. Qed.
Lemma ret_inj {A} (x y : A) : Ret x = Ret y -> x = y. Proof. intros H. exact (f_equal (fun o => match o with Ret z => z | _ => x end) H). Qed.
Lemma group_gs ops : finite_group ops -> ops = map of2 (map to2 ops) /\ group2 (map to2 ops).
Proof.
  intros G. assert (E : ops = map of2 (map to2 ops)). { rewrite map_map, <- (map_id ops) at 1. apply map_ext_in. intros m Hm. rewrite to2_of2; auto. apply (fg_square ops G). auto. }
  assert (I : forall a, In a (map to2 ops) <-> In (of2 a) ops).
  { intros a. split.
    - intros H. apply (in_map of2) in H. rewrite <- E in H. auto.
    - intros H. apply (in_map to2) in H. exact H || (replace a with (to2 (of2 a)); auto). destruct a; reflexivity. }
  split; auto. constructor.
  - apply I. destruct (fg_identity ops G) as (e & He & Hi). apply is_id_of2 in He. subst e. auto.
  - intros a b Ha Hb. apply I. apply I in Ha, Hb. apply (fg_product ops G (of2 a) (of2 b)); auto. apply mul_of2.
  - intros a Ha. apply I in Ha. destruct (fg_inverse ops G _ Ha) as (b & e & Hb & He & M). apply is_id_of2 in He. subst e. pose proof (fg_square ops G b Hb) as Sb.
    exists (to2 b). split; [apply in_map; auto|]. rewrite <- (to2_of2 b Sb), mul_of2 in M. apply of2_inj. apply ret_inj. exact M.
Qed.
Lemma of_order_2 a n : of_order (of2 a) n <-> ord2 a n.
Proof.
  assert (P : forall k, power (of2 a) k (of2 id2) <-> pow2 a k = id2). { intros k. rewrite of2_mk, (power_id 2 (ent2 a) k (of2 id2)) by (try lia; apply is_id_of2; auto). apply ent2_pow_id. }
  unfold of_order, ord2. split.
  - intros (Hn & H). destruct (H (of2 id2) ltac:(apply is_id_of2; auto)) as [A B]. splits; auto; [apply P; auto|]. intros j Hj C. apply (B j Hj). apply P. auto.
  - intros (Hn & A & B). split; auto. intros e He. apply is_id_of2 in He. subst e. split; [apply P; auto|]. intros j Hj C. apply (B j Hj). apply P. auto.
Qed.
Lemma det_of2 a : determinant (of2 a) = Ret (det2 a). Proof. rewrite of2_mk, det_mk by lia. rewrite ent2_det. auto. Qed.
Lemma reverses_2 a n : ord2 a n -> reverses (of2 a) <-> det2 a <> 1%Qc.
Proof.
  intros O. unfold reverses. rewrite det_of2. destruct (restriction2 a n O) as [_ [D|D]]; rewrite D; split.
  - intros (d & E & L). injection E as <-. discriminate L.
  - congruence.
  - intros _ C. discriminate C.
  - intros _. eexists. split; reflexivity.
Qed.
Lemma has_order_2 gs n : has_order (map of2 gs) n <-> exists a, In a gs /\ ord2 a n.
Proof.
  split.
  - intros (m & Hm & O). apply in_map_iff in Hm as (a & <- & Ha). exists a. split; auto. apply of_order_2. auto.
  - intros (a & Ha & O). exists (of2 a). split; [apply in_map; auto|apply of_order_2; auto].
Qed.
Lemma has_mirror_2 gs : group2 gs -> has_mirror (map of2 gs) <-> exists a, In a gs /\ det2 a <> 1%Qc.
Proof.
  intros G. split.
  - intros (m & Hm & R). apply in_map_iff in Hm as (a & <- & Ha). exists a. split; auto. destruct (finite_order gs a G Ha) as (n & O). apply (reverses_2 a n O). auto.
  - intros (a & Ha & D). exists (of2 a). split; [apply in_map; auto|]. destruct (finite_order gs a G Ha) as (n & O). apply (reverses_2 a n O). auto.
Qed.
(** the system, as four equivalences *)
Lemma square_not a n : ord2 a n -> 2 < n -> pow2 a 2 <> id2.
Proof. intros (_ & _ & M) Hn. apply M. lia. Qed.
Lemma system_iff gs s : group2 gs -> system_spec gs s ->
  (s = Hexagonal <-> has_order (map of2 gs) 3) /\ (s = Square <-> has_order (map of2 gs) 4) /\
  (s = Rectangular <-> has_mirror (map of2 gs) /\ ~ has_order (map of2 gs) 3 /\ ~ has_order (map of2 gs) 4) /\
  (s = Oblique <-> ~ has_mirror (map of2 gs) /\ ~ has_order (map of2 gs) 3 /\ ~ has_order (map of2 gs) 4).
Proof.
  intros G S. rewrite !has_order_2, has_mirror_2 by auto.
  assert (X : (exists a, In a gs /\ ord2 a 3) -> (exists a, In a gs /\ ord2 a 4) -> False).
  { intros (a & Ha & Oa) (b & Hb & Ob). apply (three_four gs a b G Ha Hb Oa Ob).
    - destruct (Qc_eq_dec (det2 a) 1%Qc) as [|N]; auto. pose proof (reflection_order a 3 Oa N). discriminate.
    - destruct (Qc_eq_dec (det2 b) 1%Qc) as [|N]; auto. pose proof (reflection_order b 4 Ob N). discriminate. }
  assert (Y : (forall a, In a gs -> pow2 a 2 = id2) -> forall n, 2 < n -> ~ exists a, In a gs /\ ord2 a n).
  { intros Sq n Hn (a & Ha & O). apply (square_not a n O Hn). auto. }
  destruct s; cbn [system_spec] in S; try contradiction.
  - (* oblique *) destruct S as [D Sq]. pose proof (Y Sq 3 ltac:(lia)). pose proof (Y Sq 4 ltac:(lia)). assert (~ exists a, In a gs /\ det2 a <> 1%Qc) by (intros (a & Ha & N); apply N; auto). intuition discriminate.
  - destruct S as [D Sq]. pose proof (Y Sq 3 ltac:(lia)). pose proof (Y Sq 4 ltac:(lia)). intuition discriminate.
  - intuition discriminate.
  - intuition discriminate.
Qed.
(** scalar products of the plane are forms *)
Definition lv (v : v2) : list Qc := [wx v; wy v].
Lemma lv_point v : point 2 (lv v). Proof. reflexivity. Qed.
Lemma lv_origin v : lv v = origin 2 -> v = zv2.
Proof. intros H. apply v2_eq; [exact (f_equal (coordinate 0) H)|exact (f_equal (coordinate 1) H)]. Qed.
Lemma lv_app a v : image 2 (of2 a) (lv v) = lv (app2 a v).
Proof. unfold image, lv, from_coordinates, coordinate, of2, ent, app2. cbn [seq map data ncols fold_right nth Nat.add Nat.mul wx wy]. apply (f_equal2 cons); [|apply (f_equal2 cons)]; [| |reflexivity]; cbn [r0 Qc_dom]; ring. Qed.
Definition dot_form (dot : list Qc -> list Qc -> Qc) : form2 := F2 (dot [1; 0]%Qc [1; 0]%Qc) (dot [1; 0]%Qc [0; 1]%Qc) (dot [0; 1]%Qc [0; 1]%Qc).
Lemma lv_split v : lv v = plus 2 (multiple 2 (wx v) [1; 0]%Qc) (multiple 2 (wy v) [0; 1]%Qc).
Proof. unfold lv, plus, multiple, from_coordinates, coordinate. cbn [seq map nth]. apply (f_equal2 cons); [|apply (f_equal2 cons)]; [| |reflexivity]; ring. Qed.
Lemma dot_bil dot v w : scalar_product 2 dot -> dot (lv v) (lv w) = bil (dot_form dot) v w.
Proof.
  intros [S P M _]. assert (L : forall t e, point 2 (multiple 2 t e)) by (intros; apply from_length).
  assert (D1 : forall z u, point 2 u -> dot (lv z) u = (wx z * dot [1; 0]%Qc u + wy z * dot [0; 1]%Qc u)%Qc) by (intros z u Hu; rewrite lv_split, P by (auto; reflexivity); rewrite !M by (auto; reflexivity); auto).
  rewrite D1 by reflexivity. rewrite (S [1; 0]%Qc (lv w)), (S [0; 1]%Qc (lv w)) by reflexivity. rewrite !D1 by reflexivity. rewrite (S [0; 1]%Qc [1; 0]%Qc) by reflexivity. unfold bil, dot_form. cbn [fp fq fr]. ring.
Qed.
Lemma dot_ok gs dot : invariant_product (map of2 gs) dot -> positive (dot_form dot) /\ forall a, In a gs -> invariant (dot_form dot) a.
Proof.
  intros [Sp I]. split.
  - intros v Nv. rewrite <- dot_bil by auto. apply (sp_positive 2 dot Sp); [apply lv_point|]. intros C. apply Nv. apply lv_origin. auto.
  - intros a Ha v w. rewrite <- !dot_bil by auto. rewrite <- !lv_app. apply I; [apply in_map; auto|apply lv_point|apply lv_point].
Qed.
(** the function is total on finite groups *)
Lemma crystal_total gs : group2 gs -> exists s b, crystal_system_and_basis_2d (map of2 gs) = Ret (s, b) /\ system_spec gs s.
Proof.
  intros G. destruct (mapM_details gs) as (ds & E & F); [intros a Ha; apply (finite_order gs a G Ha)|]. unfold crystal_system_and_basis_2d. rewrite E. cbn [bind]. clear E.
  set (mirrors := filter (fun o => negb (od_preserving o)) ds).
  destruct (max_opt (map od_order ds)) as (n & En & Hn & Mx). { intros C. pose proof (g_id gs G) as I. destruct F; [destruct I|discriminate C]. }
  rewrite En. cbn [unwrap bind]. destruct (system_ok gs ds n G F Hn Mx) as [Hin Sy]. fold mirrors in Sy.
  assert (Mm : forall o, In o mirrors -> exists a v, dspec a o /\ od_axis o = Some [wx v; wy v]).
  { intros o Ho. apply filter_In in Ho as [Ho P]. destruct (F2_right _ _ _ F o Ho) as (a & Ha & Sa). destruct (ds_axis a o Sa) as (v & Ev & _); [|exists a, v; auto]. intros D. apply (ds_pres a o Sa) in D. rewrite D in P. discriminate P. }
  assert (X : exists x, first_axis mirrors = Ret (col2 x)).
  { unfold first_axis. destruct mirrors as [|o l]; [exists (V2 1%Qc 0%Qc); reflexivity|]. destruct (Mm o (or_introl eq_refl)) as (a & v & Sa & Ev). rewrite Ev. exists v. reflexivity. }
  destruct X as (x & Ex). rewrite Ex. cbn [bind].
  assert (Y : exists y, second_axis ds mirrors (if n =? 6 then 3 else n) (col2 x) = Ret (col2 y)).
  { unfold second_axis. set (m := if n =? 6 then 3 else n). destruct (Nat.leb_spec 3 m) as [Hm|Hm].
    - assert (Om : exists a, In a gs /\ ord2 a m). { cbn [In] in Hin. destruct Hin as [<-|[<-|[<-|[<-|[<-|[]]]]]]; try (exfalso; unfold m in Hm; cbn in Hm; lia); exact Sy. }
      destruct (clockwise_found gs ds m G F ltac:(lia) Om) as (o & a & Ef & Ha & Sa & _). rewrite Ef. cbn [unwrap bind]. rewrite (ds_matrix a o Sa), mul_col2. eauto.
    - destruct mirrors as [|o1 [|o2 l]].
      + change (index (col2 x) 0 0) with (Ret (wx x)). cbn [bind]. destruct (Qc_eqb (wx x) 0%Qc); [exists (V2 1%Qc 0%Qc)|exists (V2 0%Qc 1%Qc)]; reflexivity.
      + change (index (col2 x) 0 0) with (Ret (wx x)). cbn [bind]. destruct (Mm o1 (or_introl eq_refl)) as (a & v & Sa & _). rewrite (ds_matrix a o1 Sa).
        destruct (Qc_eqb (wx x) 0%Qc); [change (mat_col [1; 0]%Qc) with (Ret (col2 (V2 1%Qc 0%Qc)))|change (mat_col [0; 1]%Qc) with (Ret (col2 (V2 0%Qc 1%Qc)))]; cbn [bind]; rewrite mul_col2; cbn [bind]; rewrite sub_col2; eauto.
      + destruct (Mm o2 (or_intror (or_introl eq_refl))) as (a & v & Sa & Ev). rewrite Ev. exists v. reflexivity. }
  destruct Y as (y & Ey). rewrite Ey. cbn [bind].
  pose proof (hand_col2 x y) as H. destruct (hstack [col2 x; col2 y]) as [b| |]; cbn [bind] in H |- *; try discriminate H. rewrite H. cbn [bind]. rewrite neg_col2. cbn [bind]. exists (system_of n mirrors). destruct (q_neg (ar x y)); eexists; split; eauto.
Qed.

(** ** C66: for every finite group of the plane the crystal system is decided by the orders of the elements. *)
Theorem C66_crystal_system ops : finite_group ops -> exists s b, crystal_system_and_basis_2d ops = Ret (s, b) /\
  (s = Hexagonal <-> has_order ops 3) /\ (s = Square <-> has_order ops 4) /\
  (s = Rectangular <-> has_mirror ops /\ ~ has_order ops 3 /\ ~ has_order ops 4) /\
  (s = Oblique <-> ~ has_mirror ops /\ ~ has_order ops 3 /\ ~ has_order ops 4).
Proof.
  intros G. destruct (group_gs ops G) as [E G2]. rewrite E. destruct (crystal_total _ G2) as (s & b & Eb & S). exists s, b. split; auto. apply system_iff; auto.
Qed.
(** It is one of the four, and no group has elements of order 3 and of order 4. *)
Theorem C66_exclusive ops : finite_group ops -> ~ (has_order ops 3 /\ has_order ops 4).
Proof.
  intros G [A B]. destruct (C66_crystal_system ops G) as (s & b & _ & H & S & _). apply H in A. apply S in B. congruence.
Qed.
(** The basis: right handed; the first vector lies on a mirror line if there is one; the vectors are orthogonal (Rectangular,
    Square), of the same length (Square, Hexagonal) and at 60 degrees (Hexagonal: twice the product is the square of the length)
    for every scalar product that the group leaves invariant.  The operations are listed without repetition. *)
Theorem C66_basis ops : finite_group ops -> NoDup ops -> exists s mx my x y, crystal_system_and_basis_2d ops = Ret (s, [mx; my]) /\
  point 2 x /\ point 2 y /\ mat_col x = Ret mx /\ mat_col y = Ret my /\
  (0 < area2 x y)%Qc /\
  (has_mirror ops -> exists m, In m ops /\ reverses m /\ image 2 m x = x) /\
  forall dot, invariant_product ops dot -> match s with
    | Hexagonal => dot y y = dot x x /\ ((1 + 1) * dot x y)%Qc = dot x x
    | Square => dot y y = dot x x /\ dot x y = 0%Qc
    | Rectangular => dot x y = 0%Qc
    | _ => True
    end.
Proof.
  intros G ND. destruct (group_gs ops G) as [E G2]. rewrite E in ND |- *. assert (ND2 : NoDup (map to2 ops)) by (apply NoDup_map_inv in ND; auto).
  destruct (crystal_ok _ G2 ND2) as (s & x & y & Eb & S & (Nx & Mx) & A & B). exists s, (col2 x), (col2 y), (lv x), (lv y). splits; auto; try reflexivity.
  - rewrite has_mirror_2 by auto. intros M. destruct (Mx M) as (a & Ha & D & Fx). exists (of2 a). splits; [apply in_map; auto| |rewrite lv_app, Fx; auto]. destruct (finite_order _ a G2 Ha) as (n & O). apply (reverses_2 a n O). auto.
  - intros dot I. destruct (dot_ok _ dot I) as [P Iv]. specialize (B _ P Iv). destruct I as [Sp _]. rewrite !dot_bil by auto. destruct s; exact B || exact I.
Qed.
(** such a scalar product exists *)
Theorem C66_product ops : finite_group ops -> exists dot, invariant_product ops dot.
Proof.
  intros G. destruct (group_gs ops G) as [E G2]. destruct (invariant_form _ G2) as (f & P & I). set (un := fun v : list Qc => V2 (coordinate 0 v) (coordinate 1 v)). exists (fun v w => bil f (un v) (un w)).
  assert (U : forall v, point 2 v -> lv (un v) = v) by (intros [|a [|b [|]]] L; try discriminate L; reflexivity).
  split; [constructor|].
  - intros. apply bil_sym.
  - intros x y z _ _ _. unfold bil, un, plus, coordinate. cbn [wx wy]. rewrite !from_get by lia. unfold coordinate. ring.
  - intros t x z _ _. unfold bil, un, multiple, coordinate. cbn [wx wy]. rewrite !from_get by lia. unfold coordinate. ring.
  - intros x Lx Nx. apply P. intros C. apply Nx. rewrite <- (U x Lx), C. reflexivity.
  - intros m v w Hm Lv Lw. rewrite E in Hm. apply in_map_iff in Hm as (a & <- & Ha). rewrite <- (U v Lv), <- (U w Lw) at 1. rewrite !lv_app. exact (I a Ha (un v) (un w)).
Qed.
Print Assumptions C66_crystal_system.
Print Assumptions C66_exclusive.
Print Assumptions C66_basis.
Print Assumptions C66_product.

(** ** examples: the groups 2mm, 4mm and 6mm *)
Definition closed_check (ops : list (mat Qc)) : bool :=
  forallb (fun a => forallb (fun b => match mat_mul a b with Ret c => existsb (mat_eqb c) ops | _ => false end) ops) ops &&
  forallb (fun a => existsb (fun b => match mat_mul b a with Ret c => mat_eqb c (qmat 2 [1; 0; 0; 1]%Z) | _ => false end) ops) ops &&
  existsb (mat_eqb (qmat 2 [1; 0; 0; 1]%Z)) ops && forallb (fun a => (nrows a =? 2) && (ncols a =? 2) && (length (data a) =? 4)) ops.
Lemma closed_ok ops : closed_check ops = true -> finite_group ops.
Proof.
  unfold closed_check. intros H. apply andb_true_iff in H as [H H4]. apply andb_true_iff in H as [H H3]. apply andb_true_iff in H as [H1 H2]. rewrite forallb_forall in H1, H2, H4.
  assert (Sq : forall m, In m ops -> square_matrix 2 m).
  { intros m Hm. specialize (H4 m Hm). apply andb_true_iff in H4 as [H4 L]. apply andb_true_iff in H4 as [R C]. apply Nat.eqb_eq in R, C, L. unfold square_matrix, wfm. rewrite R, C, L. splits; auto. intros Z. rewrite Z in L. discriminate L. }
  assert (Ei : is_identity 2 (qmat 2 [1; 0; 0; 1]%Z)) by reflexivity.
  constructor; auto.
  - apply existsb_exists in H3 as (e & He & E). apply Props_Geometry.mat_eqb_spec in E. exists e. split; auto. rewrite <- E. auto.
  - intros a b c Ha Hb M. specialize (H1 a Ha). rewrite forallb_forall in H1. specialize (H1 b Hb). rewrite M in H1. apply existsb_exists in H1 as (c' & Hc & E). apply Props_Geometry.mat_eqb_spec in E. rewrite E. auto.
  - intros a Ha. specialize (H2 a Ha). apply existsb_exists in H2 as (b & Hb & E). destruct (mat_mul b a) as [c| |] eqn:M; try discriminate E. apply Props_Geometry.mat_eqb_spec in E. subst c. exists b, (qmat 2 [1; 0; 0; 1]%Z). auto.
Qed.
Definition g2mm : list (mat Qc) := map (qmat 2) [[1; 0; 0; 1]; [-1; 0; 0; -1]; [0; 1; 1; 0]; [0; -1; -1; 0]]%Z.
Definition g4 : list (mat Qc) := map (qmat 2) [[1; 0; 0; 1]; [0; -1; 1; 0]; [-1; 0; 0; -1]; [0; 1; -1; 0]]%Z.
Definition g6mm : list (mat Qc) := map (qmat 2) [[1; 0; 0; 1]; [0; -1; 1; 1]; [-1; -1; 1; 0]; [-1; 0; 0; -1]; [0; 1; -1; -1]; [1; 1; -1; 0];
  [0; 1; 1; 0]; [1; 1; 0; -1]; [1; 0; -1; -1]; [0; -1; -1; 0]; [-1; -1; 0; 1]; [-1; 0; 1; 1]]%Z.
Definition shown (r : outcome (crystal_system * list (mat Qc))) : option (crystal_system * list (list Qc)) :=
  match r with Ret (s, b) => Some (s, map data b) | _ => None end.
Example C66_example_groups : finite_group g2mm /\ finite_group g4 /\ finite_group g6mm.
Proof. splits; apply closed_ok; vm_compute; reflexivity. Qed.
Example C66_example_nodup : NoDup g2mm /\ NoDup g6mm.
Proof.
  assert (D : forall l : list (list Z), NoDup l -> NoDup (map (qmat 2) l)).
  { intros l. apply FinFun.Injective_map_NoDup. intros u v H. assert (E : map ZQ u = map ZQ v) by exact (f_equal data H). revert v E H. induction u as [|x u IH]; intros [|y v] E _; try discriminate E; auto. cbn [map] in E.
    assert (E1 : ZQ x = ZQ y) by exact (f_equal (fun l => hd 0%Qc l) E). assert (E2 : map ZQ u = map ZQ v) by exact (f_equal (@tl Qc) E). f_equal; [apply ZQ_inj; auto|apply IH; auto; unfold qmat; rewrite E2; auto]. }
  split; apply D; repeat (constructor; [cbn; intuition discriminate|]); constructor.
Qed.
Example C66_example :
  shown (crystal_system_and_basis_2d g2mm) = Some (Rectangular, [map ZQ [1; 1]; map ZQ [-1; 1]]%Z) /\
  shown (crystal_system_and_basis_2d g4) = Some (Square, [map ZQ [1; 0]; map ZQ [0; 1]]%Z) /\
  shown (crystal_system_and_basis_2d g6mm) = Some (Hexagonal, [map ZQ [1; 1]; map ZQ [-1; 2]]%Z).
Proof. splits; vm_compute; reflexivity. Qed.
(** Finding: with repetitions the claim about the basis fails, the two vectors can be the same.  The operations of a centered plane
    group in its centered setting (cm: x,y / x+1/2,y+1/2 / -x,y / -x+1/2,y+1/2) have such linear parts, and identitify_spacegroup_2d
    passes them on. *)
Definition gcm : list (mat Qc) := map (qmat 2) [[1; 0; 0; 1]; [1; 0; 0; 1]; [-1; 0; 0; 1]; [-1; 0; 0; 1]]%Z.
Theorem C66_repetitions_refuted : finite_group gcm /\ shown (crystal_system_and_basis_2d gcm) = Some (Rectangular, [map ZQ [0; 1]; map ZQ [0; 1]]%Z).
Proof. split; [apply closed_ok|]; vm_compute; reflexivity. Qed.
Print Assumptions C66_repetitions_refuted.
