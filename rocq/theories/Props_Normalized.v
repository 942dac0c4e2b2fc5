(** Properties C67 and C68 of src/spacegroups/finder.rs: normalized bases of plane lattices; primitive cells. *)
From Coq Require Import String Ascii List ZArith NArith Lia Bool PeanoNat Permutation QArith Qcanon.
From Verif Require Import Base QcTac Vec Elim Scalars Matrix MatrixMore LinAlg ZQ Lattices Reduce Props_Lattices Geometry Text ParseOp Table Generate Group Crystal Rotation Finder Details Sense Plane CrystalSys Props_Finder Props_Crystal NormBasis.
Import ListNotations.
Close Scope Q_scope. Close Scope Qc_scope.
Local Open Scope list_scope.
Open Scope nat_scope.

(** ** specification *)
(** the matrices are the columns vs *)
Definition columns (vs : list (list Qc)) (cols : list (mat Qc)) : Prop := Forall2 (fun v c => mat_col v = Ret c) vs cols.
Definition closed_under (d : nat) (f : list Qc -> list Qc) (vs : list (list Qc)) : Prop := forall x, in_lattice d vs x -> in_lattice d vs (f x).
Definition mirrored (x : list Qc) : list Qc := [- coordinate 0 x; coordinate 1 x]%Qc.
Definition quarter_turn (x : list Qc) : list Qc := [- coordinate 1 x; coordinate 0 x]%Qc.
(** the lattice of u, w with the center of the cell added *)
Definition in_centered (u w x : list Qc) : Prop :=
  in_lattice 2 [u; w] x \/ in_lattice 2 [u; w] (minus 2 x (multiple 2 (/ (1 + 1))%Qc (plus 2 u w))).

(** ** from the specification to the proofs *)
Lemma fdot_euclid x y : fdot x y = euclid x y.
Proof.
  unfold fdot, euclid. generalize (combine x y). intros l. assert (G : forall l s, fold_left (fun s p => (s + fst p * snd p)%Qc) l s = (s + fold_right (fun ab s => (fst ab * snd ab + s)%Qc) 0%Qc l)%Qc).
  { clear. induction l as [|p l IH]; intros s; cbn [fold_left fold_right]; [ring|]. rewrite IH. ring. }
  rewrite G. ring.
Qed.
Lemma fdot_scalar d : scalar_product d fdot.
Proof. destruct (euclid_scalar d) as [A B C D]. constructor; intros; rewrite !fdot_euclid; auto. Qed.
Lemma fdot_lv u w : fdot (lv u) (lv w) = dt u w. Proof. unfold fdot, lv, dt. cbn [combine fold_left fst snd]. ring. Qed.
Lemma point_lv x : point 2 x -> exists v, x = lv v.
Proof. destruct x as [|a [|b [|]]]; intros L; try discriminate L. exists (V2 a b). reflexivity. Qed.
Lemma lv_inj u w : lv u = lv w -> u = w.
Proof. intros H. apply v2_eq; [exact (f_equal (coordinate 0) H)|exact (f_equal (coordinate 1) H)]. Qed.
Lemma lv_comb a u b w : combination 2 [a; b] [lv u; lv w] = [a * wx u + b * wx w; a * wy u + b * wy w]%Qc.
Proof. unfold combination, from_coordinates, lv, coordinate. cbn [seq map combine fold_right fst snd nth]. apply (f_equal2 cons); [|apply (f_equal2 cons)]; [ring|ring|reflexivity]. Qed.
Lemma in_lattice_lat2 u w x : in_lattice 2 [lv u; lv w] (lv x) <-> lat2 u w x.
Proof.
  split.
  - intros (zs & L & E). destruct zs as [|a [|b [|]]]; try discriminate L. cbn [map] in E. rewrite lv_comb in E. exists a, b. apply lv_inj. exact E.
  - intros (a & b & ->). exists [a; b]. split; auto. cbn [map]. rewrite lv_comb. reflexivity.
Qed.
Lemma in_lattice_point u w x : in_lattice 2 [lv u; lv w] x -> exists v, x = lv v /\ lat2 u w v.
Proof. intros H. pose proof H as (zs & L & E). destruct (point_lv x) as (v & ->); [rewrite E; apply from_length|]. exists v. split; auto. apply in_lattice_lat2. auto. Qed.
Lemma generate_lat2 u w u' w' : (forall x, lat2 u w x <-> lat2 u' w' x) -> generate_same 2 [lv u; lv w] [lv u'; lv w'].
Proof. intros H x. split; intros Hx; destruct (in_lattice_point _ _ _ Hx) as (v & -> & Hv); apply in_lattice_lat2; apply H; auto. Qed.
Lemma is_basis_ar u w : is_basis 2 [lv u; lv w] <-> ar u w <> 0%Qc.
Proof.
  split.
  - intros [_ _ I] A. assert (W : u <> zv2).
    { intros C. specialize (I [1; 0]%Qc eq_refl). rewrite lv_comb in I. assert (F : Forall (fun c => c = 0%Qc) [1; 0]%Qc) by (apply I; subst u; unfold origin, from_coordinates, zv2; cbn [seq map wx wy]; apply (f_equal2 cons); [|apply (f_equal2 cons)]; [ring|ring|reflexivity]). inversion F as [|? ? C' _]. discriminate C'. }
    assert (K : forall a b, (a * wx u + b * wx w)%Qc = 0%Qc -> (a * wy u + b * wy w)%Qc = 0%Qc -> a = 0%Qc /\ b = 0%Qc).
    { intros a b E1 E2. assert (F : Forall (fun c => c = 0%Qc) [a; b]) by (apply I; auto; rewrite lv_comb, E1, E2; reflexivity). inversion F as [|? ? Ha F']. inversion F'. auto. }
    unfold ar in A. destruct (K (wx w) (- wx u)%Qc) as [K1 K2]; [ring|transitivity (- (wx u * wy w - wy u * wx w))%Qc; [ring|rewrite A; reflexivity]|]. destruct (K (wy w) (- wy u)%Qc) as [K3 K4]; [rewrite <- A; ring|ring|]. apply W. apply v2_eq; cbn [zv2 wx wy]; [rewrite <- (Qcopp_involutive (wx u)), K2|rewrite <- (Qcopp_involutive (wy u)), K4]; reflexivity.
  - intros A. constructor; auto.
    + repeat constructor.
    + intros cs L E. destruct cs as [|a [|b [|]]]; try discriminate L. rewrite lv_comb in E. pose proof (f_equal (coordinate 0) E) as E1. pose proof (f_equal (coordinate 1) E) as E2. cbn in E1, E2. change (Q2Qc 0) with 0%Qc in *. unfold ar in A.
      assert (a = 0%Qc). { apply (Qcmult_cancel _ _ _ A). transitivity (wy w * (a * wx u + b * wx w) - wx w * (a * wy u + b * wy w))%Qc; [ring|]. rewrite E1, E2. ring. }
      assert (b = 0%Qc). { apply (Qcmult_cancel _ _ _ A). transitivity (wx u * (a * wy u + b * wy w) - wy u * (a * wx u + b * wx w))%Qc; [ring|]. rewrite E1, E2. ring. }
      subst. repeat constructor.
Qed.
Lemma in_space_line u y : in_space 2 [lv u] (lv y) -> ar u y = 0%Qc.
Proof.
  intros (cs & L & E). destruct cs as [|c [|]]; try discriminate L. unfold combination, from_coordinates, lv, coordinate in E. cbn [seq map combine fold_right fst snd nth] in E. assert (E1 : wx y = (c * wx u + 0)%Qc) by exact (f_equal (coordinate 0) E). assert (E2 : wy y = (c * wy u + 0)%Qc) by exact (f_equal (coordinate 1) E). unfold ar. rewrite E1, E2. ring.
Qed.
(** what C47 says about the plane *)
Lemma reduced2 vs : is_basis 2 vs -> exists enough u w, (forall fuel, enough <= fuel -> reduced_lattice_basis fdot 0%Qc fuel vs = Ret (Some [lv u; lv w])) /\
  red2 u w /\ generate_same 2 vs [lv u; lv w] /\ (dt u w <= 0)%Qc.
Proof.
  intros B. destruct (C47_reduced_lattice_basis 2 fdot vs (fdot_scalar 2) B ltac:(lia)) as (k & bs & E & Bb & G & _ & M0 & Ne & M1).
  pose proof (ba_length 2 bs Bb) as L. destruct bs as [|b0 [|b1 [|]]]; try discriminate L. pose proof (ba_points 2 _ Bb) as P. inversion P as [|? ? P0 P']. inversion P' as [|? ? P1 _]. subst. destruct (point_lv b0 P0) as (u & ->). destruct (point_lv b1 P1) as (w & ->).
  exists k, u, w. splits; auto; [|specialize (Ne 1 ltac:(lia)); cbn [nth] in Ne; rewrite fdot_lv in Ne; auto].
  assert (S : forall v, sq v = fdot (lv v) (lv v)) by (intros; rewrite fdot_lv; reflexivity).
  constructor.
  - apply is_basis_ar. auto.
  - intros y Hy Ny. rewrite !S. apply M0; [apply G; apply in_lattice_lat2; auto|]. intros C. apply Ny. apply lv_origin. auto.
  - intros y Hy Ny. rewrite !S. apply (M1 1); [lia|apply G; apply in_lattice_lat2; auto|]. intros C. apply Ny. apply in_space_line. exact C.
Qed.
Lemma from_columns_ok vs cols : Forall (point 2) vs -> columns vs cols -> from_columns cols = vs.
Proof.
  intros P H. induction H as [|v c vs cols H _ IH]; auto. inversion P as [|? ? Pv P']. subst. unfold from_columns in *. cbn [map]. rewrite IH by auto. f_equal.
  destruct (point_lv v Pv) as (w & ->). change (mat_col (lv w)) with (Ret (col2 w)) in H. rewrite <- (ret_inj _ _ H). reflexivity.
Qed.
Lemma columns_lv u w : columns [lv u; lv w] [col2 u; col2 w]. Proof. repeat constructor. Qed.
Lemma as_columns_lv u w : as_columns [lv u; lv w] = Ret [col2 u; col2 w]. Proof. reflexivity. Qed.
(** the operators *)
Lemma apply_2 (op : text) (a b c d : Z) : parse_operator op = Ret (Some ([], ([[ZQ a; ZQ b]; [ZQ c; ZQ d]], [0; 0]%Qc))) ->
  forall v, apply_operator op (lv v) = Ret (lv (V2 (ZQ a * wx v + ZQ b * wy v)%Qc (ZQ c * wx v + ZQ d * wy v)%Qc)).
Proof.
  intros H v. unfold apply_operator. rewrite H. cbn [bind unwrap length Nat.eqb assert combine mapM apply_row fst snd foldM seq nth_error lv]. apply (f_equal Ret). unfold lv. cbn [wx wy]. apply (f_equal2 cons); [|apply (f_equal2 cons)]; [ring|ring|reflexivity].
Qed.
Lemma apply_xy v : apply_operator (str "x, y") (lv v) = Ret (lv v).
Proof. rewrite (apply_2 _ 1 0 0 1) by qc_compute. change (ZQ 0) with 0%Qc. change (ZQ 1) with 1%Qc. do 2 f_equal. apply v2_eq; cbn [wx wy]; ring. Qed.
Lemma apply_neg v : apply_operator (str "-x, -y") (lv v) = Ret (lv (neg_v v)).
Proof. rewrite (apply_2 _ (-1) 0 0 (-1)) by qc_compute. change (ZQ 0) with 0%Qc. change (ZQ (-1)) with (- (1))%Qc. do 2 f_equal. apply v2_eq; cbn [wx wy neg_v]; ring. Qed.
Lemma apply_rot v : apply_operator (str "-y, x") (lv v) = Ret (lv (rot v)).
Proof. rewrite (apply_2 _ 0 (-1) 1 0) by qc_compute. change (ZQ 0) with 0%Qc. change (ZQ 1) with 1%Qc. change (ZQ (-1)) with (- (1))%Qc. do 2 f_equal. apply v2_eq; cbn [wx wy rot]; ring. Qed.
Lemma apply_cy v : apply_operator (str "0, 2y") (lv v) = Ret (lv (cy v)).
Proof. rewrite (apply_2 _ 0 0 0 2) by qc_compute. change (ZQ 0) with 0%Qc. change (ZQ 2) with (1 + 1)%Qc. do 2 f_equal. apply v2_eq; cbn [wx wy cy]; ring. Qed.
Lemma apply_cx v : apply_operator (str "2x, 0") (lv v) = Ret (lv (cx v)).
Proof. rewrite (apply_2 _ 2 0 0 0) by qc_compute. change (ZQ 0) with 0%Qc. change (ZQ 2) with (1 + 1)%Qc. do 2 f_equal. apply v2_eq; cbn [wx wy cx]; ring. Qed.
Lemma both_nz_lv v : both_nz (lv v) = Ret (negb (Qc_eqb (wx v) 0%Qc) && negb (Qc_eqb (wy v) 0%Qc)).
Proof. unfold both_nz, nz, lv. cbn [nth_error unwrap bind]. destruct (Qc_eqb (wx v) 0%Qc); reflexivity. Qed.
Lemma nz_lv v : nz (lv v) 1 = Ret (negb (Qc_eqb (wy v) 0%Qc)). Proof. reflexivity. Qed.
Lemma closed_lat2 (f : list Qc -> list Qc) (g : v2 -> v2) vs u w : (forall v, f (lv v) = lv (g v)) -> generate_same 2 vs [lv u; lv w] -> closed_under 2 f vs -> forall x, lat2 u w x -> lat2 u w (g x).
Proof. intros E G C x Hx. apply in_lattice_lat2. rewrite <- E. apply G. apply C. apply G. apply in_lattice_lat2. auto. Qed.
Lemma half_sum v : multiple 2 (/ (1 + 1))%Qc (plus 2 (lv (cy v)) (lv (cx v))) = lv v.
Proof.
  unfold multiple, plus, from_coordinates, coordinate, lv. cbn [seq map nth cy cx wx wy]. assert (H : ((1 + 1) * / (1 + 1))%Qc = 1%Qc) by (apply Qcmult_inv_r; apply Qc_two).
  apply (f_equal2 cons); [|apply (f_equal2 cons)]; [transitivity ((1 + 1) * / (1 + 1) * wx v)%Qc; [ring|rewrite H; ring]|transitivity ((1 + 1) * / (1 + 1) * wy v)%Qc; [ring|rewrite H; ring]|reflexivity].
Qed.
Lemma centered_lat2 vs u w v : generate_same 2 vs [lv u; lv w] -> (forall x, lat2 u w x <-> lat2 v (mir v) x) -> forall x, point 2 x -> in_lattice 2 vs x <-> in_centered (lv (cy v)) (lv (cx v)) x.
Proof.
  intros G H x Lx. destruct (point_lv x Lx) as (y & ->). unfold in_centered. rewrite half_sum.
  change (minus 2 (lv y) (lv v)) with (lv (sub2 y v)). rewrite !in_lattice_lat2, <- centred_ok, <- H, <- in_lattice_lat2. apply G.
Qed.
Lemma two_columns_lv op1 op2 v1 v2' u w : apply_operator (str op1) (lv v1) = Ret (lv u) -> apply_operator (str op2) (lv v2') = Ret (lv w) -> two_columns op1 op2 (lv v1) (lv v2') = Ret [col2 u; col2 w].
Proof. intros A B. unfold two_columns. rewrite A. cbn [bind]. rewrite B. reflexivity. Qed.

(** ** C67: normalized_basis_2d.
    Oblique lattices: a reduced basis of the lattice. *)
Theorem C67_oblique vs cols : is_basis 2 vs -> columns vs cols ->
  exists enough u w out, (forall fuel, enough <= fuel -> normalized_basis_2d fuel Oblique cols = Ret (out, Primitive2d)) /\ columns [u; w] out /\
    is_basis 2 [u; w] /\ generate_same 2 vs [u; w] /\
    (forall y, in_lattice 2 vs y -> y <> origin 2 -> (euclid u u <= euclid y y)%Qc) /\ (forall y, in_lattice 2 vs y -> ~ in_space 2 [u] y -> (euclid w w <= euclid y y)%Qc).
Proof.
  intros B C. destruct (reduced2 vs B) as (k & u & w & E & R & G & _). exists k, (lv u), (lv w), [col2 u; col2 w].
  splits; auto; [|apply columns_lv|apply is_basis_ar; apply R| |].
  - intros fuel Hf. unfold normalized_basis_2d. rewrite (from_columns_ok vs cols (ba_points 2 vs B) C), (E fuel Hf). cbn [bind unwrap]. rewrite as_columns_lv. reflexivity.
  - intros y Hy Ny. apply G in Hy. destruct (in_lattice_point _ _ _ Hy) as (z & -> & Hz). rewrite <- !fdot_euclid, !fdot_lv. apply (r_min0 u w R); auto. intros ->. apply Ny. reflexivity.
  - intros y Hy Ny. apply G in Hy. destruct (in_lattice_point _ _ _ Hy) as (z & -> & Hz). rewrite <- !fdot_euclid, !fdot_lv. apply (r_min1 u w R); auto. intros A. apply Ny.
    assert (Nu : u <> zv2) by apply (red_nz u w R). assert (exists t, z = V2 (t * wx u)%Qc (t * wy u)%Qc) as (t & ->).
    { unfold ar in A. destruct (Qc_eq_dec (wx u) 0%Qc) as [Zx|Nx].
      - assert (Nyu : wy u <> 0%Qc) by (intros Zy; apply Nu; apply v2_eq; auto). exists (wy z / wy u)%Qc. assert (wx z = 0%Qc). { apply (Qcmult_cancel (wy u)); auto. transitivity (- (wx u * wy z - wy u * wx z) + wx u * wy z)%Qc; [ring|]. rewrite A, Zx. ring. } apply v2_eq; cbn [wx wy]; [rewrite H, Zx; ring|field; auto].
      - exists (wx z / wx u)%Qc. apply v2_eq; cbn [wx wy]; [field; auto|]. apply (Qcmult_cancel (wx u)); auto. transitivity (wx u * wy z - wy u * wx z + wy u * wx z)%Qc; [ring|]. rewrite A. field. auto. }
    exists [t]. split; auto. unfold combination, from_coordinates, lv, coordinate. cbn [seq map combine fold_right fst snd nth wx wy]. apply (f_equal2 cons); [|apply (f_equal2 cons)]; [ring|ring|reflexivity].
Qed.
(** Rectangular lattices, closed under reflection in the second axis: the first vector lies on the second axis and the second on
    the first; they generate the lattice, or they do so together with the center of their cell. *)
Theorem C67_rectangular vs cols : is_basis 2 vs -> columns vs cols -> closed_under 2 mirrored vs ->
  exists enough u w out c, (forall fuel, enough <= fuel -> normalized_basis_2d fuel Rectangular cols = Ret (out, c)) /\ columns [u; w] out /\
    is_basis 2 [u; w] /\ coordinate 0 u = 0%Qc /\ coordinate 1 w = 0%Qc /\
    match c with
    | Primitive2d => generate_same 2 vs [u; w]
    | Centered2d => forall x, point 2 x -> (in_lattice 2 vs x <-> in_centered u w x)
    | _ => False
    end.
Proof.
  intros B C I. destruct (reduced2 vs B) as (k & u & w & E & R & G & _). exists k.
  pose proof (closed_lat2 mirrored mir vs u w (fun v => eq_refl) G I) as Im. pose proof (r_ind u w R) as D.
  assert (N : forall fuel, k <= fuel -> normalized_basis_2d fuel Rectangular cols =
    if negb (Qc_eqb (wx u) 0%Qc) && negb (Qc_eqb (wy u) 0%Qc) then Ret ([col2 (cy u); col2 (cx u)], Centered2d) else
    if negb (Qc_eqb (wx w) 0%Qc) && negb (Qc_eqb (wy w) 0%Qc) then Ret ([col2 (cy w); col2 (cx w)], Centered2d) else
    if negb (negb (Qc_eqb (wy u) 0%Qc)) then Ret ([col2 w; col2 (neg_v u)], Primitive2d) else Ret ([col2 u; col2 w], Primitive2d)).
  { intros fuel Hf. unfold normalized_basis_2d. rewrite (from_columns_ok vs cols (ba_points 2 vs B) C), (E fuel Hf). cbn [bind unwrap nth_error]. rewrite both_nz_lv. cbn [bind].
    rewrite (two_columns_lv _ _ u u _ _ (apply_cy u) (apply_cx u)). cbn [bind]. destruct (negb (Qc_eqb (wx u) 0%Qc) && negb (Qc_eqb (wy u) 0%Qc)); auto.
    rewrite both_nz_lv. cbn [bind]. rewrite (two_columns_lv _ _ w w _ _ (apply_cy w) (apply_cx w)). cbn [bind]. destruct (negb (Qc_eqb (wx w) 0%Qc) && negb (Qc_eqb (wy w) 0%Qc)); auto.
    rewrite nz_lv. cbn [bind]. rewrite (two_columns_lv _ _ w u _ _ (apply_xy w) (apply_neg u)). cbn [bind]. destruct (negb (negb (Qc_eqb (wy u) 0%Qc))); auto. }
  assert (Cb : forall v, wx v <> 0%Qc -> wy v <> 0%Qc -> is_basis 2 [lv (cy v); lv (cx v)]).
  { intros v Nx Ny. apply is_basis_ar. unfold ar, cy, cx. cbn [wx wy]. intros Z. assert (Q : ((1 + 1) * (1 + 1) * (wx v * wy v))%Qc = 0%Qc) by (transitivity (- (0 * 0 - (1 + 1) * wy v * ((1 + 1) * wx v)))%Qc; [ring|rewrite Z; reflexivity]). destruct (Qcmult_integral _ _ Q) as [Q'|Q']; [discriminate Q'|]. destruct (Qcmult_integral _ _ Q'); auto. }
  destruct (Qc_eqb_spec (wx u) 0%Qc) as [Xu|Xu], (Qc_eqb_spec (wy u) 0%Qc) as [Yu|Yu]; cbn [negb andb] in N.
  - exfalso. apply D. unfold ar. rewrite Xu, Yu. ring.
  - (* u on the second axis *) destruct (Qc_eqb_spec (wx w) 0%Qc) as [Xw|Xw]; [exfalso; apply D; unfold ar; rewrite Xu, Xw; ring|]. destruct (Qc_eqb_spec (wy w) 0%Qc) as [Yw|Yw]; cbn [negb andb] in N.
    + exists (lv u), (lv w), [col2 u; col2 w], Primitive2d. splits; auto; [apply columns_lv|apply is_basis_ar; auto].
    + exists (lv (cy w)), (lv (cx w)), [col2 (cy w); col2 (cx w)], Centered2d. splits; auto; [apply columns_lv|]. apply (centered_lat2 vs u w w); auto. apply rect_second; auto.
  - (* on the first *) destruct (Qc_eqb_spec (wy w) 0%Qc) as [Yw|Yw]; [exfalso; apply D; unfold ar; rewrite Yu, Yw; ring|]. destruct (Qc_eqb_spec (wx w) 0%Qc) as [Xw|Xw]; cbn [negb andb] in N.
    + exists (lv w), (lv (neg_v u)), [col2 w; col2 (neg_v u)], Primitive2d. splits; auto; [apply columns_lv| | |].
      * apply is_basis_ar. intros Z. apply D. rewrite <- Z. unfold ar, neg_v. cbn [wx wy]. ring.
      * change (coordinate 1 (lv (neg_v u))) with (- wy u)%Qc. rewrite Yu. reflexivity.
      * intros x. rewrite (G x). revert x. apply generate_lat2. apply lat2_same; [apply lat2_r| |exists 0%Z, (-1)%Z; v2ring|apply lat2_l]. exists (-1)%Z, 0%Z. v2ring.
    + exists (lv (cy w)), (lv (cx w)), [col2 (cy w); col2 (cx w)], Centered2d. splits; auto; [apply columns_lv|]. apply (centered_lat2 vs u w w); auto. apply rect_second; auto.
  - exists (lv (cy u)), (lv (cx u)), [col2 (cy u); col2 (cx u)], Centered2d. splits; auto; [apply columns_lv|]. apply (centered_lat2 vs u w u); auto. apply rect_first; auto.
Qed.
(** Square lattices, closed under a quarter turn: a shortest vector and its image. *)
Theorem C67_square vs cols : is_basis 2 vs -> columns vs cols -> closed_under 2 quarter_turn vs ->
  exists enough u w out, (forall fuel, enough <= fuel -> normalized_basis_2d fuel Square cols = Ret (out, Primitive2d)) /\ columns [u; w] out /\
    is_basis 2 [u; w] /\ generate_same 2 vs [u; w] /\ w = quarter_turn u.
Proof.
  intros B C I. destruct (reduced2 vs B) as (k & u & w & E & R & G & _). exists k.
  pose proof (closed_lat2 quarter_turn rot vs u w (fun v => eq_refl) G I) as Im. exists (lv u), (lv (rot u)), [col2 u; col2 (rot u)].
  splits; auto; [|apply columns_lv| |].
  - intros fuel Hf. unfold normalized_basis_2d. rewrite (from_columns_ok vs cols (ba_points 2 vs B) C), (E fuel Hf). cbn [bind unwrap nth_error]. rewrite (two_columns_lv _ _ u u _ _ (apply_xy u) (apply_rot u)). reflexivity.
  - apply is_basis_ar. replace (ar u (rot u)) with (sq u) by (unfold ar, rot, sq; cbn [wx wy]; ring). apply Qc_pos_nz. apply sq_pos. apply (red_nz u w R).
  - intros x. rewrite (G x). revert x. apply generate_lat2. apply square_ok; auto.
Qed.
Print Assumptions C67_oblique.
Print Assumptions C67_rectangular.
Print Assumptions C67_square.
(** examples: a rectangular lattice given by a skew basis, a centered one, a square one *)
Definition pts (l : list (list Z)) : list (list Qc) := map (map ZQ) l.
Definition cols_of (l : list (list Z)) : list (mat Qc) := map (fun v => Mat 2 1 (map ZQ v)) l.
Definition shown2 (r : outcome (list (mat Qc) * centering)) : option (list (list Qc) * centering) := match r with Ret (b, c) => Some (map data b, c) | _ => None end.
Example C67_example :
  shown2 (normalized_basis_2d 10 Rectangular (cols_of [[2; 3]; [2; 0]]%Z)) = Some (pts [[0; 3]; [-2; 0]]%Z, Primitive2d) /\
  shown2 (normalized_basis_2d 10 Rectangular (cols_of [[2; 3]; [4; 0]]%Z)) = Some (pts [[0; 6]; [4; 0]]%Z, Centered2d) /\
  shown2 (normalized_basis_2d 10 Square (cols_of [[3; 1]; [2; 4]]%Z)) = Some (pts [[3; 1]; [-1; 3]]%Z, Primitive2d).
Proof. splits; qc_compute. Qed.
Example C67_example_hypotheses : is_basis 2 (pts [[2; 3]; [4; 0]]%Z) /\ columns (pts [[2; 3]; [4; 0]]%Z) (cols_of [[2; 3]; [4; 0]]%Z) /\ closed_under 2 mirrored (pts [[2; 3]; [4; 0]]%Z) /\
  is_basis 2 (pts [[3; 1]; [-1; 3]]%Z) /\ closed_under 2 quarter_turn (pts [[3; 1]; [-1; 3]]%Z).
Proof.
  change (pts [[2; 3]; [4; 0]]%Z) with [lv (V2 (ZQ 2) (ZQ 3)); lv (V2 (ZQ 4) (ZQ 0))]. change (pts [[3; 1]; [-1; 3]]%Z) with [lv (V2 (ZQ 3) (ZQ 1)); lv (V2 (ZQ (-1)) (ZQ 3))]. splits.
  - apply is_basis_ar. intros H. discriminate H.
  - apply columns_lv.
  - intros x Hx. destruct (in_lattice_point _ _ _ Hx) as (v & -> & (a & b & ->)). change (mirrored (lv ?v)) with (lv (mir v)). apply in_lattice_lat2. exists a, (- a - b)%Z. unfold Z.sub. apply v2_eq; cbn [mir comb2 wx wy]; rewrite ZQ_add, !ZQ_opp; change (ZQ 4) with (ZQ (2 * 2)); rewrite ?ZQ_mul; change (ZQ 2) with (1 + 1)%Qc; change (ZQ 0) with 0%Qc; ring.
  - apply is_basis_ar. intros H. discriminate H.
  - intros x Hx. destruct (in_lattice_point _ _ _ Hx) as (v & -> & (a & b & ->)). change (quarter_turn (lv ?v)) with (lv (rot v)). apply in_lattice_lat2. exists (- b)%Z, a. apply v2_eq; cbn [rot comb2 wx wy]; rewrite ZQ_opp; change (ZQ (-1)) with (- ZQ 1)%Qc; ring.
Qed.
(** Hexagonal lattices, closed under the turn of order 3 in coordinates of two vectors at 120 degrees: a shortest vector (in the
    coordinates as they are) and its image generate the lattice. *)
Definition third_turn (x : list Qc) : list Qc := [- coordinate 1 x; coordinate 0 x - coordinate 1 x]%Qc.
Lemma apply_third v : apply_operator (str "-y, x-y") (lv v) = Ret (lv (third v)).
Proof. rewrite (apply_2 _ 0 (-1) 1 (-1)) by qc_compute. change (ZQ 0) with 0%Qc. change (ZQ 1) with 1%Qc. change (ZQ (-1)) with (- (1))%Qc. do 2 f_equal. apply v2_eq; cbn [wx wy third]; ring. Qed.
Theorem C67_hexagonal vs cols : is_basis 2 vs -> columns vs cols -> closed_under 2 third_turn vs ->
  exists enough u w out, (forall fuel, enough <= fuel -> normalized_basis_2d fuel Hexagonal cols = Ret (out, Primitive2d)) /\ columns [u; w] out /\
    is_basis 2 [u; w] /\ generate_same 2 vs [u; w] /\ w = third_turn u /\
    (forall y, in_lattice 2 vs y -> y <> origin 2 -> (euclid u u <= euclid y y)%Qc).
Proof.
  intros B C I. destruct (reduced2 vs B) as (k & u & w & E & R & G & _). exists k.
  pose proof (closed_lat2 third_turn third vs u w (fun v => eq_refl) G I) as Im. destruct (third_ok u w R Im) as [Na Ls]. exists (lv u), (lv (third u)), [col2 u; col2 (third u)].
  splits; auto; [|apply columns_lv| | |].
  - intros fuel Hf. unfold normalized_basis_2d. rewrite (from_columns_ok vs cols (ba_points 2 vs B) C), (E fuel Hf). cbn [bind unwrap nth_error]. rewrite (two_columns_lv _ _ u u _ _ (apply_xy u) (apply_third u)). reflexivity.
  - apply is_basis_ar. auto.
  - intros x. rewrite (G x). revert x. apply generate_lat2. auto.
  - intros y Hy Ny. apply G in Hy. destruct (in_lattice_point _ _ _ Hy) as (z & -> & Hz). rewrite <- !fdot_euclid, !fdot_lv. apply (r_min0 u w R); auto. intros ->. apply Ny. reflexivity.
Qed.
Print Assumptions C67_hexagonal.
(** Finding: for hexagonal lattices in the coordinates in which they come the claim fails.  In coordinates of the basis that crystal_system_and_basis_2d returns, whose vectors
    make an angle of 60 degrees, the rotation of order 6 is (x, y) -> (-y, x + y); normalized_basis_2d completes a vector (x, y) by
    (-y, x - y), which need not be in the lattice. *)
Definition sixth_turn (x : list Qc) : list Qc := [- coordinate 1 x; coordinate 0 x + coordinate 1 x]%Qc.
Theorem C67_hexagonal_refuted : exists vs cols u w out, is_basis 2 vs /\ columns vs cols /\ closed_under 2 sixth_turn vs /\
  normalized_basis_2d 10 Hexagonal cols = Ret (out, Primitive2d) /\ columns [u; w] out /\ ~ in_lattice 2 vs w.
Proof.
  exists (pts [[1; 1]; [2; -1]]%Z), (cols_of [[1; 1]; [2; -1]]%Z), (map ZQ [1; 1]%Z), (map ZQ [-1; 0]%Z), (cols_of [[1; 1]; [-1; 0]]%Z).
  change (pts [[1; 1]; [2; -1]]%Z) with [lv (V2 (ZQ 1) (ZQ 1)); lv (V2 (ZQ 2) (ZQ (-1)))]. splits.
  - apply is_basis_ar. intros H. discriminate H.
  - apply columns_lv.
  - intros x Hx. destruct (in_lattice_point _ _ _ Hx) as (v & -> & (a & b & ->)). change (sixth_turn (lv ?v)) with (lv (V2 (- wy v)%Qc (wx v + wy v)%Qc)). apply in_lattice_lat2. exists (a + b)%Z, (- a)%Z. apply v2_eq; cbn [comb2 wx wy]; rewrite ZQ_add, ZQ_opp; change (ZQ (-1)) with (- (1))%Qc; change (ZQ 2) with (1 + 1)%Qc; change (ZQ 1) with 1%Qc; ring.
  - qc_compute.
  - apply (columns_lv (V2 (ZQ 1) (ZQ 1)) (V2 (ZQ (-1)) (ZQ 0))).
  - change (map ZQ [-1; 0]%Z) with (lv (V2 (ZQ (-1)) (ZQ 0))). rewrite in_lattice_lat2. intros (a & b & H). pose proof (f_equal wx H) as H1. pose proof (f_equal wy H) as H2. cbn [comb2 wx wy] in H1, H2. rewrite <- !ZQ_mul, <- !ZQ_add in H1, H2. apply ZQ_inj in H1, H2. lia.
Qed.
Print Assumptions C67_hexagonal_refuted.
(** a lattice of index 7 in that of the coordinates meets the hypotheses of C67_hexagonal *)
Example C67_hexagonal_example :
  let vs := pts [[2; -1]; [1; 3]]%Z in is_basis 2 vs /\ columns vs (cols_of [[2; -1]; [1; 3]]%Z) /\ closed_under 2 third_turn vs /\
  shown2 (normalized_basis_2d 10 Hexagonal (cols_of [[2; -1]; [1; 3]]%Z)) = Some (pts [[2; -1]; [1; 3]]%Z, Primitive2d).
Proof.
  change (pts [[2; -1]; [1; 3]]%Z) with [lv (V2 (ZQ 2) (ZQ (-1))); lv (V2 (ZQ 1) (ZQ 3))]. cbv zeta. splits.
  - apply is_basis_ar. intros H. discriminate H.
  - apply columns_lv.
  - intros x Hx. destruct (in_lattice_point _ _ _ Hx) as (v & -> & (a & b & ->)). change (third_turn (lv ?v)) with (lv (third v)). apply in_lattice_lat2. exists (- b)%Z, (a - b)%Z. unfold Z.sub. apply v2_eq; cbn [third comb2 wx wy]; rewrite ?ZQ_add, !ZQ_opp; change (ZQ (-1)) with (- (1))%Qc; change (ZQ 3) with (1 + 1 + 1)%Qc; change (ZQ 2) with (1 + 1)%Qc; change (ZQ 1) with 1%Qc; ring.
  - qc_compute.
Qed.

(** ** C68: primitive_cell and identitify_spacegroup_2d *)
Definition unit_column (d i : nat) : mat Qc := Mat d 1 (map (fun j => if j =? i then 1%Qc else 0%Qc) (seq 0 d)).
Definition urow (d i : nat) : list Qc := map (fun j => if j =? i then 1%Qc else 0%Qc) (seq 0 d).
Lemma urow_length d i : length (urow d i) = d. Proof. unfold urow. rewrite map_length, seq_length. auto. Qed.
Lemma urow_get d i j : j < d -> vget (urow d i) j = if j =? i then 1%Qc else 0%Qc.
Proof. intros H. unfold vget, urow. change r0 with 0%Qc. rewrite nth_indep with (d' := (fun j => if j =? i then 1%Qc else 0%Qc) 0) by (rewrite map_length, seq_length; auto). rewrite (map_nth (fun j => if j =? i then 1%Qc else 0%Qc)), seq_nth by auto. auto. Qed.
Lemma urow_pivot d i : i < d -> pivot (urow d i) = Some i.
Proof.
  intros H. apply pivot_Some. rewrite urow_length. splits; auto.
  - rewrite urow_get, Nat.eqb_refl by auto. intros C. discriminate C.
  - intros j Hj. rewrite urow_get by lia. destruct (Nat.eqb_spec j i); [lia|reflexivity].
Qed.
Lemma extend_units d v n : forall k, k + n = d -> length v = d -> (forall i, i < k -> vget v i = 0%Qc) -> extend_basis v (map (urow d) (seq k n)) = Ret (map (urow d) (seq k n)).
Proof.
  revert v. induction n as [|n IH]; intros v k Hk Lv Z; cbn [seq map extend_basis].
  - assert (P : pivot v = None). { destruct (pivot v) as [c|] eqn:P; auto. apply pivot_Some in P as (Hc & Nc & _). exfalso. apply Nc. apply Z. lia. } rewrite P. auto.
  - rewrite urow_length, Lv, Nat.eqb_refl. cbn [assert bind]. destruct (pivot v) as [c|] eqn:P; auto. rewrite urow_pivot by lia. cbn [unwrap bind]. pose proof P as P'. apply pivot_Some in P' as (Hc & Nc & Zc).
    destruct (Nat.ltb_spec c k) as [L|L]; [exfalso; apply Nc; apply Z; auto|]. destruct (Nat.eqb_spec c k) as [-> |Ne].
    + change (s_clear k v (urow d k)) with (clear_column_Q k v (urow d k)). unfold clear_column_Q. rewrite !nth_error_vget by (rewrite ?urow_length; lia). cbn [unwrap bind]. rewrite urow_get, Nat.eqb_refl by lia. change (negb (Qc_eqb 1%Qc 0%Qc)) with true. cbn [assert bind].
      rewrite covers_ok by (rewrite urow_length; auto). cbn [bind]. set (v' := zip_from _ _ _ _). rewrite (IH v' (S k)); [reflexivity|lia| |].
      * unfold v'. rewrite zip_from_length, upd_length. auto.
      * intros i Hi. unfold v'. rewrite vget_zip_from by (rewrite upd_length, ?urow_length; lia). destruct (Nat.ltb_spec i (S k)); [|lia]. rewrite vget_upd by lia. destruct (Nat.eqb_spec i k); auto. apply Z. lia.
    + rewrite (IH v (S k)); auto; [lia|]. intros i Hi. apply Zc. lia.
Qed.
(** Finding: whatever the operations are, the cell is that of the unit vectors; translations by fractions are lost, because
    extend_basis over the rational numbers computes a basis of the space, not of the lattice. *)
Theorem C68_primitive_cell d ops : 1 <= d -> ops <> [] -> Forall (fun op => nrows (shift op) = d /\ length (data (shift op)) = d) ops ->
  primitive_cell ops = Ret (map (unit_column d) (seq 0 d)).
Proof.
  intros Hd Ne F. unfold primitive_cell. destruct ops as [|op0 ops']; [congruence|]. cbn [nth_error unwrap bind]. assert (D : vdim (shift op0) = d) by (inversion F; tauto). rewrite D, identity_mk by auto. cbn [bind]. rewrite get_rows_mk by auto. cbn [bind].
  assert (U : frows d d (delta (R := Qc)) = map (urow d) (seq 0 d)).
  { unfold frows. apply map_ext_in. intros i Hi. apply in_seq in Hi. unfold frow, urow. apply map_ext_in. intros j _. unfold Matrix.delta. rewrite Nat.eqb_sym. reflexivity. }
  rewrite U. set (l := op0 :: ops') in *. assert (Fo : foldM (cell_step (mk d d delta)) (map (urow d) (seq 0 d)) l = Ret (map (urow d) (seq 0 d))).
  { clear -F. induction F as [|op l [_ L] _ IH]; auto. cbn [foldM]. unfold cell_step at 1. destruct (existsb _ _ && _); cbn [bind]; auto. rewrite (extend_units d _ d 0) by (auto; intros; lia). cbn [bind]. auto. }
  rewrite Fo. cbn [bind]. unfold as_columns. generalize (seq 0 d). intros s. induction s as [|i s IH]; auto. cbn [map mapM]. rewrite IH.
  assert (C : mat_col (urow d i) = Ret (unit_column d i)).
  { unfold mat_col, mat_new, unit_column. fold (urow d i). rewrite urow_length, Nat.div_1_r, Nat.mul_1_r, Nat.eqb_refl. destruct (Nat.eqb_spec d 0); [lia|]. reflexivity. }
  rewrite C. reflexivity.
Qed.
Theorem C68_centering_refuted : exists ops, Forall (fun op => nrows (shift op) = 2 /\ length (data (shift op)) = 2) ops /\
  In (Affine (qmat 2 [1; 0; 0; 1]%Z) (Mat 2 1 [Q2Qc (1 # 2); Q2Qc (1 # 2)])) ops /\
  exists cell, primitive_cell ops = Ret cell /\ ~ in_lattice 2 (map data cell) [Q2Qc (1 # 2); Q2Qc (1 # 2)].
Proof.
  exists [Affine (qmat 2 [1; 0; 0; 1]%Z) (Mat 2 1 [0; 0]%Qc); Affine (qmat 2 [1; 0; 0; 1]%Z) (Mat 2 1 [Q2Qc (1 # 2); Q2Qc (1 # 2)])].
  splits; [repeat constructor|right; left; auto|]. eexists. split; [apply (C68_primitive_cell 2); [lia|discriminate|repeat constructor]|].
  change (map data (map (unit_column 2) (seq 0 2))) with [lv (V2 1%Qc 0%Qc); lv (V2 0%Qc 1%Qc)]. change [Q2Qc (1 # 2); Q2Qc (1 # 2)] with (lv (V2 (Q2Qc (1 # 2)) (Q2Qc (1 # 2)))). rewrite in_lattice_lat2.
  intros (a & b & H). pose proof (f_equal wx H) as H1. cbn [comb2 wx wy] in H1. assert (H2 : Q2Qc (1 # 2) = ZQ a) by (rewrite H1; ring). assert (H3 : ZQ 1 = ZQ (2 * a)) by (rewrite ZQ_mul, <- H2; apply Qc_is_canon; reflexivity). apply ZQ_inj in H3. lia.
Qed.
(** identitify_spacegroup_2d never returns a group: it ends in todo!(). *)
Theorem C68_identify fuel ops r : identify_spacegroup_2d fuel ops <> Ret r.
Proof.
  unfold identify_spacegroup_2d. repeat match goal with |- (do _ <- ?x; _) <> _ => destruct x; cbn [bind]; try discriminate end.
Qed.
Print Assumptions C68_primitive_cell.
Print Assumptions C68_centering_refuted.
Print Assumptions C68_identify.
