(** Property C106 of src/spacegroups/finder.rs: the cell that identitify_spacegroup_2d hands to normalized_basis_2d. *)
From Coq Require Import String Ascii List ZArith NArith Lia Bool PeanoNat QArith Qcanon.
From Verif Require Import Base QcTac Vec Scalars Matrix LinAlg ZQ Props_Lattices Geometry Text ParseOp Table Props_Finder Finder Crystal Details Sense Plane CrystalSys Props_Crystal NormBasis Props_Normalized SgTable.
Import ListNotations.
Close Scope Q_scope. Close Scope Qc_scope.
Local Open Scope list_scope.
Open Scope nat_scope.

(** ** specification *)
(** the vectors p, q are dual to the vectors x, y *)
Definition dual (x y p q : list Qc) : Prop :=
  euclid x p = 1%Qc /\ euclid x q = 0%Qc /\ euclid y p = 0%Qc /\ euclid y q = 1%Qc.
(** c lists the coordinates of v with respect to x, y *)
Definition coordinates_of (x y v c : list Qc) : Prop :=
  plus 2 (multiple 2 (coordinate 0 c) x) (multiple 2 (coordinate 1 c) y) = v.

(** ** proofs *)
Lemma dual_inverse a b c d : (a * d - b * c)%Qc <> 0%Qc -> exists p q, 
  inverse (Mat 2 2 [a; b; c; d]) = Ret (Some (Mat 2 2 [p 0; q 0; p 1; q 1])) /\
  dual [a; b] [c; d] [p 0; p 1] [q 0; q 1].
Proof.
  intros N. set (f := fun i j : nat => nth (i * 2 + j) [a; b; c; d] 0%Qc). change (Mat 2 2 [a; b; c; d]) with (mk 2 2 f).
  destruct (inverse_correct (R := Qc) 2 f ltac:(lia)) as [(x & E & S)|[_ C]].
  - exists (fun i => x i 0), (fun i => x i 1). split; [exact E|].
    assert (P : forall i j, i < 2 -> j < 2 -> (f i 0%nat * x 0%nat j + f i 1%nat * x 1%nat j)%Qc = delta (R := Qc) i j).
    { intros i j Hi Hj. rewrite <- (S i j Hi Hj). unfold sumf. cbn. ring. }
    pose proof (P 0 0 ltac:(lia) ltac:(lia)) as P00. pose proof (P 0 1 ltac:(lia) ltac:(lia)) as P01. pose proof (P 1 0 ltac:(lia) ltac:(lia)) as P10. pose proof (P 1 1 ltac:(lia) ltac:(lia)) as P11.
    unfold f in P00, P01, P10, P11. cbn in P00, P01, P10, P11. unfold dual, euclid. cbn [combine fold_right fst snd]. split; [|split; [|split]]; [transitivity (a * x 0%nat 0%nat + b * x 1%nat 0%nat)%Qc|transitivity (a * x 0%nat 1%nat + b * x 1%nat 1%nat)%Qc|transitivity (c * x 0%nat 0%nat + d * x 1%nat 0%nat)%Qc|transitivity (c * x 0%nat 1%nat + d * x 1%nat 1%nat)%Qc]; auto; ring.
  - exfalso. apply C. set (D := (a * d - b * c)%Qc) in *. exists (fun i j => (nth (i * 2 + j) [d; - b; - c; a] 0 / D)%Qc).
    intros i j Hi Hj. destruct i as [|[|]]; [| |lia]; (destruct j as [|[|]]; [| |lia]); unfold sumf; cbn; unfold D in *; field; exact N.
Qed.

(** ** C106.  For every list of operations whose linear parts are a finite group (without repetitions) the cell that is handed to the normalization
    consists of the two vectors dual to the basis x, y of crystal_system_and_basis_2d. *)
Theorem C106_dual_cell ops : finite_group (map lin ops) -> NoDup (map lin ops) -> Forall (fun op => nrows (shift op) = 2 /\ length (data (shift op)) = 2) ops ->
  exists s x y mx my p q mp mq, crystal_system_and_basis_2d (map lin ops) = Ret (s, [mx; my]) /\
    point 2 x /\ point 2 y /\ mat_col x = Ret mx /\ mat_col y = Ret my /\
    plane_cell ops = Ret (s, [mp; mq]) /\ point 2 p /\ point 2 q /\ mat_col p = Ret mp /\ mat_col q = Ret mq /\
    dual x y p q.
Proof.
  intros G N F. destruct (C66_basis _ G N) as (s & mx & my & x & y & E & Px & Py & Ex & Ey & A & _).
  destruct x as [|a [|b [|]]]; try discriminate Px. destruct y as [|c [|d [|]]]; try discriminate Py. injection Ex as <-. injection Ey as <-.
  destruct (dual_inverse a b c d) as (p & q & Ei & Du). { intros Z. unfold area2, coordinate in A. cbn [nth] in A. rewrite Z in A. discriminate A. }
  assert (Ne : ops <> []). { intros ->. destruct (fg_identity _ G) as (e & _ & []). }
  exists s, [a; b], [c; d], (Mat 2 1 [a; b]), (Mat 2 1 [c; d]), [p 0; p 1], [q 0; q 1], (Mat 2 1 [p 0; p 1]), (Mat 2 1 [q 0; q 1]).
  splits; auto. unfold plane_cell. rewrite E. cbn [bind fst snd].
  change (hstack [Mat 2 1 [a; b]; Mat 2 1 [c; d]]) with (Ret (Mat 2 2 [a; c; b; d])). cbn [bind].
  change (transpose (Mat 2 2 [a; c; b; d])) with (Ret (Mat 2 2 [a; b; c; d])). cbn [bind]. rewrite Ei. cbn [bind unwrap].
  rewrite (C68_primitive_cell 2 ops ltac:(lia) Ne F). cbn [bind].
  change (map (unit_column 2) (seq 0 2)) with [Mat 2 1 [1%Qc; 0%Qc]; Mat 2 1 [0%Qc; 1%Qc]].
  assert (M : forall u v z w s t : Qc, mat_mul (Mat 2 2 [u; v; z; w]) (Mat 2 1 [s; t]) = Ret (Mat 2 1 [u * s + v * t; z * s + w * t]%Qc)).
  { intros. unfold mat_mul. cbn. do 2 f_equal. apply (f_equal2 cons); [ring|apply (f_equal2 cons); [ring|auto]]. }
  cbn [mapM bind]. rewrite !M. cbn [bind]. repeat f_equal; ring.
Qed.
Print Assumptions C106_dual_cell.

(** The intended meaning would be that the two vectors list the coordinates of the unit vectors (the cell) with respect to the basis.  They do so
    exactly if the matrix of the basis is symmetric. *)
Theorem C106_coordinates x y p q : point 2 x -> point 2 y -> point 2 p -> point 2 q -> dual x y p q ->
  (coordinates_of x y [1; 0]%Qc p /\ coordinates_of x y [0; 1]%Qc q <-> coordinate 1 x = coordinate 0 y).
Proof.
  destruct x as [|a [|b [|]]]; try discriminate 1. destruct y as [|c [|d [|]]]; try discriminate 2. destruct p as [|k [|l [|]]]; try discriminate 3. destruct q as [|m [|n [|]]]; try discriminate 4.
  intros _ _ _ _ (H1 & H2 & H3 & H4). unfold euclid in *. cbn [combine fold_right fst snd] in *. unfold coordinates_of, plus, multiple, from_coordinates, coordinate. cbn [seq map nth].
  assert (D : ((a * d - b * c) * (k * n - l * m))%Qc = 1%Qc). { transitivity ((a * k + (b * l + 0)) * (c * m + (d * n + 0)) - (a * m + (b * n + 0)) * (c * k + (d * l + 0)))%Qc; [ring|]. rewrite H1, H2, H3, H4. ring. }
  split.
  - intros [E1 E2]. apply (f_equal (fun v => hd 0%Qc v)) in E1. apply (f_equal (fun v => hd 0%Qc v)) in E2. cbn [hd] in E1, E2.
    assert (Z1 : ((c - b) * l)%Qc = 0%Qc). { transitivity ((k * a + l * c) - (a * k + (b * l + 0)))%Qc; [ring|]. rewrite E1, H1. ring. }
    assert (Z2 : ((c - b) * n)%Qc = 0%Qc). { transitivity ((m * a + n * c) - (a * m + (b * n + 0)))%Qc; [ring|]. rewrite E2, H2. ring. }
    assert (Z : (c - b)%Qc = 0%Qc). { transitivity ((a * d - b * c) * (k * ((c - b) * n) - m * ((c - b) * l)))%Qc; [|rewrite Z1, Z2; ring]. transitivity ((c - b) * ((a * d - b * c) * (k * n - l * m)))%Qc; [rewrite D|]; ring. }
    transitivity (c - (c - b))%Qc; [ring|]. rewrite Z. ring.
  - intros <-. split; (apply (f_equal2 cons); [|apply (f_equal2 cons)]); auto; [rewrite <- H1|rewrite <- H3|rewrite <- H2|rewrite <- H4]; ring.
Qed.
Print Assumptions C106_coordinates.

(** Finding: for the group 6mm in the coordinates of this example the cell that is handed on is not given in coordinates of the basis. *)
Definition still (m : mat Qc) : @affine Qc := Affine m (Mat 2 1 [0; 0]%Qc).
Lemma still_lin ms : map lin (map still ms) = ms. Proof. rewrite map_map. cbn [still lin]. apply map_id. Qed.
Lemma still_shift ms : Forall (fun op => nrows (shift op) = 2 /\ length (data (shift op)) = 2) (map still ms).
Proof. apply Forall_forall. intros op H. apply in_map_iff in H as (m & <- & _). split; reflexivity. Qed.
Theorem C106_coordinates_refuted : exists ops x y p q mx my mp mq, finite_group (map lin ops) /\ NoDup (map lin ops) /\
  crystal_system_and_basis_2d (map lin ops) = Ret (Hexagonal, [mx; my]) /\ primitive_cell ops = Ret [Mat 2 1 [1; 0]%Qc; Mat 2 1 [0; 1]%Qc] /\ plane_cell ops = Ret (Hexagonal, [mp; mq]) /\
  mat_col x = Ret mx /\ mat_col y = Ret my /\ mat_col p = Ret mp /\ mat_col q = Ret mq /\
  ~ (coordinates_of x y [1; 0]%Qc p /\ coordinates_of x y [0; 1]%Qc q).
Proof.
  destruct C66_example_groups as (_ & _ & G). destruct C66_example_nodup as [_ N]. destruct C66_example as (_ & _ & S).
  destruct (C106_dual_cell (map still g6mm)) as (s & x & y & mx & my & p & q & mp & mq & E & Px & Py & Ex & Ey & Ec & Pp & Pq & Ep & Eq & Du); rewrite ?still_lin; auto; [apply still_shift|].
  rewrite still_lin in E. rewrite E in S. cbn [shown map] in S. injection S as -> Sx Sy.
  assert (Dx : forall v mv, point 2 v -> mat_col v = Ret mv -> data mv = v). { intros [|a [|b [|]]] mv P H; try discriminate P. injection H as <-. reflexivity. }
  rewrite (Dx x mx Px Ex) in Sx. rewrite (Dx y my Py Ey) in Sy.
  exists (map still g6mm), x, y, p, q, mx, my, mp, mq. rewrite !still_lin. splits; auto.
  rewrite (C106_coordinates x y p q Px Py Pp Pq Du). rewrite Sx, Sy. intros C. discriminate C.
Qed.
Print Assumptions C106_coordinates_refuted.

(** ** The identification never hangs: for every such list of operations there is an amount of fuel from which on it ends, with a panic. *)
Definition planar (s : crystal_system) : Prop := In s [Oblique; Rectangular; Square; Hexagonal].
Lemma system_planar ops s b : finite_group ops -> crystal_system_and_basis_2d ops = Ret (s, b) -> planar s.
Proof.
  intros G E. destruct (group_gs ops G) as [Eg G2]. rewrite Eg in E. destruct (crystal_total _ G2) as (s' & b' & E' & S). rewrite E' in E. injection E as -> _. unfold planar. cbn [In]. destruct s; cbn [system_spec] in S; tauto.
Qed.
Lemma normalized_total s vs cols : planar s -> is_basis 2 vs -> columns vs cols -> exists enough u w c, forall fuel, enough <= fuel -> normalized_basis_2d fuel s cols = Ret ([col2 u; col2 w], c).
Proof.
  intros Pl B C. destruct (reduced2 vs B) as (k & u & w & E & _).
  assert (N : forall fuel, k <= fuel -> normalized_basis_2d fuel s cols = match s with
    | Oblique => Ret ([col2 u; col2 w], Primitive2d)
    | Rectangular => if negb (Qc_eqb (wx u) 0%Qc) && negb (Qc_eqb (wy u) 0%Qc) then Ret ([col2 (cy u); col2 (cx u)], Centered2d) else
        if negb (Qc_eqb (wx w) 0%Qc) && negb (Qc_eqb (wy w) 0%Qc) then Ret ([col2 (cy w); col2 (cx w)], Centered2d) else
        if negb (negb (Qc_eqb (wy u) 0%Qc)) then Ret ([col2 w; col2 (neg_v u)], Primitive2d) else Ret ([col2 u; col2 w], Primitive2d)
    | Square => Ret ([col2 u; col2 (rot u)], Primitive2d)
    | Hexagonal => Ret ([col2 u; col2 (third u)], Primitive2d)
    | _ => Panic end).
  { intros fuel Hf. unfold normalized_basis_2d. rewrite (from_columns_ok vs cols (ba_points 2 vs B) C), (E fuel Hf). cbn [bind unwrap nth_error].
    rewrite both_nz_lv, as_columns_lv, (two_columns_lv _ _ u u _ _ (apply_xy u) (apply_rot u)), (two_columns_lv _ _ u u _ _ (apply_xy u) (apply_third u)). cbn [bind].
    rewrite (two_columns_lv _ _ u u _ _ (apply_cy u) (apply_cx u)). cbn [bind]. destruct s; auto. destruct (negb (Qc_eqb (wx u) 0%Qc) && negb (Qc_eqb (wy u) 0%Qc)); auto.
    rewrite both_nz_lv. cbn [bind]. rewrite (two_columns_lv _ _ w w _ _ (apply_cy w) (apply_cx w)). cbn [bind]. destruct (negb (Qc_eqb (wx w) 0%Qc) && negb (Qc_eqb (wy w) 0%Qc)); auto.
    rewrite nz_lv. cbn [bind]. rewrite (two_columns_lv _ _ w u _ _ (apply_xy w) (apply_neg u)). cbn [bind]. destruct (negb (negb (Qc_eqb (wy u) 0%Qc))); auto. }
  exists k. destruct s; try (exfalso; unfold planar in Pl; cbn [In] in Pl; intuition discriminate); try (do 3 eexists; exact N).
  destruct (negb _ && negb _); [|destruct (negb _ && negb _); [|destruct (negb (negb _))]]; do 3 eexists; exact N.
Qed.
Theorem C106_panics ops : finite_group (map lin ops) -> NoDup (map lin ops) -> Forall (fun op => nrows (shift op) = 2 /\ length (data (shift op)) = 2) ops ->
  exists enough, forall fuel, enough <= fuel -> identify_spacegroup_2d fuel ops = Panic.
Proof.
  intros G N F. destruct (C106_dual_cell ops G N F) as (s & x & y & mx & my & p & q & mp & mq & E & Px & Py & Ex & Ey & Ec & Pp & Pq & Ep & Eq & Du).
  pose proof (system_planar _ _ _ G E) as Pl.
  destruct (point_lv x Px) as (x' & ->). destruct (point_lv y Py) as (y' & ->). destruct (point_lv p Pp) as (p' & ->). destruct (point_lv q Pq) as (q' & ->).
  injection Ex as <-. injection Ey as <-. injection Ep as <-. injection Eq as <-.
  assert (B : is_basis 2 [lv p'; lv q']).
  { apply is_basis_ar. destruct Du as (H1 & H2 & H3 & H4). unfold euclid, lv in *. cbn [combine fold_right fst snd] in *. intros Z. unfold ar in Z.
    assert (D : ((wx x' * wy y' - wy x' * wx y') * (wx p' * wy q' - wy p' * wx q'))%Qc = 1%Qc).
    { transitivity ((wx x' * wx p' + (wy x' * wy p' + 0)) * (wx y' * wx q' + (wy y' * wy q' + 0)) - (wx x' * wx q' + (wy x' * wy q' + 0)) * (wx y' * wx p' + (wy y' * wy p' + 0)))%Qc; [ring|]. rewrite H1, H2, H3, H4. ring. }
    rewrite Z in D. revert D. rewrite Qcmult_0_r. discriminate. }
  destruct (normalized_total s _ _ Pl B (columns_lv p' q')) as (k & u & w & c & En). exists k. intros fuel Hf.
  unfold plane_cell in Ec. unfold identify_spacegroup_2d. rewrite E in *. cbn [bind fst snd] in *.
  change {| nrows := 2; ncols := 1; data := lv x' |} with (col2 x') in *. change {| nrows := 2; ncols := 1; data := lv y' |} with (col2 y') in *.
  change {| nrows := 2; ncols := 1; data := lv p' |} with (col2 p') in *. change {| nrows := 2; ncols := 1; data := lv q' |} with (col2 q') in *.
  assert (Eh : hstack [col2 x'; col2 y'] = Ret (Mat 2 2 [wx x'; wx y'; wy x'; wy y'])) by reflexivity. rewrite Eh in *. cbn [bind] in *.
  destruct (transpose (Mat 2 2 [wx x'; wx y'; wy x'; wy y'])) as [t| |]; cbn [bind] in *; try discriminate Ec.
  destruct (inverse t) as [i| |]; cbn [bind] in *; try discriminate Ec. destruct (unwrap i) as [m| |]; cbn [bind] in *; try discriminate Ec.
  destruct (primitive_cell ops) as [cell| |]; cbn [bind] in *; try discriminate Ec. destruct (mapM (mat_mul m) cell) as [pcell| |]; cbn [bind] in *; try discriminate Ec.
  assert (Epc : pcell = [col2 p'; col2 q']) by (injection Ec; auto). subst pcell. rewrite (En fuel Hf). cbn [bind fst].
  change (hstack [col2 u; col2 w]) with (Ret (Mat 2 2 [wx u; wx w; wy u; wy w])). cbn [bind].
  change (Mat 2 2 [wx u; wx w; wy u; wy w]) with (mk (R := Qc) 2 2 (fun i j => nth (i * 2 + j) [wx u; wx w; wy u; wy w] 0%Qc)).
  change (Mat 2 2 [wx x'; wx y'; wy x'; wy y']) with (mk (R := Qc) 2 2 (fun i j => nth (i * 2 + j) [wx x'; wx y'; wy x'; wy y'] 0%Qc)).
  rewrite mat_mul_mk by lia. cbn [bind]. rewrite transpose_mk by lia. cbn [bind].
  match goal with |- context [inverse (mk 2 2 ?g)] => destruct (inverse_correct (R := Qc) 2 g ltac:(lia)) as [(z & Ei & _)|[Ei _]] end; rewrite Ei; cbn [bind unwrap]; auto.
  unfold cmap_from. rewrite aff_from_am. cbn [bind]. unfold cmap_new.
  destruct (inverse_correct (R := Qc) 2 z ltac:(lia)) as [(z' & Ez & _)|[Ez _]].
  - rewrite (aff_inverse_some 2 z _ z' ltac:(lia) Ez). reflexivity.
  - rewrite (aff_inverse_none 2 z _ Ez). reflexivity.
Qed.
Print Assumptions C106_panics.
(** the group 6mm meets the hypotheses *)
Example C106_case : let ops := map still g6mm in finite_group (map lin ops) /\ NoDup (map lin ops) /\ Forall (fun op => nrows (shift op) = 2 /\ length (data (shift op)) = 2) ops.
Proof. cbv zeta. rewrite still_lin. split; [apply C66_example_groups|split; [apply C66_example_nodup|apply still_shift]]. Qed.

(** ** Finding: for the plane group p3m1, with the operations as they are in the table of the crate, the vectors that the identification normalizes to do
    not generate the cell: the second of them is not in its lattice. *)
Definition p3m1_lines : list string := ["x,y"; "-y,x-y"; "-x+y,-x"; "-y,-x"; "-x+y,y"; "x,x-y"]%string.
Theorem C106_p3m1_refuted : exists ops mp mq mu mw, Forall2 (fun t op => aff_from_string (str t) = Ret (Some op)) p3m1_lines ops /\
  finite_group (map lin ops) /\ NoDup (map lin ops) /\ plane_cell ops = Ret (Hexagonal, [mp; mq]) /\
  (forall fuel, 10 <= fuel -> classify_2d fuel ops = Ret (Hexagonal, [mu; mw], Primitive2d)) /\
  in_lattice 2 [data mp; data mq] (data mu) /\ ~ in_lattice 2 [data mp; data mq] (data mw).
Proof.
  pose (ms := map (qmat 2) [[1; 0; 0; 1]; [0; -1; 1; -1]; [-1; 1; -1; 0]; [0; -1; -1; 0]; [-1; 1; 0; 1]; [1; 0; 1; -1]]%Z).
  pose (t := fun n : Z => (ZQ n / ZQ 3)%Qc).
  exists (map still ms), (col2 (V2 (t 1) (t (-2)))%Z), (col2 (V2 (t 1) (t 1))%Z), (col2 (V2 (t (-1)) (t (-1)))%Z), (col2 (V2 (t 1) (t 0))%Z).
  split; [repeat constructor; qc_compute|]. rewrite still_lin. split; [apply closed_ok; vm_compute; reflexivity|]. split.
  { unfold ms. apply FinFun.Injective_map_NoDup; [|repeat (constructor; [cbn; intuition discriminate|]); constructor].
    intros u v H. assert (E : map ZQ u = map ZQ v) by exact (f_equal data H). revert v E H. induction u as [|x u IH]; intros [|y v] E _; try discriminate E; auto. cbn [map] in E.
    assert (E1 : ZQ x = ZQ y) by exact (f_equal (fun l => hd 0%Qc l) E). assert (E2 : map ZQ u = map ZQ v) by exact (f_equal (@tl Qc) E). f_equal; [apply ZQ_inj; auto|apply IH; auto; unfold qmat; rewrite E2; auto]. }
  assert (Ec : plane_cell (map still ms) = Ret (Hexagonal, [col2 (V2 (t 1) (t (-2)))%Z; col2 (V2 (t 1) (t 1))%Z])) by qc_compute.
  split; [exact Ec|]. split; [|split].
  - intros fuel Hf. unfold classify_2d. rewrite Ec. cbn [bind fst snd].
    rewrite (normalized_mono 10 fuel _ _ ([col2 (V2 (t (-1)) (t (-1)))%Z; col2 (V2 (t 1) (t 0))%Z], Primitive2d) Hf); [reflexivity|qc_compute].
  - change (in_lattice 2 [lv (V2 (t 1) (t (-2)))%Z; lv (V2 (t 1) (t 1))%Z] (lv (V2 (t (-1)) (t (-1)))%Z)). rewrite in_lattice_lat2. exists 0%Z, (-1)%Z. qc_compute.
  - change (~ in_lattice 2 [lv (V2 (t 1) (t (-2)))%Z; lv (V2 (t 1) (t 1))%Z] (lv (V2 (t 1) (t 0))%Z)). rewrite in_lattice_lat2. intros (a & b & H). pose proof (f_equal wx H) as H1. pose proof (f_equal wy H) as H2. cbn [comb2 wx wy] in H1, H2. unfold t in *.
    assert (N : ZQ 3 <> 0%Qc) by (intros C; discriminate C).
    assert (K1 : (ZQ 1 = ZQ a + ZQ b)%Qc). { apply (f_equal (fun q => (ZQ 3 * q)%Qc)) in H1. change (ZQ 1) with 1%Qc in *. transitivity (ZQ 3 * (1 / ZQ 3))%Qc; [field; auto|]. rewrite H1. field. auto. }
    assert (K2 : (ZQ 0 = - ZQ 2 * ZQ a + ZQ b)%Qc). { apply (f_equal (fun q => (ZQ 3 * q)%Qc)) in H2. change (ZQ (-2)) with (- ZQ 2)%Qc in *. change (ZQ 1) with 1%Qc in *. change (ZQ 0) with 0%Qc in *. transitivity (ZQ 3 * (0 / ZQ 3))%Qc; [field; auto|]. rewrite H2. field. auto. }
    rewrite <- ZQ_add in K1. rewrite <- ZQ_opp, <- ZQ_mul, <- ZQ_add in K2. apply ZQ_inj in K1, K2. lia.
Qed.
Print Assumptions C106_p3m1_refuted.

(** ** Finding: the centering that is found depends on the coordinates.  The two lists of this theorem are the same group, a mirror whose lattice is centered rectangular,
    in coordinates of two bases of the same lattice; the change of coordinates u is integral, with an integral inverse v. *)
Definition integral_matrix (m : mat Qc) : Prop := Forall (fun q => exists z, q = ZQ z) (data m).
Definition rewritten (u a b : mat Qc) : Prop := exists m, mat_mul u a = Ret m /\ mat_mul b u = Ret m.
Lemma classify_from ops s pc nb c : plane_cell ops = Ret (s, pc) -> normalized_basis_2d 10 s pc = Ret (nb, c) -> forall fuel, 10 <= fuel -> classify_2d fuel ops = Ret (s, nb, c).
Proof. intros E1 E2 fuel Hf. unfold classify_2d. rewrite E1. cbn [bind fst snd]. rewrite (normalized_mono 10 fuel _ _ _ Hf E2). reflexivity. Qed.
Theorem C106_coordinates_matter : exists ops ops' u v e nb nb', let ok l := finite_group (map lin l) /\ NoDup (map lin l) /\ Forall (fun op => shift op = Mat 2 1 [0; 0]%Qc) l /\ Forall integral_matrix (map lin l) in
  ok ops /\ ok ops' /\ integral_matrix u /\ integral_matrix v /\ is_identity 2 e /\ mat_mul u v = Ret e /\ mat_mul v u = Ret e /\
  Forall2 (rewritten u) (map lin ops) (map lin ops') /\
  (forall fuel, 10 <= fuel -> classify_2d fuel ops = Ret (Rectangular, nb, Centered2d)) /\
  (forall fuel, 10 <= fuel -> classify_2d fuel ops' = Ret (Rectangular, nb', Primitive2d)).
Proof.
  pose (l1 := map (qmat 2) [[1; 0; 0; 1]; [0; 1; 1; 0]]%Z). pose (l2 := map (qmat 2) [[1; 0; 0; 1]; [-1; 1; 0; 1]]%Z).
  assert (Int : forall zs, integral_matrix (qmat 2 zs)). { intros zs. apply Forall_forall. intros q H. apply in_map_iff in H as (z & <- & _). eauto. }
  assert (O : forall zs, closed_check (map (qmat 2) zs) = true -> NoDup (map (qmat 2) zs) -> let l := map still (map (qmat 2) zs) in
    finite_group (map lin l) /\ NoDup (map lin l) /\ Forall (fun op => shift op = Mat 2 1 [0; 0]%Qc) l /\ Forall integral_matrix (map lin l)).
  { intros zs C D. cbv zeta. rewrite still_lin. split; [apply closed_ok; auto|]. split; auto. split.
    - apply Forall_forall. intros op H. apply in_map_iff in H as (m & <- & _). reflexivity.
    - apply Forall_forall. intros m H. apply in_map_iff in H as (z & <- & _). apply Int. }
  pose (h := fun n : Z => (ZQ n / ZQ 2)%Qc).
  exists (map still l1), (map still l2), (qmat 2 [1; 0; 1; 1]%Z), (qmat 2 [1; 0; -1; 1]%Z), (qmat 2 [1; 0; 0; 1]%Z), [col2 (V2 (h 0) (h 2))%Z; col2 (V2 (h 2) (h 0))%Z], [col2 (V2 (h 0) (h 1))%Z; col2 (V2 (h (-2)) (h 0))%Z].
  cbv zeta. split; [|split].
  - apply O; [vm_compute; reflexivity|]. repeat constructor; cbn; [|auto]. intros [C|[]]. discriminate C.
  - apply O; [vm_compute; reflexivity|]. repeat constructor; cbn; [|auto]. intros [C|[]]. discriminate C.
  - split; [apply Int|]. split; [apply Int|]. split; [reflexivity|]. split; [qc_compute|]. split; [qc_compute|]. split; [|split].
    + rewrite !still_lin. unfold l1, l2. cbn [map]. repeat apply Forall2_cons; [| |apply Forall2_nil]; eexists; split; qc_compute.
    + apply (classify_from _ _ [col2 (V2 (h 1) (h 1))%Z; col2 (V2 (h (-1)) (h 1))%Z]); qc_compute.
    + apply (classify_from _ _ [col2 (V2 (h 0) (h 1))%Z; col2 (V2 (h (-2)) (h 1))%Z]); qc_compute.
Qed.
Print Assumptions C106_coordinates_matter.
