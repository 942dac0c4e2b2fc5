(** Lattice reduction with a tolerance: the vectors found still form a basis of the lattice. *)
From Coq Require Import List ZArith Lia Bool PeanoNat QArith Qcanon Qround Sorting.Permutation Sorting.Sorted.
From Verif Require Import Base Vec Elim Scalars ZQ QcTac OrdSet Lattices RatLattice Reduce Voronoi ReducedBasis.
From Verif Require RankQ.
Import ListNotations.
Close Scope Q_scope. Close Scope Qc_scope.
Open Scope nat_scope.
Notation rk := RankQ.rk.

(** ** sums of subsets, up to the sign *)
Fixpoint cube (m : nat) : list (list Z) :=
  match m with
  | O => [[]]
  | S m => flat_map (fun c => [(-1)%Z :: c; 0%Z :: c; 1%Z :: c]) (cube m)
  end.
Definition zl_eqb (a b : list Z) : bool := if list_eq_dec Z.eq_dec a b then true else false.
Lemma zl_eqb_eq a b : zl_eqb a b = true -> a = b.
Proof. unfold zl_eqb. destruct (list_eq_dec Z.eq_dec a b); auto. discriminate. Qed.
Definition related (m : nat) (cs : list (list Z)) : bool :=
  existsb (fun z => (length z =? length cs) && negb (zl_eqb z (repeat 0%Z (length cs))) && zl_eqb (lincomb (R := Z) m z cs) (repeat 0%Z m)) (cube (length cs)).
Definition unimodular (m : nat) (cs : list (list Z)) : bool :=
  forallb (fun i => existsb (fun z => (length z =? length cs) && zl_eqb (lincomb (R := Z) m z cs) (vunit (R := Z) m i)) (cube (length cs))) (seq 0 m).
(** three vectors of index 2, with the same sum of squares as the four that are missing *)
Definition quad (c : list Z) : list Z :=
  match c with [x; y; z] => [x * x; y * y; z * z; x * y; x * z; y * z]%Z | _ => [] end.
Definition others : list (list Z) := [[1; 0; 0]; [0; 1; 0]; [0; 0; 1]; [1; 1; 1]]%Z.
Definition index2 (cs : list (list Z)) : bool :=
  match cs with
  | [c0; c1; c2] => zl_eqb (zipw (R := Z) Z.add (zipw (R := Z) Z.add (quad c0) (quad c1)) (quad c2)) [2; 2; 2; 1; 1; 1]%Z &&
      forallb (fun y => existsb (fun z => match z with [z0; z1; z2] => negb (z2 =? 0)%Z && zl_eqb (lincomb (R := Z) 3 z cs) (map (Z.mul 2) y) | _ => false end) (cube 3)) others
  | _ => false
  end.
Definition signed (l : list (list Z)) : list (list Z) := l ++ map (map Z.opp) l.
Definition subsets2 : list (list Z) := [[1; 0]; [0; 1]; [1; 1]]%Z.
Definition subsets3 : list (list Z) := [[1; 0; 0]; [0; 1; 0]; [0; 0; 1]; [1; 1; 0]; [1; 0; 1]; [0; 1; 1]; [1; 1; 1]]%Z.
Lemma pairs_ok : forallb (fun c0 => forallb (fun c1 => related 2 [c0; c1] || unimodular 2 [c0; c1]) (signed subsets2)) (signed subsets2) = true.
Proof. vm_compute. reflexivity. Qed.
Lemma triples_ok : forallb (fun c0 => forallb (fun c1 => forallb (fun c2 => related 3 [c0; c1; c2] || unimodular 3 [c0; c1; c2] || index2 [c0; c1; c2])
  (signed subsets3)) (signed subsets3)) (signed subsets3) = true.
Proof. vm_compute. reflexivity. Qed.

Definition subsets (m : nat) : list (list Z) := match m with 1 => [[1]]%Z | 2 => subsets2 | 3 => subsets3 | _ => [] end.
Lemma subset_len n : 1 <= n <= 3 -> Forall (fun c => length c = n) (subsets n).
Proof. intros H. destruct n as [|[|[|[|]]]]; try lia; repeat constructor. Qed.
Lemma subset_units n : 1 <= n <= 3 -> forall k, k < n -> In (vunit (R := Z) n k) (subsets n).
Proof. intros H k Hk. destruct n as [|[|[|[|]]]]; try lia; destruct k as [|[|[|]]]; try lia; cbn; auto. Qed.

(** ** combinations of combinations *)
Section P.
  Variables (n : nat) (base : list qvec).
  Hypothesis Lb : lens n base.
  Notation m := (length base).
  Definition P (c : list Z) : qvec := lincomb n (map ZQ c) base.
  Lemma P_length c : length (P c) = n.
  Proof. apply (lincomb_length (R := Qc)); auto. Qed.
  Lemma P_zero : P (repeat 0%Z m) = repeat 0%Qc n.
  Proof.
    unfold P. replace (map ZQ (repeat 0%Z m)) with (vzero (R := Qc) m); [exact (lincomb_zero (R := Qc) n base Lb)|].
    unfold vzero. generalize (length base). intros k. induction k as [|k IH]; [reflexivity|]. cbn [map repeat]. rewrite <- IH. reflexivity.
  Qed.
  Lemma P_add c d : length c = m -> length d = m -> P (vadd (R := Z) c d) = ladd (P c) (P d).
  Proof.
    intros Lc Ld. unfold P. rewrite <- vadd_ladd, (lincomb_add (R := Qc)) by (rewrite ?map_length; congruence). f_equal.
    assert (E : length c = length d) by congruence. clear -E. revert d E. unfold vadd. induction c as [|x c IH]; intros [|y d] E; try discriminate; auto.
    cbn [map zipw]. rewrite <- IH by (cbn in E; lia). f_equal. cbn. apply ZQ_add.
  Qed.
  Lemma P_scale z c : P (vscale (R := Z) z c) = lmulc (P c) (ZQ z).
  Proof.
    unfold P. rewrite <- vscale_lmulc, (lincomb_scale (R := Qc)). f_equal. unfold vscale. rewrite !map_map. apply map_ext. intros x. cbn. apply ZQ_mul.
  Qed.
  Lemma P_comb zs cs : Forall (fun c => length c = m) cs -> length zs = length cs -> lincomb n (map ZQ zs) (map P cs) = P (lincomb (R := Z) m zs cs).
  Proof.
    intros F. revert zs. induction F as [|c cs Hc F IH]; intros [|z zs] E; try discriminate; cbn [map lincomb].
    - rewrite vzero_rep. symmetry. exact P_zero.
    - rewrite IH by (cbn in E; lia). rewrite vadd_ladd, vscale_lmulc, <- P_scale, P_add; auto; [unfold vscale; rewrite map_length; auto|].
      apply (lincomb_length (R := Z)). exact F.
  Qed.
  Lemma P_unit k v : nth_error base k = Some v -> P (vunit (R := Z) m k) = v.
  Proof.
    intros E. unfold P. rewrite <- (lincomb_unit (R := Qc) n base k v Lb E). f_equal. unfold vunit. rewrite map_map. apply map_ext. intros j. destruct (j =? k); reflexivity.
  Qed.
  Lemma P_in c : length c = m -> zcomb n base (P c).
  Proof. intros L. exists c. split; auto. Qed.

  (** a relation contradicts independence *)
  Lemma related_dep cs : Forall (fun c => length c = m) cs -> related m cs = true -> rk n (map P cs) = length cs -> False.
  Proof.
    intros F H R. apply existsb_exists in H as (z & _ & H). apply andb_true_iff in H as [H E]. apply andb_true_iff in H as [Lz N]. apply Nat.eqb_eq in Lz.
    apply zl_eqb_eq in E. assert (L : lens n (map P cs)) by (apply Forall_forall; intros x Hx; apply in_map_iff in Hx as (c & <- & _); apply P_length).
    pose proof (P_comb z cs F Lz) as Ez. rewrite E, P_zero, <- vzero_rep in Ez. apply (@RankQ.rk_indep) in Ez; auto; [|rewrite map_length; auto|rewrite !map_length; auto].
    apply negb_true_iff in N. unfold zl_eqb in N. destruct (list_eq_dec Z.eq_dec z (repeat 0%Z (length cs))) as [|D]; [discriminate|]. apply D. rewrite map_length in Ez.
    clear -Ez Lz. revert z Ez Lz. unfold vzero. induction (length cs) as [|k IH]; intros [|x z] E L; try discriminate; auto. cbn [map repeat] in *. pose proof (f_equal (hd 0%Qc) E) as E1. pose proof (f_equal (@tl Qc) E) as E2. cbn [hd tl] in E1, E2.
    f_equal; [|apply IH; auto]. apply ZQ_inj. exact E1.
  Qed.
  (** a unimodular combination generates the same lattice *)
  Lemma unimodular_same cs : Forall (fun c => length c = m) cs -> unimodular m cs = true -> same_lattice n base (map P cs).
  Proof.
    intros F H. assert (L : lens n (map P cs)) by (apply Forall_forall; intros x Hx; apply in_map_iff in Hx as (c & <- & _); apply P_length).
    unfold same_lattice. splits; auto.
    - intros v Hv. apply In_nth_error in Hv as (k & Ek). assert (Hk : k < m) by (apply nth_error_Some; congruence). unfold unimodular in H. rewrite forallb_forall in H.
      pose proof (H k ltac:(apply in_seq; lia)) as Hk'. apply existsb_exists in Hk' as (z & _ & Hz). apply andb_true_iff in Hz as [Lz E]. apply Nat.eqb_eq in Lz. apply zl_eqb_eq in E.
      exists z. rewrite map_length. split; auto. rewrite P_comb, E by auto. symmetry. apply P_unit. auto.
    - intros w Hw. apply in_map_iff in Hw as (c & <- & Hc). apply P_in. rewrite Forall_forall in F. auto.
  Qed.
End P.

Section D.
  Variables (n : nat) (dot : qvec -> qvec -> Qc).
  Hypothesis dsym : forall x y, length x = n -> length y = n -> dot x y = dot y x.
  Hypothesis dadd : forall x y z, length x = n -> length y = n -> length z = n -> dot (ladd x y) z = (dot x z + dot y z)%Qc.
  Hypothesis dmul : forall x t z, length x = n -> length z = n -> dot (lmulc x t) z = (t * dot x z)%Qc.
  Hypothesis dpos : forall x, length x = n -> x <> repeat 0%Qc n -> (0 < dot x x)%Qc.
  Notation zero := (repeat 0%Qc n).
  Notation norm x := (dot x x).
  Notation nle := (fun v w => (dot v v <= dot w w)%Qc).
  Let dneg := dneg n dot dmul.
  Let dsub := dsub n dot dadd dmul.
  Let dzero := dzero n dot dmul.
  Let dadd_r := dadd_r n dot dsym dadd.
  Let dmul_r := dmul_r n dot dsym dmul.
  Let dneg_r := dneg_r n dot dsym dmul.
  Let dsub_r := dsub_r n dot dsym dadd dmul.
  Let dzero_r := dzero_r n dot dsym dmul.
  Let norm_nonneg := norm_nonneg n dot dmul dpos.
  Ltac dexp := repeat first [rewrite dadd by vlen | rewrite dsub by vlen | rewrite dmul by vlen | rewrite dneg by vlen | rewrite dzero by vlen
    | rewrite dadd_r by vlen | rewrite dsub_r by vlen | rewrite dmul_r by vlen | rewrite dneg_r by vlen | rewrite dzero_r by vlen].

  Lemma norm_P u v w x y z : length u = n -> length v = n -> length w = n ->
    norm (P n [u; v; w] [x; y; z]) =
    (ZQ (x * x) * norm u + ZQ (y * y) * norm v + ZQ (z * z) * norm w + ZQ (x * y) * (dot u v + dot u v) + ZQ (x * z) * (dot u w + dot u w) + ZQ (y * z) * (dot v w + dot v w))%Qc.
  Proof.
    intros Lu Lv Lw. unfold P. cbn [map lincomb]. rewrite !vadd_ladd, !vscale_lmulc, vzero_rep. dexp. rewrite (dsym v u), (dsym w u), (dsym w v) by auto. rewrite !ZQ_mul. ring.
  Qed.
  Lemma norm_quad u v w cs : length u = n -> length v = n -> length w = n -> length cs = 3 -> exists q, quad cs = q /\ length q = 6 /\
    norm (P n [u; v; w] cs) = (ZQ (nth 0 q 0%Z) * norm u + ZQ (nth 1 q 0%Z) * norm v + ZQ (nth 2 q 0%Z) * norm w + ZQ (nth 3 q 0%Z) * (dot u v + dot u v) + ZQ (nth 4 q 0%Z) * (dot u w + dot u w) + ZQ (nth 5 q 0%Z) * (dot v w + dot v w))%Qc.
  Proof.
    intros Lu Lv Lw Lc. destruct cs as [|x [|y [|z [|]]]]; try discriminate. eexists. split; [reflexivity|]. split; [reflexivity|]. cbn [nth]. apply norm_P; auto.
  Qed.

  (** the vectors of [a] come from [ws] and are minimal in [ws]: with the sums of subsets for [ws], they generate the lattice *)
  Lemma from_P base l a : Forall (fun c => length c = length base) l -> (forall b, In b a -> from (fun w => In w (map (P n base) l)) b) -> lens n base ->
    exists cs, a = map (P n base) cs /\ incl cs (signed l) /\ Forall (fun c => length c = length base) cs.
  Proof.
    intros Fl H Lb. induction a as [|b a IH]; [exists []; splits; auto; intros x []|].
    destruct IH as (cs & -> & I & F); [intros; apply H; right; auto|]. destruct (H b (or_introl eq_refl)) as (w & Hw & Eb). apply in_map_iff in Hw as (c & <- & Hc).
    assert (Lc : length c = length base) by (rewrite Forall_forall in Fl; auto).
    destruct Eb as [->| ->].
    - exists (c :: cs). splits; auto. intros x [<-|Hx]; auto. apply in_app_iff. auto.
    - exists (map Z.opp c :: cs). splits; auto.
      + cbn [map]. f_equal. assert (E : map Z.opp c = vscale (R := Z) (-1)%Z c) by (unfold vscale; apply map_ext; intros z; change (rmul (-1)%Z z) with (-1 * z)%Z; lia). rewrite E, P_scale.
        pose proof (P_length n base Lb c). change (ZQ (-1)) with (- (1))%Qc. vring n.
      + intros x [<-|Hx]; auto. apply in_app_iff. right. apply in_map. auto.
      + constructor; auto. rewrite map_length. auto.
  Qed.

  Lemma greedy2 u v a : lens n [u; v] -> rk n a = 2 -> length a = 2 -> (forall b, In b a -> from (fun w => In w (map (P n [u; v]) subsets2)) b) -> same_lattice n [u; v] a.
  Proof.
    intros L R La H. destruct (from_P [u; v] subsets2 a ltac:(repeat constructor) H L) as (cs & -> & I & F).
    rewrite map_length in La. destruct cs as [|c0 [|c1 [|]]]; try discriminate La. pose proof pairs_ok as Pk. rewrite forallb_forall in Pk.
    specialize (Pk c0 (I c0 ltac:(simpl; auto))). cbn beta in Pk. rewrite forallb_forall in Pk. specialize (Pk c1 (I c1 ltac:(simpl; auto))). apply orb_true_iff in Pk as [Pk|Pk].
    - exfalso. apply (related_dep n [u; v] L [c0; c1]); auto.
    - apply unimodular_same; auto.
  Qed.

  Lemma greedy3 u v w a : lens n [u; v; w] -> rk n a = 3 -> length a = 3 -> (forall b, In b a -> from (fun x => In x (map (P n [u; v; w]) subsets3)) b) ->
    StronglySorted nle a -> minima n dot (fun x => In x (map (P n [u; v; w]) subsets3)) a -> same_lattice n [u; v; w] a.
  Proof.
    intros L R La H So Hm. destruct (from_P [u; v; w] subsets3 a ltac:(repeat constructor) H L) as (cs & -> & I & F).
    rewrite map_length in La. destruct cs as [|c0 [|c1 [|c2 [|]]]]; try discriminate La. pose proof triples_ok as Pk. rewrite forallb_forall in Pk.
    specialize (Pk c0 (I c0 ltac:(simpl; auto))). cbn beta in Pk. rewrite forallb_forall in Pk. specialize (Pk c1 (I c1 ltac:(simpl; auto))).
    cbn beta in Pk. rewrite forallb_forall in Pk. specialize (Pk c2 (I c2 ltac:(simpl; auto))). apply orb_true_iff in Pk as [Pk|Pk]; [apply orb_true_iff in Pk as [Pk|Pk]|].
    - exfalso. apply (related_dep n [u; v; w] L [c0; c1; c2]); auto.
    - apply unimodular_same; auto.
    - exfalso. cbn [index2] in Pk. apply andb_true_iff in Pk as [Q O]. apply zl_eqb_eq in Q. rewrite forallb_forall in O.
      assert (Lu : length u = n) by (eapply lens_In; [exact L|simpl; auto]). assert (Lv : length v = n) by (eapply lens_In; [exact L|simpl; auto]). assert (Lw : length w = n) by (eapply lens_In; [exact L|simpl; auto]).
      cbn [map] in *. set (Q3 := P n [u; v; w]) in *.
      assert (L0 : length (Q3 c0) = n) by (apply P_length; auto). assert (L1 : length (Q3 c1) = n) by (apply P_length; auto). assert (L2 : length (Q3 c2) = n) by (apply P_length; auto).
      assert (La3 : lens n [Q3 c0; Q3 c1; Q3 c2]) by (repeat constructor; auto). assert (La2 : lens n [Q3 c0; Q3 c1]) by (repeat constructor; auto).
      (* the last vector is not in the plane of the first two, so the four others are not either *)
      assert (Out : forall y, In y others -> (norm (Q3 c2) <= norm (Q3 y))%Qc).
      { intros y Hy. apply (Hm 2 (Q3 c2)); [reflexivity| |].
        - assert (Hin : In y subsets3) by (destruct Hy as [<-|[<-|[<-|[<-|[]]]]]; cbn; auto 10). exact (in_map Q3 subsets3 y Hin).
        - cbn [firstn]. intros Sp. specialize (O y Hy). apply existsb_exists in O as (z & _ & Ez). destruct z as [|z0 [|z1 [|z2 [|]]]]; try discriminate. apply andb_true_iff in Ez as [Nz Ez]. apply negb_true_iff, Z.eqb_neq in Nz. apply zl_eqb_eq in Ez.
          destruct Sp as (ds & Ld & Ey). destruct ds as [|d0 [|d1 [|]]]; try discriminate.
          pose proof (P_comb n [u; v; w] L [z0; z1; z2] [c0; c1; c2] F eq_refl) as Pc. cbn [length] in Pc. rewrite Ez in Pc. fold Q3 in Pc.
          assert (E2 : map (Z.mul 2) y = vscale (R := Z) 2%Z y) by reflexivity. rewrite E2 in Pc. pose proof (P_scale n [u; v; w] 2%Z y) as Ps. fold Q3 in Ps. rewrite Ps, Ey in Pc.
          assert (Zr : lincomb n [ZQ z0 - ZQ 2 * d0; ZQ z1 - ZQ 2 * d1; ZQ z2]%Qc [Q3 c0; Q3 c1; Q3 c2] = vzero n).
          { rewrite vzero_rep. cbn [map lincomb] in Pc |- *. repeat rewrite vadd_ladd in Pc. repeat rewrite vscale_lmulc in Pc. rewrite !vadd_ladd, !vscale_lmulc, !vzero_rep.  rewrite vzero_rep in Pc. apply (lvec_ext n); [vlen|vlen|]. intros k.
            pose proof (f_equal (fun l => nth k l 0%Qc) Pc) as Pk. cbn beta in Pk |- *.
            repeat first [rewrite lget_mulc | rewrite lget_zero | rewrite (lget_add n) by vlen]. revert Pk.
            repeat first [rewrite lget_mulc | rewrite lget_zero | rewrite (lget_add n) by vlen]. cbn beta. generalize (nth k (Q3 c0) 0%Qc), (nth k (Q3 c1) 0%Qc), (nth k (Q3 c2) 0%Qc), (ZQ 2). intros x0 x1 x2 t Pk.
            transitivity ((x0 * ZQ z0 + (x1 * ZQ z1 + (x2 * ZQ z2 + 0))) - (x0 * d0 + (x1 * d1 + 0)) * t)%Qc; [ring|]. rewrite Pk. ring. }
          apply (@RankQ.rk_indep) in Zr; auto. pose proof (f_equal (fun l => nth 2 l 0%Qc) Zr) as Z2. cbn in Z2. apply Nz. apply ZQ_inj. exact Z2. }
      assert (F0 : length c0 = 3) by (inversion F; auto). assert (F1 : length c1 = 3) by (apply Forall_inv_tail, Forall_inv in F; auto). assert (F2 : length c2 = 3) by (do 2 apply Forall_inv_tail in F; apply Forall_inv in F; auto).
      assert (Sum : (norm (Q3 c0) + norm (Q3 c1) + norm (Q3 c2) = norm (Q3 [1; 0; 0]%Z) + norm (Q3 [0; 1; 0]%Z) + norm (Q3 [0; 0; 1]%Z) + norm (Q3 [1; 1; 1]%Z))%Qc).
      { destruct c0 as [|x0 [|y0 [|z0 [|]]]]; try discriminate. destruct c1 as [|x1 [|y1 [|z1 [|]]]]; try discriminate. destruct c2 as [|x2 [|y2 [|z2 [|]]]]; try discriminate.
        cbn [quad zipw] in Q. injection Q as Q1 Q2 Q3' Q4 Q5 Q6. unfold Q3. rewrite !norm_P by auto.
        apply (f_equal ZQ) in Q1, Q2, Q3', Q4, Q5, Q6. rewrite !ZQ_add in Q1, Q2, Q3', Q4, Q5, Q6.
        change (ZQ (1 * 1)) with 1%Qc. change (ZQ (1 * 0)) with 0%Qc. change (ZQ (0 * 1)) with 0%Qc. change (ZQ (0 * 0)) with 0%Qc.
        change (ZQ 2) with (1 + 1)%Qc in *. change (ZQ 1) with 1%Qc in *.
        transitivity ((ZQ (x0 * x0) + ZQ (x1 * x1) + ZQ (x2 * x2)) * norm u + (ZQ (y0 * y0) + ZQ (y1 * y1) + ZQ (y2 * y2)) * norm v + (ZQ (z0 * z0) + ZQ (z1 * z1) + ZQ (z2 * z2)) * norm w
          + (ZQ (x0 * y0) + ZQ (x1 * y1) + ZQ (x2 * y2)) * (dot u v + dot u v) + (ZQ (x0 * z0) + ZQ (x1 * z1) + ZQ (x2 * z2)) * (dot u w + dot u w) + (ZQ (y0 * z0) + ZQ (y1 * z1) + ZQ (y2 * z2)) * (dot v w + dot v w))%Qc; [ring|].
        rewrite Q1, Q2, Q3', Q4, Q5, Q6. ring. }
      pose proof (Out [1; 0; 0]%Z ltac:(cbn; auto)) as O0. pose proof (Out [0; 1; 0]%Z ltac:(cbn; auto)) as O1. pose proof (Out [0; 0; 1]%Z ltac:(cbn; auto)) as O2. pose proof (Out [1; 1; 1]%Z ltac:(cbn; auto)) as O3.
      apply StronglySorted_inv in So as [So G0]. apply StronglySorted_inv in So as [_ G1]. rewrite Forall_forall in G0, G1.
      pose proof (G0 (Q3 c2) ltac:(simpl; auto)) as G02. pose proof (G1 (Q3 c2) ltac:(simpl; auto)) as G12.
      assert (N2 : Q3 c2 <> zero) by (apply (independent_nz n [Q3 c0; Q3 c1; Q3 c2]); simpl; auto). pose proof (dpos _ L2 N2) as P2. cbn beta in *. qclra.
  Qed.

  Lemma superbase_three bs u v w s : superbase n bs u v w s -> same_lattice n bs [u; v; w].
  Proof.
    intros [Lu Lv Lw Ls Su SL]. assert (L3 : lens n [u; v; w]) by (repeat constructor; auto). eapply same_lattice_trans; [exact SL|]. apply same_lattice_sym. unfold same_lattice. splits; auto.
    - repeat constructor; auto.
    - intros x [<-|[<-|[<-|[]]]]; apply zcomb_In; try (repeat constructor; auto; fail); simpl; auto.
    - intros x [<-|[<-|[<-|[<-|[]]]]]; try (apply zcomb_In; simpl; auto; fail).
      assert (Es : s = lneg (ladd (ladd u v) w)).
      { apply (lvec_ext n); [vlen|vlen|]. intros k. pose proof (sum_get n u v w s k Lu Lv Lw Ls Su) as Sk. rewrite lget_neg. repeat rewrite (lget_add n) by vlen.
        cbn beta in Sk |- *. generalize dependent (nth k u 0%Qc). generalize (nth k v 0%Qc), (nth k w 0%Qc), (nth k s 0%Qc). intros. qclra. }
      rewrite Es. apply zcomb_neg; auto. apply zcomb_add; auto; [apply zcomb_add; auto|]; apply zcomb_In; simpl; auto.
  Qed.

  Lemma dirichlet_shape eps basis : (0 <= eps)%Qc -> lens n basis -> length basis = n -> 1 <= n <= 3 -> rk n basis = n ->
    exists k0 base, (forall k, k0 <= k -> dirichlet_vectors dot eps k basis = Ret (map (P n base) (subsets n))) /\ same_lattice n basis base /\ length base = n.
  Proof.
    intros Heps L Ln Hn R. assert (A : forallb (fun v => length v =? length basis) basis = true).
    { apply forallb_forall. intros v Hv. apply Nat.eqb_eq. rewrite Ln. eapply lens_In; eauto. }
    unfold dirichlet_vectors. rewrite A. cbn [assert bind].
    destruct basis as [|b0 [|b1 [|b2 [|b3 basis]]]]; [exfalso; cbn in Ln; lia| | | |exfalso; cbn in Ln; lia].
    - apply Forall_inv in L as L0. exists 0, [b0]. splits; auto; [|apply same_lattice_refl; auto]. intros k _. cbn in Ln. replace (subsets n) with [[1]]%Z by (rewrite <- Ln; reflexivity). cbn [map]. f_equal. f_equal.
      unfold P. cbn [map lincomb]. rewrite vadd_ladd, vscale_lmulc, vzero_rep. change (ZQ 1) with 1%Qc. vring n.
    - assert (L0 : length b0 = n) by (eapply lens_In; [exact L|simpl; auto]). assert (L1 : length b1 = n) by (eapply lens_In; [exact L|simpl; auto]).
      destruct (lagrange_tol n dot dsym dadd dmul dpos eps b0 b1 Heps L0 L1) as (k0 & u & v & E & Lu & Lv & SL & _); [cbn in Ln; lia|].
      exists k0, [u; v]. splits; auto. intros k Hk. rewrite E by auto. cbn [bind]. f_equal. cbn in Ln. replace (subsets n) with subsets2 by (rewrite <- Ln; reflexivity). cbn [subsets2 map]. unfold P. cbn [map lincomb].
      repeat (apply (f_equal2 (@cons qvec))); [..|reflexivity]; match goal with |- ?l = _ => set (x := l) at 1 end; rewrite !vadd_ladd, !vscale_lmulc, !vzero_rep; subst x; change (ZQ 1) with 1%Qc; change (ZQ 0) with 0%Qc; vring n.
    - assert (L0 : length b0 = n) by (eapply lens_In; [exact L|simpl; auto]). assert (L1 : length b1 = n) by (eapply lens_In; [exact L|simpl; auto]).
      assert (L2 : length b2 = n) by (eapply lens_In; [exact L|simpl; auto]).
      destruct (selling_tol n dot dsym dadd dmul dpos eps b0 b1 b2 Heps L0 L1 L2) as (k0 & u & v & w & s & E & Sb & _).
      exists k0, [u; v; w]. splits; auto; [|eapply superbase_three; eauto]. pose proof Sb as [Lu Lv Lw Ls Su SL].
      intros k Hk. rewrite E by auto. cbn [bind]. f_equal. cbn in Ln. replace (subsets n) with subsets3 by (rewrite <- Ln; reflexivity). cbn [subsets3 map]. unfold P. cbn [map lincomb].
      repeat (apply (f_equal2 (@cons qvec))); [..|reflexivity]; match goal with |- ?l = _ => set (x := l) at 1 end; rewrite !vadd_ladd, !vscale_lmulc, !vzero_rep; subst x; change (ZQ 1) with 1%Qc; change (ZQ 0) with 0%Qc; vring n.
  Qed.

  Theorem reduced_tol eps basis : (0 <= eps)%Qc -> (forall y, zcomb n basis y -> inert eps y) -> lens n basis -> length basis = n -> 1 <= n <= 3 -> rk n basis = n ->
    exists k0 a ws, (forall k, k0 <= k -> reduced_lattice_basis dot eps k basis = Ret (Some a) /\ dirichlet_vectors dot eps k basis = Ret ws) /\
      length a = n /\ same_lattice n basis a /\ StronglySorted nle a /\ minima n dot (fun y => In y ws) a /\ (forall b, In b (tl a) -> (dot (hd [] a) b <= 0)%Qc).
  Proof.
    intros Heps Hi L Ln H3 R. destruct (dirichlet_shape eps basis Heps L Ln H3 R) as (k0 & base & Ed & SL & Lb).
    pose proof SL as (_ & Lbase & SL1 & SL2). set (ws := map (P n base) (subsets n)) in *.
    pose proof (subset_len n H3) as Hs. rewrite Forall_forall in Hs.
    assert (Zws : forall w, In w ws -> zcomb n base w).
    { intros w Hw. apply in_map_iff in Hw as (c & <- & Hc). apply P_in. rewrite Hs by auto. auto. }
    assert (Lws : lens n ws) by (apply Forall_forall; intros w Hw; apply (zcomb_length n base); auto).
    assert (Rws : rk n ws = n).
    { apply Nat.le_antisymm; [apply (@RankQ.rk_dim)|]. rewrite <- R at 1. rewrite (same_lattice_rk n _ _ SL). apply (@RankQ.rk_mono); auto.
      intros v Hv. apply In_nth_error in Hv as (k & Ek). assert (Hk : k < n) by (rewrite <- Lb; apply nth_error_Some; congruence).
      apply (span_In (R := Qc)); auto. rewrite <- (P_unit n base Lbase k v Ek), Lb. apply in_map. apply (subset_units n); auto. }
    set (so := sort_by (rl_cmp dot) ws). pose proof (sort_by_perm (rl_cmp dot) ws) as Pm. fold so in Pm.
    assert (Lso : lens n so) by (unfold lens; rewrite <- Pm; auto).
    assert (Rso : rk n so = n).
    { rewrite <- Rws at 2. apply (@RankQ.rk_same); auto. split; apply (span_incl (R := Qc)); auto; intros y Hy; [rewrite Pm|rewrite <- Pm]; auto. }
    destruct (rl_loop_ok n dot dsym dmul eps so) with (P := @nil qvec) (a := @nil qvec) as (a & Ea & La & P' & ws' & EP & I).
    - intros w Hw. apply Hi. apply (same_lattice_iff n _ _ SL). apply Zws. rewrite Pm. auto.
    - constructor.
    - exact Lso.
    - apply sort_by_sorted.
    - cbn. lia.
    - exact Rso.
    - constructor; try (intros; contradiction); [constructor|apply (Nat.le_antisymm); [apply (@RankQ.rk_length)|cbn; lia]|constructor|].
      intros [|i] b y Hb; discriminate.
    - destruct I as [I1 I2 I3 I4 I5 I6 I7 I8]. cbn [app] in EP. rewrite <- EP in I7.
      assert (From : forall b, In b a -> from (fun w => In w ws) b).
      { intros b Hb. destruct (I2 b Hb) as (w & Hw & E). exists w. split; auto. rewrite Pm, EP. apply in_app_iff. auto. }
      assert (Hm : minima n dot (fun y => In y ws) a) by (intros i b y Hb Hy; apply (I7 i b y Hb); rewrite <- Pm; auto).
      exists k0, a, ws. splits; auto.
      + intros k Hk. split; [|apply Ed; auto]. unfold reduced_lattice_basis. destruct basis as [|b0 basis]; [cbn in Ln; lia|]. cbn [nth_error unwrap bind]. rewrite (Forall_inv L), Ed by auto. cbn [bind]. exact Ea.
      + eapply same_lattice_trans; [exact SL|]. assert (Ra : rk n a = n) by congruence.
        destruct base as [|u [|v [|w [|]]]]; cbn [length] in Lb; try (exfalso; lia).
        * destruct a as [|b [|]]; cbn [length] in La; try (exfalso; lia). destruct (From b (or_introl eq_refl)) as (x & Hx & Eb). unfold ws in Hx. replace (subsets n) with [[1]]%Z in Hx by (rewrite <- Lb; reflexivity). cbn [map] in Hx.
          destruct Hx as [Hx|[]]. assert (Lu : length u = n) by (apply Forall_inv in Lbase; auto). assert (Ex : x = u).
          { rewrite <- Hx. unfold P. cbn [map lincomb]. rewrite vadd_ladd, vscale_lmulc, vzero_rep. change (ZQ 1) with 1%Qc. vring n. }
          rewrite Ex in Eb. unfold same_lattice. splits; auto.
          -- intros y [<-|[]]. destruct Eb as [->| ->]; [apply zcomb_In; simpl; auto|]. assert (Eu : u = lneg (lneg u)) by (vring n). rewrite Eu at 2. apply zcomb_neg; auto. apply zcomb_In; simpl; auto.
          -- intros y [<-|[]]. destruct Eb as [->| ->]; [apply zcomb_In; simpl; auto|]. apply zcomb_neg; auto. apply zcomb_In; simpl; auto.
        * apply greedy2; auto; [lia|lia|]. intros b Hb. pose proof (From b Hb) as Fb. unfold ws in Fb. replace (subsets n) with subsets2 in Fb by (rewrite <- Lb; reflexivity). exact Fb.
        * apply greedy3; auto; [lia|lia| |].
          -- intros b Hb. pose proof (From b Hb) as Fb. unfold ws in Fb. replace (subsets n) with subsets3 in Fb by (rewrite <- Lb; reflexivity). exact Fb.
          -- revert Hm. unfold ws. replace (subsets n) with subsets3 by (rewrite <- Lb; reflexivity). auto.
  Qed.
End D.
