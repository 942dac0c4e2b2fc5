(** Symmetries of the quotient graph and automorphisms of the infinite net. *)
From Coq Require Import List ZArith Lia Bool PeanoNat QArith Qcanon Permutation.
From Verif Require Import Base Partition Vec Elim Scalars Matrix LinAlg Geometry ZQ QcTac ModSolver ModSolve OrdSet Lattices RatLattice PGraph Net PGraphBase Traverse Placement Harmonic Placed Stability Periodic Symmetries Automorph Group SymFront.
Import ListNotations.
Close Scope Q_scope. Close Scope Qc_scope.
Open Scope nat_scope.

(** *** specification *)
(** phi is an isomorphism from the net of g to the net of h *)
Record net_isomorphism (g h : graph) (phi : node -> node) : Prop := {
  ni_node : forall a, is_node g a -> is_node h (phi a);
  ni_inj : forall a b, is_node g a -> is_node g b -> phi a = phi b -> a = b;
  ni_surj : forall b, is_node h b -> exists a, is_node g a /\ phi a = b;
  ni_adjacent : forall a b, is_node g a -> is_node g b -> adjacent g a b <-> adjacent h (phi a) (phi b) }.
(** integer matrix times integer vector *)
Definition ztimes (d : nat) (M : nat -> nat -> Z) (t : list Z) : list Z :=
  map (fun i => fold_right (fun k s => (M i k * nth k t 0 + s)%Z) 0%Z (seq 0 d)) (seq 0 d).
Definition translate (t : list Z) (a : node) : node := (fst a, sadd (snd a) t).
(** phi commutes with translations up to the matrix M *)
Definition periodic_map (g : graph) (M : nat -> nat -> Z) (phi : node -> node) : Prop :=
  forall a t, is_node g a -> length t = gdim g -> phi (translate t a) = translate (ztimes (gdim g) M t) (phi a).
(** the action of phi on vertices and directed edges, up to translations *)
Definition induces (g : graph) (phi : node -> node) (f : nat -> nat) (F : edge -> edge) : Prop :=
  (forall a, is_node g a -> fst (phi a) = f (fst a)) /\
  (forall e x, (exists e0, In e0 (gedges g) /\ (e = e0 \/ e = rev e0)) -> length x = gdim g ->
     phi (tail e, sadd x (shift e)) = (tail (F e), sadd (snd (phi (head e, x))) (shift (F e)))).

(** *** proofs *)
Lemma ztimes_length d M t : length (ztimes d M t) = d.
Proof. unfold ztimes. rewrite map_length, seq_length. auto. Qed.
Lemma fold_zs (f : nat -> Z) n s0 : fold_right (fun k s => (f k + s)%Z) s0 (seq 0 n) = (sumf (R := Z) n f + s0)%Z.
Proof.
  revert s0; induction n as [|n IH]; intros s0; [reflexivity|]. rewrite seq_S, fold_right_app. cbn [fold_right Nat.add sumf]. rewrite IH. cbn [radd Z_dom]. lia.
Qed.
Lemma vget_ztimes d M t i : i < d -> ZQ (vget (ztimes d M t) i) = lapp d (fun i j => ZQ (M i j)) (fun k => ZQ (vget t k)) i.
Proof.
  intros Hi. unfold ztimes. unfold vget at 1. rewrite nth_indep with (d' := (fun i => fold_right (fun k s => (M i k * nth k t 0 + s)%Z) 0%Z (seq 0 d)) 0) by (rewrite map_length, seq_length; auto).
  rewrite (map_nth (fun i => fold_right (fun k s => (M i k * nth k t 0 + s)%Z) 0%Z (seq 0 d))), seq_nth by auto. cbn [Nat.add].
  rewrite (fold_zs (fun k => (M i k * nth k t 0)%Z)), Z.add_0_r. unfold lapp. rewrite <- (Harmonic.ZQ_zs d (fun k => (M i k * nth k t 0)%Z)) || idtac.
  clear. induction d as [|d IH]; [reflexivity|]. cbn [sumf]. cbn [radd rmul Z_dom Qc_dom] in *. rewrite ZQ_add, ZQ_mul, IH. reflexivity.
Qed.

Lemma lappq_add d m (u v : nat -> Qc) i : lapp d m (fun k => u k + v k)%Qc i = (lapp d m u i + lapp d m v i)%Qc.
Proof. exact (lapp_add (R := Qc) d m u v i). Qed.
Lemma lappq_sub d m (u v : nat -> Qc) i : lapp d m (fun k => u k - v k)%Qc i = (lapp d m u i - lapp d m v i)%Qc.
Proof. exact (lapp_sub (R := Qc) d m u v i). Qed.
Lemma lappq_ext d m (u v : nat -> Qc) i : (forall k, k < d -> u k = v k) -> lapp d m u i = lapp d m v i.
Proof. intros H. apply lapp_ext; auto. Qed.
Lemma qsum_perm {A} (f : A -> Qc) l l' : Permutation l l' -> qsum f l = qsum f l'.
Proof. unfold qsum. induction 1; cbn [fold_right]; [auto|rewrite IHPermutation; auto|ring|congruence]. Qed.
Lemma qsum_map {A B} (f : B -> Qc) (h : A -> B) l : qsum f (map h l) = qsum (fun x => f (h x)) l.
Proof. unfold qsum. induction l as [|x l IH]; cbn [fold_right map]; auto. rewrite IH. auto. Qed.
Lemma qsum_lapp {A} d m (f : A -> nat -> Qc) l i : qsum (fun x => lapp d m (f x) i) l = lapp d m (fun k => qsum (fun x => f x k) l) i.
Proof.
  induction l as [|x l IH]; cbn [qsum fold_right].
  - symmetry. unfold lapp. apply qs_zero. intros. cbn. ring.
  - fold (qsum (fun x => lapp d m (f x) i) l). rewrite IH, <- lappq_add. apply lappq_ext. intros. reflexivity.
Qed.
Lemma zvec_ext (a b : list Z) d : length a = d -> length b = d -> (forall k, k < d -> ZQ (vget a k) = ZQ (vget b k)) -> a = b.
Proof. intros La Lb H. apply (vec_ext (R := Z)); [congruence|]. intros i Hi. rewrite La in Hi. apply ZQ_inj, H; auto. Qed.

Section A.
  Variables (chk : Z -> outcome Z) (g : graph) (pos : nat -> point).
  Hypothesis C : constructed g.
  Hypothesis P : Placed chk g pos.
  Hypothesis CC : forall a c, is_node g a -> is_node g c -> joined g a c.
  Hypothesis LS : forall v, NoDup (map (evec (gdim g) pos) (inc g v)).
  Notation d := (gdim g).
  Notation ev := (evec (gdim g) pos).

  (** the point of a node *)
  Definition npt (a : node) (k : nat) : Qc := (pget (pos (fst a)) k + ZQ (vget (snd a) k))%Qc.
  Lemma npt_edge a e k : is_node g a -> In e (dedges g) -> head e = fst a -> k < d -> npt (tail e, sadd (snd a) (shift e)) k = (npt a k + pget (ev e) k)%Qc.
  Proof.
    intros [_ La] He Eh Hk. unfold npt. cbn [fst snd]. rewrite vget_sadd by (rewrite La; symmetry; apply (dedges_dim g C); auto). rewrite ZQ_add, pget_evec by auto. rewrite Eh. ring.
  Qed.
  Lemma npt_inj a b : is_node g a -> is_node g b -> fst a = fst b -> (forall k, k < d -> npt a k = npt b k) -> a = b.
  Proof.
    intros [_ La] [_ Lb] E H. destruct a as [v s], b as [w t]. cbn [fst snd] in *. subst w. f_equal. apply (zvec_ext _ _ d); auto.
    intros k Hk. specialize (H k Hk). unfold npt in H. cbn [fst snd] in H. qclra.
  Qed.
  Lemma npt_translate a t k : is_node g a -> length t = d -> npt (translate t a) k = (npt a k + ZQ (vget t k))%Qc.
  Proof. intros [_ La] Lt. unfold npt, translate. cbn [fst snd]. rewrite vget_sadd by congruence. rewrite ZQ_add. ring. Qed.
  Lemma translate_node a t : is_node g a -> length t = d -> is_node g (translate t a).
  Proof. intros [H La] Lt. split; auto. unfold translate. cbn [snd]. slen. Qed.

  Section Lift.
    Variables (m : nat -> nat -> Qc) (f : nat -> nat) (F : edge -> edge).
    Hypothesis I : linj d m.
    Hypothesis H : hom g pos (mapp d m) f F.
    Variable b0 : node.
    Hypothesis Hb0 : is_node g b0.
    Variable a0 : node.
    Hypothesis Ha0 : is_node g a0.
    Hypothesis E0 : fst b0 = f (fst a0).

    Definition img (a b : node) : Prop := is_node g a /\ is_node g b /\ fst b = f (fst a) /\ forall k, k < d -> npt b k = (lapp d m (npt a) k + npt b0 k - lapp d m (npt a0) k)%Qc.
    Lemma img0 : img a0 b0.
    Proof. unfold img. splits; auto. intros. ring. Qed.
    Lemma img_edge a b e : img a b -> In e (dedges g) -> head e = fst a -> img (tail e, sadd (snd a) (shift e)) (tail (F e), sadd (snd b) (shift (F e))).
    Proof.
      intros (Na & Nb & Ef & Hp) He Eh. destruct (H e He) as (A1 & A2 & A3 & A4). unfold img. splits.
      - apply edge_node; auto.
      - apply edge_node; auto.
      - cbn [fst]. auto.
      - intros k Hk. rewrite npt_edge, Hp by (auto; congruence). rewrite A4.
        change (pget (mapp d m (ev e)) k) with (vget (mapp d m (ev e)) k). rewrite vget_mapp by auto.
        rewrite (lappq_ext d m (npt (tail e, sadd (snd a) (shift e))) (fun k => npt a k + vget (ev e) k)%Qc) by (intros; apply npt_edge; auto).
        rewrite lappq_add. change (fun k0 : nat => vget (ev e) k0) with (vget (ev e)). change (fun k0 : nat => npt a k0) with (npt a). ring.
    Qed.
    Lemma img_walk n a c : walk g n a c -> (exists b, img a b) -> exists b, img c b.
    Proof.
      induction 1 as [|n a b c W IH Nc A]; auto. intros X. destruct (IH X) as (b' & B). destruct (walk_nodes g n a b W) as [_ Nb].
      apply (adjacent_dedges g C) in A as (e & He & Eh & Et & Es); auto. exists (tail (F e), sadd (snd b') (shift (F e))).
      destruct c as [w t]. cbn [fst snd] in *. subst w t. apply img_edge; auto.
    Qed.
    Lemma img_total a : is_node g a -> exists b, img a b.
    Proof. intros Na. destruct (CC a0 a) as [n W]; auto. apply (img_walk n a0 a W). exists b0. apply img0. Qed.
    Lemma img_back n b c : walk g n b c -> (exists a, img a b) -> exists a, img a c.
    Proof.
      induction 1 as [|n a b c W IH Nc A]; auto. intros X. destruct (IH X) as (a' & B). destruct (walk_nodes g n a b W) as [_ Nb].
      apply (adjacent_dedges g C) in A as (e' & He' & Eh & Et & Es); auto.
      destruct (hom_F_surj g pos (conn g CC) LS (mapp d m) f F H I e' He') as (e & He & E). destruct (H e He) as (A1 & A2 & A3 & A4).
      pose proof B as (Na & _ & Ef & _).
      assert (Eha : head e = fst a'). { apply (hom_f_inj g pos (conn g CC) LS (mapp d m) f F H I); [apply (dedges_vertices g e He)|apply Na|congruence]. }
      exists (tail e, sadd (snd a') (shift e)). destruct c as [w t]. cbn [fst snd] in *. subst w t. rewrite <- E. apply img_edge; auto.
    Qed.
    Lemma img_onto b : is_node g b -> exists a, img a b.
    Proof. intros Nb. destruct (CC b0 b) as [n W]; auto. apply (img_back n b0 b W). exists a0. apply img0. Qed.
    Lemma img_fun a b b' : img a b -> img a b' -> b = b'.
    Proof. intros (_ & Nb & E & Hb) (_ & Nb' & E' & Hb'). apply npt_inj; auto; [congruence|]. intros k Hk. rewrite Hb, Hb' by auto. auto. Qed.
    Lemma lapp_list (x : nat -> Qc) i : i < d -> lapp d m x i = vget (mapp d m (map x (seq 0 d))) i.
    Proof. intros Hi. rewrite vget_mapp by auto. apply lappq_ext. intros k Hk. symmetry. exact (pget_map_seq x d k Hk). Qed.
    Lemma img_inj a a' b : img a b -> img a' b -> a = a'.
    Proof.
      intros (Na & _ & E & Hb) (Na' & _ & E' & Hb'). apply npt_inj; auto.
      { apply (hom_f_inj g pos (conn g CC) LS (mapp d m) f F H I); [apply Na|apply Na'|congruence]. }
      assert (X : map (npt a) (seq 0 d) = map (npt a') (seq 0 d)).
      { apply I; try (rewrite map_length, seq_length; auto). apply (vec_ext (R := Qc)); [rewrite !mapp_length; auto|]. rewrite mapp_length. intros i Hi.
        rewrite <- !lapp_list by auto. specialize (Hb i Hi). specialize (Hb' i Hi). rewrite Hb in Hb'. qclra. }
      intros k Hk. rewrite <- (pget_map_seq (npt a) d k Hk), <- (pget_map_seq (npt a') d k Hk). congruence.
    Qed.

    Definition phi (a : node) : node :=
      (f (fst a), map (fun k => Qnum (lapp d m (npt a) k + npt b0 k - lapp d m (npt a0) k - pget (pos (f (fst a))) k)%Qc) (seq 0 d)).
    Lemma phi_img a b : img a b -> phi a = b.
    Proof.
      intros (Na & Nb & E & Hb). unfold phi. destruct b as [w t]. cbn [fst] in E. subst w. f_equal. destruct Nb as [_ Lt]. cbn [snd] in Lt.
      apply (vec_ext (R := Z)); [rewrite map_length, seq_length; auto|]. rewrite map_length, seq_length. intros i Hi.
      unfold vget at 1. erewrite nth_error_nth; [|rewrite nth_error_map_seq by auto; reflexivity]. rewrite <- Hb by auto. unfold npt. cbn [fst snd].
      replace (pget (pos (f (fst a))) i + ZQ (vget t i) - pget (pos (f (fst a))) i)%Qc with (ZQ (vget t i)) by ring. apply ZQ_den.
    Qed.
    Lemma img_phi a : is_node g a -> img a (phi a).
    Proof. intros Na. destruct (img_total a Na) as (b & B). rewrite (phi_img a b B). auto. Qed.

    (** the matrix is integral *)
    Definition imat (i k : nat) : Z := Qnum (m i k).
    Lemma node_of v : is_vertex g v -> is_node g (v, szero d). Proof. intros Hv. split; auto. apply szero_length. Qed.
    Lemma imat_ok i k : i < d -> k < d -> m i k = ZQ (imat i k).
    Proof.
      intros Hi Hk. set (t := vunit (R := Z) d k). assert (Lt : length t = d) by apply vunit_length.
      pose proof (img_phi a0 Ha0) as (_ & N1 & F1 & H1). pose proof (img_phi (translate t a0) (translate_node a0 t Ha0 Lt)) as (_ & N2 & F2 & H2).
      cbn [translate fst] in F2. specialize (H1 i Hi). specialize (H2 i Hi).
      rewrite (lappq_ext d m (npt (translate t a0)) (fun j => npt a0 j + (if Nat.eqb j k then 1 else 0))%Qc) in H2.
      2: { intros j Hj. rewrite npt_translate by auto. f_equal. unfold t. rewrite vget_vunit. assert (X : (j <? d) = true) by (apply Nat.ltb_lt; auto). rewrite X, andb_true_r. destruct (j =? k); reflexivity. }
      rewrite lappq_add in H2. pose proof (lapp_unit (R := Qc) d m k i Hk) as U. cbn [r0 r1 Qc_dom] in U. rewrite U in H2. clear U.
      unfold npt in H1 at 1. unfold npt in H2 at 1. rewrite F1 in H1. rewrite F2 in H2.
      assert (X : m i k = ZQ (vget (snd (phi (translate t a0))) i - vget (snd (phi a0)) i)%Z). { rewrite ZQ_sub. qclra. }
      unfold imat. rewrite X. destruct (ZQ_den (vget (snd (phi (translate t a0))) i - vget (snd (phi a0)) i)) as [_ ->]. auto.
    Qed.
    Lemma phi_periodic : periodic_map g imat phi.
    Proof.
      intros a t Na Lt. pose proof (img_phi a Na) as (_ & N1 & F1 & H1). pose proof (img_phi (translate t a) (translate_node a t Na Lt)) as (_ & N2 & F2 & H2).
      assert (N3 : is_node g (translate (ztimes d imat t) (phi a))) by (apply translate_node; auto; apply ztimes_length).
      apply npt_inj; auto. intros k Hk. rewrite H2 by auto. rewrite npt_translate by (auto; apply ztimes_length). rewrite H1 by auto.
      rewrite vget_ztimes by auto. rewrite (lappq_ext d m (npt (translate t a)) (fun j => npt a j + ZQ (vget t j))%Qc) by (intros; apply npt_translate; auto).
      rewrite lappq_add. rewrite (lapp_ext (R := Qc) d (fun i j => ZQ (imat i j)) m _ (fun j => ZQ (vget t j)) k); [ring| |auto]. intros j Hj. symmetry. apply imat_ok; auto.
    Qed.
    Lemma phi_induces : induces g phi f F.
    Proof.
      split; [reflexivity|]. intros e x He Lx. apply dedges_In in He. apply phi_img. assert (Na : is_node g (head e, x)) by (split; auto; apply (dedges_vertices g e He)).
      apply (img_edge (head e, x)); auto. apply img_phi; auto.
    Qed.
    Lemma phi_iso : net_isomorphism g g phi.
    Proof.
      split.
      - intros a Na. apply (img_phi a Na).
      - intros a b Na Nb E. apply (img_inj a b (phi a)); [apply img_phi; auto|]. rewrite E. apply img_phi; auto.
      - intros b Nb. destruct (img_onto b Nb) as (a & B). exists a. split; [apply B|apply phi_img; auto].
      - intros a b Na Nb. pose proof (img_phi a Na) as Ia. pose proof (img_phi b Nb) as Ib. split.
        + intros A. apply (adjacent_dedges g C) in A as (e & He & Eh & Et & Es); auto. apply (adjacent_dedges g C); [apply Ia|apply Ib|].
          destruct (H e He) as (A1 & A2 & A3 & A4). exists (F e). splits; auto; [rewrite A2, Eh; auto|rewrite A3, Et; auto|].
          rewrite (phi_img b (tail (F e), sadd (snd (phi a)) (shift (F e)))); auto.
          destruct b as [w t]. cbn [fst snd] in *. subst w t. apply img_edge; auto.
        + intros A. apply (adjacent_dedges g C) in A as (e' & He' & Eh & Et & Es); [|apply Ia|apply Ib].
          destruct (hom_F_surj g pos (conn g CC) LS (mapp d m) f F H I e' He') as (e & He & E). destruct (H e He) as (A1 & A2 & A3 & A4).
          assert (Eha : head e = fst a). { apply (hom_f_inj g pos (conn g CC) LS (mapp d m) f F H I); [apply (dedges_vertices g e He)|apply Na|rewrite <- A2, E, Eh; auto]. }
          pose proof (img_edge a (phi a) e Ia He Eha) as B.
          assert (X : (tail e, sadd (snd a) (shift e)) = b). { apply (img_inj _ _ (phi b)); auto. replace (phi b) with (tail (F e), sadd (snd (phi a)) (shift (F e))); auto.
            rewrite E. destruct (phi b) as [w t]. cbn [fst snd] in *. congruence. }
          apply (adjacent_dedges g C); auto. exists e. subst b. cbn [fst snd]. splits; auto.
    Qed.
  End Lift.

  Lemma inc_NoDup v : NoDup (inc g v).
  Proof. apply (NoDup_map_inv ev). apply LS. Qed.

  Section Descend.
    Variables (phi : node -> node) (M : nat -> nat -> Z).
    Hypothesis Iso : net_isomorphism g g phi.
    Hypothesis Per : periodic_map g M phi.
    Notation mq := (fun i j => ZQ (M i j)).
    Notation O := (szero d).
    Definition ff (v : nat) : nat := fst (phi (v, O)).
    Definition zv (v : nat) : list Z := snd (phi (v, O)).
    Definition FF (e : edge) : edge := Edge (ff (head e)) (ff (tail e)) (ssub (sadd (zv (tail e)) (ztimes d M (shift e))) (zv (head e))).

    Lemma nodeO v : is_vertex g v -> is_node g (v, O).
    Proof. intros Hv. split; auto. apply szero_length. Qed.
    Lemma phi_node v s : is_vertex g v -> length s = d -> phi (v, s) = (ff v, sadd (zv v) (ztimes d M s)).
    Proof.
      intros Hv Ls. pose proof (Per (v, O) s (nodeO v Hv) Ls) as E. unfold translate in E. cbn [fst snd] in E. rewrite sadd_0_l in E by auto. exact E.
    Qed.
    Lemma ff_vertex v : is_vertex g v -> is_vertex g (ff v).
    Proof. intros Hv. apply (ni_node _ _ _ Iso (v, O) (nodeO v Hv)). Qed.
    Lemma zv_length v : is_vertex g v -> length (zv v) = d.
    Proof. intros Hv. apply (ni_node _ _ _ Iso (v, O) (nodeO v Hv)). Qed.
    Lemma ztimes_0 : ztimes d M O = O.
    Proof.
      apply (zvec_ext _ _ d); [apply ztimes_length|apply szero_length|]. intros k Hk. rewrite vget_ztimes by auto. rewrite vget_szero. unfold lapp. apply qs_zero.
      intros i Hi. rewrite vget_szero. cbn [rmul Qc_dom]. change (ZQ 0) with 0%Qc. ring.
    Qed.
    Lemma edge_eq e e' : head e = head e' -> tail e = tail e' -> shift e = shift e' -> e = e'.
    Proof. destruct e, e'; cbn. congruence. Qed.
    Lemma FF_shift e x : length x = d -> In e (dedges g) -> sadd x (shift (FF e)) = ssub (sadd (sadd x (zv (tail e))) (ztimes d M (shift e))) (zv (head e)).
    Proof.
      intros Lx He. destruct (dedges_vertices g e He) as [Hh Ht]. pose proof (zv_length _ Hh). pose proof (zv_length _ Ht). pose proof (ztimes_length d M (shift e)).
      unfold FF. cbn [shift]. seq.
    Qed.
    Lemma FF_in e : In e (dedges g) -> In (FF e) (dedges g).
    Proof.
      intros He. destruct (dedges_vertices g e He) as [Hh Ht]. pose proof (dedges_dim g C e He) as Ls.
      assert (N1 : is_node g (head e, O)) by (apply nodeO; auto). assert (N2 : is_node g (tail e, shift e)) by (split; auto).
      assert (A : adjacent g (head e, O) (tail e, shift e)). { apply (adjacent_dedges g C); auto. exists e. cbn [fst snd]. splits; auto. rewrite sadd_0_l; auto. }
      apply (ni_adjacent _ _ _ Iso) in A; auto. apply (adjacent_dedges g C) in A as (e' & He' & Eh & Et & Es); try (apply (ni_node _ _ _ Iso); auto).
      rewrite (phi_node (tail e)) in Et, Es by auto. cbn [fst snd] in *. fold (ff (head e)) in Eh. fold (zv (head e)) in Es.
      replace (FF e) with e'; auto. apply edge_eq; auto. unfold FF. cbn [shift]. rewrite Es.
      pose proof (zv_length _ Hh). pose proof (zv_length _ Ht). pose proof (ztimes_length d M (shift e)). pose proof (dedges_dim g C e' He'). seq.
    Qed.
    Lemma phi_edge e x : In e (dedges g) -> length x = d -> phi (tail e, sadd x (shift e)) = (tail (FF e), sadd (snd (phi (head e, x))) (shift (FF e))).
    Proof.
      intros He Lx. destruct (dedges_vertices g e He) as [Hh Ht]. pose proof (dedges_dim g C e He) as Ls. pose proof (zv_length _ Hh). pose proof (zv_length _ Ht).
      rewrite !phi_node by (auto; slen). cbn [fst snd]. f_equal. rewrite FF_shift by (auto; rewrite sadd_length; rewrite ?ztimes_length; auto).
      assert (E : ztimes d M (sadd x (shift e)) = sadd (ztimes d M x) (ztimes d M (shift e))).
      { apply (zvec_ext _ _ d); [apply ztimes_length|rewrite sadd_length; rewrite !ztimes_length; auto|]. intros k Hk. rewrite vget_sadd by (rewrite !ztimes_length; auto). rewrite ZQ_add, !vget_ztimes by auto.
        rewrite <- lappq_add. apply lappq_ext. intros j Hj. rewrite vget_sadd by congruence. apply ZQ_add. }
      rewrite E. pose proof (ztimes_length d M (shift e)). pose proof (ztimes_length d M x). seq.
    Qed.
    Lemma FF_loc e e' : In e (dedges g) -> In e' (dedges g) -> head e = head e' -> FF e = FF e' -> e = e'.
    Proof.
      intros He He' Eh E. pose proof (phi_edge e O He (szero_length d)) as E1. pose proof (phi_edge e' O He' (szero_length d)) as E2.
      rewrite Eh, E in E1. rewrite <- E2 in E1. pose proof (dedges_dim g C e He). pose proof (dedges_dim g C e' He'). rewrite !sadd_0_l in E1 by auto.
      destruct (dedges_vertices g e He) as [_ Ht]. destruct (dedges_vertices g e' He') as [_ Ht'].
      apply (ni_inj _ _ _ Iso) in E1; try (split; auto; fail). injection E1 as X Y. apply edge_eq; auto.
    Qed.
    Lemma FF_onto v e' : is_vertex g v -> In e' (inc g (ff v)) -> exists e, In e (inc g v) /\ FF e = e'.
    Proof.
      intros Hv I'. apply inc_In in I' as [He' Eh]. pose proof (nodeO v Hv) as Nv. pose proof (ni_node _ _ _ Iso _ Nv) as Nb.
      pose proof (edge_node g C (phi (v, O)) e' Nb He') as Nc. destruct (ni_surj _ _ _ Iso _ Nc) as (a & Na & Ea).
      assert (A : adjacent g (v, O) a). { apply (ni_adjacent _ _ _ Iso); auto. rewrite Ea. apply (adjacent_dedges g C); auto. exists e'. splits; auto. }
      apply (adjacent_dedges g C) in A as (e & He & E1 & E2 & E3); auto. cbn [fst snd] in *. exists e. split; [apply inc_In; auto|].
      pose proof (phi_edge e O He (szero_length d)) as X. rewrite E2, <- E3 in X. rewrite <- surjective_pairing, Ea in X. rewrite E1 in X.
      pose proof (f_equal fst X) as X1. pose proof (f_equal snd X) as X2. cbn [fst snd] in X1, X2.
      apply edge_eq; auto.
      - unfold FF. cbn [head]. rewrite E1. auto.
      - pose proof (dedges_dim g C e' He') as L1. pose proof (dedges_dim g C (FF e) (FF_in e He)) as L2. rewrite (sadd_comm _ (shift e')), (sadd_comm _ (shift (FF e))) in X2.
        apply sadd_cancel_r in X2; auto; fold (zv v); rewrite zv_length by auto; auto.
    Qed.
    Lemma kernel_M t v : is_vertex g v -> length t = d -> ztimes d M t = O -> t = O.
    Proof.
      intros Hv Lt E. assert (X : phi (v, t) = phi (v, O)). { rewrite !phi_node by (auto; apply szero_length). rewrite E, ztimes_0. auto. }
      apply (ni_inj _ _ _ Iso) in X; [congruence|split; auto|apply nodeO; auto].
    Qed.
    Lemma M_linj v : is_vertex g v -> linj d mq.
    Proof.
      intros Hv x y Lx Ly E. set (z := map (fun k => vget x k - vget y k)%Qc (seq 0 d)).
      assert (Lz : length z = d) by (unfold z; rewrite map_length, seq_length; auto).
      assert (Gz : forall k, k < d -> vget z k = (vget x k - vget y k)%Qc) by (intros k Hk; exact (pget_map_seq (fun k => vget x k - vget y k)%Qc d k Hk)).
      set (c := common_denom [z]). pose proof (common_denom_pos [z]) as Cp. fold c in Cp.
      assert (X : forall k, exists n, k < d -> (vget z k * ZQ c = ZQ n)%Qc).
      { intros k. destruct (Nat.lt_ge_cases k d) as [Hk|Hk]; [|exists 0%Z; lia].
        destruct (common_denom_int [z] z (vget z k)) as (n & En); [simpl; auto|apply nth_In; lia|]. exists n. auto. }
      destruct (choice_below (fun k n => k < d -> (vget z k * ZQ c = ZQ n)%Qc) d X) as [t Ht].
      set (tl := map t (seq 0 d)). assert (Lt : length tl = d) by (unfold tl; rewrite map_length, seq_length; auto).
      assert (Gt : forall k, k < d -> ZQ (vget tl k) = (vget z k * ZQ c)%Qc).
      { intros k Hk. rewrite Ht by auto. unfold tl, vget at 1. erewrite nth_error_nth; [|rewrite nth_error_map_seq by auto; reflexivity]. auto. }
      assert (K : tl = O).
      { apply (kernel_M tl v Hv Lt). apply (zvec_ext _ _ d); [apply ztimes_length|apply szero_length|]. intros k Hk. rewrite vget_ztimes, vget_szero by auto.
        rewrite (lappq_ext d mq _ (fun j => ZQ c * vget z j)%Qc) by (intros; rewrite Gt by auto; ring).
        assert (Sc : lapp d mq (fun j => ZQ c * vget z j)%Qc k = (ZQ c * lapp d mq (vget z) k)%Qc).
        { unfold lapp. cbn [rmul Qc_dom]. rewrite <- qs_scale. apply sumf_ext. intros; cbn [rmul Qc_dom]. ring. }
        rewrite Sc. rewrite (lappq_ext d mq (vget z) (fun j => vget x j - vget y j)%Qc) by auto. rewrite lappq_sub.
        assert (Ek : vget (mapp d mq x) k = vget (mapp d mq y) k) by congruence. rewrite !vget_mapp in Ek by auto.
        change (fun j => vget x j) with (vget x) in *. change (fun j => vget y j) with (vget y) in *. rewrite Ek. change (ZQ 0) with 0%Qc. ring. }
      apply (vec_ext (R := Qc)); [congruence|]. intros k Hk. rewrite Lx in Hk. specialize (Gt k Hk). rewrite K, vget_szero in Gt. change (ZQ 0) with 0%Qc in Gt.
      assert (Nc : ZQ c <> 0%Qc) by (intros E0; apply ZQ_eq0 in E0; lia). symmetry in Gt. apply Qcmult_integral in Gt as [Gt|Gt]; [|contradiction]. rewrite Gz in Gt by auto. qclra.
    Qed.
    Lemma FF_perm v : is_vertex g v -> Permutation (map FF (inc g v)) (inc g (ff v)).
    Proof.
      intros Hv. apply NoDup_Permutation.
      - pose proof (inc_NoDup v) as ND. assert (X : forall l, NoDup l -> incl l (inc g v) -> NoDup (map FF l)).
        { induction 1 as [|e l N ND' IH]; intros Il; cbn [map]; constructor; [|apply IH; intros y Hy; apply Il; simpl; auto].
          intros K. apply in_map_iff in K as (e' & Ee & He'). apply N. replace e with e'; auto. pose proof (Il e (or_introl eq_refl)) as Q1. pose proof (Il e' (or_intror He')) as Q2.
          apply inc_In in Q1 as [Q1 Q1']. apply inc_In in Q2 as [Q2 Q2']. apply FF_loc; auto. congruence. }
        apply X; auto. intros y; auto.
      - apply inc_NoDup.
      - intros e'. split.
        + intros K. apply in_map_iff in K as (e & <- & He). apply inc_In in He as [He Eh]. apply inc_In. split; [apply FF_in; auto|]. unfold FF. cbn [head]. congruence.
        + intros K. destruct (FF_onto v e' Hv K) as (e & He & <-). apply in_map. auto.
    Qed.
    Lemma FF_hom : hom g pos (mapp d mq) ff FF.
    Proof.
      intros e He. splits; [apply FF_in; auto|reflexivity|reflexivity|].
      apply point_ext; [rewrite evec_length, mapp_length; auto|]. rewrite evec_length. intros k Hk.
      set (q := fun v => (pget (pos (ff v)) k + ZQ (vget (zv v) k) - lapp d mq (pget (pos v)) k)%Qc).
      assert (Q : forall x, In x (dedges g) -> (q (tail x) - q (head x) = pget (ev (FF x)) k - lapp d mq (pget (ev x)) k)%Qc).
      { intros x Hx. destruct (dedges_vertices g x Hx) as [Hh Ht]. pose proof (zv_length _ Hh) as L1. pose proof (zv_length _ Ht) as L2. pose proof (ztimes_length d M (shift x)) as L3.
        rewrite (lappq_ext d mq (pget (ev x)) (fun j => pget (pos (tail x)) j + ZQ (vget (shift x) j) - pget (pos (head x)) j)%Qc) by (intros; apply pget_evec; auto).
        rewrite lappq_sub, lappq_add. rewrite pget_evec by auto. unfold FF. cbn [head tail shift]. rewrite vget_ssub, vget_sadd by slen. rewrite ZQ_sub, ZQ_add, vget_ztimes by auto.
        unfold q. change (fun k0 => pget (pos (tail x)) k0) with (pget (pos (tail x))). change (fun k0 => pget (pos (head x)) k0) with (pget (pos (head x))).
        change (fun j => pget (pos (tail x)) j) with (pget (pos (tail x))). change (fun j => pget (pos (head x)) j) with (pget (pos (head x))). ring. }
      assert (Hq : forall v, is_vertex g v -> harmonic g q v).
      { intros v Hv. unfold harmonic. rewrite (qsum_ext _ (fun x => pget (ev (FF x)) k - lapp d mq (pget (ev x)) k)%Qc).
        2: { intros x Hx. apply inc_In in Hx as [Hx Eh]. rewrite <- Q by auto. rewrite Eh. auto. }
        rewrite qsum_sub. rewrite <- (qsum_map (fun x => pget (ev x) k) FF). rewrite (qsum_perm _ _ _ (FF_perm v Hv)).
        rewrite (pl_bary _ _ _ P) by (auto; apply ff_vertex; auto). rewrite (qsum_lapp d mq (fun x => pget (ev x))).
        rewrite (lappq_ext d mq _ (fun _ => 0%Qc)) by (intros j Hj; apply (pl_bary _ _ _ P); auto).
        unfold lapp. rewrite qs_zero; [ring|]. intros. cbn [rmul Qc_dom]. ring. }
      destruct (dedges_vertices g e He) as [Hh Ht].
      pose proof (harmonic_constant g q (conn g CC) Hq (tail e) (head e) Ht Hh) as E. specialize (Q e He). rewrite E in Q.
      change (pget (mapp d mq (ev e)) k) with (vget (mapp d mq (ev e)) k). rewrite vget_mapp by auto. change (fun k0 => vget (ev e) k0) with (pget (ev e)). qclra.
    Qed.
    Lemma FF_induces : induces g phi ff FF.
    Proof.
      split.
      - intros [v s] [Hv Ls]. rewrite phi_node by auto. auto.
      - intros e x He Lx. apply dedges_In in He. apply phi_edge; auto.
    Qed.
    (** in the barycentric placement phi is an affine map *)
    Lemma phi_affine a b k : is_node g a -> is_node g b -> k < d -> (npt (phi b) k - npt (phi a) k = lapp d mq (npt b) k - lapp d mq (npt a) k)%Qc.
    Proof.
      intros Na Nb Hk. destruct (CC a b Na Nb) as [n W]. revert Na Nb. induction W as [|n a b c W IH Nc A]; intros Na Nb; [ring|].
      destruct (walk_nodes g n a b W) as [_ Nb']. specialize (IH Na Nb'). apply (adjacent_dedges g C) in A as (e & He & Eh & Et & Es); auto.
      destruct (FF_hom e He) as (A1 & A2 & A3 & A4). destruct b as [v s], c as [w t]. cbn [fst snd] in *. subst v w t. destruct Nb' as [Hv Ls]. cbn [fst snd] in *.
      rewrite phi_edge by auto. pose proof (npt_edge (phi (head e, s)) (FF e) k) as N1. rewrite N1; auto; [|apply (ni_node _ _ _ Iso); split; auto|rewrite (proj1 FF_induces) by (split; auto); auto].
      rewrite A4. change (pget (mapp d mq (ev e)) k) with (vget (mapp d mq (ev e)) k). rewrite vget_mapp by auto.
      rewrite (lappq_ext d mq (npt (tail e, sadd s (shift e))) (fun j => npt (head e, s) j + vget (ev e) j)%Qc) by (intros j Hj; apply (npt_edge (head e, s)); auto; split; auto).
      rewrite lappq_add. change (fun j => npt (head e, s) j) with (npt (head e, s)). change (fun k0 => npt (head e, s) k0) with (npt (head e, s)). change (fun k0 => vget (ev e) k0) with (vget (ev e)). change (fun j => vget (ev e) j) with (vget (ev e)). qclra.
    Qed.
  End Descend.
End A.
