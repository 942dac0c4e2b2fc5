(** What position and edge_vector return (PGraph.v), for graphs whose
    placement succeeds. *)
From Coq Require Import List ZArith Lia Bool PeanoNat Znumtheory QArith Qcanon.
From Verif Require Import Base Partition Vec Elim Scalars Matrix ZQ QcTac ModSolver ModSolve Dixon ModFinal OrdSet PGraph Net PGraphBase Traverse Props_ModSolver Placement Harmonic.
From Verif Require ModMC DetZ.
Import ListNotations.
Close Scope Q_scope. Close Scope Qc_scope.
Open Scope nat_scope.

Definition pget (p : point) (k : nat) : Qc := nth k p 0%Qc.
Lemma point_ext (p q : point) : length p = length q -> (forall k, k < length p -> pget p k = pget q k) -> p = q.
Proof.
  intros L H. apply nth_error_ext. intros i. destruct (Nat.lt_ge_cases i (length p)) as [Hi|Hi].
  - rewrite (nth_error_nth' p 0%Qc), (nth_error_nth' q 0%Qc) by lia. f_equal. apply H; auto.
  - rewrite (proj2 (nth_error_None p i)), (proj2 (nth_error_None q i)) by lia. auto.
Qed.

(** the edge vector of a placement *)
Definition evec (d : nat) (pos : nat -> point) (e : edge) : point :=
  map (fun k => pget (pos (tail e)) k + ZQ (vget (shift e) k) - pget (pos (head e)) k)%Qc (seq 0 d).

Lemma evec_length d pos e : length (evec d pos e) = d.
Proof. unfold evec. rewrite map_length, seq_length. auto. Qed.
Lemma pget_map_seq (f : nat -> Qc) d k : k < d -> pget (map f (seq 0 d)) k = f k.
Proof. intros Hk. unfold pget. erewrite nth_error_nth; [reflexivity|]. rewrite nth_error_map_seq by auto. auto. Qed.
Lemma pget_evec d pos e k : k < d -> pget (evec d pos e) k = (pget (pos (tail e)) k + ZQ (vget (shift e) k) - pget (pos (head e)) k)%Qc.
Proof. intros Hk. unfold evec. rewrite pget_map_seq by auto. auto. Qed.

Lemma mapM_seq_Ret {A} (f : nat -> outcome A) (h : nat -> A) l : (forall i, In i l -> f i = Ret (h i)) -> mapM f l = Ret (map h l).
Proof. induction l as [|x l IH]; simpl; intros H; auto. rewrite H by auto. simpl. rewrite IH by auto. auto. Qed.

(** position returns [pos v] for each vertex and panics otherwise; the first vertex is
    at the origin; all vertices are barycentres of their neighbours *)
Record Placed (chk : Z -> outcome Z) (g : graph) (pos : nat -> point) : Prop := {
  pl_ret : forall v, is_vertex g v -> position chk g v = Ret (pos v);
  pl_no : forall v, ~ is_vertex g v -> position chk g v = Panic;
  pl_len : forall v, is_vertex g v -> length (pos v) = gdim g;
  pl_0 : pos (hd 0 (vertices g)) = repeat 0%Qc (gdim g);
  pl_bary : forall v k, is_vertex g v -> k < gdim g ->
    qsum (fun e => pget (evec (gdim g) pos e) k) (inc g v) = 0%Qc }.

Lemma edge_vector_ret chk g pos e : constructed g -> Placed chk g pos -> In e (dedges g) -> edge_vector chk g e = Ret (evec (gdim g) pos e).
Proof.
  intros C P He. destruct (dedges_vertices g e He) as [Hh Ht]. unfold edge_vector.
  rewrite (pl_ret _ _ _ P), (pl_ret _ _ _ P) by auto. cbn [bind].
  apply mapM_seq_Ret. intros i Hi. apply in_seq in Hi.
  rewrite (nth_error_nth' _ 0%Qc) by (rewrite (pl_len _ _ _ P) by auto; lia).
  rewrite (nth_error_nth' (shift e) 0%Z) by (rewrite (dedges_dim g) by auto; lia).
  rewrite (nth_error_nth' (pos (head e)) 0%Qc) by (rewrite (pl_len _ _ _ P) by auto; lia). reflexivity.
Qed.

Lemma placed_or_panic chk g : constructed g -> 0 < gdim g -> fits chk g ->
  (vertices g <> [] -> ~ (9999991 | the_det g)%Z -> exists pos, Placed chk g pos) /\
  (vertices g = [] \/ (9999991 | the_det g)%Z -> forall v, position chk g v = Panic).
Proof.
  intros C Hd F. split.
  - intros NE ND. assert (Hn : 0 < length (vertices g)) by (destruct (vertices g); [congruence|simpl; lia]).
    destruct (placement_cases chk g C Hd Hn F) as [P _]. destruct (P ND) as (x & r & Sol & Er & R1 & R2).
    set (pos := fun v => nth (idx g v) x []).
    assert (Epos : forall i, i < length (vertices g) -> pos (nth i (vertices g) 0) = nth i x []).
    { intros i Hi. unfold pos. rewrite idx_Vn by auto. auto. }
    destruct Sol as [[Lx Fx] Sol]. rewrite Forall_forall in Fx.
    exists pos.
    assert (B : forall k, k < gdim g -> pget (pos (nth 0 (vertices g) 0)) k = 0%Qc /\
      forall v, is_vertex g v -> bary g (fun e => vget (shift e) k) (fun u => pget (pos u) k) v).
    { intros k Hk. apply (system_iff g (fun e => vget (shift e) k) (fun u => pget (pos u) k)); auto.
      - intros e _. unfold rev; simpl. apply vget_sneg.
      - intros i Hi. specialize (Sol i k Hi Hk). rewrite at_tab in Sol by auto. unfold sysT, LT in Sol. rewrite <- Sol.
        apply sumf_ext. intros l Hl. rewrite at_tab, Epos by auto. reflexivity. }
    assert (Len : forall v, is_vertex g v -> length (pos v) = gdim g).
    { intros v Hv. destruct (V_index g v Hv) as (i & Hi & <-). rewrite Epos by auto. apply Fx, nth_In. lia. }
    split; auto.
    + intros v Hv. destruct (V_index g v Hv) as (i & Hi & <-). unfold position. rewrite Er. cbn [bind]. rewrite R1, Epos by auto. auto.
    + intros v Hv. unfold position. rewrite Er. cbn [bind]. rewrite R2 by auto. auto.
    + assert (E0 : hd 0 (vertices g) = nth 0 (vertices g) 0) by (destruct (vertices g); auto). rewrite E0.
      apply point_ext; [rewrite Len, repeat_length by (apply V_nth; auto); auto|]. intros k Hk.
      rewrite Len in Hk by (apply V_nth; auto). rewrite (proj1 (B k Hk)). unfold pget. symmetry. apply nth_repeat.
    + intros v k Hv Hk. pose proof (proj2 (B k Hk) v Hv) as Q. unfold bary in Q. rewrite <- Q. apply qsum_ext. intros e He.
      apply inc_In in He as [_ <-]. apply pget_evec; auto.
  - intros H v. unfold position. destruct (vertices g) as [|v0 vs] eqn:EV.
    + unfold barycentric_placement. rewrite EV. reflexivity.
    + destruct H as [H|H]; [discriminate|].
      assert (Hn : 0 < length (vertices g)) by (rewrite EV; simpl; lia). 
      destruct (placement_cases chk g C Hd Hn F) as [_ P]. rewrite P; auto. rewrite EV. exact H.
Qed.

(** if position returns at all, the graph is placed *)
Lemma position_placed chk g v p : constructed g -> 0 < gdim g -> fits chk g -> position chk g v = Ret p -> exists pos, Placed chk g pos /\ is_vertex g v /\ pos v = p.
Proof.
  intros C Hd F E. destruct (placed_or_panic chk g C Hd F) as [H1 H2].
  destruct (list_eq_dec Nat.eq_dec (vertices g) []) as [E0|N]; [rewrite H2 in E by auto; discriminate|].
  destruct (Zdivide_dec 9999991 (the_det g)) as [D|D]; [rewrite H2 in E by auto; discriminate|].
  destruct (H1 N D) as [pos P]. exists pos. split; auto.
  destruct (is_vertex_dec g v) as [Hv|Hv]; [|rewrite (pl_no _ _ _ P) in E by auto; discriminate].
  split; auto. rewrite (pl_ret _ _ _ P) in E by auto. congruence.
Qed.
