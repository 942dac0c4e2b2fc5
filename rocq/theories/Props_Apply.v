(** Property C71 of src/spacegroups/finder.rs: applying an operator given as text to a point. *)
From Coq Require Import String Ascii List ZArith NArith Lia Bool PeanoNat QArith Qcanon.
From Verif Require Import Base QcTac Vec Elim Scalars ZQ Lattices Props_Lattices Text ParseOp OpGrammar OpParse Props_Operators Finder.
Import ListNotations.
Close Scope Q_scope. Close Scope Qc_scope.
Local Open Scope list_scope.
Open Scope nat_scope.

(** ** specification: the value of a sum of terms at the point b, if there are n coordinates; axes that do not exist count as 0 *)
Definition term_value (n : nat) (b : list Qc) (t : Qc * option nat) : Qc :=
  match snd t with Some k => if k <? n then (fst t * coordinate k b)%Qc else 0%Qc | None => fst t end.
Definition value (n : nat) (b : list Qc) (ts : list (Qc * option nat)) : Qc := fold_right (fun t s => (term_value n b t + s)%Qc) 0%Qc ts.

(** ** proofs *)
Definition dotn (n : nat) (f : nat -> Qc) (b : list Qc) : Qc := fold_right (fun k s => (f k * coordinate k b + s)%Qc) 0%Qc (seq 0 n).
Lemma fold_sum (f : nat -> Qc) l : forall a, fold_left (fun x k => (x + f k)%Qc) l a = (a + fold_right (fun k s => (f k + s)%Qc) 0%Qc l)%Qc.
Proof. induction l as [|k l IH]; intros a; cbn [fold_left fold_right]; [ring|]. rewrite IH. ring. Qed.
Lemma apply_row_ok n b f s : n <= length b -> apply_row b n (map f (seq 0 n), s) = Ret (dotn n f b + s)%Qc.
Proof.
  intros L. unfold apply_row. cbn [fst snd]. rewrite map_length, seq_length, Nat.eqb_refl. cbn [assert bind].
  assert (G : forall l, (forall k, In k l -> k < n) -> forall a, foldM (fun x i => do c <- unwrap (nth_error (map f (seq 0 n)) i); do y <- unwrap (nth_error b i); Ret (x + c * y)%Qc) a l
    = Ret (fold_left (fun x k => (x + f k * coordinate k b)%Qc) l a)).
  { induction l as [|k l IH]; intros Hl a; cbn [foldM fold_left]; auto. assert (Hk : k < n) by (apply Hl; simpl; auto).
    rewrite nth_error_map. rewrite (nth_error_nth' (seq 0 n) 0) by (rewrite seq_length; auto). rewrite seq_nth by auto. cbn [option_map unwrap bind]. rewrite (nth_error_nth' b 0%Qc) by lia. cbn [unwrap bind].
    rewrite IH by (intros; apply Hl; simpl; auto). reflexivity. }
  rewrite G by (intros k Hk; apply in_seq in Hk; lia). cbn [bind]. rewrite fold_sum. apply (f_equal Ret). unfold dotn. ring.
Qed.
Lemma dotn_zero n b : dotn n (fun _ => 0%Qc) b = 0%Qc.
Proof. unfold dotn. induction (seq 0 n) as [|k l IH]; cbn [fold_right]; auto. rewrite IH. ring. Qed.
Lemma dotn_add n f g b : dotn n (fun k => f k + g k)%Qc b = (dotn n f b + dotn n g b)%Qc.
Proof. unfold dotn. induction (seq 0 n) as [|k l IH]; cbn [fold_right]; [ring|]. rewrite IH. ring. Qed.
Lemma dotn_ext n f g b : (forall k, k < n -> f k = g k) -> dotn n f b = dotn n g b.
Proof.
  intros H. unfold dotn. assert (G : forall l, (forall k, In k l -> k < n) -> fold_right (fun k s => (f k * coordinate k b + s)%Qc) 0%Qc l = fold_right (fun k s => (g k * coordinate k b + s)%Qc) 0%Qc l).
  { induction l as [|k l IH]; intros Hl; cbn [fold_right]; auto. rewrite IH by (intros; apply Hl; simpl; auto). rewrite H by (apply Hl; simpl; auto). auto. }
  apply G. intros k Hk. apply in_seq in Hk. lia.
Qed.
Lemma dotn_single n q a b : dotn n (fun k => if k =? a then q else 0%Qc) b = if a <? n then (q * coordinate a b)%Qc else 0%Qc.
Proof.
  unfold dotn. induction n as [|n IH]; [reflexivity|]. rewrite seq_S, fold_right_app. cbn [fold_right Nat.add].
  assert (G : forall (h : nat -> Qc) l c, fold_right (fun k s => (h k + s)%Qc) c l = (fold_right (fun k s => (h k + s)%Qc) 0%Qc l + c)%Qc).
  { clear. intros h. induction l as [|k l IHl]; intros c; cbn [fold_right]; [ring|]. rewrite IHl. ring. }
  rewrite (G (fun k => ((if k =? a then q else 0%Qc) * coordinate k b)%Qc)). rewrite IH. destruct (Nat.eqb_spec n a) as [->|N].
  - rewrite (proj2 (Nat.ltb_ge a a)) by lia. rewrite (proj2 (Nat.ltb_lt a (S a))) by lia. ring.
  - destruct (Nat.ltb_spec a n); destruct (Nat.ltb_spec a (S n)); try lia; ring.
Qed.
Lemma value_dot n b ts : (dotn n (fun k => coefficient (Some k) ts) b + coefficient None ts)%Qc = value n b ts.
Proof.
  unfold value. induction ts as [|[q a] ts IH]; cbn [fold_right].
  - unfold coefficient. cbn [fold_right]. rewrite dotn_zero. ring.
  - rewrite <- IH. unfold term_value. cbn [fst snd]. destruct a as [a|].
    + rewrite (dotn_ext n _ (fun k => (if k =? a then q else 0%Qc) + coefficient (Some k) ts)%Qc).
      * rewrite dotn_add, dotn_single. unfold coefficient. cbn [fold_right fst snd same_axis]. destruct (a <? n); ring.
      * intros k _. unfold coefficient. cbn [fold_right fst snd same_axis]. destruct (k =? a); ring.
    + unfold coefficient. cbn [fold_right fst snd same_axis]. fold (coefficient None ts). ring.
Qed.

(** ** C71.  Applying an operator t, y, ... to a point evaluates each coordinate at that point *)
Theorem C71_apply_operator : forall b1 t b2 rest cs b, blanks b1 -> blanks b2 -> operator_text t cs -> Forall sums_fit cs -> ends_operator rest ->
  length cs <= 3 -> length cs <= length b -> apply_operator (b1 ++ t ++ b2 ++ rest) b = Ret (map (value (length cs) b) cs).
Proof.
  intros b1 t b2 rest cs b H1 H2 Ht F E L3 L. unfold apply_operator. rewrite (C53_complete b1 t b2 rest cs) by auto. cbn [bind unwrap]. unfold meaning. cbn beta iota.
  rewrite !map_length, Nat.eqb_refl. cbn [assert bind]. rewrite Nat.min_l by auto. clear - L. set (n := length cs) in *. clearbody n.
  induction cs as [|c cs IH]; cbn [map combine mapM]; auto. rewrite apply_row_ok by auto. cbn [bind]. rewrite IH. cbn [bind]. rewrite value_dot. reflexivity.
Qed.
(** it returns for no other text (of a syntax that is too rich, with too many coordinates, or for a point with too few) *)
Theorem C71_only : forall op b r, apply_operator op b = Ret r ->
  exists b1 t b2 rest cs, op = b1 ++ t ++ b2 ++ rest /\ blanks b1 /\ blanks b2 /\ operator_text t cs /\ length cs <= 3 /\ length cs <= length b /\ r = map (value (length cs) b) cs.
Proof.
  intros op b r H. unfold apply_operator in H. destruct (parse_operator op) as [[[rest [m s]]|]| |] eqn:E; try discriminate H. cbn [bind unwrap] in H.
  apply C53_sound in E as (b1 & t & b2 & cs & -> & H1 & H2 & Ht & F & Em). unfold meaning in Em. injection Em as -> ->. rewrite !map_length, Nat.eqb_refl in H. cbn [assert bind] in H.
  assert (P : 0 < length cs) by (destruct Ht; cbn; lia).
  assert (L3 : length cs <= 3). { destruct cs as [|c cs]; [cbn in P; lia|]. cbn [map combine mapM] in H. unfold apply_row in H. cbn [fst] in H. rewrite map_length, seq_length in H. destruct (Nat.eqb_spec (Nat.min (length (c :: cs)) 3) (length (c :: cs))) as [Q|]; [lia|discriminate H]. }
  rewrite Nat.min_l in H by auto.
  assert (L : length cs <= length b).
  { destruct (le_lt_dec (length cs) (length b)) as [|L]; auto. exfalso. destruct cs as [|c cs]; [cbn in P; lia|]. set (n := length (c :: cs)) in *. cbn [map combine mapM] in H. unfold apply_row in H at 1. cbn [fst] in H. rewrite map_length, seq_length, Nat.eqb_refl in H. cbn [assert bind] in H.
    destruct (foldM _ 0%Qc (seq 0 n)) as [x| |] eqn:Ef; try discriminate H. clear - Ef L P.
    assert (G : forall (g : nat -> Qc) l a x, foldM (fun x i => do c <- unwrap (nth_error (map g (seq 0 n)) i); do y <- unwrap (nth_error b i); Ret (x + c * y)%Qc) a l = Ret x -> forall k, In k l -> nth_error b k <> None).
    { clear. intros g. induction l as [|k l IH]; intros a x E k' Hk; [destruct Hk|]. cbn [foldM] in E. destruct (unwrap (nth_error (map g (seq 0 n)) k)) as [u| |]; try discriminate E. cbn [bind] in E.
      destruct (nth_error b k) as [y|] eqn:Ey; [|discriminate E]. cbn [unwrap bind] in E. destruct Hk as [<-|Hk]; [congruence|]. eapply IH; eauto. }
    assert (X : nth_error b (length b) <> None). { eapply G; [exact Ef|]. apply in_seq. lia. }
    apply X. apply nth_error_None. lia. }
  exists b1, t, b2, rest, cs. splits; auto. assert (G : mapM (apply_row b (length cs)) (combine (map (fun c => map (fun k => coefficient (Some k) c) (seq 0 (length cs))) cs) (map (coefficient None) cs)) = Ret (map (value (length cs) b) cs)).
  { clear - L. set (n := length cs) in *. clearbody n. induction cs as [|c cs IH]; cbn [map combine mapM]; auto. rewrite apply_row_ok by auto. cbn [bind]. rewrite IH. cbn [bind]. rewrite value_dot. reflexivity. }
  rewrite G in H. injection H as <-. reflexivity.
Qed.
Print Assumptions C71_apply_operator.
Print Assumptions C71_only.

(** ** example: a glide, x + 1/2, -y; the point (1/3, 1/4) goes to (5/6, -1/4) *)
Definition glide : list (list (Qc * option nat)) := [[(1%Qc, Some 0); ((ZQ 1 / ZQ 2)%Qc, None)]; [((- (1))%Qc, Some 1)]].
Example C71_glide : apply_operator (str "x+1/2, -y") [Q2Qc (1 # 3); Q2Qc (1 # 4)] = Ret [Q2Qc (5 # 6); Q2Qc (-1 # 4)].
Proof. vm_compute. repeat (apply f_equal || apply (f_equal2 cons)); try reflexivity; try (apply Qc_is_canon; reflexivity). Qed.
Example C71_glide_value : map (value 2 [Q2Qc (1 # 3); Q2Qc (1 # 4)]) glide = [Q2Qc (5 # 6); Q2Qc (-1 # 4)].
Proof. cbn [map value fold_right glide]. apply (f_equal2 cons); [|apply (f_equal2 cons)]; try reflexivity; apply Qc_is_canon; reflexivity. Qed.
Example C71_glide_text : operator_text (str "x+1/2, -y") glide.
Proof.
  change (operator_text ((([chr "x"] ++ ([] ++ ([chr "+"] ++ [] ++ ([chr "1"] ++ [] ++ [chr "/"] ++ [] ++ [chr "2"])) ++ []))) ++ [] ++ [chr ","] ++ [chr " "] ++ (([chr "-"] ++ [] ++ [chr "y"]) ++ [])) glide).
  apply operator_comma; [apply coordinate_unsigned| | |]; repeat constructor; try lia; discriminate.
Qed.
