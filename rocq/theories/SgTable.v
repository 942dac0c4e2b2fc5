(** The shipped table of space groups: evaluation of parse_space_group_table on the file src/data/sgtable.data, and of the checker of SgCheck.v on the result. *)
From Coq Require Import String Ascii List ZArith NArith Lia Bool PeanoNat QArith Qcanon FMapPositive.
From Verif Require Import Base Vec Scalars ZQ Matrix LinAlg Geometry Text ParseOp Cgd Table TableProof Lattices Props_Lattices Finder SgSpec SgCheck SgCenter SgData.
Import ListNotations.
Close Scope Q_scope. Close Scope Qc_scope.
Local Open Scope list_scope.
Open Scope nat_scope.

(** hints: indices of operators that generate the group, for each setting, in the order of the list of settings (the last setting of the file first) *)
Definition hints : list (list nat) := [
  [42; 1]; [49; 86; 64]; [93; 65; 83]; [178; 55]; [20; 182]; [136; 179]; [37; 147]; [180; 61]; [41; 37]; [44; 41]; [20; 35]; [32; 5]; [36; 31]; [32; 9]; [17; 27]; [61; 43]; [10; 1]; [15; 42]; [1; 57]; [13; 14];
  [9; 40]; [3; 14]; [16; 9]; [38; 5]; [56; 81; 19]; [59; 46]; [13; 12]; [1; 13]; [16; 5]; [19; 11]; [29; 38]; [42; 70]; [64; 38]; [85; 91; 81]; [8; 21]; [16; 3]; [22; 13]; [1; 11]; [4; 2]; [21; 14];
  [6; 29; 12]; [11; 5]; [17; 3; 22]; [10; 1; 20]; [14; 5; 19]; [17; 19; 16]; [5; 8]; [9; 8]; [10; 1]; [9; 1]; [7; 6]; [1; 11]; [7; 5]; [9; 8]; [1; 6]; [1; 6]; [6; 7]; [11; 6]; [8; 9]; [7; 5];
  [5; 11]; [8; 1]; [1]; [1]; [1]; [5]; [5]; [5]; [5]; [9; 7]; [27; 7]; [7; 9]; [16; 7]; [7; 5]; [10; 7]; [8; 5]; [8; 11]; [1; 4]; [9; 8]; [5; 4];
  [1; 17]; [3; 4]; [5; 3]; [4; 3]; [3; 1]; [5; 1]; [6; 5; 1]; [5; 3]; [4; 1]; [4; 3]; [1; 3]; [2; 3]; [5; 3]; [4]; [12; 4]; [5]; [2]; [4; 1]; [2]; [1];
  [1]; [23; 4; 29]; [8; 27; 21]; [3; 4; 24]; [22; 25; 3]; [8; 30; 23; 14]; [16; 8; 19; 14]; [8; 3; 15]; [6; 13; 10]; [9; 6; 3]; [9; 8; 14]; [6; 7; 15]; [1; 13; 10]; [8; 3; 5]; [7; 4; 13]; [1; 7; 11]; [10; 4; 1]; [3; 10; 12]; [13; 12; 10]; [4; 9; 5];
  [14; 15; 9]; [5; 13; 9]; [14; 11; 1]; [11; 12; 4]; [14; 6; 1]; [13; 12; 6]; [9; 14; 13]; [11; 13; 1]; [11; 3; 14]; [13; 8; 9]; [11; 5; 15]; [4; 13]; [10; 13; 4]; [14; 15; 5]; [1; 9; 15]; [7; 6]; [1; 4]; [6; 5]; [3; 4]; [4; 3];
  [7; 1]; [1; 4]; [4; 1]; [4; 5]; [7; 6]; [3; 8; 12]; [11; 3; 15]; [7; 6]; [7; 6]; [5; 4]; [4; 1]; [1; 6]; [5; 1]; [5; 1]; [4; 5]; [1; 10; 14]; [4; 3; 15]; [7; 1]; [4; 5]; [6; 7];
  [7; 1]; [6; 5]; [3; 7]; [4; 7]; [7; 1]; [13; 1]; [12; 11]; [5; 9; 15]; [6; 3]; [3; 7]; [4; 1]; [5; 4]; [3; 5]; [7; 6]; [1; 6]; [3]; [3; 7]; [1; 5]; [1]; [1];
  [3]; [3]; [10; 13; 1; 15]; [14; 3; 15; 8]; [6; 11; 10; 2]; [6; 5; 14; 1]; [8; 1; 5; 14]; [5; 8; 7; 4]; [4; 1; 9; 11]; [1; 12; 6; 14]; [5; 15; 3; 4]; [13; 9; 2; 7]; [7; 2; 1; 10]; [7; 2; 6; 11]; [2; 12; 25]; [19; 31; 26]; [16; 14; 17; 20; 18]; [8; 12; 14; 3]; [6; 5; 8; 15]; [6; 1; 11; 8];
  [13; 3; 7; 11]; [5; 14; 13; 7]; [7; 1; 11; 14]; [12; 2; 9; 3]; [11; 7; 3; 6]; [12; 9; 2; 6]; [6; 13; 2; 5]; [4; 6; 10; 5]; [15; 11; 9; 14]; [7; 9; 1; 13]; [15; 9; 10; 4]; [9; 12; 11; 3]; [3; 8; 13; 15]; [4; 11; 14; 12]; [4; 7; 13; 5]; [3; 2; 13; 10]; [7; 12; 4; 14]; [4; 15; 8; 13]; [4; 6; 5; 11]; [9; 1; 12; 7];
  [4; 12; 13; 10]; [13; 9; 8; 14]; [11; 1; 5; 3]; [10; 12; 13; 15]; [3; 5; 12; 7]; [7; 12; 3; 10]; [11; 5; 9; 15]; [8; 12; 2; 5]; [15; 5; 13; 4]; [3; 13; 12; 9]; [8; 15; 9; 3]; [9; 5; 1; 15]; [9; 13; 15; 14]; [4; 5; 7]; [4; 2; 5]; [2; 6; 3]; [5; 7; 4]; [1; 3; 6]; [2; 1; 5]; [4; 1; 6];
  [3; 5; 1]; [6; 5; 4]; [2; 3; 5]; [4; 5; 7]; [2; 5; 4]; [2; 4; 7]; [1; 3; 6]; [2; 5; 4]; [5; 6; 4]; [5; 2; 1]; [7; 3; 5]; [3; 4; 5]; [6; 4; 7]; [3; 2; 7]; [5; 2; 4]; [6; 2; 3]; [6; 7; 3]; [6; 5; 4]; [7; 4; 6]; [4; 2; 5];
  [6; 1; 3]; [1; 3; 6]; [4; 7; 2]; [6; 1; 4]; [5; 1; 7]; [2; 1; 4]; [6; 5; 4]; [4; 2; 5]; [4; 1; 2]; [2; 1; 5]; [6; 3; 1]; [5; 4; 3]; [4; 6; 1]; [7; 1; 4]; [4; 5; 2]; [5; 3; 2]; [6; 4; 5]; [2; 1; 4]; [5; 4; 7]; [7; 5; 4];
  [2; 1; 4]; [2; 5; 3]; [3; 2; 5]; [4; 7; 2]; [1; 6; 4]; [1; 5; 3]; [6; 7; 5]; [1; 3; 6]; [6; 4; 1]; [5; 4; 6]; [3; 2; 5]; [5; 2; 6]; [4; 1; 2]; [1; 7; 2]; [4; 3; 5]; [3; 7; 6]; [5; 1; 3]; [4; 3; 6]; [6; 4; 1]; [4; 2; 3];
  [2; 6; 5]; [3; 6; 2]; [1; 4; 3]; [5; 3; 1]; [4; 3; 6]; [1; 4; 6]; [5; 1; 6]; [7; 1; 4]; [1; 4; 3]; [1; 2; 6]; [5; 4; 2]; [1; 2; 4]; [2; 6; 1]; [2; 3; 6]; [2; 3; 5]; [7; 2; 4]; [3; 2]; [14; 3]; [5; 14]; [8; 7; 14; 4];
  [6; 14; 13; 4]; [13; 9; 5; 7]; [5; 7; 4]; [2; 7; 1]; [6; 3; 4]; [5; 6; 7]; [1; 3; 4]; [2; 1; 5]; [4; 6; 5]; [4; 2; 7]; [6; 7; 2]; [1; 4; 2]; [6; 5; 2]; [2; 6; 3]; [4; 7; 6]; [3; 2; 6]; [4; 2; 7]; [4; 1; 6]; [7; 1; 4]; [1; 5; 3];
  [5; 3; 7]; [2; 6; 1]; [4; 3; 2]; [6; 7; 4]; [3; 6; 7]; [3; 5; 1]; [4; 2; 7]; [3; 5; 1]; [7; 6; 4]; [7; 6; 5]; [1; 4; 6]; [4; 1; 6]; [5; 1; 6]; [3; 2; 4]; [3; 7; 1]; [1; 7; 4]; [3; 6; 7]; [1; 7; 4]; [2; 1]; [3; 2];
  [2; 1]; [2; 3]; [2; 1]; [2; 1]; [3; 1]; [1; 2]; [3; 1]; [2; 3]; [2; 3]; [2; 3]; [2; 1]; [3; 2]; [3; 1]; [3; 1]; [3; 2]; [1; 2]; [3; 1]; [3; 2]; [3; 1]; [1; 2];
  [2; 3]; [2; 3]; [1; 3]; [2; 1]; [3; 1]; [2; 3]; [1; 3]; [1; 3]; [3; 2]; [2; 1]; [3; 1]; [2; 1]; [1; 2]; [2; 3]; [3; 1]; [3; 2]; [1; 2]; [1; 2]; [2; 1]; [2; 3];
  [2; 3]; [3; 2]; [1; 2]; [3; 2]; [1; 3]; [1; 2]; [3; 1; 5]; [3; 2; 5]; [3; 1; 11; 5]; [6; 2; 7]; [2; 6; 7]; [7; 4; 2]; [6; 4; 5]; [6; 2; 7]; [2; 3; 4]; [3; 2]; [1; 2]; [3; 1]; [2; 3]; [2; 3];
  [2; 1]; [2; 3]; [1; 3]; [4; 3; 1]; [7; 6; 5]; [1; 4; 6]; [1; 5; 2]; [3; 7; 6]; [4; 3; 2]; [7; 6; 4]; [7; 6; 4]; [6; 2; 7]; [4; 3; 5]; [4; 7; 6]; [2; 1; 7]; [1; 2; 7]; [7; 6; 4]; [7; 6; 5]; [1; 2; 7]; [7; 3; 2];
  [1; 3; 5]; [1; 2]; [3; 1]; [1; 2]; [2; 1]; [3; 2]; [3; 2]; [3; 2]; [3; 2]; [1; 3]; [2; 3]; [1; 2]; [3; 1]; [2; 1]; [3; 1]; [3; 2]; [1; 3]; [1; 3]; [1; 3]; [3; 6; 2];
  [4; 1; 7]; [2; 3; 5]; [4; 2; 5]; [6; 3; 1]; [1; 6; 2]; [2; 3; 5]; [6; 2; 7]; [2; 4; 3]; [3; 1]; [1; 2]; [3; 2]; [3; 2]; [1; 2]; [2; 3]; [1; 2]; [2; 1]; [1; 3]; [2; 3]; [1; 3]; [1; 3];
  [3; 1]; [3; 2]; [2; 3]; [1; 2]; [3; 1]; [1; 3]; [3; 1]; [2; 3]; [1; 3]; [1; 2]; [1; 3]; [2; 3]; [3; 2]; [2; 3]; [1; 2]; [2; 3]; [1; 3]; [3; 2]; [1; 2]; [1; 2];
  [2; 3]; [1]; [1]; [1]; [1]; [1]; [1]; [1]; [1]; [1]; [1]; [1]; [1]; [3; 2]; [3; 2]; [1; 3]; [2; 1]; [2; 1]; [3; 1]; [3; 2];
  [2; 1]; [3; 1]; [1]; [1]; [1]; [1]; [1]; [1]; [1]; []; [10; 5]; [5]; [4; 1]; [3; 1]; [1]; [5; 2]; [6; 4]; [2]; [4; 3; 5]; [2; 3];
  [1; 3]; [3; 1]; [1; 2]; [1]; [1]; [1]; []; [1]; []].

(** ** reading the table without searching for the current setting: it is the first one of the list *)
Section Lower.
  Variable lower : text -> text.
  Definition fast_step (st : table_state) (l : option text) : outcome (option table_state) :=
    question l (fun line =>
    let content := trim line in
    if (match content with [] => true | _ => false end) || starts_with (chr "#") content then Ret (Some st)
    else if starts_with (chr " ") line then
      do o <- aff_from_string content;
      question o (fun op =>
      match st_settings st with
      | (k, e) :: m => Ret (Some (State ((k, TableEntry (te_name e) (te_canonical e) (te_transform e) (te_operators e ++ [op])) :: m) (st_alias st) (st_lookup st) (st_canonical st) (st_current st)))
      | [] => Ret None
      end)
    else
      let fields := split_whitespace content in
      do f0 <- field_at fields 0;
      if text_eqb (lower f0) (str "alias") then
        do f1 <- field_at fields 1; do f2 <- field_at fields 2;
        Ret (Some (State (st_settings st) (insert f1 f2 (st_alias st)) (st_lookup st) (st_canonical st) (st_current st)))
      else if text_eqb (lower f0) (str "lookup") then
        do o <- make_lookup_entry lower fields;
        question o (fun e => Ret (Some (State (st_settings st) (st_alias st) (st_lookup st ++ [e]) (st_canonical st) (st_current st))))
      else
        do rest <- fields_from fields 1;
        do o <- cmap_from_string (join rest);
        question o (fun transform =>
        do id <- cmap_is_identity transform;
        let canonical := if id then f0 else st_canonical st in
        Ret (Some (State ((f0, TableEntry f0 canonical transform []) :: st_settings st) (st_alias st) (st_lookup st) canonical f0)))).
  Fixpoint fast_loop (st : table_state) (ls : list (option text)) : outcome (option table_state) :=
    match ls with
    | [] => Ret (Some st)
    | l :: r => do o <- fast_step st l; question o (fun st' => fast_loop st' r)
    end.
  Definition keys (st : table_state) : list text := map fst (st_settings st).
  Definition current_first (st : table_state) : Prop := st_settings st = [] \/ exists e m, st_settings st = (st_current st, e) :: m.
  Lemma filter_other {A} k (m : list (text * A)) : ~ In k (map fst m) -> filter (fun p => negb (text_eqb k (fst p))) m = m.
  Proof.
    induction m as [|[k' a] m IH]; intros H; auto. cbn [filter fst]. destruct (text_eqb_spec k k') as [->|_]; [exfalso; apply H; left; auto|]. cbn [negb]. rewrite IH; auto. intros X. apply H. right. auto.
  Qed.
  Lemma fast_step_ok st l st' : current_first st -> fast_step st l = Ret (Some st') -> NoDup (keys st') -> table_step lower st l = Ret (Some st') /\ current_first st' /\ exists new, keys st' = new ++ keys st.
  Proof.
    intros I. destruct st as [ss al lk can cur]. unfold fast_step, table_step. destruct l as [line|]; cbn [question]; [|discriminate]. cbn zeta.
    destruct (_ || _). { intros [= <-] N. repeat split; auto. exists []. auto. }
    destruct (starts_with (chr " ") line).
    { destruct (aff_from_string (trim line)) as [[op|]| |]; cbn [bind question]; try discriminate. cbn [st_settings st_alias st_lookup st_canonical st_current].
      destruct ss as [|[k e] m]; [discriminate|]. destruct I as [I|(e0 & m0 & I)]; [discriminate I|]. cbn [st_settings st_current] in I. injection I as -> <- <-. intros H N. injection H as <-.
      cbn [get]. destruct (text_eqb_spec cur cur) as [_|X]; [|contradiction]. cbn [question].
      assert (Nc : ~ In cur (map fst m)) by (cbn [keys st_settings map fst] in N; unfold keys in N; cbn [st_settings map fst] in N; inversion N; auto).
      split; [|split; [right; cbn [st_settings st_current]; do 2 eexists; reflexivity|exists []; auto]]. unfold insert. cbn [filter fst]. destruct (text_eqb_spec cur cur) as [_|X]; [|contradiction]. cbn [negb]. rewrite filter_other by auto. reflexivity. }
    destruct (field_at (split_whitespace (trim line)) 0) as [f0| |]; cbn [bind]; try discriminate.
    destruct (text_eqb (lower f0) (str "alias")).
    { destruct (field_at _ 1) as [f1| |]; cbn [bind]; try discriminate. destruct (field_at _ 2) as [f2| |]; cbn [bind]; try discriminate. cbn [st_settings st_alias st_lookup st_canonical st_current]. intros H N. injection H as <-. repeat split; auto. exists []. auto. }
    destruct (text_eqb (lower f0) (str "lookup")).
    { destruct (make_lookup_entry lower _) as [[e|]| |]; cbn [bind question]; try discriminate. cbn [st_settings st_alias st_lookup st_canonical st_current]. intros H N. injection H as <-. repeat split; auto. exists []. auto. }
    destruct (fields_from _ 1) as [rest| |]; cbn [bind]; try discriminate. destruct (cmap_from_string (join rest)) as [[tr|]| |]; cbn [bind question]; try discriminate.
    destruct (cmap_is_identity tr) as [id| |]; cbn [bind]; try discriminate. cbn [st_settings st_alias st_lookup st_canonical st_current]. intros H N. injection H as <-.
    unfold keys in N. cbn [st_settings map fst] in N. inversion N; subst. split; [|split; [right; cbn [st_settings st_current]; eauto|exists [f0]; auto]].
    unfold insert. rewrite filter_other by auto. reflexivity.
  Qed.
  Lemma NoDup_app_r {A} (a b : list A) : NoDup (a ++ b) -> NoDup b.
  Proof. induction a as [|x a IH]; cbn; auto. intros H. inversion H; auto. Qed.
  Lemma fast_keys ls : forall st st', fast_loop st ls = Ret (Some st') -> exists new, keys st' = new ++ keys st.
  Proof.
    induction ls as [|l ls IH]; intros st st' H; cbn [fast_loop] in H; [injection H as <-; exists []; auto|]. destruct (fast_step st l) as [[st1|]| |] eqn:E; cbn [bind question] in H; try discriminate H.
    destruct (IH _ _ H) as (new & ->). assert (X : exists new1, keys st1 = new1 ++ keys st); [|destruct X as (new1 & ->); exists (new ++ new1); apply app_assoc].
    clear - E. revert E. unfold fast_step. destruct l as [line|]; cbn [question]; [|discriminate]. cbn zeta. destruct (_ || _); [intros [= <-]; exists []; auto|].
    destruct (starts_with (chr " ") line).
    { destruct (aff_from_string (trim line)) as [[op|]| |]; cbn [bind question]; try discriminate. unfold keys. destruct (st_settings st) as [|[k e] m]; [discriminate|]. intros H. injection H as <-. exists []. auto. }
    destruct (field_at (split_whitespace (trim line)) 0) as [f0| |]; cbn [bind]; try discriminate.
    destruct (text_eqb (lower f0) (str "alias")).
    { destruct (field_at _ 1) as [f1| |]; cbn [bind]; try discriminate. destruct (field_at _ 2) as [f2| |]; cbn [bind]; try discriminate. intros H. injection H as <-. exists []. auto. }
    destruct (text_eqb (lower f0) (str "lookup")).
    { destruct (make_lookup_entry lower _) as [[e|]| |]; cbn [bind question]; try discriminate. intros H. injection H as <-. exists []. auto. }
    destruct (fields_from _ 1) as [rest| |]; cbn [bind]; try discriminate. destruct (cmap_from_string (join rest)) as [[tr|]| |]; cbn [bind question]; try discriminate.
    destruct (cmap_is_identity tr) as [id| |]; cbn [bind]; try discriminate. intros H. injection H as <-. exists [f0]. auto.
  Qed.
  Lemma fast_loop_ok ls : forall st st', current_first st -> fast_loop st ls = Ret (Some st') -> NoDup (keys st') -> table_loop lower st ls = Ret (Some st').
  Proof.
    induction ls as [|l ls IH]; intros st st' I H N; cbn [fast_loop table_loop] in *; auto. destruct (fast_step st l) as [[st1|]| |] eqn:E; cbn [bind question] in H; try discriminate H.
    destruct (fast_keys _ _ _ H) as (new & Ek). assert (N1 : NoDup (keys st1)) by (rewrite Ek in N; eapply NoDup_app_r; eauto).
    destruct (fast_step_ok st l st1 I E N1) as (-> & I1 & _). cbn [bind question]. apply IH; auto.
  Qed.
End Lower.

(** ** only the letters a-z matter for the lower case of texts in ASCII *)
Definition ascii_text (t : text) : Prop := Forall (fun c => (c < 128)%N) t.
Lemma drop_white_ascii t : ascii_text t -> ascii_text (drop_white t).
Proof. induction t as [|c t IH]; intros H; auto. cbn [drop_white]. destruct (is_white c); auto. apply IH. inversion H; auto. Qed.
Lemma rev_ascii t : ascii_text t -> ascii_text (rev t).
Proof. apply Forall_rev. Qed.
Lemma trim_ascii t : ascii_text t -> ascii_text (trim t).
Proof. intros H. unfold trim. apply rev_ascii, drop_white_ascii, rev_ascii, drop_white_ascii. auto. Qed.
Lemma split_ascii t : forall w, ascii_text w -> ascii_text t -> Forall ascii_text (split_white w t).
Proof.
  induction t as [|c t IH]; intros w Hw Ht; cbn [split_white].
  - destruct w; constructor; auto.
  - inversion Ht; subst. destruct (is_white c).
    + destruct w; [apply IH; auto|constructor; auto; apply IH; auto; constructor].
    + apply IH; auto. apply Forall_app. auto.
Qed.
Lemma field_ascii fs i w : Forall ascii_text fs -> field_at fs i = Ret w -> ascii_text w.
Proof. intros F H. unfold field_at in H. destruct (nth_error fs i) as [x|] eqn:E; [|discriminate]. injection H as <-. rewrite Forall_forall in F. apply F. eapply nth_error_In; eauto. Qed.
Section Same.
  Variables lower1 lower2 : text -> text.
  Hypothesis same : forall t, ascii_text t -> lower1 t = lower2 t.
  Lemma lookup_same fs : Forall ascii_text fs -> make_lookup_entry lower1 fs = make_lookup_entry lower2 fs.
  Proof.
    intros F. unfold make_lookup_entry. destruct (field_at fs 1); cbn [bind]; auto. destruct (fields_from fs 4); cbn [bind]; auto. destruct (cmap_from_string _) as [[m|]| |]; cbn [bind question]; auto.
    destruct (field_at fs 2) as [f2| |] eqn:E; cbn [bind]; auto. unfold system_from_string. rewrite (same f2) by (eapply field_ascii; eauto). reflexivity.
  Qed.
  Lemma step_same st l : (forall t, l = Some t -> ascii_text t) -> table_step lower1 st l = table_step lower2 st l.
  Proof.
    intros A. unfold table_step. destruct l as [line|]; cbn [question]; auto. cbn zeta. specialize (A line eq_refl). apply trim_ascii in A. destruct (_ || _); auto. destruct (starts_with _ line); auto.
    pose proof (split_ascii (trim line) [] (Forall_nil _) A) as F. fold (split_whitespace (trim line)) in F. destruct (field_at (split_whitespace (trim line)) 0) as [f0| |] eqn:E; cbn [bind]; auto.
    rewrite (same f0) by (eapply field_ascii; eauto). rewrite (lookup_same _ F). reflexivity.
  Qed.
  Lemma table_same ls : (forall t, In (Some t) ls -> ascii_text t) -> forall st, table_loop lower1 st ls = table_loop lower2 st ls.
  Proof.
    induction ls as [|l ls IH]; intros A st; auto. cbn [table_loop]. rewrite step_same by (intros t ->; apply A; left; auto). destruct (table_step lower2 st l) as [[st'|]| |]; cbn [bind question]; auto.
    apply IH. intros t Ht. apply A. right. auto.
  Qed.
End Same.

(** ** the checks *)
Definition name_rows (t : text) : iop := [map Z.of_N t].
Lemma name_rows_inj s t : name_rows s = name_rows t -> s = t.
Proof. intros H. injection H as H. revert t H. induction s as [|c s IH]; intros [|d t] H; try discriminate; auto. cbn in H. injection H as H1 H2. apply N2Z.inj in H1. subst. f_equal. auto. Qed.
Lemma NoDup_of_map {A B} (f : A -> B) l : NoDup (map f l) -> NoDup l.
Proof. induction l as [|a l IH]; cbn; intros H; constructor; inversion H; auto. intros X. apply H2. apply in_map. auto. Qed.
Definition checked := (table_entry * nat * info)%type.
Definition setting_dim (e : table_entry) : nat := nrows (lin (fwd (te_transform e))).
Definition sized_b (n : nat) (a : @affine Qc) : bool := (nrows (lin a) =? n) && (ncols (lin a) =? n) && (nrows (shift a) =? n) && (ncols (shift a) =? 1).
Lemma sized_b_ok n a : sized_b n a = true -> sized n a.
Proof. unfold sized_b, sized. rewrite !andb_true_iff, !Nat.eqb_eq. tauto. Qed.
Definition identity_rows (n : nat) (e : table_entry) : bool := match rows_of n 1 24 (fwd (te_transform e)) with Some p => rows_eqb p (one n) | None => false end.
Definition setting_check (n : nat) (k : text) (e : table_entry) (i : info) (ec : table_entry) (nc : nat) (ic : info) : bool :=
  text_eqb k (te_name e) && (1 <=? n) && (n <=? 3) && (nc =? n) && text_eqb (te_canonical ec) (te_canonical e) && identity_rows n ec
  && forallb (sized_b n) (te_operators e) && sized_b n (fwd (te_transform e)) && sized_b n (bwd (te_transform e))
  && change_check n (fwd (te_transform e)) (bwd (te_transform e)) i ic.
(** the settings with their groups; each one is compared with its canonical setting, which is the setting itself or comes later in the list *)
Fixpoint settings_check (l : list (text * table_entry)) (hs : list (list nat)) : option (list (text * checked)) :=
  match l with
  | [] => Some []
  | (k, e) :: r =>
    match settings_check r (tl hs) with
    | None => None
    | Some rest =>
      match group_info (setting_dim e) (te_operators e) (hd [] hs) with
      | None => None
      | Some i =>
        match get (te_canonical e) ((k, (e, setting_dim e, i)) :: rest) with
        | None => None
        | Some (ec, nc, ic) => if setting_check (setting_dim e) k e i ec nc ic then Some ((k, (e, setting_dim e, i)) :: rest) else None
        end
      end
    end
  end.
(** ** crystal systems *)
Definition count_trace (ts : list Qc) (t : Z) : nat := length (filter (fun q => Qc_eqb q (ZQ t)) ts).
Definition system3_b (ts : list Qc) (s : crystal_system) : bool :=
  let c := count_trace ts in let r t k := c t =? k * c 3%Z in let none := forallb (fun t => c t =? 0) in
  (0 <? c 3%Z) &&
  match s with
  | Triclinic => none [-1; 0; 1; 2]%Z
  | Monoclinic => r (-1)%Z 1 && none [0; 1; 2]%Z
  | Orthorhombic => r (-1)%Z 3 && none [0; 1; 2]%Z
  | Tetragonal => r 1%Z 2 && none [0; 2]%Z
  | Trigonal => r 0%Z 2 && none [1; 2]%Z
  | Hexagonal => r 2%Z 2 && none [1]%Z
  | Cubic => r 0%Z 8 && none [2]%Z
  | Oblique | Rectangular | Square => false
  end.
Lemma count_with ops t : count_trace (map rotation_trace ops) t = with_trace ops t.
Proof. unfold count_trace, with_trace. induction ops as [|op ops IH]; auto. cbn [map filter]. destruct (Qc_eqb _ _); cbn [length]; auto. Qed.
Lemma system3_b_ok ops s : system3_b (map rotation_trace ops) s = true -> system3 ops s.
Proof.
  unfold system3_b, system3, rotations, no_more. cbn zeta. rewrite andb_true_iff, Nat.ltb_lt. rewrite !count_with. intros [H1 H]. split; auto. destruct s; try discriminate H; rewrite ?andb_true_iff, ?Nat.eqb_eq, ?count_with in H;
    try (destruct H as [H0 H]; split; [exact H0|]); rewrite forallb_forall in H; apply Forall_forall; intros t Ht; specialize (H t Ht); rewrite count_with, Nat.eqb_eq in H; exact H.
Qed.
(** the system found by the code in the plane *)
Definition system2_b (ops : list (@affine Qc)) (s : crystal_system) : bool := match crystal_system_and_basis_2d (map lin ops) with Ret (s', _) => crystal_system_beq s s' | _ => false end.
(** finder.rs 167-173: the first part of identitify_spacegroup_2d, up to pcell *)
Definition plane_cell (ops : list (@affine Qc)) : outcome (crystal_system * list (mat Qc)) :=
  do r <- crystal_system_and_basis_2d (map (@lin Qc) ops);
  do basis <- hstack (snd r);
  do t <- transpose basis; do i <- inverse t; do m <- unwrap i;
  do cell <- primitive_cell ops;
  do pcell <- mapM (mat_mul m) cell;
  Ret (fst r, pcell).
(** finder.rs 167-175: crystal system, normalized basis and centering in identitify_spacegroup_2d; the fuel is that of the lattice reduction *)
Definition classify_2d (fuel : nat) (ops : list (@affine Qc)) : outcome (crystal_system * list (mat Qc) * centering) :=
  do r <- plane_cell ops; do nb <- normalized_basis_2d fuel (fst r) (snd r); Ret (fst r, fst nb, snd nb).
Definition plane_check (l : lookup_entry) (ops : list (@affine Qc)) : bool :=
  match plane_cell ops with
  | Ret (s, pcell) => negb (text_eqb (lk_name l) (str "cm")) && crystal_system_beq s (lk_system l) &&
      match normalized_basis_2d 4 s pcell with
      | Ret (_, c) => if text_eqb (lk_name l) (str "c2mm") then centering_beq c Primitive2d && centering_beq (lk_centering l) Centered2d else centering_beq c (lk_centering l)
      | _ => false
      end
  | Panic => text_eqb (lk_name l) (str "cm") && centering_beq (lk_centering l) Centered2d
  | Timeout => false
  end.
Definition parts (c : centering) : list (list Z) :=
  (match c with
  | Primitive2d => [[0; 0]]
  | Centered2d => [[0; 0]; [12; 12]]
  | Primitive => [[0; 0; 0]]
  | BodyCentered => [[0; 0; 0]; [12; 12; 12]]
  | FaceCentered => [[0; 0; 0]; [0; 12; 12]; [12; 0; 12]; [12; 12; 0]]
  | AFaceCentered => [[0; 0; 0]; [0; 12; 12]]
  | BFaceCentered => [[0; 0; 0]; [12; 0; 12]]
  | CFaceCentered => [[0; 0; 0]; [12; 12; 0]]
  | Rhombohedral => [[0; 0; 0]; [16; 8; 8]; [8; 16; 16]]
  end)%Z.
Definition centering_dim (c : centering) : nat := match c with Primitive2d | Centered2d => 2 | _ => 3 end.
Lemma parts_ok c : centering_vectors c = map (part24 (centering_dim c)) (parts c).
Proof. destruct c; cbn [centering_vectors parts map centering_dim]; unfold part24, from_coordinates; cbn [seq map nth]; repeat f_equal; apply Qc_is_canon; vm_compute; reflexivity. Qed.
Definition lookup_check (infos : list (text * checked)) (e : lookup_entry) : bool :=
  match get (lk_name e) infos with
  | Some (te, n, i) => text_eqb (te_canonical te) (lk_name e) && (n =? centering_dim (lk_centering e)) && sized_b n (fwd (lk_from_std e)) && sized_b n (bwd (lk_from_std e)) &&
      centered_check n (fwd (lk_from_std e)) (bwd (lk_from_std e)) i (parts (lk_centering e)) &&
      (if n =? 2 then system2_b (te_operators te) (lk_system e) && plane_check e (te_operators te) else system3_b (map rotation_trace (te_operators te)) (lk_system e))
  | None => false
  end.
Definition canonical_check (names : map_t) (p : text * checked) : bool :=
  let '(k, (e, n, _)) := p in if text_eqb (te_canonical e) k && (2 <=? n) then found (name_rows k) names else true.
Definition dangling : list (text * text) :=
  [(str "Pn3", str "Pn-3"); (str "Fd3", str "Fd-3"); (str "Pn3n", str "Pn-3n"); (str "Pn3m", str "Pn-3m"); (str "Fd3m", str "Fd-3m"); (str "Fd3c", str "Fd-3c")].
Definition mem_alias (p : text * text) (l : list (text * text)) : bool := existsb (fun q => text_eqb (fst p) (fst q) && text_eqb (snd p) (snd q)) l.
Definition is_none {A} (o : option A) : bool := match o with None => true | Some _ => false end.
Definition alias_check (infos : list (text * checked)) (p : text * text) : bool := (if mem_alias p dangling then is_none (get (snd p) infos) else negb (is_none (get (snd p) infos))) && is_none (get (fst p) infos).
Definition opposite_check (infos : list (text * checked)) : bool :=
  match get (str "P112") infos with
  | Some (e, n, i) => match get (te_canonical e) infos with Some (ec, _, ic) => differ_check n (fwd (te_transform e)) (bwd (te_transform e)) ic i | None => false end
  | None => false
  end.
Definition state_check (st : table_state) : bool :=
  match build (map name_rows (keys st)), settings_check (st_settings st) hints, build (map (fun e => name_rows (lk_name e)) (st_lookup st)) with
  | Some _, Some infos, Some names =>
      (length (st_settings st) =? 549) && (length (st_alias st) =? 52) && (length (st_lookup st) =? 247) &&
      forallb (lookup_check infos) (st_lookup st) && forallb (canonical_check names) infos && forallb (alias_check infos) (st_alias st) &&
      forallb (fun p => mem_alias p (st_alias st)) dangling && opposite_check infos && found (name_rows (str "cm")) names && found (name_rows (str "c2mm")) names &&
      forallb (fun l => negb (text_eqb (lk_name l) (str "cm") || text_eqb (lk_name l) (str "c2mm")) || (centering_dim (lk_centering l) =? 2)) (st_lookup st)
  | _, _, _ => false
  end.
Definition ascii_check (l : option text) : bool := match l with Some t => forallb (fun c => N.ltb c 128) t | None => true end.
Definition result_check (r : outcome (option table_state)) : bool := match r with Ret (Some st) => state_check st | _ => false end.
Definition lines_check (ls : list (option text)) : bool := forallb ascii_check ls && result_check (fast_loop (map lower_ascii) (State [] [] [] [] []) ls).
Definition table_check (bytes : list N) : bool := lines_check (input_lines bytes).
Lemma shipped_ok : table_check shipped = true.
Proof. vm_cast_no_check (eq_refl true). Qed.

(** ** what the checks say *)
Lemma get_in {A} k (m : list (text * A)) a : get k m = Some a -> In (k, a) m.
Proof. induction m as [|[k' b] m IH]; cbn [get]; [discriminate|]. destruct (text_eqb_spec k k') as [->|_]; [intros [= ->]; left; auto|intros H; right; auto]. Qed.
Lemma in_get {A} k (m : list (text * A)) a : NoDup (map fst m) -> In (k, a) m -> get k m = Some a.
Proof.
  induction m as [|[k' b] m IH]; intros N H; [destruct H|]. cbn [map fst] in N. inversion N; subst. cbn [get]. destruct H as [H|H].
  - injection H as -> ->. destruct (text_eqb_spec k k); congruence.
  - destruct (text_eqb_spec k k') as [->|_]; auto. exfalso. apply H2. apply (in_map fst) in H. exact H.
Qed.
Lemma settings_check_ok : forall l hs infos, settings_check l hs = Some infos -> map (fun p => (fst p, fst (fst (snd p)))) infos = l /\
  forall k e n i, In (k, (e, n, i)) infos -> info_ok n (te_operators e) i /\ exists ec nc ic, In (te_canonical e, (ec, nc, ic)) infos /\ setting_check n k e i ec nc ic = true.
Proof.
  induction l as [|[k e] l IH]; intros hs infos H; cbn [settings_check] in H.
  - injection H as <-. split; [reflexivity|]. intros k e n i [].
  - destruct (settings_check l (tl hs)) as [rest|] eqn:E; [|discriminate H]. destruct (group_info (setting_dim e) (te_operators e) (hd [] hs)) as [i|] eqn:Ei; [|discriminate H].
    destruct (get (te_canonical e) ((k, (e, setting_dim e, i)) :: rest)) as [[[ec nc] ic]|] eqn:Eg; [|discriminate H]. destruct (setting_check (setting_dim e) k e i ec nc ic) eqn:C; [|discriminate H]. injection H as <-.
    destruct (IH _ _ E) as [M F]. split; [cbn [map fst snd]; rewrite M; reflexivity|]. intros k' e' n' i' [X|X].
    + injection X as <- <- <- <-. split; [eapply group_info_ok; eauto|]. exists ec, nc, ic. split; auto. apply get_in. exact Eg.
    + destruct (F _ _ _ _ X) as (O & ec' & nc' & ic' & I' & C'). split; auto. exists ec', nc', ic'. split; auto. right. exact I'.
Qed.
Definition ascii_lower (lower : text -> text) : Prop := forall t, ascii_text t -> lower t = map lower_ascii t.
Record facts (t : tables) (infos : list (text * checked)) : Prop := {
  f_nodup : NoDup (map fst (settings t));
  f_settings : map (fun p => (fst p, fst (fst (snd p)))) infos = settings t;
  f_good : forall k e n i, In (k, (e, n, i)) infos -> info_ok n (te_operators e) i /\ exists ec nc ic, In (te_canonical e, (ec, nc, ic)) infos /\ setting_check n k e i ec nc ic = true;
  f_counts : length (settings t) = 549 /\ length (alias t) = 52 /\ length (lookup t) = 247;
  f_lookup : forall l, In l (lookup t) -> lookup_check infos l = true;
  f_once : NoDup (map lk_name (lookup t));
  f_canonical : forall k e n i, In (k, (e, n, i)) infos -> te_canonical e = k -> 2 <= n -> In k (map lk_name (lookup t));
  f_alias : forall p, In p (alias t) -> alias_check infos p = true;
  f_dangling : forall p, In p dangling -> In p (alias t);
  f_opposite : opposite_check infos = true;
  f_two : forall l, In l (lookup t) -> In (lk_name l) [str "cm"; str "c2mm"] -> centering_dim (lk_centering l) = 2;
  f_plane : forall k, In k [str "cm"; str "c2mm"] -> In k (map lk_name (lookup t)) }.
Lemma mem_alias_in p l : mem_alias p l = true <-> In p l.
Proof.
  unfold mem_alias. rewrite existsb_exists. split.
  - intros (q & Hq & E). apply andb_prop in E as [E1 E2]. destruct (text_eqb_spec (fst p) (fst q)); [|discriminate]. destruct (text_eqb_spec (snd p) (snd q)); [|discriminate]. destruct p, q. cbn in *. subst. auto.
  - intros H. exists p. split; auto. destruct (text_eqb_spec (fst p) (fst p)); [|congruence]. destruct (text_eqb_spec (snd p) (snd p)); [auto|congruence].
Qed.
Lemma state_facts st : state_check st = true -> exists infos, facts (Tables (st_settings st) (st_alias st) (st_lookup st)) infos.
Proof.
  unfold state_check. destruct (build (map name_rows (keys st))) as [m|] eqn:Eb; [|discriminate]. destruct (settings_check (st_settings st) hints) as [infos|] eqn:Es; [|discriminate].
  destruct (build (map (fun e => name_rows (lk_name e)) (st_lookup st))) as [names|] eqn:En; [|discriminate]. rewrite !andb_true_iff, !Nat.eqb_eq, !forallb_forall. intros ((((((((((L1 & L2) & L3) & HL) & HC) & HA) & HD) & HO) & HP1) & HP2) & HT).
  exists infos. apply build_ok in Eb as [_ Nb]. apply build_ok in En as [Cn Nn]. destruct (settings_check_ok _ _ _ Es) as [M F]. split; cbn [settings alias lookup]; auto.
  - eapply NoDup_of_map; eauto.
  - rewrite <- map_map in Nn. eapply NoDup_of_map; eauto.
  - intros k e n i I Ek Hn. specialize (HC _ I). unfold canonical_check in HC. destruct (text_eqb_spec (te_canonical e) k) as [_|X]; [|contradiction]. destruct (Nat.leb_spec 2 n) as [_|X]; [|lia]. cbn [andb] in HC.
    apply (found_in _ _ _ Cn) in HC. rewrite <- map_map in HC. apply in_map_iff in HC as (k' & E & Hk'). apply name_rows_inj in E. subst. auto.
  - intros p Hp. apply mem_alias_in. auto.
  - intros l Hl Hk. specialize (HT l Hl). cbn beta in HT. destruct (text_eqb_spec (lk_name l) (str "cm")); [apply Nat.eqb_eq; auto|]. destruct (text_eqb_spec (lk_name l) (str "c2mm")); [apply Nat.eqb_eq; auto|]. destruct Hk as [X|[X|[]]]; congruence.
  - intros k [<-|[<-|[]]]; [apply (found_in _ _ _ Cn) in HP1; rename HP1 into HP|apply (found_in _ _ _ Cn) in HP2; rename HP2 into HP]; rewrite <- map_map in HP; apply in_map_iff in HP as (k' & E & Hk'); apply name_rows_inj in E; rewrite <- E; exact Hk'.
Qed.
(** more fuel does not change the result *)
Lemma bind_mono {A B} (x x' : outcome A) (f : A -> outcome B) r : (forall a, x = Ret a -> x' = Ret a) -> bind x f = Ret r -> bind x' f = Ret r.
Proof. intros H. destruct x as [a| |]; cbn [bind]; try discriminate. rewrite (H a eq_refl). auto. Qed.
Lemma dirichlet_mono dot eps n n' b r : n <= n' -> dirichlet_vectors dot eps n b = Ret r -> dirichlet_vectors dot eps n' b = Ret r.
Proof.
  intros Hn. unfold dirichlet_vectors. destruct (assert _); cbn [bind]; auto. destruct b as [|b0 [|b1 [|b2 [|b3 b]]]]; auto; apply bind_mono; intros p Hp.
  - unfold lagrange_reduced in *. destruct (q_ltb (dot b1 b1) (dot b0 b0)); revert Hp; apply bind_mono; intros c Hc; apply (loop_mono _ n n'); auto.
  - unfold selling_reduced in *. revert Hp. apply bind_mono. intros c Hc. apply (loop_mono _ n n'); auto.
Qed.
Lemma normalized_mono n n' s b r : n <= n' -> normalized_basis_2d n s b = Ret r -> normalized_basis_2d n' s b = Ret r.
Proof.
  intros Hn. unfold normalized_basis_2d. apply bind_mono. intros o. unfold reduced_lattice_basis. destruct (unwrap _); cbn [bind]; auto. apply bind_mono. intros ws. apply dirichlet_mono. auto.
Qed.
Lemma table_facts lower ls : ascii_lower lower -> lines_check ls = true -> exists st infos, table_loop lower (State [] [] [] [] []) ls = Ret (Some st) /\ facts (Tables (st_settings st) (st_alias st) (st_lookup st)) infos.
Proof.
  intros A H. unfold lines_check in H. apply andb_prop in H as [H1 H2]. rewrite forallb_forall in H1.
  assert (S : table_loop lower (State [] [] [] [] []) ls = table_loop (map lower_ascii) (State [] [] [] [] []) ls).
  { apply table_same; auto. intros t Ht. specialize (H1 _ Ht). cbn [ascii_check] in H1. rewrite forallb_forall in H1. apply Forall_forall. intros c Hc. apply N.ltb_lt. auto. }
  rewrite S. clear S. destruct (fast_loop (map lower_ascii) (State [] [] [] [] []) ls) as [[st|]| |] eqn:E; cbn [result_check] in H2; try discriminate H2. destruct (state_facts st H2) as (infos & F).
  exists st, infos. split; auto. apply fast_loop_ok; auto; [left; reflexivity|exact (f_nodup _ _ F)].
Qed.
Lemma bytes_facts lower bytes : ascii_lower lower -> table_check bytes = true -> exists t infos, parse_space_group_table lower bytes = Ret (Some t) /\ facts t infos.
Proof. intros A H. destruct (table_facts lower (input_lines bytes) A H) as (st & infos & E & F). unfold parse_space_group_table. rewrite E. cbn [bind question]. eauto. Qed.
Lemma shipped_facts lower : ascii_lower lower -> exists t infos, parse_space_group_table lower shipped = Ret (Some t) /\ facts t infos.
Proof. intros A. exact (bytes_facts lower shipped A shipped_ok). Qed.
