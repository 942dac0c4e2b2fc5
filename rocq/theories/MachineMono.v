(** Two builds: if the arithmetic of the first panics or agrees with that of
    the second, so does every function. *)
From Coq Require Import List ZArith Lia Bool PeanoNat.
From Verif Require Import Base Vec Elim Scalars Matrix LinAlg OrdSet PGraph Machine MachineRef.
Import ListNotations.
Open Scope Z_scope.

Section Mono.
  Variables c1 c2 : Z -> outcome Z.
  Hypothesis C : forall z, safe (c1 z) (c2 z).

  Ltac mono lems :=
    lazymatch goal with
    | |- safe ?x ?x => apply safe_refl
    | |- safe (c1 _) (c2 _) => apply C
    | |- safe (bind _ _) (bind _ _) => apply safe_bind; [mono lems|]; intros; mono lems
    | |- safe (mapM _ _) (mapM _ _) => apply safe_mapM; intros; mono lems
    | |- safe (foldM _ _ _) (foldM _ _ _) => apply safe_foldM; intros; mono lems
    | |- safe (omap _ _) (omap _ _) => apply safe_omap; mono lems
    | |- safe (loop _ _ _) (loop _ _ _) => apply safe_loop; intros; mono lems
    | |- safe (match ?x with _ => _ end) (match ?x with _ => _ end) => destruct x; mono lems
    | |- _ => lems
    end.

  Lemma mono_submul a q b : safe (m_submul c1 a q b) (m_submul c2 a q b).
  Proof. unfold m_submul. mono fail. Qed.
  Lemma mono_dot2 x y z w : safe (m_dot2 c1 x y z w) (m_dot2 c2 x y z w).
  Proof. unfold m_dot2. mono fail. Qed.
  Lemma mono_quot x y : safe (m_quot c1 x y) (m_quot c2 x y).
  Proof. unfold m_quot. mono fail. Qed.
  Lemma mono_rem x y : safe (m_rem c1 x y) (m_rem c2 x y).
  Proof. unfold m_rem. mono fail. Qed.
  Lemma mono_mul3 x y z : safe (m_mul3 c1 x y z) (m_mul3 c2 x y z).
  Proof. unfold m_mul3. mono fail. Qed.
  Lemma mono_gcdx a b : safe (m_gcdx c1 a b) (m_gcdx c2 a b).
  Proof. unfold m_gcdx, m_gcdx_step. mono ltac:(first [apply mono_quot|apply mono_submul]). Qed.
  Lemma mono_clear_from r s t u det k v b : safe (m_clear_from c1 r s t u det k v b) (m_clear_from c2 r s t u det k v b).
  Proof.
    revert k b. induction v as [|x v IH]; intros k [|y b]; cbn [m_clear_from]; try apply safe_refl.
    mono ltac:(first [apply mono_dot2|apply IH]).
  Qed.
  Lemma mono_clear col v b : safe (m_clear c1 col v b) (m_clear c2 col v b).
  Proof. unfold m_clear. mono ltac:(first [apply mono_gcdx|apply mono_submul|apply mono_clear_from]). Qed.
  Lemma mono_neg_from k v : safe (m_neg_from c1 k v) (m_neg_from c2 k v).
  Proof. revert k. induction v as [|x v IH]; intros k; cbn [m_neg_from]; mono ltac:(apply IH). Qed.
  Lemma mono_normalize col v : safe (m_normalize c1 col v) (m_normalize c2 col v).
  Proof. unfold m_normalize. mono ltac:(apply mono_neg_from). Qed.
  Lemma mono_sub_from f k v b : safe (m_sub_from c1 f k v b) (m_sub_from c2 f k v b).
  Proof. revert k b. induction v as [|x v IH]; intros k [|y b]; cbn [m_sub_from]; mono ltac:(first [apply mono_submul|apply IH]). Qed.
  Lemma mono_reduce col v b : safe (m_reduce c1 col v b) (m_reduce c2 col v b).
  Proof. unfold m_reduce. mono ltac:(first [apply mono_quot|apply mono_sub_from]). Qed.
  Lemma mono_residual a x col t : safe (m_residual c1 a x col t) (m_residual c2 a x col t).
  Proof. revert a t. induction x as [|xi x IH]; intros [|ai a] t; cbn [m_residual]; mono ltac:(first [apply mono_submul|apply IH]). Qed.
  Lemma mono_solve_row a x col b : safe (m_solve_row_from c1 a x col b) (m_solve_row_from c2 a x col b).
  Proof. revert col. induction b as [|bc b IH]; intros col; cbn [m_solve_row_from]; mono ltac:(first [apply mono_residual|apply mono_rem|apply mono_quot|apply IH]). Qed.
  Lemma mono_extend v bs : safe (m_extend_basis c1 v bs) (m_extend_basis c2 v bs).
  Proof. revert v. induction bs as [|b bs IH]; intros v; cbn [m_extend_basis]; mono ltac:(first [apply mono_clear|apply IH]). Qed.
  Lemma mono_extend_all bs rows : safe (m_extend_all c1 bs rows) (m_extend_all c2 bs rows).
  Proof. unfold m_extend_all. mono ltac:(apply mono_extend). Qed.
  Lemma mono_reduce_rows todo done col : safe (@reduce_rows Z _ (m_scalar c1) done todo col) (@reduce_rows Z _ (m_scalar c2) done todo col).
  Proof.
    revert done col. induction todo as [|b todo IH]; intros done col; cbn [reduce_rows]; [apply safe_refl|].
    mono ltac:(first [apply mono_normalize|apply mono_reduce|apply IH]).
  Qed.
  Lemma mono_solve_rows b r is x : safe (@solve_rows Z _ (m_scalar c1) b r is x) (@solve_rows Z _ (m_scalar c2) b r is x).
  Proof. revert x. induction is as [|i is IH]; intros x; cbn [solve_rows]; [apply safe_refl|]. mono ltac:(first [apply mono_solve_row|apply IH]). Qed.
  Lemma mono_rank m : safe (m_rank c1 m) (m_rank c2 m).
  Proof. unfold m_rank. mono ltac:(apply mono_extend_all). Qed.
  Lemma mono_diag n bs : safe (m_diag_product c1 n bs) (m_diag_product c2 n bs).
  Proof. unfold m_diag_product. mono fail. Qed.
  Lemma mono_determinant m : safe (m_determinant c1 m) (m_determinant c2 m).
  Proof. unfold m_determinant. cbv zeta. mono ltac:(first [apply mono_mul3|apply mono_extend_all|apply mono_diag]). Qed.
  Lemma mono_reduced_basis m : safe (m_reduced_basis c1 m) (m_reduced_basis c2 m).
  Proof. unfold m_reduced_basis. mono ltac:(first [apply mono_extend_all|apply mono_reduce_rows]). Qed.
  Lemma mono_mat_mul a b : safe (m_mat_mul c1 a b) (m_mat_mul c2 a b).
  Proof. unfold m_mat_mul, m_mul_entry. mono fail. Qed.
  Lemma mono_solve a b : safe (m_solve c1 a b) (m_solve c2 a b).
  Proof. unfold m_solve. mono ltac:(first [apply mono_reduced_basis|apply mono_rank|apply mono_solve_rows|apply mono_mat_mul]). Qed.
  Lemma mono_null_space a : safe (m_null_space c1 a) (m_null_space c2 a).
  Proof. unfold m_null_space. mono ltac:(first [apply mono_reduced_basis|apply mono_rank]). Qed.
  Lemma mono_inverse a : safe (m_inverse c1 a) (m_inverse c2 a).
  Proof. unfold m_inverse. mono ltac:(apply mono_solve). Qed.

  Lemma mono_rev e : safe (m_rev c1 e) (m_rev c2 e).
  Proof. unfold m_rev, m_sneg. mono fail. Qed.
  Lemma mono_canonical e : safe (m_canonical c1 e) (m_canonical c2 e).
  Proof. unfold m_canonical. mono ltac:(apply mono_rev). Qed.
  Lemma mono_gnew d raw : safe (m_gnew c1 d raw) (m_gnew c2 d raw).
  Proof. unfold m_gnew. mono ltac:(apply mono_canonical). Qed.
  Lemma mono_incidences g v : safe (m_incidences c1 g v) (m_incidences c2 g v).
  Proof. unfold m_incidences, m_incidence_map. mono ltac:(apply mono_rev). Qed.
  Lemma mono_directed_edges g : safe (m_directed_edges c1 g) (m_directed_edges c2 g).
  Proof. unfold m_directed_edges. mono ltac:(apply mono_incidences). Qed.
  Lemma mono_sadd a b : safe (m_sadd c1 a b) (m_sadd c2 a b).
  Proof. unfold m_sadd. mono fail. Qed.
  Lemma mono_ssub a b : safe (m_ssub c1 a b) (m_ssub c2 a b).
  Proof. unfold m_ssub. mono fail. Qed.
  Lemma mono_cs_next order g st : safe (m_cs_next c1 order g st) (m_cs_next c2 order g st).
  Proof. unfold m_cs_next. mono ltac:(first [apply mono_incidences|apply mono_sadd]). Qed.
  Lemma mono_cs_take order g n st : safe (m_cs_take c1 order g n st) (m_cs_take c2 order g n st).
  Proof. revert st. induction n as [|n IH]; intros st; cbn [m_cs_take]; mono ltac:(first [apply mono_cs_next|apply IH]). Qed.
  Lemma mono_tr_edge st e : safe (m_tr_edge c1 st e) (m_tr_edge c2 st e).
  Proof. unfold m_tr_edge. mono ltac:(first [apply mono_sadd|apply mono_ssub|apply mono_canonical]). Qed.
  Lemma mono_traverse g v : safe (m_traverse c1 g v) (m_traverse c2 g v).
  Proof. unfold m_traverse, m_tr_body. mono ltac:(first [apply mono_incidences|apply mono_tr_edge]). Qed.
  Lemma mono_shift_normalized g : safe (m_shift_normalized c1 g) (m_shift_normalized c2 g).
  Proof. unfold m_shift_normalized. mono ltac:(first [apply mono_traverse|apply mono_gnew]). Qed.
  Lemma mono_component_measures g v : safe (m_component_measures c1 g v) (m_component_measures c2 g v).
  Proof. unfold m_component_measures. cbv zeta. mono ltac:(first [apply mono_traverse|apply mono_extend|apply mono_diag]). Qed.
  Lemma mono_is_connected g : safe (m_is_connected c1 g) (m_is_connected c2 g).
  Proof. unfold m_is_connected. mono ltac:(apply mono_component_measures). Qed.
End Mono.
