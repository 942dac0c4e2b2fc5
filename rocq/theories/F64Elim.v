(** Linear algebra with exact intermediate results: the generic functions of LinAlg.v over a scalar type of checked
    rational numbers, where a result that is not the value of an f64 is reported as [None].  This is a yardstick for
    Matrix<f64>, it models no further code; the formulas are those of [impl Scalar for f64]. *)
From Coq Require Import List ZArith Lia Bool PeanoNat.
From Coq Require Import QArith Qcanon.
From Coq Require Import Floats.SpecFloat.
From Verif Require Import Base Vec Elim Scalars Matrix LinAlg ZQ F64 F64Exact F64Round F64Det Simulate.
Import ListNotations.
Close Scope Q_scope. Close Scope Qc_scope.
Open Scope nat_scope.

(** a rational number that is the value of an f64, or the report that some result was not *)
Definition checked := option Qc.

(** is [q] the value of an f64?  (decided by rounding) *)
Definition fitsb (q : Qc) : bool := match rnd64 q with Some r => Qc_eqb r q | None => false end.

Lemma fitsb_spec q : fitsb q = true <-> fits q.
Proof.
  unfold fitsb. split.
  - destruct (rnd64 q) as [r|] eqn:E; [|discriminate]. intros H. destruct (Qc_eqb_spec r q) as [<-|]; [|discriminate].
    eapply rnd64_fits; eauto.
  - intros H. rewrite (rnd64_exact q H). destruct (Qc_eqb_spec q q); congruence.
Qed.

Definition chk (q : Qc) : checked := if fitsb q then Some q else None.
Definition chk2 (f : Qc -> Qc -> Qc) (x y : checked) : checked :=
  match x, y with Some a, Some b => chk (f a b) | _, _ => None end.
(** division by zero is reported as well *)
Definition cdiv (x y : checked) : checked :=
  match y with Some b => if Qc_eqb b 0%Qc then None else chk2 Qcdiv x y | None => None end.

#[global] Instance checked_dom : Dom checked := {|
  r0 := Some 0%Qc; r1 := Some 1%Qc; radd := chk2 Qcplus; rmul := chk2 Qcmult; rsub := chk2 Qcminus;
  ropp := option_map Qcopp;
  reqb := fun x y => match x, y with Some a, Some b => Qc_eqb a b | _, _ => false end |}.

Definition is_exact (x : checked) : bool := match x with Some _ => true | None => false end.
(** all of a new row is exact *)
Definition exact_row (v : list checked) : outcome (list checked) := if forallb is_exact v then Ret v else Panic.

Definition clear_column_c (col : nat) (v b : list checked) : outcome (list checked * list checked) :=
  do vc <- unwrap (nth_error v col);
  do bc <- unwrap (nth_error b col);
  let f := cdiv vc bc in
  do _ <- covers v b;
  do v' <- exact_row (zip_from (S col) (fun vk bk => chk2 Qcminus vk (chk2 Qcmult bk f)) (upd col (Some 0%Qc) v) b);
  Ret (v', b).
Definition normalize_column_c (col : nat) (v : list checked) : outcome (list checked) :=
  do f <- unwrap (nth_error v col);
  exact_row (map_from (S col) (fun x => cdiv x f) (upd col (Some 1%Qc) v)).
Definition reduce_column_c (col : nat) (v b : list checked) : outcome (list checked) :=
  do f <- unwrap (nth_error v col);
  do _ <- covers v b;
  exact_row (zip_from (S col) (fun vk bk => chk2 Qcminus vk (chk2 Qcmult bk f)) (upd col (Some 0%Qc) v) b).
Definition solve_row_c (a : list checked) (x : list (list checked)) (b : list checked) : outcome (option (list checked)) :=
  Ret (Some b).

#[global] Instance checked_scalar : Scalar checked := {|
  s_clear := clear_column_c; s_normalize := normalize_column_c; s_reduce := reduce_column_c; s_solve_row := solve_row_c |}.

(** a rational matrix as a checked one *)
Definition lift (m : mat Qc) : mat checked := Mat (nrows m) (ncols m) (map Some (data m)).

Lemma chk_Some q r : chk q = Some r -> q = r /\ fits r.
Proof. unfold chk. destruct (fitsb q) eqn:E; [|discriminate]. intros X. injection X as <-. split; auto. apply fitsb_spec; auto. Qed.

Lemma chk2_Some f x y r : chk2 f x y = Some r -> exists a b, x = Some a /\ y = Some b /\ r = f a b /\ fits (f a b).
Proof.
  destruct x as [a|], y as [b|]; try discriminate. intros H. apply chk_Some in H as (<- & H). exists a, b. auto.
Qed.

Lemma cdiv_Some x y r : cdiv x y = Some r -> exists a b, x = Some a /\ y = Some b /\ b <> 0%Qc /\ r = (a / b)%Qc /\ fits (a / b)%Qc.
Proof.
  destruct y as [b|]; [|discriminate]. unfold cdiv. destruct (Qc_eqb_spec b 0) as [|N]; [discriminate|].
  intros H. apply chk2_Some in H as (a & b' & -> & E & -> & F). injection E as <-. exists a, b. auto.
Qed.

(** ** relations for the functions on rows *)
Section Rows.
  Context {A B : Type}.
  Variable Q : A -> B -> Prop.

  Lemma upd_rel v v' k x x' : Forall2 Q v v' -> Q x x' -> Forall2 Q (upd k x v) (upd k x' v').
  Proof. intros F H. revert k. induction F; intros [|k]; simpl; constructor; auto. Qed.

  Lemma zip_rel f g : (forall x x' y y', Q x x' -> Q y y' -> Q (f x y) (g x' y')) -> forall v v', Forall2 Q v v' ->
    forall b b' k, Forall2 Q b b' -> Forall2 Q (zip_from k f v b) (zip_from k g v' b').
  Proof.
    intros H. induction 1 as [|x x' v v' Hx F IH]; intros b b' k G; simpl; [constructor|].
    destruct G as [|y y' b b' Hy G]; constructor; auto. destruct k; auto.
  Qed.

  Lemma map_rel f g : (forall x x', Q x x' -> Q (f x) (g x')) -> forall v v', Forall2 Q v v' ->
    forall k, Forall2 Q (map_from k f v) (map_from k g v').
  Proof.
    intros H. induction 1 as [|x x' v v' Hx F IH]; intros k; simpl; constructor; auto. destruct k; auto.
  Qed.
End Rows.

(** ** any scalar type with the formulas of f64 follows the checked numbers *)
Section Follow.
  Context {R : Type} {D : Dom R} {SR : Scalar R}.
  (** [rel q y]: the scalar [y] stands for [q] *)
  Variable rel : Qc -> R -> Prop.
  Variable dv : R -> R -> R.
  Hypothesis rel0 : rel 0%Qc r0.
  Hypothesis rel1 : rel 1%Qc r1.
  Hypothesis relopp : forall a x, rel a x -> rel (- a)%Qc (ropp x).
  Hypothesis relz : forall a x, rel a x -> Qc_eqb a 0%Qc = reqb x r0.
  Hypothesis reladd : forall a b x y, rel a x -> rel b y -> fits (a + b)%Qc -> rel (a + b)%Qc (radd x y).
  Hypothesis relsub : forall a b x y, rel a x -> rel b y -> fits (a - b)%Qc -> rel (a - b)%Qc (rsub x y).
  Hypothesis relmul : forall a b x y, rel a x -> rel b y -> fits (a * b)%Qc -> rel (a * b)%Qc (rmul x y).
  Hypothesis reldiv : forall a b x y, rel a x -> rel b y -> b <> 0%Qc -> fits (a / b)%Qc -> rel (a / b)%Qc (dv x y).
  Hypothesis Hclear : forall col v b vc bc, nth_error v col = Some vc -> nth_error b col = Some bc -> length v <= length b ->
    reqb bc r0 = false ->
    s_clear col v b = Ret (zip_from (S col) (fun vk bk => rsub vk (rmul bk (dv vc bc))) (upd col r0 v) b, b).
  Hypothesis Hnorm : forall col v f, nth_error v col = Some f -> reqb f r0 = false ->
    s_normalize col v = Ret (map_from (S col) (fun x => dv x f) (upd col r1 v)).
  Hypothesis Hreduce : forall col v b f, nth_error v col = Some f -> length v <= length b ->
    s_reduce col v b = Ret (zip_from (S col) (fun vk bk => rsub vk (rmul bk f)) (upd col r0 v) b).
  Hypothesis Hrow : forall a x b, s_solve_row a x b = Ret (Some b).

  (** exact, or not *)
  Definition frel (x : checked) (y : R) : Prop := exists q, x = Some q /\ rel q y.
  Definition wrel (x : checked) (y : R) : Prop := forall q, x = Some q -> rel q y.

  Lemma frel_wrel x y : frel x y -> wrel x y.
  Proof. intros (q & -> & H) r E. injection E as <-. auto. Qed.

  Lemma wrel_add x y x' y' : wrel x y -> wrel x' y' -> wrel (chk2 Qcplus x x') (radd y y').
  Proof. intros H H' q E. apply chk2_Some in E as (a & b & -> & -> & -> & F). auto. Qed.
  Lemma wrel_sub x y x' y' : wrel x y -> wrel x' y' -> wrel (chk2 Qcminus x x') (rsub y y').
  Proof. intros H H' q E. apply chk2_Some in E as (a & b & -> & -> & -> & F). auto. Qed.
  Lemma wrel_mul x y x' y' : wrel x y -> wrel x' y' -> wrel (chk2 Qcmult x x') (rmul y y').
  Proof. intros H H' q E. apply chk2_Some in E as (a & b & -> & -> & -> & F). auto. Qed.
  Lemma wrel_div x y x' y' : wrel x y -> wrel x' y' -> wrel (cdiv x x') (dv y y').
  Proof. intros H H' q E. apply cdiv_Some in E as (a & b & -> & -> & N & -> & F). auto. Qed.
  Lemma frel_opp x y : frel x y -> frel (option_map Qcopp x) (ropp y).
  Proof. intros (q & -> & H). exists (- q)%Qc. simpl. auto. Qed.
  Lemma frel_z x y : frel x y -> reqb x r0 = reqb y r0.
  Proof. intros (q & -> & H). simpl. auto. Qed.
  Lemma frel0 : frel (Some 0%Qc) r0. Proof. exists 0%Qc. auto. Qed.
  Lemma frel1 : frel (Some 1%Qc) r1. Proof. exists 1%Qc. auto. Qed.

  Lemma weak_row v v' : Forall2 frel v v' -> Forall2 wrel v v'.
  Proof. apply Forall2_weaken. apply frel_wrel. Qed.

  Lemma exact_row_sim v v' w : Forall2 wrel v v' -> exact_row v = Ret w -> Forall2 frel w v'.
  Proof.
    unfold exact_row. destruct (forallb is_exact v) eqn:E; [|discriminate]. intros F X. injection X as <-.
    induction F as [|x y v v' H F IH]; constructor; simpl in E; apply andb_true_iff in E as (E1 & E2); auto.
    destruct x as [q|]; [|discriminate]. exists q. split; auto.
  Qed.

  Lemma covers_Ret {C E} (v : list C) (b : list E) u : covers v b = Ret u -> length v <= length b.
  Proof. unfold covers. destruct (Nat.leb_spec (length v) (length b)); [auto|discriminate]. Qed.

  Lemma pivot_entry (v : list checked) col : pivot v = Some col -> exists x, nth_error v col = Some x /\ reqb x r0 = false.
  Proof.
    revert col. induction v as [|a v IH]; intros col; cbn [pivot]; [discriminate|].
    destruct (reqb a r0) eqn:E.
    - destruct (pivot v) as [k|]; [|discriminate]. intros X. injection X as <-. apply (IH k eq_refl).
    - intros X. injection X as <-. exists a. auto.
  Qed.

  Lemma follow_clear col v b v' b' : Forall2 frel v v' -> Forall2 frel b b' -> length v = length b ->
    pivot v = Some col -> pivot b = Some col ->
    sim (fun p q => Forall2 frel (fst p) (fst q) /\ Forall2 frel (snd p) (snd q)) (s_clear col v b) (s_clear col v' b').
  Proof.
    intros Hv Hb _ _ Pb (w, c) E. simpl in E. unfold clear_column_c in E.
    apply bind_Ret_inv in E as (vc & Ev & E). apply bind_Ret_inv in E as (bc & Eb & E).
    apply bind_Ret_inv in E as (u & Ec & E). apply bind_Ret_inv in E as (w' & Er & E). injection E as -> <-.
    destruct (nth_error v col) as [x|] eqn:Nv; [|discriminate Ev]. injection Ev as ->.
    destruct (nth_error b col) as [y|] eqn:Nb; [|discriminate Eb]. injection Eb as ->.
    destruct (Forall2_nth_error _ _ _ _ _ Hv Nv) as (x' & Nv' & Hx).
    destruct (Forall2_nth_error _ _ _ _ _ Hb Nb) as (y' & Nb' & Hy).
    apply pivot_entry in Pb as (z & Nz & Zz). assert (z = bc) as -> by congruence.
    apply covers_Ret in Ec.
    eexists. split; [apply Hclear; eauto|]; cbn [fst snd].
    - rewrite <- (Forall2_length Hv), <- (Forall2_length Hb). auto.
    - rewrite <- (frel_z _ _ Hy). auto.
    - split; auto. apply (fun F => exact_row_sim _ _ _ F Er).
      apply zip_rel.
      + intros. apply wrel_sub; auto. apply wrel_mul; auto. apply wrel_div; apply frel_wrel; auto.
      + apply upd_rel; [apply weak_row; auto|apply frel_wrel, frel0].
      + apply weak_row; auto.
  Qed.

  Lemma follow_norm col v v' x : Forall2 frel v v' -> nth_error v col = Some x -> reqb x r0 = false ->
    sim (Forall2 frel) (s_normalize col v) (s_normalize col v').
  Proof.
    intros Hv Nv Zx w E. cbn [s_normalize checked_scalar] in E. unfold normalize_column_c in E.
    rewrite Nv in E. cbn [unwrap bind] in E.
    destruct (Forall2_nth_error _ _ _ _ _ Hv Nv) as (x' & Nv' & Hx).
    eexists. split; [apply Hnorm; eauto|].
    - rewrite <- (frel_z _ _ Hx). auto.
    - apply (fun F => exact_row_sim _ _ _ F E). apply map_rel.
      + intros. apply wrel_div; auto. apply frel_wrel; auto.
      + apply upd_rel; [apply weak_row; auto|apply frel_wrel, frel1].
  Qed.

  Lemma follow_reduce col v b v' b' : Forall2 frel v v' -> Forall2 frel b b' ->
    sim (Forall2 frel) (s_reduce col v b) (s_reduce col v' b').
  Proof.
    intros Hv Hb w E. cbn [s_reduce checked_scalar] in E. unfold reduce_column_c in E.
    apply bind_Ret_inv in E as (vc & Ev & E). apply bind_Ret_inv in E as (u & Ec & E).
    destruct (nth_error v col) as [x|] eqn:Nv; [|discriminate Ev]. injection Ev as ->.
    destruct (Forall2_nth_error _ _ _ _ _ Hv Nv) as (x' & Nv' & Hx).
    apply covers_Ret in Ec.
    eexists. split; [apply Hreduce; eauto|].
    - rewrite <- (Forall2_length Hv), <- (Forall2_length Hb). auto.
    - apply (fun F => exact_row_sim _ _ _ F E). apply zip_rel.
      + intros. apply wrel_sub; auto. apply wrel_mul; auto. apply frel_wrel; auto.
      + apply upd_rel; [apply weak_row; auto|apply frel_wrel, frel0].
      + apply weak_row; auto.
  Qed.

  Lemma follow_row a x b a' x' b' : Forall2 frel a a' -> Forall2 (Forall2 frel) x x' -> Forall2 frel b b' ->
    sim (orel (Forall2 frel)) (s_solve_row a x b) (s_solve_row a' x' b').
  Proof. intros _ _ Hb. rewrite Hrow. simpl. unfold solve_row_c. apply sim_Ret. exact Hb. Qed.

  Definition follow_rank := sim_rank (S2 := SR) frel frel_opp frel_z follow_clear.
  Definition follow_reduced_basis := sim_reduced_basis (S2 := SR) frel frel_opp frel_z follow_clear follow_norm follow_reduce.
  Definition follow_determinant := sim_determinant (S2 := SR) frel wrel frel_wrel frel0 frel1 frel_opp frel_z wrel_add wrel_sub wrel_mul follow_clear.
  Definition follow_solve := sim_solve (S2 := SR) frel wrel frel_wrel frel0 frel1 frel_opp frel_z wrel_add wrel_mul follow_clear follow_norm follow_reduce follow_row.
  Definition follow_null_space := sim_null_space (S2 := SR) frel frel0 frel1 frel_opp frel_z follow_clear follow_norm follow_reduce.
  Definition follow_inverse := sim_inverse (S2 := SR) frel wrel frel_wrel frel0 frel1 frel_opp frel_z wrel_add wrel_mul follow_clear follow_norm follow_reduce follow_row.
End Follow.
