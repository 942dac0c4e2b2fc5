(** Properties C04, C05 and C08-C13 (without determinants) of
    src/arithmetic/linear_algebra.rs, for integer ([Z]) and rational ([Qc])
    matrices.  Used in the statements: the modelled functions, [wfm]
    (well-formed matrix), [span n vs x] (x is a linear combination of vs with
    coefficients in the same ring, vectors of length n), [same_span],
    [lincomb], [vget v i] (i-th entry), and the specifications below. *)
From Coq Require Import List ZArith Lia Bool PeanoNat QArith Qcanon.
From Verif Require Import Base Vec Elim Matrix MatrixMore Scalars LinAlg Shapes Canon ZQ.
Import ListNotations.
Close Scope Q_scope.
Open Scope nat_scope.

(** row i starts in column [ps i], and the starting columns increase *)
Definition row_echelon {R} {RD : Dom R} (n : nat) (rs : list (list R)) (ps : list nat) : Prop :=
  length ps = length rs /\
  forall i, i < length rs ->
    nth i ps 0 < n /\ vget (nth i rs []) (nth i ps 0) <> r0 /\
    (forall j, j < nth i ps 0 -> vget (nth i rs []) j = r0) /\
    (forall k, k < i -> nth k ps 0 < nth i ps 0).

(** reduced row echelon form: leading ones, zeros in the rest of their columns *)
Definition is_rref (n : nat) (rs : list (list Qc)) : Prop :=
  exists ps, row_echelon n rs ps /\
  forall i k, i < length rs -> k < length rs ->
    vget (nth k rs []) (nth i ps 0) = if Nat.eqb k i then 1%Qc else 0%Qc.

(** positive leading entries d and entries e above them with 0 <= e <= d *)
Definition is_hermite (n : nat) (rs : list (list Z)) : Prop :=
  exists ps, row_echelon n rs ps /\
  forall i, i < length rs ->
    (0 < vget (nth i rs []) (nth i ps 0%nat))%Z /\
    forall k, k < i -> (0 <= vget (nth k rs []) (nth i ps 0%nat) <= vget (nth i rs []) (nth i ps 0%nat))%Z.

Lemma echelon_row_echelon {R} {RD : Dom R} {DL : DomLaws R} n rs :
  lens n rs -> echelon rs -> row_echelon n rs (pivots rs).
Proof.
  intros L E. split; [apply (pivots_length _ _ E)|]. intros i Hi.
  pose proof (nth_pivots O rs i E Hi) as P. apply pivot_Some in P as (P1 & P2 & P3).
  rewrite (lens_In _ _ _ L) in P1 by (apply nth_In; auto). splits; auto.
  intros k Hk. apply (pivots_sorted O rs E); auto.
Qed.

Lemma row_echelon_pivot {R} {RD : Dom R} {DL : DomLaws R} n rs ps :
  lens n rs -> row_echelon n rs ps -> forall i, i < length rs -> pivot (nth i rs []) = Some (nth i ps 0).
Proof.
  intros L [Hl H] i Hi. destruct (H i Hi) as (A & B & C & _). apply pivot_Some. splits; auto.
  rewrite (lens_In _ _ _ L) by (apply nth_In; auto). auto.
Qed.

Lemma row_echelon_echelon {R} {RD : Dom R} {DL : DomLaws R} n rs ps :
  lens n rs -> row_echelon n rs ps -> echelon rs /\ pivots rs = ps.
Proof.
  intros L [Hl H]. pose proof (row_echelon_pivot n rs ps L (conj Hl H)) as P.
  assert (G : forall k l qs, (forall i, i < length l -> pivot (nth i l []) = Some (nth i qs 0)) ->
     (forall i, i < length l -> k <= nth i qs 0) ->
     (forall i j, i < j -> j < length l -> nth i qs 0 < nth j qs 0) -> length qs = length l ->
     echelon_from k (l : list (list R)) /\ pivots l = qs).
  { clear. intros k l; revert k. induction l as [|b l IH]; intros k qs H1 H2 H3 H4.
    - destruct qs; [|discriminate]. split; auto. constructor.
    - destruct qs as [|q qs]; [discriminate|]. pose proof (H1 0 ltac:(simpl; lia)) as P. simpl in P.
      destruct (IH (S q) qs) as [E1 E2].
      + intros i Hi. apply (H1 (S i)). simpl; lia.
      + intros i Hi. apply (H3 0 (S i)); simpl; lia.
      + intros i j Hij Hj. apply (H3 (S i) (S j)); simpl; lia.
      + simpl in H4; lia.
      + split; [econstructor; eauto; apply (H2 0); simpl; lia|]. simpl. rewrite P. simpl. congruence. }
  apply G; auto.
  - intros; lia.
  - intros i j Hij Hj. apply (H j Hj); auto.
Qed.

(** ** C04 *)
Open Scope Z_scope.

Theorem C04_gcdx : forall a b : Z,
  exists g r s t u, gcdx a b = Ret (g, r, s, t, u) /\
    g = a * r + b * s /\ 0 = a * t + b * u /\ Z.abs g = Z.gcd a b /\ Z.abs (r * u - s * t) = 1.
Proof. exact gcdx_correct. Qed.
Print Assumptions C04_gcdx.

(** every value computed in the loop is at most max(|a|,|b|): no overflow *)
Theorem C04_gcdx_values_bounded : forall a b k st,
  iter gcdx_step k (gcdx_init a b) = Ret (inl st) ->
  (let '(_, xn, _, _, _, _) := st in xn <> 0) ->
  Forall (fun v => Z.abs v <= Z.max (Z.abs a) (Z.abs b)) (gcdx_intermediates st).
Proof. exact gcdx_bounds. Qed.
Print Assumptions C04_gcdx_values_bounded.

Example C04_case : gcdx 12 (-30) = Ret (-6, 2, 1, 5, 2) /\
  iter gcdx_step 1 (gcdx_init 12 (-30)) = Ret (inl (-30, 12, 0, 1, 1, 0)).
Proof. split; reflexivity. Qed.
Close Scope Z_scope.

(** ** C05 *)
Section C05.
  Context (R : Type) (RD : Dom R) (DL : DomLaws R) (SR : Scalar R) (SL : ScalarLaws R).
  Lemma C05_generic n (bs : list (list R)) ps v :
    lens n bs -> row_echelon n bs ps -> length v = n ->
    exists bs' ps', extend_basis v bs = Ret bs' /\ lens n bs' /\ row_echelon n bs' ps' /\
      (forall x, span n (bs ++ [v]) x <-> span n bs' x).
  Proof.
    intros L E Hv. destruct (row_echelon_echelon n bs ps L E) as [Ee _].
    destruct (extend_all_from n [v] bs) as (bs' & z & Ex & Lb & Eb & Op & Hz); auto.
    { repeat constructor; auto. }
    exists bs', (pivots bs'). splits; auto.
    - unfold extend_all in Ex. simpl in Ex. destruct (extend_basis v bs); simpl in Ex; congruence.
    - apply echelon_row_echelon; auto.
    - intros x. assert (Lx : lens n (bs ++ [v])) by (apply Forall_app; split; auto; repeat constructor; auto).
      rewrite (rowop_span n _ _ Lx Op x). apply span_app_zeros; auto.
  Qed.
End C05.

(** feeding one vector keeps the echelon form and adds exactly that vector to
    the module; starting from [] (which is in echelon form) this covers every
    sequence of vectors *)
Theorem C05_extend_basis_integer : forall n (bs : list (list Z)) ps v,
  lens n bs -> row_echelon n bs ps -> length v = n ->
  exists bs' ps', extend_basis v bs = Ret bs' /\ lens n bs' /\ row_echelon n bs' ps' /\
    (forall x, span n (bs ++ [v]) x <-> span n bs' x).
Proof. intros n bs ps v. apply C05_generic; typeclasses eauto. Qed.
Print Assumptions C05_extend_basis_integer.

Theorem C05_extend_basis_rational : forall n (bs : list (list Qc)) ps v,
  lens n bs -> row_echelon n bs ps -> length v = n ->
  exists bs' ps', extend_basis v bs = Ret bs' /\ lens n bs' /\ row_echelon n bs' ps' /\
    (forall x, span n (bs ++ [v]) x <-> span n bs' x).
Proof. intros n bs ps v. apply C05_generic; typeclasses eauto. Qed.
Print Assumptions C05_extend_basis_rational.

(** the whole sequence at once *)
Theorem C05_sequence : forall n (vs : list (list Z)) (ws : list (list Qc)), lens n vs -> lens n ws ->
  (exists bs ps, foldM (fun bs v => extend_basis v bs) [] vs = Ret bs /\ lens n bs /\ row_echelon n bs ps /\
     forall x, span n vs x <-> span n bs x) /\
  (exists bs ps, foldM (fun bs v => extend_basis v bs) [] ws = Ret bs /\ lens n bs /\ row_echelon n bs ps /\
     forall x, span n ws x <-> span n bs x).
Proof.
  intros n vs ws Lv Lw. split.
  - destruct (extend_all_span n vs Lv) as (bs & E & L & Ee & S & _). exists bs, (pivots bs). splits; auto.
    apply echelon_row_echelon; auto.
  - destruct (extend_all_span n ws Lw) as (bs & E & L & Ee & S & _). exists bs, (pivots bs). splits; auto.
    apply echelon_row_echelon; auto.
Qed.
Print Assumptions C05_sequence.

Example C05_case :
  foldM (fun bs v => extend_basis v bs) [] [[4; 6; 2]; [6; 9; 5]; [2; 3; 3]]%Z = Ret [[-2; -3; -3]; [0; 0; -4]]%Z /\
  row_echelon 3 [[-2; -3; -3]; [0; 0; -4]]%Z [0; 2].
Proof.
  split; [vm_compute; reflexivity|]. split; auto. intros [|[|i]] Hi; simpl in *; try lia; splits; try lia; try discriminate.
  - intros [|[|j]] Hj; simpl; try lia; reflexivity.
  - intros [|k] Hk; simpl; lia.
Qed.

(** ** reduced_basis *)
Section RB.
  Context {R : Type} {RD : Dom R} {DL : DomLaws R} {SR : Scalar R} {SL : ScalarLaws R} {SH : ShapeLaws R}.
  Lemma reduced_basis_generic (m : mat R) : wfm m -> 0 < ncols m ->
    exists rows t rs, get_rows m = Ret rows /\ reduced_basis m = Ret t /\ get_rows t = Ret rs /\ wfm t /\
      lens (ncols m) rows /\ lens (ncols m) rs /\
      nrows t = length rs /\ (rs <> [] -> ncols t = ncols m) /\ (rs = [] -> t = Mat 0 0 []) /\
      reduced_rows rows = Ret rs /\ echelon rs /\ shaped rs /\ same_span (ncols m) rows rs.
  Proof.
    intros W Hc. set (rows := frows (nrows m) (ncols m) (ent m)).
    assert (L : lens (ncols m) rows) by apply frows_lens.
    assert (Em : m = mrows (ncols m) rows) by (rewrite (wfm_eq_mk m W) at 1; apply mk_mrows).
    destruct (reduced_basis_mrows (ncols m) rows Hc L) as (rs & Er & Lr & Ee & Sh & Ss & _ & Eb).
    exists rows. rewrite <- Em in Eb. eexists. exists rs. splits; eauto.
    - rewrite Em at 1. apply get_rows_mrows; auto.
    - destruct rs as [|r rs]; [reflexivity|]. apply get_rows_mrows; auto.
    - destruct rs as [|r rs]; [split; auto|]. rewrite mrows_mk by auto. apply mk_wf; auto.
    - destruct rs; auto.
    - destruct rs; auto. congruence.
    - intros ->. auto.
  Qed.
End RB.

(** C08: the result over the rationals is the reduced row echelon form ... *)
Theorem C08_reduced_basis_rational : forall m : mat Qc, wfm m -> 0 < ncols m ->
  exists rows t rs, get_rows m = Ret rows /\ reduced_basis m = Ret t /\ get_rows t = Ret rs /\ wfm t /\
    lens (ncols m) rs /\ is_rref (ncols m) rs /\ (forall x, span (ncols m) rows x <-> span (ncols m) rs x).
Proof.
  intros m W Hc. destruct (reduced_basis_generic m W Hc) as (rows & t & rs & H1 & H2 & H3 & H4 & H5 & H6 & _ & _ & _ & _ & E & S & Sp).
  exists rows, t, rs. splits; auto. exists (pivots rs). split; [apply echelon_row_echelon; auto|].
  intros i k Hi Hk. pose proof (nth_pivots O rs i E Hi) as P.
  destruct (Nat.eqb_spec k i) as [->|Hki].
  - apply (shaped_norm rs i _ S Hi P).
  - destruct (Nat.lt_trichotomy k i) as [G|[G|G]]; [|lia|].
    + apply (shaped_red rs k i _ S G Hi P).
    + pose proof (nth_pivots O rs k E Hk) as P2. apply pivot_Some in P2 as (_ & _ & Z). apply Z.
      apply (pivots_sorted O rs E); auto.
Qed.
Print Assumptions C08_reduced_basis_rational.

(** ... and only depends on the row space *)
Theorem C08_canonical : forall m m' : mat Qc, wfm m -> wfm m' -> 0 < ncols m -> ncols m = ncols m' ->
  forall rows rows', get_rows m = Ret rows -> get_rows m' = Ret rows' ->
  (forall x, span (ncols m) rows x <-> span (ncols m) rows' x) ->
  reduced_basis m = reduced_basis m'.
Proof.
  intros m m' W W' Hc Ec rows rows' Hr Hr' Sp.
  destruct (reduced_basis_generic m W Hc) as (r1 & t & rs & H1 & H2 & H3 & H4 & H5 & H6 & N & C & Z & _ & E & S & S1).
  destruct (reduced_basis_generic m' W' ltac:(lia)) as (r1' & t' & rs' & H1' & H2' & H3' & H4' & H5' & H6' & N' & C' & Z' & _ & E' & S' & S1').
  assert (r1 = rows) as -> by congruence. assert (r1' = rows') as -> by congruence.
  assert (rs = rs') as <-.
  { rewrite <- Ec in *. apply (rref_unique (ncols m)); auto. intros x. rewrite <- (S1 x), (Sp x). apply S1'. }
  rewrite H2, H2'. f_equal. destruct rs as [|r rs]; [rewrite Z, Z' by auto; auto|].
  rewrite (wfm_eq_mk t), (wfm_eq_mk t') by auto.
  assert (D : data t = data t').
  { assert (G : forall u : mat Qc, wfm u -> 0 < ncols u -> get_rows u = Ret (r :: rs) -> data u = concat (r :: rs)).
    { intros u Wu Hu Gu. rewrite (wfm_eq_mk u Wu) in Gu |- *. rewrite get_rows_mk in Gu by auto.
      injection Gu as Gu. unfold mk. cbn [data]. rewrite Gu. reflexivity. }
    rewrite (G t), (G t'); auto.
    - rewrite C' by discriminate. lia.
    - rewrite C by discriminate. lia. }
  rewrite <- !wfm_eq_mk by auto. destruct t as [a b d], t' as [a' b' d']. simpl in *. subst d'.
  assert (a = a') as -> by lia. rewrite C, C' by discriminate. congruence.
Qed.
Print Assumptions C08_canonical.

Definition q (n : Z) (d : positive) : Qc := Q2Qc (n # d).

Example C08_case :
  reduced_basis (Mat 3 3 [q 2 1; q 4 1; q 1 3;  q 1 1; q 2 1; q 0 1;  q 3 1; q 6 1; q 1 3]) =
  Ret (Mat 2 3 [q 1 1; q 2 1; q 0 1;  q 0 1; q 0 1; q 1 1]).
Proof. qc_compute. Qed.

(** C09: over the integers, a Hermite-like basis of the same lattice *)
Theorem C09_reduced_basis_integer : forall m : mat Z, wfm m -> 0 < ncols m ->
  exists rows t rs, get_rows m = Ret rows /\ reduced_basis m = Ret t /\ get_rows t = Ret rs /\ wfm t /\
    lens (ncols m) rs /\ is_hermite (ncols m) rs /\ (forall x, span (ncols m) rows x <-> span (ncols m) rs x).
Proof.
  intros m W Hc. destruct (reduced_basis_generic m W Hc) as (rows & t & rs & H1 & H2 & H3 & H4 & H5 & H6 & _ & _ & _ & _ & E & S & Sp).
  exists rows, t, rs. splits; auto. exists (pivots rs). split; [apply echelon_row_echelon; auto|].
  intros i Hi. pose proof (nth_pivots O rs i E Hi) as P. split.
  - apply (shaped_norm rs i _ S Hi P).
  - intros k Hk. apply (shaped_red rs k i _ S Hk Hi P).
Qed.
Print Assumptions C09_reduced_basis_integer.

(** canonicity holds whenever no entry above a pivot equals the pivot ... *)
Theorem C09_canonical_when_strict : forall n (rs rs' : list (list Z)),
  lens n rs -> lens n rs' ->
  (forall x, span n rs x <-> span n rs' x) ->
  (forall l, l = rs \/ l = rs' -> exists ps, row_echelon n l ps /\ forall i, i < length l ->
     (0 < vget (nth i l []) (nth i ps 0%nat))%Z /\
     forall k, k < i -> (0 <= vget (nth k l []) (nth i ps 0%nat) < vget (nth i l []) (nth i ps 0%nat))%Z) ->
  rs = rs'.
Proof.
  intros n rs rs' L L' Sp H.
  destruct (H rs ltac:(auto)) as (ps & E & F). destruct (H rs' ltac:(auto)) as (ps' & E' & F').
  destruct (row_echelon_echelon n rs ps L E) as [E1 <-]. destruct (row_echelon_echelon n rs' ps' L' E') as [E1' <-].
  apply (hermite_unique n); auto. intros l [->| ->] j Hj; auto.
Qed.
Print Assumptions C09_canonical_when_strict.

(** ... but fails in general: these two matrices have the same row lattice *)
Theorem C09_canonicity_refuted :
  let m := Mat 2 2 [1; -3; 0; 3]%Z in let m' := Mat 2 2 [1; 0; 0; 3]%Z in
  (forall x, span 2 [[1; -3]; [0; 3]]%Z x <-> span 2 [[1; 0]; [0; 3]]%Z x) /\
  reduced_basis m = Ret (Mat 2 2 [1; 3; 0; 3]%Z) /\ reduced_basis m' = Ret (Mat 2 2 [1; 0; 0; 3]%Z).
Proof.
  cbv zeta. splits; [|vm_compute; reflexivity|vm_compute; reflexivity].
  assert (L1 : lens 2 [[1; -3]; [0; 3]]%Z) by (repeat constructor).
  assert (L2 : lens 2 [[1; 0]; [0; 3]]%Z) by (repeat constructor).
  intros x. split; apply span_trans; auto; intros v [<-|[<-|[]]].
  - exists [1; -1]%Z. split; reflexivity.
  - exists [0; 1]%Z. split; reflexivity.
  - exists [1; 1]%Z. split; reflexivity.
  - exists [0; 1]%Z. split; reflexivity.
Qed.
Print Assumptions C09_canonicity_refuted.

Example C09_case :
  reduced_basis (Mat 2 3 [4; 6; 2; 6; 9; 5]%Z) = Ret (Mat 2 3 [2; 3; 3; 0; 0; 4]%Z).
Proof. qc_compute. Qed.

(** ** C10, C11 *)
Section SolveG.
  Context {R : Type} {RD : Dom R} {DL : DomLaws R} {SR : Scalar R} {SL : ScalarLaws R} {SH : ShapeLaws R}.

  Lemma solves_mul m n k (f g x : nat -> nat -> R) : 0 < k ->
    (solves m n k f g x <-> mat_mul (mk m n f) (mk n k x) = Ret (mk m k g)).
  Proof.
    intros Hk. rewrite mat_mul_mk by auto. split.
    - intros S. f_equal. apply mk_ext. auto.
    - intros [= E]. intros i j Hi Hj.
      assert (E2 : mk m k (fun i j => sumf n (fun l => rmul (f i l) (x l j))) = mk m k g) by (unfold mk; rewrite E; auto).
      apply (mk_inj _ _ _ _ E2); auto.
  Qed.

  Lemma solve_generic (a b : mat R) : wfm a -> wfm b -> nrows a = nrows b -> 0 < ncols a -> 0 < ncols b ->
    exists r, solve a b = Ret r /\
      match r with
      | Some x => wfm x /\ nrows x = ncols a /\ ncols x = ncols b /\ mat_mul a x = Ret b
      | None => forall x, wfm x -> mat_mul a x <> Ret b
      end.
  Proof.
    intros Wa Wb E Ha Hb.
    destruct (wf_mk a (nrows a) (ncols a) Wa) as [f Ef]; auto.
    destruct (wf_mk b (nrows a) (ncols b) Wb) as [g Eg]; auto.
    rewrite Ef, Eg in *. cbn [nrows ncols mk] in *. clear Ef Eg Wa Wb E.
    set (m := nrows a) in *. set (n := ncols a) in *. set (k := ncols b) in *. clearbody m n k.
    destruct (solve_correct m n k f g Ha Hb) as [(x & Ex & Sx)|(En & Sn)].
    - rewrite Ex. eexists; split; [reflexivity|]. cbv beta iota. splits; auto.
      + apply mk_wf; auto.
      + apply solves_mul; auto.
    - rewrite En. eexists; split; [reflexivity|]. intros x Wx Hx. apply Sn.
      assert (Hd : nrows x = n /\ ncols x = k).
      { unfold mat_mul in Hx. apply bind_inv in Hx as (? & Hx1 & Hx). apply assert_inv in Hx1.
        apply Nat.eqb_eq in Hx1. cbn [ncols mk] in Hx1. split; auto.
        apply bind_inv in Hx as (? & _ & Hx). apply mat_new_wf in Hx as (_ & Hx & _). cbn [ncols mk] in Hx. auto. }
      destruct Hd as [Hd1 Hd2]. destruct (wf_mk x n k Wx Hd1 Hd2) as [h ->].
      exists h. apply solves_mul; auto.
  Qed.
End SolveG.

Theorem C10_solve_rational : forall a b : mat Qc,
  wfm a -> wfm b -> nrows a = nrows b -> 0 < ncols a -> 0 < ncols b ->
  exists r, solve a b = Ret r /\
    match r with
    | Some x => wfm x /\ nrows x = ncols a /\ ncols x = ncols b /\ mat_mul a x = Ret b
    | None => forall x, wfm x -> mat_mul a x <> Ret b
    end.
Proof. intros; apply solve_generic; auto. Qed.
Print Assumptions C10_solve_rational.

Theorem C11_solve_integer : forall a b : mat Z,
  wfm a -> wfm b -> nrows a = nrows b -> 0 < ncols a -> 0 < ncols b ->
  exists r, solve a b = Ret r /\
    match r with
    | Some x => wfm x /\ nrows x = ncols a /\ ncols x = ncols b /\ mat_mul a x = Ret b
    | None => forall x, wfm x -> mat_mul a x <> Ret b
    end.
Proof. intros; apply solve_generic; auto. Qed.
Print Assumptions C11_solve_integer.

Example C10_C11_case :
  solve (Mat 1 2 [2; 4]%Z) (Mat 1 1 [7]%Z) = Ret None /\
  solve (Mat 1 2 [2; 3]%Z) (Mat 1 1 [7]%Z) = Ret (Some (Mat 2 1 [14; -7]%Z)) /\
  solve (Mat 1 2 [q 2 1; q 4 1]) (Mat 1 1 [q 7 1]) = Ret (Some (Mat 2 1 [q 0 1; q 7 4])) /\
  solve (Mat 2 1 [q 1 1; q 2 1]) (Mat 2 1 [q 1 1; q 3 1]) = Ret None.
Proof. splits; qc_compute. Qed.

(** ** C13 *)
Section NullG.
  Context {R : Type} {RD : Dom R} {DL : DomLaws R} {SR : Scalar R} {SL : ScalarLaws R} {SH : ShapeLaws R}.

  Lemma null_generic (a : mat R) : wfm a -> 0 < nrows a -> 0 < ncols a ->
    exists r, null_space a = Ret r /\
      match r with
      | Some s => wfm s /\ nrows s = ncols a /\ 0 < ncols s /\
          mat_mul a s = mat_zero (nrows a) (ncols s) /\
          (forall y, wfm y -> nrows y = ncols s -> ncols y = 1 -> mat_mul s y = mat_zero (ncols a) 1 ->
             mat_zero (ncols s) 1 = Ret y) /\
          (forall x, wfm x -> nrows x = ncols a -> ncols x = 1 -> mat_mul a x = mat_zero (nrows a) 1 ->
             exists y, wfm y /\ mat_mul s y = Ret x)
      | None => forall x, wfm x -> nrows x = ncols a -> ncols x = 1 -> mat_mul a x = mat_zero (nrows a) 1 ->
          mat_zero (ncols a) 1 = Ret x
      end.
  Proof.
    intros W Hm Hn. destruct (wf_mk a (nrows a) (ncols a) W) as [f Ef]; auto. rewrite Ef. cbn [nrows ncols mk].
    set (m := nrows a) in *. set (n := ncols a) in *. clearbody m n. clear a Ef W.
    assert (K : forall h, mat_mul (mk m n f) (mk n 1 h) = mat_zero m 1 ->
      forall b, In b (frows m n f) -> dot b (map (fun i => h i 0) (seq 0 n)) = r0).
    { intros h Hz b Hb. apply in_map_iff in Hb as (i & <- & Hi). apply in_seq in Hi.
      rewrite mat_mul_mk, mat_zero_mk in Hz by lia. injection Hz as Hz.
      assert (Hz2 : mk m 1 (fun i j => sumf n (fun k => rmul (f i k) (h k j))) = mk m 1 (fun _ _ => r0)) by (unfold mk; rewrite Hz; auto).
      pose proof (mk_inj _ _ _ _ Hz2 i 0 ltac:(lia) ltac:(lia)) as Q. simpl in Q.
      rewrite (dot_sumf n) by (rewrite ?frow_length, ?map_length, ?seq_length; auto).
      rewrite <- Q. apply sumf_ext. intros k Hk. rewrite vget_frow by auto.
      rewrite (vget_map_seq n (fun i => h i 0)) by auto. reflexivity. }
    assert (EQ : forall z h, length z = n -> z = map (fun i => h i 0) (seq 0 n) -> forall i, i < n -> vget z i = h i 0).
    { intros z h Hz -> i Hi. apply (vget_map_seq n (fun i => h i 0)); auto. }
    destruct (null_space_correct m n f Hm Hn) as [(bs & Hne & En & Lb & Ind & Ker)|(En & Lb & Ind & Ker)];
      rewrite En; eexists; (split; [reflexivity|]); cbv beta iota.
    - set (k := length bs) in *. assert (Hk : 0 < k) by (unfold k; destruct bs; simpl; [congruence|lia]).
      assert (Es : mrows k (cols n bs) = mk n k (fun i j => vget (nth j bs []) i)).
      { rewrite mrows_mk by apply cols_lens. rewrite cols_length. apply mk_ext. intros i j Hi Hj.
        rewrite nth_cols by auto. apply vget_col; auto. }
      rewrite Es. cbn [nrows ncols mk].
      assert (LC : forall cs, length cs = k -> forall i, i < n ->
         vget (lincomb n cs bs) i = sumf k (fun j => rmul (vget cs j) (vget (nth j bs []) i))).
      { intros cs Hcs i Hi. rewrite (vget_lincomb n cs bs i) by auto. reflexivity. }
      splits; auto.
      + apply mk_wf; auto.
      + rewrite mat_mul_mk, mat_zero_mk by auto. f_equal. apply mk_ext. intros i j Hi Hj.
        assert (Hb : In (nth j bs []) bs) by (apply nth_In; auto).
        pose proof (lens_In _ _ _ Lb Hb) as Lj.
        assert (D : dot (frow n f i) (nth j bs []) = r0).
        { apply (proj2 (Ker _ Lj)); [apply span_In; auto|]. unfold frows. apply in_map. apply in_seq; lia. }
        rewrite <- D, (dot_sumf n) by (rewrite ?frow_length; auto). apply sumf_ext. intros l Hl.
        rewrite vget_frow by auto. reflexivity.
      + intros y Wy Hy1 Hy2 Hy. destruct (wf_mk y k 1 Wy Hy1 Hy2) as [h ->].
        rewrite mat_mul_mk, mat_zero_mk in Hy by auto. injection Hy as Hy.
        assert (Hy' : mk n 1 (fun i j => sumf k (fun k0 => rmul (vget (nth k0 bs []) i) (h k0 j))) = mk n 1 (fun _ _ => r0)) by (unfold mk; rewrite Hy; auto).
        set (cs := map (fun i => h i 0) (seq 0 k)).
        assert (Hcs : length cs = k) by (unfold cs; rewrite map_length, seq_length; auto).
        assert (Z : lincomb n cs bs = vzero n).
        { apply vec_ext; [rewrite lincomb_length, vzero_length; auto|]. rewrite lincomb_length by auto. intros i Hi.
          rewrite LC by auto. rewrite vget_vzero. rewrite <- (mk_inj _ _ _ _ Hy' i 0 Hi ltac:(lia)).
          apply sumf_ext. intros j Hj. unfold cs. rewrite (vget_map_seq k (fun i => h i 0)) by auto. apply (Rmul_comm r_th). }
        pose proof (Ind cs Hcs Z) as C. rewrite mat_zero_mk by lia. f_equal. apply mk_ext. intros i j Hi Hj.
        assert (j = 0) as -> by lia. rewrite <- (vget_map_seq k (fun i => h i 0) i Hi). fold cs. rewrite C.
        symmetry; apply vget_vzero.
      + intros x Wx Hx1 Hx2 Hx. destruct (wf_mk x n 1 Wx Hx1 Hx2) as [h ->]. specialize (K h Hx).
        set (z := map (fun i => h i 0) (seq 0 n)) in *.
        assert (Lz : length z = n) by (unfold z; rewrite map_length, seq_length; auto).
        apply (Ker z Lz) in K as (cs & Hcs & Ez).
        exists (mk k 1 (fun i _ => vget cs i)). split; [apply mk_wf; lia|].
        rewrite mat_mul_mk by lia. f_equal. apply mk_ext. intros i j Hi Hj. assert (j = 0) as -> by lia.
        rewrite <- (EQ z h Lz eq_refl i Hi). rewrite Ez, LC by auto. apply sumf_ext. intros; apply (Rmul_comm r_th).
    - intros x Wx Hx1 Hx2 Hx. destruct (wf_mk x n 1 Wx Hx1 Hx2) as [h ->]. specialize (K h Hx).
      set (z := map (fun i => h i 0) (seq 0 n)) in *.
      assert (Lz : length z = n) by (unfold z; rewrite map_length, seq_length; auto).
      apply (Ker z Lz) in K. apply span_nil in K. rewrite mat_zero_mk by lia. f_equal. apply mk_ext.
      intros i j Hi Hj. assert (j = 0) as -> by lia. rewrite <- (EQ z h Lz eq_refl i Hi), K.
      symmetry; apply vget_vzero.
  Qed.
End NullG.

(** the columns of the result are in the kernel, independent and generate it;
    None means that only the zero vector is in the kernel *)
Theorem C13_null_space_rational : forall a : mat Qc, wfm a -> 0 < nrows a -> 0 < ncols a ->
  exists r, null_space a = Ret r /\
    match r with
    | Some s => wfm s /\ nrows s = ncols a /\ 0 < ncols s /\
        mat_mul a s = mat_zero (nrows a) (ncols s) /\
        (forall y, wfm y -> nrows y = ncols s -> ncols y = 1 -> mat_mul s y = mat_zero (ncols a) 1 ->
           mat_zero (ncols s) 1 = Ret y) /\
        (forall x, wfm x -> nrows x = ncols a -> ncols x = 1 -> mat_mul a x = mat_zero (nrows a) 1 ->
           exists y, wfm y /\ mat_mul s y = Ret x)
    | None => forall x, wfm x -> nrows x = ncols a -> ncols x = 1 -> mat_mul a x = mat_zero (nrows a) 1 ->
        mat_zero (ncols a) 1 = Ret x
    end.
Proof. intros; apply null_generic; auto. Qed.
Print Assumptions C13_null_space_rational.

Theorem C13_null_space_integer : forall a : mat Z, wfm a -> 0 < nrows a -> 0 < ncols a ->
  exists r, null_space a = Ret r /\
    match r with
    | Some s => wfm s /\ nrows s = ncols a /\ 0 < ncols s /\
        mat_mul a s = mat_zero (nrows a) (ncols s) /\
        (forall y, wfm y -> nrows y = ncols s -> ncols y = 1 -> mat_mul s y = mat_zero (ncols a) 1 ->
           mat_zero (ncols s) 1 = Ret y) /\
        (forall x, wfm x -> nrows x = ncols a -> ncols x = 1 -> mat_mul a x = mat_zero (nrows a) 1 ->
           exists y, wfm y /\ mat_mul s y = Ret x)
    | None => forall x, wfm x -> nrows x = ncols a -> ncols x = 1 -> mat_mul a x = mat_zero (nrows a) 1 ->
        mat_zero (ncols a) 1 = Ret x
    end.
Proof. intros; apply null_generic; auto. Qed.
Print Assumptions C13_null_space_integer.

Example C13_case :
  null_space (Mat 1 3 [2; 4; 6]%Z) = Ret (Some (Mat 3 2 [1; 0; 1; 3; -1; -2]%Z)) /\
  null_space (Mat 2 2 [1; 2; 3; 4]%Z) = Ret None.
Proof. split; vm_compute; reflexivity. Qed.
