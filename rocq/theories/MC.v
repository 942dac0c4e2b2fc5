(** The rationals [Qc] and the integers [Z] as mathcomp rings, so that
    mathcomp's determinant and rank can serve as specifications. *)
From Coq Require Import ZArith QArith Qcanon List.
From mathcomp Require Import all_ssreflect all_algebra.
From mathcomp Require Import ssrZ.
From Verif Require Import Base Vec.
Set Implicit Arguments.
Unset Strict Implicit.
Unset Printing Implicit Defensive.

(** ** Qc *)
Lemma Qc_eqP : Equality.axiom Qc_eqb.
Proof. exact: Qc_eqb_spec. Qed.
Canonical Qc_eqType := EqType Qc (EqMixin Qc_eqP).

Definition Qc_enc (q : Qc) : Z * Z := (Qnum (this q), Zpos (Qden (this q))).
Definition Qc_dec (p : Z * Z) : Qc := Q2Qc (Qmake p.1 (Z.to_pos p.2)).
Lemma Qc_encK : cancel Qc_enc Qc_dec.
Proof.
  move=> q. rewrite /Qc_dec /Qc_enc /=.
  apply: Qc_is_canon. case: q => [[a b] c]. exact: Qred_correct.
Qed.
Canonical Qc_choiceType := ChoiceType Qc (CanChoiceMixin Qc_encK).

Definition Qc_zmodMixin := ZmodMixin Qcplus_assoc Qcplus_comm Qcplus_0_l
  (fun x => etrans (Qcplus_comm (- x)%Qc x) (Qcplus_opp_r x)).
Canonical Qc_zmodType := ZmodType Qc Qc_zmodMixin.

Lemma Qc_1_neq_0 : (1%Qc : Qc) != (0%Qc : Qc).
Proof. by []. Qed.
Definition Qc_ringMixin := ComRingMixin Qcmult_assoc Qcmult_comm Qcmult_1_l Qcmult_plus_distr_l Qc_1_neq_0.
Canonical Qc_ringType := RingType Qc Qc_ringMixin.
Canonical Qc_comRingType := ComRingType Qc Qcmult_comm.

Definition Qc_inv (x : Qc) : Qc := (/ x)%Qc.
Lemma Qc_mulVf : GRing.Field.axiom Qc_inv.
Proof. move=> x /eqP x0. rewrite /GRing.mul /= /Qc_inv. by apply: Qcmult_inv_l. Qed.
Lemma Qc_inv0 : Qc_inv 0%R = 0%R.
Proof. by []. Qed.
Definition Qc_unitRingMixin := FieldUnitMixin Qc_mulVf Qc_inv0.
Canonical Qc_unitRingType := UnitRingType Qc Qc_unitRingMixin.
Canonical Qc_comUnitRingType := [comUnitRingType of Qc].
Lemma Qc_field_mixin : GRing.Field.mixin_of Qc_unitRingType.
Proof. by []. Qed.
Definition Qc_idomain_axiom := FieldIdomainMixin Qc_field_mixin.
Canonical Qc_idomainType := IdomainType Qc Qc_idomain_axiom.
Canonical Qc_fieldType := FieldType Qc Qc_field_mixin.

(** the operations of a [Dom] are those of a mathcomp ring *)
Class RingDom (T : idomainType) {RD : Dom T} : Prop := {
  rd0 : (r0 : T) = 0%R; rd1 : (r1 : T) = 1%R;
  rdadd : forall a b : T, radd a b = (a + b)%R;
  rdmul : forall a b : T, rmul a b = (a * b)%R;
  rdsub : forall a b : T, rsub a b = (a - b)%R;
  rdopp : forall a : T, ropp a = (- a)%R }.

#[global] Instance Z_ringdom : @RingDom [idomainType of Z] Z_dom.
Proof. by []. Qed.
#[global] Instance Qc_ringdom : @RingDom Qc_idomainType Qc_dom.
Proof. by []. Qed.
