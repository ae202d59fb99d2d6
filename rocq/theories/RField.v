(** * RField: Coq's reals as a mathcomp field (instances only; models no code).

    The choice structure mathcomp asks for uses [epsilon] of the standard
    library (Coq.Logic.Epsilon). *)
From Coq Require Import Reals Epsilon FunctionalExtensionality.
From mathcomp Require Import all_ssreflect all_algebra.
Set Implicit Arguments.
Unset Strict Implicit.
Local Open Scope R_scope.

(** equality of reals as a boolean *)
Definition eqr (x y : R) : bool := if Req_EM_T x y then true else false.
Lemma eqrP : Equality.axiom eqr.
Proof. move=> x y. rewrite /eqr. by case: Req_EM_T => H; constructor. Qed.
(** mathcomp instance *)
Definition R_eqMixin := EqMixin eqrP.
Canonical R_eqType := Eval hnf in EqType R R_eqMixin.
(** choice of a real that satisfies a predicate *)
Definition pickR (P : pred R) (n : nat) : option R :=
  let x := epsilon (inhabits R0) (fun y => P y : Prop) in if P x then Some x else None.
Lemma pickR_some P n x : pickR P n = Some x -> P x.
Proof. rewrite /pickR. by case: (boolP (P _)) => // H [<-]. Qed.
Lemma pickR_ex (P : pred R) : (exists x, P x) -> exists n, pickR P n.
Proof.
move=> H. exists 0%N. rewrite /pickR. have := @epsilon_spec R (inhabits R0) (fun y => P y : Prop) H. by case: (P _).
Qed.
Lemma pickR_ext (P Q : pred R) : P =1 Q -> pickR P =1 pickR Q.
Proof. move=> H n. by rewrite (functional_extensionality P Q H). Qed.
(** mathcomp instance *)
Definition R_choiceMixin : choiceMixin R := Choice.Mixin pickR_some pickR_ex pickR_ext.
Canonical R_choiceType := Eval hnf in ChoiceType R R_choiceMixin.
Lemma RplusA : associative Rplus.
Proof. move=> x y z. by rewrite Rplus_assoc. Qed.
(** mathcomp instance *)
Definition R_zmodMixin := ZmodMixin RplusA Rplus_comm Rplus_0_l Rplus_opp_l.
Canonical R_zmodType := Eval hnf in ZmodType R R_zmodMixin.
Lemma RmultA : associative Rmult.
Proof. move=> x y z. by rewrite Rmult_assoc. Qed.
Lemma R1_neq : (R1 != R0 :> R).
Proof. apply/eqP. exact: R1_neq_R0. Qed.
Lemma RmultDl : left_distributive Rmult Rplus.
Proof. move=> x y z. exact: Rmult_plus_distr_r. Qed.
Lemma RmultDr : right_distributive Rmult Rplus.
Proof. move=> x y z. exact: Rmult_plus_distr_l. Qed.
(** mathcomp instance *)
Definition R_ringMixin := RingMixin RmultA Rmult_1_l Rmult_1_r RmultDl RmultDr R1_neq.
Canonical R_ringType := Eval hnf in RingType R R_ringMixin.
Canonical R_comRingType := Eval hnf in ComRingType R Rmult_comm.
(** inverse that leaves 0 alone *)
Definition Rinvx (x : R) : R := if x != R0 then / x else x.
(** the invertible reals *)
Definition unit_R (x : R) : bool := x != R0.
Lemma RmultRinvx : {in unit_R, left_inverse R1 Rinvx Rmult}.
Proof. move=> x; rewrite -topredE /unit_R /Rinvx => /= /eqP H. case: (x =P R0) => //= _. exact: Rinv_l. Qed.
Lemma RinvxRmult : {in unit_R, right_inverse R1 Rinvx Rmult}.
Proof. move=> x; rewrite -topredE /unit_R /Rinvx => /= /eqP H. case: (x =P R0) => //= _. exact: Rinv_r. Qed.
Lemma intro_unit_R x y : y * x = R1 /\ x * y = R1 -> unit_R x.
Proof. move=> [yx _]. apply/eqP => x0. move: yx. rewrite x0 Rmult_0_r => H. exact: R1_neq_R0. Qed.
Lemma Rinvx_out : {in predC unit_R, Rinvx =1 id}.
Proof. move=> x; rewrite -topredE /= /unit_R /Rinvx. by case: (x != R0). Qed.
(** mathcomp instance *)
Definition R_unitRingMixin := UnitRingMixin RmultRinvx RinvxRmult intro_unit_R Rinvx_out.
Canonical R_unitRingType := Eval hnf in UnitRingType R R_unitRingMixin.
Canonical R_comUnitRingType := Eval hnf in [comUnitRingType of R].
