(** The real numbers of the standard library as a field of the Mathematical Components
    library, so that its matrices and determinants can be used in specifications.
    (Decidable equality and choice come from the classical axioms of the standard library.) *)
From Coq Require Import Reals Lra Epsilon FunctionalExtensionality.
From mathcomp Require Import all_ssreflect all_algebra.
Set Implicit Arguments.
Unset Strict Implicit.
Unset Printing Implicit Defensive.
Delimit Scope R_scope with coqR.

Definition eqr (r1 r2 : R) : bool := if Req_EM_T r1 r2 then true else false.
Lemma eqrP : Equality.axiom eqr.
Proof. by move=> x y; rewrite /eqr; case: (Req_EM_T x y) => H; constructor. Qed.
Canonical R_eqMixin := EqMixin eqrP.
Canonical R_eqType := Eval hnf in EqType R R_eqMixin.

Fact inhR : inhabited R. Proof. exact (inhabits 0%coqR). Qed.
Definition pickR (P : pred R) (n : nat) := let x := epsilon inhR P in if P x then Some x else None.
Fact pickR_some P n x : pickR P n = Some x -> P x.
Proof. by rewrite /pickR; case E: (P _) => // -[<-]. Qed.
Fact pickR_ex (P : pred R) : (exists x : R, P x) -> exists n, pickR P n.
Proof. by move=> H; exists 0%N; rewrite /pickR (epsilon_spec inhR _ H). Qed.
Fact pickR_ext (P Q : pred R) : P =1 Q -> pickR P =1 pickR Q.
Proof. by move=> H; have -> : P = Q by apply: functional_extensionality. Qed.
Definition R_choiceMixin : choiceMixin R := Choice.Mixin pickR_some pickR_ex pickR_ext.
Canonical R_choiceType := Eval hnf in ChoiceType R R_choiceMixin.

Fact RplusA : associative Rplus. Proof. by move=> x y z; lra. Qed.
Fact RplusC : commutative Rplus. Proof. by move=> x y; lra. Qed.
Fact Rplus0 : left_id 0%coqR Rplus. Proof. by move=> x; lra. Qed.
Fact RplusN : left_inverse 0%coqR Ropp Rplus. Proof. by move=> x; lra. Qed.
Definition R_zmodMixin := ZmodMixin RplusA RplusC Rplus0 RplusN.
Canonical R_zmodType := Eval hnf in ZmodType R R_zmodMixin.

Fact RmultA : associative Rmult. Proof. by move=> x y z; lra. Qed.
Fact RmultC : commutative Rmult. Proof. by move=> x y; lra. Qed.
Fact Rmult1 : left_id 1%coqR Rmult. Proof. by move=> x; lra. Qed.
Fact RmultD : left_distributive Rmult Rplus. Proof. by move=> x y z; lra. Qed.
Fact R1_neq_0 : (R1 : R_eqType) != R0. Proof. by apply/eqP/R1_neq_R0. Qed.
Definition R_ringMixin := ComRingMixin RmultA RmultC Rmult1 RmultD R1_neq_0.
Canonical R_ringType := Eval hnf in RingType R R_ringMixin.
Canonical R_comRingType := Eval hnf in ComRingType R RmultC.

Definition Rinvx (r : R) : R := if (r == 0%coqR :> R) then 0%coqR else (/ r)%coqR.
Fact RinvxP (x : R_ringType) : x != R0 -> (Rinvx x * x)%coqR = 1%coqR.
Proof. by rewrite /Rinvx => H; rewrite (negPf H); apply: Rinv_l; apply/eqP. Qed.
Fact Rinvx0 : Rinvx 0%coqR = 0%coqR. Proof. by rewrite /Rinvx eqxx. Qed.
Definition R_unitRingMixin := FieldUnitMixin RinvxP Rinvx0.
Canonical R_unitRingType := Eval hnf in UnitRingType R R_unitRingMixin.
Canonical R_comUnitRingType := Eval hnf in [comUnitRingType of R].
Fact R_fieldMixin : GRing.Field.mixin_of R_unitRingType. Proof. by []. Qed.
Definition R_idomainMixin := FieldIdomainMixin R_fieldMixin.
Canonical R_idomainType := Eval hnf in IdomainType R R_idomainMixin.
Canonical R_fieldType := Eval hnf in FieldType R R_fieldMixin.

(** The operations of the two libraries are the same. *)
Lemma RplusE (x y : R) : (x + y)%coqR = GRing.add x y. Proof. by []. Qed.
Lemma RmultE (x y : R) : (x * y)%coqR = GRing.mul x y. Proof. by []. Qed.
Lemma RoppE (x : R) : (- x)%coqR = GRing.opp x. Proof. by []. Qed.
Lemma RminusE (x y : R) : (x - y)%coqR = GRing.add x (GRing.opp y). Proof. by []. Qed.
Lemma RinvE (x : R) : x <> 0%coqR -> (/ x)%coqR = GRing.inv x.
Proof. by move=> /eqP H; rewrite /GRing.inv /= /Rinvx (negPf H). Qed.
Lemma R0E : 0%coqR = GRing.zero R_zmodType. Proof. by []. Qed.
Lemma R1E : 1%coqR = GRing.one R_ringType. Proof. by []. Qed.
