(* The real numbers of the standard library are a real closed field in the sense of mathcomp,
   and their logarithm.  They are the instance of the statements of P_Normal.v and
   P_Pseudo.v, which are about any real closed field with a logarithm. *)
From Coq Require Import Reals Lra ClassicalEpsilon FunctionalExtensionality.
From mathcomp Require Import all_ssreflect all_algebra.
Set Implicit Arguments. Unset Strict Implicit. Unset Printing Implicit Defensive.
Import Order.TTheory GRing.Theory Num.Theory.

Definition Reqb (x y : R) : bool := if Req_EM_T x y then true else false.
Lemma ReqbP : Equality.axiom Reqb.
Proof. by move=> x y; rewrite /Reqb; case: Req_EM_T => H; constructor. Qed.
Canonical R_eqMixin := EqMixin ReqbP.
Canonical R_eqType := Eval hnf in EqType R R_eqMixin.

Definition pickR (P : pred R) (n : nat) := let x := epsilon (inhabits R0) P in if P x then Some x else None.
Fact pickR_some P n x : pickR P n = Some x -> P x.
Proof. by rewrite /pickR; case E: (P _) => // -[<-]. Qed.
Fact pickR_ex (P : pred R) : (exists x : R, P x) -> exists n, pickR P n.
Proof. by rewrite /pickR; move=> Hex; exists 0%N; rewrite (epsilon_spec (inhabits R0) P Hex). Qed.
Fact pickR_ext (P Q : pred R) : P =1 Q -> pickR P =1 pickR Q.
Proof. by move=> H; have -> : P = Q by apply: functional_extensionality. Qed.
Definition R_choiceMixin : choiceMixin R := Choice.Mixin pickR_some pickR_ex pickR_ext.
Canonical R_choiceType := Eval hnf in ChoiceType R R_choiceMixin.

Fact RplusA : associative Rplus. Proof. by move=> *; rewrite Rplus_assoc. Qed.
Definition R_zmodMixin := ZmodMixin RplusA Rplus_comm Rplus_0_l Rplus_opp_l.
Canonical R_zmodType := Eval hnf in ZmodType R R_zmodMixin.
Fact RmultA : associative Rmult. Proof. by move=> *; rewrite Rmult_assoc. Qed.
Fact R1_neq_0 : R1 != R0. Proof. by apply/eqP/R1_neq_R0. Qed.
Definition R_ringMixin := RingMixin RmultA Rmult_1_l Rmult_1_r Rmult_plus_distr_r Rmult_plus_distr_l R1_neq_0.
Canonical R_ringType := Eval hnf in RingType R R_ringMixin.
Canonical R_comRingType := Eval hnf in ComRingType R Rmult_comm.

Definition Rinvx r := if (r != R0) then Rinv r else r.
Definition unit_R (r : R) := (r != R0).
Lemma RmultRinvx : {in unit_R, left_inverse R1 Rinvx Rmult}.
Proof. by move=> r; rewrite -topredE /= /unit_R /Rinvx => Hr; rewrite Hr Rinv_l //; apply/eqP. Qed.
Lemma RinvxRmult : {in unit_R, right_inverse R1 Rinvx Rmult}.
Proof. by move=> r; rewrite -topredE /= /unit_R /Rinvx => Hr; rewrite Hr Rinv_r //; apply/eqP. Qed.
Lemma intro_unit_R x y : Rmult y x = R1 /\ Rmult x y = R1 -> unit_R x.
Proof. by move=> [yx1 _]; apply/eqP => e; move: yx1; rewrite e Rmult_0_r => /esym; apply: R1_neq_R0. Qed.
Lemma Rinvx_out : {in predC unit_R, Rinvx =1 id}.
Proof. by move=> x; rewrite -topredE /= /unit_R /Rinvx => /negbTE ->. Qed.
Definition R_unitRingMixin := UnitRingMixin RmultRinvx RinvxRmult intro_unit_R Rinvx_out.
Canonical R_unitRing := Eval hnf in UnitRingType R R_unitRingMixin.
Canonical R_comUnitRingType := Eval hnf in [comUnitRingType of R].
Lemma R_idomainMixin x y : Rmult x y = R0 -> (x == R0) || (y == R0).
Proof. by move=> /Rmult_integral [->|->]; rewrite eqxx ?orbT. Qed.
Canonical R_idomainType := Eval hnf in IdomainType R R_idomainMixin.
Lemma R_field_mixin : GRing.Field.mixin_of [unitRingType of R]. Proof. by []. Qed.
Canonical R_fieldType := FieldType R R_field_mixin.

Definition Rleb (x y : R) : bool := if Rle_dec x y then true else false.
Definition Rltb (x y : R) : bool := if Rlt_dec x y then true else false.
Lemma RlebP x y : reflect (Rle x y) (Rleb x y).
Proof. by rewrite /Rleb; case: Rle_dec => H; constructor. Qed.
Lemma RltbP x y : reflect (Rlt x y) (Rltb x y).
Proof. by rewrite /Rltb; case: Rlt_dec => H; constructor. Qed.
Fact R_le0D x y : Rleb R0 x -> Rleb R0 y -> Rleb R0 (Rplus x y).
Proof. by move=> /RlebP ? /RlebP ?; apply/RlebP; lra. Qed.
Fact R_le0M x y : Rleb R0 x -> Rleb R0 y -> Rleb R0 (Rmult x y).
Proof. by move=> /RlebP ? /RlebP ?; apply/RlebP; apply: Rmult_le_pos. Qed.
Fact R_le0_anti x : Rleb R0 x -> Rleb x R0 -> x = R0.
Proof. by move=> /RlebP ? /RlebP ?; apply: Rle_antisym. Qed.
Fact R_sub_ge0 x y : Rleb R0 (y - x)%R = Rleb x y.
Proof.
have e : (y - x)%R = Rminus y x by [].
by apply/RlebP/RlebP; rewrite e => ?; lra.
Qed.
Fact R_total x y : Rleb x y || Rleb y x.
Proof. by case: (Rle_or_lt x y) => H; apply/orP; [left|right]; apply/RlebP; lra. Qed.
Fact R_normN x : Rabs (- x)%R = Rabs x. Proof. exact: Rabs_Ropp. Qed.
Fact R_ge0_norm x : Rleb R0 x -> Rabs x = x. Proof. by move=> /RlebP H; apply: Rabs_pos_eq. Qed.
Fact R_lt_def x y : Rltb x y = (y != x) && Rleb x y.
Proof.
apply/RltbP/andP => [H|[/eqP H1 /RlebP H2]]; last lra.
by split; [apply/eqP; lra | apply/RlebP; lra].
Qed.
Definition R_leMixin : realLeMixin R_idomainType :=
  RealLeMixin R_le0D R_le0M R_le0_anti R_sub_ge0 (R_total R0) R_normN R_ge0_norm R_lt_def.
Canonical R_porderType := POrderType ring_display R R_leMixin.
Canonical R_latticeType := LatticeType R R_leMixin.
Canonical R_distrLatticeType := DistrLatticeType R R_leMixin.
Canonical R_orderType := OrderType R R_total.
Canonical R_numDomainType := NumDomainType R R_leMixin.
Canonical R_normedZmodType := NormedZmodType R R R_leMixin.
Canonical R_numFieldType := [numFieldType of R].
Canonical R_realDomainType := [realDomainType of R].
Canonical R_realFieldType := [realFieldType of R].

(* Polynomials are continuous. *)
Section Ivt.
Local Open Scope ring_scope.
Lemma poly_continuous (p : {poly R}) : continuity (fun x : R => p.[x]).
Proof.
elim/poly_ind: p => [|p c IH].
  have -> : (fun x : R => (0 : {poly R}).[x]) = (fun=> R0) by apply: functional_extensionality => x; rewrite horner0.
  by apply: continuity_const => x y.
have -> : (fun x : R => (p * 'X + c%:P).[x]) = plus_fct (mult_fct (fun x : R => p.[x]) id) (fun=> c).
  by apply: functional_extensionality => x; rewrite hornerD hornerMX hornerC.
apply: continuity_plus; last by apply: continuity_const => x y.
by apply: continuity_mult => //; apply: derivable_continuous; apply: derivable_id.
Qed.
Lemma R_ivt : Num.real_closed_axiom R_realFieldType.
Proof.
move=> p a b ab /andP [pa pb].
have lab : Rle a b := RlebP _ _ ab.
have Pm : Rle (Rmult p.[a] p.[b]) R0.
  have /RlebP h1 : Rleb p.[a] R0 := pa; have /RlebP h2 : Rleb R0 p.[b] := pb; nra.
have [z [Hz pz]] := IVT_cor (fun x : R => p.[x]) a b (poly_continuous p) lab Pm.
exists z; last by apply/eqP.
by apply/andP; split; apply/RlebP; case: Hz.
Qed.
End Ivt.
Canonical R_rcfType := RcfType R R_ivt.
