(* Proofs about Normal.diagonalise: marginals, densities and divergences. *)
From mathcomp Require Import all_ssreflect all_algebra ring.
From Verif Require Import MatrixFacts NormalSpec Normal NormalFacts.
Set Implicit Arguments. Unset Strict Implicit. Unset Printing Implicit Defensive.
Import Order.TTheory GRing.Theory Num.Theory.
Local Open Scope ring_scope.

Section Diag.
Variable R : rcfType.
Lemma qf_diag n (d : 'rV[R]_n) (v : 'cV[R]_n) : qf (diag_mx d) v = \sum_i d 0 i * v i 0 ^+ 2.
Proof.
rewrite /qf -mulmxA mxE; apply: eq_bigr => i _; by rewrite mul_diag_mx !mxE mulrCA -expr2.
Qed.
Lemma pd_diag_mx n (d : 'rV[R]_n) : (forall i, 0 < d 0 i) -> pd (diag_mx d).
Proof.
move=> h; split; first exact: tr_diag_mx.
move=> v v0; rewrite qf_diag.
have g i : 0 <= d 0 i * v i 0 ^+ 2 by rewrite mulr_ge0 ?sqr_ge0 // ltW.
rewrite lt_def sumr_ge0 // andbT; apply: contra v0 => /eqP s0; apply/eqP/matrixP => i j.
have := s0 => /(psumr_eq0P (fun i _ => g i)) /(_ i isT) /eqP; rewrite mulf_eq0 sqrf_eq0.
by rewrite (gt_eqF (h i)) (ord1 j) mxE /= => /eqP.
Qed.
Lemma inv_diag n (d : 'rV[R]_n) : (forall i, 0 < d 0 i) -> invmx (diag_mx d) = diag_mx (\row_i (d 0 i)^-1).
Proof.
move=> h; have U := pd_unit (pd_diag_mx h).
apply: (can_inj (mulKmx U)); rewrite mulmxV // mul_diag_mx; apply/matrixP => i j; rewrite !mxE.
case: eqP => [->|_] /=; last by rewrite !mulr0n mulr0.
by rewrite !mulr1n mulfV // gt_eqF.
Qed.
Lemma det1 (A : 'M[R]_1) : \det A = A 0 0.
Proof. by rewrite {1}[A]mx11_scalar det_scalar1. Qed.
Lemma inv1 (A : 'M[R]_1) : 0 < A 0 0 -> invmx A = ((A 0 0)^-1)%:M.
Proof. by move=> h; rewrite [A in LHS]mx11_scalar invmx_scalar. Qed.

Variables (ln : R -> R) (pi : R).
Hypothesis LN : logarithm ln.
Lemma ln_prod (I : finType) (F : I -> R) : (forall i, 0 < F i) -> ln (\prod_i F i) = \sum_i ln (F i).
Proof.
move=> h; have ln1 : ln 1 = 0.
  by have := ln_mul LN (@ltr01 R) (@ltr01 R); rewrite mulr1 => /eqP; rewrite -subr_eq0 opprD addNKr oppr_eq0 => /eqP.
have : 0 < \prod_i F i /\ ln (\prod_i F i) = \sum_i ln (F i); last by case.
apply: (big_rec2 (fun x y => 0 < x /\ ln x = y)) => [|i y x _ [x0 <-]]; first by rewrite ltr01.
by rewrite mulr_gt0 // (ln_mul LN).
Qed.

Lemma diag_marginals n (p : normal R n) i : (marginals (diagonalise p)).1 i = (marginals p).1 i /\
  (marginals (diagonalise p)).2 i = (marginals p).2 i.
Proof. by split=> //=; rewrite !mxE eqxx mulr1n. Qed.
Lemma diag_logpdf n (p : normal R n) (x : 'cV[R]_n) : (forall i, 0 < var p i i) ->
  logpdf ln pi (diagonalise p) (map_mx Some x) =
  One (Some (\sum_i mvn_logpdf ln pi (mean p i 0)%:M ((var p i i)%:M : 'M_1) (x i 0)%:M)).
Proof.
move=> h; have h' i : 0 < (\row_i var p i i : 'rV_n) 0 i by rewrite mxE.
rewrite (logpdf_fullE pi LN (mean p) x (pd_diag_mx h')) enum_ordSl enum_ord0 /=; do 2!congr (_ _).
rewrite /mvn_logpdf det_diag.
have -> : \prod_i (\row_i0 var p i0 i0 : 'rV_n) 0 i = \prod_i var p i i by apply: eq_bigr => i _; rewrite mxE.
rewrite ln_prod // inv_diag // qf_diag.
have -> : col 0 x = x by apply/matrixP => i j; rewrite !mxE (ord1 j).
rewrite [RHS](eq_bigr (fun i => - (ln (var p i i) + ln (2%:R * pi) + (var p i i)^-1 * (x i 0 - mean p i 0) ^+ 2) / 2%:R)); last first.
  move=> i _; rewrite det_scalar1 inv1 ?mxE ?eqxx ?mulr1n // mul1r; congr (- (_ + _) / _).
  by rewrite /qf -mulmxA mul_scalar_mx mxE big_ord1 !mxE eqxx !mulr1n; ring.
rewrite -mulr_suml sumrN !big_split /= sumr_const card_ord; congr (- (_ + _ + _) / _); first by rewrite mulr_natl.
by apply: eq_bigr => i _; rewrite !mxE.
Qed.

(* The trace against a diagonal matrix. *)
Lemma tr_diag n (d : 'rV[R]_n) (A : 'M[R]_n) : \tr (diag_mx d *m A) = \sum_i d 0 i * A i i.
Proof. by apply: eq_bigr => i _; rewrite mul_diag_mx mxE. Qed.
Lemma kl_diag n (p q : normal R n) : pd (var p) -> pd (var q) -> (forall i j, i != j -> var q i j = 0) ->
  kl ln p q = kl ln p (diagonalise p) + kl ln (diagonalise p) q.
Proof.
move=> P Q D; pose d := \row_i var q i i; pose e := \row_i var p i i.
have qE : var q = diag_mx d.
  by apply/matrixP => i j; rewrite !mxE; case: eqP => [->|/eqP ne] //=; rewrite D.
have d0 i : 0 < d 0 i by rewrite mxE; apply: pd_diag.
have e0 i : 0 < e 0 i by rewrite mxE; apply: pd_diag.
have PE : pd (var (diagonalise p)) by apply: pd_diag_mx.
rewrite !kl_closed // /= qE -/e !inv_diag // !tr_diag subrr.
have -> : qf (diag_mx (\row_i (e 0 i)^-1)) (0 : 'cV[R]_n) = 0 by rewrite /qf mulmx0 mxE.
rewrite (eq_bigr (fun=> 1) (F1 := fun i => (\row_i (e 0 i)^-1 : 'rV[R]_n) 0 i * var p i i)); last first.
  by move=> i _; rewrite !mxE mulVf // gt_eqF //; apply: pd_diag.
rewrite sumr_const card_ord -mulrDl (eq_bigr (fun i => (\row_i0 (d 0 i0)^-1 : 'rV[R]_n) 0 i * diag_mx e i i)); last first.
  by move=> i _; rewrite !mxE eqxx mulr1n.
congr (_ / _); move: (\sum_i _) (qf _ _) (ln (\det (diag_mx e))) (ln (\det (diag_mx d))) (ln (\det (var p))) => *; ring.
Qed.
Lemma kl_diag_le n (p q : normal R n) : pd (var p) -> pd (var q) -> (forall i j, i != j -> var q i j = 0) ->
  kl ln p (diagonalise p) <= kl ln p q.
Proof.
move=> P Q D; rewrite (kl_diag P Q D) ler_addl; apply: (kl_ge0 LN) => //.
by apply: pd_diag_mx => i; rewrite mxE; apply: pd_diag.
Qed.
Lemma diag_cov n (p : normal R n) i j : var (diagonalise p) i j = if i == j then var p i i else 0.
Proof. by have [_ ->] := diagonaliseP p. Qed.
End Diag.
Lemma ex_diag (R : rcfType) : exists p : normal R 2, [/\ pd (var p), forall i, 0 < var p i i & var p 0 1 <> 0].
Proof.
pose A : 'M[R]_2 := \matrix_(i, j) ((i <= j)%N)%:R; pose V := A^T *m A.
have D : \det A = 1.
  rewrite -det_tr det_trig; first by rewrite !big_ord_recl big_ord0 !mxE !mulr1.
  by apply/is_trig_mxP => i j ij; rewrite !mxE leqNgt ij.
have P : pd V by apply: pd_gram; rewrite unitmxE D unitr1.
exists (Normal 0 V); split=> //= [i|]; first exact: pd_diag.
by rewrite mxE !big_ord_recl big_ord0 !mxE /= !mulr1 ?mul0r !addr0 => /eqP; rewrite oner_eq0.
Qed.
