(* Invertible covariance matrices of pseudo-point approximations. *)
From Coq Require Import List.
From mathcomp Require Import all_ssreflect all_algebra.
From mathcomp Require Import zify.
From Verif Require Import Graph Machine Refine RV RVProofs ModelSpec PseudoSpec TotalSpec.
Set Implicit Arguments. Unset Strict Implicit. Unset Printing Implicit Defensive.
Import GRing.Theory Num.Theory.
Local Open Scope ring_scope.

Section Pos.
Variable R : realFieldType.
Definition pos n (A : 'M[R]_n) : Prop := forall v : 'rV_n, v != 0 -> 0 < (v *m A *m v^T) 0 0.
Lemma pos_ge0 n (A : 'M[R]_n) (v : 'rV_n) : pos A -> 0 <= (v *m A *m v^T) 0 0.
Proof.
move=> P; case: (eqVneq v 0) => [->|/P]; last exact: Order.POrderTheory.ltW.
by rewrite !mul0mx mxE.
Qed.
Lemma pos_unit n (A : 'M[R]_n) : pos A -> A \in unitmx.
Proof.
move=> H; rewrite -row_free_unit -kermx_eq0; apply/eqP/row_matrixP => i; rewrite row0.
apply: contraTeq isT => nz.
have := H _ nz; have -> : row i (kermx A) *m A = 0 by rewrite -row_mul mulmx_ker row0.
by rewrite mul0mx mxE Order.POrderTheory.ltxx.
Qed.
Lemma tr00 (A : 'M[R]_1) : A^T 0 0 = A 0 0. Proof. by rewrite mxE. Qed.
Lemma solve_quad k (S : 'M[R]_k) (c : 'cV_k) : S \in unitmx ->
  let b := (invmx S *m c)^T in (b *m S *m b^T) 0 0 = (c^T *m invmx S *m c) 0 0.
Proof.
move=> U b; have -> : b *m S *m b^T = (c^T *m invmx S *m c)^T.
  rewrite /b trmxK -mulmxA mulmxA -[_ *m _ *m (_ *m _)]mulmxA (mulmxA S) mulmxV // mul1mx.
  by rewrite !trmx_mul trmxK mulmxA.
exact: tr00.
Qed.
Lemma nystrom_ge0 k n (S : 'M[R]_k) (C : 'M[R]_(k, n)) (v : 'rV_n) : pos S -> 0 <= (v *m nystrom S C C *m v^T) 0 0.
Proof.
move=> P; have := solve_quad (C *m v^T) (pos_unit P); rewrite /= /nystrom !trmx_mul !trmxK !mulmxA => <-.
by have := pos_ge0 ((invmx S *m (C *m v^T))^T) P; rewrite !trmx_mul !trmxK !mulmxA.
Qed.
Lemma var_pos k n (S : 'M[R]_k) (C : 'M[R]_(k, n)) (d : 'I_n -> R) : pos S -> (forall i, 0 < d i) -> pos (model_var S C d).
Proof.
move=> P H v nz; rewrite /model_var mulmxDr mulmxDl mxE; apply: ltr_paddl; first exact: nystrom_ge0.
have -> : (v *m diag_mx (\row_i d i) *m v^T) 0 0 = \sum_i d i * v 0 i ^+ 2.
  by rewrite mul_mx_diag mxE; apply: eq_bigr => i _; rewrite !mxE mulrAC mulrC -expr2.
have /rV0Pn [i vi] := nz.
rewrite (bigD1 i) //= ltr_paddr ?sumr_ge0 // => [j _|].
  by apply: mulr_ge0; [apply: Order.POrderTheory.ltW | apply: sqr_ge0].
by rewrite mulr_gt0 // Order.POrderTheory.lt_def sqr_ge0 sqrf_eq0 vi.
Qed.
(* The variance of a variable is at least that of its prediction from others. *)
Lemma prediction_le (W : space R) k (u : nat -> rv W) (t : rv W) (N : 'M[R]_k) : nonneg W -> pos N ->
  let S := \matrix_(i, j) cov (u i) (u j) + N in let c := \col_i cov (u i) t in
  S \in unitmx -> (c^T *m invmx S *m c) 0 0 <= cov t t.
Proof.
move=> NN P S c U; set s := (_ *m _) 0 0; set b := (invmx S *m c)^T.
have bc : (b *m c) 0 0 = s by rewrite /s -tr00 /b !trmx_mul !trmxK mulmxA.
have bS : (b *m S *m b^T) 0 0 = s by apply: solve_quad.
clearbody b.
pose B j := if insub j is Some j' then b 0 j' else 0.
have BE (i : 'I_k) : B i = b 0 i by rewrite /B valK.
pose r := rsum k (fun j => rscale (B j) (u j)).
have e1 : cov r t = s.
  by rewrite cov_sum -bc mxE; apply: eq_bigr => i _; rewrite covZ BE /c mxE.
have e2 : cov r r + (b *m N *m b^T) 0 0 = s.
  rewrite -bS /S mulmxDr mulmxDl [RHS]mxE; congr (_ + _).
  rewrite -mulmxA mxE cov_sum; apply: eq_bigr => i _; rewrite covZ BE; congr (_ * _).
  by rewrite mxE cov_sumr; apply: eq_bigr => j _; rewrite covZr BE !mxE mulrC.
have N0 := pos_ge0 b P.
have := NN (rsub t r); rewrite cov_sub !cov_subr (covC t r) e1.
have -> : cov r r = s - (b *m N *m b^T) 0 0 by rewrite -e2 addrK.
rewrite (_ : s - (s - _) = (b *m N *m b^T) 0 0) => [H|]; last by rewrite opprB addrCA subrr addr0.
apply: Order.POrderTheory.le_trans (_ : s + (b *m N *m b^T) 0 0 <= _); first by rewrite ler_addl.
by rewrite -subr_ge0 opprD addrA.
Qed.
End Pos.
