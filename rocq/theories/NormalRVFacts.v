(* Expressions with normal distributions and samples have the right moments. *)
From mathcomp Require Import all_ssreflect all_algebra.
From mathcomp Require Import ring.
From Verif Require Import RV RVProofs Formal NormalSpec Normal MatrixFacts NormalExp.
Set Implicit Arguments. Unset Strict Implicit. Unset Printing Implicit Defensive.
Import Order.TTheory GRing.Theory Num.Theory.
Local Open Scope ring_scope.

Section Lin.
Variables (R : fieldType) (W : space R).
Notation V := (rv W).
Lemma Ex_lin n c (X : 'I_n -> V) : Ex (rlin c X) = \sum_j c j * Ex (X j).
Proof.
rewrite /rlin -big_enum /=; elim: (enum 'I_n) => [|j l IH] /=; first by rewrite big_nil Ex_const.
by rewrite big_cons ExD ExZ IH.
Qed.
Lemma cov_lin n c (X : 'I_n -> V) v : cov (rlin c X) v = \sum_j c j * cov (X j) v.
Proof.
rewrite /rlin -big_enum /=; elim: (enum 'I_n) => [|j l IH] /=; first by rewrite big_nil cov_const.
by rewrite big_cons covD covZ IH.
Qed.
Lemma cov_linr n c (X : 'I_n -> V) v : cov v (rlin c X) = \sum_j c j * cov v (X j).
Proof. by rewrite covC cov_lin; apply: eq_bigr => j _; rewrite covC. Qed.
Lemma moments_lin n k (X : 'I_n -> V) m S (B : 'M[R]_(k, n)) : moments X m S ->
  moments (fun i => rlin (fun j => B i j) X) (B *m m) (B *m S *m B^T).
Proof.
move=> [eM eS]; split=> [i|i j].
  by rewrite Ex_lin mxE; apply: eq_bigr => t _; rewrite eM.
rewrite cov_linr mxE; apply: eq_bigr => t _; rewrite cov_lin !mxE mulrC; congr (_ * _).
by apply: eq_bigr => s _; rewrite eS.
Qed.
Lemma moments_const n (X : 'I_n -> V) m S (c : 'cV[R]_n) : moments X m S ->
  moments (fun i => radd (X i) (rconst W (c i 0))) (m + c) S.
Proof.
move=> [eM eS]; split=> [i|i j]; first by rewrite ExD Ex_const eM mxE.
by rewrite covD covDr cov_constr cov_const !addr0 eS.
Qed.
Lemma moments_scale n (X : 'I_n -> V) m S a : moments X m S ->
  moments (fun i => rscale a (X i)) (a *: m) ((a * a) *: S).
Proof.
by move=> [eM eS]; split=> [i|i j]; rewrite mxE ?ExZ ?eM // covZ covZr eS mulrA.
Qed.
Lemma moments_add n (X Y : 'I_n -> V) m S m' S' : moments X m S -> moments Y m' S' ->
  (forall i j, cov (X i) (Y j) = 0) -> moments (fun i => radd (X i) (Y i)) (m + m') (S + S').
Proof.
move=> [eM eS] [eM' eS'] Z; split=> [i|i j]; rewrite mxE; first by rewrite ExD eM eM'.
by rewrite covD !covDr Z (covC (Y i)) Z eS eS' addr0 add0r.
Qed.
Lemma moments_ext n (X Y : 'I_n -> V) m S : (forall i, Ex (X i) = Ex (Y i)) ->
  (forall i v, cov (X i) v = cov (Y i) v) -> moments Y m S -> moments X m S.
Proof. by move=> e c [eM eS]; split=> [i|i j]; rewrite ?e // c covC c covC. Qed.
End Lin.

Section Push.
Variables (R : rcfType) (W : space R) (dim : nat -> nat).
Variables (env : forall k, normal R (dim k)) (X : forall k, 'I_(dim k) -> rv W).
Hypothesis XP : forall k, moments (@X k) (mean (env k)) (var (env k)).
Hypothesis indep : forall k l i j, k != l -> cov (@X k i) (@X l j) = 0.

Lemma npush_cov n (e : nexp R dim n) v i : (forall k j, k \in nvars e -> cov (@X k j) v = 0) -> cov (npush X e i) v = 0.
Proof.
move=> H; elim: n / e i H => //=
  [k i H|n e IH e' IH' i H|n e IH c i H|n c e IH i H|n e IH e' IH' i H|n e IH c i H|n c e IH i H
  |n e IH i H|n e IH a i H|n a e IH i H|n e IH a i H|n k B e IH i H|n k B e IH i H].
- by apply: H; rewrite inE.
- by rewrite covD IH ?IH' ?addr0 // => k j h; apply: H; rewrite mem_cat h ?orbT.
- by rewrite covD IH // cov_const addr0.
- by rewrite covD IH // cov_const addr0.
- by rewrite cov_sub IH ?IH' ?subr0 // => k j h; apply: H; rewrite mem_cat h ?orbT.
- by rewrite cov_sub IH // cov_const subr0.
- by rewrite cov_sub IH // cov_const subr0.
- by rewrite covZ IH // mulr0.
- by rewrite covZ IH // mulr0.
- by rewrite covZ IH // mulr0.
- by rewrite covZ IH // mulr0.
- by rewrite cov_lin big1 // => j _; rewrite IH // mulr0.
- by rewrite cov_lin big1 // => j _; rewrite IH // mulr0.
Qed.
Lemma npush_indep n (e e' : nexp R dim n) i j : uniq (nvars e ++ nvars e') -> cov (npush X e i) (npush X e' j) = 0.
Proof.
rewrite cat_uniq => /and3P[_ /hasPn D _]; apply: npush_cov => k t ke; rewrite covC; apply: npush_cov => l s le.
by apply: indep; apply: contraTneq ke => <-; apply: D.
Qed.

Lemma npushP n (e : nexp R dim n) : uniq (nvars e) ->
  moments (npush X e) (mean (ncode env e)) (var (ncode env e)).
Proof.
elim: n / e => //=
  [n e IH e' IH' U|n e IH c U|n c e IH U|n e IH e' IH' U|n e IH c U|n c e IH U
  |n e IH U|n e IH a U|n a e IH U|n e IH a U|n k B e IH U|n k B e IH U].
- have := U; rewrite cat_uniq => /and3P[u _ u']; apply: moments_add; [exact: IH | exact: IH' |].
  by move=> i j; apply: npush_indep.
- exact: moments_const (IH U).
- apply: (moments_ext _ _ (moments_const c (IH U))) => [i|i v]; first by rewrite !ExD addrC.
  by rewrite !covD addrC.
- have := U; rewrite cat_uniq => /and3P[u _ u']; apply: moments_add; [exact: IH | |].
    by apply: moments_scale; apply: IH'.
  by move=> i j; rewrite covZr npush_indep // mulr0.
- apply: (moments_ext _ _ (moments_const (- c) (IH U))) => [i|i v]; first by rewrite Ex_sub ExD !Ex_const mxE.
  by rewrite cov_sub covD !cov_const subr0 addr0.
- apply: (moments_ext _ _ (moments_const c (moments_scale (-1) (IH U)))) => [i|i v].
    by rewrite Ex_sub ExD ExZ !Ex_const mulN1r addrC.
  by rewrite cov_sub covD covZ !cov_const addr0 add0r mulN1r.
- exact: moments_scale (IH U).
- exact: moments_scale (IH U).
- exact: moments_scale (IH U).
- by rewrite mul1r; apply: moments_scale (IH U).
- exact: moments_lin (IH U).
- have := moments_lin B^T (IH U); rewrite trmxK => H; apply: (moments_ext _ _ H) => [i|i v].
    by rewrite !Ex_lin; apply: eq_bigr => j _; rewrite mxE.
  by rewrite !cov_lin; apply: eq_bigr => j _; rewrite mxE.
Qed.
End Push.

Section Sampling.
Variables (R : rcfType) (state : Type) (randn : state -> forall n num, state * 'M[R]_(n, num)).

Lemma sampleP n (p : normal R n) noise (zero : bool) : pd (noisy (var p) noise) -> (zero -> mean p = 0) ->
  exists L : 'M[R]_n,
    (forall st num, let: (st', z) := randn st n num in
       sample randn p st num noise zero = (st', \matrix_(i, j) (mean p i 0 + \sum_k L i k * z k j))) /\
    (forall (W : space R) (Z : 'I_n -> rv W), standard Z ->
       moments (fun i => radd (rconst W (mean p i 0)) (rlin (fun k => L i k) Z)) (mean p) (noisy (var p) noise)).
Proof.
move=> P Z0; exists (cholesky (noisy (var p) noise)); split=> [st num|W Z SZ].
  rewrite /sample; case: (randn st n num) => st' z; congr (_, _); apply/matrixP => i j.
  case: zero Z0 => [Z0|_]; last by rewrite !mxE addrC.
  by rewrite !mxE Z0 // mxE add0r.
have [_ _ E] := choleskyP P; have := moments_const (mean p) (moments_lin (cholesky (noisy (var p) noise)) SZ).
rewrite mulmx0 add0r mulmx1 E => H; apply: (moments_ext _ _ H) => [i|i v]; first by rewrite !ExD addrC.
by rewrite !covD addrC.
Qed.
Lemma sample_globalP n (p : normal R n) num noise zero g :
  (sample_global randn p num noise zero g).2 = (randn g n num).1 /\
  (sample_global randn p num noise zero g).1 = (sample randn p g num noise zero).2.
Proof. by rewrite /sample_global /sample; case: (randn g n num). Qed.
End Sampling.
