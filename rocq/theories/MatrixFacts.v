(* Positive definite matrices and their Cholesky factors. *)
From mathcomp Require Import all_ssreflect all_algebra.
From mathcomp Require Import ring.
From Verif Require Import NormalSpec.
Set Implicit Arguments. Unset Strict Implicit. Unset Printing Implicit Defensive.
Import Order.TTheory GRing.Theory Num.Theory.
Local Open Scope ring_scope.

(* The Cholesky factor, column by column. *)
Fixpoint cholesky (R : rcfType) n : 'M[R]_n -> 'M[R]_n :=
  match n with
  | 0 => fun A => A
  | n'.+1 => fun A : 'M_(1 + n') =>
    let a := A 0 0 in let b := dlsubmx A in let s := Num.sqrt a in
    block_mx s%:M 0 (s^-1 *: b) (cholesky (drsubmx A - a^-1 *: (b *m b^T)))
  end.
Definition is_chol (R : rcfType) n (A L : 'M[R]_n) : Prop :=
  [/\ is_trig_mx L, forall i, 0 < L i i & L *m L^T = A].

Section Forms.
Variable R : realFieldType.
Lemma scalar11 (A : 'M[R]_1) : A = (A 0 0)%:M. Proof. exact: mx11_scalar. Qed.
Lemma addmxE m n (A B : 'M[R]_(m, n)) i j : (A + B) i j = A i j + B i j. Proof. by rewrite mxE. Qed.
Lemma qf0 n (A : 'M[R]_n) : qf A 0 = 0. Proof. by rewrite /qf mulmx0 mxE. Qed.
Lemma qfD n (A : 'M[R]_n) u v : A^T = A -> qf A (u + v) = qf A u + (2%:R * (v^T *m A *m u) 0 0 + qf A v).
Proof.
move=> s; rewrite /qf; have -> : (u + v)^T = u^T + v^T by rewrite linearD.
rewrite !(mulmxDl, mulmxDr) !addmxE.
have -> : (u^T *m A *m v) 0 0 = (v^T *m A *m u) 0 0.
  by rewrite -[u^T *m A *m v]trmxK mxE !trmx_mul trmxK s mulmxA.
move: ((u^T *m A *m u) 0 0) ((v^T *m A *m u) 0 0) ((v^T *m A *m v) 0 0) => a b c; ring.
Qed.
Lemma qfZ n (A : 'M[R]_n) c v : qf A (c *: v) = c ^+ 2 * qf A v.
Proof.
rewrite /qf; have -> : (c *: v)^T = c *: v^T by rewrite linearZ.
by rewrite -!scalemxAl -!scalemxAr scalerA mxE expr2.
Qed.
Lemma qf_conj n k (A : 'M[R]_n) (B : 'M[R]_(k, n)) v : qf (B *m A *m B^T) v = qf A (B^T *m v).
Proof. by rewrite /qf trmx_mul trmxK !mulmxA. Qed.
Lemma qf_addm n (A B : 'M[R]_n) v : qf (A + B) v = qf A v + qf B v.
Proof. by rewrite /qf mulmxDr mulmxDl mxE. Qed.
Lemma qf_scalem n c (A : 'M[R]_n) v : qf (c *: A) v = c * qf A v.
Proof. by rewrite /qf -scalemxAr -scalemxAl mxE. Qed.
Lemma qf_one n (v : 'cV[R]_n) : qf 1%:M v = norm2 v.
Proof. by rewrite /qf mulmx1 mxE; apply: eq_bigr => i _; rewrite !mxE expr2. Qed.
Lemma qf_gram n k (B : 'M[R]_(k, n)) v : qf (B^T *m B) v = norm2 (B *m v).
Proof. by rewrite -qf_one /qf trmx_mul mulmx1 !mulmxA. Qed.
Lemma norm2_ge0 n (v : 'cV[R]_n) : 0 <= norm2 v.
Proof. by apply: sumr_ge0 => i _; apply: sqr_ge0. Qed.
Lemma norm2_eq0 n (v : 'cV[R]_n) : (norm2 v == 0) = (v == 0).
Proof.
apply/idP/eqP => [|->]; last by rewrite /norm2 big1 // => i _; rewrite mxE expr0n.
rewrite psumr_eq0 => [/allP H|i _]; last exact: sqr_ge0.
by apply/colP => i; have := H i (mem_index_enum _); rewrite sqrf_eq0 mxE => /eqP.
Qed.
Lemma pd_psd n (A : 'M[R]_n) : pd A -> psd A.
Proof. by case=> s H; split=> // v; have [->|/H/ltW //] := eqVneq v 0; rewrite qf0. Qed.
Lemma psd_gram n k (B : 'M[R]_(k, n)) : psd (B^T *m B).
Proof. by split=> [|v]; rewrite ?trmx_mul ?trmxK // qf_gram norm2_ge0. Qed.
Lemma pd_gram n (B : 'M[R]_n) : B \in unitmx -> pd (B^T *m B).
Proof.
move=> U; split=> [|v]; rewrite ?trmx_mul ?trmxK // qf_gram lt_def norm2_ge0 andbT norm2_eq0.
by apply: contraNneq => e; rewrite -[v](mulKmx U) e mulmx0.
Qed.
Lemma psd_conj n k (A : 'M[R]_n) (B : 'M[R]_(k, n)) : psd A -> psd (B *m A *m B^T).
Proof. by case=> s H; split=> [|v]; rewrite ?qf_conj // !trmx_mul trmxK s mulmxA. Qed.
Lemma pd_conj n (A B : 'M[R]_n) : B \in unitmx -> pd A -> pd (B *m A *m B^T).
Proof.
move=> U [s H]; split=> [|v nz]; first by rewrite !trmx_mul trmxK s mulmxA.
rewrite qf_conj H //; apply: contraNneq nz => e.
by rewrite -[v](@mulKmx _ _ _ B^T) ?unitmx_tr // e mulmx0.
Qed.
Lemma psd_add n (A B : 'M[R]_n) : psd A -> psd B -> psd (A + B).
Proof. by move=> [s H] [s' H']; split=> [|v]; rewrite ?linearD /= ?s ?s' // qf_addm addr_ge0. Qed.
Lemma pd_add n (A B : 'M[R]_n) : psd A -> pd B -> pd (A + B).
Proof. by move=> [s H] [s' H']; split=> [|v nz]; rewrite ?linearD /= ?s ?s' // qf_addm; apply: ltr_paddl; [exact: H | exact: H']. Qed.
Lemma qf_delta n (A : 'M[R]_n) i : qf A (delta_mx i 0) = A i i.
Proof. by rewrite /qf trmx_delta -rowE -colE !mxE. Qed.
Lemma psd_diag n (A : 'M[R]_n) i : psd A -> 0 <= A i i. Proof. by case=> _ H; rewrite -qf_delta. Qed.
Lemma delta_neq0 n (i : 'I_n) : delta_mx i 0 != 0 :> 'cV[R]_n.
Proof. by apply/eqP => /matrixP /(_ i 0); rewrite !mxE !eqxx => /eqP; rewrite oner_eq0. Qed.
Lemma pd_diag n (A : 'M[R]_n) i : pd A -> 0 < A i i.
Proof. by case=> _ H; rewrite -qf_delta H // delta_neq0. Qed.
Lemma psd_trace n (A : 'M[R]_n) : psd A -> 0 <= \tr A.
Proof. by move=> P; apply: sumr_ge0 => i _; apply: psd_diag. Qed.
Lemma pd_unit n (A : 'M[R]_n) : pd A -> A \in unitmx.
Proof.
move=> [s H]; rewrite -unitmx_tr -row_free_unit -kermx_eq0; apply/eqP/row_matrixP => i; rewrite row0; apply/eqP.
apply/negP => /negP nz; have e : row i (kermx A^T) *m A^T = 0 by rewrite -row_mul mulmx_ker row0.
have /H : (row i (kermx A^T))^T != 0 by apply: contraNneq nz => e'; rewrite -[row _ _]trmxK e' trmx0.
by rewrite /qf trmxK -{2}s e mul0mx mxE ltxx.
Qed.
Lemma sym_inv n (A : 'M[R]_n) : A^T = A -> (invmx A)^T = invmx A. Proof. by move=> s; rewrite trmx_inv s. Qed.
Lemma pd_inv n (A : 'M[R]_n) : pd A -> pd (invmx A).
Proof.
move=> P; have U := pd_unit P; have s := sym_inv P.1.
have -> : invmx A = invmx A *m A *m (invmx A)^T by rewrite mulVmx // mul1mx s.
by apply: pd_conj => //; rewrite unitmx_inv.
Qed.
(* A vector on which a semi-definite form vanishes is in the kernel. *)
Lemma psd_ker n (P : 'M[R]_n) d : psd P -> qf P d = 0 -> P *m d = 0.
Proof.
move=> [s H] q0; pose w := P *m d; pose c := norm2 w; pose q := qf P w.
apply/eqP; rewrite -norm2_eq0 -/w -/c; apply/negP => /negP nz.
have c0 : 0 < c by rewrite lt_neqAle eq_sym nz norm2_ge0.
have q1 : 0 < q + 1 by apply: ltr_paddl; [exact: H | exact: ltr01].
have := H (d + (- (c / (q + 1))) *: w); rewrite qfD // q0 add0r qfZ.
have -> : (((- (c / (q + 1))) *: w)^T *m P *m d) 0 0 = - (c / (q + 1)) * c.
  have -> : (- (c / (q + 1)) *: w)^T = - (c / (q + 1)) *: w^T by rewrite linearZ.
  by rewrite -!scalemxAl mxE -mulmxA -/w -[(w^T *m w) 0 0]/((w^T *m w) 0 0) -{1}[w^T]mulmx1 -/(qf 1%:M w) qf_one.
rewrite -/q => le.
have : 0 <= (2%:R * (- (c / (q + 1)) * c) + (- (c / (q + 1))) ^+ 2 * q) * (q + 1) ^+ 2.
  by rewrite mulr_ge0 // sqr_ge0.
have -> : (2%:R * (- (c / (q + 1)) * c) + (- (c / (q + 1))) ^+ 2 * q) * (q + 1) ^+ 2 = - (c ^+ 2 * (q + 1 + 1)).
  have e : c / (q + 1) * (q + 1) = c by rewrite divfK // gt_eqF.
  move: e; set t := c / (q + 1) => e; clearbody t; rewrite -e; ring.
by rewrite oppr_ge0 leNgt => /negP; apply; rewrite mulr_gt0 ?exprn_gt0 // addr_gt0 ?ltr01.
Qed.
Lemma trace_gram n k (Z : 'M[R]_(n, k)) : \tr (Z^T *m Z) = \sum_j norm2 (col j Z).
Proof.
by apply: eq_bigr => j _; rewrite mxE; apply: eq_bigr => i _; rewrite !mxE expr2.
Qed.
Lemma trace_gram_eq0 n k (Z : 'M[R]_(n, k)) : \tr (Z^T *m Z) = 0 -> Z = 0.
Proof.
rewrite trace_gram => /eqP; rewrite psumr_eq0 => [/allP H|j _]; last exact: norm2_ge0.
apply/matrixP => i j; have := H j (mem_index_enum _); rewrite norm2_eq0 => /eqP /matrixP /(_ i 0).
by rewrite !mxE.
Qed.
Lemma trace_conj n k (P : 'M[R]_n) (Z : 'M[R]_(n, k)) : \tr (Z^T *m P *m Z) = \sum_j qf P (col j Z).
Proof.
apply: eq_bigr => j _; rewrite /qf tr_col -row_mul !mxE; apply: eq_bigr => i _.
by rewrite [row _ _ _ _]mxE [col _ _ _ _]mxE.
Qed.
Lemma trace_conj_eq0 n k (P : 'M[R]_n) (Z : 'M[R]_(n, k)) : psd P -> \tr (Z^T *m P *m Z) = 0 -> P *m Z = 0.
Proof.
move=> PP; rewrite trace_conj => /eqP; rewrite psumr_eq0 => [/allP H|j _]; last exact: PP.2.
apply/matrixP => i j; have := H j (mem_index_enum _) => /eqP /(psd_ker PP) /matrixP /(_ i 0).
by rewrite colE mulmxA -colE !mxE.
Qed.
Lemma trace_conj_ge0 n k (P : 'M[R]_n) (Z : 'M[R]_(n, k)) : psd P -> 0 <= \tr (Z^T *m P *m Z).
Proof. by move=> PP; rewrite trace_conj sumr_ge0 // => j _; apply: PP.2. Qed.
End Forms.

Section Cholesky.
Variable R : rcfType.
Lemma sym_block n (A : 'M[R]_(1 + n)) : A^T = A -> A = block_mx (A 0 0)%:M (dlsubmx A)^T (dlsubmx A) (drsubmx A).
Proof.
move=> s; rewrite -{1}[A]submxK; congr block_mx; last by rewrite trmx_dlsub s.
by rewrite [LHS]mx11_scalar; congr (_%:M); rewrite !mxE; congr (A _ _); apply/val_inj.
Qed.
Lemma qf_block n (a : R) (b : 'cV[R]_n) (C : 'M[R]_n) (t : R) v :
  qf (block_mx a%:M b^T b C : 'M_(1 + n)) (col_mx t%:M v) = t ^+ 2 * a + (2%:R * t * (v^T *m b) 0 0 + qf C v).
Proof.
rewrite /qf tr_col_mx tr_scalar_mx mul_row_block mul_row_col !(mulmxDl) -!scalar_mxM !mul_scalar_mx !addmxE.
have -> : (t *: b^T *m v) 0 0 = t * (v^T *m b) 0 0.
  by rewrite -scalemxAl mxE; congr (_ * _); rewrite -[b^T *m v]trmxK mxE trmx_mul trmxK.
have -> : (v^T *m b *m t%:M) 0 0 = t * (v^T *m b) 0 0 by rewrite mul_mx_scalar mxE.
rewrite [(t * a * t)%:M 0 0]mxE eqxx mulr1n; move: ((v^T *m b) 0 0) ((v^T *m C *m v) 0 0) => x y; ring.
Qed.
Lemma schur_pd n (a : R) (b : 'cV[R]_n) (C : 'M[R]_n) : pd (block_mx a%:M b^T b C : 'M_(1 + n)) ->
  0 < a /\ pd (C - a^-1 *: (b *m b^T)).
Proof.
move=> [s H]; have [_ _ _ sC] : [/\ a%:M^T = a%:M :> 'M[R]_1, b^T = b^T, b^T^T = b & C^T = C].
  by move: s; rewrite tr_block_mx => /eq_block_mx [].
have a0 : 0 < a.
  have := H (col_mx 1%:M 0); rewrite qf_block qf0 trmx0 mul0mx mxE expr1n !mulr0 addr0 mul1r addr0; apply.
  by rewrite col_mx_eq0 negb_and; apply/orP; left; apply/eqP => /matrixP /(_ 0 0); rewrite !mxE => /eqP; rewrite oner_eq0.
split=> //; split=> [|v nz]; first by rewrite linearB /= linearZ /= trmx_mul trmxK sC.
pose x := (v^T *m b) 0 0; pose t := - (a^-1 * x).
have := H (col_mx t%:M v); rewrite qf_block -/x.
have -> : qf (C - a^-1 *: (b *m b^T)) v = t ^+ 2 * a + (2%:R * t * x + qf C v).
  rewrite qf_addm -scaleNr qf_scalem.
  have -> : qf (b *m b^T) v = x ^+ 2.
    rewrite /qf !mulmxA -mulmxA [v^T *m b]mx11_scalar -/x mul_scalar_mx mxE expr2; congr (_ * _).
    by rewrite -[b^T *m v]trmxK mxE trmx_mul trmxK.
  have e : a^-1 * a = 1 by rewrite mulVf // gt_eqF.
  rewrite /t; move: (qf C v) e; move: (a^-1) => i q e.
  have -> : (- (i * x)) ^+ 2 * a + (2%:R * - (i * x) * x + q) = (i * a) * i * x ^+ 2 - 2%:R * i * x ^+ 2 + q by ring.
  by rewrite e; ring.
by apply; rewrite col_mx_eq0 negb_and nz orbT.
Qed.
Lemma chol_step n (a : R) (b : 'cV[R]_n) (C L : 'M[R]_n) : 0 < a -> is_chol (C - a^-1 *: (b *m b^T)) L ->
  is_chol (block_mx a%:M b^T b C : 'M_(1 + n)) (block_mx (Num.sqrt a)%:M 0 ((Num.sqrt a)^-1 *: b) L).
Proof.
move=> a0 [T D E]; set s := Num.sqrt a.
have s0 : 0 < s by rewrite sqrtr_gt0.
have ss : s * s = a by rewrite -expr2 sqr_sqrtr // ltW.
split.
- by rewrite is_trig_block_mx // eqxx /= T andbT mx11_is_trig.
- move=> i; rewrite -[i]splitK; case: (split i) => j /=.
    by rewrite block_mxEul mxE ord1 eqxx.
  by rewrite block_mxEdr.
rewrite tr_block_mx mulmx_block tr_scalar_mx trmx0 !mulmx0 !mul0mx !addr0 -scalar_mxM ss.
rewrite mul_scalar_mx mul_mx_scalar linearZ /= !scalerA divff ?gt_eqF // !scale1r; congr block_mx.
by rewrite E -scalemxAl -scalemxAr scalerA -invfM ss addrC subrK.
Qed.
Lemma choleskyP n (A : 'M[R]_n) : pd A -> is_chol A (cholesky A).
Proof.
elim: n A => [|n IH] A PA.
  by split=> [|[]//|]; [apply/is_trig_mxP => -[] | rewrite [LHS]flatmx0 [RHS]flatmx0].
pose B : 'M_(1 + n) := A; have PB : pd B by [].
have eB : B = block_mx (B 0 0)%:M (dlsubmx B)^T (dlsubmx B) (drsubmx B) := sym_block PB.1.
have [a0 PC] : 0 < B 0 0 /\ pd (drsubmx B - (B 0 0)^-1 *: (dlsubmx B *m (dlsubmx B)^T)).
  by apply: schur_pd; rewrite -eB.
by have := chol_step a0 (IH _ PC); rewrite -eB.
Qed.
End Cholesky.
