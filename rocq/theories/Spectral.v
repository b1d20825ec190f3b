(* Symmetric matrices are diagonal in an orthonormal basis; square roots of positive
   semi-definite matrices exist and their trace depends on the eigenvalues only. *)
From mathcomp Require Import all_ssreflect all_algebra.
From mathcomp Require Import complex ring.
From Verif Require Import MatrixFacts NormalSpec.
Set Implicit Arguments. Unset Strict Implicit. Unset Printing Implicit Defensive.
Import Order.TTheory GRing.Theory Num.Theory.
Local Open Scope ring_scope.

Section Eigen.
Variable R : rcfType.
Local Notation C := (complex R).

Lemma sym_eigen n (A : 'M[R]_n.+1) : A^T = A -> exists (l : R) (v : 'cV[R]_n.+1), v != 0 /\ A *m v = l *: v.
Proof.
move=> s; pose f := ComplexField.real_complex_rmorphism R; pose AC : 'M[C]_n.+1 := map_mx f A.
have sz : size (char_poly AC) != 1%N by rewrite size_char_poly.
have [l rl] : exists l, root (char_poly AC) l by apply/closed_rootP.
have /eigenvalueP [w ew nw] : eigenvalue AC l by rewrite eigenvalue_root_char.
pose q : C := (w *m (map_mx conjC w)^T) 0 0.
have q0 : q != 0.
  rewrite /q mxE; apply: contra nw; rewrite psumr_eq0 => [/allP H|i _]; last by rewrite !mxE mul_conjC_ge0.
  apply/eqP/matrixP => i j; rewrite (ord1 i) mxE; have := H j (mem_index_enum _).
  by rewrite !mxE mul_conjC_eq0 => /eqP.
pose t : C := (w *m AC *m (map_mx conjC w)^T) 0 0.
have tq : t = l * q by rewrite /t ew -scalemxAl mxE.
have cj (X : 'M[C]_1) : conjC (X 0 0) = (map_mx conjC X) 0 0 by rewrite mxE.
have ACc : map_mx conjC AC = AC.
  by apply/matrixP => i j; rewrite !mxE; apply/CrealP; apply/Creal_ImP; rewrite -complexIm /=.
have kk k m (X : 'M[C]_(k, m)) : map_mx conjC (map_mx conjC X) = X by apply/matrixP => i j; rewrite !mxE conjCK.
have AT : AC^T = AC by rewrite map_trmx s.
have t11 (X : 'M[C]_1) : X 0 0 = X^T 0 0 by rewrite mxE.
have qc : conjC q = q.
  by rewrite /q cj map_mxM -map_trmx kk t11 trmx_mul trmxK.
have tc : conjC t = t.
  by rewrite /t cj !map_mxM -map_trmx kk ACc t11 !trmx_mul AT trmxK mulmxA.
have lc : conjC l = l.
  by apply: (mulIf q0); rewrite -{1}qc -rmorphM -tq tc tq.
have lr : l = f (complex.Re l).
  by have /CrealP /complex_realP [k ->] := lc.
have : eigenvalue A (complex.Re l).
  by rewrite eigenvalue_root_char -(fmorph_root f) map_char_poly -lr.
case/eigenvalueP => v ev nv; exists (complex.Re l), v^T; split; first by rewrite trmx_eq0.
by rewrite -{1}s -trmx_mul ev linearZ.
Qed.
End Eigen.

Section Spectral.
Variable R : rcfType.

Definition orthogonal n (U : 'M[R]_n) : Prop := U *m U^T = 1%:M.
Lemma orthogonalV n (U : 'M[R]_n) : orthogonal U -> U^T *m U = 1%:M.
Proof. exact: mulmx1C. Qed.

(* A reflection that moves the first unit vector to a given vector of length one. *)
Lemma householder n (v : 'cV[R]_n.+1) : norm2 v = 1 ->
  exists H : 'M[R]_n.+1, [/\ H^T = H, H *m H = 1%:M & H *m delta_mx 0 0 = v].
Proof.
move=> nv; pose e : 'cV[R]_n.+1 := delta_mx 0 0; pose w := v - e.
have [w0|wn] := eqVneq w 0.
  by exists 1%:M; rewrite trmx1 !mul1mx; split=> //; apply/eqP; rewrite eq_sym -subr_eq0; apply/eqP.
pose q := norm2 w; have q0 : q != 0 by rewrite norm2_eq0.
have wq : w^T *m w = q%:M by rewrite [LHS]mx11_scalar /q -qf_one /qf mulmx1.
have ee : norm2 e = 1.
  by rewrite /norm2 (bigD1 0) //= mxE !eqxx expr1n big1 ?addr0 // => i ni; rewrite mxE (negPf ni) expr0n.
have we : w^T *m e = (- (q / 2%:R))%:M.
  rewrite [LHS]mx11_scalar; congr (_%:M).
  have : qf 1%:M v = qf 1%:M w + (2%:R * (e^T *m 1%:M *m w) 0 0 + qf 1%:M e).
    by rewrite -qfD ?trmx1 // /w subrK.
  rewrite !qf_one nv ee mulmx1.
  have -> : (e^T *m w) 0 0 = (w^T *m e) 0 0 by rewrite -[w^T *m e]trmxK trmx_mul trmxK [RHS]mxE.
  rewrite -/q; move: ((w^T *m e) 0 0) => x E; have n2 : (2%:R : R) != 0 by rewrite pnatr_eq0.
  apply: (mulfI n2); have -> : 2%:R * x = - q by move/eqP: E; rewrite addrA -subr_eq subrr eq_sym addr_eq0 => /eqP ->; rewrite opprK.
  by field.
exists (1%:M - (2%:R / q) *: (w *m w^T)).
have ss : (w *m w^T)^T = w *m w^T by rewrite trmx_mul trmxK.
split; first by rewrite linearB /= linearZ /= ss trmx1.
  rewrite mulmxBl mul1mx mulmxBr mulmx1 -!scalemxAl -!scalemxAr.
  have -> : w *m w^T *m (w *m w^T) = q *: (w *m w^T).
    by rewrite -mulmxA (mulmxA w^T) wq mul_scalar_mx -scalemxAr.
  rewrite !scalerA; have -> : 2%:R / q * (2%:R / q) * q = 2%:R / q + 2%:R / q by field.
  by rewrite scalerDl opprB addrK subrK.
rewrite mulmxBl mul1mx -scalemxAl -mulmxA we mul_mx_scalar scalerA.
have -> : 2%:R / q * - (q / 2%:R) = -1 by field.
by rewrite scaleN1r opprK /w addrC subrK.
Qed.

Lemma spectral n (A : 'M[R]_n) : A^T = A ->
  exists (U : 'M[R]_n) (d : 'rV[R]_n), orthogonal U /\ A = U *m diag_mx d *m U^T.
Proof.
elim: n A => [|n IH] A s; first by exists 1%:M, 0; split; apply/matrixP => -[].
have [l [v0 [nv0 ev0]]] := sym_eigen s.
have q0 : 0 < norm2 v0 by rewrite lt_def norm2_eq0 nv0 norm2_ge0.
pose c := (Num.sqrt (norm2 v0))^-1; pose v := c *: v0.
have c2 : c ^+ 2 * norm2 v0 = 1.
  by rewrite /c exprVn sqr_sqrtr ?ltW // mulVf // gt_eqF.
have nv : norm2 v = 1 by rewrite -qf_one qfZ qf_one.
have ev : A *m v = l *: v by rewrite -scalemxAr ev0 !scalerA mulrC.
have [H [sH HH He]] := householder nv.
pose T : 'M[R]_n.+1 := H *m A *m H.
have sT : T^T = T by rewrite /T !trmx_mul sH s mulmxA.
have Te : T *m delta_mx 0 0 = l *: (delta_mx 0 0 : 'cV[R]_n.+1).
  by rewrite /T -mulmxA He -mulmxA ev -scalemxAr -He mulmxA HH mul1mx.
have T0 i : T i 0 = l * (i == 0)%:R by move/matrixP/(_ i 0): Te; rewrite -colE !mxE eqxx andbT.
have TE : T = H *m A *m H by []; move: T TE sT T0 {Te} => T TE sT T0.
pose B : 'M[R]_(1 + n) := T; have sB : B^T = B := sT.
have dl : dlsubmx B = 0.
  apply/matrixP => i j; rewrite !mxE (ord1 j); have -> : lshift n (0 : 'I_1) = 0 by apply/val_inj.
  by rewrite [LHS]T0 mulr0.
have Bb := sym_block sB; rewrite dl trmx0 in Bb.
have [U' [d' [O' E']]] : exists (U : 'M[R]_n) (d : 'rV[R]_n), orthogonal U /\ drsubmx B = U *m diag_mx d *m U^T.
  by apply: IH; rewrite trmx_drsub sB.
pose U1 : 'M[R]_(1 + n) := block_mx 1%:M 0 0 U'.
have O1 : U1 *m U1^T = 1%:M.
  by rewrite tr_block_mx trmx1 !trmx0 mulmx_block !mulmx0 !mul0mx !addr0 !add0r mulmx1 O' -scalar_mx_block.
exists (H *m U1), (row_mx (B 0 0)%:M d' : 'rV_(1 + n)); split.
  by rewrite /orthogonal trmx_mul mulmxA -(mulmxA H) O1 mulmx1 sH HH.
have E1 : B = U1 *m diag_mx (row_mx (B 0 0)%:M d' : 'rV_(1 + n)) *m U1^T.
  have -> : diag_mx (row_mx (B 0 0)%:M d' : 'rV_(1 + n)) = block_mx (B 0 0)%:M 0 0 (diag_mx d').
    rewrite diag_mx_row; congr block_mx; apply/matrixP => i j; rewrite !mxE !(ord1 i) !(ord1 j) //.
  rewrite tr_block_mx trmx1 !trmx0 !mulmx_block !(mulmx0, mul0mx, addr0, add0r) mulmx1 mul1mx -E' {1}Bb //.
by rewrite trmx_mul sH !mulmxA -!(mulmxA H) -E1 [B]TE !mulmxA HH mul1mx -mulmxA HH mulmx1.
Qed.
End Spectral.

Section Roots.
Variable R : rcfType.

Lemma char_poly_mulC n (A B : 'M[R]_n) : char_poly (A *m B) = char_poly (B *m A).
Proof.
pose f := polyC_rmorphism R; pose a : 'M[{poly R}]_n := map_mx f A; pose b : 'M[{poly R}]_n := map_mx f B.
pose X : 'M[{poly R}]_n := 'X%:M; pose D := \det (block_mx X a b 1%:M).
have cp (M N : 'M[R]_n) : char_poly (M *m N) = \det (X - map_mx f M *m map_mx f N).
  by rewrite /char_poly /char_poly_mx map_mxM.
have E1 : D = \det (X - a *m b).
  have : \det (block_mx X a b 1%:M *m block_mx 1%:M 0 (- b) 1%:M) = D.
    by rewrite det_mulmx det_lblock !det1 !mulr1.
  by rewrite mulmx_block !mulmx1 !mulmx0 !mulmxN !mul1mx ?add0r subrr det_ublock det1 mulr1 => <-.
have E2 : D * 'X^n = \det (X - b *m a) * 'X^n.
  have : \det (block_mx 1%:M 0 (- b) X *m block_mx X a b 1%:M) = D * 'X^n.
    by rewrite det_mulmx det_lblock det1 mul1r det_scalar mulrC.
  rewrite mulmx_block !mul1mx !mul0mx !addr0 mulmx1 mul_scalar_mx !mulNmx mul_mx_scalar addNr det_ublock det_scalar => <-.
  by rewrite mulrC [- _ + _]addrC.
rewrite !cp -/a -/b -E1; apply: (mulIf _ E2).
by rewrite expf_neq0 // polyX_eq0.
Qed.

Lemma prod_XsubC_perm (s t : seq R) : \prod_(x <- s) ('X - x%:P) = \prod_(x <- t) ('X - x%:P) -> perm_eq s t.
Proof.
elim: s t => [|a s IH] t E.
  by case: t E => // b t /(congr1 (fun p : {poly R} => size p)); rewrite !size_prod_XsubC.
have at_ : a \in t by rewrite -root_prod_XsubC -E big_cons rootM root_XsubC eqxx.
rewrite perm_sym (perm_trans (perm_to_rem at_)) // perm_cons perm_sym; apply: IH.
have nz : 'X - a%:P != 0 :> {poly R} by rewrite polyXsubC_eq0.
by apply: (mulfI nz); move: E; rewrite big_cons (perm_big _ (perm_to_rem at_)) big_cons.
Qed.

Lemma psd_spectral n (A : 'M[R]_n) : psd A ->
  exists (U : 'M[R]_n) (d : 'rV[R]_n), [/\ orthogonal U, forall i, 0 <= d 0 i & A = U *m diag_mx d *m U^T].
Proof.
move=> [s P]; have [U [d [O E]]] := spectral s; exists U, d; split=> // i.
have : 0 <= qf A (U *m delta_mx i 0) by [].
by rewrite E -[U in U *m delta_mx _ _]trmxK -qf_conj trmxK !mulmxA orthogonalV // mul1mx -mulmxA orthogonalV // mulmx1 qf_delta mxE eqxx.
Qed.
Lemma char_poly_conj n (U M : 'M[R]_n) : orthogonal U -> char_poly (U *m M *m U^T) = char_poly M.
Proof. by move=> O; rewrite -mulmxA char_poly_mulC -mulmxA orthogonalV // mulmx1. Qed.
Lemma char_poly_diag n (d : 'rV[R]_n) : char_poly (diag_mx d) = \prod_(x <- [seq d 0 i | i <- enum 'I_n]) ('X - x%:P).
Proof.
rewrite char_poly_trig ?diag_mx_is_trig // big_map big_enum /=; apply: eq_bigr => i _.
by rewrite mxE eqxx.
Qed.
Lemma psd_diag_mx n (d : 'rV[R]_n) : (forall i, 0 <= d 0 i) -> psd (diag_mx d).
Proof.
move=> P; split=> [|v]; first by rewrite tr_diag_mx.
by rewrite /qf mul_mx_diag mxE sumr_ge0 // => i _; rewrite !mxE mulrAC mulr_ge0 // -expr2 sqr_ge0.
Qed.

(* The trace of a root depends on the eigenvalues only. *)
Lemma trace_root n (S T : 'M[R]_n) : psd S -> psd T -> char_poly (S *m S) = char_poly (T *m T) -> \tr S = \tr T.
Proof.
have step (S0 : 'M[R]_n) : psd S0 -> exists d : 'rV[R]_n, [/\ forall i, 0 <= d 0 i, \tr S0 = \sum_i d 0 i &
    char_poly (S0 *m S0) = \prod_(x <- [seq d 0 i ^+ 2 | i <- enum 'I_n]) ('X - x%:P)].
  move=> /psd_spectral [U [d [O P ->]]]; exists d; split=> //.
    by rewrite -mulmxA mxtrace_mulC -mulmxA orthogonalV // mulmx1 mxtrace_diag.
  have -> : U *m diag_mx d *m U^T *m (U *m diag_mx d *m U^T) = U *m diag_mx (\row_i (d 0 i ^+ 2)) *m U^T.
    rewrite !mulmxA -[_ *m U^T *m U]mulmxA orthogonalV // mulmx1; congr (_ *m _); rewrite -mulmxA; congr (_ *m _).
    by rewrite mulmx_diag; congr diag_mx; apply/matrixP => i j; rewrite !mxE (ord1 i) expr2.
  rewrite char_poly_conj // char_poly_diag; congr (\prod_(x <- _) _).
  by apply: eq_map => i; rewrite mxE.
move=> /step [d [dP -> dE]] /step [e [eP -> eE]]; rewrite dE eE => /prod_XsubC_perm pe.
have key (c : 'rV[R]_n) : (forall i, 0 <= c 0 i) ->
    \sum_i c 0 i = \sum_(x <- [seq c 0 i ^+ 2 | i <- enum 'I_n]) Num.sqrt x.
  move=> P; rewrite big_map big_enum /=; apply: eq_bigr => i _; by rewrite sqrtr_sqr ger0_norm.
by rewrite !key //; apply: perm_big.
Qed.

Lemma root_exists n (A : 'M[R]_n) : psd A -> exists S, is_root A S.
Proof.
move=> /psd_spectral [U [d [O P ->]]]; pose D := diag_mx (\row_i Num.sqrt (d 0 i)).
exists (U *m D *m U^T); split.
  by apply: psd_conj; apply: psd_diag_mx => i; rewrite mxE sqrtr_ge0.
rewrite !mulmxA -[_ *m U^T *m U]mulmxA orthogonalV // mulmx1; congr (_ *m _); rewrite -mulmxA; congr (_ *m _).
by rewrite mulmx_diag; congr diag_mx; apply/matrixP => i j; rewrite !mxE (ord1 i) -expr2 sqr_sqrtr.
Qed.
End Roots.
