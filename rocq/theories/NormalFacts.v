(* Proofs about the model of random.py. *)
From mathcomp Require Import all_ssreflect all_algebra.
From mathcomp Require Import fingroup perm ring.
From Verif Require Import MatrixFacts NormalSpec Normal Spectral.
Set Implicit Arguments. Unset Strict Implicit. Unset Printing Implicit Defensive.
Import Order.TTheory GRing.Theory Num.Theory.
Local Open Scope ring_scope.

Lemma col_mulmx (R : comRingType) m n k (A : 'M[R]_(m, n)) (B : 'M[R]_(n, k)) j : A *m col j B = col j (A *m B).
Proof. by rewrite !colE mulmxA. Qed.

Section Logarithm.
Variables (R : realFieldType) (ln : R -> R).
Hypothesis LN : logarithm ln.
Lemma ln1 : ln 1 = 0.
Proof. by have := ln_mul LN (@ltr01 R) (@ltr01 R); rewrite mulr1 => /eqP; rewrite -subr_eq0 opprD addNKr oppr_eq0 => /eqP. Qed.
Lemma ln_le x : 0 < x -> ln x <= x - 1.
Proof. by move=> p; have [->|nz] := eqVneq x 1; [rewrite ln1 subrr | apply/ltW/(ln_lt LN)]. Qed.
Lemma ln_prod n (F : 'I_n -> R) : (forall i, 0 < F i) -> ln (\prod_i F i) = \sum_i ln (F i).
Proof.
elim: n F => [|n IH] F P; first by rewrite !big_ord0 ln1.
by rewrite !big_ord_recl (ln_mul LN) ?IH // prodr_gt0.
Qed.
Lemma ln_sqr x : 0 < x -> ln (x ^+ 2) = 2%:R * ln x.
Proof. by move=> p; rewrite expr2 (ln_mul LN) // mulr_natl mulr2n. Qed.
Lemma ln_exp x k : 0 < x -> ln (x ^+ k) = k%:R * ln x.
Proof.
move=> p; elim: k => [|k IH]; first by rewrite expr0 ln1 mul0r.
by rewrite exprS (ln_mul LN) ?exprn_gt0 // IH -[k.+1]add1n natrD mulrDl mul1r.
Qed.
End Logarithm.

Section CholFacts.
Variable R : rcfType.
Variables (n : nat) (A L : 'M[R]_n).
Hypothesis C : is_chol A L.
Lemma chol_prod_gt0 : 0 < \prod_i L i i. Proof. by case: C => _ D _; apply: prodr_gt0. Qed.
Lemma chol_det : \det A = (\prod_i L i i) ^+ 2.
Proof. by case: C => T D <-; rewrite det_mulmx det_tr det_trig. Qed.
Lemma chol_det_gt0 : 0 < \det A. Proof. by rewrite chol_det exprn_gt0 // chol_prod_gt0. Qed.
Lemma chol_unit : L \in unitmx.
Proof. by case: C => T D _; rewrite unitmxE det_trig // unitfE gt_eqF // chol_prod_gt0. Qed.
Lemma chol_inv : invmx A = (invmx L)^T *m invmx L.
Proof.
case: C => _ _ <-; have U := chol_unit; have UT : L^T \in unitmx by rewrite unitmx_tr.
have UU : L *m L^T \in unitmx by rewrite unitmx_mul U UT.
apply: (can_inj (mulKmx UU)); rewrite mulmxV // trmx_inv.
by rewrite !mulmxA mulmxK // mulmxV.
Qed.
Lemma chol_iqf v : norm2 (invmx L *m v) = qf (invmx A) v.
Proof. by rewrite chol_inv qf_gram. Qed.
End CholFacts.

Section NormalFacts.
Variables (R : rcfType) (ln : R -> R) (pi : R).
Hypothesis LN : logarithm ln.

Lemma logdetE n (A : 'M[R]_n) : pd A -> logdet ln A = ln (\det A).
Proof.
move=> P; have C := choleskyP P; rewrite /logdet (chol_det C) (ln_sqr LN) ?(chol_prod_gt0 C) //.
by rewrite (ln_prod LN) //; case: C.
Qed.
Lemma iqf_diagE n c (A : 'M[R]_n) (B : 'M[R]_(n, c)) j : pd A -> iqf_diag A B j = qf (invmx A) (col j B).
Proof.
move=> P; rewrite -(chol_iqf (choleskyP P)) col_mulmx; apply: eq_bigr => i _.
by rewrite [col _ _ _ _]mxE.
Qed.
Lemma ratioE n (A B : 'M[R]_n) : pd A -> pd B -> ratio A B = \tr (invmx B *m A).
Proof.
move=> PA PB; have [_ _ E] := choleskyP PA.
rewrite -[in RHS]E mulmxA mxtrace_mulC mulmxA trace_conj; apply: eq_bigr => j _.
exact: iqf_diagE.
Qed.

Lemma logpdf_colE n c m V (X : 'M[R]_(n, c)) j : pd V ->
  logpdf_col ln pi (Normal m V) (map_mx Some X) j = Some (mvn_logpdf ln pi m V (col j X)).
Proof.
move=> P; rewrite /logpdf_col; have -> : [forall i, isSome (map_mx Some X i j)] by apply/forallP => i; rewrite mxE.
rewrite logdetE // iqf_diagE //; congr (Some (- (_ + qf _ _) / _)).
by apply/matrixP => i k; rewrite !mxE (ord1 k).
Qed.
Lemma squeeze1 A (F : 'I_1 -> A) : squeeze [seq F j | j <- enum 'I_1] = One (F 0).
Proof.
have -> : enum 'I_1 = [:: 0] by apply: (inj_map val_inj); rewrite val_enum_ord.
by [].
Qed.
Lemma logpdf_colsE n c m V (X : 'M[R]_(n, c)) : pd V ->
  logpdf_cols ln pi (Normal m V) (map_mx Some X) = squeeze [seq Some (mvn_logpdf ln pi m V (col j X)) | j <- enum 'I_c].
Proof.
by move=> P; rewrite /logpdf_cols; under eq_map => j do rewrite logpdf_colE //.
Qed.
Lemma logpdf_fullE n c m V (X : 'M[R]_(n, c)) : pd V ->
  logpdf ln pi (Normal m V) (map_mx Some X) = squeeze [seq Some (mvn_logpdf ln pi m V (col j X)) | j <- enum 'I_c].
Proof.
move=> P; rewrite -logpdf_colsE // /logpdf; case: c X => [|[|c]] X //.
by have -> : [forall i, isSome (map_mx Some X i 0)] by apply/forallP => i; rewrite mxE.
Qed.

Lemma det_bij n k (V : 'M[R]_n) (f : 'I_k -> 'I_n) : injective f -> k = n -> \det (mxsub f f V) = \det V.
Proof.
move=> I e; subst k; pose s := perm I.
have -> : mxsub f f V = row_perm s (col_perm s V) by apply/matrixP => i j; rewrite !mxE !permE.
by rewrite row_permE col_permE !det_mulmx !det_perm odd_permV mulrCA -expr2 sqrr_sign mulr1.
Qed.
Lemma pd_sub n k (V : 'M[R]_n) (f : 'I_k -> 'I_n) : injective f -> pd V -> pd (mxsub f f V).
Proof.
move=> I [s H]; pose B : 'M[R]_(k, n) := \matrix_(i, j) (f i == j)%:R.
have BE l (M : 'M[R]_(n, l)) : B *m M = rowsub f M.
  apply/matrixP => i j; rewrite !mxE (bigD1 (f i)) //= mxE eqxx mul1r big1 ?addr0 // => t nt.
  by rewrite mxE eq_sym (negPf nt) mul0r.
have e : mxsub f f V = B *m V *m B^T.
  by rewrite BE -[RHS]trmxK trmx_mul trmxK BE; apply/matrixP => i j; rewrite !mxE.
split=> [|v nz]; first by rewrite e !trmx_mul trmxK s mulmxA.
rewrite e qf_conj H //; apply: contraNneq nz => z; apply/eqP/matrixP => i j; rewrite (ord1 j).
move/matrixP/(_ (f i) 0): z; rewrite !mxE (bigD1 i) //= !mxE eqxx mul1r big1 ?addr0 // => l nl.
by rewrite !mxE (inj_eq I) (negPf nl) mul0r.
Qed.
Lemma qf_sub_bij n (V : 'M[R]_n) (s : 'S_n) v : V \in unitmx ->
  qf (invmx (mxsub s s V)) (rowsub s v) = qf (invmx V) v.
Proof.
move=> U; pose B : 'M[R]_n := perm_mx s; have UB : B \in unitmx by apply: unitmx_perm.
have e : mxsub s s V = B *m V *m B^T.
  apply/matrixP => i j; rewrite /B tr_perm_mx -row_permE -col_permE !mxE; congr (V _ _).
have e2 : rowsub s v = B *m v by rewrite -row_permE; apply/matrixP => i j; rewrite !mxE.
rewrite e e2.
have -> : invmx (B *m V *m B^T) = invmx B^T *m invmx V *m invmx B.
  have UT : B^T \in unitmx by rewrite unitmx_tr.
  have UU : B *m V *m B^T \in unitmx by rewrite !unitmx_mul UB U UT.
  apply: (can_inj (mulKmx UU)); rewrite mulmxV //.
  by rewrite !mulmxA mulmxK // mulmxK // mulmxV.
by rewrite /qf trmx_mul !mulmxA mulmxK ?unitmx_tr // mulmxKV.
Qed.
(* The log-density does not depend on the order of the entries. *)
Lemma mvn_perm n k (f : 'I_k -> 'I_n) m V x : injective f -> k = n -> pd V ->
  mvn_logpdf ln pi (rowsub f m) (mxsub f f V) (rowsub f x) = mvn_logpdf ln pi m V x.
Proof.
move=> I e P; rewrite /mvn_logpdf det_bij //; congr (- (_ + _ + _) / _); first by rewrite e.
subst k; pose s := perm I; rewrite -[RHS](qf_sub_bij s) ?pd_unit //.
have es : s =1 f by move=> i; rewrite permE.
have -> : mxsub f f V = mxsub s s V by apply/matrixP => i j; rewrite !mxE !es.
by congr qf; apply/matrixP => i j; rewrite !mxE es.
Qed.

Lemma logpdf_missing n m V (x : 'cV[option R]_n) k (f : 'I_k -> 'I_n) (y : 'cV[R]_k) :
  pd V -> injective f -> (forall i, isSome (x i 0) = (i \in codom f)) -> (forall i, x (f i) 0 = Some (y i 0)) ->
  logpdf ln pi (Normal m V) x = One (Some (mvn_logpdf ln pi (rowsub f m) (mxsub f f V) y)).
Proof.
move=> P I S Y; rewrite /logpdf; set av := [seq i <- enum 'I_n | isSome (x i 0)].
have mav i : (i \in av) = (i \in codom f) by rewrite mem_filter mem_enum andbT S.
have uav : uniq av by rewrite filter_uniq // enum_uniq.
have sz : size av = k by rewrite -(card_uniqP uav) (eq_card mav) card_codom // card_ord.
have g_inj : injective (tnth (in_tuple av)) by move=> i j; exact/tuple_uniqP.
pose g := tnth (in_tuple av); have gin i : g i \in codom f by rewrite -mav mem_tnth.
pose h i := iinv (gin i); have hE i : f (h i) = g i by rewrite f_iinv.
have h_inj : injective h by move=> i j e; apply: g_inj; rewrite -/g -!hE e.
pose v : 'cV[R]_n := \col_i odflt 0 (x i 0).
case: ifPn => [/forallP A|_].
  have kn : n = k by rewrite -sz (_ : av = enum 'I_n) ?size_enum_ord //; apply/all_filterP/allP => i _.
  have -> : x = map_mx Some v.
    by apply/matrixP => i j; rewrite !mxE (ord1 j); have := A i; case: (x i 0).
  rewrite logpdf_colsE // squeeze1 -(mvn_perm _ _ I) //.
  congr (One (Some (mvn_logpdf _ _ _ _ _))).
  by apply/matrixP => i j; rewrite !mxE Y (ord1 j).
have -> : rowsub g x = map_mx Some (rowsub g v).
  by apply/matrixP => i j; rewrite !mxE (ord1 j); have := S (g i); rewrite gin; case: (x _ 0).
rewrite /= logpdf_colsE; last by apply: pd_sub.
rewrite squeeze1; congr (One (Some _)).
have -> : rowsub (tnth (in_tuple av)) m = rowsub h (rowsub f m) by apply/matrixP => i j; rewrite !mxE hE.
have -> : mxsub (tnth (in_tuple av)) (tnth (in_tuple av)) V = mxsub h h (mxsub f f V).
  by apply/matrixP => i j; rewrite !mxE !hE.
have -> : col 0 (rowsub g v) = rowsub h y by apply/matrixP => i j; rewrite !mxE (ord1 j) -hE Y.
by apply: mvn_perm => //; apply: pd_sub.
Qed.
Lemma logpdf_missing' n m V (x : 'cV[option R]_n) k (f : 'I_k -> 'I_n) (y : 'cV[R]_k) :
  pd V -> injective f -> (forall i, isSome (x i 0) = (i \in codom f)) -> (forall i, x (f i) 0 = Some (y i 0)) ->
  logpdf ln pi (Normal m V) x = One (Some (mvn_logpdf ln pi (\col_i m (f i) 0) (\matrix_(i, j) V (f i) (f j)) y)).
Proof.
move=> P I S Y; rewrite (logpdf_missing m P I S Y).
have -> : rowsub f m = \col_i m (f i) 0 by apply/matrixP => i j; rewrite !mxE (ord1 j).
by have -> : mxsub f f V = \matrix_(i, j) V (f i) (f j) by apply/matrixP => i j; rewrite !mxE.
Qed.
Lemma kl_closed n (p q : normal R n) : pd (var p) -> pd (var q) ->
  kl ln p q = (\tr (invmx (var q) *m var p) + qf (invmx (var q)) (mean p - mean q) - n%:R
               + ln (\det (var q)) - ln (\det (var p))) / 2%:R.
Proof.
move=> P Q; rewrite /kl iqf_diagE // ratioE // !logdetE //; congr (_ / _).
have -> : col 0 (mean q - mean p) = mean q - mean p by apply/matrixP => i j; rewrite !mxE (ord1 j).
have -> : qf (invmx (var q)) (mean q - mean p) = qf (invmx (var q)) (mean p - mean q).
  by rewrite -opprB -scaleN1r qfZ sqrrN expr1n mul1r.
move: (\tr _) (qf _ _) (ln (\det (var p))) (ln (\det (var q))) => *; ring.
Qed.
End NormalFacts.

Section Divergence.
Variables (R : rcfType) (ln : R -> R) (pi : R).
Hypothesis LN : logarithm ln.

Lemma entropyE n (p : normal R n) (e : R) : pd (var p) -> 0 < pi -> 0 < e -> ln e = 1 ->
  entropy ln pi p = ln (\det ((2%:R * pi * e) *: var p)) / 2%:R.
Proof.
move=> P p0 e0 le; rewrite /entropy logdetE // detZ; have D := chol_det_gt0 (choleskyP P).
have q : 0 < 2%:R * pi by rewrite mulr_gt0 // ltr0n.
have qe : 0 < 2%:R * pi * e by apply: mulr_gt0.
have qn : 0 < (2%:R * pi * e) ^+ n by apply: exprn_gt0.
by rewrite (ln_mul LN) // (ln_exp LN n qe) (ln_mul LN) // le /log_2_pi addrC.
Qed.

(* The divergence as a sum of terms that are not negative. *)
Definition kl_terms n (d : 'cV[R]_n) (C : 'M[R]_n) : R :=
  norm2 d + \sum_i (\sum_(j | j != i) C i j ^+ 2 + (C i i ^+ 2 - 1 - ln (C i i ^+ 2))).
Lemma kl_terms_part n (C : 'M[R]_n) i : (forall i, 0 < C i i) ->
  0 <= \sum_(j | j != i) C i j ^+ 2 + (C i i ^+ 2 - 1 - ln (C i i ^+ 2)).
Proof.
move=> P; rewrite addr_ge0 // ?sumr_ge0 => // [j _|]; first exact: sqr_ge0.
by rewrite subr_ge0 (ln_le LN) // exprn_gt0.
Qed.
Lemma kl_terms_ge0 n (d : 'cV[R]_n) (C : 'M[R]_n) : (forall i, 0 < C i i) -> 0 <= kl_terms d C.
Proof. by move=> P; rewrite addr_ge0 ?norm2_ge0 // sumr_ge0 // => i _; apply: kl_terms_part. Qed.
Lemma kl_terms_eq0 n (d : 'cV[R]_n) (C : 'M[R]_n) : (forall i, 0 < C i i) -> kl_terms d C = 0 -> d = 0 /\ C = 1%:M.
Proof.
move=> P /eqP; rewrite paddr_eq0 ?norm2_ge0 ?sumr_ge0 //; last by move=> i _; apply: kl_terms_part.
rewrite norm2_eq0 => /andP[/eqP -> ]; rewrite psumr_eq0 => [/allP H|i _]; last exact: kl_terms_part.
split=> //; apply/matrixP => i j; rewrite mxE; have := H i (mem_index_enum _); rewrite /=.
have s0 : 0 <= \sum_(j | j != i) C i j ^+ 2 by apply: sumr_ge0 => k _; apply: sqr_ge0.
have q : 0 < C i i ^+ 2 by apply: exprn_gt0.
rewrite paddr_eq0 // ?subr_ge0 ?(ln_le LN) // => /andP[/eqP a b].
have [<-|ne] := eqVneq i j.
  have [c1|c1] := eqVneq (C i i ^+ 2) 1; last by have := ln_lt LN q c1; rewrite -subr_gt0 (eqP b) ltxx.
  apply/eqP; have /orP[//|/eqP c] : (C i i == 1) || (C i i == -1) by rewrite -sqrf_eq1 c1.
  by have := P i; rewrite c ltr0N1.
move/eqP: a; rewrite psumr_eq0 => [/allP /(_ j (mem_index_enum _))|k _]; last exact: sqr_ge0.
by rewrite eq_sym ne /= sqrf_eq0 => /eqP.
Qed.

Lemma klE n (p q : normal R n) : pd (var p) -> pd (var q) ->
  exists L C, [/\ is_chol (var q) L, is_chol (invmx L *m var p *m (invmx L)^T) C &
    kl ln p q = kl_terms (invmx L *m (mean q - mean p)) C / 2%:R].
Proof.
move=> P Q; have CQ := choleskyP Q; set L := cholesky (var q) in CQ.
have U := chol_unit CQ; have UI : invmx L \in unitmx by rewrite unitmx_inv.
have CM := choleskyP (pd_conj UI P); set C := cholesky _ in CM.
exists L, C; split=> //; rewrite /kl ratioE // !logdetE // iqf_diagE //; congr (_ / _).
have -> : col 0 (mean q - mean p) = mean q - mean p by apply/matrixP => i j; rewrite !mxE (ord1 j).
rewrite -(chol_iqf CQ) -!addrA; congr (_ + _).
have -> : \tr (invmx (var q) *m var p) = \tr (C *m C^T).
  by case: CM => _ _ ->; rewrite (chol_inv CQ)  -mulmxA mxtrace_mulC.
have -> : ln (\det (var q)) = ln (\det (var p)) - ln (\det (C *m C^T)).
  have D := chol_det_gt0 CM; have D' := chol_det_gt0 CQ; have [_ _ ->] := CM; apply/eqP; rewrite eq_sym subr_eq -(ln_mul LN) //.
  apply/eqP; congr ln; rewrite !det_mulmx det_tr mulrC; have dL : \det (var q) = \det L * \det L.
    by have [_ _ <-] := CQ; rewrite det_mulmx det_tr.
  rewrite dL det_inv; have nz : \det L != 0 by move: U; rewrite unitmxE unitfE.
  by move: (\det L) (\det (var p)) nz => a b nz; field.
have -> : ln (\det (C *m C^T)) = \sum_i ln (C i i ^+ 2).
  have [_ D E] := CM; rewrite E (chol_det CM) -prodrXl (ln_prod LN) // => i; exact: exprn_gt0.
have -> : \tr (C *m C^T) = \sum_i (\sum_(j | j != i) C i j ^+ 2 + C i i ^+ 2).
  apply: eq_bigr => i _; rewrite mxE (bigD1 i) //= addrC; congr (_ + _); last by rewrite mxE expr2.
  by apply: eq_bigr => j _; rewrite mxE expr2.
have -> : (n%:R : R) = \sum_(i < n) 1 by rewrite sumr_const card_ord.
rewrite [in RHS](eq_bigr (fun i => (\sum_(j | j != i) C i j ^+ 2 + C i i ^+ 2) - ln (C i i ^+ 2) - 1)) => [|i _].
  rewrite !sumrB; move: (\sum_i _) (\sum_i _) (\sum_i _) => *; ring.
move: (\sum_(_ | _) _) (ln _) => *; ring.
Qed.

Lemma kl_ge0 n (p q : normal R n) : pd (var p) -> pd (var q) -> 0 <= kl ln p q.
Proof.
move=> P Q; have [L [C [_ [_ D _] ->]]] := klE P Q.
by rewrite divr_ge0 ?ler0n // kl_terms_ge0.
Qed.
Lemma kl_refl n (p : normal R n) : pd (var p) -> kl ln p p = 0.
Proof.
move=> P; rewrite /kl ratioE // iqf_diagE // mulVmx ?pd_unit // mxtrace1 subrr.
have -> : col 0 (0 : 'cV[R]_n) = 0 by apply/matrixP => i j; rewrite !mxE.
by rewrite qf0 add0r addrK subrr mul0r.
Qed.
Lemma kl_eq0 n (p q : normal R n) : pd (var p) -> pd (var q) -> (kl ln p q = 0 <-> p = q).
Proof.
move=> P Q; split=> [|<-]; last exact: kl_refl.
have [L [C [CQ [T D E] ->]]] := klE P Q => /eqP; rewrite mulf_eq0 invr_eq0 pnatr_eq0 orbF => /eqP.
move=> /(kl_terms_eq0 D) [d c]; have U := chol_unit CQ; move: E; rewrite c trmx1 mulmx1 => e.
have m : mean q = mean p by apply/eqP; rewrite -subr_eq0 -[_ - _](mulKVmx U) d mulmx0.
have v : var q = var p.
  case: CQ => _ _ <-; have UT : L^T \in unitmx by rewrite unitmx_tr.
  have -> : var p = L *m (invmx L *m var p *m (invmx L)^T) *m L^T.
    by rewrite trmx_inv !mulmxA mulmxV // mul1mx mulmxKV.
  by rewrite -e mulmx1.
by clear -m v; case: p q m v => [a b] [a' b'] /= -> ->.
Qed.
End Divergence.

Section Wasserstein.
Variables (R : rcfType) (root : forall n, 'M[R]_n -> 'M[R]_n).
Hypothesis root_spec : forall n (A : 'M[R]_n), psd A -> is_root A (root A).

Lemma psd_sandwich n (S A : 'M[R]_n) : psd S -> psd A -> psd (S *m A *m S).
Proof. by move=> [s _] P; rewrite -{2}s; apply: psd_conj. Qed.

Definition w2_var n (A B : 'M[R]_n) : R := \tr A + \tr B - 2%:R * \tr (root (root A *m B *m root A)).
Lemma w2E n (p q : normal R n) : w2 root p q = Num.sqrt (Num.max (norm2 (mean p - mean q) + w2_var (var p) (var q)) 0).
Proof. by []. Qed.

Lemma w2_ge0 n (p q : normal R n) : 0 <= w2 root p q. Proof. exact: sqrtr_ge0. Qed.
Lemma norm2_sub n (u v : 'cV[R]_n) : norm2 (u - v) = norm2 (v - u).
Proof. by apply: eq_bigr => i _; rewrite !mxE -sqrrN opprB. Qed.
Lemma w2_var_sym n (A B : 'M[R]_n) : psd A -> psd B -> w2_var A B = w2_var B A.
Proof.
move=> PA PB; rewrite /w2_var [\tr A + _]addrC; congr (_ - _ * _).
have [pa ea] := root_spec PA; have [pb eb] := root_spec PB.
have [p1 e1] := root_spec (psd_sandwich pa PB); have [p2 e2] := root_spec (psd_sandwich pb PA).
apply: trace_root => //; rewrite e1 e2; move: (root A) (root B) ea eb => S T <- <-.
by rewrite mulmxA -(mulmxA (S *m T)) char_poly_mulC !mulmxA.
Qed.
Lemma w2_sym n (p q : normal R n) : psd (var p) -> psd (var q) -> w2 root p q = w2 root q p.
Proof. by move=> P Q; rewrite !w2E norm2_sub w2_var_sym. Qed.
Lemma w2_var_refl n (A : 'M[R]_n) : psd A -> w2_var A A = 0.
Proof.
move=> P; have [pa ea] := root_spec P; have [p1 e1] := root_spec (psd_sandwich pa P).
have -> : w2_var A A = \tr A + \tr A - 2%:R * \tr A; last by rewrite mulr_natl mulr2n subrr.
congr (_ - _ * _); apply: trace_root => //; rewrite e1.
by move: (root A) ea => S <-; rewrite !mulmxA.
Qed.
Lemma w2_same_var n (p q : normal R n) : psd (var p) -> var p = var q ->
  w2 root p q = Num.sqrt (norm2 (mean p - mean q)).
Proof. by move=> P e; rewrite w2E -e w2_var_refl // addr0 max_l // norm2_ge0. Qed.
Lemma w2_refl n (p : normal R n) : psd (var p) -> w2 root p p = 0.
Proof. by move=> P; rewrite w2_same_var // subrr -qf_one qf0 sqrtr0. Qed.

Lemma polar n (M P : 'M[R]_n) : M \in unitmx -> P^T = P -> M *m M^T = P *m P ->
  invmx M *m P *m (invmx M *m P)^T = 1%:M.
Proof.
move=> U s e; rewrite trmx_mul s mulmxA -(mulmxA _ P P) -e !mulmxA mulVmx // mul1mx trmx_inv.
by rewrite mulmxV ?unitmx_tr.
Qed.
Lemma w2_var_gram n (A B : 'M[R]_n) : pd A -> pd B ->
  exists O : 'M[R]_n, [/\ O *m O^T = 1%:M & w2_var A B = \tr ((root A - root B *m O)^T *m (root A - root B *m O))].
Proof.
move=> PA PB; have [pa ea] := root_spec (pd_psd PA); have [pb eb] := root_spec (pd_psd PB).
have [p1 e1] := root_spec (psd_sandwich pa (pd_psd PB)).
rewrite /w2_var; move: (root A) (root B) (root (root A *m B *m root A)) pa ea pb eb p1 e1 => S T P pa ea pb eb p1 e1.
have US : S \in unitmx by have := pd_unit PA; rewrite -ea unitmx_mul => /andP[].
have UT : T \in unitmx by have := pd_unit PB; rewrite -eb unitmx_mul => /andP[].
pose M := S *m T; have UM : M \in unitmx by rewrite unitmx_mul US.
have [[sS _] [sT _] [sP _]] := And3 pa pb p1.
have MM : M *m M^T = P *m P by rewrite e1 -eb /M trmx_mul sS sT !mulmxA.
pose O := invmx M *m P; have OO : O *m O^T = 1%:M by apply: polar.
exists O; split=> //.
have tP : \tr P = \tr (S *m (T *m O)) by rewrite mulmxA -/M /O mulKVmx.
clearbody O; clear M UM MM.
have -> : (S - T *m O)^T = S - O^T *m T by rewrite linearB /= trmx_mul sS sT.
rewrite mulmxBl !mulmxBr !(raddfB (mxtrace_additive R n)) /=.
have -> : \tr (O^T *m T *m (T *m O)) = \tr B.
  by rewrite mxtrace_mulC !mulmxA -[_ *m O *m _]mulmxA OO mulmx1 eb.
have -> : \tr (O^T *m T *m S) = \tr P.
  by rewrite tP -mxtrace_tr !trmx_mul trmxK sS sT.
rewrite -tP ea; move: (\tr A) (\tr B) (\tr P) => *; ring.
Qed.
(* The variances never contribute a negative amount. *)
Lemma w2_var_ge0 n (A B : 'M[R]_n) : pd A -> pd B -> 0 <= w2_var A B.
Proof. by move=> PA PB; have [O [_ ->]] := w2_var_gram PA PB; apply/psd_trace/psd_gram. Qed.
Lemma w2_var_eq0 n (A B : 'M[R]_n) : pd A -> pd B -> w2_var A B = 0 -> A = B.
Proof.
move=> PA PB; have [O [OO ->]] := w2_var_gram PA PB => /trace_gram_eq0 /eqP; rewrite subr_eq0 => /eqP e.
have [[sa _] ea] := root_spec (pd_psd PA); have [[sb _] eb] := root_spec (pd_psd PB).
by rewrite -ea -{2}sa e trmx_mul mulmxA -(mulmxA _ O) OO mulmx1 sb eb.
Qed.
Lemma w2_sqr n (p q : normal R n) : pd (var p) -> pd (var q) ->
  w2 root p q ^+ 2 = norm2 (mean p - mean q) + w2_var (var p) (var q).
Proof.
move=> P Q; have h : 0 <= norm2 (mean p - mean q) + w2_var (var p) (var q).
  by rewrite addr_ge0 ?norm2_ge0 ?w2_var_ge0.
by rewrite w2E max_l // sqr_sqrtr.
Qed.
Lemma w2_eq0 n (p q : normal R n) : pd (var p) -> pd (var q) -> (w2 root p q = 0 <-> p = q).
Proof.
move=> P Q; split=> [e|<-]; last by apply/w2_refl/pd_psd.
have := w2_sqr P Q; rewrite e expr0n /= => /esym/eqP.
rewrite paddr_eq0 ?norm2_ge0 ?w2_var_ge0 // norm2_eq0 subr_eq0 => /andP[/eqP m /eqP v].
have {}v := w2_var_eq0 P Q v.
by clear -m v; case: p q m v => [a b] [a' b'] /= -> ->.
Qed.
End Wasserstein.

Section Marginals.
Variable R : rcfType.
Lemma marginalsP n (p : normal R n) i :
  [/\ (marginals p).1 i = mean p i 0, 0 <= (marginals p).2 i & 0 <= var p i i -> (marginals p).2 i = var p i i].
Proof. by rewrite /= le_maxr lexx orbT; split=> // h; rewrite max_l. Qed.
Lemma credibleP n (p : normal R n) i :
  let m := (credible_bounds p).1.1 in let lower := (credible_bounds p).1.2 in let upper := (credible_bounds p).2 in
  [/\ m i = mean p i 0, lower i <= m i, m i <= upper i &
    exists sd, [/\ 0 <= sd, sd ^+ 2 = (marginals p).2 i,
      m i - lower i = 196%:R / 100%:R * sd & upper i - m i = 196%:R / 100%:R * sd]].
Proof.
rewrite /=; set v := Num.max _ _; have e0 : 0 <= 196%:R / 100%:R * Num.sqrt v :> R.
  by rewrite mulr_ge0 ?sqrtr_ge0 // divr_ge0 ?ler0n.
split=> //; first by rewrite ler_subl_addr ler_addl.
  by rewrite ler_addl.
exists (Num.sqrt v); split; first exact: sqrtr_ge0.
- by rewrite sqr_sqrtr // le_maxr lexx orbT.
- by rewrite opprB addrC subrK.
- by rewrite addrC addKr.
Qed.
Lemma diagonaliseP n (p : normal R n) : mean (diagonalise p) = mean p /\
  forall i j, var (diagonalise p) i j = if i == j then var p i i else 0.
Proof. by split=> // i j; rewrite !mxE; case: eqP => //= <-. Qed.
End Marginals.
