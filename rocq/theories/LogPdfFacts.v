(* The log-density of observations. *)
From Coq Require Import List.
From mathcomp Require Import all_ssreflect all_algebra.
From mathcomp Require Import fingroup perm ring zify.
From Verif Require Import Graph Machine Refine Worlds Eval GraphSpec GraphProofs GraphOps RV RVProofs Sound Typing ModelSpec ModelFacts Cond CondFacts CrossFacts Combine CombineFacts PointFacts ModelThms.
From Verif Require Import MatrixFacts NormalSpec Normal NormalFacts LogPdf.
Set Implicit Arguments. Unset Strict Implicit. Unset Printing Implicit Defensive.
Import Order.TTheory GRing.Theory Num.Theory.
Local Open Scope ring_scope.

Section MvnChain.
Variables (R : rcfType) (ln : R -> R) (pi : R).
Hypothesis LN : logarithm ln.

Lemma pd_schur n1 n2 (A : 'M[R]_n1) (B : 'M_(n1, n2)) (C : 'M_n2) : pd (block_mx A B B^T C) ->
  pd A /\ pd (C - B^T *m invmx A *m B).
Proof.
move=> Pj; have PA : pd A.
  have := pd_sub (@lshift_inj n1 n2) Pj; congr pd; apply/matrixP => i j.
  by rewrite mxE block_mxEul.
have UA := pd_unit PA; split=> //; case: Pj => Sj Hj; have [sA _] := PA.
have sC : C^T = C.
  by move: Sj; rewrite tr_block_mx => /eq_block_mx [_ _ _ ->].
have siA : (invmx A)^T = invmx A by rewrite trmx_inv sA.
split=> [|v nz]; first by rewrite linearB /= !trmx_mul trmxK siA sC mulmxA.
pose z := col_mx (- (invmx A *m (B *m v))) v.
have : 0 < qf (block_mx A B B^T C) z.
  by apply: Hj; apply: contraNneq nz; rewrite -col_mx0 => /eq_col_mx [_ ->].
rewrite /qf -mulmxA mul_block_col mulmxN mulmxA mulmxV // mul1mx addNr.
rewrite tr_col_mx mul_row_col mulmx0 add0r mulmxN.
suff -> : v^T *m (- (B^T *m (invmx A *m (B *m v))) + C *m v) = v^T *m (C - B^T *m invmx A *m B) *m v by [].
by rewrite -mulmxA; congr (_ *m _); rewrite mulmxBl addrC !mulmxA.
Qed.

Lemma mvn_chain n1 n2 m1 m2 (A : 'M[R]_n1) (B : 'M_(n1, n2)) (C : 'M_n2) y1 y2 : pd (block_mx A B B^T C) ->
  mvn_logpdf ln pi (col_mx m1 m2) (block_mx A B B^T C) (col_mx y1 y2) =
  mvn_logpdf ln pi m1 A y1 +
  mvn_logpdf ln pi (m2 + B^T *m invmx A *m (y1 - m1)) (C - B^T *m invmx A *m B) y2.
Proof.
move=> Pj; have [PA PS] := pd_schur Pj; have UA := pd_unit PA; have Uj := pd_unit Pj; have [sA _] := PA.
have siA : (invmx A)^T = invmx A by rewrite trmx_inv sA.
have dA : 0 < \det A by apply: (chol_det_gt0 (choleskyP PA)).
have dS : 0 < \det (C - B^T *m invmx A *m B) by apply: (chol_det_gt0 (choleskyP PS)).
rewrite /mvn_logpdf.
have -> : \det (block_mx A B B^T C) = \det A * \det (C - B^T *m invmx A *m B).
  by rewrite schur // det_mulmx det_lblock det_ublock !det1 !mul1r.
have -> : qf (invmx (block_mx A B B^T C)) (col_mx y1 y2 - col_mx m1 m2) =
    qf (invmx A) (y1 - m1) + qf (invmx (C - B^T *m invmx A *m B)) (y2 - (m2 + B^T *m invmx A *m (y1 - m1))).
  have -> : col_mx y1 y2 - col_mx m1 m2 = col_mx (y1 - m1) (y2 - m2) by rewrite opp_col_mx add_col_mx.
  rewrite /qf tr_col_mx schur_form // [LHS]mxE; congr (_ + (_ *m _ *m _) 0 0).
    by rewrite opprD addrA [in RHS]linearB /= !trmx_mul trmxK siA mulmxA.
  by rewrite opprD addrA.
rewrite (ln_mul LN) // natrD.
move: (qf _ _) (qf _ _) (ln (\det A)) (ln (\det (C - _))) (ln (2%:R * pi)) (n1%:R : R) (n2%:R : R) => a b c d e f g.
by rewrite -mulrDl; congr (_ / _); ring.
Qed.
End MvnChain.

Section Density.
Variables (R : rcfType) (ln : R -> R) (pi : R).
Hypothesis LN : logarithm ln.
Variable (W : space R).
Variable D : nat -> (point R -> R) -> point R -> R.
Variables (G : pid -> point R -> rv W) (eps : mid -> nat -> rv W).
Notation V := (rv W). Notation Ex := (@Ex R W). Notation cov := (@cov R W).
Variables (ops : seq (op R)) (P : mid -> pid -> Prop).
Let w := run_ops ops.
Variable CV : mid -> pid -> pid -> input R -> input R -> dmat R -> Prop.
Hypothesis Mo : sound D G eps w P CV.
Notation is_at := (is_at D G eps w). Notation meant := (meant D G eps w P).
Notation cov_is := CV. Notation mean_is := (mean_is D w).
Notation logpdf_is := (logpdf_is ln pi D w).
Implicit Types (u v d : seq V) (K M N : dmat R) (y : seq R).

(* Mean and variance of noisy random vectors. *)
Definition mu n u : 'cV[R]_n := \col_i Ex (vget u i).
Definition sigma n u N : 'M[R]_n := \matrix_(i, j) (cov (vget u i) (vget u j) + ent N i j).
Definition vec n y : 'cV[R]_n := \col_i nth 0 y i.

Lemma mu_same n u v : size u = n -> same_rv u v -> mu n u = mu n v.
Proof. by move=> su [sv H]; apply/colP => i; rewrite !mxE; have [->] := H i (eq_ind_r (fun n => (i < n)%N) (ltn_ord i) su). Qed.
Lemma sigma_same n u v N : size u = n -> same_rv u v -> sigma n u N = sigma n v N.
Proof.
move=> su [sv H]; apply/matrixP => i j; rewrite !mxE.
have li : (i < size u)%N by rewrite su. have lj : (j < size u)%N by rewrite su.
by have [_ ->] := H i li; rewrite covC; have [_ ->] := H j lj; rewrite covC.
Qed.

Lemma same_trans u v d : same_rv u v -> same_rv v d -> same_rv u d.
Proof.
move=> [s1 h1] [s2 h2]; split=> [|i li]; first by rewrite s1.
by have [-> h] := h1 i li; rewrite s1 in li; have [-> h'] := h2 i li; split=> // g; rewrite h.
Qed.
Lemma is_uniq m p x u v : is_at m p x u -> is_at m p x v -> same_rv u v.
Proof. by move=> [_ Hu] [_ Hv]; apply/same_rvE; apply: denotes_same Hu Hv. Qed.

(* The distribution of an FDD. *)
Lemma fdd_of m r x u e K N n : P m r -> is_at m r x u -> mean_is m r x e -> ModelSpec.cov_is D w m r r x x K -> size u = n ->
  fdd_normal n e K N = Normal (mu n u) (sigma n u N).
Proof.
move=> Pr Hu Em Ek su; have [a1 a2 a3] := is_k Mo Pr Pr Hu Hu (is_own Mo (conj Pr (ex_intro _ u Hu)) Ek); have eE := is_m Mo Pr Hu Em.
congr Normal; [apply/colP => i | apply/matrixP => i j]; rewrite !mxE.
  by rewrite eE map_nth_Ex // su.
by rewrite a3 // su.
Qed.

(* The copy of a process. *)
Lemma copy_at m r p x u : defined w m r (DCopy p) -> is_at m r x u -> exists2 a, is_at m p x a & same_rv u a.
Proof.
move=> [lt M] [_ Hu]; have Wf := l_wf (v_log (winv_run ops).1) lt.
have [a [b [Ha _ e E]]] := den_lin (f := fun (t : V) _ => t) Wf M erefl Hu.
exists a; first by [].
apply/same_rvE; suff -> : a = zipw (fun (t : V) _ => t) a b by [].
by rewrite /zipw; elim: a b e {Ha E} => [|t a IH] [|t' b] //= [e]; rewrite -IH.
Qed.

Lemma logpdf_at m r p x N y l a : defined w m r (DCopy p) -> meant m r x -> is_at m p x a ->
  logpdf_is m r x N (map Some y) l ->
  [/\ size y = size a, nr N = size a, nc N = size a &
      forall n, size a = n -> pd (sigma n a N) -> l = mvn_logpdf ln pi (mu n a) (sigma n a N) (vec n y)].
Proof.
move=> Dr [Pr [u Hu]] Ha [n [e [K [Em Ek [se n1 n2 sy] El]]]].
have [a' Ha' S'] := copy_at Dr Hu; have Sa : same_rv u a by apply: (same_trans S'); apply: is_uniq Ha' Ha.
have eE := is_m Mo Pr Hu Em; have su : size u = n by rewrite -se eE size_map.
have sa : size a = n by case: Sa => <-.
rewrite size_map in sy; rewrite sa; split=> // n' en; subst n' => Pd; move: El.
rewrite (fdd_of N Pr Hu Em Ek su) (mu_same su Sa) (sigma_same N su Sa).
have -> : \col_(i < n) nth None (map Some y) i = map_mx Some (vec n y).
  by apply/matrixP => i j; rewrite !mxE (nth_map 0) // sy.
by rewrite (logpdf_fullE _ LN) // squeeze1 col_id => -[].
Qed.

(* C42 *)
Section Chain.
Variables (m m1 : mid) (c cj r1 r2 : pid) (o1 : obs R) (f2 : fdd R) (y2 : seq R) (ps : seq pid) (Kj : dmat R).
Let f1 := MkFdd (o_p o1) (o_x o1) (o_noise o1).
Let fj := combine_fdd c [:: f1; f2].
Hypotheses (C1 : conditioned w m1 m o1 ps) (H1 : o_p o1 \in ps) (H2 : f_p f2 \in ps).
Hypothesis (Dc : defined w m c (DCross [:: o_p o1; f_p f2])).
Hypotheses (Dj : defined w m cj (DCopy c)) (D1 : defined w m r1 (DCopy (o_p o1))) (D2 : defined w m1 r2 (DCopy (f_p f2))).
Hypotheses (Zj : meant m cj (f_x fj)) (Z1 : meant m r1 (o_x o1)) (Z2 : meant m1 r2 (f_x f2)).
Hypotheses (Y2 : meant m (f_p f2) (f_x f2)).
Hypotheses (Ej : cov_is m cj cj (f_x fj) (f_x fj) Kj).
Hypothesis (Pj : pd (mx_at Kj (nr Kj) (nr Kj) + mx_at (f_noise fj) (nr Kj) (nr Kj))).

Lemma chain_rule lj l1 l2 :
  logpdf_is m cj (f_x fj) (f_noise fj) (map Some (o_y o1 ++ y2)) lj ->
  logpdf_is m r1 (o_x o1) (o_noise o1) (map Some (o_y o1)) l1 ->
  logpdf_is m1 r2 (f_x f2) (f_noise f2) (map Some y2) l2 ->
  lj = l1 + l2.
Proof.
move=> Lj L1 L2; have [Pz1 [u1 Hu1]] := Z1; have [d1 Hd1 _] := copy_at D1 Hu1.
have [Pz2 [d2 Hd2]] := Y2.
pose o2 := Obs (f_p f2) (f_x f2) (f_noise f2) y2.
have Hj : is_at m c (f_x fj) (d1 ++ d2).
  by have := combine_at (o1 := o1) (o2 := o2) Dc Hd1 Hd2.
have [sy1 n1 n1' E1] := logpdf_at D1 Z1 Hd1 L1.
have H2' := cond_at C1 H2 H1 Hd2 Hd1.
have [sy2 n2 n2' E2] := logpdf_at D2 Z2 H2' L2; rewrite size_map in sy2 n2 n2'.
have [syj nj nj' E3] := logpdf_at Dj Zj Hj Lj.
have [[_ _ _ _]] := combine_joint (o1 := o1) (o2 := o2) c n1 n1' n2 n2' sy1.
rewrite -[o_noise (combine_obs _ _ _)]/(f_noise fj) => -[b1 b2 b3 b4].
set k1 := size d1 in n1 n1' sy1 b1 b2 b3 b4; set k2 := size d2 in n2 n2' sy2 b2 b3 b4.
pose A : 'M[R]_k1 := sigma k1 d1 (o_noise o1).
pose C : 'M[R]_k2 := sigma k2 d2 (f_noise f2).
pose B : 'M[R]_(k1, k2) := \matrix_(i, j) cov (vget d1 i) (vget d2 j).
have e1 i : (i < k1)%N -> vget (d1 ++ d2) i = vget d1 i by move=> li; rewrite /vget nth_cat li.
have e2 i : vget (d1 ++ d2) (k1 + i) = vget d2 i by rewrite /vget nth_cat ltnNge leq_addr addKn.
have ls (i : 'I_k1) : lshift k2 i = i :> nat by [].
have rs (i : 'I_k2) : rshift k1 i = (k1 + i)%N :> nat by [].
have ES : sigma (k1 + k2) (d1 ++ d2) (f_noise fj) = block_mx A B B^T C.
  rewrite -[LHS]submxK; congr block_mx; apply/matrixP => i j; rewrite !mxE ?ls ?rs ?e2 ?e1 //.
  - by rewrite b1.
  - by rewrite b2 // addr0.
  - by rewrite b3 // addr0 covC.
  by rewrite b4.
have EM : mu (k1 + k2) (d1 ++ d2) = col_mx (mu k1 d1) (mu k2 d2).
  by rewrite -[LHS]vsubmxK; congr col_mx; apply/colP => i; rewrite !mxE /= ?e2 ?e1.
have EY : vec (k1 + k2) (o_y o1 ++ y2) = col_mx (vec k1 (o_y o1)) (vec k2 y2).
  rewrite -[LHS]vsubmxK; congr col_mx; apply/colP => i; rewrite !mxE /= nth_cat sy1 ?ltn_ord //.
  by rewrite ltnNge leq_addr addKn.
have sd : size (d1 ++ d2) = (k1 + k2)%N by rewrite size_cat.
have PJ : pd (block_mx A B B^T C).
  rewrite -ES; have [uj Huj] := Zj.2; have [a' Ha' S'] := copy_at Dj Huj.
  have Sj : same_rv uj (d1 ++ d2) by apply: (same_trans S'); apply: is_uniq Ha' Hj.
  have suj : size uj = (k1 + k2)%N by case: Sj => ->.
  rewrite -(sigma_same _ suj Sj); have [a1 _ a3] := is_k Mo Zj.1 Zj.1 Huj Huj Ej.
  move: Pj; rewrite a1 suj; congr pd; apply/matrixP => i j; rewrite !mxE.
  by rewrite a3 // suj.
have [PA PS] := pd_schur PJ; have UA := pd_unit PA.
have Ea : inv_at k1 (vary o1 d1) by rewrite /inv_at; move: UA; congr (_ \in unitmx).
set g := given _ _ _ in H2' E2.
have eg i : (i < k2)%N -> vget (map g d2) i = g (vget d2 i) by move=> li; rewrite /vget (nth_map (rone W)).
have row_i (i : 'I_k2) : \row_(k < k1) cov (vget d2 i) (vget d1 k) = row i B^T.
  by apply/rowP => k; rewrite !mxE covC.
have EP : sigma k2 (map g d2) (f_noise f2) = C - B^T *m invmx A *m B.
  apply/matrixP => i j; rewrite mxE !eg // (cond_cov Mo C1 H1 Hd1 erefl n1 n1' H2 H2 Hd2 Hd2) //.
  rewrite [in RHS]mxE [C i j]mxE [in RHS](@mxE R _ _ _ _ i j) addrAC; congr (_ - _).
  rewrite /pc row_i.
  have -> : \col_(k < k1) cov (vget d2 j) (vget d1 k) = col j B by apply/colP => k; rewrite !mxE covC.
  have -> : \matrix_(a < k1, b < k1) vary o1 d1 a b = A by apply/matrixP => a b; rewrite !mxE.
  by rewrite col_mulmx -!row_mul 2!mxE.
have EQ : mu k2 (map g d2) = mu k2 d2 + B^T *m invmx A *m (vec k1 (o_y o1) - mu k1 d1).
  apply/colP => i; rewrite mxE eg // (cond_Ex Mo C1 H1 Hd1 erefl n1 n1' H2 Hd2) //.
  rewrite [in RHS]mxE [mu k2 d2 i 0]mxE; congr (_ + _); rewrite /pc row_i.
  have -> : \matrix_(a < k1, b < k1) vary o1 d1 a b = A by apply/matrixP => a b; rewrite !mxE.
  have -> : \col_(k < k1) (nth 0 (o_y o1) k - Ex (vget d1 k)) = vec k1 (o_y o1) - mu k1 d1.
    by apply/colP => k; rewrite !mxE.
  by rewrite -!row_mul mxE.
rewrite (E1 _ erefl PA) (E2 k2) ?size_map ?EP // (E3 (k1 + k2)%N sd) ?ES // EM EY EQ.
exact: (mvn_chain _ LN).
Qed.
End Chain.

(* C30 *)
Lemma density_perm n u v (s : seq nat) NA NB yA yB : size u = n -> perm_eq s (iota 0 n) ->
  same_rv v [seq vget u k | k <- s] ->
  (forall i j, (i < n)%N -> (j < n)%N -> ent NB i j = ent NA (nth 0%N s i) (nth 0%N s j)) ->
  (forall i, (i < n)%N -> nth 0 yB i = nth 0 yA (nth 0%N s i)) -> pd (sigma n u NA) ->
  pd (sigma n v NB) /\
  mvn_logpdf ln pi (mu n v) (sigma n v NB) (vec n yB) = mvn_logpdf ln pi (mu n u) (sigma n u NA) (vec n yA).
Proof.
move=> su Ps Sv HN Hy Pd; have ss : size s = n by rewrite (perm_size Ps) size_iota.
have lk (i : 'I_n) : (nth 0%N s i < n)%N.
  by have := mem_nth 0%N (eq_ind_r (fun k => (i < k)%N) (ltn_ord i) ss); rewrite (perm_mem Ps) mem_iota.
pose f (i : 'I_n) : 'I_n := Ordinal (lk i).
have If : injective f.
  move=> i j /(congr1 val) /= /eqP; rewrite nth_uniq ?ss ?(perm_uniq Ps) ?iota_uniq // => /eqP.
  exact: val_inj.
have sv : size v = n by case: Sv => ->; rewrite size_map.
have vE (i : 'I_n) : vget [seq vget u k | k <- s] i = vget u (f i) by rewrite /vget (nth_map 0%N) // ss.
have E1 : mu n v = rowsub f (mu n u) by rewrite (mu_same sv Sv); apply/matrixP => i j; rewrite !mxE vE.
have E2 : sigma n v NB = mxsub f f (sigma n u NA).
  by rewrite (sigma_same _ sv Sv); apply/matrixP => i j; rewrite !mxE !vE HN.
have E3 : vec n yB = rowsub f (vec n yA) by apply/matrixP => i j; rewrite !mxE Hy.
by rewrite E1 E2 E3 mvn_perm //; split=> //; apply: pd_sub.
Qed.

Section Rows.
Variables (m : mid) (p rA rB : pid) (xA xB : input R) (NA NB : dmat R) (yA yB : seq R) (s : seq nat)
  (xs : seq (point R)) (K : dmat R).
Hypotheses (DA : defined w m rA (DCopy p)) (DB : defined w m rB (DCopy p)).
Hypotheses (XA : points xA = Some xs) (XB : points xB = Some [seq nth [::] xs k | k <- s]).
Hypotheses (Sp : single (w_log w m) p).
Hypotheses (ZA : meant m rA xA) (ZB : meant m rB xB).
Hypotheses (EK : cov_is m rA rA xA xA K).
Notation n := (size xs).
Hypothesis (Ps : perm_eq s (iota 0 n)).
Hypothesis (NAB : forall i j, (i < n)%N -> (j < n)%N -> ent NB i j = ent NA (nth 0%N s i) (nth 0%N s j)).
Hypothesis (YAB : forall i, (i < n)%N -> nth 0 yB i = nth 0 yA (nth 0%N s i)).
Hypothesis (PA : pd (mx_at K n n + mx_at NA n n)).

Lemma rows_logpdf lA lB : logpdf_is m rA xA NA (map Some yA) lA -> logpdf_is m rB xB NB (map Some yB) lB -> lA = lB.
Proof.
move=> LA LB; have [uA HuA] := ZA.2; have [uB HuB] := ZB.2.
have [dA HdA SA] := copy_at DA HuA; have [dB HdB SB] := copy_at DB HuB.
have sA := den_size Sp HdA.2 XA; have sB := den_size Sp HdB.2 XB; rewrite size_map in sB.
have ss : size s = n by rewrite (perm_size Ps) size_iota.
have S : same_rv dB [seq vget dA k | k <- s].
  split=> [|i]; first by rewrite size_map.
  rewrite sB => li; have lk : (nth 0%N s i < n)%N by have := mem_nth 0%N li; rewrite (perm_mem Ps) mem_iota.
  have := den_point (i := i) (j := nth 0%N s i) Sp HdB.2 HdA.2 XB XA; rewrite size_map (nth_map 0%N) // => /(_ li lk erefl).
  by rewrite [vget [seq _ | _ <- _] _]/vget (nth_map 0%N).
have suA : size uA = n by case: SA => ->.
have Pd : pd (sigma n dA NA).
  rewrite -(sigma_same _ suA SA); have [a1 _ a3] := is_k Mo ZA.1 ZA.1 HuA HuA EK.
  by move: PA; congr pd; apply/matrixP => i j; rewrite !mxE a3 // suA.
have [_ _ _ EA] := logpdf_at DA ZA HdA LA; have [_ _ _ EB] := logpdf_at DB ZB HdB LB.
have [Pd' E] := density_perm sA Ps S NAB YAB Pd.
by rewrite (EA n) // (EB n) ?E // sB ss.
Qed.
End Rows.

Section Pairs.
Variables (m : mid) (cA cB rA rB : pid).
Variables (fs : seq (fdd R)) (ys es : seq (seq R)) (t : seq nat) (K : dmat R).
Let f0 := MkFdd 0 (Num [::]) (dzero R 0 0).
Let fsB := [seq nth f0 fs i | i <- t].
Let ysB := [seq nth [::] ys i | i <- t].
Let fA := combine_fdd cA fs.
Let fB := combine_fdd cB fsB.
Hypothesis (Pt : perm_eq t (iota 0 (size fs))).
Hypotheses (DA : defined w m cA (DCross (map (@f_p R) fs))) (DB : defined w m cB (DCross (map (@f_p R) fsB))).
Hypotheses (CA : defined w m rA (DCopy cA)) (CB : defined w m rB (DCopy cB)).
Hypothesis (Z : forall f, List.In f fs -> meant m (f_p f) (f_x f)).
Hypotheses (ZA : meant m rA (f_x fA)) (ZB : meant m rB (f_x fB)).
Hypotheses (Sy : size ys = size fs).
Hypothesis (EE : forall i, (i < size fs)%N -> let f := nth f0 fs i in
  [/\ mean_is m (f_p f) (f_x f) (nth [::] es i), nr (f_noise f) = size (nth [::] es i),
      nc (f_noise f) = size (nth [::] es i) & size (nth [::] ys i) = size (nth [::] es i)]).
Hypothesis (EK : cov_is m rA rA (f_x fA) (f_x fA) K).
Hypothesis (PA : pd (mx_at K (nr K) (nr K) + mx_at (f_noise fA) (nr K) (nr K))).

Lemma pairs_logpdf lA lB :
  logpdf_is m rA (f_x fA) (f_noise fA) (map Some (flatten ys)) lA ->
  logpdf_is m rB (f_x fB) (f_noise fB) (map Some (flatten ysB)) lB -> lA = lB.
Proof.
move=> LA LB.
have [us [F1 F2 F3]] := pairs_vec Mo Z Sy EE.
have [s Ps [HdA [dB HdB S] HN Hy]] := pairs_data (ys := ys) Pt DA DB F1 F2 F3.
have [_ _ _ EA] := logpdf_at CA ZA HdA LA; have [_ _ _ EB] := logpdf_at CB ZB HdB LB.
have [uA HuA] := ZA.2; have [dA' HdA' SA'] := copy_at CA HuA.
have SA : same_rv uA (flatten us) by apply: (same_trans SA'); apply: is_uniq HdA' HdA.
have suA : size uA = size (flatten us) by case: SA.
have Pd : pd (sigma (size (flatten us)) (flatten us) (f_noise fA)).
  rewrite -(sigma_same _ suA SA); have [a1 _ a3] := is_k Mo ZA.1 ZA.1 HuA HuA EK.
  by move: PA; rewrite a1 suA; congr pd; apply/matrixP => i j; rewrite !mxE a3 // suA.
have [Pd' E] := density_perm erefl Ps S HN Hy Pd.
rewrite (EA _ erefl) // (EB (size (flatten us))) ?E //.
by case: S => ->; rewrite size_map (perm_size Ps) size_iota.
Qed.
End Pairs.
End Density.
