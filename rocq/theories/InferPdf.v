(* The log-density of observations with missing values. *)
From Coq Require Import List.
From mathcomp Require Import all_ssreflect all_algebra.
From mathcomp Require Import zify.
From Verif Require Import Graph Machine Refine Worlds Eval GraphSpec GraphProofs GraphOps GraphFacts RV RVProofs Sound Typing ModelSpec ModelFacts Cond CondFacts CrossFacts Combine Infer InferSpec ElwiseFacts InferFacts InferThms.
From Verif Require Import MatrixFacts NormalSpec Normal NormalFacts LogPdf LogPdfFacts.
Set Implicit Arguments. Unset Strict Implicit. Unset Printing Implicit Defensive.
Import Order.TTheory GRing.Theory Num.Theory.
Local Open Scope ring_scope.

Section InferPdf.
Variables (R : rcfType) (ln : R -> R) (pi : R).
Hypothesis LN : logarithm ln.
Variable (W : space R).
Variable D : nat -> (point R -> R) -> point R -> R.
Variables (G : pid -> point R -> rv W) (eps : mid -> nat -> rv W).
Variables (ops : seq (op R)) (P : mid -> pid -> Prop).
Let w := run_ops ops.
Variable CV : mid -> pid -> pid -> input R -> input R -> dmat R -> Prop.
Hypothesis Mo : sound D G eps w P CV.
Notation is_at := (is_at D G eps w). Notation meant := (meant D G eps w P).
Notation cov_is := CV. Notation mean_is := (mean_is D w).
Notation logpdf_is := (logpdf_is ln pi D w).

Section C34.
Variables (m : mid) (r r' : pid) (n : nat) (f : fdd R) (y : seq (option R)) (o : obs R) (K : dmat R).
Hypotheses (S : well_settled w m (f_p f)) (O : observe (own_kernel w) n f y = Some o).
Hypotheses (Dr : defined w m r (DCopy (f_p f))) (Dr' : defined w m r' (DCopy (f_p f))).
Hypotheses (Zr : meant m r (f_x f)) (Zr' : meant m r' (o_x o)).
Hypothesis (EK : cov_is m r r (f_x f) (f_x f) K).
Hypothesis (PD : pd (mx_at K (nr K) (nr K) + mx_at (f_noise f) (nr K) (nr K))).
Lemma missing_logpdf l l' : logpdf_is m r (f_x f) (f_noise f) y l ->
  logpdf_is m r' (o_x o) (o_noise o) (map Some (o_y o)) l' -> l = l'.
Proof.
move=> [k [e [K0 [Em Ek [se n1 n2 sy] El]]]] L'; case: Zr => Pr [u Hu].
have [a Ha Sa] := copy_at Dr Hu.
have eE := is_m Mo Pr Hu Em; have su : size u = k by rewrite -se eE size_map.
have sa : size a = k by case: Sa => <-.
have [k1 k2 k3] := is_k Mo Pr Pr Hu Hu EK; rewrite su in k1.
have sE : sigma k u (f_noise f) = sigma k a (f_noise f) by apply: sigma_same.
have Pk : pd (sigma k a (f_noise f)).
  rewrite -sE; move: PD; rewrite k1; congr pd; apply/matrixP => i j; rewrite !mxE k3 // su //.
move: El; rewrite (fdd_of Mo (f_noise f) Pr Hu Em Ek su) (mu_same su Sa) sE.
have sya : size y = size a by rewrite sa.
have [o1 o2 [o3 o4] o5 o6] := observed S O Ha sya (etrans n1 (esym sa)) (etrans n2 (esym sa)).
set s := selected _ in o2 o3 o4 o5 o6.
have lt (i : 'I_(size s)) : (nth 0%N s i < k)%N by have := selected_nth (ltn_ord i); rewrite size_map sy.
pose g i := Ordinal (lt i).
have us : uniq s by apply: filter_uniq; apply: iota_uniq.
have gi : injective g.
  by move=> i j /(congr1 val) /= /eqP; rewrite nth_uniq // => /eqP ij; apply: val_inj.
rewrite (@logpdf_missing' _ ln pi LN _ _ _ _ _ g (vec (size s) (o_y o))); [|exact: Pk|exact: gi| |].
- case=> <-; have [_ _ _ E] := logpdf_at LN Mo Dr' Zr' o2 L'.
  have sz : size [seq vget a i | i <- s] = size s by rewrite size_map.
  rewrite (E _ sz); last first.
    have := pd_sub gi Pk; congr pd; apply/matrixP => i j; rewrite !mxE /vget !(nth_map 0%N) //.
    by rewrite o5.
  have -> : \col_i mu k a (g i) 0 = mu (size s) [seq vget a i | i <- s].
    by apply/matrixP => i j; rewrite !mxE /vget (nth_map 0%N).
  have -> // : \matrix_(i, j) sigma k a (f_noise f) (g i) (g j) = sigma (size s) [seq vget a i | i <- s] (o_noise o).
    by apply/matrixP => i j; rewrite !mxE /vget !(nth_map 0%N) // o5.
- move=> i; rewrite mxE; apply/idP/codomP => [Si|[j ->]] /=.
    have Is : (i : nat) \in s.
      by rewrite mem_filter mem_iota /= add0n size_map sy ltn_ord andbT (nth_map None) ?sy.
    have li : (index (i : nat) s < size s)%N by rewrite index_mem.
    by exists (Ordinal li); apply: val_inj; rewrite /= nth_index.
  have := mem_nth 0%N (ltn_ord j); rewrite {2}/s mem_filter => /andP [+ _].
  by rewrite (nth_map None) // sy lt.
- move=> j; rewrite !mxE o6 (nth_map 0%N) //=.
  have := mem_nth 0%N (ltn_ord j); rewrite {2}/s mem_filter => /andP [+ _].
  by rewrite (nth_map None) ?sy ?lt //; case: (nth None y _).
Qed.
End C34.
End InferPdf.
