(* All models, for the processes that are [covered]. *)
From Coq Require Import List.
From mathcomp Require Import all_ssreflect all_algebra.
From mathcomp Require Import zify.
From Verif Require Import Graph Machine Refine Worlds Eval GraphSpec GraphProofs GraphOps RV RVProofs Sound Typing ModelSpec Formal ModelFacts Plain Cond CondFacts CrossFacts VarFacts ModelThms ProdSpec ProdLogs Prod SymSpec ExactSpec Shape Exact ExactLogs ExactRV ExactMain.
Set Implicit Arguments. Unset Strict Implicit. Unset Printing Implicit Defensive.
Import GRing.Theory Num.Theory.
Local Open Scope ring_scope.

Section ExactThms.
Variable R : realFieldType.
Variable D : nat -> (point R -> R) -> point R -> R.
Variables (mu : pid -> point R -> R) (ka : pid -> point R -> point R -> R) (dif : bool).
Hypothesis D0 : forall d t, D d (fun=> 0) t = 0.
Hypothesis Hd : dif -> differences D.
Hypothesis ka_sym : forall p s t, ka p s t = ka p t s.
Variable ops : seq (op R).
Let w := run_ops ops.
Hypothesis Hm : general D mu ka world0 ops.
Hypothesis HU : forall k, given_kernel ops k -> shaped_kernel D w k.
Notation cvd := (fun m q => covered dif ops m (w_log w m) q).

Lemma general_law : exists (W : space R) (G : pid -> point R -> rv W) (eps : mid -> nat -> rv W),
  [/\ valid D G eps w cvd,
      forall p, (forall s t, Ex (G p s) = mu p s /\ cov (G p s) (G p t) = ka p s t) \/ product_part ops p,
      forall m p x k, (m < w_nm w)%N -> widths dif (w_log w m) p x = Some k ->
        exists2 u, is_at D G eps w m p x u & size u = k,
      forall p q s t, p <> q -> cov (G p s) (G q t) = 0 &
      (forall p, psd_fun (ka p)) -> psd_noise ops -> nonneg W].
Proof.
have [cs Hcs] : exists cs : nat -> seq (R * (point R -> point R)), dif ->
    forall d f x, D d f x = \sum_(c <- cs d) c.1 * f (c.2 x).
  by case: (dif) Hd => [/(_ isT) [cs H]|_]; [exists cs | exists (fun=> [::])].
have [mu' [ka' [Rg Hor Hpsd]]] := eregular_all Hcs D0 ka_sym Hm HU.
exists (Formal.W Rg), (Formal.G Rg), (Formal.eps Rg); split.
- exact: (formal_valid (winv_run ops) Rg).
- move=> p; case: (Hor p) => [[e1 e2]|]; [left | by right].
  by move=> s t; rewrite (wEx Rg) (wcov Rg) /= eqxx e1 e2.
- move=> m p x k lt Hw.
  have [u Hu su] := denotes_exists (Formal.G Rg) (Formal.eps Rg) (@der_ok _ D dif cs Hcs _) (winvid_run ops m) Hw.
  by exists u.
- by move=> p q s t /eqP ne; rewrite (wcov Rg) /= (negbTE ne).
- move=> H1 H2; apply: regular_psd; first exact: Hpsd.
  by move=> m pm par o _; apply: (epsd_base Hm).
Qed.
Let Cr m : crosses (w_log w m) := eall_crosses Hm m.

Lemma general_joint : exists (W : space R) (G : pid -> point R -> rv W) (eps : mid -> nat -> rv W),
  [/\ forall p, (forall s t, Ex (G p s) = mu p s /\ cov (G p s) (G p t) = ka p s t) \/ product_part ops p,
      forall p q s t, p <> q -> cov (G p s) (G q t) = 0,
      forall m pm par o i j, (m < w_nm w)%N -> base (w_log w m) = Some (pm, par, o) ->
        (i < nr (full_noise o))%N -> (j < nr (full_noise o))%N ->
        [/\ Ex (eps m i) = 0, cov (eps m i) (eps m j) = ent (full_noise o) i j,
            forall p t, cov (eps m i) (G p t) = 0 & forall m' i', m <> m' -> cov (eps m i) (eps m' i') = 0],
      forall m p x k, (m < w_nm w)%N -> widths dif (w_log w m) p x = Some k ->
        exists2 u, is_at D G eps w m p x u & size u = k &
      (forall m p x u, covered dif ops m (w_log w m) p -> is_at D G eps w m p x u ->
        [/\ forall e, mean_is D w m p x e -> e = map (@Ex R W) u,
            forall M, cov_is D w m p p x x M -> covmat M u u &
            forall q y v M, covered dif ops m (w_log w m) q -> is_at D G eps w m q y v ->
              cov_is D w m p q x y M -> covmat_at_most M u v]) /\
      ((forall p, psd_fun (ka p)) -> psd_noise ops -> nonneg W)].
Proof.
have [W [G [eps [V Hor a4 Gi Hpsd]]]] := general_law; exists W, G, eps; split=> //.
- by move=> m pm par o i j lt E li lj; apply: (valid_full V lt E (esym_base Hm E)).
- have ek := exact_k (winv_run ops) (winvid_run ops) V Cr (shapes HU).
  have ed := exact_d (winv_run ops) (winvid_run ops) V Cr (shapes HU).
  have em := exact_m (winv_run ops) (winvid_run ops) V Cr (shapes HU).
  split=> // m p x u Cp [lt Hu]; split=> [e [n Ee]|M [n EM]|q y v M Cq [_ Hv] [n EM]].
  + exact: em lt Cp Ee Hu.
  + exact: ed lt Cp EM Hu.
  + exact: ek lt Cp Cq EM Hu Hv.
Qed.

Lemma general_shape m p x k M : (m < w_nm w)%N -> covered dif ops m (w_log w m) p ->
  widths dif (w_log w m) p x = Some k -> cov_is D w m p p x x M -> nr M = k /\ nc M = k.
Proof.
move=> lt Cp Hw E; have [W [G [eps [_ _ _ a4 [H _]]]]] := general_joint.
have [u Hu su] := a4 _ _ _ _ lt Hw; have [_ /(_ M E) [-> ->] _ _] := H _ _ _ _ Cp Hu.
by rewrite su.
Qed.
Lemma general_psd m p x M : (forall p, psd_fun (ka p)) -> psd_noise ops -> (m < w_nm w)%N ->
  covered dif ops m (w_log w m) p -> widths dif (w_log w m) p x <> None -> cov_is D w m p p x x M -> psd_matrix M.
Proof.
move=> H1 H2 lt Cp; case Hw: (widths _ _ _ _) => [k|] // _ E.
have [W [G [eps [_ _ _ a4 [H /(_ H1 H2) NN]]]]] := general_joint.
have [u Hu su] := a4 _ _ _ _ lt Hw; have [_ /(_ M E) [s1 s2 e] _] := H _ _ _ _ Cp Hu.
move=> c Hc; have := cov_psd (fun i => vget u i) NN c; congr (_ <= _); rewrite /quad big_seq [in RHS]big_seq.
apply: eq_bigr => a Ha; rewrite big_seq [in RHS]big_seq; apply: eq_bigr => b Hb; rewrite e //.
- by move/allP: Hc => /(_ a Ha); rewrite s1.
- by move/allP: Hc => /(_ b Hb); rewrite s1.
Qed.
Lemma general_joint_psd m l B c : (forall p, psd_fun (ka p)) -> psd_noise ops -> (m < w_nm w)%N ->
  (forall i, (i < size l)%N -> covered dif ops m (w_log w m) (lname l i) /\
                               widths dif (w_log w m) (lname l i) (linput l i) <> None) ->
  (forall i j, (i < size l)%N -> (j < size l)%N -> cov_is D w m (lname l i) (lname l j) (linput l i) (linput l j) (B i j)) ->
  (forall i j, (i < size l)%N -> (j < size l)%N -> nr (B i j) = nr (B i i)) ->
  0 <= block_quad (size l) B c.
Proof.
move=> H1 H2 lt H HB Hr.
have [W [G [eps [_ _ _ a4 [HJ /(_ H1 H2) NN]]]]] := general_joint.
have [us Hus] : exists us, forall i, (i < size l)%N -> is_at D G eps w m (lname l i) (linput l i) (nth [::] us i).
  apply: (choose_at (P := fun _ _ => True)) => i li; split=> //.
  by have [_] := H i li; case Hw: (widths _ _ _ _) => [k|] // _; have [u Hu _] := a4 _ _ _ _ lt Hw; exists u.
rewrite (comb_cov (u := fun i => nth [::] us i)) ?NN // => i j li lj.
have sq a : (a < size l)%N -> nr (B a a) = size (nth [::] us a).
  move=> la; have [_ /(_ _ (HB a a la la)) [-> _ _] _] := HJ _ _ _ _ (H a la).1 (Hus a la); by [].
have [_ _ /(_ _ _ _ _ (H j lj).1 (Hus j lj) (HB i j li lj)) [_ _ C]] := HJ _ _ _ _ (H i li).1 (Hus i li).
apply: C; first by rewrite Hr // sq.
have [n1 E1] := HB i j li lj; have [n2 E2] := HB j i lj li.
rewrite -(sq j lj) -(Hr j i lj li).
have := shapes HU (n := maxn n1 n2); rewrite /okS => S.
move: E1 E2; rewrite /kernel_at.
case K1: (see_k w m (lname l i) (lname l j)) => [k1|] //=; case K2: (see_k w m (lname l j) (lname l i)) => [k2|] //=.
move=> /(evk_fuel (leq_maxl n1 n2)) E1 /(evk_fuel (leq_maxr n1 n2)) E2.
by have [-> _] := S _ _ _ _ _ K1 K2 _ _ _ _ E1 E2.
Qed.
End ExactThms.
