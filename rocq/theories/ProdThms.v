(* Models with products and derivatives are joint distributions. *)
From Coq Require Import List.
From mathcomp Require Import all_ssreflect all_algebra.
From mathcomp Require Import zify.
From Verif Require Import Graph Machine Refine Worlds Eval GraphSpec GraphProofs GraphOps GraphFacts RV RVProofs Sound Typing ModelSpec Formal ModelFacts Plain Cond CondFacts CrossFacts VarFacts ModelThms ProdSpec ProdLogs Prod.
Set Implicit Arguments. Unset Strict Implicit. Unset Printing Implicit Defensive.
Import GRing.Theory Num.Theory.
Local Open Scope ring_scope.

Section ProdThms.
Variable R : realFieldType.
Variable D : nat -> (point R -> R) -> point R -> R.
Variables (mu : pid -> point R -> R) (ka : pid -> point R -> point R -> R) (dif : bool).
Hypothesis D0 : forall d t, D d (fun=> 0) t = 0.
Hypothesis Hd : dif -> differences D.
Hypothesis ka_sym : forall p s t, ka p s t = ka p t s.
Variable ops : seq (op R).
Hypothesis Hm : mixed D mu ka world0 ops.
Hypothesis Hg : gp_first ops.
Hypothesis Hf : factors dif ops.
Let w := run_ops ops.

Lemma mixed_law : exists (W : space R) (G : pid -> point R -> rv W) (eps : mid -> nat -> rv W),
  [/\ model D G eps w everywhere,
      forall p, (forall s t, Ex (G p s) = mu p s /\ cov (G p s) (G p t) = ka p s t) \/ product_part ops p,
      forall m p x k, (m < w_nm w)%N -> widths dif (w_log w m) p x = Some k ->
        exists2 u, is_at D G eps w m p x u & size u = k,
      forall p q s t, p <> q -> cov (G p s) (G q t) = 0 &
      (forall p, psd_fun (ka p)) -> psd_noise ops -> nonneg W].
Proof.
have [cs Hcs] : exists cs : nat -> seq (R * (point R -> point R)), dif ->
    forall d f x, D d f x = \sum_(c <- cs d) c.1 * f (c.2 x).
  by case: (dif) Hd => [/(_ isT) [cs H]|_]; [exists cs | exists (fun=> [::])].
have [mu' [ka' [Rg Hor Hpsd]]] := regular_all Hcs D0 ka_sym Hm Hg Hf.
exists (Formal.W Rg), (Formal.G Rg), (Formal.eps Rg); split.
- split; first exact: (formal_valid (winv_run ops) Rg).
  by apply: crosslast_ordered; apply: crosslast_all Hm Hg.
- move=> p; case: (Hor p) => [[e1 e2]|]; [left | by right].
  by move=> s t; rewrite (wEx Rg) (wcov Rg) /= eqxx e1 e2.
- move=> m p x k lt Hw.
  have [u Hu su] := denotes_exists (Formal.G Rg) (Formal.eps Rg) (@der_ok _ D dif cs Hcs _) (winvid_run ops m) Hw.
  by exists u.
- by move=> p q s t /eqP ne; rewrite (wcov Rg) /= (negbTE ne).
- move=> H1 H2; apply: regular_psd; first exact: Hpsd.
  by move=> m pm par o _; apply: (psd_base Hm Hg).
Qed.
Lemma mixed_meant m p x k (W : space R) (G : pid -> point R -> rv W) eps :
  (forall m p x k, (m < w_nm w)%N -> widths dif (w_log w m) p x = Some k -> exists2 u, is_at D G eps w m p x u & size u = k) ->
  (m < w_nm w)%N -> widths dif (w_log w m) p x = Some k -> meant D G eps w everywhere m p x.
Proof. by move=> H lt /(H _ _ _ _ lt) [u Hu _]; split=> //; exists u. Qed.

Lemma mixed_joint : exists (W : space R) (G : pid -> point R -> rv W) (eps : mid -> nat -> rv W),
  [/\ forall p, (forall s t, Ex (G p s) = mu p s /\ cov (G p s) (G p t) = ka p s t) \/ product_part ops p,
      forall p q s t, p <> q -> cov (G p s) (G q t) = 0,
      forall m pm par o i j, (m < w_nm w)%N -> base (w_log w m) = Some (pm, par, o) ->
        (i < nr (full_noise o))%N -> (j < nr (full_noise o))%N ->
        [/\ Ex (eps m i) = 0, cov (eps m i) (eps m j) = ent (full_noise o) i j,
            forall p t, cov (eps m i) (G p t) = 0 & forall m' i', m <> m' -> cov (eps m i) (eps m' i') = 0],
      forall m p x k, (m < w_nm w)%N -> widths dif (w_log w m) p x = Some k ->
        exists2 u, is_at D G eps w m p x u & size u = k &
      (forall m p x u, is_at D G eps w m p x u ->
        (forall e, mean_is D w m p x e -> e = map (@Ex R W) u) /\
        (forall q y v M, is_at D G eps w m q y v -> cov_is D w m p q x y M -> covmat M u v)) /\
      ((forall p, psd_fun (ka p)) -> psd_noise ops -> nonneg W)].
Proof.
have [W [G [eps [Mo Hor a4 Gi Hpsd]]]] := mixed_law; exists W, G, eps; split=> //.
- move=> m pm par o i j lt E li lj; have [V _] := Mo; have sq := sym_base Hm Hg E.
  exact: (valid_full V lt E sq).
- split=> // m p x u Hu; split=> [e|q y v M Hv]; first exact: (means (model_sound Mo) _ Hu).
  exact: (covs (model_sound Mo) _ _ Hu Hv).
Qed.
Lemma mixed_shape m p q x y a b M : (m < w_nm w)%N -> widths dif (w_log w m) p x = Some a ->
  widths dif (w_log w m) q y = Some b -> cov_is D w m p q x y M -> nr M = a /\ nc M = b.
Proof.
move=> lt Ha Hb E; have [W [G [eps [Mo a1 a4 _ _]]]] := mixed_law.
have [u Hu su] := a4 _ _ _ _ lt Ha; have [v Hv sv] := a4 _ _ _ _ lt Hb.
by have [-> -> _] := covs (model_sound Mo) I I Hu Hv E; rewrite su sv.
Qed.
Lemma mixed_symmetric m p q x y a b M M' : (m < w_nm w)%N -> widths dif (w_log w m) p x = Some a ->
  widths dif (w_log w m) q y = Some b -> cov_is D w m p q x y M -> cov_is D w m q p y x M' -> transposed M M'.
Proof.
move=> lt Ha Hb; have [W [G [eps [Mo a1 a4 _ _]]]] := mixed_law.
exact: (symmetric (model_sound Mo) (mixed_meant a4 lt Ha) (mixed_meant a4 lt Hb)).
Qed.
Lemma mixed_joint_psd m l B c : (forall p, psd_fun (ka p)) -> psd_noise ops -> (m < w_nm w)%N ->
  (forall i, (i < size l)%N -> widths dif (w_log w m) (lname l i) (linput l i) <> None) ->
  (forall i j, (i < size l)%N -> (j < size l)%N -> cov_is D w m (lname l i) (lname l j) (linput l i) (linput l j) (B i j)) ->
  0 <= block_quad (size l) B c.
Proof.
move=> H1 H2 lt H; have [W [G [eps [Mo a1 a4 _ NN]]]] := mixed_law.
apply: (joint_psd (NN H1 H2) (model_sound Mo)) => i li; case E: (widths _ _ _ _) (H i li) => [k|] // _.
exact: (mixed_meant a4 lt E).
Qed.
End ProdThms.
