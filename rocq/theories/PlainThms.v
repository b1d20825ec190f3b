(* Plain models are joint distributions: statements without hypotheses on random variables. *)
From Coq Require Import List.
From mathcomp Require Import all_ssreflect all_algebra.
From mathcomp Require Import zify.
From Verif Require Import Graph Machine Refine Worlds Eval GraphSpec GraphProofs GraphOps GraphFacts RV RVProofs Sound Typing ModelSpec Formal ModelFacts Plain Cond CondFacts CrossFacts VarFacts ModelThms.
Set Implicit Arguments. Unset Strict Implicit. Unset Printing Implicit Defensive.
Import GRing.Theory Num.Theory.
Local Open Scope ring_scope.

Section PlainThms.
Variable R : fieldType.
Variable D : nat -> (point R -> R) -> point R -> R.
Variables (mu : pid -> point R -> R) (ka : pid -> point R -> point R -> R).
Hypothesis D0 : forall d t, D d (fun=> 0) t = 0.
Hypothesis ka_sym : forall p s t, ka p s t = ka p t s.
Variable ops : seq (op R).
Hypothesis Hp : plain D mu ka world0 ops.
Hypothesis Hg : gp_first ops.
Let w := run_ops ops.

Lemma plain_law : exists (W : space R) (G : pid -> point R -> rv W) (eps : mid -> nat -> rv W),
  [/\ forall p q s t, cov (G p s) (G q t) = if p == q then ka p s t else 0,
      forall p t, Ex (G p t) = mu p t,
      model D G eps w everywhere &
      forall m p x k, (m < w_nm w)%N -> widths false (w_log w m) p x = Some k ->
        exists2 u, is_at D G eps w m p x u & size u = k].
Proof.
exists (pW D0 ka_sym Hp), (@pG _ _ _ _ D0 ka_sym _ Hp), (@peps _ _ _ _ D0 ka_sym _ Hp).
have Mo := plain_model D0 ka_sym Hp Hg; split=> //.
- move=> p q s t; rewrite /pG (wcov (plain_regular D0 ka_sym Hp)) /=; by case: eqP => [->|].
- by move=> p t; rewrite /pG (wEx (plain_regular D0 ka_sym Hp)).
- exact: plain_at.
Qed.
Lemma plain_meant m p x k (W : space R) (G : pid -> point R -> rv W) eps :
  (forall m p x k, (m < w_nm w)%N -> widths false (w_log w m) p x = Some k -> exists2 u, is_at D G eps w m p x u & size u = k) ->
  (m < w_nm w)%N -> widths false (w_log w m) p x = Some k -> meant D G eps w everywhere m p x.
Proof. by move=> H lt /(H _ _ _ _ lt) [u Hu _]; split=> //; exists u. Qed.

Lemma plain_joint : exists (W : space R) (G : pid -> point R -> rv W) (eps : mid -> nat -> rv W),
  [/\ forall p q s t, cov (G p s) (G q t) = if p == q then ka p s t else 0,
      forall p t, Ex (G p t) = mu p t,
      forall m pm par o i j, (m < w_nm w)%N -> base (w_log w m) = Some (pm, par, o) ->
        (i < nr (full_noise o))%N -> (j < nr (full_noise o))%N ->
        [/\ Ex (eps m i) = 0, cov (eps m i) (eps m j) = ent (full_noise o) i j,
            forall p t, cov (eps m i) (G p t) = 0 & forall m' i', m <> m' -> cov (eps m i) (eps m' i') = 0],
      forall m p x k, (m < w_nm w)%N -> widths false (w_log w m) p x = Some k ->
        exists2 u, is_at D G eps w m p x u & size u = k &
      forall m p x u, is_at D G eps w m p x u ->
        (forall e, mean_is D w m p x e -> e = map (@Ex R W) u) /\
        (forall q y v M, is_at D G eps w m q y v -> cov_is D w m p q x y M -> covmat M u v)].
Proof.
have [W [G [eps [a1 a2 Mo a4]]]] := plain_law; exists W, G, eps; split=> //.
  move=> m pm par o i j lt E li lj; have [V _] := Mo.
  exact: (valid_full V lt E (rg_noise (plain_regular D0 ka_sym Hp) lt E)).
move=> m p x u Hu; split=> [e|q y v M Hv]; first exact: (means (model_sound Mo) _ Hu).
exact: (covs (model_sound Mo) _ _ Hu Hv).
Qed.
Lemma plain_shape m p q x y a b M : (m < w_nm w)%N -> widths false (w_log w m) p x = Some a ->
  widths false (w_log w m) q y = Some b -> cov_is D w m p q x y M -> nr M = a /\ nc M = b.
Proof.
move=> lt Ha Hb E; have [W [G [eps [a1 a2 Mo a4]]]] := plain_law.
have [u Hu su] := a4 _ _ _ _ lt Ha; have [v Hv sv] := a4 _ _ _ _ lt Hb.
by have [-> -> _] := covs (model_sound Mo) I I Hu Hv E; rewrite su sv.
Qed.
Lemma plain_symmetric m p q x y a b M M' : (m < w_nm w)%N -> widths false (w_log w m) p x = Some a ->
  widths false (w_log w m) q y = Some b -> cov_is D w m p q x y M -> cov_is D w m q p y x M' -> transposed M M'.
Proof.
move=> lt Ha Hb; have [W [G [eps [a1 a2 Mo a4]]]] := plain_law.
exact: (symmetric (model_sound Mo) (plain_meant a4 lt Ha) (plain_meant a4 lt Hb)).
Qed.
End PlainThms.

Section PlainReal.
Variable R : realFieldType.
Variable D : nat -> (point R -> R) -> point R -> R.
Variables (mu : pid -> point R -> R) (ka : pid -> point R -> point R -> R).
Hypothesis D0 : forall d t, D d (fun=> 0) t = 0.
Hypothesis ka_sym : forall p s t, ka p s t = ka p t s.
Hypothesis ka_psd : forall p, psd_fun (ka p).
Variable ops : seq (op R).
Hypothesis Hp : plain D mu ka world0 ops.
Hypothesis Hg : gp_first ops.
Hypothesis Hn : psd_noise ops.
Let w := run_ops ops.

Lemma plain_law_psd : exists (W : space R) (G : pid -> point R -> rv W) (eps : mid -> nat -> rv W),
  [/\ nonneg W, model D G eps w everywhere &
      forall m p x k, (m < w_nm w)%N -> widths false (w_log w m) p x = Some k ->
        exists2 u, is_at D G eps w m p x u & size u = k].
Proof.
exists (pW D0 ka_sym Hp), (@pG _ _ _ _ D0 ka_sym _ Hp), (@peps _ _ _ _ D0 ka_sym _ Hp); split.
- exact: plain_psd.
- exact: plain_model.
- exact: plain_at.
Qed.
Lemma plain_all : exists (W : space R) (G : pid -> point R -> rv W) (eps : mid -> nat -> rv W),
  [/\ nonneg W, model D G eps w everywhere &
      forall m p x k, (m < w_nm w)%N -> widths false (w_log w m) p x = Some k -> meant D G eps w everywhere m p x].
Proof.
have [W [G [eps [N Mo H]]]] := plain_law_psd; exists W, G, eps; split=> // m p x k lt E; exact: (plain_meant H lt E).
Qed.
Lemma plain_joint_psd m l B c : (m < w_nm w)%N ->
  (forall i, (i < size l)%N -> widths false (w_log w m) (lname l i) (linput l i) <> None) ->
  (forall i j, (i < size l)%N -> (j < size l)%N -> cov_is D w m (lname l i) (lname l j) (linput l i) (linput l j) (B i j)) ->
  0 <= block_quad (size l) B c.
Proof.
move=> lt H; have [W [G [eps [NN Mo a4]]]] := plain_law_psd.
apply: (joint_psd NN (model_sound Mo)) => i li; case E: (widths _ _ _ _) (H i li) => [k|] // _.
exact: (plain_meant a4 lt E).
Qed.
End PlainReal.
