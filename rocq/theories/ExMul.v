(* An example for the theorems about products: a constant random function f with mean one and
   variance one, the process f + 1 and their product; random variables are polynomials in a
   standard normal variable. *)
From Coq Require Import List.
From mathcomp Require Import all_ssreflect all_algebra.
From mathcomp Require Import ring zify.
From Verif Require Import Graph Machine Refine Worlds Eval GraphSpec GraphProofs GraphOps GraphFacts RV Sound ModelSpec MulSpec MulFacts.
Set Implicit Arguments. Unset Strict Implicit. Unset Printing Implicit Defensive.
Import GRing.Theory Num.Theory.
Local Open Scope ring_scope.

Section ExMul.
Variable R : fieldType.
(* The first moments of a standard normal variable. *)
Definition gE (p : {poly R}) : R := p`_0 + p`_2 + 3%:R * p`_4.
Definition gX (p : pid) (x : input R) (i : nat) : {poly R} := 'X + (p.+1)%:R.
Lemma gE_exp : expectation gE.
Proof.
split=> [a b|c a|]; rewrite /gE ?coefD ?coefZ ?coef1 /=; last by rewrite mulr0 !addr0.
  by move: (a`_0) (a`_2) (a`_4) (b`_0) (b`_2) (b`_4) => *; ring.
by move: (a`_0) (a`_2) (a`_4) => *; ring.
Qed.
Let EX (k : nat) : gE 'X^k = (k == 0%N)%:R + (k == 2%N)%:R + 3%:R * (k == 4%N)%:R.
Proof. by rewrite /gE !coefXn !(eq_sym k). Qed.
Lemma gE_mean p x i : gE (gX p x i) = (p.+1)%:R.
Proof.
have [h1 h2 h3] := gE_exp; rewrite /gX h1.
have -> : (p.+1)%:R = (p.+1)%:R *: 1 :> {poly R} by rewrite scaler_nat.
by rewrite h2 h3 -['X]expr1 EX /= mulr0 !add0r mulr1.
Qed.
Lemma g_centred p x i : centred gE (gX p x i) = 'X.
Proof. by rewrite /centred gE_mean /gX scaler_nat addrK. Qed.
Lemma g_cov p x i q y j : covar gE (gX p x i) (gX q y j) = 1.
Proof. by rewrite (covar_centred gE_exp) !g_centred -expr2 EX /= mulr0 addr0 add0r. Qed.
Lemma g_gauss ps : jointly_gaussian gE ps gX.
Proof.
split=> [a b c [p [x [i [_ ->]]]] [q [y [j [_ ->]]]] [r [z [k [_ ->]]]]|
         a b c d [p [x [i [_ ->]]]] [q [y [j [_ ->]]]] [r [z [k [_ ->]]]] [s [u [l [_ ->]]]]]; rewrite !g_centred.
  by rewrite -expr2 -!exprSr EX /= mulr0 !addr0.
by rewrite -expr2 -!exprSr EX /= !g_cov; ring.
Qed.

Definition gops : seq (op R) := [:: OMeasure; OGP 0%N (@MOne R) (@KOne R); OAddC 0%N 1].
Definition gprod : op R := OMul 0%N 1%N [::].
Definition gw1 : world R := (step (run_ops gops) gprod).1.
Lemma g_step : step (run_ops gops) gprod = (gw1, ROk (RPid R 2%N)).
Proof.
have e : (step (run_ops gops) gprod).2 = ROk (RPid R 2%N) by vm_compute.
by rewrite -e -surjective_pairing.
Qed.
Lemma g_realises_gen D (w : world R) :
  see_m w 0%N 0%N = Some (@MOne R) -> see_m w 0%N 1%N = Some (MAdd (@MOne R) (MScale 1 (@MOne R))) ->
  see_k w 0%N 0%N 0%N = Some (@KOne R) -> see_k w 0%N 1%N 0%N = Some (@KOne R) ->
  see_k w 0%N 0%N 1%N = Some (KRev (@KOne R)) -> see_k w 0%N 1%N 1%N = Some (@KOne R) ->
  realises gE D w 0%N [:: 0%N; 1%N] gX.
Proof.
move=> m0 m1 k00 k10 k01 k11.
have one x e : vm (see_k w) (see_m w) D (@MOne R) x e -> e = nseq (ne x) 1.
  by case=> -[|n] //; rewrite at_mone => -[<-].
have kone x y M : atom x -> atom y -> vk (see_k w) (see_m w) D (@KOne R) x y M -> M = done_ R (ne x) (ne y).
  by move=> ax ay [[|n]] //; case: x y ax ay => [xs|a x|xs] [ys|b y|ys] //= _ _ [<-].
split=> [p x e i|p q x y M i j].
  rewrite !inE => /orP [/eqP ->|/eqP ->] _ /mean_isP [mu]; rewrite ?m0 ?m1 => -[<-] V li; rewrite gE_mean.
    by move: li; rewrite (one _ _ V) size_nseq nth_nseq => ->.
  have [u [v [uk /vm_scale [v' v'k ev] /vmap2E [su sv ->]]]] // := vm_add V.
  have se : size e = ne x by rewrite -su (one _ _ uk) size_nseq.
  by rewrite (one _ _ uk) ev (one _ _ v'k) (nth_map 0) ?size_nseq ?nth_nseq -?se li // mulr1.
rewrite !inE => Hp Hq ax ay /cov_isP [k +] + li lj; rewrite g_cov.
move: Hp Hq => /orP [/eqP ->|/eqP ->] /orP [/eqP ->|/eqP ->]; rewrite ?k00 ?k10 ?k01 ?k11 => -[<-];
  try by move/(kone _ _ _ ax ay) => ->.
by case/(vk_rev ax ay) => M' /(kone _ _ _ ay ax) -> ->.
Qed.
Lemma g_realises D : realises gE D gw1 0%N [:: 0%N; 1%N] gX.
Proof. apply: g_realises_gen; by vm_compute. Qed.
(* The values of the product. *)
Lemma shape_cov D n (w : world R) m p q x y a :
  (if kernel_at D n w m p q x y is Some M then Some (nr M, nc M) else None) = Some a ->
  exists2 M, cov_is D w m p q x y M & (nr M, nc M) = a.
Proof. by case EM: (kernel_at _ _ _ _ _ _ _) => [M|] // -[<-]; exists M => //; exists n. Qed.
Lemma shape_mean D n (w : world R) m p x a :
  (if mean_at D n w m p x is Some e then Some (size e) else None) = Some a ->
  exists2 e, mean_is D w m p x e & size e = a.
Proof. by case EM: (mean_at _ _ _ _ _ _) => [M|] // -[<-]; exists M => //; exists n. Qed.
Lemma g_values_cov D : exists2 M, cov_is D gw1 0%N 2%N 2%N (Num [:: [::]]) (Num [:: [::]]) M & (nr M, nc M) = (1, 1)%N.
Proof. apply: (@shape_cov D 12); by vm_compute. Qed.
Lemma g_values_cross D : exists2 M, cov_is D gw1 0%N 2%N 0%N (Num [:: [::]]) (Num [:: [::]]) M & (nr M, nc M) = (1, 1)%N.
Proof. apply: (@shape_cov D 12); by vm_compute. Qed.
Lemma g_values_mean D : exists2 e, mean_is D gw1 0%N 2%N (Num [:: [::]]) e & size e = 1%N.
Proof. apply: (@shape_mean D 12); by vm_compute. Qed.
Lemma g_members : (2%N \in members gw1 0%N) /\ (0%N \in members (run_ops gops) 0%N).
Proof. by split; vm_compute. Qed.
Let xp : input R := Num [:: [::]].
Lemma g_ent_gen D w0 M : step (run_ops gops) gprod = (w0, ROk (RPid R 2%N)) -> 2%N \in members w0 0%N ->
  realises gE D w0 0%N [:: 0%N; 1%N] gX ->
  cov_is D w0 0%N 2%N 2%N xp xp M -> (nr M, nc M) = (1, 1)%N -> ent M 0 0 = 11%:R.
Proof.
move=> St Hm Re H [e1 e2].
have F := @mul_cov R _ gE D gops 0%N 1%N 2%N [::] w0 [::] 0%N St Hm [:: 0%N; 1%N] gX gE_exp Re (@g_gauss _) isT isT xp xp M isT isT H 0%N 0%N.
clear St Hm Re H; rewrite F ?e1 ?e2 //.
rewrite (product_cov gE_exp (@g_gauss [:: 0%N; 1%N])); try by [exists 0%N, xp, 0%N | exists 1%N, xp, 0%N].
rewrite !g_cov !gE_mean; ring.
Qed.
Lemma g_mean_gen D w0 e : step (run_ops gops) gprod = (w0, ROk (RPid R 2%N)) -> 2%N \in members w0 0%N ->
  realises gE D w0 0%N [:: 0%N; 1%N] gX ->
  mean_is D w0 0%N 2%N xp e -> size e = 1%N -> nth 0 e 0 <> gE (gX 0 xp 0 * gX 1 xp 0).
Proof.
move=> St Hm Re H se.
have F := @mul_mean R _ gE D gops 0%N 1%N 2%N [::] w0 [::] 0%N St Hm [:: 0%N; 1%N] gX Re isT isT xp e H isT 0%N.
clear St Hm Re H; rewrite F ?se //.
rewrite (product_mean gE) g_cov => /eqP; rewrite eq_sym addrC -subr_eq0 addrK; exact/negP/oner_neq0.
Qed.
Lemma g_ent D M : cov_is D gw1 0%N 2%N 2%N xp xp M -> (nr M, nc M) = (1, 1)%N -> ent M 0 0 = 11%:R.
Proof. exact (g_ent_gen g_step (proj1 g_members) (@g_realises D)). Qed.
Lemma g_mean_ent D e : mean_is D gw1 0%N 2%N xp e -> size e = 1%N -> nth 0 e 0 <> gE (gX 0 xp 0 * gX 1 xp 0).
Proof. exact (g_mean_gen g_step (proj1 g_members) (@g_realises D)). Qed.
Lemma g_example D : exists (ops : seq (op R)) p q ord w1 r m ps (X : pid -> input R -> nat -> {poly R}) E M N e,
  let x := Num [:: [::]] in
  [/\ step (run_ops ops) (OMul p q ord) = (w1, ROk (RPid R r)), r \in members w1 m /\ p \in members (run_ops ops) m,
      expectation E /\ jointly_gaussian E ps X, realises E D w1 m ps X /\ (p \in ps /\ q \in ps) &
  [/\ cov_is D w1 m r r x x M /\ (nr M, nc M) = (1, 1)%N, cov_is D w1 m r p x x N /\ (nr N, nc N) = (1, 1)%N,
      mean_is D w1 m r x e /\ size e = 1%N & ent M 0 0 = 11%:R]].
Proof.
have [M H1 H2] := g_values_cov D; have [N H3 H4] := g_values_cross D; have [e H5 H6] := g_values_mean D.
exists gops, 0%N, 1%N, [::], gw1, 2%N, 0%N, [:: 0%N; 1%N], gX, gE, M, N, e; split.
- exact: g_step.
- exact: g_members.
- by split; [exact: gE_exp | exact: g_gauss].
- by split; [exact: g_realises | split].
- by split; [split | split | split | exact: g_ent H1 H2].
Qed.
Lemma g_refuted D : exists (ops : seq (op R)) p q ord w1 r m ps (X : pid -> input R -> nat -> {poly R}) E e,
  let x := Num [:: [::]] in
  [/\ step (run_ops ops) (OMul p q ord) = (w1, ROk (RPid R r)), p \in ps /\ q \in ps,
      expectation E /\ jointly_gaussian E ps X, realises E D w1 m ps X &
      (mean_is D w1 m r x e /\ size e = 1%N) /\ nth 0 e 0 <> E (X p x 0%N * X q x 0%N)].
Proof.
have [e H5 H6] := g_values_mean D.
exists gops, 0%N, 1%N, [::], gw1, 2%N, 0%N, [:: 0%N; 1%N], gX, gE, e; split.
- exact: g_step.
- by split.
- by split; [exact: gE_exp | exact: g_gauss].
- exact: g_realises.
- by split; [split | exact: g_mean_ent H5 H6].
Qed.
End ExMul.
