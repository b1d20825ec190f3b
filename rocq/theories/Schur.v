(* The covariance function of a product of jointly Gaussian processes is positive semi-definite. *)
From Coq Require Import List.
From mathcomp Require Import all_ssreflect all_algebra.
From mathcomp Require Import ring.
From Verif Require Import ModelSpec.
Set Implicit Arguments. Unset Strict Implicit. Unset Printing Implicit Defensive.
Import GRing.Theory Num.Theory.
Local Open Scope ring_scope.

Section Schur.
Variable R : realFieldType.

Section Decompose.
Variable T : Type.
Implicit Types (k : T -> T -> R) (l : seq (R * T)).

Lemma quadE k l : quad k l = \sum_(a <- l) \sum_(b <- l) a.1 * b.1 * k a.2 b.2.
Proof. by []. Qed.
Lemma quad_cons k a l : (forall i j, k i j = k j i) ->
  quad k (a :: l) = a.1 * a.1 * k a.2 a.2 + 2%:R * (\sum_(b <- l) a.1 * b.1 * k a.2 b.2) + quad k l.
Proof.
move=> s; rewrite {1}quadE big_cons big_cons.
have -> : \sum_(j <- l) \sum_(b <- a :: l) j.1 * b.1 * k j.2 b.2 = \sum_(b <- l) a.1 * b.1 * k a.2 b.2 + quad k l.
  rewrite quadE -big_split; apply: eq_bigr => j _ /=; rewrite big_cons s; congr (_ + _); ring.
set S := \sum_(j <- l) _; move: S (quad k l) => S q; ring.
Qed.
Lemma psd_zero k i j : (forall i j, k i j = k j i) -> psd_fun k -> k i i = 0 -> k i j = 0.
Proof.
move=> s H e.
have Q c : 0 <= 2%:R * c * k i j + k j j.
  have := H [:: (c, i); (1, j)]; rewrite quad_cons //= /quad !big_cons !big_nil /= e.
  by congr (_ <= _); ring.
have [//|/eqP ne] := k i j =P 0.
have := Q (- (k j j + 1) / (2%:R * k i j)).
have -> : 2%:R * (- (k j j + 1) / (2%:R * k i j)) * k i j + k j j = - 1 by field; rewrite ne.
by rewrite oppr_ge0 ler10.
Qed.

(* [k] on the points of [s] is a sum of squares. *)
Definition squares k (s : seq T) : Prop :=
  exists ds : seq (R * (T -> R)), (forall d, In d ds -> 0 <= d.1) /\
    forall i j, In i s -> In j s -> k i j = \sum_(d <- ds) d.1 * d.2 i * d.2 j.

Lemma squares_cons k i0 s : (forall i j, k i j = k j i) -> psd_fun k -> k i0 i0 = 0 -> squares k s -> squares k (i0 :: s).
Proof.
move=> sy H e0 [ds [ge E]].
exists [seq (d.1, fun i => if k i i == 0 then 0 else d.2 i) | d <- ds]; split.
  by move=> d /in_map_iff [d' [<- /ge]].
move=> i j Hi Hj; rewrite big_map /=.
case: (k i i =P 0) => [ei|ni].
  by rewrite (psd_zero j sy H ei) big1 // => d _; ring.
case: (k j j =P 0) => [ej|nj].
  by rewrite sy (psd_zero i sy H ej) big1 // => d _; ring.
by case: Hi Hj => [e|Hi] [e'|Hj]; [case: ni; rewrite -e | case: ni; rewrite -e | case: nj; rewrite -e' | exact: E].
Qed.

Lemma squares_all k s : (forall i j, k i j = k j i) -> psd_fun k -> squares k s.
Proof.
elim: s k => [|i0 s IH] k sy H; first by exists [::]; split.
have [e0|/eqP n0] := k i0 i0 =P 0; first by apply: squares_cons => //; apply: IH.
have p0 : 0 < k i0 i0.
  rewrite Order.POrderTheory.lt_neqAle eq_sym n0 /=; have := H [:: (1, i0)]; rewrite /quad !big_cons !big_nil /=.
  by congr (_ <= _); ring.
pose k' i j := k i j - k i i0 * k i0 j / k i0 i0.
have sy' i j : k' i j = k' j i by rewrite /k' (sy i j) (sy i i0) (sy i0 j); ring.
have H' : psd_fun k'.
  move=> l; pose c := (\sum_(a <- l) a.1 * k i0 a.2) / k i0 i0.
  have := H ((- c, i0) :: l); rewrite quad_cons //=.
  have -> : \sum_(b <- l) - c * b.1 * k i0 b.2 = - c * (c * k i0 i0).
    rewrite /c divfK // mulr_sumr; apply: eq_bigr => b _; ring.
  have -> : quad k' l = quad k l - c * c * k i0 i0.
    rewrite !quadE /k'.
    have -> : c * c * k i0 i0 = \sum_(a <- l) \sum_(b <- l) a.1 * b.1 * (k a.2 i0 * k i0 b.2 / k i0 i0).
      have -> : c * c * k i0 i0 = (\sum_(a <- l) a.1 * k i0 a.2) * (\sum_(a <- l) a.1 * k i0 a.2) / k i0 i0.
        by rewrite /c; field.
      rewrite mulr_suml mulr_suml; apply: eq_bigr => a _; rewrite mulr_sumr mulr_suml.
      by apply: eq_bigr => b _; rewrite (sy a.2); ring.
    rewrite -sumrB; apply: eq_bigr => a _; rewrite -sumrB; apply: eq_bigr => b _; by rewrite mulrBr.
  by congr (_ <= _); ring.
have z0 : k' i0 i0 = 0 by rewrite /k'; field.
have [ds [ge E]] := squares_cons sy' H' z0 (IH k' sy' H').
exists (((k i0 i0)^-1, k i0) :: ds); split.
  by move=> d /= [<-|/ge //]; rewrite /= invr_ge0 Order.POrderTheory.ltW.
move=> i j Hi Hj; rewrite big_cons -(E i j Hi Hj) /= /k' (sy i i0); ring.
Qed.
End Decompose.

Lemma sum_ge0 (I : Type) (r : seq I) (F : I -> R) : (forall i, In i r -> 0 <= F i) -> 0 <= \sum_(i <- r) F i.
Proof.
elim: r => [|i r IH] ge; first by rewrite big_nil.
by rewrite big_cons addr_ge0 ?IH //; [apply: ge; left | move=> j Hj; apply: ge; right].
Qed.
(* A sum over pairs. *)
Lemma pairs_ge0 (I : Type) (r : seq I) (d : I -> R) (A : I -> I -> R) : (forall i, In i r -> 0 <= d i) ->
  0 <= \sum_(i <- r) \sum_(j <- r) d i * d j * (A i j * (A i j + A j i)).
Proof.
move=> ge; set S := \sum_(i <- r) _.
have E : 2%:R * S = \sum_(i <- r) \sum_(j <- r) d i * d j * ((A i j + A j i) * (A i j + A j i)).
  have -> : 2%:R * S = S + S by ring.
  rewrite {2}/S exchange_big /S -big_split; apply: eq_bigr => i _; rewrite -big_split; apply: eq_bigr => j _ /=; ring.
have G : 0 <= 2%:R * S.
  rewrite E; apply: sum_ge0 => i Hi; apply: sum_ge0 => j Hj.
  by apply: mulr_ge0; [apply: mulr_ge0; apply: ge | rewrite -expr2; apply: sqr_ge0].
by move: G; rewrite pmulr_rge0 // ltr0n.
Qed.

Section Product.
Variables (T : Type) (k : bool * T -> bool * T -> R).
Hypothesis sy : forall i j, k i j = k j i.
Hypothesis H : psd_fun k.
Definition prodk (s t : T) : R :=
  k (false, s) (false, t) * k (true, s) (true, t) + k (false, s) (true, t) * k (true, s) (false, t).
Lemma prodk_sym s t : prodk s t = prodk t s.
Proof.
rewrite /prodk (sy (false, s) (false, t)) (sy (true, s) (true, t)) (sy (false, s) (true, t)) (sy (true, s) (false, t)).
ring.
Qed.
Lemma prodk_psd : psd_fun prodk.
Proof.
move=> l; pose s := [seq (false, a.2) | a <- l] ++ [seq (true, a.2) | a <- l].
have Hs b a : In a l -> In (b, a.2) s.
  move=> Ha; apply/in_or_app; case: b; [right | left]; apply/in_map_iff; by exists a.
have [ds [ge E]] := squares_all s sy H.
pose p (d e : R * (bool * T -> R)) t := d.2 (false, t) * e.2 (true, t).
pose A d e := \sum_(a <- l) a.1 * p d e a.2.
have -> : quad prodk l = \sum_(d <- ds) \sum_(e <- ds) d.1 * e.1 * (A d e * (A d e + A e d)); last exact: (@pairs_ge0 _ ds (fun d => d.1) A).
have Q a b : In a l -> In b l -> a.1 * b.1 * prodk a.2 b.2 =
    \sum_(d <- ds) \sum_(e <- ds) d.1 * e.1 * ((a.1 * p d e a.2) * (b.1 * p d e b.2 + b.1 * p e d b.2)).
  move=> Ha Hb; rewrite /prodk !E; try exact: Hs.
  rewrite !big_distrlr /= -big_split mulr_sumr; apply: eq_bigr => d _; rewrite -big_split mulr_sumr; apply: eq_bigr => e _.
  rewrite /p /=; ring.
transitivity (\sum_(a <- l) \sum_(b <- l) \sum_(d <- ds) \sum_(e <- ds) d.1 * e.1 * ((a.1 * p d e a.2) * (b.1 * p d e b.2 + b.1 * p e d b.2))).
  rewrite quadE.
  have I2 (T' : Type) (l0 : seq T') (F F' : T' -> R) : (forall a, In a l0 -> F a = F' a) -> \sum_(a <- l0) F a = \sum_(a <- l0) F' a.
    elim: l0 => [|a l0 IH] He; first by rewrite !big_nil.
    by rewrite !big_cons He ?IH //; [move=> b Hb; apply: He; right | left].
  by apply: (I2) => a Ha; apply: (I2) => b Hb; apply: Q.
under eq_bigr do rewrite exchange_big.
rewrite exchange_big; apply: eq_bigr => d _.
under eq_bigr do rewrite exchange_big.
rewrite exchange_big; apply: eq_bigr => e _.
rewrite /A -big_split /= big_distrlr mulr_sumr; apply: eq_bigr => a _; rewrite mulr_sumr; apply: eq_bigr => b _ /=; ring.
Qed.
End Product.
End Schur.
