From mathcomp Require Import all_ssreflect.
From Verif Require Import Context ContextSpec.
Set Implicit Arguments. Unset Strict Implicit. Unset Printing Implicit Defensive.

Lemma meaning_next s scope n : n <= (meaning s scope n).1.1.
Proof.
elim: s scope n => [|s1 IH1 s2 IH2|m b IH||[m|]||b IHb h IHh] scope n //=.
- have := IH1 scope n; case: (meaning s1 _ _) => [[n1 l1] []] //= H1.
  have := IH2 scope n1; case: (meaning s2 _ _) => [[n2 l2] e2] /=; exact: leq_trans.
- by case: scope => /= *; rewrite ?leqnSn ?leqnn.
have := IHb scope n; case: (meaning b _ _) => [[n1 l1] []] //= H1.
have := IHh scope n1; case: (meaning h _ _) => [[n2 l2] e2] /=; exact: leq_trans.
Qed.

(* The slots of the entered measures, which the execution of a block must preserve. *)
Lemma exec_meaning s scope c :
  no_reentry s scope -> existing s scope (c_next c) ->
  all (fun m => m < c_next c) scope ->
  c_default c = ohead scope ->
  let: (c', e) := exec s c in
  [/\ (c_next c', c_log c', e) =
      let: (n, l, e) := meaning s scope (c_next c) in (n, c_log c ++ l, e),
      c_default c' = c_default c &
      forall m, m \in scope -> c_prev c' m = c_prev c m].
Proof.
elim: s scope c => [|s1 IH1 s2 IH2|m b IH||[m|]||b IHb h IHh] scope c /=.
- by rewrite cats0.
- move=> /andP[R1 R2] /andP[X1 X2] Hs Hd.
  have := IH1 scope c R1 X1 Hs Hd; case: (exec s1 c) => c1 e1.
  have N1 := meaning_next s1 scope (c_next c).
  case: (meaning s1 _ _) X2 N1 => [[n1 l1] e1'] /= X2 N1 [[E1 E2 E3] D1 P1].
  rewrite -E3 {e1' E3}; case: e1; first by rewrite E1 E2.
  have Hs1 : all (fun m => m < c_next c1) scope.
    by rewrite E1; apply: sub_all Hs => m Hm; apply: leq_trans Hm N1.
  have := IH2 scope c1 R2; rewrite {1}E1 D1 => /(_ X2 Hs1 Hd).
  case: (exec s2 c1) => c2 e2; rewrite E1.
  case: (meaning s2 _ _) => [[n2 l2] e2'] /= [[-> -> ->] D2 P2].
  by rewrite E2 catA; split=> // m Hm; rewrite P2 // P1.
- move=> /andP[Rm R] /andP[Xm X] Hs Hd.
  have := IH (m :: scope) (enter c m) R X; rewrite /= Xm Hs => /(_ isT erefl).
  case: (exec b _) => c1 e1; case: (meaning b _ _) => [[n1 l1] e1'] /= [[-> -> ->] D1 P1].
  split=> //; first by rewrite P1 ?mem_head // /pupd eqxx.
  move=> m' Hm'; rewrite P1 ?in_cons ?Hm' ?orbT // /pupd; case: eqP => // E.
  by rewrite -E Hm' in Rm.
- move=> _ _ Hs Hd; rewrite cats0; split=> // m Hm; rewrite /pupd; case: eqP => // E.
  by move/allP: Hs => /(_ _ Hm); rewrite E ltnn.
- by move=> _ _ Hs Hd; rewrite /new_gp cats1.
- move=> _ _ Hs Hd; rewrite /new_gp Hd; case: scope Hs Hd => [|m scope] Hs Hd /=.
    by rewrite cats1.
  by rewrite cats1.
- by rewrite cats0.
move=> /andP[R1 R2] /andP[X1 X2] Hs Hd.
have := IHb scope c R1 X1 Hs Hd; case: (exec b c) => c1 e1.
have N1 := meaning_next b scope (c_next c).
case: (meaning b _ _) X2 N1 => [[n1 l1] e1'] /= X2 N1 [[E1 E2 E3] D1 P1].
rewrite -E3 {e1' E3}; case: e1; last by rewrite E1 E2.
have Hs1 : all (fun m => m < c_next c1) scope.
  by rewrite E1; apply: sub_all Hs => m Hm; apply: leq_trans Hm N1.
have := IHh scope c1 R2; rewrite {1}E1 D1 => /(_ X2 Hs1 Hd).
case: (exec h c1) => c2 e2; rewrite E1.
case: (meaning h _ _) => [[n2 l2] e2'] /= [[-> -> ->] D2 P2].
by rewrite E2 catA; split=> // m Hm; rewrite P2 // P1.
Qed.

Lemma exec_nested s n :
  no_reentry s [::] -> existing s [::] n ->
  let: (c', e) := exec s (ctx0 n) in
  (c_next c', c_log c', e) = meaning s [::] n /\ c_default c' = None.
Proof.
move=> R X; have := @exec_meaning s [::] (ctx0 n) R X isT erefl.
case: (exec s _) => c' e [E D _]; split=> //.
by rewrite E; case: (meaning s [::] n) => [[a b] d] /=.
Qed.

(* Leaving any block restores the default in force at its entry, in any reachable or
   unreachable state, provided its body does not enter the same measure again. *)
Fixpoint enters (s : stmt) (m : mid) : bool :=
  match s with
  | SSeq s1 s2 => enters s1 m || enters s2 m
  | SWith m' b => (m == m') || enters b m
  | STry b h => enters b m || enters h m
  | _ => false
  end.

Lemma exec_prev s m c : ~~ enters s m -> m < c_next c ->
  c_prev (exec s c).1 m = c_prev c m /\ m < c_next (exec s c).1.
Proof.
elim: s c => [|s1 IH1 s2 IH2|m' b IH||[m'|]||b IHb h IHh] c //=.
- rewrite negb_or => /andP[H1 H2] Hm; have := IH1 c H1 Hm.
  case: (exec s1 c) => c1 [] //= [E1 M1]; rewrite -E1; exact: IH2.
- rewrite negb_or => /andP[H1 H2] Hm; have := IH (enter c m') H2 Hm.
  by case: (exec b _) => c1 e /= [-> ->]; rewrite /pupd (negPf H1).
- by move=> _ Hm; rewrite /pupd ltn_eqF // ltnW.
- move=> _ Hm; rewrite /new_gp; case: (c_default c) => //=.
  by rewrite /pupd ltn_eqF // ltnW.
rewrite negb_or => /andP[H1 H2] Hm; have := IHb c H1 Hm.
case: (exec b c) => c1 [] //= [E1 M1]; rewrite -E1; exact: IHh.
Qed.

Lemma with_restores m b c : ~~ enters b m -> m < c_next c ->
  c_default (exec (SWith m b) c).1 = c_default c.
Proof.
move=> H Hm /=; have := @exec_prev b m (enter c m) H Hm.
by case: (exec b _) => c1 e /= [-> _]; rewrite /pupd eqxx.
Qed.
