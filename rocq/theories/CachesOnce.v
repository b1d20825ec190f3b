(* Proofs that answers are computed once: after a call that returned, nothing is computed. *)
From mathcomp Require Import all_ssreflect.
From Verif Require Import Caches CachesSpec CachesFacts.
Set Implicit Arguments. Unset Strict Implicit. Unset Printing Implicit Defensive.

Lemma exact_once measure V (attached : measure -> bool) (kx : measure -> V) u a m c c' v :
  K_x attached kx u a m c = (c', Returned v) ->
  forall attached' kx' u' (m' : measure), K_x attached' kx' u' a m' c' = (c', Returned v).
Proof.
rewrite /K_x; case G: (get c a) => [w|].
  by case=> <- <- attached' kx' _ m'; rewrite G.
by case: (attached m) => //= -[<- <-] attached' kx' _ m'; rewrite get_put eqxx.
Qed.

Section Pseudo.
Variables (measure VK VA VM VE : Type).
Notation cache := (cache VK VA VM VE).
Definition filled (a : nat) (c : cache) : Prop := forall b, isSome (lookup b a c).
Definition vacant (a : nat) (c : cache) : Prop := forall b, lookup b a c = None.
Definition tidy (c : cache) : Prop := forall a, filled a c \/ vacant a c.

Fixpoint found (l : seq attribute) (a : nat) (c : cache) : seq (value VK VA VM VE) :=
  if l is b :: l' then if lookup b a c is Some v then v :: found l' a c else found l' a c else [::].

Section Request.
Variables (attached : measure -> bool).
Variables (kz : measure -> VK) (av : measure -> VA) (mv : measure -> VM) (ev : measure -> VE) (d : bool).
Notation all_ := (access_all attached kz av mv ev d).
Lemma all_filled l a m c : filled a c -> all_ l a m c = (c, Returned (found l a c)).
Proof.
by move=> F; elim: l => //= b l IH; rewrite /access; have := F b; case: (lookup b a c) => //= v _; rewrite IH.
Qed.
End Request.

Variables (attached : measure -> bool).
Variables (kz : measure -> VK) (av : measure -> VA) (mv : measure -> VM) (ev : measure -> VE).
Notation all_ := (access_all attached kz av mv ev true).
Notation req := (pseudo_request attached kz av mv ev true).
Lemma compute_tidy a m c : attached m ->
  exists c', _compute attached kz av mv ev true a m c = (c', None) /\ filled a c' /\
    forall b a', a' <> a -> lookup b a' c' = lookup b a' c.
Proof.
move=> A; rewrite /_compute A /=; eexists; split; first reflexivity; split.
  by case; rewrite /= get_put eqxx.
by move=> b a' /eqP; rewrite eq_sym => /negPf ne; case: b; rewrite /= get_put ne.
Qed.
Lemma all_tidy l a m c : tidy c -> 0 < size l ->
  if attached m || (if l is b :: _ then isSome (lookup b a c) else false) then
    exists c', [/\ all_ l a m c = (c', Returned (found l a c')), filled a c' & tidy c']
  else all_ l a m c = (c, Raised RuntimeError).
Proof.
case: l => // b l T _; have [F|V] := T a.
  by rewrite F orbT; exists c; split=> //; apply: all_filled.
rewrite V orbF; case A: (attached m); last by rewrite /= /access V /_compute A.
have [c' [E [F O]]] := compute_tidy a c A; exists c'; split=> //.
  rewrite /= /access V E; have := F b; case: (lookup b a c') => //= v _.
  by rewrite all_filled.
move=> a'; case: (eqVneq a' a) => [->|/eqP ne]; first by left.
by have [F'|V'] := T a'; [left|right] => b'; rewrite O.
Qed.
Lemma req_tidy r a m c : tidy c -> tidy (req r a m c).1.
Proof.
move=> T; have ne : 0 < size (accesses r) by case: r.
have := all_tidy a m T ne; rewrite /pseudo_request.
by case: ifP => _; [move=> [c' [-> _ T']]|move=> ->].
Qed.
Lemma after_tidy l : tidy (after attached kz av mv ev l).
Proof.
rewrite /after -[l]revK foldl_rev; elim: (rev l) => [|x s IH] /=; first by right; case.
exact: req_tidy.
Qed.
Lemma pseudo_once l r a m c' v r' : req r a m (after attached kz av mv ev l) = (c', Returned v) ->
  exists v', (r' = r -> v' = v) /\ forall attached' kz' av' mv' ev' d' (m' : measure),
    pseudo_request attached' kz' av' mv' ev' d' r' a m' c' = (c', Returned v').
Proof.
have ne : 0 < size (accesses r) by case: r.
have := all_tidy a m (after_tidy l) ne; rewrite /pseudo_request; case: ifP => _; last by move=> ->.
move=> [c2 [-> F _]] [<- <-].
exists (found (accesses r') a c2); split; first by move=> ->.
by move=> *; apply: all_filled.
Qed.
End Pseudo.
