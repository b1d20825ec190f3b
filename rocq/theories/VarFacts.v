(* Joint covariances are positive semi-definite, and conditioning reduces them. *)
From Coq Require Import List.
From mathcomp Require Import all_ssreflect all_algebra.
From mathcomp Require Import zify.
From Verif Require Import Graph Machine Refine Worlds Eval GraphSpec GraphProofs GraphOps RV RVProofs Sound Typing ModelSpec ModelFacts Cond CondFacts CrossFacts.
Set Implicit Arguments. Unset Strict Implicit. Unset Printing Implicit Defensive.
Import GRing.Theory Num.Theory.
Local Open Scope ring_scope.

Section Sums.
Variables (R : fieldType) (W : space R).
Notation V := (rv W). Notation Ex := (@Ex R W). Notation cov := (@cov R W).
Implicit Types (us : seq (seq V)) (B : nat -> nat -> dmat R).

(* The linear combination of the entries of [k] random vectors. *)
Definition comb k (u : nat -> seq V) (c : nat -> nat -> R) : V :=
  rsum k (fun i => rsum (size (u i)) (fun a => rscale (c i a) (vget (u i) a))).

Lemma comb_cov k u c B : (forall i j, (i < k)%N -> (j < k)%N -> covmat (B i j) (u i) (u j)) ->
  block_quad k B c = cov (comb k u c) (comb k u c).
Proof.
move=> H; rewrite /block_quad cov_sum; apply: eq_bigr => i _; rewrite cov_sumr; apply: eq_bigr => j _.
have [-> -> e] := H i j (ltn_ord i) (ltn_ord j); rewrite cov_sum; apply: eq_bigr => a _; rewrite cov_sumr.
by apply: eq_bigr => b _; rewrite e // covZ [cov _ (rscale _ _)]covC covZ (covC (vget (u j) b)) mulrA.
Qed.

Lemma given_sum e y dat n F : aseq (given e y dat (rsum n F)) (rsum n (fun k => @given _ W e y dat (F k))).
Proof.
rewrite /rsum; elim: (iota 0 n) => [|k l IH] /=; first exact: given_const.
apply: aseq_trans (given_add _ _ _ _ _) _; exact: aseq_add.
Qed.
Lemma given_comb e y dat k u c :
  aseq (given e y dat (comb k u c)) (comb k (fun i => map (given e y dat) (u i)) c).
Proof.
apply: aseq_trans (given_sum _ _ _ _ _) _; apply: aseq_sum => i _; rewrite size_map.
apply: aseq_trans (given_sum _ _ _ _ _) _; apply: aseq_sum => a la.
by rewrite {2}/vget (nth_map (rone W)) //; apply: given_scale.
Qed.

Lemma aseq_cov (a b : V) : aseq a b -> cov a a = cov b b.
Proof. by case=> _ H; rewrite H covC H. Qed.
End Sums.

Section Real.
Variables (R : realFieldType) (W : space R).
Hypothesis NN : nonneg W.
Notation V := (rv W). Notation Ex := (@Ex R W). Notation cov := (@cov R W).

Lemma form_ge0 e (dat : seq V) (a : V) : gS e dat \in unitmx ->
  0 <= (gc e dat a *m invmx (gS e dat) *m (gc e dat a)^T) 0 0.
Proof.
move=> U; set b := gc e dat a *m _.
pose t := rsum (size dat) (fun k => rscale (if insub k is Some k' then b 0 k' else 0) (radd (vget dat k) (e k))).
have -> : (b *m (gc e dat a)^T) 0 0 = cov t t; last exact: NN.
have <- : (b *m gS e dat *m b^T) 0 0 = cov t t.
  rewrite -mulmxA mxE cov_sum; apply: eq_bigr => i _; rewrite covZ valK; congr (_ * _); rewrite mxE cov_sumr.
  by apply: eq_bigr => j _; rewrite covC covZ valK !mxE covC mulrC.
by rewrite /b mulmxKV // trmx_mul trmx_inv gS_sym mulmxA.
Qed.

Variable D : nat -> (point R -> R) -> point R -> R.
Variables (G : pid -> point R -> rv W) (eps : mid -> nat -> rv W).
Variables (ops : seq (op R)) (P : mid -> pid -> Prop).
Let w := run_ops ops.
Variable CV : mid -> pid -> pid -> input R -> input R -> dmat R -> Prop.
Hypothesis Mo : sound D G eps w P CV.
Notation is_at := (is_at D G eps w). Notation meant := (meant D G eps w P).
Notation cov_is := CV. Notation mean_is := (mean_is D w).

Lemma choose_at m l : (forall i, (i < size l)%N -> meant m (lname l i) (linput l i)) ->
  exists us, forall i, (i < size l)%N -> is_at m (lname l i) (linput l i) (nth [::] us i).
Proof.
elim: l => [|z l IH] H; first by exists [::].
have [_ [u Hu]] := H 0%N isT; have [|us Hus] := IH; first by move=> i li; apply: (H i.+1).
by exists (u :: us) => -[|i] //= li; apply: Hus.
Qed.

(* C13 *)
Lemma joint_psd m l B c : (forall i, (i < size l)%N -> meant m (lname l i) (linput l i)) ->
  (forall i j, (i < size l)%N -> (j < size l)%N -> cov_is m (lname l i) (lname l j) (linput l i) (linput l j) (B i j)) ->
  0 <= block_quad (size l) B c.
Proof.
move=> H HB; have [us Hus] := choose_at H.
rewrite (comb_cov (u := fun i => nth [::] us i)) ?NN // => i j li lj.
exact: (is_k Mo (H i li).1 (H j lj).1 (Hus i li) (Hus j lj) (HB i j li lj)).
Qed.

(* C32 *)
Lemma variance_reduction m' m o ps l B B' Kz c : conditioned w m' m o ps -> o_p o \in ps ->
  (forall i, (i < size l)%N -> lname l i \in ps) ->
  meant m (o_p o) (o_x o) -> (forall i, (i < size l)%N -> P m' (lname l i)) ->
  (forall i, (i < size l)%N -> meant m (lname l i) (linput l i)) ->
  (forall i j, (i < size l)%N -> (j < size l)%N -> cov_is m (lname l i) (lname l j) (linput l i) (linput l j) (B i j)) ->
  (forall i j, (i < size l)%N -> (j < size l)%N -> cov_is m' (lname l i) (lname l j) (linput l i) (linput l j) (B' i j)) ->
  cov_is m (o_p o) (o_p o) (o_x o) (o_x o) Kz ->
  let n := nr Kz in nr (o_noise o) = n -> nc (o_noise o) = n ->
  mx_at Kz n n + mx_at (o_noise o) n n \in unitmx ->
  block_quad (size l) B' c <= block_quad (size l) B c.
Proof.
move=> C Ho Hp [Pz [d Hd]] P' H HB HB' Ez n N1 N2 U; have [us Hus] := choose_at H.
have [sd _] := vary_K Mo Pz Hd Ez; rewrite -/n in sd; rewrite sd in N1 N2.
have Uv := unit_vary Mo Pz Hd Ez U; rewrite /inv_at -(cond_S Mo C Ho Hd erefl N1 N2) in Uv.
rewrite [X in _ <= X](comb_cov (u := fun i => nth [::] us i)); last first.
  by move=> i j li lj; apply: (is_k Mo (H i li).1 (H j lj).1 (Hus i li) (Hus j lj) (HB i j li lj)).
rewrite (comb_cov (u := fun i => map (given (eps m') (o_y o) d) (nth [::] us i))); last first.
  move=> i j li lj; apply: (is_k Mo (P' i li) (P' j lj) _ _ (HB' i j li lj)).
    exact: (cond_at C (Hp i li) Ho (Hus i li) Hd).
  exact: (cond_at C (Hp j lj) Ho (Hus j lj) Hd).
rewrite -(aseq_cov (given_comb _ _ _ _ _ _)) given_cov // ler_subl_addr ler_addl.
exact: form_ge0.
Qed.
End Real.
