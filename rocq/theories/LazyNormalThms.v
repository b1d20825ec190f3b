(* The statements about lazy distributions, from LazyNormalFacts.v. *)
From mathcomp Require Import all_ssreflect all_algebra.
From Verif Require Import NormalSpec NormalLazy LazyNormalFacts LazyNormalSpec.
Set Implicit Arguments. Unset Strict Implicit. Unset Printing Implicit Defensive.
Import Order.TTheory GRing.Theory Num.Theory.
Local Open Scope ring_scope.

Section Thms.
Variables (R : realFieldType) (n : nat).

Lemma stands_forE (x : mval R n) m : stands_for x m <-> column x = m.
Proof. by case: x => [||v] /=; split=> ->. Qed.
Lemma is_columnE (x : mval R n) : ~~ scalar0 x -> is_column x. Proof. by case: x. Qed.

Lemma Forall2_impl A B (P Q : A -> B -> Prop) l r : (forall a b, P a b -> Q a b) -> List.Forall2 P l r -> List.Forall2 Q l r.
Proof. by move=> H; elim=> //= a b l' r' h _ IH; constructor=> //; apply: H. Qed.
Lemma Forall2_r A B (P : A -> B -> Prop) (Q : B -> Prop) l r : (forall a b, P a b -> Q b) -> List.Forall2 P l r -> List.Forall Q r.
Proof. by move=> H; elim=> //= a b l' r' h _ IH; constructor=> //; apply: H h. Qed.

Lemma answer_right m V (P : mval R n -> Prop) a r : (forall x, P x -> stands_for x m) -> answer_ok m V P a r -> right m V a r.
Proof.
move=> H; case: a; case: r => //= *; repeat match goal with h : _ /\ _ |- _ => case: h => ? ? | h : [/\ _, _ & _] |- _ => case: h => ? ? ? end; subst; repeat split; eauto using is_columnE.
by rewrite !mxE big_ord1 !mxE.
Qed.

Lemma distribution_right (o : obj R n) m V l : distribution o m V -> exists rs, ask o l = Some rs /\ all_right m V l rs.
Proof.
move=> D; pose P x := stands_for (R:=R) (n:=n) x m.
have H1 x : P x -> column x = m by move=> /stands_forE.
have H2 : P MScalar0 -> P (MVec 0) by [].
have C : consistent m V P (o_ctor o) (o_attrs o).
  case: D => [x -> h|x d mv md -> h hd hmv hmd]; split=> //=.
  - by case: d hd => //= f /(_ f erefl).
  - by case: mv hmv => //= -[x' v] /(_ x' v erefl) [? ->].
  - by case: md hmd => //= -[x' f] /(_ x' f erefl).
have [rs [E F]] := answersP H1 H2 l C; exists rs; split=> //.
by apply: Forall2_impl F => a r; apply: answer_right.
Qed.

Lemma noise_as_matrixE (e : noise R n) : noise_as_matrix e = \matrix_(i, j) noise_var e i j.
Proof.
apply/matrixP => i j; case: e => [|a|d|A]; rewrite !mxE //=; first by case: eqP.
by case: eqP => //= ->.
Qed.
Lemma fdd_distribution (x : mval R n) (k : 'M[R]_n) d (e : noise R n) : (forall i, d i = k i i) ->
  distribution (fdd x k d e) (column x) (k + \matrix_(i, j) noise_var e i j).
Proof.
move=> h; have s := (stands_forE x (column x)).2 erefl.
apply: (by_functions (o:=fdd x k d e) (x:=x)) => //.
- by rewrite -noise_as_matrixE.
- by move=> f [<-] i; rewrite noise_as_matrixE !mxE h.
- by move=> x' v [<- <-]; rewrite noise_as_matrixE.
- by move=> x' f [<- <-]; split=> // i; rewrite noise_as_matrixE !mxE h.
Qed.
Lemma fdd_right (x : mval R n) (k : 'M[R]_n) d (e : noise R n) l : (forall i, d i = k i i) ->
  exists rs, ask (fdd x k d e) l = Some rs /\ all_right (column x) (k + \matrix_(i, j) noise_var e i j) l rs.
Proof. by move=> h; apply: distribution_right; apply: fdd_distribution. Qed.
Lemma fdd_same (x : mval R n) (k : 'M[R]_n) d (e : noise R n) l : (forall i, d i = k i i) -> is_column x ->
  exists rs, ask (fdd x k d e) l = Some rs /\ List.Forall (same_mean x) rs.
Proof.
move=> h hx; pose P y := y = x.
have H1 y : P y -> column y = column x by move=> ->.
have H2 : P MScalar0 -> P (MVec 0) by move=> e0; case: hx.
have C : consistent (column x) (k + noise_as_matrix e) P (o_ctor (fdd x k d e)) (o_attrs (fdd x k d e)).
  split=> //=; [|split=> //]; by move=> i; rewrite mxE h.
have [rs [E F]] := answersP H1 H2 l C; exists rs; split=> //.
apply: Forall2_r F => a r; case: a; case: r => //= y; by [case | move=> ? [] | move=> ? []].
Qed.

Lemma scalar_mean : exists (o : obj R n) m V, distribution o m V /\
  ask o [:: AMeanVar; AMean; AMeanVar] = Some [:: RMeanVar MScalar0 V; RMean (MVec 0); RMeanVar (MVec 0) V].
Proof.
exists (normal_direct MScalar0 0), 0, 0; split; first exact: (by_values (x:=MScalar0)).
by [].
Qed.
End Thms.

(* A distribution that is not trivial. *)
Lemma ex_lazy (R : realFieldType) : exists (x : mval R 2) (k : 'M[R]_2) d,
  [/\ forall i, d i = k i i, is_column x, k 0 1 <> 0 & column x <> 0].
Proof.
exists (MVec (const_mx 1)), (const_mx 2%:R), (fun=> 2%:R); split=> [i|||]; rewrite ?mxE //.
  by move/eqP; rewrite pnatr_eq0.
by move/matrixP/(_ 0 0)/eqP; rewrite !mxE oner_eq0.
Qed.
