(* Theorems about products of processes: C23, C24 (and C11, which C24 refutes for products).
   Statements use MulSpec.v; all proofs are elsewhere.

   The process [r] is the product of [p] and [q], in a measure [m] in which it was formed.  For
   random functions [X] that have the means and covariances that [m] gives to the processes
   [ps] and that are jointly Gaussian, the covariances of [r] are those of the product of the
   random functions, and so are its covariances with processes that existed before it.  Its
   mean differs from that of the product by the covariance of the factors. *)
From mathcomp Require Import all_ssreflect all_algebra.
From Verif Require Import Graph Machine GraphSpec RV Sound ModelSpec MulSpec MulFacts ExMul.
Set Implicit Arguments. Unset Strict Implicit. Unset Printing Implicit Defensive.
Import GRing.Theory.
Local Open Scope ring_scope.

Section Products.
Variables (R : fieldType) (A : comAlgType R) (E : A -> R).
Variable D : nat -> (point R -> R) -> point R -> R.
Variables (ops : seq (op R)) (p q r : pid) (ord : seq mid) (w1 : world R) (ops' : seq (op R)) (m : mid).
Hypothesis St : step (run_ops ops) (OMul p q ord) = (w1, ROk (RPid R r)).
Hypothesis Hr : r \in members w1 m.
Let w := run_from w1 ops'.
Variables (ps : seq pid) (X : pid -> input R -> nat -> A).
Hypotheses (HE : expectation E) (Re : realises E D w m ps X) (Gs : jointly_gaussian E ps X).
Hypotheses (Hp : p \in ps) (Hq : q \in ps).

Theorem C23_product_covariance x y M : atom x -> atom y -> cov_is D w m r r x y M ->
  forall i j, (i < nr M)%N -> (j < nc M)%N ->
  ent M i j = covar E (X p x i * X q x i) (X p y j * X q y j).
Proof. exact (mul_cov St Hr HE Re Gs Hp Hq (x:=x) (y:=y) (M:=M)). Qed.

Theorem C23_product_cross_covariance s x y M : s \in members (run_ops ops) m -> s \in ps -> atom x -> atom y ->
  cov_is D w m r s x y M -> forall i j, (i < nr M)%N -> (j < nc M)%N ->
  ent M i j = covar E (X p x i * X q x i) (X s y j).
Proof. exact (mul_cross St Hr HE Re Gs Hp Hq (s:=s) (x:=x) (y:=y) (M:=M)). Qed.

Theorem C24_product_mean_partial x e : mean_is D w m r x e -> atom x -> forall i, (i < size e)%N ->
  nth 0 e i = E (X p x i * X q x i) - covar E (X p x i) (X q x i).
Proof. exact (mul_mean_covar St Hr Re Hp Hq (x:=x) (e:=e)). Qed.
End Products.
Print Assumptions C23_product_covariance.
Print Assumptions C23_product_cross_covariance.
Print Assumptions C24_product_mean_partial.

(* The product of f and f + 1, where f has mean and variance one. *)
Example products_exist (R : fieldType) D : exists (ops : seq (op R)) p q ord w1 r m ps (X : pid -> input R -> nat -> {poly R}) E M N e,
  let x := Num [:: [::]] in
  [/\ step (run_ops ops) (OMul p q ord) = (w1, ROk (RPid R r)), r \in members w1 m /\ p \in members (run_ops ops) m,
      expectation E /\ jointly_gaussian E ps X, realises E D w1 m ps X /\ (p \in ps /\ q \in ps) &
  [/\ cov_is D w1 m r r x x M /\ (nr M, nc M) = (1, 1)%N, cov_is D w1 m r p x x N /\ (nr N, nc N) = (1, 1)%N,
      mean_is D w1 m r x e /\ size e = 1%N & ent M 0 0 = 11%:R]].
Proof. exact: g_example. Qed.

(* The mean of the product of jointly Gaussian processes is not always the mean of the process
   that is returned. *)
Theorem C24_product_mean_refuted (R : fieldType) D : exists (ops : seq (op R)) p q ord w1 r m ps (X : pid -> input R -> nat -> {poly R}) E e,
  let x := Num [:: [::]] in
  [/\ step (run_ops ops) (OMul p q ord) = (w1, ROk (RPid R r)), p \in ps /\ q \in ps,
      expectation E /\ jointly_gaussian E ps X, realises E D w1 m ps X &
      (mean_is D w1 m r x e /\ size e = 1%N) /\ nth 0 e 0 <> E (X p x 0%N * X q x 0%N)].
Proof. exact: g_refuted. Qed.
Print Assumptions C24_product_mean_refuted.
