(* What the product of two jointly Gaussian processes is (C23, C24).

   Random variables are the elements of a commutative algebra with a linear expectation; a
   set of them is jointly Gaussian as far as moments of order up to four are concerned. *)
From mathcomp Require Import all_ssreflect all_algebra.
From Verif Require Import Graph Machine GraphSpec RV ModelSpec Sound.
Set Implicit Arguments. Unset Strict Implicit. Unset Printing Implicit Defensive.
Import GRing.Theory.
Local Open Scope ring_scope.

Section MulSpec.
Variables (R : fieldType) (A : comAlgType R) (E : A -> R).
Definition expectation : Prop := [/\ forall a b, E (a + b) = E a + E b, forall c a, E (c *: a) = c * E a & E 1 = 1].
Definition covar (a b : A) : R := E (a * b) - E a * E b.
Definition centred (a : A) : A := a - (E a)%:A.
(* Third central moments vanish, fourth central moments are given by the covariances. *)
Definition gaussian (S : A -> Prop) : Prop :=
  (forall a b c, S a -> S b -> S c -> E (centred a * centred b * centred c) = 0) /\
  (forall a b c d, S a -> S b -> S c -> S d ->
     E (centred a * centred b * centred c * centred d) =
     covar a b * covar c d + covar a c * covar b d + covar a d * covar b c).

(* The random functions [X] (of an input and the number of an element) have the means and the
   covariances that measure [m] gives to the processes [ps]. *)
Definition realises D (w : world R) (m : mid) (ps : seq pid) (X : pid -> input R -> nat -> A) : Prop :=
  (forall p x e i, p \in ps -> atom x -> mean_is D w m p x e -> (i < size e)%N -> E (X p x i) = nth 0 e i) /\
  (forall p q x y M i j, p \in ps -> q \in ps -> atom x -> atom y -> cov_is D w m p q x y M ->
     (i < nr M)%N -> (j < nc M)%N -> covar (X p x i) (X q y j) = ent M i j).
Definition jointly_gaussian (ps : seq pid) (X : pid -> input R -> nat -> A) : Prop :=
  gaussian (fun a => exists p x i, p \in ps /\ a = X p x i).
End MulSpec.
