(* Models with products of processes and derivatives. *)
From Coq Require Import List.
From mathcomp Require Import all_ssreflect all_algebra.
From Verif Require Import Graph Machine Refine GraphSpec RV Typing ModelSpec.
Set Implicit Arguments. Unset Strict Implicit. Unset Printing Implicit Defensive.
Import GRing.Theory.
Local Open Scope ring_scope.

Section ProdSpec.
Variable R : fieldType.
Notation world := (world R). Notation point := (point R).
Variable D : nat -> (point -> R) -> point -> R.

(* Derivatives are finite differences; their grid, coefficients and step are arbitrary. *)
Definition differences : Prop := exists cs : nat -> seq (R * (point -> point)),
  forall d f x, D d f x = \sum_(c <- cs d) c.1 * f (c.2 x).

(* As [plain], but with products of processes. *)
Variables (mu : pid -> point -> R) (ka : pid -> point -> point -> R).
Fixpoint mixed (w : world) (ops : seq (op R)) : Prop :=
  match ops with
  | [::] => True
  | o :: ops' => (if o is OMul _ _ _ then True else plain_op D mu ka w o) /\ mixed (step w o).1 ops'
  end.

(* The factors of products have values, in all measures. *)
Definition factors (dif : bool) (ops : seq (op R)) : Prop :=
  forall p q ord m, In (OMul p q ord) ops -> p \in members (run_ops ops) m -> q \in members (run_ops ops) m ->
    width dif (w_log (run_ops ops) m) p (Num [:: [::]]) = Some 1%N /\
    width dif (w_log (run_ops ops) m) q (Num [:: [::]]) = Some 1%N.

(* Process [p] is the independent part of a product of processes (measure.py:254-259). *)
Definition product_part (ops : seq (op R)) (p : pid) : Prop :=
  exists m f g ord a b k1 k2 k3 k4, let w := run_ops ops in
  [/\ defined w m p (DInd (MMul (MScale (-1) a) b) (KAdd (KMul k1 k2) (KMul k3 k4))), In (OMul f g ord) ops,
      see_m w m f = Some a /\ see_m w m g = Some b, see_k w m f f = Some k1 /\ see_k w m g g = Some k2 &
      see_k w m f g = Some k3 /\ see_k w m g f = Some k4].
End ProdSpec.
