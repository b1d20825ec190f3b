(* Models without restrictions on the operations and their order. *)
From Coq Require Import List.
From mathcomp Require Import all_ssreflect all_algebra.
From Verif Require Import Graph Machine Refine GraphSpec RV Typing ModelSpec ProdSpec SymSpec.
Set Implicit Arguments. Unset Strict Implicit. Unset Printing Implicit Defensive.
Import GRing.Theory.
Local Open Scope ring_scope.

Section ExactSpec.
Variable R : fieldType.
Notation world := (world R). Notation point := (point R).
Variable D : nat -> (point -> R) -> point -> R.

(* The shape of the matrix of a kernel at [y] and [x] is that at [x] and [y], transposed. *)
Definition shaped_kernel (w : world) (k : kexp R) : Prop := forall n n' x y M M',
  evk (see_k w) (see_m w) D n k x y = Some M -> evk (see_k w) (see_m w) D n' k y x = Some M' ->
  nr M' = nc M /\ nc M' = nr M.

(* The means and kernels of independently constructed processes are functions of the points,
   [ka p] and [mu p] for process [p], and noise is symmetric. *)
Variables (mu : pid -> point -> R) (ka : pid -> point -> point -> R).
Definition given_op (w : world) (o : op R) : Prop :=
  match o with
  | OGP _ mu' k => is_mean D mu' (mu (w_np w)) /\ is_kernel D k (ka (w_np w))
  | OCond _ ob => square_sym (o_noise ob)
  | _ => True
  end.
Fixpoint general (w : world) (ops : seq (op R)) : Prop :=
  match ops with
  | [::] => True
  | o :: ops' => given_op w o /\ general (step w o).1 ops'
  end.

(* Process [p] of measure [m] is the independent part of the product of [f] and [g]
   (measure.py:254-259). *)
Definition part_of (ops : seq (op R)) (m : mid) (p f g : pid) : Prop :=
  exists ord a b k1 k2 k3 k4, let w := run_ops ops in
  [/\ defined w m p (DInd (MMul (MScale (-1) a) b) (KAdd (KMul k1 k2) (KMul k3 k4))), In (OMul f g ord) ops,
      see_m w m f = Some a /\ see_m w m g = Some b, see_k w m f f = Some k1 /\ see_k w m g g = Some k2 &
      see_k w m f g = Some k3 /\ see_k w m g f = Some k4].

(* Process [q] of measure [m] is not built from processes of [add_gp] and not from products
   with a factor that has several outputs. *)
Fixpoint covered (dif : bool) (ops : seq (op R)) (m : mid) (h : hist R) (q : pid) : Prop :=
  match h with
  | HRoot => True
  | HPost pm par o => q \in pids par -> covered dif ops pm par q /\ forall a, a \in o_pids o -> covered dif ops pm par a
  | HAdd r d rest =>
    if q == r then
      match d with
      | DInd _ _ => forall f g, part_of ops m r f g ->
          [/\ single rest f, single rest g, width dif rest f (Num [:: [::]]) = Some 1%N,
              width dif rest g (Num [:: [::]]) = Some 1%N & covered dif ops m rest f /\ covered dif ops m rest g]
      | DUser _ _ _ => False
      | _ => forall a, a \in needs d -> covered dif ops m rest a
      end
    else covered dif ops m rest q
  end.

(* [M] is not larger than the covariance matrix of [u] and [v], and it is that matrix if it is
   not smaller. *)
Definition covmat_at_most (W : space R) (M : dmat R) (u v : seq (rv W)) : Prop :=
  [/\ (nr M <= size u)%N, (nc M <= size v)%N & nr M = size u -> nc M = size v -> covmat M u v].
End ExactSpec.
