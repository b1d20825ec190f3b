(* Expressions with normal distributions (random.py:18-37, 365-393): their value by the code,
   and the random vector that they stand for. *)
From mathcomp Require Import all_ssreflect all_algebra.
From Verif Require Import RV NormalSpec Normal.
Set Implicit Arguments. Unset Strict Implicit. Unset Printing Implicit Defensive.
Import Order.TTheory GRing.Theory Num.Theory.
Local Open Scope ring_scope.

(* Variable [k] is a distribution over vectors of length [dim k]. *)
Inductive nexp (R : Type) (dim : nat -> nat) : nat -> Type :=
| NVar k : nexp R dim (dim k)                                               (* the distribution itself *)
| NAdd n (e e' : nexp R dim n) : nexp R dim n                               (* e + e' *)
| NAddC n (e : nexp R dim n) (c : 'cV[R]_n) : nexp R dim n                  (* e + c *)
| NCAdd n (c : 'cV[R]_n) (e : nexp R dim n) : nexp R dim n                  (* c + e *)
| NSub n (e e' : nexp R dim n) : nexp R dim n                               (* e - e' *)
| NSubC n (e : nexp R dim n) (c : 'cV[R]_n) : nexp R dim n                  (* e - c *)
| NCSub n (c : 'cV[R]_n) (e : nexp R dim n) : nexp R dim n                  (* c - e *)
| NNeg n (e : nexp R dim n) : nexp R dim n                                  (* -e *)
| NMul n (e : nexp R dim n) (a : R) : nexp R dim n                          (* e * a *)
| NCMul n (a : R) (e : nexp R dim n) : nexp R dim n                         (* a * e *)
| NDiv n (e : nexp R dim n) (a : R) : nexp R dim n                          (* e / a *)
| NLeft n k (B : 'M[R]_(k, n)) (e : nexp R dim n) : nexp R dim k            (* e.lmatmul(B) *)
| NRight n k (B : 'M[R]_(n, k)) (e : nexp R dim n) : nexp R dim k.          (* e.rmatmul(B) *)
Arguments NVar {R dim} k.

(* The variables, with repetitions. *)
Fixpoint nvars (R : Type) dim n (e : nexp R dim n) : seq nat :=
  match e with
  | NVar k => [:: k]
  | NAdd _ e e' | NSub _ e e' => nvars e ++ nvars e'
  | NAddC _ e _ | NCAdd _ _ e | NSubC _ e _ | NCSub _ _ e | NNeg _ e | NMul _ e _ | NCMul _ _ e | NDiv _ e _
  | NLeft _ _ _ e | NRight _ _ _ e => nvars e
  end.

(* What the code computes. *)
Fixpoint ncode (R : rcfType) dim (env : forall k, normal R (dim k)) n (e : nexp R dim n) : normal R n :=
  match e with
  | NVar k => env k
  | NAdd _ e e' => nadd (ncode env e) (ncode env e')
  | NAddC _ e c => nadd_const (ncode env e) c
  | NCAdd _ c e => nadd_const (ncode env e) c
  | NSub _ e e' => nsub (ncode env e) (ncode env e')
  | NSubC _ e c => nsub_const (ncode env e) c
  | NCSub _ c e => nrsub_const c (ncode env e)
  | NNeg _ e => nneg (ncode env e)
  | NMul _ e a => nmul (ncode env e) a
  | NCMul _ a e => nmul (ncode env e) a
  | NDiv _ e a => ndiv (ncode env e) a
  | NLeft _ _ B e => nlmatmul B (ncode env e)
  | NRight _ _ B e => nrmatmul B (ncode env e)
  end.

Section Vectors.
Variables (R : fieldType) (W : space R).
Notation V := (rv W).

(* The linear combination of the entries of a random vector. *)
Definition rlin n (c : 'I_n -> R) (X : 'I_n -> V) : V :=
  foldr (fun j v => radd (rscale (c j) (X j)) v) (rconst W 0) (enum 'I_n).

(* The random vector [X] has mean [m] and variance [S]. *)
Definition moments n (X : 'I_n -> V) (m : 'cV[R]_n) (S : 'M[R]_n) : Prop :=
  (forall i, Ex (X i) = m i 0) /\ (forall i j, cov (X i) (X j) = S i j).
(* Standard: mean zero and variance the identity. *)
Definition standard n (X : 'I_n -> V) : Prop := moments X 0 1%:M.

(* The random vector of an expression, given those of its variables. *)
Fixpoint npush dim (X : forall k, 'I_(dim k) -> V) n (e : nexp R dim n) : 'I_n -> V :=
  match e in nexp _ _ n return 'I_n -> V with
  | NVar k => X k
  | NAdd _ e e' => fun i => radd (npush X e i) (npush X e' i)
  | NAddC _ e c => fun i => radd (npush X e i) (rconst W (c i 0))
  | NCAdd _ c e => fun i => radd (rconst W (c i 0)) (npush X e i)
  | NSub _ e e' => fun i => rsub (npush X e i) (npush X e' i)
  | NSubC _ e c => fun i => rsub (npush X e i) (rconst W (c i 0))
  | NCSub _ c e => fun i => rsub (rconst W (c i 0)) (npush X e i)
  | NNeg _ e => fun i => rscale (-1) (npush X e i)
  | NMul _ e a => fun i => rscale a (npush X e i)
  | NCMul _ a e => fun i => rscale a (npush X e i)
  | NDiv _ e a => fun i => rscale a^-1 (npush X e i)
  | NLeft _ _ B e => fun i => rlin (fun j => B i j) (npush X e)
  | NRight _ _ B e => fun i => rlin (fun j => B j i) (npush X e)
  end.
End Vectors.
