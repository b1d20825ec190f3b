(* The real numbers of the standard library as an instance of the statements about normal
   distributions: their logarithm, a square root of matrices, and two distributions. *)
From Coq Require Import Reals Lra ClassicalEpsilon.
From mathcomp Require Import all_ssreflect all_algebra.
From mathcomp Require Import ring.
From Verif Require Import Reals_field NormalSpec MatrixFacts Spectral Normal NormalExp RV Formal.
Set Implicit Arguments. Unset Strict Implicit. Unset Printing Implicit Defensive.
Import Order.TTheory GRing.Theory Num.Theory.
Local Open Scope ring_scope.

Lemma R_logarithm : logarithm (Rpower.ln : R -> R).
Proof.
split=> [x y /RltbP hx /RltbP hy|x /RltbP h0 /eqP h1]; first exact: ln_mult.
apply/RltbP; have ne : Rpower.ln x <> R0 by move=> e; apply: h1; rewrite -(exp_ln x h0) e exp_0.
have := exp_ineq1 _ ne; rewrite exp_ln //.
have -> : x - 1 = Rminus x R1 :> R by [].
lra.
Qed.
Lemma R_pi : 0 < (PI : R). Proof. apply/RltbP; exact PI_RGT_0. Qed.
Lemma R_e : 0 < (exp R1 : R). Proof. by apply/RltbP/exp_pos. Qed.
Lemma R_lne : Rpower.ln (exp R1) = 1 :> R. Proof. exact: ln_exp. Qed.

Definition R_root n (A : 'M[R]_n) : 'M[R]_n := epsilon (inhabits 0) (is_root A).
Lemma R_rootP n (A : 'M[R]_n) : psd A -> is_root A (R_root A).
Proof. by move=> /root_exists; apply: epsilon_spec. Qed.

(* Variance [[2, 1], [1, 2]]. *)
Definition ex_var (R : rcfType) : 'M[R]_2 := \matrix_(i, j) (if i == j then 2%:R else 1).
Lemma ex_var_pd (R : rcfType) : pd (ex_var R).
Proof.
have -> : ex_var R = const_mx 1 + 1%:M.
  by apply/matrixP => i j; rewrite !mxE; case: eqP => _ /=; rewrite ?addr0 -?(natrD _ 1 1).
apply: pd_add.
  have -> : (const_mx 1 : 'M[R]_2) = (const_mx 1 : 'M[R]_(1, 2))^T *m const_mx 1.
    by apply/matrixP => i j; rewrite !mxE big_ord1 !mxE mulr1.
  exact: psd_gram.
by have := pd_gram (@unitmx1 R 2); rewrite trmx1 mulmx1.
Qed.
Definition ex_mean (R : rcfType) : 'cV[R]_2 := \col_i (i%:R + 1).
Definition ex_p (R : rcfType) : normal R 2 := Normal (ex_mean R) (ex_var R).
Definition ex_q (R : rcfType) : normal R 2 := Normal 0 1%:M.
Lemma pd1 (R : rcfType) n : pd (1%:M : 'M[R]_n).
Proof. by have := pd_gram (@unitmx1 R n); rewrite trmx1 mulmx1. Qed.

(* Independent random vectors with given moments. *)
Section Vectors.
Variables (R : rcfType) (dim : nat -> nat) (env : forall k, normal R (dim k)).
Hypothesis sym : forall k, (var (env k))^T = var (env k).
Definition v_mean (a : nat * nat) : R := if insub a.2 is Some i then mean (env a.1) i 0 else 0.
Definition v_kap (a b : nat * nat) : R :=
  if a.1 == b.1 then
    match @insub _ _ [subType of 'I_(dim a.1)] a.2, @insub _ _ [subType of 'I_(dim a.1)] b.2 with
    | Some i, Some j => var (env a.1) i j
    | _, _ => 0
    end
  else 0.
Lemma v_sym a b : v_kap a b = v_kap b a.
Proof.
rewrite /v_kap eq_sym; case: eqP => // <-; case: (insub a.2) => [i|]; case: (insub b.2) => [j|] //.
by rewrite -[in LHS]sym mxE.
Qed.
Lemma vectors_exist : exists (W : space R) (X : forall k, 'I_(dim k) -> rv W),
  (forall k, moments (@X k) (mean (env k)) (var (env k))) /\
  (forall k l i j, k != l -> cov (@X k i) (@X l j) = 0).
Proof.
exists (formal v_mean v_sym), (fun k i => f_atom R (k, nat_of_ord i)); split=> [k|k l i j ne]; first split=> [i|i j].
- by rewrite /= f_atom_Ex /v_mean /= valK.
- by rewrite /= f_atom_cov /v_kap /= eqxx !valK.
- by rewrite /= f_atom_cov /v_kap /= (negPf ne).
Qed.
End Vectors.

Lemma ex_normals : logarithm (Rpower.ln : R -> R) /\
  [/\ 0 < (PI : R), 0 < (exp R1 : R) & Rpower.ln (exp R1) = 1 :> R] /\
  [/\ pd (var (ex_p R_rcfType)), pd (var (ex_q R_rcfType)) & ex_p R_rcfType <> ex_q R_rcfType] /\
  (forall n (A : 'M[R]_n), psd A -> is_root A (R_root A)).
Proof.
split; first exact: R_logarithm.
split; first by split; [exact: R_pi | exact: R_e | exact: R_lne].
split; last exact: R_rootP.
split; [exact: ex_var_pd | exact: pd1 | case=> /matrixP /(_ 0 0); rewrite !mxE add0r].
by move/eqP; rewrite oner_eq0.
Qed.
Lemma ex_missing (R : rcfType) : exists (x : 'cV[option R]_3) (f : 'I_2 -> 'I_3) (y : 'cV[R]_2),
  [/\ pd (1%:M : 'M[R]_3), injective f, forall i, isSome (x i 0) = (i \in codom f) & forall i, x (f i) 0 = Some (y i 0)].
Proof.
exists (\col_i if (i < 2)%N then Some (i%:R) else None), (widen_ord (leqnSn 2)), (\col_i i%:R); split.
- exact: pd1.
- by move=> i j /(congr1 val) e; apply: val_inj.
- move=> i; rewrite mxE; apply/idP/codomP => [|[j ->]]; last by rewrite /= ltn_ord.
  by case: ifP => // l _; exists (Ordinal l); apply: val_inj.
- by move=> i; rewrite !mxE /= ltn_ord.
Qed.
Lemma ex_standard (R : rcfType) n : exists (W : space R) (Z : 'I_n -> rv W), standard Z.
Proof.
pose env (k : nat) : normal R ((fun=> n) k) := Normal 0 1%:M.
have s k : (var (env k))^T = var (env k) by rewrite trmx1.
have [W [X [M _]]] := vectors_exist s; exists W, (X 0%N); exact: (M 0%N).
Qed.
