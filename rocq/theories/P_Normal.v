(* Theorems about normal distributions: C39-C41, C43-C46, C59.  Statements use NormalSpec.v and
   NormalExp.v; all proofs are elsewhere.

   The field is any real closed field, [ln] any logarithm and [pi] any number; [root] is any
   function that takes square roots of positive semi-definite matrices.  The real numbers of
   the standard library are an instance: see the examples. *)
From Coq Require Import Reals.
From mathcomp Require Import all_ssreflect all_algebra.
From Verif Require Import NormalSpec Normal NormalExp NormalFacts NormalRVFacts RV Reals_field ExNormal DiagonalFacts.
Set Implicit Arguments. Unset Strict Implicit. Unset Printing Implicit Defensive.
Import Order.TTheory GRing.Theory Num.Theory.
Local Open Scope ring_scope.

(* C39 *)
Theorem C39_marginals (R : rcfType) n (p : normal R n) i :
  [/\ (marginals p).1 i = mean p i 0, 0 <= (marginals p).2 i & 0 <= var p i i -> (marginals p).2 i = var p i i].
Proof. exact (marginalsP p i). Qed.
Theorem C39_credible_bounds (R : rcfType) n (p : normal R n) i :
  let m := (credible_bounds p).1.1 in let lower := (credible_bounds p).1.2 in let upper := (credible_bounds p).2 in
  [/\ m i = mean p i 0, lower i <= m i, m i <= upper i &
    exists sd, [/\ 0 <= sd, sd ^+ 2 = (marginals p).2 i,
      m i - lower i = 196%:R / 100%:R * sd & upper i - m i = 196%:R / 100%:R * sd]].
Proof. exact (credibleP p i). Qed.

Section Densities.
Variables (R : rcfType) (ln : R -> R) (pi : R).
Hypothesis LN : logarithm ln.

(* C40 *)
Theorem C40_logpdf n c m V (X : 'M[R]_(n, c)) : pd V ->
  logpdf ln pi (Normal m V) (map_mx Some X) = squeeze [seq Some (mvn_logpdf ln pi m V (col j X)) | j <- enum 'I_c].
Proof. exact (logpdf_fullE pi LN (n:=n) (c:=c) m (V:=V) X). Qed.

(* C41: [f] enumerates the entries that are not missing, in any order. *)
Theorem C41_logpdf_missing n m V (x : 'cV[option R]_n) k (f : 'I_k -> 'I_n) (y : 'cV[R]_k) :
  pd V -> injective f -> (forall i, isSome (x i 0) = (i \in codom f)) -> (forall i, x (f i) 0 = Some (y i 0)) ->
  logpdf ln pi (Normal m V) x =
  One (Some (mvn_logpdf ln pi (\col_i m (f i) 0) (\matrix_(i, j) V (f i) (f j)) y)).
Proof. exact (logpdf_missing' pi LN (n:=n) m (V:=V) (x:=x) (k:=k) (f:=f) (y:=y)). Qed.

(* C43 *)
Theorem C43_kl_nonneg n (p q : normal R n) : pd (var p) -> pd (var q) -> 0 <= kl ln p q.
Proof. exact (kl_ge0 LN (n:=n) (p:=p) (q:=q)). Qed.
Theorem C43_kl_zero n (p q : normal R n) : pd (var p) -> pd (var q) -> (kl ln p q = 0 <-> p = q).
Proof. exact (kl_eq0 LN (n:=n) (p:=p) (q:=q)). Qed.
Theorem C43_kl_closed_form n (p q : normal R n) : pd (var p) -> pd (var q) ->
  kl ln p q = (\tr (invmx (var q) *m var p) + qf (invmx (var q)) (mean p - mean q) - n%:R
               + ln (\det (var q)) - ln (\det (var p))) / 2%:R.
Proof. exact (kl_closed LN (n:=n) (p:=p) (q:=q)). Qed.
Theorem C43_entropy n (p : normal R n) (e : R) : pd (var p) -> 0 < pi -> 0 < e -> ln e = 1 ->
  entropy ln pi p = ln (\det ((2%:R * pi * e) *: var p)) / 2%:R.
Proof. exact (entropyE LN (n:=n) (p:=p) (e:=e)). Qed.

(* C59: the marginals stay, the correlations go, the density factorises, and no distribution
   without correlations is closer. *)
Theorem C59_marginals n (p : normal R n) i : (marginals (diagonalise p)).1 i = (marginals p).1 i /\
  (marginals (diagonalise p)).2 i = (marginals p).2 i.
Proof. exact (diag_marginals p i). Qed.
Theorem C59_covariances n (p : normal R n) i j : var (diagonalise p) i j = if i == j then var p i i else 0.
Proof. exact (diag_cov p i j). Qed.
Theorem C59_logpdf n (p : normal R n) (x : 'cV[R]_n) : (forall i, 0 < var p i i) ->
  logpdf ln pi (diagonalise p) (map_mx Some x) =
  One (Some (\sum_i mvn_logpdf ln pi (mean p i 0)%:M ((var p i i)%:M : 'M_1) (x i 0)%:M)).
Proof. exact (diag_logpdf pi LN (n:=n) (p:=p) x). Qed.
Theorem C59_closest n (p q : normal R n) : pd (var p) -> pd (var q) -> (forall i j, i != j -> var q i j = 0) ->
  kl ln p (diagonalise p) <= kl ln p q.
Proof. exact (kl_diag_le LN (n:=n) (p:=p) (q:=q)). Qed.
End Densities.

(* C44 *)
Section Wasserstein.
Variables (R : rcfType) (root : forall n, 'M[R]_n -> 'M[R]_n).
Hypothesis root_spec : forall n (A : 'M[R]_n), psd A -> is_root A (root A).
Theorem C44_w2_nonneg n (p q : normal R n) : 0 <= w2 root p q.
Proof. exact (w2_ge0 root p q). Qed.
Theorem C44_w2_symmetric n (p q : normal R n) : psd (var p) -> psd (var q) -> w2 root p q = w2 root q p.
Proof. exact (w2_sym root_spec (n:=n) (p:=p) (q:=q)). Qed.
Theorem C44_w2_identical n (p : normal R n) : psd (var p) -> w2 root p p = 0.
Proof. exact (w2_refl root_spec (n:=n) (p:=p)). Qed.
Theorem C44_w2_equal_variances n (p q : normal R n) : psd (var p) -> var p = var q ->
  w2 root p q = Num.sqrt (norm2 (mean p - mean q)).
Proof. exact (w2_same_var root_spec (n:=n) (p:=p) (q:=q)). Qed.
(* Rounding aside, the maximum with zero has no effect, and only identical distributions are
   at distance zero. *)
Theorem C44_w2_zero n (p q : normal R n) : pd (var p) -> pd (var q) -> (w2 root p q = 0 <-> p = q).
Proof. exact (w2_eq0 root_spec (n:=n) (p:=p) (q:=q)). Qed.
Theorem C44_w2_square n (p q : normal R n) : pd (var p) -> pd (var q) ->
  w2 root p q ^+ 2 = norm2 (mean p - mean q) +
    (\tr (var p) + \tr (var q) - 2%:R * \tr (root (root (var p) *m var q *m root (var p)))).
Proof. exact (w2_sqr root_spec (n:=n) (p:=p) (q:=q)). Qed.
End Wasserstein.

(* C45: no variable occurs twice, and the random vectors behind the variables are uncorrelated. *)
Theorem C45_arithmetic (R : rcfType) (W : space R) (dim : nat -> nat)
    (env : forall k, normal R (dim k)) (X : forall k, 'I_(dim k) -> rv W) :
  (forall k, moments (@X k) (mean (env k)) (var (env k))) ->
  (forall k l i j, k != l -> cov (@X k i) (@X l j) = 0) ->
  forall n (e : nexp R dim n), uniq (nvars e) -> moments (npush X e) (mean (ncode env e)) (var (ncode env e)).
Proof. exact (npushP (R:=R) (W:=W) (dim:=dim) (env:=env) (X:=X)). Qed.

(* C46 *)
Section Sampling.
Variables (R : rcfType) (state : Type) (randn : state -> forall n num, state * 'M[R]_(n, num)).
Theorem C46_sample n (p : normal R n) noise (zero : bool) : pd (noisy (var p) noise) -> (zero -> mean p = 0) ->
  exists L : 'M[R]_n,
    (forall st num, let: (st', z) := randn st n num in
       sample randn p st num noise zero = (st', \matrix_(i, j) (mean p i 0 + \sum_k L i k * z k j))) /\
    (forall (W : space R) (Z : 'I_n -> rv W), standard Z ->
       moments (fun i => radd (rconst W (mean p i 0)) (rlin (fun k => L i k) Z)) (mean p) (noisy (var p) noise)).
Proof. exact (sampleP randn (n:=n) (p:=p) (noise:=noise) (zero:=zero)). Qed.
Theorem C46_global_state n (p : normal R n) num noise zero g :
  (sample_global randn p num noise zero g).2 = (randn g n num).1 /\
  (sample_global randn p num noise zero g).1 = (sample randn p g num noise zero).2.
Proof. exact (sample_globalP randn p num noise zero g). Qed.
End Sampling.

(* The hypotheses can be met: by the real numbers, and by two different distributions. *)
Example normals_exist : logarithm (Rpower.ln : R -> R) /\
  [/\ 0 < (PI : R), 0 < (exp R1 : R) & Rpower.ln (exp R1) = 1 :> R] /\
  [/\ pd (var (ex_p R_rcfType)), pd (var (ex_q R_rcfType)) & ex_p R_rcfType <> ex_q R_rcfType] /\
  (forall n (A : 'M[R]_n), psd A -> is_root A (R_root A)).
Proof. exact ex_normals. Qed.
(* Two entries of three are observed. *)
Example missing_exists (R : rcfType) : exists (x : 'cV[option R]_3) (f : 'I_2 -> 'I_3) (y : 'cV[R]_2),
  [/\ pd (1%:M : 'M[R]_3), injective f, forall i, isSome (x i 0) = (i \in codom f) & forall i, x (f i) 0 = Some (y i 0)].
Proof. exact (ex_missing R). Qed.
(* Independent vectors exist for all distributions, and an expression with three of them. *)
Example vectors_of_normals (R : rcfType) (dim : nat -> nat) (env : forall k, normal R (dim k)) :
  (forall k, (var (env k))^T = var (env k)) -> exists (W : space R) (X : forall k, 'I_(dim k) -> rv W),
  (forall k, moments (@X k) (mean (env k)) (var (env k))) /\
  (forall k l i j, k != l -> cov (@X k i) (@X l j) = 0).
Proof. exact (vectors_exist (env:=env)). Qed.
Example expression_exists (R : rcfType) dim (B : 'M[R]_(dim 0%N, dim 2%N)) c :
  uniq (nvars (NCSub c (NDiv (NSub (NVar 0) (NAdd (NNeg (NVar 1) : nexp R (fun=> dim 0%N) (dim 0%N)) (NVar 3))) 2%:R))).
Proof. exact isT. Qed.
(* There is a standard normal vector of every length. *)
Example standard_exists (R : rcfType) n : exists (W : space R) (Z : 'I_n -> rv W), standard Z.
Proof. exact (ex_standard R n). Qed.
Example correlated_exists (R : rcfType) : exists p : normal R 2, [/\ pd (var p), forall i, 0 < var p i i & var p 0 1 <> 0].
Proof. exact (ex_diag R). Qed.

Print Assumptions C39_marginals.
Print Assumptions C39_credible_bounds.
Print Assumptions C40_logpdf.
Print Assumptions C41_logpdf_missing.
Print Assumptions C43_kl_nonneg.
Print Assumptions C43_kl_zero.
Print Assumptions C43_kl_closed_form.
Print Assumptions C43_entropy.
Print Assumptions C44_w2_nonneg.
Print Assumptions C44_w2_symmetric.
Print Assumptions C44_w2_identical.
Print Assumptions C44_w2_equal_variances.
Print Assumptions C44_w2_zero.
Print Assumptions C44_w2_square.
Print Assumptions C45_arithmetic.
Print Assumptions C46_sample.
Print Assumptions C46_global_state.
Print Assumptions normals_exist.
Print Assumptions C59_marginals.
Print Assumptions C59_covariances.
Print Assumptions C59_logpdf.
Print Assumptions C59_closest.
