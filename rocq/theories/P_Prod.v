(* Theorems about models with products of processes and derivatives: C10-C13, C23, C52.
   Statements use ProdSpec.v, RV.v, Typing.v ([widths]) and ModelSpec.v; all proofs are
   elsewhere.

   [mixed] is [plain] (ModelSpec.v) with products of processes; [factors dif ops] says that
   the factors of products have one value for every point.  With [dif = true], processes may
   be built from derivatives, and derivatives are finite differences of arbitrary grid,
   coefficients and step; with [dif = false] nothing is assumed of derivatives. *)
From Coq Require Import List.
From mathcomp Require Import all_ssreflect all_algebra.
From Verif Require Import Graph Machine Refine Worlds Eval GraphSpec RV Typing ModelSpec ProdSpec ProdThms ExModel ProdEx.
Set Implicit Arguments. Unset Strict Implicit. Unset Printing Implicit Defensive.
Import GRing.Theory Num.Theory.
Local Open Scope ring_scope.

Implicit Types (m : mid) (p q r : pid).

(* C10, C11. There are random variables such that independently constructed processes have
   the given means and kernels and are independent (the independent parts of products,
   [product_part], are among them, with the kernels that the code gives them); every process
   has a value wherever the numbers of values match; kernels and means are covariances and
   expectations; and if the given kernels and noises are non-negative, then so are all
   variances, including those of products. *)
Theorem C10_C11_products_partial (R : realFieldType) (D : nat -> (point R -> R) -> point R -> R)
    (mu : pid -> point R -> R) (ka : pid -> point R -> point R -> R) (dif : bool) (ops : seq (op R)) :
  (forall d t, D d (fun=> 0) t = 0) -> (dif -> differences D) -> (forall p s t, ka p s t = ka p t s) ->
  mixed D mu ka world0 ops -> gp_first ops -> factors dif ops ->
  let w := run_ops ops in
  exists (W : space R) (G : pid -> point R -> rv W) (eps : mid -> nat -> rv W),
  [/\ forall p, (forall s t, Ex (G p s) = mu p s /\ cov (G p s) (G p t) = ka p s t) \/ product_part ops p,
      forall p q s t, p <> q -> cov (G p s) (G q t) = 0,
      forall m pm par o i j, (m < w_nm w)%N -> base (w_log w m) = Some (pm, par, o) ->
        (i < nr (full_noise o))%N -> (j < nr (full_noise o))%N ->
        [/\ Ex (eps m i) = 0, cov (eps m i) (eps m j) = ent (full_noise o) i j,
            forall p t, cov (eps m i) (G p t) = 0 & forall m' i', m <> m' -> cov (eps m i) (eps m' i') = 0],
      forall m p x k, (m < w_nm w)%N -> widths dif (w_log w m) p x = Some k ->
        exists2 u, is_at D G eps w m p x u & size u = k &
      (forall m p x u, is_at D G eps w m p x u ->
        (forall e, mean_is D w m p x e -> e = map (@Ex R W) u) /\
        (forall q y v M, is_at D G eps w m q y v -> cov_is D w m p q x y M -> covmat M u v)) /\
      ((forall p, psd_fun (ka p)) -> psd_noise ops -> nonneg W)].
Proof. exact (fun H1 H2 H3 H4 H5 H6 => mixed_joint H1 H2 H3 H4 H5 H6). Qed.
Print Assumptions C10_C11_products_partial.

(* Two GPs, their sum, a product, its derivative, conditioning on the product, a product with
   the derivative, and the Cartesian product of the two products. *)
Example products_example (R : realFieldType) :
  [/\ differences (@eD R), mixed (@eD R) (@xmu R) (@xka R) world0 (pops R), gp_first (pops R), factors true (pops R) &
      [/\ forall p s t, xka p s t = @xka R p t s, forall p, psd_fun (@xka R p) & psd_noise (pops R)] /\
      [/\ widths true (w_log (pw R) 1) 9 (X01 R) = Some 2%N, widths true (w_log (pw R) 0) 18 (X01 R) = Some 4%N,
          exists M, cov_is (@eD R) (pw R) 0 18 9 (X01 R) (X1 R) M,
          exists M, cov_is (@eD R) (pw R) 0 9 18 (X1 R) (X01 R) M &
          exists e, mean_is (@eD R) (pw R) 0 18 (X01 R) e]].
Proof.
exact (And5 (@eD_diff R) (p_mixed R) (p_first R) (@p_factors R)
  (conj (And3 (@xka_sym R) (@xka_psd R) (@p_psd R)) (And5 (p_width9 R) (p_width18 R) (p_cov R) (p_cov' R) (p_mean R)))).
Qed.

(* C52. *)
Theorem C52_shape_products_partial (R : realFieldType) (D : nat -> (point R -> R) -> point R -> R)
    (mu : pid -> point R -> R) (ka : pid -> point R -> point R -> R) (dif : bool) (ops : seq (op R)) :
  (forall d t, D d (fun=> 0) t = 0) -> (dif -> differences D) -> (forall p s t, ka p s t = ka p t s) ->
  mixed D mu ka world0 ops -> gp_first ops -> factors dif ops ->
  let w := run_ops ops in
  forall m p q x y a b M, (m < w_nm w)%N -> widths dif (w_log w m) p x = Some a ->
  widths dif (w_log w m) q y = Some b -> cov_is D w m p q x y M -> nr M = a /\ nc M = b.
Proof. move=> H1 H2 H3 H4 H5 H6 w m p q x y a b M; exact (mixed_shape H1 H2 H3 H4 H5 H6 (m:=m) (p:=p) (q:=q) (x:=x) (y:=y) (a:=a) (b:=b) (M:=M)). Qed.
Print Assumptions C52_shape_products_partial.

(* C12. *)
Theorem C12_symmetric_products (R : realFieldType) (D : nat -> (point R -> R) -> point R -> R)
    (mu : pid -> point R -> R) (ka : pid -> point R -> point R -> R) (dif : bool) (ops : seq (op R)) :
  (forall d t, D d (fun=> 0) t = 0) -> (dif -> differences D) -> (forall p s t, ka p s t = ka p t s) ->
  mixed D mu ka world0 ops -> gp_first ops -> factors dif ops ->
  let w := run_ops ops in
  forall m p q x y a b M M', (m < w_nm w)%N -> widths dif (w_log w m) p x = Some a ->
  widths dif (w_log w m) q y = Some b -> cov_is D w m p q x y M -> cov_is D w m q p y x M' -> transposed M M'.
Proof. move=> H1 H2 H3 H4 H5 H6 w m p q x y a b M M'; exact (mixed_symmetric H1 H2 H3 H4 H5 H6 (m:=m) (p:=p) (q:=q) (x:=x) (y:=y) (a:=a) (b:=b) (M:=M) (M':=M')). Qed.
Print Assumptions C12_symmetric_products.

(* C13. *)
Theorem C13_joint_psd_products (R : realFieldType) (D : nat -> (point R -> R) -> point R -> R)
    (mu : pid -> point R -> R) (ka : pid -> point R -> point R -> R) (dif : bool) (ops : seq (op R)) :
  (forall d t, D d (fun=> 0) t = 0) -> (dif -> differences D) -> (forall p s t, ka p s t = ka p t s) ->
  mixed D mu ka world0 ops -> gp_first ops -> factors dif ops ->
  (forall p, psd_fun (ka p)) -> psd_noise ops ->
  let w := run_ops ops in
  forall m l B c, (m < w_nm w)%N ->
  (forall i, (i < size l)%N -> widths dif (w_log w m) (lname l i) (linput l i) <> None) ->
  (forall i j, (i < size l)%N -> (j < size l)%N -> cov_is D w m (lname l i) (lname l j) (linput l i) (linput l j) (B i j)) ->
  0 <= block_quad (size l) B c.
Proof. move=> H1 H2 H3 H4 H5 H6 H7 H8 w m l B c; exact (mixed_joint_psd H1 H2 H3 H4 H5 H6 (m:=m) (l:=l) (B:=B) c H7 H8). Qed.
Print Assumptions C13_joint_psd_products.

(* The product, the product with its derivative, and their Cartesian product, jointly. *)
Example C13_products_example (R : realFieldType) : let l := plist R in
  (forall i, (i < size l)%N -> widths true (w_log (pw R) 0) (lname l i) (linput l i) <> None) /\
  (forall i j, (i < size l)%N -> (j < size l)%N ->
     exists M, cov_is (@eD R) (pw R) 0 (lname l i) (lname l j) (linput l i) (linput l j) M).
Proof. exact (p_list R). Qed.
