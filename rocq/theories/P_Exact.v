(* C10, C11, C13 and C52 for all models: C10 and C11 as far as they are true.  Statements use
   ExactSpec.v, ProdSpec.v, SymSpec.v, RV.v, Typing.v ([widths]) and ModelSpec.v; all proofs
   are elsewhere.

   There is no restriction on the operations and on their order: [add_gp], products of
   processes, Cartesian products and GPs that are constructed after them.  [covered] leaves
   out the processes that are built from those of [add_gp], of which nothing is known, and from
   products with a factor that has several outputs.  It is assumed that given kernels and means
   act on points and that the matrices of given kernels have transposed shapes at exchanged
   inputs. *)
From Coq Require Import List.
From mathcomp Require Import all_ssreflect all_algebra.
From Verif Require Import Graph Machine Refine Worlds Eval GraphSpec RV Typing ModelSpec ProdSpec SymSpec ExactSpec ExactThms ExModel ProdEx ExactEx.
Set Implicit Arguments. Unset Strict Implicit. Unset Printing Implicit Defensive.
Import GRing.Theory Num.Theory.
Local Open Scope ring_scope.

Implicit Types (m : mid) (p q r : pid).

(* C10, C11. There are random variables such that independently constructed processes have the
   given means and kernels and are independent; every process has a value wherever the numbers
   of values match; means are expectations; the kernel of a process at one input is its
   variance; and the kernel of two processes at two inputs is not larger than the covariance
   matrix and equal to it if it is not smaller.  (It may be smaller: C52.)  Missing for C10: the
   shape. *)
Theorem C10_C11_all_partial (R : realFieldType) (D : nat -> (point R -> R) -> point R -> R)
    (mu : pid -> point R -> R) (ka : pid -> point R -> point R -> R) (dif : bool) (ops : seq (op R)) :
  (forall d t, D d (fun=> 0) t = 0) -> (dif -> differences D) -> (forall p s t, ka p s t = ka p t s) ->
  let w := run_ops ops in
  general D mu ka world0 ops -> (forall k, given_kernel ops k -> shaped_kernel D w k) ->
  exists (W : space R) (G : pid -> point R -> rv W) (eps : mid -> nat -> rv W),
  [/\ forall p, (forall s t, Ex (G p s) = mu p s /\ cov (G p s) (G p t) = ka p s t) \/ product_part ops p,
      forall p q s t, p <> q -> cov (G p s) (G q t) = 0,
      forall m pm par o i j, (m < w_nm w)%N -> base (w_log w m) = Some (pm, par, o) ->
        (i < nr (full_noise o))%N -> (j < nr (full_noise o))%N ->
        [/\ Ex (eps m i) = 0, cov (eps m i) (eps m j) = ent (full_noise o) i j,
            forall p t, cov (eps m i) (G p t) = 0 & forall m' i', m <> m' -> cov (eps m i) (eps m' i') = 0],
      forall m p x k, (m < w_nm w)%N -> widths dif (w_log w m) p x = Some k ->
        exists2 u, is_at D G eps w m p x u & size u = k &
      (forall m p x u, covered dif ops m (w_log w m) p -> is_at D G eps w m p x u ->
        [/\ forall e, mean_is D w m p x e -> e = map (@Ex R W) u,
            forall M, cov_is D w m p p x x M -> covmat M u u &
            forall q y v M, covered dif ops m (w_log w m) q -> is_at D G eps w m q y v ->
              cov_is D w m p q x y M -> covmat_at_most M u v]) /\
      ((forall p, psd_fun (ka p)) -> psd_noise ops -> nonneg W)].
Proof. exact (fun H1 H2 H3 H4 H5 => general_joint H1 H2 H3 H4 H5). Qed.
Print Assumptions C10_C11_all_partial.

(* Two GPs, their product, a Cartesian product, a GP that is constructed later, a process with
   a rule of the user, conditioning on the Cartesian product, and a sum. *)
Example all_example (R : realFieldType) : let w := zw R in
  [/\ differences (@eD R), general (@eD R) (@xmu R) (@xka R) world0 (zops R),
      forall k, given_kernel (zops R) k -> shaped_kernel (@eD R) w k,
      [/\ forall p s t, xka p s t = @xka R p t s, forall p, psd_fun (@xka R p) & psd_noise (zops R)] &
      [/\ covered true (zops R) 0 (w_log w 0) 7 /\ covered true (zops R) 1 (w_log w 1) 7,
          widths true (w_log w 0) 7 (zin R) = Some 5%N /\ widths true (w_log w 1) 7 (zin R) = Some 5%N,
          exists M, cov_is (@eD R) w 0 7 7 (zin R) (zin R) M,
          exists M, cov_is (@eD R) w 0 7 2 (zin R) (X1 R) M &
          exists e, mean_is (@eD R) w 0 7 (zin R) e]].
Proof.
exact (And5 (@eD_diff R) (z_general R) (@z_shaped R) (And3 (@xka_sym R) (@xka_psd R) (@z_psd R))
  (And5 (conj (z_cov7 R) (z_cov7' R)) (conj (z_w7 R) (z_w7' R)) (z_c7 R) (z_c2 R) (z_e7 R))).
Qed.

(* C52, for a process and itself.  Missing: two processes, of which it is false. *)
Theorem C52_own_shape_partial (R : realFieldType) (D : nat -> (point R -> R) -> point R -> R)
    (mu : pid -> point R -> R) (ka : pid -> point R -> point R -> R) (dif : bool) (ops : seq (op R)) :
  (forall d t, D d (fun=> 0) t = 0) -> (dif -> differences D) -> (forall p s t, ka p s t = ka p t s) ->
  let w := run_ops ops in
  general D mu ka world0 ops -> (forall k, given_kernel ops k -> shaped_kernel D w k) ->
  forall m p x k M, (m < w_nm w)%N -> covered dif ops m (w_log w m) p ->
  widths dif (w_log w m) p x = Some k -> cov_is D w m p p x x M -> nr M = k /\ nc M = k.
Proof. move=> H1 H2 H3 w H4 H5 m p x k M; exact (general_shape H1 H2 H3 H4 H5 (m:=m) (p:=p) (x:=x) (k:=k) (M:=M)). Qed.
Print Assumptions C52_own_shape_partial.

(* C13. The variance of a process at any input, for instance of a Cartesian product at a tuple
   of FDDs (this is how [combine] assembles joint covariances). *)
Theorem C13_psd (R : realFieldType) (D : nat -> (point R -> R) -> point R -> R)
    (mu : pid -> point R -> R) (ka : pid -> point R -> point R -> R) (dif : bool) (ops : seq (op R)) :
  (forall d t, D d (fun=> 0) t = 0) -> (dif -> differences D) -> (forall p s t, ka p s t = ka p t s) ->
  let w := run_ops ops in
  general D mu ka world0 ops -> (forall k, given_kernel ops k -> shaped_kernel D w k) ->
  (forall p, psd_fun (ka p)) -> psd_noise ops ->
  forall m p x M, (m < w_nm w)%N -> covered dif ops m (w_log w m) p -> widths dif (w_log w m) p x <> None ->
  cov_is D w m p p x x M -> psd_matrix M.
Proof. move=> H1 H2 H3 w H4 H5 H6 H7 m p x M; exact (general_psd H1 H2 H3 H4 H5 (m:=m) (p:=p) (x:=x) (M:=M) H6 H7). Qed.
Print Assumptions C13_psd.

(* C13. Several processes and inputs, if the blocks can be put together: the matrices of one
   row have the same number of rows. *)
Theorem C13_joint_psd (R : realFieldType) (D : nat -> (point R -> R) -> point R -> R)
    (mu : pid -> point R -> R) (ka : pid -> point R -> point R -> R) (dif : bool) (ops : seq (op R)) :
  (forall d t, D d (fun=> 0) t = 0) -> (dif -> differences D) -> (forall p s t, ka p s t = ka p t s) ->
  let w := run_ops ops in
  general D mu ka world0 ops -> (forall k, given_kernel ops k -> shaped_kernel D w k) ->
  (forall p, psd_fun (ka p)) -> psd_noise ops ->
  forall m l B c, (m < w_nm w)%N ->
  (forall i, (i < size l)%N -> covered dif ops m (w_log w m) (lname l i) /\
                               widths dif (w_log w m) (lname l i) (linput l i) <> None) ->
  (forall i j, (i < size l)%N -> (j < size l)%N -> cov_is D w m (lname l i) (lname l j) (linput l i) (linput l j) (B i j)) ->
  (forall i j, (i < size l)%N -> (j < size l)%N -> nr (B i j) = nr (B i i)) ->
  0 <= block_quad (size l) B c.
Proof. move=> H1 H2 H3 w H4 H5 H6 H7 m l B c; exact (general_joint_psd H1 H2 H3 H4 H5 (m:=m) (l:=l) (B:=B) c H6 H7). Qed.
Print Assumptions C13_joint_psd.

(* The product, the late GP, and their sum, jointly. *)
Example C13_joint_psd_example (R : realFieldType) : let l := zlist R in let w := zw R in
  (forall i, (i < size l)%N -> covered true (zops R) 0 (w_log w 0) (lname l i) /\
                               widths true (w_log w 0) (lname l i) (linput l i) <> None) /\
  (exists B : nat -> nat -> dmat R,
    (forall i j, (i < size l)%N -> (j < size l)%N -> cov_is (@eD R) w 0 (lname l i) (lname l j) (linput l i) (linput l j) (B i j)) /\
    (forall i j, (i < size l)%N -> (j < size l)%N -> nr (B i j) = nr (B i i))).
Proof. exact (conj (@z_list R) (@z_blocks R)). Qed.
