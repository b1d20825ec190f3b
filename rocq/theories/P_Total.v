(* Theorems about which evaluations succeed: C60, and C10 and C11 with existence.  Statements
   use ModelSpec.v and TotalSpec.v; [widths] (Typing.v) is the number of values that a process
   has at an input. *)
From Coq Require Import List.
From mathcomp Require Import all_ssreflect all_algebra.
From Verif Require Import Graph Machine Refine GraphSpec RV Typing Sound ModelSpec ExModel ProdSpec TotalSpec TotalThms TotalEx TotalEx2 ProdEx.
Set Implicit Arguments. Unset Strict Implicit. Unset Printing Implicit Defensive.
Import GRing.Theory Num.Theory.
Local Open Scope ring_scope.

Implicit Types (m : mid) (p q r : pid).

(* C60. Three models without data in which something that has a value cannot be evaluated:
   the covariance of [f * g] with [cross(f, f)], if [f * g] was made after the product; the
   covariance of [f.shift(1)] with [cross(f, f)] at the FDD [f(x)], likewise; and the mean of
   [cross(f, f) + 1]. *)
Theorem C60_late_multiple_refuted (R : fieldType) : exists (ops : seq (op R)) D p q x y a b,
  let w := run_ops ops in
  [/\ forall o, In o ops -> total_op D o, forall m' m o ps, ~ conditioned w m' m o ps, filled x && filled y,
      (0 < w_nm w)%N /\ widths true (w_log w 0) p x = Some a /\ widths true (w_log w 0) q y = Some b &
      forall M, ~ cov_is D w 0 p q x y M].
Proof.
exists (fmul_ops R), (fun _ _ _ => 0), 2%N, 1%N, (two R), (two R), 2%N, 4%N; have [en el] := fmul_log R; split.
- move=> o Ho; apply: f_total; by left.
- move=> m' m o ps; apply: uncond; [exact en | by rewrite el].
- by [].
- by rewrite en el.
- exact (@fmul_fails R).
Qed.
Print Assumptions C60_late_multiple_refuted.

Theorem C60_late_shift_refuted (R : fieldType) : exists (ops : seq (op R)) D p q x y a b,
  let w := run_ops ops in
  [/\ forall o, In o ops -> total_op D o, forall m' m o ps, ~ conditioned w m' m o ps, filled x && filled y,
      (0 < w_nm w)%N /\ widths true (w_log w 0) p x = Some a /\ widths true (w_log w 0) q y = Some b &
      forall M, ~ cov_is D w 0 p q x y M].
Proof.
exists (fshift_ops R), (fun _ _ _ => 0), 2%N, 1%N, (two R), (Fdd 0 (two R)), 2%N, 2%N; have [en el] := fshift_log R; split.
- move=> o Ho; apply: f_total; by right; left.
- move=> m' m o ps; apply: uncond; [exact en | by rewrite el].
- by [].
- by rewrite en el.
- exact (@fshift_fails R).
Qed.
Print Assumptions C60_late_shift_refuted.

Theorem C60_product_plus_constant_refuted (R : fieldType) : exists (ops : seq (op R)) D p x a,
  let w := run_ops ops in
  [/\ forall o, In o ops -> total_op D o, forall m' m o ps, ~ conditioned w m' m o ps, mean_input (w_log w 0) p x,
      (0 < w_nm w)%N /\ widths true (w_log w 0) p x = Some a & forall e, ~ mean_is D w 0 p x e].
Proof.
exists (fadd_ops R), (fun _ _ _ => 0), 2%N, (two R), 4%N; have [en el] := fadd_log R; split.
- move=> o Ho; apply: f_total; by right; right.
- move=> m' m o ps; apply: uncond; [exact en | by rewrite el].
- by [].
- by rewrite en el.
- exact (@fadd_fails R).
Qed.
Print Assumptions C60_product_plus_constant_refuted.

(* C60. If Cartesian products come last and the data are usable, every covariance and every
   mean can be evaluated, and the shapes are right.  There may be products of processes with one
   value per point ([factors]). *)
Theorem C60_evaluates_partial (R : fieldType) (D : nat -> (point R -> R) -> point R -> R) (ops : seq (op R)) :
  (forall o, In o ops -> total_call D o) -> cross_last ops -> factors true ops ->
  let w := run_ops ops in
  (forall m m' o ps, conditioned w m' m o ps -> usable D w m o) ->
  (forall m m' o d ps, approximated w m' m o d ps -> usable_pseudo D w m o d) ->
  (forall m p q x y a b, (m < w_nm w)%N -> filled x -> filled y ->
     widths true (w_log w m) p x = Some a -> widths true (w_log w m) q y = Some b ->
     exists2 M, cov_is D w m p q x y M & nr M = a /\ nc M = b) /\
  (forall m p x a, (m < w_nm w)%N -> mean_input (w_log w m) p x -> widths true (w_log w m) p x = Some a ->
     exists2 e, mean_is D w m p x e & size e = a).
Proof. move=> H1 H2 H3 w H4 H5; exact (conj (run_kernels H1 H2 H3 H4 H5) (run_means H1 H2 H3 H4 H5)). Qed.
Print Assumptions C60_evaluates_partial.

(* C60. If the kernels are positive semi-definite and the noise is positive definite, no
   assumption about invertible matrices is needed: only the sizes of the data must agree. *)
Theorem C60_positive_noise_partial (R : realFieldType) (D : nat -> (point R -> R) -> point R -> R)
    (mu : pid -> point R -> R) (ka : pid -> point R -> point R -> R) (ops : seq (op R)) :
  (forall d t, D d (fun=> 0) t = 0) -> (forall p s t, ka p s t = ka p t s) -> (forall p, psd_fun (ka p)) ->
  plain D mu ka world0 ops -> (forall o, In o ops -> total_call D o) -> cross_last ops ->
  pd_noise ops ->
  let w := run_ops ops in
  sizes_fit false w ->
  (forall m p q x y a b, (m < w_nm w)%N -> filled x -> filled y ->
     widths true (w_log w m) p x = Some a -> widths true (w_log w m) q y = Some b ->
     exists2 M, cov_is D w m p q x y M & nr M = a /\ nc M = b) /\
  (forall m p x a, (m < w_nm w)%N -> mean_input (w_log w m) p x -> widths true (w_log w m) p x = Some a ->
     exists2 e, mean_is D w m p x e & size e = a).
Proof. move=> H1 H2 H3 H4 H5 H6 H7 w H8; exact (conj (plain_pd_kernels H1 H2 H3 H4 H5 H6 H7 H8) (plain_pd_means H1 H2 H3 H4 H5 H6 H7 H8)). Qed.
Print Assumptions C60_positive_noise_partial.

(* C10, C11. For the same models: there are random functions with the given means and kernels
   such that all numbers exist and are the expectations and covariances. *)
Theorem C10_exists_plain (R : realFieldType) (D : nat -> (point R -> R) -> point R -> R)
    (mu : pid -> point R -> R) (ka : pid -> point R -> point R -> R) (ops : seq (op R)) :
  (forall d t, D d (fun=> 0) t = 0) -> (forall p s t, ka p s t = ka p t s) -> (forall p, psd_fun (ka p)) ->
  plain D mu ka world0 ops -> (forall o, In o ops -> total_call D o) -> cross_last ops ->
  pd_noise ops ->
  let w := run_ops ops in
  sizes_fit false w ->
  exists (W : space R) (G : pid -> point R -> rv W) (eps : mid -> nat -> rv W),
  [/\ forall p q s t, cov (G p s) (G q t) = if p == q then ka p s t else 0,
      forall p t, Ex (G p t) = mu p t,
      forall m pm par o i j, (m < w_nm w)%N -> base (w_log w m) = Some (pm, par, o) ->
        (i < nr (full_noise o))%N -> (j < nr (full_noise o))%N ->
        [/\ Ex (eps m i) = 0, cov (eps m i) (eps m j) = ent (full_noise o) i j,
            forall p t, cov (eps m i) (G p t) = 0 & forall m' i', m <> m' -> cov (eps m i) (eps m' i') = 0],
      forall m p x a, (m < w_nm w)%N -> widths false (w_log w m) p x = Some a -> mean_input (w_log w m) p x ->
        exists u e, [/\ is_at D G eps w m p x u, size u = a, mean_is D w m p x e & e = map (@Ex R W) u] &
      forall m p q x y a b, (m < w_nm w)%N -> filled x -> filled y ->
        widths false (w_log w m) p x = Some a -> widths false (w_log w m) q y = Some b ->
        exists u v M, [/\ is_at D G eps w m p x u, is_at D G eps w m q y v, size u = a /\ size v = b,
          cov_is D w m p q x y M & covmat M u v]].
Proof. move=> H1 H2 H3 H4 H5 H6 H7 w H8; exact (plain_pd_joint H1 H2 H3 H4 H5 H6 H7 H8). Qed.
Print Assumptions C10_exists_plain.

(* C60. The same with products of processes and their derivatives. *)
Theorem C60_positive_noise_products_partial (R : realFieldType) (D : nat -> (point R -> R) -> point R -> R)
    (mu : pid -> point R -> R) (ka : pid -> point R -> point R -> R) (dif : bool) (ops : seq (op R)) :
  (forall d t, D d (fun=> 0) t = 0) -> (dif -> differences D) -> (forall p s t, ka p s t = ka p t s) ->
  (forall p, psd_fun (ka p)) -> mixed D mu ka world0 ops -> factors dif ops ->
  (forall o, In o ops -> total_call D o) -> cross_last ops ->
  pd_noise ops ->
  let w := run_ops ops in
  sizes_fit dif w ->
  (forall m p q x y a b, (m < w_nm w)%N -> filled x -> filled y ->
     widths true (w_log w m) p x = Some a -> widths true (w_log w m) q y = Some b ->
     exists2 M, cov_is D w m p q x y M & nr M = a /\ nc M = b) /\
  (forall m p x a, (m < w_nm w)%N -> mean_input (w_log w m) p x -> widths true (w_log w m) p x = Some a ->
     exists2 e, mean_is D w m p x e & size e = a).
Proof.
move=> H1 H2 H3 H4 H5 H6 H7 H8 H9 w H10.
exact (conj (pd_kernels H1 H3 H4 H2 H5 H6 H7 H8 H9 H10) (pd_means H1 H3 H4 H2 H5 H6 H7 H8 H9 H10)).
Qed.
Print Assumptions C60_positive_noise_products_partial.

(* C10, C11. And then the numbers exist and are the expectations and covariances. *)
Theorem C10_exists_products (R : realFieldType) (D : nat -> (point R -> R) -> point R -> R)
    (mu : pid -> point R -> R) (ka : pid -> point R -> point R -> R) (dif : bool) (ops : seq (op R)) :
  (forall d t, D d (fun=> 0) t = 0) -> (dif -> differences D) -> (forall p s t, ka p s t = ka p t s) ->
  (forall p, psd_fun (ka p)) -> mixed D mu ka world0 ops -> factors dif ops ->
  (forall o, In o ops -> total_call D o) -> cross_last ops ->
  pd_noise ops ->
  let w := run_ops ops in
  sizes_fit dif w ->
  exists (W : space R) (G : pid -> point R -> rv W) (eps : mid -> nat -> rv W),
  [/\ forall p, (forall s t, Ex (G p s) = mu p s /\ cov (G p s) (G p t) = ka p s t) \/ product_part ops p,
      forall p q s t, p <> q -> cov (G p s) (G q t) = 0,
      forall m pm par o i j, (m < w_nm w)%N -> base (w_log w m) = Some (pm, par, o) ->
        (i < nr (full_noise o))%N -> (j < nr (full_noise o))%N ->
        [/\ Ex (eps m i) = 0, cov (eps m i) (eps m j) = ent (full_noise o) i j,
            forall p t, cov (eps m i) (G p t) = 0 & forall m' i', m <> m' -> cov (eps m i) (eps m' i') = 0],
      forall m p x a, (m < w_nm w)%N -> widths dif (w_log w m) p x = Some a -> mean_input (w_log w m) p x ->
        exists u e, [/\ is_at D G eps w m p x u, size u = a, mean_is D w m p x e & e = map (@Ex R W) u] &
      forall m p q x y a b, (m < w_nm w)%N -> filled x -> filled y ->
        widths dif (w_log w m) p x = Some a -> widths dif (w_log w m) q y = Some b ->
        exists u v M, [/\ is_at D G eps w m p x u, is_at D G eps w m q y v, size u = a /\ size v = b,
          cov_is D w m p q x y M & covmat M u v]].
Proof. move=> H1 H2 H3 H4 H5 H6 H7 H8 H9 w H10; exact (pd_joint H1 H3 H4 H2 H5 H6 H7 H8 H9 H10). Qed.
Print Assumptions C10_exists_products.

(* C60. Directly after an approximation with pseudo-observations by any of the three methods, all
   processes of the parent can be evaluated; [atom] says that an input is not a tuple. *)
Theorem C60_after_pseudo_partial (R : realFieldType) (D : nat -> (point R -> R) -> point R -> R)
    (mu : pid -> point R -> R) (ka : pid -> point R -> point R -> R) (dif : bool) (ops : seq (op R)) :
  (forall d t, D d (fun=> 0) t = 0) -> (dif -> differences D) -> (forall p s t, ka p s t = ka p t s) ->
  (forall p, psd_fun (ka p)) -> mixed D mu ka world0 ops -> factors dif ops ->
  (forall o, In o ops -> total_call D o) -> cross_last ops -> pd_noise ops ->
  let w := run_ops ops in sizes_fit dif w ->
  forall m' m o d ps, approximated w m' m o d ps ->
  (forall p q x y a b, p \in ps -> q \in ps -> atom x -> atom y -> filled x -> filled y ->
     widths true (w_log w m) p x = Some a -> widths true (w_log w m) q y = Some b ->
     exists2 M, cov_is D w m' p q x y M & nr M = a /\ nc M = b) /\
  (forall p x a, p \in ps -> mean_input (w_log w m) p x -> widths true (w_log w m) p x = Some a ->
     exists2 e, mean_is D w m' p x e & size e = a).
Proof.
move=> H1 H2 H3 H4 H5 H6 H7 H8 H9 w H10 m' m o d ps H11.
exact (conj (pd_pseudo_kernels H1 H3 H4 H2 H5 H6 H7 H8 H9 H10 H11) (pd_pseudo_means H1 H3 H4 H2 H5 H6 H7 H8 H9 H10 H11)).
Qed.
Print Assumptions C60_after_pseudo_partial.

(* A model with sums, multiples by functions, shifts, derivatives, products and two rounds of
   conditioning, the second one on a tuple of FDDs. *)
Example C60_example (R : realFieldType) :
  [/\ plain (@xD R) (@xmu R) (@xka R) world0 (tops R), forall o, In o (tops R) -> total_call (@xD R) o, cross_last (tops R),
      pd_noise (tops R) & sizes_fit false (tw R)] /\
  [/\ w_nm (tw R) = 3%N, widths true (w_log (tw R) 2) 5 (X01 R) = Some 2%N, widths true (w_log (tw R) 2) 6 (X01 R) = Some 4%N &
      exists M, cov_is (@xD R) (tw R) 2 5 6 (X01 R) (X01 R) M].
Proof.
split.
  split; [exact (t_plain R) | exact (@t_total R) | exact (t_last R) | exact (@t_pd R) | exact (@t_fits R)].
split; [exact (tw_nm R) | exact (t_width5 R) | exact (t_width6 R) | exact (t_exists R)].
Qed.

(* Two GPs, their sum, a product, its derivative, conditioning on the product, a product with the
   derivative, and the Cartesian product of the two products. *)
Example C60_products_example (R : realFieldType) :
  [/\ differences (@eD R), mixed (@eD R) (@xmu R) (@xka R) world0 (pops R), factors true (pops R),
      forall o, In o (pops R) -> total_call (@eD R) o & cross_last (pops R)] /\
  [/\ pd_noise (pops R), sizes_fit true (pw R) &
      widths true (w_log (pw R) 1) 9 (X01 R) = Some 2%N /\ widths true (w_log (pw R) 0) 18 (X01 R) = Some 4%N].
Proof.
exact (conj (And5 (@eD_diff R) (p_mixed R) (@p_factors R) (@p_total R) (p_last R))
  (And3 (@p_pd R) (@p_fits R) (conj (p_width9 R) (p_width18 R)))).
Qed.

(* Pseudo-observations, then observations, then a Cartesian product; the method is VFE or DTC. *)
Example C60_pseudo_example (R : realFieldType) (b : bool) :
  [/\ plain (@xD R) (@xmu R) (@xka R) world0 (aops R b), forall o, In o (aops R b) -> total_call (@xD R) o,
      cross_last (aops R b), pd_noise (aops R b) & sizes_fit false (aw R b)] /\
  usable_pseudo (@xD R) (aw R b) 0 (ao R b) (ad R b) /\
  [/\ exists ps, approximated (aw R b) 1 0 (ao R b) (ad R b) ps, (2 < w_nm (aw R b))%N,
      widths true (w_log (aw R b) 2) 4 (X01 R) = Some 4%N & exists M, cov_is (@xD R) (aw R b) 2 4 4 (X01 R) (X01 R) M].
Proof.
exact (conj (And5 (a_plain R b) (@a_total R b) (a_last R b) (@a_pd R b) (a_fits R b))
  (conj (a_usable R b) (And4 (a_approx R b) (a_lt R b) (a_w4 R b) (a_exists R b)))).
Qed.

Example C60_after_pseudo_example (R : realFieldType) (me : method) :
  [/\ plain (@xD R) (@xmu R) (@xka R) world0 (fops R me), forall o, In o (fops R me) -> total_call (@xD R) o,
      cross_last (fops R me), pd_noise (fops R me) & sizes_fit false (fw R me)] /\
  [/\ approximated (fw R me) 1 0 (fo R me) (fd R me) fps, (3 \in fps)%N & widths true (w_log (fw R me) 0) 3 (X01 R) = Some 2%N].
Proof.
exact (conj (And5 (f_plain R me) (@f_total' R me) (f_last R me) (@f_pd R me) (f_fits R me)) (And3 (f_approx R me) isT (f_w3 R me))).
Qed.
