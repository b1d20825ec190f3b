(* C62: FDDs can be constructed.  Constructing the FDD [p(x)] infers the size of the kernel of
   [p] at [x] (fdd.py:63), so it raises where [infer_size] does.

   [sized keep (w_log w m) p] is the number of outputs of the process [p] of the measure [m]
   (SizeSpec.v); it is defined for everything but processes of [add_gp], processes with one of
   several outputs mixed into another number of outputs, and, once the measure is conditioned,
   processes with a number of outputs that is not the number [keep] chosen for that measure. *)
From mathcomp Require Import all_ssreflect all_algebra.
From Verif Require Import Graph Machine Refine GraphSpec RV ModelSpec ExModel Infer SizeSpec SizeFacts SizeEx.
Set Implicit Arguments. Unset Strict Implicit. Unset Printing Implicit Defensive.
Import GRing.Theory Num.Theory.
Local Open Scope ring_scope.

Theorem C62_sizes_partial (R : fieldType) (keep : mid -> nat) (ops : seq (op R)) m p d k x :
  let w := run_ops ops in sized keep (w_log w m) p = Some d -> see_k w m p p = Some k ->
  (exists s, infer_size k x = Some s) /\ forall xs, infer_size k (Num xs) = Some (size xs * d)%N.
Proof. exact (sized_infers (keep:=keep) (ops:=ops) (m:=m) (p:=p) (d:=d) (k:=k) x). Qed.

(* Conditioning once, with processes of all numbers of outputs: Cartesian products come after the
   independent processes and the multiples by functions. *)
Theorem C62_first_posterior_partial (R : fieldType) (keep : mid -> nat) (ops : seq (op R)) m pm h o p d c k x :
  let w := run_ops ops in
  w_log w m = HPost pm h o -> products_late h -> sized keep h p = Some d -> sized keep h (o_p o) = Some c -> see_k w m p p = Some k ->
  (exists s, infer_size k x = Some s) /\ forall xs, infer_size k (Num xs) = Some (size xs * d)%N.
Proof. exact (first_infers (keep:=keep) (ops:=ops) (m:=m) (pm:=pm) (h:=h) (o:=o) (p:=p) (d:=d) (c:=c) (k:=k) x). Qed.

(* False in general: with [c = cross(f, e)], the posterior of [c] cannot be evaluated after
   conditioning twice on data of [f], although all its numbers exist: the size of
   [kernels[c, c]] is merged with that of the kernel between [f] and [c] of the first posterior,
   which is taken to be 1. *)
Theorem C62_conditioned_twice_refuted (R : realFieldType) : exists p x M k, let w := run_ops (zops (zf R)) in
  [/\ cov_is (@xD R) w 2 p p x x M, nr M = 4%N, see_k w 2 p p = Some k & infer_size k x = None].
Proof. exact (twice_product R). Qed.
(* Likewise the posterior of [f] after conditioning twice on data of [c]. *)
Theorem C62_product_data_refuted (R : realFieldType) : exists p x M k, let w := run_ops (zops (zc R)) in
  [/\ cov_is (@xD R) w 2 p p x x M, nr M = 2%N, see_k w 2 p p = Some k & infer_size k x = None].
Proof. exact (twice_data R). Qed.

(* Non-vacuity: in the same model, [f] can be evaluated after conditioning twice on [f], [c] after
   conditioning twice on [c], and both in the prior. *)
Example ex_sized_f (R : realFieldType) : let w := run_ops (zops (zf R)) in
  (sized (fun=> 1%N) (w_log w 2) 0, sized (fun=> 1%N) (w_log w 2) 1, sized (fun=> 1%N) (w_log w 0) 2, dim_at (zf R) 2 0 (X01 R))
  = (Some 1%N, Some 1%N, Some 2%N, Some (Some 2%N)).
Proof. vm_compute; reflexivity. Qed.
Example ex_sized_c (R : realFieldType) : let w := run_ops (zops (zc R)) in
  (sized (fun=> 2%N) (w_log w 2) 2, dim_at (zc R) 2 2 (X01 R)) = (Some 2%N, Some (Some 4%N)).
Proof. vm_compute; reflexivity. Qed.
(* The FDDs that cannot be constructed can be constructed in the prior and in the first posterior. *)
Example ex_first (R : realFieldType) : (dim_at (zf R) 0 2 (X01 R), dim_at (zf R) 1 2 (X01 R)) = (Some (Some 4%N), Some (Some 4%N)).
Proof. vm_compute; reflexivity. Qed.
Example ex_first_c (R : realFieldType) : (dim_at (zc R) 0 0 (X01 R), dim_at (zc R) 1 0 (X01 R)) = (Some (Some 2%N), Some (Some 2%N)).
Proof. vm_compute; reflexivity. Qed.

Example ex_late (R : realFieldType) : (w_log (run_ops (zops (zf R))) 1, products_late (zlog0 R),
  sized (fun=> 1%N) (zlog0 R) 2, sized (fun=> 1%N) (zlog0 R) (o_p (zf R))) = (HPost 0 (zlog0 R) (zf R), true, Some 2%N, Some 1%N).
Proof. vm_compute; reflexivity. Qed.

Print Assumptions C62_sizes_partial.
Print Assumptions C62_first_posterior_partial.
Print Assumptions C62_conditioned_twice_refuted.
Print Assumptions C62_product_data_refuted.
