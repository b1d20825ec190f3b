(* The evidence lower bound of pseudo-observations under a measure:
   stheno/model/observations.py:279-336 (PseudoObservations._compute and .elbo).

   Measure [m] gives the kernel matrices and means that [compute] of Pseudo.v takes.  The diagonal
   of the kernel matrix of the data is [elwise] of its kernel (observations.py:306), which is not
   evaluated for DTC.  The observations are those of Machine.v: [o] has the inducing points and
   their noise, [d] the data, the diagonal of its noise, and the method.  Shapes that do not fit
   have no value. *)
From mathcomp Require Import all_ssreflect all_algebra.
From Verif Require Import Graph Machine Refine GraphSpec ModelSpec NormalSpec Infer InferSpec Pseudo.
Set Implicit Arguments. Unset Strict Implicit. Unset Printing Implicit Defensive.
Import GRing.Theory.
Local Open Scope ring_scope.

Section Elbo.
Variables (R : rcfType) (ln : R -> R) (pi : R).
Variable D : nat -> (point R -> R) -> point R -> R.

Definition pseudo_obs k n (o : Machine.obs R) (d : pdata R) : Pseudo.obs R k n :=
  PseudoObs (mx_at (o_noise o) k k) (Diagonal (fun i => nth 0 (d_noise d) i)) (\col_i nth 0 (d_y d) i) (d_method d).

Definition elbo_is (w : world R) (m : mid) (o : Machine.obs R) (d : pdata R) (v : R) : Prop :=
  exists Kz Kzx kx ez ex, let k := nr Kz in let n := size (d_noise d) in
  [/\ cov_is D w m (o_p o) (o_p o) (o_x o) (o_x o) Kz, cov_is D w m (o_p o) (d_p d) (o_x o) (d_x d) Kzx,
      d_method d <> DTC -> elwise_is D w m (d_p d) (d_p d) (d_x d) (d_x d) kx /\ size kx = n,
      mean_is D w m (o_p o) (o_x o) ez /\ mean_is D w m (d_p d) (d_x d) ex &
      [/\ [&& nc Kz == k, nr (o_noise o) == k, nc (o_noise o) == k & size ez == k],
          [&& nr Kzx == k, nc Kzx == n, size ex == n & size (d_y d) == n] &
          v = v_elbo (compute ln pi (pseudo_obs k n o d) (fun i => nth 0 (d_noise d) i)
            (Data (mx_at Kz k k) (mx_at Kzx k n) (fun i => nth 0 kx i) (\col_i nth 0 ez i) (\col_i nth 0 ex i)))]].
End Elbo.
