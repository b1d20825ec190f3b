(* C34, C47, C49, C50, C51: missing values, joint samples, sizes, diagonals and masks. *)
From Coq Require Import List.
From mathcomp Require Import all_ssreflect all_algebra.
From Verif Require Import Graph Machine Refine GraphSpec RV ModelSpec ModelFacts Plain PlainThms Combine NormalSpec LogPdf Infer InferSpec InferThms InferPdf ExModel ExLogPdf ExInfer.
Set Implicit Arguments. Unset Strict Implicit. Unset Printing Implicit Defensive.
Import GRing.Theory Num.Theory.
Local Open Scope ring_scope.

Section Infer.
Variables (R : fieldType) (W : space R).
Variable D : nat -> (point R -> R) -> point R -> R.
Variables (G : pid -> point R -> rv W) (eps : mid -> nat -> rv W).
Variables (ops : seq (op R)) (P : mid -> pid -> Prop).
Let w := run_ops ops.
Hypothesis Mo : model D G eps w P.
Notation meant := (meant D G eps w P).
Notation cov_is := (cov_is D w). Notation mean_is := (mean_is D w).

(* C49.  [flat] excludes Cartesian products of processes with more than one output and kernels
   that users construct from the kernels of a measure: the former are wrong, see below. *)
Theorem C49_size_partial m p k x s M : flat (fun=> True) (w_log w m) p -> see_k w m p p = Some k ->
  infer_size k x = Some s -> meant m p x -> cov_is m p p x x M -> nr M = s.
Proof. exact (size_rows (model_sound Mo) (m:=m) (p:=p) (k:=k) (x:=x) (s:=s) (M:=M)). Qed.

(* C50.  The kernels of the independently constructed processes are basic. *)
Theorem C50_elwise m p q x y e M : (forall m p d, defined w m p d -> P m p -> basic_def d) ->
  meant m p x -> meant m q y -> elwise_is D w m p q x y e -> cov_is m p q x y M -> diagonal M e.
Proof. exact (elwise_diag Mo (m:=m) (p:=p) (q:=q) (x:=x) (y:=y) (e:=e) (M:=M)). Qed.
Theorem C50_var_diag m f n n' e M : (forall m p d, defined w m p d -> P m p -> basic_def d) ->
  home w (f_p f) = Some m -> meant m (f_p f) (f_x f) ->
  fdd_var_diag D n w f = Some e -> fdd_var D n' w f = Some M -> diagonal M e.
Proof. exact (var_diag_diag Mo (m:=m) (f:=f) (n:=n) (n':=n') (e:=e) (M:=M)). Qed.

(* C51.  [take] gives nothing for Cartesian products that were scaled or conditioned, and [flat]
   excludes nested ones, see below. *)
Section C51.
Variables (m : mid) (n : nat) (f f' : fdd R) (mu : seq bool) (K : dmat R).
Hypotheses (S : well_settled w m (f_p f)) (T : take_fdd (own_kernel w) n f mu = Some f').
Hypotheses (Me : meant m (f_p f) (f_x f)) (EK : cov_is m (f_p f) (f_p f) (f_x f) (f_x f) K) (sm : size mu = nr K).
Theorem C51_process_partial : f_p f' = f_p f /\ meant m (f_p f') (f_x f').
Proof. exact (conj (take_pid T) (take_meant (model_sound Mo) S T Me EK sm)). Qed.
Theorem C51_mean_partial e e' : mean_is m (f_p f) (f_x f) e -> mean_is m (f_p f') (f_x f') e' -> e' = mask mu e.
Proof. exact (take_mean (model_sound Mo) S T Me EK sm (e:=e) (e':=e')). Qed.
Theorem C51_var_partial K' : cov_is m (f_p f') (f_p f') (f_x f') (f_x f') K' -> masked mu K K'.
Proof. exact (take_var (model_sound Mo) S T Me EK sm (K':=K')). Qed.
Theorem C51_cov_partial q y M M' : meant m q y -> cov_is m (f_p f) q (f_x f) y M -> cov_is m (f_p f') q (f_x f') y M' ->
  masked_rows mu M M'.
Proof. exact (take_cov (model_sound Mo) S T Me EK sm (q:=q) (y:=y) (M:=M) (M':=M')). Qed.
Theorem C51_noise : masked mu (f_noise f) (f_noise f').
Proof. exact (take_noise T). Qed.
End C51.

(* C47.  The processes have one output, or they are evaluated at FDDs only. *)
Theorem C47_blocks_partial (T : Type) m (fs : seq (fdd R)) (ns : seq nat) (s : seq T) :
  Forall2 (fun f n => [/\ flat (fun=> True) (w_log w m) (f_p f), outputs (w_log w m) (f_p f) = 1%N \/ only_fdds (f_x f),
    meant m (f_p f) (f_x f) & exists2 K, cov_is m (f_p f) (f_p f) (f_x f) (f_x f) K & nr K = n]) fs ns ->
  unpack fs s = reshape ns s.
Proof. exact (sample_blocks (model_sound Mo) (m:=m) (fs:=fs) (ns:=ns) s). Qed.

(* C34.  [f] is the FDD, [y] are the values, and [s] lists those that are not missing; the
   posterior is that given these values.  The hypotheses are those of C51. *)
Section C34.
Variables (m' m : mid) (ps : seq pid) (n : nat) (f : fdd R) (y : seq (option R)) (o : obs R) (Kz : dmat R).
Hypotheses (S : well_settled w m (f_p f)) (O : observe (own_kernel w) n f y = Some o).
Hypotheses (C : conditioned w m' m o ps) (Hz : f_p f \in ps) (Me : meant m (f_p f) (f_x f)).
Hypotheses (EKz : cov_is m (f_p f) (f_p f) (f_x f) (f_x f) Kz) (sy : size y = nr Kz).
Hypotheses (N1 : nr (f_noise f) = nr Kz) (N2 : nc (f_noise f) = nr Kz).
Let s := selected (map isSome y).
Hypothesis (U : block Kz s + block (f_noise f) s \in unitmx).
Theorem C34_covariance_partial p q x z K Kp Kq K' : p \in ps -> q \in ps -> P m' p -> P m' q -> meant m p x -> meant m q z ->
  cov_is m p q x z K -> cov_is m p (f_p f) x (f_x f) Kp -> cov_is m q (f_p f) z (f_x f) Kq -> cov_is m' p q x z K' ->
  [/\ nr K' = nr K, nc K' = nc K &
      exists2 B : 'M_(nr K, size s), B *m (block Kz s + block (f_noise f) s) = columns Kp (nr K) s &
        mx_at K' (nr K) (nc K) = mx_at K (nr K) (nc K) - B *m (columns Kq (nc K) s)^T].
Proof. exact (missing_cov (model_sound Mo) S O C Hz Me EKz sy N1 N2 U (p:=p) (q:=q) (x:=x) (z:=z) (K:=K) (Kp:=Kp) (Kq:=Kq) (K':=K')). Qed.
Theorem C34_mean_partial p x e ez Kp e' : p \in ps -> P m' p -> meant m p x ->
  mean_is m p x e -> mean_is m (f_p f) (f_x f) ez -> cov_is m p (f_p f) x (f_x f) Kp -> mean_is m' p x e' ->
  size e' = size e /\
  exists2 B : 'M_(size e, size s), B *m (block Kz s + block (f_noise f) s) = columns Kp (size e) s &
    forall i : 'I_(size e), nth 0 e' i = nth 0 e i +
      \sum_k B i k * (odflt 0 (nth None y (nth 0%N s k)) - nth 0 ez (nth 0%N s k)).
Proof. exact (missing_mean (model_sound Mo) S O C Hz Me EKz sy N1 N2 U (p:=p) (x:=x) (e:=e) (ez:=ez) (Kp:=Kp) (e':=e')). Qed.
End C34.
End Infer.

Section Density.
Variables (R : rcfType) (ln : R -> R) (pi : R).
Hypothesis LN : logarithm ln.
Variable (W : space R).
Variable D : nat -> (point R -> R) -> point R -> R.
Variables (G : pid -> point R -> rv W) (eps : mid -> nat -> rv W).
Variables (ops : seq (op R)) (P : mid -> pid -> Prop).
Let w := run_ops ops.
Hypothesis Mo : model D G eps w P.
Notation meant := (meant D G eps w P).
(* C34.  [m.logpdf(f, y)] and [m.logpdf(obs)]; [r] and [r'] are the copies of the process that
   the two calls make. *)
Variables (m : mid) (r r' : pid) (n : nat) (f : fdd R) (y : seq (option R)) (o : obs R) (K : dmat R).
Hypotheses (S : well_settled w m (f_p f)) (O : observe (own_kernel w) n f y = Some o).
Hypotheses (Dr : defined w m r (DCopy (f_p f))) (Dr' : defined w m r' (DCopy (f_p f))).
Hypotheses (Zr : meant m r (f_x f)) (Zr' : meant m r' (o_x o)).
Hypothesis (EK : cov_is D w m r r (f_x f) (f_x f) K).
Hypothesis (PD : pd (mx_at K (nr K) (nr K) + mx_at (f_noise f) (nr K) (nr K))).
Theorem C34_logpdf_partial l l' : logpdf_is ln pi D w m r (f_x f) (f_noise f) y l ->
  logpdf_is ln pi D w m r' (o_x o) (o_noise o) (map Some (o_y o)) l' -> l = l'.
Proof. exact (missing_logpdf LN (model_sound Mo) S O Dr Dr' Zr Zr' EK PD (l:=l) (l':=l')). Qed.
End Density.

(* What is false.  In all cases, all hypotheses about the model hold. *)
(* [cross(cross(f, f + e), f)] at two points has six values; the inferred size is four. *)
Theorem C49_nested_refuted (R : rcfType) : exists (D : nat -> (point R -> R) -> point R -> R) (W : space R) (G : pid -> point R -> rv W)
  (eps : mid -> nat -> rv W) (ops : seq (op R)) (m : mid) (p : pid) (x : input R) k s M,
  let w := run_ops ops in
  [/\ model D G eps w everywhere, meant D G eps w everywhere m p x, see_k w m p p = Some k /\ infer_size k x = Some s,
      cov_is D w m p p x x M & nr M <> s].
Proof. exact (nested_refuted R). Qed.
(* [2 * cross(f, f + e)] at two points has four values; no mask that selects values can be taken. *)
Theorem C51_scaled_refuted (R : rcfType) : exists (D : nat -> (point R -> R) -> point R -> R) (W : space R) (G : pid -> point R -> rv W)
  (eps : mid -> nat -> rv W) (ops : seq (op R)) (m : mid) (f : fdd R) (mu : seq bool) M,
  let w := run_ops ops in
  [/\ model D G eps w everywhere, meant D G eps w everywhere m (f_p f) (f_x f), cov_is D w m (f_p f) (f_p f) (f_x f) (f_x f) M,
      [/\ size mu = nr M, nr (f_noise f) = nr M & nc (f_noise f) = nr M] &
      forall n, take_fdd (own_kernel w) n f mu = None].
Proof. exact (scaled_refuted R). Qed.
(* Hence no observations with missing values. *)
Theorem C34_scaled_refuted (R : rcfType) : exists (D : nat -> (point R -> R) -> point R -> R) (W : space R) (G : pid -> point R -> rv W)
  (eps : mid -> nat -> rv W) (ops : seq (op R)) (m : mid) (f : fdd R) (y : seq (option R)) M,
  let w := run_ops ops in
  [/\ model D G eps w everywhere, meant D G eps w everywhere m (f_p f) (f_x f), cov_is D w m (f_p f) (f_p f) (f_x f) (f_x f) M,
      [/\ size y = nr M, nr (f_noise f) = nr M & nc (f_noise f) = nr M] &
      forall n, observe (own_kernel w) n f y = None].
Proof. exact (scaled_missing_refuted R). Qed.
(* [sample(cross(f, f + e)(x), f(x))] with two points: four and two values, but the blocks of
   the sample have two and two rows. *)
Theorem C47_product_refuted (R : rcfType) : exists (D : nat -> (point R -> R) -> point R -> R) (W : space R) (G : pid -> point R -> rv W)
  (eps : mid -> nat -> rv W) (ops : seq (op R)) (m : mid) (fs : seq (fdd R)) (ns : seq nat),
  let w := run_ops ops in
  [/\ model D G eps w everywhere,
      Forall2 (fun f n => meant D G eps w everywhere m (f_p f) (f_x f) /\
        exists2 K, cov_is D w m (f_p f) (f_p f) (f_x f) (f_x f) K & nr K = n) fs ns &
      forall (T : Type) (s : seq T), size s = sumn ns -> unpack fs s <> reshape ns s].
Proof. exact (product_refuted R). Qed.

Print Assumptions C49_size_partial.
Print Assumptions C50_elwise.
Print Assumptions C50_var_diag.
Print Assumptions C51_process_partial.
Print Assumptions C51_mean_partial.
Print Assumptions C51_var_partial.
Print Assumptions C51_cov_partial.
Print Assumptions C51_noise.
Print Assumptions C47_blocks_partial.
Print Assumptions C34_covariance_partial.
Print Assumptions C34_mean_partial.
Print Assumptions C34_logpdf_partial.
Print Assumptions C49_nested_refuted.
Print Assumptions C51_scaled_refuted.
Print Assumptions C34_scaled_refuted.
Print Assumptions C47_product_refuted.

(* cross(f, f + e) at two points, with two of the four values missing. *)
Example C34_C51_example (R : rcfType) : let w := iw R in
  exists (W : space R) (G : pid -> point R -> rv W) (eps : mid -> nat -> rv W),
  let meant := meant (@xD R) G eps w everywhere in
  let f := ifd R in let Kz := iK 3 3 (f_x f) (f_x f) in let s := selected (map isSome (iy R)) in
  let f' := MkFdd 3 (ix R) (ino R) in
  [/\ [/\ model (@xD R) G eps w everywhere, well_settled w 0 (f_p f), conditioned w 1 0 (iob R) ips,
          observe (own_kernel w) 5 f (iy R) = Some (iob R) & take_fdd (own_kernel w) 5 f imu = Some f'],
      [/\ f_p f \in ips, meant 0%N (f_p f) (f_x f) & meant 0%N 0%N (X1 R)],
      [/\ cov_is (@xD R) w 0 3 3 (f_x f) (f_x f) Kz, size (iy R) = nr Kz, nr (f_noise f) = nr Kz, nc (f_noise f) = nr Kz &
          block Kz s + block (f_noise f) s \in unitmx],
      [/\ cov_is (@xD R) w 0 0 0 (X1 R) (X1 R) (iK 0 0 (X1 R) (X1 R)), cov_is (@xD R) w 0 0 3 (X1 R) (f_x f) (iK 0 3 (X1 R) (f_x f)),
          mean_is (@xD R) w 0 3 (f_x f) (iM 3 (f_x f)) & mean_is (@xD R) w 0 0 (X1 R) (iM 0 (X1 R))] &
      [/\ exists M, cov_is (@xD R) w 1 0 0 (X1 R) (X1 R) M, exists e, mean_is (@xD R) w 1 0 (X1 R) e,
          exists M, cov_is (@xD R) w 0 3 3 (f_x f') (f_x f') M, exists M, cov_is (@xD R) w 0 3 0 (f_x f') (X1 R) M &
          exists e, mean_is (@xD R) w 0 3 (f_x f') e]].
Proof.
have [W [G [eps [Mo m3 m0 _ _]]]] := imeant R; exists W, G, eps.
have [h3 h0 h03 e3 e0] := and5P (ihas R); have [h3' h30' e3'] := and3P (ihas' R); have [n3 _ _] := inr R.
have [p1 p2] := ipost R; have [S3 _] := isettled R.
split.
- split; [exact Mo | exact S3 | exact (icond R) | exact (iobserve R) | exact (itake R)].
- split; [by [] | exact m3 | exact m0].
- split; [exact (icov h3) | rewrite n3; by [] | rewrite n3; by [] | rewrite n3; by [] | rewrite isel; exact (iblock R)].
- split; [exact (icov h0) | exact (icov h03) | exact (imean e3) | exact (imean e0)].
split; [exact p1 | exact p2 | exists (iK 3 3 (ix R) (ix R)); exact (icov h3') | exists (iK 3 0 (ix R) (X1 R)); exact (icov h30')
  | exists (iM 3 (ix R)); exact (imean e3')].
Qed.
(* f at two points, with one of the two values missing. *)
Example C34_logpdf_example (R : rcfType) (ln : R -> R) (pi : R) : let w := lw R in
  exists (W : space R) (G : pid -> point R -> rv W) (eps : mid -> nat -> rv W),
  let meant := meant (@xD R) G eps w everywhere in
  let f := fdA R in let K := ljoint 7 f in
  [/\ [/\ model (@xD R) G eps w everywhere, well_settled w 0 (f_p f), observe (own_kernel w) 5 f (my R) = Some (mob R),
          defined w 0 7 (DCopy (f_p f)) & defined w 0 8 (DCopy (f_p f))],
      [/\ meant 0%N 7%N (f_x f) & meant 0%N 8%N (o_x (mob R))],
      [/\ cov_is (@xD R) w 0 7 7 (f_x f) (f_x f) K & pd (mx_at K (nr K) (nr K) + mx_at (f_noise f) (nr K) (nr K))],
      exists l, logpdf_is ln pi (@xD R) w 0 7 (X01 R) (kn R) (my R) l &
      exists l, logpdf_is ln pi (@xD R) w 0 8 (X1 R) (mno R) [:: Some 2%:R] l].
Proof.
have [W [G [eps [Mo m7 m8]]]] := mmeant R; exists W, G, eps.
have [_ [d7 d8 _]] := ldefs R; have l1 := mvalue1 ln pi; have l2 := mvalue2 ln pi.
split; [split; [exact Mo | exact (msettled R) | exact (mobserve R) | exact d7 | exact d8] | split; [exact m7 | exact m8]
  | split; [exact (proj2 (lcovs R)) | exact (lpdA R)] | exact l1 | exact l2].
Qed.
(* The size and the diagonal of the variance of cross(f, f + e), and a joint sample of f and
   of cross(f, f + e) at an FDD of f and an FDD of f + e. *)
Example C47_C49_C50_example (R : rcfType) : let w := iw R in
  exists (W : space R) (G : pid -> point R -> rv W) (eps : mid -> nat -> rv W),
  let meant := meant (@xD R) G eps w everywhere in let f := ifd R in let K := iK 3 3 (f_x f) (f_x f) in
  let fs := [:: MkFdd 0 (X1 R) (one1 R); MkFdd 3 (ix R) (ino R)] in
  [/\ [/\ model (@xD R) G eps w everywhere, flat (fun=> True) (w_log w 0) 3, meant 0%N 3%N (f_x f), cov_is (@xD R) w 0 3 3 (f_x f) (f_x f) K &
          exists2 k, see_k w 0 3 3 = Some k & infer_size k (f_x f) = Some 4%N],
      forall m p d, defined w m p d -> basic_def d,
      elwise_is (@xD R) w 0 3 3 (f_x f) (f_x f) (ie 3 (f_x f)) /\ size (ie 3 (f_x f)) = 4%N,
      home w (f_p f) = Some 0%N /\ exists e M, fdd_var_diag (@xD R) 20 w f = Some e /\ fdd_var (@xD R) 20 w f = Some M &
      Forall2 (fun f n => [/\ flat (fun=> True) (w_log w 0) (f_p f), outputs (w_log w 0) (f_p f) = 1%N \/ only_fdds (f_x f),
        meant 0%N (f_p f) (f_x f) & exists2 K, cov_is (@xD R) w 0 (f_p f) (f_p f) (f_x f) (f_x f) K & nr K = n]) fs [:: 1; 2]%N].
Proof.
have [W [G [eps [Mo m3 m0 mx _]]]] := imeant R; exists W, G, eps.
have [h3 h0 _ _ _] := and5P (ihas R); have [h3' _ _] := and3P (ihas' R); have [n3 n3' _] := inr R.
have [f3 _] := iflat R; have [_ _ hm _] := ihomes R; have [v1 v2] := ivars R.
split.
- split; [exact Mo | exact f3 | exact m3 | exact (icov h3) | exact (isize R)].
- exact (@ibasic R).
- exact (ielwise3 R).
- split; [exact hm | exact (ivar_values R)].
apply: Forall2_cons; first (split; [exact (iflat00 R) | left; exact (iouts R) | exact m0 |
  exists (iK 0 0 (X1 R) (X1 R)); [exact (icov h0) | exact (in0 R)]]).
apply: Forall2_cons; last exact: Forall2_nil.
split; [exact f3 | right; reflexivity | exact mx | exists (iK 3 3 (ix R) (ix R)); [exact (icov h3') | exact n3']].
Qed.
