(* Theorems about numbers, for all models: C17, C21, C22, C26, C28-C32, C34, C35, C42, C47-C49,
   C51 and C53.  They say the same as the theorems in P_Model.v, P_Infer.v and P_LogPdf.v, but
   random variables are neither assumed nor mentioned: the hypotheses are about the program that
   built the model and about the numbers that it computes.  Statements use GeneralSpec.v,
   ExactSpec.v, SymSpec.v, ModelSpec.v, InferSpec.v, NormalSpec.v and GraphSpec.v; all proofs are
   elsewhere.

   There is no restriction on the operations and on their order (as in P_Exact.v).  [known] says
   that a process is not built from processes of [add_gp] and not from products with a factor
   that has several outputs, and that the numbers of values match in it at the input; [full] is
   [cov_is] together with the right shape, which the covariance matrix of two different
   processes does not always have (C52_late_gp_refuted).  The mean of a process and its
   covariance matrix with itself always have it. *)
From Coq Require Import List.
From mathcomp Require Import all_ssreflect all_algebra.
From Verif Require Import Graph Machine Refine Worlds Eval GraphSpec GraphFacts RV Typing ModelSpec Combine DiffApprox ProdSpec SymSpec ExactSpec GeneralSpec NormalSpec LogPdf Infer InferSpec GeneralThms Plain ExModel ExDiff ExLogPdf ExInfer ProdEx GeneralEx.
Set Implicit Arguments. Unset Strict Implicit. Unset Printing Implicit Defensive.
Import GRing.Theory Num.Theory.
Local Open Scope ring_scope.

Implicit Types (m : mid) (p q r : pid).

Section All.
Variable R : realFieldType.
Variable D : nat -> (point R -> R) -> point R -> R.
Variables (mu : pid -> point R -> R) (ka : pid -> point R -> point R -> R) (dif : bool).
Hypothesis D0 : forall d t, D d (fun=> 0) t = 0.
Hypothesis Hd : dif -> differences D.
Hypothesis ka_sym : forall p s t, ka p s t = ka p t s.
Variable ops : seq (op R).
Let w := run_ops ops.
Hypothesis Hm : general D mu ka world0 ops.
Hypothesis HU : forall k, given_kernel ops k -> shaped_kernel D w k.
Notation P := (fun m q => covered dif ops m (w_log w m) q).
Notation known := (known dif ops). Notation full := (full D dif ops).
Notation cov_is := (cov_is D w). Notation mean_is := (mean_is D w).

Notation var_is m p x K := (cov_is m p p x x K).

(* The covariance matrix of a process at one input has the shape that [full] asks for. *)
Theorem variances_are_full m p x M : known m p x -> var_is m p x M -> full m p p x x M.
Proof. exact: (known_full D0 Hd ka_sym Hm HU). Qed.

(* C17. A GP is uncorrelated with everything built without it. *)
Theorem C17_all_independent m r mu' k q x y M : defined w m r (DInd mu' k) -> unseen (w_log w m) r ->
  avoids (w_log w m) r q -> known m r x -> known m q y -> full m r q x y M ->
  forall i j, (i < nr M)%N -> (j < nc M)%N -> ent M i j = 0.
Proof. exact: (g_independent D0 Hd ka_sym Hm HU). Qed.

(* C21. Linear combinations. *)
Theorem C21_all_covariance m p q l l' c x s z M M' : affine w m p l c -> affine w m q l' c ->
  (forall r, coef l r = coef l' r) -> known m p x -> known m q x -> known m s z ->
  full m p s x z M -> full m q s x z M' -> nr M = nr M' -> same_matrix M M'.
Proof. exact: (g_affine_cov D0 Hd ka_sym Hm HU). Qed.
Theorem C21_all_mean m p q l l' c x e e' : affine w m p l c -> affine w m q l' c ->
  (forall r, coef l r = coef l' r) -> known m p x -> known m q x ->
  mean_is m p x e -> mean_is m q x e' -> size e = size e' -> e = e'.
Proof. exact: (g_affine_mean D0 Hd ka_sym Hm HU). Qed.
Theorem C21_all_constant_covariance m p l c x s z M : affine w m p l c -> (forall r, coef l r = 0) ->
  known m p x -> known m s z -> full m p s x z M ->
  forall i j, (i < nr M)%N -> (j < nc M)%N -> ent M i j = 0.
Proof. exact: (g_affine_const_cov D0 Hd ka_sym Hm HU). Qed.
Theorem C21_all_constant_mean m p l c x e : affine w m p l c -> (forall r, coef l r = 0) -> known m p x ->
  mean_is m p x e -> forall i, (i < size e)%N -> nth 0 e i = c.
Proof. exact: (g_affine_const_mean D0 Hd ka_sym Hm HU). Qed.

(* C28. Conditional covariances and means, as in P_Model.v. *)
Theorem C28_all_covariance m' m o ps p q x y K Kp Kq Kz K' :
  conditioned w m' m o ps -> p \in ps -> q \in ps -> o_p o \in ps -> P m' p -> P m' q ->
  known m p x -> known m q y -> known m (o_p o) (o_x o) ->
  full m p q x y K -> full m p (o_p o) x (o_x o) Kp -> full m q (o_p o) y (o_x o) Kq ->
  var_is m (o_p o) (o_x o) Kz -> full m' p q x y K' ->
  let n := nr Kz in nr (o_noise o) = n -> nc (o_noise o) = n ->
  mx_at Kz n n + mx_at (o_noise o) n n \in unitmx ->
  [/\ nr K' = nr K, nc K' = nc K &
      exists2 B : 'M_(nr K, n), B *m (mx_at Kz n n + mx_at (o_noise o) n n) = mx_at Kp (nr K) n &
        mx_at K' (nr K) (nc K) = mx_at K (nr K) (nc K) - B *m (mx_at Kq (nc K) n)^T].
Proof. exact: (g_cond_cov D0 Hd ka_sym Hm HU). Qed.
Theorem C28_all_mean m' m o ps p x e ez Kp Kz e' :
  conditioned w m' m o ps -> p \in ps -> o_p o \in ps -> P m' p ->
  known m p x -> known m (o_p o) (o_x o) ->
  mean_is m p x e -> mean_is m (o_p o) (o_x o) ez -> full m p (o_p o) x (o_x o) Kp ->
  var_is m (o_p o) (o_x o) Kz -> mean_is m' p x e' ->
  let n := nr Kz in nr (o_noise o) = n -> nc (o_noise o) = n ->
  mx_at Kz n n + mx_at (o_noise o) n n \in unitmx ->
  size e' = size e /\
  exists2 B : 'M_(size e, n), B *m (mx_at Kz n n + mx_at (o_noise o) n n) = mx_at Kp (size e) n &
    forall i : 'I_(size e), nth 0 e' i = nth 0 e i + \sum_k B i k * (nth 0 (o_y o) k - nth 0 ez k).
Proof. exact: (g_cond_mean D0 Hd ka_sym Hm HU). Qed.

(* C29. [m2] conditions [m1], which conditions [m]; [mj] conditions [m] on the combination. *)
Section Seq.
Variables (m1 m2 mj m : mid) (c : pid) (o1 o2 : obs R) (ps1 ps2 psj : seq pid) (K1 K2 Kj : dmat R).
Let f1 := MkFdd (o_p o1) (o_x o1) (o_noise o1).
Let f2 := MkFdd (o_p o2) (o_x o2) (o_noise o2).
Let oj := combine_obs c [:: f1; f2] [:: o_y o1; o_y o2].
Hypotheses (C1 : conditioned w m1 m o1 ps1) (C2 : conditioned w m2 m1 o2 ps2) (Cj : conditioned w mj m oj psj).
Hypotheses (H1 : o_p o1 \in ps1) (H2 : o_p o2 \in ps2) (H2' : o_p o2 \in ps1) (Hj : c \in psj).
Hypothesis (Dc : defined w m c (DCross [:: o_p o1; o_p o2])).
Hypotheses (Z1 : known m (o_p o1) (o_x o1)) (Z2 : known m (o_p o2) (o_x o2)) (Zc : known m c (o_x oj)).
Hypotheses (E1 : var_is m (o_p o1) (o_x o1) K1) (E2 : var_is m (o_p o2) (o_x o2) K2) (Ej : var_is m c (o_x oj) Kj).
Hypotheses (N1 : nr (o_noise o1) = nr K1) (N1' : nc (o_noise o1) = nr K1).
Hypotheses (N2 : nr (o_noise o2) = nr K2) (N2' : nc (o_noise o2) = nr K2) (Y1 : size (o_y o1) = nr K1).
Hypotheses (U1 : mx_at K1 (nr K1) (nr K1) + mx_at (o_noise o1) (nr K1) (nr K1) \in unitmx)
  (Uj : mx_at Kj (nr Kj) (nr Kj) + mx_at (o_noise oj) (nr Kj) (nr Kj) \in unitmx).
Theorem C29_all_covariance p q x y M2 Mj : p \in ps1 -> p \in ps2 -> p \in psj -> q \in ps1 -> q \in ps2 -> q \in psj ->
  P m2 p -> P m2 q -> P mj p -> P mj q -> known m p x -> known m q y ->
  full m2 p q x y M2 -> full mj p q x y Mj -> same_matrix M2 Mj.
Proof. exact: (g_seq_cov D0 Hd ka_sym Hm HU C1 C2 Cj H1 H2 H2' Hj Dc Z1 Z2 Zc E1 E2 Ej N1 N1' N2 N2' Y1 U1 Uj). Qed.
Theorem C29_all_mean p x e2 ej : p \in ps1 -> p \in ps2 -> p \in psj -> P m2 p -> P mj p -> known m p x ->
  mean_is m2 p x e2 -> mean_is mj p x ej -> e2 = ej.
Proof. exact: (g_seq_mean D0 Hd ka_sym Hm HU C1 C2 Cj H1 H2 H2' Hj Dc Z1 Z2 Zc E1 E2 Ej N1 N1' N2 N2' Y1 U1 Uj). Qed.
End Seq.

(* C30, rows. *)
Section Rows.
Variables (mA mB m : mid) (oA oB : obs R) (psA psB : seq pid) (s : seq nat) (xs : seq (point R)) (K : dmat R).
Hypotheses (CA : conditioned w mA m oA psA) (CB : conditioned w mB m oB psB).
Hypotheses (Ep : o_p oB = o_p oA) (HA : o_p oA \in psA) (HB : o_p oA \in psB).
Hypotheses (XA : points (o_x oA) = Some xs) (XB : points (o_x oB) = Some [seq nth [::] xs k | k <- s]).
Hypotheses (Sp : single (w_log w m) (o_p oA)).
Hypotheses (ZA : known m (o_p oA) (o_x oA)) (ZB : known m (o_p oA) (o_x oB)).
Hypotheses (EK : var_is m (o_p oA) (o_x oA) K).
Notation n := (size xs).
Hypothesis (Ps : perm_eq s (iota 0 n)).
Hypotheses (NA : nr (o_noise oA) = n) (NA' : nc (o_noise oA) = n) (NB : nr (o_noise oB) = n) (NB' : nc (o_noise oB) = n).
Hypothesis (NAB : forall i j, (i < n)%N -> (j < n)%N ->
  ent (o_noise oB) i j = ent (o_noise oA) (nth 0%N s i) (nth 0%N s j)).
Hypothesis (YAB : forall i, (i < n)%N -> nth 0 (o_y oB) i = nth 0 (o_y oA) (nth 0%N s i)).
Hypothesis (UA : mx_at K n n + mx_at (o_noise oA) n n \in unitmx).
Theorem C30_all_rows_covariance p q x y MA MB : p \in psA -> p \in psB -> q \in psA -> q \in psB ->
  P mA p -> P mB p -> P mA q -> P mB q -> known m p x -> known m q y ->
  full mA p q x y MA -> full mB p q x y MB -> same_matrix MA MB.
Proof. exact: (g_rows_cov D0 Hd ka_sym Hm HU CA CB Ep HA HB XA XB Sp ZA ZB EK Ps NA NA' NB NB' NAB UA). Qed.
Theorem C30_all_rows_mean p x eA eB : p \in psA -> p \in psB -> P mA p -> P mB p -> known m p x ->
  mean_is mA p x eA -> mean_is mB p x eB -> eA = eB.
Proof. exact: (g_rows_mean D0 Hd ka_sym Hm HU CA CB Ep HA HB XA XB Sp ZA ZB EK Ps NA NA' NB NB' NAB YAB UA). Qed.
End Rows.

(* C30, pairs. *)
Section Pairs.
Variables (mA mB m : mid) (cA cB : pid) (psA psB : seq pid).
Variables (fs : seq (fdd R)) (ys es : seq (seq R)) (t : seq nat) (K : dmat R).
Let f0 := MkFdd 0 (Num [::]) (dzero R 0 0).
Let fsB := [seq nth f0 fs i | i <- t].
Let ysB := [seq nth [::] ys i | i <- t].
Let oA := combine_obs cA fs ys.
Let oB := combine_obs cB fsB ysB.
Hypothesis (Pt : perm_eq t (iota 0 (size fs))).
Hypotheses (CA : conditioned w mA m oA psA) (CB : conditioned w mB m oB psB).
Hypotheses (HA : cA \in psA) (HB : cB \in psB).
Hypotheses (DA : defined w m cA (DCross (map (@f_p R) fs))) (DB : defined w m cB (DCross (map (@f_p R) fsB))).
Hypothesis (Z : forall f, List.In f fs -> known m (f_p f) (f_x f)).
Hypothesis (Zc : known m cA (o_x oA)).
Hypotheses (Sy : size ys = size fs).
Hypothesis (EE : forall i, (i < size fs)%N -> let f := nth f0 fs i in
  [/\ mean_is m (f_p f) (f_x f) (nth [::] es i), nr (f_noise f) = size (nth [::] es i),
      nc (f_noise f) = size (nth [::] es i) & size (nth [::] ys i) = size (nth [::] es i)]).
Hypothesis (EK : var_is m cA (o_x oA) K).
Hypothesis (UA : mx_at K (nr K) (nr K) + mx_at (o_noise oA) (nr K) (nr K) \in unitmx).
Theorem C30_all_pairs_covariance p q x y MA MB : p \in psA -> p \in psB -> q \in psA -> q \in psB ->
  P mA p -> P mB p -> P mA q -> P mB q -> known m p x -> known m q y ->
  full mA p q x y MA -> full mB p q x y MB -> same_matrix MA MB.
Proof. exact: (g_pairs_cov D0 Hd ka_sym Hm HU Pt CA CB HA HB DA DB Z Zc Sy EE EK UA). Qed.
Theorem C30_all_pairs_mean p x eA eB : p \in psA -> p \in psB -> P mA p -> P mB p -> known m p x ->
  mean_is mA p x eA -> mean_is mB p x eB -> eA = eB.
Proof. exact: (g_pairs_mean D0 Hd ka_sym Hm HU Pt CA CB HA HB DA DB Z Zc Sy EE EK UA). Qed.
End Pairs.

(* C31. *)
Theorem C31_all_interpolation m' m o ps K : conditioned w m' m o ps -> o_p o \in ps ->
  known m (o_p o) (o_x o) -> P m' (o_p o) ->
  var_is m (o_p o) (o_x o) K -> nr (o_noise o) = nr K -> nc (o_noise o) = nr K ->
  zero_within (o_noise o) -> mx_at K (nr K) (nr K) \in unitmx ->
  (forall e, mean_is m' (o_p o) (o_x o) e ->
     size e = nr K /\ forall i, (i < nr K)%N -> nth 0 e i = nth 0 (o_y o) i) /\
  (forall q y M, q \in ps -> P m' q -> known m q y -> full m' (o_p o) q (o_x o) y M ->
     nr M = nr K /\ forall i j, (i < nr M)%N -> (j < nc M)%N -> ent M i j = 0).
Proof. exact: (g_noiseless D0 Hd ka_sym Hm HU). Qed.

(* C32. *)
Theorem C32_all_variance_reduction : (forall p, psd_fun (ka p)) -> psd_noise ops ->
  forall m' m o ps l B B' Kz c, conditioned w m' m o ps -> o_p o \in ps ->
  (forall i, (i < size l)%N -> lname l i \in ps) ->
  known m (o_p o) (o_x o) -> (forall i, (i < size l)%N -> P m' (lname l i)) ->
  (forall i, (i < size l)%N -> known m (lname l i) (linput l i)) ->
  (forall i j, (i < size l)%N -> (j < size l)%N -> full m (lname l i) (lname l j) (linput l i) (linput l j) (B i j)) ->
  (forall i j, (i < size l)%N -> (j < size l)%N -> full m' (lname l i) (lname l j) (linput l i) (linput l j) (B' i j)) ->
  var_is m (o_p o) (o_x o) Kz ->
  let n := nr Kz in nr (o_noise o) = n -> nc (o_noise o) = n ->
  mx_at Kz n n + mx_at (o_noise o) n n \in unitmx ->
  block_quad (size l) B' c <= block_quad (size l) B c.
Proof. exact: (g_reduction D0 Hd ka_sym Hm HU). Qed.

(* C35. *)
Section Noise.
Variables (m1 m2 m : mid) (o1 o2 : obs R) (ps1 ps2 : seq pid) (e : pid) (K Ke Kfe : dmat R) (mue : seq R).
Hypotheses (C1 : conditioned w m1 m o1 ps1) (C2 : conditioned w m2 m o2 ps2).
Hypotheses (H1 : o_p o1 \in ps1) (H2 : o_p o2 \in ps2).
Hypothesis (Sum : defined w m (o_p o2) (DSum (o_p o1) e)).
Hypotheses (Xo : o_x o2 = o_x o1) (Yo : o_y o2 = o_y o1) (N0 : zero_within (o_noise o2)).
Hypotheses (Z1 : known m (o_p o1) (o_x o1)) (Ze : known m e (o_x o1)) (Z2 : known m (o_p o2) (o_x o1)).
Hypotheses (EK : var_is m (o_p o1) (o_x o1) K) (Ee : var_is m e (o_x o1) Ke)
  (Efe : full m (o_p o1) e (o_x o1) (o_x o1) Kfe) (Eme : mean_is m e (o_x o1) mue).
Hypotheses (N1 : nr (o_noise o1) = nr K) (N1' : nc (o_noise o1) = nr K)
  (N2 : nr (o_noise o2) = nr K) (N2' : nc (o_noise o2) = nr K).
Hypotheses (Me : forall i, (i < size mue)%N -> nth 0 mue i = 0) (Ve : same_matrix Ke (o_noise o1)) (Ie : zero_within Kfe).
Hypothesis (U : mx_at K (nr K) (nr K) + mx_at (o_noise o1) (nr K) (nr K) \in unitmx).
Theorem C35_all_covariance p q x y M1 M2 Kp Kq : p \in ps1 -> p \in ps2 -> q \in ps1 -> q \in ps2 ->
  P m1 p -> P m2 p -> P m1 q -> P m2 q -> known m p x -> known m q y ->
  full m p e x (o_x o1) Kp -> zero_within Kp -> full m q e y (o_x o1) Kq -> zero_within Kq ->
  full m1 p q x y M1 -> full m2 p q x y M2 -> same_matrix M1 M2.
Proof. exact: (g_noise_cov D0 Hd ka_sym Hm HU C1 C2 H1 H2 Sum Xo N0 Z1 Ze Z2 EK Ee Efe Eme N1 N1' N2 N2' Me Ve Ie U). Qed.
Theorem C35_all_mean p x e1 e2 Kp : p \in ps1 -> p \in ps2 ->
  P m1 p -> P m2 p -> known m p x -> full m p e x (o_x o1) Kp -> zero_within Kp ->
  mean_is m1 p x e1 -> mean_is m2 p x e2 -> e1 = e2.
Proof. exact: (g_noise_mean D0 Hd ka_sym Hm HU C1 C2 H1 H2 Sum Xo Yo N0 Z1 Ze Z2 EK Ee Efe Eme N1 N1' N2 N2' Me Ve Ie U). Qed.
End Noise.

(* C48. *)
Theorem C48_all_covariance m p q x y l l' M B : parts w m p x l -> parts w m q y l' -> known m p x -> known m q y ->
  (forall z, z \in map fst (l ++ l') -> P m z) -> full m p q x y M ->
  (forall i j, (i < size l)%N -> (j < size l')%N -> full m (lname l i) (lname l' j) (linput l i) (linput l' j) (B i j)) ->
  exists sh sh', [/\ size sh = size l, size sh' = size l' & blocks sh sh' B M].
Proof. exact: (g_parts_cov D0 Hd ka_sym Hm HU). Qed.
Theorem C48_all_mean m p x l e es : parts w m p x l -> known m p x -> (forall z, z \in map fst l -> P m z) ->
  mean_is m p x e -> size es = size l ->
  (forall i, (i < size l)%N -> mean_is m (lname l i) (linput l i) (nth [::] es i)) -> e = flatten es.
Proof. exact: (g_parts_mean D0 Hd ka_sym Hm HU). Qed.

(* C53. *)
Theorem C53_all_combine m c fs M e B es : defined w m c (DCross (map (@f_p R) fs)) ->
  (forall f, List.In f fs -> known m (f_p f) (f_x f)) ->
  let cf := combine_fdd c fs in known m c (f_x cf) ->
  var_is m c (f_x cf) M -> mean_is m c (f_x cf) e ->
  let l := [seq (f_p f, f_x f) | f <- fs] in
  (forall i j, (i < size fs)%N -> (j < size fs)%N -> full m (lname l i) (lname l j) (linput l i) (linput l j) (B i j)) ->
  size es = size fs -> (forall i, (i < size fs)%N -> mean_is m (lname l i) (linput l i) (nth [::] es i)) ->
  e = flatten es /\ blocks (map size es) (map size es) B M.
Proof. exact: (g_combine D0 Hd ka_sym Hm HU). Qed.

(* C22. *)
Section Maps.
Variables (ops1 ops2 : seq (op R)) (w1 : world R) (m : mid) (p r : pid).
Hypothesis Pp : P m p.
Notation same xs zs :=
  ((forall e e', mean_is m r (Num xs) e -> mean_is m p (Num zs) e' -> e = e') /\
   forall s z M M', known m s z -> full m r s (Num xs) z M -> full m p s (Num zs) z M' -> same_matrix M M').
Theorem C22_all_shift c xs : ops = ops1 ++ OShift p c :: ops2 -> step (run_ops ops1) (OShift p c) = (w1, ROk (RPid R r)) ->
  let xs' := [seq addX c x | x <- xs] in known m r (Num xs') -> same xs' xs.
Proof. exact: (g_shift D0 Hd ka_sym Hm HU Pp). Qed.
Theorem C22_all_stretch s xs : ops = ops1 ++ OStretch p s :: ops2 -> step (run_ops ops1) (OStretch p s) = (w1, ROk (RPid R r)) ->
  (forall i, s i != 0) -> let xs' := [seq mulX s x | x <- xs] in known m r (Num xs') -> same xs' xs.
Proof. exact: (g_stretch D0 Hd ka_sym Hm HU Pp). Qed.
Theorem C22_all_select dims xs zs : ops = ops1 ++ OSelect R p dims :: ops2 ->
  step (run_ops ops1) (OSelect R p dims) = (w1, ROk (RPid R r)) ->
  [seq [seq nth 0 x i | i <- dims] | x <- xs] = zs -> known m r (Num xs) -> same xs zs.
Proof. exact: (g_select D0 Hd ka_sym Hm HU Pp). Qed.
Theorem C22_all_transform f xs zs : ops = ops1 ++ OTransform p f :: ops2 ->
  step (run_ops ops1) (OTransform p f) = (w1, ROk (RPid R r)) -> map f xs = zs -> known m r (Num xs) -> same xs zs.
Proof. exact: (g_transform D0 Hd ka_sym Hm HU Pp). Qed.
End Maps.

(* C26. *)
Section Diff.
Variables (ops1 ops2 : seq (op R)).
Variables (m : mid) (p r : pid) (h : R) (deriv : nat) (gcs : seq (R * R)) (ords : seq (seq mid)) (w' : world R).
Hypothesis Hp : m \in w_gm (run_ops ops1) p.
Hypothesis E : diff_approx p h deriv gcs ords (run_ops ops1) = (w', Some r).
Hypothesis Ew : w = run_from w' ops2.
Let grid k := (nth (0, 0) gcs k).1.
Let coefs k := (nth (0, 0) gcs k).2.
Let at_grid k (xs : seq (point R)) := Num [seq addX (fun=> grid k * h) t | t <- xs].
Theorem C26_all_mean xs e es : P m p -> known m r (Num xs) -> mean_is m r (Num xs) e ->
  (forall k, (k < size gcs)%N -> mean_is m p (at_grid k xs) (es k)) ->
  (forall k, (k < size gcs)%N -> size (es k) = size e) /\
  forall i, (i < size e)%N -> nth 0 e i = (\sum_(k < size gcs) coefs k * nth 0 (es k) i) / h ^+ deriv.
Proof. exact: (g_diff_mean D0 Hd ka_sym Hm HU Hp E Ew). Qed.
Theorem C26_all_covariance xs q y M Ks : P m p -> known m r (Num xs) -> known m q y -> full m r q (Num xs) y M ->
  (forall k, (k < size gcs)%N -> full m p q (at_grid k xs) y (Ks k)) ->
  (forall k, (k < size gcs)%N -> nr (Ks k) = nr M /\ nc (Ks k) = nc M) /\
  forall i j, (i < nr M)%N -> (j < nc M)%N ->
    ent M i j = (\sum_(k < size gcs) coefs k * ent (Ks k) i j) / h ^+ deriv.
Proof. exact: (g_diff_cov D0 Hd ka_sym Hm HU Hp E Ew). Qed.
End Diff.

(* C49. *)
Theorem C49_all_size_partial m p k x s M : flat (fun=> True) (w_log w m) p -> see_k w m p p = Some k ->
  infer_size k x = Some s -> known m p x -> var_is m p x M -> nr M = s.
Proof. exact: (g_size D0 Hd ka_sym Hm HU). Qed.

(* C51. *)
Section Take.
Variables (m : mid) (n : nat) (f f' : fdd R) (mk : seq bool) (K : dmat R).
Hypotheses (S : well_settled w m (f_p f)) (T : take_fdd (own_kernel w) n f mk = Some f').
Hypotheses (Me : known m (f_p f) (f_x f)) (EK : var_is m (f_p f) (f_x f) K) (sm : size mk = nr K).
Theorem C51_all_mean_partial e e' : mean_is m (f_p f) (f_x f) e -> mean_is m (f_p f') (f_x f') e' -> e' = mask mk e.
Proof. exact: (g_take_mean D0 Hd ka_sym Hm HU S T Me EK sm). Qed.
Theorem C51_all_var_partial K' : var_is m (f_p f') (f_x f') K' -> masked mk K K'.
Proof. exact: (g_take_var D0 Hd ka_sym Hm HU S T Me EK sm). Qed.
Theorem C51_all_cov_partial q y M M' : known m q y -> full m (f_p f) q (f_x f) y M -> full m (f_p f') q (f_x f') y M' ->
  masked_rows mk M M'.
Proof. exact: (g_take_cov D0 Hd ka_sym Hm HU S T Me EK sm). Qed.
End Take.

(* C47. *)
Theorem C47_all_blocks_partial (T : Type) m (fs : seq (fdd R)) (ns : seq nat) (s : seq T) :
  Forall2 (fun f n => [/\ flat (fun=> True) (w_log w m) (f_p f), outputs (w_log w m) (f_p f) = 1%N \/ only_fdds (f_x f),
    known m (f_p f) (f_x f) & exists2 K, var_is m (f_p f) (f_x f) K & nr K = n]) fs ns ->
  unpack fs s = reshape ns s.
Proof. exact: (g_sample D0 Hd ka_sym Hm HU). Qed.

(* C34. *)
Section Missing.
Variables (m' m : mid) (ps : seq pid) (n : nat) (f : fdd R) (y : seq (option R)) (o : obs R) (Kz : dmat R).
Hypotheses (S : well_settled w m (f_p f)) (O : observe (own_kernel w) n f y = Some o).
Hypotheses (C : conditioned w m' m o ps) (Hz : f_p f \in ps) (Me : known m (f_p f) (f_x f)).
Hypotheses (EKz : var_is m (f_p f) (f_x f) Kz) (sy : size y = nr Kz).
Hypotheses (N1 : nr (f_noise f) = nr Kz) (N2 : nc (f_noise f) = nr Kz).
Let s := selected (map isSome y).
Hypothesis (U : block Kz s + block (f_noise f) s \in unitmx).
Theorem C34_all_covariance_partial p q x z K Kp Kq K' : p \in ps -> q \in ps -> P m' p -> P m' q -> known m p x -> known m q z ->
  full m p q x z K -> full m p (f_p f) x (f_x f) Kp -> full m q (f_p f) z (f_x f) Kq -> full m' p q x z K' ->
  [/\ nr K' = nr K, nc K' = nc K &
      exists2 B : 'M_(nr K, size s), B *m (block Kz s + block (f_noise f) s) = columns Kp (nr K) s &
        mx_at K' (nr K) (nc K) = mx_at K (nr K) (nc K) - B *m (columns Kq (nc K) s)^T].
Proof. exact: (g_missing_cov D0 Hd ka_sym Hm HU S O C Hz Me EKz sy N1 N2 U). Qed.
Theorem C34_all_mean_partial p x e ez Kp e' : p \in ps -> P m' p -> known m p x ->
  mean_is m p x e -> mean_is m (f_p f) (f_x f) ez -> full m p (f_p f) x (f_x f) Kp -> mean_is m' p x e' ->
  size e' = size e /\
  exists2 B : 'M_(size e, size s), B *m (block Kz s + block (f_noise f) s) = columns Kp (size e) s &
    forall i : 'I_(size e), nth 0 e' i = nth 0 e i +
      \sum_k B i k * (odflt 0 (nth None y (nth 0%N s k)) - nth 0 ez (nth 0%N s k)).
Proof. exact: (g_missing_mean D0 Hd ka_sym Hm HU S O C Hz Me EKz sy N1 N2 U). Qed.
End Missing.
End All.
Print Assumptions variances_are_full.
Print Assumptions C17_all_independent.
Print Assumptions C21_all_covariance.
Print Assumptions C21_all_mean.
Print Assumptions C21_all_constant_covariance.
Print Assumptions C21_all_constant_mean.
Print Assumptions C28_all_covariance.
Print Assumptions C28_all_mean.
Print Assumptions C29_all_covariance.
Print Assumptions C29_all_mean.
Print Assumptions C30_all_rows_covariance.
Print Assumptions C30_all_rows_mean.
Print Assumptions C30_all_pairs_covariance.
Print Assumptions C30_all_pairs_mean.
Print Assumptions C31_all_interpolation.
Print Assumptions C32_all_variance_reduction.
Print Assumptions C35_all_covariance.
Print Assumptions C35_all_mean.
Print Assumptions C48_all_covariance.
Print Assumptions C48_all_mean.
Print Assumptions C53_all_combine.
Print Assumptions C22_all_shift.
Print Assumptions C22_all_stretch.
Print Assumptions C22_all_select.
Print Assumptions C22_all_transform.
Print Assumptions C26_all_mean.
Print Assumptions C26_all_covariance.
Print Assumptions C49_all_size_partial.
Print Assumptions C51_all_mean_partial.
Print Assumptions C51_all_var_partial.
Print Assumptions C51_all_cov_partial.
Print Assumptions C47_all_blocks_partial.
Print Assumptions C34_all_covariance_partial.
Print Assumptions C34_all_mean_partial.

Section AllPdf.
Variable R : rcfType.
Variables (ln : R -> R) (pi : R).
Hypothesis LN : logarithm ln.
Variable D : nat -> (point R -> R) -> point R -> R.
Variables (mu : pid -> point R -> R) (ka : pid -> point R -> point R -> R) (dif : bool).
Hypothesis D0 : forall d t, D d (fun=> 0) t = 0.
Hypothesis Hd : dif -> differences D.
Hypothesis ka_sym : forall p s t, ka p s t = ka p t s.
Variable ops : seq (op R).
Let w := run_ops ops.
Hypothesis Hm : general D mu ka world0 ops.
Hypothesis HU : forall k, given_kernel ops k -> shaped_kernel D w k.
Notation known := (known dif ops).
Notation mean_is := (mean_is D w). Notation var_is m p x K := (cov_is D w m p p x x K).
Notation logpdf_is := (logpdf_is ln pi D w).

(* C42. *)
Section Chain.
Variables (m m1 : mid) (c cj r1 r2 : pid) (o1 : obs R) (f2 : fdd R) (y2 : seq R) (ps : seq pid) (Kj : dmat R).
Let f1 := MkFdd (o_p o1) (o_x o1) (o_noise o1).
Let fj := combine_fdd c [:: f1; f2].
Hypotheses (C1 : conditioned w m1 m o1 ps) (H1 : o_p o1 \in ps) (H2 : f_p f2 \in ps).
Hypothesis (Dc : defined w m c (DCross [:: o_p o1; f_p f2])).
Hypotheses (Dj : defined w m cj (DCopy c)) (D1 : defined w m r1 (DCopy (o_p o1))) (D2 : defined w m1 r2 (DCopy (f_p f2))).
Hypotheses (Zj : known m cj (f_x fj)) (Z1 : known m r1 (o_x o1)) (Z2 : known m1 r2 (f_x f2)) (Y2 : known m (f_p f2) (f_x f2)).
Hypotheses (Ej : var_is m cj (f_x fj) Kj).
Hypothesis (Pj : pd (mx_at Kj (nr Kj) (nr Kj) + mx_at (f_noise fj) (nr Kj) (nr Kj))).
Theorem C42_all_chain_rule lj l1 l2 :
  logpdf_is m cj (f_x fj) (f_noise fj) (map Some (o_y o1 ++ y2)) lj ->
  logpdf_is m r1 (o_x o1) (o_noise o1) (map Some (o_y o1)) l1 ->
  logpdf_is m1 r2 (f_x f2) (f_noise f2) (map Some y2) l2 ->
  lj = l1 + l2.
Proof. exact: (g_chain LN D0 Hd ka_sym Hm HU C1 H1 H2 Dc Dj D1 D2 Zj Z1 Z2 Y2 Ej Pj). Qed.
End Chain.

(* C30. *)
Section Rows.
Variables (m : mid) (p rA rB : pid) (xA xB : input R) (NA NB : dmat R) (yA yB : seq R) (s : seq nat)
  (xs : seq (point R)) (K : dmat R).
Hypotheses (DA : defined w m rA (DCopy p)) (DB : defined w m rB (DCopy p)).
Hypotheses (XA : points xA = Some xs) (XB : points xB = Some [seq nth [::] xs k | k <- s]).
Hypotheses (Sp : single (w_log w m) p).
Hypotheses (ZA : known m rA xA) (ZB : known m rB xB).
Hypotheses (EK : var_is m rA xA K).
Notation n := (size xs).
Hypothesis (Ps : perm_eq s (iota 0 n)).
Hypothesis (NAB : forall i j, (i < n)%N -> (j < n)%N -> ent NB i j = ent NA (nth 0%N s i) (nth 0%N s j)).
Hypothesis (YAB : forall i, (i < n)%N -> nth 0 yB i = nth 0 yA (nth 0%N s i)).
Hypothesis (PA : pd (mx_at K n n + mx_at NA n n)).
Theorem C30_all_rows_logpdf lA lB :
  logpdf_is m rA xA NA (map Some yA) lA -> logpdf_is m rB xB NB (map Some yB) lB -> lA = lB.
Proof. exact: (g_rows_logpdf LN D0 Hd ka_sym Hm HU DA DB XA XB Sp ZA ZB EK Ps NAB YAB PA). Qed.
End Rows.

Section Pairs.
Variables (m : mid) (cA cB rA rB : pid).
Variables (fs : seq (fdd R)) (ys es : seq (seq R)) (t : seq nat) (K : dmat R).
Let f0 := MkFdd 0 (Num [::]) (dzero R 0 0).
Let fsB := [seq nth f0 fs i | i <- t].
Let ysB := [seq nth [::] ys i | i <- t].
Let fA := combine_fdd cA fs.
Let fB := combine_fdd cB fsB.
Hypothesis (Pt : perm_eq t (iota 0 (size fs))).
Hypotheses (DA : defined w m cA (DCross (map (@f_p R) fs))) (DB : defined w m cB (DCross (map (@f_p R) fsB))).
Hypotheses (CA : defined w m rA (DCopy cA)) (CB : defined w m rB (DCopy cB)).
Hypothesis (Z : forall f, List.In f fs -> known m (f_p f) (f_x f)).
Hypotheses (ZA : known m rA (f_x fA)) (ZB : known m rB (f_x fB)).
Hypotheses (Sy : size ys = size fs).
Hypothesis (EE : forall i, (i < size fs)%N -> let f := nth f0 fs i in
  [/\ mean_is m (f_p f) (f_x f) (nth [::] es i), nr (f_noise f) = size (nth [::] es i),
      nc (f_noise f) = size (nth [::] es i) & size (nth [::] ys i) = size (nth [::] es i)]).
Hypothesis (EK : var_is m rA (f_x fA) K).
Hypothesis (PA : pd (mx_at K (nr K) (nr K) + mx_at (f_noise fA) (nr K) (nr K))).
Theorem C30_all_pairs_logpdf lA lB :
  logpdf_is m rA (f_x fA) (f_noise fA) (map Some (flatten ys)) lA ->
  logpdf_is m rB (f_x fB) (f_noise fB) (map Some (flatten ysB)) lB -> lA = lB.
Proof. exact: (g_pairs_logpdf LN D0 Hd ka_sym Hm HU Pt DA DB CA CB Z ZA ZB Sy EE EK PA). Qed.
End Pairs.

(* C34. *)
Section Missing.
Variables (m : mid) (r r' : pid) (n : nat) (f : fdd R) (y : seq (option R)) (o : obs R) (K : dmat R).
Hypotheses (S : well_settled w m (f_p f)) (O : observe (own_kernel w) n f y = Some o).
Hypotheses (Dr : defined w m r (DCopy (f_p f))) (Dr' : defined w m r' (DCopy (f_p f))).
Hypotheses (Zr : known m r (f_x f)) (Zr' : known m r' (o_x o)).
Hypothesis (EK : var_is m r (f_x f) K).
Hypothesis (PD : pd (mx_at K (nr K) (nr K) + mx_at (f_noise f) (nr K) (nr K))).
Theorem C34_all_logpdf_partial l l' : logpdf_is m r (f_x f) (f_noise f) y l ->
  logpdf_is m r' (o_x o) (o_noise o) (map Some (o_y o)) l' -> l = l'.
Proof. exact: (g_missing_logpdf LN D0 Hd ka_sym Hm HU S O Dr Dr' Zr Zr' EK PD). Qed.
End Missing.
End AllPdf.
Print Assumptions C42_all_chain_rule.
Print Assumptions C30_all_rows_logpdf.
Print Assumptions C30_all_pairs_logpdf.
Print Assumptions C34_all_logpdf_partial.

(* For models without products and [add_gp] in which Cartesian products come last, [known] and
   [full] ask for nothing but matching numbers of values. *)
Theorem simple_models_known_full (R : fieldType) (D : nat -> (point R -> R) -> point R -> R)
    (mu : pid -> point R -> R) (ka : pid -> point R -> point R -> R) (ops : seq (op R)) :
  (forall d t, D d (fun=> 0) t = 0) -> (forall p s t, ka p s t = ka p t s) ->
  plain D mu ka world0 ops -> gp_first ops -> let w := run_ops ops in
  [/\ general D mu ka world0 ops, forall m p, (m < w_nm w)%N -> covered false ops m (w_log w m) p,
      forall m p x, (m < w_nm w)%N -> widths false (w_log w m) p x <> None -> known false ops m p x &
      forall m p q x y M, (m < w_nm w)%N -> widths false (w_log w m) p x <> None -> widths false (w_log w m) q y <> None ->
        cov_is D w m p q x y M -> full D false ops m p q x y M].
Proof. exact (fun H1 H2 H3 H4 => simple_models H1 H2 H3 H4). Qed.
Print Assumptions simple_models_known_full.

(* Hence the theorems apply to the examples of P_Model.v ([xops], [dops0 ++ dops1]), P_LogPdf.v
   ([lops]) and P_Infer.v ([iops]). *)
Example simple_example (R : realFieldType) :
  [/\ plain (@xD R) (@xmu R) (@xka R) world0 (xops R) /\ gp_first (xops R),
      forall k, given_kernel (xops R) k -> shaped_kernel (@xD R) (xw R) k &
      forall h : R, [/\ plain (@xD R) (@xmu R) (@xka R) world0 (dops0 R ++ dops1 h), gp_first (dops0 R ++ dops1 h) &
        forall k, given_kernel (dops0 R ++ dops1 h) k -> shaped_kernel (@xD R) (run_ops (dops0 R ++ dops1 h)) k]].
Proof.
split; [split; [exact: xplain | exact: xgp_first] | exact: x_shaped | ].
by move=> h; split; [exact: dplain | | exact: d_shaped].
Qed.
Example simple_example_pdf (R : rcfType) :
  [/\ plain (@xD R) (@xmu R) (@xka R) world0 (lops R), gp_first (lops R) &
      forall k, given_kernel (lops R) k -> shaped_kernel (@xD R) (lw R) k] /\
  [/\ plain (@xD R) (@xmu R) (@xka R) world0 (iops R), gp_first (iops R) &
      forall k, given_kernel (iops R) k -> shaped_kernel (@xD R) (iw R) k].
Proof. split; (split; [ | by [] | ]); [exact: lplain | exact: l_shaped | exact: iplain | exact: i_shaped]. Qed.

(* A model with a product, [add_gp] and a GP that is constructed after a Cartesian product. *)
Example all_models_example (R : realFieldType) :
  [/\ differences (@eD R), forall d t, @eD R d (fun=> 0) t = 0, forall p s t, xka p s t = @xka R p t s,
      general (@eD R) (@xmu R) (@xka R) world0 (gops R) & forall k, given_kernel (gops R) k -> shaped_kernel (@eD R) (gw R) k].
Proof. split; [exact: eD_diff | exact: eD0 | exact: xka_sym | exact: g_general | exact: g_shaped]. Qed.
Example all_known_example (R : realFieldType) : Forall (fun a => known true (gops R) a.1.1 a.1.2 a.2) (gkn R).
Proof. exact (g_known R). Qed.
Example all_full_example (R : realFieldType) :
  Forall (fun a => exists M, full (@eD R) true (gops R) a.1.1.1.1 a.1.1.1.2 a.1.1.2 a.1.2 a.2 M) (gfl R).
Proof. exact (g_full R). Qed.
(* The late GP and the product of two others. *)
Example C17_all_example (R : realFieldType) :
  [/\ defined (gw R) 0 8 (DInd (MElem (@xmu R 8)) (KElem (@klin R))), unseen (w_log (gw R) 0) 8 & avoids (w_log (gw R) 0) 8 2].
Proof. split; [exact (g_def (g_d8 R)) | exact (nopost_unseen 8 (g_np R)) | exact (avx_ok (g_av R))]. Qed.
(* The sum of the late GP and the product, in both orders. *)
Example C21_all_example (R : realFieldType) :
  [/\ affine (gw R) 0 10 [:: (1, 8%N); (1, 2%N)] (0 + 0), affine (gw R) 0 11 [:: (1, 2%N); (1, 8%N)] (0 + 0) &
      forall r, coef [:: (1 : R, 8%N); (1, 2%N)] r = coef [:: (1, 2%N); (1, 8%N)] r].
Proof.
split; [exact (af_sum (g_def (g_d10 R)) (af_self _ _ _) (af_self _ _ _))
       | exact (af_sum (g_def (g_d11 R)) (af_self _ _ _) (af_self _ _ _)) | exact: coef_swap].
Qed.
(* The product, given a noisy observation of its sum with the late GP; and the sum, given a
   noiseless one. *)
Example C28_C31_all_example (R : realFieldType) :
  [/\ conditioned (gw R) 1 0 (gob R) gps, cov_is (@eD R) (gw R) 0 10 10 (X1 R) (X1 R) (gK R 10 10),
      mx_at (gK R 10 10) (nr (gK R 10 10)) (nr (gK R 10 10)) + mx_at (o_noise (gob R)) (nr (gK R 10 10)) (nr (gK R 10 10)) \in unitmx,
      exists K, cov_is (@eD R) (gw R) 1 2 2 (X1 R) (X1 R) K & exists e, mean_is (@eD R) (gw R) 1 2 (X1 R) e] /\
  [/\ conditioned (gw R) 2 0 (gob0 R) gps, zero_within (o_noise (gob0 R)),
      mx_at (gK R 10 10) (nr (gK R 10 10)) (nr (gK R 10 10)) \in unitmx & exists e, mean_is (@eD R) (gw R) 2 10 (X1 R) e].
Proof.
split; [split; [exact (g_c1 R) | exact (g_cov (g_kAA R)) | exact (g_inv R) | exact (g_post R) | exact (g_post_mean R)]
       | split; [exact (g_c2 R) | exact (@g_zero R) | exact (g_inv0 R) | exact (g_post0 R)]].
Qed.
Example C48_all_example (R : realFieldType) : parts (gw R) 0 7 (gin R) (gl R).
Proof. exact (g_parts R). Qed.
