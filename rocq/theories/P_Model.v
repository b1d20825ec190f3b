(* Theorems about what models mean: C10-C13, C17, C21, C22, C26, C28-C33, C35, C48, C52, C53.
   Statements use RV.v (random variables and the defining equations of processes), ModelSpec.v
   and GraphSpec.v; all proofs are elsewhere.

   [model D G eps w P] says that the random functions [G] (independently constructed
   processes and those of [add_gp]) and [eps] (observation noise) fit the world [w]; [P] selects
   the processes of interest, for instance without those of [add_gp] whose rules are not
   covariances.  The theorems named [_plain] construct such [G] and [eps]. *)
From Coq Require Import List.
From mathcomp Require Import all_ssreflect all_algebra.
From Verif Require Import Graph Machine Refine Worlds Eval GraphSpec GraphFacts RV Typing ModelSpec ModelFacts Formal Cond Combine CondFacts CrossFacts CombineFacts VarFacts LawFacts DiffApprox DiffFacts ModelThms Plain PlainThms ModelRefute ExModel ExUser ExDiff StepFacts.
Set Implicit Arguments. Unset Strict Implicit. Unset Printing Implicit Defensive.
Import GRing.Theory Num.Theory.
Local Open Scope ring_scope.

Implicit Types (m : mid) (p q r : pid).

(* The example model of ExModel.v has random variables, and all its processes have values. *)
Example example_model (R : realFieldType) : exists (W : space R) (G : pid -> point R -> rv W) (eps : mid -> nat -> rv W),
  [/\ nonneg W, model (@xD R) G eps (xw R) everywhere &
      forall m p x k, (m < w_nm (xw R))%N -> widths false (w_log (xw R) m) p x = Some k ->
        meant (@xD R) G eps (xw R) everywhere m p x].
Proof. exact: xmodel. Qed.

(* So has a model with a process of [add_gp]: g = 2 f, with 2 k as the kernel of g and f.  The
   variance of f + g at 0 is 9, and that of g at 1 is 4.4 when f + g was observed at 0. *)
Example example_user_model (R : realFieldType) : exists (W : space R) (G : pid -> point R -> rv W) (eps : mid -> nat -> rv W),
  [/\ model (@xD R) G eps (uw R) everywhere, is_at (@xD R) G eps (uw R) 0 1 (X1 R) [:: G 1%N [:: 1]],
      is_at (@xD R) G eps (uw R) 0 3 (X0 R) [:: radd (G 0%N [:: 0]) (G 1%N [:: 0])] &
      exists2 K, cov_is (@xD R) (uw R) 0 3 3 (X0 R) (X0 R) K & [/\ ent K 0 0 = 9%:R, nr K = 1%N &
        exists2 K', cov_is (@xD R) (uw R) 1 1 1 (X1 R) (X1 R) K' & 10%:R * ent K' 0 0 = 44%:R]].
Proof. exact (ex_intro _ (uW R) (ex_intro _ (@uG R) (ex_intro _ (@ueps R) (And4 (umodel R) (ug R) (us R) (uvalues R))))). Qed.

(* What operations define (used in the hypotheses below). *)
Theorem operations_define (R : fieldType) (ops : seq (op R)) o w1 r d ops' m :
  step (run_ops ops) o = (w1, ROk (RPid R r)) -> law o = Some d ->
  let w := run_from w1 ops' in r \in members w m -> defined w m r d.
Proof. exact: law_here. Qed.
Print Assumptions operations_define.

Theorem conditioning_conditions (R : fieldType) (ops : seq (op R)) m ob w1 res ops' :
  step (run_ops ops) (OCond m ob) = (w1, ROk res) ->
  let w := run_from w1 ops' in
  exists m' ps, [/\ res = RMid R m', perm_eq ps (members (run_ops ops) m) &
    if o_data ob is Some d then approximated w m' m ob d ps else conditioned w m' m ob ps].
Proof. exact: cond_here. Qed.
Print Assumptions conditioning_conditions.

Section Model.
Variables (R : fieldType) (W : space R).
Variable D : nat -> (point R -> R) -> point R -> R.
Variables (G : pid -> point R -> rv W) (eps : mid -> nat -> rv W).
Variables (ops : seq (op R)) (P : mid -> pid -> Prop).
Let w := run_ops ops.
Hypothesis Mo : model D G eps w P.
Notation is_at := (is_at D G eps w).
Notation meant := (meant D G eps w P).
Notation cov_is := (cov_is D w).
Notation mean_is := (mean_is D w).

(* C10, C11. Kernels and means are covariances and expectations. *)
Theorem C10_covariance_partial m p q x y M u v : P m p -> P m q ->
  is_at m p x u -> is_at m q y v -> cov_is m p q x y M -> covmat M u v.
Proof. exact: (covs (model_sound Mo)). Qed.
Theorem C11_expectation_partial m p x e u : P m p -> is_at m p x u -> mean_is m p x e -> e = map (@Ex R W) u.
Proof. exact: (means (model_sound Mo)). Qed.

(* C12. *)
Theorem C12_symmetric_partial m p q x y M M' : meant m p x -> meant m q y ->
  cov_is m p q x y M -> cov_is m q p y x M' -> transposed M M'.
Proof. exact: (symmetric (model_sound Mo)). Qed.

(* C17. A GP is uncorrelated with everything built without it. *)
Theorem C17_independent_derived m r mu k q x y M : defined w m r (DInd mu k) -> unseen (w_log w m) r ->
  avoids (w_log w m) r q -> meant m r x -> meant m q y -> cov_is m r q x y M ->
  forall i j, (i < nr M)%N -> (j < nc M)%N -> ent M i j = 0.
Proof. exact: (independent_derived (model_sound Mo)). Qed.

(* C21. Expressions that are the same linear combination, after collecting coefficients, have
   the same mean and the same covariance with everything; a linear combination without
   processes is a constant. *)
Theorem C21_covariance m p q l l' c x s z M M' : affine w m p l c -> affine w m q l' c ->
  (forall r, coef l r = coef l' r) -> meant m p x -> meant m q x -> meant m s z ->
  cov_is m p s x z M -> cov_is m q s x z M' -> nr M = nr M' -> same_matrix M M'.
Proof. exact: (affine_equal_cov (model_sound Mo)). Qed.
Theorem C21_mean m p q l l' c x e e' : affine w m p l c -> affine w m q l' c ->
  (forall r, coef l r = coef l' r) -> meant m p x -> meant m q x ->
  mean_is m p x e -> mean_is m q x e' -> size e = size e' -> e = e'.
Proof. exact: (affine_equal_mean (model_sound Mo)). Qed.
Theorem C21_constant_covariance m p l c x s z M : affine w m p l c -> (forall r, coef l r = 0) ->
  meant m p x -> meant m s z -> cov_is m p s x z M ->
  forall i j, (i < nr M)%N -> (j < nc M)%N -> ent M i j = 0.
Proof. exact: (affine_const_cov (model_sound Mo)). Qed.
Theorem C21_constant_mean m p l c x e : affine w m p l c -> (forall r, coef l r = 0) -> meant m p x ->
  mean_is m p x e -> forall i, (i < size e)%N -> nth 0 e i = c.
Proof. exact: (affine_const_mean (model_sound Mo)). Qed.

(* C28. [B] is the matrix of regression coefficients on the data: [B Var(Y) = Cov(p, Y)],
   that is, the residual is uncorrelated with the data. *)
Theorem C28_covariance m' m o ps p q x y K Kp Kq Kz K' :
  conditioned w m' m o ps -> p \in ps -> q \in ps -> o_p o \in ps -> P m' p -> P m' q ->
  meant m p x -> meant m q y -> meant m (o_p o) (o_x o) ->
  cov_is m p q x y K -> cov_is m p (o_p o) x (o_x o) Kp -> cov_is m q (o_p o) y (o_x o) Kq ->
  cov_is m (o_p o) (o_p o) (o_x o) (o_x o) Kz -> cov_is m' p q x y K' ->
  let n := nr Kz in nr (o_noise o) = n -> nc (o_noise o) = n ->
  mx_at Kz n n + mx_at (o_noise o) n n \in unitmx ->
  [/\ nr K' = nr K, nc K' = nc K &
      exists2 B : 'M_(nr K, n), B *m (mx_at Kz n n + mx_at (o_noise o) n n) = mx_at Kp (nr K) n &
        mx_at K' (nr K) (nc K) = mx_at K (nr K) (nc K) - B *m (mx_at Kq (nc K) n)^T].
Proof. exact: (conditional_cov (model_sound Mo)). Qed.
Theorem C28_mean m' m o ps p x e ez Kp Kz e' :
  conditioned w m' m o ps -> p \in ps -> o_p o \in ps -> P m' p ->
  meant m p x -> meant m (o_p o) (o_x o) ->
  mean_is m p x e -> mean_is m (o_p o) (o_x o) ez -> cov_is m p (o_p o) x (o_x o) Kp ->
  cov_is m (o_p o) (o_p o) (o_x o) (o_x o) Kz -> mean_is m' p x e' ->
  let n := nr Kz in nr (o_noise o) = n -> nc (o_noise o) = n ->
  mx_at Kz n n + mx_at (o_noise o) n n \in unitmx ->
  size e' = size e /\
  exists2 B : 'M_(size e, n), B *m (mx_at Kz n n + mx_at (o_noise o) n n) = mx_at Kp (size e) n &
    forall i : 'I_(size e), nth 0 e' i = nth 0 e i + \sum_k B i k * (nth 0 (o_y o) k - nth 0 ez k).
Proof. exact: (conditional_mean (model_sound Mo)). Qed.

(* C29. [m2] conditions [m1], which conditions [m]; [mj] conditions [m] on the combination. *)
Section C29.
Variables (m1 m2 mj m : mid) (c : pid) (o1 o2 : obs R) (ps1 ps2 psj : seq pid) (K1 K2 Kj : dmat R).
Let f1 := MkFdd (o_p o1) (o_x o1) (o_noise o1).
Let f2 := MkFdd (o_p o2) (o_x o2) (o_noise o2).
Let oj := combine_obs c [:: f1; f2] [:: o_y o1; o_y o2].
Hypotheses (C1 : conditioned w m1 m o1 ps1) (C2 : conditioned w m2 m1 o2 ps2) (Cj : conditioned w mj m oj psj).
Hypotheses (H1 : o_p o1 \in ps1) (H2 : o_p o2 \in ps2) (H2' : o_p o2 \in ps1) (Hj : c \in psj).
Hypothesis (Dc : defined w m c (DCross [:: o_p o1; o_p o2])).
Hypotheses (Z1 : meant m (o_p o1) (o_x o1)) (Z2 : meant m (o_p o2) (o_x o2)) (Pc : P m c).
Hypotheses (E1 : cov_is m (o_p o1) (o_p o1) (o_x o1) (o_x o1) K1) (E2 : cov_is m (o_p o2) (o_p o2) (o_x o2) (o_x o2) K2)
  (Ej : cov_is m c c (o_x oj) (o_x oj) Kj).
Hypotheses (N1 : nr (o_noise o1) = nr K1) (N1' : nc (o_noise o1) = nr K1).
Hypotheses (N2 : nr (o_noise o2) = nr K2) (N2' : nc (o_noise o2) = nr K2) (Y1 : size (o_y o1) = nr K1).
Hypotheses (U1 : mx_at K1 (nr K1) (nr K1) + mx_at (o_noise o1) (nr K1) (nr K1) \in unitmx)
  (Uj : mx_at Kj (nr Kj) (nr Kj) + mx_at (o_noise oj) (nr Kj) (nr Kj) \in unitmx).
Theorem C29_covariance p q x y M2 Mj : p \in ps1 -> p \in ps2 -> p \in psj -> q \in ps1 -> q \in ps2 -> q \in psj ->
  P m2 p -> P m2 q -> P mj p -> P mj q -> meant m p x -> meant m q y ->
  cov_is m2 p q x y M2 -> cov_is mj p q x y Mj -> same_matrix M2 Mj.
Proof. exact (sequential_cov (model_sound Mo) C1 C2 Cj H1 H2 H2' Hj Dc Z1 Z2 Pc E1 E2 Ej N1 N1' N2 N2' Y1 U1 Uj (p:=p) (q:=q) (x:=x) (y:=y) (M2:=M2) (Mj:=Mj)). Qed.
Theorem C29_mean p x e2 ej : p \in ps1 -> p \in ps2 -> p \in psj -> P m2 p -> P mj p -> meant m p x ->
  mean_is m2 p x e2 -> mean_is mj p x ej -> e2 = ej.
Proof. exact (sequential_mean (model_sound Mo) C1 C2 Cj H1 H2 H2' Hj Dc Z1 Z2 Pc E1 E2 Ej N1 N1' N2 N2' Y1 U1 Uj (p:=p) (x:=x) (e2:=e2) (ej:=ej)). Qed.
End C29.

(* C30. The rows of one observation are permuted by [s], together with inputs and noise. *)
Section C30_rows.
Variables (mA mB m : mid) (oA oB : obs R) (psA psB : seq pid) (s : seq nat) (xs : seq (point R)) (K : dmat R).
Hypotheses (CA : conditioned w mA m oA psA) (CB : conditioned w mB m oB psB).
Hypotheses (Ep : o_p oB = o_p oA) (HA : o_p oA \in psA) (HB : o_p oA \in psB).
Hypotheses (XA : points (o_x oA) = Some xs) (XB : points (o_x oB) = Some [seq nth [::] xs k | k <- s]).
Hypotheses (Sp : single (w_log w m) (o_p oA)).
Hypotheses (ZA : meant m (o_p oA) (o_x oA)) (ZB : meant m (o_p oA) (o_x oB)).
Hypotheses (EK : cov_is m (o_p oA) (o_p oA) (o_x oA) (o_x oA) K).
Notation n := (size xs).
Hypothesis (Ps : perm_eq s (iota 0 n)).
Hypotheses (NA : nr (o_noise oA) = n) (NA' : nc (o_noise oA) = n) (NB : nr (o_noise oB) = n) (NB' : nc (o_noise oB) = n).
Hypothesis (NAB : forall i j, (i < n)%N -> (j < n)%N ->
  ent (o_noise oB) i j = ent (o_noise oA) (nth 0%N s i) (nth 0%N s j)).
Hypothesis (YAB : forall i, (i < n)%N -> nth 0 (o_y oB) i = nth 0 (o_y oA) (nth 0%N s i)).
Hypothesis (UA : mx_at K n n + mx_at (o_noise oA) n n \in unitmx).
Theorem C30_rows_covariance p q x y MA MB : p \in psA -> p \in psB -> q \in psA -> q \in psB ->
  P mA p -> P mB p -> P mA q -> P mB q -> meant m p x -> meant m q y ->
  cov_is mA p q x y MA -> cov_is mB p q x y MB -> same_matrix MA MB.
Proof. exact (rows_cov (model_sound Mo) CA CB Ep HA HB XA XB Sp ZA ZB EK Ps NA NA' NB NB' NAB UA (p:=p) (q:=q) (x:=x) (y:=y) (MA:=MA) (MB:=MB)). Qed.
Theorem C30_rows_mean p x eA eB : p \in psA -> p \in psB -> P mA p -> P mB p -> meant m p x ->
  mean_is mA p x eA -> mean_is mB p x eB -> eA = eB.
Proof. exact (rows_mean (model_sound Mo) CA CB Ep HA HB XA XB Sp ZA ZB EK Ps NA NA' NB NB' NAB YAB UA (p:=p) (x:=x) (eA:=eA) (eB:=eB)). Qed.
End C30_rows.

(* C30. The pairs [fs], [ys] are permuted by [t]; [es] are their means. *)
Section C30_pairs.
Variables (mA mB m : mid) (cA cB : pid) (psA psB : seq pid).
Variables (fs : seq (fdd R)) (ys es : seq (seq R)) (t : seq nat) (K : dmat R).
Let f0 := MkFdd 0 (Num [::]) (dzero R 0 0).
Let fsB := [seq nth f0 fs i | i <- t].
Let ysB := [seq nth [::] ys i | i <- t].
Let oA := combine_obs cA fs ys.
Let oB := combine_obs cB fsB ysB.
Hypothesis (Pt : perm_eq t (iota 0 (size fs))).
Hypotheses (CA : conditioned w mA m oA psA) (CB : conditioned w mB m oB psB).
Hypotheses (HA : cA \in psA) (HB : cB \in psB).
Hypotheses (DA : defined w m cA (DCross (map (@f_p R) fs))) (DB : defined w m cB (DCross (map (@f_p R) fsB))).
Hypothesis (Z : forall f, List.In f fs -> meant m (f_p f) (f_x f)).
Hypothesis (Pc : P m cA).
Hypotheses (Sy : size ys = size fs).
Hypothesis (EE : forall i, (i < size fs)%N -> let f := nth f0 fs i in
  [/\ mean_is m (f_p f) (f_x f) (nth [::] es i), nr (f_noise f) = size (nth [::] es i),
      nc (f_noise f) = size (nth [::] es i) & size (nth [::] ys i) = size (nth [::] es i)]).
Hypothesis (EK : cov_is m cA cA (o_x oA) (o_x oA) K).
Hypothesis (UA : mx_at K (nr K) (nr K) + mx_at (o_noise oA) (nr K) (nr K) \in unitmx).
Theorem C30_pairs_covariance p q x y MA MB : p \in psA -> p \in psB -> q \in psA -> q \in psB ->
  P mA p -> P mB p -> P mA q -> P mB q -> meant m p x -> meant m q y ->
  cov_is mA p q x y MA -> cov_is mB p q x y MB -> same_matrix MA MB.
Proof. exact (permuted_cov (model_sound Mo) Pt CA CB HA HB DA DB Z Pc Sy EE EK UA (p:=p) (q:=q) (x:=x) (y:=y) (MA:=MA) (MB:=MB)). Qed.
Theorem C30_pairs_mean p x eA eB : p \in psA -> p \in psB -> P mA p -> P mB p -> meant m p x ->
  mean_is mA p x eA -> mean_is mB p x eB -> eA = eB.
Proof. exact (permuted_mean (model_sound Mo) Pt CA CB HA HB DA DB Z Pc Sy EE EK UA (p:=p) (x:=x) (eA:=eA) (eB:=eB)). Qed.
End C30_pairs.

(* C31. *)
Theorem C31_interpolation m' m o ps K : conditioned w m' m o ps -> o_p o \in ps ->
  meant m (o_p o) (o_x o) -> P m' (o_p o) ->
  cov_is m (o_p o) (o_p o) (o_x o) (o_x o) K -> nr (o_noise o) = nr K -> nc (o_noise o) = nr K ->
  zero_within (o_noise o) -> mx_at K (nr K) (nr K) \in unitmx ->
  (forall e, mean_is m' (o_p o) (o_x o) e ->
     size e = nr K /\ forall i, (i < nr K)%N -> nth 0 e i = nth 0 (o_y o) i) /\
  (forall q y M, q \in ps -> P m' q -> meant m q y -> cov_is m' (o_p o) q (o_x o) y M ->
     nr M = nr K /\ forall i j, (i < nr M)%N -> (j < nc M)%N -> ent M i j = 0).
Proof. exact: (noiseless (model_sound Mo)). Qed.

(* C35. [o1] observes [f] with noise, [o2] observes [f + e] without; [e] has mean zero, is
   uncorrelated with [f], and has the noise as its covariance. *)
Section C35.
Variables (m1 m2 m : mid) (o1 o2 : obs R) (ps1 ps2 : seq pid) (e : pid) (K Ke Kfe : dmat R) (mue : seq R).
Hypotheses (C1 : conditioned w m1 m o1 ps1) (C2 : conditioned w m2 m o2 ps2).
Hypotheses (H1 : o_p o1 \in ps1) (H2 : o_p o2 \in ps2).
Hypothesis (Sum : defined w m (o_p o2) (DSum (o_p o1) e)).
Hypotheses (Xo : o_x o2 = o_x o1) (Yo : o_y o2 = o_y o1) (N0 : zero_within (o_noise o2)).
Hypotheses (Z1 : meant m (o_p o1) (o_x o1)) (Ze : meant m e (o_x o1)) (Z2 : meant m (o_p o2) (o_x o1)).
Hypotheses (EK : cov_is m (o_p o1) (o_p o1) (o_x o1) (o_x o1) K) (Ee : cov_is m e e (o_x o1) (o_x o1) Ke)
  (Efe : cov_is m (o_p o1) e (o_x o1) (o_x o1) Kfe) (Eme : mean_is m e (o_x o1) mue).
Hypotheses (N1 : nr (o_noise o1) = nr K) (N1' : nc (o_noise o1) = nr K)
  (N2 : nr (o_noise o2) = nr K) (N2' : nc (o_noise o2) = nr K).
Hypotheses (Me : forall i, (i < size mue)%N -> nth 0 mue i = 0) (Ve : same_matrix Ke (o_noise o1)) (Ie : zero_within Kfe).
Hypothesis (U : mx_at K (nr K) (nr K) + mx_at (o_noise o1) (nr K) (nr K) \in unitmx).
Theorem C35_covariance p q x y M1 M2 Kp Kq : p \in ps1 -> p \in ps2 -> q \in ps1 -> q \in ps2 ->
  P m1 p -> P m2 p -> P m1 q -> P m2 q -> meant m p x -> meant m q y ->
  cov_is m p e x (o_x o1) Kp -> zero_within Kp -> cov_is m q e y (o_x o1) Kq -> zero_within Kq ->
  cov_is m1 p q x y M1 -> cov_is m2 p q x y M2 -> same_matrix M1 M2.
Proof. exact (noise_process_cov (model_sound Mo) C1 C2 H1 H2 Sum Xo N0 Z1 Ze Z2 EK Ee Efe Eme N1 N1' N2 N2' Me Ve Ie U (p:=p) (q:=q) (x:=x) (y:=y) (M1:=M1) (M2:=M2) (Kp:=Kp) (Kq:=Kq)). Qed.
Theorem C35_mean p x e1 e2 Kp : p \in ps1 -> p \in ps2 ->
  P m1 p -> P m2 p -> meant m p x -> cov_is m p e x (o_x o1) Kp -> zero_within Kp ->
  mean_is m1 p x e1 -> mean_is m2 p x e2 -> e1 = e2.
Proof. exact (noise_process_mean (model_sound Mo) C1 C2 H1 H2 Sum Xo Yo N0 Z1 Ze Z2 EK Ee Efe Eme N1 N1' N2 N2' Me Ve Ie U (p:=p) (x:=x) (e1:=e1) (e2:=e2) (Kp:=Kp)). Qed.
End C35.

(* C48. A process at an input is the concatenation of the [parts]; the covariance matrix
   consists of their covariance matrices [B i j] and the mean of their means. *)
Theorem C48_covariance m p q x y l l' M B : parts w m p x l -> parts w m q y l' -> meant m p x -> meant m q y ->
  (forall z, z \in map fst (l ++ l') -> P m z) -> cov_is m p q x y M ->
  (forall i j, (i < size l)%N -> (j < size l')%N -> cov_is m (lname l i) (lname l' j) (linput l i) (linput l' j) (B i j)) ->
  exists sh sh', [/\ size sh = size l, size sh' = size l' & blocks sh sh' B M].
Proof. exact: (parts_cov (model_sound Mo)). Qed.
Theorem C48_mean m p x l e es : parts w m p x l -> meant m p x -> (forall z, z \in map fst l -> P m z) ->
  mean_is m p x e -> size es = size l ->
  (forall i, (i < size l)%N -> mean_is m (lname l i) (linput l i) (nth [::] es i)) -> e = flatten es.
Proof. exact: (parts_mean (model_sound Mo)). Qed.

(* C53. *)
Theorem C53_combine m c fs M e B es : defined w m c (DCross (map (@f_p R) fs)) ->
  (forall f, List.In f fs -> meant m (f_p f) (f_x f)) -> P m c ->
  let cf := combine_fdd c fs in
  cov_is m c c (f_x cf) (f_x cf) M -> mean_is m c (f_x cf) e ->
  let l := [seq (f_p f, f_x f) | f <- fs] in
  (forall i j, (i < size fs)%N -> (j < size fs)%N -> cov_is m (lname l i) (lname l j) (linput l i) (linput l j) (B i j)) ->
  size es = size fs -> (forall i, (i < size fs)%N -> mean_is m (lname l i) (linput l i) (nth [::] es i)) ->
  e = flatten es /\ blocks (map size es) (map size es) B M.
Proof. exact: (combine_numbers (model_sound Mo)). Qed.
End Model.
Print Assumptions C10_covariance_partial.
Print Assumptions C11_expectation_partial.
Print Assumptions C12_symmetric_partial.
Print Assumptions C17_independent_derived.
Print Assumptions C21_covariance.
Print Assumptions C21_mean.
Print Assumptions C21_constant_covariance.
Print Assumptions C21_constant_mean.
Print Assumptions C28_covariance.
Print Assumptions C28_mean.
Print Assumptions C29_covariance.
Print Assumptions C29_mean.
Print Assumptions C30_rows_covariance.
Print Assumptions C30_rows_mean.
Print Assumptions C30_pairs_covariance.
Print Assumptions C30_pairs_mean.
Print Assumptions C31_interpolation.
Print Assumptions C35_covariance.
Print Assumptions C35_mean.
Print Assumptions C48_covariance.
Print Assumptions C48_mean.
Print Assumptions C53_combine.

(* C53. The noise of the combination is block-diagonal, and the values are concatenated. *)
Theorem C53_noise_and_values (R : fieldType) (c : pid) (fs : seq (fdd R)) (ys : seq (seq R)) :
  let N0 := dzero R 0 0 in let Ns := map (@f_noise R) fs in
  blocks (map (@nr R) Ns) (map (@nc R) Ns)
    (fun i j => if i == j then nth N0 Ns i else dzero R (nr (nth N0 Ns i)) (nc (nth N0 Ns j)))
    (f_noise (combine_fdd c fs)) /\
  [/\ o_p (combine_obs c fs ys) = c, o_x (combine_obs c fs ys) = f_x (combine_fdd c fs),
      o_noise (combine_obs c fs ys) = f_noise (combine_fdd c fs) &
      o_y (combine_obs c fs ys) = flatten ys].
Proof. by split; [exact: bdiag_blocks | ]. Qed.
Print Assumptions C53_noise_and_values.

(* C10, C11, for all models without products of processes and without [add_gp], with
   multi-output processes after the independently constructed ones ([plain], [gp_first]):
   there are random variables such that independently constructed processes have the given
   means and kernels and are independent; every process has a value wherever the numbers of
   values match ([widths]); and kernels and means are covariances and expectations. *)
Theorem C10_C11_plain_partial (R : fieldType) (D : nat -> (point R -> R) -> point R -> R)
    (mu : pid -> point R -> R) (ka : pid -> point R -> point R -> R) (ops : seq (op R)) :
  (forall d t, D d (fun=> 0) t = 0) -> (forall p s t, ka p s t = ka p t s) ->
  plain D mu ka world0 ops -> gp_first ops ->
  let w := run_ops ops in
  exists (W : space R) (G : pid -> point R -> rv W) (eps : mid -> nat -> rv W),
  [/\ forall p q s t, cov (G p s) (G q t) = if p == q then ka p s t else 0,
      forall p t, Ex (G p t) = mu p t,
      forall m pm par o i j, (m < w_nm w)%N -> base (w_log w m) = Some (pm, par, o) ->
        (i < nr (full_noise o))%N -> (j < nr (full_noise o))%N ->
        [/\ Ex (eps m i) = 0, cov (eps m i) (eps m j) = ent (full_noise o) i j,
            forall p t, cov (eps m i) (G p t) = 0 & forall m' i', m <> m' -> cov (eps m i) (eps m' i') = 0],
      forall m p x k, (m < w_nm w)%N -> widths false (w_log w m) p x = Some k ->
        exists2 u, is_at D G eps w m p x u & size u = k &
      forall m p x u, is_at D G eps w m p x u ->
        (forall e, mean_is D w m p x e -> e = map (@Ex R W) u) /\
        (forall q y v M, is_at D G eps w m q y v -> cov_is D w m p q x y M -> covmat M u v)].
Proof. exact (fun H1 H2 H3 H4 => plain_joint H1 H2 H3 H4). Qed.
Print Assumptions C10_C11_plain_partial.

Example C10_example (R : realFieldType) : let D := @xD R in
  [/\ plain D (@xmu R) (@xka R) world0 (xops R), gp_first (xops R) &
      Forall (fun pq => exists M, cov_is D (xw R) 0 pq.1 pq.2 (X01 R) (X01 R) M)
        [:: (0, 2); (2, 4); (6, 7); (3, 6)]%N].
Proof.
split; [exact: xplain | exact: xgp_first | ].
by constructor; [ | constructor; [ | constructor; [ | constructor; [ | constructor]]]]; apply: has_cov; vm_compute.
Qed.

(* C10. A GP that is constructed after a Cartesian product: the kernel is not the covariance
   of the two processes, for any choice of random variables. *)
Theorem C10_late_gp_refuted (R : fieldType) : exists (ops : seq (op R)) D m p q x,
  forall (W : space R) (G : pid -> point R -> rv W) (eps : mid -> nat -> rv W), exists M u v,
  [/\ cov_is D (run_ops ops) m p q x x M, is_at D G eps (run_ops ops) m p x u,
      is_at D G eps (run_ops ops) m q x v &
      forall M', cov_is D (run_ops ops) m p q x x M' -> ~ covmat M' u v].
Proof. exact: (ex_intro _ _ (ex_intro _ _ (ex_intro _ _ (ex_intro _ _ (ex_intro _ _ (ex_intro _ _ (@late_cov R))))))). Qed.
Print Assumptions C10_late_gp_refuted.

(* C52. In the same model, the cross-covariance has one column although the multi-output
   process has two values. *)
Theorem C52_late_gp_refuted (R : fieldType) : exists (ops : seq (op R)) D m p q x M e,
  [/\ cov_is D (run_ops ops) m p q x x M, mean_is D (run_ops ops) m q x e & nc M <> size e].
Proof.
have [M [e [h1 h2 [h3 h4]]]] := late_shape R.
by exists (late_ops R), (fun _ _ _ => 0), 0%N, 2%N, 1%N, (late_x R), M, e; split=> //; rewrite h3 h4.
Qed.
Print Assumptions C52_late_gp_refuted.

(* C52. With the independently constructed processes first, shapes are right. *)
Theorem C52_shape_partial (R : fieldType) (D : nat -> (point R -> R) -> point R -> R)
    (mu : pid -> point R -> R) (ka : pid -> point R -> point R -> R) (ops : seq (op R)) :
  (forall d t, D d (fun=> 0) t = 0) -> (forall p s t, ka p s t = ka p t s) ->
  plain D mu ka world0 ops -> gp_first ops ->
  let w := run_ops ops in
  forall m p q x y a b M, (m < w_nm w)%N -> widths false (w_log w m) p x = Some a ->
  widths false (w_log w m) q y = Some b -> cov_is D w m p q x y M -> nr M = a /\ nc M = b.
Proof. move=> H1 H2 H3 H4 w m p q x y a b M; exact (plain_shape H1 H2 H3 H4 (m:=m) (p:=p) (q:=q) (x:=x) (y:=y) (a:=a) (b:=b) (M:=M)). Qed.
Print Assumptions C52_shape_partial.

Example C52_example (R : realFieldType) : let w := xw R in
  [/\ widths false (w_log w 0) 6 (X01 R) = Some 4%N, widths false (w_log w 0) 1 (X01 R) = Some 2%N &
      exists M, cov_is (@xD R) w 0 6 1 (X01 R) (X01 R) M].
Proof.
move=> w; split; [by rewrite /w xlog0; vm_compute | by rewrite /w xlog0; vm_compute | ].
by apply: has_cov; vm_compute.
Qed.

(* C12 for these models. *)
Theorem C12_symmetric_plain (R : fieldType) (D : nat -> (point R -> R) -> point R -> R)
    (mu : pid -> point R -> R) (ka : pid -> point R -> point R -> R) (ops : seq (op R)) :
  (forall d t, D d (fun=> 0) t = 0) -> (forall p s t, ka p s t = ka p t s) ->
  plain D mu ka world0 ops -> gp_first ops ->
  let w := run_ops ops in
  forall m p q x y a b M M', (m < w_nm w)%N -> widths false (w_log w m) p x = Some a ->
  widths false (w_log w m) q y = Some b -> cov_is D w m p q x y M -> cov_is D w m q p y x M' -> transposed M M'.
Proof. move=> H1 H2 H3 H4 w m p q x y a b M M'; exact (plain_symmetric H1 H2 H3 H4 (m:=m) (p:=p) (q:=q) (x:=x) (y:=y) (a:=a) (b:=b) (M:=M) (M':=M')). Qed.
Print Assumptions C12_symmetric_plain.

Example C12_example (R : realFieldType) : let w := xw R in
  [/\ widths false (w_log w 0) 6 (X01 R) = Some 4%N, widths false (w_log w 0) 4 (X1 R) = Some 1%N,
      exists M, cov_is (@xD R) w 0 6 4 (X01 R) (X1 R) M & exists M, cov_is (@xD R) w 0 4 6 (X1 R) (X01 R) M].
Proof.
move=> w; split; [by rewrite /w xlog0; vm_compute | by rewrite /w xlog0; vm_compute | | ].
  by apply: has_cov; vm_compute.
by apply: has_cov; vm_compute.
Qed.

(* C13. [l] lists processes and inputs; the blocks of the joint covariance matrix are the
   covariance matrices of its elements. *)
Theorem C13_joint_psd_partial (R : realFieldType) (W : space R) (D : nat -> (point R -> R) -> point R -> R)
    (G : pid -> point R -> rv W) (eps : mid -> nat -> rv W) (ops : seq (op R)) (P : mid -> pid -> Prop) :
  nonneg W -> let w := run_ops ops in model D G eps w P ->
  forall m l B c, (forall i, (i < size l)%N -> meant D G eps w P m (lname l i) (linput l i)) ->
  (forall i j, (i < size l)%N -> (j < size l)%N -> cov_is D w m (lname l i) (lname l j) (linput l i) (linput l j) (B i j)) ->
  0 <= block_quad (size l) B c.
Proof. move=> H1 w H2 m l B c; exact (joint_psd H1 (model_sound H2) (m:=m) (l:=l) (B:=B) c). Qed.
Print Assumptions C13_joint_psd_partial.

Theorem C13_joint_psd_plain (R : realFieldType) (D : nat -> (point R -> R) -> point R -> R)
    (mu : pid -> point R -> R) (ka : pid -> point R -> point R -> R) (ops : seq (op R)) :
  (forall d t, D d (fun=> 0) t = 0) -> (forall p s t, ka p s t = ka p t s) -> (forall p, psd_fun (ka p)) ->
  plain D mu ka world0 ops -> gp_first ops -> psd_noise ops ->
  let w := run_ops ops in
  forall m l B c, (m < w_nm w)%N ->
  (forall i, (i < size l)%N -> widths false (w_log w m) (lname l i) (linput l i) <> None) ->
  (forall i j, (i < size l)%N -> (j < size l)%N -> cov_is D w m (lname l i) (lname l j) (linput l i) (linput l j) (B i j)) ->
  0 <= block_quad (size l) B c.
Proof. move=> H1 H2 H3 H4 H5 H6 w m l B c; exact (plain_joint_psd H1 H2 H3 H4 H5 H6 (m:=m) (l:=l) (B:=B) c). Qed.
Print Assumptions C13_joint_psd_plain.

Example C13_example (R : realFieldType) : let D := @xD R in
  [/\ forall p, psd_fun (@xka R p), psd_noise (xops R) &
      forall i j, (i < 2)%N -> (j < 2)%N -> let l := [:: (2%N, X01 R); (6%N, X1 R)] in
        exists M, cov_is D (xw R) 0 (lname l i) (lname l j) (linput l i) (linput l j) M].
Proof.
split; [exact: xka_psd | exact: xpsd_noise | ].
by move=> [|[|i]] [|[|j]] // _ _ l; apply: has_cov; vm_compute.
Qed.

(* C22. The four input maps; [same_process] says that the two processes have the same mean
   and the same covariance with everything. *)
Section C22.
Variables (R : fieldType) (W : space R).
Variable D : nat -> (point R -> R) -> point R -> R.
Variables (G : pid -> point R -> rv W) (eps : mid -> nat -> rv W).
Variables (ops ops' : seq (op R)) (P : mid -> pid -> Prop) (w1 : world R) (r p : pid) (m : mid).
Let w := run_from w1 ops'.
Hypothesis Mo : model D G eps w P.
Hypothesis Pp : P m p.
Notation same xs zs :=
  ([/\ meant D G eps w P m p (Num zs),
      forall e e', mean_is D w m r (Num xs) e -> mean_is D w m p (Num zs) e' -> e = e' &
      forall s z M M', meant D G eps w P m s z ->
        cov_is D w m r s (Num xs) z M -> cov_is D w m p s (Num zs) z M' -> same_matrix M M']).
Theorem C22_shift c xs : step (run_ops ops) (OShift p c) = (w1, ROk (RPid R r)) ->
  let xs' := [seq addX c x | x <- xs] in meant D G eps w P m r (Num xs') -> same xs' xs.
Proof. exact (fun E => shift_here (sound_at (run_split ops' E) Mo) Pp (xs:=xs) E). Qed.
Theorem C22_stretch s xs : step (run_ops ops) (OStretch p s) = (w1, ROk (RPid R r)) -> (forall i, s i != 0) ->
  let xs' := [seq mulX s x | x <- xs] in meant D G eps w P m r (Num xs') -> same xs' xs.
Proof. exact (fun E => stretch_here (sound_at (run_split ops' E) Mo) Pp (xs:=xs) E). Qed.
Theorem C22_select dims xs zs : step (run_ops ops) (OSelect R p dims) = (w1, ROk (RPid R r)) ->
  [seq [seq nth 0 x i | i <- dims] | x <- xs] = zs -> meant D G eps w P m r (Num xs) -> same xs zs.
Proof. exact (fun E => select_here (sound_at (run_split ops' E) Mo) Pp (xs:=xs) (zs:=zs) E). Qed.
Theorem C22_transform f xs zs : step (run_ops ops) (OTransform p f) = (w1, ROk (RPid R r)) ->
  map f xs = zs -> meant D G eps w P m r (Num xs) -> same xs zs.
Proof. exact (fun E => transform_here (sound_at (run_split ops' E) Mo) Pp (xs:=xs) (zs:=zs) E). Qed.
End C22.
Print Assumptions C22_shift.
Print Assumptions C22_stretch.
Print Assumptions C22_select.
Print Assumptions C22_transform.

(* C26. *)
Section C26.
Variables (R : fieldType) (W : space R).
Variable D : nat -> (point R -> R) -> point R -> R.
Variables (G : pid -> point R -> rv W) (eps : mid -> nat -> rv W).
Variables (ops ops' : seq (op R)) (P : mid -> pid -> Prop).
Variables (m : mid) (p r : pid) (h : R) (deriv : nat) (gcs : seq (R * R)) (ords : seq (seq mid)) (w' : world R).
Hypothesis Hp : m \in w_gm (run_ops ops) p.
Hypothesis E : diff_approx p h deriv gcs ords (run_ops ops) = (w', Some r).
Let w := run_from w' ops'.
Hypothesis Mo : model D G eps w P.
Notation meant := (meant D G eps w P).
Notation cov_is := (cov_is D w).
Notation mean_is := (mean_is D w).
Let grid k := (nth (0, 0) gcs k).1.
Let coefs k := (nth (0, 0) gcs k).2.
Let at_grid k (xs : seq (point R)) := Num [seq addX (fun=> grid k * h) t | t <- xs].
Theorem C26_mean xs e es : P m p -> meant m r (Num xs) -> mean_is m r (Num xs) e ->
  (forall k, (k < size gcs)%N -> mean_is m p (at_grid k xs) (es k)) ->
  (forall k, (k < size gcs)%N -> size (es k) = size e) /\
  forall i, (i < size e)%N -> nth 0 e i = (\sum_(k < size gcs) coefs k * nth 0 (es k) i) / h ^+ deriv.
Proof. exact (diff_mean Hp E (diff_sound Hp E Mo) (xs:=xs) (e:=e) (es:=es)). Qed.
Theorem C26_covariance xs q y M Ks : P m p -> meant m r (Num xs) -> meant m q y -> cov_is m r q (Num xs) y M ->
  (forall k, (k < size gcs)%N -> cov_is m p q (at_grid k xs) y (Ks k)) ->
  (forall k, (k < size gcs)%N -> nr (Ks k) = nr M /\ nc (Ks k) = nc M) /\
  forall i j, (i < nr M)%N -> (j < nc M)%N ->
    ent M i j = (\sum_(k < size gcs) coefs k * ent (Ks k) i j) / h ^+ deriv.
Proof. exact (diff_cov Hp E (diff_sound Hp E Mo) (xs:=xs) (q:=q) (y:=y) (M:=M) (Ks:=Ks)). Qed.
End C26.
Print Assumptions C26_mean.
Print Assumptions C26_covariance.

(* C32. *)
Theorem C32_variance_reduction (R : realFieldType) (W : space R) (D : nat -> (point R -> R) -> point R -> R)
    (G : pid -> point R -> rv W) (eps : mid -> nat -> rv W) (ops : seq (op R)) (P : mid -> pid -> Prop) :
  nonneg W -> let w := run_ops ops in model D G eps w P ->
  forall m' m o ps l B B' Kz c, conditioned w m' m o ps -> o_p o \in ps ->
  (forall i, (i < size l)%N -> lname l i \in ps) ->
  meant D G eps w P m (o_p o) (o_x o) -> (forall i, (i < size l)%N -> P m' (lname l i)) ->
  (forall i, (i < size l)%N -> meant D G eps w P m (lname l i) (linput l i)) ->
  (forall i j, (i < size l)%N -> (j < size l)%N -> cov_is D w m (lname l i) (lname l j) (linput l i) (linput l j) (B i j)) ->
  (forall i j, (i < size l)%N -> (j < size l)%N -> cov_is D w m' (lname l i) (lname l j) (linput l i) (linput l j) (B' i j)) ->
  cov_is D w m (o_p o) (o_p o) (o_x o) (o_x o) Kz ->
  let n := nr Kz in nr (o_noise o) = n -> nc (o_noise o) = n ->
  mx_at Kz n n + mx_at (o_noise o) n n \in unitmx ->
  block_quad (size l) B' c <= block_quad (size l) B c.
Proof. move=> H1 w H2 m' m o ps l B B' Kz c; exact (variance_reduction H1 (model_sound H2) (m':=m') (m:=m) (o:=o) (ps:=ps) (l:=l) (B:=B) (B':=B') (Kz:=Kz) c). Qed.
Print Assumptions C32_variance_reduction.

(* C33. *)
Theorem C33_empty (R : fieldType) (ops : seq (op R)) m ob w' res ops' i j :
  let w := run_ops ops in step w (OCond m ob) = (w', ROk res) -> o_data ob = None -> ne (o_x ob) = 0%N ->
  i \in members w m -> j \in members w m ->
  exists m', [/\ res = RMid R m', members w' m' = members w m &
    let w'' := run_from w' ops' in
    [/\ see_k w'' m' i j = see_k w m i j, see_m w'' m' i = see_m w m i,
        forall D n x y, kernel_at D n w'' m' i j x y = kernel_at D n w'' m i j x y &
        forall D n x, mean_at D n w'' m' i x = mean_at D n w'' m i x]].
Proof. exact: empty_condition. Qed.
Print Assumptions C33_empty.

(* Cases that meet the hypotheses: all of them are about the model of ExModel.v, for which
   [example_model] gives random variables with all processes [meant]. *)
Example C17_example (R : realFieldType) : let w := xw R in
  [/\ defined w 0 1 (DInd (MElem (@xmu R 1)) (KElem (@klin R))), unseen (w_log w 0) 1, avoids (w_log w 0) 1 4 &
      exists M, cov_is (@xD R) w 0 1 4 (X01 R) (X1 R) M].
Proof.
have [[_ d _ _] _] := xdefs R; split; [exact d | by rewrite xlog0; vm_compute | | ].
  by rewrite xlog0 /=; split=> // p; rewrite inE => /eqP -> /=; split.
by apply: has_cov; vm_compute.
Qed.

(* f + f and 2 f. *)
Example C21_example (R : realFieldType) : let w := xw R in
  [/\ affine w 0 5 [:: (1, 0%N); (1, 0%N)] (0 + 0), affine w 0 3 [:: (2%:R * 1, 0%N)] (2%:R * 0),
      forall r, coef [:: (1 : R, 0%N); (1, 0%N)] r = coef [:: (2%:R * 1, 0%N)] r &
      Forall (fun p => (exists M, cov_is (@xD R) w 0 p 4 (X01 R) (X1 R) M) /\ (exists e, mean_is (@xD R) w 0 p (X01 R) e))
        [:: 5; 3]%N].
Proof.
have [[_ _ _ d3] [_ d5 _ _]] := xdefs R; split.
- by apply: (af_sum d5 (l := [:: _]) (l' := [:: _])); apply: af_self.
- by have := af_scale d3 (af_self _ _ _); apply.
- by move=> r; rewrite /coef !big_cons !big_nil /=; case: eqP => _; rewrite ?addr0 ?mulr1.
by constructor; [ | constructor; [ | constructor]]; (split; [apply: has_cov | apply: has_mean]); vm_compute.
Qed.

(* Measures 1, 2, 3, 4, 6, 7 condition measure 0 on one observation each; measure 5 is
   measure 4 conditioned on another one. *)
Example C28_example (R : realFieldType) : let w := xw R in
  Forall (fun mo => [/\ conditioned w mo.1 0 mo.2 xps, xinv mo.2,
    exists M, cov_is (@xD R) w mo.1 0 0 (X1 R) (X1 R) M & exists e, mean_is (@xD R) w mo.1 0 (X1 R) e])
  [:: (1%N, obA R); (2%N, obB R); (3%N, obA' R); (4%N, ob1 R); (6%N, ob12 R); (7%N, ob21 R)].
Proof. exact: xposts. Qed.
Example C29_example (R : realFieldType) : let w := xw R in
  let fd o := MkFdd (o_p o) (o_x o) (o_noise o) in
  [/\ conditioned w 4 0 (ob1 R) xps, conditioned w 5 4 (ob2 R) xps,
      conditioned w 6 0 (combine_obs 6 [:: fd (ob1 R); fd (ob2 R)] [:: o_y (ob1 R); o_y (ob2 R)]) xps,
      defined w 0 6 (DCross [:: o_p (ob1 R); o_p (ob2 R)]) &
      [/\ xinv (ob1 R), xinv (ob12 R), exists M, cov_is (@xD R) w 5 0 0 (X1 R) (X1 R) M &
          exists M, cov_is (@xD R) w 6 0 0 (X1 R) (X1 R) M]].
Proof.
have [_ [c4 c5 c6 _]] := xcond R; have [_ [_ _ d6 _]] := xdefs R; split; [exact c4 | exact c5 | exact c6 | exact d6 | ].
split; [exact: xinv1 | exact: xinv12 | exact: xpost5 | exact: x6].
Qed.
(* Two observations in the other order, with their noise. *)
Example C30_rows_example (R : realFieldType) : let w := xw R in let s := [:: 1; 0]%N in
  [/\ conditioned w 1 0 (obA R) xps, conditioned w 3 0 (obA' R) xps,
      points (o_x (obA R)) = Some [:: [:: 0]; [:: 1]],
      points (o_x (obA' R)) = Some [seq nth [::] [:: [:: 0]; [:: 1]] k | k <- s] &
      single (w_log w 0) 0 /\
      forall i j, (i < 2)%N -> (j < 2)%N ->
        ent (o_noise (obA' R)) i j = ent (o_noise (obA R)) (nth 0%N s i) (nth 0%N s j) /\
        nth 0 (o_y (obA' R)) i = nth 0 (o_y (obA R)) (nth 0%N s i)].
Proof.
have [[c1 _ c3] _] := xcond R; split; [exact c1 | exact c3 | by [] | by [] | split; first by rewrite xlog0].
by move=> [|[|i]] [|[|j]].
Qed.
Example C30_pairs_example (R : realFieldType) : let w := xw R in
  let fs := [:: fdd1 R; fdd2 R] in let ys := [:: [:: 1]; [:: 2%:R]] in let t := [:: 1; 0]%N in
  [/\ conditioned w 6 0 (combine_obs 6 fs ys) xps,
      conditioned w 7 0 (combine_obs 7 [seq nth (fdd1 R) fs i | i <- t] [seq nth [::] ys i | i <- t]) xps,
      defined w 0 6 (DCross (map (@f_p R) fs)), defined w 0 7 (DCross (map (@f_p R) [seq nth (fdd1 R) fs i | i <- t])) &
      xinv (combine_obs 6 fs ys) /\ xinv (combine_obs 7 [seq nth (fdd1 R) fs i | i <- t] [seq nth [::] ys i | i <- t])].
Proof.
have [_ [_ _ c6 c7]] := xcond R; have [_ [_ _ d6 d7]] := xdefs R; split; [exact c6 | exact c7 | exact d6 | exact d7 | ].
by split; [exact: xinv12 | exact: xinv21].
Qed.
(* Noiseless observation of f + e, and observation of f with the noise e. *)
Example C31_C35_example (R : realFieldType) : let w := xw R in
  [/\ conditioned w 1 0 (obA R) xps, conditioned w 2 0 (obB R) xps, defined w 0 (o_p (obB R)) (DSum (o_p (obA R)) 1),
      zero_within (o_noise (obB R)) &
      exists Ke Kfe, [/\ cov_is (@xD R) w 0 1 1 (X01 R) (X01 R) Ke, same_matrix Ke (o_noise (obA R)),
        cov_is (@xD R) w 0 0 1 (X01 R) (X01 R) Kfe & zero_within Kfe]].
Proof.
have [[c1 c2 _] _] := xcond R; have [[_ _ d2 _] _] := xdefs R; split; [exact c1 | exact c2 | exact d2 | by [] | ].
exact: xnoise.
Qed.
Example C48_C53_example (R : realFieldType) : let w := xw R in
  let x := Tup [:: Fdd 2 (X1 R); X0 R] in let fs := [:: fdd1 R; fdd2 R] in
  [/\ parts w 0 6 x [:: (2%N, X1 R); (0%N, X0 R); (2%N, X0 R)], exists M, cov_is (@xD R) w 0 6 6 x (X01 R) M,
      exists e, mean_is (@xD R) w 0 6 x e, f_x (combine_fdd 6 fs) = Tup [:: Fdd 0 (X0 R); Fdd 2 (X1 R)] &
      exists M, cov_is (@xD R) w 0 6 6 (f_x (combine_fdd 6 fs)) (f_x (combine_fdd 6 fs)) M].
Proof.
have [_ [_ _ d6 _]] := xdefs R; split.
- have H1 := pt_fdd (X1 R) d6 (isT : 2%N \in [:: 0; 2]%N).
  have H2 := pt_num [:: [:: 0 : R]] d6.
  exact (pt_cons H1 (pt_cons H2 (pt_nil _ _ 6))).
- by apply: has_cov; vm_compute.
- by apply: has_mean; vm_compute.
- by [].
by apply: has_cov; vm_compute.
Qed.

(* f.shift(1) is process 4. *)
Example C22_example (R : realFieldType) :
  exists w1, step (run_ops (take 5 (xops R))) (OShift 0 (fun=> 1)) = (w1, ROk (RPid R 4)) /\
    xw R = run_from w1 (drop 6 (xops R)).
Proof. exact: xshift. Qed.
(* The central difference of a GP. *)
Example C26_example (R : realFieldType) (h : R) :
  [/\ 0%N \in w_gm (run_ops (dops0 R)) 0,
      diff_approx 0 h 1 [:: (- 1, - 2%:R^-1); (1, 2%:R^-1)] [:: [::]; [:: 0%N]] (run_ops (dops0 R)) =
        (run_ops (dops0 R ++ dops1 h), Some 7%N),
      (exists (W : space R) (G : pid -> point R -> rv W) (eps : mid -> nat -> rv W), let w := run_ops (dops0 R ++ dops1 h) in
        [/\ nonneg W, model (@xD R) G eps w everywhere &
            forall m p x k, (m < w_nm w)%N -> widths false (w_log w m) p x = Some k -> meant (@xD R) G eps w everywhere m p x]) &
      let w := run_ops (dops0 R ++ dops1 h) in
      (exists M, cov_is (@xD R) w 0 7 0 (X1 R) (X01 R) M) /\ (exists e, mean_is (@xD R) w 0 7 (X1 R) e)].
Proof. split; [exact: dmember | exact: dapprox | exact: dmodel | exact: dhas]. Qed.
Example C33_example (R : realFieldType) :
  exists w', step (run_ops (dops0 R)) (OCond 0 (Obs 0 (Num [::]) (dzero R 0 0) [::])) = (w', ROk (RMid R 1)).
Proof. exact: xempty. Qed.
