(* Theorems about numbers for all models. *)
From Coq Require Import List.
From mathcomp Require Import all_ssreflect all_algebra.
From mathcomp Require Import zify.
From Verif Require Import Graph Machine Refine Worlds Eval GraphSpec GraphProofs GraphOps GraphFacts RV RVProofs Sound Typing Formal ModelSpec ModelFacts Plain Cond CondFacts CrossFacts Combine CombineFacts VarFacts LawFacts PointFacts StepFacts DiffApprox DiffFacts ModelThms.
From Verif Require Import ProdSpec SymSpec ExactSpec Shape Exact ExactLogs ExactRV ExactMain ExactThms GeneralSpec.
From Verif Require Import NormalSpec LogPdf LogPdfFacts Infer InferSpec InferThms InferPdf.
Set Implicit Arguments. Unset Strict Implicit. Unset Printing Implicit Defensive.
Import GRing.Theory Num.Theory.
Local Open Scope ring_scope.

Section GeneralThms.
Variable R : realFieldType.
Variable D : nat -> (point R -> R) -> point R -> R.
Variables (mu : pid -> point R -> R) (ka : pid -> point R -> point R -> R) (dif : bool).
Hypothesis D0 : forall d t, D d (fun=> 0) t = 0.
Hypothesis Hd : dif -> differences D.
Hypothesis ka_sym : forall p s t, ka p s t = ka p t s.
Variable ops : seq (op R).
Let w := run_ops ops.
Hypothesis Hm : general D mu ka world0 ops.
Hypothesis HU : forall k, given_kernel ops k -> shaped_kernel D w k.
Notation cvd := (fun m q => covered dif ops m (w_log w m) q).
Notation known := (known dif ops). Notation full := (full D dif ops).
Notation cov_is := (cov_is D w). Notation mean_is := (mean_is D w).
Notation P := cvd.

Lemma general_sound : exists (W : space R) (G : pid -> point R -> rv W) (eps : mid -> nat -> rv W) CV,
  [/\ ModelFacts.sound D G eps w cvd CV, forall m p q x y M, full m p q x y M -> CV m p q x y M,
      forall m p x, known m p x -> meant D G eps w cvd m p x &
      (forall p, psd_fun (ka p)) -> psd_noise ops -> nonneg W].
Proof.
have [W [G [eps [V _ a4 _ NN]]]] := general_law D0 Hd ka_sym Hm HU.
have Cr m : crosses (w_log w m) := eall_crosses Hm m.
have ek := exact_k (winv_run ops) (winvid_run ops) V Cr (shapes HU).
have ed := exact_d (winv_run ops) (winvid_run ops) V Cr (shapes HU).
have em := exact_m (winv_run ops) (winvid_run ops) V Cr (shapes HU).
exists W, G, eps, (fun m p q x y M => cov_is m p q x y M /\
  forall u v, is_at D G eps w m p x u -> is_at D G eps w m q y v -> nr M = size u /\ nc M = size v); split=> //.
- split=> //; split=> [m p q x y M u v Cp Cq Hu Hv [[n EM] H]|m p x e u Cp [lt Hu] [n Ee]|m p x M u Cp Hu [n EM]].
  + have [s1 s2] := H _ _ Hu Hv; case: Hu Hv => lt Hu [_ Hv].
    by have [_ _] := ek _ _ _ _ _ _ _ _ _ lt Cp Cq EM Hu Hv; apply.
  + exact: em lt Cp Ee Hu.
  + split; first by exists n.
    move=> u1 u2 [lt H1] [_ H2]; have [s1 s2 _] := ed _ _ _ _ _ _ lt Cp EM H1.
    by have [_ e2 _] := ed _ _ _ _ _ _ lt Cp EM H2.
- move=> m p q x y M [lt EM w1 w2]; split=> // u v Hu Hv.
  have [u0 Hu0 su] := a4 _ _ _ _ lt w1; have [v0 Hv0 sv] := a4 _ _ _ _ lt w2.
  have [e1 _] : same_rv u u0 by apply/same_rvE; apply: denotes_same Hu.2 Hu0.2.
  have [e2 _] : same_rv v v0 by apply/same_rvE; apply: denotes_same Hv.2 Hv0.2.
  by rewrite e1 e2 su sv.
- move=> m p x [lt Cp Hw]; split=> //; case E: (widths _ _ _ _) Hw => [k|] // _.
  by have [u Hu _] := a4 _ _ _ _ lt E; exists u.
Qed.

Ltac open := have [W [G [eps [CV [So fC kM NN]]]]] := general_sound.
Notation var_is m p x K := (cov_is m p p x x K).

Lemma known_full m p x M : known m p x -> var_is m p x M -> full m p p x x M.
Proof.
move=> [lt Cp]; case Hw: (widths _ _ _ _) => [k|] // _ E.
by have [e1 e2] := general_shape D0 Hd ka_sym Hm HU lt Cp Hw E; split=> //; rewrite ?e1 ?e2.
Qed.

(* C17 *)
Lemma g_independent m r mu' k q x y M : defined w m r (DInd mu' k) -> unseen (w_log w m) r ->
  avoids (w_log w m) r q -> known m r x -> known m q y -> full m r q x y M ->
  forall i j, (i < nr M)%N -> (j < nc M)%N -> ent M i j = 0.
Proof. by open; move=> a b c /kM z1 /kM z2 /fC e; exact: (independent_derived So a b c z1 z2 e). Qed.

(* C21 *)
Lemma g_affine_cov m p q l l' c x s z M M' : affine w m p l c -> affine w m q l' c ->
  (forall r, coef l r = coef l' r) -> known m p x -> known m q x -> known m s z ->
  full m p s x z M -> full m q s x z M' -> nr M = nr M' -> same_matrix M M'.
Proof. by open; move=> a b c' /kM z1 /kM z2 /kM z3 /fC e1 /fC e2; apply: (affine_equal_cov So a b c' z1 z2 z3 e1 e2). Qed.
Lemma g_affine_mean m p q l l' c x e e' : affine w m p l c -> affine w m q l' c ->
  (forall r, coef l r = coef l' r) -> known m p x -> known m q x ->
  mean_is m p x e -> mean_is m q x e' -> size e = size e' -> e = e'.
Proof. by open; move=> a b c' /kM z1 /kM z2; exact: (affine_equal_mean So a b c' z1 z2). Qed.
Lemma g_affine_const_cov m p l c x s z M : affine w m p l c -> (forall r, coef l r = 0) ->
  known m p x -> known m s z -> full m p s x z M ->
  forall i j, (i < nr M)%N -> (j < nc M)%N -> ent M i j = 0.
Proof. by open; move=> a b /kM z1 /kM z2 /fC e; exact: (affine_const_cov So a b z1 z2 e). Qed.
Lemma g_affine_const_mean m p l c x e : affine w m p l c -> (forall r, coef l r = 0) -> known m p x ->
  mean_is m p x e -> forall i, (i < size e)%N -> nth 0 e i = c.
Proof. by open; move=> a b /kM z1; exact: (affine_const_mean So a b z1). Qed.

(* C28 *)
Lemma g_cond_cov m' m o ps p q x y K Kp Kq Kz K' :
  conditioned w m' m o ps -> p \in ps -> q \in ps -> o_p o \in ps -> P m' p -> P m' q ->
  known m p x -> known m q y -> known m (o_p o) (o_x o) ->
  full m p q x y K -> full m p (o_p o) x (o_x o) Kp -> full m q (o_p o) y (o_x o) Kq ->
  var_is m (o_p o) (o_x o) Kz -> full m' p q x y K' ->
  let n := nr Kz in nr (o_noise o) = n -> nc (o_noise o) = n ->
  mx_at Kz n n + mx_at (o_noise o) n n \in unitmx ->
  [/\ nr K' = nr K, nc K' = nc K &
      exists2 B : 'M_(nr K, n), B *m (mx_at Kz n n + mx_at (o_noise o) n n) = mx_at Kp (nr K) n &
        mx_at K' (nr K) (nc K) = mx_at K (nr K) (nc K) - B *m (mx_at Kq (nc K) n)^T].
Proof.
open; move=> C Hp Hq Ho P1 P2 /kM z1 /kM z2 /kM z3 /fC e1 /fC e2 /fC e3 /(is_own So z3) e4 /fC e5.
exact: (conditional_cov So C Hp Hq Ho P1 P2 z1 z2 z3 e1 e2 e3 e4 e5).
Qed.
Lemma g_cond_mean m' m o ps p x e ez Kp Kz e' :
  conditioned w m' m o ps -> p \in ps -> o_p o \in ps -> P m' p ->
  known m p x -> known m (o_p o) (o_x o) ->
  mean_is m p x e -> mean_is m (o_p o) (o_x o) ez -> full m p (o_p o) x (o_x o) Kp ->
  var_is m (o_p o) (o_x o) Kz -> mean_is m' p x e' ->
  let n := nr Kz in nr (o_noise o) = n -> nc (o_noise o) = n ->
  mx_at Kz n n + mx_at (o_noise o) n n \in unitmx ->
  size e' = size e /\
  exists2 B : 'M_(size e, n), B *m (mx_at Kz n n + mx_at (o_noise o) n n) = mx_at Kp (size e) n &
    forall i : 'I_(size e), nth 0 e' i = nth 0 e i + \sum_k B i k * (nth 0 (o_y o) k - nth 0 ez k).
Proof.
open; move=> C Hp Ho P1 /kM z1 /kM z3 e1 e2 /fC e3 /(is_own So z3) e4 e5.
exact: (conditional_mean So C Hp Ho P1 z1 z3 e1 e2 e3 e4 e5).
Qed.

(* C29 *)
Section Seq.
Variables (m1 m2 mj m : mid) (c : pid) (o1 o2 : obs R) (ps1 ps2 psj : seq pid) (K1 K2 Kj : dmat R).
Let f1 := MkFdd (o_p o1) (o_x o1) (o_noise o1).
Let f2 := MkFdd (o_p o2) (o_x o2) (o_noise o2).
Let oj := combine_obs c [:: f1; f2] [:: o_y o1; o_y o2].
Hypotheses (C1 : conditioned w m1 m o1 ps1) (C2 : conditioned w m2 m1 o2 ps2) (Cj : conditioned w mj m oj psj).
Hypotheses (H1 : o_p o1 \in ps1) (H2 : o_p o2 \in ps2) (H2' : o_p o2 \in ps1) (Hj : c \in psj).
Hypothesis (Dc : defined w m c (DCross [:: o_p o1; o_p o2])).
Hypotheses (Z1 : known m (o_p o1) (o_x o1)) (Z2 : known m (o_p o2) (o_x o2)) (Zc : known m c (o_x oj)).
Hypotheses (E1 : var_is m (o_p o1) (o_x o1) K1) (E2 : var_is m (o_p o2) (o_x o2) K2) (Ej : var_is m c (o_x oj) Kj).
Hypotheses (N1 : nr (o_noise o1) = nr K1) (N1' : nc (o_noise o1) = nr K1).
Hypotheses (N2 : nr (o_noise o2) = nr K2) (N2' : nc (o_noise o2) = nr K2) (Y1 : size (o_y o1) = nr K1).
Hypotheses (U1 : mx_at K1 (nr K1) (nr K1) + mx_at (o_noise o1) (nr K1) (nr K1) \in unitmx)
  (Uj : mx_at Kj (nr Kj) (nr Kj) + mx_at (o_noise oj) (nr Kj) (nr Kj) \in unitmx).
Lemma g_seq_cov p q x y M2 Mj : p \in ps1 -> p \in ps2 -> p \in psj -> q \in ps1 -> q \in ps2 -> q \in psj ->
  P m2 p -> P m2 q -> P mj p -> P mj q -> known m p x -> known m q y ->
  full m2 p q x y M2 -> full mj p q x y Mj -> same_matrix M2 Mj.
Proof.
open; move=> a1 a2 a3 a4 a5 a6 a7 a8 a9 a10 /kM b1 /kM b2 /fC b3 /fC b4.
have z1 := kM _ _ _ Z1; have z2 := kM _ _ _ Z2; have zc := kM _ _ _ Zc.
exact: (sequential_cov So C1 C2 Cj H1 H2 H2' Hj Dc z1 z2 zc.1 (is_own So z1 E1) (is_own So z2 E2) (is_own So zc Ej)
  N1 N1' N2 N2' Y1 U1 Uj a1 a2 a3 a4 a5 a6 a7 a8 a9 a10 b1 b2 b3 b4).
Qed.
Lemma g_seq_mean p x e2 ej : p \in ps1 -> p \in ps2 -> p \in psj -> P m2 p -> P mj p -> known m p x ->
  mean_is m2 p x e2 -> mean_is mj p x ej -> e2 = ej.
Proof.
open; move=> a1 a2 a3 a4 a5 /kM b1 b2 b3.
have z1 := kM _ _ _ Z1; have z2 := kM _ _ _ Z2; have zc := kM _ _ _ Zc.
exact: (sequential_mean So C1 C2 Cj H1 H2 H2' Hj Dc z1 z2 zc.1 (is_own So z1 E1) (is_own So z2 E2) (is_own So zc Ej)
  N1 N1' N2 N2' Y1 U1 Uj a1 a2 a3 a4 a5 b1 b2 b3).
Qed.
End Seq.

(* C30, rows *)
Section Rows.
Variables (mA mB m : mid) (oA oB : obs R) (psA psB : seq pid) (s : seq nat) (xs : seq (point R)) (K : dmat R).
Hypotheses (CA : conditioned w mA m oA psA) (CB : conditioned w mB m oB psB).
Hypotheses (Ep : o_p oB = o_p oA) (HA : o_p oA \in psA) (HB : o_p oA \in psB).
Hypotheses (XA : points (o_x oA) = Some xs) (XB : points (o_x oB) = Some [seq nth [::] xs k | k <- s]).
Hypotheses (Sp : single (w_log w m) (o_p oA)).
Hypotheses (ZA : known m (o_p oA) (o_x oA)) (ZB : known m (o_p oA) (o_x oB)).
Hypotheses (EK : var_is m (o_p oA) (o_x oA) K).
Notation n := (size xs).
Hypothesis (Ps : perm_eq s (iota 0 n)).
Hypotheses (NA : nr (o_noise oA) = n) (NA' : nc (o_noise oA) = n) (NB : nr (o_noise oB) = n) (NB' : nc (o_noise oB) = n).
Hypothesis (NAB : forall i j, (i < n)%N -> (j < n)%N ->
  ent (o_noise oB) i j = ent (o_noise oA) (nth 0%N s i) (nth 0%N s j)).
Hypothesis (YAB : forall i, (i < n)%N -> nth 0 (o_y oB) i = nth 0 (o_y oA) (nth 0%N s i)).
Hypothesis (UA : mx_at K n n + mx_at (o_noise oA) n n \in unitmx).
Lemma g_rows_cov p q x y MA MB : p \in psA -> p \in psB -> q \in psA -> q \in psB ->
  P mA p -> P mB p -> P mA q -> P mB q -> known m p x -> known m q y ->
  full mA p q x y MA -> full mB p q x y MB -> same_matrix MA MB.
Proof.
open; move=> a1 a2 a3 a4 a5 a6 a7 a8 /kM b1 /kM b2 /fC b3 /fC b4.
have zA := kM _ _ _ ZA; have zB := kM _ _ _ ZB.
exact: (rows_cov So CA CB Ep HA HB XA XB Sp zA zB (is_own So zA EK) Ps NA NA' NB NB' NAB UA a1 a2 a3 a4 a5 a6 a7 a8 b1 b2 b3 b4).
Qed.
Lemma g_rows_mean p x eA eB : p \in psA -> p \in psB -> P mA p -> P mB p -> known m p x ->
  mean_is mA p x eA -> mean_is mB p x eB -> eA = eB.
Proof.
open; move=> a1 a2 a3 a4 /kM b1 b2 b3.
have zA := kM _ _ _ ZA; have zB := kM _ _ _ ZB.
exact: (rows_mean So CA CB Ep HA HB XA XB Sp zA zB (is_own So zA EK) Ps NA NA' NB NB' NAB YAB UA a1 a2 a3 a4 b1 b2 b3).
Qed.
End Rows.

(* C30, pairs *)
Section Pairs.
Variables (mA mB m : mid) (cA cB : pid) (psA psB : seq pid).
Variables (fs : seq (fdd R)) (ys es : seq (seq R)) (t : seq nat) (K : dmat R).
Let f0 := MkFdd 0 (Num [::]) (dzero R 0 0).
Let fsB := [seq nth f0 fs i | i <- t].
Let ysB := [seq nth [::] ys i | i <- t].
Let oA := combine_obs cA fs ys.
Let oB := combine_obs cB fsB ysB.
Hypothesis (Pt : perm_eq t (iota 0 (size fs))).
Hypotheses (CA : conditioned w mA m oA psA) (CB : conditioned w mB m oB psB).
Hypotheses (HA : cA \in psA) (HB : cB \in psB).
Hypotheses (DA : defined w m cA (DCross (map (@f_p R) fs))) (DB : defined w m cB (DCross (map (@f_p R) fsB))).
Hypothesis (Z : forall f, List.In f fs -> known m (f_p f) (f_x f)).
Hypothesis (Zc : known m cA (o_x oA)).
Hypotheses (Sy : size ys = size fs).
Hypothesis (EE : forall i, (i < size fs)%N -> let f := nth f0 fs i in
  [/\ mean_is m (f_p f) (f_x f) (nth [::] es i), nr (f_noise f) = size (nth [::] es i),
      nc (f_noise f) = size (nth [::] es i) & size (nth [::] ys i) = size (nth [::] es i)]).
Hypothesis (EK : var_is m cA (o_x oA) K).
Hypothesis (UA : mx_at K (nr K) (nr K) + mx_at (o_noise oA) (nr K) (nr K) \in unitmx).
Lemma g_pairs_cov p q x y MA MB : p \in psA -> p \in psB -> q \in psA -> q \in psB ->
  P mA p -> P mB p -> P mA q -> P mB q -> known m p x -> known m q y ->
  full mA p q x y MA -> full mB p q x y MB -> same_matrix MA MB.
Proof.
open; move=> a1 a2 a3 a4 a5 a6 a7 a8 /kM b1 /kM b2 /fC b3 /fC b4; have zc := kM _ _ _ Zc.
exact: (permuted_cov So Pt CA CB HA HB DA DB (fun f Hf => kM _ _ _ (Z Hf)) zc.1 Sy EE (is_own So zc EK) UA
  a1 a2 a3 a4 a5 a6 a7 a8 b1 b2 b3 b4).
Qed.
Lemma g_pairs_mean p x eA eB : p \in psA -> p \in psB -> P mA p -> P mB p -> known m p x ->
  mean_is mA p x eA -> mean_is mB p x eB -> eA = eB.
Proof.
open; move=> a1 a2 a3 a4 /kM b1 b2 b3; have zc := kM _ _ _ Zc.
exact: (permuted_mean So Pt CA CB HA HB DA DB (fun f Hf => kM _ _ _ (Z Hf)) zc.1 Sy EE (is_own So zc EK) UA
  a1 a2 a3 a4 b1 b2 b3).
Qed.
End Pairs.

(* C31 *)
Lemma g_noiseless m' m o ps K : conditioned w m' m o ps -> o_p o \in ps ->
  known m (o_p o) (o_x o) -> P m' (o_p o) ->
  var_is m (o_p o) (o_x o) K -> nr (o_noise o) = nr K -> nc (o_noise o) = nr K ->
  zero_within (o_noise o) -> mx_at K (nr K) (nr K) \in unitmx ->
  (forall e, mean_is m' (o_p o) (o_x o) e ->
     size e = nr K /\ forall i, (i < nr K)%N -> nth 0 e i = nth 0 (o_y o) i) /\
  (forall q y M, q \in ps -> P m' q -> known m q y -> full m' (o_p o) q (o_x o) y M ->
     nr M = nr K /\ forall i j, (i < nr M)%N -> (j < nc M)%N -> ent M i j = 0).
Proof.
open; move=> C Ho /kM z Pm E n1 n2 N0 U; have [H1 H2] := noiseless So C Ho z Pm (is_own So z E) n1 n2 N0 U.
by split=> // q y M Hq Pq /kM zq /fC; apply: H2.
Qed.

(* C32 *)
Lemma g_reduction : (forall p, psd_fun (ka p)) -> psd_noise ops ->
  forall m' m o ps l B B' Kz c, conditioned w m' m o ps -> o_p o \in ps ->
  (forall i, (i < size l)%N -> lname l i \in ps) ->
  known m (o_p o) (o_x o) -> (forall i, (i < size l)%N -> P m' (lname l i)) ->
  (forall i, (i < size l)%N -> known m (lname l i) (linput l i)) ->
  (forall i j, (i < size l)%N -> (j < size l)%N -> full m (lname l i) (lname l j) (linput l i) (linput l j) (B i j)) ->
  (forall i j, (i < size l)%N -> (j < size l)%N -> full m' (lname l i) (lname l j) (linput l i) (linput l j) (B' i j)) ->
  var_is m (o_p o) (o_x o) Kz ->
  let n := nr Kz in nr (o_noise o) = n -> nc (o_noise o) = n ->
  mx_at Kz n n + mx_at (o_noise o) n n \in unitmx ->
  block_quad (size l) B' c <= block_quad (size l) B c.
Proof.
open; move=> p1 p2 m' m o ps l B B' Kz c C Ho Hl /kM z Hl' Hk HB HB' E n n1 n2 U.
exact: (variance_reduction (NN p1 p2) So c C Ho Hl z Hl' (fun i li => kM _ _ _ (Hk i li))
  (fun i j li lj => fC _ _ _ _ _ _ (HB i j li lj)) (fun i j li lj => fC _ _ _ _ _ _ (HB' i j li lj)) (is_own So z E) n1 n2 U).
Qed.

(* C35 *)
Section Noise.
Variables (m1 m2 m : mid) (o1 o2 : obs R) (ps1 ps2 : seq pid) (e : pid) (K Ke Kfe : dmat R) (mue : seq R).
Hypotheses (C1 : conditioned w m1 m o1 ps1) (C2 : conditioned w m2 m o2 ps2).
Hypotheses (H1 : o_p o1 \in ps1) (H2 : o_p o2 \in ps2).
Hypothesis (Sum : defined w m (o_p o2) (DSum (o_p o1) e)).
Hypotheses (Xo : o_x o2 = o_x o1) (Yo : o_y o2 = o_y o1) (N0 : zero_within (o_noise o2)).
Hypotheses (Z1 : known m (o_p o1) (o_x o1)) (Ze : known m e (o_x o1)) (Z2 : known m (o_p o2) (o_x o1)).
Hypotheses (EK : var_is m (o_p o1) (o_x o1) K) (Ee : var_is m e (o_x o1) Ke)
  (Efe : full m (o_p o1) e (o_x o1) (o_x o1) Kfe) (Eme : mean_is m e (o_x o1) mue).
Hypotheses (N1 : nr (o_noise o1) = nr K) (N1' : nc (o_noise o1) = nr K)
  (N2 : nr (o_noise o2) = nr K) (N2' : nc (o_noise o2) = nr K).
Hypotheses (Me : forall i, (i < size mue)%N -> nth 0 mue i = 0) (Ve : same_matrix Ke (o_noise o1)) (Ie : zero_within Kfe).
Hypothesis (U : mx_at K (nr K) (nr K) + mx_at (o_noise o1) (nr K) (nr K) \in unitmx).
Lemma g_noise_cov p q x y M1 M2 Kp Kq : p \in ps1 -> p \in ps2 -> q \in ps1 -> q \in ps2 ->
  P m1 p -> P m2 p -> P m1 q -> P m2 q -> known m p x -> known m q y ->
  full m p e x (o_x o1) Kp -> zero_within Kp -> full m q e y (o_x o1) Kq -> zero_within Kq ->
  full m1 p q x y M1 -> full m2 p q x y M2 -> same_matrix M1 M2.
Proof.
open; move=> a1 a2 a3 a4 a5 a6 a7 a8 /kM b1 /kM b2 /fC b3 b4 /fC b5 b6 /fC b7 /fC b8.
have z1 := kM _ _ _ Z1; have ze := kM _ _ _ Ze; have z2 := kM _ _ _ Z2.
exact: (noise_process_cov So C1 C2 H1 H2 Sum Xo N0 z1 ze z2 (is_own So z1 EK) (is_own So ze Ee) (fC _ _ _ _ _ _ Efe) Eme
  N1 N1' N2 N2' Me Ve Ie U a1 a2 a3 a4 a5 a6 a7 a8 b1 b2 b3 b4 b5 b6 b7 b8).
Qed.
Lemma g_noise_mean p x e1 e2 Kp : p \in ps1 -> p \in ps2 ->
  P m1 p -> P m2 p -> known m p x -> full m p e x (o_x o1) Kp -> zero_within Kp ->
  mean_is m1 p x e1 -> mean_is m2 p x e2 -> e1 = e2.
Proof.
open; move=> a1 a2 a3 a4 /kM b1 /fC b2 b3 b4 b5.
have z1 := kM _ _ _ Z1; have ze := kM _ _ _ Ze; have z2 := kM _ _ _ Z2.
exact: (noise_process_mean So C1 C2 H1 H2 Sum Xo Yo N0 z1 ze z2 (is_own So z1 EK) (is_own So ze Ee) (fC _ _ _ _ _ _ Efe) Eme
  N1 N1' N2 N2' Me Ve Ie U a1 a2 a3 a4 b1 b2 b3 b4 b5).
Qed.
End Noise.

(* C48 *)
Lemma g_parts_cov m p q x y l l' M B : parts w m p x l -> parts w m q y l' -> known m p x -> known m q y ->
  (forall z, z \in map fst (l ++ l') -> P m z) -> full m p q x y M ->
  (forall i j, (i < size l)%N -> (j < size l')%N -> full m (lname l i) (lname l' j) (linput l i) (linput l' j) (B i j)) ->
  exists sh sh', [/\ size sh = size l, size sh' = size l' & blocks sh sh' B M].
Proof.
open; move=> a1 a2 /kM z1 /kM z2 a3 /fC a4 a5.
exact: (parts_cov So a1 a2 z1 z2 a3 a4 (fun i j li lj => fC _ _ _ _ _ _ (a5 i j li lj))).
Qed.
Lemma g_parts_mean m p x l e es : parts w m p x l -> known m p x -> (forall z, z \in map fst l -> P m z) ->
  mean_is m p x e -> size es = size l ->
  (forall i, (i < size l)%N -> mean_is m (lname l i) (linput l i) (nth [::] es i)) -> e = flatten es.
Proof. by open; move=> a1 /kM z1; exact: (parts_mean So a1 z1). Qed.

(* C53 *)
Lemma g_combine m c fs M e B es : defined w m c (DCross (map (@f_p R) fs)) ->
  (forall f, List.In f fs -> known m (f_p f) (f_x f)) ->
  let cf := combine_fdd c fs in known m c (f_x cf) ->
  var_is m c (f_x cf) M -> mean_is m c (f_x cf) e ->
  let l := [seq (f_p f, f_x f) | f <- fs] in
  (forall i j, (i < size fs)%N -> (j < size fs)%N -> full m (lname l i) (lname l j) (linput l i) (linput l j) (B i j)) ->
  size es = size fs -> (forall i, (i < size fs)%N -> mean_is m (lname l i) (linput l i) (nth [::] es i)) ->
  e = flatten es /\ blocks (map size es) (map size es) B M.
Proof.
open; move=> a1 a2 cf /kM zc a3 a4 l a5 a6 a7.
exact: (combine_numbers So a1 (fun f Hf => kM _ _ _ (a2 f Hf)) zc.1 (is_own So zc a3) a4 (fun i j li lj => fC _ _ _ _ _ _ (a5 i j li lj)) a6 a7).
Qed.

(* C22 *)
Section Maps.
Variables (ops1 ops2 : seq (op R)) (w1 : world R) (m : mid) (p r : pid).
Hypothesis Pp : P m p.
Notation same xs zs :=
  ((forall e e', mean_is m r (Num xs) e -> mean_is m p (Num zs) e' -> e = e') /\
   forall s z M M', known m s z -> full m r s (Num xs) z M -> full m p s (Num zs) z M' -> same_matrix M M').
Lemma g_map o t t0 xs zs : ops = ops1 ++ o :: ops2 -> step (run_ops ops1) o = (w1, ROk (RPid R r)) ->
  law o = Some (DMap p t t0) -> map t xs = zs -> known m r (Num xs) -> same xs zs.
Proof.
open; move=> eo E El Ez /kM Mr; have Ew : w = run_from w1 ops2 by rewrite (run_split ops2 E) -eo.
have Pp' := Pp; rewrite -/w Ew in So Mr fC kM Pp' *; have [_ H1 H2 _] := map_here E So El Ez Pp' Mr; split=> // s z M M' /kM Ms /fC F /fC; exact: H2 Ms F.
Qed.
Lemma g_shift c xs : ops = ops1 ++ OShift p c :: ops2 -> step (run_ops ops1) (OShift p c) = (w1, ROk (RPid R r)) ->
  let xs' := [seq addX c x | x <- xs] in known m r (Num xs') -> same xs' xs.
Proof.
move=> eo E xs'; apply: (g_map eo E erefl).
by rewrite -map_comp -[RHS]map_id; apply: eq_map => z /=; apply: shift_add.
Qed.
Lemma g_stretch s xs : ops = ops1 ++ OStretch p s :: ops2 -> step (run_ops ops1) (OStretch p s) = (w1, ROk (RPid R r)) ->
  (forall i, s i != 0) -> let xs' := [seq mulX s x | x <- xs] in known m r (Num xs') -> same xs' xs.
Proof.
move=> eo E nz xs'; apply: (g_map eo E erefl).
by rewrite -map_comp -[RHS]map_id; apply: eq_map => z /=; apply: stretch_mul.
Qed.
Lemma g_select dims xs zs : ops = ops1 ++ OSelect R p dims :: ops2 ->
  step (run_ops ops1) (OSelect R p dims) = (w1, ROk (RPid R r)) ->
  [seq [seq nth 0 x i | i <- dims] | x <- xs] = zs -> known m r (Num xs) -> same xs zs.
Proof. by move=> eo E Ex; apply: (g_map eo E erefl); rewrite -Ex; apply: eq_map. Qed.
Lemma g_transform f xs zs : ops = ops1 ++ OTransform p f :: ops2 ->
  step (run_ops ops1) (OTransform p f) = (w1, ROk (RPid R r)) -> map f xs = zs -> known m r (Num xs) -> same xs zs.
Proof. by move=> eo E Ex; apply: (g_map eo E erefl). Qed.
End Maps.

(* C26 *)
Section Diff.
Variables (ops1 ops2 : seq (op R)).
Variables (m : mid) (p r : pid) (h : R) (deriv : nat) (gcs : seq (R * R)) (ords : seq (seq mid)) (w' : world R).
Hypothesis Hp : m \in w_gm (run_ops ops1) p.
Hypothesis E : diff_approx p h deriv gcs ords (run_ops ops1) = (w', Some r).
Hypothesis Ew : w = run_from w' ops2.
Let grid k := (nth (0, 0) gcs k).1.
Let coefs k := (nth (0, 0) gcs k).2.
Let at_grid k (xs : seq (point R)) := Num [seq addX (fun=> grid k * h) t | t <- xs].
Lemma g_diff_mean xs e es : P m p -> known m r (Num xs) -> mean_is m r (Num xs) e ->
  (forall k, (k < size gcs)%N -> mean_is m p (at_grid k xs) (es k)) ->
  (forall k, (k < size gcs)%N -> size (es k) = size e) /\
  forall i, (i < size e)%N -> nth 0 e i = (\sum_(k < size gcs) coefs k * nth 0 (es k) i) / h ^+ deriv.
Proof.
open; move=> Pp /kM z Ee Ek; rewrite -/w Ew in So Pp z Ee Ek.
exact: (diff_mean Hp E So Pp z Ee Ek).
Qed.
Lemma g_diff_cov xs q y M Ks : P m p -> known m r (Num xs) -> known m q y -> full m r q (Num xs) y M ->
  (forall k, (k < size gcs)%N -> full m p q (at_grid k xs) y (Ks k)) ->
  (forall k, (k < size gcs)%N -> nr (Ks k) = nr M /\ nc (Ks k) = nc M) /\
  forall i j, (i < nr M)%N -> (j < nc M)%N ->
    ent M i j = (\sum_(k < size gcs) coefs k * ent (Ks k) i j) / h ^+ deriv.
Proof.
open; move=> Pp /kM z /kM zq /fC F HK; have {}HK k lk := fC _ _ _ _ _ _ (HK k lk).
rewrite -/w Ew in So Pp z zq.
exact: (diff_cov Hp E So Pp z zq F HK).
Qed.
End Diff.

(* C49 *)
Lemma g_size m p k x s M : flat (fun=> True) (w_log w m) p -> see_k w m p p = Some k ->
  infer_size k x = Some s -> known m p x -> var_is m p x M -> nr M = s.
Proof. by open; move=> F Es Ei /kM z E; exact: (size_rows So F Es Ei z (is_own So z E)). Qed.

(* C51 *)
Section Take.
Variables (m : mid) (n : nat) (f f' : fdd R) (mk : seq bool) (K : dmat R).
Hypotheses (S : well_settled w m (f_p f)) (T : take_fdd (own_kernel w) n f mk = Some f').
Hypotheses (Me : known m (f_p f) (f_x f)) (EK : var_is m (f_p f) (f_x f) K) (sm : size mk = nr K).
Lemma g_take_mean e e' : mean_is m (f_p f) (f_x f) e -> mean_is m (f_p f') (f_x f') e' -> e' = mask mk e.
Proof. by open; have z := kM _ _ _ Me; exact: (take_mean So S T z (is_own So z EK) sm). Qed.
Lemma g_take_var K' : var_is m (f_p f') (f_x f') K' -> masked mk K K'.
Proof.
open; have z := kM _ _ _ Me; have Ek := is_own So z EK => E.
have z' := take_meant So S T z Ek sm; exact: (take_var So S T z Ek sm (is_own So z' E)).
Qed.
Lemma g_take_cov q y M M' : known m q y -> full m (f_p f) q (f_x f) y M -> full m (f_p f') q (f_x f') y M' ->
  masked_rows mk M M'.
Proof.
open; have z := kM _ _ _ Me; have Ek := is_own So z EK => /kM zq /fC F /fC F'; exact: (take_cov So S T z Ek sm zq F F').
Qed.
End Take.

(* C47 *)
Lemma g_sample (T : Type) m (fs : seq (fdd R)) (ns : seq nat) (s : seq T) :
  Forall2 (fun f n => [/\ flat (fun=> True) (w_log w m) (f_p f), outputs (w_log w m) (f_p f) = 1%N \/ only_fdds (f_x f),
    known m (f_p f) (f_x f) & exists2 K, var_is m (f_p f) (f_x f) K & nr K = n]) fs ns ->
  unpack fs s = reshape ns s.
Proof.
open; move=> F; apply: (sample_blocks So (m := m)).
elim: F => [|f n fs' ns' [F1 F2 /kM z [K E e]] _ IH]; constructor => //.
by split=> //; exists K => //; exact: (is_own So z E).
Qed.

(* C34 *)
Section Missing.
Variables (m' m : mid) (ps : seq pid) (n : nat) (f : fdd R) (y : seq (option R)) (o : obs R) (Kz : dmat R).
Hypotheses (S : well_settled w m (f_p f)) (O : observe (own_kernel w) n f y = Some o).
Hypotheses (C : conditioned w m' m o ps) (Hz : f_p f \in ps) (Me : known m (f_p f) (f_x f)).
Hypotheses (EKz : var_is m (f_p f) (f_x f) Kz) (sy : size y = nr Kz).
Hypotheses (N1 : nr (f_noise f) = nr Kz) (N2 : nc (f_noise f) = nr Kz).
Let s := selected (map isSome y).
Hypothesis (U : block Kz s + block (f_noise f) s \in unitmx).
Lemma g_missing_cov p q x z K Kp Kq K' : p \in ps -> q \in ps -> P m' p -> P m' q -> known m p x -> known m q z ->
  full m p q x z K -> full m p (f_p f) x (f_x f) Kp -> full m q (f_p f) z (f_x f) Kq -> full m' p q x z K' ->
  [/\ nr K' = nr K, nc K' = nc K &
      exists2 B : 'M_(nr K, size s), B *m (block Kz s + block (f_noise f) s) = columns Kp (nr K) s &
        mx_at K' (nr K) (nc K) = mx_at K (nr K) (nc K) - B *m (columns Kq (nc K) s)^T].
Proof.
open; have zm := kM _ _ _ Me; move=> a1 a2 a3 a4 /kM z1 /kM z2 /fC e1 /fC e2 /fC e3 /fC e4.
exact: (missing_cov So S O C Hz zm (is_own So zm EKz) sy N1 N2 U a1 a2 a3 a4 z1 z2 e1 e2 e3 e4).
Qed.
Lemma g_missing_mean p x e ez Kp e' : p \in ps -> P m' p -> known m p x ->
  mean_is m p x e -> mean_is m (f_p f) (f_x f) ez -> full m p (f_p f) x (f_x f) Kp -> mean_is m' p x e' ->
  size e' = size e /\
  exists2 B : 'M_(size e, size s), B *m (block Kz s + block (f_noise f) s) = columns Kp (size e) s &
    forall i : 'I_(size e), nth 0 e' i = nth 0 e i +
      \sum_k B i k * (odflt 0 (nth None y (nth 0%N s k)) - nth 0 ez (nth 0%N s k)).
Proof.
open; have zm := kM _ _ _ Me; move=> a1 a2 /kM z1 e1 e2 /fC e3 e4.
exact: (missing_mean So S O C Hz zm (is_own So zm EKz) sy N1 N2 U a1 a2 z1 e1 e2 e3 e4).
Qed.
End Missing.
End GeneralThms.

Section GeneralPdf.
Variable R : rcfType.
Variables (ln : R -> R) (pi : R).
Hypothesis LN : logarithm ln.
Variable D : nat -> (point R -> R) -> point R -> R.
Variables (mu : pid -> point R -> R) (ka : pid -> point R -> point R -> R) (dif : bool).
Hypothesis D0 : forall d t, D d (fun=> 0) t = 0.
Hypothesis Hd : dif -> differences D.
Hypothesis ka_sym : forall p s t, ka p s t = ka p t s.
Variable ops : seq (op R).
Let w := run_ops ops.
Hypothesis Hm : general D mu ka world0 ops.
Hypothesis HU : forall k, given_kernel ops k -> shaped_kernel D w k.
Notation known := (known dif ops).
Notation mean_is := (mean_is D w). Notation var_is m p x K := (cov_is D w m p p x x K).
Notation logpdf_is := (logpdf_is ln pi D w).
Ltac open := have [W [G [eps [CV [So fC kM NN]]]]] := general_sound D0 Hd ka_sym Hm HU.

(* C42 *)
Section Chain.
Variables (m m1 : mid) (c cj r1 r2 : pid) (o1 : obs R) (f2 : fdd R) (y2 : seq R) (ps : seq pid) (Kj : dmat R).
Let f1 := MkFdd (o_p o1) (o_x o1) (o_noise o1).
Let fj := combine_fdd c [:: f1; f2].
Hypotheses (C1 : conditioned w m1 m o1 ps) (H1 : o_p o1 \in ps) (H2 : f_p f2 \in ps).
Hypothesis (Dc : defined w m c (DCross [:: o_p o1; f_p f2])).
Hypotheses (Dj : defined w m cj (DCopy c)) (D1 : defined w m r1 (DCopy (o_p o1))) (D2 : defined w m1 r2 (DCopy (f_p f2))).
Hypotheses (Zj : known m cj (f_x fj)) (Z1 : known m r1 (o_x o1)) (Z2 : known m1 r2 (f_x f2)) (Y2 : known m (f_p f2) (f_x f2)).
Hypotheses (Ej : var_is m cj (f_x fj) Kj).
Hypothesis (Pj : pd (mx_at Kj (nr Kj) (nr Kj) + mx_at (f_noise fj) (nr Kj) (nr Kj))).
Lemma g_chain lj l1 l2 :
  logpdf_is m cj (f_x fj) (f_noise fj) (map Some (o_y o1 ++ y2)) lj ->
  logpdf_is m r1 (o_x o1) (o_noise o1) (map Some (o_y o1)) l1 ->
  logpdf_is m1 r2 (f_x f2) (f_noise f2) (map Some y2) l2 ->
  lj = l1 + l2.
Proof.
open; have zj := kM _ _ _ Zj.
exact: (chain_rule LN So C1 H1 H2 Dc Dj D1 D2 zj (kM _ _ _ Z1) (kM _ _ _ Z2) (kM _ _ _ Y2) (is_own So zj Ej) Pj).
Qed.
End Chain.

(* C30 *)
Section Rows.
Variables (m : mid) (p rA rB : pid) (xA xB : input R) (NA NB : dmat R) (yA yB : seq R) (s : seq nat)
  (xs : seq (point R)) (K : dmat R).
Hypotheses (DA : defined w m rA (DCopy p)) (DB : defined w m rB (DCopy p)).
Hypotheses (XA : points xA = Some xs) (XB : points xB = Some [seq nth [::] xs k | k <- s]).
Hypotheses (Sp : single (w_log w m) p).
Hypotheses (ZA : known m rA xA) (ZB : known m rB xB).
Hypotheses (EK : var_is m rA xA K).
Notation n := (size xs).
Hypothesis (Ps : perm_eq s (iota 0 n)).
Hypothesis (NAB : forall i j, (i < n)%N -> (j < n)%N -> ent NB i j = ent NA (nth 0%N s i) (nth 0%N s j)).
Hypothesis (YAB : forall i, (i < n)%N -> nth 0 yB i = nth 0 yA (nth 0%N s i)).
Hypothesis (PA : pd (mx_at K n n + mx_at NA n n)).
Lemma g_rows_logpdf lA lB :
  logpdf_is m rA xA NA (map Some yA) lA -> logpdf_is m rB xB NB (map Some yB) lB -> lA = lB.
Proof. open; have zA := kM _ _ _ ZA; exact: (rows_logpdf LN So DA DB XA XB Sp zA (kM _ _ _ ZB) (is_own So zA EK) Ps NAB YAB PA). Qed.
End Rows.

Section Pairs.
Variables (m : mid) (cA cB rA rB : pid).
Variables (fs : seq (fdd R)) (ys es : seq (seq R)) (t : seq nat) (K : dmat R).
Let f0 := MkFdd 0 (Num [::]) (dzero R 0 0).
Let fsB := [seq nth f0 fs i | i <- t].
Let ysB := [seq nth [::] ys i | i <- t].
Let fA := combine_fdd cA fs.
Let fB := combine_fdd cB fsB.
Hypothesis (Pt : perm_eq t (iota 0 (size fs))).
Hypotheses (DA : defined w m cA (DCross (map (@f_p R) fs))) (DB : defined w m cB (DCross (map (@f_p R) fsB))).
Hypotheses (CA : defined w m rA (DCopy cA)) (CB : defined w m rB (DCopy cB)).
Hypothesis (Z : forall f, List.In f fs -> known m (f_p f) (f_x f)).
Hypotheses (ZA : known m rA (f_x fA)) (ZB : known m rB (f_x fB)).
Hypotheses (Sy : size ys = size fs).
Hypothesis (EE : forall i, (i < size fs)%N -> let f := nth f0 fs i in
  [/\ mean_is m (f_p f) (f_x f) (nth [::] es i), nr (f_noise f) = size (nth [::] es i),
      nc (f_noise f) = size (nth [::] es i) & size (nth [::] ys i) = size (nth [::] es i)]).
Hypothesis (EK : var_is m rA (f_x fA) K).
Hypothesis (PA : pd (mx_at K (nr K) (nr K) + mx_at (f_noise fA) (nr K) (nr K))).
Lemma g_pairs_logpdf lA lB :
  logpdf_is m rA (f_x fA) (f_noise fA) (map Some (flatten ys)) lA ->
  logpdf_is m rB (f_x fB) (f_noise fB) (map Some (flatten ysB)) lB -> lA = lB.
Proof.
open; have zA := kM _ _ _ ZA.
exact: (pairs_logpdf LN So Pt DA DB CA CB (fun f Hf => kM _ _ _ (Z Hf)) zA (kM _ _ _ ZB) Sy EE (is_own So zA EK) PA).
Qed.
End Pairs.

(* C34 *)
Section Missing.
Variables (m : mid) (r r' : pid) (n : nat) (f : fdd R) (y : seq (option R)) (o : obs R) (K : dmat R).
Hypotheses (S : well_settled w m (f_p f)) (O : observe (own_kernel w) n f y = Some o).
Hypotheses (Dr : defined w m r (DCopy (f_p f))) (Dr' : defined w m r' (DCopy (f_p f))).
Hypotheses (Zr : known m r (f_x f)) (Zr' : known m r' (o_x o)).
Hypothesis (EK : var_is m r (f_x f) K).
Hypothesis (PD : pd (mx_at K (nr K) (nr K) + mx_at (f_noise f) (nr K) (nr K))).
Lemma g_missing_logpdf l l' : logpdf_is m r (f_x f) (f_noise f) y l ->
  logpdf_is m r' (o_x o) (o_noise o) (map Some (o_y o)) l' -> l = l'.
Proof. open; have zr := kM _ _ _ Zr; exact: (missing_logpdf LN So S O Dr Dr' zr (kM _ _ _ Zr') (is_own So zr EK) PD). Qed.
End Missing.
End GeneralPdf.
