(* C42, C30: the log-density of observations. *)
From Coq Require Import List.
From mathcomp Require Import all_ssreflect all_algebra.
From Verif Require Import Graph Machine Refine GraphSpec RV ModelSpec ModelFacts Plain PlainThms Combine NormalSpec LogPdf LogPdfFacts ExModel ExLogPdf.
Set Implicit Arguments. Unset Strict Implicit. Unset Printing Implicit Defensive.
Import GRing.Theory Num.Theory.
Local Open Scope ring_scope.

Section LogDensity.
Variables (R : rcfType) (ln : R -> R) (pi : R).
Hypothesis LN : logarithm ln.
Variable (W : space R).
Variable D : nat -> (point R -> R) -> point R -> R.
Variables (G : pid -> point R -> rv W) (eps : mid -> nat -> rv W).
Variables (ops : seq (op R)) (P : mid -> pid -> Prop).
Let w := run_ops ops.
Hypothesis Mo : model D G eps w P.
Notation meant := (meant D G eps w P).
Notation cov_is := (cov_is D w). Notation mean_is := (mean_is D w).
Notation logpdf_is := (logpdf_is ln pi D w).

(* C42. [m1] conditions [m] on the first observation [o1]; [c] is the combination of the two
   FDDs; [cj], [r1] and [r2] are the copies that the three calls of [logpdf] make. *)
Section C42.
Variables (m m1 : mid) (c cj r1 r2 : pid) (o1 : obs R) (f2 : fdd R) (y2 : seq R) (ps : seq pid) (Kj : dmat R).
Let f1 := MkFdd (o_p o1) (o_x o1) (o_noise o1).
Let fj := combine_fdd c [:: f1; f2].
Hypotheses (C1 : conditioned w m1 m o1 ps) (H1 : o_p o1 \in ps) (H2 : f_p f2 \in ps).
Hypothesis (Dc : defined w m c (DCross [:: o_p o1; f_p f2])).
Hypotheses (Dj : defined w m cj (DCopy c)) (D1 : defined w m r1 (DCopy (o_p o1))) (D2 : defined w m1 r2 (DCopy (f_p f2))).
Hypotheses (Zj : meant m cj (f_x fj)) (Z1 : meant m r1 (o_x o1)) (Z2 : meant m1 r2 (f_x f2)) (Y2 : meant m (f_p f2) (f_x f2)).
Hypotheses (Ej : cov_is m cj cj (f_x fj) (f_x fj) Kj).
Hypothesis (Pj : pd (mx_at Kj (nr Kj) (nr Kj) + mx_at (f_noise fj) (nr Kj) (nr Kj))).
Theorem C42_chain_rule lj l1 l2 :
  logpdf_is m cj (f_x fj) (f_noise fj) (map Some (o_y o1 ++ y2)) lj ->
  logpdf_is m r1 (o_x o1) (o_noise o1) (map Some (o_y o1)) l1 ->
  logpdf_is m1 r2 (f_x f2) (f_noise f2) (map Some y2) l2 ->
  lj = l1 + l2.
Proof. exact (chain_rule LN (model_sound Mo) C1 H1 H2 Dc Dj D1 D2 Zj Z1 Z2 Y2 Ej Pj (lj:=lj) (l1:=l1) (l2:=l2)). Qed.
End C42.

(* C30. The rows of one observation are permuted by [s]; [rA] and [rB] are the copies that the
   two calls of [logpdf] make. *)
Section C30_rows.
Variables (m : mid) (p rA rB : pid) (xA xB : input R) (NA NB : dmat R) (yA yB : seq R) (s : seq nat)
  (xs : seq (point R)) (K : dmat R).
Hypotheses (DA : defined w m rA (DCopy p)) (DB : defined w m rB (DCopy p)).
Hypotheses (XA : points xA = Some xs) (XB : points xB = Some [seq nth [::] xs k | k <- s]).
Hypotheses (Sp : single (w_log w m) p).
Hypotheses (ZA : meant m rA xA) (ZB : meant m rB xB).
Hypotheses (EK : cov_is m rA rA xA xA K).
Notation n := (size xs).
Hypothesis (Ps : perm_eq s (iota 0 n)).
Hypothesis (NAB : forall i j, (i < n)%N -> (j < n)%N -> ent NB i j = ent NA (nth 0%N s i) (nth 0%N s j)).
Hypothesis (YAB : forall i, (i < n)%N -> nth 0 yB i = nth 0 yA (nth 0%N s i)).
Hypothesis (PA : pd (mx_at K n n + mx_at NA n n)).
Theorem C30_rows_logpdf lA lB :
  logpdf_is m rA xA NA (map Some yA) lA -> logpdf_is m rB xB NB (map Some yB) lB -> lA = lB.
Proof. exact (rows_logpdf LN (model_sound Mo) DA DB XA XB Sp ZA ZB EK Ps NAB YAB PA (lA:=lA) (lB:=lB)). Qed.
End C30_rows.

(* C30. The pairs [fs], [ys] are permuted by [t]; [es] are their means. *)
Section C30_pairs.
Variables (m : mid) (cA cB rA rB : pid).
Variables (fs : seq (fdd R)) (ys es : seq (seq R)) (t : seq nat) (K : dmat R).
Let f0 := MkFdd 0 (Num [::]) (dzero R 0 0).
Let fsB := [seq nth f0 fs i | i <- t].
Let ysB := [seq nth [::] ys i | i <- t].
Let fA := combine_fdd cA fs.
Let fB := combine_fdd cB fsB.
Hypothesis (Pt : perm_eq t (iota 0 (size fs))).
Hypotheses (DA : defined w m cA (DCross (map (@f_p R) fs))) (DB : defined w m cB (DCross (map (@f_p R) fsB))).
Hypotheses (CA : defined w m rA (DCopy cA)) (CB : defined w m rB (DCopy cB)).
Hypothesis (Z : forall f, List.In f fs -> meant m (f_p f) (f_x f)).
Hypotheses (ZA : meant m rA (f_x fA)) (ZB : meant m rB (f_x fB)).
Hypotheses (Sy : size ys = size fs).
Hypothesis (EE : forall i, (i < size fs)%N -> let f := nth f0 fs i in
  [/\ mean_is m (f_p f) (f_x f) (nth [::] es i), nr (f_noise f) = size (nth [::] es i),
      nc (f_noise f) = size (nth [::] es i) & size (nth [::] ys i) = size (nth [::] es i)]).
Hypothesis (EK : cov_is m rA rA (f_x fA) (f_x fA) K).
Hypothesis (PA : pd (mx_at K (nr K) (nr K) + mx_at (f_noise fA) (nr K) (nr K))).
Theorem C30_pairs_logpdf lA lB :
  logpdf_is m rA (f_x fA) (f_noise fA) (map Some (flatten ys)) lA ->
  logpdf_is m rB (f_x fB) (f_noise fB) (map Some (flatten ysB)) lB -> lA = lB.
Proof. exact (pairs_logpdf LN (model_sound Mo) Pt DA DB CA CB Z ZA ZB Sy EE EK PA (lA:=lA) (lB:=lB)). Qed.
End C30_pairs.
End LogDensity.

Print Assumptions C42_chain_rule.
Print Assumptions C30_rows_logpdf.
Print Assumptions C30_pairs_logpdf.

(* f, e, f + e and the observation of f at one point; then f + e at another point. *)
Example C42_example (R : rcfType) (ln : R -> R) (pi : R) : let w := lw R in
  exists (W : space R) (G : pid -> point R -> rv W) (eps : mid -> nat -> rv W),
  let meant := meant (@xD R) G eps w everywhere in
  let logpdf_is := logpdf_is ln pi (@xD R) w in
  let fj := combine_fdd 3 [:: fdd1 R; fdd2 R] in let K := ljoint 5 fj in
  [/\ [/\ model (@xD R) G eps w everywhere, conditioned w 1 0 (ob1 R) lps, defined w 0 3 (DCross [:: o_p (ob1 R); f_p (fdd2 R)]) &
          [/\ defined w 0 5 (DCopy 3), defined w 0 7 (DCopy (o_p (ob1 R))) & defined w 1 9 (DCopy (f_p (fdd2 R)))]],
      [/\ meant 0%N 5%N (f_x fj), meant 0%N 7%N (o_x (ob1 R)), meant 1%N 9%N (f_x (fdd2 R)) & meant 0%N 2%N (f_x (fdd2 R))],
      cov_is (@xD R) w 0 5 5 (f_x fj) (f_x fj) K, pd (mx_at K (nr K) (nr K) + mx_at (f_noise fj) (nr K) (nr K)) &
      [/\ exists l, logpdf_is 0%N 5%N (f_x fj) (f_noise fj) (map Some (o_y (ob1 R) ++ [:: 2%:R])) l,
          exists l, logpdf_is 0%N 7%N (o_x (ob1 R)) (o_noise (ob1 R)) (map Some (o_y (ob1 R))) l &
          exists l, logpdf_is 1%N 9%N (f_x (fdd2 R)) (f_noise (fdd2 R)) (map Some [:: 2%:R]) l]].
Proof.
have [W [G [eps [Mo z5 z6 [z7 z9 z2 z0] _]]]] := lmeant R; exists W, G, eps.
have [[d3 _ d5 _] [d7 _ d9]] := ldefs R; have [v1 _ v3 _ _] := lvalues ln pi.
split; [split; [exact Mo | exact (lcond R) | exact d3 | split; [exact d5 | exact d7 | exact d9]]
  | split; [exact z5 | exact z7 | exact z9 | exact z2] | exact (proj1 (lcovs R)) | exact (lpd12 R) | ].
split; [exact v1 | exact v3 | exact (lpost ln pi)].
Qed.
(* Two values of f in both orders, and the pairs above in both orders. *)
Example C30_example (R : rcfType) (ln : R -> R) (pi : R) : let w := lw R in
  exists (W : space R) (G : pid -> point R -> rv W) (eps : mid -> nat -> rv W),
  let meant := meant (@xD R) G eps w everywhere in
  let logpdf_is := logpdf_is ln pi (@xD R) w in
  let K := ljoint 7 (fdA R) in
  [/\ [/\ model (@xD R) G eps w everywhere, defined w 0 7 (DCopy 0) & defined w 0 8 (DCopy 0)],
      [/\ defined w 0 5 (DCopy 3), defined w 0 6 (DCopy 4), defined w 0 3 (DCross [:: 0; 2]%N) & defined w 0 4 (DCross [:: 2; 0]%N)],
      [/\ meant 0%N 7%N (X01 R), meant 0%N 8%N (X10 R), meant 0%N 5%N (f_x (fd12 R)) & meant 0%N 6%N (f_x (fd21 R))],
      cov_is (@xD R) w 0 7 7 (X01 R) (X01 R) K /\ pd (mx_at K (nr K) (nr K) + mx_at (kn R) (nr K) (nr K)) &
      [/\ exists l, logpdf_is 0%N 7%N (X01 R) (kn R) (map Some [:: 1; 2%:R]) l,
          exists l, logpdf_is 0%N 8%N (X10 R) (kn' R) (map Some [:: 2%:R; 1]) l,
          exists l, logpdf_is 0%N 5%N (f_x (fd12 R)) (f_noise (fd12 R)) (map Some ([:: 1] ++ [:: 2%:R])) l &
          exists l, logpdf_is 0%N 6%N (f_x (fd21 R)) (f_noise (fd21 R)) (map Some ([:: 2%:R] ++ [:: 1])) l]].
Proof.
have [W [G [eps [Mo z5 z6 _ [z7 z8]]]]] := lmeant R; exists W, G, eps.
have [[d3 d4 d5 d6] [d7 d8 _]] := ldefs R; have [v1 v2 _ v4 v5] := lvalues ln pi.
split; [split; [exact Mo | exact d7 | exact d8] | split; [exact d5 | exact d6 | exact d3 | exact d4]
  | split; [exact z7 | exact z8 | exact z5 | exact z6] | split; [exact (proj2 (lcovs R)) | exact (lpdA R)] | ].
by split; [exact v4 | exact v5 | exact v1 | exact v2].
Qed.
