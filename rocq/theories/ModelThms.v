(* Statements in numbers, from the facts about random variables. *)
From Coq Require Import List.
From mathcomp Require Import all_ssreflect all_algebra.
From mathcomp Require Import zify.
From Verif Require Import Graph Machine Refine Worlds Eval GraphSpec GraphProofs GraphOps GraphFacts RV RVProofs Sound Typing Formal ModelSpec ModelFacts Plain Cond CondFacts CrossFacts Combine CombineFacts VarFacts LawFacts PointFacts.
Set Implicit Arguments. Unset Strict Implicit. Unset Printing Implicit Defensive.
Import GRing.Theory Num.Theory.
Local Open Scope ring_scope.

Section ModelThms.
Variables (R : fieldType) (W : space R).
Variable D : nat -> (point R -> R) -> point R -> R.
Variables (G : pid -> point R -> rv W) (eps : mid -> nat -> rv W).
Notation V := (rv W). Notation Ex := (@Ex R W). Notation cov := (@cov R W).
Variables (ops : seq (op R)) (P : mid -> pid -> Prop).
Let w := run_ops ops.
Variable CV : mid -> pid -> pid -> input R -> input R -> dmat R -> Prop.
Hypothesis Mo : sound D G eps w P CV.
Notation is_at := (is_at D G eps w). Notation meant := (meant D G eps w P).
Notation cov_is := CV. Notation mean_is := (mean_is D w).
Implicit Types (u v d : seq V) (K M : dmat R).

Lemma covs m p q x y M u v : P m p -> P m q -> is_at m p x u -> is_at m q y v -> cov_is m p q x y M -> covmat M u v.
Proof. exact: (is_k Mo). Qed.
Lemma means m p x e u : P m p -> is_at m p x u -> mean_is m p x e -> e = map Ex u.
Proof. exact: (is_m Mo). Qed.

Lemma symmetric m p q x y M M' : meant m p x -> meant m q y -> cov_is m p q x y M -> cov_is m q p y x M' ->
  transposed M M'.
Proof.
move=> [Pp [u Hu]] [Pq [v Hv]] E E'; have [a1 a2 a3] := is_k Mo Pp Pq Hu Hv E; have [b1 b2 b3] := is_k Mo Pq Pp Hv Hu E'.
by split; rewrite ?a1 ?a2 ?b1 ?b2 // => i j li lj; rewrite a3 // b3 // covC.
Qed.

(* C29 *)
Section Seq.
Variables (m1 m2 mj m : mid) (c : pid) (o1 o2 : obs R) (ps1 ps2 psj : seq pid) (K1 K2 Kj : dmat R).
Let f1 := MkFdd (o_p o1) (o_x o1) (o_noise o1).
Let f2 := MkFdd (o_p o2) (o_x o2) (o_noise o2).
Let oj := combine_obs c [:: f1; f2] [:: o_y o1; o_y o2].
Hypotheses (C1 : conditioned w m1 m o1 ps1) (C2 : conditioned w m2 m1 o2 ps2) (Cj : conditioned w mj m oj psj).
Hypotheses (H1 : o_p o1 \in ps1) (H2 : o_p o2 \in ps2) (H2' : o_p o2 \in ps1) (Hj : c \in psj).
Hypothesis (Dc : defined w m c (DCross [:: o_p o1; o_p o2])).
Hypotheses (Z1 : meant m (o_p o1) (o_x o1)) (Z2 : meant m (o_p o2) (o_x o2)) (Pc : P m c).
Hypotheses (E1 : cov_is m (o_p o1) (o_p o1) (o_x o1) (o_x o1) K1) (E2 : cov_is m (o_p o2) (o_p o2) (o_x o2) (o_x o2) K2)
  (Ej : cov_is m c c (o_x oj) (o_x oj) Kj).
Hypotheses (N1 : nr (o_noise o1) = nr K1) (N1' : nc (o_noise o1) = nr K1).
Hypotheses (N2 : nr (o_noise o2) = nr K2) (N2' : nc (o_noise o2) = nr K2) (Y1 : size (o_y o1) = nr K1).
Hypotheses (U1 : mx_at K1 (nr K1) (nr K1) + mx_at (o_noise o1) (nr K1) (nr K1) \in unitmx)
  (Uj : mx_at Kj (nr Kj) (nr Kj) + mx_at (o_noise oj) (nr Kj) (nr Kj) \in unitmx).

Lemma sequential_cov p q x y M2 Mj : p \in ps1 -> p \in ps2 -> p \in psj -> q \in ps1 -> q \in ps2 -> q \in psj ->
  P m2 p -> P m2 q -> P mj p -> P mj q -> meant m p x -> meant m q y ->
  cov_is m2 p q x y M2 -> cov_is mj p q x y Mj -> same_matrix M2 Mj.
Proof.
move=> p1 p2 pj q1 q2 qj Pp2 Pq2 Ppj Pqj [_ [u Hu]] [_ [v Hv]] F2 Fj.
have [P1 [d1 Hd1]] := Z1; have [P2 [d2 Hd2]] := Z2.
have [s1 _] := vary_K Mo P1 Hd1 E1; have [s2 _] := vary_K Mo P2 Hd2 E2.
have V1 := unit_vary Mo P1 Hd1 E1 U1; have Hdj := combine_at (o1 := o1) (o2 := o2) Dc Hd1 Hd2.
have Vj := unit_vary Mo (o := oj) Pc Hdj Ej Uj; have n1 := N1; have n1' := N1'; have n2 := N2; have n2' := N2'; have y1 := Y1.
rewrite s1 in n1 n1' y1; rewrite s2 in n2 n2'.
exact: (combine_seq_cov Mo C1 C2 Cj H1 H2 H2' Hj Dc Hd1 Hd2 n1 n1' n2 n2' y1 V1 Vj p1 p2 pj q1 q2 qj Pp2 Pq2 Ppj Pqj Hu Hv F2 Fj).
Qed.
Lemma sequential_mean p x e2 ej : p \in ps1 -> p \in ps2 -> p \in psj -> P m2 p -> P mj p -> meant m p x ->
  mean_is m2 p x e2 -> mean_is mj p x ej -> e2 = ej.
Proof.
move=> p1 p2 pj Pp2 Ppj [_ [u Hu]] F2 Fj.
have [P1 [d1 Hd1]] := Z1; have [P2 [d2 Hd2]] := Z2.
have [s1 _] := vary_K Mo P1 Hd1 E1; have [s2 _] := vary_K Mo P2 Hd2 E2.
have V1 := unit_vary Mo P1 Hd1 E1 U1; have Hdj := combine_at (o1 := o1) (o2 := o2) Dc Hd1 Hd2.
have Vj := unit_vary Mo (o := oj) Pc Hdj Ej Uj; have n1 := N1; have n1' := N1'; have n2 := N2; have n2' := N2'; have y1 := Y1.
rewrite s1 in n1 n1' y1; rewrite s2 in n2 n2'.
exact: (combine_seq_mean Mo C1 C2 Cj H1 H2 H2' Hj Dc Hd1 Hd2 n1 n1' n2 n2' y1 V1 Vj p1 p2 pj Pp2 Ppj Hu F2 Fj).
Qed.
End Seq.

(* C30: the rows of an observation in another order. *)
Section Rows.
Variables (mA mB m : mid) (oA oB : obs R) (psA psB : seq pid) (s : seq nat) (xs : seq (point R)) (K : dmat R).
Hypotheses (CA : conditioned w mA m oA psA) (CB : conditioned w mB m oB psB).
Hypotheses (Ep : o_p oB = o_p oA) (HA : o_p oA \in psA) (HB : o_p oA \in psB).
Hypotheses (XA : points (o_x oA) = Some xs) (XB : points (o_x oB) = Some [seq nth [::] xs k | k <- s]).
Hypotheses (Sp : single (w_log w m) (o_p oA)).
Hypotheses (ZA : meant m (o_p oA) (o_x oA)) (ZB : meant m (o_p oA) (o_x oB)).
Hypotheses (EK : cov_is m (o_p oA) (o_p oA) (o_x oA) (o_x oA) K).
Notation n := (size xs).
Hypothesis (Ps : perm_eq s (iota 0 n)).
Hypotheses (NA : nr (o_noise oA) = n) (NA' : nc (o_noise oA) = n) (NB : nr (o_noise oB) = n) (NB' : nc (o_noise oB) = n).
Hypothesis (NAB : forall i j, (i < n)%N -> (j < n)%N ->
  ent (o_noise oB) i j = ent (o_noise oA) (nth 0%N s i) (nth 0%N s j)).
Hypothesis (YAB : forall i, (i < n)%N -> nth 0 (o_y oB) i = nth 0 (o_y oA) (nth 0%N s i)).
Hypothesis (UA : mx_at K n n + mx_at (o_noise oA) n n \in unitmx).

Lemma rows_rv dA dB : is_at m (o_p oA) (o_x oA) dA -> is_at m (o_p oA) (o_x oB) dB ->
  [/\ size dA = n, same_rv dB [seq vget dA k | k <- s] & inv_at (size dA) (vary oA dA)].
Proof.
move=> HdA HdB; have sA := den_size Sp HdA.2 XA; have sB := den_size Sp HdB.2 XB; rewrite size_map in sB.
have ss : size s = n by rewrite (perm_size Ps) size_iota.
have [sK _] := vary_K Mo ZA.1 HdA EK.
split=> //; last by apply: (unit_vary Mo ZA.1 HdA EK); rewrite sK sA.
split=> [|i]; first by rewrite size_map.
rewrite sB => li; have lk : (nth 0%N s i < n)%N.
  by have := mem_nth 0%N li; rewrite (perm_mem Ps) mem_iota.
have := den_point (i := i) (j := nth 0%N s i) Sp HdB.2 HdA.2 XB XA; rewrite size_map (nth_map 0%N) // => /(_ li lk erefl).
by rewrite [vget [seq _ | _ <- _] _]/vget (nth_map 0%N).
Qed.
Lemma rows_cov p q x y MA MB : p \in psA -> p \in psB -> q \in psA -> q \in psB ->
  P mA p -> P mB p -> P mA q -> P mB q -> meant m p x -> meant m q y ->
  cov_is mA p q x y MA -> cov_is mB p q x y MB -> same_matrix MA MB.
Proof.
move=> p1 p2 q1 q2 Pp1 Pp2 Pq1 Pq2 [_ [u Hu]] [_ [v Hv]] F1 F2.
have [_ [dA HdA]] := ZA; have [_ [dB HdB]] := ZB; have [sA S U] := rows_rv HdA HdB.
have HB' : o_p oB \in psB by rewrite Ep.
have HdB' : is_at m (o_p oB) (o_x oB) dB by rewrite Ep.
have Ps' := Ps; have n1 := NA; have n2 := NA'; have n3 := NB; have n4 := NB'; have n5 := NAB; rewrite -sA in Ps' n1 n2 n3 n4 n5.
exact: (perm_cov Mo CA CB HA HB' HdA HdB' Ps' S n1 n2 n3 n4 n5 U p1 p2 q1 q2 Pp1 Pp2 Pq1 Pq2 Hu Hv F1 F2).
Qed.
Lemma rows_mean p x eA eB : p \in psA -> p \in psB -> P mA p -> P mB p -> meant m p x ->
  mean_is mA p x eA -> mean_is mB p x eB -> eA = eB.
Proof.
move=> p1 p2 Pp1 Pp2 [_ [u Hu]] F1 F2.
have [_ [dA HdA]] := ZA; have [_ [dB HdB]] := ZB; have [sA S U] := rows_rv HdA HdB.
have HB' : o_p oB \in psB by rewrite Ep.
have HdB' : is_at m (o_p oB) (o_x oB) dB by rewrite Ep.
have Ps' := Ps; have n1 := NA; have n2 := NA'; have n3 := NB; have n4 := NB'; have n5 := NAB; have y := YAB; rewrite -sA in Ps' n1 n2 n3 n4 n5 y.
exact: (perm_mean Mo CA CB HA HB' HdA HdB' Ps' S n1 n2 n3 n4 n5 y U p1 p2 Pp1 Pp2 Hu F1 F2).
Qed.
End Rows.

Lemma choose_list m l : (forall i, (i < size l)%N -> meant m (lname l i) (linput l i)) ->
  exists us, Forall2 (fun z v => is_at m z.1 z.2 v) l us.
Proof.
elim: l => [|z l IH] H; first by exists [::].
have [_ [u Hu]] := H 0%N isT; have [|us Hus] := IH; first by move=> i li; apply: (H i.+1).
by exists (u :: us); constructor.
Qed.

(* C30: the pairs of a combination in another order. *)
Section Pairs.
Variables (mA mB m : mid) (cA cB : pid) (psA psB : seq pid).
Variables (fs : seq (fdd R)) (ys es : seq (seq R)) (t : seq nat) (K : dmat R).
Let f0 := MkFdd 0 (Num [::]) (dzero R 0 0).
Let fsB := [seq nth f0 fs i | i <- t].
Let ysB := [seq nth [::] ys i | i <- t].
Let oA := combine_obs cA fs ys.
Let oB := combine_obs cB fsB ysB.
Hypothesis (Pt : perm_eq t (iota 0 (size fs))).
Hypotheses (CA : conditioned w mA m oA psA) (CB : conditioned w mB m oB psB).
Hypotheses (HA : cA \in psA) (HB : cB \in psB).
Hypotheses (DA : defined w m cA (DCross (map (@f_p R) fs))) (DB : defined w m cB (DCross (map (@f_p R) fsB))).
Hypothesis (Z : forall f, List.In f fs -> meant m (f_p f) (f_x f)).
Hypothesis (Pc : P m cA).
Hypotheses (Sy : size ys = size fs).
Hypothesis (EE : forall i, (i < size fs)%N -> let f := nth f0 fs i in
  [/\ mean_is m (f_p f) (f_x f) (nth [::] es i), nr (f_noise f) = size (nth [::] es i),
      nc (f_noise f) = size (nth [::] es i) & size (nth [::] ys i) = size (nth [::] es i)]).
Hypothesis (EK : cov_is m cA cA (o_x oA) (o_x oA) K).
Hypothesis (UA : mx_at K (nr K) (nr K) + mx_at (o_noise oA) (nr K) (nr K) \in unitmx).

Lemma Forall2_of_nth (T1 T2 : Type) (Q : T1 -> T2 -> Prop) x1 x2 (l1 : seq T1) (l2 : seq T2) : size l1 = size l2 ->
  (forall i, (i < size l1)%N -> Q (nth x1 l1 i) (nth x2 l2 i)) -> Forall2 Q l1 l2.
Proof.
elim: l1 l2 => [|a l1 IH] [|b l2] //= sz H; constructor; first exact: (H 0%N isT).
by apply: IH => [|i li]; [case: sz | exact: (H i.+1)].
Qed.
Lemma In_nth (T : Type) (x0 : T) (l : seq T) i : (i < size l)%N -> List.In (nth x0 l i) l.
Proof. by elim: l i => [|a l IH] [|i] //= li; [left | right; apply: IH]. Qed.

Lemma pairs_vec : exists us, [/\ Forall2 (fun z v => is_at m z.1 z.2 v) (fparts fs) us,
  Forall2 (fun f u => nr (f_noise f) = size u /\ nc (f_noise f) = size u) fs us &
  Forall2 (fun (y : seq R) u => size y = size u) ys us].
Proof.
have [|us F] := @choose_list m (fparts fs).
  move=> i; rewrite size_map => li; rewrite /lname /linput (nth_map f0) //=.
  by apply: Z; apply: In_nth.
have su : size fs = size us by rewrite -(Forall2_size F) size_map.
have Hi i : (i < size fs)%N -> is_at m (f_p (nth f0 fs i)) (f_x (nth f0 fs i)) (nth [::] us i) /\
    size (nth [::] us i) = size (nth [::] es i).
  move=> li; have := Forall2_nth (0%N, Num [::]) [::] F (i := i); rewrite size_map => /(_ li).
  rewrite (nth_map f0) //= => H; split=> //; have [e _ _ _] := EE li.
  by rewrite (is_m Mo (Z (In_nth _ li)).1 H e) size_map.
exists us; split=> //.
- by apply: (Forall2_of_nth (x1 := f0) (x2 := [::])) => // i li; have [_ ->] := Hi i li; have [_ -> -> _] := EE li.
- apply: (Forall2_of_nth (x1 := [::]) (x2 := [::])); rewrite ?Sy // => i li.
  by have [_ ->] := Hi i li; have [_ _ _ ->] := EE li.
Qed.
Lemma pairs_rv : exists us, [/\ Forall2 (fun z v => is_at m z.1 z.2 v) (fparts fs) us,
  Forall2 (fun f u => nr (f_noise f) = size u /\ nc (f_noise f) = size u) fs us,
  Forall2 (fun (y : seq R) u => size y = size u) ys us & inv_at (size (flatten us)) (vary oA (flatten us))].
Proof.
have [us [F1 F2 F3]] := pairs_vec; exists us; split=> //.
have lt : (m < w_nm w)%N by case: DA.
apply: (unit_vary Mo (o := oA) Pc _ EK UA).
by apply/(parts_at D G eps _ lt (combine_parts0 DA)); exists us.
Qed.
Lemma permuted_cov p q x y MA MB : p \in psA -> p \in psB -> q \in psA -> q \in psB ->
  P mA p -> P mB p -> P mA q -> P mB q -> meant m p x -> meant m q y ->
  cov_is mA p q x y MA -> cov_is mB p q x y MB -> same_matrix MA MB.
Proof.
move=> p1 p2 q1 q2 Pp1 Pp2 Pq1 Pq2 [_ [u Hu]] [_ [v Hv]] F1 F2; have [us [a1 a2 a3 a4]] := pairs_rv.
exact: (pairs_cov Mo Pt CA CB HA HB DA DB a1 a2 a4 p1 p2 q1 q2 Pp1 Pp2 Pq1 Pq2 Hu Hv F1 F2).
Qed.
Lemma permuted_mean p x eA eB : p \in psA -> p \in psB -> P mA p -> P mB p -> meant m p x ->
  mean_is mA p x eA -> mean_is mB p x eB -> eA = eB.
Proof.
move=> p1 p2 Pp1 Pp2 [_ [u Hu]] F1 F2; have [us [a1 a2 a3 a4]] := pairs_rv.
exact: (pairs_mean Mo Pt CA CB HA HB DA DB a1 a2 a3 a4 p1 p2 Pp1 Pp2 Hu F1 F2).
Qed.
End Pairs.

(* C31 *)
Lemma noiseless m' m o ps K : conditioned w m' m o ps -> o_p o \in ps -> meant m (o_p o) (o_x o) -> P m' (o_p o) ->
  cov_is m (o_p o) (o_p o) (o_x o) (o_x o) K -> nr (o_noise o) = nr K -> nc (o_noise o) = nr K ->
  zero_within (o_noise o) -> mx_at K (nr K) (nr K) \in unitmx ->
  (forall e, mean_is m' (o_p o) (o_x o) e -> size e = nr K /\ forall i, (i < nr K)%N -> nth 0 e i = nth 0 (o_y o) i) /\
  (forall q y M, q \in ps -> P m' q -> meant m q y -> cov_is m' (o_p o) q (o_x o) y M ->
     nr M = nr K /\ forall i j, (i < nr M)%N -> (j < nc M)%N -> ent M i j = 0).
Proof.
move=> C Ho [Po [d Hd]] P' EK N1 N2 N0 U; have [sK _] := vary_K Mo Po Hd EK.
have U' : inv_at (size d) (vary o d).
  apply: (unit_vary Mo Po Hd EK); have -> : mx_at (o_noise o) (nr K) (nr K) = 0; last by rewrite addr0.
  by apply/matrixP => i j; rewrite !mxE N0 ?N1 ?N2.
have n1 := N1; have n2 := N2; rewrite sK in n1 n2 *.
split=> [e He|q y M Hq Pq [_ [v Hv]] HM]; first exact: (interpolate_mean Mo C Ho Hd n1 n2 N0 U' P' He).
by have [-> -> H] := interpolate_cov Mo C Ho Hd n1 n2 N0 U' P' Pq Hq Hv HM.
Qed.

(* C35 *)
Section Noise.
Variables (m1 m2 m : mid) (o1 o2 : obs R) (ps1 ps2 : seq pid) (e : pid) (K Ke Kfe : dmat R) (mue : seq R).
Hypotheses (C1 : conditioned w m1 m o1 ps1) (C2 : conditioned w m2 m o2 ps2).
Hypotheses (H1 : o_p o1 \in ps1) (H2 : o_p o2 \in ps2).
Hypothesis (Sum : defined w m (o_p o2) (DSum (o_p o1) e)).
Hypotheses (Xo : o_x o2 = o_x o1) (Yo : o_y o2 = o_y o1) (N0 : zero_within (o_noise o2)).
Hypotheses (Z1 : meant m (o_p o1) (o_x o1)) (Ze : meant m e (o_x o1)) (Z2 : meant m (o_p o2) (o_x o1)).
Hypotheses (EK : cov_is m (o_p o1) (o_p o1) (o_x o1) (o_x o1) K) (Ee : cov_is m e e (o_x o1) (o_x o1) Ke)
  (Efe : cov_is m (o_p o1) e (o_x o1) (o_x o1) Kfe) (Eme : mean_is m e (o_x o1) mue).
Hypotheses (N1 : nr (o_noise o1) = nr K) (N1' : nc (o_noise o1) = nr K)
  (N2 : nr (o_noise o2) = nr K) (N2' : nc (o_noise o2) = nr K).
Hypotheses (Me : forall i, (i < size mue)%N -> nth 0 mue i = 0) (Ve : same_matrix Ke (o_noise o1)) (Ie : zero_within Kfe).
Hypothesis (U : mx_at K (nr K) (nr K) + mx_at (o_noise o1) (nr K) (nr K) \in unitmx).

Lemma noise_rv d1 ev d2 : is_at m (o_p o1) (o_x o1) d1 -> is_at m e (o_x o1) ev -> is_at m (o_p o2) (o_x o2) d2 ->
  [/\ nr K = size d1, size d2 = size d1 & inv_at (size d1) (vary o1 d1)] /\
  [/\ forall i, (i < size ev)%N -> Ex (vget ev i) = 0,
      forall i j, (i < size ev)%N -> (j < size ev)%N -> cov (vget ev i) (vget ev j) = ent (o_noise o1) i j &
      forall i j, (i < size d1)%N -> (j < size ev)%N -> cov (vget d1 i) (vget ev j) = 0].
Proof.
move=> Hd1 He Hd2; have [sK _] := vary_K Mo Z1.1 Hd1 EK; split; last first.
  split.
  - move=> i li; have := Me (i := i); rewrite (is_m Mo Ze.1 He Eme) size_map => /(_ li).
    by rewrite map_nth_Ex.
  - move=> i j li lj; have [a1 a2 a3] := is_k Mo Ze.1 Ze.1 He He Ee; case: Ve => b1 b2 b3.
    by rewrite -a3 // b3 ?a1 ?a2.
  - move=> i j li lj; have [a1 a2 a3] := is_k Mo Z1.1 Ze.1 Hd1 He Efe.
    by rewrite -a3 // Ie ?a1 ?a2.
split=> //; last exact: (unit_vary Mo Z1.1 Hd1 EK).
have lt : (m < w_nm w)%N by case: Sum.
have Wf := l_wf (v_log (winv_run ops).1) lt.
have Hd2' := Hd2; rewrite Xo in Hd2'; have [a [b [Ha Hb sz S]]] := den_lin Wf Sum.2 erefl Hd2'.2.
have [su _] := proj1 (aseqs_nth _ _) S; rewrite su size_zipw //.
by have [-> _] := proj1 (aseqs_nth _ _) (denotes_same Ha Hd1.2).
Qed.
Lemma noise_process_cov p q x y M1 M2 Kp Kq : p \in ps1 -> p \in ps2 -> q \in ps1 -> q \in ps2 ->
  P m1 p -> P m2 p -> P m1 q -> P m2 q -> meant m p x -> meant m q y ->
  cov_is m p e x (o_x o1) Kp -> zero_within Kp -> cov_is m q e y (o_x o1) Kq -> zero_within Kq ->
  cov_is m1 p q x y M1 -> cov_is m2 p q x y M2 -> same_matrix M1 M2.
Proof.
move=> p1 p2 q1 q2 Pp1 Pp2 Pq1 Pq2 [Pp [u Hu]] [Pq [v Hv]] Fp Zp Fq Zq F1 F2.
have [_ [d1 Hd1]] := Z1; have [_ [ev He]] := Ze; have [P2 [d2 Hd2]] := Z2; rewrite -Xo in Hd2.
have [[sK s2 U1] [E0 EE EF]] := noise_rv Hd1 He Hd2.
have n1 := N1; have n1' := N1'; have n2 := N2; have n2' := N2'; rewrite sK in n1 n1' n2 n2'; rewrite -s2 in n2 n2'.
have [a1 a2 a3] := is_k Mo Pp Ze.1 Hu He Fp; have [b1 b2 b3] := is_k Mo Pq Ze.1 Hv He Fq.
apply: (noise_cov Mo C1 C2 H1 H2 Sum Xo N0 Hd1 He Hd2 n1 n1' n2 n2' E0 EE EF U1 p1 p2 q1 q2 Pp1 Pp2 Pq1 Pq2 Hu Hv _ _ F1 F2) => i j li lj.
  by rewrite -a3 // Zp ?a1 ?a2.
by rewrite -b3 // Zq ?b1 ?b2.
Qed.
Lemma noise_process_mean p x e1 e2 Kp : p \in ps1 -> p \in ps2 ->
  P m1 p -> P m2 p -> meant m p x -> cov_is m p e x (o_x o1) Kp -> zero_within Kp ->
  mean_is m1 p x e1 -> mean_is m2 p x e2 -> e1 = e2.
Proof.
move=> p1 p2 Pp1 Pp2 [Pp [u Hu]] Fp Zp F1 F2.
have [_ [d1 Hd1]] := Z1; have [_ [ev He]] := Ze; have [P2 [d2 Hd2]] := Z2; rewrite -Xo in Hd2.
have [[sK s2 U1] [E0 EE EF]] := noise_rv Hd1 He Hd2.
have n1 := N1; have n1' := N1'; have n2 := N2; have n2' := N2'; rewrite sK in n1 n1' n2 n2'; rewrite -s2 in n2 n2'.
have [a1 a2 a3] := is_k Mo Pp Ze.1 Hu He Fp.
apply: (noise_mean Mo C1 C2 H1 H2 Sum Xo Yo N0 Hd1 He Hd2 n1 n1' n2 n2' E0 EE EF p1 p2 Pp1 Pp2 Hu _ F1 F2) => i j li lj.
by rewrite -a3 // Zp ?a1 ?a2.
Qed.
End Noise.

(* C53 *)
Lemma combine_numbers m c fs M e B es : defined w m c (DCross (map (@f_p R) fs)) ->
  (forall f, List.In f fs -> meant m (f_p f) (f_x f)) -> P m c ->
  let cf := combine_fdd c fs in
  cov_is m c c (f_x cf) (f_x cf) M -> mean_is m c (f_x cf) e ->
  let l := fparts fs in
  (forall i j, (i < size fs)%N -> (j < size fs)%N -> cov_is m (lname l i) (lname l j) (linput l i) (linput l j) (B i j)) ->
  size es = size fs -> (forall i, (i < size fs)%N -> mean_is m (lname l i) (linput l i) (nth [::] es i)) ->
  e = flatten es /\ blocks (map size es) (map size es) B M.
Proof.
move=> Dc Z Pc cf EM Em l EB ss Ees; pose f0 := MkFdd 0 (Num [::]) (dzero R 0 0).
have Pt := combine_parts0 Dc; rewrite -/cf in Pt.
have lt : (m < w_nm w)%N by case: Dc.
have sl : size l = size fs by rewrite size_map.
have Hl i : (i < size l)%N -> meant m (lname l i) (linput l i).
  rewrite sl => li; rewrite /lname /linput (nth_map f0) //=; by apply: Z; apply: In_nth.
have [us F] := choose_list Hl; have [Hc Zc] : is_at m c (f_x cf) (flatten us) /\ meant m c (f_x cf).
  have H : is_at m c (f_x cf) (flatten us) by apply/(parts_at D G eps _ lt Pt); exists us.
  by split=> //; split=> //; exists (flatten us).
have HP z : z \in map fst l -> P m z.
  move=> /(nthP 0%N) [i]; rewrite size_map => li <-; rewrite (nth_map (0%N, Num [::])) //.
  exact: (Hl i li).1.
have su : size us = size fs by rewrite -(Forall2_size F) sl.
have se i : (i < size fs)%N -> nth [::] es i = map Ex (nth [::] us i).
  by rewrite -sl => li; apply: (is_m Mo (Hl i li).1 (stack_nth F li)); apply: Ees; rewrite -sl.
split; first by apply: (parts_mean Mo Pt Zc HP Em); rewrite ?sl.
have -> : map size es = shape us.
  apply: (@eq_from_nth _ 0%N); rewrite !size_map ss // => i li.
  by rewrite !(nth_map [::]) ?su ?ss // se // size_map.
apply: (flat_blocks (is_k Mo Pc Pc Hc Hc EM)); rewrite su => i j li lj.
rewrite -sl in li lj; apply: (is_k Mo (Hl i li).1 (Hl j lj).1 (stack_nth F li) (stack_nth F lj)).
by apply: EB; rewrite -sl.
Qed.
End ModelThms.
