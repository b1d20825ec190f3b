(* Conditioning, in numbers. *)
From Coq Require Import List.
From mathcomp Require Import all_ssreflect all_algebra all_fingroup.
From mathcomp Require Import zify.
From Verif Require Import Graph Machine Refine Worlds Eval GraphSpec GraphProofs GraphOps RV RVProofs Sound Typing ModelSpec ModelFacts Cond.
Set Implicit Arguments. Unset Strict Implicit. Unset Printing Implicit Defensive.
Import GRing.Theory.
Local Open Scope ring_scope.

Section Pc.
Variable R : fieldType.
Implicit Types (S : nat -> nat -> R) (a b : nat -> R).

Lemma pc_sym n S a b : (forall i j, S i j = S j i) -> pc (R := R) n S a b = pc n S b a.
Proof.
move=> Sym; rewrite /pc; set A := invmx _; have At : A^T = A.
  by rewrite /A trmx_inv; congr invmx; apply/matrixP => i j; rewrite !mxE.
transitivity ((\row_(k < n) a k *m A *m \col_(k < n) b k)^T 0 0); first by rewrite [RHS]mxE.
rewrite !trmx_mul At mulmxA; congr ((_ *m _ *m _) 0 0).
- by apply/rowP => k; rewrite !mxE.
- by apply/colP => k; rewrite !mxE.
Qed.

(* A permutation of the data. *)
Lemma pc_perm n (s : seq nat) S S' a a' b b' : perm_eq s (iota 0 n) ->
  (forall i j, (i < n)%N -> (j < n)%N -> S' i j = S (nth 0%N s i) (nth 0%N s j)) ->
  (forall i, (i < n)%N -> a' i = a (nth 0%N s i)) -> (forall i, (i < n)%N -> b' i = b (nth 0%N s i)) ->
  inv_at n S -> inv_at n S' /\ pc n S' a' b' = pc n S a b.
Proof.
move=> Ps HS Ha Hb U; have sz : size s = n by rewrite (perm_size Ps) size_iota.
have us : uniq s by rewrite (perm_uniq Ps) iota_uniq.
have lt i : (i < n)%N -> (nth 0%N s i < n)%N.
  move=> li; have : nth 0%N s i \in s by rewrite mem_nth ?sz.
  by rewrite (perm_mem Ps) mem_iota add0n.
pose f (i : 'I_n) : 'I_n := Ordinal (lt i (ltn_ord i)).
have inj : injective f.
  by move=> i j /(congr1 val) /= /eqP; rewrite nth_uniq ?sz // => /eqP e; apply: val_inj.
apply: (@pc_trans R n (perm_mx (perm inj))); rewrite ?unitmx_perm //.
- rewrite tr_perm_mx -col_permE -row_permE; apply/matrixP => i j; rewrite !mxE !permE /=; exact: HS.
- by rewrite tr_perm_mx -col_permE; apply/rowP => j; rewrite !mxE permE Ha.
- by rewrite -row_permE; apply/colP => j; rewrite !mxE permE Hb.
Qed.

(* Rows of the matrix itself. *)
Lemma pc_row n S b i : inv_at n S -> (i < n)%N -> pc n S (S i) b = b i.
Proof.
move=> U li; rewrite /pc; have -> : \row_(k < n) S i k = row (Ordinal li) (\matrix_(i < n, j < n) S i j).
  by apply/rowP => k; rewrite !mxE.
by rewrite -mulmxA -row_mul mulKVmx // !mxE.
Qed.

(* Bilinearity. *)
Lemma pc_sumZ n S k (c : nat -> R) (a : nat -> nat -> R) b :
  pc n S (fun s => \sum_(i < k) c i * a i s) b = \sum_(i < k) c i * pc n S (a i) b.
Proof.
rewrite /pc; have -> : \row_(s < n) (\sum_(i < k) c i * a i s) = \sum_(i < k) c i *: \row_(s < n) a i s.
  by apply/rowP => s; rewrite !mxE summxE; apply: eq_bigr => i _; rewrite !mxE.
by rewrite !mulmx_suml summxE; apply: eq_bigr => i _; rewrite -!scalemxAl mxE.
Qed.
Lemma pc_sumZr n S k (c : nat -> R) a (b : nat -> nat -> R) :
  pc n S a (fun s => \sum_(i < k) c i * b i s) = \sum_(i < k) c i * pc n S a (b i).
Proof.
rewrite /pc; have -> : \col_(s < n) (\sum_(i < k) c i * b i s) = \sum_(i < k) c i *: \col_(s < n) b i s.
  by apply/colP => s; rewrite !mxE summxE; apply: eq_bigr => i _; rewrite !mxE.
by rewrite !mulmx_sumr summxE; apply: eq_bigr => i _; rewrite -!scalemxAr mxE.
Qed.
End Pc.

Section CondFacts.
Variables (R : fieldType) (W : space R).
Variable D : nat -> (point R -> R) -> point R -> R.
Variables (G : pid -> point R -> rv W) (eps : mid -> nat -> rv W).
Notation V := (rv W). Notation Ex := (@Ex R W). Notation cov := (@cov R W).
Variables (ops : seq (op R)) (P : mid -> pid -> Prop).
Let w := run_ops ops.
Variable CV : mid -> pid -> pid -> input R -> input R -> dmat R -> Prop.
Hypothesis Mo : sound D G eps w P CV.
Notation is_at := (is_at D G eps w). Notation meant := (meant D G eps w P).
Notation cov_is := CV. Notation mean_is := (mean_is D w).
Implicit Types (u v d : seq V) (K M : dmat R).

Lemma is_k m p q x y M u v : P m p -> P m q -> is_at m p x u -> is_at m q y v -> cov_is m p q x y M -> covmat M u v.
Proof. by case: Mo => _ [H _ _]; apply: H. Qed.
Lemma is_m m p x e u : P m p -> is_at m p x u -> mean_is m p x e -> e = map Ex u.
Proof. by case: Mo => _ [_ H _]; apply: H. Qed.
Lemma is_own m p x M : meant m p x -> ModelSpec.cov_is D w m p p x x M -> cov_is m p p x x M.
Proof. by case: Mo => _ [_ _ H] [Pp [u Hu]]; apply: H Hu. Qed.

Lemma cond_P m' m o ps p : conditioned w m' m o ps -> p \in ps -> P m' p -> P m p /\ P m (o_p o).
Proof. by move=> C; have [par <- [_ _ eb _ _]] := cond_log C; move=> Hp Pp; have [H1 H2] := vd_base Mo.1 (cond_lt C) eb Pp Hp; split=> //; apply: H2; rewrite /o_pids mem_head. Qed.

Lemma map_nth_Ex u i : (i < size u)%N -> nth 0 (map Ex u) i = Ex (vget u i).
Proof. by move=> li; rewrite (nth_map (rone W)). Qed.

Section One.
Variables (m' m : mid) (o : obs R) (ps : seq pid).
Hypotheses (C : conditioned w m' m o ps) (Ho : o_p o \in ps).
Variables (d : seq V).
Hypothesis (Hd : is_at m (o_p o) (o_x o) d).
Hypotheses (N1 : nr (o_noise o) = size d) (N2 : nc (o_noise o) = size d).
Hypothesis (U : inv_at (size d) (vary o d)).

(* The random variables of a posterior. *)
Lemma post_cov p q x y u v M : p \in ps -> q \in ps -> P m' p -> P m' q -> is_at m p x u -> is_at m q y v ->
  cov_is m' p q x y M -> [/\ nr M = size u, nc M = size v & forall i j, (i < size u)%N -> (j < size v)%N ->
    ent M i j = cov (vget u i) (vget v j) -
      pc (size d) (vary o d) (fun k => cov (vget u i) (vget d k)) (fun k => cov (vget v j) (vget d k))].
Proof.
move=> Hp Hq Pp Pq Hu Hv E.
have [a1 a2 a3] := is_k Pp Pq (cond_at C Hp Ho Hu Hd) (cond_at C Hq Ho Hv Hd) E.
rewrite !size_map in a1 a2 a3; split=> // i j li lj; rewrite a3 // /vget !(nth_map (rone W)) //.
exact: (cond_cov Mo C Ho Hd erefl N1 N2 Hp Hq Hu Hv li lj U).
Qed.
Lemma post_mean p x u e : p \in ps -> P m' p -> is_at m p x u -> mean_is m' p x e ->
  size e = size u /\ forall i, (i < size u)%N -> nth 0 e i = Ex (vget u i) +
      pc (size d) (vary o d) (fun k => cov (vget u i) (vget d k)) (fun k => nth 0 (o_y o) k - Ex (vget d k)).
Proof.
move=> Hp Pp Hu E; rewrite (is_m Pp (cond_at C Hp Ho Hu Hd) E) !size_map; split=> // i li.
rewrite map_nth_Ex ?size_map // /vget (nth_map (rone W)) //.
exact: (cond_Ex Mo C Ho Hd erefl N1 N2 Hp Hu li).
Qed.
End One.

Lemma vary_K m o d Kz : P m (o_p o) -> is_at m (o_p o) (o_x o) d -> cov_is m (o_p o) (o_p o) (o_x o) (o_x o) Kz ->
  nr Kz = size d /\ forall i j, (i < size d)%N -> (j < size d)%N -> vary o d i j = ent Kz i j + ent (o_noise o) i j.
Proof. by move=> Pz Hd E; have [a1 a2 a3] := is_k Pz Pz Hd Hd E; split=> // i j li lj; rewrite a3. Qed.

Lemma unit_vary m o d Kz : P m (o_p o) -> is_at m (o_p o) (o_x o) d -> cov_is m (o_p o) (o_p o) (o_x o) (o_x o) Kz ->
  mx_at Kz (nr Kz) (nr Kz) + mx_at (o_noise o) (nr Kz) (nr Kz) \in unitmx -> inv_at (size d) (vary o d).
Proof.
move=> Pz Hd E; have [-> H] := vary_K Pz Hd E; rewrite /inv_at; set A := _ + _; set B := \matrix_(i, j) _.
suff -> : B = A by []; by apply/matrixP => i j; rewrite !mxE H.
Qed.

(* C28 *)
Lemma conditional_cov m' m o ps p q x y K Kp Kq Kz K' :
  conditioned w m' m o ps -> p \in ps -> q \in ps -> o_p o \in ps -> P m' p -> P m' q ->
  meant m p x -> meant m q y -> meant m (o_p o) (o_x o) ->
  cov_is m p q x y K -> cov_is m p (o_p o) x (o_x o) Kp -> cov_is m q (o_p o) y (o_x o) Kq ->
  cov_is m (o_p o) (o_p o) (o_x o) (o_x o) Kz -> cov_is m' p q x y K' ->
  let n := nr Kz in nr (o_noise o) = n -> nc (o_noise o) = n ->
  mx_at Kz n n + mx_at (o_noise o) n n \in unitmx ->
  [/\ nr K' = nr K, nc K' = nc K &
      exists2 B : 'M_(nr K, n), B *m (mx_at Kz n n + mx_at (o_noise o) n n) = mx_at Kp (nr K) n &
        mx_at K' (nr K) (nc K) = mx_at K (nr K) (nc K) - B *m (mx_at Kq (nc K) n)^T].
Proof.
move=> C Hp Hq Ho Pp Pq [Pp' [u Hu]] [Pq' [v Hv]] [Pz [d Hd]] EK EKp EKq EKz EK' n N1 N2 U.
have [k1 k2 k3] := is_k Pp' Pq' Hu Hv EK; have [p1 p2 p3] := is_k Pp' Pz Hu Hd EKp.
have [q1 q2 q3] := is_k Pq' Pz Hv Hd EKq; have [sd Hz] := vary_K Pz Hd EKz.
have Uv := unit_vary Pz Hd EKz U; rewrite -/n in sd; rewrite sd in N1 N2.
have [e1 e2 e3] := post_cov C Ho Hd N1 N2 Uv Hp Hq Pp Pq Hu Hv EK'.
split; rewrite ?e1 ?e2 ?k1 ?k2 //.
exists (mx_at Kp (size u) n *m invmx (mx_at Kz n n + mx_at (o_noise o) n n)); first by rewrite mulmxKV.
apply/matrixP => i j; rewrite !mxE e3 // k3 //; congr (_ - _).
rewrite /pc -sd !mxE; apply: eq_bigr => s _; rewrite !mxE q3 -?sd //; congr (_ * _).
apply: eq_bigr => t _; rewrite !mxE p3 -?sd //; congr (_ * invmx _ _ _).
by apply/matrixP => a b; rewrite !mxE Hz -?sd.
Qed.
Lemma conditional_mean m' m o ps p x e ez Kp Kz e' :
  conditioned w m' m o ps -> p \in ps -> o_p o \in ps -> P m' p ->
  meant m p x -> meant m (o_p o) (o_x o) ->
  mean_is m p x e -> mean_is m (o_p o) (o_x o) ez -> cov_is m p (o_p o) x (o_x o) Kp ->
  cov_is m (o_p o) (o_p o) (o_x o) (o_x o) Kz -> mean_is m' p x e' ->
  let n := nr Kz in nr (o_noise o) = n -> nc (o_noise o) = n ->
  mx_at Kz n n + mx_at (o_noise o) n n \in unitmx ->
  size e' = size e /\
  exists2 B : 'M_(size e, n), B *m (mx_at Kz n n + mx_at (o_noise o) n n) = mx_at Kp (size e) n &
    forall i : 'I_(size e), nth 0 e' i = nth 0 e i + \sum_k B i k * (nth 0 (o_y o) k - nth 0 ez k).
Proof.
move=> C Hp Ho Pp [Pp' [u Hu]] [Pz [d Hd]] Ee Eez EKp EKz Ee' n N1 N2 U.
have e0 := is_m Pp' Hu Ee; have ez0 := is_m Pz Hd Eez; have [p1 p2 p3] := is_k Pp' Pz Hu Hd EKp.
have [sd Hz] := vary_K Pz Hd EKz.
have Uv := unit_vary Pz Hd EKz U; rewrite -/n in sd; rewrite sd in N1 N2.
have [e1 e2] := post_mean C Ho Hd N1 N2 Hp Pp Hu Ee'; have se : size e = size u by rewrite e0 size_map.
split; rewrite ?e1 ?se //.
exists (mx_at Kp (size u) n *m invmx (mx_at Kz n n + mx_at (o_noise o) n n)); first by rewrite mulmxKV.
move=> i; rewrite e2 // e0 map_nth_Ex //; congr (_ + _).
rewrite /pc -sd !mxE; apply: eq_bigr => s _; rewrite !mxE ez0 map_nth_Ex -?sd //; congr (_ * _).
apply: eq_bigr => t _; rewrite !mxE p3 -?sd //; congr (_ * invmx _ _ _).
by apply/matrixP => a b; rewrite !mxE Hz -?sd.
Qed.

(* Sequential conditioning, C29. *)
Section Seq.
Variables (m1 m2 mj m : mid) (o1 o2 oj : obs R) (ps1 ps2 psj : seq pid).
Hypotheses (C1 : conditioned w m1 m o1 ps1) (C2 : conditioned w m2 m1 o2 ps2) (Cj : conditioned w mj m oj psj).
Hypotheses (H1 : o_p o1 \in ps1) (H2 : o_p o2 \in ps2) (H2' : o_p o2 \in ps1) (Hj : o_p oj \in psj).
Variables (d1 d2 dj : seq V).
Hypotheses (Hd1 : is_at m (o_p o1) (o_x o1) d1) (Hd2 : is_at m (o_p o2) (o_x o2) d2)
  (Hdj : is_at m (o_p oj) (o_x oj) dj).
Hypothesis (Dj : same_rv dj (d1 ++ d2)).
Notation n1 := (size d1). Notation n2 := (size d2).
Hypotheses (N1 : nr (o_noise o1) = n1) (N1' : nc (o_noise o1) = n1).
Hypotheses (N2 : nr (o_noise o2) = n2) (N2' : nc (o_noise o2) = n2).
Hypotheses (Nj : nr (o_noise oj) = (n1 + n2)%N) (Nj' : nc (o_noise oj) = (n1 + n2)%N).
Hypothesis (B11 : forall i j, (i < n1)%N -> (j < n1)%N -> ent (o_noise oj) i j = ent (o_noise o1) i j).
Hypothesis (B12 : forall i j, (i < n1)%N -> (j < n2)%N -> ent (o_noise oj) i (n1 + j) = 0).
Hypothesis (B21 : forall i j, (i < n2)%N -> (j < n1)%N -> ent (o_noise oj) (n1 + i) j = 0).
Hypothesis (B22 : forall i j, (i < n2)%N -> (j < n2)%N -> ent (o_noise oj) (n1 + i) (n1 + j) = ent (o_noise o2) i j).
Hypotheses (Y1 : forall i, (i < n1)%N -> nth 0 (o_y oj) i = nth 0 (o_y o1) i).
Hypotheses (Y2 : forall i, (i < n2)%N -> nth 0 (o_y oj) (n1 + i) = nth 0 (o_y o2) i).
Hypotheses (U1 : inv_at n1 (vary o1 d1)) (Uj : inv_at (size dj) (vary oj dj)).

Let nj : size dj = (n1 + n2)%N. Proof. by have [-> _] := Dj; rewrite size_cat. Qed.
Let vj1 i : (i < n1)%N -> Ex (vget dj i) = Ex (vget d1 i) /\ forall g, cov (vget dj i) g = cov (vget d1 i) g.
Proof.
by move=> li; have := Dj.2 i; rewrite nj ltn_addr // => /(_ isT); rewrite /vget nth_cat li.
Qed.
Let vj2 i : (i < n2)%N -> Ex (vget dj (n1 + i)) = Ex (vget d2 i) /\ forall g, cov (vget dj (n1 + i)) g = cov (vget d2 i) g.
Proof.
by move=> li; have := Dj.2 (n1 + i)%N; rewrite nj ltn_add2l => /(_ li); rewrite /vget nth_cat ltnNge leq_addr addKn.
Qed.
Let Sj i j := if (i < n1 + n2)%N && (j < n1 + n2)%N then vary oj dj i j else 0.
Let SjE i j : (i < n1 + n2)%N -> (j < n1 + n2)%N -> vary oj dj i j = Sj i j.
Proof. by rewrite /Sj => -> ->. Qed.
Let Sj_sym i j : Sj i j = Sj j i.
Proof.
rewrite /Sj andbC; case: ifP => // /andP [lj li]; rewrite /vary covC; congr (_ + _).
have [par _ [_ _ eb _ _]] := cond_log Cj; have [_ Hn] := vd_noise Mo.1 (cond_lt Cj) eb.
by rewrite -!Hn ?Nj ?Nj' // covC.
Qed.
Let Sj11 i j : (i < n1)%N -> (j < n1)%N -> Sj i j = vary o1 d1 i j.
Proof.
move=> li lj; rewrite -SjE ?ltn_addr // /vary B11 //; have [_ ->] := vj1 li; rewrite covC.
by have [_ ->] := vj1 lj; rewrite covC.
Qed.
Let Sj21 i j : (i < n2)%N -> (j < n1)%N -> Sj (n1 + i)%N j = cov (vget d2 i) (vget d1 j).
Proof.
move=> li lj; rewrite -SjE ?ltn_add2l ?ltn_addr // /vary B21 // addr0; have [_ ->] := vj2 li; rewrite covC.
by have [_ ->] := vj1 lj; rewrite covC.
Qed.
Let Sj22 i j : (i < n2)%N -> (j < n2)%N -> Sj (n1 + i)%N (n1 + j)%N = cov (vget d2 i) (vget d2 j) + ent (o_noise o2) i j.
Proof.
move=> li lj; rewrite -SjE ?ltn_add2l // /vary B22 //; have [_ ->] := vj2 li; rewrite covC.
by have [_ ->] := vj2 lj; rewrite covC.
Qed.

Let g1 := given (eps m1) (o_y o1) d1.
Let d21 := map g1 d2.
Let sd21 : size d21 = n2. Proof. by rewrite size_map. Qed.
Let Hd21 : is_at m1 (o_p o2) (o_x o2) d21.
Proof. exact: (cond_at C1 H2' H1 Hd2 Hd1). Qed.
Let vd21 k : (k < n2)%N -> vget d21 k = g1 (vget d2 k).
Proof. by move=> lk; rewrite /vget (nth_map (rone W)). Qed.

Let Sc i j := Sj (n1 + i)%N (n1 + j)%N - pc n1 Sj (Sj (n1 + i)%N) (Sj (n1 + j)%N).
Let Sc_vary i j : (i < n2)%N -> (j < n2)%N -> vary o2 d21 i j = Sc i j.
Proof.
move=> li lj; rewrite /vary /Sc !vd21 // (cond_cov Mo C1 H1 Hd1 erefl N1 N1' H2' H2' Hd2 Hd2) //.
rewrite Sj22 // addrAC; congr (_ - _); apply: pc_eq => [s t ls lt|k lk|k lk]; first by rewrite Sj11.
all: by rewrite Sj21.
Qed.
Let U1' : inv_at n1 Sj.
Proof. by apply: inv_at_eq U1 => i j li lj; rewrite Sj11. Qed.
Let Uj' : inv_at (n1 + n2) Sj.
Proof. by move: Uj; rewrite nj; apply: inv_at_eq => i j li lj; rewrite SjE. Qed.
Let U2 : inv_at (size d21) (vary o2 d21).
Proof.
rewrite sd21; have [+ _] := pc_block (fun=> 0) (fun=> 0) Sj_sym U1' Uj'.
by apply: inv_at_eq => i j li lj; rewrite Sc_vary.
Qed.

Section Query.
Variables (p : pid) (x : input R) (u : seq V) (i : nat).
Hypotheses (Hp : p \in ps1) (Hu : is_at m p x u) (li : (i < size u)%N).
Let cu k := cov (vget u i) (vget dj k).
Lemma seq_cu1 k : (k < n1)%N -> cov (vget u i) (vget d1 k) = cu k.
Proof. by move=> lk; rewrite /cu [RHS]covC; have [_ ->] := vj1 lk; rewrite covC. Qed.
Lemma seq_cu2 k : (k < n2)%N -> cov (g1 (vget u i)) (vget d21 k) = cu (n1 + k)%N - pc n1 Sj cu (Sj (n1 + k)%N).
Proof.
move=> lk; rewrite vd21 // (cond_cov Mo C1 H1 Hd1 erefl N1 N1' Hp H2' Hu Hd2) //.
rewrite /cu [X in _ = X - _]covC; have [_ ->] := vj2 lk; rewrite [X in _ = X - _]covC; congr (_ - _).
apply: pc_eq => [s t ls lt|t lt|t lt]; [by rewrite Sj11 | by rewrite seq_cu1 | by rewrite Sj21].
Qed.
End Query.

Lemma seq_cov p q x y u v M2 Mj : p \in ps1 -> p \in ps2 -> p \in psj -> q \in ps1 -> q \in ps2 -> q \in psj ->
  P m2 p -> P m2 q -> P mj p -> P mj q -> is_at m p x u -> is_at m q y v ->
  cov_is m2 p q x y M2 -> cov_is mj p q x y Mj -> same_matrix M2 Mj.
Proof.
move=> p1 p2 pj q1 q2 qj P2p P2q Pjp Pjq Hu Hv E2 Ej.
have Hu1 := cond_at C1 p1 H1 Hu Hd1; have Hv1 := cond_at C1 q1 H1 Hv Hd1.
have N2x : nr (o_noise o2) = size d21 by rewrite sd21.
have N2x' : nc (o_noise o2) = size d21 by rewrite sd21.
have [a1 a2 a3] := post_cov C2 H2 Hd21 N2x N2x' U2 p2 q2 P2p P2q Hu1 Hv1 E2.
have Njx : nr (o_noise oj) = size dj by rewrite nj.
have Njx' : nc (o_noise oj) = size dj by rewrite nj.
have [b1 b2 b3] := post_cov Cj Hj Hdj Njx Njx' Uj pj qj Pjp Pjq Hu Hv Ej.
rewrite !size_map in a1 a2 a3; split; rewrite ?a1 ?a2 ?b1 ?b2 // => i j li lj.
rewrite a3 // b3 // ?sd21 nj.
rewrite (pc_eq (S' := Sj) (a' := fun k => cov (vget u i) (vget dj k)) (b' := fun k => cov (vget v j) (vget dj k)) SjE) //.
have [_ ->] := pc_block (fun k => cov (vget u i) (vget dj k)) (fun k => cov (vget v j) (vget dj k)) Sj_sym U1' Uj'.
have gu k (l : seq V) : (k < size l)%N -> vget (map g1 l) k = g1 (vget l k) by move=> lk; rewrite /vget (nth_map (rone W)).
rewrite !gu // (cond_cov Mo C1 H1 Hd1 erefl N1 N1' p1 q1 Hu Hv) // opprD addrA; congr (_ - _ - _).
  by apply: pc_eq => [s t ls lt|t lt|t lt]; rewrite ?Sj11 // seq_cu1.
apply: pc_eq => [s t ls lt|t lt|t lt]; first exact: Sc_vary.
  exact: (seq_cu2 p1 Hu li).
by rewrite [in RHS]pc_sym //; apply: (seq_cu2 q1 Hv lj).
Qed.
Lemma seq_mean p x u e2 ej : p \in ps1 -> p \in ps2 -> p \in psj -> P m2 p -> P mj p -> is_at m p x u ->
  mean_is m2 p x e2 -> mean_is mj p x ej -> e2 = ej.
Proof.
move=> p1 p2 pj P2p Pjp Hu E2 Ej.
have Hu1 := cond_at C1 p1 H1 Hu Hd1.
have N2x : nr (o_noise o2) = size d21 by rewrite sd21.
have N2x' : nc (o_noise o2) = size d21 by rewrite sd21.
have [a1 a2] := post_mean C2 H2 Hd21 N2x N2x' p2 P2p Hu1 E2.
have Njx : nr (o_noise oj) = size dj by rewrite nj.
have Njx' : nc (o_noise oj) = size dj by rewrite nj.
have [b1 b2] := post_mean Cj Hj Hdj Njx Njx' pj Pjp Hu Ej.
rewrite !size_map in a1 a2; apply: (@eq_from_nth _ 0); rewrite ?a1 ?b1 // => i li.
rewrite a2 // b2 // ?sd21 nj.
rewrite (pc_eq (S' := Sj) (a' := fun k => cov (vget u i) (vget dj k)) (b' := fun k => nth 0 (o_y oj) k - Ex (vget dj k)) SjE) //.
have [_ ->] := pc_block (fun k => cov (vget u i) (vget dj k)) (fun k => nth 0 (o_y oj) k - Ex (vget dj k)) Sj_sym U1' Uj'.
have -> : vget (map g1 u) i = g1 (vget u i) by rewrite /vget (nth_map (rone W)).
rewrite (cond_Ex Mo C1 H1 Hd1 erefl N1 N1' p1 Hu) // -addrA; congr (_ + (_ + _)).
  by apply: pc_eq => [s t ls lt|t lt|t lt]; rewrite ?Sj11 ?seq_cu1 // Y1 //; have [->] := vj1 lt.
apply: pc_eq => [s t ls lt|t lt|t lt]; first exact: Sc_vary.
  exact: (seq_cu2 p1 Hu li).
rewrite Y2 // vd21 // (cond_Ex Mo C1 H1 Hd1 erefl N1 N1' H2' Hd2) // opprD addrA; have [-> _] := vj2 lt; congr (_ - _).
apply: pc_eq => [s t' ls lt'|t' lt'|t' lt']; [by rewrite Sj11 | by rewrite Sj21 | rewrite Y1 //].
by have [->] := vj1 lt'.
Qed.
End Seq.

(* The order of the data, C30. *)
Section Perm.
Variables (mA mB m : mid) (oA oB : obs R) (psA psB : seq pid) (s : seq nat).
Hypotheses (CA : conditioned w mA m oA psA) (CB : conditioned w mB m oB psB).
Hypotheses (HA : o_p oA \in psA) (HB : o_p oB \in psB).
Variables (dA dB : seq V).
Hypotheses (HdA : is_at m (o_p oA) (o_x oA) dA) (HdB : is_at m (o_p oB) (o_x oB) dB).
Notation n := (size dA).
Hypothesis (Ps : perm_eq s (iota 0 n)).
Hypothesis (DB : same_rv dB [seq vget dA k | k <- s]).
Hypotheses (NA : nr (o_noise oA) = n) (NA' : nc (o_noise oA) = n).
Hypotheses (NB : nr (o_noise oB) = n) (NB' : nc (o_noise oB) = n).
Hypothesis (NAB : forall i j, (i < n)%N -> (j < n)%N ->
  ent (o_noise oB) i j = ent (o_noise oA) (nth 0%N s i) (nth 0%N s j)).
Hypothesis (YAB : forall i, (i < n)%N -> nth 0 (o_y oB) i = nth 0 (o_y oA) (nth 0%N s i)).
Hypothesis (UA : inv_at n (vary oA dA)).

Let ss : size s = n. Proof. by rewrite (perm_size Ps) size_iota. Qed.
Let sB : size dB = n. Proof. by have [-> _] := DB; rewrite size_map. Qed.
Let vB i : (i < n)%N -> Ex (vget dB i) = Ex (vget dA (nth 0%N s i)) /\
  forall g, cov (vget dB i) g = cov (vget dA (nth 0%N s i)) g.
Proof.
move=> li; have := DB.2 i; rewrite sB => /(_ li).
suff -> : vget [seq vget dA k | k <- s] i = vget dA (nth 0%N s i) by [].
by rewrite {1}/vget (nth_map 0%N) ?ss.
Qed.
Let pcB a a' b b' : (forall i, (i < n)%N -> a' i = a (nth 0%N s i)) -> (forall i, (i < n)%N -> b' i = b (nth 0%N s i)) ->
  inv_at (size dB) (vary oB dB) /\ pc (size dB) (vary oB dB) a' b' = pc n (vary oA dA) a b.
Proof.
rewrite sB => Ha Hb; apply: (pc_perm Ps _ Ha Hb UA) => i j li lj.
by rewrite /vary NAB //; have [_ ->] := vB li; rewrite covC; have [_ ->] := vB lj; rewrite covC.
Qed.
Let cB g i : (i < n)%N -> cov g (vget dB i) = cov g (vget dA (nth 0%N s i)).
Proof. by move=> li; rewrite covC; have [_ ->] := vB li; rewrite covC. Qed.
Let NBx : nr (o_noise oB) = size dB. Proof. by rewrite sB. Qed.
Let NBx' : nc (o_noise oB) = size dB. Proof. by rewrite sB. Qed.

Lemma perm_cov p q x y u v MA MB : p \in psA -> p \in psB -> q \in psA -> q \in psB ->
  P mA p -> P mB p -> P mA q -> P mB q -> is_at m p x u -> is_at m q y v ->
  cov_is mA p q x y MA -> cov_is mB p q x y MB -> same_matrix MA MB.
Proof.
move=> pA pB qA qB PAp PBp PAq PBq Hu Hv EA EB.
have [UB _] := pcB (a := fun=> 0) (b := fun=> 0) (fun _ _ => erefl) (fun _ _ => erefl).
have [a1 a2 a3] := post_cov CA HA HdA NA NA' UA pA qA PAp PAq Hu Hv EA.
have [b1 b2 b3] := post_cov CB HB HdB NBx NBx' UB pB qB PBp PBq Hu Hv EB.
split; rewrite ?a1 ?a2 ?b1 ?b2 // => i j li lj; rewrite a3 // b3 //; congr (_ - _).
by have [_ ->] := pcB (a := fun k => cov (vget u i) (vget dA k)) (b := fun k => cov (vget v j) (vget dA k)) (cB (vget u i)) (cB (vget v j)).
Qed.
Lemma perm_mean p x u eA eB : p \in psA -> p \in psB -> P mA p -> P mB p -> is_at m p x u ->
  mean_is mA p x eA -> mean_is mB p x eB -> eA = eB.
Proof.
move=> pA pB PAp PBp Hu EA EB.
have [a1 a2] := post_mean CA HA HdA NA NA' pA PAp Hu EA.
have [b1 b2] := post_mean CB HB HdB NBx NBx' pB PBp Hu EB.
apply: (@eq_from_nth _ 0); rewrite ?a1 ?b1 // => i li; rewrite a2 // b2 //; congr (_ + _).
have Yb k : (k < n)%N -> nth 0 (o_y oB) k - Ex (vget dB k) = nth 0 (o_y oA) (nth 0%N s k) - Ex (vget dA (nth 0%N s k)).
  by move=> lk; rewrite YAB //; have [-> _] := vB lk.
by have [_ ->] := pcB (a := fun k => cov (vget u i) (vget dA k)) (b := fun k => nth 0 (o_y oA) k - Ex (vget dA k)) (cB (vget u i)) Yb.
Qed.
End Perm.

(* Noiseless data, C31. *)
Section Noiseless.
Variables (m' m : mid) (o : obs R) (ps : seq pid) (d : seq V).
Hypotheses (C : conditioned w m' m o ps) (Ho : o_p o \in ps) (Hd : is_at m (o_p o) (o_x o) d).
Hypotheses (N1 : nr (o_noise o) = size d) (N2 : nc (o_noise o) = size d).
Hypothesis (N0 : zero_within (o_noise o)).
Hypothesis (U : inv_at (size d) (vary o d)).
Let S0 i j : (i < size d)%N -> (j < size d)%N -> vary o d i j = cov (vget d i) (vget d j).
Proof. by move=> li lj; rewrite /vary N0 ?N1 ?N2 // addr0. Qed.

Lemma interpolate_mean e : P m' (o_p o) -> mean_is m' (o_p o) (o_x o) e ->
  size e = size d /\ forall i, (i < size d)%N -> nth 0 e i = nth 0 (o_y o) i.
Proof.
move=> Pz E; have [e1 e2] := post_mean C Ho Hd N1 N2 Ho Pz Hd E; split=> // i li.
rewrite e2 // (pc_eq (S' := vary o d) (a' := vary o d i) (b' := fun k => nth 0 (o_y o) k - Ex (vget d k))) //; last by move=> k lk; rewrite S0.
by rewrite pc_row // addrC subrK.
Qed.
Lemma interpolate_cov q y v M : P m' (o_p o) -> P m' q -> q \in ps -> is_at m q y v ->
  cov_is m' (o_p o) q (o_x o) y M -> [/\ nr M = size d, nc M = size v &
    forall i j, (i < size d)%N -> (j < size v)%N -> ent M i j = 0].
Proof.
move=> Pz Pq Hq Hv E; have [a1 a2 a3] := post_cov C Ho Hd N1 N2 U Ho Hq Pz Pq Hd Hv E; split=> // i j li lj.
rewrite a3 // (pc_eq (S' := vary o d) (a' := vary o d i) (b' := fun k => cov (vget v j) (vget d k))) //; last by move=> k lk; rewrite S0.
by rewrite pc_row // covC subrr.
Qed.
End Noiseless.

(* Noise as a process, C35. *)
Section Noise.
Variables (m1 m2 m : mid) (o1 o2 : obs R) (ps1 ps2 : seq pid) (e : pid).
Hypotheses (C1 : conditioned w m1 m o1 ps1) (C2 : conditioned w m2 m o2 ps2).
Hypotheses (H1 : o_p o1 \in ps1) (H2 : o_p o2 \in ps2).
Hypothesis (Sum : defined w m (o_p o2) (DSum (o_p o1) e)).
Hypotheses (Xo : o_x o2 = o_x o1) (Yo : o_y o2 = o_y o1) (N0 : zero_within (o_noise o2)).
Variables (d1 ev d2 : seq V).
Hypotheses (Hd1 : is_at m (o_p o1) (o_x o1) d1) (He : is_at m e (o_x o1) ev) (Hd2 : is_at m (o_p o2) (o_x o2) d2).
Hypotheses (N1 : nr (o_noise o1) = size d1) (N1' : nc (o_noise o1) = size d1).
Hypotheses (N2 : nr (o_noise o2) = size d2) (N2' : nc (o_noise o2) = size d2).
Hypothesis (E0 : forall i, (i < size ev)%N -> Ex (vget ev i) = 0).
Hypothesis (EE : forall i j, (i < size ev)%N -> (j < size ev)%N -> cov (vget ev i) (vget ev j) = ent (o_noise o1) i j).
Hypothesis (EF : forall i j, (i < size d1)%N -> (j < size ev)%N -> cov (vget d1 i) (vget ev j) = 0).
Hypothesis (U1 : inv_at (size d1) (vary o1 d1)).

Lemma noise_sum : [/\ size d2 = size d1, size ev = size d1 & forall i, (i < size d1)%N ->
   Ex (vget d2 i) = Ex (vget d1 i) /\ forall g, cov (vget d2 i) g = cov (vget d1 i) g + cov (vget ev i) g].
Proof.
have [lt Hd2'] := Hd2; have [_ He'] := He; have [_ Hd1'] := Hd1.
have Wf := l_wf (v_log (winv_run ops).1) lt; rewrite Xo in Hd2'.
have [a [b [Ha Hb sz S]]] := den_lin Wf Sum.2 erefl Hd2'; have [su H] := proj1 (aseqs_nth _ _) S.
have [sa Aa] := proj1 (aseqs_nth _ _) (denotes_same Ha Hd1').
have [sb Ab] := proj1 (aseqs_nth _ _) (denotes_same Hb He').
rewrite size_zipw // in su; split; rewrite -?sa -?sb ?su // => i li.
have li2 : (i < size d2)%N by rewrite su.
have := H i li2; rewrite {2}/vget (nth_zipw _ (rone W) (rone W) _ sz) // => -[-> e2].
have [<- a2] := Aa i li; have lb : (i < size b)%N by rewrite -sz.
have [b1 b2] := Ab i lb; split=> [|g]; last by rewrite e2 covD a2 b2.
by rewrite ExD b1 E0 ?addr0 // -sb.
Qed.
Let vary2 i j : (i < size d1)%N -> (j < size d1)%N -> vary o2 d2 i j = vary o1 d1 i j.
Proof.
have [s2 sv H] := noise_sum; move=> li lj; rewrite /vary N0 ?N2 ?N2' ?s2 // addr0.
have [_ ->] := H i li; rewrite covC (covC (vget ev i)); have [_ K] := H j lj; rewrite !K.
by rewrite (covC (vget ev j)) EF ?sv // EF ?sv // add0r addr0 covC (covC (vget ev j)) EE ?sv //.
Qed.
Let U2 : inv_at (size d2) (vary o2 d2).
Proof. by have [-> _ _] := noise_sum; apply: inv_at_eq U1 => i j li lj; rewrite vary2. Qed.
Let pc2 u i a b : (forall j, (j < size ev)%N -> cov (vget u i) (vget ev j) = 0) ->
  (forall k, (k < size d1)%N -> a k = b k) ->
  pc (size d2) (vary o2 d2) (fun k => cov (vget u i) (vget d2 k)) a =
  pc (size d1) (vary o1 d1) (fun k => cov (vget u i) (vget d1 k)) b.
Proof.
have [-> sv H] := noise_sum; move=> Z Hab; apply: pc_eq => // k lk.
by rewrite covC; have [_ ->] := H k lk; rewrite (covC (vget ev k)) Z ?sv // addr0 covC.
Qed.

Lemma noise_cov p q x y u v M1 M2 : p \in ps1 -> p \in ps2 -> q \in ps1 -> q \in ps2 ->
  P m1 p -> P m2 p -> P m1 q -> P m2 q -> is_at m p x u -> is_at m q y v ->
  (forall i j, (i < size u)%N -> (j < size ev)%N -> cov (vget u i) (vget ev j) = 0) ->
  (forall i j, (i < size v)%N -> (j < size ev)%N -> cov (vget v i) (vget ev j) = 0) ->
  cov_is m1 p q x y M1 -> cov_is m2 p q x y M2 -> same_matrix M1 M2.
Proof.
move=> p1 p2 q1 q2 P1p P2p P1q P2q Hu Hv Zu Zv E1 E2.
have [a1 a2 a3] := post_cov C1 H1 Hd1 N1 N1' U1 p1 q1 P1p P1q Hu Hv E1.
have [b1 b2 b3] := post_cov C2 H2 Hd2 N2 N2' U2 p2 q2 P2p P2q Hu Hv E2.
split; rewrite ?a1 ?a2 ?b1 ?b2 // => i j li lj; rewrite a3 // b3 //; congr (_ - _); symmetry; apply: pc2 => [k lk|k lk].
  exact: Zu.
have [_ sv H] := noise_sum; rewrite covC; have [_ ->] := H k lk.
by rewrite (covC (vget ev k)) Zv ?sv // addr0 covC.
Qed.
Lemma noise_mean p x u e1 e2 : p \in ps1 -> p \in ps2 -> P m1 p -> P m2 p -> is_at m p x u ->
  (forall i j, (i < size u)%N -> (j < size ev)%N -> cov (vget u i) (vget ev j) = 0) ->
  mean_is m1 p x e1 -> mean_is m2 p x e2 -> e1 = e2.
Proof.
move=> p1 p2 P1p P2p Hu Zu E1 E2.
have [a1 a2] := post_mean C1 H1 Hd1 N1 N1' p1 P1p Hu E1.
have [b1 b2] := post_mean C2 H2 Hd2 N2 N2' p2 P2p Hu E2.
apply: (@eq_from_nth _ 0); rewrite ?a1 ?b1 // => i li; rewrite a2 // b2 //; congr (_ + _); symmetry; apply: pc2 => [k lk|k lk].
  exact: Zu.
by have [_ sv H] := noise_sum; rewrite Yo; have [-> _] := H k lk.
Qed.
End Noise.
End CondFacts.
