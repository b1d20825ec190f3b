(* [combine]. *)
From Coq Require Import List.
From mathcomp Require Import all_ssreflect all_algebra.
From mathcomp Require Import zify.
From Verif Require Import Graph Machine Refine Worlds Eval GraphSpec GraphProofs GraphOps RV RVProofs Sound Typing ModelSpec ModelFacts Cond CondFacts CrossFacts Combine.
Set Implicit Arguments. Unset Strict Implicit. Unset Printing Implicit Defensive.
Import GRing.Theory.
Local Open Scope ring_scope.

Section Bdiag.
Variable R : fieldType.
Implicit Types (l : seq (dmat R)) (N : dmat R).
Notation N0 := (dzero R 0 0).

Lemma bdiag_shape l : nr (bdiag l) = sumn (map (@nr R) l) /\ nc (bdiag l) = sumn (map (@nc R) l).
Proof. by elim: l => //= N l [-> ->]. Qed.

Lemma bdiag_ent l i j a b : (i < size l)%N -> (j < size l)%N ->
  (a < nr (nth N0 l i))%N -> (b < nc (nth N0 l j))%N ->
  ent (bdiag l) (sumn (take i (map (@nr R) l)) + a) (sumn (take j (map (@nc R) l)) + b) =
  if i == j then ent (nth N0 l i) a b else 0.
Proof.
elim: l i j => //= N l IH [|i] [|j] /= li lj la lb; rewrite ?add0n.
- by rewrite la lb.
- by rewrite la -addnA ltnNge leq_addr.
- by rewrite lb -addnA ltnNge leq_addr.
by rewrite -!addnA !ltnNge !leq_addr /= !addKn IH.
Qed.

Lemma bdiag_blocks l : blocks (map (@nr R) l) (map (@nc R) l)
  (fun i j => if i == j then nth N0 l i else dzero R (nr (nth N0 l i)) (nc (nth N0 l j))) (bdiag l).
Proof.
have [e1 e2] := bdiag_shape l; split; rewrite // !size_map => i j.
  by move=> li lj; rewrite !(nth_map N0) //; case: eqP => [->|_].
move=> a b li lj; rewrite !(nth_map N0) // => la lb; rewrite bdiag_ent //; case: eqP => //.
Qed.
End Bdiag.

Section CombineFacts.
Variables (R : fieldType) (W : space R).
Variable D : nat -> (point R -> R) -> point R -> R.
Variables (G : pid -> point R -> rv W) (eps : mid -> nat -> rv W).
Notation V := (rv W). Notation Ex := (@Ex R W). Notation cov := (@cov R W).
Variables (ops : seq (op R)) (P : mid -> pid -> Prop).
Let w := run_ops ops.
Notation is_at := (is_at D G eps w). Notation meant := (meant D G eps w P).
Notation mean_is := (mean_is D w).
Implicit Types (u v d : seq V) (K M : dmat R) (fs : seq (fdd R)).

Definition fparts fs := [seq (f_p f, f_x f) | f <- fs].

Lemma combine_parts m c ps fs : defined w m c (DCross ps) -> (forall f, List.In f fs -> f_p f \in ps) ->
  parts w m c (Tup [seq Fdd (f_p f) (f_x f) | f <- fs]) (fparts fs).
Proof.
move=> Dc; elim: fs => [|f fs IH] H; first exact: pt_nil.
have -> : fparts (f :: fs) = [:: (f_p f, f_x f)] ++ fparts fs by [].
by apply: pt_cons; [apply: (pt_fdd _ Dc); apply: H; left | apply: IH => g Hg; apply: H; right].
Qed.
Lemma combine_parts0 m c fs : defined w m c (DCross (map (@f_p R) fs)) ->
  parts w m c (f_x (combine_fdd c fs)) (fparts fs).
Proof.
move=> Dc; apply: combine_parts Dc _ => f; elim: fs => //= g fs IH [->|/IH]; rewrite inE ?eqxx // => ->.
by rewrite orbT.
Qed.

Variable CV : mid -> pid -> pid -> input R -> input R -> dmat R -> Prop.
Hypothesis Mo : sound D G eps w P CV.
Notation cov_is := CV.

(* C29 for [combine]. *)
Section Seq.
Variables (m1 m2 mj m : mid) (c : pid) (o1 o2 : obs R) (ps1 ps2 psj : seq pid).
Let f1 := MkFdd (o_p o1) (o_x o1) (o_noise o1).
Let f2 := MkFdd (o_p o2) (o_x o2) (o_noise o2).
Let oj := combine_obs c [:: f1; f2] [:: o_y o1; o_y o2].
Hypotheses (C1 : conditioned w m1 m o1 ps1) (C2 : conditioned w m2 m1 o2 ps2) (Cj : conditioned w mj m oj psj).
Hypotheses (H1 : o_p o1 \in ps1) (H2 : o_p o2 \in ps2) (H2' : o_p o2 \in ps1) (Hj : c \in psj).
Hypothesis (Dc : defined w m c (DCross [:: o_p o1; o_p o2])).
Variables (d1 d2 : seq V).
Hypotheses (Hd1 : is_at m (o_p o1) (o_x o1) d1) (Hd2 : is_at m (o_p o2) (o_x o2) d2).
Hypotheses (N1 : nr (o_noise o1) = size d1) (N1' : nc (o_noise o1) = size d1).
Hypotheses (N2 : nr (o_noise o2) = size d2) (N2' : nc (o_noise o2) = size d2).
Hypothesis (Y1 : size (o_y o1) = size d1).
Hypotheses (U1 : inv_at (size d1) (vary o1 d1)) (Uj : inv_at (size (d1 ++ d2)) (vary oj (d1 ++ d2))).

Lemma combine_at : is_at m c (o_x oj) (d1 ++ d2).
Proof.
have Pt := combine_parts0 (fs := [:: f1; f2]) Dc.
apply/(parts_at _ _ _ _ (proj1 Hd1) Pt); exists [:: d1; d2]; last by rewrite /= cats0.
by constructor=> //; constructor=> //; constructor.
Qed.
Lemma combine_joint :
  [/\ nr (o_noise oj) = (size d1 + size d2)%N, nc (o_noise oj) = (size d1 + size d2)%N,
      forall i, (i < size d1)%N -> nth 0 (o_y oj) i = nth 0 (o_y o1) i &
      forall i, (i < size d2)%N -> nth 0 (o_y oj) (size d1 + i) = nth 0 (o_y o2) i] /\
  [/\ forall i j, (i < size d1)%N -> (j < size d1)%N -> ent (o_noise oj) i j = ent (o_noise o1) i j,
      forall i j, (i < size d1)%N -> (j < size d2)%N -> ent (o_noise oj) i (size d1 + j) = 0,
      forall i j, (i < size d2)%N -> (j < size d1)%N -> ent (o_noise oj) (size d1 + i) j = 0 &
      forall i j, (i < size d2)%N -> (j < size d2)%N -> ent (o_noise oj) (size d1 + i) (size d1 + j) = ent (o_noise o2) i j].
Proof.
split; split; rewrite /= ?N1 ?N1' ?N2 ?N2' ?addn0 //.
- by move=> i li; rewrite nth_cat Y1 li.
- by move=> i li; rewrite nth_cat Y1 ltnNge leq_addr addKn cats0.
- by move=> i j -> ->.
- by move=> i j -> lj; rewrite ltnNge leq_addr.
- by move=> i j li ->; rewrite ltnNge leq_addr.
have F k : (size d1 + k < size d1)%N = false by rewrite ltnNge leq_addr.
by move=> i j li lj; rewrite !F !addKn li lj.
Qed.

Lemma combine_seq_cov p q x y u v M2 Mj : p \in ps1 -> p \in ps2 -> p \in psj -> q \in ps1 -> q \in ps2 -> q \in psj ->
  P m2 p -> P m2 q -> P mj p -> P mj q -> is_at m p x u -> is_at m q y v ->
  cov_is m2 p q x y M2 -> cov_is mj p q x y Mj -> same_matrix M2 Mj.
Proof.
have [[a1 a2 a3 a4] [b1 b2 b3 b4]] := combine_joint.
have S : same_rv (d1 ++ d2) (d1 ++ d2) by split.
exact: (seq_cov Mo C1 C2 Cj H1 H2 H2' Hj Hd1 Hd2 combine_at S N1 N1' N2 N2' a1 a2 b1 b3 b4 U1 Uj).
Qed.
Lemma combine_seq_mean p x u e2 ej : p \in ps1 -> p \in ps2 -> p \in psj -> P m2 p -> P mj p -> is_at m p x u ->
  mean_is m2 p x e2 -> mean_is mj p x ej -> e2 = ej.
Proof.
have [[a1 a2 a3 a4] [b1 b2 b3 b4]] := combine_joint.
have S : same_rv (d1 ++ d2) (d1 ++ d2) by split.
exact: (seq_mean Mo C1 C2 Cj H1 H2 H2' Hj Hd1 Hd2 combine_at S N1 N1' N2 N2' a1 a2 b1 b3 b4 a3 a4 U1 Uj).
Qed.
End Seq.

(* C30 for [combine]: the pairs in another order. *)
Section Pairs.
Variables (mA mB m : mid) (cA cB : pid) (psA psB : seq pid).
Variables (fs : seq (fdd R)) (ys : seq (seq R)) (t : seq nat).
Let f0 := MkFdd 0 (Num [::]) (dzero R 0 0).
Let fsB := [seq nth f0 fs i | i <- t].
Let ysB := [seq nth [::] ys i | i <- t].
Let oA := combine_obs cA fs ys.
Let oB := combine_obs cB fsB ysB.
Hypothesis (Pt : perm_eq t (iota 0 (size fs))).
Hypotheses (CA : conditioned w mA m oA psA) (CB : conditioned w mB m oB psB).
Hypotheses (HA : cA \in psA) (HB : cB \in psB).
Hypotheses (DA : defined w m cA (DCross (map (@f_p R) fs))) (DB : defined w m cB (DCross (map (@f_p R) fsB))).
Variables (us : seq (seq V)).
Hypothesis (Hus : Forall2 (fun z v => is_at m z.1 z.2 v) (fparts fs) us).
Hypothesis (Sn : Forall2 (fun f (u : seq V) => nr (f_noise f) = size u /\ nc (f_noise f) = size u) fs us).
Hypothesis (Sy : Forall2 (fun (y : seq R) (u : seq V) => size y = size u) ys us).
Notation dA := (flatten us).
Hypothesis (UA : inv_at (size dA) (vary oA dA)).

Let k := size fs.
Let sus : size us = k. Proof. by rewrite -(Forall2_size Sn). Qed.
Let sys : size ys = k. Proof. by rewrite (Forall2_size Sy). Qed.
Let sh := shape us.
Let usB := [seq nth [::] us i | i <- t].
Let dB := flatten usB.
Let s := flatten [seq iota (sumn (take i sh)) (nth 0%N sh i) | i <- t].
Let st : size t = k. Proof. by rewrite (perm_size Pt) size_iota. Qed.
Let tk i : (i < k)%N -> (nth 0%N t i < k)%N.
Proof.
move=> li; have : nth 0%N t i \in t by rewrite mem_nth ?st.
by rewrite (perm_mem Pt) mem_iota add0n.
Qed.
Let st_in i : i \in t -> (i < k)%N. Proof. by rewrite (perm_mem Pt) mem_iota add0n. Qed.

Let s_all : flatten [seq iota (sumn (take i sh)) (nth 0%N sh i) | i <- iota 0 k] = iota 0 (size dA).
Proof.
rewrite size_flatten -/sh; have <- : size sh = k by rewrite size_map.
elim/last_ind: sh => //= sh' x IH; rewrite size_rcons -addn1 iotaD map_cat flatten_cat /= add0n cats0.
rewrite nth_rcons ltnn eqxx -[in take _ (rcons _ _)]cats1 take_size_cat // sumn_rcons iotaD add0n; congr (_ ++ _); rewrite -IH.
congr flatten; apply/eq_in_map => i; rewrite mem_iota add0n => /= li.
by rewrite nth_rcons li -cats1 takel_cat // ltnW.
Qed.
Let Ps : perm_eq s (iota 0 (size dA)).
Proof. by rewrite -s_all; apply: perm_flatten; apply: perm_map. Qed.

Let shB : seq nat := [seq nth 0%N sh i | i <- t].
Let shape_s : shape [seq iota (sumn (take i sh)) (nth 0%N sh i) | i <- t] = shB.
Proof. by rewrite /shape -map_comp; apply: eq_map => i /=; rewrite size_iota. Qed.
Let shape_B : shape usB = shB.
Proof. by rewrite /shape -map_comp; apply: eq_map => i /=; rewrite /sh nth_shape. Qed.
Let sshB : size shB = k. Proof. by rewrite size_map. Qed.

(* An index of the permuted data. *)
Let idx i : (i < size dA)%N -> exists b a, [/\ (b < k)%N, (a < nth 0%N sh (nth 0%N t b))%N,
  i = (sumn (take b shB) + a)%N & nth 0%N s i = (sumn (take (nth 0%N t b) sh) + a)%N].
Proof.
move=> li; have ls : (i < sumn shB)%N.
  by rewrite -shape_s -size_flatten (perm_size Ps) size_iota.
have l1 := reshape_indexP ls; have l2 := reshape_offsetP ls; rewrite sshB in l1.
have l3 : nth 0%N shB (reshape_index shB i) = nth 0%N sh (nth 0%N t (reshape_index shB i)).
  by rewrite (nth_map 0%N) ?st.
exists (reshape_index shB i), (reshape_offset shB i); split; rewrite -?l3 //; first by rewrite -{1}(reshape_indexK shB i).
rewrite /s nth_flatten shape_s (nth_map 0%N) ?st // nth_iota //.
by rewrite -l3.
Qed.
Let usk i : size (nth [::] us i) = nth 0%N sh i. Proof. by rewrite /sh nth_shape. Qed.

Let DAB : same_rv dB [seq vget dA i | i <- s].
Proof.
have sB : size dB = size dA by rewrite /dB size_flatten shape_B -shape_s -size_flatten (perm_size Ps) size_iota.
suff -> : dB = [seq vget dA i | i <- s] by split.
apply: (@eq_from_nth _ (rone W)); first by rewrite size_map (perm_size Ps) size_iota.
rewrite sB => i li; rewrite (nth_map 0%N) ?(perm_size Ps) ?size_iota //.
have [b [a [lb la -> ->]]] := idx li; rewrite vget_flatten ?usk ?sus ?tk // -shape_B.
have eB : nth [::] usB b = nth [::] us (nth 0%N t b) by rewrite (nth_map 0%N) ?st.
by rewrite -[LHS]/(vget _ _) vget_flatten ?eB ?usk // size_map st.
Qed.

Let shn : map (@nr R) (map (@f_noise R) fs) = sh /\ map (@nc R) (map (@f_noise R) fs) = sh.
Proof. by rewrite /sh; elim: Sn => [|f u l l' [e e'] _ [IH IH']] //=; rewrite e e' IH IH'. Qed.
Let nN i : (i < k)%N -> nr (f_noise (nth f0 fs i)) = nth 0%N sh i /\ nc (f_noise (nth f0 fs i)) = nth 0%N sh i.
Proof. by move=> li; rewrite -usk; apply: (Forall2_nth f0 [::] Sn li). Qed.
Let shnB : map (@nr R) (map (@f_noise R) fsB) = shB /\ map (@nc R) (map (@f_noise R) fsB) = shB.
Proof. by rewrite /fsB /shB -!map_comp; split; apply/eq_in_map => i /st_in li /=; have [e e'] := nN li. Qed.
Let N0 := dzero R 0 0.
Let nth_N i : (i < k)%N -> nth N0 (map (@f_noise R) fs) i = f_noise (nth f0 fs i).
Proof. by move=> li; rewrite (nth_map f0). Qed.
Let nth_NB i : (i < k)%N -> nth N0 (map (@f_noise R) fsB) i = f_noise (nth f0 fs (nth 0%N t i)).
Proof. by move=> li; rewrite (nth_map f0) ?size_map ?st // (nth_map 0%N) ?st. Qed.

Let NAB i j : (i < size dA)%N -> (j < size dA)%N ->
  ent (o_noise oB) i j = ent (o_noise oA) (nth 0%N s i) (nth 0%N s j).
Proof.
move=> li lj; have [b [a [lb la -> ->]]] := idx li; have [b' [a' [lb' la' -> ->]]] := idx lj => /=.
have [e e'] := shn; have [eB eB'] := shnB.
rewrite -{1}eB -eB' bdiag_ent ?size_map ?st ?nth_NB //; try by have [h h'] := nN (tk lb); have [k1 k2] := nN (tk lb'); rewrite ?h ?k2.
rewrite -{1}e -{1}e' bdiag_ent ?size_map ?tk ?nth_N ?tk //; try by have [h h'] := nN (tk lb); have [k1 k2] := nN (tk lb'); rewrite ?h ?k2.
by rewrite nth_uniq ?st ?(perm_uniq Pt) ?iota_uniq.
Qed.

Let shY : shape ys = sh.
Proof. by rewrite /sh /shape; elim: Sy => [|y u l l' e _ IH] //=; rewrite e IH. Qed.
Let nth_flat (T : Type) (x0 : T) (ss : seq (seq T)) i a : (a < nth 0%N (shape ss) i)%N ->
  nth x0 (flatten ss) (sumn (take i (shape ss)) + a) = nth x0 (nth [::] ss i) a.
Proof.
move=> la; have := nth_flatten x0 ss (flatten_index (shape ss) i a).
by rewrite flatten_indexKl ?flatten_indexKr.
Qed.
Let YAB i : (i < size dA)%N -> nth 0 (o_y oB) i = nth 0 (o_y oA) (nth 0%N s i).
Proof.
move=> li; have [b [a [lb la -> ->]]] := idx li => /=.
have eB : shape ysB = shB by rewrite /shape -map_comp; apply: eq_map => i' /=; rewrite -shY nth_shape.
rewrite -{1}eB nth_flat ?eB; last by rewrite (nth_map 0%N) ?st.
by rewrite -{1}shY nth_flat ?shY // (nth_map 0%N) ?st.
Qed.

Let HdA : is_at m cA (o_x oA) dA.
Proof. by apply/(parts_at _ _ _ _ (proj1 DA) (combine_parts0 DA)); exists us. Qed.
Let HdB : is_at m cB (o_x oB) dB.
Proof.
apply/(parts_at _ _ _ _ (proj1 DB) (combine_parts0 DB)); exists usB => //.
rewrite /usB /fsB /fparts -map_comp; have := st_in; elim: (t) => [|i t' IH] H; constructor; last first.
  by apply: IH => j Hj; apply: H; rewrite inE Hj orbT.
have li : (i < k)%N by apply: H; rewrite inE eqxx.
have := stack_nth Hus (i := i); rewrite size_map => /(_ li).
by rewrite (nth_map f0).
Qed.
Let shapes : [/\ nr (o_noise oA) = size dA, nc (o_noise oA) = size dA, nr (o_noise oB) = size dA & nc (o_noise oB) = size dA].
Proof.
have [e e'] := shn; have [eB eB'] := shnB; have [h h'] := bdiag_shape (map (@f_noise R) fs).
have [g g'] := bdiag_shape (map (@f_noise R) fsB).
rewrite /= h h' g g' e e' eB eB' size_flatten; split=> //.
all: by rewrite -shape_s -size_flatten (perm_size Ps) size_iota size_flatten.
Qed.

Lemma pairs_cov p q x y u v MA MB : p \in psA -> p \in psB -> q \in psA -> q \in psB ->
  P mA p -> P mB p -> P mA q -> P mB q -> is_at m p x u -> is_at m q y v ->
  cov_is mA p q x y MA -> cov_is mB p q x y MB -> same_matrix MA MB.
Proof.
have [a1 a2 a3 a4] := shapes.
exact: (perm_cov Mo CA CB HA HB HdA HdB Ps DAB a1 a2 a3 a4 NAB UA).
Qed.
Lemma pairs_mean p x u eA eB : p \in psA -> p \in psB -> P mA p -> P mB p -> is_at m p x u ->
  mean_is mA p x eA -> mean_is mB p x eB -> eA = eB.
Proof.
have [a1 a2 a3 a4] := shapes.
exact: (perm_mean Mo CA CB HA HB HdA HdB Ps DAB a1 a2 a3 a4 NAB YAB UA).
Qed.

(* The data in the other order, for the log-density. *)
Lemma pairs_data : exists2 s, perm_eq s (iota 0 (size dA)) &
  [/\ is_at m cA (o_x oA) dA, (exists2 dB, is_at m cB (o_x oB) dB & same_rv dB [seq vget dA i | i <- s]),
      (forall i j, (i < size dA)%N -> (j < size dA)%N -> ent (o_noise oB) i j = ent (o_noise oA) (nth 0%N s i) (nth 0%N s j)) &
      forall i, (i < size dA)%N -> nth 0 (o_y oB) i = nth 0 (o_y oA) (nth 0%N s i)].
Proof. by exists s; [exact: Ps | split; [exact: HdA | exists dB; [exact: HdB | exact: DAB] | exact: NAB | exact: YAB]]. Qed.
End Pairs.
End CombineFacts.
