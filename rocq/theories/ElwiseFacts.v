(* [elwise] gives the covariances of corresponding values; it is the diagonal of [pairwise]. *)
From Coq Require Import List FunctionalExtensionality.
From mathcomp Require Import all_ssreflect all_algebra.
From mathcomp Require Import zify.
From Verif Require Import Graph Machine Refine Worlds Eval GraphSpec GraphProofs RV RVProofs Sound Combine Infer ModelSpec InferSpec.
Set Implicit Arguments. Unset Strict Implicit. Unset Printing Implicit Defensive.
Import GRing.Theory.
Local Open Scope ring_scope.

Section Basic.
Variable R : fieldType.
Variables (rdk : mid -> pid -> pid -> option (kexp R)) (rdm : mid -> pid -> option (mexp R)).
Variable D : nat -> (point R -> R) -> point R -> R.
Notation evk := (evk rdk rdm D). Notation elk := (elk rdk rdm D). Notation evf := (evf rdk rdm D).

Lemma el_zero n x y : atom x -> atom y -> elk n.+1 KZero x y = if ne x == ne y then Some (nseq (ne x) 0) else None.
Proof. by case: x y => [xs|p x|xs] [ys|q y|ys]. Qed.
Lemma el_add n x y k1 k2 : atom x -> atom y ->
  elk n.+1 (KAdd k1 k2) x y = obind2 (vmap2 (fun a b => a + b)) (elk n k1 x y) (elk n k2 x y).
Proof. by case: x y => [xs|p x|xs] [ys|q y|ys]. Qed.
Lemma el_mul n x y k1 k2 : atom x -> atom y ->
  elk n.+1 (KMul k1 k2) x y = obind2 (vmap2 (fun a b => a * b)) (elk n k1 x y) (elk n k2 x y).
Proof. by case: x y => [xs|p x|xs] [ys|q y|ys]. Qed.
Lemma el_scale n x y c k1 : atom x -> atom y -> elk n.+1 (KScale c k1) x y = omap (map (fun a => c * a)) (elk n k1 x y).
Proof. by case: x y => [xs|p x|xs] [ys|q y|ys]. Qed.
Lemma el_tensor n x y f g : atom x -> atom y ->
  elk n.+1 (KTensor f g) x y = obind2 (vmap2 (fun a b => a * b)) (evf n f x) (evf n g y).
Proof. by case: x y => [xs|p x|xs] [ys|q y|ys]. Qed.
Lemma el_rev n x y k1 : atom x -> atom y -> elk n.+1 (KRev k1) x y = elk n k1 y x.
Proof. by case: x y => [xs|p x|xs] [ys|q y|ys]. Qed.
Lemma el_kmap n x y t1 t2 k1 : atom x -> atom y -> elk n.+1 (KMap t1 t2 k1) x y = obind2 (elk n k1) (imap t1 x) (imap t2 y).
Proof. by case: x y => [xs|p x|xs] [ys|q y|ys]. Qed.
Lemma el_diff n x y a b k1 : atom x -> atom y -> elk n.+1 (KDiff a b k1) x y = obind (@diag R) (evk n.+1 (KDiff a b k1) x y).
Proof. by case: x y => [xs|p x|xs] [ys|q y|ys]. Qed.
Lemma el_tofdd n x y j k1 : atom x -> atom y -> elk n.+1 (KToFdd j k1) x y = elk n k1 x (Fdd j y).
Proof. by case: x y => [xs|p x|xs] [ys|q y|ys]. Qed.
Lemma el_adk n x y k1 : atom x -> atom y -> elk n.+1 (KAdk k1) x y = elk n k1 x y.
Proof. by case: x y => [xs|p x|xs] [ys|q y|ys]. Qed.
Lemma el_post n x y kij kzi kzj kz z noise : atom x -> atom y ->
  elk n.+1 (KPost kij kzi kzj kz z noise) x y =
        obind2 (vmap2 (fun a b => a - b)) (elk n kij x y)
          (obind (@diag R) (obind (fun K => obind2 (iqf K) (evk n kzi z x) (evk n kzj z y))
             (obind (fun K => dadd K noise) (evk n kz z z)))).
Proof. by case: x y => [xs|p x|xs] [ys|q y|ys]. Qed.
Lemma el_sub n x y kzi kzj kz kzx kx z nz xd nx me : atom x -> atom y ->
  elk n.+1 (KSub kzi kzj kz kzx kx z nz xd nx me) x y =
        obind (@diag R) (obind (fun A => obind2 (iqf A) (evk n kzi z x) (evk n kzj z y))
          (pseudo_var me nx (obind (fun K => dadd K nz) (evk n kz z z)) (evk n kzx z xd) (evk n kx xd xd))).
Proof. by case: x y => [xs|p x|xs] [ys|q y|ys]. Qed.
Lemma el_tup n k xs ys : elk n.+1 k (Tup xs) (Tup ys) =
  if size xs == size ys then ofold1 (fun u v => Some (u ++ v)) [seq elk n k z.1 z.2 | z <- zip xs ys] else None.
Proof. by []. Qed.
Lemma el_tupl n k xs y : atom y -> elk n.+1 k (Tup xs) y = elk n k (Tup xs) (Tup [:: y]).
Proof. by case: y. Qed.
Lemma el_tupr n k x ys : atom x -> elk n.+1 k x (Tup ys) = elk n k (Tup [:: x]) (Tup ys).
Proof. by case: x. Qed.
Lemma el_mok_nn n m ps xs ys : elk n.+1 (KMok m ps) (Num xs) (Num ys) =
  elk n (KMok m ps) (Tup [seq Fdd p (Num xs) | p <- ps]) (Tup [seq Fdd p (Num ys) | p <- ps]).
Proof. by []. Qed.
Lemma el_mok_ff n m ps a x b y : elk n.+1 (KMok m ps) (Fdd a x) (Fdd b y) = obind (fun k' => elk n k' x y) (rdk m a b).
Proof. by []. Qed.

Definition is_diag (e : seq R) (M : dmat R) : Prop :=
  [/\ nr M = size e, nc M = size e & forall i, (i < size e)%N -> nth 0 e i = ent M i i].

Lemma is_diag2 f e e1 e2 A B : vmap2 f e1 e2 = Some e -> is_diag e1 A -> is_diag e2 B ->
  exists2 M, dmap2 f A B = Some M & is_diag e M.
Proof.
rewrite /vmap2; case: eqP => // s [<-] [a1 a2 a3] [b1 b2 b3].
rewrite /dmap2 /same_shape a1 a2 b1 b2 s !eqxx; eexists; first by [].
by split=> [||i]; rewrite size_mkseq -?s // => li; rewrite nth_mkseq // a3 // b3 -?s.
Qed.

Lemma basic_diag n k xs ys e : basic k -> elk n k (Num xs) (Num ys) = Some e ->
  exists2 M, evk n k (Num xs) (Num ys) = Some M & is_diag e M.
Proof.
elim: n k xs ys e => [|n IH] k xs ys e //.
case: k => [f|||k1 k2|k1 k2|c k1|f g|k1|t1 t2 k1|dx dy k1|m ps|j k1|k1|kij kzi kzj kz z N|kzi kzj kz kzx kx z nz xd nx me] // B; rewrite /= in B.
- move=> /=; case: eqP => // s [<-]; eexists; first by [].
  by split=> [||i] /=; rewrite size_mkseq // => li; rewrite nth_mkseq.
- rewrite el_zero // at_zero //=; case: eqP => // s [<-]; eexists; first by [].
  by split=> [||i] /=; rewrite size_nseq // => li; rewrite nth_nseq li.
- move=> /=; case: eqP => // s [<-]; eexists; first by [].
  by split=> [||i] /=; rewrite size_nseq // => li; rewrite nth_nseq li.
- case/andP: B => B1 B2; rewrite el_add // at_add //.
  case E1: (elk _ _ _ _) => [e1|] //=; case E2: (elk _ _ _ _) => [e2|] //= Ev.
  have [A -> dA] := IH _ _ _ _ B1 E1; have [C -> dC] := IH _ _ _ _ B2 E2.
  exact: is_diag2 Ev dA dC.
- case/andP: B => B1 B2; rewrite el_mul // at_mul //.
  case E1: (elk _ _ _ _) => [e1|] //=; case E2: (elk _ _ _ _) => [e2|] //= Ev.
  have [A -> dA] := IH _ _ _ _ B1 E1; have [C -> dC] := IH _ _ _ _ B2 E2.
  exact: is_diag2 Ev dA dC.
- rewrite el_scale // at_scale //; case E1: (elk _ _ _ _) => [e1|] //= [<-].
  have [A -> [a b d]] := IH _ _ _ _ B E1; eexists; first by [].
  by split=> [||i] /=; rewrite size_map // => li; rewrite (nth_map 0) // d.
- rewrite el_tensor // at_tensor //; case: (evf n f _) => [u|] //=; case: (evf n g _) => [v|] //=.
  rewrite /vmap2; case: eqP => // s [<-]; eexists; first by [].
  by split=> [||i] /=; rewrite size_mkseq // => li; rewrite nth_mkseq.
- rewrite el_rev // at_rev // => /(IH _ _ _ _ B) [A -> [a b d]]; eexists; first by [].
  by split.
- rewrite el_kmap // at_kmap //.
  by case: t1 => [f|]; case: t2 => [g|] /= /(IH _ _ _ _ B) [A -> dA]; exists A.
- rewrite el_diff //; case: (evk _ _ _ _) => [M|] //=; rewrite /diag; case: eqP => // s [<-]; exists M => //.
  by split=> [||i]; rewrite size_mkseq // => li; rewrite nth_mkseq.
Qed.
End Basic.
Arguments Infer.elk : simpl never.

Section Elwise.
Variable R : fieldType.
Variable W : space R.
Variable D : nat -> (point R -> R) -> point R -> R.
Variables (G : pid -> point R -> rv W) (eps : mid -> nat -> rv W).
Notation V := (rv W). Notation input := (input R). Notation hist := (hist R).
Notation point := (point R). Notation kexp := (kexp R).
Notation at_ := (at_ D G eps). Notation denotes := (denotes D G eps).
Notation cov := (@cov R W).
Variables (w : world R) (P : mid -> pid -> Prop).
Hypothesis (I : winv w) (Wi : winvid w) (Va : valid D G eps w P) (Lay : ordered D G eps w P).
Notation evk := (evk (see_k w) (see_m w) D). Notation elk := (elk (see_k w) (see_m w) D).
Notation nm := (w_nm w). Notation l := (w_log w).
Implicit Types (h : hist) (x y : input) (k : kexp) (M : dmat R) (u v : seq V) (e : seq R).
Hypothesis Ba : forall m p d rest, (m < nm)%N -> ext (HAdd p d rest) (l m) -> P m p -> basic_def d.

(* [e] are the covariances of corresponding values. *)
Definition dg e u v : Prop :=
  [/\ size u = size e, size v = size e & forall i, (i < size e)%N -> nth 0 e i = cov (vget u i) (vget v i)].

Lemma dg_sym e u v : dg e u v -> dg e v u.
Proof. by case=> a b c; split=> // i li; rewrite covC c. Qed.
Lemma dg_covmat M e u v : covmat M u v -> diag M = Some e -> dg e u v.
Proof.
case=> a b c; rewrite /diag; case: eqP => // s [<-]; split; rewrite size_mkseq -?a -?b // => i li.
by rewrite nth_mkseq // c -?a -?b -?s.
Qed.
Lemma vmap2E f (a b e : seq R) : vmap2 f a b = Some e -> [/\ size b = size a, size e = size a &
  forall i, (i < size a)%N -> nth 0 e i = f (nth 0 a i) (nth 0 b i)].
Proof. by rewrite /vmap2; case: eqP => // s [<-]; split=> [||i li]; rewrite ?size_mkseq ?nth_mkseq. Qed.
Lemma dg_cat (g : input -> input -> option (seq R)) xs ys us vs e :
  size xs = size ys ->
  (forall i, (i < size xs)%N -> forall e, g (nth (Num [::]) xs i) (nth (Num [::]) ys i) = Some e -> dg e (nth [::] us i) (nth [::] vs i)) ->
  size us = size xs -> size vs = size xs ->
  ofold1 (fun a b => Some (a ++ b)) [seq g z.1 z.2 | z <- zip xs ys] = Some e -> dg e (flatten us) (flatten vs).
Proof.
elim: xs ys us vs e => [|x xs IH] [|y ys] // [|u us] // [|v vs] // e [s] H [s1] [s2].
have H0 := H 0%N (ltn0Sn _); rewrite /= in H0.
case: xs ys us vs IH s H s1 s2 => [|x2 xs] [|y2 ys] // us vs IH s H s1 s2.
  by case: us {H} s1 => // _; case: vs s2 => // _; rewrite /= !cats0; apply: H0.
rewrite [zip _ _]/= [map _ _]/= ofold1_cons; case E: (g x y) => [A|] //=.
rewrite -[match _ with [::] => _ | _ => _ end]/(ofold1 (fun a b => Some (a ++ b)) [seq g z.1 z.2 | z <- zip (x2 :: xs) (y2 :: ys)]).
case E2: (ofold1 _ _) => [B|] //= [<-].
have [a1 a2 a3] := H0 _ E.
have [|b1 b2 b3] := IH (y2 :: ys) us vs B s _ s1 s2 E2; first by move=> i li; apply: (H i.+1).
rewrite -/(flatten us) -/(flatten vs).
split=> [||i]; rewrite !size_cat ?a1 ?a2 ?b1 ?b2 // => li.
rewrite /vget !nth_cat a1 a2; case: ltnP => lt; first exact: a3.
by apply: b3; rewrite ltn_subLR.
Qed.

Definition okd n := forall m h p q k x y e u v, (m < nm)%N -> ext h (l m) -> P m p -> P m q ->
  KA m h p q = Some k -> denotes m h p x u -> denotes m h q y v -> elk n k x y = Some e -> dg e u v.
Definition oda n h := forall m p q k x y e u v, (m < nm)%N -> ext h (l m) -> P m p -> P m q ->
  KA m h p q = Some k -> atom x -> atom y -> at_ m h p x u -> at_ m h q y v ->
  elk n k x y = Some e -> dg e u v.

Let Hkk n : okk D G eps w P n. Proof. exact: (sound I Wi Va Lay n).1. Qed.
Let Hmm n : okm D G eps w P n. Proof. exact: (sound I Wi Va Lay n).2. Qed.
Notation at_den := (at_denotes D G eps).

Lemma oda_post n pm par o : (forall n', (n' <= n)%N -> okd n') -> oda n.+1 par -> oda n.+1 (HPost pm par o).
Proof.
move=> Hn' IHh m p q k x y e u v lt E Pp Pq /=; case: andP => // -[Hp Hq].
have eb : base (l m) = Some (pm, par, o) by rewrite (ext_base E).
have [lp Ep _] := l_base (v_log I.1) lt eb; have ltp := ltn_trans lp lt.
have [Pp' Po] := vd_base Va lt eb Pp Hp; have [Pq' _] := vd_base Va lt eb Pq Hq.
move=> Ek ax ay [u0 Hu Fu] [v0 Hv Fv]; have Po' := Po _ (mem_head _ _).
have su := Forall2_size Fu; have sv := Forall2_size Fv.
have Du := (at_den _ _ _ _ ax).1 Hu; have Dv := (at_den _ _ _ _ ay).1 Hv.
move: Ek; rewrite /post_k; case Eo: (o_data o) => [d|].
  have Pd : P pm (d_p d) by apply: Po; rewrite /o_pids Eo !inE eqxx orbT.
  rewrite /post_k2 /= /onk /onm !eqxx.
  case Ekij: (KA pm par p q) => [kij|] //=; case Ekzi: (KA pm par (o_p o) p) => [kzi|] //=.
  case Ekzj: (KA pm par (o_p o) q) => [kzj|] //=; case Ekzx: (KA pm par (o_p o) (d_p d)) => [kzx|] //=.
  case Ekz: (KA pm par (o_p o) (o_p o)) => [kz|] //=; case Ekx: (KA pm par (d_p d) (d_p d)) => [kx|] //= [<-].
  rewrite el_add //; case: n Hn' {IHh} => // n Hn'; rewrite el_post // el_sub //; have Hn := Hn' n (leqnSn n).
  case Eij: (elk n kij x y) => [eij|] //=.
  case Ez: (evk n kz _ _) => [K0|] //=; case EK: (dadd K0 _) => [K|] //=.
  case Ezi: (evk n kzi _ _) => [B1|] //=; case Ezj: (evk n kzj _ _) => [B2|] //=.
  case Q1: (iqf K B1 B2) => [M1|] //=; case D1: (diag M1) => [dg1|] //=.
  case X1: (vmap2 _ eij dg1) => [ex|] //=.
  rewrite /pseudo_var /=; case Ezx: (evk n kzx _ _) => [C|] //=; case Ex_: (evk n kx _ _) => [Kx|] //=.
  case EA: (pseudo_A _ _ _ _ _) => [A|] //=; case Q2: (iqf A B1 B2) => [M2|] //=; case D2: (diag M2) => [dg2|] //= /vmap2E [w1 w2 w3].
  have [a b c] := Hn _ _ _ _ _ _ _ _ _ _ ltp Ep Pp' Pq' Ekij Du Dv Eij.
  have [t1 t2 t3] := vmap2E X1.
  split=> [||i li]; rewrite -?su -?sv ?w2 ?t2 //.
  rewrite w2 t2 in li; have lu : (i < size u0)%N by rewrite a. have lv : (i < size v0)%N by rewrite b.
  have [dat H1 h1] := Forall2_nth (rone W) (rone W) Fu lu.
  have [dat2 H2 h2] := Forall2_nth (rone W) (rone W) Fv lv.
  have AS : aseq (given (noise_of o (eps m)) (values o) dat2 (vget v0 i)) (given (noise_of o (eps m)) (values o) dat (vget v0 i)).
    by apply: aseq_given => //; apply: (data_same _ H2 H1) => p0; exact: at_same.
  rewrite /vget h1 h2 (aseq_r _ AS).
  move: H1; rewrite /data Eo => -[nF [wz [wx [Hz Hx ->]]]].
  have cz := @Hkk n _ _ _ _ _ _ _ _ _ _ ltp Ep Po' Po' Ekz Hz Hz Ez.
  have cB1 := @Hkk n _ _ _ _ _ _ _ _ _ _ ltp Ep Po' Pp' Ekzi Hz Du Ezi.
  have cB2 := @Hkk n _ _ _ _ _ _ _ _ _ _ ltp Ep Po' Pq' Ekzj Hz Dv Ezj.
  have [x1 _ _] := @Hkk n _ _ _ _ _ _ _ _ _ _ ltp Ep Pd Pd Ekx Hx Hx Ex_.
  have K1 : nr K = size wz by move: EK; rewrite /dadd /dmap2; case: ifP => // _ [<-]; case: cz.
  have [[_ _ q3 q4] _] := iqf_ent Q1 K1.
  have [[_ _ r3 r4] _] := iqf_ent Q2 erefl.
  have s3 : nr M1 = size u0 by rewrite q3; case: cB1.
  have dgE M1' dg' : diag M1' = Some dg' -> nr M1' = size u0 -> nth 0 dg' i = ent M1' i i.
    by rewrite /diag; case: eqP => // _ [<-] e1; rewrite nth_mkseq // e1.
  pose Mij := DMat (nr M1) (nc M1) (fun i j => cov (vget u0 i) (vget v0 j)).
  pose X := DMat (nr M1) (nc M1) (fun i j => ent Mij i j - ent M1 i j).
  pose M := DMat (nr M1) (nc M1) (fun i j => ent X i j + ent M2 i j).
  have EX : dsub Mij M1 = Some X by rewrite /dsub /dmap2 /same_shape !eqxx.
  have EM : dadd X M2 = Some M by rewrite /dadd /dmap2 /same_shape /= r3 r4 -q3 -q4 !eqxx.
  have -> : nth 0 e i = ent M i i.
    rewrite w3 ?t2 // t3 // (dgE _ _ D1) // (dgE _ _ D2); last by rewrite r3 -q3.
    by rewrite /M /X /Mij /= c.
  have cC := @Hkk n _ _ _ _ _ _ _ _ _ _ ltp Ep Po' Pd Ekzx Hz Hx Ezx.
  by apply: (oka_sub I Va lt eb Eo nF Hz Hx Du Dv cz EK (fun _ _ => cC) x1 EA cB1 cB2 _ Q1 EX Q2 EM).
rewrite /data /noise_of /values Eo in Fu Fv; move: Po' => {}Po; rewrite /post_k1 => Ek; have Hn := Hn' n (leqnn n).
have AS dat dat' (a : V) : denotes pm par (o_p o) (o_x o) dat -> denotes pm par (o_p o) (o_x o) dat' ->
    aseq (given (eps m) (o_y o) dat a) (given (eps m) (o_y o) dat' a).
  by move=> H H'; apply: aseq_given => //; apply: (denotes_same H H').
move: Ek; case: eqP => [z0|_].
  rewrite /= /onk /onm eqxx; case Ek: (KA pm par p q) => [k'|] //= [<-] Ev.
  have [a b c] := IHh _ _ _ _ _ _ _ _ _ ltp Ep Pp' Pq' Ek ax ay Hu Hv Ev.
  split=> [||i li]; rewrite -?su -?sv //.
  have lu : (i < size u0)%N by rewrite a. have lv : (i < size v0)%N by rewrite b.
  have [d1 H1 e1] := Forall2_nth (rone W) (rone W) Fu lu.
  have [d2 H2 e2] := Forall2_nth (rone W) (rone W) Fv lv.
  have n1 : d1 = [::] by apply: (lift_ne0 _ H1 z0) => ? ?; apply: at_ne0.
  have n2 : d2 = [::] by apply: (lift_ne0 _ H2 z0) => ? ?; apply: at_ne0.
  rewrite c // /vget e1 e2 n1 n2 (given_nil _ _ _).2.
  by rewrite (aseq_r _ (given_nil _ _ _)).
rewrite /= /onk /onm !eqxx.
case Ekij: (KA pm par p q) => [kij|] //=; case Ekzi: (KA pm par (o_p o) p) => [kzi|] //=.
case Ekzj: (KA pm par (o_p o) q) => [kzj|] //=; case Ekz: (KA pm par (o_p o) (o_p o)) => [kz|] //= [<-].
rewrite el_post //; case Eij: (elk n kij x y) => [eij|] //=.
case Ez: (evk n kz _ _) => [K0|] //=; case EK: (dadd K0 _) => [K|] //=.
case Ezi: (evk n kzi _ _) => [A|] //=; case Ezj: (evk n kzj _ _) => [B|] //=.
case EQ: (iqf K A B) => [Q|] //=; case EQd: (diag Q) => [q'|] //= /vmap2E [w1 w2 w3].
have [a b c] := Hn _ _ _ _ _ _ _ _ _ _ ltp Ep Pp' Pq' Ekij Du Dv Eij.
split=> [||i li]; rewrite -?su -?sv ?w2 //.
rewrite w2 in li; have lu : (i < size u0)%N by rewrite a. have lv : (i < size v0)%N by rewrite b.
have [dat H1 h1] := Forall2_nth (rone W) (rone W) Fu lu.
have [dat2 H2 h2] := Forall2_nth (rone W) (rone W) Fv lv.
have [A1 A2 A3] := @Hkk n _ _ _ _ _ _ _ _ _ _ ltp Ep Po Pp' Ekzi H1 Du Ezi.
have [B1 B2 B3] := @Hkk n _ _ _ _ _ _ _ _ _ _ ltp Ep Po Pq' Ekzj H1 Dv Ezj.
have KS s t := data_cov I Va s t (@Hkk n) lt eb Po H1 Ekz Ez EK.
have [K1 K2 _] := KS 0%N 0%N.
have [[_ _ q1 q2] [_ U HQ]] := iqf_ent EQ K1.
have ES : mx_at K (size dat) (size dat) = gS (eps m) dat.
  by apply/matrixP => s t; rewrite !mxE; have [_ _ ->] := KS s t.
have -> : nth 0 e i = nth 0 eij i - ent Q i i.
  rewrite w3 //; congr (_ - _); move: EQd; rewrite /diag; case: eqP => // _ [<-].
  by rewrite nth_mkseq // q1 A2.
rewrite /vget h1 h2 (aseq_r _ (AS _ _ _ H2 H1)) given_cov -?ES // HQ ?A2 ?B2 // c //.
congr (_ - (_ *m _ *m _) 0 0).
  by apply/rowP => s; rewrite !mxE A3 // (cross_cov I Va _ _ lt eb Du lu).
by apply/colP => s; rewrite !mxE B3 // (cross_cov I Va _ _ lt eb Dv lv).
Qed.

(* A process that was added to a measure. *)
Section Add.
Variables (n : nat) (m : mid) (r : pid) (d : pdef R) (rest : hist).
Notation h := (HAdd r d rest).
Hypotheses (lt : (m < nm)%N) (E : ext h (l m)) (Hd : forall n', (n' <= n)%N -> okd n') (IHh : oda n.+1 rest).

Let Er : ext rest (l m). Proof. exact: ext_tail E. Qed.
Let Hargs q : q \in dargs d -> q \in pids rest. Proof. exact: (Hargs I lt E). Qed.

Lemma Kd n' p q k x y e u v : (n' <= n)%N -> P m p -> P m q -> KA m rest p q = Some k ->
  atom x -> atom y -> at_ m rest p x u -> at_ m rest q y v -> elk n' k x y = Some e -> dg e u v.
Proof.
move=> le Pp Pq Ek ax ay /(at_den _ _ _ _ ax) Hu /(at_den _ _ _ _ ay) Hv.
exact: Hd le _ _ _ _ _ _ _ _ _ _ lt Er Pp Pq Ek Hu Hv.
Qed.
Lemma Kd1 p q k x y e u v : P m p -> P m q -> KA m rest p q = Some k ->
  atom x -> atom y -> at_ m rest p x u -> at_ m rest q y v -> elk n.+1 k x y = Some e -> dg e u v.
Proof. exact: IHh lt Er. Qed.

Lemma el_inv_add n' k1 k2 x y e : atom x -> atom y -> elk n' (KAdd k1 k2) x y = Some e ->
  exists n0 a b, [/\ n' = n0.+1, elk n0 k1 x y = Some a, elk n0 k2 x y = Some b & vmap2 (fun s t => s + t) a b = Some e].
Proof.
move=> ax ay; case: n' => [|n0] //; rewrite el_add //.
by case E1: (elk _ _ _ _) => [A|] //=; case E2: (elk _ _ _ _) => [B|] //= E3; exists n0, A, B.
Qed.
Lemma el_inv_tensor n' f g x y e : atom x -> atom y -> elk n' (KTensor f g) x y = Some e ->
  exists n0 a b, [/\ n' = n0.+1, evf (see_k w) (see_m w) D n0 f x = Some a, evf (see_k w) (see_m w) D n0 g y = Some b &
    vmap2 (fun s t => s * t) a b = Some e].
Proof.
move=> ax ay; case: n' => [|n0] //; rewrite el_tensor //.
by case E1: (evf _ _ _ _ _ _) => [A|] //=; case E2: (evf _ _ _ _ _ _) => [B|] //= E3; exists n0, A, B.
Qed.

Hypothesis Pr : P m r.
Let Pn q : q \in needs d -> P m q. Proof. exact: (vd_needs Va) lt E Pr. Qed.
Let fval n' f x a fv : (n' <= n)%N -> atom x -> (forall m' q, f = FMean m' q -> P m q) ->
  evf (see_k w) (see_m w) D n' f x = Some a -> fvalue m (at_ m rest) f x fv -> a = fv.
Proof. by move=> le; apply: (fval I lt E (fun n' _ => @Hmm n') le). Qed.

Lemma dg_shift e (u v a b : seq V) (s t : nat -> R) : dg e a b -> size u = size a -> size v = size b ->
  (forall i, (i < size a)%N -> vget u i = radd (vget a i) (rconst W (s i))) ->
  (forall i, (i < size b)%N -> vget v i = radd (vget b i) (rconst W (t i))) -> dg e u v.
Proof.
move=> [e1 e2 e3] su sv Hu Hv; split=> [||i li]; rewrite ?su ?sv //.
by rewrite e3 // Hu ?e1 // Hv ?e2 // covD !covDr !cov_const cov_constr !addr0.
Qed.
Lemma dg_shiftl e (u v a : seq V) (s : nat -> R) : dg e a v -> size u = size a ->
  (forall i, (i < size a)%N -> vget u i = radd (vget a i) (rconst W (s i))) -> dg e u v.
Proof.
move=> [e1 e2 e3] su Hu; split=> [||i li]; rewrite ?su //.
by rewrite e3 // Hu ?e1 // covD cov_const addr0.
Qed.

Definition own_d d0 := d = d0 -> forall k x y e u v, pint (onk m (KA m rest)) (@noM R) (own_of m d) = Some k ->
  atom x -> atom y -> equation D G m (at_ m rest) r d x u -> equation D G m (at_ m rest) r d y v ->
  elk n.+1 k x y = Some e -> dg e u v.
Definition left_d d0 := d = d0 -> forall j k x y e u v, P m j ->
  pint (onk m (KA m rest)) (@noM R) (left_of m d j) = Some k ->
  atom x -> atom y -> equation D G m (at_ m rest) r d x u -> at_ m rest j y v ->
  elk n.+1 k x y = Some e -> dg e u v.

Ltac start ee := move=> ee; rewrite ee /= /onk /onm ?eqxx.
Ltac prep ee := have := Pn; rewrite ee /=; move=> Pn'.

Lemma own_ind mu k0 : own_d (DInd mu k0).
Proof.
start ed => k x y e u v [<-] _ _ [xs -> ->] [ys -> ->]; have := E; rewrite ed => E' Ev.
have [M EM [a b c]] := basic_diag (Ba lt E' Pr) Ev.
have [A B C] := (vd_cov Va) _ _ _ _ _ _ _ _ _ lt E' Pr EM.
by split=> [||i li]; rewrite -?A -?B // c // C // -?A -?B ?a ?b.
Qed.
Lemma own_copy p : own_d (DCopy p).
Proof.
start ed => k x y e u v; case Ek: (KA _ _ _ _) => [k'|] // [<-]; prep ed.
by apply: Kd1 Ek => //; apply: Pn'; rewrite inE.
Qed.
Lemma own_addc p c : own_d (DAddC p c).
Proof.
start ed => k x y e u v; case Ek: (KA _ _ _ _) => [k'|] // [<-] ax ay; prep ed.
case=> a Ha -> [b Hb ->] Ev; have Pp : P m p by apply: Pn'; rewrite inE.
apply: (dg_shift (s := fun=> c) (t := fun=> c) (Kd1 Pp Pp Ek ax ay Ha Hb Ev));
  rewrite ?size_map // => i li; by rewrite vget_map.
Qed.
Lemma own_addf p f : own_d (DAddF p f).
Proof.
start ed => k x y e u v; case Ek: (KA _ _ _ _) => [k'|] // [<-] ax ay; prep ed.
case=> xs [a [ex Ha sa ->]] [ys [b [ey Hb sb ->]]] Ev; have Pp : P m p by apply: Pn'; rewrite inE.
apply: (dg_shift (Kd1 Pp Pp Ek ax ay Ha Hb Ev)); rewrite ?size_zipw // => i li; exact: nth_addf.
Qed.
Lemma own_sum p q : own_d (DSum p q).
Proof.
start ed => k x y e u v; case E1: (KA m rest p p) => [k1|] //=; rewrite ?eqxx.
case E2: (KA m rest q q) => [k2|] //=; rewrite ?eqxx; case E3: (KA m rest p q) => [k3|] //=; rewrite ?eqxx.
case E4: (KA m rest q p) => [k4|] // [<-] ax ay; prep ed.
case=> a [b [Ha Hb sab ->]] [a' [b' [Ha' Hb' sab' ->]]].
have Pp : P m p by apply: Pn'; rewrite !inE eqxx.
have Pq : P m q by apply: Pn'; rewrite !inE eqxx orbT.
case/(el_inv_add ax ay) => n1 [A1 [B1 [e1 /(el_inv_add ax ay) [n2 [A2 [B2 [e2 H2 D2 S2]]]] D1 S1]]].
case/(el_inv_add ax ay): H2 => n3 [A3 [B3 [e3 D4 D3 S3]]].
have C1 : dg A3 a a' by apply: (Kd _ Pp Pp E1 ax ay Ha Ha' D4); lia.
have C2 : dg B3 b b' by apply: (Kd _ Pq Pq E2 ax ay Hb Hb' D3); lia.
have C3 : dg B2 a b' by apply: (Kd _ Pp Pq E3 ax ay Ha Hb' D2); lia.
have C4 : dg B1 b a' by apply: (Kd _ Pq Pp E4 ax ay Hb Ha' D1); lia.
case: C1 C2 C3 C4 => p1 p2 p3 [q1 q2 q3] [r1 r2 r3] [s1 s2 s3].
have [z1 z2 z3] := vmap2E S1; have [y1 y2 y3] := vmap2E S2; have [x1 x2 x3] := vmap2E S3.
have se : size e = size A3 by rewrite z2 y2 x2.
split=> [||i]; rewrite ?size_zipw // se // => li.
have lB3 : (i < size B3)%N by rewrite x1. have lA2 : (i < size A2)%N by rewrite x2.
have lB2 : (i < size B2)%N by rewrite y1. have lA1 : (i < size A1)%N by rewrite y2.
have lB1 : (i < size B1)%N by rewrite z1.
rewrite z3 // y3 // x3 // p3 // q3 // r3 // s3 //.
rewrite !nth_addv -?sab -?sab' ?p1 ?p2 // covD !covDr.
by rewrite -!addrA; congr (_ + _); rewrite addrC -addrA; congr (_ + _); rewrite addrC.
Qed.
Lemma own_scale p c : own_d (DScale p c).
Proof.
start ed => k x y e u v; case Ek: (KA _ _ _ _) => [k'|] // [<-] ax ay; prep ed.
case=> a Ha -> [b Hb ->]; have Pp : P m p by apply: Pn'; rewrite inE.
rewrite el_scale //; case Ev: (elk _ _ _ _) => [A|] // [<-].
have [e1 e2 e3] := Kd (leqnn n) Pp Pp Ek ax ay Ha Hb Ev.
split=> [||i]; rewrite ?size_map // => li.
by rewrite (nth_map 0) // !vget_map ?e1 ?e2 // covZ covZr e3 // expr2 mulrA.
Qed.
Lemma own_fun p f : own_d (DFun p f).
Proof.
start ed => k x y e u v; case Ek: (KA _ _ _ _) => [k'|] // [<-] ax ay; prep ed.
case=> fa [a [Fa Ha sa ->]] [fb [b [Fb Hb sb ->]]].
have Pp : P m p by apply: Pn'; case: (f) => *; rewrite !inE ?eqxx.
have Pf m' q : f = FMean m' q -> P m q by move=> ef; apply: Pn'; rewrite ef !inE eqxx orbT.
rewrite el_mul //; case Et: (elk n (KTensor f f) x y) => [T|] //=; case Ev: (elk n k' x y) => [A|] //=.
case: (el_inv_tensor ax ay Et) => n1 [ga [gb [e1 Ea Eb /vmap2E [t1 t2 t3]]]].
have [c1 c2 c3] := Kd (leqnn n) Pp Pp Ek ax ay Ha Hb Ev.
have le : (n1 <= n)%N by lia.
have efa := fval le ax Pf Ea Fa; have efb := fval le ay Pf Eb Fb; subst ga gb.
case/vmap2E => z1 z2 z3.
have se : size e = size A by rewrite z2 z1.
split=> [||i]; rewrite ?size_zipw ?sa ?sb ?se // => li.
have lT : (i < size T)%N by rewrite -z1. have lf : (i < size fa)%N by rewrite -t2.
by rewrite !nth_scalev ?sa ?sb ?c1 ?c2 // covZ covZr z3 // t3 // c3 // mulrA.
Qed.
Lemma own_map p t t0 : own_d (DMap p t t0).
Proof.
start ed => k x y e u v; case Ek: (KA _ _ _ _) => [k'|] // [<-] ax ay; prep ed.
case=> xs -> Ha [ys -> Hb]; have Pp : P m p by apply: Pn'; rewrite inE.
by rewrite el_kmap //= => Ev; apply: (Kd (leqnn n) Pp Pp Ek _ _ Ha Hb Ev).
Qed.
(* Derivatives: by the soundness of [pairwise]. *)
Lemma own_diff p dd : own_d (DDiff p dd).
Proof.
move=> ed k x y e u v Ek ax ay Hu Hv Ev.
have KK : KA m h r r = Some k by rewrite /= !eqxx.
have [a [b ek]] : exists a b, exists k', k = KDiff a b k'.
  by move: Ek; rewrite ed /= /onk /onm eqxx; case: (KA _ _ _ _) => [k'|] // [<-]; exists (Some dd), (Some dd), k'.
case: ek => k' ek; subst k; move: Ev; rewrite el_diff //; case EM: (evk _ _ _ _) => [M|] //= Ed.
apply: dg_covmat Ed; apply: (@Hkk n.+1 _ _ _ _ _ _ _ _ _ _ lt E Pr Pr KK _ _ EM); apply/at_denotes => //=; by rewrite eqxx.
Qed.
Lemma left_diff p dd : left_d (DDiff p dd).
Proof.
move=> ed j k x y e u v Pj Ek ax ay Hu Hv Ev.
have jr : j \in pids rest by apply: at_pids Hv.
have jn : j <> r by move=> ej; subst j; have := wfe I lt E => /= /and3P [/negP []].
have KK : KA m h r j = Some k by rewrite /= !eqxx jr; case: (j =P r).
have [a [b ek]] : exists a b, exists k', k = KDiff a b k'.
  by move: Ek; rewrite ed /= /onk /onm eqxx; case: (KA _ _ _ _) => [k'|] // [<-]; exists (Some dd), None, k'.
case: ek => k' ek; subst k; move: Ev; rewrite el_diff //; case EM: (evk _ _ _ _) => [M|] //= Ed.
apply: dg_covmat Ed; apply: (@Hkk n.+1 _ _ _ _ _ _ _ _ _ _ lt E Pr Pj KK _ _ EM); apply/at_denotes => //=; first by rewrite eqxx.
by case: (j =P r).
Qed.

Lemma el_ff n' ps a b x y e u v : (n' <= n.+1)%N -> a \in pids rest -> b \in pids rest -> P m a -> P m b ->
  denotes m rest a x u -> denotes m rest b y v -> elk n' (KMok m ps) (Fdd a x) (Fdd b y) = Some e -> dg e u v.
Proof.
case: n' => // n' le Ha Hb Pa Pb Du Dv; rewrite el_mok_ff; case Es: (see_k w m a b) => [k|] //= Ev.
by apply: (Hd le lt Er Pa Pb (read I lt Er Es Ha Hb) Du Dv Ev).
Qed.
Lemma own_cross ps : own_d (DCross ps).
Proof.
start ed => k x y e u v [<-] ax ay.
have KK : KA m h r r = Some (KMok m ps) by rewrite /= !eqxx ed.
have Pps a : a \in ps -> P m a by move=> Ha; apply: Pn; rewrite ed.
have ips a : a \in ps -> a \in pids rest by move=> Ha; apply: Hargs; rewrite ed.
case: x ax => [xs|a x|?] // _; case: y ay => [ys|b y|?] // _.
- case=> us F eu [vs F' ev]; rewrite el_mok_nn.
  apply: (Hd (leqnn n) lt E Pr Pr KK); [exact: (cross_tup r ed F eu) | exact: (cross_tup r ed F' ev)].
- case=> Ha Hu [Hb Hv] Ev; apply: (el_ff (leqnn n.+1) _ _ _ _ Hu Hv Ev); auto.
Qed.
Lemma left_cross ps : left_d (DCross ps).
Proof.
start ed => j k x y e u v Pj [<-] ax ay Hu Hj.
have jr : j \in pids rest by apply: at_pids Hj.
have Pps a : a \in ps -> P m a by move=> Ha; apply: Pn; rewrite ed.
have ips a : a \in ps -> a \in pids rest by move=> Ha; apply: Hargs; rewrite ed.
have {}Hj : denotes m rest j y v by apply/at_denotes.
rewrite el_adk //; case en: n => [|n1] //; rewrite el_tofdd //.
case: x ax Hu => [xs|a x|?] // _; first by case: (n1).
by case=> Ha Hu Ev; apply: (el_ff _ _ _ _ _ Hu Hj Ev); auto; lia.
Qed.

Lemma left_ind mu k0 : left_d (DInd mu k0).
Proof.
start ed => j k x y e u v Pj [<-] ax ay [xs ex ->] Hj; rewrite el_zero //; case: eqP => // en [<-].
have := E; rewrite ed => E'.
have sv := Lay lt E' Pr Pj Hj.
split=> [||i]; rewrite size_nseq ?size_map ?sv ?en -?en ?ex //= => li.
rewrite nth_nseq li /vget (nth_map [::]) //.
have := ind_null Va (nth [::] xs i) lt E' ((at_den _ _ _ _ ay).1 Hj) => /null_nth -> //.
by rewrite sv -en ex.
Qed.
Lemma left_copy p : left_d (DCopy p).
Proof.
start ed => j k x y e u v Pj; case Ek: (KA _ _ _ _) => [k'|] // [<-]; prep ed.
by apply: Kd1 Ek => //; apply: Pn'; rewrite inE.
Qed.
Lemma left_addc p c : left_d (DAddC p c).
Proof.
start ed => j k x y e u v Pj; case Ek: (KA _ _ _ _) => [k'|] // [<-] ax ay; prep ed.
case=> a Ha -> Hb Ev; have Pp : P m p by apply: Pn'; rewrite inE.
apply: (dg_shiftl (s := fun=> c) (Kd1 Pp Pj Ek ax ay Ha Hb Ev));
  rewrite ?size_map // => i li; by rewrite vget_map.
Qed.
Lemma left_addf p f : left_d (DAddF p f).
Proof.
start ed => j k x y e u v Pj; case Ek: (KA _ _ _ _) => [k'|] // [<-] ax ay; prep ed.
case=> xs [a [ex Ha sa ->]] Hb Ev; have Pp : P m p by apply: Pn'; rewrite inE.
apply: (dg_shiftl (Kd1 Pp Pj Ek ax ay Ha Hb Ev)); rewrite ?size_zipw // => i li; exact: nth_addf.
Qed.
Lemma left_sum p q : left_d (DSum p q).
Proof.
start ed => j k x y e u v Pj; case E1: (KA m rest p j) => [k1|] //=; rewrite ?eqxx.
case E2: (KA m rest q j) => [k2|] // [<-] ax ay; prep ed.
case=> a [b [Ha Hb sab ->]] Hj.
have Pp : P m p by apply: Pn'; rewrite !inE eqxx.
have Pq : P m q by apply: Pn'; rewrite !inE eqxx orbT.
case/(el_inv_add ax ay) => n1 [A1 [B1 [[e1] H1 H2 /vmap2E [s1 s2 s3]]]].
have le : (n1 <= n)%N by lia.
have [a1 a2 a3] := Kd le Pp Pj E1 ax ay Ha Hj H1; have [b1 b2 b3] := Kd le Pq Pj E2 ax ay Hb Hj H2.
split=> [||i]; rewrite ?size_zipw ?s2 // => li.
have lB : (i < size B1)%N by rewrite s1.
by rewrite nth_addv -?sab ?a1 // covD s3 // a3 // b3.
Qed.
Lemma left_scale p c : left_d (DScale p c).
Proof.
start ed => j k x y e u v Pj; case Ek: (KA _ _ _ _) => [k'|] // [<-] ax ay; prep ed.
case=> a Ha -> Hb; have Pp : P m p by apply: Pn'; rewrite inE.
rewrite el_scale //; case Ev: (elk _ _ _ _) => [A|] // [<-].
have [e1 e2 e3] := Kd (leqnn n) Pp Pj Ek ax ay Ha Hb Ev.
split=> [||i]; rewrite ?size_map // => li.
by rewrite (nth_map 0) // vget_map ?e1 // covZ e3.
Qed.
Lemma left_fun p f : left_d (DFun p f).
Proof.
start ed => j k x y e u v Pj; case Ek: (KA _ _ _ _) => [k'|] // [<-] ax ay; prep ed.
case=> fa [a [Fa Ha sa ->]] Hb.
have Pp : P m p by apply: Pn'; case: (f) => *; rewrite !inE ?eqxx.
have Pf m' q : f = FMean m' q -> P m q by move=> ef; apply: Pn'; rewrite ef !inE eqxx orbT.
rewrite el_mul //; case Et: (elk n (KTensor f FOnes) x y) => [T|] //=; case Ev: (elk n k' x y) => [A|] //=.
case: (el_inv_tensor ax ay Et) => n1 [ga [gb [e1 Ea Eb /vmap2E [t1 t2 t3]]]].
have [c1 c2 c3] := Kd (leqnn n) Pp Pj Ek ax ay Ha Hb Ev.
have le : (n1 <= n)%N by lia.
have eb : gb = nseq (ne y) 1 by case: (n1) Eb => // n2; rewrite at_fones => -[].
have efa := fval le ax Pf Ea Fa; subst ga gb; rewrite size_nseq in t1.
case/vmap2E => z1 z2 z3.
have se : size e = size A by rewrite z2 z1.
split=> [||i]; rewrite ?size_zipw ?sa ?se // => li.
have lT : (i < size T)%N by rewrite -z1. have lf : (i < size fa)%N by rewrite -t2.
by rewrite nth_scalev ?sa ?c1 // covZ z3 // t3 // c3 // nth_nseq t1 lf mulr1.
Qed.
Lemma left_map p t t0 : left_d (DMap p t t0).
Proof.
start ed => j k x y e u v Pj; case Ek: (KA _ _ _ _) => [k'|] // [<-] ax ay; prep ed.
case=> xs -> Ha Hb; have Pp : P m p by apply: Pn'; rewrite inE.
rewrite el_kmap //=; have := idmaps_ext E (Wi m); rewrite ed.
case: t0 ed => [f|] ed /=; last by move=> _ Ev; apply: (Kd (leqnn n) Pp Pj Ek _ _ Ha Hb Ev).
move=> Hf; case: y ay Hb => // ys ay Hb /=.
rewrite (eq_map Hf) map_id => Ev; apply: (Kd (leqnn n) Pp Pj Ek _ _ Ha Hb Ev) => //.
Qed.

Lemma own_alld : own_d d.
Proof.
case ed: d => [mu k|mu k lr|p|p c|p f|p q|p c|p f|p t t0|p dd|ps].
- exact: own_ind. - by have := Ba lt E Pr; rewrite ed.
- exact: own_copy. - exact: own_addc. - exact: own_addf. - exact: own_sum. - exact: own_scale.
- exact: own_fun. - exact: own_map. - exact: own_diff. - exact: own_cross.
Qed.
Lemma left_alld : left_d d.
Proof.
case ed: d => [mu k|mu k lr|p|p c|p f|p q|p c|p f|p t t0|p dd|ps].
- exact: left_ind. - by have := Ba lt E Pr; rewrite ed.
- exact: left_copy. - exact: left_addc. - exact: left_addf. - exact: left_sum. - exact: left_scale.
- exact: left_fun. - exact: left_map. - exact: left_diff. - exact: left_cross.
Qed.
End Add.

Lemma oda_add n r d rest : (forall n', (n' <= n)%N -> okd n') -> oda n.+1 rest -> oda n.+1 (HAdd r d rest).
Proof.
move=> Hd IHh m p q k x y e u v lt E Pp Pq EK ax ay.
have Er := ext_tail E.
rewrite /=; move: (EK) => /=; case: (p =P r) => [ep|np]; case: (q =P r) => [eq|nq].
- subst p q => Ek Hu Hv; exact: (own_alld lt E Hd IHh Pp erefl).
- subst p; case: ifP => // _ Ek Hu Hv; exact: (left_alld lt E Hd IHh Pp erefl Pq Ek ax ay Hu Hv).
- subst q; case: ifP => // Hp; move=> Ek Hu Hv Ev.
  suff : [\/ exists2 k', k = KRev k' & KA m (HAdd r d rest) r p = Some k',
             (exists mu k0, d = DInd mu k0) /\ k = KZero |
             exists2 p', d = DCopy p' & KA m rest p p' = Some k].
    case=> [[k' ee Ek']|[[mu [k0 ed]] ee]|[p' ed Ek']].
    + subst k; move: Ev; rewrite el_rev // => Ev; apply: dg_sym.
      apply: (Hd _ (leqnn n) _ _ _ _ _ _ _ _ _ _ lt E Pq Pp Ek' _ _ Ev); apply/at_denotes => //=.
        by rewrite eqxx.
      by case: eqP.
    + subst k; apply: dg_sym.
      apply: (@left_alld n m r d rest lt E Hd IHh Pq erefl p KZero y x _ v u Pp _ ay ax Hv Hu).
        by rewrite ed.
      by move: Ev; rewrite !el_zero // eq_sym; case: eqP => // ->.
    + move: Hv; rewrite ed /= => Hv.
      apply: (IHh _ _ _ _ _ _ _ _ _ lt Er Pp _ Ek' ax ay Hu Hv Ev).
      by apply: (vd_needs Va) lt E Pq _; rewrite ed inE.
  have gen : pint (onk m (fun a b => if a == r then pint (onk m (KA m rest)) (@noM R) (left_of m d b)
                                else KA m rest a b)) (@noM R) (let* a := rk R m r p in Ret (KRev a)) = Some k ->
      exists2 k', k = KRev k' & KA m (HAdd r d rest) r p = Some k'.
    rewrite /= /onk /onm !eqxx Hp; case: (p =P r) => // _.
    by case Ek': (pint _ _ _) => [k'|] // [<-]; exists k'.
  move: Ek; rewrite /right_of; case ed: d gen => [mu k0|mu k0 lr|p0|p0 c|p0 f|p0 q0|p0 c|p0 f|p0 t t0|p0 dd|ps] gen;
    try (by move/gen; constructor 1).
    by case=> <-; constructor 2; split=> //; exists mu, k0.
  rewrite /= /onk /onm eqxx; case: (p =P r) => // _; case Ek': (KA m rest p p0) => [k'|] // [<-].
  by constructor 3; exists p0.
- move=> EK' Hu Hv; exact: IHh lt Er Pp Pq EK' ax ay Hu Hv.
Qed.

Lemma okd_step n : (forall n', (n' <= n)%N -> okd n') -> okd n.+1.
Proof.
move=> Hd m h p q k x y e u v lt E Pp Pq Ek Hu Hv.
have Kn := Hd n (leqnn n) m h p q k.
have AA : forall h', oda n.+1 h'.
  by elim=> [|pm par IH o|r d rest IH] //; [apply: oda_post | apply: oda_add].
case ax: (atom x); case ay: (atom y).
- by move=> Ev; apply: (AA _ _ _ _ _ _ _ _ _ _ lt E Pp Pq Ek ax ay _ _ Ev); apply/at_denotes.
- case: y ay Hv => // ys _ Hv; rewrite el_tupr // => Ev; apply: (Kn _ _ _ _ _ lt E Pp Pq Ek _ _ Ev) => //.
  exact: lift1.
- case: x ax Hu => // xs _ Hu; rewrite el_tupl // => Ev; apply: (Kn _ _ _ _ _ lt E Pp Pq Ek _ _ Ev) => //.
  exact: lift1.
case: x ax Hu => // xs _ Hu; case: y ay Hv => // ys _ Hv; rewrite el_tup; case: eqP => // s.
case/lift_tup_inv: Hu => us Fu ->; case/lift_tup_inv: Hv => vs Fv ->.
apply: dg_cat => //; [|by rewrite (Forall2_size Fu)|by rewrite -(Forall2_size Fv) -s] => i li e'.
have ly : (i < size ys)%N by rewrite -s.
have Hu := Forall2_nth (Num [::]) [::] Fu li; have Hv := Forall2_nth (Num [::]) [::] Fv ly.
exact: (Kn _ _ _ _ _ lt E Pp Pq Ek Hu Hv).
Qed.

Theorem sound_d n : okd n.
Proof. by elim/ltn_ind: n => -[|n] IH //; apply: okd_step => n' le; apply: IH. Qed.

Theorem sound_el n m p q k x y e u v : (m < nm)%N -> P m p -> P m q ->
  see_k w m p q = Some k -> elk n k x y = Some e -> denotes m (l m) p x u -> denotes m (l m) q y v -> dg e u v.
Proof.
move=> lt Pp Pq Es Ev Hu Hv; apply: (@sound_d n _ _ _ _ _ _ _ _ _ _ lt (ext_refl _) Pp Pq _ Hu Hv Ev).
by move: Es; rewrite see_k_log // lt.
Qed.
End Elwise.
