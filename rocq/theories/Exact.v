(* Soundness without any assumption on the order of construction: a matrix that has the right
   shape has the right entries, and the matrix of a process at one input always has the right
   shape. *)
From Coq Require Import List FunctionalExtensionality.
From mathcomp Require Import all_ssreflect all_algebra.
From mathcomp Require Import zify.
From Verif Require Import Graph Machine Refine Worlds Eval GraphSpec GraphProofs RV RVProofs Sound ModelSpec SymSpec SymEval SymLogs ExactSpec Shape.
Set Implicit Arguments. Unset Strict Implicit. Unset Printing Implicit Defensive.
Import GRing.Theory.
Local Open Scope ring_scope.

Section Fit.
Variables (R : fieldType) (W : space R).
Notation V := (rv W). Notation cov := (@cov R W).
Implicit Types (u v : seq V) (M : dmat R).

Notation fit := (@covmat_at_most R W).
Lemma cm_fit M u v : covmat M u v -> fit M u v.
Proof. by case=> a b c; split=> [||_ _]; rewrite ?a ?b. Qed.
Lemma fit_via A M a b u v : fit A a b -> nr M = nr A -> nc M = nc A -> size u = size a -> size v = size b ->
  (covmat A a b -> covmat M u v) -> fit M u v.
Proof. by case=> h1 h2 h3 e1 e2 su sv H; split; rewrite ?e1 ?e2 ?su ?sv // => e e'; apply: H; apply: h3. Qed.
Lemma fit_tr A u v : fit A v u -> fit (dtr A) u v.
Proof. by case=> a b c; split=> //= h1 h2; apply: cm_tr; apply: c. Qed.
Lemma fit_hcat A B M u v1 v2 : fit A u v1 -> fit B u v2 -> dhcat A B = Some M -> fit M u (v1 ++ v2).
Proof.
move=> [a1 a2 a3] [b1 b2 b3] E; have E' := E; move: E; rewrite /dhcat; case: eqP => // e [eM].
have [e1 e2] : nr M = nr A /\ nc M = (nc A + nc B)%N by rewrite -eM.
rewrite /covmat_at_most size_cat e1 e2; split=> [||h1 h2]; try lia.
by apply: cm_hcat E'; [apply: a3 | apply: b3]; lia.
Qed.
Lemma fit_vcat A B M u1 u2 v : fit A u1 v -> fit B u2 v -> dvcat A B = Some M -> fit M (u1 ++ u2) v.
Proof.
move=> [a1 a2 a3] [b1 b2 b3] E; have E' := E; move: E; rewrite /dvcat; case: eqP => // e [eM].
have [e1 e2] : nr M = (nr A + nr B)%N /\ nc M = nc A by rewrite -eM.
rewrite /covmat_at_most size_cat e1 e2; split=> [||h1 h2]; try lia.
by apply: cm_vcat E'; [apply: a3 | apply: b3]; lia.
Qed.
Lemma fit_row (T : Type) (g : T -> option (dmat R)) u ys vs M :
  Forall2 (fun y v => forall B, g y = Some B -> fit B u v) ys vs ->
  ofold1 (@dhcat R) (map g ys) = Some M -> fit M u (flatten vs).
Proof.
move=> F; elim: F M => [|y v ys' vs' H F IH] M //.
case: F IH => [|y2 v2 ys2 vs2 H2 F] IH.
  by rewrite /= cats0 => /H.
rewrite [map _ _]/= ofold1_cons; case E: (g y) => [A|] //=; rewrite -[match _ with [::] => _ | _ => _ end]/(ofold1 (@dhcat R) (map g (y2 :: ys2))).
case E2: (ofold1 _ _) => [B|] //= E3; exact: fit_hcat (H _ E) (IH _ E2) E3.
Qed.
Lemma fit_col (T : Type) (g : T -> option (dmat R)) v xs us M :
  Forall2 (fun x u => forall B, g x = Some B -> fit B u v) xs us ->
  ofold1 (@dvcat R) (map g xs) = Some M -> fit M (flatten us) v.
Proof.
move=> F; elim: F M => [|y u ys' us' H F IH] M //.
case: F IH => [|y2 v2 ys2 vs2 H2 F] IH.
  by rewrite /= cats0 => /H.
rewrite [map _ _]/= ofold1_cons; case E: (g y) => [A|] //=; rewrite -[match _ with [::] => _ | _ => _ end]/(ofold1 (@dvcat R) (map g (y2 :: ys2))).
case E2: (ofold1 _ _) => [B|] //= E3; exact: fit_vcat (H _ E) (IH _ E2) E3.
Qed.
Lemma fit_block (T : Type) (g : T -> T -> option (dmat R)) (P Q : T -> seq V -> Prop) xs ys us vs M :
  (forall x y u v B, P x u -> Q y v -> g x y = Some B -> fit B u v) ->
  Forall2 P xs us -> Forall2 Q ys vs ->
  dblock [seq [seq g x y | y <- ys] | x <- xs] = Some M -> fit M (flatten us) (flatten vs).
Proof.
move=> H F1 F2; rewrite /dblock -map_comp; apply: fit_col.
elim: F1 => [|x u xs' us' Hx _ IH]; constructor => // B /=; apply: fit_row.
by elim: F2 {IH} => [|y v ys' vs' Hy _ IH]; constructor => // B'; apply: H.
Qed.

End Fit.

Local Notation fit := (@covmat_at_most _ _).

Section Exact.
Variable R : fieldType.
Variable W : space R.
Variable D : nat -> (point R -> R) -> point R -> R.
Variables (G : pid -> point R -> rv W) (eps : mid -> nat -> rv W).
Notation V := (rv W). Notation input := (input R). Notation hist := (hist R).
Notation point := (point R). Notation kexp := (kexp R). Notation mexp := (mexp R).
Notation at_ := (at_ D G eps). Notation denotes := (denotes D G eps).
Notation Ex := (@Ex R W). Notation cov := (@cov R W).
Variables (w : world R) (P : mid -> pid -> Prop).
Hypothesis (I : winv w) (Wi : winvid w) (Va : valid D G eps w P).
Notation evk := (evk (see_k w) (see_m w) D). Notation evm := (evm (see_k w) (see_m w) D).
Notation evf := (evf (see_k w) (see_m w) D).
Notation nm := (w_nm w). Notation l := (w_log w).
Implicit Types (h : hist) (x y : input) (k : kexp) (mu : mexp) (M : dmat R) (u v : seq V).
(* No Cartesian product is empty. *)
Fixpoint crosses h : Prop :=
  match h with
  | HRoot => True
  | HPost _ par _ => crosses par
  | HAdd _ d rest => (if d is DCross ps then ps <> [::] else True) /\ crosses rest
  end.
Hypothesis (Cr : forall m, crosses (l m)) (Sh : forall n, okS D w n).

Lemma crosses_ext h h' : ext h h' -> crosses h' -> crosses h.
Proof. by elim=> // p d h1 _ IH [_]. Qed.
Lemma at_le m h p x u : crosses h -> at_ m h p x u -> (ne x <= size u)%N.
Proof.
elim: h m p x u => [|pm par IH o|r d rest IH] m p x u //=.
  by move=> C [u0 /(IH _ _ _ _ C) H /Forall2_size <-].
case=> Hd C; case: eqP => _; last exact: IH.
have {}IH q x0 u0 : at_ m rest q x0 u0 -> (ne x0 <= size u0)%N by apply: IH.
have L q x0 u0 : lift (at_ m rest q) x0 u0 -> (ne x0 <= size u0)%N.
  by elim=> [xs u1 /IH|p1 x1 u1 /IH||x1 xs u1 v1 _ H1 _ H2] //=; rewrite size_cat /=; move: H2 => /=; lia.
case: d Hd => [mu k|mu k lr|q|q c|q f|a b|q c|q f|q t t0|q dd|ps] Hd /=.
- by case=> xs -> ->; rewrite size_map.
- by case=> xs -> ->; rewrite size_map.
- exact: IH.
- by case=> a /IH H ->; rewrite size_map.
- by case=> xs [a [-> /IH H sa ->]]; rewrite size_zipw.
- by case=> a' [b' [/IH H _ sab ->]]; rewrite size_zipw.
- by case=> a /IH H ->; rewrite size_map.
- by case=> fv [a [_ /IH H sa ->]]; rewrite size_zipw ?sa.
- by case=> xs -> /IH /=; rewrite size_map.
- by case=> xs [F [dF [-> _ _ ->]]]; rewrite size_map.
case: x => [xs|a x'|//] /=; last by case=> _; apply: L.
case=> us F ->; case: F Hd => [//|q u1 qs us' /IH H _ _] /=; rewrite size_cat /=; move: H => /=; lia.
Qed.

(* The matrix of a process at one input. *)
Lemma okS_log n m h p q k k' : (m < nm)%N -> ext h (l m) -> KA m h p q = Some k -> KA m h q p = Some k' ->
  ts (see_k w) (see_m w) D n k k'.
Proof.
move=> lt E E1 E2; have Wf := wf I lt; have Hp : p \in pids h /\ q \in pids h by apply/andP; apply: (@KA_pids _ m); rewrite E1.
have [e1 _] := KA_ext m E Wf (fun _ => Hp.1) (fun _ => Hp.2).
have [e2 _] := KA_ext m E Wf (fun _ => Hp.2) (fun _ => Hp.1).
apply: (@Sh n m p q k k'); rewrite see_k_log // lt; [by rewrite e1 | by rewrite e2].
Qed.
Lemma diag_nr (g : input -> input -> option (dmat R)) (Q : input -> seq V -> Prop) xs us M :
  (forall x u A, In x xs -> Q x u -> g x x = Some A -> nr A = size u) -> Forall2 Q xs us ->
  dblock [seq [seq g x y | y <- xs] | x <- xs] = Some M -> nr M = size (flatten us).
Proof.
move=> Hg F; rewrite /dblock -map_comp.
have rowE x M0 : In x xs -> ofold1 (@dhcat R) [seq g x y | y <- xs] = Some M0 -> exists2 A, g x x = Some A & nr M0 = nr A.
  by move=> Hx E; have [A e1 e2] := row_nr E Hx; exists A; rewrite // e2.
suff gen zs vs : Forall2 Q zs vs -> (forall x, In x zs -> In x xs) -> forall M0,
    ofold1 (@dvcat R) [seq ofold1 (@dhcat R) [seq g x y | y <- xs] | x <- zs] = Some M0 -> nr M0 = size (flatten vs).
  by apply: gen.
elim=> [|x u xs' us' Hx F' IH] sub M0 //.
have H1 M1 : ofold1 (@dhcat R) [seq g x y | y <- xs] = Some M1 -> nr M1 = size u.
  move=> E; have Hin := sub x (or_introl erefl); have [A e1 e2] := rowE x M1 Hin E.
  by rewrite e2; apply: (Hg x u A).
case: F' IH sub => [|x2 u2 xs2 us2 Hx2 F'] IH sub; first by rewrite /= cats0 => /H1.
rewrite ![map _ (x :: _)]/= => E0; have [a [b [e1 e2 e3]]] := fold2 E0.
move: e3; rewrite /dvcat; case: ifP => // _ [<-] /=; rewrite !size_cat (H1 _ e1).
rewrite (IH _ b e2) /= ?size_cat //.
by move=> z Hz; apply: sub; right.
Qed.
Lemma at_den m h p x u : atom x -> at_ m h p x u <-> denotes m h p x u.
Proof. exact: at_denotes. Qed.
Definition okd n := forall m h p k x M u, (m < nm)%N -> ext h (l m) -> P m p ->
  KA m h p p = Some k -> denotes m h p x u -> evk n k x x = Some M -> nr M = size u.
Definition okda n h := forall m p k x M u, (m < nm)%N -> ext h (l m) -> P m p ->
  KA m h p p = Some k -> atom x -> at_ m h p x u -> evk n k x x = Some M -> nr M = size u.

Lemma okda_all n : (forall n', (n' <= n)%N -> okd n') -> forall h, okda n.+1 h.
Proof.
move=> Hd; elim=> [|pm par IH o|r d rest IH] m p k x M u // lt E Pp.
  rewrite /KA -/(KA _ _); case: ifP => // /andP [Hp _].
  have eb : base (l m) = Some (pm, par, o) by rewrite (ext_base E).
  have [lp Ep _] := l_base (v_log I.1) lt eb; have ltp := ltn_trans lp lt.
  have [Pp' Po] := vd_base Va lt eb Pp Hp.
  rewrite /post_k => Ek ax [u0 Hu Fu]; rewrite -(Forall2_size Fu).
  move: Ek; case: (o_data o) => [dd|].
    rewrite /= /onk /onm !eqxx.
    case Ekij: (KA pm par p p) => [kij|] //=; case Ekzi: (KA pm par (o_p o) p) => [kzi|] //=.
    case: (KA pm par (o_p o) (d_p dd)) => [kzx|] //=.
    case: (KA pm par (o_p o) (o_p o)) => [kz|] //=; case: (KA pm par (d_p dd) (d_p dd)) => [kx|] //= [<-].
    rewrite at_add // => /inv2 [X [M2 [EX _ /dmap2_sh [-> _ _ _]]]]; case: n Hd {IH} EX => // n Hd.
    rewrite at_post // => /inv2 [Mij [Q [Eij _ /dmap2_sh [-> _ _ _]]]].
    by apply: (Hd n (leqnSn n) _ _ _ _ _ _ _ ltp Ep Pp' Ekij _ Eij); apply/at_den.
  rewrite /post_k1; case: ifP => _; rewrite /= /onk /onm !eqxx.
    by case Ek: (KA pm par p p) => [k'|] //= [<-]; apply: IH Ek ax Hu.
  case Ekij: (KA pm par p p) => [kij|] //=; case Ekzi: (KA pm par (o_p o) p) => [kzi|] //=.
  case Ekz: (KA pm par (o_p o) (o_p o)) => [kz|] //= [<-].
  rewrite at_post // => /inv2 [Mij [Q [Eij _ /dmap2_sh [-> _ _ _]]]].
  by apply: (Hd n (leqnn n) _ _ _ _ _ _ _ ltp Ep Pp' Ekij _ Eij); apply/at_den.
have Er := ext_tail E; move=> EK ax.
rewrite /=; move: (EK); rewrite /KA -/(KA _ _) /=; case: eqP => [ep|np]; last first.
  by move=> Ek Hu; apply: IH lt Er Pp Ek ax Hu.
subst p => Ek Hu.
have K0 n' q k' x' M' u' : (n' <= n)%N -> P m q -> KA m rest q q = Some k' -> atom x' -> at_ m rest q x' u' ->
    evk n' k' x' x' = Some M' -> nr M' = size u'.
  by move=> le Pq Ek' ax' Hu'; apply: (Hd n' le _ _ _ _ _ _ _ lt Er Pq Ek'); apply/at_den.
have K1 q k' x' M' u' : P m q -> KA m rest q q = Some k' -> atom x' -> at_ m rest q x' u' ->
    evk n.+1 k' x' x' = Some M' -> nr M' = size u'.
  by move=> Pq Ek' ax' Hu'; apply: (IH _ _ _ _ _ _ lt Er Pq Ek').
have Pn q : q \in needs d -> P m q by apply: (vd_needs Va) lt E Pp.
case: d E EK Ek Hu Pn => [mu0 k0|mu0 k0 lr|p0|p0 c|p0 f|p0 q0|p0 c|p0 f|p0 t t0|p0 dd|ps] E EK Ek Hu Pn;
  move: Ek Hu; rewrite /= /onk /onm ?eqxx.
- by case=> <- [xs -> ->] Ev; have [-> _ _] := vd_cov Va lt E Pp Ev.
- by case=> <- [xs -> ->] Ev; have [-> _ _] := vd_user_cov Va lt E Pp Ev.
- by case Ek: (KA _ _ _ _) => [k'|] // [<-]; apply: K1 Ek ax; apply: Pn; rewrite inE.
- case Ek: (KA _ _ _ _) => [k'|] // [<-] [a Ha ->] Ev; rewrite size_map.
  by apply: K1 Ek ax Ha Ev; apply: Pn; rewrite inE.
- case Ek: (KA _ _ _ _) => [k'|] // [<-] [xs [a [ex Ha sa ->]]] Ev; rewrite size_zipw //.
  by apply: K1 Ek ax Ha Ev; apply: Pn; rewrite inE.
- case E1: (KA m rest p0 p0) => [k1|] //=; rewrite ?eqxx; case E2: (KA m rest q0 q0) => [k2|] //=; rewrite ?eqxx.
  case E3: (KA m rest p0 q0) => [k3|] //=; rewrite ?eqxx; case E4: (KA m rest q0 p0) => [k4|] // [<-].
  case=> a [b [Ha Hb sab ->]]; rewrite size_zipw //.
  case/(inv_add ax ax) => n1 [A1 [B1 [e1 /(inv_add ax ax) [n2 [A2 [B2 [e2 H2 D2 S2]]]] D1 S1]]].
  case/(inv_add ax ax): H2 => n3 [A3 [B3 [e3 D4 D3 S3]]].
  have [-> _ _ _] := dmap2_sh S1; have [-> _ _ _] := dmap2_sh S2; have [-> _ _ _] := dmap2_sh S3.
  by apply: K0 E1 ax Ha D4; [lia | apply: Pn; rewrite inE eqxx].
- case Ek: (KA _ _ _ _) => [k'|] // [<-] [a Ha ->]; rewrite size_map at_scale //.
  case Ev: (evk n k' x x) => [A|] //= [<-] /=.
  by apply: K0 Ek ax Ha Ev; [lia | apply: Pn; rewrite inE eqxx].
- case Ek: (KA _ _ _ _) => [k'|] // [<-] [fv [a [_ Ha sa ->]]]; rewrite size_zipw // sa at_mul //.
  case Et: (evk n (KTensor f f) x x) => [T|] //=; case Ev: (evk n k' x x) => [A|] //= /dmap2_sh [_ _ -> _].
  by apply: K0 Ek ax Ha Ev; [lia | apply: Pn; case: (f) => *; rewrite !inE ?eqxx].
- case Ek: (KA _ _ _ _) => [k'|] // [<-] [xs ex Ha]; rewrite at_kmap // ex /= => Ev.
  by apply: (K0 n p0 k' (Num (map t xs))) Ek _ Ha Ev; rewrite ?leqnn //; apply: Pn; rewrite inE eqxx.
- case Ek: (KA _ _ _ _) => [k'|] // [<-] [xs [F [dF [ex HF _ ->]]]]; rewrite size_map ex.
  by case: xs {ex} => [|x1 xs] //; rewrite at_diff2; case: ifP => // _ [<-].
case=> <-; case: x ax => [xs|a x|?] // _.
- case=> us F eu; rewrite at_mok_nn => Ev.
  have EK2 : KA m (HAdd r (DCross ps) rest) r r = Some (KMok m ps) by rewrite /= !eqxx.
  by apply: (Hd n (leqnn n) _ _ _ _ _ _ _ lt E Pp EK2 _ Ev); apply: (cross_tup r erefl F eu).
- case=> Ha Hu; rewrite at_mok_ff; case Es: (see_k w m a a) => [k'|] //= Ev.
  have ar : a \in pids rest by have /and3P [_ /allP H _] := wfe I lt E; apply: H.
  by apply: (Hd n (leqnn n) _ _ _ _ _ _ _ lt Er _ (read I lt Er Es ar ar) Hu Ev); apply: Pn.
Qed.
Lemma okd_all n : okd n.
Proof.
elim/ltn_ind: n => -[|n] IH m h p k x M u // lt E Pp Ek Hu.
have Hd n' : (n' <= n)%N -> okd n' by move=> le; apply: IH.
case ax: (atom x); first by move=> Ev; apply: (okda_all Hd lt E Pp Ek ax _ Ev); apply/at_den.
case: x ax Hu => // xs _ /lift_tup_inv [us Fu ->]; rewrite at_tup.
apply: (diag_nr (Q := denotes m h p)) => // x u0 A _ Hx Ev.
exact: (Hd n (leqnn n) _ _ _ _ _ _ _ lt E Pp Ek Hx Ev).
Qed.
Lemma okd_sq n m h p k x M u : (m < nm)%N -> ext h (l m) -> P m p ->
  KA m h p p = Some k -> denotes m h p x u -> evk n k x x = Some M -> nr M = size u /\ nc M = size u.
Proof.
move=> lt E Pp Ek Hu Ev; have e := okd_all lt E Pp Ek Hu Ev; split=> //.
by have [<- _] := okS_log lt E Ek Ek Ev Ev.
Qed.

Definition okk n := forall m h p q k x y M u v, (m < nm)%N -> ext h (l m) -> P m p -> P m q ->
  KA m h p q = Some k -> denotes m h p x u -> denotes m h q y v -> evk n k x y = Some M -> fit M u v.
Notation okm := (@okm R W D G eps w P).
Definition oka n h := forall m p q k x y M u v, (m < nm)%N -> ext h (l m) -> P m p -> P m q ->
  KA m h p q = Some k -> atom x -> atom y -> at_ m h p x u -> at_ m h q y v ->
  evk n k x y = Some M -> fit M u v.

(* The data of a posterior measure, seen from the evaluator. *)
Lemma data_cov n m pm par o dat kz K0 K i j : okk n -> (m < nm)%N -> base (l m) = Some (pm, par, o) ->
  P pm (o_p o) -> denotes pm par (o_p o) (o_x o) dat -> KA pm par (o_p o) (o_p o) = Some kz ->
  evk n kz (o_x o) (o_x o) = Some K0 -> dadd K0 (o_noise o) = Some K ->
  [/\ nr K = size dat, nc K = size dat & ((i < size dat)%N -> (j < size dat)%N ->
  ent K i j = cov (radd (vget dat i) (eps m i)) (radd (vget dat j) (eps m j)))].
Proof.
move=> Hn lt eb Po Hd Ek Ev; have [lp Ep _] := l_base (v_log I.1) lt eb.
have [a b] := okd_sq (ltn_trans lp lt) Ep Po Ek Hd Ev.
have [_ _ /(_ a b) [_ _ c]] := Hn _ _ _ _ _ _ _ _ _ _ (ltn_trans lp lt) Ep Po Po Ek Hd Hd Ev.
rewrite /dadd /dmap2 /same_shape; case: andP => // -[/eqP e1 /eqP e2] [<-] /=; split=> // li lj.
have N i0 := (null_nth _ _).1 (eps_null I Va i0 lt eb Hd).
have [_ Hno] := vd_noise Va lt eb.
rewrite c // -Hno -?e1 -?e2 ?a ?b // covD !covDr (covC (vget dat i) (eps m j)) !N //.
by rewrite addr0 add0r.
Qed.
Lemma oka_post n pm par o : okk n -> oka n.+1 par -> oka n.+1 (HPost pm par o).
Proof.
move=> Hn IHh m p q k x y M u v lt E Pp Pq /=; case: andP => // -[Hp Hq].
have eb : base (l m) = Some (pm, par, o) by rewrite (ext_base E).
have [lp Ep _] := l_base (v_log I.1) lt eb; have ltp := ltn_trans lp lt.
have [Pp' Po] := vd_base Va lt eb Pp Hp; have [Pq' _] := vd_base Va lt eb Pq Hq.
move=> Ek ax ay [u0 Hu Fu] [v0 Hv Fv]; have Po' := Po _ (mem_head _ _).
have su := Forall2_size Fu; have sv := Forall2_size Fv.
have Du := (at_den _ _ _ _ ax).1 Hu; have Dv := (at_den _ _ _ _ ay).1 Hv.
move: Ek; rewrite /post_k; case Eo: (o_data o) => [d|].
  have Pd : P pm (d_p d) by apply: Po; rewrite /o_pids Eo !inE eqxx orbT.
  rewrite /post_k2 /= /onk /onm !eqxx.
  case Ekij: (KA pm par p q) => [kij|] //=; case Ekzi: (KA pm par (o_p o) p) => [kzi|] //=.
  case Ekzj: (KA pm par (o_p o) q) => [kzj|] //=; case Ekzx: (KA pm par (o_p o) (d_p d)) => [kzx|] //=.
  case Ekz: (KA pm par (o_p o) (o_p o)) => [kz|] //=; case Ekx: (KA pm par (d_p d) (d_p d)) => [kx|] //= [<-].
  rewrite at_add //; case: n Hn {IHh} => // n Hn; rewrite at_post // at_sub //.
  case Eij: (evk n kij x y) => [Mij|] //=.
  case Ez: (evk n kz _ _) => [K0|] //=; case EK: (dadd K0 _) => [K|] //=.
  case Ezi: (evk n kzi _ _) => [B1|] //=; case Ezj: (evk n kzj _ _) => [B2|] //=.
  case Q1: (iqf K B1 B2) => [M1|] //=; case X1: (dsub Mij M1) => [X|] //=.
  rewrite /pseudo_var /=; case Ezx: (evk n kzx _ _) => [C|] //=; case Ex_: (evk n kx _ _) => [Kx|] //=.
  case EA: (pseudo_A _ _ _ _ _) => [A|] //=; case Q2: (iqf A B1 B2) => [M2|] //= EM.
  have F k1 x1 y1 M1' : evk n k1 x1 y1 = Some M1' -> evk n.+1 k1 x1 y1 = Some M1' by apply: evk_fuel.
  have [g1 g2 _ _] := dmap2_sh EM; have [f1 f2 f3 f4] := dmap2_sh X1.
  apply: (fit_via (Hn _ _ _ _ _ _ _ _ _ _ ltp Ep Pp' Pq' Ekij Du Dv (F _ _ _ _ Eij))); rewrite ?g1 ?g2 // => -[a b c].
  split=> [||i j li lj]; rewrite -?su -?sv ?g1 ?g2 ?f1 ?f2 //; rewrite -su in li; rewrite -sv in lj.
  have [dat H1 h1] := Forall2_nth (rone W) (rone W) Fu li.
  have [dat2 H2 h2] := Forall2_nth (rone W) (rone W) Fv lj.
  have AS : aseq (given (noise_of o (eps m)) (values o) dat2 (vget v0 j)) (given (noise_of o (eps m)) (values o) dat (vget v0 j)).
    by apply: aseq_given => //; apply: (data_same _ H2 H1) => p0; exact: at_same.
  rewrite /vget h1 h2 (aseq_r _ AS).
  move: H1; rewrite /data Eo => -[nF [wz [wx [Hz Hx ->]]]].
  have [z1 z2] := okd_sq ltp Ep Po' Ekz Hz Ez; have [x1 x2] := okd_sq ltp Ep Pd Ekx Hx Ex_.
  have K1 : nr K = size wz by move: EK => /dmap2_sh [-> _ _ _].
  have [[q1 q2 q3 q4] _] := iqf_ent Q1 K1.
  apply: (oka_sub I Va lt eb Eo nF Hz Hx Du Dv _ EK _ _ EA _ _ _ Q1 X1 Q2 EM) => //.
  - by have [_ _] := Hn _ _ _ _ _ _ _ _ _ _ ltp Ep Po' Po' Ekz Hz Hz (F _ _ _ _ Ez); apply.
  - by move=> c1 c2; have [_ _] := Hn _ _ _ _ _ _ _ _ _ _ ltp Ep Po' Pd Ekzx Hz Hx (F _ _ _ _ Ezx); apply.
  - by have [_ _] := Hn _ _ _ _ _ _ _ _ _ _ ltp Ep Po' Pp' Ekzi Hz Du (F _ _ _ _ Ezi); apply=> //; rewrite -q3 -f3 f1.
  - by have [_ _] := Hn _ _ _ _ _ _ _ _ _ _ ltp Ep Po' Pq' Ekzj Hz Dv (F _ _ _ _ Ezj); apply=> //; rewrite -q4 -f4 f2.
  - exact: c.
rewrite /data /noise_of /values Eo in Fu Fv; move: Po' => {}Po; rewrite /post_k1 => Ek.
have AS dat dat' (a : V) : denotes pm par (o_p o) (o_x o) dat -> denotes pm par (o_p o) (o_x o) dat' ->
    aseq (given (eps m) (o_y o) dat a) (given (eps m) (o_y o) dat' a).
  by move=> H H'; apply: aseq_given => //; apply: (denotes_same H H').
move: Ek; case: eqP => [z0|_].
  rewrite /= /onk /onm eqxx; case Ek: (KA pm par p q) => [k'|] //= [<-] Ev.
  apply: (fit_via (IHh _ _ _ _ _ _ _ _ _ ltp Ep Pp' Pq' Ek ax ay Hu Hv Ev)) => // -[a b c].
  split=> [||i j li lj]; rewrite -?su -?sv //; rewrite -su in li; rewrite -sv in lj.
  have [d1 H1 e1] := Forall2_nth (rone W) (rone W) Fu li.
  have [d2 H2 e2] := Forall2_nth (rone W) (rone W) Fv lj.
  have n1 : d1 = [::] by apply: (lift_ne0 _ H1 z0) => ? ?; apply: at_ne0.
  have n2 : d2 = [::] by apply: (lift_ne0 _ H2 z0) => ? ?; apply: at_ne0.
  rewrite c // /vget e1 e2 n1 n2 (given_nil _ _ _).2.
  by rewrite (aseq_r _ (given_nil _ _ _)).
rewrite /= /onk /onm !eqxx.
case Ekij: (KA pm par p q) => [kij|] //=; case Ekzi: (KA pm par (o_p o) p) => [kzi|] //=.
case Ekzj: (KA pm par (o_p o) q) => [kzj|] //=; case Ekz: (KA pm par (o_p o) (o_p o)) => [kz|] //= [<-].
rewrite at_post //; case Eij: (evk n kij x y) => [Mij|] //=.
case Ez: (evk n kz _ _) => [K0|] //=; case EK: (dadd K0 _) => [K|] //=.
case Ezi: (evk n kzi _ _) => [A|] //=; case Ezj: (evk n kzj _ _) => [B|] //=.
case EQ: (iqf K A B) => [Q|] //=; rewrite /dsub /dmap2 /same_shape; case: andP => // -[/eqP e1 /eqP e2] [<-].
apply: (fit_via (Hn _ _ _ _ _ _ _ _ _ _ ltp Ep Pp' Pq' Ekij Du Dv Eij)) => // -[a b c].
split=> [||i j li lj] /=; rewrite -?su -?sv //; rewrite -su in li; rewrite -sv in lj.
have [dat H1 h1] := Forall2_nth (rone W) (rone W) Fu li.
have [dat2 H2 h2] := Forall2_nth (rone W) (rone W) Fv lj.
have KS s t := data_cov s t Hn lt eb Po H1 Ekz Ez EK.
have [K1 K2 _] := KS 0%N 0%N.
have [[q1 q2 q3 q4] [_ U HQ]] := iqf_ent EQ K1.
have [A1 A2 A3] : covmat A dat u0.
  by have [_ _] := Hn _ _ _ _ _ _ _ _ _ _ ltp Ep Po Pp' Ekzi H1 Du Ezi; apply=> //; rewrite -q3 -e1.
have [B1 B2 B3] : covmat B dat v0.
  by have [_ _] := Hn _ _ _ _ _ _ _ _ _ _ ltp Ep Po Pq' Ekzj H1 Dv Ezj; apply=> //; rewrite -q4 -e2.
have ES : mx_at K (size dat) (size dat) = gS (eps m) dat.
  by apply/matrixP => s t; rewrite !mxE; have [_ _ ->] := KS s t.
rewrite /vget h1 h2 (aseq_r _ (AS _ _ _ H2 H1)) given_cov -?ES // HQ ?A2 ?B2 // c //.
congr (_ - (_ *m _ *m _) 0 0).
  by apply/rowP => s; rewrite !mxE A3 // (cross_cov I Va _ _ lt eb Du li).
by apply/colP => s; rewrite !mxE B3 // (cross_cov I Va _ _ lt eb Dv lj).
Qed.

(* A process that was added to a measure. *)
Section Add.
Variables (n : nat) (m : mid) (r : pid) (d : pdef R) (rest : hist).
Notation h := (HAdd r d rest).
Hypotheses (lt : (m < nm)%N) (E : ext h (l m)) (Hk : forall n', (n' <= n)%N -> okk n')
  (Hm : forall n', (n' <= n)%N -> okm n') (IHh : oka n.+1 rest).

Lemma Er : ext rest (l m). Proof. exact: ext_tail E. Qed.
Lemma Hargs q : q \in dargs d -> q \in pids rest.
Proof. by have /and3P [_ /allP H _] := wfe I lt E; apply: H. Qed.

Lemma K n' p q k x y M u v : (n' <= n)%N -> P m p -> P m q -> KA m rest p q = Some k ->
  atom x -> atom y -> at_ m rest p x u -> at_ m rest q y v -> evk n' k x y = Some M -> fit M u v.
Proof.
move=> le Pp Pq Ek ax ay /(at_den _ _ _ _ ax) Hu /(at_den _ _ _ _ ay) Hv.
exact: Hk le _ _ _ _ _ _ _ _ _ _ lt Er Pp Pq Ek Hu Hv.
Qed.
Lemma K1 p q k x y M u v : P m p -> P m q -> KA m rest p q = Some k ->
  atom x -> atom y -> at_ m rest p x u -> at_ m rest q y v -> evk n.+1 k x y = Some M -> fit M u v.
Proof. exact: IHh lt Er. Qed.

Hypothesis Pr : P m r.
Lemma Pn q : q \in needs d -> P m q. Proof. exact: (vd_needs Va) lt E Pr. Qed.

Definition own_ok d0 := d = d0 -> forall k x y M u v, pint (onk m (KA m rest)) (@noM R) (own_of m d) = Some k ->
  atom x -> atom y -> equation D G m (at_ m rest) r d x u -> equation D G m (at_ m rest) r d y v ->
  evk n.+1 k x y = Some M -> fit M u v.
Definition left_ok d0 := d = d0 -> forall j k x y M u v, P m j ->
  pint (onk m (KA m rest)) (@noM R) (left_of m d j) = Some k ->
  atom x -> atom y -> equation D G m (at_ m rest) r d x u -> at_ m rest j y v ->
  evk n.+1 k x y = Some M -> fit M u v.

Ltac start e := move=> e; rewrite e /= /onk /onm ?eqxx.
Ltac prep e := have := Pn; rewrite e /=; move=> Pn'.

Lemma own_ind mu k0 : own_ok (DInd mu k0).
Proof.
start ed => k x y M u v [<-] _ _ [xs -> ->] [ys -> ->]; have := E; rewrite ed => E'.
by move=> Ev; apply: cm_fit; apply: (vd_cov Va) lt E' Pr Ev.
Qed.
Lemma own_user mu k0 lr : own_ok (DUser mu k0 lr).
Proof.
start ed => k x y M u v [<-] _ _ [xs -> ->] [ys -> ->]; have := E; rewrite ed => E'.
by move=> Ev; apply: cm_fit; apply: (vd_user_cov Va) lt E' Pr Ev.
Qed.
Lemma own_copy p : own_ok (DCopy p).
Proof.
start ed => k x y M u v; case Ek: (KA _ _ _ _) => [k'|] // [<-]; prep ed.
by apply: K1 Ek => //; apply: Pn'; rewrite inE.
Qed.
Lemma own_addc p c : own_ok (DAddC p c).
Proof.
start ed => k x y M u v; case Ek: (KA _ _ _ _) => [k'|] // [<-] ax ay; prep ed.
case=> a Ha -> [b Hb ->] Ev; have Pp : P m p by apply: Pn'; rewrite inE.
apply: (fit_via (K1 Pp Pp Ek ax ay Ha Hb Ev)); rewrite ?size_map // => cmA.
apply: (cm_shift (s := fun=> c) (t := fun=> c) cmA);
  rewrite ?size_map // => i li; by rewrite vget_map.
Qed.
Lemma own_addf p f : own_ok (DAddF p f).
Proof.
start ed => k x y M u v; case Ek: (KA _ _ _ _) => [k'|] // [<-] ax ay; prep ed.
case=> xs [a [ex Ha sa ->]] [ys [b [ey Hb sb ->]]] Ev; have Pp : P m p by apply: Pn'; rewrite inE.
apply: (fit_via (K1 Pp Pp Ek ax ay Ha Hb Ev)); rewrite ?size_zipw // => cmA.
apply: (cm_shift cmA); rewrite ?size_zipw // => i li; exact: nth_addf.
Qed.
Lemma own_sum p q : own_ok (DSum p q).
Proof.
start ed => k x y M u v; case E1: (KA m rest p p) => [k1|] //=; rewrite ?eqxx.
case E2: (KA m rest q q) => [k2|] //=; rewrite ?eqxx; case E3: (KA m rest p q) => [k3|] //=; rewrite ?eqxx.
case E4: (KA m rest q p) => [k4|] // [<-] ax ay; prep ed.
case=> a [b [Ha Hb sab ->]] [a' [b' [Ha' Hb' sab' ->]]].
have Pp : P m p by apply: Pn'; rewrite !inE eqxx.
have Pq : P m q by apply: Pn'; rewrite !inE eqxx orbT.
case/(inv_add ax ay) => n1 [A1 [B1 [e1 /(inv_add ax ay) [n2 [A2 [B2 [e2 H2 D2 S2]]]] D1 S1]]].
case/(inv_add ax ay): H2 => n3 [A3 [B3 [e3 D4 D3 S3]]].
have C1 : fit A3 a a' by apply: (K _ Pp Pp E1 ax ay Ha Ha' D4); lia.
have C2 : fit B3 b b' by apply: (K _ Pq Pq E2 ax ay Hb Hb' D3); lia.
have C3 : fit B2 a b' by apply: (K _ Pp Pq E3 ax ay Ha Hb' D2); lia.
have C4 : fit B1 b a' by apply: (K _ Pq Pp E4 ax ay Hb Ha' D1); lia.
have [g1 g2 g3 g4] := dmap2_sh S3; have [g5 g6 g7 g8] := dmap2_sh S2; have [g9 g10 g11 g12] := dmap2_sh S1.
apply: (fit_via C1); rewrite ?size_zipw //; try by rewrite ?g9 ?g10 ?g5 ?g6 ?g1 ?g2.
case=> p1 p2 p3.
have [q1 q2 q3] : covmat B3 b b' by have [_ _] := C2; apply; rewrite -?sab -?sab' -?g3 -?g4 ?g1 ?g2.
have [r1 r2 r3] : covmat B2 a b' by have [_ _] := C3; apply; rewrite -?sab' -?g7 -?g8 ?g5 ?g6 ?g1 ?g2.
have [s1 s2 s3] : covmat B1 b a' by have [_ _] := C4; apply; rewrite -?sab -?g11 -?g12 ?g9 ?g10 ?g5 ?g6 ?g1 ?g2.
move: S3 S2 S1; rewrite /dadd /dmap2 /same_shape p1 p2 q1 q2 sab sab' !eqxx /= => -[<-] /=.
rewrite r1 r2 ?sab ?sab' !eqxx /= => -[<-] /=; rewrite s1 s2 ?sab ?sab' !eqxx /= => -[<-].
split=> [||i j] /=; rewrite ?size_zipw // ?sab ?sab' // => li lj.
rewrite p3 ?q3 ?r3 ?s3 ?sab ?sab' // !nth_addv ?sab ?sab' // covD !covDr.
by rewrite -!addrA; congr (_ + _); rewrite addrC -addrA; congr (_ + _); rewrite addrC.
Qed.
Lemma own_scale p c : own_ok (DScale p c).
Proof.
start ed => k x y M u v; case Ek: (KA _ _ _ _) => [k'|] // [<-] ax ay; prep ed.
case=> a Ha -> [b Hb ->]; have Pp : P m p by apply: Pn'; rewrite inE.
rewrite at_scale //; case Ev: (evk _ _ _ _) => [A|] // [<-].
apply: (fit_via (K (leqnn n) Pp Pp Ek ax ay Ha Hb Ev)); rewrite ?size_map // => -[e1 e2 e3].
split=> [||i j] /=; rewrite ?size_map // => li lj.
by rewrite !vget_map // covZ covZr e3 // expr2 mulrA.
Qed.
Lemma own_fun p f : own_ok (DFun p f).
Proof.
start ed => k x y M u v; case Ek: (KA _ _ _ _) => [k'|] // [<-] ax ay; prep ed.
case=> fa [a [Fa Ha sa ->]] [fb [b [Fb Hb sb ->]]].
have Pp : P m p by apply: Pn'; case: (f) => *; rewrite !inE ?eqxx.
have Pf m' q : f = FMean m' q -> P m q by move=> ef; apply: Pn'; rewrite ef !inE eqxx orbT.
rewrite at_mul //; case Et: (evk n (KTensor f f) x y) => [T|] //=; case Ev: (evk n k' x y) => [A|] //=.
case: (inv_tensor ax ay Et) => n1 [ga [gb [e1 Ea Eb ->]]].
have le : (n1 <= n)%N by lia.
rewrite (fval I lt E Hm le ax Pf Ea Fa) (fval I lt E Hm le ay Pf Eb Fb) => EM.
have [g1 g2 g3 g4] := dmap2_sh EM; move: EM.
have [c1 c2 c3] : covmat A a b.
  by have [_ _] := K (leqnn n) Pp Pp Ek ax ay Ha Hb Ev; apply; rewrite -?g3 -?g4 ?g1 ?g2 /= ?sa ?sb.
rewrite /dmul /dmap2 /same_shape /= c1 c2 sa sb !eqxx /= => -[<-]; apply: cm_fit.
split=> [||i j] /=; rewrite ?size_zipw // sa sb => li lj.
by rewrite !nth_scalev ?sa ?sb // covZ covZr c3 // mulrA.
Qed.
Lemma own_map p t t0 : own_ok (DMap p t t0).
Proof.
start ed => k x y M u v; case Ek: (KA _ _ _ _) => [k'|] // [<-] ax ay; prep ed.
case=> xs -> Ha [ys -> Hb]; have Pp : P m p by apply: Pn'; rewrite inE.
by rewrite at_kmap //= => Ev; apply: (K (leqnn n) Pp Pp Ek _ _ Ha Hb Ev).
Qed.

Lemma row_all n' k' (s t : seq point) a0 (f : nat) y : is_row f (evk n' k' (Num [:: a0]) y) ->
  forall a, exists2 A, evk n' k' (Num [:: a]) y = Some A & nr A = 1%N /\ nc A = f.
Proof.
move=> H a; have := evk_shape (see_k w) (see_m w) D n' k' (erefl : skel (Num [:: a]) = skel (Num [:: a0])) (erefl (skel y)).
by move: H; rewrite /is_row /is_shape; case: (evk _ _ (Num [:: a0]) y) => // B /andP [/eqP e1 /eqP e2];
  case: (evk _ _ _ _) => // A [e3 e4]; exists A; rewrite ?e3 ?e4.
Qed.
Lemma left_diff p dd : left_ok (DDiff p dd).
Proof.
start ed => j k x y M u v Pj; case Ek: (KA _ _ _ _) => [k'|] // [<-] ax ay; prep ed.
case=> xs [F [dF [-> HF [_ dc] ->]]] Hb; have Pp : P m p by apply: Pn'; rewrite inE.
case: xs => [|x1 xs] //; case: y ay Hb => [[|y1 ys]|? ?|?] // ay Hb; rewrite at_diff1.
case: ifP => // /andP [/(row_all [::] [::]) R1 _] [<-].
have C0 a : exists2 A, evk n k' (Num [:: a]) (Num (y1 :: ys)) = Some A & [/\ nr A = 1%N, nc A = (size ys).+1 & fit A [:: F a] v].
  have [A e [n1 n2]] := R1 a; exists A => //; split=> //; exact: (K (leqnn n) Pp Pj Ek _ _ (HF a) Hb e).
split; [by rewrite size_map | by have [A _ [_ <- []]] := C0 [::] | move=> e1 sv].
split=> // i j0 li lj; rewrite size_map in li.
rewrite /vget (nth_map [::]) // dc [LHS]/=; congr (D _ _ _).
apply: functional_extensionality => a; have [A e [n1 n2 [_ _ fA]]] := C0 a.
have [_ _ /(_ 0%N j0 isT lj)] : covmat A [:: F a] v by apply: fA => //; rewrite n2 -sv.
by rewrite e.
Qed.
Lemma own_diff p dd : own_ok (DDiff p dd).
Proof.
start ed => k x y M u v; case Ek: (KA _ _ _ _) => [k'|] // [<-] ax ay; prep ed.
case=> xs [F [dF [-> HF [_ dc] ->]]] [ys [F' [dF' [-> HF' [_ dc'] ->]]]]; have Pp : P m p by apply: Pn'; rewrite inE.
case: xs => [|x1 xs] //; case: ys => [|y1 ys] //; rewrite at_diff2.
case: ifP => // /andP [/andP [R1 _] _] [<-].
have C1 a b : entry00 (evk n k' (Num [:: a]) (Num [:: b])) = cov (F a) (F' b).
  have := evk_shape (see_k w) (see_m w) D n k' (erefl : skel (Num [:: a]) = skel (Num [:: x1]))
            (erefl : skel (Num [:: b]) = skel (Num [:: y1])).
  move: R1; rewrite /is_shape; case: (evk _ _ (Num [:: x1]) _) => // B /andP [/eqP n1 /eqP n2].
  case e: (evk _ _ _ _) => [A|] // -[m1 m2].
  have [_ _ H] : fit A [:: F a] [:: F' b] by apply: (K (leqnn n) Pp Pp Ek _ _ (HF a) (HF' b) e).
  have [||_ _ {}H] := H; rewrite ?m1 ?m2 ?n1 ?n2 //.
  exact: (H 0%N 0%N isT isT).
apply: cm_fit; split=> [||i j0 li lj]; rewrite ?size_map //; rewrite !size_map in li lj.
rewrite /vget !(nth_map [::]) // dc [LHS]/=; congr (D _ _ _).
apply: functional_extensionality => a; rewrite covC dc'; congr (D _ _ _).
by apply: functional_extensionality => b; rewrite C1 covC.
Qed.

(* Joint processes. *)
Lemma mok_ff n' ps a b x y M u v : (n' <= n.+1)%N -> a \in pids rest -> b \in pids rest -> P m a -> P m b ->
  denotes m rest a x u -> denotes m rest b y v -> evk n' (KMok m ps) (Fdd a x) (Fdd b y) = Some M ->
  fit M u v.
Proof.
case: n' => // n' le Ha Hb Pa Pb Du Dv; rewrite at_mok_ff; case Es: (see_k w m a b) => [k|] //= Ev.
by apply: (Hk le lt Er Pa Pb (read I lt Er Es Ha Hb) Du Dv Ev).
Qed.
Lemma own_cross ps : own_ok (DCross ps).
Proof.
start ed => k x y M u v [<-] ax ay.
have KK : KA m h r r = Some (KMok m ps) by rewrite /= !eqxx ed.
have F1 a x' w' : a \in ps /\ lift (at_ m rest a) x' w' -> denotes m h r (Tup [:: Fdd a x']) w'.
  by case=> H1 H2; apply: lift1; apply: lift_fdd; rewrite /= eqxx ed.
have Pps a : a \in ps -> P m a by move=> Ha; apply: Pn; rewrite ed.
have ips a : a \in ps -> a \in pids rest by move=> Ha; apply: Hargs; rewrite ed.
case: x ax => [xs|a x|?] // _; case: y ay => [ys|b y|?] // _.
- case=> us F eu [vs F' ev]; rewrite at_mok_nn.
  apply: (Hk (leqnn n) lt E Pr Pr KK); [exact: (cross_tup r ed F eu) | exact: (cross_tup r ed F' ev)].
- case=> us F eu Hv; rewrite at_mok_nf.
  apply: (Hk (leqnn n) lt E Pr Pr KK); [exact: (cross_tup r ed F eu) | exact: F1].
- move=> Hu [vs F' ev]; rewrite at_mok_fn.
  apply: (Hk (leqnn n) lt E Pr Pr KK); [exact: F1 | exact: (cross_tup r ed F' ev)].
- case=> Ha Hu [Hb Hv] Ev; apply: (mok_ff (leqnn n.+1) _ _ _ _ Hu Hv Ev); auto.
Qed.
Lemma left_cross ps : left_ok (DCross ps).
Proof.
start ed => j k x y M u v Pj [<-] ax ay Hu Hj.
have jr : j \in pids rest by apply: at_pids Hj.
have Pps a : a \in ps -> P m a by move=> Ha; apply: Pn; rewrite ed.
have ips a : a \in ps -> a \in pids rest by move=> Ha; apply: Hargs; rewrite ed.
have {}Hj : denotes m rest j y v by apply/at_den.
rewrite at_adk //; case en: n => [|n1] //; rewrite at_tofdd //.
case: x ax Hu => [xs|a x|?] // _; last first.
  by case=> Ha Hu Ev; apply: (mok_ff _ _ _ _ _ Hu Hj Ev); auto; lia.
case=> us F ->; case en1: n1 => [|n2] //; rewrite at_mok_nf.
case en2: n2 => [|n3] //; rewrite at_tup => Ev.
have -> : v = flatten [:: v] by rewrite /= cats0.
apply: (fit_block (P := fun z s => exists2 a, z = Fdd a (Num xs) & a \in ps /\ at_ m rest a (Num xs) s)
                 (Q := fun z s => z = Fdd j y /\ s = v)) Ev.
- move=> _ _ s t B [a -> [Ha Hs]] [-> ->]; apply: mok_ff; auto; first by lia.
  exact: lift_num.
- have Hin : {subset ps <= ps} by [].
  suff H qs : {subset qs <= ps} -> Forall2 (fun p ui => at_ m rest p (Num xs) ui) qs us ->
      Forall2 (fun z s => exists2 a, z = Fdd a (Num xs) & a \in ps /\ at_ m rest a (Num xs) s)
        [seq Fdd p (Num xs) | p <- qs] us by apply: H.
  move=> {}Hin F'; elim: F' Hin => [|a b qs' us' Hab _ IH] Hin; first by constructor.
  constructor; last by apply: IH => // z Hz; apply: Hin; rewrite inE Hz orbT.
  by exists a => //; split=> //; apply: Hin; rewrite inE eqxx.
- by constructor.
Qed.

Lemma left_ind mu k0 : left_ok (DInd mu k0).
Proof.
start ed => j k x y M u v Pj [<-] ax ay [xs ex ->] Hj; rewrite at_zero // => -[<-].
have := E; rewrite ed => E'.
split=> /= [||_ sv]; first by rewrite size_map ex.
  exact: at_le (crosses_ext Er (Cr m)) Hj.
split=> [||i j0 li lj] /=; rewrite ?size_map ?ex //.
rewrite /vget (nth_map [::]); last by rewrite size_map in li.
by have := ind_null Va (nth [::] xs i) lt E' ((at_den _ _ _ _ ay).1 Hj) => /null_nth ->.
Qed.
Lemma left_user mu k0 lr : left_ok (DUser mu k0 lr).
Proof.
start ed => j k x y M u v Pj; case Ej: (lr j) => [k'|] //= [<-] ax ay [xs -> ->] Hj Ev.
have := E; rewrite ed => E'; apply: cm_fit; exact: (vd_user_left Va lt E' Pr Pj Ej Hj Ev).
Qed.
Lemma left_copy p : left_ok (DCopy p).
Proof.
start ed => j k x y M u v Pj; case Ek: (KA _ _ _ _) => [k'|] // [<-]; prep ed.
by apply: K1 Ek => //; apply: Pn'; rewrite inE.
Qed.
Lemma left_addc p c : left_ok (DAddC p c).
Proof.
start ed => j k x y M u v Pj; case Ek: (KA _ _ _ _) => [k'|] // [<-] ax ay; prep ed.
case=> a Ha -> Hb Ev; have Pp : P m p by apply: Pn'; rewrite inE.
apply: (fit_via (K1 Pp Pj Ek ax ay Ha Hb Ev)); rewrite ?size_map // => cmA.
apply: (cm_shiftl (s := fun=> c) cmA);
  rewrite ?size_map // => i li; by rewrite vget_map.
Qed.
Lemma left_addf p f : left_ok (DAddF p f).
Proof.
start ed => j k x y M u v Pj; case Ek: (KA _ _ _ _) => [k'|] // [<-] ax ay; prep ed.
case=> xs [a [ex Ha sa ->]] Hb Ev; have Pp : P m p by apply: Pn'; rewrite inE.
apply: (fit_via (K1 Pp Pj Ek ax ay Ha Hb Ev)); rewrite ?size_zipw // => cmA.
apply: (cm_shiftl cmA); rewrite ?size_zipw // => i li; exact: nth_addf.
Qed.
Lemma left_sum p q : left_ok (DSum p q).
Proof.
start ed => j k x y M u v Pj; case E1: (KA m rest p j) => [k1|] //=; rewrite ?eqxx.
case E2: (KA m rest q j) => [k2|] // [<-] ax ay; prep ed.
case=> a [b [Ha Hb sab ->]] Hj.
have Pp : P m p by apply: Pn'; rewrite !inE eqxx.
have Pq : P m q by apply: Pn'; rewrite !inE eqxx orbT.
case/(inv_add ax ay) => n1 [A1 [B1 [[e1] H1 H2 S]]].
have le : (n1 <= n)%N by lia.
have C1 := K le Pp Pj E1 ax ay Ha Hj H1; have C2 := K le Pq Pj E2 ax ay Hb Hj H2.
have [g1 g2 g3 g4] := dmap2_sh S.
apply: (fit_via C1); rewrite ?size_zipw // => cA; have [p1 p2 _] := cA.
have cB : covmat B1 b v by have [_ _] := C2; apply; rewrite -?sab -?g3 -?g4 ?g1 ?g2.
apply: (cm_add cA cB S); rewrite ?size_zipw // => i j0 li lj.
by rewrite nth_addv // covD.
Qed.
Lemma left_scale p c : left_ok (DScale p c).
Proof.
start ed => j k x y M u v Pj; case Ek: (KA _ _ _ _) => [k'|] // [<-] ax ay; prep ed.
case=> a Ha -> Hb; have Pp : P m p by apply: Pn'; rewrite inE.
rewrite at_scale //; case Ev: (evk _ _ _ _) => [A|] // [<-].
apply: (fit_via (K (leqnn n) Pp Pj Ek ax ay Ha Hb Ev)); rewrite ?size_map // => -[e1 e2 e3].
split=> [||i j0] /=; rewrite ?size_map // => li lj.
by rewrite !vget_map // covZ e3.
Qed.
Lemma left_fun p f : left_ok (DFun p f).
Proof.
start ed => j k x y M u v Pj; case Ek: (KA _ _ _ _) => [k'|] // [<-] ax ay; prep ed.
case=> fa [a [Fa Ha sa ->]] Hb.
have Pp : P m p by apply: Pn'; case: (f) => *; rewrite !inE ?eqxx.
have Pf m' q : f = FMean m' q -> P m q by move=> ef; apply: Pn'; rewrite ef !inE eqxx orbT.
rewrite at_mul //; case Et: (evk n (KTensor f FOnes) x y) => [T|] //=; case Ev: (evk n k' x y) => [A|] //=.
case: (inv_tensor ax ay Et) => n1 [ga [gb [e1 Ea Eb ->]]].
have le : (n1 <= n)%N by lia.
have eb : gb = nseq (ne y) 1 by case: (n1) Eb => // n2; rewrite at_fones => -[].
rewrite (fval I lt E Hm le ax Pf Ea Fa) eb => EM.
have [g1 g2 g3 g4] := dmap2_sh EM; move: EM.
move=> EM; apply: (fit_via (K (leqnn n) Pp Pj Ek ax ay Ha Hb Ev)); rewrite ?size_zipw //; try by rewrite -?g3 -?g4.
case=> c1 c2 c3; move: EM; rewrite /dmul /dmap2 /same_shape /= c1 c2 sa eqxx /= size_nseq.
case: eqP => // e [<-].
split=> [||i j0] /=; rewrite ?size_zipw ?sa // => li lj.
by rewrite !nth_scalev ?sa // covZ c3 // nth_nseq e lj mulr1.
Qed.
Lemma left_map p t t0 : left_ok (DMap p t t0).
Proof.
start ed => j k x y M u v Pj; case Ek: (KA _ _ _ _) => [k'|] // [<-] ax ay; prep ed.
case=> xs -> Ha Hb; have Pp : P m p by apply: Pn'; rewrite inE.
rewrite at_kmap //=; have := idmaps_ext E (Wi m); rewrite ed.
case: t0 ed => [f|] ed /=; last by move=> _ Ev; apply: (K (leqnn n) Pp Pj Ek _ _ Ha Hb Ev).
move=> Hf; case: y ay Hb => // ys ay Hb /=.
rewrite (eq_map Hf) map_id => Ev; apply: (K (leqnn n) Pp Pj Ek _ _ Ha Hb Ev) => //.
Qed.

Lemma own_all : own_ok d.
Proof.
case ed: d => [mu k|mu k lr|p|p c|p f|p q|p c|p f|p t t0|p dd|ps].
- exact: own_ind. - exact: own_user.
- exact: own_copy. - exact: own_addc. - exact: own_addf. - exact: own_sum. - exact: own_scale.
- exact: own_fun. - exact: own_map. - exact: own_diff. - exact: own_cross.
Qed.
Lemma left_all : left_ok d.
Proof.
case ed: d => [mu k|mu k lr|p|p c|p f|p q|p c|p f|p t t0|p dd|ps].
- exact: left_ind. - exact: left_user.
- exact: left_copy. - exact: left_addc. - exact: left_addf. - exact: left_sum. - exact: left_scale.
- exact: left_fun. - exact: left_map. - exact: left_diff. - exact: left_cross.
Qed.
End Add.

Lemma oka_add n r d rest : (forall n', (n' <= n)%N -> okk n') -> (forall n', (n' <= n)%N -> okm n') ->
  oka n.+1 rest -> oka n.+1 (HAdd r d rest).
Proof.
move=> Hk Hm IHh m p q k x y M u v lt E Pp Pq EK ax ay.
have Er := ext_tail E.
rewrite /=; move: (EK) => /=; case: (p =P r) => [ep|np]; case: (q =P r) => [eq|nq].
- subst p q => Ek Hu Hv; exact: (own_all lt E Hk Hm IHh Pp erefl).
- subst p; case: ifP => // _ Ek Hu Hv; exact: (left_all lt E Hk Hm IHh Pp erefl Pq Ek ax ay Hu Hv).
- subst q; case: ifP => // Hp; move=> Ek Hu Hv Ev.
  suff : [\/ exists2 k', k = KRev k' & KA m (HAdd r d rest) r p = Some k',
             (exists mu k0, d = DInd mu k0) /\ k = KZero |
             exists2 p', d = DCopy p' & KA m rest p p' = Some k].
    case=> [[k' e Ek']|[[mu [k0 ed]] e]|[p' ed Ek']].
    + subst k; move: Ev; rewrite at_rev //; case Ev: (evk n k' y x) => [A|] // [<-]; apply: fit_tr.
      apply: (Hk _ (leqnn n) _ _ _ _ _ _ _ _ _ _ lt E Pq Pp Ek' _ _ Ev); apply/at_den => //=.
        by rewrite eqxx.
      by case: eqP.
    + subst k; move: Ev; rewrite at_zero // => -[<-].
      rewrite -[dzero _ _ _]/(dtr (dzero R (ne y) (ne x))); apply: fit_tr.
      apply: (@left_all n m r d rest lt E Hk Hm IHh Pq erefl p KZero y x _ v u Pp _ ay ax Hv Hu).
        by rewrite ed.
      by rewrite at_zero.
    + move: Hv; rewrite ed /= => Hv.
      apply: (IHh _ _ _ _ _ _ _ _ _ lt Er Pp _ Ek' ax ay Hu Hv Ev).
      by apply: (vd_needs Va) lt E Pq _; rewrite ed inE.
  have gen : pint (onk m (fun a b => if a == r then pint (onk m (KA m rest)) (@noM R) (left_of m d b)
                                else KA m rest a b)) (@noM R) (let* a := rk R m r p in Ret (KRev a)) = Some k ->
      exists2 k', k = KRev k' & KA m (HAdd r d rest) r p = Some k'.
    rewrite /= /onk /onm !eqxx Hp; case: (p =P r) => // _.
    by case Ek': (pint _ _ _) => [k'|] // [<-]; exists k'.
  move: Ek; rewrite /right_of; case ed: d gen => [mu k0|mu k0 lr|p0|p0 c|p0 f|p0 q0|p0 c|p0 f|p0 t t0|p0 dd|ps] gen;
    try (by move/gen; constructor 1).
    by case=> <-; constructor 2; split=> //; exists mu, k0.
  rewrite /= /onk /onm eqxx; case: (p =P r) => // _; case Ek': (KA m rest p p0) => [k'|] // [<-].
  by constructor 3; exists p0.
- move=> EK' Hu Hv; exact: IHh lt Er Pp Pq EK' ax ay Hu Hv.
Qed.

Lemma oka_all n : (forall n', (n' <= n)%N -> okk n') -> (forall n', (n' <= n)%N -> okm n') -> forall h, oka n.+1 h.
Proof.
move=> Hk Hm; elim=> [|pm par IH o|r d rest IH] //; last exact: oka_add.
by apply: oka_post => //; apply: Hk.
Qed.

Lemma okk_step n : (forall n', (n' <= n)%N -> okk n') -> (forall n', (n' <= n)%N -> okm n') -> okk n.+1.
Proof.
move=> Hk Hm m h p q k x y M u v lt E Pp Pq Ek Hu Hv.
have Kn := Hk n (leqnn n) m h p q k; have at1 := @at_den m h.
case ax: (atom x); case ay: (atom y).
- by move=> Ev; apply: (oka_all Hk Hm lt E Pp Pq Ek ax ay _ _ Ev); apply/at_den.
- case: y ay Hv => // ys _ Hv; rewrite at_tupr // => Ev; apply: (Kn _ _ _ _ _ lt E Pp Pq Ek _ _ Ev) => //.
  exact: lift1.
- case: x ax Hu => // xs _ Hu; rewrite at_tupl // => Ev; apply: (Kn _ _ _ _ _ lt E Pp Pq Ek _ _ Ev) => //.
  exact: lift1.
case: x ax Hu => // xs _ Hu; case: y ay Hv => // ys _ Hv; rewrite at_tup.
case/lift_tup_inv: Hu => us Fu ->; case/lift_tup_inv: Hv => vs Fv ->.
apply: (fit_block (P := denotes m h p) (Q := denotes m h q)) => // x y u0 v0 B Hu Hv Ev.
exact: (Kn _ _ _ _ _ lt E Pp Pq Ek Hu Hv Ev).
Qed.

(* Means. *)
Definition okmh n h := forall m p mu x u (e : seq R), (m < nm)%N -> ext h (l m) -> P m p ->
  MA m h p = Some mu -> denotes m h p x u -> evm n mu x = Some e -> e = map Ex u.

Lemma okm_post n pm par o : okk n -> okm n -> okmh n.+1 par -> okmh n.+1 (HPost pm par o).
Proof.
move=> Hk Hm IHh m p mu x u e lt E Pp /=; case: ifP => // Hp.
have eb : base (l m) = Some (pm, par, o) by rewrite (ext_base E).
have [lp Ep _] := l_base (v_log I.1) lt eb; have ltp := ltn_trans lp lt.
have [Pp' Po] := vd_base Va lt eb Pp Hp.
have Po' := Po _ (mem_head _ _).
move=> Ek D0; have [u0 Du Fu] := lift_rel (fun _ _ H => H) D0.
move: Ek; rewrite /post_m; case Eo: (o_data o) => [d|].
  have Pd : P pm (d_p d) by apply: Po; rewrite /o_pids Eo !inE eqxx orbT.
  rewrite /post_m2 /= /onk /onM /onm !eqxx.
  case Emi: (MA pm par p) => [mi|] //=; case Emz: (MA pm par (o_p o)) => [mz|] //=.
  case Ekzi: (KA pm par (o_p o) p) => [kzi|] //=; case Ekzx: (KA pm par (o_p o) (d_p d)) => [kzx|] //=.
  case Ekz: (KA pm par (o_p o) (o_p o)) => [kz|] //=; case Ekx: (KA pm par (d_p d) (d_p d)) => [kx|] //=.
  case Emx: (MA pm par (d_p d)) => [mx|] //= [<-].
  rewrite at_msub; case Ei: (evm n mi x) => [vi|] //=.
  case Ez: (evk n kz _ _) => [K0|] //=; case EK: (dadd K0 _) => [K|] //=.
  rewrite /pseudo_mean /=; case Ezx: (evk n kzx _ _) => [C|] //=; case Exx: (evk n kx _ _) => [Kx|] //=.
  case Emxv: (evm n mx _) => [mxv|] //=; case Emzv: (evm n mz _) => [mzv|] //=.
  case Edif: (vmap2 _ (d_y d) mxv) => [dif|] //=; case Emu: (pseudo_mu _ _ _ _ _ _) => [mu'|] //=.
  case Epm: (vmap2 _ mzv mu') => [pv|] //=; case Edf: (vmap2 _ pv mzv) => [df|] //=.
  case Ezi: (evk n kzi _ _) => [B|] //=; case EQ: (iqf K B _) => [Q|] //=.
  case Ec: (col_seq Q) => [cs|] //= Ea.
  have vE := Hm _ _ _ _ _ _ _ ltp Ep Pp' Emi Du Ei.
  case/vmap2_nth: Ea; rewrite vE size_map => sc se He; have su := Forall2_size Fu.
  apply: ex_nth => [|i]; rewrite ?se -su // => li; rewrite He // nth_Ex //.
  have [dat H1 h1] := Forall2_nth (rone W) (rone W) Fu li; rewrite /vget h1.
  move: H1; rewrite /data Eo => -[nF [wz [wx [Hz Hx ->]]]].
  have [z1 z2] := okd_sq ltp Ep Po' Ekz Hz Ez; have [X1 _] := okd_sq ltp Ep Pd Ekx Hx Exx.
  have K1 : nr K = size wz by move: EK => /dmap2_sh [-> _ _ _].
  have [[q1 q2 q3 q4] [_ U HQ]] := iqf_ent EQ K1.
  have cz : covmat K0 wz wz by have [_ _] := Hk _ _ _ _ _ _ _ _ _ _ ltp Ep Po' Po' Ekz Hz Hz Ez; apply.
  have cc : nr C = size wz -> nc C = size wx -> covmat C wz wx.
    by move=> c1 c2; have [_ _] := Hk _ _ _ _ _ _ _ _ _ _ ltp Ep Po' Pd Ekzx Hz Hx Ezx; apply.
  have [B1 B2 B3] : covmat B wz u0.
    have [_ _] := Hk _ _ _ _ _ _ _ _ _ _ ltp Ep Po' Pp' Ekzi Hz Du Ezi; apply=> //.
    by rewrite -q3 -sc; move: Ec; rewrite /col_seq; case: eqP => // _ [<-]; rewrite size_mkseq.
  have mxE_ := Hm _ _ _ _ _ _ _ ltp Ep Pd Emx Hx Emxv.
  rewrite -[nth (rone W) u0 i]/(vget u0 i).
  rewrite (sub_mean I Va lt eb Eo nF Hz Hx Du cz EK cc X1 Emu (And3 B1 B2 B3) li); last first.
    move=> j lj; have [d1 d2 d3] := vmap2_nth Edif.
    by rewrite d3 -?d1 ?mxE_ ?size_map // nth_Ex.
  congr (_ + _).
  have ec : nth 0 cs i = ent Q i 0.
    by move: Ec; rewrite /col_seq; case: eqP => // _ [<-]; rewrite nth_mkseq // q3 B2.
  have [p1 p2 p3] := vmap2_nth Epm; have [p1' p2' p3'] := vmap2_nth Edf.
  have sm : size mu' = size wz by rewrite -[RHS]q2 /= p2' p2 p1.
  have r : (\col_(k < size wz) ent (dcol df) k 0) = \col_(k < size wz) nth 0 mu' k.
    apply/colP => s; have ls : (s < size mzv)%N by rewrite -p1 sm.
    by rewrite !mxE /= p3' ?p2 // p3 // addrC addKr.
  by rewrite ec HQ ?B2 // r.
rewrite /data /noise_of /values Eo in Fu; move: Po' => {}Po; rewrite /post_m1 => Ek.
have su := Forall2_size Fu.
move: Ek; case: eqP => [z0|_].
  rewrite /= /onk /onM /onm eqxx; case Ek: (MA pm par p) => [k'|] //= [<-] Ev.
  rewrite (IHh _ _ _ _ _ _ ltp Ep Pp' Ek Du Ev).
  apply: ex_nth; rewrite ?size_map // -su => i li; rewrite nth_Ex //.
  have [d1 H1 e1] := Forall2_nth (rone W) (rone W) Fu li.
  have n1 : d1 = [::] by apply: (lift_ne0 _ H1 z0) => ? ?; apply: at_ne0.
  by rewrite /vget e1 n1 (given_nil _ _ _).1.
rewrite /= /onk /onM /onm !eqxx.
case Emi: (MA pm par p) => [mi|] //=; case Emz: (MA pm par (o_p o)) => [mz|] //=.
case Ekzi: (KA pm par (o_p o) p) => [kzi|] //=.
case Ekz: (KA pm par (o_p o) (o_p o)) => [kz|] //= [<-].
rewrite at_mpost; case Ei: (evm n mi x) => [vi|] //=.
case Ez: (evk n kz _ _) => [K0|] //=; case EK: (dadd K0 _) => [K|] //=.
case Ezm: (evm n mz _) => [mzv|] //=; case Edif: (vmap2 _ _ _) => [dif|] //=.
case Ezi: (evk n kzi _ _) => [A|] //=; case EQ: (iqf K A _) => [Q|] //=.
case Ec: (col_seq Q) => [cs|] //= Ea.
have vE := Hm _ _ _ _ _ _ _ ltp Ep Pp' Emi Du Ei.
case/vmap2_nth: Ea; rewrite vE size_map => sc se He.
apply: ex_nth => [|i]; rewrite ?se -su // => li; rewrite He // nth_Ex //.
have [dat H1 h1] := Forall2_nth (rone W) (rone W) Fu li.
have KS s t := data_cov s t Hk lt eb Po H1 Ekz Ez EK.
have [K1 K2 _] := KS 0%N 0%N.
have [_ [_ U HQ]] := iqf_ent EQ K1.
have ES : mx_at K (size dat) (size dat) = gS (eps m) dat.
  by apply/matrixP => s t; rewrite !mxE; have [_ _ ->] := KS s t.
have [dE1 dE2 dE3] := vmap2_nth Edif.
have [[q1 q2 q3 q4] _] := iqf_ent EQ K1.
have [A1 A2 A3] : covmat A dat u0.
  have [_ _] := Hk _ _ _ _ _ _ _ _ _ _ ltp Ep Po Pp' Ekzi H1 Du Ezi; apply=> //.
  by rewrite -q3 -sc; move: Ec; rewrite /col_seq; case: eqP => // _ [<-]; rewrite size_mkseq.
have ec : nth 0 cs i = ent Q i 0.
  move: Ec; rewrite /col_seq; case: eqP => // _ [<-]; rewrite nth_mkseq // q3 A2 //.
rewrite /vget h1 given_Ex ec HQ ?A2 // -/(vget u0 i) -ES; congr (_ + (_ *m _ *m _) 0 0).
  by apply/rowP => s; rewrite !mxE A3 // (cross_cov I Va _ _ lt eb Du li).
apply/colP => s; rewrite !mxE /= dE3; last first.
  have : (s < size dif)%N by have := ltn_ord s; rewrite -[X in (_ < X)%N]q2.
  by rewrite dE2.
rewrite (Hm _ _ _ _ _ _ _ ltp Ep Po Emz H1 Ezm) nth_Ex // ExD.
by have [-> _] := vd_noise Va lt eb; rewrite addr0.
Qed.

Lemma okm_add n r d rest : (forall n', (n' <= n)%N -> okk n') -> (forall n', (n' <= n)%N -> okm n') ->
  okmh n.+1 rest -> okmh n.+1 (HAdd r d rest).
Proof.
move=> Hk Hm IHh m p mu x u e lt E Pp EM Du.
have Er := ext_tail E; have EM' := EM; move: EM => /=; case: (p =P r) => [ep|np]; last first.
  move=> Ek; apply: (IHh _ _ _ _ _ _ lt Er Pp Ek).
  by apply: lift_eq Du; apply: functional_extensionality => z /=; case: eqP.
subst p.
have {}Du : lift (equation D G m (at_ m rest) r d) x u.
  by apply: lift_eq Du; apply: functional_extensionality => z /=; rewrite eqxx.
have HM n' p mu' x' u' e' : (n' <= n)%N -> P m p -> MA m rest p = Some mu' -> denotes m rest p x' u' ->
    evm n' mu' x' = Some e' -> e' = map Ex u'.
  by move=> le Pq; apply: (Hm _ le) lt Er Pq.
have Pn q : q \in needs d -> P m q by apply: (vd_needs Va) lt E Pp.
case ed: d Du Pn E EM' => [mu0 k0|mu0 k0 lr|p0|p0 c|p0 f|p0 q0|p0 c|p0 f|p0 t t0|p0 dd|ps] Du Pn E EM'.
- case=> <-; apply: (vd_mean Va lt E Pp _); rewrite (full D G eps I lt E) ?inE ?eqxx //.
  by apply: lift_eq Du; apply: functional_extensionality => z /=; rewrite eqxx.
- case=> <-; apply: (vd_user_mean Va lt E Pp _); rewrite (full D G eps I lt E) ?inE ?eqxx //.
  by apply: lift_eq Du; apply: functional_extensionality => z /=; rewrite eqxx.
- rewrite /= /onM /onm eqxx; case Ek: (MA m rest p0) => [k'|] //= [<-].
  by apply: (IHh _ _ _ _ _ _ lt Er _ Ek Du); apply: Pn; rewrite inE.
- rewrite /= /onM /onm eqxx; case Ek: (MA m rest p0) => [k'|] //= [<-].
  have [a Da ->] := lift_map (fun _ _ H => H) Du.
  rewrite at_madd; case Ea: (evm n k' x) => [ea|] //=; case Eb: (evm n (MScale _ _) x) => [eb|] //= /vmap2_nth [s1 s2 He].
  have Pp0 : P m p0 by apply: Pn; rewrite inE.
  have ea' := HM _ _ _ _ _ _ (leqnn n) Pp0 Ek Da Ea.
  rewrite ea' size_map in s1 s2 He; apply: ex_nth; rewrite size_map // => i li.
  rewrite He // vget_map // ExD Ex_const nth_Ex //; congr (_ + _).
  case: (n) Eb => // n1; rewrite at_mscale; case: (n1) => // n2; rewrite at_mone => -[eb']; move: s1.
  by rewrite -eb' size_map size_nseq => s1; rewrite map_nseq nth_nseq s1 li mulr1.
- rewrite /= /onM /onm eqxx; case Ek: (MA m rest p0) => [k'|] //= [<-].
  rewrite at_madd; case Ea: (evm n k' x) => [ea|] //=; case Eb: (evm n (MFun _) x) => [eb|] //= /vmap2_nth [s1 s2 He].
  case: (n) Eb => // n1; rewrite at_mfun; case: (n1) => // n2; case: x Du Ea => // xs Du Ea [eb'].
  case/lift_num_inv: Du => ys [a [[<-] Da sa ->]].
  have Pp0 : P m p0 by apply: Pn; rewrite inE.
  have ea' := HM _ _ _ _ _ _ (leqnn n) Pp0 Ek (lift_num Da) Ea.
  rewrite ea' size_map in s1 s2 He; apply: ex_nth; rewrite size_zipw // => i li.
  by rewrite He // nth_addf // ExD Ex_const nth_Ex // -eb' (nth_map [::]) -?sa.
- rewrite /= /onM /onm eqxx; case Ek: (MA m rest p0) => [k'|] //=; rewrite ?eqxx.
  case Ek2: (MA m rest q0) => [k2|] //= [<-].
  have [a [b [Da Db sab ->]]] := lift_zip (fun _ _ H => H) Du.
  rewrite at_madd; case Ea: (evm n k' x) => [ea|] //=; case Eb: (evm n k2 x) => [eb|] //= /vmap2_nth [s1 s2 He].
  have Pp0 : P m p0 by apply: Pn; rewrite !inE eqxx.
  have Pq0 : P m q0 by apply: Pn; rewrite !inE eqxx orbT.
  have ea' := HM _ _ _ _ _ _ (leqnn n) Pp0 Ek Da Ea; have eb' := HM _ _ _ _ _ _ (leqnn n) Pq0 Ek2 Db Eb.
  rewrite ea' size_map in s1 s2 He; apply: ex_nth; rewrite size_zipw // => i li.
  by rewrite He // eb' !nth_Ex -?sab // nth_addv // ExD.
- rewrite /= /onM /onm eqxx; case Ek: (MA m rest p0) => [k'|] //= [<-].
  have [a Da ->] := lift_map (fun _ _ H => H) Du.
  rewrite at_mscale; case Ea: (evm n k' x) => [ea|] //= [<-].
  have Pp0 : P m p0 by apply: Pn; rewrite inE.
  rewrite (HM _ _ _ _ _ _ (leqnn n) Pp0 Ek Da Ea) -!map_comp; apply: eq_map => z /=; by rewrite ExZ.
- rewrite /= /onM /onm eqxx; case Ek: (MA m rest p0) => [k'|] //= [<-].
  have Pp0 : P m p0 by apply: Pn; case: (f) => *; rewrite !inE ?eqxx.
  rewrite at_mmul; case Ef: (evm n (MFun f) x) => [fa|] //=; case Ea: (evm n k' x) => [ea|] //= /vmap2_nth [s1 s2 He].
  have [fv [a [Da sa -> efa]]] : exists fv a, [/\ denotes m rest p0 x a, size fv = size a, u = zipw (@rscale _ W) fv a & fa = fv].
    case en: n Ef => [|n1] //; rewrite at_mfun; case en1: n1 => [|n2] // Ef.
    case: f ed Du Pn E EM' Ef => [g|//|m' q0] ed Du Pn E EM' Ef.
    + case: x Du Ea Ef => // xs Du Ea [<-].
      case/lift_num_inv: Du => fv [a [[ys [<-] ->] Da sa ->]].
      by exists (map g xs), a; split=> //; apply: lift_num.
    + by have := idmaps_ext E (Wi m).
    + have /= em := idmaps_ext E (Wi m); subst m'.
      have H x0 u0 : equation D G m (at_ m rest) r (DFun p0 (FMean m q0)) x0 u0 ->
          exists b a, [/\ at_ m rest q0 x0 b, at_ m rest p0 x0 a, size b = size a & u0 = zipw (fun s t => rscale (Ex s) t) b a].
        case=> fv [a [[_ [b Hb efv]] Ha sa ->]]; exists b, a; split=> //; first by rewrite -sa efv size_map.
        by rewrite efv zipw_mapl.
      have [b [a [Db Da sab eu]]] := lift_zip H Du.
      exists (map Ex b), a; rewrite size_map; split=> //.
        by rewrite eu zipw_mapl.
      move: Ef; rewrite at_fmean; case Es: (see_m w m q0) => [mu'|] //= Ev.
      have Pq0 : P m q0 by apply: Pn; rewrite !inE eqxx orbT.
      have Db' : denotes m (l m) q0 x b.
        by apply: lift_impl Db => x1 u1 H1; rewrite (at_ext _ _ _ _ Er (wf I lt) (at_pids H1)).
      apply: (Hm n2 _ m (l m) q0 mu' x b fa lt (ext_refl _) Pq0 _ Db' Ev); first by lia.
      by move: Es; rewrite see_m_log // lt.
  have ea' := HM _ _ _ _ _ _ (leqnn n) Pp0 Ek Da Ea.
  rewrite efa in s1 s2 He; apply: ex_nth; rewrite size_zipw // => i li.
  by rewrite He // ea' nth_Ex -?sa // nth_scalev // ExZ.
- rewrite /= /onM /onm eqxx; case Ek: (MA m rest p0) => [k'|] //= [<-].
  have Pp0 : P m p0 by apply: Pn; rewrite inE.
  rewrite at_mmap; case: x Du => // xs /lift_num_inv [ys [<-] Da].
  by apply: (HM _ _ _ _ _ _ (leqnn n) Pp0 Ek); apply: lift_num.
- rewrite /= /onM /onm eqxx; case Ek: (MA m rest p0) => [k'|] //= [<-].
  have Pp0 : P m p0 by apply: Pn; rewrite inE.
  case: x Du => // xs /lift_num_inv [ys [F [dF [[<-] HF [de _] ->]]]].
  rewrite at_mdiff; case: ifP => // Hall [<-]; rewrite -map_comp.
  case: xs Hall => [|x1 xs] //; move=> /andP [R1 _].
  have C1 a : head0 (evm n k' (Num [:: a])) = Ex (F a).
    have := evm_shape (see_k w) (see_m w) D n k' (erefl : skel (Num [:: a]) = skel (Num [:: x1])).
    move: R1; case: (evm _ _ (Num [:: x1])) => // B _; case e1: (evm _ _ _) => [A|] // _.
    by rewrite (HM _ _ _ _ _ _ (leqnn n) Pp0 Ek (lift_num (HF a)) e1).
  apply: eq_map => a; rewrite /= de; congr (D _ _ _).
  by apply: functional_extensionality => b; rewrite C1.
- case=> emu; subst mu.
  have ips a : a \in ps -> a \in pids rest by move=> Ha; apply: (Hargs lt E).
  case: x Du => [xs|a x|xs] Du.
  + case/lift_num_inv: Du => us F ->; rewrite at_mom_n.
    apply: (Hm _ (leqnn n) _ _ _ _ _ _ _ lt E Pp EM').
    exact: (cross_tup r erefl F erefl).
  + case/lift_fdd_inv: Du => Ha Da; rewrite at_mom_f; case Es: (see_m w m a) => [mu'|] //= Ev.
    have Pa := Pn a Ha.
    exact: (HM _ _ _ _ _ _ (leqnn n) Pa (read_m I lt Er Es (ips a Ha)) Da Ev).
  + case/lift_tup_inv: Du => us F ->; rewrite at_mom_t; apply: mean_cat.
    elim: F => [|x u0 xs' us' H F IH]; constructor => // e0.
    apply: (Hm _ (leqnn n) _ _ _ _ _ _ _ lt E Pp EM').
    by apply: lift_eq H; apply: functional_extensionality => z /=; rewrite eqxx.
Qed.

Theorem sound n : okk n /\ okm n.
Proof.
elim/ltn_ind: n => -[|n] IH; first by split.
have Hk n' : (n' <= n)%N -> okk n' by move=> le; case: (IH n' le).
have Hm n' : (n' <= n)%N -> okm n' by move=> le; case: (IH n' le).
split; first exact: okk_step.
move=> m h; elim: h m => [|pm par IHh o|r d rest IHh] m p mu x u e //.
  by apply: okm_post => //; [exact: Hk | exact: Hm].
exact: okm_add.
Qed.

Theorem exact_k n m p q x y M u v : (m < nm)%N -> P m p -> P m q ->
  kernel_at D n w m p q x y = Some M -> denotes m (l m) p x u -> denotes m (l m) q y v -> fit M u v.
Proof.
move=> lt Pp Pq; rewrite /kernel_at; case Es: (see_k w m p q) => [k|] //= Ev Hu Hv.
have [H _] := sound n; apply: (H _ _ _ _ _ _ _ _ _ _ lt (ext_refl _) Pp Pq _ Hu Hv Ev).
by move: Es; rewrite see_k_log // lt.
Qed.
Theorem exact_d n m p x M u : (m < nm)%N -> P m p ->
  kernel_at D n w m p p x x = Some M -> denotes m (l m) p x u -> covmat M u u.
Proof.
move=> lt Pp Ev Hu; have [_ _] := exact_k lt Pp Pp Ev Hu Hu; move: Ev.
rewrite /kernel_at; case Es: (see_k w m p p) => [k|] //= Ev H.
have [|e1 e2] := okd_sq lt (ext_refl _) Pp _ Hu Ev; last exact: H.
by move: Es; rewrite see_k_log // lt.
Qed.
Theorem exact_m n m p x e u : (m < nm)%N -> P m p ->
  mean_at D n w m p x = Some e -> denotes m (l m) p x u -> e = map Ex u.
Proof.
move=> lt Pp; rewrite /mean_at; case Es: (see_m w m p) => [mu|] //= Ev Hu.
have [_ H] := sound n; apply: (H _ _ _ _ _ _ _ lt (ext_refl _) Pp _ Hu Ev).
by move: Es; rewrite see_m_log // lt.
Qed.
End Exact.
