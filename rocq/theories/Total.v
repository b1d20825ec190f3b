(* Evaluations succeed. *)
From Coq Require Import List.
From mathcomp Require Import all_ssreflect all_algebra.
From mathcomp Require Import zify.
From Verif Require Import Graph Machine Refine Worlds Eval GraphSpec GraphProofs GraphOps RV RVProofs Sound Typing ModelSpec Plain ProdSpec ProdLogs PseudoSpec PseudoGraph TotalSpec TotalLogs.
Set Implicit Arguments. Unset Strict Implicit. Unset Printing Implicit Defensive.
Import GRing.Theory Num.Theory.
Local Open Scope ring_scope.

Section Total.
Variable R : fieldType.
Variable D : nat -> (point R -> R) -> point R -> R.
Variable w : world R.
Hypothesis I : winv w.
Notation input := (input R). Notation hist := (hist R). Notation kexp := (kexp R). Notation mexp := (mexp R).
Notation dmat := (dmat R).
Notation evk := (evk (see_k w) (see_m w) D). Notation evm := (evm (see_k w) (see_m w) D).
Notation evf := (evf (see_k w) (see_m w) D).
Notation nm := (w_nm w). Notation l := (w_log w).
Notation width := (@width R true). Notation widths := (@widths R true).
Implicit Types (h : hist) (x y : input) (k : kexp) (mu : mexp) (M : dmat).

Lemma uniform (A : Type) (P : nat -> A -> Prop) (s : seq A) :
  (forall n n' a, (n <= n')%N -> P n a -> P n' a) ->
  (forall a, In a s -> exists n, P n a) -> exists n, forall a, In a s -> P n a.
Proof.
move=> mono; elim: s => [|a s IH] H; first by exists 0%N.
have [n1 H1] := H a (or_introl erefl).
have [n2 H2] := IH (fun b Hb => H b (or_intror Hb)).
exists (maxn n1 n2) => b [<-|Hb]; first by apply: mono H1; apply: leq_maxl.
by apply: mono (H2 _ Hb); apply: leq_maxr.
Qed.

(* [k] evaluates at [x] and [y], to a matrix of size [a, b]. *)
Definition gives k x y a b := exists n M, [/\ evk n k x y = Some M, nr M = a & nc M = b].
Definition givm mu x a := exists n e, evm n mu x = Some e /\ size e = a.

Lemma gives_all k k' x y x' y' a b a' b' : gives k x y a b -> gives k' x' y' a' b' ->
  exists n M M', [/\ evk n k x y = Some M, evk n k' x' y' = Some M', nr M = a, nc M = b & nr M' = a' /\ nc M' = b'].
Proof.
case=> n [M [e1 e2 e3]] [n' [M' [e1' e2' e3']]]; exists (maxn n n'), M, M'; split=> //.
  by apply: evk_fuel e1; apply: leq_maxl.
by apply: evk_fuel e1'; apply: leq_maxr.
Qed.
Lemma givm_all mu mu' x x' a a' : givm mu x a -> givm mu' x' a' ->
  exists n e e', [/\ evm n mu x = Some e, evm n mu' x' = Some e', size e = a & size e' = a'].
Proof.
case=> n [M [e1 e2]] [n' [M' [e1' e2']]]; exists (maxn n n'), M, M'; split=> //.
  by apply: evm_fuel e1; apply: leq_maxl.
by apply: evm_fuel e1'; apply: leq_maxr.
Qed.

Section Tuples.
Variables (g : input -> option dmat) (f : input -> option nat).
Lemma hcat_total ys a b : (0 < size ys)%N ->
  (forall y c, In y ys -> wlift f y = Some c -> exists M, [/\ g y = Some M, nr M = a & nc M = c]) ->
  wlift f (Tup ys) = Some b -> exists M, [/\ ofold1 (@dhcat R) (map g ys) = Some M, nr M = a & nc M = b].
Proof.
elim: ys b => [|y [|y' ys] IH] b // _ H.
  rewrite -[wlift f _]/(obind2 (fun a b => Some (a + b)%N) (wlift f y) (Some 0%N)).
  case E: (wlift f y) => [c|] //= [<-]; rewrite addn0; exact: (H _ _ (or_introl erefl) E).
rewrite -[wlift f _]/(obind2 (fun a b => Some (a + b)%N) (wlift f y) (wlift f (Tup (y' :: ys)))).
case E: (wlift f y) => [c|] //; case E': (wlift f (Tup _)) => [c'|] // [<-].
have [M [e1 e2 e3]] := H _ _ (or_introl erefl) E.
have [//|M' [e1' e2' e3']] := IH _ _ (fun z d Hz => H z d (or_intror Hz)) E'.
rewrite -[ofold1 _ _]/(obind (fun a => obind (dhcat a) (ofold1 (@dhcat R) (map g (y' :: ys)))) (g y)) e1 e1' /= /dhcat e2 e2' eqxx.
by eexists; split; first reflexivity; rewrite //= e3 e3'.
Qed.
Lemma vcat_total xs a b : (0 < size xs)%N ->
  (forall x c, In x xs -> wlift f x = Some c -> exists M, [/\ g x = Some M, nr M = c & nc M = b]) ->
  wlift f (Tup xs) = Some a -> exists M, [/\ ofold1 (@dvcat R) (map g xs) = Some M, nr M = a & nc M = b].
Proof.
elim: xs a => [|y [|y' ys] IH] a // _ H.
  rewrite -[wlift f _]/(obind2 (fun a b => Some (a + b)%N) (wlift f y) (Some 0%N)).
  case E: (wlift f y) => [c|] //= [<-]; rewrite addn0; exact: (H _ _ (or_introl erefl) E).
rewrite -[wlift f _]/(obind2 (fun a b => Some (a + b)%N) (wlift f y) (wlift f (Tup (y' :: ys)))).
case E: (wlift f y) => [c|] //; case E': (wlift f (Tup _)) => [c'|] // [<-].
have [M [e1 e2 e3]] := H _ _ (or_introl erefl) E.
have [//|M' [e1' e2' e3']] := IH _ _ (fun z d Hz => H z d (or_intror Hz)) E'.
rewrite -[ofold1 _ _]/(obind (fun a => obind (dvcat a) (ofold1 (@dvcat R) (map g (y' :: ys)))) (g y)) e1 e1' /= /dvcat e3 e3' eqxx.
by eexists; split; first reflexivity; rewrite //= e2 e2'.
Qed.
Lemma wlift_in ys b y : wlift f (Tup ys) = Some b -> In y ys -> exists c, wlift f y = Some c.
Proof.
elim: ys b => [|z ys IH] b //.
rewrite -[wlift f _]/(obind2 (fun a b => Some (a + b)%N) (wlift f z) (wlift f (Tup ys))).
case E: (wlift f z) => [c|] //; case E': (wlift f (Tup _)) => [c'|] // _ [<-|]; first by exists c.
exact: (IH _ E').
Qed.
End Tuples.

Fixpoint tdep (x : input) : nat := if x is Tup xs then (foldr maxn 0%N (map tdep xs)).+1 else 0%N.
Lemma tdep_in xs x : In x xs -> (tdep x < tdep (Tup xs))%N.
Proof. by rewrite [tdep (Tup xs)]/=; elim: xs => [|a xs IH] //= [<-|/IH]; lia. Qed.
Lemma filled_in (xs : seq input) x : filled (Tup xs) -> In x xs -> filled x.
Proof. by case/andP => _; elim: xs => [|a xs IH] //= /andP [Ha Hx] [<-//|]; apply: IH. Qed.
Lemma filled_size (xs : seq input) : filled (Tup xs) -> (0 < size xs)%N.
Proof. by case/andP. Qed.

Lemma gives_block k (f g : input -> option nat) xs ys a b :
  (0 < size xs)%N -> (0 < size ys)%N ->
  (forall x y c d, In x xs -> In y ys -> wlift f x = Some c -> wlift g y = Some d -> gives k x y c d) ->
  wlift f (Tup xs) = Some a -> wlift g (Tup ys) = Some b -> gives k (Tup xs) (Tup ys) a b.
Proof.
move=> sx sy H Ha Hb.
pose P n x y := forall c d, wlift f x = Some c -> wlift g y = Some d ->
  exists M, [/\ evk n k x y = Some M, nr M = c & nc M = d].
have Pm n n' x y : (n <= n')%N -> P n x y -> P n' x y.
  by move=> le Hp c d e1 e2; have [M [e3 e4 e5]] := Hp _ _ e1 e2; exists M; split=> //; apply: evk_fuel e3.
have [n Hn] : exists n, forall x, In x xs -> forall y, In y ys -> P n x y.
  apply: (@uniform _ (fun n x => forall y, In y ys -> P n x y)) => [n n' x le Hp y Hy|x Hx].
    by apply: (Pm n) => //; apply: Hp.
  apply: (@uniform _ (fun n y => P n x y)) => [n n' y le|y Hy]; first exact: Pm.
  have [c Ec] := wlift_in Ha Hx; have [d Ed] := wlift_in Hb Hy.
  have [n [M [e1 e2 e3]]] := H _ _ _ _ Hx Hy Ec Ed.
  by exists n => c' d'; rewrite Ec Ed => -[<-] [<-]; exists M.
have [M [e1 e2 e3]] := @vcat_total (fun x => ofold1 (@dhcat R) [seq evk n k x y | y <- ys]) f xs a b sx
  (fun x c Hx Ec => hcat_total sy (fun y d Hy Ed => Hn x Hx y Hy c d Ec Ed) Hb) Ha.
exists n.+1, M; split=> //; rewrite -e1 -[LHS]/(dblock [seq [seq evk n k x y | y <- ys] | x <- xs]) /dblock -map_comp.
by [].
Qed.

Lemma gives_lift k (f g : input -> option nat) :
  (forall x y a b, atom x -> atom y -> filled x -> filled y -> f x = Some a -> g y = Some b -> gives k x y a b) ->
  forall x y a b, filled x -> filled y -> wlift f x = Some a -> wlift g y = Some b -> gives k x y a b.
Proof.
move=> H x y; have [n] := ubnP (tdep x + tdep y)%N.
elim: n x y => // n IH x y Hn a b Fx Fy Ha Hb.
have B xs ys : (forall x', In x' xs -> filled x' /\ (tdep x' <= tdep x)%N) ->
    (forall y', In y' ys -> filled y' /\ (tdep y' <= tdep y)%N) ->
    (forall x' y', In x' xs -> In y' ys -> (tdep x' + tdep y' < tdep x + tdep y)%N) ->
    (0 < size xs)%N -> (0 < size ys)%N ->
    wlift f (Tup xs) = Some a -> wlift g (Tup ys) = Some b -> gives k (Tup xs) (Tup ys) a b.
  move=> Hx Hy Hxy sx sy; apply: gives_block => // x' y' c d Ix Iy; apply: IH.
  - by have := Hxy _ _ Ix Iy; lia.
  - by case: (Hx _ Ix).
  - by case: (Hy _ Iy).
have S z f' c : wlift f' z = Some c -> wlift f' (Tup [:: z]) = Some c.
  rewrite -[wlift f' (Tup _)]/(obind2 (fun a b => Some (a + b)%N) (wlift f' z) (Some 0%N)) => -> /=.
  by rewrite addn0.
case tx: (atom x); case ty: (atom y).
- by apply: H => //; [case: (x) tx Ha | case: (y) ty Hb].
- have [n' [M [e1 e2 e3]]] : gives k (Tup [:: x]) y a b.
    case: y ty {IH} Hn Fy Hb B => // ys _ Hn Fy Hb B; apply: B => //.
    + by move=> x' [<-|//].
    + by move=> y' Iy; split; [apply: filled_in Iy | apply: ltnW; apply: tdep_in].
    + by move=> x' y' [<-|//] Iy; rewrite ltn_add2l; apply: tdep_in.
    + exact: filled_size Fy.
    + exact: S.
  by exists n'.+1, M; split=> //; case: (x) (y) tx ty e1 => [xs|p x'|xs] [ys|q y'|ys].
- have [n' [M [e1 e2 e3]]] : gives k x (Tup [:: y]) a b.
    case: x tx {IH} Hn Fx Ha B => // xs _ Hn Fx Ha B; apply: B => //.
    + by move=> x' Ix; split; [apply: filled_in Ix | apply: ltnW; apply: tdep_in].
    + by move=> y' [<-|//].
    + by move=> x' y' Ix [<-|//]; rewrite ltn_add2r; apply: tdep_in.
    + exact: filled_size Fx.
    + exact: S.
  by exists n'.+1, M; split=> //; case: (x) (y) tx ty e1 => [xs|p x'|xs] [ys|q y'|ys].
- case: x y tx ty {IH} Hn Fx Fy Ha Hb B => // xs [] // ys _ _ Hn Fx Fy Ha Hb B; apply: B => //.
  + by move=> x' Ix; split; [apply: filled_in Ix | apply: ltnW; apply: tdep_in].
  + by move=> y' Iy; split; [apply: filled_in Iy | apply: ltnW; apply: tdep_in].
  + by move=> x0 y0 /tdep_in H1 /tdep_in H2; lia.
  + exact: filled_size Fx.
  + exact: filled_size Fy.
Qed.

(* Histories. *)
Variable Pr : pid -> pid -> Prop.   (* the products *)
Notation tot := (tot D Pr).
Hypothesis To : forall m, tot m (l m).
Hypothesis Fa : forall m p q, (m < nm)%N -> Pr p q -> p \in pids (l m) -> q \in pids (l m) ->
  width (l m) p (Num [:: [::]]) = Some 1%N /\ width (l m) q (Num [:: [::]]) = Some 1%N.
Hypothesis U : forall m pm par o, (m < nm)%N -> base (l m) = Some (pm, par, o) ->
  if o_data o is Some d then usable_pseudo D w pm o d else usable D w pm o.

Lemma width_pids h p x a : width h p x = Some a -> p \in pids h.
Proof.
elim: h p x a => [|pm par IH o|r d rest IH] p x a //=; first by case: ifP => // _; apply: IH.
by rewrite inE; case: eqP => // _ /IH.
Qed.
Lemma width_ext h h' p x : ext h h' -> wfh h' -> p \in pids h -> width h' p x = width h p x.
Proof.
move=> E; elim: E => // r d h2 E IH /= /and3P [rn _ W] Hp.
case: eqP => [e|_]; last exact: IH.
by case/negP: rn; rewrite -e; apply: (ext_pids E).
Qed.
Lemma wlift_eq (f g : input -> option nat) x : f =1 g -> wlift f x = wlift g x.
Proof.
move=> e; elim/input_ind': x => [xs|p x _|xs IH]; try exact: e.
elim: xs IH => // x xs IHx IH.
rewrite -[wlift f _]/(obind2 (fun a b => Some (a + b)%N) (wlift f x) (wlift f (Tup xs))).
rewrite -[wlift g _]/(obind2 (fun a b => Some (a + b)%N) (wlift g x) (wlift g (Tup xs))).
by rewrite IH ?IHx //=; [move=> z Hz; apply: IH; right | left].
Qed.
Lemma wlift_atom (f : input -> option nat) x a : filled x -> wlift f x = Some a ->
  exists x0 a0, [/\ atom x0, filled x0 & f x0 = Some a0].
Proof.
elim/input_ind': x a => [xs|p x _|xs IH] a; [by exists (Num xs), a | by exists (Fdd p x), a |].
case: xs IH => // x xs IH /andP [_ /= /andP [Fx _]].
case E: (wlift f x) => [c|] // _; exact: (IH x (or_introl erefl) c Fx E).
Qed.
Lemma widths_pids h p x a : filled x -> widths h p x = Some a -> p \in pids h.
Proof. by move=> F H; have [x0 [a0 [_ _ /width_pids]]] := wlift_atom F H. Qed.
Lemma crossfree_width h q y b : crossfree h q -> width h q y = Some b ->
  exists2 ys, y = Num ys & b = size ys.
Proof.
elim: h q y b => [|pm par IH o|r d rest IH] q y b //=.
  by case: ifP => // _; apply: IH.
case: eqP => [_|_]; last exact: IH.
case: d => [mu k|mu k lr|p|p c|p f|p p'|p c|p f|p t t0|p dd|ps] //= H.
- by case: y => // ys [<-]; exists ys.
- by case: y => // ys [<-]; exists ys.
- by apply: IH; case/andP: H.
- by apply: IH; case/andP: H.
- by case: y => // ys; case: ifP => // _ [<-]; exists ys.
- by case/and3P: H => H1 _ _; case: ifP => // _; apply: IH.
- by apply: IH; case/andP: H.
- case: f H => [g|//|m' q'] /= /andP [H1 _].
    by case: y => // ys; case: ifP => // _ [<-]; exists ys.
  by case: ifP => // _; apply: IH.
- case: y => // ys; case/andP: H => H1 _ /(IH _ _ _ H1) [zs [e] ->].
  by exists ys => //; rewrite -e size_map.
- by case: y => // ys; case: ifP => // _ [<-]; exists ys.
Qed.

(* Kernels. *)
Definition katom h m := forall p q x y a b, atom x -> atom y -> filled x -> filled y ->
  width h p x = Some a -> width h q y = Some b -> exists2 k, KA m h p q = Some k & gives k x y a b.
Definition kinput h m := forall p q x y a b, filled x -> filled y ->
  widths h p x = Some a -> widths h q y = Some b -> exists2 k, KA m h p q = Some k & gives k x y a b.
Lemma katom_input h m : katom h m -> kinput h m.
Proof.
move=> H p q x y a b Fx Fy Ha Hb.
have [x0 [a0 [Ax0 Fx0 E0]]] := wlift_atom Fx Ha.
have [y0 [b0 [Ay0 Fy0 E1]]] := wlift_atom Fy Hb.
have [k Ek _] := H p q x0 y0 a0 b0 Ax0 Ay0 Fx0 Fy0 E0 E1.
exists k => //; move: x y a b Fx Fy Ha Hb {x0 a0 Ax0 Fx0 E0 y0 b0 Ay0 Fy0 E1}; apply: gives_lift => x y a b Ax Ay Fx Fy Ha Hb.
by have [k' Ek' Hk] := H p q x y a b Ax Ay Fx Fy Ha Hb; move: Ek'; rewrite Ek => -[->].
Qed.

Lemma gives_map2 op k1 k2 x y a b (C : kexp) :
  (forall n, evk n.+1 C x y = obind2 (dmap2 op) (evk n k1 x y) (evk n k2 x y)) ->
  gives k1 x y a b -> gives k2 x y a b -> gives C x y a b.
Proof.
move=> E H1 H2; have [n [M [M' [e1 e2 e3 e4 [e5 e6]]]]] := gives_all H1 H2.
by exists n.+1; rewrite E e1 e2 /= /dmap2 /same_shape e3 e4 e5 e6 !eqxx; eexists; split; [reflexivity|..].
Qed.
Lemma gives_add k1 k2 x y a b : atom x -> atom y -> gives k1 x y a b -> gives k2 x y a b -> gives (KAdd k1 k2) x y a b.
Proof. by move=> Ax Ay; apply: gives_map2 => n; case: x y Ax Ay => [xs|p x|//] [ys|q y|]. Qed.
Lemma gives_mul k1 k2 x y a b : atom x -> atom y -> gives k1 x y a b -> gives k2 x y a b -> gives (KMul k1 k2) x y a b.
Proof. by move=> Ax Ay; apply: gives_map2 => n; case: x y Ax Ay => [xs|p x|//] [ys|q y|]. Qed.
Lemma gives_scale c k x y a b : atom x -> atom y -> gives k x y a b -> gives (KScale c k) x y a b.
Proof.
move=> Ax Ay [n [M [e1 e2 e3]]]; exists n.+1, (dscale c M); split=> //.
have -> : evk n.+1 (KScale c k) x y = omap (dscale c) (evk n k x y).
  by case: x y Ax Ay {e1} => [xs|p x|//] [ys|q y|].
by rewrite e1.
Qed.
Lemma gives_rev k x y a b : atom x -> atom y -> gives k y x b a -> gives (KRev k) x y a b.
Proof.
move=> Ax Ay [n [M [e1 e2 e3]]]; exists n.+1, (dtr M); split=> //.
have -> : evk n.+1 (KRev k) x y = omap (@dtr R) (evk n k y x).
  by case: x y Ax Ay {e1} => [xs|p x|//] [ys|q y|].
by rewrite e1.
Qed.
Lemma gives_zero x y a b : atom x -> atom y -> ne x = a -> ne y = b -> gives KZero x y a b.
Proof.
move=> Ax Ay <- <-; exists 1%N, (dzero R (ne x) (ne y)); split=> //.
by case: x y Ax Ay => [xs|p x|//] [ys|q y|].
Qed.
Lemma gives_tensor f xs ys : gives (KTensor (FUser f) (FUser f)) (Num xs) (Num ys) (size xs) (size ys).
Proof. by exists 2%N; eexists; split; [reflexivity | rewrite /= size_map..]. Qed.
Lemma gives_tensor1 f xs ys : gives (KTensor (FUser f) (@FOnes R)) (Num xs) (Num ys) (size xs) (size ys).
Proof. by exists 2%N; eexists; split; [reflexivity | rewrite /= ?size_map ?size_nseq..]. Qed.
Lemma gives_imap t1 t2 k x y x' y' a b : atom x -> atom y -> imap t1 x = Some x' -> imap t2 y = Some y' ->
  gives k x' y' a b -> gives (KMap t1 t2 k) x y a b.
Proof.
move=> Ax Ay Ex Ey [n [M [e1 e2 e3]]]; exists n.+1, M; split=> //.
have -> : evk n.+1 (KMap t1 t2 k) x y = obind2 (evk n k) (imap t1 x) (imap t2 y).
  by case: x y Ax Ay {Ex Ey} => [xs|p x|//] [ys|q y|].
by rewrite Ex Ey.
Qed.
Lemma shape_eq n k x y x' y' : skel x = skel x' -> skel y = skel y' -> dims (evk n k x y) = dims (evk n k x' y').
Proof.
by move=> ex ey; have [H _] := eval_shape (see_k w) (see_m w) D n; rewrite H [RHS]H ex ey.
Qed.
(* Evaluation at single points takes the same bound everywhere. *)
Lemma gives_diff2 d1 d2 k xs ys : (0 < size xs)%N -> (0 < size ys)%N ->
  gives k (Num [:: [::]]) (Num [:: [::]]) 1 1 -> gives (KDiff (Some d1) (Some d2) k) (Num xs) (Num ys) (size xs) (size ys).
Proof.
case: xs => // x xs; case: ys => // y ys _ _ [n [M [e1 e2 e3]]].
have S s t : is_shape 1 1 (evk n k (Num [:: s]) (Num [:: t])).
  have -> : is_shape 1 1 (evk n k (Num [:: s]) (Num [:: t])) = is_shape 1 1 (Some M).
    by apply: is_shape_dims; rewrite -e1; apply: shape_eq.
  by rewrite /= e2 e3.
have := dims_diff2 (see_k w) (see_m w) D n d1 d2 k x xs y ys; cbv zeta.
rewrite (_ : all _ _ = true); last by apply/allP => s _; apply/allP => t _; apply: S.
by case E: (evk n.+1 _ _ _) => [M'|] // [e4 e5]; exists n.+1, M'.
Qed.
Lemma gives_diff1 d1 k xs ys : (0 < size xs)%N -> (0 < size ys)%N ->
  gives k (Num [:: [::]]) (Num ys) 1 (size ys) -> gives (KDiff (Some d1) None k) (Num xs) (Num ys) (size xs) (size ys).
Proof.
case: xs => // x xs; case: ys => // y ys _ _ [n [M [e1 e2 e3]]].
have S s : is_row (size (y :: ys)) (evk n k (Num [:: s]) (Num (y :: ys))).
  have -> : is_row (size (y :: ys)) (evk n k (Num [:: s]) (Num (y :: ys))) = is_row (size (y :: ys)) (Some M).
    by apply: is_shape_dims; rewrite -e1; apply: shape_eq.
  by rewrite /= e2 e3 !eqxx.
have := dims_diff1 (see_k w) (see_m w) D n d1 k x xs y ys; cbv zeta.
rewrite (_ : all _ _ = true); last by apply/allP => s _; apply: S.
by case E: (evk n.+1 _ _ _) => [M'|] // [e4 e5]; exists n.+1, M'.
Qed.

(* Cartesian products. *)
Section Mok.
Variables (m : mid) (ps : seq pid) (rest : hist).
Hypotheses (lt : (m < nm)%N) (E : ext rest (l m)) (IH : kinput rest m).
Hypothesis Hps : {subset ps <= pids rest}.
Lemma wfm : wfh (l m). Proof. exact: (l_wf (v_log I.1)). Qed.
Definition fw x := if x is Fdd a x' then widths rest a x' else None.
Lemma mok_lift x y a b : filled x -> filled y -> wlift fw x = Some a -> wlift fw y = Some b ->
  gives (@KMok R m ps) x y a b.
Proof.
apply: gives_lift => {x y a b} x y a b Ax Ay Fx Fy.
case: x Ax Fx => [//|p x|//] _ /= Fx; case: y Ay Fy => [//|q y|//] _ /= Fy Ha Hb.
have [k Ek [n [M [e1 e2 e3]]]] := IH Fx Fy Ha Hb.
exists n.+1, M; split=> //; rewrite -e1.
have -> : evk n.+1 (@KMok R m ps) (Fdd p x) (Fdd q y) = obind (fun k' => evk n k' x y) (see_k w m p q) by [].
rewrite see_k_log // lt.
have [-> _] := KA_ext m E wfm (fun _ => widths_pids Fx Ha) (fun _ => widths_pids Fy Hb).
by rewrite Ek.
Qed.
Definition crossw x := if x is Num _ then wsum (fun q => width rest q x) ps else fw x.
Definition crossi x := if x is Num _ then Tup [seq Fdd p x | p <- ps] else Tup [:: x].
Hypothesis ps0 : (0 < size ps)%N.
Lemma crossi_filled x : atom x -> filled x -> filled (crossi x).
Proof.
case: x => [xs|p x|//] _ Fx; rewrite /= ?andbT // size_map ps0 /=.
by rewrite all_map (eq_all (a2 := predT)) ?all_predT.
Qed.
Lemma crossi_width x a : atom x -> crossw x = Some a -> wlift fw (crossi x) = Some a.
Proof.
case: x => [xs|p x|//] _.
  rewrite /crossw /crossi => <-; elim: ps => // p ps' IHp.
  rewrite -[LHS]/(obind2 (fun a b => Some (a + b)%N) (width rest p (Num xs)) (wlift fw (Tup [seq Fdd p (Num xs) | p <- ps']))).
  by rewrite IHp.
rewrite /crossw /crossi => Ha.
rewrite -[LHS]/(obind2 (fun a b => Some (a + b)%N) (fw (Fdd p x)) (Some 0%N)).
by rewrite Ha /= addn0.
Qed.
Lemma gives_mok x y a b : atom x -> atom y -> filled x -> filled y -> crossw x = Some a -> crossw y = Some b ->
  gives (@KMok R m ps) x y a b.
Proof.
move=> Ax Ay Fx Fy Ha Hb.
case A: (if x is Fdd _ _ then if y is Fdd _ _ then true else false else false).
  by case: x y A Ax Ay Fx Fy Ha Hb => // p x [] // q y _ _ _ Fx Fy Ha Hb; apply: mok_lift.
have [n [M [e1 e2 e3]]] := mok_lift (crossi_filled Ax Fx) (crossi_filled Ay Fy) (crossi_width Ax Ha) (crossi_width Ay Hb).
by exists n.+1, M; split=> //; rewrite -e1; case: x y A Ax Ay {Fx Fy Ha Hb e1} => [xs|p x|//] [ys|q y|].
Qed.
End Mok.

(* Conditioning. *)
Lemma iqf_total (K A B : dmat) c a b : nr K = c -> nc K = c -> nr A = c -> nc A = a -> nr B = c -> nc B = b ->
  mx_at K c c \in unitmx -> exists M, [/\ iqf K A B = Some M, nr M = a & nc M = b].
Proof.
move=> <- e1 e2 <- e3 <- Hu; rewrite /iqf e1 e2 e3 !eqxx Hu /=.
by eexists; split; [reflexivity | reflexivity | reflexivity].
Qed.
Lemma noisy_total (K N : dmat) c : nr K = c -> nc K = c -> nr N = c -> nc N = c ->
  exists K', [/\ dadd K N = Some K', nr K' = c, nc K' = c & mx_at K' c c = mx_at K c c + mx_at N c c].
Proof.
move=> e1 e2 e3 e4; rewrite /dadd /dmap2 /same_shape e1 e2 e3 e4 !eqxx.
by eexists; split; [reflexivity | by [] | by [] | apply/matrixP => i j; rewrite !mxE].
Qed.
Lemma gives_post kij kzi kzj kz z N x y a b c : atom x -> atom y ->
  gives kij x y a b -> gives kzi z x c a -> gives kzj z y c b -> gives kz z z c c -> nr N = c -> nc N = c ->
  (forall n K, evk n kz z z = Some K -> mx_at K c c + mx_at N c c \in unitmx) ->
  gives (KPost kij kzi kzj kz z N) x y a b.
Proof.
move=> Ax Ay [n1 [M1 [a1 b1 c1]]] [n2 [M2 [a2 b2 c2]]] [n3 [M3 [a3 b3 c3]]] [n4 [M4 [a4 b4 c4]]] r1 r2 Hu.
have [K [k1 k2 k3 k4]] := noisy_total b4 c4 r1 r2.
have Hk : mx_at K c c \in unitmx by rewrite k4; apply: Hu a4.
have [Q [q1 q2 q3]] := iqf_total k2 k3 b2 c2 b3 c3 Hk.
pose n := (n1 + n2 + n3 + n4)%N.
have {}a1 : evk n kij x y = Some M1 by apply: evk_fuel a1; rewrite /n; lia.
have {}a2 : evk n kzi z x = Some M2 by apply: evk_fuel a2; rewrite /n; lia.
have {}a3 : evk n kzj z y = Some M3 by apply: evk_fuel a3; rewrite /n; lia.
have {}a4 : evk n kz z z = Some M4 by apply: evk_fuel a4; rewrite /n; lia.
exists n.+1.
have -> : evk n.+1 (KPost kij kzi kzj kz z N) x y =
    obind2 (@dsub R) (evk n kij x y)
          (obind (fun K => obind2 (iqf K) (evk n kzi z x) (evk n kzj z y))
             (obind (fun K => dadd K N) (evk n kz z z))).
  by case: x y Ax Ay {a1 a2 a3} => [xs|p x|//] [ys|q y|].
rewrite a1 a2 a3 a4 /= k1 /= q1 /= /dsub /dmap2 /same_shape b1 c1 q2 q3 !eqxx.
by eexists; split; [reflexivity | ..].
Qed.

Lemma gives_sub kij kzi kzj kz kzx kx z N xd nx me x y a b c n : atom x -> atom y ->
  gives kij x y a b -> gives kzi z x c a -> gives kzj z y c b -> gives kz z z c c -> gives kzx z xd c n -> gives kx xd xd n n ->
  nr N = c -> nc N = c -> size nx = n ->
  (forall n1 n2 n3 Kz Kzx Kx, evk n1 kz z z = Some Kz -> evk n2 kzx z xd = Some Kzx -> evk n3 kx xd xd = Some Kx ->
     let S := mx_at Kz c c + mx_at N c c in let C := mx_at Kzx c n in
     let v := model_noise S C me (fun i => nth 0 nx i) (fun i => ent Kx i i) in
     [/\ S \in unitmx, forall i, v i != 0 & model_var S C v \in unitmx]) ->
  gives (KAdd (KPost kij kzi kzj kz z N) (KSub kzi kzj kz kzx kx z N xd nx me)) x y a b.
Proof.
move=> Ax Ay [n1 [M1 [a1 b1 c1]]] [n2 [M2 [a2 b2 c2]]] [n3 [M3 [a3 b3 c3]]] [n4 [M4 [a4 b4 c4]]] [n5 [M5 [a5 b5 c5]]] [n6 [M6 [a6 b6 c6]]].
move=> r1 r2 r3 /(_ _ _ _ _ _ _ a4 a5 a6) /= [US Uv UV].
pose n' := (n1 + n2 + n3 + n4 + n5 + n6)%N.
have {}a1 : evk n' kij x y = Some M1 by apply: evk_fuel a1; rewrite /n'; lia.
have {}a2 : evk n' kzi z x = Some M2 by apply: evk_fuel a2; rewrite /n'; lia.
have {}a3 : evk n' kzj z y = Some M3 by apply: evk_fuel a3; rewrite /n'; lia.
have {}a4 : evk n' kz z z = Some M4 by apply: evk_fuel a4; rewrite /n'; lia.
have {}a5 : evk n' kzx z xd = Some M5 by apply: evk_fuel a5; rewrite /n'; lia.
have {}a6 : evk n' kx xd xd = Some M6 by apply: evk_fuel a6; rewrite /n'; lia.
move: b2 b3 c4 b5 r1 r2 c5 b6 c6 US Uv UV; rewrite -b4 -r3 => b2 b3 c4 b5 r1 r2 c5 b6 c6 US Uv UV.
have F : gfits me nx M4 N M5 M6 by split=> //; split.
have [M EM] := @g_value_some R me nx M4 N M5 M6 M1 M2 M3 F b2 b3 (etrans b1 (esym c2)) (etrans c1 (esym c3)) UV.
have [_ _ _ [s1 s2] _] := g_value EM.
exists n'.+2, M; split; rewrite ?s1 ?s2 //.
have -> : evk n'.+2 (KAdd (KPost kij kzi kzj kz z N) (KSub kzi kzj kz kzx kx z N xd nx me)) x y =
  obind2 (@dadd R) (obind2 (@dsub R) (evk n' kij x y)
          (obind (fun K => obind2 (iqf K) (evk n' kzi z x) (evk n' kzj z y))
             (obind (fun K => dadd K N) (evk n' kz z z))))
    (obind (fun A => obind2 (iqf A) (evk n' kzi z x) (evk n' kzj z y))
          (pseudo_var me nx (obind (fun K => dadd K N) (evk n' kz z z)) (evk n' kzx z xd) (evk n' kx xd xd))).
  by case: x y Ax Ay {a1 a2 a3} => [xs|p x|//] [ys|q y|].
by rewrite a1 a2 a3 a4 a5 a6 -EM /gvalue /=; case: (dadd _ _).
Qed.

Lemma flat_filled x : flat x -> filled x. Proof. by case: x => [xs|p [xs|q x|xs]|xs]. Qed.
Lemma mean_filled h p x : mean_input h p x -> filled x.
Proof.
case: x => [xs|q x|xs]; try exact: flat_filled.
by case/and3P => /= -> H _; apply: sub_all H => z; apply: flat_filled.
Qed.
Lemma filled_ne x : filled x -> (0 < ne x)%N.
Proof.
elim/input_ind': x => //= -[|x xs] // IH /andP [_ /andP [Fx _]].
by rewrite /= addn_gt0 IH //; left.
Qed.
Lemma usable_par m pm par o : (m < nm)%N -> base (l m) = Some (pm, par, o) -> o_data o = None -> ne (o_x o) <> 0%N ->
  [/\ (pm < nm)%N, ext par (l pm) & exists c,
    [/\ mean_input (l pm) (o_p o) (o_x o), o_p o \in pids par, widths par (o_p o) (o_x o) = Some c,
      [/\ nr (o_noise o) = c, nc (o_noise o) = c & size (o_y o) = c] &
      forall k n K, KA pm par (o_p o) (o_p o) = Some k -> evk n k (o_x o) (o_x o) = Some K ->
        mx_at K c c + mx_at (o_noise o) c c \in unitmx]].
Proof.
move=> lt eb eo n0; have [lp Ep Hop] := l_base (v_log I.1) lt eb; have lp' := ltn_trans lp lt; split=> //.
have W := l_wf (v_log I.1) lp'.
have := U lt eb; rewrite eo => -[//|[c [Hm Hw s1 s2 s3] Hu]].
have Hp : o_p o \in pids par by apply: Hop; [rewrite mem_head | apply: widths_pids Hw; apply: mean_filled Hm].
exists c; split=> //.
  by rewrite -Hw /Typing.widths; apply: wlift_eq => z; rewrite (width_ext _ Ep).
move=> k n K Ek EK; apply: Hu; exists n; rewrite /kernel_at see_k_log // lp'.
by have [-> _] := KA_ext pm Ep W (fun _ => Hp) (fun _ => Hp); rewrite Ek.
Qed.
Lemma pseudo_par m pm par o d : (m < nm)%N -> base (l m) = Some (pm, par, o) -> o_data o = Some d ->
  [/\ (pm < nm)%N, ext par (l pm) & exists c n,
    [/\ [/\ mean_input (l pm) (o_p o) (o_x o), widths par (o_p o) (o_x o) = Some c, nr (o_noise o) = c & nc (o_noise o) = c],
        [/\ mean_input (l pm) (d_p d) (d_x d), widths par (d_p d) (d_x d) = Some n, size (d_noise d) = n & size (d_y d) = n] &
      forall kz kzx kx n1 n2 n3 Kz Kzx Kx, KA pm par (o_p o) (o_p o) = Some kz -> KA pm par (o_p o) (d_p d) = Some kzx ->
        KA pm par (d_p d) (d_p d) = Some kx ->
        evk n1 kz (o_x o) (o_x o) = Some Kz -> evk n2 kzx (o_x o) (d_x d) = Some Kzx -> evk n3 kx (d_x d) (d_x d) = Some Kx ->
        let S := mx_at Kz c c + mx_at (o_noise o) c c in let C := mx_at Kzx c n in
        let v := model_noise S C (d_method d) (fun i => nth 0 (d_noise d) i) (fun i => ent Kx i i) in
        [/\ S \in unitmx, forall i, v i != 0 & model_var S C v \in unitmx]]].
Proof.
move=> lt eb eo; have [lp Ep Hop] := l_base (v_log I.1) lt eb; have lp' := ltn_trans lp lt; split=> //.
have W := l_wf (v_log I.1) lp'.
have := U lt eb; rewrite eo => -[c [n [[[Hz Wz z1 z2] [Hx Wx x1 x2]] Hu]]].
have Ip : o_p o \in pids par by apply: Hop; [rewrite mem_head | apply: widths_pids Wz; apply: mean_filled Hz].
have Id : d_p d \in pids par.
  by apply: Hop; [rewrite /o_pids eo !inE eqxx orbT | apply: widths_pids Wx; apply: mean_filled Hx].
exists c, n; split.
- by split=> //; rewrite -Wz /Typing.widths; apply: wlift_eq => z; rewrite (width_ext _ Ep).
- by split=> //; rewrite -Wx /Typing.widths; apply: wlift_eq => z; rewrite (width_ext _ Ep).
move=> kz kzx kx n1 n2 n3 Kz Kzx Kx e1 e2 e3 E1 E2 E3.
apply: Hu; [exists n1 | exists n2 | exists n3]; rewrite /kernel_at see_k_log // lp'.
- by have [-> _] := KA_ext pm Ep W (fun _ => Ip) (fun _ => Ip); rewrite e1.
- by have [-> _] := KA_ext pm Ep W (fun _ => Ip) (fun _ => Id); rewrite e2.
- by have [-> _] := KA_ext pm Ep W (fun _ => Id) (fun _ => Id); rewrite e3.
Qed.
Lemma onkE m (f : pid -> pid -> option kexp) a b : onk m f m a b = f a b.
Proof. by rewrite /onk /onm eqxx. Qed.
Lemma tot_ext m h h' : ext h h' -> tot m h' -> tot m h.
Proof. by elim=> // r d h2 _ IH /= [_ _]. Qed.
Lemma free_num h q y b : nocross h -> width h q y = Some b -> exists2 ys, y = Num ys & b = size ys.
Proof. by move=> /(@nocross_free R h q); apply: crossfree_width. Qed.

Lemma onME m (f : pid -> option mexp) a : onM m f m a = f a.
Proof. by rewrite /onM /onm eqxx. Qed.
Definition minput h m := forall p x a, mean_input h p x -> widths h p x = Some a ->
  exists2 mu, MA m h p = Some mu & givm mu x a.
(* The mean of a process as a function. *)
Lemma mean_fun m rest p xs : (m < nm)%N -> ext rest (l m) -> minput rest m -> (0 < size xs)%N ->
  width rest p (Num xs) = Some (size xs) -> exists n e, evf n (@FMean R m p) (Num xs) = Some e /\ size e = size xs.
Proof.
move=> lt E Hm s0 Hp; have [mu Emu [n [e [e1 e2]]]] := Hm p (Num xs) _ s0 Hp.
exists n.+1, e; split=> //; rewrite -e1.
have -> : evf n.+1 (@FMean R m p) (Num xs) = obind (fun m1 => evm n m1 (Num xs)) (see_m w m p) by [].
by rewrite see_m_log // lt (MA_ext m E (l_wf (v_log I.1) lt) (fun _ => width_pids Hp)) Emu.
Qed.
Lemma evf_fuel n n' f x e : (n <= n')%N -> evf n f x = Some e -> evf n' f x = Some e.
Proof.
move=> le; have [_ [_ H]] := @eval_mono R (see_k w) (see_k w) (see_m w) (see_m w) D (fun _ _ _ => @ole_refl _ _) (fun _ _ => @ole_refl _ _) n n' le.
exact: H.
Qed.
Lemma gives_tensorE f g xs ys : (exists n e, evf n f (Num xs) = Some e /\ size e = size xs) ->
  (exists n e, evf n g (Num ys) = Some e /\ size e = size ys) ->
  gives (KTensor f g) (Num xs) (Num ys) (size xs) (size ys).
Proof.
move=> [n1 [e1 [a1 b1]]] [n2 [e2 [a2 b2]]]; exists (n1 + n2).+1, (douter e1 e2); split=> //.
have -> : evk (n1 + n2).+1 (KTensor f g) (Num xs) (Num ys) =
  obind2 (fun u v => Some (douter u v)) (evf (n1 + n2) f (Num xs)) (evf (n1 + n2) g (Num ys)) by [].
by rewrite (evf_fuel (leq_addr _ _) a1) (evf_fuel (leq_addl _ _) a2).
Qed.
Lemma ones_fun ys : exists n e, evf n (@FOnes R) (Num ys) = Some e /\ size e = size ys.
Proof. by exists 1%N, (nseq (size ys) 1); rewrite size_nseq. Qed.
(* The factors of products. *)
Lemma factor_width m rest f g xs : (m < nm)%N -> ext rest (l m) -> nocross rest -> Pr f g -> f \in pids rest -> g \in pids rest ->
  width rest f (Num xs) = Some (size xs) /\ width rest g (Num xs) = Some (size xs).
Proof.
move=> lt E nc Hpr Hf Hg; have W := l_wf (v_log I.1) lt.
have [] := Fa lt Hpr (ext_pids E Hf) (ext_pids E Hg); rewrite !(width_ext _ E W) // => w1 w2.
by split; apply: width_all.
Qed.

Lemma kernels_post pm par o m : (m < nm)%N -> ext (HPost pm par o) (l m) -> katom par pm -> katom (HPost pm par o) m.
Proof.
move=> lt E IH.
  move=> p q x y a b Ax Ay Fx Fy /=.
  case: ifP => // _ Ha Hb; case Eo: (o_data o) => [d|].
    have Ip := width_pids Ha; have Iq := width_pids Hb; rewrite Ip Iq /=.
    have eb : base (l m) = Some (pm, par, o) by rewrite (ext_base E).
    have [_ _ [c [n [[Hz Wz z1 z2] [Hd Wd x1 _] Hu]]]] := pseudo_par lt eb Eo.
    have Fz := mean_filled Hz; have Fd := mean_filled Hd; have L := katom_input IH.
    have Wx : widths par p x = Some a by rewrite -Ha; case: (x) Ax.
    have Wy : widths par q y = Some b by rewrite -Hb; case: (y) Ay.
    have [kij e1 g1] := L _ _ _ _ _ _ Fx Fy Wx Wy.
    have [kzi e2 g2] := L _ _ _ _ _ _ Fz Fx Wz Wx.
    have [kzj e3 g3] := L _ _ _ _ _ _ Fz Fy Wz Wy.
    have [kz e4 g4] := L _ _ _ _ _ _ Fz Fz Wz Wz.
    have [kzx e5 g5] := L _ _ _ _ _ _ Fz Fd Wz Wd.
    have [kx e6 g6] := L _ _ _ _ _ _ Fd Fd Wd Wd.
    rewrite /post_k Eo /post_k2 /= !onkE e1 e2 e3 e4 e5 e6; eexists; first by reflexivity.
    apply: gives_sub g1 g2 g3 g4 g5 g6 z1 z2 x1 _ => // n1 n2 n3 Kz Kzx Kx; exact: Hu.
  have Ip := width_pids Ha; have Iq := width_pids Hb; rewrite Ip Iq /=.
  have eb : base (l m) = Some (pm, par, o) by rewrite (ext_base E).
  rewrite /post_k Eo /post_k1; case: eqP => n0 /=.
    by rewrite onkE; have [k -> Hk] := IH _ _ _ _ _ _ Ax Ay Fx Fy Ha Hb; exists k.
  have [_ _ [c [Hm Hop Hw [s1 s2 s3] Hu]]] := usable_par lt eb Eo n0.
  have Fz := mean_filled Hm; have L := katom_input IH.
  have Wx : widths par p x = Some a by rewrite -Ha; case: (x) Ax.
  have Wy : widths par q y = Some b by rewrite -Hb; case: (y) Ay.
  have [kij e1 g1] := L _ _ _ _ _ _ Fx Fy Wx Wy.
  have [kzi e2 g2] := L _ _ _ _ _ _ Fz Fx Hw Wx.
  have [kzj e3 g3] := L _ _ _ _ _ _ Fz Fy Hw Wy.
  have [kz e4 g4] := L _ _ _ _ _ _ Fz Fz Hw Hw.
  rewrite !onkE e1 e2 e3 e4; exists (KPost kij kzi kzj kz (o_x o) (o_noise o)) => //.
  by apply: gives_post g1 g2 g3 g4 s1 s2 _ => // n K; apply: Hu e4.
Qed.
Lemma kernels_add r d rest m : (m < nm)%N -> ext (HAdd r d rest) (l m) -> katom rest m -> minput rest m -> katom (HAdd r d rest) m.
Proof.
move=> lt E IH IM.
have E' := ext_tail E; have L := katom_input IH.
have [Hstr HQ _] := tot_ext E (To m).
have /and3P [rn /allP args wr] := wfh_ext E (l_wf (v_log I.1) lt).
(* one argument of the new process *)
have left q x y a b : q \in pids rest -> atom x -> atom y -> filled x -> filled y ->
    width (HAdd r d rest) r x = Some a -> width rest q y = Some b ->
    exists2 k, pint (onk m (KA m rest)) (noM R) (left_of m d q) = Some k & gives k x y a b.
  move=> Hq Ax Ay Fx Fy /=; rewrite eqxx.
  case: d E Hstr HQ args => [mu k|mu k lr|p|p c|p f|p p'|p c|p f|p t t0|p dd|ps] E Hstr HQ args //= Ha Hb; rewrite ?onkE.
  - case: x Ax Fx Ha => // xs _ _ [<-].
    have [ys ey ->] := free_num (Hstr isT) Hb.
    by exists (@KZero R) => //; apply: gives_zero; rewrite ?ey.
  - by have [k -> Hk] := IH _ _ _ _ _ _ Ax Ay Fx Fy Ha Hb; exists k.
  - by have [k -> Hk] := IH _ _ _ _ _ _ Ax Ay Fx Fy Ha Hb; exists k.
  - case: x Ax Fx Ha => // xs Ax Fx; case: eqP => // Ha [<-].
    by have [k -> Hk] := IH _ _ _ _ _ _ Ax Ay Fx Fy Ha Hb; exists k.
  - case: eqP Ha => // e Ha; have Ha' : width rest p' x = Some a by rewrite -e.
    have [k1 -> H1] := IH _ _ _ _ _ _ Ax Ay Fx Fy Ha Hb.
    have [k2 E2 H2] := IH _ _ _ _ _ _ Ax Ay Fx Fy Ha' Hb.
    by rewrite E2; exists (KAdd k1 k2) => //; apply: gives_add.
  - have [k -> Hk] := IH _ _ _ _ _ _ Ax Ay Fx Fy Ha Hb.
    by exists (KScale c k) => //; apply: gives_scale.
  - case: f E HQ Hstr args Ha => [g|//|m' p'] E HQ Hstr args; last first.
      case: eqP => // e Ha; case: HQ => em _ _; subst m'.
      have [k -> Hk] := IH _ _ _ _ _ _ Ax Ay Fx Fy Ha Hb.
      have [xs ex ea] := free_num (Hstr isT) Ha; have [ys ey eb] := free_num (Hstr isT) Hb; subst x a y b.
      exists (KMul (KTensor (@FMean R m p') (@FOnes R)) k) => //; apply: gives_mul => //; apply: gives_tensorE; last exact: ones_fun.
      by apply: (mean_fun lt E') => //; rewrite -e.
    case: x Ax Fx => // xs Ax Fx; case: eqP => // Ha [ea].
    have [k -> Hk] := IH _ _ _ _ _ _ Ax Ay Fx Fy Ha Hb.
    have [ys ey eb] := free_num (Hstr isT) Hb; subst y b a.
    by exists (KMul (KTensor (FUser g) (@FOnes R)) k) => //; apply: gives_mul => //; apply: gives_tensor1.
  - case: x Ax Fx Ha => // xs Ax Fx Ha.
    have Fx' : filled (Num (map t xs)) by rewrite /= size_map.
    case: t0 E Hstr HQ args => [t0|] E Hstr HQ args.
      have [ys ey eb] := free_num (Hstr isT) Hb; subst y b.
      have Fy' : filled (Num (map t0 ys)) by rewrite /= size_map.
      have Hb' : width rest q (Num (map t0 ys)) = Some (size ys) by rewrite -Hb; apply: width_num; rewrite size_map.
      have [k -> Hk] := IH _ _ _ _ _ _ (isT : atom (Num (map t xs))) (isT : atom (Num (map t0 ys))) Fx' Fy' Ha Hb'.
      by exists (KMap (Some t) (Some t0) k) => //; apply: gives_imap Hk.
    have [k -> Hk] := IH _ _ _ _ _ _ (isT : atom (Num (map t xs))) Ay Fx' Fy Ha Hb.
    by exists (KMap (Some t) None k) => //; apply: gives_imap Hk.
  - case: x Ax Fx Ha => // xs Ax Fx; case: eqP => // Ha [<-].
    have [ys ey eb] := free_num (Hstr isT) Hb; subst y b.
    have [k -> Hk] := IH _ _ _ _ _ _ (isT : atom (Num [:: [::]])) Ay (isT : filled (Num [:: [::]])) Fy Ha Hb.
    by exists (KDiff (Some dd) None k) => //; apply: gives_diff1.
  - exists (KAdk (KToFdd q (@KMok R m ps))) => //.
    have [n [M [e1 e2 e3]]] : gives (@KMok R m ps) x (Fdd q y) a b.
      apply: (gives_mok lt E' L) => //; first by case: (x) Ax Ha => // a' x' _ /=; case: ifP.
      by rewrite /= -Hb; case: (y) Ay.
    exists n.+2, M; split=> //; rewrite -e1.
    by case: x y Ax Ay {Fx Fy Ha Hb e1} => [xs|p x|//] [ys|p' y|].
have own x y a b : atom x -> atom y -> filled x -> filled y ->
    width (HAdd r d rest) r x = Some a -> width (HAdd r d rest) r y = Some b ->
    exists2 k, pint (onk m (KA m rest)) (noM R) (own_of m d) = Some k & gives k x y a b.
  move=> Ax Ay Fx Fy /=; rewrite eqxx.
  case: d E Hstr HQ args left => [mu k|mu k lr|p|p c|p f|p p'|p c|p f|p t t0|p dd|ps] E Hstr HQ args _ //= Ha Hb; rewrite ?onkE.
  - case: x Ax Fx Ha => // xs _ Fx [<-]; case: y Ay Fy Hb => // ys _ Fy [<-]; exists k => //.
    case: HQ => [[_ Hk]|[f [g [a1 [b1 [k1 [k2 [k3 [k4 [Hpr [m1 m2] [e1 e2] [e3 e4] [_ ->]]]]]]]]]]]; first exact: (Hk (see_k w) (see_m w) xs ys).
    have Hf : f \in pids rest by apply: (MA_pids (m := m)); rewrite m1.
    have Hg : g \in pids rest by apply: (MA_pids (m := m)); rewrite m2.
    have [F1 G1] := factor_width xs lt E' (Hstr isT) Hpr Hf Hg.
    have [F2 G2] := factor_width ys lt E' (Hstr isT) Hpr Hf Hg.
    have [k1' E1 H1] := IH _ _ (Num xs) (Num ys) _ _ isT isT Fx Fy F1 F2.
    have [k2' E2 H2] := IH _ _ (Num xs) (Num ys) _ _ isT isT Fx Fy G1 G2.
    have [k3' E3 H3] := IH _ _ (Num xs) (Num ys) _ _ isT isT Fx Fy F1 G2.
    have [k4' E4 H4] := IH _ _ (Num xs) (Num ys) _ _ isT isT Fx Fy G1 F2.
    move: E1 E2 E3 E4; rewrite e1 e2 e3 e4 => -[->] [->] [->] [->].
    by apply: gives_add => //; apply: gives_mul.
  - by have [k -> Hk] := IH _ _ _ _ _ _ Ax Ay Fx Fy Ha Hb; exists k.
  - by have [k -> Hk] := IH _ _ _ _ _ _ Ax Ay Fx Fy Ha Hb; exists k.
  - case: x Ax Fx Ha => // xs Ax Fx; case: eqP => // Ha [<-].
    case: y Ay Fy Hb => // ys Ay Fy; case: eqP => // Hb [<-].
    by have [k -> Hk] := IH _ _ _ _ _ _ Ax Ay Fx Fy Ha Hb; exists k.
  - case: eqP Ha => // e Ha; have Ha' : width rest p' x = Some a by rewrite -e.
    case: eqP Hb => // e' Hb; have Hb' : width rest p' y = Some b by rewrite -e'.
    have [k1 E1 H1] := IH _ _ _ _ _ _ Ax Ay Fx Fy Ha Hb.
    have [k2 E2 H2] := IH _ _ _ _ _ _ Ax Ay Fx Fy Ha' Hb'.
    have [k3 E3 H3] := IH _ _ _ _ _ _ Ax Ay Fx Fy Ha Hb'.
    have [k4 E4 H4] := IH _ _ _ _ _ _ Ax Ay Fx Fy Ha' Hb.
    rewrite E1 E2 E3 E4; exists (KAdd (KAdd (KAdd k1 k2) k3) k4) => //.
    by do 3! apply: gives_add => //.
  - have [k -> Hk] := IH _ _ _ _ _ _ Ax Ay Fx Fy Ha Hb.
    by exists (KScale (c ^+ 2) k) => //; apply: gives_scale.
  - case: f E HQ Hstr args Ha Hb => [g|//|m' p'] E HQ Hstr args; last first.
      case: eqP => // e Ha; case: eqP => // e' Hb; case: HQ => em _ _; subst m'.
      have [k -> Hk] := IH _ _ _ _ _ _ Ax Ay Fx Fy Ha Hb.
      have [xs ex ea] := free_num (Hstr isT) Ha; have [ys ey eb] := free_num (Hstr isT) Hb; subst x a y b.
      exists (KMul (KTensor (@FMean R m p') (@FMean R m p')) k) => //; apply: gives_mul => //.
      by apply: gives_tensorE; apply: (mean_fun lt E') => //; rewrite -?e -?e'.
    case: x Ax Fx => // xs Ax Fx; case: eqP => // Ha [<-].
    case: y Ay Fy => // ys Ay Fy; case: eqP => // Hb [<-].
    have [k -> Hk] := IH _ _ _ _ _ _ Ax Ay Fx Fy Ha Hb.
    by exists (KMul (KTensor (FUser g) (FUser g)) k) => //; apply: gives_mul => //; apply: gives_tensor.
  - case: x Ax Fx Ha => // xs Ax Fx Ha; case: y Ay Fy Hb => // ys Ay Fy Hb.
    have Fx' : filled (Num (map t xs)) by rewrite /= size_map.
    have Fy' : filled (Num (map t ys)) by rewrite /= size_map.
    have [k -> Hk] := IH _ _ _ _ _ _ (isT : atom (Num (map t xs))) (isT : atom (Num (map t ys))) Fx' Fy' Ha Hb.
    by exists (KMap (Some t) (Some t) k) => //; apply: gives_imap Hk.
  - case: x Ax Fx Ha => // xs Ax Fx; case: eqP => // Ha [<-].
    case: y Ay Fy Hb => // ys Ay Fy; case: eqP => // Hb [<-].
    have [k -> Hk] := IH _ _ _ _ _ _ (isT : atom (Num [:: [::]])) (isT : atom (Num [:: [::]])) isT isT Ha Hb.
    by exists (KDiff (Some dd) (Some dd) k) => //; apply: gives_diff2.
  - exists (@KMok R m ps) => //; apply: (gives_mok lt E' L) => //.
      by case: (x) Ax Ha => // a' x' _ /=; case: ifP.
    by case: (y) Ay Hb => // a' x' _ /=; case: ifP.
move=> p q x y a b Ax Ay Fx Fy Ha Hb.
case: (eqVneq p r) => [pr|pr]; case: (eqVneq q r) => [qr|qr].
- by subst p q; have := own _ _ _ _ Ax Ay Fx Fy Ha Hb; rewrite /= !eqxx.
- subst p; have Hb' : width rest q y = Some b by move: Hb; rewrite /= (negbTE qr).
  have := left _ _ _ _ _ (width_pids Hb') Ax Ay Fx Fy Ha Hb'.
  by rewrite /= eqxx (negbTE qr) (width_pids Hb').
- subst q; have Ha' : width rest p x = Some a by move: Ha; rewrite /= (negbTE pr).
  have Ip := width_pids Ha'.
  have := left _ _ _ _ _ Ip Ay Ax Fy Fx Hb Ha'.
  rewrite /= (negbTE pr) eqxx Ip => -[k Ek Hk].
  have Hrev : exists2 k0, (if onk m (fun a b => if a == r then pint (onk m (KA m rest)) (noM R) (left_of m d b)
                                else KA m rest a b) m r p is Some k then Some (KRev k) else None) = Some k0 & gives k0 x y a b.
    by rewrite onkE eqxx Ek; exists (KRev k) => //; apply: gives_rev.
  case: d E Hstr HQ args left own Ha Hb Ek Hrev => [mu k'|mu k' lr|p1|p1 c|p1 f|p1 p'|p1 c|p1 f|p1 t t0|p1 dd|ps] //= E Hstr HQ args _ _ Ha Hb [Ek] _.
    by exists (@KZero R) => //; subst k; case: Hk => n [M [e1 e2 e3]]; apply: gives_zero => //; 
       case: n e1 => // n; case: (y) (x) Ax Ay => [ys|q1 y1|//] [xs|q2 x2|//] _ _ /= [e]; rewrite -?e2 -?e3 -e.
  rewrite onkE.
  rewrite (negbTE pr).
  have Hb' : width rest p1 y = Some b by move: Hb; rewrite eqxx.
  by have [k2 -> Hk2] := IH _ _ _ _ _ _ Ax Ay Fx Fy Ha' Hb'; exists k2.
- have Ha' : width rest p x = Some a by move: Ha; rewrite /= (negbTE pr).
  have Hb' : width rest q y = Some b by move: Hb; rewrite /= (negbTE qr).
  by rewrite /= (negbTE pr) (negbTE qr); apply: IH Ha' Hb'.
Qed.

(* Means. *)
Lemma wlift_sub (f g : input -> option nat) x a : (forall y b, f y = Some b -> g y = Some b) ->
  wlift f x = Some a -> wlift g x = Some a.
Proof.
move=> H; elim/input_ind': x a => [xs|p x _|xs IH] a; try exact: H.
elim: xs a IH => // x xs IHx a IH.
rewrite -[wlift f _]/(obind2 (fun a b => Some (a + b)%N) (wlift f x) (wlift f (Tup xs))).
rewrite -[wlift g _]/(obind2 (fun a b => Some (a + b)%N) (wlift g x) (wlift g (Tup xs))).
case E: (wlift f x) => [c|] //; case E': (wlift f (Tup xs)) => [c'|] // [<-].
by rewrite (IH x (or_introl erefl) _ E) (IHx _ (fun z Hz => IH z (or_intror Hz)) E').
Qed.
Lemma tuples_ext h h' p : ext h h' -> wfh h' -> p \in pids h -> tuples h' p = tuples h p.
Proof.
move=> E; elim: E => // r d h2 E IH /= /and3P [rn _ W] Hp.
case: eqP => [e|_]; last exact: IH.
by case/negP: rn; rewrite -e; apply: (ext_pids E).
Qed.

Lemma cat_total (g : input -> option (seq R)) f xs a : (0 < size xs)%N ->
  (forall x c, In x xs -> wlift f x = Some c -> exists2 e, g x = Some e & size e = c) ->
  wlift f (Tup xs) = Some a ->
  exists2 e, ofold1 (fun u v => Some (u ++ v)) (map g xs) = Some e & size e = a.
Proof.
elim: xs a => [|y [|y' ys] IH] a // _ H.
  rewrite -[wlift f _]/(obind2 (fun a b => Some (a + b)%N) (wlift f y) (Some 0%N)).
  case E: (wlift f y) => [c|] //= [<-]; rewrite addn0; exact: (H _ _ (or_introl erefl) E).
rewrite -[wlift f _]/(obind2 (fun a b => Some (a + b)%N) (wlift f y) (wlift f (Tup (y' :: ys)))).
case E: (wlift f y) => [c|] //; case E': (wlift f (Tup _)) => [c'|] // [<-].
have [M e1 e2] := H _ _ (or_introl erefl) E.
have [//|M' e1' e2'] := IH _ _ (fun z d Hz => H z d (or_intror Hz)) E'.
set F := fun u v => _ in e1' *.
rewrite -[ofold1 _ _]/(obind (fun a => obind (F a) (ofold1 F (map g (y' :: ys)))) (g y)) e1 e1' /=.
by exists (M ++ M') => //; rewrite size_cat e2 e2'.
Qed.
Lemma givm_tup m ps f xs a : (0 < size xs)%N ->
  (forall x c, In x xs -> wlift f x = Some c -> givm (@MMom R m ps) x c) ->
  wlift f (Tup xs) = Some a -> givm (@MMom R m ps) (Tup xs) a.
Proof.
move=> s0 H Ha.
pose P n x := forall c, wlift f x = Some c -> exists2 e, evm n (@MMom R m ps) x = Some e & size e = c.
have [n Hn] : exists n, forall x, In x xs -> P n x.
  apply: uniform => [n n' x le Hp c e|x Hx].
    by have [v e1 e2] := Hp _ e; exists v => //; apply: evm_fuel e1.
  have [c Ec] := wlift_in Ha Hx; have [n [e [e1 e2]]] := H _ _ Hx Ec.
  by exists n => c'; rewrite Ec => -[<-]; exists e.
have [e e1 e2] := cat_total s0 (fun x c Hx => Hn x Hx c) Ha.
by exists n.+1, e.
Qed.

Lemma givm_map2 op mu1 mu2 x a (C : mexp) :
  (forall n, evm n.+1 C x = obind2 (vmap2 op) (evm n mu1 x) (evm n mu2 x)) ->
  givm mu1 x a -> givm mu2 x a -> givm C x a.
Proof.
move=> E H1 H2; have [n [e [e' [e1 e2 e3 e4]]]] := givm_all H1 H2.
by exists n.+1; rewrite E e1 e2 /= /vmap2 e3 e4 eqxx; eexists; split; [reflexivity | rewrite size_mkseq].
Qed.
Lemma givm_add mu1 mu2 x a : givm mu1 x a -> givm mu2 x a -> givm (MAdd mu1 mu2) x a.
Proof. exact: givm_map2. Qed.
Lemma givm_mul mu1 mu2 x a : givm mu1 x a -> givm mu2 x a -> givm (MMul mu1 mu2) x a.
Proof. exact: givm_map2. Qed.
Lemma givm_scale c mu x a : givm mu x a -> givm (MScale c mu) x a.
Proof.
case=> n [e [e1 e2]]; exists n.+1, (map (fun a => c * a) e); split; last by rewrite size_map.
by have -> : evm n.+1 (MScale c mu) x = omap (map (fun a => c * a)) (evm n mu x) by []; rewrite e1.
Qed.
Lemma givm_fun f xs : givm (MFun (FUser f)) (Num xs) (size xs).
Proof. by exists 2%N, (map f xs); split; rewrite ?size_map. Qed.
Lemma givm_one xs : givm (@MOne R) (Num xs) (size xs).
Proof. by exists 1%N, (nseq (size xs) 1); split; rewrite ?size_nseq. Qed.
Lemma givm_diff d mu xs : givm mu (Num [:: [::]]) 1 -> givm (MDiff d mu) (Num xs) (size xs).
Proof.
case=> n [e [e1 e2]].
have S s : (if evm n mu (Num [:: s]) is Some v then size v == 1%N else false) = true.
  have [_ [H _]] := eval_shape (see_k w) (see_m w) D n.
  have := H mu (Num [:: s]); rewrite -[skel _]/(skel (Num [:: [::]])) -H e1.
  by case: (evm _ _ _) => [v|] //= [->]; rewrite e2.
exists n.+1, [seq D d (fun a => head0 (evm n mu (Num [:: a]))) a | a <- xs]; split; last by rewrite size_map.
have -> : evm n.+1 (MDiff d mu) (Num xs) = if all (fun a => if evm n mu (Num [:: a]) is Some v then size v == 1%N else false) xs
        then Some [seq D d (fun a => head0 (evm n mu (Num [:: a]))) a | a <- xs] else None by [].
by rewrite (_ : all _ _ = true) //; apply/allP => s _; apply: S.
Qed.
Lemma givm_post mi mz kzi kz z N (y : seq R) x a c :
  givm mi x a -> givm mz z c -> gives kzi z x c a -> gives kz z z c c -> nr N = c -> nc N = c -> size y = c ->
  (forall n K, evk n kz z z = Some K -> mx_at K c c + mx_at N c c \in unitmx) ->
  givm (MPost mi mz kzi kz z N y) x a.
Proof.
move=> [n1 [M1 [a1 b1]]] [n2 [M2 [a2 b2]]] [n3 [M3 [a3 b3 c3]]] [n4 [M4 [a4 b4 c4]]] r1 r2 r3 Hu.
have [K [k1 k2 k3 k4]] := noisy_total b4 c4 r1 r2.
have Hk : mx_at K c c \in unitmx by rewrite k4; apply: Hu a4.
pose d := mkseq (fun i => nth 0 y i - nth 0 M2 i) (size y).
have [Q [q1 q2 q3]] := @iqf_total K M3 (dcol d) c a 1%N k2 k3 b3 c3 (etrans (size_mkseq _ _) r3) erefl Hk.
pose n := (n1 + n2 + n3 + n4)%N.
have {}a1 : evm n mi x = Some M1 by apply: evm_fuel a1; rewrite /n; lia.
have {}a2 : evm n mz z = Some M2 by apply: evm_fuel a2; rewrite /n; lia.
have {}a3 : evk n kzi z x = Some M3 by apply: evk_fuel a3; rewrite /n; lia.
have {}a4 : evk n kz z z = Some M4 by apply: evk_fuel a4; rewrite /n; lia.
exists n.+1.
have -> : evm n.+1 (MPost mi mz kzi kz z N y) x =
      obind2 (vmap2 (fun a b => a + b)) (evm n mi x)
        (obind (@col_seq R)
          (obind2 (fun K d => obind (fun A => iqf K A (dcol d)) (evk n kzi z x))
            (obind (fun K => dadd K N) (evk n kz z z))
            (obind (fun mzv => vmap2 (fun a b => a - b) y mzv) (evm n mz z)))) by [].
have vd : vmap2 (fun a b => a - b) y M2 = Some d by rewrite /vmap2 r3 b2 eqxx /d r3.
rewrite a1 a2 a3 a4 /= k1 /= vd /= q1 /= /col_seq q3 /= q2.
rewrite /vmap2 b1 size_mkseq eqxx; eexists; split; [reflexivity | by rewrite size_mkseq].
Qed.
Lemma givm_sub mi mz mx kzi kz kzx kx z N xd nx (y : seq R) me x a c n :
  givm mi x a -> givm mz z c -> givm mx xd n -> gives kzi z x c a -> gives kz z z c c -> gives kzx z xd c n -> gives kx xd xd n n ->
  nr N = c -> nc N = c -> size nx = n -> size y = n ->
  (forall n1 n2 n3 Kz Kzx Kx, evk n1 kz z z = Some Kz -> evk n2 kzx z xd = Some Kzx -> evk n3 kx xd xd = Some Kx ->
     let S := mx_at Kz c c + mx_at N c c in let C := mx_at Kzx c n in
     let v := model_noise S C me (fun i => nth 0 nx i) (fun i => ent Kx i i) in
     [/\ S \in unitmx, forall i, v i != 0 & model_var S C v \in unitmx]) ->
  givm (MSub mi mz mx kzi kz kzx kx z N xd nx y me) x a.
Proof.
move=> [n1 [M1 [a1 b1]]] [n2 [M2 [a2 b2]]] [n7 [M7 [a7 b7]]] [n3 [M3 [a3 b3 c3]]] [n4 [M4 [a4 b4 c4]]] [n5 [M5 [a5 b5 c5]]] [n6 [M6 [a6 b6 c6]]].
move=> r1 r2 r3 r4 /(_ _ _ _ _ _ _ a4 a5 a6) /= [US Uv UV].
pose n' := (n1 + n2 + n3 + n4 + n5 + n6 + n7)%N.
have {}a1 : evm n' mi x = Some M1 by apply: evm_fuel a1; rewrite /n'; lia.
have {}a2 : evm n' mz z = Some M2 by apply: evm_fuel a2; rewrite /n'; lia.
have {}a7 : evm n' mx xd = Some M7 by apply: evm_fuel a7; rewrite /n'; lia.
have {}a3 : evk n' kzi z x = Some M3 by apply: evk_fuel a3; rewrite /n'; lia.
have {}a4 : evk n' kz z z = Some M4 by apply: evk_fuel a4; rewrite /n'; lia.
have {}a5 : evk n' kzx z xd = Some M5 by apply: evk_fuel a5; rewrite /n'; lia.
have {}a6 : evk n' kx xd xd = Some M6 by apply: evk_fuel a6; rewrite /n'; lia.
move: b2 b3 c4 b5 r1 r2 r4 b7 c5 b6 c6 US Uv UV; rewrite -b4 -r3 => b2 b3 c4 b5 r1 r2 r4 b7 c5 b6 c6 US Uv UV.
have F : gfits me nx M4 N M5 M6 by split=> //; split.
have [M EM] := @g_mean_some R me nx M4 N M5 M6 M1 M2 M7 y M3 F b3 (etrans c3 (esym b1)) b2 b7 r4 UV.
have [_ _ _ s1 _] := g_mean_value EM.
exists n'.+1, M; split; rewrite ?s1 //.
have -> : evm n'.+1 (MSub mi mz mx kzi kz kzx kx z N xd nx y me) x =
      obind2 (vmap2 (fun a b => a + b)) (evm n' mi x)
        (obind (@col_seq R)
          (obind2 (fun K d => obind (fun A => iqf K A (dcol d)) (evk n' kzi z x))
            (obind (fun K => dadd K N) (evk n' kz z z))
            (obind2 (fun u v : seq R => vmap2 (fun a b => a - b) u v)
              (pseudo_mean me nx y (obind (fun K => dadd K N) (evk n' kz z z)) (evk n' kzx z xd) (evk n' kx xd xd)
                (evm n' mx xd) (evm n' mz z))
              (evm n' mz z)))) by [].
by rewrite a1 a2 a3 a4 a5 a6 a7 -EM.
Qed.

Lemma means_post pm par o m : (m < nm)%N -> ext (HPost pm par o) (l m) -> katom par pm -> minput par pm -> minput (HPost pm par o) m.
Proof.
move=> lt E IK IH p x a.
  rewrite -[mean_input _ p x]/(mean_input par p x) => Hm Ha.
  have Fx := mean_filled Hm.
  have Wx : widths par p x = Some a.
    by apply: wlift_sub Ha => y b /=; case: ifP.
  have Ip := widths_pids Fx Wx; rewrite /= Ip.
  have eb : base (l m) = Some (pm, par, o) by rewrite (ext_base E).
  have [lp Ep _] := l_base (v_log I.1) lt eb.
  have lp' := ltn_trans lp lt.
  have Par q z : q \in pids par -> mean_input (l pm) q z -> mean_input par q z.
    move=> Hq; rewrite /mean_input; case: z => // xs.
    by rewrite (tuples_ext Ep) //; apply: (l_wf (v_log I.1)).
  case Eo: (o_data o) => [d|].
    have [_ _ [c [n [[Hz Wz z1 z2] [Hd Wd x1 x2] Hu]]]] := pseudo_par lt eb Eo.
    have Fz := mean_filled Hz; have Fd := mean_filled Hd; have L := katom_input IK.
    have [mi e1 g1] := IH _ _ _ Hm Wx.
    have [mz e2 g2] := IH _ _ _ (Par _ _ (widths_pids Fz Wz) Hz) Wz.
    have [mx e3 g3] := IH _ _ _ (Par _ _ (widths_pids Fd Wd) Hd) Wd.
    have [kzi e4 g4] := L _ _ _ _ _ _ Fz Fx Wz Wx.
    have [kz e5 g5] := L _ _ _ _ _ _ Fz Fz Wz Wz.
    have [kzx e6 g6] := L _ _ _ _ _ _ Fz Fd Wz Wd.
    have [kx e7 g7] := L _ _ _ _ _ _ Fd Fd Wd Wd.
    rewrite /post_m Eo /post_m2 /= !onkE !onME e1 e2 e3 e4 e5 e6 e7; eexists; first by reflexivity.
    apply: givm_sub g1 g2 g3 g4 g5 g6 g7 z1 z2 x1 x2 _ => n1 n2 n3 Kz Kzx Kx; exact: Hu.
  rewrite /post_m Eo /post_m1; case: eqP => n0 /=.
    by rewrite onME; have [mu -> Hmu] := IH _ _ _ Hm Wx; exists mu.
  have [_ _ [c [Hz Hop Hw [s1 s2 s3] Hu]]] := usable_par lt eb Eo n0.
  have L := katom_input IK; have Fz := mean_filled Hz.
  have Hz' := Par _ _ Hop Hz.
  have [mi e1 g1] := IH _ _ _ Hm Wx.
  have [mz e2 g2] := IH _ _ _ Hz' Hw.
  have [kzi e3 g3] := L _ _ _ _ _ _ Fz Fx Hw Wx.
  have [kz e4 g4] := L _ _ _ _ _ _ Fz Fz Hw Hw.
  rewrite !onkE !onME e1 e2 e3 e4; exists (MPost mi mz kzi kz (o_x o) (o_noise o) (o_y o)) => //.
  by apply: givm_post g1 g2 g3 g4 s1 s2 s3 _ => n K; apply: Hu e4.
Qed.
Lemma means_add r d rest m : (m < nm)%N -> ext (HAdd r d rest) (l m) -> minput rest m -> minput (HAdd r d rest) m.
Proof.
move=> lt E IH p x a.
have E' := ext_tail E.
have [Hstr HQ _] := tot_ext E (To m).
case: (eqVneq p r) => [pr|pr]; last first.
  move=> Hm Ha; rewrite /= (negbTE pr); apply: IH.
    by move: Hm; rewrite /mean_input; case: (x) => // xs; rewrite /= (negbTE pr).
  by apply: wlift_sub Ha => y b /=; rewrite (negbTE pr).
subst p; rewrite /= eqxx => Hm Ha.
have W y b : width (HAdd r d rest) r y = Some b -> width (HAdd r d rest) r y = Some b by [].
have At : (if x is Tup _ then false else true) -> width (HAdd r d rest) r x = Some a by case: (x) Ha.
have No : ~~ tuples (HAdd r d rest) r -> if x is Tup _ then false else true.
  by case: (x) Hm => // xs /and3P [_ _ ->].
have Tu q : tuples (HAdd r d rest) r = tuples rest q -> mean_input rest q x.
  by move=> e; move: Hm; rewrite /mean_input e.
case: d E Hstr HQ Hm Ha W At No Tu => [mu k|mu k lr|q|q c|q f|q q'|q c|q f|q t t0|q dd|ps] E Hstr HQ Hm Ha W At No Tu //=; rewrite ?onME; move: At No Tu => /=; rewrite eqxx => At No Tu.
- have := At (No isT); case: (x) Hm => // xs Fx [<-]; exists mu => //.
  case: HQ => [[H _]|[f [g [a1 [b1 [k1 [k2 [k3 [k4 [Hpr [m1 m2] _ _ [-> _]]]]]]]]]]].
    by have [n [v [e1 e2]]] := H (see_k w) (see_m w) xs Fx; exists n, v.
  have Hf : f \in pids rest by apply: (MA_pids (m := m)); rewrite m1.
  have Hg : g \in pids rest by apply: (MA_pids (m := m)); rewrite m2.
  have [F1 G1] := factor_width xs lt E' (Hstr isT) Hpr Hf Hg.
  have [a' E1 H1] := IH f (Num xs) _ Fx F1; have [b' E2 H2] := IH g (Num xs) _ Fx G1.
  move: E1 E2; rewrite m1 m2 => -[->] [->].
  by apply: givm_mul => //; apply: givm_scale.
- have W1 : widths rest q x = Some a by apply: wlift_sub Ha => y b /=; rewrite eqxx.
  by have [mu -> H1] := IH _ _ _ (Tu q erefl) W1; exists mu.
- have Hq := At (No isT); have [xs ex ea] := free_num (Hstr isT) Hq; subst x a.
  have [mu -> Hmu] := IH q (Num xs) _ Hm Hq.
  by exists (MAdd mu (MScale c (@MOne R))) => //; apply: givm_add => //; apply: givm_scale; apply: givm_one.
- have := At (No isT); case: (x) Hm => // xs Fx; case: eqP => // Hq [<-].
  have [mu -> Hmu] := IH q (Num xs) _ Fx Hq.
  by exists (MAdd mu (MFun (FUser f))) => //; apply: givm_add => //; apply: givm_fun.
- have W1 : widths rest q x = Some a by apply: wlift_sub Ha => y b /=; rewrite eqxx; case: eqP.
  have W2 : widths rest q' x = Some a by apply: wlift_sub Ha => y b /=; rewrite eqxx; case: eqP => // ->.
  have [M1 M2] : mean_input rest q x /\ mean_input rest q' x.
    by move: Hm; rewrite /mean_input; case: (x) => // xs /=; rewrite eqxx => /and4P [-> -> -> ->].
  have [mu1 -> H1] := IH _ _ _ M1 W1; have [mu2 -> H2] := IH _ _ _ M2 W2.
  by exists (MAdd mu1 mu2) => //; apply: givm_add.
- have W1 : widths rest q x = Some a by apply: wlift_sub Ha => y b /=; rewrite eqxx.
  have [mu -> H1] := IH _ _ _ (Tu q erefl) W1.
  by exists (MScale c mu) => //; apply: givm_scale.
- case: f E HQ Hstr Hm Ha W At No Tu => [g|//|m' p'] E HQ Hstr Hm Ha W At No Tu; last first.
    have := At (No isT); case: eqP => // e Hq; case: HQ => em _ _; subst m'.
    have [xs ex ea] := free_num (Hstr isT) Hq; subst x a.
    have [mu -> Hmu] := IH q (Num xs) _ Hm Hq.
    exists (MMul (MFun (@FMean R m p')) mu) => //; apply: givm_mul => //.
    have Hp : width rest p' (Num xs) = Some (size xs) by rewrite -e.
    by have [n [v [e1 e2]]] := mean_fun lt E' IH Hm Hp; exists n.+1, v.
  have := At (No isT); case: (x) Hm => // xs Fx; case: eqP => // Hq [<-].
  have [mu -> Hmu] := IH q (Num xs) _ Fx Hq.
  by exists (MMul (MFun (FUser g)) mu) => //; apply: givm_mul => //; apply: givm_fun.
- have := At (No isT); case: (x) Hm => // xs Fx Hq.
  have Fx' : mean_input rest q (Num (map t xs)) by rewrite /= size_map.
  have [mu -> [n [e [e1 e2]]]] := IH q _ _ Fx' Hq.
  by exists (MMap t mu) => //; exists n.+1, e.
- have := At (No isT); case: (x) Hm => // xs Fx; case: eqP => // Hq [<-].
  have [mu -> Hmu] := IH q (Num [:: [::]]) _ isT Hq.
  by exists (MDiff dd mu) => //; apply: givm_diff.
- exists (@MMom R m ps) => //.
  have F q zs b : filled (Num zs) -> width rest q (Num zs) = Some b -> givm (@MMom R m ps) (Fdd q (Num zs)) b.
    move=> Fz Hq; have [mu Emu [n [e [e1 e2]]]] := IH q (Num zs) b Fz Hq.
    exists n.+1, e; split=> //; rewrite -e1.
    have -> : evm n.+1 (@MMom R m ps) (Fdd q (Num zs)) = obind (fun m1 => evm n m1 (Num zs)) (see_m w m q) by [].
    rewrite see_m_log // lt (MA_ext m E' (l_wf (v_log I.1) lt) (fun _ => width_pids Hq)).
    by rewrite Emu.
  have Fl y b : flat y -> width (HAdd r (DCross ps) rest) r y = Some b -> givm (@MMom R m ps) y b.
    rewrite /= eqxx; case: y => [zs|q [zs|//|//]|//] //= Fz; last by case: ifP => // _; apply: F.
    move=> Hb.
    have [n [e [e1 e2]]] : givm (@MMom R m ps) (Tup [seq Fdd q (Num zs) | q <- ps]) b.
      apply: (@givm_tup m ps (fw rest)); first by rewrite size_map.
        move=> y c /in_map_iff [q [<- _]]; exact: F.
      exact: (@crossi_width ps rest (Num zs)).
    by exists n.+1, e.
  case: x Hm Ha {W At No Tu} => [zs|q y|xs] Hm Ha; try exact: Fl.
  case/and3P: Hm => s0 Hf _; apply: givm_tup Ha => // y b Hy Hb.
  have Fy : flat y by elim: (xs) Hf Hy {s0} => //= z zs IHz /andP [Fz Fzs] [<-|] //; apply: IHz.
  by apply: Fl => //; case: (y) Fy Hb.
Qed.

Lemma both h m : (m < nm)%N -> ext h (l m) -> katom h m /\ minput h m.
Proof.
elim: h m => [|pm par IH o|r d rest IH] m lt E.
- by split=> // p x a /mean_filled Fx Ha; have := widths_pids Fx Ha.
- have eb : base (l m) = Some (pm, par, o) by rewrite (ext_base E).
  have [lp Ep _] := l_base (v_log I.1) lt eb; have [IK IM] := IH pm (ltn_trans lp lt) Ep.
  by split; [apply: kernels_post | apply: means_post].
- have [IK IM] := IH m lt (ext_tail E); by split; [apply: kernels_add | apply: means_add].
Qed.
Lemma kernels h m : (m < nm)%N -> ext h (l m) -> katom h m. Proof. by move=> lt /(both lt) []. Qed.
Lemma means h m : (m < nm)%N -> ext h (l m) -> minput h m. Proof. by move=> lt /(both lt) []. Qed.
End Total.
