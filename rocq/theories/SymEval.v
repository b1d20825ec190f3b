(* Kernels whose evaluations are transposes of each other. *)
From Coq Require Import List FunctionalExtensionality.
From mathcomp Require Import all_ssreflect all_algebra.
From mathcomp Require Import zify.
From Verif Require Import Graph Machine Refine Worlds Eval GraphSpec RV Sound ModelSpec.
Set Implicit Arguments. Unset Strict Implicit. Unset Printing Implicit Defensive.
Import GRing.Theory.
Local Open Scope ring_scope.

Section Matrices.
Variable R : fieldType.
Notation dmat := (dmat R).
Implicit Types (a b M : dmat).

Lemma tr_sym a b : transposed a b -> transposed b a.
Proof. by case=> h1 h2 h3; split=> // i j li lj; rewrite h3 ?h1 ?h2. Qed.
Lemma tr_dtr a : transposed a (dtr a). Proof. by []. Qed.
Lemma tr_map2 f a b a' b' M M' : transposed a a' -> transposed b b' ->
  dmap2 f a b = Some M -> dmap2 f a' b' = Some M' -> transposed M M'.
Proof.
move=> [a1 a2 a3] [b1 b2 b3]; rewrite /dmap2 /same_shape; case: ifP => // /andP [/eqP e1 /eqP e2] [<-].
case: ifP => // _ [<-]; split=> //= i j li lj; rewrite a3 // b3 -?e1 -?e2 //.
Qed.
Lemma tr_scale c a a' : transposed a a' -> transposed (dscale c a) (dscale c a').
Proof. by case=> h1 h2 h3; split=> //= i j li lj; rewrite h3. Qed.
Lemma tr_vh a b a' b' M M' : transposed a a' -> transposed b b' -> dvcat a b = Some M -> dhcat a' b' = Some M' ->
  transposed M M'.
Proof.
move=> [a1 a2 a3] [b1 b2 b3]; rewrite /dvcat /dhcat; case: ifP => // /eqP e [<-]; case: ifP => // _ [<-].
split=> //= [|i j li lj]; first by rewrite a1 b1.
rewrite -a1; case: ifP => lt; first exact: a3.
by rewrite b3 -?e //; move: li lt; lia.
Qed.
Lemma tr_hv a b a' b' M M' : transposed a a' -> transposed b b' -> dhcat a b = Some M -> dvcat a' b' = Some M' ->
  transposed M M'.
Proof. by move=> /tr_sym h1 /tr_sym h2 h3 h4; apply: tr_sym; apply: tr_vh h1 h2 h4 h3. Qed.
Lemma interchange a1 a2 b1 b2 r1 r2 M : dhcat a1 b1 = Some r1 -> dhcat a2 b2 = Some r2 -> dvcat r1 r2 = Some M ->
  nc a1 = nc a2 -> exists C L, [/\ dvcat a1 a2 = Some C, dvcat b1 b2 = Some L & dhcat C L = Some M].
Proof.
rewrite /dhcat /dvcat; case: ifP => // /eqP e1 [<-]; case: ifP => // /eqP e2 [<-] /=; case: ifP => // /eqP e3 [<-] e.
have e' : nc b1 = nc b2 by move: e3; lia.
rewrite e e' !eqxx; do 2 eexists; split; [reflexivity | reflexivity | ]; rewrite /= e1 e2 eqxx.
congr (Some (DMat _ _ _)).
by apply: functional_extensionality => i; apply: functional_extensionality => j; case: ifP; case: ifP.
Qed.

Section Grid.
Variables (T U : Type).
Lemma fold_cons S (f : S -> S -> option S) (u : option S) (l : seq (option S)) (M : S) : l <> [::] ->
  ofold1 f (u :: l) = Some M -> exists (a b : S), [/\ u = Some a, ofold1 f l = Some b & f a b = Some M].
Proof.
case: l => // v l _; rewrite ofold1_cons; move: (ofold1 f (v :: l)) => r; case: u => //= a; case: r => //= b E.
by exists a, b.
Qed.
Lemma fold2 S (f : S -> S -> option S) (u v : option S) (l : seq (option S)) (M : S) :
  ofold1 f (u :: v :: l) = Some M -> exists (a b : S), [/\ u = Some a, ofold1 f (v :: l) = Some b & f a b = Some M].
Proof. exact: fold_cons. Qed.
Lemma map_nil A B (f : A -> B) (l : seq A) : l <> [::] -> map f l <> [::]. Proof. by case: l. Qed.

Lemma tr_line (g : U -> option dmat) (g' : U -> option dmat) ys M M' :
  (forall y a a', In y ys -> g y = Some a -> g' y = Some a' -> transposed a a') ->
  ofold1 (@dhcat R) (map g ys) = Some M -> ofold1 (@dvcat R) (map g' ys) = Some M' -> transposed M M'.
Proof.
elim: ys M M' => [|y [|y' ys] IH] M M' H //; first by apply: H; left.
rewrite ![map _ (y :: _)]/=.
move=> E E'; have [a [b [e1 e2 e3]]] := fold2 E; have [a' [b' [e1' e2' e3']]] := fold2 E'.
apply: tr_hv e3 e3'; first by apply: (H y) => //; left.
by apply: IH e2 e2' => z c c' Hz; apply: H; right.
Qed.
Lemma row_nr (g : U -> option dmat) ys M y : ofold1 (@dhcat R) (map g ys) = Some M -> In y ys ->
  exists2 a, g y = Some a & nr a = nr M.
Proof.
elim: ys M => [|z [|z' ys] IH] M //; first by move=> /= e [<-|//]; exists M.
rewrite [map _ (z :: _)]/=; move=> E; have [a [b [e1 e2 e3]]] := fold2 E; move: (e3); rewrite {1}/dhcat; case: ifP => // /eqP e4 [e5].
have e6 : nr M = nr a by rewrite -e5.
case=> [<-|H]; first by exists a.
by have [c h1 h2] := IH _ e2 H; exists c => //; rewrite h2 -e4.
Qed.
Lemma peel (h : U -> option dmat) (g : U -> T -> option dmat) ys xs c M : xs <> [::] ->
  (forall y a, In y ys -> h y = Some a -> nc a = c) ->
  ofold1 (@dvcat R) [seq ofold1 (@dhcat R) (h y :: map (g y) xs) | y <- ys] = Some M ->
  exists C L, [/\ ofold1 (@dvcat R) (map h ys) = Some C, nc C = c,
    dblock [seq [seq g y x | x <- xs] | y <- ys] = Some L & dhcat C L = Some M].
Proof.
move=> nx; elim: ys M => [|y [|y' ys] IH] M H //.
  move=> E; have {}E : ofold1 (@dhcat R) (h y :: map (g y) xs) = Some M := E.
  have [|a [b [e1 e2 e3]]] := fold_cons _ E; first exact: map_nil.
  by exists a, b; split=> //; apply: (H y) e1; left.
move=> E; have [r1 [r2 [e1 e2 e3]]] := fold2 E.
have [|C [L [h1 h2 h3 h4]]] := IH _ _ e2; first by move=> z a Hz; apply: H; right.
have [|a [b [f1 f2 f3]]] := fold_cons _ e1; first exact: map_nil.
have [|C' [L' [k1 k2 k3]]] := interchange f3 h4 e3; first by rewrite h2; apply: (H y) f1; left.
exists C', L'; split=> //.
- by rewrite ![map _ (y :: _)]/= ofold1_cons f1 /=; rewrite /= in h1; rewrite h1.
- by move: k1; rewrite /dvcat; case: ifP => // _ [<-] /=; apply: (H y) f1; left.
- transitivity (obind (fun u => obind (@dvcat R u) (dblock [seq [seq g z x | x <- xs] | z <- y' :: ys]))
    (ofold1 (@dhcat R) (map (g y) xs))) => //.
  by rewrite h3 f2.
Qed.
Lemma tr_block (g : T -> U -> option dmat) (g' : U -> T -> option dmat) xs ys M M' :
  (forall x y a a', In x xs -> In y ys -> g x y = Some a -> g' y x = Some a' -> transposed a a') ->
  dblock [seq [seq g x y | y <- ys] | x <- xs] = Some M -> dblock [seq [seq g' y x | x <- xs] | y <- ys] = Some M' ->
  transposed M M'.
Proof.
elim: xs M M' => [|x [|x' xs] IH] M M' H //.
  rewrite /dblock /= => h1 h2; apply: (@tr_line (g x) (fun y => g' y x) ys) => //; last by rewrite -map_comp in h2.
  by move=> y a a' Hy; apply: H => //; left.
rewrite {1}/dblock; rewrite ![map _ (x :: _)]/= => E0; have [r1 [r2 [e1 e2 e3]]] := fold2 E0.
rewrite /dblock -map_comp => E.
have [||C [L [h1 h2 h3 h4]]] := @peel (fun y => g' y x) (fun y x => g' y x) ys (x' :: xs) (nr r1) M' _ _ E => //.
  move=> y a' Hy ea'; have [a ea <-] := row_nr e1 Hy.
  by have [-> _ _] := H x y a a' (or_introl erefl) Hy ea ea'.
apply: tr_vh e3 h4.
  by apply: tr_line e1 h1 => y a a' Hy; apply: H => //; left.
by apply: IH e2 h3 => z y a a' Hz; apply: H; right.
Qed.
End Grid.

Lemma tr_iqf (K A B Q Q' : dmat) : square_sym K -> iqf K A B = Some Q -> iqf K B A = Some Q' -> transposed Q Q'.
Proof.
move=> [sq sy] E1 E2; have [[a1 a2 a3 a4] [a5 a6 a7]] := iqf_ent E1 erefl; have [[b1 b2 b3 b4] [b5 b6 b7]] := iqf_ent E2 erefl.
split; rewrite ?a3 ?a4 ?b3 ?b4 // => i j li lj; rewrite a7 // b7 //.
set X := \row_k _; set Y := \col_k _; set X' := \row_k _; set Y' := \col_k _; set I := invmx _.
have sI : I^T = I.
  rewrite /I trmx_inv; congr invmx; apply/matrixP => r c; rewrite !mxE; exact: sy.
have -> : X' = Y^T by apply/matrixP => r c; rewrite !mxE.
have -> : Y' = X^T by apply/matrixP => r c; rewrite !mxE.
have -> : Y^T *m I *m X^T = (X *m I *m Y)^T by rewrite !trmx_mul sI mulmxA.
by rewrite [RHS]mxE.
Qed.
Lemma tr_self_sym (K : dmat) : transposed K K -> square_sym K.
Proof. by case=> h1 h2 h3; split=> // i j li lj; apply: h3; rewrite // -h1. Qed.
Lemma sym_tr (K : dmat) : square_sym K -> transposed K K.
Proof. by case=> h1 h2; split=> // i j li lj; apply: h2; rewrite // h1. Qed.
End Matrices.

Section Kernels.
Variable R : fieldType.
Variables (rdk : mid -> pid -> pid -> option (kexp R)) (rdm : mid -> pid -> option (mexp R)).
Variable D : nat -> (point R -> R) -> point R -> R.
Notation evk := (evk rdk rdm D). Notation evf := (evf rdk rdm D).
Implicit Types (k a b : kexp R) (x y : input R).

Definition tr n k k' := forall x y M M', evk n k x y = Some M -> evk n k' y x = Some M' -> transposed M M'.
Definition atr n k k' := forall x y M M', atom x -> atom y -> evk n k x y = Some M -> evk n k' y x = Some M' -> transposed M M'.

Lemma tr_swap n k k' : tr n k k' -> tr n k' k.
Proof. by move=> H x y M M' e1 e2; apply/tr_sym/H; [exact: e2 | exact: e1]. Qed.
Lemma tr_le n n' k k' : (n <= n')%N -> tr n' k k' -> tr n k k'.
Proof. by move=> le H x y M M' /(evk_fuel le) e1 /(evk_fuel le) e2; apply: H e1 e2. Qed.
Lemma tr_atr n k k' : atr n k k' -> tr n k k'.
Proof.
elim: n => [|n IH] // H; have {}IH : tr n k k'.
  by apply: IH => x y M M' ax ay /(evk_fuel (leqnSn n)) e1 /(evk_fuel (leqnSn n)) e2; apply: H e1 e2.
move=> x y M M'; case ax: (atom x); case ay: (atom y); first exact: H.
- case: y ay => // ys _; rewrite at_tupr // at_tupl //; exact: IH.
- case: x ax => // xs _; rewrite at_tupl // at_tupr //; exact: IH.
case: x ax => // xs _; case: y ay => // ys _; rewrite !at_tup; apply: tr_block => x y a a' _ _; exact: IH.
Qed.

Lemma tr_zero n : tr n KZero KZero.
Proof. by apply: tr_atr; case: n => // n x y M M' ax ay; rewrite !at_zero // => -[<-] [<-]. Qed.
Lemma inv2 (f : dmat R -> dmat R -> option (dmat R)) o1 o2 M : obind2 f o1 o2 = Some M ->
  exists A B, [/\ o1 = Some A, o2 = Some B & f A B = Some M].
Proof. by case: o1 => //= A; case: o2 => //= B e; exists A, B. Qed.
Lemma tr_rev n k : tr n k (KRev k).
Proof.
apply: tr_atr; case: n => // n x y M M' ax ay e1; rewrite at_rev //.
case E: (evk n k x y) => [A|] //= [<-]; move: e1; rewrite (evk_fuel (leqnSn n) E) => -[<-]; exact: tr_dtr.
Qed.
Lemma tr_add n a a' b b' : tr n a a' -> tr n b b' -> tr n (KAdd a b) (KAdd a' b').
Proof.
move=> Ha Hb; apply: tr_atr; case: n Ha Hb => // n /(tr_le (leqnSn n)) Ha /(tr_le (leqnSn n)) Hb x y M M' ax ay.
rewrite !at_add // => /inv2 [A [B [e1 e2 e3]]] /inv2 [A' [B' [e1' e2' e3']]].
exact: tr_map2 (Ha _ _ _ _ e1 e1') (Hb _ _ _ _ e2 e2') e3 e3'.
Qed.
Lemma tr_mul n a a' b b' : tr n a a' -> tr n b b' -> tr n (KMul a b) (KMul a' b').
Proof.
move=> Ha Hb; apply: tr_atr; case: n Ha Hb => // n /(tr_le (leqnSn n)) Ha /(tr_le (leqnSn n)) Hb x y M M' ax ay.
rewrite !at_mul // => /inv2 [A [B [e1 e2 e3]]] /inv2 [A' [B' [e1' e2' e3']]].
exact: tr_map2 (Ha _ _ _ _ e1 e1') (Hb _ _ _ _ e2 e2') e3 e3'.
Qed.
Lemma dmap2C f (A B : dmat R) M M' : (forall u v, f u v = f v u) -> dmap2 f A B = Some M -> dmap2 f B A = Some M' ->
  [/\ nr M = nr M', nc M = nc M' & forall i j, ent M i j = ent M' i j].
Proof.
move=> C; rewrite /dmap2 /same_shape; case: ifP => // /andP [/eqP e1 /eqP e2] [<-].
by rewrite e1 e2 !eqxx => -[<-]; split=> //= i j; rewrite C.
Qed.
Lemma tr_resp (M M' N : dmat R) : [/\ nr M = nr M', nc M = nc M' & forall i j, ent M i j = ent M' i j] ->
  transposed M' N -> transposed M N.
Proof. by move=> [h1 h2 h3] [h4 h5 h6]; split; rewrite ?h1 ?h2 // => i j li lj; rewrite h3 h6. Qed.
Lemma map2_swap f (A B : dmat R) M : (forall u v, f u v = f v u) -> dmap2 f A B = Some M ->
  exists2 M', dmap2 f B A = Some M' & [/\ nr M = nr M', nc M = nc M' & forall i j, ent M i j = ent M' i j].
Proof.
move=> C E; have [M' E'] : exists M', dmap2 f B A = Some M'.
  by move: E; rewrite /dmap2 /same_shape; case: ifP => // /andP [/eqP e1 /eqP e2] _; rewrite e1 e2 !eqxx; eexists.
by exists M' => //; apply: dmap2C C E E'.
Qed.
Lemma tr_mulC n a b a' b' : tr n a b' -> tr n b a' -> tr n (KMul a b) (KMul a' b').
Proof.
move=> Ha Hb; apply: tr_atr; case: n Ha Hb => // n /(tr_le (leqnSn n)) Ha /(tr_le (leqnSn n)) Hb x y M M' ax ay.
rewrite !at_mul // => /inv2 [A [B [e1 e2 e3]]] /inv2 [A' [B' [e1' e2' e3']]].
have [M1 e4 e5] := map2_swap (@mulrC R) e3.
by apply: (tr_resp e5); apply: tr_map2 (Hb _ _ _ _ e2 e1') (Ha _ _ _ _ e1 e2') e4 e3'.
Qed.
(* The sum of two processes. *)
Lemma tr_sum n a b c d : tr n a a -> tr n b b -> tr n c d -> tr n (KAdd (KAdd (KAdd a b) c) d) (KAdd (KAdd (KAdd a b) c) d).
Proof.
move=> Ha Hb Hc; apply: tr_atr; case: n Ha Hb Hc => // n /(tr_le (leqnSn n)) Ha /(tr_le (leqnSn n)) Hb /(tr_le (leqnSn n)) Hc.
move=> x y M M' ax ay; rewrite !at_add // => /inv2 [S [E [e1 e2 e3]]] /inv2 [S' [E' [e1' e2' e3']]].
case: n Ha Hb Hc e1 e2 e1' e2' => // n Ha Hb Hc; rewrite !at_add // => /inv2 [T [C [f1 f2 f3]]] e2 /inv2 [T' [C' [f1' f2' f3']]] e2'.
have {Ha Hb} HT : transposed T T' by apply: (tr_add (tr_le (leqnSn n) Ha) (tr_le (leqnSn n) Hb)) f1 f1'.
have [t1 t2 t3] := HT.
have [c1 c2 c3] := Hc _ _ _ _ (evk_fuel (leqnSn n) f2) e2'.
have [d1 d2 d3] := tr_swap Hc e2 (evk_fuel (leqnSn n) f2').
move: f3 f3' e3 e3'; rewrite /dadd /dmap2 /same_shape.
case: ifP => // /andP [/eqP g1 /eqP g2] [<-]; case: ifP => // /andP [/eqP g3 /eqP g4] [<-] /=.
case: ifP => // /andP [/eqP g5 /eqP g6] [<-]; case: ifP => // /andP [/eqP g7 /eqP g8] [<-] /=.
split=> //= i j li lj; rewrite t3 // c3 -?g1 -?g2 // d3 -?g5 -?g6 //.
by rewrite -!addrA; congr (_ + _); rewrite addrC.
Qed.
Lemma tr_kscale n c a a' : tr n a a' -> tr n (KScale c a) (KScale c a').
Proof.
move=> Ha; apply: tr_atr; case: n Ha => // n /(tr_le (leqnSn n)) Ha x y M M' ax ay; rewrite !at_scale //.
case E: (evk n a x y) => [A|] //= [<-]; case E': (evk n a' y x) => [A'|] //= [<-].
exact: tr_scale (Ha _ _ _ _ E E').
Qed.
Lemma tr_tensor n f : tr n (KTensor f f) (KTensor f f).
Proof.
apply: tr_atr; case: n => // n x y M M' ax ay; rewrite !at_tensor //.
case: (evf n f x) => //= u; case: (evf n f y) => //= v [<-] [<-]; split=> //= i j _ _; exact: mulrC.
Qed.
Lemma tr_kmap n t a a' : tr n a a' -> tr n (KMap t t a) (KMap t t a').
Proof.
move=> Ha; apply: tr_atr; case: n Ha => // n /(tr_le (leqnSn n)) Ha x y M M' ax ay; rewrite !at_kmap //.
case: (imap t x) => //= x1; case: (imap t y) => //= y1; exact: Ha.
Qed.
Lemma tr_post n kij kji kzi kzj kz z noise : tr n kij kji -> tr n kz kz -> square_sym noise ->
  tr n (KPost kij kzi kzj kz z noise) (KPost kji kzj kzi kz z noise).
Proof.
move=> Ha Hz Hn; apply: tr_atr; case: n Ha Hz => // n /(tr_le (leqnSn n)) Ha /(tr_le (leqnSn n)) Hz x y M M' ax ay.
rewrite !at_post // => /inv2 [A [B [e1 e2 e3]]] /inv2 [A' [B' [e1' e2' e3']]].
apply: tr_map2 (Ha _ _ _ _ e1 e1') _ e3 e3'.
move: e2 e2'; case E: (evk n kz z z) => [Z|] //=; case E2: (dadd Z noise) => [K|] //=.
move=> /inv2 [U [V [f1 f2 f3]]] /inv2 [V' [U' [f1' f2' f3']]].
move: f1' f2' f3'; rewrite f1 f2 => -[<-] [<-] f3'; apply: tr_iqf f3 f3'.
by apply: tr_self_sym; apply: (tr_map2 (Hz _ _ _ _ E E) (sym_tr Hn) E2).
Qed.
(* The kernel of the subspace of pseudo-points. *)
Lemma sym_pseudo me nx (Kz Kzx Kx A : dmat R) : square_sym Kz -> pseudo_A me nx Kz Kzx Kx = Some A -> square_sym A.
Proof.
move=> [sq sy]; rewrite /pseudo_A; case: ifP => // _ [<-]; split=> // i j /= li lj.
have e (r c : nat) (la : (r < nr Kz)%N) (lb : (c < nr Kz)%N) (X : 'M[R]_(nr Kz)) : ent (of_mx X) r c = X (Ordinal la) (Ordinal lb).
  exact: (of_mxE X (Ordinal la) (Ordinal lb)).
rewrite [LHS](e _ _ li lj) [RHS](e _ _ lj li) [LHS]mxE [RHS]mxE; congr (_ + _); first by rewrite !mxE /= sy.
by rewrite [LHS]mxE [RHS]mxE; apply: eq_bigr => s _; rewrite !mxE /= mulrAC [X in X / _]mulrC mulrAC.
Qed.
Lemma tr_sub n kzi kzj kz kzx kx z nz xd nx me : tr n kz kz -> square_sym nz ->
  tr n (KSub kzi kzj kz kzx kx z nz xd nx me) (KSub kzj kzi kz kzx kx z nz xd nx me).
Proof.
move=> Hz Hn; apply: tr_atr; case: n Hz => // n /(tr_le (leqnSn n)) Hz x y M M' ax ay.
rewrite !at_sub // /pseudo_var; case E: (evk n kz z z) => [Z|] //=; case E2: (dadd Z nz) => [K|] //=.
case E3: (evk n kzx z xd) => [C|] //=; case E4: (evk n kx xd xd) => [X|] //=; case E5: (pseudo_A _ _ _ _ _) => [A|] //=.
move=> /inv2 [U [V [f1 f2 f3]]] /inv2 [V' [U' [f1' f2' f3']]].
move: f1' f2' f3'; rewrite f1 f2 => -[<-] [<-] f3'; apply: tr_iqf f3 f3'; apply: sym_pseudo E5.
by apply: tr_self_sym; apply: (tr_map2 (Hz _ _ _ _ E E) (sym_tr Hn) E2).
Qed.
(* The kernel of a derivative. *)
Lemma tr_diff n d a : tr n a a ->
  (forall f s t, (forall u v, exists n' M, evk n' a (Num [:: u]) (Num [:: v]) = Some M /\ f u v = ent M 0 0) ->
     D d (fun u => D d (fun v => f u v) t) s = D d (fun v => D d (fun u => f u v) s) t) ->
  tr n (KDiff (Some d) (Some d) a) (KDiff (Some d) (Some d) a).
Proof.
move=> Ha HD; apply: tr_atr; case: n Ha => // n /(tr_le (leqnSn n)) Ha x y M M' ax ay.
case: x ax => [[|x0 xs]|p x|] // _; case: y ay => [[|y0 ys]|q y|] // _.
rewrite !at_diff2; case: ifP => // Hs [<-]; case: ifP => // _ [<-]; split=> // i j li lj.
rewrite [ent (DMat _ _ _) i j]/= [ent (DMat _ _ _) j i]/=.
have S u v : is_shape 1 1 (evk n a (Num [:: u]) (Num [:: v])).
  move/allP/(_ x0 (mem_head _ _))/allP/(_ y0 (mem_head _ _)): Hs.
  by rewrite (@is_shape_dims _ 1 1 _ (evk n a (Num [:: u]) (Num [:: v]))) //; apply: evk_shape.
have F u v : exists n' M, evk n' a (Num [:: u]) (Num [:: v]) = Some M /\
    entry00 (evk n a (Num [:: u]) (Num [:: v])) = ent M 0 0.
  by move: (S u v); case E: (evk n a _ _) => [B|] // _; exists n, B.
rewrite (HD _ _ _ F); congr (D d _ _); apply: functional_extensionality => v.
congr (D d _ _); apply: functional_extensionality => u.
move: (S u v) (S v u); case E: (evk n a (Num [:: u]) _) => [B|] //= /andP [/eqP s1 /eqP s2].
case E': (evk n a (Num [:: v]) _) => [B'|] //= _.
by have [_ _ ->] := Ha _ _ _ _ E E' => //; rewrite ?s1 ?s2.
Qed.
(* A Cartesian product. *)
Lemma tr_mok n m ps : (forall n' i j k k', (n' < n)%N -> rdk m i j = Some k -> rdk m j i = Some k' -> tr n' k k') ->
  tr n (KMok m ps) (KMok m ps).
Proof.
elim: n => [|n IH] H; first by move=> x y M M'.
have {}IH : tr n (KMok m ps) (KMok m ps) by apply: IH => n' i j k k' lt; apply: H; apply: leq_trans lt _.
apply: tr_atr => x y M M' ax ay; case: x ax => [xs|p x|] // _; case: y ay => [ys|q y|] // _.
- by rewrite !at_mok_nn; apply: IH.
- by rewrite at_mok_nf at_mok_fn; apply: IH.
- by rewrite at_mok_nf at_mok_fn; apply: IH.
rewrite !at_mok_ff; case E: (rdk m p q) => [k|] //=; case E': (rdk m q p) => [k'|] //=.
exact: (H n p q k k' (ltnSn n) E E' x y M M').
Qed.
End Kernels.
