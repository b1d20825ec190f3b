(* Kernels at nested inputs consist of their values at the components. *)
From Coq Require Import List.
From mathcomp Require Import all_ssreflect all_algebra.
From mathcomp Require Import zify.
From Verif Require Import Graph Machine Eval Sound.
Set Implicit Arguments. Unset Strict Implicit. Unset Printing Implicit Defensive.
Import GRing.Theory.

Section Leaves.
Variables (R : fieldType) (rdk : mid -> pid -> pid -> option (kexp R)) (rdm : mid -> pid -> option (mexp R)).
Variable D : nat -> (point R -> R) -> point R -> R.
Notation evk := (evk rdk rdm D). Notation input := (input R). Notation dmat := (dmat R).
Implicit Types (x y z a b : input) (M : dmat).

Fixpoint leaves x : seq input := match x with Tup xs => flatten (map leaves xs) | _ => [:: x] end.
Lemma leaves_atom x : atom x -> leaves x = [:: x]. Proof. by case: x. Qed.
Lemma leaf_atom x a : In a (leaves x) -> atom a.
Proof.
elim/input_ind': x => [xs|p x _|xs IH] /=; try by case=> // <-.
elim: xs IH => [|x xs IHx] //= IH H; case: (in_app_or _ _ _ H) => H'; first exact: (IH x (or_introl erefl)).
by apply: IHx => // y Hy; apply: IH; right.
Qed.

Lemma split_app T (l1 l2 u : seq T) (b : T) v : l1 ++ l2 = u ++ b :: v ->
  (exists v1, l1 = u ++ b :: v1) \/ (exists u2, u = l1 ++ u2 /\ l2 = u2 ++ b :: v).
Proof.
elim: l1 u => [|c l1 IH] [|d u] /=; first (by right; exists [::]); first (by move=> ->; right; exists (d :: u)).
  by case=> -> _; left; exists l1.
by case=> -> /IH [[v1 ->]|[u2 [-> ->]]]; [left; exists v1 | right; exists u2].
Qed.
Lemma find_row T (r : T -> nat) (l : seq T) i : (i < sumn (map r l))%N ->
  exists u (a : T) v i', [/\ l = u ++ a :: v, i = (sumn (map r u) + i')%N & (i' < r a)%N].
Proof.
elim: l i => [|a l IH] i //=; case: (ltnP i (r a)) => [lt _|le lt]; first by exists [::], a, l, i.
have [|u [b [v [i' [-> e lt']]]]] := IH (i - r a)%N; first by lia.
by exists (a :: u), b, v, i'; split=> //=; lia.
Qed.
Lemma row_lt T (r : T -> nat) (l u v : seq T) (a : T) i : l = u ++ a :: v -> (i < r a)%N -> (sumn (map r u) + i < sumn (map r l))%N.
Proof. by move=> ->; rewrite map_cat sumn_cat /=; lia. Qed.

(* A matrix of blocks. *)
Section Blk.
Variables (r c : input -> nat) (B : input -> input -> dmat).
Definition Blk (xs ys : seq input) M : Prop :=
  [/\ nr M = sumn (map r xs), nc M = sumn (map c ys) &
   forall u a v u' b v' i j, xs = u ++ a :: v -> ys = u' ++ b :: v' -> (i < r a)%N -> (j < c b)%N ->
     ent M (sumn (map r u) + i)%N (sumn (map c u') + j)%N = ent (B a b) i j].
Lemma Blk_h xs ys1 ys2 M1 M2 M : Blk xs ys1 M1 -> Blk xs ys2 M2 -> dhcat M1 M2 = Some M -> Blk xs (ys1 ++ ys2) M.
Proof.
move=> [r1 c1 H1] [r2 c2 H2]; rewrite /dhcat; case: ifP => // _ [<-]; split=> //=; first by rewrite map_cat sumn_cat c1 c2.
move=> u a v u' b v' i j ex ey li lj; case: (split_app ey) => [[v1 e1]|[u2 [e1 e2]]].
  by rewrite c1 (row_lt e1 lj); apply: H1 ex e1 li lj.
rewrite e1 map_cat sumn_cat c1 -addnA ltnNge leq_addr /= addKn; exact: H2 ex e2 li lj.
Qed.
Lemma Blk_v xs1 xs2 ys M1 M2 M : Blk xs1 ys M1 -> Blk xs2 ys M2 -> dvcat M1 M2 = Some M -> Blk (xs1 ++ xs2) ys M.
Proof.
move=> [r1 c1 H1] [r2 c2 H2]; rewrite /dvcat; case: ifP => // _ [<-]; split=> //=; first by rewrite map_cat sumn_cat r1 r2.
move=> u a v u' b v' i j ex ey li lj; case: (split_app ex) => [[v1 e1]|[u2 [e1 e2]]].
  by rewrite r1 (row_lt e1 li); apply: H1 e1 ey li lj.
rewrite e1 map_cat sumn_cat r1 -addnA ltnNge leq_addr /= addKn; exact: H2 e2 ey li lj.
Qed.
Lemma Blk_hs (g : input -> option dmat) xs ys M : (forall y, In y ys -> forall My, g y = Some My -> Blk xs (leaves y) My) ->
  ofold1 (@dhcat R) (map g ys) = Some M -> Blk xs (flatten (map leaves ys)) M.
Proof.
elim: ys M => [|y [|y' ys] IH] M H; first by [].
  by move=> /= E; rewrite cats0; apply: H E; left.
set l := y' :: ys in IH H *; rewrite -[ofold1 _ _]/(obind (fun A : dmat => obind (dhcat A) (ofold1 (@dhcat R) (map g l))) (g y)).
case E1: (g y) => [M1|]; last by []. case E2: (ofold1 (@dhcat R) (map g l)) => [M2|] E; last by [].
have {}E : dhcat M1 M2 = Some M by exact: E.
apply: (Blk_h (H y (or_introl erefl) _ E1) _ E); apply: IH => // z Hz; apply: H; by right.
Qed.
Lemma Blk_vs (g : input -> option dmat) xs ys M : (forall x, In x xs -> forall Mx, g x = Some Mx -> Blk (leaves x) ys Mx) ->
  ofold1 (@dvcat R) (map g xs) = Some M -> Blk (flatten (map leaves xs)) ys M.
Proof.
elim: xs M => [|y [|y' xs] IH] M H; first by [].
  by move=> /= E; rewrite cats0; apply: H E; left.
set l := y' :: xs in IH H *; rewrite -[ofold1 _ _]/(obind (fun A : dmat => obind (dvcat A) (ofold1 (@dvcat R) (map g l))) (g y)).
case E1: (g y) => [M1|]; last by []. case E2: (ofold1 (@dvcat R) (map g l)) => [M2|] E; last by [].
have {}E : dvcat M1 M2 = Some M by exact: E.
apply: (Blk_v (H y (or_introl erefl) _ E1) _ E); apply: IH => // z Hz; apply: H; by right.
Qed.
Lemma in_leaves xs x a : In x xs -> In a (leaves x) -> In a (flatten (map leaves xs)).
Proof. by elim: xs => [|y xs IH] //= [->|H] Ha; apply: in_or_app; [left|right; exact: IH]. Qed.

Lemma grid n k x y M :
  (forall a b, In a (leaves x) -> In b (leaves y) -> forall N M', evk N k a b = Some M' -> [/\ M' = B a b, nr M' = r a & nc M' = c b]) ->
  evk n k x y = Some M -> Blk (leaves x) (leaves y) M.
Proof.
elim: n x y M => [|n IH] x y M H //.
case ax: (atom x); case ay: (atom y).
- rewrite !leaves_atom // in H * => E; have [eM e1 e2] := H x y (or_introl erefl) (or_introl erefl) _ _ E.
  split; rewrite ?e1 ?e2 /= ?addn0 //.
  move=> [|a0 u] a v [|b0 u'] b v' i j //=; try by case: u.
  + by case=> <- _ [<- _] _ _; rewrite -eM.
  + by case: u'.
- case: y ay H => // ys _ H; rewrite at_tupr // => E; have := IH (Tup [:: x]) (Tup ys) M.
  by rewrite /= cats0; apply.
- case: x ax H => // xs _ H; rewrite at_tupl // => E; have := IH (Tup xs) (Tup [:: y]) M.
  by rewrite /= cats0; apply.
case: x ax H => // xs _; case: y ay => // ys _ H; rewrite at_tup /dblock -map_comp => E.
apply: (@Blk_vs (fun xi => ofold1 (@dhcat R) [seq evk n k xi yj | yj <- ys]) xs (leaves (Tup ys)) M) => // x Hx Mx Ex.
apply: (@Blk_hs (fun yj => evk n k x yj) (leaves x) ys Mx) => // y Hy My Ey.
by apply: (IH _ _ _ _ Ey) => a b Ha Hb; apply: H; [exact: in_leaves Hx Ha | exact: in_leaves Hy Hb].
Qed.
End Blk.

(* The values at the components exist. *)
Lemma ofold1_some T (f : T -> T -> option T) (l : seq (option T)) v o : ofold1 f l = Some v -> In o l -> exists t, o = Some t.
Proof.
elim: l v => [|c [|d l] IH] v //=; first by move=> -> [<-|] //; exists v.
case: c => [c|] //=; case E: (match l with [::] => d | _ => _ end) => [e|] //= _ [<-|H]; first by exists c.
exact: IH E H.
Qed.
Lemma leaf_some n k x y M a b : evk n k x y = Some M -> In a (leaves x) -> In b (leaves y) -> exists M', evk n k a b = Some M'.
Proof.
elim: n x y M => [|n IH] x y M //.
case ax: (atom x); case ay: (atom y).
- by rewrite !leaves_atom // => E [<-|] // [<-|] //; exists M.
- case: y ay => // ys _; rewrite at_tupr // => E Ha Hb; have [|//|M' E'] := IH (Tup [:: x]) (Tup ys) M E; first by rewrite /= cats0.
  by exists M'; apply: evk_fuel E'.
- case: x ax => // xs _; rewrite at_tupl // => E Ha Hb; have [//||M' E'] := IH (Tup xs) (Tup [:: y]) M E; first by rewrite /= cats0.
  by exists M'; apply: evk_fuel E'.
case: x ax => // xs _; case: y ay => // ys _; rewrite at_tup /dblock => E Ha Hb.
have in_flat zs c : In c (flatten (map leaves zs)) -> exists2 z, In z zs & In c (leaves z).
  elim: zs => [|z zs IHz] //= H; case: (in_app_or _ _ _ H) => [H'|/IHz [z' H1 H2]]; [by exists z; [left|]|by exists z'; [right|]].
have [x Hx Hxa] := in_flat _ _ Ha; have [y Hy Hyb] := in_flat _ _ Hb.
have [Mx Ex] : exists Mx, ofold1 (@dhcat R) [seq evk n k x yj | yj <- ys] = Some Mx.
  apply: (ofold1_some E); rewrite -map_comp; exact: (in_map (fun xi => ofold1 (@dhcat R) [seq evk n k xi yj | yj <- ys]) xs x Hx).
have [My Ey] : exists My, evk n k x y = Some My by apply: (ofold1_some Ex); exact: (in_map (evk n k x) ys y Hy).
by have [M' E'] := IH _ _ _ Ey Hxa Hyb; exists M'; apply: evk_fuel E'.
Qed.

Lemma leaves_ne n k x y M : evk n k x y = Some M -> exists a b, In a (leaves x) /\ In b (leaves y).
Proof.
elim: n x y M => [|n IH] x y M //.
case ax: (atom x); case ay: (atom y).
- by rewrite !leaves_atom // => _; exists x, y; split; left.
- case: y ay => // ys _; rewrite at_tupr // => /IH [a [b [Ha Hb]]]; exists a, b; split=> //.
  by move: Ha; rewrite /= cats0.
- case: x ax => // xs _; rewrite at_tupl // => /IH [a [b [Ha Hb]]]; exists a, b; split=> //.
  by move: Hb; rewrite /= cats0.
case: x ax => // -[|x xs] _; case: y ay => // -[|y ys] _ //; rewrite at_tup /dblock => E.
  by have := ofold1_some E (or_introl erefl) => -[? ?].
have [Mx Ex] := ofold1_some E (or_introl erefl); have [My Ey] := ofold1_some Ex (or_introl erefl).
have [a [b [Ha Hb]]] := IH _ _ _ Ey; by exists a, b; split; apply: in_or_app; left.
Qed.

(* Columns. *)
Definition Hc (ys : seq input) (f : input -> dmat) M : Prop :=
  [/\ nc M = sumn (map (fun y => nc (f y)) ys), forall y, In y ys -> nr (f y) = nr M &
   forall u b v i j, ys = u ++ b :: v -> (i < nr M)%N -> (j < nc (f b))%N ->
     ent M i (sumn (map (fun y => nc (f y)) u) + j)%N = ent (f b) i j].
Lemma Hc_h f ys1 ys2 M1 M2 M : Hc ys1 f M1 -> Hc ys2 f M2 -> dhcat M1 M2 = Some M -> Hc (ys1 ++ ys2) f M.
Proof.
move=> [c1 r1 H1] [c2 r2 H2]; rewrite /dhcat; case: ifP => // /eqP er [<-]; split=> /=; first by rewrite map_cat sumn_cat c1 c2.
  by move=> y Hy; case: (in_app_or _ _ _ Hy) => H; [exact: r1|rewrite er; exact: r2].
move=> u b v i j ey li lj; case: (split_app ey) => [[v1 e1]|[u2 [e1 e2]]].
  by rewrite c1 (row_lt (r := fun y => nc (f y)) e1 lj); apply: H1 e1 li lj.
by rewrite e1 map_cat sumn_cat c1 -addnA ltnNge leq_addr /= addKn; apply: H2 e2 _ lj; rewrite -er.
Qed.
Lemma Hc_v f1 f2 f ys M1 M2 M : Hc ys f1 M1 -> Hc ys f2 M2 -> dvcat M1 M2 = Some M ->
  (forall a, In a ys -> dvcat (f1 a) (f2 a) = Some (f a)) -> Hc ys f M.
Proof.
move=> [c1 r1 H1] [c2 r2 H2]; rewrite /dvcat; case: ifP => // /eqP ec [<-] F.
have Fe a : In a ys -> [/\ nr (f a) = (nr M1 + nr M2)%N, nc (f a) = nc (f1 a), nc (f a) = nc (f2 a) &
    forall i j, ent (f a) i j = if (i < nr M1)%N then ent (f1 a) i j else ent (f2 a) (i - nr M1)%N j].
  by move=> Ha; have := F a Ha; case: ifP => // /eqP e [<-] /=; rewrite (r1 a Ha) (r2 a Ha); split.
have mE (l : seq input) (g : input -> dmat) : (forall a, In a l -> nc (f a) = nc (g a)) -> map (fun y => nc (f y)) l = map (fun y => nc (g y)) l.
  by elim: l => [|a l IH] //= H; rewrite (H a (or_introl erefl)) IH // => b Hb; apply: H; right.
split=> /=.
- by rewrite c1; congr sumn; apply: esym; apply: mE => a Ha; have [] := Fe a Ha.
- by move=> y Hy; have [] := Fe y Hy.
move=> u b v i j ey li lj; have Hb : In b ys by rewrite ey; apply: in_or_app; right; left.
have sub a : In a u -> In a ys by move=> Ha; rewrite ey; apply: in_or_app; left.
have [_ e1 e2 e3] := Fe b Hb; rewrite e3; case: ifP => lt.
  rewrite (mE u f1) => [|a Ha]; last by have [] := Fe a (sub a Ha).
  by apply: H1 ey _ _ => //; rewrite -e1.
rewrite (mE u f2) => [|a Ha]; last by have [] := Fe a (sub a Ha).
by apply: H2 ey _ _; [lia|rewrite -e2].
Qed.
Lemma Hc_hs f (g : input -> option dmat) ys M : (forall y, In y ys -> forall My, g y = Some My -> Hc (leaves y) f My) ->
  ofold1 (@dhcat R) (map g ys) = Some M -> Hc (flatten (map leaves ys)) f M.
Proof.
elim: ys M => [|y [|y' ys] IH] M H; first by [].
  by move=> /= E; rewrite cats0; apply: H E; left.
set l := y' :: ys in IH H *; rewrite -[ofold1 _ _]/(obind (fun A : dmat => obind (dhcat A) (ofold1 (@dhcat R) (map g l))) (g y)).
case E1: (g y) => [M1|]; last by []. case E2: (ofold1 (@dhcat R) (map g l)) => [M2|] E; last by [].
have {}E : dhcat M1 M2 = Some M by exact: E.
apply: (Hc_h (H y (or_introl erefl) _ E1) _ E); apply: IH => // z Hz; apply: H; by right.
Qed.
Lemma evk_det n n' k x y M M' : evk n k x y = Some M -> evk n' k x y = Some M' -> M = M'.
Proof.
move=> E E'; have := evk_fuel (leq_addr n' n) E; rewrite addnC => E1; have := evk_fuel (leq_addr n n') E'.
by rewrite E1 => -[].
Qed.
Lemma cols n F k z x f M : (forall a, In a (leaves x) -> evk F k z a = Some (f a)) -> evk n k z x = Some M -> Hc (leaves x) f M.
Proof.
elim: n F z x f M => [|n IH] F z x f M H //.
case ax: (atom x).
  rewrite leaves_atom // in H * => E; have e := evk_det E (H x (or_introl erefl)); subst M.
  split; rewrite /= ?addn0 //; first by move=> y [<-|].
  by move=> [|a u] b v i j //=; [case=> <- _|case: u].
case: x ax H => // xs _ H; case az: (atom z).
  rewrite at_tupr //; case: n IH => [|n] IH //; rewrite at_tup /dblock /= => E.
  apply: (@Hc_hs f (fun xj => evk n k z xj) xs M _ E) => x Hx Mx Ex.
  apply: (IH F z) => [a Ha|]; first by apply: H; exact: in_leaves Hx Ha.
  exact: evk_fuel Ex.
case: z az H => // zs _ H; rewrite at_tup /dblock -map_comp => E.
have {}H a : In a (leaves (Tup xs)) -> ofold1 (@dvcat R) [seq evk F k zl a | zl <- zs] = Some (f a).
  move=> Ha; have := evk_fuel (leq_addl 2 F) (H a Ha); rewrite -[(2 + F)%N]/(F.+2) at_tupl; last exact: leaf_atom Ha.
  by rewrite at_tup /dblock -map_comp.
move: E H; elim: zs f M => [|z [|z' zs] IHz] f M //.
  move=> /= E H; apply: (@Hc_hs f (fun xj => evk n k z xj) xs M _ E) => x Hx Mx Ex.
  by apply: (IH F z _ _ _ _ Ex) => a Ha; apply: H; exact: in_leaves Hx Ha.
set zs' := z' :: zs in IHz *.
rewrite -[map _ (z :: zs')]/(ofold1 (@dhcat R) [seq evk n k z xj | xj <- xs] :: [seq ofold1 (@dhcat R) [seq evk n k zl xj | xj <- xs] | zl <- zs']).
have consE (g : input -> option dmat) o : ofold1 (@dvcat R) (o :: map g zs') = obind (fun A : dmat => obind (dvcat A) (ofold1 (@dvcat R) (map g zs'))) o by [].
rewrite consE; case E1: (ofold1 (@dhcat R) _) => [M1|]; last by []. case E2: (ofold1 (@dvcat R) _) => [M2|] E H; last by [].
have {}E : dvcat M1 M2 = Some M by exact: E.
pose f1 a := odflt (dzero R 0 0) (evk F k z a).
pose f2 a := odflt (dzero R 0 0) (ofold1 (@dvcat R) [seq evk F k zl a | zl <- zs']).
have P a : In a (leaves (Tup xs)) -> [/\ evk F k z a = Some (f1 a), ofold1 (@dvcat R) [seq evk F k zl a | zl <- zs'] = Some (f2 a) & dvcat (f1 a) (f2 a) = Some (f a)].
  move=> Ha; have := H a Ha; rewrite -[map _ (z :: zs')]/(evk F k z a :: [seq evk F k zl a | zl <- zs']) consE /f1 /f2.
  case: (evk F k z a) => [A1|]; last by []. by case: (ofold1 (@dvcat R) _) => [A2|].
apply: (@Hc_v f1 f2 f (leaves (Tup xs)) M1 M2 M) => //; last by move=> a /P [].
  apply: (@Hc_hs f1 (fun xj => evk n k z xj) xs M1 _ E1) => x Hx Mx Ex.
  by apply: (IH F z _ _ _ _ Ex) => a Ha; have [] := P a (in_leaves Hx Ha).
by apply: (IHz f2 M2 E2) => a /P [].
Qed.
End Leaves.
