(* General facts about the evaluator of Graph.v: whether an evaluation succeeds, and the
   shape of its result, depend on the shape of the inputs only; and evaluating with more
   knowledge or more fuel gives the same results. *)
From Coq Require Import FunctionalExtensionality.
From mathcomp Require Import all_ssreflect all_algebra.
From mathcomp Require Import zify.
From Verif Require Import Graph.
Set Implicit Arguments. Unset Strict Implicit. Unset Printing Implicit Defensive.
Import GRing.Theory.

Section Eval.
Variable R : fieldType.
Notation kexp := (kexp R). Notation mexp := (mexp R). Notation fexp := (fexp R).
Notation point := (point R). Notation input := (input R). Notation dmat := (dmat R).

Section InputInd.
Variable P : input -> Prop.
Hypothesis HN : forall xs, P (Num xs).
Hypothesis HF : forall p x, P x -> P (Fdd p x).
Hypothesis HT : forall xs, (forall x, List.In x xs -> P x) -> P (Tup xs).
Fixpoint input_ind' (x : input) : P x :=
  match x with
  | Num xs => HN xs
  | Fdd p x => HF p (input_ind' x)
  | Tup xs =>
    HT ((fix go (xs : seq input) : forall x, List.In x xs -> P x :=
      match xs with
      | [::] => fun x H => False_ind _ H
      | a :: xs' => fun x H =>
        match H with
        | or_introl e => eq_ind a P (input_ind' a) x e
        | or_intror H' => go xs' x H'
        end
      end) xs)
  end.
End InputInd.

(* The shape of an input. *)
Fixpoint skel (x : input) : input :=
  match x with
  | Num xs => Num (nseq (size xs) [::])
  | Fdd p x' => Fdd p (skel x')
  | Tup xs => Tup (map skel xs)
  end.

Lemma map_In (A B : Type) (f g : A -> B) xs :
  (forall x, List.In x xs -> f x = g x) -> map f xs = map g xs.
Proof.
elim: xs => //= a xs IH H; congr (_ :: _); first by apply: H; left.
by apply: IH => x Hx; apply: H; right.
Qed.

Lemma ne_skel x : ne (skel x) = ne x.
Proof.
elim/input_ind': x => //= [xs|xs IH]; first by rewrite size_nseq.
by rewrite -map_comp; congr sumn; apply: map_In.
Qed.

Lemma skel_num xs ys : size xs = size ys -> skel (Num xs) = skel (Num ys).
Proof. by move=> /= ->. Qed.

Definition dims (o : option dmat) := omap (fun a => (nr a, nc a)) o.
Definition osize (o : option (seq R)) := omap size o.

Lemma dims_map2 f o1 o2 o1' o2' : dims o1 = dims o1' -> dims o2 = dims o2' ->
  dims (obind2 (dmap2 f) o1 o2) = dims (obind2 (dmap2 f) o1' o2').
Proof.
case: o1 o1' => [a|] [a'|] //=; case: o2 o2' => [b|] [b'|] //= [e1 e2] [e3 e4].
by rewrite /dmap2 /same_shape e1 e2 e3 e4; case: ifP => //= _; rewrite e1 e2.
Qed.

Lemma osize_map2 f o1 o2 o1' o2' : osize o1 = osize o1' -> osize o2 = osize o2' ->
  osize (obind2 (vmap2 f) o1 o2) = osize (obind2 (vmap2 f) o1' o2').
Proof.
case: o1 o1' => [a|] [a'|] //=; case: o2 o2' => [b|] [b'|] //= [e1] [e3].
by rewrite /vmap2 e1 e3; case: ifP => //= _; rewrite !size_mkseq.
Qed.

Lemma dims_hcat a b a' b' : dims (Some a) = dims (Some a') -> dims (Some b) = dims (Some b') ->
  dims (dhcat a b) = dims (dhcat a' b').
Proof. by case=> e1 e2 [e3 e4]; rewrite /dhcat e1 e3; case: ifP => //= _; rewrite e2 e4. Qed.
Lemma dims_vcat a b a' b' : dims (Some a) = dims (Some a') -> dims (Some b) = dims (Some b') ->
  dims (dvcat a b) = dims (dvcat a' b').
Proof. by case=> e1 e2 [e3 e4]; rewrite /dvcat e2 e4; case: ifP => //= _; rewrite e1 e3. Qed.

Lemma ofold1_dims f (l l' : seq (option dmat)) :
  (forall a b a' b', dims (Some a) = dims (Some a') -> dims (Some b) = dims (Some b') ->
     dims (f a b) = dims (f a' b')) ->
  map dims l = map dims l' -> dims (ofold1 f l) = dims (ofold1 f l').
Proof.
move=> Hf; elim: l l' => [|a [|b l] IH] [|a' [|b' l']] //; first by case.
move=> E; have e1 : dims a = dims a' by case: E.
have e2 : map dims (b :: l) = map dims (b' :: l') by case: E => _ /= -> ->.
have {IH e2 E} := IH (b' :: l') e2; rewrite -[ofold1 f [:: a, b & l]]/(obind (fun a => obind (f a) (ofold1 f (b :: l))) a).
rewrite -[ofold1 f [:: a', b' & l']]/(obind (fun a => obind (f a) (ofold1 f (b' :: l'))) a').
case: a a' e1 => [a|] [a'|] //= e1; set u := match l with [::] => _ | _ => _ end.
set u' := match l' with [::] => _ | _ => _ end.
by case: u u' => [u|] [u'|] //=; apply: Hf.
Qed.

Lemma dblock_dims (g g' : input -> input -> option dmat) xs ys :
  (forall x y, List.In x xs -> List.In y ys -> dims (g x y) = dims (g' x y)) ->
  dims (dblock [seq [seq g x y | y <- ys] | x <- xs]) =
  dims (dblock [seq [seq g' x y | y <- ys] | x <- xs]).
Proof.
move=> H; apply: (ofold1_dims dims_vcat); rewrite -!map_comp.
apply: map_In => x Hx /=; apply: (ofold1_dims dims_hcat).
by rewrite -!map_comp; apply: map_In => y Hy /=; apply: H.
Qed.

Lemma ofold1_size (l l' : seq (option (seq R))) :
  map osize l = map osize l' ->
  osize (ofold1 (fun u v => Some (u ++ v)) l) = osize (ofold1 (fun u v => Some (u ++ v)) l').
Proof.
set f := fun u v => _.
elim: l l' => [|a [|b l] IH] [|a' [|b' l']] //; first by case.
move=> E; have e1 : osize a = osize a' by case: E.
have e2 : map osize (b :: l) = map osize (b' :: l') by case: E => _ /= -> ->.
have {IH e2 E} := IH (b' :: l') e2; rewrite -[ofold1 f [:: a, b & l]]/(obind (fun a => obind (f a) (ofold1 f (b :: l))) a).
rewrite -[ofold1 f [:: a', b' & l']]/(obind (fun a => obind (f a) (ofold1 f (b' :: l'))) a').
case: a a' e1 => [a|] [a'|] //= [e1]; set u := match l with [::] => _ | _ => _ end.
set u' := match l' with [::] => _ | _ => _ end.
by case: u u' => [u|] [u'|] //= [e]; rewrite !size_cat e1 e.
Qed.

Lemma dims_iqf K A B A' B' : dims A = dims A' -> dims B = dims B' ->
  dims (obind2 (iqf K) A B) = dims (obind2 (iqf K) A' B').
Proof.
case: A A' => [A|] [A'|] //=; case: B B' => [B|] [B'|] //= [a1 a2] [b1 b2].
by rewrite /iqf a1 b1; case: ifP => //= _; rewrite a2 b2.
Qed.

Lemma is_shape_dims m n o o' : dims o = dims o' -> is_shape m n o = is_shape m n o'.
Proof. by case: o o' => [a|] [a'|] //= [-> ->]. Qed.

Section Fixed.
Variables (rdk : mid -> pid -> pid -> option kexp) (rdm : mid -> pid -> option mexp).
Variable D : nat -> (point -> R) -> point -> R.
Notation evk := (evk rdk rdm D). Notation evm := (evm rdk rdm D). Notation evf := (evf rdk rdm D).

Lemma all_const (A : Type) (f : A -> bool) c x xs :
  (forall x, f x = c) -> all f (x :: xs) = c.
Proof.
by move=> H; rewrite (eq_all (a2 := fun=> c)) //=; case: c {H} => //=; rewrite all_predT.
Qed.

Lemma dims_diff2 n d1 d2 k1 x xs y ys (X := x :: xs) (Y := y :: ys) :
  dims (evk n.+1 (KDiff (Some d1) (Some d2) k1) (Num X) (Num Y)) =
  if all (fun a => all (fun b => is_shape 1 1 (evk n k1 (Num [:: a]) (Num [:: b]))) Y) X
  then Some (size X, size Y) else None.
Proof. by rewrite /X /Y; cbn [Graph.evk]; case: ifP. Qed.
Lemma dims_diff1 n d1 k1 x xs y ys (X := x :: xs) (Y := y :: ys) :
  dims (evk n.+1 (KDiff (Some d1) None k1) (Num X) (Num Y)) =
  if all (fun a => is_row (size Y) (evk n k1 (Num [:: a]) (Num Y))) X
  then Some (size X, size Y) else None.
Proof. by rewrite /X /Y; cbn [Graph.evk]; case: ifP. Qed.

Lemma eval_shape n :
  (forall k x y, dims (evk n k x y) = dims (evk n k (skel x) (skel y))) /\
  (forall mu x, osize (evm n mu x) = osize (evm n mu (skel x))) /\
  (forall f x, osize (evf n f x) = osize (evf n f (skel x))).
Proof.
elim: n => [|n [IHk [IHm IHf]]]; first by [].
have TT k xs ys : dims (evk n.+1 k (Tup xs) (Tup ys)) =
                  dims (evk n.+1 k (skel (Tup xs)) (skel (Tup ys))).
  cbn; rewrite -!map_comp; set l := RHS.
  have -> : l = dims (dblock [seq [seq evk n k (skel x) (skel y) | y <- ys] | x <- xs]).
    by rewrite /l; congr (dims (dblock _)); apply: eq_map => x /=; rewrite -map_comp.
  by apply: dblock_dims => x y _ _; apply: IHk.
have nk : forall k x y (T := fun z : input => if z is Tup _ then true else false),
    ~~ T x -> ~~ T y -> dims (evk n.+1 k x y) = dims (evk n.+1 k (skel x) (skel y)).
  move=> k x y T nx ny.
  case: k => [f|||k1 k2|k1 k2|c k1|f g|k1|t1 t2 k1|dx dy k1|m ps|j k1|k1|kij kzi kzj kz z noise|kzi kzj kz kzx kx z nz xd dn me].
  - by case: x nx => [xs|p x|] // _; case: y ny => [ys|q y|] // _; cbn; rewrite !size_nseq.
  - by case: x nx => [xs|p x|] // _; case: y ny => [ys|q y|] // _; cbn; rewrite ?size_nseq ?ne_skel.
  - by case: x nx => [xs|p x|] // _; case: y ny => [ys|q y|] // _; cbn; rewrite ?size_nseq ?ne_skel.
  - case: x nx => [xs|p x|] // _; case: y ny => [ys|q y|] // _; cbn;
      by apply: dims_map2; rewrite IHk.
  - case: x nx => [xs|p x|] // _; case: y ny => [ys|q y|] // _; cbn;
      by apply: dims_map2; rewrite IHk.
  - have e : dims (evk n.+1 (KScale c k1) x y) = dims (evk n k1 x y).
      by case: x nx => [xs|p x|] // _; case: y ny => [ys|q y|] // _; cbn; case: (evk n k1 _ _).
    have e' : dims (evk n.+1 (KScale c k1) (skel x) (skel y)) = dims (evk n k1 (skel x) (skel y)).
      by case: x nx {e} => [xs|p x|] // _; case: y ny => [ys|q y|] // _; cbn; case: (evk n k1 _ _).
    by rewrite e e' IHk.
  - have O (u v u' v' : option (seq R)) : osize u = osize u' -> osize v = osize v' ->
      dims (obind2 (fun u v => Some (douter u v)) u v) = dims (obind2 (fun u v => Some (douter u v)) u' v').
      by case: u u' => [u|] [u'|] //=; case: v v' => [v|] [v'|] //= [->] [->].
    case: x nx => [xs|p x|] // _; case: y ny => [ys|q y|] // _; cbn; by apply: O; rewrite IHf.
  - have O (u v : option dmat) : dims u = dims v -> dims (omap (@dtr R) u) = dims (omap (@dtr R) v).
      by case: u v => [u|] [v|] //= [-> ->].
    case: x nx => [xs|p x|] // _; case: y ny => [ys|q y|] // _; cbn; by apply: O; rewrite IHk.
  - have I t z : (if imap t (skel z) is Some z' then imap t z <> None /\ forall v, imap t z = Some v -> skel z' = skel v
                  else imap t z = None).
      case: t => [t|] /=.
        by case: z => [zs|p z|zs] //=; split=> // v [<-]; rewrite /= !size_map size_nseq.
      by split=> // v [<-] {v}; elim/input_ind': z => //= [zs|p z ->|zs IH] //;
         [rewrite size_nseq | congr Tup; rewrite -map_comp; apply: map_In].
    have O : dims (obind2 (evk n k1) (imap t1 x) (imap t2 y)) =
             dims (obind2 (evk n k1) (imap t1 (skel x)) (imap t2 (skel y))).
      move: (I t1 x) (I t2 y).
      case: (imap t1 (skel x)) => [x'|]; last by move->.
      case: (imap t1 x) => [x2|] [_] //=; move=> /(_ _ erefl) ex.
      case: (imap t2 (skel y)) => [y'|]; last by move->.
      case: (imap t2 y) => [y2|] [_] //=; move=> /(_ _ erefl) ey.
      by rewrite /= IHk -ex -ey -IHk.
    by move: O; case: x nx => [xs|p x|] // _; case: y ny => [ys|q y|].
  - case: x nx => [[|x xs]|p x|] // _; case: y ny => [[|y ys]|q y|] // _.
    case: dx => [d1|] //; case: dy => [d2|] //.
      rewrite -[skel (Num (x :: xs))]/(Num ([::] :: nseq (size xs) [::])).
      rewrite -[skel (Num (y :: ys))]/(Num ([::] :: nseq (size ys) [::])) !dims_diff2.
      set c := is_shape 1 1 (evk n k1 (Num [:: [::]]) (Num [:: [::]])).
      have C a b : is_shape 1 1 (evk n k1 (Num [:: a]) (Num [:: b])) = c.
        by apply: is_shape_dims; rewrite IHk /=.
      have A u us v vs : all (fun a => all (fun b => is_shape 1 1 (evk n k1 (Num [:: a]) (Num [:: b])))
                        (v :: vs)) (u :: us) = c.
        by apply: all_const => a; apply: all_const => b; apply: C.
      by rewrite !A /= !size_nseq.
    rewrite -[skel (Num (x :: xs))]/(Num ([::] :: nseq (size xs) [::])).
    rewrite -[skel (Num (y :: ys))]/(Num ([::] :: nseq (size ys) [::])) !dims_diff1.
    set c := is_row (size ys).+1 (evk n k1 (Num [:: [::]]) (Num (nseq (size ys).+1 [::]))).
    have A u us v vs : size vs = size ys ->
      all (fun a => is_row (size (v :: vs)) (evk n k1 (Num [:: a]) (Num (v :: vs)))) (u :: us) = c.
      move=> e; apply: all_const => a; rewrite /= e; apply: is_shape_dims.
      by rewrite IHk [RHS]IHk /= !size_nseq e.
    by rewrite !A ?size_nseq // /= !size_nseq.
  - have S ps' z : skel (Tup [seq Fdd p z | p <- ps']) = Tup [seq Fdd p (skel z) | p <- ps'].
      by rewrite /= -map_comp; congr Tup; apply: eq_map.
    have S1 z : skel (Tup [:: z]) = Tup [:: skel z] by [].
    case: x nx => [xs|p x|] // _; case: y ny => [ys|q y|] // _.
    + by rewrite -[LHS]/(dims (evk n (KMok m ps) (Tup [seq Fdd p (Num xs) | p <- ps]) (Tup [seq Fdd p (Num ys) | p <- ps]))) IHk !S.
    + by rewrite -[LHS]/(dims (evk n (KMok m ps) (Tup [seq Fdd p (Num xs) | p <- ps]) (Tup [:: Fdd q y]))) IHk !S.
    + by rewrite -[LHS]/(dims (evk n (KMok m ps) (Tup [:: Fdd p x]) (Tup [seq Fdd p (Num ys) | p <- ps]))) IHk !S.
    by cbn; case: (rdk m p q) => //= k; apply: IHk.
  - case: x nx => [xs|p x|] // _; case: y ny => [ys|q y|] // _; cbn; by rewrite IHk.
  - case: x nx => [xs|p x|] // _; case: y ny => [ys|q y|] // _; cbn; by rewrite IHk.
  - have O x1 y1 x2 y2 : skel x1 = skel x2 -> skel y1 = skel y2 ->
        dims (obind2 (@dsub R) (evk n kij x1 y1)
          (obind (fun K => obind2 (iqf K) (evk n kzi z x1) (evk n kzj z y1))
             (obind (fun K => dadd K noise) (evk n kz z z)))) =
        dims (obind2 (@dsub R) (evk n kij x2 y2)
          (obind (fun K => obind2 (iqf K) (evk n kzi z x2) (evk n kzj z y2))
             (obind (fun K => dadd K noise) (evk n kz z z)))).
      move=> ex ey; apply: dims_map2; first by rewrite IHk ex ey -IHk.
      case: (obind (fun K => dadd K noise) _) => //= K; apply: dims_iqf; first by rewrite IHk ex -IHk.
      by rewrite IHk ey -IHk.
    have SS z0 : skel (skel z0) = skel z0.
      by elim/input_ind': z0 => //= [zs|p z0 ->|zs IH] //;
         [rewrite size_nseq | congr Tup; rewrite -map_comp; apply: map_In].
    have := O x y (skel x) (skel y) (esym (SS x)) (esym (SS y)).
    by case: x nx => [xs|p x|] // _; case: y ny => [ys|q y|].
  - set V := pseudo_var me dn (obind (fun K => dadd K nz) (evk n kz z z)) (evk n kzx z xd) (evk n kx xd xd).
    have SS z0 : skel (skel z0) = skel z0.
      by elim/input_ind': z0 => //= [zs|p z0 ->|zs IH] //;
         [rewrite size_nseq | congr Tup; rewrite -map_comp; apply: map_In].
    have O : dims (obind (fun A => obind2 (iqf A) (evk n kzi z x) (evk n kzj z y)) V) =
        dims (obind (fun A => obind2 (iqf A) (evk n kzi z (skel x)) (evk n kzj z (skel y))) V).
      by case: V => //= A; apply: dims_iqf; rewrite IHk [RHS]IHk SS.
    by move: O; case: x nx => [xs|p x|] // _; case: y ny => [ys|q y|].
have SS z0 : skel (skel z0) = skel z0.
  by elim/input_ind': z0 => //= [zs|p z0 ->|zs IH] //;
     [rewrite size_nseq | congr Tup; rewrite -map_comp; apply: map_In].
split; [|split].
- move=> k x y; case: x => [xs|p x|xs]; case: y => [ys|q y|ys]; try exact: nk.
  + by rewrite -[LHS]/(dims (evk n k (Tup [:: Num xs]) (Tup ys))) IHk.
  + by rewrite -[LHS]/(dims (evk n k (Tup [:: Fdd p x]) (Tup ys))) IHk.
  + by rewrite -[LHS]/(dims (evk n k (Tup xs) (Tup [:: Num ys]))) IHk.
  + by rewrite -[LHS]/(dims (evk n k (Tup xs) (Tup [:: Fdd q y]))) IHk.
  + exact: TT.
- case=> [f|||m1 m2|m1 m2|c m1|f|t m1|d m1|m ps|mi mz kzi kz z noise y|mi mz mx kzi kz kzx kx z nz xd nx y me] x.
  + by case: x => [xs|p x|xs]; cbn => //; rewrite !size_map size_nseq.
  + by cbn; rewrite !size_nseq ne_skel.
  + by cbn; rewrite !size_nseq ne_skel.
  + by apply: osize_map2; rewrite IHm.
  + by apply: osize_map2; rewrite IHm.
  + by have := IHm m1 x; cbn; case: (evm n m1 x) => [u|]; case: (evm n m1 _) => [v|] //= [e]; rewrite !size_map e.
  + exact: IHf.
  + case: x => [xs|p x|xs]; cbn => //; rewrite IHm [RHS]IHm /= !size_map size_nseq //.
  + case: x => [xs|p x|xs]; cbn => //.
    set c := if evm n m1 (Num [:: [::]]) is Some v then size v == 1 else false.
    have C a : (if evm n m1 (Num [:: a]) is Some v then size v == 1 else false) = c.
      by rewrite /c; have := IHm m1 (Num [:: a]); rewrite /=; case: (evm n m1 _) => [u|]; case: (evm n m1 _) => [v|] //= [->].
    case: xs => [|x xs] //.
    have A u us : all (fun a => if evm n m1 (Num [:: a]) is Some v then size v == 1 else false) (u :: us) = c.
      by apply: all_const => a; rewrite C.
    by have := A x xs; have := A [::] (nseq (size xs) [::]); rewrite /= => -> ->; case: (c) => //=; rewrite !size_map size_nseq.
  + case: x => [xs|p x|xs].
    * rewrite -[LHS]/(osize (evm n (MMom m ps) (Tup [seq Fdd p (Num xs) | p <- ps]))) IHm.
      by cbn; congr (osize (evm n _ _)); rewrite /= -map_comp; congr Tup; apply: eq_map.
    * by cbn; case: (rdm m p) => //= m1.
    * cbn; rewrite -map_comp; apply: ofold1_size; rewrite -!map_comp; apply: map_In => z _ /=; exact: IHm.
  + cbn; apply: osize_map2; first exact: IHm.
    case: (obind (fun K => dadd K noise) (evk n kz z z)) => [K|] //=.
    case: (obind _ (evm n mz z)) => [d|] //=.
    have O (o o' : option dmat) : dims o = dims o' -> osize (obind (@col_seq R) o) = osize (obind (@col_seq R) o').
      case: o o' => [a|] [a'|] //= [e1 e2].
      by rewrite /col_seq e1 e2; case: ifP => //= _; rewrite !size_mkseq.
    apply: O.
    have e : dims (evk n kzi z x) = dims (evk n kzi z (skel x)) by rewrite IHk [RHS]IHk SS.
    exact: (@dims_iqf K _ (Some (dcol d)) _ (Some (dcol d)) e erefl).
  + have E (Kz : option dmat) (dv : option (seq R)) :
        osize (obind (@col_seq R) (obind2 (fun K d => obind (fun A => iqf K A (dcol d)) (evk n kzi z x)) Kz dv)) =
        osize (obind (@col_seq R) (obind2 (fun K d => obind (fun A => iqf K A (dcol d)) (evk n kzi z (skel x))) Kz dv)); last first.
      by apply: osize_map2; [exact: IHm | apply: E].
    case: Kz => [K|] //=; case: dv => [d|] //=.
    have O (o o' : option dmat) : dims o = dims o' -> osize (obind (@col_seq R) o) = osize (obind (@col_seq R) o').
      case: o o' => [a|] [a'|] //= [e1 e2].
      by rewrite /col_seq e1 e2; case: ifP => //= _; rewrite !size_mkseq.
    apply: O.
    have e : dims (evk n kzi z x) = dims (evk n kzi z (skel x)) by rewrite IHk [RHS]IHk SS.
    exact: (@dims_iqf K _ (Some (dcol d)) _ (Some (dcol d)) e erefl).
- case=> [g||m p] x.
  + by case: x => [xs|p x|xs]; cbn => //; rewrite !size_map size_nseq.
  + by cbn; rewrite !size_nseq ne_skel.
  + by cbn; case: (rdm m p) => //= m1.
Qed.

Lemma evk_shape n k x y x' y' : skel x = skel x' -> skel y = skel y' ->
  dims (evk n k x y) = dims (evk n k x' y').
Proof. by move=> ex ey; have [H _] := eval_shape n; rewrite H ex ey -H. Qed.
Lemma evm_shape n k x x' : skel x = skel x' -> osize (evm n k x) = osize (evm n k x').
Proof. by move=> ex; have [_ [H _]] := eval_shape n; rewrite H ex -H. Qed.
Lemma evf_shape n k x x' : skel x = skel x' -> osize (evf n k x) = osize (evf n k x').
Proof. by move=> ex; have [_ [_ H]] := eval_shape n; rewrite H ex -H. Qed.
End Fixed.

(* More knowledge. *)
Definition ole (A : Type) (o o' : option A) : Prop := forall a, o = Some a -> o' = Some a.

Lemma ole_refl A (o : option A) : ole o o. Proof. by move=> a. Qed.
Lemma ole_bind A B (o o' : option A) (f f' : A -> option B) :
  ole o o' -> (forall a, o = Some a -> ole (f a) (f' a)) -> ole (obind f o) (obind f' o').
Proof. by case: o => [a|] //= H1 H2 b E; rewrite (H1 _ erefl) /=; apply: (H2 _ erefl). Qed.
Lemma ole_bind2 A B C (o o' : option A) (p p' : option B) (f : A -> B -> option C) :
  ole o o' -> ole p p' -> ole (obind2 f o p) (obind2 f o' p').
Proof. by move=> H1 H2; apply: ole_bind => // a _; apply: ole_bind => // b _; apply: ole_refl. Qed.
Lemma ole_map A B (o o' : option A) (f : A -> B) : ole o o' -> ole (omap f o) (omap f o').
Proof. by case: o => [a|] // H b [<-]; rewrite (H _ erefl). Qed.

Lemma ole_fold T (f : T -> T -> option T) (l l' : seq (option T)) :
  size l = size l' -> (forall i, i < size l -> ole (nth None l i) (nth None l' i)) ->
  ole (ofold1 f l) (ofold1 f l').
Proof.
elim: l l' => [|a [|b l] IH] [|a' [|b' l']] //; first by move=> _ H; exact: (H 0).
move=> [e] H.
rewrite -[ofold1 f [:: a, b & l]]/(obind (fun a => obind (f a) (ofold1 f (b :: l))) a).
rewrite -[ofold1 f [:: a', b' & l']]/(obind (fun a => obind (f a) (ofold1 f (b' :: l'))) a').
apply: ole_bind => [|u _]; first exact: (H 0).
apply: ole_bind => [|v _]; last exact: ole_refl.
by apply: IH => [|i lt]; [rewrite /= e | apply: (H i.+1)].
Qed.

Lemma ole_fold_map T U (f : T -> T -> option T) (g g' : U -> option T) l :
  (forall u, ole (g u) (g' u)) -> ole (ofold1 f (map g l)) (ofold1 f (map g' l)).
Proof.
case: l => [|u0 l] H; first exact: ole_refl.
apply: ole_fold; rewrite !size_map // => i lt.
by rewrite !(nth_map u0) //; apply: H.
Qed.

Section Mono.
Variables (rdk rdk' : mid -> pid -> pid -> option kexp) (rdm rdm' : mid -> pid -> option mexp).
Variable D : nat -> (point -> R) -> point -> R.
Hypothesis Hk : forall m i j, ole (rdk m i j) (rdk' m i j).
Hypothesis Hm : forall m i, ole (rdm m i) (rdm' m i).

Lemma entries_diff2 (e e' : point -> point -> option dmat) x xs y ys :
  (forall a b a' b', dims (e a b) = dims (e a' b')) ->
  (forall a b, ole (e a b) (e' a b)) ->
  all (fun a => all (fun b => is_shape 1 1 (e a b)) (y :: ys)) (x :: xs) ->
  e' = e.
Proof.
move=> S H /= /andP [/andP [s _] _].
apply: functional_extensionality => a; apply: functional_extensionality => b.
case E: (e a b) => [M|]; first exact: (H _ _ _ E).
by move: s; rewrite (is_shape_dims 1 1 (S x y a b)) E.
Qed.

Lemma entries_row (e e' : point -> option dmat) n x xs :
  (forall a a', dims (e a) = dims (e a')) ->
  (forall a, ole (e a) (e' a)) ->
  all (fun a => is_row n (e a)) (x :: xs) ->
  e' = e.
Proof.
move=> S H /= /andP [s _]; apply: functional_extensionality => a.
case E: (e a) => [M|]; first exact: (H _ _ E).
by move: s; rewrite /is_row (is_shape_dims 1 n (S x a)) E.
Qed.

Lemma entries_vec (e e' : point -> option (seq R)) x xs :
  (forall a a', osize (e a) = osize (e a')) ->
  (forall a, ole (e a) (e' a)) ->
  all (fun a => if e a is Some v then size v == 1 else false) (x :: xs) ->
  e' = e.
Proof.
move=> S H /= /andP [s _]; apply: functional_extensionality => a.
case E: (e a) => [M|]; first exact: (H _ _ E).
by move: s; have := S x a; rewrite E; case: (e x).
Qed.

Lemma eval_mono n n' : n <= n' ->
  (forall k x y, ole (evk rdk rdm D n k x y) (evk rdk' rdm' D n' k x y)) /\
  (forall mu x, ole (evm rdk rdm D n mu x) (evm rdk' rdm' D n' mu x)) /\
  (forall f x, ole (evf rdk rdm D n f x) (evf rdk' rdm' D n' f x)).
Proof.
elim: n n' => [|n IH] [|n'] // lt; have {IH} [IHk [IHm IHf]] := IH n' lt.
have nk : forall k x y (T := fun z : input => if z is Tup _ then true else false),
    ~~ T x -> ~~ T y -> ole (evk rdk rdm D n.+1 k x y) (evk rdk' rdm' D n'.+1 k x y).
  move=> k x y T nx ny.
  case: k => [f|||k1 k2|k1 k2|c k1|f g|k1|t1 t2 k1|dx dy k1|m ps|j k1|k1|kij kzi kzj kz z noise|kzi kzj kz kzx kx z nz xd dn me].
  - by case: x nx => [xs|p x|] // _; case: y ny => [ys|q y|] // _; apply: ole_refl.
  - by case: x nx => [xs|p x|] // _; case: y ny => [ys|q y|] // _; apply: ole_refl.
  - by case: x nx => [xs|p x|] // _; case: y ny => [ys|q y|] // _; apply: ole_refl.
  - by case: x nx => [xs|p x|] // _; case: y ny => [ys|q y|] // _; apply: ole_bind2.
  - by case: x nx => [xs|p x|] // _; case: y ny => [ys|q y|] // _; apply: ole_bind2.
  - by case: x nx => [xs|p x|] // _; case: y ny => [ys|q y|] // _; apply: ole_map.
  - by case: x nx => [xs|p x|] // _; case: y ny => [ys|q y|] // _; apply: ole_bind2.
  - by case: x nx => [xs|p x|] // _; case: y ny => [ys|q y|] // _; apply: ole_map.
  - have O : ole (obind2 (evk rdk rdm D n k1) (imap t1 x) (imap t2 y))
                 (obind2 (evk rdk' rdm' D n' k1) (imap t1 x) (imap t2 y)).
      by apply: ole_bind; [exact: ole_refl | move=> a _; apply: ole_bind => //; exact: ole_refl].
    by move: O; case: x nx => [xs|p x|] // _; case: y ny => [ys|q y|].
  - case: x nx => [[|x xs]|p x|] // _; case: y ny => [[|y ys]|q y|] // _.
    case: dx => [d1|] //; case: dy => [d2|] //; cbn [Graph.evk] => M; case: ifP => // H.
      have E := entries_diff2
        (fun a b a' b' => evk_shape rdk rdm D n k1 (skel_num (erefl : size [:: a] = size [:: a']))
                            (skel_num (erefl : size [:: b] = size [:: b'])))
        (fun a b => IHk k1 (Num [:: a]) (Num [:: b])) H.
      have E2 a b : evk rdk' rdm' D n' k1 (Num [:: a]) (Num [:: b]) = evk rdk rdm D n k1 (Num [:: a]) (Num [:: b]).
        exact: (congr1 (fun f => f a b) E).
      have E3 : (fun a => all (fun b => is_shape 1 1 (evk rdk' rdm' D n' k1 (Num [:: a]) (Num [:: b]))) (y :: ys)) =
        (fun a => all (fun b => is_shape 1 1 (evk rdk rdm D n k1 (Num [:: a]) (Num [:: b]))) (y :: ys)).
        by apply: functional_extensionality => a; apply: eq_all => b; rewrite E2.
      rewrite E3 H => <-; congr (Some (DMat _ _ _)).
      do 2! apply: functional_extensionality => ?; congr (D _ _ _).
      apply: functional_extensionality => a; congr (D _ _ _).
      by apply: functional_extensionality => b; rewrite E2.
    have E := entries_row
        (fun a a' => evk_shape rdk rdm D n k1 (skel_num (erefl : size [:: a] = size [:: a']))
                            (erefl (skel (Num (y :: ys)))))
        (fun a => IHk k1 (Num [:: a]) (Num (y :: ys))) H.
    have E2 a : evk rdk' rdm' D n' k1 (Num [:: a]) (Num (y :: ys)) = evk rdk rdm D n k1 (Num [:: a]) (Num (y :: ys)).
      exact: (congr1 (fun f => f a) E).
    have -> : all (fun a => is_row (size (y :: ys)) (evk rdk' rdm' D n' k1 (Num [:: a]) (Num (y :: ys)))) (x :: xs) = true.
      by rewrite -H; apply: eq_all => a; rewrite E2.
    move=> <-; congr (Some (DMat _ _ _)).
    do 2! apply: functional_extensionality => ?; congr (D _ _ _).
    by apply: functional_extensionality => a; rewrite E2.
  - case: x nx => [xs|p x|] // _; case: y ny => [ys|q y|] // _; try exact: IHk.
    by apply: ole_bind => // k _; apply: IHk.
  - by case: x nx => [xs|p x|] // _; case: y ny => [ys|q y|] // _; apply: IHk.
  - by case: x nx => [xs|p x|] // _; case: y ny => [ys|q y|] // _; apply: IHk.
  - have O : ole (obind2 (@dsub R) (evk rdk rdm D n kij x y)
          (obind (fun K => obind2 (iqf K) (evk rdk rdm D n kzi z x) (evk rdk rdm D n kzj z y))
             (obind (fun K => dadd K noise) (evk rdk rdm D n kz z z))))
       (obind2 (@dsub R) (evk rdk' rdm' D n' kij x y)
          (obind (fun K => obind2 (iqf K) (evk rdk' rdm' D n' kzi z x) (evk rdk' rdm' D n' kzj z y))
             (obind (fun K => dadd K noise) (evk rdk' rdm' D n' kz z z)))).
      apply: ole_bind2 => //; apply: ole_bind => [|K _]; last exact: ole_bind2.
      by apply: ole_bind => // K _; apply: ole_refl.
    by move: O; case: x nx => [xs|p x|] // _; case: y ny => [ys|q y|].
  - have O : ole (obind (fun A => obind2 (iqf A) (evk rdk rdm D n kzi z x) (evk rdk rdm D n kzj z y))
          (pseudo_var me dn (obind (fun K => dadd K nz) (evk rdk rdm D n kz z z)) (evk rdk rdm D n kzx z xd) (evk rdk rdm D n kx xd xd)))
       (obind (fun A => obind2 (iqf A) (evk rdk' rdm' D n' kzi z x) (evk rdk' rdm' D n' kzj z y))
          (pseudo_var me dn (obind (fun K => dadd K nz) (evk rdk' rdm' D n' kz z z)) (evk rdk' rdm' D n' kzx z xd) (evk rdk' rdm' D n' kx xd xd))).
      apply: ole_bind => [|A _]; last exact: ole_bind2.
      apply: ole_bind => [|K _]; last exact: ole_bind2.
      by apply: ole_bind => // K _; apply: ole_refl.
    by move: O; case: x nx => [xs|p x|] // _; case: y ny => [ys|q y|].
split; [|split].
- move=> k x y; case: x => [xs|p x|xs]; case: y => [ys|q y|ys]; try exact: nk; try exact: IHk.
  by cbn [Graph.evk]; rewrite /dblock -!map_comp; apply: ole_fold_map => x /=; apply: ole_fold_map => y; apply: IHk.
- case=> [f|||m1 m2|m1 m2|c m1|f|t m1|d m1|m ps|mi mz kzi kz z noise y|mi mz mx kzi kz kzx kx z nz xd nx y me] x.
  + exact: ole_refl.
  + exact: ole_refl.
  + exact: ole_refl.
  + exact: ole_bind2.
  + exact: ole_bind2.
  + exact: ole_map.
  + exact: IHf.
  + by case: x => [xs|p x|xs] //; apply: IHm.
  + case: x => [[|x xs]|p x|xs] //; cbn [Graph.evm] => M; case: ifP => // H.
    have E := entries_vec
        (fun a a' => evm_shape rdk rdm D n m1 (skel_num (erefl : size [:: a] = size [:: a'])))
        (fun a => IHm m1 (Num [:: a])) H.
    have E2 a : evm rdk' rdm' D n' m1 (Num [:: a]) = evm rdk rdm D n m1 (Num [:: a]).
      exact: (congr1 (fun f => f a) E).
    set b := all _ _; have -> : b = true.
      by rewrite -H; apply: eq_all => a; rewrite E2.
    move=> <-; congr Some; apply: eq_map => a; congr (D _ _ _).
    by apply: functional_extensionality => a'; rewrite E2.
  + case: x => [xs|p x|xs]; first exact: IHm; last by apply: ole_fold_map.
    by apply: ole_bind => // m1 _; apply: IHm.
  + apply: ole_bind2 => //; apply: ole_bind; last by move=> a _; apply: ole_refl.
    apply: ole_bind; first by apply: ole_bind => // K _; apply: ole_refl.
    move=> K _; apply: ole_bind; first by apply: ole_bind => // v _; apply: ole_refl.
    by move=> d _; apply: ole_bind => // A _; apply: ole_refl.
  + have OK : ole (obind (fun K => dadd K nz) (evk rdk rdm D n kz z z)) (obind (fun K => dadd K nz) (evk rdk' rdm' D n' kz z z)).
      by apply: ole_bind => // K _; apply: ole_refl.
    apply: ole_bind2 => //; apply: ole_bind; last by move=> a _; apply: ole_refl.
    apply: ole_bind => // K _; apply: ole_bind; last by move=> d _; apply: ole_bind => // A _; apply: ole_refl.
    apply: ole_bind2 => //; do 5! (apply: ole_bind => // ? _).
    exact: ole_refl.
- case=> [g||m p] x; try exact: ole_refl.
  by apply: ole_bind => // m1 _; apply: IHm.
Qed.
End Mono.

Lemma evk_fuel (rdk : mid -> pid -> pid -> option kexp) rdm D n n' k x y : n <= n' ->
  ole (evk rdk rdm D n k x y) (evk rdk rdm D n' k x y).
Proof. by move=> lt; have [H _] := @eval_mono rdk rdk rdm rdm D (fun _ _ _ => @ole_refl _ _) (fun _ _ => @ole_refl _ _) n n' lt; apply: H. Qed.
Lemma evm_fuel (rdk : mid -> pid -> pid -> option kexp) rdm D n n' mu x : n <= n' ->
  ole (evm rdk rdm D n mu x) (evm rdk rdm D n' mu x).
Proof. by move=> lt; have [_ [H _]] := @eval_mono rdk rdk rdm rdm D (fun _ _ _ => @ole_refl _ _) (fun _ _ => @ole_refl _ _) n n' lt; apply: H. Qed.
End Eval.
