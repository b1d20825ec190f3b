(* Which inputs a process can be evaluated at, and how many values it has there; and the
   existence of what processes denote. *)
From Coq Require Import List.
From mathcomp Require Import all_ssreflect all_algebra.
From mathcomp Require Import zify.
From Verif Require Import Graph Machine Refine Worlds Eval GraphSpec GraphProofs RV RVProofs Sound.
Set Implicit Arguments. Unset Strict Implicit. Unset Printing Implicit Defensive.
Import GRing.Theory.
Local Open Scope ring_scope.

Section Typing.
Variable R : fieldType.
Notation input := (input R). Notation hist := (hist R). Notation point := (point R).

(* The number of values at a tuple is the sum. *)
Fixpoint wlift (f : input -> option nat) (x : input) : option nat :=
  if x is Tup xs then
    (fix go l := if l is y :: l' then obind2 (fun a b => Some (a + b)%N) (wlift f y) (go l') else Some 0%N) xs
  else f x.
Definition wsum (f : pid -> option nat) (ps : seq pid) : option nat :=
  foldr (fun p b => obind2 (fun a b => Some (a + b)%N) (f p) b) (Some 0%N) ps.

(* What is observed has values; [f] are the numbers of values of processes. *)
Definition seen (f : pid -> input -> option nat) (o : obs R) : bool :=
  wlift (f (o_p o)) (o_x o) &&
  (if o_data o is Some d then
    (if d_method d is FITC then false else true) && wlift (f (d_p d)) (d_x d)
   else true).

(* The number of values of process [p] at an array or an FDD, [None] if it has no values
   there.  [dif] says whether derivatives may be used. *)
Variable dif : bool.
Fixpoint width (h : hist) (p : pid) (x : input) : option nat :=
  match h with
  | HRoot => None
  | HPost _ par o => if seen (width par) o then width par p x else None
  | HAdd r d rest =>
    if p == r then
      match d, x with
      | DInd _ _, Num xs | DUser _ _ _, Num xs => Some (size xs)
      | DCopy q, _ | DAddC q _, _ | DScale q _, _ => width rest q x
      | DAddF q _, Num xs | DFun q (FUser _), Num xs =>
        if width rest q x == Some (size xs) then Some (size xs) else None
      | DSum a b, _ | DFun a (FMean _ b), _ => if width rest a x == width rest b x then width rest a x else None
      | DMap q t _, Num xs => width rest q (Num (map t xs))
      | DDiff q _, Num xs => if dif && (width rest q (Num [:: [::]]) == Some 1%N) then Some (size xs) else None
      | DCross ps, Num _ => wsum (fun q => width rest q x) ps
      | DCross ps, Fdd a x' => if a \in ps then wlift (width rest a) x' else None
      | _, _ => None
      end
    else width rest p x
  end.
Definition widths h p : input -> option nat := wlift (width h p).

Lemma width_num h p (xs ys : seq point) : size xs = size ys -> width h p (Num xs) = width h p (Num ys).
Proof.
elim: h p xs ys => [|pm par IH o|r d rest IH] p xs ys e //=; first by case: (seen _ _) => //; apply: IH.
case: eqP => [_|_]; last exact: IH.
case: d => [mu k|mu k lr|q|q c|q f|a b|q c|q f|q t t0|q dd|ps] //; rewrite ?e //; try exact: IH.
- by rewrite (IH _ xs ys).
- by rewrite (IH a xs ys) // (IH b xs ys).
- by case: f => [g|//|m' b]; [rewrite (IH q xs ys) // e | rewrite (IH q xs ys) // (IH b xs ys)].
- by apply: IH; rewrite !size_map.
- by elim: ps => //= a ps ->; rewrite (IH a xs ys).
Qed.

(* Existence. *)
Section Exists.
Variable W : space R.
Variable D : nat -> (point -> R) -> point -> R.
Variables (G : pid -> point -> rv W) (eps : mid -> nat -> rv W).
Notation V := (rv W).
Notation at_ := (at_ D G eps). Notation denotes := (denotes D G eps).
Variable der : nat -> (point -> V) -> point -> V.
Hypothesis der_ok : dif -> forall d F, derivative D d F (der d F).

Definition soln (A : input -> seq V -> Prop) (x : input) (k : nat) := {u | A x u & size u = k}.

Fixpoint wlift_sol (f : input -> option nat) (A : input -> seq V -> Prop)
  (S : forall x k, f x = Some k -> soln A x k) (x : input) {struct x} :
  forall k, wlift f x = Some k -> soln (lift A) x k.
Proof.
case: x => [xs|p x|xs] k.
- by move=> /S [u Hu su]; exists u => //; apply: lift_num.
- by move=> /S [u Hu su]; exists u => //; apply: lift_fdd.
elim: xs k => [|x xs IH] k /=; first by case=> <-; exists [::] => //; apply: lift_nil.
case Ex: (wlift f x) => [kx|] //=.
case El: (_ xs) => [kl|] //= [<-].
have [u Hu su] := wlift_sol f A S x kx Ex; have [v Hv sv] := IH _ El.
by exists (u ++ v); [apply: lift_cons | rewrite size_cat su sv].
Defined.

Lemma wsum_sol (f : pid -> option nat) (A : pid -> seq V -> Prop) ps k :
  (forall p k, f p = Some k -> {u | A p u & size u = k}) -> wsum f ps = Some k ->
  {us | Forall2 A ps us & size (flatten us) = k}.
Proof.
move=> S; elim: ps k => [|p ps IH] k /=; first by case=> <-; exists [::].
case Ep: (f p) => [a|] //=; case El: (wsum f ps) => [b|] //= [<-].
have [u Hu su] := S _ _ Ep; have [us Hus sus] := IH _ El.
by exists (u :: us); [constructor | rewrite /= size_cat su sus].
Qed.

Lemma at_exists h m p x k : idmaps m h -> width h p x = Some k -> soln (at_ m h p) x k.
Proof.
elim: h m p x k => [|pm par IH o|r d rest IH] m p x k //=.
  move=> Hi; case Eo: (seen _ _) => // /(IH pm p x k Hi) [u0 H0 s0].
  have [w Hw] : {w | data (at_ pm par) (eps m) o w}.
    move: Eo; rewrite /seen /data; case Ez: (wlift _ (o_x o)) => [kz|] //=.
    have [wz Hz _] := wlift_sol (fun x k => IH pm (o_p o) x k Hi) Ez.
    case: (o_data o) => [d|]; last by exists wz.
    case Em: (d_method d) => //=; case Ex_: (wlift _ _) => [kx|] //= _.
      have [wx Hx _] := wlift_sol (fun x k => IH pm (d_p d) x k Hi) Ex_.
      by exists (map (project (eps m) wz) wx); split=> //; exists wz, wx.
    have [wx Hx _] := wlift_sol (fun x k => IH pm (d_p d) x k Hi) Ex_.
    by exists (map (project (eps m) wz) wx); split=> //; exists wz, wx.
  exists (map (fun v0 => given (noise_of o (eps m)) (values o) w v0) u0); last by rewrite size_map.
  exists u0 => //; elim: u0 {H0 s0} => [|v0 u0 IH0]; constructor => //.
  by exists w.
case=> Hd Hi; rewrite /soln /=; case: eqP => _; last exact: IH.
case: d Hd => [mu k0|mu k0 lr|q|q c|q f|a b|q c|q f|q t t0|q dd|ps] Hd.
- by case: x => // xs [<-]; exists (map (G r) xs); [exists xs | rewrite size_map].
- by case: x => // xs [<-]; exists (map (G r) xs); [exists xs | rewrite size_map].
- exact: IH.
- by move=> /(IH m _ _ _ Hi) [u Hu su]; exists [seq radd v (rconst W c) | v <- u]; [exists u | rewrite size_map].
- case: x => // xs; case: eqP => // E [<-]; have [u Hu su] := IH m _ _ _ Hi E.
  exists (zipw (fun (v : V) t => radd v (rconst W (f t))) u xs); last by rewrite size_zipw.
  by exists xs, u; split.
- case: eqP => // E; case Ea: (width rest a x) => [ka|] // [<-].
  have [u Hu su] := IH m _ _ _ Hi Ea.
  have [v Hv sv] := IH m _ _ _ Hi (etrans (esym E) Ea).
  exists (zipw (@radd _ W) u v); last by rewrite size_zipw // su sv.
  by exists u, v; split=> //; rewrite su sv.
- by move=> /(IH m _ _ _ Hi) [u Hu su]; exists (map (rscale c) u); [exists u | rewrite size_map].
- case: f Hd => [g|//|m' b] Hd.
    case: x => // xs; case: eqP => // E [<-]; have [u Hu su] := IH m _ _ _ Hi E.
    exists (zipw (@rscale _ W) (map g xs) u); last by rewrite size_zipw size_map ?su.
    by exists (map g xs), u; split=> //; [exists xs | rewrite size_map su].
  case: eqP => // E; case Ea: (width rest q x) => [ka|] // [<-].
  have [u Hu su] := IH m _ _ _ Hi Ea.
  have [v Hv sv] := IH m _ _ _ Hi (etrans (esym E) Ea).
  exists (zipw (@rscale _ W) (map (@Ex _ W) v) u); last by rewrite size_zipw size_map // su sv.
  by exists (map (@Ex _ W) v), u; split=> //; [split=> //; exists v | rewrite size_map su sv].
- by case: x => // xs /(IH m _ _ _ Hi) [u Hu su]; exists u => //; exists xs.
- case: x => // xs; case: andP => // -[Hdif /eqP E] [<-].
  have S (t : point) : {v | at_ m rest q (Num [:: t]) [:: v]}.
    have [u Hu su] := IH m _ _ _ Hi (etrans (width_num rest q (erefl : size [:: t] = size [:: [::]])) E).
    by case: u su Hu => // v [|//] _ Hu; exists v.
  exists (map (der dd (fun t => sval (S t))) xs); last by rewrite size_map.
  exists xs, (fun t => sval (S t)), (der dd (fun t => sval (S t))); split=> //.
    by move=> t; exact: (svalP (S t)).
  exact: der_ok.
- case: x => // [xs|a x].
    case/(wsum_sol (A := fun q u => at_ m rest q (Num xs) u) (fun q k E => IH m q (Num xs) k Hi E)) => us Hus su.
    by exists (flatten us) => //; exists us.
  case: ifP => // Ha /(wlift_sol (fun x k => IH m a x k Hi)) [u Hu su].
  by exists u.
Qed.
Lemma denotes_exists h m p x k : idmaps m h -> widths h p x = Some k -> soln (denotes m h p) x k.
Proof. by move=> Hi; apply: wlift_sol => y k'; apply: at_exists. Qed.
End Exists.

(* Processes without several outputs. *)
Fixpoint crossfree (h : hist) (q : pid) : bool :=
  match h with
  | HRoot => true
  | HPost _ par _ => crossfree par q
  | HAdd r d rest =>
    if q == r then (if d is DCross _ then false else true) && all (crossfree rest) (needs d) else crossfree rest q
  end.
Lemma crossfree_ne W D G eps m h q y v : crossfree h q -> at_ (W := W) D G eps m h q y v ->
  exists2 ys, y = Num ys & size v = size ys.
Proof.
elim: h m q y v => [|pm par IH o|r d rest IH] m q y v //=.
  by move=> /(IH pm) H [u0 /H [ys -> e] /Forall2_size F]; exists ys; rewrite -?F.
case: eqP => [_|_]; last exact: IH.
case: d => [mu k|mu k lr|p|p c|p f|p p'|p c|p f|p t t0|p dd|ps] //= H.
- by case=> xs -> ->; exists xs; rewrite ?size_map.
- by case=> xs -> ->; exists xs; rewrite ?size_map.
- by apply: IH; case/andP: H.
- by case/andP: H => /IH H _ [a /H [xs -> e] ->]; exists xs; rewrite ?size_map.
- by case=> xs [a [-> _ e ->]]; exists xs; rewrite ?size_zipw.
- by case/and3P: H => /IH H _ _ [a [b [/H [xs -> e] _ s ->]]]; exists xs; rewrite ?size_zipw.
- by case/andP: H => /IH H _ [a /H [xs -> e] ->]; exists xs; rewrite ?size_map.
- have {}H : crossfree rest p by case: f H => [g|//|m' b] /=; case/andP.
  by case: f => [g|//|m' b] [fv [a [_ /(IH _ _ _ _ H) [xs -> e] s ->]]]; exists xs; rewrite ?size_zipw ?s.
- by case/andP: H => /IH H _ [xs -> /H [ys [<-] ->]]; exists xs; rewrite ?size_map.
- by case=> xs [F [dF [-> _ _ ->]]]; exists xs; rewrite ?size_map.
Qed.
End Typing.
