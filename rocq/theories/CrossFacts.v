(* Cartesian products and tuples of inputs. *)
From Coq Require Import List.
From mathcomp Require Import all_ssreflect all_algebra.
From mathcomp Require Import zify.
From Verif Require Import Graph Machine Refine Worlds Eval GraphSpec GraphProofs GraphOps RV RVProofs Sound Typing ModelSpec ModelFacts Cond CondFacts.
Set Implicit Arguments. Unset Strict Implicit. Unset Printing Implicit Defensive.
Import GRing.Theory.
Local Open Scope ring_scope.

Lemma Forall2_cat (A B : Type) (Q : A -> B -> Prop) l1 l2 k : Forall2 Q (l1 ++ l2) k <->
  exists k1 k2, [/\ Forall2 Q l1 k1, Forall2 Q l2 k2 & k = k1 ++ k2].
Proof.
split; first by case/Forall2_cat_l => k1 [k2 [-> F1 F2]]; exists k1, k2.
by case=> k1 [k2 [F1 F2 ->]]; apply: Forall2_app.
Qed.

Section CrossFacts.
Variables (R : fieldType) (W : space R).
Variable D : nat -> (point R -> R) -> point R -> R.
Variables (G : pid -> point R -> rv W) (eps : mid -> nat -> rv W).
Notation V := (rv W). Notation Ex := (@Ex R W). Notation cov := (@cov R W).
Variables (ops : seq (op R)) (P : mid -> pid -> Prop).
Let w := run_ops ops.
Notation is_at := (is_at D G eps w). Notation meant := (meant D G eps w P).
Notation mean_is := (mean_is D w).
Implicit Types (u v d : seq V) (K M : dmat R).

Definition stack m (l : seq (pid * input R)) u : Prop :=
  exists2 us, Forall2 (fun z v => is_at m z.1 z.2 v) l us & u = flatten us.

Lemma stack_cat m l l' u : stack m (l ++ l') u <-> exists a b, [/\ stack m l a, stack m l' b & u = a ++ b].
Proof.
split=> [[us /Forall2_cat [k1 [k2 [F1 F2 ->]]] ->]|[a [b [[us F ->] [us' F' ->] ->]]]].
  by exists (flatten k1), (flatten k2); rewrite flatten_cat; split=> //; [exists k1|exists k2].
by exists (us ++ us'); [apply: Forall2_app | rewrite flatten_cat].
Qed.
Lemma stack1 m z u : stack m [:: z] u <-> is_at m z.1 z.2 u.
Proof.
split=> [[us F ->]|H]; last by exists [:: u]; rewrite ?cats0 //=; [constructor | rewrite cats0].
by inversion F as [|z' v l us' Hz F']; subst; inversion F'; rewrite /= cats0.
Qed.

Lemma is_at_tup m p x xs u : is_at m p (Tup (x :: xs)) u <->
  exists a b, [/\ is_at m p x a, is_at m p (Tup xs) b & u = a ++ b].
Proof.
split=> [[lt H]|[a [b [[lt Ha] [_ Hb] ->]]]]; last by split=> //; apply: lift_cons.
by inversion H; subst; exists u0, v; split.
Qed.

Lemma parts_at m q x l u : (m < w_nm w)%N -> parts w m q x l -> is_at m q x u <-> stack m l u.
Proof.
move=> lt; have Wf := l_wf (v_log (winv_run ops).1) lt.
move=> Pt; elim: Pt u => {q x l}
  [q x|q ps xs [_ M]|q ps a x [_ M] Ha|q|q x xs l l' _ IH _ IH'|q x l1 z l2 l _ IH _ IH'] u.
- by rewrite stack1.
- split=> [[_ /lift_num_inv /(at_cross D G eps m _ _ Wf M) [us F ->]]|[us F ->]].
    by exists us => //; elim: F => [|p v l l' Hp _ IHF]; constructor => //; split=> //; apply: lift_num.
  split=> //; apply: lift_num; apply/(at_cross D G eps m _ _ Wf M); exists us => //.
  elim: (ps) us F => [|p l IHl] us F; inversion F; subst; constructor; last exact: IHl.
  by match goal with H : is_at m _ _ _ |- _ => case: H => _ /lift_num_inv end.
- rewrite stack1; split=> [[_ H]|[_ H]]; split=> //.
    by inversion H as [|? ? ? H'| |]; subst; move/(at_cross_fdd D G eps m _ _ _ Wf M): H' => [].
  by apply: lift_fdd; apply/(at_cross_fdd D G eps m _ _ _ Wf M).
- split=> [[_ H]|[us F ->]]; first by inversion H; exists [::] => //; constructor.
  by inversion F; split=> //; apply: lift_nil.
- rewrite is_at_tup stack_cat; split=> -[a [b [Ha Hb ->]]]; exists a, b; split=> //.
  + exact/IH. + exact/IH'. + exact/IH. + exact/IH'.
rewrite IH -cat1s !stack_cat; split=> -[a [b' [Ha Hb' ->]]]; exists a, b'; split=> //.
  by move: Hb'; rewrite !stack_cat => -[c [e [Hc He ->]]]; exists c, e; split=> //; apply/IH'; apply/stack1.
by move: Hb'; rewrite !stack_cat => -[c [e [Hc He ->]]]; exists c, e; split=> //; apply/stack1; apply/IH'.
Qed.

(* Blocks. *)
Lemma vget_flatten (us : seq (seq V)) i a : (i < size us)%N -> (a < size (nth [::] us i))%N ->
  vget (flatten us) (sumn (take i (shape us)) + a) = vget (nth [::] us i) a.
Proof.
move=> li la; rewrite /vget; have := nth_flatten (rone W) us (flatten_index (shape us) i a).
rewrite flatten_indexKl ?flatten_indexKr ?nth_shape //.
Qed.
Lemma lt_flatten (us : seq (seq V)) i a : (i < size us)%N -> (a < size (nth [::] us i))%N ->
  (sumn (take i (shape us)) + a < size (flatten us))%N.
Proof.
by move=> li la; rewrite size_flatten; apply: flatten_indexP; rewrite nth_shape.
Qed.
Lemma flat_blocks us vs M B : covmat M (flatten us) (flatten vs) ->
  (forall i j, (i < size us)%N -> (j < size vs)%N -> covmat (B i j) (nth [::] us i) (nth [::] vs j)) ->
  blocks (@shape V us) (shape vs) B M.
Proof.
move=> [a1 a2 a3] HB; split; rewrite ?a1 ?a2 ?size_flatten // size_map => i j.
  by rewrite size_map => li lj; have [-> -> _] := HB i j li lj; rewrite !nth_shape.
move=> a b li; rewrite size_map => lj; rewrite !nth_shape => la lb.
by rewrite a3 ?lt_flatten // !vget_flatten //; have [_ _ ->] := HB i j li lj.
Qed.

Variable CV : mid -> pid -> pid -> input R -> input R -> dmat R -> Prop.
Hypothesis Mo : sound D G eps w P CV.
Notation cov_is := CV.
Lemma stack_nth m l us i : Forall2 (fun z v => is_at m z.1 z.2 v) l us -> (i < size l)%N ->
  is_at m (nth (0%N, Num [::]) l i).1 (nth (0%N, Num [::]) l i).2 (nth [::] us i).
Proof. by move=> F li; apply: (Forall2_nth (0%N, Num [::]) [::] F li). Qed.

Lemma lname_in (l : seq (pid * input R)) i : (i < size l)%N -> lname l i \in map fst l.
Proof. by move=> li; rewrite /lname -(nth_map (0%N, Num [::]) 0%N fst) // mem_nth ?size_map. Qed.

(* C48 *)
Lemma parts_cov m p q x y l l' M B : parts w m p x l -> parts w m q y l' -> meant m p x -> meant m q y ->
  (forall z, z \in map fst (l ++ l') -> P m z) ->
  cov_is m p q x y M ->
  (forall i j, (i < size l)%N -> (j < size l')%N -> cov_is m (lname l i) (lname l' j) (linput l i) (linput l' j) (B i j)) ->
  exists sh sh', [/\ size sh = size l, size sh' = size l' & blocks sh sh' B M].
Proof.
move=> Hl Hl' [Pp [u Hu]] [Pq [v Hv]] HP E HB.
have [us F eu] := (parts_at _ (proj1 Hu) Hl).1 Hu; have [vs F' ev] := (parts_at _ (proj1 Hv) Hl').1 Hv.
exists (shape us), (shape vs); rewrite !size_map (Forall2_size F) (Forall2_size F'); split=> //.
apply: flat_blocks => [|i j]; first by rewrite -eu -ev; apply: (is_k Mo Pp Pq Hu Hv E).
rewrite -(Forall2_size F) -(Forall2_size F') => li lj.
apply: (is_k Mo _ _ (stack_nth F li) (stack_nth F' lj) (HB i j li lj)).
  by apply: HP; rewrite map_cat mem_cat (lname_in li).
by apply: HP; rewrite map_cat mem_cat (lname_in lj) orbT.
Qed.
Lemma parts_mean m p x l e es : parts w m p x l -> meant m p x -> (forall z, z \in map fst l -> P m z) ->
  mean_is m p x e -> size es = size l ->
  (forall i, (i < size l)%N -> mean_is m (lname l i) (linput l i) (nth [::] es i)) -> e = flatten es.
Proof.
move=> Hl [Pp [u Hu]] HP E sz HE; have [us F eu] := (parts_at _ (proj1 Hu) Hl).1 Hu.
rewrite (is_m Mo Pp Hu E) eu map_flatten; congr flatten.
apply: (@eq_from_nth _ [::]); rewrite size_map -(Forall2_size F) ?sz // => i li.
rewrite (nth_map [::]) -?(Forall2_size F) //; symmetry; apply: (is_m Mo _ (stack_nth F li) (HE i li)).
exact: HP (lname_in li).
Qed.
End CrossFacts.
