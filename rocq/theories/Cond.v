(* Conditioning. *)
From Coq Require Import List.
From mathcomp Require Import all_ssreflect all_algebra all_fingroup.
From mathcomp Require Import zify.
From Verif Require Import Graph Machine Refine Worlds Eval GraphSpec GraphProofs GraphOps RV RVProofs Sound Typing ModelSpec ModelFacts.
Set Implicit Arguments. Unset Strict Implicit. Unset Printing Implicit Defensive.
Import GRing.Theory.
Local Open Scope ring_scope.

(* Matrices. *)
Section Mx.
Variable R : fieldType.

Lemma schur n1 n2 (S1 : 'M[R]_n1) (B : 'M_(n1, n2)) (S2 : 'M_n2) : S1 \in unitmx ->
  block_mx S1 B B^T S2 = block_mx 1%:M 0 (B^T *m invmx S1) 1%:M *m block_mx S1 B 0 (S2 - B^T *m invmx S1 *m B).
Proof.
move=> U; rewrite mulmx_block !mul1mx !mul0mx !addr0 mulmxKV //; congr block_mx.
by rewrite addrC subrK.
Qed.
Lemma schur_unit n1 n2 (S1 : 'M[R]_n1) (B : 'M_(n1, n2)) (S2 : 'M_n2) : S1 \in unitmx ->
  (block_mx S1 B B^T S2 \in unitmx) = (S2 - B^T *m invmx S1 *m B \in unitmx).
Proof.
move=> U; rewrite schur // !unitmxE det_mulmx det_lblock det_ublock !det1 !mul1r.
by rewrite unitrM -[\det S1 \is a _]unitmxE U.
Qed.
Lemma schur_form n1 n2 k l (S1 : 'M[R]_n1) (B : 'M_(n1, n2)) (S2 : 'M_n2)
  (a1 : 'M_(k, n1)) (a2 : 'M_(k, n2)) (c1 : 'M_(n1, l)) (c2 : 'M_(n2, l)) :
  S1 \in unitmx -> block_mx S1 B B^T S2 \in unitmx ->
  row_mx a1 a2 *m invmx (block_mx S1 B B^T S2) *m col_mx c1 c2 =
  a1 *m invmx S1 *m c1 +
  (a2 - a1 *m invmx S1 *m B) *m invmx (S2 - B^T *m invmx S1 *m B) *m (c2 - B^T *m invmx S1 *m c1).
Proof.
move=> U1 US; have U2 : S2 - B^T *m invmx S1 *m B \in unitmx by rewrite -schur_unit.
set Sc := S2 - _; pose X2 := (a2 - a1 *m invmx S1 *m B) *m invmx Sc.
pose X1 := (a1 - X2 *m B^T) *m invmx S1.
have E : row_mx X1 X2 *m block_mx S1 B B^T S2 = row_mx a1 a2.
  rewrite mul_row_block /X1 mulmxKV // subrK; congr row_mx.
  have e : X2 *m Sc = a2 - a1 *m invmx S1 *m B by rewrite mulmxKV.
  have {1}-> : S2 = Sc + B^T *m invmx S1 *m B by rewrite subrK.
  rewrite mulmxDr e !mulmxBl !mulmxA; move: (a1 *m _ *m _) (X2 *m _ *m _ *m _) => p q.
  by rewrite addrC addrACA subrr addr0 subrK.
have -> : row_mx a1 a2 *m invmx (block_mx S1 B B^T S2) = row_mx X1 X2.
  by rewrite -E mulmxK.
rewrite mul_row_col /X1 -/X2 mulmxBr !mulmxBl !mulmxA -addrA; congr (_ + _); exact: addrC.
Qed.

(* Forms in the inverse of a matrix of known size. *)
Definition pc n (S : nat -> nat -> R) (a b : nat -> R) : R :=
  ((\row_(k < n) a k) *m invmx (\matrix_(i < n, j < n) S i j) *m (\col_(k < n) b k)) 0 0.
Definition inv_at n (S : nat -> nat -> R) : Prop := (\matrix_(i < n, j < n) S i j) \in unitmx.

Lemma pc_eq n S S' a a' b b' : (forall i j, (i < n)%N -> (j < n)%N -> S i j = S' i j) ->
  (forall k, (k < n)%N -> a k = a' k) -> (forall k, (k < n)%N -> b k = b' k) -> pc n S a b = pc n S' a' b'.
Proof.
move=> HS Ha Hb; rewrite /pc; congr ((_ *m invmx _ *m _) 0 0).
- by apply/rowP => k; rewrite !mxE Ha.
- by apply/matrixP => i j; rewrite !mxE HS.
- by apply/colP => k; rewrite !mxE Hb.
Qed.
Lemma inv_at_eq n S S' : (forall i j, (i < n)%N -> (j < n)%N -> S i j = S' i j) -> inv_at n S -> inv_at n S'.
Proof.
move=> H; rewrite /inv_at; suff -> : \matrix_(i < n, j < n) S i j = \matrix_(i < n, j < n) S' i j by [].
by apply/matrixP => i j; rewrite !mxE H.
Qed.

(* A block matrix. *)
Lemma pc_block n1 n2 S a b : (forall i j, S i j = S j i) -> inv_at n1 S -> inv_at (n1 + n2) S ->
  let S' i j := S (n1 + i)%N (n1 + j)%N - pc n1 S (S (n1 + i)%N) (S (n1 + j)%N) in
  inv_at n2 S' /\
  pc (n1 + n2) S a b = pc n1 S a b +
    pc n2 S' (fun i => a (n1 + i)%N - pc n1 S a (S (n1 + i)%N)) (fun i => b (n1 + i)%N - pc n1 S (S (n1 + i)%N) b).
Proof.
move=> Sym U1 U S'.
have ES : \matrix_(i < n1 + n2, j < n1 + n2) S i j =
    block_mx (\matrix_(i < n1, j < n1) S i j) (\matrix_(i < n1, j < n2) S i (n1 + j)%N)
             (\matrix_(i < n1, j < n2) S i (n1 + j)%N)^T (\matrix_(i < n2, j < n2) S (n1 + i)%N (n1 + j)%N).
  apply/matrixP => i j; rewrite !mxE; case: (splitP i) => i' ->; rewrite !mxE; case: (splitP j) => j' ->; rewrite !mxE //.
have ES' : \matrix_(i < n2, j < n2) S' i j = \matrix_(i < n2, j < n2) S (n1 + i)%N (n1 + j)%N -
   (\matrix_(i < n1, j < n2) S i (n1 + j)%N)^T *m invmx (\matrix_(i < n1, j < n1) S i j) *m (\matrix_(i < n1, j < n2) S i (n1 + j)%N).
  apply/matrixP => i j; rewrite /S' /pc !mxE; congr (_ - _); apply: eq_bigr => k _; rewrite !mxE; congr (_ * _); last by rewrite Sym.
  by apply: eq_bigr => s _; rewrite !mxE Sym.
split; first by rewrite /inv_at ES' -schur_unit // -ES.
rewrite /pc ES.
have -> : \row_(k < n1 + n2) a k = row_mx (\row_(k < n1) a k) (\row_(k < n2) a (n1 + k)%N).
  by apply/rowP => k; rewrite !mxE; case: (splitP k) => k' ->; rewrite !mxE.
have -> : \col_(k < n1 + n2) b k = col_mx (\col_(k < n1) b k) (\col_(k < n2) b (n1 + k)%N).
  by apply/colP => k; rewrite !mxE; case: (splitP k) => k' ->; rewrite !mxE.
rewrite schur_form // -?ES // mxE -ES'; congr (_ + (_ *m _ *m _) 0 0).
- by apply/rowP => k; rewrite !mxE; congr (_ - _); apply: eq_bigr => s _; rewrite !mxE; congr (_ * _); rewrite Sym.
- apply/colP => k; rewrite !mxE; congr (_ - _); apply: eq_bigr => s _; rewrite !mxE; congr (_ * _).
  by apply: eq_bigr => t _; rewrite !mxE Sym.
Qed.

Lemma invmxM n (A B : 'M[R]_n) : A \in unitmx -> B \in unitmx -> invmx (A *m B) = invmx B *m invmx A.
Proof.
move=> UA UB; have U : A *m B \in unitmx by rewrite unitmx_mul UA.
by rewrite -[RHS](mulKmx U) -[A *m B *m _]mulmxA (mulKVmx UB) mulmxV // mulmx1.
Qed.

(* A change of coordinates. *)
Lemma pc_trans n (T : 'M[R]_n) (S S' : nat -> nat -> R) (a a' b b' : nat -> R) : T \in unitmx ->
  \matrix_(i < n, j < n) S' i j = T *m (\matrix_(i < n, j < n) S i j) *m T^T ->
  \row_(k < n) a' k = \row_(k < n) a k *m T^T -> \col_(k < n) b' k = T *m \col_(k < n) b k ->
  inv_at n S -> inv_at n S' /\ pc n S' a' b' = pc n S a b.
Proof.
rewrite /inv_at /pc => UT -> -> -> U; split; first by rewrite !unitmx_mul UT U unitmx_tr.
rewrite !invmxM ?unitmx_mul ?unitmx_tr ?UT ?U // !mulmxA mulmxK ?unitmx_tr //; congr (_ 0 0).
by rewrite -!mulmxA mulKmx.
Qed.
End Mx.

Section Cond.
Variables (R : fieldType) (W : space R).
Variable D : nat -> (point R -> R) -> point R -> R.
Variables (G : pid -> point R -> rv W) (eps : mid -> nat -> rv W).
Notation V := (rv W). Notation Ex := (@Ex R W). Notation cov := (@cov R W).
Variables (ops : seq (op R)) (P : mid -> pid -> Prop).
Let w := run_ops ops.
Variable CV : mid -> pid -> pid -> input R -> input R -> dmat R -> Prop.
Hypothesis Mo : sound D G eps w P CV.
Notation is_at := (is_at D G eps w).
Implicit Types (u v d : seq V).

Lemma cond_log m' m o ps : conditioned w m' m o ps -> exists2 par, pids par = ps &
  [/\ (m < m')%N, (m < w_nm w)%N, base (w_log w m') = Some (m, par, o), ext par (w_log w m) & ext (HPost m par o) (w_log w m')].
Proof.
case=> lt _ [par eb ep]; exists par => //.
have [lp Ep _] := l_base (v_log (winv_run ops).1) lt eb; split=> //; first exact: ltn_trans lp lt.
rewrite -/w; move: eb; elim: (w_log w m') => //= [pm h _ o' [-> -> ->]|p d h IH /IH]; first by constructor.
by move=> E; constructor.
Qed.

Lemma cond_lt m' m o ps : conditioned w m' m o ps -> (m' < w_nm w)%N. Proof. by case. Qed.

(* A process given the data. *)
Lemma cond_at m' m o ps p x u d : conditioned w m' m o ps -> p \in ps -> o_p o \in ps ->
  is_at m p x u -> is_at m (o_p o) (o_x o) d -> is_at m' p x (map (given (eps m') (o_y o) d) u).
Proof.
move=> C; have [par <- [lm lt eb E E']] := cond_log C; case: C => lt' Eo _ Hp Ho [_ Hu] [_ Hd].
have Wf := l_wf (v_log (winv_run ops).1) lt; have Wf' := l_wf (v_log (winv_run ops).1) lt'.
rewrite (denotes_ext D G eps m E Wf Hp) in Hu; rewrite (denotes_ext D G eps m E Wf Ho) in Hd.
split=> //; rewrite (denotes_ext D G eps m' E' Wf' Hp).
pose Q (v0 v : V) := exists2 w, data (at_ D G eps m par) (eps m') o w & v = given (noise_of o (eps m')) (values o) w v0.
apply: (proj2 (lift_F2 (A := at_ D G eps m par p) (B := at_ D G eps m' (HPost m par o) p) (Q := Q) _ _ _)) => //.
by exists u => //; rewrite /Q /data /noise_of /values Eo; elim: (u) => [|a l IH]; constructor => //; exists d.
Qed.

(* The noise of a posterior is uncorrelated with the prior. *)
Lemma cond_eps m' m o ps p x u i j : conditioned w m' m o ps -> p \in ps -> is_at m p x u ->
  (j < size u)%N -> cov (eps m' i) (vget u j) = 0.
Proof.
move=> C; have [par <- [lm lt eb E E']] := cond_log C; case: C => lt' _ _ Hp [_ Hu].
have Wf := l_wf (v_log (winv_run ops).1) lt.
rewrite (denotes_ext D G eps m E Wf Hp) in Hu.
exact: ((null_nth _ _).1 (eps_null (winv_run ops) Mo.1 i lt' eb Hu) j).
Qed.

(* The covariance of the data. *)
Definition vary (o : obs R) d (i j : nat) : R := cov (vget d i) (vget d j) + ent (o_noise o) i j.

Section Formula.
Variables (m' m : mid) (o : obs R) (ps : seq pid) (n : nat) (d : seq V).
Hypotheses (C : conditioned w m' m o ps) (Ho : o_p o \in ps) (Hd : is_at m (o_p o) (o_x o) d) (sd : size d = n).
Hypotheses (N1 : nr (o_noise o) = n) (N2 : nc (o_noise o) = n).

Lemma cond_S : gS (eps m') d = \matrix_(i < size d, j < size d) vary o d i j.
Proof.
apply/matrixP => i j; rewrite !mxE; have [par _ [_ _ eb _ _]] := cond_log C.
have [_ Hn] := vd_noise Mo.1 (cond_lt C) eb.
rewrite covD !covDr (covC (vget d i) (eps m' j)) !(cond_eps _ C Ho Hd) // addr0 add0r.
by rewrite Hn // ?N1 ?N2 -sd.
Qed.
Lemma cond_c p x u i : p \in ps -> is_at m p x u -> (i < size u)%N ->
  gc (eps m') d (vget u i) = \row_(k < size d) cov (vget u i) (vget d k).
Proof.
move=> Hp Hu li; apply/rowP => k; rewrite !mxE covDr (covC _ (eps m' k)) (cond_eps _ C Hp Hu) //.
by rewrite addr0.
Qed.

Lemma cond_cov p q x y u v i j : p \in ps -> q \in ps -> is_at m p x u -> is_at m q y v ->
  (i < size u)%N -> (j < size v)%N -> inv_at n (vary o d) ->
  cov (given (eps m') (o_y o) d (vget u i)) (given (eps m') (o_y o) d (vget v j)) =
  cov (vget u i) (vget v j) - pc n (vary o d) (fun k => cov (vget u i) (vget d k)) (fun k => cov (vget v j) (vget d k)).
Proof.
move=> Hp Hq Hu Hv li lj; rewrite -sd => U; rewrite given_cov ?cond_S // (cond_c Hp Hu li) (cond_c Hq Hv lj).
congr (_ - (_ *m _) 0 0); apply/colP => k; by rewrite !mxE.
Qed.
Lemma cond_Ex p x u i : p \in ps -> is_at m p x u -> (i < size u)%N ->
  Ex (given (eps m') (o_y o) d (vget u i)) =
  Ex (vget u i) + pc n (vary o d) (fun k => cov (vget u i) (vget d k)) (fun k => nth 0 (o_y o) k - Ex (vget d k)).
Proof.
move=> Hp Hu li; rewrite -sd given_Ex cond_S (cond_c Hp Hu li); congr (_ + (_ *m _) 0 0).
have [par _ [_ _ eb _ _]] := cond_log C; have [H0 _] := vd_noise Mo.1 (cond_lt C) eb.
by apply/colP => k; rewrite !mxE ExD H0 addr0.
Qed.
End Formula.
End Cond.
