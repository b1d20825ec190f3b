(* What a model means: every process of a measure is a random function that satisfies its
   defining equation.  Nothing here mentions kernels, means or rules.

   [space] is a space of random variables with finite variance; [denotes] says that the
   random vector [u] is process [p] at input [x] under the measure with history [h]. *)
From Coq Require Import List.
From mathcomp Require Import all_ssreflect all_algebra.
From Verif Require Import Graph Machine Refine.
Set Implicit Arguments. Unset Strict Implicit. Unset Printing Implicit Defensive.
Import GRing.Theory.
Local Open Scope ring_scope.

(* Random variables: sums, multiples, the constant 1, expectation and covariance. *)
Record space (R : fieldType) := Space {
  rv : Type;
  radd : rv -> rv -> rv;
  rscale : R -> rv -> rv;
  rone : rv;
  Ex : rv -> R;
  cov : rv -> rv -> R;
  ExD : forall u v, Ex (radd u v) = Ex u + Ex v;
  ExZ : forall c u, Ex (rscale c u) = c * Ex u;
  Ex1 : Ex rone = 1;
  covC : forall u v, cov u v = cov v u;
  covD : forall u v w, cov (radd u v) w = cov u w + cov v w;
  covZ : forall c u v, cov (rscale c u) v = c * cov u v;
  cov1 : forall v, cov rone v = 0 }.

Section RV.
Variable R : fieldType.
Variable W : space R.
Variable D : nat -> (point R -> R) -> point R -> R.
Notation V := (rv W). Notation input := (input R). Notation hist := (hist R).
Notation point := (point R).

(* The random functions behind independently constructed processes and those of [add_gp], and
   the observation noise behind every posterior measure. *)
Variables (G : pid -> point -> V) (eps : mid -> nat -> V).

Definition rconst (c : R) : V := rscale c (rone W).
Definition rsub (u v : V) : V := radd u (rscale (-1) v).
Definition rsum (n : nat) (F : nat -> V) : V := foldr (fun k v => radd (F k) v) (rconst 0) (iota 0 n).
Definition vget (u : seq V) (i : nat) : V := nth (rone W) u i.

(* A process at a tuple of inputs is the concatenation. *)
Inductive lift (A : input -> seq V -> Prop) : input -> seq V -> Prop :=
| lift_num xs u : A (Num xs) u -> lift A (Num xs) u
| lift_fdd p x u : A (Fdd p x) u -> lift A (Fdd p x) u
| lift_nil : lift A (Tup [::]) [::]
| lift_cons x xs u v : lift A x u -> lift A (Tup xs) v -> lift A (Tup (x :: xs)) (u ++ v).

(* [dF] is the mean-square derivative of [F] in direction [d]: it is a derivative in
   expectation and in covariance with every random variable. *)
Definition derivative (d : nat) (F dF : point -> V) : Prop :=
  (forall x, Ex (dF x) = D d (fun t => Ex (F t)) x) /\
  (forall x v, cov (dF x) v = D d (fun t => cov (F t) v) x).

(* [v] given that the noisy data [w + e] are [y]: the linear predictor from the data is
   exchanged for its observed value. *)
Definition given (e : nat -> V) (y : seq R) (w : seq V) (v : V) : V :=
  let n := size w in
  let d i := radd (vget w i) (e i) in
  let S : 'M[R]_n := \matrix_(i, j) cov (d i) (d j) in
  let c : 'rV[R]_n := \row_j cov v (d j) in
  let b := c *m invmx S in
  radd v (rsum n (fun k =>
    rscale (if insub k is Some k' then b 0 k' else 0) (rsub (rconst (nth 0 y k)) (d k)))).

(* [v] as far as it is determined by the noisy data [w + e]: its linear predictor. *)
Definition project (e : nat -> V) (w : seq V) (v : V) : V :=
  let n := size w in
  let d i := radd (vget w i) (e i) in
  let S : 'M[R]_n := \matrix_(i, j) cov (d i) (d j) in
  let c : 'rV[R]_n := \row_j cov v (d j) in
  let b := c *m invmx S in
  radd (rconst (Ex v)) (rsum n (fun k =>
    rscale (if insub k is Some k' then b 0 k' else 0) (rsub (d k) (rconst (Ex (d k)))))).

(* What is observed, if [A] is the meaning of the processes: the values of the process, or, for
   pseudo-observations, the values as far as they are determined by the inducing variables.
   This is the approximation of the methods VFE and DTC; FITC, which also changes the noise, is
   not given a meaning here. *)
Definition data (A : pid -> input -> seq V -> Prop) (e : nat -> V) (o : obs R) (w : seq V) : Prop :=
  match o_data o with
  | None => lift (A (o_p o)) (o_x o) w
  | Some d => d_method d <> FITC /\ exists wz wx,
      [/\ lift (A (o_p o)) (o_x o) wz, lift (A (d_p d)) (d_x d) wx & w = map (project e wz) wx]
  end.
Definition values (o : obs R) : seq R := if o_data o is Some d then d_y d else o_y o.
(* With pseudo-observations, the noise of the inducing variables is followed by that of the
   data. *)
Definition noise_of (o : obs R) (e : nat -> V) : nat -> V :=
  if o_data o is Some _ then fun i => e (nr (o_noise o) + i)%N else e.

(* The defining equations; [A] is the meaning of the processes defined before. *)
Section Def.
Variables (m : mid) (A : pid -> input -> seq V -> Prop) (r : pid).

Definition fvalue (f : fexp R) (x : input) (fv : seq R) : Prop :=
  match f with
  | FUser g => exists2 xs, x = Num xs & fv = map g xs
  | FMean m' p => m' = m /\ exists2 w, A p x w & fv = map (@Ex _ W) w
  | FOnes => False
  end.

Definition zipw (A B C : Type) (f : A -> B -> C) (a : seq A) (b : seq B) : seq C :=
  [seq f p.1 p.2 | p <- zip a b].

Definition equation (d : pdef R) (x : input) (u : seq V) : Prop :=
  match d with
  | DInd _ _ | DUser _ _ _ => exists2 xs, x = Num xs & u = map (G r) xs
  | DCopy p => A p x u
  | DAddC p c => exists2 a, A p x a & u = [seq radd v (rconst c) | v <- a]
  | DAddF p f => exists xs a, [/\ x = Num xs, A p x a, size a = size xs &
                                  u = zipw (fun v t => radd v (rconst (f t))) a xs]
  | DSum p q => exists a b, [/\ A p x a, A q x b, size a = size b & u = zipw (@radd _ W) a b]
  | DScale p c => exists2 a, A p x a & u = map (rscale c) a
  | DFun p f => exists fv a, [/\ fvalue f x fv, A p x a, size fv = size a &
                                 u = zipw (@rscale _ W) fv a]
  | DMap p t _ => exists2 xs, x = Num xs & A p (Num (map t xs)) u
  | DDiff p d => exists xs F dF, [/\ x = Num xs, forall t, A p (Num [:: t]) [:: F t],
                                     derivative d F dF & u = map dF xs]
  | DCross ps =>
    match x with
    | Num _ => exists2 us, Forall2 (fun p ui => A p x ui) ps us & u = flatten us
    | Fdd a x' => a \in ps /\ lift (A a) x' u
    | Tup _ => False
    end
  end.
End Def.

(* Process [p] at an array or an FDD, under measure [m] with history [h]. *)
Fixpoint at_ (m : mid) (h : hist) (p : pid) (x : input) (u : seq V) {struct h} : Prop :=
  match h with
  | HRoot => False
  | HPost pm par o =>
    exists2 u0, at_ pm par p x u0 &
      Forall2 (fun v0 v => exists2 w, data (at_ pm par) (eps m) o w &
                                      v = given (noise_of o (eps m)) (values o) w v0) u0 u
  | HAdd r d rest => if p == r then equation m (at_ m rest) r d x u else at_ m rest p x u
  end.

(* Process [p] at any input. *)
Definition denotes (m : mid) (h : hist) (p : pid) : input -> seq V -> Prop := lift (at_ m h p).

(* [M] is the covariance matrix of [u] and [v]. *)
Definition covmat (M : dmat R) (u v : seq V) : Prop :=
  [/\ nr M = size u, nc M = size v &
      forall i j, (i < size u)%N -> (j < size v)%N -> ent M i j = cov (vget u i) (vget v j)].

(* The processes that a definition refers to. *)
Definition needs (d : pdef R) : seq pid :=
  match d with
  | DInd _ _ | DUser _ _ _ => [::]
  | DCopy p | DAddC p _ | DAddF p _ | DScale p _ | DMap p _ _ | DDiff p _ => [:: p]
  | DFun p f => if f is FMean _ q then [:: p; q] else [:: p]
  | DSum p q => [:: p; q]
  | DCross ps => ps
  end.

(* Process [p] was constructed independently. *)
Definition alone (w : world R) (p : pid) : Prop := exists m mu k rest, (m < w_nm w)%N /\
  ext (HAdd p (DInd mu k) rest) (w_log w m).

(* The random functions [G] and [eps] fit the world [w], as far as the processes in [P] are
   concerned ([P m] are the processes of interest of measure [m]).
   [ext (HAdd p d rest) (w_log w m)] says that [p] was added to measure [m] by definition [d]
   when its history was [rest]. *)
Record valid (w : world R) (P : mid -> pid -> Prop) : Prop := Valid {
  (* [P] contains what its members are built from. *)
  vd_needs : forall m p d rest q, (m < w_nm w)%N -> ext (HAdd p d rest) (w_log w m) ->
    P m p -> q \in needs d -> P m q;
  vd_base : forall m pm par o p, (m < w_nm w)%N -> base (w_log w m) = Some (pm, par, o) ->
    P m p -> p \in pids par -> P pm p /\ forall a, a \in o_pids o -> P pm a;
  (* The kernel and mean of an independently constructed process are those of its random
     function. *)
  vd_cov : forall m p mu k rest n xs ys M, (m < w_nm w)%N ->
    ext (HAdd p (DInd mu k) rest) (w_log w m) -> P m p ->
    evk (see_k w) (see_m w) D n k (Num xs) (Num ys) = Some M ->
    covmat M (map (G p) xs) (map (G p) ys);
  vd_mean : forall m p mu k rest n x u v, (m < w_nm w)%N ->
    ext (HAdd p (DInd mu k) rest) (w_log w m) -> P m p -> denotes m (w_log w m) p x u ->
    evm (see_k w) (see_m w) D n mu x = Some v -> v = map (@Ex _ W) u;
  (* So are those given to [add_gp], and the kernels that its left rule gives with the processes
     that were there are the cross-covariances. *)
  vd_user_cov : forall m p mu k lr rest n xs ys M, (m < w_nm w)%N ->
    ext (HAdd p (DUser mu k lr) rest) (w_log w m) -> P m p ->
    evk (see_k w) (see_m w) D n k (Num xs) (Num ys) = Some M ->
    covmat M (map (G p) xs) (map (G p) ys);
  vd_user_mean : forall m p mu k lr rest n x u v, (m < w_nm w)%N ->
    ext (HAdd p (DUser mu k lr) rest) (w_log w m) -> P m p -> denotes m (w_log w m) p x u ->
    evm (see_k w) (see_m w) D n mu x = Some v -> v = map (@Ex _ W) u;
  vd_user_left : forall m p mu k lr rest q kq n xs y v M, (m < w_nm w)%N ->
    ext (HAdd p (DUser mu k lr) rest) (w_log w m) -> P m p -> P m q -> lr q = Some kq ->
    at_ m rest q y v -> evk (see_k w) (see_m w) D n kq (Num xs) y = Some M ->
    covmat M (map (G p) xs) v;
  (* Independence: of independently constructed processes, and of the random functions that were
     there when they were constructed. *)
  vd_ind : forall p q s t, p <> q -> alone w p -> alone w q -> cov (G p s) (G q t) = 0;
  vd_new : forall m p mu k rest q s t, (m < w_nm w)%N ->
    ext (HAdd p (DInd mu k) rest) (w_log w m) -> q \in pids rest -> cov (G p s) (G q t) = 0;
  vd_ind_eps : forall m i p t, cov (eps m i) (G p t) = 0;
  vd_eps_eps : forall m m' i j, m <> m' -> cov (eps m i) (eps m' j) = 0;
  (* The noise of the observations. *)
  vd_noise : forall m pm par o, (m < w_nm w)%N -> base (w_log w m) = Some (pm, par, o) ->
    (forall i, Ex (eps m i) = 0) /\
    (forall i j, (i < nr (o_noise o))%N -> (j < nc (o_noise o))%N ->
      cov (eps m i) (eps m j) = ent (o_noise o) i j);
  vd_pseudo : forall m pm par o d, (m < w_nm w)%N -> base (w_log w m) = Some (pm, par, o) -> o_data o = Some d ->
    (forall i j, (i < nr (o_noise o))%N -> cov (eps m i) (eps m (nr (o_noise o) + j)%N) = 0) /\
    (forall i j, (i < size (d_noise d))%N -> (j < size (d_noise d))%N ->
      cov (eps m (nr (o_noise o) + i)%N) (eps m (nr (o_noise o) + j)%N) = if i == j then nth 0 (d_noise d) i else 0);
  (* The derivative of zero is zero. *)
  vd_zero : forall d t, D d (fun=> 0) t = 0 }.

(* Independently constructed processes were constructed before the processes that have more
   (or fewer) values than inputs. *)
Definition ordered (w : world R) (P : mid -> pid -> Prop) : Prop :=
  forall m p mu k rest q y v, (m < w_nm w)%N ->
    ext (HAdd p (DInd mu k) rest) (w_log w m) -> P m p -> P m q -> at_ m rest q y v ->
    size v = ne y.

End RV.
