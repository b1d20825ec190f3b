(* Vocabulary for the statements about what models mean (P_Model.v). *)
From mathcomp Require Import all_ssreflect all_algebra.
From Verif Require Import Graph Machine Refine GraphSpec RV.
Set Implicit Arguments. Unset Strict Implicit. Unset Printing Implicit Defensive.
Import GRing.Theory Num.Theory.
Local Open Scope ring_scope.

(* Non-negative quadratic forms: for all finite lists of coefficients and points. *)
Definition quad (R : ringType) (T : Type) (k : T -> T -> R) (l : seq (R * T)) : R :=
  \sum_(a <- l) \sum_(b <- l) a.1 * b.1 * k a.2 b.2.
Definition psd_fun (R : realFieldType) (T : Type) (k : T -> T -> R) : Prop := forall l, 0 <= quad k l.
Definition psd_matrix (R : realFieldType) (N : dmat R) : Prop :=
  forall l, all (fun a : R * nat => (a.2 < nr N)%N) l -> 0 <= quad (ent N) l.

(* The quadratic form of a matrix that is given by blocks. *)
Definition block_quad (R : fieldType) (k : nat) (B : nat -> nat -> dmat R) (c : nat -> nat -> R) : R :=
  \sum_(i < k) \sum_(j < k) \sum_(a < nr (B i j)) \sum_(b < nc (B i j)) c i a * c j b * ent (B i j) a b.
(* Variances are non-negative. *)
Definition nonneg (R : realFieldType) (W : space R) : Prop := forall v : rv W, 0 <= cov v v.

(* The noise of every observation is non-negative. *)
Definition psd_noise (R : realFieldType) (ops : seq (op R)) : Prop :=
  forall m o, List.In (OCond m o) ops ->
    psd_matrix (o_noise o) /\ forall d, o_data o = Some d -> all (fun a => 0 <= a) (d_noise d).

Section ModelSpec.
Variable R : fieldType.
Notation world := (world R). Notation input := (input R). Notation point := (point R).

(* The noise of the observations, and that of the inducing variables followed by that of the
   data for pseudo-observations. *)
Definition data_noise (o : obs R) : seq R := if o_data o is Some d then d_noise d else [::].
Definition full_noise (o : obs R) : dmat R :=
  let N := nr (o_noise o) in let n := (N + size (data_noise o))%N in
  DMat n n (fun i j => if (i < N)%N && (j < N)%N then ent (o_noise o) i j
                       else if (i == j) && (N <= i)%N then nth 0 (data_noise o) (i - N)%N else 0).

Definition square_sym (N : dmat R) : Prop := nr N = nc N /\
  forall i j, (i < nr N)%N -> (j < nr N)%N -> ent N i j = ent N j i.

(* The points of an input without FDDs. *)
Fixpoint points (x : input) : option (seq point) :=
  match x with
  | Num xs => Some xs
  | Fdd _ _ => None
  | Tup xs => (fix go l := if l is y :: l' then obind2 (fun a b => Some (a ++ b)) (points y) (go l') else Some [::]) xs
  end.

(* Equality of matrices. *)
Definition same_matrix (M M' : dmat R) : Prop :=
  [/\ nr M = nr M', nc M = nc M' &
      forall i j, (i < nr M)%N -> (j < nc M)%N -> ent M i j = ent M' i j].
Definition transposed (M M' : dmat R) : Prop :=
  [/\ nr M = nc M', nc M = nr M' &
      forall i j, (i < nr M)%N -> (j < nc M)%N -> ent M i j = ent M' j i].

(* [M] consists of the blocks [B i j]; [sh] and [sh'] are the numbers of their rows and
   columns. *)
Definition blocks (sh sh' : seq nat) (B : nat -> nat -> dmat R) (M : dmat R) : Prop :=
  [/\ nr M = sumn sh, nc M = sumn sh',
      forall i j, (i < size sh)%N -> (j < size sh')%N -> nr (B i j) = nth 0%N sh i /\ nc (B i j) = nth 0%N sh' j &
      forall i j a b, (i < size sh)%N -> (j < size sh')%N -> (a < nth 0%N sh i)%N -> (b < nth 0%N sh' j)%N ->
        ent M (sumn (take i sh) + a)%N (sumn (take j sh') + b)%N = ent (B i j) a b].

(* In the history [h], process [r] was added by the definition [d], possibly before
   conditioning. *)
Fixpoint made (h : hist R) (r : pid) (d : pdef R) : Prop :=
  match h with
  | HRoot => False
  | HPost _ par _ => made par r d
  | HAdd r' d' rest => (r' = r /\ d' = d) \/ made rest r d
  end.
Definition defined (w : world) (m : mid) (r : pid) (d : pdef R) : Prop :=
  (m < w_nm w)%N /\ made (w_log w m) r d.

(* Measure [m'] was obtained by conditioning [m] on [o] when the processes of [m] were [ps]:
   on exact observations, and on pseudo-observations. *)
Definition conditioned (w : world) (m' m : mid) (o : obs R) (ps : seq pid) : Prop :=
  [/\ (m' < w_nm w)%N, o_data o = None & exists2 par, base (w_log w m') = Some (m, par, o) & pids par = ps].
Definition approximated (w : world) (m' m : mid) (o : obs R) (d : pdata R) (ps : seq pid) : Prop :=
  [/\ (m' < w_nm w)%N, o_data o = Some d & exists2 par, base (w_log w m') = Some (m, par, o) & pids par = ps].

(* The numbers that a measure gives, for some bound on the recursion. *)
Definition cov_is D (w : world) (m : mid) (p q : pid) (x y : input) (M : dmat R) : Prop :=
  exists n, kernel_at D n w m p q x y = Some M.
Definition mean_is D (w : world) (m : mid) (p : pid) (x : input) (e : seq R) : Prop :=
  exists n, mean_at D n w m p x = Some e.

(* The definition that an operation of the API gives to the process it creates. *)
Definition law (o : op R) : option (pdef R) :=
  match o with
  | OGP m mu k => Some (DInd mu k)
  | OUser m mu k l _ => Some (DUser mu k l)
  | OCopy m p => Some (DCopy p)
  | OAddC p c => Some (DAddC p c)
  | OAddF p f => Some (DAddF p f)
  | OScale p c => Some (DScale p c)
  | OMulF p f => Some (DFun p (FUser f))
  | OShift p c => Some (DMap p (shiftX c) (Some (shiftX (fun=> 0))))
  | OStretch p s => Some (DMap p (stretchX s) (Some (stretchX (fun=> 1))))
  | OSelect p dims => Some (DMap p (selectX dims) None)
  | OTransform p f => Some (DMap p f None)
  | ODiff p d => Some (DDiff p d)
  | OSum p q _ => Some (DSum p q)
  | OCross ps _ => Some (DCross ps)
  | _ => None
  end.

(* [affine w m r l c]: [r] is the sum of [c] and of [t.1 * t.2] for [t] in [l], by the
   definitions of sums, multiples, copies and shifts by a constant. *)
Inductive affine (w : world) (m : mid) : pid -> seq (R * pid) -> R -> Prop :=
| af_self p : affine w m p [:: (1, p)] 0
| af_copy r p l c : defined w m r (DCopy p) -> affine w m p l c -> affine w m r l c
| af_const r p l c a : defined w m r (DAddC p a) -> affine w m p l c -> affine w m r l (c + a)
| af_scale r p l c a : defined w m r (DScale p a) -> affine w m p l c ->
    affine w m r [seq (a * t.1, t.2) | t <- l] (a * c)
| af_sum r p q l c l' c' : defined w m r (DSum p q) -> affine w m p l c -> affine w m q l' c' ->
    affine w m r (l ++ l') (c + c').

(* Process [q] of the history [h] was built without process [r]; conditioning on data makes
   every process depend on what was observed, and a process of [add_gp] may depend on anything. *)
Fixpoint avoids (h : hist R) (r q : pid) : Prop :=
  match h with
  | HRoot => True
  | HPost _ par o => avoids par r q /\ forall a, a \in o_pids o -> avoids par r a
  | HAdd q' d rest =>
    if q == q' then [/\ q <> r, (if d is DUser _ _ _ then False else True) &
                       forall p, p \in needs d -> avoids rest r p]
    else avoids rest r q
  end.
(* No data about [r] were observed. *)
Fixpoint unseen (h : hist R) (r : pid) : Prop :=
  match h with
  | HRoot => True
  | HPost _ par o => unseen par r /\ forall a, a \in o_pids o -> avoids par r a
  | HAdd q d rest => if q == r then True else unseen rest r
  end.

(* Process [p] of the history [h] was built without Cartesian products. *)
Fixpoint single (h : hist R) (p : pid) : Prop :=
  match h with
  | HRoot => True
  | HPost _ par _ => single par p
  | HAdd q d rest =>
    if p == q then (if d is DCross _ then False else True) /\ forall p', p' \in needs d -> single rest p'
    else single rest p
  end.

(* Features increased by [c] and multiplied by [s]. *)
Definition addX (c : nat -> R) (x : point) : point := mkseq (fun i => nth 0 x i + c i) (size x).
Definition mulX (s : nat -> R) (x : point) : point := mkseq (fun i => s i * nth 0 x i) (size x).

(* [parts w m q x l]: process [q] at [x] is the concatenation of [t.1] at [t.2] for [t] in
   [l], because tuples are concatenations and because of Cartesian products. *)
Inductive parts (w : world) (m : mid) : pid -> input -> seq (pid * input) -> Prop :=
| pt_self q x : parts w m q x [:: (q, x)]
| pt_num q ps xs : defined w m q (DCross ps) -> parts w m q (Num xs) [seq (p, Num xs) | p <- ps]
| pt_fdd q ps a x : defined w m q (DCross ps) -> a \in ps -> parts w m q (Fdd a x) [:: (a, x)]
| pt_nil q : parts w m q (Tup [::]) [::]
| pt_cons q x xs l l' : parts w m q x l -> parts w m q (Tup xs) l' -> parts w m q (Tup (x :: xs)) (l ++ l')
| pt_split q x l1 z l2 l : parts w m q x (l1 ++ z :: l2) -> parts w m z.1 z.2 l ->
    parts w m q x (l1 ++ l ++ l2).

Definition lname (l : seq (pid * input)) (i : nat) : pid := (nth (0%N, Num [::]) l i).1.
Definition linput (l : seq (pid * input)) (i : nat) : input := (nth (0%N, Num [::]) l i).2.

(* The coefficient of [p] in a linear combination. *)
Definition coef (l : seq (R * pid)) (p : pid) : R := \sum_(t <- l | t.2 == p) t.1.

(* Models whose independently constructed processes have kernels and means that are functions
   of the points, [ka p] and [mu p] for process [p], with symmetric noise, and without the
   approximations of products and without [add_gp]. *)
Section Plain.
Variable D : nat -> (point -> R) -> point -> R.
Definition is_kernel (k : kexp R) (f : point -> point -> R) : Prop :=
  forall rdk rdm n xs ys M, evk rdk rdm D n k (Num xs) (Num ys) = Some M ->
    [/\ nr M = size xs, nc M = size ys &
        forall i j, (i < size xs)%N -> (j < size ys)%N -> ent M i j = f (nth [::] xs i) (nth [::] ys j)].
Definition is_mean (mu : mexp R) (f : point -> R) : Prop :=
  forall rdk rdm n x xs v, points x = Some xs -> evm rdk rdm D n mu x = Some v -> v = map f xs.
Variables (mu : pid -> point -> R) (ka : pid -> point -> point -> R).
Definition plain_op (w : world) (o : op R) : Prop :=
  match o with
  | OGP _ mu' k => is_mean mu' (mu (w_np w)) /\ is_kernel k (ka (w_np w))
  | OUser _ _ _ _ _ | OMul _ _ _ => False
  | OCond _ ob => square_sym (o_noise ob)
  | _ => True
  end.
Fixpoint plain (w : world) (ops : seq (op R)) : Prop :=
  match ops with
  | [::] => True
  | o :: ops' => plain_op w o /\ plain (step w o).1 ops'
  end.
End Plain.

(* Multi-output processes come after the independently constructed ones. *)
Definition is_gp (o : op R) : bool :=
  match o with OGP _ _ _ | OUser _ _ _ _ _ | OMul _ _ _ => true | _ => false end.
Fixpoint gp_first (ops : seq (op R)) : bool :=
  match ops with
  | [::] => true
  | o :: ops' => if o is OCross _ _ then ~~ has is_gp ops' else gp_first ops'
  end.

Section Sem.
Variable W : space R.
Variable D : nat -> (point -> R) -> point -> R.
Variables (G : pid -> point -> rv W) (eps : mid -> nat -> rv W).
Notation V := (rv W).

(* Under measure [m] of the world [w], process [p] at input [x] is the random vector [u]. *)
Definition is_at (w : world) (m : mid) (p : pid) (x : input) (u : seq V) : Prop :=
  (m < w_nm w)%N /\ denotes D G eps m (w_log w m) p x u.

(* Process [p] is among those that [P] covers and has a value at [x]. *)
Definition meant (w : world) (P : mid -> pid -> Prop) (m : mid) (p : pid) (x : input) : Prop :=
  P m p /\ exists u, is_at w m p x u.

(* Equality of random vectors: same expectation, same covariance with everything. *)
Definition same_rv (u v : seq V) : Prop :=
  size u = size v /\ forall i, (i < size u)%N ->
    Ex (vget u i) = Ex (vget v i) /\ forall g, cov (vget u i) g = cov (vget v i) g.

(* The hypotheses on a model: [G] and [eps] fit it, and independently constructed processes
   precede multi-output processes. *)
Definition model (w : world) (P : mid -> pid -> Prop) : Prop :=
  valid D G eps w P /\ ordered D G eps w P.
End Sem.
End ModelSpec.
