(* Model of the lazy accessors of stheno/random.py (Normal) and of the noise argument of
   stheno/model/fdd.py (FDD).

   The object is a record of its attributes, and an access returns a value and changes the
   object.  The functions given to the constructor are represented by their values; a function
   that was not given is [None].  Matrices have entries in a field with an order; there are no
   batches. *)
From mathcomp Require Import all_ssreflect all_algebra.
From Verif Require Import NormalSpec.
Set Implicit Arguments. Unset Strict Implicit. Unset Printing Implicit Defensive.
Import Order.TTheory GRing.Theory Num.Theory.
Local Open Scope ring_scope.

(* A mean is the number 0, a matrix of type Zero or another column vector. *)
Inductive mval (R : Type) (n : nat) : Type := MScalar0 | MZero | MVec of 'cV[R]_n.
Arguments MScalar0 {R n}. Arguments MZero {R n}.

Section Lazy.
Variable R : realFieldType.
Variable n : nat.
Notation mval := (mval R n). Notation vec := ('I_n -> R).

(* random.py:56-94: the attributes that start with _construct are fixed. *)
Record ctor := Ctor {
  c_mean : option mval;
  c_var : option 'M[R]_n;
  c_var_diag : option vec;
  c_mean_var : option (mval * 'M[R]_n);
  c_mean_var_diag : option (mval * vec) }.
Record attrs := Attrs {
  a_mean : option mval;
  a_zero : option bool;
  a_var : option 'M[R]_n;
  a_diag : option vec }.
Record obj := Obj { o_ctor : ctor; o_attrs : attrs }.

(* random.py:56-70 *)
Definition normal_direct (m : mval) (v : 'M[R]_n) : obj :=
  Obj (Ctor None None None None None) (Attrs (Some m) None (Some v) None).
(* random.py:72-94 *)
Definition normal_lazy (m : mval) (v : 'M[R]_n) var_diag mean_var mean_var_diag : obj :=
  Obj (Ctor (Some m) (Some v) var_diag mean_var mean_var_diag) (Attrs None None None None).

(* AttributeError is [None]. *)
Definition M A := ctor -> attrs -> option (A * attrs).
Definition ret A (a : A) : M A := fun _ s => Some (a, s).
Definition bind A B (m : M A) (f : A -> M B) : M B :=
  fun c s => if m c s is Some (a, s') then f a c s' else None.
Notation "'do' x <- m ; f" := (bind m (fun x => f)) (at level 200, x pattern, m at level 100, f at level 200).
Definition get A (f : attrs -> A) : M A := fun _ s => Some (f s, s).
Definition conf A (f : ctor -> A) : M A := fun c s => Some (f c, s).
Definition attr A (f : ctor -> option A) : M A := fun c s => if f c is Some a then Some (a, s) else None.
Definition set (f : attrs -> attrs) : M unit := fun _ s => Some (tt, f s).
Definition need A (f : attrs -> option A) : M A := fun _ s => if f s is Some a then Some (a, s) else None.

Definition put_mean m s := Attrs (Some m) (a_zero s) (a_var s) (a_diag s).
Definition put_zero b s := Attrs (a_mean s) (Some b) (a_var s) (a_diag s).
Definition put_var v s := Attrs (a_mean s) (a_zero s) (Some v) (a_diag s).
Definition put_diag d s := Attrs (a_mean s) (a_zero s) (a_var s) (Some d).

(* random.py:106-110, 161-165 *)
Definition resolve_var : M unit :=
  do v <- get a_var;
  if v is None then do v <- attr c_var; set (put_var v) else ret tt.
Definition get_var : M 'M[R]_n := do _ <- resolve_var; need a_var.

(* random.py:96-104; the zeros need the size of the variance (189-197). *)
Definition scalar0 (m : mval) : bool := if m is MScalar0 then true else false.
Definition looks_zero (m : mval) : bool := match m with MScalar0 | MZero => true | MVec _ => false end.
Definition resolve_mean (construct_zeros : bool) : M unit :=
  do m <- get a_mean;
  do _ <- (if m is None then do m <- attr c_mean; set (put_mean m) else ret tt);
  do z <- get a_zero;
  do _ <- (if z is None then do m <- need a_mean; set (put_zero (looks_zero m)) else ret tt);
  do m <- need a_mean;
  if scalar0 m && construct_zeros then do _ <- get_var; set (put_mean (MVec 0)) else ret tt.
(* random.py:149-159 *)
Definition get_mean : M mval := do _ <- resolve_mean true; need a_mean.
Definition mean_is_zero : M bool := do _ <- resolve_mean false; need a_zero.

(* random.py:112-117, 167-171 *)
Definition resolve_var_diag : M unit :=
  do d <- get a_diag;
  if d is None then
    do f <- conf c_var_diag;
    if f is Some d then set (put_diag d) else do v <- get_var; set (put_diag (fun i => v i i))
  else ret tt.
Definition get_var_diag : M vec := do _ <- resolve_var_diag; need a_diag.

(* random.py:173-187 *)
Definition mean_var : M (mval * 'M[R]_n) :=
  do m <- get a_mean; do v <- get a_var;
  match m, v with
  | Some m, Some v => ret (m, v)
  | Some m, None => do v <- get_var; ret (m, v)
  | None, Some v => do m <- get_mean; ret (m, v)
  | None, None =>
    do f <- conf c_mean_var;
    do _ <- (if f is Some (m, v) then
               do _ <- set (put_mean m); do _ <- set (put_var v); do _ <- resolve_mean true; resolve_var
             else ret tt);
    do m <- get_mean; do v <- get_var; ret (m, v)
  end.

(* random.py:199-202 *)
Definition column (m : mval) : 'cV[R]_n := if m is MVec v then v else 0.
Definition m2 : M 'M[R]_n := do v <- get_var; do m <- get_mean; ret (v + column m *m (column m)^T).

(* random.py:204-227; the squeeze of the mean is not shown. *)
Definition marginals : M (mval * vec) :=
  do m <- get a_mean; do d <- get a_diag;
  do r <- (match m, d with
    | Some m, Some d => ret (m, d)
    | Some m, None => do d <- get_var_diag; ret (m, d)
    | None, Some d => do m <- get_mean; ret (m, d)
    | None, None =>
      do f <- conf c_mean_var_diag;
      do _ <- (if f is Some (m, d) then do _ <- set (put_mean m); do _ <- set (put_diag d); resolve_mean true
               else ret tt);
      do m <- get_mean; do d <- get_var_diag; ret (m, d)
    end);
  ret (r.1, fun i => Num.max (r.2 i) 0).

(* random.py:240-246: mean and diagonal of the new distribution. *)
Definition diagonalise : M (mval * vec) := do m <- get_mean; do d <- get_var_diag; ret (m, d).

(* The accesses and what they return. *)
Inductive access := AMean | AZero | AVar | ADiag | AMeanVar | AM2 | AMarginals | ADiagonalise.
Inductive answer :=
| RMean of mval | RZero of bool | RVar of 'M[R]_n | RDiag of vec | RMeanVar of mval & 'M[R]_n
| RM2 of 'M[R]_n | RMarginals of mval & vec | RDiagonalise of mval & vec.
Definition run_access (a : access) : M answer :=
  match a with
  | AMean => do m <- get_mean; ret (RMean m)
  | AZero => do b <- mean_is_zero; ret (RZero b)
  | AVar => do v <- get_var; ret (RVar v)
  | ADiag => do d <- get_var_diag; ret (RDiag d)
  | AMeanVar => do r <- mean_var; ret (RMeanVar r.1 r.2)
  | AM2 => do v <- m2; ret (RM2 v)
  | AMarginals => do r <- marginals; ret (RMarginals r.1 r.2)
  | ADiagonalise => do r <- diagonalise; ret (RDiagonalise r.1 r.2)
  end.
(* A sequence of accesses to one object. *)
Fixpoint answers (c : ctor) (s : attrs) (l : seq access) : option (seq answer) :=
  if l is a :: l' then
    if run_access a c s is Some (r, s') then omap (cons r) (answers c s' l') else None
  else Some [::].
Definition ask (o : obj) (l : seq access) : option (seq answer) := answers (o_ctor o) (o_attrs o) l.

(* fdd.py:14-41 *)
Inductive noise := NoNoise | NScalar of R | NVector of 'I_n -> R | NMatrix of 'M[R]_n.
Definition noise_as_matrix (e : noise) : 'M[R]_n :=
  match e with
  | NoNoise => 0
  | NScalar a => a%:M
  | NVector d => diag_mx (\row_i d i)
  | NMatrix A => A
  end.
(* fdd.py:59-87: [m] is the mean of the process at the inputs, [k] its covariance matrix and
   [d] the result of kernel.elwise. *)
Definition fdd (m : mval) (k : 'M[R]_n) (d : vec) (e : noise) : obj :=
  let nm := noise_as_matrix e in
  let var_diag i := d i + nm i i in
  normal_lazy m (k + nm) (Some var_diag) (Some (m, k + nm)) (Some (m, var_diag)).
End Lazy.
