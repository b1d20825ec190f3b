(* Sizes, diagonals and masks: stheno/mo/infer.py, the [elwise] and [_take_x] methods of
   stheno/mo/{kernel,input,adk}.py and stheno/model/fdd.py, missing values in
   stheno/model/observations.py and the unpacking of joint samples in
   stheno/model/measure.py. *)
From mathcomp Require Import all_ssreflect all_algebra.
From Verif Require Import Graph Machine Combine.
Set Implicit Arguments. Unset Strict Implicit. Unset Printing Implicit Defensive.
Import GRing.Theory.
Local Open Scope ring_scope.

(* [_check_and_merge], mo/infer.py:48-54; [None] is the exception, [Some None] is the value
   [None].  [filter(None, ds)] removes [None] and [0]. *)
Definition merge (ds : seq (option nat)) : option (option nat) :=
  match [seq d <- pmap id ds | d != 0%N] with
  | [::] => Some None
  | d :: ds' => if all (fun d' => d' == d) ds' then Some (Some d) else None
  end.

Section Infer.
Variable R : fieldType.
Notation input := (input R). Notation kexp := (kexp R).

(* [dimensionality], mo/infer.py:57-102, mo/kernel.py:79-81, mo/adk.py:61-63.  Sums and
   products are [Join]; scaled, reversed, transformed and derivative kernels are [Wrapped];
   all other kernels are [Element]. *)
Fixpoint dimensionality (k : kexp) : option (option nat) :=
  match k with
  | KElem _ | KZero | KOne | KTensor _ _ => Some (Some 1%N)
  | KAdd k1 k2 | KMul k1 k2 =>
    obind2 (fun d1 d2 => merge [:: d1; d2]) (dimensionality k1) (dimensionality k2)
  | KScale _ k1 | KRev k1 | KMap _ _ k1 | KDiff _ _ k1 | KToFdd _ k1 => dimensionality k1
  | KMok _ ps => Some (Some (size ps))
  | KAdk _ => Some None
  | KPost kij kzi kzj _ _ _ =>
    obind (fun d1 => obind2 (fun d2 d3 => merge [:: d1; d2; d3]) (dimensionality kzi) (dimensionality kzj))
      (dimensionality kij)
  | KSub kzi kzj _ _ _ _ _ _ _ _ =>
    obind2 (fun d1 d2 => merge [:: d1; d2]) (dimensionality kzi) (dimensionality kzj)
  end.

(* [infer_size], mo/infer.py:21-45. *)
Fixpoint infer_size (k : kexp) (x : input) : option nat :=
  match x with
  | Tup xs => (fix go l := if l is y :: l' then obind2 (fun a b => Some (a + b)%N) (infer_size k y) (go l') else Some 0%N) xs
  | Num xs => if dimensionality k is Some (Some d) then Some (size xs * d)%N else None
  | Fdd _ x' => Some (ne x')
  end.

(* The diagonal of a square matrix. *)
Definition diag (M : dmat R) : option (seq R) :=
  if nr M == nc M then Some (mkseq (fun i => ent M i i) (nr M)) else None.

(* [elwise] for kernels.  As for [pairwise], the methods of mlkernels are given by their
   meaning: derivative kernels have the diagonal of [pairwise], and inputs with different
   numbers of elements are an error. *)
Section Elwise.
Variables (rdk : mid -> pid -> pid -> option kexp) (rdm : mid -> pid -> option (mexp R)).
Variable D : nat -> (point R -> R) -> point R -> R.
Notation evk := (evk rdk rdm D). Notation evf := (evf rdk rdm D).
Fixpoint elk (n : nat) (k : kexp) (x y : input) {struct n} : option (seq R) :=
  if n is n'.+1 then
    match x, y with
    (* mo/input.py:22-36 *)
    | Tup xs, Tup ys =>
      if size xs == size ys then ofold1 (fun u v => Some (u ++ v)) [seq elk n' k z.1 z.2 | z <- zip xs ys]
      else None
    | Tup _, _ => elk n' k x (Tup [:: y])
    | _, Tup _ => elk n' k (Tup [:: x]) y
    | _, _ =>
      match k with
      | KElem f =>
        match x, y with
        | Num xs, Num ys =>
          if size xs == size ys then Some (mkseq (fun i => f (nth [::] xs i) (nth [::] ys i)) (size xs)) else None
        | _, _ => None
        end
      | KZero => if ne x == ne y then Some (nseq (ne x) 0) else None
      | KOne => if ne x == ne y then Some (nseq (ne x) 1) else None
      | KAdd k1 k2 => obind2 (vmap2 (fun a b => a + b)) (elk n' k1 x y) (elk n' k2 x y)
      | KMul k1 k2 => obind2 (vmap2 (fun a b => a * b)) (elk n' k1 x y) (elk n' k2 x y)
      | KScale c k1 => omap (map (fun a => c * a)) (elk n' k1 x y)
      | KTensor f g => obind2 (vmap2 (fun a b => a * b)) (evf n' f x) (evf n' g y)
      | KRev k1 => elk n' k1 y x
      | KMap t1 t2 k1 => obind2 (elk n' k1) (imap t1 x) (imap t2 y)
      | KDiff _ _ _ => obind diag (evk n k x y)
      | KMok m ps =>
        (* mo/kernel.py:59-76 *)
        match x, y with
        | Num _, Num _ => elk n' k (Tup [seq Fdd p x | p <- ps]) (Tup [seq Fdd p y | p <- ps])
        | Fdd a x', Fdd b y' => obind (fun k' => elk n' k' x' y') (rdk m a b)
        | _, _ => None
        end
      | KToFdd j k1 => elk n' k1 x (Fdd j y)      (* measure.py:422 *)
      | KAdk k1 => elk n' k1 x y                   (* mo/adk.py:54-56 *)
      | KPost kij kzi kzj kz z noise =>
        obind2 (vmap2 (fun a b => a - b)) (elk n' kij x y)
          (obind diag
            (obind (fun K => obind2 (iqf K) (evk n' kzi z x) (evk n' kzj z y))
               (obind (fun K => dadd K noise) (evk n' kz z z))))
      | KSub kzi kzj kz kzx kx z nz xd nx me =>
        obind diag
          (obind (fun A => obind2 (iqf A) (evk n' kzi z x) (evk n' kzj z y))
            (pseudo_var me nx (obind (fun K => dadd K nz) (evk n' kz z z)) (evk n' kzx z xd) (evk n' kx xd xd)))
      end
    end
  else None.
End Elwise.

(* The loops of [_take_x]: consecutive slices of the mask. *)
Fixpoint slices (f : input -> seq bool -> option input) (g : input -> option nat)
    (xs : seq input) (mu : seq bool) : option (seq input) :=
  if xs is x :: xs' then
    obind (fun n => obind2 (fun a b => Some (a :: b)) (f x (take n mu)) (slices f g xs' (drop n mu))) (g x)
  else Some [::].

(* [_take_x], fdd.py:135-148 and mo/kernel.py:84-99; [own p] is [p.kernel], the kernel of a
   process in its first measure (gp.py:105-116).  A mask whose length is not the number of
   rows of the array is an error. *)
Section Take.
Variable own : pid -> option kexp.
Fixpoint take_x (n : nat) (k : kexp) (x : input) (mu : seq bool) {struct n} : option input :=
  if n is n'.+1 then
    match x, k with
    | Tup xs, _ => omap (@Tup R) (slices (take_x n' k) (infer_size k) xs mu)
    | Num xs, KMok _ ps => omap (@Tup R) (slices (take_x n' k) (infer_size k) [seq Fdd p x | p <- ps] mu)
    | Num xs, _ => if size mu == size xs then Some (Num (mask mu xs)) else None
    | Fdd a x', KMok _ ps =>
      (* the input of [take] below, without its noise *)
      if a \in ps then
        obind (fun k' => obind (fun y => omap (fun=> Fdd a y) (infer_size k' y)) (take_x n' k' x' mu)) (own a)
      else None
    | Fdd _ _, _ => None
    end
  else None.

(* The rows that a mask selects, and [B.submatrix]. *)
Definition rows (mu : seq bool) : seq nat := mask mu (iota 0 (size mu)).
Definition submatrix (N : dmat R) (mu : seq bool) : option (dmat R) :=
  if (nr N == size mu) && (nc N == size mu) then
    Some (DMat (size (rows mu)) (size (rows mu)) (fun i j => ent N (nth 0%N (rows mu) i) (nth 0%N (rows mu) j)))
  else None.

(* [take], fdd.py:125-132; the new FDD infers its size, fdd.py:63. *)
Definition take_fdd (n : nat) (f : fdd R) (mu : seq bool) : option (fdd R) :=
  obind (fun k => obind (fun x => obind (fun N => omap (fun=> MkFdd (f_p f) x N) (infer_size k x)) (submatrix (f_noise f) mu))
    (take_x n k (f_x f) mu)) (own (f_p f)).

(* [AbstractObservations.__init__], observations.py:64-83; [None] is a missing value. *)
Definition observe (n : nat) (f : fdd R) (y : seq (option R)) : option (obs R) :=
  let available := map isSome y in
  if all id available then Some (Obs (f_p f) (f_x f) (f_noise f) (pmap id y))
  else omap (fun f' => Obs (f_p f') (f_x f') (f_noise f') (pmap id (mask available y))) (take_fdd n f available).
End Take.

(* The unpacking loop of [Measure.sample], measure.py:440-446; a sample is a list of rows. *)
Fixpoint unpack_from (T : Type) (i : nat) (ls : seq nat) (s : seq T) : seq (seq T) :=
  if ls is n :: ls' then take n (drop i s) :: unpack_from (i + n) ls' s else [::].
Definition unpack (T : Type) (fs : seq (fdd R)) (s : seq T) : seq (seq T) :=
  unpack_from 0 [seq ne (f_x f) | f <- fs] s.
End Infer.

(* [p.kernel], gp.py:113-116. *)
Definition own_kernel (R : fieldType) (w : world R) (p : pid) : option (kexp R) :=
  obind (fun m => see_k w m p p) (home w p).

(* [var] and [var_diag] of an FDD, fdd.py:65-66 and 79; [n] bounds the recursion. *)
Definition fdd_var (R : fieldType) D n (w : world R) (f : fdd R) : option (dmat R) :=
  obind (fun k => obind (fun K => dadd K (f_noise f)) (evk (see_k w) (see_m w) D n k (f_x f) (f_x f))) (own_kernel w (f_p f)).
Definition fdd_var_diag (R : fieldType) D n (w : world R) (f : fdd R) : option (seq R) :=
  obind (fun k => obind2 (vmap2 (fun a b => a + b)) (elk (see_k w) (see_m w) D n k (f_x f) (f_x f)) (diag (f_noise f)))
    (own_kernel w (f_p f)).
