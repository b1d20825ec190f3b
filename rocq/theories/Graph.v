(* Inputs, kernel and mean expressions, and their evaluation.

   Models stheno/mo/{adk,infer,input,kernel,mean}.py, stheno/model/fdd.py (inputs and
   [num_elements]) and the meaning of the mlkernels objects that stheno constructs in
   stheno/model/measure.py and stheno/model/observations.py.

   Simplifications (also in DESIGN.md):
   - numbers are elements of a field; no floating point, no jitter ([B.epsilon]), no batch
     dimensions, no dtypes; a singular matrix handed to [B.iqf] is an error;
   - an input array is a list of points and a point is the list of its features; missing
     features are not errors (reads outside a point give 0);
   - user-supplied functions and kernels act point by point;
   - NumPy broadcasting between mismatched shapes is an error;
   - algebraic simplifications that mlkernels performs on expressions (e.g. [0 * k]) are
     not performed;
   - derivatives are an oracle [D], see Spec.v for what is assumed about it. *)
From mathcomp Require Import all_ssreflect all_algebra.
Set Implicit Arguments. Unset Strict Implicit. Unset Printing Implicit Defensive.
Import GRing.Theory.
Local Open Scope ring_scope.

Notation pid := nat. (* identities of processes *)
Notation mid := nat. (* identities of measures *)

(* observations.py:338-400: the attribute [method] of pseudo-point approximations. *)
Inductive method := VFE | FITC | DTC.

Section Graph.
Variable R : fieldType.

(* A point: its features. *)
Definition point := seq R.

(* Inputs: an array of points ([B.Numeric]), an FDD (fdd.py:44-93; its noise plays no role
   when it is used as an input) or a tuple of inputs (mo/input.py). *)
Inductive input := Num of seq point | Fdd of pid & input | Tup of seq input.

(* [num_elements]: mlkernels for arrays, fdd.py:120-122 for FDDs, mo/infer.py:16-18 for
   tuples. *)
Fixpoint ne (x : input) : nat :=
  match x with
  | Num xs => size xs
  | Fdd _ x' => ne x'
  | Tup xs => sumn (map ne xs)
  end.

(* Matrices whose shape is known at run time only. *)
Record dmat := DMat { nr : nat; nc : nat; ent : nat -> nat -> R }.

Definition dzero m n : dmat := DMat m n (fun _ _ => 0).
Definition done_ m n : dmat := DMat m n (fun _ _ => 1).
Definition same_shape (a b : dmat) : bool := (nr a == nr b) && (nc a == nc b).
Definition dmap2 (f : R -> R -> R) (a b : dmat) : option dmat :=
  if same_shape a b then Some (DMat (nr a) (nc a) (fun i j => f (ent a i j) (ent b i j)))
  else None.
Definition dadd := dmap2 (fun a b => a + b).
Definition dsub := dmap2 (fun a b => a - b).
Definition dmul := dmap2 (fun a b => a * b).
Definition dscale (c : R) (a : dmat) : dmat := DMat (nr a) (nc a) (fun i j => c * ent a i j).
Definition dtr (a : dmat) : dmat := DMat (nc a) (nr a) (fun i j => ent a j i).
Definition douter (u v : seq R) : dmat :=
  DMat (size u) (size v) (fun i j => nth 0 u i * nth 0 v j).
(* Horizontal and vertical concatenation. *)
Definition dhcat (a b : dmat) : option dmat :=
  if nr a == nr b then
    Some (DMat (nr a) (nc a + nc b)%N
      (fun i j => if (j < nc a)%N then ent a i j else ent b i (j - nc a)%N))
  else None.
Definition dvcat (a b : dmat) : option dmat :=
  if nc a == nc b then
    Some (DMat (nr a + nr b)%N (nc a)
      (fun i j => if (i < nr a)%N then ent a i j else ent b (i - nr a)%N j))
  else None.

(* Fold a non-empty list with a partial operation; [B.block]/[B.concat] of nothing fail. *)
Fixpoint ofold1 (T : Type) (f : T -> T -> option T) (l : seq (option T)) : option T :=
  match l with
  | [::] => None
  | [:: a] => a
  | a :: l' => obind (fun a => obind (f a) (ofold1 f l')) a
  end.
(* [B.block], used in mo/input.py:9. *)
Definition dblock (rows : seq (seq (option dmat))) : option dmat :=
  ofold1 dvcat (map (ofold1 dhcat) rows).

Definition to_mx (a : dmat) : 'M[R]_(nr a, nc a) := \matrix_(i, j) ent a i j.
Definition mx_at (a : dmat) (m n : nat) : 'M[R]_(m, n) := \matrix_(i, j) ent a i j.
Definition of_mx (m n : nat) (A : 'M[R]_(m, n)) : dmat :=
  DMat m n (fun i j =>
    match insub i, insub j with Some i', Some j' => A i' j' | _, _ => 0 end).

(* [B.iqf(K, A, B)] = A^T K^-1 B; fails if [K] is singular or the shapes do not fit. *)
Definition iqf (K A B : dmat) : option dmat :=
  let n := nr K in
  if [&& nc K == n, nr A == n, nr B == n & mx_at K n n \in unitmx] then
    Some (of_mx ((mx_at A n (nc A))^T *m invmx (mx_at K n n) *m mx_at B n (nc B)))
  else None.

(* Pseudo-point approximations, observations.py:279-336, given by their meaning: the matrices
   that [_compute] obtains through Cholesky factors and with [Diagonal] matrices, without these
   (Pseudo.v has the computation itself; PseudoGraph.v shows that it gives the same).
   [Kz], [Kzx] and [Kx] are the kernel matrices of the inducing variables (with their noise), of
   the inducing variables and the data, and of the data, and [nx] is the diagonal of the noise.
   The diagonal of [Kx] is [elwise] in the source. *)
Definition pseudo_noise (me : method) (nx : seq R) (Kz Kzx Kx : dmat) (i : nat) : R :=
  let k := nr Kz in
  match me with
  | FITC => nth 0 nx i + (ent Kx i i - ent (of_mx ((mx_at Kzx k (nc Kzx))^T *m invmx (mx_at Kz k k) *m mx_at Kzx k (nc Kzx))) i i)
  | VFE | DTC => nth 0 nx i
  end.
Definition pseudo_fits (me : method) (nx : seq R) (Kz Kzx Kx : dmat) : bool :=
  [&& [&& nc Kz == nr Kz, nr Kzx == nr Kz, nc Kzx == size nx, nr Kx == size nx & nc Kx == size nx],
      mx_at Kz (nr Kz) (nr Kz) \in unitmx &
      all (fun i => pseudo_noise me nx Kz Kzx Kx i != 0) (iota 0 (size nx))].
(* The attribute [A]: Kz + Kzx Kn^-1 Kxz. *)
Definition pseudo_A (me : method) (nx : seq R) (Kz Kzx Kx : dmat) : option dmat :=
  if pseudo_fits me nx Kz Kzx Kx then
    let k := nr Kz in let n := size nx in
    let C : 'M[R]_(k, n) := mx_at Kzx k n in
    let C' : 'M[R]_(k, n) := \matrix_(i, j) (ent Kzx i j / pseudo_noise me nx Kz Kzx Kx j) in
    Some (of_mx (mx_at Kz k k + C' *m C^T))
  else None.
(* The attribute [mu] without the mean of the inducing variables: Kz A^-1 Kzx Kn^-1 d, where [d]
   is the difference between the values and the mean of the data. *)
Definition pseudo_mu (me : method) (nx : seq R) (Kz Kzx Kx : dmat) (d : seq R) : option (seq R) :=
  obind (fun A : dmat =>
    let k := nr Kz in let n := size nx in
    let C' : 'M[R]_(k, n) := \matrix_(i, j) (ent Kzx i j / pseudo_noise me nx Kz Kzx Kx j) in
    if (size d == n) && (mx_at A k k \in unitmx) then
      let v := mx_at Kz k k *m invmx (mx_at A k k) *m C' *m (\col_(i < n) nth 0 d i) in
      Some (mkseq (fun i => ent (of_mx v) i 0) k)
    else None) (pseudo_A me nx Kz Kzx Kx).

(* A column vector as a matrix. *)
Definition dcol (v : seq R) : dmat := DMat (size v) 1 (fun i _ => nth 0 v i).
Definition col_seq (a : dmat) : option (seq R) :=
  if nc a == 1%N then Some (mkseq (fun i => ent a i 0) (nr a)) else None.

Definition vmap2 (f : R -> R -> R) (u v : seq R) : option (seq R) :=
  if size u == size v then Some (mkseq (fun i => f (nth 0 u i) (nth 0 v i)) (size u))
  else None.

(* Kernel, mean and function expressions.  [KMok] and [MMom] refer to a measure and are
   evaluated by reading that measure when they are evaluated (mo/kernel.py:56,
   mo/mean.py:33). *)
Inductive kexp :=
| KElem of (point -> point -> R)              (* an elementary kernel of the user *)
| KZero | KOne                                (* ZeroKernel, OneKernel *)
| KAdd of kexp & kexp | KMul of kexp & kexp | KScale of R & kexp
| KTensor of fexp & fexp                      (* TensorProductKernel *)
| KRev of kexp                                (* reversed *)
| KMap of option (point -> point) & option (point -> point) & kexp
                                              (* shift, stretch, select, transform *)
| KDiff of option nat & option nat & kexp     (* diff *)
| KMok of mid & seq pid                       (* MultiOutputKernel, mo/kernel.py:14-32 *)
| KToFdd of pid & kexp                        (* k.transform(None, lambda y: FDD(j, y)) *)
| KAdk of kexp                                (* AmbiguousDimensionalityKernel, mo/adk.py *)
| KPost of kexp & kexp & kexp & kexp & input & dmat
                                              (* PosteriorKernel(k_ij, k_zi, k_zj, z, K_z) with
                                                 K_z = k_z(z) + noise, observations.py:139,148 *)
| KSub of kexp & kexp & kexp & kexp & kexp & input & dmat & input & seq R & method
                                              (* SubspaceKernel(k_zi, k_zj, z, A) with A from k_z,
                                                 k_zx, k_x, z, the noise of the inducing variables,
                                                 x and the noise of the data,
                                                 observations.py:265-270 *)
with mexp :=
| MElem of (point -> R)                       (* an elementary mean of the user *)
| MZero | MOne                                (* ZeroMean, OneMean *)
| MAdd of mexp & mexp | MMul of mexp & mexp | MScale of R & mexp
| MFun of fexp                                (* TensorProductMean *)
| MMap of (point -> point) & mexp
| MDiff of nat & mexp
| MMom of mid & seq pid                       (* MultiOutputMean, mo/mean.py *)
| MPost of mexp & mexp & kexp & kexp & input & dmat & seq R
                                              (* PosteriorMean(m_i, m_z, k_zi, z, K_z, y) *)
| MSub of mexp & mexp & mexp & kexp & kexp & kexp & kexp & input & dmat & input & seq R & seq R & method
                                              (* PosteriorMean(m_i, m_z, k_zi, z, K_z, mu) with mu from
                                                 m_z, m_x, k_z, k_zx, k_x, ..., observations.py:272-280 *)
with fexp :=
| FUser of (point -> R)
| FOnes                                       (* [ones], measure.py:243-244 *)
| FMean of mid & pid.                         (* lambda x: self.means[p](x), measure.py:258-259 *)

(* How kernels and means of measures are read during evaluation. *)
Variables (rdk : mid -> pid -> pid -> option kexp) (rdm : mid -> pid -> option mexp).
Variable D : nat -> (point -> R) -> point -> R.

Definition obind2 (A B C : Type) (f : A -> B -> option C) (a : option A) (b : option B) :=
  obind (fun a => obind (f a) b) a.

(* [A] and [mu] if the matrices and means can be evaluated. *)
Definition pseudo_var (me : method) (nx : seq R) (Kz Kzx Kx : option dmat) : option dmat :=
  obind (fun K => obind2 (pseudo_A me nx K) Kzx Kx) Kz.
Definition pseudo_mean (me : method) (nx y : seq R) (Kz Kzx Kx : option dmat) (mx mz : option (seq R)) : option (seq R) :=
  obind (fun K => obind (fun Kzx => obind (fun Kx => obind (fun mxv => obind (fun mzv =>
    obind (fun d => obind (vmap2 (fun a b => a + b) mzv) (pseudo_mu me nx K Kzx Kx d)) (vmap2 (fun a b => a - b) y mxv))
    mz) mx) Kx) Kzx) Kz.

(* Input transformation of one argument; [None] leaves the argument alone, whatever it is;
   anything else needs an array. *)
Definition imap (t : option (point -> point)) (x : input) : option input :=
  match t, x with
  | None, _ => Some x
  | Some f, Num xs => Some (Num (map f xs))
  | Some _, _ => None
  end.

Definition entry00 (a : option dmat) : R := if a is Some m then ent m 0 0 else 0.
Definition entry0 (a : option dmat) (j : nat) : R := if a is Some m then ent m 0 j else 0.
Definition head0 (a : option (seq R)) : R := if a is Some v then nth 0 v 0 else 0.
Definition is_shape (m n : nat) (a : option dmat) : bool :=
  if a is Some b then (nr b == m) && (nc b == n) else false.
Definition is_row (n : nat) (a : option dmat) : bool := is_shape 1 n a.

(* [pairwise] for kernels, evaluation of means and of functions.  The first argument
   bounds the depth of the recursion. *)
Fixpoint evk (n : nat) (k : kexp) (x y : input) {struct n} : option dmat :=
  if n is n'.+1 then
    match x, y with
    (* mo/input.py:7-19 *)
    | Tup xs, Tup ys => dblock [seq [seq evk n' k xi yj | yj <- ys] | xi <- xs]
    | Tup _, _ => evk n' k x (Tup [:: y])
    | _, Tup _ => evk n' k (Tup [:: x]) y
    | _, _ =>
      match k with
      | KElem f =>
        match x, y with
        | Num xs, Num ys =>
          Some (DMat (size xs) (size ys) (fun i j => f (nth [::] xs i) (nth [::] ys j)))
        | _, _ => None
        end
      | KZero => Some (dzero (ne x) (ne y))
      | KOne => Some (done_ (ne x) (ne y))
      | KAdd k1 k2 => obind2 dadd (evk n' k1 x y) (evk n' k2 x y)
      | KMul k1 k2 => obind2 dmul (evk n' k1 x y) (evk n' k2 x y)
      | KScale c k1 => omap (dscale c) (evk n' k1 x y)
      | KTensor f g => obind2 (fun u v => Some (douter u v)) (evf n' f x) (evf n' g y)
      | KRev k1 => omap dtr (evk n' k1 y x)
      | KMap t1 t2 k1 => obind2 (evk n' k1) (imap t1 x) (imap t2 y)
      | KDiff dx dy k1 =>
        match x, y with
        | Num ((_ :: _) as xs), Num ((_ :: _) as ys) =>
          match dx, dy with
          | Some d1, Some d2 =>
            if all (fun a => all (fun b => is_shape 1 1 (evk n' k1 (Num [:: a]) (Num [:: b]))) ys) xs
            then Some (DMat (size xs) (size ys) (fun i j =>
              D d1 (fun a => D d2 (fun b => entry00 (evk n' k1 (Num [:: a]) (Num [:: b])))
                               (nth [::] ys j)) (nth [::] xs i)))
            else None
          | Some d1, None =>
            if all (fun a => is_row (size ys) (evk n' k1 (Num [:: a]) y)) xs
            then Some (DMat (size xs) (size ys) (fun i j =>
              D d1 (fun a => entry0 (evk n' k1 (Num [:: a]) y) j) (nth [::] xs i)))
            else None
          | None, _ => None (* never constructed by stheno *)
          end
        | _, _ => None
        end
      | KMok m ps =>
        (* mo/kernel.py:39-56 *)
        match x, y with
        | Num _, Num _ =>
          evk n' k (Tup [seq Fdd p x | p <- ps]) (Tup [seq Fdd p y | p <- ps])
        | Fdd _ _, Num _ => evk n' k (Tup [:: x]) (Tup [seq Fdd p y | p <- ps])
        | Num _, Fdd _ _ => evk n' k (Tup [seq Fdd p x | p <- ps]) (Tup [:: y])
        | Fdd a x', Fdd b y' => obind (fun k' => evk n' k' x' y') (rdk m a b)
        | _, _ => None
        end
      | KToFdd j k1 => evk n' k1 x (Fdd j y)      (* measure.py:422 *)
      | KAdk k1 => evk n' k1 x y                   (* mo/adk.py:49-51 *)
      | KPost kij kzi kzj kz z noise =>
        obind2 dsub (evk n' kij x y)
          (obind (fun K => obind2 (iqf K) (evk n' kzi z x) (evk n' kzj z y))
             (obind (fun K => dadd K noise) (evk n' kz z z)))
      | KSub kzi kzj kz kzx kx z nz xd nx me =>
        obind (fun A => obind2 (iqf A) (evk n' kzi z x) (evk n' kzj z y))
          (pseudo_var me nx (obind (fun K => dadd K nz) (evk n' kz z z)) (evk n' kzx z xd) (evk n' kx xd xd))
      end
    end
  else None
with evm (n : nat) (mu : mexp) (x : input) {struct n} : option (seq R) :=
  if n is n'.+1 then
    match mu with
    | MElem f => if x is Num xs then Some (map f xs) else None
    | MZero => Some (nseq (ne x) 0)
    | MOne => Some (nseq (ne x) 1)
    | MAdd m1 m2 => obind2 (vmap2 (fun a b => a + b)) (evm n' m1 x) (evm n' m2 x)
    | MMul m1 m2 => obind2 (vmap2 (fun a b => a * b)) (evm n' m1 x) (evm n' m2 x)
    | MScale c m1 => omap (map (fun a => c * a)) (evm n' m1 x)
    | MFun f => evf n' f x
    | MMap t m1 => if x is Num xs then evm n' m1 (Num (map t xs)) else None
    | MDiff d m1 =>
      if x is Num xs then
        if all (fun a => if evm n' m1 (Num [:: a]) is Some v then size v == 1%N else false) xs
        then Some [seq D d (fun a => head0 (evm n' m1 (Num [:: a]))) a | a <- xs]
        else None
      else None
    | MMom m ps =>
      (* mo/mean.py:27-37 *)
      match x with
      | Num _ => evm n' mu (Tup [seq Fdd p x | p <- ps])
      | Fdd a x' => obind (fun m1 => evm n' m1 x') (rdm m a)
      | Tup xs => ofold1 (fun u v => Some (u ++ v)) [seq evm n' mu xi | xi <- xs]
      end
    | MPost mi mz kzi kz z noise y =>
      obind2 (vmap2 (fun a b => a + b)) (evm n' mi x)
        (obind col_seq
          (obind2 (fun K d => obind (fun A => iqf K A (dcol d)) (evk n' kzi z x))
            (obind (fun K => dadd K noise) (evk n' kz z z))
            (obind (fun mzv => vmap2 (fun a b => a - b) y mzv) (evm n' mz z))))
    | MSub mi mz mx kzi kz kzx kx z nz xd nx y me =>
      obind2 (vmap2 (fun a b => a + b)) (evm n' mi x)
        (obind col_seq
          (obind2 (fun K d => obind (fun A => iqf K A (dcol d)) (evk n' kzi z x))
            (obind (fun K => dadd K nz) (evk n' kz z z))
            (obind2 (fun mu mzv => vmap2 (fun a b => a - b) mu mzv)
              (pseudo_mean me nx y (obind (fun K => dadd K nz) (evk n' kz z z)) (evk n' kzx z xd) (evk n' kx xd xd)
                (evm n' mx xd) (evm n' mz z))
              (evm n' mz z))))
    end
  else None
with evf (n : nat) (f : fexp) (x : input) {struct n} : option (seq R) :=
  if n is n'.+1 then
    match f with
    | FUser g => if x is Num xs then Some (map g xs) else None
    | FOnes => Some (nseq (ne x) 1)
    | FMean m p => obind (fun m1 => evm n' m1 x) (rdm m p)
    end
  else None.

End Graph.

Arguments KZero {R}. Arguments KOne {R}. Arguments KMok {R}.
Arguments MZero {R}. Arguments MOne {R}. Arguments MMom {R}.
Arguments FOnes {R}. Arguments FMean {R}.
