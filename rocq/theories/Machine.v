(* The state machine behind stheno/model/measure.py and stheno/model/gp.py: processes,
   measures, their lazily filled means and kernels, and the operations of the API.

   Rules of the lazy containers are closures over a measure; here they are programs [prog]
   that read means and kernels of measures and finally return an expression.  The search
   for a rule is the one of Lazy.v ([mbuild], [vbuild]), instantiated at programs. *)
From mathcomp Require Import all_ssreflect all_algebra.
From Verif Require Lazy.
From Verif Require Import Graph.
Set Implicit Arguments. Unset Strict Implicit. Unset Printing Implicit Defensive.
Import GRing.Theory.
Local Open Scope ring_scope.

(* Programs that read [measure.kernels[i, j]] and [measure.means[i]]. *)
Section Prog.
Variable R : fieldType.
Inductive prog (A : Type) :=
| Ret of A
| Fail
| GetK of mid & pid & pid & (kexp R -> prog A)
| GetM of mid & pid & (mexp R -> prog A).

Fixpoint pbind A B (c : prog A) (f : A -> prog B) : prog B :=
  match c with
  | Ret a => f a
  | Fail => Fail B
  | GetK m i j g => GetK m i j (fun k => pbind (g k) f)
  | GetM m i g => GetM m i (fun k => pbind (g k) f)
  end.
End Prog.
Arguments Ret {R A}. Arguments Fail {R A}.
Notation "'let*' x := c 'in' d" := (pbind c (fun x => d))
  (at level 200, x name, c at level 100, d at level 200).

Section Machine.
Variable R : fieldType.
Notation kexp := (kexp R). Notation mexp := (mexp R). Notation fexp := (fexp R).
Notation point := (point R). Notation input := (input R). Notation prog := (prog R).

Definition rk m i j : prog kexp := GetK m i j Ret.
Definition rm m i : prog mexp := GetM m i Ret.

(* [Observations], observations.py:64-83 and 112-125: the FDD (process, input, noise) and
   the observed values, after missing values have been removed.

   [AbstractPseudoObservations], observations.py:171-203: the FDD is that of the inducing
   variables, there are no values, and [o_data] has the process, the input, the noise, the values
   and the method of the approximation.  The noise is the diagonal of a [Diagonal] matrix; with
   any other noise everything raises (C58). *)
Record pdata := PData { d_p : pid; d_x : input; d_noise : seq R; d_y : seq R; d_method : method }.
Record obs := MkObs { o_p : pid; o_x : input; o_noise : dmat R; o_y : seq R; o_data : option pdata }.

(* Calls of the methods of [Measure] that add one process. *)
Inductive pdef :=
| DInd of mexp & kexp                           (* add_independent_gp *)
| DUser of mexp & kexp & (pid -> option kexp)   (* add_gp; the left rule may raise *)
| DCopy of pid                                  (* __call__ *)
| DAddC of pid & R | DAddF of pid & (point -> R) (* sum with a number or a function *)
| DSum of pid & pid                             (* sum of two processes *)
| DScale of pid & R                             (* mul by a number *)
| DFun of pid & fexp                            (* mul by a function *)
| DMap of pid & (point -> point) & option (point -> point)
                                                (* shift, stretch, select, transform *)
| DDiff of pid & nat                            (* diff *)
| DCross of seq pid.                            (* cross *)

(* Shifting and stretching of a point, one amount per feature (a scalar amount is a
   constant function); selection of features. *)
Definition feat (f : nat -> R -> R) (x : point) : point :=
  [seq f p.1 p.2 | p <- zip (iota 0 (size x)) x].
Definition shiftX (c : nat -> R) : point -> point := feat (fun i a => a - c i).
Definition stretchX (s : nat -> R) : point -> point := feat (fun i a => a / s i).
Definition selectX (dims : seq nat) (x : point) : point := [seq nth 0 x d | d <- dims].

(* measure.py:271-341. *)
Definition DShift p (c : nat -> R) := DMap p (shiftX c) (Some (shiftX (fun=> 0))).
Definition DStretch p (s : nat -> R) := DMap p (stretchX s) (Some (stretchX (fun=> 1))).
Definition DSelect p dims := DMap p (selectX dims) None.
Definition DTransform p f := DMap p f None.

(* The argument [mean] of [_update]/[add_independent_gp] in each method. *)
Definition mean_of (m : mid) (d : pdef) : prog mexp :=
  match d with
  | DInd mu _ => Ret mu                                        (* measure.py:168 *)
  | DUser mu _ _ => Ret mu                                     (* measure.py:136 *)
  | DCopy p => rm m p                                          (* measure.py:145 *)
  | DAddC p c => let* a := rm m p in Ret (MAdd a (MScale c MOne))  (* measure.py:198 *)
  | DAddF p f => let* a := rm m p in Ret (MAdd a (MFun (FUser f)))
  | DSum p q => let* a := rm m p in let* b := rm m q in Ret (MAdd a b) (* measure.py:208 *)
  | DScale p c => let* a := rm m p in Ret (MScale c a)         (* measure.py:236 *)
  | DFun p f => let* a := rm m p in Ret (MMul (MFun f) a)      (* measure.py:248 *)
  | DMap p t _ => let* a := rm m p in Ret (MMap t a)           (* measure.py:284,302,320,338 *)
  | DDiff p d => let* a := rm m p in Ret (MDiff d a)           (* measure.py:357 *)
  | DCross ps => Ret (MMom m ps)                               (* measure.py:418 *)
  end.

(* The argument [kernel]. *)
Definition own_of (m : mid) (d : pdef) : prog kexp :=
  match d with
  | DInd _ k => Ret k                                          (* measure.py:171 *)
  | DUser _ k _ => Ret k                                       (* measure.py:136 *)
  | DCopy p => rk m p p                                        (* measure.py:146 *)
  | DAddC p _ | DAddF p _ => rk m p p                          (* measure.py:199 *)
  | DSum p q =>                                                (* measure.py:209-214 *)
    let* a := rk m p p in let* b := rk m q q in
    let* c := rk m p q in let* d := rk m q p in
    Ret (KAdd (KAdd (KAdd a b) c) d)
  | DScale p c => let* a := rk m p p in Ret (KScale (c ^+ 2) a)  (* measure.py:237 *)
  | DFun p f => let* a := rk m p p in Ret (KMul (KTensor f f) a) (* measure.py:249 *)
  | DMap p t _ => let* a := rk m p p in Ret (KMap (Some t) (Some t) a)
                                                      (* measure.py:285,303,321,339 *)
  | DDiff p d => let* a := rk m p p in Ret (KDiff (Some d) (Some d) a) (* measure.py:358 *)
  | DCross ps => Ret (KMok m ps)                               (* measure.py:419 *)
  end.

(* The argument [left_rule]. *)
Definition left_of (m : mid) (d : pdef) (j : pid) : prog kexp :=
  match d with
  | DInd _ _ => Ret KZero                                      (* measure.py:172 *)
  | DUser _ _ l => if l j is Some k then Ret k else Fail       (* measure.py:136 *)
  | DCopy p => rk m p j                                        (* measure.py:148 *)
  | DAddC p _ | DAddF p _ => rk m p j                          (* measure.py:200 *)
  | DSum p q => let* a := rk m p j in let* b := rk m q j in Ret (KAdd a b)
                                                               (* measure.py:215 *)
  | DScale p c => let* a := rk m p j in Ret (KScale c a)       (* measure.py:238 *)
  | DFun p f => let* a := rk m p j in Ret (KMul (KTensor f FOnes) a) (* measure.py:250 *)
  | DMap p t t0 => let* a := rk m p j in Ret (KMap (Some t) t0 a)
                                                      (* measure.py:286,304,322,340 *)
  | DDiff p d => let* a := rk m p j in Ret (KDiff (Some d) None a) (* measure.py:359 *)
  | DCross ps => Ret (KAdk (KToFdd j (KMok m ps)))             (* measure.py:422 *)
  end.

(* The right rule of the new process [p]: measure.py:173 for independent processes,
   measure.py:149 for copies, otherwise the default of [_update], measure.py:109-111.
   [add_gp] passes [right_rule=None] whatever the caller gave (measure.py:136). *)
Definition right_of (m : mid) (p : pid) (d : pdef) (i : pid) : prog kexp :=
  match d with
  | DInd _ _ => Ret KZero
  | DCopy q => rk m i q
  | _ => let* a := rk m p i in Ret (KRev a)
  end.

(* [Observations.posterior_kernel] and [K_x], observations.py:127-154 with parent measure
   [m]. The matrix [K_x] is kept as the kernel of the data and its noise. *)
Definition post_k1 (m : mid) (o : obs) (i j : pid) : prog kexp :=
  if ne (o_x o) == 0%N then rk m i j
  else
    let* kij := rk m i j in let* kzi := rk m (o_p o) i in let* kzj := rk m (o_p o) j in
    let* kz := rk m (o_p o) (o_p o) in
    Ret (KPost kij kzi kzj kz (o_x o) (o_noise o)).

(* [Observations.posterior_mean], observations.py:156-168. *)
Definition post_m1 (m : mid) (o : obs) (i : pid) : prog mexp :=
  if ne (o_x o) == 0%N then rm m i
  else
    let* mi := rm m i in let* mz := rm m (o_p o) in let* kzi := rk m (o_p o) i in
    let* kz := rk m (o_p o) (o_p o) in
    Ret (MPost mi mz kzi kz (o_x o) (o_noise o) (o_y o)).

(* [AbstractPseudoObservations.posterior_kernel] and [posterior_mean], observations.py:258-280;
   [K_z], [A] and [mu] are kept as the kernels and means that [_compute] reads. *)
Definition post_k2 (m : mid) (o : obs) (d : pdata) (i j : pid) : prog kexp :=
  let* kij := rk m i j in let* kzi := rk m (o_p o) i in let* kzj := rk m (o_p o) j in
  let* kzx := rk m (o_p o) (d_p d) in let* kz := rk m (o_p o) (o_p o) in let* kx := rk m (d_p d) (d_p d) in
  Ret (KAdd (KPost kij kzi kzj kz (o_x o) (o_noise o))
    (KSub kzi kzj kz kzx kx (o_x o) (o_noise o) (d_x d) (d_noise d) (d_method d))).
Definition post_m2 (m : mid) (o : obs) (d : pdata) (i : pid) : prog mexp :=
  let* mi := rm m i in let* mz := rm m (o_p o) in let* kzi := rk m (o_p o) i in
  let* kzx := rk m (o_p o) (d_p d) in let* kz := rk m (o_p o) (o_p o) in let* kx := rk m (d_p d) (d_p d) in
  let* mx := rm m (d_p d) in
  Ret (MSub mi mz mx kzi kz kzx kx (o_x o) (o_noise o) (d_x d) (d_noise d) (d_y d) (d_method d)).

Definition post_k (m : mid) (o : obs) (i j : pid) : prog kexp :=
  if o_data o is Some d then post_k2 m o d i j else post_k1 m o i j.
Definition post_m (m : mid) (o : obs) (i : pid) : prog mexp :=
  if o_data o is Some d then post_m2 m o d i else post_m1 m o i.
(* The processes of observations. *)
Definition o_pids (o : obs) : seq pid := o_p o :: (if o_data o is Some d then [:: d_p d] else [::]).

(* [Measure], measure.py:37-47: processes, means and kernels.  The lazy containers are
   split into values and rules; names are modelled in Naming.v. *)
Record mstate := MState {
  s_ps : seq pid;
  s_mval : pid -> option mexp;
  s_mrules : Lazy.lvec nat_eqType (prog mexp);
  s_kval : pid -> pid -> option kexp;
  s_krules : Lazy.lmat nat_eqType (prog kexp) }.

Definition ms_new : mstate :=
  MState [::] (fun _ => None) (Lazy.lvec_new _ _) (fun _ _ => None) (Lazy.lmat_new _ _).

Definition heap := mid -> mstate.
Definition hset (h : heap) (m : mid) (s : mstate) : heap := fun m' => if m' == m then s else h m'.

Definition upd1 T (f : nat -> option T) (i : nat) (v : T) : nat -> option T :=
  fun i' => if i' == i then Some v else f i'.
Definition upd2 T (f : nat -> nat -> option T) (i j : nat) (v : T) :=
  fun i' j' => if (i' == i) && (j' == j) then Some v else f i' j'.

Definition set_k (s : mstate) i j k :=
  MState (s_ps s) (s_mval s) (s_mrules s) (upd2 (s_kval s) i j k) (s_krules s).
Definition set_m (s : mstate) i mu :=
  MState (s_ps s) (upd1 (s_mval s) i mu) (s_mrules s) (s_kval s) (s_krules s).

(* Outcomes: a value, an exception, or the recursion bound of the model was hit. *)
Inductive out (A : Type) := ROk of A | RErr | ROof.

(* Running a program, given how kernels and means are read. *)
Section Run.
Variable getk : heap -> mid -> pid -> pid -> heap * out kexp.
Variable getm : heap -> mid -> pid -> heap * out mexp.
Fixpoint run A (c : prog A) (h : heap) : heap * out A :=
  match c with
  | Ret a => (h, ROk a)
  | Fail => (h, RErr A)
  | GetK m i j f =>
    let: (h1, r) := getk h m i j in
    match r with ROk k => run (f k) h1 | RErr => (h1, RErr A) | ROof => (h1, ROof A) end
  | GetM m i f =>
    let: (h1, r) := getm h m i in
    match r with ROk k => run (f k) h1 | RErr => (h1, RErr A) | ROof => (h1, ROof A) end
  end.
End Run.

(* [LazyTensor._get], lazy.py:56-65, for the kernels and the means of a measure.  Values
   are stored as soon as they have been built. *)
Fixpoint getk (n : nat) (h : heap) (m : mid) (i j : pid) {struct n} : heap * out kexp :=
  if n is n'.+1 then
    match s_kval (h m) i j with
    | Some k => (h, ROk k)
    | None =>
      match Lazy.mbuild (s_krules (h m)) [:: i; j] with
      | Lazy.Ok c =>
        let: (h1, r) := run (getk n') (getm n') c h in
        match r with
        | ROk k => (hset h1 m (set_k (h1 m) i j k), ROk k)
        | RErr => (h1, RErr kexp)
        | ROof => (h1, ROof kexp)
        end
      | Lazy.Err _ => (h, RErr kexp)
      end
    end
  else (h, ROof kexp)
with getm (n : nat) (h : heap) (m : mid) (i : pid) {struct n} : heap * out mexp :=
  if n is n'.+1 then
    match s_mval (h m) i with
    | Some k => (h, ROk k)
    | None =>
      match Lazy.vbuild (s_mrules (h m)) [:: i] with
      | Lazy.Ok c =>
        let: (h1, r) := run (getk n') (getm n') c h in
        match r with
        | ROk k => (hset h1 m (set_m (h1 m) i k), ROk k)
        | RErr => (h1, RErr mexp)
        | ROof => (h1, ROof mexp)
        end
      | Lazy.Err _ => (h, RErr mexp)
      end
    end
  else (h, ROof mexp).

(* What has been done to a measure, most recent first: it was created empty, it was
   obtained by conditioning measure [m] (with that history, at that time), or a process
   was added by a method call.  This is a log for specifications: the model keeps it up to
   date but never reads it. *)
Inductive hist := HRoot | HPost of mid & hist & obs | HAdd of pid & pdef & hist.

(* The world: all measures, all processes, the list [_measures] of every process, and the
   log. *)
Record world := World {
  w_heap : heap; w_nm : nat; w_np : nat; w_gm : pid -> seq mid; w_log : mid -> hist }.

Definition world0 : world := World (fun _ => ms_new) 0 0 (fun _ => [::]) (fun _ => HRoot).

(* A recursion bound that always suffices (Refine.v: [reads_total]). *)
Definition fuel (w : world) : nat := (2 * w_np w + 2 * w_nm w + 4)%N.

(* Actions on the world that may fail; the effects up to a failure remain. *)
Definition act (A : Type) := world -> world * out A.
Definition aret A (a : A) : act A := fun w => (w, ROk a).
Definition afail A : act A := fun w => (w, RErr A).
Definition abind A B (c : act A) (f : A -> act B) : act B := fun w =>
  let: (w1, r) := c w in
  match r with ROk a => f a w1 | RErr => (w1, RErr B) | ROof => (w1, ROof B) end.

(* Run a program that reads measures. *)
Definition reads A (c : prog A) : act A := fun w =>
  let: (h, r) := run (getk (fuel w)) (getm (fuel w)) c (w_heap w) in
  (World h (w_nm w) (w_np w) (w_gm w) (w_log w), r).

Definition log_set (l : mid -> hist) (m : mid) (x : hist) : mid -> hist :=
  fun m' => if m' == m then x else l m'.

(* [GP()], gp.py:101-103. *)
Definition new_gp : act pid := fun w =>
  (World (w_heap w) (w_nm w) (w_np w).+1 (w_gm w) (w_log w), ROk (w_np w)).

(* [Measure()], measure.py:37-47. *)
Definition new_measure : act mid := fun w =>
  (World (hset (w_heap w) (w_nm w) ms_new) (w_nm w).+1 (w_np w) (w_gm w)
     (log_set (w_log w) (w_nm w) HRoot), ROk (w_nm w)).

(* [Measure._add_p], measure.py:93-98, after the rules have been added as in [_update],
   measure.py:100-117, and [add_independent_gp], measure.py:167-178.  Both sets of
   indices given to the rules are [self._pids], which does not yet contain [p]. *)
Definition install (s : mstate) (m : mid) (p : pid) (d : pdef) (mu : mexp) (k : kexp) : mstate :=
  let dom := fun i : nat => i \in s_ps s in
  MState (rcons (s_ps s) p)
    (upd1 (s_mval s) p mu) (s_mrules s)
    (upd2 (s_kval s) p p k)
    (Lazy.madd_right (Lazy.madd_left (s_krules s) p dom (fun j => Some (left_of m d j)))
      p dom (fun i => Some (right_of m p d i))).

Definition gm_add (g : pid -> seq mid) (p : pid) (m : mid) : pid -> seq mid :=
  fun p' => if p' == p then rcons (g p') m else g p'.

(* A method of [Measure] that adds the process [p]: compute mean and kernel, then
   [_update]. *)
Definition define (m : mid) (p : pid) (d : pdef) : act unit :=
  abind (reads (mean_of m d)) (fun mu =>
  abind (reads (own_of m d)) (fun k w =>
    (World (hset (w_heap w) m (install (w_heap w m) m p d mu k)) (w_nm w) (w_np w)
       (gm_add (w_gm w) p m) (log_set (w_log w) m (HAdd p d (w_log w m))), ROk tt))).

(* [for measure in ms: ...] *)
Fixpoint aiter A (f : A -> act unit) (ms : seq A) : act unit :=
  match ms with
  | [::] => aret tt
  | m :: ms' => abind (f m) (fun _ => aiter f ms')
  end.

(* [Measure.mul] of two processes, measure.py:253-269. *)
Definition define_mul (m : mid) (res p q : pid) : act unit :=
  abind new_gp (fun t1 =>
  abind (define m t1 (DFun q (FMean m p))) (fun _ =>
  abind new_gp (fun t2 =>
  abind (define m t2 (DFun p (FMean m q))) (fun _ =>
  abind new_gp (fun s =>
  abind (define m s (DSum t1 t2)) (fun _ =>
  abind (reads (let* a := rm m p in let* b := rm m q in
                Ret (MMul (MScale (-1) a) b))) (fun mu =>
  abind (reads (let* a := rk m p p in let* b := rk m q q in
                let* c := rk m p q in let* d := rk m q p in
                Ret (KAdd (KMul a b) (KMul c d)))) (fun k =>
  abind new_gp (fun t =>
  abind (define m t (DInd mu k)) (fun _ =>
  define m res (DSum s t))))))))))).

(* [GP.measure], gp.py:105-111. *)
Definition home (w : world) (p : pid) : option mid := ohead (w_gm w p).

(* [assert_same_measure], gp.py:16-27; unattached processes raise as well. *)
Definition same_home (w : world) (ps : seq pid) : bool :=
  match ps with
  | [::] => false (* ps[0] *)
  | p :: ps' => [&& home w p & all (fun q => home w q == home w p) ps']
  end.
Definition same_home1 (w : world) (ps : seq pid) : bool :=
  if ps is [:: p] then true else same_home w ps.

(* [intersection_measure_group], gp.py:30-40.  Iterating over a set of objects follows no
   particular order: the order is an arbitrary permutation [ord] chosen by the environment
   (if [ord] is no permutation of the group, the model uses another order). *)
Definition group (w : world) (ps : seq pid) : seq mid :=
  if ps is p :: ps' then [seq m <- undup (w_gm w p) | all (fun q => m \in w_gm w q) ps'] else [::].
Definition order (ord g : seq mid) : seq mid := if perm_eq ord g then ord else g.

(* Operations of the API. *)
Inductive op :=
| OMeasure                                          (* Measure() *)
| OGP of mid & mexp & kexp                          (* GP(mean, kernel, measure=m) *)
| OUser of mid & mexp & kexp & (pid -> option kexp) & option (pid -> option kexp)
                                                    (* m.add_gp(mean, kernel, left, right) *)
| OCopy of mid & pid                                (* m(p) *)
| OAddC of pid & R | OAddF of pid & (point -> R)    (* p + c, p + f *)
| OScale of pid & R | OMulF of pid & (point -> R)   (* p * c, p * f *)
| OShift of pid & (nat -> R) | OStretch of pid & (nat -> R)
| OSelect of pid & seq nat | OTransform of pid & (point -> point)
| ODiff of pid & nat
| OSum of pid & pid & seq mid                       (* p + q *)
| OMul of pid & pid & seq mid                       (* p * q *)
| OCross of seq pid & seq mid                       (* cross(ps...) *)
| OCond of mid & obs                                (* m | obs *)
| OReadK of mid & pid & pid                         (* m.kernels[p, q] *)
| OReadM of mid & pid.                              (* m.means[p] *)

(* Result of an operation. *)
Inductive result := RUnit | RPid of pid | RMid of mid | RK of kexp | RM of mexp.

(* A new process that is defined in every measure of [p], gp.py:162-223. *)
Definition unary (p : pid) (d : pdef) : act result :=
  abind new_gp (fun res w =>
    abind (aiter (fun m => define m res d) (w_gm w p)) (fun _ => aret (RPid res)) w).

(* A new process that is defined in every common measure of [ps], gp.py:43-55, 169-188. *)
Definition nary (ps : seq pid) (ord : seq mid) (f : mid -> pid -> act unit) : act result :=
  abind new_gp (fun res w =>
    if same_home1 w ps then
      abind (aiter (fun m => f m res) (order ord (group w ps))) (fun _ => aret (RPid res)) w
    else (w, RErr result)).

(* [Measure.condition], measure.py:362-388. *)
Definition condition (m : mid) (o : obs) : act result :=
  abind new_measure (fun m' w =>
    let ps := s_ps (w_heap w m) in
    let dom := fun i : nat => i \in ps in
    let s := MState ps (fun _ => None) (Lazy.vadd (Lazy.lvec_new _ _) dom (fun i => Some (post_m m o i)))
                    (fun _ _ => None) (Lazy.madd (Lazy.lmat_new _ _) dom (fun i j => Some (post_k m o i j))) in
    (World (hset (w_heap w) m' s) (w_nm w) (w_np w)
       (fun p => if p \in ps then rcons (w_gm w p) m' else w_gm w p)
       (log_set (w_log w) m' (HPost m (w_log w m) o)), ROk (RMid m'))).

(* Operations may only mention processes and measures that exist. *)
Definition op_pids (o : op) : seq pid :=
  match o with
  | OMeasure | OGP _ _ _ | OUser _ _ _ _ _ => [::]
  | OCopy _ p | OAddC p _ | OAddF p _ | OScale p _ | OMulF p _ | OShift p _ | OStretch p _
  | OSelect p _ | OTransform p _ | ODiff p _ => [:: p]
  | OSum p q _ | OMul p q _ => [:: p; q]
  | OCross ps _ => ps
  | OCond _ o => o_pids o
  | OReadK _ p q => [:: p; q]
  | OReadM _ p => [:: p]
  end.
Definition op_mids (o : op) : seq mid :=
  match o with
  | OGP m _ _ | OUser m _ _ _ _ | OCopy m _ | OCond m _ | OReadK m _ _ | OReadM m _ => [:: m]
  | _ => [::]
  end.
Definition op_exists (w : world) (o : op) : bool :=
  all (fun p => p < w_np w)%N (op_pids o) && all (fun m => m < w_nm w)%N (op_mids o).

Definition exec (o : op) : act result :=
  match o with
  | OMeasure => abind new_measure (fun m => aret (RMid m))
  | OGP m mu k => abind new_gp (fun p => abind (define m p (DInd mu k)) (fun _ => aret (RPid p)))
  | OUser m mu k l _ =>
    abind new_gp (fun p => abind (define m p (DUser mu k l)) (fun _ => aret (RPid p)))
  | OCopy m p =>
    abind new_gp (fun q => abind (define m q (DCopy p)) (fun _ => aret (RPid q)))
  | OAddC p c => unary p (DAddC p c)
  | OAddF p f => unary p (DAddF p f)
  | OScale p c => unary p (DScale p c)
  | OMulF p f => unary p (DFun p (FUser f))
  | OShift p c => unary p (DShift p c)
  | OStretch p s => unary p (DStretch p s)
  | OSelect p dims => unary p (DSelect p dims)
  | OTransform p f => unary p (DTransform p f)
  | ODiff p d => unary p (DDiff p d)
  | OSum p q ord => nary [:: p; q] ord (fun m res => define m res (DSum p q))
  | OMul p q ord => nary [:: p; q] ord (fun m res => define_mul m res p q)
  | OCross ps ord => nary ps ord (fun m res => define m res (DCross ps))
  | OCond m o => condition m o
  | OReadK m p q => abind (reads (rk m p q)) (fun k => aret (RK k))
  | OReadM m p => abind (reads (rm m p)) (fun k => aret (RM k))
  end.

(* One operation; operations on things that do not exist have no effect. *)
Definition step (w : world) (o : op) : world * out result :=
  if op_exists w o then exec o w else (w, RErr result).

Definition run_ops (ops : seq op) : world := foldl (fun w o => (step w o).1) world0 ops.

(* Kernels and means as seen by an evaluation in the world [w]; there is no way to name a
   measure that does not exist. *)
Definition see_k (w : world) (m : mid) (i j : pid) : option kexp :=
  if (m < w_nm w)%N then
    match (getk (fuel w) (w_heap w) m i j).2 with ROk k => Some k | _ => None end
  else None.
Definition see_m (w : world) (m : mid) (i : pid) : option mexp :=
  if (m < w_nm w)%N then
    match (getm (fuel w) (w_heap w) m i).2 with ROk k => Some k | _ => None end
  else None.

End Machine.

Arguments DCopy {R}. Arguments DSum {R}. Arguments DDiff {R}. Arguments DCross {R}.
Arguments OMeasure {R}. Arguments OCopy {R}. Arguments OSum {R}. Arguments OMul {R}.
Arguments OCross {R}. Arguments OReadK {R}. Arguments OReadM {R}. Arguments ODiff {R}.
Arguments world0 {R}. Arguments HRoot {R}. Arguments ms_new {R}.

(* Exact observations. *)
Notation Obs p x N y := (MkObs p x N y None).
