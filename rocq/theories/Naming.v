(* Model of process naming: stheno/model/measure.py:43-45,62-91 and
   stheno/model/gp.py:93-95,123-132.

   Objects are numbered by an allocator.  Names are elements of an arbitrary type with
   decidable equality; [truthy] is Python's truth value of a string (false exactly for
   the empty string), which gp.py:94 tests.  The part of the state that has nothing to do
   with names (means, kernels) is not part of this model; see Machine.v. *)
From mathcomp Require Import all_ssreflect.
Set Implicit Arguments. Unset Strict Implicit. Unset Printing Implicit Defensive.

Section Naming.
Variables (N : eqType) (truthy : pred N).
Notation mid := nat. (* measures *)
Notation pid := nat. (* processes *)

(* Outcome of a naming call: normal return, [RuntimeError] (measure.py:85) or a
   [KeyError] from [del] (measure.py:80-81). *)
Inductive nres := NOk | NTaken | NKeyError.

(* The two dictionaries of one measure, measure.py:44-45. *)
Record names := Names { by_name : N -> option pid; by_gp : pid -> option N }.
Definition names_new : names := Names (fun _ => None) (fun _ => None).

(* Dictionary update and deletion. *)
Definition dset (K : eqType) (V : Type) (d : K -> option V) k v : K -> option V :=
  fun k' => if k' == k then Some v else d k'.
Definition ddel (K : eqType) (V : Type) (d : K -> option V) k : K -> option V :=
  fun k' => if k' == k then None else d k'.

(* measure.py:83-91: check that the name is free and set it. *)
Definition name_set (d : names) (p : pid) (n : N) : names * nres :=
  if by_name d n is Some _ then (d, NTaken)
  else (Names (dset (by_name d) n p) (dset (by_gp d) p n), NOk).

(* [Measure.name], measure.py:70-91. *)
Definition name_gp (d : names) (p : pid) (n : N) : names * nres :=
  match by_gp d p with
  | Some old =>
    if by_name d old is Some _ then
      name_set (Names (ddel (by_name d) old) (ddel (by_gp d) p)) p n
    else (d, NKeyError)
  | None => name_set d p n
  end.

(* The world: dictionaries of every measure, [GP._measures] of every process and
   [Measure.ps] of every measure, and the allocators. *)
Record world := World {
  w_names : mid -> names;
  w_meas : pid -> seq mid;
  w_ps : mid -> seq pid;
  w_nm : nat;
  w_np : nat }.

Definition world0 : world := World (fun _ => names_new) (fun _ => [::]) (fun _ => [::]) 0 0.

Definition fupd (V : Type) (f : nat -> V) (k : nat) (v : V) : nat -> V :=
  fun k' => if k' == k then v else f k'.

Definition w_name (w : world) (m : mid) (p : pid) (n : N) : world * nres :=
  let: (d, r) := name_gp (w_names w m) p n in
  (World (fupd (w_names w) m d) (w_meas w) (w_ps w) (w_nm w) (w_np w), r).

(* The [name] setter of a GP, gp.py:128-132: one call per measure, in the order of
   [_measures]; an exception ends the loop. *)
Fixpoint w_name_all (w : world) (ms : seq mid) (p : pid) (n : N) : world * nres :=
  match ms with
  | [::] => (w, NOk)
  | m :: ms' =>
    match w_name w m p n with
    | (w', NOk) => w_name_all w' ms' p n
    | wr => wr
    end
  end.

(* [Measure._add_p], measure.py:93-98. *)
Definition w_attach (w : world) (m : mid) (p : pid) : world :=
  World (w_names w) (fupd (w_meas w) p (rcons (w_meas w p) m))
        (fupd (w_ps w) m (rcons (w_ps w m) p)) (w_nm w) (w_np w).

Inductive nop :=
| NMeasure                          (* Measure(), measure.py:37-47 *)
| NGP of mid & option N             (* GP(mean, kernel, measure=m, name=n), gp.py:70-95 *)
| NCond of mid                      (* m.condition(obs), measure.py:362-385 *)
| NName of mid & pid & N            (* m.name(p, n) *)
| NSet of pid & N.                  (* p.name = n *)

(* The names of a freshly allocated measure are empty (measure.py:44-45); a freshly
   allocated process has no measures (gp.py:72). *)
Definition nstep (w : world) (o : nop) : world * nres :=
  match o with
  | NMeasure =>
    (World (fupd (w_names w) (w_nm w) names_new) (w_meas w) (fupd (w_ps w) (w_nm w) [::])
       (w_nm w).+1 (w_np w), NOk)
  | NGP m no =>
    let p := w_np w in
    let w1 := World (w_names w) (fupd (w_meas w) p [::]) (w_ps w) (w_nm w) (w_np w).+1 in
    let w2 := w_attach w1 m p in
    match no with
    | Some n => if truthy n then w_name w2 m p n else (w2, NOk)
    | None => (w2, NOk)
    end
  | NCond m =>
    let m' := w_nm w in
    (World (fupd (w_names w) m' names_new)
       (fun p => w_meas w p ++ nseq (count_mem p (w_ps w m)) m')
       (fupd (w_ps w) m' (w_ps w m)) (w_nm w).+1 (w_np w), NOk)
  | NName m p n => w_name w m p n
  | NSet p n => w_name_all w (w_meas w p) p n
  end.

Definition nrun (w : world) (h : seq nop) : world := foldl (fun w o => (nstep w o).1) w h.

(* [m[name]] and [m[p]], measure.py:62-68; [None] is a [KeyError]. *)
Definition lookup_name (w : world) (m : mid) (n : N) : option pid := by_name (w_names w m) n.
Definition lookup_gp (w : world) (m : mid) (p : pid) : option N := by_gp (w_names w m) p.
(* [p.name], gp.py:123-126, through [p.measure], gp.py:105-111. *)
Definition gp_name (w : world) (p : pid) : option N :=
  if w_meas w p is m :: _ then lookup_gp w m p else None.

End Naming.
