(* [combine], stheno/model/observations.py:28-47.

   [combine] first constructs the Cartesian product [c] of the processes of the FDDs (the
   operation [OCross] of Machine.v) and then calls it on the tuple of the FDDs with the
   block-diagonal noise. *)
From mathcomp Require Import all_ssreflect all_algebra.
From Verif Require Import Graph Machine.
Set Implicit Arguments. Unset Strict Implicit. Unset Printing Implicit Defensive.
Import GRing.Theory.
Local Open Scope ring_scope.

Section Combine.
Variable R : fieldType.

(* An FDD: process, input and noise (fdd.py:59-93). *)
Record fdd := MkFdd { f_p : pid; f_x : input R; f_noise : dmat R }.

(* [B.block_diag] *)
Definition dbdiag (a b : dmat R) : dmat R :=
  DMat (nr a + nr b)%N (nc a + nc b)%N (fun i j =>
    if (i < nr a)%N then if (j < nc a)%N then ent a i j else 0
    else if (j < nc a)%N then 0 else ent b (i - nr a)%N (j - nc a)%N).
Definition bdiag (l : seq (dmat R)) : dmat R := foldr dbdiag (dzero R 0 0) l.

(* observations.py:38-39; [c] is the result of [cross]. *)
Definition combine_fdd (c : pid) (fs : seq fdd) : fdd :=
  MkFdd c (Tup [seq Fdd (f_p f) (f_x f) | f <- fs]) (bdiag (map f_noise fs)).
(* observations.py:43-47 and the construction of the observations, 64-83, without missing
   values. *)
Definition combine_obs (c : pid) (fs : seq fdd) (ys : seq (seq R)) : obs R :=
  Obs c (f_x (combine_fdd c fs)) (f_noise (combine_fdd c fs)) (flatten ys).
End Combine.
