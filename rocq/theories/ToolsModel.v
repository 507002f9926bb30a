(** pmesh/tools.py: Rotator. *)
From Coq Require Import List Arith Lia Bool.
From Verif Require Import Base SchedModel.
Import ListNotations.

(** what a process does: a barrier, or the [item]-th operation of the body of its [block]-th with statement *)
Inductive rop := Bar | Work (block item : nat).
(** tools.py:12-15 *)
Definition rot_enter (rank : nat) : list rop := Bar :: repeat Bar rank.
(** tools.py:16-19; also run when the body raises *)
Definition rot_exit (rank size : nat) : list rop := repeat Bar (size - rank) ++ [Bar].
Definition rot_block (size rank j w : nat) : list rop := rot_enter rank ++ map (Work j) (seq 0 w) ++ rot_exit rank size.
(** a program of [K] with statements; the body of the j-th has [w j rank] operations *)
Definition rot_prog (size : nat) (w : nat -> nat -> nat) (K rank : nat) : list rop :=
  flat_map (fun j => rot_block size rank j (w j rank)) (seq 0 K).

(** MPI.Comm.Barrier: the k-th barrier of a process returns when every process has entered its k-th barrier *)
Definition isBar (o : rop) : bool := match o with Bar => true | Work _ _ => false end.
Definition bars (l : list rop) : nat := length (filter isBar l).
Definition barrier_ready (size : nat) (prog : nat -> list rop) (st : nat -> nat) (r i : nat) : bool :=
  match nth_error (prog r) i with
  | Some Bar => forallb (fun q => bars (firstn (S i) (prog r)) <=? bars (firstn (st q) (prog q))) (seq 0 size)
  | _ => true
  end.

(** runs of the program *)
Definition rot_run (size : nat) (w : nat -> nat -> nat) (K : nat) : list event -> state -> Prop :=
  run size (fun r => length (rot_prog size w K r)) (barrier_ready size (rot_prog size w K)).
Definition rot_final (size : nat) (w : nat -> nat -> nat) (K : nat) : state -> Prop :=
  final size (fun r => length (rot_prog size w K r)).
