(** Shared vocabulary: outcomes of collective calls, list helpers. *)
From Coq Require Import List Arith Lia Bool.
Import ListNotations.

(** Python exceptions that occur in the modelled code. [MPIError] stands for an
    abort by the MPI library (mismatched counts, buffers too small). *)
Inductive exn :=
  ValueError | IndexError | TypeError | AssertionError | KeyError
| NotImplementedError | MPIError | ZeroDivisionError | NameError | AttributeError.

(** What one rank observes of a collective call: a value, an exception, waiting
    for ever in a collective that another rank does not enter, or a read of
    memory nobody initialised. *)
Inductive outcome (A : Type) :=
| Ret (a : A)
| Raise (e : exn)
| Blocked
| Garbage.
Arguments Ret {A} a.
Arguments Raise {A} e.
Arguments Blocked {A}.
Arguments Garbage {A}.

Definition bind {A B} (x : outcome A) (f : A -> outcome B) : outcome B :=
  match x with
  | Ret a => f a
  | Raise e => Raise e
  | Blocked => Blocked
  | Garbage => Garbage
  end.

(** [option]al list traversal *)
Fixpoint sequence {A} (l : list (option A)) : option (list A) :=
  match l with
  | [] => Some []
  | None :: _ => None
  | Some a :: r => match sequence r with Some r' => Some (a :: r') | None => None end
  end.

(** update position [i]; out of range positions leave the list unchanged *)
Fixpoint upd {A} (i : nat) (f : A -> A) (l : list A) : list A :=
  match i, l with
  | _, [] => []
  | 0, x :: r => f x :: r
  | S i', x :: r => x :: upd i' f r
  end.

(** the running exclusive sums of a list, starting from [acc] *)
Fixpoint offsets_from (acc : nat) (l : list nat) : list nat :=
  match l with
  | [] => []
  | x :: r => acc :: offsets_from (acc + x) r
  end.

(** a[d : d+c], refused when it leaves the array *)
Definition slice {A} (d c : nat) (b : list A) : option (list A) :=
  if d + c <=? length b then Some (firstn c (skipn d b)) else None.

(** write [seg] at [d] into a buffer, refused when it leaves the buffer *)
Definition write {A} (d : nat) (seg : list A) (buf : list (option A))
  : option (list (option A)) :=
  if d + length seg <=? length buf
  then Some (firstn d buf ++ map Some seg ++ skipn (d + length seg) buf)
  else None.

Definition opt_eqb {A} (eqb : A -> A -> bool) (x y : option A) : bool :=
  match x, y with
  | Some a, Some b => eqb a b
  | None, None => true
  | _, _ => false
  end.
