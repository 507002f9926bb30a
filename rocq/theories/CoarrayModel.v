(** pmesh/coarray.py: pulls and pushes of a co-array, and sync. Index paths, arrays and
    the data of a slice are arbitrary; [slice a path] is the value of a[i1][i2]..., and
    [store a path v] is the array after the assignment a[i1]...[ik] = v. The shape of a
    slice and of the buffer agree. *)
From Coq Require Import List Arith Lia Bool.
From Verif Require Import Base SchedModel.
Import ListNotations.

Section Coarray.
  Variables (Arr Path V : Type) (slice : Arr -> Path -> V) (store : Arr -> Path -> V -> Arr).

  (** coarray.py:116-147: self[localindex] = proxy, and proxy[...] = value *)
  Inductive cop := Pull (localindex : Path) (coindex : nat) (indices : Path) | Push (coindex : nat) (indices : Path) (value : V).
  Definition coindex (o : cop) : nat := match o with Pull _ c _ => c | Push c _ _ => c end.

  Variable n : nat.                    (* comm.size *)
  Variable arr : nat -> Arr.           (* the local arrays when sync is called *)
  Variable ops : nat -> list cop.      (* __coameta__.operations *)
  Variable images : nat -> list nat.   (* the argument of sync *)

  (** coarray.py:165, 187 *)
  Definition posted (r : nat) : list cop := filter (fun o => existsb (Nat.eqb (coindex o)) (images r)) (ops r).
  (** coarray.py:157-171: the lists for every target *)
  Definition sendlist (r target : nat) : list (Path * nat) :=
    flat_map (fun o => match o with Pull _ c ix => if c =? target then [(ix, r)] else [] | Push _ _ _ => [] end) (posted r).
  Definition recvlist (r target : nat) : list (Path * nat) :=
    flat_map (fun o => match o with Push c ix _ => if c =? target then [(ix, r)] else [] | Pull _ _ _ => [] end) (posted r).
  (** coarray.py:173-174: rank r gets the lists that all ranks made for it, in the order of the ranks *)
  Definition sendactions (r : nat) : list (Path * nat) := flat_map (fun q => sendlist q r) (seq 0 n).
  Definition recvactions (r : nat) : list (Path * nat) := flat_map (fun q => recvlist q r) (seq 0 n).

  Inductive act :=
  | AColl (k : nat)                    (* the k-th alltoall *)
  | AIrecv (source : nat) | AIsend (dest : nat) (v : V)
  | ASend (dest : nat) (v : V) | ARecv (source : nat)
  | AWait.                             (* MPI.Request.waitall *)
  (** coarray.py:258-290. The array is not changed before the last send. *)
  Definition program (r : nat) : list act :=
    [AColl 0; AColl 1]
    ++ map (fun o => match o with Pull _ c _ => AIrecv c | Push c _ v => AIsend c v end) (posted r)
    ++ map (fun p => ASend (snd p) (slice (arr r) (fst p))) (sendactions r)
    ++ map (fun p => ARecv (snd p)) (recvactions r)
    ++ [AWait].

  (** MPI: there are no tags, so the k-th message from s to d goes to the k-th receive that d posts for s *)
  Definition sends_to (d : nat) (l : list act) : list V :=
    flat_map (fun a => match a with AIsend d' v => if d' =? d then [v] else [] | ASend d' v => if d' =? d then [v] else [] | _ => [] end) l.
  Definition recvs_from (s : nat) (l : list act) : list unit :=
    flat_map (fun a => match a with AIrecv s' => if s' =? s then [tt] else [] | ARecv s' => if s' =? s then [tt] else [] | _ => [] end) l.
  Definition has_coll (k : nat) (l : list act) : bool := existsb (fun a => match a with AColl k' => k =? k' | _ => false end) l.
  (** the message for the receive number i of rank r, if it has been sent *)
  Definition message (st : nat -> nat) (r i s : nat) : option V :=
    nth_error (sends_to r (firstn (st s) (program s))) (length (recvs_from s (firstn i (program r)))).
  Definition arrived (st : nat -> nat) (r i s : nat) : bool := match message st r i s with Some _ => true | None => false end.
  (** the receive for the message number i of rank r has been posted *)
  Definition taken (st : nat -> nat) (r i d : nat) : bool :=
    length (sends_to d (firstn i (program r))) <? length (recvs_from r (firstn (st d) (program d))).
  (** [eager r i]: the message is buffered, so that the send need not wait *)
  Variable eager : nat -> nat -> bool.
  Definition request_done (st : nat -> nat) (r i : nat) : bool :=
    match nth_error (program r) i with
    | Some (AIrecv s) | Some (ARecv s) => arrived st r i s
    | Some (AIsend d _) | Some (ASend d _) => eager r i || taken st r i d
    | _ => true
    end.
  Definition comm_ready (st : nat -> nat) (r i : nat) : bool :=
    match nth_error (program r) i with
    | Some (AColl k) => forallb (fun q => has_coll k (firstn (st q) (program q))) (seq 0 n)
    | Some (AIrecv _) | Some (AIsend _ _) => true
    | Some (ASend _ _) | Some (ARecv _) => request_done st r i
    | Some AWait => forallb (request_done st r) (seq 0 i)
    | None => true
    end.
  Definition co_len (r : nat) : nat := length (program r).
  Definition co_run : list event -> state -> Prop := run n co_len comm_ready.
  Definition co_final : state -> Prop := final n co_len.

  (** the array after sync: coarray.py:276-288, then 292 with 129-132 and 145-146 *)
  Definition recv_base (r : nat) : nat := 2 + length (posted r) + length (sendactions r).
  Definition stored_pushes (st : nat -> nat) (r : nat) : option Arr :=
    fold_left (fun oa p => match oa, message st r (recv_base r + fst p) (snd (snd p)) with
                           | Some a, Some v => Some (store a (fst (snd p)) v)
                           | _, _ => None
                           end) (combine (seq 0 (length (recvactions r))) (recvactions r)) (Some (arr r)).
  Definition after_sync (st : nat -> nat) (r : nat) : option Arr :=
    fold_left (fun oa p => match snd p with
                           | Pull li c _ => match oa, message st r (2 + fst p) c with
                                            | Some a, Some v => Some (store a li v)
                                            | _, _ => None
                                            end
                           | Push _ _ _ => oa
                           end) (combine (seq 0 (length (posted r))) (posted r)) (stored_pushes st r).
  (** coarray.py:294-296 *)
  Definition left_over (r : nat) : list cop := filter (fun o => negb (existsb (Nat.eqb (coindex o)) (images r))) (ops r).
End Coarray.
