(** Model of [Layout] in pmesh/domain.py.

    A collective method is a function from the list of all ranks' arguments
    (rank 0 first) to the list of all ranks' outcomes.  MPI is modelled by the
    meaning of Alltoall, Alltoallv and allgather. *)
From Coq Require Import List Arith Lia Bool QArith.
From Verif Require Import Base.
Import ListNotations.
Local Close Scope Q_scope.
Local Open Scope nat_scope.

(** domain.py:92-123, the fields of a Layout on one rank. *)
Record layout := mkLayout {
  sendlength : nat;
  sendcounts : list nat;
  indices : list nat;
  recvcounts : list nat;
  sendoffsets : list nat;
  recvoffsets : list nat;
  recvlength : nat
}.

(** Arguments of the constructor on one rank: sendlength, sendcounts, indices
    (domain.py:92). *)
Definition layout_arg := (nat * list nat * list nat)%type.
Definition a_len (a : layout_arg) : nat := fst (fst a).
Definition a_counts (a : layout_arg) : list nat := snd (fst a).
Definition a_indices (a : layout_arg) : list nat := snd a.

(** MPI Alltoall with one item per pair (domain.py:113): rank r receives item r
    of every rank. *)
Definition alltoall (world : list (list nat)) (r : nat) : list nat :=
  map (fun c => nth r c 0) world.

(** domain.py:92-123, the collective constructor: recvcounts is the Alltoall
    transpose, the offsets are exclusive running sums. *)
Definition layout_init (args : list layout_arg) : list layout :=
  map (fun r =>
    match nth_error args r with
    | Some a =>
        let rc := alltoall (map a_counts args) r in
        {| sendlength := a_len a; sendcounts := a_counts a; indices := a_indices a;
           recvcounts := rc;
           sendoffsets := offsets_from 0 (a_counts a);
           recvoffsets := offsets_from 0 rc;
           recvlength := list_sum rc |}
    | None => mkLayout 0 [] [] [] [] [] 0
    end) (seq 0 (length args)).

(** domain.py:125-136: allgather of the number of items sent to other ranks. *)
Definition get_exchange_cost (ls : list layout) : list nat :=
  map (fun r =>
    match nth_error ls r with
    | Some L => list_sum (map (fun p => if fst p =? r then 0 else snd p)
                              (combine (seq 0 (length (sendcounts L))) (sendcounts L)))
    | None => 0
    end) (seq 0 (length ls)).

(** numpy.take with bounds checking (domain.py:188). *)
Definition take {A} (data : list A) (idx : list nat) : option (list A) :=
  sequence (map (nth_error data) idx).

(** MPI Alltoallv (domain.py:202 and 278) as seen by rank [r]: for each source
    the segment (senddispls[r], sendcounts[r]) of its buffer is written at
    recvdispls[source].  Disagreeing counts and segments that leave a buffer
    are MPI errors. *)
Fixpoint recv_loop {A} (r : nat) (srcs : list (list A * list nat * list nat))
         (rc rd : list nat) (buf : list (option A)) : option (list (option A)) :=
  match srcs, rc, rd with
  | [], [], [] => Some buf
  | (b, sc, sd) :: srcs', c :: rc', d :: rd' =>
      match nth_error sc r, nth_error sd r with
      | Some c', Some d' =>
          if c' =? c then
            match slice d' c' b with
            | Some seg =>
                match write d seg buf with
                | Some buf' => recv_loop r srcs' rc' rd' buf'
                | None => None
                end
            | None => None
            end
          else None
      | _, _ => None
      end
  | _, _, _ => None
  end.

Definition alltoallv {A} (srcs : list (list A * list nat * list nat))
           (dsts : list (nat * list nat * list nat)) : list (option (list (option A))) :=
  map (fun rd => let '(r, (n, rc, rdis)) := rd in
                 recv_loop r srcs rc rdis (repeat None n))
      (combine (seq 0 (length dsts)) dsts).

Definition mpi_outcome {A} (x : option A) : outcome A :=
  match x with Some a => Ret a | None => Raise MPIError end.

(** all ranks raise the same exception *)
Definition all_raise {A B} (world : list A) (e : exn) : list (outcome B) :=
  map (fun _ => Raise e) world.

Definition len_mismatch {A} (want : layout -> nat) (ls : list layout) (data : list (list A)) : bool :=
  existsb (fun p => negb (length (snd p) =? want (fst p))) (combine ls data).

(** domain.py:173-206, [_exchange].  The length check is collective
    (allgather); a failing [take] raises on its own rank only, and every rank
    with a valid buffer then waits in the Barrier of line 199. *)
Definition exchange1 {A} (ls : list layout) (data : list (list A))
  : list (outcome (list (option A))) :=
  if len_mismatch sendlength ls data then all_raise ls ValueError
  else
    let bufs := map (fun p => take (snd p) (indices (fst p))) (combine ls data) in
    match sequence bufs with
    | Some bs =>
        map mpi_outcome
          (alltoallv (map (fun p => (snd p, sendcounts (fst p), sendoffsets (fst p))) (combine ls bs))
                     (map (fun L => (recvlength L, recvcounts L, recvoffsets L)) ls))
    | None => map (fun b => match b with None => Raise IndexError | Some _ => Blocked end) bufs
    end.

(** domain.py:237-281, the common part of [gather]: length check and the
    reverse Alltoallv into a buffer of len(indices). *)
Definition gather_buffer {A} (ls : list layout) (data : list (list A))
  : list (outcome (list (option A))) :=
  if len_mismatch recvlength ls data then all_raise ls ValueError
  else
    map mpi_outcome
      (alltoallv (map (fun p => (snd p, recvcounts (fst p), recvoffsets (fst p))) (combine ls data))
                 (map (fun L => (length (indices L), sendcounts L, sendoffsets L)) ls)).

(** reading an array that must be completely initialised *)
Definition force {A} (x : list (option A)) : outcome (list A) :=
  match sequence x with Some l => Ret l | None => Garbage end.

(** Post-processing of the gathered buffer on one rank, domain.py:283-318.
    [sendlength = 0] returns an empty array before looking at the mode. *)
Definition gather_post {A B} (post : layout -> list A -> outcome (list B))
  (ls : list layout) (data : list (list A)) : list (outcome (list B)) :=
  map (fun p =>
         bind (snd p) (fun buf =>
           if sendlength (fst p) =? 0 then Ret []
           else bind (force buf) (post (fst p))))
      (combine ls (gather_buffer ls data)).

(** mode 'all', domain.py:288-293 *)
Definition gather_all {A} := @gather_post A A (fun _ buf => Ret buf).

(** numpy.bincount with weights (domain.py:26-48, one component): a loop adding
    each weight to its bin.  An index beyond [minlength] makes the result too
    long for [out] and the assignment fails. *)
Definition bincount {A} (add : A -> A -> A) (zero : A) (n : nat) (idx : list nat) (w : list A)
  : outcome (list A) :=
  if forallb (fun i => i <? n) idx then
    Ret (fold_left (fun acc p => upd (fst p) (fun x => add x (snd p)) acc)
                   (combine idx w) (repeat zero n))
  else Raise ValueError.

(** mode 'sum', domain.py:294-295 *)
Definition gather_sum {A} (add : A -> A -> A) (zero : A) :=
  gather_post (fun L buf => bincount add zero (sendlength L) (indices L) buf).

(** mode 'mean', domain.py:305-311; 0/0 is NaN, here [None] *)
Definition qmean (s : Q) (n : nat) : option Q :=
  if n =? 0 then None else Some (s / inject_Z (Z.of_nat n))%Q.
Definition gather_mean :=
  gather_post (fun L buf =>
    bind (bincount Nat.add 0 (sendlength L) (indices L) (map (fun _ => 1) (indices L))) (fun N =>
    bind (bincount Qplus 0%Q (sendlength L) (indices L) buf) (fun out =>
      Ret (map (fun p => qmean (fst p) (snd p)) (combine out N))))).

(** mode 'any', domain.py:313-317: out starts as zeros, later writes win *)
Definition scatter {A} (idx : list nat) (v : list A) (out : list A) : outcome (list A) :=
  if forallb (fun i => i <? length out) idx then
    Ret (fold_left (fun acc p => upd (fst p) (fun _ => snd p) acc) (combine idx v) out)
  else Raise IndexError.
Definition gather_any {A} (zero : A) :=
  gather_post (fun L buf => scatter (indices L) buf (repeat zero (sendlength L))).

(** numpy ufunc.reduceat (used at domain.py:303): segment i is
    buf[off_i : off_{i+1}] if that is non-empty, else the single element
    buf[off_i]; the last segment extends to the end; an offset >= len(buf)
    raises IndexError. *)
Definition reduce1 {A} (op : A -> A -> A) (l : list A) : option A :=
  match l with [] => None | x :: r => Some (fold_left op r x) end.
Fixpoint reduceat_from {A} (op : A -> A -> A) (buf : list A) (off : list nat) : option (list A) :=
  match off with
  | [] => Some []
  | o :: rest =>
      let stop := match rest with o' :: _ => o' | [] => length buf end in
      let seg := if o <? stop then firstn (stop - o) (skipn o buf) else firstn 1 (skipn o buf) in
      match reduce1 op seg, reduceat_from op buf rest with
      | Some x, Some r => Some (x :: r)
      | _, _ => None
      end
  end.
Definition reduceat {A} (op : A -> A -> A) (buf : list A) (off : list nat) : outcome (list A) :=
  match reduceat_from op buf off with Some l => Ret l | None => Raise IndexError end.

(** mode = ufunc, domain.py:297-303. [argsort] is numpy's argsort; its order
    among equal keys is unspecified, so it is a parameter. *)
Definition gather_ufunc {A} (argsort : list nat -> list nat) (op : A -> A -> A) :=
  gather_post (fun L buf =>
    match take buf (argsort (indices L)) with
    | None => Raise IndexError
    | Some sorted =>
        bind (bincount Nat.add 0 (sendlength L) (indices L) (map (fun _ => 1) (indices L))) (fun N =>
          reduceat op sorted (offsets_from 0 N))
    end).

(** mode 'local', domain.py:246-264: no communication; entries without a local
    copy stay uninitialised ([None]). *)
Definition gather_local1 {A} (rank : nat) (L : layout) (data : list A) : outcome (list (option A)) :=
  match nth_error (sendoffsets L) rank, nth_error (sendcounts L) rank,
        nth_error (recvoffsets L) rank, nth_error (recvcounts L) rank with
  | Some s2, Some c2, Some s1, Some c1 =>
      let ind := firstn c2 (skipn s2 (indices L)) in
      let seg := firstn c1 (skipn s1 data) in
      if length ind =? length seg
      then scatter ind (map Some seg) (repeat None (sendlength L))
      else Raise ValueError
  | _, _, _, _ => Raise IndexError
  end.
Definition gather_local {A} (ls : list layout) (data : list (list A))
  : list (outcome (list (option A))) :=
  if len_mismatch recvlength ls data then all_raise ls ValueError
  else map (fun p => let '(r, (L, d)) := p in gather_local1 r L d)
           (combine (seq 0 (length ls)) (combine ls data)).

(** domain.py:59-80 [pack_arrays]: columns to rows. No column: IndexError
    (N[0], line 76); unequal lengths: ValueError. *)
Fixpoint zip_cols {A} (cols : list (list A)) : list (list A) :=
  match cols with
  | [] => []
  | [c] => map (fun x => [x]) c
  | c :: cs => map (fun p => fst p :: snd p) (combine c (zip_cols cs))
  end.
Definition pack_arrays {A} (cols : list (list A)) : outcome (list (list A)) :=
  match cols with
  | [] => Raise IndexError
  | c :: _ => if forallb (fun d => length d =? length c) cols
              then Ret (zip_cols cols) else Raise ValueError
  end.

(** if some rank raised before a collective, the ranks that did not are blocked *)
Definition all_ret {A} (l : list (outcome A)) : option (list A) :=
  sequence (map (fun x => match x with Ret a => Some a | _ => None end) l).
Definition block_rest {A B} (l : list (outcome A)) : list (outcome B) :=
  map (fun x => match x with Raise e => Raise e | Ret _ => Blocked | Blocked => Blocked | Garbage => Garbage end) l.

(** newdata[name] for each of the [k] columns (domain.py:164) *)
Definition unpack_cols {A} (k : nat) (rows : list (option (list A))) : list (list (option A)) :=
  map (fun j => map (fun row => match row with
                                | Some r => nth_error r j
                                | None => None end) rows) (seq 0 k).

(** domain.py:138-171 exchange(cols..., pack=True): packing is rank-local. *)
Definition exchange_packed {A} (ls : list layout) (cols : list (list (list A)))
  : list (outcome (list (list (option A)))) :=
  let packed := map pack_arrays cols in
  match all_ret packed with
  | Some rows =>
      map (fun p => bind (snd p) (fun b => Ret (unpack_cols (length (fst p)) b)))
          (combine cols (exchange1 ls rows))
  | None => block_rest packed
  end.

(** domain.py:138-171 exchange(cols..., pack=False): one exchange per column *)
Definition exchange_unpacked {A} (ls : list layout) (cols : list (list (list A))) (k : nat)
  : list (list (outcome (list (option A)))) :=
  map (fun j => exchange1 ls (map (fun c => nth j c []) cols)) (seq 0 k).

(** domain.py:50-57 [promote]: the trailing shape is compared with that of
    rank 0; the check is local, so the other ranks proceed to the next
    collective and wait there. *)
Definition promote (shapes : list (list nat)) : list (outcome unit) :=
  match shapes with
  | [] => []
  | root :: _ =>
      let local := map (fun s => if list_eq_dec Nat.eq_dec root s then Ret tt else Raise ValueError) shapes in
      match all_ret local with
      | Some _ => local
      | None => block_rest local
      end
  end.
