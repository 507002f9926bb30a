(** Specification of Layout, independent of offsets and of MPI.

    A layout is described by who addresses which of their elements to whom; a
    copy of element [i] of rank [s] carries the tag [(s, i)]. *)
From Coq Require Import List Arith Bool.
From Verif Require Import Base LayoutModel.
Import ListNotations.

(** cut a list into consecutive pieces of the given lengths *)
Fixpoint chunks {A} (cs : list nat) (l : list A) : list (list A) :=
  match cs with
  | [] => []
  | c :: cs' => firstn c l :: chunks cs' (skipn c l)
  end.

Definition arg_at (args : list layout_arg) (s : nat) : layout_arg := nth s args (0, [], []).

(** the elements (by index) rank [s] addresses to rank [r]: the r-th piece of
    the send list of s *)
Definition addr (args : list layout_arg) (s r : nat) : list nat :=
  nth r (chunks (a_counts (arg_at args s)) (a_indices (arg_at args s))) [].

(** tags of what rank [r] must hold after an exchange: sources in rank order,
    each source in the order of its send list *)
Definition tags (args : list layout_arg) (r : nat) : list (nat * nat) :=
  flat_map (fun s => map (fun i => (s, i)) (addr args s r)) (seq 0 (length args)).

Definition lookup2 {A} (data : list (list A)) (t : nat * nat) : option A :=
  match nth_error data (fst t) with
  | Some d => nth_error d (snd t)
  | None => None
  end.

(** one count per rank, counts cover the send list, indices are valid *)
Definition wf_args (args : list layout_arg) : Prop :=
  Forall (fun a => length (a_counts a) = length args
                   /\ list_sum (a_counts a) = length (a_indices a)
                   /\ Forall (fun i => i < a_len a) (a_indices a)) args.

Definition lengths_ok {A} (want : list nat) (data : list (list A)) : Prop :=
  map (@length A) data = want.

(** values of all the copies of element [i] of rank [s], over all ranks in rank
    order, when the received copies carry the values [y] *)
Definition copies {A} (args : list layout_arg) (y : list (list A)) (s i : nat) : list A :=
  flat_map (fun r =>
    map snd (filter (fun tv => (fst (fst tv) =? s) && (snd (fst tv) =? i))
                    (combine (tags args r) (nth r y []))))
    (seq 0 (length args)).

(** values of all copies of elements of rank [s], in the order of the
    destination ranks *)
Definition returned {A} (args : list layout_arg) (y : list (list A)) (s : nat) : list A :=
  flat_map (fun r =>
    map snd (filter (fun tv => fst (fst tv) =? s) (combine (tags args r) (nth r y []))))
    (seq 0 (length args)).

(** number of copies of element i of rank s *)
Definition ncopies (args : list layout_arg) (s i : nat) : nat :=
  list_sum (map (fun r => count_occ Nat.eq_dec (addr args s r) i) (seq 0 (length args))).
