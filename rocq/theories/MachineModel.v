(** Model of [GridND.decompose] and [GridND.load] (pmesh/domain.py, pmesh/_domain.pyx) with the
    integers the code stores: 16 bits for the ranges of domains, 32 bits for sizes, strides,
    counts, offsets and indices. Arithmetic that leaves the range wraps round (numpy's unsafe
    casts on assignment; Cython's C integers with overflowcheck off, on two's complement). *)
From Coq Require Import List Arith ZArith QArith Qround Lia Bool.
From Verif Require Import Base LayoutModel WrapModel DomainModel.
Import ListNotations.
Local Close Scope Q_scope.
Local Open Scope Z_scope.

(** the value of z in a signed integer of b bits *)
Definition signed (b z : Z) : Z := (z + 2 ^ (b - 1)) mod 2 ^ b - 2 ^ (b - 1).
Definition i16 (z : Z) : Z := signed 16 z.
Definition i32 (z : Z) : Z := signed 32 z.

(** domain.py:606-630: sil and sir are arrays of type i2 *)
Definition patches16 (periodic : bool) (edges : list (list Q)) (sm x : list Q) : list (Z * Z) :=
  map (fun lh => (i16 (fst lh), i16 (snd lh))) (patches periodic edges sm x).
(** _domain.pyx:60-63: [cdef int patchsize], first axis first *)
Definition patchsize32 (r : list (Z * Z)) : Z :=
  fold_left (fun a lh => i32 (a * i32 (snd lh - fst lh))) r 1.
(** _domain.pyx:26, 54-56: [cdef int strides[32]] *)
Fixpoint strides32 (dims : list Z) : list Z :=
  match dims with
  | [] => []
  | d :: r => let st := strides32 r in
              match r, st with
              | d' :: _, s' :: _ => i32 (s' * d') :: st
              | _, _ => [1]
              end
  end.
(** _domain.pyx:57, 72-80: the product is an int, the sum is of type intp. The loops that wrap t
    move it towards zero and stay in range. *)
Fixpoint flat_target32 (periodic : bool) (dims strides p : list Z) : Z :=
  match dims, strides, p with
  | d :: ds, st :: sts, t :: ts =>
      i32 ((if periodic then wrap_du d t else t) * st) + flat_target32 periodic ds sts ts
  | _, _, _ => 0
  end.
(** _domain.pyx:25, 99-106: [cdef int p[32]] *)
Fixpoint advance_in32 (r : list (Z * Z)) (p : list Z) : list Z * bool :=
  match r, p with
  | (lo, hi) :: r', x :: p' =>
      let '(p'', c) := advance_in32 r' p' in
      if c then (if i32 (x + 1) =? hi then (lo :: p'', true) else (i32 (x + 1) :: p'', false))
      else (x :: p'', false)
  | _, _ => ([], true)
  end.
Definition advance32 (r : list (Z * Z)) (p : list Z) : list Z :=
  match r, p with
  | _ :: r', x :: p' =>
      let '(p'', c) := advance_in32 r' p' in
      (if c then i32 (x + 1) else x) :: p''
  | _, _ => []
  end.
(** _domain.pyx:69-106 *)
Fixpoint patch_loop32 (g : grid) (dims : list Z) (r : list (Z * Z)) (n : nat) (p : list Z) (acc : list nat)
  : option (list nat) :=
  match n with
  | O => Some acc
  | S n' =>
      match zlookup (g_assign g) (flat_target32 (g_periodic g) dims (strides32 dims) p) with
      | None => None
      | Some t =>
          match nth_error (g_degenerate g) t with
          | None => None
          | Some deg => patch_loop32 g dims r n' (advance32 r p) (if deg then acc else insert_target t acc)
          end
      end
  end.
(** the ranks one particle is sent to; a negative patchsize makes no iteration *)
Definition particle_targets32 (g : grid) (sm x : list Q) : outcome (list nat) :=
  let r := patches16 (g_periodic g) (g_edges g) sm x in
  match patch_loop32 g (g_dims g) r (Z.to_nat (patchsize32 r)) (map fst r) [] with
  | None => Garbage
  | Some l => unique_targets None (rev l)
  end.
(** domain.py:602 and _domain.pyx:114-115: counts of type int32 *)
Definition count_pass32 (P : nat) (ts : list (list nat)) : list Z :=
  fold_left (fun c t => fold_left (fun c t => upd t (fun k => i32 (k + 1)) c) t c) ts (repeat 0 P).
(** _domain.pyx:44-50: offsets of type int32, one more than ranks *)
Fixpoint offsets32 (acc : Z) (l : list Z) : list Z :=
  match l with [] => [acc] | x :: r => acc :: offsets32 (i32 (acc + x)) r end.
(** _domain.pyx:117-119: indices[offset[target]] = i; offset[target] += 1. No bounds are checked:
    [None] is a write out of bounds. *)
Definition push32 (i : nat) (st : option (list (option Z) * list Z)) (t : nat) : option (list (option Z) * list Z) :=
  match st with
  | None => None
  | Some (idx, off) =>
      let o := nth t off 0 in
      if (0 <=? o) && (o <? Z.of_nat (length idx))
      then Some (upd (Z.to_nat o) (fun _ => Some (i32 (Z.of_nat i))) idx, upd t (fun k => i32 (k + 1)) off)
      else None
  end.
Fixpoint index_pass32 (i : nat) (ts : list (list nat)) (st : option (list (option Z) * list Z)) :=
  match ts with [] => st | t :: r => index_pass32 (S i) r (fold_left (push32 i) t st) end.
(** domain.py:561-652; numpy.empty of a negative size raises ValueError, the assertion of
    domain.py:590 AssertionError *)
Definition decompose32 (P : nat) (g : grid) (transform : list Q -> list Q) (sm : list Q) (pos : list (list Q))
  : outcome (nat * list Z * list Z) :=
  if Z.of_nat (length pos) <? 2 ^ 31 then
  match pos with
  | [] => Ret (0%nat, repeat 0 P, [])
  | _ =>
      bind (collect (map (fun x => particle_targets32 g sm (transform x)) pos)) (fun ts =>
        if forallb (forallb (fun t => (t <? P)%nat)) ts then
          let counts := count_pass32 P ts in
          let offs := offsets32 0 counts in
          let total := last offs 0 in
          if total <? 0 then Raise ValueError else
          match index_pass32 0 ts (Some (repeat None (Z.to_nat total), offs)) with
          | None => Garbage
          | Some (idx, _) => bind (force idx) (fun idx => Ret (length pos, counts, idx))
          end
        else Garbage)
  end
  else Raise AssertionError.
(** domain.py:437-448: sil of type i2 *)
Definition load_index16 (g : grid) (x : list Q) : list Z := map i16 (load_index g x).
Definition rank_load16 (g : grid) (transform : list Q -> list Q) (size : nat) (pos : list (list Q)) : outcome (list nat) :=
  bind (collect (map (fun x => (if g_periodic g then ravel_raise else ravel_clip) (g_dims g) (load_index16 g (transform x))) pos))
       (fun ds => bincount Nat.add 0%nat size (map Z.to_nat ds) (map (fun _ => 1%nat) ds)).
(** domain.py:109-118: cumsum is of 64 bits and is stored into an array like sendcounts *)
Definition layout_offsets32 (counts : list Z) : list Z :=
  map (fun r => i32 (fold_right Z.add 0 (firstn r counts))) (seq 0 (length counts)).
