(** Model of pmesh/transfer.py:132-183, [TransferFunction.PowerSpectrum] of the deprecated
    ParticleMesh, on all ranks and over the real numbers.

    Simplifications.  [wout] and [psout] have the same size.  The frequencies and the scratch
    array are exact (the code keeps them in single precision).  An entry of the result that is
    not a number (0/0) is [None].  [strict] says which numpy is used: from version 1.13 a mask
    has to have the shape of the array that it indexes, before that a smaller mask stood for the
    indices of its true elements. *)
From Coq Require Import List Arith ZArith Reals Lra Lia Bool.
From Verif Require Import Base ListFacts WrapModel WindowStencil WindowSpread MeshTile LegacyMesh TransferModel.
Import ListNotations.
Local Open Scope R_scope.

(** transfer.py:140-141: [linspace(0, pi, nb + 1) ** 2] *)
Definition w2edges (nb : nat) : list R := map (fun b => (PI * INR b / INR nb) ^ 2) (seq 0 (S nb)).
(** numpy.digitize with increasing bins: how many of them are not above [x] *)
Definition digitize (x : R) (edges : list R) : nat := length (filter (fun e => if Rle_dec e x then true else false) edges).
(** the cells of one row, [complex[row]] *)
Definition row_cells (s : spectrum) : list (list Z) := cells_of (tl (sp_shape s)).
(** transfer.py:148: the mask has one element, of the last row *)
Definition singular (N : Z) (s : spectrum) : bool := is0 (w_at N s 0 (nth 0 (sp_shape s) 0 - 1)%Z).
(** transfer.py:159, 167, 176 where a mask of one element is accepted: the first cell of the row *)
Definition first_cell (rest : list Z) : bool := forallb (fun i => (i =? 0)%Z) rest.
Definition half (N : Z) (s : spectrum) (rest : list Z) : R := if singular N s && first_cell rest then 1 / 2 else 1.
(** [numpy.bincount(dig, weights=f, minlength=nb + 2)[1: -1]] of a row *)
Definition row_sums (N : Z) (nb : nat) (s : spectrum) (row : Z) (f : list Z -> R) : list R :=
  map (fun b => fold_right Rplus 0 (map (fun rest => if (digitize (row_w2 N s row (row :: rest)) (w2edges nb) =? S b)%nat then f rest else 0)
                                        (row_cells s)))
      (seq 0 nb).
(** the three arrays that are reduced for a row: frequencies, weights and power *)
Definition row_w (N : Z) (nb : nat) (s : spectrum) (row : Z) : list R :=
  row_sums N nb s row (fun rest => sqrt (row_w2 N s row (row :: rest)) * half N s rest).
Definition row_n (N : Z) (nb : nat) (s : spectrum) (row : Z) : list R := row_sums N nb s row (half N s).
Definition row_p (N : Z) (nb : nat) (s : spectrum) (row : Z) : list R :=
  row_sums N nb s row (fun rest => cabs (sp_data s (row :: rest)) ^ 2 * half N s rest).
(** adding arrays; [comm.allreduce(.., MPI.SUM)] *)
Definition vadd (nb : nat) (a b : list R) : list R := map (fun j => nth j a 0 + nth j b 0) (seq 0 nb).
Definition vzero (nb : nat) : list R := repeat 0 nb.
Definition vsum (nb : nat) (l : list (list R)) : list R := fold_right (vadd nb) (vzero nb) l.
(** transfer.py:181-182 *)
Definition over (p n : R) : option R := if is0 n then None else Some (p / n).
Definition vover (nb : nat) (a b : list R) : list (option R) := map (fun j => over (nth j a 0) (nth j b 0)) (seq 0 nb).
(** the loop over the rows: P, N and the last [wsum] *)
Definition ps_step (N : Z) (nb : nat) (ws : list spectrum) (acc : list R * list R * list R) (row : Z) : list R * list R * list R :=
  let '(P, C, _) := acc in
  (vadd nb P (vsum nb (map (fun s => row_p N nb s row) ws)),
   vadd nb C (vsum nb (map (fun s => row_n N nb s row) ws)),
   vsum nb (map (fun s => row_w N nb s row) ws)).
(** what a rank does before its first reduction: without rows there is no [wsum] at line 182;
    a mask of the wrong shape is refused at line 159 *)
Definition ps_early (strict : bool) (s : spectrum) : option exn :=
  if (length (rows s) =? 0)%nat then Some NameError
  else if strict && negb (forallb (fun n => (n =? 1)%Z) (tl (sp_shape s))) then Some IndexError
  else None.
Definition fewest (ws : list spectrum) : nat :=
  fold_right Nat.min (match ws with [] => 0%nat | s :: _ => length (rows s) end) (map (fun s => length (rows s)) ws).
(** transfer.py:137-182 on all ranks: [psout] and [wout].  A rank reduces three arrays per row; a
    reduction that not all ranks take part in does not end. *)
Definition PowerSpectrum (strict : bool) (N : Z) (nb : nat) (ws : list spectrum) : list (outcome (list (option R) * list (option R))) :=
  if existsb (fun s => match ps_early strict s with Some _ => true | None => false end) ws then
    map (fun s => match ps_early strict s with Some e => Raise e | None => Blocked end) ws
  else
    let k := fewest ws in
    let '(P, C, W) := fold_left (ps_step N nb ws) (zrange 0 k) (vzero nb, vzero nb, vzero nb) in
    map (fun s => if (length (rows s) =? k)%nat then Ret (vover nb P C, vover nb W C) else Blocked) ws.
