(** The deprecated ParticleMesh as a state machine (pmesh/particlemesh.py:220-375): canvas, transforms,
    transfer functions and the stack of saved modes, on the memory of BufferModel.v.

    [self.real] and [self.complex] are two views of one buffer (particlemesh.py:107-111) and the plans are
    those for one buffer, with transposed modes (particlemesh.py:115-121).  What the painter adds to
    the canvas and what readout does with it is C77-C79; here painting adds a given number to every cell and
    readout returns the canvas.  Timers and the printing of [verbose] are left out. *)
From Coq Require Import List Arith ZArith Lia Bool.
From Verif Require Import Base ListFacts LayoutModel MeshRoute MeshTile RingModel FieldModel FourierModel BufferModel.
Import ListNotations.
Local Open Scope Z_scope.

Section State.
Variable K : cring.
Local Notation C := (cpx K).
Variable me : mesh K.
Variable junk : memory K -> addr -> K.

(** the object: its buffer, number 0 of the memory, and its stack *)
Record machine := mkPM { pm_mem : memory K; pm_stack : list (list (lfield C)) }.
Definition pm_real : field K := mkF K me RealT 0%nat.
Definition pm_complex : field K := mkF K me TransposedT 0%nat.
(** a transfer function on the parts of all ranks (pmesh/transfer.py, C80) *)
Definition tfun : Type := list (lfield C) -> list (lfield C).

(** particlemesh.py:220-233 *)
Definition clear (m : memory K) : memory K := put_real K m pm_real (on_blocks (fun _ => r0) (me_blocks K me RealT)).
(** particlemesh.py:263-265 *)
Definition paint (g : list Z -> K) (m : memory K) : memory K :=
  put_real K m pm_real (on_blocks (fun c => radd (real_at K m pm_real c) (g c)) (me_blocks K me RealT)).
(** particlemesh.py:286-290 *)
Definition r2c (m : memory K) : outcome (memory K) :=
  bind (execute_forward K junk me ipforwardT m 0%nat 0%nat) (fun m =>
    Ret (put_complex K m pm_complex (map (scale_c K (rprod K (me_invs K me))) (complex_view K m pm_complex)))).
(** particlemesh.py:330-332 *)
Definition transfer (fs : list tfun) (m : memory K) : memory K :=
  fold_left (fun m f => put_complex K m pm_complex (f (complex_view K m pm_complex))) fs m.
(** particlemesh.py:365-368 *)
Definition c2r (fs : list tfun) (m : memory K) : outcome (memory K) :=
  execute_backward K junk me ipbackwardT (transfer fs m) 0%nat 0%nat.

Inductive command :=
| Clear | Paint (g : list Z -> K) | R2C | Transfer (fs : list tfun) | C2R (fs : list tfun) | Push | Pop | Readout.
(** one method call: what readout returns, and the new state *)
Definition step (s : machine) (c : command) : outcome (list (list (lfield K)) * machine) :=
  let stay m := ([], mkPM m (pm_stack s)) in
  match c with
  | Clear => Ret (stay (clear (pm_mem s)))
  | Paint g => Ret (stay (paint g (pm_mem s)))
  | R2C => bind (r2c (pm_mem s)) (fun m => Ret (stay m))
  | Transfer fs => Ret (stay (transfer fs (pm_mem s)))
  | C2R fs => bind (c2r fs (pm_mem s)) (fun m => Ret (stay m))
  | Push => Ret ([], mkPM (pm_mem s) (complex_view K (pm_mem s) pm_complex :: pm_stack s))
  | Pop => match pm_stack s with
           | [] => Raise IndexError
           | x :: l => Ret ([], mkPM (put_complex K (pm_mem s) pm_complex x) l)
           end
  | Readout => Ret ([real_view K (pm_mem s) pm_real], s)
  end.
Fixpoint exec (prog : list command) (s : machine) : outcome (list (list (lfield K)) * machine) :=
  match prog with
  | [] => Ret ([], s)
  | c :: prog => bind (step s c) (fun r => bind (exec prog (snd r)) (fun r' => Ret (fst r ++ fst r', snd r')))
  end.
(** a new object: the canvas is zero (particlemesh.py:109), the stack empty *)
Definition fresh (m : memory K) : machine := mkPM (clear m) [].
End State.
