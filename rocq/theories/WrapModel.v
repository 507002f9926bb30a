(** Index wrapping loops shared by the C and Cython code. *)
From Coq Require Import List ZArith Lia.
Import ListNotations.
Local Open Scope Z_scope.

(** [while t >= d: t -= d] and [while t < 0: t += d].  The fuel is the largest
    number of iterations needed when [d >= 1]; a non-positive [d] would loop for
    ever, here the loop then stops when the fuel is used up. *)
Fixpoint down (fuel : nat) (d t : Z) : Z :=
  match fuel with
  | O => t
  | S f => if t >=? d then down f d (t - d) else t
  end.
Fixpoint up (fuel : nat) (d t : Z) : Z :=
  match fuel with
  | O => t
  | S f => if t <? 0 then up f d (t + d) else t
  end.
Definition wrap_fuel (t : Z) : nat := S (Z.to_nat (Z.abs t)).

(** _domain.pyx:75-79 and _window_generics.h:44-51, 116-123: down, then up *)
Definition wrap_du (d t : Z) : Z :=
  let t1 := down (wrap_fuel t) d t in up (wrap_fuel t1) d t1.
(** _window_tuned_{nnb,cic,tsc,pcs}.h, e.g. _window_tuned_cic.h:28-31: up, then down *)
Definition wrap_ud (d t : Z) : Z :=
  let t1 := up (wrap_fuel t) d t in down (wrap_fuel t1) d t1.

(** the integers lo, lo+1, ..., lo+n-1 *)
Fixpoint zrange (lo : Z) (n : nat) : list Z :=
  match n with
  | O => []
  | S m => lo :: zrange (lo + 1) m
  end.
