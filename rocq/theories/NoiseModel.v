(** White noise (pmesh/_whitenoise_imp.c, pmesh/_whitenoise_generics.h,
    pmesh/pm.py:1655-1695) on three-dimensional meshes.  The random generator is an
    argument (a state, its seeding, a uniform number in units of 2^-48 and the pair
    of numbers of SAMPLE); RanluxModel.v is the one of the code.  [polar] turns a
    pair into the real and imaginary part (ampl * cos phase, ampl * sin phase with
    ampl = sqrt (- log ampl), or ampl = 1 if unitary).  Arithmetic is exact: the
    product 0x7fffffff * u is not rounded. *)
From Coq Require Import List Arith ZArith QArith Lia Bool.
From Verif Require Import Base ListFacts WrapModel DomainFill MeshModel MeshRoute MeshTile RingModel FieldModel RanluxModel.
Import ListNotations.
Local Close Scope Q_scope.
Local Open Scope Z_scope.

Section Noise.
Variable K : cring.
Local Notation C := (cpx K).
Variables (S A : Type).
Variable rng_set : Z -> S.
Variable uniform : S -> Z * S.
Variable sample : S -> A * S.
Variable polar : bool -> A -> C.

(** PMeshWhiteNoiseGenerator: Nmesh, start and size of the local array *)
Record generator := mkG { gN0 : Z; gN1 : Z; gN2 : Z; gs0 : Z; gs1 : Z; gs2 : Z; gz0 : Z; gz1 : Z; gz2 : Z }.
Definition range (n : Z) : list Z := zrange 0 (Z.to_nat n).

(** _whitenoise_generics.h:67-84: the calls of SETSEED *)
Definition ring_calls (N0 N1 i : Z) : list (Z * Z) :=
  map (fun j => (i, j)) (range i) ++
  map (fun j => (j, i)) (range (i + 1)) ++
  map (fun j => (N0 - 1 - i, j)) (range i) ++
  map (fun j => (N1 - 1 - j, i)) (range (i + 1)) ++
  map (fun j => (i, N1 - 1 - j)) (range i) ++
  map (fun j => (j, N0 - 1 - i)) (range (i + 1)) ++
  map (fun j => (N0 - 1 - i, N1 - 1 - j)) (range i) ++
  map (fun j => (N1 - 1 - j, N0 - 1 - i)) (range (i + 1)).
Definition seed_calls (N0 N1 : Z) : list (Z * Z) := flat_map (ring_calls N0 N1) (range (N0 / 2)).

(** _whitenoise_imp.c:32: 0x7fffffff * gsl_rng_uniform(rng) as unsigned int *)
Definition draw_seed (rng : S) : Z * S := let '(u, rng) := uniform rng in (2147483647 * u / two48, rng).
Fixpoint draw_seeds (n : nat) (rng : S) : list Z :=
  match n with O => [] | Datatypes.S n => let '(s, rng) := draw_seed rng in s :: draw_seeds n rng end.

(** seedtable[d1][d2], the local plane in C order, calloc'ed *)
Definition tables : Type := bool -> bool -> list Z.
Definition empty_tables (g : generator) : tables := fun _ _ => repeat 0 (Z.to_nat (gz0 g * gz1 g)).
(** _whitenoise_imp.c:29-51; % of C truncates *)
Definition mirror (d : bool) (N i : Z) : Z := if d then Z.rem (N - i) N else i.
Definition SETSEED (g : generator) (i j seed : Z) (t : tables) : tables :=
  fun d1 d2 =>
    let ii := mirror d1 (gN0 g) i - gs0 g in
    let jj := mirror d2 (gN1 g) j - gs1 g in
    if (0 <=? ii) && (ii <? gz0 g) && (0 <=? jj) && (jj <? gz1 g)
    then xset (t d1 d2) (Z.to_nat (ii * gz1 g + jj)) seed else t d1 d2.
(** _whitenoise_imp.c:54-66 within the local plane *)
Definition GETSEED (g : generator) (t : tables) (i j : Z) (d : bool) : Z :=
  xget (t d d) (Z.to_nat ((i - gs0 g) * gz1 g + (j - gs1 g))).

Definition seed_tables (g : generator) (seed : Z) : tables :=
  let calls := seed_calls (gN0 g) (gN1 g) in
  fold_left (fun t p => SETSEED g (fst (fst p)) (snd (fst p)) (snd p) t)
    (combine calls (draw_seeds (length calls) (rng_set seed))) (empty_tables g).

(** _whitenoise_generics.h:1-9 *)
Definition has_mode (g : generator) (k : Z) : bool := (0 <=? k - gs2 g) && (k - gs2 g <? gz2 g).
(** _whitenoise_generics.h:44-65 *)
Definition signs (g : generator) : list Z :=
  if existsb (has_mode g) (map (fun d => gN2 g / 2 + 1 + d) (range (gN2 g - (gN2 g / 2 + 1)))) then [-1; 1] else [1].

(** _whitenoise_generics.h:110-124 *)
Definition conjugate (N i : Z) : Z := let c := N - i in if c >=? N then c - N else c.
Definition lower_flag (g : generator) (i j : Z) : bool :=
  let ci := conjugate (gN0 g) i in
  let cj := conjugate (gN1 g) j in
  ((ci =? i) && (cj <? j)) || ((ci <? i) && negb (cj =? j)) || ((ci <? i) && (cj =? j)).

(** _whitenoise_generics.h:171-221: the value of the mode (i, j, k') of the output *)
Definition self_conjugate (g : generator) (i j k' : Z) : bool :=
  (Z.rem (gN0 g - i) (gN0 g) =? i) && (Z.rem (gN1 g - j) (gN1 g) =? j) && (Z.rem (gN2 g - k') (gN2 g) =? k').
Definition finish (g : generator) (unitary : bool) (sign : Z) (use_conj : bool) (i j k : Z) (a : A) : list Z * C :=
  let '(re, im) := polar unitary a in
  let '(k', im) := if sign =? -1 then (gN2 g - k, ropp im) else (k, im) in
  let im := if use_conj then ropp im else im in
  let '(re, im) := if self_conjugate g i j k' then ((if unitary then r1 else re), r0) else (re, im) in
  let '(re, im) := if (i =? 0) && (j =? 0) && (k' =? 0) then (r0, r0) else (re, im) in
  ([i; j; k'], (re, im)).

(** _whitenoise_generics.h:146-224: for k = 0 .. Nmesh[2] / 2; the writes of _set_mode *)
Fixpoint k_loop (g : generator) (unitary d : bool) (sign i j : Z) (n : nat) (k : Z) (lower this : S) : list (list Z * C) :=
  match n with
  | O => []
  | Datatypes.S n =>
      let use_conj := d && ((k =? 0) || (k =? gN2 g / 2)) in
      let '(a, lower, this) :=
        if use_conj then let '(_, this) := sample this in let '(a, lower) := sample lower in (a, lower, this)
        else let '(_, lower) := sample lower in let '(a, this) := sample this in (a, lower, this) in
      let rest := k_loop g unitary d sign i j n (k + 1) lower this in
      if negb (has_mode g k) then rest
      else
        let w := finish g unitary sign use_conj i j k a in
        if has_mode g (nth 2 (fst w) 0) then w :: rest else rest
  end.

(** _whitenoise_generics.h:128-145 *)
Definition column (g : generator) (unitary : bool) (t : tables) (i j sign : Z) : list (list Z * C) :=
  let d := lower_flag g i j in
  let lower := rng_set (GETSEED g t i j d) in
  let this := rng_set (GETSEED g t i j (negb (sign =? 1))) in
  k_loop g unitary d sign i j (Z.to_nat (gN2 g / 2 + 1)) 0 lower this.

(** _whitenoise_generics.h:95-226 *)
Definition all_writes (g : generator) (unitary : bool) (t : tables) : list (list Z * C) :=
  flat_map (fun i => flat_map (fun j => flat_map (column g unitary t i j) (signs g))
                       (map (fun d => gs1 g + d) (range (gz1 g))))
           (map (fun d => gs0 g + d) (range (gz0 g))).

(** the array after the writes; None: the element has not been written *)
Definition write (canvas : list Z -> option C) (w : list Z * C) : list Z -> option C :=
  fun k => if idx_eqb k (fst w) then Some (snd w) else canvas k.
Definition generic_fill (g : generator) (unitary : bool) (seed : Z) : list Z -> option C :=
  fold_left write (all_writes g unitary (seed_tables g seed)) (fun _ => None).

(** pm.py:1655-1695 up to the cast: every rank fills its block; then the zero mode is
    set to the mean.  [Nmesh] has three entries. *)
Definition generator_of (Nmesh start shape : list Z) : generator :=
  mkG (nth 0 Nmesh 0) (nth 1 Nmesh 0) (nth 2 Nmesh 0) (nth 0 start 0) (nth 1 start 0) (nth 2 start 0)
      (nth 0 shape 0) (nth 1 shape 0) (nth 2 shape 0).
Definition is_zero_mode (Nmesh k : list Z) : bool := forallb (fun p => signed_index (fst p) (snd p) =? 0) (combine Nmesh k).
Definition whitenoise_local {V} (Nmesh : list Z) (unitary : bool) (seed : Z) (mean : C) (L : lfield V) : lfield (option C) :=
  let canvas := generic_fill (generator_of Nmesh (lstart L) (lshape L)) unitary seed in
  mkL (lstart L) (lshape L) (map (fun k => if is_zero_mode Nmesh k then Some mean else canvas k) (lcells L)).
Definition generate_whitenoise {V} (Nmesh : list Z) (unitary : bool) (seed : Z) (mean : C) (Ls : list (lfield V)) : list (lfield (option C)) :=
  map (whitenoise_local Nmesh unitary seed mean) Ls.
End Noise.

(** the generator of the code *)
Definition ranlxd_sample (st : rstate) : (Z * Z) * rstate :=
  match SAMPLE 36 st with Some (ampl, phase, st) => ((ampl, phase), st) | None => ((0, 0), st) end.
