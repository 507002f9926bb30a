(** The random generator ranlxd1 (pmesh/gsl/ranlxd.c) and the pair of numbers drawn
    for a mode (pmesh/_whitenoise_imp.c:20-26).  All doubles of the generator are
    multiples of 2^-48 below 1; they are stored here as integers times 2^-48.  The
    subtraction of such numbers is exact in double precision. *)
From Coq Require Import List Arith ZArith Lia Bool.
From Verif Require Import Base ListFacts.
Import ListNotations.
Local Open Scope Z_scope.

Definition two48 : Z := 281474976710656.

(** ranlxd.c:38 *)
Definition next_tab : list nat := [1; 2; 3; 4; 5; 6; 7; 8; 9; 10; 11; 0]%nat.
Definition next (i : nat) : nat := nth i next_tab 0%nat.

(** ranlxd.c:51-60 *)
Record rstate := mkR { xdbl : list Z; carry : Z; ir : nat; jr : nat; ir_old : nat; pr : Z }.

Definition xget (x : list Z) (i : nat) : Z := nth i x 0.
Fixpoint xset (x : list Z) (i : nat) (v : Z) : list Z :=
  match x, i with
  | [], _ => []
  | _ :: r, O => v :: r
  | a :: r, S i => a :: xset r i v
  end.

(** the body of the loops of ranlxd.c:77-93 and 131-147: array, carry, ir, jr *)
Definition cursor : Type := (list Z * Z * nat * nat)%type.
Definition one_step (s : cursor) : cursor :=
  let '(x, c, i, j) := s in
  let y1 := xget x j - xget x i in
  let y2 := y1 - c in
  if y2 <? 0 then (xset x i (y2 + two48), 1, next i, next j)
  else (xset x i y2, 0, next i, next j).

(** ranlxd.c:77-93: for (k = 0; ir > 0; ++k) *)
Fixpoint lead_loop (fuel : nat) (k : Z) (s : cursor) : Z * cursor :=
  match fuel with
  | O => (k, s)
  | S fuel => let '(_, _, i, _) := s in
      if Nat.eqb i 0 then (k, s) else lead_loop fuel (k + 1) (one_step s)
  end.

(** ranlxd.c:42-49: RANLUX_STEP(x1, x2, i1, i2, i3); returns x1 and the array *)
Definition ranlux_step (x : list Z) (x2 : Z) (i1 i2 i3 : nat) : Z * list Z :=
  let x1 := xget x i1 - xget x i2 in
  if x2 <? 0 then (x1 - 1, xset x i3 (x2 + two48)) else (x1, xset x i3 x2).

(** ranlxd.c:99-126: the unrolled body *)
Definition block_step (x : list Z) (c : Z) : list Z * Z :=
  let y1 := xget x 7 - xget x 0 in
  let y1 := y1 - c in
  let '(y2, x) := ranlux_step x y1 8 1 0 in
  let '(y3, x) := ranlux_step x y2 9 2 1 in
  let '(y1, x) := ranlux_step x y3 10 3 2 in
  let '(y2, x) := ranlux_step x y1 11 4 3 in
  let '(y3, x) := ranlux_step x y2 0 5 4 in
  let '(y1, x) := ranlux_step x y3 1 6 5 in
  let '(y2, x) := ranlux_step x y1 2 7 6 in
  let '(y3, x) := ranlux_step x y2 3 8 7 in
  let '(y1, x) := ranlux_step x y3 4 9 8 in
  let '(y2, x) := ranlux_step x y1 5 10 9 in
  let '(y3, x) := ranlux_step x y2 6 11 10 in
  if y3 <? 0 then (xset x 11 (y3 + two48), 1) else (xset x 11 y3, 0).

(** ranlxd.c:95-127: for (; k <= kmax; k += 12) *)
Fixpoint block_loop (fuel : nat) (kmax k : Z) (s : cursor) : Z * cursor :=
  match fuel with
  | O => (k, s)
  | S fuel =>
      if k <=? kmax then
        let '(x, c, i, j) := s in
        let '(x, c) := block_step x c in block_loop fuel kmax (k + 12) (x, c, i, j)
      else (k, s)
  end.

(** ranlxd.c:129-147: for (; k < kmax; ++k) *)
Fixpoint tail_loop (fuel : nat) (kmax k : Z) (s : cursor) : cursor :=
  match fuel with
  | O => s
  | S fuel => if k <? kmax then tail_loop fuel kmax (k + 1) (one_step s) else s
  end.

(** ranlxd.c:64-152.  The fuel exceeds the numbers of iterations. *)
Definition increment_state (st : rstate) : rstate :=
  let fuel := (Z.to_nat (pr st) + 12)%nat in
  let '(k, s) := lead_loop fuel 0 (xdbl st, carry st, ir st, jr st) in
  let '(k, s) := block_loop fuel (pr st - 12) k s in
  let '(x, c, i, j) := tail_loop fuel (pr st) k s in
  mkR x c i j i (pr st).

(** ranlxd.c:160-173 *)
Definition get_double (st : rstate) : Z * rstate :=
  let i := next (ir st) in
  let st := mkR (xdbl st) (carry st) i (jr st) (ir_old st) (pr st) in
  let st := if Nat.eqb i (ir_old st) then increment_state st else st in
  (xget (xdbl st) (ir st), st).

(** ** seeding, ranlxd.c:175-224 *)
(** conversion of seed & 0xFFFFFFFF to int *)
Definition to_int32 (s : Z) : Z := let m := s mod 4294967296 in if m <? 2147483648 then m else m - 4294967296.
(** ranlxd.c:192-196: C's % and / truncate *)
Fixpoint seed_bits (n : nat) (i : Z) : list Z :=
  match n with O => [] | S n => Z.rem i 2 :: seed_bits n (Z.quot i 2) end.

(** ranlxd.c:205-212: xbit, ibit, jbit, x *)
Definition bit_step (s : list Z * nat * nat * Z) : list Z * nat * nat * Z :=
  let '(b, i, j, x) := s in
  let y := Z.rem (xget b i + 1) 2 in
  let x := x + (x + y) in
  let b := xset b i (Z.rem (xget b i + xget b j) 2) in
  (b, (i + 1) mod 31, (j + 1) mod 31, x)%nat.
Fixpoint bit_loop (n : nat) (s : list Z * nat * nat * Z) : list Z * nat * nat * Z :=
  match n with O => s | S n => bit_loop n (bit_step s) end.
Fixpoint word_loop (n : nat) (b : list Z) (i j : nat) : list Z :=
  match n with
  | O => []
  | S n => let '(b, i, j, x) := bit_loop 48 (b, i, j, 0) in x :: word_loop n b i j
  end.
Definition seed_words (s : Z) : list Z :=
  let s := if s =? 0 then 1 else s in
  word_loop 12 (seed_bits 31 (to_int32 s)) 0 18.
Definition set_lux (s : Z) (luxury : Z) : rstate := mkR (seed_words s) 0 11 7 0 luxury.
(** ranlxd.c:226-230 *)
Definition ranlxd1_set (s : Z) : rstate := set_lux s 202.

(** n draws *)
Fixpoint draws (n : nat) (st : rstate) : list Z * rstate :=
  match n with
  | O => ([], st)
  | S n => let '(v, st) := get_double st in let '(vs, st) := draws n st in (v :: vs, st)
  end.

(** _whitenoise_imp.c:20-26: the phase, and the first number that is not 0.  None: the
    fuel was not enough. *)
Fixpoint nonzero (fuel : nat) (st : rstate) : option (Z * rstate) :=
  match fuel with
  | O => None
  | S fuel => let '(v, st) := get_double st in if v =? 0 then nonzero fuel st else Some (v, st)
  end.
Definition SAMPLE (fuel : nat) (st : rstate) : option (Z * Z * rstate) :=
  let '(phase, st) := get_double st in
  match nonzero fuel st with
  | Some (ampl, st) => Some (ampl, phase, st)
  | None => None
  end.
