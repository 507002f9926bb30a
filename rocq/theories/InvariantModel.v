(** The scale invariant index of a mode (pmesh/_invariant_imp.c, pmesh/_invariant.pyx,
    pmesh/invariant.py).  ptrdiff_t and int are unbounded integers, uint32_t arithmetic
    in get_nbits is modulo 2^32; the number of axes is below 32. *)
From Coq Require Import List Arith ZArith Lia Bool.
From Verif Require Import Base ListFacts WrapModel.
Import ListNotations.
Local Open Scope Z_scope.

(** _invariant_imp.c:7-18: ONES(uint32_t) / 3, / 15 * 3, / 255 * 15, / 255 *)
Definition get_nbits (v : Z) : Z :=
  let ones := 2 ^ 32 - 1 in
  let v := (v - Z.land (Z.shiftr v 1) (ones / 3)) mod 2 ^ 32 in
  let v := (Z.land v (ones / 15 * 3) + Z.land (Z.shiftr v 2) (ones / 15 * 3)) mod 2 ^ 32 in
  let v := Z.land ((v + Z.shiftr v 4) mod 2 ^ 32) (ones / 255 * 15) in
  Z.shiftr ((v * (ones / 255)) mod 2 ^ 32) 24.

(** _invariant_imp.c:20-28 *)
Fixpoint ipow (n : Z) (p : nat) : Z := match p with O => 1 | S p => ipow n p * n end.

(** _invariant_imp.c:30-42 *)
Definition absmax (x : list Z) : Z :=
  match x with
  | [] => 0
  | x0 :: _ => fold_left (fun shell xd => if Z.abs xd >? shell then Z.abs xd else shell) x (Z.abs x0)
  end.

(** _invariant_imp.c:122-127 *)
Definition in_ignored_half (x : list Z) (cmask : Z) : bool :=
  existsb (fun p => negb (Z.land cmask (Z.shiftl 1 (Z.of_nat (fst p))) =? 0) && (snd p <? 0)) (combine (seq 0 (length x)) x).

(** _invariant_imp.c:130-143: the hosting cap and the problem inside of it *)
Record hosting := mkH { x1 : list Z; cmask1 : Z; icapset_x : Z; icap_x : Z }.
Definition host_step (shell cmask : Z) (h : hosting) (p : nat * Z) : hosting :=
  let d := Z.of_nat (fst p) in
  let xd := snd p in
  if Z.abs xd =? shell then
    mkH (x1 h) (cmask1 h) (Z.lor (icapset_x h) (Z.shiftl 1 d)) (Z.lor (icap_x h) ((if xd <? 0 then 1 else 0) * Z.shiftl 1 d))
  else
    mkH (x1 h ++ [xd])
        (Z.lor (cmask1 h) (Z.shiftl 1 (Z.of_nat (length (x1 h))) * Z.land (Z.shiftr cmask d) 1))
        (icapset_x h) (icap_x h).
Definition host (shell cmask : Z) (x : list Z) : hosting :=
  fold_left (host_step shell cmask) (combine (seq 0 (length x)) x) (mkH [] 0 0 0).

(** _invariant_imp.c:145-147, 155-156: the order of the two loops *)
Definition all_caps (ndim : nat) : list (Z * Z) :=
  let n := zrange 0 (Z.to_nat (Z.shiftl 1 (Z.of_nat ndim))) in
  flat_map (fun icap => map (fun icapset => (icap, icapset)) n) n.
(** _invariant_imp.c:181-186 (the cache only avoids computing this again) *)
Definition cap_size (ndim : nat) (shell cmask icapset : Z) : Z :=
  let n := get_nbits icapset in
  let nhalf := get_nbits (Z.land cmask (Z.lnot icapset)) in
  ipow (2 * shell + 1 - 2) (Z.to_nat (Z.of_nat ndim - n - nhalf)) * ipow shell (Z.to_nat nhalf).

(** _invariant_imp.c:155-193; [sub] solves the problem inside the hosting cap *)
Fixpoint walk (size : Z -> Z) (cmask max_length : Z) (h : hosting) (sub : Z -> Z) (caps : list (Z * Z)) (ind : Z) : Z :=
  match caps with
  | [] => -1
  | (icap, icapset) :: rest =>
      if negb (Z.land icap (Z.lnot icapset) =? 0) then walk size cmask max_length h sub rest ind
      else if negb (Z.land icap cmask =? 0) then walk size cmask max_length h sub rest ind
      else if (icap =? icap_x h) && (icapset =? icapset_x h) then
        let max_length1 := if max_length >=? 0 then max_length - ind else -1 in
        let subind := sub max_length1 in
        if subind =? -1 then -1
        else if (max_length >=? 0) && (ind + subind >=? max_length) then -1 else ind + subind
      else
        let ind := ind + size icapset in
        if (max_length >=? 0) && (ind >=? max_length) then -1
        else walk size cmask max_length h sub rest ind
  end.

(** _invariant_imp.c:60-195; the problem inside a cap has fewer axes, so that the
    recursion is at most as deep as the number of axes *)
Fixpoint invariant_index (fuel : nat) (x : list Z) (cmask max_length : Z) : Z :=
  let shell := absmax x in
  if shell =? 0 then 0
  else if in_ignored_half x cmask then -1
  else match fuel with
       | O => -1
       | S fuel =>
           let h := host shell cmask x in
           walk (cap_size (length x) shell cmask) cmask max_length h (invariant_index fuel (x1 h) (cmask1 h)) (all_caps (length x)) 0
       end.
Definition pmesh_get_invariant_index (x : list Z) (cmask max_length : Z) : Z := invariant_index (length x) x cmask max_length.

(** _invariant.pyx:18-53 for one point; // of cython rounds down *)
Definition fold_nyquist (N xd : Z) : Z := if xd =? (- N) / 2 then N / 2 else xd.
Definition out_of_mesh (N xd : Z) : bool := (xd >? N / 2) || (xd <? (- N) / 2).
Definition get_index (Nmesh x : list Z) (compressed : bool) (maxlength : option Z) : Z :=
  let ml := match maxlength with Some m => m | None => -1 end in
  let cmask := if compressed then Z.shiftl 1 (Z.of_nat (length x) - 1) else 0 in
  let xi := map (fun p => fold_nyquist (fst p) (snd p)) (combine Nmesh x) in
  if existsb (fun p => out_of_mesh (fst p) (snd p)) (combine Nmesh xi) then -1
  else pmesh_get_invariant_index xi cmask ml.

