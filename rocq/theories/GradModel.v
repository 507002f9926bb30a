(** Model of abopt.check_grad (pmesh/abopt.py:288-386): the comparison of the jvp, the vjp and
    the difference quotient of a scalar function, entry by entry.  Numbers are real numbers
    (the code computes in floating point).  The library abopt is not modelled: the function
    [y], its jvp and its gradient enter as arguments. *)
From Coq Require Import List Arith ZArith Lia Bool Reals.
From Verif Require Import EngineModel Base ListFacts LayoutModel WrapModel DomainModel DomainFill MeshModel MeshTile RingModel FieldModel FourierReal.
Import ListNotations.
Local Open Scope R_scope.

(** ** the statistics, abopt.py:361-377 *)
(** numpy.mean and numpy.std *)
Definition mean (l : list R) : R := rsum (K := Rring) (fun x => x) l / INR (length l).
Definition std (l : list R) : R := sqrt (mean (map (fun x => (x - mean l) ^ 2) l)).

(** a quotient of numpy: a number, an infinity of either sign, or nan *)
Inductive quotient := Number (x : R) | Infinite (negative : bool) | NaN.
Definition divide (a b : R) : quotient :=
  if Req_EM_T b 0 then
    if Req_EM_T a 0 then NaN else Infinite (if Rlt_dec a 0 then true else false)
  else Number (a / b).

(** numpy.digitize for increasing bins: how many bins are not above the number; nan counts as
    above all of them *)
Definition digitize (x : quotient) (bins : list R) : nat :=
  match x with
  | Number x => length (filter (fun b => if Rle_dec b x then true else false) bins)
  | Infinite true => 0
  | Infinite false | NaN => length bins
  end.

Definition bins : list R := [-100; -50; -20; -1; 1; 20; 50; 100].

(** abopt.py:365-366: [abs(g) + (abs(g) == 0) * numpy.std(g)] *)
Definition weights (g : list R) : list R :=
  map (fun x => Rabs x + (if Req_EM_T (Rabs x) 0 then 1 else 0) * std g) g.

(** abopt.py:361-370; [stat] lists the pairs to compare *)
Definition errorstat (stat : list (R * R)) (rtol atol : R) : list nat :=
  let g1 := map fst stat in
  let g2 := map snd stat in
  let scale := map2 Rplus (weights g1) (weights g2) in
  map2 (fun d s => digitize (divide d (s * rtol + atol)) bins) (map2 Rminus g1 g2) scale.

(** abopt.py:372-380; the message of the exception is not modelled *)
Inductive verdict := Passed | FG_BG | NG_BG.
Definition judge (fg ng : list (R * R)) (rtol atol : R) : verdict :=
  let bad := fun d => negb (Nat.eqb d 4) in
  if existsb bad (errorstat fg rtol atol) then FG_BG
  else if existsb bad (errorstat ng (rtol * 10000) atol) then NG_BG
  else Passed.

(** ** an array of particles, abopt.py:292-319 *)
Definition particles := list (list (list R)).

(** abopt.py:295-307; allgather of the numbers of rows, [start] and [end] of the rank *)
Definition cperturb (pos : particles) (ind : nat * nat) (eps : R) : particles :=
  let sizes := map (@length _) pos in
  map (fun rp =>
         let start := list_sum (firstn (fst rp) sizes) in
         let stop := list_sum (firstn (fst rp + 1) sizes) in
         if Nat.leb start (fst ind) && Nat.ltb (fst ind) stop
         then upd (fst ind - start) (upd (snd ind) (fun old => old + eps)) (snd rp)
         else snd rp)
      (combine (seq 0 (length pos)) pos).

(** abopt.py:309-319; [None] is the marker ZERO *)
Definition cget (pos : option particles) (ind : nat * nat) : R :=
  match pos with
  | None => 0
  | Some pos =>
      let sizes := map (@length _) pos in
      rsum (K := Rring)
        (fun rp =>
           let start := list_sum (firstn (fst rp) sizes) in
           let stop := list_sum (firstn (fst rp + 1) sizes) in
           if Nat.leb start (fst ind) && Nat.ltb (fst ind) stop
           then nth (snd ind) (nth (fst ind - start) (snd rp) []) 0 else 0)
        (combine (seq 0 (length pos)) pos)
  end.

(** numpy.ndindex(n, nd) *)
Definition ndindex (n nd : nat) : list (nat * nat) := list_prod (seq 0 n) (seq 0 nd).

(** abopt.py:333-380 for an array with [nd] columns that has the shape of engine.q on every
    rank (293); [y] and [jvp] are collective and give the same number on all ranks *)
Definition check_particles (nd : nat) (y : particles -> R) (jvp : particles -> R) (_x : option particles)
    (center : particles) (eps rtol atol : R) : verdict :=
  let indices := ndindex (list_sum (map (@length _) center)) nd in
  let base index := map2 (map2 (map2 Rminus)) (cperturb center index eps) (cperturb center index (- eps)) in
  judge (map (fun index => (jvp (base index), cget _x index * 2 * eps)) indices)
        (map (fun index => (y (cperturb center index eps) - y (cperturb center index (- eps)), cget _x index * 2 * eps)) indices)
        rtol atol.

(** ** a RealField, abopt.py:321-331 *)
Definition rfield := list (lfield (cpx Rring)).

(** a collective call that returned on all ranks *)
Definition returned {A} (l : list (outcome A)) : option (list A) := all_ret l.

(** abopt.py:323-325; all ranks get the same number, the first is looked at *)
Definition fget (real : option rfield) (Nmesh index : list Z) : option R :=
  match real with
  | None => Some 0
  | Some real => match returned (cgetitem Rring false Nmesh real index) with
                 | Some (v :: _) => Some (re v)
                 | _ => None
                 end
  end.
(** abopt.py:327-331; every rank adds eps to the number it got *)
Definition fperturb (real : rfield) (Nmesh index : list Z) (eps : R) : option rfield :=
  match returned (cgetitem Rring false Nmesh real index) with
  | Some (old :: _) =>
      match returned (csetitem Rring false Nmesh real index (cadd old (cof (eps : Rring)))) with
      | Some rs => Some (map fst rs)
      | None => None
      end
  | _ => None
  end.
Definition fminus (a b : rfield) : rfield :=
  map2 (fun L M => mkL (lstart L) (lshape L) (map2 csub (lvals L) (lvals M))) a b.

(** the two rows the loop appends for one index, abopt.py:343-359 *)
Definition frow (y jvp : rfield -> R) (_x : option rfield) (Nmesh : list Z) (center : rfield) (eps : R) (index : list Z)
    : option ((R * R) * (R * R)) :=
  match fperturb center Nmesh index eps, fperturb center Nmesh index (- eps), fget _x Nmesh index with
  | Some x1, Some x0, Some analytic =>
      Some ((jvp (fminus x1 x0), analytic * 2 * eps), (y x1 - y x0, analytic * 2 * eps))
  | _, _, _ => None
  end.
(** [None]: a rank raised in a collective call *)
Definition check_field (y jvp : rfield -> R) (_x : option rfield) (Nmesh : list Z) (center : rfield) (eps rtol atol : R)
    : option verdict :=
  match sequence (map (frow y jvp _x Nmesh center eps) (cells_of Nmesh)) with
  | Some rows => Some (judge (map fst rows) (map snd rows) rtol atol)
  | None => None
  end.
