(** Model of the deprecated painter for any kernel, pmesh/lanczos.py.
    Simplifications.  Those of LegacyModel.v; a window is a function on rationals together with
    its attributes [support] and [integral].  The kernels linear and cubic are modelled; lanczos
    and kaiser, which use sinc and the Bessel function i0, are covered as far as the theorems
    are about any kernel. *)
From Coq Require Import List Arith ZArith QArith Qabs Qround Lia Bool.
From Verif Require Import Base WrapModel WindowModel WindowApi LegacyModel.
Import ListNotations.
Local Open Scope Q_scope.

(** a window with its attributes; the support is at least one *)
Record lz_window := { lz_kernel : Q -> Q; lz_support : nat; lz_integral : Q }.
(** lanczos.py:11-17 *)
Definition lz_linear_kernel (dx : Q) : Q :=
  let dx := Qabs dx in if Qltb 1 dx then 0 else 1 - dx.
Definition lz_linear : lz_window := {| lz_kernel := lz_linear_kernel; lz_support := 1; lz_integral := 1 |}.
(** lanczos.py:19-31 *)
Definition lz_cubic_kernel (alpha dx : Q) : Q :=
  let dx := Qabs dx in
  let v1 := (alpha + 2) * (dx * dx * dx) - (alpha + 3) * (dx * dx) + 1 in
  let v2 := alpha * (dx * dx * dx) - 5 * alpha * (dx * dx) + 8 * alpha * dx - 4 * alpha in
  if Qltb 2 dx then 0 else if Qle_bool 1 dx then v2 else v1.
Definition lz_cubic : lz_window := {| lz_kernel := lz_cubic_kernel (-(1#2)); lz_support := 2; lz_integral := 1 |}.

(** lanczos.py:99-102: digit [d] of [i] in base [2 * support], less [support - 1] *)
Definition lz_digits (s : nat) (d n : nat) (i : Z) : list Z :=
  map (fun e => ((i / (2 * Z.of_nat s) ^ Z.of_nat e) mod (2 * Z.of_nat s) - (Z.of_nat s - 1))%Z) (seq d n).
Definition lz_neighbours (s ndim : nat) : list (list Z) :=
  map (lz_digits s 0 ndim) (zrange 0 (Nat.pow (2 * s) ndim)).
(** lanczos.py:122: the product over the axes *)
Definition lz_product (w : lz_window) (grid : list Q) (neighbour : list Z) : Q :=
  fold_left (fun k gn => k * lz_kernel w (fst gn - inject_Z (Qfloor (fst gn) + snd gn))) (combine grid neighbour) 1.
(** lanczos.py:119-142, one neighbour of one chunk; [rows] are grid position and weight *)
Definition lz_add (w : lz_window) (real : array) (raise : bool) (period : option (list Z)) (rows : list (list Q * Q)) (neighbour : list Z)
    : option (list op) :=
  let targets := map (fun r => (np_target period (fst r) neighbour, snd r * (lz_product w (fst r) neighbour / lz_integral w))) rows in
  let kept := if raise then targets else filter (fun t => in_shape (ar_shape real) (fst t)) targets in
  match sequence (map (fun t => ravel_multi_index (ar_shape real) (fst t)) kept) with
  | None => None
  | Some index =>
      let u := np_unique index in
      let sums := bincount (map (fun i => position_of i u) index) (map snd kept) (length u) in
      Some (map (fun us => (flat_address real (fst us), snd us)) (combine u sums))
  end.
(** lanczos.py:63-144: the mesh afterwards, and whether it returned (or raised ValueError) *)
Definition lz_paint (w : lz_window) (size : nat) (real : array) (m : memory) (pos : list (list Q)) (weights : value Q)
    (raise : bool) (period : option (list Z)) (transform : list Q -> list Q) : memory * outcome unit :=
  let rows := combine (map transform pos) (weights_of weights (length pos)) in
  let '(m, fine) := until_none (fun kn => lz_add w real raise period (chunk size (fst kn) rows) (snd kn))
     (list_prod (seq 0 (chunk_count size (length pos))) (lz_neighbours (lz_support w) (length (ar_shape real)))) m in
  (m, if fine then Ret tt else Raise ValueError).
