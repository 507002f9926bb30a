(** Model of the deprecated painters: pmesh/cic.py (numpy), pmesh/_cic.py (numba), pmesh/tsc.py (numba).

    Simplifications.  Doubles are exact rationals, C ints unbounded.  [transform] acts on
    one position at a time.  The size of the chunks is an argument, the item size of the mesh
    is an argument.  The mode is "raise" or "ignore".  All positions have as many
    coordinates as the mesh has dimensions.  Adding to the mesh is a list of operations
    [(where, how much)], applied in order. *)
From Coq Require Import List Arith ZArith QArith Qabs Qround Lia Bool.
From Verif Require Import Base WrapModel WindowModel WindowApi.
Import ListNotations.
Local Open Scope Q_scope.

(** ** numpy arrays *)
(** [mesh.flags['C_CONTIGUOUS']]: the strides of axes of length one do not matter, an array
    without elements is contiguous *)
Fixpoint contiguous_from (isz : Z) (shape strides : list Z) : bool :=
  match shape, strides with
  | n :: shape', s :: strides' =>
      ((n =? 1) || (s =? isz * fold_right Z.mul 1 shape'))%Z && contiguous_from isz shape' strides'
  | _, _ => true
  end.
Definition contiguous (isz : Z) (real : array) : bool :=
  existsb (fun n => (n =? 0)%Z) (ar_shape real) || contiguous_from isz (ar_shape real) (ar_strides real).
(** [numpy.unravel_index] *)
Fixpoint unravel (shape : list Z) (i : Z) : list Z :=
  match shape with
  | [] => []
  | _ :: shape' => let n := fold_right Z.mul 1%Z shape' in (i / n)%Z :: unravel shape' (i mod n)%Z
  end.
(** [numpy.ravel_multi_index(.., mode='raise')]; [None] is ValueError *)
Fixpoint ravel_from (shape idx : list Z) (acc : Z) : option Z :=
  match shape, idx with
  | n :: shape', i :: idx' => if (0 <=? i)%Z && (i <? n)%Z then ravel_from shape' idx' (acc * n + i)%Z else None
  | _, _ => Some acc
  end.
Definition ravel_multi_index (shape idx : list Z) : option Z := ravel_from shape idx 0%Z.
(** the address of [mesh.flat[i]] *)
Definition flat_address (real : array) (i : Z) : Z := byte_offset (ar_strides real) (unravel (ar_shape real) i).
(** [numpy.unique(a, return_inverse=True)] *)
Fixpoint insert_unique (x : Z) (l : list Z) : list Z :=
  match l with
  | [] => [x]
  | y :: r => if (x <? y)%Z then x :: l else if (x =? y)%Z then l else y :: insert_unique x r
  end.
Definition np_unique (l : list Z) : list Z := fold_right insert_unique [] l.
Fixpoint position_of (x : Z) (u : list Z) : nat :=
  match u with [] => O | y :: r => if (x =? y)%Z then O else S (position_of x r) end.
(** [numpy.bincount(label, add, minlength=n)], all labels being less than [n] *)
Definition bincount (labels : list nat) (adds : list Q) (n : nat) : list Q :=
  map (fun j => fold_left (fun s la => if (fst la =? j)%nat then s + snd la else s) (combine labels adds) 0) (seq 0 n).
(** [a[start:start+size]] for start in range(0, len(a), size) *)
Definition chunk {A} (size k : nat) (l : list A) : list A := firstn size (skipn (k * size) l).
Definition chunk_count (size n : nat) : nat := ((n + size - 1) / size)%nat.

(** ** cic.py *)
(** cic.py:39-40: the neighbours of dimension [ndim], bit [d] of [i] in column [d] *)
Definition neighbours (ndim : nat) : list (list Z) :=
  map (fun i => map (fun d => Z.land (Z.shiftr i (Z.of_nat d)) 1) (seq 0 ndim)) (zrange 0 (Nat.pow 2 ndim)).
(** cic.py:58-65: one target, its kernel; [numpy.remainder], by zero it is zero *)
Definition np_remainder (a p : Z) : Z := if (p =? 0)%Z then 0%Z else (a mod p)%Z.
Definition np_target (period : option (list Z)) (grid : list Q) (neighbour : list Z) : list Z :=
  let target := map (fun gn => (Qfloor (fst gn) + snd gn)%Z) (combine grid neighbour) in
  match period with
  | None => target
  | Some p => map (fun tp => np_remainder (fst tp) (snd tp)) (combine target p)
  end.
Definition np_kernel (grid : list Q) (neighbour : list Z) : Q :=
  fold_left (fun k gn => k * (1 - Qabs (fst gn - inject_Z (Qfloor (fst gn) + snd gn)))) (combine grid neighbour) 1.
(** cic.py:67-71 *)
Definition in_shape (shape idx : list Z) : bool :=
  forallb (fun i => (0 <=? i)%Z) idx && forallb (fun ni => (snd ni <? fst ni)%Z) (combine shape idx).
(** cic.py:57-79, one neighbour of one chunk; [rows] are grid position and weight *)
Definition np_add (real : array) (raise : bool) (period : option (list Z)) (rows : list (list Q * Q)) (neighbour : list Z)
    : option (list op) :=
  let targets := map (fun r => (np_target period (fst r) neighbour, snd r * np_kernel (fst r) neighbour)) rows in
  let kept := if raise then targets else filter (fun t => in_shape (ar_shape real) (fst t)) targets in
  match sequence (map (fun t => ravel_multi_index (ar_shape real) (fst t)) kept) with
  | None => None
  | Some index =>
      let u := np_unique index in
      let sums := bincount (map (fun i => position_of i u) index) (map snd kept) (length u) in
      Some (map (fun us => (flat_address real (fst us), snd us)) (combine u sums))
  end.
(** one after the other until one fails; what was done before stays *)
Fixpoint until_none {A} (step : A -> option (list op)) (l : list A) (m : memory) : memory * bool :=
  match l with
  | [] => (m, true)
  | a :: r => match step a with
              | Some ops => until_none step r (run m ops)
              | None => (m, false)
              end
  end.
(** the weights of a chunk: one for all, or one each (cic.py:43-46) *)
Definition weights_of (w : value Q) (n : nat) : list Q := match w with Scalar a => repeat a n | Array l => l end.
(** cic.py:11-81: the mesh afterwards, and whether it returned (or raised ValueError) *)
Definition np_paint (size : nat) (real : array) (m : memory) (pos : list (list Q)) (weights : value Q)
    (raise : bool) (period : option (list Z)) (transform : list Q -> list Q) : memory * outcome unit :=
  let rows := combine (map transform pos) (weights_of weights (length pos)) in
  let '(m, fine) := until_none (fun kn => np_add real raise period (chunk size (fst kn) rows) (snd kn))
     (list_prod (seq 0 (chunk_count size (length pos))) (neighbours (length (ar_shape real)))) m in
  (m, if fine then Ret tt else Raise ValueError).
(** cic.py:112-136, the values added to the entries of a chunk: [None] for those masked out *)
Definition np_read (real : array) (m : memory) (raise : bool) (period : option (list Z)) (rows : list (list Q)) (neighbour : list Z)
    : option (list (option Q)) :=
  let targets := map (fun g => (np_target period g neighbour, np_kernel g neighbour)) rows in
  let mask t := raise || in_shape (ar_shape real) (fst t) in
  match sequence (map (fun t => ravel_multi_index (ar_shape real) (fst t)) (filter mask targets)) with
  | None => None
  | Some _ => Some (map (fun t => if mask t then match ravel_multi_index (ar_shape real) (fst t) with
                                              | Some i => Some (snd t * m (flat_address real i))
                                              | None => None
                                              end
                                  else None) targets)
  end.
(** cic.py:83-137 with out=None *)
Definition add_option (a : Q) (b : option Q) : Q := match b with Some b => a + b | None => a end.
Fixpoint np_read_chunk (real : array) (m : memory) (raise : bool) (period : option (list Z)) (rows : list (list Q))
    (ns : list (list Z)) (out : list Q) : option (list Q) :=
  match ns with
  | [] => Some out
  | n :: r => match np_read real m raise period rows n with
              | Some adds => np_read_chunk real m raise period rows r (map (fun ab => add_option (fst ab) (snd ab)) (combine out adds))
              | None => None
              end
  end.
Definition np_readout (size : nat) (real : array) (m : memory) (pos : list (list Q))
    (raise : bool) (period : option (list Z)) (transform : list Q -> list Q) : outcome (list Q) :=
  let grid := map transform pos in
  match sequence (map (fun k => let rows := chunk size k grid in
                       np_read_chunk real m raise period rows (neighbours (length (ar_shape real))) (map (fun _ => 0) rows))
                      (seq 0 (chunk_count size (length pos)))) with
  | Some l => Ret (concat l)
  | None => Raise ValueError
  end.

(** ** _cic.py *)
(** _cic.py:84-105, 126-147: neighbour [n] of a particle; [None] is [ignore] *)
Fixpoint nb_locate (d : nat) (pos : list Q) (shape period : list Z) (n : Z) (kernel : Q) (ind : Z) : option (Q * Z) :=
  match pos, shape, period with
  | x :: pos', s :: shape', p :: period' =>
      let intpos := Qfloor x in
      let diff := x - inject_Z intpos in
      let rel := Z.land (Z.shiftr n (Z.of_nat d)) 1 in
      let targetpos := (intpos + rel)%Z in
      let kernel := if (rel >? 0)%Z then kernel * diff else kernel * (1 - diff) in
      let targetpos := if (p >? 0)%Z then wrap_du p targetpos else targetpos in
      if (targetpos <? 0)%Z || (targetpos >=? s)%Z then None
      else nb_locate (S d) pos' shape' period' n kernel (ind * s + targetpos)%Z
  | _, _, _ => Some (kernel, ind)
  end.
Definition nb_all (shape period : list Z) (x : list Q) : list (option (Q * Z)) :=
  map (fun n => nb_locate 0 x shape period n 1 0%Z) (zrange 0 (Nat.pow 2 (length x))).
Definition hits {A B} (f : A -> B) (l : list (option A)) : list B :=
  flat_map (fun o => match o with Some a => [f a] | None => [] end) l.
Definition outside {A} (l : list (option A)) : nat := length (filter (fun o => match o with Some _ => false | None => true end) l).
(** _cic.py:74-112: what is added to [meshflat], and the returned [outbound] *)
Definition nb_paint_some (shape period : list Z) (rows : list (list Q * Q)) : list op * nat :=
  (flat_map (fun r => hits (fun ki => (snd ki, snd r * fst ki)) (nb_all shape period (fst r))) rows,
   fold_right Nat.add 0%nat (map (fun r => outside (nb_all shape period (fst r))) rows)).
(** [mesh.ravel()] is the mesh itself when it is contiguous, otherwise a copy, and then the
    mesh is not changed *)
Definition run_flat (isz : Z) (real : array) (m : memory) (ops : list op) : memory :=
  if contiguous isz real then run m (map (fun o => (fst o * isz, snd o)%Z) ops) else m.
(** _cic.py:56-60 *)
Definition nb_period (ndim : nat) (period : option (list Z)) : list Z :=
  match period with None => repeat 0%Z ndim | Some p => p end.
(** _cic.py:11-14, 62-73 *)
Fixpoint nb_paint_loop (isz : Z) (real : array) (raise : bool) (period : list Z) (rows : list (list Q * Q)) (size : nat) (ks : list nat) (m : memory)
    : memory * outcome unit :=
  match ks with
  | [] => (m, Ret tt)
  | k :: r => let '(ops, outbound) := nb_paint_some (ar_shape real) period (chunk size k rows) in
              let m := run_flat isz real m ops in
              if negb (outbound =? 0)%nat && raise then (m, Raise ValueError)
              else nb_paint_loop isz real raise period rows size r m
  end.
Definition nb_paint (size : nat) (isz : Z) (real : array) (m : memory) (pos : list (list Q)) (weights : option (value Q))
    (raise : bool) (period : option (list Z)) (transform : list Q -> list Q) : memory * outcome unit :=
  let w := match weights with Some w => w | None => Scalar 1 end in
  let rows := combine (map transform pos) (weights_of w (length pos)) in
  nb_paint_loop isz real raise (nb_period (length (ar_shape real)) period) rows size (seq 0 (chunk_count size (length pos))) m.
(** _cic.py:116-154: the value of a particle, [meshflat] being a view or a copy *)
Definition nb_read_one (real : array) (m : memory) (period : list Z) (x : list Q) : Q :=
  fold_left (fun tmp o => match o with Some (kernel, ind) => tmp + m (flat_address real ind) * kernel | None => tmp end)
    (nb_all (ar_shape real) period x) 0.
(** _cic.py:16-20 with out=None: when one chunk raises, nothing is returned *)
Definition nb_readout (size : nat) (real : array) (m : memory) (pos : list (list Q))
    (raise : bool) (period : option (list Z)) (transform : list Q -> list Q) : outcome (list Q) :=
  let grid := map transform pos in
  let p := nb_period (length (ar_shape real)) period in
  match sequence (map (fun k => let rows := chunk size k grid in
                       if raise && negb (fold_right Nat.add 0%nat (map (fun x => outside (nb_all (ar_shape real) p x)) rows) =? 0)%nat then None
                       else Some (map (nb_read_one real m p) rows))
                      (seq 0 (chunk_count size (length pos)))) with
  | Some l => Ret (concat l)
  | None => Raise ValueError
  end.

(** ** tsc.py *)
(** [numpy.rint]: half way cases go to the even number *)
Definition rint (x : Q) : Z :=
  let f := Qfloor (x + (1#2)) in
  if Qeq_bool (inject_Z f) (x + (1#2)) && Z.odd f then (f - 1)%Z else f.
(** tsc.py:80-105 *)
Fixpoint ts_locate (d : nat) (pos : list Q) (shape strides : list Z) (period n : Z) (kernel : Q) (ind : Z) : option (Q * Z) :=
  match pos, shape, strides with
  | x :: pos', s :: shape', st :: strides' =>
      let intpos := rint x in
      let diff := inject_Z intpos - x in
      let rel := ((n / 3 ^ Z.of_nat d) mod 3 - 1)%Z in
      let targetpos := (intpos + rel - 1)%Z in
      let kernel := if (rel =? -1)%Z then kernel * ((1#2) * ((1#2) + diff) * ((1#2) + diff))
                    else if (rel =? 0)%Z then kernel * ((3#4) - diff * diff)
                    else kernel * ((1#2) * ((1#2) - diff) * ((1#2) - diff)) in
      let targetpos := if (period >? 0)%Z then wrap_du period targetpos else targetpos in
      if (targetpos <? 0)%Z || (targetpos >=? s)%Z then None
      else ts_locate (S d) pos' shape' strides' period n kernel (ind + st * targetpos)%Z
  | _, _, _ => Some (kernel, ind)
  end.
Definition ts_all (real : array) (period : Z) (x : list Q) : list (option (Q * Z)) :=
  map (fun n => ts_locate 0 x (ar_shape real) (ar_strides real) period n 1 0%Z) (zrange 0 (Nat.pow 3 (length x))).
(** tsc.py:69-112; [int(ind/itemsize)] *)
Definition ts_paint_some (isz : Z) (real : array) (period : Z) (rows : list (list Q * Q)) : list op * nat :=
  (flat_map (fun r => hits (fun ki => (trunc (inject_Z (snd ki) / inject_Z isz), snd r * fst ki)) (ts_all real period (fst r))) rows,
   fold_right Nat.add 0%nat (map (fun r => outside (ts_all real period (fst r))) rows)).
Fixpoint ts_paint_loop (isz : Z) (real : array) (raise : bool) (period : Z) (rows : list (list Q * Q)) (size : nat) (ks : list nat) (m : memory)
    : memory * outcome unit :=
  match ks with
  | [] => (m, Ret tt)
  | k :: r => let '(ops, outbound) := ts_paint_some isz real period (chunk size k rows) in
              let m := run_flat isz real m ops in
              if negb (outbound =? 0)%nat && raise then (m, Raise ValueError)
              else ts_paint_loop isz real raise period rows size r m
  end.
(** tsc.py:11-14, 44-67: only one period for all axes *)
Definition ts_paint (size : nat) (isz : Z) (real : array) (m : memory) (pos : list (list Q)) (weights : option (value Q))
    (raise : bool) (period : option Z) (transform : list Q -> list Q) : memory * outcome unit :=
  let w := match weights with Some w => w | None => Scalar 1 end in
  if negb (contiguous isz real) then (m, Raise ValueError)
  else let rows := combine (map transform pos) (weights_of w (length pos)) in
       ts_paint_loop isz real raise (match period with None => 0%Z | Some p => p end) rows size (seq 0 (chunk_count size (length pos))) m.
(** tsc.py:16-20: there is no [readout_some] in the module *)
Definition ts_readout (pos : list (list Q)) : outcome (list Q) := Raise NameError.
