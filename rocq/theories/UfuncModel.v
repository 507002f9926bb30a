(** Arithmetic on fields: operators and numpy functions of fields, numbers and arrays
    (pmesh/pm.py:156-208), on the memory of BufferModel.v.

    The operators of a Field are those of numpy's NDArrayOperatorsMixin: [a + b] is
    numpy.add(a, b) and [a += b] is a = numpy.add(a, b, out=(a,)).  numpy passes such a call to the
    __array_ufunc__ of the first operand, then output, that is a Field.  Only calls with one output,
    a Field if it is given, are modelled (not the methods reduce, at, ...).  All ranks compute
    on their own part; memory is read on all ranks before it is written, which is the same since
    ranks do not share memory. *)
From Coq Require Import List Arith ZArith Lia Bool.
From Verif Require Import Base ListFacts LayoutModel MeshRoute MeshTile RingModel FieldModel FourierModel BufferModel.
Import ListNotations.
Local Open Scope Z_scope.

Section Ufunc.
Variable K : cring.
Local Notation C := (cpx K).

(** an array on one rank; real and boolean values have no imaginary part *)
Inductive kind := BoolK | RealK | ComplexK.
Record nda := mkNd { nd_kind : kind; nd_shape : list Z; nd_val : list Z -> C }.
(** a numpy function: the type of its result and the function of the elements *)
Record ufunc := mkUf { uf_kind : list kind -> kind; uf_fun : list C -> C }.
(** numpy's broadcasting: shapes are aligned at their last axes, axes of length one are repeated *)
Definition bdim (a b : Z) : option Z :=
  if a =? b then Some a else if a =? 1 then Some b else if b =? 1 then Some a else None.
Fixpoint brev (a b : list Z) : option (list Z) :=
  match a, b with
  | [], _ => Some b
  | _, [] => Some a
  | x :: a', y :: b' => match bdim x y, brev a' b' with Some d, Some r => Some (d :: r) | _, _ => None end
  end.
Definition broadcast (a b : list Z) : option (list Z) := option_map (@rev Z) (brev (rev a) (rev b)).
Fixpoint broadcast_all (shapes : list (list Z)) : option (list Z) :=
  match shapes with
  | [] => Some []
  | s :: r => match broadcast_all r with Some t => broadcast s t | None => None end
  end.
Definition bindex (shape idx : list Z) : list Z :=
  map (fun p => if fst p =? 1 then 0 else snd p) (combine shape (skipn (length idx - length shape) idx)).
(** a number of the type [k] *)
Definition as_kind (k : kind) (z : C) : C := match k with ComplexK => z | _ => cof (re z) end.
Definition apply_ufunc (u : ufunc) (args : list nda) : outcome nda :=
  match broadcast_all (map nd_shape args) with
  | None => Raise ValueError
  | Some s =>
      let k := uf_kind u (map nd_kind args) in
      Ret (mkNd k s (fun idx => as_kind k (uf_fun u (map (fun a => nd_val a (bindex (nd_shape a) idx)) args))))
  end.

(** pm.py:167, 172-179: fields, numbers and arrays (one on each rank); anything else *)
Inductive operand := OpField (f : field K) | OpNumber (k : kind) (z : C) | OpArray (ranks : list nda) | OpOther.
Definition block_of (f : field K) (r : nat) : list Z * list Z := nth r (me_blocks K (fl_mesh K f) (fl_type K f)) ([], []).
Definition type_kind (t : ftype) : kind := match t with RealT => RealK | _ => ComplexK end.
(** x.value (pm.py:182-183) *)
Definition value_at (m : memory K) (f : field K) (c : list Z) : C :=
  match fl_type K f with RealT => cof (real_at K m f c) | _ => complex_at K m f c end.
Definition field_value (m : memory K) (f : field K) (r : nat) : nda :=
  let b := block_of f r in
  mkNd (type_kind (fl_type K f)) (snd b) (fun i => value_at m f (zadd (fst b) i)).
Definition operand_value (m : memory K) (r : nat) (o : operand) : outcome nda :=
  match o with
  | OpField f => Ret (field_value m f r)
  | OpNumber k z => Ret (mkNd k [] (fun _ => z))
  | OpArray l => Ret (nth r l (mkNd RealK [] (fun _ => c0)))
  | OpOther => Raise TypeError
  end.
Fixpoint operand_values (m : memory K) (r : nat) (l : list operand) : outcome (list nda) :=
  match l with
  | [] => Ret []
  | o :: l => bind (operand_value m r o) (fun a => bind (operand_values m r l) (fun l => Ret (a :: l)))
  end.
(** value[...] = array on one rank *)
Definition put_value (m : memory K) (f : field K) (r : nat) (a : nda) : memory K :=
  let b := block_of f r in
  match fl_type K f with
  | RealT => put_real K m f [mkL (fst b) (snd b) (map (fun i => re (nd_val a i)) (cells_of (snd b)))]
  | _ => put_complex K m f [mkL (fst b) (snd b) (map (nd_val a) (cells_of (snd b)))]
  end.
(** numpy refuses to write complex numbers into a real output *)
Definition can_cast (k : kind) (t : ftype) : bool :=
  match k, t with ComplexK, RealT => false | _, _ => true end.
(** what the call of numpy leaves in the output, or returns *)
Definition to_output (out : field K) (r : nat) (a : nda) : outcome nda :=
  let s := snd (block_of out r) in
  if can_cast (nd_kind a) (fl_type K out) then
    match broadcast (nd_shape a) s with
    | Some s' => if list_eq_dec Z.eq_dec s' s then Ret (mkNd (nd_kind a) s (fun i => nd_val a (bindex (nd_shape a) i)))
                 else Raise ValueError
    | None => Raise ValueError
    end
  else Raise TypeError.
Definition computed (m : memory K) (u : ufunc) (inputs : list operand) (out : option (field K)) (r : nat) : outcome nda :=
  bind (operand_values m r inputs) (fun args => bind (apply_ufunc u args) (fun a =>
    match out with None => Ret a | Some o => to_output o r a end)).
Definition put_all (m : memory K) (f : field K) (l : list (nat * nda)) : memory K :=
  fold_left (fun m ra => put_value m f (fst ra) (snd ra)) l m.
(** the first field of the call *)
Fixpoint first_field (inputs : list operand) (out : option (field K)) : option (field K) :=
  match inputs with
  | [] => out
  | OpField f :: _ => Some f
  | _ :: l => first_field l out
  end.
(** pm.py:189-199: [cast] *)
Inductive result := RField (f : field K) | RArray (a : nda).
Definition is_field_result (self : field K) (r : nat) (a : nda) : bool :=
  match nd_kind a with
  | BoolK => false
  | _ => if list_eq_dec Z.eq_dec (nd_shape a) (snd (block_of self r)) then true else false
  end.
Definition ret_list {A} (l : list (nat * outcome A)) : list (nat * A) :=
  flat_map (fun ra => match snd ra with Ret a => [(fst ra, a)] | _ => [] end) l.
(** pm.py:169-208, on all ranks *)
Definition call (st : state K) (u : ufunc) (inputs : list operand) (out : option (field K)) : list (outcome result) * state K :=
  match first_field inputs out with
  | None => ([], st)
  | Some self =>
      let ranks := seq 0 (length (me_blocks K (fl_mesh K self) (fl_type K self))) in
      let results := map (fun r => (r, computed (st_mem K st) u inputs out r)) ranks in
      (* numpy writes the output and returns it *)
      let m1 := match out with None => st_mem K st | Some o => put_all (st_mem K st) o (ret_list results) end in
      let results := map (fun ra => (fst ra, bind (snd ra) (fun a =>
                       Ret match out with None => a | Some o => field_value m1 o (fst ra) end))) results in
      (* self.pm.create(type(self), value=result) *)
      let new := mkF K (fl_mesh K self) (fl_type K self) (st_next K st) in
      let fields := filter (fun ra => is_field_result self (fst ra) (snd ra)) (ret_list results) in
      let m2 := put_all m1 new fields in
      (map (fun ra => bind (snd ra) (fun a => Ret (if is_field_result self (fst ra) a then RField new else RArray a))) results,
       mkS K m2 (match fields with [] => st_next K st | _ => S (st_next K st) end))
  end.
End Ufunc.
