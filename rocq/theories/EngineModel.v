(** Model of pmesh/abopt.py: the statements of ParticleMeshEngine that act on fields and
    arrays element by element or mode by mode, with their vjp and jvp, and
    ParticleMeshVectorSpace.  (The paint and readout statements are in EnginePaint.v.)
    Numbers are those of an arbitrary commutative ring, as in FieldModel.v.
    The library abopt (vmad2), which calls the statements, is not modelled: a statement is the
    function from the contents of its input variables to those of its output variables; in a
    vjp the input variables are the cotangents [_y] of the outputs and the output variables the
    cotangents [_x] of the inputs, in a jvp tangents [y_], [x_].  A variable that is both input
    and output has one name and is overwritten.  The marker ZERO is not modelled. *)
From Coq Require Import List Arith ZArith QArith Lia Bool.
From Verif Require Import Base ListFacts LayoutModel WrapModel DomainModel DomainFill MeshModel MeshRoute MeshTile RingModel FieldModel FourierModel FloatModel.
Import ListNotations.
Local Close Scope Q_scope.
Local Open Scope Z_scope.

(** ** arrays of numbers *)
Section Arrays.
Variable R : cring.
Local Open Scope rg_scope.
(** the flat values of a RealField or a numpy array on every rank.  numpy refuses or
    broadcasts arrays of different shapes; the statements below take equal shapes. *)
Definition world := list (list R).
Definition each (f : R -> R) (x : world) : world := map (map f) x.
Definition each2 (f : R -> R -> R) (x y : world) : world := map2 (map2 f) x y.
(** [comm.allreduce] of one number per rank *)
Definition allsum (x : list R) : R := rsum (fun a => a) x.

(** abopt.py:240-251 *)
Definition add (x1 x2 : world) : world := each2 radd x1 x2.
Definition add_vjp (_y : world) : world * world := (_y, _y).
Definition add_jvp (x1_ x2_ : world) : world := each2 radd x1_ x2_.

(** abopt.py:253-264 *)
Definition multiply (x1 x2 : world) : world := each2 rmul x1 x2.
Definition multiply_vjp (_y x1 x2 : world) : world * world := (each2 rmul _y x2, each2 rmul _y x1).
Definition multiply_jvp (x1_ x2_ x1 x2 : world) : world := each2 radd (each2 rmul x1_ x2) (each2 rmul x1 x2_).

(** abopt.py:198-213; [inv] is the reciprocal, [x / sigma] is [x * inv sigma] *)
Definition over (inv : R -> R) (x sigma : world) : world := each2 (fun a s => a * inv s) x sigma.
Definition residual (inv : R -> R) (model data sigma : world) : world := over inv (each2 rsub model data) sigma.
Definition residual_vjp (inv : R -> R) (_residual data sigma : world) : world := over inv _residual sigma.
Definition residual_jvp (inv : R -> R) (model_ data sigma : world) : world := over inv model_ sigma.

(** abopt.py:227-238: [y_[...] = x.copy()], then [y_[...][...] = x_] *)
Definition assign (x : world) : world := x.
Definition assign_vjp (_y : world) : world := _y.
Definition assign_jvp (x_ x : world) : world := each2 (fun _ b => b) x x_.

(** abopt.py:266-286 for a RealField (cnorm and cdot, pm.py:897-902) and for an array *)
Definition to_scalar (x : world) : R := allsum (map (fun l => rsum (fun a => a * a) l) x).
Definition to_scalar_vjp (_y : R) (x : world) : world := each (fun a => a * ((1 + 1) * _y)) x.
Definition to_scalar_jvp (x_ x : world) : R :=
  allsum (map (fun p => rsum (fun q => fst q * snd q) (combine (fst p) (snd p))) (combine x x_)) * (1 + 1).

(** abopt.py:215-225: [attribute[..., dim]]; the rows of the array on every rank *)
Definition rows := list (list (list R)).
Definition set_entry (dim : nat) (row : list R) (v : R) : list R := upd dim (fun _ => v) row.
Definition assign_component (dim : nat) (attribute : rows) (value : world) : rows := map2 (map2 (set_entry dim)) attribute value.
Definition component (dim : nat) (a : rows) : world := map (map (fun row => nth dim row 0)) a.
(** returns the contents of [_attribute] and [_value] after the call *)
Definition assign_component_vjp (dim : nat) (_attribute : rows) : rows * world := (_attribute, component dim _attribute).
Definition assign_component_jvp (dim : nat) (attribute_ : rows) (value_ : world) : rows := map2 (map2 (set_entry dim)) attribute_ value_.

(** abopt.py:23-42 for a RealField or an array [b], a number [c] and [p = 1], 2, ... *)
Fixpoint power (c : R) (p : nat) : R := match p with O => 1 | S p => c * power c p end.
Definition addmul (a b : world) (c : R) (p : nat) : world := each2 radd a (each (fun y => y * power c p) b).

(** numpy's [a.dot(b)]: vectors, and matrices of given numbers of columns *)
Inductive array := Vector (v : list R) | Matrix (cols : nat) (m : list (list R)).
Definition array_len (a : array) : nat := match a with Vector v => length v | Matrix _ m => length m end.
Definition inner (v w : list R) : R := rsum (fun q => fst q * snd q) (combine v w).
Definition np_dot (a b : array) : outcome array :=
  match a, b with
  | Vector v, Vector w => if (length v =? length w)%nat then Ret (Vector [inner v w]) else Raise ValueError
  | Vector v, Matrix c m => if (length v =? length m)%nat
      then Ret (Vector (map (fun j => inner v (map (fun row => nth j row 0) m)) (seq 0 c))) else Raise ValueError
  | Matrix c m, Vector w => if (c =? length w)%nat then Ret (Vector (map (fun row => inner row w) m)) else Raise ValueError
  | Matrix c m, Matrix d n => if (c =? length n)%nat
      then Ret (Matrix d (map (fun row => map (fun j => inner row (map (fun r => nth j r 0) n)) (seq 0 d)) m)) else Raise ValueError
  end.
(** abopt.py:52-55 on one rank: what is handed to allreduce; [rows_of_q] is [q.shape[0]] *)
Definition vs_dot_local (rows_of_q : nat) (a b : array) : outcome array :=
  if (array_len a =? array_len b)%nat && (array_len a =? rows_of_q)%nat then np_dot a b else Raise AssertionError.
End Arrays.

(** ** fields of modes *)
Section Modes.
Variable K : cring.
Local Notation C := (cpx K).
Local Open Scope rg_scope.
(** the wave vector [k] handed to the function of apply (pm.py:1202-1225); units are 2 pi / BoxSize *)
Definition wave (units : list K) (Nmesh i : list Z) : list K :=
  map (fun p => zin K (signed_index (fst (snd p)) (snd (snd p))) * fst p) (combine units (combine Nmesh i)).
(** [Field.apply(func, out=Ellipsis)] with func given the index of the mode (NdProperties.v, C64) *)
Definition on_modes (f : list Z -> C -> C) (L : lfield C) : lfield C :=
  mkL (lstart L) (lshape L) (map (fun p => f (fst p) (snd p)) (combine (lcells L) (lvals L))).

(** abopt.py:12-16; [is0] compares with zero *)
Definition nyquist_mask (is0 : K -> bool) (Nmesh i : list Z) (factor : C) : C :=
  if is0 (im factor) || negb (forallb (fun p => (snd p =? 0)%Z || (snd p =? fst p / 2)%Z) (combine Nmesh i))
  then factor else c0.
(** abopt.py:186-196 on one rank *)
Definition transfer (is0 : K -> bool) (units : list K) (Nmesh : list Z) (tf : list K -> C) : lfield C -> lfield C :=
  on_modes (fun i v => cmul (nyquist_mask is0 Nmesh i (tf (wave units Nmesh i))) v).
Definition transfer_vjp (is0 : K -> bool) (units : list K) (Nmesh : list Z) (tf : list K -> C) : lfield C -> lfield C :=
  on_modes (fun i v => cmul (nyquist_mask is0 Nmesh i (cconj (tf (wave units Nmesh i)))) v).
Definition transfer_jvp (is0 : K -> bool) (units : list K) (Nmesh : list Z) (tf : list K -> C) : lfield C -> lfield C :=
  on_modes (fun i v => cmul (nyquist_mask is0 Nmesh i (tf (wave units Nmesh i))) v).

(** abopt.py:109-113, exact: [|k| <= Neff // 2 * k0] in units of [k0 = 2 pi / BoxSize] *)
Definition low (Nmesh : list Z) (Neff : Z) (i : list Z) : bool :=
  forallb (fun p => (Z.abs (signed_index (fst p) (snd p)) <=? Neff / 2)%Z) (combine Nmesh i).
Definition lowpass_filter (Nmesh : list Z) (Neff : Z) : lfield C -> lfield C :=
  on_modes (fun i v => if low Nmesh Neff i then v else c0).
(** abopt.py:115-119, in place: r2c, apply and c2r write into the memory of [real]
    (BufferModel.v); Mid are the blocks of the complex field *)
Definition lowpass (Nmesh : list Z) (roots : list C) (invs : list K) (Neff : Z) (Mid : list (lfield C)) (real : list (lfield K)) : list (lfield K) :=
  c2r K Nmesh roots (map (lowpass_filter Nmesh Neff) (r2c K roots invs real Mid)) real.
(** abopt.py:121-125: [_real] after the call.  [c2r_vjp()] returns a new field and the
    in-place operations that follow act on this one *)
Definition lowpass_vjp (Nmesh : list Z) (roots : list C) (invs sizes : list K) (Neff : Z) (Mid : list (lfield C)) (_real : list (lfield K)) : list (lfield K) :=
  let tmp := c2r_vjp K roots invs sizes _real Mid in
  let tmp := map (lowpass_filter Nmesh Neff) tmp in
  let _lost := r2c_vjp K Nmesh roots invs tmp _real in
  _real.
(** abopt.py:127-131 *)
Definition lowpass_jvp (Nmesh : list Z) (roots : list C) (invs : list K) (Neff : Z) (Mid : list (lfield C)) (real_ : list (lfield K)) : list (lfield K) :=
  let tmp := r2c K roots invs real_ Mid in
  let tmp := map (lowpass_filter Nmesh Neff) tmp in
  let _lost := c2r K Nmesh roots tmp real_ in
  real_.
(** [complex * complex], the statement multiply on complex fields: NDArrayLike arithmetic
    on the values *)
Definition multiply_c (x1 x2 : lfield C) : lfield C := mkL (lstart x1) (lshape x1) (map2 cmul (lvals x1) (lvals x2)).
(** abopt.py:28-35: [plain] holds the real and the imaginary part of every mode, and the
    arithmetic is that of these numbers; [c] a real number or a ComplexField *)
Inductive factor := Number (c : K) | ByField (c : lfield C).
Definition plain_mul (z w : C) : C := (re z * re w, im z * im w).
Fixpoint plain_power (w : C) (p : nat) : C := match p with O => (1, 1) | S p => plain_mul w (plain_power w p) end.
Definition addmul_c (a b : lfield C) (c : factor) (p : nat) : lfield C :=
  mkL (lstart b) (lshape b)
    (map2 cadd (lvals a)
      match c with
      | Number c => map (fun z => plain_mul z (plain_power (c, c) p)) (lvals b)
      | ByField c => map2 (fun z w => plain_mul z (plain_power w p)) (lvals b) (lvals c)
      end).
End Modes.

(** the comparison of abopt.py:112 in double precision: [k] of pm.py:1216-1219, rounded after
    every operation; [twopi] is the double 2 * numpy.pi *)
Definition twopi64 : Q := 884279719003555 # 140737488355328.
Definition k64 (Nmesh : Z) (BoxSize : Q) (i : Z) : Q :=
  round64 (round64 (round64 (inject_Z (signed_index Nmesh i) * round64 (twopi64 / inject_Z Nmesh)) * inject_Z Nmesh) / BoxSize)%Q.
Definition low64 (Nmesh : Z) (BoxSize : Q) (Neff i : Z) : bool :=
  Qle_bool (Qabs.Qabs (k64 Nmesh BoxSize i)) (round64 (inject_Z (Neff / 2) * round64 (twopi64 / BoxSize))).
