(** Views of numpy arrays and the functions of pmesh/pm.py that walk over the local
    array of a field: slabs (87-154), Field.apply (617-648), csum and cmean (725-743),
    preview (549-615).  numpy's argsort is an argument: only that it returns a
    permutation of the axes is used. *)
From Coq Require Import List Arith ZArith QArith Lia Bool.
From Verif Require Import Base ListFacts LayoutModel WrapModel MeshModel MeshRoute MeshTile RingModel FieldModel.
Import ListNotations.
Local Close Scope Q_scope.
Local Open Scope Z_scope.

(** ** views *)
(** a view: the address of its first element, the shape, the strides; addresses and
    strides count elements *)
Record view := mkV { v_off : Z; v_shape : list Z; v_strides : list Z }.
Definition dotz (s i : list Z) : Z := fold_right Z.add 0 (map2 Z.mul s i).
(** the address of element [idx] *)
Definition addr (v : view) (idx : list Z) : Z := v_off v + dotz (v_strides v) idx.
(** l[ax[0]], l[ax[1]], ... *)
Definition permute {A} (d : A) (ax : list nat) (l : list A) : list A := map (fun a => nth a l d) ax.
(** v.transpose(ax) *)
Definition transpose (ax : list nat) (v : view) : view :=
  mkV (v_off v) (permute 0 ax (v_shape v)) (permute 0 ax (v_strides v)).
(** v[None, ...] and v[i] *)
Definition newaxis (v : view) : view := mkV (v_off v) (1 :: v_shape v) (0 :: v_strides v).
Definition row (i : Z) (v : view) : view := mkV (v_off v + i * hd 0 (v_strides v)) (tl (v_shape v)) (tl (v_strides v)).
(** broadcasting: an axis of one element is repeated *)
Definition broadcast (v : view) : view :=
  mkV (v_off v) (v_shape v) (map2 (fun n s => if n =? 1 then 0 else s) (v_shape v) (v_strides v)).
(** the strides of a fresh array in C order *)
Fixpoint c_strides (shape : list Z) : list Z :=
  match shape with
  | [] => []
  | _ :: r => fold_right Z.mul 1 r :: c_strides r
  end.
(** pm.py:1166-1200, 1202-1225: reshape of n coordinates of axis [d] to [1, .., n, .., 1] *)
Definition axis_view (ndim d : nat) (n : Z) : view :=
  let shape := map (fun e => if (e =? d)%nat then n else 1) (seq 0 ndim) in
  mkV 0 shape (c_strides shape).

(** ** slabs *)
(** pm.py:87-110: [field] is the array of the field, [value] the one to be walked over *)
Record slabs := mkS { s_axis : nat; s_count : nat; s_view : view; s_x : list view }.
Definition slabiter (argsort : list Z -> list nat) (field value : view) (x : list view) : outcome slabs :=
  if (length (v_shape field) =? 2)%nat then Ret (mkS 2 1 (newaxis value) (map newaxis x))
  else
    let axissort := rev (argsort (v_strides field)) in
    match axissort with
    | [] => Raise IndexError
    | axis :: _ =>
        Ret (mkS axis (Z.to_nat (nth axis (v_shape field) 0)) (transpose axissort value) (map (transpose axissort) x))
    end.
(** pm.py:112-121 and 148-154: the slab and its coordinate arrays.  Rows of a one
    dimensional array are numbers, to which line 115 cannot attach anything. *)
Definition slab_at (s : slabs) (irow : nat) : outcome view :=
  if (length (v_shape (s_view s)) <=? 1)%nat then Raise AttributeError else Ret (row (Z.of_nat irow) (s_view s)).
Definition slab_x (s : slabs) (irow : nat) : list view :=
  map2 (fun d x => if (d =? s_axis s)%nat then row (Z.of_nat irow) x else row 0 x) (seq 0 (length (s_x s))) (s_x s).

(** ** Field.apply *)
Inductive kind := Relative | Index | Absolute | Wavenumber | Circular | OtherKind.
Section Apply.
Context {V : Type}.
Variable argsort : list Z -> list nat.
(** memory of the field and the output *)
Definition store := Z -> V.
Definition poke (m : store) (a : Z) (y : V) : store := fun b => if b =? a then y else m b.
(** v[...] = g, where g has been computed before *)
Definition assign (v : view) (g : list Z -> V) (m : store) : store :=
  fold_left (fun m j => poke m (addr v j) (g j)) (cells_of (v_shape v)) m.
(** the values of the coordinate arrays at the cell [j] of a slab *)
Definition coords_at {X} (d : X) (xs : list (list X)) (views : list view) (j : list Z) : list X :=
  map2 (fun (x : list X) v => nth (Z.to_nat (addr (broadcast v) j)) x d) xs views.
(** pm.py:617-648: [func] computes each element of the slab from the coordinates and
    the value of this element; x and i are the coordinates and the indices of each
    axis (pm.py:1178-1225). *)
Definition apply_kind (k : kind) (x : list Q) (i : list Z) (BoxSize : list Q) (Nmesh : list Z) : option (list Q) :=
  match k with
  | Relative | Absolute | Wavenumber => Some x
  | Index => Some (map inject_Z i)
  | Circular => Some (map2 (fun k p => (k * fst p / inject_Z (snd p))%Q) x (combine BoxSize Nmesh))
  | OtherKind => None
  end.
Definition apply_row (k : kind) (BoxSize : list Q) (Nmesh : list Z) (x : list (list Q)) (i : list (list Z))
    (func : list Q -> V -> V) (inp out : slabs) (m : outcome store) (irow : nat) : outcome store :=
  bind m (fun m =>
  bind (slab_at inp irow) (fun islab =>
  bind (slab_at out irow) (fun oslab =>
  let vs := slab_x inp irow in
  match k with
  | OtherKind => Raise ValueError
  | _ => Ret (assign oslab (fun j => match apply_kind k (coords_at 0%Q x vs j) (coords_at 0%Z i vs j) BoxSize Nmesh with
                                     | Some c => func c (m (addr islab j))
                                     | None => m (addr islab j)
                                     end) m)
  end))).
Definition apply (k : kind) (BoxSize : list Q) (Nmesh : list Z) (x : list (list Q)) (i : list (list Z))
    (func : list Q -> V -> V) (field out : view) (m : store) : outcome store :=
  if list_eq_dec Z.eq_dec (v_shape out) (v_shape field) then
    let xv := map2 (fun d n => axis_view (length (v_shape field)) d n) (seq 0 (length (v_shape field))) (v_shape field) in
    bind (slabiter argsort field field xv) (fun inp =>
    bind (slabiter argsort field out xv) (fun outp =>
    fold_left (apply_row k BoxSize Nmesh x i func inp outp) (seq 0 (s_count inp)) (Ret m)))
  else Raise AssertionError.
End Apply.
(** the coordinates of a rank's block, pm.py:247-248, 1178-1225 and 1632-1695 *)
Definition real_coords (start shape Nmesh : list Z) (BoxSize : list Q) : list (list Q) * list (list Z) :=
  let c := map (fun p => i_coords (fst (fst p)) (snd (fst p)) (fst (snd p)) (snd (snd p))) (combine (combine start shape) (combine Nmesh BoxSize)) in
  (map fst c, map snd c).
Definition complex_coords (twopi : Q) (start shape Nmesh : list Z) (BoxSize : list Q) : list (list Q) * list (list Z) :=
  let c := map (fun p => o_coords twopi (fst (fst p)) (snd (fst p)) (fst (snd p)) (snd (snd p))) (combine (combine start shape) (combine Nmesh BoxSize)) in
  (map fst c, map snd c).
(** RealField.apply and BaseComplexField.apply, pm.py:872-895 and 1047-1070 *)
Definition real_kind (k : kind) : bool := match k with Relative | Index | Absolute => true | _ => false end.
Definition complex_kind (k : kind) : bool := match k with Wavenumber | Circular | Index => true | _ => false end.
Definition real_apply {V} (argsort : list Z -> list nat) (k : kind) (start Nmesh : list Z) (BoxSize : list Q)
    (func : list Q -> V -> V) (field out : view) (m : store) : outcome store :=
  if real_kind k then
    let (x, i) := real_coords start (v_shape field) Nmesh BoxSize in apply argsort k BoxSize Nmesh x i func field out m
  else Raise AssertionError.
Definition complex_apply {V} (argsort : list Z -> list nat) (k : kind) (twopi : Q) (start Nmesh : list Z) (BoxSize : list Q)
    (func : list Q -> V -> V) (field out : view) (m : store) : outcome store :=
  if complex_kind k then
    let (x, i) := complex_coords twopi start (v_shape field) Nmesh BoxSize in apply argsort k BoxSize Nmesh x i func field out m
  else Raise AssertionError.

(** ** csum, cmean, preview *)
Section Sums.
Variable K : cring.
(** an array of numbers without its memory *)
Record nd := mkN { n_shape : list Z; n_get : list Z -> K }.
Definition of_view (v : view) (m : Z -> K) : nd := mkN (v_shape v) (fun idx => m (addr v idx)).
(** a.sum(axis=-1) *)
Definition sum_last (a : nd) : nd :=
  mkN (removelast (n_shape a)) (fun idx => rsum (fun i => n_get a (idx ++ [i])) (zrange 0 (Z.to_nat (last (n_shape a) 0)))).
(** pm.py:725-739 on one rank, and the sum over the ranks *)
Definition csum_local (argsort : list Z -> list nat) (v : view) (m : Z -> K) : K :=
  let sum1 := of_view (transpose (rev (argsort (v_strides v))) v) m in
  n_get (Nat.iter (length (v_shape v)) sum_last sum1) [].
Definition csum (argsort : list Z -> list nat) (l : list (view * (Z -> K))) : list K :=
  let s := rsum (fun p => csum_local argsort (fst p) (snd p)) l in map (fun _ => s) l.
(** pm.py:741-743; [inv] is one over a number *)
Definition cmean (inv : Z -> K) (argsort : list Z -> list nat) (csize : Z) (l : list (view * (Z -> K))) : list K :=
  map (fun s => rmul s (inv csize)) (csum argsort l).

(** the position of axis [a] in [ax] *)
Fixpoint position (a : nat) (ax : list nat) : nat :=
  match ax with
  | [] => O
  | b :: r => if (b =? a)%nat then O else S (position a r)
  end.
(** a.transpose(ax): element idx' is the one with idx[ax[i]] = idx'[i] *)
Definition unpermute (ax : list nat) (idx : list Z) : list Z :=
  map (fun a => nth (position a ax) idx 0) (seq 0 (length ax)).
Definition is_perm (n : nat) (ax : list nat) : bool :=
  (length ax =? n)%nat && forallb (fun a => existsb (fun b => (a =? b)%nat) ax) (seq 0 n).
Definition nd_transpose (ax : list nat) (a : nd) : outcome nd :=
  if is_perm (length (n_shape a)) ax
  then Ret (mkN (permute 0 ax (n_shape a)) (fun idx => n_get a (unpermute ax idx)))
  else Raise ValueError.
(** a.sum(axis=(k, ..., n - 1)) *)
Definition sum_from (k : nat) (a : nd) : nd :=
  mkN (firstn k (n_shape a)) (fun idx => rsum (fun j => n_get a (idx ++ j)) (cells_of (skipn k (n_shape a)))).
(** result[slices] += a for a fresh array of zeros: pm.py:597-611; the shape of [a]
    has to be the one of the slices (two shapes with the same factors never broadcast
    to each other) *)
Definition add_slice (shape start lshape : list Z) (a : nd) : outcome nd :=
  if list_eq_dec Z.eq_dec (n_shape a) lshape then
    Ret (mkN shape (fun idx =>
      if forallb (fun p => (snd (fst p) <=? fst (fst p)) && (fst (fst p) <? snd (fst p) + snd p)) (combine (combine idx start) lshape)
      then n_get a (map2 Z.sub idx start) else r0))
  else Raise ValueError.
(** pm.py:597-611 on one rank, for axes that are not negative; the array of the rank is
    taken as it is after the optional resampling of 577-595 *)
Definition preview_local (cshape : list Z) (axes : list nat) (L : lfield K) : outcome nd :=
  let ndim := length cshape in
  let out := mkN (lshape L) (lget r0 L) in
  let add := add_slice (permute 0 axes cshape) (permute 0 axes (lstart L)) (permute 0 axes (lshape L)) in
  if forallb (fun a => (a <? ndim)%nat) axes then
    if (length axes =? ndim)%nat then add out
    else
      let removeaxes := filter (fun a => negb (existsb (fun b => (a =? b)%nat) axes)) (seq 0 ndim) in
      let all_axes := axes ++ removeaxes in
      bind (nd_transpose all_axes out) (fun t => add (sum_from (length all_axes - length removeaxes) t))
  else Raise IndexError.
(** pm.py:613-615 *)
Definition preview (cshape : list Z) (axes : list nat) (Ls : list (lfield K)) : list (outcome nd) :=
  let locals := map (preview_local cshape axes) Ls in
  match all_ret locals with
  | Some rs => map (fun _ => Ret (mkN (permute 0 axes cshape) (fun idx => rsum (fun a => n_get a idx) rs))) Ls
  | None => block_rest locals
  end.
End Sums.
Arguments mkN {K}. Arguments n_shape {K}. Arguments n_get {K}.
