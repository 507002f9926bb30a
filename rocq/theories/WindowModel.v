(** Model of the resampling windows: pmesh/_window_imp.c, _window_generics.h,
    _window_tuned_{nnb,cic,tsc,pcs}.h, _window.pyx and window.py.

    Simplifications.  Doubles are exact rationals; C ints and ptrdiff_t are
    unbounded integers; the float and double instances of the routines are one
    definition.  The canvas is a memory of numbers addressed by byte offsets
    relative to the array's data pointer.  The interpolation tables of the acg,
    lanczos and wavelet windows are arguments, the interpolation is modelled. *)
From Coq Require Import List Arith ZArith QArith Qabs Qround Lia Bool.
From Verif Require Import Base WrapModel.
Import ListNotations.
Local Open Scope Q_scope.

Definition Qltb (x y : Q) : bool := negb (Qle_bool y x).
(** C's conversion of a double to int *)
Definition trunc (x : Q) : Z := if Qle_bool 0 x then Qfloor x else Qceiling x.

(** * Kernels *)

(** _window_imp.c:108-114 *)
Definition nearest_kernel (x : Q) : Q :=
  if Qltb x (1#2) && Qle_bool (-(1#2)) x then 1 else 0.
(** _window_imp.c:116-119 *)
Definition nearest_diff (x : Q) : Q := 0.
(** _window_imp.c:128-135 *)
Definition linear_kernel (x : Q) : Q :=
  let x := Qabs x in if Qltb x 1 then 1 - x else 0.
(** _window_imp.c:137-150 *)
Definition linear_diff (x : Q) : Q :=
  let '(factor, x) := if Qltb x 0 then (1, - x) else if Qltb 0 x then (-(1), x) else (0, x) in
  if Qltb x 1 then factor else 0.
(** _window_imp.c:160-174 *)
Definition quadratic_kernel (x : Q) : Q :=
  let x := Qabs x in
  if Qle_bool x (1#2) then (3#4) - x * x
  else if Qltb x (3#2) then ((3#2) - x) * ((3#2) - x) * (1#2)
  else 0.
(** _window_imp.c:176-193 *)
Definition quadratic_diff (x : Q) : Q :=
  let '(factor, x) := if Qltb x 0 then (-(1), - x) else (1, x) in
  if Qle_bool x (1#2) then factor * (-(2) * x)
  else if Qltb x (3#2) then factor * - ((3#2) - x)
  else 0.
(** _window_imp.c:204-216 *)
Definition cubic_kernel (x : Q) : Q :=
  let x := Qabs x in
  let xx := x * x in
  if Qltb x 1 then (1#6) * (4 - 6 * xx + 3 * xx * x)
  else if Qltb x 2 then (1#6) * (2 - x) * (2 - x) * (2 - x)
  else 0.
(** _window_imp.c:218-236 *)
Definition cubic_diff (x : Q) : Q :=
  let '(factor, x) := if Qltb x 0 then (-(1), - x) else (1, x) in
  let xx := x * x in
  if Qltb x 1 then factor * (1#6) * (-(12) * x + 9 * xx)
  else if Qltb x 2 then factor * -(1#2) * (2 - x) * (2 - x)
  else 0.

(** _window_acg.h:2058-2068 (acg2; acg3-6 and lanczos2-6 differ in the table and
    the step): symmetric table of [n] entries, linearly interpolated *)
Definition even_table_kernel (v : Z -> Q) (n : Z) (step : Q) (x : Q) : Q :=
  let f := Qabs x / step in
  let i := trunc f in
  if (i <? 0)%Z then 0
  else if (i >=? n - 1)%Z then 0
  else let f := f - inject_Z i in v i * (1 - f) + v (i + 1)%Z * f.
(** _window_acg.h:2069-2084 *)
Definition even_table_diff (v : Z -> Q) (n : Z) (step : Q) (x : Q) : Q :=
  let '(factor, x) := if Qle_bool 0 x then (1, x) else (-(1), - x) in
  let i := trunc (x / step) in
  if (i <? 0)%Z then 0
  else if (i >=? n - 1)%Z then 0
  else let f := v (i + 1)%Z - v i in factor * f / step.
(** _window_wavelets.h:2389-2399 (db6; db12, db20 and sym6-20 differ in the table,
    the step and the offset [o] of the first entry) *)
Definition offset_table_kernel (v : Z -> Q) (n : Z) (o step : Q) (x : Q) : Q :=
  let f := (x + o) / step in
  if Qltb f 0 then 0
  else let i := trunc f in
       let f := f - inject_Z i in
       if (i >=? n - 1)%Z then 0 else v i * (1 - f) + v (i + 1)%Z * f.
(** _window_wavelets.h:2400-2410 *)
Definition offset_table_diff (v : Z -> Q) (n : Z) (o step : Q) (x : Q) : Q :=
  let i := trunc ((x + o) / step) in
  if (i <? 0)%Z then 0
  else if (i >=? n - 1)%Z then 0
  else (v (i + 1)%Z - v i) / step.

(** the window types, _window_imp.h:4-27.  The table windows are
    [Other kernel diff nativesupport]. *)
Inductive kind :=
| Nearest | Linear | Quadratic | Cubic
| TunedNNB | TunedCIC | TunedTSC | TunedPCS
| Other (kernel diff : Q -> Q) (native : Z).

(** _window_imp.c:259-447: the three columns set by [pmesh_painter_init] *)
Definition kernel_of (k : kind) : Q -> Q :=
  match k with
  | Nearest | TunedNNB => nearest_kernel
  | Linear | TunedCIC => linear_kernel
  | Quadratic | TunedTSC => quadratic_kernel
  | Cubic | TunedPCS => cubic_kernel
  | Other f _ _ => f
  end.
Definition diff_of (k : kind) : Q -> Q :=
  match k with
  | Nearest | TunedNNB => nearest_diff
  | Linear | TunedCIC => linear_diff
  | Quadratic | TunedTSC => quadratic_diff
  | Cubic | TunedPCS => cubic_diff
  | Other _ f _ => f
  end.
Definition native_of (k : kind) : Z :=
  match k with
  | Nearest | TunedNNB => 1
  | Linear | TunedCIC => 2
  | Quadratic | TunedTSC => 3
  | Cubic | TunedPCS => 4
  | Other _ _ n => n
  end%Z.

(** * The window *)

(** _window_imp.h:29-35; Npoints is never used *)
Record winfo := { wi_support : Z; wi_left : Z; wi_shift : Q; wi_vfactor : Q }.

(** _window_imp.c:24-47 *)
Definition window_info_init (native : Z) (support : Q) : winfo :=
  let '(n, support) :=
    if Qle_bool support 0 then (native, inject_Z native)
    else let n := trunc support in
         ((n + (if Qeq_bool support (inject_Z n) then 0 else 1))%Z, support) in
  {| wi_support := n;
     wi_left := ((n - 1) / 2)%Z;
     wi_shift := support / 2 - inject_Z (n / 2);
     wi_vfactor := inject_Z native / (1 * support) |}.

(** One dimension of a [PMeshPainter] (_window_imp.h:48-66): the transform, the
    order of differentiation, and the canvas' extent and stride *)
Record axis := { ax_scale : Q; ax_translate : Q; ax_period : Z; ax_order : Z;
                 ax_size : Z; ax_stride : Z }.
Record painter := { pt_kind : kind; pt_support : Z; pt_axes : list axis }.

(** _window_imp.c:56-69, one dimension of [_fill_k]: the left most point and the
    weights.  The float argument of [kernel] is what the C code passes. *)
Definition fill_k (k : kind) (w : winfo) (a : axis) (x : Q) : Z * list Q :=
  let g := x * ax_scale a + ax_translate a in
  let ipos := (Qfloor (g + wi_shift w) - wi_left w)%Z in
  let dx := g - inject_Z ipos in
  (ipos,
   map (fun i => let y := (dx - inject_Z i) * wi_vfactor w in
                 if (ax_order a =? 0)%Z then kernel_of k y * wi_vfactor w
                 else diff_of k y * ax_scale a * wi_vfactor w * wi_vfactor w)
       (zrange 0 (Z.to_nat (wi_support w)))).

(** ** The loop over the stencil *)

(** _window_generics.h:64-70, 133-139: [rel[ndim-1]++] and the carry loop.
    [bump] treats the dimensions d > 0, from the last one upwards. *)
Fixpoint bump (s2 : Z) (rel : list Z) : list Z * Z :=
  match rel with
  | [] => ([], 1)
  | x :: r => let '(r', c) := bump s2 r in
              if (x + c =? s2) then (0 :: r', 1) else (x + c :: r', 0)
  end%Z.
Definition next (s2 : Z) (rel : list Z) : list Z :=
  match rel with
  | [] => []
  | x :: r => let '(r', c) := bump s2 r in (x + c)%Z :: r'
  end.
(** _window_generics.h:32-35: the values [rel] takes while [rel[0] != s2] *)
Fixpoint odometer (fuel : nat) (s2 : Z) (rel : list Z) : list (list Z) :=
  match fuel with
  | O => []
  | S f => if (hd s2 rel =? s2)%Z then [] else rel :: odometer f s2 (next s2 rel)
  end.
Definition stencil (ndim : nat) (s2 : Z) : list (list Z) :=
  odometer (S (Z.to_nat (s2 ^ Z.of_nat ndim))) s2 (repeat 0%Z ndim).

(** _window_generics.h:39-57, 108-130: the product of the weights and the byte
    offset of the cell; [None] is [goto outside] *)
Fixpoint locate (axes : list axis) (fk : list (Z * list Q)) (rel : list Z)
    (kernel : Q) (ind : Z) : option (Q * Z) :=
  match axes, fk, rel with
  | a :: axes', (ipos, kd) :: fk', r :: rel' =>
      let kernel := kernel * nth (Z.to_nat r) kd 0 in
      let target := (ipos + r)%Z in
      let target := if (ax_period a >? 0)%Z then wrap_du (ax_period a) target else target in
      if (target >=? ax_size a)%Z then None
      else if (target <? 0)%Z then None
      else locate axes' fk' rel' kernel (ind + ax_stride a * target)%Z
  | _, _, _ => Some (kernel, ind)
  end.

(** an atomic [canvas[ind] += v] *)
Definition op := (Z * Q)%type.
Definition memory := Z -> Q.
Definition add_at (m : memory) (o : op) : memory :=
  fun a => if (a =? fst o)%Z then m a + snd o else m a.
Definition run (m : memory) (ops : list op) : memory := fold_left add_at ops m.

(** [painter->support * hsml], _window_generics.h:8, 79 *)
Definition window_for (p : painter) (hsml : Q) : winfo :=
  window_info_init (native_of (pt_kind p)) (inject_Z (pt_support p) * hsml).
Fixpoint fill_all (k : kind) (w : winfo) (axes : list axis) (pos : list Q) : list (Z * list Q) :=
  match axes, pos with
  | a :: axes', x :: pos' => fill_k k w a x :: fill_all k w axes' pos'
  | _, _ => []
  end.

(** _window_generics.h:21-73 *)
Definition generic_paint (p : painter) (w : winfo) (pos : list Q) (weight : Q) : list op :=
  let fk := fill_all (pt_kind p) w (pt_axes p) pos in
  flat_map (fun rel => match locate (pt_axes p) fk rel 1 0%Z with
                       | Some (kernel, ind) => [(ind, weight * kernel)]
                       | None => []
                       end) (stencil (length (pt_axes p)) (wi_support w)).
(** _window_generics.h:91-142 *)
Definition generic_readout (p : painter) (w : winfo) (pos : list Q) (m : memory) : Q :=
  let fk := fill_all (pt_kind p) w (pt_axes p) pos in
  fold_left (fun value rel => match locate (pt_axes p) fk rel 1 0%Z with
                              | Some (kernel, ind) => value + kernel * m ind
                              | None => value
                              end) (stencil (length (pt_axes p)) (wi_support w)) 0.

(** * Tuned routines *)

(** the SETUP_KERNEL macros, one dimension: the lists IJK0,IJK1,.. and V0,V1,.. *)
(** _window_tuned_nnb.h:8-20 *)
Definition setup_nnb (a : axis) (x : Q) : list Z * list Q :=
  let X := x * ax_scale a + ax_translate a in
  let I0 := Qfloor (X + (1#2)) in
  ([I0], if (ax_order a =? 0)%Z then [1] else [0]).
(** _window_tuned_cic.h:7-22 *)
Definition setup_cic (a : axis) (x : Q) : list Z * list Q :=
  let X := x * ax_scale a + ax_translate a in
  let I0 := Qfloor X in
  let I1 := (I0 + 1)%Z in
  ([I0; I1],
   if (ax_order a =? 0)%Z then let V1 := X - inject_Z I0 in let V0 := 1 - V1 in [V0; V1]
   else let V1 := ax_scale a in let V0 := - ax_scale a in [V0; V1]).
(** _window_tuned_tsc.h:7-25 *)
Definition setup_tsc (a : axis) (x : Q) : list Z * list Q :=
  let X := x * ax_scale a + ax_translate a in
  let I1 := Qfloor (X + (1#2)) in
  let I0 := (I1 - 1)%Z in
  let I2 := (I1 + 1)%Z in
  let D0 := X - inject_Z I0 in
  let D1 := X - inject_Z I1 in
  let D2 := X - inject_Z I2 in
  ([I0; I1; I2],
   if (ax_order a =? 0)%Z then
     let V1 := (3#4) - D1 * D1 in
     let V0 := ((3#2) - D0) * ((3#2) - D0) * (1#2) in
     let V2 := ((3#2) + D2) * ((3#2) + D2) * (1#2) in
     [V0; V1; V2]
   else
     let V1 := -(2) * D1 * ax_scale a in
     let V0 := - ((3#2) - D0) * ax_scale a in
     let V2 := ((3#2) + D2) * ax_scale a in
     [V0; V1; V2]).
(** _window_tuned_pcs.h:7-38 *)
Definition setup_pcs (a : axis) (x : Q) : list Z * list Q :=
  let X := x * ax_scale a + ax_translate a in
  let I1 := Qfloor X in
  let I0 := (I1 - 1)%Z in
  let I2 := (I1 + 1)%Z in
  let I3 := (I2 + 1)%Z in
  let D0 := X - inject_Z I0 in
  let D1 := X - inject_Z I1 in
  let D2 := X - inject_Z I2 in
  let D3 := X - inject_Z I3 in
  ([I0; I1; I2; I3],
   if (ax_order a =? 0)%Z then
     let V1 := (1#6) * (4 - 6 * D1 * D1 + 3 * D1 * D1 * D1) in
     let V2 := (1#6) * (4 - 6 * D2 * D2 - 3 * D2 * D2 * D2) in
     let V0 := (1#6) * (2 - D0) * (2 - D0) * (2 - D0) in
     let V3 := (1#6) * (2 + D3) * (2 + D3) * (2 + D3) in
     [V0; V1; V2; V3]
   else
     let V1 := (1#6) * (-(12) * D1 + 9 * D1 * D1) in
     let V2 := -(1#6) * (12 * D2 + 9 * D2 * D2) in
     let V0 := -(1#2) * (2 - D0) * (2 - D0) in
     let V3 := (1#2) * (2 + D3) * (2 + D3) in
     [V0; V1; V2; V3]).

(** the periodic wrap at the end of each macro, e.g. _window_tuned_cic.h:26-32 *)
Definition setup_wrap (a : axis) (s : list Z * list Q) : list Z * list Q :=
  (if (ax_period a =? 0)%Z then fst s else map (wrap_ud (ax_period a)) (fst s), snd s).

(** the ACCESS lines of the tuned routines, in the order of the code: entry
    [a;b;c] is ACCESS3(.., a, b, c) *)
(** _window_tuned_nnb.h:79-87 *)
Definition nnb_paint1 : list (list nat) :=
  [[0]]%nat.
(** _window_tuned_nnb.h:90-100 *)
Definition nnb_readout1 : list (list nat) :=
  [[0]]%nat.
(** _window_tuned_nnb.h:55-63 *)
Definition nnb_paint2 : list (list nat) :=
  [[0;0]]%nat.
(** _window_tuned_nnb.h:66-76 *)
Definition nnb_readout2 : list (list nat) :=
  [[0;0]]%nat.
(** _window_tuned_nnb.h:30-39 *)
Definition nnb_paint3 : list (list nat) :=
  [[0;0;0]]%nat.
(** _window_tuned_nnb.h:42-52 *)
Definition nnb_readout3 : list (list nat) :=
  [[0;0;0]]%nat.
(** _window_tuned_cic.h:107-118 *)
Definition cic_paint1 : list (list nat) :=
  [[0]; [1]]%nat.
(** _window_tuned_cic.h:121-132 *)
Definition cic_readout1 : list (list nat) :=
  [[0]; [1]]%nat.
(** _window_tuned_cic.h:75-88 *)
Definition cic_paint2 : list (list nat) :=
  [[0;0]; [0;1]; [1;0]; [1;1]]%nat.
(** _window_tuned_cic.h:91-104 *)
Definition cic_readout2 : list (list nat) :=
  [[0;0]; [0;1]; [1;0]; [1;1]]%nat.
(** _window_tuned_cic.h:35-52 *)
Definition cic_paint3 : list (list nat) :=
  [[0;0;0]; [0;0;1]; [0;1;0]; [0;1;1]; [1;0;0]; [1;0;1]; [1;1;0]; [1;1;1]]%nat.
(** _window_tuned_cic.h:55-72 *)
Definition cic_readout3 : list (list nat) :=
  [[0;0;0]; [0;0;1]; [0;1;0]; [0;1;1]; [1;0;0]; [1;0;1]; [1;1;0]; [1;1;1]]%nat.
(** _window_tuned_tsc.h:159-172 *)
Definition tsc_paint1 : list (list nat) :=
  [[0]; [1]; [2]]%nat.
(** _window_tuned_tsc.h:175-186 *)
Definition tsc_readout1 : list (list nat) :=
  [[0]; [1]; [2]]%nat.
(** _window_tuned_tsc.h:117-136 *)
Definition tsc_paint2 : list (list nat) :=
  [[0;0]; [0;1]; [0;2]; [1;0]; [1;1]; [1;2]; [2;0]; [2;1]; [2;2]]%nat.
(** _window_tuned_tsc.h:139-156 *)
Definition tsc_readout2 : list (list nat) :=
  [[0;0]; [0;1]; [0;2]; [1;0]; [1;1]; [1;2]; [2;0]; [2;1]; [2;2]]%nat.
(** _window_tuned_tsc.h:40-77 *)
Definition tsc_paint3 : list (list nat) :=
  [[0;0;0]; [0;0;1]; [0;0;2]; [0;1;0]; [0;1;1]; [0;1;2]; [0;2;0]; [0;2;1]; [0;2;2]; [1;0;0];
   [1;0;1]; [1;0;2]; [1;1;0]; [1;1;1]; [1;1;2]; [1;2;0]; [1;2;1]; [1;2;2]; [2;0;0]; [2;0;1];
   [2;0;2]; [2;1;0]; [2;1;1]; [2;1;2]; [2;2;0]; [2;2;1]; [2;2;2]]%nat.
(** _window_tuned_tsc.h:80-115 *)
Definition tsc_readout3 : list (list nat) :=
  [[0;0;0]; [0;0;1]; [0;0;2]; [0;1;0]; [0;1;1]; [0;1;2]; [0;2;0]; [0;2;1]; [0;2;2]; [1;0;0];
   [1;0;1]; [1;0;2]; [1;1;0]; [1;1;1]; [1;1;2]; [1;2;0]; [1;2;1]; [1;2;2]; [2;0;0]; [2;0;1];
   [2;0;2]; [2;1;0]; [2;1;1]; [2;1;2]; [2;2;0]; [2;2;1]; [2;2;2]]%nat.
(** _window_tuned_pcs.h:267-282 *)
Definition pcs_paint1 : list (list nat) :=
  [[0]; [1]; [2]; [3]]%nat.
(** _window_tuned_pcs.h:285-298 *)
Definition pcs_readout1 : list (list nat) :=
  [[0]; [1]; [2]; [3]]%nat.
(** _window_tuned_pcs.h:209-236 *)
Definition pcs_paint2 : list (list nat) :=
  [[0;0]; [0;1]; [0;2]; [0;3]; [1;0]; [1;1]; [1;2]; [1;3]; [2;0]; [2;1]; [2;2]; [2;3]; [3;0]; [3;1];
   [3;2]; [3;3]]%nat.
(** _window_tuned_pcs.h:239-264 *)
Definition pcs_readout2 : list (list nat) :=
  [[0;0]; [0;1]; [0;2]; [0;3]; [1;0]; [1;1]; [1;2]; [1;3]; [2;0]; [2;1]; [2;2]; [2;3]; [3;0]; [3;1];
   [3;2]; [3;3]]%nat.
(** _window_tuned_pcs.h:55-130 *)
Definition pcs_paint3 : list (list nat) :=
  [[0;0;0]; [0;0;1]; [0;0;2]; [0;0;3]; [0;1;0]; [0;1;1]; [0;1;2]; [0;1;3]; [0;2;0]; [0;2;1];
   [0;2;2]; [0;2;3]; [0;3;0]; [0;3;1]; [0;3;2]; [0;3;3]; [1;0;0]; [1;0;1]; [1;0;2]; [1;0;3];
   [1;1;0]; [1;1;1]; [1;1;2]; [1;1;3]; [1;2;0]; [1;2;1]; [1;2;2]; [1;2;3]; [1;3;0]; [1;3;1];
   [1;3;2]; [1;3;3]; [2;0;0]; [2;0;1]; [2;0;2]; [2;0;3]; [2;1;0]; [2;1;1]; [2;1;2]; [2;1;3];
   [2;2;0]; [2;2;1]; [2;2;2]; [2;2;3]; [2;3;0]; [2;3;1]; [2;3;2]; [2;3;3]; [3;0;0]; [3;0;1];
   [3;0;2]; [3;0;3]; [3;1;0]; [3;1;1]; [3;1;2]; [3;1;3]; [3;2;0]; [3;2;1]; [3;2;2]; [3;2;3];
   [3;3;0]; [3;3;1]; [3;3;2]; [3;3;3]]%nat.
(** _window_tuned_pcs.h:133-206 *)
Definition pcs_readout3 : list (list nat) :=
  [[0;0;0]; [0;0;1]; [0;0;2]; [0;0;3]; [0;1;0]; [0;1;1]; [0;1;2]; [0;1;3]; [0;2;0]; [0;2;1];
   [0;2;2]; [0;2;3]; [0;3;0]; [0;3;1]; [0;3;2]; [0;3;3]; [1;0;0]; [1;0;1]; [1;0;2]; [1;0;3];
   [1;1;0]; [1;1;1]; [1;1;2]; [1;1;3]; [1;2;0]; [1;2;1]; [1;2;2]; [1;2;3]; [1;3;0]; [1;3;1];
   [1;3;2]; [1;3;3]; [2;0;0]; [2;0;1]; [2;0;2]; [2;0;3]; [2;1;0]; [2;1;1]; [2;1;2]; [2;1;3];
   [2;2;0]; [2;2;1]; [2;2;2]; [2;2;3]; [2;3;0]; [2;3;1]; [2;3;2]; [2;3;3]; [3;0;0]; [3;0;1];
   [3;0;2]; [3;0;3]; [3;1;0]; [3;1;1]; [3;1;2]; [3;1;3]; [3;2;0]; [3;2;1]; [3;2;2]; [3;2;3];
   [3;3;0]; [3;3;1]; [3;3;2]; [3;3;3]]%nat.

(** _window_generics.h:213-220 with 144-211: the product V a[0] * V b[1] * V c[2]
    and the address k*strides[2] + j*strides[1] + i*strides[0], or [None] when one
    of the indices is outside of the canvas *)
Fixpoint inside_canvas (axes : list axis) (idx : list Z) : bool :=
  match axes, idx with
  | a :: axes', i :: idx' =>
      if (0 >? i)%Z || (ax_size a <=? i)%Z then false else inside_canvas axes' idx'
  | _, _ => true
  end.
Definition offset3 (axes : list axis) (idx : list Z) : Z :=
  match axes, idx with
  | [a0], [i] => i * ax_stride a0
  | [a0; a1], [i; j] => j * ax_stride a1 + i * ax_stride a0
  | [a0; a1; a2], [i; j; k] => k * ax_stride a2 + j * ax_stride a1 + i * ax_stride a0
  | _, _ => 0
  end%Z.
Definition product3 (v : list Q) : Q :=
  match v with
  | [a] => a
  | [a; b] => a * b
  | [a; b; c] => a * b * c
  | _ => 0
  end.
Fixpoint pick {A} (d : A) (l : list (list A)) (idx : list nat) : list A :=
  match l, idx with
  | x :: l', i :: idx' => nth i x d :: pick d l' idx'
  | _, _ => []
  end.
Definition access (axes : list axis) (IJK : list (list Z)) (V : list (list Q)) (abc : list nat)
    : option (Q * Z) :=
  let idx := pick 0%Z IJK abc in
  if inside_canvas axes idx then Some (product3 (pick 0 V abc), offset3 axes idx) else None.

Fixpoint setup_all (setup : axis -> Q -> list Z * list Q) (axes : list axis) (pos : list Q)
    : list (list Z * list Q) :=
  match axes, pos with
  | a :: axes', x :: pos' => setup_wrap a (setup a x) :: setup_all setup axes' pos'
  | _, _ => []
  end.

(** V0[0] *= weight; V1[0] *= weight; ... *)
Definition scale_first (weight : Q) (V : list (list Q)) : list (list Q) :=
  match V with
  | v :: V' => map (fun x => x * weight) v :: V'
  | [] => []
  end.

(** _window_tuned_cic.h:35-52 and its siblings *)
Definition tuned_paint (setup : axis -> Q -> list Z * list Q) (lines : list (list nat))
    (axes : list axis) (pos : list Q) (weight : Q) : list op :=
  let s := setup_all setup axes pos in
  let IJK := map fst s in
  let V := scale_first weight (map snd s) in
  flat_map (fun abc => match access axes IJK V abc with
                       | Some (f, ind) => [(ind, f)]
                       | None => []
                       end) lines.
(** _window_tuned_cic.h:55-72 and its siblings *)
Definition tuned_readout (setup : axis -> Q -> list Z * list Q) (lines : list (list nat))
    (axes : list axis) (pos : list Q) (m : memory) : Q :=
  let s := setup_all setup axes pos in
  let IJK := map fst s in
  let V := map snd s in
  fold_left (fun value abc => value + match access axes IJK V abc with
                                      | Some (f, ind) => m ind * f
                                      | None => 0
                                      end) lines 0.

(** _window_imp.c:383-446: the order and dimension tests of [pmesh_painter_init]
    before a fast method is installed *)
Definition fast_allowed (axes : list axis) : bool :=
  (length axes <=? 3)%nat && forallb (fun a => (ax_order a <=? 1)%Z) axes.

(** _getfastmethod_{nnb,cic,tsc,pcs}: _window_tuned_nnb.h:103-124, cic:135-157,
    tsc:188-209, pcs:300-321 *)
Record fast := { f_setup : axis -> Q -> list Z * list Q;
                 f_paint : list (list nat); f_readout : list (list nat) }.
Definition getfastmethod (p : painter) (w : winfo) : option fast :=
  let n := length (pt_axes p) in
  let choose setup support p1 p2 p3 r1 r2 r3 :=
    if negb (wi_support w =? support)%Z then None
    else if (n =? 1)%nat then Some {| f_setup := setup; f_paint := p1; f_readout := r1 |}
    else if (n =? 2)%nat then Some {| f_setup := setup; f_paint := p2; f_readout := r2 |}
    else if (n =? 3)%nat then Some {| f_setup := setup; f_paint := p3; f_readout := r3 |}
    else None in
  if fast_allowed (pt_axes p) then
    match pt_kind p with
    | TunedNNB => choose setup_nnb 1%Z nnb_paint1 nnb_paint2 nnb_paint3
                         nnb_readout1 nnb_readout2 nnb_readout3
    | TunedCIC => choose setup_cic 2%Z cic_paint1 cic_paint2 cic_paint3
                         cic_readout1 cic_readout2 cic_readout3
    | TunedTSC => choose setup_tsc 3%Z tsc_paint1 tsc_paint2 tsc_paint3
                         tsc_readout1 tsc_readout2 tsc_readout3
    | TunedPCS => choose setup_pcs 4%Z pcs_paint1 pcs_paint2 pcs_paint3
                         pcs_readout1 pcs_readout2 pcs_readout3
    | _ => None
    end
  else None.

(** _window_generics.h:4-73: [pmesh_painter_paint] of one particle, as the list of
    its atomic additions in program order *)
Definition paint_ops (p : painter) (pos : list Q) (weight hsml : Q) : list op :=
  let w := window_for p hsml in
  match getfastmethod p w with
  | Some f => tuned_paint (f_setup f) (f_paint f) (pt_axes p) pos weight
  | None => generic_paint p w pos weight
  end.
(** _window_generics.h:75-142: [pmesh_painter_readout] *)
Definition readout_at (p : painter) (m : memory) (pos : list Q) (hsml : Q) : Q :=
  let w := window_for p hsml in
  match getfastmethod p w with
  | Some f => tuned_readout (f_setup f) (f_readout f) (pt_axes p) pos m
  | None => generic_readout p w pos m
  end.

(** * The Python layer *)

(** _window.pyx:69-111 and _window_imp.c:449-452: [ResampleWindow(kind, support)]
    keeps the kind and the rounded support *)
Record window := { w_kind : kind; w_support : Z }.
Definition ResampleWindow (k : kind) (support : Z) : window :=
  {| w_kind := k; w_support := wi_support (window_info_init (native_of k) (inject_Z support)) |}.
(** window.py:61-63 *)
Definition resize (w : window) (support : Z) : window := ResampleWindow (w_kind w) support.

(** window.py:18-55 *)
Record affine := { af_scale : list Q; af_translate : list Q; af_period : list Z }.
(** a scalar or an array argument *)
Inductive value (A : Type) := Scalar (a : A) | Array (l : list A).
Arguments Scalar {A} a.
Arguments Array {A} l.
(** window.py:6-16 [_mkarr]: broadcast to [n] entries *)
Definition mkarr {A} (v : value A) (n : nat) : outcome (list A) :=
  match v with
  | Scalar a => Ret (repeat a n)
  | Array l => if (length l =? n)%nat then Ret l
               else match l with [a] => Ret (repeat a n) | _ => Raise ValueError end
  end.
(** window.py:28-43 *)
Definition Affine (ndim : nat) (scale translate : option (value Q)) (period : option (value Z))
    : outcome affine :=
  let get {A} (o : option (value A)) d := match o with Some v => v | None => Scalar d end in
  bind (mkarr (get scale 1) ndim) (fun s =>
  bind (mkarr (get period 0%Z) ndim) (fun p =>
  bind (mkarr (get translate 0) ndim) (fun t =>
  Ret {| af_scale := s; af_translate := t; af_period := p |}))).
(** numpy broadcasting of [array * amount] and [array + amount] with an array of the
    same length or a scalar *)
Definition broadcast (f : Q -> Q -> Q) (l : list Q) (v : value Q) : outcome (list Q) :=
  match v with
  | Scalar a => Ret (map (fun x => f x a) l)
  | Array m => if (length m =? length l)%nat then Ret (map (fun xy => f (fst xy) (snd xy)) (combine l m))
               else match m with
                    | [a] => Ret (map (fun x => f x a) l)
                    | _ => match l with
                           | [x] => Ret (map (fun a => f x a) m)
                           | _ => Raise ValueError
                           end
                    end
  end.
(** window.py:45-48 *)
Definition affine_rescale (t : affine) (amount : value Q) : outcome affine :=
  let ndim := length (af_scale t) in
  bind (broadcast Qmult (af_scale t) amount) (fun s =>
  Affine ndim (Some (Array s)) (Some (Array (af_translate t))) (Some (Array (af_period t)))).
(** window.py:50-54 *)
Definition affine_shift (t : affine) (amount : value Q) : outcome affine :=
  let ndim := length (af_scale t) in
  bind (broadcast Qplus (af_translate t) amount) (fun tr =>
  Affine ndim (Some (Array (af_scale t))) (Some (Array tr)) (Some (Array (af_period t)))).

(** an array: the data are found in a memory, the view is its shape and strides *)
Record array := { ar_shape : list Z; ar_strides : list Z }.

(** window.py:136-138, 196-198: [order = zeros(ndim); order[diffdir] = 1] *)
Definition order_of (ndim : nat) (diffdir : option Z) : outcome (list Z) :=
  match diffdir with
  | None => Ret (repeat 0%Z ndim)
  | Some d => let n := Z.of_nat ndim in
              let d' := if (d <? 0)%Z then (d + n)%Z else d in
              if (0 <=? d')%Z && (d' <? n)%Z
              then Ret (upd (Z.to_nat d') (fun _ => 1%Z) (repeat 0%Z ndim))
              else Raise IndexError
  end.

(** _window.pyx:136-148: fill the [PMeshPainter] *)
Fixpoint mk_axes (order : list Z) (scale translate : list Q) (period shape strides : list Z) : list axis :=
  match order, scale, translate, period, shape, strides with
  | o :: os, s :: ss, t :: ts, p :: ps, n :: ns, st :: sts =>
      {| ax_scale := s; ax_translate := t; ax_period := p; ax_order := o;
         ax_size := n; ax_stride := st |} :: mk_axes os ss ts ps ns sts
  | _, _, _, _, _, _ => []
  end.
Definition mk_painter (w : window) (real : array) (order : list Z) (t : affine) : painter :=
  {| pt_kind := w_kind w; pt_support := w_support w;
     pt_axes := mk_axes order (af_scale t) (af_translate t) (af_period t)
                        (ar_shape real) (ar_strides real) |}.

(** window.py:131-132, 191-192 *)
Definition transform_of (ndim : nat) (t : option affine) : outcome affine :=
  match t with Some t => Ret t | None => Affine ndim None None None end.
(** hsml = None stands for 1.0 (_window.pyx:157-160, 202-205) *)
Definition hsml_of (n : nat) (hsml : option (value Q)) : outcome (list Q) :=
  match hsml with None => Ret (repeat 1 n) | Some v => mkarr v n end.

(** window.py:106-163 with _window.pyx:125-161: [paint].  Returns the memory after. *)
Definition window_paint (w : window) (real : array) (m : memory) (pos : list (list Q))
    (hsml mass : option (value Q)) (diffdir : option Z) (t : option affine) : outcome memory :=
  bind (transform_of (length (ar_shape real)) t) (fun t =>
  bind (order_of (length (ar_shape real)) diffdir) (fun order =>
  bind (mkarr (match mass with None => Scalar 1 | Some v => v end) (length pos)) (fun mass =>
  bind (hsml_of (length pos) hsml) (fun hsml =>
  let p := mk_painter w real order t in
  Ret (fold_left (fun m xmh => run m (paint_ops p (fst (fst xmh)) (snd (fst xmh)) (snd xmh)))
                 (combine (combine pos mass) hsml) m))))).
(** window.py:165-221 with _window.pyx:163-206: [readout] with out=None *)
Definition window_readout (w : window) (real : array) (m : memory) (pos : list (list Q))
    (hsml : option (value Q)) (diffdir : option Z) (t : option affine) : outcome (list Q) :=
  bind (transform_of (length (ar_shape real)) t) (fun t =>
  bind (order_of (length (ar_shape real)) diffdir) (fun order =>
  bind (hsml_of (length pos) hsml) (fun hsml =>
  let p := mk_painter w real order t in
  Ret (map (fun xh => readout_at p m (fst xh) (snd xh)) (combine pos hsml))))).
