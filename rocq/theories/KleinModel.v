(** The solver of examples/klein-gordon.py:31-100, on the memory of fields of BufferModel.v:
    which buffers are read and overwritten when, and what the monitor is shown.
    Numbers are exact: [x / y] is [x * inv y].  All ranks run the same statements. *)
From Coq Require Import List Arith ZArith Lia Bool.
From Verif Require Import Base ListFacts LayoutModel MeshRoute MeshTile RingModel FieldModel FourierModel EngineModel
  BufferModel UfuncModel.
Import ListNotations.
Local Open Scope Z_scope.

Section Klein.
Variable K : cring.
Local Notation C := (cpx K).
Variable inv : K -> K.
Variable junk : memory K -> addr -> K.
Local Open Scope rg_scope.

(** Field.apply(func, out=None) and apply(func, out=Ellipsis) (pm.py:617-648): the new value of an
    element is a function of its position and its value; slabs and coordinates are those of C63.
    Fields have two or more axes, as in the example (106). *)
Definition apply_real (st : state K) (self : field K) (H : list Z -> K -> K) (inplace : bool) : outcome (field K * state K) :=
  match fl_type K self with
  | RealT =>
      let (out, st) := if inplace then (self, st) else create K st (fl_mesh K self) RealT None in
      let m := st_mem K st in
      Ret (out, mkS K (put_real K m out (on_blocks (fun c => H c (real_at K m self c)) (me_blocks K (fl_mesh K self) RealT))) (st_next K st))
  | _ => Raise AssertionError
  end.
Definition apply_complex (st : state K) (self : field K) (H : list Z -> C -> C) (inplace : bool) : outcome (field K * state K) :=
  match fl_type K self with
  | RealT => Raise AssertionError
  | t =>
      let (out, st) := if inplace then (self, st) else create K st (fl_mesh K self) t None in
      let m := st_mem K st in
      Ret (out, mkS K (put_complex K m out (on_blocks (fun c => H c (complex_at K m self c)) (me_blocks K (fl_mesh K self) t))) (st_next K st))
  end.
(** f[...] = g for complex fields of one type (pm.py:350-354): the values are copied *)
Definition assign (st : state K) (f g : field K) : state K :=
  mkS K (put_complex K (st_mem K st) f (complex_view K (st_mem K st) g)) (st_next K st).

(** a - b, a + b, a * x and a / x (pm.py:169-208) *)
Definition result_kind (l : list kind) : kind :=
  if existsb (fun k => match k with ComplexK => true | _ => false end) l then ComplexK else RealK.
Definition binary (op : C -> C -> C) : ufunc K :=
  mkUf K result_kind (fun l => match l with [a; b] => op a b | _ => c0 end).
Definition np_add := binary (@cadd K).
Definition np_subtract := binary (@csub K).
Definition np_multiply := binary (@cmul K).
(** only by real numbers *)
Definition np_divide := binary (fun a b => cmul a (cof (inv (re b)))).
(** the field that all ranks get; methods of an array are not those of a field *)
Definition arith (st : state K) (u : ufunc K) (args : list (operand K)) : outcome (field K * state K) :=
  let r := call K st u args None in
  match fst r with
  | x :: l => bind x (fun x => match x with
                | RField _ f => if forallb (fun y => match y with Ret (RField _ _) => true | _ => false end) l
                                then Ret (f, snd r) else Garbage
                | RArray _ _ => Raise AttributeError
                end)
  | [] => Garbage
  end.

(** klein-gordon.py:67-81 *)
Definition square (x : K) : K := x * x.
Definition quarter : K := 1 * inv (1 + 1 + 1 + 1).
Definition k_squared (k : list K) : K := fold_left (fun s ki => s + square ki) k 0.
Definition factor_n (dt : K) (k : list K) : K := 1 * inv (square dt) - quarter * (- k_squared k) + quarter.
Definition factor_n_1 (dt : K) (k : list K) : K := (- (1)) * inv (square dt) - quarter * (- k_squared k) + quarter.
Definition transfer_n_1 (dt : K) (k : list K) (v : C) : C := cmul (cof (factor_n_1 dt k)) v.
Definition transfer_n (dt : K) (k : list K) (v : C) : C := cmul (cof (1 * inv (factor_n dt k))) v.

(** what the monitor is called with: the time, the step and the modes of the two fields *)
Record entry := mkE { e_time : K; e_step : K; e_u : list (lfield C); e_du : list (lfield C) }.

Section Solver.
(** 2 pi / BoxSize of each axis, and the function F *)
Variable units : list K.
Variable F : K -> K.
Definition k_of (me : mesh K) (i : list Z) : list K := wave K units (me_nmesh K me) i.

(** klein-gordon.py:83-88; the operand of the first subtraction is made from a copy of u_k_n_1 *)
Definition kg_next (st : state K) (u1 u2 : field K) (dt : K) : outcome (field K * state K) :=
  let k := k_of (fl_mesh K u1) in
  bind (c2r K junk st u1 (OutNone K)) (fun '(v, st) =>
  bind (apply_real st v (fun _ => F) true) (fun '(v, st) =>
  bind (r2c K junk st v (OutSelf K)) (fun '(w, st) =>
  bind (apply_complex st u1 (fun i => transfer_n_1 dt (k i)) false) (fun '(z, st) =>
  bind (arith st np_subtract [OpField K w; OpField K z]) (fun '(d, st) =>
  bind (apply_complex st d (fun i => transfer_n dt (k i)) true) (fun '(d, st) =>
  arith st np_subtract [OpField K d; OpField K u2])))))).

(** monitor(t, dt, u_k_n_1, (u_k_n - u_k_n_1) / step) (91, 98) *)
Definition kg_monitor (st : state K) (t dt step : K) (u1 un : field K) : outcome (entry * state K) :=
  bind (arith st np_subtract [OpField K un; OpField K u1]) (fun '(d, st) =>
  bind (arith st np_divide [OpField K d; OpNumber K RealK (cof step)]) (fun '(d, st) =>
  Ret (mkE t dt (complex_view K (st_mem K st) u1) (complex_view K (st_mem K st) d), st))).

(** klein-gordon.py:66-95.  [un] is the variable u_k_n with the dt it was made with, if they have been assigned. *)
Fixpoint kg_loop (monitor : bool) (l : list (K * K)) (u1 u2 : field K) (un : option (field K * K)) (log : list entry) (st : state K)
  : outcome (option (field K * K) * list entry * state K) :=
  match l with
  | [] => Ret (un, log, st)
  | (t, dt) :: l =>
      bind (kg_next st u1 u2 dt) (fun '(un, st) =>
      bind (if monitor then bind (kg_monitor st t dt dt u1 un) (fun '(e, st) => Ret (log ++ [e], st)) else Ret (log, st)) (fun '(log, st) =>
      let st := assign st u2 u1 in
      let st := assign st u1 un in
      kg_loop monitor l u1 u2 (Some (un, dt)) log st))
  end.

(** numpy.diff *)
Fixpoint diff (l : list K) : list K :=
  match l with
  | a :: (b :: _) as r => b - a :: diff r
  | _ => []
  end.

(** klein-gordon.py:58-100.  Using u_k_n before the loop assigned it is an UnboundLocalError, which
    is a NameError. *)
Definition kgsolver (monitor : bool) (steps : list K) (u0 du0 : field K) (st : state K) : outcome (field K * list entry * state K) :=
  let dsteps := diff steps in
  bind (r2c K junk st u0 (OutNone K)) (fun '(u2, st) =>
  match dsteps with
  | [] => Raise IndexError
  | dt0 :: rest =>
      bind (arith st np_multiply [OpField K du0; OpNumber K RealK (cof dt0)]) (fun '(p, st) =>
      bind (arith st np_add [OpField K u0; OpField K p]) (fun '(p, st) =>
      bind (r2c K junk st p (OutNone K)) (fun '(u1, st) =>
      bind (if monitor then
              bind (r2c K junk st u0 (OutNone K)) (fun '(a, st) =>
              bind (r2c K junk st du0 (OutNone K)) (fun '(b, st) =>
              Ret ([mkE (hd 0 steps) dt0 (complex_view K (st_mem K st) a) (complex_view K (st_mem K st) b)], st)))
            else Ret ([], st)) (fun '(log, st) =>
      bind (kg_loop monitor (combine (tl steps) rest) u1 u2 None log st) (fun '(un, log, st) =>
      match un with
      | None => Raise NameError
      | Some (un, dt) =>
          bind (if monitor then bind (kg_monitor st (last steps 0) 0 dt u1 un) (fun '(e, st) => Ret (log ++ [e], st))
                else Ret (log, st)) (fun '(log, st) =>
          bind (c2r K junk st un (OutNone K)) (fun '(u, st) => Ret (u, log, st)))
      end)))))
  end).
End Solver.
End Klein.
