(** The memory of fields (pmesh/pm.py:217-265, 450-477, 479-547, 655-694, 987-1019,
    1601-1633): which buffer a transform reads, which it overwrites, and which plan
    it runs.  A buffer is the memory of one pfft.LocalBuffer on all ranks; an address
    is a rank and an offset in units of one real number.  The views of a buffer as
    a RealField and as the two kinds of complex field are address maps.  Values are
    those of FourierModel.v.  Only real dtypes ('f4', 'f8') are modelled. *)
From Coq Require Import List Arith ZArith Lia Bool.
From Verif Require Import Base ListFacts LayoutModel MeshTile RingModel FieldModel FourierModel.
Import ListNotations.
Local Open Scope Z_scope.

(** pm.py:651, 1072-1088 *)
Inductive ftype := RealT | TransposedT | UntransposedT.
Definition ftype_eqb (a b : ftype) : bool :=
  match a, b with RealT, RealT | TransposedT, TransposedT | UntransposedT, UntransposedT => true | _, _ => false end.

Definition addr : Type := nat * Z.
Definition addr_eqb (a b : addr) : bool := (fst a =? fst b)%nat && (snd a =? snd b).
(** a complex number is stored as two consecutive real numbers *)
Definition next_addr (a : addr) : addr := (fst a, snd a + 1).

Section Buffers.
Variable K : cring.
Local Notation C := (cpx K).

Definition buffer := nat.
Definition memory := buffer -> addr -> K.

(** what a ParticleMesh tells its fields: the size of the mesh, the flag of
    pm.py:1326-1332, the blocks of the ranks (starts and shapes) and the address of
    every element, for the partition of each type (pm.py:1489-1502) *)
Record mesh := mkMesh {
  me_nmesh : list Z;
  me_roots : list C;
  me_invs : list K;
  me_padded : bool;
  me_blocks : ftype -> list (list Z * list Z);
  me_at : ftype -> list Z -> addr
}.
(** a field object: pm, type(self) and _base (pm.py:220-236) *)
Record field := mkF { fl_mesh : mesh; fl_type : ftype; fl_buf : buffer }.
Record state := mkS { st_mem : memory; st_next : buffer }.

(** self.value (pm.py:236, 240) *)
Definition real_at (m : memory) (f : field) (c : list Z) : K := m (fl_buf f) (me_at (fl_mesh f) (fl_type f) c).
Definition complex_at (m : memory) (f : field) (k : list Z) : C :=
  let a := me_at (fl_mesh f) (fl_type f) k in (m (fl_buf f) a, m (fl_buf f) (next_addr a)).
Definition on_blocks {V} (g : list Z -> V) (bs : list (list Z * list Z)) : list (lfield V) :=
  map (fun b => on_block g (mkL (V := V) (fst b) (snd b) [])) bs.
Definition real_view (m : memory) (f : field) : list (lfield K) := on_blocks (real_at m f) (me_blocks (fl_mesh f) (fl_type f)).
Definition complex_view (m : memory) (f : field) : list (lfield C) := on_blocks (complex_at m f) (me_blocks (fl_mesh f) (fl_type f)).

(** value[...] = array; numpy reads the right hand side before it writes where the
    two overlap *)
Definition poke (m : memory) (b : buffer) (a : addr) (v : K) : memory :=
  fun b' a' => if ((b' =? b)%nat && addr_eqb a' a)%bool then v else m b' a'.
Definition put_real (m : memory) (f : field) (Ls : list (lfield K)) : memory :=
  fold_left (fun m p => poke m (fl_buf f) (me_at (fl_mesh f) (fl_type f) (fst p)) (snd p)) (flat_map (cells_values (V := K)) Ls) m.
Definition put_complex (m : memory) (f : field) (Ls : list (lfield C)) : memory :=
  fold_left (fun m p => let a := me_at (fl_mesh f) (fl_type f) (fst p) in
                        poke (poke m (fl_buf f) a (re (snd p))) (fl_buf f) (next_addr a) (im (snd p)))
            (flat_map (cells_values (V := C)) Ls) m.

(** type(pm, base) (pm.py:220-228): without a base a new buffer is allocated and not
    initialised, with a base the memory is shared *)
Definition create (st : state) (me : mesh) (t : ftype) (base : option buffer) : field * state :=
  match base with
  | Some b => (mkF me t b, st)
  | None => (mkF me t (st_next st), mkS (st_mem st) (S (st_next st)))
  end.
(** ParticleMesh.create(type, base, value) (pm.py:1601-1633) *)
Definition create_real (st : state) (me : mesh) (base : option buffer) (Ls : list (lfield K)) : field * state :=
  let (r, st) := create st me RealT base in (r, mkS (put_real (st_mem st) r Ls) (st_next st)).
Definition create_complex (st : state) (me : mesh) (t : ftype) (base : option buffer) (Ls : list (lfield C)) : field * state :=
  let (r, st) := create st me t base in (r, mkS (put_complex (st_mem st) r Ls) (st_next st)).

(** pfft is free to leave anything in the padding of the output and, where the plan
    was made without PFFT_PRESERVE_INPUT, in the input *)
Variable junk : memory -> addr -> K.
Definition scramble (m : memory) (b : buffer) : memory := fun b' a => if (b' =? b)%nat then junk m a else m b' a.

(** pm.py:1405-1446: a plan is made for the same buffer or for different ones, and
    for one of the two complex types *)
Record plan := mkP { pl_inplace : bool; pl_type : ftype }.
Definition forwardT := mkP false TransposedT.
Definition ipforwardT := mkP true TransposedT.
Definition forwardU := mkP false UntransposedT.
Definition ipforwardU := mkP true UntransposedT.
Definition backwardT := mkP false TransposedT.
Definition ipbackwardT := mkP true TransposedT.
Definition backwardU := mkP false UntransposedT.
Definition ipbackwardU := mkP true UntransposedT.

(** Plan.execute(src, dst): undefined for buffers unlike those the plan was made for *)
Definition execute_forward (me : mesh) (p : plan) (m : memory) (src dst : buffer) : outcome memory :=
  if Bool.eqb (src =? dst)%nat (pl_inplace p) then
    let Ls := real_view m (mkF me RealT src) in
    let m1 := if (me_padded me || pl_inplace p)%bool then m else scramble m src in
    let m2 := scramble m1 dst in
    Ret (put_complex m2 (mkF me (pl_type p) dst)
           (on_blocks (dft_forward K (me_roots me) (map (as_complex K) Ls)) (me_blocks me (pl_type p))))
  else Garbage.
Definition execute_backward (me : mesh) (p : plan) (m : memory) (src dst : buffer) : outcome memory :=
  if Bool.eqb (src =? dst)%nat (pl_inplace p) then
    let Ls := complex_view m (mkF me (pl_type p) src) in
    let m1 := if (me_padded me || pl_inplace p)%bool then m else scramble m src in
    let m2 := scramble m1 dst in
    Ret (put_real m2 (mkF me RealT dst) (on_blocks (dft_c2r K (me_nmesh me) (me_roots me) Ls) (me_blocks me RealT)))
  else Garbage.

(** the argument out: None, Ellipsis or the field itself, or another field *)
Inductive out_arg := OutNone | OutSelf | OutField (f : field).

(** pm.py:655-694 *)
Definition r2c (st : state) (self : field) (out : out_arg) : outcome (field * state) :=
  match fl_type self with
  | RealT =>
      let me := fl_mesh self in
      let (out, st) := match out with
                       | OutNone => create st me TransposedT None
                       | OutSelf => create st me TransposedT (Some (fl_buf self))
                       | OutField f => (f, st)
                       end in
      match fl_type out with
      | RealT => Raise AssertionError
      | t =>
          let (self, st) := if me_padded me then (self, st)
                            else create_real st me (Some (fl_buf out)) (real_view (st_mem st) self) in
          let plan := if (fl_buf self =? fl_buf out)%nat
                      then match t with UntransposedT => ipforwardU | _ => ipforwardT end
                      else match t with UntransposedT => forwardU | _ => forwardT end in
          bind (execute_forward me plan (st_mem st) (fl_buf self) (fl_buf out)) (fun m =>
            Ret (out, mkS (put_complex m out (map (scale_c K (rprod K (me_invs me))) (complex_view m out))) (st_next st)))
      end
  | _ => Raise AttributeError
  end.

(** pm.py:987-1019 *)
Definition c2r (st : state) (self : field) (out : out_arg) : outcome (field * state) :=
  match fl_type self with
  | RealT => Raise AttributeError
  | t =>
      let me := fl_mesh self in
      let (out, st) := match out with
                       | OutNone => create st me RealT None
                       | OutSelf => create st me RealT (Some (fl_buf self))
                       | OutField f => (f, st)
                       end in
      match fl_type out with
      | RealT =>
          let (self, st) := if me_padded me then (self, st)
                            else create_complex st me t (Some (fl_buf out)) (complex_view (st_mem st) self) in
          let plan := if (fl_buf out =? fl_buf self)%nat
                      then match t with UntransposedT => ipbackwardU | _ => ipbackwardT end
                      else match t with UntransposedT => backwardU | _ => backwardT end in
          bind (execute_backward me plan (st_mem st) (fl_buf self) (fl_buf out)) (fun m =>
            Ret (out, mkS m (st_next st)))
      | _ => Raise AssertionError
      end
  end.

(** pm.py:217-218 *)
Definition copy (st : state) (self : field) : field * state :=
  match fl_type self with
  | RealT => create_real st (fl_mesh self) None (real_view (st_mem st) self)
  | t => create_complex st (fl_mesh self) t None (complex_view (st_mem st) self)
  end.

(** pm.py:450-477 *)
Definition cast (st : state) (self : field) (t : ftype) (out : option field) : outcome (field * state) :=
  let me := fl_mesh self in
  let (out, st) := create st me t (option_map fl_buf out) in
  match fl_type self, t with
  | RealT, RealT => Ret (out, mkS (put_real (st_mem st) out (real_view (st_mem st) self)) (st_next st))
  | RealT, _ => r2c st self (OutField out)
  | _, RealT => c2r st self (OutField out)
  | s, _ =>
      if ftype_eqb s t then Ret (out, mkS (put_complex (st_mem st) out (complex_view (st_mem st) self)) (st_next st))
      else
        let (tmp, st) := create st me RealT (Some (fl_buf out)) in
        bind (c2r st self (OutField tmp)) (fun r => r2c (snd r) (fst r) (OutField out))
  end.

(** the compressed sizes (pm.py:241) *)
Definition me_cshape (me : mesh) : list Z := removelast (me_nmesh me) ++ [last (me_nmesh me) 0 / 2 + 1].

(** pm.py:479-547 *)
Definition resample (st : state) (self out : field) : outcome (field * state) :=
  bind (if forallb (fun p => fst p =? snd p) (combine (me_nmesh (fl_mesh out)) (me_nmesh (fl_mesh self)))
        then cast st self (fl_type out) (Some out) else Ret (out, st)) (fun r =>
  bind (cast (snd r) self TransposedT None) (fun r =>
  let (self, st) := r in
  let (complex, st) := create_complex st (fl_mesh out) TransposedT (Some (fl_buf out))
                         (on_blocks (fun _ => c0) (me_blocks (fl_mesh out) TransposedT)) in
  match all_ret (FieldModel.resample K (me_nmesh (fl_mesh self)) (me_cshape (fl_mesh self)) (complex_view (st_mem st) self)
                   (me_nmesh (fl_mesh out)) (complex_view (st_mem st) complex)) with
  | None => Raise ValueError
  | Some Ls =>
      let st := mkS (put_complex (st_mem st) complex Ls) (st_next st) in
      match fl_type out with
      | RealT => bind (c2r st complex (OutField out)) (fun r => Ret (out, snd r))
      | _ => Ret (out, st)
      end
  end)).
End Buffers.
