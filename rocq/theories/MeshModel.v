(** Model of the distributed mesh: [ParticleMesh] as far as it routes particles
    (pmesh/pm.py:1294-1487, 1753-2026) and [RealField.readout] (745-859).

    A collective method is a function from the list of all ranks' arguments to the
    list of all ranks' outcomes.  pfft's partition of the mesh is an argument.
    Positions have exactly one coordinate per dimension of the mesh.  An optional
    per-particle argument is given in the same form (absent, scalar, array) on all
    ranks. *)
From Coq Require Import List Arith ZArith QArith Qround Lia Bool.
From Verif Require Import Base LayoutModel WrapModel DomainModel DomainFill WindowModel WindowApi.
Import ListNotations.
Local Open Scope Q_scope.

(** * Construction *)

(** what pmesh uses of [pfft.Partition]: the edges of the blocks along each axis, and
    the first cell and the extent of each rank's block *)
Record partition := { i_edges : list (list Z);
                      local_i_start : list (list Z);
                      local_i_shape : list (list Z) }.

(** one rank's [ParticleMesh] *)
Record pm := { pm_Nmesh : list Z; pm_BoxSize : list Q; pm_domain : grid;
               pm_start : list Z; pm_shape : list Z;
               pm_affine : affine; pm_affine_grid : affine; pm_resampler : window }.

(** [numpy.flatnonzero(iedges == istart)[0]], pm.py:1452 *)
Fixpoint first_index (x : Z) (l : list Z) : option nat :=
  match l with
  | [] => None
  | y :: r => if (y =? x)%Z then Some O else option_map S (first_index x r)
  end.
(** pm.py:1450-1453 *)
Definition domain_shape (edges : list (list Z)) : list Z :=
  map (fun g => Z.of_nat (length g) - 1)%Z edges.
Definition ilocal_of (edges : list (list Z)) (start : list Z) : outcome Z :=
  match sequence (map (fun p => first_index (fst p) (snd p)) (combine start edges)) with
  | None => Raise IndexError
  | Some c => ravel_raise (domain_shape edges) (map Z.of_nat c)
  end.
(** pm.py:1455-1459: slices written into an uninitialised array, in rank order *)
Definition domain_assign (size P : nat) (ilocals : list Z) : list (option nat) :=
  fold_left (fun a ri => write_slice (Z.to_nat (snd ri * Z.of_nat size / Z.of_nat P))
                                     (Z.to_nat ((snd ri + 1) * Z.of_nat size / Z.of_nat P)) (fst ri) a)
            (combine (seq 0 (length ilocals)) ilocals) (repeat None size).
(** domain.py:370-407 with a DomainAssign; an entry that was never written is
    whatever the memory held *)
Definition GridND (edges : list (list Q)) (assign : list (option nat)) : outcome grid :=
  bind (force assign) (fun a => Ret (mkGrid edges true a (degenerate_flags edges))).

(** pm.py:1355-1358, 1446-1474.  The collective allgather of line 1454: if a rank raised
    before, the others wait. *)
Definition ParticleMesh (Nmesh : list Z) (BoxSize : value Q) (resampler : window) (pt : partition)
    : list (outcome pm) :=
  let P := length (local_i_start pt) in
  let ilocals := map (ilocal_of (i_edges pt)) (local_i_start pt) in
  match all_ret ilocals with
  | None => block_rest ilocals
  | Some il =>
      let size := Z.to_nat (prodz (domain_shape (i_edges pt))) in
      let ndim := length Nmesh in
      map (fun r =>
        bind (mkarr BoxSize ndim) (fun box =>
        bind (GridND (map (map inject_Z) (i_edges pt)) (domain_assign size P il)) (fun g =>
        let start := nth r (local_i_start pt) [] in
        let translate := Some (Array (map (fun s => inject_Z (- s)) start)) in
        bind (Affine ndim (Some (Array (map (fun p => 1 * inject_Z (fst p) / snd p) (combine Nmesh box))))
                     translate (Some (Array Nmesh))) (fun aff =>
        bind (Affine ndim (Some (Scalar 1)) translate (Some (Array Nmesh))) (fun affg =>
        Ret {| pm_Nmesh := Nmesh; pm_BoxSize := box; pm_domain := g; pm_start := start;
               pm_shape := nth r (local_i_shape pt) []; pm_affine := aff; pm_affine_grid := affg;
               pm_resampler := resampler |}))))) (seq 0 P)
  end.

(** * Decomposition *)

(** the argument [smoothing] of [decompose]: None, a window, or numbers *)
Inductive smoothing_arg := SmoothDefault | SmoothWindow (w : window) | SmoothNumber (v : value Q).

(** pm.py:1774-1781 *)
Definition smoothing_value (p : pm) (s : smoothing_arg) : value Q :=
  match s with
  | SmoothDefault => Scalar (inject_Z (w_support (pm_resampler p)) * (1#2))
  | SmoothWindow w => Scalar (inject_Z (w_support w) * (1#2))
  | SmoothNumber v => v
  end.
(** pm.py:1787-1789: the scale of the transform, without its translation *)
Definition transform0 (t : affine) (x : list Q) : list Q :=
  map (fun sx => fst sx * snd sx) (combine (af_scale t) x).
(** an optional transform per rank; [self.affine] by default *)
Definition transform_at (pms : list pm) (ts : option (list affine)) (r : nat) : option affine :=
  match ts with
  | Some l => nth_error l r
  | None => option_map pm_affine (nth_error pms r)
  end.
(** pm.py:1753-1792; domain.py:590-593 broadcasts the smoothing *)
Definition decompose_args (pms : list pm) (s : smoothing_arg) (ts : option (list affine))
    (poss : list (list (list Q))) : list (outcome layout_arg) :=
  map (fun r =>
    match nth_error pms r, transform_at pms ts r, nth_error poss r with
    | Some p, Some t, Some pos =>
        bind (mkarr (smoothing_value p s) (length (g_edges (pm_domain p)))) (fun sm =>
        decompose (length pms) (pm_domain p) (transform0 t) sm pos)
    | _, _, _ => Blocked
    end) (seq 0 (length pms)).
Definition pm_decompose (pms : list pm) (s : smoothing_arg) (ts : option (list affine))
    (poss : list (list (list Q))) : list (outcome layout) :=
  let args := decompose_args pms s ts poss in
  match all_ret args with
  | Some a => map Ret (layout_init a)
  | None => block_rest args
  end.

(** * Painting and reading *)

(** a rank's array and its contents *)
Record field := { f_array : array; f_data : memory }.
Definition with_data (f : field) (m : memory) : field := {| f_array := f_array f; f_data := m |}.

(** [out.value[...] = c] *)
Definition fill (real : array) (m : memory) (c : Q) : memory :=
  fun a => if existsb (fun idx => (byte_offset (ar_strides real) idx =? a)%Z) (elements real) then c else m a.

(** an optional per-particle argument on all ranks *)
Inductive wvalue := WNone | WScalar (l : list Q) | WArray (l : list (list Q)).
Definition local_arg (v : wvalue) (r : nat) : option (value Q) :=
  match v with
  | WNone => None
  | WScalar l => option_map Scalar (nth_error l r)
  | WArray l => option_map Array (nth_error l r)
  end.

(** [layout.exchange] of an array, which must be completely written *)
Definition exchange_full {A} (ls : list layout) (data : list (list A)) : list (outcome (list A)) :=
  map (fun o => bind o force) (exchange1 ls data).
(** the helper [exchange], pm.py:1146-1157 *)
Definition exchange_value (ls : list layout) (v : wvalue) : outcome wvalue :=
  match v with
  | WArray l => match all_ret (exchange_full ls l) with Some x => Ret (WArray x) | None => Blocked end
  | v => Ret v
  end.

(** pm.py:1849-1851: paint on every rank without a layout *)
Definition paint_local (w : window) (ts : list affine) (gradient : option Z) (outs : list field)
    (poss : list (list (list Q))) (hsml mass : wvalue) : list (outcome memory) :=
  map (fun r =>
    match nth_error outs r, nth_error ts r, nth_error poss r with
    | Some f, Some t, Some pos =>
        window_paint w (f_array f) (f_data f) pos (local_arg hsml r) (local_arg mass r) gradient (Some t)
    | _, _, _ => Blocked
    end) (seq 0 (length outs)).

Definition resampler_of (pms : list pm) (w : option window) : window :=
  match w with
  | Some w => w
  | None => match pms with p :: _ => pm_resampler p | [] => ResampleWindow TunedCIC 0 end
  end.
Definition transforms (pms : list pm) (ts : option (list affine)) : list affine :=
  match ts with Some l => l | None => map pm_affine pms end.

(** pm.py:1794-1868, with [out] given.  A failing exchange leaves no rank able to
    paint. *)
Definition pm_paint (pms : list pm) (w : option window) (ts : option (list affine)) (hold : bool)
    (gradient : option Z) (ls : option (list layout)) (outs : list field)
    (poss : list (list (list Q))) (hsml mass : wvalue) : list (outcome memory) :=
  let w := resampler_of pms w in
  let ts := transforms pms ts in
  let outs := if hold then outs else map (fun f => with_data f (fill (f_array f) (f_data f) 0)) outs in
  match ls with
  | None => paint_local w ts gradient outs poss hsml mass
  | Some ls =>
      match all_ret (exchange_full ls poss), exchange_value ls mass, exchange_value ls hsml with
      | Some lpos, Ret lmass, Ret lhsml => paint_local w ts gradient outs lpos lhsml lmass
      | None, _, _ => block_rest (exchange_full ls poss)
      | _, _, _ => map (fun _ => Blocked) outs
      end
  end.

(** pm.py:779-780 *)
Definition readout_local (w : window) (ts : list affine) (gradient : option Z) (fields : list field)
    (poss : list (list (list Q))) (hsml : wvalue) : list (outcome (list Q)) :=
  map (fun r =>
    match nth_error fields r, nth_error ts r, nth_error poss r with
    | Some f, Some t, Some pos =>
        window_readout w (f_array f) (f_data f) pos (local_arg hsml r) gradient (Some t)
    | _, _, _ => Blocked
    end) (seq 0 (length fields)).
(** pm.py:745-791: with a layout the values are summed on the rank that asked *)
Definition pm_readout (pms : list pm) (w : option window) (ts : option (list affine))
    (gradient : option Z) (ls : option (list layout)) (fields : list field)
    (poss : list (list (list Q))) (hsml : wvalue) : list (outcome (list Q)) :=
  let w := resampler_of pms w in
  let ts := transforms pms ts in
  match ls with
  | None => readout_local w ts gradient fields poss hsml
  | Some ls =>
      match all_ret (exchange_full ls poss), exchange_value ls hsml with
      | Some lpos, Ret lhsml =>
          let locals := readout_local w ts gradient fields lpos lhsml in
          match all_ret locals with
          | Some values => gather_sum Qplus 0 ls values
          | None => block_rest locals
          end
      | None, _ => block_rest (exchange_full ls poss)
      | _, _ => map (fun _ => Blocked) fields
      end
  end.
