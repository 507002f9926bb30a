(** The particle mesh forces and the integrators of examples/nbody.py:84-175, 199-218.
    Positions and masses are rational as in MeshModel.v; the fields live in a commutative
    ring [K] that contains the rational numbers through [inj], with the roots of unity of
    FourierModel.v. *)
From Coq Require Import List Arith ZArith QArith Lia Bool.
From Verif Require Import EngineModel Base ListFacts LayoutModel WrapModel DomainModel DomainFill WindowModel WindowApi MeshModel MeshRoute MeshPaint MeshTile
  RingModel FieldModel FourierModel EnginePaint.
Import ListNotations.
Local Open Scope Q_scope.

Section Nbody.
Variable K : cring.
Local Notation C := (cpx K).
Variable inj : Q -> K.
Local Open Scope rg_scope.

(** ** Fields *)
(** the blocks of a RealField whose memory holds rational numbers *)
Definition real_blocks (pms : list pm) (arrays : list array) (ms : list memory) : list (lfield K) :=
  map (fun q => mkL (pm_start (fst q)) (pm_shape (fst q))
                    (map (fun idx => inj (elem (fst (snd q)) (snd (snd q)) idx)) (elements (fst (snd q)))))
      (combine pms (combine arrays ms)).
(** a field that is one in the cell [idx] of rank [r] and zero elsewhere *)
Definition spike (arrays : list array) (r : nat) (idx : list Z) : list field :=
  map (fun q => {| f_array := nth q arrays (f_array zero_field);
                   f_data := fun a => if (q =? r)%nat && (a =? byte_offset (ar_strides (nth q arrays (f_array zero_field))) idx)%Z then 1%Q else 0%Q |})
      (seq 0 (length arrays)).
(** all cells of a field: rank, index on the rank, value *)
Definition cells_with (arrays : list array) (Fs : list (lfield K)) : list (nat * list Z * K) :=
  flat_map (fun r => map (fun p => (r, fst p, snd p)) (combine (elements (nth r arrays (f_array zero_field))) (lvals (nth r Fs (mkL [] [] [])))))
           (seq 0 (length arrays)).
(** pm.readout (pm.py:745-791, MeshModel.v) of a field over [K].  Reading is linear in the
    field: the value is the sum over the cells of the value of the field times what is read
    from the field that is one in this cell.  C87_readout_rational shows that this is
    pm_readout for fields of rational numbers.  None: a rank has raised or waits. *)
Definition readout_in (pms : list pm) (w : option window) (ls : list layout) (arrays : list array) (Fs : list (lfield K))
    (poss : list (list (list Q))) : option (list (list K)) :=
  match sequence (map (fun c => option_map (pair (snd c)) (all_ret (pm_readout pms w None None (Some ls) (spike arrays (fst (fst c)) (snd (fst c))) poss WNone)))
                      (cells_with arrays Fs)) with
  | Some reads => Some (map (fun s => map (fun i => rsum (fun y => fst y * inj (nth i (nth s (snd y) []) 0%Q)) reads) (seq 0 (length (nth s poss []))))
                            (seq 0 (length poss)))
  | None => None
  end.

(** ** Transfer functions *)
(** numpy.sin, 1 / x, x == 0, and 2 pi *)
Variables (sine inv : K -> K) (is0 : K -> bool) (twopi : K).
(** the circular wave numbers: multiples of 2 pi / BoxSize *)
Definition units (box : list Q) : list K := map (fun L => twopi * inv (inj L)) box.
(** [k2 = sum(ki ** 2 for ki in k); k2[k2 == 0] = 1.0] *)
Definition squared (k : list K) : K := let k2 := rsum (fun q => q * q) k in if is0 k2 then 1 else k2.
(** nbody.py:154-160, the factor in front of [v]: 1j * kfinite / k2 *)
Definition dx1_transfer (direction : nat) (k : list K) : C := (0, nth direction k 0 * inv (squared k)).
(** nbody.py:162-170; C = (v.BoxSize / v.Nmesh)[direction] *)
Definition force_transfer (Nmesh : list Z) (box : list Q) (direction : nat) (k : list K) : C :=
  let C := inj (nth direction box 0%Q) * inv (zin K (nth direction Nmesh 0%Z)) in
  let w := nth direction k 0 * C in
  let kfinite := inv C * inv (zin K 6) * (zin K 8 * sine w - sine (zin K 2 * w)) in
  (0, kfinite * inv (squared k)).
(** nbody.py:172-175 *)
Definition pot_transfer (k : list K) : C := (- inv (squared k), 0).

(** ** Forces *)
Variables (roots : list C) (invs : list K).
(** nbody.py:199-218.  [outs] are the memory of the new field [rho1] and of the results of c2r,
    [Mid] the blocks of the complex field; [tf d] stands for force_transfer(d), [wr] for the
    resampler of readout (None in the code), [om] for 1.5 * pt.Om0.  The result is F[..., d] for
    every d, for every rank and particle.  None: a rank has raised or waits. *)
Definition forces (tf : nat -> list K -> C) (wr : option window) (om : K) (pms : list pm) (Nmesh : list Z) (box : list Q) (outs : list field) (Mid : list (lfield C))
    (X : list (list (list Q))) : option (list (list (list K))) :=
  let support := match pms with p :: _ => w_support (pm_resampler p) | [] => 0%Z end in
  match all_ret (pm_decompose pms (SmoothNumber (Scalar (1 * inject_Z support)%Q)) None X) with
  | None => None
  | Some ls =>
      match all_ret (pm_paint pms None None false None (Some ls) outs X WNone (unit_mass pms)) with
      | None => None
      | Some ms =>
          let arrays := map f_array outs in
          let fac := factor pms X in
          let rho1 := real_blocks pms arrays (map (fun p => scale_by (fst p) (snd p) fac) (combine arrays ms)) in
          let rhok := r2c K roots invs rho1 Mid in
          sequence (map (fun d =>
            option_map (map (map (fun f => om * f)))
              (readout_in pms wr ls arrays (c2r K Nmesh roots (map (on_modes K (fun i v => cmul (tf d (wave K (units box) Nmesh i)) v)) rhok) rho1) X))
            (seq 0 (length Nmesh)))
      end
  end.
Definition force (om : K) (pms : list pm) (Nmesh : list Z) (box : list Q) (outs : list field) (Mid : list (lfield C)) (Qpos S : list (list (list Q)))
  : option (list (list (list K))) :=
  forces (force_transfer Nmesh box) None om pms Nmesh box outs Mid (map2 (map2 (map2 Qplus)) S Qpos).

(** ** Integrators *)
(** [store] is what becomes of a number that is written into the array of positions *)
Variable store : K -> Q.
(** S (displacements), V and F; V and F by component, rank and particle *)
Record state := mkState { st_S : list (list (list Q)); st_V : list (list (list K)); st_F : list (list (list K)) }.
(** [V[...] += F * k], [S[...] += V * d], [F[...] = force(pm, Q, S)] *)
Inductive instr := Kick (k : K) | Drift (d : K) | Pull.
Definition kick (k : K) (V F : list (list (list K))) : list (list (list K)) := map2 (map2 (map2 (fun v f => v + f * k))) V F.
Definition drift (nd : nat) (d : K) (S : list (list (list Q))) (V : list (list (list K))) : list (list (list Q)) :=
  map (fun s => map (fun i => map (fun c => store (inj (nth c (nth i (nth s S []) []) 0%Q) + nth i (nth s (nth c V []) []) 0 * d)) (seq 0 nd))
                    (seq 0 (length (nth s S [])))) (seq 0 (length S)).
Definition step (pull : list (list (list Q)) -> option (list (list (list K)))) (nd : nat) (i : instr) (st : state) : option state :=
  match i with
  | Kick k => Some (mkState (st_S st) (kick k (st_V st) (st_F st)) (st_F st))
  | Drift d => Some (mkState (drift nd d (st_S st) (st_V st)) (st_V st) (st_F st))
  | Pull => option_map (mkState (st_S st) (st_V st)) (pull (st_S st))
  end.
Fixpoint run (pull : list (list (list Q)) -> option (list (list (list K)))) (nd : nat) (prog : list instr) (st : state) : option state :=
  match prog with
  | [] => Some st
  | i :: prog => match step pull nd i st with Some st => run pull nd prog st | None => None end
  end.
(** times, their combinations ((ai * af) ** 0.5, ...), and factors.K, factors.D *)
Variables (T : Type) (Kf Df : T -> T -> T -> K).
Definition intervals (ts : list T) : list (T * T) := combine (removelast ts) (tl ts).
(** nbody.py:84-102 *)
Definition symp2 (mid : T -> T -> T) (ts : list T) : list instr :=
  Pull :: flat_map (fun p => let ai := fst p in let af := snd p in let ac := mid ai af in
                             [Kick (Kf ai ac ai); Drift (Df ai af ac); Pull; Kick (Kf ac af af)]) (intervals ts).
(** nbody.py:104-136 *)
Definition symp3 (c2 d1 d2 : T -> T -> T) (ts : list T) : list instr :=
  Pull :: flat_map (fun p => let ai := fst p in let af := snd p in
                             let ac1 := af in let ac2 := c2 ai af in let ac3 := af in
                             let ad1 := d1 ai af in let ad2 := d2 ai af in let ad3 := af in
                             [Drift (Df ai ac1 ai); Pull; Kick (Kf ai ad1 af); Drift (Df af ac2 ad1); Pull; Kick (Kf ad1 ad2 ac2);
                              Drift (Df ac2 ac3 ad2); Pull; Kick (Kf ad2 ad3 ac3)]) (intervals ts).
(** nbody.py:137-152 *)
Definition symp1 (ts : list T) : list instr :=
  Pull :: flat_map (fun p => let ai := fst p in let af := snd p in
                             [Pull; Kick (Kf ai af ai); Drift (Df ai af af); Pull]) (intervals ts).
End Nbody.
