(** Model of [lic], the line integral convolution (pmesh/lic.py:4-78), on all ranks.
    The texture is given (line 51, the default texture, is not modelled here); there is
    one vector field per dimension; the kernel is a function of the rational line coordinate;
    the power 0.5 of line 45 is an argument.  A rank that fails before the loop stops the
    others at the first [decompose]; without any step there would be none to stop them. *)
From Coq Require Import List Arith ZArith QArith Qabs Qround Qminmax Lia Bool.
From Verif Require Import Base LayoutModel WrapModel DomainModel DomainFill WindowModel WindowApi MeshModel MeshPaint MeshResample MeshMoved.
Import ListNotations.
Local Open Scope Q_scope.

(** all ranks leave one collective call and go on to the next *)
Definition then_all {A B} (l : list (outcome A)) (f : list A -> list (outcome B)) : list (outcome B) :=
  match all_ret l with Some x => f x | None => block_rest l end.

(** a new array of the values [g idx] *)
Definition store (real : array) (m : memory) (g : list Z -> Q) : memory :=
  fun a => match find (fun idx => (byte_offset (ar_strides real) idx =? a)%Z) (elements real) with
           | Some idx => g idx
           | None => m a
           end.
Definition f_elem (f : field) (idx : list Z) : Q := elem (f_array f) (f_data f) idx.

(** lic.py:44-48 on one rank: the vectors over their length, or over one where that is zero *)
Definition norm_of (root : Q -> Q) (vs : list Q) : Q :=
  let a := root (fold_left (fun s v => s + v * v) vs 0) in if Qeq_bool a 0 then 1 else a.
Definition normalize_local (root : Q -> Q) (vs : list field) : list field :=
  map (fun v => with_data v (store (f_array v) (f_data v)
                 (fun idx => f_elem v idx / norm_of root (map (fun u => f_elem u idx) vs)))) vs.
(** a list over ranks for each dimension, as a list over dimensions on rank [r] *)
Definition on_rank {A} (d : A) (l : list (list A)) (r : nat) : list A := map (fun x => nth r x d) l.
Definition normalize (root : Q -> Q) (P : nat) (vectors : list (list field)) : list (list field) :=
  map (fun d => map (fun r => nth d (normalize_local root (on_rank zero_field vectors r)) zero_field) (seq 0 P))
      (seq 0 (length vectors)).

(** lic.py:61: the maximum over this rank's cells only; of an empty array there is none *)
Definition amax (l : list Q) : outcome Q :=
  match l with [] => Raise ValueError | x :: r => Ret (fold_left Qmax r x) end.
Definition abs_max (f : field) : outcome Q := amax (map (fun idx => Qabs (f_elem f idx)) (elements (f_array f))).
Fixpoint all_max (vs : list field) : outcome (list Q) :=
  match vs with
  | [] => Ret []
  | v :: r => bind (abs_max v) (fun m => bind (all_max r) (fun l => Ret (m :: l)))
  end.
Definition vmax_of (vs : list field) : outcome Q := bind (all_max vs) amax.

(** lic.py:70-71: the values of all components on every rank *)
Fixpoint readouts (pms : list pm) (w : window) (ls : list layout) (vectors : list (list field))
    (x : list (list (list Q))) : list (outcome (list (list Q))) :=
  match vectors with
  | [] => map (fun _ => Ret []) pms
  | v :: rest =>
      then_all (pm_readout pms (Some w) None None (Some ls) v x WNone) (fun a =>
      then_all (readouts pms w ls rest x) (fun b =>
      map Ret (map (fun p => fst p :: snd p) (combine a b))))
  end.

(** [x + dx * 0.5 * sign], lic.py:72 and 74; [vals] by component, then by particle *)
Definition advance (ds sign : Q) (vals : list (list Q)) (i : nat) (y : list Q) : list Q :=
  map (fun yv => fst yv + nth i (snd yv) 0 * ds * (1#2) * sign) (combine y vals).
Definition advance_all (ds sign : Q) (vals : list (list Q)) (ys : list (list Q)) : list (list Q) :=
  map (fun i => advance ds sign vals i (nth i ys [])) (seq 0 (length ys)).

(** positions and line integrals of one rank *)
Notation state := (list (list Q) * list Q)%type.

(** lic.py:67-74 *)
Definition lic_step (pms : list pm) (w : window) (kernel : Q -> Q) (len ds : Q) (vmaxs : list Q)
    (vectors : list (list field)) (texture : list field) (sign s : Q) (st : list state) : list (outcome state) :=
  let k := kernel (s * sign / (len * (1#2))) in
  let x := map fst st in
  then_all (decompose_each pms (map (fun v => Scalar (v * ds * (1#2) + inject_Z (w_support w) * (1#2))) vmaxs) None x) (fun ls =>
  then_all (readouts pms w ls vectors x) (fun vals =>
  let x1 := map (fun p => advance_all ds sign (fst p) (snd p)) (combine vals x) in
  then_all (pm_readout pms (Some w) None None (Some ls) texture x1 WNone) (fun t =>
  let x2 := map (fun p => advance_all ds sign (fst p) (snd p)) (combine vals x1) in
  let f := map (fun p => map (fun q => fst q + snd q * k * ds) (combine (snd (fst p)) (snd p))) (combine st t) in
  map Ret (combine x2 f)))).

(** lic.py:66-76; at most [fuel] steps, after which the ranks are said to be still busy *)
Fixpoint lic_walk (fuel : nat) (pms : list pm) (w : window) (kernel : Q -> Q) (len ds : Q) (vmaxs : list Q)
    (vectors : list (list field)) (texture : list field) (sign s : Q) (st : list state) : list (outcome state) :=
  if Qltb s (len * (1#2)) then
    match fuel with
    | O => map (fun _ => Blocked) pms
    | S n => then_all (lic_step pms w kernel len ds vmaxs vectors texture sign s st) (fun st' =>
             lic_walk n pms w kernel len ds vmaxs vectors texture sign (s + ds) st')
    end
  else map Ret st.

(** lic.py:4-78; [outs] is the memory of the result.  No vectors: [vectors[0]] fails. *)
Definition lic (fuel : nat) (pms : list pm) (vectors : list (list field)) (kernel : Q -> Q) (len ds : Q)
    (w : option window) (texture : list field) (do_normalize : option (Q -> Q)) (outs : list field) : list (outcome memory) :=
  match vectors with
  | [] => map (fun _ => Raise IndexError) pms
  | _ :: _ =>
  let vectors := match do_normalize with Some root => normalize root (length pms) vectors | None => vectors end in
  let w := resampler_of pms w in
  then_all (map (fun p => generate_uniform_particle_grid p (Scalar 0)) pms) (fun grids =>
  let q := map fst grids in
  then_all (pm_readout pms (Some nnb) None None None texture q WNone) (fun f0 =>
  then_all (map (fun r => vmax_of (on_rank zero_field vectors r)) (seq 0 (length pms))) (fun vmaxs =>
  then_all (lic_walk fuel pms w kernel len ds vmaxs vectors texture (-(1)) 0 (combine q f0)) (fun st =>
  then_all (lic_walk fuel pms w kernel len ds vmaxs vectors texture 1 0 (combine q (map snd st))) (fun st =>
  pm_paint pms (Some nnb) None false None None outs q WNone (WArray (map snd st)))))))
  end.
