(** Model of pmesh/transfer.py: the transfer functions of the deprecated ParticleMesh, over
    the real numbers.

    Not modelled: the rounding of the single precision frequencies (particlemesh.py:136),
    Inspect.  PowerSpectrum is in PowerModel.v. *)
From Coq Require Import List Arith ZArith Reals Lra Lia Bool.
From Verif Require Import Base ListFacts WrapModel DomainModel WindowStencil WindowSpread MeshTile LegacyMesh.
Import ListNotations.
Local Open Scope R_scope.

Definition cplx : Type := (R * R)%type.
Definition cabs (a : cplx) : R := sqrt (fst a * fst a + snd a * snd a).
(** a complex times, or over, a real; times the imaginary unit and a real *)
Definition cmul (a : cplx) (x : R) : cplx := (fst a * x, snd a * x).
Definition cdiv (a : cplx) (x : R) : cplx := (fst a / x, snd a / x).
Definition cmuli (a : cplx) (x : R) : cplx := (- (snd a * x), fst a * x).
(** one rank's part of the complex field: [partition.local_o_start], [local_no], the array *)
Record spectrum := { sp_start : list Z; sp_shape : list Z; sp_data : list Z -> cplx }.
Definition with_values (s : spectrum) (f : list Z -> cplx) : spectrum :=
  {| sp_start := sp_start s; sp_shape := sp_shape s; sp_data := f |}.
(** [pm.w], particlemesh.py:131-152: circular frequency of the local index [i] along axis [d] *)
Definition w_at (N : Z) (s : spectrum) (d : nat) (i : Z) : R :=
  IZR (old_frequency N (nth d (sp_start s) 0%Z + i)) * (2 * PI / IZR N).
Definition axis_w (N : Z) (s : spectrum) (d : nat) : list R :=
  map (w_at N s d) (zrange 0 (Z.to_nat (nth d (sp_shape s) 0%Z))).
Definition is0 (x : R) : bool := if Req_EM_T x 0 then true else false.
Fixpoint first_zero (l : list R) : Z :=
  match l with [] => 0%Z | x :: r => if is0 x then 0%Z else (1 + first_zero r)%Z end.
(** [(wi == 0).nonzero()[0][0]], transfer.py:51, 65: the index along axis 0 of the first zero;
    [wi] has one element along all axes but [d] *)
Definition nonzero00 (d : nat) (wi : list R) : Z := if (d =? 0)%nat then first_zero wi else 0%Z.
(** the loops transfer.py:47-51, 62-65 *)
Fixpoint dc_search (N : Z) (s : spectrum) (ds : list nat) : option (list Z) :=
  match ds with
  | [] => Some []
  | d :: ds' =>
      let wi := axis_w N s d in
      if forallb (fun x => negb (is0 x)) wi then None
      else option_map (cons (nonzero00 d wi)) (dc_search N s ds')
  end.
Definition dc_index (N : Z) (s : spectrum) : option (list Z) := dc_search N s (seq 0 (length (sp_start s))).
(** transfer.py:37-56, on all ranks; allreduce *)
Definition NormalizeDC (N : Z) (ws : list spectrum) : list spectrum :=
  let value := fold_right Rplus 0 (map (fun s => match dc_index N s with Some ind => cabs (sp_data s ind) | None => 0 end) ws) in
  map (fun s => with_values s (fun idx => cdiv (sp_data s idx) value)) ws.
(** transfer.py:57-67 *)
Definition RemoveDC (N : Z) (s : spectrum) : spectrum :=
  match dc_index N s with
  | None => s
  | Some ind => with_values s (fun idx => if zl_eqb idx ind then (0, 0) else sp_data s idx)
  end.
(** numpy.sinc; at zero it replaces the argument by 1e-20, where the quotient rounds to one *)
Definition np_sinc (x : R) : R := if is0 x then 1 else sin (PI * x) / (PI * x).
(** transfer.py:68-73: an axis after the other *)
Definition Trilinear (N : Z) (s : spectrum) : spectrum :=
  fold_left (fun s d => with_values s (fun idx => cdiv (sp_data s idx) (np_sinc (w_at N s d (nth d idx 0%Z) / (2 * PI)) ^ 2)))
    (seq 0 (length (sp_start s))) s.
(** transfer.py:74-95 *)
Definition lanczos (w : R) : R := 1 / 6 * (8 * sin w - sin (2 * w)).
Definition SuperLanzcos (dir : nat) (order : Z) (N : Z) (s : spectrum) : spectrum :=
  with_values s (fun idx => let wi := w_at N s dir (nth dir idx 0%Z) * 1 in
    if (order =? 0)%Z then cmuli (sp_data s idx) wi else cmuli (sp_data s idx) (lanczos wi)).
(** transfer.py:96-112 *)
Definition Gaussian (smoothing : R) (N : Z) (s : spectrum) : spectrum :=
  let sm2 := smoothing ^ 2 in
  fold_left (fun s d => with_values s (fun idx =>
      let wi2 := w_at N s d (nth d idx 0%Z) ^ 2 in cmul (sp_data s idx) (exp (- (1 / 2) * wi2 * sm2))))
    (seq 0 (length (sp_start s))) s.
(** transfer.py:200-204, 235-239: [w2] of a row, minus it, infinity (None) where it was zero *)
Definition row_w2 (N : Z) (s : spectrum) (row : Z) (idx : list Z) : R :=
  fold_left (fun w2 d => w2 + w_at N s d (nth d idx 0%Z) ^ 2) (seq 1 (length (sp_start s) - 1)) (w_at N s 0 row ^ 2).
Definition row_kernel (N : Z) (s : spectrum) (row : Z) (idx : list Z) : option R :=
  let w2 := row_w2 N s row idx in if is0 w2 then None else Some (w2 * -1).
Definition rows (s : spectrum) : list Z := zrange 0 (Z.to_nat (nth 0 (sp_shape s) 0%Z)).
(** transfer.py:207-240, row by row; a number over infinity is zero.  With one dimension
    [w2] is a scalar and [w2[w2 == 0]] fails; the deprecated mesh always has three *)
Definition Poisson (N : Z) (s : spectrum) : spectrum :=
  fold_left (fun s row => with_values s (fun idx =>
      if (nth 0 idx 0 =? row)%Z then match row_kernel N s row idx with Some w2 => cdiv (sp_data s idx) w2 | None => (0, 0) end
      else sp_data s idx)) (rows s) s.
(** transfer.py:185-205: the product is taken after the loop, with the last row's [w2];
    None: not a finite number.  Without rows [w2] is not assigned. *)
Definition Laplace (N : Z) (s : spectrum) : outcome (list Z -> option cplx) :=
  match rev (rows s) with
  | [] => Raise NameError
  | row :: _ => Ret (fun idx => match row_kernel N s row idx with Some w2 => Some (cmul (sp_data s idx) w2) | None => None end)
  end.

(** A transfer function on all ranks, with the number of arguments it takes. *)
Record tfunction := { tf_args : nat; tf_run : Z -> list spectrum -> list spectrum }.
(** [ParticleMesh.transfer], particlemesh.py:330-332: every function is called with
    [(self, self.complex)]; Python raises unless it takes two arguments. *)
Fixpoint transfer (N : Z) (fs : list tfunction) (ws : list spectrum) : outcome (list spectrum) :=
  match fs with
  | [] => Ret ws
  | f :: fs' => if (tf_args f =? 2)%nat then transfer N fs' (tf_run f N ws) else Raise TypeError
  end.
Definition tf_NormalizeDC : tfunction := {| tf_args := 2; tf_run := NormalizeDC |}.
Definition tf_RemoveDC : tfunction := {| tf_args := 2; tf_run := fun N => map (RemoveDC N) |}.
(** transfer.py:69: [def Trilinear(comm, complex, w)] *)
Definition tf_Trilinear : tfunction := {| tf_args := 3; tf_run := fun N => map (Trilinear N) |}.
Definition tf_SuperLanzcos (dir : nat) (order : Z) : tfunction := {| tf_args := 2; tf_run := fun N => map (SuperLanzcos dir order N) |}.
Definition tf_Gaussian (smoothing : R) : tfunction := {| tf_args := 2; tf_run := fun N => map (Gaussian smoothing N) |}.
Definition tf_Poisson : tfunction := {| tf_args := 2; tf_run := fun N => map (Poisson N) |}.
(** transfer.py:113-119, with a real constant *)
Definition tf_Constant (C : R) : tfunction :=
  {| tf_args := 2; tf_run := fun N => map (fun s => with_values s (fun idx => cmul (sp_data s idx) C)) |}.
