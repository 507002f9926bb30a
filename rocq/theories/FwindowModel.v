(** The Fourier space window functions (pmesh/_window_imp.c:13-22, 108-245, 446-480,
    pmesh/window.py:64-104) over the real numbers. *)
From Coq Require Import List Reals QArith Qreals Qabs Lra Lia.
From Verif Require Import Base WindowModel.
Import ListNotations.
Local Close Scope Q_scope.
Local Open Scope R_scope.

(** _window_imp.c:108-114 *)
Definition nearestR (x : R) : R := if Rlt_dec x (1/2) then (if Rle_dec (-(1/2)) x then 1 else 0) else 0.
(** _window_imp.c:128-135 *)
Definition linearR (x : R) : R := let x := Rabs x in if Rlt_dec x 1 then 1 - x else 0.
(** _window_imp.c:160-174 *)
Definition quadraticR (x : R) : R :=
  let x := Rabs x in
  if Rle_dec x (1/2) then 3/4 - x * x else if Rlt_dec x (3/2) then (3/2 - x) * (3/2 - x) * (1/2) else 0.
(** _window_imp.c:204-216 *)
Definition cubicR (x : R) : R :=
  let x := Rabs x in
  let xx := x * x in
  if Rlt_dec x 1 then 1/6 * (4 - 6 * xx + 3 * xx * x) else if Rlt_dec x 2 then 1/6 * (2 - x) * (2 - x) * (2 - x) else 0.
(** the windows with a transform; [Some p]: the p-th B-spline *)
Definition order_of (k : kind) : option nat :=
  match k with
  | Nearest | TunedNNB => Some 1%nat
  | Linear | TunedCIC => Some 2%nat
  | Quadratic | TunedTSC => Some 3%nat
  | Cubic | TunedPCS => Some 4%nat
  | _ => None
  end.
Definition kernelR (k : kind) (x : R) : R :=
  match order_of k with
  | Some 1%nat => nearestR x
  | Some 2%nat => linearR x
  | Some 3%nat => quadraticR x
  | Some 4%nat => cubicR x
  | _ => 0
  end.

(** _window_imp.c:13-22 *)
Definition sinc_unnormed (x : R) : R :=
  if Rlt_dec x (1/100000) then
    (if Rlt_dec (-(1/100000)) x then let x2 := x * x in 1 - x2 / 6 + x2 * x2 / 120 else sin x / x)
  else sin x / x.
(** _window_imp.c:121-126 *)
Definition nearest_fwindow (w : R) : R := let t := sinc_unnormed (1/2 * w) in t.
(** _window_imp.c:152-158 *)
Definition linear_fwindow (w : R) : R := let t := sinc_unnormed (1/2 * w) in t * t.
(** _window_imp.c:195-201 *)
Definition quadratic_fwindow (w : R) : R := let t := sinc_unnormed (1/2 * w) in t * t * t.
(** _window_imp.c:238-244 *)
Definition cubic_fwindow (w : R) : R := let t := sinc_unnormed (1/2 * w) in t * t * t * t.
(** _window_imp.c:259-447, the column fwindow *)
Definition fwindow_of (k : kind) : option (R -> R) :=
  match k with
  | Nearest | TunedNNB => Some nearest_fwindow
  | Linear | TunedCIC => Some linear_fwindow
  | Quadratic | TunedTSC => Some quadratic_fwindow
  | Cubic | TunedPCS => Some cubic_fwindow
  | _ => None
  end.
(** _window_imp.c:472-484; [support] is the argument of the window, 0 or less for the
    native one *)
Definition vfactor (k : kind) (support : Z) : R := Q2R (wi_vfactor (window_info_init (native_of k) (inject_Z support))).
Definition get_fwindow (k : kind) (support : Z) (w : R) : R :=
  match fwindow_of k with
  | Some f => f (w / vfactor k support)
  | None => 1
  end.
(** window.py:64-81, for one mode *)
Definition compensation (k : kind) (support : Z) (w : list R) (v : R) : R :=
  v / fold_left (fun tf wi => tf * get_fwindow k support wi) w 1.

(** the functions above are those of WindowModel.v on rational numbers *)
Lemma Q2R_half : Q2R (1#2) = 1/2. Proof. unfold Q2R; cbn; lra. Qed.
Lemma Qltb_iff x y : Qltb x y = true <-> Q2R x < Q2R y.
Proof.
  unfold Qltb. rewrite Bool.negb_true_iff. destruct (Qle_bool y x) eqn:E.
  - split; [discriminate|]. intros H. apply Qle_bool_iff, Qle_Rle in E. lra.
  - split; [|reflexivity]. intros _. apply Qlt_Rlt. apply Qnot_le_lt. intros C. apply Qle_bool_iff in C. congruence.
Qed.
Lemma Qleb_iff x y : Qle_bool x y = true <-> Q2R x <= Q2R y.
Proof. rewrite Qle_bool_iff. split; [apply Qle_Rle|apply Rle_Qle]. Qed.
Lemma Q2R_abs x : Q2R (Qabs x) = Rabs (Q2R x).
Proof.
  apply Qabs_case; intros H; apply Qle_Rle in H; rewrite RMicromega.Q2R_0 in H.
  - now rewrite Rabs_pos_eq.
  - rewrite Q2R_opp. now rewrite Rabs_left1.
Qed.
