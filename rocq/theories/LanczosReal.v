(** C112 with the function sinc itself: the lanczos windows of pmesh/lanczos.py on real numbers. *)
From Coq Require Import Reals ZArith Lra Lia.
Local Open Scope R_scope.

(** numpy.sinc: sin (pi x) / (pi x), and 1 at 0 *)
Definition np_sinc (x : R) : R := if Req_EM_T x 0 then 1 else sin (PI * x) / (PI * x).
(** lanczos.py:36-40 *)
Definition lanczosR (a dx : R) : R := if Rlt_dec dx (- a) then 0 else if Rlt_dec a dx then 0 else np_sinc dx * np_sinc (dx * (1 / a)).

Lemma np_sinc_even x : np_sinc (- x) = np_sinc x.
Proof.
  unfold np_sinc. pose proof PI_RGT_0. destruct (Req_EM_T (- x) 0), (Req_EM_T x 0); try lra. replace (PI * - x) with (- (PI * x)) by ring. rewrite sin_neg. field. split; lra.
Qed.
Lemma np_sinc_integer k : k <> 0%Z -> np_sinc (IZR k) = 0.
Proof.
  intros N. unfold np_sinc. destruct (Req_EM_T (IZR k) 0) as [E|E]; [apply eq_IZR in E; contradiction|].
  rewrite (sin_eq_0_1 (PI * IZR k)) by (exists k; ring). unfold Rdiv. ring.
Qed.
Lemma np_sinc_le1 x : Rabs (np_sinc x) <= 1.
Proof.
  assert (P : forall x, 0 < x -> Rabs (np_sinc x) <= 1).
  { intros y Hy. unfold np_sinc. destruct (Req_EM_T y 0); [lra|]. pose proof PI_RGT_0 as Hp. assert (Hz : 0 < PI * y) by (apply Rmult_lt_0_compat; lra).
    assert (B : - (PI * y) <= sin (PI * y) <= PI * y).
    { pose proof (sin_lt_x (PI * y) Hz). destruct (Rle_lt_dec (PI * y) PI) as [L|L].
      - pose proof (sin_ge_0 (PI * y) ltac:(lra) L). lra.
      - pose proof (SIN_bound (PI * y)). pose proof PI2_1. lra. }
    apply Rabs_le. split; [apply (Rmult_le_reg_r (PI * y)); [exact Hz|]|apply (Rmult_le_reg_r (PI * y)); [exact Hz|]]; unfold Rdiv; rewrite Rmult_assoc, Rinv_l by lra; lra. }
  destruct (Rtotal_order x 0) as [H|[H|H]].
  - rewrite <- np_sinc_even. apply P. lra.
  - unfold np_sinc. destruct (Req_EM_T x 0); [rewrite Rabs_R1; lra|contradiction].
  - now apply P.
Qed.

(** Even, zero beyond a, one at zero, zero at the other integers, never larger than one *)
Theorem C112_lanczos_real : forall a, 0 < a ->
  (forall dx, lanczosR a (- dx) = lanczosR a dx) /\ (forall dx, a < Rabs dx -> lanczosR a dx = 0) /\ lanczosR a 0 = 1 /\
  (forall k, k <> 0%Z -> lanczosR a (IZR k) = 0) /\ (forall dx, Rabs (lanczosR a dx) <= 1).
Proof.
  intros a Ha. assert (S0 : np_sinc 0 = 1) by (unfold np_sinc; destruct (Req_EM_T 0 0); [reflexivity|contradiction]). unfold lanczosR. split; [|split; [|split; [|split]]].
  - intros dx. destruct (Rlt_dec (- dx) (- a)), (Rlt_dec a (- dx)), (Rlt_dec dx (- a)), (Rlt_dec a dx); try reflexivity; try lra.
    replace (- dx * (1 / a)) with (- (dx * (1 / a))) by ring. now rewrite !np_sinc_even.
  - intros dx H. destruct (Rlt_dec dx (- a)), (Rlt_dec a dx); try reflexivity. exfalso. revert H. apply Rle_not_lt, Rabs_le. lra.
  - destruct (Rlt_dec 0 (- a)), (Rlt_dec a 0); try lra. rewrite Rmult_0_l, S0. ring.
  - intros k Hk. destruct (Rlt_dec (IZR k) (- a)), (Rlt_dec a (IZR k)); try reflexivity. rewrite (np_sinc_integer k Hk). ring.
  - intros dx. destruct (Rlt_dec dx (- a)), (Rlt_dec a dx); try (rewrite Rabs_R0; lra). rewrite Rabs_mult. pose proof (np_sinc_le1 dx). pose proof (np_sinc_le1 (dx * (1 / a))).
    pose proof (Rabs_pos (np_sinc dx)). pose proof (Rabs_pos (np_sinc (dx * (1 / a)))). rewrite <- (Rmult_1_r 1) at 2. apply Rmult_le_compat; assumption.
Qed.
Print Assumptions C112_lanczos_real.

(** The closed form of the textbooks inside of the support *)
Theorem C112_lanczos_formula : forall a dx, 0 < a -> dx <> 0 -> Rabs dx <= a -> lanczosR a dx = a * sin (PI * dx) * sin (PI * dx / a) / (PI ^ 2 * dx ^ 2).
Proof.
  intros a dx Ha N H. assert (B : - a <= dx <= a) by (unfold Rabs in H; destruct (Rcase_abs dx); lra). pose proof PI_RGT_0.
  assert (M : dx * (1 / a) <> 0) by (apply Rmult_integral_contrapositive; split; [exact N|]; unfold Rdiv; rewrite Rmult_1_l; apply Rinv_neq_0_compat; lra).
  unfold lanczosR, np_sinc. destruct (Rlt_dec dx (- a)), (Rlt_dec a dx), (Req_EM_T dx 0), (Req_EM_T (dx * (1 / a)) 0); try lra; try contradiction.
  replace (PI * (dx * (1 / a))) with (PI * dx / a) by (field; lra). field. repeat split; lra.
Qed.
Print Assumptions C112_lanczos_formula.

(** With the support s = ceil (a), the window is zero on every mesh point that paint does not visit: those from floor (x) - s + 1 to floor (x) + s are visited *)
Theorem C112_lanczos_real_paint : forall a x (s f j : Z), 0 < a -> IZR s - 1 < a <= IZR s -> IZR f <= x < IZR f + 1 -> ~ (f - s + 1 <= j <= f + s)%Z -> lanczosR a (x - IZR j) = 0.
Proof.
  intros a x s f j Ha Hs Hf Hj. destruct (C112_lanczos_real a Ha) as (_ & _ & _ & K & _). assert (P : (0 < s)%Z) by (apply lt_IZR; lra).
  destruct (Z_le_gt_dec (f - s + 1) j) as [L|L].
  - assert (R : (f + s + 1 <= j)%Z) by lia. apply IZR_le in R. rewrite !plus_IZR in R. unfold lanczosR. destruct (Rlt_dec (x - IZR j) (- a)); [reflexivity|lra].
  - assert (R : (j + s <= f)%Z) by lia. apply IZR_le in R. rewrite plus_IZR in R. destruct (Rlt_dec a (x - IZR j)) as [H|H].
    + unfold lanczosR. destruct (Rlt_dec (x - IZR j) (- a)), (Rlt_dec a (x - IZR j)); try reflexivity; contradiction.
    + replace (x - IZR j) with (IZR s) by lra. apply K. lia.
Qed.
Print Assumptions C112_lanczos_real_paint.

(** lanczos2 half way between two mesh points: the values are not trivial *)
Example C112_real_case : lanczosR 2 (1 / 2) = (2 / PI) * (sin (PI / 4) / (PI / 4)).
Proof.
  unfold lanczosR, np_sinc. pose proof PI_RGT_0. destruct (Rlt_dec (1/2) (- (2))), (Rlt_dec 2 (1/2)), (Req_EM_T (1/2) 0), (Req_EM_T (1/2 * (1/2)) 0); try lra.
  replace (PI * (1/2)) with (PI / 2) by field. rewrite sin_PI2. replace (PI * (1/2 * (1/2))) with (PI / 4) by field. field. lra.
Qed.
