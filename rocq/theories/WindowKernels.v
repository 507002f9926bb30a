(** The kernels: extent, partition of unity, derivatives. *)
From Coq Require Import List Arith ZArith QArith Qabs Qround Lia Lqa Bool Setoid Morphisms.
From Verif Require Import Base ListFacts WrapModel WrapProofs QSum WindowModel.
Import ListNotations.
Local Open Scope Q_scope.

Inductive qcase (x y : Q) : bool -> Prop :=
| qcase_true : x < y -> qcase x y true
| qcase_false : y <= x -> qcase x y false.
Inductive qcase' (x y : Q) : bool -> Prop :=
| qcase'_true : x <= y -> qcase' x y true
| qcase'_false : y < x -> qcase' x y false.
Lemma Qle_bool_case x y : qcase' x y (Qle_bool x y).
Proof.
  destruct (Qle_bool x y) eqn:E; constructor.
  - apply Qle_bool_iff, E.
  - apply Qnot_le_lt. intros H. apply Qle_bool_iff in H. congruence.
Qed.
Lemma Qltb_case x y : qcase x y (Qltb x y).
Proof. unfold Qltb. destruct (Qle_bool_case y x); constructor; assumption. Qed.
Lemma Qabs_split x : (0 <= x /\ Qabs x == x) \/ (x <= 0 /\ Qabs x == - x).
Proof.
  destruct (Qlt_le_dec x 0) as [H|H]; [right|left]; (split; [lra|]).
  - apply Qabs_neg; lra.
  - apply Qabs_pos; lra.
Qed.

(** split on every comparison and absolute value in sight *)
Ltac qsplit :=
  repeat match goal with
  | |- context [Qabs ?x] =>
      let a := fresh "a" in let C := fresh in
      pose proof (Qabs_split x) as C; set (a := Qabs x) in *; clearbody a;
      destruct C as [[? ?]|[? ?]]
  end;
  repeat match goal with
  | |- context [Qle_bool ?x ?y] => destruct (Qle_bool_case x y)
  | |- context [Qltb ?x ?y] => destruct (Qltb_case x y)
  end; cbn [andb orb negb] in *; try (exfalso; lra).

Global Instance Qltb_proper : Proper (Qeq ==> Qeq ==> eq) Qltb.
Proof. intros x x' Hx y y' Hy. unfold Qltb. rewrite Hx, Hy. reflexivity. Qed.
Global Instance trunc_proper : Proper (Qeq ==> eq) trunc.
Proof. intros x x' Hx. unfold trunc. rewrite Hx, (Qfloor_comp _ _ Hx), (Qceiling_comp _ _ Hx). reflexivity. Qed.

Global Instance nearest_kernel_proper : Proper (Qeq ==> Qeq) nearest_kernel.
Proof. intros x x' Hx. unfold nearest_kernel. rewrite Hx. reflexivity. Qed.
Global Instance nearest_diff_proper : Proper (Qeq ==> Qeq) nearest_diff.
Proof. intros x x' Hx. reflexivity. Qed.
Global Instance linear_kernel_proper : Proper (Qeq ==> Qeq) linear_kernel.
Proof.
  intros x x' Hx. unfold linear_kernel. cbv zeta. rewrite (Qltb_proper _ _ (Qabs_wd _ _ Hx) _ _ (Qeq_refl 1)).
  destruct (Qltb (Qabs x') 1); [|reflexivity]. rewrite Hx. reflexivity.
Qed.
Global Instance linear_diff_proper : Proper (Qeq ==> Qeq) linear_diff.
Proof.
  intros x x' Hx. unfold linear_diff.
  rewrite (Qltb_proper x x' Hx 0 0 (Qeq_refl 0)), (Qltb_proper 0 0 (Qeq_refl 0) x x' Hx).
  destruct (Qltb x' 0); [|destruct (Qltb 0 x')]; rewrite Hx; reflexivity.
Qed.
Global Instance quadratic_kernel_proper : Proper (Qeq ==> Qeq) quadratic_kernel.
Proof.
  intros x x' Hx. unfold quadratic_kernel. cbv zeta.
  rewrite (Qltb_proper _ _ (Qabs_wd _ _ Hx) _ _ (Qeq_refl (3#2))).
  rewrite (Qleb_comp _ _ (Qabs_wd _ _ Hx) _ _ (Qeq_refl (1#2))).
  destruct (Qle_bool (Qabs x') (1#2)); [|destruct (Qltb (Qabs x') (3#2)); [|reflexivity]]; rewrite Hx; reflexivity.
Qed.
Global Instance quadratic_diff_proper : Proper (Qeq ==> Qeq) quadratic_diff.
Proof.
  intros x x' Hx. unfold quadratic_diff.
  rewrite (Qltb_proper x x' Hx 0 0 (Qeq_refl 0)).
  destruct (Qltb x' 0).
  - rewrite (Qleb_comp (-x) (-x') (Qopp_comp _ _ Hx) _ _ (Qeq_refl (1#2))), (Qltb_proper (-x) (-x') (Qopp_comp _ _ Hx) _ _ (Qeq_refl (3#2))).
    destruct (Qle_bool (-x') (1#2)); [|destruct (Qltb (-x') (3#2)); [|reflexivity]]; rewrite Hx; reflexivity.
  - rewrite (Qleb_comp x x' Hx _ _ (Qeq_refl (1#2))), (Qltb_proper x x' Hx _ _ (Qeq_refl (3#2))).
    destruct (Qle_bool x' (1#2)); [|destruct (Qltb x' (3#2)); [|reflexivity]]; rewrite Hx; reflexivity.
Qed.
Global Instance cubic_kernel_proper : Proper (Qeq ==> Qeq) cubic_kernel.
Proof.
  intros x x' Hx. unfold cubic_kernel. cbv zeta.
  rewrite (Qltb_proper _ _ (Qabs_wd _ _ Hx) _ _ (Qeq_refl 1)), (Qltb_proper _ _ (Qabs_wd _ _ Hx) _ _ (Qeq_refl 2)).
  destruct (Qltb (Qabs x') 1); [|destruct (Qltb (Qabs x') 2); [|reflexivity]]; rewrite Hx; reflexivity.
Qed.
Global Instance cubic_diff_proper : Proper (Qeq ==> Qeq) cubic_diff.
Proof.
  intros x x' Hx. unfold cubic_diff.
  rewrite (Qltb_proper x x' Hx 0 0 (Qeq_refl 0)).
  destruct (Qltb x' 0); cbv zeta.
  - rewrite (Qltb_proper (-x) (-x') (Qopp_comp _ _ Hx) _ _ (Qeq_refl 1)), (Qltb_proper (-x) (-x') (Qopp_comp _ _ Hx) _ _ (Qeq_refl 2)).
    destruct (Qltb (-x') 1); [|destruct (Qltb (-x') 2); [|reflexivity]]; rewrite Hx; reflexivity.
  - rewrite (Qltb_proper x x' Hx _ _ (Qeq_refl 1)), (Qltb_proper x x' Hx _ _ (Qeq_refl 2)).
    destruct (Qltb x' 1); [|destruct (Qltb x' 2); [|reflexivity]]; rewrite Hx; reflexivity.
Qed.

(** piecewise forms *)
Ltac at_point x v := assert (x == v) as -> by lra.

Lemma nearest_in x : -(1#2) <= x -> x < (1#2) -> nearest_kernel x == 1.
Proof. intros. unfold nearest_kernel. qsplit; lra. Qed.
Lemma nearest_out x : x < -(1#2) \/ (1#2) <= x -> nearest_kernel x == 0.
Proof. intros [H|H]; unfold nearest_kernel; qsplit; lra. Qed.

Lemma linear_right x : 0 <= x -> x <= 1 -> linear_kernel x == 1 - x.
Proof. intros. unfold linear_kernel. cbv zeta. qsplit; lra. Qed.
Lemma linear_left x : x <= 0 -> -(1) <= x -> linear_kernel x == 1 + x.
Proof. intros. unfold linear_kernel. cbv zeta. qsplit; lra. Qed.
Lemma linear_out x : x <= -(1) \/ 1 <= x -> linear_kernel x == 0.
Proof. intros [H|H]; unfold linear_kernel; cbv zeta; qsplit; lra. Qed.
Lemma linear_diff_right x : 0 < x -> x < 1 -> linear_diff x == -(1).
Proof. intros. unfold linear_diff. qsplit; lra. Qed.
Lemma linear_diff_left x : x < 0 -> -(1) < x -> linear_diff x == 1.
Proof. intros. unfold linear_diff. qsplit; lra. Qed.
Lemma linear_diff_zero x : x == 0 -> linear_diff x == 0.
Proof. intros. unfold linear_diff. qsplit; lra. Qed.
Lemma linear_diff_out x : x <= -(1) \/ 1 <= x -> linear_diff x == 0.
Proof. intros [H|H]; unfold linear_diff; qsplit; lra. Qed.

Lemma quadratic_mid x : -(1#2) <= x -> x <= (1#2) -> quadratic_kernel x == (3#4) - x * x.
Proof. intros. unfold quadratic_kernel. cbv zeta. qsplit; rewrite H2; ring. Qed.
Lemma quadratic_right x : (1#2) <= x -> x <= (3#2) -> quadratic_kernel x == ((3#2) - x) * ((3#2) - x) * (1#2).
Proof.
  intros. unfold quadratic_kernel. cbv zeta. qsplit.
  - rewrite H2. at_point x (1#2). reflexivity.
  - rewrite H2. ring.
  - at_point x (3#2). reflexivity.
Qed.
Lemma quadratic_left x : x <= -(1#2) -> -(3#2) <= x -> quadratic_kernel x == ((3#2) + x) * ((3#2) + x) * (1#2).
Proof.
  intros. unfold quadratic_kernel. cbv zeta. qsplit.
  - rewrite H2. at_point x (-(1#2)). reflexivity.
  - rewrite H2. ring.
  - at_point x (-(3#2)). reflexivity.
Qed.
Lemma quadratic_out x : x <= -(3#2) \/ (3#2) <= x -> quadratic_kernel x == 0.
Proof. intros [H|H]; unfold quadratic_kernel; cbv zeta; qsplit; reflexivity. Qed.
Lemma quadratic_diff_mid x : -(1#2) <= x -> x <= (1#2) -> quadratic_diff x == -(2) * x.
Proof. intros. unfold quadratic_diff. qsplit; ring. Qed.
Lemma quadratic_diff_right x : (1#2) <= x -> x <= (3#2) -> quadratic_diff x == x - (3#2).
Proof.
  intros. unfold quadratic_diff. qsplit.
  - at_point x (1#2). reflexivity.
  - ring.
  - at_point x (3#2). reflexivity.
Qed.
Lemma quadratic_diff_left x : x <= -(1#2) -> -(3#2) <= x -> quadratic_diff x == x + (3#2).
Proof.
  intros. unfold quadratic_diff. qsplit.
  - at_point x (-(1#2)). reflexivity.
  - ring.
  - at_point x (-(3#2)). reflexivity.
Qed.
Lemma quadratic_diff_out x : x <= -(3#2) \/ (3#2) <= x -> quadratic_diff x == 0.
Proof. intros [H|H]; unfold quadratic_diff; qsplit; reflexivity. Qed.

Lemma cubic_mid_right x : 0 <= x -> x <= 1 -> cubic_kernel x == (1#6) * (4 - 6 * x * x + 3 * x * x * x).
Proof.
  intros. unfold cubic_kernel. cbv zeta. qsplit.
  - rewrite H2. ring.
  - rewrite H2. at_point x 1. reflexivity.
  - rewrite H2. at_point x 0. reflexivity.
Qed.
Lemma cubic_mid_left x : x <= 0 -> -(1) <= x -> cubic_kernel x == (1#6) * (4 - 6 * x * x - 3 * x * x * x).
Proof.
  intros. unfold cubic_kernel. cbv zeta. qsplit.
  - rewrite H2. at_point x 0. reflexivity.
  - rewrite H2. ring.
  - rewrite H2. at_point x (-(1)). reflexivity.
Qed.
Lemma cubic_right x : 1 <= x -> x <= 2 -> cubic_kernel x == (1#6) * (2 - x) * (2 - x) * (2 - x).
Proof.
  intros. unfold cubic_kernel. cbv zeta. qsplit.
  - rewrite H2. ring.
  - at_point x 2. reflexivity.
Qed.
Lemma cubic_left x : x <= -(1) -> -(2) <= x -> cubic_kernel x == (1#6) * (2 + x) * (2 + x) * (2 + x).
Proof.
  intros. unfold cubic_kernel. cbv zeta. qsplit.
  - rewrite H2. ring.
  - at_point x (-(2)). reflexivity.
Qed.
Lemma cubic_out x : x <= -(2) \/ 2 <= x -> cubic_kernel x == 0.
Proof. intros [H|H]; unfold cubic_kernel; cbv zeta; qsplit; reflexivity. Qed.
Lemma cubic_diff_mid_right x : 0 <= x -> x <= 1 -> cubic_diff x == (1#6) * (-(12) * x + 9 * x * x).
Proof.
  intros. unfold cubic_diff. cbv zeta. qsplit.
  - ring.
  - at_point x 1. reflexivity.
Qed.
Lemma cubic_diff_mid_left x : x <= 0 -> -(1) <= x -> cubic_diff x == (1#6) * (-(12) * x - 9 * x * x).
Proof.
  intros. unfold cubic_diff. cbv zeta. qsplit.
  - ring.
  - at_point x (-(1)). reflexivity.
  - at_point x 0. reflexivity.
Qed.
Lemma cubic_diff_right x : 1 <= x -> x <= 2 -> cubic_diff x == -(1#2) * (2 - x) * (2 - x).
Proof.
  intros. unfold cubic_diff. cbv zeta. qsplit.
  - ring.
  - at_point x 2. reflexivity.
Qed.
Lemma cubic_diff_left x : x <= -(1) -> -(2) <= x -> cubic_diff x == (1#2) * (2 + x) * (2 + x).
Proof.
  intros. unfold cubic_diff. cbv zeta. qsplit.
  - ring.
  - at_point x (-(2)). reflexivity.
Qed.
Lemma cubic_diff_out x : x <= -(2) \/ 2 <= x -> cubic_diff x == 0.
Proof. intros [H|H]; unfold cubic_diff; cbv zeta; qsplit; reflexivity. Qed.

(* ---------- derivatives ---------- *)

(** [D] is the derivative of [K], uniformly: the remainder is at most (M/2) h^2.  The
    bound on the increments of [D] makes the property compose. *)
Definition tangent (K D : Q -> Q) (M x y : Q) : Prop :=
  Qabs (K y - K x - D x * (y - x)) <= M * (1#2) * ((y - x) * (y - x)) /\
  Qabs (D y - D x) <= M * Qabs (y - x).
Definition smooth_on (K D : Q -> Q) (M a b : Q) : Prop :=
  forall x y, a <= x <= b -> a <= y <= b -> tangent K D M x y.

Lemma Qabs_le x m : -m <= x <= m -> Qabs x <= m.
Proof. intros. apply Qabs_Qle_condition. exact H. Qed.
Lemma Qabs_le_inv x m : Qabs x <= m -> -m <= x <= m.
Proof. apply Qabs_Qle_condition. Qed.

Lemma tangent_comp K D M x b y : 0 <= M -> (x <= b <= y \/ y <= b <= x) ->
  tangent K D M x b -> tangent K D M b y -> tangent K D M x y.
Proof.
  intros HM Hb [R1 L1] [R2 L2]. unfold tangent.
  apply Qabs_le_inv in R1. apply Qabs_le_inv in R2.
  apply Qabs_le_inv in L1. apply Qabs_le_inv in L2.
  assert (E : Qabs (y - x) == Qabs (y - b) + Qabs (b - x)).
  { destruct Hb as [Hb|Hb].
    - rewrite !Qabs_pos by lra. ring.
    - rewrite !Qabs_neg by lra. ring. }
  split.
  - apply Qabs_le.
    assert (S : K y - K x - D x * (y - x) ==
       (K y - K b - D b * (y - b)) + (K b - K x - D x * (b - x)) + (D b - D x) * (y - b)) by ring.
    assert (S2 : M * (1#2) * ((y - x) * (y - x)) ==
       M * (1#2) * ((y - b) * (y - b)) + M * (1#2) * ((b - x) * (b - x)) + M * ((b - x) * (y - b))) by ring.
    rewrite S2.
    assert (Hcross : - (M * ((b - x) * (y - b))) <= (D b - D x) * (y - b) <= M * ((b - x) * (y - b))).
    { apply Qabs_le_inv. rewrite Qabs_Qmult.
      setoid_replace (M * ((b - x) * (y - b))) with (M * Qabs (b - x) * Qabs (y - b)).
      - apply Qmult_le_compat_r; [|apply Qabs_nonneg]. apply Qabs_le. exact L1.
      - destruct Hb as [Hb|Hb].
        + rewrite !Qabs_pos by lra. ring.
        + rewrite !Qabs_neg by lra. ring. }
    rewrite S. split; lra.
  - rewrite E. apply Qabs_le.
    setoid_replace (D y - D x) with ((D y - D b) + (D b - D x)) by ring.
    setoid_replace (M * (Qabs (y - b) + Qabs (b - x))) with (M * Qabs (y - b) + M * Qabs (b - x)) by ring.
    split; lra.
Qed.

Lemma smooth_glue K D M a b c : 0 <= M ->
  smooth_on K D M a b -> smooth_on K D M b c -> smooth_on K D M a c.
Proof.
  intros HM H1 H2 x y Hx Hy.
  destruct (Qlt_le_dec x b) as [Xb|Xb]; destruct (Qlt_le_dec y b) as [Yb|Yb].
  - apply H1; split; lra.
  - apply (tangent_comp K D M x b y HM); [left; split; lra|apply H1; split; lra|apply H2; split; lra].
  - apply (tangent_comp K D M x b y HM); [right; split; lra|apply H2; split; lra|apply H1; split; lra].
  - apply H2; split; lra.
Qed.

Lemma Qsq_nonneg t : 0 <= t * t.
Proof. destruct (Qlt_le_dec t 0); nra. Qed.

(** a polynomial piece of degree at most three *)
Lemma smooth_poly K D M a b (c0 c1 c2 c3 : Q) :
  (forall x, a <= x <= b -> K x == c0 + c1 * x + c2 * x * x + c3 * x * x * x) ->
  (forall x, a <= x <= b -> D x == c1 + 2 * c2 * x + 3 * c3 * x * x) ->
  (forall x, a <= x <= b -> - M <= 2 * c2 + 6 * c3 * x <= M) -> smooth_on K D M a b.
Proof.
  intros HK HD HM x y Hx Hy. split.
  - rewrite (HK x Hx), (HK y Hy), (HD x Hx).
    setoid_replace (c0 + c1 * y + c2 * y * y + c3 * y * y * y - (c0 + c1 * x + c2 * x * x + c3 * x * x * x)
       - (c1 + 2 * c2 * x + 3 * c3 * x * x) * (y - x))
      with ((y - x) * (y - x) * (c2 + c3 * (y + 2 * x))) by ring.
    assert (P := Qsq_nonneg (y - x)).
    assert (B : - (M * (1#2)) <= c2 + c3 * (y + 2 * x) <= M * (1#2)).
    { pose proof (HM x Hx). pose proof (HM y Hy). split; lra. }
    apply Qabs_le. set (h := (y - x) * (y - x)) in *. clearbody h. split; nra.
  - rewrite (HD x Hx), (HD y Hy).
    setoid_replace (c1 + 2 * c2 * y + 3 * c3 * y * y - (c1 + 2 * c2 * x + 3 * c3 * x * x))
      with ((2 * c2 + 3 * c3 * (x + y)) * (y - x)) by ring.
    rewrite Qabs_Qmult. apply Qmult_le_compat_r; [|apply Qabs_nonneg].
    apply Qabs_le. pose proof (HM x Hx). pose proof (HM y Hy). split; lra.
Qed.

Lemma smooth_all K D M : (forall B, 2 <= B -> smooth_on K D M (-B) B) -> forall x y, tangent K D M x y.
Proof.
  intros H x y. pose (B := 2 + Qabs x + Qabs y).
  pose proof (Qabs_nonneg x). pose proof (Qabs_nonneg y).
  pose proof (Qle_Qabs x). pose proof (Qle_Qabs y).
  pose proof (Qle_Qabs (-x)) as Nx. pose proof (Qle_Qabs (-y)) as Ny. rewrite Qabs_opp in Nx, Ny.
  apply (H B); unfold B; try split; lra.
Qed.

Theorem quadratic_tangent x y : tangent quadratic_kernel quadratic_diff 2 x y.
Proof.
  apply smooth_all. intros B HB.
  apply (smooth_glue _ _ _ _ (-(3#2))); [lra| |apply (smooth_glue _ _ _ _ (-(1#2))); [lra| |
    apply (smooth_glue _ _ _ _ (1#2)); [lra| |apply (smooth_glue _ _ _ _ (3#2)); [lra| |]]]].
  - apply (smooth_poly _ _ _ _ _ 0 0 0 0); intros z Hz.
    + rewrite quadratic_out by lra. ring.
    + rewrite quadratic_diff_out by lra. ring.
    + lra.
  - apply (smooth_poly _ _ _ _ _ (9#8) (3#2) (1#2) 0); intros z Hz.
    + rewrite quadratic_left by lra. ring.
    + rewrite quadratic_diff_left by lra. ring.
    + lra.
  - apply (smooth_poly _ _ _ _ _ (3#4) 0 (-(1)) 0); intros z Hz.
    + rewrite quadratic_mid by lra. ring.
    + rewrite quadratic_diff_mid by lra. ring.
    + lra.
  - apply (smooth_poly _ _ _ _ _ (9#8) (-(3#2)) (1#2) 0); intros z Hz.
    + rewrite quadratic_right by lra. ring.
    + rewrite quadratic_diff_right by lra. ring.
    + lra.
  - apply (smooth_poly _ _ _ _ _ 0 0 0 0); intros z Hz.
    + rewrite quadratic_out by lra. ring.
    + rewrite quadratic_diff_out by lra. ring.
    + lra.
Qed.

Theorem cubic_tangent x y : tangent cubic_kernel cubic_diff 2 x y.
Proof.
  apply smooth_all. intros B HB.
  apply (smooth_glue _ _ _ _ (-(2))); [lra| |apply (smooth_glue _ _ _ _ (-(1))); [lra| |
    apply (smooth_glue _ _ _ _ 0); [lra| |apply (smooth_glue _ _ _ _ 1); [lra| |
      apply (smooth_glue _ _ _ _ 2); [lra| |]]]]].
  - apply (smooth_poly _ _ _ _ _ 0 0 0 0); intros z Hz.
    + rewrite cubic_out by lra. ring.
    + rewrite cubic_diff_out by lra. ring.
    + lra.
  - apply (smooth_poly _ _ _ _ _ (8#6) 2 1 (1#6)); intros z Hz.
    + rewrite cubic_left by lra. ring.
    + rewrite cubic_diff_left by lra. ring.
    + lra.
  - apply (smooth_poly _ _ _ _ _ (4#6) 0 (-(1)) (-(1#2))); intros z Hz.
    + rewrite cubic_mid_left by lra. ring.
    + rewrite cubic_diff_mid_left by lra. ring.
    + lra.
  - apply (smooth_poly _ _ _ _ _ (4#6) 0 (-(1)) (1#2)); intros z Hz.
    + rewrite cubic_mid_right by lra. ring.
    + rewrite cubic_diff_mid_right by lra. ring.
    + lra.
  - apply (smooth_poly _ _ _ _ _ (8#6) (-(2)) 1 (-(1#6))); intros z Hz.
    + rewrite cubic_right by lra. ring.
    + rewrite cubic_diff_right by lra. ring.
    + lra.
  - apply (smooth_poly _ _ _ _ _ 0 0 0 0); intros z Hz.
    + rewrite cubic_out by lra. ring.
    + rewrite cubic_diff_out by lra. ring.
    + lra.
Qed.

(** the linear kernel is exactly linear between the kinks -1, 0 and 1 *)
Definition same_piece (x y : Q) : Prop :=
  (x < -(1) /\ y <= -(1)) \/ (-(1) < x < 0 /\ -(1) <= y <= 0) \/ (0 < x < 1 /\ 0 <= y <= 1) \/ (1 < x /\ 1 <= y).
Theorem linear_tangent x y : same_piece x y -> linear_kernel y - linear_kernel x == linear_diff x * (y - x).
Proof.
  intros [H|[H|[H|H]]].
  - rewrite !linear_out, linear_diff_out by lra. ring.
  - rewrite !linear_left, linear_diff_left by lra. ring.
  - rewrite !linear_right, linear_diff_right by lra. ring.
  - rewrite !linear_out, linear_diff_out by lra. ring.
Qed.

(** values between 0 and 1 *)
Lemma nearest_unit x : 0 <= nearest_kernel x <= 1.
Proof. unfold nearest_kernel. qsplit; lra. Qed.
Lemma linear_unit x : 0 <= linear_kernel x <= 1.
Proof. unfold linear_kernel. cbv zeta. qsplit; lra. Qed.
Lemma quadratic_unit x : 0 <= quadratic_kernel x <= 1.
Proof. unfold quadratic_kernel. cbv zeta. qsplit; rewrite ?H0; split; nra. Qed.
Lemma cubic_unit x : 0 <= cubic_kernel x <= 1.
Proof.
  destruct (Qlt_le_dec x (-(2))); [rewrite cubic_out by lra; lra|].
  destruct (Qlt_le_dec x (-(1))).
  { rewrite cubic_left by lra. assert (A : 0 <= 2 + x <= 1) by lra. set (t := 2 + x) in *. clearbody t.
    assert (0 <= t * t <= 1) by (split; nra). assert (0 <= t * t * t <= 1) by (split; nra). split; lra. }
  destruct (Qlt_le_dec x 0).
  { rewrite cubic_mid_left by lra. assert (0 <= x * x <= 1) by (split; nra).
    assert (0 <= x * x * (2 + x) <= 2) by (split; nra). split; nra. }
  destruct (Qlt_le_dec x 1).
  { rewrite cubic_mid_right by lra. assert (0 <= x * x <= 1) by (split; nra).
    assert (0 <= x * x * (2 - x) <= 2) by (split; nra). split; nra. }
  destruct (Qlt_le_dec x 2); [|rewrite cubic_out by lra; lra].
  rewrite cubic_right by lra. assert (A : 0 <= 2 - x <= 1) by lra. set (t := 2 - x) in *. clearbody t.
  assert (0 <= t * t <= 1) by (split; nra). assert (0 <= t * t * t <= 1) by (split; nra). split; lra.
Qed.
