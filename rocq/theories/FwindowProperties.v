(** Properties C73 and C74: the Fourier space windows. *)
From Coq Require Import List Reals QArith Qreals Qabs Lra Lia Bool.
From Coquelicot Require Import Coquelicot.
From Verif Require Import Base WindowModel FwindowModel.
Import ListNotations.
Local Close Scope Q_scope.
Local Open Scope R_scope.

Ltac qr := unfold Q2R; cbn; lra.
Lemma kernelR_ok k p q : order_of k = Some p -> kernelR k (Q2R q) = Q2R (kernel_of k q).
Proof.
  assert (HN : nearestR (Q2R q) = Q2R (nearest_kernel q)).
  { unfold nearestR, nearest_kernel. destruct (Rlt_dec (Q2R q) (1/2)) as [H|H].
    - replace (Qltb q (1#2)) with true by (symmetry; apply Qltb_iff; rewrite Q2R_half; exact H). cbn [andb].
      destruct (Rle_dec (-(1/2)) (Q2R q)) as [G|G].
      + replace (Qle_bool (-(1#2)) q) with true; [qr|]. symmetry. apply Qleb_iff. rewrite Q2R_opp, Q2R_half. exact G.
      + replace (Qle_bool (-(1#2)) q) with false; [qr|]. symmetry. apply not_true_iff_false. rewrite Qleb_iff, Q2R_opp, Q2R_half. exact G.
    - replace (Qltb q (1#2)) with false; [qr|]. symmetry. apply not_true_iff_false. rewrite Qltb_iff, Q2R_half. exact H. }
  assert (HL : linearR (Q2R q) = Q2R (linear_kernel q)).
  { unfold linearR, linear_kernel. cbv zeta. rewrite <- Q2R_abs. destruct (Rlt_dec (Q2R (Qabs q)) 1) as [H|H].
    - replace (Qltb (Qabs q) 1) with true; [rewrite Q2R_minus; qr|]. symmetry. apply Qltb_iff. replace (Q2R 1) with 1 by qr. exact H.
    - replace (Qltb (Qabs q) 1) with false; [qr|]. symmetry. apply not_true_iff_false. rewrite Qltb_iff. replace (Q2R 1) with 1 by qr. exact H. }
  assert (HQ : quadraticR (Q2R q) = Q2R (quadratic_kernel q)).
  { unfold quadraticR, quadratic_kernel. cbv zeta. rewrite <- Q2R_abs. destruct (Rle_dec (Q2R (Qabs q)) (1/2)) as [H|H].
    - replace (Qle_bool (Qabs q) (1#2)) with true; [rewrite Q2R_minus, Q2R_mult; replace (Q2R (3#4)) with (3/4) by qr; reflexivity|].
      symmetry. apply Qleb_iff. rewrite Q2R_half. exact H.
    - replace (Qle_bool (Qabs q) (1#2)) with false; [|symmetry; apply not_true_iff_false; rewrite Qleb_iff, Q2R_half; exact H].
      assert (E : Q2R (3#2) = 3/2) by qr. destruct (Rlt_dec (Q2R (Qabs q)) (3/2)) as [G|G].
      + replace (Qltb (Qabs q) (3#2)) with true; [rewrite !Q2R_mult, !Q2R_minus, E, Q2R_half; reflexivity|]. symmetry. apply Qltb_iff. rewrite E. exact G.
      + replace (Qltb (Qabs q) (3#2)) with false; [qr|]. symmetry. apply not_true_iff_false. rewrite Qltb_iff, E. exact G. }
  assert (HC : cubicR (Q2R q) = Q2R (cubic_kernel q)).
  { unfold cubicR, cubic_kernel. cbv zeta. rewrite <- Q2R_abs. assert (E1 : Q2R 1 = 1) by qr. assert (E2 : Q2R 2 = 2) by qr.
    assert (E6 : Q2R (1#6) = 1/6) by qr. assert (E4 : Q2R 4 = 4) by qr. assert (E66 : Q2R 6 = 6) by qr. assert (E3 : Q2R 3 = 3) by qr.
    destruct (Rlt_dec (Q2R (Qabs q)) 1) as [H|H].
    - replace (Qltb (Qabs q) 1) with true; [|symmetry; apply Qltb_iff; rewrite E1; exact H].
      rewrite Q2R_mult, Q2R_plus, Q2R_minus, !Q2R_mult, E6, E4, E66, E3. reflexivity.
    - replace (Qltb (Qabs q) 1) with false; [|symmetry; apply not_true_iff_false; rewrite Qltb_iff, E1; exact H].
      destruct (Rlt_dec (Q2R (Qabs q)) 2) as [G|G].
      + replace (Qltb (Qabs q) 2) with true; [|symmetry; apply Qltb_iff; rewrite E2; exact G]. rewrite !Q2R_mult, Q2R_minus, E6, E2. reflexivity.
      + replace (Qltb (Qabs q) 2) with false; [qr|]. symmetry. apply not_true_iff_false. rewrite Qltb_iff, E2. exact G. }
  destruct k; intros H; inversion H; assumption.
Qed.

(** ** integrals *)
(** a polynomial times a cosine *)
Definition poly (a b c d x : R) : R := a + b * x + c * (x * x) + d * (x * x * x).
Lemma int_cos a b c d w u v : w <> 0 ->
  let G := fun x => poly a b c d x * sin (w * x) / w + (b + 2 * c * x + 3 * d * (x * x)) * cos (w * x) / (w * w)
     - (2 * c + 6 * d * x) * sin (w * x) / (w * w * w) - 6 * d * cos (w * x) / (w * w * w * w) in
  is_RInt (fun x => poly a b c d x * cos (w * x)) u v (G v - G u).
Proof.
  intros Hw G. apply (is_RInt_derive G (fun x => poly a b c d x * cos (w * x))).
  - intros x _. unfold G, poly. auto_derive; [repeat split; assumption || exact I|]. field. exact Hw.
  - intros x _. unfold poly. apply (ex_derive_continuous (fun x => (a + b * x + c * (x * x) + d * (x * x * x)) * cos (w * x))). auto_derive. exact I.
Qed.
Lemma int_poly a b c d u v :
  let G := fun x => a * x + b * (x * x) / 2 + c * (x * x * x) / 3 + d * (x * x * x * x) / 4 in
  is_RInt (fun x => poly a b c d x) u v (G v - G u).
Proof.
  intros G. apply (is_RInt_derive G (fun x => poly a b c d x)).
  - intros x _. unfold G, poly. auto_derive; [exact I|]. field.
  - intros x _. unfold poly. apply (ex_derive_continuous (fun x => a + b * x + c * (x * x) + d * (x * x * x))). auto_derive. exact I.
Qed.
(** from one side to both *)
Lemma int_left (f g : R -> R) s l : 0 <= s -> is_RInt f 0 s l -> (forall x, 0 < x < s -> g (- x) = f x) -> is_RInt g (- s) 0 l.
Proof.
  intros Hs H E. assert (A : is_RInt g 0 (- s) (- l)).
  { apply (is_RInt_ext (fun y => opp ((fun z => - g (- z)) (- y)))).
    { intros x _. change (- - g (- - x) = g x). now rewrite !Ropp_involutive. }
    apply (is_RInt_comp_opp (fun z => - g (- z)) 0 (- s) (- l)). rewrite Ropp_involutive, Ropp_0.
    apply (is_RInt_opp (fun z => g (- z)) 0 s l).
    apply (is_RInt_ext f); [|exact H]. rewrite Rmin_left, Rmax_right by lra. intros x Hx. symmetry. now apply E. }
  apply (is_RInt_swap g) in A. rewrite <- (Ropp_involutive l). exact A.
Qed.
Lemma int_even (f : R -> R) s l : 0 <= s -> is_RInt f 0 s l -> (forall x, 0 < x < s -> f (- x) = f x) -> is_RInt f (- s) s (l + l).
Proof. intros Hs H E. apply (is_RInt_Chasles f (- s) 0 s); [|exact H]. now apply (int_left f f). Qed.
Lemma int_odd (f : R -> R) s l : 0 <= s -> is_RInt f 0 s l -> (forall x, 0 < x < s -> f (- x) = - f x) -> is_RInt f (- s) s 0.
Proof.
  intros Hs H E. replace 0 with (- l + l) by lra. apply (is_RInt_Chasles f (- s) 0 s); [|exact H].
  apply (int_left (fun x => - f x) f); [exact Hs| |exact E]. apply (is_RInt_opp f 0 s l H).
Qed.

(** the sinc function *)
Definition sinc (x : R) : R := if Req_EM_T x 0 then 1 else sin x / x.

(** *** the four kernels on the positive side *)
Lemma nearest_pos x : 0 < x < 1/2 -> nearestR x = poly 1 0 0 0 x.
Proof. intros H. unfold nearestR, poly. destruct (Rlt_dec x (1/2)); [|lra]. destruct (Rle_dec (-(1/2)) x); lra. Qed.
Lemma linear_pos x : 0 < x < 1 -> linearR x = poly 1 (-1) 0 0 x.
Proof. intros H. unfold linearR, poly. rewrite Rabs_pos_eq by lra. destruct (Rlt_dec x 1); lra. Qed.
Lemma quadratic_pos1 x : 0 < x < 1/2 -> quadraticR x = poly (3/4) 0 (-1) 0 x.
Proof. intros H. unfold quadraticR, poly. rewrite Rabs_pos_eq by lra. destruct (Rle_dec x (1/2)); lra. Qed.
Lemma quadratic_pos2 x : 1/2 < x < 3/2 -> quadraticR x = poly (9/8) (-(3/2)) (1/2) 0 x.
Proof. intros H. unfold quadraticR, poly. rewrite Rabs_pos_eq by lra. destruct (Rle_dec x (1/2)); [lra|]. destruct (Rlt_dec x (3/2)); lra. Qed.
Lemma cubic_pos1 x : 0 < x < 1 -> cubicR x = poly (2/3) 0 (-1) (1/2) x.
Proof. intros H. unfold cubicR, poly. rewrite Rabs_pos_eq by lra. destruct (Rlt_dec x 1); lra. Qed.
Lemma cubic_pos2 x : 1 < x < 2 -> cubicR x = poly (4/3) (-2) 1 (-(1/6)) x.
Proof. intros H. unfold cubicR, poly. rewrite Rabs_pos_eq by lra. destruct (Rlt_dec x 1); [lra|]. destruct (Rlt_dec x 2); lra. Qed.

Lemma sin_d x : sin (2 * x) = 2 * sin x * cos x. Proof. apply sin_2a. Qed.
Lemma cos_d x : cos (2 * x) = 1 - 2 * sin x * sin x. Proof. apply cos_2a_sin. Qed.
Lemma cos_sq x : cos x * cos x = 1 - sin x * sin x.
Proof. pose proof (sin2_cos2 x) as H. unfold Rsqr in H. lra. Qed.

Lemma piece (f : R -> R) a b c d w u v l : u <= v -> (forall x, u < x < v -> f x = poly a b c d x) ->
  is_RInt (fun x => poly a b c d x * cos (w * x)) u v l -> is_RInt (fun x => f x * cos (w * x)) u v l.
Proof. intros Huv H I. apply (is_RInt_ext (fun x => poly a b c d x * cos (w * x))); [|exact I]. rewrite Rmin_left, Rmax_right by exact Huv. intros x Hx. now rewrite H. Qed.
Lemma piece1 (f : R -> R) a b c d u v l : u <= v -> (forall x, u < x < v -> f x = poly a b c d x) ->
  is_RInt (fun x => poly a b c d x) u v l -> is_RInt f u v l.
Proof. intros Huv H I. apply (is_RInt_ext (fun x => poly a b c d x)); [|exact I]. rewrite Rmin_left, Rmax_right by exact Huv. intros x Hx. now rewrite H. Qed.


Lemma is_RInt_val (f : R -> R) a b (l l' : R) : is_RInt f a b l -> l = l' -> is_RInt f a b l'.
Proof. now intros H <-. Qed.
Lemma zero_freq (f : R -> R) a b l : is_RInt f a b l -> is_RInt (fun x => f x * cos (0 * x)) a b l.
Proof. apply is_RInt_ext. intros x _. now rewrite Rmult_0_l, cos_0, Rmult_1_r. Qed.
Lemma sin_3 t : sin (2 * t + t) = sin t * (3 - 4 * (sin t * sin t)).
Proof. rewrite sin_plus, sin_d, cos_d. replace (2 * sin t * cos t * cos t) with (2 * sin t * (cos t * cos t)) by ring. rewrite cos_sq. ring. Qed.
Lemma cos_3 t : cos (2 * t + t) = cos t * (1 - 4 * (sin t * sin t)).
Proof. rewrite cos_plus, sin_d, cos_d. ring. Qed.

Lemma nearest_int w : is_RInt (fun x => nearestR x * cos (w * x)) 0 (1/2) (sinc (w / 2) / 2).
Proof.
  unfold sinc. destruct (Req_EM_T (w / 2) 0) as [W|W].
  - assert (w = 0) by lra. subst w. apply zero_freq. apply (piece1 _ 1 0 0 0); [lra|intros; now apply nearest_pos|].
    eapply is_RInt_val; [apply int_poly|]. cbv beta zeta. lra.
  - assert (Hw : w <> 0) by lra. apply (piece _ 1 0 0 0); [lra|intros; now apply nearest_pos|].
    eapply is_RInt_val; [apply int_cos; exact Hw|]. cbv beta zeta. unfold poly. rewrite (Rmult_0_r w), sin_0. replace (w * (1/2)) with (w / 2) by lra. field. exact Hw.
Qed.
Lemma linear_int w : is_RInt (fun x => linearR x * cos (w * x)) 0 1 (sinc (w / 2) ^ 2 / 2).
Proof.
  unfold sinc. destruct (Req_EM_T (w / 2) 0) as [W|W].
  - assert (w = 0) by lra. subst w. apply zero_freq. apply (piece1 _ 1 (-1) 0 0); [lra|intros; now apply linear_pos|].
    eapply is_RInt_val; [apply int_poly|]. cbv beta zeta. lra.
  - assert (Hw : w <> 0) by lra. apply (piece _ 1 (-1) 0 0); [lra|intros; now apply linear_pos|].
    eapply is_RInt_val; [apply int_cos; exact Hw|]. cbv beta zeta. unfold poly. rewrite (Rmult_0_r w), sin_0, cos_0. replace (w * 1) with (2 * (w / 2)) by lra.
    rewrite sin_d, cos_d. field. exact Hw.
Qed.
Lemma quadratic_int w : is_RInt (fun x => quadraticR x * cos (w * x)) 0 (3/2) (sinc (w / 2) ^ 3 / 2).
Proof.
  unfold sinc. destruct (Req_EM_T (w / 2) 0) as [W|W].
  - assert (w = 0) by lra. subst w. apply zero_freq. eapply is_RInt_val.
    + apply (is_RInt_Chasles _ 0 (1/2) (3/2)).
      * apply (piece1 _ (3/4) 0 (-1) 0); [lra|intros; now apply quadratic_pos1|apply int_poly].
      * apply (piece1 _ (9/8) (-(3/2)) (1/2) 0); [lra|intros; now apply quadratic_pos2|apply int_poly].
    + match goal with |- plus ?a ?b = ?c => change (a + b = c) end. cbv beta zeta. lra.
  - assert (Hw : w <> 0) by lra. eapply is_RInt_val.
    + apply (is_RInt_Chasles _ 0 (1/2) (3/2)).
      * apply (piece _ (3/4) 0 (-1) 0); [lra|intros; now apply quadratic_pos1|apply int_cos; exact Hw].
      * apply (piece _ (9/8) (-(3/2)) (1/2) 0); [lra|intros; now apply quadratic_pos2|apply int_cos; exact Hw].
    + match goal with |- plus ?a ?b = ?c => change (a + b = c) end. cbv beta zeta. unfold poly. rewrite (Rmult_0_r w), sin_0, cos_0. replace (w * (1/2)) with (w / 2) by lra.
      replace (w * (3/2)) with (2 * (w / 2) + w / 2) by lra. rewrite sin_3, cos_3. field. exact Hw.
Qed.
Lemma cubic_int w : is_RInt (fun x => cubicR x * cos (w * x)) 0 2 (sinc (w / 2) ^ 4 / 2).
Proof.
  unfold sinc. destruct (Req_EM_T (w / 2) 0) as [W|W].
  - assert (w = 0) by lra. subst w. apply zero_freq. eapply is_RInt_val.
    + apply (is_RInt_Chasles _ 0 1 2).
      * apply (piece1 _ (2/3) 0 (-1) (1/2)); [lra|intros; now apply cubic_pos1|apply int_poly].
      * apply (piece1 _ (4/3) (-2) 1 (-(1/6))); [lra|intros; now apply cubic_pos2|apply int_poly].
    + match goal with |- plus ?a ?b = ?c => change (a + b = c) end. cbv beta zeta. lra.
  - assert (Hw : w <> 0) by lra. eapply is_RInt_val.
    + apply (is_RInt_Chasles _ 0 1 2).
      * apply (piece _ (2/3) 0 (-1) (1/2)); [lra|intros; now apply cubic_pos1|apply int_cos; exact Hw].
      * apply (piece _ (4/3) (-2) 1 (-(1/6))); [lra|intros; now apply cubic_pos2|apply int_cos; exact Hw].
    + match goal with |- plus ?a ?b = ?c => change (a + b = c) end. cbv beta zeta. unfold poly. rewrite (Rmult_0_r w), sin_0, cos_0. replace (w * 1) with (2 * (w / 2)) by lra.
      replace (w * 2) with (2 * (2 * (w / 2))) by lra. rewrite (sin_d (2 * (w / 2))), (cos_d (2 * (w / 2))), !sin_d, !cos_d.
      set (s := sin (w / 2)). set (c := cos (w / 2)).
      assert (C2 : c * c = 1 - s * s) by apply cos_sq.
      field_simplify_eq; [|exact Hw]. replace (c ^ 2) with (1 - s * s) by (rewrite <- C2; ring). ring.
Qed.

Definition half (p : nat) : R := INR p / 2.
Lemma kernel_int k p w : order_of k = Some p -> is_RInt (fun x => kernelR k x * cos (w * x)) 0 (half p) (sinc (w / 2) ^ p / 2).
Proof.
  intros Hk. unfold kernelR. rewrite Hk. unfold half. destruct k; inversion Hk; subst p; clear Hk; simpl INR.
  1,5: rewrite pow_1; apply nearest_int.
  1,4: replace ((1 + 1) / 2) with 1 by lra; apply linear_int.
  1,3: replace ((1 + 1 + 1) / 2) with (3/2) by lra; apply quadratic_int.
  all: replace ((1 + 1 + 1 + 1) / 2) with 2 by lra; apply cubic_int.
Qed.
Lemma kernel_even k p x : order_of k = Some p -> 0 < x < half p -> kernelR k (- x) = kernelR k x.
Proof.
  intros Hk. unfold kernelR. rewrite Hk. unfold half. destruct k; inversion Hk; subst p; clear Hk; simpl INR; intros Hx;
    unfold linearR, quadraticR, cubicR; rewrite ?Rabs_Ropp; try reflexivity;
    unfold nearestR; destruct (Rlt_dec (- x) (1/2)), (Rlt_dec x (1/2)), (Rle_dec (-(1/2)) (- x)), (Rle_dec (-(1/2)) x); lra.
Qed.
Lemma kernel_outside k p x : order_of k = Some p -> half p < Rabs x -> kernelR k x = 0.
Proof.
  intros Hk. unfold kernelR. rewrite Hk. unfold half. destruct k; inversion Hk; subst p; clear Hk; simpl INR; intros Hx.
  1,5: unfold nearestR; destruct (Rlt_dec x (1/2)) as [A|A]; [|reflexivity]; destruct (Rle_dec (-(1/2)) x) as [B|B]; [|reflexivity]; exfalso; revert Hx; unfold Rabs; destruct (Rcase_abs x); lra.
  1,4: unfold linearR; destruct (Rlt_dec (Rabs x) 1); lra.
  1,3: unfold quadraticR; destruct (Rle_dec (Rabs x) (1/2)); [lra|]; destruct (Rlt_dec (Rabs x) (3/2)); lra.
  all: unfold cubicR; destruct (Rlt_dec (Rabs x) 1); [lra|]; destruct (Rlt_dec (Rabs x) 2); lra.
Qed.
(** the kernel times a sine has an integral *)
Lemma int_sin a b c d w u v : ex_RInt (fun x => poly a b c d x * sin (w * x)) u v.
Proof.
  apply (ex_RInt_continuous (V := R_CompleteNormedModule)). intros x _. unfold poly.
  apply (ex_derive_continuous (fun x => (a + b * x + c * (x * x) + d * (x * x * x)) * sin (w * x))). auto_derive. exact I.
Qed.
Lemma piece_sin (f : R -> R) a b c d w u v : u <= v -> (forall x, u < x < v -> f x = poly a b c d x) -> ex_RInt (fun x => f x * sin (w * x)) u v.
Proof. intros Huv H. apply (ex_RInt_ext (fun x => poly a b c d x * sin (w * x))); [|apply int_sin]. rewrite Rmin_left, Rmax_right by exact Huv. intros x Hx. now rewrite H. Qed.
Lemma kernel_sin k p w : order_of k = Some p -> ex_RInt (fun x => kernelR k x * sin (w * x)) 0 (half p).
Proof.
  intros Hk. unfold kernelR. rewrite Hk. unfold half. destruct k; inversion Hk; subst p; clear Hk; simpl INR.
  1,5: apply (piece_sin _ 1 0 0 0); [lra|intros; apply nearest_pos; lra].
  1,4: apply (piece_sin _ 1 (-1) 0 0); [lra|intros; apply linear_pos; lra].
  1,3: apply (ex_RInt_Chasles _ _ (1/2)); [apply (piece_sin _ (3/4) 0 (-1) 0); [lra|intros; apply quadratic_pos1; lra]|apply (piece_sin _ (9/8) (-(3/2)) (1/2) 0); [lra|intros; apply quadratic_pos2; lra]].
  all: apply (ex_RInt_Chasles _ _ 1); [apply (piece_sin _ (2/3) 0 (-1) (1/2)); [lra|intros; apply cubic_pos1; lra]|apply (piece_sin _ (4/3) (-2) 1 (-(1/6))); [lra|intros; apply cubic_pos2; lra]].
Qed.
Lemma half_pos p : 0 <= half p.
Proof. unfold half. pose proof (pos_INR p). lra. Qed.
Lemma kernel_transform k p w : order_of k = Some p ->
  is_RInt (fun x => kernelR k x * cos (w * x)) (- half p) (half p) (sinc (w / 2) ^ p) /\
  is_RInt (fun x => kernelR k x * sin (w * x)) (- half p) (half p) 0.
Proof.
  intros Hk. split.
  - eapply is_RInt_val; [apply int_even; [apply half_pos|apply (kernel_int k p w Hk)|]|lra].
    intros x Hx. rewrite (kernel_even k p x Hk Hx). f_equal. replace (w * - x) with (- (w * x)) by ring. apply cos_neg.
  - destruct (kernel_sin k p w Hk) as [l Hl]. apply (int_odd _ _ l (half_pos p) Hl). intros x Hx.
    rewrite (kernel_even k p x Hk Hx). replace (w * - x) with (- (w * x)) by ring. rewrite sin_neg. ring.
Qed.

(** ** the series near zero *)
Lemma sin_bounds a : 0 <= a <= 4 -> a - a^3/6 + a^5/120 - a^7/5040 <= sin a <= a - a^3/6 + a^5/120.
Proof.
  intros [H0 H4]. pose proof (pre_sin_bound a 1 H0 H4) as [A _]. pose proof (pre_sin_bound a 0 H0 H4) as [_ B].
  unfold sin_approx, sin_term in *. cbn [sum_f_R0 Nat.mul Nat.add] in *.
  simpl INR in *. simpl fact in *. simpl pow in *. split.
  - eapply Rle_trans; [|exact A]. apply Req_le. simpl. field.
  - eapply Rle_trans; [exact B|]. apply Req_le. simpl. field.
Qed.
Lemma sinc_even x : sinc (- x) = sinc x.
Proof. unfold sinc. destruct (Req_EM_T x 0), (Req_EM_T (- x) 0); try lra. rewrite sin_neg. field. exact n. Qed.
Lemma unnormed_even x : sinc_unnormed (- x) = sinc_unnormed x.
Proof.
  unfold sinc_unnormed. destruct (Rlt_dec x (1/100000)), (Rlt_dec (-(1/100000)) x), (Rlt_dec (- x) (1/100000)), (Rlt_dec (-(1/100000)) (- x)); try lra;
    rewrite ?sin_neg; field; lra.
Qed.
Lemma unnormed_pos x : 0 <= x -> sinc x <= sinc_unnormed x <= sinc x + 1 / 10^33 /\ (1/100000 <= x -> sinc_unnormed x = sinc x).
Proof.
  intros H. unfold sinc_unnormed, sinc. destruct (Rlt_dec x (1/100000)) as [A|A].
  - destruct (Rlt_dec (-(1/100000)) x) as [B|B]; [|lra]. split; [|lra]. cbv zeta. destruct (Req_EM_T x 0) as [Z|Z]; [subst; lra|].
    assert (P : 0 < x) by lra. destruct (sin_bounds x ltac:(lra)) as [L U].
    assert (M : forall a b, a * x <= b -> a <= b / x).
    { intros a b Hab. apply (Rmult_le_reg_r x); [exact P|]. unfold Rdiv. rewrite Rmult_assoc, Rinv_l by lra. lra. }
    assert (M2 : forall a b, b <= a * x -> b / x <= a).
    { intros a b Hab. apply (Rmult_le_reg_r x); [exact P|]. unfold Rdiv. rewrite Rmult_assoc, Rinv_l by lra. lra. }
    split; [apply M2|].
    + eapply Rle_trans; [exact U|]. apply Req_le. field.
    + assert (S : 1 - x * x / 6 + x * x * (x * x) / 120 - x ^ 6 / 5040 <= sin x / x).
      { apply M. eapply Rle_trans; [|exact L]. apply Req_le. field. }
      assert (Q : x ^ 6 <= (1/100000) ^ 6) by (apply pow_incr; lra). assert ((1/100000) ^ 6 / 5040 <= 1 / 10 ^ 33) by lra. lra.
  - split; [|intros _]; destruct (Req_EM_T x 0); lra.
Qed.
Lemma unnormed_close x : Rabs (sinc_unnormed x - sinc x) <= 1 / 10^33 /\ (1/100000 <= Rabs x -> sinc_unnormed x = sinc x).
Proof.
  destruct (Rle_dec 0 x) as [H|H].
  - destruct (unnormed_pos x H) as [B E]. rewrite (Rabs_pos_eq x H). split; [apply Rabs_le; lra|exact E].
  - destruct (unnormed_pos (- x) ltac:(lra)) as [B E]. rewrite unnormed_even, sinc_even in *. rewrite (Rabs_left x) by lra. split; [apply Rabs_le; lra|exact E].
Qed.

(** ** C73 *)
Lemma vfactor_pos k p support : order_of k = Some p -> 0 < vfactor k support.
Proof.
  intros Hk. unfold vfactor, window_info_init. destruct (Qle_bool (inject_Z support) 0) eqn:E; cbn [wi_vfactor].
  - assert (0 < native_of k)%Z by (destruct k; inversion Hk; reflexivity).
    rewrite <- RMicromega.Q2R_0. apply Qlt_Rlt. apply Qlt_shift_div_l; [rewrite Qmult_1_l; change 0%Q with (inject_Z 0); now rewrite <- Zlt_Qlt|].
    rewrite Qmult_0_l. change 0%Q with (inject_Z 0). now rewrite <- Zlt_Qlt.
  - assert (0 < native_of k)%Z by (destruct k; inversion Hk; reflexivity).
    assert (0 < inject_Z support)%Q by (apply Qnot_le_lt; intros C; apply Qle_bool_iff in C; congruence).
    rewrite <- RMicromega.Q2R_0. apply Qlt_Rlt. apply Qlt_shift_div_l; [now rewrite Qmult_1_l|].
    rewrite Qmult_0_l. change 0%Q with (inject_Z 0). now rewrite <- Zlt_Qlt.
Qed.
Lemma stretch (f : R -> R) (l : R) v c : 0 < v -> is_RInt f (- c) c l -> is_RInt (fun x => v * f (v * x)) (- (c / v)) (c / v) l.
Proof.
  intros Hv H. eapply is_RInt_ext; [|apply (is_RInt_comp_lin f v 0 (-(c/v)) (c/v) l)].
  - intros x _. cbn. unfold scal; cbn; unfold mult; cbn. now rewrite Rplus_0_r.
  - replace (v * - (c / v) + 0) with (- c) by (field; lra). replace (v * (c / v) + 0) with c by (field; lra). exact H.
Qed.
Lemma get_fwindow_pow k p support w : order_of k = Some p -> get_fwindow k support w = sinc_unnormed (1/2 * (w / vfactor k support)) ^ p.
Proof.
  intros Hk. unfold get_fwindow. destruct k; inversion Hk; cbn [fwindow_of];
    unfold nearest_fwindow, linear_fwindow, quadratic_fwindow, cubic_fwindow; ring.
Qed.
Lemma sinc_le1 x : Rabs (sinc x) <= 1.
Proof.
  assert (P : forall y, 0 < y -> Rabs (sin y / y) <= 1).
  { intros y Hy. rewrite Rabs_div, (Rabs_pos_eq y) by lra. apply (Rmult_le_reg_r y); [exact Hy|]. unfold Rdiv. rewrite Rmult_assoc, Rinv_l by lra. rewrite Rmult_1_r, Rmult_1_l.
    pose proof (Rabs_pos_eq y (Rlt_le _ _ Hy)). destruct (Rle_dec 1 y) as [A|A].
    - pose proof (SIN_bound y). apply Rabs_le. lra.
    - pose proof (sin_lt_x y Hy). pose proof (sin_ge_0 y ltac:(lra) ltac:(pose proof PI_RGT_0; pose proof PI2_1; lra)). rewrite Rabs_pos_eq; lra. }
  unfold sinc. destruct (Req_EM_T x 0) as [E|E]; [rewrite Rabs_R1; lra|].
  destruct (Rlt_dec 0 x) as [A|A]; [now apply P|]. replace (sin x / x) with (sin (- x) / (- x)) by (rewrite sin_neg; field; exact E). apply P. lra.
Qed.
Lemma pow_close a b e n : Rabs a <= 1 + e -> Rabs b <= 1 -> 0 <= e -> Rabs (a - b) <= e -> Rabs (a ^ n - b ^ n) <= INR n * (1 + e) ^ n * e.
Proof.
  intros Ha Hb He Hab. induction n as [|n IH]; [simpl; rewrite Rminus_diag_eq by reflexivity; rewrite Rabs_R0; lra|].
  replace (a ^ S n - b ^ S n) with (a * (a ^ n - b ^ n) + (a - b) * b ^ n) by (simpl; ring).
  eapply Rle_trans; [apply Rabs_triang|]. rewrite !Rabs_mult.
  assert (B : Rabs (b ^ n) <= 1) by (rewrite <- RPow_abs; rewrite <- (pow1 n); apply pow_incr; split; [apply Rabs_pos|lra]).
  assert (X : Rabs a * Rabs (a ^ n - b ^ n) <= (1 + e) * (INR n * (1 + e) ^ n * e)) by (apply Rmult_le_compat; auto using Rabs_pos).
  assert (Y : Rabs (a - b) * Rabs (b ^ n) <= e * 1) by (apply Rmult_le_compat; auto using Rabs_pos).
  assert (Z : 1 <= (1 + e) ^ S n) by (apply pow_R1_Rle; lra).
  rewrite S_INR. simpl pow in *. nra.
Qed.
Lemma power_close x p : (p <= 4)%nat -> Rabs (sinc_unnormed x ^ p - sinc x ^ p) <= 1 / 10^30.
Proof.
  intros Hp. destruct (unnormed_close x) as [C _]. pose proof (sinc_le1 x) as S1.
  assert (U : Rabs (sinc_unnormed x) <= 1 + 1 / 10^33).
  { replace (sinc_unnormed x) with (sinc x + (sinc_unnormed x - sinc x)) by ring. eapply Rle_trans; [apply Rabs_triang|]. lra. }
  eapply Rle_trans; [apply (pow_close _ _ (1/10^33) p U S1); [lra|exact C]|].
  assert (E : (1 + 1/10^33) ^ p <= 2 ^ p) by (apply pow_incr; lra).
  assert (T : (2 ^ p <= 16)) by (replace 16 with (2^4) by ring; apply Rle_pow; [lra|exact Hp]).
  assert (N4 : INR p <= 4) by (replace 4 with (INR 4) by (simpl; lra); now apply le_INR).
  pose proof (pos_INR p). assert (0 <= (1 + 1/10^33) ^ p) by (apply pow_le; lra).
  assert (INR p * (1 + 1/10^33) ^ p <= 4 * 16) by (apply Rmult_le_compat; lra). lra.
Qed.

(** the weight of a particle at a distance [x] from a cell, in units of cells *)
Definition weightR (k : kind) (support : Z) (x : R) : R := vfactor k support * kernelR k (vfactor k support * x).

Theorem C73_fwindow : forall k p support w,
  order_of k = Some p ->
  let v := vfactor k support in
  let s := INR p / v in
  (forall q : Q, weightR k support (Q2R q) =
     Q2R (kernel_of k (q * wi_vfactor (window_info_init (native_of k) (inject_Z support)))
          * wi_vfactor (window_info_init (native_of k) (inject_Z support)))) /\
  (forall x, s / 2 < Rabs x -> weightR k support x = 0) /\
  exists T : R,
    is_RInt (fun x => weightR k support x * cos (w * x)) (- (s / 2)) (s / 2) T /\
    is_RInt (fun x => weightR k support x * sin (w * x)) (- (s / 2)) (s / 2) 0 /\
    Rabs (get_fwindow k support w - T) <= 1 / 10^30 /\
    (2 / 10^5 <= Rabs (w / v) -> get_fwindow k support w = T).
Proof.
  intros k p support w Hk v s. pose proof (vfactor_pos k p support Hk) as Hv. fold v in Hv.
  assert (Hs : s / 2 = half p / v) by (unfold s, half; field; lra).
  split; [|split].
  - intros q. unfold weightR. rewrite Q2R_mult. rewrite <- (kernelR_ok k p _ Hk). rewrite Q2R_mult. unfold vfactor. rewrite (Rmult_comm (Q2R q)). apply Rmult_comm.
  - intros x Hx. unfold weightR. fold v. rewrite (kernel_outside k p _ Hk); [ring|]. rewrite Rabs_mult, (Rabs_pos_eq v) by lra. rewrite Hs in Hx.
    apply (Rmult_lt_compat_l v) in Hx; [|exact Hv]. replace (v * (half p / v)) with (half p) in Hx by (field; lra). exact Hx.
  - exists (sinc (w / v / 2) ^ p). destruct (kernel_transform k p (w / v) Hk) as [C S].
    assert (Ex : forall x, w / v * (v * x) = w * x) by (intros x; field; lra).
    rewrite Hs. split; [|split; [|split]].
    + eapply is_RInt_ext; [|apply (stretch _ _ v (half p) Hv C)]. intros x _. cbn beta. unfold weightR. fold v. rewrite Ex. symmetry. apply Rmult_assoc.
    + eapply is_RInt_ext; [|apply (stretch _ _ v (half p) Hv S)]. intros x _. cbn beta. unfold weightR. fold v. rewrite Ex. symmetry. apply Rmult_assoc.
    + rewrite (get_fwindow_pow k p support w Hk). fold v. replace (w / v / 2) with (1/2 * (w / v)) by (field; lra).
      apply power_close. destruct k; inversion Hk; lia.
    + intros H. rewrite (get_fwindow_pow k p support w Hk). fold v. replace (w / v / 2) with (1/2 * (w / v)) by (field; lra).
      f_equal. apply unnormed_close. rewrite Rabs_mult, (Rabs_pos_eq (1/2)) by lra. lra.
Qed.
Print Assumptions C73_fwindow.
Theorem C73_tabulated : forall k support w, order_of k = None -> get_fwindow k support w = 1.
Proof. intros k support w H. unfold get_fwindow. destruct k; inversion H; reflexivity. Qed.
Print Assumptions C73_tabulated.

(** ** C74 *)
Lemma sin_jordan x : 0 <= x <= PI / 2 -> 2 / PI * x <= sin x.
Proof.
  intros [H0 H1]. pose proof PI_RGT_0 as HP.
  destruct (Req_dec x 0) as [->|N0]; [rewrite sin_0; lra|]. destruct (Req_dec x (PI/2)) as [->|N1]; [rewrite sin_PI2; right; field; lra|].
  assert (D : forall c, derivable_pt_lim sin c (cos c)) by apply derivable_pt_lim_sin.
  destruct (MVT_cor2 sin cos 0 x ltac:(lra) (fun c _ => D c)) as [a [Ea Ha]].
  destruct (MVT_cor2 sin cos x (PI/2) ltac:(lra) (fun c _ => D c)) as [b [Eb Hb]].
  rewrite sin_0 in Ea. rewrite sin_PI2 in Eb.
  assert (C : cos b < cos a) by (apply cos_decreasing_1; lra).
  assert (S1 : sin x = cos a * x) by lra. assert (S2 : 1 - sin x = cos b * (PI/2 - x)) by lra.
  assert (K : x * (1 - sin x) <= sin x * (PI / 2 - x)) by (rewrite S2, S1; assert (0 < x * (PI/2 - x)) by (apply Rmult_lt_0_compat; lra); nra).
  apply (Rmult_le_reg_r (PI/2)); [lra|]. replace (2 / PI * x * (PI / 2)) with x by (field; lra). lra.
Qed.
Lemma unnormed_range x : Rabs x <= PI / 2 -> 2 / PI <= sinc_unnormed x <= 1.
Proof.
  pose proof PI_RGT_0 as HP. pose proof PI2_1 as HP2. pose proof PI_4 as HP4.
  assert (P : forall y, 0 <= y <= PI/2 -> 2 / PI <= sinc_unnormed y <= 1).
  { intros y Hy. unfold sinc_unnormed. destruct (Rlt_dec y (1/100000)) as [A|A].
    - destruct (Rlt_dec (-(1/100000)) y) as [B|B]; [|lra]. cbv zeta.
      assert (0 <= y * y <= 1/100000 * (1/100000)) by (split; [nra|apply Rmult_le_compat; lra]).
      assert (0 <= y * y * (y * y) <= 1/100000 * (1/100000) * (y*y)) by (split; nra).
      split; [|lra]. apply (Rmult_le_reg_r PI); [exact HP|]. replace (2 / PI * PI) with 2 by (field; lra).
      assert (3 <= PI) by (pose proof PI2_3_2; lra).
      nra.
    - assert (0 < y) by lra. pose proof (sin_jordan y Hy). pose proof (sin_lt_x y ltac:(lra)).
      split; apply (Rmult_le_reg_r y); try lra; replace (sin y / y * y) with (sin y) by (field; lra); lra. }
  intros H. destruct (Rle_dec 0 x) as [A|A].
  - apply P. rewrite Rabs_pos_eq in H by exact A. lra.
  - rewrite <- unnormed_even. apply P. rewrite Rabs_left in H by lra. lra.
Qed.
Theorem C74_range : forall k p support w,
  order_of k = Some p -> Rabs (w / vfactor k support) <= PI ->
  (2 / PI) ^ p <= get_fwindow k support w <= 1.
Proof.
  intros k p support w Hk Hw. rewrite (get_fwindow_pow k p support w Hk).
  assert (R : 2 / PI <= sinc_unnormed (1/2 * (w / vfactor k support)) <= 1).
  { apply unnormed_range. rewrite Rabs_mult, (Rabs_pos_eq (1/2)) by lra. lra. }
  assert (0 < 2 / PI) by (apply Rdiv_lt_0_compat; [lra|apply PI_RGT_0]).
  split; [apply pow_incr; lra|]. eapply Rle_trans; [apply (pow_incr _ 1); lra|]. rewrite pow1. lra.
Qed.
Print Assumptions C74_range.
Lemma fold_prod f (w : list R) a : fold_left (fun tf wi => tf * f wi) w a = a * fold_right (fun wi t => f wi * t) 1 w.
Proof. revert a. induction w as [|x w IH]; intros a; cbn; [ring|]. rewrite IH. ring. Qed.
Lemma prod_range (f : R -> R) c w : 0 < c -> (forall x, In x w -> c <= f x <= 1) -> c ^ length w <= fold_right (fun wi t => f wi * t) 1 w <= 1.
Proof.
  intros Hc H. induction w as [|x w IH]; cbn [fold_right length pow]; [lra|].
  destruct (H x (or_introl eq_refl)) as [A B]. destruct (IH (fun y Hy => H y (or_intror Hy))) as [C D].
  pose proof (pow_lt c (length w) Hc).
  split; [apply Rmult_le_compat; lra|]. apply (Rle_trans _ (1 * 1)); [apply Rmult_le_compat; lra|lra].
Qed.
(** the compensation undoes the window: it divides each mode by the product of the
    transforms of the window along the axes, which no mode of a mesh makes vanish as
    long as the support is not larger than the native one; it raises a mode by at most a
    factor (pi / 2)^(p n) and never lowers it *)
Theorem C74_compensation : forall k p support w v,
  order_of k = Some p -> List.Forall (fun wi => Rabs (wi / vfactor k support) <= PI) w ->
  let T := fold_right (fun wi t => get_fwindow k support wi * t) 1 w in
  T <> 0 /\ compensation k support w v * T = v /\
  Rabs v <= Rabs (compensation k support w v) <= (PI / 2) ^ (p * length w) * Rabs v.
Proof.
  intros k p support w v Hk Hw T. pose proof PI_RGT_0 as HP.
  assert (Hc : 0 < (2 / PI) ^ p) by (apply pow_lt, Rdiv_lt_0_compat; lra).
  destruct (prod_range (get_fwindow k support) _ w Hc) as [L U].
  { intros x Hx. rewrite Forall_forall in Hw. apply (C74_range k p support x Hk (Hw x Hx)). }
  fold T in L, U. pose proof (pow_lt _ (length w) Hc) as Hcn. assert (HT : 0 < T) by lra.
  assert (E : compensation k support w v = v / T).
  { unfold compensation. rewrite fold_prod. fold T. now rewrite Rmult_1_l. }
  split; [lra|]. rewrite E. split; [field; lra|].
  rewrite Rabs_div by lra. rewrite (Rabs_pos_eq T) by lra. pose proof (Rabs_pos v) as Hv0.
  split; apply (Rmult_le_reg_r T); try exact HT; replace (Rabs v / T * T) with (Rabs v) by (field; lra).
  - rewrite <- (Rmult_1_r (Rabs v)) at 2. apply Rmult_le_compat_l; lra.
  - assert (X : 1 <= (PI / 2) ^ (p * length w) * T).
    { rewrite pow_mult. replace 1 with (((PI/2) ^ p) ^ length w * ((2 / PI) ^ p) ^ length w).
      - apply Rmult_le_compat_l; [|exact L]. apply pow_le, pow_le. lra.
      - rewrite <- !Rpow_mult_distr. replace (PI / 2 * (2 / PI)) with 1 by (field; lra). now rewrite !pow1. }
    replace ((PI / 2) ^ (p * length w) * Rabs v * T) with ((PI / 2) ^ (p * length w) * T * Rabs v) by ring.
    rewrite <- (Rmult_1_l (Rabs v)) at 1. apply Rmult_le_compat_r; lra.
Qed.
Print Assumptions C74_compensation.
Lemma vfactor_native k p support : order_of k = Some p -> (support <= 0)%Z -> vfactor k support = 1.
Proof.
  intros Hk Hs. unfold vfactor, window_info_init.
  assert (E : Qle_bool (inject_Z support) 0 = true) by (apply Qle_bool_iff; change 0%Q with (inject_Z 0); now rewrite <- Zle_Qle).
  rewrite E. cbn [wi_vfactor]. destruct k; inversion Hk; unfold Q2R; cbn; lra.
Qed.
(** at the native support, which is the default, every mode of a mesh qualifies: the
    circular frequency is between -pi and pi *)
Theorem C74_native : forall k p support w v,
  order_of k = Some p -> (support <= 0)%Z -> List.Forall (fun wi => Rabs wi <= PI) w ->
  compensation k support w v * fold_right (fun wi t => get_fwindow k support wi * t) 1 w = v /\
  Rabs v <= Rabs (compensation k support w v) <= (PI / 2) ^ (p * length w) * Rabs v.
Proof.
  intros k p support w v Hk Hs Hw. apply (C74_compensation k p support w v Hk).
  rewrite Forall_forall in *. intros x Hx. rewrite (vfactor_native k p support Hk Hs). unfold Rdiv. rewrite Rinv_1, Rmult_1_r. now apply Hw.
Qed.
Print Assumptions C74_native.
(** at twice the native support the transform vanishes on the Nyquist frequency, and the
    compensation divides by zero there *)
Theorem C74_resized_refuted : forall k p, order_of k = Some p ->
  get_fwindow k (2 * native_of k) PI = 0.
Proof.
  intros k p Hk. rewrite (get_fwindow_pow k p _ _ Hk).
  assert (E : vfactor k (2 * native_of k) = 1/2) by (destruct k; inversion Hk; unfold vfactor, Q2R; cbn; lra).
  rewrite E. replace (1 / 2 * (PI / (1 / 2))) with PI by field.
  destruct (unnormed_close PI) as [_ U]. pose proof PI2_3_2. rewrite U by (rewrite Rabs_pos_eq; lra).
  unfold sinc. destruct (Req_EM_T PI 0); [lra|]. rewrite sin_PI. replace (0 / PI) with 0 by (field; lra).
  destruct p; [destruct k; discriminate|]. simpl. ring.
Qed.
Print Assumptions C74_resized_refuted.

(** ** concrete cases *)
(** the cloud in cell window: T(pi) = 4 / pi^2, the value at the Nyquist frequency *)
Example C73_case : get_fwindow TunedCIC (-1) PI = 4 / (PI * PI).
Proof.
  pose proof PI_RGT_0 as HP. pose proof PI2_3_2. rewrite (get_fwindow_pow TunedCIC 2 _ _ eq_refl), (vfactor_native TunedCIC 2 _ eq_refl) by lia.
  replace (1 / 2 * (PI / 1)) with (PI / 2) by field.
  destruct (unnormed_close (PI/2)) as [_ U]. rewrite U by (rewrite Rabs_pos_eq; lra).
  unfold sinc. destruct (Req_EM_T (PI/2) 0); [lra|]. rewrite sin_PI2. field. lra.
Qed.
Example C73_case_int : exists T : R, is_RInt (fun x => weightR Cubic 8 x * cos (1 * x)) (-4) 4 T /\ get_fwindow Cubic 8 1 = T.
Proof.
  destruct (C73_fwindow Cubic 4 8 1 eq_refl) as [_ [_ [T [HT [_ [_ E]]]]]].
  assert (V : vfactor Cubic 8 = 1/2) by (unfold vfactor, Q2R; cbn; lra). rewrite V in *.
  exists T. split.
  - replace (INR 4 / (1 / 2) / 2) with 4 in HT by (simpl; field). exact HT.
  - apply E. rewrite Rabs_pos_eq; lra.
Qed.
Example C74_case : compensation TunedCIC (-1) [PI; 0; PI] 8 = 8 * (PI ^ 4 / 16).
Proof.
  pose proof PI_RGT_0 as HP. unfold compensation. cbn [fold_left]. rewrite C73_case.
  rewrite (get_fwindow_pow TunedCIC 2 _ 0 eq_refl), (vfactor_native TunedCIC 2 _ eq_refl) by lia.
  replace (1 / 2 * (0 / 1)) with 0 by field. unfold sinc_unnormed. destruct (Rlt_dec 0 (1/100000)); [|lra]. destruct (Rlt_dec (-(1/100000)) 0); [|lra].
  field. lra.
Qed.
Example C74_case_hyp : List.Forall (fun wi => Rabs wi <= PI) [PI; 0; PI].
Proof. pose proof PI_RGT_0. repeat constructor; rewrite Rabs_pos_eq; lra. Qed.
