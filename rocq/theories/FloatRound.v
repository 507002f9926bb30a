(** [round64] is the rounding of IEEE 754 binary64 as defined by Flocq; what
    follows from that. *)
From Coq Require Import ZArith QArith Qround Qpower Qabs Qreals Reals Lia Lra Psatz Bool.
From Coq.micromega Require Import RMicromega.
From Flocq Require Import Core.
From Verif Require Import FloatModel.
Local Close Scope Q_scope.
Local Close Scope R_scope.
Local Open Scope Z_scope.

Lemma Q2R_inject z : Q2R (inject_Z z) = IZR z.
Proof. unfold Q2R, inject_Z. cbn. field. Qed.
Lemma Q2R_pow2 e : Q2R (Qpower 2 e) = bpow radix2 e.
Proof.
  rewrite Q2RpowerRZ; [|left; discriminate]. rewrite bpow_powerRZ. f_equal. unfold Q2R. cbn. field.
Qed.
Lemma Q2R_floor q : Zfloor (Q2R q) = Qfloor q.
Proof.
  apply Zfloor_imp. rewrite plus_IZR, <- !Q2R_inject. change (IZR 1) with 1%R.
  pose proof (Qfloor_le q) as A. pose proof (Qlt_floor q) as B.
  apply Qle_Rle in A. apply Qlt_Rlt in B. rewrite inject_Z_plus, Q2R_plus in B.
  rewrite (Q2R_inject 1) in *. lra.
Qed.
Lemma qnear_ok q : qnear q = ZnearestE (Q2R q).
Proof.
  unfold qnear, Znearest. rewrite Q2R_floor.
  assert (D : (Q2R q - IZR (Qfloor q))%R = Q2R (q - inject_Z (Qfloor q))) by now rewrite Q2R_minus, Q2R_inject.
  assert (H2 : (/ 2)%R = Q2R (1 # 2)) by (unfold Q2R; cbn; lra).
  assert (CE : forall a b, Rcompare (Q2R a) (Q2R b) = Qcompare a b).
  { intros a b. destruct (Qcompare_spec a b) as [H|H|H].
    - apply Rcompare_Eq. now apply Qeq_eqR.
    - apply Rcompare_Lt. now apply Qlt_Rlt.
    - apply Rcompare_Gt. now apply Qlt_Rlt. }
  rewrite D, H2, CE.
  assert (CF : (0 < q - inject_Z (Qfloor q))%Q -> Zceil (Q2R q) = Qfloor q + 1).
  { intros H. rewrite <- Q2R_floor. apply Zceil_floor_neq. rewrite Q2R_floor, <- Q2R_inject. intros C.
    apply eqR_Qeq in C. rewrite <- C in H at 1. ring_simplify (inject_Z (Qfloor q) - inject_Z (Qfloor q))%Q in H. discriminate H. }
  destruct (Qcompare_spec (q - inject_Z (Qfloor q)) (1 # 2)) as [H|H|H].
  - rewrite CF by (rewrite H; reflexivity). now destruct (Z.even (Qfloor q)).
  - reflexivity.
  - symmetry. apply CF. eapply Qlt_trans; [|exact H]. reflexivity.
Qed.
Lemma qmag_ok q : ~ (q == 0)%Q -> qmag q = mag radix2 (Q2R q).
Proof.
  intros Hq. symmetry. apply mag_unique. unfold qmag.
  set (e := Z.log2 (Z.abs (Qnum q)) - Z.log2 (Zpos (Qden q))).
  assert (Hn : 0 < Z.abs (Qnum q)).
  { destruct q as [[|p|p] d]; cbn; try lia. exfalso. apply Hq. reflexivity. }
  assert (AQ : Rabs (Q2R q) = Q2R (Qabs q)).
  { unfold Q2R. destruct q as [a d]. cbn [Qabs Qnum Qden]. rewrite Rabs_mult, <- abs_IZR. f_equal. apply Rabs_pos_eq.
    apply Rlt_le, Rinv_0_lt_compat, IZR_lt. reflexivity. }
  rewrite AQ.
  assert (Hd : (0 < IZR (Zpos (Qden q)))%R) by (apply IZR_lt; reflexivity).
  assert (U : forall z, 0 < z -> (bpow radix2 (Z.log2 z) <= IZR z < bpow radix2 (Z.log2 z + 1))%R).
  { intros z Hz. pose proof (Z.log2_spec z Hz) as [A B]. pose proof (Z.log2_nonneg z).
    rewrite <- (IZR_Zpower radix2) by lia. rewrite <- (IZR_Zpower radix2) by lia.
    split; [now apply IZR_le|now apply IZR_lt]. }
  assert (EQ : Q2R (Qabs q) = (IZR (Z.abs (Qnum q)) / IZR (Zpos (Qden q)))%R) by (destruct q; reflexivity).
  destruct (U _ Hn) as [N1 N2]. destruct (U (Zpos (Qden q)) eq_refl) as [D1 D2].
  assert (up : (Q2R (Qabs q) < bpow radix2 (e + 1))%R).
  { rewrite EQ. apply Rmult_lt_reg_r with (IZR (Zpos (Qden q))); [exact Hd|]. unfold Rdiv. rewrite Rmult_assoc, Rinv_l, Rmult_1_r by lra.
    eapply Rlt_le_trans; [exact N2|].
    replace (Z.log2 (Z.abs (Qnum q)) + 1) with ((e + 1) + Z.log2 (Zpos (Qden q))) by (unfold e; lia).
    rewrite bpow_plus. apply Rmult_le_compat_l; [apply bpow_ge_0|exact D1]. }
  assert (lo : (bpow radix2 (e - 1) < Q2R (Qabs q))%R).
  { rewrite EQ. apply Rmult_lt_reg_r with (IZR (Zpos (Qden q))); [exact Hd|]. unfold Rdiv. rewrite Rmult_assoc, Rinv_l, Rmult_1_r by lra.
    eapply Rlt_le_trans; [|exact N1].
    replace (Z.log2 (Z.abs (Qnum q))) with ((e - 1) + (Z.log2 (Zpos (Qden q)) + 1)) by (unfold e; lia).
    rewrite bpow_plus. apply Rmult_lt_compat_l; [apply bpow_gt_0|exact D2]. }
  destruct (Qle_bool (Qpower 2 e) (Qabs q)) eqn:B.
  - apply Qle_bool_iff, Qle_Rle in B. rewrite Q2R_pow2 in B. replace (e + 1 - 1) with e by lia. split; [exact B|exact up].
  - split; [now apply Rlt_le|]. rewrite <- Q2R_pow2. apply Qlt_Rlt. apply Qnot_le_lt. intros C. apply Qle_bool_iff in C. congruence.
Qed.

Notation f64 := (FLT_exp (-1074) 53).
Theorem round64_ok q : Q2R (round64 q) = round radix2 f64 ZnearestE (Q2R q).
Proof.
  unfold round64. destruct (Qeq_bool q 0) eqn:B.
  - apply Qeq_bool_iff, Qeq_eqR in B. rewrite B. replace (Q2R 0) with 0%R by (unfold Q2R; cbn; lra). now rewrite round_0 by apply valid_rnd_N.
  - assert (Hq : ~ (q == 0)%Q) by (intros C; apply Qeq_bool_iff in C; congruence).
    unfold round, F2R, scaled_mantissa, cexp, FLT_exp. cbn [Fnum Fexp]. rewrite <- (qmag_ok q Hq).
    rewrite Q2R_mult, Q2R_inject, Q2R_pow2. do 2 f_equal. rewrite qnear_ok. f_equal. rewrite Q2R_mult, Q2R_pow2. reflexivity.
Qed.
Lemma round64_mono x y : (x <= y)%Q -> (round64 x <= round64 y)%Q.
Proof.
  intros H. apply Rle_Qle. rewrite !round64_ok. apply round_le; [apply FLT_exp_valid; reflexivity|apply valid_rnd_N|now apply Qle_Rle].
Qed.
Lemma round64_compat x y : (x == y)%Q -> (round64 x == round64 y)%Q.
Proof. intros H. apply Qle_antisym; apply round64_mono; rewrite H; apply Qle_refl. Qed.
(** m 2^e with at most 53 bits is a double *)
Lemma round64_exact m e : Z.abs m <= 2 ^ 53 -> -1074 <= e -> (round64 (inject_Z m * Qpower 2 e) == inject_Z m * Qpower 2 e)%Q.
Proof.
  intros Hm He. apply eqR_Qeq. rewrite round64_ok, Q2R_mult, Q2R_inject, Q2R_pow2. apply round_generic; [apply valid_rnd_N|].
  assert (V : Valid_exp f64) by (apply FLT_exp_valid; reflexivity).
  destruct (Z.eq_dec (Z.abs m) (2 ^ 53)) as [E|E].
  - assert (F : generic_format radix2 f64 (bpow radix2 (53 + e))) by (apply generic_format_FLT_bpow; [reflexivity|lia]).
    rewrite bpow_plus, <- IZR_Zpower in F by lia. change (radix2 ^ 53) with (2 ^ 53) in F.
    destruct (Z.abs_eq_or_opp m) as [A|A]; rewrite A in E.
    + now rewrite E.
    + replace m with (- (2 ^ 53)) by lia. rewrite opp_IZR, Ropp_mult_distr_l_reverse. now apply generic_format_opp.
  - apply generic_format_FLT. exists (Float radix2 m e); [reflexivity|cbn; change (2 ^ 53) with 9007199254740992 in *; lia|exact He].
Qed.
Lemma round64_int m : Z.abs m <= 2 ^ 53 -> (round64 (inject_Z m) == inject_Z m)%Q.
Proof.
  intros H. pose proof (Qmult_1_r (inject_Z m)) as E1. pose proof (round64_exact m 0 H ltac:(lia)) as E.
  change (Qpower 2 0) with 1%Q in E. eapply Qeq_trans; [|exact E1]. eapply Qeq_trans; [|exact E].
  apply round64_compat. now apply Qeq_sym.
Qed.
(** the error of one operation on numbers up to 2^k is at most 2^(k-54) *)
Lemma round64_error x k : -1021 <= k -> (Qabs x <= Qpower 2 k)%Q -> (Qabs (round64 x - x) <= Qpower 2 (k - 53))%Q.
Proof.
  intros Hk Hx. apply Rle_Qle.
  assert (AQ : forall q, Q2R (Qabs q) = Rabs (Q2R q)).
  { intros q. unfold Q2R. destruct q as [a d]. cbn [Qabs Qnum Qden]. rewrite Rabs_mult, <- abs_IZR. f_equal. symmetry. apply Rabs_pos_eq.
    apply Rlt_le, Rinv_0_lt_compat, IZR_lt. reflexivity. }
  apply Qle_Rle in Hx. rewrite AQ, Q2R_pow2 in Hx. rewrite AQ, Q2R_minus, round64_ok, Q2R_pow2.
  assert (V : Valid_exp f64) by (apply FLT_exp_valid; reflexivity).
  eapply Rle_trans; [apply error_le_half_ulp; exact V|].
  assert (M : Monotone_exp f64) by apply FLT_exp_monotone.
  assert (U : (ulp radix2 f64 (Q2R x) <= ulp radix2 f64 (bpow radix2 k))%R).
  { apply ulp_le; [exact V|exact M|]. rewrite (Rabs_pos_eq (bpow _ _)) by apply bpow_ge_0. exact Hx. }
  rewrite ulp_bpow in U. unfold FLT_exp at 2 in U. rewrite Z.max_l in U by lia.
  replace (k + 1 - 53) with (1 + (k - 53)) in U by lia. rewrite bpow_plus in U. cbn [bpow] in U.
  change (IZR (Z.pow_pos radix2 1)) with 2%R in U. lra.
Qed.
Print Assumptions round64_ok.
