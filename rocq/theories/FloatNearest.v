(** The nearest window with rounded arithmetic (pmesh/_window_tuned_nnb.h:8-26,
    _window_generics.h:143-210): on any block of the mesh it finds the cell that it
    finds on the whole mesh. *)
From Coq Require Import List Arith ZArith QArith Qround Qpower Qabs Qreals Reals Lqa Lia Bool.
From Flocq Require Import Core.
From Verif Require Import Base ListFacts LayoutModel WrapModel WrapProofs DomainModel FloatModel FloatRound.
Import ListNotations.
Local Close Scope R_scope.
Local Close Scope Q_scope.
Local Open Scope Z_scope.

(** a double is an integer of 53 bits times a power of two *)
Lemma round64_format q : exists m e, Z.abs m < 2 ^ 53 /\ -1074 <= e /\ (round64 q == inject_Z m * Qpower 2 e)%Q.
Proof.
  assert (HP : Prec_gt_0 53) by reflexivity. pose proof (generic_format_round radix2 f64 ZnearestE (Q2R q)) as F. rewrite <- round64_ok in F.
  apply FLT_format_generic in F; [|reflexivity]. destruct F as [[m e] F1 F2 F3]. cbn in *. exists m, e. split; [exact F2|]. split; [exact F3|].
  apply eqR_Qeq. rewrite Q2R_mult, Q2R_inject, Q2R_pow2. exact F1.
Qed.
Lemma qpow_pos k : (0 < Qpower 2 k)%Q.
Proof. apply Qpower_0_lt. reflexivity. Qed.
Lemma qpow_plus a b : (Qpower 2 (a + b) == Qpower 2 a * Qpower 2 b)%Q.
Proof. apply Qpower_plus. discriminate. Qed.
Lemma qpow_int k : 0 <= k -> (Qpower 2 k == inject_Z (2 ^ k))%Q.
Proof. intros H. rewrite Zpower_Qpower by exact H. reflexivity. Qed.
Lemma qpow_le a b : a <= b -> (Qpower 2 a <= Qpower 2 b)%Q.
Proof. intros H. apply Qpower_le_compat_l; [exact H|discriminate]. Qed.
(** a double from 2^k on is a multiple of 2^(k-52) *)
Lemma double_grid q k : -1022 <= k -> (Qpower 2 k <= round64 q)%Q -> exists m, (round64 q == inject_Z m * Qpower 2 (k - 52))%Q.
Proof.
  intros Hk H. destruct (round64_format q) as (m & e & Hm & He & E). destruct (Z_le_gt_dec (k - 52) e) as [G|G].
  - exists (m * 2 ^ (e - (k - 52))). rewrite E, inject_Z_mult. rewrite <- qpow_int by lia. rewrite <- Qmult_assoc, <- qpow_plus.
    replace (e - (k - 52) + (k - 52)) with e by lia. reflexivity.
  - exfalso. rewrite E in H. apply (Qlt_irrefl (Qpower 2 k)). eapply Qle_lt_trans; [exact H|].
    apply Qlt_le_trans with (inject_Z (2 ^ 53) * Qpower 2 e)%Q.
    + apply Qmult_lt_compat_r; [apply qpow_pos|]. rewrite <- Zlt_Qlt. lia.
    + rewrite <- qpow_int by lia. rewrite <- qpow_plus. apply qpow_le. lia.
Qed.
Lemma rep k m : -1022 <= k -> Z.abs m <= 2 ^ 53 -> (round64 (inject_Z m * Qpower 2 (k - 52)) == inject_Z m * Qpower 2 (k - 52))%Q.
Proof. intros. apply round64_exact; lia. Qed.

Lemma round64_idem q : (round64 (round64 q) == round64 q)%Q.
Proof.
  destruct (round64_format q) as (m & e & Hm & He & E). eapply Qeq_trans; [apply (round64_compat _ _ E)|].
  rewrite E. apply round64_exact; lia.
Qed.
(** upper and lower bounds of a rounded number by numbers that are doubles *)
Lemma round_ub x y : (round64 y == y)%Q -> (x <= y)%Q -> (round64 x <= y)%Q.
Proof. intros H L. rewrite <- H. now apply round64_mono. Qed.
Lemma round_lb x y : (round64 y == y)%Q -> (y <= x)%Q -> (y <= round64 x)%Q.
Proof. intros H L. rewrite <- H. now apply round64_mono. Qed.
Lemma half_int z : Z.abs z <= 2 ^ 53 -> (round64 (inject_Z z * (1 # 2)) == inject_Z z * (1 # 2))%Q.
Proof. intros H. change (1 # 2)%Q with (Qpower 2 (-1)). apply round64_exact; lia. Qed.
Lemma floor_is q z : (inject_Z z <= q)%Q -> (q < inject_Z (z + 1))%Q -> Qfloor q = z.
Proof.
  intros A B. pose proof (Qfloor_le q) as C. pose proof (Qlt_floor q) as D.
  assert (inject_Z z < inject_Z (Qfloor q + 1))%Q by (eapply Qle_lt_trans; eassumption).
  assert (inject_Z (Qfloor q) < inject_Z (z + 1))%Q by (eapply Qle_lt_trans; eassumption).
  rewrite <- Zlt_Qlt in *. lia.
Qed.
Lemma floor_lb q z : (inject_Z z <= q)%Q -> z <= Qfloor q.
Proof. intros A. pose proof (Qlt_floor q) as D. assert (inject_Z z < inject_Z (Qfloor q + 1))%Q by (eapply Qle_lt_trans; eassumption). rewrite <- Zlt_Qlt in *. lia. Qed.
Lemma floor_ub q z : (q < inject_Z (z + 1))%Q -> Qfloor q <= z.
Proof. intros A. pose proof (Qfloor_le q) as D. assert (inject_Z (Qfloor q) < inject_Z (z + 1))%Q by (eapply Qle_lt_trans; eassumption). rewrite <- Zlt_Qlt in *. lia. Qed.
Lemma inj_le a b : a <= b -> (inject_Z a <= inject_Z b)%Q.
Proof. now rewrite <- Zle_Qle. Qed.
Lemma inj_1 a : (inject_Z (a + 1) == inject_Z a + 1)%Q.
Proof. now rewrite inject_Z_plus. Qed.

Section Octave.
(** numbers of the octave from 2^k in units of its last place *)
Variable k : Z.
Hypothesis Hk : 0 <= k <= 31.
Let u := Qpower 2 (k - 52).
Let K := 2 ^ (51 - k).
Lemma u_pos : (0 < u)%Q. Proof. apply qpow_pos. Qed.
Lemma K_pos : 0 < K. Proof. apply Z.pow_pos_nonneg; lia. Qed.
Lemma K_half : (inject_Z K * u == 1 # 2)%Q.
Proof.
  unfold K, u. rewrite <- qpow_int by lia. rewrite <- qpow_plus. replace (51 - k + (k - 52)) with (-1) by lia. reflexivity.
Qed.
Lemma K_top : 2 * K * 2 ^ (k + 1) = 2 ^ 53.
Proof. unfold K. rewrite <- Z.pow_succ_r, <- Z.pow_add_r by lia. f_equal. lia. Qed.
Lemma K_int z : (inject_Z z == inject_Z (2 * K * z) * u)%Q.
Proof. rewrite !inject_Z_mult. pose proof K_half as H. setoid_replace (inject_Z 2 * inject_Z K * inject_Z z * u)%Q with (2 * (inject_Z K * u) * inject_Z z)%Q by ring. rewrite H. ring. Qed.
Lemma u_lt a b : a < b -> (inject_Z a * u < inject_Z b * u)%Q.
Proof. intros H. apply Qmult_lt_compat_r; [apply u_pos|]. now rewrite <- Zlt_Qlt. Qed.
Lemma u_le a b : a <= b -> (inject_Z a * u <= inject_Z b * u)%Q.
Proof. intros H. apply Qmult_le_compat_r; [now rewrite <- Zle_Qle|]. apply Qlt_le_weak, u_pos. Qed.
Lemma u_inv a b : (inject_Z a * u < inject_Z b * u)%Q -> a < b.
Proof. intros H. rewrite Zlt_Qlt. eapply Qmult_lt_r; [apply u_pos|exact H]. Qed.
Lemma u_rep m : Z.abs m <= 2 ^ 53 -> (round64 (inject_Z m * u) == inject_Z m * u)%Q.
Proof. intros. apply rep; lia. Qed.

(** z + 1/2 stays below the integer it is below *)
Lemma half_below m b : 0 <= m < 2 ^ 53 -> Z.abs b <= 2 ^ 50 -> m + K < 2 * K * b ->
  (round64 (inject_Z (m + K) * u) < inject_Z b)%Q.
Proof.
  intros Hm Hb H. pose proof K_pos as HK. pose proof K_top as HT. destruct (Z_le_gt_dec (2 * K * (b - 1)) m) as [G|G].
  - assert (B : b <= 2 ^ (k + 1)) by nia.
    apply Qle_lt_trans with (inject_Z (2 * K * b - 1) * u)%Q.
    + apply round_ub; [apply u_rep; nia|apply u_le; lia].
    + rewrite (K_int b). apply u_lt. lia.
  - apply Qle_lt_trans with (inject_Z (2 * b - 1) * (1 # 2))%Q.
    + apply round_ub; [apply half_int; lia|]. rewrite <- K_half.
      setoid_replace (inject_Z (2 * b - 1) * (inject_Z K * u))%Q with (inject_Z ((2 * b - 1) * K) * u)%Q by (rewrite (inject_Z_mult _ K); ring).
      apply u_le. nia.
    + unfold Z.sub. rewrite inject_Z_plus, inject_Z_mult. change (inject_Z 2) with 2%Q. change (inject_Z (- (1))) with (-(1))%Q. lra.
Qed.
Lemma half_floor m : 0 <= m < 2 ^ 53 -> Qfloor (round64 (inject_Z (m + K) * u)) = (m + K) / (2 * K).
Proof.
  intros Hm. pose proof K_pos as HK. pose proof K_top as HT. pose proof (Z.mul_div_le (m + K) (2 * K) ltac:(lia)) as A.
  pose proof (Z.mul_succ_div_gt (m + K) (2 * K) ltac:(lia)) as B.
  assert (C : 0 <= (m + K) / (2 * K)) by (apply Z.div_pos; lia).
  assert (D : (m + K) / (2 * K) <= 2 ^ 34).
  { assert (2 ^ (k + 1) <= 2 ^ 32) by (apply Z.pow_le_mono_r; lia). assert ((m + K) / (2 * K) <= 2 ^ (k + 1) + 1); [|lia].
    apply Z.lt_succ_r. apply Z.div_lt_upper_bound; [lia|]. nia. }
  apply floor_is.
  - apply round_lb; [apply round64_int; lia|]. rewrite K_int. apply u_le. lia.
  - apply half_below; [exact Hm|lia|lia].
Qed.
End Octave.

Definition double (x : Q) : Prop := exists q, x = round64 q.
Lemma double_fix x : double x -> (round64 x == x)%Q.
Proof. intros [q ->]. apply round64_idem. Qed.
Lemma octave x : double x -> (1 <= x)%Q -> (x <= inject_Z (2 ^ 31))%Q ->
  exists k m, 0 <= k <= 31 /\ 0 <= m < 2 ^ 53 /\ (x == inject_Z m * Qpower 2 (k - 52))%Q.
Proof.
  intros [q ->] H1 H2. set (x := round64 q) in *. pose proof (floor_lb x 1 H1) as F1.
  assert (F2 : Qfloor x <= 2 ^ 31).
  { rewrite Zle_Qle. eapply Qle_trans; [apply Qfloor_le|exact H2]. }
  destruct (Z.log2_spec (Qfloor x) ltac:(lia)) as [L1 L2]. set (k := Z.log2 (Qfloor x)) in *.
  assert (Hk0 : 0 <= k) by apply Z.log2_nonneg.
  assert (Hk : k <= 31).
  { apply Z.nlt_ge. intros C. assert (2 ^ 32 <= 2 ^ k) by (apply Z.pow_le_mono_r; lia). lia. }
  destruct (double_grid q k) as [m Hm]; [lia| |].
  { rewrite qpow_int by lia. eapply Qle_trans; [apply inj_le; exact L1|apply Qfloor_le]. }
  fold x in Hm. exists k, m. split; [lia|]. split; [|exact Hm]. split.
  - assert (inject_Z (-1) * Qpower 2 (k - 52) < inject_Z m * Qpower 2 (k - 52))%Q.
    { rewrite <- Hm. change (inject_Z (-1)) with (-(1))%Q. pose proof (qpow_pos (k - 52)). lra. }
    enough (-1 < m) by lia. rewrite Zlt_Qlt. eapply Qmult_lt_r; [apply qpow_pos|exact H].
  - rewrite Zlt_Qlt. eapply Qmult_lt_r; [apply (qpow_pos (k - 52))|]. rewrite <- Hm. rewrite <- qpow_int by lia. rewrite <- qpow_plus.
    replace (53 + (k - 52)) with (Z.succ k) by lia. rewrite qpow_int by lia.
    eapply Qlt_le_trans; [apply Qlt_floor|]. apply inj_le. lia.
Qed.
Lemma floor_eq x y : (x == y)%Q -> Qfloor x = Qfloor y.
Proof. intros H. now rewrite H. Qed.
Lemma sub_eq x a k m : 0 <= k <= 31 -> (x == inject_Z m * Qpower 2 (k - 52))%Q ->
  (x + inject_Z (- a) == inject_Z (m - 2 * 2 ^ (51 - k) * a) * Qpower 2 (k - 52))%Q.
Proof.
  intros Hk E. rewrite E. rewrite inject_Z_opp, (K_int k Hk a). generalize (2 * 2 ^ (51 - k) * a). intros t. rewrite <- (Z.add_opp_r m t), inject_Z_plus, inject_Z_opp. ring.
Qed.
Lemma half_eq y k m : 0 <= k <= 31 -> (y == inject_Z m * Qpower 2 (k - 52))%Q ->
  (y + (1 # 2) == inject_Z (m + 2 ^ (51 - k)) * Qpower 2 (k - 52))%Q.
Proof. intros Hk E. rewrite E, inject_Z_plus, Qmult_plus_distr_l, (K_half k Hk). reflexivity. Qed.

(** blocks that begin at or before the particle *)
Lemma cell_from x a : double x -> 1 <= a -> (inject_Z a <= x)%Q -> (x <= inject_Z (2 ^ 31))%Q ->
  Qfloor (round64 (round64 (x + inject_Z (- a)) + (1 # 2))) = Qfloor (round64 (x + (1 # 2))) - a.
Proof.
  intros D Ha Hax Hx. destruct (octave x D) as (k & m & Hk & Hm & E); [eapply Qle_trans; [|exact Hax]; apply (inj_le 1); lia|exact Hx|].
  set (K := 2 ^ (51 - k)). pose proof (K_pos k Hk) as HK. fold K in HK.
  assert (Hma : 2 * K * a <= m).
  { rewrite E, (K_int k Hk a) in Hax. apply Z.nlt_ge. intros C. apply (u_lt k) in C. fold K in Hax. lra. }
  rewrite (floor_eq _ _ (round64_compat _ _ (half_eq x k m Hk E))), (half_floor k Hk m Hm). fold K.
  assert (E2 : (round64 (x + inject_Z (- a)) == inject_Z (m - 2 * K * a) * Qpower 2 (k - 52))%Q).
  { eapply Qeq_trans; [apply round64_compat, (sub_eq x a k m Hk E)|]. apply (u_rep k Hk). nia. }
  rewrite (floor_eq _ _ (round64_compat _ _ (half_eq _ k _ Hk E2))). fold K. rewrite (half_floor k Hk) by nia. fold K.
  replace (m - 2 * K * a + K) with (m + K + - a * (2 * K)) by ring. rewrite Z.div_add by lia. lia.
Qed.
(** blocks that begin after the particle: their first cell, or none of theirs *)
Lemma inj_half z : (inject_Z (2 * z + 1) * (1 # 2) == inject_Z z + (1 # 2))%Q.
Proof. rewrite inject_Z_plus, inject_Z_mult. change (inject_Z 2) with 2%Q. change (inject_Z 1) with 1%Q. ring. Qed.
Lemma rep_half z : Z.abs z <= 2 ^ 50 -> (round64 (inject_Z z + (1 # 2)) == inject_Z z + (1 # 2))%Q.
Proof. intros H. eapply Qeq_trans; [apply round64_compat, Qeq_sym, inj_half|]. rewrite half_int by lia. apply inj_half. Qed.
Lemma cell_first x a : double x -> (0 <= x)%Q -> (x < inject_Z a)%Q -> a <= 2 ^ 31 ->
  (inject_Z a <= round64 (x + (1 # 2)) <-> 0 <= round64 (round64 (x + inject_Z (- a)) + (1 # 2)))%Q.
Proof.
  intros D H0 Hxa Ha2. assert (Ha : 1 <= a). { enough (0 < a) by lia. rewrite Zlt_Qlt. eapply Qle_lt_trans; eassumption. }
  destruct (Qlt_le_dec x (inject_Z a - (1 # 2))) as [Hlt|Hge].
  2:{ split; intros _.
      - apply round_lb; [apply (round64_int 0); lia|].
        assert (- (1 # 2) <= round64 (x + inject_Z (- a)))%Q; [|lra]. apply round_lb; [apply (half_int (-1)); lia|]. rewrite inject_Z_opp. lra.
      - apply round_lb; [apply round64_int; lia|]. lra. }
  destruct (Qlt_le_dec x 1) as [Hx1|Hx1].
  - destruct (Z.eq_dec a 1) as [->|Ha1].
    + (* between 1/2 - 2^-53 and 1/2 there is one double *)
      assert (P1 : (Qpower 2 (-54) == 1 # 18014398509481984)%Q) by reflexivity.
      assert (P2 : (Qpower 2 (-53) == 1 # 9007199254740992)%Q) by reflexivity.
      destruct (Qlt_le_dec x ((1 # 2) - Qpower 2 (-54))) as [S|S].
      * assert (S' : (x <= (1 # 2) - Qpower 2 (-53))%Q).
        { destruct (Qlt_le_dec x (1 # 4)) as [Q4|Q4]; [lra|]. destruct D as [q ->].
          destruct (double_grid q (-2) ltac:(lia) Q4) as [m Em]. change (-2 - 52) with (-54) in Em. rewrite Em in *. clear Em Q4.
          assert (E1 : ((1 # 2) - Qpower 2 (-54) == inject_Z (2 ^ 53 - 1) * Qpower 2 (-54))%Q) by reflexivity.
          assert (E2 : ((1 # 2) - Qpower 2 (-53) == inject_Z (2 ^ 53 - 2) * Qpower 2 (-54))%Q) by reflexivity.
          rewrite E1 in S. rewrite E2. apply Qmult_lt_r in S; [|reflexivity]. rewrite <- Zlt_Qlt in S.
          apply Qmult_le_compat_r; [|discriminate]. rewrite <- Zle_Qle. lia. }
        split; intros C; exfalso.
        -- assert (U : (round64 (x + (1 # 2)) <= inject_Z (2 ^ 53 - 1) * Qpower 2 (-53))%Q).
           { apply round_ub; [apply round64_exact; lia|]. assert (E1 : (inject_Z (2 ^ 53 - 1) * Qpower 2 (-53) == 1 - Qpower 2 (-53))%Q) by reflexivity. rewrite E1. lra. }
           change (inject_Z (2 ^ 53 - 1)) with (9007199254740991 # 1)%Q in U. change (inject_Z 1) with 1%Q in C. lra.
        -- assert (U : (round64 (x + inject_Z (- (1))) <= inject_Z (- (2 ^ 52 + 1)) * Qpower 2 (-53))%Q).
           { apply round_ub; [apply round64_exact; lia|]. assert (E1 : (inject_Z (- (2 ^ 52 + 1)) * Qpower 2 (-53) == - (1 # 2) - Qpower 2 (-53))%Q) by reflexivity.
             rewrite E1. change (inject_Z (- (1))) with (-(1))%Q. lra. }
           assert (V : (round64 (round64 (x + inject_Z (- (1))) + (1 # 2)) <= inject_Z (-1) * Qpower 2 (-53))%Q).
           { apply round_ub; [apply round64_exact; lia|]. change (inject_Z (- (2 ^ 52 + 1))) with (-4503599627370497 # 1)%Q in U. change (inject_Z (-1)) with (-(1))%Q. lra. }
           change (inject_Z (-1)) with (-(1))%Q in V. lra.
      * split; intros _.
        -- apply round_lb; [apply (round64_int 0); lia|].
           assert (U : (- (1 # 2) <= round64 (x + inject_Z (- (1))))%Q); [|lra].
           assert (E1 : (round64 (- (1 # 2) - Qpower 2 (-54)) == - (1 # 2))%Q) by (vm_compute; reflexivity).
           rewrite <- E1. apply round64_mono. change (inject_Z (- (1))) with (-(1))%Q. lra.
        -- assert (E1 : (round64 (1 - Qpower 2 (-54)) == inject_Z 1)%Q) by (vm_compute; reflexivity).
           rewrite <- E1. apply round64_mono. lra.
    + split; intros C; exfalso.
      * assert (U : (round64 (x + (1 # 2)) <= inject_Z 1 + (1 # 2))%Q) by (apply round_ub; [apply rep_half; lia|change (inject_Z 1) with 1%Q; lra]).
        assert (inject_Z 2 <= inject_Z a)%Q by (apply inj_le; lia). change (inject_Z 2) with 2%Q in H. change (inject_Z 1) with 1%Q in U. lra.
      * assert (inject_Z 2 <= inject_Z a)%Q by (apply inj_le; lia). change (inject_Z 2) with 2%Q in H.
        assert (U : (round64 (x + inject_Z (- a)) <= inject_Z (-1))%Q) by (apply round_ub; [apply round64_int; lia|rewrite inject_Z_opp; change (inject_Z (-1)) with (-(1))%Q; lra]).
        assert (V : (round64 (round64 (x + inject_Z (- a)) + (1 # 2)) <= inject_Z (-1) + (1 # 2))%Q) by (apply round_ub; [apply rep_half; lia|lra]).
        change (inject_Z (-1)) with (-(1))%Q in V. lra.
  - destruct (octave x D Hx1) as (k & m & Hk & Hm & E).
    { assert (inject_Z a <= inject_Z (2 ^ 31))%Q by (apply inj_le; lia). lra. }
    set (K := 2 ^ (51 - k)). pose proof (K_pos k Hk) as HK. fold K in HK. pose proof (K_half k Hk) as HH. fold K in HH.
    assert (Hma : m + K < 2 * K * a).
    { pose proof (K_int k Hk a) as KA. fold K in KA. apply (u_inv k). rewrite <- KA. rewrite inject_Z_plus, Qmult_plus_distr_l, HH, <- E. lra. }
    split; intros C; exfalso.
    + assert (U : (round64 (x + (1 # 2)) < inject_Z a)%Q).
      { eapply Qle_lt_trans; [apply Qle_lteq; right; apply round64_compat, (half_eq x k m Hk E)|]. apply (half_below k Hk); [exact Hm|lia|exact Hma]. }
      lra.
    + assert (K2 : K <= 2 ^ 51) by (apply Z.pow_le_mono_r; lia).
      assert (U : (round64 (x + inject_Z (- a)) <= inject_Z (- K - 1) * Qpower 2 (k - 52))%Q).
      { apply round_ub; [apply (u_rep k Hk); lia|]. rewrite (sub_eq x a k m Hk E). apply (u_le k). fold K. lia. }
      assert (V : (round64 (round64 (x + inject_Z (- a)) + (1 # 2)) <= inject_Z (-1) * Qpower 2 (k - 52))%Q).
      { apply round_ub; [apply (u_rep k Hk); lia|].
        apply Qle_trans with (inject_Z (- K - 1) * Qpower 2 (k - 52) + (1 # 2))%Q; [lra|]. rewrite (half_eq _ k (- K - 1) Hk (Qeq_refl _)). fold K. apply (u_le k). lia. }
      change (inject_Z (-1)) with (-(1))%Q in V. pose proof (qpow_pos (k - 52)). lra.
Qed.

(** ** one axis *)
Section Window.
Variable rnd : Q -> Q.
(** _window_tuned_nnb.h:8-12, 23-27 and the bounds check of _window_generics.h:147-149: the
    local cell of a block that begins at cell [a] and has [n] cells, of a mesh with [N] *)
Definition fnnb (scale : Q) (a n N : Z) (pos : Q) : option Z :=
  let X := rnd (rnd (pos * scale) + inject_Z (- a))%Q in
  let i := wrap_ud N (Qfloor (rnd (X + (1 # 2))%Q)) in
  if (0 <=? i) && (i <? n) then Some i else None.
End Window.
(** the cell on a mesh that is not divided *)
Definition cell64 (scale : Q) (N : Z) (pos : Q) : Z := Qfloor (round64 (round64 (pos * scale) + (1 # 2))) mod N.

Lemma fnnb_block scale a n N pos : 0 < N -> 0 <= a -> 0 <= n -> a + n <= N -> N <= 2 ^ 31 ->
  (0 <= round64 (pos * scale) <= inject_Z (2 ^ 31))%Q ->
  fnnb round64 scale a n N pos =
  (let g := cell64 scale N pos in if (a <=? g) && (g <? a + n) then Some (g - a) else None).
Proof.
  intros HN Ha Hn Han HN2 [Hx0 Hx2]. unfold fnnb, cell64. rewrite wrap_ud_mod by exact HN.
  assert (D : double (round64 (pos * scale))) by (eexists; reflexivity).
  set (x := round64 (pos * scale)) in *. set (i := Qfloor (round64 (round64 (x + inject_Z (- a)) + (1 # 2)))). set (f := Qfloor (round64 (x + (1 # 2)))).
  cbn zeta. pose proof (Z.mod_pos_bound i N HN) as Bi. pose proof (Z.mod_pos_bound f N HN) as Bf.
  assert (F0 : 0 <= f).
  { apply floor_lb, round_lb; [apply (round64_int 0); lia|]. change (inject_Z 0) with 0%Q. lra. }
  destruct (Z.eq_dec n 0) as [->|Hn0].
  { destruct (Z.ltb_spec (i mod N) 0); [lia|]. rewrite andb_false_r. destruct (Z.leb_spec a (f mod N)); [|reflexivity]. destruct (Z.ltb_spec (f mod N) (a + 0)); [lia|reflexivity]. }
  assert (C : i = f - a \/ (f < a /\ - a <= i < 0) \/ (f = a /\ i = 0)).
  { destruct (Z.eq_dec a 0) as [->|Ha0].
    { left. rewrite Z.sub_0_r. apply floor_eq, round64_compat. change (inject_Z (- 0)) with 0%Q.
      assert (E : (round64 (x + 0) == x)%Q); [|rewrite E; reflexivity].
      eapply Qeq_trans; [apply round64_compat, Qplus_0_r|now apply double_fix]. }
    destruct (Qlt_le_dec x (inject_Z a)) as [L|L]; [|left; apply cell_from; [exact D|lia|exact L|exact Hx2]].
    right. pose proof (cell_first x a D Hx0 L ltac:(lia)) as CF.
    assert (F1 : f <= a).
    { apply floor_ub. apply Qle_lt_trans with (inject_Z a + (1 # 2))%Q; [apply round_ub; [apply rep_half; lia|lra]|rewrite inj_1; lra]. }
    assert (I1 : i <= 0).
    { apply floor_ub. change (inject_Z (0 + 1)) with 1%Q. apply Qle_lt_trans with (1 # 2)%Q; [|lra]. apply round_ub; [apply (half_int 1); lia|].
      assert (round64 (x + inject_Z (- a)) <= inject_Z 0)%Q; [|change (inject_Z 0) with 0%Q in *; lra]. apply round_ub; [apply round64_int; lia|]. rewrite inject_Z_opp. change (inject_Z 0) with 0%Q. lra. }
    assert (I0 : - a <= i).
    { apply floor_lb. assert (inject_Z (- a) <= round64 (x + inject_Z (- a)))%Q by (apply round_lb; [apply round64_int; lia|lra]).
      apply Qle_trans with (inject_Z (- a) + (1 # 2))%Q; [lra|]. apply round_lb; [apply rep_half; lia|lra]. }
    destruct (Z.eq_dec f a) as [Fa|Fa].
    - right. split; [exact Fa|]. assert (0 <= i); [|lia]. apply floor_lb. apply CF. rewrite <- Fa. apply Qfloor_le.
    - left. split; [lia|]. split; [exact I0|]. apply Z.nle_gt. intros I2.
      assert (G : (0 <= round64 (round64 (x + inject_Z (- a)) + (1 # 2)))%Q) by (eapply Qle_trans; [apply (inj_le 0 i I2)|apply Qfloor_le]).
      apply CF, floor_lb in G. fold f in G. lia. }
  destruct (Z.leb_spec 0 (i mod N)); [|lia]. cbn [andb].
  destruct C as [C|[[C1 C2]|[C1 C2]]].
  - destruct (Z_le_gt_dec a (f mod N)) as [G|G].
    + assert (M : i mod N = f mod N - a). { rewrite C, Zminus_mod. rewrite (Z.mod_small a) by lia. apply Z.mod_small. lia. }
      rewrite M. destruct (Z.leb_spec a (f mod N)); [|lia]. cbn [andb]. destruct (Z.ltb_spec (f mod N - a) n), (Z.ltb_spec (f mod N) (a + n)); try lia; reflexivity.
    + assert (M : i mod N = f mod N - a + N).
      { rewrite C, Zminus_mod, (Z.mod_small a) by lia. symmetry. apply Z.mod_unique with (-1); [left|]; lia. }
      destruct (Z.leb_spec a (f mod N)); [lia|]. destruct (Z.ltb_spec (i mod N) n); [lia|reflexivity].
  - rewrite (Z.mod_small f) by lia. assert (M : i mod N = i + N). { symmetry. apply Z.mod_unique with (-1); [left|]; lia. }
    destruct (Z.leb_spec a f); [lia|]. destruct (Z.ltb_spec (i mod N) n); [lia|reflexivity].
  - rewrite C1, C2, (Z.mod_small a) by lia. rewrite Z.mod_0_l by lia. rewrite Z.leb_refl. destruct (Z.ltb_spec 0 n), (Z.ltb_spec a (a + n)); try lia. cbn. f_equal. lia.
Qed.
