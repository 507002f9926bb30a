(** The bit count of pmesh/_invariant_imp.c:7-18 counts the bits of every 32-bit word. *)
From Coq Require Import List Arith ZArith Lia Bool.
From Verif Require Import Base ListFacts WrapModel WrapProofs InvariantModel.
Import ListNotations.
Local Open Scope Z_scope.

(** the number of set bits among the first n *)
Fixpoint pop (n : nat) (v : Z) : Z := match n with O => 0 | S n => pop n v + Z.b2z (Z.testbit v (Z.of_nat n)) end.

Lemma pop_bounds n v : 0 <= pop n v <= Z.of_nat n.
Proof. induction n as [|n IH]; [cbn; lia|]. cbn [pop]. destruct (Z.testbit v (Z.of_nat n)); cbn [Z.b2z]; lia. Qed.
Lemma chunk_bit a w n : 0 <= a < 256 -> 0 <= n -> Z.testbit (a + 256 * w) n = if n <? 8 then Z.testbit a n else Z.testbit w (n - 8).
Proof.
  intros Ha Hn. destruct (Z.ltb_spec n 8).
  - rewrite <- (Z.mod_pow2_bits_low (a + 256 * w) 8 n) by lia. f_equal. change (2 ^ 8) with 256. rewrite Z.mul_comm, Z_mod_plus_full. apply Z.mod_small. lia.
  - replace n with (n - 8 + 8) at 1 by lia. rewrite <- Z.div_pow2_bits by lia. f_equal. change (2 ^ 8) with 256.
    rewrite Z.mul_comm, Z_div_plus_full by lia. rewrite Z.div_small by lia. lia.
Qed.
Lemma land_byte a c : 0 <= a < 256 -> 0 <= Z.land a c < 256.
Proof.
  intros Ha. assert (0 <= Z.land a c) by (apply Z.land_nonneg; lia). split; [assumption|].
  assert (Z.land a c = Z.land a c mod 256).
  { change 256 with (2 ^ 8). apply Z.bits_inj'. intros n Hn. destruct (Z.lt_ge_cases n 8).
    - now rewrite Z.mod_pow2_bits_low.
    - rewrite Z.mod_pow2_bits_high by lia. rewrite Z.land_spec.
      replace a with (a mod 2 ^ 8) by (apply Z.mod_small; lia). now rewrite Z.mod_pow2_bits_high by lia. }
  rewrite H0. apply Z.mod_pos_bound. lia.
Qed.
Lemma land_chunk a w c m : 0 <= a < 256 -> 0 <= c < 256 -> Z.land (a + 256 * w) (c + 256 * m) = Z.land a c + 256 * Z.land w m.
Proof.
  intros Ha Hc. apply Z.bits_inj'. intros n Hn. rewrite Z.land_spec, !chunk_bit by (try apply land_byte; lia).
  destruct (n <? 8); now rewrite Z.land_spec.
Qed.
Lemma pop_chunk n a w : 0 <= a < 256 -> pop (8 + n) (a + 256 * w) = pop 8 a + pop n w.
Proof.
  intros Ha. induction n as [|n IH].
  - cbn [pop Nat.add]. rewrite !chunk_bit by lia. cbn. lia.
  - replace (8 + S n)%nat with (S (8 + n)) by lia. change (pop (S (8 + n)) (a + 256 * w)) with (pop (8 + n) (a + 256 * w) + Z.b2z (Z.testbit (a + 256 * w) (Z.of_nat (8 + n)))).
    change (pop (S n) w) with (pop n w + Z.b2z (Z.testbit w (Z.of_nat n))). rewrite IH, chunk_bit by lia.
    replace (Z.of_nat (8 + n) <? 8) with false by (symmetry; apply Z.ltb_ge; lia).
    replace (Z.of_nat (8 + n) - 8) with (Z.of_nat n) by lia. symmetry. apply Z.add_assoc.
Qed.

Definition step1 (v m : Z) : Z := v - Z.land (Z.shiftr v 1) m.
Definition step2 (v m : Z) : Z := Z.land v m + Z.land (Z.shiftr v 2) m.
Definition step3 (v m : Z) : Z := Z.land (v + Z.shiftr v 4) m.

(** what is checked for all bytes *)
Lemma bytes (P : Z -> bool) : forallb P (zrange 0 256) = true -> forall a, 0 <= a < 256 -> P a = true.
Proof. intros H a Ha. rewrite forallb_forall in H. apply H. apply in_zrange. lia. Qed.
Lemma byte1 a t : 0 <= a < 256 -> 0 <= t < 2 -> Z.land (a / 2 + 128 * t) 85 = Z.land (a / 2) 85.
Proof.
  intros Ha Ht. pose proof (bytes (fun a => forallb (fun t => Z.land (a / 2 + 128 * t) 85 =? Z.land (a / 2) 85) (zrange 0 2)) ltac:(vm_compute; reflexivity) a Ha) as H.
  cbv beta in H. rewrite forallb_forall in H. apply Z.eqb_eq, H, in_zrange. lia.
Qed.
Lemma byte2 a t : 0 <= a < 256 -> 0 <= t < 4 -> Z.land (a / 4 + 64 * t) 51 = Z.land (a / 4) 51.
Proof.
  intros Ha Ht. pose proof (bytes (fun a => forallb (fun t => Z.land (a / 4 + 64 * t) 51 =? Z.land (a / 4) 51) (zrange 0 4)) ltac:(vm_compute; reflexivity) a Ha) as H.
  cbv beta in H. rewrite forallb_forall in H. apply Z.eqb_eq, H, in_zrange. lia.
Qed.
Lemma byte3 a t : 0 <= a < 256 -> 0 <= t < 16 -> Z.land (a + a / 16 + 16 * t) 15 = Z.land (a + a / 16) 15.
Proof.
  intros Ha Ht. pose proof (bytes (fun a => forallb (fun t => Z.land (a + a / 16 + 16 * t) 15 =? Z.land (a + a / 16) 15) (zrange 0 16)) ltac:(vm_compute; reflexivity) a Ha) as H.
  cbv beta in H. rewrite forallb_forall in H. apply Z.eqb_eq, H, in_zrange. lia.
Qed.
Definition word1 (b : Z) : Z := step1 b 85.
Definition word2 (b : Z) : Z := step2 (word1 b) 51.
Definition word3 (b : Z) : Z := step3 (word2 b) 15.
Lemma byte_count b : 0 <= b < 256 -> 0 <= word1 b < 256 /\ 0 <= word2 b <= 68 /\ word2 b mod 16 <= 4 /\ word3 b = pop 8 b /\ pop 8 b <= 8.
Proof.
  intros Hb. pose proof (bytes (fun b => (0 <=? word1 b) && (word1 b <? 256) && (0 <=? word2 b) && (word2 b <=? 68) && (word2 b mod 16 <=? 4) && (word3 b =? pop 8 b) && (pop 8 b <=? 8)) ltac:(vm_compute; reflexivity) b Hb) as H.
  cbv beta in H. rewrite !andb_true_iff, !Z.leb_le, !Z.ltb_lt, Z.eqb_eq in H. tauto.
Qed.

Lemma shift_chunk a w k e : 0 <= a < 256 -> 0 <= k <= 8 -> e = 8 - k ->
  Z.shiftr (a + 256 * w) k = (a / 2 ^ k + 2 ^ e * (w mod 2 ^ k)) + 256 * (w / 2 ^ k).
Proof.
  intros Ha Hk ->. rewrite Z.shiftr_div_pow2 by lia. assert (P : 0 < 2 ^ k) by (apply Z.pow_pos_nonneg; lia).
  assert (E : 256 = 2 ^ k * 2 ^ (8 - k)) by (rewrite <- Z.pow_add_r by lia; replace (k + (8 - k)) with 8 by lia; reflexivity).
  rewrite (Z.div_mod w (2 ^ k)) at 1 by lia.
  replace (a + 256 * (2 ^ k * (w / 2 ^ k) + w mod 2 ^ k)) with (a + (2 ^ (8 - k) * (w mod 2 ^ k) + 256 * (w / 2 ^ k)) * 2 ^ k) by (rewrite E; ring).
  rewrite Z_div_plus_full by lia. ring.
Qed.
Lemma step1_chunk a w m : 0 <= a < 256 -> step1 (a + 256 * w) (85 + 256 * m) = step1 a 85 + 256 * step1 w m.
Proof.
  intros Ha. unfold step1. rewrite (shift_chunk a w 1 7) by lia. change (2 ^ 1) with 2. change (2 ^ 7) with 128.
  pose proof (Z.mod_pos_bound w 2 ltac:(lia)). assert (0 <= a / 2 < 128) by (split; [apply Z.div_pos|apply Z.div_lt_upper_bound]; lia).
  rewrite land_chunk by lia. rewrite byte1 by lia. rewrite !Z.shiftr_div_pow2 by lia. change (2 ^ 1) with 2. ring.
Qed.
Lemma step2_chunk a w m : 0 <= a < 256 -> step2 (a + 256 * w) (51 + 256 * m) = step2 a 51 + 256 * step2 w m.
Proof.
  intros Ha. unfold step2. rewrite (shift_chunk a w 2 6) by lia. change (2 ^ 2) with 4. change (2 ^ 6) with 64.
  pose proof (Z.mod_pos_bound w 4 ltac:(lia)). assert (0 <= a / 4 < 64) by (split; [apply Z.div_pos|apply Z.div_lt_upper_bound]; lia).
  rewrite !land_chunk by lia. rewrite byte2 by lia. rewrite !Z.shiftr_div_pow2 by lia. change (2 ^ 2) with 4. ring.
Qed.
Lemma step3_chunk a w m : 0 <= a <= 68 -> w mod 16 <= 4 -> step3 (a + 256 * w) (15 + 256 * m) = step3 a 15 + 256 * step3 w m.
Proof.
  intros Ha Hw. unfold step3. rewrite (shift_chunk a w 4 4) by lia. change (2 ^ 4) with 16.
  pose proof (Z.mod_pos_bound w 16 ltac:(lia)). assert (0 <= a / 16 < 5) by (split; [apply Z.div_pos|apply Z.div_lt_upper_bound]; lia).
  replace (a + 256 * w + (a / 16 + 16 * (w mod 16) + 256 * (w / 16))) with ((a + a / 16 + 16 * (w mod 16)) + 256 * (w + w / 16)) by ring.
  rewrite land_chunk by lia. rewrite byte3 by lia. rewrite !Z.shiftr_div_pow2 by lia. change (2 ^ 4) with 16. reflexivity.
Qed.

(** C62: for every 32-bit word *)
Theorem C62_get_nbits : forall v, 0 <= v < 2 ^ 32 -> get_nbits v = pop 32 v.
Proof.
  intros v Hv.
  set (b0 := v mod 256). set (b1 := v / 256 mod 256). set (b2 := v / 65536 mod 256). set (b3 := v / 16777216).
  assert (R0 : 0 <= b0 < 256) by (apply Z.mod_pos_bound; lia). assert (R1 : 0 <= b1 < 256) by (apply Z.mod_pos_bound; lia).
  assert (R2 : 0 <= b2 < 256) by (apply Z.mod_pos_bound; lia).
  assert (R3 : 0 <= b3 < 256) by (unfold b3; split; [apply Z.div_pos; lia|apply Z.div_lt_upper_bound; lia]).
  assert (Ev : v = b0 + 256 * (b1 + 256 * (b2 + 256 * b3))).
  { unfold b0, b1, b2, b3. pose proof (Z.div_mod v 256 ltac:(lia)) as E0. pose proof (Z.div_mod (v / 256) 256 ltac:(lia)) as E1.
    pose proof (Z.div_mod (v / 65536) 256 ltac:(lia)) as E2. rewrite Z.div_div in E1, E2 by lia. change (256 * 256) with 65536 in E1. change (65536 * 256) with 16777216 in E2. lia. }
  clearbody b0 b1 b2 b3. subst v.
  destruct (byte_count b0 R0) as (A0 & B0 & C0 & D0 & E0). destruct (byte_count b1 R1) as (A1 & B1 & C1 & D1 & E1).
  destruct (byte_count b2 R2) as (A2 & B2 & C2 & D2 & E2). destruct (byte_count b3 R3) as (A3 & B3 & C3 & D3 & E3).
  assert (Ep : pop 32 (b0 + 256 * (b1 + 256 * (b2 + 256 * b3))) = pop 8 b0 + (pop 8 b1 + (pop 8 b2 + pop 8 b3))).
  { rewrite (pop_chunk 24 b0) by assumption. rewrite (pop_chunk 16 b1) by assumption. rewrite (pop_chunk 8 b2) by assumption. reflexivity. }
  rewrite Ep. unfold get_nbits.
  change ((2 ^ 32 - 1) / 3) with (85 + 256 * (85 + 256 * (85 + 256 * 85))).
  change ((2 ^ 32 - 1) / 15 * 3) with (51 + 256 * (51 + 256 * (51 + 256 * 51))).
  change ((2 ^ 32 - 1) / 255 * 15) with (15 + 256 * (15 + 256 * (15 + 256 * 15))).
  change ((2 ^ 32 - 1) / 255) with 16843009. change (2 ^ 32) with 4294967296.
  assert (S1 : (b0 + 256 * (b1 + 256 * (b2 + 256 * b3))) - Z.land (Z.shiftr (b0 + 256 * (b1 + 256 * (b2 + 256 * b3))) 1) (85 + 256 * (85 + 256 * (85 + 256 * 85)))
    = word1 b0 + 256 * (word1 b1 + 256 * (word1 b2 + 256 * word1 b3))).
  { fold (step1 (b0 + 256 * (b1 + 256 * (b2 + 256 * b3))) (85 + 256 * (85 + 256 * (85 + 256 * 85)))). now rewrite !step1_chunk by assumption. }
  rewrite S1. rewrite (Z.mod_small (word1 b0 + _)) by lia.
  set (w1 := word1 b0 + 256 * (word1 b1 + 256 * (word1 b2 + 256 * word1 b3))).
  assert (S2 : Z.land w1 (51 + 256 * (51 + 256 * (51 + 256 * 51))) + Z.land (Z.shiftr w1 2) (51 + 256 * (51 + 256 * (51 + 256 * 51)))
    = word2 b0 + 256 * (word2 b1 + 256 * (word2 b2 + 256 * word2 b3))).
  { fold (step2 w1 (51 + 256 * (51 + 256 * (51 + 256 * 51)))). unfold w1. now rewrite !step2_chunk by assumption. }
  rewrite S2. rewrite (Z.mod_small (word2 b0 + _)) by lia.
  set (w2 := word2 b0 + 256 * (word2 b1 + 256 * (word2 b2 + 256 * word2 b3))).
  assert (Sh : 0 <= Z.shiftr w2 4 <= w2).
  { rewrite Z.shiftr_div_pow2 by lia. change (2 ^ 4) with 16. unfold w2. split; [apply Z.div_pos; lia|apply Z.div_le_upper_bound; lia]. }
  rewrite (Z.mod_small (w2 + _)) by (unfold w2 in *; lia).
  assert (M16 : forall a w, (a + 256 * w) mod 16 = a mod 16) by (intros a w; replace (a + 256 * w) with (a + (16 * w) * 16) by ring; apply Z_mod_plus_full).
  assert (S3 : Z.land (w2 + Z.shiftr w2 4) (15 + 256 * (15 + 256 * (15 + 256 * 15)))
    = pop 8 b0 + 256 * (pop 8 b1 + 256 * (pop 8 b2 + 256 * pop 8 b3))).
  { fold (step3 w2 (15 + 256 * (15 + 256 * (15 + 256 * 15)))). unfold w2. rewrite !step3_chunk by (rewrite ?M16; lia).
    fold (word3 b0) (word3 b1) (word3 b2) (word3 b3). now rewrite D0, D1, D2, D3. }
  rewrite S3.
  assert (P : forall b, 0 <= pop 8 b).
  { intros b. apply pop_bounds. }
  pose proof (P b0). pose proof (P b1). pose proof (P b2). pose proof (P b3).
  set (p0 := pop 8 b0) in *. set (p1 := pop 8 b1) in *. set (p2 := pop 8 b2) in *. set (p3 := pop 8 b3) in *.
  assert (Em : (p0 + 256 * (p1 + 256 * (p2 + 256 * p3))) * 16843009 mod 4294967296 =
    p0 + 256 * (p0 + p1) + 65536 * (p0 + p1 + p2) + 16777216 * (p0 + p1 + p2 + p3)).
  { symmetry. apply Z.mod_unique_pos with (q := (p1 + p2 + p3) + 256 * (p2 + p3) + 65536 * p3); lia. }
  rewrite Em. rewrite Z.shiftr_div_pow2 by lia. change (2 ^ 24) with 16777216.
  symmetry. apply Z.div_unique with (r := p0 + 256 * (p0 + p1) + 65536 * (p0 + p1 + p2)); lia.
Qed.
Example C62_case : get_nbits (2 ^ 31 + 2 ^ 17 + 5) = 4.
Proof. reflexivity. Qed.
Print Assumptions C62_get_nbits.
