(** The caps of a shell as lists of bits, their sizes and their order. *)
From Coq Require Import List Arith ZArith Lia Bool Permutation.
From Verif Require Import Base ListFacts WrapModel WrapProofs InvariantModel InvariantBits.
Import ListNotations.
Local Open Scope Z_scope.

(** ** bits *)
Definition mb (v : Z) (d n : nat) : list bool := map (fun i => Z.testbit v (Z.of_nat i)) (seq d n).
Fixpoint val (bs : list bool) : Z := match bs with [] => 0 | b :: r => 2 * val r + Z.b2z b end.

Lemma low_bit d a w n : 0 <= d -> 0 <= a < 2 ^ d -> 0 <= n -> Z.testbit (a + 2 ^ d * w) n = if n <? d then Z.testbit a n else Z.testbit w (n - d).
Proof.
  intros Hd Ha Hn. destruct (Z.ltb_spec n d).
  - rewrite <- (Z.mod_pow2_bits_low (a + 2 ^ d * w) d n) by lia. f_equal. rewrite Z.mul_comm, Z_mod_plus_full. apply Z.mod_small. lia.
  - replace n with (n - d + d) at 1 by lia. rewrite <- Z.div_pow2_bits by lia. f_equal.
    rewrite Z.mul_comm, Z_div_plus_full by lia. rewrite Z.div_small by lia. lia.
Qed.
Lemma high_zero d a n : 0 <= a < 2 ^ d -> 0 <= d <= n -> Z.testbit a n = false.
Proof. intros Ha Hn. replace a with (a mod 2 ^ d) by (apply Z.mod_small; lia). now rewrite Z.mod_pow2_bits_high by lia. Qed.
Lemma pow2_pos d : 0 <= d -> 0 < 2 ^ d.
Proof. intros. apply Z.pow_pos_nonneg; lia. Qed.
Lemma lor_new a d b : 0 <= d -> 0 <= a < 2 ^ d -> b = 0 \/ b = 1 -> Z.lor a (b * 2 ^ d) = a + 2 ^ d * b.
Proof.
  intros Hd Ha [-> | ->]; [rewrite Z.mul_0_l, Z.lor_0_r; lia|]. apply Z.bits_inj'. intros n Hn. rewrite Z.lor_spec, low_bit by lia.
  rewrite Z.mul_1_l, Z.pow2_bits_eqb by lia. destruct (Z.ltb_spec n d).
  - replace (d =? n) with false by (symmetry; apply Z.eqb_neq; lia). apply orb_false_r.
  - rewrite (high_zero d a n) by lia. cbn [orb]. destruct (Z.eqb_spec d n) as [->|E]; [now rewrite Z.sub_diag|].
    change 1 with (2 ^ 0). rewrite Z.pow2_bits_eqb by lia. symmetry. apply Z.eqb_neq. lia.
Qed.
Lemma val_bound bs : 0 <= val bs < 2 ^ Z.of_nat (length bs).
Proof.
  induction bs as [|b r IH]; [cbn; lia|]. cbn [val length]. rewrite Nat2Z.inj_succ, Z.pow_succ_r by lia. destruct b; cbn [Z.b2z]; lia.
Qed.
Lemma val_bit bs d : Z.testbit (val bs) (Z.of_nat d) = nth d bs false.
Proof.
  revert d. induction bs as [|b r IH]; intros d; [cbn [val]; rewrite Z.bits_0; now destruct d|].
  cbn [val]. destruct d as [|d]; [apply Z.testbit_0_r|]. rewrite Nat2Z.inj_succ, Z.testbit_succ_r by lia. apply IH.
Qed.
Lemma mb_length v d n : length (mb v d n) = n.
Proof. unfold mb. now rewrite map_length, seq_length. Qed.
Lemma mb_nth v d n i : (i < n)%nat -> nth i (mb v d n) false = Z.testbit v (Z.of_nat (d + i)).
Proof.
  intros H. unfold mb. rewrite (nth_indep _ false (Z.testbit v (Z.of_nat 0))) by now rewrite map_length, seq_length.
  now rewrite (map_nth (fun i => Z.testbit v (Z.of_nat i))), seq_nth.
Qed.
Lemma list_ext_nth {T} (l m : list T) d : length l = length m -> (forall i, (i < length l)%nat -> nth i l d = nth i m d) -> l = m.
Proof. intros. eapply nth_ext; eauto. Qed.
Lemma mb_val bs : mb (val bs) 0 (length bs) = bs.
Proof.
  apply (list_ext_nth _ _ false); [apply mb_length|]. intros i Hi. rewrite mb_length in Hi. rewrite mb_nth by lia. apply val_bit.
Qed.
Lemma val_mb v n : 0 <= v < 2 ^ Z.of_nat n -> val (mb v 0 n) = v.
Proof.
  intros H. apply Z.bits_inj'. intros k Hk. rewrite <- (Z2Nat.id k Hk), val_bit.
  destruct (Nat.lt_ge_cases (Z.to_nat k) n).
  - now rewrite mb_nth by lia.
  - rewrite nth_overflow by (rewrite mb_length; lia). symmetry. apply (high_zero (Z.of_nat n)); lia.
Qed.
Lemma mb_inj v w n : 0 <= v < 2 ^ Z.of_nat n -> 0 <= w < 2 ^ Z.of_nat n -> mb v 0 n = mb w 0 n -> v = w.
Proof. intros Hv Hw E. rewrite <- (val_mb v n Hv), <- (val_mb w n Hw). now rewrite E. Qed.

(** ** the hosting cap *)
Fixpoint keep {T} (hs : list bool) (l : list T) : list T :=
  match hs, l with h :: hs, x :: l => if h then keep hs l else x :: keep hs l | _, _ => [] end.
Definition hits (shell : Z) (x : list Z) : list bool := map (fun xd => Z.abs xd =? shell) x.
Definition negs (shell : Z) (x : list Z) : list bool := map (fun xd => (Z.abs xd =? shell) && (xd <? 0)) x.
Lemma keep_length {T U} hs (l : list T) (m : list U) : length l = length m -> length (keep hs l) = length (keep hs m).
Proof.
  revert l m. induction hs as [|h hs IH]; intros [|a l] [|b m] H; cbn in *; try lia. destruct h; [apply IH; lia|]. cbn. f_equal. apply IH. lia.
Qed.
Lemma host_gen shell cmask x : forall d h,
  0 <= icapset_x h < 2 ^ Z.of_nat d -> 0 <= icap_x h < 2 ^ Z.of_nat d -> 0 <= cmask1 h < 2 ^ Z.of_nat (length (x1 h)) ->
  fold_left (host_step shell cmask) (combine (seq d (length x)) x) h =
  mkH (x1 h ++ keep (hits shell x) x) (cmask1 h + 2 ^ Z.of_nat (length (x1 h)) * val (keep (hits shell x) (mb cmask d (length x))))
      (icapset_x h + 2 ^ Z.of_nat d * val (hits shell x)) (icap_x h + 2 ^ Z.of_nat d * val (negs shell x)).
Proof.
  induction x as [|xd x IH]; intros d [y c A B] HA HB HC; cbn [x1 cmask1 icapset_x icap_x] in *.
  - cbn. rewrite app_nil_r, !Z.mul_0_r, !Z.add_0_r. reflexivity.
  - cbn [length seq combine fold_left]. unfold host_step at 2. cbn [fst snd x1 cmask1 icapset_x icap_x].
    rewrite !Z.shiftl_mul_pow2 by lia. rewrite !Z.mul_1_l.
    assert (P : 0 < 2 ^ Z.of_nat d) by (apply pow2_pos; lia). assert (P1 : 0 < 2 ^ Z.of_nat (length y)) by (apply pow2_pos; lia).
    assert (Sd : 2 ^ Z.of_nat (S d) = 2 * 2 ^ Z.of_nat d) by (rewrite Nat2Z.inj_succ, Z.pow_succ_r; lia).
    cbn [hits negs map keep mb seq]. fold (hits shell x) (negs shell x). change (map (fun i => Z.testbit cmask (Z.of_nat i)) (seq (S d) (length x))) with (mb cmask (S d) (length x)).
    destruct (Z.abs xd =? shell) eqn:Eh; cbn [val andb].
    + pose proof (lor_new A (Z.of_nat d) 1 ltac:(lia) HA ltac:(auto)) as LA. rewrite Z.mul_1_l in LA.
      set (b := if xd <? 0 then 1 else 0). assert (Hb : b = 0 \/ b = 1) by (unfold b; destruct (xd <? 0); auto).
      pose proof (lor_new B (Z.of_nat d) b ltac:(lia) HB Hb) as LB. rewrite LA, LB.
      rewrite IH; cbn [x1 cmask1 icapset_x icap_x]; [|nia|nia|exact HC]. rewrite Sd.
      f_equal; [cbn [Z.b2z]; ring|]. unfold b. destruct (xd <? 0); cbn [Z.b2z]; ring.
    + rewrite Z.shiftr_div_pow2 by lia. set (b := Z.land (cmask / 2 ^ Z.of_nat d) 1).
      assert (Eb : b = Z.b2z (Z.testbit cmask (Z.of_nat d))).
      { unfold b. rewrite <- Z.shiftr_div_pow2 by lia. change 1 with (Z.ones 1). rewrite Z.land_ones by lia. change (2 ^ 1) with 2.
        rewrite Z.testbit_spec' by lia. now rewrite Z.shiftr_div_pow2 by lia. }
      assert (Hb : b = 0 \/ b = 1) by (rewrite Eb; destruct (Z.testbit _ _); auto).
      pose proof (lor_new c (Z.of_nat (length y)) b ltac:(lia) HC Hb) as LC. rewrite (Z.mul_comm b) in LC. rewrite LC.
      assert (Sy : 2 ^ Z.of_nat (length (y ++ [xd])) = 2 * 2 ^ Z.of_nat (length y)) by (rewrite app_length; cbn [length]; rewrite Nat.add_1_r, Nat2Z.inj_succ, Z.pow_succ_r; lia).
      rewrite IH; cbn [x1 cmask1 icapset_x icap_x]; [|lia|lia|rewrite Sy; nia]. rewrite Sd, Sy, <- app_assoc. cbn [app].
      f_equal; [rewrite Eb; destruct (Z.testbit cmask (Z.of_nat d)); cbn [Z.b2z]; ring|cbn [Z.b2z]; ring|cbn [Z.b2z]; ring].
Qed.
Lemma host_val shell cmask x : host shell cmask x =
  mkH (keep (hits shell x) x) (val (keep (hits shell x) (mb cmask 0 (length x)))) (val (hits shell x)) (val (negs shell x)).
Proof.
  unfold host. rewrite host_gen by (cbn; lia). cbn [x1 cmask1 icapset_x icap_x length app]. change (2 ^ Z.of_nat 0) with 1. now rewrite !Z.mul_1_l.
Qed.

(** ** sizes *)
(** the number of modes up to a shell *)
Fixpoint count (s : Z) (ms : list bool) : Z := match ms with [] => 1 | m :: ms => (if m then s + 1 else 2 * s + 1) * count s ms end.
(** the number of those without a negative edge *)
Fixpoint pcount (s : Z) (ms : list bool) : Z := match ms with [] => 1 | m :: ms => (if m then s + 1 else 2 * s) * pcount s ms end.
Lemma count_pos s ms : 0 <= s -> 0 < count s ms.
Proof. intros Hs. induction ms as [|m ms IH]; cbn [count]; [lia|]. destruct m; nia. Qed.
Lemma count_mono s t ms : 0 <= s <= t -> count s ms <= count t ms.
Proof. intros Hs. induction ms as [|m ms IH]; cbn [count]; [lia|]. pose proof (count_pos s ms ltac:(lia)). destruct m; nia. Qed.

Lemma ipow_pow n p : ipow n p = n ^ Z.of_nat p.
Proof. induction p as [|p IH]; [reflexivity|]. cbn [ipow]. rewrite IH, Nat2Z.inj_succ, Z.pow_succ_r by lia. ring. Qed.
Fixpoint ones (bs : list bool) : nat := match bs with [] => O | b :: r => ((if b then 1 else 0) + ones r)%nat end.
Lemma ones_app a b : ones (a ++ b) = (ones a + ones b)%nat.
Proof. induction a as [|x a IH]; [reflexivity|]. cbn. rewrite IH. lia. Qed.
Lemma pop_ones n v : pop n v = Z.of_nat (ones (mb v 0 n)).
Proof.
  induction n as [|n IH]; [reflexivity|]. cbn [pop]. unfold mb. rewrite seq_S, map_app, ones_app. cbn [map ones Nat.add]. fold (mb v 0 n). rewrite IH.
  destruct (Z.testbit v (Z.of_nat n)); cbn [Z.b2z]; lia.
Qed.
Lemma pop_more n k v : 0 <= v < 2 ^ Z.of_nat n -> pop (n + k) v = pop n v.
Proof.
  intros H. induction k as [|k IH]; [now rewrite Nat.add_0_r|]. rewrite Nat.add_succ_r. cbn [pop]. rewrite IH.
  rewrite (high_zero (Z.of_nat n) v) by lia. cbn. lia.
Qed.
Lemma nbits_ones n v : (n <= 32)%nat -> 0 <= v < 2 ^ Z.of_nat n -> get_nbits v = Z.of_nat (ones (mb v 0 n)).
Proof.
  intros Hn Hv. assert (2 ^ Z.of_nat n <= 2 ^ 32) by (apply Z.pow_le_mono_r; lia). rewrite C62_get_nbits by lia.
  replace 32%nat with (n + (32 - n))%nat by lia. rewrite pop_more by assumption. apply pop_ones.
Qed.

Fixpoint map2b (f : bool -> bool -> bool) (a b : list bool) : list bool := match a, b with x :: a, y :: b => f x y :: map2b f a b | _, _ => [] end.
Lemma map2b_nth f a b i : length a = length b -> (i < length a)%nat -> nth i (map2b f a b) false = f (nth i a false) (nth i b false).
Proof. revert b i. induction a as [|x a IH]; intros [|y b] i L H; cbn in *; try lia. destruct i; [reflexivity|]. apply IH; lia. Qed.
Lemma map2b_length f a b : length a = length b -> length (map2b f a b) = length a.
Proof. revert b. induction a as [|x a IH]; intros [|y b] L; cbn in *; try lia. f_equal. apply IH. lia. Qed.
Lemma land_lnot_bits u v n : mb (Z.land u (Z.lnot v)) 0 n = map2b (fun x y => x && negb y) (mb u 0 n) (mb v 0 n).
Proof.
  apply (list_ext_nth _ _ false); [rewrite map2b_length, !mb_length; [reflexivity|now rewrite !mb_length]|].
  intros i Hi. rewrite mb_length in Hi. rewrite map2b_nth by (rewrite !mb_length; lia). rewrite !mb_nth by lia.
  now rewrite Z.land_spec, Z.lnot_spec by lia.
Qed.
Lemma land_range u v n : 0 <= u < 2 ^ Z.of_nat n -> 0 <= Z.land u v < 2 ^ Z.of_nat n.
Proof.
  intros H. assert (N : 0 <= Z.land u v) by (apply Z.land_nonneg; lia). split; [exact N|].
  assert (E : Z.land u v = Z.land u v mod 2 ^ Z.of_nat n).
  { apply Z.bits_inj'. intros k Hk. destruct (Z.lt_ge_cases k (Z.of_nat n)).
    - now rewrite Z.mod_pow2_bits_low.
    - rewrite Z.mod_pow2_bits_high by lia. rewrite Z.land_spec, (high_zero (Z.of_nat n) u) by lia. reflexivity. }
  rewrite E. apply Z.mod_pos_bound, pow2_pos. lia.
Qed.
Lemma land_zero u v n : 0 <= u < 2 ^ Z.of_nat n -> (Z.land u v =? 0) = forallb negb (map2b andb (mb u 0 n) (mb v 0 n)).
Proof.
  intros H. pose proof (land_range u v n H) as R. rewrite <- (val_mb _ _ R).
  assert (E : mb (Z.land u v) 0 n = map2b andb (mb u 0 n) (mb v 0 n)).
  { apply (list_ext_nth _ _ false); [rewrite map2b_length, !mb_length; [reflexivity|now rewrite !mb_length]|].
    intros i Hi. rewrite mb_length in Hi. rewrite map2b_nth by (rewrite !mb_length; lia). rewrite !mb_nth by lia. apply Z.land_spec. }
  rewrite E. generalize (map2b andb (mb u 0 n) (mb v 0 n)) as bs. clear. induction bs as [|b r IH]; [reflexivity|]. cbn [val forallb]. rewrite <- IH.
  pose proof (val_bound r). destruct b; cbn [Z.b2z negb andb]; [apply Z.eqb_neq; lia|]. destruct (Z.eqb_spec (val r) 0), (Z.eqb_spec (2 * val r + 0) 0); lia.
Qed.

(** the size of a cap: a factor for every axis *)
Fixpoint psize (s : Z) (ms a : list bool) : Z :=
  match ms, a with m :: ms, b :: a => (if b then 1 else if m then s else 2 * s - 1) * psize s ms a | _, _ => 1 end.
Lemma psize_keep s ms a : length ms = length a -> psize s ms a = count (s - 1) (keep a ms).
Proof.
  revert a. induction ms as [|m ms IH]; intros [|b a] L; cbn [length] in L; try lia; [reflexivity|]. cbn [psize keep]. rewrite IH by lia. destruct b; [ring|]. cbn [count]. destruct m; ring.
Qed.
Lemma psize_pow s ms a : length ms = length a ->
  psize s ms a = (2 * s - 1) ^ (Z.of_nat (length ms) - Z.of_nat (ones a) - Z.of_nat (ones (map2b (fun x y => x && negb y) ms a)))
                 * s ^ Z.of_nat (ones (map2b (fun x y => x && negb y) ms a)) /\
  (ones a + ones (map2b (fun x y => x && negb y) ms a) <= length ms)%nat.
Proof.
  revert a. induction ms as [|m ms IH]; intros [|b a] L; cbn [length] in L; try discriminate; [cbn; split; [reflexivity|lia]|].
  destruct (IH a ltac:(lia)) as [E B]. cbn [psize map2b ones length]. rewrite E. clear IH E. set (o := ones a) in *. set (p := ones (map2b _ ms a)) in *.
  destruct b, m; cbn [andb negb Nat.add]; (split; [|lia]).
  - rewrite Z.mul_1_l. f_equal; f_equal; lia.
  - rewrite Z.mul_1_l. f_equal; f_equal; lia.
  - replace (Z.of_nat (S (length ms)) - Z.of_nat o - Z.of_nat (S p)) with (Z.of_nat (length ms) - Z.of_nat o - Z.of_nat p) by lia.
    rewrite Nat2Z.inj_succ, Z.pow_succ_r by lia. ring.
  - replace (Z.of_nat (S (length ms)) - Z.of_nat o - Z.of_nat p) with (Z.succ (Z.of_nat (length ms) - Z.of_nat o - Z.of_nat p)) by lia.
    rewrite Z.pow_succ_r by lia. ring.
Qed.
Lemma cap_size_prod n s cmask A : (n <= 32)%nat -> 0 <= cmask < 2 ^ Z.of_nat n -> 0 <= A < 2 ^ Z.of_nat n ->
  cap_size n s cmask A = psize s (mb cmask 0 n) (mb A 0 n).
Proof.
  intros Hn Hc HA. unfold cap_size. rewrite (nbits_ones n A Hn HA), (nbits_ones n (Z.land cmask (Z.lnot A)) Hn (land_range _ _ _ Hc)).
  rewrite land_lnot_bits, !ipow_pow. destruct (psize_pow s (mb cmask 0 n) (mb A 0 n) ltac:(now rewrite !mb_length)) as [E B].
  rewrite E. rewrite mb_length in *. rewrite !Z2Nat.id by lia. replace (2 * s + 1 - 2) with (2 * s - 1) by ring. reflexivity.
Qed.

(** ** the weight of a cap in the walk; zero if it is skipped *)
Definition wt (n : nat) (s cmask : Z) (c : Z * Z) : Z :=
  if (Z.land (fst c) (Z.lnot (snd c)) =? 0) && (Z.land (fst c) cmask =? 0) then cap_size n s cmask (snd c) else 0.
Fixpoint pw (s : Z) (bs a ms : list bool) : Z :=
  match bs, a, ms with
  | b :: bs, x :: a, m :: ms => (if b then (if x && negb m then 1 else 0) else if x then 1 else if m then s else 2 * s - 1) * pw s bs a ms
  | _, _, _ => 1
  end.
Lemma wt_prod n s cmask c : (n <= 32)%nat -> 0 <= cmask < 2 ^ Z.of_nat n -> 0 <= fst c < 2 ^ Z.of_nat n -> 0 <= snd c < 2 ^ Z.of_nat n ->
  wt n s cmask c = pw s (mb (fst c) 0 n) (mb (snd c) 0 n) (mb cmask 0 n).
Proof.
  intros Hn Hc HB HA. unfold wt. rewrite (land_zero (fst c) _ n HB), (land_zero (fst c) cmask n HB).
  assert (El : mb (Z.lnot (snd c)) 0 n = map negb (mb (snd c) 0 n)).
  { unfold mb. rewrite map_map. apply map_ext. intros i. apply Z.lnot_spec. lia. }
  rewrite El, cap_size_prod by assumption.
  assert (L1 := mb_length (fst c) 0 n). assert (L2 := mb_length (snd c) 0 n). assert (L3 := mb_length cmask 0 n).
  revert L1 L2 L3. generalize (mb (fst c) 0 n) as bs, (mb (snd c) 0 n) as a, (mb cmask 0 n) as ms. clear.
  revert n. intros n bs. revert n. induction bs as [|b bs IH]; intros n a ms L1 L2 L3; cbn [length] in L1; subst n.
  - destruct a; [|discriminate]. destruct ms; [|discriminate]. reflexivity.
  - destruct a as [|x a]; [discriminate|]. destruct ms as [|m ms]; [discriminate|]. cbn [length] in L2, L3. injection L2 as L2. injection L3 as L3.
    specialize (IH _ a ms eq_refl L2 L3). cbn [pw psize map map2b forallb]. rewrite <- IH.
    destruct b, x, m; cbn [negb andb]; try rewrite !andb_false_r; try ring;
      destruct (forallb negb (map2b andb bs (map negb a)) && forallb negb (map2b andb bs ms)); ring.
Qed.

(** ** sums over all caps *)
Definition sumz {T} (f : T -> Z) (l : list T) : Z := fold_right (fun t acc => f t + acc) 0 l.
Lemma sumz_app {T} (f : T -> Z) l m : sumz f (l ++ m) = sumz f l + sumz f m.
Proof. induction l as [|x l IH]; [reflexivity|]. cbn. unfold sumz in *. rewrite IH. ring. Qed.
Lemma sumz_map {T U} (f : U -> Z) (g : T -> U) l : sumz f (map g l) = sumz (fun t => f (g t)) l.
Proof. induction l as [|x l IH]; [reflexivity|]. cbn. unfold sumz in IH. now rewrite IH. Qed.
Lemma sumz_flat_map {T U} (f : U -> Z) (g : T -> list U) l : sumz f (flat_map g l) = sumz (fun t => sumz f (g t)) l.
Proof. induction l as [|x l IH]; [reflexivity|]. cbn [flat_map]. rewrite sumz_app, IH. reflexivity. Qed.
Lemma sumz_ext_in {T} (f g : T -> Z) l : (forall t, In t l -> f t = g t) -> sumz f l = sumz g l.
Proof. induction l as [|x l IH]; intros H; [reflexivity|]. cbn. unfold sumz in IH. rewrite IH by (intros; apply H; now right). now rewrite (H x (or_introl eq_refl)). Qed.
Lemma sumz_perm {T} (f : T -> Z) l m : Permutation l m -> sumz f l = sumz f m.
Proof. induction 1; cbn; unfold sumz in *; try congruence; try lia. Qed.
Lemma sumz_scale {T} (f : T -> Z) a l : sumz (fun t => a * f t) l = a * sumz f l.
Proof. induction l as [|x l IH]; cbn; unfold sumz in *; [ring|]. rewrite IH. ring. Qed.
Lemma sumz_nonneg {T} (f : T -> Z) l : (forall t, In t l -> 0 <= f t) -> 0 <= sumz f l.
Proof. induction l as [|x l IH]; intros H; cbn; [lia|]. pose proof (H x (or_introl eq_refl)). assert (0 <= sumz f l) by (apply IH; intros; apply H; now right). unfold sumz in *. lia. Qed.

Fixpoint allb (n : nat) : list (list bool) := match n with O => [[]] | S n => map (cons false) (allb n) ++ map (cons true) (allb n) end.
Lemma in_allb n bs : In bs (allb n) <-> length bs = n.
Proof.
  revert bs. induction n as [|n IH]; intros bs; cbn [allb].
  - split; [intros [<-|[]]; reflexivity|]. destruct bs; [now left|discriminate].
  - rewrite in_app_iff, !in_map_iff. split.
    + intros [(y & <- & H)|(y & <- & H)]; apply IH in H; cbn; lia.
    + destruct bs as [|[|] bs]; [discriminate| |]; intros H; [right|left]; exists bs; (split; [reflexivity|apply IH; now injection H]).
Qed.
Lemma allb_NoDup n : NoDup (allb n).
Proof.
  induction n as [|n IH]; [repeat constructor; auto|]. cbn [allb]. apply NoDup_app_intro.
  - apply FinFun.Injective_map_NoDup; [intros a b E; now injection E|exact IH].
  - apply FinFun.Injective_map_NoDup; [intros a b E; now injection E|exact IH].
  - intros y H1 H2. apply in_map_iff in H1, H2. destruct H1 as (a & <- & _). destruct H2 as (b & E & _). discriminate.
Qed.
Definition nrange (n : nat) : list Z := zrange 0 (Z.to_nat (Z.shiftl 1 (Z.of_nat n))).
Lemma in_nrange n v : In v (nrange n) <-> 0 <= v < 2 ^ Z.of_nat n.
Proof. unfold nrange. rewrite in_zrange, Z.shiftl_mul_pow2, Z.mul_1_l by lia. pose proof (pow2_pos (Z.of_nat n) ltac:(lia)). lia. Qed.
Lemma nrange_bits n : Permutation (map (fun v => mb v 0 n) (nrange n)) (allb n).
Proof.
  apply NoDup_Permutation; [|apply allb_NoDup|].
  - assert (G : forall l, NoDup l -> (forall v, In v l -> 0 <= v < 2 ^ Z.of_nat n) -> NoDup (map (fun v => mb v 0 n) l)).
    { induction l as [|v l IH]; intros Hn Hr; cbn [map]; constructor.
      - rewrite in_map_iff. intros (w & E & Hw). inversion Hn; subst. apply mb_inj in E; [subst; contradiction|apply Hr; now right|apply Hr; now left].
      - inversion Hn; subst. apply IH; [assumption|]. intros; apply Hr; now right. }
    apply G; [apply zrange_NoDup|]. intros v Hv. now apply in_nrange.
  - intros bs. rewrite in_allb, in_map_iff. split.
    + intros (v & <- & _). apply mb_length.
    + intros <-. exists (val bs). split; [apply mb_val|]. apply in_nrange, val_bound.
Qed.
Lemma sum_pw n : forall s ms, length ms = n -> sumz (fun bs => sumz (fun a => pw s bs a ms) (allb n)) (allb n) = count s ms.
Proof.
  induction n as [|n IH]; intros s [|m ms] L; try discriminate; [reflexivity|]. injection L as L. cbn [allb].
  rewrite sumz_app, !sumz_map.
  assert (E : forall b bs, sumz (fun a => pw s (b :: bs) a (m :: ms)) (map (cons false) (allb n) ++ map (cons true) (allb n)) =
    (if b then (if m then 0 else 1) else (if m then s else 2 * s - 1) + 1) * sumz (fun a => pw s bs a ms) (allb n)).
  { intros b bs. rewrite sumz_app, !sumz_map. cbn [pw]. rewrite !sumz_scale. destruct b, m; cbn [andb negb]; ring. }
  rewrite (sumz_ext_in _ _ _ (fun bs _ => E false bs)), (sumz_ext_in _ _ _ (fun bs _ => E true bs)). rewrite !sumz_scale, IH by exact L.
  cbn [count]. destruct m; ring.
Qed.
Lemma sum_pw0 n : forall s ms, length ms = n -> sumz (fun a => pw s (repeat false n) a ms) (allb n) = pcount s ms.
Proof.
  induction n as [|n IH]; intros s [|m ms] L; try discriminate; [reflexivity|]. injection L as L. cbn [allb repeat].
  rewrite sumz_app, !sumz_map. cbn [pw]. rewrite !sumz_scale, IH by exact L. cbn [pcount]. destruct m; ring.
Qed.
Lemma total n s cmask : (n <= 32)%nat -> 0 <= cmask < 2 ^ Z.of_nat n -> sumz (wt n s cmask) (all_caps n) = count s (mb cmask 0 n).
Proof.
  intros Hn Hc. unfold all_caps. fold (nrange n). rewrite sumz_flat_map.
  rewrite (sumz_ext_in _ (fun B => sumz (fun a => pw s (mb B 0 n) a (mb cmask 0 n)) (allb n))).
  - rewrite <- (sumz_map (fun bs => sumz (fun a => pw s bs a (mb cmask 0 n)) (allb n)) (fun v => mb v 0 n)).
    rewrite (sumz_perm _ _ _ (nrange_bits n)). apply sum_pw, mb_length.
  - intros B HB. apply in_nrange in HB. rewrite sumz_map. rewrite <- (sumz_perm _ _ _ (nrange_bits n)), sumz_map. apply sumz_ext_in.
    intros A HA. apply in_nrange in HA. now rewrite wt_prod.
Qed.
