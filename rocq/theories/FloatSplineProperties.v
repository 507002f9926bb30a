(** Property C98: the quadratic and cubic windows in doubles, over ranks. *)
From Coq Require Import List Arith ZArith QArith Qround Qabs Qpower Lqa Lia Bool Sorted.
From Verif Require Import Base ListFacts LayoutModel LayoutSpec LayoutProofs LayoutModes LayoutMore WrapModel WrapProofs
  DomainModel DomainFill DomainGeom DomainTargets DomainHome DomainAssign DomainProperties FloatModel FloatRound FloatDomain FloatProperties FloatNearest
  FloatPaint FloatCic FloatCicProperties FloatSpline.
Import ListNotations.
Local Close Scope Q_scope.
Local Open Scope Z_scope.

(** ** decompose, one axis *)
(** a block has all cells of the axis, or leaves three to the others *)
Definition spacious (z : list Z) : Prop := forall k, (S k < length z)%nat ->
  nth (S k) z 0 - nth k z 0 = last z 0 \/ nth (S k) z 0 - nth k z 0 <= last z 0 - 3.
(** pm.decompose: half of the support, pm.py:1776-1779 *)
Definition reach (s : spline) : Q := match s with TSC => (3 # 2)%Q | PCS => 2%Q end.

Section Axis.
Variable z : list Z.
Hypothesis He : axis_ok (int_axis z).
Let N := last z 0.
Hypothesis HN4 : 4 <= N.
Hypothesis HN : N <= 2 ^ 31.
Hypothesis Hroom : spacious z.
Let n := Z.of_nat (length z - 1).

Lemma blk_digitize y j : (S j < length z)%nat -> nth j z 0 <= Qfloor y < nth (S j) z 0 -> digitize y (int_axis z) = Z.of_nat (S j).
Proof.
  intros Hj Hq. apply (digitize_at _ He j); rewrite ?int_len, ?int_E by lia; [lia| |].
  - eapply Qle_trans; [|apply Qfloor_le]. apply inj_le. lia.
  - eapply Qlt_le_trans; [apply Qlt_floor|]. apply inj_le. lia.
Qed.
Lemma blk_mono i j u v : (S i < length z)%nat -> (S j < length z)%nat -> nth i z 0 <= u < nth (S i) z 0 -> nth j z 0 <= v < nth (S j) z 0 -> u <= v -> (i <= j)%nat.
Proof. intros Hi Hj Hu Hv Huv. destruct (le_lt_dec i j) as [L|L]; [exact L|]. pose proof (int_sorted z (S j) i He ltac:(lia)). lia. Qed.
Lemma blk_all k : (S k < length z)%nat -> nth (S k) z 0 - nth k z 0 = N -> forall u, 0 <= u < N -> nth k z 0 <= u < nth (S k) z 0.
Proof. intros Hk H u Hu. destruct (int_block z k He Hk) as (B1 & B2 & B3). fold N in B3. lia. Qed.

(** upwards from the block of cell [p] to that of cell [h] *)
Lemma walk_up p h g kp kr k : 0 <= p < N -> p <= g <= h -> h <= p + 3 -> (S kp < length z)%nat -> (S kr < length z)%nat -> (S k < length z)%nat ->
  nth kp z 0 <= p < nth (S kp) z 0 -> nth kr z 0 <= h mod N < nth (S kr) z 0 -> nth k z 0 <= g mod N < nth (S k) z 0 ->
  (Z.of_nat k - Z.of_nat kp) mod n <= (Z.of_nat kr - Z.of_nat kp) mod n.
Proof.
  intros Hp Hg Hh Hkp Hkr Hk Bp Br Bk.
  assert (Hn : 0 < n) by (unfold n; lia).
  destruct (Z_lt_le_dec h N) as [L|L].
  - rewrite (Z.mod_small h N) in Br by lia. rewrite (Z.mod_small g N) in Bk by lia.
    pose proof (blk_mono kp k p g Hkp Hk Bp Bk ltac:(lia)). pose proof (blk_mono k kr g h Hk Hkr Bk Br ltac:(lia)).
    rewrite !Z.mod_small by (unfold n; lia). lia.
  - replace h with (h - N + 1 * N) in Br by ring. rewrite Z.mod_add, (Z.mod_small (h - N) N) in Br by lia.
    pose proof (blk_mono kr kp (h - N) p Hkr Hkp Br Bp ltac:(lia)) as M1.
    destruct (Nat.eq_dec kr kp) as [E|E].
    { subst kr. destruct (Hroom kp Hkp) as [A|A]; [|fold N in A; lia].
      assert (k = kp). { apply (int_unique z (g mod N)); try assumption. apply blk_all; [exact Hkp|exact A|]. apply Z.mod_pos_bound. lia. }
      subst k. lia. }
    replace ((Z.of_nat kr - Z.of_nat kp) mod n) with (Z.of_nat kr - Z.of_nat kp + n) by (apply Z.mod_unique with (-1); [left|]; unfold n; lia).
    destruct (Z_lt_le_dec g N) as [G|G].
    + rewrite (Z.mod_small g N) in Bk by lia. pose proof (blk_mono kp k p g Hkp Hk Bp Bk ltac:(lia)).
      rewrite Z.mod_small by (unfold n; lia). unfold n. lia.
    + replace g with (g - N + 1 * N) in Bk by ring. rewrite Z.mod_add, (Z.mod_small (g - N) N) in Bk by lia.
      pose proof (blk_mono k kr (g - N) (h - N) Hk Hkr Bk Br ltac:(lia)).
      replace ((Z.of_nat k - Z.of_nat kp) mod n) with (Z.of_nat k - Z.of_nat kp + n) by (apply Z.mod_unique with (-1); [left|]; unfold n; lia). lia.
Qed.
(** downwards from the block of cell [p] to that of cell [l] *)
Lemma walk_down p l kp kl k : 0 <= p < N -> p - 2 <= l <= p - 1 -> (S kp < length z)%nat -> (S kl < length z)%nat -> (S k < length z)%nat ->
  nth kp z 0 <= p < nth (S kp) z 0 -> nth kl z 0 <= l mod N < nth (S kl) z 0 -> nth k z 0 <= (p - 1) mod N < nth (S k) z 0 ->
  (Z.of_nat kp - Z.of_nat k) mod n <= (Z.of_nat kp - Z.of_nat kl) mod n.
Proof.
  intros Hp Hl Hkp Hkl Hk Bp Bl Bk.
  assert (Hn : 0 < n) by (unfold n; lia).
  destruct (Z_lt_le_dec l 0) as [L|L].
  - replace (l mod N) with (l + N) in Bl by (apply Z.mod_unique with (-1); lia).
    pose proof (blk_mono kp kl p (l + N) Hkp Hkl Bp Bl ltac:(lia)) as M1.
    destruct (Nat.eq_dec kl kp) as [E|E].
    { subst kl. destruct (Hroom kp Hkp) as [A|A]; [|fold N in A; lia].
      assert (k = kp). { apply (int_unique z ((p - 1) mod N)); try assumption. apply blk_all; [exact Hkp|exact A|]. apply Z.mod_pos_bound. lia. }
      subst k. lia. }
    replace ((Z.of_nat kp - Z.of_nat kl) mod n) with (Z.of_nat kp - Z.of_nat kl + n) by (apply Z.mod_unique with (-1); [left|]; unfold n; lia).
    destruct (Z.eq_dec p 0) as [G|G].
    + replace ((p - 1) mod N) with (N - 1) in Bk by (subst p; apply Z.mod_unique with (-1); lia).
      pose proof (blk_mono kl k (l + N) (N - 1) Hkl Hk Bl Bk ltac:(lia)).
      replace ((Z.of_nat kp - Z.of_nat k) mod n) with (Z.of_nat kp - Z.of_nat k + n) by (apply Z.mod_unique with (-1); [left|]; unfold n; lia). lia.
    + rewrite (Z.mod_small (p - 1) N) in Bk by lia. pose proof (blk_mono k kp (p - 1) p Hk Hkp Bk Bp ltac:(lia)).
      rewrite Z.mod_small by (unfold n; lia). unfold n. lia.
  - rewrite (Z.mod_small l N) in Bl by lia. rewrite (Z.mod_small (p - 1) N) in Bk by lia.
    pose proof (blk_mono k kp (p - 1) p Hk Hkp Bk Bp ltac:(lia)). pose proof (blk_mono kl k l (p - 1) Hkl Hk Bl Bk ltac:(lia)).
    rewrite !Z.mod_small by (unfold n; lia). lia.
Qed.

(** decompose reaches the block of every cell of the window *)
Lemma fpatch_spline s x j k : double x -> (0 <= x <= inject_Z (2 ^ 31))%Q -> (S k < length z)%nat -> In j (offsets s) ->
  nth k z 0 <= (fcentre round64 s x + j) mod N < nth (S k) z 0 ->
  exists t, fst (fpatch round64 (int_axis z) (reach s) x) <= t < snd (fpatch round64 (int_axis z) (reach s) x) /\ t mod ndom (int_axis z) = Z.of_nat k.
Proof.
  intros D Hx Hk Hj Bk. pose proof (ax_pos _ He) as HL. unfold fpatch. cbv zeta. rewrite (frem_pos round64 x _ HL (proj1 Hx)).
  destruct (qrem_bounds x _ HL) as [C1 C2]. destruct (qrem_shift x (period (int_axis z))) as [w Ew]. set (c := qrem x (period (int_axis z))) in *.
  assert (Fc : Qfloor c = Qfloor x mod N). { unfold c. rewrite int_period. apply qrem_floor. fold N. lia. }
  rewrite int_period in Ew, C2. fold N in Ew, C2. unfold iz in Ew. rewrite <- inject_Z_mult in Ew.
  assert (Fx : Qfloor c = Qfloor x + w * N).
  { apply floor_is; rewrite Ew; [rewrite inject_Z_plus; pose proof (Qfloor_le x); lra|]. replace (Qfloor x + w * N + 1) with (Qfloor x + 1 + w * N) by ring.
    rewrite inject_Z_plus. pose proof (Qlt_floor x). lra. }
  assert (Frac : (c - inject_Z (Qfloor c) == x - inject_Z (Qfloor x))%Q) by (rewrite Fx, inject_Z_plus, Ew; ring).
  set (p := Qfloor c) in *. assert (Hp : 0 <= p < N). { rewrite Fc. apply Z.mod_pos_bound. lia. }
  pose proof (Qfloor_le c) as P1. pose proof (Qlt_floor c) as P2. fold p in P1, P2. rewrite inj_1 in P2.
  (* the offset from the cell of the particle *)
  set (d := fcentre round64 s x + j - Qfloor x).
  assert (Bk' : nth k z 0 <= (p + d) mod N < nth (S k) z 0).
  { replace (p + d) with (fcentre round64 s x + j + w * N) by (unfold d; lia). rewrite Z.mod_add by lia. exact Bk. }
  assert (Hd : -1 <= d <= 2 /\ (d = -1 -> (c - reach s < inject_Z p - 1)%Q) /\ (inject_Z (p + d) <= round64 (c + reach s))%Q).
  { apply in_offsets in Hj. destruct s; cbn [fcentre reach] in *.
    - destruct (half_up x D Hx) as [[E F]|[E F]]; unfold d; rewrite E.
      + split; [lia|]. split; [intros _; lra|]. apply round_lb; [apply round64_int; lia|]. apply Qle_trans with (inject_Z (p + 1)); [apply inj_le; lia|]. rewrite inj_1. lra.
      + split; [lia|]. split; [lia|]. destruct F as [F|[G F]].
        * apply round_lb; [apply round64_int; lia|]. apply Qle_trans with (inject_Z (p + 1 + 1)); [apply inj_le; lia|]. rewrite !inj_1. lra.
        * assert (F0 : Qfloor x = 0). { apply floor_is; [exact (proj1 Hx)|exact G]. }
          rewrite F0, Z.mod_0_l in Fc by lia. rewrite Fc, F0 in Frac |- *. apply Qle_trans with (round64 (2 - Qpower 2 (-53))).
          -- apply Qle_trans with 2%Q; [apply (inj_le _ 2); lia|]. vm_compute. discriminate.
          -- apply round64_mono. change (inject_Z 0) with 0%Q in Frac. assert ((2 - Qpower 2 (-53) == (1 # 2) - Qpower 2 (-53) + (3 # 2))%Q) as -> by ring. lra.
    - unfold d. split; [lia|]. split; [intros _; lra|]. apply round_lb; [apply round64_int; lia|]. apply Qle_trans with (inject_Z (p + 1 + 1)); [apply inj_le; lia|]. rewrite !inj_1. lra. }
  destruct Hd as (Hd & Hd1 & Hd2). clearbody d. clear Bk.
  destruct (int_find z p He Hp) as (kp & Hkp & Bp). rewrite (blk_digitize c kp Hkp Bp).
  (* the right end *)
  set (rho := round64 (c + reach s)) in *.
  assert (R3 : (rho <= inject_Z (p + 3))%Q).
  { apply round_ub; [apply round64_int; lia|]. replace (p + 3) with (p + 1 + 1 + 1) by ring. rewrite !inj_1. destruct s; cbn [reach]; lra. }
  assert (R0 : (0 <= rho)%Q). { apply round_lb; [reflexivity|]. destruct s; cbn [reach]; lra. }
  rewrite (frem_pos round64 rho _ HL R0).
  assert (Fr : p + d <= Qfloor rho <= p + 3).
  { split; [apply floor_lb; exact Hd2|]. apply floor_ub. eapply Qle_lt_trans; [exact R3|]. rewrite <- Zlt_Qlt. lia. }
  pose proof (Z.mod_pos_bound (Qfloor rho) N ltac:(lia)) as Hr. destruct (int_find z _ He Hr) as (kr & Hkr & Br). fold N in Br.
  rewrite (blk_digitize (qrem rho (period (int_axis z))) kr) by (try assumption; rewrite int_period, qrem_floor by (fold N; lia); exact Br).
  rewrite (ndom_n _ He), int_len. cbn [fst snd]. fold n. assert (Hn : 0 < n) by (unfold n; lia).
  set (lam := round64 (c - reach s)) in *. set (l := digitize (frem round64 lam (period (int_axis z))) (int_axis z)).
  pose proof (Z.mod_pos_bound (Z.of_nat (S kp) - l) n Hn) as Ml.
  pose proof (Z.mod_pos_bound (Z.of_nat (S kr) - Z.of_nat (S kp)) n Hn) as Mr.
  destruct (Z.eq_dec d (-1)) as [Ed|Ed].
  2:{ (* at or above the particle *)
      pose proof (walk_up p (Qfloor rho) (p + d) kp kr k Hp ltac:(lia) ltac:(lia) Hkp Hkr Hk Bp Br Bk') as Way.
      exists (Z.of_nat kp + (Z.of_nat k - Z.of_nat kp) mod n). pose proof (Z.mod_pos_bound (Z.of_nat k - Z.of_nat kp) n Hn).
      replace (Z.of_nat (S kr) - Z.of_nat (S kp)) with (Z.of_nat kr - Z.of_nat kp) in * by lia. split; [lia|].
      rewrite Zplus_mod_idemp_r. replace (Z.of_nat kp + (Z.of_nat k - Z.of_nat kp)) with (Z.of_nat k) by lia. apply Z.mod_small. unfold n. lia. }
  (* below *)
  subst d. specialize (Hd1 eq_refl). replace (p + -1) with (p - 1) in Bk' by ring.
  assert (E1 : (inject_Z p - 1 == inject_Z (p - 1))%Q) by (unfold Z.sub; rewrite inject_Z_plus; reflexivity).
  assert (E2 : (inject_Z p - 2 == inject_Z (p - 2))%Q) by (unfold Z.sub; rewrite inject_Z_plus; reflexivity).
  assert (LU : (lam <= inject_Z (p - 1))%Q) by (apply round_ub; [apply round64_int; lia|rewrite <- E1; lra]).
  assert (LL : (inject_Z (p - 2) <= lam)%Q) by (apply round_lb; [apply round64_int; lia|rewrite <- E2; destruct s; cbn [reach]; lra]).
  assert (Way : (Z.of_nat kp - Z.of_nat k) mod n <= (Z.of_nat (S kp) - l) mod n).
  { assert (Cell : forall q, p - 2 <= q <= p - 1 -> Qfloor (frem round64 lam (period (int_axis z))) = q mod N -> (Z.of_nat kp - Z.of_nat k) mod n <= (Z.of_nat (S kp) - l) mod n).
    { intros q Hq Fq. pose proof (Z.mod_pos_bound q N ltac:(lia)) as Bq. destruct (int_find z _ He Bq) as (kl & Hkl & Bl). fold N in Bl.
      unfold l. rewrite (blk_digitize _ kl) by (try assumption; rewrite Fq; exact Bl).
      replace (Z.of_nat (S kp) - Z.of_nat (S kl)) with (Z.of_nat kp - Z.of_nat kl) by lia.
      apply (walk_down p q kp kl k Hp Hq Hkp Hkl Hk Bp Bl Bk'). }
    destruct (Qlt_le_dec lam 0) as [Neg|Pos].
    - assert (NQ : (4 <= inject_Z N)%Q) by (apply (inj_le 4); exact HN4).
      assert (PQ : (0 <= inject_Z p)%Q) by (apply (inj_le 0); lia).
      assert (FM : (fmod lam (period (int_axis z)) == lam)%Q) by (apply fmod_small; [exact HL|exact Neg|rewrite int_period; fold N; rewrite <- E2 in LL; lra]).
      assert (FR : (frem round64 lam (period (int_axis z)) == round64 (lam + inject_Z N))%Q).
      { unfold frem. cbv zeta. destruct (Qle_bool 0 (fmod lam (period (int_axis z)))) eqn:Eb.
        - apply Qle_bool_iff in Eb. rewrite FM in Eb. lra.
        - apply round64_compat. rewrite FM, int_period. reflexivity. }
      set (r := round64 (lam + inject_Z N)) in *.
      assert (RU : (r <= inject_Z (p - 1 + N))%Q) by (apply round_ub; [apply round64_int; lia|rewrite inject_Z_plus; lra]).
      assert (RL : (inject_Z (p - 2 + N) <= r)%Q) by (apply round_lb; [apply round64_int; lia|rewrite inject_Z_plus; lra]).
      assert (RN : (r <= inject_Z N)%Q) by (apply round_ub; [apply round64_int; lia|lra]).
      assert (P01 : p = 0 \/ p = 1). { assert (p - 2 < 0); [|lia]. rewrite Zlt_Qlt. eapply Qle_lt_trans; [exact LL|exact Neg]. }
      destruct (Qlt_le_dec r (inject_Z N)) as [RlN|RgN].
      + assert (Frr : p - 2 + N <= Qfloor r <= p - 1 + N).
        { split; [apply floor_lb; exact RL|]. apply floor_ub. eapply Qle_lt_trans; [exact RU|]. rewrite <- Zlt_Qlt. lia. }
        assert (Qfloor r <= N - 1) by (apply floor_ub; replace (N - 1 + 1) with N by ring; exact RlN).
        apply (Cell (Qfloor r - N)); [lia|]. rewrite (floor_eq _ _ FR). apply Z.mod_unique with (-1); lia.
      + (* rounded up to the period *)
        assert (p = 1). { destruct P01 as [P0|P0]; [|exact P0]. exfalso. rewrite P0 in RU. assert (inject_Z (0 - 1 + N) < inject_Z N)%Q by (rewrite <- Zlt_Qlt; lia). lra. }
        subst l. rewrite (digitize_L (int_axis z) He).
        2:{ rewrite FR, int_period. apply Qle_antisym; assumption. }
        rewrite int_len. fold n. rewrite H in *. change (1 - 1) with 0 in Bk'. rewrite Z.mod_0_l in Bk' by lia.
        pose proof (blk_mono k kp 0 1 Hk Hkp Bk' Bp ltac:(lia)).
        replace (Z.of_nat (S kp) - (n + 1)) with (Z.of_nat kp + (-1) * n) by lia. rewrite Z.mod_add by lia. rewrite !Z.mod_small by (unfold n; lia). lia.
    - rewrite (frem_pos round64 lam _ HL Pos) in *. apply (Cell (Qfloor lam)).
      + split; [apply floor_lb; exact LL|]. apply floor_ub. eapply Qle_lt_trans; [exact LU|]. rewrite <- Zlt_Qlt. lia.
      + rewrite int_period. apply qrem_floor. fold N. lia. }
  exists (Z.of_nat kp - (Z.of_nat kp - Z.of_nat k) mod n). pose proof (Z.mod_pos_bound (Z.of_nat kp - Z.of_nat k) n Hn). split; [lia|].
  rewrite Zminus_mod_idemp_r. replace (Z.of_nat kp - (Z.of_nat kp - Z.of_nat k)) with (Z.of_nat k) by lia. apply Z.mod_small. unfold n. lia.
Qed.
End Axis.

(** ** n dimensions *)
(** the cells and weights of every axis on the block [ks] *)
Fixpoint saxes (w : spline) (diffs : list bool) (scales : list Q) (zs : list (list Z)) (ks : list Z) (pos : list Q) {struct zs} : list (list (Z * Q)) :=
  match zs, diffs, scales, ks, pos with
  | z :: zs, d :: ds, s :: ss, k :: ks, x :: xs =>
      fspline round64 w d s (nth (Z.to_nat k) z 0) (last z 0) x :: saxes w ds ss zs ks xs
  | _, _, _, _, _ => []
  end.
(** the cells that the block [ks] writes or reads for a particle, and their weights:
    the products and the bounds check are those of the linear window
    (_window_tuned_tsc.h:39-187, _window_tuned_pcs.h:54-299) *)
Definition sweights (w : spline) (mass : option Q) (diffs : list bool) (scales : list Q) (zs : list (list Z)) (ks : list Z) (pos : list Q) : list (list Z * Q) :=
  fentries round64 mass (sizes zs ks) (saxes w diffs scales zs ks pos).
Fixpoint all_clear (scales : list Q) (zs : list (list Z)) (ks : list Z) (pos : list Q) {struct zs} : Prop :=
  match zs, scales, ks, pos with
  | z :: zs, s :: ss, k :: ks, x :: xs => clear (nth (Z.to_nat k) z 0) (round64 (x * s)) /\ all_clear ss zs ks xs
  | _, _, _, _ => True
  end.
Definition mesh_axis4 (z : list Z) : Prop := axis_ok (int_axis z) /\ 4 <= last z 0 <= 2 ^ 31.

Lemma sblock_entries w diffs scales zs ks pos c : Forall mesh_axis4 zs -> valid_index (map ndom (map int_axis zs)) ks ->
  length diffs = length zs -> length scales = length zs -> (length zs <= length pos)%nat -> inbox scales pos -> in_block zs ks c ->
  local_cell (sizes zs ks) (local zs ks c) = true /\ local_cell (sizes (undivided zs) (map (fun _ => 0) zs)) c = true /\
  length (saxes w diffs scales zs ks pos) = length zs /\ length (saxes w diffs scales (undivided zs) (map (fun _ => 0) zs) pos) = length zs /\
  length (local zs ks c) = length zs /\
  (all_clear scales zs ks pos -> Forall2 (fun p q => (entry1 (fst p) (snd p) == entry1 (fst q) (snd q))%Q)
    (combine (saxes w diffs scales zs ks pos) (local zs ks c)) (combine (saxes w diffs scales (undivided zs) (map (fun _ => 0) zs) pos) c)).
Proof.
  intros Hz. revert diffs scales ks pos c. induction Hz as [|z zs [He HN] _ IH]; intros diffs scales ks pos c Hv Hd Hs Hp Hb [Hc Hin].
  - inversion Hv; subst. destruct c; [|discriminate]. cbn. repeat split; constructor.
  - inversion Hv as [|? k ? ks' Hk Hv']; subst. destruct diffs as [|d diffs]; [discriminate|]. destruct scales as [|s scales]; [discriminate|].
    destruct pos as [|x pos]; [cbn in Hp; lia|]. destruct c as [|i c]; [discriminate|].
    unfold inbox, scaled in Hb. cbn [combine map fst snd] in Hb. inversion Hb as [|? ? Hx Hb']; subst.
    unfold starts, sizes in Hin. cbn [combine map fst snd] in Hin. inversion Hin as [|? ? Hi Hin']; subst. cbn [fst snd] in Hi.
    destruct (IH diffs scales ks' pos c) as (L1 & L2 & L3 & L4 & L5 & L6); [exact Hv'|cbn in Hd; lia|cbn in Hs; lia|cbn in Hp; lia|exact Hb'|split; [cbn in Hc; lia|exact Hin']|]. clear IH.
    rewrite (ndom_n _ He), int_len in Hk.
    destruct (int_block z (Z.to_nat k) He ltac:(lia)) as (B1 & B2 & B3).
    cbn [all_clear]. set (a := nth (Z.to_nat k) z 0) in *. set (b := nth (S (Z.to_nat k)) z 0) in *.
    split. { unfold local, local_cell, sizes, starts in *. cbn [combine map fst snd forallb]. fold a b.
      destruct (Z.leb_spec 0 (i - a)); [|lia]. destruct (Z.ltb_spec (i - a) (b - a)); [|lia]. exact L1. }
    split. { unfold local_cell, sizes, undivided in *. cbn [combine map fst snd forallb nth Z.to_nat].
      destruct (Z.leb_spec 0 i); [|lia]. destruct (Z.ltb_spec i (last z 0 - 0)); [|lia]. exact L2. }
    split. { cbn. now rewrite L3. } split. { unfold undivided in *. cbn in *. now rewrite L4. }
    split. { unfold local in L5 |- *. cbn. f_equal. exact L5. }
    intros [Ha Ha']. specialize (L6 Ha').
    unfold local, undivided, starts in *. cbn [saxes combine map nth Z.to_nat last fst snd] in *. fold a. constructor; [|exact L6]. cbn [fst snd].
    apply fspline_block with (n := b - a); try assumption; lia.
Qed.
Lemma saxes_NoDup w diffs scales zs ks pos : Forall mesh_axis4 zs -> Forall (fun l => NoDup (map fst l)) (saxes w diffs scales zs ks pos).
Proof.
  intros Hz. revert diffs scales ks pos. induction Hz as [|z zs [He HN] _ IH]; intros [|d diffs] [|s scales] [|k ks] [|x pos]; try constructor.
  - apply fspline_NoDup. lia.
  - apply IH.
Qed.
Lemma sentry1_cell w diff scale N pos c : 0 < N -> ~ (entry1 (fspline round64 w diff scale 0 N pos) c == 0)%Q ->
  exists j, In j (offsets w) /\ c = (fcentre round64 w (round64 (pos * scale)) + j) mod N.
Proof.
  intros HN H. unfold fspline in H. cbv zeta in H. rewrite entry1_map in H.
  assert (E0 : (round64 (round64 (pos * scale) + inject_Z (- 0)) == round64 (pos * scale))%Q).
  { change (inject_Z (- 0)) with 0%Q. eapply Qeq_trans; [apply round64_compat, Qplus_0_r|apply double_fix; eexists; reflexivity]. }
  assert (C0 : fcentre round64 w (round64 (round64 (pos * scale) + inject_Z (- 0))) = fcentre round64 w (round64 (pos * scale))).
  { destruct w; cbn [fcentre]; apply floor_eq; [apply round64_compat; now rewrite E0|exact E0]. }
  rewrite C0 in H. destruct (find _ (offsets w)) as [j|] eqn:Ef; [|exfalso; apply H; reflexivity].
  apply find_some in Ef. destruct Ef as [Hj Ef]. apply Z.eqb_eq in Ef. exists j. split; [exact Hj|]. rewrite <- Ef. apply wrap_ud_mod. exact HN.
Qed.
Lemma scover w diffs scales zs ks pos c : Forall mesh_axis4 zs -> Forall spacious zs -> valid_index (map ndom (map int_axis zs)) ks ->
  length diffs = length zs -> length scales = length zs -> (length zs <= length pos)%nat -> inbox scales pos -> in_block zs ks c ->
  Forall (fun p => ~ (entry1 (fst p) (snd p) == 0)%Q) (combine (saxes w diffs scales (undivided zs) (map (fun _ => 0) zs) pos) c) ->
  exists p, In p (box (fpatches round64 true (map int_axis zs) (map (fun _ => reach w) zs) (scaled scales pos))) /\
    wrap_index true (map ndom (map int_axis zs)) p = ks.
Proof.
  intros Hz. revert diffs scales ks pos c. induction Hz as [|z zs [He HN] _ IH]; intros diffs scales ks pos c Hr Hv Hd Hs Hp Hb [Hc Hin] Hne.
  - inversion Hv; subst. exists []. cbn. now split; [left|].
  - inversion Hv as [|? k ? ks' Hk Hv']; subst. destruct diffs as [|d diffs]; [discriminate|]. destruct scales as [|s scales]; [discriminate|].
    destruct pos as [|x pos]; [cbn in Hp; lia|]. destruct c as [|i c]; [discriminate|].
    unfold inbox, scaled in Hb. cbn [combine map fst snd] in Hb. inversion Hb as [|? ? Hx Hb']; subst. inversion Hr as [|? ? Hrz Hr']; subst.
    unfold starts, sizes in Hin. cbn [combine map fst snd] in Hin. inversion Hin as [|? ? Hi Hin']; subst. cbn [fst snd] in Hi.
    unfold undivided in Hne. cbn [saxes combine map nth Z.to_nat last fst snd] in Hne. inversion Hne as [|? ? Hn Hne']; subst. cbn [fst snd] in Hn.
    destruct (IH diffs scales ks' pos c) as (p & P1 & P2); [exact Hr'|exact Hv'|cbn in Hd; lia|cbn in Hs; lia|cbn in Hp; lia|exact Hb'|split; [cbn in Hc; lia|exact Hin']|exact Hne'|]. clear IH.
    rewrite (ndom_n _ He), int_len in Hk.
    apply sentry1_cell in Hn; [|lia]. destruct Hn as (j & Hj & ->).
    destruct (fpatch_spline z He ltac:(lia) ltac:(lia) Hrz w (round64 (x * s)) j (Z.to_nat k) ltac:(eexists; reflexivity) Hx ltac:(lia) Hj ltac:(lia)) as (t & Ht & Et).
    exists (t :: p). split.
    + apply in_box. cbn. constructor; [exact Ht|apply in_box; exact P1].
    + unfold wrap_index in *. cbn. rewrite P2, Et. f_equal. lia.
Qed.

(** Every weight of a particle that is not zero belongs to a rank that receives the
    particle; and, except for particles of the first cell, it is the number that is
    found without dividing the mesh.  [mass] is the value of the particle in paint,
    and nothing in readout. *)
Theorem C98_weights : forall w P g zs scales poss, g_edges g = map int_axis zs -> Forall (fun z => 4 <= last z 0 <= 2 ^ 31) zs -> Forall spacious zs ->
  setting P g (scaled scales) (map (fun _ => reach w) zs) poss -> periodic_axes g -> regular g -> length scales = length zs ->
  (forall pos x, In pos poss -> In x pos -> (length zs <= length x)%nat /\ inbox scales x) ->
  exists args, map (fdecompose round64 P g (scaled scales) (map (fun _ => reach w) zs)) poss = map Ret args /\ length args = P /\ wf_args args /\
    forall s i mass diffs ks c, (s < P)%nat -> (i < length (nth s poss []))%nat -> length diffs = length zs ->
      let x := particle poss s i in valid_index (g_dims g) ks -> in_block zs ks c ->
      NoDup (map fst (sweights w mass diffs scales zs ks x)) /\
      (all_clear scales zs ks x ->
       (entry (sweights w mass diffs scales zs ks x) (local zs ks c) ==
        entry (sweights w mass diffs scales (undivided zs) (map (fun _ => 0%Z) zs) x) c)%Q) /\
      (~ (entry (sweights w mass diffs scales (undivided zs) (map (fun _ => 0%Z) zs) x) c == 0)%Q -> In (s, i) (tags args (owner g ks))).
Proof.
  intros w P g zs scales poss Hedges HN Hr H Hp Hreg Hls Hbox.
  destruct (setting_fdecompose round64 P g _ _ poss H Hp) as (args & E1 & E2 & E3 & E4 & E5).
  exists args. split; [exact E1|]. split; [exact E2|]. split; [exact E3|]. intros s i mass diffs ks c Hs Hi Hd x Hv Hc.
  destruct H as [Hg Hax Hw Hin]. destruct (particle_in poss s i ltac:(lia) Hi) as [P1 P2]. pose proof (Hin _ _ P1 P2) as Hx.
  destruct (Hbox _ _ P1 P2) as [Hlx Hbx]. fold x in Hlx, Hbx, Hx.
  assert (HZ : Forall mesh_axis4 zs).
  { destruct Hp as [_ Hax']. rewrite Hedges, Forall_map in Hax'. rewrite Forall_forall in *. intros z Hz. split; [now apply Hax'|now apply HN]. }
  pose proof Hv as Hv'. unfold g_dims in Hv. rewrite Hedges in Hv.
  destruct (sblock_entries w diffs scales zs ks x c HZ Hv Hd Hls Hlx Hbx Hc) as (L1 & L2 & L3 & L4 & L5 & L6).
  split; [apply fentries_NoDup, saxes_NoDup, HZ|]. unfold sweights. rewrite !fentries_entry by assumption.
  split; [intros Ha; apply entries_eq; [lia|destruct Hc; lia|exact (L6 Ha)]|]. intros Hne.
  assert (Hlc : length c = length (saxes w diffs scales (undivided zs) (map (fun _ => 0) zs) x)) by (destruct Hc; lia).
  pose proof (entries_nonzero mass _ c Hlc Hne) as Hnz.
  destruct (scover w diffs scales zs ks x c HZ Hr Hv Hd Hls Hlx Hbx Hc Hnz) as (p & Hpb & Hwr).
  destruct (ftargets_ok round64 P g _ _ Hg Hp Hx) as (_ & _ & T3 & T4).
  assert (Hthick : exists y, inside g y ks).
  { (* the block has a cell *)
    exists (map (fun p => E (fst p) (Z.to_nat (snd p))) (combine (g_edges g) ks)). unfold inside, g_dims. rewrite Hedges. split; [exact Hv|].
    destruct Hc as [Hc1 Hc2]. clear - HZ Hv Hc1 Hc2. revert ks c Hv Hc1 Hc2. induction HZ as [|z zs [He HN] _ IH]; intros ks c Hv Hc1 Hc2; [inversion Hv; subst; exact Logic.I|].
    inversion Hv as [|? k ? ks' Hk Hks]; subst. destruct c as [|j c]; [discriminate|].
    unfold starts, sizes in Hc2. cbn [combine map fst snd] in Hc2. inversion Hc2 as [|? ? Hj Hc2']; subst. cbn [fst snd] in Hj.
    cbn [combine map all_axes fst snd]. split; [|apply (IH ks' c Hks); [cbn in Hc1; lia|exact Hc2']].
    exists 0. unfold iz. change (inject_Z 0) with 0%Q. rewrite (ndom_n _ He), int_len in Hk. rewrite !int_E by lia. split; [lra|].
    assert (inject_Z (nth (Z.to_nat k) z 0%Z) < inject_Z (nth (S (Z.to_nat k)) z 0%Z))%Q by (rewrite <- Zlt_Qlt; lia). lra. }
  destruct Hthick as [y Hy].
  assert (Ht : In (owner g ks) (ftargets_of round64 g (map (fun _ => reach w) zs) (scaled scales x))).
  { apply T4. exists p. unfold fpatch_of. rewrite (proj1 Hp), Hedges. split; [exact Hpb|]. unfold g_dims. rewrite Hedges, Hwr. split; [reflexivity|].
    apply (regular_flags P g Hg Hreg); [exact Hv'|exact (inside_thick _ _ _ Hy)]. }
  pose proof (T3 _ Ht) as Ho. apply in_tags; [lia|]. rewrite E5 by assumption. apply sent_to_in. now split.
Qed.
Print Assumptions C98_weights.

(** eight by nine cells on two by three ranks; the second axis is differentiated *)
Definition sp_zs : list (list Z) := [[0; 4; 8]; [0; 3; 6; 9]].
Definition sp_grid : grid := mkGrid (map int_axis sp_zs) true [0; 1; 2; 3; 4; 5]%nat (degenerate_flags (map int_axis sp_zs)).
Definition sp_x : list Q := [63 # 16; 143 # 16]%Q.
Example C98_case : g_edges sp_grid = map int_axis sp_zs /\ Forall (fun z => 4 <= last z 0 <= 2 ^ 31) sp_zs /\ Forall spacious sp_zs /\
  setting 6 sp_grid (scaled [1; 1]%Q) (map (fun _ => reach TSC) sp_zs) [[sp_x]; []; []; []; []; []] /\ periodic_axes sp_grid /\ regular sp_grid /\
  inbox [1; 1]%Q sp_x /\ all_clear [1; 1]%Q sp_zs [1; 0] sp_x /\ in_block sp_zs [1; 0] [4; 0] /\
  (entry (sweights TSC (Some 3) [false; true] [1; 1] sp_zs [1; 0]%Z sp_x) (local sp_zs [1; 0]%Z [4; 0]%Z) == 573 # 2048)%Q /\
  (entry (sweights TSC None [false; false] [1; 1] sp_zs [1; 0]%Z sp_x) (local sp_zs [1; 0]%Z [4; 0]%Z) == 36481 # 65536)%Q /\
  map (fun ks => map fst (sweights TSC None [false; false] [1; 1]%Q sp_zs ks sp_x)) [[0; 0]; [1; 0]; [0; 2]; [1; 1]; [1; 2]]
  = [[[3; 0]; [3; 1]]; [[0; 0]; [0; 1]; [1; 0]; [1; 1]]; [[3; 2]]; []; [[0; 2]; [1; 2]]].
Proof.
  assert (W : wf_grid 6 sp_grid /\ periodic_axes sp_grid /\ regular sp_grid).
  { split; [|split].
    - constructor; try reflexivity; repeat constructor; cbn; lia.
    - split; [reflexivity|]. constructor; [|constructor; [|constructor]]; (constructor; try reflexivity; [cbn; lia|]);
      repeat constructor; try (unfold Qle; cbn; lia).
    - split; [reflexivity|]. right. reflexivity. }
  split; [reflexivity|]. split; [repeat constructor; cbn; lia|].
  split. { constructor; [|constructor; [|constructor]]; intros [|[|[|k]]] Hk; cbn in Hk |- *; lia. }
  split.
  { constructor; [apply W|apply periodic_wf_axes, W|reflexivity|].
    intros pos x Hpos Hx. cbn in Hpos. destruct Hpos as [<-|[<-|[<-|[<-|[<-|[<-|[]]]]]]]; cbn in Hx; try contradiction. destruct Hx as [<-|[]].
    split; [reflexivity|]. split; [repeat constructor; discriminate|]. cbn. lia. }
  split; [apply W|]. split; [apply W|].
  split; [repeat constructor; vm_compute; discriminate|]. split; [split; [left; vm_compute; discriminate|split; [left; vm_compute; discriminate|exact Logic.I]]|].
  split; [split; [reflexivity|unfold starts, sizes; cbn; repeat (constructor; [vm_compute; split; [discriminate|reflexivity]|]); constructor]|]. repeat split; vm_compute; reflexivity.
Qed.
(** Of the conditions.  A block that begins at cell one and a particle of the first
    cell: the weight of the last cell differs in its last bits. *)
Theorem C98_same_bits_refuted : let x := (Qpower 2 (-53) + Qpower 2 (-60))%Q in (round64 x == x)%Q /\
  ~ (entry (sweights PCS None [false] [1] [[0; 1; 8]]%Z [1]%Z [x]) [6]%Z == entry (sweights PCS None [false] [1] [[0; 8]]%Z [0]%Z [x]) [7]%Z)%Q.
Proof. cbv zeta. split; [reflexivity|]. vm_compute. discriminate. Qed.
(** Five cells on two ranks, the cubic window: just below 3 the rank of the other two
    cells does not receive the particle, although it has more than four fifths of its mass. *)
Theorem C98_lost_refuted : let x := (3 - Qpower 2 (-51))%Q in (round64 x == x)%Q /\ ~ spacious [0; 3; 5] /\
  (2 # 3 < entry (sweights PCS None [false] [1] [[0; 3; 5]]%Z [1]%Z [x]) [0]%Z + Qpower 2 (-50))%Q /\
  (1 # 6 < entry (sweights PCS None [false] [1] [[0; 3; 5]]%Z [1]%Z [x]) [1]%Z + Qpower 2 (-50))%Q /\
  ftargets_of round64 (mkGrid [[0; 3; 5]]%Q true [0; 1]%nat (degenerate_flags [[0; 3; 5]]%Q)) [reach PCS] [x] = [0]%nat.
Proof.
  cbv zeta. split; [reflexivity|]. split; [intros H; destruct (H 0%nat ltac:(cbn; lia)) as [C|C]; cbn in C; lia|]. repeat split; vm_compute; reflexivity.
Qed.
(** A block of all cells but one, the quadratic window: the exact arithmetic loses the
    particle as well. *)
Theorem C98_lost_exact_refuted : let x := (21 # 8)%Q in
  (entry (sweights TSC None [false] [1] [[0; 3; 4]]%Z [1]%Z [x]) [0]%Z == 39 # 64)%Q /\
  ftargets_of round64 (mkGrid [[0; 3; 4]]%Q true [0; 1]%nat (degenerate_flags [[0; 3; 4]]%Q)) [reach TSC] [x] = [0]%nat /\
  ftargets_of (fun q => q) (mkGrid [[0; 3; 4]]%Q true [0; 1]%nat (degenerate_flags [[0; 3; 4]]%Q)) [reach TSC] [x] = [0]%nat.
Proof. vm_compute. repeat split. Qed.
Print Assumptions C98_same_bits_refuted.
Print Assumptions C98_lost_refuted.
Print Assumptions C98_lost_exact_refuted.
