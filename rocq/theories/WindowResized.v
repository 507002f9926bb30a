(** Property C104: windows that were resized, and particles with smoothing lengths. *)
From Coq Require Import List Arith ZArith QArith Qabs Qround Lia Lqa Bool Setoid Morphisms Permutation.
From Verif Require Import Base ListFacts WrapModel WrapProofs DomainModel DomainFill QSum WindowModel WindowStencil WindowSpread WindowKernels WindowAxis WindowNative WindowApi WindowPoints WindowGrad WindowProperties.
Import ListNotations.
Local Open Scope Q_scope.

(* ---------- sums over stretched lattices ---------- *)
Lemma sum_blocks (F : Z -> Q) (M K : nat) : forall a,
  qsum F (zrange (Z.of_nat M * a) (M * K)) ==
  qsum (fun i => qsum (fun r => F (Z.of_nat M * i + r)%Z) (zrange 0 M)) (zrange a K).
Proof.
  induction K as [|K IH]; intros a.
  - rewrite Nat.mul_0_r. reflexivity.
  - rewrite Nat.mul_succ_r, Nat.add_comm, zrange_app, qsum_app. cbn [zrange]. rewrite qsum_cons.
    apply Qplus_comp.
    + replace (Z.of_nat M * a)%Z with (0 + Z.of_nat M * a)%Z by lia.
      rewrite <- (qsum_map (fun x : Z => x) F), map_id. rewrite <- (map_id (zrange (0 + _) M)).
      rewrite map_zrange_shift, qsum_map. apply qsum_ext. intros r.
      rewrite Z.add_0_l, Z.add_comm. reflexivity.
    + replace (Z.of_nat M * a + Z.of_nat M)%Z with (Z.of_nat M * (a + 1))%Z by lia. apply IH.
Qed.

(** a span of integers around the interval from [lo] to [hi] *)
Definition span_lo (lo : Q) : Z := (Qfloor lo - 1)%Z.
Definition span_len (lo hi : Q) : nat := Z.to_nat (Qfloor hi + 2 - span_lo lo).
Definition span (lo hi : Q) : list Z := zrange (span_lo lo) (span_len lo hi).
Lemma in_span lo hi j : lo - 1 <= inject_Z j <= hi + 1 -> In j (span lo hi).
Proof.
  intros [H1 H2]. apply in_zrange. unfold span_len.
  pose proof (Qfloor_bounds lo). pose proof (Qfloor_bounds hi).
  assert (span_lo lo <= j)%Z.
  { apply inject_Z_le_iff. unfold span_lo, Z.sub. rewrite inject_Z_plus, inject_Z_opp. change (inject_Z 1) with 1. lra. }
  assert (j < Qfloor hi + 2)%Z.
  { apply inject_Z_lt_iff. rewrite inject_Z_plus. change (inject_Z 2) with 2. lra. }
  lia.
Qed.
Lemma in_span_scaled (M : nat) lo hi j : (0 < M)%nat ->
  lo * inject_Z (Z.of_nat M) <= inject_Z j <= hi * inject_Z (Z.of_nat M) ->
  In j (zrange (Z.of_nat M * span_lo lo) (M * span_len lo hi)).
Proof.
  intros HM [H1 H2]. apply in_zrange. unfold span_len.
  pose proof (Qfloor_bounds lo). pose proof (Qfloor_bounds hi).
  set (MQ := inject_Z (Z.of_nat M)) in *.
  assert (MP : 0 < MQ) by (unfold MQ; change 0 with (inject_Z 0); rewrite <- Zlt_Qlt; lia).
  assert (B1 : inject_Z (Qfloor lo) * MQ <= lo * MQ) by (apply Qmult_le_compat_r; lra).
  assert (B2 : hi * MQ <= (inject_Z (Qfloor hi) + 1) * MQ) by (apply Qmult_le_compat_r; lra).
  assert (A1 : (Z.of_nat M * Qfloor lo <= j)%Z).
  { apply inject_Z_le_iff. rewrite inject_Z_mult. fold MQ. lra. }
  assert (A2 : (j <= Z.of_nat M * (Qfloor hi + 1))%Z).
  { apply inject_Z_le_iff. rewrite inject_Z_mult, inject_Z_plus. fold MQ. change (inject_Z 1) with 1. lra. }
  assert (A3 : (Qfloor lo <= Qfloor hi + 1)%Z) by nia.
  unfold span_lo. rewrite Nat2Z.inj_mul, Z2Nat.id by lia. nia.
Qed.

Section Lattice.
Variables (f : Q -> Q) (n : Z) (c : Q).
Hypothesis fp : Proper (Qeq ==> Qeq) f.
Hypothesis fc : confined f n.
Hypothesis fs : forall g L, NoDup L -> (forall j, Qabs (g - inject_Z j) <= inject_Z n / 2 -> In j L) ->
  qsum (fun j => f (g - inject_Z j)) L == c.

Lemma nonzero_in y : ~ f y == 0 -> - (inject_Z n / 2) <= y < inject_Z n / 2.
Proof.
  intros H. destruct (Qlt_le_dec y (- (inject_Z n / 2))) as [C|C]; [elim H; apply fc; left; exact C|].
  destruct (Qlt_le_dec y (inject_Z n / 2)) as [C'|C']; [|elim H; apply fc; right; exact C'].
  split; assumption.
Qed.

(** the kernel stretched by an integer factor sums to that factor *)
Lemma stretched (M : nat) g L : (0 < M)%nat -> NoDup L ->
  (forall j, g - inject_Z n / 2 * inject_Z (Z.of_nat M) < inject_Z j <= g + inject_Z n / 2 * inject_Z (Z.of_nat M) -> In j L) ->
  qsum (fun j => f ((g - inject_Z j) / inject_Z (Z.of_nat M))) L == inject_Z (Z.of_nat M) * c.
Proof.
  intros HM HN HL. set (MQ := inject_Z (Z.of_nat M)) in *.
  assert (MP : 0 < MQ) by (unfold MQ; change 0 with (inject_Z 0); rewrite <- Zlt_Qlt; lia).
  set (u := g / MQ). assert (Hg : g == u * MQ) by (unfold u; field; lra).
  set (lo := u - inject_Z n / 2). set (hi := u + inject_Z n / 2).
  rewrite (qsum_support _ L (zrange (Z.of_nat M * span_lo lo) (M * span_len lo hi)) Z.eq_dec HN (zrange_NoDup _ _)).
  - rewrite sum_blocks, qsum_swap.
    rewrite (qsum_ext_in _ (fun _ => c) (zrange 0 M)).
    + rewrite qsum_const, zrange_length. reflexivity.
    + intros r Hr. apply in_zrange in Hr.
      rewrite (qsum_ext _ (fun i => f ((g - inject_Z r) / MQ - inject_Z i))).
      2:{ intros i. apply fp. rewrite inject_Z_plus, inject_Z_mult. fold MQ. field. lra. }
      apply fs; [apply zrange_NoDup|]. intros i Hi. apply in_span.
      assert (R : 0 <= inject_Z r / MQ <= 1).
      { assert (0 <= inject_Z r) by (change 0 with (inject_Z 0); rewrite <- Zle_Qle; lia).
        assert (inject_Z r <= MQ) by (unfold MQ; rewrite <- Zle_Qle; lia).
        split; [apply Qle_shift_div_l; lra|apply Qle_shift_div_r; lra]. }
      apply Qabs_le_inv in Hi. unfold lo, hi.
      assert (E : (g - inject_Z r) / MQ == u - inject_Z r / MQ) by (unfold u; field; lra).
      rewrite E in Hi. lra.
  - intros j Hj. apply nonzero_in in Hj.
    assert (E : (g - inject_Z j) / MQ * MQ == g - inject_Z j) by (field; lra).
    set (y := (g - inject_Z j) / MQ) in *.
    assert (Y1 : - (inject_Z n / 2) * MQ <= y * MQ) by (apply Qmult_le_compat_r; lra).
    assert (Y2 : y * MQ < inject_Z n / 2 * MQ) by (apply Qmult_lt_compat_r; lra).
    split; intros _.
    + apply in_span_scaled; [exact HM|]. fold MQ. unfold lo, hi. rewrite E in Y1, Y2. lra.
    + apply HL. rewrite E in Y1, Y2. lra.
Qed.

(** the sums at [N] places, one [N]th of a mesh unit apart, for a kernel stretched by [M / N] *)
Lemma stretched_average (N M : nat) g (L : Z -> list Z) : (0 < N)%nat -> (0 < M)%nat ->
  (forall r, (0 <= r < Z.of_nat N)%Z -> NoDup (L r) /\
     forall j, g - inject_Z r / inject_Z (Z.of_nat N) - inject_Z n / 2 * (inject_Z (Z.of_nat M) / inject_Z (Z.of_nat N))
               < inject_Z j <=
               g - inject_Z r / inject_Z (Z.of_nat N) + inject_Z n / 2 * (inject_Z (Z.of_nat M) / inject_Z (Z.of_nat N))
               -> In j (L r)) ->
  qsum (fun r => qsum (fun j => f ((g - inject_Z r / inject_Z (Z.of_nat N) - inject_Z j)
                                   * (inject_Z (Z.of_nat N) / inject_Z (Z.of_nat M)))) (L r))
       (zrange 0 N) == inject_Z (Z.of_nat M) * c.
Proof.
  intros HN HM HL. set (MQ := inject_Z (Z.of_nat M)) in *. set (NQ := inject_Z (Z.of_nat N)) in *.
  assert (MP : 0 < MQ) by (unfold MQ; change 0 with (inject_Z 0); rewrite <- Zlt_Qlt; lia).
  assert (NP : 0 < NQ) by (unfold NQ; change 0 with (inject_Z 0); rewrite <- Zlt_Qlt; lia).
  set (b := inject_Z n / 2 * (MQ / NQ)) in *.
  assert (Hb : b * NQ == inject_Z n / 2 * MQ) by (unfold b; field; lra).
  set (lo := g - b). set (hi := g + b).
  transitivity (qsum (fun r => qsum (fun j => f ((g * NQ - inject_Z (Z.of_nat N * j + r)) / MQ)) (span lo hi)) (zrange 0 N)).
  - apply qsum_ext_in. intros r Hr. apply in_zrange in Hr. destruct (HL r ltac:(lia)) as [HD HC].
    rewrite (qsum_ext _ (fun j => f ((g * NQ - inject_Z (Z.of_nat N * j + r)) / MQ)) (L r)).
    2:{ intros j. apply fp. rewrite inject_Z_plus, inject_Z_mult. fold NQ. field. lra. }
    apply qsum_support; [apply Z.eq_dec|exact HD|apply zrange_NoDup|].
    intros j Hj. apply nonzero_in in Hj.
    assert (R : 0 <= inject_Z r / NQ <= 1).
    { assert (0 <= inject_Z r) by (change 0 with (inject_Z 0); rewrite <- Zle_Qle; lia).
      assert (inject_Z r <= NQ) by (unfold NQ; rewrite <- Zle_Qle; lia).
      split; [apply Qle_shift_div_l; lra|apply Qle_shift_div_r; lra]. }
    set (y := (g * NQ - inject_Z (Z.of_nat N * j + r)) / MQ) in *.
    assert (E : g - inject_Z r / NQ - inject_Z j == y * (MQ / NQ)).
    { unfold y. rewrite inject_Z_plus, inject_Z_mult. fold NQ. field. lra. }
    assert (QP : 0 < MQ / NQ) by (apply Qlt_shift_div_l; lra).
    assert (Y1 : - (inject_Z n / 2) * (MQ / NQ) <= y * (MQ / NQ)) by (apply Qmult_le_compat_r; lra).
    assert (Y2 : y * (MQ / NQ) < inject_Z n / 2 * (MQ / NQ)) by (apply Qmult_lt_compat_r; lra).
    assert (Y1' : - b <= y * (MQ / NQ)) by (unfold b; lra). clear Y1.
    assert (Y2' : y * (MQ / NQ) < b) by (unfold b; lra). clear Y2.
    rewrite <- E in Y1', Y2'.
    split; intros _.
    + apply in_span. unfold lo, hi. lra.
    + apply HC. lra.
  - rewrite qsum_swap. unfold span. rewrite <- (sum_blocks (fun k => f ((g * NQ - inject_Z k) / MQ))).
    apply stretched; [exact HM|apply zrange_NoDup|]. intros k Hk. apply in_span_scaled; [exact HN|].
    fold NQ. fold MQ in Hk. unfold lo, hi.
    assert (E1 : (g - b) * NQ == g * NQ - inject_Z n / 2 * MQ) by (rewrite <- Hb; ring).
    assert (E2 : (g + b) * NQ == g * NQ + inject_Z n / 2 * MQ) by (rewrite <- Hb; ring).
    rewrite E1, E2. lra.
Qed.
End Lattice.

(** the derivatives of the kernels sum to zero over the mesh points *)
Lemma diff_lattice (k : kind) (g : Q) (L : list Z) : standard k -> NoDup L ->
  (forall j, Qabs (g - inject_Z j) <= inject_Z (native_of k) / 2 -> In j L) ->
  qsum (fun j => diff_of k (g - inject_Z j)) L == 0.
Proof.
  intros Hk HN HL.
  set (a := {| ax_scale := 1; ax_translate := 0; ax_period := 0; ax_order := 1; ax_size := 0; ax_stride := 0 |}).
  rewrite <- (native_line_sum_D k a g Hk ltac:(discriminate)).
  unfold native_line. rewrite qsum_map. cbn [snd].
  rewrite (qsum_ext _ (fun j => diff_of k (g - inject_Z j)) (zrange _ _)).
  2:{ intros j. rewrite line_weight_native by (apply standard_proper, Hk). cbn [a ax_order Z.eqb ax_scale]. rewrite Qmult_1_r.
      destruct (standard_proper _ Hk) as (_ & _ & PK). apply PK. unfold grid_pos. cbn [ax_scale ax_translate a]. ring. }
  apply qsum_support; [apply Z.eq_dec|exact HN|apply zrange_NoDup|].
  intros j Hj. pose proof (nonzero_in _ _ (proj2 (standard_confined _ Hk)) _ Hj) as R.
  split; intros _.
  - apply in_zrange. assert (G : grid_pos a g == g) by (unfold grid_pos; cbn [ax_scale ax_translate a]; ring).
    pose proof (first_point_covers (inject_Z (native_of k)) (native_of k) (grid_pos a g) j) as F.
    rewrite Z2Nat.id by (pose proof (proj1 (standard_proper _ Hk)); lia). apply F; [split; lra|]. rewrite G. split; lra.
  - apply HL. apply Qabs_le. split; lra.
Qed.

(* ---------- one axis of a painter ---------- *)
(** the size of the window in units of its native size is [M / N] *)
Definition stretched_by (k : kind) (s : Q) (N M : nat) : Prop :=
  (0 < N)%nat /\ (0 < M)%nat /\ s * inject_Z (Z.of_nat N) == inject_Z (native_of k) * inject_Z (Z.of_nat M).

Section Axis.
Variables (p : painter) (h : Q).
Let k := pt_kind p.
Let s := inject_Z (pt_support p) * h.
Hypothesis Hk : standard k.

Lemma fast_sum f a x : getfastmethod p (window_for p h) = Some f -> (0 <= ax_period a)%Z ->
  qsum snd (axis_points p h a x) == if (ax_order a =? 0)%Z then 1 else 0.
Proof.
  intros G Hp. destruct (ax_order a =? 0)%Z eqn:O.
  - apply Z.eqb_eq in O. rewrite (pair_eq_sum _ _ (axis_points_tuned p h a x f G Hp (or_introl O))).
    apply native_line_sum_K; assumption.
  - apply Z.eqb_neq in O. unfold axis_points. rewrite G. destruct (getfastmethod_setup _ _ _ G) as (S & _).
    apply (tuned_gradient_sum _ _ _ _ S O).
Qed.
Lemma slow_sum a x : getfastmethod p (window_for p h) = None ->
  qsum snd (axis_points p h a x) ==
  qsum (line_weight k (eff_support (native_of k) s) a x)
       (zrange (first_point (eff_support (native_of k) s) (wi_support (window_for p h)) (grid_pos a x))
               (Z.to_nat (wi_support (window_for p h)))).
Proof.
  intros G. unfold axis_points. rewrite G.
  pose proof (pair_eq_sum _ _ (generic_points_line k s a x (standard_proper _ Hk))) as Q. rewrite qsum_map in Q.
  cbn [snd] in Q. exact Q.
Qed.
Lemma support_pos N M : stretched_by k s N M -> 0 < s.
Proof.
  intros (HN & HM & E). destruct (Qlt_le_dec 0 s) as [C|C]; [exact C|exfalso].
  assert (NP : 0 < inject_Z (Z.of_nat N)) by (change 0 with (inject_Z 0); rewrite <- Zlt_Qlt; lia).
  assert (B : s * inject_Z (Z.of_nat N) <= 0 * inject_Z (Z.of_nat N)) by (apply Qmult_le_compat_r; lra).
  rewrite E, <- inject_Z_mult, Qmult_0_l in B. change 0 with (inject_Z 0) in B. rewrite <- Zle_Qle in B.
  pose proof (proj1 (standard_proper _ Hk)). nia.
Qed.
Lemma eff_pos : 0 < s -> eff_support (native_of k) s = s.
Proof. intros H. unfold eff_support. destruct (Qle_bool_case s 0); [lra|reflexivity]. Qed.

(** the average over equidistant places is exact *)
Lemma axis_average N M a x : stretched_by k s N M -> (0 <= ax_period a)%Z -> ~ ax_scale a == 0 ->
  qsum (fun r => qsum snd (axis_points p h a (x - inject_Z r / (inject_Z (Z.of_nat N) * ax_scale a)))) (zrange 0 N) ==
  if (ax_order a =? 0)%Z then inject_Z (Z.of_nat N) else 0.
Proof.
  intros HS Hp Hs. pose proof (support_pos N M HS) as SP. destruct HS as (HN & HM & E).
  assert (NP : 0 < inject_Z (Z.of_nat N)) by (change 0 with (inject_Z 0); rewrite <- Zlt_Qlt; lia).
  assert (MP : 0 < inject_Z (Z.of_nat M)) by (change 0 with (inject_Z 0); rewrite <- Zlt_Qlt; lia).
  destruct (getfastmethod p (window_for p h)) as [f|] eqn:G.
  - rewrite (qsum_ext _ (fun _ => if (ax_order a =? 0)%Z then 1 else 0)) by (intros r; apply (fast_sum f _ _ G Hp)).
    rewrite qsum_const, zrange_length. destruct (ax_order a =? 0)%Z; ring.
  - destruct (standard_proper _ Hk) as (kp & KP & DP). destruct (standard_confined _ Hk) as [KC DC].
    assert (KQ : 0 < inject_Z (native_of k)) by (change 0 with (inject_Z 0); rewrite <- Zlt_Qlt; lia).
    set (g := grid_pos a x). set (NQ := inject_Z (Z.of_nat N)) in *. set (MQ := inject_Z (Z.of_nat M)) in *.
    assert (V : inject_Z (native_of k) / s == NQ / MQ).
    { assert (S : s == inject_Z (native_of k) * MQ / NQ) by (rewrite <- E; field; lra). rewrite S. field. lra. }
    assert (HV : s / 2 == inject_Z (native_of k) / 2 * (MQ / NQ)).
    { assert (S : s == inject_Z (native_of k) * MQ / NQ) by (rewrite <- E; field; lra). rewrite S. field. lra. }
    assert (GP : forall r, grid_pos a (x - inject_Z r / (NQ * ax_scale a)) == g - inject_Z r / NQ).
    { intros r. unfold g, grid_pos. field. split; [lra|exact Hs]. }
    set (L := fun r => zrange (first_point s (wi_support (window_for p h)) (grid_pos a (x - inject_Z r / (NQ * ax_scale a))))
                              (Z.to_nat (wi_support (window_for p h)))).
    pose proof (window_info_ok (native_of k) s kp) as (W1 & _ & _). rewrite (eff_pos SP) in W1.
    assert (HL : forall r, (0 <= r < Z.of_nat N)%Z -> NoDup (L r) /\
       forall j, g - inject_Z r / NQ - inject_Z (native_of k) / 2 * (MQ / NQ) < inject_Z j <=
                 g - inject_Z r / NQ + inject_Z (native_of k) / 2 * (MQ / NQ) -> In j (L r)).
    { intros r _. split; [apply zrange_NoDup|]. intros j Hj. apply in_zrange.
      assert (WP : (0 < wi_support (window_for p h))%Z).
      { apply inject_Z_lt_iff. change (inject_Z 0) with 0. unfold window_for. fold k s. lra. }
      rewrite Z2Nat.id by lia.
      apply first_point_covers; [exact W1|]. rewrite (GP r), HV. exact Hj. }
    destruct (ax_order a =? 0)%Z eqn:O.
    + rewrite (qsum_ext _ (fun r => NQ / MQ * qsum (fun j => kernel_of k ((g - inject_Z r / NQ - inject_Z j) * (NQ / MQ))) (L r))).
      2:{ intros r. rewrite (slow_sum _ _ G), (eff_pos SP). fold (L r). rewrite <- qsum_scale. apply qsum_ext. intros j.
          unfold line_weight. rewrite O. rewrite V.
          rewrite (KP _ ((g - inject_Z r / NQ - inject_Z j) * (NQ / MQ))) by (rewrite (GP r); reflexivity). ring. }
      rewrite qsum_scale.
      transitivity (NQ / MQ * (MQ * 1)); [|field; lra]. apply Qmult_comp; [reflexivity|].
      exact (stretched_average (kernel_of k) (native_of k) 1 KP KC (fun g L => C20_kernels k g L Hk) N M g L HN HM HL).
    + rewrite (qsum_ext _ (fun r => ax_scale a * (NQ / MQ) * (NQ / MQ) * qsum (fun j => diff_of k ((g - inject_Z r / NQ - inject_Z j) * (NQ / MQ))) (L r))).
      2:{ intros r. rewrite (slow_sum _ _ G), (eff_pos SP). fold (L r). rewrite <- qsum_scale. apply qsum_ext. intros j.
          unfold line_weight. rewrite O. rewrite V.
          rewrite (DP _ ((g - inject_Z r / NQ - inject_Z j) * (NQ / MQ))) by (rewrite (GP r); reflexivity). ring. }
      rewrite qsum_scale.
      transitivity (ax_scale a * (NQ / MQ) * (NQ / MQ) * (MQ * 0)); [|ring]. apply Qmult_comp; [reflexivity|].
      exact (stretched_average (diff_of k) (native_of k) 0 DP DC (fun g L => diff_lattice k g L Hk) N M g L HN HM HL).
Qed.

(** a whole multiple of the native size *)
Lemma axis_multiple (M : nat) a x : (0 < M)%nat -> eff_support (native_of k) s == inject_Z (native_of k) * inject_Z (Z.of_nat M) ->
  (0 <= ax_period a)%Z ->
  qsum snd (axis_points p h a x) == if (ax_order a =? 0)%Z then 1 else 0.
Proof.
  intros HM E Hp. destruct (getfastmethod p (window_for p h)) as [f|] eqn:G; [apply (fast_sum f _ _ G Hp)|].
  destruct (standard_proper _ Hk) as (kp & KP & DP). destruct (standard_confined _ Hk) as [KC DC].
  assert (KQ : 0 < inject_Z (native_of k)) by (change 0 with (inject_Z 0); rewrite <- Zlt_Qlt; lia).
  assert (MP : 0 < inject_Z (Z.of_nat M)) by (change 0 with (inject_Z 0); rewrite <- Zlt_Qlt; lia).
  pose proof (window_info_ok (native_of k) s kp) as (W1 & _ & _).
  set (e := eff_support (native_of k) s) in *. set (MQ := inject_Z (Z.of_nat M)) in *. set (g := grid_pos a x).
  assert (EP : 0 < e) by (apply eff_support_pos, kp).
  assert (V : inject_Z (native_of k) / e == 1 / MQ) by (rewrite E; field; lra).
  rewrite (slow_sum _ _ G). fold e g.
  set (L := zrange _ _).
  assert (HL : forall j, g - inject_Z (native_of k) / 2 * MQ < inject_Z j <= g + inject_Z (native_of k) / 2 * MQ -> In j L).
  { intros j Hj. apply in_zrange.
    assert (WP : (0 < wi_support (window_for p h))%Z).
    { apply inject_Z_lt_iff. change (inject_Z 0) with 0. unfold window_for. fold k s. lra. }
    rewrite Z2Nat.id by lia. apply first_point_covers; [exact W1|].
    assert (e / 2 == inject_Z (native_of k) / 2 * MQ) by (rewrite E; field). lra. }
  destruct (ax_order a =? 0)%Z eqn:O.
  - rewrite (qsum_ext _ (fun j => 1 / MQ * kernel_of k ((g - inject_Z j) / MQ))).
    2:{ intros j. unfold line_weight. rewrite O. fold g. rewrite V.
        rewrite (KP _ ((g - inject_Z j) / MQ)) by (field; lra). ring. }
    rewrite qsum_scale.
    transitivity (1 / MQ * (MQ * 1)); [|field; lra]. apply Qmult_comp; [reflexivity|].
    exact (stretched (kernel_of k) (native_of k) 1 KP KC (fun g L => C20_kernels k g L Hk) M g L HM (zrange_NoDup _ _) HL).
  - rewrite (qsum_ext _ (fun j => ax_scale a / (MQ * MQ) * diff_of k ((g - inject_Z j) / MQ))).
    2:{ intros j. unfold line_weight. rewrite O. fold g. rewrite V.
        rewrite (DP _ ((g - inject_Z j) / MQ)) by (field; lra). field. lra. }
    rewrite qsum_scale.
    transitivity (ax_scale a / (MQ * MQ) * (MQ * 0)); [|ring]. apply Qmult_comp; [reflexivity|].
    exact (stretched (diff_of k) (native_of k) 0 DP DC (fun g L => diff_lattice k g L Hk) M g L HM (zrange_NoDup _ _) HL).
Qed.

(** a tuned routine is taken for every size that is rounded up to the native one *)
Lemma fast_exists : setup_of k <> None -> (0 < length (pt_axes p) <= 3)%nat ->
  Forall (fun a => ax_order a <= 1)%Z (pt_axes p) -> inject_Z (native_of k) - 1 < s <= inject_Z (native_of k) ->
  exists f, getfastmethod p (window_for p h) = Some f.
Proof.
  intros HS HL HO HB. destruct (standard_proper _ Hk) as (kp & _ & _).
  assert (KQ : 1 <= inject_Z (native_of k)) by (change 1 with (inject_Z 1); rewrite <- Zle_Qle; lia).
  pose proof (window_info_ok (native_of k) s kp) as (W1 & _ & _). rewrite eff_pos in W1 by lra.
  assert (W : wi_support (window_for p h) = native_of k).
  { unfold window_for. fold k s. set (z := wi_support _) in *.
    assert (z - 1 < native_of k)%Z by (apply inject_Z_lt_iff; unfold Z.sub; rewrite inject_Z_plus, inject_Z_opp; change (inject_Z 1) with 1; lra).
    assert (native_of k - 1 < z)%Z by (apply inject_Z_lt_iff; unfold Z.sub; rewrite inject_Z_plus, inject_Z_opp; change (inject_Z 1) with 1; lra).
    lia. }
  assert (FA : fast_allowed (pt_axes p) = true).
  { unfold fast_allowed. apply andb_true_intro. split; [apply Nat.leb_le; lia|].
    apply forallb_forall. rewrite Forall_forall in HO. intros a Ha. apply Z.leb_le, HO, Ha. }
  unfold getfastmethod. rewrite FA, W. unfold k in *.
  destruct (pt_axes p) as [|a1 [|a2 [|a3 [|a4 l]]]]; cbn [length] in *; try lia;
    destruct (pt_kind p); cbn in HS |- *; try congruence; eexists; reflexivity.
Qed.
End Axis.

(** the sizes [support * hsml] for which nothing depends on where the particle is *)
Definition even_size (w : window) (nd : nat) (h : Q) : Prop :=
  let s := inject_Z (w_support w) * h in
  let n := inject_Z (native_of (w_kind w)) in
  s <= 0 \/ (exists M : Z, (0 < M)%Z /\ s == n * inject_Z M) \/
  (match w_kind w with TunedNNB | TunedCIC | TunedTSC | TunedPCS => True | _ => False end
   /\ (nd <= 3)%nat /\ n - 1 < s <= n).

Lemma axis_even w real t d h a x : wf_call real t -> standard (w_kind w) -> full_mesh real t -> wf_diffdir real d ->
  even_size w (length (ar_shape real)) h -> In a (pt_axes (painter_of w real t d)) ->
  qsum snd (axis_points (painter_of w real t d) h a x) == if (ax_order a =? 0)%Z then 1 else 0.
Proof.
  intros Hwf Hk Hm Hd He Ha. set (p := painter_of w real t d) in *.
  assert (Hp : (0 <= ax_period a)%Z) by (apply (axis_in_period w real t d Hwf _ (full_periods _ _ Hm) Ha)).
  assert (KQ : 0 < inject_Z (native_of (w_kind w))).
  { change 0 with (inject_Z 0). rewrite <- Zlt_Qlt. apply (proj1 (standard_proper _ Hk)). }
  destruct He as [He|[(M & HM & He)|(Ht & Hn & He)]].
  - apply (axis_multiple p h Hk 1 a x); [lia| |exact Hp]. unfold eff_support. change (inject_Z (Z.of_nat 1)) with 1.
    rewrite Qmult_1_r. destruct (Qle_bool_case (inject_Z (pt_support p) * h) 0) as [C|C]; [reflexivity|].
    exfalso. change (pt_support p) with (w_support w) in C. lra.
  - apply (axis_multiple p h Hk (Z.to_nat M) a x); [lia| |exact Hp]. rewrite Z2Nat.id by lia. unfold eff_support.
    destruct (Qle_bool_case (inject_Z (pt_support p) * h) 0) as [C|C]; [|exact He].
    exfalso. change (pt_support p) with (w_support w) in C. rewrite He in C.
    assert (0 < inject_Z M) by (change 0 with (inject_Z 0); rewrite <- Zlt_Qlt; lia).
    assert (0 < inject_Z (native_of (w_kind w)) * inject_Z M) by (apply Qmult_lt_0_compat; assumption). lra.
  - destruct (fast_exists p h Hk) as (f & Hf).
    + change (pt_kind p) with (w_kind w). destruct (w_kind w); cbn; congruence.
    + unfold p. rewrite (axes_length w real t d Hwf). pose proof (proj1 Hwf). lia.
    + destruct (axes_spec w real t d Hwf) as (O & _). fold p in O.
      assert (F : Forall (fun z => z <= 1)%Z (map ax_order (pt_axes p))).
      { rewrite O. unfold order_spec. destruct d as [z|]; rewrite Forall_forall; intros o Ho.
        - apply in_map_iff in Ho. destruct Ho as (i & <- & _). destruct (_ =? _)%Z; lia.
        - apply repeat_spec in Ho. lia. }
      rewrite Forall_map in F. exact F.
    + exact He.
    + apply (fast_sum p h Hk f a x Hf Hp).
Qed.

Lemma weights_even w real t h x : wf_call real t -> standard (w_kind w) -> full_mesh real t ->
  even_size w (length (ar_shape real)) h -> length x = length (ar_shape real) ->
  qsum (weight_of (painter_of w real t None) h x) (elements real) == 1.
Proof.
  intros Hwf Hk Hm He Hx. set (p := painter_of w real t None).
  rewrite <- (cells_elements w real t None Hwf). fold p.
  rewrite (weight_total p h x), qprod_ones; [reflexivity| | | |].
  - rewrite Forall_map, Forall_forall. intros [a y] Hay. cbn [fst snd]. pose proof (in_combine_l _ _ _ _ Hay) as Ha.
    unfold p. rewrite (axis_even w real t None h a y Hwf Hk Hm Logic.I He Ha).
    rewrite (order_none w real t None Hwf a eq_refl Ha). reflexivity.
  - apply standard_proper, Hk.
  - unfold p. rewrite (axes_length w real t None Hwf). exact Hx.
  - apply (full_mesh_axes w real t None Hwf Hm).
Qed.
Lemma gradient_even w real t z h x : wf_call real t -> standard (w_kind w) -> full_mesh real t -> wf_diffdir real (Some z) ->
  even_size w (length (ar_shape real)) h -> length x = length (ar_shape real) ->
  qsum (weight_of (painter_of w real t (Some z)) h x) (elements real) == 0.
Proof.
  intros Hwf Hk Hm Hz He Hx. set (p := painter_of w real t (Some z)).
  rewrite <- (cells_elements w real t (Some z) Hwf). fold p.
  destruct (order_some w real t (Some z) Hwf z eq_refl Hz) as (a & Ha & Ho). fold p in Ha.
  destruct (In_nth_error _ _ Ha) as (n & Hn).
  assert (Hlen : length x = length (pt_axes p)) by (unfold p; rewrite (axes_length w real t (Some z) Hwf); exact Hx).
  assert (Hy : exists y, nth_error x n = Some y).
  { destruct (nth_error x n) as [y|] eqn:E; [exists y; reflexivity|]. apply nth_error_None in E.
    assert (n < length (pt_axes p))%nat by (apply nth_error_Some; congruence). lia. }
  destruct Hy as (y & Hy).
  rewrite (weight_total p h x).
  - apply (qprod_zero _ (qsum snd (axis_points p h a y))).
    + apply in_map_iff. exists (a, y). split; [reflexivity|].
      apply (nth_error_In _ n). rewrite nth_error_combine, Hn, Hy. reflexivity.
    + unfold p. rewrite (axis_even w real t (Some z) h a y Hwf Hk Hm Hz He Ha).
      rewrite (proj2 (Z.eqb_neq _ _) Ho). reflexivity.
  - apply standard_proper, Hk.
  - exact Hlen.
  - apply (full_mesh_axes w real t (Some z) Hwf Hm).
Qed.

Lemma parts_weights w real t d pos mass hsml c : length mass = length pos -> length hsml = length pos ->
  (forall x h, In x pos -> In h hsml -> qsum (weight_of (painter_of w real t d) h x) (elements real) == c) ->
  qsum (fun xmh : list Q * Q * Q => snd (fst xmh) *
     qsum (weight_of (painter_of w real t d) (snd xmh) (fst (fst xmh))) (elements real)) (parts_of pos mass hsml)
  == c * qsum (fun q => q) mass.
Proof.
  unfold parts_of. revert mass hsml. induction pos as [|x pos IH]; intros [|q mass] [|h hsml] Hl Hh H; try discriminate.
  - cbn. ring.
  - cbn [combine]. rewrite !qsum_cons. cbn [fst snd].
    rewrite (IH mass hsml); [|injection Hl as Hl; exact Hl|injection Hh as Hh; exact Hh|].
    + rewrite (H x h (or_introl eq_refl) (or_introl eq_refl)). ring.
    + intros y g Hy Hg. apply H; right; assumption.
Qed.

(* ---------- C104 ---------- *)
(** windows of a whole multiple of the native size, whatever mix of smoothing lengths:
    painting conserves mass, reading a constant returns it, gradients of it are zero and
    painting gradients adds no mass *)
Theorem C104_multiples w real t m pos mass hsml :
  wf_call real t -> standard (w_kind w) -> full_mesh real t -> wf_pos real pos ->
  length mass = length pos -> length hsml = length pos ->
  Forall (even_size w (length (ar_shape real))) hsml ->
  (exists m', window_paint w real m pos (Some (Array hsml)) (Some (Array mass)) None (Some t) = Ret m' /\
     total real m' == total real m + qsum (fun q => q) mass) /\
  (forall d, wf_diffdir real (Some d) ->
   exists m', window_paint w real m pos (Some (Array hsml)) (Some (Array mass)) (Some d) (Some t) = Ret m' /\
     total real m' == total real m) /\
  (forall c, (forall idx, In idx (elements real) -> elem real m idx == c) ->
   (exists values, window_readout w real m pos (Some (Array hsml)) None (Some t) = Ret values /\
      length values = length pos /\ Forall (fun v => v == c) values) /\
   (forall d, wf_diffdir real (Some d) ->
    exists values, window_readout w real m pos (Some (Array hsml)) (Some d) (Some t) = Ret values /\
      length values = length pos /\ Forall (fun v => v == 0) values)).
Proof.
  intros Hwf Hk Hm Hpos Hmass Hh He. rewrite Forall_forall in He. unfold wf_pos in Hpos.
  pose proof Hpos as Hpos'. rewrite Forall_forall in Hpos'.
  pose proof (proj1 (standard_proper _ Hk)) as Hn.
  split; [|split; [intros d Hd|intros c Hc; split; [|intros d Hd]]].
  - eexists. split; [apply (window_paint_ok w real t None Logic.I); assumption|].
    rewrite (paint_total w real t None m _ Hwf Hn) by (apply (parts_wf w real t None Hwf); exact Hpos).
    apply Qplus_comp; [reflexivity|]. rewrite (parts_weights w real t None pos mass hsml 1 Hmass Hh); [ring|].
    intros x h Hx Hh'. apply weights_even; try assumption; [apply He, Hh'|apply Hpos', Hx].
  - eexists. split; [apply (window_paint_ok w real t (Some d) Hd); assumption|].
    rewrite (paint_total w real t (Some d) m _ Hwf Hn) by (apply (parts_wf w real t (Some d) Hwf); exact Hpos).
    rewrite (parts_weights w real t (Some d) pos mass hsml 0 Hmass Hh); [ring|].
    intros x h Hx Hh'. apply gradient_even; try assumption; [apply He, Hh'|apply Hpos', Hx].
  - eexists. split; [apply (window_readout_ok w real t None Logic.I); exact Hh|].
    split; [rewrite map_length, combine_length, Hh; apply Nat.min_id|].
    rewrite Forall_map, Forall_forall. intros [x h] Hxh. cbn [fst snd].
    pose proof (in_combine_l _ _ _ _ Hxh) as Hx. pose proof (in_combine_r _ _ _ _ Hxh) as Hh'.
    rewrite (readout_elements w real t None m x h Hwf Hn (Hpos' _ Hx)).
    rewrite (qsum_ext_in _ (fun idx => weight_of (painter_of w real t None) h x idx * c)).
    2:{ intros idx Hi. rewrite (Hc idx Hi). reflexivity. }
    rewrite qsum_scale_r, weights_even; try assumption; [ring|apply He, Hh'|apply Hpos', Hx].
  - eexists. split; [apply (window_readout_ok w real t (Some d) Hd); exact Hh|].
    split; [rewrite map_length, combine_length, Hh; apply Nat.min_id|].
    rewrite Forall_map, Forall_forall. intros [x h] Hxh. cbn [fst snd].
    pose proof (in_combine_l _ _ _ _ Hxh) as Hx. pose proof (in_combine_r _ _ _ _ Hxh) as Hh'.
    rewrite (readout_elements w real t (Some d) m x h Hwf Hn (Hpos' _ Hx)).
    rewrite (qsum_ext_in _ (fun idx => weight_of (painter_of w real t (Some d)) h x idx * c)).
    2:{ intros idx Hi. rewrite (Hc idx Hi). reflexivity. }
    rewrite qsum_scale_r, gradient_even; try assumption; [ring|apply He, Hh'|apply Hpos', Hx].
Qed.
Print Assumptions C104_multiples.
Example C104_case : exists m', window_paint (ResampleWindow Cubic 6) mesh44 (fun a => inject_Z a) [[-(17); 13#10]; [99#7; 5]; [1; 1]]
    (Some (Array [2; 2#3; -(1)])) (Some (Array [5#2; -(3); 1])) None (Some box44) = Ret m' /\
    total mesh44 m' == total mesh44 (fun a => inject_Z a) + (1#2).
Proof.
  destruct (C104_multiples (ResampleWindow Cubic 6) mesh44 box44 (fun a => inject_Z a) [[-(17); 13#10]; [99#7; 5]; [1; 1]]
              [5#2; -(3); 1] [2; 2#3; -(1)]) as ((m' & E & H) & _).
  - apply wf_mesh44; reflexivity.
  - exact Logic.I.
  - split; [reflexivity|repeat constructor].
  - repeat constructor.
  - reflexivity.
  - reflexivity.
  - apply Forall_cons; [|apply Forall_cons; [|apply Forall_cons; [|constructor]]].
    + right; left. exists 3%Z. split; [lia|reflexivity].
    + right; left. exists 1%Z. split; [lia|reflexivity].
    + left. vm_compute. congruence.
  - exists m'. split; [exact E|]. rewrite H. apply Qplus_comp; [reflexivity|]. vm_compute. reflexivity.
Qed.

(** other sizes: conserved on average.  The places one [N]th of a cell apart, along
    every axis *)
Fixpoint sub_grid (N : nat) (scale x : list Q) : list (list Q) :=
  match scale, x with
  | s :: scale, y :: x =>
      flat_map (fun r => map (cons (y - inject_Z r / (inject_Z (Z.of_nat N) * s))) (sub_grid N scale x)) (zrange 0 N)
  | _, _ => [[]]
  end.
Lemma sub_grid_length N scale x : length scale = length x -> length (sub_grid N scale x) = (N ^ length x)%nat.
Proof.
  revert x. induction scale as [|s scale IH]; intros [|y x] H; try discriminate; [reflexivity|].
  cbn [sub_grid length]. injection H as H. rewrite flat_map_concat_map.
  transitivity (length (zrange 0 N) * N ^ length x)%nat; [|rewrite zrange_length; cbn; lia].
  induction (zrange 0 N) as [|r l IHl]; [reflexivity|].
  cbn [map concat length]. rewrite app_length, map_length, IHl, (IH x H). cbn. lia.
Qed.
Lemma sub_grid_shape N scale x : length scale = length x -> Forall (fun y => length y = length x) (sub_grid N scale x).
Proof.
  revert x. induction scale as [|s scale IH]; intros [|y x] H; try discriminate; [repeat constructor|].
  cbn [sub_grid]. injection H as H. rewrite Forall_forall. intros z Hz. apply in_flat_map in Hz. destruct Hz as (r & _ & Hz).
  apply in_map_iff in Hz. destruct Hz as (v & <- & Hv). cbn [length]. f_equal.
  pose proof (IH x H) as F. rewrite Forall_forall in F. apply F, Hv.
Qed.
Lemma sub_grid_prod N (S : axis -> Q -> Q) axes x : length x = length axes ->
  qsum (fun y => qprod (map (fun ax => S (fst ax) (snd ax)) (combine axes y))) (sub_grid N (map ax_scale axes) x) ==
  qprod (map (fun ax => qsum (fun r => S (fst ax) (snd ax - inject_Z r / (inject_Z (Z.of_nat N) * ax_scale (fst ax)))) (zrange 0 N))
             (combine axes x)).
Proof.
  revert x. induction axes as [|a axes IH]; intros [|y x] H; try discriminate.
  - cbn. reflexivity.
  - injection H as H. cbn [map sub_grid combine qprod fst snd]. rewrite qsum_flat_map, <- qsum_scale_r.
    apply qsum_ext. intros r. rewrite qsum_map. cbn [combine map qprod fst snd]. rewrite qsum_scale, (IH x H). reflexivity.
Qed.
Lemma qprod_const c l : Forall (fun x => x == inject_Z c) l -> qprod l == inject_Z (c ^ Z.of_nat (length l)).
Proof.
  induction 1 as [|x l Hx _ IH]; [reflexivity|]. cbn [qprod length]. rewrite IH, Hx.
  rewrite Nat2Z.inj_succ. unfold Z.succ. rewrite Z.pow_add_r, Z.pow_1_r, <- inject_Z_mult by lia. rewrite Z.mul_comm. reflexivity.
Qed.

Theorem C104_average w real t m x q h N M :
  wf_call real t -> standard (w_kind w) -> full_mesh real t -> length x = length (ar_shape real) ->
  Forall (fun s => ~ s == 0) (af_scale t) -> (0 < N)%nat -> (0 < M)%nat ->
  inject_Z (w_support w) * h * inject_Z (Z.of_nat N) == inject_Z (native_of (w_kind w)) * inject_Z (Z.of_nat M) ->
  let pos := sub_grid N (af_scale t) x in
  exists m', window_paint w real m pos (Some (Scalar h)) (Some (Scalar q)) None (Some t) = Ret m' /\
    total real m' == total real m + inject_Z (Z.of_nat (length pos)) * q.
Proof.
  intros Hwf Hk Hm Hx Hs HN HM E pos. set (p := painter_of w real t None).
  pose proof (proj1 (standard_proper _ Hk)) as Hn.
  assert (Ls : length (af_scale t) = length x) by (rewrite Hx; apply Hwf).
  assert (Hpos : wf_pos real pos) by (unfold wf_pos, pos; rewrite <- Hx; apply sub_grid_shape, Ls).
  assert (Sc : map ax_scale (pt_axes p) = af_scale t) by apply (axes_spec w real t None Hwf).
  exists (paint_all p m (parts_of pos (repeat q (length pos)) (repeat h (length pos)))). split.
  - unfold p. rewrite <- (window_paint_ok w real t None Logic.I m pos (repeat q (length pos)) (repeat h (length pos))) by apply repeat_length.
    unfold window_paint, hsml_of, mkarr. rewrite !repeat_length, Nat.eqb_refl. reflexivity.
  - unfold p at 1. rewrite (paint_total w real t None m _ Hwf Hn) by (apply (parts_wf w real t None Hwf); exact Hpos).
    apply Qplus_comp; [reflexivity|]. fold p.
    transitivity (q * qsum (fun y => qsum (weight_of p h y) (elements real)) pos).
    { clear. rewrite <- qsum_scale. unfold parts_of. induction pos as [|y l IH]; [reflexivity|].
      cbn [length repeat combine]. rewrite !qsum_cons, IH. cbn [fst snd]. reflexivity. }
    rewrite (qsum_ext_in _ (fun y => qprod (map (fun ax => qsum snd (axis_points p h (fst ax) (snd ax))) (combine (pt_axes p) y)))).
    2:{ intros y Hy. unfold wf_pos in Hpos. rewrite Forall_forall in Hpos.
        rewrite <- (cells_elements w real t None Hwf). apply weight_total.
        - apply standard_proper, Hk.
        - unfold p. rewrite (axes_length w real t None Hwf). apply Hpos, Hy.
        - apply (full_mesh_axes w real t None Hwf Hm). }
    assert (La : length x = length (pt_axes p)) by (unfold p; rewrite (axes_length w real t None Hwf); exact Hx).
    assert (A : qsum (fun y => qprod (map (fun ax => qsum snd (axis_points p h (fst ax) (snd ax))) (combine (pt_axes p) y))) pos
                == inject_Z (Z.of_nat (length pos))); [|rewrite A; ring].
    unfold pos. rewrite (sub_grid_length N _ x Ls), <- Sc.
    rewrite (sub_grid_prod N (fun a y => qsum snd (axis_points p h a y)) (pt_axes p) x La).
    rewrite (qprod_const (Z.of_nat N)).
    + rewrite map_length, combine_length, La, Nat.min_id, Nat2Z.inj_pow. reflexivity.
    + rewrite Forall_map, Forall_forall. intros [a y] Hay. cbn [fst snd]. pose proof (in_combine_l _ _ _ _ Hay) as Ha.
      rewrite (axis_average p h Hk N M a y).
      * rewrite (order_none w real t None Hwf a eq_refl Ha). reflexivity.
      * split; [exact HN|split; [exact HM|exact E]].
      * apply (axis_in_period w real t None Hwf _ (full_periods _ _ Hm) Ha).
      * rewrite Forall_forall in Hs. apply Hs. rewrite <- Sc. apply in_map, Ha.
Qed.
Print Assumptions C104_average.
Example C104_average_case : exists m',
    window_paint (ResampleWindow Linear 3) mesh44 (fun _ => 0) (sub_grid 2 [1#2; 2] [13#10; 7#3]) None (Some (Scalar 1)) None (Some box44) = Ret m' /\
    total mesh44 m' == 4.
Proof.
  destruct (C104_average (ResampleWindow Linear 3) mesh44 box44 (fun _ => 0) [13#10; 7#3] 1 1 2 3) as (m' & E & H).
  - apply wf_mesh44; reflexivity.
  - exact Logic.I.
  - split; [reflexivity|repeat constructor].
  - reflexivity.
  - repeat constructor; vm_compute; discriminate.
  - lia.
  - lia.
  - vm_compute. reflexivity.
  - exists m'. split; [exact E|]. rewrite H. vm_compute. reflexivity.
Qed.

(* ---------- the sizes are needed ---------- *)
(** one dimension: what painting one particle adds *)
Lemma one_axis w real t m x q h n st sc tr : standard (w_kind w) -> (0 < n)%Z -> (st <> 0)%Z ->
  real = {| ar_shape := [n]; ar_strides := [st] |} -> t = {| af_scale := [sc]; af_translate := [tr]; af_period := [n] |} ->
  let a := {| ax_scale := sc; ax_translate := tr; ax_period := n; ax_order := 0; ax_size := n; ax_stride := st |} in
  exists m', window_paint w real m [[x]] (Some (Scalar h)) (Some (Scalar q)) None (Some t) = Ret m' /\
    total real m' == total real m + q * qsum snd (axis_points {| pt_kind := w_kind w; pt_support := w_support w; pt_axes := [a] |} h a x).
Proof.
  intros Hk Hn Hst -> -> a. set (real := {| ar_shape := [n]; ar_strides := [st] |}).
  set (t := {| af_scale := [sc]; af_translate := [tr]; af_period := [n] |}).
  assert (Hwf : wf_call real t).
  { repeat split; cbn; try lia. intros i j Hi Hj. unfold elements in Hi, Hj. cbn [ar_shape map real] in Hi, Hj.
    apply in_box in Hi. apply in_box in Hj. inversion Hi as [|? i1 ? ? _ Hi2]; subst. inversion Hi2; subst.
    inversion Hj as [|? j1 ? ? _ Hj2]; subst. inversion Hj2; subst.
    unfold byte_offset. intros E. cbn [real ar_strides combine map fold_right fst snd] in E. f_equal.
    apply (Z.mul_reg_l _ _ st Hst). lia. }
  assert (Hm : full_mesh real t) by (split; [reflexivity|repeat constructor; exact Hn]).
  pose proof (proj1 (standard_proper _ Hk)) as Hnat.
  set (p := painter_of w real t None).
  exists (paint_all p m (parts_of [[x]] [q] [h])). split.
  - unfold p. rewrite <- (window_paint_ok w real t None Logic.I m [[x]] [q] [h]) by reflexivity. reflexivity.
  - unfold p. rewrite (paint_total w real t None m _ Hwf Hnat) by (apply (parts_wf w real t None Hwf); repeat constructor).
    apply Qplus_comp; [reflexivity|]. unfold parts_of. cbn [combine]. rewrite qsum_cons, qsum_nil. cbn [fst snd].
    rewrite Qplus_0_r. apply Qmult_comp; [reflexivity|].
    rewrite <- (cells_elements w real t None Hwf).
    rewrite weight_total; [|apply standard_proper, Hk|reflexivity|apply (full_mesh_axes w real t None Hwf Hm)].
    cbn. rewrite Qmult_1_r. reflexivity.
Qed.

Lemma generic_not_fast k n axes w : k = Nearest \/ k = Linear -> getfastmethod {| pt_kind := k; pt_support := n; pt_axes := axes |} w = None.
Proof. intros [->| ->]; unfold getfastmethod; cbn [pt_axes pt_kind]; destruct (fast_allowed axes); reflexivity. Qed.

Lemma resample_support k support : standard k -> (0 < support)%Z -> w_support (ResampleWindow k support) = support.
Proof.
  intros Hk Hs. unfold ResampleWindow. cbn [w_support].
  pose proof (window_info_ok (native_of k) (inject_Z support) (proj1 (standard_proper _ Hk))) as (W & _ & _).
  assert (P : 0 < inject_Z support) by (change 0 with (inject_Z 0); rewrite <- Zlt_Qlt; exact Hs).
  unfold eff_support in W. destruct (Qle_bool_case (inject_Z support) 0) as [C|C]; [lra|].
  set (z := wi_support _) in *. destruct W as [W1 W2].
  assert (support <= z)%Z by (apply inject_Z_le_iff; exact W2).
  assert (z - 1 < support)%Z by (apply inject_Z_lt_iff; unfold Z.sub; rewrite inject_Z_plus, inject_Z_opp; change (inject_Z 1) with 1; lra).
  lia.
Qed.
Lemma nearest_count (v : Z -> Q) L : exists z : Z, qsum (fun j => nearest_kernel (v j)) L == inject_Z z.
Proof.
  induction L as [|j L (z & IH)]; [exists 0%Z; reflexivity|]. rewrite qsum_cons.
  destruct (Qlt_le_dec (v j) (-(1#2))) as [C|C]; [|destruct (Qlt_le_dec (v j) (1#2)) as [D|D]].
  - exists z. rewrite IH, nearest_out by (left; exact C). ring.
  - exists (z + 1)%Z. rewrite IH, nearest_in, inject_Z_plus by assumption. change (inject_Z 1) with 1. ring.
  - exists z. rewrite IH, nearest_out by (right; exact D). ring.
Qed.

(** the nearest window conserves the mass of a particle only if its size is whole,
    wherever the particle is *)
Theorem C104_nearest support m x q h n st sc tr : (0 < n)%Z -> (st <> 0)%Z -> (0 < support)%Z -> 0 < h -> ~ q == 0 ->
  let w := ResampleWindow Nearest support in
  let real := {| ar_shape := [n]; ar_strides := [st] |} in
  let t := {| af_scale := [sc]; af_translate := [tr]; af_period := [n] |} in
  exists m', window_paint w real m [[x]] (Some (Scalar h)) (Some (Scalar q)) None (Some t) = Ret m' /\
    (total real m' == total real m + q <-> exists z : Z, inject_Z support * h == inject_Z z).
Proof.
  intros Hn Hst Hs Hh Hq w real t.
  assert (W : w_support w = support) by (apply resample_support; [exact Logic.I|exact Hs]).
  destruct (one_axis w real t m x q h n st sc tr Logic.I Hn Hst eq_refl eq_refl) as (m' & E & T).
  exists m'. split; [exact E|]. rewrite T. clear E T.
  set (a := {| ax_scale := sc |}) in *. set (p := {| pt_kind := w_kind w; pt_support := w_support w; pt_axes := [a] |}).
  set (s := inject_Z support * h).
  assert (SP : 0 < s).
  { unfold s. apply Qmult_lt_0_compat; [|exact Hh]. change 0 with (inject_Z 0). rewrite <- Zlt_Qlt. exact Hs. }
  assert (G : getfastmethod p (window_for p h) = None) by (apply generic_not_fast; left; reflexivity).
  assert (PS : inject_Z (pt_support p) * h == s) by (unfold s; cbn [p pt_support]; rewrite W; reflexivity).
  split.
  - intros T. assert (T1 : qsum snd (axis_points p h a x) == 1).
    { set (y := qsum snd _) in *. clearbody y.
      assert (T2 : q * (y - 1) == 0) by (setoid_replace (q * (y - 1)) with (q * y - q) by ring; lra).
      apply Qmult_integral in T2. destruct T2 as [T2|T2]; [contradiction|lra]. }
    rewrite (slow_sum p h Logic.I a x G), eff_pos in T1 by (rewrite PS; exact SP).
    rewrite (qsum_ext _ (fun j => 1 / s * nearest_kernel ((grid_pos a x - inject_Z j) * (1 / s)))) in T1.
    2:{ intros j. unfold line_weight. cbn [ax_order a Z.eqb kernel_of native_of p pt_kind w_kind w ResampleWindow].
        rewrite (nearest_kernel_proper _ ((grid_pos a x - inject_Z j) * (1 / s))) by (rewrite <- PS; reflexivity).
        change (inject_Z 1) with 1. setoid_rewrite PS. ring. }
    rewrite qsum_scale in T1.
    destruct (nearest_count (fun j => (grid_pos a x - inject_Z j) * (1 / s)) (zrange (first_point (inject_Z (pt_support p) * h) (wi_support (window_for p h)) (grid_pos a x))
              (Z.to_nat (wi_support (window_for p h))))) as (z & Z).
    exists z. cbv beta in Z. fold s.
    assert (Z' : 1 / s * inject_Z z == 1) by (rewrite <- Z; exact T1).
    transitivity (s * (1 / s * inject_Z z)); [rewrite Z'; ring|field; lra].
  - intros (z & Hz). fold s in Hz.
    assert (ZP : (0 < z)%Z) by (apply inject_Z_lt_iff; change (inject_Z 0) with 0; lra).
    rewrite (axis_multiple p h Logic.I (Z.to_nat z) a x); [cbn [ax_order a Z.eqb]; ring|lia| |cbn; lia].
    rewrite eff_pos by (rewrite PS; exact SP). rewrite PS, Z2Nat.id, Hz by lia.
    cbn [native_of p pt_kind w_kind w ResampleWindow]. ring.
Qed.
Print Assumptions C104_nearest.
Example C104_nearest_case : exists m', window_paint (ResampleWindow Nearest 2) {| ar_shape := [8]%Z; ar_strides := [8]%Z |} (fun _ => 0)
    [[3#5]] (Some (Scalar (5#4))) (Some (Scalar 1)) None (Some {| af_scale := [1]; af_translate := [0]; af_period := [8]%Z |}) = Ret m' /\
    ~ total {| ar_shape := [8]%Z; ar_strides := [8]%Z |} m' == 1.
Proof.
  destruct (C104_nearest 2 (fun _ => 0) (3#5) 1 (5#4) 8 8 1 0) as (m' & E & H); try lia; [reflexivity|discriminate|].
  exists m'. split; [exact E|]. intros T. destruct H as [H _]. destruct H as (z & Hz); [rewrite T; reflexivity|].
  unfold Qeq in Hz. cbn in Hz. lia.
Qed.

(** a particle on a mesh point always gains mass from a linear window of another size *)
Lemma triangle (v : Q) (z : Z) (F : nat) : 0 < v -> inject_Z (Z.of_nat F) * v <= 1 ->
  qsum (fun j => linear_kernel ((inject_Z z - inject_Z j) * v)) (zrange (z - Z.of_nat F) (2 * F + 1)) ==
  (2 * inject_Z (Z.of_nat F) + 1) - v * inject_Z (Z.of_nat F) * (inject_Z (Z.of_nat F) + 1).
Proof.
  intros Hv. induction F as [|F IH]; intros HF.
  - cbn [Z.of_nat Nat.mul Nat.add]. rewrite Z.sub_0_r. cbn [zrange]. rewrite qsum_cons, qsum_nil.
    assert (E : (inject_Z z - inject_Z z) * v == 0) by ring. rewrite E.
    rewrite linear_right by lra. change (inject_Z 0) with 0. ring.
  - assert (NF : inject_Z (Z.of_nat (S F)) == inject_Z (Z.of_nat F) + 1) by (rewrite Nat2Z.inj_succ; unfold Z.succ; rewrite inject_Z_plus; reflexivity).
    assert (F0 : 0 <= inject_Z (Z.of_nat F)) by (change 0 with (inject_Z 0); rewrite <- Zle_Qle; lia).
    assert (FV : 0 <= inject_Z (Z.of_nat F) * v) by (apply Qmult_le_0_compat; lra).
    rewrite NF in HF. assert (HF' : inject_Z (Z.of_nat F) * v + v <= 1) by (rewrite Qmult_plus_distr_l in HF; lra).
    replace (2 * S F + 1)%nat with (S (2 * F + 1) + 1)%nat by lia. rewrite zrange_app, qsum_app.
    cbn [zrange]. rewrite !qsum_cons, qsum_nil.
    replace (z - Z.of_nat (S F) + 1)%Z with (z - Z.of_nat F)%Z by lia.
    replace (z - Z.of_nat (S F) + Z.of_nat (S (2 * F + 1)))%Z with (z + Z.of_nat (S F))%Z by lia.
    rewrite IH by lra.
    rewrite (linear_kernel_proper ((inject_Z z - inject_Z (z - Z.of_nat (S F))) * v) (inject_Z (Z.of_nat F) * v + v))
      by (unfold Z.sub; rewrite inject_Z_plus, inject_Z_opp, NF; ring).
    rewrite (linear_kernel_proper ((inject_Z z - inject_Z (z + Z.of_nat (S F))) * v) (- (inject_Z (Z.of_nat F) * v + v)))
      by (rewrite inject_Z_plus, NF; ring).
    rewrite linear_right, linear_left by lra. rewrite NF. ring.
Qed.
Theorem C104_linear support m x q h n st sc tr z : (0 < n)%Z -> (st <> 0)%Z -> (0 < support)%Z -> 0 < h ->
  x * sc + tr == inject_Z z ->
  let w := ResampleWindow Linear support in
  let real := {| ar_shape := [n]; ar_strides := [st] |} in
  let t := {| af_scale := [sc]; af_translate := [tr]; af_period := [n] |} in
  let size := inject_Z support * h / 2 in
  let part := size - inject_Z (Qfloor size) in
  exists m', window_paint w real m [[x]] (Some (Scalar h)) (Some (Scalar q)) None (Some t) = Ret m' /\
    total real m' == total real m + q * (1 + part * (1 - part) / (size * size)) /\
    (size == inject_Z (Qfloor size) \/ 0 < part * (1 - part) / (size * size)).
Proof.
  intros Hn Hst Hs Hh Hx w real t size part.
  assert (W : w_support w = support) by (apply resample_support; [exact Logic.I|exact Hs]).
  destruct (one_axis w real t m x q h n st sc tr Logic.I Hn Hst eq_refl eq_refl) as (m' & E & T).
  assert (ZP : 0 < size).
  { assert (0 < inject_Z support) by (change 0 with (inject_Z 0); rewrite <- Zlt_Qlt; exact Hs).
    unfold size. apply Qlt_shift_div_l; [lra|]. rewrite Qmult_0_l. apply Qmult_lt_0_compat; assumption. }
  exists m'. split; [exact E|split].
  2:{ pose proof (Qfloor_bounds size) as FB. fold part. destruct (Qlt_le_dec 0 part) as [C|C]; [right|left; unfold part in C; lra].
      apply Qlt_shift_div_l; [apply Qmult_lt_0_compat; exact ZP|]. rewrite Qmult_0_l.
      apply Qmult_lt_0_compat; [exact C|unfold part; lra]. }
  rewrite T. clear E T. apply Qplus_comp; [reflexivity|]. apply Qmult_comp; [reflexivity|].
  set (a := {| ax_scale := sc |}) in *. set (p := {| pt_kind := w_kind w; pt_support := w_support w; pt_axes := [a] |}).
  set (s := inject_Z (pt_support p) * h).
  assert (HS : s == 2 * size) by (unfold s, size; cbn [p pt_support]; rewrite W; field).
  assert (SP : 0 < s).
  { unfold s. cbn [p pt_support]. rewrite W. apply Qmult_lt_0_compat; [|exact Hh]. change 0 with (inject_Z 0). rewrite <- Zlt_Qlt. exact Hs. }
  assert (G : getfastmethod p (window_for p h) = None) by (apply generic_not_fast; right; reflexivity).
  rewrite (slow_sum p h Logic.I a x G). rewrite (eff_pos p h SP). fold s.
  set (v := 1 / size). assert (VP : 0 < v) by (unfold v; apply Qlt_shift_div_l; lra).
  assert (GX : grid_pos a x == inject_Z z) by exact Hx.
  rewrite (qsum_ext _ (fun j => v * linear_kernel ((inject_Z z - inject_Z j) * v))).
  2:{ intros j. unfold line_weight. cbn [ax_order a Z.eqb kernel_of native_of p pt_kind w_kind w ResampleWindow].
      fold a. fold p. assert (V : inject_Z 2 / s == v) by (unfold v; rewrite HS; change (inject_Z 2) with 2; field; lra).
      rewrite (linear_kernel_proper _ ((inject_Z z - inject_Z j) * v)) by (rewrite GX, V; reflexivity). rewrite V. ring. }
  rewrite qsum_scale.
  pose proof (Qfloor_bounds size) as FB. set (F := Qfloor size) in *.
  assert (F0 : (0 <= F)%Z) by (assert (- (1) < F)%Z by (apply inject_Z_lt_iff; change (inject_Z (-(1))) with (-(1)); lra); lia).
  assert (SV : size * v == 1) by (unfold v; field; lra).
  set (L := zrange (first_point _ _ _) _).
  rewrite (qsum_support _ L (zrange (z - Z.of_nat (Z.to_nat F)) (2 * Z.to_nat F + 1)) Z.eq_dec (zrange_NoDup _ _) (zrange_NoDup _ _)).
  - rewrite triangle; [|exact VP|].
    + rewrite Z2Nat.id by exact F0. unfold v, part. fold F. field. lra.
    + rewrite Z2Nat.id by exact F0. assert (B : inject_Z F * v <= size * v) by (apply Qmult_le_compat_r; lra). lra.
  - intros j Hj.
    assert (J : - (1) < (inject_Z z - inject_Z j) * v < 1).
    { destruct (Qlt_le_dec (-(1)) ((inject_Z z - inject_Z j) * v)) as [C|C]; [|elim Hj; apply linear_out; left; exact C].
      destruct (Qlt_le_dec ((inject_Z z - inject_Z j) * v) 1) as [D|D]; [|elim Hj; apply linear_out; right; exact D].
      split; assumption. }
    assert (JS : (inject_Z z - inject_Z j) * v * size == inject_Z z - inject_Z j) by (unfold v; field; lra).
    assert (J1 : - (1) * size < (inject_Z z - inject_Z j) * v * size) by (apply Qmult_lt_compat_r; lra).
    assert (J2 : (inject_Z z - inject_Z j) * v * size < 1 * size) by (apply Qmult_lt_compat_r; lra).
    rewrite JS in J1, J2.
    split; intros _; apply in_zrange.
    + rewrite Nat2Z.inj_add, Nat2Z.inj_mul, Z2Nat.id by exact F0. change (Z.of_nat 2) with 2%Z. change (Z.of_nat 1) with 1%Z.
      assert (z - j < F + 1)%Z by (apply inject_Z_lt_iff; unfold Z.sub; rewrite !inject_Z_plus, inject_Z_opp; change (inject_Z 1) with 1; lra).
      assert (j - z < F + 1)%Z by (apply inject_Z_lt_iff; unfold Z.sub; rewrite !inject_Z_plus, inject_Z_opp; change (inject_Z 1) with 1; lra).
      lia.
    + pose proof (window_info_ok 2 s ltac:(lia)) as (W1 & _ & _).
      change 2%Z with (native_of (pt_kind p)) in W1. unfold s in W1. rewrite (eff_pos p h SP) in W1. fold s in W1.
      change (window_info_init (native_of (pt_kind p)) s) with (window_for p h) in W1.
      assert (WP : (0 < wi_support (window_for p h))%Z) by (apply inject_Z_lt_iff; change (inject_Z 0) with 0; lra).
      rewrite Z2Nat.id by lia. apply first_point_covers; [exact W1|]. rewrite GX.
      assert (H2 : s / 2 == size) by (rewrite HS; field). rewrite H2. lra.
Qed.
Print Assumptions C104_linear.
Example C104_linear_case : exists m', window_paint (ResampleWindow Linear 3) {| ar_shape := [8]%Z; ar_strides := [8]%Z |} (fun _ => 0)
    [[3]] (Some (Scalar 1)) (Some (Scalar 1)) None (Some {| af_scale := [1]; af_translate := [0]; af_period := [8]%Z |}) = Ret m' /\
    total {| ar_shape := [8]%Z; ar_strides := [8]%Z |} m' == 10#9.
Proof.
  destruct (C104_linear 3 (fun _ => 0) 3 1 1 8 8 1 0 3) as (m' & E & H & _); try lia; [reflexivity|reflexivity|].
  exists m'. split; [exact E|]. rewrite H. vm_compute. reflexivity.
Qed.

(** the wider windows and the tuned ones: particles that do not keep their mass *)
Definition line8 : array := {| ar_shape := [8]%Z; ar_strides := [8]%Z |}.
Definition box8 : affine := {| af_scale := [1]; af_translate := [0]; af_period := [8]%Z |}.
Theorem C104_others : forall k, In k [Quadratic; Cubic; TunedCIC; TunedTSC; TunedPCS] ->
  exists m', window_paint (ResampleWindow k (native_of k + 1)) line8 (fun _ => 0) [[3]] None None None (Some box8) = Ret m' /\
    ~ total line8 m' == 1.
Proof.
  intros k Hk. cbn [In] in Hk.
  repeat (destruct Hk as [<-|Hk]; [eexists; split; [reflexivity|vm_compute; discriminate]|]). contradiction.
Qed.
Print Assumptions C104_others.
