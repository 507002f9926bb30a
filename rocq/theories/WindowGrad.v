(** The gradient windows are the derivatives of the windows. *)
From Coq Require Import List Arith ZArith QArith Qabs Qround Lia Lqa Bool Setoid Morphisms Permutation.
From Verif Require Import Base ListFacts WrapModel WrapProofs DomainModel DomainFill QSum WindowModel WindowStencil WindowSpread WindowKernels WindowAxis WindowNative WindowPoints.
Import ListNotations.
Local Open Scope Q_scope.

Definition with_order (o : Z) (a : axis) : axis :=
  {| ax_scale := ax_scale a; ax_translate := ax_translate a; ax_period := ax_period a;
     ax_order := o; ax_size := ax_size a; ax_stride := ax_stride a |}.

(** once differentiable, with a derivative that is Lipschitz *)
Definition smooth (k : kind) : Prop :=
  match k with Quadratic | Cubic | TunedTSC | TunedPCS => True | _ => False end.
Lemma smooth_standard k : smooth k -> standard k.
Proof. destruct k; cbn; tauto. Qed.
Lemma smooth_tangent k x y : smooth k -> tangent (kernel_of k) (diff_of k) 2 x y.
Proof. destruct k; cbn; try tauto; intros _; first [apply quadratic_tangent|apply cubic_tangent]. Qed.
Lemma standard_unit k x : standard k -> 0 <= kernel_of k x <= 1.
Proof.
  destruct k; cbn; try tauto; intros _;
    first [apply nearest_unit|apply linear_unit|apply quadratic_unit|apply cubic_unit].
Qed.

(** a list of mesh points that covers two positions *)
Lemma common_cover e n g g' : inject_Z n - 1 < e <= inject_Z n -> (0 < n)%Z ->
  exists L, covers e g L /\ covers e g' L /\ (length L <= 2 * Z.to_nat n)%nat.
Proof.
  intros He Hn. set (L := zrange (first_point e n g) (Z.to_nat n) ++ zrange (first_point e n g') (Z.to_nat n)).
  exists (nodup Z.eq_dec L). repeat split; try apply NoDup_nodup.
  - intros j Hj. apply nodup_In, in_or_app. left. apply in_zrange.
    pose proof (first_point_covers _ _ _ _ He Hj). lia.
  - intros j Hj. apply nodup_In, in_or_app. right. apply in_zrange.
    pose proof (first_point_covers _ _ _ _ He Hj). lia.
  - assert (I : incl (nodup Z.eq_dec L) L) by (intros j Hj; eapply nodup_In, Hj).
    pose proof (NoDup_incl_length (NoDup_nodup Z.eq_dec L) I) as H.
    unfold L in H at 2. rewrite app_length, !zrange_length in H. lia.
Qed.

Lemma Qabs_qsum_le {A} (f : A -> Q) l c : (forall a, In a l -> Qabs (f a) <= c) ->
  Qabs (qsum f l) <= inject_Z (Z.of_nat (length l)) * c.
Proof.
  intros H. eapply Qle_trans; [apply qsum_Qabs|]. rewrite <- qsum_const. apply qsum_le, H.
Qed.

(** one axis, the generic routine *)
Lemma generic_tangent k s a x x' i : smooth k ->
  let w := window_info_init (native_of k) s in
  let v := inject_Z (native_of k) / eff_support (native_of k) s in
  Qabs (wsum (generic_points k w (with_order 0 a) x') i - wsum (generic_points k w (with_order 0 a) x) i
        - (x' - x) * wsum (generic_points k w (with_order 1 a) x) i)
  <= inject_Z (2 * wi_support w) * (v * v * v) * ((ax_scale a * (x' - x)) * (ax_scale a * (x' - x))).
Proof.
  intros Hk. cbv zeta. pose proof (smooth_standard _ Hk) as Hs.
  pose proof (standard_proper _ Hs) as Hp. pose proof (standard_confined _ Hs) as Hc.
  set (w := window_info_init (native_of k) s). set (e := eff_support (native_of k) s).
  set (v := inject_Z (native_of k) / e).
  destruct (window_info_ok (native_of k) s (proj1 Hp)) as (He & _ & _). fold w e in He.
  assert (Hn : (0 < wi_support w)%Z) by (apply window_info_support, Hp).
  assert (Hv : 0 < v).
  { unfold v. apply Qlt_shift_div_l; [apply eff_support_pos, Hp|]. rewrite Qmult_0_l.
    change 0 with (inject_Z 0). rewrite <- Zlt_Qlt. apply Hp. }
  destruct (common_cover e _ (grid_pos a x) (grid_pos a x') He Hn) as (L & C1 & C2 & HL).
  unfold w. rewrite (generic_wsum k s (with_order 0 a) x' i L Hp Hc C2),
    (generic_wsum k s (with_order 0 a) x i L Hp Hc C1), (generic_wsum k s (with_order 1 a) x i L Hp Hc C1).
  fold e w. unfold line_sum. rewrite <- qsum_scale, <- !qsum_minus.
  set (r := (ax_scale a * (x' - x)) * (ax_scale a * (x' - x))).
  assert (Hr : 0 <= r) by (apply Qsq_nonneg).
  assert (Hvvv : 0 <= v * v * v) by (apply Qmult_le_0_compat; [apply Qmult_le_0_compat|]; lra).
  eapply Qle_trans; [apply (Qabs_qsum_le _ _ (v * v * v * r))|].
  2:{ rewrite (Qmult_assoc (inject_Z _)). apply Qmult_le_compat_r; [|exact Hr]. apply Qmult_le_compat_r; [|exact Hvvv].
      rewrite <- Zle_Qle. lia. }
  intros j _. change (wrap_axis (with_order 0 a)) with (wrap_axis a). change (wrap_axis (with_order 1 a)) with (wrap_axis a).
  destruct (wrap_axis a j =? i)%Z.
  2:{ setoid_replace (0 - 0 - (x' - x) * 0) with 0 by ring. cbn [Qabs Z.abs]. change (Qabs 0) with 0.
      apply Qmult_le_0_compat; assumption. }
  unfold line_weight. cbn [with_order ax_order Z.eqb ax_scale]. fold v.
  change (grid_pos (with_order 0 a)) with (grid_pos a). change (grid_pos (with_order 1 a)) with (grid_pos a).
  set (y := (grid_pos a x - inject_Z j) * v). set (y' := (grid_pos a x' - inject_Z j) * v).
  destruct (smooth_tangent k y y' Hk) as [T _].
  assert (Y : y' - y == ax_scale a * (x' - x) * v) by (unfold y, y', grid_pos; ring).
  setoid_replace (kernel_of k y' * v - kernel_of k y * v - (x' - x) * (diff_of k y * ax_scale a * v * v))
    with ((kernel_of k y' - kernel_of k y - diff_of k y * (y' - y)) * v) by (rewrite Y; ring).
  rewrite Qabs_Qmult, (Qabs_pos v) by lra.
  setoid_replace (v * v * v * r) with (2 * (1#2) * ((y' - y) * (y' - y)) * v) by (rewrite Y; unfold r; ring).
  apply Qmult_le_compat_r; [exact T|lra].
Qed.

Lemma generic_bound k s a x i : standard k ->
  let w := window_info_init (native_of k) s in
  let v := inject_Z (native_of k) / eff_support (native_of k) s in
  Qabs (wsum (generic_points k w (with_order 0 a) x) i) <= inject_Z (wi_support w) * v.
Proof.
  intros Hs. cbv zeta. pose proof (standard_proper _ Hs) as Hp.
  set (w := window_info_init (native_of k) s). set (e := eff_support (native_of k) s).
  set (v := inject_Z (native_of k) / e).
  assert (Hn : (0 < wi_support w)%Z) by (apply window_info_support, Hp).
  assert (Hv : 0 < v).
  { unfold v. apply Qlt_shift_div_l; [apply eff_support_pos, Hp|]. rewrite Qmult_0_l.
    change 0 with (inject_Z 0). rewrite <- Zlt_Qlt. apply Hp. }
  pose proof (generic_points_line k s (with_order 0 a) x Hp) as F. cbv zeta in F. fold w e in F.
  rewrite (pair_eq_wsum _ _ i F). unfold wsum. rewrite qsum_map. cbn [fst snd].
  eapply Qle_trans; [apply (Qabs_qsum_le _ _ v)|].
  2:{ rewrite zrange_length, Z2Nat.id by lia. lra. }
  intros j _. change (wrap_axis (with_order 0 a)) with (wrap_axis a). destruct (wrap_axis a j =? i)%Z; [|change (Qabs 0) with 0; lra].
  unfold line_weight. cbn [with_order ax_order Z.eqb]. fold v.
  match goal with |- context [kernel_of k ?y] => pose proof (standard_unit k y Hs) as [U1 U2]; set (q := kernel_of k y) in * end.
  rewrite Qabs_pos by (apply Qmult_le_0_compat; lra). nra.
Qed.

(** one axis of a painter *)
Definition grad_axis_ok (p : painter) (h : Q) (a : axis) : Prop :=
  getfastmethod p (window_for p h) <> None -> pt_kind p = TunedPCS -> ax_scale a == 1.

Lemma native_eq_generic k a x : proper_kind k ->
  Forall2 pair_eq (native_line k a x) (generic_points k (window_info_init (native_of k) (inject_Z (native_of k))) a x).
Proof. intros H. apply pair_eq_sym, generic_points_native; [exact H|reflexivity]. Qed.

Lemma with_order_period o a : ax_period (with_order o a) = ax_period a.
Proof. reflexivity. Qed.

Theorem axis_tangent p h : smooth (pt_kind p) ->
  exists C, 0 <= C /\ forall a x x' i, (0 <= ax_period a)%Z -> grad_axis_ok p h a ->
  Qabs (wsum (axis_points p h (with_order 0 a) x') i - wsum (axis_points p h (with_order 0 a) x) i
        - (x' - x) * wsum (axis_points p h (with_order 1 a) x) i)
  <= C * ((ax_scale a * (x' - x)) * (ax_scale a * (x' - x))).
Proof.
  intros Hk. pose proof (smooth_standard _ Hk) as Hs. pose proof (standard_proper _ Hs) as Hp.
  assert (P : forall s, 0 <= inject_Z (2 * wi_support (window_info_init (native_of (pt_kind p)) s)) *
     (inject_Z (native_of (pt_kind p)) / eff_support (native_of (pt_kind p)) s *
      (inject_Z (native_of (pt_kind p)) / eff_support (native_of (pt_kind p)) s) *
      (inject_Z (native_of (pt_kind p)) / eff_support (native_of (pt_kind p)) s))).
  { intros s. pose proof (window_info_support (native_of (pt_kind p)) s (proj1 Hp)) as Hn.
    assert (Hv : 0 < inject_Z (native_of (pt_kind p)) / eff_support (native_of (pt_kind p)) s).
    { apply Qlt_shift_div_l; [apply eff_support_pos, Hp|]. rewrite Qmult_0_l.
      change 0 with (inject_Z 0). rewrite <- Zlt_Qlt. apply Hp. }
    apply Qmult_le_0_compat; [change 0 with (inject_Z 0); rewrite <- Zle_Qle; lia|].
    apply Qmult_le_0_compat; [apply Qmult_le_0_compat|]; lra. }
  unfold axis_points, grad_axis_ok. destruct (getfastmethod p (window_for p h)) as [f|] eqn:G.
  - destruct (getfastmethod_setup _ _ _ G) as (S & _).
    eexists. split; [apply (P (inject_Z (native_of (pt_kind p))))|]. intros a x x' i Ha Hg.
    rewrite (pair_eq_wsum _ _ i (tuned_points_line _ _ (with_order 0 a) x' S Ha (or_introl eq_refl))).
    rewrite (pair_eq_wsum _ _ i (tuned_points_line _ _ (with_order 0 a) x S Ha (or_introl eq_refl))).
    assert (Hgrad : grad_ok (pt_kind p) (with_order 1 a) x).
    { right. destruct (pt_kind p); cbn in Hk; try tauto. apply Hg; [discriminate|reflexivity]. }
    rewrite (pair_eq_wsum _ _ i (tuned_points_line _ _ (with_order 1 a) x S Ha Hgrad)).
    rewrite !(pair_eq_wsum _ _ i (native_eq_generic _ _ _ Hp)).
    apply (generic_tangent _ _ _ _ _ _ Hk).
  - eexists. split; [apply (P (inject_Z (pt_support p) * h))|]. intros a x x' i _ _.
    apply (generic_tangent _ _ _ _ _ _ Hk).
Qed.

Theorem axis_bound p h : standard (pt_kind p) ->
  exists B, 0 <= B /\ forall a x i, (0 <= ax_period a)%Z ->
  Qabs (wsum (axis_points p h (with_order 0 a) x) i) <= B.
Proof.
  intros Hs. pose proof (standard_proper _ Hs) as Hp.
  unfold axis_points. destruct (getfastmethod p (window_for p h)) as [f|] eqn:G.
  - destruct (getfastmethod_setup _ _ _ G) as (S & _).
    eexists. split; [|intros a x i Ha;
      rewrite (pair_eq_wsum _ _ i (tuned_points_line _ _ (with_order 0 a) x S Ha (or_introl eq_refl)));
      rewrite (pair_eq_wsum _ _ i (native_eq_generic _ _ _ Hp)); apply (generic_bound _ _ _ _ _ Hs)].
    pose proof (generic_bound (pt_kind p) (inject_Z (native_of (pt_kind p))) (with_order 0 (nth 0 (pt_axes p) {| ax_scale := 1; ax_translate := 0; ax_period := 0; ax_order := 0; ax_size := 0; ax_stride := 0|})) 0 0 Hs) as B.
    cbv zeta in B. eapply Qle_trans; [|exact B]. apply Qabs_nonneg.
  - eexists. split; [|intros a x i _; apply (generic_bound _ _ _ _ _ Hs)].
    pose proof (generic_bound (pt_kind p) (inject_Z (pt_support p) * h) (with_order 0 (nth 0 (pt_axes p) {| ax_scale := 1; ax_translate := 0; ax_period := 0; ax_order := 0; ax_size := 0; ax_stride := 0|})) 0 0 Hs) as B.
    cbv zeta in B. eapply Qle_trans; [|exact B]. apply Qabs_nonneg.
Qed.

(* ---------- all axes ---------- *)
Definition qpow (b : Q) (n : nat) : Q := qprod (repeat b n).
Lemma qpow_nonneg b n : 0 <= b -> 0 <= qpow b n.
Proof. intros H. induction n; [apply Qle_bool_iff; reflexivity|]. apply Qmult_le_0_compat; assumption. Qed.
Lemma qpow_S b n : qpow b (S n) = b * qpow b n.
Proof. reflexivity. Qed.

Section Spread.
Variables (f : axis -> Q -> list (Z * Q)) (B : Q).
Hypothesis HB : 0 <= B.
Let order0 (axes : list axis) := map (with_order 0) axes.
(** axis [d] differentiated *)
Definition order1 (axes : list axis) (d : nat) : list axis :=
  upd d (fun a => with_order 1 a) (map (with_order 0) axes).

Lemma spread_bound axes pos idx :
  (forall a x i, In a axes -> Qabs (wsum (f (with_order 0 a) x) i) <= B) ->
  length pos = length axes -> length idx = length axes ->
  Qabs (spread (points_with f (order0 axes) pos) idx) <= qpow B (length axes).
Proof.
  revert pos idx. induction axes as [|a axes IH]; intros [|x pos] [|i idx] H L1 L2; try discriminate L1; try discriminate L2.
  - apply Qle_refl.
  - cbn [order0 map points_with spread length]. rewrite Qabs_Qmult, qpow_S.
    apply Qmult_le_compat_nonneg; (split; [apply Qabs_nonneg|]).
    + apply H. left. reflexivity.
    + apply IH; [intros b y j Hb; apply H; right; exact Hb| |]; cbn [length] in *; lia.
Qed.

Lemma order1_0 a axes : order1 (a :: axes) 0 = with_order 1 a :: order0 axes.
Proof. reflexivity. Qed.
Lemma order1_S a axes d : order1 (a :: axes) (S d) = with_order 0 a :: order1 axes d.
Proof. reflexivity. Qed.

Theorem spread_tangent axes pos idx d h eps a0 :
  (forall a x i, In a axes -> Qabs (wsum (f (with_order 0 a) x) i) <= B) ->
  length pos = length axes -> length idx = length axes -> (d < length axes)%nat ->
  (forall i, Qabs (wsum (f (with_order 0 (nth d axes a0)) (nth d pos 0 + h)) i - wsum (f (with_order 0 (nth d axes a0)) (nth d pos 0)) i
     - h * wsum (f (with_order 1 (nth d axes a0)) (nth d pos 0)) i) <= eps) ->
  Qabs (spread (points_with f (order0 axes) (upd d (fun x => x + h) pos)) idx
        - spread (points_with f (order0 axes) pos) idx
        - h * spread (points_with f (order1 axes d) pos) idx) <= qpow B (length axes - 1) * eps.
Proof.
  revert axes pos idx. induction d as [|d IH]; intros [|a axes] [|x pos] [|i idx] Hb L1 L2 Hd Ht; try (cbn in *; lia).
  - cbn [nth upd] in *. rewrite order1_0. cbn [order0 map points_with spread length].
    fold (order0 axes). set (S := spread (points_with f (order0 axes) pos) idx).
    replace (Datatypes.S (length axes) - 1)%nat with (length axes) by lia.
    match goal with |- Qabs ?e <= _ =>
      setoid_replace e with (S * (wsum (f (with_order 0 a) (x + h)) i - wsum (f (with_order 0 a) x) i - h * wsum (f (with_order 1 a) x) i)) by ring end.
    rewrite Qabs_Qmult. apply Qmult_le_compat_nonneg; (split; [apply Qabs_nonneg|]).
    + apply spread_bound; [intros b y j Hj; apply Hb; right; exact Hj| |]; cbn [length] in *; lia.
    + apply Ht.
  - cbn [nth upd] in *. rewrite order1_S. cbn [order0 map points_with spread length]. fold (order0 axes).
    match goal with |- Qabs (?W * ?a1 - ?W * ?a2 - h * (?W * ?a3)) <= _ =>
      setoid_replace (W * a1 - W * a2 - h * (W * a3)) with (W * (a1 - a2 - h * a3)) by ring end.
    rewrite Qabs_Qmult. cbn [length] in *.
    replace (Datatypes.S (length axes) - 1)%nat with (Datatypes.S (length axes - 1)) by lia.
    rewrite qpow_S, <- Qmult_assoc.
    apply Qmult_le_compat_nonneg; (split; [apply Qabs_nonneg|]).
    + apply Hb. left. reflexivity.
    + apply IH; [intros b y j Hj; apply Hb; right; exact Hj|lia|lia|lia|exact Ht].
Qed.
End Spread.

(** the linear and nearest windows, between the mesh points *)
Lemma native_wsum k a x i L : standard k -> covers (inject_Z (native_of k)) (grid_pos a x) L ->
  wsum (native_line k a x) i == qsum (fun j => if (wrap_axis a j =? i)%Z then
     (if (ax_order a =? 0)%Z then kernel_of k (grid_pos a x - inject_Z j)
      else diff_of k (grid_pos a x - inject_Z j) * ax_scale a) else 0) L.
Proof.
  intros Hs Hc. pose proof (standard_proper _ Hs) as Hp.
  rewrite (pair_eq_wsum _ _ i (native_eq_generic _ _ _ Hp)).
  destruct (window_info_native k (inject_Z (native_of k)) Hp ltac:(reflexivity)) as [_ E].
  assert (C : covers (eff_support (native_of k) (inject_Z (native_of k))) (grid_pos a x) L).
  { destruct Hc as [N H]. split; [exact N|]. intros j Hj. apply H. rewrite E in Hj. exact Hj. }
  rewrite (generic_wsum k _ a x i L Hp (standard_confined _ Hs) C). unfold line_sum. apply qsum_ext. intros j.
  destruct (wrap_axis a j =? i)%Z; [|reflexivity].
  rewrite (line_weight_comp _ _ _ _ _ _ Hp E). apply line_weight_native, Hp.
Qed.

Lemma wsum_cons j w l i : wsum ((j, w) :: l) i == (if (j =? i)%Z then w else 0) + wsum l i.
Proof. reflexivity. Qed.

(** cic: exactly linear inside of a cell *)
Theorem cic_linear k a x x' i :
  kernel_of k = linear_kernel -> diff_of k = linear_diff -> native_of k = 2%Z -> standard k ->
  inject_Z (Qfloor (grid_pos a x)) < grid_pos a x ->
  inject_Z (Qfloor (grid_pos a x)) <= grid_pos a x' <= inject_Z (Qfloor (grid_pos a x)) + 1 ->
  wsum (native_line k (with_order 0 a) x') i - wsum (native_line k (with_order 0 a) x) i ==
  (x' - x) * wsum (native_line k (with_order 1 a) x) i.
Proof.
  intros HK HD Hn Hs H1 H2. destruct (Qfloor_bounds (grid_pos a x)) as [_ H3].
  set (I := Qfloor (grid_pos a x)) in *.
  set (L := zrange (I - 1) 4).
  assert (C : forall y, inject_Z I <= grid_pos a y <= inject_Z I + 1 -> covers (inject_Z (native_of k)) (grid_pos a y) L).
  { intros y Hy. rewrite Hn. split; [apply zrange_NoDup|]. intros j [J1 J2]. apply in_zrange.
    assert (T : inject_Z 2 / 2 == 1) by reflexivity. rewrite T in J1, J2. cbn [Z.of_nat Pos.of_succ_nat Pos.succ].
    assert (A1 : inject_Z (I - 1) < inject_Z j) by (zq; lra).
    assert (A2 : inject_Z j <= inject_Z (I + 2)) by (zq; change (inject_Z 2) with 2; lra).
    rewrite <- Zlt_Qlt in A1. rewrite <- Zle_Qle in A2. lia. }
  rewrite !(native_wsum k _ _ i L Hs) by (apply C; lra).
  rewrite <- qsum_minus, <- qsum_scale. apply qsum_ext. intros j.
  change (wrap_axis (with_order 0 a)) with (wrap_axis a). change (wrap_axis (with_order 1 a)) with (wrap_axis a).
  destruct (wrap_axis a j =? i)%Z; [|ring]. cbn [with_order ax_order Z.eqb ax_scale].
  change (grid_pos (with_order 0 a)) with (grid_pos a). change (grid_pos (with_order 1 a)) with (grid_pos a).
  rewrite HK, HD. rewrite linear_tangent.
  - unfold grid_pos. ring.
  - unfold same_piece.
    destruct (Z_lt_le_dec j I) as [J|J]; [|destruct (Z.eq_dec j I) as [->|J']; [|destruct (Z.eq_dec j (I + 1)) as [->|J'']]].
    + assert (inject_Z j <= inject_Z I - 1).
      { change 1 with (inject_Z 1). unfold Qminus. rewrite <- inject_Z_opp, <- inject_Z_plus, <- Zle_Qle. lia. }
      right. right. right. split; lra.
    + right. right. left. split; lra.
    + right. left. rewrite inject_Z_plus. change (inject_Z 1) with 1. split; lra.
    + assert (inject_Z I + 1 + 1 <= inject_Z j).
      { change 1 with (inject_Z 1). rewrite <- !inject_Z_plus, <- Zle_Qle. lia. }
      left. split; lra.
Qed.
