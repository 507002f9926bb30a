(** How the weights of a window change with the position of the particle, along all axes
    at once.  Used for C81. *)
From Coq Require Import List Arith ZArith QArith Qabs Qround Lqa Lia Bool Sorted Permutation Setoid Morphisms.
From Verif Require Import Base ListFacts LayoutModel LayoutSpec LayoutProofs LayoutModes LayoutMore WrapModel WrapProofs DomainModel DomainFill DomainGeom DomainTargets
  DomainHome DomainProperties QSum WindowModel WindowStencil WindowSpread WindowKernels WindowAxis WindowNative WindowApi WindowPoints
  WindowGrad WindowTranslate WindowTables WindowProperties WindowProperties2 WindowProperties3.
Import ListNotations.
Local Open Scope Q_scope.

Lemma Qabs_mult_le a b x y : Qabs a <= x -> Qabs b <= y -> Qabs (a * b) <= x * y.
Proof. intros H1 H2. rewrite Qabs_Qmult. apply Qmult_le_compat_nonneg; (split; [apply Qabs_nonneg|assumption]). Qed.
Lemma Qabs_add_le a b x y : Qabs a <= x -> Qabs b <= y -> Qabs (a + b) <= x + y.
Proof. intros H1 H2. eapply Qle_trans; [apply Qabs_triangle|]. lra. Qed.

(** one axis: bounded, with a bounded slope, and close to the linear approximation *)
Definition axis_near (f : axis -> Q -> list (Z * Q)) (K : Q) (a : axis) (x y : Q) : Prop := forall i,
  Qabs (wsum (f (with_order 0 a) x) i) <= K /\
  Qabs (wsum (f (with_order 0 a) y) i) <= K /\
  Qabs (wsum (f (with_order 1 a) x) i) <= K /\
  Qabs (wsum (f (with_order 0 a) y) i - wsum (f (with_order 0 a) x) i) <= K * Qabs (y - x) /\
  Qabs (wsum (f (with_order 0 a) y) i - wsum (f (with_order 0 a) x) i - (y - x) * wsum (f (with_order 1 a) x) i)
    <= K * (Qabs (y - x) * Qabs (y - x)).

(** the sum of the displacements along the axes *)
Definition distance (n : nat) (x y : list Q) : Q := qsum (fun d => Qabs (nth d y 0 - nth d x 0)) (seq 0 n).
Lemma distance_nonneg n x y : 0 <= distance n x y.
Proof. apply qsum_nonneg. intros d _. apply Qabs_nonneg. Qed.
Lemma distance_cons n a x b y : distance (S n) (a :: x) (b :: y) = Qabs (b - a) + distance n x y.
Proof. unfold distance. cbn [seq]. rewrite qsum_cons. rewrite <- seq_shift, qsum_map. reflexivity. Qed.

Section Product.
Variables (f : axis -> Q -> list (Z * Q)) (K : Q).
Hypothesis HK : 0 <= K.
Definition linear_part (axes : list axis) (x y : list Q) (idx : list Z) : Q :=
  qsum (fun d => (nth d y 0 - nth d x 0) * spread (points_with f (order1 axes d) x) idx) (seq 0 (length axes)).
Lemma linear_part_cons a axes x xs y ys i idx :
  linear_part (a :: axes) (x :: xs) (y :: ys) (i :: idx) ==
  (y - x) * (wsum (f (with_order 1 a) x) i * spread (points_with f (map (with_order 0) axes) xs) idx) +
  wsum (f (with_order 0 a) x) i * linear_part axes xs ys idx.
Proof.
  unfold linear_part. cbn [length seq]. rewrite qsum_cons. apply Qplus_comp; [reflexivity|].
  rewrite <- seq_shift, qsum_map, <- qsum_scale. apply qsum_ext. intros d. cbn [nth]. rewrite order1_S.
  cbn [points_with spread]. ring.
Qed.

Lemma spread_near axes : forall x y idx, length x = length axes -> length y = length axes -> length idx = length axes ->
  (forall d a0, (d < length axes)%nat -> axis_near f K (nth d axes a0) (nth d x 0) (nth d y 0)) ->
  let Wx := spread (points_with f (map (with_order 0) axes) x) idx in
  let Wy := spread (points_with f (map (with_order 0) axes) y) idx in
  let M := qpow K (length axes) in
  let D := distance (length axes) x y in
  Qabs Wx <= M /\ Qabs Wy <= M /\ Qabs (linear_part axes x y idx) <= M * D /\
  Qabs (Wy - Wx) <= M * D /\ Qabs (Wy - Wx - linear_part axes x y idx) <= M * (D * D).
Proof.
  induction axes as [|a axes IH]; intros [|x xs] [|y ys] [|i idx] L1 L2 L3 H; try discriminate L1; try discriminate L2; try discriminate L3.
  - cbv zeta. cbn. unfold linear_part, distance. cbn.
    repeat split; apply Qle_bool_iff; reflexivity.
  - cbv zeta. cbn [length] in *. injection L1 as L1. injection L2 as L2. injection L3 as L3.
    assert (H' : forall d a0, (d < length axes)%nat -> axis_near f K (nth d axes a0) (nth d xs 0) (nth d ys 0)).
    { intros d a0 Hd. apply (H (S d) a0). lia. }
    specialize (IH xs ys idx L1 L2 L3 H'). cbv zeta in IH.
    destruct (H O a ltac:(lia) i) as (A1 & A2 & A3 & A4 & A5). cbn [nth] in A1, A2, A3, A4, A5. clear H H'.
    rewrite linear_part_cons, distance_cons, qpow_S. cbn [map points_with spread].
    set (Wx := spread (points_with f (map (with_order 0) axes) xs) idx) in *.
    set (Wy := spread (points_with f (map (with_order 0) axes) ys) idx) in *.
    set (L := linear_part axes xs ys idx) in *. set (M := qpow K (length axes)) in *.
    set (D := distance (length axes) xs ys) in *.
    assert (HM : 0 <= M) by (apply qpow_nonneg, HK). assert (HD : 0 <= D) by apply distance_nonneg.
    set (fx := wsum (f (with_order 0 a) x) i) in *. set (fy := wsum (f (with_order 0 a) y) i) in *.
    set (g := wsum (f (with_order 1 a) x) i) in *.
    destruct IH as (I1 & I2 & I3 & I4 & I5).
    pose proof (Qabs_nonneg (y - x)) as Hd. clearbody Wx Wy L M D fx fy g.
    assert (HKM : 0 <= K * M) by (apply Qmult_le_0_compat; assumption).
    split; [apply Qabs_mult_le; assumption|]. split; [apply Qabs_mult_le; assumption|].
    split; [|split].
    + eapply Qle_trans; [apply Qabs_add_le; [apply Qabs_mult_le; [apply Qle_refl|apply Qabs_mult_le; [exact A3|exact I1]]|apply Qabs_mult_le; [exact A1|exact I3]]|].
      apply Qle_lteq. right. ring.
    + setoid_replace (fy * Wy - fx * Wx) with ((fy - fx) * Wy + fx * (Wy - Wx)) by ring.
      eapply Qle_trans; [apply Qabs_add_le; [apply Qabs_mult_le; [exact A4|exact I2]|apply Qabs_mult_le; [exact A1|exact I4]]|].
      apply Qle_lteq. right. ring.
    + setoid_replace (fy * Wy - fx * Wx - ((y - x) * (g * Wx) + fx * L)) with
        ((fy - fx - (y - x) * g) * Wx + (fy * (Wy - Wx - L) + (fy - fx) * L)) by ring.
      eapply Qle_trans; [apply Qabs_add_le; [apply Qabs_mult_le; [exact A5|exact I1]|
        apply Qabs_add_le; [apply Qabs_mult_le; [exact A2|exact I5]|apply Qabs_mult_le; [exact A4|exact I3]]]|].
      assert (X : 0 <= K * M * (Qabs (y - x) * D)) by (apply Qmult_le_0_compat; [exact HKM|apply Qmult_le_0_compat; assumption]).
      set (e := Qabs (y - x)) in *. clearbody e.
      assert (E : K * M * ((e + D) * (e + D)) == K * (e * e) * M + (K * (M * (D * D)) + K * e * (M * D)) + K * M * (e * D)) by ring.
      rewrite E. lra.
Qed.
End Product.

(** the weights of a window *)
Definition near (w : window) (real : array) (t : affine) (h C : Q) (x y : list Q) : Prop :=
  let nd := length (ar_shape real) in let W d := weight_of (painter_of w real t d) h in
  forall idx, length idx = nd ->
    Qabs (W None y idx - W None x idx) <= C * distance nd x y /\
    Qabs (W None y idx - W None x idx -
      qsum (fun d => (nth d y 0 - nth d x 0) * W (Some (Z.of_nat d)) x idx) (seq 0 nd)) <= C * (distance nd x y * distance nd x y).

Lemma near_of_axes w real t h K x y : wf_call real t -> 0 <= K ->
  length x = length (ar_shape real) -> length y = length (ar_shape real) ->
  (forall d, (d < length (ar_shape real))%nat ->
     axis_near (axis_points (painter_of w real t None) h) K (axis_of real t None d) (nth d x 0) (nth d y 0)) ->
  near w real t h (qpow K (length (ar_shape real))) x y.
Proof.
  intros Hwf HK Hx Hy H idx Hi. set (p0 := painter_of w real t None) in *. set (nd := length (ar_shape real)) in *.
  assert (LA : length (pt_axes p0) = nd) by (apply axes_length, Hwf).
  pose proof (spread_near (axis_points p0 h) K HK (pt_axes p0) x y idx) as S. rewrite LA in S. cbv zeta in S.
  assert (Z0 : map (with_order 0) (pt_axes p0) = pt_axes p0) by (apply order_none_axes, Hwf).
  rewrite Z0 in S. destruct S as (_ & _ & _ & S1 & S2); try assumption.
  { intros d a0 Hd. rewrite (nth_error_nth (pt_axes p0) d a0 (axes_nth w real t None d Hwf Hd)). apply H, Hd. }
  split; [exact S1|].
  assert (E : qsum (fun d => (nth d y 0 - nth d x 0) * weight_of (painter_of w real t (Some (Z.of_nat d))) h x idx) (seq 0 nd) ==
              linear_part (axis_points p0 h) (pt_axes p0) x y idx).
  { unfold linear_part. rewrite LA. apply qsum_ext_in. intros d Hd. apply in_seq in Hd. apply Qmult_comp; [reflexivity|].
    unfold weight_of, all_points. rewrite (axis_points_call w real t t None (Some (Z.of_nat d)) h Hwf Hwf). fold p0.
    destruct (order_some_axes w real t (Z.of_nat d) Hwf) as [E|E]; [|exfalso; apply E; cbn; fold nd; lia].
    rewrite E. fold p0 nd. replace (dim_of nd (Z.of_nat d)) with d; [reflexivity|].
    unfold dim_of. destruct (Z.ltb_spec (Z.of_nat d) 0); lia. }
  rewrite E. exact S2.
Qed.

(** quadratic and cubic windows: everywhere *)
Lemma smooth_near w real t h : wf_call real t -> smooth (w_kind w) -> periods_ok t ->
  (w_kind w = TunedPCS -> Forall (fun s => s == 1) (af_scale t)) ->
  exists C, 0 <= C /\ forall x y, length x = length (ar_shape real) -> length y = length (ar_shape real) -> near w real t h C x y.
Proof.
  intros Hwf Hs Hper Hfit. set (p0 := painter_of w real t None).
  destruct (axis_tangent p0 h Hs) as (C & HC & TG). destruct (axis_bound p0 h (smooth_standard _ Hs)) as (B & HB & BD).
  set (S2 := qsum (fun a => ax_scale a * ax_scale a) (pt_axes p0)).
  assert (HS2 : 0 <= S2) by (apply qsum_nonneg; intros a _; apply Qsq_nonneg).
  assert (LS : forall a, In a (pt_axes p0) -> ax_scale a * ax_scale a <= S2).
  { unfold S2. generalize (pt_axes p0). intros l a. induction l as [|b l IH]; [intros []|]. rewrite qsum_cons. intros [->|Hin].
    - assert (0 <= qsum (fun a => ax_scale a * ax_scale a) l) by (apply qsum_nonneg; intros c _; apply Qsq_nonneg). lra.
    - pose proof (Qsq_nonneg (ax_scale b)). specialize (IH Hin). lra. }
  assert (Ia : forall b, In b (pt_axes p0) -> (0 <= ax_period b)%Z) by (intros b; apply (axis_in_period w real t None Hwf b Hper)).
  set (c := C * S2). assert (Hc : 0 <= c) by (apply Qmult_le_0_compat; assumption).
  set (K := 4 * B + 2 * c). assert (HK : 0 <= K) by (unfold K; lra).
  exists (qpow K (length (ar_shape real))). split; [apply qpow_nonneg, HK|]. intros x y Hx Hy.
  apply near_of_axes; try assumption. intros d Hd i. fold p0.
  set (a := axis_of real t None d).
  assert (Hin : In a (pt_axes p0)) by (eapply nth_error_In, axes_nth; [exact Hwf|exact Hd]).
  pose proof (Ia a Hin) as Hpa. pose proof (LS a Hin) as HSa.
  assert (Gr : grad_axis_ok p0 h a).
  { intros _ E. specialize (Hfit E). rewrite Forall_forall in Hfit. unfold a. cbn [axis_of ax_scale]. apply Hfit, nth_In.
    destruct Hwf as (_ & _ & Ls & _). lia. }
  assert (T : forall u v, Qabs (wsum (axis_points p0 h (with_order 0 a) v) i - wsum (axis_points p0 h (with_order 0 a) u) i
        - (v - u) * wsum (axis_points p0 h (with_order 1 a) u) i) <= c * (Qabs (v - u) * Qabs (v - u))).
  { intros u v. eapply Qle_trans; [apply (TG a u v i Hpa Gr)|].
    rewrite <- Qabs_Qmult, (Qabs_pos ((v - u) * (v - u))) by apply Qsq_nonneg. unfold c.
    setoid_replace (C * (ax_scale a * (v - u) * (ax_scale a * (v - u)))) with (C * (ax_scale a * ax_scale a * ((v - u) * (v - u)))) by ring.
    assert (0 <= (v - u) * (v - u)) by apply Qsq_nonneg.
    assert (X : ax_scale a * ax_scale a * ((v - u) * (v - u)) <= S2 * ((v - u) * (v - u))) by (apply Qmult_le_compat_r; assumption).
    apply (Qmult_le_compat_r _ _ C) in X; [|exact HC]. lra. }
  pose proof (BD a (nth d x 0) i Hpa) as B1. pose proof (BD a (nth d y 0) i Hpa) as B2.
  pose proof (BD a (nth d x 0 + 1) i Hpa) as B3.
  pose proof (T (nth d x 0) (nth d x 0 + 1)) as T1. pose proof (T (nth d x 0) (nth d y 0)) as T2.
  set (u := nth d x 0) in *. set (v := nth d y 0) in *.
  assert (E1 : u + 1 - u == 1) by ring. rewrite E1 in T1. change (Qabs 1) with 1 in T1.
  set (fx := wsum (axis_points p0 h (with_order 0 a) u) i) in *. set (fy := wsum (axis_points p0 h (with_order 0 a) v) i) in *.
  set (g := wsum (axis_points p0 h (with_order 1 a) u) i) in *. set (f1 := wsum (axis_points p0 h (with_order 0 a) (u + 1)) i) in *.
  assert (G : Qabs g <= 2 * B + c).
  { apply Qabs_Qle_condition. apply Qabs_Qle_condition in T1. apply Qabs_Qle_condition in B1. apply Qabs_Qle_condition in B3. split; lra. }
  pose proof (Qabs_nonneg (v - u)) as He. set (e := Qabs (v - u)) in *.
  split; [unfold K; lra|]. split; [unfold K; lra|]. split; [unfold K; lra|]. split.
  - destruct (Qlt_le_dec 1 e) as [E|E].
    + assert (X : Qabs (fy - fx) <= B + B).
      { setoid_replace (fy - fx) with (fy + - fx) by ring. apply Qabs_add_le; [exact B2|rewrite Qabs_opp; exact B1]. }
      assert (0 <= (2 * B + 2 * c) * e) by (apply Qmult_le_0_compat; lra).
      assert (2 * B * 1 <= 2 * B * e) by (rewrite !(Qmult_comm (2 * B)); apply Qmult_le_compat_r; lra).
      unfold K. lra.
    + setoid_replace (fy - fx) with ((fy - fx - (v - u) * g) + (v - u) * g) by ring.
      eapply Qle_trans; [apply Qabs_add_le; [exact T2|apply Qabs_mult_le; [apply Qle_refl|exact G]]|]. fold e.
      assert (c * e * e <= c * e * 1) by (rewrite !(Qmult_comm (c * e)); apply Qmult_le_compat_r; [exact E|apply Qmult_le_0_compat; assumption]).
      assert (0 <= B * e) by (apply Qmult_le_0_compat; assumption).
      unfold K. lra.
  - eapply Qle_trans; [exact T2|]. apply Qmult_le_compat_r; [unfold K; lra|apply Qmult_le_0_compat; assumption].
Qed.

(** cic, generic or tuned: inside of a cell *)
Definition coordinate (t : affine) (d : nat) (x : list Q) : Q := nth d x 0 * nth d (af_scale t) 0 + nth d (af_translate t) 0.
Definition same_cell (nd : nat) (t : affine) (x y : list Q) : Prop := forall d, (d < nd)%nat ->
  (forall n : Z, ~ coordinate t d x == inject_Z n) /\
  inject_Z (Qfloor (coordinate t d x)) <= coordinate t d y <= inject_Z (Qfloor (coordinate t d x)) + 1.

Lemma native_grad_bound k a x i : (k = Linear \/ k = TunedCIC) -> standard k ->
  Qabs (wsum (native_line k (with_order 1 a) x) i) <= 4 * Qabs (ax_scale a).
Proof.
  intros Hk Hs.
  set (I0 := Qfloor (grid_pos a x)). destruct (Qfloor_bounds (grid_pos a x)) as [F1 F2]. fold I0 in F1, F2.
  rewrite (native_wsum k (with_order 1 a) x i (zrange (I0 - 1) 4) Hs).
  - change 4 with (inject_Z (Z.of_nat (length (zrange (I0 - 1) 4)))).
    eapply Qle_trans; [apply (Qabs_qsum_le _ _ (Qabs (ax_scale a)))|apply Qle_refl].
    intros j _. destruct (wrap_axis _ j =? i)%Z; [|apply Qabs_nonneg]. cbn [with_order ax_order Z.eqb ax_scale].
    assert (D : forall z, Qabs (diff_of k z) <= 1).
    { intros z. assert (E : diff_of k = linear_diff) by (destruct Hk; subst k; reflexivity). rewrite E. unfold linear_diff.
      repeat match goal with |- context [if ?b then _ else _] => destruct b end; discriminate. }
    rewrite <- (Qmult_1_l (Qabs (ax_scale a))). apply Qabs_mult_le; [apply D|apply Qle_refl].
  - assert (Hn : native_of k = 2%Z) by (destruct Hk; subst k; reflexivity). rewrite Hn.
    change (grid_pos (with_order 1 a) x) with (grid_pos a x).
    split; [apply zrange_NoDup|]. intros j [J1 J2]. apply in_zrange.
    assert (T : inject_Z 2 / 2 == 1) by reflexivity. rewrite T in J1, J2. cbn [Z.of_nat Pos.of_succ_nat Pos.succ].
    assert (A1 : inject_Z (I0 - 1) < inject_Z j) by (zq; lra).
    assert (A2 : inject_Z j <= inject_Z (I0 + 2)) by (zq; change (inject_Z 2) with 2; lra).
    rewrite <- Zlt_Qlt in A1. rewrite <- Zle_Qle in A2. lia.
Qed.

Lemma cic_near k real t : wf_call real t -> (k = Linear \/ k = TunedCIC) -> periods_ok t ->
  exists C, 0 <= C /\ forall x y, length x = length (ar_shape real) -> length y = length (ar_shape real) ->
    same_cell (length (ar_shape real)) t x y -> near (ResampleWindow k 0) real t 1 C x y.
Proof.
  intros Hwf Hk Hper. set (w := ResampleWindow k 0). set (p0 := painter_of w real t None).
  assert (Hs : standard k) by (destruct Hk; subst k; exact Logic.I).
  destruct (axis_bound p0 1 Hs) as (B & HB & BD).
  set (S1 := qsum (fun a => Qabs (ax_scale a)) (pt_axes p0)).
  assert (HS1 : 0 <= S1) by (apply qsum_nonneg; intros a _; apply Qabs_nonneg).
  assert (LS : forall a, In a (pt_axes p0) -> Qabs (ax_scale a) <= S1).
  { unfold S1. generalize (pt_axes p0). intros l a. induction l as [|b l IH]; [intros []|]. rewrite qsum_cons. intros [->|Hin].
    - assert (0 <= qsum (fun a => Qabs (ax_scale a)) l) by (apply qsum_nonneg; intros c _; apply Qabs_nonneg). lra.
    - pose proof (Qabs_nonneg (ax_scale b)). specialize (IH Hin). lra. }
  set (K := B + 4 * S1). assert (HK : 0 <= K) by (unfold K; lra).
  exists (qpow K (length (ar_shape real))). split; [apply qpow_nonneg, HK|]. intros x y Hx Hy Hc.
  apply near_of_axes; try assumption. intros d Hd i. fold w p0.
  set (a := axis_of real t None d).
  assert (Hin : In a (pt_axes p0)) by (eapply nth_error_In, axes_nth; [exact Hwf|exact Hd]).
  pose proof (axis_in_period w real t None Hwf a Hper Hin) as Hpa. pose proof (LS a Hin) as HSa.
  destruct (Hc d Hd) as [Hint Hcell].
  assert (Gx : grid_pos a (nth d x 0) = coordinate t d x) by reflexivity.
  assert (Gy : grid_pos a (nth d y 0) = coordinate t d y) by reflexivity.
  rewrite <- Gx in Hint, Hcell. rewrite <- Gy in Hcell.
  assert (W0 : with_order 0 a = a).
  { unfold a, axis_of, with_order. cbn [ax_scale ax_translate ax_period ax_size ax_stride]. unfold order_spec. rewrite nth_repeat. reflexivity. }
  assert (O0 : ax_order a = 0%Z) by (rewrite <- W0; reflexivity).
  assert (Fl : inject_Z (Qfloor (grid_pos a (nth d x 0))) < grid_pos a (nth d x 0)).
  { destruct (Qfloor_bounds (grid_pos a (nth d x 0))) as [F _]. apply Qle_lteq in F. destruct F as [F|F]; [exact F|].
    exfalso. apply (Hint (Qfloor (grid_pos a (nth d x 0)))). symmetry. exact F. }
  assert (NP : native_painter p0 1).
  { apply default_native. split; [exact Hs|]. destruct Hk; subst k; reflexivity. }
  assert (PK : pt_kind p0 = k) by reflexivity.
  assert (AP : forall b z, (0 <= ax_period b)%Z -> (ax_order b = 0%Z \/ inject_Z (Qfloor (grid_pos b z)) < grid_pos b z) ->
     wsum (axis_points p0 1 b z) i == wsum (native_line k b z) i).
  { intros b z Hb HO. apply pair_eq_wsum. rewrite <- PK. apply axis_points_native; try assumption.
    - rewrite PK. apply standard_proper, Hs.
    - intros _. rewrite PK. destruct HO as [HO|HO]; [left; exact HO|right]. destruct Hk; subst k; [exact Logic.I|exact HO]. }
  pose proof (BD a (nth d x 0) i Hpa) as B1. pose proof (BD a (nth d y 0) i Hpa) as B2.
  assert (G : Qabs (wsum (axis_points p0 1 (with_order 1 a) (nth d x 0)) i) <= 4 * S1).
  { rewrite AP; [|exact Hpa|right; exact Fl]. eapply Qle_trans; [apply (native_grad_bound k a _ i Hk Hs)|]. lra. }
  assert (L : wsum (axis_points p0 1 (with_order 0 a) (nth d y 0)) i - wsum (axis_points p0 1 (with_order 0 a) (nth d x 0)) i ==
     (nth d y 0 - nth d x 0) * wsum (axis_points p0 1 (with_order 1 a) (nth d x 0)) i).
  { rewrite !AP; [|exact Hpa|right; exact Fl|exact Hpa|left; reflexivity|exact Hpa|left; reflexivity].
    apply (cic_linear k a (nth d x 0) (nth d y 0) i); try exact Hs; try exact Fl; try exact Hcell; destruct Hk; subst k; reflexivity. }
  split; [unfold K; lra|]. split; [unfold K; lra|]. split; [unfold K; lra|]. split.
  - rewrite L. rewrite (Qmult_comm K). apply Qabs_mult_le; [apply Qle_refl|unfold K; lra].
  - rewrite L. match goal with |- Qabs ?q <= _ => setoid_replace q with 0 by ring end. change (Qabs 0) with 0.
    pose proof (Qabs_nonneg (nth d y 0 - nth d x 0)). repeat apply Qmult_le_0_compat; assumption.
Qed.
