(** Property C29 for the windows given by tables: acg2-6, lanczos2-6, sym6-20, db6-20. *)
From Coq Require Import List Arith ZArith QArith Qabs Qround Lia Lqa Bool Setoid Morphisms Permutation.
From Verif Require Import Base ListFacts WrapModel WrapProofs DomainModel DomainFill QSum WindowModel WindowStencil WindowSpread WindowKernels WindowAxis WindowNative WindowApi WindowPoints WindowGrad WindowTranslate WindowTables WindowProperties WindowProperties2 WindowProperties3.
Import ListNotations.
Local Open Scope Q_scope.

(** ** the kernels *)
(** neither [y] nor [y'] nor what is between them is an entry of the table *)
Definition one_step (kink : Z -> Q) (y y' : Q) : Prop :=
  forall n, (kink n < y /\ kink n < y') \/ (y < kink n /\ y' < kink n).
Definition linear_on (k : kind) (kink : Z -> Q) : Prop := forall y y', one_step kink y y' -> - (inject_Z (native_of k) / 2) <= y ->
  kernel_of k y' - kernel_of k y == (y' - y) * diff_of k y.

Lemma trunc_in f i : (0 <= i)%Z -> inject_Z i < f -> f < inject_Z i + 1 -> trunc f = i.
Proof.
  intros Hi H1 H2. rewrite trunc_nonneg. { apply Qfloor_unique. lra. }
  assert (inject_Z 0 <= inject_Z i) by (rewrite <- Zle_Qle; lia). change (inject_Z 0) with 0 in *. lra.
Qed.
Lemma div_lt q s z : 0 < s -> z * s < q -> z < q / s.
Proof. intros Hs H. apply Qlt_shift_div_l; assumption. Qed.
Lemma lt_div q s z : 0 < s -> q < z * s -> q / s < z.
Proof. intros Hs H. apply Qlt_shift_div_r; assumption. Qed.
(** the step that contains a positive number *)
Lemma in_step s y : 0 < s -> 0 < y -> exists i, (0 <= i)%Z /\ inject_Z i * s <= y /\ y < inject_Z (i + 1) * s.
Proof.
  intros Hs Hy. exists (Qfloor (y / s)). pose proof (Qfloor_le (y / s)) as F1. pose proof (Qlt_floor (y / s)) as F2.
  assert (Y : y == y / s * s) by (field; lra).
  split. { assert (0 <= y / s) by (apply Qle_shift_div_l; lra). change 0%Z with (Qfloor 0). apply Qfloor_resp_le. assumption. }
  split.
  - rewrite Y at 2. apply Qmult_le_compat_r; lra.
  - rewrite Y at 1. apply Qmult_lt_r; [exact Hs|exact F2].
Qed.
Lemma even_linear v native n step : 0 < step -> linear_on (even_table v native n step) (fun n => inject_Z n * step).
Proof.
  intros Hs y y' H _. cbn [even_table kernel_of diff_of].
  assert (E : forall z, even_table_kernel v n step (- z) == even_table_kernel v n step z).
  { intros z. unfold even_table_kernel. cbv zeta. assert (F : Qabs (- z) / step == Qabs z / step) by (rewrite Qabs_opp; reflexivity).
    rewrite (trunc_proper _ _ F). destruct (_ <? 0)%Z; [reflexivity|]. destruct (_ >=? _)%Z; [reflexivity|]. rewrite F. reflexivity. }
  (* the case of positive numbers *)
  assert (P : forall z z', one_step (fun n => inject_Z n * step) z z' -> 0 < z -> exists i, (0 <= i)%Z /\ trunc (z / step) = i /\
     even_table_kernel v n step z' - even_table_kernel v n step z == (z' - z) * (if (i >=? n - 1)%Z then 0 else (v (i + 1)%Z - v i) / step)).
  { intros z z' Hz Hz0. destruct (in_step step z Hs Hz0) as (i & Hi & I1 & I2). exists i. split; [exact Hi|].
    assert (J1 : inject_Z i * step < z /\ inject_Z i * step < z') by (destruct (Hz i) as [A|A]; lra).
    assert (J2 : z < inject_Z (i + 1) * step /\ z' < inject_Z (i + 1) * step) by (destruct (Hz (i + 1)%Z) as [A|A]; lra).
    assert (Z' : 0 < z') by (destruct (Hz 0%Z) as [A|A]; change (inject_Z 0) with 0 in A; lra).
    rewrite inject_Z_plus in J2. change (inject_Z 1) with 1 in J2.
    assert (T : trunc (z / step) = i) by (apply trunc_in; [exact Hi|apply div_lt; lra|apply lt_div; lra]).
    assert (T' : trunc (z' / step) = i) by (apply trunc_in; [exact Hi|apply div_lt; lra|apply lt_div; lra]).
    split; [exact T|]. unfold even_table_kernel. cbv zeta.
    assert (A : Qabs z / step == z / step) by (rewrite Qabs_pos by lra; reflexivity).
    assert (A' : Qabs z' / step == z' / step) by (rewrite Qabs_pos by lra; reflexivity).
    rewrite (trunc_proper _ _ A), (trunc_proper _ _ A'), T, T'. destruct (Z.ltb_spec i 0); [lia|]. destruct (i >=? n - 1)%Z; [ring|].
    rewrite A, A'. field. lra. }
  unfold even_table_diff. destruct (Qlt_le_dec 0 y) as [Hy|Hy].
  - replace (Qle_bool 0 y) with true by (symmetry; apply Qle_bool_iff; lra).
    destruct (P y y' H Hy) as (i & Hi & Ti & Ei). rewrite Ei, Ti. destruct (Z.ltb_spec i 0); [lia|]. destruct (i >=? n - 1)%Z; [ring|]. field. lra.
  - assert (y < 0). { destruct (H 0%Z) as [A|A]; change (inject_Z 0) with 0 in A; lra. }
    replace (Qle_bool 0 y) with false by (symmetry; destruct (Qle_bool_case 0 y); [lra|reflexivity]).
    destruct (P (- y) (- y')) as (i & Hi & Ti & Ei); [|lra|].
    { intros j. destruct (H (- j)%Z) as [A|A]; rewrite inject_Z_opp in A; [right|left]; lra. }
    rewrite !E in Ei. rewrite Ei, Ti. destruct (Z.ltb_spec i 0); [lia|]. destruct (i >=? n - 1)%Z; [ring|]. field. lra.
Qed.
Lemma offset_linear v native n o : inject_Z native / 2 == o -> linear_on (offset_table v native n o) (fun n => inject_Z n * (1 # 256) - o).
Proof.
  intros Ho y y' H Hy. cbn [offset_table kernel_of diff_of native_of] in *. set (step := 1 # 256). assert (Hs : 0 < step) by reflexivity.
  assert (Hy0 : 0 < y + o). { destruct (H 0%Z) as [A|A]; change (inject_Z 0) with 0 in A; lra. }
  assert (Hy0' : 0 < y' + o). { destruct (H 0%Z) as [A|A]; change (inject_Z 0) with 0 in A; lra. }
  destruct (in_step step (y + o) Hs Hy0) as (i & Hi & I1 & I2).
  assert (J1 : inject_Z i * step < y + o /\ inject_Z i * step < y' + o) by (destruct (H i) as [A|A]; fold step in A; lra).
  assert (J2 : y + o < inject_Z (i + 1) * step /\ y' + o < inject_Z (i + 1) * step) by (destruct (H (i + 1)%Z) as [A|A]; fold step in A; lra).
  rewrite inject_Z_plus in J2. change (inject_Z 1) with 1 in J2.
  assert (T : trunc ((y + o) / step) = i) by (apply trunc_in; [exact Hi|apply div_lt; lra|apply lt_div; lra]).
  assert (T' : trunc ((y' + o) / step) = i) by (apply trunc_in; [exact Hi|apply div_lt; lra|apply lt_div; lra]).
  unfold offset_table_kernel, offset_table_diff. cbv zeta. rewrite T, T'.
  assert (0 < (y + o) / step) by (apply Qlt_shift_div_l; lra). assert (0 < (y' + o) / step) by (apply Qlt_shift_div_l; lra).
  destruct (Qltb_case ((y + o) / step) 0); [lra|]. destruct (Qltb_case ((y' + o) / step) 0); [lra|].
  destruct (Z.ltb_spec i 0); [lia|]. destruct (i >=? n - 1)%Z; [ring|]. field. lra.
Qed.

(** the sixteen windows, with the places of the entries of their tables *)
Definition tables (v : Z -> Q) : list (kind * (Z -> Q)) :=
  let even s := fun n => inject_Z n * s in
  let wave o := fun n => inject_Z n * (1 # 256) - o in
  [(acg2 v, even (305213 # 2500000000)); (acg3 v, even (915639 # 5000000000)); (acg4 v, even (305213 # 1250000000));
   (acg5 v, even (305213 # 1000000000)); (acg6 v, even (915639 # 2500000000));
   (lanczos2 v, even (1220703 # 5000000000)); (lanczos3 v, even (3662109 # 10000000000)); (lanczos4 v, even (1220703 # 2500000000));
   (lanczos5 v, even (1525879 # 2500000000)); (lanczos6 v, even (7324219 # 10000000000));
   (sym6 v, wave (7 # 2)); (sym12 v, wave 5); (sym20 v, wave 6); (db6 v, wave (7 # 2)); (db12 v, wave 5); (db20 v, wave (13 # 2))].
Lemma tables_ok v k kink : In (k, kink) (tables v) -> setup_of k = None /\ proper_kind k /\ linear_on k kink.
Proof.
  intros H. unfold tables in H. cbv zeta in H. cbn [In] in H.
  repeat destruct H as [H|H]; [..|destruct H]; injection H as <- <-;
    (split; [reflexivity|]);
    (split; [apply even_table_proper || apply offset_table_proper; lia|]);
    first [apply even_linear; reflexivity | apply offset_linear; reflexivity].
Qed.

(** ** one axis *)
Lemma wsum_lin l i (f f' g : Z -> Q) c e : (forall j, In j l -> f' j - f j == e * g j) ->
  wsum (map (fun j => (c j, f' j)) l) i - wsum (map (fun j => (c j, f j)) l) i == e * wsum (map (fun j => (c j, g j)) l) i.
Proof.
  intros H. unfold wsum. rewrite !qsum_map. cbn [fst snd]. rewrite <- qsum_minus, <- qsum_scale. apply qsum_ext_in. intros j Hj. specialize (H j Hj).
  destruct (c j =? i)%Z; lra.
Qed.
Lemma table_axis p h a x eps k kink i : pt_kind p = k -> setup_of k = None -> proper_kind k -> linear_on k kink -> ax_order a = 0%Z ->
  let e := eff_support (native_of k) (inject_Z (pt_support p) * h) in
  let v := inject_Z (native_of k) / e in
  let g := grid_pos a x in let g' := grid_pos a (x + eps) in
  Qfloor (g + e / 2) = Qfloor (g' + e / 2) ->
  (forall j, - (e / 2) <= g - inject_Z j -> g - inject_Z j < e / 2 + 1 -> one_step kink (v * (g - inject_Z j)) (v * (g' - inject_Z j))) ->
  wsum (axis_points p h a (x + eps)) i - wsum (axis_points p h a x) i == eps * wsum (axis_points p h (with_order 1 a) x) i.
Proof.
  intros Ek Hset Hk Hl O e v g g' Hfl Hj.
  assert (G : getfastmethod p (window_for p h) = None).
  { destruct (getfastmethod p (window_for p h)) as [f|] eqn:G; [|reflexivity]. apply getfastmethod_setup in G. destruct G as (S & _). congruence. }
  unfold axis_points. rewrite G. unfold window_for. rewrite Ek. set (s := inject_Z (pt_support p) * h) in *.
  pose proof (eff_support_pos (native_of k) s (proj1 Hk)) as He. fold e in He.
  pose proof (window_info_ok (native_of k) s (proj1 Hk)) as WI. cbv zeta in WI. fold e in WI. destruct WI as (W1 & _).
  rewrite (pair_eq_wsum _ _ i (generic_points_line k s a (x + eps) Hk)), (pair_eq_wsum _ _ i (generic_points_line k s a x Hk)),
    (pair_eq_wsum _ _ i (generic_points_line k s (with_order 1 a) x Hk)). fold e.
  change (grid_pos (with_order 1 a) x) with g. fold g g'. unfold first_point. rewrite <- Hfl.
  change (wrap_axis (with_order 1 a)) with (wrap_axis a).
  apply wsum_lin. intros j Hin. apply in_zrange in Hin. unfold line_weight. cbv zeta. rewrite O. cbn [Z.eqb with_order ax_order ax_scale]. fold v.
  change (grid_pos (with_order 1 a) x) with g. fold g g'.
  assert (B : g - e / 2 - 1 < inject_Z j <= g + e / 2).
  { apply (first_point_close e (wi_support (window_info_init (native_of k) s))); [exact W1|]. unfold first_point. lia. }
  assert (V : v * e == inject_Z (native_of k)) by (unfold v; field; lra).
  assert (N0 : 0 < inject_Z (native_of k)) by (change 0 with (inject_Z 0); rewrite <- Zlt_Qlt; apply Hk).
  assert (V0 : 0 < v) by (unfold v; apply Qlt_shift_div_l; lra).
  pose proof (Hl _ _ (Hj j ltac:(lra) ltac:(lra))) as L. destruct Hk as (_ & PK & PD).
  assert (L0 : - (inject_Z (native_of k) / 2) <= v * (g - inject_Z j)).
  { rewrite <- V. assert (v * - (e / 2) <= v * (g - inject_Z j)) by (rewrite !(Qmult_comm v); apply Qmult_le_compat_r; lra).
    assert (E2 : - (v * e / 2) == v * - (e / 2)) by field. rewrite E2. assumption. }
  specialize (L L0).
  rewrite (PK _ _ (Qmult_comm (g' - inject_Z j) v)), (PK _ _ (Qmult_comm (g - inject_Z j) v)), (PD _ _ (Qmult_comm (g - inject_Z j) v)).
  assert (D : v * (g' - inject_Z j) - v * (g - inject_Z j) == eps * ax_scale a * v) by (unfold g, g', grid_pos; ring).
  rewrite D in L.
  assert (L' : kernel_of k (v * (g' - inject_Z j)) == kernel_of k (v * (g - inject_Z j)) + eps * ax_scale a * v * diff_of k (v * (g - inject_Z j))) by lra.
  rewrite L'. ring.
Qed.

(** ** the interface *)
Section Exact.
Variable f : axis -> Q -> list (Z * Q).
Lemma spread_exact axes pos idx d h a0 :
  length pos = length axes -> length idx = length axes -> (d < length axes)%nat ->
  (forall i, wsum (f (with_order 0 (nth d axes a0)) (nth d pos 0 + h)) i - wsum (f (with_order 0 (nth d axes a0)) (nth d pos 0)) i
     == h * wsum (f (with_order 1 (nth d axes a0)) (nth d pos 0)) i) ->
  spread (points_with f (map (with_order 0) axes) (upd d (fun x => x + h) pos)) idx - spread (points_with f (map (with_order 0) axes) pos) idx
  == h * spread (points_with f (order1 axes d) pos) idx.
Proof.
  revert axes pos idx. induction d as [|d IH]; intros [|a axes] [|x pos] [|i idx] L1 L2 Hd Ht; try (cbn in *; lia).
  - cbn [nth upd] in *. rewrite order1_0. cbn [map points_with spread length]. specialize (Ht i). 
    set (S := spread (points_with f (map (with_order 0) axes) pos) idx).
    assert (E : wsum (f (with_order 0 a) (x + h)) i == wsum (f (with_order 0 a) x) i + h * wsum (f (with_order 1 a) x) i) by lra. rewrite E. ring.
  - cbn [nth upd] in *. rewrite order1_S. cbn [map points_with spread length].
    cbn [length] in *. specialize (IH axes pos idx ltac:(lia) ltac:(lia) ltac:(lia) Ht). rewrite Qmult_assoc, (Qmult_comm h), <- Qmult_assoc, <- IH. ring.
Qed.
End Exact.
Lemma weight_exact w real t h z x eps : wf_call real t -> wf_diffdir real (Some z) -> length x = length (ar_shape real) ->
  let p := painter_of w real t None in
  let d := dim_of (length (ar_shape real)) z in
  let a := axis_of real t None d in
  (forall i, wsum (axis_points p h a (nth d x 0 + eps)) i - wsum (axis_points p h a (nth d x 0)) i ==
             eps * wsum (axis_points p h (with_order 1 a) (nth d x 0)) i) ->
  forall idx, In idx (elements real) -> weight_of p h (displace real z eps x) idx ==
     weight_of p h x idx + eps * weight_of (painter_of w real t (Some z)) h x idx.
Proof.
  intros Hwf Hz Hx p d a HL idx Hidx. assert (Hd : (d < length (ar_shape real))%nat) by (apply dim_of_lt, Hz).
  assert (LA : length (pt_axes p) = length (ar_shape real)) by (apply axes_length, Hwf).
  assert (Ha : nth d (pt_axes p) a = a) by (erewrite nth_error_nth; [reflexivity|apply axes_nth; [exact Hwf|exact Hd]]).
  assert (W0 : with_order 0 a = a).
  { unfold a, axis_of, with_order. cbn [ax_scale ax_translate ax_period ax_size ax_stride]. unfold order_spec. rewrite nth_repeat. reflexivity. }
  unfold weight_of, all_points.
  rewrite (axis_points_call w real t t None (Some z) h Hwf Hwf). fold p.
  destruct (order_some_axes w real t z Hwf) as [E|E]; [|contradiction]. rewrite E. fold p d.
  assert (Z0 : pt_axes p = map (with_order 0) (pt_axes p)) by (symmetry; apply order_none_axes, Hwf).
  pose proof (spread_exact (axis_points p h) (pt_axes p) x idx d eps a) as T.
  cbv beta in T. rewrite <- Z0 in T. rewrite LA in T.
  specialize (T Hx (elements_length _ _ Hidx) Hd). rewrite Ha, W0 in T. specialize (T HL).
  unfold displace. fold d. lra.
Qed.

(** Readout and paint along [z]: the linear approximation is exact as long as the particle
    reaches the same mesh points and crosses no entry of the table of any of them. *)
Theorem C29_table_gradient : forall v kink w real t h z x eps, In (w_kind w, kink) (tables v) ->
  wf_call real t -> wf_diffdir real (Some z) -> length x = length (ar_shape real) ->
  let e := used_support w h in
  let u := inject_Z (native_of (w_kind w)) / e in
  let g := grid_coordinate real t z x in let g' := grid_coordinate real t z (displace real z eps x) in
  Qfloor (g + e / 2) = Qfloor (g' + e / 2) ->
  (forall j, - (e / 2) <= g - inject_Z j -> g - inject_Z j < e / 2 + 1 -> one_step kink (u * (g - inject_Z j)) (u * (g' - inject_Z j))) ->
  (forall m, exists r r' rg,
    window_readout w real m [x] (Some (Array [h])) None (Some t) = Ret [r] /\
    window_readout w real m [displace real z eps x] (Some (Array [h])) None (Some t) = Ret [r'] /\
    window_readout w real m [x] (Some (Array [h])) (Some z) (Some t) = Ret [rg] /\
    r' - r == eps * rg) /\
  (forall m q, exists m0 m1 mg,
    window_paint w real m [x] (Some (Array [h])) (Some (Array [q])) None (Some t) = Ret m0 /\
    window_paint w real m [displace real z eps x] (Some (Array [h])) (Some (Array [q])) None (Some t) = Ret m1 /\
    window_paint w real m [x] (Some (Array [h])) (Some (Array [q])) (Some z) (Some t) = Ret mg /\
    forall idx, In idx (elements real) ->
      elem real m1 idx - elem real m0 idx == eps * (elem real mg idx - elem real m idx)).
Proof.
  intros v kink w real t h z x eps Hk Hwf Hz Hx e u g g' Hfl Hst. destruct (tables_ok _ _ _ Hk) as (Hset & Hp & Hl).
  set (d := dim_of (length (ar_shape real)) z). assert (Hd : (d < length (ar_shape real))%nat) by (apply dim_of_lt, Hz).
  set (a := axis_of real t None d).
  assert (Nd : nth d (displace real z eps x) 0 = nth d x 0 + eps).
  { unfold displace. fold d. apply nth_error_nth. rewrite nth_error_upd, Nat.eqb_refl. rewrite (nth_error_nth' x 0) by lia. reflexivity. }
  assert (G' : grid_pos a (nth d x 0 + eps) = g') by (unfold g', grid_coordinate; cbv zeta; fold d; rewrite Nd; reflexivity).
  assert (W : forall idx, In idx (elements real) -> weight_of (painter_of w real t None) h (displace real z eps x) idx ==
     weight_of (painter_of w real t None) h x idx + eps * weight_of (painter_of w real t (Some z)) h x idx).
  { apply weight_exact; try assumption. cbv zeta. fold d a. intros i. apply (table_axis _ h a (nth d x 0) eps (w_kind w) kink i); try assumption.
    - reflexivity.
    - unfold a, axis_of. cbn [ax_order]. unfold order_spec. apply nth_repeat.
    - rewrite G'. exact Hfl.
    - rewrite G'. exact Hst. }
  assert (Hn : (0 < native_of (w_kind w))%Z) by apply Hp.
  assert (Hx' : length (displace real z eps x) = length (ar_shape real)) by (unfold displace; rewrite upd_length; exact Hx).
  split.
  - intros m. do 3 eexists.
    split; [apply (window_readout_ok w real t None Logic.I m [x] [h]); reflexivity|].
    split; [apply (window_readout_ok w real t None Logic.I m [displace real z eps x] [h]); reflexivity|].
    split; [apply (window_readout_ok w real t (Some z) Hz m [x] [h]); reflexivity|]. cbn [fst snd].
    rewrite !readout_elements by assumption. rewrite <- qsum_minus, <- qsum_scale. apply qsum_ext_in. intros idx Hidx. rewrite (W idx Hidx). ring.
  - intros m q. do 3 eexists.
    split; [apply (window_paint_ok w real t None Logic.I); reflexivity|].
    split; [apply (window_paint_ok w real t None Logic.I); reflexivity|].
    split; [apply (window_paint_ok w real t (Some z) Hz); reflexivity|].
    intros idx Hidx.
    assert (P : forall d y, length y = length (ar_shape real) -> elem real (paint_all (painter_of w real t d) m (parts_of [y] [q] [h])) idx ==
       elem real m idx + q * weight_of (painter_of w real t d) h y idx).
    { intros d' y Hy. pose proof (paint_all_cell _ m (parts_of [y] [q] [h]) idx (painter_of_wf w real t d' Hwf Hn)
        (parts_wf w real t d' Hwf [y] [q] [h] ltac:(constructor; [exact Hy|constructor])) (proj1 (in_elements w real t d' Hwf idx) Hidx)) as P.
      rewrite !(cell_elem w real t d' Hwf) in P. rewrite P. cbn [parts_of combine]. rewrite qsum_cons, qsum_nil. cbn [fst snd]. ring. }
    rewrite !P by assumption. rewrite (W idx Hidx). ring.
Qed.
Print Assumptions C29_table_gradient.
Lemma one_step_in s o i y y' : 0 < s -> inject_Z i * s - o < y -> y < inject_Z (i + 1) * s - o ->
  inject_Z i * s - o < y' -> y' < inject_Z (i + 1) * s - o -> one_step (fun n => inject_Z n * s - o) y y'.
Proof.
  intros Hs A1 A2 B1 B2 n. destruct (Z_le_gt_dec n i) as [L|L].
  - left. assert (inject_Z n * s <= inject_Z i * s) by (apply Qmult_le_compat_r; [rewrite <- Zle_Qle; exact L|lra]). lra.
  - right. assert (inject_Z (i + 1) * s <= inject_Z n * s) by (apply Qmult_le_compat_r; [rewrite <- Zle_Qle; lia|lra]). lra.
Qed.
(** db6 with a table of squares, on both sides of the middle, moved by a hundredth of a step *)
Example C29_table_case : let w := ResampleWindow (db6 (fun n => inject_Z (n * n))) 0 in exists r r' rg,
  window_readout w mesh4 (fun a => inject_Z a) [[33 # 10]] (Some (Array [1])) None (Some (line4 1)) = Ret [r] /\
  window_readout w mesh4 (fun a => inject_Z a) [displace mesh4 0 (1 # 25600) [33 # 10]] (Some (Array [1])) None (Some (line4 1)) = Ret [r'] /\
  window_readout w mesh4 (fun a => inject_Z a) [[33 # 10]] (Some (Array [1])) (Some 0%Z) (Some (line4 1)) = Ret [rg] /\
  r' - r == (1 # 25600) * rg /\ ~ rg == 0.
Proof.
  intros w. assert (Hk : In (w_kind w, fun n => inject_Z n * (1 # 256) - (7 # 2)) (tables (fun n => inject_Z (n * n)))) by (unfold tables; cbn [In]; do 13 right; left; reflexivity).
  destruct (C29_table_gradient _ _ w mesh4 (line4 1) 1 0%Z [33 # 10] (1 # 25600) Hk) as [R _].
  - apply wf_line4.
  - cbn. lia.
  - reflexivity.
  - reflexivity.
  - change (used_support w 1) with (7 # 1). change (grid_coordinate mesh4 (line4 1) 0 [33 # 10]) with ((33 # 10) * 1 + 0).
    change (grid_coordinate mesh4 (line4 1) 0 (displace mesh4 0 (1 # 25600) [33 # 10])) with (((33 # 10) + (1 # 25600)) * 1 + 0).
    change (native_of (w_kind w)) with 7%Z. intros j H1 H2.
    assert (J : (-1 <= j <= 6)%Z).
    { assert (H7 : 7 / 2 == 7 # 2) by reflexivity. rewrite H7 in H1, H2.
      assert (- (5 # 1) < 4 * inject_Z j) by lra. assert (inject_Z j < 7) by lra. change 7 with (inject_Z 7) in *.
      change (- (5 # 1)) with (inject_Z (-5)) in *. change 4 with (inject_Z 4) in *. rewrite <- inject_Z_mult in *. rewrite <- Zlt_Qlt in *. lia. }
    assert (C : j = (-1)%Z \/ j = 0%Z \/ j = 1%Z \/ j = 2%Z \/ j = 3%Z \/ j = 4%Z \/ j = 5%Z \/ j = 6%Z) by lia.
    destruct C as [->|[->|[->|[->|[->|[->|[->| ->]]]]]]];
      [apply (one_step_in _ _ 1996)|apply (one_step_in _ _ 1740)|apply (one_step_in _ _ 1484)|apply (one_step_in _ _ 1228)|apply (one_step_in _ _ 972)
      |apply (one_step_in _ _ 716)|apply (one_step_in _ _ 460)|apply (one_step_in _ _ 204)]; vm_compute; reflexivity.
  - destruct (R (fun a => inject_Z a)) as (r & r' & rg & R1 & R2 & R3 & R4). exists r, r', rg. repeat split; try assumption.
    intros E. assert (X : exists q, window_readout w mesh4 (fun a => inject_Z a) [[33 # 10]] (Some (Array [1])) (Some 0%Z) (Some (line4 1)) = Ret [q] /\ ~ q == 0)
      by (eexists; split; [reflexivity|vm_compute; discriminate]).
    destruct X as (q & Q1 & Q2). rewrite R3 in Q1. injection Q1 as <-. contradiction.
Qed.
