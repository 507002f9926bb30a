(** Properties C20-C30 and C35: the resampling windows. *)
From Coq Require Import List Arith ZArith QArith Qabs Qround Lia Lqa Bool Setoid Morphisms Permutation.
From Verif Require Import Base ListFacts WrapModel WrapProofs DomainModel DomainFill QSum WindowModel WindowStencil WindowSpread WindowKernels WindowAxis WindowNative WindowApi WindowPoints WindowGrad.
Import ListNotations.
Local Open Scope Q_scope.

(** nnb, cic, tsc, pcs in either implementation, of the default support *)
Definition default_window (w : window) : Prop :=
  standard (w_kind w) /\ w_support w = native_of (w_kind w).
Lemma default_window_ok k s : standard k -> (s <= 0 \/ s = native_of k)%Z -> default_window (ResampleWindow k s).
Proof.
  intros Hk Hs. split; [exact Hk|]. unfold ResampleWindow, w_support, w_kind.
  destruct Hs as [Hs| ->].
  - unfold window_info_init. replace (Qle_bool (inject_Z s) 0) with true; [reflexivity|].
    symmetry. apply Qle_bool_iff. change 0 with (inject_Z 0). rewrite <- Zle_Qle. exact Hs.
  - apply window_info_native; [apply standard_proper, Hk|reflexivity].
Qed.
(** the whole of a periodic mesh *)
Definition full_mesh (real : array) (t : affine) : Prop :=
  af_period t = ar_shape real /\ Forall (fun n => 0 < n)%Z (ar_shape real).
Definition periods_ok (t : affine) : Prop := Forall (fun n => 0 <= n)%Z (af_period t).

Section Facts.
Variables (w : window) (real : array) (t : affine) (d : option Z).
Hypothesis Hwf : wf_call real t.
Let p := painter_of w real t d.

Lemma axis_in_period a : periods_ok t -> In a (pt_axes p) -> (0 <= ax_period a)%Z.
Proof.
  intros H Ha. destruct (axes_spec w real t d Hwf) as (_ & _ & _ & E & _). unfold periods_ok in H.
  rewrite <- E, Forall_map, Forall_forall in H. apply H, Ha.
Qed.
Lemma full_mesh_axes : full_mesh real t ->
  Forall (fun a => 0 < ax_period a /\ ax_size a = ax_period a)%Z (pt_axes p).
Proof.
  intros [E F]. destruct (axes_spec w real t d Hwf) as (_ & _ & _ & E1 & E2 & _).
  fold p in E1, E2. rewrite <- E1, <- E2 in E. rewrite <- E2 in F. clear E1 E2. revert E F.
  induction (pt_axes p) as [|a axes IH]; intros E F; [constructor|].
  cbn [map] in *. injection E as Ea E. inversion F; subst. constructor; [split; [lia|congruence]|apply IH; assumption].
Qed.
Lemma full_periods : full_mesh real t -> periods_ok t.
Proof. intros [E F]. unfold periods_ok. rewrite E. eapply Forall_impl; [|exact F]. cbn beta. intros; lia. Qed.
Lemma default_native : default_window w -> native_painter p 1.
Proof. intros [_ E]. unfold native_painter. cbn [p painter_of mk_painter pt_support pt_kind]. rewrite E. ring. Qed.
Lemma default_wf : standard (w_kind w) -> wf_painter p.
Proof. intros H. apply painter_of_wf; [exact Hwf|]. apply (standard_proper _ H). Qed.
Lemma order_none a : d = None -> In a (pt_axes p) -> ax_order a = 0%Z.
Proof.
  intros Hd Ha. destruct (axes_spec w real t d Hwf) as (E & _). fold p in E. apply (in_map ax_order) in Ha.
  rewrite E, Hd in Ha. cbn in Ha. apply repeat_spec in Ha. exact Ha.
Qed.
(** some axis is differentiated *)
Lemma order_some z : d = Some z -> wf_diffdir real d -> exists a, In a (pt_axes p) /\ ax_order a <> 0%Z.
Proof.
  intros Hd Hz. destruct (axes_spec w real t d Hwf) as (E & _). fold p in E.
  assert (In 1%Z (map ax_order (pt_axes p))) as H.
  { rewrite E, Hd. rewrite Hd in Hz. cbn [wf_diffdir order_spec] in *.
    apply in_map_iff. exists (Z.to_nat (if (z <? 0)%Z then z + Z.of_nat (length (ar_shape real)) else z)).
    split; [|apply in_seq]; destruct (Z.ltb_spec z 0); [rewrite Z2Nat.id by lia; rewrite Z.eqb_refl; reflexivity..|lia|lia]. }
  apply in_map_iff in H. destruct H as (a & H & Ha). exists a. split; [exact Ha|lia].
Qed.
End Facts.

(** sum of a particle's weights over all cells, when none is clipped *)
Lemma weight_total_in p h x :
  Forall2 (fun a y => Forall (fun jw => 0 <= fst jw < ax_size a)%Z (axis_points p h a y)) (pt_axes p) x ->
  qsum (weight_of p h x) (cells (pt_axes p)) ==
  qprod (map (fun ax => qsum snd (axis_points p h (fst ax) (snd ax))) (combine (pt_axes p) x)).
Proof.
  intros Hp. pose proof (Forall2_len _ _ _ Hp) as Hl.
  unfold weight_of. rewrite sum_spread by (apply all_points_length; congruence).
  apply qprod_ext. unfold all_points. set (f := axis_points p h) in *. clearbody f. clear Hl.
  induction Hp as [|a y axes x H _ IH]; [constructor|].
  cbn [points_with combine map fst snd]. constructor; [|exact IH].
  apply wsum_total. eapply Forall_impl; [|exact H].
  intros jw Hjw. cbn beta in *. rewrite Z2Nat.id by lia. exact Hjw.
Qed.

(** painted total *)
Lemma paint_total w real t d m parts : wf_call real t -> (0 < native_of (w_kind w))%Z ->
  wf_parts (painter_of w real t d) parts ->
  total real (paint_all (painter_of w real t d) m parts) ==
  total real m + qsum (fun xmh => snd (fst xmh) *
     qsum (weight_of (painter_of w real t d) (snd xmh) (fst (fst xmh))) (elements real)) parts.
Proof.
  intros Hwf Hk Hparts. unfold total. set (p := painter_of w real t d) in *.
  rewrite (qsum_ext_in (elem real (paint_all p m parts))
    (fun idx => elem real m idx + qsum (fun xmh => snd (fst xmh) * weight_of p (snd xmh) (fst (fst xmh)) idx) parts)).
  2:{ intros idx Hidx. apply (in_elements w real t d Hwf) in Hidx.
      pose proof (paint_all_cell p m parts idx (painter_of_wf w real t d Hwf Hk) Hparts Hidx) as H.
      unfold p in H. rewrite !(cell_elem w real t d Hwf) in H. exact H. }
  rewrite qsum_plus. apply Qplus_comp; [reflexivity|]. rewrite qsum_swap. apply qsum_ext. intros xmh.
  apply qsum_scale.
Qed.

(* ---------- C20 ---------- *)
(** at every point of the line the kernels sum to one over the mesh points *)
Theorem C20_kernels (k : kind) (g : Q) (L : list Z) : standard k -> NoDup L ->
  (forall j, Qabs (g - inject_Z j) <= inject_Z (native_of k) / 2 -> In j L) ->
  qsum (fun j => kernel_of k (g - inject_Z j)) L == 1.
Proof.
  intros Hk HN HL.
  set (a := {| ax_scale := 1; ax_translate := 0; ax_period := 0; ax_order := 0; ax_size := 0; ax_stride := 0 |}).
  rewrite <- (native_line_sum_K k a g Hk eq_refl).
  unfold native_line. rewrite qsum_map. cbn [snd].
  rewrite (qsum_ext _ (fun j => kernel_of k (g - inject_Z j)) (zrange _ _)).
  2:{ intros j. rewrite line_weight_native by (apply standard_proper, Hk). cbn [a ax_order Z.eqb].
      destruct (standard_proper _ Hk) as (_ & PK & _). apply PK. unfold grid_pos. cbn [ax_scale ax_translate a]. ring. }
  apply qsum_support; [apply Z.eq_dec|exact HN|apply zrange_NoDup|].
  intros j Hj.
  assert (R : - (inject_Z (native_of k) / 2) <= g - inject_Z j < inject_Z (native_of k) / 2).
  { destruct (standard_confined _ Hk) as [Hc _].
    destruct (Qlt_le_dec (g - inject_Z j) (- (inject_Z (native_of k) / 2))) as [C|C]; [elim Hj; apply Hc; left; exact C|].
    destruct (Qlt_le_dec (g - inject_Z j) (inject_Z (native_of k) / 2)) as [C'|C']; [|elim Hj; apply Hc; right; exact C'].
    split; assumption. }
  split; intros _.
  - apply in_zrange. assert (G : grid_pos a g == g) by (unfold grid_pos; cbn [ax_scale ax_translate a]; ring).
    pose proof (first_point_covers (inject_Z (native_of k)) (native_of k) (grid_pos a g) j) as F.
    rewrite Z2Nat.id by (pose proof (proj1 (standard_proper _ Hk)); lia). apply F; [split; lra|]. rewrite G. split; lra.
  - apply HL. apply Qabs_le. split; lra.
Qed.
Print Assumptions C20_kernels.
Example C20_kernels_case : qsum (fun j => kernel_of Cubic ((27#10) - inject_Z j)) [0;1;2;3;4;5]%Z == 1.
Proof. vm_compute. reflexivity. Qed.

(** on a mesh that is not periodic the weights of a particle whose stencil is inside
    of the array sum to one, in any number of dimensions *)
Theorem C20_partition_of_unity w real t m x q :
  wf_call real t -> default_window w -> length x = length (ar_shape real) ->
  Forall (fun n => n = 0)%Z (af_period t) ->
  (forall d, (d < length (ar_shape real))%nat ->
     inject_Z (native_of (w_kind w)) / 2 - 1 <= nth d x 0 * nth d (af_scale t) 0 + nth d (af_translate t) 0 /\
     nth d x 0 * nth d (af_scale t) 0 + nth d (af_translate t) 0 + inject_Z (native_of (w_kind w)) / 2
       < inject_Z (nth d (ar_shape real) 0%Z)) ->
  exists m', window_paint w real m [x] None (Some (Array [q])) None (Some t) = Ret m' /\
    total real m' == total real m + q.
Proof.
  intros Hwf Hw Hl Hper Hin. set (p := painter_of w real t None).
  eexists. split; [apply (window_paint_none w real t None Logic.I); reflexivity|].
  rewrite (paint_total w real t None m _ Hwf (proj1 (standard_proper _ (proj1 Hw)))).
  2:{ apply (parts_wf w real t None Hwf). constructor; [exact Hl|constructor]. }
  cbn [parts_of length repeat combine]. rewrite qsum_cons, qsum_nil. cbn [fst snd].
  rewrite <- (cells_elements w real t None Hwf). fold p.
  rewrite (weight_total_in p 1 x), qprod_ones; [ring| |].
  - rewrite Forall_map, Forall_forall. intros [a y] Hay. cbn [fst snd].
    pose proof (in_combine_l _ _ _ _ Hay) as Ha.
    rewrite (axis_points_sum p 1 a y (proj1 Hw) (default_native w real t None Hw)).
    + rewrite (order_none w real t None Hwf a eq_refl Ha). reflexivity.
    + apply (axis_in_period w real t None Hwf); [|exact Ha]. eapply Forall_impl; [|exact Hper]. cbn beta. intros; lia.
  - pose proof (axes_length w real t None Hwf) as La. fold p in La.
    destruct (axes_spec w real t None Hwf) as (_ & E1 & E2 & E3 & E4 & _). fold p in E1, E2, E3, E4.
    rewrite <- E1, <- E2, <- E4 in Hin. rewrite <- E3 in Hper. rewrite map_length in Hin.
    rewrite <- La in Hl. clear E1 E2 E3 E4 La.
    assert (HP : forall a y, (ax_period a = 0)%Z ->
      inject_Z (native_of (w_kind w)) / 2 - 1 <= y * ax_scale a + ax_translate a ->
      y * ax_scale a + ax_translate a + inject_Z (native_of (w_kind w)) / 2 < inject_Z (ax_size a) ->
      Forall (fun jw => 0 <= fst jw < ax_size a)%Z (axis_points p 1 a y)).
    { intros a y Ha B1 B2.
      set (a' := with_order 0 a).
      assert (E : map fst (axis_points p 1 a y) = map fst (native_line (w_kind w) a y)).
      { unfold axis_points. destruct (getfastmethod p (window_for p 1)) as [f|] eqn:G.
        - destruct (getfastmethod_setup _ _ _ G) as (S & _).
          rewrite (tuned_points_fst _ _ a y S) by lia. unfold native_line. rewrite map_map. reflexivity.
        - apply map_fst_pair_eq. apply generic_points_native; [apply standard_proper, Hw|].
          apply (default_native w real t None Hw). }
      apply Forall_forall. intros jw Hjw. apply (in_map fst) in Hjw. rewrite E in Hjw.
      unfold native_line in Hjw. rewrite map_map in Hjw. apply in_map_iff in Hjw. destruct Hjw as (j & Hj & Hz).
      cbn [fst] in Hj. unfold wrap_axis in Hj. rewrite Ha in Hj. cbn in Hj. rewrite <- Hj.
      apply in_zrange in Hz. pose proof (proj1 (standard_proper _ (proj1 Hw))) as Hn. rewrite Z2Nat.id in Hz by lia.
      destruct (first_point_close (inject_Z (native_of (w_kind w))) (native_of (w_kind w)) (grid_pos a y) j) as [C1 C2]; [split; lra|exact Hz|].
      assert (C0 : grid_pos a y - inject_Z (native_of (w_kind w)) / 2 < inject_Z j).
      { unfold first_point in Hz. destruct (Qfloor_bounds (grid_pos a y + inject_Z (native_of (w_kind w)) / 2)) as [_ F].
        assert (A : inject_Z (Qfloor (grid_pos a y + inject_Z (native_of (w_kind w)) / 2) + 1) <= inject_Z (j + native_of (w_kind w))) by (rewrite <- Zle_Qle; lia).
        rewrite !inject_Z_plus in A. change (inject_Z 1) with 1 in A.
        assert (T : inject_Z (native_of (w_kind w)) / 2 + inject_Z (native_of (w_kind w)) / 2 == inject_Z (native_of (w_kind w))) by field.
        lra. }
      unfold grid_pos in *.
      assert (A1 : inject_Z (-1) < inject_Z j) by (change (inject_Z (-1)) with (-(1)); lra).
      assert (A2 : inject_Z j < inject_Z (ax_size a)) by lra.
      rewrite <- Zlt_Qlt in A1, A2. lia. }
    clearbody p. revert x Hl Hin Hper. generalize (pt_axes p) as axes. induction axes as [|a axes IH]; intros [|y x] Hl Hin Hper; try discriminate; [constructor|].
    cbn [map] in Hper. inversion Hper; subst. constructor.
    + destruct (Hin 0%nat ltac:(cbn; lia)) as [B1 B2]. cbn [nth map] in B1, B2. apply HP; assumption.
    + apply IH; [cbn in Hl; lia| |assumption]. intros d Hd. apply (Hin (S d)). cbn [length]. lia.
Qed.
Print Assumptions C20_partition_of_unity.
(** a C-contiguous array of doubles *)
Lemma contiguous_2d n1 n2 : (0 <= n1)%Z -> (0 <= n2)%Z ->
  no_overlap {| ar_shape := [n1; n2]; ar_strides := [8 * n2; 8]%Z |}.
Proof.
  intros H1 H2 i j Hi Hj. unfold elements in *. cbn [ar_shape ar_strides map] in *.
  apply in_box in Hi. apply in_box in Hj.
  inversion Hi as [|? i1 ? ? B1 Hi']; subst. inversion Hi' as [|? i2 ? ? B2 Hi'']; subst. inversion Hi''; subst.
  inversion Hj as [|? j1 ? ? B3 Hj']; subst. inversion Hj' as [|? j2 ? ? B4 Hj'']; subst. inversion Hj''; subst.
  cbn [fst snd] in *. unfold byte_offset. cbn [ar_strides combine map fold_right fst snd]. intros E. assert (i1 = j1) by nia. assert (i2 = j2) by nia. subst. reflexivity.
Qed.
Definition mesh44 : array := {| ar_shape := [4; 4]%Z; ar_strides := [32; 8]%Z |}.
Definition box44 : affine := {| af_scale := [1#2; 2]; af_translate := [0; -(1)]; af_period := [4; 4]%Z |}.
Definition open44 : affine := {| af_scale := [1#2; 2]; af_translate := [0; -(1)]; af_period := [0; 0]%Z |}.
Lemma wf_mesh44 t : length (af_scale t) = 2%nat -> length (af_translate t) = 2%nat -> length (af_period t) = 2%nat ->
  wf_call mesh44 t.
Proof.
  intros H1 H2 H3. repeat split; try assumption; [cbn; lia|]. apply (contiguous_2d 4 4); lia.
Qed.
Example C20_case : exists m', window_paint (ResampleWindow TunedTSC 0) mesh44 (fun _ => 0) [[3; 13#10]] None
    (Some (Array [5#2])) None (Some open44) = Ret m' /\ total mesh44 m' == total mesh44 (fun _ => 0) + (5#2).
Proof.
  apply C20_partition_of_unity.
  - apply wf_mesh44; reflexivity.
  - apply default_window_ok; [exact Logic.I|left; lia].
  - reflexivity.
  - repeat constructor.
  - intros [|[|d]] Hd; [split; vm_compute; congruence| |cbn in Hd; lia]. split; vm_compute; congruence.
Qed.

(* ---------- C21 ---------- *)
Lemma weights_unit w real t x : wf_call real t -> default_window w -> full_mesh real t ->
  length x = length (ar_shape real) ->
  qsum (weight_of (painter_of w real t None) 1 x) (elements real) == 1.
Proof.
  intros Hwf Hw Hm Hx. set (p := painter_of w real t None).
  rewrite <- (cells_elements w real t None Hwf). fold p.
  rewrite (weight_total p 1 x), qprod_ones; [reflexivity| | | |].
  - rewrite Forall_map, Forall_forall. intros [a y] Hay. cbn [fst snd]. pose proof (in_combine_l _ _ _ _ Hay) as Ha.
    rewrite (axis_points_sum p 1 a y (proj1 Hw) (default_native w real t None Hw)).
    + rewrite (order_none w real t None Hwf a eq_refl Ha). reflexivity.
    + apply (axis_in_period w real t None Hwf _ (full_periods _ _ Hm) Ha).
  - apply standard_proper, Hw.
  - unfold p. rewrite (axes_length w real t None Hwf). exact Hx.
  - apply (full_mesh_axes w real t None Hwf Hm).
Qed.
Lemma weights_none w real t d z x : wf_call real t -> default_window w -> full_mesh real t ->
  d = Some z -> wf_diffdir real d -> length x = length (ar_shape real) ->
  qsum (weight_of (painter_of w real t d) 1 x) (elements real) == 0.
Proof.
  intros Hwf Hw Hm Hd Hz Hx. set (p := painter_of w real t d).
  rewrite <- (cells_elements w real t d Hwf). fold p.
  destruct (order_some w real t d Hwf z Hd Hz) as (a & Ha & Ho). fold p in Ha.
  destruct (In_nth_error _ _ Ha) as (n & Hn).
  assert (Hlen : length x = length (pt_axes p)) by (unfold p; rewrite (axes_length w real t d Hwf); exact Hx).
  assert (Hy : exists y, nth_error x n = Some y).
  { destruct (nth_error x n) as [y|] eqn:E; [exists y; reflexivity|]. apply nth_error_None in E.
    assert (n < length (pt_axes p))%nat by (apply nth_error_Some; congruence). lia. }
  destruct Hy as (y & Hy).
  rewrite (weight_total p 1 x).
  - apply (qprod_zero _ (qsum snd (axis_points p 1 a y))).
    + apply in_map_iff. exists (a, y). split; [reflexivity|].
      apply (nth_error_In _ n). rewrite nth_error_combine, Hn, Hy. reflexivity.
    + rewrite (axis_points_sum p 1 a y (proj1 Hw) (default_native w real t d Hw)).
      * rewrite (proj2 (Z.eqb_neq _ _) Ho). reflexivity.
      * apply (axis_in_period w real t d Hwf _ (full_periods _ _ Hm) Ha).
  - apply standard_proper, Hw.
  - exact Hlen.
  - apply (full_mesh_axes w real t d Hwf Hm).
Qed.

Lemma parts_sum pos mass (f : Q -> list Q -> Q) c : length mass = length pos ->
  (forall x, In x pos -> f 1 x == c) ->
  qsum (fun xmh : list Q * Q * Q => snd (fst xmh) * f (snd xmh) (fst (fst xmh))) (parts_of pos mass (repeat 1 (length pos)))
  == qsum (fun q => q) mass * c.
Proof.
  unfold parts_of. revert mass. induction pos as [|x pos IH]; intros [|q mass] Hl H; try discriminate.
  - cbn. ring.
  - cbn [length repeat combine]. rewrite !qsum_cons. cbn [fst snd].
    rewrite (IH mass); [|injection Hl as Hl; exact Hl|intros y Hy; apply H; right; exact Hy].
    rewrite (H x (or_introl eq_refl)). ring.
Qed.

Theorem C21_mass_conserved w real t m pos mass :
  wf_call real t -> default_window w -> full_mesh real t -> wf_pos real pos -> length mass = length pos ->
  exists m', window_paint w real m pos None (Some (Array mass)) None (Some t) = Ret m' /\
    total real m' == total real m + qsum (fun q => q) mass.
Proof.
  intros Hwf Hw Hm Hpos Hmass. eexists. split; [apply (window_paint_none w real t None Logic.I); exact Hmass|].
  rewrite (paint_total w real t None m _ Hwf (proj1 (standard_proper _ (proj1 Hw)))).
  2:{ apply (parts_wf w real t None Hwf). exact Hpos. }
  apply Qplus_comp; [reflexivity|].
  rewrite (parts_sum pos mass (fun h x => qsum (weight_of (painter_of w real t None) h x) (elements real)) 1 Hmass); [ring|].
  intros x Hx. apply weights_unit; try assumption. unfold wf_pos in Hpos. rewrite Forall_forall in Hpos. apply Hpos, Hx.
Qed.
Print Assumptions C21_mass_conserved.
Example C21_case : exists m', window_paint (ResampleWindow TunedPCS 0) mesh44 (fun a => inject_Z a) [[-(17); 13#10]; [99#7; 5]] None
    (Some (Array [5#2; -(3)])) None (Some box44) = Ret m' /\ total mesh44 m' == total mesh44 (fun a => inject_Z a) + -(1#2).
Proof.
  destruct (C21_mass_conserved (ResampleWindow TunedPCS 0) mesh44 box44 (fun a => inject_Z a) [[-(17); 13#10]; [99#7; 5]] [5#2; -(3)]) as (m' & E & H).
  - apply wf_mesh44; reflexivity.
  - apply default_window_ok; [exact Logic.I|left; lia].
  - split; [reflexivity|repeat constructor].
  - repeat constructor.
  - reflexivity.
  - exists m'. split; [exact E|]. rewrite H. apply Qplus_comp; [reflexivity|]. vm_compute. reflexivity.
Qed.

(* ---------- C22 ---------- *)
Lemma readout_elements w real t d m x h : wf_call real t -> (0 < native_of (w_kind w))%Z ->
  length x = length (ar_shape real) ->
  readout_at (painter_of w real t d) m x h ==
  qsum (fun idx => weight_of (painter_of w real t d) h x idx * elem real m idx) (elements real).
Proof.
  intros Hwf Hk Hx. rewrite readout_cells.
  - rewrite (cells_elements w real t d Hwf). apply qsum_ext. intros idx. rewrite (cell_elem w real t d Hwf). reflexivity.
  - apply painter_of_wf; assumption.
  - rewrite (axes_length w real t d Hwf). exact Hx.
Qed.
Theorem C22_readout_constant w real t m pos c :
  wf_call real t -> default_window w -> full_mesh real t -> wf_pos real pos ->
  (forall idx, In idx (elements real) -> elem real m idx == c) ->
  exists values, window_readout w real m pos None None (Some t) = Ret values /\
    length values = length pos /\ Forall (fun v => v == c) values.
Proof.
  intros Hwf Hw Hm Hpos Hc. eexists. split; [apply (window_readout_none w real t None Logic.I)|].
  split; [apply map_length|]. rewrite Forall_map. eapply Forall_impl; [|exact Hpos].
  intros x Hx. cbn beta in *.
  rewrite (readout_elements w real t None m x 1 Hwf (proj1 (standard_proper _ (proj1 Hw))) Hx).
  rewrite (qsum_ext_in _ (fun idx => weight_of (painter_of w real t None) 1 x idx * c)).
  2:{ intros idx Hidx. rewrite (Hc idx Hidx). reflexivity. }
  rewrite qsum_scale_r, (weights_unit w real t x Hwf Hw Hm Hx). ring.
Qed.
Print Assumptions C22_readout_constant.
Example C22_case : exists values, window_readout (ResampleWindow Quadratic 3) mesh44 (fun _ => 7#3) [[-(17); 13#10]; [99#7; 5]] None None (Some box44) = Ret values /\
    length values = 2%nat /\ Forall (fun v => v == (7#3)) values.
Proof.
  apply (C22_readout_constant (ResampleWindow Quadratic 3) mesh44 box44 (fun _ => 7#3) [[-(17); 13#10]; [99#7; 5]] (7#3)).
  - apply wf_mesh44; reflexivity.
  - apply default_window_ok; [exact Logic.I|right; reflexivity].
  - split; [reflexivity|repeat constructor].
  - repeat constructor.
  - reflexivity.
Qed.

(* ---------- C23 ---------- *)
(** any window, also a resized one or one given by tables, any smoothing lengths, any
    differentiation, periodic or clipped *)
Theorem C23_adjoint w real t m F pos hsml mass d :
  wf_call real t -> (0 < native_of (w_kind w))%Z -> wf_pos real pos -> wf_diffdir real d ->
  length mass = length pos -> length hsml = length pos ->
  exists m' values,
    window_paint w real m pos (Some (Array hsml)) (Some (Array mass)) d (Some t) = Ret m' /\
    window_readout w real F pos (Some (Array hsml)) d (Some t) = Ret values /\
    length values = length pos /\
    qsum (fun idx => elem real F idx * (elem real m' idx - elem real m idx)) (elements real) ==
    qsum (fun i => nth i mass 0 * nth i values 0) (seq 0 (length pos)).
Proof.
  intros Hwf Hk Hpos Hd Hmass Hh. set (p := painter_of w real t d). do 2 eexists.
  split; [apply (window_paint_ok w real t d Hd); assumption|].
  split; [apply (window_readout_ok w real t d Hd); assumption|].
  split; [rewrite map_length, combine_length; lia|]. fold p.
  rewrite (qsum_ext_in _ (fun idx => qsum (fun xmh => elem real F idx * (snd (fst xmh) * weight_of p (snd xmh) (fst (fst xmh)) idx)) (parts_of pos mass hsml))).
  2:{ intros idx Hidx. apply (in_elements w real t d Hwf) in Hidx.
      pose proof (paint_all_cell p m (parts_of pos mass hsml) idx (painter_of_wf w real t d Hwf Hk) (parts_wf w real t d Hwf pos mass hsml Hpos) Hidx) as H.
      unfold p in H. rewrite !(cell_elem w real t d Hwf) in H. fold p in H. rewrite H, qsum_scale. ring. }
  rewrite qsum_swap.
  rewrite (qsum_parts (fun x q h => qsum (fun idx => elem real F idx * (q * weight_of p h x idx)) (elements real)) pos mass hsml Hmass Hh).
  apply qsum_ext_in. intros i Hi. apply in_seq in Hi.
  rewrite (nth_map_in _ _ _ _ ([], 0)) by (rewrite combine_length; lia).
  rewrite combine_nth by congruence. cbn [fst snd]. unfold p.
  rewrite (readout_elements w real t d F (nth i pos []) (nth i hsml 0) Hwf Hk).
  - rewrite <- qsum_scale. apply qsum_ext. intros idx. ring.
  - unfold wf_pos in Hpos. rewrite Forall_forall in Hpos. apply Hpos, nth_In. lia.
Qed.
Print Assumptions C23_adjoint.
Example C23_case : exists m' values,
    window_paint (ResampleWindow TunedCIC 3) mesh44 (fun _ => 0) [[-(17); 13#10]; [99#7; 5]] (Some (Array [1; 2#3])) (Some (Array [5#2; -(3)])) (Some (-1)%Z) (Some open44) = Ret m' /\
    window_readout (ResampleWindow TunedCIC 3) mesh44 (fun a => inject_Z (a * a)) [[-(17); 13#10]; [99#7; 5]] (Some (Array [1; 2#3])) (Some (-1)%Z) (Some open44) = Ret values /\
    length values = 2%nat /\
    qsum (fun idx => elem mesh44 (fun a => inject_Z (a * a)) idx * (elem mesh44 m' idx - elem mesh44 (fun _ => 0) idx)) (elements mesh44) ==
    qsum (fun i => nth i [5#2; -(3)] 0 * nth i values 0) (seq 0 2).
Proof.
  apply (C23_adjoint (ResampleWindow TunedCIC 3) mesh44 open44 (fun _ => 0) (fun a => inject_Z (a * a)) [[-(17); 13#10]; [99#7; 5]] [1; 2#3] [5#2; -(3)] (Some (-1)%Z)).
  - apply wf_mesh44; reflexivity.
  - reflexivity.
  - repeat constructor.
  - cbn. lia.
  - reflexivity.
  - reflexivity.
Qed.

(* ---------- C30 ---------- *)
Theorem C30_gradient_sums_to_zero w real t m pos mass d :
  wf_call real t -> default_window w -> full_mesh real t -> wf_pos real pos -> length mass = length pos ->
  wf_diffdir real (Some d) ->
  (exists m', window_paint w real m pos None (Some (Array mass)) (Some d) (Some t) = Ret m' /\
     total real m' == total real m) /\
  (forall c, (forall idx, In idx (elements real) -> elem real m idx == c) ->
   exists values, window_readout w real m pos None (Some d) (Some t) = Ret values /\
     length values = length pos /\ Forall (fun v => v == 0) values).
Proof.
  intros Hwf Hw Hm Hpos Hmass Hd. split.
  - eexists. split; [apply (window_paint_none w real t (Some d) Hd); exact Hmass|].
    rewrite (paint_total w real t (Some d) m _ Hwf (proj1 (standard_proper _ (proj1 Hw)))).
    2:{ apply (parts_wf w real t (Some d) Hwf). exact Hpos. }
    rewrite (parts_sum pos mass (fun h x => qsum (weight_of (painter_of w real t (Some d)) h x) (elements real)) 0 Hmass); [ring|].
    intros x Hx. apply (weights_none w real t (Some d) d); try assumption; try reflexivity.
    unfold wf_pos in Hpos. rewrite Forall_forall in Hpos. apply Hpos, Hx.
  - intros c Hc. eexists. split; [apply (window_readout_none w real t (Some d) Hd)|].
    split; [apply map_length|]. rewrite Forall_map. eapply Forall_impl; [|exact Hpos].
    intros x Hx. cbn beta in *.
    rewrite (readout_elements w real t (Some d) m x 1 Hwf (proj1 (standard_proper _ (proj1 Hw))) Hx).
    rewrite (qsum_ext_in _ (fun idx => weight_of (painter_of w real t (Some d)) 1 x idx * c)).
    2:{ intros idx Hidx. rewrite (Hc idx Hidx). reflexivity. }
    rewrite qsum_scale_r, (weights_none w real t (Some d) d x Hwf Hw Hm eq_refl Hd Hx). ring.
Qed.
Print Assumptions C30_gradient_sums_to_zero.
Example C30_case : exists m', window_paint (ResampleWindow TunedCIC 0) mesh44 (fun _ => 1) [[-(17); 13#10]; [99#7; 5]] None
    (Some (Array [5#2; -(3)])) (Some 1%Z) (Some box44) = Ret m' /\ total mesh44 m' == 16.
Proof.
  destruct (C30_gradient_sums_to_zero (ResampleWindow TunedCIC 0) mesh44 box44 (fun _ => 1) [[-(17); 13#10]; [99#7; 5]] [5#2; -(3)] 1) as ((m' & E & H) & _).
  - apply wf_mesh44; reflexivity.
  - apply default_window_ok; [exact Logic.I|left; lia].
  - split; [reflexivity|repeat constructor].
  - repeat constructor.
  - reflexivity.
  - cbn. lia.
  - exists m'. split; [exact E|]. rewrite H. vm_compute. reflexivity.
Qed.
