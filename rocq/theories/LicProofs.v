(** Facts about the line integral convolution: weights at equal places, weights that are not
    negative, the nearest window at the mesh points, one step of all lines. *)
From Coq Require Import List Arith ZArith QArith Qabs Qround Qminmax Lqa Lia Bool Sorted Permutation Setoid Morphisms.
From Verif Require Import Base ListFacts LayoutModel LayoutSpec LayoutProofs LayoutModes LayoutMore WrapModel WrapProofs DomainModel DomainFill DomainGeom DomainTargets
  DomainHome DomainProperties QSum WindowModel WindowStencil WindowSpread WindowKernels WindowAxis WindowNative WindowApi WindowPoints
  WindowGrad WindowTranslate WindowProperties MeshModel MeshAssign MeshRoute MeshPaint MeshTile MeshDistributed MeshGrad MeshProperties MeshProperties2
  MeshResample MeshProperties4 MeshMoved LicModel.
Import ListNotations.
Local Open Scope Q_scope.

(** ** Weights *)
(** a particle that is at the same place of the mesh has the same weights *)
Lemma weight_same w real t t' h x x' idx : proper_kind (w_kind w) -> wf_call real t -> wf_call real t' ->
  af_period t' = af_period t ->
  length x = length (ar_shape real) -> length x' = length (ar_shape real) -> In idx (elements real) ->
  (forall i, (i < length (ar_shape real))%nat -> (0 < nth i (af_period t) 0 /\ nth i (ar_shape real) 0 <= nth i (af_period t) 0)%Z /\
     nth i x' 0 * nth i (af_scale t') 0 + nth i (af_translate t') 0 == nth i x 0 * nth i (af_scale t) 0 + nth i (af_translate t) 0) ->
  weight_of (painter_of w real t' None) h x' idx == weight_of (painter_of w real t None) h x idx.
Proof.
  intros Hk W W' Ep Lx Lx' Hin H. pose proof (elements_length _ _ Hin) as Li.
  rewrite !weight_of_prod by assumption. apply qprod_map_ext. intros i Hi. apply in_seq in Hi.
  destruct (H i ltac:(lia)) as ((Hp & Hs) & G). pose proof (elements_bound _ _ i Hin ltac:(lia)) as B.
  rewrite (axis_points_call w real t t' None None h W W').
  assert (D : displaced (axis_of real t None i) (nth i x 0) (axis_of real t' None i) (nth i x' 0) 0).
  { split; [cbn; rewrite Ep; reflexivity|]. split; [reflexivity|]. split.
    - left. cbn [ax_order axis_of]. rewrite order_spec_nth by lia. reflexivity.
    - unfold grid_pos. cbn [ax_scale ax_translate axis_of]. rewrite G. change (inject_Z 0) with 0. ring. }
  assert (P0 : (0 <= ax_period (axis_of real t None i))%Z) by (cbn [ax_period axis_of]; lia).
  rewrite (pair_eq_wsum _ _ _ (axis_points_translate (painter_of w real t None) h _ _ _ _ 0 Hk P0 D)).
  rewrite wsum_moved_periodic.
  - cbn [ax_period axis_of]. rewrite Z.sub_0_r, Z.mod_small by lia. reflexivity.
  - cbn [ax_period axis_of]. lia.
  - cbn [ax_period axis_of]. lia.
  - apply axis_points_in_period; [exact Hk|cbn [ax_period axis_of]; lia].
Qed.

Lemma kernel_unit k y : standard k -> 0 <= kernel_of k y <= 1.
Proof.
  destruct k; intros H; try contradiction; cbn [kernel_of];
    first [apply nearest_unit | apply linear_unit | apply quadratic_unit | apply cubic_unit].
Qed.

Lemma qsum_nonneg {A} (f : A -> Q) l : (forall a, In a l -> 0 <= f a) -> 0 <= qsum f l.
Proof.
  induction l as [|a l IH]; intros H; [rewrite qsum_nil; lra|]. rewrite qsum_cons.
  pose proof (H a (or_introl eq_refl)). pose proof (IH (fun b Hb => H b (or_intror Hb))). lra.
Qed.

Lemma qprod_nonneg l : (forall q, In q l -> 0 <= q) -> 0 <= qprod l.
Proof.
  induction l as [|a l IH]; intros H; [discriminate|]. change (qprod (a :: l)) with (a * qprod l).
  apply Qmult_le_0_compat; [apply H; left; reflexivity|]. apply IH. intros q Hq. apply H. right. exact Hq.
Qed.

(** the standard windows weigh nothing negatively *)
Lemma weights_nonneg w real t x idx : wf_call real t -> default_window w -> periods_ok t ->
  length x = length (ar_shape real) -> length idx = length (ar_shape real) ->
  0 <= weight_of (painter_of w real t None) 1 x idx.
Proof.
  intros W (Hk & Hs) Hp Lx Li. rewrite weight_of_prod by assumption. apply qprod_nonneg. intros q Hq.
  apply in_map_iff in Hq. destruct Hq as (i & <- & Hi). apply in_seq in Hi.
  set (a := axis_of real t None i).
  assert (O : ax_order a = 0%Z) by (unfold a; cbn [ax_order axis_of]; rewrite order_spec_nth by lia; reflexivity).
  assert (Pa : (0 <= ax_period a)%Z).
  { unfold a. cbn [ax_period axis_of]. unfold periods_ok in Hp. rewrite Forall_nth in Hp. apply Hp.
    destruct W as (_ & _ & _ & _ & Lp & _). lia. }
  rewrite (pair_eq_wsum _ _ _ (axis_points_native (painter_of w real t None) 1 a (nth i x 0) (standard_proper _ Hk)
    (default_native w real t None (conj Hk Hs)) Pa (fun _ => or_introl O))).
  unfold wsum. apply qsum_nonneg. intros jw Hj. unfold native_line in Hj. apply in_map_iff in Hj. destruct Hj as (j & <- & _).
  cbn [fst snd]. destruct (_ =? _)%Z; [|lra].
  change (pt_kind (painter_of w real t None)) with (w_kind w).
  rewrite line_weight_native by (apply standard_proper, Hk). rewrite O. cbn [Z.eqb]. apply kernel_unit. exact Hk.
Qed.

Lemma qsum_abs_bound {A} (wt v : A -> Q) M l : (forall a, In a l -> 0 <= wt a /\ Qabs (v a) <= M) ->
  Qabs (qsum (fun a => wt a * v a) l) <= M * qsum wt l.
Proof.
  induction l as [|a l IH]; intros H.
  - rewrite !qsum_nil. rewrite Qmult_0_r. discriminate.
  - rewrite !qsum_cons. eapply Qle_trans; [apply Qabs_triangle|].
    pose proof (IH (fun b Hb => H b (or_intror Hb))) as X. destruct (H a (or_introl eq_refl)) as (W & B).
    rewrite Qabs_Qmult, (Qabs_pos (wt a) W). nra.
Qed.

(** ** The mesh as one process sees it *)
Lemma store_elem real m g idx : no_overlap real -> In idx (elements real) -> elem real (store real m g) idx = g idx.
Proof.
  intros NO H. unfold elem, store. destruct (find _ _) as [i|] eqn:F.
  - apply find_some in F. destruct F as (Hi & E). apply Z.eqb_eq in E. f_equal. apply NO; assumption.
  - exfalso. apply (find_none _ _ F) in H. rewrite Z.eqb_refl in H. discriminate.
Qed.

(** what a single process reads at [x], the mesh holding [v c] in cell [c] *)
Definition interpolate (w : window) (Nmesh : list Z) (scale : list Q) (v : list Z -> Q) (x : list Q) : Q :=
  match window_readout w (c_array Nmesh) (store (c_array Nmesh) (fun _ => 0) v) [x] None None (Some (whole_affine Nmesh scale)) with
  | Ret [u] => u
  | _ => 0
  end.

Section Whole.
Variables (w : window) (Nmesh : list Z) (scale : list Q).
Hypothesis (HN : Forall (fun n => 0 < n)%Z Nmesh) (Hnd : (0 < length Nmesh)%nat) (Hs : length scale = length Nmesh).
Local Notation nd := (length Nmesh).
Local Notation whole := (c_array Nmesh).
Local Notation tw := (whole_affine Nmesh scale).
Local Notation pw := (painter_of w whole tw None).

Lemma whole_wf : wf_call whole tw.
Proof.
  destruct (c_array_stored Nmesh HN) as (_ & L & NO).
  unfold wf_call. cbn [ar_shape c_array af_scale af_translate af_period whole_affine]. rewrite map_length.
  repeat split; try assumption; lia.
Qed.
Lemma whole_full : full_mesh whole tw.
Proof. split; [reflexivity|exact HN]. Qed.

Lemma interpolate_sum v x : proper_kind (w_kind w) -> length x = nd ->
  interpolate w Nmesh scale v x == qsum (fun c => weight_of pw 1 x c * v c) (elements whole).
Proof.
  intros Hk L. unfold interpolate. rewrite (window_readout_none w whole tw None Logic.I). cbn [map].
  rewrite (readout_elements w whole tw None _ x 1 whole_wf (proj1 Hk) L).
  apply qsum_ext_in. intros c Hc. rewrite store_elem; [reflexivity|apply (c_array_stored Nmesh HN)|exact Hc].
Qed.

Lemma interpolate_same v v' x x' : proper_kind (w_kind w) -> length x = nd -> length x' = nd ->
  (forall i, (i < nd)%nat -> nth i x' 0 == nth i x 0) -> (forall c, In c (elements whole) -> v' c == v c) ->
  interpolate w Nmesh scale v' x' == interpolate w Nmesh scale v x.
Proof.
  intros Hk L L' E Ev. rewrite !interpolate_sum by assumption. apply qsum_ext_in. intros c Hc.
  rewrite (Ev c Hc). apply Qmult_comp; [|reflexivity].
  apply weight_same; try assumption; try exact whole_wf; [reflexivity|].
  intros i Hi. split; [|rewrite (E i Hi); reflexivity]. cbn [af_period whole_affine ar_shape c_array].
  rewrite Forall_nth in HN. specialize (HN i 0%Z Hi). lia.
Qed.

Lemma interpolate_bound v M x : default_window w -> length x = nd -> (forall c, In c (elements whole) -> Qabs (v c) <= M) ->
  Qabs (interpolate w Nmesh scale v x) <= M.
Proof.
  intros Hw L HM. rewrite interpolate_sum by (try apply standard_proper, Hw; exact L).
  eapply Qle_trans.
  - apply (qsum_abs_bound _ _ M). intros c Hc. split; [|exact (HM c Hc)].
    apply weights_nonneg; [exact whole_wf|exact Hw|exact (full_periods whole tw whole_full)|exact L|exact (elements_length _ _ Hc)].
  - rewrite (weights_unit w whole tw x whole_wf Hw whole_full L). lra.
Qed.
End Whole.

Lemma then_ret {A B} (l : list A) (f : list A -> list (outcome B)) : then_all (map Ret l) f = f l.
Proof. unfold then_all. rewrite all_ret_Ret. reflexivity. Qed.

(** ** One step on all ranks *)
(** the vector field at a point; a point moved along a vector *)
Definition velocity (w : window) (Nmesh : list Z) (scale : list Q) (V : list (list Z -> Q)) (x : list Q) : list Q :=
  map (fun v => interpolate w Nmesh scale v x) V.
Definition along (x : list Q) (k : Q) (u : list Q) : list Q := map (fun p => fst p + k * snd p) (combine x u).
Lemma along_nth x k u a : length x = length u -> (a < length x)%nat -> nth a (along x k u) 0 = nth a x 0 + k * nth a u 0.
Proof.
  intros L Ha. unfold along. rewrite (nth_map_in _ _ a 0 (0, 0)) by (rewrite combine_length; lia).
  rewrite combine_nth by exact L. reflexivity.
Qed.
Lemma along_length x k u : length x = length u -> length (along x k u) = length x.
Proof. intros L. unfold along. rewrite map_length, combine_length. lia. Qed.

Section World.
Variables (Nmesh : list Z) (BoxSize : value Q) (box : list Q) (w0 : window) (pt : partition)
  (blocks : list (list Z)) (pms : list pm).
Hypothesis (W : world Nmesh BoxSize box w0 pt blocks pms).
Local Notation P := (length blocks).
Local Notation nd := (length Nmesh).
Local Notation start r := (block_start (i_edges pt) (block blocks r)).
Local Notation shape r := (block_shape (i_edges pt) (block blocks r)).
Local Notation scale := (mesh_scale Nmesh box).
Let OK : mesh_ok Nmesh pt blocks := wd_mesh _ _ _ _ _ _ _ W.
Let HN : Forall (fun n => 0 < n)%Z Nmesh := world_sizes _ _ _ _ _ _ _ W.
Variables (w : window) (M ds : Q).
Hypothesis (Hw : default_window w) (Hds : 0 < ds) (HM : 0 <= M).
Hypothesis (Hbox : forall a, (a < nd)%nat -> inject_Z (nth a Nmesh 0%Z) <= nth a box 0).
Local Notation interp := (interpolate w Nmesh scale).
Definition smoothing_len : Q := M * ds * (1#2) + inject_Z (w_support w) * (1#2).
Hypothesis (Hroom : room Nmesh pt (repeat smoothing_len nd)).
Variable vmaxs : list Q.
Hypothesis (Lvm : length vmaxs = P) (Hvm : forall r, (r < P)%nat -> nth r vmaxs 0 == M).
Local Notation sms := (map (fun v => Scalar (v * ds * (1#2) + inject_Z (w_support w) * (1#2))) vmaxs).

Lemma dim_pos : (0 < nd)%nat.
Proof. exact (mk_dim _ _ _ OK). Qed.
Lemma support_pos : (0 < w_support w)%Z.
Proof. destruct Hw as (Hk & ->). exact (proj1 (standard_proper _ Hk)). Qed.
Lemma scale_nth a : (a < nd)%nat -> nth a scale 0 == inject_Z (nth a Nmesh 0%Z) / nth a box 0.
Proof.
  clear Lvm Hvm. intros Ha. pose proof (wd_boxdim _ _ _ _ _ _ _ W) as Lb. unfold mesh_scale.
  rewrite (nth_map_in _ _ a 0 (0%Z, 0)) by (rewrite combine_length; lia). rewrite combine_nth by lia. cbn [fst snd].
  unfold Qdiv. ring.
Qed.
Lemma box_pos a : (a < nd)%nat -> 0 < inject_Z (nth a Nmesh 0%Z) /\ 0 < nth a box 0.
Proof.
  intros Ha. specialize (Hbox a Ha). rewrite Forall_nth in HN. specialize (HN a 0%Z Ha).
  assert (X : 0 < inject_Z (nth a Nmesh 0%Z)) by (change 0 with (inject_Z 0); rewrite <- Zlt_Qlt; exact HN). lra.
Qed.
Lemma scale_unit a : (a < nd)%nat -> 0 <= nth a scale 0 <= 1.
Proof.
  intros Ha. rewrite scale_nth by exact Ha. destruct (box_pos a Ha) as (X & Y). specialize (Hbox a Ha). split.
  - apply Qle_shift_div_l; lra.
  - apply Qle_shift_div_r; lra.
Qed.

Lemma room_each r : (r < P)%nat -> room Nmesh pt (repeat (nth r vmaxs 0 * ds * (1#2) + inject_Z (w_support w) * (1#2)) nd).
Proof.
  intros Hr i k Hi Hk. specialize (Hroom i k Hi Hk). cbn zeta in *. rewrite nth_repeat_in in * by exact Hi.
  unfold smoothing_len in Hroom. destruct Hroom as [H|H]; [left|right; exact H]. rewrite (Hvm r Hr). exact H.
Qed.

(** positions [poss0] decomposed with this rank's smoothing, positions [poss] not further than
    half a step away *)
Lemma world_read poss0 poss fields v :
  particles_ok nd P poss0 -> particles_ok nd P poss -> map (@length _) poss = map (@length _) poss0 ->
  (forall r i a, (r < P)%nat -> (i < length (nth r poss []))%nat -> (a < nd)%nat ->
     Qabs (nth a (nth i (nth r poss []) []) 0 - nth a (nth i (nth r poss0 []) []) 0) <= M * ds * (1#2)) ->
  holds pt blocks fields v ->
  exists ls vs, decompose_each pms sms None poss0 = map Ret ls /\
    pm_readout pms (Some w) None None (Some ls) fields poss WNone = map Ret vs /\ length vs = P /\
    forall r, (r < P)%nat -> length (nth r vs []) = length (nth r poss []) /\
    forall i, (i < length (nth r poss []))%nat -> nth i (nth r vs []) 0 == interp v (nth i (nth r poss []) []).
Proof.
  intros H0 H1 Hl Hd (Lf & Hf).
  set (whole := c_array Nmesh). set (wm := store whole (fun _ => 0) v).
  assert (Sw : stored whole Nmesh) by (apply c_array_stored; exact HN).
  pose proof support_pos as Sp.
  destruct (C75_readout_moved _ _ _ _ _ _ _ W poss0 poss scale None sms
     (map (fun r => repeat (nth r vmaxs 0 * ds * (1#2) + inject_Z (w_support w) * (1#2)) nd) (seq 0 P))
     (Some w) w None WNone fields whole wm) as (ls & vs & E1 & E2 & E3 & E4); try assumption; try exact Logic.I; try reflexivity.
  - apply (mesh_scale_length _ _ _ _ _ _ _ W).
  - exact (default_affines _ _ _ _ _ _ _ W).
  - apply standard_proper, Hw.
  - rewrite !map_map. rewrite <- (map_nth_seq vmaxs 0 P Lvm) at 1. rewrite map_map. apply map_ext. intros r. reflexivity.
  - rewrite map_length, seq_length. reflexivity.
  - intros s Hs. rewrite nth_map_seq by exact Hs. split; [apply repeat_length|]. split; [|exact (room_each s Hs)].
    apply Forall_forall. intros q Hq. apply repeat_spec in Hq. subst q. rewrite (Hvm s Hs).
    assert (0 <= inject_Z (w_support w)) by (change 0 with (inject_Z 0); rewrite <- Zle_Qle; lia).
    assert (0 <= M * ds) by (apply Qmult_le_0_compat; lra). lra.
  - intros r i Hr Hi. split; [apply within_one; exact Sp|]. intros a Ha.
    rewrite nth_map_seq by exact Hr. rewrite nth_repeat_in by exact Ha. rewrite (Hvm r Hr). unfold pick. cbn [val fst snd].
    rewrite extent_one by exact Sp. specialize (Hd r i a Hr Hi Ha). destruct (scale_unit a Ha) as (S0 & S1).
    assert (X : Qabs (nth a scale 0 * nth a (nth i (nth r poss []) []) 0 - nth a scale 0 * nth a (nth i (nth r poss0 []) []) 0) <= M * ds * (1#2)).
    { assert (Y : nth a scale 0 * nth a (nth i (nth r poss []) []) 0 - nth a scale 0 * nth a (nth i (nth r poss0 []) []) 0 ==
        nth a scale 0 * (nth a (nth i (nth r poss []) []) 0 - nth a (nth i (nth r poss0 []) []) 0)) by ring.
      rewrite Y, Qabs_Qmult, (Qabs_pos _ S0).
      set (u := Qabs _) in *. assert (0 <= u) by apply Qabs_nonneg. nra. }
    assert (Z0 : inject_Z (w_support w) / 2 == inject_Z (w_support w) * (1#2)) by (unfold Qdiv; reflexivity).
    rewrite Z0. lra.
  - intros r Hr. exact (proj1 (Hf r Hr)).
  - intros r idx Hr Hin. unfold wm. rewrite store_elem.
    + symmetry. exact (proj2 (Hf r Hr) idx Hin).
    + apply Sw.
    + apply (zadd_in Nmesh pt blocks OK scale (f_array (nth r fields zero_field)) whole r); auto. apply (mesh_scale_length _ _ _ _ _ _ _ W). exact (proj1 (Hf r Hr)).
  - exists ls, vs. split; [exact E1|]. split; [exact E2|]. split; [exact E3|]. intros r Hr.
    destruct (E4 r Hr) as (us & U & F). cbn [local_arg] in U.
    rewrite (window_readout_none w whole (whole_affine Nmesh scale) None Logic.I) in U. injection U as <-.
    pose proof (Forall2_len _ _ _ F) as L. rewrite map_length in L. split; [exact L|]. intros i Hi.
    rewrite (Forall2_nth_Q _ _ i F). rewrite (nth_map_in _ _ i 0 []) by exact Hi.
    unfold interpolate. rewrite (window_readout_none w (c_array Nmesh) (whole_affine Nmesh scale) None Logic.I). reflexivity.
Qed.

Section Step.
Variables (vectors : list (list field)) (V : list (list Z -> Q)) (texture : list field) (T : list Z -> Q).
Hypothesis (Hvec : Forall2 (holds pt blocks) vectors V) (LV : length V = nd) (Htex : holds pt blocks texture T).
Hypothesis (HV : Forall (fun v => forall c, In c (elements (c_array Nmesh)) -> Qabs (v c) <= M) V).
Variables (K : nat -> nat).
Local Notation vel := (velocity w Nmesh scale V).

(** the particles are at [X r i], the integrals are [F r i] *)
Definition at_state (st : list state) (X : nat -> nat -> list Q) (F : nat -> nat -> Q) : Prop :=
  length st = P /\
  forall r, (r < P)%nat -> length (fst (nth r st ([], []))) = K r /\ length (snd (nth r st ([], []))) = K r /\
  forall i, (i < K r)%nat -> length (nth i (fst (nth r st ([], []))) []) = nd /\
    (forall a, (a < nd)%nat -> nth a (nth i (fst (nth r st ([], []))) []) 0 == nth a (X r i) 0) /\
    nth i (snd (nth r st ([], []))) 0 == F r i.

Lemma readouts_ok poss ls : particles_ok nd P poss -> decompose_each pms sms None poss = map Ret ls ->
  exists vals, readouts pms w ls vectors poss = map Ret vals /\ length vals = P /\
    forall r, (r < P)%nat -> length (nth r vals []) = nd /\
    forall d i, (d < nd)%nat -> (i < length (nth r poss []))%nat ->
      nth i (nth d (nth r vals []) []) 0 == interp (nth d V (fun _ => 0)) (nth i (nth r poss []) []).
Proof.
  intros Hp E. rewrite <- LV. clear LV HV. revert Hvec. generalize V as V'. clear V. intros V H.
  induction H as [|fs v vecs V Hv H IH].
  - exists (map (fun _ => []) pms). cbn [readouts]. rewrite map_map. split; [reflexivity|].
    split; [rewrite map_length; apply (world_length _ _ _ _ _ _ _ W)|]. intros r Hr.
    rewrite (nth_map_in _ pms r [] (mesh_pm Nmesh pt blocks box w0 0)) by (rewrite (world_length _ _ _ _ _ _ _ W); exact Hr).
    split; [reflexivity|]. intros d i Hd. simpl in Hd. lia.
  - destruct IH as (vals & E1 & L1 & H1).
    destruct (world_read poss poss fs v Hp Hp eq_refl) as (ls' & vs & E2 & E3 & L3 & H3); [|exact Hv|].
    { intros r i a Hr Hi Ha. assert (Z0 : forall q : Q, q - q == 0) by (intros; ring). rewrite Z0. change (Qabs 0) with 0.
      assert (0 <= M * ds) by (apply Qmult_le_0_compat; lra). lra. }
    rewrite E in E2. apply map_Ret_inj in E2. subst ls'.
    exists (map (fun p => fst p :: snd p) (combine vs vals)). cbn [readouts]. rewrite E3, then_ret, E1, then_ret.
    split; [reflexivity|]. split; [rewrite map_length, combine_length; lia|]. intros r Hr.
    rewrite (nth_map_in _ _ r [] ([], [])) by (rewrite combine_length; lia). rewrite combine_nth by lia. cbn [fst snd].
    destruct (H1 r Hr) as (L & H1'). split; [simpl; lia|]. intros [|d] i Hd Hi; cbn [nth].
    + exact (proj2 (H3 r Hr) i Hi).
    + apply H1'; [simpl in Hd; lia|exact Hi].
Qed.

Lemma advance_ok ds' sign vals ys i : (i < length ys)%nat ->
  nth i (advance_all ds' sign vals ys) [] = advance ds' sign vals i (nth i ys []).
Proof. intros Hi. unfold advance_all. rewrite nth_map_seq by exact Hi. reflexivity. Qed.

Lemma advance_nth ds' sign vals i y a : length vals = nd -> length y = nd -> (a < nd)%nat ->
  nth a (advance ds' sign vals i y) 0 = nth a y 0 + nth i (nth a vals []) 0 * ds' * (1#2) * sign.
Proof.
  intros Lv Ly Ha. unfold advance. rewrite (nth_map_in _ _ a 0 (0, [])) by (rewrite combine_length; lia).
  rewrite combine_nth by lia. reflexivity.
Qed.
Lemma advance_length ds' sign vals i y : length vals = nd -> length y = nd -> length (advance ds' sign vals i y) = nd.
Proof. intros Lv Ly. unfold advance. rewrite map_length, combine_length. lia. Qed.

Lemma map_fst_nth (st : list state) r : nth r (map fst st) [] = fst (nth r st ([], [])).
Proof. exact (map_nth fst st ([], []) r). Qed.

Lemma step_ok kernel len sign s st X F : sign * sign == 1 ->
  (forall r i, (r < P)%nat -> (i < K r)%nat -> length (X r i) = nd) ->
  at_state st X F ->
  exists st', lic_step pms w kernel len ds vmaxs vectors texture sign s st = map Ret st' /\
    at_state st' (fun r i => along (X r i) (sign * ds) (vel (X r i)))
      (fun r i => F r i + kernel (s * sign / (len * (1#2))) * ds *
         interp T (along (X r i) (sign * ds * (1#2)) (vel (X r i)))).
Proof.
  intros Hsign LX (Lst & Hst).
  assert (Lvel : forall x, length (vel x) = nd) by (intros x; unfold velocity; rewrite map_length; exact LV).
  set (x := map fst st).
  assert (Lx : length x = P) by (unfold x; rewrite map_length; exact Lst).
  assert (Nx : forall r, nth r x [] = fst (nth r st ([], []))) by (intros r; apply map_fst_nth).
  assert (Hx : particles_ok nd P x).
  { split; [exact Lx|]. apply Forall_nth. intros r d Hr. rewrite Lx in Hr. rewrite (nth_indep _ d []) by lia. rewrite Nx.
    destruct (Hst r Hr) as (L1 & _ & H). apply Forall_nth. intros i d' Hi. rewrite L1 in Hi.
    rewrite (nth_indep _ d' []) by lia. exact (proj1 (H i Hi)). }
  destruct (world_read x x texture T Hx Hx eq_refl) as (ls & _ & E1 & _); [|exact Htex|].
  { intros r i a Hr Hi Ha. assert (Z0 : forall q : Q, q - q == 0) by (intros; ring). rewrite Z0. change (Qabs 0) with 0.
    assert (0 <= M * ds) by (apply Qmult_le_0_compat; lra). lra. }
  destruct (readouts_ok x ls Hx E1) as (vals & E2 & L2 & H2).
  set (x1 := map (fun p => advance_all ds sign (fst p) (snd p)) (combine vals x)).
  assert (Lx1 : length x1 = P) by (unfold x1; rewrite map_length, combine_length; lia).
  assert (Nx1 : forall r, (r < P)%nat -> nth r x1 [] = advance_all ds sign (nth r vals []) (nth r x [])).
  { intros r Hr. unfold x1. rewrite (nth_map_in _ _ r [] ([], [])) by (rewrite combine_length; lia).
    rewrite combine_nth by lia. reflexivity. }
  assert (Kx : forall r, (r < P)%nat -> length (nth r x []) = K r) by (intros r Hr; rewrite Nx; apply (Hst r Hr)).
  assert (Kx1 : forall r, (r < P)%nat -> length (nth r x1 []) = K r).
  { intros r Hr. rewrite Nx1 by exact Hr. unfold advance_all. rewrite map_length, seq_length. apply Kx, Hr. }
  assert (Px : forall r i, (r < P)%nat -> (i < K r)%nat -> length (nth i (nth r x []) []) = nd /\
     forall a, (a < nd)%nat -> nth a (nth i (nth r x []) []) 0 == nth a (X r i) 0).
  { intros r i Hr Hi. rewrite Nx. destruct (Hst r Hr) as (_ & _ & H). destruct (H i Hi) as (A & B & _). split; assumption. }
  (* the velocity that was read is that at [X r i] *)
  assert (Hval : forall r i a, (r < P)%nat -> (i < K r)%nat -> (a < nd)%nat ->
     nth i (nth a (nth r vals []) []) 0 == nth a (vel (X r i)) 0).
  { intros r i a Hr Hi Ha. destruct (H2 r Hr) as (_ & H2'). rewrite H2' by (try exact Ha; rewrite Kx by exact Hr; exact Hi).
    unfold velocity. rewrite (nth_map_in _ V a 0 (fun _ => 0)) by lia.
    destruct (Px r i Hr Hi) as (A & B). apply interpolate_same; try assumption.
    - exact dim_pos.
    - apply (mesh_scale_length _ _ _ _ _ _ _ W).
    - apply standard_proper, Hw.
    - apply LX; assumption.
    - intros; reflexivity. }
  assert (Lval : forall r, (r < P)%nat -> length (nth r vals []) = nd) by (intros r Hr; apply (H2 r Hr)).
  assert (Px1 : forall r i, (r < P)%nat -> (i < K r)%nat -> length (nth i (nth r x1 []) []) = nd /\
     forall a, (a < nd)%nat -> nth a (nth i (nth r x1 []) []) 0 == nth a (along (X r i) (sign * ds * (1#2)) (vel (X r i))) 0).
  { intros r i Hr Hi. destruct (Px r i Hr Hi) as (A & B). rewrite Nx1 by exact Hr.
    rewrite advance_ok by (rewrite Kx by exact Hr; exact Hi). split; [apply advance_length; auto|].
    intros a Ha. rewrite advance_nth by auto. rewrite along_nth by (rewrite ?Lvel, (LX r i Hr Hi); auto).
    rewrite (Hval r i a Hr Hi Ha), (B a Ha). ring. }
  assert (Hx1 : particles_ok nd P x1).
  { split; [exact Lx1|]. apply Forall_nth. intros r d Hr. rewrite Lx1 in Hr. rewrite (nth_indep _ d []) by lia.
    apply Forall_nth. intros i d' Hi. rewrite Kx1 in Hi by exact Hr. rewrite (nth_indep _ d' []) by (rewrite Kx1 by exact Hr; exact Hi).
    exact (proj1 (Px1 r i Hr Hi)). }
  assert (Bv : forall r i a, (r < P)%nat -> (i < K r)%nat -> (a < nd)%nat -> Qabs (nth a (vel (X r i)) 0) <= M).
  { intros r i a Hr Hi Ha. unfold velocity. rewrite (nth_map_in _ V a 0 (fun _ => 0)) by lia.
    apply interpolate_bound; try assumption; [exact dim_pos|apply (mesh_scale_length _ _ _ _ _ _ _ W)|apply LX; assumption|].
    rewrite Forall_nth in HV. apply HV. lia. }
  destruct (world_read x x1 texture T Hx Hx1) as (ls' & ts & E3 & E4 & L4 & H4); [| |exact Htex|].
  { apply (nth_ext _ _ 0%nat 0%nat); [rewrite !map_length; lia|]. intros r Hr. rewrite map_length in Hr. rewrite Lx1 in Hr.
    rewrite (nth_map_in _ x1 r 0%nat []) by lia. rewrite (nth_map_in _ x r 0%nat []) by lia. rewrite Kx1, Kx by exact Hr. reflexivity. }
  { intros r i a Hr Hi Ha. rewrite Kx1 in Hi by exact Hr. destruct (Px1 r i Hr Hi) as (_ & A1). destruct (Px r i Hr Hi) as (_ & A0).
    rewrite (A1 a Ha), (A0 a Ha). rewrite along_nth by (rewrite ?Lvel, (LX r i Hr Hi); auto).
    assert (Y : nth a (X r i) 0 + sign * ds * (1#2) * nth a (vel (X r i)) 0 - nth a (X r i) 0 == sign * (ds * (1#2) * nth a (vel (X r i)) 0)) by ring.
    rewrite Y, !Qabs_Qmult, (Qabs_pos ds), (Qabs_pos (1#2)) by lra. specialize (Bv r i a Hr Hi Ha).
    assert (S1 : Qabs sign <= 1).
    { assert (S2 : Qabs sign * Qabs sign == 1) by (rewrite <- Qabs_Qmult, Hsign; reflexivity).
      pose proof (Qabs_nonneg sign). nra. }
    set (u := Qabs (nth a (vel (X r i)) 0)) in *. assert (0 <= u) by apply Qabs_nonneg. pose proof (Qabs_nonneg sign).
    assert (Z1 : ds * (1#2) * u <= M * ds * (1#2)) by nra. assert (0 <= ds * (1#2) * u) by (apply Qmult_le_0_compat; lra). nra. }
  rewrite E1 in E3. apply map_Ret_inj in E3. subst ls'.
  unfold lic_step. fold x. rewrite E1, then_ret, E2, then_ret. fold x1. rewrite E4, then_ret.
  eexists. split; [reflexivity|].
  set (x2 := map (fun p => advance_all ds sign (fst p) (snd p)) (combine vals x1)).
  match goal with |- at_state (combine x2 ?f) _ _ => set (fs := f) end.
  assert (Lx2 : length x2 = P) by (unfold x2; rewrite map_length, combine_length; lia).
  assert (Lfs : length fs = P) by (unfold fs; rewrite map_length, combine_length; lia).
  assert (Nx2 : forall r, (r < P)%nat -> nth r x2 [] = advance_all ds sign (nth r vals []) (nth r x1 [])).
  { intros r Hr. unfold x2. rewrite (nth_map_in _ _ r [] ([], [])) by (rewrite combine_length; lia).
    rewrite combine_nth by lia. reflexivity. }
  assert (Nfs : forall r, (r < P)%nat -> nth r fs [] =
     map (fun q => fst q + snd q * kernel (s * sign / (len * (1#2))) * ds) (combine (snd (nth r st ([], []))) (nth r ts []))).
  { intros r Hr. unfold fs. rewrite (nth_map_in _ _ r [] (([], []), [])) by (rewrite combine_length; lia).
    rewrite combine_nth by lia. reflexivity. }
  split; [rewrite combine_length; lia|]. intros r Hr. rewrite combine_nth by lia. cbn [fst snd].
  destruct (Hst r Hr) as (_ & Lf & Hf). destruct (H4 r Hr) as (Lt & Ht). rewrite Kx1 in Lt, Ht by exact Hr.
  rewrite Nx2, Nfs by exact Hr. split; [unfold advance_all; rewrite map_length, seq_length; apply Kx1, Hr|].
  split; [rewrite map_length, combine_length; lia|]. intros i Hi.
  destruct (Px1 r i Hr Hi) as (A1 & B1).
  rewrite advance_ok by (rewrite Kx1 by exact Hr; exact Hi). split; [apply advance_length; auto|]. split.
  - intros a Ha. rewrite advance_nth by auto. rewrite along_nth by (rewrite ?Lvel, (LX r i Hr Hi); auto).
    rewrite (B1 a Ha), (Hval r i a Hr Hi Ha). rewrite along_nth by (rewrite ?Lvel, (LX r i Hr Hi); auto). ring.
  - rewrite (nth_map_in _ _ i 0 (0, 0)) by (rewrite combine_length; lia). rewrite combine_nth by lia. cbn [fst snd].
    destruct (Hf i Hi) as (_ & _ & Hfi). rewrite Hfi, (Ht i Hi).
    rewrite (interpolate_same w Nmesh scale HN dim_pos (mesh_scale_length _ _ _ _ _ _ _ W) T T
       (along (X r i) (sign * ds * (1#2)) (vel (X r i))) (nth i (nth r x1 []) []) (standard_proper _ (proj1 Hw))).
    + ring.
    + rewrite along_length by (rewrite Lvel; apply LX; assumption). apply LX; assumption.
    + exact A1.
    + exact B1.
    + intros; reflexivity.
Qed.
End Step.
End World.
