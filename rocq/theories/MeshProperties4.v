(** Upsampling, downsampling and the uniform particle grid: C34, C45, C58. *)
From Coq Require Import List Arith ZArith QArith Qabs Qround Lqa Lia Bool Sorted Permutation Setoid Morphisms.
From Verif Require Import Base ListFacts LayoutModel LayoutSpec LayoutProofs LayoutModes LayoutMore WrapModel WrapProofs DomainModel DomainFill DomainGeom DomainTargets
  DomainHome DomainProperties QSum WindowModel WindowStencil WindowSpread WindowKernels WindowAxis WindowNative WindowApi WindowPoints
  WindowGrad WindowTranslate WindowProperties MeshModel MeshAssign MeshRoute MeshPaint MeshTile MeshDistributed MeshGrad MeshProperties MeshProperties2
  MeshResample.
Import ListNotations.
Local Open Scope Q_scope.

Lemma Forall2_nth_Q l m k : Forall2 Qeq l m -> nth k l 0 == nth k m 0.
Proof. intros H. revert k. induction H as [|a b l m E H IH]; intros [|k]; cbn [nth]; [reflexivity|reflexivity|exact E|apply IH]. Qed.

(** cells of mesh [b] per cell of mesh [a] *)
Definition grid_ratio (a b : list Z) : list Q := map (fun ab => 1 * inject_Z (fst ab) / inject_Z (snd ab)) (combine a b).
(** mesh points per volume of one mesh over that of another *)
Definition density (N : list Z) (box : list Q) : Q := prod_Z N / prod_Q box.

Lemma grid_ratio_length a b : length a = length b -> length (grid_ratio a b) = length a.
Proof. intros L. unfold grid_ratio. rewrite map_length, combine_length. lia. Qed.

Lemma half_support_ok w n : (0 <= w_support w)%Z -> Forall (fun q => 0 <= q) (half_support w n).
Proof.
  intros H. assert (Hq : 0 <= inject_Z (w_support w)) by (change 0 with (inject_Z 0); rewrite <- Zle_Qle; lia).
  apply Forall_forall. intros q Hin. apply repeat_spec in Hin. subst q. lra.
Qed.

Section One.
Variables (Nmesh : list Z) (BoxSize : value Q) (box : list Q) (w0 : window) (pt : partition)
  (blocks : list (list Z)) (pms : list pm).
Hypothesis (W : world Nmesh BoxSize box w0 pt blocks pms).
Local Notation P := (length blocks).
Local Notation nd := (length Nmesh).
Local Notation start r := (block_start (i_edges pt) (block blocks r)).
Local Notation shape r := (block_shape (i_edges pt) (block blocks r)).
Let OK : mesh_ok Nmesh pt blocks := wd_mesh _ _ _ _ _ _ _ W.
Variable (fs : list field).
Hypothesis (Lfs : length fs = P).
Hypothesis (Hst : forall r, (r < P)%nat -> stored (f_array (nth r fs zero_field)) (shape r)).
Local Notation arr r := (f_array (nth r fs zero_field)).

Definition world_coords : list (list (list Q)) := map coordinates_Q pms.

Lemma coords_nth r : (r < P)%nat -> nth r world_coords [] = own_cells pt blocks r (arr r).
Proof.
  intros Hr. unfold world_coords. rewrite (world_pms _ _ _ _ _ _ _ W), map_map. rewrite nth_map_seq by exact Hr.
  unfold coordinates_Q, mesh_coordinates, own_cells. rewrite map_map. cbn [pm_shape pm_start mesh_pm].
  unfold elements. rewrite (proj1 (Hst r Hr)). reflexivity.
Qed.

Lemma coords_length : length world_coords = P.
Proof. unfold world_coords. rewrite map_length. exact (world_length _ _ _ _ _ _ _ W). Qed.

Lemma coords_ok : particles_ok nd P world_coords.
Proof.
  split; [exact coords_length|]. apply Forall_nth. intros r d Hr. rewrite coords_length in Hr.
  rewrite (nth_indep _ d []) by (rewrite coords_length; exact Hr). rewrite coords_nth by exact Hr.
  pose proof (own_cells_wf Nmesh pt blocks OK r (arr r) Hr (Hst r Hr)) as H. unfold wf_pos in H.
  rewrite (proj1 (Hst r Hr)), (block_shape_length _ _ _ OK r Hr) in H. exact H.
Qed.

Lemma grid_affines : map pm_affine_grid pms = rank_affines Nmesh pt blocks (map (fun _ => 1) Nmesh).
Proof. rewrite (world_pms _ _ _ _ _ _ _ W), map_map. reflexivity. Qed.

Lemma elements_shape r : (r < P)%nat -> elements (arr r) = cells_of (shape r).
Proof. intros Hr. unfold elements. rewrite (proj1 (Hst r Hr)). reflexivity. Qed.

(** painting a value per cell with the nearest window stores the values *)
Lemma nnb_paint_world f : length f = P -> (forall r, (r < P)%nat -> length (nth r f []) = length (elements (arr r))) ->
  exists ms, pm_paint pms (Some nnb) (Some (map pm_affine_grid pms)) false None None fs world_coords WNone (WArray f) = map Ret ms /\
    length ms = P /\
    forall r k, (r < P)%nat -> (k < length (elements (arr r)))%nat ->
      elem (arr r) (nth r ms (fun _ => 0)) (nth k (elements (arr r)) []) == nth k (nth r f []) 0.
Proof.
  intros Lf Hf. unfold pm_paint. cbn [resampler_of transforms]. rewrite grid_affines. unfold paint_local. rewrite map_length, Lfs.
  set (filled := fun g : field => with_data g (fill (f_array g) (f_data g) 0)).
  assert (X : exists ms, length ms = P /\ forall r, (r < P)%nat ->
    window_paint nnb (arr r) (f_data (filled (nth r fs zero_field))) (own_cells pt blocks r (arr r)) None (Some (Array (nth r f []))) None
      (Some (affine_at Nmesh pt blocks (map (fun _ => 1) Nmesh) r)) = Ret (nth r ms (fun _ => 0)) /\
    forall k, (k < length (elements (arr r)))%nat ->
      elem (arr r) (nth r ms (fun _ => 0)) (nth k (elements (arr r)) []) == nth k (nth r f []) 0).
  { apply (exists_list (fun r m => window_paint nnb (arr r) (f_data (filled (nth r fs zero_field))) (own_cells pt blocks r (arr r)) None (Some (Array (nth r f []))) None
      (Some (affine_at Nmesh pt blocks (map (fun _ => 1) Nmesh) r)) = Ret m /\
    forall k, (k < length (elements (arr r)))%nat -> elem (arr r) m (nth k (elements (arr r)) []) == nth k (nth r f []) 0)).
    intros r Hr. destruct (nnb_paint Nmesh pt blocks OK r (arr r) Hr (Hst r Hr) (f_data (filled (nth r fs zero_field))) (nth r f []) (Hf r Hr)) as (m & E & V).
    exists m. split; [exact E|]. intros k Hk. rewrite V by exact Hk. unfold filled. cbn [f_data with_data].
    rewrite fill_elem by (apply nth_In; exact Hk). ring. }
  destruct X as (ms & Lm & X). exists ms. split; [|split; [exact Lm|intros r k Hr Hk; apply (proj2 (X r Hr)); exact Hk]].
  rewrite <- (map_seq_eq ms (fun _ => 0) (fun r => nth r ms (fun _ => 0)) P Lm) by (intros; reflexivity).
  rewrite map_map. apply map_ext_seq. intros r Hr.
  rewrite (nth_error_nth' _ (filled zero_field)) by (rewrite map_length; lia).
  rewrite (map_nth filled). unfold rank_affines.
  rewrite (nth_error_nth' (map _ (seq 0 P)) zero_affine) by (rewrite map_length, seq_length; exact Hr).
  rewrite nth_map_seq by exact Hr.
  rewrite (nth_error_nth' _ []) by (rewrite coords_length; exact Hr). rewrite coords_nth by exact Hr.
  cbn [local_arg]. rewrite (nth_error_nth' f []) by lia. cbn [option_map]. exact (proj1 (X r Hr)).
Qed.

Lemma nnb_read_world :
  exists vs, pm_readout pms (Some nnb) (Some (map pm_affine_grid pms)) None None fs world_coords WNone = map Ret vs /\
    length vs = P /\
    forall r, (r < P)%nat -> length (nth r vs []) = length (elements (arr r)) /\
    forall k, (k < length (elements (arr r)))%nat ->
      nth k (nth r vs []) 0 == elem (arr r) (f_data (nth r fs zero_field)) (nth k (elements (arr r)) []).
Proof.
  unfold pm_readout. cbn [resampler_of transforms]. rewrite grid_affines. unfold readout_local. rewrite Lfs.
  destruct (exists_list (fun r us => window_readout nnb (arr r) (f_data (nth r fs zero_field)) (own_cells pt blocks r (arr r)) None None
      (Some (affine_at Nmesh pt blocks (map (fun _ => 1) Nmesh) r)) = Ret us /\
    length us = length (elements (arr r)) /\
    forall k, (k < length (elements (arr r)))%nat -> nth k us 0 == elem (arr r) (f_data (nth r fs zero_field)) (nth k (elements (arr r)) [])) [] P) as (vs & Lv & X).
  { intros r Hr. apply (nnb_readout Nmesh pt blocks OK r (arr r) Hr (Hst r Hr)). }
  exists vs. split; [|split; [exact Lv|intros r Hr; exact (proj2 (X r Hr))]].
  rewrite <- (map_seq_eq vs [] (fun r => nth r vs []) P Lv) by (intros; reflexivity).
  rewrite map_map. apply map_ext_seq. intros r Hr.
  rewrite (nth_error_nth' fs zero_field) by lia. unfold rank_affines.
  rewrite (nth_error_nth' (map _ (seq 0 P)) zero_affine) by (rewrite map_length, seq_length; exact Hr).
  rewrite nth_map_seq by exact Hr.
  rewrite (nth_error_nth' _ []) by (rewrite coords_length; exact Hr). rewrite coords_nth by exact Hr.
  cbn [local_arg]. exact (proj1 (X r Hr)).
Qed.
End One.

Section Two.
Variables (Ns : list Z) (Bs : value Q) (boxs : list Q) (ws : window) (pts : partition) (bs : list (list Z)) (srcs : list pm).
Variables (Nd : list Z) (Bd : value Q) (boxd : list Q) (wd : window) (ptd : partition) (bd : list (list Z)) (dsts : list pm).
Hypothesis (Ws : world Ns Bs boxs ws pts bs srcs) (Wd : world Nd Bd boxd wd ptd bd dsts).
Hypothesis (HP : length bs = length bd) (Hnd : length Ns = length Nd).
Local Notation P := (length bd).
Local Notation nd := (length Nd).

Lemma pairs : combine dsts srcs = map (fun r => (mesh_pm Nd ptd bd boxd wd r, mesh_pm Ns pts bs boxs ws r)) (seq 0 P).
Proof.
  rewrite (world_pms _ _ _ _ _ _ _ Wd), (world_pms _ _ _ _ _ _ _ Ws), HP. apply combine_map_map.
Qed.

Lemma smoothing_ret w' w : resampler_of srcs w' = w ->
  mkarr (smoothing_value (mesh_pm Ns pts bs boxs ws 0) (smoothing_of w')) (length Ns) = Ret (half_support w (length Ns)).
Proof.
  intros E. destruct w' as [w1|]; cbn [smoothing_of smoothing_value].
  - cbn [resampler_of] in E. subst w. reflexivity.
  - rewrite (default_resampler _ _ _ _ _ _ _ Ws) in E. subst w. reflexivity.
Qed.

Theorem upsample_ok w' w keep_mean fields outs whole wm :
  resampler_of srcs w' = w -> proper_kind (w_kind w) -> (0 < w_support w <= 3)%Z ->
  room Ns pts (repeat (16#10) nd) ->
  length fields = P ->
  (forall r, (r < P)%nat -> stored (f_array (nth r fields zero_field)) (block_shape (i_edges pts) (block bs r))) ->
  stored whole Ns ->
  (forall r idx, (r < P)%nat -> In idx (elements (f_array (nth r fields zero_field))) ->
     elem whole wm (zadd idx (block_start (i_edges pts) (block bs r))) ==
     elem (f_array (nth r fields zero_field)) (f_data (nth r fields zero_field)) idx) ->
  length outs = P ->
  (forall r, (r < P)%nat -> stored (f_array (nth r outs zero_field)) (block_shape (i_edges ptd) (block bd r))) ->
  exists ms, upsample dsts srcs fields outs w' keep_mean = map Ret ms /\ length ms = P /\
    forall r idx, (r < P)%nat -> In idx (elements (f_array (nth r outs zero_field))) ->
    exists u, window_readout w whole wm [map inject_Z (zadd idx (block_start (i_edges ptd) (block bd r)))] None None
        (Some (whole_affine Ns (grid_ratio Ns Nd))) = Ret [u] /\
      elem (f_array (nth r outs zero_field)) (nth r ms (fun _ => 0)) idx ==
      if keep_mean then u else u * (density Ns boxs / density Nd boxd).
Proof.
  intros Hw Hk Hsup Hroom Lf Hstf Hwhole Hinit Lo Hsto.
  assert (H0 : (0 < P)%nat) by exact (world_blocks _ _ _ _ _ _ _ Wd).
  assert (Lr : length (grid_ratio Ns Nd) = length Ns) by (apply grid_ratio_length; exact Hnd).
  assert (Hsup0 : (0 <= w_support w)%Z) by lia.
  unfold upsample. fold (world_coords dsts).
  match goal with |- context [all_ret ?t] => replace t with (map Ret (rank_affines Ns pts bs (grid_ratio Ns Nd))) end.
  2:{ rewrite pairs, map_map. unfold rank_affines. rewrite map_map, HP. apply map_ext_seq. intros r Hr.
      cbn [pm_Nmesh pm_start mesh_pm]. fold (grid_ratio Ns Nd). unfold Affine.
      rewrite (mkarr_array (grid_ratio Ns Nd)) by lia. cbn [bind]. rewrite (mkarr_array Ns) by exact Hnd. cbn [bind].
      rewrite mkarr_array; [reflexivity|]. rewrite map_length, (start_length _ _ _ (wd_mesh _ _ _ _ _ _ _ Ws)); lia. }
  rewrite all_ret_Ret.
  pose proof (coords_ok _ _ _ _ _ _ _ Wd outs Hsto) as Hq. set (q := world_coords dsts) in *.
  assert (Hq' : particles_ok (length Ns) (length bs) q) by (rewrite Hnd, HP; exact Hq).
  destruct (decompose_world Ns Bs boxs ws pts bs srcs Ws (grid_ratio Ns Nd) (half_support w (length Ns))
    (Some (rank_affines Ns pts bs (grid_ratio Ns Nd))) (smoothing_of w') q Lr (repeat_length _ _)
    (half_support_ok w _ Hsup0) eq_refl (smoothing_ret w' w Hw) Hq') as (args & E1 & _).
  rewrite E1, all_ret_Ret.
  destruct (C32_readout_distributed Ns Bs boxs ws pts bs srcs Ws q (grid_ratio Ns Nd) (Some (rank_affines Ns pts bs (grid_ratio Ns Nd)))
    (SmoothNumber (Scalar (16#10))) (repeat (16#10) (length Ns)) w' w None WNone fields whole wm) as (ls & vs & E2 & E3 & Lv & V);
    auto; try exact Logic.I.
  - apply repeat_length.
  - apply Forall_forall. intros x Hin. apply repeat_spec in Hin. subst x. lra.
  - rewrite Hnd. exact Hroom.
  - intros r i _ _. cbn [val]. split; [apply within_one; lia|]. intros a Ha.
    rewrite (extent_one w) by lia. rewrite nth_repeat_in by exact Ha.
    assert (X : inject_Z (w_support w) <= inject_Z 3) by (rewrite <- Zle_Qle; lia). change (inject_Z 3) with 3 in X.
    unfold Qdiv. change (/ 2) with (1#2). lra.
  - rewrite HP. exact Lf.
  - intros r Hr. apply Hstf. lia.
  - intros r idx Hr. apply Hinit. lia.
  - rewrite E2, all_ret_Ret, E3, all_ret_Ret. rewrite HP in Lv, V.
    set (factor := density Ns boxs / density Nd boxd).
    set (f := if keep_mean then vs else _).
    assert (F : f = map (fun r => map (fun v => if keep_mean then v else v * factor) (nth r vs [])) (seq 0 P)).
    { unfold f. destruct keep_mean.
      - symmetry. apply (map_seq_eq vs []); [exact Lv|]. intros r Hr. apply map_id.
      - rewrite pairs. rewrite <- (map_seq_eq vs [] (fun r => nth r vs []) P Lv) at 1 by (intros; reflexivity).
        rewrite combine_map_map, map_map. reflexivity. }
    assert (Lus : forall r us, (r < P)%nat ->
      window_readout w whole wm (nth r q []) (local_arg WNone r) None (Some (whole_affine Ns (grid_ratio Ns Nd))) = Ret us ->
      length us = length (elements (f_array (nth r outs zero_field)))).
    { intros r us Hr E. cbn [local_arg] in E. rewrite (window_readout_values w whole (whole_affine Ns (grid_ratio Ns Nd)) None) in E by exact Logic.I.
      injection E as E. rewrite <- E, map_length, seq_length. unfold q. rewrite (coords_nth _ _ _ _ _ _ _ Wd outs Hsto r Hr). apply map_length. }
    assert (Lvs : forall r, (r < P)%nat -> length (nth r vs []) = length (elements (f_array (nth r outs zero_field)))).
    { intros r Hr. destruct (V r Hr) as (us & E & A). rewrite (Forall2_len _ _ _ A). exact (Lus r us Hr E). }
    destruct (nnb_paint_world _ _ _ _ _ _ _ Wd outs Lo Hsto f) as (ms & E4 & Lm & M).
    { rewrite F, map_length, seq_length. reflexivity. }
    { intros r Hr. rewrite F, nth_map_seq by exact Hr. rewrite map_length. exact (Lvs r Hr). }
    exists ms. split; [exact E4|]. split; [exact Lm|]. intros r idx Hr Hin.
    destruct (In_nth _ _ [] Hin) as (k & Hkk & Ek). specialize (M r k Hr Hkk). rewrite Ek in M.
    destruct (V r Hr) as (us & E & A). pose proof (Lus r us Hr E) as Lu.
    exists (nth k us 0). split.
    + cbn [local_arg] in E. rewrite (window_readout_values w whole (whole_affine Ns (grid_ratio Ns Nd)) None) in E by exact Logic.I.
      injection E as E. rewrite (window_readout_values w whole (whole_affine Ns (grid_ratio Ns Nd)) None) by exact Logic.I.
      cbn [length seq map values_of repeat nth]. f_equal. f_equal. rewrite <- E.
      assert (Lq : length (nth r q []) = length (elements (f_array (nth r outs zero_field)))).
      { unfold q. rewrite (coords_nth _ _ _ _ _ _ _ Wd outs Hsto r Hr). apply map_length. }
      rewrite nth_map_seq by lia. cbn [values_of]. rewrite nth_repeat_in by lia.
      unfold q. rewrite (coords_nth _ _ _ _ _ _ _ Wd outs Hsto r Hr). unfold own_cells.
      rewrite (nth_map_in _ _ k [] []) by exact Hkk. rewrite Ek. reflexivity.
    + rewrite M, F, nth_map_seq by exact Hr. rewrite (nth_map_in _ (nth r vs []) k 0 0) by (rewrite (Lvs r Hr); exact Hkk).
      pose proof (Forall2_nth_Q _ _ k A) as X. destruct keep_mean; rewrite X; reflexivity.
Qed.
End Two.

(** ** C34 *)

(** For windows of at most three cells: [upsample] on any number of ranks stores in each cell
    what a single process reads from the whole source mesh at the position of the cell. *)
Theorem C34_upsample :
  forall Ns Bs boxs ws pts bs srcs Nd Bd boxd wd ptd bd dsts,
  world Ns Bs boxs ws pts bs srcs -> world Nd Bd boxd wd ptd bd dsts ->
  length bs = length bd -> length Ns = length Nd ->
  let P := length bd in
  forall w' w (keep_mean : bool) fields outs whole wm,
  resampler_of srcs w' = w -> proper_kind (w_kind w) -> (0 < w_support w <= 3)%Z ->
  room Ns pts (repeat (16#10) (length Nd)) ->
  length fields = P ->
  (forall r, (r < P)%nat -> stored (f_array (nth r fields zero_field)) (block_shape (i_edges pts) (block bs r))) ->
  stored whole Ns ->
  (forall r idx, (r < P)%nat -> In idx (elements (f_array (nth r fields zero_field))) ->
     elem whole wm (zadd idx (block_start (i_edges pts) (block bs r))) ==
     elem (f_array (nth r fields zero_field)) (f_data (nth r fields zero_field)) idx) ->
  length outs = P ->
  (forall r, (r < P)%nat -> stored (f_array (nth r outs zero_field)) (block_shape (i_edges ptd) (block bd r))) ->
  exists ms, upsample dsts srcs fields outs w' keep_mean = map Ret ms /\ length ms = P /\
    forall r idx, (r < P)%nat -> In idx (elements (f_array (nth r outs zero_field))) ->
    exists u, window_readout w whole wm [map inject_Z (zadd idx (block_start (i_edges ptd) (block bd r)))] None None
        (Some (whole_affine Ns (grid_ratio Ns Nd))) = Ret [u] /\
      elem (f_array (nth r outs zero_field)) (nth r ms (fun _ => 0)) idx ==
      if keep_mean then u else u * (density Ns boxs / density Nd boxd).
Proof. exact upsample_ok. Qed.
Print Assumptions C34_upsample.

(** a field holds the value [v c] in cell [c] of the mesh *)
Definition holds (pt : partition) (blocks : list (list Z)) (fields : list field) (v : list Z -> Q) : Prop :=
  length fields = length blocks /\
  forall r, (r < length blocks)%nat -> stored (f_array (nth r fields zero_field)) (block_shape (i_edges pt) (block blocks r)) /\
  forall idx, In idx (elements (f_array (nth r fields zero_field))) ->
    elem (f_array (nth r fields zero_field)) (f_data (nth r fields zero_field)) idx == v (zadd idx (block_start (i_edges pt) (block blocks r))).

Lemma whole_memory whole N (v : list Z -> Q) : stored whole N -> exists wm, forall c, In c (elements whole) -> elem whole wm c = v c.
Proof.
  intros (_ & _ & NO).
  exists (fun a => match find (fun c => (byte_offset (ar_strides whole) c =? a)%Z) (elements whole) with Some c => v c | None => 0 end).
  intros c Hc. unfold elem. destruct (find _ _) as [c'|] eqn:F.
  - apply find_some in F. destruct F as (Hc' & E). apply Z.eqb_eq in E. f_equal. apply NO; assumption.
  - exfalso. apply (find_none _ _ F) in Hc. rewrite Z.eqb_refl in Hc. discriminate.
Qed.

(** the result does not depend on the numbers of ranks or the partitions of the two meshes *)
Theorem C34_decomposition_independent :
  forall Ns Bs boxs ws Nd Bd boxd wd pts bs srcs ptd bd dsts pts' bs' srcs' ptd' bd' dsts',
  world Ns Bs boxs ws pts bs srcs -> world Nd Bd boxd wd ptd bd dsts -> length bs = length bd ->
  world Ns Bs boxs ws pts' bs' srcs' -> world Nd Bd boxd wd ptd' bd' dsts' -> length bs' = length bd' ->
  length Ns = length Nd ->
  forall w' w (keep_mean : bool) v fields fields' outs outs' z z',
  resampler_of srcs w' = w -> proper_kind (w_kind w) -> (0 < w_support w <= 3)%Z ->
  room Ns pts (repeat (16#10) (length Nd)) -> room Ns pts' (repeat (16#10) (length Nd)) ->
  holds pts bs fields v -> holds pts' bs' fields' v -> holds ptd bd outs z -> holds ptd' bd' outs' z' ->
  exists ms ms', upsample dsts srcs fields outs w' keep_mean = map Ret ms /\
    upsample dsts' srcs' fields' outs' w' keep_mean = map Ret ms' /\
    forall r r' idx idx', (r < length bd)%nat -> (r' < length bd')%nat ->
      In idx (elements (f_array (nth r outs zero_field))) -> In idx' (elements (f_array (nth r' outs' zero_field))) ->
      zadd idx (block_start (i_edges ptd) (block bd r)) = zadd idx' (block_start (i_edges ptd') (block bd' r')) ->
      elem (f_array (nth r outs zero_field)) (nth r ms (fun _ => 0)) idx ==
      elem (f_array (nth r' outs' zero_field)) (nth r' ms' (fun _ => 0)) idx'.
Proof.
  intros Ns Bs boxs ws Nd Bd boxd wd pts bs srcs ptd bd dsts pts' bs' srcs' ptd' bd' dsts' Ws Wd HP Ws' Wd' HP' Hnd
    w' w keep_mean v fields fields' outs outs' z z' Hw Hk Hsup R R' (Lf & Hf) (Lf' & Hf') (Lo & Ho) (Lo' & Ho').
  assert (Hw' : resampler_of srcs' w' = w).
  { destruct w' as [w1|]; [exact Hw|]. rewrite (default_resampler _ _ _ _ _ _ _ Ws) in Hw. rewrite (default_resampler _ _ _ _ _ _ _ Ws'). exact Hw. }
  pose proof (c_array_stored Ns (world_sizes _ _ _ _ _ _ _ Ws)) as SW.
  destruct (whole_memory (c_array Ns) Ns v SW) as (wm & Hwm).
  assert (E : forall p b (s : list pm) (fs : list field) ww (BB : value Q) bx, world Ns BB bx ww p b s -> (forall r, (r < length b)%nat ->
    stored (f_array (nth r fs zero_field)) (block_shape (i_edges p) (block b r)) /\
    forall idx, In idx (elements (f_array (nth r fs zero_field))) ->
     elem (f_array (nth r fs zero_field)) (f_data (nth r fs zero_field)) idx == v (zadd idx (block_start (i_edges p) (block b r)))) ->
    forall r idx, (r < length b)%nat -> In idx (elements (f_array (nth r fs zero_field))) ->
     elem (c_array Ns) wm (zadd idx (block_start (i_edges p) (block b r))) ==
     elem (f_array (nth r fs zero_field)) (f_data (nth r fs zero_field)) idx).
  { intros p b s fs ww BB bx WW H r idx Hr Hin. rewrite Hwm.
    - symmetry. apply (proj2 (H r Hr)). exact Hin.
    - apply (zadd_in Ns p b (wd_mesh _ _ _ _ _ _ _ WW) (map inject_Z Ns) (f_array (nth r fs zero_field)) (c_array Ns) r (map_length _ _) Hr (proj1 (H r Hr)) SW). exact Hin. }
  destruct (C34_upsample Ns Bs boxs ws pts bs srcs Nd Bd boxd wd ptd bd dsts Ws Wd HP Hnd w' w keep_mean fields outs (c_array Ns) wm Hw Hk Hsup R)
    as (ms & E1 & _ & V).
  { lia. } { intros r Hr. apply Hf. lia. } { exact SW. } { intros r idx Hr. apply (E _ _ _ _ _ _ _ Ws Hf). lia. } { exact Lo. } { intros r Hr. apply Ho. exact Hr. }
  destruct (C34_upsample Ns Bs boxs ws pts' bs' srcs' Nd Bd boxd wd ptd' bd' dsts' Ws' Wd' HP' Hnd w' w keep_mean fields' outs' (c_array Ns) wm Hw' Hk Hsup R')
    as (ms' & E1' & _ & V').
  { lia. } { intros r Hr. apply Hf'. lia. } { exact SW. } { intros r idx Hr. apply (E _ _ _ _ _ _ _ Ws' Hf'). lia. } { exact Lo'. } { intros r Hr. apply Ho'. exact Hr. }
  exists ms, ms'. split; [exact E1|]. split; [exact E1'|]. intros r r' idx idx' Hr Hr' Hin Hin' Ez.
  destruct (V r idx Hr Hin) as (u & U1 & U2). destruct (V' r' idx' Hr' Hin') as (u' & U1' & U2').
  rewrite Ez in U1. rewrite U1 in U1'. injection U1' as ->. rewrite U2, U2'. reflexivity.
Qed.
Print Assumptions C34_decomposition_independent.

(** a constant stays constant when the mean is kept *)
Theorem C34_constant :
  forall Ns Bs boxs ws pts bs srcs Nd Bd boxd wd ptd bd dsts,
  world Ns Bs boxs ws pts bs srcs -> world Nd Bd boxd wd ptd bd dsts ->
  length bs = length bd -> length Ns = length Nd ->
  forall w' w fields outs z c,
  resampler_of srcs w' = w -> default_window w -> (w_support w <= 3)%Z ->
  room Ns pts (repeat (16#10) (length Nd)) -> holds pts bs fields (fun _ => c) -> holds ptd bd outs z ->
  exists ms, upsample dsts srcs fields outs w' true = map Ret ms /\
    forall r idx, (r < length bd)%nat -> In idx (elements (f_array (nth r outs zero_field))) ->
      elem (f_array (nth r outs zero_field)) (nth r ms (fun _ => 0)) idx == c.
Proof.
  intros Ns Bs boxs ws pts bs srcs Nd Bd boxd wd ptd bd dsts Ws Wd HP Hnd w' w fields outs z c Hw Hdw Hsup R (Lf & Hf) (Lo & Ho).
  pose proof (c_array_stored Ns (world_sizes _ _ _ _ _ _ _ Ws)) as SW.
  pose proof (standard_proper _ (proj1 Hdw)) as Hk.
  destruct (C34_upsample Ns Bs boxs ws pts bs srcs Nd Bd boxd wd ptd bd dsts Ws Wd HP Hnd w' w true fields outs (c_array Ns) (fun _ => c) Hw Hk)
    as (ms & E & _ & V); auto.
  { rewrite (proj2 Hdw) in *. pose proof (proj1 Hk). lia. } { lia. } { intros r Hr. apply Hf. lia. }
  { intros r idx Hr Hin. symmetry. apply Hf; [lia|exact Hin]. } { intros r Hr. apply Ho. exact Hr. }
  exists ms. split; [exact E|]. intros r idx Hr Hin. destruct (V r idx Hr Hin) as (u & U1 & U2). rewrite U2.
  assert (Lr : length (grid_ratio Ns Nd) = length Ns) by (unfold grid_ratio; rewrite map_length, combine_length; lia).
  pose proof (wf_whole Ns pts bs (wd_mesh _ _ _ _ _ _ _ Ws) (grid_ratio Ns Nd) (c_array Ns) Lr SW) as WF.
  destruct (C22_readout_constant w (c_array Ns) (whole_affine Ns (grid_ratio Ns Nd)) (fun _ => c)
    [map inject_Z (zadd idx (block_start (i_edges ptd) (block bd r)))] c WF Hdw) as (us & X & _ & Y).
  - split; [reflexivity|]. pose proof (world_sizes _ _ _ _ _ _ _ Ws). assumption.
  - unfold wf_pos. apply Forall_cons; [|apply Forall_nil]. rewrite map_length. cbn [ar_shape c_array].
    pose proof (elements_length _ _ Hin) as L. rewrite (proj1 (proj1 (Ho r Hr))), (block_shape_length _ _ _ (wd_mesh _ _ _ _ _ _ _ Wd) r Hr) in L.
    rewrite zadd_length; [lia|]. rewrite (start_length _ _ _ (wd_mesh _ _ _ _ _ _ _ Wd) r Hr). lia.
  - intros; reflexivity.
  - rewrite X in U1. injection U1 as ->. apply Forall_inv in Y. exact Y.
Qed.
Print Assumptions C34_constant.

(** a line of [n] cells divided between two ranks at cell [m] *)
Definition line_pt (n m : Z) : partition :=
  {| i_edges := [[0; m; n]]%Z; local_i_start := [[0]; [m]]%Z; local_i_shape := [[m - 0]; [n - m]]%Z |}.
Definition line_pms (n m : Z) (b : Q) (w : window) : list pm := map (mesh_pm [n] (line_pt n m) [[0]; [1]]%Z [b] w) (seq 0 2).
Lemma line_world n m b w : (0 < m < n)%Z -> world [n] (Scalar b) [b] w (line_pt n m) [[0]; [1]]%Z (line_pms n m b w).
Proof.
  intros H.
  assert (OK : mesh_ok [n] (line_pt n m) [[0]; [1]]%Z).
  { constructor; try reflexivity; [simpl; lia|].
    cbn [i_edges line_pt]. apply Forall2_cons; [|apply Forall2_nil]. split; [lia|split; [simpl; lia|split; [sorted_z|split; reflexivity]]]. }
  assert (D : distinct_starts (i_edges (line_pt n m))).
  { cbn [i_edges line_pt]. apply Forall_cons; [|apply Forall_nil]. intros i j Hi Hj; simpl in Hj;
      destruct i as [|[|i]], j as [|[|j]]; simpl; lia. }
  constructor; try reflexivity; [exact OK|exact D|right; reflexivity|].
  rewrite (ParticleMesh_ok [n] (line_pt n m) [[0]; [1]]%Z OK (Scalar b) [b] w D eq_refl eq_refl). reflexivity.
Qed.
Definition line_field (n m : Z) (v : Z -> Q) : list field :=
  [{| f_array := c_array [m]; f_data := v |}; {| f_array := c_array [n - m]%Z; f_data := fun a => v (m + a)%Z |}].
Lemma line_holds n m v : (0 < m < n)%Z -> holds (line_pt n m) [[0]; [1]]%Z (line_field n m v) (fun c => v (nth 0 c 0%Z)).
Proof.
  intros H. split; [reflexivity|]. intros r Hr. destruct r as [|[|r]]; [| |simpl in Hr; lia]; cbn [nth line_field f_array f_data block]; (split; [
    eapply eq_rect; [apply (c_array_stored); repeat constructor; lia|] |]);
    try (cbn; f_equal; lia); intros idx Hin; pose proof (elements_length _ _ Hin) as L; destruct idx as [|i [|? ?]]; try discriminate L;
    unfold elem; cbn.
  - replace (i + 0)%Z with i by lia. destruct i; reflexivity.
  - change (Pos.to_nat 1) with 1%nat. cbv iota. rewrite (Z.add_comm i m). destruct i; reflexivity.
Qed.

(** the cells of all ranks after upsampling *)
Definition cells_after (fs : list field) (l : list (outcome memory)) : list (list Q) :=
  match all_ret l with
  | Some ms => map (fun fm => map (fun c => Qred (elem (f_array (fst fm)) (snd fm) c)) (elements (f_array (fst fm)))) (combine fs ms)
  | None => []
  end.
(** from 4 to 6 cells on two ranks with cic *)
Example C34_case :
  let srcs := line_pms 4 2 8 ex_cic in let dsts := line_pms 6 4 8 ex_cic in
  let fields := line_field 4 2 (fun i => inject_Z (i * i)) in let outs := line_field 6 4 (fun _ => 5) in
  room [4]%Z (line_pt 4 2) (repeat (16#10) 1) /\
  (exists ms, upsample dsts srcs fields outs None true = map Ret ms) /\
  cells_after outs (upsample dsts srcs fields outs None true) = [[0; 2#3; 2; 4]; [22#3; 6]] /\
  cells_after outs (upsample dsts srcs fields outs None false) = [[0; 4#9; 4#3; 8#3]; [44#9; 4]].
Proof.
  cbv zeta. assert (R : room [4]%Z (line_pt 4 2) (repeat (16#10) 1)).
  { intros i k Hi Hk. cbv zeta. destruct i as [|i]; [|simpl in Hi; lia]. cbn [line_pt i_edges nth length] in Hk |- *.
    left. destruct k as [|[|k]]; [vm_compute; discriminate|vm_compute; discriminate|lia]. }
  split; [exact R|]. split; [|split; vm_compute; reflexivity].
  pose proof (line_world 4 2 8 ex_cic ltac:(lia)) as Ws. pose proof (line_world 6 4 8 ex_cic ltac:(lia)) as Wd.
  destruct (C34_decomposition_independent _ _ _ _ _ _ _ _ _ _ _ _ _ _ _ _ _ _ _ _ Ws Wd eq_refl Ws Wd eq_refl eq_refl None ex_cic true
    (fun c => inject_Z (nth 0 c 0 * nth 0 c 0)%Z) (line_field 4 2 (fun i => inject_Z (i * i))) (line_field 4 2 (fun i => inject_Z (i * i)))
    (line_field 6 4 (fun _ => 5)) (line_field 6 4 (fun _ => 5)) (fun _ => 5) (fun _ => 5)) as (ms & _ & E & _); try exact R; try reflexivity.
  - apply standard_proper. exact Logic.I.
  - split; vm_compute; [reflexivity|discriminate].
  - apply (line_holds 4 2 (fun i => inject_Z (i * i))). lia.
  - apply (line_holds 4 2 (fun i => inject_Z (i * i))). lia.
  - apply (line_holds 6 4 (fun _ => 5)). lia.
  - apply (line_holds 6 4 (fun _ => 5)). lia.
  - exists ms. exact E.
Qed.

(** the hard-coded smoothing is too small for the piecewise cubic window: from 8 to 11 cells on
    two ranks, cell 3 is at 24/11 and reaches into cell 4 of the other rank.  The constant 1
    does not stay constant. *)
Theorem C34_wide_window_refuted :
  let w := ResampleWindow TunedPCS 0 in
  let srcs := line_pms 8 4 8 w in let dsts := line_pms 11 6 8 w in
  default_window w /\ w_support w = 4%Z /\
  world [8]%Z (Scalar 8) [8] w (line_pt 8 4) [[0]; [1]]%Z srcs /\ world [11]%Z (Scalar 8) [8] w (line_pt 11 6) [[0]; [1]]%Z dsts /\
  room [8]%Z (line_pt 8 4) (repeat (16#10) 1) /\ room [8]%Z (line_pt 8 4) (half_support w 1) /\
  holds (line_pt 8 4) [[0]; [1]]%Z (line_field 8 4 (fun _ => 1)) (fun _ => 1) /\
  exists ms, upsample dsts srcs (line_field 8 4 (fun _ => 1)) (line_field 11 6 (fun _ => 0)) None true = map Ret ms /\
    elem (c_array [6]%Z) (nth 0 ms (fun _ => 0)) [3]%Z < 1.
Proof.
  cbv zeta. split; [apply default_window_ok; [exact Logic.I|left; lia]|]. split; [reflexivity|].
  split; [apply line_world; lia|]. split; [apply line_world; lia|].
  assert (R : forall q, 0 <= q <= 2 -> room [8]%Z (line_pt 8 4) [q]).
  { intros q Hq i k Hi Hk. cbv zeta. destruct i as [|i]; [|simpl in Hi; lia]. cbn [line_pt i_edges nth length] in Hk |- *.
    left. destruct k as [|[|k]]; [| |lia]; cbn [nth]; [change (inject_Z (4 - 0)) with 4|change (inject_Z (8 - 4)) with 4]; change (inject_Z 8) with 8; lra. }
  split; [apply R; lra|]. split; [apply R; vm_compute; split; discriminate|].
  split; [apply (line_holds 8 4 (fun _ => 1)); lia|].
  destruct (all_ret_check (upsample (line_pms 11 6 8 (ResampleWindow TunedPCS 0)) (line_pms 8 4 8 (ResampleWindow TunedPCS 0)) (line_field 8 4 (fun _ => 1)) (line_field 11 6 (fun _ => 0)) None true)
    (fun ms => Qltb (elem (c_array [6]%Z) (nth 0 ms (fun _ => 0)) [3]%Z) 1)) as (ms & E & C).
  - vm_compute. reflexivity.
  - exists ms. split; [exact E|]. destruct (Qltb_case (elem (c_array [6]%Z) (nth 0 ms (fun _ => 0)) [3]%Z) 1) as [L|L]; [exact L|discriminate].
Qed.
Print Assumptions C34_wide_window_refuted.

(** ** C58 *)
Lemma combine_concat' {A B} (l : list (list A)) (m : list (list B)) : map (@length B) m = map (@length A) l ->
  combine (concat l) (concat m) = concat (map (fun ab => combine (fst ab) (snd ab)) (combine l m)).
Proof.
  revert m. induction l as [|a l IH]; intros [|b m] H; try discriminate; [reflexivity|]. cbn [map] in H. injection H as H1 H2.
  cbn [concat combine map fst snd]. rewrite combine_app by (symmetry; exact H1). f_equal. apply IH. exact H2.
Qed.

Lemma qsum_pairs {A} (g : A -> list Q) (F : list Q -> Q) (v : A -> Q) els fr : length fr = length els ->
  (forall k z, (k < length els)%nat -> nth k fr 0 == v (nth k els z)) ->
  qsum (fun xq => snd xq * F (fst xq)) (combine (map g els) fr) == qsum (fun e => v e * F (g e)) els.
Proof.
  revert fr. induction els as [|e els IH]; intros [|f fr] L H; try discriminate; [reflexivity|].
  cbn [map combine]. rewrite !qsum_cons. cbn [fst snd]. rewrite IH.
  - pose proof (H O e ltac:(simpl; lia)) as X. cbn [nth] in X. rewrite X. reflexivity.
  - simpl in L. lia.
  - intros k z Hk. exact (H (S k) z ltac:(simpl; lia)).
Qed.

(** downsampling on any number of ranks is painting, by a single process that holds both
    meshes, a particle at every cell of the source mesh with the value of the cell as mass *)
Theorem C58_downsample :
  forall Ns Bs boxs ws pts bs srcs Nd Bd boxd wd ptd bd dsts,
  world Ns Bs boxs ws pts bs srcs -> world Nd Bd boxd wd ptd bd dsts ->
  length bs = length bd -> length Ns = length Nd ->
  forall w' w (keep_mean : bool) fields v outs z whole,
  resampler_of dsts w' = w -> proper_kind (w_kind w) -> (0 < w_support w)%Z -> room Nd ptd (half_support w (length Nd)) ->
  holds pts bs fields v -> holds ptd bd outs z -> stored whole Nd ->
  exists ms wm', downsample dsts srcs fields outs w' keep_mean = map Ret ms /\ length ms = length bd /\
    window_paint w whole (fun _ => 0) (map (map inject_Z) (cells_of Ns)) None
      (Some (Array (map (fun c => if keep_mean then v c / (density Ns boxs / density Nd boxd) else v c) (cells_of Ns)))) None
      (Some (whole_affine Nd (map (Qmult 1) (grid_ratio Nd Ns)))) = Ret wm' /\
    forall r idx, (r < length bd)%nat -> In idx (elements (f_array (nth r outs zero_field))) ->
      elem (f_array (nth r outs zero_field)) (nth r ms (fun _ => 0)) idx ==
      elem whole wm' (zadd idx (block_start (i_edges ptd) (block bd r))).
Proof.
  intros Ns Bs boxs ws pts bs srcs Nd Bd boxd wd ptd bd dsts Ws Wd HP Hnd w' w keep_mean fields v outs z whole Hw Hk Hsup Hroom (Lf & Hf) (Lo & Ho) SW.
  set (P := length bd) in *.
  assert (H0 : (0 < P)%nat) by exact (world_blocks _ _ _ _ _ _ _ Wd).
  set (scale := map (Qmult 1) (grid_ratio Nd Ns)).
  assert (Ls : length scale = length Nd) by (unfold scale, grid_ratio; rewrite !map_length, combine_length; lia).
  set (val' := fun x => if keep_mean then x / (density Ns boxs / density Nd boxd) else x).
  assert (Hstf : forall r, (r < length bs)%nat -> stored (f_array (nth r fields zero_field)) (block_shape (i_edges pts) (block bs r))) by (intros r Hr; apply Hf; exact Hr).
  unfold downsample. fold (world_coords srcs).
  destruct (nnb_read_world _ _ _ _ _ _ _ Ws fields Lf Hstf) as (vs & E1 & Lv & V). rewrite E1, all_ret_Ret.
  match goal with |- context [all_ret ?t] => replace t with (map Ret (rank_affines Nd ptd bd scale)) end.
  2:{ rewrite (pairs _ _ _ _ _ _ _ _ _ _ _ _ _ _ Ws Wd HP), map_map. unfold rank_affines. rewrite map_map. apply map_ext_seq. intros r Hr.
      cbn [pm_Nmesh pm_affine_grid mesh_pm]. fold (grid_ratio Nd Ns). unfold affine_rescale. cbn [af_scale af_translate af_period affine_at].
      unfold broadcast. rewrite map_length. rewrite (grid_ratio_length Nd Ns) by lia. rewrite Nat.eqb_refl. cbn [bind].
      assert (X : map (fun p => fst p * snd p) (combine (map (fun _ => 1) Nd) (grid_ratio Nd Ns)) = scale).
      { unfold scale. assert (LL : length (grid_ratio Nd Ns) = length Nd) by (apply grid_ratio_length; lia). clear -LL. revert LL.
        generalize (grid_ratio Nd Ns). induction Nd as [|n N IH]; intros [|x l] L; try discriminate; [reflexivity|].
        cbn [map combine]. f_equal. apply IH. simpl in L. lia. }
      rewrite X. unfold Affine. rewrite mkarr_array by exact Ls. cbn [bind]. rewrite mkarr_array by reflexivity. cbn [bind].
      rewrite mkarr_array; [reflexivity|]. rewrite map_length, (start_length _ _ _ (wd_mesh _ _ _ _ _ _ _ Wd)); [reflexivity|exact Hr]. }
  rewrite all_ret_Ret.
  set (f := if keep_mean then _ else vs).
  assert (F : f = map (fun r => map val' (nth r vs [])) (seq 0 P)).
  { unfold f, val'. rewrite HP in Lv. destruct keep_mean.
    - rewrite (pairs _ _ _ _ _ _ _ _ _ _ _ _ _ _ Ws Wd HP). fold P. rewrite <- (map_seq_eq vs [] (fun r => nth r vs []) P Lv) at 1 by (intros; reflexivity).
      rewrite combine_map_map, map_map. reflexivity.
    - symmetry. apply (map_seq_eq vs []); [exact Lv|]. intros r Hr. apply map_id. }
  pose proof (coords_ok _ _ _ _ _ _ _ Ws fields Hstf) as Hq. set (q := world_coords srcs) in *.
  assert (Hq' : particles_ok (length Nd) (length bd) q) by (fold P; rewrite <- Hnd, <- HP; exact Hq).
  assert (Lq : length q = P) by exact (proj1 Hq').
  assert (Lfq : map (@length Q) f = map (@length _) q).
  { rewrite F, map_map. transitivity (map (fun r => length (nth r q [])) (seq 0 P)).
    - apply map_ext_seq. intros r Hr. rewrite map_length. unfold q. rewrite (coords_nth _ _ _ _ _ _ _ Ws fields Hstf r) by lia.
      unfold own_cells. rewrite map_length. apply V. lia.
    - apply (map_seq_eq (map (@length _) q) O); [rewrite map_length; exact Lq|]. intros r Hr.
      rewrite (nth_map_in _ q r O []) by lia. reflexivity. }
  destruct (C31_paint_distributed Nd Bd boxd wd ptd bd dsts Wd q scale (Some (rank_affines Nd ptd bd scale)) (smoothing_of w') (half_support w (length Nd))
    w' w None false WNone (WArray f) outs whole (fun _ => 0)) as (ls & ms & wm1 & E2 & E3 & Lm & E4 & E5); auto; try exact Logic.I.
  - rewrite (world_pms _ _ _ _ _ _ _ Wd). fold P. rewrite nth_map_seq by exact H0. apply (smoothing_ret _ _ _ _ _ _ _ Wd). exact Hw.
  - apply repeat_length.
  - apply half_support_ok. lia.
  - intros r i _ _. cbn [val]. split; [apply within_one; exact Hsup|]. intros a Ha.
    rewrite (extent_one w Hsup). unfold half_support. rewrite nth_repeat_in by exact Ha.
    unfold Qdiv. change (/ 2) with (1#2). apply Qle_refl.
  - intros r Hr. apply Ho. exact Hr.
  - intros; reflexivity.
  - rewrite E2, all_ret_Ret. exists ms.
    assert (Wf : wf_call whole (whole_affine Nd scale)) by (apply (wf_whole _ _ _ (wd_mesh _ _ _ _ _ _ _ Wd)); assumption).
    eexists. split; [exact E3|]. split; [exact Lm|].
    split; [apply (window_paint_values w whole (whole_affine Nd scale) None); [exact Logic.I|exact Logic.I|cbn [arg_fits]; rewrite !map_length; reflexivity]|].
    intros r idx Hr Hin. rewrite (E5 r idx Hr Hin).
    set (c := zadd idx _). assert (Hc : In c (elements whole)).
    { apply (zadd_in _ _ _ (wd_mesh _ _ _ _ _ _ _ Wd) scale (f_array (nth r outs zero_field)) whole r Ls Hr (proj1 (Ho r Hr)) SW idx Hin). }
    assert (D : length (ar_shape whole) = length Nd) by (rewrite (proj1 SW); reflexivity).
    cbn [whole_arg] in E4.
    rewrite (whole_cell w whole (whole_affine Nd scale) c (fun _ => 0) wm1 q f Lfq Wf (proj1 Hk)); [| |exact Hc|exact E4].
    2:{ rewrite D. exact (proj2 Hq'). }
    match goal with |- _ == elem whole ?m c => set (wm2 := m) end.
    set (cells := map (map inject_Z) (cells_of Ns)). set (vals := map (fun c => val' (v c)) (cells_of Ns)).
    assert (E6 : window_paint w whole (fun _ => 0) (concat [cells]) None (whole_arg (WArray [vals])) None (Some (whole_affine Nd scale)) = Ret wm2).
    { cbn [concat whole_arg]. rewrite !app_nil_r. unfold wm2.
      rewrite (window_paint_values w whole (whole_affine Nd scale) None);
        [reflexivity|exact Logic.I|exact Logic.I|cbn [arg_fits]; unfold cells, vals; rewrite !map_length; reflexivity]. }
    rewrite (whole_cell w whole (whole_affine Nd scale) c (fun _ => 0) wm2 [cells] [vals]); [| |exact Wf|exact (proj1 Hk)| |exact Hc|exact E6].
    + apply Qplus_comp; [reflexivity|]. cbn [concat]. rewrite !app_nil_r.
      set (G := fun x => weight_of (painter_of w whole (whole_affine Nd scale) None) 1 x c).
      unfold cells, vals.
      change (qsum (fun xq => snd xq * G (fst xq)) (combine (concat q) (concat f)) ==
        qsum (fun xq => snd xq * G (fst xq)) (combine (map (map inject_Z) (cells_of Ns)) (map (fun c => val' (v c)) (cells_of Ns)))).
      transitivity (qsum (fun e => val' (v e) * G (map inject_Z e)) (cells_of Ns)).
      2:{ symmetry. apply (qsum_pairs (map inject_Z) G (fun e => val' (v e)) (cells_of Ns)); [rewrite map_length; reflexivity|].
          intros k z0 Hkk. rewrite (nth_map_in _ (cells_of Ns) k 0 z0) by exact Hkk. reflexivity. }
      rewrite (mesh_sum _ _ _ (wd_mesh _ _ _ _ _ _ _ Ws)).
      rewrite (combine_concat' q f Lfq). rewrite <- flat_map_concat_map, qsum_flat_map.
      rewrite F. rewrite <- (map_seq_eq q [] (fun r => nth r q []) P Lq) by (intros; reflexivity).
      rewrite combine_map_map, qsum_map, HP. fold P. apply qsum_ext_in. intros s Hs. apply in_seq in Hs. cbn [fst snd].
      unfold q. rewrite (coords_nth _ _ _ _ _ _ _ Ws fields Hstf s) by lia. unfold own_cells.
      rewrite <- (elements_shape _ _ fields Hstf s) by lia.
      assert (Hs' : (s < length bs)%nat) by lia. destruct (V s Hs') as (V1 & V2).
      apply (qsum_pairs (fun idx => map inject_Z (zadd idx (block_start (i_edges pts) (block bs s)))) G
        (fun idx => val' (v (zadd idx (block_start (i_edges pts) (block bs s)))))).
      * rewrite map_length. exact V1.
      * intros k z0 Hkk. rewrite (nth_map_in val' (nth s vs []) k 0 0) by lia.
        assert (X : nth k (nth s vs []) 0 == v (zadd (nth k (elements (f_array (nth s fields zero_field))) z0) (block_start (i_edges pts) (block bs s)))).
        { rewrite (V2 k Hkk). rewrite (nth_indep _ z0 []) by exact Hkk. apply Hf; [lia|]. apply nth_In. exact Hkk. }
        unfold val'. destruct keep_mean; rewrite X; reflexivity.
    + unfold vals, cells. cbn [map]. rewrite !map_length. reflexivity.
    + apply Forall_cons; [|apply Forall_nil]. unfold cells. rewrite Forall_map. apply Forall_forall. intros e He.
      apply in_cells_of in He. rewrite map_length. lia.
Qed.
Print Assumptions C58_downsample.

(** the sum over all cells of all ranks *)
Definition grand_total (fs : list field) (ms : list memory) : Q :=
  qsum (fun r => total (f_array (nth r fs zero_field)) (nth r ms (fun _ => 0))) (seq 0 (length fs)).

Lemma qsum_scale_map {A} (f : A -> Q) k l : qsum (fun q => q) (map (fun c => f c / k) l) == qsum f l / k.
Proof.
  rewrite qsum_map. unfold Qdiv. rewrite <- qsum_scale_r. reflexivity.
Qed.

Lemma prod_Z_nz N : Forall (fun n => 0 < n)%Z N -> ~ prod_Z N == 0.
Proof.
  unfold prod_Z. intros F. assert (X : forall a, (0 < a)%Z -> (0 < fold_left Z.mul N a)%Z).
  { induction F as [|n N Hn F IH]; intros a Ha; [exact Ha|]. cbn [fold_left]. apply IH. nia. }
  specialize (X 1%Z eq_refl). intros E. change 0 with (inject_Z 0) in E. rewrite inject_Z_injective in E. lia.
Qed.

(** the total is conserved; or, with [keep_mean] in boxes of the same volume, the mean *)
Theorem C58_conserves :
  forall Ns Bs boxs ws pts bs srcs Nd Bd boxd wd ptd bd dsts,
  world Ns Bs boxs ws pts bs srcs -> world Nd Bd boxd wd ptd bd dsts ->
  length bs = length bd -> length Ns = length Nd ->
  forall w' w (keep_mean : bool) fields v outs z,
  resampler_of dsts w' = w -> default_window w -> room Nd ptd (half_support w (length Nd)) ->
  holds pts bs fields v -> holds ptd bd outs z ->
  exists ms, downsample dsts srcs fields outs w' keep_mean = map Ret ms /\
    (keep_mean = false -> grand_total outs ms == grand_total fields (map f_data fields)) /\
    (keep_mean = true -> prod_Q boxs == prod_Q boxd -> ~ prod_Q boxd == 0 ->
     grand_total outs ms / prod_Z Nd == grand_total fields (map f_data fields) / prod_Z Ns).
Proof.
  intros Ns Bs boxs ws pts bs srcs Nd Bd boxd wd ptd bd dsts Ws Wd HP Hnd w' w keep_mean fields v outs z Hw Hdw Hroom Hf Ho.
  assert (SW := c_array_stored Nd (world_sizes _ _ _ _ _ _ _ Wd)).
  assert (Hk := standard_proper _ (proj1 Hdw)).
  assert (Hsup : (0 < w_support w)%Z) by (rewrite (proj2 Hdw); exact (proj1 Hk)).
  destruct (C58_downsample _ _ _ _ _ _ _ _ _ _ _ _ _ _ Ws Wd HP Hnd w' w keep_mean fields v outs z (c_array Nd) Hw Hk Hsup Hroom Hf Ho SW)
    as (ms & wm & E1 & Lm & E2 & E3).
  exists ms. split; [exact E1|]. set (k := density Ns boxs / density Nd boxd) in *.
  assert (Ls : length (map (Qmult 1) (grid_ratio Nd Ns)) = length Nd) by (unfold grid_ratio; rewrite !map_length, combine_length; lia).
  assert (Wf : wf_call (c_array Nd) (whole_affine Nd (map (Qmult 1) (grid_ratio Nd Ns)))).
  { apply (wf_whole _ _ _ (wd_mesh _ _ _ _ _ _ _ Wd)); [exact Ls|exact SW]. }
  destruct (C21_mass_conserved w (c_array Nd) (whole_affine Nd (map (Qmult 1) (grid_ratio Nd Ns))) (fun _ => 0) (map (map inject_Z) (cells_of Ns))
    (map (fun c => if keep_mean then v c / k else v c) (cells_of Ns))) as (m' & F1 & F2); auto.
  { split; [reflexivity|exact (world_sizes _ _ _ _ _ _ _ Wd)]. }
  { unfold wf_pos. rewrite Forall_map. apply Forall_forall. intros e He. apply in_cells_of in He. rewrite map_length. cbn [ar_shape c_array]. lia. }
  { rewrite !map_length. reflexivity. }
  rewrite E2 in F1. injection F1 as F1. rewrite <- F1 in F2.
  assert (T : grand_total outs ms == qsum (fun q => q) (map (fun c => if keep_mean then v c / k else v c) (cells_of Ns))).
  { transitivity (total (c_array Nd) wm).
    - unfold grand_total, total. change (elements (c_array Nd)) with (cells_of Nd). destruct Ho as (Lo & Ho). rewrite Lo.
      rewrite (mesh_sum _ _ _ (wd_mesh _ _ _ _ _ _ _ Wd)). apply qsum_ext_in. intros r Hr. apply in_seq in Hr.
      assert (Hr' : (r < length bd)%nat) by lia.
      rewrite <- (elements_shape ptd bd outs (fun r Hr => proj1 (Ho r Hr)) r Hr').
      apply qsum_ext_in. intros idx Hin. apply E3; [exact Hr'|exact Hin].
    - rewrite F2. assert (Z : total (c_array Nd) (fun _ => 0) == 0) by (unfold total; apply qsum_zero; reflexivity).
      rewrite Z. ring. }
  assert (S : grand_total fields (map f_data fields) == qsum v (cells_of Ns)).
  { destruct Hf as (Lf & Hf). unfold grand_total, total. rewrite (mesh_sum _ _ _ (wd_mesh _ _ _ _ _ _ _ Ws)), Lf.
    apply qsum_ext_in. intros r Hr. apply in_seq in Hr. assert (Hr' : (r < length bs)%nat) by lia.
    rewrite <- (elements_shape pts bs fields (fun r Hr => proj1 (Hf r Hr)) r Hr'). apply qsum_ext_in. intros idx Hin.
    rewrite (nth_map_in f_data fields r (fun _ => 0) zero_field) by lia. apply Hf; [exact Hr'|exact Hin]. }
  split; intros Hkm; subst keep_mean.
  - rewrite T, S, qsum_map. reflexivity.
  - intros Eb Nz. rewrite T, S, qsum_scale_map. unfold k, density. rewrite Eb.
    pose proof (prod_Z_nz _ (world_sizes _ _ _ _ _ _ _ Ws)). pose proof (prod_Z_nz _ (world_sizes _ _ _ _ _ _ _ Wd)). field. auto.
Qed.
Print Assumptions C58_conserves.

(** from 6 to 4 cells on two ranks with cic *)
Example C58_case :
  let srcs := line_pms 6 4 8 ex_cic in let dsts := line_pms 4 2 8 ex_cic in
  let fields := line_field 6 4 (fun i => inject_Z (i * i)) in let outs := line_field 4 2 (fun _ => 5) in
  room [4]%Z (line_pt 4 2) (half_support ex_cic 1) /\
  (exists ms, downsample dsts srcs fields outs None false = map Ret ms /\ grand_total outs ms == 55) /\
  cells_after outs (downsample dsts srcs fields outs None false) = [[26#3; 10#3]; [47#3; 82#3]] /\
  cells_after outs (downsample dsts srcs fields outs None true) = [[52#9; 20#9]; [94#9; 164#9]].
Proof.
  cbv zeta. assert (R : room [4]%Z (line_pt 4 2) (half_support ex_cic 1)).
  { intros i k Hi Hk. cbv zeta. destruct i as [|i]; [|simpl in Hi; lia]. cbn [line_pt i_edges nth length] in Hk |- *.
    left. destruct k as [|[|k]]; [vm_compute; discriminate|vm_compute; discriminate|lia]. }
  split; [exact R|]. split; [|split; vm_compute; reflexivity].
  destruct (C58_conserves _ _ _ _ _ _ _ _ _ _ _ _ _ _ (line_world 6 4 8 ex_cic ltac:(lia)) (line_world 4 2 8 ex_cic ltac:(lia)) eq_refl eq_refl
    None ex_cic false (line_field 6 4 (fun i => inject_Z (i * i))) (fun c => inject_Z (nth 0 c 0 * nth 0 c 0)%Z) (line_field 4 2 (fun _ => 5)) (fun _ => 5))
    as (ms & E & T & _); try exact R; try reflexivity.
  - apply default_window_ok; [exact Logic.I|left; lia].
  - apply (line_holds 6 4 (fun i => inject_Z (i * i))). lia.
  - apply (line_holds 4 2 (fun _ => 5)). lia.
  - exists ms. split; [exact E|]. rewrite (T eq_refl). vm_compute. reflexivity.
Qed.

(** ** C45 *)
(** the point of a cell, [shift] cells from its corner, in simulation units *)
Definition grid_point (Nmesh : list Z) (box sh : list Q) (c : list Z) (x : list Q) : Prop :=
  length x = length Nmesh /\
  forall i, (i < length Nmesh)%nat ->
    nth i x 0 * inject_Z (nth i Nmesh 0%Z) == (inject_Z (nth i c 0%Z) + nth i sh 0) * nth i box 0.

Lemma id_ravel N c c0 n0 : length c = length N ->
  fold_left (fun id nc => (id * fst nc + snd nc)%Z) (combine N c) c0 = ravel (n0 :: N) (c0 :: c).
Proof.
  cbn [ravel]. change (fold_right Z.mul 1%Z N) with (prodz N).
  revert c c0. induction N as [|n N IH]; intros [|x c] c0 L; try discriminate; [cbn; lia|].
  cbn [combine fold_left fst snd]. simpl in L. rewrite IH by lia. cbn [ravel]. change (fold_right Z.mul 1%Z N) with (prodz N).
  change (prodz (n :: N)) with (n * prodz N)%Z. lia.
Qed.

Lemma Permutation_concat_ranks {A} (f : list Z -> A) Nmesh pt blocks : mesh_ok Nmesh pt blocks ->
  Permutation (concat (map (fun r => map f (rank_cells pt blocks r)) (seq 0 (length blocks)))) (map f (cells_of Nmesh)).
Proof.
  intros OK. rewrite <- (blocks_tile _ _ _ OK). rewrite flat_map_concat_map, concat_map, map_map. reflexivity.
Qed.

(** one particle per cell of the mesh, on the rank that owns the cell, the id being the index of
    the cell in the whole mesh: together the ids are 0 .. N-1, each once *)
Theorem C45_uniform_grid :
  forall Nmesh BoxSize box w0 pt blocks pms, world Nmesh BoxSize box w0 pt blocks pms ->
  forall shift sh, mkarr shift (length Nmesh) = Ret sh -> length sh = length Nmesh ->
  exists grids, map (fun p => generate_uniform_particle_grid p shift) pms = map Ret grids /\ length grids = length blocks /\
    Permutation (concat (map snd grids)) (zrange 0 (Z.to_nat (prodz Nmesh))) /\
    (forall r g, nth_error grids r = Some g ->
       length (fst g) = length (snd g) /\ NoDup (snd g) /\
       forall c, valid_index Nmesh c ->
       (* the cell's id is on this rank exactly if the cell is in the rank's block *)
       (In (ravel Nmesh c) (snd g) <->
        forall i, (i < length Nmesh)%nat ->
          (nth i (nth r (local_i_start pt) []) 0 <= nth i c 0 < nth i (nth r (local_i_start pt) []) 0 + nth i (nth r (local_i_shape pt) []) 0)%Z) /\
       (* and the position with that id is the point of the cell *)
       forall k, nth_error (snd g) k = Some (ravel Nmesh c) -> exists x, nth_error (fst g) k = Some x /\ grid_point Nmesh box sh c x).
Proof.
  intros Nmesh BoxSize box w0 pt blocks pms W shift sh Esh Lsh.
  pose proof (wd_mesh _ _ _ _ _ _ _ W) as OK. pose proof (world_sizes _ _ _ _ _ _ _ W) as HN. pose proof (wd_boxdim _ _ _ _ _ _ _ W) as Lb.
  set (point := fun c : list Z => map (fun x => (fst (fst x) + snd (fst x)) * snd x)
     (combine (combine (map inject_Z c) sh) (map (fun nb => snd nb / inject_Z (fst nb)) (combine Nmesh box)))).
  exists (map (fun r => (map point (rank_cells pt blocks r), map (ravel Nmesh) (rank_cells pt blocks r))) (seq 0 (length blocks))).
  assert (RC : forall r c, (r < length blocks)%nat -> In c (rank_cells pt blocks r) -> valid_index Nmesh c /\ length c = length Nmesh).
  { intros r c Hr Hc. apply (in_rank_cells _ _ _ OK r c Hr) in Hc. destruct Hc as (L & B). split; [|exact L].
    assert (B' : forall i, (i < length Nmesh)%nat -> (0 <= nth i c 0 < nth i Nmesh 0)%Z).
    { intros i Hi. specialize (B i Hi). pose proof (block_bounds _ _ _ OK r i Hr Hi). lia. }
    clear -L B'. revert c L B'. induction Nmesh as [|n N IH]; intros [|z c] L B'; try discriminate; constructor.
    - exact (B' O ltac:(simpl; lia)).
    - apply IH; [simpl in L; lia|]. intros i Hi. exact (B' (S i) ltac:(simpl; lia)). }
  assert (ND : forall r, (r < length blocks)%nat -> NoDup (map (ravel Nmesh) (rank_cells pt blocks r))).
  { intros r Hr. apply NoDup_map_in.
    - intros a b Ha Hb E. exact (ravel_inj Nmesh a b (proj1 (RC r a Hr Ha)) (proj1 (RC r b Hr Hb)) E).
    - unfold rank_cells. apply NoDup_map_in; [|apply cells_of_NoDup]. intros a b Ha Hb E.
      apply in_cells_of in Ha. apply in_cells_of in Hb. destruct Ha as (La & _), Hb as (Lb' & _).
      rewrite (block_shape_length _ _ _ OK r Hr) in La, Lb'. pose proof (start_length _ _ _ OK r Hr) as Ls.
      apply (nth_ext _ _ 0%Z 0%Z); [lia|]. intros i Hi.
      pose proof (f_equal (fun l => nth i l 0%Z) E) as X. cbn beta in X. rewrite !zadd_nth in X by lia. lia. }
  split; [|split; [rewrite map_length, seq_length; reflexivity|split]].
  - rewrite (world_pms _ _ _ _ _ _ _ W), !map_map. apply map_ext_seq. intros r Hr.
    unfold generate_uniform_particle_grid. cbn [pm_Nmesh pm_BoxSize mesh_pm]. rewrite Esh. cbn [bind].
    unfold coordinates_Q. rewrite map_map. unfold mesh_coordinates. cbn [pm_start pm_shape mesh_pm].
    change (map (fun idx => map (fun c => (fst c + snd c)%Z) (combine idx (block_start (i_edges pt) (block blocks r))))
      (DomainFill.box (map (fun n => (0%Z, n)) (block_shape (i_edges pt) (block blocks r))))) with (rank_cells pt blocks r).
    f_equal. f_equal. apply map_ext_in. intros c Hc. destruct (RC r c Hr Hc) as (_ & L).
    pose proof (mk_dim _ _ _ OK) as D. destruct Nmesh as [|n0 N]; [simpl in D; lia|]. destruct c as [|c0 c]; [discriminate|].
    cbn [tl]. apply id_ravel. simpl in L. lia.
  - rewrite map_map. cbn [snd]. rewrite (Permutation_concat_ranks (ravel Nmesh) _ _ _ OK).
    unfold cells_of. rewrite (ravel_box _ HN). reflexivity.
  - intros r g Hg.
    assert (Hr : (r < length blocks)%nat).
    { assert (X : nth_error (map (fun r => (map point (rank_cells pt blocks r), map (ravel Nmesh) (rank_cells pt blocks r))) (seq 0 (length blocks))) r <> None) by (rewrite Hg; discriminate).
      apply nth_error_Some in X. rewrite map_length, seq_length in X. exact X. }
    rewrite (nth_error_nth' _ ([], [])) in Hg by (rewrite map_length, seq_length; exact Hr).
    rewrite nth_map_seq in Hg by exact Hr. injection Hg as <-. cbn [fst snd].
    split; [rewrite !map_length; reflexivity|]. split; [exact (ND r Hr)|]. intros c Hc.
    assert (Lc : length c = length Nmesh) by (symmetry; exact (Forall2_len _ _ _ Hc)).
    split.
    + rewrite (mk_start _ _ _ OK), (mk_shape _ _ _ OK).
      rewrite (nth_map_in _ blocks r [] []) by exact Hr. rewrite (nth_map_in (block_shape (i_edges pt)) blocks r [] []) by exact Hr.
      fold (block blocks r). rewrite in_map_iff. split.
      * intros (c' & E & Hc'). pose proof (ravel_inj Nmesh c' c (proj1 (RC r c' Hr Hc')) Hc E) as ->.
        apply (in_rank_cells _ _ _ OK r c Hr) in Hc'. exact (proj2 Hc').
      * intros B. exists c. split; [reflexivity|]. apply (in_rank_cells _ _ _ OK r c Hr). split; [exact Lc|exact B].
    + intros k Hkk. rewrite nth_error_map in Hkk. destruct (nth_error (rank_cells pt blocks r) k) as [c'|] eqn:E; [|discriminate].
      cbn [option_map] in Hkk. injection Hkk as Hkk. apply nth_error_In in E as Hin.
      pose proof (ravel_inj Nmesh c' c (proj1 (RC r c' Hr Hin)) Hc Hkk) as ->.
      exists (point c). split; [rewrite nth_error_map, E; reflexivity|].
      assert (Lp : length (combine (combine (map inject_Z c) sh) (map (fun nb : Z * Q => snd nb / inject_Z (fst nb)) (combine Nmesh box))) = length Nmesh).
      { rewrite !combine_length, !map_length, !combine_length. lia. }
      split; [unfold point; rewrite map_length; exact Lp|]. intros i Hi. unfold point.
      rewrite (nth_map_in _ _ i 0 ((0, 0), 0)) by lia.
      rewrite combine_nth by (rewrite combine_length, !map_length, combine_length; lia).
      rewrite combine_nth by (rewrite map_length; lia). cbn [fst snd].
      rewrite (nth_map_in _ c i 0 0%Z) by lia. rewrite (nth_map_in _ (combine Nmesh box) i 0 (0%Z, 0)) by (rewrite combine_length; lia).
      rewrite combine_nth by lia. cbn [fst snd].
      assert (Nz : ~ inject_Z (nth i Nmesh 0%Z) == 0).
      { rewrite Forall_nth in HN. specialize (HN i 0%Z Hi). intros X. change 0 with (inject_Z 0) in X. rewrite inject_Z_injective in X. lia. }
      field. exact Nz.
Qed.
Print Assumptions C45_uniform_grid.

(** 4 x 4 cells in a box of 8 x 8 on two ranks, the points at the centers *)
Example C45_case :
  mkarr (Scalar (1#2)) 2 = Ret [1#2; 1#2] /\
  (exists grids, map (fun p => generate_uniform_particle_grid p (Scalar (1#2))) ex_pms = map Ret grids /\
     Permutation (concat (map snd grids)) (zrange 0 16)) /\
  map (fun p => match generate_uniform_particle_grid p (Scalar (1#2)) with Ret g => (map (map Qred) (firstn 2 (fst g)), firstn 2 (snd g)) | _ => ([], []) end) ex_pms =
  [([[1; 1]; [1; 3]], [0; 1]%Z); ([[5; 1]; [5; 3]], [8; 9]%Z)].
Proof.
  split; [reflexivity|]. split; [|vm_compute; reflexivity].
  destruct (C45_uniform_grid _ _ _ _ _ _ _ ex_world (Scalar (1#2)) [1#2; 1#2] eq_refl eq_refl) as (grids & E & _ & H & _).
  exists grids. split; [exact E|exact H].
Qed.
