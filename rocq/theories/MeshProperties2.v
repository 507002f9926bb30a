(** Distributed painting and reading, continued: C31 (total mass), C32, C47. *)
From Coq Require Import List Arith ZArith QArith Qabs Qround Lqa Lia Bool Sorted Permutation Setoid Morphisms.
From Verif Require Import Base ListFacts LayoutModel LayoutSpec LayoutProofs LayoutModes LayoutMore WrapModel WrapProofs DomainModel DomainFill DomainGeom DomainTargets
  DomainHome DomainProperties QSum WindowModel WindowStencil WindowSpread WindowKernels WindowAxis WindowNative WindowApi WindowPoints
  WindowGrad WindowTranslate WindowProperties MeshModel MeshAssign MeshRoute MeshPaint MeshTile MeshDistributed MeshProperties.
Import ListNotations.
Local Open Scope Q_scope.

Lemma world_sizes Nmesh BoxSize box w0 pt blocks pms : world Nmesh BoxSize box w0 pt blocks pms -> Forall (fun n => 0 < n)%Z Nmesh.
Proof.
  intros W. pose proof (mk_edges _ _ _ (wd_mesh _ _ _ _ _ _ _ W)) as F. clear -F.
  induction F as [|n e ns es H _ IH]; [constructor|]. constructor; [apply H|exact IH].
Qed.

(** the cells of all ranks together hold the mass of all particles *)
Theorem C31_mass_conserved :
  forall Nmesh BoxSize box w0 pt blocks pms, world Nmesh BoxSize box w0 pt blocks pms ->
  let nd := length Nmesh in let P := length blocks in
  forall poss mass outs,
  particles_ok nd P poss -> map (@length Q) mass = map (@length _) poss ->
  default_window w0 -> room Nmesh pt (half_support w0 nd) ->
  length outs = P -> (forall r, (r < P)%nat -> stored (f_array (nth r outs zero_field)) (block_shape (i_edges pt) (block blocks r))) ->
  exists ls ms,
    pm_decompose pms SmoothDefault None poss = map Ret ls /\
    pm_paint pms None None false None (Some ls) outs poss WNone (WArray mass) = map Ret ms /\
    qsum (fun r => total (f_array (nth r outs zero_field)) (nth r ms (fun _ => 0))) (seq 0 P) == qsum (fun q => q) (concat mass).
Proof.
  intros Nmesh BoxSize box w0 pt blocks pms W nd P poss mass outs Hp Hm Hw Hroom Lo Hst.
  assert (Hwhole := c_array_stored Nmesh (world_sizes _ _ _ _ _ _ _ W)).
  assert (Hk := standard_proper _ (proj1 Hw)).
  destruct (C31_paint_default _ _ _ _ _ _ _ W poss (WArray mass) outs (c_array Nmesh) (fun _ => 0)) as (ls & ms & wm & E1 & E2 & E3 & E4 & E5);
    auto; try exact Logic.I; try reflexivity.
  { rewrite (proj2 Hw). exact (proj1 Hk). }
  exists ls, ms. split; [exact E1|]. split; [exact E2|].
  assert (Wf : wf_call (c_array Nmesh) (whole_affine Nmesh (mesh_scale Nmesh box))).
  { apply (wf_whole _ _ _ (wd_mesh _ _ _ _ _ _ _ W)); [exact (mesh_scale_length _ _ _ _ _ _ _ W)|exact Hwhole]. }
  destruct (C21_mass_conserved w0 (c_array Nmesh) (whole_affine Nmesh (mesh_scale Nmesh box)) (fun _ => 0) (concat poss) (concat mass)) as (m' & F1 & F2); auto.
  - split; [reflexivity|exact (world_sizes _ _ _ _ _ _ _ W)].
  - unfold wf_pos. apply Forall_concat. exact (proj2 Hp).
  - rewrite !concat_length_sum, Hm. reflexivity.
  - cbn [whole_arg] in E4. assert (m' = wm) by congruence. subst m'.
    transitivity (total (c_array Nmesh) wm).
    + unfold total. change (elements (c_array Nmesh)) with (cells_of Nmesh).
      rewrite (mesh_sum _ _ _ (wd_mesh _ _ _ _ _ _ _ W)). apply qsum_ext_in. intros r Hr. apply in_seq in Hr.
      assert (Hr' : (r < P)%nat) by lia.
      unfold elements. rewrite (proj1 (Hst r Hr')).
      change (DomainFill.box (map (fun n => (0%Z, n)) (block_shape (i_edges pt) (block blocks r)))) with (cells_of (block_shape (i_edges pt) (block blocks r))).
      apply qsum_ext_in. intros idx Hin. apply E5; [exact Hr'|].
      unfold elements. rewrite (proj1 (Hst r Hr')). exact Hin.
    + rewrite F2. assert (Z : total (c_array Nmesh) (fun _ => 0) == 0) by (unfold total; apply qsum_zero; reflexivity).
      rewrite Z. ring.
Qed.
Print Assumptions C31_mass_conserved.
Example C31_mass_case : exists ls ms,
  pm_decompose ex_pms SmoothDefault None ex_parts = map Ret ls /\
  pm_paint ex_pms None None false None (Some ls) [ex_out; ex_out] ex_parts WNone ex_mass = map Ret ms /\
  qsum (fun r => total (f_array (nth r [ex_out; ex_out] zero_field)) (nth r ms (fun _ => 0))) (seq 0 2) == 6.
Proof.
  destruct (C31_mass_conserved _ _ _ _ _ _ _ ex_world ex_parts [[1; 2]; [3]] [ex_out; ex_out]) as (ls & ms & E1 & E2 & E3); try reflexivity.
  - split; [reflexivity|repeat constructor].
  - split; [exact Logic.I|reflexivity].
  - exact ex_room.
  - exact ex_stored.
  - exists ls, ms. auto.
Qed.

(** ** C32 *)
Theorem C32_readout_distributed :
  forall Nmesh BoxSize box w0 pt blocks pms, world Nmesh BoxSize box w0 pt blocks pms ->
  let nd := length Nmesh in let P := length blocks in
  forall poss scale ts s sm w' w d hsml fields whole wm,
  particles_ok nd P poss -> direction_ok nd d ->
  length scale = nd -> transforms pms ts = rank_affines Nmesh pt blocks scale ->
  resampler_of pms w' = w -> proper_kind (w_kind w) ->
  mkarr (smoothing_value (nth 0 pms (mesh_pm Nmesh pt blocks box w0 0)) s) nd = Ret sm ->
  length sm = nd -> Forall (fun q => 0 <= q) sm -> room Nmesh pt sm ->
  wf_wvalue poss hsml -> uniform hsml ->
  (forall r i, (r < P)%nat -> (i < length (nth r poss []))%nat ->
     within w (val hsml r (r, i)) /\ forall a, (a < nd)%nat -> inject_Z (extent w (val hsml r (r, i))) / 2 <= nth a sm 0) ->
  length fields = P ->
  (forall r, (r < P)%nat -> stored (f_array (nth r fields zero_field)) (block_shape (i_edges pt) (block blocks r))) ->
  stored whole Nmesh ->
  (forall r idx, (r < P)%nat -> In idx (elements (f_array (nth r fields zero_field))) ->
     elem whole wm (zadd idx (block_start (i_edges pt) (block blocks r))) ==
     elem (f_array (nth r fields zero_field)) (f_data (nth r fields zero_field)) idx) ->
  exists ls vs,
    pm_decompose pms s ts poss = map Ret ls /\
    pm_readout pms w' ts d (Some ls) fields poss hsml = map Ret vs /\ length vs = P /\
    forall r, (r < P)%nat -> exists us,
      window_readout w whole wm (nth r poss []) (local_arg hsml r) d (Some (whole_affine Nmesh scale)) = Ret us /\
      Forall2 Qeq (nth r vs []) us.
Proof.
  intros Nmesh BoxSize box w0 pt blocks pms W nd P poss scale ts s sm w' w d hsml fields whole wm
    Hposs Hd Hscale Hts Hw Hk Hs Hsm Hpos Hroom Hh Uh Hext Lf Hst Hwhole Hinit.
  assert (Hs' : mkarr (smoothing_value (mesh_pm Nmesh pt blocks box w0 0) s) (length Nmesh) = Ret sm).
  { rewrite <- Hs. rewrite (world_pms _ _ _ _ _ _ _ W). fold P.
    pose proof (world_blocks _ _ _ _ _ _ _ W) as H0. fold P in H0. rewrite nth_map_seq by exact H0. reflexivity. }
  destruct (decompose_world _ _ _ _ _ _ _ W scale sm ts s poss Hscale Hsm Hpos Hts Hs' Hposs) as (args & Ed & La & Wa & Sa & Aa).
  destruct Hposs as [Lp Dp].
  destruct (readout_matches _ _ _ (wd_mesh _ _ _ _ _ _ _ W) scale sm w d Hscale Hsm Hpos Hroom (wd_order _ _ _ _ _ _ _ W) Hk Hd
    poss Lp Dp args La Wa Sa Aa hsml Hh Uh Hext fields whole wm Lf Hst Hwhole pms w' ts Hw Hts Hinit)
    as (vs & E & L & H).
  exists (layout_init args), vs. repeat (split; [assumption|]). exact H.
Qed.
Print Assumptions C32_readout_distributed.

Theorem C32_readout_default :
  forall Nmesh BoxSize box w0 pt blocks pms, world Nmesh BoxSize box w0 pt blocks pms ->
  let nd := length Nmesh in let P := length blocks in
  forall poss fields whole wm,
  particles_ok nd P poss ->
  proper_kind (w_kind w0) -> (0 < w_support w0)%Z -> room Nmesh pt (half_support w0 nd) ->
  length fields = P ->
  (forall r, (r < P)%nat -> stored (f_array (nth r fields zero_field)) (block_shape (i_edges pt) (block blocks r))) ->
  stored whole Nmesh ->
  (forall r idx, (r < P)%nat -> In idx (elements (f_array (nth r fields zero_field))) ->
     elem whole wm (zadd idx (block_start (i_edges pt) (block blocks r))) ==
     elem (f_array (nth r fields zero_field)) (f_data (nth r fields zero_field)) idx) ->
  exists ls vs,
    pm_decompose pms SmoothDefault None poss = map Ret ls /\
    pm_readout pms None None None (Some ls) fields poss WNone = map Ret vs /\ length vs = P /\
    forall r, (r < P)%nat -> exists us,
      window_readout w0 whole wm (nth r poss []) None None (Some (whole_affine Nmesh (mesh_scale Nmesh box))) = Ret us /\
      Forall2 Qeq (nth r vs []) us.
Proof.
  intros Nmesh BoxSize box w0 pt blocks pms W nd P poss fields whole wm Hposs Hk Hsup Hroom Lf Hst Hwhole Hinit.
  assert (H0 : (0 < P)%nat) by exact (world_blocks _ _ _ _ _ _ _ W).
  assert (Hq : 0 <= inject_Z (w_support w0)) by (change 0 with (inject_Z 0); rewrite <- Zle_Qle; lia).
  apply (C32_readout_distributed Nmesh BoxSize box w0 pt blocks pms W poss (mesh_scale Nmesh box) None SmoothDefault (half_support w0 nd)
    None w0 None WNone fields whole wm); auto; try exact Logic.I.
  - exact (mesh_scale_length _ _ _ _ _ _ _ W).
  - exact (default_affines _ _ _ _ _ _ _ W).
  - exact (default_resampler _ _ _ _ _ _ _ W).
  - rewrite (world_pms _ _ _ _ _ _ _ W). fold P. rewrite nth_map_seq by exact H0. reflexivity.
  - apply repeat_length.
  - apply Forall_forall. intros q Hin. apply repeat_spec in Hin. subst q. lra.
  - intros r i _ _. cbn [val]. split; [apply within_one; exact Hsup|]. intros a Ha.
    rewrite (extent_one w0 Hsup). unfold half_support. rewrite nth_repeat_in by exact Ha.
    unfold Qdiv. change (/ 2) with (1#2). apply Qle_refl.
Qed.
Print Assumptions C32_readout_default.

(** two ranks hold the halves of a field that is 10 i + j in cell (i, j) *)
Definition ex_field (r : nat) : field :=
  {| f_array := c_array [2; 4]%Z; f_data := fun a => inject_Z (10 * (2 * Z.of_nat r + a / 4) + a mod 4) |}.
Definition ex_whole : memory := fun a => inject_Z (10 * (a / 4) + a mod 4).
Definition read_world (pms : list pm) (s : smoothing_arg) (fields : list field) (poss : list (list (list Q))) : list (list Q) :=
  match all_ret (pm_decompose pms s None poss) with
  | Some ls => match all_ret (pm_readout pms None None None (Some ls) fields poss WNone) with Some vs => vs | None => [] end
  | None => []
  end.
Example C32_case :
  (exists ls vs, pm_decompose ex_pms SmoothDefault None ex_parts = map Ret ls /\
    pm_readout ex_pms None None None (Some ls) [ex_field 0; ex_field 1] ex_parts WNone = map Ret vs /\
    forall r, (r < 2)%nat -> exists us,
      window_readout ex_cic (c_array [4; 4]%Z) ex_whole (nth r ex_parts []) None None (Some (whole_affine [4; 4]%Z (mesh_scale [4; 4]%Z [8; 8]))) = Ret us /\
      Forall2 Qeq (nth r vs []) us) /\
  map (map Qred) (read_world ex_pms SmoothDefault [ex_field 0; ex_field 1] ex_parts) = [[35#2; 9]; [11#2]].
Proof.
  split.
  - destruct (C32_readout_default _ _ _ _ _ _ _ ex_world ex_parts [ex_field 0; ex_field 1] (c_array [4; 4]%Z) ex_whole)
      as (ls & vs & E1 & E2 & E3 & E4); try reflexivity.
    + split; [reflexivity|repeat constructor].
    + apply standard_proper. exact Logic.I.
    + exact ex_room.
    + intros r Hr. destruct r as [|[|r]]; [| |simpl in Hr; lia]; (apply (c_array_stored [2; 4]%Z); repeat constructor).
    + apply c_array_stored. repeat constructor.
    + intros r idx Hr Hin. destruct r as [|[|r]]; [| |simpl in Hr; lia]; cbn [nth f_array f_data ex_field] in *;
        vm_compute in Hin; repeat (destruct Hin as [<-|Hin]; [reflexivity|]); contradiction.
    + exists ls, vs. auto.
  - vm_compute. reflexivity.
Qed.

(** without room, a particle does not see the cells of the other rank *)
Theorem C32_readout_no_room_refuted :
  exists pms ls vs us, let w := ResampleWindow TunedTSC 0 in
    world [3]%Z (Scalar 3) [3] w tight_pt [[0]; [1]]%Z pms /\
    pm_decompose pms SmoothDefault None [[[1#5]]; []] = map Ret ls /\
    pm_readout pms None None None (Some ls) [{| f_array := c_array [2]%Z; f_data := fun _ => 1 |}; {| f_array := c_array [1]%Z; f_data := fun _ => 1 |}]
      [[[1#5]]; []] WNone = map Ret vs /\
    window_readout w (c_array [3]%Z) (fun _ => 1) [[1#5]] None None (Some (whole_affine [3]%Z (mesh_scale [3]%Z [3]))) = Ret us /\
    ~ nth 0 (nth 0 vs []) 0 == nth 0 us 0.
Proof.
  set (p := tight_pms (ResampleWindow TunedTSC 0)).
  set (fs := [{| f_array := c_array [2]%Z; f_data := fun _ => 1 |}; {| f_array := c_array [1]%Z; f_data := fun _ => 1 |}]).
  destruct (all_ret_check (pm_decompose p SmoothDefault None [[[1#5]]; []])
    (fun ls => match all_ret (pm_readout p None None None (Some ls) fs [[[1#5]]; []] WNone) with
       | Some vs => Qeq_bool (nth 0 (nth 0 vs []) 0) (191#200) | None => false end))
    as (ls & E1 & E2); [vm_compute; reflexivity|].
  destruct (all_ret_check _ _ E2) as (vs & E3 & E4).
  destruct (all_ret_check [window_readout (ResampleWindow TunedTSC 0) (c_array [3]%Z) (fun _ => 1) [[1#5]] None None
      (Some (whole_affine [3]%Z (mesh_scale [3]%Z [3])))] (fun l => Qeq_bool (nth 0 (nth 0 l []) 0) 1))
    as (uss & E5 & E6); [vm_compute; reflexivity|].
  destruct uss as [|us [|? ?]]; try discriminate.
  exists p, ls, vs, us. cbv zeta. split; [apply tight_world|].
  split; [exact E1|]. split; [exact E3|]. split; [exact (f_equal (hd Blocked) E5)|].
  apply Qeq_bool_iff in E4. apply Qeq_bool_iff in E6. cbn [nth] in E6. rewrite E4, E6. discriminate.
Qed.
Print Assumptions C32_readout_no_room_refuted.

(** ** C47 *)
Lemma all_axes_nth_inv (R : list Q -> Q -> Q -> Z -> Prop) edges sm x ks : all_axes R edges sm x ks ->
  forall i, (i < length edges)%nat -> R (nth i edges []) (nth i sm 0) (nth i x 0) (nth i ks 0%Z).
Proof.
  revert sm x ks. induction edges as [|e es IH]; intros sm x ks H i Hi; [simpl in Hi; lia|].
  destruct sm as [|s ss], x as [|c cs], ks as [|k ks]; try contradiction. cbn [all_axes] in H. destruct H as [H1 H2].
  destruct i as [|i]; [exact H1|]. exact (IH ss cs ks H2 i (proj2 (Nat.succ_lt_mono _ _) Hi)).
Qed.

(** the position lies in the cells of the block, up to periods *)
Definition in_block (Nmesh start shape : list Z) (x : list Q) : Prop :=
  forall a, (a < length Nmesh)%nat -> exists m : Z,
    inject_Z (nth a start 0%Z) <= nth a x 0 + inject_Z (m * nth a Nmesh 0%Z) <
    inject_Z (nth a start 0%Z + nth a shape 0%Z).

Theorem C47_home_rank_stores_particle :
  forall Nmesh BoxSize box w0 pt blocks pms, world Nmesh BoxSize box w0 pt blocks pms ->
  let nd := length Nmesh in let P := length blocks in
  length pms = P /\
  (forall r p, nth_error pms r = Some p -> pm_start p = nth r (local_i_start pt) [] /\ pm_shape p = nth r (local_i_shape pt) []) /\
  forall poss scale ts,
  particles_ok nd P poss -> length scale = nd -> transforms pms ts = rank_affines Nmesh pt blocks scale ->
  exists args, pm_decompose pms (SmoothNumber (Scalar 0)) ts poss = map Ret (layout_init args) /\ wf_args args /\
    forall s r p i, (s < P)%nat -> nth_error pms r = Some p -> (i < length (nth s poss []))%nat ->
      (In (s, i) (tags args r) <->
       in_block Nmesh (pm_start p) (pm_shape p) (map (fun ax => fst ax * snd ax) (combine scale (nth i (nth s poss []) [])))).
Proof.
  intros Nmesh BoxSize box w0 pt blocks pms W nd P. set (OK := wd_mesh _ _ _ _ _ _ _ W).
  assert (Hnth : forall r p, nth_error pms r = Some p -> (r < P)%nat /\ p = mesh_pm Nmesh pt blocks box w0 r).
  { intros r p E. rewrite (world_pms _ _ _ _ _ _ _ W) in E. rewrite nth_error_map in E. fold P in E.
    destruct (lt_dec r P) as [H|H].
    - rewrite nth_error_seq_lt in E by exact H. cbn in E. split; [exact H|congruence].
    - rewrite nth_error_seq_ge in E by lia. discriminate. }
  split; [exact (world_length _ _ _ _ _ _ _ W)|]. split.
  { intros r p E. destruct (Hnth r p E) as [Hr ->]. cbn [pm_start pm_shape mesh_pm].
    rewrite (mk_start _ _ _ OK), (mk_shape _ _ _ OK). unfold block.
    rewrite !(nth_map_in _ blocks r [] []) by exact Hr. split; reflexivity. }
  intros poss scale ts Hposs Hscale Hts.
  set (sm := repeat 0 (length Nmesh)).
  assert (Lsm : length sm = length Nmesh) by apply repeat_length.
  assert (Zsm : Forall (fun q => q == 0) sm) by (apply Forall_forall; intros q Hq; apply repeat_spec in Hq; subst q; reflexivity).
  assert (Psm : Forall (fun q => 0 <= q) sm) by (eapply Forall_impl; [|exact Zsm]; cbv beta; intros q ->; lra).
  destruct (decompose_world _ _ _ _ _ _ _ W scale sm ts (SmoothNumber (Scalar 0)) poss Hscale Lsm Psm Hts eq_refl Hposs) as (args & Ed & La & Wa & Sa & Aa).
  exists args. split; [exact Ed|]. split; [exact Wa|].
  intros s r p i Hs Ep Hi. destruct (Hnth r p Ep) as [Hr ->]. cbn [pm_start pm_shape mesh_pm].
  rewrite in_tags by lia. rewrite Aa by assumption. rewrite sent_to_in.
  destruct Hposs as [Lp Dp].
  assert (Lx : length (nth i (nth s poss []) []) = length Nmesh) by (apply (dims_at Nmesh blocks poss Lp Dp s i Hs Hi)).
  set (x := nth i (nth s poss []) []) in *.
  unfold receivers. rewrite (targets_zero P).
  2: exact (mesh_wf_grid _ _ _ OK).
  2: { split; [reflexivity|]. exact (qaxis_ok _ _ _ OK). }
  2: { apply (mesh_flags_ok _ _ _ OK). exact (wd_order _ _ _ _ _ _ _ W). }
  2: { cbn [g_edges mesh_grid]. rewrite (qedges_length _ _ _ OK). exact Lsm. }
  2: { cbn [g_edges mesh_grid]. rewrite (qedges_length _ _ _ OK). rewrite transform0_length. cbn [af_scale whole_affine]. lia. }
  2: exact Zsm.
  set (y := transform0 (whole_affine Nmesh scale) x).
  change (map (fun ax => fst ax * snd ax) (combine scale x)) with y.
  assert (Ly : length y = length Nmesh) by (unfold y; rewrite transform0_length; cbn [af_scale whole_affine]; lia).
  assert (Hown : In r [owner (mesh_grid pt blocks) (home (mesh_grid pt blocks) y)] <-> block blocks r = home (mesh_grid pt blocks) y).
  { assert (Hin : inside (mesh_grid pt blocks) y (home (mesh_grid pt blocks) y)).
    { apply home_inside; [exact (qaxis_ok _ _ _ OK)|]. cbn [g_edges mesh_grid]. rewrite (qedges_length _ _ _ OK). lia. }
    destruct Hin as [V _]. rewrite g_dims_mesh in V. destruct (block_of _ _ _ OK _ V) as (r' & Hr' & Eb).
    rewrite <- Eb. rewrite (owner_block _ _ _ OK r' Hr'). split.
    - intros [->|[]]. reflexivity.
    - intros E. left. symmetry. apply (block_inj _ _ _ OK); assumption. }
  rewrite Hown. clear Hown.
  assert (Hax : forall a, (a < length Nmesh)%nat ->
    (inside_axis (nth a (qedges pt) []) (nth a y 0) (nth a (block blocks r) 0%Z) <->
     exists m : Z, inject_Z (nth a (block_start (i_edges pt) (block blocks r)) 0%Z) <= nth a y 0 + inject_Z (m * nth a Nmesh 0%Z) <
       inject_Z (nth a (block_start (i_edges pt) (block blocks r)) 0%Z + nth a (block_shape (i_edges pt) (block blocks r)) 0%Z))).
  { intros a Ha. destruct (block_nth _ _ _ OK r a Hr Ha) as (_ & _ & _ & E1 & E2).
    unfold inside_axis. rewrite (period_nth _ _ _ OK scale r Hscale Hr sm Lsm a Ha). rewrite !qedges_nth. rewrite E2, <- E1.
    set (st := nth a (block_start (i_edges pt) (block blocks r)) 0%Z) in *.
    replace (st + (nth (S (Z.to_nat (nth a (block blocks r) 0%Z))) (nth a (i_edges pt) []) 0 - st))%Z
      with (nth (S (Z.to_nat (nth a (block blocks r) 0%Z))) (nth a (i_edges pt) []) 0%Z) by lia.
    split; intros [m Hm]; exists m; unfold iz in *; rewrite inject_Z_mult in *; tauto. }
  split.
  - intros [_ E] a Ha. apply (Hax a Ha).
    assert (Hin : inside (mesh_grid pt blocks) y (block blocks r)).
    { rewrite E. apply home_inside; [exact (qaxis_ok _ _ _ OK)|]. cbn [g_edges mesh_grid]. rewrite (qedges_length _ _ _ OK). lia. }
    destruct Hin as [_ Hin]. cbn [g_edges mesh_grid] in Hin.
    exact (all_axes_nth_inv _ _ _ _ _ Hin a ltac:(rewrite (qedges_length _ _ _ OK); exact Ha)).
  - intros H. split; [exact Hi|]. apply inside_home; [exact (qaxis_ok _ _ _ OK)|]. split.
    + rewrite g_dims_mesh. exact (block_valid _ _ _ OK r Hr).
    + cbn [g_edges mesh_grid]. apply all_axes_nth.
      * apply map_length.
      * rewrite (qedges_length _ _ _ OK). lia.
      * pose proof (block_valid _ _ _ OK r Hr) as V. apply Forall2_len in V. unfold domain_shape in V.
        rewrite map_length in V. rewrite (edges_length _ _ _ OK) in V. rewrite (qedges_length _ _ _ OK). lia.
      * rewrite (qedges_length _ _ _ OK). intros a Ha. apply (Hax a Ha). exact (H a Ha).
Qed.
Print Assumptions C47_home_rank_stores_particle.

(** blocks that are not in the order of the ranks *)
Definition swap_pt : partition :=
  {| i_edges := [[0; 1; 4]]%Z; local_i_start := [[1]; [0]]%Z; local_i_shape := [[3]; [1]]%Z |}.
Example C47_case :
  world [4]%Z (Scalar 4) [4] ex_cic swap_pt [[1]; [0]]%Z (map (mesh_pm [4]%Z swap_pt [[1]; [0]]%Z [4] ex_cic) (seq 0 2)) /\
  map (fun o => match o with Ret l => sendcounts l | _ => [] end)
    (pm_decompose (map (mesh_pm [4]%Z swap_pt [[1]; [0]]%Z [4] ex_cic) (seq 0 2)) (SmoothNumber (Scalar 0)) None
       [[[5#2]; [-(7#2)]]; [[2]]]) = [[1; 1]; [1; 0]]%nat.
Proof.
  split; [|vm_compute; reflexivity].
  constructor; try reflexivity.
  - constructor; try reflexivity; [simpl; lia| |].
    + cbn [i_edges swap_pt]. apply Forall2_cons; [|apply Forall2_nil]. split; [lia|split; [simpl; lia|split; [sorted_z|split; reflexivity]]].
    + vm_compute. apply perm_swap.
  - cbn [i_edges swap_pt]. apply Forall_cons; [|apply Forall_nil]. intros i j Hi Hj; simpl in Hj;
      destruct i as [|[|i]], j as [|[|j]]; simpl; lia.
  - left. cbn [i_edges swap_pt]. apply Forall_cons; [|apply Forall_nil]. intros k K. simpl in K.
    destruct k as [|[|k]]; simpl; lia.
Qed.

(** two empty blocks on an axis: six cells in blocks of two for five ranks.  A domain is never
    assigned, every rank uses uninitialised memory. *)
Definition empty_pt : partition :=
  {| i_edges := [[0; 2; 4; 6; 6; 6]]%Z; local_i_start := [[0]; [2]; [4]; [6]; [6]]%Z; local_i_shape := [[2]; [2]; [2]; [0]; [0]]%Z |}.
Theorem C47_two_empty_blocks_refuted :
  mesh_ok [6]%Z empty_pt [[0]; [1]; [2]; [3]; [4]]%Z /\
  ParticleMesh [6]%Z (Scalar 6) ex_cic empty_pt = repeat Garbage 5.
Proof.
  split; [|vm_compute; reflexivity].
  constructor; try reflexivity; [simpl; lia|].
  cbn [i_edges empty_pt]. apply Forall2_cons; [|apply Forall2_nil]. split; [lia|split; [simpl; lia|split; [sorted_z|split; reflexivity]]].
Qed.
Print Assumptions C47_two_empty_blocks_refuted.
