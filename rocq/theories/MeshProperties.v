(** Distributed painting and reading: C31, C32, C47. *)
From Coq Require Import List Arith ZArith QArith Qabs Qround Lqa Lia Bool Sorted Permutation Setoid Morphisms.
From Verif Require Import Base ListFacts LayoutModel LayoutSpec LayoutProofs LayoutModes LayoutMore WrapModel WrapProofs DomainModel DomainFill DomainGeom DomainTargets
  DomainHome DomainProperties QSum WindowModel WindowStencil WindowSpread WindowKernels WindowAxis WindowNative WindowApi WindowPoints
  WindowGrad WindowTranslate WindowProperties MeshModel MeshAssign MeshRoute MeshPaint MeshTile MeshDistributed.
Import ListNotations.
Local Open Scope Q_scope.

(** the meshes of all ranks, constructed on a partition in which every block is some
    rank's; no two blocks of an axis start at the same cell, and either no block is empty or
    the ranks hold the blocks in C order *)
Record world (Nmesh : list Z) (BoxSize : value Q) (box : list Q) (w0 : window) (pt : partition)
    (blocks : list (list Z)) (pms : list pm) : Prop := {
  wd_mesh : mesh_ok Nmesh pt blocks;
  wd_starts : distinct_starts (i_edges pt);
  wd_order : plain_order pt blocks;
  wd_box : mkarr BoxSize (length Nmesh) = Ret box;
  wd_boxdim : length box = length Nmesh;
  wd_pms : ParticleMesh Nmesh BoxSize w0 pt = map Ret pms
}.
(** the particles: one list per rank, one coordinate per dimension *)
Definition particles_ok (nd P : nat) (poss : list (list (list Q))) : Prop :=
  length poss = P /\ Forall (Forall (fun x => length x = nd)) poss.
Definition direction_ok (nd : nat) (d : option Z) : Prop :=
  match d with None => True | Some d => (- Z.of_nat nd <= d < Z.of_nat nd)%Z end.

Lemma map_Ret_inj {A} (a b : list A) : map Ret a = map Ret b -> a = b.
Proof.
  revert b. induction a as [|x a IH]; intros [|y b] E; try discriminate; [reflexivity|].
  inversion E; subst. f_equal. apply IH. assumption.
Qed.

Section World.
Variables (Nmesh : list Z) (BoxSize : value Q) (box : list Q) (w0 : window) (pt : partition)
  (blocks : list (list Z)) (pms : list pm).
Hypothesis (W : world Nmesh BoxSize box w0 pt blocks pms).
Local Notation P := (length blocks).
Local Notation nd := (length Nmesh).
Let OK : mesh_ok Nmesh pt blocks := wd_mesh _ _ _ _ _ _ _ W.

Lemma world_pms : pms = map (mesh_pm Nmesh pt blocks box w0) (seq 0 P).
Proof.
  apply map_Ret_inj. rewrite <- (wd_pms _ _ _ _ _ _ _ W).
  rewrite (ParticleMesh_ok _ _ _ OK BoxSize box w0 (wd_starts _ _ _ _ _ _ _ W) (wd_box _ _ _ _ _ _ _ W) (wd_boxdim _ _ _ _ _ _ _ W)).
  rewrite map_map. reflexivity.
Qed.
Lemma world_length : length pms = P.
Proof. rewrite world_pms, map_length, seq_length. reflexivity. Qed.
Lemma world_blocks : (0 < P)%nat.
Proof.
  pose proof (P_prod _ _ _ OK) as E. pose proof (edges_each _ _ _ OK) as F.
  assert (0 < prodz (domain_shape (i_edges pt)))%Z; [|lia].
  unfold domain_shape. clear E. induction F as [|e es (L & _) _ IH]; [reflexivity|].
  cbn [map prodz fold_right]. unfold prodz in IH. nia.
Qed.
Lemma transform_at_nth ts r : transform_at pms ts r = nth_error (transforms pms ts) r.
Proof. destruct ts as [l|]; cbn [transform_at transforms]; [reflexivity|]. rewrite nth_error_map. reflexivity. Qed.
Lemma default_affines : transforms pms None = rank_affines Nmesh pt blocks (mesh_scale Nmesh box).
Proof. cbn [transforms]. rewrite world_pms, map_map. reflexivity. Qed.
Lemma default_resampler : resampler_of pms None = w0.
Proof.
  rewrite world_pms. pose proof world_blocks. destruct blocks as [|b bs]; [simpl in *; lia|]. reflexivity.
Qed.
Lemma mesh_scale_length : length (mesh_scale Nmesh box) = nd.
Proof. unfold mesh_scale. rewrite map_length, combine_length, (wd_boxdim _ _ _ _ _ _ _ W). apply Nat.min_id. Qed.

Section Decompose.
Variables (scale sm : list Q) (ts : option (list affine)) (s : smoothing_arg) (poss : list (list (list Q))).
Hypothesis (Hscale : length scale = nd) (Hsm : length sm = nd) (Hpos : Forall (fun s => 0 <= s) sm).
Hypothesis (Hts : transforms pms ts = rank_affines Nmesh pt blocks scale).
Hypothesis (Hs : mkarr (smoothing_value (mesh_pm Nmesh pt blocks box w0 0) s) nd = Ret sm).
Hypothesis (Hposs : particles_ok nd P poss).

Lemma decompose_world : exists args, pm_decompose pms s ts poss = map Ret (layout_init args) /\
  length args = P /\ wf_args args /\ sent_lengths args poss /\
  forall s r, (s < P)%nat -> (r < P)%nat ->
    addr args s r = sent_to (receivers Nmesh pt blocks scale sm) (nth s poss []) r.
Proof.
  destruct Hposs as [L D].
  destruct (routed_args _ _ _ OK scale sm Hscale Hsm Hpos poss L D) as (args & E & R).
  exists args. split; [|exact R]. unfold pm_decompose.
  assert (E' : decompose_args pms s ts poss = map Ret args).
  { rewrite <- E. unfold decompose_args. rewrite world_length.
    transitivity (map (decompose P (mesh_grid pt blocks) (transform0 (whole_affine Nmesh scale)) sm) (map (fun r => nth r poss []) (seq 0 P)));
      [|rewrite (map_nth_seq poss [] P L); reflexivity].
    rewrite map_map. apply map_ext_in. intros r Hr. apply in_seq in Hr.
    rewrite transform_at_nth, Hts. unfold rank_affines. rewrite world_pms. rewrite !nth_error_map.
    rewrite nth_error_seq_lt by lia. cbn [option_map]. rewrite (nth_error_nth' poss [] (n := r)) by lia.
    change (0 + r)%nat with r. cbn [pm_domain mesh_pm g_edges mesh_grid].
    rewrite (qedges_length _ _ _ OK).
    replace (smoothing_value (mesh_pm Nmesh pt blocks box w0 r) s) with (smoothing_value (mesh_pm Nmesh pt blocks box w0 0) s) by (destruct s; reflexivity).
    rewrite Hs. cbn [bind]. reflexivity. }
  rewrite E', all_ret_Ret. reflexivity.
Qed.
End Decompose.
End World.

(** ** C31 *)
(** With any transform that every rank only shifts by its block, any window and
    smoothing lengths not wider than the smoothing given to [decompose]: rank [r] gets the
    cells of its block as a process gets them that holds the whole mesh and all particles. *)
Theorem C31_paint_distributed :
  forall Nmesh BoxSize box w0 pt blocks pms, world Nmesh BoxSize box w0 pt blocks pms ->
  let nd := length Nmesh in let P := length blocks in
  forall poss scale ts s sm w' w d (hold : bool) hsml mass outs whole wm,
  particles_ok nd P poss -> direction_ok nd d ->
  length scale = nd -> transforms pms ts = rank_affines Nmesh pt blocks scale ->
  resampler_of pms w' = w -> proper_kind (w_kind w) ->
  mkarr (smoothing_value (nth 0 pms (mesh_pm Nmesh pt blocks box w0 0)) s) nd = Ret sm ->
  length sm = nd -> Forall (fun q => 0 <= q) sm -> room Nmesh pt sm ->
  wf_wvalue poss hsml -> uniform hsml -> wf_wvalue poss mass -> uniform mass ->
  (forall r i, (r < P)%nat -> (i < length (nth r poss []))%nat ->
     within w (val hsml r (r, i)) /\ forall a, (a < nd)%nat -> inject_Z (extent w (val hsml r (r, i))) / 2 <= nth a sm 0) ->
  length outs = P -> (forall r, (r < P)%nat -> stored (f_array (nth r outs zero_field)) (block_shape (i_edges pt) (block blocks r))) ->
  stored whole Nmesh ->
  (forall r idx, (r < P)%nat -> In idx (elements (f_array (nth r outs zero_field))) ->
     elem whole wm (zadd idx (block_start (i_edges pt) (block blocks r))) ==
     if hold then elem (f_array (nth r outs zero_field)) (f_data (nth r outs zero_field)) idx else 0) ->
  exists ls ms wm',
    pm_decompose pms s ts poss = map Ret ls /\
    pm_paint pms w' ts hold d (Some ls) outs poss hsml mass = map Ret ms /\ length ms = P /\
    window_paint w whole wm (concat poss) (whole_arg hsml) (whole_arg mass) d (Some (whole_affine Nmesh scale)) = Ret wm' /\
    forall r idx, (r < P)%nat -> In idx (elements (f_array (nth r outs zero_field))) ->
      elem (f_array (nth r outs zero_field)) (nth r ms (fun _ => 0)) idx ==
      elem whole wm' (zadd idx (block_start (i_edges pt) (block blocks r))).
Proof.
  intros Nmesh BoxSize box w0 pt blocks pms W nd P poss scale ts s sm w' w d hold hsml mass outs whole wm
    Hposs Hd Hscale Hts Hw Hk Hs Hsm Hpos Hroom Hh Uh Hm Um Hext Louts Hst Hwhole Hinit.
  assert (Hs' : mkarr (smoothing_value (mesh_pm Nmesh pt blocks box w0 0) s) (length Nmesh) = Ret sm).
  { rewrite <- Hs. rewrite (world_pms _ _ _ _ _ _ _ W). fold P.
    pose proof (world_blocks _ _ _ _ _ _ _ W) as H0. fold P in H0. rewrite nth_map_seq by exact H0. reflexivity. }
  destruct (decompose_world _ _ _ _ _ _ _ W scale sm ts s poss Hscale Hsm Hpos Hts Hs' Hposs) as (args & Ed & La & Wa & Sa & Aa).
  destruct Hposs as [Lp Dp].
  destruct (paint_matches _ _ _ (wd_mesh _ _ _ _ _ _ _ W) scale sm w d Hscale Hsm Hpos Hroom (wd_order _ _ _ _ _ _ _ W) Hk Hd
    poss Lp Dp args La Wa Sa Aa hsml Hh Uh Hext outs whole wm Louts Hst Hwhole pms w' ts hold mass Hw Hts Hm Um Hinit)
    as (ms & wm' & E & L & E' & H).
  exists (layout_init args), ms, wm'. repeat (split; [assumption|]). exact H.
Qed.
Print Assumptions C31_paint_distributed.

(** [pm.paint(pos, mass, layout=pm.decompose(pos))] with the defaults of everything else;
    half the support of the window must leave room on the axes that are divided *)
Definition half_support (w : window) (nd : nat) : list Q := repeat (inject_Z (w_support w) * (1#2)) nd.
Theorem C31_paint_default :
  forall Nmesh BoxSize box w0 pt blocks pms, world Nmesh BoxSize box w0 pt blocks pms ->
  let nd := length Nmesh in let P := length blocks in
  forall poss mass outs whole wm,
  particles_ok nd P poss -> wf_wvalue poss mass -> uniform mass ->
  proper_kind (w_kind w0) -> (0 < w_support w0)%Z -> room Nmesh pt (half_support w0 nd) ->
  length outs = P -> (forall r, (r < P)%nat -> stored (f_array (nth r outs zero_field)) (block_shape (i_edges pt) (block blocks r))) ->
  stored whole Nmesh -> (forall c, In c (elements whole) -> elem whole wm c == 0) ->
  exists ls ms wm',
    pm_decompose pms SmoothDefault None poss = map Ret ls /\
    pm_paint pms None None false None (Some ls) outs poss WNone mass = map Ret ms /\ length ms = P /\
    window_paint w0 whole wm (concat poss) None (whole_arg mass) None (Some (whole_affine Nmesh (mesh_scale Nmesh box))) = Ret wm' /\
    forall r idx, (r < P)%nat -> In idx (elements (f_array (nth r outs zero_field))) ->
      elem (f_array (nth r outs zero_field)) (nth r ms (fun _ => 0)) idx ==
      elem whole wm' (zadd idx (block_start (i_edges pt) (block blocks r))).
Proof.
  intros Nmesh BoxSize box w0 pt blocks pms W nd P poss mass outs whole wm Hposs Hm Um Hk Hsup Hroom Louts Hst Hwhole Hz.
  assert (H0 : (0 < P)%nat) by exact (world_blocks _ _ _ _ _ _ _ W).
  assert (Hq : 0 <= inject_Z (w_support w0)) by (change 0 with (inject_Z 0); rewrite <- Zle_Qle; lia).
  apply (C31_paint_distributed Nmesh BoxSize box w0 pt blocks pms W poss (mesh_scale Nmesh box) None SmoothDefault (half_support w0 nd)
    None w0 None false WNone mass outs whole wm); auto; try exact Logic.I.
  - exact (mesh_scale_length _ _ _ _ _ _ _ W).
  - exact (default_affines _ _ _ _ _ _ _ W).
  - exact (default_resampler _ _ _ _ _ _ _ W).
  - rewrite (world_pms _ _ _ _ _ _ _ W). fold P. rewrite nth_map_seq by exact H0. reflexivity.
  - apply repeat_length.
  - apply Forall_forall. intros q Hin. apply repeat_spec in Hin. subst q. lra.
  - intros r i _ _. cbn [val]. split; [apply within_one; exact Hsup|]. intros a Ha.
    rewrite (extent_one w0 Hsup). unfold half_support. rewrite nth_repeat_in by exact Ha.
    unfold Qdiv. change (/ 2) with (1#2). apply Qle_refl.
  - intros r idx Hr Hin. apply Hz. destruct W as [OK _ _ _ _ _].
    apply (zadd_in _ _ _ OK (map (fun _ => 0) Nmesh) (f_array (nth r outs zero_field)) whole r (map_length _ _) Hr (Hst r Hr) Hwhole idx Hin).
Qed.
Print Assumptions C31_paint_default.

(** a C-contiguous array *)
Fixpoint c_strides (shape : list Z) : list Z :=
  match shape with [] => [] | _ :: r => prodz r :: c_strides r end.
Definition c_array (shape : list Z) : array := {| ar_shape := shape; ar_strides := c_strides shape |}.
Lemma c_strides_length shape : length (c_strides shape) = length shape.
Proof. induction shape; simpl; congruence. Qed.
Lemma c_offset shape idx : length idx = length shape -> byte_offset (c_strides shape) idx = ravel shape idx.
Proof.
  revert idx. induction shape as [|n ns IH]; intros [|i idx] L; try discriminate; [reflexivity|].
  cbn [c_strides]. unfold byte_offset. cbn [combine map fold_right fst snd].
  change (fold_right Z.add 0%Z (map (fun si => (fst si * snd si)%Z) (combine (c_strides ns) idx))) with (byte_offset (c_strides ns) idx).
  rewrite IH by (simpl in L; lia). cbn [ravel]. unfold prodz. ring.
Qed.
Lemma c_array_stored shape : Forall (fun n => 0 < n)%Z shape -> stored (c_array shape) shape.
Proof.
  intros F. split; [reflexivity|]. split; [apply c_strides_length|].
  intros i j Hi Hj E. cbn [ar_strides c_array] in E.
  assert (V : forall l, In l (elements (c_array shape)) -> valid_index shape l /\ length l = length shape).
  { intros l Hl. apply in_cells_of in Hl. cbn [ar_shape c_array] in Hl. destruct Hl as [L H]. split; [|exact L]. clear -L H.
    revert l L H. induction shape as [|n ns IH]; intros [|z l] L H; try discriminate; constructor.
    - exact (H O ltac:(simpl; lia)).
    - apply IH; [simpl in L; lia|]. intros i Hi. exact (H (S i) ltac:(simpl; lia)). }
  destruct (V i Hi) as [Vi Li]. destruct (V j Hj) as [Vj Lj].
  rewrite !c_offset in E by assumption. exact (ravel_inj _ _ _ Vi Vj E).
Qed.
Lemma whole_cell w whole t c m m' poss mass : map (@length Q) mass = map (@length _) poss ->
  wf_call whole t -> (0 < native_of (w_kind w))%Z -> Forall (Forall (fun x => length x = length (ar_shape whole))) poss ->
  In c (elements whole) ->
  window_paint w whole m (concat poss) None (whole_arg (WArray mass)) None (Some t) = Ret m' ->
  elem whole m' c == elem whole m c +
    qsum (fun xq => snd xq * weight_of (painter_of w whole t None) 1 (fst xq) c) (combine (concat poss) (concat mass)).
Proof.
  intros Lm Wf Hk Hp Hc E.
  assert (L : length (concat mass) = length (concat poss)) by (rewrite !concat_length_sum, Lm; reflexivity).
  rewrite window_paint_values in E; [|exact Logic.I|exact Logic.I|exact L].
  assert (E' : m' = paint_all (painter_of w whole t None) m (parts_of (concat poss) (concat mass) (repeat 1 (length (concat poss))))) by (cbn in E; congruence).
  subst m'. rewrite <- !(cell_elem w whole t None Wf). rewrite paint_all_cell.
  - apply Qplus_comp; [reflexivity|]. unfold parts_of.
    replace (combine (combine (concat poss) (concat mass)) (repeat 1 (length (concat poss))))
      with (map (fun xq => (xq, 1)) (combine (concat poss) (concat mass))).
    + rewrite qsum_map. reflexivity.
    + assert (Lc : length (combine (concat poss) (concat mass)) = length (concat poss)) by (rewrite combine_length; lia).
      rewrite <- Lc. generalize (combine (concat poss) (concat mass)). intros l.
      induction l as [|x l IH]; [reflexivity|]. cbn [map length repeat combine]. f_equal. exact IH.
  - apply painter_of_wf; assumption.
  - apply parts_wf; [assumption|]. unfold wf_pos. apply Forall_concat. exact Hp.
  - apply (in_elements w whole t None Wf). exact Hc.
Qed.

(** consequence: the result does not depend on how the mesh is divided, nor on which rank has
    which particle *)
Theorem C31_decomposition_independent :
  forall Nmesh BoxSize box w0 pt blocks pms pt' blocks' pms',
  world Nmesh BoxSize box w0 pt blocks pms -> world Nmesh BoxSize box w0 pt' blocks' pms' ->
  let nd := length Nmesh in
  forall poss poss' mass mass' outs outs',
  particles_ok nd (length blocks) poss -> particles_ok nd (length blocks') poss' ->
  map (@length Q) mass = map (@length _) poss -> map (@length Q) mass' = map (@length _) poss' ->
  Permutation (combine (concat poss) (concat mass)) (combine (concat poss') (concat mass')) ->
  proper_kind (w_kind w0) -> (0 < w_support w0)%Z ->
  room Nmesh pt (half_support w0 nd) -> room Nmesh pt' (half_support w0 nd) ->
  length outs = length blocks -> length outs' = length blocks' ->
  (forall r, (r < length blocks)%nat -> stored (f_array (nth r outs zero_field)) (block_shape (i_edges pt) (block blocks r))) ->
  (forall r, (r < length blocks')%nat -> stored (f_array (nth r outs' zero_field)) (block_shape (i_edges pt') (block blocks' r))) ->
  exists ls ls' ms ms',
    pm_decompose pms SmoothDefault None poss = map Ret ls /\ pm_decompose pms' SmoothDefault None poss' = map Ret ls' /\
    pm_paint pms None None false None (Some ls) outs poss WNone (WArray mass) = map Ret ms /\
    pm_paint pms' None None false None (Some ls') outs' poss' WNone (WArray mass') = map Ret ms' /\
    forall r r' idx idx', (r < length blocks)%nat -> (r' < length blocks')%nat ->
      In idx (elements (f_array (nth r outs zero_field))) -> In idx' (elements (f_array (nth r' outs' zero_field))) ->
      zadd idx (block_start (i_edges pt) (block blocks r)) = zadd idx' (block_start (i_edges pt') (block blocks' r')) ->
      elem (f_array (nth r outs zero_field)) (nth r ms (fun _ => 0)) idx ==
      elem (f_array (nth r' outs' zero_field)) (nth r' ms' (fun _ => 0)) idx'.
Proof.
  intros Nmesh BoxSize box w0 pt blocks pms pt' blocks' pms' W W' nd poss poss' mass mass' outs outs'
    Hp Hp' Hm Hm' Hperm Hk Hsup Hr Hr' Lo Lo' Hst Hst'.
  set (whole := c_array Nmesh).
  assert (Hwhole : stored whole Nmesh).
  { apply c_array_stored. pose proof (mk_edges _ _ _ (wd_mesh _ _ _ _ _ _ _ W)) as F. clear -F.
    induction F as [|n e ns es H _ IH]; [constructor|]. constructor; [apply H|exact IH]. }
  destruct (C31_paint_default _ _ _ _ _ _ _ W poss (WArray mass) outs whole (fun _ => 0)) as (ls & ms & wm & E1 & E2 & E3 & E4 & E5);
    auto; try exact Logic.I; try reflexivity.
  destruct (C31_paint_default _ _ _ _ _ _ _ W' poss' (WArray mass') outs' whole (fun _ => 0)) as (ls' & ms' & wm' & E1' & E2' & E3' & E4' & E5');
    auto; try exact Logic.I; try reflexivity.
  exists ls, ls', ms, ms'. repeat (split; [assumption|]).
  intros r r' idx idx' H1 H1' H2 H2' Ec. rewrite (E5 r idx H1 H2), (E5' r' idx' H1' H2'). rewrite Ec.
  assert (Hin : In (zadd idx' (block_start (i_edges pt') (block blocks' r'))) (elements whole)).
  { apply (zadd_in _ _ _ (wd_mesh _ _ _ _ _ _ _ W') (map (fun _ => 0) Nmesh) (f_array (nth r' outs' zero_field)) whole r' (map_length _ _) H1' (Hst' r' H1') Hwhole idx' H2'). }
  revert Hin. generalize (zadd idx' (block_start (i_edges pt') (block blocks' r'))) as c. intros c Hc.
  assert (Wf : wf_call whole (whole_affine Nmesh (mesh_scale Nmesh box))).
  { apply (wf_whole _ _ _ (wd_mesh _ _ _ _ _ _ _ W)); [exact (mesh_scale_length _ _ _ _ _ _ _ W)|exact Hwhole]. }
  assert (P1 := whole_cell w0 whole _ c (fun _ => 0) wm poss mass Hm Wf (proj1 Hk) ltac:(rewrite (proj1 Hwhole); exact (proj2 Hp)) Hc E4).
  assert (P2 := whole_cell w0 whole _ c (fun _ => 0) wm' poss' mass' Hm' Wf (proj1 Hk) ltac:(rewrite (proj1 Hwhole); exact (proj2 Hp')) Hc E4').
  rewrite P1, P2. apply Qplus_comp; [reflexivity|]. apply qsum_perm. exact Hperm.
Qed.
Print Assumptions C31_decomposition_independent.

(** a mesh of 4 x 4 cells, the first axis divided between two ranks *)
Definition ex_pt : partition :=
  {| i_edges := [[0; 2; 4]; [0; 4]]%Z; local_i_start := [[0; 0]; [2; 0]]%Z; local_i_shape := [[2; 4]; [2; 4]]%Z |}.
Definition ex_blocks : list (list Z) := [[0; 0]; [1; 0]]%Z.
Definition ex_cic : window := ResampleWindow TunedCIC 0.
Definition ex_pms : list pm := map (mesh_pm [4; 4]%Z ex_pt ex_blocks [8; 8] ex_cic) (seq 0 2).
Definition ex_out : field := {| f_array := c_array [2; 4]%Z; f_data := fun _ => 7 |}.
Definition ex_parts : list (list (list Q)) := [[[3; 5]; [15#2; -(1)]]; [[1; 1]]].
Definition ex_mass : wvalue := WArray [[1; 2]; [3]].

Ltac sorted_z := repeat first [apply SSorted_nil | apply SSorted_cons | apply Forall_nil | apply Forall_cons]; try lia.
Lemma ex_mesh_ok : mesh_ok [4; 4]%Z ex_pt ex_blocks.
Proof.
  constructor; try reflexivity.
  - simpl. lia.
  - cbn [i_edges ex_pt]. repeat apply Forall2_cons; try apply Forall2_nil; (split; [lia|split; [simpl; lia|split; [sorted_z|split; reflexivity]]]).
Qed.
Lemma ex_world : world [4; 4]%Z (Scalar 8) [8; 8] ex_cic ex_pt ex_blocks ex_pms.
Proof.
  constructor; try reflexivity.
  - exact ex_mesh_ok.
  - cbn [i_edges ex_pt]. repeat apply Forall_cons; try apply Forall_nil; intros i j Hi Hj; simpl in Hj;
      destruct i as [|[|i]], j as [|[|j]]; simpl; lia.
  - right. reflexivity.
Qed.
Lemma ex_room : room [4; 4]%Z ex_pt (half_support ex_cic 2).
Proof.
  intros i k Hi Hk. cbv zeta. destruct i as [|[|i]]; [| |simpl in Hi; lia];
    cbn [ex_pt i_edges nth length] in Hk |- *.
  - left. destruct k as [|[|k]]; [vm_compute; discriminate|vm_compute; discriminate|lia].
  - right. destruct k as [|k]; [reflexivity|lia].
Qed.
Lemma ex_stored r : (r < 2)%nat ->
  stored (f_array (nth r [ex_out; ex_out] zero_field)) (block_shape (i_edges ex_pt) (block ex_blocks r)).
Proof.
  intros Hr. destruct r as [|[|r]]; [| |lia];
    (apply (c_array_stored [2; 4]%Z); repeat constructor).
Qed.
(** the rank's cells, after decomposing and painting *)
Definition painted (pms : list pm) (outs : list field) (poss : list (list (list Q))) (mass : wvalue) : list (list Q) :=
  match all_ret (pm_decompose pms SmoothDefault None poss) with
  | Some ls =>
      match all_ret (pm_paint pms None None false None (Some ls) outs poss WNone mass) with
      | Some ms => map (fun fm => map (elem (f_array (fst fm)) (snd fm)) (elements (f_array (fst fm)))) (combine outs ms)
      | None => []
      end
  | None => []
  end.
Example C31_case :
  (exists ls ms wm', pm_decompose ex_pms SmoothDefault None ex_parts = map Ret ls /\
     pm_paint ex_pms None None false None (Some ls) [ex_out; ex_out] ex_parts WNone ex_mass = map Ret ms /\
     window_paint ex_cic (c_array [4; 4]%Z) (fun _ => 0) (concat ex_parts) None (whole_arg ex_mass) None
       (Some (whole_affine [4; 4]%Z (mesh_scale [4; 4]%Z [8; 8]))) = Ret wm' /\
     forall r idx, (r < 2)%nat -> In idx (elements (f_array (nth r [ex_out; ex_out] zero_field))) ->
       elem (f_array (nth r [ex_out; ex_out] zero_field)) (nth r ms (fun _ => 0)) idx ==
       elem (c_array [4; 4]%Z) wm' (zadd idx (block_start (i_edges ex_pt) (block ex_blocks r)))) /\
  map (map Qred) (painted ex_pms [ex_out; ex_out] ex_parts ex_mass) =
  [[3#2; 3#4; 0; 3#4; 3#4; 3#4; 1#4; 1#4]; [0; 0; 1#4; 1#4; 1#4; 0; 0; 1#4]].
Proof.
  split.
  - destruct (C31_paint_default _ _ _ _ _ _ _ ex_world ex_parts ex_mass [ex_out; ex_out] (c_array [4; 4]%Z) (fun _ => 0))
      as (ls & ms & wm' & E1 & E2 & E3 & E4 & E5); try reflexivity.
    + split; [reflexivity|repeat constructor].
    + apply standard_proper. exact Logic.I.
    + exact ex_room.
    + exact ex_stored.
    + apply c_array_stored. repeat constructor.
    + exists ls, ms, wm'. auto.
  - vm_compute. reflexivity.
Qed.

Lemma all_ret_check {A} (l : list (outcome A)) (check : list A -> bool) :
  match all_ret l with Some x => check x | None => false end = true ->
  exists x, l = map Ret x /\ check x = true.
Proof.
  destruct (all_ret l) as [x|] eqn:E; [|discriminate]. intros H. exists x. split; [|exact H].
  clear H. revert x E. induction l as [|a l IH]; intros x E; cbn in E; [injection E as <-; reflexivity|].
  destruct a; try discriminate. change (sequence _) with (all_ret l) in E. destruct (all_ret l) as [y|] eqn:E'; [|discriminate].
  injection E as <-. cbn [map]. f_equal. apply IH. reflexivity.
Qed.

(** without room: 3 cells on two ranks and a window of 3 cells; part of the mass is lost *)
Definition tight_pt : partition :=
  {| i_edges := [[0; 2; 3]]%Z; local_i_start := [[0]; [2]]%Z; local_i_shape := [[2]; [1]]%Z |}.
Definition tight_pms (w : window) : list pm := map (mesh_pm [3]%Z tight_pt [[0]; [1]]%Z [3] w) (seq 0 2).
Definition line (n : Z) : field := {| f_array := c_array [n]; f_data := fun _ => 0 |}.
Lemma tight_world w : world [3]%Z (Scalar 3) [3] w tight_pt [[0]; [1]]%Z (tight_pms w).
Proof.
  constructor; try reflexivity.
  - constructor; try reflexivity; [simpl; lia|].
    cbn [i_edges tight_pt]. apply Forall2_cons; [|apply Forall2_nil]. split; [lia|split; [simpl; lia|split; [sorted_z|split; reflexivity]]].
  - cbn [i_edges tight_pt]. apply Forall_cons; [|apply Forall_nil]. intros i j Hi Hj; simpl in Hj;
      destruct i as [|[|i]], j as [|[|j]]; simpl; lia.
  - right. reflexivity.
Qed.
Theorem C31_paint_no_room_refuted :
  exists pms ls ms wm', let w := ResampleWindow TunedTSC 0 in
    world [3]%Z (Scalar 3) [3] w tight_pt [[0]; [1]]%Z pms /\
    pm_decompose pms SmoothDefault None [[[1#5]]; []] = map Ret ls /\
    pm_paint pms None None false None (Some ls) [line 2; line 1] [[[1#5]]; []] WNone (WScalar [1; 1]) = map Ret ms /\
    window_paint w (c_array [3]%Z) (fun _ => 0) [[1#5]] None (Some (Scalar 1)) None
      (Some (whole_affine [3]%Z (mesh_scale [3]%Z [3]))) = Ret wm' /\
    elem (c_array [1]%Z) (nth 1 ms (fun _ => 0)) [0]%Z == 0 /\
    elem (c_array [3]%Z) wm' [2]%Z == 9 # 200.
Proof.
  destruct (all_ret_check (pm_decompose (tight_pms (ResampleWindow TunedTSC 0)) SmoothDefault None [[[1#5]]; []])
    (fun ls => match all_ret (pm_paint (tight_pms (ResampleWindow TunedTSC 0)) None None false None (Some ls) [line 2; line 1]
         [[[1#5]]; []] WNone (WScalar [1; 1])) with
       | Some ms => Qeq_bool (elem (c_array [1]%Z) (nth 1 ms (fun _ => 0)) [0]%Z) 0 | None => false end))
    as (ls & E1 & E2); [vm_compute; reflexivity|].
  destruct (all_ret_check _ _ E2) as (ms & E3 & E4).
  destruct (all_ret_check [window_paint (ResampleWindow TunedTSC 0) (c_array [3]%Z) (fun _ => 0) [[1#5]] None (Some (Scalar 1)) None
      (Some (whole_affine [3]%Z (mesh_scale [3]%Z [3])))] (fun l => Qeq_bool (elem (c_array [3]%Z) (nth 0 l (fun _ => 0)) [2]%Z) (9#200)))
    as (wms & E5 & E6); [vm_compute; reflexivity|].
  destruct wms as [|wm' [|? ?]]; try discriminate.
  exists (tight_pms (ResampleWindow TunedTSC 0)), ls, ms, wm'. cbv zeta. split; [apply tight_world|].
  split; [exact E1|]. split; [exact E3|]. split; [exact (f_equal (hd Blocked) E5)|].
  split; apply Qeq_bool_iff; [exact E4|exact E6].
Qed.
Print Assumptions C31_paint_no_room_refuted.
