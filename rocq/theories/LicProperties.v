(** The line integral convolution does not depend on the decomposition: C76. *)
From Coq Require Import List Arith ZArith QArith Qabs Qround Qminmax Lqa Lia Bool Sorted Permutation Setoid Morphisms.
From Verif Require Import Base ListFacts LayoutModel LayoutSpec LayoutProofs LayoutModes LayoutMore WrapModel WrapProofs DomainModel DomainFill DomainGeom DomainTargets
  DomainHome DomainProperties QSum WindowModel WindowStencil WindowSpread WindowKernels WindowAxis WindowNative WindowApi WindowPoints
  WindowGrad WindowTranslate WindowProperties MeshModel MeshAssign MeshRoute MeshPaint MeshTile MeshDistributed MeshGrad MeshProperties MeshProperties2
  MeshResample MeshProperties4 MeshMoved LicModel LicProofs.
Import ListNotations.
Local Open Scope Q_scope.

(** the place of a cell *)
Definition cell_point (Nmesh : list Z) (box : list Q) (c : list Z) : list Q :=
  map (fun p => inject_Z (fst p) * (snd (snd p) / inject_Z (fst (snd p)))) (combine c (combine Nmesh box)).

(** ** The nearest window at the points of the grid, in the units of the box *)
Section Grid.
Variables (Nmesh : list Z) (BoxSize : value Q) (box : list Q) (w0 : window) (pt : partition)
  (blocks : list (list Z)) (pms : list pm).
Hypothesis (W : world Nmesh BoxSize box w0 pt blocks pms).
Local Notation P := (length blocks).
Local Notation nd := (length Nmesh).
Local Notation start r := (block_start (i_edges pt) (block blocks r)).
Local Notation shape r := (block_shape (i_edges pt) (block blocks r)).
Local Notation scale := (mesh_scale Nmesh box).
Let OK : mesh_ok Nmesh pt blocks := wd_mesh _ _ _ _ _ _ _ W.
Let HN : Forall (fun n => 0 < n)%Z Nmesh := world_sizes _ _ _ _ _ _ _ W.
Let Lb : length box = nd := wd_boxdim _ _ _ _ _ _ _ W.
Hypothesis (Hbox : forall a, (a < nd)%nat -> 0 < nth a box 0).

Lemma cell_point_length c : length c = nd -> length (cell_point Nmesh box c) = nd.
Proof. intros L. unfold cell_point. rewrite map_length, !combine_length. lia. Qed.
Lemma cell_point_nth c a : length c = nd -> (a < nd)%nat ->
  nth a (cell_point Nmesh box c) 0 = inject_Z (nth a c 0%Z) * (nth a box 0 / inject_Z (nth a Nmesh 0%Z)).
Proof.
  intros L Ha. unfold cell_point. rewrite (nth_map_in _ _ a 0 (0%Z, (0%Z, 0))) by (rewrite !combine_length; lia).
  rewrite combine_nth by (rewrite combine_length; lia). rewrite combine_nth by lia. reflexivity.
Qed.

(** the positions as the code computes them *)
Definition code_point (c : list Z) : list Q :=
  map (fun x => (fst (fst x) + snd (fst x)) * snd x)
    (combine (combine (map inject_Z c) (repeat 0 nd)) (map (fun nb => snd nb / inject_Z (fst nb)) (combine Nmesh box))).
Definition grid_positions : list (list (list Q)) := map (fun r => map code_point (rank_cells pt blocks r)) (seq 0 P).

Lemma grids_ok : exists grids, map (fun p => generate_uniform_particle_grid p (Scalar 0)) pms = map Ret grids /\
  map fst grids = grid_positions.
Proof.
  eexists (map (fun r => (map code_point (rank_cells pt blocks r), _)) (seq 0 P)). split.
  - rewrite (world_pms _ _ _ _ _ _ _ W), !map_map. apply map_ext_seq. intros r Hr.
    unfold generate_uniform_particle_grid. cbn [pm_Nmesh pm_BoxSize mesh_pm mkarr bind].
    unfold coordinates_Q. rewrite map_map. unfold mesh_coordinates. cbn [pm_start pm_shape mesh_pm].
    change (map (fun idx => map (fun c => (fst c + snd c)%Z) (combine idx (block_start (i_edges pt) (block blocks r))))
      (DomainFill.box (map (fun n => (0%Z, n)) (block_shape (i_edges pt) (block blocks r))))) with (rank_cells pt blocks r).
    reflexivity.
  - unfold grid_positions. rewrite map_map. reflexivity.
Qed.

Lemma code_point_spec c a : length c = nd -> (a < nd)%nat -> length (code_point c) = nd /\
  nth a (code_point c) 0 == nth a (cell_point Nmesh box c) 0.
Proof.
  intros L Ha. rewrite cell_point_nth by assumption.
  assert (L1 : length (combine (map inject_Z c) (repeat 0 nd)) = nd) by (rewrite combine_length, map_length, repeat_length; lia).
  assert (L2 : length (map (fun nb : Z * Q => snd nb / inject_Z (fst nb)) (combine Nmesh box)) = nd) by (rewrite map_length, combine_length; lia).
  unfold code_point. rewrite map_length, combine_length. split; [lia|].
  rewrite (nth_map_in _ _ a 0 ((0, 0), 0)) by (rewrite combine_length; lia).
  rewrite combine_nth by lia. rewrite combine_nth by (rewrite map_length, repeat_length; lia). cbn [fst snd].
  rewrite (nth_map_in _ c a 0 0%Z) by lia. rewrite nth_repeat_in by lia.
  rewrite (nth_map_in _ _ a 0 (0%Z, 0)) by (rewrite combine_length; lia). rewrite combine_nth by lia. cbn [fst snd]. ring.
Qed.

Lemma rank_cell_length r c : (r < P)%nat -> In c (rank_cells pt blocks r) -> length c = nd.
Proof. intros Hr Hc. apply (in_rank_cells _ _ _ OK r c Hr) in Hc. exact (proj1 Hc). Qed.

Section Rank.
Variables (r : nat) (real : array).
Hypothesis (Hr : (r < P)%nat) (HR : stored real (shape r)).
Local Notation t := (affine_at Nmesh pt blocks scale r).

Lemma rank_elements : rank_cells pt blocks r = map (fun idx => zadd idx (start r)) (elements real).
Proof. unfold rank_cells, elements. rewrite (proj1 HR). reflexivity. Qed.
Lemma rank_points : nth r grid_positions [] = map (fun idx => code_point (zadd idx (start r))) (elements real).
Proof. unfold grid_positions. rewrite nth_map_seq by exact Hr. rewrite rank_elements, map_map. reflexivity. Qed.
Lemma box_wf : wf_call real t.
Proof. apply (wf_local _ _ _ OK); [apply (mesh_scale_length _ _ _ _ _ _ _ W)|exact Hr|exact HR]. Qed.
Lemma element_cell idx : In idx (elements real) -> In (zadd idx (start r)) (rank_cells pt blocks r).
Proof. intros H. rewrite rank_elements. apply (in_map (fun idx => zadd idx (start r))). exact H. Qed.

Lemma box_weight idx idx' : In idx (elements real) -> In idx' (elements real) ->
  weight_of (painter_of nnb real t None) 1 (code_point (zadd idx (start r))) idx' ==
  if list_eq_dec Z.eq_dec idx idx' then 1 else 0.
Proof.
  intros H H'. rewrite <- (nnb_weight Nmesh pt blocks OK r real Hr HR idx idx' H H').
  assert (D : length (ar_shape real) = nd) by (rewrite (proj1 HR); apply (block_shape_length _ _ _ OK r Hr)).
  pose proof (rank_cell_length r _ Hr (element_cell idx H)) as Lc.
  apply weight_same; try assumption.
  - apply standard_proper. exact Logic.I.
  - apply (nnb_wf _ _ _ OK); assumption.
  - exact box_wf.
  - reflexivity.
  - rewrite map_length. lia.
  - rewrite D. exact (proj1 (code_point_spec _ 0 Lc (mk_dim _ _ _ OK))).
  - intros i Hi. rewrite D in Hi. pose proof (block_bounds _ _ _ OK r i Hr Hi) as B.
    cbn [af_period af_scale af_translate affine_at]. rewrite (proj1 HR). split; [lia|].
    rewrite (proj2 (code_point_spec _ i Lc Hi)). rewrite cell_point_nth by assumption.
    rewrite (scale_nth _ _ _ _ _ _ _ W i Hi). rewrite (nth_map_in _ Nmesh i 0 0%Z) by exact Hi.
    rewrite (nth_map_in _ (zadd idx (start r)) i 0 0%Z) by lia.
    apply Qplus_comp; [|reflexivity]. specialize (Hbox i Hi). rewrite Forall_nth in HN. specialize (HN i 0%Z Hi).
    field. split; [lra|]. intros X. change 0 with (inject_Z 0) in X. rewrite inject_Z_injective in X. lia.
Qed.

Lemma points_wf : wf_pos real (nth r grid_positions []).
Proof.
  unfold wf_pos. rewrite rank_points. apply Forall_map. apply Forall_forall. intros idx H.
  rewrite (proj1 HR), (block_shape_length _ _ _ OK r Hr).
  exact (proj1 (code_point_spec _ 0 (rank_cell_length r _ Hr (element_cell idx H)) (mk_dim _ _ _ OK))).
Qed.

Lemma box_paint m f : length f = length (elements real) ->
  exists m', window_paint nnb real m (nth r grid_positions []) None (Some (Array f)) None (Some t) = Ret m' /\
  forall k, (k < length (elements real))%nat ->
    elem real m' (nth k (elements real) []) == elem real m (nth k (elements real) []) + nth k f 0.
Proof.
  intros L. pose proof points_wf as PW. rewrite rank_points in *.
  set (q := map (fun idx => code_point (zadd idx (start r))) (elements real)) in *.
  assert (Lc : length q = length (elements real)) by apply map_length.
  eexists. split; [apply (window_paint_values nnb real t None); [exact Logic.I|exact Logic.I|cbn [arg_fits]; lia]|].
  intros k Hk. set (idx := nth k (elements real) []). assert (Hin : In idx (elements real)) by (apply nth_In; exact Hk).
  rewrite (paint_all_elem nnb real t None box_wf ltac:(reflexivity)); [|exact PW|cbn [values_of]; lia|cbn [values_of]; apply repeat_length|exact Hin].
  apply Qplus_comp; [reflexivity|]. cbn [values_of].
  rewrite (qsum_single _ (seq 0 (length q)) k); [|apply seq_NoDup|apply in_seq; lia|].
  - unfold q at 2. rewrite (nth_map_in _ (elements real) k [] []) by exact Hk. rewrite nth_repeat_in by lia.
    fold idx. rewrite box_weight by assumption. destruct (list_eq_dec Z.eq_dec idx idx); [ring|contradiction].
  - intros j Hj Ne. apply in_seq in Hj. unfold q at 2. rewrite (nth_map_in _ (elements real) j [] []) by lia. rewrite nth_repeat_in by lia.
    rewrite box_weight; [|apply nth_In; lia|exact Hin]. destruct (list_eq_dec Z.eq_dec (nth j (elements real) []) idx) as [E|E]; [|ring].
    exfalso. apply Ne. apply (proj1 (NoDup_nth _ []) (elements_NoDup' real) j k); [lia|exact Hk|exact E].
Qed.

Lemma box_readout m : exists us, window_readout nnb real m (nth r grid_positions []) None None (Some t) = Ret us /\
  length us = length (elements real) /\
  forall k, (k < length (elements real))%nat -> nth k us 0 == elem real m (nth k (elements real) []).
Proof.
  pose proof points_wf as PW. rewrite rank_points in *.
  set (q := map (fun idx => code_point (zadd idx (start r))) (elements real)) in *.
  assert (Lc : length q = length (elements real)) by apply map_length.
  eexists. split; [apply (window_readout_values nnb real t None); exact Logic.I|].
  split; [rewrite map_length, seq_length; exact Lc|].
  intros k Hk. rewrite nth_map_seq by lia. cbn [values_of]. rewrite nth_repeat_in by lia.
  unfold q. rewrite (nth_map_in _ (elements real) k [] []) by exact Hk.
  set (idx := nth k (elements real) []). assert (Hin : In idx (elements real)) by (apply nth_In; exact Hk).
  rewrite readout_elements; [|exact box_wf|reflexivity|].
  - rewrite (qsum_single _ (elements real) idx (elements_NoDup' real) Hin).
    + rewrite box_weight by assumption. destruct (list_eq_dec Z.eq_dec idx idx); [ring|contradiction].
    + intros b Hb Ne. rewrite box_weight by assumption. destruct (list_eq_dec Z.eq_dec idx b); [congruence|ring].
  - unfold wf_pos in PW. rewrite Forall_forall in PW. apply PW. unfold q.
    apply (in_map (fun idx => code_point (zadd idx (start r)))). exact Hin.
Qed.
End Rank.

Lemma grid_positions_length : length grid_positions = P.
Proof. unfold grid_positions. rewrite map_length, seq_length. reflexivity. Qed.

Section Fields.
Variable (fs : list field).
Hypothesis (Lfs : length fs = P).
Hypothesis (Hst : forall r, (r < P)%nat -> stored (f_array (nth r fs zero_field)) (shape r)).
Local Notation arr r := (f_array (nth r fs zero_field)).

Lemma paint_grid f : length f = P -> (forall r, (r < P)%nat -> length (nth r f []) = length (elements (arr r))) ->
  exists ms, pm_paint pms (Some nnb) None false None None fs grid_positions WNone (WArray f) = map Ret ms /\
    length ms = P /\
    forall r k, (r < P)%nat -> (k < length (elements (arr r)))%nat ->
      elem (arr r) (nth r ms (fun _ => 0)) (nth k (elements (arr r)) []) == nth k (nth r f []) 0.
Proof.
  intros Lf Hf. unfold pm_paint. cbn [resampler_of]. rewrite (default_affines _ _ _ _ _ _ _ W). unfold paint_local. rewrite map_length, Lfs.
  set (filled := fun g : field => with_data g (fill (f_array g) (f_data g) 0)).
  destruct (exists_list (fun r m => window_paint nnb (arr r) (f_data (filled (nth r fs zero_field))) (nth r grid_positions []) None (Some (Array (nth r f []))) None
      (Some (affine_at Nmesh pt blocks scale r)) = Ret m /\
    forall k, (k < length (elements (arr r)))%nat -> elem (arr r) m (nth k (elements (arr r)) []) == nth k (nth r f []) 0) (fun _ => 0) P) as (ms & Lm & X).
  { intros r Hr. destruct (box_paint r (arr r) Hr (Hst r Hr) (f_data (filled (nth r fs zero_field))) (nth r f []) (Hf r Hr)) as (m & E & V).
    exists m. split; [exact E|]. intros k Hk. rewrite V by exact Hk. unfold filled. cbn [f_data with_data].
    rewrite fill_elem by (apply nth_In; exact Hk). ring. }
  exists ms. split; [|split; [exact Lm|intros r k Hr Hk; apply (proj2 (X r Hr)); exact Hk]].
  rewrite <- (map_seq_eq ms (fun _ => 0) (fun r => nth r ms (fun _ => 0)) P Lm) by (intros; reflexivity).
  rewrite map_map. apply map_ext_seq. intros r Hr.
  rewrite (nth_error_nth' _ (filled zero_field)) by (rewrite map_length; lia).
  rewrite (map_nth filled). unfold rank_affines.
  rewrite (nth_error_nth' (map _ (seq 0 P)) zero_affine) by (rewrite map_length, seq_length; exact Hr).
  rewrite nth_map_seq by exact Hr.
  rewrite (nth_error_nth' _ []) by (rewrite grid_positions_length; exact Hr).
  cbn [local_arg]. rewrite (nth_error_nth' f []) by lia. cbn [option_map]. exact (proj1 (X r Hr)).
Qed.

Lemma read_grid :
  exists vs, pm_readout pms (Some nnb) None None None fs grid_positions WNone = map Ret vs /\
    length vs = P /\
    forall r, (r < P)%nat -> length (nth r vs []) = length (elements (arr r)) /\
    forall k, (k < length (elements (arr r)))%nat ->
      nth k (nth r vs []) 0 == elem (arr r) (f_data (nth r fs zero_field)) (nth k (elements (arr r)) []).
Proof.
  unfold pm_readout. cbn [resampler_of]. rewrite (default_affines _ _ _ _ _ _ _ W). unfold readout_local. rewrite Lfs.
  destruct (exists_list (fun r us => window_readout nnb (arr r) (f_data (nth r fs zero_field)) (nth r grid_positions []) None None
      (Some (affine_at Nmesh pt blocks scale r)) = Ret us /\
    length us = length (elements (arr r)) /\
    forall k, (k < length (elements (arr r)))%nat -> nth k us 0 == elem (arr r) (f_data (nth r fs zero_field)) (nth k (elements (arr r)) [])) [] P) as (vs & Lv & X).
  { intros r Hr. apply (box_readout r (arr r) Hr (Hst r Hr)). }
  exists vs. split; [|split; [exact Lv|intros r Hr; exact (proj2 (X r Hr))]].
  rewrite <- (map_seq_eq vs [] (fun r => nth r vs []) P Lv) by (intros; reflexivity).
  rewrite map_map. apply map_ext_seq. intros r Hr.
  rewrite (nth_error_nth' fs zero_field) by lia. unfold rank_affines.
  rewrite (nth_error_nth' (map _ (seq 0 P)) zero_affine) by (rewrite map_length, seq_length; exact Hr).
  rewrite nth_map_seq by exact Hr.
  rewrite (nth_error_nth' _ []) by (rewrite grid_positions_length; exact Hr). exact (proj1 (X r Hr)).
Qed.
End Fields.
End Grid.

(** ** The lines *)
(** the place after [n] steps from [x] *)
Fixpoint station (w : window) (Nmesh : list Z) (scale : list Q) (V : list (list Z -> Q)) (step : Q) (n : nat) (x : list Q) : list Q :=
  match n with
  | O => x
  | S n => let y := station w Nmesh scale V step n x in along y step (velocity w Nmesh scale V y)
  end.
(** what step [n] adds: the texture half a step further, weighted with the kernel *)
Definition gain (w : window) (Nmesh : list Z) (scale : list Q) (V : list (list Z -> Q)) (T : list Z -> Q)
    (kernel : Q -> Q) (len ds sign : Q) (x : list Q) (n : nat) : Q :=
  let y := station w Nmesh scale V (sign * ds) n x in
  kernel (sign * (inject_Z (Z.of_nat n) * ds) / (len / 2)) * ds *
  interpolate w Nmesh scale T (along y (sign * ds / 2) (velocity w Nmesh scale V y)).
(** the convolution at a cell: the texture there and both halves of the line *)
Definition lic_value (w : window) (Nmesh : list Z) (box : list Q) (V : list (list Z -> Q)) (T : list Z -> Q)
    (kernel : Q -> Q) (len ds : Q) (n : nat) (c : list Z) : Q :=
  let x := cell_point Nmesh box c in
  let g := gain w Nmesh (mesh_scale Nmesh box) V T kernel len ds in
  T c + qsum (g (-(1)) x) (seq 0 n) + qsum (g 1 x) (seq 0 n).
(** the vectors divided by their length, or by one where that is zero *)
Definition unit_vectors (root : Q -> Q) (V : list (list Z -> Q)) : list (list Z -> Q) :=
  map (fun v c => let a := root (qsum (fun u => u c * u c) V) in v c / (if Qeq_bool a 0 then 1 else a)) V.

Lemma qsum_seq_S f n : qsum f (seq 0 (S n)) == qsum f (seq 0 n) + f n.
Proof. rewrite seq_S, qsum_app, qsum_cons, qsum_nil. cbn [Nat.add]. ring. Qed.

(** how many times the loop runs *)
Lemma loop_test len ds s i : 0 < ds -> s == inject_Z (Z.of_nat i) * ds ->
  Qltb s (len * (1#2)) = (i <? Z.to_nat (Qceiling (len / 2 / ds)))%nat.
Proof.
  intros Hd Hs. rewrite Hs.
  assert (E : len / 2 / ds * ds == len * (1#2)) by (field; lra).
  destruct (Qltb_case (inject_Z (Z.of_nat i) * ds) (len * (1#2))) as [H|H]; symmetry.
  - apply Nat.ltb_lt. rewrite <- E in H.
    assert (X : inject_Z (Z.of_nat i) < len / 2 / ds) by (apply (Qmult_lt_r _ _ ds Hd); exact H).
    pose proof (Qle_ceiling (len / 2 / ds)) as C.
    assert (Y : inject_Z (Z.of_nat i) < inject_Z (Qceiling (len / 2 / ds))) by (eapply Qlt_le_trans; eassumption).
    rewrite <- Zlt_Qlt in Y. lia.
  - apply Nat.ltb_ge. rewrite <- E in H.
    assert (X : len / 2 / ds <= inject_Z (Z.of_nat i)) by (apply (Qmult_le_r _ _ ds Hd); exact H).
    apply Qceiling_resp_le in X. rewrite Qceiling_Z in X. lia.
Qed.

Section Walk.
Variables (Nmesh : list Z) (BoxSize : value Q) (box : list Q) (w0 : window) (pt : partition)
  (blocks : list (list Z)) (pms : list pm).
Hypothesis (W : world Nmesh BoxSize box w0 pt blocks pms).
Local Notation P := (length blocks).
Local Notation nd := (length Nmesh).
Local Notation start r := (block_start (i_edges pt) (block blocks r)).
Local Notation shape r := (block_shape (i_edges pt) (block blocks r)).
Local Notation scale := (mesh_scale Nmesh box).
Let OK : mesh_ok Nmesh pt blocks := wd_mesh _ _ _ _ _ _ _ W.
Let HN : Forall (fun n => 0 < n)%Z Nmesh := world_sizes _ _ _ _ _ _ _ W.
Variables (w : window) (M ds len : Q) (kernel : Q -> Q).
Hypothesis (Hw : default_window w) (Hds : 0 < ds) (HM : 0 <= M).
Hypothesis (Hbox : forall a, (a < nd)%nat -> inject_Z (nth a Nmesh 0%Z) <= nth a box 0).
Hypothesis (Hroom : room Nmesh pt (repeat (M * ds * (1#2) + inject_Z (w_support w) * (1#2)) nd)).
Hypothesis (Hker : Proper (Qeq ==> Qeq) kernel).
Variable vmaxs : list Q.
Hypothesis (Lvm : length vmaxs = P) (Hvm : forall r, (r < P)%nat -> nth r vmaxs 0 == M).
Variables (vectors : list (list field)) (V : list (list Z -> Q)) (texture : list field) (T : list Z -> Q).
Hypothesis (Hvec : Forall2 (holds pt blocks) vectors V) (LV : length V = nd) (Htex : holds pt blocks texture T).
Hypothesis (HV : Forall (fun v => forall c, In c (elements (c_array Nmesh)) -> Qabs (v c) <= M) V).
Variables (K : nat -> nat) (X0 : nat -> nat -> list Q).
Hypothesis (LX : forall r i, (r < P)%nat -> (i < K r)%nat -> length (X0 r i) = nd).
Let steps : nat := Z.to_nat (Qceiling (len / 2 / ds)).
Local Notation st_ := (station w Nmesh scale V).
Local Notation g := (gain w Nmesh scale V T kernel len ds).
Local Notation at_state := (at_state Nmesh blocks K).

Lemma station_length step n x : length x = nd -> length (st_ step n x) = nd.
Proof.
  intros L. induction n as [|n IH]; [exact L|]. cbn [station]. rewrite along_length; [exact IH|].
  unfold velocity. rewrite map_length. lia.
Qed.

Lemma at_state_ext st X X' F F' : at_state st X F ->
  (forall r i, (r < P)%nat -> (i < K r)%nat -> X r i = X' r i /\ F r i == F' r i) -> at_state st X' F'.
Proof.
  intros (L & H) E. split; [exact L|]. intros r Hr. destruct (H r Hr) as (A & B & C). split; [exact A|]. split; [exact B|].
  intros i Hi. destruct (C i Hi) as (D & E1 & E2). destruct (E r i Hr Hi) as (<- & Ef). rewrite <- Ef. auto.
Qed.

Lemma walk_ok sign F0 : sign * sign == 1 -> forall j i fuel s st, (i + j = steps)%nat -> (j <= fuel)%nat -> s == inject_Z (Z.of_nat i) * ds ->
  at_state st (fun r k => st_ (sign * ds) i (X0 r k)) (fun r k => F0 r k + qsum (g sign (X0 r k)) (seq 0 i)) ->
  exists st', lic_walk fuel pms w kernel len ds vmaxs vectors texture sign s st = map Ret st' /\
    at_state st' (fun r k => st_ (sign * ds) steps (X0 r k)) (fun r k => F0 r k + qsum (g sign (X0 r k)) (seq 0 steps)).
Proof.
  intros Hsign. induction j as [|j IH]; intros i fuel s st Ei Hf Es Hst.
  - exists st. assert (i = steps) by lia. subst i. split; [|exact Hst].
    assert (Q0 : Qltb s (len * (1#2)) = false).
    { rewrite (loop_test len ds s steps Hds Es). fold steps. apply Nat.ltb_irrefl. }
    destruct fuel; cbn [lic_walk]; rewrite Q0; reflexivity.
  - destruct fuel as [|fuel]; [lia|]. cbn [lic_walk].
    assert (Q0 : Qltb s (len * (1#2)) = true).
    { rewrite (loop_test len ds s i Hds Es). fold steps. apply Nat.ltb_lt. lia. }
    rewrite Q0.
    destruct (step_ok _ _ _ _ _ _ _ W w M ds Hw Hds HM Hbox Hroom vmaxs Lvm Hvm vectors V texture T Hvec LV Htex HV K
      kernel len sign s st _ _ Hsign (fun r k Hr Hk => station_length (sign * ds) i _ (LX r k Hr Hk)) Hst) as (st' & E & Hst').
    rewrite E, then_ret.
    apply (IH (S i) fuel (s + ds) st'); [lia|lia| |].
    + rewrite Es. replace (Z.of_nat (S i)) with (Z.of_nat i + 1)%Z by lia. rewrite inject_Z_plus. change (inject_Z 1) with 1. ring.
    + apply (at_state_ext _ _ _ _ _ Hst'). intros r k Hr Hk. split; [reflexivity|]. rewrite qsum_seq_S.
      unfold gain at 3. cbn zeta.
      assert (Ek : kernel (s * sign / (len * (1 # 2))) == kernel (sign * (inject_Z (Z.of_nat i) * ds) / (len / 2))).
      { apply Hker. rewrite Es. unfold Qdiv. change (/ 2) with (1#2). rewrite (Qmult_comm _ sign). reflexivity. }
      rewrite Ek.
      rewrite (interpolate_same w Nmesh scale HN (mk_dim _ _ _ OK) (mesh_scale_length _ _ _ _ _ _ _ W) T T
        (along (st_ (sign * ds) i (X0 r k)) (sign * ds / 2) (velocity w Nmesh scale V (st_ (sign * ds) i (X0 r k))))
        (along (st_ (sign * ds) i (X0 r k)) (sign * ds * (1#2)) (velocity w Nmesh scale V (st_ (sign * ds) i (X0 r k))))
        (standard_proper _ (proj1 Hw))); [ring| | | |intros; reflexivity];
        pose proof (station_length (sign * ds) i _ (LX r k Hr Hk)) as Ls;
        assert (Lv : length (velocity w Nmesh scale V (st_ (sign * ds) i (X0 r k))) = nd) by (unfold velocity; rewrite map_length; exact LV).
      * rewrite along_length; lia.
      * rewrite along_length; lia.
      * intros a Ha. rewrite !along_nth by lia. unfold Qdiv. reflexivity.
Qed.
End Walk.

(** ** The largest component *)
Lemma fold_max l x : (forall y, In y (x :: l) -> y <= fold_left Qmax l x) /\ exists y, In y (x :: l) /\ fold_left Qmax l x == y.
Proof.
  revert x. induction l as [|a l IH]; intros x; cbn [fold_left].
  - split; [intros y [<-|[]]; lra|]. exists x. split; [left; reflexivity|reflexivity].
  - destruct (IH (Qmax x a)) as (A & y & Hy & E). split.
    + pose proof (A _ (or_introl eq_refl)) as B. intros z [<-|[<-|Hz]].
      * eapply Qle_trans; [apply Q.le_max_l|exact B].
      * eapply Qle_trans; [apply Q.le_max_r|exact B].
      * apply A. right. exact Hz.
    + destruct Hy as [<-|Hy].
      * destruct (Q.max_spec x a) as [[_ D]|[_ D]]; [exists a|exists x]; (split; [simpl; auto|rewrite E; exact D]).
      * exists y. split; [right; right; exact Hy|exact E].
Qed.

Lemma amax_ok l M : (forall y, In y l -> y <= M) -> (exists y, In y l /\ y == M) -> exists m, amax l = Ret m /\ m == M.
Proof.
  intros U (y & Hy & E). destruct l as [|x l]; [contradiction|]. exists (fold_left Qmax l x). split; [reflexivity|].
  destruct (fold_max l x) as (A & z & Hz & F). apply Qle_antisym; [rewrite F; apply U; exact Hz|rewrite <- E; apply A; exact Hy].
Qed.

Lemma amax_le l M : l <> [] -> (forall y, In y l -> y <= M) -> exists m, amax l = Ret m /\ m <= M.
Proof.
  intros Ne U. destruct l as [|x l]; [contradiction|]. exists (fold_left Qmax l x). split; [reflexivity|].
  destruct (fold_max l x) as (_ & z & Hz & F). rewrite F. apply U. exact Hz.
Qed.

Lemma vmax_ok vs M : (forall v, In v vs -> elements (f_array v) <> []) ->
  (forall v idx, In v vs -> In idx (elements (f_array v)) -> Qabs (f_elem v idx) <= M) ->
  (exists v idx, In v vs /\ In idx (elements (f_array v)) /\ Qabs (f_elem v idx) == M) ->
  exists m, vmax_of vs = Ret m /\ m == M.
Proof.
  intros Ne U (v & idx & Hv & Hi & E).
  assert (X : exists ms, all_max vs = Ret ms /\ Forall2 (fun v m => abs_max v = Ret m /\ m <= M) vs ms).
  { clear v idx Hv Hi E. induction vs as [|v vs IH]; [exists []; split; [reflexivity|constructor]|].
    destruct IH as (ms & E & F).
    - intros u Hu. apply Ne. right. exact Hu.
    - intros u i Hu. apply U. right. exact Hu.
    - destruct (amax_le (map (fun idx => Qabs (f_elem v idx)) (elements (f_array v))) M) as (m & Em & Hm).
      + intros C. apply map_eq_nil in C. exact (Ne v (or_introl eq_refl) C).
      + intros y Hy. apply in_map_iff in Hy. destruct Hy as (i & <- & Hi). apply U; [left; reflexivity|exact Hi].
      + exists (m :: ms). split; [cbn [all_max]; unfold abs_max; rewrite Em; cbn [bind]; rewrite E; reflexivity|].
        constructor; [split; [exact Em|exact Hm]|exact F]. }
  destruct X as (ms & Em & F). unfold vmax_of. rewrite Em. cbn [bind]. apply amax_ok.
  - intros y Hy. apply In_nth with (d := 0) in Hy. destruct Hy as (k & Hk & <-).
    assert (G : forall vs ms, Forall2 (fun v m => abs_max v = Ret m /\ m <= M) vs ms -> forall k, (k < length ms)%nat -> nth k ms 0 <= M).
    { intros us l. induction 1 as [|? ? ? ? (_ & A) _ IHF]; intros [|j] Hj; cbn [nth] in *; try (simpl in Hj; lia); [exact A|apply IHF; simpl in Hj; lia]. }
    apply (G _ _ F). exact Hk.
  - revert Hv. induction F as [|u m us ms' (A & B) F IHF]; intros Hv; [contradiction|]. destruct Hv as [->|Hv].
    + exists m. split; [left; reflexivity|]. unfold abs_max in A.
      destruct (amax_ok (map (fun idx => Qabs (f_elem v idx)) (elements (f_array v))) M) as (m' & Em' & Hm').
      * intros y Hy. apply in_map_iff in Hy. destruct Hy as (i & <- & Hi'). apply U; [left; reflexivity|exact Hi'].
      * exists (Qabs (f_elem v idx)). split; [apply (in_map (fun i => Qabs (f_elem v i))); exact Hi|exact E].
      * rewrite A in Em'. injection Em' as ->. exact Hm'.
    + assert (Em2 : all_max us = Ret ms').
      { cbn [all_max] in Em. rewrite A in Em. cbn [bind] in Em. destruct (all_max us); cbn [bind] in Em; try discriminate. injection Em as ->. reflexivity. }
      destruct IHF as (y & Hy & Ey); try assumption.
      * intros u' Hu'. apply Ne. right. exact Hu'.
      * intros u' i Hu'. apply U. right. exact Hu'.
      * exists y. split; [right; exact Hy|exact Ey].
Qed.

(** ** Normalised vectors *)
Section Normalize.
Variables (Nmesh : list Z) (pt : partition) (blocks : list (list Z)).
Hypothesis (OK : mesh_ok Nmesh pt blocks).
Local Notation P := (length blocks).
Local Notation start r := (block_start (i_edges pt) (block blocks r)).
Variables (root : Q -> Q).
Hypothesis (Hroot : Proper (Qeq ==> Qeq) root).

Lemma fold_squares vs acc : fold_left (fun s v => s + v * v) vs acc == acc + qsum (fun v => v * v) vs.
Proof.
  revert acc. induction vs as [|v vs IH]; intros acc; cbn [fold_left]; [rewrite qsum_nil; ring|].
  rewrite IH, qsum_cons. ring.
Qed.

Lemma norm_of_spec vs us : Forall2 Qeq vs us ->
  norm_of root vs == let a := root (qsum (fun u => u * u) us) in if Qeq_bool a 0 then 1 else a.
Proof.
  intros F. unfold norm_of. cbn zeta.
  assert (E : fold_left (fun s v => s + v * v) vs 0 == qsum (fun u => u * u) us).
  { rewrite fold_squares. rewrite Qplus_0_l. induction F as [|v u vs us Hv F IH]; [reflexivity|].
    rewrite !qsum_cons, Hv, IH. reflexivity. }
  pose proof (Hroot _ _ E) as R. set (a := root (fold_left _ _ _)) in *. set (b := root (qsum _ _)) in *.
  assert (B : Qeq_bool a 0 = Qeq_bool b 0).
  { destruct (Qeq_bool a 0) eqn:X, (Qeq_bool b 0) eqn:Y; try reflexivity.
    - apply Qeq_bool_iff in X. apply Qeq_bool_neq in Y. exfalso. apply Y. rewrite <- R. exact X.
    - apply Qeq_bool_iff in Y. apply Qeq_bool_neq in X. exfalso. apply X. rewrite R. exact Y. }
  rewrite B. destruct (Qeq_bool b 0); [reflexivity|exact R].
Qed.

Lemma Forall2_nth_holds vectors V d : Forall2 (holds pt blocks) vectors V -> (d < length V)%nat ->
  holds pt blocks (nth d vectors []) (nth d V (fun _ => 0)).
Proof.
  intros H. revert d. induction H as [|f v fs V' Hf H IH]; intros [|d] Hd; cbn [nth length] in *; try lia; [exact Hf|apply IH; lia].
Qed.

Lemma normalize_holds vectors V : Forall2 (holds pt blocks) vectors V ->
  Forall2 (holds pt blocks) (normalize root P vectors) (unit_vectors root V).
Proof.
  intros H. pose proof (Forall2_len _ _ _ H) as L.
  assert (HD : forall d r, (d < length V)%nat -> (r < P)%nat ->
     let f := nth r (nth d vectors []) zero_field in
     stored (f_array f) (block_shape (i_edges pt) (block blocks r)) /\
     forall idx, In idx (elements (f_array f)) -> f_elem f idx == nth d V (fun _ => 0) (zadd idx (start r))).
  { intros d r Hd Hr f. destruct (Forall2_nth_holds vectors V d H Hd) as (_ & X). exact (X r Hr). }
  unfold unit_vectors, normalize.
  assert (A : Forall2 (holds pt blocks)
     (map (fun d => map (fun r => nth d (normalize_local root (on_rank zero_field vectors r)) zero_field) (seq 0 P)) (seq 0 (length vectors)))
     (map (fun d c => let a := root (qsum (fun u => u c * u c) V) in nth d V (fun _ => 0) c / (if Qeq_bool a 0 then 1 else a)) (seq 0 (length vectors)))).
  { rewrite L. assert (B : forall d, In d (seq 0 (length V)) -> (d < length V)%nat) by (intros d Hd; apply in_seq in Hd; lia).
    revert B. generalize (seq 0 (length V)) as l. induction l as [|d l IH]; intros B; cbn [map]; constructor.
    - specialize (B d (or_introl eq_refl)).
      split; [rewrite map_length, seq_length; reflexivity|]. intros r Hr. rewrite nth_map_seq by exact Hr.
      unfold normalize_local. set (vs := on_rank zero_field vectors r).
      assert (Lvs : length vs = length V) by (unfold vs, on_rank; rewrite map_length; exact L).
      rewrite (nth_map_in _ vs d zero_field zero_field) by lia.
      assert (Nv : forall e, (e < length V)%nat -> nth e vs zero_field = nth r (nth e vectors []) zero_field).
      { intros e He. unfold vs, on_rank. rewrite (nth_map_in _ vectors e zero_field []) by lia. reflexivity. }
      rewrite (Nv d B). destruct (HD d r B Hr) as (S1 & E1). cbn [f_array f_data with_data]. split; [exact S1|].
      intros idx Hin. rewrite store_elem by (try apply S1; exact Hin). rewrite (E1 idx Hin).
      cbn zeta.
      assert (F : Forall2 Qeq (map (fun u => f_elem u idx) vs) (map (fun u => u (zadd idx (start r))) V)).
      { rewrite <- (map_nth_seq vs zero_field (length V) Lvs), <- (map_nth_seq V (fun _ => 0) (length V) eq_refl). rewrite !map_map, seq_length || rewrite !map_map.
        assert (C : forall e, In e (seq 0 (length V)) -> f_elem (nth e vs zero_field) idx == nth e V (fun _ => 0) (zadd idx (start r))).
        { intros e He. apply in_seq in He. rewrite Nv by lia. destruct (HD e r ltac:(lia) Hr) as (S2 & E2). apply E2.
          unfold elements. rewrite (proj1 S2). unfold elements in Hin. rewrite (proj1 S1) in Hin. exact Hin. }
        revert C. rewrite map_nth_seq by reflexivity. generalize (seq 0 (length V)) as m. induction m as [|e m IHm]; intros C; cbn [map]; constructor.
        - apply C. left. reflexivity.
        - apply IHm. intros e' He'. apply C. right. exact He'. }
      rewrite (norm_of_spec _ _ F). cbn zeta. rewrite qsum_map. reflexivity.
    - apply IH. intros e He. apply B. right. exact He. }
  rewrite L in A. rewrite L.
  rewrite <- (map_map (fun d => nth d V (fun _ => 0)) (fun v c => let a := root (qsum (fun u => u c * u c) V) in v c / (if Qeq_bool a 0 then 1 else a))) in A.
  rewrite map_nth_seq in A by reflexivity. exact A.
Qed.
End Normalize.

(** ** C76 *)
(** the vectors that are followed *)
Definition followed (do_normalize : option (Q -> Q)) (V : list (list Z -> Q)) : list (list Z -> Q) :=
  match do_normalize with Some root => unit_vectors root V | None => V end.

Lemma match_cons {A B} (l : list A) (a b : B) : l <> [] -> match l with [] => a | _ :: _ => b end = b.
Proof. destruct l; [contradiction|reflexivity]. Qed.

(** Every rank has a cell in which a component of the vectors is as large as anywhere.  Then the
    image has in each cell the line integral that a single process with the whole mesh computes. *)
Theorem C76_lic :
  forall Nmesh BoxSize box w0 pt blocks pms, world Nmesh BoxSize box w0 pt blocks pms ->
  let nd := length Nmesh in let P := length blocks in
  (forall a, (a < nd)%nat -> inject_Z (nth a Nmesh 0%Z) <= nth a box 0) ->
  forall w' w kernel len ds vectors V texture T do_normalize outs M fuel,
  resampler_of pms w' = w -> default_window w ->
  Proper (Qeq ==> Qeq) kernel -> (forall root, do_normalize = Some root -> Proper (Qeq ==> Qeq) root) -> 0 < ds ->
  Forall2 (holds pt blocks) vectors V -> length V = nd -> holds pt blocks texture T ->
  (forall v c, In v (followed do_normalize V) -> In c (elements (c_array Nmesh)) -> Qabs (v c) <= M) ->
  (forall r, (r < P)%nat -> exists v c, In v (followed do_normalize V) /\ In c (rank_cells pt blocks r) /\ Qabs (v c) == M) ->
  room Nmesh pt (repeat (M * ds / 2 + inject_Z (w_support w) / 2) nd) ->
  length outs = P ->
  (forall r, (r < P)%nat -> stored (f_array (nth r outs zero_field)) (block_shape (i_edges pt) (block blocks r))) ->
  let n := Z.to_nat (Qceiling (len / 2 / ds)) in (n <= fuel)%nat ->
  exists ms, lic fuel pms vectors kernel len ds w' texture do_normalize outs = map Ret ms /\ length ms = P /\
    forall r idx, (r < P)%nat -> In idx (elements (f_array (nth r outs zero_field))) ->
      elem (f_array (nth r outs zero_field)) (nth r ms (fun _ => 0)) idx ==
      lic_value w Nmesh box (followed do_normalize V) T kernel len ds n (zadd idx (block_start (i_edges pt) (block blocks r))).
Proof.
  intros Nmesh BoxSize box w0 pt blocks pms W nd P Hbox w' w kernel len ds vectors V texture T dn outs M fuel
    Hw' Hw Hker Hroot Hds Hvec LV Htex HM HA Hroom Lo Ho n Hn.
  pose proof (wd_mesh _ _ _ _ _ _ _ W) as OK. pose proof (world_sizes _ _ _ _ _ _ _ W) as HN.
  assert (Hpos : forall a, (a < nd)%nat -> 0 < nth a box 0).
  { intros a Ha. specialize (Hbox a Ha). assert (0 < inject_Z (nth a Nmesh 0%Z)); [|lra].
    change 0 with (inject_Z 0). rewrite <- Zlt_Qlt. apply (proj1 (Forall_nth _ _) HN). exact Ha. }
  set (V' := followed dn V) in *.
  set (vectors' := match dn with Some root => normalize root (length pms) vectors | None => vectors end).
  assert (Lp : length pms = P) by exact (world_length _ _ _ _ _ _ _ W).
  assert (Hvec' : Forall2 (holds pt blocks) vectors' V').
  { unfold vectors', V', followed. destruct dn as [root|]; [|exact Hvec]. rewrite Lp.
    exact (normalize_holds pt blocks root (Hroot root eq_refl) vectors V Hvec). }
  assert (LV' : length V' = nd) by (unfold V', followed, unit_vectors; destruct dn; rewrite ?map_length; exact LV).
  pose proof (dim_pos _ _ _ _ _ _ _ W) as Dp.
  assert (P0 : (0 < P)%nat) by (exact (world_blocks _ _ _ _ _ _ _ W)).
  assert (M0 : 0 <= M). { destruct (HA 0%nat P0) as (v & c & _ & _ & E). rewrite <- E. apply Qabs_nonneg. }
  assert (Ls : length (mesh_scale Nmesh box) = length Nmesh) by exact (mesh_scale_length _ _ _ _ _ _ _ W).
  unfold lic. assert (Ne : vectors <> []) by (intros C; apply Forall2_len in Hvec; rewrite C, LV in Hvec; simpl in Hvec; unfold nd in *; lia). rewrite (match_cons vectors) by exact Ne.
  fold vectors'. rewrite Hw'. cbn zeta.
  destruct (grids_ok _ _ _ _ _ _ _ W) as (grids & Eg & Fg). rewrite Eg, then_ret, Fg.
  set (q := grid_positions Nmesh box pt blocks) in *.
  destruct Htex as (Ltex & Htex0).
  destruct (read_grid _ _ _ _ _ _ _ W Hpos texture Ltex (fun r Hr => proj1 (Htex0 r Hr))) as (f0 & Ef & Lf & Hf).
  fold q in Ef. rewrite Ef, then_ret.
  (* the largest components *)
  assert (Vm : exists vmaxs, map (fun r => vmax_of (on_rank zero_field vectors' r)) (seq 0 (length pms)) = map Ret vmaxs /\
     length vmaxs = P /\ forall r, (r < P)%nat -> nth r vmaxs 0 == M).
  { rewrite Lp. destruct (exists_list (fun r m => vmax_of (on_rank zero_field vectors' r) = Ret m /\ m == M) 0 P) as (vmaxs & Lv & Hv).
    - intros r Hr.
      assert (D : forall v, In v (on_rank zero_field vectors' r) -> exists d, (d < nd)%nat /\ v = nth r (nth d vectors' []) zero_field).
      { intros v Hv. unfold on_rank in Hv. apply in_map_iff in Hv. destruct Hv as (l & <- & Hl).
        apply In_nth with (d := []) in Hl. destruct Hl as (d & Hd & <-). exists d. split; [|reflexivity].
        rewrite (Forall2_len _ _ _ Hvec') in Hd. lia. }
      assert (HD : forall d, (d < nd)%nat -> let f := nth r (nth d vectors' []) zero_field in
         stored (f_array f) (block_shape (i_edges pt) (block blocks r)) /\
         forall idx, In idx (elements (f_array f)) -> f_elem f idx == nth d V' (fun _ => 0) (zadd idx (block_start (i_edges pt) (block blocks r)))).
      { intros d Hd. destruct (Forall2_nth_holds _ _ _ _ d Hvec' ltac:(lia)) as (_ & X). exact (X r Hr). }
      destruct (HA r Hr) as (v & c & Hv & Hc & E). apply In_nth with (d := fun _ => 0) in Hv. destruct Hv as (d & Hd & Ed). subst v.
      apply vmax_ok.
      + intros u Hu. destruct (D u Hu) as (e & He & ->). destruct (HD e He) as (S1 & _).
        rewrite (rank_elements pt blocks r _ S1) in Hc. intros C. rewrite C in Hc. contradiction.
      + intros u idx Hu Hi. destruct (D u Hu) as (e & He & ->). destruct (HD e He) as (S1 & E1). rewrite (E1 idx Hi).
        apply HM; [apply nth_In; lia|].
        exact (zadd_in Nmesh pt blocks OK (mesh_scale Nmesh box) _ _ r Ls Hr S1 (c_array_stored Nmesh HN) idx Hi).
      + destruct (HD d ltac:(lia)) as (S1 & E1). rewrite (rank_elements pt blocks r _ S1) in Hc. apply in_map_iff in Hc.
        destruct Hc as (idx & <- & Hi). exists (nth r (nth d vectors' []) zero_field), idx. split; [|split; [exact Hi|rewrite (E1 idx Hi); exact E]].
        unfold on_rank. apply (in_map (fun x => nth r x zero_field)). apply nth_In. rewrite (Forall2_len _ _ _ Hvec'). lia.
    - exists vmaxs. split; [|split; [exact Lv|intros r Hr; apply (Hv r Hr)]].
      rewrite <- (map_nth_seq vmaxs 0 P Lv), map_map. apply map_ext_seq. intros r Hr. apply (Hv r Hr). }
  destruct Vm as (vmaxs & Evm & Lvm & Hvm). rewrite Evm, then_ret.
  (* the walks *)
  set (K := fun r => length (elements (f_array (nth r texture zero_field)))).
  set (cell := fun r k => zadd (nth k (elements (f_array (nth r texture zero_field))) []) (block_start (i_edges pt) (block blocks r))).
  set (X0 := fun r k => cell_point Nmesh box (cell r k)).
  assert (Cin : forall r k, (r < P)%nat -> (k < K r)%nat -> In (cell r k) (rank_cells pt blocks r)).
  { intros r k Hr Hk. rewrite (rank_elements pt blocks r _ (proj1 (Htex0 r Hr))). unfold cell.
    apply (in_map (fun i => zadd i _)). apply nth_In. exact Hk. }
  assert (Cl : forall r k, (r < P)%nat -> (k < K r)%nat -> length (cell r k) = nd).
  { intros r k Hr Hk. apply (rank_cell_length _ _ _ _ _ _ _ W r _ Hr). apply Cin; assumption. }
  assert (LX : forall r k, (r < P)%nat -> (k < K r)%nat -> length (X0 r k) = nd).
  { intros r k Hr Hk. apply (cell_point_length _ _ _ _ _ _ _ W). apply Cl; assumption. }
  assert (Hroom' : room Nmesh pt (repeat (M * ds * (1#2) + inject_Z (w_support w) * (1#2)) nd)).
  { exact Hroom. }
  assert (HV' : Forall (fun v => forall c, In c (elements (c_array Nmesh)) -> Qabs (v c) <= M) V').
  { apply Forall_forall. intros v Hv c Hc. apply HM; assumption. }
  assert (Start : forall f F, length f = P -> (forall r, (r < P)%nat -> length (nth r f []) = K r /\ forall k, (k < K r)%nat -> nth k (nth r f []) 0 == F r k) ->
     at_state Nmesh blocks K (combine q f) X0 F).
  { intros f F L1 HF. assert (Lq : length q = P) by apply grid_positions_length.
    split; [rewrite combine_length, Lq, L1; apply Nat.min_id|]. intros r Hr.
    rewrite combine_nth by (rewrite Lq, L1; reflexivity). cbn [fst snd]. destruct (HF r Hr) as (L2 & HF2).
    assert (Eq : nth r q [] = map (fun idx => code_point Nmesh box (zadd idx (block_start (i_edges pt) (block blocks r)))) (elements (f_array (nth r texture zero_field)))).
    { exact (rank_points Nmesh box pt blocks r _ Hr (proj1 (Htex0 r Hr))). }
    rewrite Eq. split; [apply map_length|]. split; [exact L2|]. intros k Hk.
    rewrite (nth_map_in _ _ k [] []) by exact Hk. fold (cell r k).
    assert (A : forall a, (a < nd)%nat -> _) by (intros a Ha; exact (code_point_spec _ _ _ _ _ _ _ W (cell r k) a (Cl r k Hr Hk) Ha)).
    split; [exact (proj1 (A 0%nat Dp))|]. split; [intros a Ha; exact (proj2 (A a Ha))|apply HF2; exact Hk]. }
  destruct (walk_ok Nmesh BoxSize box w0 pt blocks pms W w M ds len kernel Hw Hds M0 Hbox Hroom' Hker vmaxs Lvm Hvm vectors' V' texture T
    Hvec' LV' (conj Ltex Htex0) HV' K X0 LX (-(1)) (fun r k => T (cell r k)) ltac:(reflexivity) n 0 fuel 0 (combine q f0)) as (st1 & E1 & L1 & S1);
    [reflexivity|exact Hn|reflexivity| |].
  { apply Start; [exact Lf|]. intros r Hr. destruct (Hf r Hr) as (A & B). split; [exact A|]. intros k Hk.
    cbn [seq]. rewrite (B k Hk), qsum_nil, Qplus_0_r. apply (proj2 (Htex0 r Hr)). apply nth_In. exact Hk. }
  rewrite E1, then_ret.
  destruct (walk_ok Nmesh BoxSize box w0 pt blocks pms W w M ds len kernel Hw Hds M0 Hbox Hroom' Hker vmaxs Lvm Hvm vectors' V' texture T
    Hvec' LV' (conj Ltex Htex0) HV' K X0 LX 1 (fun r k => T (cell r k) + qsum (gain w Nmesh (mesh_scale Nmesh box) V' T kernel len ds (-(1)) (X0 r k)) (seq 0 n))
    ltac:(reflexivity) n 0 fuel 0 (combine q (map snd st1))) as (st2 & E2 & L2 & S2);
    [reflexivity|exact Hn|reflexivity| |].
  { apply Start; [rewrite map_length; exact L1|]. intros r Hr. destruct (S1 r Hr) as (_ & A & B).
    rewrite (nth_map_in _ st1 r [] ([], [])) by lia. split; [exact A|]. intros k Hk.
    cbn [seq]. rewrite qsum_nil, Qplus_0_r. apply (B k Hk). }
  rewrite E2, then_ret.
  assert (Same : forall r, (r < P)%nat -> elements (f_array (nth r outs zero_field)) = elements (f_array (nth r texture zero_field))).
  { intros r Hr. unfold elements. rewrite (proj1 (Ho r Hr)), (proj1 (proj1 (Htex0 r Hr))). reflexivity. }
  destruct (paint_grid _ _ _ _ _ _ _ W Hpos outs Lo Ho (map snd st2)) as (ms & Em & Lm & Hm).
  - rewrite map_length. exact L2.
  - intros r Hr. rewrite (nth_map_in _ st2 r [] ([], [])) by lia. rewrite Same by exact Hr. apply (S2 r Hr).
  - exists ms. split; [exact Em|]. split; [exact Lm|]. intros r idx Hr Hi.
    apply In_nth with (d := []) in Hi. destruct Hi as (k & Hk & <-). rewrite (Hm r k Hr Hk).
    rewrite (nth_map_in _ st2 r [] ([], [])) by lia. rewrite Same in Hk |- * by exact Hr.
    destruct (S2 r Hr) as (_ & _ & B). exact (proj2 (proj2 (B k Hk))).
Qed.
Print Assumptions C76_lic.

(** The same vectors and texture on two worlds of the same mesh give the same image. *)
Theorem C76_decomposition_independent :
  forall Nmesh BoxSize box w0 pt blocks pms pt' blocks' pms',
  world Nmesh BoxSize box w0 pt blocks pms -> world Nmesh BoxSize box w0 pt' blocks' pms' ->
  let nd := length Nmesh in
  (forall a, (a < nd)%nat -> inject_Z (nth a Nmesh 0%Z) <= nth a box 0) ->
  forall w0' w kernel len ds vectors vectors' V texture texture' T do_normalize outs outs' z z' M fuel,
  resampler_of pms w0' = w -> default_window w ->
  Proper (Qeq ==> Qeq) kernel -> (forall root, do_normalize = Some root -> Proper (Qeq ==> Qeq) root) -> 0 < ds ->
  Forall2 (holds pt blocks) vectors V -> Forall2 (holds pt' blocks') vectors' V -> length V = nd ->
  holds pt blocks texture T -> holds pt' blocks' texture' T -> holds pt blocks outs z -> holds pt' blocks' outs' z' ->
  (forall v c, In v (followed do_normalize V) -> In c (elements (c_array Nmesh)) -> Qabs (v c) <= M) ->
  (forall r, (r < length blocks)%nat -> exists v c, In v (followed do_normalize V) /\ In c (rank_cells pt blocks r) /\ Qabs (v c) == M) ->
  (forall r, (r < length blocks')%nat -> exists v c, In v (followed do_normalize V) /\ In c (rank_cells pt' blocks' r) /\ Qabs (v c) == M) ->
  room Nmesh pt (repeat (M * ds / 2 + inject_Z (w_support w) / 2) nd) ->
  room Nmesh pt' (repeat (M * ds / 2 + inject_Z (w_support w) / 2) nd) ->
  (Z.to_nat (Qceiling (len / 2 / ds)) <= fuel)%nat ->
  exists ms ms', lic fuel pms vectors kernel len ds w0' texture do_normalize outs = map Ret ms /\
    lic fuel pms' vectors' kernel len ds w0' texture' do_normalize outs' = map Ret ms' /\
    forall r r' idx idx', (r < length blocks)%nat -> (r' < length blocks')%nat ->
      In idx (elements (f_array (nth r outs zero_field))) -> In idx' (elements (f_array (nth r' outs' zero_field))) ->
      zadd idx (block_start (i_edges pt) (block blocks r)) = zadd idx' (block_start (i_edges pt') (block blocks' r')) ->
      elem (f_array (nth r outs zero_field)) (nth r ms (fun _ => 0)) idx ==
      elem (f_array (nth r' outs' zero_field)) (nth r' ms' (fun _ => 0)) idx'.
Proof.
  intros Nmesh BoxSize box w0 pt blocks pms pt' blocks' pms' W W' nd Hbox w0' w kernel len ds vectors vectors' V texture texture' T dn outs outs' z z' M fuel
    Hw Hdw Hker Hroot Hds Hv Hv' LV Ht Ht' (Lo & Ho) (Lo' & Ho') HM HA HA' R R' Hn.
  assert (Hw' : resampler_of pms' w0' = w).
  { destruct w0' as [w1|]; [exact Hw|]. rewrite (default_resampler _ _ _ _ _ _ _ W) in Hw. rewrite (default_resampler _ _ _ _ _ _ _ W'). exact Hw. }
  destruct (C76_lic _ _ _ _ _ _ _ W Hbox w0' w kernel len ds vectors V texture T dn outs M fuel Hw Hdw Hker Hroot Hds Hv LV Ht HM HA R Lo
    (fun r Hr => proj1 (Ho r Hr)) Hn) as (ms & E & _ & H).
  destruct (C76_lic _ _ _ _ _ _ _ W' Hbox w0' w kernel len ds vectors' V texture' T dn outs' M fuel Hw' Hdw Hker Hroot Hds Hv' LV Ht' HM HA' R' Lo'
    (fun r Hr => proj1 (Ho' r Hr)) Hn) as (ms' & E' & _ & H').
  exists ms, ms'. split; [exact E|]. split; [exact E'|]. intros r r' idx idx' Hr Hr' Hi Hi' Ec.
  rewrite (H r idx Hr Hi), (H' r' idx' Hr' Hi'), Ec. reflexivity.
Qed.
Print Assumptions C76_decomposition_independent.

Lemma then_block {A B} (l : list (outcome A)) (f : list A -> list (outcome B)) o : In o l -> (forall a, o <> Ret a) -> then_all l f = block_rest l.
Proof.
  intros H N. unfold then_all. destruct (all_ret l) as [x|] eqn:E; [|reflexivity]. exfalso.
  unfold all_ret in E. revert x E. induction l as [|y l IH]; intros x E; [contradiction|]. cbn [map sequence] in E. destruct H as [->|H].
  - destruct o; try discriminate. exact (N a eq_refl).
  - destruct y; try discriminate. destruct (sequence (map _ l)) as [x'|] eqn:E'; [|discriminate]. exact (IH H x' eq_refl).
Qed.

(** With a rank that has no cells the image is not computed (as soon as there is a step): that rank fails
    with ValueError, the others wait for it. *)
Theorem C76_empty_rank :
  forall Nmesh BoxSize box w0 pt blocks pms, world Nmesh BoxSize box w0 pt blocks pms ->
  let nd := length Nmesh in let P := length blocks in
  (forall a, (a < nd)%nat -> 0 < nth a box 0) ->
  forall w' kernel len ds vectors V texture T do_normalize outs fuel r,
  (forall root, do_normalize = Some root -> Proper (Qeq ==> Qeq) root) -> 0 < len ->
  Forall2 (holds pt blocks) vectors V -> length V = nd -> holds pt blocks texture T ->
  (r < P)%nat -> rank_cells pt blocks r = [] ->
  let result := lic fuel pms vectors kernel len ds w' texture do_normalize outs in
  length result = P /\ nth r result Blocked = Raise ValueError /\
  forall r', (r' < P)%nat -> rank_cells pt blocks r' <> [] -> nth r' result (Raise ValueError) = Blocked.
Proof.
  intros Nmesh BoxSize box w0 pt blocks pms W nd P Hpos w' kernel len ds vectors V texture T dn outs fuel r Hroot Hlen Hvec LV Htex Hr Hemp.
  pose proof (dim_pos _ _ _ _ _ _ _ W) as Dp. assert (Lp : length pms = P) by exact (world_length _ _ _ _ _ _ _ W).
  cbv zeta. unfold lic.
  assert (Ne : vectors <> []) by (intros C; apply Forall2_len in Hvec; rewrite C, LV in Hvec; simpl in Hvec; unfold nd in *; lia).
  rewrite (match_cons vectors) by exact Ne.
  set (vectors' := match dn with Some root => normalize root (length pms) vectors | None => vectors end).
  assert (X : exists V', Forall2 (holds pt blocks) vectors' V' /\ length V' = nd).
  { unfold vectors'. destruct dn as [root|]; [|exists V; split; assumption]. rewrite Lp. exists (unit_vectors root V).
    split; [exact (normalize_holds pt blocks root (Hroot root eq_refl) vectors V Hvec)|unfold unit_vectors; rewrite map_length; exact LV]. }
  destruct X as (V' & Hvec' & LV').
  destruct (grids_ok _ _ _ _ _ _ _ W) as (grids & Eg & Fg). rewrite Eg, then_ret, Fg.
  destruct Htex as (Ltex & Htex0).
  destruct (read_grid _ _ _ _ _ _ _ W Hpos texture Ltex (fun r Hr => proj1 (Htex0 r Hr))) as (f0 & Ef & Lf & Hf).
  rewrite Ef, then_ret. rewrite Lp.
  assert (S1 : forall r d, (r < P)%nat -> (d < nd)%nat -> stored (f_array (nth r (nth d vectors' []) zero_field)) (block_shape (i_edges pt) (block blocks r))).
  { intros q d Hq Hd. destruct (Forall2_nth_holds _ _ _ _ d Hvec' ltac:(lia)) as (_ & Y). exact (proj1 (Y q Hq)). }
  assert (Lv' : length vectors' = nd) by (rewrite (Forall2_len _ _ _ Hvec'); exact LV').
  assert (Eemp : vmax_of (on_rank zero_field vectors' r) = Raise ValueError).
  { assert (F0 : elements (f_array (nth r (nth 0 vectors' []) zero_field)) = []).
    { pose proof (rank_elements pt blocks r _ (S1 r 0%nat Hr Dp)) as Q. rewrite Hemp in Q. symmetry in Q. apply map_eq_nil in Q. exact Q. }
    destruct vectors' as [|v vs]; [simpl in Lv'; unfold nd in *; lia|]. cbn [nth] in F0. unfold vmax_of, on_rank. cbn [map all_max].
    unfold abs_max. rewrite F0. reflexivity. }
  assert (Efull : forall r', (r' < P)%nat -> rank_cells pt blocks r' <> [] -> exists m, vmax_of (on_rank zero_field vectors' r') = Ret m).
  { intros r' Hr' Hne.
    assert (Q : forall v, In v (on_rank zero_field vectors' r') -> elements (f_array v) <> []).
    { intros v Hv. unfold on_rank in Hv. apply in_map_iff in Hv. destruct Hv as (l & <- & Hl). apply In_nth with (d := []) in Hl.
      destruct Hl as (d & Hd & <-). intros C. apply Hne. rewrite (rank_elements pt blocks r' _ (S1 r' d Hr' ltac:(lia))), C. reflexivity. }
    assert (Ne' : on_rank zero_field vectors' r' <> []).
    { unfold on_rank. intros C. apply map_eq_nil in C. rewrite C in Lv'. simpl in Lv'. unfold nd in *. lia. }
    assert (Z1 : exists ms, all_max (on_rank zero_field vectors' r') = Ret ms /\ length ms = length (on_rank zero_field vectors' r')).
    { revert Q. generalize (on_rank zero_field vectors' r') as l. induction l as [|v l IH]; intros Q; [exists []; split; reflexivity|].
      destruct IH as (ms & E & L); [intros u Hu; apply Q; right; exact Hu|]. pose proof (Q v (or_introl eq_refl)) as Qv.
      cbn [all_max]. unfold abs_max. destruct (elements (f_array v)) as [|i l']; [contradiction|]. cbn [map amax bind]. rewrite E.
      cbn [bind]. eexists. split; [reflexivity|]. simpl. rewrite L. reflexivity. }
    destruct Z1 as (ms & E & L). unfold vmax_of. rewrite E. cbn [bind]. destruct ms as [|m ms].
    - destruct (on_rank zero_field vectors' r'); [contradiction|discriminate].
    - eexists. reflexivity. }
  rewrite (then_block _ _ (Raise ValueError)); [|rewrite <- Eemp; apply (in_map (fun r => vmax_of (on_rank zero_field vectors' r))); apply in_seq; lia|discriminate].
  unfold block_rest. rewrite map_map. split; [rewrite map_length, seq_length; reflexivity|]. split.
  - rewrite nth_map_seq by exact Hr. rewrite Eemp. reflexivity.
  - intros r' Hr' Hne. rewrite nth_map_seq by exact Hr'. destruct (Efull r' Hr' Hne) as (m & Em). rewrite Em. reflexivity.
Qed.
Print Assumptions C76_empty_rank.

(** on two ranks: unnormalised vectors [(0, 5)] and [(3, 4)] on a checkerboard, two steps each way.  (The
    numbers themselves are not computed here: the checker evaluates without the virtual machine.) *)
Definition plane (v : list Z -> Q) : list field :=
  map (fun r => {| f_array := c_array [2; 4]%Z; f_data := fun a => v [2 * Z.of_nat r + a / 4; a mod 4]%Z |}) (seq 0 2).
Definition checker (even odd : Q) (c : list Z) : Q := if Z.even (nth 0 c 0 + nth 1 c 0)%Z then even else odd.
Definition ex_V : list (list Z -> Q) := [checker 0 3; checker 5 4].
Definition ex_T (c : list Z) : Q := inject_Z (nth 0 c 0 * 4 + nth 1 c 0)%Z.
Definition ex_root (q : Q) : Q := if Qeq_bool q 25 then 5 else q.
Definition ex_kernel (s : Q) : Q := 1 + s.
Lemma plane_holds v : holds ex_pt ex_blocks (plane v) v.
Proof.
  split; [reflexivity|]. intros r Hr. destruct r as [|[|r]]; [| |simpl in Hr; lia]; (split; [apply (c_array_stored [2; 4]%Z); repeat constructor|]);
    intros idx Hi; vm_compute in Hi; repeat (destruct Hi as [<-|Hi]; [reflexivity|]); contradiction.
Qed.
Lemma ex_root_proper : Proper (Qeq ==> Qeq) ex_root.
Proof.
  intros x y E. unfold ex_root. destruct (Qeq_bool x 25) eqn:A, (Qeq_bool y 25) eqn:B; try reflexivity; try exact E.
  - apply Qeq_bool_iff in A. apply Qeq_bool_neq in B. exfalso. apply B. rewrite <- E. exact A.
  - apply Qeq_bool_iff in B. apply Qeq_bool_neq in A. exfalso. apply A. rewrite E. exact B.
Qed.
Lemma ex_kernel_proper : Proper (Qeq ==> Qeq) ex_kernel.
Proof. intros x y E. unfold ex_kernel. rewrite E. reflexivity. Qed.
Lemma lic_room : room [4; 4]%Z ex_pt (repeat (1 * 1 / 2 + inject_Z (w_support ex_cic) / 2) 2).
Proof.
  intros i k Hi Hk. destruct i as [|[|i]]; [| |cbn in Hi; lia].
  - destruct k as [|[|k]]; [| |cbn in Hk; lia]; left; vm_compute; congruence.
  - destruct k as [|k]; [|cbn in Hk; lia]. right. reflexivity.
Qed.
Example C76_case :
  let out := plane (fun _ => 7) in
  let result := lic 2 ex_pms (map plane ex_V) ex_kernel 3 1 None (plane ex_T) (Some ex_root) out in
  exists ms, result = map Ret ms /\ length ms = 2%nat /\
    forall r idx, (r < 2)%nat -> In idx (elements (f_array (nth r out zero_field))) ->
    elem (f_array (nth r out zero_field)) (nth r ms (fun _ => 0)) idx ==
    lic_value ex_cic [4; 4]%Z [8; 8] (unit_vectors ex_root ex_V) ex_T ex_kernel 3 1 2 (zadd idx (block_start (i_edges ex_pt) (block ex_blocks r))).
Proof.
  cbv zeta.
  apply (C76_lic _ _ _ _ _ _ _ ex_world) with (w := ex_cic) (M := 1) (do_normalize := Some ex_root) (V := ex_V).
  - intros a Ha. destruct a as [|[|a]]; [| |simpl in Ha; lia]; vm_compute; discriminate.
  - reflexivity.
  - apply default_window_ok; [exact Logic.I|left; lia].
  - exact ex_kernel_proper.
  - intros root E. injection E as <-. exact ex_root_proper.
  - reflexivity.
  - unfold ex_V. cbn [map]. constructor; [apply plane_holds|]. constructor; [apply plane_holds|constructor].
  - reflexivity.
  - apply plane_holds.
  - intros v c Hv _. cbn [followed unit_vectors map ex_V In] in Hv. destruct Hv as [<-|[<-|[]]];
      unfold ex_V, checker, qsum; cbn [map fold_right]; destruct (Z.even _); vm_compute; discriminate.
  - intros r Hr. exists (nth 1 (unit_vectors ex_root ex_V) (fun _ => 0)), [2 * Z.of_nat r; 0]%Z. split; [right; left; reflexivity|].
    destruct r as [|[|r]]; [| |simpl in Hr; lia]; (split; [vm_compute; left; reflexivity|vm_compute; reflexivity]).
  - exact lic_room.
  - reflexivity.
  - intros r Hr. exact (proj1 (proj2 (plane_holds (fun _ => 7)) r Hr)).
  - vm_compute. lia.
Qed.

(** ** What the conditions are for *)
Definition nnb_line (n m : Z) (b : Q) (v : Z -> Q) (len ds : Q) : list (outcome memory) :=
  lic 3 (line_pms n m b nnb) [line_field n m v] (fun _ => 1) len ds None (line_field n m (fun i => inject_Z (1 + i))) None (line_field n m (fun _ => 0)).
Lemma line_room q : 0 <= q <= 4 -> room [8]%Z (line_pt 8 4) [q].
Proof.
  intros Hq i k Hi Hk. cbv zeta. destruct i as [|i]; [|simpl in Hi; lia]. cbn [line_pt i_edges nth length] in Hk |- *.
  left. destruct k as [|[|k]]; [| |lia]; cbn [nth]; [change (inject_Z (4 - 0)) with 4|change (inject_Z (8 - 4)) with 4]; change (inject_Z 8) with 8; lra.
Qed.

(** Everything but the second condition on [M]: the vectors are 1 on the first rank and up to 6 on
    the second.  A line of the first rank meets the large vector and the layout, made with the
    first rank's own maximum, does not reach far enough. *)
Theorem C76_local_maximum_refuted :
  let fast (i : Z) : Q := if (i =? 5)%Z then 6 else 1 in
  world [8]%Z (Scalar 8) [8] nnb (line_pt 8 4) [[0]; [1]]%Z (line_pms 8 4 8 nnb) /\ default_window nnb /\
  room [8]%Z (line_pt 8 4) (repeat (6 * 1 / 2 + inject_Z (w_support nnb) / 2) 1) /\
  holds (line_pt 8 4) [[0]; [1]]%Z (line_field 8 4 fast) (fun c => fast (nth 0 c 0%Z)) /\ (forall i, Qabs (fast i) <= 6) /\
  exists ms, nnb_line 8 4 8 fast 6 1 = map Ret ms /\
    elem (c_array [4]%Z) (nth 0 ms (fun _ => 0)) [3]%Z == 24 /\
    lic_value nnb [8]%Z [8] [fun c => fast (nth 0 c 0%Z)] (fun c => inject_Z (1 + nth 0 c 0%Z)) (fun _ => 1) 6 1 3 [3]%Z == 25.
Proof.
  cbv zeta. split; [apply line_world; lia|]. split; [apply default_window_ok; [exact Logic.I|left; lia]|].
  split; [apply line_room; vm_compute; split; discriminate|]. split; [apply (line_holds 8 4 (fun i => if (i =? 5)%Z then 6 else 1)); lia|].
  split; [intros i; destruct (i =? 5)%Z; vm_compute; discriminate|].
  destruct (all_ret_check (nnb_line 8 4 8 (fun i => if (i =? 5)%Z then 6 else 1) 6 1)
    (fun ms => Qeq_bool (elem (c_array [4]%Z) (nth 0 ms (fun _ => 0)) [3]%Z) 24)) as (ms & E & C); [vm_compute; reflexivity|].
  exists ms. split; [exact E|]. split; [apply Qeq_bool_iff; exact C|vm_compute; reflexivity].
Qed.
Print Assumptions C76_local_maximum_refuted.

(** Everything but [Nmesh <= BoxSize]: the smoothing is in cells, the step in units of the box.
    With two cells per unit and the constant vector 1 a half step of one unit is two cells. *)
Theorem C76_small_box_refuted :
  world [8]%Z (Scalar 4) [4] nnb (line_pt 8 4) [[0]; [1]]%Z (line_pms 8 4 4 nnb) /\ default_window nnb /\
  room [8]%Z (line_pt 8 4) (repeat (1 * 2 / 2 + inject_Z (w_support nnb) / 2) 1) /\
  holds (line_pt 8 4) [[0]; [1]]%Z (line_field 8 4 (fun _ => 1)) (fun _ => 1) /\
  exists ms, nnb_line 8 4 4 (fun _ => 1) 2 2 = map Ret ms /\
    elem (c_array [4]%Z) (nth 0 ms (fun _ => 0)) [2]%Z == 5 /\
    lic_value nnb [8]%Z [4] [fun _ => 1] (fun c => inject_Z (1 + nth 0 c 0%Z)) (fun _ => 1) 2 2 1 [2]%Z == 15.
Proof.
  split; [apply line_world; lia|]. split; [apply default_window_ok; [exact Logic.I|left; lia]|].
  split; [apply line_room; vm_compute; split; discriminate|]. split; [apply (line_holds 8 4 (fun _ => 1)); lia|].
  destruct (all_ret_check (nnb_line 8 4 4 (fun _ => 1) 2 2)
    (fun ms => Qeq_bool (elem (c_array [4]%Z) (nth 0 ms (fun _ => 0)) [2]%Z) 5)) as (ms & E & C); [vm_compute; reflexivity|].
  exists ms. split; [exact E|]. split; [apply Qeq_bool_iff; exact C|vm_compute; reflexivity].
Qed.
Print Assumptions C76_small_box_refuted.
