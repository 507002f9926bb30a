(** Model of [ctranspose] (pm.py:696-723) and property C66. *)
From Coq Require Import List Arith ZArith QArith Qabs Qround Lqa Lia Bool Sorted Permutation Setoid Morphisms.
From Verif Require Import Base ListFacts LayoutModel LayoutSpec LayoutProofs LayoutModes LayoutMore WrapModel WrapProofs DomainModel DomainFill DomainGeom DomainTargets
  DomainHome DomainProperties QSum WindowModel WindowStencil WindowSpread WindowKernels WindowAxis WindowNative WindowApi WindowPoints
  WindowGrad WindowTranslate WindowProperties MeshModel MeshAssign MeshRoute MeshPaint MeshTile MeshDistributed MeshGrad MeshProperties MeshProperties2
  MeshResample MeshProperties4.
Import ListNotations.
Local Open Scope Q_scope.

(** * Model *)
(** numpy: a[i] for i counted from the end if negative *)
Definition axis_index (nd : nat) (a : Z) : option nat :=
  if (0 <=? a)%Z && (a <? Z.of_nat nd)%Z then Some (Z.to_nat a)
  else if (- Z.of_nat nd <=? a)%Z && (a <? 0)%Z then Some (Z.to_nat (a + Z.of_nat nd)) else None.
(** a[axes] for a list of axes *)
Definition take_axes {A} (d : A) (ax : list nat) (l : list A) : list A := map (fun a => nth a l d) ax.
(** pm.py:706-707 *)
Definition full_rank (nd : nat) (axes : list Z) : bool :=
  (length (nodup Z.eq_dec axes) =? nd)%nat &&
  existsb (fun a => (a =? Z.of_nat nd - 1)%Z) axes && forallb (fun a => (a <=? Z.of_nat nd - 1)%Z) axes.
(** pm.py:696-723: all ranks pass the same axes; [pt] is the partition pfft makes for the
    new mesh, [outs] the arrays that paint creates. *)
Definition ctranspose (srcs : list pm) (pt : partition) (fields outs : list field) (axes : list Z) : list (outcome memory) :=
  match srcs with
  | [] => []
  | p0 :: _ =>
      let nd := length (pm_Nmesh p0) in
      if full_rank nd axes then
        match sequence (map (axis_index nd) axes) with
        | None => map (fun _ => Raise IndexError) srcs
        | Some ax =>
            let made := ParticleMesh (take_axes 0%Z ax (pm_Nmesh p0)) (Array (take_axes 0 ax (pm_BoxSize p0))) (pm_resampler p0) pt in
            match all_ret made with
            | None => map (fun _ => Blocked) srcs
            | Some dsts =>
                let grids := map (fun p => generate_uniform_particle_grid p (Scalar 0)) srcs in
                match all_ret grids with
                | None => map (fun _ => Blocked) srcs
                | Some grids =>
                    let q := map fst grids in
                    let read := pm_readout srcs (Some nnb) None None None fields q WNone in
                    match all_ret read with
                    | None => block_rest read
                    | Some v =>
                        let q := map (map (take_axes 0 ax)) q in
                        let layouts := pm_decompose dsts (SmoothWindow nnb) None q in
                        match all_ret layouts with
                        | None => block_rest layouts
                        | Some ls => pm_paint dsts (Some nnb) None false None (Some ls) outs q WNone (WArray v)
                        end
                    end
                end
            end
        end
      else map (fun _ => Raise AssertionError) srcs
  end.

(** * The nearest window at positions that are cells after the transformation *)
Section Nearest.
Variables (real : array) (t : affine).
Hypothesis (WF : wf_call real t).
Local Notation nd := (length (ar_shape real)).
Lemma nearest_axis i x c j : (i < nd)%nat -> (0 <= c < nth i (af_period t) 0)%Z ->
  grid_pos (axis_of real t None i) x == inject_Z c ->
  wsum (axis_points (painter_of nnb real t None) 1 (axis_of real t None i) x) j == if (c =? j)%Z then 1 else 0.
Proof.
  intros Hi Hc G. set (a := axis_of real t None i) in *.
  assert (Pa : ax_period a = nth i (af_period t) 0%Z) by reflexivity.
  assert (O : ax_order a = 0%Z).
  { unfold a. cbn [ax_order axis_of]. rewrite order_spec_nth by exact Hi. reflexivity. }
  assert (F : Qfloor (grid_pos a x + (1#2)) = c).
  { apply Qfloor_unique. rewrite G. split; lra. }
  assert (N : Forall2 pair_eq (axis_points (painter_of nnb real t None) 1 a x) (native_line TunedNNB a x)).
  { apply axis_points_native.
    - apply standard_proper. exact Logic.I.
    - unfold native_painter. reflexivity.
    - rewrite Pa. lia.
    - intros _. left. exact O. }
  rewrite (pair_eq_wsum _ _ j N). unfold native_line. cbn [native_of]. rewrite first_point_1, F.
  change (Z.to_nat 1) with 1%nat. cbn [zrange map]. unfold wsum. rewrite qsum_cons, qsum_nil. cbn [fst snd].
  unfold wrap_axis. rewrite Pa. destruct (Z.gtb_spec (nth i (af_period t) 0%Z) 0); [|lia]. rewrite Z.mod_small by exact Hc.
  destruct (c =? j)%Z; [|ring].
  rewrite (line_weight_n TunedNNB 1 a x c Logic.I eq_refl). rewrite O. cbn [Z.eqb kernel_of].
  rewrite nearest_in; [ring| |]; rewrite G; lra.
Qed.
Lemma nearest_weight x e idx : length x = nd -> length e = nd -> length idx = nd ->
  (forall i, (i < nd)%nat -> (0 <= nth i e 0 < nth i (af_period t) 0)%Z /\ grid_pos (axis_of real t None i) (nth i x 0) == inject_Z (nth i e 0%Z)) ->
  weight_of (painter_of nnb real t None) 1 x idx == if list_eq_dec Z.eq_dec e idx then 1 else 0.
Proof.
  intros Lx Le Li H. rewrite weight_of_prod; [|exact WF|exact Lx|exact Li].
  assert (A : forall i, (i < nd)%nat ->
    wsum (axis_points (painter_of nnb real t None) 1 (axis_of real t None i) (nth i x 0)) (nth i idx 0%Z) ==
    if (nth i e 0 =? nth i idx 0)%Z then 1 else 0).
  { intros i Hi. destruct (H i Hi). apply nearest_axis; assumption. }
  destruct (list_eq_dec Z.eq_dec e idx) as [E|E].
  - subst idx. rewrite (qprod_map_ext _ (fun _ => 1)).
    + generalize (seq 0 nd) as l. intros l. induction l as [|k l IH]; [reflexivity|]. cbn [map qprod fold_right].
      change (fold_right Qmult 1 (map (fun _ => 1) l)) with (qprod (map (fun _ : nat => 1) l)). rewrite IH. ring.
    + intros i Hi. apply in_seq in Hi. rewrite A by lia. rewrite Z.eqb_refl. reflexivity.
  - assert (X : exists i, (i < nd)%nat /\ nth i e 0%Z <> nth i idx 0%Z).
    { destruct (forall_or_exists (fun i => nth i e 0%Z <> nth i idx 0%Z) (fun i => nth i e 0%Z = nth i idx 0%Z) nd) as [Y|Y].
      - intros i _. destruct (Z.eq_dec (nth i e 0%Z) (nth i idx 0%Z)); [right|left]; assumption.
      - exact Y.
      - exfalso. apply E. apply (nth_ext _ _ 0%Z 0%Z); [lia|]. intros i Hi. apply Y. lia. }
    destruct X as (i & Hi & Ne). apply (qprod_map_zero _ _ i); [apply in_seq; lia|].
    rewrite A by exact Hi. destruct (Z.eqb_spec (nth i e 0%Z) (nth i idx 0%Z)); [contradiction|reflexivity].
Qed.
End Nearest.

(** * Axes *)
Lemma sequence_axes nd ax : Forall (fun a => (a < nd)%nat) ax -> sequence (map (axis_index nd) (map Z.of_nat ax)) = Some ax.
Proof.
  induction 1 as [|a ax Ha F IH]; [reflexivity|]. cbn [map sequence]. rewrite IH. unfold axis_index.
  destruct (Z.leb_spec 0 (Z.of_nat a)); [|lia]. destruct (Z.ltb_spec (Z.of_nat a) (Z.of_nat nd)); [|lia]. cbn [andb]. rewrite Nat2Z.id. reflexivity.
Qed.
Lemma full_rank_perm nd ax : (0 < nd)%nat -> Permutation ax (seq 0 nd) -> full_rank nd (map Z.of_nat ax) = true.
Proof.
  intros H0 P. unfold full_rank.
  assert (ND : NoDup (map Z.of_nat ax)).
  { apply NoDup_map_in; [intros a b _ _; apply Nat2Z.inj|]. apply (Permutation_NoDup (Permutation_sym P)), seq_NoDup. }
  rewrite (nodup_fixed_point _ ND), map_length, (Permutation_length P), seq_length, Nat.eqb_refl. cbn [andb].
  apply andb_true_intro. split.
  - apply existsb_exists. exists (Z.of_nat (nd - 1)). split; [|apply Z.eqb_eq; lia].
    apply in_map. apply (Permutation_in _ (Permutation_sym P)). apply in_seq. lia.
  - apply forallb_forall. intros z Hz. apply in_map_iff in Hz. destruct Hz as (a & <- & Ha).
    apply (Permutation_in _ P) in Ha. apply in_seq in Ha. apply Z.leb_le. lia.
Qed.
Lemma take_axes_length {A} (d : A) ax l : length (take_axes d ax l) = length ax.
Proof. apply map_length. Qed.
Lemma take_axes_nth {A} (d : A) ax l i : (i < length ax)%nat -> nth i (take_axes d ax l) d = nth (nth i ax O) l d.
Proof. intro H. unfold take_axes. rewrite (nth_map_in _ ax i d O) by exact H. reflexivity. Qed.
Lemma take_axes_inj nd ax (a b : list Z) : Permutation ax (seq 0 nd) -> length a = nd -> length b = nd ->
  take_axes 0%Z ax a = take_axes 0%Z ax b -> a = b.
Proof.
  intros P La Lb E. apply (nth_ext _ _ 0%Z 0%Z); [lia|]. intros i Hi.
  assert (Hin : In i ax) by (apply (Permutation_in _ (Permutation_sym P)), in_seq; lia).
  destruct (In_nth _ _ O Hin) as (k & Hk & Ek).
  pose proof (f_equal (fun l => nth k l 0%Z) E) as X. cbn beta in X. rewrite !take_axes_nth, Ek in X by exact Hk. exact X.
Qed.
(** the nearest window fits every partition *)
Lemma nnb_room Nmesh pt blocks : mesh_ok Nmesh pt blocks -> room Nmesh pt (half_support nnb (length Nmesh)).
Proof.
  intros OK i k Hi Hk. cbv zeta. unfold half_support. rewrite nth_repeat_in by exact Hi.
  set (wd := (nth (S k) (nth i (i_edges pt) []) 0 - nth k (nth i (i_edges pt) []) 0)%Z).
  assert (H : (wd <= nth i Nmesh 0)%Z).
  { pose proof (mk_edges _ _ _ OK) as F. assert (X : edges_ok (nth i Nmesh 0%Z) (nth i (i_edges pt) [])).
    { clear -F Hi. revert i Hi. induction F as [|n e N es H F IH]; intros [|i] Hi; simpl in *; try lia; [exact H|]. apply IH. lia. }
    destruct X as (X1 & X2 & X4 & X3 & X5).
    pose proof (Zsorted_nth _ 0 k X4 ltac:(lia) ltac:(lia)). pose proof (Zsorted_nth _ (S k) (length (nth i (i_edges pt) []) - 1) X4 ltac:(lia) ltac:(lia)) as Y.
    rewrite nth_last in Y. unfold wd. lia. }
  destruct (Z.eq_dec wd (nth i Nmesh 0%Z)) as [E|E]; [right; exact E|left].
  assert (H' : (wd + 1 <= nth i Nmesh 0)%Z) by lia. rewrite Zle_Qle, inject_Z_plus in H'.
  change (inject_Z (w_support nnb) * (1#2)) with (1#2). change (inject_Z 1) with 1 in H'. lra.
Qed.

(** * The grid of the source mesh *)
Section Source.
Variables (Ns : list Z) (Bs : value Q) (boxs : list Q) (ws : window) (pts : partition) (bs : list (list Z)) (srcs : list pm).
Hypothesis (Ws : world Ns Bs boxs ws pts bs srcs) (HB : Forall (fun b => ~ b == 0) boxs).
Local Notation P := (length bs).
Local Notation nd := (length Ns).
Local Notation start r := (block_start (i_edges pts) (block bs r)).
Local Notation shape r := (block_shape (i_edges pts) (block bs r)).
Let OK : mesh_ok Ns pts bs := wd_mesh _ _ _ _ _ _ _ Ws.
Definition point (e : list Z) : list Q :=
  map (fun x => (fst (fst x) + snd (fst x)) * snd x)
      (combine (combine (map inject_Z e) (repeat 0 nd)) (map (fun nb => snd nb / inject_Z (fst nb)) (combine Ns boxs))).
Lemma point_length e : length e = nd -> length (point e) = nd.
Proof. intro L. unfold point. pose proof (wd_boxdim _ _ _ _ _ _ _ Ws). rewrite !map_length, !combine_length, !map_length, repeat_length, combine_length. lia. Qed.
Lemma size_nz i : (i < nd)%nat -> ~ inject_Z (nth i Ns 0%Z) == 0.
Proof.
  intros Hi E. pose proof (world_sizes _ _ _ _ _ _ _ Ws) as F. rewrite Forall_forall in F.
  specialize (F _ (nth_In _ 0%Z Hi)). change 0 with (inject_Z 0) in E. rewrite inject_Z_injective in E. lia.
Qed.
Lemma box_nz i : (i < nd)%nat -> ~ nth i boxs 0 == 0.
Proof. intros Hi. rewrite Forall_forall in HB. apply HB, nth_In. rewrite (wd_boxdim _ _ _ _ _ _ _ Ws). exact Hi. Qed.
Lemma point_nth e i : length e = nd -> (i < nd)%nat -> nth i (point e) 0 == inject_Z (nth i e 0%Z) * (nth i boxs 0 / inject_Z (nth i Ns 0%Z)).
Proof.
  intros L Hi. pose proof (wd_boxdim _ _ _ _ _ _ _ Ws) as Lb. unfold point.
  rewrite (nth_map_in _ _ i 0 (0, 0, 0)) by (rewrite !combine_length, !map_length, repeat_length, combine_length; lia).
  rewrite combine_nth by (rewrite !combine_length, !map_length, repeat_length, combine_length; lia).
  rewrite combine_nth by (rewrite !map_length, repeat_length; lia). cbn [fst snd].
  rewrite (nth_map_in _ _ i 0 (0%Z, 0)) by (rewrite combine_length; lia). rewrite combine_nth by lia. cbn [fst snd].
  rewrite (nth_map_in _ e i 0 0%Z) by lia. rewrite nth_repeat_in by exact Hi. ring.
Qed.
Lemma scale_nth i : (i < nd)%nat -> nth i (mesh_scale Ns boxs) 0 == inject_Z (nth i Ns 0%Z) / nth i boxs 0.
Proof.
  intros Hi. pose proof (wd_boxdim _ _ _ _ _ _ _ Ws) as Lb. unfold mesh_scale.
  rewrite (nth_map_in _ _ i 0 (0%Z, 0)) by (rewrite combine_length; lia). rewrite combine_nth by lia. cbn [fst snd].
  unfold Qdiv. ring.
Qed.
Lemma grids : map (fun p => generate_uniform_particle_grid p (Scalar 0)) srcs =
  map Ret (map (fun r => (map point (rank_cells pts bs r), snd (nth r (map (fun p => match generate_uniform_particle_grid p (Scalar 0) with Ret g => g | _ => ([], []) end) srcs) ([], [])))) (seq 0 P)).
Proof.
  rewrite (world_pms _ _ _ _ _ _ _ Ws), !map_map. apply map_ext_seq. intros r Hr.
  rewrite nth_map_seq by exact Hr.
  unfold generate_uniform_particle_grid. cbn [pm_Nmesh pm_BoxSize mesh_pm mkarr bind snd]. unfold coordinates_Q. rewrite map_map. reflexivity.
Qed.
Variable (fs : list field).
Hypothesis (Lfs : length fs = P).
Hypothesis (Hst : forall r, (r < P)%nat -> stored (f_array (nth r fs zero_field)) (shape r)).
Local Notation arr r := (f_array (nth r fs zero_field)).
Definition q_of : list (list (list Q)) := map (fun r => map point (rank_cells pts bs r)) (seq 0 P).
Lemma cell_dim r c : (r < P)%nat -> In c (rank_cells pts bs r) -> length c = nd.
Proof. intros Hr Hc. apply (in_rank_cells _ _ _ OK r c Hr) in Hc. exact (proj1 Hc). Qed.
Lemma read_own r m : (r < P)%nat ->
  exists us, window_readout nnb (arr r) m (map point (rank_cells pts bs r)) None None (Some (affine_at Ns pts bs (mesh_scale Ns boxs) r)) = Ret us /\
  length us = length (elements (arr r)) /\
  forall k, (k < length (elements (arr r)))%nat -> nth k us 0 == elem (arr r) m (nth k (elements (arr r)) []).
Proof.
  intros Hr. pose proof (Hst r Hr) as HR. set (real := arr r) in *. set (t := affine_at _ _ _ _ _).
  assert (D : length (ar_shape real) = nd) by (rewrite (proj1 HR); apply (block_shape_length _ _ _ OK r Hr)).
  assert (WF : wf_call real t) by (apply (wf_local _ _ _ OK); [exact (mesh_scale_length _ _ _ _ _ _ _ Ws)|exact Hr|exact HR]).
  assert (EC : rank_cells pts bs r = map (fun idx => zadd idx (start r)) (elements real)).
  { unfold rank_cells. rewrite <- (elements_shape pts bs fs Hst r Hr). reflexivity. }
  assert (Lc : length (map point (rank_cells pts bs r)) = length (elements real)) by (rewrite EC, !map_length; reflexivity).
  eexists. split; [apply (window_readout_values nnb real t None); exact Logic.I|].
  split; [rewrite map_length, seq_length; exact Lc|].
  intros k Hk. rewrite nth_map_seq by lia. cbn [values_of]. rewrite nth_repeat_in by lia.
  rewrite EC, map_map. rewrite (nth_map_in _ (elements real) k [] []) by exact Hk.
  set (idx := nth k (elements real) []). assert (Hin : In idx (elements real)) by (apply nth_In; exact Hk).
  pose proof (elements_length _ _ Hin) as Li. pose proof (start_length _ _ _ OK r Hr) as Ls.
  assert (Le : length (zadd idx (start r)) = nd) by (rewrite zadd_length; lia).
  assert (Wt : forall b, In b (elements real) -> weight_of (painter_of nnb real t None) 1 (point (zadd idx (start r))) b == if list_eq_dec Z.eq_dec idx b then 1 else 0).
  { intros b Hb. pose proof (elements_length _ _ Hb) as L2. apply nearest_weight; [exact WF|rewrite point_length; lia|lia|lia|].
    intros i Hi. rewrite D in Hi. split.
    - pose proof (elements_bound _ _ i Hin ltac:(lia)) as B. rewrite (proj1 HR) in B.
      pose proof (block_bounds _ _ _ OK r i Hr Hi). cbn [af_period t affine_at]. lia.
    - unfold grid_pos. cbn [ax_scale ax_translate axis_of af_scale af_translate t affine_at].
      rewrite scale_nth by exact Hi. rewrite point_nth by assumption. rewrite zadd_nth by lia.
      rewrite (nth_map_in _ (start r) i 0 0%Z) by lia. rewrite inject_Z_plus, inject_Z_opp.
      pose proof (size_nz i Hi). pose proof (box_nz i Hi). field. split; assumption. }
  rewrite readout_elements; [|exact WF|reflexivity|rewrite point_length; lia].
  rewrite (qsum_single _ (elements real) idx (cells_of_NoDup _) Hin).
  - rewrite Wt by exact Hin. destruct (list_eq_dec Z.eq_dec idx idx); [ring|contradiction].
  - intros b Hb Ne. rewrite Wt by exact Hb. destruct (list_eq_dec Z.eq_dec idx b); [congruence|ring].
Qed.
Lemma read_world :
  exists vs, pm_readout srcs (Some nnb) None None None fs q_of WNone = map Ret vs /\
    length vs = P /\
    forall r, (r < P)%nat -> length (nth r vs []) = length (elements (arr r)) /\
    forall k, (k < length (elements (arr r)))%nat ->
      nth k (nth r vs []) 0 == elem (arr r) (f_data (nth r fs zero_field)) (nth k (elements (arr r)) []).
Proof.
  unfold pm_readout. cbn [resampler_of]. rewrite (default_affines _ _ _ _ _ _ _ Ws). unfold readout_local. rewrite Lfs.
  destruct (exists_list (fun r us => window_readout nnb (arr r) (f_data (nth r fs zero_field)) (map point (rank_cells pts bs r)) None None
      (Some (affine_at Ns pts bs (mesh_scale Ns boxs) r)) = Ret us /\
    length us = length (elements (arr r)) /\
    forall k, (k < length (elements (arr r)))%nat -> nth k us 0 == elem (arr r) (f_data (nth r fs zero_field)) (nth k (elements (arr r)) [])) [] P) as (vs & Lv & X).
  { intros r Hr. apply read_own. exact Hr. }
  exists vs. split; [|split; [exact Lv|intros r Hr; exact (proj2 (X r Hr))]].
  rewrite <- (map_seq_eq vs [] (fun r => nth r vs []) P Lv) by (intros; reflexivity).
  rewrite map_map. apply map_ext_seq. intros r Hr.
  rewrite (nth_error_nth' fs zero_field) by lia. unfold rank_affines.
  rewrite (nth_error_nth' (map _ (seq 0 P)) zero_affine) by (rewrite map_length, seq_length; exact Hr).
  rewrite nth_map_seq by exact Hr. unfold q_of.
  rewrite (nth_error_nth' (map _ (seq 0 P)) []) by (rewrite map_length, seq_length; exact Hr).
  rewrite nth_map_seq by exact Hr. cbn [local_arg]. exact (proj1 (X r Hr)).
Qed.
End Source.

(** ** C66 *)
(** ctranspose moves the value of every cell c of the mesh to the cell whose coordinate i is
    that of axis axes[i] of c, for every partition of the two meshes *)
Theorem C66_ctranspose :
  forall Ns Bs boxs ws pts bs srcs, world Ns Bs boxs ws pts bs srcs -> Forall (fun b => ~ b == 0) boxs ->
  forall ax, Permutation ax (seq 0 (length Ns)) ->
  let Nd := map (fun a => nth a Ns 0%Z) ax in
  forall ptd bd, mesh_ok Nd ptd bd -> distinct_starts (i_edges ptd) -> plain_order ptd bd -> length bs = length bd ->
  forall fields v outs z, holds pts bs fields v -> holds ptd bd outs z ->
  exists ms, ctranspose srcs ptd fields outs (map Z.of_nat ax) = map Ret ms /\ length ms = length bd /\
    forall r idx c, (r < length bd)%nat -> In idx (elements (f_array (nth r outs zero_field))) ->
      In c (cells_of Ns) -> map (fun a => nth a c 0%Z) ax = zadd idx (block_start (i_edges ptd) (block bd r)) ->
      elem (f_array (nth r outs zero_field)) (nth r ms (fun _ => 0)) idx == v c.
Proof.
  intros Ns Bs boxs ws pts bs srcs Ws HB ax HP Nd ptd bd OKd DS PO LP fields v outs z (Lf & Hf) (Lo & Ho).
  set (boxd := take_axes 0 ax boxs).
  assert (Lax : length ax = length Ns) by (rewrite (Permutation_length HP), seq_length; reflexivity).
  assert (Fax : Forall (fun a => (a < length Ns)%nat) ax).
  { apply Forall_forall. intros a Ha. apply (Permutation_in _ HP), in_seq in Ha. lia. }
  assert (LNd : length Nd = length Ns) by (unfold Nd; rewrite map_length; exact Lax).
  assert (Lbd : length boxd = length Nd) by (unfold boxd, Nd, take_axes; rewrite !map_length; reflexivity).
  assert (Wd : world Nd (Array boxd) boxd ws ptd bd (map (mesh_pm Nd ptd bd boxd ws) (seq 0 (length bd)))).
  { split; auto.
    - apply mkarr_array. exact Lbd.
    - rewrite map_map. apply ParticleMesh_ok; auto. apply mkarr_array. exact Lbd. }
  set (dsts := map (mesh_pm Nd ptd bd boxd ws) (seq 0 (length bd))) in *.
  pose proof (world_blocks _ _ _ _ _ _ _ Ws) as H0. pose proof (wd_mesh _ _ _ _ _ _ _ Ws) as OK.
  pose proof (wd_boxdim _ _ _ _ _ _ _ Ws) as Lb.
  assert (Hstf : forall r, (r < length bs)%nat -> stored (f_array (nth r fields zero_field)) (block_shape (i_edges pts) (block bs r))) by (intros r Hr; apply Hf; exact Hr).
  set (P := length bs) in *.
  set (q := q_of Ns boxs pts bs).
  destruct (read_world _ _ _ _ _ _ _ Ws HB fields Lf Hstf) as (vs & E1 & Lv & V). fold q in E1. fold P in Lv, V.
  set (q' := map (map (take_axes 0 ax)) q).
  assert (Lq : length q = P) by (unfold q, q_of; rewrite map_length, seq_length; reflexivity).
  assert (Lq' : length q' = P) by (unfold q'; rewrite map_length; exact Lq).
  assert (Nq : forall r, (r < P)%nat -> nth r q [] = map (point Ns boxs) (rank_cells pts bs r)).
  { intros r Hr. unfold q, q_of. rewrite nth_map_seq by exact Hr. reflexivity. }
  assert (Nq' : forall r, (r < P)%nat -> nth r q' [] = map (fun idx => take_axes 0 ax (point Ns boxs (zadd idx (block_start (i_edges pts) (block bs r))))) (elements (f_array (nth r fields zero_field)))).
  { intros r Hr. unfold q'. rewrite (nth_map_in _ q r [] []) by lia. rewrite Nq by exact Hr. unfold rank_cells.
    rewrite <- (elements_shape pts bs fields Hstf r Hr), !map_map. reflexivity. }
  assert (Hq' : particles_ok (length Nd) (length bd) q').
  { split; [lia|]. unfold q', q, q_of. rewrite map_map, Forall_map. apply Forall_forall. intros r _. rewrite map_map, Forall_map.
    apply Forall_forall. intros e _. rewrite take_axes_length. lia. }
  assert (Lvq : map (@length Q) vs = map (@length _) q').
  { transitivity (map (fun r => length (nth r q' [])) (seq 0 P)).
    - symmetry. apply (map_seq_eq (map (@length Q) vs) O); [rewrite map_length; exact Lv|]. intros r Hr.
      rewrite (nth_map_in _ vs r O []) by lia. rewrite Nq', map_length by exact Hr. symmetry. apply V. exact Hr.
    - apply (map_seq_eq (map (@length _) q') O); [rewrite map_length; exact Lq'|]. intros r Hr.
      rewrite (nth_map_in _ q' r O []) by lia. reflexivity. }
  set (whole := c_array Nd). assert (SW : stored whole Nd) by (apply c_array_stored; exact (world_sizes _ _ _ _ _ _ _ Wd)).
  destruct (C31_paint_distributed Nd (Array boxd) boxd ws ptd bd dsts Wd q' (mesh_scale Nd boxd) None (SmoothWindow nnb) (half_support nnb (length Nd))
    (Some nnb) nnb None false WNone (WArray vs) outs whole (fun _ => 0)) as (ls & ms & wm1 & E2 & E3 & Lm & E4 & E5); auto; try exact Logic.I.
  - exact (mesh_scale_length _ _ _ _ _ _ _ Wd).
  - exact (default_affines _ _ _ _ _ _ _ Wd).
  - apply standard_proper. exact Logic.I.
  - apply repeat_length.
  - apply half_support_ok. discriminate.
  - apply (nnb_room _ _ _ OKd).
  - intros r i _ _. cbn [val]. split; [apply within_one; reflexivity|]. intros a Ha.
    rewrite (extent_one nnb eq_refl). unfold half_support. rewrite nth_repeat_in by exact Ha. apply Qle_refl.
  - intros r Hr. apply Ho. exact Hr.
  - intros; reflexivity.
  - exists ms. split; [|split; [exact Lm|]].
    + unfold ctranspose. rewrite (world_pms _ _ _ _ _ _ _ Ws) at 1. fold P. destruct P as [|P'] eqn:EP; [lia|]. cbn [seq map].
      cbn [pm_Nmesh pm_BoxSize pm_resampler mesh_pm].
      rewrite full_rank_perm by (try exact HP; exact (mk_dim _ _ _ OK)). rewrite sequence_axes by exact Fax.
      change (take_axes 0%Z ax Ns) with Nd. change (take_axes 0 ax boxs) with boxd.
      rewrite (wd_pms _ _ _ _ _ _ _ Wd), all_ret_Ret.
      rewrite (grids _ _ _ _ _ _ _ Ws), all_ret_Ret. rewrite map_map. cbn [fst].
      change (map (fun x => map (point Ns boxs) (rank_cells pts bs x)) (seq 0 (length bs))) with q.
      rewrite E1, all_ret_Ret. fold q'. rewrite E2, all_ret_Ret. exact E3.
    + intros r idx c Hr Hin Vc Ec. rewrite (E5 r idx Hr Hin).
      set (c' := zadd idx _) in *. assert (Hc : In c' (elements whole)).
      { apply (zadd_in _ _ _ OKd (mesh_scale Nd boxd) (f_array (nth r outs zero_field)) whole r (mesh_scale_length _ _ _ _ _ _ _ Wd) Hr (proj1 (Ho r Hr)) SW idx Hin). }
      assert (D : length (ar_shape whole) = length Nd) by (rewrite (proj1 SW); reflexivity).
      assert (Wf : wf_call whole (whole_affine Nd (mesh_scale Nd boxd))) by (apply (wf_whole _ _ _ OKd); [exact (mesh_scale_length _ _ _ _ _ _ _ Wd)|exact SW]).
      cbn [whole_arg] in E4.
      rewrite (whole_cell nnb whole (whole_affine Nd (mesh_scale Nd boxd)) c' (fun _ => 0) wm1 q' vs Lvq Wf); [|reflexivity| |exact Hc|exact E4].
      2:{ rewrite D. exact (proj2 Hq'). }
      set (G := fun x => weight_of (painter_of nnb whole (whole_affine Nd (mesh_scale Nd boxd)) None) 1 x c').
      change (elem whole (fun _ => 0) c') with 0. rewrite Qplus_0_l.
      change (qsum (fun xq => snd xq * G (fst xq)) (combine (concat q') (concat vs)) == v c).
      set (pos := fun e => take_axes 0 ax (point Ns boxs e)).
      assert (GW : forall e, In e (cells_of Ns) -> G (pos e) == if list_eq_dec Z.eq_dec e c then 1 else 0).
      { intros e He. apply in_cells_of in He. destruct He as (Le & Be).
        pose proof (elements_length _ _ Hc) as Lc'.
        assert (Lc : length c = length Ns) by exact (proj1 (proj1 (in_cells_of _ _) Vc)).
        transitivity (if list_eq_dec Z.eq_dec (take_axes 0%Z ax e) c' then 1 else 0).
        - apply nearest_weight; [exact Wf|unfold pos; rewrite take_axes_length; lia|rewrite take_axes_length; lia|lia|].
          intros i Hi. rewrite D in Hi. rewrite take_axes_nth by lia.
          assert (Hai : (nth i ax O < length Ns)%nat) by (rewrite Forall_forall in Fax; apply Fax, nth_In; lia).
          split.
          + cbn [af_period whole_affine]. unfold Nd. rewrite (nth_map_in _ ax i 0%Z O) by lia. apply Be. exact Hai.
          + unfold grid_pos. cbn [ax_scale ax_translate axis_of af_scale af_translate whole_affine].
            rewrite (scale_nth _ _ _ _ _ _ _ Wd) by exact Hi. unfold pos. rewrite take_axes_nth by lia.
            rewrite (point_nth _ _ _ _ _ _ _ Ws) by assumption.
            rewrite (nth_map_in _ Nd i 0 0%Z) by exact Hi. unfold Nd at 1. rewrite (nth_map_in _ ax i 0%Z O) by lia.
            unfold boxd. rewrite take_axes_nth by lia.
            pose proof (size_nz _ _ _ _ _ _ _ Ws _ Hai). pose proof (box_nz _ _ _ _ _ _ _ Ws HB _ Hai). field. split; assumption.
        - rewrite <- Ec. change (map (fun a => nth a c 0%Z) ax) with (take_axes 0%Z ax c).
          destruct (list_eq_dec Z.eq_dec e c) as [-> | Ne]; destruct (list_eq_dec Z.eq_dec (take_axes 0%Z ax _) _) as [E|E]; try reflexivity; [congruence|].
          exfalso. apply Ne. apply (take_axes_inj (length Ns) ax); assumption. }
      transitivity (qsum (fun e => v e * G (pos e)) (cells_of Ns)).
      2:{ assert (Hcc := Vc).
          rewrite (qsum_single _ (cells_of Ns) c (cells_of_NoDup _) Hcc).
          - rewrite GW by exact Hcc. destruct (list_eq_dec Z.eq_dec c c); [ring|contradiction].
          - intros b Hb Ne. rewrite GW by exact Hb. destruct (list_eq_dec Z.eq_dec b c); [contradiction|ring]. }
      rewrite (mesh_sum _ _ _ OK).
      rewrite (combine_concat' q' vs Lvq). rewrite <- flat_map_concat_map, qsum_flat_map.
      rewrite <- (map_seq_eq q' [] (fun r => nth r q' []) P Lq') by (intros; reflexivity).
      rewrite <- (map_seq_eq vs [] (fun r => nth r vs []) P Lv) by (intros; reflexivity).
      rewrite combine_map_map, qsum_map. fold P. apply qsum_ext_in. intros s Hs. apply in_seq in Hs. cbn [fst snd].
      assert (Hs' : (s < P)%nat) by lia.
      rewrite Nq' by exact Hs'.
      rewrite <- (elements_shape pts bs fields Hstf s Hs').
      destruct (V s Hs') as (V1 & V2).
      apply (qsum_pairs (fun idx => pos (zadd idx (block_start (i_edges pts) (block bs s)))) G
        (fun idx => v (zadd idx (block_start (i_edges pts) (block bs s))))).
      * exact V1.
      * intros k z0 Hkk. rewrite (V2 k Hkk). rewrite (nth_indep _ z0 []) by exact Hkk. apply Hf; [lia|]. apply nth_In. exact Hkk.
Qed.
Print Assumptions C66_ctranspose.

(** 2 x 3 cells split along the first axis to 3 x 2 cells split along the first axis *)
Definition tr_pt (n m k : Z) : partition :=
  {| i_edges := [[0; m; n]; [0; k]]%Z; local_i_start := [[0; 0]; [m; 0]]%Z; local_i_shape := [[m - 0; k - 0]; [n - m; k - 0]]%Z |}.
Lemma tr_ok n m k : (0 < m < n)%Z -> (0 < k)%Z -> mesh_ok [n; k] (tr_pt n m k) [[0; 0]; [1; 0]]%Z.
Proof.
  intros H K. split; auto.
  - simpl. lia.
  - repeat constructor; simpl; try lia; sorted_z.
Qed.
Lemma tr_world n m k a b w : (0 < m < n)%Z -> (0 < k)%Z ->
  world [n; k] (Array [a; b]) [a; b] w (tr_pt n m k) [[0; 0]; [1; 0]]%Z (map (mesh_pm [n; k] (tr_pt n m k) [[0; 0]; [1; 0]]%Z [a; b] w) (seq 0 2)).
Proof.
  intros H K. assert (OK := tr_ok n m k H K).
  assert (D : distinct_starts (i_edges (tr_pt n m k))).
  { repeat constructor; intros i j Hi Hj; destruct i as [|[|[|]]], j as [|[|[|]]]; simpl in *; lia. }
  split; auto.
  - left. repeat constructor; intros [|[|[|]]] Hk; simpl in *; lia.
  - rewrite map_map. apply (ParticleMesh_ok _ _ _ OK); auto.
Qed.
Definition tr_field (s : list Z) (d : Z -> Q) : field := {| f_array := c_array s; f_data := d |}.
Example C66_case :
  let srcs := map (mesh_pm [2; 3]%Z (tr_pt 2 1 3) [[0; 0]; [1; 0]]%Z [4; 9] ex_cic) (seq 0 2) in
  let fields := [tr_field [1; 3]%Z inject_Z; tr_field [1; 3]%Z (fun a => 10 + inject_Z a)] in
  let outs := [tr_field [1; 2]%Z (fun _ => 5); tr_field [2; 2]%Z (fun _ => 6)] in
  cells_after outs (ctranspose srcs (tr_pt 3 1 2) fields outs [1; 0]%Z) = [[0; 10]; [1; 11; 2; 12]] /\
  exists ms, ctranspose srcs (tr_pt 3 1 2) fields outs [1; 0]%Z = map Ret ms /\ elem (c_array [2; 2]%Z) (nth 1 ms (fun _ => 0)) [1; 0]%Z == 2.
Proof.
  cbv zeta. split; [vm_compute; reflexivity|].
  destruct (C66_ctranspose _ _ _ _ _ _ _ (tr_world 2 1 3 4 9 ex_cic ltac:(lia) ltac:(lia)) ltac:(repeat constructor; discriminate)
    [1; 0]%nat ltac:(apply perm_swap) (tr_pt 3 1 2) [[0; 0]; [1; 0]]%Z (tr_ok 3 1 2 ltac:(lia) ltac:(lia))
    (wd_starts _ _ _ _ _ _ _ (tr_world 3 1 2 1 1 ex_cic ltac:(lia) ltac:(lia))) (wd_order _ _ _ _ _ _ _ (tr_world 3 1 2 1 1 ex_cic ltac:(lia) ltac:(lia))) eq_refl
    [tr_field [1; 3]%Z inject_Z; tr_field [1; 3]%Z (fun a => 10 + inject_Z a)] (fun c => inject_Z (10 * nth 0 c 0 + nth 1 c 0)%Z)
    [tr_field [1; 2]%Z (fun _ => 5); tr_field [2; 2]%Z (fun _ => 6)] (fun c => if (nth 0 c 0 =? 0)%Z then 5 else 6)) as (ms & E & L & X).
  - split; [reflexivity|]. intros r Hr. destruct r as [|[|r]]; [| |simpl in Hr; lia]; (split; [apply c_array_stored; repeat constructor; lia|]);
      intros idx Hi; vm_compute in Hi; repeat (destruct Hi as [<- | Hi]; [reflexivity|]); contradiction.
  - split; [reflexivity|]. intros r Hr. destruct r as [|[|r]]; [| |simpl in Hr; lia]; (split; [apply c_array_stored; repeat constructor; lia|]);
      intros idx Hi; vm_compute in Hi; repeat (destruct Hi as [<- | Hi]; [reflexivity|]); contradiction.
  - exists ms. split; [exact E|]. apply (X 1%nat [1; 0]%Z [0; 2]%Z); [simpl; lia| | |reflexivity].
    + vm_compute. auto.
    + vm_compute. auto.
Qed.

(** the check of the axes lets [1, -1] pass: the values pile up on the diagonal *)
Theorem C66_negative_refuted :
  let srcs := map (mesh_pm [2; 2]%Z (tr_pt 2 1 2) [[0; 0]; [1; 0]]%Z [2; 2] ex_cic) (seq 0 2) in
  let fields := [tr_field [1; 2]%Z inject_Z; tr_field [1; 2]%Z (fun a => 10 + inject_Z a)] in
  let outs := [tr_field [1; 2]%Z (fun _ => 0); tr_field [1; 2]%Z (fun _ => 0)] in
  world [2; 2]%Z (Array [2; 2]) [2; 2] ex_cic (tr_pt 2 1 2) [[0; 0]; [1; 0]]%Z srcs /\
  full_rank 2 [1; -1]%Z = true /\
  cells_after outs (ctranspose srcs (tr_pt 2 1 2) fields outs [1; -1]%Z) = [[10; 0]; [0; 12]].
Proof. cbv zeta. split; [apply tr_world; lia|]. split; vm_compute; reflexivity. Qed.
Print Assumptions C66_negative_refuted.

(** negative axes count from the end: the same as the axes they stand for, as long as the last
    axis itself is not written that way *)
Theorem C66_negative : forall srcs p ptd fields outs axes, In p srcs -> (forall q, In q srcs -> pm_Nmesh q = pm_Nmesh p) ->
  let nd := length (pm_Nmesh p) in let nz := Z.of_nat nd in
  Forall (fun a => - nz <= a < nz)%Z axes -> In (nz - 1)%Z axes ->
  Permutation (map (fun a => Z.to_nat (a mod nz)) axes) (seq 0 nd) ->
  ctranspose srcs ptd fields outs axes = ctranspose srcs ptd fields outs (map (fun a => a mod nz)%Z axes).
Proof.
  intros srcs p ptd fields outs axes Hp He nd nz F HI HP.
  destruct srcs as [|p0 ps]; [destruct Hp|]. unfold ctranspose. rewrite (He p0 (or_introl eq_refl)). fold nd.
  assert (H0 : (0 < nz)%Z) by (rewrite Forall_forall in F; specialize (F _ HI); lia).
  assert (E : map (fun a => a mod nz)%Z axes = map Z.of_nat (map (fun a => Z.to_nat (a mod nz)) axes)).
  { rewrite map_map. apply map_ext. intros a. rewrite Z2Nat.id; [reflexivity|]. apply Z.mod_pos_bound. exact H0. }
  assert (R1 : full_rank nd (map (fun a => a mod nz)%Z axes) = true) by (rewrite E; apply full_rank_perm; [lia|exact HP]).
  assert (R2 : full_rank nd axes = true).
  { unfold full_rank. assert (ND : NoDup axes).
    { apply (NoDup_map_inv (fun a => Z.to_nat (a mod nz))). apply (Permutation_NoDup (Permutation_sym HP)), seq_NoDup. }
    rewrite (nodup_fixed_point _ ND). pose proof (Permutation_length HP) as L. rewrite map_length, seq_length in L. rewrite L, Nat.eqb_refl. cbn [andb].
    apply andb_true_intro. split.
    - apply existsb_exists. exists (nz - 1)%Z. split; [exact HI|]. apply Z.eqb_refl.
    - apply forallb_forall. intros a Ha. rewrite Forall_forall in F. specialize (F a Ha). apply Z.leb_le. unfold nz in *. lia. }
  assert (S : sequence (map (axis_index nd) axes) = sequence (map (axis_index nd) (map (fun a => a mod nz)%Z axes))).
  { rewrite map_map. f_equal. apply map_ext_in. intros a Ha. rewrite Forall_forall in F. specialize (F a Ha). unfold axis_index. fold nz.
    pose proof (Z.mod_pos_bound a nz H0) as B. destruct (Z.leb_spec 0 (a mod nz)); [|lia]. destruct (Z.ltb_spec (a mod nz) nz); [|lia]. cbn [andb].
    destruct (Z.leb_spec 0 a).
    - destruct (Z.ltb_spec a nz); [|lia]. cbn [andb]. rewrite Z.mod_small by lia. reflexivity.
    - cbn [andb]. destruct (Z.leb_spec (- nz) a); [|lia]. destruct (Z.ltb_spec a 0); [|lia]. cbn [andb]. do 2 f_equal.
      apply (Z.mod_unique_pos a nz (-1) (a + nz)); lia. }
  rewrite R1, R2, S. reflexivity.
Qed.
Print Assumptions C66_negative.
(** written as -1, the last axis is refused *)
Theorem C66_last_axis : forall srcs p ptd fields outs axes, In p srcs -> (forall q, In q srcs -> pm_Nmesh q = pm_Nmesh p) ->
  ~ In (Z.of_nat (length (pm_Nmesh p)) - 1)%Z axes ->
  ctranspose srcs ptd fields outs axes = map (fun _ => Raise AssertionError) srcs.
Proof.
  intros srcs p ptd fields outs axes Hp He H. destruct srcs as [|p0 ps]; [destruct Hp|]. unfold ctranspose. rewrite (He p0 (or_introl eq_refl)).
  replace (full_rank (length (pm_Nmesh p)) axes) with false; [reflexivity|]. symmetry. unfold full_rank.
  destruct (existsb _ axes) eqn:X; [|now rewrite andb_false_r]. exfalso. apply H. apply existsb_exists in X. destruct X as (a & Ha & Ea). apply Z.eqb_eq in Ea.
  now subst a.
Qed.
Print Assumptions C66_last_axis.
Example C66_negative_case :
  let srcs := map (mesh_pm [2; 3]%Z (tr_pt 2 1 3) [[0; 0]; [1; 0]]%Z [4; 9] ex_cic) (seq 0 2) in
  let fields := [tr_field [1; 3]%Z inject_Z; tr_field [1; 3]%Z (fun a => 10 + inject_Z a)] in
  let outs := [tr_field [1; 2]%Z (fun _ => 5); tr_field [2; 2]%Z (fun _ => 6)] in
  cells_after outs (ctranspose srcs (tr_pt 3 1 2) fields outs [1; -2]%Z) = [[0; 10]; [1; 11; 2; 12]] /\
  ctranspose srcs (tr_pt 3 1 2) fields outs [-1; 0]%Z = [Raise AssertionError; Raise AssertionError].
Proof. cbv zeta. split; vm_compute; reflexivity. Qed.
