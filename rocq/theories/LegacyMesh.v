(** Model of the deprecated ParticleMesh, pmesh/particlemesh.py: construction, decompose,
    paint, readout and the coordinate arrays; property C79.

    Not modelled: the plans (see FourierModel.v for the transforms), timers, verbose output.
    [pfft.Partition] is the argument it is in MeshModel.v; its dtype plays no role. *)
From Coq Require Import List Arith ZArith QArith Qabs Qround Lia Lqa Bool Permutation Setoid Morphisms.
From Verif Require Import Base ListFacts LayoutModel LayoutSpec LayoutProofs LayoutModes LayoutMore WrapModel WrapProofs DomainModel DomainFill DomainGeom DomainTargets
  DomainHome DomainProperties QSum WindowModel WindowStencil WindowSpread WindowKernels WindowAxis WindowNative WindowApi WindowPoints
  WindowGrad WindowTranslate WindowProperties MeshModel MeshAssign MeshRoute MeshPaint MeshTile MeshDistributed MeshProperties
  LegacyModel LegacyProofs LegacyProperties LegacyTsc.
Import ListNotations.
Local Open Scope Q_scope.

(** one rank's object *)
Record old_pm := { op_Nmesh : Z; op_BoxSize : list Q; op_domain : grid; op_start : list Z }.
(** particlemesh.py:75-122: three dimensions, the default DomainAssign (domain.py:384-393) *)
Definition old_ParticleMesh (Nmesh : Z) (BoxSize : value Q) (pt : partition) : list (outcome old_pm) :=
  let P := length (local_i_start pt) in
  map (fun r =>
    bind (mkarr BoxSize 3) (fun box =>
    bind (GridND (map (map inject_Z) (i_edges pt)) (default_assign (Z.to_nat (prodz (domain_shape (i_edges pt)))) P)) (fun g =>
    Ret {| op_Nmesh := Nmesh; op_BoxSize := box; op_domain := g; op_start := nth r (local_i_start pt) [] |}))) (seq 0 P).
(** particlemesh.py:183-199 *)
Definition old_transform0 (p : old_pm) (x : list Q) : list Q :=
  map (fun bx => 1 * inject_Z (op_Nmesh p) / fst bx * snd bx) (combine (op_BoxSize p) x).
(** particlemesh.py:165-181 *)
Definition old_transform (p : old_pm) (x : list Q) : list Q :=
  map (fun ts => fst ts - inject_Z (snd ts)) (combine (old_transform0 p x) (op_start p)).
(** particlemesh.py:201-219 *)
Definition old_decompose (pms : list old_pm) (poss : list (list (list Q))) : list (outcome layout) :=
  let args := map (fun pp => bind (mkarr (Scalar 1) (length (g_edges (op_domain (fst pp))))) (fun sm =>
                     decompose (length pms) (op_domain (fst pp)) (old_transform0 (fst pp)) sm (snd pp))) (combine pms poss) in
  match all_ret args with
  | Some a => map Ret (layout_init a)
  | None => block_rest args
  end.
(** [cic.paint] with and without numba (cic.py:140-149), [tsc.paint] *)
Inductive brush := CicNumpy (size : nat) | CicNumba (size : nat) | TscNumba (size : nat).
(** what of mass enters: [mass * (Nmesh ** 3 / BoxSize.prod())], particlemesh.py:264 *)
Definition old_factor (p : old_pm) : Q := inject_Z (op_Nmesh p ^ 3) / fold_right Qmult 1 (op_BoxSize p).
Definition scaled (v : value Q) (c : Q) : value Q := match v with Scalar a => Scalar (a * c) | Array l => Array (map (fun a => a * c) l) end.
Definition default_mass (v : option (value Q)) : value Q := match v with None => Scalar 1 | Some v => v end.
(** particlemesh.py:235-265 on one rank, item size [isz] of the real array *)
Definition old_paint (b : brush) (isz : Z) (p : old_pm) (f : field) (pos : list (list Q)) (mass : option (value Q)) : memory * outcome unit :=
  let w := scaled (default_mass mass) (old_factor p) in
  match b with
  | CicNumpy size => np_paint size (f_array f) (f_data f) pos w false (Some (repeat (op_Nmesh p) 3)) (old_transform p)
  | CicNumba size => nb_paint size isz (f_array f) (f_data f) pos (Some w) false (Some (repeat (op_Nmesh p) 3)) (old_transform p)
  | TscNumba size => ts_paint size isz (f_array f) (f_data f) pos (Some w) false (Some (op_Nmesh p)) (old_transform p)
  end.
(** the standard steps: [pm.paint(layout.exchange(pos), layout.exchange(mass))] on all ranks *)
Definition old_zero : old_pm := {| op_Nmesh := 0; op_BoxSize := []; op_domain := mkGrid [] true [] []; op_start := [] |}.
Definition old_paint_all (b : brush) (isz : Z) (pms : list old_pm) (ls : list layout) (fields : list field)
    (poss : list (list (list Q))) (mass : wvalue) : list (memory * outcome unit) :=
  match all_ret (exchange_full ls poss), exchange_value ls mass with
  | Some lpos, Ret lmass =>
      map (fun r => old_paint b isz (nth r pms old_zero) (nth r fields zero_field) (nth r lpos []) (local_arg lmass r)) (seq 0 (length pms))
  | _, _ => map (fun f => (f_data f, Blocked)) fields
  end.
(** particlemesh.py:334-353 on one rank; always cic *)
Definition old_readout (numba : bool) (size : nat) (p : old_pm) (f : field) (pos : list (list Q)) : outcome (list Q) :=
  if numba then nb_readout size (f_array f) (f_data f) pos false (Some (repeat (op_Nmesh p) 3)) (old_transform p)
  else np_readout size (f_array f) (f_data f) pos false (Some (repeat (op_Nmesh p) 3)) (old_transform p).
(** [layout.gather(pm.readout(layout.exchange(pos)), mode='sum')] *)
Definition old_readout_all (numba : bool) (size : nat) (pms : list old_pm) (ls : list layout) (fields : list field)
    (poss : list (list (list Q))) : list (outcome (list Q)) :=
  match all_ret (exchange_full ls poss) with
  | Some lpos =>
      let locals := map (fun r => old_readout numba size (nth r pms old_zero) (nth r fields zero_field) (nth r lpos [])) (seq 0 (length pms)) in
      match all_ret locals with
      | Some values => gather_sum Qplus 0 ls values
      | None => block_rest locals
      end
  | None => block_rest (exchange_full ls poss)
  end.
(** particlemesh.py:136-140, in units of [2 pi / Nmesh]: the frequency of index [i] *)
Definition old_frequency (Nmesh i : Z) : Z := if (i >=? Nmesh / 2)%Z then (i - Nmesh)%Z else i.

(** ** The domains *)
Lemma assignment_order Nmesh pt blocks : mesh_ok Nmesh pt blocks -> blocks = all_blocks (i_edges pt) ->
  assignment pt blocks = seq 0 (length blocks).
Proof.
  intros OK Hb.
  assert (HP : Forall (fun d => 0 < d)%Z (domain_shape (i_edges pt))).
  { pose proof (edges_each Nmesh pt blocks OK) as HE. unfold domain_shape. apply Forall_forall. intros d Hd.
    apply in_map_iff in Hd as [e [<- He]]. rewrite Forall_forall in HE. specialize (HE e He). lia. }
  assert (EI : ilocals pt blocks = zrange 0 (length blocks)).
  { unfold ilocals. rewrite Hb at 1. unfold all_blocks.
    pose proof (ravel_box (domain_shape (i_edges pt)) HP) as R. unfold domain_shape in R at 2. rewrite map_map in R. rewrite R. f_equal.
    rewrite <- (P_prod Nmesh pt blocks OK). lia. }
  pose proof (domain_assign_spec (ilocals pt blocks) (ilocals_NoDup Nmesh pt blocks OK) (ilocals_bound Nmesh pt blocks OK)) as HS.
  cbv zeta in HS. rewrite EI in HS. rewrite zrange_length in HS. destruct HS as [HL HN].
  unfold assignment. rewrite EI. apply map_seq_eq with (d := 0%nat).
  - rewrite seq_length. reflexivity.
  - intros i Hi. specialize (HN i Hi). rewrite nth_zrange in HN by exact Hi. rewrite Z.add_0_l, Nat2Z.id in HN. rewrite HN.
    rewrite seq_nth by exact Hi. reflexivity.
Qed.

(** ** One rank *)
Lemma decompose_ext P g f f' sm pos : (forall x, f x = f' x) -> decompose P g f sm pos = decompose P g f' sm pos.
Proof.
  intros H. unfold decompose. rewrite (map_ext (fun x => particle_targets g sm (f x)) (fun x => particle_targets g sm (f' x))); [reflexivity|].
  intros x. rewrite H. reflexivity.
Qed.
Lemma copies_close args (y y' : list (list Q)) s i :
  (forall r, (r < length args)%nat -> Forall2 Qeq (nth r y []) (nth r y' [])) ->
  qsum (fun x => x) (copies args y s i) == qsum (fun x => x) (copies args y' s i).
Proof.
  intros H. unfold copies. rewrite !qsum_flat_map. apply qsum_ext_in. intros r Hr. apply in_seq in Hr.
  specialize (H r ltac:(lia)). rewrite !qsum_map, !qsum_filter.
  generalize (tags args r) as l. induction H as [|a b u v Hab _ IH]; intros l.
  - rewrite combine_nil. reflexivity.
  - destruct l as [|t l]; cbn [combine]; [reflexivity|]. rewrite !qsum_cons. cbn [fst snd]. apply Qplus_comp; [|apply IH].
    destruct (_ && _); [exact Hab|reflexivity].
Qed.

Section Mesh.
Variables (N : Z) (BoxSize : value Q) (box : list Q) (pt : partition) (blocks : list (list Z)).
Local Notation Nmesh := (repeat N 3).
Hypothesis (OK : mesh_ok Nmesh pt blocks) (Hb : blocks = all_blocks (i_edges pt)).
Hypothesis (Hbox : mkarr BoxSize 3 = Ret box) (Lbox : length box = 3%nat).
Local Notation edges := (i_edges pt).
Local Notation P := (length blocks).
Local Notation start r := (block_start edges (block blocks r)).
Local Notation shape r := (block_shape edges (block blocks r)).
Local Notation scale := (mesh_scale Nmesh box).
Definition old_at (r : nat) : old_pm := {| op_Nmesh := N; op_BoxSize := box; op_domain := mesh_grid pt blocks; op_start := start r |}.

Lemma old_made : old_ParticleMesh N BoxSize pt = map Ret (map old_at (seq 0 P)).
Proof.
  unfold old_ParticleMesh. rewrite Hbox. cbn [bind].
  assert (Lp : length (local_i_start pt) = P) by (rewrite (mk_start _ _ _ OK), map_length; reflexivity). rewrite Lp.
  rewrite <- (P_prod _ _ _ OK), Nat2Z.id. unfold default_assign. rewrite Nat.leb_refl.
  unfold GridND. rewrite force_some. cbn [bind]. rewrite map_map. apply map_ext_in. intros r Hr. apply in_seq in Hr.
  unfold old_at, mesh_grid. rewrite (assignment_order _ _ _ OK Hb). f_equal. f_equal.
  rewrite (mk_start _ _ _ OK). rewrite (nth_indep _ [] (block_start edges [])) by (rewrite map_length; lia).
  apply map_nth.
Qed.
Lemma scale_length : length scale = length Nmesh.
Proof. unfold mesh_scale. rewrite map_length, combine_length, repeat_length. lia. Qed.
Lemma old_transform0_eq r x : old_transform0 (old_at r) x = transform0 (whole_affine Nmesh scale) x.
Proof.
  unfold old_transform0, transform0, mesh_scale, old_at. cbn [op_Nmesh op_BoxSize whole_affine af_scale].
  clear Hbox. revert Lbox. generalize box as l. intros [|b1 [|b2 [|b3 [|b4 l]]]] L; try discriminate L.
  destruct x as [|x1 [|x2 [|x3 [|x4 y]]]]; reflexivity.
Qed.
Lemma old_transform_length r x : (r < P)%nat -> length x = 3%nat -> length (old_transform (old_at r) x) = 3%nat.
Proof.
  intros Hr Hx. unfold old_transform, old_transform0. rewrite map_length, combine_length, map_length, combine_length.
  cbn [op_BoxSize op_start old_at]. rewrite (block_start_length _ _ _ OK r Hr), repeat_length. lia.
Qed.
Lemma old_transform_nth r x i : (r < P)%nat -> length x = 3%nat -> (i < 3)%nat ->
  nth i (old_transform (old_at r) x) 0 == nth i x 0 * nth i scale 0 + inject_Z (- nth i (start r) 0%Z).
Proof.
  intros Hr Hx Hi. unfold old_transform. rewrite old_transform0_eq.
  pose proof (block_start_length _ _ _ OK r Hr) as Ls. rewrite repeat_length in Ls.
  assert (Lt : length (transform0 (whole_affine Nmesh scale) x) = 3%nat).
  { rewrite transform0_length. cbn [af_scale whole_affine]. rewrite scale_length, repeat_length. lia. }
  cbn [op_start old_at].
  rewrite (nth_map_in _ _ i 0 (0, 0%Z)) by (rewrite combine_length; lia).
  rewrite combine_nth by lia. cbn [fst snd].
  unfold transform0. cbn [af_scale whole_affine].
  rewrite (nth_map_in _ _ i 0 (0, 0)) by (rewrite combine_length, scale_length, repeat_length; lia).
  rewrite combine_nth by (rewrite scale_length, repeat_length; lia). cbn [fst snd]. rewrite inject_Z_opp. ring.
Qed.

Section Rank.
Variables (w : window) (real : array) (r : nat).
Hypothesis (Hw : cic_window w) (Hr : (r < P)%nat) (HR : stored real (shape r)).
Local Notation pl := (painter_of w real (affine_at Nmesh pt blocks scale r) None).
Local Notation pu := (painter_of w real (mesh_units 3 0 Nmesh) None).
Lemma real_3 : length (ar_shape real) = 3%nat.
Proof. rewrite (proj1 HR), (block_shape_length _ _ _ OK r Hr). apply repeat_length. Qed.
Lemma real_ok : array_ok real.
Proof. pose proof real_3 as H. destruct HR as [A [B C]]. unfold array_ok. rewrite B, <- A. repeat split; [lia|assumption]. Qed.
Lemma N_pos : (0 < N)%Z.
Proof.
  pose proof (mk_edges _ _ _ OK) as H. cbn [repeat] in H. inversion H as [|? ? ? ? H1 _]. destruct H1 as [A _]. exact A.
Qed.
Lemma periods_3 : periods_fit (length (ar_shape real)) (Some Nmesh).
Proof.
  cbn. rewrite real_3. split; [reflexivity|]. pose proof N_pos. repeat apply Forall_cons; try apply Forall_nil; assumption.
Qed.
Lemma affine_3 : Affine (length (ar_shape real)) None None (option_map Array (Some Nmesh)) = Ret (mesh_units 3 0 Nmesh).
Proof. rewrite real_3. reflexivity. Qed.
Lemma wf_units : wf_call real (mesh_units 3 0 Nmesh).
Proof. rewrite <- real_3. apply mesh_units_wf; [exact real_ok|]. rewrite real_3. apply repeat_length. Qed.
Lemma wf_rank : wf_call real (affine_at Nmesh pt blocks scale r).
Proof. exact (wf_local _ _ _ OK scale real r scale_length Hr HR). Qed.
Lemma cic_proper : proper_kind (w_kind w).
Proof. destruct Hw as [[E|E] _]; rewrite E; apply standard_proper; exact Logic.I. Qed.
Lemma wrapped_points p h a x : proper_kind (pt_kind p) -> (0 < ax_period a)%Z -> moved a 0 (axis_points p h a x) = axis_points p h a x.
Proof.
  intros Hk Ha. pose proof (axis_points_in_period p h a x Hk Ha) as H. unfold moved.
  rewrite <- (map_id (axis_points p h a x)) at 2. apply map_ext_in. intros [j q] Hin. rewrite Forall_forall in H. specialize (H _ Hin).
  cbn [fst snd] in *. f_equal. unfold wrap_axis. rewrite Z.add_0_r. destruct (ax_period a >? 0)%Z; [|reflexivity].
  apply Z.mod_small. exact H.
Qed.
Lemma rank_weight_units h x idx : length x = 3%nat -> In idx (elements real) ->
  weight_of pu h (old_transform (old_at r) x) idx == weight_of pl h x idx.
Proof.
  intros Hx Hin. pose proof (elements_length _ _ Hin) as Li.
  rewrite weight_of_prod; [|exact wf_units|rewrite real_3; apply old_transform_length; assumption|exact Li].
  rewrite weight_of_prod; [|exact wf_rank|rewrite real_3; exact Hx|exact Li].
  rewrite real_3. apply qprod_map_ext. intros i Hi. apply in_seq in Hi. assert (Hi' : (i < 3)%nat) by lia.
  rewrite (axis_points_call w real (affine_at Nmesh pt blocks scale r) (mesh_units 3 0 Nmesh) None None h wf_rank wf_units).
  set (a := axis_of real (affine_at Nmesh pt blocks scale r) None i).
  assert (Pa : ax_period a = N). { unfold a. cbn [axis_of ax_period affine_at af_period]. apply nth_repeat_in. exact Hi'. }
  assert (D : displaced a (nth i x 0) (axis_of real (mesh_units 3 0 Nmesh) None i) (nth i (old_transform (old_at r) x) 0) 0).
  { split; [reflexivity|]. split; [reflexivity|]. split.
    - left. unfold a. cbn [axis_of ax_order]. rewrite order_spec_nth by (rewrite real_3; exact Hi'). reflexivity.
    - unfold grid_pos, a. cbn [axis_of ax_scale ax_translate affine_at mesh_units af_scale af_translate].
      rewrite (old_transform_nth r x i Hr Hx Hi'). rewrite !nth_repeat_in by exact Hi'.
      pose proof (block_start_length _ _ _ OK r Hr) as Ls. rewrite repeat_length in Ls.
      rewrite (nth_map_in _ (start r) i 0 0%Z) by lia. ring. }
  pose proof N_pos as HN.
  pose proof (axis_points_translate pl h a _ _ _ 0 cic_proper ltac:(lia) D) as T.
  rewrite (pair_eq_wsum _ _ _ T). rewrite wrapped_points; [reflexivity|exact cic_proper|lia].
Qed.
Lemma moved_wf pos : Forall (fun x => length x = 3%nat) pos -> wf_pos real (map (old_transform (old_at r)) pos).
Proof.
  intros H. unfold wf_pos. apply Forall_map. rewrite real_3. eapply Forall_impl; [|exact H]. intros x Hx. apply old_transform_length; assumption.
Qed.
(** the brushes the modern cic window is compared with *)
Definition cic_brush (b : brush) (isz : Z) : Prop :=
  match b with CicNumpy size => (0 < size)%nat | CicNumba size => (0 < size)%nat /\ contiguous isz real = true | TscNumba _ => False end.
Lemma old_paint_local b isz m pos weights n : cic_brush b isz -> Forall (fun x => length x = 3%nat) pos -> length pos = n ->
  arg_fits weights n ->
  exists m1, old_paint b isz (old_at r) {| f_array := real; f_data := m |} pos weights = (m1, Ret tt) /\
    forall idx, In idx (elements real) -> elem real m1 idx == elem real m idx +
      qsum (fun i => nth i (values_of weights n) 0 * old_factor (old_at r) * weight_of pl 1 (nth i pos []) idx) (seq 0 n).
Proof.
  intros HB Hp Ln Hf. set (c := old_factor (old_at r)). set (ws := scaled (default_mass weights) c).
  assert (Wf : weights_fit ws (length pos)).
  { rewrite Ln. unfold weights_fit, ws. destruct weights as [[a|l]|]; cbn in *; rewrite ?map_length; auto. }
  assert (Wv : forall i, (i < n)%nat -> nth i (values_of (Some ws) n) 0 == nth i (values_of weights n) 0 * c).
  { intros i Hi. unfold ws. destruct weights as [[a|l]|]; cbn [default_mass scaled values_of]; cbn in Hf.
    - rewrite !nth_repeat_in by exact Hi. reflexivity.
    - rewrite (nth_map_in _ l i 0 0) by lia. reflexivity.
    - rewrite !nth_repeat_in by exact Hi. reflexivity. }
  assert (Key : forall m0, window_paint w real m (map (old_transform (old_at r)) pos) None (Some ws) None (Some (mesh_units 3 0 Nmesh)) = Ret m0 ->
     forall idx, In idx (elements real) -> elem real m0 idx == elem real m idx +
      qsum (fun i => nth i (values_of weights n) 0 * c * weight_of pl 1 (nth i pos []) idx) (seq 0 n)).
  { intros m0 E idx Hin. rewrite window_paint_values in E; [|exact Logic.I|exact Logic.I|rewrite map_length; exact Wf].
    injection E as <-.
    rewrite (paint_all_elem w real _ None wf_units (cic_window_kind w Hw)); [|exact (moved_wf pos Hp)| | |exact Hin].
    - rewrite !map_length, Ln. apply Qplus_comp; [reflexivity|]. apply qsum_ext_in. intros i Hi. apply in_seq in Hi.
      rewrite (Wv i ltac:(lia)). cbn [values_of]. rewrite nth_repeat_in by lia.
      rewrite (nth_map_in _ pos i [] []) by lia. rewrite rank_weight_units; [reflexivity| |exact Hin].
      rewrite Forall_forall in Hp. apply Hp, nth_In. lia.
    - apply (values_of_length (Some ws)). rewrite map_length. exact Wf.
    - cbn [values_of]. rewrite repeat_length. reflexivity. }
  pose proof (fun size Hs => C77_paint w real (Some Nmesh) (old_transform (old_at r)) _ Hw real_ok periods_3 affine_3 m pos
     (moved_wf pos Hp) size size isz ws (Some ws) Hs Hs Wf (or_introl eq_refl)) as C.
  destruct b as [size|size|size]; [| |contradiction].
  - destruct (C size HB) as (m0 & E0 & (m1 & E1 & H1) & _). exists m1. split; [exact E1|].
    intros idx Hin. rewrite <- (Key m0 E0 idx Hin). unfold elem. apply H1.
  - destruct HB as [HB HC]. destruct (C size HB) as (m0 & E0 & _ & H2). destruct (H2 HC) as (m2 & E2 & H2').
    exists m2. split; [exact E2|]. intros idx Hin. rewrite <- (Key m0 E0 idx Hin). unfold elem. apply H2'.
Qed.
Lemma old_readout_local numba size m pos n : (0 < size)%nat -> Forall (fun x => length x = 3%nat) pos -> length pos = n ->
  exists v, old_readout numba size (old_at r) {| f_array := real; f_data := m |} pos = Ret v /\
    Forall2 Qeq v (map (fun i => readout_at pl m (nth i pos []) 1) (seq 0 n)).
Proof.
  intros Hs Hp Ln.
  destruct (C77_readout w real (Some Nmesh) (old_transform (old_at r)) _ Hw real_ok periods_3 affine_3 m pos (moved_wf pos Hp) size size Hs Hs)
    as (v0 & v1 & v2 & E0 & E1 & E2 & H1 & H2).
  assert (H0 : Forall2 Qeq v0 (map (fun i => readout_at pl m (nth i pos []) 1) (seq 0 n))).
  { rewrite window_readout_values in E0; [|exact Logic.I|exact Logic.I]. injection E0 as <-. rewrite map_length, Ln.
    apply F2_map. intros i Hi. apply in_seq in Hi. cbn [values_of]. rewrite nth_repeat_in by lia.
    rewrite (nth_map_in _ pos i [] []) by lia.
    assert (Lx : length (nth i pos []) = 3%nat) by (rewrite Forall_forall in Hp; apply Hp, nth_In; lia).
    rewrite (readout_elements w real _ None m _ 1 wf_units (cic_window_kind w Hw)) by (rewrite real_3; apply old_transform_length; assumption).
    rewrite (readout_elements w real _ None m _ 1 wf_rank (cic_window_kind w Hw)) by (rewrite real_3; exact Lx).
    apply qsum_ext_in. intros idx Hin. rewrite rank_weight_units by assumption. reflexivity. }
  assert (T : forall a b c, Forall2 Qeq a b -> Forall2 Qeq b c -> Forall2 Qeq a c).
  { intros a b c Hab. revert c. induction Hab; intros c Hbc; inversion Hbc; subst; constructor; [etransitivity; eassumption|auto]. }
  destruct numba.
  - exists v2. split; [exact E2|]. exact (T _ _ _ H2 H0).
  - exists v1. split; [exact E1|]. exact (T _ _ _ H1 H0).
Qed.
End Rank.

(** ** All ranks *)
Variables (poss : list (list (list Q))).
Hypothesis (Hposs : length poss = P) (Hdims : Forall (Forall (fun x => length x = 3%nat)) poss).
Hypothesis (Hroom : room Nmesh pt (repeat 1 3)).
Local Notation pms := (map old_at (seq 0 P)).
Lemma ones_fit : length (repeat 1 3) = length Nmesh /\ Forall (fun s => 0 <= s) (repeat 1 3).
Proof. split; [reflexivity|]. cbn. repeat apply Forall_cons; try apply Forall_nil; lra. Qed.
Lemma old_decomposed : exists args, old_decompose pms poss = map Ret (layout_init args) /\
  length args = P /\ wf_args args /\ sent_lengths args poss /\
  forall s r, (s < P)%nat -> (r < P)%nat -> addr args s r = sent_to (receivers Nmesh pt blocks scale (repeat 1 3)) (nth s poss []) r.
Proof.
  destruct ones_fit as [L1 L2].
  destruct (routed_args Nmesh pt blocks OK scale (repeat 1 3) scale_length L1 L2 poss Hposs) as (args & E & A1 & A2 & A3 & A4).
  { eapply Forall_impl; [|exact Hdims]. intros l. rewrite repeat_length. auto. }
  exists args. split; [|auto]. unfold old_decompose.
  assert (E' : map (fun pp => bind (mkarr (Scalar 1) (length (g_edges (op_domain (fst pp))))) (fun sm =>
       decompose (length pms) (op_domain (fst pp)) (old_transform0 (fst pp)) sm (snd pp))) (combine pms poss) = map Ret args).
  { rewrite <- E. rewrite <- (map_nth_seq poss [] P Hposs) at 1 2. rewrite combine_map_map, !map_map. apply map_ext_in. intros r Hr.
    cbn [fst snd op_domain old_at]. unfold mkarr. cbn [bind]. rewrite map_length, seq_length.
    replace (length (g_edges (mesh_grid pt blocks))) with 3%nat.
    - apply decompose_ext. apply old_transform0_eq.
    - cbn [g_edges mesh_grid]. rewrite (qedges_length _ _ _ OK). rewrite repeat_length. reflexivity. }
  rewrite E', all_ret_Ret. reflexivity.
Qed.

Variables (w : window) (fs : list field).
Hypothesis (Hw : cic_window w) (Lfs : length fs = P).
Hypothesis (Hstored : forall r, (r < P)%nat -> stored (f_array (nth r fs zero_field)) (shape r)).
Local Notation arr r := (f_array (nth r fs zero_field)).
Lemma poss_3 : Forall (Forall (fun x => length x = length Nmesh)) poss.
Proof. eapply Forall_impl; [|exact Hdims]. intros l. rewrite repeat_length. auto. Qed.
Lemma cic_extent s i : (s < P)%nat -> (i < length (nth s poss []))%nat ->
  within w (val WNone s (s, i)) /\ forall a, (a < length Nmesh)%nat -> inject_Z (extent w (val WNone s (s, i))) / 2 <= nth a (repeat 1 3) 0.
Proof.
  intros Hs Hi. pose proof (cic_window_support w Hw) as S2. cbn [val]. split.
  - apply within_one. lia.
  - intros a Ha. rewrite repeat_length in Ha. rewrite extent_one by lia. rewrite S2. rewrite nth_repeat_in by exact Ha.
    vm_compute. discriminate.
Qed.
(** the mass times the factor *)
Definition wscaled (mass : wvalue) (c : Q) : wvalue :=
  match mass with WNone => WScalar (repeat (1 * c) P) | WScalar l => WScalar (map (fun a => a * c) l) | WArray l => WArray (map (map (fun a => a * c)) l) end.
Lemma wscaled_wf mass c : wf_wvalue poss mass -> wf_wvalue poss (wscaled mass c).
Proof.
  destruct mass as [|l|l]; cbn; intros H.
  - rewrite repeat_length. symmetry. exact Hposs.
  - rewrite map_length. exact H.
  - rewrite map_map. rewrite <- H. apply map_ext. intros a. apply map_length.
Qed.
Lemma wscaled_uniform mass c : uniform mass -> uniform (wscaled mass c).
Proof.
  destruct mass as [|l|l]; cbn; intros H; [| |exact Logic.I].
  - rewrite repeat_length. intros a b Ha Hb'. rewrite !nth_repeat_in by assumption. reflexivity.
  - rewrite map_length. intros a b Ha Hb'. rewrite !(nth_map_in _ l _ 0 0) by assumption. rewrite (H a b Ha Hb'). reflexivity.
Qed.
Lemma wscaled_whole mass c : wf_wvalue poss mass -> (0 < P)%nat ->
  whole_arg (wscaled mass c) = Some (scaled (default_mass (whole_arg mass)) c).
Proof.
  destruct mass as [|l|l]; cbn; intros H HP.
  - rewrite nth_repeat_in by exact HP. reflexivity.
  - rewrite (nth_map_in _ l 0%nat 0 0) by (rewrite H, Hposs; exact HP). reflexivity.
  - rewrite concat_map. reflexivity.
Qed.
Lemma wscaled_val mass c r t : wf_wvalue poss mass -> (r < P)%nat -> In t (all_tags poss) -> val (wscaled mass c) r t == val mass r t * c.
Proof.
  destruct mass as [|l|l]; cbn; intros H Hr Ht.
  - rewrite nth_repeat_in by exact Hr. reflexivity.
  - rewrite (nth_map_in _ l r 0 0) by (rewrite H, Hposs; exact Hr). reflexivity.
  - apply all_tags_in in Ht. destruct Ht as [A B]. unfold pick.
    assert (Ll : length l = length poss) by (rewrite <- (map_length (@length Q)), H, map_length; reflexivity).
    rewrite (nth_map_in _ l (fst t) [] []) by lia.
    assert (Lr : length (nth (fst t) l []) = length (nth (fst t) poss [])).
    { rewrite <- (map_nth (@length Q) l [] (fst t)), H. apply (map_nth (@length _) poss [] (fst t)). }
    rewrite (nth_map_in _ _ (snd t) 0 0) by lia. reflexivity.
Qed.
Lemma blocks_pos : (0 < P)%nat.
Proof.
  pose proof (P_prod _ _ _ OK) as H. pose proof (edges_each _ _ _ OK) as HE.
  assert (0 < prodz (domain_shape edges))%Z; [|lia].
  unfold prodz, domain_shape. clear -HE. induction HE as [|e l He _ IH]; cbn [map fold_right]; [lia|].
  apply Z.mul_pos_pos; [lia|exact IH].
Qed.

Theorem paint_all_old b isz mass whole wm : (forall r, (r < P)%nat -> cic_brush (arr r) b isz) ->
  wf_wvalue poss mass -> uniform mass -> stored whole Nmesh ->
  (forall r idx, (r < P)%nat -> In idx (elements (arr r)) -> elem whole wm (zadd idx (start r)) == elem (arr r) (f_data (nth r fs zero_field)) idx) ->
  exists ls ms wm',
    old_decompose pms poss = map Ret ls /\
    old_paint_all b isz pms ls fs poss mass = map (fun m => (m, Ret tt)) ms /\ length ms = P /\
    window_paint w whole wm (concat poss) None (Some (scaled (default_mass (whole_arg mass)) (old_factor (old_at 0)))) None
      (Some (whole_affine Nmesh scale)) = Ret wm' /\
    forall r idx, (r < P)%nat -> In idx (elements (arr r)) ->
      elem (arr r) (nth r ms (fun _ => 0)) idx == elem whole wm' (zadd idx (start r)).
Proof.
  intros HB Hm Um Hwhole Hinit. destruct old_decomposed as (args & E & A1 & A2 & A3 & A4).
  set (c := old_factor (old_at 0)).
  destruct ones_fit as [L1 L2].
  pose proof (wscaled_wf mass c Hm) as Sm.
  assert (Lts : length (rank_affines Nmesh pt blocks scale) = length args) by (unfold rank_affines; rewrite map_length, seq_length; lia).
  destruct (paint_matches Nmesh pt blocks OK scale (repeat 1 3) w None scale_length L1 L2 Hroom (or_intror Hb) (cic_proper w Hw) Logic.I
    poss Hposs poss_3 args A1 A2 A3 A4 WNone Logic.I Logic.I cic_extent fs whole wm Lfs Hstored Hwhole
    [] (Some w) (Some (rank_affines Nmesh pt blocks scale)) true (wscaled mass c) eq_refl eq_refl Sm (wscaled_uniform mass c Um) Hinit)
    as (ms0 & wm' & E0 & L0 & Ew & H0).
  destruct (pm_paint_elem args poss A2 A3 w (rank_affines Nmesh pt blocks scale) None (cic_window_kind w Hw) Lts fs true ltac:(lia)
    (ranks_ok Nmesh pt blocks OK scale None scale_length Logic.I poss poss_3 args A1 fs Hstored)
    [] (Some w) (Some (rank_affines Nmesh pt blocks scale)) WNone (wscaled mass c) eq_refl eq_refl Logic.I Sm) as (ms1 & E1 & _ & H1).
  rewrite E0 in E1. apply map_Ret_inj in E1. subst ms1.
  rewrite (wscaled_whole mass c Hm blocks_pos) in Ew.
  exists (layout_init args).
  set (F := fun r => old_paint b isz (nth r pms old_zero) (nth r fs zero_field) (map (pick [] poss) (tags args r)) (local_arg (received args mass) r)).
  assert (Loc : forall r, (r < P)%nat -> exists m1, F r = (m1, Ret tt) /\
     forall idx, In idx (elements (arr r)) -> elem (arr r) m1 idx == elem (arr r) (nth r ms0 (fun _ => 0)) idx).
  { intros r Hr. destruct (local_values args poss A3 mass r Hm ltac:(lia)) as [V1 V2]. cbv zeta in V1, V2.
    assert (Ep : nth r pms old_zero = old_at r) by (apply nth_map_seq; exact Hr).
    assert (Tin : forall t, In t (tags args r) -> In t (all_tags poss)).
    { intros t Ht. destruct (tags_bound args poss A2 A3 r t Ht) as [T1 T2]. destruct t as [s i]. cbn [fst snd] in *. apply in_all_tags; [lia|assumption]. }
    destruct (old_paint_local w (arr r) r Hw Hr (Hstored r Hr) b isz (f_data (nth r fs zero_field)) (map (pick [] poss) (tags args r))
      (local_arg (received args mass) r) (length (tags args r)) (HB r Hr)) as (m1 & Em & Hm1).
    - apply Forall_map, Forall_forall. intros t Ht. specialize (Tin t Ht). apply all_tags_in in Tin. unfold pick.
      rewrite Forall_forall in Hdims. specialize (Hdims _ (nth_In poss [] (proj1 Tin))). rewrite Forall_forall in Hdims.
      apply Hdims, nth_In. apply Tin.
    - apply map_length.
    - exact V1.
    - exists m1. split.
      + unfold F. rewrite Ep. rewrite <- Em. destruct (nth r fs zero_field); reflexivity.
      + intros idx Hin. rewrite (Hm1 idx Hin), (H1 r idx ltac:(lia) Hin). apply Qplus_comp; [reflexivity|].
        rewrite V2.
        match goal with |- _ == qsum ?g _ => transitivity (qsum g (map (fun i => nth i (tags args r) (0,0)%nat) (seq 0 (length (tags args r)))));
          [|rewrite (map_nth_seq (tags args r) (0,0)%nat _ eq_refl); reflexivity] end.
        rewrite qsum_map. apply qsum_ext_in.
        intros i Hi. apply in_seq in Hi. rewrite (nth_map_in _ (tags args r) i 0 (0,0)%nat) by lia.
        rewrite (nth_map_in _ (tags args r) i [] (0,0)%nat) by lia.
        assert (Ti : In (nth i (tags args r) (0,0)%nat) (all_tags poss)) by (apply Tin, nth_In; lia).
        rewrite (wscaled_val mass c r _ Hm Hr Ti). cbn [val]. unfold rank_painter. rewrite nth_affine by exact Hr.
        reflexivity. }
  exists (map (fun r => fst (F r)) (seq 0 P)), wm'. split; [exact E|]. split; [|split; [rewrite map_length, seq_length; reflexivity|split; [exact Ew|]]].
  - unfold old_paint_all. rewrite (exchange_full_ok args poss A2 A3 [] poss eq_refl), all_ret_Ret, (exchange_value_ok args poss A2 A3 mass Hm).
    rewrite map_length, seq_length, map_map. apply map_ext_in. intros r Hr. apply in_seq in Hr.
    rewrite A1. rewrite (nth_map_seq (fun r => map (pick [] poss) (tags args r))) by lia. destruct (Loc r ltac:(lia)) as (m1 & Em & _). change (F r = (fst (F r), Ret tt)). rewrite Em. reflexivity.
  - intros r idx Hr Hin. rewrite nth_map_seq by exact Hr. destruct (Loc r Hr) as (m1 & Em & Hm1). rewrite Em. cbn [fst].
    rewrite (Hm1 idx Hin). apply H0; assumption.
Qed.

Theorem readout_all_old numba size whole wm : (0 < size)%nat -> stored whole Nmesh ->
  (forall r idx, (r < P)%nat -> In idx (elements (arr r)) -> elem whole wm (zadd idx (start r)) == elem (arr r) (f_data (nth r fs zero_field)) idx) ->
  exists ls vs,
    old_decompose pms poss = map Ret ls /\
    old_readout_all numba size pms ls fs poss = map Ret vs /\ length vs = P /\
    forall r, (r < P)%nat -> exists us,
      window_readout w whole wm (nth r poss []) None None (Some (whole_affine Nmesh scale)) = Ret us /\
      Forall2 Qeq (nth r vs []) us.
Proof.
  intros Hs Hwhole Hinit. destruct old_decomposed as (args & E & A1 & A2 & A3 & A4).
  destruct ones_fit as [L1 L2].
  assert (Lts : length (rank_affines Nmesh pt blocks scale) = length args) by (unfold rank_affines; rewrite map_length, seq_length; lia).
  destruct (readout_matches Nmesh pt blocks OK scale (repeat 1 3) w None scale_length L1 L2 Hroom (or_intror Hb) (cic_proper w Hw) Logic.I
    poss Hposs poss_3 args A1 A2 A3 A4 WNone Logic.I Logic.I cic_extent fs whole wm Lfs Hstored Hwhole
    [] (Some w) (Some (rank_affines Nmesh pt blocks scale)) eq_refl eq_refl Hinit) as (vs0 & E0 & L0 & H0).
  destruct (pm_readout_sum args poss A2 A3 w (rank_affines Nmesh pt blocks scale) None Lts fs ltac:(lia)
    (ranks_ok Nmesh pt blocks OK scale None scale_length Logic.I poss poss_3 args A1 fs Hstored)
    [] (Some w) (Some (rank_affines Nmesh pt blocks scale)) WNone eq_refl eq_refl Logic.I) as (vs1 & E1 & Lv & H1).
  rewrite E0 in E1. apply map_Ret_inj in E1. subst vs1.
  set (rd := fun r => map (read_at poss w (rank_affines Nmesh pt blocks scale) None fs WNone r) (tags args r)).
  set (F := fun r => old_readout numba size (nth r pms old_zero) (nth r fs zero_field) (map (pick [] poss) (tags args r))).
  assert (Loc : forall r, (r < P)%nat -> exists v, F r = Ret v /\ Forall2 Qeq v (rd r)).
  { intros r Hr. assert (Ep : nth r pms old_zero = old_at r) by (apply nth_map_seq; exact Hr).
    destruct (old_readout_local w (arr r) r Hw Hr (Hstored r Hr) numba size (f_data (nth r fs zero_field)) (map (pick [] poss) (tags args r))
      (length (tags args r)) Hs) as (v & Ev & Hv).
    - apply Forall_map, Forall_forall. intros t Ht. destruct (tags_bound args poss A2 A3 r t Ht) as [T1 T2]. unfold pick.
      rewrite Forall_forall in Hdims. specialize (Hdims _ (nth_In poss [] (eq_ind_r (fun n => (fst t < n)%nat) T1 (eq_trans Hposs (eq_sym A1))))). rewrite Forall_forall in Hdims.
      apply Hdims, nth_In. exact T2.
    - apply map_length.
    - exists v. split.
      + unfold F. rewrite Ep. rewrite <- Ev. destruct (nth r fs zero_field); reflexivity.
      + assert (Er : map (fun i => readout_at (painter_of w (arr r) (affine_at Nmesh pt blocks scale r) None) (f_data (nth r fs zero_field))
          (nth i (map (pick [] poss) (tags args r)) []) 1) (seq 0 (length (tags args r))) = rd r).
        { unfold rd. apply (map_seq_eq _ 0); [apply map_length|]. intros i Hi.
          rewrite (nth_map_in _ (tags args r) i 0 (0,0)%nat) by lia. rewrite (nth_map_in _ (tags args r) i [] (0,0)%nat) by lia.
          unfold read_at, rank_painter. rewrite nth_affine by exact Hr. reflexivity. }
        rewrite <- Er. exact Hv. }
  destruct (exists_list (fun r v => F r = Ret v /\ Forall2 Qeq v (rd r)) [] P Loc) as (y & Ly & Hy).
  assert (Ly' : forall r, (r < length args)%nat -> length (nth r y []) = length (tags args r)).
  { intros r Hr. destruct (Hy r ltac:(lia)) as [_ H2]. rewrite (Forall2_len _ _ _ H2). unfold rd. apply map_length. }
  destruct (sent_lengths_nth args poss A3) as [S1 S2].
  exists (layout_init args), (map (fun s => map (fun i => fold_left Qplus (copies args y s i) 0) (seq 0 (a_len (arg_at args s)))) (seq 0 P)).
  split; [exact E|]. split; [|split; [rewrite map_length, seq_length; reflexivity|]].
  - unfold old_readout_all. rewrite (exchange_full_ok args poss A2 A3 [] poss eq_refl), all_ret_Ret.
    assert (EF : map (fun r => old_readout numba size (nth r pms old_zero) (nth r fs zero_field)
        (nth r (map (fun r => map (pick [] poss) (tags args r)) (seq 0 (length args))) [])) (seq 0 (length pms)) = map Ret y).
    { rewrite map_length, seq_length. rewrite <- (map_nth_seq y [] P Ly), map_map. apply map_ext_in. intros r Hr. apply in_seq in Hr.
      rewrite A1. rewrite (nth_map_seq (fun r => map (pick [] poss) (tags args r))) by lia. apply (Hy r ltac:(lia)). }
    rewrite EF, all_ret_Ret. rewrite (gather_sum_ok args A2 Qplus 0 y ltac:(lia) Ly'). rewrite A1, map_map. reflexivity.
  - intros s Hs'. destruct (H0 s Hs') as (us & Eu & Hu). exists us. split; [exact Eu|].
    assert (Lns : length (nth s vs0 []) = length (nth s poss [])).
    { rewrite <- (map_nth (@length Q) vs0 [] s), Lv. apply (map_nth (@length _) poss [] s). }
    rewrite nth_map_seq by exact Hs'. rewrite <- (S2 s ltac:(lia)).
    assert (T : forall a b c, Forall2 Qeq a b -> Forall2 Qeq b c -> Forall2 Qeq a c).
    { intros a b c Hab. revert c. induction Hab; intros c0 Hbc; inversion Hbc; subst; constructor; [etransitivity; eassumption|auto]. }
    apply (T _ (nth s vs0 [])); [|exact Hu]. rewrite <- (map_nth_seq (nth s vs0 []) 0 _ Lns).
    apply Forall2_map_seq. intros i Hi. rewrite (H1 s i ltac:(lia) Hi). rewrite <- (copies_sum args _ Lts fs ltac:(lia)).
    rewrite fold_left_qsum. rewrite Qplus_0_l. apply copies_close. intros r Hr. rewrite nth_map_seq by exact Hr.
    apply (Hy r ltac:(lia)).
Qed.
End Mesh.

(** ** C79 *)
(** The deprecated ParticleMesh: decompose, exchange, paint with the cic brush, with numpy
    or with numba, gives every rank its part of what a single process paints with the cic
    window to the whole mesh, added to what was there, the masses times Nmesh^3 over the
    volume. *)
Theorem C79_paint : forall N BoxSize box pt blocks,
  mesh_ok (repeat N 3) pt blocks -> blocks = all_blocks (i_edges pt) -> mkarr BoxSize 3 = Ret box -> length box = 3%nat ->
  room (repeat N 3) pt (repeat 1 3) ->
  forall w b isz poss mass fields whole wm, let P := length blocks in
  cic_window w -> length poss = P -> Forall (Forall (fun x => length x = 3%nat)) poss -> wf_wvalue poss mass -> uniform mass ->
  length fields = P ->
  (forall r, (r < P)%nat -> stored (f_array (nth r fields zero_field)) (block_shape (i_edges pt) (block blocks r)) /\
     cic_brush (f_array (nth r fields zero_field)) b isz) ->
  stored whole (repeat N 3) ->
  (forall r idx, (r < P)%nat -> In idx (elements (f_array (nth r fields zero_field))) ->
     elem whole wm (zadd idx (block_start (i_edges pt) (block blocks r))) ==
     elem (f_array (nth r fields zero_field)) (f_data (nth r fields zero_field)) idx) ->
  exists pms ls ms wm',
    old_ParticleMesh N BoxSize pt = map Ret pms /\ old_decompose pms poss = map Ret ls /\
    old_paint_all b isz pms ls fields poss mass = map (fun m => (m, Ret tt)) ms /\ length ms = P /\
    window_paint w whole wm (concat poss) None
      (Some (scaled (default_mass (whole_arg mass)) (inject_Z (N ^ 3) / fold_right Qmult 1 box))) None
      (Some (whole_affine (repeat N 3) (map (fun b => 1 * inject_Z N / b) box))) = Ret wm' /\
    forall r idx, (r < P)%nat -> In idx (elements (f_array (nth r fields zero_field))) ->
      elem (f_array (nth r fields zero_field)) (nth r ms (fun _ => 0)) idx ==
      elem whole wm' (zadd idx (block_start (i_edges pt) (block blocks r))).
Proof.
  intros N BoxSize box pt blocks OK Hb Hbox Lbox Hroom w b isz poss mass fields whole wm P Hw Hposs Hdims Hm Um Lf Hst Hwhole Hinit.
  destruct (paint_all_old N box pt blocks OK Hb Lbox poss Hposs Hdims Hroom w fields Hw Lf (fun r Hr => proj1 (Hst r Hr))
    b isz mass whole wm (fun r Hr => proj2 (Hst r Hr)) Hm Um Hwhole Hinit) as (ls & ms & wm' & E1 & E2 & E3 & E4 & E5).
  exists (map (old_at N box pt blocks) (seq 0 P)), ls, ms, wm'. split; [exact (old_made N BoxSize box pt blocks OK Hb Hbox Lbox)|].
  split; [exact E1|]. split; [exact E2|]. split; [exact E3|]. split; [|exact E5].
  replace (map (fun b => 1 * inject_Z N / b) box) with (mesh_scale (repeat N 3) box); [exact E4|].
  clear - Lbox. destruct box as [|b1 [|b2 [|b3 [|b4 l]]]]; try discriminate Lbox. reflexivity.
Qed.
(** ... and the readout of a field, exchanged back and summed, is the readout of the whole
    field by a single process *)
Theorem C79_readout : forall N BoxSize box pt blocks,
  mesh_ok (repeat N 3) pt blocks -> blocks = all_blocks (i_edges pt) -> mkarr BoxSize 3 = Ret box -> length box = 3%nat ->
  room (repeat N 3) pt (repeat 1 3) ->
  forall w numba size poss fields whole wm, let P := length blocks in
  cic_window w -> (0 < size)%nat -> length poss = P -> Forall (Forall (fun x => length x = 3%nat)) poss ->
  length fields = P ->
  (forall r, (r < P)%nat -> stored (f_array (nth r fields zero_field)) (block_shape (i_edges pt) (block blocks r))) ->
  stored whole (repeat N 3) ->
  (forall r idx, (r < P)%nat -> In idx (elements (f_array (nth r fields zero_field))) ->
     elem whole wm (zadd idx (block_start (i_edges pt) (block blocks r))) ==
     elem (f_array (nth r fields zero_field)) (f_data (nth r fields zero_field)) idx) ->
  exists pms ls vs,
    old_ParticleMesh N BoxSize pt = map Ret pms /\ old_decompose pms poss = map Ret ls /\
    old_readout_all numba size pms ls fields poss = map Ret vs /\ length vs = P /\
    forall r, (r < P)%nat -> exists us,
      window_readout w whole wm (nth r poss []) None None (Some (whole_affine (repeat N 3) (map (fun b => 1 * inject_Z N / b) box))) = Ret us /\
      Forall2 Qeq (nth r vs []) us.
Proof.
  intros N BoxSize box pt blocks OK Hb Hbox Lbox Hroom w numba size poss fields whole wm P Hw Hs Hposs Hdims Lf Hst Hwhole Hinit.
  destruct (readout_all_old N box pt blocks OK Hb Lbox poss Hposs Hdims Hroom w fields Hw Lf Hst
    numba size whole wm Hs Hwhole Hinit) as (ls & vs & E1 & E2 & E3 & E4).
  exists (map (old_at N box pt blocks) (seq 0 P)), ls, vs. split; [exact (old_made N BoxSize box pt blocks OK Hb Hbox Lbox)|].
  split; [exact E1|]. split; [exact E2|]. split; [exact E3|].
  replace (map (fun b => 1 * inject_Z N / b) box) with (mesh_scale (repeat N 3) box); [exact E4|].
  clear - Lbox. destruct box as [|b1 [|b2 [|b3 [|b4 l]]]]; try discriminate Lbox. reflexivity.
Qed.
(** The coordinate arrays of the Fourier grid: with an even Nmesh, the frequency of index i
    is congruent to i and between -Nmesh/2 and Nmesh/2 *)
Theorem C79_frequency N i : (0 < N)%Z -> Z.even N = true -> (0 <= i < N)%Z ->
  (old_frequency N i mod N = i /\ - N <= 2 * old_frequency N i < N)%Z.
Proof.
  intros HN He Hi. apply Z.even_spec in He. destruct He as [k ->]. unfold old_frequency.
  replace (2 * k / 2)%Z with k by (rewrite Z.mul_comm, Z.div_mul; lia).
  destruct (Z.geb_spec i k) as [H|H].
  - split; [|lia]. replace (i - 2 * k)%Z with (i + (-1) * (2 * k))%Z by ring. rewrite Z.mod_add by lia. apply Z.mod_small. lia.
  - split; [|lia]. apply Z.mod_small. lia.
Qed.
(** with an odd one the largest positive frequency is taken for a negative one beyond the range *)
Theorem C79_odd_refuted k : (0 <= k)%Z -> old_frequency (2 * k + 1) k = (- (k + 1))%Z /\ (2 * old_frequency (2 * k + 1) k < - (2 * k + 1))%Z.
Proof.
  intros Hk. unfold old_frequency. replace ((2 * k + 1) / 2)%Z with k.
  - destruct (Z.geb_spec k k) as [H|H]; lia.
  - symmetry. rewrite Z.mul_comm. rewrite Z.div_add_l by lia. change (1 / 2)%Z with 0%Z. lia.
Qed.

(** ** Cases *)
Definition slabs (n : Z) : partition :=
  {| i_edges := [[0; n; 2 * n]; [0; 2 * n]; [0; 2 * n]]%Z; local_i_start := [[0; 0; 0]; [n; 0; 0]]%Z;
     local_i_shape := [[n; 2 * n; 2 * n]; [n; 2 * n; 2 * n]]%Z |}.
Definition one_slab (n : Z) : partition :=
  {| i_edges := [[0; n]; [0; n]; [0; n]]%Z; local_i_start := [[0; 0; 0]]%Z; local_i_shape := [[n; n; n]]%Z |}.
Lemma slabs_ok : mesh_ok (repeat 4 3)%Z (slabs 2) [[0; 0; 0]; [1; 0; 0]]%Z.
Proof.
  constructor; try reflexivity.
  - simpl. lia.
  - cbn [i_edges slabs repeat]. repeat apply Forall2_cons; try apply Forall2_nil; (split; [lia|split; [simpl; lia|split; [sorted_z|split; reflexivity]]]).
Qed.
Lemma slabs_room : room (repeat 4 3)%Z (slabs 2) (repeat 1 3).
Proof.
  intros i k Hi Hk. cbv zeta. destruct i as [|[|[|i]]]; [| | |simpl in Hi; lia]; cbn [slabs i_edges nth length] in Hk |- *.
  - left. destruct k as [|[|k]]; [vm_compute; discriminate|vm_compute; discriminate|lia].
  - right. destruct k as [|k]; [reflexivity|lia].
  - right. destruct k as [|k]; [reflexivity|lia].
Qed.
(** what the ranks have at the cells [cells] after painting to empty meshes, strides in items *)
Definition old_cells (b : brush) (N : Z) (box : Q) (pt : partition) (poss : list (list (list Q))) (cells : list (list Z)) : option (list Q) :=
  match all_ret (old_ParticleMesh N (Scalar box) pt) with
  | Some pms => match all_ret (old_decompose pms poss) with
    | Some ls => let fs := map (fun s => {| f_array := c_array s; f_data := fun _ => 0 |}) (local_i_shape pt) in
        Some (map (fun mf => Qred (elem (f_array (snd (fst mf))) (fst (fst (fst mf))) (snd mf)))
          (combine (combine (old_paint_all b 1 pms ls fs poss WNone) fs) cells))
    | None => None end
  | None => None end.
(** The tsc brush with the same smoothing of one cell: the rank that holds cell 2 does not
    get the particle, so on two ranks its part is lost; on one rank it is painted *)
Theorem C79_tsc_refuted :
  old_cells (TscNumba 4) 6 6 (one_slab 6) [[[17#4; 3; 3]]] [[2; 2; 2]]%Z = Some [9#512] /\
  old_cells (TscNumba 4) 6 6 (slabs 3) [[[17#4; 3; 3]]; []] [[2; 2; 2]; [0; 2; 2]]%Z = Some [0; 99#256].
Proof. vm_compute. split; reflexivity. Qed.

(** two ranks with slabs of a mesh of 4^3 cells in a box of size 8, both brushes; particles
    across the faces between the ranks and of the box *)
Definition old_parts : list (list (list Q)) := [[[3; 5; 1]; [15#2; -(1); 4]]; [[1; 1; 1]]].
Definition old_fields : list field := map (fun s => {| f_array := c_array s; f_data := fun _ => 7 |}) (local_i_shape (slabs 2)).
Example C79_case :
  (forall b, b = CicNumpy 2 \/ b = CicNumba 2 -> exists pms ls ms wm',
    old_ParticleMesh 4 (Scalar 8) (slabs 2) = map Ret pms /\ old_decompose pms old_parts = map Ret ls /\
    old_paint_all b 1 pms ls old_fields old_parts ex_mass = map (fun m => (m, Ret tt)) ms /\ length ms = 2%nat /\
    window_paint ex_cic (c_array [4; 4; 4]%Z) (fun _ => 7) (concat old_parts) None
      (Some (scaled (Array [1; 2; 3]) (inject_Z 64 / fold_right Qmult 1 [8; 8; 8]))) None
      (Some (whole_affine [4; 4; 4]%Z (map (fun b => 1 * inject_Z 4 / b) [8; 8; 8]))) = Ret wm' /\
    forall r idx, (r < 2)%nat -> In idx (elements (f_array (nth r old_fields zero_field))) ->
      elem (f_array (nth r old_fields zero_field)) (nth r ms (fun _ => 0)) idx ==
      elem (c_array [4; 4; 4]%Z) wm' (zadd idx (block_start (i_edges (slabs 2)) (block [[0; 0; 0]; [1; 0; 0]]%Z r)))) /\
  (exists pms ls vs,
    old_ParticleMesh 4 (Scalar 8) (slabs 2) = map Ret pms /\ old_decompose pms old_parts = map Ret ls /\
    old_readout_all true 2 pms ls old_fields old_parts = map Ret vs /\ length vs = 2%nat) /\
  old_cells (CicNumba 2) 4 8 (slabs 2) [[[3; 5; 1]]; []] [[1; 2; 0]; [0; 2; 0]]%Z = Some [1#64; 1#64] /\
  map (old_frequency 8) [0; 3; 4; 7]%Z = [0; 3; -4; -1]%Z.
Proof.
  assert (St : forall r, (r < 2)%nat -> stored (f_array (nth r old_fields zero_field)) (block_shape (i_edges (slabs 2)) (block [[0; 0; 0]; [1; 0; 0]]%Z r))).
  { intros r Hr. destruct r as [|[|r]]; [| |lia]; (apply (c_array_stored [2; 4; 4]%Z); repeat constructor). }
  assert (Pd : Forall (Forall (fun x : list Q => length x = 3%nat)) old_parts) by (repeat constructor).
  assert (Wc : cic_window ex_cic) by (split; [left; reflexivity|apply default_window_ok; [exact Logic.I|left; lia]]).
  split; [|split; [|split; [vm_compute; reflexivity|vm_compute; reflexivity]]].
  - intros b HB.
    apply (C79_paint 4 (Scalar 8) [8; 8; 8] (slabs 2) [[0; 0; 0]; [1; 0; 0]]%Z slabs_ok eq_refl eq_refl eq_refl slabs_room
      ex_cic b 1 old_parts ex_mass old_fields (c_array [4; 4; 4]%Z) (fun _ => 7)); try reflexivity; auto.
    + intros r Hr. split; [exact (St r Hr)|]. destruct HB as [-> | ->]; cbn; [lia|]. split; [lia|].
      destruct r as [|[|r]]; [reflexivity|reflexivity|cbn in Hr; lia].
    + apply c_array_stored. repeat constructor.
    + intros r idx Hr Hin. destruct r as [|[|r]]; [| |cbn in Hr; lia]; reflexivity.
  - destruct (C79_readout 4 (Scalar 8) [8; 8; 8] (slabs 2) [[0; 0; 0]; [1; 0; 0]]%Z slabs_ok eq_refl eq_refl eq_refl slabs_room
      ex_cic true 2 old_parts old_fields (c_array [4; 4; 4]%Z) (fun _ => 7)) as (pms & ls & vs & E1 & E2 & E3 & E4 & _); auto.
    + apply c_array_stored. repeat constructor.
    + intros r idx Hr Hin. destruct r as [|[|r]]; [| |cbn in Hr; lia]; reflexivity.
    + exists pms, ls, vs. auto.
Qed.
Print Assumptions C79_paint.
Print Assumptions C79_readout.
Print Assumptions C79_frequency.
Print Assumptions C79_odd_refuted.
Print Assumptions C79_tsc_refuted.
