(** Properties C24-C27 and C35: tuned against generic routines, periodic images, order of
    painting, locality, transforms. *)
From Coq Require Import List Arith ZArith QArith Qabs Qround Lia Lqa Bool Setoid Morphisms Permutation.
From Verif Require Import Base ListFacts WrapModel WrapProofs DomainModel DomainFill QSum WindowModel WindowStencil WindowSpread WindowKernels WindowAxis WindowNative WindowApi WindowPoints WindowGrad WindowTranslate WindowProperties.
Import ListNotations.
Local Open Scope Q_scope.

(** two memories / two lists of values that agree *)
Definition same_memory (m m' : memory) : Prop := forall a, m a == m' a.
Definition same_values (l l' : list Q) : Prop := Forall2 Qeq l l'.

Lemma parts_same_sum pos mass hsml f g : (forall x h, In x pos -> f h x == g h x) ->
  qsum (fun xmh : list Q * Q * Q => snd (fst xmh) * f (snd xmh) (fst (fst xmh))) (parts_of pos mass hsml) ==
  qsum (fun xmh : list Q * Q * Q => snd (fst xmh) * g (snd xmh) (fst (fst xmh))) (parts_of pos mass hsml).
Proof.
  intros H. apply qsum_ext_in. intros [[x q] h] Hin. cbn [fst snd]. rewrite H; [reflexivity|].
  unfold parts_of in Hin. apply in_combine_l in Hin. apply in_combine_l in Hin. exact Hin.
Qed.
Lemma readout_same w w' real t t' d d' m x x' h h' : wf_call real t -> wf_call real t' ->
  (0 < native_of (w_kind w))%Z -> (0 < native_of (w_kind w'))%Z ->
  length x = length (ar_shape real) -> length x' = length (ar_shape real) ->
  (forall idx, In idx (elements real) ->
     weight_of (painter_of w real t d) h x idx == weight_of (painter_of w' real t' d') h' x' idx) ->
  readout_at (painter_of w real t d) m x h == readout_at (painter_of w' real t' d') m x' h'.
Proof.
  intros Hwf Hwf' Hk Hk' Hx Hx' H. rewrite !readout_elements by assumption.
  apply qsum_ext_in. intros idx Hidx. rewrite (H idx Hidx). reflexivity.
Qed.

(* ---------- C24 ---------- *)
(** the generic routine with the same kernel *)
Definition generic_of (k : kind) : kind :=
  match k with TunedNNB => Nearest | TunedCIC => Linear | TunedTSC => Quadratic | TunedPCS => Cubic | k => k end.
(** differentiating along [d]: the tuned cic gradient is the generic one except on the
    mesh points, the tuned pcs gradient only if the scale is one *)
Definition tuned_gradient_ok (k : kind) (real : array) (t : affine) (d : option Z) (x : list Q) : Prop :=
  match d with
  | None => True
  | Some z => let i := dim_of (length (ar_shape real)) z in
      match k with
      | TunedCIC => ~ exists n : Z, nth i x 0 * nth i (af_scale t) 0 + nth i (af_translate t) 0 == inject_Z n
      | TunedPCS => nth i (af_scale t) 0 == 1
      | _ => True
      end
  end.

Lemma tuned_grad_axis k real t d x i : wf_diffdir real d -> tuned_gradient_ok k real t d x -> (i < length (ar_shape real))%nat ->
  grad_ok k (axis_of real t d i) (nth i x 0).
Proof.
  intros Hd H Hi. unfold grad_ok. cbn [axis_of ax_order ax_scale]. rewrite order_spec_nth by exact Hi.
  destruct d as [z|]; [|left; reflexivity]. cbn [tuned_gradient_ok] in H. cbn [wf_diffdir] in Hd.
  destruct (Z.eqb_spec (Z.of_nat i) (if (z <? 0)%Z then z + Z.of_nat (length (ar_shape real)) else z)) as [E|E]; [|left; reflexivity].
  assert (D : dim_of (length (ar_shape real)) z = i) by (unfold dim_of; rewrite <- E; apply Nat2Z.id).
  rewrite D in H. right. destruct k; try exact Logic.I; [|exact H].
  unfold grid_pos. cbn [axis_of ax_scale ax_translate].
  destruct (Qfloor_bounds (nth i x 0 * nth i (af_scale t) 0 + nth i (af_translate t) 0)) as [F1 F2].
  apply Qle_lt_or_eq in F1. destruct F1 as [F1|F1]; [exact F1|]. elim H. eexists. symmetry. exact F1.
Qed.
Lemma native_line_generic k a x : native_line (generic_of k) a x = native_line k a x.
Proof. destruct k; reflexivity. Qed.
Lemma generic_of_standard k : standard k -> standard (generic_of k).
Proof. destruct k; cbn; tauto. Qed.
Lemma generic_of_native k : native_of (generic_of k) = native_of k.
Proof. destruct k; reflexivity. Qed.
Lemma generic_of_setup k : setup_of (generic_of k) = None.
Proof. destruct k; reflexivity. Qed.

Lemma tuned_weight k real t d x idx : wf_call real t -> standard k -> periods_ok t -> wf_diffdir real d ->
  tuned_gradient_ok k real t d x -> length x = length (ar_shape real) -> In idx (elements real) ->
  weight_of (painter_of (ResampleWindow k 0) real t d) 1 x idx ==
  weight_of (painter_of (ResampleWindow (generic_of k) 0) real t d) 1 x idx.
Proof.
  intros Hwf Hk Hper Hd Hg Hx Hidx. rewrite !weight_of_prod by (try assumption; apply elements_length, Hidx).
  pose proof (default_window_ok k 0 Hk (or_introl (Z.le_refl 0))) as W1.
  pose proof (default_window_ok (generic_of k) 0 (generic_of_standard _ Hk) (or_introl (Z.le_refl 0))) as W2.
  apply qprod_map_ext. intros i Hi. apply in_seq in Hi.
  assert (Hp : (0 <= ax_period (axis_of real t d i))%Z).
  { apply (axis_in_period (ResampleWindow k 0) real t d Hwf _ Hper). apply (nth_error_In _ i). apply axes_nth; [exact Hwf|lia]. }
  transitivity (wsum (native_line k (axis_of real t d i) (nth i x 0)) (nth i idx 0%Z)).
  - apply pair_eq_wsum, axis_points_native.
    + apply standard_proper, Hk.
    + apply default_native, W1.
    + exact Hp.
    + intros _. apply tuned_grad_axis; [exact Hd|exact Hg|lia].
  - symmetry. rewrite <- native_line_generic. apply pair_eq_wsum, (axis_points_native (painter_of (ResampleWindow (generic_of k) 0) real t d)).
    + apply standard_proper, generic_of_standard, Hk.
    + apply default_native, W2.
    + exact Hp.
    + cbn [painter_of mk_painter pt_kind ResampleWindow w_kind]. rewrite generic_of_setup. congruence.
Qed.

Theorem C24_tuned_is_generic k real t m pos mass d :
  wf_call real t -> standard k -> periods_ok t -> wf_pos real pos -> length mass = length pos ->
  wf_diffdir real d -> Forall (tuned_gradient_ok k real t d) pos ->
  (exists m1 m2,
     window_paint (ResampleWindow k 0) real m pos None (Some (Array mass)) d (Some t) = Ret m1 /\
     window_paint (ResampleWindow (generic_of k) 0) real m pos None (Some (Array mass)) d (Some t) = Ret m2 /\
     same_memory m1 m2) /\
  (exists v1 v2,
     window_readout (ResampleWindow k 0) real m pos None d (Some t) = Ret v1 /\
     window_readout (ResampleWindow (generic_of k) 0) real m pos None d (Some t) = Ret v2 /\
     same_values v1 v2).
Proof.
  intros Hwf Hk Hper Hpos Hmass Hd Hg.
  assert (N1 : (0 < native_of (w_kind (ResampleWindow k 0)))%Z) by (apply (standard_proper _ Hk)).
  assert (N2 : (0 < native_of (w_kind (ResampleWindow (generic_of k) 0)))%Z) by (cbn [ResampleWindow w_kind]; rewrite generic_of_native; apply (standard_proper _ Hk)).
  unfold wf_pos in Hpos. pose proof Hpos as Hpos'. rewrite Forall_forall in Hpos', Hg. split.
  - do 2 eexists. split; [apply window_paint_none; assumption|]. split; [apply window_paint_none; assumption|].
    intros a. apply paint_all_same; try assumption; try (apply parts_wf; assumption).
    intros idx Hidx. apply qsum_ext_in. intros [[x q] h] Hin. cbn [fst snd].
    assert (Hh : h = 1).
    { unfold parts_of in Hin. apply in_combine_r in Hin. apply repeat_spec in Hin. exact Hin. }
    assert (Hxin : In x pos) by (unfold parts_of in Hin; apply in_combine_l in Hin; apply in_combine_l in Hin; exact Hin).
    rewrite Hh, tuned_weight; [reflexivity| | | | | | |]; try assumption; [apply Hg, Hxin|apply Hpos', Hxin].
  - do 2 eexists. split; [apply window_readout_none; assumption|]. split; [apply window_readout_none; assumption|].
    assert (E : forall l, incl l pos -> same_values (map (fun x => readout_at (painter_of (ResampleWindow k 0) real t d) m x 1) l)
      (map (fun x => readout_at (painter_of (ResampleWindow (generic_of k) 0) real t d) m x 1) l)).
    { induction l as [|x l IH]; intros Hl; [constructor|]. cbn [map]. constructor; [|apply IH; intros y Hy; apply Hl; right; exact Hy].
      assert (Hxin : In x pos) by (apply Hl; left; reflexivity).
      apply readout_same; try assumption; try (apply Hpos', Hxin).
      intros idx Hidx. apply tuned_weight; try assumption; [apply Hg, Hxin|apply Hpos', Hxin]. }
    apply E. intros y Hy. exact Hy.
Qed.
Print Assumptions C24_tuned_is_generic.
Example C24_case : exists v1 v2,
  window_readout (ResampleWindow TunedCIC 0) mesh44 (fun a => inject_Z (a * a)) [[-(17); 13#10]; [99#7; 17#3]] None (Some (-1)%Z) (Some box44) = Ret v1 /\
  window_readout (ResampleWindow Linear 0) mesh44 (fun a => inject_Z (a * a)) [[-(17); 13#10]; [99#7; 17#3]] None (Some (-1)%Z) (Some box44) = Ret v2 /\
  same_values v1 v2.
Proof.
  apply (C24_tuned_is_generic TunedCIC mesh44 box44 (fun a => inject_Z (a * a)) [[-(17); 13#10]; [99#7; 17#3]] [1; 1] (Some (-1)%Z)).
  - apply wf_mesh44; reflexivity.
  - exact Logic.I.
  - repeat constructor; discriminate.
  - repeat constructor.
  - reflexivity.
  - cbn. lia.
  - apply Forall_cons; [|apply Forall_cons; [|apply Forall_nil]]; intros (n & E); pose proof (Qfloor_comp _ _ E) as F; rewrite Qfloor_Z in F; subst n; vm_compute in E; discriminate.
Qed.
(** without the conditions the routines differ: cic on a mesh point, *)
Definition mesh4 : array := {| ar_shape := [4]%Z; ar_strides := [8]%Z |}.
Definition line4 (s : Q) : affine := {| af_scale := [s]; af_translate := [0]; af_period := [4]%Z |}.
Theorem C24_cic_gradient_refuted : exists m x v1 v2,
  window_readout (ResampleWindow TunedCIC 0) mesh4 m [[x]] None (Some 0%Z) (Some (line4 1)) = Ret [v1] /\
  window_readout (ResampleWindow Linear 0) mesh4 m [[x]] None (Some 0%Z) (Some (line4 1)) = Ret [v2] /\ ~ v1 == v2.
Proof. exists (fun a => inject_Z (a * a)), 1. do 2 eexists. repeat split; try (vm_compute; reflexivity). vm_compute. discriminate. Qed.
Print Assumptions C24_cic_gradient_refuted.
(** pcs with a scale, *)
Theorem C24_pcs_gradient_refuted : exists m x v1 v2,
  window_readout (ResampleWindow TunedPCS 0) mesh4 m [[x]] None (Some 0%Z) (Some (line4 2)) = Ret [v1] /\
  window_readout (ResampleWindow Cubic 0) mesh4 m [[x]] None (Some 0%Z) (Some (line4 2)) = Ret [v2] /\
  ~ v1 == v2 /\ v2 == 2 * v1.
Proof. exists (fun a => inject_Z (a * a)), (1#3). do 2 eexists. repeat split; try (vm_compute; reflexivity). vm_compute. discriminate. Qed.
Print Assumptions C24_pcs_gradient_refuted.
(** and smoothing lengths that round to the native support, which the tuned routines ignore *)
Theorem C24_hsml_refuted : exists m x v1 v2,
  window_readout (ResampleWindow TunedCIC 0) mesh4 m [[x]] (Some (Array [3#4])) None (Some (line4 1)) = Ret [v1] /\
  window_readout (ResampleWindow Linear 0) mesh4 m [[x]] (Some (Array [3#4])) None (Some (line4 1)) = Ret [v2] /\ ~ v1 == v2.
Proof. exists (fun a => inject_Z (a * a)), (1#3). do 2 eexists. repeat split; try (vm_compute; reflexivity). vm_compute. discriminate. Qed.
Print Assumptions C24_hsml_refuted.

(* ---------- C25 ---------- *)
(** [x'] is a periodic image of [x]: an integer number of periods away along each axis *)
Definition image (t : affine) (x x' : list Q) : Prop :=
  length x' = length x /\
  forall i, (i < length x)%nat -> exists n : Z,
    nth i x' 0 * nth i (af_scale t) 0 == nth i x 0 * nth i (af_scale t) 0 + inject_Z (n * nth i (af_period t) 0%Z).

Lemma image_weight w real t d h x x' idx : wf_call real t -> proper_kind (w_kind w) -> periods_ok t ->
  length x = length (ar_shape real) -> image t x x' -> In idx (elements real) ->
  weight_of (painter_of w real t d) h x' idx == weight_of (painter_of w real t d) h x idx.
Proof.
  intros Hwf Hk Hper Hx [Hl Hi] Hidx. rewrite !weight_of_prod by (try assumption; try congruence; apply elements_length, Hidx).
  apply qprod_map_ext. intros i Hin. apply in_seq in Hin.
  destruct (Hi i) as (n & E); [lia|].
  assert (Hp : (0 <= ax_period (axis_of real t d i))%Z).
  { apply (axis_in_period w real t d Hwf _ Hper). apply (nth_error_In _ i). apply axes_nth; [exact Hwf|lia]. }
  set (a := axis_of real t d i) in *.
  rewrite (pair_eq_wsum _ _ _ (axis_points_translate (painter_of w real t d) h a (nth i x 0) a (nth i x' 0) (n * ax_period a) Hk Hp
     ltac:(repeat split; [right; reflexivity|unfold grid_pos; cbn [a axis_of ax_scale ax_period]; rewrite E; ring]))).
  assert (M : moved a (n * ax_period a) (axis_points (painter_of w real t d) h a (nth i x 0)) = axis_points (painter_of w real t d) h a (nth i x 0)).
  { destruct (Z.eq_dec (ax_period a) 0) as [Z0|Z0].
    - unfold moved. rewrite <- (map_id (axis_points _ _ _ _)) at 2. apply map_ext. intros [j q]. cbn [fst snd].
      unfold wrap_axis. rewrite Z0. cbn. f_equal. lia.
    - pose proof (axis_points_in_period (painter_of w real t d) h a (nth i x 0) Hk ltac:(lia)) as F.
      unfold moved. rewrite <- (map_id (axis_points _ _ _ _)) at 2. apply map_ext_in. intros [j q] Hj. rewrite Forall_forall in F.
      specialize (F _ Hj). cbn [fst snd] in *. f_equal. rewrite wrap_axis_shift by lia. unfold wrap_axis.
      destruct (Z.gtb_spec (ax_period a) 0); [|lia]. apply Z.mod_small. exact F. }
  rewrite M. reflexivity.
Qed.

Theorem C25_periodic_images w real t m pos pos' mass hsml d :
  wf_call real t -> proper_kind (w_kind w) -> periods_ok t -> wf_pos real pos -> Forall2 (image t) pos pos' ->
  length mass = length pos -> length hsml = length pos -> wf_diffdir real d ->
  (exists m1 m2,
     window_paint w real m pos (Some (Array hsml)) (Some (Array mass)) d (Some t) = Ret m1 /\
     window_paint w real m pos' (Some (Array hsml)) (Some (Array mass)) d (Some t) = Ret m2 /\
     same_memory m1 m2) /\
  (exists v1 v2,
     window_readout w real m pos (Some (Array hsml)) d (Some t) = Ret v1 /\
     window_readout w real m pos' (Some (Array hsml)) d (Some t) = Ret v2 /\
     same_values v1 v2).
Proof.
  intros Hwf Hk Hper Hpos Him Hmass Hh Hd.
  pose proof (Forall2_len _ _ _ Him) as Hl.
  assert (Hat : forall i, (i < length pos)%nat -> image t (nth i pos []) (nth i pos' [])).
  { clear -Him. induction Him as [|x x' pos pos' H _ IH]; intros i Hi; [cbn in Hi; lia|].
    destruct i as [|i]; [exact H|]. cbn [nth]. apply IH. cbn in Hi. lia. }
  assert (Hpos' : wf_pos real pos').
  { unfold wf_pos in *. rewrite Forall_forall in *. intros x' Hx'. destruct (In_nth _ _ [] Hx') as (i & Hi & <-).
    destruct (Hat i ltac:(lia)) as [-> _]. apply Hpos, nth_In. lia. }
  assert (Hnth : forall i, (i < length pos)%nat -> length (nth i pos []) = length (ar_shape real)).
  { intros i Hi. unfold wf_pos in Hpos. rewrite Forall_forall in Hpos. apply Hpos, nth_In, Hi. }
  assert (Hnth' : forall i, (i < length pos)%nat -> length (nth i pos' []) = length (ar_shape real)).
  { intros i Hi. unfold wf_pos in Hpos'. rewrite Forall_forall in Hpos'. apply Hpos', nth_In. lia. }
  split.
  - do 2 eexists. split; [apply window_paint_ok; assumption|]. split; [apply window_paint_ok; (assumption || lia)|].
    intros a. apply paint_all_same; try assumption; try (apply Hk); try (apply parts_wf; assumption).
    intros idx Hidx.
    rewrite (qsum_parts (fun x q h => q * weight_of (painter_of w real t d) h x idx) pos mass hsml Hmass Hh).
    rewrite (qsum_parts (fun x q h => q * weight_of (painter_of w real t d) h x idx) pos' mass hsml ltac:(lia) ltac:(lia)).
    rewrite <- Hl. apply qsum_ext_in. intros i Hi. apply in_seq in Hi.
    rewrite (image_weight w real t d _ _ _ idx Hwf Hk Hper (Hnth i ltac:(lia)) (Hat i ltac:(lia)) Hidx). reflexivity.
  - do 2 eexists. split; [apply window_readout_ok; assumption|]. split; [apply window_readout_ok; (assumption || lia)|].
    clear Hmass mass. revert Hat Hnth Hnth'. clear Hpos Hpos' Hl. revert hsml Hh.
    induction Him as [|x x' pos pos' H _ IH]; intros [|h hsml] Hh Hat Hnth Hnth'; try discriminate; [constructor|].
    cbn [combine map fst snd]. constructor.
    + apply readout_same; try assumption; try (apply Hk); [apply (Hnth 0%nat); cbn; lia|apply (Hnth' 0%nat); cbn; lia|].
      intros idx Hidx. symmetry. apply image_weight; try assumption. apply (Hnth 0%nat). cbn; lia.
    + apply IH; [cbn in Hh; lia| | |]; intros i Hi; [apply (Hat (S i))|apply (Hnth (S i))|apply (Hnth' (S i))]; cbn; lia.
Qed.
Print Assumptions C25_periodic_images.
Example C25_case : exists m1 m2,
     window_paint (ResampleWindow TunedPCS 0) mesh44 (fun _ => 0) [[3; 13#10]] (Some (Array [1])) (Some (Array [2])) (Some 0%Z) (Some box44) = Ret m1 /\
     window_paint (ResampleWindow TunedPCS 0) mesh44 (fun _ => 0) [[-(13); 53#10]] (Some (Array [1])) (Some (Array [2])) (Some 0%Z) (Some box44) = Ret m2 /\
     same_memory m1 m2.
Proof.
  apply (C25_periodic_images (ResampleWindow TunedPCS 0) mesh44 box44 (fun _ => 0) [[3; 13#10]] [[-(13); 53#10]] [2] [1] (Some 0%Z)).
  - apply wf_mesh44; reflexivity.
  - apply (standard_proper TunedPCS Logic.I).
  - repeat constructor; discriminate.
  - repeat constructor.
  - constructor; [|constructor]. split; [reflexivity|]. intros [|[|i]] Hi; [exists (-2)%Z; reflexivity|exists 2%Z; reflexivity|cbn in Hi; lia].
  - reflexivity.
  - reflexivity.
  - cbn. lia.
Qed.
(** in a box: the mesh has [Nmesh] cells per [BoxSize], positions move by box lengths *)
Lemma image_in_box t x x' (L : list Q) : length x' = length x ->
  (forall i, (i < length x)%nat -> nth i (af_scale t) 0 * nth i L 0 == inject_Z (nth i (af_period t) 0%Z)) ->
  (forall i, (i < length x)%nat -> exists n : Z, nth i x' 0 == nth i x 0 + inject_Z n * nth i L 0) ->
  image t x x'.
Proof.
  intros Hl Hs Hx. split; [exact Hl|]. intros i Hi. destruct (Hx i Hi) as (n & E). exists n.
  rewrite E, inject_Z_mult, <- (Hs i Hi). ring.
Qed.

(* ---------- C26 ---------- *)
(** the ways in which the atomic additions of parallel threads can interleave *)
Inductive interleaving {A} : list (list A) -> list A -> Prop :=
| int_done ts : Forall (fun t => t = []) ts -> interleaving ts []
| int_step ts1 a t ts2 l : interleaving (ts1 ++ t :: ts2) l -> interleaving (ts1 ++ (a :: t) :: ts2) (a :: l).
Lemma interleaving_perm {A} (ts : list (list A)) l : interleaving ts l -> Permutation (concat ts) l.
Proof.
  induction 1 as [ts H|ts1 a t ts2 l _ IH].
  - assert (concat ts = []) as ->; [|constructor]. induction H as [|t ts -> _ IH]; [reflexivity|exact IH].
  - rewrite concat_app in *. cbn [concat app] in *. symmetry. apply Permutation_cons_app. symmetry. exact IH.
Qed.
Lemma run_perm m ops ops' : Permutation ops ops' -> same_memory (run m ops) (run m ops').
Proof. intros H a. rewrite !run_spec, (qsum_perm _ _ _ H). reflexivity. Qed.
Lemma paint_all_run p m parts :
  paint_all p m parts = run m (flat_map (fun xmh => paint_ops p (fst (fst xmh)) (snd (fst xmh)) (snd xmh)) parts).
Proof.
  unfold paint_all. revert m. induction parts as [|xmh parts IH]; intros m; [reflexivity|].
  cbn [fold_left flat_map]. rewrite run_app. apply IH.
Qed.
(** the atomic additions of a particle: what one iteration of the loop of
    [ResampleWindow.paint] performs *)
Definition deposits (w : window) (real : array) (t : affine) (d : option Z) (xmh : list Q * Q * Q) : list op :=
  paint_ops (painter_of w real t d) (fst (fst xmh)) (snd (fst xmh)) (snd xmh).

(** the particles are divided among threads in any way, the additions of the threads
    interleave in any way; no hypothesis on the windows, the mesh or its strides *)
Theorem C26_interleaving w real t m pos mass hsml d (threads : list (list (list Q * Q * Q))) (l : list op) :
  wf_diffdir real d -> length mass = length pos -> length hsml = length pos ->
  Permutation (concat threads) (combine (combine pos mass) hsml) ->
  interleaving (map (flat_map (deposits w real t d)) threads) l ->
  exists m', window_paint w real m pos (Some (Array hsml)) (Some (Array mass)) d (Some t) = Ret m' /\
    same_memory (run m l) m'.
Proof.
  intros Hd Hm Hh Hp Hi. eexists. split; [apply (window_paint_ok w real t d Hd); assumption|].
  rewrite paint_all_run. apply run_perm. symmetry. rewrite <- (interleaving_perm _ _ Hi).
  change (fun xmh => paint_ops (painter_of w real t d) (fst (fst xmh)) (snd (fst xmh)) (snd xmh)) with (deposits w real t d).
  rewrite <- flat_map_concat_map. unfold parts_of. rewrite <- Hp.
  clear. induction threads as [|th ths IH]; [constructor|]. cbn [concat flat_map]. rewrite flat_map_app.
  apply Permutation_app_head. exact IH.
Qed.
Print Assumptions C26_interleaving.

Theorem C26_order w real t m pos mass hsml pos' mass' hsml' d :
  wf_diffdir real d -> length mass = length pos -> length hsml = length pos ->
  length mass' = length pos' -> length hsml' = length pos' ->
  Permutation (combine (combine pos mass) hsml) (combine (combine pos' mass') hsml') ->
  exists m1 m2,
    window_paint w real m pos (Some (Array hsml)) (Some (Array mass)) d (Some t) = Ret m1 /\
    window_paint w real m pos' (Some (Array hsml')) (Some (Array mass')) d (Some t) = Ret m2 /\
    same_memory m1 m2.
Proof.
  intros Hd H1 H2 H3 H4 Hp. do 2 eexists. split; [apply (window_paint_ok w real t d Hd); assumption|].
  split; [apply (window_paint_ok w real t d Hd); assumption|]. rewrite !paint_all_run. apply run_perm.
  apply Permutation_flat_map. exact Hp.
Qed.
Print Assumptions C26_order.

(** painting in two batches *)
Theorem C26_batches w real t m pos1 mass1 hsml1 pos2 mass2 hsml2 d :
  wf_diffdir real d -> length mass1 = length pos1 -> length hsml1 = length pos1 ->
  length mass2 = length pos2 -> length hsml2 = length pos2 ->
  exists m1 m2,
    window_paint w real m pos1 (Some (Array hsml1)) (Some (Array mass1)) d (Some t) = Ret m1 /\
    window_paint w real m1 pos2 (Some (Array hsml2)) (Some (Array mass2)) d (Some t) = Ret m2 /\
    window_paint w real m (pos1 ++ pos2) (Some (Array (hsml1 ++ hsml2))) (Some (Array (mass1 ++ mass2))) d (Some t) = Ret m2.
Proof.
  intros Hd H1 H2 H3 H4. do 2 eexists. split; [apply (window_paint_ok w real t d Hd); assumption|].
  split; [apply (window_paint_ok w real t d Hd); assumption|].
  rewrite (window_paint_ok w real t d Hd); [|rewrite !app_length; lia..].
  f_equal. unfold parts_of.
  assert (C : forall {A B} (a1 a2 : list A) (b1 b2 : list B), length a1 = length b1 -> combine (a1 ++ a2) (b1 ++ b2) = combine a1 b1 ++ combine a2 b2).
  { intros A B a1. induction a1 as [|u a1 IH]; intros a2 [|v b1] b2 E; try discriminate; [reflexivity|].
    cbn. rewrite IH by (cbn in E; lia). reflexivity. }
  rewrite !C by (rewrite ?combine_length; lia). unfold paint_all. rewrite fold_left_app. reflexivity.
Qed.
Print Assumptions C26_batches.
Example C26_case : exists m', window_paint (ResampleWindow TunedCIC 0) mesh4 (fun _ => 0) [[1#2]; [5#2]; [3#4]] (Some (Array [1;1;1])) (Some (Array [1;2;3])) None (Some (line4 1)) = Ret m' /\
   same_memory (run (fun _ => 0) [(0%Z, 1 * (1 * (1 - (3 # 4))) * 3); (16%Z, (1 - (1#2)) * 2); (8%Z, (3#4) * 3); (0%Z, 1 - (1#2)); (24%Z, (1#2)*2); (8%Z, 1#2)]) m'.
Proof.
  destruct (C26_interleaving (ResampleWindow TunedCIC 0) mesh4 (line4 1) (fun _ => 0) [[1#2]; [5#2]; [3#4]] [1;2;3] [1;1;1] None
    [[([5#2], 2, 1)]; [([3#4], 3, 1); ([1#2], 1, 1)]]
    (let a := deposits (ResampleWindow TunedCIC 0) mesh4 (line4 1) None ([5#2], 2, 1) in
     let b := deposits (ResampleWindow TunedCIC 0) mesh4 (line4 1) None ([3#4], 3, 1) in
     let c := deposits (ResampleWindow TunedCIC 0) mesh4 (line4 1) None ([1#2], 1, 1) in
     [nth 0 b (0%Z, 0); nth 0 a (0%Z, 0); nth 1 b (0%Z, 0); nth 0 c (0%Z, 0); nth 1 a (0%Z, 0); nth 1 c (0%Z, 0)])) as (m' & E & S).
  - exact Logic.I.
  - reflexivity.
  - reflexivity.
  - cbn [concat app combine]. symmetry. etransitivity; [apply perm_swap|]. apply perm_skip, perm_swap.
  - cbn [map flat_map].
    set (a := deposits (ResampleWindow TunedCIC 0) mesh4 (line4 1) None ([5#2], 2, 1)).
    set (b := deposits (ResampleWindow TunedCIC 0) mesh4 (line4 1) None ([3#4], 3, 1)).
    set (c := deposits (ResampleWindow TunedCIC 0) mesh4 (line4 1) None ([1#2], 1, 1)).
    assert (A : exists u v, a = [u; v]) by (do 2 eexists; vm_compute; reflexivity). destruct A as (a1 & a2 & ->).
    assert (A : exists u v, b = [u; v]) by (do 2 eexists; vm_compute; reflexivity). destruct A as (b1 & b2 & ->).
    assert (A : exists u v, c = [u; v]) by (do 2 eexists; vm_compute; reflexivity). destruct A as (c1 & c2 & ->).
    cbn [app nth].
    apply (int_step [[a1; a2]]). apply (int_step []). apply (int_step [[a2]]). apply (int_step [[a2]]).
    apply (int_step []). apply (int_step [[]]). constructor. repeat constructor.
  - exists m'. split; [exact E|]. intros x. rewrite <- (S x). rewrite !run_spec.
    apply Qplus_comp; [reflexivity|]. cbv zeta. repeat rewrite qsum_cons. rewrite !qsum_nil.
    repeat apply Qplus_comp; match goal with |- (if ?b then _ else _) == _ => destruct b; vm_compute; reflexivity | _ => reflexivity end.
Qed.

(* ---------- C27 ---------- *)
(** a mesh point within reach of a particle, modulo the period: nearer than half the
    support (in mesh units, rounded up) plus one mesh unit *)
Definition within_reach (w : window) (h : Q) (t : affine) (x : list Q) (idx : list Z) : Prop :=
  let s := inject_Z (Qceiling (if Qle_bool (inject_Z (w_support w) * h) 0 then inject_Z (native_of (w_kind w)) else inject_Z (w_support w) * h)) in
  forall i, (i < length x)%nat -> exists j n : Z,
    nth i idx 0%Z = (j + n * nth i (af_period t) 0)%Z /\
    Qabs (nth i x 0 * nth i (af_scale t) 0 + nth i (af_translate t) 0 - inject_Z j) < s / 2 + 1.

Lemma ceiling_unique n e : inject_Z n - 1 < e <= inject_Z n -> Qceiling e = n.
Proof.
  intros [H1 H2]. unfold Qceiling. assert (Qfloor (- e) = (- n)%Z) as ->; [|lia].
  apply Qfloor_unique. rewrite inject_Z_opp. split; lra.
Qed.
Lemma reach_ceiling w real t d h : proper_kind (w_kind w) ->
  reach (painter_of w real t d) h =
  Qceiling (if Qle_bool (inject_Z (w_support w) * h) 0 then inject_Z (native_of (w_kind w)) else inject_Z (w_support w) * h).
Proof.
  intros Hk. symmetry. apply ceiling_unique. unfold reach, window_for. cbn [painter_of mk_painter pt_kind pt_support].
  apply (window_info_ok (native_of (w_kind w)) (inject_Z (w_support w) * h) (proj1 Hk)).
Qed.
Lemma out_of_reach_weight w real t d h x idx : wf_call real t -> proper_kind (w_kind w) -> periods_ok t ->
  length x = length (ar_shape real) -> In idx (elements real) -> ~ within_reach w h t x idx ->
  weight_of (painter_of w real t d) h x idx == 0.
Proof.
  intros Hwf Hk Hper Hx Hidx Hno. rewrite weight_of_prod by (try assumption; apply elements_length, Hidx).
  set (p := painter_of w real t d).
  assert (D : (forall i, (i < length (ar_shape real))%nat -> In (nth i idx 0%Z) (map fst (axis_points p h (axis_of real t d i) (nth i x 0)))) \/
     exists i, (i < length (ar_shape real))%nat /\ ~ In (nth i idx 0%Z) (map fst (axis_points p h (axis_of real t d i) (nth i x 0)))).
  { generalize (length (ar_shape real)) as n. induction n as [|n [IH|IH]].
    - left. intros i Hi. lia.
    - destruct (in_dec Z.eq_dec (nth n idx 0%Z) (map fst (axis_points p h (axis_of real t d n) (nth n x 0)))) as [Y|N].
      + left. intros i Hi. destruct (Nat.eq_dec i n) as [->|]; [exact Y|apply IH; lia].
      + right. exists n. split; [lia|exact N].
    - right. destruct IH as (i & Hi & N). exists i. split; [lia|exact N]. }
  destruct D as [D|(i & Hi & D)].
  - elim Hno. unfold within_reach. cbv zeta. rewrite <- (reach_ceiling w real t d h Hk). fold p. rewrite Hx. intros i Hi.
    assert (Hp : (0 <= ax_period (axis_of real t d i))%Z).
    { apply (axis_in_period w real t d Hwf _ Hper). apply (nth_error_In _ i). apply axes_nth; [exact Hwf|lia]. }
    destruct (axis_points_fst p h (axis_of real t d i) (nth i x 0) Hk Hp) as (j0 & E & B).
    specialize (D i Hi). rewrite E in D. apply in_map_iff in D. destruct D as (j & Ej & Hj). apply in_zrange in Hj.
    assert (R : (0 < reach p h)%Z) by (apply window_info_support, Hk). rewrite Z2Nat.id in Hj by lia.
    destruct (B j Hj) as [B1 B2]. unfold grid_pos in B1, B2. cbn [axis_of ax_scale ax_translate] in B1, B2.
    exists j. unfold wrap_axis in Ej. cbn [axis_of ax_period] in Ej.
    destruct (Z.gtb_spec (nth i (af_period t) 0%Z) 0) as [P|P].
    + exists (- (j / nth i (af_period t) 0))%Z. split; [rewrite <- Ej; rewrite Z.mod_eq by lia; ring|].
      apply Qabs_Qlt_condition. split; lra.
    + exists 0%Z. split; [lia|]. apply Qabs_Qlt_condition. split; lra.
  - apply (qprod_zero _ (wsum (axis_points p h (axis_of real t d i) (nth i x 0)) (nth i idx 0%Z))).
    + apply in_map_iff. exists i. split; [reflexivity|]. apply in_seq. lia.
    + unfold wsum. apply qsum_zero. intros jw Hjw. destruct (Z.eqb_spec (fst jw) (nth i idx 0%Z)) as [E|E]; [|reflexivity].
      elim D. rewrite <- E. apply in_map, Hjw.
Qed.

Theorem C27_locality w real t m pos mass hsml d :
  wf_call real t -> proper_kind (w_kind w) -> periods_ok t -> wf_pos real pos -> wf_diffdir real d ->
  length mass = length pos -> length hsml = length pos ->
  exists m', window_paint w real m pos (Some (Array hsml)) (Some (Array mass)) d (Some t) = Ret m' /\
    (** nothing is written outside of the array *)
    (forall a, (forall idx, In idx (elements real) -> byte_offset (ar_strides real) idx <> a) -> m' a = m a) /\
    (** nor to elements that no particle reaches *)
    (forall idx, In idx (elements real) ->
       (forall i, (i < length pos)%nat -> ~ within_reach w (nth i hsml 0) t (nth i pos []) idx) ->
       elem real m' idx == elem real m idx).
Proof.
  intros Hwf Hk Hper Hpos Hd Hm Hh. eexists. split; [apply (window_paint_ok w real t d Hd); assumption|]. split.
  - intros a Ha. apply paint_all_untouched; try assumption; [apply Hk|apply parts_wf; assumption].
  - intros idx Hidx Hno.
    pose proof (paint_all_cell _ m (parts_of pos mass hsml) idx (painter_of_wf w real t d Hwf (proj1 Hk)) (parts_wf w real t d Hwf pos mass hsml Hpos) (proj1 (in_elements w real t d Hwf idx) Hidx)) as P.
    rewrite !(cell_elem w real t d Hwf) in P. rewrite P.
    rewrite (qsum_parts (fun x q h => q * weight_of (painter_of w real t d) h x idx) pos mass hsml Hm Hh).
    rewrite qsum_zero; [ring|]. intros i Hi. apply in_seq in Hi.
    rewrite out_of_reach_weight; [ring| | | | | |]; try assumption; [|apply Hno; lia].
    unfold wf_pos in Hpos. rewrite Forall_forall in Hpos. apply Hpos, nth_In. lia.
Qed.
Print Assumptions C27_locality.
(** readout looks at no other element *)
Theorem C27_readout_locality w real t m m2 x h d :
  wf_call real t -> proper_kind (w_kind w) -> periods_ok t -> length x = length (ar_shape real) -> wf_diffdir real d ->
  (forall idx, In idx (elements real) -> within_reach w h t x idx -> elem real m idx == elem real m2 idx) ->
  exists v v2, window_readout w real m [x] (Some (Array [h])) d (Some t) = Ret [v] /\
    window_readout w real m2 [x] (Some (Array [h])) d (Some t) = Ret [v2] /\ v == v2.
Proof.
  intros Hwf Hk Hper Hx Hd Heq. 
  exists (readout_at (painter_of w real t d) m x h), (readout_at (painter_of w real t d) m2 x h).
  split; [apply (window_readout_ok w real t d Hd m [x] [h]); reflexivity|].
  split; [apply (window_readout_ok w real t d Hd m2 [x] [h]); reflexivity|].
  rewrite !readout_elements by (try assumption; apply Hk).
  apply qsum_ext_in. intros idx Hidx.
  assert (DR : within_reach w h t x idx \/ weight_of (painter_of w real t d) h x idx == 0).
  { destruct (Qeq_dec (weight_of (painter_of w real t d) h x idx) 0) as [E|E]; [right; exact E|]. left.
    (* the weight is not zero, so every axis has the index among its points *)
    rewrite weight_of_prod in E by (try assumption; apply elements_length, Hidx).
    unfold within_reach. cbv zeta. rewrite <- (reach_ceiling w real t d h Hk). rewrite Hx. intros i Hi.
    assert (Hp : (0 <= ax_period (axis_of real t d i))%Z).
    { apply (axis_in_period w real t d Hwf _ Hper). apply (nth_error_In _ i). apply axes_nth; [exact Hwf|lia]. }
    set (p := painter_of w real t d) in *.
    destruct (axis_points_fst p h (axis_of real t d i) (nth i x 0) Hk Hp) as (j0 & E' & B).
    assert (D : In (nth i idx 0%Z) (map fst (axis_points p h (axis_of real t d i) (nth i x 0)))).
    { destruct (in_dec Z.eq_dec (nth i idx 0%Z) (map fst (axis_points p h (axis_of real t d i) (nth i x 0)))) as [Y|N]; [exact Y|].
      elim E. apply (qprod_zero _ (wsum (axis_points p h (axis_of real t d i) (nth i x 0)) (nth i idx 0%Z))).
      - apply in_map_iff. exists i. split; [reflexivity|]. apply in_seq. lia.
      - unfold wsum. apply qsum_zero. intros jw Hjw. destruct (Z.eqb_spec (fst jw) (nth i idx 0%Z)) as [E2|E2]; [|reflexivity].
        elim N. rewrite <- E2. apply in_map, Hjw. }
    rewrite E' in D. apply in_map_iff in D. destruct D as (j & Ej & Hj). apply in_zrange in Hj.
    assert (R : (0 < reach p h)%Z) by (apply window_info_support, Hk). rewrite Z2Nat.id in Hj by lia.
    destruct (B j Hj) as [B1 B2]. unfold grid_pos in B1, B2. cbn [axis_of ax_scale ax_translate] in B1, B2.
    exists j. unfold wrap_axis in Ej. cbn [axis_of ax_period] in Ej.
    destruct (Z.gtb_spec (nth i (af_period t) 0%Z) 0) as [P|P].
    + exists (- (j / nth i (af_period t) 0))%Z. split; [rewrite <- Ej; rewrite Z.mod_eq by lia; ring|].
      apply Qabs_Qlt_condition. split; lra.
    + exists 0%Z. split; [lia|]. apply Qabs_Qlt_condition. split; lra. }
  destruct DR as [R|Z0]; [rewrite (Heq idx Hidx R); reflexivity|rewrite Z0; ring].
Qed.
Print Assumptions C27_readout_locality.
Example C27_case : exists m', window_paint (ResampleWindow TunedCIC 0) mesh44 (fun a => inject_Z a) [[-(17); 13#10]] (Some (Array [1])) (Some (Array [5])) None (Some box44) = Ret m' /\
    m' 128%Z = 128 /\ ~ elem mesh44 m' [3; 1]%Z == 104 /\ elem mesh44 m' [1; 1]%Z == 40.
Proof.
  destruct (C27_locality (ResampleWindow TunedCIC 0) mesh44 box44 (fun a => inject_Z a) [[-(17); 13#10]] [5] [1] None) as (m' & E & H1 & H2).
  - apply wf_mesh44; reflexivity.
  - apply (standard_proper TunedCIC Logic.I).
  - repeat constructor; discriminate.
  - repeat constructor.
  - exact Logic.I.
  - reflexivity.
  - reflexivity.
  - exists m'. split; [exact E|]. split; [|split].
    + change 128 with (inject_Z 128). apply (H1 128%Z). intros idx Hidx Ho. 
      pose proof (elements_length _ _ Hidx) as L. pose proof (elements_bound _ _ 0%nat Hidx ltac:(cbn; lia)) as B0.
      pose proof (elements_bound _ _ 1%nat Hidx ltac:(cbn; lia)) as B1.
      destruct idx as [|i0 [|i1 [|]]]; try discriminate L. unfold byte_offset in Ho. cbn in B0, B1. cbn [ar_strides mesh44 combine map fold_right fst snd] in Ho. lia.
    + assert (V : match window_paint (ResampleWindow TunedCIC 0) mesh44 (fun a => inject_Z a) [[-(17); 13#10]] (Some (Array [1])) (Some (Array [5])) None (Some box44) with Ret m => Qeq_bool (elem mesh44 m [3; 1]%Z) 104 | _ => true end = false) by (vm_compute; reflexivity).
      rewrite E in V. apply Qeq_bool_neq, V.
    + assert (V : match window_paint (ResampleWindow TunedCIC 0) mesh44 (fun a => inject_Z a) [[-(17); 13#10]] (Some (Array [1])) (Some (Array [5])) None (Some box44) with Ret m => Qeq_bool (elem mesh44 m [1; 1]%Z) 40 | _ => false end = true) by (vm_compute; reflexivity).
      rewrite E in V. apply Qeq_bool_iff, V.
Qed.
