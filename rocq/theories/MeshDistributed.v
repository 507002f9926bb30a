(** Distributed painting and reading against a single process with the whole mesh. *)
From Coq Require Import List Arith ZArith QArith Qabs Qround Lqa Lia Bool Sorted Permutation Setoid Morphisms.
From Verif Require Import Base ListFacts LayoutModel LayoutSpec LayoutProofs LayoutModes LayoutMore WrapModel WrapProofs DomainModel DomainFill DomainGeom DomainTargets
  DomainHome DomainProperties QSum WindowModel WindowStencil WindowSpread WindowKernels WindowAxis WindowNative WindowApi WindowPoints
  WindowGrad WindowTranslate WindowProperties MeshModel MeshAssign MeshRoute MeshPaint MeshTile.
Import ListNotations.
Local Open Scope Q_scope.

(** the argument of a single process that has the particles of all ranks *)
Definition whole_arg (v : wvalue) : option (value Q) :=
  match v with
  | WNone => None
  | WScalar l => Some (Scalar (nth 0 l 0))
  | WArray l => Some (Array (concat l))
  end.
(** extent in cells of a window for the smoothing length [h] of a particle *)
Definition extent (w : window) (h : Q) : Z := wi_support (window_info_init (native_of (w_kind w)) (inject_Z (w_support w) * h)).
(** the window vanishes outside of its extent *)
Definition within (w : window) (h : Q) : Prop :=
  confined_kind (w_kind w) \/
  eff_support (native_of (w_kind w)) (inject_Z (w_support w) * h) == inject_Z (extent w h).
Lemma reach_extent w real t d h : reach (painter_of w real t d) h = extent w h.
Proof. reflexivity. Qed.
Lemma within_bounded w real t d h : within w h -> bounded (painter_of w real t d) h.
Proof. intros H. exact H. Qed.

(** without smoothing lengths the extent is the support of the window *)
Lemma extent_one w : (0 < w_support w)%Z -> extent w 1 = w_support w.
Proof.
  intros H. unfold extent, window_info_init.
  assert (E : inject_Z (w_support w) * 1 == inject_Z (w_support w)) by ring.
  assert (H0 : 0 < inject_Z (w_support w)) by (change 0 with (inject_Z 0); rewrite <- Zlt_Qlt; exact H).
  destruct (Qle_bool_case (inject_Z (w_support w) * 1) 0) as [X|X]; [lra|].
  assert (T : trunc (inject_Z (w_support w) * 1) = w_support w).
  { unfold trunc. destruct (Qle_bool 0 (inject_Z (w_support w) * 1)).
    - rewrite (Qfloor_comp _ _ E). apply Qfloor_Z.
    - rewrite (Qceiling_comp _ _ E). apply Qceiling_Z. }
  rewrite T. cbn [wi_support]. rewrite (proj2 (Qeq_bool_iff _ _) E). lia.
Qed.
Lemma within_one w : (0 < w_support w)%Z -> within w 1.
Proof.
  intros H. right. rewrite (extent_one w H). unfold eff_support.
  assert (H0 : 0 < inject_Z (w_support w)) by (change 0 with (inject_Z 0); rewrite <- Zlt_Qlt; exact H).
  destruct (Qle_bool_case (inject_Z (w_support w) * 1) 0) as [X|X]; [lra|]. ring.
Qed.

Lemma nth_repeat_in {A} (a z : A) n i : (i < n)%nat -> nth i (repeat a n) z = a.
Proof. revert i. induction n as [|n IH]; intros i Hi; [lia|]. destruct i; [reflexivity|]. apply IH. lia. Qed.
Lemma Forall2_map_seq {A B} (R : A -> B -> Prop) (f : nat -> A) (h : nat -> B) n :
  (forall i, (i < n)%nat -> R (f i) (h i)) -> Forall2 R (map f (seq 0 n)) (map h (seq 0 n)).
Proof.
  intros H. assert (G : forall i, In i (seq 0 n) -> R (f i) (h i)) by (intros i Hi; apply in_seq in Hi; apply H; lia).
  clear H. induction (seq 0 n) as [|x l IH]; [constructor|]. cbn [map]. constructor.
  - apply G. left. reflexivity.
  - apply IH. intros i Hi. apply G. right. exact Hi.
Qed.

Section Tags.
Context {A : Type} (poss : list (list A)).
(** tags of all particles *)
Definition all_tags : list (nat * nat) :=
  flat_map (fun s => map (pair s) (seq 0 (length (nth s poss [])))) (seq 0 (length poss)).
Lemma concat_tags {B} (z : B) (l : list (list B)) : map (@length B) l = map (@length A) poss ->
  concat l = map (pick z l) all_tags.
Proof.
  intros L. assert (Ll : length l = length poss) by (rewrite <- (map_length (@length B)), L, map_length; reflexivity).
  unfold all_tags. rewrite map_flat_map. rewrite <- (map_nth_seq l [] (length poss) Ll) at 1.
  rewrite concat_map_flat_map. apply flat_map_ext_in. intros s _. rewrite map_map. unfold pick. cbn [fst snd].
  replace (length (nth s poss [])) with (length (nth s l [])); [symmetry; apply map_nth_seq; reflexivity|].
  rewrite <- (map_nth (@length B) l [] s), L. apply (map_nth (@length A) poss [] s).
Qed.
Lemma all_tags_length : length all_tags = length (concat poss).
Proof.
  unfold all_tags. rewrite flat_map_length_sum, concat_length_sum. f_equal.
  transitivity (map (@length A) (map (fun s => nth s poss []) (seq 0 (length poss)))).
  - rewrite map_map. apply map_ext. intros s. rewrite map_length, seq_length. reflexivity.
  - rewrite map_nth_seq by reflexivity. reflexivity.
Qed.
Lemma whole_values v : wf_wvalue poss v -> uniform v ->
  arg_fits (whole_arg v) (length (concat poss)) /\
  values_of (whole_arg v) (length (concat poss)) = map (fun t => val v (fst t) t) all_tags.
Proof.
  intros H U. destruct v as [|l|l]; cbn [whole_arg values_of arg_fits val].
  - split; [exact Logic.I|]. rewrite <- all_tags_length. apply map_const_repeat.
  - split; [exact Logic.I|]. rewrite <- all_tags_length. rewrite map_const_repeat. apply map_ext_in.
    intros t Ht. unfold all_tags in Ht. apply in_flat_map in Ht. destruct Ht as (s & Hs & Ht).
    apply in_seq in Hs. apply in_map_iff in Ht. destruct Ht as (i & <- & _). cbn [fst]. cbn in H, U. apply U; lia.
  - cbn in H. split; [|apply concat_tags; exact H].
    rewrite !concat_length_sum. rewrite H. reflexivity.
Qed.
Lemma qsum_all_tags (f : nat * nat -> Q) :
  qsum f all_tags == qsum (fun s => qsum (fun i => f (s, i)) (seq 0 (length (nth s poss [])))) (seq 0 (length poss)).
Proof. unfold all_tags. rewrite qsum_flat_map. apply qsum_ext. intros s. rewrite qsum_map. reflexivity. Qed.
Lemma in_all_tags s i : (s < length poss)%nat -> (i < length (nth s poss []))%nat -> In (s, i) all_tags.
Proof.
  intros Hs Hi. unfold all_tags. apply in_flat_map. exists s. split; [apply in_seq; lia|].
  apply in_map_iff. exists i. split; [reflexivity|apply in_seq; lia].
Qed.
Lemma all_tags_in t : In t all_tags -> (fst t < length poss)%nat /\ (snd t < length (nth (fst t) poss []))%nat.
Proof.
  unfold all_tags. rewrite in_flat_map. intros (s & Hs & Ht). apply in_seq in Hs.
  apply in_map_iff in Ht. destruct Ht as (i & <- & Hi). apply in_seq in Hi. cbn [fst snd]. lia.
Qed.
Lemma all_tags_NoDup : NoDup all_tags.
Proof.
  unfold all_tags. apply NoDup_flat_map; [apply seq_NoDup| |].
  - intros s _. apply NoDup_map_in; [congruence|apply seq_NoDup].
  - intros s s' t _ _ H H'. apply in_map_iff in H. apply in_map_iff in H'.
    destruct H as (i & <- & _). destruct H' as (i' & E & _). congruence.
Qed.
End Tags.

Section Mesh.
Variables (Nmesh : list Z) (pt : partition) (blocks : list (list Z)).
Hypothesis (OK : mesh_ok Nmesh pt blocks).
Local Notation edges := (i_edges pt).
Local Notation P := (length blocks).
Local Notation nd := (length Nmesh).
Local Notation start r := (block_start edges (block blocks r)).
Local Notation shape r := (block_shape edges (block blocks r)).
Local Notation g := (mesh_grid pt blocks).

Variables (scale sm : list Q) (w : window) (d : option Z).
Hypothesis (Hscale : length scale = nd) (Hsm : length sm = nd) (Hpos : Forall (fun s => 0 <= s) sm).
Hypothesis (Hroom : room Nmesh pt sm) (Hord : plain_order pt blocks).
Hypothesis (Hk : proper_kind (w_kind w)).
Hypothesis (Hd : match d with None => True | Some d => (- Z.of_nat nd <= d < Z.of_nat nd)%Z end).
Definition rank_affines : list affine := map (affine_at Nmesh pt blocks scale) (seq 0 P).

Variables (poss : list (list (list Q))).
Hypothesis (Hposs : length poss = P) (Hdims : Forall (Forall (fun x => length x = nd)) poss).

(** the ranks that get a copy of a particle *)
Definition receivers (x : list Q) : list nat := targets g sm (transform0 (whole_affine Nmesh scale) x).

Lemma routed : setting P g (transform0 (whole_affine Nmesh scale)) sm poss.
Proof.
  constructor.
  - exact (mesh_wf_grid _ _ _ OK).
  - exact (mesh_wf_axes _ _ _ OK).
  - exact Hposs.
  - intros pos x Hin Hx. rewrite Forall_forall in Hdims. specialize (Hdims pos Hin). rewrite Forall_forall in Hdims.
    assert (H0 : (0 < P)%nat) by (rewrite <- Hposs; destruct poss; [contradiction|simpl; lia]).
    apply (mesh_wf_input _ _ _ OK scale 0%nat Hscale H0 sm Hsm Hpos x (Hdims x Hx)).
Qed.

Lemma routed_args : exists args,
  map (decompose P g (transform0 (whole_affine Nmesh scale)) sm) poss = map Ret args /\
  length args = P /\ wf_args args /\ sent_lengths args poss /\
  forall s r, (s < P)%nat -> (r < P)%nat -> addr args s r = sent_to receivers (nth s poss []) r.
Proof.
  destruct (setting_decompose _ _ _ _ _ routed) as (args & E1 & E2 & E3 & E4 & E5).
  exists args. repeat split; auto. unfold sent_lengths, lengths_ok. symmetry. exact E4.
Qed.

Lemma dims_at s i : (s < P)%nat -> (i < length (nth s poss []))%nat -> length (pick [] poss (s, i)) = nd.
Proof.
  intros Hs Hi. rewrite Forall_forall in Hdims. rewrite <- Hposs in Hs. specialize (Hdims (nth s poss []) (nth_In _ _ Hs)).
  rewrite Forall_forall in Hdims. apply Hdims. apply nth_In. exact Hi.
Qed.

Section Args.
Variable args : list layout_arg.
Hypothesis (Hlen : length args = P) (Hwf : wf_args args) (Hsent : sent_lengths args poss).
(** every rank sends some of its particles, each at most once, in order *)
Hypothesis (Haddr : forall s r, (s < P)%nat -> (r < P)%nat -> exists b, addr args s r = filter b (seq 0 (length (nth s poss [])))).

Lemma tags_sum r (G : nat * nat -> Q) : (r < P)%nat ->
  (forall s i, In (s, i) (all_tags poss) -> ~ In i (addr args s r) -> G (s, i) == 0) ->
  qsum G (tags args r) == qsum G (all_tags poss).
Proof.
  intros Hr H. unfold tags. rewrite qsum_flat_map. rewrite qsum_all_tags. rewrite Hlen, Hposs.
  apply qsum_ext_in. intros s Hs. apply in_seq in Hs. rewrite qsum_map.
  destruct (Haddr s r ltac:(lia) Hr) as [b Eb]. specialize (H s). rewrite Eb in *.
  rewrite qsum_filter. apply qsum_ext_in. intros i Hi.
  destruct (b i) eqn:Ebi; [reflexivity|]. symmetry. apply H.
  - apply in_seq in Hi. apply in_all_tags; lia.
  - rewrite filter_In. intros [_ C]. congruence.
Qed.

(** every particle's smoothing length is accounted for *)
Variable hsml : wvalue.
Hypothesis (Hh : wf_wvalue poss hsml) (Hu : uniform hsml).
Section Fields.
Variables (fs : list field) (whole : array) (wm : memory).
Hypothesis (Lfs : length fs = P).
Hypothesis (Hstored : forall r, (r < P)%nat -> stored (f_array (nth r fs zero_field)) (shape r)).
Hypothesis (Hwhole : stored whole Nmesh).
Local Notation arr r := (f_array (nth r fs zero_field)).
Local Notation pw := (painter_of w whole (whole_affine Nmesh scale) d).

Lemma nth_affine r : (r < P)%nat -> nth r rank_affines zero_affine = affine_at Nmesh pt blocks scale r.
Proof. intros Hr. unfold rank_affines. apply nth_map_seq. exact Hr. Qed.

Lemma shape_dim r : (r < P)%nat -> length (ar_shape (arr r)) = nd.
Proof. intros Hr. rewrite (proj1 (Hstored r Hr)). apply (block_shape_length _ _ _ OK). exact Hr. Qed.

Lemma ranks_ok r : (r < length args)%nat -> rank_ok poss d (nth r fs zero_field) (nth r rank_affines zero_affine).
Proof.
  rewrite Hlen. intros Hr. rewrite (nth_affine r Hr). split; [|split].
  - apply (wf_local _ _ _ OK scale (arr r) r Hscale Hr (Hstored r Hr)).
  - unfold wf_diffdir. rewrite (shape_dim r Hr). exact Hd.
  - unfold wf_pos. rewrite (shape_dim r Hr). exact Hdims.
Qed.

(** the weights of all particles on a rank's cell are those on the whole mesh *)
Lemma rank_weight r t idx : (r < P)%nat -> In t (all_tags poss) -> In idx (elements (arr r)) ->
  weight_of (rank_painter w rank_affines d fs r) (val hsml r t) (pick [] poss t) idx ==
  weight_of pw (val hsml (fst t) t) (pick [] poss t) (zadd idx (start r)).
Proof.
  intros Hr Ht Hin. apply all_tags_in in Ht. rewrite Hposs in Ht. destruct t as [s i]. cbn [fst snd] in *.
  unfold rank_painter. rewrite (nth_affine r Hr).
  rewrite (weight_local _ _ _ OK w scale d (arr r) whole r Hk Hscale Hr (Hstored r Hr) Hwhole); [|apply dims_at; apply Ht|exact Hin].
  rewrite (uniform_val poss hsml r s); [reflexivity|exact Hh|exact Hu|lia|lia].
Qed.
(** a particle that has weight on a rank is sent there *)
Hypothesis (Hcover : forall r s i idx, (r < P)%nat -> In (s, i) (all_tags poss) -> In idx (elements (arr r)) ->
  ~ In i (addr args s r) -> weight_of (rank_painter w rank_affines d fs r) (val hsml r (s, i)) (pick [] poss (s, i)) idx == 0).

Lemma wf_positions : wf_pos whole (concat poss).
Proof.
  unfold wf_pos. rewrite (proj1 Hwhole). apply Forall_concat. exact Hdims.
Qed.
Lemma whole_diffdir : wf_diffdir whole d.
Proof. unfold wf_diffdir. rewrite (proj1 Hwhole). exact Hd. Qed.
Lemma whole_wf : wf_call whole (whole_affine Nmesh scale).
Proof. apply (wf_whole _ _ _ OK scale whole Hscale Hwhole). Qed.

Lemma whole_paint mass : wf_wvalue poss mass -> uniform mass ->
  exists wm', window_paint w whole wm (concat poss) (whole_arg hsml) (whole_arg mass) d (Some (whole_affine Nmesh scale)) = Ret wm' /\
  forall c, In c (elements whole) -> elem whole wm' c ==
    elem whole wm c + qsum (fun t => val mass (fst t) t * weight_of pw (val hsml (fst t) t) (pick [] poss t) c) (all_tags poss).
Proof.
  intros Hm Um. destruct (whole_values poss hsml Hh Hu) as [A1 A2]. destruct (whole_values poss mass Hm Um) as [B1 B2].
  eexists. split.
  - apply window_paint_values; [apply whole_diffdir|exact A1|exact B1].
  - intros c Hc. rewrite A2, B2.
    assert (Lt := all_tags_length poss).
    rewrite paint_all_elem; [|exact whole_wf|exact (proj1 Hk)|exact wf_positions|rewrite map_length; exact Lt|rewrite map_length; exact Lt|exact Hc].
    apply Qplus_comp; [reflexivity|]. rewrite <- Lt. pose proof (concat_tags poss [] poss eq_refl) as Ct.
    rewrite (qsum_nth _ (0,0)%nat (all_tags poss)). apply qsum_ext_in. intros i Hi. apply in_seq in Hi.
    rewrite Ct. rewrite !(nth_map_in _ (all_tags poss) i _ (0,0)%nat) by lia. reflexivity.
Qed.

Theorem paint_covered pms w' ts' (hold : bool) mass :
  resampler_of pms w' = w -> transforms pms ts' = rank_affines -> wf_wvalue poss mass -> uniform mass ->
  (forall r idx, (r < P)%nat -> In idx (elements (arr r)) ->
     elem whole wm (zadd idx (start r)) == if hold then elem (arr r) (f_data (nth r fs zero_field)) idx else 0) ->
  exists ms wm', pm_paint pms w' ts' hold d (Some (layout_init args)) fs poss hsml mass = map Ret ms /\
    length ms = P /\
    window_paint w whole wm (concat poss) (whole_arg hsml) (whole_arg mass) d (Some (whole_affine Nmesh scale)) = Ret wm' /\
    forall r idx, (r < P)%nat -> In idx (elements (arr r)) ->
      elem (arr r) (nth r ms (fun _ => 0)) idx == elem whole wm' (zadd idx (start r)).
Proof.
  intros Ew Et Hm Um Hinit.
  assert (Lts : length rank_affines = length args) by (unfold rank_affines; rewrite map_length, seq_length; lia).
  destruct (pm_paint_elem args poss Hwf Hsent w rank_affines d (proj1 Hk) Lts fs hold ltac:(lia) ranks_ok
    pms w' ts' hsml mass Ew Et Hh Hm) as (ms & E & L & H).
  destruct (whole_paint mass Hm Um) as (wm' & E' & H').
  exists ms, wm'. split; [exact E|]. split; [lia|]. split; [exact E'|].
  intros r idx Hr Hin. rewrite (H r idx ltac:(lia) Hin).
  rewrite (H' _ (zadd_in _ _ _ OK scale (arr r) whole r Hscale Hr (Hstored r Hr) Hwhole idx Hin)).
  rewrite (Hinit r idx Hr Hin). apply Qplus_comp; [reflexivity|].
  rewrite (tags_sum r _ Hr).
  - apply qsum_ext_in. intros t Ht. rewrite (rank_weight r t idx Hr Ht Hin).
    destruct (all_tags_in poss t Ht) as [T1 _].
    rewrite (uniform_val poss mass r (fst t) t Hm Um) by lia. reflexivity.
  - intros s i Ht Hno. rewrite (Hcover r s i idx Hr Ht Hin Hno). ring.
Qed.

Theorem readout_covered pms w' ts' :
  resampler_of pms w' = w -> transforms pms ts' = rank_affines ->
  (forall r idx, (r < P)%nat -> In idx (elements (arr r)) ->
     elem whole wm (zadd idx (start r)) == elem (arr r) (f_data (nth r fs zero_field)) idx) ->
  exists vs, pm_readout pms w' ts' d (Some (layout_init args)) fs poss hsml = map Ret vs /\ length vs = P /\
    forall s, (s < P)%nat -> exists us,
      window_readout w whole wm (nth s poss []) (local_arg hsml s) d (Some (whole_affine Nmesh scale)) = Ret us /\
      Forall2 Qeq (nth s vs []) us.
Proof.
  intros Ew Et Hinit.
  assert (Lts : length rank_affines = length args) by (unfold rank_affines; rewrite map_length, seq_length; lia).
  destruct (pm_readout_sum args poss Hwf Hsent w rank_affines d Lts fs ltac:(lia) ranks_ok
    pms w' ts' hsml Ew Et Hh) as (vs & E & L & H).
  assert (Lv : length vs = P) by (rewrite <- (map_length (@length Q)), L, map_length; exact Hposs).
  exists vs. split; [exact E|]. split; [exact Lv|]. intros s Hs.
  assert (Af : arg_fits (local_arg hsml s) (length (nth s poss [])) /\
     forall i, (i < length (nth s poss []))%nat -> nth i (values_of (local_arg hsml s) (length (nth s poss []))) 0 = val hsml s (s, i)).
  { destruct hsml as [|l|l]; cbn [local_arg val]; cbn in Hh.
    - split; [exact Logic.I|]. intros i Hi. cbn [values_of]. apply nth_repeat_in. exact Hi.
    - rewrite (nth_error_nth' l 0 (n := s)) by lia. split; [exact Logic.I|]. intros i Hi. cbn [option_map values_of]. apply nth_repeat_in. exact Hi.
    - assert (Ll : length l = P) by (rewrite <- (map_length (@length Q)), Hh, map_length; exact Hposs).
      rewrite (nth_error_nth' l [] (n := s)) by lia. cbn [option_map arg_fits values_of]. split; [|reflexivity].
      rewrite <- (map_nth (@length Q) l [] s), Hh. apply (map_nth (@length _) poss [] s). }
  destruct Af as [Af Av].
  eexists. split; [apply window_readout_values; [exact whole_diffdir|exact Af]|].
  assert (Ln : length (nth s vs []) = length (nth s poss [])).
  { rewrite <- (map_nth (@length Q) vs [] s), L. apply (map_nth (@length _) poss [] s). }
  rewrite <- (map_nth_seq (nth s vs []) 0 _ Ln).
  apply Forall2_map_seq. intros i Hi. rewrite (H s i ltac:(lia) Hi). rewrite (Av i Hi).
  change (nth i (nth s poss []) []) with (pick [] poss (s, i)).
  rewrite readout_elements; [|exact whole_wf|exact (proj1 Hk)|rewrite (dims_at s i Hs Hi), (proj1 Hwhole); reflexivity].
  unfold elements at 1. rewrite (proj1 Hwhole). change (box (map (fun n => (0%Z, n)) Nmesh)) with (cells_of Nmesh).
  rewrite (mesh_sum _ _ _ OK). rewrite Hlen. apply qsum_ext_in. intros r Hr. apply in_seq in Hr.
  assert (Hr' : (r < P)%nat) by lia.
  assert (It := in_all_tags poss s i ltac:(lia) Hi).
  assert (Er : read_at poss w rank_affines d fs hsml r (s, i) ==
    qsum (fun idx => weight_of (rank_painter w rank_affines d fs r) (val hsml r (s, i)) (pick [] poss (s, i)) idx *
       elem (arr r) (f_data (nth r fs zero_field)) idx) (elements (arr r))).
  { unfold read_at, rank_painter. destruct (ranks_ok r ltac:(lia)) as (W1 & _ & _).
    rewrite readout_elements; [reflexivity|exact W1|exact (proj1 Hk)|rewrite (dims_at s i Hs Hi), (shape_dim r Hr'); reflexivity]. }
  rewrite (tags_sum r (fun t => if tag_eqb t (s, i) then read_at poss w rank_affines d fs hsml r t else 0) Hr').
  - rewrite (qsum_single _ (all_tags poss) (s, i)).
    + destruct (tag_eqb_spec (s, i) (s, i)) as [_|N]; [|congruence]. rewrite Er.
      unfold elements at 1. rewrite (proj1 (Hstored r Hr')). change (box (map (fun n => (0%Z, n)) (shape r))) with (cells_of (shape r)).
      apply qsum_ext_in. intros idx Hin.
      assert (Hin' : In idx (elements (arr r))) by (unfold elements; rewrite (proj1 (Hstored r Hr')); exact Hin).
      rewrite (rank_weight r (s, i) idx Hr' It Hin'). rewrite (Hinit r idx Hr' Hin'). reflexivity.
    + apply all_tags_NoDup.
    + exact It.
    + intros t _ N. destruct (tag_eqb_spec t (s, i)); [contradiction|reflexivity].
  - intros s' i' Ht Hno. destruct (tag_eqb_spec (s', i') (s, i)) as [E1|]; [|reflexivity]. rewrite E1 in *. inversion E1; subst s' i'. rewrite Er.
    apply qsum_zero. intros idx Hin. rewrite (Hcover r s i idx Hr' It Hin Hno). ring.
Qed.
End Fields.
End Args.

Section Sent.
Variable args : list layout_arg.
Hypothesis (Hlen : length args = P) (Hwf : wf_args args) (Hsent : sent_lengths args poss).
Hypothesis (Haddr : forall s r, (s < P)%nat -> (r < P)%nat -> addr args s r = sent_to receivers (nth s poss []) r).
(** every particle's smoothing length is accounted for *)
Variable hsml : wvalue.
Hypothesis (Hh : wf_wvalue poss hsml) (Hu : uniform hsml).
Hypothesis (Hext : forall s i, (s < P)%nat -> (i < length (nth s poss []))%nat ->
  within w (val hsml s (s, i)) /\ forall a, (a < nd)%nat -> inject_Z (extent w (val hsml s (s, i))) / 2 <= nth a sm 0).

Variables (fs : list field) (whole : array) (wm : memory).
Hypothesis (Lfs : length fs = P).
Hypothesis (Hstored : forall r, (r < P)%nat -> stored (f_array (nth r fs zero_field)) (shape r)).
Hypothesis (Hwhole : stored whole Nmesh).
Local Notation arr r := (f_array (nth r fs zero_field)).

Lemma sent_filter s r : (s < P)%nat -> (r < P)%nat -> exists b, addr args s r = filter b (seq 0 (length (nth s poss []))).
Proof. intros Hs Hr. eexists. rewrite Haddr by assumption. reflexivity. Qed.
Lemma sent_cover r s i idx : (r < P)%nat -> In (s, i) (all_tags poss) -> In idx (elements (arr r)) ->
  ~ In i (addr args s r) -> weight_of (rank_painter w rank_affines d fs r) (val hsml r (s, i)) (pick [] poss (s, i)) idx == 0.
Proof.
  intros Hr Ht Hin Hno. apply all_tags_in in Ht. rewrite Hposs in Ht. cbn [fst snd] in *. destruct Ht as [Hs Hi].
  unfold rank_painter. rewrite (nth_affine r Hr).
  destruct (Hext s i Hs Hi) as [E1 E2].
  assert (Ev : val hsml r (s, i) = val hsml s (s, i)) by (apply (uniform_val poss); auto; lia). rewrite Ev.
  apply (unsent_no_weight _ _ _ OK w scale d (arr r) r Hk Hscale Hr (Hstored r Hr) sm Hsm Hpos Hroom Hord).
  - apply dims_at; assumption.
  - exact Hin.
  - apply within_bounded. exact E1.
  - intros a Ha. rewrite reach_extent. apply E2. exact Ha.
  - intros C. apply Hno. rewrite Haddr by assumption. apply sent_to_in. split; [exact Hi|exact C].
Qed.
Theorem paint_matches pms w' ts' (hold : bool) mass :
  resampler_of pms w' = w -> transforms pms ts' = rank_affines -> wf_wvalue poss mass -> uniform mass ->
  (forall r idx, (r < P)%nat -> In idx (elements (arr r)) ->
     elem whole wm (zadd idx (start r)) == if hold then elem (arr r) (f_data (nth r fs zero_field)) idx else 0) ->
  exists ms wm', pm_paint pms w' ts' hold d (Some (layout_init args)) fs poss hsml mass = map Ret ms /\
    length ms = P /\
    window_paint w whole wm (concat poss) (whole_arg hsml) (whole_arg mass) d (Some (whole_affine Nmesh scale)) = Ret wm' /\
    forall r idx, (r < P)%nat -> In idx (elements (arr r)) ->
      elem (arr r) (nth r ms (fun _ => 0)) idx == elem whole wm' (zadd idx (start r)).
Proof. apply (paint_covered args Hlen Hwf Hsent sent_filter hsml Hh Hu fs whole wm Lfs Hstored Hwhole sent_cover). Qed.
Theorem readout_matches pms w' ts' :
  resampler_of pms w' = w -> transforms pms ts' = rank_affines ->
  (forall r idx, (r < P)%nat -> In idx (elements (arr r)) ->
     elem whole wm (zadd idx (start r)) == elem (arr r) (f_data (nth r fs zero_field)) idx) ->
  exists vs, pm_readout pms w' ts' d (Some (layout_init args)) fs poss hsml = map Ret vs /\ length vs = P /\
    forall s, (s < P)%nat -> exists us,
      window_readout w whole wm (nth s poss []) (local_arg hsml s) d (Some (whole_affine Nmesh scale)) = Ret us /\
      Forall2 Qeq (nth s vs []) us.
Proof. apply (readout_covered args Hlen Hwf Hsent sent_filter hsml Hh Hu fs whole wm Lfs Hstored Hwhole sent_cover). Qed.
End Sent.
End Mesh.
