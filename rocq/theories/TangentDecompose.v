(** C81, continued: paint and readout as functions of the positions, each with the layout
    that [decompose] returns for the positions it is given.  The particles may move to other
    ranks. *)
From Coq Require Import List Arith ZArith QArith Qabs Qround Lqa Lia Bool Sorted Permutation Setoid Morphisms.
From Verif Require Import Base ListFacts LayoutModel LayoutSpec LayoutProofs LayoutModes LayoutMore WrapModel WrapProofs DomainModel DomainFill DomainGeom DomainTargets
  DomainHome DomainProperties QSum WindowModel WindowStencil WindowSpread WindowKernels WindowAxis WindowNative WindowApi WindowPoints
  WindowGrad WindowTranslate WindowTables WindowProperties WindowProperties2 WindowProperties3
  MeshModel MeshAssign MeshRoute MeshPaint MeshTile MeshDistributed MeshGrad MeshProperties MeshProperties2 MeshProperties3 MeshTangent TangentProperties.
Import ListNotations.
Local Open Scope Q_scope.

(** ** every rank sends all its particles to every rank *)
Definition all_args (poss : list (list (list Q))) : list layout_arg :=
  map (fun pos => (length pos, repeat (length pos) (length poss), concat (repeat (seq 0 (length pos)) (length poss)))) poss.
Lemma all_args_addr poss s r : (s < length poss)%nat -> (r < length poss)%nat ->
  addr (all_args poss) s r = seq 0 (length (nth s poss [])).
Proof.
  intros Hs Hr. unfold addr, arg_at, all_args. rewrite (nth_map_in _ poss s _ []) by exact Hs. cbn [a_counts a_indices fst snd].
  assert (E : repeat (length (nth s poss [])) (length poss) = map (@length nat) (repeat (seq 0 (length (nth s poss []))) (length poss))).
  { generalize (length poss). intros n. induction n as [|n IH]; [reflexivity|]. cbn [repeat map]. rewrite seq_length, IH. reflexivity. }
  rewrite E, chunks_concat. apply nth_repeat_in. exact Hr.
Qed.
Lemma all_args_wf poss : wf_args (all_args poss) /\ sent_lengths (all_args poss) poss /\ length (all_args poss) = length poss.
Proof.
  unfold all_args. split; [|split].
  - unfold wf_args. apply Forall_map, Forall_forall. intros pos _. rewrite map_length. cbn [a_counts a_indices a_len fst snd].
    split; [apply repeat_length|]. split.
    + rewrite concat_length_sum. f_equal. generalize (length poss). intros n.
      induction n as [|n IH]; [reflexivity|]. cbn [repeat map]. rewrite seq_length, IH. reflexivity.
    + apply Forall_concat, Forall_forall. intros l Hl. apply repeat_spec in Hl. subst l. apply Forall_forall. intros i Hi. apply in_seq in Hi. lia.
  - unfold sent_lengths, lengths_ok. rewrite map_map. reflexivity.
  - apply map_length.
Qed.

Lemma array_at arrays fs r : map f_array fs = arrays -> f_array (nth r fs zero_field) = nth r arrays (f_array zero_field).
Proof. intros <-. rewrite (map_nth f_array). reflexivity. Qed.

(** ** two ways to route the particles that both reach all cells *)
Section Complete.
Variables (pms : list pm) (w : option window) (ts : option (list affine)) (arrays : list array).
Local Notation nd := (ndim_of pms).
Local Notation win := (resampler_of pms w).
Local Notation trs := (transforms pms ts).
Local Notation arr r := (nth r arrays (f_array zero_field)).
Local Notation trf r := (nth r trs zero_affine).
Local Notation wgt d r x idx := (weight_of (painter_of win (arr r) (trf r) d) 1 x idx).
Definition complete (poss : list (list (list Q))) (T : nat -> list (nat * nat)) : Prop :=
  forall d r idx (G : nat * nat -> Q), direction_ok nd d -> (r < length poss)%nat -> In idx (elements (arr r)) ->
    qsum (fun t => G t * wgt d r (pick [] poss t) idx) (T r) == qsum (fun t => G t * wgt d r (pick [] poss t) idx) (all_tags poss).

Variables (poss : list (list (list Q))) (ls1 ls2 : option (list layout)) (T1 T2 : nat -> list (nat * nat)).
Hypotheses (C1 : call_ok pms w ts ls1 arrays poss) (C2 : call_ok pms w ts ls2 arrays poss).
Hypotheses (R1 : routing poss ls1 T1) (R2 : routing poss ls2 T2) (K1 : complete poss T1) (K2 : complete poss T2).
Local Notation P := (length poss).

Lemma complete_eq d r idx G : direction_ok nd d -> (r < P)%nat -> In idx (elements (arr r)) ->
  qsum (fun t => G t * wgt d r (pick [] poss t) idx) (T1 r) == qsum (fun t => G t * wgt d r (pick [] poss t) idx) (T2 r).
Proof. intros Hd Hr Hi. rewrite (K1 d r idx G Hd Hr Hi), (K2 d r idx G Hd Hr Hi). reflexivity. Qed.

Lemma paints_agree hold outs mass : map f_array outs = arrays -> map (@length Q) mass = map (@length _) poss ->
  exists m1 m2, pm_paint pms w ts hold None ls1 outs poss WNone (WArray mass) = map Ret m1 /\
    pm_paint pms w ts hold None ls2 outs poss WNone (WArray mass) = map Ret m2 /\
    forall r idx, (r < P)%nat -> In idx (elements (arr r)) ->
      elem (arr r) (nth r m1 (fun _ => 0)) idx == elem (arr r) (nth r m2 (fun _ => 0)) idx.
Proof.
  intros Ea Hm.
  destruct (routed_paint poss ls1 T1 R1 win trs (ck_window _ _ _ _ _ _ C1) (ck_transforms _ _ _ _ _ _ C1) pms w ts eq_refl eq_refl
      outs hold None mass (fields_length _ _ _ _ _ _ C1 outs Ea) (call_rank _ _ _ _ _ _ C1 None outs Ea Logic.I) Hm) as (m1 & E1 & _ & F1).
  destruct (routed_paint poss ls2 T2 R2 win trs (ck_window _ _ _ _ _ _ C2) (ck_transforms _ _ _ _ _ _ C2) pms w ts eq_refl eq_refl
      outs hold None mass (fields_length _ _ _ _ _ _ C2 outs Ea) (call_rank _ _ _ _ _ _ C2 None outs Ea Logic.I) Hm) as (m2 & E2 & _ & F2).
  exists m1, m2. split; [exact E1|]. split; [exact E2|]. intros r idx Hr Hin.
  pose proof Hin as Hin'. rewrite <- (array_at _ outs r Ea) in Hin'.
  specialize (F1 r idx Hr Hin'). specialize (F2 r idx Hr Hin').
  unfold rank_painter in F1, F2. rewrite !(array_at _ outs r Ea) in F1, F2. rewrite F1, F2.
  apply Qplus_comp; [reflexivity|]. apply (complete_eq None r idx (pick 0 mass)); [exact Logic.I|exact Hr|exact Hin].
Qed.

Lemma jvps_agree outs mass v u : map f_array outs = arrays -> map (@length Q) mass = map (@length _) poss ->
  (forall v', v = Some v' -> vectors_ok nd poss v') -> (forall u', u = Some u' -> map (@length Q) u' = map (@length _) poss) ->
  exists m1 m2, pm_paint_jvp pms w ts None ls1 outs poss (WArray mass) v u = map Ret m1 /\
    pm_paint_jvp pms w ts None ls2 outs poss (WArray mass) v u = map Ret m2 /\
    forall r idx, (r < P)%nat -> In idx (elements (arr r)) ->
      elem (arr r) (nth r m1 (fun _ => 0)) idx == elem (arr r) (nth r m2 (fun _ => 0)) idx.
Proof.
  intros Ea Hm Hv Hu.
  destruct (jvp_elem _ _ _ _ _ _ C1 T1 R1 outs mass v u Ea Hm Hv Hu) as (m1 & E1 & F1).
  destruct (jvp_elem _ _ _ _ _ _ C2 T2 R2 outs mass v u Ea Hm Hv Hu) as (m2 & E2 & F2).
  exists m1, m2. split; [exact E1|]. split; [exact E2|]. intros r idx Hr Hin.
  rewrite (F1 r idx Hr Hin), (F2 r idx Hr Hin).
  assert (X : forall T, qsum (fun t => pick 0 mass t * qsum (fun d => vector_at v (fst t) (snd t) d * wgt (Some (Z.of_nat d)) r (pick [] poss t) idx) (seq 0 nd)
                     + number_at u (fst t) (snd t) * wgt None r (pick [] poss t) idx) T ==
    qsum (fun d => qsum (fun t => (pick 0 mass t * vector_at v (fst t) (snd t) d) * wgt (Some (Z.of_nat d)) r (pick [] poss t) idx) T) (seq 0 nd) +
    qsum (fun t => number_at u (fst t) (snd t) * wgt None r (pick [] poss t) idx) T).
  { intros T. rewrite qsum_plus. apply Qplus_comp; [|reflexivity]. rewrite qsum_swap. apply qsum_ext. intros t.
    rewrite <- qsum_scale. apply qsum_ext. intros d. ring. }
  rewrite (X (T1 r)), (X (T2 r)). apply Qplus_comp.
  - apply qsum_ext_in. intros d Hd. apply in_seq in Hd.
    apply (complete_eq (Some (Z.of_nat d)) r idx (fun t => pick 0 mass t * vector_at v (fst t) (snd t) d)); [simpl; lia|exact Hr|exact Hin].
  - apply (complete_eq None r idx (fun t => number_at u (fst t) (snd t))); [exact Logic.I|exact Hr|exact Hin].
Qed.

(** a weight in one direction, times a number for every particle and cell *)
Lemma read_sums d H s i : direction_ok nd d ->
  read_sum arrays poss T1 (fun r t idx => wgt d r (pick [] poss t) idx * H r t idx) s i ==
  read_sum arrays poss T2 (fun r t idx => wgt d r (pick [] poss t) idx * H r t idx) s i.
Proof.
  intros Hd. unfold read_sum. apply qsum_ext_in. intros r Hr. apply in_seq in Hr. assert (Hr' : (r < P)%nat) by lia.
  assert (X : forall T, qsum (fun t => if tag_eqb t (s, i) then qsum (fun idx => wgt d r (pick [] poss t) idx * H r t idx) (elements (arr r)) else 0) T ==
    qsum (fun idx => qsum (fun t => (if tag_eqb t (s, i) then H r t idx else 0) * wgt d r (pick [] poss t) idx) T) (elements (arr r))).
  { intros T. rewrite qsum_swap. apply qsum_ext. intros t. destruct (tag_eqb t (s, i)).
    - apply qsum_ext. intros idx. ring.
    - symmetry. apply qsum_zero. intros idx _. ring. }
  rewrite (X (T1 r)), (X (T2 r)). apply qsum_ext_in. intros idx Hin.
  apply (complete_eq d r idx (fun t => if tag_eqb t (s, i) then H r t idx else 0)); assumption.
Qed.

Lemma reads_agree fs : map f_array fs = arrays ->
  exists v1 v2, pm_readout pms w ts None ls1 fs poss WNone = map Ret v1 /\ pm_readout pms w ts None ls2 fs poss WNone = map Ret v2 /\
    forall s i, (s < P)%nat -> (i < length (nth s poss []))%nat -> nth i (nth s v1 []) 0 == nth i (nth s v2 []) 0.
Proof.
  intros Ea.
  destruct (read_elem _ _ _ _ _ _ C1 T1 R1 fs None Ea Logic.I) as (v1 & E1 & _ & F1).
  destruct (read_elem _ _ _ _ _ _ C2 T2 R2 fs None Ea Logic.I) as (v2 & E2 & _ & F2).
  exists v1, v2. split; [exact E1|]. split; [exact E2|]. intros s i Hs Hi. rewrite (F1 s i Hs Hi), (F2 s i Hs Hi).
  apply (read_sums None (fun r t idx => cell_at arrays (Some fs) r idx)). exact Logic.I.
Qed.

Lemma readout_jvps_agree fs g v : map f_array fs = arrays -> (forall g', g = Some g' -> map f_array g' = arrays) ->
  (forall v', v = Some v' -> vectors_ok nd poss v') ->
  exists j1 j2, pm_readout_jvp pms w ts None ls1 fs poss g v = map Ret j1 /\ pm_readout_jvp pms w ts None ls2 fs poss g v = map Ret j2 /\
    forall s i, (s < P)%nat -> (i < length (nth s poss []))%nat -> nth i (nth s j1 []) 0 == nth i (nth s j2 []) 0.
Proof.
  intros Ea Hg Hv.
  destruct (readout_jvp_elem _ _ _ _ _ _ C1 T1 R1 fs g v Ea Hg Hv) as (j1 & E1 & _ & F1).
  destruct (readout_jvp_elem _ _ _ _ _ _ C2 T2 R2 fs g v Ea Hg Hv) as (j2 & E2 & _ & F2).
  exists j1, j2. split; [exact E1|]. split; [exact E2|]. intros s i Hs Hi. rewrite (F1 s i Hs Hi), (F2 s i Hs Hi).
  assert (X : forall T, read_sum arrays poss T (fun r t idx => qsum (fun d => vector_at v (fst t) (snd t) d * wgt (Some (Z.of_nat d)) r (pick [] poss t) idx) (seq 0 nd) * cell_at arrays (Some fs) r idx
        + wgt None r (pick [] poss t) idx * cell_at arrays g r idx) s i ==
    qsum (fun d => read_sum arrays poss T (fun r t idx => wgt (Some (Z.of_nat d)) r (pick [] poss t) idx * (vector_at v (fst t) (snd t) d * cell_at arrays (Some fs) r idx)) s i) (seq 0 nd)
    + read_sum arrays poss T (fun r t idx => wgt None r (pick [] poss t) idx * cell_at arrays g r idx) s i).
  { intros T. rewrite read_sum_plus. apply Qplus_comp; [|reflexivity]. rewrite <- read_sum_sum. apply read_sum_ext.
    intros r t idx _ _ _. rewrite <- qsum_scale_r. apply qsum_ext. intros d. ring. }
  rewrite (X T1), (X T2). apply Qplus_comp.
  - apply qsum_ext_in. intros d Hd. apply in_seq in Hd. apply (read_sums (Some (Z.of_nat d)) (fun r t idx => vector_at v (fst t) (snd t) d * cell_at arrays (Some fs) r idx)). simpl. lia.
  - apply (read_sums None (fun r t idx => cell_at arrays g r idx)). exact Logic.I.
Qed.
End Complete.

(** ** decompose reaches all cells *)
(** the transforms are shifts of one another by the blocks, and the smoothing given to
    [decompose] covers the window and leaves room *)
Record ghosts_ok (Nmesh : list Z) (box : list Q) (w0 : window) (pt : partition) (blocks : list (list Z)) (pms : list pm)
    (scale : list Q) (ts : option (list affine)) (s : smoothing_arg) (sm : list Q) (w : option window) : Prop := {
  gh_scale : length scale = length Nmesh;
  gh_transforms : transforms pms ts = rank_affines Nmesh pt blocks scale;
  gh_window : proper_kind (w_kind (resampler_of pms w));
  gh_smoothing : mkarr (smoothing_value (nth 0 pms (mesh_pm Nmesh pt blocks box w0 0)) s) (length Nmesh) = Ret sm;
  gh_length : length sm = length Nmesh;
  gh_positive : Forall (fun q => 0 <= q) sm;
  gh_room : room Nmesh pt sm;
  gh_within : within (resampler_of pms w) 1;
  gh_extent : forall a, (a < length Nmesh)%nat -> inject_Z (extent (resampler_of pms w) 1) / 2 <= nth a sm 0
}.

Section Decomposed.
Variables (Nmesh : list Z) (BoxSize : value Q) (box : list Q) (w0 : window) (pt : partition) (blocks : list (list Z)) (pms : list pm).
Hypothesis W : world Nmesh BoxSize box w0 pt blocks pms.
Variables (scale : list Q) (ts : option (list affine)) (s : smoothing_arg) (sm : list Q) (w : option window).
Hypothesis G : ghosts_ok Nmesh box w0 pt blocks pms scale ts s sm w.
Variable arrays : list array.
Hypothesis La : length arrays = length blocks.
Hypothesis Hst : forall r, (r < length blocks)%nat -> stored (nth r arrays (f_array zero_field)) (block_shape (i_edges pt) (block blocks r)).
Let OK : mesh_ok Nmesh pt blocks := wd_mesh _ _ _ _ _ _ _ W.
Local Notation P := (length blocks).

Lemma world_ndim : ndim_of pms = length Nmesh.
Proof.
  rewrite (world_pms _ _ _ _ _ _ _ W). pose proof (world_blocks _ _ _ _ _ _ _ W) as H0. destruct (length blocks) as [|n]; [lia|]. reflexivity.
Qed.
Lemma call_any ls poss : particles_ok (length Nmesh) P poss -> layout_fits poss ls -> call_ok pms w ts ls arrays poss.
Proof.
  intros [Lp Dp] Hl.
  destruct G as [Hsc Hts Hk _ _ _ _ _ _]. constructor.
  - exact Hl.
  - exact (proj1 Hk).
  - rewrite Hts, Lp. unfold rank_affines. rewrite map_length, seq_length. reflexivity.
  - lia.
  - intros r a t Ea Et. rewrite world_ndim.
    assert (Hr : (r < P)%nat) by (rewrite <- La; apply nth_error_Some; congruence).
    assert (A : nth r arrays (f_array zero_field) = a) by (apply nth_error_nth; exact Ea).
    pose proof (Hst r Hr) as Hs. rewrite A in Hs.
    rewrite Hts in Et. unfold rank_affines in Et. rewrite nth_error_map, nth_error_seq_lt in Et by exact Hr. cbn in Et. injection Et as <-.
    split; [apply (wf_local _ _ _ OK scale a r Hsc Hr Hs)|]. rewrite (proj1 Hs). apply (block_shape_length _ _ _ OK). exact Hr.
  - rewrite world_ndim. exact Dp.
Qed.

(** tags from a set of arguments whose missing copies have no weight *)
Lemma complete_args poss args : particles_ok (length Nmesh) P poss -> length args = P ->
  (forall s r, (s < P)%nat -> (r < P)%nat -> exists b, addr args s r = filter b (seq 0 (length (nth s poss [])))) ->
  (forall d r s i idx, direction_ok (length Nmesh) d -> (r < P)%nat -> In (s, i) (all_tags poss) -> In idx (elements (nth r arrays (f_array zero_field))) ->
     ~ In i (addr args s r) ->
     weight_of (painter_of (resampler_of pms w) (nth r arrays (f_array zero_field)) (nth r (transforms pms ts) zero_affine) d) 1 (pick [] poss (s, i)) idx == 0) ->
  complete pms w ts arrays poss (tags args).
Proof.
  intros [Lp Dp] Ln Hf Hz d r idx F Hd Hr Hin. rewrite world_ndim in Hd.
  apply (tags_sum Nmesh blocks scale sm (gh_scale _ _ _ _ _ _ _ _ _ _ _ G) (gh_length _ _ _ _ _ _ _ _ _ _ _ G) poss Lp args Ln Hf r); [lia|].
  intros s' i Ht Hno. rewrite (Hz d r s' i idx Hd ltac:(lia) Ht Hin Hno). ring.
Qed.

Lemma decomposed poss : particles_ok (length Nmesh) P poss ->
  exists ls T, pm_decompose pms s ts poss = map Ret ls /\ call_ok pms w ts (Some ls) arrays poss /\
    routing poss (Some ls) T /\ complete pms w ts arrays poss T.
Proof.
  intros Hp. destruct G as [Hsc Hts Hk Hs Lsm Psm Hroom Hwi Hex].
  assert (Hs' : mkarr (smoothing_value (mesh_pm Nmesh pt blocks box w0 0) s) (length Nmesh) = Ret sm).
  { rewrite <- Hs. rewrite (world_pms _ _ _ _ _ _ _ W).
    pose proof (world_blocks _ _ _ _ _ _ _ W) as H0. rewrite nth_map_seq by exact H0. reflexivity. }
  destruct (decompose_world _ _ _ _ _ _ _ W scale sm ts s poss Hsc Lsm Psm Hts Hs' Hp) as (args & Ed & Largs & Wa & Sa & Aa).
  exists (layout_init args), (tags args). split; [exact Ed|]. split; [|split].
  - apply call_any; [exact Hp|]. right. exists args. auto.
  - constructor; assumption.
  - apply complete_args; [exact Hp|exact Largs|apply (sent_filter Nmesh pt blocks scale sm poss args Aa)|].
    intros d r s' i idx Hd Hr Ht Hin Hno. destruct Hp as [Lp Dp].
    set (fs := map (fun a => {| f_array := a; f_data := fun _ => 0 |}) arrays).
    assert (Ef : map f_array fs = arrays) by (unfold fs; rewrite map_map; apply map_id).
    assert (Lf : length fs = P) by (unfold fs; rewrite map_length; exact La).
    assert (Sf : forall r, (r < P)%nat -> stored (f_array (nth r fs zero_field)) (block_shape (i_edges pt) (block blocks r))).
    { intros q Hq. rewrite (array_at arrays fs q Ef). apply Hst, Hq. }
    assert (Hin' : In idx (elements (f_array (nth r fs zero_field)))) by (rewrite (array_at arrays fs r Ef); exact Hin).
    pose proof (sent_cover Nmesh pt blocks OK scale sm (resampler_of pms w) d Hsc Lsm Psm Hroom (wd_order _ _ _ _ _ _ _ W) Hk
      poss Lp Dp args Largs Aa WNone Logic.I Logic.I (fun _ _ _ _ => conj Hwi Hex) fs Lf Sf r s' i idx Hr Ht Hin' Hno) as Z.
    unfold rank_painter in Z. rewrite (array_at arrays fs r Ef) in Z. rewrite Hts. exact Z.
Qed.

Lemma sent_everywhere poss : particles_ok (length Nmesh) P poss ->
  call_ok pms w ts (Some (layout_init (all_args poss))) arrays poss /\
  routing poss (Some (layout_init (all_args poss))) (tags (all_args poss)) /\ complete pms w ts arrays poss (tags (all_args poss)).
Proof.
  intros Hp. destruct (all_args_wf poss) as (Wa & Sa & Ln). pose proof (proj1 Hp) as Lp. split; [|split].
  - apply call_any; [exact Hp|]. right. exists (all_args poss). auto.
  - constructor; assumption.
  - apply complete_args; [exact Hp|lia| |].
    + intros s' r Hs Hr. exists (fun _ => true). rewrite all_args_addr by lia.
      symmetry. generalize (seq 0 (length (nth s' poss []))). intros l. induction l as [|x l IH]; [reflexivity|]. cbn. rewrite IH. reflexivity.
    + intros d r s' i idx _ Hr Ht _ Hno. exfalso. apply Hno. destruct (all_tags_in poss _ Ht) as [B1 B2]. cbn [fst snd] in *.
      rewrite all_args_addr by lia. apply in_seq. lia.
Qed.
Lemma everywhere_same poss poss' : map (@length (list Q)) poss' = map (@length _) poss -> all_args poss' = all_args poss.
Proof.
  intros E. unfold all_args. assert (L : length poss' = length poss) by (apply (f_equal (@length nat)) in E; rewrite !map_length in E; exact E).
  rewrite L. rewrite <- (map_map (@length (list Q)) (fun n => (n, repeat n (length poss), concat (repeat (seq 0 n) (length poss)))) poss').
  rewrite E. rewrite map_map. reflexivity.
Qed.
Lemma particles_moved poss poss' : particles_ok (length Nmesh) P poss -> vectors_ok (ndim_of pms) poss poss' -> particles_ok (length Nmesh) P poss'.
Proof.
  intros [Lp Dp] [E F]. rewrite world_ndim in F. split; [|exact F].
  apply (f_equal (@length nat)) in E. rewrite !map_length in E. lia.
Qed.

(** the statement for a window given by what it does on the same routing *)
Lemma paint_decomposed poss mass v_pos v_mass (ok : list (list (list Q)) -> Prop) (C : Q) : particles_ok (length Nmesh) P poss ->
  map (@length Q) mass = map (@length _) poss ->
  (forall v, v_pos = Some v -> vectors_ok (ndim_of pms) poss v) ->
  (forall u, v_mass = Some u -> map (@length Q) u = map (@length _) poss) ->
  (forall (hold : bool) outs outs' eps poss' mass', map f_array outs = arrays -> map f_array outs' = arrays ->
     positions_by (ndim_of pms) eps v_pos poss poss' -> masses_by eps v_mass poss mass mass' -> ok poss' ->
     exists m0 m1 mj,
       pm_paint pms w ts hold None (Some (layout_init (all_args poss))) outs poss WNone (WArray mass) = map Ret m0 /\
       pm_paint pms w ts hold None (Some (layout_init (all_args poss))) outs poss' WNone (WArray mass') = map Ret m1 /\
       pm_paint_jvp pms w ts None (Some (layout_init (all_args poss))) outs' poss (WArray mass) v_pos v_mass = map Ret mj /\
       forall r real idx, nth_error arrays r = Some real -> In idx (elements real) ->
         Qabs (elem real (nth r m1 (fun _ => 0)) idx - elem real (nth r m0 (fun _ => 0)) idx
               - eps * elem real (nth r mj (fun _ => 0)) idx) <= C * (eps * eps)) ->
  forall (hold : bool) outs outs' eps poss' mass', map f_array outs = arrays -> map f_array outs' = arrays ->
  positions_by (ndim_of pms) eps v_pos poss poss' -> masses_by eps v_mass poss mass mass' -> ok poss' ->
  exists ls ls' m0 m1 mj,
    pm_decompose pms s ts poss = map Ret ls /\ pm_decompose pms s ts poss' = map Ret ls' /\
    pm_paint pms w ts hold None (Some ls) outs poss WNone (WArray mass) = map Ret m0 /\
    pm_paint pms w ts hold None (Some ls') outs poss' WNone (WArray mass') = map Ret m1 /\
    pm_paint_jvp pms w ts None (Some ls) outs' poss (WArray mass) v_pos v_mass = map Ret mj /\
    forall r real idx, nth_error arrays r = Some real -> In idx (elements real) ->
      Qabs (elem real (nth r m1 (fun _ => 0)) idx - elem real (nth r m0 (fun _ => 0)) idx
            - eps * elem real (nth r mj (fun _ => 0)) idx) <= C * (eps * eps).
Proof.
  intros Hp Hm Hv Hu Hall hold outs outs' eps poss' mass' Eo Eo' Hpos Hmass Hok.
  pose proof (particles_moved poss poss' Hp (proj1 Hpos)) as Hp'. pose proof (proj1 (proj1 Hpos)) as El.
  destruct (Hall hold outs outs' eps poss' mass' Eo Eo' Hpos Hmass Hok) as (n0 & n1 & nj & F0 & F1 & Fj & B).
  destruct (decomposed poss Hp) as (ls & T & Ed & Cd & Rd & Kd). destruct (decomposed poss' Hp') as (ls' & T' & Ed' & Cd' & Rd' & Kd').
  destruct (sent_everywhere poss Hp) as (Ca & Ra & Ka). destruct (sent_everywhere poss' Hp') as (Ca' & Ra' & Ka').
  destruct (paints_agree _ _ _ _ poss _ _ _ _ Cd Ca Rd Ra Kd Ka hold outs mass Eo Hm) as (m0 & n0' & A0 & A0' & X0).
  assert (Hm' : map (@length Q) mass' = map (@length _) poss') by (rewrite (proj1 Hmass), El; reflexivity).
  destruct (paints_agree _ _ _ _ poss' _ _ _ _ Cd' Ca' Rd' Ra' Kd' Ka' hold outs mass' Eo Hm') as (m1 & n1' & A1 & A1' & X1).
  destruct (jvps_agree _ _ _ _ poss _ _ _ _ Cd Ca Rd Ra Kd Ka outs' mass v_pos v_mass Eo' Hm Hv Hu) as (mj & nj' & Aj & Aj' & Xj).
  rewrite (everywhere_same poss poss' El) in A1'.
  assert (n0' = n0) by (apply map_Ret_inj; congruence). assert (n1' = n1) by (apply map_Ret_inj; congruence).
  assert (nj' = nj) by (apply map_Ret_inj; congruence). subst n0' n1' nj'.
  exists ls, ls', m0, m1, mj. repeat (split; [assumption|]). intros r real idx Er Hin.
  specialize (B r real idx Er Hin).
  assert (Hr : (r < P)%nat) by (rewrite <- La; apply nth_error_Some; congruence).
  assert (Lp : (r < length poss)%nat) by (rewrite (proj1 Hp); exact Hr). assert (Lp' : (r < length poss')%nat) by (rewrite (proj1 Hp'); exact Hr).
  rewrite <- (nth_error_nth arrays r (f_array zero_field) Er) in Hin, B |- *.
  rewrite (X0 r idx Lp Hin), (X1 r idx Lp' Hin), (Xj r idx Lp Hin). exact B.
Qed.

Lemma readout_decomposed poss fields v_self v_pos (ok : list (list (list Q)) -> Prop) (C : Q) : particles_ok (length Nmesh) P poss ->
  map f_array fields = arrays -> (forall g, v_self = Some g -> map f_array g = arrays) ->
  (forall v, v_pos = Some v -> vectors_ok (ndim_of pms) poss v) ->
  (forall eps fields' poss', fields_by arrays eps v_self fields fields' -> positions_by (ndim_of pms) eps v_pos poss poss' -> ok poss' ->
     exists r0 r1 rj,
       pm_readout pms w ts None (Some (layout_init (all_args poss))) fields poss WNone = map Ret r0 /\
       pm_readout pms w ts None (Some (layout_init (all_args poss))) fields' poss' WNone = map Ret r1 /\
       pm_readout_jvp pms w ts None (Some (layout_init (all_args poss))) fields poss v_self v_pos = map Ret rj /\
       forall s i, (s < length poss)%nat -> (i < length (nth s poss []))%nat ->
         Qabs (nth i (nth s r1 []) 0 - nth i (nth s r0 []) 0 - eps * nth i (nth s rj []) 0) <= C * (eps * eps)) ->
  forall eps fields' poss', fields_by arrays eps v_self fields fields' -> positions_by (ndim_of pms) eps v_pos poss poss' -> ok poss' ->
  exists ls ls' r0 r1 rj,
    pm_decompose pms s ts poss = map Ret ls /\ pm_decompose pms s ts poss' = map Ret ls' /\
    pm_readout pms w ts None (Some ls) fields poss WNone = map Ret r0 /\
    pm_readout pms w ts None (Some ls') fields' poss' WNone = map Ret r1 /\
    pm_readout_jvp pms w ts None (Some ls) fields poss v_self v_pos = map Ret rj /\
    forall s i, (s < length poss)%nat -> (i < length (nth s poss []))%nat ->
      Qabs (nth i (nth s r1 []) 0 - nth i (nth s r0 []) 0 - eps * nth i (nth s rj []) 0) <= C * (eps * eps).
Proof.
  intros Hp Ef Hg Hv Hall eps fields' poss' Hf Hpos Hok.
  pose proof (particles_moved poss poss' Hp (proj1 Hpos)) as Hp'. pose proof (proj1 (proj1 Hpos)) as El.
  destruct (Hall eps fields' poss' Hf Hpos Hok) as (n0 & n1 & nj & F0 & F1 & Fj & B).
  destruct (decomposed poss Hp) as (ls & T & Ed & Cd & Rd & Kd). destruct (decomposed poss' Hp') as (ls' & T' & Ed' & Cd' & Rd' & Kd').
  destruct (sent_everywhere poss Hp) as (Ca & Ra & Ka). destruct (sent_everywhere poss' Hp') as (Ca' & Ra' & Ka').
  destruct (reads_agree _ _ _ _ poss _ _ _ _ Cd Ca Rd Ra Kd Ka fields Ef) as (m0 & n0' & A0 & A0' & X0).
  destruct (reads_agree _ _ _ _ poss' _ _ _ _ Cd' Ca' Rd' Ra' Kd' Ka' fields' (proj1 Hf)) as (m1 & n1' & A1 & A1' & X1).
  destruct (readout_jvps_agree _ _ _ _ poss _ _ _ _ Cd Ca Rd Ra Kd Ka fields v_self v_pos Ef Hg Hv) as (mj & nj' & Aj & Aj' & Xj).
  rewrite (everywhere_same poss poss' El) in A1'.
  assert (n0' = n0) by (apply map_Ret_inj; congruence). assert (n1' = n1) by (apply map_Ret_inj; congruence).
  assert (nj' = nj) by (apply map_Ret_inj; congruence). subst n0' n1' nj'.
  exists ls, ls', m0, m1, mj. repeat (split; [assumption|]). intros q i Hq Hi.
  specialize (B q i Hq Hi).
  assert (Hq' : (q < length poss')%nat) by (rewrite (proj1 Hp'); rewrite <- (proj1 Hp); exact Hq).
  assert (Hi' : (i < length (nth q poss' []))%nat) by (rewrite <- (map_nth (@length _) poss'), El, (map_nth (@length _)); exact Hi).
  rewrite (X0 q i Hq Hi), (X1 q i Hq' Hi'), (Xj q i Hq Hi). exact B.
Qed.
End Decomposed.

(** ** The theorems *)
(** [pm.paint(x, mass, layout=pm.decompose(x))] has the derivative paint_jvp, whichever ranks
    the displaced particles are sent to *)
Theorem C81_paint_decomposed : forall Nmesh BoxSize box w0 pt blocks pms, world Nmesh BoxSize box w0 pt blocks pms ->
  forall scale ts s sm w, ghosts_ok Nmesh box w0 pt blocks pms scale ts s sm w -> smooth_call pms w ts ->
  forall arrays, length arrays = length blocks ->
  (forall r, (r < length blocks)%nat -> stored (nth r arrays (f_array zero_field)) (block_shape (i_edges pt) (block blocks r))) ->
  forall poss mass v_pos v_mass, particles_ok (length Nmesh) (length blocks) poss ->
  map (@length Q) mass = map (@length _) poss ->
  (forall v, v_pos = Some v -> vectors_ok (ndim_of pms) poss v) ->
  (forall u, v_mass = Some u -> map (@length Q) u = map (@length _) poss) ->
  exists C, forall (hold : bool) outs outs' eps poss' mass',
  map f_array outs = arrays -> map f_array outs' = arrays ->
  positions_by (ndim_of pms) eps v_pos poss poss' -> masses_by eps v_mass poss mass mass' ->
  exists ls ls' m0 m1 mj,
    pm_decompose pms s ts poss = map Ret ls /\ pm_decompose pms s ts poss' = map Ret ls' /\
    pm_paint pms w ts hold None (Some ls) outs poss WNone (WArray mass) = map Ret m0 /\
    pm_paint pms w ts hold None (Some ls') outs poss' WNone (WArray mass') = map Ret m1 /\
    pm_paint_jvp pms w ts None (Some ls) outs' poss (WArray mass) v_pos v_mass = map Ret mj /\
    forall r real idx, nth_error arrays r = Some real -> In idx (elements real) ->
      Qabs (elem real (nth r m1 (fun _ => 0)) idx - elem real (nth r m0 (fun _ => 0)) idx
            - eps * elem real (nth r mj (fun _ => 0)) idx) <= C * (eps * eps).
Proof.
  intros Nmesh BoxSize box w0 pt blocks pms W scale ts s sm w G Hs arrays La Hst poss mass v u Hp Hm Hv Hu.
  destruct (sent_everywhere _ _ _ _ _ _ _ W _ _ _ _ _ G arrays La Hst poss Hp) as (Ca & _ & _).
  destruct (C81_paint _ _ _ _ _ _ mass v u Ca Hs Hm Hv Hu) as [C HC]. exists C.
  intros hold outs outs' eps poss' mass' E1 E2 H1 H2.
  apply (paint_decomposed _ _ _ _ _ _ _ W _ _ _ _ _ G arrays La Hst poss mass v u (fun _ => True) C Hp Hm Hv Hu); try assumption; [|exact Logic.I].
  intros hold0 o o' e p m F1 F2 F3 F4 _. apply HC; assumption.
Qed.
Print Assumptions C81_paint_decomposed.
Theorem C81_readout_decomposed : forall Nmesh BoxSize box w0 pt blocks pms, world Nmesh BoxSize box w0 pt blocks pms ->
  forall scale ts s sm w, ghosts_ok Nmesh box w0 pt blocks pms scale ts s sm w -> smooth_call pms w ts ->
  forall arrays, length arrays = length blocks ->
  (forall r, (r < length blocks)%nat -> stored (nth r arrays (f_array zero_field)) (block_shape (i_edges pt) (block blocks r))) ->
  forall poss fields v_self v_pos, particles_ok (length Nmesh) (length blocks) poss ->
  map f_array fields = arrays -> (forall g, v_self = Some g -> map f_array g = arrays) ->
  (forall v, v_pos = Some v -> vectors_ok (ndim_of pms) poss v) ->
  exists C, forall eps fields' poss',
  fields_by arrays eps v_self fields fields' -> positions_by (ndim_of pms) eps v_pos poss poss' ->
  exists ls ls' r0 r1 rj,
    pm_decompose pms s ts poss = map Ret ls /\ pm_decompose pms s ts poss' = map Ret ls' /\
    pm_readout pms w ts None (Some ls) fields poss WNone = map Ret r0 /\
    pm_readout pms w ts None (Some ls') fields' poss' WNone = map Ret r1 /\
    pm_readout_jvp pms w ts None (Some ls) fields poss v_self v_pos = map Ret rj /\
    forall s i, (s < length poss)%nat -> (i < length (nth s poss []))%nat ->
      Qabs (nth i (nth s r1 []) 0 - nth i (nth s r0 []) 0 - eps * nth i (nth s rj []) 0) <= C * (eps * eps).
Proof.
  intros Nmesh BoxSize box w0 pt blocks pms W scale ts s sm w G Hs arrays La Hst poss fields g v Hp Ef Hg Hv.
  destruct (sent_everywhere _ _ _ _ _ _ _ W _ _ _ _ _ G arrays La Hst poss Hp) as (Ca & _ & _).
  destruct (C81_readout _ _ _ _ _ _ fields g v Ca Hs Ef Hg Hv) as [C HC]. exists C.
  intros eps fields' poss' H1 H2.
  apply (readout_decomposed _ _ _ _ _ _ _ W _ _ _ _ _ G arrays La Hst poss fields g v (fun _ => True) C Hp Ef Hg Hv); try assumption; [|exact Logic.I].
  intros e f p F1 F2 _. apply HC; assumption.
Qed.
Print Assumptions C81_readout_decomposed.
(** the same with cic, as long as no particle leaves its cell *)
Theorem C81_paint_cic_decomposed : forall Nmesh BoxSize box w0 pt blocks pms, world Nmesh BoxSize box w0 pt blocks pms ->
  forall scale ts s sm w, ghosts_ok Nmesh box w0 pt blocks pms scale ts s sm w -> cic_call pms w ts ->
  forall arrays, length arrays = length blocks ->
  (forall r, (r < length blocks)%nat -> stored (nth r arrays (f_array zero_field)) (block_shape (i_edges pt) (block blocks r))) ->
  forall poss mass v_pos v_mass, particles_ok (length Nmesh) (length blocks) poss ->
  map (@length Q) mass = map (@length _) poss ->
  (forall v, v_pos = Some v -> vectors_ok (ndim_of pms) poss v) ->
  (forall u, v_mass = Some u -> map (@length Q) u = map (@length _) poss) ->
  exists C, forall (hold : bool) outs outs' eps poss' mass',
  map f_array outs = arrays -> map f_array outs' = arrays ->
  positions_by (ndim_of pms) eps v_pos poss poss' -> masses_by eps v_mass poss mass mass' -> cells_kept pms ts poss poss' ->
  exists ls ls' m0 m1 mj,
    pm_decompose pms s ts poss = map Ret ls /\ pm_decompose pms s ts poss' = map Ret ls' /\
    pm_paint pms w ts hold None (Some ls) outs poss WNone (WArray mass) = map Ret m0 /\
    pm_paint pms w ts hold None (Some ls') outs poss' WNone (WArray mass') = map Ret m1 /\
    pm_paint_jvp pms w ts None (Some ls) outs' poss (WArray mass) v_pos v_mass = map Ret mj /\
    forall r real idx, nth_error arrays r = Some real -> In idx (elements real) ->
      Qabs (elem real (nth r m1 (fun _ => 0)) idx - elem real (nth r m0 (fun _ => 0)) idx
            - eps * elem real (nth r mj (fun _ => 0)) idx) <= C * (eps * eps).
Proof.
  intros Nmesh BoxSize box w0 pt blocks pms W scale ts s sm w G Hs arrays La Hst poss mass v u Hp Hm Hv Hu.
  destruct (sent_everywhere _ _ _ _ _ _ _ W _ _ _ _ _ G arrays La Hst poss Hp) as (Ca & _ & _).
  destruct (C81_paint_cic _ _ _ _ _ _ mass v u Ca Hs Hm Hv Hu) as [C HC]. exists C.
  intros hold outs outs' eps poss' mass' E1 E2 H1 H2 H3.
  apply (paint_decomposed _ _ _ _ _ _ _ W _ _ _ _ _ G arrays La Hst poss mass v u (cells_kept pms ts poss) C Hp Hm Hv Hu); try assumption.
Qed.
Print Assumptions C81_paint_cic_decomposed.
Theorem C81_readout_cic_decomposed : forall Nmesh BoxSize box w0 pt blocks pms, world Nmesh BoxSize box w0 pt blocks pms ->
  forall scale ts s sm w, ghosts_ok Nmesh box w0 pt blocks pms scale ts s sm w -> cic_call pms w ts ->
  forall arrays, length arrays = length blocks ->
  (forall r, (r < length blocks)%nat -> stored (nth r arrays (f_array zero_field)) (block_shape (i_edges pt) (block blocks r))) ->
  forall poss fields v_self v_pos, particles_ok (length Nmesh) (length blocks) poss ->
  map f_array fields = arrays -> (forall g, v_self = Some g -> map f_array g = arrays) ->
  (forall v, v_pos = Some v -> vectors_ok (ndim_of pms) poss v) ->
  exists C, forall eps fields' poss',
  fields_by arrays eps v_self fields fields' -> positions_by (ndim_of pms) eps v_pos poss poss' -> cells_kept pms ts poss poss' ->
  exists ls ls' r0 r1 rj,
    pm_decompose pms s ts poss = map Ret ls /\ pm_decompose pms s ts poss' = map Ret ls' /\
    pm_readout pms w ts None (Some ls) fields poss WNone = map Ret r0 /\
    pm_readout pms w ts None (Some ls') fields' poss' WNone = map Ret r1 /\
    pm_readout_jvp pms w ts None (Some ls) fields poss v_self v_pos = map Ret rj /\
    forall s i, (s < length poss)%nat -> (i < length (nth s poss []))%nat ->
      Qabs (nth i (nth s r1 []) 0 - nth i (nth s r0 []) 0 - eps * nth i (nth s rj []) 0) <= C * (eps * eps).
Proof.
  intros Nmesh BoxSize box w0 pt blocks pms W scale ts s sm w G Hs arrays La Hst poss fields g v Hp Ef Hg Hv.
  destruct (sent_everywhere _ _ _ _ _ _ _ W _ _ _ _ _ G arrays La Hst poss Hp) as (Ca & _ & _).
  destruct (C81_readout_cic _ _ _ _ _ _ fields g v Ca Hs Ef Hg Hv) as [C HC]. exists C.
  intros eps fields' poss' H1 H2 H3.
  apply (readout_decomposed _ _ _ _ _ _ _ W _ _ _ _ _ G arrays La Hst poss fields g v (cells_kept pms ts poss) C Hp Ef Hg Hv); try assumption.
Qed.
Print Assumptions C81_readout_cic_decomposed.

(** defaults: the window of the mesh and half its support *)
Lemma ghosts_default Nmesh BoxSize box w0 pt blocks pms : world Nmesh BoxSize box w0 pt blocks pms ->
  proper_kind (w_kind w0) -> (0 < w_support w0)%Z -> room Nmesh pt (half_support w0 (length Nmesh)) ->
  ghosts_ok Nmesh box w0 pt blocks pms (mesh_scale Nmesh box) None SmoothDefault (half_support w0 (length Nmesh)) None.
Proof.
  intros W Hk Hsup Hroom.
  assert (H0 : (0 < length blocks)%nat) by exact (world_blocks _ _ _ _ _ _ _ W).
  assert (Hq : 0 <= inject_Z (w_support w0)) by (change 0 with (inject_Z 0); rewrite <- Zle_Qle; lia).
  constructor; rewrite ?(default_resampler _ _ _ _ _ _ _ W); [| |exact Hk| | | |exact Hroom| |].
  - exact (mesh_scale_length _ _ _ _ _ _ _ W).
  - exact (default_affines _ _ _ _ _ _ _ W).
  - rewrite (world_pms _ _ _ _ _ _ _ W). rewrite nth_map_seq by exact H0. reflexivity.
  - apply repeat_length.
  - apply Forall_forall. intros q Hin. apply repeat_spec in Hin. subst q. lra.
  - apply within_one; exact Hsup.
  - intros a Ha. rewrite (extent_one w0 Hsup). unfold half_support. rewrite nth_repeat_in by exact Ha.
    unfold Qdiv. change (/ 2) with (1#2). apply Qle_refl.
Qed.

(** the mesh of C31 with tsc: for eps > 1/2 the first particle has left rank 0 *)
Lemma ex_ghosts : ghosts_ok [4; 4]%Z [8; 8] ex_cic ex_pt ex_blocks ex_pms (mesh_scale [4; 4]%Z [8; 8]) None (SmoothWindow tsc) (half_support tsc 2) (Some tsc).
Proof.
  constructor.
  - reflexivity.
  - exact (default_affines _ _ _ _ _ _ _ ex_world).
  - apply standard_proper. exact Logic.I.
  - reflexivity.
  - reflexivity.
  - apply Forall_forall. intros q Hin. apply repeat_spec in Hin. subst q. discriminate.
  - intros i k Hi Hk. cbv zeta. destruct i as [|[|i]]; [| |simpl in Hi; lia];
      cbn [ex_pt i_edges nth length] in Hk |- *.
    + left. destruct k as [|[|k]]; [vm_compute; discriminate|vm_compute; discriminate|lia].
    + right. destruct k as [|k]; [reflexivity|lia].
  - apply within_one. reflexivity.
  - intros a Ha. destruct a as [|[|a]]; [vm_compute; discriminate|vm_compute; discriminate|simpl in Ha; lia].
Qed.
Example C81_decomposed_case : exists C, forall eps, exists ls ls' m0 m1 mj,
  pm_decompose ex_pms (SmoothWindow tsc) None ex_parts = map Ret ls /\ pm_decompose ex_pms (SmoothWindow tsc) None (ex_pushed eps) = map Ret ls' /\
  pm_paint ex_pms (Some tsc) None false None (Some ls) [ex_out; ex_out] ex_parts WNone (WArray [[1; 2]; [3]]) = map Ret m0 /\
  pm_paint ex_pms (Some tsc) None false None (Some ls') [ex_out; ex_out] (ex_pushed eps) WNone (WArray [[1 + eps * 4; 2 + eps * 5]; [3 + eps * 6]]) = map Ret m1 /\
  pm_paint_jvp ex_pms (Some tsc) None None (Some ls) [ex_out; ex_out] ex_parts (WArray [[1; 2]; [3]]) (Some ex_push) (Some [[4; 5]; [6]]) = map Ret mj /\
  forall r idx, (r < 2)%nat -> In idx (elements (c_array [2; 4]%Z)) ->
    Qabs (elem (c_array [2; 4]%Z) (nth r m1 (fun _ => 0)) idx - elem (c_array [2; 4]%Z) (nth r m0 (fun _ => 0)) idx
          - eps * elem (c_array [2; 4]%Z) (nth r mj (fun _ => 0)) idx) <= C * (eps * eps).
Proof.
  destruct (C81_paint_decomposed _ _ _ _ _ _ _ ex_world _ _ _ _ _ ex_ghosts ltac:(split; [exact Logic.I|split; [repeat constructor; discriminate|discriminate]])
    [c_array [2; 4]%Z; c_array [2; 4]%Z] eq_refl) with (poss := ex_parts) (mass := [[1; 2]; [3]]) (v_pos := Some ex_push) (v_mass := Some [[4; 5]; [6]]) as (D & H).
  - intros r Hr. pose proof (ex_stored r Hr) as S0. destruct r as [|[|r]]; [exact S0|exact S0|simpl in Hr; lia].
  - split; [reflexivity|repeat constructor].
  - reflexivity.
  - intros v Hv. injection Hv as <-. split; [reflexivity|repeat constructor].
  - intros v Hv. injection Hv as <-. reflexivity.
  - exists D. intros eps.
    destruct (H false [ex_out; ex_out] [ex_out; ex_out] eps _ _ eq_refl eq_refl (ex_positions eps) (ex_masses eps)) as (ls & ls' & m0 & m1 & mj & A0 & A0' & A1 & A2 & A3 & A4).
    exists ls, ls', m0, m1, mj. repeat (split; [assumption|]). intros r idx Hr. apply A4. destruct r as [|[|r]]; [reflexivity|reflexivity|lia].
Qed.
