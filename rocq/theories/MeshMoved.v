(** C75: a layout serves particles that have moved since they were decomposed. *)
From Coq Require Import List Arith ZArith QArith Qabs Qround Lqa Lia Bool Sorted Permutation Setoid Morphisms.
From Verif Require Import Base ListFacts LayoutModel LayoutSpec LayoutProofs LayoutModes LayoutMore WrapModel WrapProofs DomainModel DomainFill DomainGeom DomainTargets
  DomainHome DomainProperties QSum WindowModel WindowStencil WindowSpread WindowKernels WindowAxis WindowNative WindowApi WindowPoints
  WindowGrad WindowTranslate WindowProperties MeshModel MeshAssign MeshRoute MeshPaint MeshTile MeshDistributed MeshProperties MeshProperties2.
Import ListNotations.
Local Open Scope Q_scope.

(** [ParticleMesh.decompose], pm.py:1753-1792, when every rank passes a number of its own as
    the smoothing *)
Definition decompose_each (pms : list pm) (sms : list (value Q)) (ts : option (list affine))
    (poss : list (list (list Q))) : list (outcome layout) :=
  let args := map (fun r =>
    match nth_error pms r, transform_at pms ts r, nth_error poss r, nth_error sms r with
    | Some p, Some t, Some pos, Some sv =>
        bind (mkarr sv (length (g_edges (pm_domain p)))) (fun sm =>
        decompose (length pms) (pm_domain p) (transform0 t) sm pos)
    | _, _, _, _ => Blocked
    end) (seq 0 (length pms)) in
  match all_ret args with
  | Some a => map Ret (layout_init a)
  | None => block_rest args
  end.
(** with the same number everywhere it is the [decompose] of MeshModel.v *)
Lemma decompose_each_same pms v ts poss :
  decompose_each pms (map (fun _ => v) pms) ts poss = pm_decompose pms (SmoothNumber v) ts poss.
Proof.
  unfold decompose_each, pm_decompose.
  assert (E : map (fun r =>
    match nth_error pms r, transform_at pms ts r, nth_error poss r, nth_error (map (fun _ => v) pms) r with
    | Some p, Some t, Some pos, Some sv =>
        bind (mkarr sv (length (g_edges (pm_domain p)))) (fun sm => decompose (length pms) (pm_domain p) (transform0 t) sm pos)
    | _, _, _, _ => Blocked
    end) (seq 0 (length pms)) = decompose_args pms (SmoothNumber v) ts poss).
  { unfold decompose_args. apply map_ext. intros r. rewrite nth_error_map.
    destruct (nth_error pms r); [|reflexivity]. destruct (transform_at pms ts r); [|reflexivity].
    destruct (nth_error poss r); reflexivity. }
  rewrite E. reflexivity.
Qed.

(** what a rank asks for: for rank [s] the particles [pos] go where [T s] says *)
Definition arg_of (T : list Q -> list nat) (P : nat) (pos : list (list Q)) : layout_arg :=
  (length pos, map (fun r => length (sent_to T pos r)) (seq 0 P), flat_map (sent_to T pos) (seq 0 P)).
Lemma sent_each (T : nat -> list Q -> list nat) (poss : list (list (list Q))) P :
  length poss = P ->
  let args := map (fun s => arg_of (T s) P (nth s poss [])) (seq 0 P) in
  wf_args args /\ length args = P /\ sent_lengths args poss /\
  (forall s r, (s < P)%nat -> (r < P)%nat -> addr args s r = sent_to (T s) (nth s poss []) r).
Proof.
  intros HP args. assert (La : length args = P) by (unfold args; rewrite map_length; apply seq_length).
  split; [|split; [exact La|split]].
  - apply Forall_forall. intros a Ha. unfold args in Ha. apply in_map_iff in Ha.
    destruct Ha as (s & <- & Hs). unfold arg_of, a_counts, a_indices, a_len. cbn [fst snd].
    rewrite map_length, seq_length, La. split; [reflexivity|]. split.
    + symmetry. apply flat_map_length_sum.
    + apply Forall_forall. intros i Hi. apply in_flat_map in Hi. destruct Hi as (r & _ & Hi).
      unfold sent_to in Hi. apply filter_In in Hi. destruct Hi as (Hi & _). apply in_seq in Hi. lia.
  - unfold sent_lengths, lengths_ok, args. rewrite map_map. cbn [arg_of a_len fst].
    rewrite <- (map_nth_seq poss [] P HP) at 1. rewrite map_map. reflexivity.
  - intros s r Hs Hr. unfold addr, arg_at, args. rewrite nth_map_seq by exact Hs.
    unfold arg_of, a_counts, a_indices. cbn [fst snd].
    replace (map (fun r0 => length (sent_to (T s) (nth s poss []) r0)) (seq 0 P))
      with (map (@length nat) (map (sent_to (T s) (nth s poss [])) (seq 0 P))) by now rewrite map_map.
    rewrite flat_map_concat_map, chunks_concat. now rewrite nth_map_seq.
Qed.

Section World.
Variables (Nmesh : list Z) (BoxSize : value Q) (box : list Q) (w0 : window) (pt : partition)
  (blocks : list (list Z)) (pms : list pm).
Hypothesis (W : world Nmesh BoxSize box w0 pt blocks pms).
Local Notation P := (length blocks).
Local Notation nd := (length Nmesh).
Let OK : mesh_ok Nmesh pt blocks := wd_mesh _ _ _ _ _ _ _ W.

Variables (scale : list Q) (sms : list (value Q)) (smr : list (list Q)) (ts : option (list affine)) (poss0 : list (list (list Q))).
Hypothesis (Hscale : length scale = nd).
Hypothesis (Hts : transforms pms ts = rank_affines Nmesh pt blocks scale).
Hypothesis (Hsms : map (fun v => mkarr v nd) sms = map Ret smr) (Lsm : length smr = P).
Hypothesis (Hsm : forall s, (s < P)%nat -> length (nth s smr []) = nd /\ Forall (fun q => 0 <= q) (nth s smr [])).
Hypothesis (Hposs0 : particles_ok nd P poss0).

Definition goes (s : nat) (x : list Q) : list nat := receivers Nmesh pt blocks scale (nth s smr []) x.

Lemma each_world : exists args, decompose_each pms sms ts poss0 = map Ret (layout_init args) /\
  length args = P /\ wf_args args /\ sent_lengths args poss0 /\
  forall s r, (s < P)%nat -> (r < P)%nat -> addr args s r = sent_to (goes s) (nth s poss0 []) r.
Proof.
  destruct Hposs0 as [L D].
  destruct (sent_each goes poss0 P L) as (A1 & A2 & A3 & A4).
  exists (map (fun s => arg_of (goes s) P (nth s poss0 [])) (seq 0 P)). split; [|auto].
  unfold decompose_each.
  match goal with |- match all_ret ?a with _ => _ end = _ => assert (E : a = map Ret (map (fun s => arg_of (goes s) P (nth s poss0 [])) (seq 0 P))) end.
  { rewrite map_map. rewrite (world_length _ _ _ _ _ _ _ W). apply map_ext_in. intros r Hr. apply in_seq in Hr.
    rewrite (transform_at_nth pms ts r), Hts. unfold rank_affines. rewrite (world_pms _ _ _ _ _ _ _ W). rewrite !nth_error_map.
    rewrite nth_error_seq_lt by lia. cbn [option_map]. rewrite (nth_error_nth' poss0 [] (n := r)) by lia.
    assert (Ls : length sms = P) by (rewrite <- (map_length (fun v => mkarr v nd)), Hsms, map_length; exact Lsm).
    rewrite (nth_error_nth' sms (Scalar 0) (n := r)) by lia.
    assert (Ev : mkarr (nth r sms (Scalar 0)) nd = Ret (nth r smr [])).
    { rewrite <- (nth_map_in (fun v => mkarr v nd) sms r Blocked (Scalar 0)) by lia. rewrite Hsms.
      apply (nth_map_in Ret smr r Blocked []). lia. }
    change (0 + r)%nat with r. cbn [pm_domain mesh_pm g_edges mesh_grid].
    rewrite (qedges_length _ _ _ OK). rewrite Ev. cbn [bind].
    apply (decompose_ok P (mesh_grid pt blocks) (transform0 (whole_affine Nmesh scale)) (nth r smr []) (nth r poss0 []) (goes r)). intros x Hx.
    assert (Lx : length x = nd).
    { rewrite Forall_forall in D. assert (Hr' : (r < length poss0)%nat) by lia. specialize (D (nth r poss0 []) (nth_In _ _ Hr')). rewrite Forall_forall in D. now apply D. }
    assert (Wi : wf_input (mesh_grid pt blocks) (nth r smr []) (transform0 (whole_affine Nmesh scale) x)).
    { destruct (Hsm r ltac:(lia)) as [S1 S2]. apply (mesh_wf_input _ _ _ OK scale r Hscale ltac:(lia) _ S1 S2 x Lx). }
    destruct (targets_ok P _ _ _ (mesh_wf_grid _ _ _ OK) (mesh_wf_axes _ _ _ OK) Wi) as (T1 & T2 & T3 & _).
    split; [exact T1|split; [exact T2|exact T3]]. }
  rewrite E, all_ret_Ret. reflexivity.
Qed.

Variables (poss : list (list (list Q))) (w : window) (d : option Z) (hsml : wvalue).
Hypothesis (Hposs : particles_ok nd P poss) (Hsame : map (@length _) poss = map (@length _) poss0).
Hypothesis (Hroom : forall s, (s < P)%nat -> room Nmesh pt (nth s smr [])).
Hypothesis (Hk : proper_kind (w_kind w)) (Hd : direction_ok nd d).
Hypothesis (Hh : wf_wvalue poss hsml) (Hu : uniform hsml).
(** the window around the place where the particle is now is within the smoothing around the
    place where it was *)
Hypothesis (Hext : forall s i, (s < P)%nat -> (i < length (nth s poss []))%nat ->
  within w (val hsml s (s, i)) /\ forall a, (a < nd)%nat ->
  inject_Z (extent w (val hsml s (s, i))) / 2 + Qabs (nth a scale 0 * nth a (pick [] poss (s, i)) 0 - nth a scale 0 * nth a (pick [] poss0 (s, i)) 0)
  <= nth a (nth s smr []) 0).

Section Fields.
Variables (fs : list field).
Hypothesis (Hstored : forall r, (r < P)%nat -> stored (f_array (nth r fs zero_field)) (block_shape (i_edges pt) (block blocks r))).
Variable args : list layout_arg.
Hypothesis (Haddr : forall s r, (s < P)%nat -> (r < P)%nat -> addr args s r = sent_to (goes s) (nth s poss0 []) r).

Lemma len_same s : length (nth s poss []) = length (nth s poss0 []).
Proof. rewrite <- (map_nth (@length _) poss [] s), Hsame. apply (map_nth (@length _) poss0 [] s). Qed.
Lemma each_filter s r : (s < P)%nat -> (r < P)%nat -> exists b, addr args s r = filter b (seq 0 (length (nth s poss []))).
Proof. intros Hs Hr. rewrite Haddr by assumption. unfold sent_to. rewrite len_same. eexists. reflexivity. Qed.
Lemma each_cover r s i idx : (r < P)%nat -> In (s, i) (all_tags poss) -> In idx (elements (f_array (nth r fs zero_field))) ->
  ~ In i (addr args s r) ->
  weight_of (rank_painter w (rank_affines Nmesh pt blocks scale) d fs r) (val hsml r (s, i)) (pick [] poss (s, i)) idx == 0.
Proof.
  intros Hr Ht Hin Hno. apply all_tags_in in Ht. rewrite (proj1 Hposs) in Ht. cbn [fst snd] in *. destruct Ht as [Hs Hi].
  unfold rank_painter. rewrite (nth_affine Nmesh pt blocks scale r Hr).
  destruct (Hext s i Hs Hi) as [E1 E2]. destruct (Hsm s Hs) as [S1 S2].
  assert (Ev : val hsml r (s, i) = val hsml s (s, i)) by (apply (uniform_val poss); auto; rewrite (proj1 Hposs); lia). rewrite Ev.
  apply (unsent_no_weight_moved _ _ _ OK w scale d _ r Hk Hscale Hr (Hstored r Hr) (nth s smr []) S1 S2 (Hroom s Hs) (wd_order _ _ _ _ _ _ _ W) _ _
    (pick [] poss0 (s, i))).
  - apply (dims_at Nmesh blocks poss (proj1 Hposs) (proj2 Hposs)); assumption.
  - apply (dims_at Nmesh blocks poss0 (proj1 Hposs0) (proj2 Hposs0)); [assumption|]. rewrite <- len_same. exact Hi.
  - exact Hin.
  - apply within_bounded. exact E1.
  - intros a Ha. rewrite reach_extent. apply E2. exact Ha.
  - intros C. apply Hno. rewrite Haddr by assumption. apply sent_to_in. split; [rewrite <- len_same; exact Hi|exact C].
Qed.
End Fields.
End World.

(** ** C75 *)
(** Decompose with the positions [poss0], each rank with its own smoothing; then read at (or
    paint to) the positions [poss] through the layout.  As long as no particle has left the
    smoothing, less half of the window, around the place where it was, the result is that of
    a single process with the whole mesh. *)
Theorem C75_readout_moved :
  forall Nmesh BoxSize box w0 pt blocks pms, world Nmesh BoxSize box w0 pt blocks pms ->
  let nd := length Nmesh in let P := length blocks in
  forall poss0 poss scale ts sms smr w' w d hsml fields whole wm,
  particles_ok nd P poss0 -> particles_ok nd P poss -> map (@length _) poss = map (@length _) poss0 -> direction_ok nd d ->
  length scale = nd -> transforms pms ts = rank_affines Nmesh pt blocks scale ->
  resampler_of pms w' = w -> proper_kind (w_kind w) ->
  map (fun v => mkarr v nd) sms = map Ret smr -> length smr = P ->
  (forall s, (s < P)%nat -> length (nth s smr []) = nd /\ Forall (fun q => 0 <= q) (nth s smr []) /\ room Nmesh pt (nth s smr [])) ->
  wf_wvalue poss hsml -> uniform hsml ->
  (forall r i, (r < P)%nat -> (i < length (nth r poss []))%nat ->
     within w (val hsml r (r, i)) /\ forall a, (a < nd)%nat ->
     inject_Z (extent w (val hsml r (r, i))) / 2 +
       Qabs (nth a scale 0 * nth a (pick [] poss (r, i)) 0 - nth a scale 0 * nth a (pick [] poss0 (r, i)) 0) <= nth a (nth r smr []) 0) ->
  length fields = P ->
  (forall r, (r < P)%nat -> stored (f_array (nth r fields zero_field)) (block_shape (i_edges pt) (block blocks r))) ->
  stored whole Nmesh ->
  (forall r idx, (r < P)%nat -> In idx (elements (f_array (nth r fields zero_field))) ->
     elem whole wm (zadd idx (block_start (i_edges pt) (block blocks r))) ==
     elem (f_array (nth r fields zero_field)) (f_data (nth r fields zero_field)) idx) ->
  exists ls vs,
    decompose_each pms sms ts poss0 = map Ret ls /\
    pm_readout pms w' ts d (Some ls) fields poss hsml = map Ret vs /\ length vs = P /\
    forall r, (r < P)%nat -> exists us,
      window_readout w whole wm (nth r poss []) (local_arg hsml r) d (Some (whole_affine Nmesh scale)) = Ret us /\
      Forall2 Qeq (nth r vs []) us.
Proof.
  intros Nmesh BoxSize box w0 pt blocks pms W nd P poss0 poss scale ts sms smr w' w d hsml fields whole wm
    Hposs0 Hposs Hsame Hd Hscale Hts Hw Hk Hsms Lsm Hsm Hh Hu Hext Lf Hst Hwhole Hinit.
  assert (S1 : forall s, (s < P)%nat -> length (nth s smr []) = nd /\ Forall (fun q => 0 <= q) (nth s smr [])) by (intros s Hs; destruct (Hsm s Hs) as (A & B & _); auto).
  assert (S2 : forall s, (s < P)%nat -> room Nmesh pt (nth s smr [])) by (intros s Hs; apply (Hsm s Hs)).
  destruct (each_world _ _ _ _ _ _ _ W scale sms smr ts poss0 Hscale Hts Hsms Lsm S1 Hposs0) as (args & Ed & La & Wa & Sa & Aa).
  assert (Sa' : sent_lengths args poss) by (unfold sent_lengths, lengths_ok in *; congruence).
  destruct Hposs as [Lp Dp].
  destruct (readout_covered _ _ _ (wd_mesh _ _ _ _ _ _ _ W) scale scale w d Hscale Hscale Hk Hd poss Lp Dp args La Wa Sa'
    (each_filter _ _ _ _ _ _ poss Hsame args Aa) hsml Hh Hu fields whole wm Lf Hst Hwhole
    (each_cover _ _ _ _ _ _ _ W scale smr poss0 Hscale Lsm S1 Hposs0 poss w d hsml (conj Lp Dp) Hsame S2 Hk Hh Hu Hext fields Hst args Aa)
    pms w' ts Hw Hts Hinit) as (vs & E & L & H).
  exists (layout_init args), vs. repeat (split; [assumption|]). exact H.
Qed.
Print Assumptions C75_readout_moved.
Theorem C75_paint_moved :
  forall Nmesh BoxSize box w0 pt blocks pms, world Nmesh BoxSize box w0 pt blocks pms ->
  let nd := length Nmesh in let P := length blocks in
  forall poss0 poss scale ts sms smr w' w d (hold : bool) hsml mass outs whole wm,
  particles_ok nd P poss0 -> particles_ok nd P poss -> map (@length _) poss = map (@length _) poss0 -> direction_ok nd d ->
  length scale = nd -> transforms pms ts = rank_affines Nmesh pt blocks scale ->
  resampler_of pms w' = w -> proper_kind (w_kind w) ->
  map (fun v => mkarr v nd) sms = map Ret smr -> length smr = P ->
  (forall s, (s < P)%nat -> length (nth s smr []) = nd /\ Forall (fun q => 0 <= q) (nth s smr []) /\ room Nmesh pt (nth s smr [])) ->
  wf_wvalue poss hsml -> uniform hsml -> wf_wvalue poss mass -> uniform mass ->
  (forall r i, (r < P)%nat -> (i < length (nth r poss []))%nat ->
     within w (val hsml r (r, i)) /\ forall a, (a < nd)%nat ->
     inject_Z (extent w (val hsml r (r, i))) / 2 +
       Qabs (nth a scale 0 * nth a (pick [] poss (r, i)) 0 - nth a scale 0 * nth a (pick [] poss0 (r, i)) 0) <= nth a (nth r smr []) 0) ->
  length outs = P ->
  (forall r, (r < P)%nat -> stored (f_array (nth r outs zero_field)) (block_shape (i_edges pt) (block blocks r))) ->
  stored whole Nmesh ->
  (forall r idx, (r < P)%nat -> In idx (elements (f_array (nth r outs zero_field))) ->
     elem whole wm (zadd idx (block_start (i_edges pt) (block blocks r))) ==
     if hold then elem (f_array (nth r outs zero_field)) (f_data (nth r outs zero_field)) idx else 0) ->
  exists ls ms wm',
    decompose_each pms sms ts poss0 = map Ret ls /\
    pm_paint pms w' ts hold d (Some ls) outs poss hsml mass = map Ret ms /\ length ms = P /\
    window_paint w whole wm (concat poss) (whole_arg hsml) (whole_arg mass) d (Some (whole_affine Nmesh scale)) = Ret wm' /\
    forall r idx, (r < P)%nat -> In idx (elements (f_array (nth r outs zero_field))) ->
      elem (f_array (nth r outs zero_field)) (nth r ms (fun _ => 0)) idx ==
      elem whole wm' (zadd idx (block_start (i_edges pt) (block blocks r))).
Proof.
  intros Nmesh BoxSize box w0 pt blocks pms W nd P poss0 poss scale ts sms smr w' w d hold hsml mass outs whole wm
    Hposs0 Hposs Hsame Hd Hscale Hts Hw Hk Hsms Lsm Hsm Hh Hu Hm Um Hext Lf Hst Hwhole Hinit.
  assert (S1 : forall s, (s < P)%nat -> length (nth s smr []) = nd /\ Forall (fun q => 0 <= q) (nth s smr [])) by (intros s Hs; destruct (Hsm s Hs) as (A & B & _); auto).
  assert (S2 : forall s, (s < P)%nat -> room Nmesh pt (nth s smr [])) by (intros s Hs; apply (Hsm s Hs)).
  destruct (each_world _ _ _ _ _ _ _ W scale sms smr ts poss0 Hscale Hts Hsms Lsm S1 Hposs0) as (args & Ed & La & Wa & Sa & Aa).
  assert (Sa' : sent_lengths args poss) by (unfold sent_lengths, lengths_ok in *; congruence).
  destruct Hposs as [Lp Dp].
  destruct (paint_covered _ _ _ (wd_mesh _ _ _ _ _ _ _ W) scale scale w d Hscale Hscale Hk Hd poss Lp Dp args La Wa Sa'
    (each_filter _ _ _ _ _ _ poss Hsame args Aa) hsml Hh Hu outs whole wm Lf Hst Hwhole
    (each_cover _ _ _ _ _ _ _ W scale smr poss0 Hscale Lsm S1 Hposs0 poss w d hsml (conj Lp Dp) Hsame S2 Hk Hh Hu Hext outs Hst args Aa)
    pms w' ts hold mass Hw Hts Hm Um Hinit) as (ms & wm' & E & L & E' & H).
  exists (layout_init args), ms, wm'. repeat (split; [assumption|]). exact H.
Qed.
Print Assumptions C75_paint_moved.

(** the particles of C32, moved by up to half a cell after the decomposition; the smoothing is
    half of the window and half a cell *)
Definition ex_moved : list (list (list Q)) := [[[4; 5]; [7; -(1)]]; [[1#2; 3#2]]].
Lemma moved_room : room [4; 4]%Z ex_pt [3#2; 3#2].
Proof.
  intros i k Hi Hk. destruct i as [|[|i]]; [| |cbn in Hi; lia].
  - destruct k as [|[|k]]; [| |cbn in Hk; lia]; left; vm_compute; congruence.
  - destruct k as [|k]; [|cbn in Hk; lia]. right. reflexivity.
Qed.
Example C75_case :
  (exists ls vs, decompose_each ex_pms [Scalar (3#2); Scalar (3#2)] None ex_parts = map Ret ls /\
    pm_readout ex_pms None None None (Some ls) [ex_field 0; ex_field 1] ex_moved WNone = map Ret vs /\
    forall r, (r < 2)%nat -> exists us,
      window_readout ex_cic (c_array [4; 4]%Z) ex_whole (nth r ex_moved []) None None (Some (whole_affine [4; 4]%Z (mesh_scale [4; 4]%Z [8; 8]))) = Ret us /\
      Forall2 Qeq (nth r vs []) us) /\
  match all_ret (decompose_each ex_pms [Scalar (3#2); Scalar (3#2)] None ex_parts) with
  | Some ls => match all_ret (pm_readout ex_pms None None None (Some ls) [ex_field 0; ex_field 1] ex_moved WNone) with
               | Some vs => map (map Qred) vs | None => [] end
  | None => [] end = [[45#2; 33#2]; [13#4]].
Proof.
  split; [|vm_compute; reflexivity].
  destruct (C75_readout_moved _ _ _ _ _ _ _ ex_world ex_parts ex_moved (mesh_scale [4; 4]%Z [8; 8]) None [Scalar (3#2); Scalar (3#2)]
    [[3#2; 3#2]; [3#2; 3#2]] None ex_cic None WNone [ex_field 0; ex_field 1] (c_array [4; 4]%Z) ex_whole)
    as (ls & vs & E1 & E2 & E3 & E4); try reflexivity; try exact Logic.I.
  - split; [reflexivity|repeat constructor].
  - split; [reflexivity|repeat constructor].
  - apply standard_proper. exact Logic.I.
  - intros s Hs. assert (Es : nth s [[3#2; 3#2]; [3#2; 3#2]] [] = [3#2; 3#2]) by (destruct s as [|[|s]]; [reflexivity|reflexivity|cbn in Hs; lia]).
    rewrite Es. split; [reflexivity|]. split; [repeat constructor; discriminate|exact moved_room].
  - intros r i Hr Hi. split; [apply within_one; reflexivity|]. intros a Ha.
    destruct r as [|[|r]]; [| |cbn in Hr; lia];
      (destruct i as [|[|i]]; try (cbn in Hi; lia)); (destruct a as [|[|a]]; [| |cbn in Ha; lia]); vm_compute; discriminate.
  - intros r Hr. destruct r as [|[|r]]; [| |simpl in Hr; lia]; (apply (c_array_stored [2; 4]%Z); repeat constructor).
  - apply c_array_stored. repeat constructor.
  - intros r idx Hr Hin. destruct r as [|[|r]]; [| |simpl in Hr; lia]; cbn [nth f_array f_data ex_field] in *;
      vm_compute in Hin; repeat (destruct Hin as [<-|Hin]; [reflexivity|]); contradiction.
  - exists ls, vs. auto.
Qed.
(** a particle that moved by two cells, with the smoothing of the (nearest) window alone: the layout
    does not know the rank that now has its cells *)
Theorem C75_too_far_refuted :
  exists ls vs us,
    pm_decompose ex_pms (SmoothWindow (ResampleWindow TunedNNB 0)) None [[[2; 2]]; []] = map Ret ls /\
    pm_readout ex_pms (Some (ResampleWindow TunedNNB 0)) None None (Some ls) [ex_field 0; ex_field 1] [[[6; 2]]; []] WNone = map Ret vs /\
    window_readout (ResampleWindow TunedNNB 0) (c_array [4; 4]%Z) ex_whole [[6; 2]] None None (Some (whole_affine [4; 4]%Z (mesh_scale [4; 4]%Z [8; 8]))) = Ret us /\
    ~ nth 0 (nth 0 vs []) 0 == nth 0 us 0.
Proof.
  destruct (all_ret_check (pm_decompose ex_pms (SmoothWindow (ResampleWindow TunedNNB 0)) None [[[2; 2]]; []])
    (fun ls => match all_ret (pm_readout ex_pms (Some (ResampleWindow TunedNNB 0)) None None (Some ls) [ex_field 0; ex_field 1] [[[6; 2]]; []] WNone) with
       | Some vs => negb (Qeq_bool (nth 0 (nth 0 vs []) 0) 31) | None => false end))
    as (ls & E1 & E2); [vm_compute; reflexivity|].
  destruct (all_ret_check _ _ E2) as (vs & E3 & E4).
  destruct (all_ret_check [window_readout (ResampleWindow TunedNNB 0) (c_array [4; 4]%Z) ex_whole [[6; 2]] None None
      (Some (whole_affine [4; 4]%Z (mesh_scale [4; 4]%Z [8; 8])))] (fun l => Qeq_bool (nth 0 (nth 0 l []) 0) 31))
    as (uss & E5 & E6); [vm_compute; reflexivity|].
  destruct uss as [|us [|? ?]]; try discriminate.
  exists ls, vs, us. split; [exact E1|]. split; [exact E3|]. split; [exact (f_equal (hd Blocked) E5)|].
  apply Qeq_bool_iff in E6. cbn [nth] in E6. intros C. rewrite E6 in C. rewrite (proj2 (Qeq_bool_iff _ _) C) in E4. discriminate.
Qed.
Print Assumptions C75_too_far_refuted.
