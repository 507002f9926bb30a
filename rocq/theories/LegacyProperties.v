(** Property C77: the deprecated cic painters and the cic window. *)
From Coq Require Import List Arith ZArith QArith Qabs Qround Lia Lqa Bool Permutation Setoid Morphisms.
From Verif Require Import Base ListFacts WrapModel WrapProofs DomainModel DomainFill QSum WindowModel WindowStencil WindowSpread WindowKernels WindowAxis
  WindowNative WindowApi WindowPoints WindowTranslate WindowProperties MeshPaint LegacyModel LegacyProofs.
Import ListNotations.
Local Open Scope Q_scope.

(** [cic] and [linear] of pmesh.window in their default support *)
Definition cic_window (w : window) : Prop := (w_kind w = TunedCIC \/ w_kind w = Linear) /\ default_window w.
(** one weight for all, or one each *)
Definition weights_fit (weights : value Q) (n : nat) : Prop := arg_fits (Some weights) n.
(** the weights argument of the numba version, where None stands for one *)
Definition weight_arg (nw : option (value Q)) (weights : value Q) : Prop := nw = Some weights \/ (nw = None /\ weights = Scalar 1).
(** both mesh points next to the particle, wrapped, are in the mesh, on all axes *)
Definition both_inside (shape : list Z) (period : option (list Z)) (x : list Q) : Prop :=
  forall d e, (d < length shape)%nat -> (e = 0 \/ e = 1)%Z ->
    let j := (Qfloor (nth d x 0%Q) + e)%Z in
    let j := match period with None => j | Some p => (j mod nth d p 0)%Z end in
    (0 <= j < nth d shape 0)%Z.

Lemma both_inside_fits real period x : periods_fit (length (ar_shape real)) period -> length x = length (ar_shape real) ->
  (both_inside (ar_shape real) period x <-> fits real (nb_period (length (ar_shape real)) period) x).
Proof.
  intros Hp Hx. rewrite fits_axes by (auto using nb_period_length).
  unfold both_inside. cbv zeta.
  assert (E : forall d j, (d < length (ar_shape real))%nat ->
    wz (nth d (nb_period (length (ar_shape real)) period) 0%Z) j = match period with None => j | Some p => (j mod nth d p 0)%Z end).
  { intros d j Hd. destruct period as [p|]; cbn [nb_period].
    - destruct Hp as [Hl HF]. unfold wz. rewrite Forall_forall in HF.
      assert (0 < nth d p 0)%Z by (apply HF, nth_In; lia). destruct (Z.gtb_spec (nth d p 0%Z) 0); [reflexivity|lia].
    - rewrite nth_repeat. reflexivity. }
  split; intros H d e Hd He; specialize (H d e Hd He); rewrite E in * by exact Hd; exact H.
Qed.
Lemma affine_units nd period t : periods_fit nd period -> Affine nd None None (option_map Array period) = Ret t ->
  t = mesh_units nd 0 (nb_period nd period).
Proof.
  intros Hp. unfold Affine, mkarr. destruct period as [p|]; cbn.
  - destruct Hp as [Hl _]. rewrite Hl, Nat.eqb_refl. cbn. intros E. now injection E as <-.
  - intros E. now injection E as <-.
Qed.
Lemma weights_of_values weights n : weights_of weights n = values_of (Some weights) n.
Proof. now destruct weights. Qed.
Lemma cic_window_support w : cic_window w -> w_support w = 2%Z.
Proof. intros [[E|E] [_ H]]; rewrite H, E; reflexivity. Qed.
Lemma cic_window_kind w : cic_window w -> (0 < native_of (w_kind w))%Z.
Proof. intros [[E|E] _]; rewrite E; reflexivity. Qed.

Lemma F2_map {A} (f g : A -> Q) l : (forall x, In x l -> f x == g x) -> Forall2 Qeq (map f l) (map g l).
Proof. induction l as [|x l IH]; intros H; constructor; [apply H; now left|]. apply IH. intros y Hy. apply H. now right. Qed.

Section Cic.
Variables (w : window) (real : array) (period : option (list Z)) (transform : list Q -> list Q) (t : affine).
Local Notation nd := (length (ar_shape real)).
Hypothesis (Hw : cic_window w) (Hreal : array_ok real) (Hper : periods_fit nd period)
  (Ht : Affine nd None None (option_map Array period) = Ret t).
Variables (m : memory) (pos : list (list Q)).
Hypothesis (Hpos : wf_pos real (map transform pos)).
Let per := nb_period nd period.
Local Notation p := (painter_of w real t None).
Local Lemma Hwf : wf_call real t.
Proof. rewrite (affine_units nd period t Hper Ht). apply mesh_units_wf; [exact Hreal|now apply nb_period_length]. Qed.
Local Lemma window_points x : length x = nd -> Forall2 (Forall2 pair_eq) (all_points p 1 x) (lines cic_line per x).
Proof.
  intros Hx. rewrite (affine_units nd period t Hper Ht). apply cic_window_points; auto.
  - apply Hw.
  - now apply cic_window_support.
  - now apply nb_period_length.
  - apply Hreal.
  - now apply nb_period_nonneg.
Qed.
Local Lemma rows_fit weights : weights_fit weights (length pos) ->
  let rows := combine (map transform pos) (weights_of weights (length pos)) in
  length rows = length pos /\ Forall (fun r => length (fst r) = nd) rows.
Proof.
  intros Hf. cbv zeta. split.
  - rewrite combine_length, map_length, weights_of_values, values_of_length by exact Hf. lia.
  - apply Forall_forall. intros [x c] Hr. unfold wf_pos in Hpos. rewrite Forall_forall in Hpos. apply Hpos. eapply in_combine_l, Hr.
Qed.
Local Lemma window_rows weights : weights_fit weights (length pos) ->
  exists m0, window_paint w real m (map transform pos) None (Some weights) None (Some t) = Ret m0 /\
    forall a, m0 a == m a + qsum (fun r => deposit real (snd r) a (lines cic_line per (fst r))) (combine (map transform pos) (weights_of weights (length pos))).
Proof.
  intros Hf. eexists. split.
  - apply (window_paint_values w real t None); [exact I|exact I|now rewrite map_length].
  - intros a. rewrite map_length. destruct (rows_fit weights Hf) as [HL HF]. rewrite (paint_all_deposit w real t Hwf (cic_window_kind w Hw)).
    + apply Qplus_comp; [reflexivity|]. rewrite <- weights_of_values. unfold parts_of. cbn [values_of].
      revert HL HF. generalize (combine (map transform pos) (weights_of weights (length pos))) as rows. intros rows <- HF.
      induction rows as [|r rows IH]; [reflexivity|]. inversion_clear HF as [|? ? Hr HF']. cbn [length repeat combine].
      rewrite !qsum_cons, (IH HF'). cbn [fst snd]. apply Qplus_comp; [|reflexivity].
      apply deposit_eq. now apply window_points.
    + apply Forall_forall. intros [[x c] h] Hi. unfold parts_of in Hi. apply in_combine_l in Hi. apply in_combine_l in Hi.
      unfold wf_pos in Hpos. rewrite Forall_forall in Hpos. now apply Hpos.
Qed.

(** In mode "ignore" the numpy and the numba version paint the same as the cic window in
    mesh units, to every address of the memory, whatever the size of the chunks *)
Theorem C77_paint size size' isz weights nw : (0 < size)%nat -> (0 < size')%nat -> weights_fit weights (length pos) -> weight_arg nw weights ->
  exists m0, window_paint w real m (map transform pos) None (Some weights) None (Some t) = Ret m0 /\
    (exists m1, np_paint size real m pos weights false period transform = (m1, Ret tt) /\ forall a, m1 a == m0 a) /\
    (contiguous isz real = true ->
     exists m2, nb_paint size' isz real m pos nw false period transform = (m2, Ret tt) /\ forall a, m2 a == m0 a).
Proof.
  intros Hs Hs' Hf Hnw. destruct (window_rows weights Hf) as [m0 [E0 H0]]. destruct (rows_fit weights Hf) as [HL HF].
  exists m0. split; [exact E0|]. split.
  - destruct (np_loop_ignore real period ltac:(apply Hreal) Hper _ size (length pos) Hs HL HF m) as [m1 [E1 H1]].
    exists m1. split.
    + unfold np_paint. rewrite E1. reflexivity.
    + intros a. rewrite H1, H0. reflexivity.
  - intros Hc. unfold nb_paint.
    replace (match nw with Some w => w | None => Scalar 1 end) with weights by (destruct Hnw as [-> | [-> ->]]; reflexivity).
    destruct (nb_loop_ignore isz real per ltac:(apply Hreal) (nb_period_length nd period Hper) _ size' Hc HF
      (seq 0 (chunk_count size' (length pos))) m) as [m2 [E2 H2]].
    exists m2. split; [exact E2|]. intros a. rewrite H2, H0. rewrite (chunks_all size' _ (length pos) Hs' HL). reflexivity.
Qed.
(** In mode "raise" both raise ValueError when one of the particles has a neighbour outside
    of the mesh, otherwise they do the same as in mode "ignore" *)
Theorem C77_raise size size' isz weights nw : (0 < size)%nat -> (0 < size')%nat -> weights_fit weights (length pos) -> weight_arg nw weights ->
  (Forall (fun x => both_inside (ar_shape real) period (transform x)) pos ->
     np_paint size real m pos weights true period transform = np_paint size real m pos weights false period transform /\
     nb_paint size' isz real m pos nw true period transform = nb_paint size' isz real m pos nw false period transform) /\
  (~ Forall (fun x => both_inside (ar_shape real) period (transform x)) pos ->
     snd (np_paint size real m pos weights true period transform) = Raise ValueError /\
     snd (nb_paint size' isz real m pos nw true period transform) = Raise ValueError).
Proof.
  intros Hs Hs' Hf Hnw. destruct (rows_fit weights Hf) as [HL HF].
  set (rows := combine (map transform pos) (weights_of weights (length pos))) in *.
  assert (EF : Forall (fun x => both_inside (ar_shape real) period (transform x)) pos <-> Forall (fun r => fits real per (fst r)) rows).
  { assert (Ef : map fst rows = map transform pos).
    { unfold rows. apply map_fst_combine. rewrite map_length, weights_of_values, values_of_length by exact Hf. lia. }
    rewrite <- (Forall_map fst (fits real per)), Ef, Forall_map. unfold wf_pos in Hpos. rewrite Forall_map, Forall_forall in Hpos.
    rewrite !Forall_forall. split; intros H x Hx; specialize (H x Hx); apply both_inside_fits; auto. }
  destruct (np_loop_raise real period ltac:(apply Hreal) Hper rows size (length pos) m Hs HL HF) as [N1 N2].
  destruct (nb_loop_raise isz real per ltac:(apply Hreal) (nb_period_length nd period Hper) rows size' HF (seq 0 (chunk_count size' (length pos))) m) as [B1 B2].
  rewrite (chunks_all size' rows (length pos) Hs' HL) in B1, B2.
  assert (Enw : match nw with Some w => w | None => Scalar 1 end = weights) by (destruct Hnw as [-> | [-> ->]]; reflexivity).
  unfold np_paint, nb_paint. rewrite Enw. fold rows. rewrite EF. split; intros H.
  - split; [now rewrite (N1 H)|]. exact (B1 H).
  - split; [|exact (B2 H)]. specialize (N2 H). cbv beta in N2. rewrite (surjective_pairing (until_none _ _ _)), N2. reflexivity.
Qed.
(** The readouts agree as well *)
Theorem C77_readout size size' : (0 < size)%nat -> (0 < size')%nat ->
  exists v0 v1 v2, window_readout w real m (map transform pos) None None (Some t) = Ret v0 /\
    np_readout size real m pos false period transform = Ret v1 /\
    nb_readout size' real m pos false period transform = Ret v2 /\ Forall2 Qeq v1 v0 /\ Forall2 Qeq v2 v0.
Proof.
  intros Hs Hs'.
  assert (Hst : length (ar_strides real) = nd) by apply Hreal.
  unfold wf_pos in Hpos. rewrite Forall_forall in Hpos.
  assert (HC : forall s k, Forall (fun x => length x = nd) (chunk s k (map transform pos))).
  { intros s k. apply Forall_forall. intros x Hx. apply Hpos. eapply chunk_in, Hx. }
  exists (map (fun x => readout_at p m x 1) (map transform pos)),
    (map (fun g => fold_left (fun s i => add_option s (np_one real period m g i)) (zrange 0 (Nat.pow 2 nd)) 0) (map transform pos)),
    (map (nb_read_one real m per) (map transform pos)).
  split; [apply (window_readout_none w real t None); exact I|]. split; [|split; [|split]].
  - unfold np_readout. rewrite (map_ext _ (fun k => Some (map (fun g => fold_left (fun s i => add_option s (np_one real period m g i)) (zrange 0 (Nat.pow 2 nd)) 0)
       (chunk size k (map transform pos))))).
    + rewrite <- (map_map _ Some), sequence_map_Some. f_equal. rewrite <- (map_map (fun k => chunk size k _)), concat_map_flat_map.
      rewrite flat_map_map, <- map_flat_map. f_equal. apply chunks_all; [exact Hs|apply map_length].
    + intros k. unfold neighbours. change (fun i => map _ (seq 0 nd)) with (bits 0 nd).
      apply (np_read_chunk_spec real period Hper); [apply HC|discriminate].
  - unfold nb_readout. cbn [andb]. rewrite <- (map_map _ Some), sequence_map_Some. f_equal. rewrite concat_map_flat_map, <- map_flat_map. fold per. f_equal.
    apply chunks_all; [exact Hs'|apply map_length].
  - apply F2_map. intros x Hx.
    rewrite (np_fold_fetch real period Hst Hper m x (Hpos x Hx)).
    rewrite (window_read_fetch w real t Hwf (cic_window_kind w Hw) x 1 m (Hpos x Hx)). symmetry. apply fetch_eq. apply window_points. now apply Hpos.
  - apply F2_map. intros x Hx.
    rewrite (nb_read_fetch real per Hst (nb_period_length nd period Hper) m x (Hpos x Hx)).
    rewrite (window_read_fetch w real t Hwf (cic_window_kind w Hw) x 1 m (Hpos x Hx)). symmetry. apply fetch_eq. apply window_points. now apply Hpos.
Qed.
Theorem C77_readout_raise size size' : (0 < size)%nat -> (0 < size')%nat ->
  (Forall (fun x => both_inside (ar_shape real) period (transform x)) pos ->
     np_readout size real m pos true period transform = np_readout size real m pos false period transform /\
     nb_readout size' real m pos true period transform = nb_readout size' real m pos false period transform) /\
  (~ Forall (fun x => both_inside (ar_shape real) period (transform x)) pos ->
     np_readout size real m pos true period transform = Raise ValueError /\
     nb_readout size' real m pos true period transform = Raise ValueError).
Proof.
  intros Hs Hs'.
  assert (Hst : length (ar_strides real) = nd) by apply Hreal.
  assert (Hlp := nb_period_length nd period Hper). fold per in Hlp.
  unfold wf_pos in Hpos. rewrite Forall_forall in Hpos.
  assert (HC : forall s k, Forall (fun x => length x = nd) (chunk s k (map transform pos))).
  { intros s k. apply Forall_forall. intros x Hx. apply Hpos. eapply chunk_in, Hx. }
  assert (EF : Forall (fun x => both_inside (ar_shape real) period (transform x)) pos <-> Forall (fits real per) (map transform pos)).
  { rewrite Forall_map, !Forall_forall. split; intros H x Hx; specialize (H x Hx); apply both_inside_fits; auto using in_map. }
  rewrite EF. split; intros H.
  - rewrite Forall_forall in H. split.
    + unfold np_readout.
      match goal with |- match sequence ?A with _ => _ end = match sequence ?B with _ => _ end => replace A with B; [reflexivity|] end.
      apply map_ext. intros k. unfold neighbours. change (fun i => map _ (seq 0 nd)) with (bits 0 nd).
      rewrite !(np_read_chunk_spec real period Hper); [reflexivity|apply HC| |apply HC|discriminate].
      intros _. apply Forall_forall. intros g Hg i Hi.
      apply chunk_in in Hg. apply (fits_located real period Hst Hper g (Hpos g Hg)); [now apply H|exact Hi].
    + unfold nb_readout. 
      match goal with |- match sequence ?A with _ => _ end = match sequence ?B with _ => _ end => replace A with B; [reflexivity|] end.
      apply map_ext. intros k. cbn [andb]. fold per.
      replace (fold_right Nat.add 0%nat (map (fun x => outside (nb_all (ar_shape real) per x)) (chunk size' k (map transform pos)))) with 0%nat; [reflexivity|].
      symmetry. apply sum_zero. rewrite Forall_map. apply Forall_forall. intros x Hx. apply chunk_in in Hx.
      apply (nb_outside real per Hst Hlp x (Hpos x Hx)). now apply H.
  - assert (HE : exists x, In x (map transform pos) /\ ~ fits real per x).
    { clear - H Hpos Hper. revert H Hpos. generalize (map transform pos) as l. induction l as [|x l IH]; intros H Hp; [exfalso; apply H; constructor|].
      destruct (fits_dec real period x (Hp x (or_introl eq_refl))) as [D|D].
      - destruct IH as [x' [A B]]; [intros H'; apply H; now constructor|intros y Hy; apply Hp; now right|]. exists x'. split; [now right|exact B].
      - exists x. split; [now left|exact D]. }
    destruct HE as [x [Hx Hb]].
    assert (HB : forall {A} (f : nat -> option A) l k, In k l -> f k = None -> sequence (map f l) = None).
    { intros A f l k. induction l as [|j l IH]; intros Hi Hk; [destruct Hi|]. cbn [map sequence]. destruct Hi as [->|Hi]; [now rewrite Hk|].
      destruct (f j); [now rewrite IH|reflexivity]. }
    split.
    + destruct (chunks_in size (map transform pos) (length pos) x Hs (map_length _ _) Hx) as [k [Hk Hkx]].
      assert (HI : exists i, In i (zrange 0 (Nat.pow 2 nd)) /\ inb (ar_shape real) (located real period i x) = false).
      { destruct (Exists_dec (fun i => inb (ar_shape real) (located real period i x) = false) (zrange 0 (Nat.pow 2 nd))) as [D|D].
        - intros i. destruct inb; [now right|now left].
        - apply Exists_exists in D. exact D.
        - exfalso. apply Hb. apply (fits_located real period Hst Hper x (Hpos x Hx)). intros i Hi.
          destruct (inb _ (located real period i x)) eqn:E; [reflexivity|]. exfalso. apply D. apply Exists_exists. eauto. }
      destruct HI as [i [Hi Hib]]. unfold np_readout. rewrite (HB _ _ _ k); [reflexivity|exact Hk|].
      unfold neighbours. change (fun i => map _ (seq 0 nd)) with (bits 0 nd).
      apply (np_read_chunk_bad real period Hper m _ _ _ x i); auto.
    + destruct (chunks_in size' (map transform pos) (length pos) x Hs' (map_length _ _) Hx) as [k [Hk Hkx]].
      unfold nb_readout. rewrite (HB _ _ _ k); [reflexivity|exact Hk|]. cbv beta. cbn [andb]. fold per.
      destruct (Nat.eqb_spec (fold_right Nat.add 0%nat (map (fun x => outside (nb_all (ar_shape real) per x)) (chunk size' k (map transform pos)))) 0) as [E|E]; [|reflexivity].
      exfalso. apply Hb. apply sum_zero in E. rewrite Forall_map, Forall_forall in E.
      apply (nb_outside real per Hst Hlp x (Hpos x Hx)). now apply E.
Qed.
End Cic.

(** A mesh that is not C contiguous is not changed by the numba version: [mesh.ravel()] is a
    copy.  (A comment in the code says there is no need for it to be contiguous.) *)
Theorem C77_noncontiguous size isz real m pos weights raise period transform : contiguous isz real = false ->
  fst (nb_paint size isz real m pos weights raise period transform) = m.
Proof.
  intros Hc. unfold nb_paint. generalize (combine (map transform pos) (weights_of (match weights with Some w => w | None => Scalar 1 end) (length pos))) as rows.
  intros rows. generalize (seq 0 (chunk_count size (length pos))) as ks. intros ks. induction ks as [|k ks IH]; [reflexivity|].
  cbn [nb_paint_loop]. rewrite (surjective_pairing (nb_paint_some _ _ _)). unfold run_flat at 1 2. rewrite Hc.
  destruct (negb _ && raise); [reflexivity|]. exact IH.
Qed.
(** transposed 3x2 mesh of doubles, one particle in the middle of a cell: the numpy version
    paints it, the numba version does nothing *)
Definition fortran : array := {| ar_shape := [3; 2]%Z; ar_strides := [8; 24]%Z |}.
Theorem C77_ravel_refuted :
  no_overlap fortran /\
  (exists m1, np_paint 4 fortran (fun _ => 0) [[1#2; 1#2]] (Scalar 1) false None (fun x => x) = (m1, Ret tt) /\ elem fortran m1 [1; 1]%Z == 1#4) /\
  nb_paint 4 8 fortran (fun _ => 0) [[1#2; 1#2]] None false None (fun x => x) = (fun _ => 0, Ret tt).
Proof.
  split; [|split].
  - intros i j Hi Hj. cbn in Hi, Hj.
    repeat destruct Hi as [<-|Hi]; try destruct Hi; repeat destruct Hj as [<-|Hj]; try destruct Hj; cbn; intros E; try discriminate E; reflexivity.
  - eexists. split; [vm_compute; reflexivity|]. vm_compute. reflexivity.
  - reflexivity.
Qed.
(** the documented range of positions is [0, shape), but without a period a particle in
    the last cell raises, even exactly at the last mesh point where all of its mass is inside *)
Theorem C77_last_cell_refuted :
  let real := {| ar_shape := [4]%Z; ar_strides := [8]%Z |} in
  snd (nb_paint 4 8 real (fun _ => 0) [[3]] None true None (fun x => x)) = Raise ValueError /\
  snd (np_paint 4 real (fun _ => 0) [[3]] (Scalar 1) true None (fun x => x)) = Raise ValueError /\
  elem real (fst (nb_paint 4 8 real (fun _ => 0) [[3]] None false None (fun x => x))) [3]%Z == 1.
Proof. cbv zeta. split; [|split]; vm_compute; reflexivity. Qed.
(** a period of zero: numba does not wrap, numpy puts everything at index zero *)
Theorem C77_zero_period_refuted :
  let real := {| ar_shape := [4]%Z; ar_strides := [8]%Z |} in
  elem real (fst (nb_paint 4 8 real (fun _ => 0) [[3#2]] None false (Some [0%Z]) (fun x => x))) [0]%Z == 0 /\
  elem real (fst (np_paint 4 real (fun _ => 0) [[3#2]] (Scalar 1) false (Some [0%Z]) (fun x => x))) [0]%Z == 1.
Proof. cbv zeta. split; vm_compute; reflexivity. Qed.

(** two particles, one of them across the edge of a periodic 3x2 mesh *)
Definition c_mesh : array := {| ar_shape := [3; 2]%Z; ar_strides := [16; 8]%Z |}.
Definition double (x : list Q) : list Q := map (fun y => 2 * y) x.
Example C77_case :
  cic_window (ResampleWindow TunedCIC 0) /\ array_ok c_mesh /\ contiguous 8 c_mesh = true /\
  periods_fit 2 (Some [3; 2]%Z) /\
  Affine 2 None None (option_map Array (Some [3; 2]%Z)) = Ret (mesh_units 2 0 [3; 2]%Z) /\
  wf_pos c_mesh (map double [[1#4; 1#2]; [5#4; 3#4]]) /\ weights_fit (Array [1; 2]) 2 /\
  Forall (fun x => both_inside [3; 2]%Z (Some [3; 2]%Z) (double x)) [[1#4; 1#2]; [5#4; 3#4]] /\
  ~ Forall (fun x => both_inside [3; 2]%Z None (double x)) [[1#4; 1#2]; [5#4; 3#4]] /\
  elem c_mesh (fst (nb_paint 1 8 c_mesh (fun _ => 0) [[1#4; 1#2]; [5#4; 3#4]] (Some (Array [1; 2])) true (Some [3; 2]%Z) double)) [0; 1]%Z == 1 /\
  elem c_mesh (fst (np_paint 1 c_mesh (fun _ => 0) [[1#4; 1#2]; [5#4; 3#4]] (Array [1; 2]) true (Some [3; 2]%Z) double)) [0; 1]%Z == 1.
Proof.
  split; [split; [now left|split; [constructor|reflexivity]]|].
  split; [split; [cbn; lia|split; [reflexivity|]]|].
  { intros i j Hi Hj. cbn in Hi, Hj.
    repeat destruct Hi as [<-|Hi]; try destruct Hi; repeat destruct Hj as [<-|Hj]; try destruct Hj; cbn; intros E; try discriminate E; reflexivity. }
  split; [reflexivity|]. split; [split; [reflexivity|repeat constructor]|]. split; [reflexivity|].
  split; [repeat constructor|]. split; [reflexivity|].
  split; [|split; [|split; vm_compute; reflexivity]].
  - apply Forall_cons; [|apply Forall_cons; [|apply Forall_nil]]; intros d e Hd He; cbn in Hd; destruct d as [|[|d]]; try lia; destruct He as [-> | ->]; vm_compute; intuition congruence.
  - intros H. inversion_clear H as [|? ? _ H']. inversion_clear H' as [|? ? H _].
    specialize (H 0%nat 1%Z ltac:(cbn; lia) (or_intror eq_refl)). vm_compute in H. destruct H as [_ H]. discriminate H.
Qed.
Print Assumptions C77_paint.
Print Assumptions C77_raise.
Print Assumptions C77_readout.
Print Assumptions C77_readout_raise.
Print Assumptions C77_noncontiguous.
Print Assumptions C77_ravel_refuted.
Print Assumptions C77_last_cell_refuted.
Print Assumptions C77_zero_period_refuted.
