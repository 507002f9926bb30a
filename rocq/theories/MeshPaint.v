(** Painting and reading with a layout, in terms of the weights of single cells. *)
From Coq Require Import List Arith ZArith QArith Qabs Qround Lqa Lia Bool Sorted Permutation Setoid Morphisms.
From Verif Require Import Base ListFacts LayoutModel LayoutSpec LayoutProofs LayoutModes LayoutMore WrapModel WrapProofs DomainModel DomainFill DomainGeom DomainTargets
  DomainHome DomainProperties QSum WindowModel WindowStencil WindowSpread WindowKernels WindowAxis WindowNative WindowApi WindowPoints
  WindowGrad WindowTranslate WindowProperties MeshModel MeshAssign MeshRoute.
Import ListNotations.
Local Open Scope Q_scope.

(** ** The tagged particles of all ranks *)

(** the item with a tag *)
Definition pick {A} (z : A) (data : list (list A)) (t : nat * nat) : A := nth (snd t) (nth (fst t) data []) z.
(** the value of an optional argument for the particle with tag [t], on rank [r] *)
Definition val (v : wvalue) (r : nat) (t : nat * nat) : Q :=
  match v with WNone => 1 | WScalar l => nth r l 0 | WArray l => pick 0 l t end.
(** one value per rank, or one per particle *)
Definition wf_wvalue {A} (poss : list (list A)) (v : wvalue) : Prop :=
  match v with
  | WNone => True
  | WScalar l => length l = length poss
  | WArray l => map (@length Q) l = map (@length A) poss
  end.
(** all ranks pass the same scalar *)
Definition uniform (v : wvalue) : Prop :=
  match v with WScalar l => forall r r', (r < length l)%nat -> (r' < length l)%nat -> nth r l 0 = nth r' l 0 | _ => True end.

Lemma uniform_val {A} (poss : list (list A)) v r r' t : wf_wvalue poss v -> uniform v -> (r < length poss)%nat -> (r' < length poss)%nat ->
  val v r t = val v r' t.
Proof. destruct v as [|l|l]; simpl; intros; auto. apply H0; lia. Qed.

(** ** One rank *)

Definition values_of (v : option (value Q)) (n : nat) : list Q :=
  match v with None => repeat 1 n | Some (Scalar a) => repeat a n | Some (Array l) => l end.
Definition arg_fits (v : option (value Q)) (n : nat) : Prop :=
  match v with Some (Array l) => length l = n | _ => True end.
Lemma values_of_length v n : arg_fits v n -> length (values_of v n) = n.
Proof. destruct v as [[a|l]|]; cbn; intros; try apply repeat_length; assumption. Qed.

Section One.
Variables (w : window) (real : array) (t : affine) (d : option Z).
Hypothesis (Hwf : wf_call real t) (Hd : wf_diffdir real d) (Hk : (0 < native_of (w_kind w))%Z).
Let p := painter_of w real t d.

Lemma window_paint_values m pos hsml mass : arg_fits hsml (length pos) -> arg_fits mass (length pos) ->
  window_paint w real m pos hsml mass d (Some t) =
  Ret (paint_all p m (parts_of pos (values_of mass (length pos)) (values_of hsml (length pos)))).
Proof.
  intros Hh Hm. unfold window_paint. cbn [transform_of bind]. rewrite (order_of_ok _ _ Hd). cbn [bind].
  assert (E : mkarr (match mass with None => Scalar 1 | Some v => v end) (length pos) = Ret (values_of mass (length pos))).
  { destruct mass as [[a|l]|]; cbn [mkarr values_of arg_fits] in *; rewrite ?Hm, ?Nat.eqb_refl; reflexivity. }
  rewrite E. cbn [bind].
  assert (F : hsml_of (length pos) hsml = Ret (values_of hsml (length pos))).
  { destruct hsml as [[a|l]|]; cbn [hsml_of mkarr values_of arg_fits] in *; rewrite ?Hh, ?Nat.eqb_refl; reflexivity. }
  rewrite F. cbn [bind]. reflexivity.
Qed.
Lemma paint_all_elem m pos mass hsml idx : wf_pos real pos -> length mass = length pos -> length hsml = length pos ->
  In idx (elements real) ->
  elem real (paint_all p m (parts_of pos mass hsml)) idx ==
  elem real m idx + qsum (fun i => nth i mass 0 * weight_of p (nth i hsml 0) (nth i pos []) idx) (seq 0 (length pos)).
Proof.
  intros Hp Lm Lh Hin. rewrite <- !(cell_elem w real t d Hwf). fold p. unfold p.
  rewrite paint_all_cell.
  - apply Qplus_comp; [reflexivity|]. apply (qsum_parts (fun x q h => q * weight_of p h x idx)); assumption.
  - apply painter_of_wf; assumption.
  - apply parts_wf; assumption.
  - apply (in_elements w real t d Hwf). exact Hin.
Qed.
Lemma window_readout_values m pos hsml : arg_fits hsml (length pos) ->
  window_readout w real m pos hsml d (Some t) =
  Ret (map (fun i => readout_at p m (nth i pos []) (nth i (values_of hsml (length pos)) 0)) (seq 0 (length pos))).
Proof.
  intros Hh. unfold window_readout. cbn [transform_of bind]. rewrite (order_of_ok _ _ Hd). cbn [bind].
  assert (F : hsml_of (length pos) hsml = Ret (values_of hsml (length pos))).
  { destruct hsml as [[a|l]|]; cbn [hsml_of mkarr values_of arg_fits] in *; rewrite ?Hh, ?Nat.eqb_refl; reflexivity. }
  rewrite F. cbn [bind]. f_equal. pose proof (values_of_length _ _ Hh) as L.
  rewrite <- (map_nth_seq pos [] (length pos) eq_refl) at 1.
  rewrite <- (map_nth_seq (values_of hsml (length pos)) 0 (length pos) L) at 1.
  rewrite combine_map_map, map_map. reflexivity.
Qed.
End One.

(** ** All ranks, any layout *)
Section World.
Variables (args : list layout_arg) (poss : list (list (list Q))).
Hypothesis (Hargs : wf_args args) (Hsent : sent_lengths args poss).
Local Notation P := (length args).

Lemma poss_length : length poss = P.
Proof. apply (sent_lengths_nth args poss Hsent). Qed.

Lemma tags_bound r t : In t (tags args r) -> (fst t < P)%nat /\ (snd t < length (nth (fst t) poss []))%nat.
Proof.
  intros H. unfold tags in H. apply in_flat_map in H. destruct H as (s & Hs & H).
  apply in_seq in Hs. apply in_map_iff in H. destruct H as (i & <- & Hi). cbn [fst snd].
  split; [lia|]. rewrite (proj2 (sent_lengths_nth args poss Hsent) s) by lia.
  apply (addr_lt args Hargs s r); [lia|exact Hi].
Qed.

Lemma exchange_full_ok {A} (z : A) (data : list (list A)) : map (@length A) data = map (@length _) poss ->
  exchange_full (layout_init args) data = map Ret (map (fun r => map (pick z data) (tags args r)) (seq 0 P)).
Proof.
  intros L. assert (S : sent_lengths args data) by (unfold sent_lengths, lengths_ok in *; congruence).
  destruct (sent_lengths_nth args data S) as [S1 S2].
  assert (Ln : forall s, length (nth s data []) = length (nth s poss [])).
  { intros s. change (length (nth s data [])) with ((@length A) (nth s data [])).
    rewrite <- (map_nth (@length A) data [] s), L. apply (map_nth (@length _) poss [] s). }
  unfold exchange_full. rewrite (exchange1_ok args Hargs data S1 S2). rewrite !map_map.
  apply map_ext_in. intros r Hr. cbn [bind].
  replace (map (lookup2 data) (tags args r)) with (map Some (map (pick z data) (tags args r))); [apply force_some|].
  rewrite map_map. apply map_ext_in. intros t Ht. destruct (tags_bound r t Ht) as [B1 B2].
  unfold lookup2, pick. rewrite (nth_error_nth' data [] (n := fst t)) by lia.
  rewrite (nth_error_nth' _ z (n := snd t)) by (rewrite Ln; exact B2). reflexivity.
Qed.

Definition received (v : wvalue) : wvalue :=
  match v with WArray l => WArray (map (fun r => map (pick 0 l) (tags args r)) (seq 0 P)) | _ => v end.
Lemma exchange_value_ok v : wf_wvalue poss v -> exchange_value (layout_init args) v = Ret (received v).
Proof.
  destruct v as [|l|l]; intros H; try reflexivity. cbn [exchange_value received].
  rewrite (exchange_full_ok 0 l H). rewrite all_ret_Ret. reflexivity.
Qed.
Lemma local_values v r : wf_wvalue poss v -> (r < P)%nat ->
  let n := length (tags args r) in
  arg_fits (local_arg (received v) r) n /\
  values_of (local_arg (received v) r) n = map (val v r) (tags args r).
Proof.
  intros H Hr n. destruct v as [|l|l]; cbn [received local_arg].
  - split; [exact Logic.I|]. cbn [values_of]. unfold n. apply map_const_repeat.
  - cbn in H. rewrite poss_length in H. rewrite (nth_error_nth' l 0 (n := r)) by lia. cbn [option_map].
    split; [exact Logic.I|]. cbn [values_of val]. unfold n. apply map_const_repeat.
  - rewrite nth_error_map, nth_error_seq_lt by exact Hr. cbn [option_map]. split.
    + cbn. rewrite map_length. reflexivity.
    + reflexivity.
Qed.

(** every rank has an array and a transform of the same dimension, and all positions
    have it too *)
Variables (w : window) (ts : list affine) (d : option Z).
Definition rank_ok (f : field) (t : affine) : Prop :=
  wf_call (f_array f) t /\ wf_diffdir (f_array f) d /\ Forall (wf_pos (f_array f)) poss.
Definition zero_field : field := {| f_array := {| ar_shape := []; ar_strides := [] |}; f_data := fun _ => 0 |}.
Definition zero_affine : affine := {| af_scale := []; af_translate := []; af_period := [] |}.
Definition rank_painter (fs : list field) (r : nat) : painter :=
  painter_of w (f_array (nth r fs zero_field)) (nth r ts zero_affine) d.
Hypothesis (Hk : (0 < native_of (w_kind w))%Z) (Hts : length ts = P).

Lemma pick_wf (f : field) r t : Forall (wf_pos (f_array f)) poss -> In t (tags args r) ->
  length (pick [] poss t) = length (ar_shape (f_array f)).
Proof.
  intros Hf Ht. destruct (tags_bound r t Ht) as [B1 B2]. rewrite <- poss_length in B1.
  rewrite Forall_forall in Hf. specialize (Hf (nth (fst t) poss []) (nth_In _ _ B1)).
  unfold wf_pos in Hf. rewrite Forall_forall in Hf. apply Hf. apply nth_In. exact B2.
Qed.

Lemma fill_elem real m c idx : In idx (elements real) -> elem real (fill real m c) idx = c.
Proof.
  intros H. unfold elem, fill.
  replace (existsb _ (elements real)) with true; [reflexivity|]. symmetry. apply existsb_exists.
  exists idx. split; [exact H|apply Z.eqb_refl].
Qed.

Lemma qsum_nth {A} (f : A -> Q) (z : A) l : qsum f l == qsum (fun i => f (nth i l z)) (seq 0 (length l)).
Proof. rewrite <- (qsum_map (fun i => nth i l z) f). rewrite map_nth_seq by reflexivity. reflexivity. Qed.
Lemma qsum_nth_map {A B} (g : A -> B) (f : B -> nat -> Q) (z : A) (z' : B) l :
  qsum (fun i => f (nth i (map g l) z') i) (seq 0 (length l)) == qsum (fun i => f (g (nth i l z)) i) (seq 0 (length l)).
Proof. apply qsum_ext_in. intros i Hi. apply in_seq in Hi. rewrite (nth_map_in g l i z' z) by lia. reflexivity. Qed.

Section Paint.
Variables (outs : list field) (hold : bool).
Hypothesis (Houts : length outs = P).
Hypothesis (Hranks : forall r, (r < P)%nat -> rank_ok (nth r outs zero_field) (nth r ts zero_affine)).

Lemma paint_local_exchanged fs hsml mass : length fs = P ->
  map f_array fs = map f_array outs ->
  wf_wvalue poss hsml -> wf_wvalue poss mass ->
  exists ms, paint_local w ts d fs (map (fun r => map (pick [] poss) (tags args r)) (seq 0 P)) (received hsml) (received mass)
    = map Ret ms /\ length ms = P /\
    forall r idx, (r < P)%nat -> In idx (elements (f_array (nth r outs zero_field))) ->
      elem (f_array (nth r outs zero_field)) (nth r ms (fun _ => 0)) idx ==
      elem (f_array (nth r outs zero_field)) (f_data (nth r fs zero_field)) idx +
      qsum (fun t => val mass r t * weight_of (rank_painter outs r) (val hsml r t) (pick [] poss t) idx) (tags args r).
Proof.
  intros Lf Ea Hh Hm.
  assert (Ar : forall r, f_array (nth r fs zero_field) = f_array (nth r outs zero_field)).
  { intros r. rewrite <- !(map_nth f_array). rewrite Ea. reflexivity. }
  exists (map (fun r => paint_all (rank_painter outs r) (f_data (nth r fs zero_field))
     (parts_of (map (pick [] poss) (tags args r)) (map (val mass r) (tags args r)) (map (val hsml r) (tags args r)))) (seq 0 P)).
  split; [|split; [rewrite map_length, seq_length; reflexivity|]].
  - unfold paint_local. rewrite Lf, map_map. apply map_ext_in. intros r Hr. apply in_seq in Hr.
    assert (Hr' : (r < P)%nat) by lia.
    rewrite (nth_error_nth' fs zero_field (n := r)) by lia. rewrite (nth_error_nth' ts zero_affine (n := r)) by lia.
    rewrite nth_error_map, nth_error_seq_lt by exact Hr'. cbn [option_map].
    rewrite (Ar r). destruct (Hranks r Hr') as (W1 & W2 & W3).
    destruct (local_values hsml r Hh Hr') as [A1 A2]. destruct (local_values mass r Hm Hr') as [B1 B2]. cbn zeta in *.
    rewrite window_paint_values; [|assumption|rewrite map_length; exact A1|rewrite map_length; exact B1].
    rewrite map_length. change (0 + r)%nat with r. rewrite A2, B2. reflexivity.
  - intros r idx Hr Hin. rewrite nth_map_seq by exact Hr.
    destruct (Hranks r Hr) as (W1 & W2 & W3). unfold rank_painter.
    rewrite paint_all_elem; [|exact W1|exact Hk| |rewrite !map_length; reflexivity|rewrite !map_length; reflexivity|exact Hin].
    + apply Qplus_comp; [reflexivity|]. rewrite map_length.
      rewrite (qsum_nth _ (0,0)%nat (tags args r)). apply qsum_ext_in. intros i Hi. apply in_seq in Hi.
      rewrite !(nth_map_in _ (tags args r) i _ (0,0)%nat) by lia. reflexivity.
    + unfold wf_pos. rewrite Forall_map. apply Forall_forall. intros t Ht.
      apply (pick_wf (nth r outs zero_field) r); [exact W3|exact Ht].
Qed.

Theorem pm_paint_elem pms w' ts' hsml mass : resampler_of pms w' = w -> transforms pms ts' = ts ->
  wf_wvalue poss hsml -> wf_wvalue poss mass ->
  exists ms, pm_paint pms w' ts' hold d (Some (layout_init args)) outs poss hsml mass = map Ret ms /\ length ms = P /\
    forall r idx, (r < P)%nat -> In idx (elements (f_array (nth r outs zero_field))) ->
      elem (f_array (nth r outs zero_field)) (nth r ms (fun _ => 0)) idx ==
      (if hold then elem (f_array (nth r outs zero_field)) (f_data (nth r outs zero_field)) idx else 0) +
      qsum (fun t => val mass r t * weight_of (rank_painter outs r) (val hsml r t) (pick [] poss t) idx) (tags args r).
Proof.
  intros Ew Et Hh Hm. unfold pm_paint. rewrite Ew, Et.
  rewrite (exchange_full_ok [] poss eq_refl), all_ret_Ret, (exchange_value_ok mass Hm), (exchange_value_ok hsml Hh).
  destruct hold.
  - destruct (paint_local_exchanged outs hsml mass Houts eq_refl Hh Hm) as (ms & E & L & H).
    exists ms. split; [exact E|split; [exact L|exact H]].
  - set (fs := map (fun f => with_data f (fill (f_array f) (f_data f) 0)) outs).
    assert (Lfs : length fs = P) by (unfold fs; rewrite map_length; exact Houts).
    assert (Efs : map f_array fs = map f_array outs) by (unfold fs; rewrite map_map; reflexivity).
    destruct (paint_local_exchanged fs hsml mass Lfs Efs Hh Hm) as (ms & E & L & H).
    exists ms. split; [exact E|split; [exact L|]]. intros r idx Hr Hin. rewrite (H r idx Hr Hin).
    apply Qplus_comp; [|reflexivity]. unfold fs. rewrite (nth_map_in _ outs r zero_field zero_field) by lia.
    cbn [with_data f_data]. rewrite fill_elem by exact Hin. reflexivity.
Qed.
End Paint.

Section Read.
Variables (fields : list field).
Hypothesis (Hfields : length fields = P).
Hypothesis (Hranks : forall r, (r < P)%nat -> rank_ok (nth r fields zero_field) (nth r ts zero_affine)).

(** what rank [r] reads for the particle with tag [t] *)
Definition read_at (hsml : wvalue) (r : nat) (t : nat * nat) : Q :=
  readout_at (rank_painter fields r) (f_data (nth r fields zero_field)) (pick [] poss t) (val hsml r t).

Lemma readout_local_exchanged hsml : wf_wvalue poss hsml ->
  readout_local w ts d fields (map (fun r => map (pick [] poss) (tags args r)) (seq 0 P)) (received hsml) =
  map Ret (map (fun r => map (read_at hsml r) (tags args r)) (seq 0 P)).
Proof.
  intros Hh. unfold readout_local. rewrite Hfields, map_map. apply map_ext_in. intros r Hr. apply in_seq in Hr.
  assert (Hr' : (r < P)%nat) by lia.
  rewrite (nth_error_nth' fields zero_field (n := r)) by lia. rewrite (nth_error_nth' ts zero_affine (n := r)) by lia.
  rewrite nth_error_map, nth_error_seq_lt by exact Hr'. cbn [option_map].
  destruct (Hranks r Hr') as (W1 & W2 & W3).
  destruct (local_values hsml r Hh Hr') as [A1 A2]. cbn zeta in *.
  rewrite window_readout_values; [|assumption|rewrite map_length; exact A1].
  rewrite map_length. change (0 + r)%nat with r. rewrite A2. f_equal. apply (map_seq_eq _ 0); [apply map_length|].
  intros i Hi. rewrite !(nth_map_in _ (tags args r) i _ (0,0)%nat) by lia. reflexivity.
Qed.

Lemma fold_left_qsum (l : list Q) a : fold_left Qplus l a == a + qsum (fun x => x) l.
Proof. revert a. induction l as [|x l IH]; intros a; cbn [fold_left qsum fold_right]; [ring|]. rewrite IH. fold (qsum (fun x => x) l). ring. Qed.

Definition tag_eqb (t t' : nat * nat) : bool := (fst t =? fst t')%nat && (snd t =? snd t')%nat.
Lemma tag_eqb_spec t t' : reflect (t = t') (tag_eqb t t').
Proof.
  destruct t as [a b], t' as [a' b']. unfold tag_eqb. cbn [fst snd].
  destruct (Nat.eqb_spec a a'), (Nat.eqb_spec b b'); constructor; congruence.
Qed.

(** the sum of the copies of particle (s, i) *)
Lemma copies_sum (F : nat -> nat * nat -> Q) s i :
  qsum (fun x => x) (copies args (map (fun r => map (F r) (tags args r)) (seq 0 P)) s i) ==
  qsum (fun r => qsum (fun t => if tag_eqb t (s, i) then F r t else 0) (tags args r)) (seq 0 P).
Proof.
  unfold copies. rewrite qsum_flat_map. apply qsum_ext_in. intros r Hr. apply in_seq in Hr.
  rewrite nth_map_seq by lia. rewrite qsum_map, qsum_filter. rewrite <- (map_id (tags args r)) at 1.
  rewrite combine_map_map, qsum_map. cbn [fst snd]. reflexivity.
Qed.

Theorem pm_readout_sum pms w' ts' hsml : resampler_of pms w' = w -> transforms pms ts' = ts ->
  wf_wvalue poss hsml ->
  exists vs, pm_readout pms w' ts' d (Some (layout_init args)) fields poss hsml = map Ret vs /\
    map (@length Q) vs = map (@length _) poss /\
    forall s i, (s < P)%nat -> (i < length (nth s poss []))%nat ->
      nth i (nth s vs []) 0 ==
      qsum (fun r => qsum (fun t => if tag_eqb t (s, i) then read_at hsml r t else 0) (tags args r)) (seq 0 P).
Proof.
  intros Ew Et Hh. unfold pm_readout. rewrite Ew, Et.
  rewrite (exchange_full_ok [] poss eq_refl), all_ret_Ret, (exchange_value_ok hsml Hh).
  rewrite (readout_local_exchanged hsml Hh), all_ret_Ret.
  destruct (sent_lengths_nth args poss Hsent) as [S1 S2].
  set (y := map (fun r => map (read_at hsml r) (tags args r)) (seq 0 P)).
  assert (Ly : forall r, (r < P)%nat -> length (nth r y []) = length (tags args r)).
  { intros r Hr. unfold y. rewrite nth_map_seq by exact Hr. apply map_length. }
  assert (Ly' : length y = P) by (unfold y; rewrite map_length, seq_length; reflexivity).
  rewrite (gather_sum_ok args Hargs Qplus 0 y Ly' Ly).
  exists (map (fun s => map (fun i => fold_left Qplus (copies args y s i) 0) (seq 0 (a_len (arg_at args s)))) (seq 0 P)).
  split; [rewrite map_map; reflexivity|]. split.
  - rewrite map_map. rewrite <- (map_nth_seq poss [] P S1) at 1. rewrite map_map. apply map_ext_in.
    intros s Hs. apply in_seq in Hs. rewrite map_length, seq_length. symmetry. apply S2. lia.
  - intros s i Hs Hi. rewrite nth_map_seq by exact Hs. rewrite <- (S2 s Hs). rewrite nth_map_seq by exact Hi.
    rewrite fold_left_qsum. unfold y. rewrite copies_sum. ring.
Qed.
End Read.
End World.
