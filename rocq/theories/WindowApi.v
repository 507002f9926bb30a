(** From the painter to [ResampleWindow.paint] and [readout]. *)
From Coq Require Import List Arith ZArith QArith Qabs Qround Lia Lqa Bool Setoid Morphisms Permutation.
From Verif Require Import Base ListFacts WrapModel WrapProofs DomainModel DomainFill QSum WindowModel WindowStencil WindowSpread WindowKernels WindowAxis WindowNative.
Import ListNotations.
Local Open Scope Q_scope.

(** numpy indexing: where an element lives, which indices there are *)
Definition byte_offset (strides idx : list Z) : Z :=
  fold_right Z.add 0%Z (map (fun si => fst si * snd si)%Z (combine strides idx)).
Definition elem (real : array) (m : memory) (idx : list Z) : Q := m (byte_offset (ar_strides real) idx).
Definition elements (real : array) : list (list Z) := box (map (fun n => (0, n)%Z) (ar_shape real)).
Definition total (real : array) (m : memory) : Q := qsum (elem real m) (elements real).
(** different elements do not share memory *)
Definition no_overlap (real : array) : Prop :=
  forall i j, In i (elements real) -> In j (elements real) ->
  byte_offset (ar_strides real) i = byte_offset (ar_strides real) j -> i = j.
(** an array of at least one dimension and a transform of the same dimension *)
Definition wf_call (real : array) (t : affine) : Prop :=
  let nd := length (ar_shape real) in
  (0 < nd)%nat /\ length (ar_strides real) = nd /\ length (af_scale t) = nd /\
  length (af_translate t) = nd /\ length (af_period t) = nd /\ no_overlap real.
Definition wf_pos (real : array) (pos : list (list Q)) : Prop :=
  Forall (fun x => length x = length (ar_shape real)) pos.
(** the differentiation direction is one of the array's, counted from either end *)
Definition wf_diffdir (real : array) (d : option Z) : Prop :=
  match d with
  | None => True
  | Some d => (- Z.of_nat (length (ar_shape real)) <= d < Z.of_nat (length (ar_shape real)))%Z
  end.

Lemma mk_axes_spec o s t p n st nd :
  length o = nd -> length s = nd -> length t = nd -> length p = nd -> length n = nd -> length st = nd ->
  let axes := mk_axes o s t p n st in
  map ax_order axes = o /\ map ax_scale axes = s /\ map ax_translate axes = t /\
  map ax_period axes = p /\ map ax_size axes = n /\ map ax_stride axes = st.
Proof.
  revert o s t p n st. induction nd as [|nd IH]; intros o s t p n st Ho Hs Ht Hp Hn Hst;
    destruct o, s, t, p, n, st; try discriminate; [repeat split|].
  cbn [length] in *. destruct (IH o s t p n st) as (I1 & I2 & I3 & I4 & I5 & I6); try lia.
  cbn [mk_axes map ax_order ax_scale ax_translate ax_period ax_size ax_stride].
  rewrite I1, I2, I3, I4, I5, I6. repeat split.
Qed.

(** the orders of differentiation *)
Definition order_spec (nd : nat) (d : option Z) : list Z :=
  match d with
  | None => repeat 0%Z nd
  | Some d => map (fun i => if (Z.of_nat i =? (if d <? 0 then d + Z.of_nat nd else d))%Z then 1%Z else 0%Z) (seq 0 nd)
  end.
Lemma order_of_ok nd d :
  match d with None => True | Some d => (- Z.of_nat nd <= d < Z.of_nat nd)%Z end ->
  order_of nd d = Ret (order_spec nd d).
Proof.
  destruct d as [d|]; intros H; [|reflexivity]. unfold order_of, order_spec. cbv zeta.
  set (d' := if (d <? 0)%Z then (d + Z.of_nat nd)%Z else d).
  assert (Hd : (0 <= d' < Z.of_nat nd)%Z) by (unfold d'; destruct (Z.ltb_spec d 0); lia). clearbody d'.
  replace ((0 <=? d')%Z && (d' <? Z.of_nat nd)%Z) with true.
  2:{ symmetry. apply andb_true_intro. split; [apply Z.leb_le; lia|apply Z.ltb_lt; lia]. }
  f_equal. apply list_ext. intros i. rewrite nth_error_upd.
  destruct (lt_dec i nd) as [Hi|Hi].
  - rewrite nth_error_map, nth_error_seq_lt by exact Hi. cbn [option_map Nat.add].
    rewrite (nth_error_nth' _ 0%Z) by (rewrite repeat_length; exact Hi). rewrite nth_repeat.
    destruct (Nat.eqb_spec (Z.to_nat d') i) as [E|E]; destruct (Z.eqb_spec (Z.of_nat i) d'); cbn; try reflexivity; lia.
  - rewrite nth_error_map, nth_error_seq_ge by lia.
    rewrite (proj2 (nth_error_None _ _)) by (rewrite repeat_length; lia).
    destruct (Z.to_nat d' =? i)%nat; reflexivity.
Qed.
Lemma order_spec_length nd d : length (order_spec nd d) = nd.
Proof. destruct d; cbn; rewrite ?map_length, ?seq_length, ?repeat_length; reflexivity. Qed.

Definition painter_of (w : window) (real : array) (t : affine) (d : option Z) : painter :=
  mk_painter w real (order_spec (length (ar_shape real)) d) t.

Section Call.
Variables (w : window) (real : array) (t : affine) (d : option Z).
Hypothesis Hwf : wf_call real t.
Let p := painter_of w real t d.
Let axes := pt_axes p.

Lemma axes_spec : map ax_order axes = order_spec (length (ar_shape real)) d /\
  map ax_scale axes = af_scale t /\ map ax_translate axes = af_translate t /\
  map ax_period axes = af_period t /\ map ax_size axes = ar_shape real /\ map ax_stride axes = ar_strides real.
Proof.
  destruct Hwf as (H0 & H1 & H2 & H3 & H4 & _).
  apply (mk_axes_spec _ _ _ _ _ _ (length (ar_shape real))); try assumption; try reflexivity.
  apply order_spec_length.
Qed.
Lemma axes_length : length axes = length (ar_shape real).
Proof. rewrite <- (map_length ax_size axes). destruct axes_spec as (_ & _ & _ & _ & -> & _). reflexivity. Qed.
Lemma offset_elem idx : offset axes idx = byte_offset (ar_strides real) idx.
Proof.
  unfold offset, byte_offset. destruct axes_spec as (_ & _ & _ & _ & _ & <-).
  rewrite combine_map_l, map_map. reflexivity.
Qed.
Lemma cell_elem m idx : cell axes m idx = elem real m idx.
Proof. unfold cell, elem. rewrite offset_elem. reflexivity. Qed.
Lemma cells_elements : cells axes = elements real.
Proof.
  unfold cells, elements. destruct axes_spec as (_ & _ & _ & _ & <- & _). rewrite map_map. reflexivity.
Qed.
Lemma in_elements idx : In idx (elements real) <-> valid_cell axes idx.
Proof. rewrite <- cells_elements. apply in_cells. Qed.
Lemma axes_strides_ok : strides_ok axes.
Proof.
  intros i j Hi Hj E. destruct Hwf as (_ & _ & _ & _ & _ & H). apply H.
  - apply in_elements, Hi.
  - apply in_elements, Hj.
  - rewrite <- !offset_elem. exact E.
Qed.
Lemma painter_of_wf : (0 < native_of (w_kind w))%Z -> wf_painter p.
Proof.
  intros H. split; [exact H|]. split; [|exact axes_strides_ok].
  fold axes. rewrite axes_length. apply Hwf.
Qed.

Hypothesis Hd : wf_diffdir real d.

(** the parts of a call: position, mass and hsml of each particle *)
Definition parts_of (pos : list (list Q)) (mass hsml : list Q) : list (list Q * Q * Q) := combine (combine pos mass) hsml.
Lemma window_paint_ok m pos mass hsml :
  length mass = length pos -> length hsml = length pos ->
  window_paint w real m pos (Some (Array hsml)) (Some (Array mass)) d (Some t) = Ret (paint_all p m (parts_of pos mass hsml)).
Proof.
  intros Hm Hh. unfold window_paint. cbn [transform_of bind].
  rewrite (order_of_ok _ _ Hd). cbn [bind mkarr hsml_of]. rewrite Hm, Hh, Nat.eqb_refl. reflexivity.
Qed.
Lemma window_paint_none m pos mass :
  length mass = length pos ->
  window_paint w real m pos None (Some (Array mass)) d (Some t) = Ret (paint_all p m (parts_of pos mass (repeat 1 (length pos)))).
Proof.
  intros Hm. unfold window_paint. cbn [transform_of bind].
  rewrite (order_of_ok _ _ Hd). cbn [bind mkarr hsml_of]. rewrite Hm, Nat.eqb_refl. reflexivity.
Qed.
Lemma window_readout_ok m pos hsml :
  length hsml = length pos ->
  window_readout w real m pos (Some (Array hsml)) d (Some t) =
  Ret (map (fun xh => readout_at p m (fst xh) (snd xh)) (combine pos hsml)).
Proof.
  intros Hh. unfold window_readout. cbn [transform_of bind].
  rewrite (order_of_ok _ _ Hd). cbn [bind mkarr hsml_of]. rewrite Hh, Nat.eqb_refl. reflexivity.
Qed.
Lemma window_readout_none m pos :
  window_readout w real m pos None d (Some t) = Ret (map (fun x => readout_at p m x 1) pos).
Proof.
  unfold window_readout. cbn [transform_of bind].
  rewrite (order_of_ok _ _ Hd). cbn [bind mkarr hsml_of]. f_equal. fold p.
  induction pos as [|x pos IH]; [reflexivity|]. cbn [length repeat combine map]. rewrite IH. reflexivity.
Qed.
Lemma parts_wf pos mass hsml : wf_pos real pos -> wf_parts p (parts_of pos mass hsml).
Proof.
  unfold wf_pos, wf_parts, parts_of. fold axes. rewrite axes_length. intros H. revert mass hsml.
  induction H as [|x pos Hx _ IH]; intros mass hsml; [constructor|].
  destruct mass as [|m mass]; [constructor|]. destruct hsml as [|h hsml]; [constructor|].
  cbn [combine]. constructor; [exact Hx|apply IH].
Qed.

Lemma qsum_parts (f : list Q -> Q -> Q -> Q) pos mass hsml : length mass = length pos -> length hsml = length pos ->
  qsum (fun xmh => f (fst (fst xmh)) (snd (fst xmh)) (snd xmh)) (parts_of pos mass hsml) ==
  qsum (fun i => f (nth i pos []) (nth i mass 0) (nth i hsml 0)) (seq 0 (length pos)).
Proof.
  unfold parts_of. revert mass hsml. induction pos as [|x pos IH]; intros mass hsml Hm Hh; [reflexivity|].
  destruct mass as [|q mass]; [discriminate|]. destruct hsml as [|h hsml]; [discriminate|].
  injection Hm as Hm. injection Hh as Hh. cbn [combine length seq]. rewrite !qsum_cons. cbn [fst snd nth].
  rewrite (IH mass hsml Hm Hh), <- seq_shift, qsum_map. reflexivity.
Qed.
End Call.
