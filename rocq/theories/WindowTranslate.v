(** Moving particles by whole mesh cells, and other ways to reach the same point. *)
From Coq Require Import List Arith ZArith QArith Qabs Qround Lia Lqa Bool Setoid Morphisms Permutation.
From Verif Require Import Base ListFacts WrapModel WrapProofs DomainModel DomainFill QSum WindowModel WindowStencil WindowSpread WindowKernels WindowAxis WindowNative WindowApi WindowPoints.
Import ListNotations.
Local Open Scope Q_scope.

Definition moved (a : axis) (n : Z) (l : list (Z * Q)) : list (Z * Q) :=
  map (fun jw => (wrap_axis a (fst jw + n), snd jw)) l.
Lemma wrap_axis_wrap a j n : wrap_axis a (wrap_axis a j + n) = wrap_axis a (j + n).
Proof.
  unfold wrap_axis. destruct (Z.gtb_spec (ax_period a) 0); [|reflexivity]. apply Z.add_mod_idemp_l. lia.
Qed.
Lemma setup_wrap_points a I V : (0 <= ax_period a)%Z ->
  combine (fst (setup_wrap a (I, V))) (snd (setup_wrap a (I, V))) = combine (map (wrap_axis a) I) V.
Proof. intros H. unfold setup_wrap. cbn [fst snd]. rewrite setup_wrap_axis by exact H. reflexivity. Qed.

(** two axes on which [x'] lies [n] cells to the right of [x] *)
Definition displaced (a : axis) (x : Q) (a' : axis) (x' : Q) (n : Z) : Prop :=
  ax_period a' = ax_period a /\ ax_order a' = ax_order a /\
  (ax_order a = 0%Z \/ ax_scale a' == ax_scale a) /\
  grid_pos a' x' == grid_pos a x + inject_Z n.

Lemma tuned_points_translate kk f a x a' x' n : setup_of kk = Some f -> (0 <= ax_period a)%Z ->
  displaced a x a' x' n ->
  Forall2 pair_eq (tuned_points f a' x') (moved a n (tuned_points f a x)).
Proof.
  intros Hf Hp (Ep & Eo & Es & G).
  assert (FL : forall c, Qfloor (grid_pos a' x' + c) = (Qfloor (grid_pos a x + c) + n)%Z).
  { intros c. rewrite <- Qfloor_shift. apply Qfloor_comp. rewrite G. ring. }
  assert (FL0 : Qfloor (grid_pos a' x') = (Qfloor (grid_pos a x) + n)%Z).
  { rewrite <- Qfloor_shift. apply Qfloor_comp. exact G. }
  assert (Hp' : (0 <= ax_period a')%Z) by lia.
  assert (W : wrap_axis a' = wrap_axis a) by (unfold wrap_axis; rewrite Ep; reflexivity).
  unfold moved, tuned_points.
  assert (HS : forall b y, setup_wrap b (f b y) = setup_wrap b (fst (f b y), snd (f b y))) by (intros; destruct (f b y); reflexivity).
  rewrite (HS a' x'), (HS a x). rewrite !setup_wrap_points by assumption. rewrite W. clear HS.
  destruct kk; try discriminate Hf; injection Hf as <-;
    unfold setup_nnb, setup_cic, setup_tsc, setup_pcs; fold (grid_pos a x); fold (grid_pos a' x');
    rewrite ?FL, ?FL0, Eo; cbn [fst snd];
    match goal with |- context [Qfloor ?u] => set (j := Qfloor u); clearbody j end;
    destruct (ax_order a =? 0)%Z eqn:O;
    (try (destruct Es as [Es|Es]; [rewrite Es in O; discriminate|]));
    cbn [map combine]; repeat (constructor; [split; cbn [fst snd]|]); try constructor.
  all: try (rewrite wrap_axis_wrap; f_equal; ring).
  all: zq; rewrite ?inject_Z_plus; try rewrite G; try rewrite Es; try ring.
Qed.

Theorem axis_points_translate p h a x a' x' n : proper_kind (pt_kind p) -> (0 <= ax_period a)%Z ->
  displaced a x a' x' n ->
  Forall2 pair_eq (axis_points p h a' x') (moved a n (axis_points p h a x)).
Proof.
  intros Hk Hp Hd. unfold axis_points. destruct (getfastmethod p (window_for p h)) as [f|] eqn:G.
  - destruct (getfastmethod_setup _ _ _ G) as (S & _). apply (tuned_points_translate _ _ _ _ _ _ _ S Hp Hd).
  - destruct Hd as (Ep & Eo & Es & GP).
    unfold window_for. set (k := pt_kind p) in *. set (s := inject_Z (pt_support p) * h).
    pose proof (generic_points_line k s a x Hk) as F. pose proof (generic_points_line k s a' x' Hk) as F'. cbv zeta in F, F'.
    apply (pair_eq_trans _ _ _ F').
    assert (M : forall l l', Forall2 pair_eq l l' -> Forall2 pair_eq (moved a n l) (moved a n l')).
    { intros l l' H. induction H as [|u v l l' [E1 E2] _ IH]; constructor; [|exact IH].
      split; cbn [fst snd]; [rewrite E1; reflexivity|exact E2]. }
    apply pair_eq_sym. apply (pair_eq_trans _ _ _ (M _ _ F)). clear F F' M.
    set (e := eff_support (native_of k) s). set (c := wi_support (window_info_init (native_of k) s)).
    assert (E : first_point e c (grid_pos a' x') = (first_point e c (grid_pos a x) + n)%Z).
    { unfold first_point. transitivity (Qfloor (grid_pos a x + e / 2 + inject_Z n) - (c - 1))%Z.
      - f_equal. apply Qfloor_comp. rewrite GP. ring.
      - rewrite Qfloor_shift. ring. }
    rewrite E. unfold moved. rewrite map_map.
    generalize (first_point e c (grid_pos a x)) as j0. generalize (Z.to_nat c) as cc.
    induction cc as [|cc IH]; intros j0; [constructor|]. cbn [zrange map]. constructor.
    + split; cbn [fst snd]; [rewrite wrap_axis_wrap; unfold wrap_axis; rewrite Ep; reflexivity|].
      unfold line_weight. cbv zeta.
      assert (Y : (grid_pos a x - inject_Z j0) * (inject_Z (native_of k) / e) ==
                  (grid_pos a' x' - inject_Z (j0 + n)) * (inject_Z (native_of k) / e)).
      { rewrite GP, (inject_Z_plus j0). ring. }
      destruct Hk as (_ & PK & PD). rewrite Eo.
      destruct (ax_order a =? 0)%Z eqn:O; [rewrite (PK _ _ Y); reflexivity|].
      destruct Es as [Es|Es]; [rewrite Es in O; discriminate|]. rewrite (PD _ _ Y), Es. reflexivity.
    + replace (j0 + n + 1)%Z with (j0 + 1 + n)%Z by ring. apply IH.
Qed.

(** weight of a cell among moved points *)
Lemma wsum_moved_periodic a n l i : (0 < ax_period a)%Z -> (0 <= i < ax_period a)%Z ->
  Forall (fun jw => 0 <= fst jw < ax_period a)%Z l ->
  wsum (moved a n l) i == wsum l ((i - n) mod ax_period a).
Proof.
  intros Hp Hi Hl. unfold wsum, moved. rewrite qsum_map. apply qsum_ext_in. intros jw Hjw.
  rewrite Forall_forall in Hl. specialize (Hl _ Hjw). cbn [fst snd]. unfold wrap_axis.
  destruct (Z.gtb_spec (ax_period a) 0); [|lia].
  destruct (Z.eqb_spec ((fst jw + n) mod ax_period a) i) as [E|E];
    destruct (Z.eqb_spec (fst jw) ((i - n) mod ax_period a)) as [E'|E']; try reflexivity; exfalso.
  - apply E'. rewrite <- E, Zminus_mod_idemp_l. replace (fst jw + n - n)%Z with (fst jw) by ring. rewrite Z.mod_small; lia.
  - apply E. rewrite E', Zplus_mod_idemp_l. replace (i - n + n)%Z with i by ring. rewrite Z.mod_small; lia.
Qed.
Lemma wsum_moved_open a n l i : ax_period a = 0%Z -> wsum (moved a n l) i == wsum l (i - n).
Proof.
  intros Hp. unfold wsum, moved. rewrite qsum_map. apply qsum_ext. intros jw. cbn [fst snd]. unfold wrap_axis.
  rewrite Hp. cbn [Z.gtb Z.compare].
  destruct (Z.eqb_spec (fst jw + n) i); destruct (Z.eqb_spec (fst jw) (i - n)); try reflexivity; lia.
Qed.

(** which routine is used depends on the kind, the support and the orders only *)
Lemma getfast_same p p' w : pt_kind p' = pt_kind p -> map ax_order (pt_axes p') = map ax_order (pt_axes p) ->
  getfastmethod p' w = getfastmethod p w.
Proof.
  intros Hk Ho. assert (Hl : length (pt_axes p') = length (pt_axes p)) by (rewrite <- (map_length ax_order), Ho; apply map_length).
  assert (Hf : fast_allowed (pt_axes p') = fast_allowed (pt_axes p)).
  { unfold fast_allowed. rewrite Hl. f_equal.
    assert (M : forall l, forallb (fun a => (ax_order a <=? 1)%Z) l = forallb (fun o => (o <=? 1)%Z) (map ax_order l)).
    { induction l as [|a l IH]; [reflexivity|]. cbn. rewrite IH. reflexivity. }
    rewrite !M, Ho. reflexivity. }
  unfold getfastmethod. rewrite Hf, Hk, Hl. reflexivity.
Qed.
Lemma axis_points_same p p' h : pt_kind p' = pt_kind p -> pt_support p' = pt_support p ->
  map ax_order (pt_axes p') = map ax_order (pt_axes p) -> axis_points p' h = axis_points p h.
Proof.
  intros Hk Hs Ho. unfold axis_points.
  assert (W : window_for p' h = window_for p h) by (unfold window_for; rewrite Hk, Hs; reflexivity).
  rewrite W, (getfast_same p p' _ Hk Ho), Hk. reflexivity.
Qed.

(** how the painter of a call depends on the differentiation *)
Definition dim_of (nd : nat) (z : Z) : nat := Z.to_nat (if (z <? 0)%Z then z + Z.of_nat nd else z).
Lemma order_spec_nth nd d i : (i < nd)%nat ->
  nth i (order_spec nd d) 0%Z = match d with None => 0%Z | Some z => if (Z.of_nat i =? (if z <? 0 then z + Z.of_nat nd else z))%Z then 1%Z else 0%Z end.
Proof.
  intros Hi. destruct d as [z|]; cbn [order_spec].
  - rewrite (nth_map_in _ _ _ _ 0%nat) by (rewrite seq_length; exact Hi). rewrite seq_nth by exact Hi. reflexivity.
  - apply nth_repeat.
Qed.
Lemma order_spec_fast nd d : forallb (fun o => (o <=? 1)%Z) (order_spec nd d) = true.
Proof.
  apply forallb_forall. intros o Ho. destruct d as [z|]; cbn [order_spec] in Ho.
  - apply in_map_iff in Ho. destruct Ho as (i & <- & _). destruct (_ =? _)%Z; reflexivity.
  - apply repeat_spec in Ho. rewrite Ho. reflexivity.
Qed.
Lemma axis_points_call w real t t' d d' h : wf_call real t -> wf_call real t' ->
  axis_points (painter_of w real t' d') h = axis_points (painter_of w real t d) h.
Proof.
  intros Hwf Hwf'. unfold axis_points. change (window_for (painter_of w real t' d') h) with (window_for (painter_of w real t d) h).
  assert (G : forall u, getfastmethod (painter_of w real t' d') u = getfastmethod (painter_of w real t d) u).
  { intros u. assert (F : forall t d, wf_call real t -> fast_allowed (pt_axes (painter_of w real t d)) = (length (ar_shape real) <=? 3)%nat).
    { intros t0 d0 Hwf0. unfold fast_allowed. rewrite (axes_length w real t0 d0 Hwf0).
      assert (M : forall l, forallb (fun a => (ax_order a <=? 1)%Z) l = forallb (fun o => (o <=? 1)%Z) (map ax_order l)).
      { induction l as [|a l IH]; [reflexivity|]. cbn. rewrite IH. reflexivity. }
      rewrite M. destruct (axes_spec w real t0 d0 Hwf0) as (-> & _). rewrite order_spec_fast. apply andb_true_r. }
    unfold getfastmethod. rewrite (F t d Hwf), (F t' d' Hwf'), (axes_length w real t d Hwf), (axes_length w real t' d' Hwf').
    reflexivity. }
  rewrite G. reflexivity.
Qed.

(** an axis of a call's painter *)
Definition axis_of (real : array) (t : affine) (d : option Z) (i : nat) : axis :=
  {| ax_scale := nth i (af_scale t) 0; ax_translate := nth i (af_translate t) 0; ax_period := nth i (af_period t) 0%Z;
     ax_order := nth i (order_spec (length (ar_shape real)) d) 0%Z;
     ax_size := nth i (ar_shape real) 0%Z; ax_stride := nth i (ar_strides real) 0%Z |}.
Lemma mk_axes_nth o s t p n st nd i : 
  length o = nd -> length s = nd -> length t = nd -> length p = nd -> length n = nd -> length st = nd -> (i < nd)%nat ->
  nth_error (mk_axes o s t p n st) i =
  Some {| ax_scale := nth i s 0; ax_translate := nth i t 0; ax_period := nth i p 0%Z;
     ax_order := nth i o 0%Z; ax_size := nth i n 0%Z; ax_stride := nth i st 0%Z |}.
Proof.
  revert o s t p n st i. induction nd as [|nd IH]; intros o s t p n st i Ho Hs Ht Hp Hn Hst Hi; [lia|].
  destruct o, s, t, p, n, st; try discriminate. cbn [length] in *. destruct i as [|i]; [reflexivity|].
  cbn [mk_axes nth_error nth]. apply IH; lia.
Qed.
Lemma axes_nth w real t d i : wf_call real t -> (i < length (ar_shape real))%nat ->
  nth_error (pt_axes (painter_of w real t d)) i = Some (axis_of real t d i).
Proof.
  intros (H0 & H1 & H2 & H3 & H4 & _) Hi. unfold painter_of, mk_painter. cbn [pt_axes].
  apply (mk_axes_nth _ _ _ _ _ _ (length (ar_shape real))); try assumption; try reflexivity. apply order_spec_length.
Qed.
Lemma axes_map w real t d : wf_call real t ->
  pt_axes (painter_of w real t d) = map (axis_of real t d) (seq 0 (length (ar_shape real))).
Proof.
  intros Hwf. apply list_ext. intros i. destruct (lt_dec i (length (ar_shape real))) as [Hi|Hi].
  - rewrite (axes_nth _ _ _ _ _ Hwf Hi), nth_error_map, nth_error_seq_lt by exact Hi. reflexivity.
  - rewrite nth_error_map, nth_error_seq_ge by lia. apply nth_error_None. rewrite (axes_length _ _ _ _ Hwf). lia.
Qed.

Lemma points_with_map {A} f (g : A -> axis) (l : list A) (pos : list Q) (x : A -> Q) : pos = map x l ->
  points_with f (map g l) pos = map (fun i => f (g i) (x i)) l.
Proof. intros ->. induction l as [|i l IH]; [reflexivity|]. cbn. rewrite IH. reflexivity. Qed.
Lemma spread_map {A} (f : A -> list (Z * Q)) (l : list A) idx (i : A -> Z) : idx = map i l ->
  spread (map f l) idx == qprod (map (fun a => wsum (f a) (i a)) l).
Proof. intros ->. induction l as [|a l IH]; [reflexivity|]. cbn [map spread qprod]. rewrite IH. reflexivity. Qed.
Lemma list_nth_seq {A} (l : list A) n d : length l = n -> l = map (fun i => nth i l d) (seq 0 n).
Proof. intros <-. symmetry. apply map_nth_seq. reflexivity. Qed.

(** the weight of an element as a product over the dimensions *)
Theorem weight_of_prod w real t d h x idx : wf_call real t ->
  length x = length (ar_shape real) -> length idx = length (ar_shape real) ->
  weight_of (painter_of w real t d) h x idx ==
  qprod (map (fun i => wsum (axis_points (painter_of w real t d) h (axis_of real t d i) (nth i x 0)) (nth i idx 0%Z))
             (seq 0 (length (ar_shape real)))).
Proof.
  intros Hwf Hx Hi. unfold weight_of, all_points. rewrite (axes_map _ _ _ _ Hwf).
  rewrite (points_with_map _ _ _ x (fun i => nth i x 0)) by (apply list_nth_seq, Hx).
  apply spread_map. apply list_nth_seq, Hi.
Qed.
Lemma elements_length real idx : In idx (elements real) -> length idx = length (ar_shape real).
Proof.
  intros H. unfold elements in H. apply in_box in H. apply Forall2_len in H. rewrite map_length in H. congruence.
Qed.
Lemma elements_bound real idx i : In idx (elements real) -> (i < length (ar_shape real))%nat ->
  (0 <= nth i idx 0 < nth i (ar_shape real) 0)%Z.
Proof.
  intros H Hi. unfold elements in H. apply in_box in H. revert idx i H Hi.
  induction (ar_shape real) as [|n l IH]; intros idx i H Hi; [cbn in Hi; lia|].
  cbn [map] in H. inversion H as [|? y ? idx' B H']; subst. destruct i as [|i]; [exact B|].
  cbn [nth]. apply IH; [exact H'|cbn in Hi; lia].
Qed.

Lemma qprod_map_ext {A} (f g : A -> Q) l : (forall a, In a l -> f a == g a) -> qprod (map f l) == qprod (map g l).
Proof.
  intros H. induction l as [|a l IH]; [reflexivity|]. cbn [map qprod].
  rewrite (H a (or_introl eq_refl)), IH; [reflexivity|]. intros b Hb. apply H. right. exact Hb.
Qed.

(* ---------- memory outside of the array ---------- *)
Lemma run_untouched ops m a : Forall (fun o => fst o <> a) ops -> run m ops a = m a.
Proof.
  revert m. induction ops as [|o ops IH]; intros m H; [reflexivity|]. inversion H; subst.
  change (run m (o :: ops)) with (run (add_at m o) ops). rewrite IH by assumption.
  unfold add_at. destruct o as [b q]. cbn [fst snd] in *. destruct (Z.eqb_spec a b); [congruence|].
  destruct (Z.eqb_spec b a); congruence.
Qed.
Lemma paint_ops_addr p pos weight hsml o : wf_kind (pt_kind p) -> length pos = length (pt_axes p) ->
  (0 < length (pt_axes p))%nat -> In o (paint_ops p pos weight hsml) ->
  exists idx q, fst o = offset (pt_axes p) idx /\ valid_cell (pt_axes p) idx /\ In (idx, q) (cart (all_points p hsml pos)).
Proof.
  intros Hk Hl Hn Ho. pose proof (paint_ops_spec p pos weight hsml Hk Hl Hn) as F.
  assert (exists o', In o' (spec_ops (pt_axes p) (all_points p hsml pos) weight) /\ fst o = fst o') as (o' & Ho' & E).
  { clear -F Ho. induction F as [|u v l l' [E _] _ IH]; [destruct Ho|]. destruct Ho as [->|Ho].
    - exists v. split; [left; reflexivity|exact E].
    - destruct (IH Ho) as (o' & H1 & H2). exists o'. split; [right; exact H1|exact H2]. }
  destruct (spec_ops_addr _ _ _ _ (all_points_length p hsml pos Hl) Ho') as (idx & q & E1 & E2 & E3).
  exists idx, q. rewrite E. repeat split; assumption.
Qed.
Lemma paint_all_untouched w real t d m parts a : wf_call real t -> (0 < native_of (w_kind w))%Z ->
  wf_parts (painter_of w real t d) parts ->
  (forall idx, In idx (elements real) -> byte_offset (ar_strides real) idx <> a) ->
  paint_all (painter_of w real t d) m parts a = m a.
Proof.
  intros Hwf Hk Hparts Ha. unfold paint_all. revert m. induction Hparts as [|xmh parts Hx _ IH]; intros m; [reflexivity|].
  cbn [fold_left]. rewrite IH. apply run_untouched. apply Forall_forall. intros o Ho.
  destruct (painter_of_wf w real t d Hwf Hk) as (K1 & K2 & _).
  destruct (paint_ops_addr _ _ _ _ _ K1 Hx K2 Ho) as (idx & q & E1 & E2 & _).
  rewrite E1, (offset_elem w real t d Hwf). apply Ha. apply (in_elements w real t d Hwf), E2.
Qed.
(** two calls that weigh all elements alike give the same memory *)
Lemma paint_all_same w w' real t t' d d' m parts parts' : wf_call real t -> wf_call real t' ->
  (0 < native_of (w_kind w))%Z -> (0 < native_of (w_kind w'))%Z ->
  wf_parts (painter_of w real t d) parts -> wf_parts (painter_of w' real t' d') parts' ->
  (forall idx, In idx (elements real) ->
     qsum (fun xmh => snd (fst xmh) * weight_of (painter_of w real t d) (snd xmh) (fst (fst xmh)) idx) parts ==
     qsum (fun xmh => snd (fst xmh) * weight_of (painter_of w' real t' d') (snd xmh) (fst (fst xmh)) idx) parts') ->
  forall a, paint_all (painter_of w real t d) m parts a == paint_all (painter_of w' real t' d') m parts' a.
Proof.
  intros Hwf Hwf' Hk Hk' Hp Hp' H a.
  destruct (in_dec Z.eq_dec a (map (byte_offset (ar_strides real)) (elements real))) as [Hin|Hout].
  - apply in_map_iff in Hin. destruct Hin as (idx & <- & Hidx).
    pose proof (paint_all_cell _ m parts idx (painter_of_wf w real t d Hwf Hk) Hp (proj1 (in_elements w real t d Hwf idx) Hidx)) as P1.
    pose proof (paint_all_cell _ m parts' idx (painter_of_wf w' real t' d' Hwf' Hk') Hp' (proj1 (in_elements w' real t' d' Hwf' idx) Hidx)) as P2.
    rewrite !(cell_elem w real t d Hwf) in P1. rewrite !(cell_elem w' real t' d' Hwf') in P2. unfold elem in *.
    rewrite P1, P2, (H idx Hidx). reflexivity.
  - assert (Ha : forall idx, In idx (elements real) -> byte_offset (ar_strides real) idx <> a).
    { intros idx Hidx E. apply Hout. rewrite <- E. apply in_map, Hidx. }
    rewrite !paint_all_untouched by assumption. reflexivity.
Qed.
