(** Properties C28 and C29, C35, C57: the stencil holds the kernel, the gradient is the
    derivative, transforms. *)
From Coq Require Import List Arith ZArith QArith Qabs Qround Lia Lqa Bool Setoid Morphisms Permutation.
From Verif Require Import Base ListFacts WrapModel WrapProofs DomainModel DomainFill QSum WindowModel WindowStencil WindowSpread WindowKernels WindowAxis WindowNative WindowApi WindowPoints WindowGrad WindowTranslate WindowTables WindowProperties WindowProperties2.
Import ListNotations.
Local Open Scope Q_scope.

(* ---------- C28 ---------- *)
(** the support in mesh units: that of the window times the smoothing length *)
Definition used_support (w : window) (h : Q) : Q :=
  if Qle_bool (inject_Z (w_support w) * h) 0 then inject_Z (native_of (w_kind w)) else inject_Z (w_support w) * h.
(** mesh point [j] is stored at index [i] of a mesh of the given period *)
Definition stored_at (period j i : Z) : bool :=
  (if period =? 0 then j =? i else j mod period =? i)%Z.

(** the loop visits every mesh point of the support exactly once *)
Theorem C28_visited_once p h pos js : proper_kind (pt_kind p) -> (0 < length (pt_axes p))%nat ->
  length pos = length (pt_axes p) ->
  let w := window_for p h in
  let e := if Qle_bool (inject_Z (pt_support p) * h) 0 then inject_Z (native_of (pt_kind p)) else inject_Z (pt_support p) * h in
  let corner := map fst (fill_all (pt_kind p) w (pt_axes p) pos) in
  Forall2 (fun ax j => Qabs (snd ax * ax_scale (fst ax) + ax_translate (fst ax) - inject_Z j) < e / 2) (combine (pt_axes p) pos) js ->
  NoDup (stencil (length (pt_axes p)) (wi_support w)) /\
  exists rel, In rel (stencil (length (pt_axes p)) (wi_support w)) /\
    map (fun cr => fst cr + snd cr)%Z (combine corner rel) = js /\
    forall rel', In rel' (stencil (length (pt_axes p)) (wi_support w)) ->
      map (fun cr => fst cr + snd cr)%Z (combine corner rel') = js -> rel' = rel.
Proof.
  intros Hk Hn Hl w e corner Hjs.
  assert (Hs : (0 < wi_support w)%Z) by (apply window_info_support, Hk).
  rewrite stencil_box by assumption. split; [apply box_NoDup|].
  destruct (window_info_ok (native_of (pt_kind p)) (inject_Z (pt_support p) * h) (proj1 Hk)) as (He & HI & _).
  change (eff_support (native_of (pt_kind p)) (inject_Z (pt_support p) * h)) with e in *.
  change (window_info_init (native_of (pt_kind p)) (inject_Z (pt_support p) * h)) with w in *.
  assert (HC : Forall2 (fun c j => c <= j < c + wi_support w)%Z corner js).
  { unfold corner. clear Hn corner. revert pos Hl js Hjs. induction (pt_axes p) as [|a axes IH]; intros [|x pos] Hl js Hjs; try discriminate.
    - inversion Hjs. constructor.
    - cbn [combine] in Hjs. inversion Hjs as [|? j ? js' Hj Hjs']; subst. cbn [fill_all map fst].
      constructor; [|apply IH; [cbn in Hl; lia|exact Hjs']].
      unfold fill_k. cbn [fst]. rewrite HI. cbn [fst snd] in Hj. apply Qabs_Qlt_condition in Hj.
      apply (first_point_covers e (wi_support w)); [exact He|]. split; lra. }
  assert (Hlen : length corner = length (pt_axes p)).
  { unfold corner. rewrite map_length. clear -Hl. revert pos Hl. induction (pt_axes p) as [|a axes IH]; intros [|x pos] Hl; try discriminate; [reflexivity|].
    cbn. rewrite IH; [reflexivity|cbn in Hl; lia]. }
  rewrite <- Hlen. clearbody corner. clear Hlen Hjs Hn Hl.
  exists (map (fun cj => snd cj - fst cj)%Z (combine corner js)). split; [|split].
  - apply in_box. induction HC as [|c j corner js B _ IH]; [constructor|]. cbn. constructor; [cbn; lia|exact IH].
  - induction HC as [|c j corner js B _ IH]; [reflexivity|]. cbn. rewrite IH. f_equal. lia.
  - intros rel Hrel E. apply in_box in Hrel. revert rel Hrel E. induction HC as [|c j corner js B _ IH]; intros rel Hrel E.
    + inversion Hrel. reflexivity.
    + cbn in Hrel. inversion Hrel as [|? r ? rel' B' H']; subst. cbn in E |- *. injection E as E1 E2. f_equal; [lia|].
      apply IH; assumption.
Qed.
Print Assumptions C28_visited_once.

(** what painting adds to an element is the kernel summed over all the mesh points stored
    there, for kernels that vanish beyond their native support *)
Theorem C28_no_weight_dropped w real t m x q h (Ls : nat -> list Z) :
  wf_call real t -> setup_of (w_kind w) = None -> proper_kind (w_kind w) -> confined_kind (w_kind w) ->
  periods_ok t -> length x = length (ar_shape real) ->
  let e := used_support w h in
  let v := inject_Z (native_of (w_kind w)) / e in
  let g i := nth i x 0 * nth i (af_scale t) 0 + nth i (af_translate t) 0 in
  (forall i, (i < length (ar_shape real))%nat -> NoDup (Ls i) /\ forall j, Qabs (g i - inject_Z j) <= e / 2 -> In j (Ls i)) ->
  exists m', window_paint w real m [x] (Some (Array [h])) (Some (Array [q])) None (Some t) = Ret m' /\
    forall idx, In idx (elements real) ->
      elem real m' idx == elem real m idx + q *
        qprod (map (fun i => qsum (fun j => if stored_at (nth i (af_period t) 0%Z) j (nth i idx 0%Z)
                                            then v * kernel_of (w_kind w) (v * (g i - inject_Z j)) else 0) (Ls i))
                   (seq 0 (length (ar_shape real)))).
Proof.
  intros Hwf Hset Hk Hc Hper Hx e v g HL. eexists.
  split; [apply (window_paint_ok w real t None Logic.I); reflexivity|]. intros idx Hidx.
  pose proof (paint_all_cell _ m (parts_of [x] [q] [h]) idx (painter_of_wf w real t None Hwf (proj1 Hk))
    (parts_wf w real t None Hwf [x] [q] [h] ltac:(constructor; [exact Hx|constructor])) (proj1 (in_elements w real t None Hwf idx) Hidx)) as P.
  rewrite !(cell_elem w real t None Hwf) in P. rewrite P. cbn [parts_of combine]. rewrite qsum_cons, qsum_nil. cbn [fst snd].
  rewrite weight_of_prod by (try assumption; apply elements_length, Hidx).
  rewrite Qplus_0_r. apply Qplus_comp; [reflexivity|]. apply Qmult_comp; [reflexivity|].
  apply qprod_map_ext. intros i Hi. apply in_seq in Hi. set (a := axis_of real t None i).
  assert (Hp : (0 <= ax_period a)%Z).
  { apply (axis_in_period w real t None Hwf _ Hper). apply (nth_error_In _ i). apply axes_nth; [exact Hwf|lia]. }
  set (p := painter_of w real t None).
  assert (G : getfastmethod p (window_for p h) = None).
  { destruct (getfastmethod p (window_for p h)) as [f|] eqn:G; [|reflexivity]. apply getfastmethod_setup in G.
    destruct G as (S & _). cbn [p painter_of mk_painter pt_kind] in S. congruence. }
  unfold axis_points. rewrite G. unfold window_for. cbn [p painter_of mk_painter pt_kind pt_support].
  destruct (HL i ltac:(lia)) as [N C].
  assert (CV : covers (eff_support (native_of (w_kind w)) (inject_Z (w_support w) * h)) (grid_pos a (nth i x 0)) (Ls i)).
  { split; [exact N|]. intros j Hj. apply C. unfold grid_pos in Hj. cbn [a axis_of ax_scale ax_translate] in Hj.
    change (eff_support (native_of (w_kind w)) (inject_Z (w_support w) * h)) with e in Hj. apply Qabs_le. unfold g. split; lra. }
  rewrite (generic_wsum (w_kind w) (inject_Z (w_support w) * h) a (nth i x 0) (nth i idx 0%Z) (Ls i) Hk Hc CV).
  unfold line_sum. apply qsum_ext. intros j.
  change (eff_support (native_of (w_kind w)) (inject_Z (w_support w) * h)) with e.
  assert (S : (wrap_axis a j =? nth i idx 0)%Z = stored_at (nth i (af_period t) 0%Z) j (nth i idx 0%Z)).
  { unfold wrap_axis, stored_at. cbn [a axis_of ax_period] in *. destruct (Z.gtb_spec (nth i (af_period t) 0%Z) 0); destruct (Z.eqb_spec (nth i (af_period t) 0%Z) 0); try lia; reflexivity. }
  rewrite S. destruct (stored_at _ _ _); [|reflexivity]. unfold line_weight. cbv zeta.
  assert (O : ax_order a = 0%Z) by (unfold a; cbn [axis_of ax_order]; apply nth_repeat). rewrite O. cbn [Z.eqb].
  fold v. rewrite Qmult_comm. apply Qmult_comp; [reflexivity|].
  destruct Hk as (_ & PK & _). apply PK. unfold grid_pos. cbn [a axis_of ax_scale ax_translate]. unfold g. ring.
Qed.
Print Assumptions C28_no_weight_dropped.
(** the windows to which it applies *)
Theorem C28_applies k : match k with Nearest | Linear | Quadratic | Cubic => True | _ => even_kind k end ->
  setup_of k = None /\ proper_kind k /\ confined_kind k.
Proof.
  assert (E : forall k, even_kind k -> setup_of k = None).
  { intros k0 (v & H). cbn [In] in H. repeat destruct H as [<-|H]; [..|destruct H]; reflexivity. }
  intros H. destruct k; try (split; [apply E, H|apply even_kind_ok, H]);
    (split; [reflexivity|]); (split; [apply standard_proper; exact Logic.I|apply standard_confined; exact Logic.I]).
Qed.
Print Assumptions C28_applies.
(** but not to the wavelets, see [wavelet_not_confined]: a particle of mass one leaves
    nothing on a mesh point where the kernel is positive *)
Theorem C28_wavelets_refuted v : v 1793%Z = 33314#100000000 -> v 1794%Z = 30357#100000000 -> v 1795%Z = 27428#100000000 ->
  let line := {| af_scale := [1]; af_translate := [0]; af_period := [0]%Z |} in
  let mesh := {| ar_shape := [12]%Z; ar_strides := [8]%Z |} in
  exists m', window_paint (ResampleWindow (db6 v) 0) mesh (fun _ => 0) [[7505#1000]] None None None (Some line) = Ret m' /\
    elem mesh m' [4]%Z == 0 /\ 0 < kernel_of (db6 v) ((7505#1000) - 4).
Proof.
  intros H1 H2 H3 line mesh. eexists. split; [reflexivity|]. split.
  - vm_compute. reflexivity.
  - cbn [db6 offset_table kernel_of].
    assert (E : offset_table_kernel v 1796 (7#2) (1#256) ((7505#1000) - 4) ==
      v 1793%Z * (1 - (((7505#1000) - 4 + (7#2)) / (1#256) - inject_Z 1793)) + v 1794%Z * (((7505#1000) - 4 + (7#2)) / (1#256) - inject_Z 1793)) by reflexivity.
    rewrite E, H1, H2. reflexivity.
Qed.
Print Assumptions C28_wavelets_refuted.
Example C28_case : exists m', window_paint (ResampleWindow Cubic 0) mesh4 (fun _ => 0) [[33#10]] (Some (Array [5#4])) (Some (Array [2])) None (Some (line4 1)) = Ret m' /\
   elem mesh4 m' [1]%Z == 2 * ((4#5) * cubic_kernel ((4#5) * ((33#10) - 1)) + (4#5) * cubic_kernel ((4#5) * ((33#10) - 5))).
Proof.
  destruct (C28_no_weight_dropped (ResampleWindow Cubic 0) mesh4 (line4 1) (fun _ => 0) [33#10] 2 (5#4) (fun _ => [0;1;2;3;4;5;6]%Z)) as (m' & E & H).
  - repeat split; try reflexivity; [cbn; lia|]. intros i j Hi Hj E.
    pose proof (elements_length _ _ Hi) as L1. pose proof (elements_length _ _ Hj) as L2.
    destruct i as [|i [|]]; try discriminate L1. destruct j as [|j [|]]; try discriminate L2. unfold byte_offset in E.
    cbn [ar_strides mesh4 combine map fold_right fst snd] in E. f_equal. lia.
  - reflexivity.
  - apply (standard_proper Cubic Logic.I).
  - apply (standard_confined Cubic Logic.I).
  - repeat constructor; discriminate.
  - reflexivity.
  - intros i Hi. replace i with 0%nat by (cbn in Hi; lia). split; [repeat constructor; cbn; lia|]. intros j Hj.
    change (used_support (ResampleWindow Cubic 0) (5#4)) with (inject_Z 4 * (5#4)) in Hj.
    cbn [nth line4 af_scale af_translate] in Hj.
    assert (H2 : inject_Z 4 * (5#4) / 2 == (5#2)) by reflexivity. rewrite H2 in Hj.
    apply Qabs_Qle_condition in Hj. destruct Hj as [J1 J2].
    assert (A1 : inject_Z 0 < inject_Z j) by (change (inject_Z 0) with 0; lra).
    assert (A2 : inject_Z j < inject_Z 6) by (change (inject_Z 6) with 6; lra).
    rewrite <- Zlt_Qlt in A1, A2. cbn [In]. lia.
  - exists m'. split; [exact E|]. rewrite (H [1]%Z) by (vm_compute; tauto). vm_compute. reflexivity.
Qed.

(* ---------- C29 ---------- *)
Lemma order_none_axes w real t : wf_call real t ->
  map (with_order 0) (pt_axes (painter_of w real t None)) = pt_axes (painter_of w real t None).
Proof.
  intros H. rewrite axes_map by exact H. rewrite map_map. apply map_ext. intros i. unfold with_order, axis_of.
  cbn [ax_scale ax_translate ax_period ax_size ax_stride]. unfold order_spec. rewrite nth_repeat. reflexivity.
Qed.
Lemma order_some_axes w real t z : wf_call real t ->
  pt_axes (painter_of w real t (Some z)) = order1 (pt_axes (painter_of w real t None)) (dim_of (length (ar_shape real)) z) \/ ~ wf_diffdir real (Some z).
Proof.
  intros H. destruct (Z_le_dec (- Z.of_nat (length (ar_shape real))) z) as [Z1|Z1]; [|right; cbn; lia].
  destruct (Z_lt_dec z (Z.of_nat (length (ar_shape real)))) as [Z2|Z2]; [|right; cbn; lia]. left.
  unfold order1. rewrite order_none_axes by exact H. rewrite !axes_map by exact H. apply list_ext. intros i.
  rewrite nth_error_upd, !nth_error_map. destruct (Nat.lt_ge_cases i (length (ar_shape real))) as [L|L].
  - rewrite nth_error_seq_lt by exact L. cbn [option_map]. unfold axis_of, with_order.
    rewrite !order_spec_nth by exact L. unfold dim_of.
    destruct (Z.eqb_spec (Z.of_nat (0 + i)) (if z <? 0 then z + Z.of_nat (length (ar_shape real)) else z)%Z) as [E|E];
    destruct (Nat.eqb_spec (Z.to_nat (if z <? 0 then z + Z.of_nat (length (ar_shape real)) else z)%Z) i) as [E'|E'];
      try (exfalso; cbn [Nat.add] in E; destruct (Z.ltb_spec z 0); lia); cbn [Nat.add] in *; reflexivity.
  - rewrite nth_error_seq_ge by lia. cbn. destruct (_ =? _)%nat; reflexivity.
Qed.

(** on the weights *)
Definition scale_fits (w : window) (real : array) (t : affine) (z : Z) : Prop :=
  w_kind w = TunedPCS -> nth (dim_of (length (ar_shape real)) z) (af_scale t) 0 == 1.
Lemma dim_of_lt real z : wf_diffdir real (Some z) -> (dim_of (length (ar_shape real)) z < length (ar_shape real))%nat.
Proof. cbn. unfold dim_of. intros H. destruct (Z.ltb_spec z 0); lia. Qed.

Lemma weight_tangent w real t h z : wf_call real t -> smooth (w_kind w) -> periods_ok t -> wf_diffdir real (Some z) ->
  scale_fits w real t z ->
  exists C, 0 <= C /\ forall x eps idx, length x = length (ar_shape real) -> length idx = length (ar_shape real) ->
    Qabs (weight_of (painter_of w real t None) h (upd (dim_of (length (ar_shape real)) z) (fun y => y + eps) x) idx
          - weight_of (painter_of w real t None) h x idx
          - eps * weight_of (painter_of w real t (Some z)) h x idx) <= C * (eps * eps).
Proof.
  intros Hwf Hs Hper Hz Hfit. set (nd := length (ar_shape real)). set (d := dim_of nd z).
  set (p0 := painter_of w real t None). assert (Hd : (d < nd)%nat) by (apply dim_of_lt, Hz).
  destruct (axis_tangent p0 h Hs) as (C & HC & TG). destruct (axis_bound p0 h (smooth_standard _ Hs)) as (B & HB & BD).
  assert (LA : length (pt_axes p0) = nd) by (apply axes_length, Hwf).
  set (a := axis_of real t None d).
  assert (Ha : nth d (pt_axes p0) a = a) by (erewrite nth_error_nth; [reflexivity|apply axes_nth; [exact Hwf|exact Hd]]).
  assert (Ia : forall b, In b (pt_axes p0) -> (0 <= ax_period b)%Z) by (intros b; apply (axis_in_period w real t None Hwf b Hper)).
  exists (qpow B (nd - 1) * (C * (ax_scale a * ax_scale a))). split.
  { apply Qmult_le_0_compat; [apply qpow_nonneg, HB|]. apply Qmult_le_0_compat; [exact HC|]. apply Qsq_nonneg. }
  intros x eps idx Hx Hi. unfold weight_of, all_points.
  rewrite (axis_points_call w real t t None (Some z) h Hwf Hwf). fold p0.
  destruct (order_some_axes w real t z Hwf) as [E|E]; [|contradiction]. rewrite E. fold p0 nd d.
  assert (Z0 : pt_axes p0 = map (with_order 0) (pt_axes p0)) by (symmetry; apply order_none_axes, Hwf).
  pose proof (spread_tangent (axis_points p0 h) B (pt_axes p0) x idx d eps
     (C * ((ax_scale a * eps) * (ax_scale a * eps))) a) as T.
  cbv beta in T. rewrite <- Z0 in T. rewrite LA in T.
  assert (R : qpow B (nd - 1) * (C * ((ax_scale a * eps) * (ax_scale a * eps))) ==
              qpow B (nd - 1) * (C * (ax_scale a * ax_scale a)) * (eps * eps)) by ring.
  rewrite <- R. apply T.
  - intros b y i Hb. apply BD, Ia, Hb.
  - exact Hx.
  - exact Hi.
  - exact Hd.
  - intros i. rewrite Ha.
    assert (TA := TG a (nth d x 0) (nth d x 0 + eps) i).
    assert (EE : nth d x 0 + eps - nth d x 0 == eps) by ring. rewrite EE in TA. apply TA.
    + apply Ia. eapply nth_error_In, axes_nth; [exact Hwf|exact Hd].
    + intros _ K. apply Hfit, K.
Qed.

(** the magnitude of a field *)
Definition sum_abs (real : array) (m : memory) : Q := qsum (fun idx => Qabs (elem real m idx)) (elements real).
(** displacing a particle by eps along an axis *)
Definition displace (real : array) (z : Z) (eps : Q) (x : list Q) : list Q :=
  upd (dim_of (length (ar_shape real)) z) (fun y => y + eps) x.

Lemma Qabs_qsum {A} (f : A -> Q) l : Qabs (qsum f l) <= qsum (fun a => Qabs (f a)) l.
Proof.
  induction l as [|a l IH]; [apply Qle_refl|]. rewrite !qsum_cons. eapply Qle_trans; [apply Qabs_triangle|]. lra.
Qed.

(** quadratic and cubic windows, of any support, any smoothing length, generic or tuned:
    the difference to the linear approximation is of the second order, uniformly in the
    position and the field *)
Theorem C29_readout_gradient w real t h z :
  wf_call real t -> smooth (w_kind w) -> periods_ok t -> wf_diffdir real (Some z) -> scale_fits w real t z ->
  exists C, forall m x eps, length x = length (ar_shape real) ->
  exists v v' g,
    window_readout w real m [x] (Some (Array [h])) None (Some t) = Ret [v] /\
    window_readout w real m [displace real z eps x] (Some (Array [h])) None (Some t) = Ret [v'] /\
    window_readout w real m [x] (Some (Array [h])) (Some z) (Some t) = Ret [g] /\
    Qabs (v' - v - eps * g) <= C * (eps * eps) * sum_abs real m.
Proof.
  intros Hwf Hs Hper Hz Hfit. destruct (weight_tangent w real t h z Hwf Hs Hper Hz Hfit) as (C & HC & T).
  exists C. intros m x eps Hx. set (x' := displace real z eps x).
  exists (readout_at (painter_of w real t None) m x h), (readout_at (painter_of w real t None) m x' h), (readout_at (painter_of w real t (Some z)) m x h).
  split; [apply (window_readout_ok w real t None Logic.I m [x] [h]); reflexivity|].
  split; [apply (window_readout_ok w real t None Logic.I m [x'] [h]); reflexivity|].
  split; [apply (window_readout_ok w real t (Some z) Hz m [x] [h]); reflexivity|].
  assert (Hx' : length x' = length (ar_shape real)) by (unfold x', displace; rewrite upd_length; exact Hx).
  assert (Hn : (0 < native_of (w_kind w))%Z) by (apply (standard_proper _ (smooth_standard _ Hs))).
  rewrite !readout_elements by assumption.
  assert (E : qsum (fun idx => weight_of (painter_of w real t None) h x' idx * elem real m idx) (elements real)
     - qsum (fun idx => weight_of (painter_of w real t None) h x idx * elem real m idx) (elements real)
     - eps * qsum (fun idx => weight_of (painter_of w real t (Some z)) h x idx * elem real m idx) (elements real)
     == qsum (fun idx => (weight_of (painter_of w real t None) h x' idx - weight_of (painter_of w real t None) h x idx
          - eps * weight_of (painter_of w real t (Some z)) h x idx) * elem real m idx) (elements real)).
  { induction (elements real) as [|i l IH]; [rewrite !qsum_nil; ring|]. rewrite !qsum_cons, <- IH. ring. }
  rewrite E. eapply Qle_trans; [apply Qabs_qsum|]. unfold sum_abs.
  assert (G : forall l, (forall idx, In idx l -> In idx (elements real)) ->
    qsum (fun idx => Qabs ((weight_of (painter_of w real t None) h x' idx - weight_of (painter_of w real t None) h x idx
          - eps * weight_of (painter_of w real t (Some z)) h x idx) * elem real m idx)) l <=
    C * (eps * eps) * qsum (fun idx => Qabs (elem real m idx)) l).
  { induction l as [|i l IH]; intros Hl; [rewrite !qsum_nil; lra|]. rewrite !qsum_cons.
    specialize (IH (fun idx H => Hl idx (or_intror H))).
    assert (W := T x eps i Hx (elements_length _ _ (Hl i (or_introl eq_refl)))). fold x' in W.
    change (upd (dim_of (length (ar_shape real)) z) (fun y => y + eps) x) with x' in W.
    rewrite Qabs_Qmult. pose proof (Qabs_nonneg (elem real m i)) as P.
    pose proof (Qmult_le_compat_r _ _ _ W P). lra. }
  apply G. auto.
Qed.
Print Assumptions C29_readout_gradient.

(** the same of painting *)
Theorem C29_paint_gradient w real t h z :
  wf_call real t -> smooth (w_kind w) -> periods_ok t -> wf_diffdir real (Some z) -> scale_fits w real t z ->
  exists C, forall m x q eps, length x = length (ar_shape real) ->
  exists m0 m1 mg,
    window_paint w real m [x] (Some (Array [h])) (Some (Array [q])) None (Some t) = Ret m0 /\
    window_paint w real m [displace real z eps x] (Some (Array [h])) (Some (Array [q])) None (Some t) = Ret m1 /\
    window_paint w real m [x] (Some (Array [h])) (Some (Array [q])) (Some z) (Some t) = Ret mg /\
    forall idx, In idx (elements real) ->
      Qabs (elem real m1 idx - elem real m0 idx - eps * (elem real mg idx - elem real m idx)) <= C * (eps * eps) * Qabs q.
Proof.
  intros Hwf Hs Hper Hz Hfit. destruct (weight_tangent w real t h z Hwf Hs Hper Hz Hfit) as (C & HC & T).
  exists C. intros m x q eps Hx. set (x' := displace real z eps x). do 3 eexists.
  split; [apply (window_paint_ok w real t None Logic.I); reflexivity|].
  split; [apply (window_paint_ok w real t None Logic.I); reflexivity|].
  split; [apply (window_paint_ok w real t (Some z) Hz); reflexivity|].
  intros idx Hidx.
  assert (Hx' : length x' = length (ar_shape real)) by (unfold x', displace; rewrite upd_length; exact Hx).
  assert (Hn : (0 < native_of (w_kind w))%Z) by (apply (standard_proper _ (smooth_standard _ Hs))).
  assert (P : forall d y, length y = length (ar_shape real) -> elem real (paint_all (painter_of w real t d) m (parts_of [y] [q] [h])) idx ==
     elem real m idx + q * weight_of (painter_of w real t d) h y idx).
  { intros d y Hy. pose proof (paint_all_cell _ m (parts_of [y] [q] [h]) idx (painter_of_wf w real t d Hwf Hn)
      (parts_wf w real t d Hwf [y] [q] [h] ltac:(constructor; [exact Hy|constructor])) (proj1 (in_elements w real t d Hwf idx) Hidx)) as P.
    rewrite !(cell_elem w real t d Hwf) in P. rewrite P. cbn [parts_of combine]. rewrite qsum_cons, qsum_nil. cbn [fst snd]. ring. }
  rewrite !P by assumption.
  assert (W := T x eps idx Hx (elements_length _ _ Hidx)). change (upd (dim_of (length (ar_shape real)) z) (fun y => y + eps) x) with x' in W.
  assert (E : elem real m idx + q * weight_of (painter_of w real t None) h x' idx - (elem real m idx + q * weight_of (painter_of w real t None) h x idx)
     - eps * (elem real m idx + q * weight_of (painter_of w real t (Some z)) h x idx - elem real m idx) ==
     (weight_of (painter_of w real t None) h x' idx - weight_of (painter_of w real t None) h x idx
          - eps * weight_of (painter_of w real t (Some z)) h x idx) * q) by ring.
  rewrite E, Qabs_Qmult. apply Qmult_le_compat_r; [exact W|apply Qabs_nonneg].
Qed.
Print Assumptions C29_paint_gradient.
Example C29_case : exists C, forall m x eps, length x = 2%nat -> exists v v' g,
    window_readout (ResampleWindow TunedTSC 0) mesh44 m [x] (Some (Array [3#2])) None (Some box44) = Ret [v] /\
    window_readout (ResampleWindow TunedTSC 0) mesh44 m [displace mesh44 (-1) eps x] (Some (Array [3#2])) None (Some box44) = Ret [v'] /\
    window_readout (ResampleWindow TunedTSC 0) mesh44 m [x] (Some (Array [3#2])) (Some (-1)%Z) (Some box44) = Ret [g] /\
    Qabs (v' - v - eps * g) <= C * (eps * eps) * sum_abs mesh44 m.
Proof.
  apply (C29_readout_gradient (ResampleWindow TunedTSC 0) mesh44 box44 (3#2) (-1)%Z).
  - apply wf_mesh44; reflexivity.
  - exact Logic.I.
  - repeat (apply Forall_cons; [discriminate|]). apply Forall_nil.
  - cbn. lia.
  - intros E. discriminate E.
Qed.
Lemma wf_line4 s : wf_call mesh4 (line4 s).
Proof.
  repeat split; try reflexivity; [cbn; lia|]. intros i j Hi Hj E.
  pose proof (elements_length _ _ Hi) as L1. pose proof (elements_length _ _ Hj) as L2.
  destruct i as [|i [|]]; try discriminate L1. destruct j as [|j [|]]; try discriminate L2. unfold byte_offset in E.
  cbn [ar_strides mesh4 combine map fold_right fst snd] in E. f_equal. lia.
Qed.
(** the tuned pcs gradient is not the derivative when the scale is not one: no constant
    will do *)
Theorem C29_pcs_refuted : ~ exists C, forall m x eps, exists v v' g,
    window_readout (ResampleWindow TunedPCS 0) mesh4 m [[x]] (Some (Array [1])) None (Some (line4 2)) = Ret [v] /\
    window_readout (ResampleWindow TunedPCS 0) mesh4 m [displace mesh4 0 eps [x]] (Some (Array [1])) None (Some (line4 2)) = Ret [v'] /\
    window_readout (ResampleWindow TunedPCS 0) mesh4 m [[x]] (Some (Array [1])) (Some 0%Z) (Some (line4 2)) = Ret [g] /\
    Qabs (v' - v - eps * g) <= C * (eps * eps) * sum_abs mesh4 m.
Proof.
  intros (C & H). set (m := fun a : Z => if (a =? 0)%Z then 1 else 0).
  destruct (C29_readout_gradient (ResampleWindow Cubic 0) mesh4 (line4 2) 1 0 (wf_line4 2) Logic.I) as (C0 & H0).
  { repeat constructor; discriminate. } { cbn; lia. } { intros E; discriminate E. }
  set (D := 1 + Qabs C + Qabs C0). pose proof (Qabs_nonneg C) as A1. pose proof (Qabs_nonneg C0) as A2.
  pose proof (Qle_Qabs C) as A3. pose proof (Qle_Qabs C0) as A4.
  assert (HD : 1 <= D) by (unfold D; lra). assert (HD' : C + C0 <= D) by (unfold D; lra). clearbody D.
  assert (HDi : 0 < / D) by (apply Qinv_lt_0_compat; lra).
  set (eps := (1#4) * / D).
  assert (He : 0 < eps) by (unfold eps; lra). assert (Hed : eps * D == 1#4) by (unfold eps; field; lra). clearbody eps.
  destruct (H m (1#4) eps) as (v & v' & g & V & V' & G & B). destruct (H0 m [1#4] eps eq_refl) as (u & u' & k & U & U' & K & B0).
  assert (S : sum_abs mesh4 m == 1) by reflexivity. rewrite S in B, B0.
  assert (Same : forall y a b, window_readout (ResampleWindow TunedPCS 0) mesh4 m [[y]] (Some (Array [1])) None (Some (line4 2)) = Ret [a] ->
    window_readout (ResampleWindow Cubic 0) mesh4 m [[y]] (Some (Array [1])) None (Some (line4 2)) = Ret [b] -> a == b).
  { intros y a b Ea Eb. destruct (C24_tuned_is_generic TunedPCS mesh4 (line4 2) m [[y]] [1] None (wf_line4 2) Logic.I) as [_ (v1 & v2 & E1 & E2 & Q)].
    - repeat constructor; discriminate.
    - repeat constructor.
    - reflexivity.
    - exact Logic.I.
    - repeat constructor.
    - change (Ret [a] = Ret v1) in E1 || (rewrite <- E1 in Ea || idtac).
      assert (E1' : window_readout (ResampleWindow TunedPCS 0) mesh4 m [[y]] (Some (Array [1])) None (Some (line4 2)) = Ret v1) by exact E1.
      assert (E2' : window_readout (ResampleWindow Cubic 0) mesh4 m [[y]] (Some (Array [1])) None (Some (line4 2)) = Ret v2) by exact E2.
      rewrite Ea in E1'. rewrite Eb in E2'. injection E1' as <-. injection E2' as <-. inversion Q. assumption. }
  pose proof (Same _ _ _ V U) as X1. pose proof (Same _ _ _ V' U') as X2.
  assert (Xg : g == - (5#8)) by (vm_compute in G; injection G as <-; reflexivity).
  assert (Xk : k == - (5#4)) by (vm_compute in K; injection K as <-; reflexivity).
  rewrite Xg, X1, X2 in B. rewrite Xk in B0.
  apply Qabs_Qle_condition in B. apply Qabs_Qle_condition in B0.
  assert (F : eps * (5#8) <= (C + C0) * (eps * eps)) by lra.
  assert (F2 : (C + C0) * (eps * eps) <= D * (eps * eps)) by (apply Qmult_le_compat_r; [exact HD'|nra]).
  assert (F3 : D * (eps * eps) == eps * (1#4)) by (rewrite <- Hed; ring).
  nra.
Qed.
Print Assumptions C29_pcs_refuted.

(** windows that are not smooth: where one axis is exactly linear, so is the readout *)
Lemma readout_exact w real t h z x eps : wf_call real t -> standard (w_kind w) -> periods_ok t -> wf_diffdir real (Some z) ->
  length x = length (ar_shape real) ->
  let p := painter_of w real t None in
  let d := dim_of (length (ar_shape real)) z in
  let a := axis_of real t None d in
  (forall i, wsum (axis_points p h a (nth d x 0 + eps)) i - wsum (axis_points p h a (nth d x 0)) i ==
             eps * wsum (axis_points p h (with_order 1 a) (nth d x 0)) i) ->
  forall m, readout_at p m (displace real z eps x) h - readout_at p m x h == eps * readout_at (painter_of w real t (Some z)) m x h.
Proof.
  intros Hwf Hs Hper Hz Hx p d a HL m. assert (Hd : (d < length (ar_shape real))%nat) by (apply dim_of_lt, Hz).
  assert (Hn : (0 < native_of (w_kind w))%Z) by (apply (standard_proper _ Hs)).
  assert (Hx' : length (displace real z eps x) = length (ar_shape real)) by (unfold displace; rewrite upd_length; exact Hx).
  destruct (axis_bound p h Hs) as (B & HB & BD).
  assert (LA : length (pt_axes p) = length (ar_shape real)) by (apply axes_length, Hwf).
  assert (Ha : nth d (pt_axes p) a = a) by (erewrite nth_error_nth; [reflexivity|apply axes_nth; [exact Hwf|exact Hd]]).
  assert (W0 : with_order 0 a = a).
  { unfold a, axis_of, with_order. cbn [ax_scale ax_translate ax_period ax_size ax_stride]. unfold order_spec. rewrite nth_repeat. reflexivity. }
  assert (W : forall idx, In idx (elements real) -> weight_of p h (displace real z eps x) idx - weight_of p h x idx
     - eps * weight_of (painter_of w real t (Some z)) h x idx == 0).
  { intros idx Hidx. unfold weight_of, all_points.
    rewrite (axis_points_call w real t t None (Some z) h Hwf Hwf). fold p.
    destruct (order_some_axes w real t z Hwf) as [E|E]; [|contradiction]. rewrite E. fold p d.
    assert (Z0 : pt_axes p = map (with_order 0) (pt_axes p)) by (symmetry; apply order_none_axes, Hwf).
    pose proof (spread_tangent (axis_points p h) B (pt_axes p) x idx d eps 0 a) as T.
    cbv beta in T. rewrite <- Z0 in T. rewrite LA, Qmult_0_r in T.
    assert (A : forall q, Qabs q <= 0 -> q == 0) by (intros q Hq; apply Qabs_Qle_condition in Hq; lra).
    apply A, T.
    - intros b y i Hb. apply BD. apply (axis_in_period w real t None Hwf b Hper), Hb.
    - exact Hx.
    - apply elements_length, Hidx.
    - exact Hd.
    - intros i. rewrite Ha, W0, HL.
      assert (E0 : forall q, q - q == 0) by (intros; ring). rewrite E0. apply Qle_refl. }
  unfold p. rewrite !readout_elements by assumption. fold p.
  rewrite <- qsum_minus, <- qsum_scale. apply qsum_ext_in. intros idx Hidx. specialize (W idx Hidx).
  assert (E : weight_of p h (displace real z eps x) idx == weight_of p h x idx + eps * weight_of (painter_of w real t (Some z)) h x idx) by lra.
  rewrite E. ring.
Qed.

Definition grid_coordinate (real : array) (t : affine) (z : Z) (x : list Q) : Q :=
  let d := dim_of (length (ar_shape real)) z in nth d x 0 * nth d (af_scale t) 0 + nth d (af_translate t) 0.
(** cic, generic or tuned: exact inside of a cell *)
Theorem C29_cic_gradient k real t z x eps m :
  wf_call real t -> (k = Linear \/ k = TunedCIC) -> periods_ok t -> wf_diffdir real (Some z) ->
  length x = length (ar_shape real) ->
  (forall n : Z, ~ grid_coordinate real t z x == inject_Z n) ->
  inject_Z (Qfloor (grid_coordinate real t z x)) <= grid_coordinate real t z (displace real z eps x)
    <= inject_Z (Qfloor (grid_coordinate real t z x)) + 1 ->
  exists v v' g,
    window_readout (ResampleWindow k 0) real m [x] None None (Some t) = Ret [v] /\
    window_readout (ResampleWindow k 0) real m [displace real z eps x] None None (Some t) = Ret [v'] /\
    window_readout (ResampleWindow k 0) real m [x] None (Some z) (Some t) = Ret [g] /\
    v' - v == eps * g.
Proof.
  intros Hwf Hk Hper Hz Hx Hint Hcell. set (w := ResampleWindow k 0).
  exists (readout_at (painter_of w real t None) m x 1), (readout_at (painter_of w real t None) m (displace real z eps x) 1), (readout_at (painter_of w real t (Some z)) m x 1).
  split; [apply (window_readout_none w real t None Logic.I m [x])|].
  split; [apply (window_readout_none w real t None Logic.I m [displace real z eps x])|].
  split; [apply (window_readout_none w real t (Some z) Hz m [x])|].
  assert (Hs : standard k) by (destruct Hk; subst k; exact Logic.I).
  assert (Hd : (dim_of (length (ar_shape real)) z < length (ar_shape real))%nat) by (apply dim_of_lt, Hz).
  apply readout_exact; try assumption. cbv zeta. set (d := dim_of (length (ar_shape real)) z) in *.
  set (a := axis_of real t None d). intros i.
  assert (Hp : (0 <= ax_period a)%Z).
  { apply (axis_in_period w real t None Hwf a Hper). eapply nth_error_In, axes_nth; [exact Hwf|exact Hd]. }
  assert (W0 : with_order 0 a = a).
  { unfold a, axis_of, with_order. cbn [ax_scale ax_translate ax_period ax_size ax_stride]. unfold order_spec. rewrite nth_repeat. reflexivity. }
  assert (O0 : ax_order a = 0%Z) by (rewrite <- W0; reflexivity).
  assert (Gx : grid_pos a (nth d x 0) = grid_coordinate real t z x) by reflexivity.
  assert (Nd : nth d (displace real z eps x) 0 = nth d x 0 + eps).
  { unfold displace. fold d. apply nth_error_nth. rewrite nth_error_upd, Nat.eqb_refl.
    rewrite (nth_error_nth' x 0) by lia. reflexivity. }
  assert (Gx' : grid_pos a (nth d x 0 + eps) == grid_coordinate real t z (displace real z eps x)).
  { unfold grid_coordinate. cbv zeta. fold d. rewrite Nd. reflexivity. }
  assert (Fl : inject_Z (Qfloor (grid_pos a (nth d x 0))) < grid_pos a (nth d x 0)).
  { destruct (Qfloor_bounds (grid_pos a (nth d x 0))) as [F _]. apply Qle_lteq in F. destruct F as [F|F]; [exact F|].
    exfalso. apply (Hint (Qfloor (grid_pos a (nth d x 0)))). symmetry. exact F. }
  assert (NP : native_painter (painter_of w real t None) 1).
  { apply default_native. split; [exact Hs|]. destruct Hk; subst k; reflexivity. }
  assert (PK : pt_kind (painter_of w real t None) = k) by reflexivity.
  assert (AP : forall b y, (0 <= ax_period b)%Z -> (ax_order b = 0%Z \/ inject_Z (Qfloor (grid_pos b y)) < grid_pos b y) ->
     wsum (axis_points (painter_of w real t None) 1 b y) i == wsum (native_line k b y) i).
  { intros b y Hb HO. apply pair_eq_wsum. rewrite <- PK. apply axis_points_native; try assumption.
    - rewrite PK. apply standard_proper, Hs.
    - intros _. rewrite PK. destruct HO as [HO|HO]; [left; exact HO|right]. destruct Hk; subst k; [exact Logic.I|exact HO]. }
  rewrite (AP a) by (auto). rewrite (AP a) by auto. rewrite (AP (with_order 1 a)) by (auto; right; exact Fl).
  assert (L := cic_linear k a (nth d x 0) (nth d x 0 + eps) i). rewrite W0 in L. rewrite L.
  - ring.
  - destruct Hk; subst k; reflexivity.
  - destruct Hk; subst k; reflexivity.
  - destruct Hk; subst k; reflexivity.
  - exact Hs.
  - exact Fl.
  - rewrite Gx', Gx. exact Hcell.
Qed.
Print Assumptions C29_cic_gradient.
Example C29_cic_case : exists v v' g,
    window_readout (ResampleWindow TunedCIC 0) mesh44 (fun a => inject_Z (a * a)) [[-(17); 13#10]] None None (Some box44) = Ret [v] /\
    window_readout (ResampleWindow TunedCIC 0) mesh44 (fun a => inject_Z (a * a)) [displace mesh44 1 (1#7) [-(17); 13#10]] None None (Some box44) = Ret [v'] /\
    window_readout (ResampleWindow TunedCIC 0) mesh44 (fun a => inject_Z (a * a)) [[-(17); 13#10]] None (Some 1%Z) (Some box44) = Ret [g] /\
    v' - v == (1#7) * g.
Proof.
  apply C29_cic_gradient.
  - apply wf_mesh44; reflexivity.
  - right. reflexivity.
  - repeat (apply Forall_cons; [discriminate|]). apply Forall_nil.
  - cbn. lia.
  - reflexivity.
  - intros n E. pose proof (Qfloor_comp _ _ E) as F. rewrite Qfloor_Z in F. subst n. vm_compute in E. discriminate.
  - split; vm_compute; discriminate.
Qed.

(** nnb: the gradient is zero and the readout constant inside of a cell *)
Theorem C29_nnb_gradient k real t z x eps m :
  wf_call real t -> (k = Nearest \/ k = TunedNNB) -> periods_ok t -> wf_diffdir real (Some z) ->
  length x = length (ar_shape real) ->
  Qfloor (grid_coordinate real t z (displace real z eps x) + (1#2)) = Qfloor (grid_coordinate real t z x + (1#2)) ->
  exists v v' g,
    window_readout (ResampleWindow k 0) real m [x] None None (Some t) = Ret [v] /\
    window_readout (ResampleWindow k 0) real m [displace real z eps x] None None (Some t) = Ret [v'] /\
    window_readout (ResampleWindow k 0) real m [x] None (Some z) (Some t) = Ret [g] /\
    v' == v /\ g == 0.
Proof.
  intros Hwf Hk Hper Hz Hx Hcell. set (w := ResampleWindow k 0).
  exists (readout_at (painter_of w real t None) m x 1), (readout_at (painter_of w real t None) m (displace real z eps x) 1), (readout_at (painter_of w real t (Some z)) m x 1).
  split; [apply (window_readout_none w real t None Logic.I m [x])|].
  split; [apply (window_readout_none w real t None Logic.I m [displace real z eps x])|].
  split; [apply (window_readout_none w real t (Some z) Hz m [x])|].
  assert (Hs : standard k) by (destruct Hk; subst k; exact Logic.I).
  set (d := dim_of (length (ar_shape real)) z) in *.
  assert (Hd : (d < length (ar_shape real))%nat) by (apply dim_of_lt, Hz).
  set (a := axis_of real t None d).
  assert (Hp : (0 <= ax_period a)%Z).
  { apply (axis_in_period w real t None Hwf a Hper). eapply nth_error_In, axes_nth; [exact Hwf|exact Hd]. }
  assert (W0 : with_order 0 a = a).
  { unfold a, axis_of, with_order. cbn [ax_scale ax_translate ax_period ax_size ax_stride]. unfold order_spec. rewrite nth_repeat. reflexivity. }
  assert (O0 : ax_order a = 0%Z) by (rewrite <- W0; reflexivity).
  assert (Nd : nth d (displace real z eps x) 0 = nth d x 0 + eps).
  { unfold displace. fold d. apply nth_error_nth. rewrite nth_error_upd, Nat.eqb_refl.
    rewrite (nth_error_nth' x 0) by lia. reflexivity. }
  assert (Gx' : grid_pos a (nth d x 0 + eps) == grid_coordinate real t z (displace real z eps x)).
  { unfold grid_coordinate. cbv zeta. fold d. rewrite Nd. reflexivity. }
  assert (NP : native_painter (painter_of w real t None) 1).
  { apply default_native. split; [exact Hs|]. destruct Hk; subst k; reflexivity. }
  assert (PK : pt_kind (painter_of w real t None) = k) by reflexivity.
  assert (AP : forall b y i, (0 <= ax_period b)%Z -> wsum (axis_points (painter_of w real t None) 1 b y) i == wsum (native_line k b y) i).
  { intros b y i Hb. apply pair_eq_wsum. rewrite <- PK. apply axis_points_native; try assumption.
    - rewrite PK. apply standard_proper, Hs.
    - intros _. rewrite PK. right. destruct Hk; subst k; exact Logic.I. }
  assert (N1 : native_of k = 1%Z) by (destruct Hk; subst k; reflexivity).
  assert (KK : kernel_of k = nearest_kernel) by (destruct Hk; subst k; reflexivity).
  assert (DD : diff_of k = nearest_diff) by (destruct Hk; subst k; reflexivity).
  assert (G0 : forall y i, wsum (native_line k (with_order 1 a) y) i == 0).
  { intros y i. unfold native_line. rewrite N1. change (Z.to_nat 1) with 1%nat. cbn [zrange map]. unfold wsum. rewrite qsum_cons, qsum_nil. cbn [fst snd].
    destruct (_ =? _)%Z; [|reflexivity]. rewrite line_weight_n by assumption. cbn [with_order ax_order Z.eqb]. rewrite DD. unfold nearest_diff. ring. }
  assert (V1 : forall y, native_line k a y = [(wrap_axis a (Qfloor (grid_pos a y + (1#2))), line_weight k (inject_Z 1) a y (Qfloor (grid_pos a y + (1#2))))]).
  { intros y. unfold native_line. rewrite N1. change (Z.to_nat 1) with 1%nat. cbn [zrange map]. rewrite !first_point_1. reflexivity. }
  assert (V2 : forall y, line_weight k (inject_Z 1) a y (Qfloor (grid_pos a y + (1#2))) == 1).
  { intros y. rewrite line_weight_n by assumption. rewrite O0. cbn [Z.eqb]. rewrite KK. unfold nearest_kernel.
    destruct (Qfloor_bounds (grid_pos a y + (1#2))) as [F1 F2].
    assert (T1 : Qltb (grid_pos a y - inject_Z (Qfloor (grid_pos a y + (1 # 2)))) (1#2) = true) by (destruct (Qltb_case (grid_pos a y - inject_Z (Qfloor (grid_pos a y + (1 # 2)))) (1#2)); [reflexivity|lra]).
    assert (T2 : Qle_bool (-(1#2)) (grid_pos a y - inject_Z (Qfloor (grid_pos a y + (1 # 2)))) = true) by (apply Qle_bool_iff; lra).
    rewrite T1, T2. reflexivity. }
  assert (VX : forall i, wsum (native_line k a (nth d x 0 + eps)) i == wsum (native_line k a (nth d x 0)) i).
  { intros i. rewrite !V1. unfold wsum. rewrite !qsum_cons, !qsum_nil. cbn [fst snd].
    assert (E : Qfloor (grid_pos a (nth d x 0 + eps) + (1#2)) = Qfloor (grid_pos a (nth d x 0) + (1#2))).
    { rewrite (Qfloor_comp _ _ (Qplus_comp _ _ Gx' _ _ (Qeq_refl (1#2)))). exact Hcell. }
    pose proof (V2 (nth d x 0 + eps)) as V3. pose proof (V2 (nth d x 0)) as V4. rewrite E in V3 |- *.
    destruct (_ =? _)%Z; [rewrite V3, V4|]; reflexivity. }
  assert (EX : readout_at (painter_of w real t None) m (displace real z eps x) 1 - readout_at (painter_of w real t None) m x 1 ==
     eps * readout_at (painter_of w real t (Some z)) m x 1).
  { apply readout_exact; try assumption. intros i. fold d a.
    rewrite !AP by assumption. rewrite VX, G0. ring. }
  assert (GZ : readout_at (painter_of w real t (Some z)) m x 1 == 0).
  { rewrite readout_elements; [|exact Hwf|apply (standard_proper _ Hs)|exact Hx].
    transitivity (qsum (fun _ : list Z => 0) (elements real)); [|apply qsum_zero; reflexivity].
    apply qsum_ext_in. intros idx Hidx.
    rewrite weight_of_prod by (try assumption; apply elements_length, Hidx).
    assert (Z0 : qprod (map (fun i => wsum (axis_points (painter_of w real t (Some z)) 1 (axis_of real t (Some z) i) (nth i x 0)) (nth i idx 0%Z)) (seq 0 (length (ar_shape real)))) == 0).
    { apply (qprod_zero _ (wsum (axis_points (painter_of w real t (Some z)) 1 (axis_of real t (Some z) d) (nth d x 0)) (nth d idx 0%Z))).
      - apply in_map_iff. exists d. split; [reflexivity|]. apply in_seq. lia.
      - rewrite (axis_points_call w real t t None (Some z) 1 Hwf Hwf). rewrite AP by exact Hp.
        assert (EA : axis_of real t (Some z) d = with_order 1 a).
        { unfold axis_of, with_order, a. cbn [ax_scale axis_of ax_translate ax_period ax_size ax_stride]. f_equal.
          rewrite order_spec_nth by exact Hd. unfold d, dim_of. cbn in Hz.
          rewrite Z2Nat.id by (destruct (Z.ltb_spec z 0); lia). rewrite Z.eqb_refl. reflexivity. }
        rewrite EA. apply G0. }
    rewrite Z0. ring. }
  split; [|exact GZ]. rewrite GZ in EX. lra.
Qed.
Print Assumptions C29_nnb_gradient.
