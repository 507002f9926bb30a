(** Properties C35 and C57: affine transforms, rolling the mesh. *)
From Coq Require Import List Arith ZArith QArith Qabs Qround Lia Lqa Bool Setoid Morphisms Permutation.
From Verif Require Import Base ListFacts WrapModel WrapProofs DomainModel DomainFill QSum WindowModel WindowStencil WindowSpread WindowKernels WindowAxis WindowNative WindowApi WindowPoints WindowGrad WindowTranslate WindowProperties WindowProperties2 WindowProperties3.
Import ListNotations.
Local Open Scope Q_scope.

(* ---------- C57 ---------- *)
(** seen in mesh units [x'] under [t'] is [x] under [t] moved by [ns] cells *)
Definition cells_apart (t : affine) (x : list Q) (t' : affine) (x' : list Q) (ns : list Z) : Prop :=
  length x' = length x /\ af_period t' = af_period t /\
  forall i, (i < length x)%nat ->
    nth i x' 0 * nth i (af_scale t') 0 + nth i (af_translate t') 0 ==
    nth i x 0 * nth i (af_scale t) 0 + nth i (af_translate t) 0 + inject_Z (nth i ns 0%Z).
Definition same_scale (t t' : affine) : Prop := forall i, nth i (af_scale t') 0 == nth i (af_scale t) 0.
(** the element that numpy.roll by [ns] moves to [idx] *)
Definition rolled (real : array) (ns idx : list Z) : list Z :=
  map (fun i => (nth i idx 0 - nth i ns 0) mod (nth i (ar_shape real) 0))%Z (seq 0 (length (ar_shape real))).

Lemma rolled_nth real ns idx i : (i < length (ar_shape real))%nat ->
  nth i (rolled real ns idx) 0%Z = ((nth i idx 0 - nth i ns 0) mod (nth i (ar_shape real) 0))%Z.
Proof.
  intros H. apply nth_error_nth. unfold rolled. rewrite nth_error_map, nth_error_seq_lt by exact H. reflexivity.
Qed.
Lemma rolled_length real ns idx : length (rolled real ns idx) = length (ar_shape real).
Proof. unfold rolled. rewrite map_length, seq_length. reflexivity. Qed.
Lemma in_elements_iff real idx : In idx (elements real) <->
  length idx = length (ar_shape real) /\ forall i, (i < length (ar_shape real))%nat -> (0 <= nth i idx 0 < nth i (ar_shape real) 0)%Z.
Proof.
  split; [intros H; split; [apply elements_length, H|intros i; apply elements_bound, H]|].
  intros [L B]. unfold elements. apply in_box. revert idx L B. induction (ar_shape real) as [|n s IH]; intros [|j idx] L B; try discriminate; [constructor|].
  cbn [map]. constructor; [exact (B 0%nat ltac:(cbn; lia))|]. apply IH; [injection L as L; exact L|].
  intros i Hi. exact (B (S i) ltac:(cbn; lia)).
Qed.
Lemma rolled_in real ns idx : Forall (fun n => 0 < n)%Z (ar_shape real) -> In (rolled real ns idx) (elements real).
Proof.
  intros P. apply in_elements_iff. split; [apply rolled_length|]. intros i Hi. rewrite rolled_nth by exact Hi.
  apply Z.mod_pos_bound. rewrite Forall_forall in P. apply P, nth_In, Hi.
Qed.
Lemma nth_opp ns i : nth i (map Z.opp ns) 0%Z = (- nth i ns 0)%Z.
Proof. exact (map_nth Z.opp ns 0%Z i). Qed.
Lemma rolled_back real ns idx : In idx (elements real) -> rolled real ns (rolled real (map Z.opp ns) idx) = idx.
Proof.
  intros H. apply in_elements_iff in H. destruct H as [L B]. apply (nth_ext _ _ 0%Z 0%Z); [rewrite rolled_length; symmetry; exact L|].
  intros i Hi. rewrite rolled_length in Hi. rewrite !rolled_nth by exact Hi. rewrite nth_opp.
  specialize (B i Hi). rewrite Zminus_mod_idemp_l. replace (_ - - _ - _)%Z with (nth i idx 0%Z) by lia. apply Z.mod_small, B.
Qed.
Lemma rolled_forth real ns idx : In idx (elements real) -> rolled real (map Z.opp ns) (rolled real ns idx) = idx.
Proof.
  intros H. apply in_elements_iff in H. destruct H as [L B]. apply (nth_ext _ _ 0%Z 0%Z); [rewrite rolled_length; symmetry; exact L|].
  intros i Hi. rewrite rolled_length in Hi. rewrite !rolled_nth by exact Hi. rewrite nth_opp.
  specialize (B i Hi). rewrite Zminus_mod_idemp_l. replace (_ - _ - - _)%Z with (nth i idx 0%Z) by lia. apply Z.mod_small, B.
Qed.
Lemma rolled_perm real ns : Forall (fun n => 0 < n)%Z (ar_shape real) ->
  Permutation (map (rolled real ns) (elements real)) (elements real).
Proof.
  intros P. apply Permutation_sym, NoDup_Permutation_bis; [apply box_NoDup|rewrite map_length; apply le_n|].
  intros idx H. apply in_map_iff. exists (rolled real (map Z.opp ns) idx). split; [apply rolled_back, H|apply rolled_in, P].
Qed.

Lemma weight_rolled w real t t' d h x x' ns idx : wf_call real t -> wf_call real t' -> proper_kind (w_kind w) ->
  full_mesh real t -> length x = length (ar_shape real) -> cells_apart t x t' x' ns -> d = None \/ same_scale t t' ->
  In idx (elements real) ->
  weight_of (painter_of w real t' d) h x' idx == weight_of (painter_of w real t d) h x (rolled real ns idx).
Proof.
  intros Hwf Hwf' Hk [HP HP'] Hx (Lx & Hper & Hpos) Hd Hidx.
  rewrite !weight_of_prod; try assumption; [|apply rolled_length|rewrite Lx; exact Hx|apply elements_length, Hidx].
  apply qprod_map_ext. intros i Hi. apply in_seq in Hi. cbn [Nat.add] in Hi. destruct Hi as [_ Hi].
  rewrite (axis_points_call w real t t' d d h Hwf Hwf').
  rewrite rolled_nth by exact Hi. pose proof (elements_bound _ _ i Hidx Hi) as HB.
  set (a := axis_of real t d i). set (a' := axis_of real t' d i). set (p := painter_of w real t d).
  assert (Pa : ax_period a = nth i (ar_shape real) 0%Z) by (unfold a; cbn [axis_of ax_period]; rewrite HP; reflexivity).
  assert (Ppos : (0 < ax_period a)%Z) by (rewrite Pa; lia).
  assert (D : displaced a (nth i x 0) a' (nth i x' 0) (nth i ns 0%Z)).
  { repeat split.
    - unfold a, a'. cbn [axis_of ax_period]. rewrite Hper. reflexivity.
    - destruct Hd as [->|Hs]; [left|right; apply Hs]. unfold a. cbn [axis_of ax_order]. unfold order_spec. apply nth_repeat.
    - unfold grid_pos. cbn [a a' axis_of ax_scale ax_translate]. apply Hpos. lia. }
  rewrite (pair_eq_wsum _ _ (nth i idx 0%Z) (axis_points_translate p h a _ a' _ _ Hk ltac:(lia) D)).
  rewrite wsum_moved_periodic; [rewrite Pa; reflexivity|exact Ppos|lia|].
  apply axis_points_in_period; [exact Hk|exact Ppos].
Qed.

(** painting particles that are moved by whole cells paints the rolled mesh; with any
    window, smoothing lengths and differentiation *)
Theorem C57_paint_rolls w real t t' m m2 pos pos' mass hsml d ns :
  wf_call real t -> wf_call real t' -> proper_kind (w_kind w) -> full_mesh real t -> wf_pos real pos ->
  Forall2 (fun x x' => cells_apart t x t' x' ns) pos pos' -> d = None \/ same_scale t t' -> wf_diffdir real d ->
  length mass = length pos -> length hsml = length pos ->
  exists m' m2',
    window_paint w real m pos (Some (Array hsml)) (Some (Array mass)) d (Some t) = Ret m' /\
    window_paint w real m2 pos' (Some (Array hsml)) (Some (Array mass)) d (Some t') = Ret m2' /\
    forall idx, In idx (elements real) ->
      elem real m2' idx - elem real m2 idx == elem real m' (rolled real ns idx) - elem real m (rolled real ns idx).
Proof.
  intros Hwf Hwf' Hk Hf Hpos HX Hsc Hd Hm Hh. pose proof (Forall2_len _ _ _ HX) as HL.
  do 2 eexists. split; [apply (window_paint_ok w real t d Hd); assumption|].
  split; [apply (window_paint_ok w real t' d Hd); congruence|]. intros idx Hidx.
  assert (Hn : (0 < native_of (w_kind w))%Z) by apply Hk.
  assert (Hpos' : wf_pos real pos').
  { clear -HX Hpos. induction HX as [|x x' pos pos' H _ IH]; [constructor|]. inversion Hpos; subst. constructor; [|apply IH; assumption].
    destruct H as [E _]. congruence. }
  assert (Hr : In (rolled real ns idx) (elements real)) by (apply rolled_in, Hf).
  pose proof (paint_all_cell _ m (parts_of pos mass hsml) (rolled real ns idx) (painter_of_wf w real t d Hwf Hn)
    (parts_wf w real t d Hwf pos mass hsml Hpos) (proj1 (in_elements w real t d Hwf _) Hr)) as P1.
  pose proof (paint_all_cell _ m2 (parts_of pos' mass hsml) idx (painter_of_wf w real t' d Hwf' Hn)
    (parts_wf w real t' d Hwf' pos' mass hsml Hpos') (proj1 (in_elements w real t' d Hwf' _) Hidx)) as P2.
  rewrite !(cell_elem w real t d Hwf) in P1. rewrite !(cell_elem w real t' d Hwf') in P2. rewrite P1, P2.
  assert (E : qsum (fun xmh : list Q * Q * Q => snd (fst xmh) * weight_of (painter_of w real t' d) (snd xmh) (fst (fst xmh)) idx) (parts_of pos' mass hsml) ==
    qsum (fun xmh : list Q * Q * Q => snd (fst xmh) * weight_of (painter_of w real t d) (snd xmh) (fst (fst xmh)) (rolled real ns idx)) (parts_of pos mass hsml)).
  { clear -HX Hpos Hwf Hwf' Hk Hf Hsc Hidx. revert mass hsml. induction HX as [|x x' pos pos' H _ IH]; intros mass hsml; [reflexivity|].
    inversion Hpos; subst. destruct mass as [|q mass]; [reflexivity|]. destruct hsml as [|h hsml]; [reflexivity|].
    cbn [parts_of combine]. rewrite !qsum_cons. cbn [fst snd]. apply Qplus_comp; [|apply IH; assumption].
    apply Qmult_comp; [reflexivity|]. apply weight_rolled; assumption. }
  rewrite E. ring.
Qed.
Print Assumptions C57_paint_rolls.

(** reading the rolled field where the particles have moved gives the same values *)
Theorem C57_readout_rolls w real t t' m m2 pos pos' hsml d ns :
  wf_call real t -> wf_call real t' -> proper_kind (w_kind w) -> full_mesh real t -> wf_pos real pos ->
  Forall2 (fun x x' => cells_apart t x t' x' ns) pos pos' -> d = None \/ same_scale t t' -> wf_diffdir real d ->
  length hsml = length pos ->
  (forall idx, In idx (elements real) -> elem real m2 idx == elem real m (rolled real ns idx)) ->
  exists v v2,
    window_readout w real m pos (Some (Array hsml)) d (Some t) = Ret v /\
    window_readout w real m2 pos' (Some (Array hsml)) d (Some t') = Ret v2 /\ same_values v2 v.
Proof.
  intros Hwf Hwf' Hk Hf Hpos HX Hsc Hd Hh HM. pose proof (Forall2_len _ _ _ HX) as HL.
  do 2 eexists. split; [apply (window_readout_ok w real t d Hd); assumption|].
  split; [apply (window_readout_ok w real t' d Hd); congruence|].
  assert (Hn : (0 < native_of (w_kind w))%Z) by apply Hk.
  clear Hh HL. revert hsml. induction HX as [|x x' pos pos' H _ IH]; intros hsml; [constructor|].
  inversion Hpos; subst. destruct hsml as [|h hsml]; [constructor|]. cbn [combine map fst snd]. constructor; [|apply IH; assumption].
  rewrite !readout_elements; try assumption; [|destruct H; congruence].
  transitivity (qsum (fun idx => weight_of (painter_of w real t d) h x (rolled real ns idx) * elem real m (rolled real ns idx)) (elements real)).
  - apply qsum_ext_in. intros idx Hidx. rewrite (HM idx Hidx).
    rewrite (weight_rolled w real t t' d h x x' ns idx) by assumption. reflexivity.
  - rewrite <- (qsum_map (rolled real ns) (fun idx => weight_of (painter_of w real t d) h x idx * elem real m idx)).
    apply qsum_perm, rolled_perm, Hf.
Qed.
Print Assumptions C57_readout_rolls.
Example C57_case : exists m' m2',
    window_paint (ResampleWindow TunedPCS 0) mesh44 (fun a => inject_Z a) [[-(17); 13#10]; [99#7; 5]] (Some (Array [1; 5#4])) (Some (Array [5#2; -(3)])) (Some 0%Z) (Some box44) = Ret m' /\
    window_paint (ResampleWindow TunedPCS 0) mesh44 (fun a => 0) [[-(11); 13#10]; [141#7; 5]] (Some (Array [1; 5#4])) (Some (Array [5#2; -(3)])) (Some 0%Z)
      (Some {| af_scale := [1#2; 2]; af_translate := [0; -(2)]; af_period := [4; 4]%Z |}) = Ret m2' /\
    forall idx, In idx (elements mesh44) ->
      elem mesh44 m2' idx - 0 == elem mesh44 m' (rolled mesh44 [3; -1]%Z idx) - elem mesh44 (fun a => inject_Z a) (rolled mesh44 [3; -1]%Z idx).
Proof.
  apply (C57_paint_rolls (ResampleWindow TunedPCS 0) mesh44 box44 _ (fun a => inject_Z a) (fun _ => 0)); try reflexivity.
  - apply wf_mesh44; reflexivity.
  - apply wf_mesh44; reflexivity.
  - apply (standard_proper TunedPCS Logic.I).
  - split; [reflexivity|]. repeat constructor.
  - repeat constructor.
  - repeat (apply Forall2_cons || apply Forall2_nil);
      (split; [reflexivity|split; [reflexivity|]]; intros [|[|i]] Hi; [reflexivity|reflexivity|cbn in Hi; lia]).
  - right. intros [|[|[|i]]]; reflexivity.
  - cbn. lia.
Qed.

(* ---------- C35 ---------- *)
(** the amount for dimension [i]: scalars and arrays of one entry apply to all *)
Definition amount_ok (t : affine) (v : value Q) : Prop :=
  match v with Scalar _ => True | Array l => length l = length (af_scale t) \/ length l = 1%nat end.
Definition amount_at (v : value Q) (i : nat) : Q :=
  match v with Scalar a => a | Array [a] => a | Array l => nth i l 0 end.
Definition wf_affine (t : affine) : Prop :=
  length (af_translate t) = length (af_scale t) /\ length (af_period t) = length (af_scale t).
(** a coordinate in mesh units *)
Definition to_mesh (t : affine) (i : nat) (y : Q) : Q := y * nth i (af_scale t) 0 + nth i (af_translate t) 0.

Lemma mkarr_id {A} (l : list A) n : length l = n -> mkarr (Array l) n = Ret l.
Proof. intros <-. cbn [mkarr]. rewrite Nat.eqb_refl. reflexivity. Qed.
Lemma broadcast_ok f l v n : length l = n ->
  match v with Scalar _ => True | Array m => length m = n \/ length m = 1%nat end ->
  exists r, broadcast f l v = Ret r /\ length r = n /\
    forall i, (i < n)%nat -> nth i r 0 = f (nth i l 0) (amount_at v i).
Proof.
  intros HL HV.
  assert (S : forall a, length (map (fun x => f x a) l) = n /\ forall i, (i < n)%nat -> nth i (map (fun x => f x a) l) 0 = f (nth i l 0) a).
  { intros a. split; [rewrite map_length; exact HL|]. intros i Hi. apply nth_error_nth. rewrite nth_error_map.
    rewrite (nth_error_nth' l 0) by lia. reflexivity. }
  destruct v as [a|m].
  - exists (map (fun x => f x a) l). split; [reflexivity|apply S].
  - unfold broadcast. destruct (Nat.eqb_spec (length m) (length l)) as [E|E].
    + eexists. split; [reflexivity|]. split; [rewrite map_length, combine_length; lia|]. intros i Hi.
      transitivity (f (nth i l 0) (nth i m 0)).
      * apply nth_error_nth. rewrite nth_error_map, nth_error_combine.
        rewrite (nth_error_nth' l 0), (nth_error_nth' m 0) by lia. reflexivity.
      * f_equal. destruct m as [|a [|b m]]; try reflexivity. cbn in E. assert (i = 0%nat) as -> by lia. reflexivity.
    + destruct HV as [HV|HV]; [lia|]. destruct m as [|a [|b m]]; try discriminate HV. exists (map (fun x => f x a) l). split; [reflexivity|apply S].
Qed.

(** [rescale] composes with multiplication of positions, [shift] moves in mesh units; the
    period is left alone *)
Theorem C35_rescale t amount : wf_affine t -> amount_ok t amount ->
  exists t', affine_rescale t amount = Ret t' /\ af_period t' = af_period t /\ wf_affine t' /\
    length (af_scale t') = length (af_scale t) /\
    forall i y, (i < length (af_scale t))%nat -> to_mesh t' i y == to_mesh t i (y * amount_at amount i).
Proof.
  intros [W1 W2] HA. destruct (broadcast_ok Qmult (af_scale t) amount _ eq_refl HA) as (s & E & L & N).
  exists {| af_scale := s; af_translate := af_translate t; af_period := af_period t |}. split.
  - unfold affine_rescale. rewrite E. cbn [bind]. unfold Affine. rewrite !mkarr_id by assumption. reflexivity.
  - split; [reflexivity|]. split; [split; cbn; congruence|]. split; [exact L|].
    intros i y Hi. unfold to_mesh. cbn [af_scale af_translate]. rewrite N by exact Hi. ring.
Qed.
Print Assumptions C35_rescale.
Theorem C35_shift t amount : wf_affine t -> amount_ok t amount ->
  exists t', affine_shift t amount = Ret t' /\ af_period t' = af_period t /\ wf_affine t' /\
    length (af_scale t') = length (af_scale t) /\
    forall i y, (i < length (af_scale t))%nat -> to_mesh t' i y == to_mesh t i y + amount_at amount i.
Proof.
  intros [W1 W2] HA. destruct (broadcast_ok Qplus (af_translate t) amount _ W1 HA) as (s & E & L & N).
  exists {| af_scale := af_scale t; af_translate := s; af_period := af_period t |}. split.
  - unfold affine_shift. rewrite E. cbn [bind]. unfold Affine. rewrite !mkarr_id by (assumption || reflexivity). reflexivity.
  - split; [reflexivity|]. split; [split; cbn; congruence|]. split; [reflexivity|].
    intros i y Hi. unfold to_mesh. cbn [af_scale af_translate]. rewrite N by exact Hi. ring.
Qed.
Print Assumptions C35_shift.

Lemma wf_call_affine real t t' : wf_call real t -> wf_affine t' -> length (af_scale t') = length (af_scale t) -> wf_call real t'.
Proof. intros (A & B & C & D & E & F) (G & H) I. repeat split; try assumption; congruence. Qed.
Lemma wf_affine_call real t : wf_call real t -> wf_affine t.
Proof. intros (A & B & C & D & E & F). split; congruence. Qed.

(** seen through the API: painting through the rescaled transform is painting the
    multiplied positions.  With no effect on derivatives, so undifferentiated. *)
Lemma same_point_weight w real t t' h x x' idx : wf_call real t -> wf_call real t' -> proper_kind (w_kind w) -> periods_ok t ->
  length x = length (ar_shape real) -> length x' = length (ar_shape real) -> af_period t' = af_period t ->
  (forall i, (i < length (ar_shape real))%nat -> to_mesh t' i (nth i x' 0) == to_mesh t i (nth i x 0)) ->
  In idx (elements real) ->
  weight_of (painter_of w real t' None) h x' idx == weight_of (painter_of w real t None) h x idx.
Proof.
  intros Hwf Hwf' Hk Hp Hx Hx' Hper Hpos Hidx.
  rewrite !weight_of_prod; try assumption; try (apply elements_length, Hidx).
  apply qprod_map_ext. intros i Hi. apply in_seq in Hi. cbn [Nat.add] in Hi. destruct Hi as [_ Hi].
  rewrite (axis_points_call w real t t' None None h Hwf Hwf').
  set (a := axis_of real t None i). set (a' := axis_of real t' None i). set (p := painter_of w real t None).
  assert (Pa : (0 <= ax_period a)%Z) by (apply (axis_in_period w real t None Hwf a Hp); eapply nth_error_In, axes_nth; assumption).
  assert (D : displaced a (nth i x 0) a' (nth i x' 0) 0).
  { repeat split.
    - unfold a, a'. cbn [axis_of ax_period]. rewrite Hper. reflexivity.
    - left. unfold a. cbn [axis_of ax_order]. unfold order_spec. apply nth_repeat.
    - change (inject_Z 0) with 0. rewrite Qplus_0_r. unfold grid_pos. cbn [a a' axis_of ax_scale ax_translate]. apply Hpos, Hi. }
  rewrite (pair_eq_wsum _ _ (nth i idx 0%Z) (axis_points_translate p h a _ a' _ _ Hk Pa D)).
  assert (MZ : moved a 0 (axis_points p h a (nth i x 0)) = axis_points p h a (nth i x 0) \/ ax_period a <> 0%Z).
  { destruct (Z.eq_dec (ax_period a) 0) as [Z0|Z0]; [left|right; exact Z0]. unfold moved. rewrite <- (map_id (axis_points p h a (nth i x 0))) at 2.
    apply map_ext. intros [j v]. cbn [fst snd]. unfold wrap_axis. rewrite Z0. cbn. f_equal. lia. }
  destruct MZ as [->|Z0]; [reflexivity|]. apply pair_eq_wsum.
  assert (F : Forall (fun jw => 0 <= fst jw < ax_period a)%Z (axis_points p h a (nth i x 0))) by (apply axis_points_in_period; [exact Hk|lia]).
  unfold moved. induction F as [|[j v] l B _ IH]; [constructor|]. cbn [map fst snd]. constructor; [|exact IH].
  split; cbn [fst snd] in *; [|reflexivity]. unfold wrap_axis. destruct (ax_period a >? 0)%Z; [|lia].
  rewrite Z.add_0_r. apply Z.mod_small, B.
Qed.

Definition scaled (amount : value Q) (x : list Q) : list Q :=
  map (fun i => nth i x 0 * amount_at amount i) (seq 0 (length x)).
Theorem C35_paint_rescaled w real t amount m pos mass hsml :
  wf_call real t -> proper_kind (w_kind w) -> periods_ok t -> wf_pos real pos -> amount_ok t amount ->
  length mass = length pos -> length hsml = length pos ->
  exists t' m', affine_rescale t amount = Ret t' /\
    window_paint w real m pos (Some (Array hsml)) (Some (Array mass)) None (Some t') = Ret m' /\
    exists m'', window_paint w real m (map (scaled amount) pos) (Some (Array hsml)) (Some (Array mass)) None (Some t) = Ret m'' /\
      same_memory m' m''.
Proof.
  intros Hwf Hk Hp Hpos HA Hm Hh.
  destruct (C35_rescale t amount (wf_affine_call _ _ Hwf) HA) as (t' & E & Per & W & L & T).
  pose proof (wf_call_affine real t t' Hwf W L) as Hwf'.
  exists t'. eexists. split; [exact E|]. split; [apply (window_paint_ok w real t' None Logic.I); assumption|].
  eexists. split; [apply (window_paint_ok w real t None Logic.I); rewrite map_length; assumption|].
  assert (Hn : (0 < native_of (w_kind w))%Z) by apply Hk.
  assert (Hpos' : wf_pos real (map (scaled amount) pos)).
  { unfold wf_pos in *. rewrite Forall_map. eapply Forall_impl; [|exact Hpos]. intros x Hx. unfold scaled. rewrite map_length, seq_length. exact Hx. }
  intros a. apply paint_all_same; try assumption.
  - apply parts_wf; assumption.
  - apply parts_wf; assumption.
  - intros idx Hidx. clear E Hm Hh Hpos'. revert mass hsml. induction Hpos as [|x pos Hx _ IH]; intros mass hsml; [reflexivity|].
    destruct mass as [|q mass]; [reflexivity|]. destruct hsml as [|h hsml]; [reflexivity|].
    cbn [map parts_of combine]. rewrite !qsum_cons. cbn [fst snd]. apply Qplus_comp; [|apply IH].
    apply Qmult_comp; [reflexivity|]. apply same_point_weight; try assumption.
    + unfold scaled. rewrite map_length, seq_length. exact Hx.
    + intros i Hi. unfold to_mesh at 1. fold (to_mesh t' i (nth i x 0)). rewrite T by (destruct Hwf as (_ & _ & A & _); lia).
      assert (N : nth i (scaled amount x) 0 = nth i x 0 * amount_at amount i).
      { apply nth_error_nth. unfold scaled. rewrite nth_error_map, nth_error_seq_lt by lia. reflexivity. }
      rewrite N. reflexivity.
Qed.
Print Assumptions C35_paint_rescaled.
(** shifting by whole cells rolls the mesh *)
Theorem C35_paint_shifted w real t ns m pos mass hsml d :
  wf_call real t -> proper_kind (w_kind w) -> full_mesh real t -> wf_pos real pos -> wf_diffdir real d ->
  length ns = length (ar_shape real) -> length mass = length pos -> length hsml = length pos ->
  exists t' m' m'', affine_shift t (Array (map inject_Z ns)) = Ret t' /\
    window_paint w real m pos (Some (Array hsml)) (Some (Array mass)) d (Some t) = Ret m' /\
    window_paint w real m pos (Some (Array hsml)) (Some (Array mass)) d (Some t') = Ret m'' /\
    forall idx, In idx (elements real) ->
      elem real m'' idx - elem real m idx == elem real m' (rolled real ns idx) - elem real m (rolled real ns idx).
Proof.
  intros Hwf Hk Hf Hpos Hd Hns Hm Hh.
  assert (LS : length (af_scale t) = length (ar_shape real)) by apply Hwf.
  unfold affine_shift.
  destruct (broadcast_ok Qplus (af_translate t) (Array (map inject_Z ns)) (length (ar_shape real))) as (s & E & L & N).
  { apply Hwf. } { left. rewrite map_length. exact Hns. }
  set (t' := {| af_scale := af_scale t; af_translate := s; af_period := af_period t |}).
  assert (Et : affine_shift t (Array (map inject_Z ns)) = Ret t').
  { unfold affine_shift. rewrite E. cbn [bind]. unfold Affine. destruct Hwf as (A & B & C & D & F & G). rewrite !mkarr_id by congruence. reflexivity. }
  assert (Hwf' : wf_call real t').
  { destruct Hwf as (A & B & C & D & F & G). repeat split; try assumption. }
  assert (AM : forall i, (i < length (ar_shape real))%nat -> amount_at (Array (map inject_Z ns)) i == inject_Z (nth i ns 0%Z)).
  { intros i Hi. assert (M : nth i (map inject_Z ns) 0 = inject_Z (nth i ns 0%Z)) by exact (map_nth inject_Z ns 0%Z i).
    cbn [amount_at]. rewrite <- M. destruct ns as [|n [|n' ns]]; try reflexivity. cbn in Hns. assert (i = 0%nat) as -> by lia. reflexivity. }
  destruct (C57_paint_rolls w real t t' m m pos pos mass hsml d ns) as (m' & m'' & E1 & E2 & R); try assumption.
  - clear -Hpos AM N. unfold wf_pos in Hpos. induction Hpos as [|x pos Hx _ IH]; [constructor|]. constructor; [|exact IH].
    split; [reflexivity|]. split; [reflexivity|]. intros i Hi. cbn [t' af_scale af_translate]. rewrite N by lia. rewrite AM by lia. ring.
  - right. intros i. reflexivity.
  - exists t', m', m''. split; [exact Et|]. split; [exact E1|]. split; [exact E2|exact R].
Qed.
Print Assumptions C35_paint_shifted.
(** applied one after another *)
Theorem C35_compose t a b : wf_affine t -> amount_ok t a -> amount_ok t b ->
  exists ta tab tb tba,
    affine_rescale t a = Ret ta /\ affine_shift ta b = Ret tab /\ affine_shift t b = Ret tb /\ affine_rescale tb a = Ret tba /\
    af_period tab = af_period t /\
    (forall i y, (i < length (af_scale t))%nat ->
       to_mesh tab i y == to_mesh t i (y * amount_at a i) + amount_at b i /\ to_mesh tba i y == to_mesh tab i y) /\
    (forall taa, affine_rescale ta b = Ret taa -> forall i y, (i < length (af_scale t))%nat -> to_mesh taa i y == to_mesh t i (y * (amount_at a i * amount_at b i))).
Proof.
  intros W HA HB.
  destruct (C35_rescale t a W HA) as (ta & Ea & Pa & Wa & La & Ta).
  assert (HBa : amount_ok ta b) by (destruct b; cbn in *; rewrite ?La; exact HB).
  destruct (C35_shift ta b Wa HBa) as (tab & Eab & Pab & Wab & Lab & Tab).
  destruct (C35_shift t b W HB) as (tb & Eb & Pb & Wb & Lb & Tb).
  assert (HAb : amount_ok tb a) by (destruct a; cbn in *; rewrite ?Lb; exact HA).
  destruct (C35_rescale tb a Wb HAb) as (tba & Eba & Pba & Wba & Lba & Tba).
  exists ta, tab, tb, tba. do 4 (split; [assumption|]). split; [congruence|]. split.
  - intros i y Hi. rewrite Tab by lia. rewrite Ta by lia. split; [reflexivity|]. rewrite Tba by lia. rewrite Tb by lia. reflexivity.
  - intros taa Eaa i y Hi. destruct (C35_rescale ta b Wa HBa) as (t2 & E2 & _ & _ & _ & T2). rewrite Eaa in E2. injection E2 as <-.
    rewrite T2 by lia. rewrite Ta by lia. unfold to_mesh. ring.
Qed.
Print Assumptions C35_compose.
Example C35_case : exists t', affine_rescale box44 (Array [3; 1#2]) = Ret t' /\ to_mesh t' 0 5 == (15#2) /\ to_mesh t' 1 5 == 4 /\
  affine_shift box44 (Scalar 2) = Ret {| af_scale := [1#2; 2]; af_translate := [2; 1]; af_period := [4; 4]%Z |}.
Proof. eexists. repeat split. Qed.
(** the period is not rescaled: on a mesh twice as fine the same box is only half as long *)
Theorem C35_period_refuted : exists t t', affine_rescale t (Scalar 2) = Ret t' /\
  ~ (forall i, inject_Z (nth i (af_period t') 0%Z) == inject_Z (nth i (af_period t) 0%Z) * 2).
Proof.
  exists box44. eexists. split; [reflexivity|]. intros H. specialize (H 0%nat). discriminate H.
Qed.
Print Assumptions C35_period_refuted.
