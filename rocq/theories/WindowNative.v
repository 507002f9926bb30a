(** Windows of native size: tuned against generic routines, partition of unity. *)
From Coq Require Import List Arith ZArith QArith Qabs Qround Lia Lqa Bool Setoid Morphisms Permutation.
From Verif Require Import Base ListFacts WrapModel WrapProofs DomainModel DomainFill QSum WindowModel WindowStencil WindowSpread WindowKernels WindowAxis.
Import ListNotations.
Local Open Scope Q_scope.

(** points and weights of a native window along one axis *)
Definition native_line (k : kind) (a : axis) (x : Q) : list (Z * Q) :=
  map (fun j => (wrap_axis a j, line_weight k (inject_Z (native_of k)) a x j))
      (zrange (first_point (inject_Z (native_of k)) (native_of k) (grid_pos a x)) (Z.to_nat (native_of k))).

Lemma line_weight_native k a x j : proper_kind k ->
  line_weight k (inject_Z (native_of k)) a x j ==
  if (ax_order a =? 0)%Z then kernel_of k (grid_pos a x - inject_Z j)
  else diff_of k (grid_pos a x - inject_Z j) * ax_scale a.
Proof.
  intros (Hn & PK & PD). unfold line_weight. cbv zeta.
  apply (inject_Z_lt_iff 0) in Hn. change (inject_Z 0) with 0 in Hn.
  assert (V : inject_Z (native_of k) / inject_Z (native_of k) == 1) by (field; lra).
  assert (Y : (grid_pos a x - inject_Z j) * (inject_Z (native_of k) / inject_Z (native_of k)) == grid_pos a x - inject_Z j)
    by (rewrite V; ring).
  destruct (ax_order a =? 0)%Z.
  - rewrite (PK _ _ Y), V. ring.
  - rewrite (PD _ _ Y), V. ring.
Qed.

Lemma first_point_1 g : first_point (inject_Z 1) 1 g = Qfloor (g + (1#2)).
Proof. unfold first_point. change (inject_Z 1 / 2) with (1#2). lia. Qed.
Lemma first_point_2 g : first_point (inject_Z 2) 2 g = Qfloor g.
Proof.
  unfold first_point. assert (E : g + inject_Z 2 / 2 == g + inject_Z 1) by (unfold inject_Z; field).
  rewrite (Qfloor_comp _ _ E), Qfloor_shift. lia.
Qed.
Lemma first_point_3 g : first_point (inject_Z 3) 3 g = (Qfloor (g + (1#2)) - 1)%Z.
Proof.
  unfold first_point. assert (E : g + inject_Z 3 / 2 == g + (1#2) + inject_Z 1) by (unfold inject_Z; field).
  rewrite (Qfloor_comp _ _ E), Qfloor_shift. lia.
Qed.
Lemma first_point_4 g : first_point (inject_Z 4) 4 g = (Qfloor g - 1)%Z.
Proof.
  unfold first_point. assert (E : g + inject_Z 4 / 2 == g + inject_Z 2) by (unfold inject_Z; field).
  rewrite (Qfloor_comp _ _ E), Qfloor_shift. lia.
Qed.

(** where the tuned derivative stencils coincide with the derivative of the kernel *)
Definition grad_ok (k : kind) (a : axis) (x : Q) : Prop :=
  ax_order a = 0%Z \/
  match k with
  | TunedCIC => inject_Z (Qfloor (grid_pos a x)) < grid_pos a x
  | TunedPCS => ax_scale a == 1
  | _ => True
  end.

Definition setup_of (k : kind) : option (axis -> Q -> list Z * list Q) :=
  match k with
  | TunedNNB => Some setup_nnb
  | TunedCIC => Some setup_cic
  | TunedTSC => Some setup_tsc
  | TunedPCS => Some setup_pcs
  | _ => None
  end.

Lemma setup_wrap_axis a l : (0 <= ax_period a)%Z ->
  (if (ax_period a =? 0)%Z then l else map (wrap_ud (ax_period a)) l) = map (wrap_axis a) l.
Proof.
  intros H. unfold wrap_axis. destruct (Z.eqb_spec (ax_period a) 0) as [E|E].
  - rewrite E. cbn. symmetry. apply map_id.
  - apply map_ext. intros j. destruct (Z.gtb_spec (ax_period a) 0) as [G|G]; [|lia].
    apply wrap_ud_mod. exact G.
Qed.

Lemma line_weight_n k n a x j : standard k -> native_of k = n ->
  line_weight k (inject_Z n) a x j ==
  if (ax_order a =? 0)%Z then kernel_of k (grid_pos a x - inject_Z j)
  else diff_of k (grid_pos a x - inject_Z j) * ax_scale a.
Proof. intros H <-. apply line_weight_native, standard_proper, H. Qed.

Ltac zq := unfold Z.sub; rewrite ?inject_Z_plus, ?inject_Z_opp; change (inject_Z 1) with 1.
Ltac pt := split; cbn [fst snd]; [f_equal; lia|].

Lemma nnb_line a x : (0 <= ax_period a)%Z ->
  Forall2 pair_eq (tuned_points setup_nnb a x) (native_line TunedNNB a x).
Proof.
  intros Hp. unfold native_line, tuned_points, setup_wrap. cbn [native_of].
  rewrite (setup_wrap_axis _ _ Hp), first_point_1. unfold setup_nnb. cbn [fst snd]. fold (grid_pos a x).
  destruct (Qfloor_bounds (grid_pos a x + (1#2))) as [F1 F2].
  set (I := Qfloor (grid_pos a x + (1#2))) in *. clearbody I.
  change (Z.to_nat 1) with 1%nat. cbn [zrange map].
  destruct (ax_order a =? 0)%Z eqn:O; cbn [combine]; (constructor; [|constructor]); pt;
    rewrite (line_weight_n TunedNNB 1 a x _ Logic.I eq_refl), O; cbn [kernel_of diff_of].
  - rewrite nearest_in by lra. reflexivity.
  - unfold nearest_diff. ring.
Qed.

Lemma cic_line a x : (0 <= ax_period a)%Z -> grad_ok TunedCIC a x ->
  Forall2 pair_eq (tuned_points setup_cic a x) (native_line TunedCIC a x).
Proof.
  intros Hp Hg. unfold native_line, tuned_points, setup_wrap. cbn [native_of].
  rewrite (setup_wrap_axis _ _ Hp), first_point_2. unfold setup_cic. cbn [fst snd].
  unfold grad_ok in Hg. fold (grid_pos a x).
  destruct (Qfloor_bounds (grid_pos a x)) as [F1 F2].
  set (I := Qfloor (grid_pos a x)) in *. clearbody I.
  change (Z.to_nat 2) with 2%nat. cbn [zrange map].
  destruct (ax_order a =? 0)%Z eqn:O; cbn [combine]; (constructor; [|constructor; [|constructor]]); pt;
    rewrite (line_weight_n TunedCIC 2 a x _ Logic.I eq_refl), O; cbn [kernel_of diff_of]; zq.
  - rewrite linear_right by lra. ring.
  - rewrite linear_left by lra. ring.
  - destruct Hg as [Hg|Hg]; [rewrite Hg in O; discriminate|]. rewrite linear_diff_right by lra. ring.
  - destruct Hg as [Hg|Hg]; [rewrite Hg in O; discriminate|]. rewrite linear_diff_left by lra. ring.
Qed.

Lemma tsc_line a x : (0 <= ax_period a)%Z ->
  Forall2 pair_eq (tuned_points setup_tsc a x) (native_line TunedTSC a x).
Proof.
  intros Hp. unfold native_line, tuned_points, setup_wrap. cbn [native_of].
  rewrite (setup_wrap_axis _ _ Hp), first_point_3. unfold setup_tsc. cbn [fst snd]. fold (grid_pos a x).
  destruct (Qfloor_bounds (grid_pos a x + (1#2))) as [F1 F2].
  set (I := Qfloor (grid_pos a x + (1#2))) in *. clearbody I.
  change (Z.to_nat 3) with 3%nat. cbn [zrange map].
  destruct (ax_order a =? 0)%Z eqn:O; cbn [combine]; (constructor; [|constructor; [|constructor; [|constructor]]]); pt;
    rewrite (line_weight_n TunedTSC 3 a x _ Logic.I eq_refl), O; cbn [kernel_of diff_of]; zq.
  - rewrite quadratic_right by lra. ring.
  - rewrite quadratic_mid by lra. ring.
  - rewrite quadratic_left by lra. ring.
  - rewrite quadratic_diff_right by lra. ring.
  - rewrite quadratic_diff_mid by lra. ring.
  - rewrite quadratic_diff_left by lra. ring.
Qed.

Lemma pcs_line a x : (0 <= ax_period a)%Z -> grad_ok TunedPCS a x ->
  Forall2 pair_eq (tuned_points setup_pcs a x) (native_line TunedPCS a x).
Proof.
  intros Hp Hg. unfold native_line, tuned_points, setup_wrap. cbn [native_of].
  rewrite (setup_wrap_axis _ _ Hp), first_point_4. unfold setup_pcs. cbn [fst snd].
  unfold grad_ok in Hg. fold (grid_pos a x).
  destruct (Qfloor_bounds (grid_pos a x)) as [F1 F2].
  set (I := Qfloor (grid_pos a x)) in *. clearbody I.
  change (Z.to_nat 4) with 4%nat. cbn [zrange map].
  destruct (ax_order a =? 0)%Z eqn:O; cbn [combine];
    (constructor; [|constructor; [|constructor; [|constructor; [|constructor]]]]); pt;
    rewrite (line_weight_n TunedPCS 4 a x _ Logic.I eq_refl), O; cbn [kernel_of diff_of]; zq;
    try (destruct Hg as [Hg|Hg]; [rewrite Hg in O; discriminate|rewrite Hg]).
  - rewrite cubic_right by lra. ring.
  - rewrite cubic_mid_right by lra. ring.
  - rewrite cubic_mid_left by lra. ring.
  - rewrite cubic_left by lra. ring.
  - rewrite cubic_diff_right by lra. ring.
  - rewrite cubic_diff_mid_right by lra. ring.
  - rewrite cubic_diff_mid_left by lra. ring.
  - rewrite cubic_diff_left by lra. ring.
Qed.

Theorem tuned_points_line k f a x : setup_of k = Some f -> (0 <= ax_period a)%Z -> grad_ok k a x ->
  Forall2 pair_eq (tuned_points f a x) (native_line k a x).
Proof.
  intros Hf Hp Hg. destruct k; try discriminate Hf; injection Hf as <-.
  - apply nnb_line, Hp.
  - apply cic_line; assumption.
  - apply tsc_line, Hp.
  - apply pcs_line; assumption.
Qed.

(** a generic window of native size *)
Lemma window_info_native k s : proper_kind k -> s == inject_Z (native_of k) ->
  wi_support (window_info_init (native_of k) s) = native_of k /\
  eff_support (native_of k) s == inject_Z (native_of k).
Proof.
  intros (Hn & _) Hs. assert (Hq := proj1 (inject_Z_lt_iff 0 _) Hn). change (inject_Z 0) with 0 in Hq.
  assert (E : eff_support (native_of k) s == inject_Z (native_of k)).
  { unfold eff_support. destruct (Qle_bool_case s 0); [reflexivity|exact Hs]. }
  split; [|exact E].
  destruct (window_info_ok (native_of k) s Hn) as ((H1 & H2) & _). rewrite E in H1, H2.
  apply inject_Z_le_iff in H2.
  assert (wi_support (window_info_init (native_of k) s) - 1 < native_of k)%Z; [|lia].
  apply inject_Z_lt_iff. unfold Z.sub. rewrite inject_Z_plus. exact H1.
Qed.

Lemma line_weight_comp k e e' a x j : proper_kind k -> e == e' -> line_weight k e a x j == line_weight k e' a x j.
Proof.
  intros (Hn & PK & PD) E. unfold line_weight. cbv zeta.
  assert (Y : (grid_pos a x - inject_Z j) * (inject_Z (native_of k) / e) == (grid_pos a x - inject_Z j) * (inject_Z (native_of k) / e'))
    by (rewrite E; reflexivity).
  destruct (ax_order a =? 0)%Z.
  - rewrite (PK _ _ Y), E. reflexivity.
  - rewrite (PD _ _ Y), E. reflexivity.
Qed.

Lemma pair_eq_trans l m n : Forall2 pair_eq l m -> Forall2 pair_eq m n -> Forall2 pair_eq l n.
Proof.
  intros H. revert n. induction H as [|a b l m [H1 H2] _ IH]; intros n H'; inversion H' as [|? c ? n' [H3 H4] H5]; subst; constructor.
  - split; [congruence|]. rewrite H2. exact H4.
  - apply IH, H5.
Qed.
Lemma pair_eq_sym l m : Forall2 pair_eq l m -> Forall2 pair_eq m l.
Proof. induction 1 as [|a b l m [H1 H2] _ IH]; constructor; [split; symmetry; assumption|exact IH]. Qed.

Theorem generic_points_native k s a x : proper_kind k -> s == inject_Z (native_of k) ->
  Forall2 pair_eq (generic_points k (window_info_init (native_of k) s) a x) (native_line k a x).
Proof.
  intros Hk Hs. assert (G := generic_points_line k s a x Hk). cbv zeta in G.
  destruct (window_info_native k s Hk Hs) as [H1 H2]. rewrite H1 in G.
  eapply pair_eq_trans; [exact G|]. unfold native_line.
  assert (F : first_point (eff_support (native_of k) s) (native_of k) (grid_pos a x) =
              first_point (inject_Z (native_of k)) (native_of k) (grid_pos a x)).
  { unfold first_point. f_equal. apply Qfloor_comp. rewrite H2. reflexivity. }
  rewrite F. clear G F.
  generalize (zrange (first_point (inject_Z (native_of k)) (native_of k) (grid_pos a x)) (Z.to_nat (native_of k))) as l.
  induction l as [|j l IH]; cbn [map]; constructor; [|exact IH].
  split; [reflexivity|]. cbn [snd]. apply line_weight_comp; assumption.
Qed.

(* ---------- the points of a painter ---------- *)

Definition native_painter (p : painter) (hsml : Q) : Prop :=
  inject_Z (pt_support p) * hsml == inject_Z (native_of (pt_kind p)).

Lemma getfastmethod_setup p w f : getfastmethod p w = Some f ->
  setup_of (pt_kind p) = Some (f_setup f) /\ wi_support w = native_of (pt_kind p) /\
  (0 < length (pt_axes p) <= 3)%nat.
Proof.
  unfold getfastmethod. destruct (fast_allowed (pt_axes p)); [|discriminate].
  destruct (pt_kind p); try discriminate.
  all: match goal with |- context [negb (?v =? ?n)%Z] => destruct (Z.eqb_spec v n) as [E|E] end;
       cbn [negb]; [|discriminate].
  all: match goal with |- context [(?v =? 1)%nat] =>
       destruct (Nat.eqb_spec v 1) as [E1|_];
     [|destruct (Nat.eqb_spec v 2) as [E1|_];
       [|destruct (Nat.eqb_spec v 3) as [E1|_]; [|discriminate]]] end;
    intros H; injection H as <-; cbn [setup_of f_setup native_of]; (split; [reflexivity|]; split; [exact E|lia]).
Qed.

Theorem axis_points_native p hsml a x :
  proper_kind (pt_kind p) -> native_painter p hsml -> (0 <= ax_period a)%Z ->
  (setup_of (pt_kind p) <> None -> grad_ok (pt_kind p) a x) ->
  Forall2 pair_eq (axis_points p hsml a x) (native_line (pt_kind p) a x).
Proof.
  intros Hk Hn Hp Hg. unfold axis_points.
  destruct (getfastmethod p (window_for p hsml)) as [f|] eqn:E.
  - destruct (getfastmethod_setup _ _ _ E) as [H _]. apply tuned_points_line; [exact H|exact Hp|].
    apply Hg. rewrite H. discriminate.
  - apply generic_points_native; assumption.
Qed.
(** tuned windows take the weights of the native window whatever hsml *)
Lemma axis_points_tuned p hsml a x f :
  getfastmethod p (window_for p hsml) = Some f -> (0 <= ax_period a)%Z -> grad_ok (pt_kind p) a x ->
  Forall2 pair_eq (axis_points p hsml a x) (native_line (pt_kind p) a x).
Proof.
  intros E Hp Hg. unfold axis_points. rewrite E. destruct (getfastmethod_setup _ _ _ E) as [H _].
  apply tuned_points_line; assumption.
Qed.

(* ---------- partition of unity ---------- *)

Lemma native_line_sum_K k a x : standard k -> ax_order a = 0%Z -> qsum snd (native_line k a x) == 1.
Proof.
  intros Hk Ho. unfold native_line. rewrite qsum_map. cbn [snd].
  rewrite (qsum_ext _ (fun j => kernel_of k (grid_pos a x - inject_Z j))).
  2:{ intros j. rewrite line_weight_native by (apply standard_proper, Hk). rewrite Ho. reflexivity. }
  set (g := grid_pos a x). clearbody g.
  destruct (Qfloor_bounds (g + (1#2))) as [F1 F2]. destruct (Qfloor_bounds g) as [F3 F4].
  assert (K1 : qsum (fun j => nearest_kernel (g - inject_Z j)) (zrange (first_point (inject_Z 1) 1 g) 1) == 1).
  { rewrite first_point_1. cbn [zrange]. rewrite qsum_cons, qsum_nil. rewrite nearest_in by lra. reflexivity. }
  assert (K2 : qsum (fun j => linear_kernel (g - inject_Z j)) (zrange (first_point (inject_Z 2) 2 g) 2) == 1).
  { rewrite first_point_2. cbn [zrange]. rewrite !qsum_cons, qsum_nil. zq.
    rewrite linear_right, linear_left by lra. ring. }
  assert (K3 : qsum (fun j => quadratic_kernel (g - inject_Z j)) (zrange (first_point (inject_Z 3) 3 g) 3) == 1).
  { rewrite first_point_3. cbn [zrange]. rewrite !qsum_cons, qsum_nil. zq.
    rewrite quadratic_right, quadratic_mid, quadratic_left by lra. ring. }
  assert (K4 : qsum (fun j => cubic_kernel (g - inject_Z j)) (zrange (first_point (inject_Z 4) 4 g) 4) == 1).
  { rewrite first_point_4. cbn [zrange]. rewrite !qsum_cons, qsum_nil. zq.
    rewrite cubic_right, cubic_mid_right, cubic_mid_left, cubic_left by lra. ring. }
  destruct k; try contradiction; assumption.
Qed.

Lemma native_line_sum_D k a x : standard k -> ax_order a <> 0%Z -> qsum snd (native_line k a x) == 0.
Proof.
  intros Hk Ho. unfold native_line. rewrite qsum_map. cbn [snd].
  rewrite (qsum_ext _ (fun j => diff_of k (grid_pos a x - inject_Z j) * ax_scale a)).
  2:{ intros j. rewrite line_weight_native by (apply standard_proper, Hk).
      destruct (Z.eqb_spec (ax_order a) 0); [contradiction|reflexivity]. }
  rewrite qsum_scale_r.
  set (g := grid_pos a x). clearbody g.
  destruct (Qfloor_bounds (g + (1#2))) as [F1 F2]. destruct (Qfloor_bounds g) as [F3 F4].
  assert (K1 : qsum (fun j => nearest_diff (g - inject_Z j)) (zrange (first_point (inject_Z 1) 1 g) 1) == 0).
  { reflexivity. }
  assert (K2 : qsum (fun j => linear_diff (g - inject_Z j)) (zrange (first_point (inject_Z 2) 2 g) 2) == 0).
  { rewrite first_point_2. cbn [zrange]. rewrite !qsum_cons, qsum_nil. zq.
    destruct (Qlt_le_dec (inject_Z (Qfloor g)) g) as [H|H].
    - rewrite linear_diff_right, linear_diff_left by lra. ring.
    - rewrite linear_diff_zero, linear_diff_out by lra. ring. }
  assert (K3 : qsum (fun j => quadratic_diff (g - inject_Z j)) (zrange (first_point (inject_Z 3) 3 g) 3) == 0).
  { rewrite first_point_3. cbn [zrange]. rewrite !qsum_cons, qsum_nil. zq.
    rewrite quadratic_diff_right, quadratic_diff_mid, quadratic_diff_left by lra. ring. }
  assert (K4 : qsum (fun j => cubic_diff (g - inject_Z j)) (zrange (first_point (inject_Z 4) 4 g) 4) == 0).
  { rewrite first_point_4. cbn [zrange]. rewrite !qsum_cons, qsum_nil. zq.
    rewrite cubic_diff_right, cubic_diff_mid_right, cubic_diff_mid_left, cubic_diff_left by lra. ring. }
  destruct k; try contradiction; cbn [native_of diff_of Z.to_nat Pos.to_nat] in *;
    first [rewrite K1|rewrite K2|rewrite K3|rewrite K4]; ring.
Qed.

Lemma pair_eq_sum l m : Forall2 pair_eq l m -> qsum snd l == qsum snd m.
Proof. intros H. eapply qsum_F2; [exact H|]. intros a b [_ E]. exact E. Qed.
Lemma pair_eq_wsum l m i : Forall2 pair_eq l m -> wsum l i == wsum m i.
Proof.
  intros H. eapply qsum_F2; [exact H|]. intros [j q] [j' q'] [E1 E2]. cbn in *. subst.
  destruct (j' =? i)%Z; [exact E2|reflexivity].
Qed.
