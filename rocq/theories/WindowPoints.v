(** The points of one axis as used by the painter: sums, places, periodic images. *)
From Coq Require Import List Arith ZArith QArith Qabs Qround Lia Lqa Bool Setoid Morphisms Permutation.
From Verif Require Import Base ListFacts WrapModel WrapProofs DomainModel DomainFill QSum WindowModel WindowStencil WindowSpread WindowKernels WindowAxis WindowNative.
Import ListNotations.
Local Open Scope Q_scope.

(** the gradient stencils of the tuned routines sum to zero also where they are not
    the derivative *)
Lemma tuned_gradient_sum k f a x : setup_of k = Some f -> ax_order a <> 0%Z ->
  qsum snd (tuned_points f a x) == 0.
Proof.
  intros Hf Ho. apply Z.eqb_neq in Ho.
  destruct k; try discriminate Hf; injection Hf as <-; unfold tuned_points, setup_wrap;
    unfold setup_nnb, setup_cic, setup_tsc, setup_pcs; rewrite Ho; cbn [fst snd];
    destruct (ax_period a =? 0)%Z; cbn [map combine]; repeat rewrite qsum_cons; rewrite qsum_nil; cbn [fst snd];
    zq; ring.
Qed.

Section OneAxis.
Variables (p : painter) (h : Q).
Let k := pt_kind p.

Theorem axis_points_sum a x : standard k -> native_painter p h -> (0 <= ax_period a)%Z ->
  qsum snd (axis_points p h a x) == if (ax_order a =? 0)%Z then 1 else 0.
Proof.
  intros Hk Hn Hp. destruct (ax_order a =? 0)%Z eqn:O.
  - apply Z.eqb_eq in O. rewrite (pair_eq_sum _ _ (axis_points_native p h a x (standard_proper _ Hk) Hn Hp ltac:(intros _; left; exact O))).
    apply native_line_sum_K; assumption.
  - apply Z.eqb_neq in O. destruct (setup_of (pt_kind p)) as [f|] eqn:E.
    + unfold axis_points. destruct (getfastmethod p (window_for p h)) as [f'|] eqn:G.
      * destruct (getfastmethod_setup _ _ _ G) as (S & _). apply (tuned_gradient_sum _ _ _ _ S O).
      * unfold window_for. fold k. rewrite (pair_eq_sum _ _ (generic_points_native k _ a x (standard_proper _ Hk) Hn)).
        apply native_line_sum_D; assumption.
    + rewrite (pair_eq_sum _ _ (axis_points_native p h a x (standard_proper _ Hk) Hn Hp ltac:(rewrite E; congruence))).
      apply native_line_sum_D; assumption.
Qed.

(** where the points are *)
Lemma tuned_points_fst kk f a x : setup_of kk = Some f -> (0 <= ax_period a)%Z ->
  map fst (tuned_points f a x) =
  map (wrap_axis a) (zrange (first_point (inject_Z (native_of kk)) (native_of kk) (grid_pos a x)) (Z.to_nat (native_of kk))).
Proof.
  intros Hf Hp.
  set (a' := {| ax_scale := ax_scale a; ax_translate := ax_translate a; ax_period := ax_period a;
                ax_order := 0%Z; ax_size := ax_size a; ax_stride := ax_stride a |}).
  transitivity (map fst (tuned_points f a' x)).
  - destruct kk; try discriminate Hf; injection Hf as <-; unfold tuned_points, setup_wrap;
      unfold setup_nnb, setup_cic, setup_tsc, setup_pcs; cbn [a' ax_scale ax_translate ax_period ax_order fst snd Z.eqb];
      destruct (ax_order a =? 0)%Z; destruct (ax_period a =? 0)%Z; reflexivity.
  - pose proof (tuned_points_line kk f a' x Hf Hp (or_introl eq_refl)) as H.
    assert (M : forall l m, Forall2 pair_eq l m -> map fst l = map fst m).
    { intros l m F. induction F as [|u v l m [E _] _ IH]; [reflexivity|]. cbn [map]. rewrite IH, E. reflexivity. }
    rewrite (M _ _ H). unfold native_line. rewrite map_map. reflexivity.
Qed.
Lemma map_fst_pair_eq l m : Forall2 pair_eq l m -> map fst l = map fst m.
Proof. intros F. induction F as [|u v l m [E _] _ IH]; [reflexivity|]. cbn [map]. rewrite IH, E. reflexivity. Qed.

(** the support in mesh units, rounded up *)
Definition reach : Z := wi_support (window_for p h).

Theorem axis_points_fst a x : proper_kind k -> (0 <= ax_period a)%Z ->
  exists j0, map fst (axis_points p h a x) = map (wrap_axis a) (zrange j0 (Z.to_nat reach)) /\
    forall j, (j0 <= j < j0 + reach)%Z ->
      grid_pos a x - inject_Z reach / 2 - 1 < inject_Z j <= grid_pos a x + inject_Z reach / 2.
Proof.
  intros Hk Hp. unfold axis_points. destruct (getfastmethod p (window_for p h)) as [f|] eqn:G.
  - destruct (getfastmethod_setup _ _ _ G) as (S & W & _). unfold reach. rewrite W.
    eexists. split; [apply (tuned_points_fst _ _ a x S Hp)|].
    intros j Hj. refine (first_point_close _ _ _ _ _ Hj). split; lra.
  - unfold reach, window_for. fold k.
    destruct (window_info_ok (native_of k) (inject_Z (pt_support p) * h) (proj1 Hk)) as ([W1 W2] & _).
    pose proof (generic_points_line k (inject_Z (pt_support p) * h) a x Hk) as F. cbv zeta in F.
    eexists. split; [rewrite (map_fst_pair_eq _ _ F), map_map; reflexivity|].
    intros j Hj. destruct (first_point_close _ _ _ _ (conj W1 W2) Hj) as [C1 C2].
    clear F Hj. revert W1 W2 C1 C2. generalize (eff_support (native_of k) (inject_Z (pt_support p) * h)) as e.
    generalize (inject_Z (wi_support (window_info_init (native_of k) (inject_Z (pt_support p) * h)))) as n.
    intros n e W1 W2 C1 C2. unfold Qdiv in *. change (/ 2) with (1#2) in *. split; lra.
Qed.
Corollary axis_points_in_period a x : proper_kind k -> (0 < ax_period a)%Z ->
  Forall (fun jw => 0 <= fst jw < ax_period a)%Z (axis_points p h a x).
Proof.
  intros Hk Hp. destruct (axis_points_fst a x Hk ltac:(lia)) as (j0 & E & _).
  apply Forall_forall. intros jw Hjw. apply (in_map fst) in Hjw. rewrite E in Hjw.
  apply in_map_iff in Hjw. destruct Hjw as (j & <- & _). unfold wrap_axis.
  destruct (Z.gtb_spec (ax_period a) 0); [|lia]. apply Z.mod_pos_bound. lia.
Qed.

(** the positions closest to the particle are among them *)
Theorem axis_points_cover a x j : proper_kind k -> (0 <= ax_period a)%Z ->
  getfastmethod p (window_for p h) = None ->
  let e := eff_support (native_of k) (inject_Z (pt_support p) * h) in
  grid_pos a x - e / 2 < inject_Z j <= grid_pos a x + e / 2 ->
  In (wrap_axis a j) (map fst (axis_points p h a x)).
Proof.
  intros Hk Hp G e Hj. unfold axis_points. rewrite G. unfold window_for. fold k.
  pose proof (generic_points_line k (inject_Z (pt_support p) * h) a x Hk) as F. cbv zeta in F.
  rewrite (map_fst_pair_eq _ _ F), map_map. cbn [fst]. apply in_map, in_zrange.
  destruct (window_info_ok (native_of k) (inject_Z (pt_support p) * h) (proj1 Hk)) as (W & _).
  pose proof (first_point_covers _ _ _ _ W Hj). lia.
Qed.

(** periodic images *)
Lemma wrap_axis_shift a j m : (0 < ax_period a)%Z -> wrap_axis a (j + m * ax_period a) = wrap_axis a j.
Proof.
  intros H. unfold wrap_axis. destruct (Z.gtb_spec (ax_period a) 0); [|lia]. apply Z.mod_add. lia.
Qed.

Lemma tuned_points_shift kk f a x x' m : setup_of kk = Some f -> (0 < ax_period a)%Z ->
  x' * ax_scale a == x * ax_scale a + inject_Z (m * ax_period a) ->
  Forall2 pair_eq (tuned_points f a x') (tuned_points f a x).
Proof.
  intros Hf Hp Hx.
  assert (G : x' * ax_scale a + ax_translate a == x * ax_scale a + ax_translate a + inject_Z (m * ax_period a)).
  { rewrite Hx. ring. }
  assert (FL : forall c, Qfloor (x' * ax_scale a + ax_translate a + c) = (Qfloor (x * ax_scale a + ax_translate a + c) + m * ax_period a)%Z).
  { intros c. rewrite <- Qfloor_shift. apply Qfloor_comp. rewrite G. ring. }
  assert (FL0 : Qfloor (x' * ax_scale a + ax_translate a) = (Qfloor (x * ax_scale a + ax_translate a) + m * ax_period a)%Z).
  { rewrite <- Qfloor_shift. apply Qfloor_comp. exact G. }
  assert (W : forall j, wrap_ud (ax_period a) (j + m * ax_period a) = wrap_ud (ax_period a) j).
  { intros j. rewrite !wrap_ud_mod by exact Hp. apply Z.mod_add. lia. }
  set (N := ax_period a) in *. set (I := inject_Z (m * N)) in *.
  assert (Hne : (N =? 0)%Z = false) by (apply Z.eqb_neq; lia).
  destruct kk; try discriminate Hf; injection Hf as <-; unfold tuned_points, setup_wrap;
    unfold setup_nnb, setup_cic, setup_tsc, setup_pcs; rewrite ?FL, ?FL0; fold N; rewrite Hne;
    set (g := x * ax_scale a + ax_translate a) in *; set (g' := x' * ax_scale a + ax_translate a) in *;
    clearbody g g'; cbn [fst snd map];
    match goal with |- context [Qfloor ?u] => set (j := Qfloor u); clearbody j end;
    destruct (ax_order a =? 0)%Z; cbn [map combine]; repeat (constructor; [split; cbn [fst snd]|]); try constructor.
  all: try (match goal with |- wrap_ud _ ?u = wrap_ud _ ?v =>
              transitivity (wrap_ud N (v + m * N)%Z); [f_equal; clearbody N; lia|apply W] end).
  all: zq; rewrite ?inject_Z_plus; fold I; try rewrite G; try ring.
Qed.

Theorem axis_points_shift a x x' m : proper_kind k -> (0 < ax_period a)%Z ->
  x' * ax_scale a == x * ax_scale a + inject_Z (m * ax_period a) ->
  Forall2 pair_eq (axis_points p h a x') (axis_points p h a x).
Proof.
  intros Hk Hp Hx. unfold axis_points. destruct (getfastmethod p (window_for p h)) as [f|] eqn:G.
  - destruct (getfastmethod_setup _ _ _ G) as (S & _). apply (tuned_points_shift _ _ _ _ _ m S Hp Hx).
  - unfold window_for. fold k. set (s := inject_Z (pt_support p) * h).
    pose proof (generic_points_line k s a x Hk) as F. pose proof (generic_points_line k s a x' Hk) as F'. cbv zeta in F, F'.
    apply (pair_eq_trans _ _ _ F'). apply pair_eq_sym in F. apply pair_eq_sym. apply pair_eq_sym in F.
    apply (pair_eq_trans _ _ _ F).
    set (e := eff_support (native_of k) s). set (n := wi_support (window_info_init (native_of k) s)).
    assert (GP : grid_pos a x' == grid_pos a x + inject_Z (m * ax_period a)) by (unfold grid_pos; rewrite Hx; ring).
    assert (E : first_point e n (grid_pos a x') = (first_point e n (grid_pos a x) + m * ax_period a)%Z).
    { unfold first_point. transitivity (Qfloor (grid_pos a x + e / 2 + inject_Z (m * ax_period a)) - (n - 1))%Z.
      - f_equal. apply Qfloor_comp. rewrite GP. ring.
      - rewrite Qfloor_shift. ring. }
    rewrite E. generalize (first_point e n (grid_pos a x)) as j0. generalize (Z.to_nat n) as c.
    induction c as [|c IH]; intros j0; [constructor|]. cbn [zrange map]. constructor.
    + split; cbn [fst snd]; [symmetry; apply wrap_axis_shift, Hp|].
      unfold line_weight. cbv zeta.
      assert (Y : (grid_pos a x - inject_Z j0) * (inject_Z (native_of k) / e) ==
                  (grid_pos a x' - inject_Z (j0 + m * ax_period a)) * (inject_Z (native_of k) / e)).
      { rewrite GP, (inject_Z_plus j0). ring. }
      destruct Hk as (_ & PK & PD).
      destruct (ax_order a =? 0)%Z; [rewrite (PK _ _ Y)|rewrite (PD _ _ Y)]; reflexivity.
    + replace (j0 + m * ax_period a + 1)%Z with (j0 + 1 + m * ax_period a)%Z by ring. apply IH.
Qed.
End OneAxis.

(* ---------- all axes ---------- *)
Lemma points_with_pair f g axes axes' pos pos' :
  Forall2 (fun ax ax' => forall i, wsum (f (fst ax) (snd ax)) i == wsum (g (fst ax') (snd ax')) i)
    (combine axes pos) (combine axes' pos') ->
  length axes = length pos -> length axes' = length pos' ->
  Forall2 (fun l l' => forall i, wsum l i == wsum l' i) (points_with f axes pos) (points_with g axes' pos').
Proof.
  revert axes' pos pos'. induction axes as [|a axes IH]; intros axes' [|x pos] pos' F L L'; try discriminate.
  - destruct axes', pos'; try discriminate; [constructor|]. inversion F.
  - destruct axes' as [|a' axes']; destruct pos' as [|x' pos']; try discriminate; [inversion F|].
    cbn [combine points_with] in *. inversion F; subst. constructor; [assumption|].
    apply IH; [assumption| |]; cbn [length] in *; lia.
Qed.

(** the sum over a full periodic mesh *)
Lemma weight_total p h x : proper_kind (pt_kind p) -> length x = length (pt_axes p) ->
  Forall (fun a => 0 < ax_period a /\ ax_size a = ax_period a)%Z (pt_axes p) ->
  qsum (weight_of p h x) (cells (pt_axes p)) ==
  qprod (map (fun ax => qsum snd (axis_points p h (fst ax) (snd ax))) (combine (pt_axes p) x)).
Proof.
  intros Hk Hl Hp. unfold weight_of. rewrite sum_spread by (apply all_points_length, Hl).
  apply qprod_ext. unfold all_points. set (f := axis_points p h).
  assert (HI : forall a y, (0 < ax_period a)%Z -> Forall (fun jw => 0 <= fst jw < ax_period a)%Z (f a y)).
  { intros a y Ha. apply axis_points_in_period; assumption. }
  clearbody f. revert x Hl. induction Hp as [|a axes [Ha Hs] _ IH]; intros [|y x] Hl; try discriminate; [constructor|].
  cbn [points_with combine map fst snd]. constructor; [|apply IH; injection Hl as Hl; exact Hl].
  rewrite Hs. apply wsum_total. eapply Forall_impl; [|apply (HI a y Ha)].
  intros jw Hjw. cbn beta in *. rewrite Z2Nat.id by lia. exact Hjw.
Qed.
