(** Property C78: the deprecated tsc painter is the tsc window displaced by one cell. *)
From Coq Require Import List Arith ZArith QArith Qabs Qround Lia Lqa Bool Permutation Setoid Morphisms.
From Verif Require Import Base ListFacts WrapModel WrapProofs DomainModel DomainFill QSum WindowModel WindowStencil WindowSpread WindowKernels WindowAxis
  WindowNative WindowApi WindowPoints WindowTranslate WindowProperties MeshPaint LegacyModel LegacyProofs LegacyProperties.
Import ListNotations.
Local Open Scope Q_scope.

(** ** What a particle adds only depends on the weight of the cells *)
Lemma in_elements_inb real idx : In idx (elements real) <-> (length idx = length (ar_shape real) /\ inb (ar_shape real) idx = true).
Proof.
  unfold elements. generalize (ar_shape real) as shape. intros shape. rewrite in_box. split.
  - intros H. apply Forall2_len in H as HL. rewrite map_length in HL. split; [congruence|].
    revert idx H HL. induction shape as [|n shape IH]; intros [|i idx] H HL; try discriminate; [reflexivity|].
    inversion_clear H as [|? ? ? ? H1 H2]. cbn in H1 |- *. rewrite (IH idx H2) by now injection HL.
    destruct (Z.leb_spec 0 i), (Z.ltb_spec i n); try reflexivity; lia.
  - intros [HL H]. revert idx HL H. induction shape as [|n shape IH]; intros [|i idx] HL H; try discriminate; [constructor|].
    cbn in H. apply andb_true_iff in H as [H1 H2]. apply andb_true_iff in H1 as [A B]. apply Z.leb_le in A. apply Z.ltb_lt in B.
    cbn [map]. constructor; [cbn; lia|]. apply IH; [now injection HL|exact H2].
Qed.
Lemma elements_nodup real : NoDup (elements real).
Proof. apply box_NoDup. Qed.
Lemma deposit_spread real w a pts : length pts = length (ar_shape real) ->
  deposit real w a pts == qsum (fun idx => if (byte_offset (ar_strides real) idx =? a)%Z then w * spread pts idx else 0) (elements real).
Proof.
  intros HL. unfold deposit.
  rewrite (qsum_ext_in _ (fun iq => qsum (fun idx => if zl_eqb (fst iq) idx then if (byte_offset (ar_strides real) idx =? a)%Z then w * snd iq else 0 else 0) (elements real))).
  - rewrite qsum_swap. apply qsum_ext_in. intros idx Hi. apply in_elements_inb in Hi as [Hl _].
    destruct (_ =? a)%Z.
    + rewrite <- (cart_sum pts idx) by congruence. rewrite <- qsum_scale. apply qsum_ext. intros iq. destruct zl_eqb; ring.
    + apply qsum_zero. intros iq _. now destruct zl_eqb.
  - intros iq Hi. unfold part. assert (Hl := cart_length _ _ Hi).
    destruct (inb (ar_shape real) (fst iq)) eqn:E.
    + rewrite (qsum_single _ _ (fst iq)).
      * destruct (zl_eqb_spec (fst iq) (fst iq)); [reflexivity|congruence].
      * apply elements_nodup.
      * apply in_elements_inb. split; [congruence|exact E].
      * intros b _ Hb. destruct (zl_eqb_spec (fst iq) b); [congruence|reflexivity].
    + symmetry. apply qsum_zero. intros idx Hx. destruct (zl_eqb_spec (fst iq) idx) as [Eq|]; [|reflexivity].
      subst idx. apply in_elements_inb in Hx as [_ Hx]. congruence.
Qed.
Lemma deposit_wsum real w a pts pts' : length pts = length (ar_shape real) -> length pts' = length (ar_shape real) ->
  Forall2 (fun l l' => forall i, wsum l i == wsum l' i) pts pts' -> deposit real w a pts == deposit real w a pts'.
Proof.
  intros H H' HF. rewrite !deposit_spread by assumption. apply qsum_ext. intros idx. destruct (_ =? a)%Z; [|reflexivity].
  now rewrite (spread_ext _ _ idx HF).
Qed.

(** ** The points *)
Lemma rint_cases x : let f := Qfloor (x + (1#2)) in
  rint x = f \/ (rint x = (f - 1)%Z /\ x + (1#2) == inject_Z f).
Proof.
  cbv zeta. unfold rint. destruct (Qeq_bool _ _ && Z.odd _) eqn:E; [|now left]. right. split; [reflexivity|].
  apply andb_true_iff in E as [E _]. apply Qeq_bool_iff in E. now symmetry.
Qed.
Lemma rint_bounds x : inject_Z (rint x) - (1#2) <= x <= inject_Z (rint x) + (1#2).
Proof.
  destruct (rint_cases x) as [-> | [-> E]].
  - pose proof (Qfloor_bounds (x + (1#2))). lra.
  - unfold Z.sub. rewrite inject_Z_plus. change (inject_Z (-(1))) with (- (1)). lra.
Qed.
(** tsc.py puts the weight of the point [j] into the cell [j - 1] *)
Definition ts_line (p : Z) (x : Q) : list (Z * Q) :=
  let i := rint x in let diff := inject_Z i - x in
  [(wz p (i - 2), (1#2) * ((1#2) + diff) * ((1#2) + diff)); (wz p (i - 1), (3#4) - diff * diff); (wz p i, (1#2) * ((1#2) - diff) * ((1#2) - diff))].
Definition wline (p : Z) (x : Q) : list (Z * Q) :=
  map (fun j => (wz p j, quadratic_kernel (x - 1 - inject_Z j))) (zrange (Qfloor (x - 1 + (1#2)) - 1) 3).
Lemma quadratic_mid y : - (1#2) <= y <= (1#2) -> quadratic_kernel y == (3#4) - y * y.
Proof.
  intros H. unfold quadratic_kernel. destruct (Qle_bool (Qabs y) (1#2)) eqn:E.
  - destruct (Qlt_le_dec y 0); [rewrite Qabs_neg by lra|rewrite Qabs_pos by lra]; ring.
  - exfalso. assert (Qabs y <= 1#2) by (apply Qabs_Qle_condition; lra). apply Qle_bool_iff in H0. congruence.
Qed.
Lemma quadratic_right y : (1#2) <= y <= (3#2) -> quadratic_kernel y == ((3#2) - y) * ((3#2) - y) * (1#2).
Proof.
  intros H. unfold quadratic_kernel, Qltb. destruct (Qle_bool (Qabs y) (1#2)) eqn:E.
  - apply Qle_bool_iff in E. rewrite Qabs_pos in E by lra. rewrite Qabs_pos by lra. assert (y == 1#2) by lra. rewrite H0. reflexivity.
  - destruct (Qle_bool (3#2) (Qabs y)) eqn:E2; cbn [negb].
    + apply Qle_bool_iff in E2. rewrite Qabs_pos in E2 by lra. assert (y == 3#2) by lra. rewrite H0. reflexivity.
    + rewrite Qabs_pos by lra. reflexivity.
Qed.
Lemma quadratic_even y : quadratic_kernel (- y) == quadratic_kernel y.
Proof.
  assert (E : Qabs (- y) = Qabs y) by (destruct y as [n d]; cbn; now rewrite Z.abs_opp).
  unfold quadratic_kernel. rewrite E. reflexivity.
Qed.
Lemma quadratic_left y : -(3#2) <= y <= -(1#2) -> quadratic_kernel y == ((3#2) + y) * ((3#2) + y) * (1#2).
Proof. intros H. rewrite <- quadratic_even, quadratic_right by lra. ring. Qed.
Local Instance quadratic_proper : Proper (Qeq ==> Qeq) quadratic_kernel.
Proof. apply (standard_proper Quadratic). constructor. Qed.
Lemma ts_line_wsum p x i : wsum (ts_line p x) i == wsum (wline p x) i.
Proof.
  assert (Ef : Qfloor (x - 1 + (1#2)) = (Qfloor (x + (1#2)) - 1)%Z).
  { replace (Qfloor (x + (1#2)) - 1)%Z with (Qfloor (x + (1#2)) + -1)%Z by lia. rewrite <- Qfloor_shift. apply Qfloor_comp. change (inject_Z (-1)) with (-(1)). ring. }
  unfold wline. rewrite Ef. cbn [zrange map]. unfold ts_line, wsum. rewrite !qsum_cons, !qsum_nil. cbn [fst snd].
  pose proof (Qfloor_bounds (x + (1#2))) as [B1 B2]. set (f := Qfloor (x + (1#2))) in *.
  assert (I3 : inject_Z (f - 1 - 1) == inject_Z f - 2) by (replace (f - 1 - 1)%Z with (f + -2)%Z by lia; rewrite inject_Z_plus; reflexivity).
  assert (I2 : inject_Z (f - 1 - 1 + 1) == inject_Z f - 1) by (replace (f - 1 - 1 + 1)%Z with (f + -1)%Z by lia; rewrite inject_Z_plus; reflexivity).
  assert (I1 : inject_Z (f - 1 - 1 + 1 + 1) == inject_Z f) by (replace (f - 1 - 1 + 1 + 1)%Z with f by lia; reflexivity).
  assert (W3 : quadratic_kernel (x - 1 - inject_Z (f - 1 - 1)) == ((3#2) - (x + 1 - inject_Z f)) * ((3#2) - (x + 1 - inject_Z f)) * (1#2)).
  { rewrite quadratic_right by (rewrite I3; lra). rewrite I3. ring. }
  assert (W2 : quadratic_kernel (x - 1 - inject_Z (f - 1 - 1 + 1)) == (3#4) - (x - inject_Z f) * (x - inject_Z f)).
  { rewrite quadratic_mid by (rewrite I2; lra). rewrite I2. ring. }
  assert (W1 : quadratic_kernel (x - 1 - inject_Z (f - 1 - 1 + 1 + 1)) == ((3#2) + (x - 1 - inject_Z f)) * ((3#2) + (x - 1 - inject_Z f)) * (1#2)).
  { rewrite quadratic_left by (rewrite I1; lra). rewrite I1. ring. }
  destruct (rint_cases x) as [E | [E Ex]]; fold f in E; rewrite E.
  - replace (f - 1 - 1)%Z with (f - 2)%Z in * by lia. replace (f - 2 + 1)%Z with (f - 1)%Z in * by lia. replace (f - 1 + 1)%Z with f in * by lia.
    destruct (wz p (f - 2) =? i)%Z, (wz p (f - 1) =? i)%Z, (wz p f =? i)%Z; rewrite ?W1, ?W2, ?W3; ring.
  - fold f in Ex. assert (Exf : x == inject_Z f - (1#2)) by lra.
    assert (I4 : inject_Z (f - 1) == inject_Z f - 1) by (unfold Z.sub; rewrite inject_Z_plus; reflexivity).
    replace (f - 1 - 1)%Z with (f - 2)%Z in * by lia. replace (f - 2 + 1)%Z with (f - 1)%Z in * by lia. replace (f - 1 + 1)%Z with f in * by lia.
    destruct (wz p (f - 1 - 2) =? i)%Z, (wz p (f - 2) =? i)%Z, (wz p (f - 1) =? i)%Z, (wz p f =? i)%Z; rewrite ?W1, ?W2, ?W3, ?I4, ?Exf; ring.
Qed.
Lemma tsc_window_line k a y : k = TunedTSC \/ k = Quadratic -> ax_scale a = 1 -> ax_translate a = -(1) -> ax_order a = 0%Z -> (0 <= ax_period a)%Z ->
  Forall2 pair_eq (native_line k a y) (wline (ax_period a) y).
Proof.
  intros Hk Hs Ht Ho Hp.
  assert (Eg : grid_pos a y == y - 1) by (unfold grid_pos; rewrite Hs, Ht; ring).
  assert (Hst : standard k) by (destruct Hk; subst k; constructor).
  assert (En : native_of k = 3%Z) by (destruct Hk; now subst k).
  assert (Ek : kernel_of k = quadratic_kernel) by (destruct Hk; now subst k).
  unfold native_line, wline. rewrite En, first_point_3.
  replace (Qfloor (grid_pos a y + (1#2))) with (Qfloor (y - 1 + (1#2))) by (apply Qfloor_comp; now rewrite Eg).
  change (Z.to_nat 3) with 3%nat. generalize (zrange (Qfloor (y - 1 + (1#2)) - 1) 3) as l. intros l.
  induction l as [|j l IH]; cbn [map]; constructor; [|exact IH]. split; cbn [fst snd]; [reflexivity|].
  rewrite (line_weight_n k 3 a y j Hst En), Ho, Ek. cbn [Z.eqb]. now rewrite Eg.
Qed.
Theorem tsc_window_points w real period x : (w_kind w = TunedTSC \/ w_kind w = Quadratic) -> w_support w = 3%Z ->
  length period = length (ar_shape real) -> length (ar_strides real) = length (ar_shape real) -> length x = length (ar_shape real) ->
  Forall (fun p => 0 <= p)%Z period ->
  Forall2 (Forall2 pair_eq) (all_points (painter_of w real (mesh_units (length (ar_shape real)) (-(1)) period) None) 1 x) (lines wline period x).
Proof.
  intros Hk Hsup Hp Hst Hx HF. unfold all_points.
  set (p := painter_of w real _ None).
  assert (EA : pt_axes p = mk_axes (repeat 0%Z (length x)) (repeat 1 (length x)) (repeat (-(1)) (length x)) period (ar_shape real) (ar_strides real))
    by (rewrite Hx; reflexivity).
  rewrite EA. apply units_points; try congruence.
  intros a y H1 H2 H3 H4. eapply pair_eq_trans.
  - apply axis_points_native; try assumption.
    + apply standard_proper. change (pt_kind p) with (w_kind w). destruct Hk as [-> | ->]; constructor.
    + unfold native_painter. change (pt_kind p) with (w_kind w). change (pt_support p) with (w_support w). rewrite Hsup.
      destruct Hk as [-> | ->]; reflexivity.
    + intros _. now left.
  - apply tsc_window_line; assumption.
Qed.

(** ** The painter *)
Lemma pow3_S n d : ((n / 3 ^ Z.of_nat d) / 3 = n / 3 ^ Z.of_nat (S d))%Z.
Proof. rewrite Nat2Z.inj_succ, Z.pow_succ_r by lia. rewrite Z.div_div by lia. f_equal. lia. Qed.
Theorem ts_locate_spec pos : forall d shape strides period n k ind, length shape = length pos -> length strides = length pos ->
  let v := vis 3 (lines ts_line (repeat period (length pos)) pos) (n / 3 ^ Z.of_nat d)%Z in
  match ts_locate d pos shape strides period n k ind with
  | Some (q, o) => inb shape (fst v) = true /\ q == k * snd v /\ o = (ind + byte_offset strides (fst v))%Z
  | None => inb shape (fst v) = false
  end.
Proof.
  induction pos as [|x pos IH]; intros d [|s shape] [|st strides] p n k ind Hs Hst; try discriminate.
  - cbn. repeat split; [ring|lia].
  - injection Hs as Hs. injection Hst as Hst. cbn [length repeat lines ts_locate]. cbn [vis]. rewrite wrap_du_wz, pow3_S.
    set (r := ((n / 3 ^ Z.of_nat d) mod 3)%Z) in *.
    assert (Hr : (r = 0 \/ r = 1 \/ r = 2)%Z) by (pose proof (Z.mod_pos_bound (n / 3 ^ Z.of_nat d) 3); lia).
    set (q := if (r - 1 =? -1)%Z then (1#2) * ((1#2) + (inject_Z (rint x) - x)) * ((1#2) + (inject_Z (rint x) - x))
              else if (r - 1 =? 0)%Z then (3#4) - (inject_Z (rint x) - x) * (inject_Z (rint x) - x)
              else (1#2) * ((1#2) - (inject_Z (rint x) - x)) * ((1#2) - (inject_Z (rint x) - x))).
    assert (En : nth (Z.to_nat r) (ts_line p x) (0%Z, 0) = (wz p (rint x + (r - 1) - 1), q)).
    { unfold q. clearbody r. destruct Hr as [-> | [-> | ->]]; cbn [Z.to_nat Z.sub Z.add Z.opp Z.pos_sub Z.eqb Pos.to_nat Pos.iter_op Pos.pred_double nth ts_line Nat.add];
        (apply f_equal2; [f_equal; lia|reflexivity]). }
    rewrite En. cbn [fst snd inb].
    set (t := wz p (rint x + (r - 1) - 1)).
    destruct (Z.ltb_spec t 0) as [H0|H0]; cbn [orb].
    { destruct (Z.leb_spec 0 t); [lia|reflexivity]. }
    destruct (Z.geb_spec t s) as [H1|H1].
    { destruct (Z.leb_spec 0 t), (Z.ltb_spec t s); try lia; reflexivity. }
    destruct (Z.leb_spec 0 t); [|lia]. destruct (Z.ltb_spec t s); [|lia]. cbn [andb].
    match goal with |- context [ts_locate (S d) pos shape strides p n ?k' ?i'] => specialize (IH (S d) shape strides p n k' i' Hs Hst) end.
    cbv zeta in IH. destruct ts_locate as [[q' o]|]; [|exact IH].
    destruct IH as [A [B C]]. split; [exact A|]. split.
    + rewrite B. unfold q. destruct (r - 1 =? -1)%Z; [ring|]. destruct (r - 1 =? 0)%Z; ring.
    + rewrite C. unfold byte_offset. cbn [combine map fold_right fst snd]. lia.
Qed.

Section Tsc.
Variables (isz : Z) (real : array) (p : Z).
Hypothesis (Hisz : (0 < isz)%Z) (Hst : length (ar_strides real) = length (ar_shape real)).
Local Notation nd := (length (ar_shape real)).
Local Notation pts x := (lines ts_line (repeat p nd) x).
Lemma ts_all_spec x : length x = nd ->
  Forall2 (fun v o => match o with
                      | Some (q, i) => inb (ar_shape real) (fst v) = true /\ q == snd v /\ i = byte_offset (ar_strides real) (fst v)
                      | None => inb (ar_shape real) (fst v) = false
                      end)
    (map (vis 3 (pts x)) (zrange 0 (Nat.pow 3 (length x)))) (ts_all real p x).
Proof.
  intros Hx. unfold ts_all. induction (zrange 0 (3 ^ length x)) as [|n l IH]; cbn [map]; constructor; [|exact IH].
  assert (H := ts_locate_spec x 0 (ar_shape real) (ar_strides real) p n 1 0 ltac:(congruence) ltac:(congruence)).
  cbv zeta in H. change (3 ^ Z.of_nat 0)%Z with 1%Z in H. rewrite Z.div_1_r, Hx in H.
  destruct ts_locate as [[q i]|]; [|exact H]. destruct H as [A [B C]]. repeat split; auto. rewrite B. ring.
Qed.
Lemma vis3_pts x : length x = nd -> Permutation (map (vis 3 (pts x)) (zrange 0 (Nat.pow 3 (length x)))) (cart (pts x)).
Proof.
  intros Hx. rewrite <- (lines_length ts_line (repeat p nd) x) at 1 by (rewrite repeat_length; congruence).
  apply (vis_cart 3); [lia|]. apply lines_each. reflexivity.
Qed.
Lemma vis3_in_length x v : length x = nd -> In v (map (vis 3 (pts x)) (zrange 0 (Nat.pow 3 (length x)))) -> length (fst v) = nd.
Proof.
  intros Hx Hv. apply in_map_iff in Hv as [n [<- _]]. rewrite vis_length, lines_length by (rewrite repeat_length; congruence). exact Hx.
Qed.
Lemma trunc_exact k : trunc (inject_Z (k * isz) / inject_Z isz) = k.
Proof.
  assert (E : inject_Z (k * isz) / inject_Z isz == inject_Z k).
  { rewrite inject_Z_mult. field. intros H. apply (inject_Z_injective isz 0) in H. lia. }
  unfold trunc. destruct (Qle_bool 0 (inject_Z (k * isz) / inject_Z isz)).
  - rewrite (Qfloor_comp _ _ E). apply Qfloor_Z.
  - rewrite (Qceiling_comp _ _ E). apply Qceiling_Z.
Qed.
Lemma ts_hits_deposit x w a : contiguous isz real = true -> length x = nd ->
  osum (map (fun o => (fst o * isz, snd o)%Z) (hits (fun ki => (trunc (inject_Z (snd ki) / inject_Z isz), w * fst ki)) (ts_all real p x))) a ==
  deposit real w a (pts x).
Proof.
  intros Hc Hx. unfold deposit. rewrite <- (qsum_perm _ _ _ (vis3_pts x Hx)).
  assert (HL' := fun v => vis3_in_length x v Hx). assert (H := ts_all_spec x Hx). revert HL' H.
  generalize (map (vis 3 (pts x)) (zrange 0 (3 ^ length x))) as V. generalize (ts_all real p x) as L.
  intros L V HL H. induction H as [|v o V L Hvo H IH]; [reflexivity|].
  specialize (IH (fun v Hv => HL v (or_intror Hv))). specialize (HL v (or_introl eq_refl)).
  rewrite qsum_cons, <- IH. unfold part. destruct o as [[q i]|].
  - destruct Hvo as [A [B C]]. rewrite A. cbn [hits flat_map app map fst snd]. unfold osum at 1. rewrite qsum_cons. cbn [fst snd].
    rewrite C, <- (contiguous_rv isz real (fst v) Hc Hst HL A), trunc_exact. destruct (_ =? a)%Z; [rewrite B|]; reflexivity.
  - rewrite Hvo. cbn [hits flat_map app map]. unfold hits. ring.
Qed.
Lemma ts_outside x : length x = nd ->
  (outside (ts_all real p x) = 0%nat <-> Forall (fun iq => inb (ar_shape real) (fst iq) = true) (cart (pts x))).
Proof.
  intros Hx. assert (HP := vis3_pts x Hx). assert (H := ts_all_spec x Hx). revert HP H.
  generalize (map (vis 3 (pts x)) (zrange 0 (3 ^ length x))) as V. generalize (ts_all real p x) as L.
  intros L V HP H.
  assert (EF : Forall (fun iq => inb (ar_shape real) (fst iq) = true) (cart (pts x)) <-> Forall (fun iq => inb (ar_shape real) (fst iq) = true) V).
  { split; apply Permutation_Forall; [now symmetry|exact HP]. }
  rewrite EF. clear EF HP. unfold outside. induction H as [|v o V L Hvo H IH]; [split; [constructor|reflexivity]|].
  cbn [filter]. destruct o as [[q i]|].
  - destruct Hvo as [A _]. rewrite IH. split; [now constructor|now inversion 1].
  - cbn [length]. split; [discriminate|]. inversion 1. congruence.
Qed.
Definition ts_fits (x : list Q) : Prop := Forall (fun iq => inb (ar_shape real) (fst iq) = true) (cart (pts x)).
Lemma ts_chunk rows m a : contiguous isz real = true -> Forall (fun r => length (fst r) = nd) rows ->
  run_flat isz real m (fst (ts_paint_some isz real p rows)) a == m a + qsum (fun r => deposit real (snd r) a (pts (fst r))) rows.
Proof.
  intros Hc HF. unfold run_flat. rewrite Hc, run_osum. cbn [ts_paint_some fst]. rewrite map_flat_map, osum_flat_map.
  apply Qplus_comp; [reflexivity|]. apply qsum_ext_in. intros r Hr.
  apply ts_hits_deposit; [exact Hc|]. rewrite Forall_forall in HF. now apply HF.
Qed.
Lemma ts_some_outside (rows : list (list Q * Q)) : Forall (fun r => length (fst r) = nd) rows ->
  (snd (ts_paint_some isz real p rows) = 0%nat <-> Forall (fun r => ts_fits (fst r)) rows).
Proof.
  intros HF. cbn [ts_paint_some snd]. rewrite sum_zero. rewrite Forall_map.
  rewrite !Forall_forall. rewrite Forall_forall in HF. split; intros H r Hr; specialize (H r Hr); apply ts_outside; auto.
Qed.
Lemma ts_loop_ignore rows size : contiguous isz real = true -> Forall (fun r => length (fst r) = nd) rows ->
  forall ks m, exists m', ts_paint_loop isz real false p rows size ks m = (m', Ret tt) /\
   forall a, m' a == m a + qsum (fun r => deposit real (snd r) a (pts (fst r))) (flat_map (fun k => chunk size k rows) ks).
Proof.
  intros Hc HF. induction ks as [|k ks IH]; intros m.
  - exists m. split; [reflexivity|]. intros a. cbn. ring.
  - cbn [ts_paint_loop]. rewrite (surjective_pairing (ts_paint_some _ _ _ _)). rewrite andb_false_r.
    destruct (IH (run_flat isz real m (fst (ts_paint_some isz real p (chunk size k rows))))) as [m' [E H]].
    exists m'. split; [exact E|]. intros a. rewrite H, ts_chunk; [|exact Hc|].
    + cbn [flat_map]. rewrite qsum_app. ring.
    + rewrite Forall_forall in *. intros r Hr. apply HF. eapply chunk_in, Hr.
Qed.
Lemma ts_loop_raise rows size : Forall (fun r => length (fst r) = nd) rows ->
  forall ks m,
  (Forall (fun r => ts_fits (fst r)) (flat_map (fun k => chunk size k rows) ks) ->
     ts_paint_loop isz real true p rows size ks m = ts_paint_loop isz real false p rows size ks m) /\
  (~ Forall (fun r => ts_fits (fst r)) (flat_map (fun k => chunk size k rows) ks) ->
     snd (ts_paint_loop isz real true p rows size ks m) = Raise ValueError).
Proof.
  intros HF. induction ks as [|k ks IH]; intros m.
  - split; [reflexivity|]. intros H. exfalso. apply H. constructor.
  - cbn [ts_paint_loop flat_map]. rewrite (surjective_pairing (ts_paint_some _ _ _ _)), andb_false_r, andb_true_r.
    assert (HFc : Forall (fun r => length (fst r) = nd) (chunk size k rows)).
    { rewrite Forall_forall in *. intros r Hr. apply HF. eapply chunk_in, Hr. }
    pose proof (ts_some_outside (chunk size k rows) HFc) as HO.
    destruct (Nat.eqb_spec (snd (ts_paint_some isz real p (chunk size k rows))) 0) as [E|E]; cbn [negb].
    + apply HO in E. destruct (IH (run_flat isz real m (fst (ts_paint_some isz real p (chunk size k rows))))) as [I1 I2].
      split; intros H; [apply I1; apply Forall_app in H; apply H|].
      apply I2. intros H'. apply H. apply Forall_app. now split.
    + split; [|reflexivity]. intros H. apply Forall_app in H as [H _]. exfalso. apply E. now apply HO.
Qed.
End Tsc.

Lemma cart_nonempty pts : Forall (fun l => l <> []) pts -> exists iq, In iq (cart pts).
Proof.
  induction pts as [|l pts IH]; intros H; [eexists; left; reflexivity|]. inversion_clear H as [|? ? H1 H2].
  destruct l as [|jw l]; [congruence|]. destruct (IH H2) as [iq Hi]. cbn [cart flat_map].
  eexists. apply in_or_app. left. apply in_map_iff. exists iq. split; [reflexivity|exact Hi].
Qed.
Lemma cart_inside shape : forall pts, length pts = length shape -> Forall (fun l => l <> []) pts ->
  (Forall (fun iq => inb shape (fst iq) = true) (cart pts) <->
   Forall2 (fun n l => Forall (fun jw => (0 <= fst jw < n)%Z) l) shape pts).
Proof.
  induction shape as [|n shape IH]; intros [|l pts] HL Hne; try discriminate.
  - split; [constructor|]. intros _. cbn. repeat constructor.
  - injection HL as HL. inversion_clear Hne as [|? ? Hl Hp]. specialize (IH pts HL Hp).
    destruct (cart_nonempty pts Hp) as [iq0 Hi0]. rewrite Forall_forall in IH |- *. split.
    + intros H.
      assert (HH : forall jw iq, In jw l -> In iq (cart pts) -> (0 <= fst jw < n)%Z /\ inb shape (fst iq) = true).
      { intros jw iq Hj Hi. assert (E : In (fst jw :: fst iq, snd jw * snd iq) (cart (l :: pts))).
        { cbn [cart]. apply in_flat_map. exists jw. split; [exact Hj|]. apply in_map_iff. exists iq. split; [reflexivity|exact Hi]. }
        specialize (H _ E). cbn [fst inb] in H. apply andb_true_iff in H as [H1 H2]. apply andb_true_iff in H1 as [A B].
        apply Z.leb_le in A. apply Z.ltb_lt in B. split; [lia|exact H2]. }
      constructor.
      * apply Forall_forall. intros jw Hj. now apply (HH jw iq0).
      * apply IH. intros iq Hi. destruct l as [|jw l]; [congruence|]. apply (HH jw iq); [now left|exact Hi].
    + intros H iq Hi. inversion_clear H as [|? ? ? ? H1 H2]. cbn [cart] in Hi. apply in_flat_map in Hi as [jw [Hj Hi]].
      apply in_map_iff in Hi as [iq' [<- Hi]]. cbn [fst inb]. rewrite Forall_forall in H1. specialize (H1 jw Hj).
      rewrite (proj2 IH H2 iq' Hi). destruct (Z.leb_spec 0 (fst jw)), (Z.ltb_spec (fst jw) n); try reflexivity; lia.
Qed.

(** ** The property *)
(** [tsc] and [quadratic] of pmesh.window in their default support *)
Definition tsc_window (w : window) : Prop := (w_kind w = TunedTSC \/ w_kind w = Quadratic) /\ default_window w.
(** one positive period for all axes, or none *)
Definition one_period (period : option Z) : Prop := match period with None => True | Some p => (0 < p)%Z end.
(** the three mesh points below the rounded position, wrapped, are in the mesh, on all axes *)
Definition three_inside (shape : list Z) (period : option Z) (x : list Q) : Prop :=
  forall d e, (d < length shape)%nat -> (e = 0 \/ e = 1 \/ e = 2)%Z ->
    let j := (rint (nth d x 0%Q) - e)%Z in
    let j := match period with None => j | Some p => (j mod p)%Z end in
    (0 <= j < nth d shape 0)%Z.
(** what [rint] is: the nearest number, the even one if there are two *)
Theorem C78_rint x : Qabs (x - inject_Z (rint x)) <= 1#2 /\ (Qabs (x - inject_Z (rint x)) == 1#2 -> Z.even (rint x) = true).
Proof.
  pose proof (rint_bounds x) as [B1 B2]. split; [apply Qabs_Qle_condition; lra|].
  intros E. unfold rint in *. set (f := Qfloor (x + (1#2))) in *. pose proof (Qfloor_bounds (x + (1#2))) as [F1 F2]. fold f in F1, F2.
  destruct (Qeq_bool (inject_Z f) (x + (1#2))) eqn:C; cbn [andb] in *.
  - destruct (Z.odd f) eqn:O; [|rewrite <- Z.negb_odd, O; reflexivity].
    rewrite Z.even_sub, <- Z.negb_odd, O. reflexivity.
  - exfalso. apply Qeq_bool_neq in C. apply C. revert E. apply Qabs_case; intros; lra.
Qed.
Lemma three_inside_fits real period x : one_period period -> length x = length (ar_shape real) ->
  (three_inside (ar_shape real) period x <-> ts_fits real (match period with None => 0%Z | Some p => p end) x).
Proof.
  intros Hp Hx. unfold three_inside, ts_fits. set (p := match period with None => 0%Z | Some p => p end).
  assert (E : forall j, wz p j = match period with None => j | Some p => (j mod p)%Z end).
  { intros j. unfold p, wz. destruct period as [q|]; [|reflexivity]. cbn in Hp. destruct (Z.gtb_spec q 0); [reflexivity|lia]. }
  rewrite cart_inside.
  - revert x Hx. generalize (ar_shape real) as shape. induction shape as [|n shape IH]; intros [|y x] Hx; try discriminate.
    + split; [constructor|]. intros _ d e Hd. cbn in Hd. lia.
    + injection Hx as Hx. specialize (IH x Hx). cbn [length repeat lines]. split.
      * intros H. constructor; [|apply IH; intros d e Hd He; apply (H (S d) e); [cbn; lia|exact He]].
        pose proof (H 0%nat 0%Z ltac:(cbn; lia) ltac:(lia)) as H0. pose proof (H 0%nat 1%Z ltac:(cbn; lia) ltac:(lia)) as H1.
        pose proof (H 0%nat 2%Z ltac:(cbn; lia) ltac:(lia)) as H2. cbv zeta in H0, H1, H2. rewrite <- E in H0, H1, H2. cbn [nth] in H0, H1, H2.
        rewrite Z.sub_0_r in H0. unfold ts_line. repeat (apply Forall_cons; [assumption|]). constructor.
      * intros H. inversion_clear H as [|? ? ? ? H1 H2]. intros [|d] e Hd He; cbv zeta.
        -- rewrite <- E. cbn [nth]. unfold ts_line in H1. inversion_clear H1 as [|? ? A H1']. inversion_clear H1' as [|? ? B H1''].
           inversion_clear H1'' as [|? ? C _]. cbn [fst] in A, B, C. destruct He as [-> | [-> | ->]]; [rewrite Z.sub_0_r| |]; assumption.
        -- apply (proj2 IH H2 d e); [cbn in Hd; lia|exact He].
  - rewrite lines_length; [exact Hx|]. rewrite repeat_length. now symmetry.
  - apply Forall_forall. intros l Hl. pose proof (lines_each ts_line 3 (repeat p (length (ar_shape real))) x (fun _ _ => eq_refl)) as HF.
    rewrite Forall_forall in HF. specialize (HF l Hl). intros ->. discriminate.
Qed.
Lemma affine_shift nd period t : Affine nd None (Some (Scalar (-(1)))) (option_map Scalar period) = Ret t ->
  t = mesh_units nd (-(1)) (repeat (match period with None => 0%Z | Some p => p end) nd).
Proof.
  unfold Affine, mkarr. destruct period as [p|]; cbn; intros E; now injection E as <-.
Qed.
Lemma lines_wsum p x : Forall2 (fun l l' => forall i, wsum l i == wsum l' i) (lines ts_line (repeat p (length x)) x) (lines wline (repeat p (length x)) x).
Proof. induction x as [|y x IH]; cbn [length repeat lines]; constructor; [intros i; apply ts_line_wsum|exact IH]. Qed.

Section Property.
Variables (w : window) (real : array) (period : option Z) (transform : list Q -> list Q) (t : affine).
Local Notation nd := (length (ar_shape real)).
Hypothesis (Hw : tsc_window w) (Hreal : array_ok real) (Hper : one_period period)
  (Ht : Affine nd None (Some (Scalar (-(1)))) (option_map Scalar period) = Ret t).
Variables (m : memory) (pos : list (list Q)).
Hypothesis (Hpos : wf_pos real (map transform pos)).
Let per := match period with None => 0%Z | Some p => p end.
(** The tsc painter does what the tsc window does with all positions moved down by one
    cell, for a C contiguous mesh; with any other it raises ValueError *)
Theorem C78_paint size isz weights nw : (0 < size)%nat -> (0 < isz)%Z -> weights_fit weights (length pos) -> weight_arg nw weights ->
  contiguous isz real = true ->
  exists m0 m1, window_paint w real m (map transform pos) None (Some weights) None (Some t) = Ret m0 /\
    ts_paint size isz real m pos nw false period transform = (m1, Ret tt) /\ forall a, m1 a == m0 a.
Proof.
  intros Hs Hi Hf Hnw Hc.
  assert (HL : length (combine (map transform pos) (weights_of weights (length pos))) = length pos)
    by (rewrite combine_length, map_length, weights_of_values, values_of_length by exact Hf; lia).
  assert (HF : Forall (fun r => length (fst r) = nd) (combine (map transform pos) (weights_of weights (length pos)))).
  { apply Forall_forall. intros [x c] Hr. unfold wf_pos in Hpos. rewrite Forall_forall in Hpos. apply Hpos. eapply in_combine_l, Hr. }
  assert (Enw : match nw with Some w => w | None => Scalar 1 end = weights) by (destruct Hnw as [-> | [-> ->]]; reflexivity).
  destruct (ts_loop_ignore isz real per Hi ltac:(apply Hreal) _ size Hc HF (seq 0 (chunk_count size (length pos))) m) as [m1 [E1 H1]].
  eexists. exists m1. split; [apply (window_paint_values w real t None); [exact I|exact I|now rewrite map_length]|]. split.
  - unfold ts_paint. rewrite Enw, Hc. cbn [negb]. exact E1.
  - intros a. rewrite H1, (chunks_all size _ (length pos) Hs HL), map_length.
    assert (Hwf : wf_call real t) by (rewrite (affine_shift nd period t Ht); apply mesh_units_wf; [exact Hreal|apply repeat_length]).
    assert (Hkind : (0 < native_of (w_kind w))%Z) by (destruct Hw as [[E|E] _]; rewrite E; reflexivity).
    rewrite (paint_all_deposit w real t Hwf Hkind).
    + apply Qplus_comp; [reflexivity|]. rewrite <- weights_of_values. unfold parts_of. cbn [values_of].
      revert HL HF. generalize (combine (map transform pos) (weights_of weights (length pos))) as rows. intros rows <- HF.
      induction rows as [|r rows IH]; [reflexivity|]. inversion_clear HF as [|? ? Hr HF']. cbn [length repeat combine].
      rewrite !qsum_cons, <- (IH HF'). cbn [fst snd]. apply Qplus_comp; [|reflexivity].
      transitivity (deposit real (snd r) a (lines wline (repeat per nd) (fst r))).
      * apply deposit_wsum; try (rewrite lines_length; [exact Hr|rewrite repeat_length; now symmetry]). rewrite <- Hr. apply lines_wsum.
      * symmetry. apply deposit_eq. rewrite (affine_shift nd period t Ht). fold per. apply tsc_window_points.
        -- apply Hw.
        -- destruct Hw as [[E|E] [_ H]]; rewrite H, E; reflexivity.
        -- apply repeat_length.
        -- apply Hreal.
        -- exact Hr.
        -- apply Forall_forall. intros q Hq. apply repeat_spec in Hq. subst q. unfold per. destruct period; cbn in Hper; lia.
    + apply Forall_forall. intros [[x c] h] Hx. unfold parts_of in Hx. apply in_combine_l in Hx. apply in_combine_l in Hx.
      unfold wf_pos in Hpos. rewrite Forall_forall in Hpos. now apply Hpos.
Qed.
Theorem C78_raise size isz weights nw : (0 < size)%nat -> weights_fit weights (length pos) -> weight_arg nw weights ->
  contiguous isz real = true ->
  (Forall (fun x => three_inside (ar_shape real) period (transform x)) pos ->
     ts_paint size isz real m pos nw true period transform = ts_paint size isz real m pos nw false period transform) /\
  (~ Forall (fun x => three_inside (ar_shape real) period (transform x)) pos ->
     snd (ts_paint size isz real m pos nw true period transform) = Raise ValueError).
Proof.
  intros Hs Hf Hnw Hc. unfold ts_paint. rewrite Hc. cbn [negb].
  assert (Enw : match nw with Some w => w | None => Scalar 1 end = weights) by (destruct Hnw as [-> | [-> ->]]; reflexivity).
  rewrite Enw. fold per.
  assert (HL : length (combine (map transform pos) (weights_of weights (length pos))) = length pos)
    by (rewrite combine_length, map_length, weights_of_values, values_of_length by exact Hf; lia).
  assert (HF : Forall (fun r => length (fst r) = nd) (combine (map transform pos) (weights_of weights (length pos)))).
  { apply Forall_forall. intros [x c] Hr. unfold wf_pos in Hpos. rewrite Forall_forall in Hpos. apply Hpos. eapply in_combine_l, Hr. }
  assert (Ef : map fst (combine (map transform pos) (weights_of weights (length pos))) = map transform pos).
  { apply map_fst_combine. rewrite map_length, weights_of_values, values_of_length by exact Hf. lia. }
  set (rows := combine _ _) in *.
  assert (EF : Forall (fun x => three_inside (ar_shape real) period (transform x)) pos <-> Forall (fun r => ts_fits real per (fst r)) rows).
  { rewrite <- (Forall_map fst (ts_fits real per)), Ef, Forall_map. unfold wf_pos in Hpos. rewrite Forall_map, Forall_forall in Hpos.
    rewrite !Forall_forall. split; intros H x Hx; specialize (H x Hx); apply three_inside_fits; auto. }
  destruct (ts_loop_raise isz real per ltac:(apply Hreal) rows size HF (seq 0 (chunk_count size (length pos))) m) as [B1 B2].
  rewrite (chunks_all size rows (length pos) Hs HL) in B1, B2. rewrite EF. split; assumption.
Qed.
End Property.
Theorem C78_noncontiguous size isz real m pos weights raise period transform : contiguous isz real = false ->
  ts_paint size isz real m pos weights raise period transform = (m, Raise ValueError).
Proof. intros H. unfold ts_paint. now rewrite H. Qed.
(** so a particle on a mesh point is painted around the point below, unlike the tsc window does it *)
Theorem C78_shifted_refuted :
  let real := {| ar_shape := [4]%Z; ar_strides := [8]%Z |} in
  (exists m0, window_paint (ResampleWindow TunedTSC 0) real (fun _ => 0) [[2]] None None None (Some (mesh_units 1 0 [4]%Z)) = Ret m0 /\
     map (fun i => Qred (elem real m0 [i])) [0; 1; 2; 3]%Z = [0; 1#8; 3#4; 1#8]) /\
  map (fun i => Qred (elem real (fst (ts_paint 4 8 real (fun _ => 0) [[2]] None true (Some 4%Z) (fun x => x))) [i])) [0; 1; 2; 3]%Z = [1#8; 3#4; 1#8; 0].
Proof. cbv zeta. split; [eexists; split; reflexivity|]. vm_compute. reflexivity. Qed.
(** [readout] of tsc.py names a function that is not there *)
Theorem C78_readout_refuted pos : ts_readout pos = Raise NameError.
Proof. reflexivity. Qed.
Example C78_case :
  tsc_window (ResampleWindow TunedTSC 0) /\ array_ok c_mesh /\ contiguous 8 c_mesh = true /\ one_period (Some 2%Z) /\
  Affine 2 None (Some (Scalar (-(1)))) (Some (Scalar 2%Z)) = Ret (mesh_units 2 (-(1)) [2; 2]%Z) /\
  wf_pos c_mesh (map double [[1#4; 1#2]; [5#4; 3#4]]) /\ weights_fit (Array [1; 2]) 2 /\
  Forall (fun x => three_inside [3; 2]%Z (Some 2%Z) (double x)) [[1#4; 1#2]; [5#4; 3#4]] /\
  ~ Forall (fun x => three_inside [3; 2]%Z None (double x)) [[1#4; 1#2]; [5#4; 3#4]] /\
  rint (5#2) = 2%Z /\ rint (3#2) = 2%Z /\
  elem c_mesh (fst (ts_paint 1 8 c_mesh (fun _ => 0) [[1#4; 1#2]; [5#4; 3#4]] (Some (Array [1; 2])) true (Some 2%Z) double)) [1; 0]%Z == 7#8.
Proof.
  destruct C77_case as (_ & H2 & H3 & _ & _ & H6 & H7 & _).
  split; [split; [now left|apply default_window_ok; [exact I|left; lia]]|]. split; [exact H2|]. split; [exact H3|].
  split; [cbn; lia|]. split; [reflexivity|]. split; [exact H6|]. split; [exact H7|]. split.
  { repeat (apply Forall_cons; [intros d e Hd He; destruct d as [|[|d]]; [| |cbn in Hd; lia]; destruct He as [-> | [-> | ->]]; vm_compute; split; congruence|]). constructor. }
  split. { intros H. inversion_clear H as [|? ? H1 _]. specialize (H1 0%nat 1%Z ltac:(cbn; lia) ltac:(lia)). vm_compute in H1. destruct H1. congruence. }
  split; [reflexivity|]. split; [reflexivity|]. vm_compute. reflexivity.
Qed.
Print Assumptions C78_rint.
Print Assumptions C78_paint.
Print Assumptions C78_raise.
Print Assumptions C78_noncontiguous.
Print Assumptions C78_shifted_refuted.
Print Assumptions C78_readout_refuted.
