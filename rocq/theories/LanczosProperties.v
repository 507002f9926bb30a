(** Property C84: the deprecated painter for any kernel. *)
From Coq Require Import List Arith ZArith QArith Qabs Qround Lia Lqa Bool Permutation Setoid Morphisms.
From Verif Require Import Base ListFacts WrapModel WrapProofs DomainModel DomainFill QSum WindowModel WindowStencil WindowSpread WindowKernels WindowAxis
  WindowNative WindowApi WindowPoints WindowTranslate WindowProperties MeshPaint LegacyModel LegacyProofs LegacyProperties LegacyTsc LanczosModel.
Import ListNotations.
Local Open Scope Q_scope.

(** ** The points of a particle *)
Section Any.
Variable w : lz_window.
Local Notation s := (lz_support w).
Local Notation b := (2 * lz_support w)%nat.
Hypothesis Hs : (0 < lz_support w)%nat.
Definition lz_line (p : Z) (x : Q) : list (Z * Q) :=
  map (fun e => (wz p (Qfloor x + (e - (Z.of_nat s - 1))), lz_kernel w (x - inject_Z (Qfloor x + (e - (Z.of_nat s - 1)))))) (zrange 0 b).
Lemma lz_line_length p x : length (lz_line p x) = b.
Proof. unfold lz_line. rewrite map_length, zrange_length. reflexivity. Qed.
Lemma lz_line_nth p x e : (0 <= e < Z.of_nat b)%Z ->
  nth (Z.to_nat e) (lz_line p x) (0%Z, 0) =
  (wz p (Qfloor x + (e - (Z.of_nat s - 1))), lz_kernel w (x - inject_Z (Qfloor x + (e - (Z.of_nat s - 1))))).
Proof.
  intros He. unfold lz_line. rewrite (nth_map_in _ _ _ (0%Z, 0) 0%Z) by (rewrite zrange_length; lia).
  rewrite nth_zrange by lia. rewrite Z2Nat.id by lia. reflexivity.
Qed.
Lemma digit_next i d : (i / (2 * Z.of_nat s) ^ Z.of_nat d / (2 * Z.of_nat s) = i / (2 * Z.of_nat s) ^ Z.of_nat (S d))%Z.
Proof.
  rewrite Z.div_div by lia. f_equal. rewrite Nat2Z.inj_succ, Z.pow_succ_r by lia. lia.
Qed.
Lemma of_b : Z.of_nat b = (2 * Z.of_nat s)%Z.
Proof. lia. Qed.
Lemma digit_range i : (0 <= i mod (2 * Z.of_nat s) < Z.of_nat b)%Z.
Proof. rewrite of_b. apply Z.mod_pos_bound. lia. Qed.
Lemma lz_product_spec grid : forall period d i k, length period = length grid ->
  fold_left (fun k gn => k * lz_kernel w (fst gn - inject_Z (Qfloor (fst gn) + snd gn))) (combine grid (lz_digits s d (length grid) i)) k ==
  k * snd (vis (Z.of_nat b) (lines lz_line period grid) (i / (2 * Z.of_nat s) ^ Z.of_nat d)).
Proof.
  induction grid as [|x grid IH]; intros [|p period] d i k L; try discriminate; [cbn; ring|].
  cbn [length lz_digits seq map combine fold_left fst snd lines vis]. fold (lz_digits s (S d) (length grid) i).
  rewrite (IH period) by now injection L. rewrite of_b.
  rewrite <- of_b at 3. rewrite <- of_b. rewrite lz_line_nth by (rewrite of_b; apply Z.mod_pos_bound; lia). cbn [fst snd].
  rewrite of_b, digit_next. ring.
Qed.
Lemma lz_target_none grid : forall d i,
  np_target None grid (lz_digits s d (length grid) i) = fst (vis (Z.of_nat b) (lines lz_line (repeat 0%Z (length grid)) grid) (i / (2 * Z.of_nat s) ^ Z.of_nat d)).
Proof.
  induction grid as [|x grid IH]; intros d i; [reflexivity|].
  cbn [length lz_digits seq map combine repeat fst snd lines vis]. fold (lz_digits s (S d) (length grid) i).
  unfold np_target in *. cbn [combine map fst snd]. rewrite IH.
  rewrite lz_line_nth by (rewrite of_b; apply Z.mod_pos_bound; lia). cbn [fst]. rewrite of_b, digit_next. reflexivity.
Qed.
Lemma lz_target_some grid : forall p d i, length p = length grid -> Forall (fun n => 0 < n)%Z p ->
  np_target (Some p) grid (lz_digits s d (length grid) i) = fst (vis (Z.of_nat b) (lines lz_line p grid) (i / (2 * Z.of_nat s) ^ Z.of_nat d)).
Proof.
  induction grid as [|x grid IH]; intros [|p ps] d i L HF; try discriminate; [reflexivity|].
  cbn [length lz_digits seq map combine fst snd lines vis]. fold (lz_digits s (S d) (length grid) i). inversion_clear HF as [|? ? H1 H2].
  unfold np_target in *. cbn [combine map fst snd]. rewrite IH by (assumption || now injection L).
  rewrite lz_line_nth by (rewrite of_b; apply Z.mod_pos_bound; lia). cbn [fst]. rewrite of_b, digit_next. f_equal.
  unfold np_remainder, wz. destruct (Z.eqb_spec p 0); [lia|]. destruct (Z.gtb_spec p 0); [reflexivity|lia].
Qed.
Lemma lz_target_spec nd period grid i : periods_fit nd period -> length grid = nd ->
  np_target period grid (lz_digits s 0 nd i) = fst (vis (Z.of_nat b) (lines lz_line (nb_period nd period) grid) i).
Proof.
  intros Hp <-. replace i with (i / (2 * Z.of_nat s) ^ Z.of_nat 0)%Z at 2 by (change (Z.of_nat 0) with 0%Z; rewrite Z.pow_0_r; apply Z.div_1_r).
  destruct period as [p|]; cbn [nb_period].
  - destruct Hp as [H1 H2]. apply lz_target_some; assumption.
  - apply lz_target_none.
Qed.

Section Numpy.
Variables (real : array) (period : option (list Z)).
Hypothesis (Hst : length (ar_strides real) = length (ar_shape real)) (Hper : periods_fit (length (ar_shape real)) period).
Local Notation nd := (length (ar_shape real)).
Local Notation per := (nb_period nd period).
Local Notation pts x := (lines lz_line per x).
Local Notation at_ i x := (vis (Z.of_nat b) (pts x) i).
Lemma lz_pts_length x : length x = nd -> length (pts x) = nd.
Proof. intros H. rewrite lines_length; [exact H|]. rewrite nb_period_length by exact Hper. now symmetry. Qed.
Lemma lz_at_length i x : length x = nd -> length (fst (at_ i x)) = nd.
Proof. intros H. rewrite vis_length. now apply lz_pts_length. Qed.
Lemma lz_product_vis x i : length x = nd -> lz_product w x (lz_digits s 0 nd i) == snd (at_ i x).
Proof.
  intros H. unfold lz_product. rewrite <- H at 1. rewrite (lz_product_spec x per).
  - change (Z.of_nat 0) with 0%Z. rewrite Z.pow_0_r, Z.div_1_r. ring.
  - rewrite nb_period_length by exact Hper. now symmetry.
Qed.
Definition lz_targets (rows : list (list Q * Q)) (i : Z) : list (list Z * Q) :=
  map (fun r => (np_target period (fst r) (lz_digits s 0 nd i), snd r * (lz_product w (fst r) (lz_digits s 0 nd i) / lz_integral w))) rows.
Lemma lz_add_kept (raise : bool) rows i (kept : list (list Z * Q)) :
  kept = (if raise then lz_targets rows i else filter (fun t => in_shape (ar_shape real) (fst t)) (lz_targets rows i)) ->
  Forall (fun t => inb (ar_shape real) (fst t) = true) kept -> Forall (fun t => length (fst t) = nd) kept ->
  exists ops, lz_add w real raise period rows (lz_digits s 0 nd i) = Some ops /\
    forall a, osum ops a == qsum (fun t => if (byte_offset (ar_strides real) (fst t) =? a)%Z then snd t else 0) kept.
Proof.
  intros E HF HL. unfold lz_add. fold (lz_targets rows i). rewrite <- E. rewrite (ravel_kept real kept HF).
  eexists. split; [reflexivity|]. intros a.
  rewrite bincount_sum by (intros j Hj; now apply in_np_unique).
  rewrite combine_map_map, qsum_map. cbn [fst snd]. apply qsum_ext_in. intros t Ht.
  rewrite Forall_forall in HF, HL. rewrite flat_address_rv by auto. reflexivity.
Qed.
Lemma lz_add_ignore rows i : Forall (fun r => length (fst r) = nd) rows ->
  exists ops, lz_add w real false period rows (lz_digits s 0 nd i) = Some ops /\
    forall a, osum ops a == qsum (fun r => part real (snd r / lz_integral w) a (at_ i (fst r))) rows.
Proof.
  intros HF. rewrite Forall_forall in HF.
  assert (HT : forall r, In r rows -> length (np_target period (fst r) (lz_digits s 0 nd i)) = nd).
  { intros r Hr. rewrite (lz_target_spec nd) by auto. now apply lz_at_length, HF. }
  destruct (lz_add_kept false rows i _ eq_refl) as [ops [E H]].
  - apply Forall_forall. intros t Ht. apply filter_In in Ht as [Ht Hi]. rewrite in_shape_spec in Hi; [exact Hi|].
    unfold lz_targets in Ht. apply in_map_iff in Ht as [r [<- Hr]]. cbn [fst]. now apply HT.
  - apply Forall_forall. intros t Ht. apply filter_In in Ht as [Ht _].
    unfold lz_targets in Ht. apply in_map_iff in Ht as [r [<- Hr]]. cbn [fst]. now apply HT.
  - exists ops. split; [exact E|]. intros a. rewrite H, qsum_filter. unfold lz_targets. rewrite qsum_map. cbn [fst snd].
    apply qsum_ext_in. intros r Hr. rewrite in_shape_spec by now apply HT.
    rewrite (lz_target_spec nd) by auto. unfold part. destruct inb; [|reflexivity].
    destruct (_ =? a)%Z; [|reflexivity]. rewrite lz_product_vis by auto. unfold Qdiv. ring.
Qed.
Lemma lz_add_raise rows i : Forall (fun r => length (fst r) = nd) rows ->
  (Forall (fun r => inb (ar_shape real) (fst (at_ i (fst r))) = true) rows ->
     lz_add w real true period rows (lz_digits s 0 nd i) = lz_add w real false period rows (lz_digits s 0 nd i)) /\
  (~ Forall (fun r => inb (ar_shape real) (fst (at_ i (fst r))) = true) rows ->
     lz_add w real true period rows (lz_digits s 0 nd i) = None).
Proof.
  intros HF. rewrite Forall_forall in HF. unfold lz_add. fold (lz_targets rows i). split; intros H.
  - rewrite filter_all; [reflexivity|]. intros t Ht. unfold lz_targets in Ht. apply in_map_iff in Ht as [r [<- Hr]]. cbn [fst].
    rewrite (lz_target_spec nd) by auto. rewrite in_shape_spec by now apply lz_at_length, HF.
    rewrite Forall_forall in H. now apply H.
  - assert (HE : Exists (fun r => ~ inb (ar_shape real) (fst (at_ i (fst r))) = true) rows).
    { apply neg_Forall_Exists_neg; [|exact H]. intros r. destruct inb; [now left|now right]. }
    apply Exists_exists in HE as [r [Hr Hb]]. apply not_true_is_false in Hb.
    rewrite (ravel_bad real _ (np_target period (fst r) (lz_digits s 0 nd i), snd r * (lz_product w (fst r) (lz_digits s 0 nd i) / lz_integral w))); [reflexivity| |].
    + unfold lz_targets. apply in_map_iff. eauto.
    + cbn [fst]. rewrite (lz_target_spec nd) by auto. exact Hb.
Qed.
Lemma lz_vis_all x : length x = nd -> Permutation (map (fun i => at_ i x) (zrange 0 (Nat.pow b nd))) (cart (pts x)).
Proof.
  intros Hx. pose proof (vis_cart b (pts x)) as H. rewrite (lz_pts_length x Hx) in H. apply H; [lia|]. apply lines_each. apply lz_line_length.
Qed.
Lemma lz_deposit_vis c a x : length x = nd ->
  qsum (fun i => part real c a (at_ i x)) (zrange 0 (Nat.pow b nd)) == deposit real c a (pts x).
Proof. intros Hx. unfold deposit. rewrite <- (qsum_perm _ _ _ (lz_vis_all x Hx)). now rewrite qsum_map. Qed.
Local Notation step rows size raise := (fun kn => lz_add w real raise period (chunk size (fst kn) rows) (snd kn)).
Lemma lz_loop_ignore rows size n : (0 < size)%nat -> length rows = n -> Forall (fun r => length (fst r) = nd) rows ->
  forall m, exists m',
  until_none (step rows size false) (list_prod (seq 0 (chunk_count size n)) (lz_neighbours s nd)) m = (m', true) /\
  forall a, m' a == m a + qsum (fun r => deposit real (snd r / lz_integral w) a (pts (fst r))) rows.
Proof.
  intros Hsize Hn HF m.
  set (ks := seq 0 (chunk_count size n)).
  assert (HL : forall k, Forall (fun r => length (fst r) = nd) (chunk size k rows)).
  { intros k. rewrite Forall_forall in *. intros r Hr. apply HF. eapply chunk_in, Hr. }
  assert (EN : list_prod ks (lz_neighbours s nd) = map (fun ki => (fst ki, lz_digits s 0 nd (snd ki))) (list_prod ks (zrange 0 (Nat.pow b nd)))).
  { unfold lz_neighbours. clearbody ks. induction ks as [|k ks IH]; [reflexivity|]. cbn [list_prod]. rewrite map_app, IH, !map_map. reflexivity. }
  rewrite EN.
  destruct (until_none_all (step rows size false)
    (fun a kn => qsum (fun r => qsum (fun o => if (fst o =? a)%Z then snd o else 0)
        (match lz_add w real false period [r] (snd kn) with Some ops => ops | None => [] end)) (chunk size (fst kn) rows))
    (map (fun ki => (fst ki, lz_digits s 0 nd (snd ki))) (list_prod ks (zrange 0 (Nat.pow b nd)))) ) with (m := m) as [m' [E H]].
  - intros kn Hkn. apply in_map_iff in Hkn as [[k i] [<- Hki]]. cbn [fst snd].
    destruct (lz_add_ignore (chunk size k rows) i (HL k)) as [ops [Eo Ho]].
    exists ops. split; [exact Eo|]. intros a. rewrite Ho. apply qsum_ext_in. intros r Hr.
    destruct (lz_add_ignore [r] i) as [ops1 [E1 H1]].
    { constructor; [|constructor]. specialize (HL k). rewrite Forall_forall in HL. now apply HL. }
    rewrite E1. specialize (H1 a). unfold osum in H1. rewrite H1. cbn. ring.
  - exists m'. split; [exact E|]. intros a. rewrite H. apply Qplus_comp; [reflexivity|].
    rewrite qsum_map. cbn [fst snd]. rewrite qsum_list_prod. cbn [fst snd].
    match goal with |- _ == qsum ?F rows => transitivity (qsum F (flat_map (fun j => chunk size j rows) ks)) end;
      [|unfold ks; rewrite (chunks_all size rows n Hsize Hn); reflexivity].
    rewrite qsum_flat_map. apply qsum_ext. intros k.
    rewrite qsum_swap. apply qsum_ext_in. intros r Hr. specialize (HL k). rewrite Forall_forall in HL.
    rewrite <- (lz_deposit_vis (snd r / lz_integral w) a (fst r) (HL r Hr)). apply qsum_ext. intros i.
    destruct (lz_add_ignore [r] i) as [ops1 [E1 H1]].
    { constructor; [|constructor]. now apply HL. }
    rewrite E1. specialize (H1 a). unfold osum in H1. rewrite H1. cbn. ring.
Qed.
Definition lz_fits (x : list Q) : Prop := Forall (fun iq => inb (ar_shape real) (fst iq) = true) (cart (pts x)).
Lemma lz_fits_at x : length x = nd ->
  (lz_fits x <-> forall i, In i (zrange 0 (Nat.pow b nd)) -> inb (ar_shape real) (fst (at_ i x)) = true).
Proof.
  intros Hx. unfold lz_fits. assert (HP := lz_vis_all x Hx).
  assert (E : Forall (fun iq => inb (ar_shape real) (fst iq) = true) (cart (pts x)) <->
              Forall (fun iq => inb (ar_shape real) (fst iq) = true) (map (fun i => at_ i x) (zrange 0 (Nat.pow b nd)))).
  { split; apply Permutation_Forall; [now symmetry|exact HP]. }
  rewrite E, Forall_map, Forall_forall. reflexivity.
Qed.
Lemma lz_fits_dec x : {lz_fits x} + {~ lz_fits x}.
Proof. unfold lz_fits. apply Forall_dec. intros iq. destruct inb; [now left|now right]. Qed.
Lemma lz_loop_raise rows size n m : (0 < size)%nat -> length rows = n -> Forall (fun r => length (fst r) = nd) rows ->
  let loop raise := until_none (step rows size raise) (list_prod (seq 0 (chunk_count size n)) (lz_neighbours s nd)) m in
  (Forall (fun r => lz_fits (fst r)) rows -> loop true = loop false) /\
  (~ Forall (fun r => lz_fits (fst r)) rows -> snd (loop true) = false).
Proof.
  intros Hsize Hn HF. cbv zeta.
  assert (HL : forall k, Forall (fun r => length (fst r) = nd) (chunk size k rows)).
  { intros k. rewrite Forall_forall in *. intros r Hr. apply HF. eapply chunk_in, Hr. }
  split; intros H.
  - apply until_none_same. intros [k nb] Hkn. apply in_prod_iff in Hkn as [Hk Hb]. cbn [fst snd].
    apply in_map_iff in Hb as [i [<- Hi]].
    apply lz_add_raise; [apply HL|]. rewrite Forall_forall in *. intros r Hr.
    apply lz_fits_at; [apply HF; eapply chunk_in, Hr|apply H; eapply chunk_in, Hr|exact Hi].
  - assert (HE : exists r, In r rows /\ ~ lz_fits (fst r)).
    { clear - H. induction rows as [|r rows IH]; [exfalso; apply H; constructor|].
      destruct (lz_fits_dec (fst r)) as [D|D].
      - destruct IH as [r' [A B]]; [|exists r'; split; [now right|exact B]]. intros H'. apply H. now constructor.
      - exists r. split; [now left|exact D]. }
    destruct HE as [r [Hr Hb]]. rewrite Forall_forall in HF.
    assert (HI : exists i, In i (zrange 0 (Nat.pow b nd)) /\ inb (ar_shape real) (fst (at_ i (fst r))) = false).
    { destruct (Exists_dec (fun i => inb (ar_shape real) (fst (at_ i (fst r))) = false) (zrange 0 (Nat.pow b nd))) as [D|D].
      - intros i. destruct inb; [now right|now left].
      - apply Exists_exists in D. exact D.
      - exfalso. apply Hb. apply lz_fits_at; [now apply HF|]. intros i Hi.
        destruct (inb _ (fst (at_ i (fst r)))) eqn:E; [reflexivity|]. exfalso. apply D. apply Exists_exists. eauto. }
    destruct HI as [i [Hi Hib]]. destruct (chunks_in size rows n r Hsize Hn Hr) as [k [Hk Hkr]].
    apply (until_none_bad _ _ (k, lz_digits s 0 nd i)).
    + apply in_prod_iff. split; [exact Hk|]. apply in_map_iff. exists i. split; [reflexivity|exact Hi].
    + cbn [fst snd]. apply lz_add_raise; [apply HL|]. intros HH. rewrite Forall_forall in HH.
      specialize (HH r Hkr). cbn beta in HH. congruence.
Qed.
End Numpy.
End Any.

(** ** Statements *)
(** the index of the mesh where the point [j] of axis [d] is *)
Definition image (period : option (list Z)) (d : nat) (j : Z) : Z :=
  match period with None => j | Some p => (j mod nth d p 0)%Z end.
(** the [2 * support] mesh points around the coordinate [x] *)
Definition around (w : lz_window) (x : Q) : list Z :=
  zrange (Qfloor x - Z.of_nat (lz_support w) + 1) (2 * lz_support w).
(** all mesh points around the particle, on all axes, are in the mesh *)
Definition all_inside (w : lz_window) (shape : list Z) (period : option (list Z)) (x : list Q) : Prop :=
  forall d j, (d < length shape)%nat -> In j (around w (nth d x 0)) -> (0 <= image period d j < nth d shape 0)%Z.
(** the part of the particle that goes to index [i] of axis [d] *)
Definition axis_weight (w : lz_window) (period : option (list Z)) (d : nat) (x : Q) (i : Z) : Q :=
  qsum (fun j => if (image period d j =? i)%Z then lz_kernel w (x - inject_Z j) else 0) (around w x).

Lemma zrange_map n : forall a e, zrange (a + e) n = map (fun k => (a + k)%Z) (zrange e n).
Proof. induction n as [|n IH]; intros a e; cbn [zrange map]; [reflexivity|]. f_equal. rewrite <- IH. f_equal. lia. Qed.
Lemma lz_line_around w p x : lz_line w p x = map (fun j => (wz p j, lz_kernel w (x - inject_Z j))) (around w x).
Proof.
  unfold lz_line, around. replace (Qfloor x - Z.of_nat (lz_support w) + 1)%Z with (Qfloor x - (Z.of_nat (lz_support w) - 1) + 0)%Z by lia.
  rewrite zrange_map, map_map. apply map_ext. intros e.
  replace (Qfloor x + (e - (Z.of_nat (lz_support w) - 1)))%Z with (Qfloor x - (Z.of_nat (lz_support w) - 1) + e)%Z by lia. reflexivity.
Qed.
Lemma wz_image nd period d j : periods_fit nd period -> (d < nd)%nat -> wz (nth d (nb_period nd period) 0%Z) j = image period d j.
Proof.
  intros Hp Hd. unfold image. destruct period as [p|]; cbn [nb_period].
  - destruct Hp as [Hl HF]. unfold wz. rewrite Forall_forall in HF.
    assert (0 < nth d p 0)%Z by (apply HF, nth_In; lia). destruct (Z.gtb_spec (nth d p 0%Z) 0); [reflexivity|lia].
  - rewrite nth_repeat. reflexivity.
Qed.
Lemma cart_inb (f : Z -> Q -> list (Z * Q)) (Hne : forall p x, f p x <> []) shape : forall period x, length period = length shape -> length x = length shape ->
  (Forall (fun iq => inb shape (fst iq) = true) (cart (lines f period x)) <->
   forall d jq, (d < length shape)%nat -> In jq (f (nth d period 0%Z) (nth d x 0)) -> (0 <= fst jq < nth d shape 0)%Z).
Proof.
  induction shape as [|n shape IH]; intros [|p period] [|y x] Hp Hx; try discriminate.
  - split; [intros _ d e Hd; cbn in Hd; lia|]. intros _. cbn. repeat constructor.
  - injection Hp as Hp. injection Hx as Hx. specialize (IH period x Hp Hx).
    assert (Hc : exists iq, In iq (cart (lines f period x))).
    { clear - Hne. revert x. induction period as [|p period IH]; intros [|y x]; try (eexists; left; reflexivity).
      destruct (IH x) as [iq Hi]. cbn [lines cart]. destruct (f p y) as [|jq l] eqn:E; [now elim (Hne p y)|].
      eexists. cbn [flat_map]. apply in_or_app. left. apply in_map_iff. exists iq. split; [reflexivity|exact Hi]. }
    cbn [lines cart]. rewrite Forall_forall in IH. rewrite Forall_forall. split.
    + intros H [|d] jq Hd Hj; cbn [nth] in *.
      * destruct Hc as [iq Hi]. specialize (H (fst jq :: fst iq, snd jq * snd iq)).
        cbn [fst inb] in H. rewrite !andb_true_iff, Z.leb_le, Z.ltb_lt in H. apply H.
        apply in_flat_map. exists jq. split; [exact Hj|]. apply in_map_iff. exists iq. split; [reflexivity|exact Hi].
      * apply (proj1 IH); [|cbn in Hd; lia|exact Hj]. intros iq Hi.
        destruct (f p y) as [|jq0 l] eqn:E; [now elim (Hne p y)|]. specialize (H (fst jq0 :: fst iq, snd jq0 * snd iq)).
        cbn [fst inb] in H. rewrite andb_true_iff in H. apply H. apply in_flat_map. exists jq0. split; [now left|].
        apply in_map_iff. exists iq. split; [reflexivity|exact Hi].
    + intros H iq Hi. apply in_flat_map in Hi as [jq [Hj Hi]]. apply in_map_iff in Hi as [r [<- Hr]]. cbn [fst inb].
      rewrite !andb_true_iff, Z.leb_le, Z.ltb_lt. split; [apply (H 0%nat jq); [cbn; lia|exact Hj]|].
      apply (proj2 IH); [|exact Hr]. intros d jq' Hd Hj'. apply (H (S d) jq'); [cbn; lia|exact Hj'].
Qed.
Lemma all_inside_fits w real period x : (0 < lz_support w)%nat -> periods_fit (length (ar_shape real)) period -> length x = length (ar_shape real) ->
  (all_inside w (ar_shape real) period x <-> lz_fits w real period x).
Proof.
  intros Hs Hp Hx. unfold lz_fits. rewrite cart_inb.
  - unfold all_inside. split.
    + intros H d jq Hd Hj. rewrite lz_line_around in Hj. apply in_map_iff in Hj as [j [<- Hj]]. cbn [fst].
      rewrite (wz_image (length (ar_shape real))) by assumption. now apply H.
    + intros H d j Hd Hj. rewrite <- (wz_image (length (ar_shape real))) by assumption.
      apply (H d (wz (nth d (nb_period (length (ar_shape real)) period) 0%Z) j, lz_kernel w (nth d x 0 - inject_Z j)) Hd).
      rewrite lz_line_around. apply in_map_iff. eauto.
  - intros p y E. apply (f_equal (@length _)) in E. rewrite lz_line_length in E. cbn [length] in E. lia.
  - now apply nb_period_length.
  - exact Hx.
Qed.
Lemma spread_axes (f : Z -> Q -> list (Z * Q)) : forall period x idx, length period = length idx -> length x = length idx ->
  spread (lines f period x) idx == qprod (map (fun d => wsum (f (nth d period 0%Z) (nth d x 0)) (nth d idx 0%Z)) (seq 0 (length idx))).
Proof.
  intros period x idx. revert period x. induction idx as [|i idx IH]; intros [|p period] [|y x] Hp Hx; try discriminate; [reflexivity|].
  cbn [lines spread length seq map qprod nth]. rewrite <- seq_shift, map_map. apply Qmult_comp; [reflexivity|]. apply IH; [now injection Hp|now injection Hx].
Qed.
Lemma deposit_elem real c pts idx : length pts = length (ar_shape real) -> no_overlap real -> In idx (elements real) ->
  deposit real c (byte_offset (ar_strides real) idx) pts == c * spread pts idx.
Proof.
  intros HL HO Hi. rewrite deposit_spread by exact HL. rewrite (qsum_single _ _ idx).
  - rewrite Z.eqb_refl. reflexivity.
  - apply elements_nodup.
  - exact Hi.
  - intros b Hb Hn. destruct (Z.eqb_spec (byte_offset (ar_strides real) b) (byte_offset (ar_strides real) idx)) as [E|]; [|reflexivity].
    elim Hn. now apply HO.
Qed.
Lemma cart_total pts : qsum snd (cart pts) == qprod (map (qsum snd) pts).
Proof.
  induction pts as [|l pts IH]; [cbn; ring|]. cbn [cart map qprod]. rewrite qsum_flat_map, <- IH, <- qsum_scale_r. apply qsum_ext. intros jq.
  rewrite qsum_map. cbn [snd]. apply qsum_scale.
Qed.
Lemma deposit_total real c pts : length pts = length (ar_shape real) -> no_overlap real ->
  Forall (fun iq => inb (ar_shape real) (fst iq) = true) (cart pts) ->
  qsum (fun idx => deposit real c (byte_offset (ar_strides real) idx) pts) (elements real) == c * qprod (map (qsum snd) pts).
Proof.
  intros HL HO HF. unfold deposit. rewrite qsum_swap, <- cart_total, <- qsum_scale. apply qsum_ext_in. intros iq Hi.
  rewrite Forall_forall in HF. specialize (HF iq Hi). cbn beta in HF. assert (Hl := cart_length _ _ Hi).
  assert (Hin : In (fst iq) (elements real)) by (apply in_elements_inb; split; [congruence|exact HF]).
  rewrite (qsum_single _ _ (fst iq)).
  - unfold part. rewrite HF, Z.eqb_refl. reflexivity.
  - apply elements_nodup.
  - exact Hin.
  - intros b Hb Hn. unfold part. rewrite HF. destruct (Z.eqb_spec (byte_offset (ar_strides real) (fst iq)) (byte_offset (ar_strides real) b)) as [E|]; [|reflexivity].
    elim Hn. symmetry. now apply HO.
Qed.

Section Paint.
Variables (w : lz_window) (real : array) (period : option (list Z)) (transform : list Q -> list Q).
Local Notation nd := (length (ar_shape real)).
Hypothesis (Hw : (0 < lz_support w)%nat) (Hreal : array_ok real) (Hper : periods_fit nd period).
Variables (m : memory) (pos : list (list Q)) (weights : value Q) (size : nat).
Hypothesis (Hpos : wf_pos real (map transform pos)) (Hweights : weights_fit weights (length pos)) (Hsize : (0 < size)%nat).
Local Notation rows := (combine (map transform pos) (weights_of weights (length pos))).
Local Lemma lz_rows : length rows = length pos /\ Forall (fun r => length (fst r) = nd) rows.
Proof.
  assert (L : length (weights_of weights (length pos)) = length pos) by (rewrite weights_of_values; now apply values_of_length).
  split; [rewrite combine_length, map_length, L; lia|]. apply Forall_forall. intros [x q] Hr. apply in_combine_l in Hr.
  unfold wf_pos in Hpos. rewrite Forall_forall in Hpos. now apply Hpos.
Qed.
Local Lemma lz_paint_rows : exists m', lz_paint w size real m pos weights false period transform = (m', Ret tt) /\
  forall a, m' a == m a + qsum (fun r => deposit real (snd r / lz_integral w) a (lines (lz_line w) (nb_period nd period) (fst r))) rows.
Proof.
  destruct lz_rows as [HL HF].
  destruct (lz_loop_ignore w Hw real period ltac:(apply Hreal) Hper rows size (length pos) Hsize HL HF m) as [m' [E H]].
  exists m'. split; [|exact H]. unfold lz_paint. rewrite E. reflexivity.
Qed.
(** Mode "ignore": every element gets, from each particle, the weight over [integral] times
    the product over the axes of the kernel at the points around the particle that are
    wrapped to the element; nothing else in the memory changes *)
Theorem C84_paint : exists m', lz_paint w size real m pos weights false period transform = (m', Ret tt) /\
  (forall idx, In idx (elements real) ->
     elem real m' idx == elem real m idx +
       qsum (fun r => snd r / lz_integral w * qprod (map (fun d => axis_weight w period d (nth d (fst r) 0) (nth d idx 0%Z)) (seq 0 nd))) rows) /\
  (forall a, (forall idx, In idx (elements real) -> byte_offset (ar_strides real) idx <> a) -> m' a == m a).
Proof.
  destruct lz_paint_rows as [m' [E H]]. destruct lz_rows as [_ HF]. rewrite Forall_forall in HF.
  exists m'. split; [exact E|]. split.
  - intros idx Hi. unfold elem. rewrite H. apply Qplus_comp; [reflexivity|]. apply qsum_ext_in. intros r Hr. specialize (HF r Hr).
    rewrite deposit_elem; [|rewrite lines_length; [exact HF|rewrite nb_period_length by exact Hper; now symmetry]|apply Hreal|exact Hi].
    apply Qmult_comp; [reflexivity|]. apply in_elements_inb in Hi as [Hl _].
    rewrite spread_axes by (rewrite ?nb_period_length by exact Hper; congruence). rewrite Hl.
    apply qprod_ext, F2_map. intros d Hd. apply in_seq in Hd. unfold wsum, axis_weight. rewrite lz_line_around, qsum_map. cbn [fst snd].
    apply qsum_ext. intros j. rewrite (wz_image nd) by (assumption || lia). reflexivity.
  - intros a Ha. rewrite H, qsum_zero; [ring|]. intros r Hr. specialize (HF r Hr).
    rewrite deposit_spread by (rewrite lines_length; [exact HF|rewrite nb_period_length by exact Hper; now symmetry]).
    apply qsum_zero. intros idx Hi. destruct (Z.eqb_spec (byte_offset (ar_strides real) idx) a) as [Eq|]; [now elim (Ha idx Hi)|reflexivity].
Qed.
(** Mode "raise": ValueError when a point around one of the particles is outside of the mesh,
    otherwise the same as mode "ignore" *)
Theorem C84_raise :
  (Forall (fun x => all_inside w (ar_shape real) period (transform x)) pos ->
     lz_paint w size real m pos weights true period transform = lz_paint w size real m pos weights false period transform) /\
  (~ Forall (fun x => all_inside w (ar_shape real) period (transform x)) pos ->
     snd (lz_paint w size real m pos weights true period transform) = Raise ValueError).
Proof.
  destruct lz_rows as [HL HF].
  assert (EF : Forall (fun x => all_inside w (ar_shape real) period (transform x)) pos <-> Forall (fun r => lz_fits w real period (fst r)) rows).
  { assert (Ef : map fst rows = map transform pos).
    { apply map_fst_combine. rewrite map_length, weights_of_values, values_of_length by exact Hweights. lia. }
    rewrite <- (Forall_map fst (lz_fits w real period)), Ef, Forall_map. unfold wf_pos in Hpos. rewrite Forall_map, Forall_forall in Hpos.
    rewrite !Forall_forall. split; intros H x Hx; specialize (H x Hx); apply all_inside_fits; auto. }
  destruct (lz_loop_raise w Hw real period ltac:(apply Hreal) Hper rows size (length pos) m Hsize HL HF) as [N1 N2].
  unfold lz_paint. rewrite EF. split; intros H.
  - now rewrite (N1 H).
  - specialize (N2 H). cbv beta in N2. rewrite (surjective_pairing (until_none _ _ _)), N2. reflexivity.
Qed.
(** On a periodic mesh the total grows by the weights, each over [integral] and times the sum
    of the kernel on every axis *)
Theorem C84_mass : period = Some (ar_shape real) ->
  exists m', lz_paint w size real m pos weights true period transform = (m', Ret tt) /\
    total real m' == total real m +
      qsum (fun r => snd r / lz_integral w * qprod (map (fun x => qsum (fun j => lz_kernel w (x - inject_Z j)) (around w x)) (fst r))) rows.
Proof.
  intros Ep. destruct lz_rows as [_ HF]. rewrite Forall_forall in HF. destruct lz_paint_rows as [m' [E H]].
  assert (HI : Forall (fun x => all_inside w (ar_shape real) period (transform x)) pos).
  { apply Forall_forall. intros x _ d j Hd _. rewrite Ep. cbn [image]. rewrite Ep in Hper. destruct Hper as [_ HP]. rewrite Forall_forall in HP.
    apply Z.mod_pos_bound. apply HP, nth_In, Hd. }
  exists m'. split; [rewrite (proj1 C84_raise HI); exact E|].
  unfold total. unfold elem at 1. rewrite (qsum_ext _ _ _ (fun idx => H (byte_offset (ar_strides real) idx))).
  rewrite qsum_plus. apply Qplus_comp; [reflexivity|]. rewrite qsum_swap. apply qsum_ext_in. intros r Hr. specialize (HF r Hr).
  rewrite deposit_total.
  - apply Qmult_comp; [reflexivity|]. rewrite Ep. cbn [nb_period]. clear - HF. revert HF. generalize (ar_shape real), (fst r). intros p x. revert p.
    induction x as [|y x IH]; intros [|q p] L; try discriminate; [reflexivity|]. cbn [lines map qprod]. rewrite IH by now injection L.
    rewrite lz_line_around, qsum_map. reflexivity.
  - rewrite lines_length; [exact HF|rewrite nb_period_length by exact Hper; now symmetry].
  - apply Hreal.
  - assert (F := HI). rewrite Forall_forall in F. destruct r as [x q]. cbn [fst] in *. apply in_combine_l in Hr. apply in_map_iff in Hr as [x0 [<- Hx]].
    apply (proj1 (all_inside_fits w real period (transform x0) Hw Hper HF) (F x0 Hx)).
Qed.
End Paint.

(** ** The linear window *)
Lemma lz_bits nd d i : lz_digits 1 d nd i = bits d nd i.
Proof.
  unfold lz_digits, bits. apply map_ext. intros e. change (2 * Z.of_nat 1)%Z with 2%Z. rewrite Z.sub_0_r.
  rewrite <- Z.shiftr_div_pow2 by lia. change 1%Z with (Z.ones 1). rewrite Z.land_ones by lia. reflexivity.
Qed.
Lemma lz_neighbours_one nd : lz_neighbours 1 nd = neighbours nd.
Proof. unfold lz_neighbours, neighbours. cbn [Nat.mul Nat.add]. apply map_ext. intros i. apply lz_bits. Qed.
Lemma neighbours_01 nd nb : In nb (neighbours nd) -> Forall (fun e => e = 0 \/ e = 1)%Z nb.
Proof.
  intros H. apply in_map_iff in H as [i [<- _]]. apply Forall_map, Forall_forall. intros d _.
  assert (E : (Z.land (Z.shiftr i (Z.of_nat d)) 1 = Z.shiftr i (Z.of_nat d) mod 2)%Z) by (change 1%Z with (Z.ones 1); rewrite Z.land_ones by lia; reflexivity).
  rewrite E. pose proof (Z.mod_pos_bound (Z.shiftr i (Z.of_nat d)) 2). lia.
Qed.
Lemma linear_step x e : (e = 0 \/ e = 1)%Z ->
  lz_linear_kernel (x - inject_Z (Qfloor x + e)) == 1 - Qabs (x - inject_Z (Qfloor x + e)).
Proof.
  intros He. unfold lz_linear_kernel. cbv zeta. destruct (Qltb_case 1 (Qabs (x - inject_Z (Qfloor x + e)))) as [H|H]; [|reflexivity].
  exfalso. pose proof (Qfloor_bounds x) as B. rewrite inject_Z_plus in H.
  destruct He as [-> | ->]; [change (inject_Z 0) with 0 in H|change (inject_Z 1) with 1 in H]; revert H; qsplit; lra.
Qed.
Lemma linear_product grid nb : Forall (fun e => e = 0 \/ e = 1)%Z nb -> forall k k', k == k' ->
  fold_left (fun k gn => k * lz_linear_kernel (fst gn - inject_Z (Qfloor (fst gn) + snd gn))) (combine grid nb) k ==
  fold_left (fun k gn => k * (1 - Qabs (fst gn - inject_Z (Qfloor (fst gn) + snd gn)))) (combine grid nb) k'.
Proof.
  intros H. revert grid. induction H as [|e nb He Hn IH]; intros [|x grid] k k' E; try exact E.
  cbn [combine fold_left fst snd]. apply IH. rewrite E, (linear_step x e He). reflexivity.
Qed.
Lemma until_none_alike {A} (f g : A -> option (list op)) l :
  (forall x, In x l -> match f x, g x with Some o, Some o' => forall a, osum o a == osum o' a | None, None => True | _, _ => False end) ->
  forall m m', (forall a, m a == m' a) ->
  snd (until_none f l m) = snd (until_none g l m') /\ forall a, fst (until_none f l m) a == fst (until_none g l m') a.
Proof.
  induction l as [|x l IH]; intros H m m' E; [split; [reflexivity|exact E]|]. cbn [until_none].
  assert (Hx := H x (or_introl eq_refl)). destruct (f x) as [o|], (g x) as [o'|]; try contradiction.
  - apply IH; [intros y Hy; apply H; now right|]. intros a. rewrite !run_osum, E, Hx. reflexivity.
  - split; [reflexivity|exact E].
Qed.
Lemma kept_alike (shape : list Z) raise T T' : Forall2 (fun t t' => fst t = fst t' /\ snd t == snd t') T T' ->
  Forall2 (fun t t' : list Z * Q => fst t = fst t' /\ snd t == snd t')
   (if raise : bool then T else filter (fun t => in_shape shape (fst t)) T) (if raise then T' else filter (fun t => in_shape shape (fst t)) T').
Proof.
  intros H. destruct raise; [exact H|]. induction H as [|t t' T T' Ht _ IH]; cbn [filter]; [constructor|].
  rewrite (proj1 Ht). destruct in_shape; [constructor; assumption|exact IH].
Qed.
Lemma scatter_alike real (K K' : list (list Z * Q)) : Forall2 (fun t t' => fst t = fst t' /\ snd t == snd t') K K' ->
  let ops K := match sequence (map (fun t => ravel_multi_index (ar_shape real) (fst t)) K) with
    | None => None
    | Some index => let u := np_unique index in
        Some (map (fun us => (flat_address real (fst us), snd us)) (combine u (bincount (map (fun i => position_of i u) index) (map snd K) (length u))))
    end in
  match ops K, ops K' with Some o, Some o' => forall a, osum o a == osum o' a | None, None => True | _, _ => False end.
Proof.
  intros H ops. unfold ops. clear ops.
  assert (E : map (fun t => ravel_multi_index (ar_shape real) (fst t)) K = map (fun t => ravel_multi_index (ar_shape real) (fst t)) K').
  { induction H as [|t t' K K' [Ht _] _ IH]; cbn [map]; [reflexivity|]. now rewrite Ht, IH. }
  rewrite E. destruct sequence as [index|]; [|exact I]. cbv zeta. intros a.
  rewrite !bincount_sum by (intros j Hj; now apply in_np_unique).
  assert (HF : Forall2 Qeq (map snd K) (map snd K')).
  { clear E. induction H as [|t t' K K' [_ Ht] _ IH]; cbn [map]; constructor; assumption. }
  clear - HF. revert index. generalize dependent (map snd K'). generalize (map snd K). intros L L' HF.
  induction HF as [|q q' L L' Hq _ IH]; intros [|i index]; cbn [combine]; try reflexivity. rewrite !qsum_cons, IH. cbn [fst snd]. destruct (_ =? a)%Z; [|reflexivity].
  now rewrite Hq.
Qed.
(** With the linear window this is the painter of cic.py (hence the cic window, C77): the same
    outcome and the same memory, after an error too, for all positions and arguments *)
Theorem C84_linear size real m pos weights raise period transform :
  let lz := lz_paint lz_linear size real m pos weights raise period transform in
  let np := np_paint size real m pos weights raise period transform in
  snd lz = snd np /\ forall a, fst lz a == fst np a.
Proof.
  cbv zeta. unfold lz_paint, np_paint. cbn [lz_support lz_linear]. rewrite lz_neighbours_one.
  set (rows := combine (map transform pos) _). set (L := list_prod _ _).
  destruct (until_none_alike (fun kn => lz_add lz_linear real raise period (chunk size (fst kn) rows) (snd kn))
    (fun kn => np_add real raise period (chunk size (fst kn) rows) (snd kn)) L) with (m := m) (m' := m) as [E1 E2].
  - intros [k nb] Hk. cbn [fst snd]. apply in_prod_iff in Hk as [_ Hk]. apply neighbours_01 in Hk.
    unfold lz_add, np_add. apply scatter_alike. apply kept_alike.
    induction (chunk size k rows) as [|r l IH]; cbn [map]; constructor; [|exact IH]. cbn [fst snd]. split; [reflexivity|].
    apply Qmult_comp; [reflexivity|]. unfold lz_product, np_kernel, lz_linear. cbn [lz_kernel lz_integral].
    rewrite (linear_product (fst r) nb Hk 1 1 (Qeq_refl 1)). field.
  - reflexivity.
  - rewrite (surjective_pairing (until_none (fun kn => lz_add _ _ _ _ _ _) L m)), (surjective_pairing (until_none (fun kn => np_add _ _ _ _ _) L m)).
    cbn [fst snd]. rewrite E1. split; [reflexivity|exact E2].
Qed.

(** ** Sums of the kernels *)
Lemma around_linear x : around lz_linear x = [Qfloor x; Qfloor x + 1]%Z.
Proof. unfold around. cbn [lz_support lz_linear Nat.mul Nat.add zrange Z.of_nat Pos.of_succ_nat]. f_equal; [|f_equal]; lia. Qed.
Lemma around_cubic x : around lz_cubic x = [Qfloor x - 1; Qfloor x; Qfloor x + 1; Qfloor x + 2]%Z.
Proof. unfold around. cbn [lz_support lz_cubic Nat.mul Nat.add zrange Z.of_nat Pos.of_succ_nat Pos.succ]. f_equal; [|f_equal; [|f_equal; [|f_equal]]]; lia. Qed.
Lemma linear_kernel_in y : -(1) <= y <= 1 -> (0 <= y -> lz_linear_kernel y == 1 - y) /\ (y <= 0 -> lz_linear_kernel y == 1 + y).
Proof. intros H. unfold lz_linear_kernel. cbv zeta. split; intros H'; qsplit; lra. Qed.
Definition cubic_near (y : Q) : Q := (3#2) * (y * y * y) - (5#2) * (y * y) + 1.
Definition cubic_far (y : Q) : Q := -(1#2) * (y * y * y) + (5#2) * (y * y) - 4 * y + 2.
Lemma cubic_near_in y : Qabs y <= 1 -> lz_cubic_kernel (-(1#2)) y == cubic_near (Qabs y).
Proof.
  intros H. unfold lz_cubic_kernel, cubic_near. cbv zeta.
  destruct (Qltb_case 2 (Qabs y)) as [H2|H2]; [lra|]. destruct (Qle_bool_case 1 (Qabs y)) as [H1|H1]; [|ring].
  assert (E : Qabs y == 1) by lra. rewrite E. reflexivity.
Qed.
Lemma cubic_far_in y : 1 <= Qabs y <= 2 -> lz_cubic_kernel (-(1#2)) y == cubic_far (Qabs y).
Proof.
  intros H. unfold lz_cubic_kernel, cubic_far. cbv zeta.
  destruct (Qltb_case 2 (Qabs y)) as [H2|H2]; [lra|]. destruct (Qle_bool_case 1 (Qabs y)) as [H1|H1]; [ring|lra].
Qed.
Lemma cubic_poly p q : p == q -> cubic_near p == cubic_near q /\ cubic_far p == cubic_far q.
Proof. intros H. unfold cubic_near, cubic_far. now rewrite H. Qed.
Lemma cubic_values x : let f := x - inject_Z (Qfloor x) in
  lz_cubic_kernel (-(1#2)) (x - inject_Z (Qfloor x - 1)) == cubic_far (1 + f) /\
  lz_cubic_kernel (-(1#2)) (x - inject_Z (Qfloor x)) == cubic_near f /\
  lz_cubic_kernel (-(1#2)) (x - inject_Z (Qfloor x + 1)) == cubic_near (1 - f) /\
  lz_cubic_kernel (-(1#2)) (x - inject_Z (Qfloor x + 2)) == cubic_far (2 - f).
Proof.
  intros f. pose proof (Qfloor_bounds x) as B.
  assert (A1 : Qabs (x - inject_Z (Qfloor x - 1)) == 1 + f).
  { unfold Z.sub. rewrite inject_Z_plus. change (inject_Z (-(1))) with (- (1)). rewrite Qabs_pos; unfold f; lra. }
  assert (A2 : Qabs (x - inject_Z (Qfloor x)) == f) by (rewrite Qabs_pos; unfold f; lra).
  assert (A3 : Qabs (x - inject_Z (Qfloor x + 1)) == 1 - f).
  { rewrite inject_Z_plus. change (inject_Z 1) with 1. rewrite Qabs_neg; unfold f; lra. }
  assert (A4 : Qabs (x - inject_Z (Qfloor x + 2)) == 2 - f).
  { rewrite inject_Z_plus. change (inject_Z 2) with 2. rewrite Qabs_neg; unfold f; lra. }
  assert (F : 0 <= f <= 1) by (unfold f; lra). clearbody f.
  rewrite cubic_far_in, cubic_near_in, cubic_near_in, cubic_far_in by lra.
  rewrite (proj2 (cubic_poly _ _ A1)), (proj1 (cubic_poly _ _ A2)), (proj1 (cubic_poly _ _ A3)), (proj2 (cubic_poly _ _ A4)).
  repeat split; reflexivity.
Qed.
(** The linear window reproduces linear functions, the cubic window quadratic ones *)
Theorem C84_exact x a b c :
  qsum (fun j => lz_kernel lz_linear (x - inject_Z j) * (a + b * inject_Z j)) (around lz_linear x) == a + b * x /\
  qsum (fun j => lz_kernel lz_cubic (x - inject_Z j) * (a + b * inject_Z j + c * (inject_Z j * inject_Z j))) (around lz_cubic x) ==
    a + b * x + c * (x * x).
Proof.
  rewrite around_linear, around_cubic, !qsum_cons, !qsum_nil. cbn [lz_kernel lz_linear lz_cubic]. split.
  - pose proof (Qfloor_bounds x) as B.
    rewrite (proj1 (linear_kernel_in (x - inject_Z (Qfloor x)) ltac:(lra))) by lra.
    rewrite (proj2 (linear_kernel_in (x - inject_Z (Qfloor x + 1)) ltac:(rewrite inject_Z_plus; change (inject_Z 1) with 1; lra)))
      by (rewrite inject_Z_plus; change (inject_Z 1) with 1; lra).
    rewrite inject_Z_plus. change (inject_Z 1) with 1. ring.
  - destruct (cubic_values x) as [-> [-> [-> ->]]]. unfold cubic_far, cubic_near, Z.sub. rewrite !inject_Z_plus.
    change (inject_Z (-(1))) with (- (1)). change (inject_Z 1) with 1. change (inject_Z 2) with 2. field.
Qed.
Lemma window_unit w : w = lz_linear \/ w = lz_cubic -> forall x, qsum (fun j => lz_kernel w (x - inject_Z j)) (around w x) == 1.
Proof.
  intros H x. destruct (C84_exact x 1 0 0) as [E1 E2]. destruct H as [-> | ->].
  - transitivity (1 + 0 * x); [|ring]. rewrite <- E1. apply qsum_ext. intros j. ring.
  - transitivity (1 + 0 * x + 0 * (x * x)); [|ring]. rewrite <- E2. apply qsum_ext. intros j. ring.
Qed.
Lemma qprod_const c l : Forall (fun x => x == c) l -> qprod l == qprod (repeat c (length l)).
Proof. induction 1 as [|x l H _ IH]; [reflexivity|]. cbn [qprod length repeat]. now rewrite H, IH. Qed.

Section Mass.
Variables (w : lz_window) (real : array) (transform : list Q -> list Q).
Local Notation nd := (length (ar_shape real)).
Hypothesis (Hw : (0 < lz_support w)%nat) (Hreal : array_ok real) (Hshape : Forall (fun n => 0 < n)%Z (ar_shape real)).
Variables (m : memory) (pos : list (list Q)) (weights : value Q) (size : nat).
Hypothesis (Hpos : wf_pos real (map transform pos)) (Hweights : weights_fit weights (length pos)) (Hsize : (0 < size)%nat).
(** A window whose values around any point sum to its [integral]: the painted mass is the
    mass of the particles times [integral] to the power of the dimension less one *)
Theorem C84_constant c : ~ c == 0 -> lz_integral w == c -> (forall x, qsum (fun j => lz_kernel w (x - inject_Z j)) (around w x) == c) ->
  exists m', lz_paint w size real m pos weights true (Some (ar_shape real)) transform = (m', Ret tt) /\
    total real m' == total real m + qsum (fun q => q) (weights_of weights (length pos)) * qprod (repeat c (nd - 1)).
Proof.
  intros Hc Hi Hk.
  destruct (C84_mass w real (Some (ar_shape real)) transform Hw Hreal (conj eq_refl Hshape) m pos weights size Hpos Hweights Hsize eq_refl) as [m' [E H]].
  exists m'. split; [exact E|]. rewrite H. apply Qplus_comp; [reflexivity|].
  assert (L : length (weights_of weights (length pos)) = length (map transform pos)) by (rewrite weights_of_values, map_length; now apply values_of_length).
  assert (F : Forall (fun r => length (fst r) = nd) (combine (map transform pos) (weights_of weights (length pos)))).
  { apply Forall_forall. intros [x q] Hr. apply in_combine_l in Hr. unfold wf_pos in Hpos. rewrite Forall_forall in Hpos. now apply Hpos. }
  rewrite (qsum_ext_in _ (fun r => snd r * qprod (repeat c (nd - 1)))).
  - rewrite qsum_scale_r. apply Qmult_comp; [|reflexivity]. clear - L. revert L. generalize (weights_of weights (length pos)), (map transform pos).
    intros l k. revert l. induction k as [|x k IH]; intros [|q l] L; try discriminate; [reflexivity|]. cbn [combine]. rewrite !qsum_cons, IH by now injection L. reflexivity.
  - intros r Hr. rewrite Forall_forall in F. specialize (F r Hr). cbn beta in F.
    rewrite (qprod_const c); [|apply Forall_map, Forall_forall; intros x _; apply Hk]. rewrite map_length, F, Hi.
    assert (0 < nd)%nat by apply Hreal. destruct nd as [|n]; [lia|]. replace (S n - 1)%nat with n by lia. cbn [repeat qprod]. field. exact Hc.
Qed.
(** The linear and the cubic window conserve mass *)
Theorem C84_conserved : w = lz_linear \/ w = lz_cubic ->
  exists m', lz_paint w size real m pos weights true (Some (ar_shape real)) transform = (m', Ret tt) /\
    total real m' == total real m + qsum (fun q => q) (weights_of weights (length pos)).
Proof.
  intros H. destruct (C84_constant 1) as [m' [E T]].
  - discriminate.
  - destruct H as [-> | ->]; reflexivity.
  - now apply window_unit.
  - exists m'. split; [exact E|]. rewrite T, qprod_ones by (apply Forall_forall; intros x Hx; apply repeat_spec in Hx; rewrite Hx; reflexivity). ring.
Qed.
End Mass.

(** ** Where it is not as expected *)
(** the attribute [integral] is the integral of the kernel on one axis, but the product of the
    kernels of all axes is only divided by it once: twice the linear kernel, with integral 2,
    paints 2 on a square mesh for a particle of weight one (and 1 on a line) *)
Definition twice_linear : lz_window := {| lz_kernel := fun x => 2 * lz_linear_kernel x; lz_support := 1; lz_integral := 2 |}.
Definition square : array := {| ar_shape := [2; 2]%Z; ar_strides := [16; 8]%Z |}.
Definition line : array := {| ar_shape := [2]%Z; ar_strides := [8]%Z |}.
Theorem C84_integral_refuted :
  (forall x, qsum (fun j => lz_kernel twice_linear (x - inject_Z j)) (around twice_linear x) == lz_integral twice_linear) /\
  total line (fst (lz_paint twice_linear 4 line (fun _ => 0) [[1#2]] (Scalar 1) true (Some [2]%Z) (fun x => x))) == 1 /\
  total square (fst (lz_paint twice_linear 4 square (fun _ => 0) [[1#2; 1#4]] (Scalar 1) true (Some [2; 2]%Z) (fun x => x))) == 2.
Proof.
  split; [|split; reflexivity]. intros x. unfold twice_linear at 1. cbn [lz_kernel]. rewrite qsum_scale.
  assert (E := window_unit lz_linear (or_introl eq_refl) x). change (around twice_linear x) with (around lz_linear x).
  cbn [lz_kernel lz_linear] in E. rewrite E. reflexivity.
Qed.
(** "kernels are implemented in window.py" (the deprecation warning): not this cubic.  It
    interpolates (a particle on a mesh point goes to that point) and has negative values; the
    one of window.py smooths *)
Definition octet : array := {| ar_shape := [8]%Z; ar_strides := [8]%Z |}.
Theorem C84_cubic_refuted :
  let lz x := fst (lz_paint lz_cubic 4 octet (fun _ => 0) [[x]] (Scalar 1) true (Some [8]%Z) (fun x => x)) in
  let win x := window_paint (ResampleWindow Cubic 0) octet (fun _ => 0) [[x]] None (Some (Scalar 1)) None (Some (mesh_units 1 0 [8]%Z)) in
  elem octet (lz 4) [4]%Z == 1 /\ (exists m0, win 4 = Ret m0 /\ elem octet m0 [4]%Z == 2#3) /\
  elem octet (lz (7#2)) [2]%Z == -(1#16) /\ (exists m0, win (7#2) = Ret m0 /\ elem octet m0 [2]%Z == 1#48).
Proof. cbv zeta. split; [reflexivity|]. split; [eexists; split; reflexivity|]. split; [reflexivity|]. eexists; split; reflexivity. Qed.

(** two particles on a 4x3 mesh, cubic window, in chunks of one particle *)
Definition mesh43 : array := {| ar_shape := [4; 3]%Z; ar_strides := [24; 8]%Z |}.
Example C84_case :
  (0 < lz_support lz_cubic)%nat /\ array_ok mesh43 /\ periods_fit 2 (Some [4; 3]%Z) /\ periods_fit 2 None /\
  wf_pos mesh43 (map double [[1#4; 1#2]; [5#4; 3#4]]) /\ weights_fit (Array [1; 2]) 2 /\
  Forall (fun x => all_inside lz_cubic [4; 3]%Z (Some [4; 3]%Z) (double x)) [[1#4; 1#2]; [5#4; 3#4]] /\
  ~ Forall (fun x => all_inside lz_cubic [4; 3]%Z None (double x)) [[1#4; 1#2]; [5#4; 3#4]] /\
  elem mesh43 (fst (lz_paint lz_cubic 1 mesh43 (fun _ => 0) [[1#4; 1#2]; [5#4; 3#4]] (Array [1; 2]) true (Some [4; 3]%Z) double)) [0; 1]%Z ==
    (9#16) + 2 * (-(1#16)) * ((9#16)) /\
  snd (lz_paint lz_cubic 1 mesh43 (fun _ => 0) [[1#4; 1#2]; [5#4; 3#4]] (Array [1; 2]) true None double) = Raise ValueError /\
  total mesh43 (fst (lz_paint lz_cubic 1 mesh43 (fun _ => 0) [[1#4; 1#2]; [5#4; 3#4]] (Array [1; 2]) true (Some [4; 3]%Z) double)) == 3.
Proof.
  split; [cbn; lia|]. split.
  { split; [cbn; lia|]. split; [reflexivity|].
    intros i j Hi Hj. apply in_elements_inb in Hi as [Hi1 Hi2], Hj as [Hj1 Hj2]. cbn [ar_shape mesh43 length] in *.
    destruct i as [|i1 [|i2 [|]]]; try discriminate. destruct j as [|j1 [|j2 [|]]]; try discriminate.
    cbn [inb] in *. rewrite !andb_true_iff, !Z.leb_le, !Z.ltb_lt in Hi2, Hj2. unfold byte_offset. cbn [ar_strides mesh43 combine map fst snd fold_right]. intros E. f_equal; [|f_equal]; lia. }
  split; [split; [reflexivity|repeat constructor; lia]|]. split; [exact I|].
  split; [repeat constructor|]. split; [reflexivity|]. split.
  { apply Forall_forall. intros x _ [|[|d]] j Hd _; cbn [length] in Hd; try lia; cbn [image nth]; apply Z.mod_pos_bound; lia. }
  split.
  { intros H. inversion_clear H as [|? ? H1 _]. specialize (H1 0%nat (-1)%Z ltac:(cbn; lia) ltac:(left; reflexivity)). cbn in H1. lia. }
  split; [reflexivity|]. split; reflexivity.
Qed.
Example C84_exact_case : qsum (fun j => lz_kernel lz_cubic ((17#5) - inject_Z j) * (inject_Z j * inject_Z j)) (around lz_cubic (17#5)) == 289#25.
Proof. reflexivity. Qed.
Example C84_constant_case : (0 < lz_support twice_linear)%nat /\ array_ok line /\ ~ lz_integral twice_linear == 0 /\
  total line (fst (lz_paint twice_linear 1 line (fun _ => 0) [[1#2]; [5#3]] (Array [2; 5]) true (Some [2]%Z) (fun x => x))) == 7.
Proof.
  split; [cbn; lia|]. split; [|split; [discriminate|reflexivity]].
  split; [cbn; lia|]. split; [reflexivity|]. intros i j Hi Hj. apply in_elements_inb in Hi as [Hi1 Hi2], Hj as [Hj1 Hj2]. cbn [ar_shape line length] in *.
  destruct i as [|i1 [|]]; try discriminate. destruct j as [|j1 [|]]; try discriminate. unfold byte_offset. cbn [ar_strides line combine map fst snd fold_right]. intros E. f_equal. lia.
Qed.
Print Assumptions C84_paint.
Print Assumptions C84_raise.
Print Assumptions C84_mass.
Print Assumptions C84_linear.
Print Assumptions C84_exact.
Print Assumptions C84_constant.
Print Assumptions C84_conserved.
Print Assumptions C84_integral_refuted.
Print Assumptions C84_cubic_refuted.
