(** The deprecated painters visit the same points as the windows. *)
From Coq Require Import List Arith ZArith QArith Qabs Qround Lia Lqa Bool Permutation Setoid Morphisms.
From Verif Require Import Base ListFacts WrapModel WrapProofs DomainModel DomainFill QSum WindowModel WindowStencil WindowSpread WindowKernels WindowAxis
  WindowNative WindowApi WindowPoints WindowTranslate LegacyModel.
Import ListNotations.
Local Open Scope Q_scope.

(** ** Counting in base [b], least digit first *)
Lemma zrange_blocks b M : (0 < b)%nat ->
  Permutation (zrange 0 (b * M))
    (flat_map (fun r => map (fun m => (Z.of_nat b * m + r)%Z) (zrange 0 M)) (zrange 0 b)).
Proof.
  intros Hb. apply NoDup_Permutation_bis; [apply zrange_NoDup| |].
  - rewrite flat_map_length_sum, zrange_length.
    rewrite (list_sum_map_ext_in _ (fun _ => M)) by (intros; now rewrite map_length, zrange_length).
    enough (H : forall l : list Z, list_sum (map (fun _ => M) l) = (length l * M)%nat) by (rewrite H, zrange_length; lia).
    intros l. induction l as [|z l IH]; [reflexivity|]. cbn [map length]. rewrite list_sum_cons, IH. lia.
  - intros n Hn. apply in_zrange in Hn. apply in_flat_map.
    exists (n mod Z.of_nat b)%Z. split.
    + apply in_zrange. pose proof (Z.mod_pos_bound n (Z.of_nat b)). lia.
    + apply in_map_iff. exists (n / Z.of_nat b)%Z. split.
      * symmetry. apply Z.div_mod. lia.
      * apply in_zrange. split; [apply Z.div_pos; lia|]. apply Z.div_lt_upper_bound; lia.
Qed.
(** the point of the product that belongs to the number [n] *)
Fixpoint vis (b : Z) (pts : list (list (Z * Q))) (n : Z) : list Z * Q :=
  match pts with
  | [] => ([], 1)
  | l :: pts' => let jw := nth (Z.to_nat (n mod b)) l (0%Z, 0) in
                 (fst jw :: fst (vis b pts' (n / b)), snd jw * snd (vis b pts' (n / b)))
  end.
Lemma vis_length b pts n : length (fst (vis b pts n)) = length pts.
Proof. revert n. induction pts as [|l pts IH]; intros n; cbn; [reflexivity|]. now rewrite IH. Qed.
Theorem vis_cart b pts : (0 < b)%nat -> Forall (fun l => length l = b) pts ->
  Permutation (map (vis (Z.of_nat b) pts) (zrange 0 (Nat.pow b (length pts)))) (cart pts).
Proof.
  intros Hb. induction pts as [|l pts IH]; intros HF.
  - cbn. reflexivity.
  - inversion_clear HF as [|? ? Hl HF']. specialize (IH HF'). cbn [length Nat.pow cart].
    rewrite (Permutation_map _ (zrange_blocks b (Nat.pow b (length pts)) Hb)).
    rewrite map_flat_map.
    assert (E : flat_map (fun jw => map (fun r => (fst jw :: fst r, snd jw * snd r)) (cart pts)) l =
      flat_map (fun r => map (fun q => (fst (nth (Z.to_nat r) l (0%Z, 0)) :: fst q, snd (nth (Z.to_nat r) l (0%Z, 0)) * snd q)) (cart pts)) (zrange 0 b)).
    { assert (El : l = map (fun r => nth (Z.to_nat r) l (0%Z, 0)) (zrange 0 b)).
      { apply (nth_ext _ _ (0%Z, 0) (0%Z, 0)); [now rewrite map_length, zrange_length|].
        intros i Hi. rewrite (nth_map_in _ _ _ _ 0%Z) by (rewrite zrange_length; lia).
        rewrite nth_zrange by lia. f_equal. lia. }
      rewrite El at 1. now rewrite flat_map_map. }
    rewrite E.
    assert (HP : forall R, (forall r, In r R -> (0 <= r < Z.of_nat b)%Z) ->
      Permutation (flat_map (fun x => map (vis (Z.of_nat b) (l :: pts)) (map (fun m => (Z.of_nat b * m + x)%Z) (zrange 0 (b ^ length pts)))) R)
        (flat_map (fun r => map (fun q => (fst (nth (Z.to_nat r) l (0%Z, 0)) :: fst q, snd (nth (Z.to_nat r) l (0%Z, 0)) * snd q)) (cart pts)) R)).
    { intros R HR. induction R as [|r R IHR]; [reflexivity|]. cbn [flat_map].
      apply Permutation_app; [|apply IHR; intros; apply HR; now right].
      rewrite map_map. rewrite <- IH. rewrite map_map.
      enough (EE : map (fun x => vis (Z.of_nat b) (l :: pts) (Z.of_nat b * x + r)) (zrange 0 (b ^ length pts)) =
        map (fun x => (fst (nth (Z.to_nat r) l (0%Z, 0)) :: fst (vis (Z.of_nat b) pts x), snd (nth (Z.to_nat r) l (0%Z, 0)) * snd (vis (Z.of_nat b) pts x))) (zrange 0 (b ^ length pts)))
        by (rewrite EE; reflexivity).
      apply map_ext. intros m. cbn [vis].
      specialize (HR r (or_introl eq_refl)).
      replace ((Z.of_nat b * m + r) mod Z.of_nat b)%Z with r
        by (rewrite (Z.add_comm (Z.of_nat b * m)), (Z.mul_comm (Z.of_nat b)), Z.mod_add by lia; now rewrite Z.mod_small).
      replace ((Z.of_nat b * m + r) / Z.of_nat b)%Z with m
        by (rewrite (Z.add_comm (Z.of_nat b * m)), (Z.mul_comm (Z.of_nat b)), Z.div_add by lia; rewrite Z.div_small by lia; lia).
      reflexivity. }
    apply HP. intros r Hr. apply in_zrange in Hr. lia.
Qed.

(** ** Indices of an array *)
Fixpoint inb (shape idx : list Z) : bool :=
  match shape, idx with
  | n :: shape', i :: idx' => (0 <=? i)%Z && (i <? n)%Z && inb shape' idx'
  | _, _ => true
  end.
Fixpoint rv (shape idx : list Z) (acc : Z) : Z :=
  match shape, idx with n :: shape', i :: idx' => rv shape' idx' (acc * n + i)%Z | _, _ => acc end.
Lemma ravel_from_spec shape idx acc : ravel_from shape idx acc = if inb shape idx then Some (rv shape idx acc) else None.
Proof.
  revert idx acc. induction shape as [|n shape IH]; intros [|i idx] acc; cbn; try reflexivity.
  destruct ((0 <=? i) && (i <? n))%Z; cbn; [apply IH|reflexivity].
Qed.
Lemma in_shape_spec shape idx : length idx = length shape -> in_shape shape idx = inb shape idx.
Proof.
  unfold in_shape. revert idx. induction shape as [|n shape IH]; intros [|i idx] H; try discriminate; [reflexivity|].
  injection H as H. cbn. rewrite <- (IH idx H). cbn.
  destruct (0 <=? i)%Z, (i <? n)%Z, (forallb (fun i => (0 <=? i)%Z) idx); reflexivity.
Qed.
Lemma inside_canvas_spec axes idx : length idx = length axes -> inside_canvas axes idx = inb (map ax_size axes) idx.
Proof.
  revert idx. induction axes as [|a axes IH]; intros [|i idx] H; try discriminate; [reflexivity|].
  injection H as H. cbn. rewrite <- (IH idx H).
  destruct (Z.gtb_spec 0 i), (Z.leb_spec (ax_size a) i), (Z.leb_spec 0 i), (Z.ltb_spec i (ax_size a)); cbn; try reflexivity; lia.
Qed.
Lemma rv_acc shape idx acc : length idx = length shape -> rv shape idx acc = (acc * fold_right Z.mul 1 shape + rv shape idx 0)%Z.
Proof.
  revert idx acc. induction shape as [|n shape IH]; intros [|i idx] acc H; try discriminate; [cbn; lia|].
  injection H as H. cbn [rv fold_right]. rewrite (IH idx (acc * n + i)%Z H), (IH idx (0 * n + i)%Z H). ring.
Qed.
Lemma rv_bound shape idx : length idx = length shape -> inb shape idx = true ->
  (0 <= rv shape idx 0 < fold_right Z.mul 1 shape)%Z.
Proof.
  revert idx. induction shape as [|n shape IH]; intros [|i idx] H Hi; try discriminate; [cbn; lia|].
  injection H as H. cbn in Hi. apply andb_true_iff in Hi as [Hi Hr]. apply andb_true_iff in Hi as [H0 Hn].
  apply Z.leb_le in H0. apply Z.ltb_lt in Hn. specialize (IH idx H Hr).
  cbn [rv fold_right]. rewrite (rv_acc shape idx _ H). nia.
Qed.
Lemma unravel_rv shape idx : length idx = length shape -> inb shape idx = true -> unravel shape (rv shape idx 0) = idx.
Proof.
  revert idx. induction shape as [|n shape IH]; intros [|i idx] H Hi; try discriminate; [reflexivity|].
  injection H as H. cbn in Hi. apply andb_true_iff in Hi as [Hi Hr]. apply andb_true_iff in Hi as [H0 Hn].
  cbn [rv unravel]. rewrite (rv_acc shape idx _ H). pose proof (rv_bound shape idx H Hr) as HB.
  set (P := fold_right Z.mul 1%Z shape) in *.
  replace (((0 * n + i) * P + rv shape idx 0) / P)%Z with i
    by (rewrite Z.div_add_l by lia; rewrite Z.div_small by lia; lia).
  replace (((0 * n + i) * P + rv shape idx 0) mod P)%Z with (rv shape idx 0)
    by (rewrite Z.add_comm, Z.mod_add by lia; now rewrite Z.mod_small).
  now rewrite IH.
Qed.
Lemma flat_address_rv real idx : length idx = length (ar_shape real) -> inb (ar_shape real) idx = true ->
  flat_address real (rv (ar_shape real) idx 0) = byte_offset (ar_strides real) idx.
Proof. intros H Hi. unfold flat_address. now rewrite unravel_rv. Qed.
Lemma contiguous_rv isz real idx : contiguous isz real = true -> length (ar_strides real) = length (ar_shape real) ->
  length idx = length (ar_shape real) -> inb (ar_shape real) idx = true ->
  (rv (ar_shape real) idx 0 * isz)%Z = byte_offset (ar_strides real) idx.
Proof.
  unfold contiguous. destruct real as [shape strides]. cbn [ar_shape ar_strides].
  intros Hc. apply orb_true_iff in Hc as [Hc|Hc]; revert strides idx Hc.
  - induction shape as [|n shape IH]; intros strides [|i idx] Hc Hs H Hi; try discriminate.
    exfalso. clear strides Hs. revert idx i n Hc H Hi IH. intros idx i n Hc H Hi _.
    revert n i idx Hc H Hi. induction shape as [|n' shape IH]; intros n i idx Hc H Hi.
    + cbn in Hc, Hi. rewrite orb_false_r in Hc. apply Z.eqb_eq in Hc. subst n.
      destruct (Z.leb_spec 0 i), (Z.ltb_spec i 0); cbn in Hi; try discriminate. lia.
    + injection H as H. destruct idx as [|i' idx]; [discriminate|].
      cbn [inb] in Hi. apply andb_true_iff in Hi as [Hi Hr]. cbn [existsb] in Hc. apply orb_true_iff in Hc as [Hc|Hc].
      * apply Z.eqb_eq in Hc. subst n. destruct (Z.leb_spec 0 i), (Z.ltb_spec i 0); cbn in Hi; try discriminate. lia.
      * apply (IH n' i' idx); [exact Hc|exact H|exact Hr].
  - induction shape as [|n shape IH]; intros [|s strides] [|i idx] Hc Hs H Hi; try discriminate; [cbn; lia|].
    injection H as H. injection Hs as Hs. cbn in Hi. apply andb_true_iff in Hi as [Hi Hr].
    apply andb_true_iff in Hi as [H0 Hn]. apply Z.leb_le in H0. apply Z.ltb_lt in Hn.
    cbn [contiguous_from] in Hc. apply andb_true_iff in Hc as [Hc1 Hc2].
    cbn [rv]. rewrite (rv_acc shape idx _ H). specialize (IH strides idx Hc2 Hs H Hr).
    unfold byte_offset in *. cbn [combine map fold_right fst snd]. rewrite <- IH.
    apply orb_true_iff in Hc1 as [Hc1|Hc1]; apply Z.eqb_eq in Hc1.
    + subst n. assert (i = 0)%Z by lia. subst i. ring.
    + subst s. ring.
Qed.

(** ** The points of a particle *)
Definition wz (p j : Z) : Z := if (p >? 0)%Z then (j mod p)%Z else j.
Definition cic_line (p : Z) (x : Q) : list (Z * Q) :=
  [(wz p (Qfloor x), 1 - (x - inject_Z (Qfloor x))); (wz p (Qfloor x + 1), x - inject_Z (Qfloor x))].
Fixpoint lines (f : Z -> Q -> list (Z * Q)) (period : list Z) (pos : list Q) : list (list (Z * Q)) :=
  match period, pos with p :: period', x :: pos' => f p x :: lines f period' pos' | _, _ => [] end.
Lemma lines_length f period pos : length period = length pos -> length (lines f period pos) = length pos.
Proof. revert pos. induction period as [|p period IH]; intros [|x pos] H; try discriminate; [reflexivity|]. cbn. now rewrite IH by (now injection H). Qed.
Lemma lines_each f b period pos : (forall p x, length (f p x) = b) -> Forall (fun l => length l = b) (lines f period pos).
Proof. intros H. revert pos. induction period as [|p period IH]; intros [|x pos]; cbn; constructor; auto. Qed.

Lemma wrap_du_wz p j : (if (p >? 0)%Z then wrap_du p j else j) = wz p j.
Proof. unfold wz. destruct (Z.gtb_spec p 0); [|reflexivity]. now apply wrap_du_mod. Qed.
Lemma bit_cases n : (Z.land n 1 = n mod 2 /\ (n mod 2 = 0 \/ n mod 2 = 1))%Z.
Proof.
  split; [|pose proof (Z.mod_pos_bound n 2); lia].
  change 1%Z with (Z.ones 1). now rewrite Z.land_ones by lia.
Qed.
Lemma shiftr_S n d : (Z.shiftr n (Z.of_nat d) / 2 = Z.shiftr n (Z.of_nat (S d)))%Z.
Proof.
  rewrite Nat2Z.inj_succ, <- Z.add_1_r, <- Z.shiftr_shiftr by lia.
  now rewrite (Z.shiftr_div_pow2 _ 1) by lia.
Qed.
Theorem nb_locate_spec pos : forall d shape period n k ind, length shape = length pos -> length period = length pos ->
  let v := vis 2 (lines cic_line period pos) (Z.shiftr n (Z.of_nat d)) in
  match nb_locate d pos shape period n k ind with
  | Some (q, o) => inb shape (fst v) = true /\ q == k * snd v /\ o = rv shape (fst v) ind
  | None => inb shape (fst v) = false
  end.
Proof.
  induction pos as [|x pos IH]; intros d [|s shape] [|p period] n k ind Hs Hp; try discriminate.
  - cbn. repeat split; try reflexivity. ring.
  - injection Hs as Hs. injection Hp as Hp. cbn [lines nb_locate].
    cbn [vis]. rewrite wrap_du_wz, shiftr_S.
    destruct (bit_cases (Z.shiftr n (Z.of_nat d))) as [Eb Hb]. rewrite Eb.
    set (r := (Z.shiftr n (Z.of_nat d) mod 2)%Z) in *.
    assert (En : nth (Z.to_nat r) (cic_line p x) (0%Z, 0) = (wz p (Qfloor x + r), if (r >? 0)%Z then x - inject_Z (Qfloor x) else 1 - (x - inject_Z (Qfloor x)))).
    { destruct Hb as [-> | ->]; cbn; [now rewrite Z.add_0_r|reflexivity]. }
    rewrite En. cbn [fst snd inb rv].
    set (t := wz p (Qfloor x + r)).
    destruct (Z.ltb_spec t 0) as [H0|H0]; cbn [orb].
    { destruct (Z.leb_spec 0 t); [lia|reflexivity]. }
    destruct (Z.geb_spec t s) as [H1|H1].
    { destruct (Z.leb_spec 0 t), (Z.ltb_spec t s); try lia; reflexivity. }
    destruct (Z.leb_spec 0 t); [|lia]. destruct (Z.ltb_spec t s); [|lia]. cbn [andb].
    match goal with |- context [nb_locate (S d) pos shape period n ?k' ?i'] => specialize (IH (S d) shape period n k' i' Hs Hp) end.
    cbv zeta in IH. destruct nb_locate as [[q o]|]; [|exact IH].
    destruct IH as [A [B C]]. split; [exact A|]. split; [|exact C].
    rewrite B. destruct (r >? 0)%Z; ring.
Qed.

(** ** What is added to an address *)
Definition osum (ops : list op) (a : Z) : Q := qsum (fun o => if (fst o =? a)%Z then snd o else 0) ops.
Lemma run_osum m ops a : run m ops a == m a + osum ops a.
Proof. apply run_spec. Qed.
Lemma osum_app x y a : osum (x ++ y) a == osum x a + osum y a.
Proof. apply qsum_app. Qed.
Lemma osum_flat_map {A} (f : A -> list op) l a : osum (flat_map f l) a == qsum (fun x => osum (f x) a) l.
Proof. apply qsum_flat_map. Qed.
(** the contribution of one visited point *)
Definition part (real : array) (w : Q) (a : Z) (iq : list Z * Q) : Q :=
  if inb (ar_shape real) (fst iq) then if (byte_offset (ar_strides real) (fst iq) =? a)%Z then w * snd iq else 0 else 0.
(** what a particle adds, and what it reads *)
Definition deposit (real : array) (w : Q) (a : Z) (pts : list (list (Z * Q))) : Q := qsum (part real w a) (cart pts).
Definition fetch (real : array) (m : memory) (pts : list (list (Z * Q))) : Q :=
  qsum (fun iq => if inb (ar_shape real) (fst iq) then snd iq * elem real m (fst iq) else 0) (cart pts).
Lemma cart_eq pts pts' : Forall2 (Forall2 pair_eq) pts pts' ->
  Forall2 (fun a b => fst a = fst b /\ snd a == snd b) (cart pts) (cart pts').
Proof.
  induction 1 as [|l l' pts pts' Hl Hr IH]; cbn [cart]; [constructor; [split; reflexivity|constructor]|].
  induction Hl as [|a b l l' [H1 H2] Hl IHl]; cbn [flat_map]; [constructor|].
  apply Forall2_app; [|exact IHl]. clear IHl Hl Hr.
  induction IH as [|u v U V [H3 H4] HU IHU]; cbn [map]; constructor; [|exact IHU].
  cbn [fst snd]. split; [congruence|]. now rewrite H2, H4.
Qed.
Lemma deposit_eq real w a pts pts' : Forall2 (Forall2 pair_eq) pts pts' -> deposit real w a pts == deposit real w a pts'.
Proof.
  intros H. unfold deposit. apply (qsum_F2 _ _ _ _ _ (cart_eq _ _ H)). intros u v [E1 E2]. unfold part.
  rewrite E1. destruct inb; [|reflexivity]. destruct (_ =? a)%Z; [|reflexivity]. now rewrite E2.
Qed.
Lemma fetch_eq real m pts pts' : Forall2 (Forall2 pair_eq) pts pts' -> fetch real m pts == fetch real m pts'.
Proof.
  intros H. unfold fetch. apply (qsum_F2 _ _ _ _ _ (cart_eq _ _ H)). intros u v [E1 E2].
  rewrite E1. destruct inb; [|reflexivity]. now rewrite E2.
Qed.
Lemma deposit_weight real w w' a pts : w == w' -> deposit real w a pts == deposit real w' a pts.
Proof.
  intros H. unfold deposit. apply qsum_ext. intros iq. unfold part. destruct inb; [|reflexivity].
  destruct (_ =? a)%Z; [|reflexivity]. now rewrite H.
Qed.

(** ** The windows *)
Section Window.
Variables (w : window) (real : array) (t : affine).
Hypothesis (Hwf : wf_call real t) (Hk : (0 < native_of (w_kind w))%Z).
Let p := painter_of w real t None.
Lemma window_ops_deposit x c h a : length x = length (ar_shape real) ->
  osum (paint_ops p x c h) a == deposit real c a (all_points p h x).
Proof.
  intros Hx. assert (HL := axes_length w real t None Hwf). fold p in HL.
  assert (H0 : (0 < length (pt_axes p))%nat) by (rewrite HL; apply Hwf).
  unfold osum. rewrite (ops_eq_sum _ _ a (paint_ops_spec p x c h Hk ltac:(now rewrite HL) H0)).
  unfold spec_ops. rewrite qsum_flat_map. unfold deposit. apply qsum_ext_in. intros iq Hi.
  assert (Li : length (fst iq) = length (pt_axes p)).
  { rewrite (cart_length _ _ Hi). apply all_points_length. now rewrite HL. }
  rewrite inside_canvas_spec by exact Li.
  assert (HA := axes_spec w real t None Hwf). fold p in HA. cbv zeta in HA.
  replace (map ax_size (pt_axes p)) with (ar_shape real) by (symmetry; apply HA).
  assert (HO := offset_elem w real t None Hwf (fst iq)). fold p in HO. unfold part.
  rewrite <- HO. destruct inb; [|reflexivity]. rewrite qsum_cons, qsum_nil. cbn [fst snd]. destruct (_ =? a)%Z; ring.
Qed.
Lemma window_read_fetch x h m : length x = length (ar_shape real) ->
  readout_at p m x h == fetch real m (all_points p h x).
Proof.
  intros Hx. assert (HL := axes_length w real t None Hwf). fold p in HL.
  assert (H0 : (0 < length (pt_axes p))%nat) by (rewrite HL; apply Hwf).
  rewrite (readout_at_spec p m x h Hk ltac:(now rewrite HL) H0).
  unfold spec_readout, fetch. apply qsum_ext_in. intros iq Hi.
  assert (Li : length (fst iq) = length (pt_axes p)).
  { rewrite (cart_length _ _ Hi). apply all_points_length. now rewrite HL. }
  rewrite inside_canvas_spec by exact Li.
  assert (HA := axes_spec w real t None Hwf). fold p in HA. cbv zeta in HA.
  replace (map ax_size (pt_axes p)) with (ar_shape real) by (symmetry; apply HA).
  assert (HO := offset_elem w real t None Hwf (fst iq)). fold p in HO. unfold elem. now rewrite HO.
Qed.
Lemma paint_all_deposit parts m a : Forall (fun xmh => length (fst (fst xmh)) = length (ar_shape real)) parts ->
  paint_all p m parts a == m a + qsum (fun xmh => deposit real (snd (fst xmh)) a (all_points p (snd xmh) (fst (fst xmh)))) parts.
Proof.
  revert m. induction parts as [|[[x c] h] parts IH]; intros m HF; [cbn; ring|].
  inversion_clear HF as [|? ? Hx HF'].
  change (paint_all p m ((x, c, h) :: parts)) with (paint_all p (run m (paint_ops p x c h)) parts). rewrite (IH _ HF'), run_osum, qsum_cons. cbn [fst snd] in *.
  rewrite (window_ops_deposit x c h a Hx). ring.
Qed.
End Window.
(** ** The cic window in mesh units *)
Definition mesh_units (n : nat) (c : Q) (period : list Z) : affine :=
  {| af_scale := repeat 1 n; af_translate := repeat c n; af_period := period |}.
Definition array_ok (real : array) : Prop :=
  (0 < length (ar_shape real))%nat /\ length (ar_strides real) = length (ar_shape real) /\ no_overlap real.
Lemma mesh_units_wf real c period : array_ok real -> length period = length (ar_shape real) ->
  wf_call real (mesh_units (length (ar_shape real)) c period).
Proof. intros [A [B C]] Hp. unfold wf_call, mesh_units. cbn. rewrite !repeat_length. tauto. Qed.
Lemma units_points (f : axis -> Q -> list (Z * Q)) (g : Z -> Q -> list (Z * Q)) c x : forall period shape strides,
  length period = length x -> length shape = length x -> length strides = length x ->
  Forall (fun p => 0 <= p)%Z period ->
  (forall a y, ax_scale a = 1 -> ax_translate a = c -> ax_order a = 0%Z -> (0 <= ax_period a)%Z -> Forall2 pair_eq (f a y) (g (ax_period a) y)) ->
  Forall2 (Forall2 pair_eq) (points_with f (mk_axes (repeat 0%Z (length x)) (repeat 1 (length x)) (repeat c (length x)) period shape strides) x)
    (lines g period x).
Proof.
  induction x as [|y x IH]; intros [|p period] [|n shape] [|s strides] Hp Hn Hs HF H; try discriminate; [constructor|].
  injection Hp as Hp. injection Hn as Hn. injection Hs as Hs. inversion_clear HF as [|? ? H0 HF'].
  cbn [length repeat mk_axes points_with lines]. constructor; [|now apply IH].
  exact (H {| ax_scale := 1; ax_translate := c; ax_period := p; ax_order := 0; ax_size := n; ax_stride := s |} y eq_refl eq_refl eq_refl H0).
Qed.
Lemma cic_window_line k a y : k = TunedCIC \/ k = Linear -> ax_scale a = 1 -> ax_translate a = 0 -> ax_order a = 0%Z -> (0 <= ax_period a)%Z ->
  Forall2 pair_eq (native_line k a y) (cic_line (ax_period a) y).
Proof.
  intros Hk Hs Ht Ho Hp.
  assert (Eg : grid_pos a y == y) by (unfold grid_pos; rewrite Hs, Ht; ring).
  assert (Hst : standard k) by (destruct Hk; subst k; constructor).
  assert (En : native_of k = 2%Z) by (destruct Hk; now subst k).
  assert (Ek : kernel_of k = linear_kernel) by (destruct Hk; now subst k).
  unfold native_line. rewrite En, first_point_2. rewrite (Qfloor_comp _ _ Eg). cbn [Z.to_nat Pos.to_nat Pos.iter_op zrange map Nat.add].
  pose proof (Qfloor_bounds y) as [B1 B2].
  assert (HL : forall j, line_weight k (inject_Z 2) a y j == linear_kernel (y - inject_Z j)).
  { intros j. rewrite (line_weight_n k 2 a y j Hst En), Ho, Ek. cbn [Z.eqb].
    assert (HP : Proper (Qeq ==> Qeq) linear_kernel) by (rewrite <- Ek; apply (standard_proper k Hst)).
    now rewrite Eg. }
  unfold cic_line. constructor; [|constructor; [|constructor]]; split; cbn [fst snd]; try reflexivity; rewrite HL; unfold linear_kernel, Qltb.
  - rewrite Qabs_pos by lra. destruct (Qle_bool 1 (y - inject_Z (Qfloor y))) eqn:E; cbn [negb]; [|rewrite Qabs_pos by lra; ring].
    apply Qle_bool_iff in E. lra.
  - rewrite inject_Z_plus. change (inject_Z 1) with 1. rewrite Qabs_neg by lra.
    destruct (Qle_bool 1 (- (y - (inject_Z (Qfloor y) + 1)))) eqn:E; cbn [negb]; [|rewrite Qabs_neg by lra; ring].
    apply Qle_bool_iff in E. lra.
Qed.
(** a window of native support *)
Theorem cic_window_points w real period x : (w_kind w = TunedCIC \/ w_kind w = Linear) -> w_support w = 2%Z ->
  length period = length (ar_shape real) -> length (ar_strides real) = length (ar_shape real) -> length x = length (ar_shape real) ->
  Forall (fun p => 0 <= p)%Z period ->
  Forall2 (Forall2 pair_eq) (all_points (painter_of w real (mesh_units (length (ar_shape real)) 0 period) None) 1 x) (lines cic_line period x).
Proof.
  intros Hk Hsup Hp Hst Hx HF. unfold all_points.
  set (p := painter_of w real _ None).
  assert (EA : pt_axes p = mk_axes (repeat 0%Z (length x)) (repeat 1 (length x)) (repeat 0 (length x)) period (ar_shape real) (ar_strides real))
    by (rewrite Hx; reflexivity).
  rewrite EA. apply units_points; try congruence.
  intros a y H1 H2 H3 H4. eapply pair_eq_trans.
  - apply axis_points_native; try assumption.
    + apply standard_proper. change (pt_kind p) with (w_kind w). destruct Hk as [-> | ->]; constructor.
    + unfold native_painter. change (pt_kind p) with (w_kind w). change (pt_support p) with (w_support w). rewrite Hsup.
      destruct Hk as [-> | ->]; reflexivity.
    + intros _. now left.
  - apply cic_window_line; assumption.
Qed.

(** ** numba *)
Section Numba.
Variables (isz : Z) (real : array) (period : list Z).
Hypothesis (Hst : length (ar_strides real) = length (ar_shape real)) (Hper : length period = length (ar_shape real)).
Local Notation pts x := (lines cic_line period x).
Lemma nb_all_spec x : length x = length (ar_shape real) ->
  Forall2 (fun v o => match o with
                      | Some (q, i) => inb (ar_shape real) (fst v) = true /\ q == snd v /\ i = rv (ar_shape real) (fst v) 0
                      | None => inb (ar_shape real) (fst v) = false
                      end)
    (map (vis 2 (pts x)) (zrange 0 (Nat.pow 2 (length x)))) (nb_all (ar_shape real) period x).
Proof.
  intros Hx. unfold nb_all. induction (zrange 0 (2 ^ length x)) as [|n l IH]; cbn [map]; constructor; [|exact IH].
  assert (H := nb_locate_spec x 0 (ar_shape real) period n 1 0 ltac:(congruence) ltac:(congruence)).
  cbv zeta in H. change (Z.of_nat 0) with 0%Z in H. rewrite Z.shiftr_0_r in H.
  destruct nb_locate as [[q i]|]; [|exact H]. destruct H as [A [B C]]. repeat split; auto. rewrite B. ring.
Qed.
Lemma vis_pts x : length x = length (ar_shape real) ->
  Permutation (map (vis 2 (pts x)) (zrange 0 (Nat.pow 2 (length x)))) (cart (pts x)).
Proof.
  intros Hx. rewrite <- (lines_length cic_line period x) at 1 by congruence.
  apply (vis_cart 2); [lia|]. apply lines_each. reflexivity.
Qed.
Lemma vis_in_length x v : length x = length (ar_shape real) -> In v (map (vis 2 (pts x)) (zrange 0 (Nat.pow 2 (length x)))) ->
  length (fst v) = length (ar_shape real).
Proof.
  intros Hx Hv. apply in_map_iff in Hv as [n [<- _]]. rewrite vis_length, lines_length by congruence. exact Hx.
Qed.
Lemma nb_hits_deposit x w a : contiguous isz real = true -> length x = length (ar_shape real) ->
  osum (map (fun o => (fst o * isz, snd o)%Z) (hits (fun ki => (snd ki, w * fst ki)) (nb_all (ar_shape real) period x))) a ==
  deposit real w a (pts x).
Proof.
  intros Hc Hx. unfold deposit. rewrite <- (qsum_perm _ _ _ (vis_pts x Hx)).
  assert (HL := vis_in_length x). assert (H := nb_all_spec x Hx). revert H.
  assert (HL' := fun v => HL v Hx). clear HL. revert HL'.
  generalize (map (vis 2 (pts x)) (zrange 0 (2 ^ length x))) as V. generalize (nb_all (ar_shape real) period x) as L.
  intros L V HL H. induction H as [|v o V L Hvo H IH]; [reflexivity|].
  specialize (IH (fun v Hv => HL v (or_intror Hv))). specialize (HL v (or_introl eq_refl)).
  rewrite qsum_cons, <- IH. unfold part. destruct o as [[q i]|].
  - destruct Hvo as [A [B C]]. rewrite A. cbn [hits flat_map app map fst snd]. unfold osum at 1. rewrite qsum_cons. cbn [fst snd].
    rewrite C, (contiguous_rv isz real (fst v) Hc Hst HL A). destruct (_ =? a)%Z; [rewrite B|]; reflexivity.
  - rewrite Hvo. cbn [hits flat_map app map]. unfold hits. ring.
Qed.
Lemma nb_read_fetch m x : length x = length (ar_shape real) ->
  nb_read_one real m period x == fetch real m (pts x).
Proof.
  intros Hx. unfold fetch, nb_read_one. rewrite <- (qsum_perm _ _ _ (vis_pts x Hx)).
  assert (HL' := fun v => vis_in_length x v Hx). assert (H := nb_all_spec x Hx). revert HL' H.
  generalize (map (vis 2 (pts x)) (zrange 0 (2 ^ length x))) as V. generalize (nb_all (ar_shape real) period x) as L.
  intros L V HL H.
  enough (E : forall s, fold_left (fun tmp o => match o with Some (kernel, ind) => tmp + m (flat_address real ind) * kernel | None => tmp end) L s ==
     s + qsum (fun iq => if inb (ar_shape real) (fst iq) then snd iq * elem real m (fst iq) else 0) V) by (rewrite E; ring).
  induction H as [|v o V L Hvo H IH]; intros s; [cbn; ring|].
  specialize (IH (fun v Hv => HL v (or_intror Hv))). specialize (HL v (or_introl eq_refl)).
  cbn [fold_left]. rewrite IH, qsum_cons. destruct o as [[q i]|].
  - destruct Hvo as [A [B C]]. rewrite A, C, flat_address_rv by assumption. unfold elem. rewrite B. ring.
  - rewrite Hvo. ring.
Qed.
(** no neighbour is outside *)
Lemma nb_outside x : length x = length (ar_shape real) ->
  (outside (nb_all (ar_shape real) period x) = 0%nat <-> Forall (fun iq => inb (ar_shape real) (fst iq) = true) (cart (pts x))).
Proof.
  intros Hx.
  assert (HP := vis_pts x Hx). assert (H := nb_all_spec x Hx). revert HP H.
  generalize (map (vis 2 (pts x)) (zrange 0 (2 ^ length x))) as V. generalize (nb_all (ar_shape real) period x) as L.
  intros L V HP H.
  assert (EF : Forall (fun iq => inb (ar_shape real) (fst iq) = true) (cart (pts x)) <-> Forall (fun iq => inb (ar_shape real) (fst iq) = true) V).
  { split; apply Permutation_Forall; [now symmetry|exact HP]. }
  rewrite EF. clear EF HP. unfold outside. induction H as [|v o V L Hvo H IH]; [split; [constructor|reflexivity]|].
  cbn [filter]. destruct o as [[q i]|].
  - destruct Hvo as [A _]. rewrite IH. split; [now constructor|now inversion 1].
  - cbn [length]. split; [discriminate|]. inversion 1. congruence.
Qed.
End Numba.

(** ** Chunks *)
Lemma chunk_nil {A} size k (l : list A) : (length l <= k * size)%nat -> chunk size k l = [].
Proof. intros H. unfold chunk. rewrite skipn_all2 by exact H. now rewrite firstn_nil. Qed.
Lemma chunks_from {A} size : forall n k (l : list A), (length l <= (k + n) * size)%nat ->
  flat_map (fun j => chunk size j l) (seq k n) = skipn (k * size) l.
Proof.
  induction n as [|n IH]; intros k l H.
  - cbn. rewrite skipn_all2; [reflexivity|]. lia.
  - cbn [seq flat_map]. rewrite IH by lia. unfold chunk.
    replace (S k * size)%nat with (k * size + size)%nat by lia.
    rewrite <- skipn_skipn_add. apply firstn_skipn.
Qed.
Lemma chunks_all {A} size (l : list A) n : (0 < size)%nat -> length l = n ->
  flat_map (fun j => chunk size j l) (seq 0 (chunk_count size n)) = l.
Proof.
  intros H E. rewrite chunks_from; [reflexivity|]. unfold chunk_count. rewrite E. cbn [Nat.add].
  pose proof (Nat.div_mod (n + size - 1) size ltac:(lia)). pose proof (Nat.mod_upper_bound (n + size - 1) size ltac:(lia)). nia.
Qed.
Lemma chunk_in {A} size k (l : list A) a : In a (chunk size k l) -> In a l.
Proof.
  unfold chunk. intros H. rewrite <- (firstn_skipn (k * size) l). apply in_or_app. right.
  rewrite <- (firstn_skipn size (skipn (k * size) l)). apply in_or_app. now left.
Qed.
Lemma chunks_in {A} size (l : list A) n a : (0 < size)%nat -> length l = n -> In a l ->
  exists k, In k (seq 0 (chunk_count size n)) /\ In a (chunk size k l).
Proof. intros H E Hi. rewrite <- (chunks_all size l n H E) in Hi. apply in_flat_map in Hi. exact Hi. Qed.

Lemma sum_zero l : fold_right Nat.add 0%nat l = 0%nat <-> Forall (fun n => n = 0%nat) l.
Proof.
  induction l as [|n l IH]; cbn; [split; [constructor|reflexivity]|]. split.
  - intros H. constructor; [lia|]. apply IH. lia.
  - inversion 1; subst. apply IH in H3. lia.
Qed.
(** ** The loop of the numba painter *)
Section NumbaLoop.
Variables (isz : Z) (real : array) (period : list Z).
Hypothesis (Hst : length (ar_strides real) = length (ar_shape real)) (Hper : length period = length (ar_shape real)).
Local Notation pts x := (lines cic_line period x).
Definition fits (x : list Q) : Prop := Forall (fun iq => inb (ar_shape real) (fst iq) = true) (cart (pts x)).
Lemma nb_chunk rows m a : contiguous isz real = true -> Forall (fun r => length (fst r) = length (ar_shape real)) rows ->
  run_flat isz real m (fst (nb_paint_some (ar_shape real) period rows)) a ==
  m a + qsum (fun r => deposit real (snd r) a (pts (fst r))) rows.
Proof.
  intros Hc HF. unfold run_flat. rewrite Hc, run_osum. cbn [nb_paint_some fst]. rewrite map_flat_map, osum_flat_map.
  apply Qplus_comp; [reflexivity|]. apply qsum_ext_in. intros r Hr.
  apply (nb_hits_deposit isz real period Hst Hper); [exact Hc|]. rewrite Forall_forall in HF. now apply HF.
Qed.
Lemma nb_some_outside (rows : list (list Q * Q)) : Forall (fun r => length (fst r) = length (ar_shape real)) rows ->
  (snd (nb_paint_some (ar_shape real) period rows) = 0%nat <-> Forall (fun r => fits (fst r)) rows).
Proof.
  intros HF. cbn [nb_paint_some snd]. rewrite sum_zero. rewrite Forall_map.
  rewrite !Forall_forall. rewrite Forall_forall in HF. split; intros H r Hr; specialize (H r Hr); apply (nb_outside real period Hst Hper); auto.
Qed.
Lemma nb_loop_ignore rows size : contiguous isz real = true -> Forall (fun r => length (fst r) = length (ar_shape real)) rows ->
  forall ks m, exists m', nb_paint_loop isz real false period rows size ks m = (m', Ret tt) /\
   forall a, m' a == m a + qsum (fun r => deposit real (snd r) a (pts (fst r))) (flat_map (fun k => chunk size k rows) ks).
Proof.
  intros Hc HF. induction ks as [|k ks IH]; intros m.
  - exists m. split; [reflexivity|]. intros a. cbn. ring.
  - cbn [nb_paint_loop]. rewrite (surjective_pairing (nb_paint_some _ _ _)). rewrite andb_false_r.
    destruct (IH (run_flat isz real m (fst (nb_paint_some (ar_shape real) period (chunk size k rows))))) as [m' [E H]].
    exists m'. split; [exact E|]. intros a. rewrite H, nb_chunk; [|exact Hc|].
    + cbn [flat_map]. rewrite qsum_app. ring.
    + rewrite Forall_forall in *. intros r Hr. apply HF. eapply chunk_in, Hr.
Qed.
Lemma nb_loop_raise rows size : Forall (fun r => length (fst r) = length (ar_shape real)) rows ->
  forall ks m,
  (Forall (fun r => fits (fst r)) (flat_map (fun k => chunk size k rows) ks) ->
     nb_paint_loop isz real true period rows size ks m = nb_paint_loop isz real false period rows size ks m) /\
  (~ Forall (fun r => fits (fst r)) (flat_map (fun k => chunk size k rows) ks) ->
     snd (nb_paint_loop isz real true period rows size ks m) = Raise ValueError).
Proof.
  intros HF. induction ks as [|k ks IH]; intros m.
  - split; [reflexivity|]. intros H. exfalso. apply H. constructor.
  - cbn [nb_paint_loop flat_map]. rewrite (surjective_pairing (nb_paint_some _ _ _)), andb_false_r, andb_true_r.
    assert (HFc : Forall (fun r => length (fst r) = length (ar_shape real)) (chunk size k rows)).
    { rewrite Forall_forall in *. intros r Hr. apply HF. eapply chunk_in, Hr. }
    pose proof (nb_some_outside (chunk size k rows) HFc) as HO.
    destruct (Nat.eqb_spec (snd (nb_paint_some (ar_shape real) period (chunk size k rows))) 0) as [E|E]; cbn [negb].
    + apply HO in E. destruct (IH (run_flat isz real m (fst (nb_paint_some (ar_shape real) period (chunk size k rows))))) as [I1 I2].
      split; intros H; [apply I1; apply Forall_app in H; apply H|].
      apply I2. intros H'. apply H. apply Forall_app. now split.
    + split; [|reflexivity]. intros H. apply Forall_app in H as [H _]. exfalso. apply E. now apply HO.
Qed.
End NumbaLoop.

(** ** numpy *)
Definition bits (d n : nat) (i : Z) : list Z := map (fun e => Z.land (Z.shiftr i (Z.of_nat e)) 1) (seq d n).
Lemma np_kernel_spec grid : forall period d i k, length period = length grid ->
  fold_left (fun k gn => k * (1 - Qabs (fst gn - inject_Z (Qfloor (fst gn) + snd gn)))) (combine grid (bits d (length grid) i)) k ==
  k * snd (vis 2 (lines cic_line period grid) (Z.shiftr i (Z.of_nat d))).
Proof.
  induction grid as [|x grid IH]; intros [|p period] d i k H; try discriminate; [cbn; ring|].
  injection H as H. unfold bits. cbn [length seq map combine fold_left fst snd lines vis].
  fold (bits (S d) (length grid) i). rewrite (IH period (S d) i _ H), shiftr_S.
  destruct (bit_cases (Z.shiftr i (Z.of_nat d))) as [Eb Hb]. rewrite Eb.
  pose proof (Qfloor_bounds x) as [B1 B2].
  destruct Hb as [-> | ->]; [change (Z.to_nat 0) with 0%nat|change (Z.to_nat 1) with 1%nat]; cbn [nth cic_line snd].
  - rewrite Z.add_0_r. rewrite Qabs_pos by lra. ring.
  - rewrite inject_Z_plus. change (inject_Z 1) with 1. rewrite Qabs_neg by lra. ring.
Qed.
Lemma np_target_none grid : forall d i,
  np_target None grid (bits d (length grid) i) = fst (vis 2 (lines cic_line (repeat 0%Z (length grid)) grid) (Z.shiftr i (Z.of_nat d))).
Proof.
  induction grid as [|x grid IH]; intros d i; [reflexivity|].
  unfold np_target, bits in *. cbn [length seq map combine fst snd lines vis repeat].
  f_equal; [|rewrite shiftr_S; apply IH].
  destruct (bit_cases (Z.shiftr i (Z.of_nat d))) as [Eb Hb]. rewrite Eb.
  destruct Hb as [-> | ->]; cbn; [apply Z.add_0_r|reflexivity].
Qed.
Lemma np_target_some grid : forall p d i, length p = length grid -> Forall (fun n => 0 < n)%Z p ->
  np_target (Some p) grid (bits d (length grid) i) = fst (vis 2 (lines cic_line p grid) (Z.shiftr i (Z.of_nat d))).
Proof.
  induction grid as [|x grid IH]; intros [|n p] d i H HF; try discriminate; [reflexivity|].
  injection H as H. inversion_clear HF as [|? ? Hn HF'].
  unfold np_target, bits in *. cbn [length seq map combine fst snd lines vis repeat].
  f_equal; [|rewrite shiftr_S; now apply IH].
  destruct (bit_cases (Z.shiftr i (Z.of_nat d))) as [Eb Hb]. rewrite Eb.
  unfold np_remainder, cic_line, wz. destruct (Z.eqb_spec n 0); [lia|]. destruct (Z.gtb_spec n 0); [|lia].
  destruct Hb as [-> | ->]; cbn; [now rewrite Z.add_0_r|reflexivity].
Qed.
Definition periods_fit (nd : nat) (period : option (list Z)) : Prop :=
  match period with None => True | Some p => length p = nd /\ Forall (fun n => 0 < n)%Z p end.
Lemma nb_period_length nd period : periods_fit nd period -> length (nb_period nd period) = nd.
Proof. destruct period as [p|]; cbn; [tauto|]. intros _. apply repeat_length. Qed.
Lemma nb_period_nonneg nd period : periods_fit nd period -> Forall (fun n => 0 <= n)%Z (nb_period nd period).
Proof.
  destruct period as [p|]; cbn.
  - intros [_ H]. rewrite Forall_forall in *. intros n Hn. specialize (H n Hn). lia.
  - intros _. apply Forall_forall. intros n Hn. apply repeat_spec in Hn. lia.
Qed.
Lemma np_target_spec nd period grid i : periods_fit nd period -> length grid = nd ->
  np_target period grid (bits 0 nd i) = fst (vis 2 (lines cic_line (nb_period nd period) grid) i).
Proof.
  intros Hp <-. rewrite <- (Z.shiftr_0_r i) at 2. change 0%Z with (Z.of_nat 0) at 1.
  destruct period as [p|]; cbn in Hp |- *; [apply np_target_some; tauto|apply np_target_none].
Qed.
Lemma position_in x u : In x u -> (position_of x u < length u)%nat /\ nth (position_of x u) u 0%Z = x.
Proof.
  induction u as [|y u IH]; intros H; [destruct H|]. cbn. destruct (Z.eqb_spec x y) as [->|Hn]; [split; [lia|reflexivity]|].
  destruct H as [H|H]; [congruence|]. destruct (IH H). split; [lia|assumption].
Qed.
Lemma in_insert_unique x y l : In x (insert_unique y l) <-> x = y \/ In x l.
Proof.
  induction l as [|z l IH]; cbn; [intuition|]. destruct (y <? z)%Z; [cbn; intuition|].
  destruct (Z.eqb_spec y z) as [->|Hn]; cbn; [intuition|]. rewrite IH. intuition.
Qed.
Lemma in_np_unique x l : In x (np_unique l) <-> In x l.
Proof. induction l as [|y l IH]; cbn; [tauto|]. rewrite in_insert_unique, IH. intuition. Qed.
Lemma fold_cond_sum {A} (c : A -> bool) (f : A -> Q) l s :
  fold_left (fun s a => if c a then s + f a else s) l s == s + qsum (fun a => if c a then f a else 0) l.
Proof. revert s. induction l as [|a l IH]; intros s; cbn [fold_left]; [cbn; ring|]. rewrite IH, qsum_cons. destruct (c a); ring. Qed.
Lemma bincount_sum (F : Z -> Z) u index adds a : (forall i, In i index -> In i u) ->
  osum (map (fun us => (F (fst us), snd us)) (combine u (bincount (map (fun i => position_of i u) index) adds (length u)))) a ==
  qsum (fun ia => if (F (fst ia) =? a)%Z then snd ia else 0) (combine index adds).
Proof.
  intros Hin. unfold osum. rewrite qsum_map. cbn [fst snd]. unfold bincount.
  rewrite combine_map_r, qsum_map. cbn [fst snd].
  replace (combine u (seq 0 (length u))) with (map (fun j => (nth j u 0%Z, j)) (seq 0 (length u))).
  2:{ transitivity (combine (map (fun j => nth j u 0%Z) (seq 0 (length u))) (map (fun j => j) (seq 0 (length u)))).
      - symmetry. apply combine_map_map.
      - now rewrite map_id, map_nth_seq. }
  rewrite qsum_map. cbn [fst snd].
  rewrite (qsum_ext _ (fun j => qsum (fun ia => if (F (nth j u 0%Z) =? a)%Z then if (position_of (fst ia) u =? j)%nat then snd ia else 0 else 0) (combine index adds))).
  2:{ intros j. destruct (F (nth j u 0%Z) =? a)%Z.
      - rewrite fold_cond_sum. rewrite combine_map_l, qsum_map. cbn [fst snd]. ring.
      - symmetry. now apply qsum_zero. }
  rewrite qsum_swap. apply qsum_ext_in. intros ia Hia.
  destruct (position_in (fst ia) u) as [P1 P2]; [apply Hin; destruct ia; eapply in_combine_l, Hia|].
  rewrite (qsum_single _ _ (position_of (fst ia) u)); [| apply seq_NoDup | apply in_seq; lia |].
  - rewrite P2, Nat.eqb_refl. reflexivity.
  - intros j _ Hj. destruct (_ =? a)%Z; [|reflexivity]. destruct (Nat.eqb_spec (position_of (fst ia) u) j); [congruence|reflexivity].
Qed.
Section Numpy.
Variables (real : array) (period : option (list Z)).
Hypothesis (Hst : length (ar_strides real) = length (ar_shape real)) (Hper : periods_fit (length (ar_shape real)) period).
Local Notation nd := (length (ar_shape real)).
Local Notation pts x := (lines cic_line (nb_period nd period) x).
Definition located (i : Z) (x : list Q) : list Z := fst (vis 2 (pts x) i).
Lemma located_length i x : length x = nd -> length (located i x) = nd.
Proof. intros H. unfold located. rewrite vis_length, lines_length; [exact H|]. rewrite nb_period_length by exact Hper. now symmetry. Qed.
Lemma np_kernel_vis x i : length x = nd -> np_kernel x (bits 0 nd i) == snd (vis 2 (pts x) i).
Proof.
  intros H. unfold np_kernel. rewrite <- H at 1. rewrite (np_kernel_spec x (nb_period nd period)).
  - change (Z.of_nat 0) with 0%Z. rewrite Z.shiftr_0_r. ring.
  - rewrite nb_period_length by exact Hper. now symmetry.
Qed.
Lemma ravel_kept (T : list (list Z * Q)) : Forall (fun t => inb (ar_shape real) (fst t) = true) T ->
  sequence (map (fun t => ravel_multi_index (ar_shape real) (fst t)) T) = Some (map (fun t => rv (ar_shape real) (fst t) 0) T).
Proof.
  intros HF. rewrite <- sequence_map_Some. f_equal. rewrite map_map. apply map_ext_in. intros t Ht.
  unfold ravel_multi_index. rewrite ravel_from_spec. rewrite Forall_forall in HF. now rewrite (HF t Ht).
Qed.
Lemma ravel_bad (T : list (list Z * Q)) t : In t T -> inb (ar_shape real) (fst t) = false ->
  sequence (map (fun t => ravel_multi_index (ar_shape real) (fst t)) T) = None.
Proof.
  induction T as [|u T IH]; intros Hi Hb; [destruct Hi|]. cbn [map sequence].
  unfold ravel_multi_index at 1. rewrite ravel_from_spec. destruct Hi as [->|Hi].
  - now rewrite Hb.
  - rewrite IH by assumption. destruct (inb _ (fst u)); reflexivity.
Qed.
Definition np_targets (rows : list (list Q * Q)) (i : Z) : list (list Z * Q) :=
  map (fun r => (np_target period (fst r) (bits 0 nd i), snd r * np_kernel (fst r) (bits 0 nd i))) rows.
Lemma np_add_kept (raise : bool) rows i (kept : list (list Z * Q)) :
  kept = (if raise then np_targets rows i else filter (fun t => in_shape (ar_shape real) (fst t)) (np_targets rows i)) ->
  Forall (fun t => inb (ar_shape real) (fst t) = true) kept -> Forall (fun t => length (fst t) = nd) kept ->
  exists ops, np_add real raise period rows (bits 0 nd i) = Some ops /\
    forall a, osum ops a == qsum (fun t => if (byte_offset (ar_strides real) (fst t) =? a)%Z then snd t else 0) kept.
Proof.
  intros E HF HL. unfold np_add. fold (np_targets rows i). rewrite <- E. rewrite (ravel_kept kept HF).
  eexists. split; [reflexivity|]. intros a.
  rewrite bincount_sum by (intros j Hj; now apply in_np_unique).
  rewrite combine_map_map, qsum_map. cbn [fst snd]. apply qsum_ext_in. intros t Ht.
  rewrite Forall_forall in HF, HL. rewrite flat_address_rv by auto. reflexivity.
Qed.
Lemma np_add_ignore rows i : Forall (fun r => length (fst r) = nd) rows ->
  exists ops, np_add real false period rows (bits 0 nd i) = Some ops /\
    forall a, osum ops a == qsum (fun r => part real (snd r) a (vis 2 (pts (fst r)) i)) rows.
Proof.
  intros HF. rewrite Forall_forall in HF.
  assert (HT : forall r, In r rows -> length (np_target period (fst r) (bits 0 nd i)) = nd).
  { intros r Hr. rewrite (np_target_spec nd) by auto. now apply located_length, HF. }
  destruct (np_add_kept false rows i _ eq_refl) as [ops [E H]].
  - apply Forall_forall. intros t Ht. apply filter_In in Ht as [Ht Hs]. rewrite in_shape_spec in Hs; [exact Hs|].
    unfold np_targets in Ht. apply in_map_iff in Ht as [r [<- Hr]]. cbn [fst]. now apply HT.
  - apply Forall_forall. intros t Ht. apply filter_In in Ht as [Ht _].
    unfold np_targets in Ht. apply in_map_iff in Ht as [r [<- Hr]]. cbn [fst]. now apply HT.
  - exists ops. split; [exact E|]. intros a. rewrite H, qsum_filter. unfold np_targets. rewrite qsum_map. cbn [fst snd].
    apply qsum_ext_in. intros r Hr. rewrite in_shape_spec by now apply HT.
    rewrite (np_target_spec nd) by auto. unfold part. destruct inb; [|reflexivity].
    destruct (_ =? a)%Z; [|reflexivity]. now rewrite np_kernel_vis by auto.
Qed.
Lemma np_add_raise rows i : Forall (fun r => length (fst r) = nd) rows ->
  (Forall (fun r => inb (ar_shape real) (located i (fst r)) = true) rows ->
     np_add real true period rows (bits 0 nd i) = np_add real false period rows (bits 0 nd i)) /\
  (~ Forall (fun r => inb (ar_shape real) (located i (fst r)) = true) rows ->
     np_add real true period rows (bits 0 nd i) = None).
Proof.
  intros HF. rewrite Forall_forall in HF. unfold np_add. fold (np_targets rows i). split; intros H.
  - rewrite filter_all; [reflexivity|]. intros t Ht. unfold np_targets in Ht. apply in_map_iff in Ht as [r [<- Hr]]. cbn [fst].
    rewrite (np_target_spec nd) by auto. rewrite in_shape_spec by now apply located_length, HF.
    rewrite Forall_forall in H. now apply H.
  - assert (HE : Exists (fun r => ~ inb (ar_shape real) (located i (fst r)) = true) rows).
    { apply neg_Forall_Exists_neg; [|exact H]. intros r. destruct inb; [now left|now right]. }
    apply Exists_exists in HE as [r [Hr Hb]]. apply not_true_is_false in Hb.
    rewrite (ravel_bad _ (np_target period (fst r) (bits 0 nd i), snd r * np_kernel (fst r) (bits 0 nd i))); [reflexivity| |].
    + unfold np_targets. apply in_map_iff. eauto.
    + cbn [fst]. rewrite (np_target_spec nd) by auto. exact Hb.
Qed.
End Numpy.

(** ** The loop of the numpy painter *)
Lemma qsum_list_prod {A B} (f : A * B -> Q) l m : qsum f (list_prod l m) == qsum (fun a => qsum (fun b => f (a, b)) m) l.
Proof. induction l as [|a l IH]; cbn [list_prod]; [reflexivity|]. rewrite qsum_app, qsum_map, IH, qsum_cons. reflexivity. Qed.
Lemma until_none_all {A} (step : A -> option (list op)) (g : Z -> A -> Q) l :
  (forall x, In x l -> exists ops, step x = Some ops /\ forall a, osum ops a == g a x) ->
  forall m, exists m', until_none step l m = (m', true) /\ forall a, m' a == m a + qsum (g a) l.
Proof.
  induction l as [|x l IH]; intros H m.
  - exists m. split; [reflexivity|]. intros a. cbn. ring.
  - destruct (H x (or_introl eq_refl)) as [ops [E Ho]]. cbn [until_none]. rewrite E.
    destruct (IH (fun y Hy => H y (or_intror Hy)) (run m ops)) as [m' [E' H']].
    exists m'. split; [exact E'|]. intros a. rewrite H', run_osum, Ho, qsum_cons. ring.
Qed.
Lemma until_none_same {A} (step step' : A -> option (list op)) l m : (forall x, In x l -> step x = step' x) ->
  until_none step l m = until_none step' l m.
Proof.
  revert m. induction l as [|x l IH]; intros m H; [reflexivity|]. cbn [until_none].
  rewrite <- (H x (or_introl eq_refl)). destruct (step x); [|reflexivity]. apply IH. intros y Hy. apply H. now right.
Qed.
Lemma until_none_bad {A} (step : A -> option (list op)) l x m : In x l -> step x = None -> snd (until_none step l m) = false.
Proof.
  revert m. induction l as [|y l IH]; intros m Hi Hx; [destruct Hi|]. cbn [until_none].
  destruct Hi as [->|Hi]; [now rewrite Hx|]. destruct (step y); [now apply IH|reflexivity].
Qed.
Section NumpyLoop.
Variables (real : array) (period : option (list Z)).
Hypothesis (Hst : length (ar_strides real) = length (ar_shape real)) (Hper : periods_fit (length (ar_shape real)) period).
Local Notation nd := (length (ar_shape real)).
Local Notation per := (nb_period nd period).
Local Notation pts x := (lines cic_line per x).
Lemma vis_all x : length x = nd -> Permutation (map (vis 2 (pts x)) (zrange 0 (Nat.pow 2 nd))) (cart (pts x)).
Proof. intros Hx. assert (H := vis_pts real per Hst (nb_period_length nd period Hper) x Hx). now rewrite Hx in H. Qed.
Lemma deposit_vis w a x : length x = nd ->
  qsum (fun i => part real w a (vis 2 (pts x) i)) (zrange 0 (Nat.pow 2 nd)) == deposit real w a (pts x).
Proof. intros Hx. unfold deposit. rewrite <- (qsum_perm _ _ _ (vis_all x Hx)). now rewrite qsum_map. Qed.
Lemma np_loop_ignore rows size n : (0 < size)%nat -> length rows = n -> Forall (fun r => length (fst r) = nd) rows ->
  forall m, exists m',
  until_none (fun kn => np_add real false period (chunk size (fst kn) rows) (snd kn))
     (list_prod (seq 0 (chunk_count size n)) (neighbours nd)) m = (m', true) /\
  forall a, m' a == m a + qsum (fun r => deposit real (snd r) a (pts (fst r))) rows.
Proof.
  intros Hsize Hn HF m.
  set (ks := seq 0 (chunk_count size n)).
  assert (HL : forall k, Forall (fun r => length (fst r) = nd) (chunk size k rows)).
  { intros k. rewrite Forall_forall in *. intros r Hr. apply HF. eapply chunk_in, Hr. }
  assert (EN : list_prod ks (neighbours nd) = map (fun ki => (fst ki, bits 0 nd (snd ki))) (list_prod ks (zrange 0 (Nat.pow 2 nd)))).
  { unfold neighbours. fold (bits 0 nd). change (fun i => map _ (seq 0 nd)) with (bits 0 nd).
    clearbody ks. induction ks as [|k ks IH]; [reflexivity|]. cbn [list_prod]. rewrite map_app, IH, !map_map. reflexivity. }
  rewrite EN.
  destruct (until_none_all (fun kn => np_add real false period (chunk size (fst kn) rows) (snd kn))
    (fun a kn => qsum (fun r => qsum (fun o => if (fst o =? a)%Z then snd o else 0)
        (match np_add real false period [r] (snd kn) with Some ops => ops | None => [] end)) (chunk size (fst kn) rows))
    (map (fun ki => (fst ki, bits 0 nd (snd ki))) (list_prod ks (zrange 0 (Nat.pow 2 nd)))) ) with (m := m) as [m' [E H]].
  - intros kn Hkn. apply in_map_iff in Hkn as [[k i] [<- Hki]]. cbn [fst snd].
    destruct (np_add_ignore real period Hper (chunk size k rows) i (HL k)) as [ops [Eo Ho]].
    exists ops. split; [exact Eo|]. intros a. rewrite Ho. apply qsum_ext_in. intros r Hr.
    destruct (np_add_ignore real period Hper [r] i) as [ops1 [E1 H1]].
    { constructor; [|constructor]. specialize (HL k). rewrite Forall_forall in HL. now apply HL. }
    rewrite E1. specialize (H1 a). unfold osum in H1. rewrite H1. cbn. ring.
  - exists m'. split; [exact E|]. intros a. rewrite H. apply Qplus_comp; [reflexivity|].
    rewrite qsum_map. cbn [fst snd]. rewrite qsum_list_prod. cbn [fst snd].
    match goal with |- _ == qsum ?F rows => transitivity (qsum F (flat_map (fun j => chunk size j rows) ks)) end;
      [|unfold ks; rewrite (chunks_all size rows n Hsize Hn); reflexivity].
    rewrite qsum_flat_map. apply qsum_ext. intros k.
    rewrite qsum_swap. apply qsum_ext_in. intros r Hr. specialize (HL k). rewrite Forall_forall in HL.
    rewrite <- (deposit_vis (snd r) a (fst r) (HL r Hr)). apply qsum_ext. intros i.
    destruct (np_add_ignore real period Hper [r] i) as [ops1 [E1 H1]].
    { constructor; [|constructor]. now apply HL. }
    rewrite E1. specialize (H1 a). unfold osum in H1. rewrite H1. cbn. ring.
Qed.
Lemma fits_located x : length x = nd ->
  (fits real per x <-> forall i, In i (zrange 0 (Nat.pow 2 nd)) -> inb (ar_shape real) (located real period i x) = true).
Proof.
  intros Hx. unfold fits. assert (HP := vis_all x Hx).
  assert (E : Forall (fun iq => inb (ar_shape real) (fst iq) = true) (cart (pts x)) <->
              Forall (fun iq => inb (ar_shape real) (fst iq) = true) (map (vis 2 (pts x)) (zrange 0 (2 ^ nd)))).
  { split; apply Permutation_Forall; [now symmetry|exact HP]. }
  rewrite E, Forall_map, Forall_forall. reflexivity.
Qed.
Lemma fits_dec x : length x = nd -> {fits real per x} + {~ fits real per x}.
Proof. intros Hx. unfold fits. apply Forall_dec. intros iq. destruct inb; [now left|now right]. Qed.
Lemma np_loop_raise rows size n m : (0 < size)%nat -> length rows = n -> Forall (fun r => length (fst r) = nd) rows ->
  let loop raise := until_none (fun kn => np_add real raise period (chunk size (fst kn) rows) (snd kn))
     (list_prod (seq 0 (chunk_count size n)) (neighbours nd)) m in
  (Forall (fun r => fits real per (fst r)) rows -> loop true = loop false) /\
  (~ Forall (fun r => fits real per (fst r)) rows -> snd (loop true) = false).
Proof.
  intros Hsize Hn HF. cbv zeta.
  assert (HL : forall k, Forall (fun r => length (fst r) = nd) (chunk size k rows)).
  { intros k. rewrite Forall_forall in *. intros r Hr. apply HF. eapply chunk_in, Hr. }
  split; intros H.
  - apply until_none_same. intros [k nb] Hkn. apply in_prod_iff in Hkn as [Hk Hb]. cbn [fst snd].
    apply in_map_iff in Hb as [i [<- Hi]]. change (map _ (seq 0 nd)) with (bits 0 nd i).
    apply (np_add_raise real period Hper); [apply HL|]. rewrite Forall_forall in *. intros r Hr.
    apply fits_located; [apply HF; eapply chunk_in, Hr|apply H; eapply chunk_in, Hr|exact Hi].
  - assert (HE : exists r, In r rows /\ ~ fits real per (fst r)).
    { rewrite Forall_forall in HF. clear - H HF Hper. induction rows as [|r rows IH]; [exfalso; apply H; constructor|].
      destruct (fits_dec (fst r) (HF r (or_introl eq_refl))) as [D|D].
      - destruct IH as [r' [A B]]; [intros x Hx; apply HF; now right| |exists r'; split; [now right|exact B]].
        intros H'. apply H. now constructor.
      - exists r. split; [now left|exact D]. }
    destruct HE as [r [Hr Hb]]. rewrite Forall_forall in HF.
    assert (HI : exists i, In i (zrange 0 (Nat.pow 2 nd)) /\ inb (ar_shape real) (located real period i (fst r)) = false).
    { destruct (Exists_dec (fun i => inb (ar_shape real) (located real period i (fst r)) = false) (zrange 0 (Nat.pow 2 nd))) as [D|D].
      - intros i. destruct inb; [now right|now left].
      - apply Exists_exists in D. exact D.
      - exfalso. apply Hb. apply fits_located; [now apply HF|]. intros i Hi.
        destruct (inb _ (located real period i (fst r))) eqn:E; [reflexivity|]. exfalso. apply D. apply Exists_exists. eauto. }
    destruct HI as [i [Hi Hib]]. destruct (chunks_in size rows n r Hsize Hn Hr) as [k [Hk Hkr]].
    apply (until_none_bad _ _ (k, bits 0 nd i)).
    + apply in_prod_iff. split; [exact Hk|]. apply in_map_iff. exists i. split; [reflexivity|exact Hi].
    + cbn [fst snd]. apply (np_add_raise real period Hper); [apply HL|]. intros HH. rewrite Forall_forall in HH.
      specialize (HH r Hkr). cbn beta in HH. congruence.
Qed.

(** reading *)
Definition np_one (m : memory) (g : list Q) (i : Z) : option Q :=
  if inb (ar_shape real) (located real period i g) then Some (np_kernel g (bits 0 nd i) * elem real m (located real period i g)) else None.
Lemma np_read_spec m raise rows i : Forall (fun g => length g = nd) rows ->
  (raise = true -> Forall (fun g => inb (ar_shape real) (located real period i g) = true) rows) ->
  np_read real m raise period rows (bits 0 nd i) = Some (map (fun g => np_one m g i) rows).
Proof.
  intros HF HR. unfold np_read. rewrite Forall_forall in HF.
  set (T := map (fun g => (np_target period g (bits 0 nd i), np_kernel g (bits 0 nd i))) rows).
  assert (HT : forall t, In t T -> length (fst t) = nd).
  { intros t Ht. apply in_map_iff in Ht as [g [<- Hg]]. cbn [fst]. rewrite (np_target_spec nd) by auto. apply located_length; auto. }
  rewrite ravel_kept.
  2:{ apply Forall_forall. intros t Ht. apply filter_In in Ht as [Ht Hm]. apply orb_true_iff in Hm as [Hm|Hm].
      - specialize (HR Hm). rewrite Forall_forall in HR. apply in_map_iff in Ht as [g [<- Hg]]. cbn [fst].
        rewrite (np_target_spec nd) by auto. now apply HR.
      - rewrite in_shape_spec in Hm; [exact Hm|now apply HT]. }
  f_equal. unfold T. rewrite map_map. apply map_ext_in. intros g Hg. cbn [fst snd].
  assert (Hl : length (located real period i g) = nd) by (apply located_length; auto).
  rewrite (np_target_spec nd) by auto. fold (located real period i g).
  unfold np_one, ravel_multi_index. rewrite in_shape_spec by exact Hl. rewrite ravel_from_spec.
  destruct raise; cbn [orb].
  - specialize (HR eq_refl). rewrite Forall_forall in HR. rewrite (HR g Hg). now rewrite flat_address_rv by auto.
  - destruct (inb _ (located real period i g)) eqn:E; [|reflexivity]. now rewrite flat_address_rv by auto.
Qed.
Lemma np_read_bad m rows i g : Forall (fun g => length g = nd) rows -> In g rows ->
  inb (ar_shape real) (located real period i g) = false ->
  np_read real m true period rows (bits 0 nd i) = None.
Proof.
  intros HF Hg Hb. unfold np_read. rewrite Forall_forall in HF. cbn [orb].
  rewrite filter_all by reflexivity.
  rewrite (ravel_bad _ _ (np_target period g (bits 0 nd i), np_kernel g (bits 0 nd i))); [reflexivity| |].
  - apply in_map_iff. eauto.
  - cbn [fst]. rewrite (np_target_spec nd) by auto. exact Hb.
Qed.
Lemma np_read_chunk_spec m raise rows is : Forall (fun g => length g = nd) rows ->
  (raise = true -> Forall (fun g => forall i, In i is -> inb (ar_shape real) (located real period i g) = true) rows) ->
  forall f, np_read_chunk real m raise period rows (map (bits 0 nd) is) (map f rows) =
    Some (map (fun g => fold_left (fun s i => add_option s (np_one m g i)) is (f g)) rows).
Proof.
  intros HF. induction is as [|i is IH]; intros HR f; cbn [map np_read_chunk fold_left]; [reflexivity|].
  rewrite np_read_spec; [|exact HF|].
  - rewrite combine_map_map, map_map. cbn [fst snd].
    apply (IH ltac:(intros Hr; refine (Forall_impl _ _ (HR Hr)); intros g Hg j Hj; apply Hg; now right) (fun g => add_option (f g) (np_one m g i))).
  - intros Hr. refine (Forall_impl _ _ (HR Hr)). intros g Hg. apply Hg. now left.
Qed.
Lemma np_read_chunk_bad m rows is out g i : Forall (fun g => length g = nd) rows -> In g rows -> In i is ->
  inb (ar_shape real) (located real period i g) = false ->
  np_read_chunk real m true period rows (map (bits 0 nd) is) out = None.
Proof.
  intros HF Hg Hi Hb. revert out. induction is as [|j is IH]; intros out; [destruct Hi|].
  cbn [map np_read_chunk]. destruct Hi as [->|Hi].
  - now rewrite (np_read_bad m rows i g).
  - destruct np_read; [now apply IH|reflexivity].
Qed.
Lemma np_fold_fetch m g : length g = nd ->
  fold_left (fun s i => add_option s (np_one m g i)) (zrange 0 (Nat.pow 2 nd)) 0 == fetch real m (pts g).
Proof.
  intros Hg. unfold fetch. rewrite <- (qsum_perm _ _ _ (vis_all g Hg)), qsum_map.
  enough (E : forall l s, fold_left (fun s i => add_option s (np_one m g i)) l s ==
    s + qsum (fun i => if inb (ar_shape real) (fst (vis 2 (pts g) i)) then snd (vis 2 (pts g) i) * elem real m (fst (vis 2 (pts g) i)) else 0) l)
    by (rewrite E; ring).
  induction l as [|i l IH]; intros s; cbn [fold_left]; [cbn; ring|].
  rewrite IH, qsum_cons. unfold np_one, located. destruct inb; cbn [add_option]; [|ring].
  rewrite (np_kernel_vis real period Hper g i Hg). ring.
Qed.
End NumpyLoop.

(** ** Which particles fit, axis by axis *)
Lemma fits_axes real period x : length period = length (ar_shape real) -> length x = length (ar_shape real) ->
  (fits real period x <->
   forall d e, (d < length (ar_shape real))%nat -> (e = 0 \/ e = 1)%Z ->
     (0 <= wz (nth d period 0%Z) (Qfloor (nth d x 0%Q) + e) < nth d (ar_shape real) 0)%Z).
Proof.
  unfold fits. generalize (ar_shape real) as shape. intros shape. revert period x.
  induction shape as [|n shape IH]; intros [|p period] [|y x] Hp Hx; try discriminate.
  - split; [intros _ d e Hd; cbn in Hd; lia|]. intros _. cbn. repeat constructor.
  - injection Hp as Hp. injection Hx as Hx. specialize (IH period x Hp Hx).
    assert (Hne : exists iq, In iq (cart (lines cic_line period x))).
    { clear. revert x. induction period as [|p period IH]; intros [|y x]; try (eexists; left; reflexivity).
      destruct (IH x) as [iq Hi]. cbn [lines cart cic_line flat_map].
      eexists. apply in_or_app. left. apply in_map_iff. exists iq. split; [reflexivity|exact Hi]. }
    cbn [lines cart cic_line flat_map]. rewrite app_nil_r, Forall_app, !Forall_map. cbn [fst snd inb].
    rewrite !Forall_forall. rewrite Forall_forall in IH. split.
    + intros [H0 H1] [|d] e Hd He; cbn [nth].
      * destruct Hne as [iq Hi]. specialize (H0 iq Hi). specialize (H1 iq Hi).
        apply andb_true_iff in H0 as [H0 _]. apply andb_true_iff in H0 as [A0 B0].
        apply andb_true_iff in H1 as [H1 _]. apply andb_true_iff in H1 as [A1 B1].
        apply Z.leb_le in A0, A1. apply Z.ltb_lt in B0, B1.
        destruct He as [-> | ->]; [rewrite Z.add_0_r|]; lia.
      * apply IH; [|cbn in Hd; lia|exact He]. intros iq Hi. specialize (H0 iq Hi). now apply andb_true_iff in H0.
    + intros H.
      assert (HR : forall iq, In iq (cart (lines cic_line period x)) -> inb shape (fst iq) = true).
      { apply IH. intros d e Hd He. apply (H (S d) e); [cbn; lia|exact He]. }
      pose proof (H 0%nat 0%Z ltac:(cbn; lia) (or_introl eq_refl)) as H0. pose proof (H 0%nat 1%Z ltac:(cbn; lia) (or_intror eq_refl)) as H1.
      cbn [nth] in H0, H1. rewrite Z.add_0_r in H0.
      split; intros iq Hi; rewrite (HR iq Hi), andb_true_r; apply andb_true_iff; split; (apply Z.leb_le; lia) || (apply Z.ltb_lt; lia).
Qed.
