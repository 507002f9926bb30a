(** The generic and the tuned routines as sums over a product of per-axis points. *)
From Coq Require Import List Arith ZArith QArith Qabs Qround Lia Lqa Bool Permutation Setoid Morphisms.
From Verif Require Import Base ListFacts WrapModel WrapProofs DomainModel DomainFill QSum WindowModel.
Import ListNotations.
Local Open Scope Q_scope.

(* ---------- the odometer visits the whole stencil ---------- *)

Lemma bump_advance s2 p : Forall (fun x => x < s2)%Z p ->
  bump s2 p = (fst (advance_in (repeat (0, s2)%Z (length p)) p),
               if snd (advance_in (repeat (0, s2)%Z (length p)) p) then 1 else 0)%Z.
Proof.
  induction 1 as [|x p Hx Hp IH]; [reflexivity|].
  cbn [bump length repeat advance_in]. rewrite IH.
  destruct (advance_in (repeat (0, s2)%Z (length p)) p) as [p' c]. cbn [fst snd].
  destruct c.
  - destruct (Z.eqb_spec (x + 1) s2); reflexivity.
  - rewrite Z.add_0_r. destruct (Z.eqb_spec x s2); [lia|reflexivity].
Qed.

Lemma odometer_chain s2 n B e fuel :
  chain (advance_in (repeat (0, s2)%Z (S n))) B e true ->
  Forall (fun p => length p = S n /\ Forall (fun x => x < s2)%Z p) B ->
  (length B < fuel)%nat -> odometer fuel s2 (hd [] B) = B.
Proof.
  revert fuel. induction B as [|b B IH]; intros fuel HC HB Hf; [contradiction|].
  destruct fuel as [|fuel]; [lia|]. cbn [length] in Hf.
  inversion HB as [|? ? Hb HB']; subst. destruct Hb as [Hlen Hlt].
  destruct b as [|x p]; [discriminate|]. cbn [length] in Hlen.
  inversion Hlt as [|? ? Hx Hp]; subst.
  assert (Hn : length p = n) by lia.
  assert (N : next s2 (x :: p) =
    (x + if snd (advance_in (repeat (0, s2)%Z n) p) then 1 else 0)%Z :: fst (advance_in (repeat (0, s2)%Z n) p)).
  { cbn [next]. rewrite (bump_advance s2 p Hp), Hn. reflexivity. }
  cbn [hd odometer]. destruct (Z.eqb_spec x s2); [lia|]. f_equal.
  rewrite N. destruct B as [|b' B].
  - cbn [chain repeat advance_in] in HC. destruct (advance_in (repeat (0, s2)%Z n) p) as [p' c].
    cbn [fst snd]. destruct c; [|discriminate].
    destruct (Z.eqb_spec (x + 1) s2) as [E|E]; [|discriminate].
    destruct fuel as [|fuel]; [reflexivity|]. cbn [odometer hd]. rewrite E, Z.eqb_refl. reflexivity.
  - apply chain_cons in HC. destruct HC as [H1 H2].
    cbn [repeat advance_in] in H1. destruct (advance_in (repeat (0, s2)%Z n) p) as [p' c].
    cbn [fst snd]. rewrite <- (IH fuel H2 HB') by lia. cbn [hd]. f_equal. destruct c.
    + destruct (Z.eqb_spec (x + 1) s2); inversion H1. reflexivity.
    + inversion H1. rewrite Z.add_0_r. reflexivity.
Qed.

Lemma patchsize_repeat s n : patchsize (repeat (0, s)%Z n) = (s ^ Z.of_nat n)%Z.
Proof.
  induction n as [|n IH]; [reflexivity|]. cbn [repeat]. unfold patchsize in *. cbn [fold_right fst snd].
  rewrite IH, Nat2Z.inj_succ, Z.pow_succ_r by lia. lia.
Qed.

Theorem stencil_box n s : (0 < n)%nat -> (0 < s)%Z -> stencil n s = box (repeat (0, s)%Z n).
Proof.
  intros Hn Hs. destruct n as [|n]; [lia|].
  assert (Hr : Forall (fun lh => fst lh < snd lh)%Z (repeat (0, s)%Z (S n))).
  { apply Forall_forall. intros x Hx. apply repeat_spec in Hx. subst. exact Hs. }
  destruct (hd_box _ Hr) as (B & HB).
  assert (Hm : map fst (repeat (0, s)%Z (S n)) = repeat 0%Z (S n)).
  { generalize (S n). intros k. induction k as [|k IH]; [reflexivity|]. cbn. rewrite IH. reflexivity. }
  unfold stencil. replace (repeat 0%Z (S n)) with (hd [] (box (repeat (0, s)%Z (S n)))) by (rewrite HB, Hm; reflexivity).
  apply (odometer_chain s n _ _ _ (chain_box _ Hr)).
  - apply Forall_forall. intros p Hp. apply in_box in Hp. split.
    + apply Forall2_len in Hp. rewrite repeat_length in Hp. symmetry. exact Hp.
    + clear -Hp. remember (repeat (0, s)%Z (S n)) as r eqn:E.
      assert (Hr : Forall (fun lh => lh = (0, s)%Z) r).
      { subst. apply Forall_forall. intros x Hx. apply repeat_spec in Hx. exact Hx. }
      clear E. revert Hr. induction Hp as [|lh x r p H _ IH]; intros Hr; [constructor|].
      inversion Hr; subst. constructor; [cbn in H; lia|apply IH; assumption].
  - assert (L := box_length (repeat (0, s)%Z (S n))). rewrite patchsize_repeat in L.
    rewrite <- L; [lia|]. revert Hr. apply Forall_impl. intros a Ha. lia.
Qed.

(* ---------- products of points ---------- *)

(** all combinations of one point per axis with the product of their weights *)
Fixpoint cart (ls : list (list (Z * Q))) : list (list Z * Q) :=
  match ls with
  | [] => [([], 1)]
  | l :: ls' => flat_map (fun jw => map (fun r => (fst jw :: fst r, snd jw * snd r)) (cart ls')) l
  end.

Definition offset (axes : list axis) (idx : list Z) : Z :=
  fold_right Z.add 0%Z (map (fun ai => ax_stride (fst ai) * snd ai)%Z (combine axes idx)).

(** atomic additions up to equality of rationals *)
Definition ops_eq : list op -> list op -> Prop := Forall2 (fun a b => fst a = fst b /\ snd a == snd b).

Definition spec_ops (axes : list axis) (pts : list (list (Z * Q))) (weight : Q) : list op :=
  flat_map (fun iq => if inside_canvas axes (fst iq) then [(offset axes (fst iq), weight * snd iq)] else []) (cart pts).
Definition spec_readout (axes : list axis) (pts : list (list (Z * Q))) (m : memory) : Q :=
  qsum (fun iq => if inside_canvas axes (fst iq) then snd iq * m (offset axes (fst iq)) else 0) (cart pts).

Lemma ops_eq_app a b c d : ops_eq a b -> ops_eq c d -> ops_eq (a ++ c) (b ++ d).
Proof. apply Forall2_app. Qed.
Lemma ops_eq_refl l : ops_eq l l.
Proof. induction l; constructor; [split; reflexivity|assumption]. Qed.

Lemma ops_eq_flat_map {A B} (R : A -> B -> Prop) (f : A -> list op) (g : B -> list op) l m :
  Forall2 R l m -> (forall a b, R a b -> ops_eq (f a) (g b)) -> ops_eq (flat_map f l) (flat_map g m).
Proof.
  induction 1 as [|a b l m H _ IH]; intros HR; cbn; [constructor|].
  apply ops_eq_app; [apply HR, H|apply IH, HR].
Qed.

Lemma fold_qsum {A} (f : A -> option (Q * Z)) (m : memory) l v :
  fold_left (fun value rel => match f rel with Some (k, ind) => value + k * m ind | None => value end) l v
  == v + qsum (fun rel => match f rel with Some (k, ind) => k * m ind | None => 0 end) l.
Proof.
  revert v. induction l as [|a l IH]; intros v; cbn [fold_left]; [rewrite qsum_nil; ring|].
  rewrite IH, qsum_cons. destruct (f a) as [[k ind]|]; ring.
Qed.
Lemma fold_qsum' {A} (f : A -> Q) l v :
  fold_left (fun value a => value + f a) l v == v + qsum f l.
Proof.
  revert v. induction l as [|a l IH]; intros v; cbn [fold_left]; [rewrite qsum_nil; ring|].
  rewrite IH, qsum_cons. ring.
Qed.

(* ---------- the generic routine ---------- *)

Definition wrap_axis (a : axis) (j : Z) : Z := if (ax_period a >? 0)%Z then (j mod ax_period a)%Z else j.

(** the points of one axis: index wrapped into the mesh, and weight *)
Definition generic_points (k : kind) (w : winfo) (a : axis) (x : Q) : list (Z * Q) :=
  let '(ipos, kd) := fill_k k w a x in
  combine (map (wrap_axis a) (zrange ipos (Z.to_nat (wi_support w)))) kd.

Fixpoint points_with (f : axis -> Q -> list (Z * Q)) (axes : list axis) (pos : list Q) : list (list (Z * Q)) :=
  match axes, pos with
  | a :: axes', x :: pos' => f a x :: points_with f axes' pos'
  | _, _ => []
  end.

(** the point of the product that belongs to a value of [rel] *)
Fixpoint pt_index (axes : list axis) (fk : list (Z * list Q)) (rel : list Z) : list Z :=
  match axes, fk, rel with
  | a :: axes', (ipos, _) :: fk', r :: rel' => wrap_axis a (ipos + r) :: pt_index axes' fk' rel'
  | _, _, _ => []
  end.
Fixpoint pt_weight (fk : list (Z * list Q)) (rel : list Z) : Q :=
  match fk, rel with
  | (_, kd) :: fk', r :: rel' => nth (Z.to_nat r) kd 0 * pt_weight fk' rel'
  | _, _ => 1
  end.

Lemma locate_spec axes fk rel k ind : length fk = length axes -> length rel = length axes ->
  match locate axes fk rel k ind with
  | Some (q, o) => inside_canvas axes (pt_index axes fk rel) = true /\ q == k * pt_weight fk rel
                   /\ o = (ind + offset axes (pt_index axes fk rel))%Z
  | None => inside_canvas axes (pt_index axes fk rel) = false
  end.
Proof.
  revert fk rel k ind. induction axes as [|a axes IH]; intros fk rel k ind Hf Hr;
    destruct fk as [|[ipos kd] fk]; destruct rel as [|r rel]; try discriminate.
  - cbn. split; [reflexivity|]. split; [ring|lia].
  - cbn [locate pt_index inside_canvas pt_weight].
    assert (E : (if (ax_period a >? 0)%Z then wrap_du (ax_period a) (ipos + r) else (ipos + r)%Z) = wrap_axis a (ipos + r)).
    { unfold wrap_axis. destruct (Z.gtb_spec (ax_period a) 0) as [H|H]; [|reflexivity].
      apply wrap_du_mod. exact H. }
    rewrite E. set (t := wrap_axis a (ipos + r)).
    destruct (Z.geb_spec t (ax_size a)) as [H|H].
    + replace (ax_size a <=? t)%Z with true by (symmetry; apply Z.leb_le; lia). rewrite orb_true_r. reflexivity.
    + destruct (Z.ltb_spec t 0) as [H0|H0].
      * replace (0 >? t)%Z with true by (symmetry; apply Z.gtb_lt; lia). reflexivity.
      * replace (0 >? t)%Z with false by (symmetry; rewrite Z.gtb_ltb; apply Z.ltb_ge; lia).
        replace (ax_size a <=? t)%Z with false by (symmetry; apply Z.leb_gt; lia). cbn [orb].
        injection Hf as Hf. injection Hr as Hr.
        specialize (IH fk rel (k * nth (Z.to_nat r) kd 0) (ind + ax_stride a * t)%Z Hf Hr).
        destruct (locate axes fk rel _ _) as [[q o]|]; [|exact IH].
        destruct IH as (I1 & I2 & I3). split; [exact I1|]. split.
        -- rewrite I2. ring.
        -- rewrite I3. unfold offset. cbn [combine map fold_right fst snd]. lia.
Qed.

Lemma fill_all_length k w axes pos : length pos = length axes -> length (fill_all k w axes pos) = length axes.
Proof.
  revert pos. induction axes as [|a axes IH]; intros pos H; destruct pos as [|x pos]; try discriminate; [reflexivity|].
  cbn [fill_all length]. rewrite IH; [reflexivity|]. injection H. auto.
Qed.

Lemma combine_nth_map {A} (g : Z -> Z) ipos n (kd : list A) d : length kd = n ->
  combine (map g (zrange ipos n)) kd = map (fun r => (g (ipos + r)%Z, nth (Z.to_nat r) kd d)) (zrange 0 n).
Proof.
  intros H. apply list_ext. intros i. rewrite nth_error_combine, !nth_error_map.
  destruct (lt_dec i n) as [Hi|Hi].
  - rewrite !nth_error_zrange by exact Hi. rewrite (nth_error_nth' kd d) by lia. cbn [option_map].
    rewrite Z.add_0_l, Nat2Z.id. reflexivity.
  - rewrite (proj2 (nth_error_None _ _)) by (rewrite zrange_length; lia).
    rewrite (proj2 (nth_error_None (zrange 0 n) i)) by (rewrite zrange_length; lia). reflexivity.
Qed.

Lemma fill_k_length k w a x : length (snd (fill_k k w a x)) = Z.to_nat (wi_support w).
Proof. unfold fill_k. cbn [snd]. rewrite map_length, zrange_length. reflexivity. Qed.

Lemma generic_points_map k w a x : generic_points k w a x =
  map (fun r => (wrap_axis a (fst (fill_k k w a x) + r)%Z, nth (Z.to_nat r) (snd (fill_k k w a x)) 0))
      (zrange 0 (Z.to_nat (wi_support w))).
Proof.
  unfold generic_points. assert (L := fill_k_length k w a x).
  destruct (fill_k k w a x) as [ipos kd]. apply combine_nth_map. exact L.
Qed.

(** the product of the points is listed in the order in which the loop visits them *)
Lemma cart_box k w axes pos : length pos = length axes ->
  Forall2 (fun rel iq => length rel = length axes /\ fst iq = pt_index axes (fill_all k w axes pos) rel
                         /\ snd iq == pt_weight (fill_all k w axes pos) rel)
    (box (repeat (0, wi_support w)%Z (length axes))) (cart (points_with (generic_points k w) axes pos)).
Proof.
  revert pos. induction axes as [|a axes IH]; intros pos H; destruct pos as [|x pos]; try discriminate.
  - cbn. constructor; [|constructor]. split; [reflexivity|]. split; reflexivity.
  - injection H as H. specialize (IH pos H).
    cbn [length repeat box points_with cart fill_all].
    rewrite (generic_points_map k w a x), flat_map_map, Z.sub_0_r.
    destruct (fill_k k w a x) as [ipos kd]. cbn [fst snd].
    generalize (zrange 0 (Z.to_nat (wi_support w))) as rs. induction rs as [|r rs IHr]; [constructor|].
    cbn [flat_map]. apply Forall2_app; [|exact IHr]. clear IHr rs.
    induction IH as [|rel iq B C (H1 & H2 & H3) _ IHB]; [constructor|].
    cbn [map]. constructor; [|exact IHB]. cbn [length fst snd pt_index pt_weight].
    split; [rewrite H1; reflexivity|]. split; [rewrite H2; reflexivity|]. rewrite H3. reflexivity.
Qed.

Theorem generic_paint_spec p w pos weight :
  length pos = length (pt_axes p) -> (0 < length (pt_axes p))%nat -> (0 < wi_support w)%Z ->
  ops_eq (generic_paint p w pos weight)
         (spec_ops (pt_axes p) (points_with (generic_points (pt_kind p) w) (pt_axes p) pos) weight).
Proof.
  intros Hl Hn Hs. unfold generic_paint, spec_ops. rewrite stencil_box by assumption.
  eapply ops_eq_flat_map; [apply cart_box, Hl|].
  intros rel iq (H1 & H2 & H3). cbn beta.
  assert (L := locate_spec (pt_axes p) (fill_all (pt_kind p) w (pt_axes p) pos) rel 1 0%Z
                 (fill_all_length _ _ _ _ Hl) H1).
  rewrite <- H2 in L. destruct (locate _ _ _ _ _) as [[q o]|].
  - destruct L as (-> & L2 & ->). constructor; [|constructor]. cbn [fst snd]. split; [lia|].
    rewrite L2, H3. ring.
  - rewrite L. constructor.
Qed.

Lemma qsum_F2 {A B} (R : A -> B -> Prop) (f : A -> Q) (g : B -> Q) l m :
  Forall2 R l m -> (forall a b, R a b -> f a == g b) -> qsum f l == qsum g m.
Proof.
  induction 1 as [|a b l m H _ IH]; intros HR; [reflexivity|].
  rewrite !qsum_cons, (HR _ _ H), IH by exact HR. reflexivity.
Qed.

Theorem generic_readout_spec p w pos m :
  length pos = length (pt_axes p) -> (0 < length (pt_axes p))%nat -> (0 < wi_support w)%Z ->
  generic_readout p w pos m ==
  spec_readout (pt_axes p) (points_with (generic_points (pt_kind p) w) (pt_axes p) pos) m.
Proof.
  intros Hl Hn Hs. unfold generic_readout, spec_readout. rewrite stencil_box by assumption.
  rewrite fold_qsum, Qplus_0_l.
  eapply qsum_F2; [apply cart_box, Hl|].
  intros rel iq (H1 & H2 & H3). cbn beta.
  assert (L := locate_spec (pt_axes p) (fill_all (pt_kind p) w (pt_axes p) pos) rel 1 0%Z
                 (fill_all_length _ _ _ _ Hl) H1).
  rewrite <- H2 in L. destruct (locate _ _ _ _ _) as [[q o]|].
  - destruct L as (-> & L2 & ->). rewrite Z.add_0_l, L2, H3. ring.
  - rewrite L. reflexivity.
Qed.

(* ---------- the tuned routines ---------- *)

Definition tuned_points (setup : axis -> Q -> list Z * list Q) (a : axis) (x : Q) : list (Z * Q) :=
  let s := setup_wrap a (setup a x) in combine (fst s) (snd s).

(** all tuples below [n], last fastest *)
Fixpoint tuples (n d : nat) : list (list nat) :=
  match d with O => [[]] | S d' => flat_map (fun i => map (cons i) (tuples n d')) (seq 0 n) end.

Lemma combine_nth_seq {A B} (l : list A) (m : list B) n da db : length l = n -> length m = n ->
  combine l m = map (fun i => (nth i l da, nth i m db)) (seq 0 n).
Proof.
  intros <- H. revert m H. induction l as [|x l IH]; intros m H; destruct m as [|y m]; try discriminate; [reflexivity|].
  injection H as H. cbn [combine length seq map nth]. rewrite (IH m H), <- seq_shift, map_map. reflexivity.
Qed.

Definition pair_lengths (n : nat) (s : list (list Z * list Q)) : Prop :=
  Forall (fun lv => length (fst lv) = n /\ length (snd lv) = n) s.

Lemma cart_tuples n s : pair_lengths n s ->
  Forall2 (fun abc iq => fst iq = pick 0%Z (map fst s) abc /\ snd iq == qprod (pick 0 (map snd s) abc) /\ length abc = length s)
    (tuples n (length s)) (cart (map (fun lv => combine (fst lv) (snd lv)) s)).
Proof.
  induction 1 as [|[l v] s [Hl Hv] _ IH].
  - cbn. constructor; [|constructor]. split; [reflexivity|]. split; reflexivity.
  - cbn [fst snd] in Hl, Hv. cbn [length tuples map cart fst snd].
    rewrite (combine_nth_seq l v n 0%Z 0 Hl Hv), flat_map_map.
    generalize (seq 0 n) as rs. induction rs as [|r rs IHr]; [constructor|].
    cbn [flat_map]. apply Forall2_app; [|exact IHr]. clear IHr rs.
    induction IH as [|abc iq B C (H1 & H2 & H3) _ IHB]; [constructor|].
    cbn [map]. constructor; [|exact IHB]. cbn [fst snd pick qprod length].
    split; [rewrite H1; reflexivity|]. split; [rewrite H2; reflexivity|]. rewrite H3. reflexivity.
Qed.

Lemma setup_all_length setup axes pos : length pos = length axes -> length (setup_all setup axes pos) = length axes.
Proof.
  revert pos. induction axes as [|a axes IH]; intros pos H; destruct pos as [|x pos]; try discriminate; [reflexivity|].
  cbn [setup_all length]. rewrite IH; [reflexivity|]. injection H. auto.
Qed.
Lemma setup_all_points setup axes pos :
  map (fun lv => combine (fst lv) (snd lv)) (setup_all setup axes pos) = points_with (tuned_points setup) axes pos.
Proof.
  revert pos. induction axes as [|a axes IH]; intros pos; destruct pos as [|x pos]; try reflexivity.
  cbn [setup_all map points_with]. rewrite IH. reflexivity.
Qed.
Lemma setup_all_lengths setup n axes pos :
  (forall a x, length (fst (setup a x)) = n /\ length (snd (setup a x)) = n) ->
  pair_lengths n (setup_all setup axes pos).
Proof.
  intros H. unfold pair_lengths.
  revert pos. induction axes as [|a axes IH]; intros pos; destruct pos as [|x pos]; try constructor.
  - unfold setup_wrap. cbn [fst snd]. destruct (H a x) as [H1 H2].
    destruct (ax_period a =? 0)%Z; rewrite ?map_length; split; assumption.
  - apply IH.
Qed.

Lemma offset3_spec axes idx : length idx = length axes -> (0 < length axes <= 3)%nat ->
  offset3 axes idx = offset axes idx.
Proof.
  intros H L. unfold offset.
  destruct axes as [|a0 [|a1 [|a2 [|a3 axes]]]]; destruct idx as [|i0 [|i1 [|i2 [|i3 idx]]]]; cbn in H, L; try discriminate; try lia;
    cbn [offset3 combine map fold_right fst snd]; lia.
Qed.
Lemma product3_spec v : (0 < length v <= 3)%nat -> product3 v == qprod v.
Proof.
  intros L. destruct v as [|a [|b [|c [|d v]]]]; cbn in L; try lia; cbn [product3 qprod]; ring.
Qed.
Lemma pick_length {A} (d : A) l abc : length abc = length l -> length (pick d l abc) = length l.
Proof.
  revert abc. induction l as [|x l IH]; intros abc H; destruct abc as [|i abc]; try discriminate; [reflexivity|].
  cbn [pick length]. rewrite IH; [reflexivity|]. injection H. auto.
Qed.

Lemma nth_scale weight v i : nth i (map (fun x => x * weight) v) 0 == nth i v 0 * weight.
Proof.
  revert i. induction v as [|x v IH]; intros i; destruct i; cbn; try ring. apply IH.
Qed.
Lemma pick_scale_first weight V abc : (0 < length V)%nat -> length abc = length V ->
  qprod (pick 0 (scale_first weight V) abc) == weight * qprod (pick 0 V abc).
Proof.
  intros Hn H. destruct V as [|v V]; [cbn in Hn; lia|]. destruct abc as [|i abc]; [discriminate|].
  cbn [scale_first pick qprod]. rewrite nth_scale. ring.
Qed.

Theorem tuned_paint_spec setup n axes pos weight :
  (forall a x, length (fst (setup a x)) = n /\ length (snd (setup a x)) = n) ->
  length pos = length axes -> (0 < length axes <= 3)%nat ->
  ops_eq (tuned_paint setup (tuples n (length axes)) axes pos weight)
         (spec_ops axes (points_with (tuned_points setup) axes pos) weight).
Proof.
  intros Hs Hl Hn. unfold tuned_paint, spec_ops.
  assert (L := setup_all_length setup axes pos Hl).
  assert (C := cart_tuples n _ (setup_all_lengths setup n axes pos Hs)). rewrite L, setup_all_points in C.
  eapply ops_eq_flat_map; [exact C|].
  intros abc iq (H1 & H2 & H3). cbn beta. unfold access. rewrite H1.
  destruct (inside_canvas axes (pick 0%Z (map fst (setup_all setup axes pos)) abc)); [|constructor].
  constructor; [|constructor]. cbn [fst snd].
  assert (LV : length (map snd (setup_all setup axes pos)) = length axes) by (rewrite map_length; exact L).
  split.
  - apply offset3_spec; [|exact Hn]. rewrite pick_length by (rewrite map_length, L; lia).
    rewrite map_length. exact L.
  - assert (LS : length (scale_first weight (map snd (setup_all setup axes pos))) = length axes).
    { rewrite <- LV. destruct (map snd (setup_all setup axes pos)); reflexivity. }
    rewrite product3_spec.
    + rewrite pick_scale_first by lia. rewrite H2. reflexivity.
    + rewrite pick_length by lia. lia.
Qed.

Theorem tuned_readout_spec setup n axes pos m :
  (forall a x, length (fst (setup a x)) = n /\ length (snd (setup a x)) = n) ->
  length pos = length axes -> (0 < length axes <= 3)%nat ->
  tuned_readout setup (tuples n (length axes)) axes pos m ==
  spec_readout axes (points_with (tuned_points setup) axes pos) m.
Proof.
  intros Hs Hl Hn. unfold tuned_readout, spec_readout. rewrite fold_qsum', Qplus_0_l.
  assert (L := setup_all_length setup axes pos Hl).
  assert (C := cart_tuples n _ (setup_all_lengths setup n axes pos Hs)). rewrite L, setup_all_points in C.
  eapply qsum_F2; [exact C|].
  intros abc iq (H1 & H2 & H3). cbn beta. unfold access. rewrite H1.
  destruct (inside_canvas axes (pick 0%Z (map fst (setup_all setup axes pos)) abc)); [|reflexivity].
  rewrite offset3_spec; [|rewrite pick_length by (rewrite map_length, L; lia); rewrite map_length; exact L|exact Hn].
  rewrite product3_spec, H2 by (rewrite pick_length, map_length, L by (rewrite map_length; lia); lia). ring.
Qed.

(* ---------- one painter ---------- *)

(** the points of one axis as the painter uses them *)
Definition axis_points (p : painter) (hsml : Q) : axis -> Q -> list (Z * Q) :=
  let w := window_for p hsml in
  match getfastmethod p w with
  | Some f => tuned_points (f_setup f)
  | None => generic_points (pt_kind p) w
  end.
Definition all_points (p : painter) (hsml : Q) (pos : list Q) : list (list (Z * Q)) :=
  points_with (axis_points p hsml) (pt_axes p) pos.

Definition wf_kind (k : kind) : Prop := (0 < native_of k)%Z.
Lemma window_info_support native s : (0 < native)%Z -> (0 < wi_support (window_info_init native s))%Z.
Proof.
  intros H. unfold window_info_init. destruct (Qle_bool s 0) eqn:E; cbn [wi_support]; [exact H|].
  assert (Hs : 0 < s).
  { apply Qnot_le_lt. intros C. apply Qle_bool_iff in C. congruence. }
  unfold trunc. replace (Qle_bool 0 s) with true by (symmetry; apply Qle_bool_iff; lra).
  assert (0 <= Qfloor s)%Z.
  { apply (Qfloor_resp_le 0 s). lra. }
  destruct (Qeq_bool s (inject_Z (Qfloor s))) eqn:E2; [|lia].
  apply Qeq_bool_eq in E2. assert (Qfloor s <> 0)%Z; [|lia].
  intros Z0. rewrite Z0 in E2. rewrite E2 in Hs. discriminate Hs.
Qed.

Definition fast_ok (p : painter) (f : fast) (n : nat) : Prop :=
  (forall a x, length (fst (f_setup f a x)) = n /\ length (snd (f_setup f a x)) = n) /\
  f_paint f = tuples n (length (pt_axes p)) /\ f_readout f = tuples n (length (pt_axes p)) /\
  (0 < length (pt_axes p) <= 3)%nat.

Lemma getfastmethod_ok p w f : getfastmethod p w = Some f -> exists n, fast_ok p f n.
Proof.
  unfold getfastmethod. destruct (fast_allowed (pt_axes p)); [|discriminate].
  destruct (pt_kind p); try discriminate;
    (destruct (negb _); [discriminate|];
     destruct (Nat.eqb_spec (length (pt_axes p)) 1) as [E1|_];
     [|destruct (Nat.eqb_spec (length (pt_axes p)) 2) as [E1|_];
       [|destruct (Nat.eqb_spec (length (pt_axes p)) 3) as [E1|_]; [|discriminate]]]);
    intros H; injection H as <-.
  1-3: exists 1%nat. 4-6: exists 2%nat. 7-9: exists 3%nat. 10-12: exists 4%nat.
  all: split; [intros a x; cbn [f_setup]; unfold setup_nnb, setup_cic, setup_tsc, setup_pcs; cbn [fst snd];
               destruct (ax_order a =? 0)%Z; split; reflexivity|];
       rewrite E1; split; [reflexivity|]; split; [reflexivity|lia].
Qed.

Theorem paint_ops_spec p pos weight hsml :
  wf_kind (pt_kind p) -> length pos = length (pt_axes p) -> (0 < length (pt_axes p))%nat ->
  ops_eq (paint_ops p pos weight hsml) (spec_ops (pt_axes p) (all_points p hsml pos) weight).
Proof.
  intros Hk Hl Hn. unfold paint_ops, all_points, axis_points.
  destruct (getfastmethod p (window_for p hsml)) as [f|] eqn:E.
  - destruct (getfastmethod_ok _ _ _ E) as (n & H1 & H2 & H3 & H4). rewrite H2. apply tuned_paint_spec; assumption.
  - apply generic_paint_spec; [assumption|assumption|]. apply window_info_support, Hk.
Qed.
Theorem readout_at_spec p m pos hsml :
  wf_kind (pt_kind p) -> length pos = length (pt_axes p) -> (0 < length (pt_axes p))%nat ->
  readout_at p m pos hsml == spec_readout (pt_axes p) (all_points p hsml pos) m.
Proof.
  intros Hk Hl Hn. unfold readout_at, all_points, axis_points.
  destruct (getfastmethod p (window_for p hsml)) as [f|] eqn:E.
  - destruct (getfastmethod_ok _ _ _ E) as (n & H1 & H2 & H3 & H4). rewrite H3. apply tuned_readout_spec; assumption.
  - apply generic_readout_spec; [assumption|assumption|]. apply window_info_support, Hk.
Qed.
