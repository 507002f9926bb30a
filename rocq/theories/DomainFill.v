From Coq Require Import List Arith ZArith QArith Lia Bool Sorted Permutation.
From Verif Require Import Base ListFacts LayoutModel LayoutSpec LayoutProofs WrapModel WrapProofs DomainModel.
Import ListNotations.
Local Close Scope Q_scope.
Local Open Scope Z_scope.
Local Arguments list_sum : simpl never.

(* ---------- the odometer visits a box ---------- *)

(** all multi-indices of a box, last coordinate fastest *)
Fixpoint box (r : list (Z * Z)) : list (list Z) :=
  match r with
  | [] => [[]]
  | (lo, hi) :: r' => flat_map (fun x => map (cons x) (box r')) (zrange lo (Z.to_nat (hi - lo)))
  end.

Lemma in_box r p : In p (box r) <-> Forall2 (fun lh x => fst lh <= x < snd lh) r p.
Proof.
  revert p; induction r as [|[lo hi] r IH]; intros p; simpl.
  - split.
    + intros [<-|[]]. constructor.
    + intros H. inversion H. now left.
  - rewrite in_flat_map. split.
    + intros (x & Hx & Hp). apply in_map_iff in Hp. destruct Hp as (q & <- & Hq).
      apply in_zrange in Hx. constructor; [simpl; lia|]. now apply IH.
    + intros H. inversion H as [|? x ? q Hx Hq]; subst. simpl in Hx. exists x. split.
      * apply in_zrange. lia.
      * apply in_map. now apply IH.
Qed.

Lemma box_NoDup r : NoDup (box r).
Proof.
  induction r as [|[lo hi] r IH]; simpl; [repeat constructor; intros []|].
  assert (H := zrange_NoDup lo (Z.to_nat (hi - lo))).
  revert H. generalize (zrange lo (Z.to_nat (hi - lo))) as l. induction l as [|x l IHl]; intros H; simpl; [constructor|].
  inversion H; subst.
  assert (NoDup (map (cons x) (box r))).
  { apply FinFun.Injective_map_NoDup; [|assumption]. intros a b E. now inversion E. }
  assert (Hd : forall q, In q (map (cons x) (box r)) -> ~ In q (flat_map (fun x => map (cons x) (box r)) l)).
  { intros q Hq Hq'. apply in_map_iff in Hq. destruct Hq as (a & <- & _).
    apply in_flat_map in Hq'. destruct Hq' as (y & Hy & Hq'). apply in_map_iff in Hq'.
    destruct Hq' as (b & E & _). inversion E; subst. contradiction. }
  clear -H0 Hd IHl H3. specialize (IHl H3). revert H0 Hd. generalize (map (cons x) (box r)) as m.
  induction m as [|q m IHm]; intros Hn Hd; simpl; [assumption|].
  inversion Hn; subst. constructor.
  - rewrite in_app_iff. intros [Hq|Hq]; [contradiction|]. apply (Hd q); [now left|assumption].
  - apply IHm; [assumption|]. intros a Ha. apply Hd. now right.
Qed.

Lemma box_length r : Forall (fun lh => fst lh <= snd lh) r -> Z.of_nat (length (box r)) = patchsize r.
Proof.
  induction 1 as [|[lo hi] r H Hr IH]; simpl; [reflexivity|].
  simpl in H. rewrite <- IH. rewrite flat_map_length_sum.
  rewrite (map_ext _ (fun _ => length (box r))) by (intros; apply map_length).
  replace (list_sum (map (fun _ => length (box r)) (zrange lo (Z.to_nat (hi - lo)))))
    with (Z.to_nat (hi - lo) * length (box r))%nat.
  - rewrite Nat2Z.inj_mul, Z2Nat.id by lia. reflexivity.
  - rewrite <- (zrange_length lo (Z.to_nat (hi - lo))) at 1.
    generalize (zrange lo (Z.to_nat (hi - lo))) as l. induction l as [|x l IHl]; [reflexivity|].
    simpl. rewrite list_sum_cons. lia.
Qed.

(** consecutive states are linked by a step; the last step ends in [e] with flag [c] *)
Fixpoint chain (f : list Z -> list Z * bool) (B : list (list Z)) (e : list Z) (c : bool) : Prop :=
  match B with
  | [] => False
  | [b] => f b = (e, c)
  | b :: ((b' :: _) as B') => f b = (b', false) /\ chain f B' e c
  end.

Lemma chain_cons f b b' B e c : chain f (b :: b' :: B) e c <-> f b = (b', false) /\ chain f (b' :: B) e c.
Proof. reflexivity. Qed.

Lemma chain_app f A B e c d : chain f A (hd d B) false -> chain f B e c -> chain f (A ++ B) e c.
Proof.
  revert B. induction A as [|a A IH]; intros B HA HB; [contradiction|].
  destruct A as [|a' A].
  - destruct B as [|b B]; [contradiction|]. simpl app. apply chain_cons. split; assumption.
  - apply chain_cons in HA. destruct HA as [H1 H2]. simpl app. apply chain_cons. split; [assumption|].
    apply (IH B H2 HB).
Qed.

Lemma hd_box r : Forall (fun lh => fst lh < snd lh) r -> exists B, box r = map fst r :: B.
Proof.
  induction 1 as [|[lo hi] r H Hr IH]; simpl; [now exists []|].
  simpl in H. destruct IH as (B & HB). rewrite HB.
  destruct (Z.to_nat (hi - lo)) as [|n] eqn:E; [lia|]. simpl. eexists. reflexivity.
Qed.

Lemma chain_map_cons r lo hi B x e : chain (advance_in r) B e true ->
  chain (advance_in ((lo, hi) :: r)) (map (cons x) B)
        (if x + 1 =? hi then lo :: e else (x + 1) :: e) (x + 1 =? hi).
Proof.
  induction B as [|b B IH]; intros H; [contradiction|]. destruct B as [|b' B].
  - simpl in H. simpl. rewrite H. destruct (x + 1 =? hi); reflexivity.
  - apply chain_cons in H. destruct H as [H1 H2]. simpl map. apply chain_cons. split.
    + simpl. rewrite H1. reflexivity.
    + apply IH. assumption.
Qed.

Lemma chain_box r : Forall (fun lh => fst lh < snd lh) r -> chain (advance_in r) (box r) (map fst r) true.
Proof.
  induction 1 as [|[lo hi] r H Hr IH]; simpl; [reflexivity|].
  simpl in H. destruct (hd_box r Hr) as (B & HB).
  assert (G : forall n l, l + Z.of_nat n = hi -> (0 < n)%nat -> lo <= l ->
     chain (advance_in ((lo, hi) :: r)) (flat_map (fun x => map (cons x) (box r)) (zrange l n)) (lo :: map fst r) true).
  { induction n as [|n IHn]; intros l Hl Hn Hlo; [lia|]. simpl flat_map.
    destruct (Nat.eq_dec n 0) as [->|Hn0].
    - simpl. rewrite app_nil_r.
      assert (C := chain_map_cons r lo hi (box r) l (map fst r) IH).
      destruct (Z.eqb_spec (l + 1) hi) as [E|E]; [assumption|lia].
    - apply (chain_app _ _ _ _ _ []).
      + assert (C := chain_map_cons r lo hi (box r) l (map fst r) IH).
        destruct (Z.eqb_spec (l + 1) hi) as [E|E]; [lia|].
        destruct n as [|n]; [lia|].
        replace (hd [] (flat_map (fun x => map (cons x) (box r)) (zrange (l + 1) (S n)))) with (l + 1 :: map fst r) by (simpl; now rewrite HB).
        exact C.
      + apply IHn; lia. }
  apply G; lia.
Qed.

Fixpoint visit (r : list (Z * Z)) (n : nat) (p : list Z) : list (list Z) :=
  match n with O => [] | S m => p :: visit r m (advance r p) end.

(** the top-level step differs from [advance_in] only when that one carries *)
Lemma advance_top r p q : advance_in r p = (q, false) -> advance r p = q.
Proof.
  destruct r as [|[lo hi] r]; destruct p as [|x p]; simpl; try discriminate.
  destruct (advance_in r p) as [p'' c]. destruct c.
  - destruct (x + 1 =? hi); [discriminate|]. intros H. now inversion H.
  - intros H. now inversion H.
Qed.

Lemma visit_chain r B e : chain (advance_in r) B e true -> visit r (length B) (hd [] B) = B.
Proof.
  induction B as [|b B IH]; intros H; [contradiction|]. destruct B as [|b' B]; [reflexivity|].
  apply chain_cons in H. destruct H as [H1 H2]. simpl length. simpl hd.
  change (visit r (S (S (length B))) b) with (b :: visit r (S (length B)) (advance r b)).
  rewrite (advance_top r b b' H1). f_equal. now apply IH.
Qed.

Lemma patchsize_nonneg r : Forall (fun lh => fst lh <= snd lh) r -> 0 <= patchsize r.
Proof. intros H. rewrite <- box_length by assumption. lia. Qed.

Lemma box_nil r : Forall (fun lh => fst lh <= snd lh) r -> patchsize r = 0 -> box r = [].
Proof.
  intros H E. destruct (box r) eqn:B; [reflexivity|].
  assert (L := box_length r H). rewrite B in L. simpl in L. lia.
Qed.

Lemma patchsize_pos r : Forall (fun lh => fst lh <= snd lh) r -> patchsize r <> 0 ->
  Forall (fun lh => fst lh < snd lh) r.
Proof.
  induction 1 as [|[lo hi] r H Hr IH]; intros E; [constructor|]. simpl in *.
  assert (hi - lo <> 0) by (intros Z0; rewrite Z0 in E; lia).
  constructor; [simpl; lia|]. apply IH. intros Z0. rewrite Z0 in E. lia.
Qed.

Lemma visit_box r : Forall (fun lh => fst lh <= snd lh) r ->
  visit r (Z.to_nat (patchsize r)) (map fst r) = box r.
Proof.
  intros H. destruct (Z.eq_dec (patchsize r) 0) as [E|E].
  - rewrite E. simpl. symmetry. now apply box_nil.
  - assert (Hlt := patchsize_pos r H E).
    destruct (hd_box r Hlt) as (B & HB).
    rewrite <- box_length by assumption. rewrite Nat2Z.id.
    assert (C := visit_chain r (box r) (map fst r) (chain_box r Hlt)).
    rewrite HB in *. exact C.
Qed.

(* ---------- domain numbers ---------- *)

Definition prodz (l : list Z) : Z := fold_right Z.mul 1 l.

Fixpoint suffix_prods (dims : list Z) : list Z :=
  match dims with
  | [] => []
  | _ :: r => prodz r :: suffix_prods r
  end.

Lemma strides_of_eq dims : strides_of dims = suffix_prods dims.
Proof.
  induction dims as [|d r IH]; [reflexivity|]. simpl. destruct r as [|d' r]; [reflexivity|].
  rewrite IH. simpl. f_equal. fold (prodz r). lia.
Qed.

Definition valid_index (dims idx : list Z) : Prop := Forall2 (fun d k => 0 <= k < d) dims idx.

Lemma prodz_pos dims : Forall (fun d => 0 < d) dims -> 0 < prodz dims.
Proof. induction 1; simpl; [lia|]. fold (prodz l). lia. Qed.

Lemma valid_pos dims idx : valid_index dims idx -> Forall (fun d => 0 < d) dims.
Proof. induction 1; constructor; [lia|assumption]. Qed.

Lemma ravel_bound dims idx : valid_index dims idx -> 0 <= ravel dims idx < prodz dims.
Proof.
  induction 1 as [|d k ds ks Hk Hv IH]; simpl; [lia|].
  fold (prodz ds) in *. nia.
Qed.

Lemma unravel_ravel dims idx : valid_index dims idx -> unravel dims (ravel dims idx) = idx.
Proof.
  induction 1 as [|d k ds ks Hk Hv IH]; [reflexivity|]. cbn [ravel unravel].
  fold (prodz ds) in *. assert (B := ravel_bound ds ks Hv).
  rewrite Z.div_add_l by lia. rewrite (Z.div_small (ravel ds ks)) by assumption.
  rewrite (Z.add_comm (k * prodz ds)), Z.mod_add by lia. rewrite Z.mod_small by assumption.
  rewrite Z.add_0_r. now rewrite IH.
Qed.

Lemma ravel_inj dims a b : valid_index dims a -> valid_index dims b ->
  ravel dims a = ravel dims b -> a = b.
Proof. intros Ha Hb E. rewrite <- (unravel_ravel dims a Ha), E. now apply unravel_ravel. Qed.

Lemma unravel_valid dims k : Forall (fun d => 0 < d) dims -> 0 <= k < prodz dims ->
  valid_index dims (unravel dims k) /\ ravel dims (unravel dims k) = k.
Proof.
  intros H. revert k. induction H as [|d ds Hd Hds IH]; intros k Hk.
  - simpl in *. split; [constructor|]. lia.
  - cbn [unravel ravel]. change (fold_right Z.mul 1 ds) with (prodz ds).
    assert (Hp := prodz_pos ds Hds). change (prodz (d :: ds)) with (d * prodz ds) in Hk.
    destruct (IH (k mod prodz ds)) as (Hv & Hr). { apply Z.mod_pos_bound; lia. }
    split.
    + constructor; [|assumption]. split; [apply Z.div_pos; lia|]. apply Z.div_lt_upper_bound; lia.
    + rewrite Hr. assert (E := Z.div_mod k (prodz ds) ltac:(lia)). lia.
Qed.

Definition wrap_index (periodic : bool) (dims p : list Z) : list Z :=
  map (fun dp => if periodic then snd dp mod fst dp else snd dp) (combine dims p).

Lemma flat_target_ravel periodic dims p : Forall (fun d => 0 < d) dims ->
  flat_target periodic dims (strides_of dims) p = ravel dims (wrap_index periodic dims p).
Proof.
  intros H. rewrite strides_of_eq. revert p. induction H as [|d ds Hd Hds IH]; intros p; [reflexivity|].
  destruct p as [|t p]; [reflexivity|]. cbn [suffix_prods flat_target wrap_index combine map ravel].
  change (fold_right Z.mul 1 ds) with (prodz ds). fold (wrap_index periodic ds p). rewrite IH. simpl snd. simpl fst.
  destruct periodic; [rewrite wrap_du_mod by assumption|]; reflexivity.
Qed.

(* ---------- sorted unique targets ---------- *)

Lemma insert_target_in t l x : In x (insert_target t l) <-> x = t \/ In x l.
Proof.
  induction l as [|h r IH]; simpl; [intuition congruence|].
  destruct (t <? h)%nat; simpl; [rewrite IH|]; intuition congruence.
Qed.

Lemma insert_target_sorted t l : StronglySorted (fun a b => b <= a)%nat l ->
  StronglySorted (fun a b => b <= a)%nat (insert_target t l).
Proof.
  induction 1 as [|h r Hs IH Hf]; simpl; [repeat constructor|].
  destruct (Nat.ltb_spec t h) as [H|H].
  - constructor; [assumption|]. rewrite Forall_forall in *. intros x Hx. apply insert_target_in in Hx.
    destruct Hx as [->|Hx]; [lia|now apply Hf].
  - constructor; [now constructor|]. constructor; [assumption|].
    rewrite Forall_forall in *. intros x Hx. specialize (Hf x Hx). lia.
Qed.

Lemma rev_sorted (l : list nat) : StronglySorted (fun a b => b <= a)%nat l -> StronglySorted le (rev l).
Proof.
  induction 1 as [|h r Hs IH Hf]; simpl; [constructor|].
  assert (G : forall a, StronglySorted le a -> (forall x, In x a -> x <= h)%nat -> StronglySorted le (a ++ [h])).
  { induction 1 as [|y b Hb IHb Hfb]; intros Ha; simpl; [repeat constructor|].
    constructor; [apply IHb; intros; apply Ha; now right|].
    rewrite Forall_forall in *. intros x Hx. apply in_app_iff in Hx.
    destruct Hx as [Hx|[<-|[]]]; [now apply Hfb|]. apply Ha. now left. }
  apply G; [assumption|]. intros x Hx. apply in_rev in Hx. rewrite Forall_forall in Hf. now apply Hf.
Qed.

Lemma unique_targets_from prev l : StronglySorted le l ->
  (forall q, prev = Some q -> forall x, In x l -> q <= x)%nat ->
  exists u, unique_targets prev l = Ret u /\ StronglySorted lt u /\
    (forall x, In x u <-> In x l /\ prev <> Some x).
Proof.
  intros Hs. revert prev. induction Hs as [|t r Hs IH Hf]; intros prev Hp.
  - exists []. split; [reflexivity|]. split; [constructor|]. simpl. tauto.
  - rewrite Forall_forall in Hf. simpl. destruct prev as [q|].
    + assert (Hq := Hp q eq_refl). destruct (Nat.eqb_spec q t) as [->|Hne].
      * destruct (IH (Some t)) as (u & E & Hu & Hin).
        { intros q' Hq' x Hx. inversion Hq'; subst. now apply Hf. }
        exists u. split; [assumption|]. split; [assumption|]. intros x. rewrite Hin.
        split; intros [H1 H2]; (split; [|assumption]); [now right|].
        destruct H1 as [->|H1]; [contradiction|assumption].
      * destruct (Nat.ltb_spec t q) as [Hlt|Hge].
        { assert (q <= t)%nat by (apply Hq; now left). lia. }
        destruct (IH (Some t)) as (u & E & Hu & Hin).
        { intros q' Hq' x Hx. inversion Hq'; subst. now apply Hf. }
        exists (t :: u). rewrite E. split; [reflexivity|]. split.
        { constructor; [assumption|]. apply Forall_forall. intros x Hx. apply Hin in Hx.
          destruct Hx as (Hx & Hxt). specialize (Hf x Hx).
          assert (x <> t) by congruence. lia. }
        intros x. simpl. rewrite Hin. split.
        { intros [<-|[H1 H2]]; [split; [now left|congruence]|].
          split; [now right|]. intros E'. inversion E'; subst. specialize (Hf x H1). lia. }
        { intros [[<-|H1] H2]; [now left|]. destruct (Nat.eq_dec x t) as [->|]; [now left|].
          right. split; [assumption|congruence]. }
    + destruct (IH (Some t)) as (u & E & Hu & Hin).
      { intros q' Hq' x Hx. inversion Hq'; subst. now apply Hf. }
      exists (t :: u). rewrite E. split; [reflexivity|]. split.
      { constructor; [assumption|]. apply Forall_forall. intros x Hx. apply Hin in Hx.
        destruct Hx as (Hx & Hxt). specialize (Hf x Hx). assert (x <> t) by congruence. lia. }
      intros x. simpl. rewrite Hin. split.
      { intros [<-|[H1 H2]]; [split; [now left|discriminate]|]. split; [now right|discriminate]. }
      { intros [[<-|H1] H2]; [now left|]. destruct (Nat.eq_dec x t) as [->|]; [now left|].
        right. split; [assumption|congruence]. }
Qed.

(** the loop over the patch, as a loop over the list of visited cells *)
Fixpoint cells_loop (g : grid) (dims : list Z) (cells : list (list Z)) (acc : list nat) : option (list nat) :=
  match cells with
  | [] => Some acc
  | p :: cs =>
      match zlookup (g_assign g) (flat_target (g_periodic g) dims (strides_of dims) p) with
      | None => None
      | Some t => match nth_error (g_degenerate g) t with
                  | None => None
                  | Some deg => cells_loop g dims cs (if deg then acc else insert_target t acc)
                  end
      end
  end.

Lemma patch_loop_cells g dims r n p acc : patch_loop g dims r n p acc = cells_loop g dims (visit r n p) acc.
Proof.
  revert p acc; induction n as [|n IH]; intros p acc; simpl; [reflexivity|].
  destruct (zlookup _ _); [|reflexivity]. destruct (nth_error _ _); [|reflexivity]. apply IH.
Qed.

(** rank of the domain with multi-index [ks] *)
Definition owner (g : grid) (ks : list Z) : nat := nth (Z.to_nat (ravel (g_dims g) ks)) (g_assign g) 0%nat.

(** shape facts every GridND has: at least one domain per axis, one rank and
    one flag per domain, ranks valid; the flag array is also indexed by ranks *)
Record wf_grid (P : nat) (g : grid) : Prop := {
  wf_dims : Forall (fun e => (2 <= length e)%nat) (g_edges g);
  wf_assign_len : Z.of_nat (length (g_assign g)) = prodz (g_dims g);
  wf_degen_len : Z.of_nat (length (g_degenerate g)) = prodz (g_dims g);
  wf_assign_rank : Forall (fun t => t < P)%nat (g_assign g);
  wf_assign_flag : Forall (fun t => t < length (g_degenerate g))%nat (g_assign g)
}.

Lemma wf_dims_pos P g : wf_grid P g -> Forall (fun d => 0 < d) (g_dims g).
Proof.
  intros H. apply wf_dims in H. unfold g_dims. induction H; simpl; constructor; [|assumption].
  unfold ndom. lia.
Qed.

Lemma wrap_valid dims p : Forall (fun d => 0 < d) dims -> length p = length dims ->
  valid_index dims (wrap_index true dims p).
Proof.
  intros H. revert p. induction H as [|d ds Hd Hds IH]; intros [|t p] Hl; simpl in Hl; try discriminate; [constructor|].
  unfold wrap_index. simpl. constructor; [apply Z.mod_pos_bound; assumption|]. apply IH. lia.
Qed.

Lemma zlookup_owner P g ks : wf_grid P g -> valid_index (g_dims g) ks ->
  zlookup (g_assign g) (ravel (g_dims g) ks) = Some (owner g ks) /\
  (owner g ks < P)%nat /\ (owner g ks < length (g_degenerate g))%nat.
Proof.
  intros Hg Hv. assert (B := ravel_bound _ _ Hv). assert (L := wf_assign_len P g Hg).
  unfold zlookup. destruct (Z.ltb_spec (ravel (g_dims g) ks) 0); [lia|].
  assert (Hlt : (Z.to_nat (ravel (g_dims g) ks) < length (g_assign g))%nat) by lia.
  rewrite (nth_error_nth' _ 0%nat) by assumption. split; [reflexivity|].
  assert (Hin := nth_In (g_assign g) 0%nat Hlt). fold (owner g ks) in Hin.
  assert (H1 := wf_assign_rank P g Hg). assert (H2 := wf_assign_flag P g Hg).
  rewrite Forall_forall in H1, H2. split; [now apply H1|now apply H2].
Qed.

Lemma cells_loop_ok P g cells acc : wf_grid P g ->
  (forall p, In p cells -> valid_index (g_dims g) (wrap_index (g_periodic g) (g_dims g) p)) ->
  StronglySorted (fun a b => b <= a)%nat acc ->
  exists l, cells_loop g (g_dims g) cells acc = Some l /\ StronglySorted (fun a b => b <= a)%nat l /\
    forall t, In t l <-> In t acc \/ exists p, In p cells /\
      owner g (wrap_index (g_periodic g) (g_dims g) p) = t /\ nth t (g_degenerate g) false = false.
Proof.
  intros Hg. revert acc. induction cells as [|p cs IH]; intros acc Hv Hs.
  - exists acc. split; [reflexivity|]. split; [assumption|]. intros t. split; [now left|].
    intros [H|(p & [] & _)]. assumption.
  - assert (Hp := Hv p (or_introl eq_refl)). simpl.
    rewrite flat_target_ravel by (apply (wf_dims_pos P); assumption).
    destruct (zlookup_owner P g _ Hg Hp) as (E & H1 & H2). rewrite E.
    set (t := owner g (wrap_index (g_periodic g) (g_dims g) p)) in *.
    rewrite (nth_error_nth' _ false) by assumption.
    destruct (nth t (g_degenerate g) false) eqn:D.
    + destruct (IH acc) as (l & El & Hl & Hin); [intros; apply Hv; now right|assumption|].
      exists l. split; [assumption|]. split; [assumption|]. intros x. rewrite Hin. split.
      * intros [H|(q & Hq & H)]; [now left|]. right. exists q. split; [now right|assumption].
      * intros [H|(q & [<-|Hq] & H & Hd)]; [now left| |].
        { fold t in H. subst x. rewrite D in Hd. discriminate. }
        { right. now exists q. }
    + destruct (IH (insert_target t acc)) as (l & El & Hl & Hin);
        [intros; apply Hv; now right|now apply insert_target_sorted|].
      exists l. split; [assumption|]. split; [assumption|]. intros x. rewrite Hin, insert_target_in. split.
      * intros [[->|H]|(q & Hq & H)]; [right; exists p; split; [now left|split; [reflexivity|assumption]]|now left|].
        right. exists q. split; [now right|assumption].
      * intros [H|(q & [<-|Hq] & H & Hd)]; [left; now right|left; left; now symmetry|].
        right. now exists q.
Qed.

Definition patch_of (g : grid) (sm x : list Q) : list (Z * Z) :=
  patches (g_periodic g) (g_edges g) sm x.

(** ranks a particle is sent to, described by the patch *)
Lemma particle_targets_ok P g sm x : wf_grid P g ->
  Forall (fun lh => fst lh <= snd lh) (patch_of g sm x) ->
  (forall p, In p (box (patch_of g sm x)) -> valid_index (g_dims g) (wrap_index (g_periodic g) (g_dims g) p)) ->
  exists u, particle_targets g sm x = Ret u /\ StronglySorted lt u /\
    (forall t, In t u <-> exists p, In p (box (patch_of g sm x)) /\
      owner g (wrap_index (g_periodic g) (g_dims g) p) = t /\ nth t (g_degenerate g) false = false) /\
    (forall t, In t u -> (t < P)%nat).
Proof.
  intros Hg Hle Hv. unfold particle_targets. fold (patch_of g sm x).
  rewrite patch_loop_cells, visit_box by assumption.
  destruct (cells_loop_ok P g (box (patch_of g sm x)) [] Hg Hv) as (l & El & Hl & Hin); [constructor|].
  rewrite El. destruct (unique_targets_from None (rev l)) as (u & Eu & Hu & Hui).
  { now apply rev_sorted. }
  { discriminate. }
  exists u. split; [assumption|]. split; [assumption|].
  assert (G : forall t, In t u <-> exists p, In p (box (patch_of g sm x)) /\
      owner g (wrap_index (g_periodic g) (g_dims g) p) = t /\ nth t (g_degenerate g) false = false).
  { intros t. rewrite Hui. rewrite <- in_rev, Hin. simpl. split.
    - intros [[[]|H] _]. assumption.
    - intros H. split; [now right|discriminate]. }
  split; [assumption|]. intros t Ht. apply G in Ht. destruct Ht as (p & Hp & <- & _).
  apply (zlookup_owner P g _ Hg). now apply Hv.
Qed.

(* ---------- counting sort: the two passes ---------- *)

Definition pairs_of (i0 : nat) (ts : list (list nat)) : list (nat * nat) :=
  flat_map (fun it => map (fun t => (t, fst it)) (snd it)) (combine (seq i0 (length ts)) ts).

Lemma pairs_of_cons i0 t ts : pairs_of i0 (t :: ts) = map (fun x => (x, i0)) t ++ pairs_of (S i0) ts.
Proof. reflexivity. Qed.

Definition group (r : nat) (W : list (nat * nat)) : list nat := map snd (filter (fun p => (fst p =? r)%nat) W).

Lemma group_app r A B : group r (A ++ B) = group r A ++ group r B.
Proof.
  unfold group. rewrite <- map_app. f_equal. induction A as [|a A IH]; simpl; [reflexivity|].
  destruct (fst a =? r)%nat; simpl; now rewrite IH.
Qed.

Lemma index_pass_pairs i0 ts st :
  index_pass i0 ts st = fold_left (fun st p => push (snd p) st (fst p)) (pairs_of i0 ts) st.
Proof.
  revert i0 st; induction ts as [|t ts IH]; intros i0 st; [reflexivity|].
  rewrite pairs_of_cons, fold_left_app. simpl. rewrite IH. f_equal.
  revert st. induction t as [|x t IHt]; intros st; simpl; [reflexivity|]. apply IHt.
Qed.

Lemma count_pass_pairs i0 ts c :
  fold_left (fun c t => fold_left (fun c t => upd t S c) t c) ts c
  = fold_left (fun c p => upd (fst p) S c) (pairs_of i0 ts) c.
Proof.
  revert i0 c; induction ts as [|t ts IH]; intros i0 c; [reflexivity|].
  rewrite pairs_of_cons, fold_left_app. simpl. rewrite <- IH. f_equal.
  revert c. induction t as [|x t IHt]; intros c; simpl; [reflexivity|]. apply IHt.
Qed.

Lemma count_fold (W : list (nat * nat)) P c : length c = P ->
  fold_left (fun c p => upd (fst p) S c) W c =
  map (fun r => (nth r c 0 + length (group r W))%nat) (seq 0 P).
Proof.
  revert c; induction W as [|[t i] W IH]; intros c Hc; simpl.
  - symmetry. apply (map_seq_eq _ 0%nat _ _); [assumption|]. intros; unfold group; simpl; lia.
  - rewrite IH by (now rewrite upd_length). apply map_ext_seq. intros r Hr.
    assert (E : nth r (upd t S c) 0%nat = if (t =? r)%nat then S (nth r c 0%nat) else nth r c 0%nat).
    { assert (N := nth_error_upd t S c r). rewrite (nth_error_nth' _ 0%nat) in N by (rewrite upd_length; lia).
      rewrite (nth_error_nth' c 0%nat) in N by lia. destruct (Nat.eqb_spec t r) as [->|Hne].
      - rewrite ?Nat.eqb_refl in N. simpl in N. now inversion N.
      - destruct (Nat.eqb_spec r t); [congruence|]. now inversion N. }
    rewrite E. unfold group. simpl. destruct (t =? r)%nat; simpl; lia.
Qed.

Lemma upd_app {A} (f : A -> A) (a b : list A) k :
  upd (length a + k) f (a ++ b) = a ++ upd k f b.
Proof. induction a as [|x a IH]; simpl; [reflexivity|]. now rewrite IH. Qed.

Lemma upd_app_l {A} (f : A -> A) (a b : list A) k : (k < length a)%nat -> upd k f (a ++ b) = upd k f a ++ b.
Proof.
  revert k; induction a as [|x a IH]; intros k Hk; simpl in Hk; [lia|].
  destruct k as [|k]; simpl; [reflexivity|]. rewrite IH by lia. reflexivity.
Qed.

(** writing inside block t of a concatenation of blocks *)
Lemma upd_concat {A} (f : A -> A) (blocks : list (list A)) t k :
  (t < length blocks)%nat -> (k < length (nth t blocks []))%nat ->
  upd (list_sum (firstn t (map (@length A) blocks)) + k) f (concat blocks)
  = concat (upd t (upd k f) blocks).
Proof.
  revert t; induction blocks as [|b bs IH]; intros t Ht Hk; simpl in Ht; [lia|].
  destruct t as [|t]; simpl.
  - simpl in *. now apply upd_app_l.
  - rewrite list_sum_cons. simpl in Hk. rewrite <- Nat.add_assoc, upd_app. f_equal. apply IH; [lia|assumption].
Qed.

(** state of the second pass after the pushes [W] when the final groups are
    those of [W ++ rest] *)
Definition partial_block (W : list (nat * nat)) (c : list nat) (r : nat) : list (option nat) :=
  map Some (group r W) ++ repeat None (nth r c 0%nat - length (group r W)).

Lemma list_sum_map_seq_firstn (f : nat -> nat) P t : (t <= P)%nat ->
  firstn t (map f (seq 0 P)) = map f (seq 0 t).
Proof. intros H. rewrite firstn_map, firstn_seq_min. now rewrite Nat.min_l by assumption. Qed.

Lemma index_fold P (W rest : list (nat * nat)) c :
  length c = P -> Forall (fun p => fst p < P)%nat (W ++ rest) ->
  (forall r, (r < P)%nat -> nth r c 0%nat = length (group r (W ++ rest))) ->
  fold_left (fun st p => push (snd p) st (fst p)) rest
     (concat (map (partial_block W c) (seq 0 P)),
      map (fun r => (list_sum (firstn r c) + length (group r W))%nat) (seq 0 P))
  = (concat (map (partial_block (W ++ rest) c) (seq 0 P)),
     map (fun r => (list_sum (firstn r c) + length (group r (W ++ rest)))%nat) (seq 0 P)).
Proof.
  revert W. induction rest as [|[t i] rest IH]; intros W Hc HP Hn.
  - rewrite app_nil_r. reflexivity.
  - simpl fold_left.
    assert (Ht : (t < P)%nat).
    { rewrite Forall_forall in HP. apply (HP (t, i)). apply in_or_app. right. now left. }
    assert (EW : W ++ (t, i) :: rest = (W ++ [(t, i)]) ++ rest) by now rewrite <- app_assoc.
    rewrite EW. rewrite EW in HP, Hn. rewrite <- (IH (W ++ [(t, i)]) Hc HP Hn). f_equal.
    assert (Hgr : forall r, group r (W ++ [(t, i)]) = if (t =? r)%nat then group r W ++ [i] else group r W).
    { intros r. rewrite group_app. unfold group at 2. simpl. destruct (t =? r)%nat; simpl; [reflexivity|]. apply app_nil_r. }
    unfold push. cbn [fst snd]. f_equal.
    + rewrite nth_map_seq by assumption.
      assert (HL : list_sum (firstn t c) = list_sum (firstn t (map (@length (option nat)) (map (partial_block W c) (seq 0 P))))).
      { f_equal. f_equal. rewrite map_map. symmetry. apply (map_seq_eq _ 0%nat); [assumption|]. intros r Hr.
        unfold partial_block. rewrite app_length, map_length, repeat_length.
        specialize (Hn r Hr). rewrite group_app, Hgr, app_length in Hn.
        destruct (t =? r)%nat; rewrite ?app_length in Hn; lia. }
      rewrite HL, upd_concat.
      * f_equal. apply list_ext. intros r. rewrite nth_error_upd. rewrite !nth_error_map.
        destruct (lt_dec r P) as [Hr|Hr].
        { rewrite nth_error_seq_lt by assumption. simpl.
          assert (Hnr := Hn r Hr). rewrite group_app, Hgr, app_length in Hnr.
          destruct (Nat.eqb_spec r t) as [->|Hne].
          - simpl. f_equal. unfold partial_block. rewrite Hgr, Nat.eqb_refl.
            rewrite Nat.eqb_refl in Hnr. rewrite app_length in Hnr. simpl in Hnr.
            replace (length (group t W)) with (length (map Some (group t W)) + 0)%nat at 1 by (rewrite map_length; lia).
            rewrite upd_app. rewrite map_app, <- app_assoc. f_equal.
            rewrite app_length. simpl length.
            destruct (nth t c 0%nat - length (group t W))%nat as [|m] eqn:E; [lia|].
            replace (nth t c 0%nat - (length (group t W) + 1))%nat with m by lia. reflexivity.
          - f_equal. unfold partial_block. rewrite Hgr. destruct (Nat.eqb_spec t r); [congruence|reflexivity]. }
        { rewrite nth_error_seq_ge by lia. simpl. destruct (t =? r)%nat; reflexivity. }
      * now rewrite map_length, seq_length.
      * rewrite nth_map_seq by assumption. unfold partial_block. rewrite app_length, map_length, repeat_length.
        specialize (Hn t Ht). rewrite group_app, Hgr, Nat.eqb_refl, !app_length in Hn. simpl in Hn. lia.
    + apply list_ext. intros r. rewrite nth_error_upd. rewrite !nth_error_map.
      destruct (lt_dec r P) as [Hr|Hr].
      { rewrite nth_error_seq_lt by assumption. simpl. rewrite Hgr.
        destruct (Nat.eqb_spec r t) as [->|Hne].
        - rewrite Nat.eqb_refl, app_length. simpl. f_equal. lia.
        - destruct (Nat.eqb_spec t r); [congruence|reflexivity]. }
      { rewrite nth_error_seq_ge by lia. simpl. destruct (t =? r)%nat; reflexivity. }
Qed.

Lemma count_pass_group P ts : count_pass P ts = map (fun r => length (group r (pairs_of 0 ts))) (seq 0 P).
Proof.
  unfold count_pass. rewrite (count_pass_pairs 0).
  rewrite (count_fold _ P) by apply repeat_length. apply map_ext_seq. intros r Hr.
  now rewrite nth_repeat.
Qed.

Lemma offsets_from_firstn c : offsets_from 0 c = map (fun r => list_sum (firstn r c)) (seq 0 (length c)).
Proof.
  apply list_ext. intros r. rewrite nth_error_map. destruct (lt_dec r (length c)) as [H|H].
  - rewrite offsets_from_nth by assumption. rewrite nth_error_seq_lt by assumption. reflexivity.
  - rewrite nth_error_seq_ge by lia. simpl. apply nth_error_None. rewrite offsets_from_length. lia.
Qed.

Lemma concat_repeat_none c : concat (map (fun n => repeat (@None nat) n) c) = repeat None (list_sum c).
Proof.
  induction c as [|n c IH]; [reflexivity|]. simpl. rewrite IH, list_sum_cons. symmetry. apply repeat_app.
Qed.

Lemma passes_ok P ts : Forall (Forall (fun t => t < P)%nat) ts ->
  let counts := count_pass P ts in
  counts = map (fun r => length (group r (pairs_of 0 ts))) (seq 0 P) /\
  fst (index_pass 0 ts (repeat None (list_sum counts), offsets_from 0 counts))
  = map Some (flat_map (fun r => group r (pairs_of 0 ts)) (seq 0 P)).
Proof.
  intros HP counts. assert (Hcounts : counts = map (fun r => length (group r (pairs_of 0 ts))) (seq 0 P)) by apply count_pass_group.
  split; [assumption|].
  assert (Hlen : length counts = P) by (rewrite Hcounts; now rewrite map_length, seq_length).
  assert (Hnth : forall r, (r < P)%nat -> nth r counts 0%nat = length (group r (pairs_of 0 ts))).
  { intros r Hr. rewrite Hcounts. now rewrite nth_map_seq. }
  assert (HW : Forall (fun p => fst p < P)%nat (pairs_of 0 ts)).
  { clear -HP. generalize 0%nat as i0. induction HP as [|t ts Ht Hts IH]; intros i0; [constructor|].
    rewrite pairs_of_cons. apply Forall_app. split; [|apply IH].
    apply Forall_forall. intros p Hp. apply in_map_iff in Hp. destruct Hp as (x & <- & Hx).
    rewrite Forall_forall in Ht. now apply Ht. }
  rewrite index_pass_pairs.
  assert (F := index_fold P [] (pairs_of 0 ts) counts Hlen HW Hnth). simpl app in F.
  replace (repeat None (list_sum counts), offsets_from 0 counts) with
    (concat (map (partial_block [] counts) (seq 0 P)),
     map (fun r => (list_sum (firstn r counts) + length (group r []))%nat) (seq 0 P)).
  - rewrite F. simpl fst. rewrite map_flat_map, flat_map_concat_map. f_equal. apply map_ext_seq.
    intros r Hr. unfold partial_block. rewrite Hnth by assumption. rewrite Nat.sub_diag. simpl. apply app_nil_r.
  - f_equal.
    + rewrite <- concat_repeat_none. f_equal. rewrite <- (map_nth_seq counts 0%nat P Hlen) at 2.
      rewrite map_map. apply map_ext_seq. intros r Hr. unfold partial_block. simpl. now rewrite Nat.sub_0_r.
    + rewrite offsets_from_firstn, Hlen. apply map_ext_seq. intros r Hr. simpl. lia.
Qed.

(** with repetition-free target lists, group r lists the particles that have r
    among their targets, in order *)
Lemma group_pairs r i0 ts : Forall (@NoDup nat) ts ->
  group r (pairs_of i0 ts) = filter (fun i => if in_dec Nat.eq_dec r (nth (i - i0) ts []) then true else false) (seq i0 (length ts)).
Proof.
  intros H. revert i0. induction H as [|t ts Ht Hts IH]; intros i0; [reflexivity|].
  rewrite pairs_of_cons, group_app, IH. simpl length. simpl seq. simpl filter.
  replace (i0 - i0)%nat with 0%nat by lia. simpl nth.
  assert (E1 : group r (map (fun x => (x, i0)) t) = if in_dec Nat.eq_dec r t then [i0] else []).
  { clear -Ht. induction Ht as [|x t Hx Ht IH]; [reflexivity|].
    unfold group in *. simpl map. simpl filter. simpl fst.
    destruct (Nat.eqb_spec x r) as [->|Hne].
    - simpl. rewrite IH. destruct (in_dec Nat.eq_dec r t); [contradiction|].
      destruct (Nat.eq_dec r r); [reflexivity|contradiction].
    - rewrite IH. simpl. destruct (Nat.eq_dec x r); [contradiction|].
      destruct (in_dec Nat.eq_dec r t); reflexivity. }
  rewrite E1.
  assert (E2 : filter (fun i => if in_dec Nat.eq_dec r (nth (i - S i0) ts []) then true else false) (seq (S i0) (length ts))
     = filter (fun i => if in_dec Nat.eq_dec r (nth (i - i0) (t :: ts) []) then true else false) (seq (S i0) (length ts))).
  { apply filter_ext_in. intros i Hi. apply in_seq in Hi.
    replace (i - i0)%nat with (S (i - S i0)) by lia. reflexivity. }
  rewrite E2. destruct (in_dec Nat.eq_dec r t); reflexivity.
Qed.

Lemma collect_Ret {A} (l : list (outcome A)) (f : list A) :
  l = map Ret f -> collect l = Ret f.
Proof. intros ->. induction f as [|x f IH]; simpl; [reflexivity|]. now rewrite IH. Qed.

Lemma sorted_lt_NoDup (l : list nat) : StronglySorted lt l -> NoDup l.
Proof.
  induction 1 as [|x l Hs IH Hf]; constructor; [|assumption].
  intros H. rewrite Forall_forall in Hf. specialize (Hf x H). lia.
Qed.

(** particles whose target list contains r *)
Definition sent_to (T : list Q -> list nat) (pos : list (list Q)) (r : nat) : list nat :=
  filter (fun i => if in_dec Nat.eq_dec r (T (nth i pos [])) then true else false) (seq 0 (length pos)).

(** decompose on one rank, given what each particle's targets are *)
Lemma decompose_ok P g tr sm pos (T : list Q -> list nat) :
  (forall x, In x pos -> particle_targets g sm (tr x) = Ret (T x) /\ StronglySorted lt (T x) /\ (forall t, In t (T x) -> (t < P)%nat)) ->
  decompose P g tr sm pos =
  Ret (length pos, map (fun r => length (sent_to T pos r)) (seq 0 P),
       flat_map (sent_to T pos) (seq 0 P)).
Proof.
  intros HT. destruct pos as [|x0 pos'] eqn:Epos.
  - simpl. f_equal. f_equal; [f_equal|].
    + rewrite <- (map_nth_seq (repeat 0%nat P) 0%nat P) at 1 by apply repeat_length.
      apply map_ext_seq. intros r Hr. apply nth_repeat.
    + symmetry. apply flat_map_nil. reflexivity.
  - rewrite <- Epos in *. unfold decompose. rewrite Epos. rewrite <- Epos. clear x0 pos' Epos.
    assert (Hc : collect (map (fun x => particle_targets g sm (tr x)) pos) = Ret (map T pos)).
    { apply collect_Ret. rewrite map_map. apply map_ext_in. intros x Hx. apply HT, Hx. }
    rewrite Hc. cbn [bind].
    assert (HP : Forall (Forall (fun t => t < P)%nat) (map T pos)).
    { apply Forall_forall. intros l Hl. apply in_map_iff in Hl. destruct Hl as (x & <- & Hx).
      apply Forall_forall. apply HT, Hx. }
    replace (forallb (forallb (fun t => (t <? P)%nat)) (map T pos)) with true.
    2: { symmetry. apply forallb_forall. intros l Hl. apply forallb_forall. intros t Ht.
         apply Nat.ltb_lt. rewrite Forall_forall in HP. specialize (HP l Hl). rewrite Forall_forall in HP. now apply HP. }
    destruct (passes_ok P (map T pos) HP) as (E1 & E2). rewrite E2.
    assert (HN : Forall (@NoDup nat) (map T pos)).
    { apply Forall_forall. intros l Hl. apply in_map_iff in Hl. destruct Hl as (x & <- & Hx).
      apply sorted_lt_NoDup, HT, Hx. }
    assert (HG : forall r, group r (pairs_of 0 (map T pos)) = sent_to T pos r).
    { intros r. rewrite group_pairs by assumption. rewrite map_length. unfold sent_to.
      apply filter_ext_in. intros i Hi. apply in_seq in Hi. rewrite Nat.sub_0_r.
      rewrite (nth_map_in T pos i [] []) by lia. reflexivity. }
    unfold force. rewrite sequence_map_Some. cbn [bind]. f_equal. f_equal; [f_equal|].
    + rewrite E1. apply map_ext. intros r. now rewrite HG.
    + apply flat_map_ext. intros r. apply HG.
Qed.

(** the resulting layout arguments are well formed and address exactly [sent_to] *)
Lemma sent_to_addr (T : list Q -> list nat) (poss : list (list (list Q))) P :
  length poss = P ->
  let args := map (fun pos => (length pos, map (fun r => length (sent_to T pos r)) (seq 0 P),
                               flat_map (sent_to T pos) (seq 0 P))) poss in
  wf_args args /\
  (forall s r, (s < P)%nat -> (r < P)%nat -> addr args s r = sent_to T (nth s poss []) r).
Proof.
  intros HP args. split.
  - apply Forall_forall. intros a Ha. unfold args in Ha. apply in_map_iff in Ha.
    destruct Ha as (pos & <- & Hpos). unfold a_counts, a_indices, a_len. simpl.
    rewrite map_length, seq_length. unfold args. rewrite map_length. split; [now symmetry|]. split.
    + symmetry. apply flat_map_length_sum.
    + apply Forall_forall. intros i Hi. apply in_flat_map in Hi. destruct Hi as (r & _ & Hi).
      unfold sent_to in Hi. apply filter_In in Hi. destruct Hi as (Hi & _). apply in_seq in Hi. lia.
  - intros s r Hs Hr. unfold addr, arg_at, args.
    set (f := fun pos => (length pos, map (fun r => length (sent_to T pos r)) (seq 0 P), flat_map (sent_to T pos) (seq 0 P))).
    rewrite (nth_map_in f poss s _ []) by lia. unfold f, a_counts, a_indices. simpl.
    replace (map (fun r0 => length (sent_to T (nth s poss []) r0)) (seq 0 P))
      with (map (@length nat) (map (sent_to T (nth s poss [])) (seq 0 P))) by now rewrite map_map.
    rewrite flat_map_concat_map, chunks_concat. now rewrite nth_map_seq.
Qed.
