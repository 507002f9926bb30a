(** Which ranks a particle is sent to, in any number of dimensions. *)
From Coq Require Import List Arith ZArith QArith Qround Lqa Lia Bool Sorted.
From Verif Require Import Base ListFacts LayoutModel LayoutSpec WrapModel WrapProofs DomainModel DomainFill DomainGeom.
Import ListNotations.
Local Close Scope Q_scope.
Local Open Scope Z_scope.

(** ** Specification *)

Definition wf_axes (g : grid) : Prop :=
  Forall (fun e => if g_periodic g then axis_ok e else open_axis_ok e) (g_edges g).

(** one smoothing length per axis, none negative; a coordinate per axis *)
Definition wf_input (g : grid) (sm x : list Q) : Prop :=
  length sm = length (g_edges g) /\ Forall (fun s => (0 <= s)%Q) sm /\ (length (g_edges g) <= length x)%nat.

(** the relation [R edges smoothing coordinate index] holds along every axis *)
Fixpoint all_axes (R : list Q -> Q -> Q -> Z -> Prop) (edges : list (list Q)) (sm x : list Q) (ks : list Z) : Prop :=
  match edges, sm, x, ks with
  | [], _, _, [] => True
  | e :: es, s :: ss, c :: cs, k :: ks' => R e s c k /\ all_axes R es ss cs ks'
  | _, _, _, _ => False
  end.

(** domain [k] of the axis has a point in [x-s, x+s] (modulo the period) *)
Definition meets_axis (periodic : bool) (e : list Q) (s x : Q) (k : Z) : Prop :=
  if periodic then meets1 e s x (Z.to_nat k)
  else exists y, (x - s <= y)%Q /\ (y <= x + s)%Q /\ (E e (Z.to_nat k) <= y)%Q /\ (y < E e (S (Z.to_nat k)))%Q.

(** the same; a domain of zero width counts as the point it stands at *)
Definition touches_axis (periodic : bool) (e : list Q) (s x : Q) (k : Z) : Prop :=
  if periodic then touches1 e s x (Z.to_nat k)
  else exists y, (x - s <= y)%Q /\ (y <= x + s)%Q /\ (E e (Z.to_nat k) <= y)%Q /\
       ((y < E e (S (Z.to_nat k)))%Q \/ ((E e (Z.to_nat k) == E e (S (Z.to_nat k)))%Q /\ (y == E e (Z.to_nat k))%Q)).

Definition meets (g : grid) (sm x : list Q) (ks : list Z) : Prop :=
  valid_index (g_dims g) ks /\ all_axes (meets_axis (g_periodic g)) (g_edges g) sm x ks.
Definition touches (g : grid) (sm x : list Q) (ks : list Z) : Prop :=
  valid_index (g_dims g) ks /\ all_axes (touches_axis (g_periodic g)) (g_edges g) sm x ks.

(** the smoothing length is not too close to the period, see [gap_ok]; only a
    periodic grid needs it *)
Fixpoint gaps_ok (edges : list (list Q)) (sm x : list Q) : Prop :=
  match edges, sm, x with
  | e :: es, s :: ss, c :: cs => gap_ok e s c /\ gaps_ok es ss cs
  | _, _, _ => True
  end.
Definition smoothing_ok (g : grid) (sm x : list Q) : Prop :=
  g_periodic g = true -> gaps_ok (g_edges g) sm x.

(** width of domain [ks] is positive along every axis *)
Fixpoint thick (edges : list (list Q)) (ks : list Z) : Prop :=
  match edges, ks with
  | e :: es, k :: ks' => (E e (Z.to_nat k) < E e (S (Z.to_nat k)))%Q /\ thick es ks'
  | _, _ => True
  end.

(** no domain of positive size has a rank whose flag is set *)
Definition flags_ok (g : grid) : Prop :=
  forall ks, valid_index (g_dims g) ks -> thick (g_edges g) ks ->
    nth (owner g ks) (g_degenerate g) false = false.

(** ranks one particle is sent to *)
Definition targets (g : grid) (sm x : list Q) : list nat :=
  match particle_targets g sm x with Ret u => u | _ => [] end.

(** ** Proofs *)

Lemma axis_patch_le (per : bool) e s c : (if per then axis_ok e else open_axis_ok e) -> (0 <= s)%Q ->
  fst (if per then patch_periodic e s c else patch_open e s c) <= snd (if per then patch_periodic e s c else patch_open e s c).
Proof.
  destruct per; intros He Hs.
  - destruct (patch_own e He s c) as (j & _ & _ & _ & H). lia.
  - assert (B := patch_open_bounds e He s c Hs). lia.
Qed.

Lemma patches_le g sm x : wf_axes g -> wf_input g sm x -> Forall (fun lh => fst lh <= snd lh) (patch_of g sm x).
Proof.
  unfold wf_axes, wf_input, patch_of. generalize (g_edges g) as es, (g_periodic g) as per. intros es per Ha (Hl & Hs & Hx).
  revert sm x Hl Hs Hx. induction Ha as [|e es He Hes IH]; intros sm x Hl Hs Hx; [constructor|].
  destruct sm as [|s sm]; [discriminate|]. destruct x as [|c x]; [simpl in Hx; lia|].
  inversion Hs; subst. simpl. constructor; [now apply axis_patch_le|]. apply IH; simpl in *; try assumption; lia.
Qed.

Lemma ndom_pos e : (2 <= length e)%nat -> 0 < ndom e.
Proof. unfold ndom. lia. Qed.

Lemma patch_cells g sm x p : wf_axes g -> wf_input g sm x -> In p (box (patch_of g sm x)) ->
  touches g sm x (wrap_index (g_periodic g) (g_dims g) p).
Proof.
  unfold touches, g_dims. rewrite in_box.
  unfold wf_axes, wf_input, patch_of. generalize (g_edges g) as es, (g_periodic g) as per. intros es per Ha (Hl & Hs & Hx).
  revert sm x p Hl Hs Hx. induction Ha as [|e es He Hes IH]; intros sm x p Hl Hs Hx Hp.
  - inversion Hp; subst. split; [constructor|exact I].
  - destruct sm as [|s sm]; [discriminate|]. destruct x as [|c x]; [simpl in Hx; lia|].
    inversion Hs; subst. simpl in Hp. inversion Hp as [|lh t ? ps Ht Hps]; subst.
    destruct (IH sm x ps) as [IH1 IH2]; try assumption; try (simpl in *; lia).
    unfold wrap_index. cbn [map combine fst snd all_axes].
    change (map (fun dp => if per then snd dp mod fst dp else snd dp) (combine (map ndom es) ps)) with (wrap_index per (map ndom es) ps).
    assert (Hk : 0 <= (if per then t mod ndom e else t) < ndom e).
    { destruct per.
      - apply Z.mod_pos_bound. apply ndom_pos. apply He.
      - assert (B := patch_open_bounds e He s c H1). unfold ndom. destruct He. lia. }
    split; [constructor; assumption|]. split; [|assumption].
    unfold touches_axis. destruct per.
    + apply (patch_tight e He s c t); try assumption.
      * assert (Hnd : ndom e = Z.of_nat (length e) - 1) by reflexivity. lia.
      * rewrite Z2Nat.id by lia. reflexivity.
    + destruct (patch_open_spec e He s c (Z.to_nat t) H1) as [S1 _].
      { unfold ndom in Hk. lia. }
      rewrite Z2Nat.id in S1 by lia. destruct (S1 Ht) as [A B].
      set (k := Z.to_nat t) in *.
      destruct (Qlt_le_dec (c - s) (E e k)) as [C|C].
      * exists (E e k). split; [lra|]. split; [assumption|]. split; [apply Qle_refl|].
        assert (E e k <= E e (S k))%Q.
        { apply sorted_nth; [apply He|lia|]. unfold ndom in Hk. lia. }
        destruct (Qlt_le_dec (E e k) (E e (S k))); [now left|]. right. split; [lra|reflexivity].
      * exists (c - s)%Q. split; [lra|]. split; [lra|]. split; [assumption|]. now left.
Qed.

Lemma patch_cover g sm x ks : wf_axes g -> wf_input g sm x -> smoothing_ok g sm x -> meets g sm x ks ->
  exists p, In p (box (patch_of g sm x)) /\ wrap_index (g_periodic g) (g_dims g) p = ks.
Proof.
  unfold meets, g_dims, smoothing_ok.
  unfold wf_axes, wf_input, patch_of. generalize (g_edges g) as es, (g_periodic g) as per. intros es per Ha (Hl & Hs & Hx).
  revert sm x ks Hl Hs Hx. induction Ha as [|e es He Hes IH]; intros sm x ks Hl Hs Hx Hg [Hv Hm].
  - inversion Hv; subst. exists []. split; [now left|]. reflexivity.
  - destruct sm as [|s sm]; [discriminate|]. destruct x as [|c x]; [simpl in Hx; lia|].
    inversion Hv as [|? k ? ks' Hk Hks]; subst. inversion Hs; subst. destruct Hm as [Hm1 Hm2].
    destruct (IH sm x ks') as (p & Hp & Hw); try assumption; try (simpl in *; lia).
    { intros E. apply Hg in E. apply E. }
    { now split. }
    assert (Hkn : (Z.to_nat k < length e - 1)%nat) by (unfold ndom in Hk; lia).
    assert (G : exists t, fst (if per then patch_periodic e s c else patch_open e s c) <= t
       < snd (if per then patch_periodic e s c else patch_open e s c) /\
       (if per then t mod ndom e else t) = k).
    { unfold meets_axis in Hm1. destruct per.
      - destruct (patch_covers e He s c (Z.to_nat k)) as (t & Ht & Et); try assumption.
        { apply (Hg eq_refl). }
        exists t. split; [assumption|]. rewrite Et. lia.
      - exists k. split; [|reflexivity]. destruct Hm1 as (y & Y1 & Y2 & Y3 & Y4).
        rewrite <- (Z2Nat.id k) by lia.
        apply (patch_open_spec e He s c (Z.to_nat k)); try assumption. split; lra. }
    destruct G as (t & Ht & Et). exists (t :: p). split.
    + apply in_box. simpl. constructor; [exact Ht|]. now apply in_box.
    + unfold wrap_index. cbn [map combine fst snd]. f_equal; assumption.
Qed.

Lemma meets_thick g sm x ks : meets g sm x ks -> thick (g_edges g) ks.
Proof.
  unfold meets. generalize (g_edges g) as es, (g_periodic g) as per, (g_dims g) as ds. intros es per ds [_ H].
  revert sm x ks H. induction es as [|e es IH]; intros sm x ks H; [exact I|].
  destruct sm as [|s sm], x as [|c x], ks as [|k ks]; simpl in *; try tauto.
  destruct H as [H1 H2]. split; [|eapply IH; eassumption].
  unfold meets_axis in H1. destruct per.
  - destruct H1 as (y & m & _ & _ & H1 & H3). lra.
  - destruct H1 as (y & _ & _ & H1 & H3). lra.
Qed.

Lemma targets_ok P g sm x : wf_grid P g -> wf_axes g -> wf_input g sm x ->
  particle_targets g sm x = Ret (targets g sm x) /\ StronglySorted lt (targets g sm x) /\
  (forall t, In t (targets g sm x) -> (t < P)%nat) /\
  (forall t, In t (targets g sm x) <-> exists p, In p (box (patch_of g sm x)) /\
      owner g (wrap_index (g_periodic g) (g_dims g) p) = t /\ nth t (g_degenerate g) false = false).
Proof.
  intros Hg Ha Hi.
  destruct (particle_targets_ok P g sm x Hg) as (u & Hu & Hs & Hin & Hlt).
  - now apply patches_le.
  - intros p Hp. apply (patch_cells g sm x p Ha Hi Hp).
  - unfold targets. rewrite Hu. repeat split; try assumption; apply Hin.
Qed.

Lemma targets_cover P g sm x ks : wf_grid P g -> wf_axes g -> wf_input g sm x -> smoothing_ok g sm x ->
  flags_ok g -> meets g sm x ks -> In (owner g ks) (targets g sm x).
Proof.
  intros Hg Ha Hi Hsm Hf Hm. apply (targets_ok P g sm x Hg Ha Hi).
  destruct (patch_cover g sm x ks Ha Hi Hsm Hm) as (p & Hp & Hw).
  exists p. split; [assumption|]. rewrite Hw. split; [reflexivity|].
  apply Hf; [apply Hm|]. eapply meets_thick; eassumption.
Qed.

Lemma targets_tight P g sm x t : wf_grid P g -> wf_axes g -> wf_input g sm x -> In t (targets g sm x) ->
  exists ks, touches g sm x ks /\ owner g ks = t.
Proof.
  intros Hg Ha Hi Ht. apply (targets_ok P g sm x Hg Ha Hi) in Ht. destruct Ht as (p & Hp & Ho & _).
  exists (wrap_index (g_periodic g) (g_dims g) p). split; [now apply patch_cells|assumption].
Qed.

(** ** degenerate flags *)

Lemma degenerate_flags_length es : Forall (fun e => (2 <= length e)%nat) es ->
  Z.of_nat (length (degenerate_flags es)) = prodz (map ndom es).
Proof.
  induction 1 as [|e es He Hes IH]; [reflexivity|].
  cbn [degenerate_flags map]. rewrite flat_map_length_sum.
  rewrite (map_ext _ (fun _ => length (degenerate_flags es))) by (intros; apply map_length).
  change (prodz (ndom e :: map ndom es)) with (ndom e * prodz (map ndom es)). rewrite <- IH.
  unfold ndom. generalize (degenerate_flags es). intros l.
  assert (G : forall n lo, list_sum (map (fun _ : Z => length l) (zrange lo n)) = (n * length l)%nat).
  { induction n as [|n IHn]; intros lo; [reflexivity|]. simpl. rewrite IHn. reflexivity. }
  rewrite G. nia.
Qed.

Lemma nth_flat_map_const {A B} (f : A -> list B) (l : list A) m d da i j :
  (forall a, In a l -> length (f a) = m) -> (i < length l)%nat -> (j < m)%nat ->
  nth (i * m + j) (flat_map f l) d = nth j (f (nth i l da)) d.
Proof.
  revert i. induction l as [|a l IH]; intros i Hm Hi Hj; simpl in Hi; [lia|].
  simpl flat_map. destruct i as [|i].
  - rewrite app_nth1 by (rewrite Hm by (now left); lia). reflexivity.
  - rewrite app_nth2 by (rewrite Hm by (now left); lia).
    rewrite Hm by (now left). replace (S i * m + j - m)%nat with (i * m + j)%nat by lia.
    apply IH; [|lia|assumption]. intros; apply Hm; now right.
Qed.

Lemma degenerate_flags_nth es ks : Forall (fun e => (2 <= length e)%nat) es -> valid_index (map ndom es) ks ->
  nth (Z.to_nat (ravel (map ndom es) ks)) (degenerate_flags es) false
  = existsb (fun ek => width0 (fst ek) (snd ek)) (combine es ks).
Proof.
  intros H. revert ks. induction H as [|e es He Hes IH]; intros ks Hv.
  - inversion Hv; subst. reflexivity.
  - simpl in Hv. inversion Hv as [|? k ? ks' Hk Hks]; subst.
    cbn [degenerate_flags map ravel combine existsb fst snd].
    change (fold_right Z.mul 1 (map ndom es)) with (prodz (map ndom es)).
    assert (B := ravel_bound _ _ Hks).
    assert (Hl := degenerate_flags_length es Hes).
    replace (Z.to_nat (k * prodz (map ndom es) + ravel (map ndom es) ks'))
      with (Z.to_nat k * length (degenerate_flags es) + Z.to_nat (ravel (map ndom es) ks'))%nat by nia.
    rewrite nth_flat_map_const with (da := 0).
    + rewrite nth_zrange by (unfold ndom in Hk; lia). rewrite Z2Nat.id by lia. rewrite Z.add_0_l.
      rewrite <- IH by assumption. rewrite (nth_indep _ false (orb (width0 e k) false)) by (rewrite map_length; lia).
      apply map_nth.
    + intros a _. apply map_length.
    + rewrite zrange_length. unfold ndom in Hk. lia.
    + lia.
Qed.

Lemma width0_false e k : 0 <= k -> (E e (Z.to_nat k) < E e (S (Z.to_nat k)))%Q -> width0 e k = false.
Proof.
  intros Hk H. unfold width0, E in *. replace (Z.to_nat k + 1)%nat with (S (Z.to_nat k)) by lia.
  apply not_true_iff_false. intros C. apply Qeq_bool_iff in C. lra.
Qed.

Lemma thick_flags es ks : Forall (fun e => (2 <= length e)%nat) es -> valid_index (map ndom es) ks -> thick es ks ->
  nth (Z.to_nat (ravel (map ndom es) ks)) (degenerate_flags es) false = false.
Proof.
  intros H Hv Ht. rewrite degenerate_flags_nth by assumption.
  apply not_true_iff_false. intros C. apply existsb_exists in C. destruct C as ([e k] & Hin & C). simpl in C.
  revert ks Hv Ht Hin. induction H as [|e' es He Hes IH]; intros ks Hv Ht Hin; [contradiction|].
  simpl in Hv. inversion Hv as [|? k' ? ks' Hk Hks]; subst. destruct Ht as [Ht1 Ht2]. simpl in Hin.
  destruct Hin as [Hin|Hin].
  - inversion Hin; subst. rewrite width0_false in C; [discriminate|lia|assumption].
  - eapply IH; eassumption.
Qed.

(** the flags of the constructor *)
Definition constructed (g : grid) : Prop := g_degenerate g = degenerate_flags (g_edges g).

(** no axis has a domain of zero width *)
Definition all_thick (g : grid) : Prop :=
  Forall (fun e => forall k, (S k < length e)%nat -> (E e k < E e (S k))%Q) (g_edges g).

Lemma flags_ok_all_thick P g : wf_grid P g -> constructed g -> all_thick g -> flags_ok g.
Proof.
  intros Hg Hc Ht ks Hv _. rewrite Hc.
  assert (Hall : forall n, nth n (degenerate_flags (g_edges g)) false = false).
  { intros n. destruct (lt_dec n (length (degenerate_flags (g_edges g)))) as [Hn|Hn].
    2: { rewrite nth_overflow by lia. reflexivity. }
    assert (Hd := wf_dims P g Hg). assert (Hl := degenerate_flags_length _ Hd).
    destruct (unravel_valid (map ndom (g_edges g)) (Z.of_nat n) (wf_dims_pos P g Hg) ltac:(lia)) as [Hv' Hr'].
    assert (E1 : Z.to_nat (ravel (map ndom (g_edges g)) (unravel (map ndom (g_edges g)) (Z.of_nat n))) = n) by lia.
    rewrite <- E1. apply thick_flags; try assumption.
    revert Hv' Ht. generalize (unravel (map ndom (g_edges g)) (Z.of_nat n)) as us. unfold all_thick.
    generalize (g_edges g) as es. induction es as [|e es IH]; intros us Hv' Ht; [exact I|].
    simpl in Hv'. inversion Hv' as [|? u ? us' Hu Hus]; subst. inversion Ht; subst. simpl. split.
    - apply H1. unfold ndom in Hu. lia.
    - now apply IH. }
  apply Hall.
Qed.

Lemma flags_ok_identity P g : wf_grid P g -> constructed g ->
  g_assign g = seq 0 (length (g_assign g)) -> flags_ok g.
Proof.
  intros Hg Hc Ha ks Hv Ht. rewrite Hc. unfold owner. rewrite Ha.
  assert (B := ravel_bound _ _ Hv). assert (L := wf_assign_len P g Hg). fold (g_dims g) in *.
  rewrite seq_nth by lia. rewrite Nat.add_0_l. apply thick_flags; try assumption. apply (wf_dims P g Hg).
Qed.
