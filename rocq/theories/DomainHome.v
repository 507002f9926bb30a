(** The home domain of a particle; primaries and loads. *)
From Coq Require Import List Arith ZArith QArith Qround Lqa Lia Bool Sorted.
From Verif Require Import Base ListFacts LayoutModel LayoutSpec LayoutProofs WrapModel WrapProofs DomainModel DomainFill DomainGeom DomainTargets.
Import ListNotations.
Local Close Scope Q_scope.
Local Open Scope Z_scope.

(** the domain [ks] contains the point modulo the periods (half-open boxes) *)
Definition inside_axis (e : list Q) (c : Q) (k : Z) : Prop :=
  exists m, (E e (Z.to_nat k) <= c + iz m * period e)%Q /\ (c + iz m * period e < E e (S (Z.to_nat k)))%Q.
Definition inside (g : grid) (x : list Q) (ks : list Z) : Prop :=
  valid_index (g_dims g) ks /\
  all_axes (fun e _ c k => inside_axis e c k) (g_edges g) (map (fun _ => 0%Q) (g_edges g)) x ks.

Definition dig1 (e : list Q) (c : Q) : Z := digitize (qrem c (period e)) e - 1.
Definition home (g : grid) (x : list Q) : list Z :=
  map (fun p => dig1 (fst p) (snd p)) (combine (g_edges g) x).

Lemma inside_axis_rem e c k : axis_ok e -> 0 <= k < ndom e ->
  (inside_axis e c k <-> (E e (Z.to_nat k) <= qrem c (period e))%Q /\ (qrem c (period e) < E e (S (Z.to_nat k)))%Q).
Proof.
  intros He Hk. unfold ndom in Hk. split.
  - intros (m & H1 & H2).
    assert (R : (qrem c (period e) == c + iz m * period e)%Q).
    { apply (qrem_unique _ _ _ m); [apply He| | |reflexivity].
      - assert (0 <= E e (Z.to_nat k))%Q by (apply E_nonneg; [assumption|lia]). lra.
      - assert (E e (S (Z.to_nat k)) <= period e)%Q by (apply E_le_L; [assumption|lia]). lra. }
    now rewrite R.
  - intros [H1 H2]. destruct (qrem_shift c (period e)) as [m Hm]. exists m. rewrite Hm in *. now split.
Qed.

Lemma inside_axis_dig e c k : axis_ok e -> 0 <= k < ndom e -> (inside_axis e c k <-> k = dig1 e c).
Proof.
  intros He Hk. rewrite inside_axis_rem by assumption. unfold ndom in Hk. unfold dig1. split.
  - intros [H1 H2]. rewrite (digitize_at e He (Z.to_nat k)) by (assumption || lia). lia.
  - intros ->. destruct (qrem_bounds c (period e) (ax_pos e He)) as [B1 B2].
    destruct (digitize_own e He _ B1 B2) as (j & Hj & Hjn & H1 & H2). rewrite Hj.
    replace (Z.to_nat (Z.of_nat (S j) - 1)) with j by lia. now split.
Qed.

Lemma dig1_bound e c : axis_ok e -> 0 <= dig1 e c < ndom e.
Proof.
  intros He. destruct (qrem_bounds c (period e) (ax_pos e He)) as [B1 B2].
  destruct (digitize_own e He _ B1 B2) as (j & Hj & Hjn & _). unfold dig1, ndom. rewrite Hj. lia.
Qed.

Definition periodic_axes (g : grid) : Prop := g_periodic g = true /\ Forall axis_ok (g_edges g).

Lemma periodic_wf_axes g : periodic_axes g -> wf_axes g.
Proof. intros [Hp H]. unfold wf_axes. now rewrite Hp. Qed.

Lemma home_inside g x : Forall axis_ok (g_edges g) -> (length (g_edges g) <= length x)%nat -> inside g x (home g x).
Proof.
  unfold inside, home, g_dims. generalize (g_edges g) as es. intros es H. revert x.
  induction H as [|e es He Hes IH]; intros x Hl; [split; [constructor|exact I]|].
  destruct x as [|c x]; [simpl in Hl; lia|]. destruct (IH x ltac:(simpl in Hl; lia)) as [I1 I2].
  cbn [map combine fst snd all_axes]. split.
  - constructor; [now apply dig1_bound|assumption].
  - split; [|assumption]. apply inside_axis_dig; [assumption|now apply dig1_bound|reflexivity].
Qed.

Lemma inside_home g x ks : Forall axis_ok (g_edges g) -> inside g x ks -> ks = home g x.
Proof.
  unfold inside, home, g_dims. generalize (g_edges g) as es. intros es H. revert x ks.
  induction H as [|e es He Hes IH]; intros x ks [Hv Ha]; [now inversion Hv|].
  simpl in Hv. inversion Hv as [|? k ? ks' Hk Hks]; subst. destruct x as [|c x]; [contradiction|].
  cbn [map combine fst snd all_axes] in *. destruct Ha as [A1 A2]. f_equal.
  - now apply inside_axis_dig.
  - apply IH. now split.
Qed.

(** with no smoothing the patch is the home *)
Lemma box_zero g sm x : periodic_axes g -> length sm = length (g_edges g) -> (length (g_edges g) <= length x)%nat ->
  Forall (fun s => (s == 0)%Q) sm -> box (patch_of g sm x) = [home g x].
Proof.
  intros [Hp He] Hl Hx Hs. unfold patch_of, home. rewrite Hp. clear Hp. revert He Hl Hx.
  generalize (g_edges g) as es. intros es He. revert sm x Hs.
  induction He as [|e es He Hes IH]; intros sm x Hs Hl Hx; [reflexivity|].
  destruct sm as [|s sm]; [discriminate|]. destruct x as [|c x]; [simpl in Hx; lia|].
  inversion Hs; subst. cbn [patches combine map fst snd].
  destruct (patch_zero e He s c H1) as (j & Hj & J1 & J2 & ->). cbn [box].
  rewrite IH by (simpl in *; assumption || lia).
  replace (Z.to_nat (Z.of_nat j + 1 - Z.of_nat j)) with 1%nat by lia. simpl. do 3 f_equal.
  unfold dig1. rewrite (digitize_at e He j) by assumption. lia.
Qed.

Lemma wrap_home g x : Forall axis_ok (g_edges g) -> (length (g_edges g) <= length x)%nat ->
  wrap_index (g_periodic g) (g_dims g) (home g x) = home g x.
Proof.
  intros He Hx. assert (Hv := proj1 (home_inside g x He Hx)). revert Hv. unfold wrap_index.
  generalize (g_dims g) as ds, (home g x) as hs. induction 1 as [|d h ds hs Hd Hv IH]; [reflexivity|].
  cbn [combine map fst snd]. rewrite IH. f_equal. destruct (g_periodic g); [|reflexivity]. now apply Z.mod_small.
Qed.

Lemma zeros_input g sm x : length sm = length (g_edges g) -> (length (g_edges g) <= length x)%nat ->
  Forall (fun s => (s == 0)%Q) sm -> wf_input g sm x.
Proof.
  intros Hl Hx Hs. split; [assumption|]. split; [|assumption].
  eapply Forall_impl; [|exact Hs]. intros s H. cbv beta in H. rewrite H. lra.
Qed.

Lemma inside_thick g x ks : inside g x ks -> thick (g_edges g) ks.
Proof.
  unfold inside. intros [_ H]. revert x ks H. generalize (g_edges g) as es.
  induction es as [|e es IH]; intros x ks H; [exact I|].
  destruct x as [|c x], ks as [|k ks]; simpl in *; try tauto. destruct H as [(m & H1 & H2) H3].
  split; [lra|]. eapply IH; eassumption.
Qed.

Lemma targets_zero P g sm x : wf_grid P g -> periodic_axes g -> flags_ok g -> length sm = length (g_edges g) ->
  (length (g_edges g) <= length x)%nat -> Forall (fun s => (s == 0)%Q) sm ->
  targets g sm x = [owner g (home g x)].
Proof.
  intros Hg Hp Hf Hl Hx Hs. assert (He := proj2 Hp).
  destruct (targets_ok P g sm x Hg (periodic_wf_axes g Hp) (zeros_input g sm x Hl Hx Hs)) as (_ & Hss & _ & Hin).
  rewrite (box_zero g sm x Hp Hl Hx Hs) in Hin.
  assert (Hh := home_inside g x He Hx).
  assert (G : forall t, In t (targets g sm x) <-> t = owner g (home g x)).
  { intros t. rewrite Hin. split.
    - intros (p & [<-|[]] & Ho & _). rewrite wrap_home in Ho by assumption. now symmetry.
    - intros ->. exists (home g x). rewrite wrap_home by assumption. split; [now left|]. split; [reflexivity|].
      apply Hf; [apply Hh|]. eapply inside_thick; eassumption. }
  apply sorted_lt_NoDup in Hss. destruct (targets g sm x) as [|a [|b l]].
  - exfalso. apply (proj2 (G _) eq_refl).
  - f_equal. apply G. now left.
  - assert (a = b) by (rewrite (proj1 (G a)), (proj1 (G b)) by (simpl; tauto); reflexivity). subst.
    inversion Hss; subst. simpl in H1. tauto.
Qed.

(** ** isprimary *)

Lemma in_corner_spec es ks x : Forall axis_ok es -> valid_index (map ndom es) ks -> (length es <= length x)%nat ->
  in_corner (map (fun ek => (nth (Z.to_nat (snd ek)) (fst ek) 0%Q, nth (Z.to_nat (snd ek) + 1) (fst ek) 0%Q)) (combine es ks))
            (map (fun p => qrem (snd p) (period (fst p))) (combine es x)) = true
  <-> ks = map (fun p => dig1 (fst p) (snd p)) (combine es x).
Proof.
  intros H. revert ks x. induction H as [|e es He Hes IH]; intros ks x Hv Hx.
  - inversion Hv; subst. simpl. tauto.
  - simpl in Hv. inversion Hv as [|? k ? ks' Hk Hks]; subst. destruct x as [|c x]; [simpl in Hx; lia|].
    assert (IH' := IH ks' x Hks ltac:(simpl in Hx; lia)).
    unfold in_corner in *. cbn [combine map forallb fst snd]. rewrite andb_true_iff, IH'.
    assert (A : (Qle_bool (nth (Z.to_nat k) e 0%Q) (qrem c (period e)) &&
            negb (Qle_bool (nth (Z.to_nat k + 1) e 0%Q) (qrem c (period e))))%bool = true <-> k = dig1 e c).
    { rewrite <- inside_axis_dig by assumption. rewrite inside_axis_rem by assumption. unfold E.
      replace (Z.to_nat k + 1)%nat with (S (Z.to_nat k)) by lia.
      rewrite andb_true_iff, negb_true_iff, Qle_bool_iff. rewrite <- not_true_iff_false, Qle_bool_iff.
      split; intros [A1 A2]; split; try assumption; [now apply Qnot_le_lt|now apply Qlt_not_le]. }
    rewrite A. split.
    + intros [-> ->]. reflexivity.
    + intros E0. inversion E0. now split.
Qed.

Lemma isprimary_spec P g r x : wf_grid P g -> periodic_axes g -> (length (g_edges g) <= length x)%nat ->
  isprimary g r x = (owner g (home g x) =? r)%nat.
Proof.
  intros Hg Hp Hx. assert (He := proj2 Hp). unfold isprimary. rewrite (proj1 Hp).
  assert (Hv := proj1 (home_inside g x He Hx)).
  assert (Hrb := ravel_bound _ _ Hv). assert (Hlen := wf_assign_len P g Hg).
  apply Bool.eq_iff_eq_true. rewrite existsb_exists, Nat.eqb_eq. unfold corners. split.
  - intros (b & Hb & Hc). apply in_map_iff in Hb. destruct Hb as (d & <- & Hd).
    apply filter_In in Hd. destruct Hd as [Hd1 Hd2]. apply in_seq in Hd1. apply Nat.eqb_eq in Hd2.
    destruct (unravel_valid (g_dims g) (Z.of_nat d) (wf_dims_pos P g Hg) ltac:(lia)) as [Hv' Hr'].
    apply (in_corner_spec (g_edges g) (unravel (g_dims g) (Z.of_nat d)) x He Hv' Hx) in Hc.
    unfold owner. fold (home g x) in Hc. rewrite <- Hc, Hr'. rewrite Nat2Z.id. assumption.
  - intros Ho. exists (map (fun ek => (nth (Z.to_nat (snd ek)) (fst ek) 0%Q, nth (Z.to_nat (snd ek) + 1) (fst ek) 0%Q))
                    (combine (g_edges g) (home g x))).
    split.
    + apply in_map_iff. exists (Z.to_nat (ravel (g_dims g) (home g x))). split.
      * rewrite Z2Nat.id by lia. rewrite unravel_ravel by assumption. reflexivity.
      * apply filter_In. split; [apply in_seq; lia|]. apply Nat.eqb_eq. exact Ho.
    + apply in_corner_spec; try assumption. reflexivity.
Qed.

(** ** load *)

(** index of the particle's domain used by load; outside of a grid that is not
    periodic the nearest domain counts *)
Definition load_cell (g : grid) (x : list Q) : list Z :=
  map (fun p => if g_periodic g then dig1 (fst p) (snd p)
                else clip 0 (ndom (fst p) - 1) (digitize (snd p) (fst p) - 1)) (combine (g_edges g) x).
Definition load_domain (g : grid) (x : list Q) : nat := Z.to_nat (ravel (g_dims g) (load_cell g x)).

Lemma load_cell_valid g x : wf_axes g -> (length (g_edges g) <= length x)%nat -> valid_index (g_dims g) (load_cell g x).
Proof.
  unfold wf_axes, load_cell, g_dims. generalize (g_edges g) as es, (g_periodic g) as per. intros es per H. revert x.
  induction H as [|e es He Hes IH]; intros x Hx; [constructor|]. destruct x as [|c x]; [simpl in Hx; lia|].
  cbn [map combine fst snd]. constructor; [|apply IH; simpl in Hx; lia].
  destruct per; [now apply dig1_bound|]. unfold clip, ndom. destruct He. lia.
Qed.

Lemma load_cell_home g x : g_periodic g = true -> load_cell g x = home g x.
Proof. intros H. unfold load_cell, home. now rewrite H. Qed.

Lemma ravel_particle g x : wf_axes g -> (length (g_edges g) <= length x)%nat ->
  (if g_periodic g then ravel_raise else ravel_clip) (g_dims g) (load_index g x) = Ret (Z.of_nat (load_domain g x)).
Proof.
  intros Ha Hx. assert (Hv := load_cell_valid g x Ha Hx). unfold load_domain.
  rewrite Z2Nat.id by (apply (ravel_bound _ _ Hv)).
  destruct (g_periodic g) eqn:Hp.
  - assert (El : load_index g x = load_cell g x).
    { unfold load_index, load_cell, dig1. now rewrite Hp. }
    rewrite El. unfold ravel_raise.
    assert (B : forallb (fun p => (0 <=? snd p) && (snd p <? fst p)) (combine (g_dims g) (load_cell g x)) = true).
    { revert Hv. generalize (g_dims g) as ds, (load_cell g x) as hs. induction 1 as [|d h ds hs Hd Hv IH]; [reflexivity|].
      simpl. rewrite IH. destruct (Z.leb_spec 0 h), (Z.ltb_spec h d); simpl; lia. }
    now rewrite B.
  - unfold ravel_clip. do 2 f_equal. unfold load_index, load_cell, g_dims. rewrite Hp.
    generalize (g_edges g) as es. induction es as [|e es IH] in x |- *; [reflexivity|].
    destruct x as [|c x]; [reflexivity|]. cbn [map combine fst snd]. f_equal. apply IH.
Qed.

Definition occupants (g : grid) (tr : list Q -> list Q) (pos : list (list Q)) (d : nat) : nat :=
  length (filter (fun x => (load_domain g (tr x) =? d)%nat) pos).

Lemma fold_add_ones l a : fold_left Nat.add (map (fun _ : nat * nat => 1%nat) l) a = (a + length l)%nat.
Proof. revert a; induction l as [|x l IH]; intros a; simpl; [lia|]. rewrite IH. lia. Qed.

Lemma rank_load_ok P g tr pos : wf_grid P g -> wf_axes g ->
  (forall x, In x pos -> (length (g_edges g) <= length (tr x))%nat) ->
  rank_load g tr (length (g_assign g)) pos = Ret (map (occupants g tr pos) (seq 0 (length (g_assign g)))).
Proof.
  intros Hg Ha Hx. unfold rank_load.
  assert (Hlen := wf_assign_len P g Hg).
  assert (C : collect (map (fun x => (if g_periodic g then ravel_raise else ravel_clip) (g_dims g) (load_index g (tr x))) pos)
     = Ret (map (fun x => Z.of_nat (load_domain g (tr x))) pos)).
  { apply collect_Ret. rewrite map_map. apply map_ext_in. intros x Hin. apply ravel_particle; [assumption|now apply Hx]. }
  rewrite C. cbn [bind]. rewrite !map_map.
  rewrite (map_ext _ (fun x => load_domain g (tr x))) by (intros; apply Nat2Z.id).
  unfold bincount.
  assert (B : forallb (fun i => (i <? length (g_assign g))%nat) (map (fun x => load_domain g (tr x)) pos) = true).
  { apply forallb_forall. intros i Hi. apply in_map_iff in Hi. destruct Hi as (x & <- & Hin).
    apply Nat.ltb_lt. unfold load_domain.
    assert (R := ravel_bound _ _ (load_cell_valid g (tr x) Ha (Hx x Hin))). lia. }
  rewrite B. f_equal.
  set (n := length (g_assign g)).
  apply list_ext. intros i. rewrite nth_error_map.
  assert (F : forall acc, length acc = n -> forall i, nth_error
    (fold_left (fun acc p => upd (fst p) (fun x => (x + snd p)%nat) acc)
      (combine (map (fun x => load_domain g (tr x)) pos) (map (fun _ => 1%nat) pos)) acc) i
    = option_map (fun a => (a + occupants g tr pos i)%nat) (nth_error acc i)).
  { clear. induction pos as [|x pos IH]; intros acc Hacc i.
    - simpl. destruct (nth_error acc i); simpl; [|reflexivity]. f_equal. unfold occupants. simpl. lia.
    - cbn [map combine fold_left fst snd]. rewrite IH by (now rewrite upd_length). rewrite nth_error_upd.
      unfold occupants. cbn [filter]. destruct (load_domain g (tr x) =? i)%nat.
      + destruct (nth_error acc i); simpl; [|reflexivity]. f_equal. lia.
      + reflexivity. }
  rewrite F by apply repeat_length.
  destruct (lt_dec i n) as [Hi|Hi].
  - rewrite nth_error_repeat by assumption. rewrite nth_error_seq_lt by assumption. reflexivity.
  - rewrite nth_error_seq_ge by lia. rewrite (proj2 (nth_error_None _ _)) by (rewrite repeat_length; lia). reflexivity.
Qed.

Lemma sum_ranks_seq (f : list (list Q) -> nat -> nat) world n a : length a = n ->
  fold_left add_lists (map (fun pos => map (f pos) (seq 0 n)) world) a
  = map (fun d => (nth d a 0 + list_sum (map (fun pos => f pos d) world))%nat) (seq 0 n).
Proof.
  revert a. induction world as [|p w IH]; intros a Ha; simpl.
  - rewrite (map_ext _ (fun d => nth d a 0%nat)) by (intros; lia). symmetry. now apply map_nth_seq.
  - rewrite IH.
    + apply map_ext_seq. intros d Hd. unfold add_lists.
      rewrite (nth_map_in _ _ _ _ (0%nat, 0%nat)) by (rewrite combine_length, map_length, seq_length; lia).
      rewrite combine_nth by (rewrite map_length, seq_length; assumption). cbn [fst snd].
      rewrite nth_map_seq by assumption. lia.
    + unfold add_lists. rewrite map_length, combine_length, map_length, seq_length. lia.
Qed.

Lemma all_ret_map {A B} (f : A -> B) l : all_ret (map (fun x => Ret (f x)) l) = Some (map f l).
Proof. unfold all_ret. rewrite map_map. rewrite <- (sequence_map_Some (map f l)). now rewrite map_map. Qed.

Lemma load_ok P g tr gamma world : wf_grid P g -> wf_axes g ->
  (forall pos x, In pos world -> In x pos -> (length (g_edges g) <= length (tr x))%nat) ->
  load g tr (length (g_assign g)) gamma world =
  map (fun _ => Ret (map (fun d => Nat.pow (list_sum (map (fun pos => occupants g tr pos d) world)) gamma)
                         (seq 0 (length (g_assign g))))) world.
Proof.
  intros Hg Ha Hx. unfold load.
  rewrite (map_ext_in _ (fun pos => Ret (map (occupants g tr pos) (seq 0 (length (g_assign g)))))).
  2: { intros pos Hp. apply (rank_load_ok P); [assumption|assumption|]. intros x. now apply Hx. }
  rewrite all_ret_map. apply map_ext. intros _. f_equal.
  rewrite (sum_ranks_seq (occupants g tr)) by apply repeat_length. rewrite map_map. apply map_ext_seq.
  intros d Hd. rewrite nth_repeat. reflexivity.
Qed.

Lemma occupants_total P g tr pos : wf_grid P g -> wf_axes g ->
  (forall x, In x pos -> (length (g_edges g) <= length (tr x))%nat) ->
  list_sum (map (occupants g tr pos) (seq 0 (length (g_assign g)))) = length pos.
Proof.
  intros Hg Ha Hx. assert (Hlen := wf_assign_len P g Hg). unfold occupants.
  induction pos as [|x pos IH].
  - simpl. induction (seq 0 (length (g_assign g))); simpl; [reflexivity|assumption].
  - simpl length. rewrite <- IH by (intros; apply Hx; now right).
    assert (R := ravel_bound _ _ (load_cell_valid g (tr x) Ha (Hx x (or_introl eq_refl)))).
    rewrite (map_ext _ (fun d => ((if (load_domain g (tr x) =? d)%nat then 1 else 0) +
        length (filter (fun x0 => (load_domain g (tr x0) =? d)%nat) pos))%nat)).
    2: { intros d. simpl. destruct (load_domain g (tr x) =? d)%nat; reflexivity. }
    rewrite list_sum_map_add.
    assert (G : forall n s v, (s <= v < s + n)%nat -> list_sum (map (fun d => if (v =? d)%nat then 1 else 0)%nat (seq s n)) = 1%nat).
    { assert (Z0 : forall n s v, (v < s)%nat -> list_sum (map (fun d => if (v =? d)%nat then 1 else 0)%nat (seq s n)) = 0%nat).
      { induction n as [|n IHn]; intros s v Hv; [reflexivity|]. simpl. destruct (Nat.eqb_spec v s); [lia|]. now rewrite IHn by lia. }
      induction n as [|n IHn]; intros s v Hv; [lia|]. simpl. destruct (Nat.eqb_spec v s).
      - subst. now rewrite Z0 by lia.
      - now rewrite IHn by lia. }
    rewrite G; [lia|]. unfold load_domain. lia.
Qed.
