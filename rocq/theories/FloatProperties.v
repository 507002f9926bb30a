(** Properties C70 and C71: GridND with rounded arithmetic (pmesh/domain.py:409-465,
    519-652). *)
From Coq Require Import List Arith ZArith QArith Qround Qabs Qpower Lqa Lia Bool Sorted Permutation.
From Verif Require Import Base ListFacts LayoutModel LayoutSpec LayoutProofs LayoutModes LayoutMore WrapModel WrapProofs
  DomainModel DomainFill DomainGeom DomainTargets DomainHome DomainAssign DomainProperties FloatModel FloatRound FloatDomain.
Import ListNotations.
Local Close Scope Q_scope.
Local Open Scope Z_scope.

Section Rounded.
Variable rnd : Q -> Q.
Hypothesis R : rounding rnd.

(** the position as decompose and isprimary see it *)
Definition wrapped (es : list (list Q)) (x : list Q) : list Q :=
  map (fun p => frem rnd (snd p) (period (fst p))) (combine es x).
Definition periods_exact (g : grid) : Prop := Forall (fun e => (rnd (period e) == period e)%Q) (g_edges g).
Definition fpatch_of (g : grid) (sm x : list Q) : list (Z * Z) := fpatches rnd (g_periodic g) (g_edges g) sm x.
Definition ftargets_of (g : grid) (sm x : list Q) : list nat := match ftargets rnd g sm x with Ret u => u | _ => [] end.

Lemma fpatches_cells g sm x : periodic_axes g -> wf_input g sm x ->
  Forall (fun lh => fst lh <= snd lh) (fpatch_of g sm x) /\
  forall p, In p (box (fpatch_of g sm x)) -> valid_index (g_dims g) (wrap_index (g_periodic g) (g_dims g) p).
Proof.
  unfold periodic_axes, wf_input, fpatch_of, g_dims. intros [-> Ha] (Hl & _ & Hx). revert sm x Hl Hx.
  induction Ha as [|e es He Hes IH]; intros sm x Hl Hx.
  - split; [constructor|]. intros p Hp. cbn in Hp. destruct Hp as [<-|[]]. constructor.
  - destruct sm as [|s sm]; [discriminate|]. destruct x as [|c x]; [cbn in Hx; lia|].
    destruct (IH sm x) as [IH1 IH2]; [cbn in Hl; lia|cbn in Hx; lia|]. cbn [fpatches]. split.
    + constructor; [|exact IH1]. apply Z.lt_le_incl. now apply fpatch_le.
    + intros p Hp. rewrite in_box in Hp. inversion Hp as [|lh t ? ps Ht Hps]; subst.
      constructor; [cbn; apply Z.mod_pos_bound, ndom_pos, He|]. apply IH2. now apply in_box.
Qed.
Lemma ftargets_ok P g sm x : wf_grid P g -> periodic_axes g -> wf_input g sm x ->
  ftargets rnd g sm x = Ret (ftargets_of g sm x) /\ StronglySorted lt (ftargets_of g sm x) /\
  (forall t, In t (ftargets_of g sm x) -> (t < P)%nat) /\
  (forall t, In t (ftargets_of g sm x) <-> exists p, In p (box (fpatch_of g sm x)) /\
      owner g (wrap_index (g_periodic g) (g_dims g) p) = t /\ nth t (g_degenerate g) false = false).
Proof.
  intros Hg Hp Hi. destruct (fpatches_cells g sm x Hp Hi) as [Hle Hv].
  unfold ftargets_of, ftargets. fold (fpatch_of g sm x).
  rewrite patch_loop_cells, visit_box by assumption.
  destruct (cells_loop_ok P g (box (fpatch_of g sm x)) [] Hg Hv) as (l & El & Hl & Hin); [constructor|].
  rewrite El. destruct (unique_targets_from None (rev l)) as (u & Eu & Hu & Hui).
  { now apply rev_sorted. }
  { discriminate. }
  rewrite Eu. split; [reflexivity|]. split; [assumption|].
  assert (G : forall t, In t u <-> exists p, In p (box (fpatch_of g sm x)) /\
      owner g (wrap_index (g_periodic g) (g_dims g) p) = t /\ nth t (g_degenerate g) false = false).
  { intros t. rewrite Hui. rewrite <- in_rev, Hin. simpl. split.
    - intros [[[]|H] _]. assumption.
    - intros H. split; [now right|discriminate]. }
  split; [|assumption]. intros t Ht. apply G in Ht. destruct Ht as (p & Hpb & <- & _).
  apply (zlookup_owner P g _ Hg). now apply Hv.
Qed.
Lemma fdecompose_ok P g tr sm pos (T : list Q -> list nat) :
  (forall x, In x pos -> ftargets rnd g sm (tr x) = Ret (T x) /\ StronglySorted lt (T x) /\ (forall t, In t (T x) -> (t < P)%nat)) ->
  fdecompose rnd P g tr sm pos =
  Ret (length pos, map (fun r => length (sent_to T pos r)) (seq 0 P), flat_map (sent_to T pos) (seq 0 P)).
Proof.
  intros HT. destruct pos as [|x0 pos'] eqn:Epos.
  - simpl. f_equal. f_equal; [f_equal|].
    + rewrite <- (map_nth_seq (repeat 0%nat P) 0%nat P) at 1 by apply repeat_length.
      apply map_ext_seq. intros r Hr. apply nth_repeat.
    + symmetry. apply flat_map_nil. reflexivity.
  - rewrite <- Epos in *. unfold fdecompose. rewrite Epos. rewrite <- Epos. clear x0 pos' Epos.
    assert (Hc : collect (map (fun x => ftargets rnd g sm (tr x)) pos) = Ret (map T pos)).
    { apply collect_Ret. rewrite map_map. apply map_ext_in. intros x Hx. apply HT, Hx. }
    rewrite Hc. cbn [bind].
    assert (HP : Forall (Forall (fun t => t < P)%nat) (map T pos)).
    { apply Forall_forall. intros l Hl. apply in_map_iff in Hl. destruct Hl as (x & <- & Hx).
      apply Forall_forall. apply HT, Hx. }
    replace (forallb (forallb (fun t => (t <? P)%nat)) (map T pos)) with true.
    2: { symmetry. apply forallb_forall. intros l Hl. apply forallb_forall. intros t Ht.
         apply Nat.ltb_lt. rewrite Forall_forall in HP. specialize (HP l Hl). rewrite Forall_forall in HP. now apply HP. }
    destruct (passes_ok P (map T pos) HP) as (E1 & E2). rewrite E2.
    assert (HN : Forall (@NoDup nat) (map T pos)).
    { apply Forall_forall. intros l Hl. apply in_map_iff in Hl. destruct Hl as (x & <- & Hx).
      apply sorted_lt_NoDup, HT, Hx. }
    assert (HG : forall r, group r (pairs_of 0 (map T pos)) = sent_to T pos r).
    { intros r. rewrite group_pairs by assumption. rewrite map_length. unfold sent_to.
      apply filter_ext_in. intros i Hi. apply in_seq in Hi. rewrite Nat.sub_0_r.
      rewrite (nth_map_in T pos i [] []) by lia. reflexivity. }
    unfold force. rewrite sequence_map_Some. cbn [bind]. f_equal. f_equal; [f_equal|].
    + rewrite E1. apply map_ext. intros r. now rewrite HG.
    + apply flat_map_ext. intros r. apply HG.
Qed.
Lemma setting_fdecompose P g tr sm poss : setting P g tr sm poss -> periodic_axes g ->
  exists args, map (fdecompose rnd P g tr sm) poss = map Ret args /\ length args = P /\ wf_args args /\
    map a_len args = map (@length _) poss /\
    forall s r, (s < P)%nat -> (r < P)%nat ->
      addr args s r = sent_to (fun x => ftargets_of g sm (tr x)) (nth s poss []) r.
Proof.
  intros [Hg Ha Hw Hi] Hp.
  exists (map (fun pos => (length pos, map (fun r => length (sent_to (fun x => ftargets_of g sm (tr x)) pos r)) (seq 0 P),
                           flat_map (sent_to (fun x => ftargets_of g sm (tr x)) pos) (seq 0 P))) poss).
  destruct (sent_to_addr (fun x => ftargets_of g sm (tr x)) poss P Hw) as [W1 W2].
  split; [|split; [now rewrite map_length|split; [exact W1|split; [now rewrite map_map|exact W2]]]].
  rewrite map_map. apply map_ext_in. intros pos Hpos. apply fdecompose_ok. intros x Hx.
  destruct (ftargets_ok P g sm (tr x) Hg Hp (Hi pos x Hpos Hx)) as (T1 & T2 & T3 & _). auto.
Qed.

(** ** C70 *)
Lemma fpatch_home_nd g sm x : periodic_axes g -> periods_exact g -> wf_input g sm x ->
  exists p ks, In p (box (fpatch_of g sm x)) /\ wrap_index true (g_dims g) p = ks /\ inside g (wrapped (g_edges g) x) ks.
Proof.
  unfold periodic_axes, periods_exact, wf_input, fpatch_of, inside, g_dims, wrapped. intros [-> Ha] HR (Hl & Hs & Hx). revert sm x Hl Hs Hx HR.
  induction Ha as [|e es He Hes IH]; intros sm x Hl Hs Hx HR.
  - exists [], []. repeat split; [now left|constructor].
  - destruct sm as [|s sm]; [discriminate|]. destruct x as [|c x]; [cbn in Hx; lia|].
    inversion Hs; subst. inversion HR; subst.
    destruct (IH sm x) as (p & ks & Hp & Hw & Hv & Hin); [cbn in Hl; lia|assumption|cbn in Hx; lia|assumption|].
    destruct (fpatch_home rnd R e He H3 s c H1) as (t & k & Ht & Hm & Hk & Hi).
    exists (t :: p), (Z.of_nat k :: ks). split; [|split; [|split]].
    + apply in_box. cbn [fpatches]. constructor; [exact Ht|now apply in_box].
    + unfold wrap_index in *. cbn. now rewrite Hw, Hm.
    + constructor; [|exact Hv]. rewrite (ndom_n e He). lia.
    + cbn. split; [exact Hi|exact Hin].
Qed.
(** Whatever the rounding: decompose returns a well-formed layout and sends every
    particle to the rank that owns the domain of its rounded position. *)
Theorem C70_decompose : forall P g tr sm poss, setting P g tr sm poss -> periodic_axes g -> periods_exact g -> regular g ->
  exists args, map (fdecompose rnd P g tr sm) poss = map Ret args /\ length args = P /\
    wf_args args /\ map a_len args = map (@length _) poss /\
    forall s i, (s < P)%nat -> (i < length (nth s poss []))%nat ->
      exists ks, inside g (wrapped (g_edges g) (tr (particle poss s i))) ks /\ (owner g ks < P)%nat /\ In (s, i) (tags args (owner g ks)).
Proof.
  intros P g tr sm poss H Hp HR Hreg. destruct (setting_fdecompose P g tr sm poss H Hp) as (args & E1 & E2 & E3 & E4 & E5).
  exists args. repeat split; try assumption. intros s i Hs Hi. destruct H as [Hg Ha Hw Hin].
  destruct (particle_in poss s i ltac:(lia) Hi) as [P1 P2]. pose proof (Hin _ _ P1 P2) as Hx.
  destruct (fpatch_home_nd g sm _ Hp HR Hx) as (p & ks & Hpb & Hwr & Hks). exists ks. split; [exact Hks|].
  destruct (ftargets_ok P g sm _ Hg Hp Hx) as (_ & _ & T3 & T4).
  assert (Ht : In (owner g ks) (ftargets_of g sm (tr (particle poss s i)))).
  { apply T4. exists p. split; [exact Hpb|]. rewrite (proj1 Hp), Hwr. split; [reflexivity|].
    apply (regular_flags P g Hg Hreg); [exact (proj1 Hks)|exact (inside_thick _ _ _ Hks)]. }
  pose proof (T3 _ Ht) as Ho. split; [exact Ho|]. apply in_tags; [lia|]. rewrite E5 by assumption. apply sent_to_in. now split.
Qed.

(** the smoothing length exceeds [sm0] by three rounding errors and leaves room
    beside every domain *)
Definition room1 (e : list Q) (s s0 : Q) : Prop :=
  exists eps, (forall y, (Qabs y <= 2 * period e)%Q -> (Qabs (rnd y - y) <= eps)%Q) /\ (s0 + 3 * eps <= s)%Q /\
    ((length e - 1)%nat = 1%nat \/ forall k, (S k < length e)%nat -> (s + 2 * eps + (E e (S k) - E e k) <= period e)%Q).
Fixpoint room (es : list (list Q)) (sm sm0 : list Q) : Prop :=
  match es, sm, sm0 with
  | [], _, _ => True
  | e :: es, s :: ss, s0 :: ss0 => room1 e s s0 /\ room es ss ss0
  | _, _, _ => False
  end.
Lemma fpatch_cover g sm sm0 x ks : periodic_axes g -> periods_exact g -> wf_input g sm x -> room (g_edges g) sm sm0 ->
  meets g sm0 x ks -> exists p, In p (box (fpatch_of g sm x)) /\ wrap_index true (g_dims g) p = ks.
Proof.
  unfold periodic_axes, periods_exact, wf_input, fpatch_of, meets, g_dims. intros [-> Ha] HR (Hl & Hs & Hx). revert sm sm0 x ks Hl Hs Hx HR.
  induction Ha as [|e es He Hes IH]; intros sm sm0 x ks Hl Hs Hx HR Hroom [Hv Hm].
  - inversion Hv; subst. exists []. split; [now left|reflexivity].
  - destruct sm as [|s sm]; [discriminate|]. destruct x as [|c x]; [cbn in Hx; lia|]. destruct sm0 as [|s0 sm0]; [contradiction|].
    inversion Hs; subst. inversion HR; subst. inversion Hv as [|? k ? ks' Hk Hks]; subst. destruct Hm as [Hm1 Hm2]. destruct Hroom as [(eps & Herr & Hs1 & Hgap) Hroom].
    destruct (IH sm sm0 x ks') as (p & Hp & Hw); [cbn in Hl; lia|assumption|cbn in Hx; lia|assumption|assumption|now split|].
    rewrite (ndom_n e He) in Hk.
    destruct (fpatch_covers rnd R e He H3 eps Herr s s0 c (Z.to_nat k) Hs1 H1) as (t & Ht & Et).
    { destruct Hgap as [Hgap|Hgap]; [now left|right]. intros k' Hk'. apply Hgap. lia. }
    { lia. }
    { exact Hm1. }
    exists (t :: p). split.
    + apply in_box. cbn [fpatches]. constructor; [exact Ht|now apply in_box].
    + unfold wrap_index in *. cbn. rewrite Hw, Et. f_equal. lia.
Qed.
(** Every domain within [sm0] of the particle receives it. *)
Theorem C70_coverage : forall P g tr sm sm0 poss args, setting P g tr sm poss -> periodic_axes g -> periods_exact g -> regular g ->
  room (g_edges g) sm sm0 -> map (fdecompose rnd P g tr sm) poss = map Ret args ->
  forall s i ks, (s < P)%nat -> (i < length (nth s poss []))%nat -> meets g sm0 (tr (particle poss s i)) ks ->
    (owner g ks < P)%nat /\ In (s, i) (tags args (owner g ks)).
Proof.
  intros P g tr sm sm0 poss args H Hp HR Hreg Hroom Hd s i ks Hs Hi Hm.
  destruct (setting_fdecompose P g tr sm poss H Hp) as (args' & E1 & E2 & E3 & E4 & E5).
  assert (args' = args).
  { rewrite Hd in E1. clear -E1. revert args' E1. induction args as [|a l IH]; intros [|b l'] E; try discriminate; [reflexivity|].
    inversion E; subst. f_equal. now apply IH. }
  subst args'. destruct H as [Hg Ha Hw Hin].
  destruct (particle_in poss s i ltac:(lia) Hi) as [P1 P2]. pose proof (Hin _ _ P1 P2) as Hx.
  destruct (fpatch_cover g sm sm0 _ ks Hp HR Hx Hroom Hm) as (p & Hpb & Hwr).
  destruct (ftargets_ok P g sm _ Hg Hp Hx) as (_ & _ & T3 & T4).
  assert (Ht : In (owner g ks) (ftargets_of g sm (tr (particle poss s i)))).
  { apply T4. exists p. split; [exact Hpb|]. rewrite (proj1 Hp), Hwr. split; [reflexivity|].
    apply (regular_flags P g Hg Hreg); [exact (proj1 Hm)|exact (meets_thick _ _ _ _ Hm)]. }
  pose proof (T3 _ Ht) as Ho. split; [exact Ho|]. apply in_tags; [lia|]. rewrite E5 by assumption. apply sent_to_in. now split.
Qed.

(** ** C71 *)
Definition below (es : list (list Q)) (c : list Q) : Prop := Forall (fun p => (snd p < period (fst p))%Q) (combine es c).
Lemma wrapped_bounds g x : periodic_axes g -> periods_exact g ->
  Forall (fun p => (0 <= snd p)%Q /\ (snd p <= period (fst p))%Q) (combine (g_edges g) (wrapped (g_edges g) x)).
Proof.
  unfold wrapped. intros [_ Ha] HR. unfold periods_exact in HR. revert x. induction Ha as [|e es He Hes IH]; intros x; [constructor|].
  inversion HR; subst. destruct x as [|c x]; [constructor|]. cbn. constructor; [|now apply IH].
  destruct (frem_spec rnd R c (period e) (ax_pos e He) H1) as (A & B & _). now split.
Qed.
Lemma in_corner_compat b : forall c c', Forall2 Qeq c c' -> in_corner b c = in_corner b c'.
Proof.
  induction b as [|[lo hi] b IH]; intros c c' H; [reflexivity|]. destruct H as [|u v c c' E H]; [reflexivity|].
  unfold in_corner in *. cbn. rewrite (IH c c' H). f_equal. now rewrite E.
Qed.
Lemma wrapped_rem g x : periodic_axes g -> periods_exact g -> below (g_edges g) (wrapped (g_edges g) x) ->
  Forall2 Qeq (wrapped (g_edges g) x) (map (fun p => qrem (snd p) (period (fst p))) (combine (g_edges g) (wrapped (g_edges g) x))).
Proof.
  unfold wrapped, below. intros [_ Ha] HR. unfold periods_exact in HR. revert x. induction Ha as [|e es He Hes IH]; intros x Hb; [constructor|].
  inversion HR; subst. destruct x as [|c x]; [constructor|]. cbn in *. inversion Hb; subst. constructor; [|now apply IH].
  destruct (frem_spec rnd R c (period e) (ax_pos e He) H1) as (A & _). symmetry. apply qrem_eq_small; [apply (ax_pos e He)|exact A|assumption].
Qed.
Lemma corner_above es ks c : Forall axis_ok es -> valid_index (map ndom es) ks -> ~ below es c ->
  in_corner (map (fun ek => (nth (Z.to_nat (snd ek)) (fst ek) 0%Q, nth (Z.to_nat (snd ek) + 1) (fst ek) 0%Q)) (combine es ks)) c = false.
Proof.
  unfold below. intros Ha. revert ks c. induction Ha as [|e es He Hes IH]; intros ks c Hv Hb; [exfalso; apply Hb; constructor|].
  inversion Hv as [|? k ? ks' Hk Hks]; subst. destruct c as [|x c]; [exfalso; apply Hb; constructor|].
  unfold in_corner in *. cbn. destruct (Qlt_le_dec x (period e)) as [L|G].
  - rewrite (IH ks' c Hks); [now rewrite andb_false_r|]. intros H. apply Hb. now constructor.
  - replace (Qle_bool (nth (Z.to_nat k + 1) e 0%Q) x) with true; [now rewrite andb_false_r|].
    symmetry. apply Qle_bool_iff. eapply Qle_trans; [|exact G]. apply (E_le_L e He (Z.to_nat k + 1)).
    rewrite (ndom_n e He) in Hk. lia.
Qed.
Lemma wrapped_length es x : (length es <= length x)%nat -> length (wrapped es x) = length es.
Proof. intros H. unfold wrapped. rewrite map_length, combine_length. lia. Qed.
(** If no coordinate is rounded up to the period the particle is primary on exactly
    one rank, that of its domain; otherwise on none. *)
Theorem C71_isprimary : forall P g x, wf_grid P g -> periodic_axes g -> periods_exact g -> (length (g_edges g) <= length x)%nat ->
  (below (g_edges g) (wrapped (g_edges g) x) ->
     exists ks, inside g (wrapped (g_edges g) x) ks /\ (owner g ks < P)%nat /\ forall r, fisprimary rnd g r x = true <-> r = owner g ks) /\
  (~ below (g_edges g) (wrapped (g_edges g) x) -> forall r, fisprimary rnd g r x = false).
Proof.
  intros P g x Hg Hp HR Hx. pose proof (wrapped_length (g_edges g) x Hx) as Hl. split.
  - intros Hb. assert (Hl' : (length (g_edges g) <= length (wrapped (g_edges g) x))%nat) by lia.
    exists (home g (wrapped (g_edges g) x)). pose proof (home_inside g _ (proj2 Hp) Hl') as Hi. split; [exact Hi|].
    split; [apply (zlookup_owner P g _ Hg), Hi|]. intros r.
    rewrite <- (Nat.eqb_eq r), Nat.eqb_sym, <- (isprimary_spec P g r _ Hg Hp Hl').
    unfold fisprimary, isprimary. rewrite (proj1 Hp). fold (wrapped (g_edges g) x).
    enough (EQ : existsb (fun b => in_corner b (wrapped (g_edges g) x)) (corners g r) =
             existsb (fun b => in_corner b (map (fun p => qrem (snd p) (period (fst p))) (combine (g_edges g) (wrapped (g_edges g) x)))) (corners g r)) by now rewrite EQ.
    generalize (corners g r). intros l. induction l as [|b l IH]; [reflexivity|]. cbn. rewrite IH. f_equal. apply in_corner_compat. now apply wrapped_rem.
  - intros Hb r. unfold fisprimary. rewrite (proj1 Hp). fold (wrapped (g_edges g) x).
    apply not_true_iff_false. intros C. apply existsb_exists in C. destruct C as (b & Hb1 & Hb2). unfold corners in Hb1.
    apply in_map_iff in Hb1. destruct Hb1 as (d & <- & Hd). apply filter_In in Hd. destruct Hd as [Hd _]. apply in_seq in Hd.
    pose proof (wf_assign_len P g Hg).
    destruct (unravel_valid (g_dims g) (Z.of_nat d) (wf_dims_pos P g Hg) ltac:(lia)) as [Hv _].
    rewrite (corner_above (g_edges g) _ _ (proj2 Hp) Hv Hb) in Hb2. discriminate.
Qed.
(** load finds the domain of the particle, or raises *)
Theorem C71_load : forall P g x, wf_grid P g -> periodic_axes g -> periods_exact g -> (length (g_edges g) <= length x)%nat ->
  (below (g_edges g) (wrapped (g_edges g) x) ->
     exists ks, inside g (wrapped (g_edges g) x) ks /\ fload_domain rnd g x = Ret (ravel (g_dims g) ks)) /\
  (~ below (g_edges g) (wrapped (g_edges g) x) -> fload_domain rnd g x = Raise ValueError).
Proof.
  intros P g x Hg Hp HR Hx. pose proof (wrapped_length (g_edges g) x Hx) as Hl.
  assert (I : map (fun p => digitize (if g_periodic g then frem rnd (snd p) (period (fst p)) else snd p) (fst p) - 1) (combine (g_edges g) x)
        = map (fun p => digitize (snd p) (fst p) - 1) (combine (g_edges g) (wrapped (g_edges g) x))).
  { rewrite (proj1 Hp). unfold wrapped. clear. generalize (g_edges g). intros es. revert x. induction es as [|e es IH]; intros [|c x]; try reflexivity.
    cbn in *. f_equal. apply IH. }
  unfold fload_domain. rewrite I, (proj1 Hp). clear I. split.
  - intros Hb. exists (home g (wrapped (g_edges g) x)).
    assert (Hl' : (length (g_edges g) <= length (wrapped (g_edges g) x))%nat) by lia.
    pose proof (home_inside g _ (proj2 Hp) Hl') as Hi. split; [exact Hi|].
    assert (EH : map (fun p => digitize (snd p) (fst p) - 1) (combine (g_edges g) (wrapped (g_edges g) x)) = home g (wrapped (g_edges g) x)).
    { unfold home. pose proof (wrapped_rem g x Hp HR Hb) as F. revert F Hb. unfold below. generalize (wrapped (g_edges g) x). intros c. generalize (g_edges g). intros es.
      revert c. induction es as [|e es IH]; intros [|u c] F Hb; try reflexivity. cbn in *. inversion F; subst. inversion Hb; subst.
      f_equal; [|now apply IH]. unfold dig1. fold (period e) in H2. now rewrite (digitize_Qeq _ _ e H2). }
    rewrite EH. unfold ravel_raise. replace (forallb _ _) with true; [reflexivity|]. symmetry. apply forallb_forall.
    destruct Hi as [Hv _]. revert Hv. generalize (g_dims g) (home g (wrapped (g_edges g) x)). intros ds ks Hv.
    induction Hv as [|d k ds ks Hk _ IH]; intros p [].
    + subst p. cbn. apply andb_true_iff. split; [apply Z.leb_le|apply Z.ltb_lt]; lia.
    + now apply IH.
  - intros Hb. unfold ravel_raise, g_dims.
    assert (B : forallb (fun p => (0 <=? snd p) && (snd p <? fst p)) (combine (map ndom (g_edges g))
       (map (fun p => digitize (snd p) (fst p) - 1) (combine (g_edges g) (wrapped (g_edges g) x)))) = false); [|now rewrite B].
    pose proof (wrapped_bounds g x Hp HR) as F. revert F Hb. unfold below. generalize (wrapped (g_edges g) x). intros c. destruct Hp as [_ Ha]. clear Hx Hl HR.
    revert c. induction Ha as [|e es He Hes IH]; intros c F Hb; [exfalso; apply Hb; constructor|].
    destruct c as [|u c]; [exfalso; apply Hb; constructor|]. cbn in *. inversion F as [|? ? [F1 F2] F']; subst. cbn in F1, F2.
    destruct (Qlt_le_dec u (period e)) as [L|G].
    + rewrite IH; [apply andb_false_r|exact F'|]. intros H. apply Hb. now constructor.
    + rewrite (digitize_L e He u) by (fold (period e) in F2; lra). rewrite (ndom_n e He). replace (Z.of_nat (length e - 1) + 1 - 1 <? Z.of_nat (length e - 1)) with false; [now rewrite andb_false_r|].
      symmetry. apply Z.ltb_ge. lia.
Qed.
(** coordinates that are not negative are never rounded up *)
Theorem C71_nonnegative : forall g x, periodic_axes g -> Forall (fun c => (0 <= c)%Q) x -> below (g_edges g) (wrapped (g_edges g) x).
Proof.
  unfold below, wrapped. intros g x [_ Ha]. revert x. induction Ha as [|e es He Hes IH]; intros x Hx; [constructor|].
  destruct Hx as [|c x Hc Hx]; [constructor|]. cbn. constructor; [|now apply IH].
  change (frem rnd c (period e) < period e)%Q. rewrite (frem_pos rnd c (period e) (ax_pos e He) Hc). apply qrem_bounds, (ax_pos e He).
Qed.
End Rounded.

(** ** doubles *)
Lemma rounding64 : rounding round64.
Proof. constructor; [exact round64_mono|]. apply (round64_int 0). cbn. lia. Qed.
Lemma exact64 g : Forall (fun e => exists z, 0 <= z <= 2 ^ 53 /\ period e = inject_Z z) (g_edges g) -> periods_exact round64 g.
Proof.
  intros H. unfold periods_exact. apply Forall_forall. intros e He. rewrite Forall_forall in H. destruct (H e He) as (z & Hz & ->).
  apply round64_int. lia.
Qed.
(** an axis of up to 2^k cells: a rounding error is at most 2^(k-52) *)
Theorem C70_binary64 : forall e s s0 k, 0 <= k -> (period e <= Qpower 2 k)%Q -> (s0 + 3 * Qpower 2 (k - 52) <= s)%Q ->
  (forall j, (S j < length e)%nat -> (s + 2 * Qpower 2 (k - 52) + (E e (S j) - E e j) <= period e)%Q) -> room1 round64 e s s0.
Proof.
  intros e s s0 k Hk HL Hs Hgap. exists (Qpower 2 (k - 52)). split; [|split; [exact Hs|now right]].
  intros y Hy. replace (k - 52) with (k + 1 - 53) by lia. apply round64_error; [lia|].
  rewrite Qpower_plus by discriminate. change (Qpower 2 1) with 2%Q. lra.
Qed.
Print Assumptions C70_decompose.
Print Assumptions C70_coverage.
Print Assumptions C70_binary64.
Print Assumptions C71_isprimary.
Print Assumptions C71_load.
Print Assumptions C71_nonnegative.

(** two ranks share an axis of eight cells; -2^-60 modulo 8 is rounded to 8 *)
Definition fl_grid : grid := mkGrid [[0; 4; 8]]%Q true [0; 1]%nat (degenerate_flags [[0; 4; 8]]%Q).
Definition fl_tiny : Q := - (1 # 1152921504606846976).
Lemma fl_wf : wf_grid 2 fl_grid /\ periodic_axes fl_grid /\ regular fl_grid /\ periods_exact round64 fl_grid.
Proof.
  split; [|split; [|split]].
  - constructor; try reflexivity; repeat constructor; cbn; lia.
  - split; [reflexivity|]. constructor; [|constructor]. constructor; try reflexivity; [cbn; lia|].
    repeat constructor; try (unfold Qle; cbn; lia).
  - split; [reflexivity|]. right. reflexivity.
  - apply exact64. constructor; [|constructor]. exists 8. split; [lia|reflexivity].
Qed.
Example C70_case : setting 2 fl_grid (fun x => x) [3 # 2]%Q [[[fl_tiny]; [5 # 2]]; [[31 # 4]]]%Q /\
  room round64 (g_edges fl_grid) [3 # 2]%Q [1]%Q /\
  map (fdecompose round64 2 fl_grid (fun x => x) [3 # 2]%Q) [[[fl_tiny]; [5 # 2]]; [[31 # 4]]]%Q
  = [Ret (2, [2; 2], [0; 1; 0; 1]); Ret (1, [1; 1], [0; 0])]%nat /\
  map (fun s => ftargets_of round64 fl_grid [s] [fl_tiny]) [0; 1 # 2]%Q = [[0]; [0; 1]]%nat.
Proof.
  split; [|split; [|split]].
  - constructor; [apply fl_wf|apply periodic_wf_axes, fl_wf|reflexivity|].
    intros pos x Hpos Hx. cbn in Hpos, Hx. assert (length x = 1%nat).
    { destruct Hpos as [<-|[<-|[]]]; cbn in Hx; intuition (subst; reflexivity). }
    split; [reflexivity|]. split; [repeat constructor; discriminate|]. cbn. lia.
  - cbn. split; [|exact I]. apply (C70_binary64 _ _ _ 3); [lia|discriminate|vm_compute; discriminate|].
    intros [|[|j]] Hj; cbn in Hj; try lia; vm_compute; discriminate.
  - vm_compute. reflexivity.
  - vm_compute. reflexivity.
Qed.
Example C71_case : below (g_edges fl_grid) (wrapped round64 (g_edges fl_grid) [- (1)]%Q) /\
  map (fun r => fisprimary round64 fl_grid r [- (1)]%Q) [0; 1]%nat = [false; true] /\
  fload_domain round64 fl_grid [- (1)]%Q = Ret 1.
Proof. split; [|split]; [repeat constructor; vm_compute; reflexivity|vm_compute; reflexivity|vm_compute; reflexivity]. Qed.
(** A tiny negative coordinate: no rank is the primary one, and load raises,
    although decompose delivers the particle. *)
Theorem C71_rounded_up_refuted :
  ftargets round64 fl_grid [0]%Q [fl_tiny] = Ret [0]%nat /\
  (forall r, fisprimary round64 fl_grid r [fl_tiny] = false) /\
  fload_domain round64 fl_grid [fl_tiny] = Raise ValueError /\
  (exists r, isprimary fl_grid r [fl_tiny] = true).
Proof.
  split; [vm_compute; reflexivity|]. split; [|split; [vm_compute; reflexivity|exists 1%nat; vm_compute; reflexivity]].
  intros r. destruct fl_wf as (H1 & H2 & H3 & H4).
  apply (C71_isprimary round64 rounding64 2 fl_grid [fl_tiny] H1 H2 H4); [cbn; lia|].
  intros H. inversion H; subst. revert H6. vm_compute. discriminate.
Qed.
Print Assumptions C71_rounded_up_refuted.
