(** Property C101: GridND without periodic boundaries in rounded arithmetic (pmesh/domain.py:409-465, 519-652). *)
From Coq Require Import List Arith ZArith QArith Qround Qabs Qpower Lqa Lia Bool Sorted Permutation.
From Verif Require Import Base ListFacts LayoutModel LayoutSpec LayoutProofs LayoutModes LayoutMore WrapModel WrapProofs
  DomainModel DomainFill DomainGeom DomainTargets DomainHome DomainAssign DomainProperties FloatModel FloatRound FloatDomain FloatProperties.
Import ListNotations.
Local Close Scope Q_scope.
Local Open Scope Z_scope.

Section Rounded.
Variable rnd : Q -> Q.
Hypothesis R : rounding rnd.

Section Axis.
Context (e : list Q) (He : open_axis_ok e).
Local Notation n := (length e - 1)%nat.
Lemma fpatch_open_bounds s x : (0 <= s)%Q ->
  0 <= fst (fpatch_open rnd e s x) <= snd (fpatch_open rnd e s x) /\ snd (fpatch_open rnd e s x) <= Z.of_nat n.
Proof.
  intros Hs0. unfold fpatch_open, clip. cbv zeta. cbn [fst snd].
  assert (Hlen := oa_len e He). assert (HS := oa_sorted e He).
  destruct (digitize_spec (rnd (x - s))%Q e HS) as (l & El & Hl & Hl1 & Hl2).
  destruct (digitize_spec (rnd (x + s))%Q e HS) as (r & Er & Hr & Hr1 & Hr2).
  rewrite El, Er. unfold ndom.
  assert (M : (rnd (x - s) <= rnd (x + s))%Q) by (apply (rd_mono rnd R); lra).
  assert (l <= r)%nat.
  { destruct (le_lt_dec l r) as [?|C]; [assumption|].
    specialize (Hl1 r C). specialize (Hr2 r (le_n _) ltac:(lia)). lra. }
  lia.
Qed.
Lemma fpatch_open_spec s x k : (0 <= s)%Q -> (k < n)%nat ->
  (fst (fpatch_open rnd e s x) <= Z.of_nat k < snd (fpatch_open rnd e s x) <->
   (E e k <= rnd (x + s))%Q /\ (rnd (x - s) < E e (S k))%Q).
Proof.
  intros Hs0 Hk. unfold fpatch_open, clip. cbv zeta. cbn [fst snd].
  assert (Hlen := oa_len e He). assert (HS := oa_sorted e He).
  destruct (digitize_spec (rnd (x - s))%Q e HS) as (l & El & Hl & Hl1 & Hl2).
  destruct (digitize_spec (rnd (x + s))%Q e HS) as (r & Er & Hr & Hr1 & Hr2).
  rewrite El, Er. unfold ndom. split.
  - intros Hb. split.
    + apply Hr1. lia.
    + apply Hl2; lia.
  - intros [H1 H2].
    assert (k < r)%nat.
    { destruct (le_lt_dec r k) as [C|?]; [|assumption]. specialize (Hr2 k C ltac:(lia)). lra. }
    assert (l <= S k)%nat.
    { destruct (le_lt_dec l (S k)) as [?|C]; [assumption|]. specialize (Hl1 (S k) C). lra. }
    lia.
Qed.
End Axis.

Definition open_axes (g : grid) : Prop := g_periodic g = false /\ Forall open_axis_ok (g_edges g).
(** domain [k] lies between the rounded ends of the smoothed particle *)
Definition between (e : list Q) (s x : Q) (k : Z) : Prop :=
  (E e (Z.to_nat k) <= rnd (x + s))%Q /\ (rnd (x - s) < E e (S (Z.to_nat k)))%Q.

Lemma ndom_open e : open_axis_ok e -> ndom e = Z.of_nat (length e - 1).
Proof. intros He. unfold ndom. destruct He. lia. Qed.
Lemma fpatches_open g sm x : open_axes g -> wf_input g sm x ->
  Forall (fun lh => fst lh <= snd lh) (fpatch_of rnd g sm x) /\
  forall ks, (In ks (box (fpatch_of rnd g sm x)) <-> valid_index (g_dims g) ks /\ all_axes between (g_edges g) sm x ks).
Proof.
  unfold open_axes, wf_input, fpatch_of, g_dims. intros [-> Ha] (Hl & Hs & Hx). revert sm x Hl Hs Hx.
  induction Ha as [|e es He Hes IH]; intros sm x Hl Hs Hx.
  - split; [constructor|]. intros ks. rewrite in_box. cbn. split.
    + intros H. inversion H; subst. split; [constructor|exact Logic.I].
    + intros [H _]. inversion H; subst. constructor.
  - destruct sm as [|s sm]; [discriminate|]. destruct x as [|c x]; [cbn in Hx; lia|]. inversion Hs; subst.
    destruct (IH sm x) as [IH1 IH2]; [cbn in Hl; lia|assumption|cbn in Hx; lia|]. cbn [fpatches].
    pose proof (fpatch_open_bounds e He s c H1) as B. split.
    + constructor; [lia|exact IH1].
    + intros ks. rewrite in_box. split.
      * intros H. inversion H as [|lh t ? ps Ht Hps]; subst. apply in_box in Hps. apply IH2 in Hps. destruct Hps as [V A].
        assert (Hk : 0 <= t < Z.of_nat (length e - 1)) by lia.
        cbn [map all_axes]. split; [constructor; [rewrite (ndom_open e He); exact Hk|exact V]|]. split; [|exact A].
        apply (fpatch_open_spec e He s c (Z.to_nat t)); [assumption|lia|]. rewrite Z2Nat.id by lia. exact Ht.
      * intros [V A]. inversion V as [|d k ds ks' Hk Hks]; subst. cbn [all_axes] in A. destruct A as [A1 A2].
        rewrite (ndom_open e He) in Hk. constructor.
        -- apply (fpatch_open_spec e He s c (Z.to_nat k)) in A1; [|assumption|lia]. now rewrite Z2Nat.id in A1 by lia.
        -- apply in_box, IH2. now split.
Qed.
Lemma wrap_open ds ks : valid_index ds ks -> wrap_index false ds ks = ks.
Proof. induction 1 as [|d k ds ks Hk _ IH]; [reflexivity|]. unfold wrap_index in *. cbn. now rewrite IH. Qed.

Lemma ftargets_open P g sm x : wf_grid P g -> open_axes g -> wf_input g sm x ->
  ftargets rnd g sm x = Ret (ftargets_of rnd g sm x) /\ StronglySorted lt (ftargets_of rnd g sm x) /\
  (forall t, In t (ftargets_of rnd g sm x) -> (t < P)%nat) /\
  (forall t, In t (ftargets_of rnd g sm x) <-> exists ks, valid_index (g_dims g) ks /\ all_axes between (g_edges g) sm x ks /\
      owner g ks = t /\ nth t (g_degenerate g) false = false).
Proof.
  intros Hg Hp Hi. destruct (fpatches_open g sm x Hp Hi) as [Hle Hb].
  assert (Hv : forall p, In p (box (fpatch_of rnd g sm x)) -> valid_index (g_dims g) (wrap_index (g_periodic g) (g_dims g) p)).
  { intros p H. apply Hb in H. rewrite (proj1 Hp), wrap_open; apply H. }
  unfold ftargets_of, ftargets. fold (fpatch_of rnd g sm x).
  rewrite patch_loop_cells, visit_box by assumption.
  destruct (cells_loop_ok P g (box (fpatch_of rnd g sm x)) [] Hg Hv) as (l & El & Hl & Hin); [constructor|].
  rewrite El. destruct (unique_targets_from None (rev l)) as (u & Eu & Hu & Hui).
  { now apply rev_sorted. }
  { discriminate. }
  rewrite Eu. split; [reflexivity|]. split; [assumption|].
  assert (G : forall t, In t u <-> exists ks, valid_index (g_dims g) ks /\ all_axes between (g_edges g) sm x ks /\
      owner g ks = t /\ nth t (g_degenerate g) false = false).
  { intros t. rewrite Hui. rewrite <- in_rev, Hin. simpl. split.
    - intros [[[]|(p & Hpb & Ho & Hd)] _]. apply Hb in Hpb. rewrite (proj1 Hp), wrap_open in Ho by apply Hpb. exists p. tauto.
    - intros (ks & V & A & Ho & Hd). split; [|discriminate]. right. exists ks. rewrite (proj1 Hp), (wrap_open _ _ V). split; [|now split].
      apply Hb. now split. }
  split; [|assumption]. intros t Ht. apply G in Ht. destruct Ht as (ks & V & _ & <- & _).
  now apply (zlookup_owner P g _ Hg).
Qed.

(** Which ranks a particle goes to, whatever the rounding: those of the domains between its two rounded ends whose flag is
    clear.  In particular decompose never fails, wherever the particles are. *)
Theorem C101_decompose : forall P g tr sm poss, setting P g tr sm poss -> open_axes g ->
  exists args, map (fdecompose rnd P g tr sm) poss = map Ret args /\ length args = P /\
    wf_args args /\ map a_len args = map (@length _) poss /\
    forall s i t, (s < P)%nat -> (i < length (nth s poss []))%nat -> (t < P)%nat ->
      (In (s, i) (tags args t) <->
       exists ks, valid_index (g_dims g) ks /\ all_axes between (g_edges g) sm (tr (particle poss s i)) ks /\
         owner g ks = t /\ nth t (g_degenerate g) false = false).
Proof.
  intros P g tr sm poss [Hg Ha Hw Hi] Hp.
  exists (map (fun pos => (length pos, map (fun r => length (sent_to (fun x => ftargets_of rnd g sm (tr x)) pos r)) (seq 0 P),
                           flat_map (sent_to (fun x => ftargets_of rnd g sm (tr x)) pos) (seq 0 P))) poss).
  destruct (sent_to_addr (fun x => ftargets_of rnd g sm (tr x)) poss P Hw) as [W1 W2].
  split; [|split; [now rewrite map_length|split; [exact W1|split; [now rewrite map_map|]]]].
  - rewrite map_map. apply map_ext_in. intros pos Hpos. apply fdecompose_ok. intros x Hx.
    destruct (ftargets_open P g sm (tr x) Hg Hp (Hi pos x Hpos Hx)) as (T1 & T2 & T3 & _). auto.
  - intros s i t Hs Hii Ht. destruct (particle_in poss s i ltac:(lia) Hii) as [P1 P2]. pose proof (Hi _ _ P1 P2) as Hx.
    rewrite in_tags by (rewrite map_length; lia). rewrite W2 by assumption. rewrite sent_to_in.
    destruct (ftargets_open P g sm _ Hg Hp Hx) as (_ & _ & _ & T4). rewrite <- T4. unfold particle. tauto.
Qed.

(** ** which domains these are *)
(** the numbers of one axis are rounded with an error of at most [eps] *)
Definition close (eps : Q) (sm x : list Q) : Prop :=
  Forall (fun p => (Qabs (rnd (snd p + fst p) - (snd p + fst p)) <= eps)%Q /\ (Qabs (rnd (snd p - fst p) - (snd p - fst p)) <= eps)%Q) (combine sm x).
Lemma between_close eps es sm sm0 x ks : length sm = length es -> length sm0 = length es -> (length es <= length x)%nat -> close eps sm x ->
  Forall2 (fun s0 s => (s0 + eps < s)%Q) sm0 sm -> all_axes (meets_axis false) es sm0 x ks -> all_axes between es sm x ks.
Proof.
  unfold close. revert sm sm0 x ks. induction es as [|e es IH]; intros sm sm0 x ks L1 L2 L3 C F H.
  - exact H.
  - destruct sm as [|s sm]; [discriminate|]. destruct sm0 as [|s0 sm0]; [discriminate|]. destruct x as [|c x]; [cbn in L3; lia|].
    destruct ks as [|k ks]; [exact H|]. cbn [combine] in C. inversion C as [|? ? [C1 C2] C3]; subst. inversion F; subst. cbn [fst snd] in C1, C2.
    cbn [all_axes] in H |- *. destruct H as [(y & Y1 & Y2 & Y3 & Y4) H]. split.
    + apply Qabs_Qle_condition in C1, C2. unfold between. split; lra.
    + apply (IH sm sm0 x ks); try assumption; try (cbn in *; lia).
Qed.
Lemma between_far eps es sm sm1 x ks : length sm = length es -> length sm1 = length es -> (length es <= length x)%nat -> close eps sm x ->
  Forall (open_axis_ok) es -> valid_index (map ndom es) ks ->
  Forall2 (fun s s1 => (s + eps <= s1)%Q) sm sm1 -> Forall (fun s => (0 <= s)%Q) sm -> (0 <= eps)%Q -> all_axes between es sm x ks -> all_axes (touches_axis false) es sm1 x ks.
Proof.
  unfold close. intros L1 L2 L3 C A. revert sm sm1 x ks L1 L2 L3 C. induction A as [|e es He Hes IH]; intros sm sm1 x ks L1 L2 L3 C V F S0 E0 H.
  - exact H.
  - destruct sm as [|s sm]; [discriminate|]. destruct sm1 as [|s1 sm1]; [discriminate|]. destruct x as [|c x]; [cbn in L3; lia|].
    destruct ks as [|k ks]; [exact H|]. cbn [combine] in C. inversion C as [|? ? [C1 C2] C3]; subst. inversion F; subst. cbn [fst snd] in C1, C2.
    inversion V as [|? ? ? ? Vk Vks]; subst. inversion S0; subst.
    cbn [all_axes] in H |- *. destruct H as [[B1 B2] H]. split.
    + apply Qabs_Qle_condition in C1, C2. unfold touches_axis.
      assert (M : (E e (Z.to_nat k) <= E e (S (Z.to_nat k)))%Q).
      { apply sorted_nth; [apply He|lia|]. rewrite (ndom_open e He) in Vk. lia. }
      destruct (Qlt_le_dec (E e (Z.to_nat k)) (c - s1)) as [G|G].
      * exists (c - s1)%Q. split; [lra|]. split; [lra|]. split; [lra|]. left. lra.
      * exists (E e (Z.to_nat k)). split; [lra|]. split; [lra|]. split; [lra|].
        destruct (Qlt_le_dec (E e (Z.to_nat k)) (E e (S (Z.to_nat k)))); [now left|]. right. split; [lra|reflexivity].
    + apply (IH sm sm1 x ks); try assumption; try (cbn in *; lia).
Qed.

(** Every domain closer than the smoothing length minus a rounding error gets the particle, and no rank gets it that has no
    domain within the smoothing length plus a rounding error. *)
Theorem C101_coverage : forall P g tr sm sm0 sm1 eps poss args, setting P g tr sm poss -> open_axes g -> regular g ->
  map (fdecompose rnd P g tr sm) poss = map Ret args ->
  Forall2 (fun s0 s => (s0 + eps < s)%Q) sm0 sm -> Forall2 (fun s s1 => (s + eps <= s1)%Q) sm sm1 ->
  forall s i, (s < P)%nat -> (i < length (nth s poss []))%nat -> close eps sm (tr (particle poss s i)) ->
    (forall ks, meets g sm0 (tr (particle poss s i)) ks -> (owner g ks < P)%nat /\ In (s, i) (tags args (owner g ks))) /\
    (forall t, (t < P)%nat -> In (s, i) (tags args t) -> exists ks, touches g sm1 (tr (particle poss s i)) ks /\ owner g ks = t).
Proof.
  intros P g tr sm sm0 sm1 eps poss args H Hp Hr EA F0 F1 s i Hs Hi C.
  destruct (C101_decompose P g tr sm poss H Hp) as (args' & E1 & _ & _ & _ & T).
  assert (args' = args).
  { rewrite E1 in EA. clear - EA. revert args EA. induction args' as [|a l IH]; intros [|b l'] E; try discriminate; [reflexivity|].
    cbn in E. injection E as -> E. f_equal. now apply IH. }
  subst args'. destruct H as [Hg Ha Hw Hin]. destruct (particle_in poss s i ltac:(lia) Hi) as [P1 P2]. pose proof (Hin _ _ P1 P2) as (Hl & H0 & Hx).
  fold (particle poss s i) in Hx.
  assert (L0 : length sm0 = length sm) by (clear - F0; induction F0; cbn; congruence). assert (L1 : length sm = length sm1) by (clear - F1; induction F1; cbn; congruence). split.
  - intros ks M. assert (Ho : (owner g ks < P)%nat) by (apply (zlookup_owner P g _ Hg), M). split; [exact Ho|].
    apply T; try assumption. exists ks. split; [apply M|]. split; [|split; [reflexivity|]].
    + destruct M as [_ M]. rewrite (proj1 Hp) in M. apply (between_close eps _ sm sm0); try assumption. lia.
    + apply (regular_flags P g Hg Hr); [apply M|]. eapply meets_thick; eassumption.
  - intros t Ht I. apply T in I; try assumption. destruct I as (ks & V & B & Ho & _). exists ks. split; [|exact Ho]. split; [exact V|].
    rewrite (proj1 Hp). destruct (Qlt_le_dec eps 0) as [Ne|Ne].
    + (* no number is rounded with a negative error *)
      destruct sm as [|s' sm]; destruct (g_edges g) as [|e es] eqn:Eg; try discriminate.
      * exact B.
      * destruct (tr (particle poss s i)) as [|c x]; [cbn in Hx; lia|]. inversion C as [|? ? [C1 _] _]; subst. cbn [fst snd] in C1.
        pose proof (Qabs_nonneg (rnd (c + s') - (c + s'))). lra.
    + apply (between_far eps _ sm sm1); try assumption; [lia|apply Hp].
Qed.

(** A particle whose coordinates are themselves rounded numbers reaches the rank that owns its domain, whatever the smoothing. *)
Lemma between_home es sm x ks : length sm = length es -> Forall (fun s => (0 <= s)%Q) sm -> Forall (fun c => (rnd c == c)%Q) x ->
  all_axes (meets_axis false) es (map (fun _ => 0%Q) es) x ks -> all_axes between es sm x ks.
Proof.
  revert sm x ks. induction es as [|e es IH]; intros sm x ks L S0 X H; [exact H|].
  destruct sm as [|s sm]; [discriminate|]. destruct x as [|c x]; [destruct H|]. destruct ks as [|k ks]; [destruct H|].
  inversion S0; subst. inversion X; subst. cbn [map all_axes] in H |- *. destruct H as [(y & Y1 & Y2 & Y3 & Y4) H]. split.
  - unfold between. assert (M1 : (rnd c <= rnd (c + s))%Q) by (apply (rd_mono rnd R); lra). assert (M2 : (rnd (c - s) <= rnd c)%Q) by (apply (rd_mono rnd R); lra).
    split; lra.
  - apply IH; try assumption. cbn in L; lia.
Qed.
Theorem C101_home : forall P g tr sm poss args, setting P g tr sm poss -> open_axes g -> regular g ->
  map (fdecompose rnd P g tr sm) poss = map Ret args ->
  forall s i ks, (s < P)%nat -> (i < length (nth s poss []))%nat -> Forall (fun c => (rnd c == c)%Q) (tr (particle poss s i)) ->
    meets g (map (fun _ => 0%Q) (g_edges g)) (tr (particle poss s i)) ks -> (owner g ks < P)%nat /\ In (s, i) (tags args (owner g ks)).
Proof.
  intros P g tr sm poss args H Hp Hr EA s i ks Hs Hi X M.
  destruct (C101_decompose P g tr sm poss H Hp) as (args' & E1 & _ & _ & _ & T).
  assert (args' = args).
  { rewrite E1 in EA. clear - EA. revert args EA. induction args' as [|a l IH]; intros [|b l'] E; try discriminate; [reflexivity|].
    cbn in E. injection E as -> E. f_equal. now apply IH. }
  subst args'. destruct H as [Hg Ha Hw Hin]. destruct (particle_in poss s i ltac:(lia) Hi) as [P1 P2]. pose proof (Hin _ _ P1 P2) as (Hl & H0 & Hx).
  assert (Ho : (owner g ks < P)%nat) by (apply (zlookup_owner P g _ Hg), M). split; [exact Ho|].
  apply T; try assumption. exists ks. split; [apply M|]. split; [|split; [reflexivity|]].
  - destruct M as [_ M]. rewrite (proj1 Hp) in M. now apply between_home.
  - apply (regular_flags P g Hg Hr); [apply M|]. eapply meets_thick; eassumption.
Qed.

(** isprimary and load of such a grid do not round *)
Theorem C101_primary : forall g r x, g_periodic g = false ->
  fisprimary rnd g r x = isprimary g r x /\ fload_domain rnd g x = ravel_clip (g_dims g) (load_index g x).
Proof. intros g r x E. unfold fisprimary, isprimary, fload_domain, load_index. rewrite E. split; reflexivity. Qed.
End Rounded.

(** ** doubles: coordinates up to 2^k *)
Theorem C101_binary64 : forall k sm x, -1021 <= k -> Forall (fun p => (Qabs (snd p) + Qabs (fst p) <= Qpower 2 k)%Q) (combine sm x) ->
  close round64 (Qpower 2 (k - 53)) sm x.
Proof.
  intros k sm x Hk H. unfold close. eapply Forall_impl; [|exact H]. intros [s c] B. cbn [fst snd] in *.
  pose proof (Qabs_triangle c s) as T1. pose proof (Qabs_triangle c (- s)) as T2. rewrite Qabs_opp in T2.
  split; apply round64_error; try exact Hk; [lra|]. unfold Qminus. lra.
Qed.
Print Assumptions C101_decompose.
Print Assumptions C101_coverage.
Print Assumptions C101_home.
Print Assumptions C101_primary.
Print Assumptions C101_binary64.
(** two ranks share the cells 0 to 8, without periodic boundaries *)
Definition fo_grid : grid := mkGrid [[0; 4; 8]]%Q false [0; 1]%nat (degenerate_flags [[0; 4; 8]]%Q).
Lemma fo_wf : wf_grid 2 fo_grid /\ open_axes fo_grid /\ regular fo_grid.
Proof.
  split; [|split].
  - constructor; try reflexivity; repeat constructor; cbn; lia.
  - split; [reflexivity|]. constructor; [|constructor]. constructor; [cbn; lia|].
    repeat constructor; try (unfold Qle; cbn; lia).
  - split; [reflexivity|]. right. reflexivity.
Qed.
(** a particle outside goes nowhere, unless it is smoothed into the grid *)
Definition fo_pos : list (list (list Q)) := [[[-(3)]; [5 # 2]; [-(1)]]; [[31 # 4]; [100]]]%Q.
Example C101_case : setting 2 fo_grid (fun x => x) [3 # 2]%Q fo_pos /\
  Forall2 (fun s0 s => (s0 + Qpower 2 (7 - 53) < s)%Q) [1]%Q [3 # 2]%Q /\ Forall2 (fun s s1 => (s + Qpower 2 (7 - 53) <= s1)%Q) [3 # 2]%Q [2]%Q /\
  (forall s i, (s < 2)%nat -> (i < length (nth s fo_pos []))%nat -> close round64 (Qpower 2 (7 - 53)) [3 # 2]%Q (particle fo_pos s i)) /\
  map (fdecompose round64 2 fo_grid (fun x => x) [3 # 2]%Q) fo_pos = [Ret (3, [2; 1], [1; 2; 1]); Ret (2, [0; 1], [0])]%nat.
Proof.
  split; [|split; [|split; [|split]]].
  - destruct fo_wf as (W & O & _). constructor; [exact W| |reflexivity|].
    + unfold wf_axes. rewrite (proj1 O). apply O.
    + intros pos x Hpos Hx. split; [reflexivity|]. split; [repeat constructor; unfold Qle; cbn; lia|].
      cbn in Hpos. destruct Hpos as [<-|[<-|[]]]; cbn in Hx; repeat (destruct Hx as [<-|Hx]; [cbn; lia|]); destruct Hx.
  - repeat constructor.
  - repeat constructor. unfold Qle. cbn. lia.
  - intros s i Hs Hi. apply C101_binary64; [lia|].
    destruct s as [|[|s]]; [| |lia]; cbn in Hi; (destruct i as [|[|[|i]]]; try lia; cbn; repeat constructor; unfold Qle; cbn; lia).
  - vm_compute. reflexivity.
Qed.
(** The margin of a rounding error is needed: a particle at 4 with the smoothing 2^-60 reaches into the domain below 4, but
    the lower end is rounded to 4. *)
Theorem C101_margin_refuted : let s := (1 # 1152921504606846976)%Q in
  meets fo_grid [s] [4]%Q [0] /\ ftargets round64 fo_grid [s] [4]%Q = Ret [1]%nat /\ owner fo_grid [0] = 0%nat.
Proof.
  split; [|split; [vm_compute; reflexivity|reflexivity]].
  split; [constructor; [cbn; lia|constructor]|]. cbn. split; [|exact Logic.I].
  exists (4 - (1 # 1152921504606846976))%Q. repeat split; unfold Qle, Qlt; cbn; lia.
Qed.
Print Assumptions C101_margin_refuted.
