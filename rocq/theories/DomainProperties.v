(** Properties C10-C19: [GridND] (pmesh/domain.py:320-652, pmesh/_domain.pyx). *)
From Coq Require Import List Arith ZArith QArith Qround Lqa Lia Bool Sorted Permutation.
From Verif Require Import Base ListFacts LayoutModel LayoutSpec LayoutProofs LayoutModes LayoutMore
  WrapModel WrapProofs DomainModel DomainFill DomainGeom DomainTargets DomainHome DomainAssign.
Import ListNotations.
Local Close Scope Q_scope.
Local Open Scope Z_scope.
Local Arguments list_sum : simpl never.

(** What every call of decompose is given: a grid with its assignment, one
    non-negative smoothing length per axis, and on each of the [P] ranks a list of
    particles with enough coordinates. *)
Record setting (P : nat) (g : grid) (tr : list Q -> list Q) (sm : list Q) (poss : list (list (list Q))) : Prop := {
  st_grid : wf_grid P g;
  st_axes : wf_axes g;
  st_world : length poss = P;
  st_input : forall pos x, In pos poss -> In x pos -> wf_input g sm (tr x)
}.

(** particle [i] of rank [s] *)
Definition particle (poss : list (list (list Q))) (s i : nat) : list Q := nth i (nth s poss []) [].

Lemma setting_decompose P g tr sm poss : setting P g tr sm poss ->
  exists args, map (decompose P g tr sm) poss = map Ret args /\ length args = P /\ wf_args args /\
    map a_len args = map (@length _) poss /\
    forall s r, (s < P)%nat -> (r < P)%nat ->
      addr args s r = sent_to (fun x => targets g sm (tr x)) (nth s poss []) r.
Proof.
  intros [Hg Ha Hw Hi].
  exists (map (fun pos => (length pos, map (fun r => length (sent_to (fun x => targets g sm (tr x)) pos r)) (seq 0 P),
                           flat_map (sent_to (fun x => targets g sm (tr x)) pos) (seq 0 P))) poss).
  destruct (sent_to_addr (fun x => targets g sm (tr x)) poss P Hw) as [W1 W2].
  split; [|split; [now rewrite map_length|split; [exact W1|split; [now rewrite map_map|exact W2]]]].
  rewrite map_map. apply map_ext_in. intros pos Hp. apply decompose_ok. intros x Hx.
  destruct (targets_ok P g sm (tr x) Hg Ha (Hi pos x Hp Hx)) as (T1 & T2 & T3 & _). auto.
Qed.

Lemma sent_to_in T pos r i : In i (sent_to T pos r) <-> (i < length pos)%nat /\ In r (T (nth i pos [])).
Proof.
  unfold sent_to. rewrite filter_In, in_seq. destruct (in_dec Nat.eq_dec r (T (nth i pos []))); intuition (lia || discriminate).
Qed.

Lemma sent_to_sorted T pos r : StronglySorted lt (sent_to T pos r).
Proof.
  unfold sent_to. generalize (length pos) as n. generalize 0%nat as s. intros s n. revert s.
  induction n as [|n IH]; intros s; simpl; [constructor|]. destruct (in_dec _ _ _); [|apply IH].
  constructor; [apply IH|]. apply Forall_forall. intros x Hx. apply filter_In in Hx. destruct Hx as [Hx _].
  apply in_seq in Hx. lia.
Qed.

Lemma particle_in poss s i : (s < length poss)%nat -> (i < length (nth s poss []))%nat ->
  In (nth s poss []) poss /\ In (particle poss s i) (nth s poss []).
Proof. intros. split; now apply nth_In. Qed.

Lemma in_tags args s i r : (s < length args)%nat -> (In (s, i) (tags args r) <-> In i (addr args s r)).
Proof.
  intros Hs. unfold tags. rewrite in_flat_map. split.
  - intros (s' & _ & H). apply in_map_iff in H. destruct H as (i' & E0 & H). inversion E0; subst. assumption.
  - intros H. exists s. split; [apply in_seq; lia|]. apply in_map_iff. exists i. now split.
Qed.

Ltac vidx := repeat (apply Forall2_cons; [unfold ndom; simpl; lia|]); apply Forall2_nil.

(** a two-dimensional periodic grid of 2 x 2 domains on two ranks, and a
    particle outside of the box *)
Definition ex_grid : grid :=
  mkGrid [[0; 1; 3]; [0; 2; 4]]%Q true [0; 1; 1; 0]%nat (degenerate_flags [[0; 1; 3]; [0; 2; 4]]%Q).
Definition ex_poss : list (list (list Q)) := [[[5#2; -(1#2)]; [1#2; 1]]; [[7; 9]]]%Q.
Definition ex_sm : list Q := [1#2; 1#4]%Q.
Lemma ex_setting : setting 2 ex_grid (fun x => x) ex_sm ex_poss.
Proof.
  split.
  - split.
    + repeat constructor.
    + reflexivity.
    + reflexivity.
    + repeat constructor.
    + repeat constructor.
  - repeat constructor; discriminate.
  - reflexivity.
  - intros pos x Hp Hx. simpl in Hp. destruct Hp as [<-|[<-|[]]]; simpl in Hx.
    + destruct Hx as [<-|[<-|[]]]; (split; [reflexivity|split; [repeat constructor; discriminate|simpl; lia]]).
    + destruct Hx as [<-|[]]; (split; [reflexivity|split; [repeat constructor; discriminate|simpl; lia]]).
Qed.

(** ** C10 *)
Theorem C10_decompose_valid : forall P g tr sm poss, setting P g tr sm poss ->
  exists args, map (decompose P g tr sm) poss = map Ret args /\ length args = P /\
    wf_args args /\ map a_len args = map (@length _) poss /\
    (forall s r, (s < P)%nat -> (r < P)%nat -> StronglySorted lt (addr args s r)).
Proof.
  intros P g tr sm poss H. destruct (setting_decompose _ _ _ _ _ H) as (args & E1 & E2 & E3 & E4 & E5).
  exists args. repeat (split; [assumption|]). intros s r Hs Hr. rewrite E5 by assumption. apply sent_to_sorted.
Qed.
Print Assumptions C10_decompose_valid.

(** counts and index lists of the two ranks *)
Example C10_case : map (decompose 2 ex_grid (fun x => x) ex_sm) ex_poss =
  [Ret (2, [2; 2], [0; 1; 0; 1]); Ret (1, [1; 1], [0; 0])]%nat.
Proof. vm_compute. reflexivity. Qed.

(** the assignment has to stay inside the communicator: nothing in the code
    checks a user's DomainAssign, and a rank beyond the counts array is written
    out of bounds *)
Theorem C10_assignment_range_refuted :
  exists g, wf_grid 3 g /\ wf_axes g /\ ~ wf_grid 2 g /\
    decompose 2 g (fun x => x) ex_sm [[1#2; 1]]%Q = Garbage.
Proof.
  exists (mkGrid [[0; 1; 3]; [0; 2; 4]]%Q true [2; 1; 1; 0]%nat (degenerate_flags [[0; 1; 3]; [0; 2; 4]]%Q)).
  repeat split; try (repeat constructor; simpl; lia); try (repeat constructor; unfold Qle, Qlt; simpl; lia);
    try apply (st_axes _ _ _ _ _ ex_setting).
  intros [_ _ _ H _]. inversion H; subst. lia.
Qed.
Print Assumptions C10_assignment_range_refuted.

(** ** C11 *)
Definition regular (g : grid) : Prop :=
  constructed g /\ (all_thick g \/ g_assign g = seq 0 (length (g_assign g))).

Lemma regular_flags P g : wf_grid P g -> regular g -> flags_ok g.
Proof.
  intros Hg [Hc [H|H]]; [now apply (flags_ok_all_thick P)|now apply (flags_ok_identity P)].
Qed.

Theorem C11_coverage : forall P g tr sm poss args, setting P g tr sm poss -> regular g ->
  map (decompose P g tr sm) poss = map Ret args ->
  forall s i ks, (s < P)%nat -> (i < length (nth s poss []))%nat ->
    smoothing_ok g sm (tr (particle poss s i)) ->
    meets g sm (tr (particle poss s i)) ks ->
    (owner g ks < P)%nat /\ In (s, i) (tags args (owner g ks)).
Proof.
  intros P g tr sm poss args H Hr Hd s i ks Hs Hi Hsm Hm.
  destruct (setting_decompose _ _ _ _ _ H) as (args' & E1 & E2 & E3 & E4 & E5).
  assert (args' = args).
  { rewrite Hd in E1. clear -E1. revert args' E1. induction args as [|a l IH]; intros [|b l'] E; try discriminate; [reflexivity|].
    inversion E; subst. f_equal. now apply IH. }
  subst args'. destruct H as [Hg Ha Hw Hin].
  destruct (particle_in poss s i ltac:(lia) Hi) as [P1 P2].
  assert (Ht := targets_cover P g sm _ ks Hg Ha (Hin _ _ P1 P2) Hsm (regular_flags P g Hg Hr) Hm).
  assert (Ho : (owner g ks < P)%nat).
  { destruct (targets_ok P g sm _ Hg Ha (Hin _ _ P1 P2)) as (_ & _ & T & _). now apply T. }
  split; [assumption|]. apply in_tags; [lia|]. rewrite E5 by assumption. apply sent_to_in. now split.
Qed.
Print Assumptions C11_coverage.

(** smoothing lengths that leave room next to every domain of the axis satisfy
    the hypothesis for all particles *)
Lemma smoothing_ok_simple g sm x : (forall e s k, In (e, s) (combine (g_edges g) sm) -> (S k < length e)%nat ->
    (s + (E e (S k) - E e k) <= period e)%Q) -> smoothing_ok g sm x.
Proof.
  intros H _. revert sm x H. generalize (g_edges g) as es. induction es as [|e es IH]; intros [|s sm] [|c x] H; try exact I.
  simpl. split.
  - intros k Hk _ _. left. apply H; [now left|lia].
  - apply IH. intros e' s' k Hin. apply H. now right.
Qed.

Example C11_case : smoothing_ok ex_grid ex_sm [5#2; -(1#2)]%Q /\ meets ex_grid ex_sm [5#2; -(1#2)]%Q [0; 1] /\
  owner ex_grid [0; 1] = 1%nat /\ regular ex_grid.
Proof.
  split; [|split; [|split]].
  - apply smoothing_ok_simple. intros e s k Hin Hk. simpl in Hin.
    destruct Hin as [E0|[E0|[]]]; inversion E0; subst; clear E0; simpl in Hk; destruct k as [|[|k]]; try lia;
      unfold E, period; simpl; lra.
  - split; [vidx|]. split; [|split; [|exact I]].
    + exists 3%Q, (-1). unfold E, period; simpl. repeat split; unfold iz, Qle, Qlt; simpl; lia.
    + exists (-(1#2))%Q, 1. unfold E, period; simpl. repeat split; unfold iz, Qle, Qlt; simpl; lia.
  - reflexivity.
  - split; [reflexivity|]. left. repeat constructor; intros k Hk; simpl in Hk; destruct k as [|[|k]]; try lia; reflexivity.
Qed.

(** ** C12 *)
Definition wide_grid : grid := mkGrid [[0; 2; 3]]%Q true [0; 1]%nat [false; false].
Theorem C12_coverage_large_smoothing_refuted :
  exists g sm pos ks args,
    setting 2 g (fun x => x) sm [[pos]; []] /\ regular g /\
    (forall e, In e (g_edges g) -> Forall (fun s => (s < period e)%Q) sm) /\
    map (decompose 2 g (fun x => x) sm) [[pos]; []] = map Ret args /\
    meets g sm pos ks /\ ~ In (0, 0)%nat (tags args (owner g ks)).
Proof.
  exists wide_grid, [3#2]%Q, [1#5]%Q, [1], [(1, [1; 0], [0]); (0, [0; 0], [])]%nat.
  split; [|split; [|split; [|split; [|split]]]].
  - split.
    + split; try reflexivity; repeat constructor.
    + repeat constructor; discriminate.
    + reflexivity.
    + intros pos x Hp Hx. simpl in Hp. destruct Hp as [<-|[<-|[]]]; simpl in Hx; [|contradiction].
      destruct Hx as [<-|[]]. split; [reflexivity|]. split; [repeat constructor; discriminate|simpl; lia].
  - split; [reflexivity|]. right. reflexivity.
  - intros e [<-|[]]. repeat constructor.
  - vm_compute. reflexivity.
  - split; [vidx|]. split; [|exact I].
    exists (-(1))%Q, 1. unfold E, period; simpl. repeat split; unfold iz, Qle, Qlt; simpl; lia.
  - vm_compute. tauto.
Qed.
Print Assumptions C12_coverage_large_smoothing_refuted.

(** ** C13 *)
Theorem C13_no_spurious_ghosts : forall P g tr sm poss args, setting P g tr sm poss ->
  map (decompose P g tr sm) poss = map Ret args ->
  forall s i r, (s < P)%nat -> (r < P)%nat -> In (s, i) (tags args r) ->
    (i < length (nth s poss []))%nat /\
    exists ks, touches g sm (tr (particle poss s i)) ks /\ owner g ks = r.
Proof.
  intros P g tr sm poss args H Hd s i r Hs Hr Hin'.
  destruct (setting_decompose _ _ _ _ _ H) as (args' & E1 & E2 & E3 & E4 & E5).
  assert (args' = args).
  { rewrite Hd in E1. clear -E1. revert args' E1. induction args as [|a l IH]; intros [|b l'] E; try discriminate; [reflexivity|].
    inversion E; subst. f_equal. now apply IH. }
  subst args'. destruct H as [Hg Ha Hw Hin].
  apply in_tags in Hin'; [|lia]. rewrite E5 in Hin' by assumption. apply sent_to_in in Hin'. destruct Hin' as [Hi Ht].
  split; [assumption|].
  destruct (particle_in poss s i ltac:(lia) Hi) as [P1 P2].
  exact (targets_tight P g sm _ r Hg Ha (Hin _ _ P1 P2) Ht).
Qed.
Print Assumptions C13_no_spurious_ghosts.

(** a particle well inside a domain, with little smoothing, stays there *)
Example C13_case : targets wide_grid [1#4]%Q [1]%Q = [0]%nat /\ targets wide_grid [1#4]%Q [15#8]%Q = [0; 1]%nat.
Proof. split; vm_compute; reflexivity. Qed.

(** ** C14 *)
Theorem C14_one_home : forall P g sm x, wf_grid P g -> periodic_axes g -> regular g ->
  length sm = length (g_edges g) -> Forall (fun s => (s == 0)%Q) sm -> (length (g_edges g) <= length x)%nat ->
  exists ks, inside g x ks /\ (forall ks', inside g x ks' -> ks' = ks) /\ (owner g ks < P)%nat /\
    targets g sm x = [owner g ks] /\
    (forall r, isprimary g r x = true <-> r = owner g ks).
Proof.
  intros P g sm x Hg Hp Hr Hl Hs Hx. assert (He := proj2 Hp). exists (home g x).
  assert (Hh := home_inside g x He Hx). split; [assumption|]. split; [intros ks'; now apply inside_home|].
  split; [apply (zlookup_owner P g _ Hg (proj1 Hh))|]. split.
  - apply (targets_zero P); try assumption. now apply (regular_flags P).
  - intros r. rewrite (isprimary_spec P) by assumption. rewrite Nat.eqb_eq. split; congruence.
Qed.
Print Assumptions C14_one_home.

Lemma sum_length_filter {A} (T : A -> nat) (l : list A) P : (forall x, In x l -> (T x < P)%nat) ->
  list_sum (map (fun r => length (filter (fun x => (T x =? r)%nat) l)) (seq 0 P)) = length l.
Proof.
  induction l as [|x l IH]; intros H.
  - simpl. induction (seq 0 P) as [|y z IHz]; [reflexivity|]. simpl. rewrite list_sum_cons. assumption.
  - rewrite (map_ext _ (fun r => ((if (T x =? r)%nat then 1 else 0) + length (filter (fun x => (T x =? r)%nat) l))%nat)).
    2: { intros r. simpl. destruct (T x =? r)%nat; reflexivity. }
    rewrite list_sum_map_add, IH by (intros; apply H; now right).
    assert (G : forall n s v, list_sum (map (fun d => if (v =? d)%nat then 1 else 0)%nat (seq s n)) = if (s <=? v)%nat && (v <? s + n)%nat then 1%nat else 0%nat).
    { clear. induction n as [|n IHn]; intros s v.
      - simpl. destruct (Nat.leb_spec s v), (Nat.ltb_spec v (s + 0)); simpl; try reflexivity; lia.
      - simpl. rewrite list_sum_cons, IHn. destruct (Nat.eqb_spec v s), (Nat.leb_spec (S s) v), (Nat.leb_spec s v), (Nat.ltb_spec v (S s + n)), (Nat.ltb_spec v (s + S n)); simpl; lia. }
    rewrite G. specialize (H x (or_introl eq_refl)).
    destruct (Nat.leb_spec 0 (T x)), (Nat.ltb_spec (T x) (0 + P)); simpl; lia.
Qed.

(** summed over the ranks, the received particles that are primary are as many
    as there are particles *)
Theorem C14_primaries_counted_once : forall P g sm poss args y,
  setting P g (fun x => x) sm poss -> periodic_axes g -> regular g -> Forall (fun s => (s == 0)%Q) sm ->
  map (decompose P g (fun x => x) sm) poss = map Ret args -> is_exchanged args poss y ->
  list_sum (map (fun r => length (filter (isprimary g r) (nth r y []))) (seq 0 P))
  = list_sum (map (@length _) poss).
Proof.
  intros P g sm poss args y H Hp Hr Hs Hd Hy.
  destruct (setting_decompose _ _ _ _ _ H) as (args' & E1 & E2 & E3 & E4 & E5).
  assert (args' = args).
  { rewrite Hd in E1. clear -E1. revert args' E1. induction args as [|a l IH]; intros [|b l'] E; try discriminate; [reflexivity|].
    inversion E; subst. f_equal. now apply IH. }
  subst args'. assert (He := proj2 Hp).
  destruct (exchanged_spec args poss y E3 (eq_sym E4) Hy) as [Y1 Y2]. rewrite E2 in *.
  set (T := fun x => owner g (home g x)).
  destruct H as [Hg Ha Hw Hin]. cbv beta in Hin.
  assert (HT : forall pos x, In pos poss -> In x pos -> targets g sm x = [T x] /\ (T x < P)%nat).
  { intros pos x Hpos Hx. destruct (Hin pos x Hpos Hx) as (I1 & I2 & I3).
    split; [apply (targets_zero P); try assumption; now apply (regular_flags P)|].
    apply (zlookup_owner P g _ Hg). apply home_inside; assumption. }
  assert (Hcount : forall r, (r < P)%nat -> length (filter (isprimary g r) (nth r y []))
     = list_sum (map (fun pos => length (filter (fun x => (T x =? r)%nat) pos)) poss)).
  { intros r Hr'.
    assert (Eall : filter (isprimary g r) (nth r y []) = nth r y []).
    { apply filter_all. intros x Hx. apply (in_map Some) in Hx. rewrite Y2 in Hx by assumption.
      apply in_map_iff in Hx. destruct Hx as ([s i] & El & Ht).
      assert (Hs' : (s < P)%nat).
      { unfold tags in Ht. apply in_flat_map in Ht. destruct Ht as (s' & Hs' & Ht). apply in_seq in Hs'. apply in_map_iff in Ht.
        destruct Ht as (? & E0 & _). inversion E0; subst. lia. }
      apply in_tags in Ht; [|lia]. rewrite E5 in Ht by assumption. apply sent_to_in in Ht. destruct Ht as [Hi Ht].
      unfold lookup2 in El. simpl in El. rewrite (nth_error_nth' poss []) in El by lia.
      rewrite (nth_error_nth' _ []) in El by lia. inversion El as [El']. rewrite El' in *.
      destruct (particle_in poss s i ltac:(lia) Hi) as [P1 P2]. unfold particle in P2. rewrite El' in P2.
      destruct (HT _ _ P1 P2) as [T1 T2]. rewrite T1 in Ht. destruct Ht as [Ht|[]].
      rewrite (isprimary_spec P) by (try assumption; apply (Hin _ _ P1 P2)). apply Nat.eqb_eq. exact Ht. }
    rewrite Eall. rewrite <- (map_length Some), Y2, map_length by assumption.
    unfold tags. rewrite flat_map_length_sum, E2.
    rewrite (list_sum_map_ext_in _ (fun s => length (filter (fun x => (T x =? r)%nat) (nth s poss [])))).
    - assert (Q0 := map_nth_seq poss [] P Hw).
      transitivity (list_sum (map (fun pos => length (filter (fun x => (T x =? r)%nat) pos)) (map (fun i => nth i poss []) (seq 0 P)))).
      + now rewrite map_map.
      + now rewrite Q0.
    - intros s Hs'. apply in_seq in Hs'. rewrite map_length, E5 by lia. unfold sent_to.
      assert (Hpos : In (nth s poss []) poss) by (apply nth_In; lia).
      revert Hpos. generalize (nth s poss []) as pos. intros pos Hpos.
      assert (HT' : forall x, In x pos -> targets g sm x = [T x]) by (intros x Hx; apply (HT pos x Hpos Hx)).
      clear Hpos. clear -HT'.
      assert (G : forall pre l, pos = pre ++ l ->
        length (filter (fun i => if in_dec Nat.eq_dec r (targets g sm (nth i pos [])) then true else false) (seq (length pre) (length l)))
        = length (filter (fun x => (T x =? r)%nat) l)).
      { intros pre l. revert pre. induction l as [|x l IH]; intros pre E0; [reflexivity|].
        simpl length. simpl seq. cbn [filter].
        assert (Ex : nth (length pre) pos [] = x) by (rewrite E0; apply nth_middle).
        rewrite Ex, HT' by (rewrite E0; apply in_elt).
        specialize (IH (pre ++ [x]) ltac:(now rewrite <- app_assoc)). rewrite app_length in IH. simpl in IH.
        replace (length pre + 1)%nat with (S (length pre)) in IH by lia.
        destruct (in_dec Nat.eq_dec r [T x]) as [C|C], (Nat.eqb_spec (T x) r) as [D|D]; simpl in *.
        - now rewrite IH.
        - destruct C; [contradiction|contradiction].
        - exfalso. apply C. now left.
        - exact IH. }
      exact (G [] pos eq_refl). }
  rewrite (list_sum_map_ext_in _ (fun r => list_sum (map (fun pos => length (filter (fun x => (T x =? r)%nat) pos)) poss))).
  2: { intros r Hr'. apply in_seq in Hr'. apply Hcount. lia. }
  rewrite list_sum_map_swap. apply list_sum_map_ext_in. intros pos Hpos. apply sum_length_filter.
  intros x Hx. apply (HT pos x Hpos Hx).
Qed.
Print Assumptions C14_primaries_counted_once.

Example C14_case : targets ex_grid [0; 0]%Q [5#2; -(1#2)]%Q = [0]%nat /\
  map (fun r => isprimary ex_grid r [5#2; -(1#2)]%Q) [0; 1]%nat = [true; false].
Proof. split; vm_compute; reflexivity. Qed.

(** ** C15 *)
Lemma flags_thick es ks : Forall (fun e => StronglySorted Qle e /\ (2 <= length e)%nat) es -> valid_index (map ndom es) ks ->
  nth (Z.to_nat (ravel (map ndom es) ks)) (degenerate_flags es) false = false -> thick es ks.
Proof.
  intros H Hv. rewrite degenerate_flags_nth; [| |assumption].
  2: { eapply Forall_impl; [|exact H]. intros a Ha. apply Ha. }
  revert ks Hv. induction H as [|e es [He1 He2] Hes IH]; intros ks Hv Hf; [exact I|].
  simpl in Hv. inversion Hv as [|? k ? ks' Hk Hks]; subst. cbn [combine existsb fst snd] in Hf.
  apply orb_false_iff in Hf. destruct Hf as [F1 F2]. split; [|now apply IH].
  unfold ndom in Hk.
  assert (E e (Z.to_nat k) <= E e (S (Z.to_nat k)))%Q by (apply sorted_nth; [assumption|lia|lia]).
  destruct (Qlt_le_dec (E e (Z.to_nat k)) (E e (S (Z.to_nat k)))) as [C|C]; [assumption|exfalso].
  unfold width0, E in *. replace (Z.to_nat k + 1)%nat with (S (Z.to_nat k)) in F1 by lia.
  apply not_true_iff_false in F1. apply F1. apply Qeq_bool_iff. lra.
Qed.

Lemma touches_meets_axes g sm x ks : wf_axes g -> touches g sm x ks -> thick (g_edges g) ks -> meets g sm x ks.
Proof.
  unfold touches, meets, wf_axes. intros Ha [Hv Ht] Hk. split; [assumption|]. clear Hv.
  revert Ha Ht Hk. generalize (g_edges g) as es, (g_periodic g) as per. intros es per Ha.
  revert sm x ks. induction Ha as [|e es He Hes IH]; intros sm x ks Ht Hk.
  - destruct ks; [exact I|contradiction].
  - destruct sm as [|s sm], x as [|c x], ks as [|k ks]; try contradiction. destruct Ht as [T1 T2], Hk as [K1 K2].
    split; [|now apply IH]. unfold touches_axis in T1. unfold meets_axis. destruct per.
    + now apply touches_meets.
    + destruct T1 as (y & Y1 & Y2 & Y3 & [Y4|[Y4 _]]); [|lra]. exists y. auto.
Qed.

Lemma axes_sorted g : wf_axes g -> Forall (fun e => StronglySorted Qle e /\ (2 <= length e)%nat) (g_edges g).
Proof.
  unfold wf_axes. intros H. eapply Forall_impl; [|exact H]. intros e He. destruct (g_periodic g); destruct He; auto.
Qed.

(** exactly the ranks owning a domain of positive size that meets the
    smoothing box receive the particle; zero-width domains play no role *)
Theorem C15_degenerate_harmless : forall P g sm x, wf_grid P g -> wf_axes g -> regular g ->
  wf_input g sm x -> smoothing_ok g sm x ->
  forall t, In t (targets g sm x) <-> exists ks, thick (g_edges g) ks /\ meets g sm x ks /\ owner g ks = t.
Proof.
  intros P g sm x Hg Ha Hr Hi Hsm t. split.
  - intros Ht. apply (targets_ok P g sm x Hg Ha Hi) in Ht. destruct Ht as (p & Hp & Ho & Hf).
    assert (Hc := patch_cells g sm x p Ha Hi Hp). set (ks := wrap_index (g_periodic g) (g_dims g) p) in *.
    exists ks. assert (Hk : thick (g_edges g) ks).
    { destruct Hr as [Hc0 [Hall|Hid]].
      - destruct Hc as [Hv _]. revert Hv Hall. unfold all_thick, g_dims. generalize ks as us. generalize (g_edges g) as es.
        induction es as [|e es IH]; intros us Hv Hall; [exact I|].
        simpl in Hv. inversion Hv as [|? u ? us' Hu Hus]; subst. inversion Hall; subst. simpl. split.
        + apply H1. unfold ndom in Hu. lia.
        + now apply IH.
      - apply flags_thick; [now apply axes_sorted|apply Hc|].
        rewrite <- Hc0. unfold owner in Ho. rewrite Hid in Ho.
        assert (B := ravel_bound _ _ (proj1 Hc)). assert (L := wf_assign_len P g Hg).
        rewrite seq_nth in Ho by lia. simpl in Ho. rewrite <- Ho in Hf. exact Hf. }
    split; [assumption|]. split; [|assumption]. now apply touches_meets_axes.
  - intros (ks & _ & Hm & <-). apply (targets_cover P); try assumption. now apply (regular_flags P).
Qed.
Print Assumptions C15_degenerate_harmless.

(** three ranks, the middle domain has no width: nobody is lost and rank 1 gets
    nothing, even at the position of that domain *)
Definition thin_grid : grid := mkGrid [[0; 1; 1; 2]]%Q true [0; 1; 2]%nat (degenerate_flags [[0; 1; 1; 2]]%Q).
Example C15_case : map (targets thin_grid [1#4]%Q) [[1]; [1#2]; [7#4]]%Q = [[0; 2]; [0]; [0; 2]]%nat.
Proof. vm_compute. reflexivity. Qed.

(** The flag is looked up at the position of the rank. With two domains, the
    first without width, on a single rank (the default assignment) or with the
    ranks exchanged, a particle inside the other domain is sent to nobody; and
    a zero-width domain owned by another rank attracts a copy. *)
Theorem C15_flag_of_rank_refuted :
  (exists g x ks, wf_grid 1 g /\ periodic_axes g /\ constructed g /\
     map Some (g_assign g) = default_assign 2 1 /\
     inside g x ks /\ thick (g_edges g) ks /\ targets g [0%Q] x = []) /\
  (exists g x ks, wf_grid 2 g /\ periodic_axes g /\ constructed g /\ Permutation (g_assign g) [0; 1]%nat /\
     inside g x ks /\ thick (g_edges g) ks /\ targets g [0%Q] x = []) /\
  (exists g x t, wf_grid 3 g /\ periodic_axes g /\ constructed g /\ Permutation (g_assign g) [0; 1; 2]%nat /\
     In t (targets g [1#4]%Q x) /\
     forall ks, valid_index (g_dims g) ks -> owner g ks = t -> ~ thick (g_edges g) ks).
Proof.
  split; [|split].
  - exists (mkGrid [[0; 0; 1]]%Q true [0; 0]%nat [true; false]), [1#2]%Q, [1].
    split; [split; try reflexivity; repeat constructor|].
    split; [split; [reflexivity|]; repeat constructor; discriminate|].
    split; [reflexivity|]. split; [reflexivity|]. split.
    { split; [vidx|]. split; [|exact I]. exists 0. unfold E, period, iz; simpl. split; unfold Qle, Qlt; simpl; lia. }
    split; [split; [reflexivity|exact I]|]. vm_compute. reflexivity.
  - exists (mkGrid [[0; 0; 1]]%Q true [1; 0]%nat [true; false]), [1#2]%Q, [1].
    split; [split; try reflexivity; repeat constructor|].
    split; [split; [reflexivity|]; repeat constructor; discriminate|].
    split; [reflexivity|]. split; [constructor|]. split.
    { split; [vidx|]. split; [|exact I]. exists 0. unfold E, period, iz; simpl. split; unfold Qle, Qlt; simpl; lia. }
    split; [split; [reflexivity|exact I]|]. vm_compute. reflexivity.
  - exists (mkGrid [[0; 1; 1; 2]]%Q true [1; 0; 2]%nat [false; true; false]), [1]%Q, 0%nat.
    split; [split; try reflexivity; repeat constructor|].
    split; [split; [reflexivity|]; repeat constructor; discriminate|].
    split; [reflexivity|]. split; [constructor|]. split; [vm_compute; tauto|].
    intros ks Hv Ho. inversion Hv as [|? k ? ks' Hk Hks]; subst. inversion Hks; subst.
    unfold ndom in Hk. simpl in Hk. unfold owner in Ho. simpl in Ho.
    assert (C : k = 0 \/ k = 1 \/ k = 2) by lia. destruct C as [->|[->| ->]]; simpl in Ho; try discriminate.
    intros [C _]. unfold E in C. simpl in C. lra.
Qed.
Print Assumptions C15_flag_of_rank_refuted.

(** ** C16 *)
Theorem C16_default_assignment : forall size P, (0 < P)%nat ->
  exists a, default_assign size P = map Some a /\ length a = size /\
    ((size <= P)%nat -> forall d, (d < size)%nat -> nth d a 0%nat = d) /\
    ((P < size)%nat ->
       (forall d d', (d <= d')%nat -> (d' < size)%nat -> (nth d a 0 <= nth d' a 0)%nat) /\
       Forall (fun r => (r < P)%nat) a /\
       (forall r r', (r < P)%nat -> (r' < P)%nat ->
          (count_occ Nat.eq_dec a r <= count_occ Nat.eq_dec a r' + 1)%nat)).
Proof.
  intros size P HP. destruct (le_lt_dec size P) as [H|H].
  - exists (seq 0 size). unfold default_assign. rewrite (proj2 (Nat.leb_le _ _) H).
    split; [reflexivity|]. split; [apply seq_length|]. split; [|lia].
    intros _ d Hd. now rewrite seq_nth.
  - destruct (default_assign_ok size P HP H) as (a & E1 & E2 & E3 & E4 & E5). exists a.
    split; [assumption|]. split; [assumption|]. split; [lia|]. intros _. split; [|split].
    + intros d d' Hd Hd'. subst size. clear -E3 Hd Hd'. revert d d' Hd Hd'. induction E3 as [|x l Hl IH Hf]; intros d d' Hd Hd'; [simpl in Hd'; lia|].
      simpl in Hd'. destruct d as [|d], d' as [|d']; simpl; try lia.
      * rewrite Forall_forall in Hf. apply Hf, nth_In. lia.
      * apply IH; lia.
    + now apply Forall_forall.
    + intros r r' Hr Hr'. specialize (E5 r Hr) as A. specialize (E5 r' Hr') as B. lia.
Qed.
Print Assumptions C16_default_assignment.

Example C16_case : default_assign 7 3 = map Some [0; 0; 1; 1; 2; 2; 2]%nat.
Proof. vm_compute. reflexivity. Qed.

(** ** C17 *)
Theorem C17_loadbalance : forall P domainload a M, (0 < P)%nat -> length domainload = length a ->
  Forall (fun d => (d <= M)%nat) domainload ->
  ((length a <= P)%nat -> loadbalance P domainload a = Ret a) /\
  ((P < length a)%nat -> exists a', loadbalance P domainload a = Ret a' /\ length a' = length a /\
     Forall (fun r => (r < P)%nat) a' /\
     (forall r, (r < P)%nat -> (P * rank_total domainload a' r <= list_sum domainload + (P - 1) * M)%nat) /\
     list_sum (map (rank_total domainload a') (seq 0 P)) = list_sum domainload /\
     (exists r, (r < P)%nat /\ (list_sum domainload <= P * rank_total domainload a' r)%nat)).
Proof.
  intros P dl a M HP Hl HM. split.
  - intros H. unfold loadbalance. now rewrite (proj2 (Nat.leb_le _ _) H).
  - intros H. destruct (loadbalance_ok P dl a M HP H Hl HM) as (a' & E1 & E2 & E3 & E4 & E5).
    exists a'. do 5 (split; [assumption|]). rewrite <- E5. clear -HP.
    assert (G : forall (f : nat -> nat) l, l <> [] -> exists r, In r l /\ (list_sum (map f l) <= length l * f r)%nat).
    { intros f. induction l as [|x l IH]; intros Hne; [congruence|]. destruct l as [|y l].
      - exists x. split; [now left|]. simpl. rewrite list_sum_cons, list_sum_nil. lia.
      - destruct IH as (r & Hr & Hs); [discriminate|]. cbn [map] in *. rewrite list_sum_cons.
        destruct (le_lt_dec (f r) (f x)) as [C|C].
        + exists x. split; [now left|]. simpl length in *. nia.
        + exists r. split; [now right|]. simpl length in *. nia. }
    destruct (G (rank_total dl a') (seq 0 P)) as (r & Hr & Hs); [destruct P; [lia|discriminate]|].
    exists r. apply in_seq in Hr. rewrite seq_length in Hs. split; [lia|assumption].
Qed.
Print Assumptions C17_loadbalance.

Example C17_case : loadbalance 2 [5; 1; 4; 2]%nat [0; 0; 1; 1]%nat = Ret [0; 0; 1; 1]%nat /\
  loadbalance 2 [5; 9; 4; 2]%nat [0; 0; 1; 1]%nat = Ret [1; 0; 1; 0]%nat.
Proof. split; vm_compute; reflexivity. Qed.

(** ** C18 *)
Theorem C18_load_counts : forall P g tr gamma world, wf_grid P g -> wf_axes g ->
  (forall pos x, In pos world -> In x pos -> (length (g_edges g) <= length (tr x))%nat) ->
  exists n, length n = length (g_assign g) /\
    load g tr (length (g_assign g)) gamma world = map (fun _ => Ret (map (fun k => Nat.pow k gamma) n)) world /\
    list_sum n = list_sum (map (@length _) world) /\
    (g_periodic g = true -> forall ks, valid_index (g_dims g) ks ->
       exists members, (forall x, In x members <-> exists pos, In pos world /\ In x pos /\ inside g (tr x) ks) /\
         members = filter (fun x => (load_domain g (tr x) =? Z.to_nat (ravel (g_dims g) ks))%nat) (concat world) /\
         nth (Z.to_nat (ravel (g_dims g) ks)) n 0%nat = length members).
Proof.
  intros P g tr gamma world Hg Ha Hx.
  exists (map (fun d => list_sum (map (fun pos => occupants g tr pos d) world)) (seq 0 (length (g_assign g)))).
  split; [now rewrite map_length, seq_length|]. split.
  { rewrite (load_ok P) by assumption. apply map_ext. intros _. now rewrite map_map. }
  split.
  { rewrite list_sum_map_swap. apply list_sum_map_ext_in. intros pos Hp. apply (occupants_total P); try assumption.
    intros x. now apply Hx. }
  intros Hp ks Hv.
  assert (B := ravel_bound _ _ Hv). assert (L := wf_assign_len P g Hg).
  assert (He : Forall axis_ok (g_edges g)) by (unfold wf_axes in Ha; now rewrite Hp in Ha).
  exists (filter (fun x => (load_domain g (tr x) =? Z.to_nat (ravel (g_dims g) ks))%nat) (concat world)).
  split; [|split; [reflexivity|]].
  - intros x. rewrite filter_In, in_concat, Nat.eqb_eq.
    assert (K : forall pos, In pos world -> In x pos ->
      (load_domain g (tr x) = Z.to_nat (ravel (g_dims g) ks) <-> inside g (tr x) ks)).
    { intros pos P1 P2. unfold load_domain. rewrite load_cell_home by assumption.
      assert (Hh := home_inside g (tr x) He (Hx pos x P1 P2)).
      assert (B' := ravel_bound _ _ (proj1 Hh)). split.
      - intros E0. assert (E1 : home g (tr x) = ks).
        { apply (ravel_inj (g_dims g)); [apply Hh|assumption|lia]. }
        now rewrite <- E1.
      - intros H. now rewrite (inside_home g (tr x) ks He H). }
    split.
    + intros ((pos & P1 & P2) & E0). exists pos. split; [assumption|]. split; [assumption|]. now apply (K pos).
    + intros (pos & P1 & P2 & Hin). split; [now exists pos|]. now apply (K pos).
  - rewrite nth_map_seq by lia. unfold occupants. clear. induction world as [|pos w IH]; [reflexivity|].
    simpl. rewrite list_sum_cons, filter_app, app_length, IH. reflexivity.
Qed.
Print Assumptions C18_load_counts.

Example C18_case : load ex_grid (fun x => x) 4 1 ex_poss = [Ret [1; 0; 1; 1]; Ret [1; 0; 1; 1]]%nat.
Proof. vm_compute. reflexivity. Qed.

(** ** C19 *)
Theorem C19_uniform_at_most : forall P box r, box <> [] ->
  0 <= prodz (uniform_shape P box r) <= Z.of_nat P /\
  (1 <= prodz (uniform_shape P box r) <-> prodz (other_axes box r) <= Z.of_nat P).
Proof. exact uniform_bounds. Qed.
Print Assumptions C19_uniform_at_most.

Theorem C19_uniform_positive : forall P box r, Forall (fun b => (1 <= b)%Q) box -> box <> [] ->
  (qpow r (length box) * qprod box <= inject_Z (Z.of_nat P) * qmin box)%Q -> (1 <= r)%Q ->
  1 <= prodz (uniform_shape P box r) <= Z.of_nat P.
Proof. exact uniform_positive. Qed.
Print Assumptions C19_uniform_positive.

Theorem C19_uniform_positive_root : forall P box r, Forall (fun b => (1 <= b)%Q) box -> box <> [] ->
  uniform_root P box r -> (1 <= r)%Q -> 1 <= prodz (uniform_shape P box r) <= Z.of_nat P.
Proof. intros P box r Hb Hne Hr. apply uniform_positive; try assumption. now apply uniform_root_le. Qed.
Print Assumptions C19_uniform_positive_root.

Example C19_case : uniform_root 8 [1; 1; 1]%Q 2%Q /\ uniform_shape 8 [1; 1; 1]%Q 2%Q = [2; 2; 2].
Proof. split; [split; [discriminate|reflexivity]|vm_compute; reflexivity]. Qed.

(** no domain at all: a box smaller than the unit of length, and an elongated
    box *)
Theorem C19_uniform_empty_refuted :
  (exists box r, uniform_root 1 box r /\ Forall (fun b => (0 < b)%Q) box /\ prodz (uniform_shape 1 box r) = 0) /\
  (exists box r, uniform_root 1 box r /\ Forall (fun b => (1 <= b)%Q) box /\ prodz (uniform_shape 1 box r) = 0).
Proof.
  split.
  - exists [1#4; 1#4]%Q, 2%Q. split; [split; [discriminate|reflexivity]|]. split; [repeat constructor|vm_compute; reflexivity].
  - exists [1; 27; 27]%Q, (1#9)%Q. split; [split; [discriminate|reflexivity]|]. split; [repeat constructor; discriminate|vm_compute; reflexivity].
Qed.
Print Assumptions C19_uniform_empty_refuted.
