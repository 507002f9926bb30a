(** C53, C54: the index enumerates the modes shell by shell. *)
From Coq Require Import List Arith ZArith Lia Bool Permutation.
From Verif Require Import Base ListFacts WrapModel WrapProofs InvariantModel InvariantBits InvariantFacts InvariantOrder.
Import ListNotations.
Local Open Scope Z_scope.

Lemma keep_none {T} n (l : list T) : length l = n -> keep (repeat false n) l = l.
Proof. intros <-. induction l as [|y l IH]; [reflexivity|]. cbn. now rewrite IH. Qed.
Lemma mb_zero n : mb 0 0 n = repeat false n.
Proof.
  unfold mb. generalize 0%nat as d. induction n as [|n IH]; intros d; [reflexivity|]. cbn [seq map repeat]. now rewrite Z.bits_0, IH.
Qed.
Lemma caps_first n : exists r, all_caps n = (0, 0) :: r.
Proof.
  unfold all_caps. fold (nrange n). assert (E : exists r, nrange n = 0 :: r).
  { unfold nrange. rewrite Z.shiftl_mul_pow2, Z.mul_1_l by lia. pose proof (pow2_pos (Z.of_nat n) ltac:(lia)).
    destruct (Z.to_nat (2 ^ Z.of_nat n)) as [|k] eqn:E; [lia|]. unfold zrange. cbn [seq map]. eauto. }
  destruct E as [r E]. rewrite E. cbn [flat_map map]. eexists. reflexivity.
Qed.
Lemma okcap_none n : forall a ms, okcap (repeat false n) a ms.
Proof. induction n as [|n IH]; intros [|x a] [|m ms]; cbn; auto. split; [discriminate|apply IH]. Qed.
Lemma wt_first n s ms : (n <= 32)%nat -> length ms = n -> wt n s (val ms) (0, 0) = count (s - 1) ms.
Proof.
  intros Hn L. pose proof (pow2_pos (Z.of_nat n) ltac:(lia)). rewrite wt_prod; cbn [fst snd]; [|exact Hn|now apply val_bound'|lia|lia].
  rewrite !mb_zero, mb_val' by exact L. rewrite pw_ok by (rewrite ?repeat_length; auto using okcap_none).
  rewrite psize_keep by now rewrite repeat_length. now rewrite keep_none.
Qed.
Lemma hits_nonzero s x : In true (hits s x) -> val (hits s x) <> 0.
Proof.
  intros H E. destruct (In_nth _ _ false H) as (i & Hi & Ei). rewrite <- val_bit, E, Z.bits_0 in Ei. discriminate.
Qed.
Lemma all_caps_NoDup n : NoDup (all_caps n).
Proof.
  unfold all_caps. fold (nrange n). assert (N : NoDup (nrange n)) by apply zrange_NoDup. revert N. generalize (nrange n) at 1 3 as l.
  assert (N : NoDup (nrange n)) by apply zrange_NoDup. revert N. generalize (nrange n) as k. intros k Nk l Nl.
  induction Nl as [|B l HB Nl IH]; cbn [flat_map]; [constructor|]. apply NoDup_app_intro; [|exact IH|].
  - apply FinFun.Injective_map_NoDup; [intros a b E; now injection E|exact Nk].
  - intros c H1 H2. apply in_map_iff in H1. destruct H1 as (A & <- & _). apply in_flat_map in H2. destruct H2 as (B' & HB' & H2).
    apply in_map_iff in H2. destruct H2 as (A' & E & _). injection E as -> ->. contradiction.
Qed.

(** shells *)
Lemma ix_shell n : forall x ms, length x = n -> (n <= 32)%nat -> stored ms x ->
  (forall s, 0 <= s -> absmax x <= s -> ix x ms < count s ms) /\ (forall s, 0 <= s < absmax x -> count s ms <= ix x ms).
Proof.
  induction n as [n IH] using lt_wf_ind. intros x ms L Hn F. assert (Lm : length ms = n) by (rewrite (Forall2_len _ _ _ F); exact L).
  destruct (Z.eq_dec (absmax x) 0) as [E|E].
  - rewrite (ix_zero x ms E). split; [|lia]. intros s Hs _. now apply count_pos.
  - set (s := absmax x) in *. pose proof (absmax_nonneg x) as P. fold s in P. rewrite (ix_step x ms s eq_refl E), L.
    destruct (absmax_attained x E) as (v & Hv & Ev). fold s in Ev. pose proof (hits_true s x v Hv Ev) as Ht.
    pose proof (keep_lt (hits s x) x ltac:(now rewrite hits_length) Ht) as Lt.
    set (c := (val (negs s x), val (hits s x))). assert (Hc : In c (all_caps n)) by now apply cap_in.
    assert (W : forall d, In d (all_caps n) -> 0 <= wt n s (val ms) d) by (intros d Hd; apply wt_nonneg; auto; lia).
    pose proof (wt_host n s x ms Hn ltac:(lia) L F) as Wc. fold c in Wc.
    destruct (IH _ ltac:(rewrite <- L; exact Lt) (keep (hits s x) x) (keep (hits s x) ms) eq_refl ltac:(lia) (stored_keep _ _ _ F)) as [U _].
    specialize (U (s - 1) ltac:(lia) (keep_absmax s x ltac:(lia) ltac:(unfold s; lia))).
    pose proof (ix_nonneg (keep (hits s x) x) (keep (hits s x) ms) ltac:(lia) ltac:(apply keep_length; lia)) as N1.
    split.
    + intros t Ht0 Hst. pose proof (before_total _ _ _ W Hc) as B. rewrite (total n s (val ms) Hn (val_bound' _ _ Lm)), mb_val' in B by exact Lm.
      pose proof (count_mono s t ms ltac:(lia)). lia.
    + intros t Ht0. assert (B : wt n s (val ms) (0, 0) <= before (wt n s (val ms)) c (all_caps n)).
      { destruct (caps_first n) as [r Er]. rewrite Er in *. cbn [before]. destruct (ceqb (0, 0) c) eqn:Ec.
        - apply ceqb_true in Ec. unfold c in Ec. apply pair_equal_spec in Ec. destruct Ec as [_ Ec]. exfalso. apply (hits_nonzero s x Ht). now symmetry.
        - pose proof (before_nonneg (wt n s (val ms)) c r ltac:(intros; apply W; now right)). lia. }
      rewrite wt_first in B by assumption. pose proof (count_mono t (s - 1) ms ltac:(lia)). lia.
Qed.
(** injectivity *)
Lemma val_inj a b : length a = length b -> val a = val b -> a = b.
Proof. intros L E. rewrite <- (mb_val a), <- (mb_val b), E, L. reflexivity. Qed.
Lemma absmax_zero x y : length x = length y -> absmax x = 0 -> absmax y = 0 -> x = y.
Proof.
  intros L Ex Ey. apply (list_ext_nth _ _ 0 L). intros i Hi. pose proof (absmax_ge x (nth i x 0) (nth_In _ _ Hi)).
  assert (Hi' : (i < length y)%nat) by lia. pose proof (absmax_ge y (nth i y 0) (nth_In _ _ Hi')). lia.
Qed.
Lemma ix_inj n : forall x y ms, length x = n -> (n <= 32)%nat -> stored ms x -> stored ms y -> ix x ms = ix y ms -> x = y.
Proof.
  induction n as [n IH] using lt_wf_ind. intros x y ms L Hn Fx Fy E.
  assert (Lm : length ms = n) by (rewrite (Forall2_len _ _ _ Fx); exact L). assert (Ly : length y = n) by (rewrite <- (Forall2_len _ _ _ Fy); exact Lm).
  destruct (ix_shell n x ms L Hn Fx) as [Ux Dx]. destruct (ix_shell n y ms Ly Hn Fy) as [Uy Dy].
  assert (S : absmax x = absmax y).
  { pose proof (absmax_nonneg x). pose proof (absmax_nonneg y). destruct (Z.lt_trichotomy (absmax x) (absmax y)) as [H1|[H1|H1]]; [|exact H1|]; exfalso.
    - specialize (Ux (absmax x) ltac:(lia) ltac:(lia)). specialize (Dy (absmax x) ltac:(lia)). lia.
    - specialize (Uy (absmax y) ltac:(lia) ltac:(lia)). specialize (Dx (absmax y) ltac:(lia)). lia. }
  destruct (Z.eq_dec (absmax x) 0) as [Z0|NZ]; [apply absmax_zero; lia|].
  set (s := absmax x) in *. pose proof (absmax_nonneg x) as P. fold s in P. symmetry in S.
  rewrite (ix_step x ms s eq_refl NZ), (ix_step y ms s S NZ), L, Ly in E.
  destruct (absmax_attained x NZ) as (v & Hv & Ev). fold s in Ev. pose proof (keep_lt (hits s x) x ltac:(now rewrite hits_length) (hits_true s x v Hv Ev)) as Lx1.
  destruct (absmax_attained y ltac:(lia)) as (u & Hu & Eu). rewrite S in Eu. pose proof (keep_lt (hits s y) y ltac:(now rewrite hits_length) (hits_true s y u Hu Eu)) as Ly1.
  set (c := (val (negs s x), val (hits s x))) in *. assert (Hc : In c (all_caps n)) by now apply cap_in.
  set (d := (val (negs s y), val (hits s y))) in *. assert (Hd : In d (all_caps n)) by now apply cap_in.
  assert (W : forall d, In d (all_caps n) -> 0 <= wt n s (val ms) d) by (intros e He; apply wt_nonneg; auto; lia).
  pose proof (wt_host n s x ms Hn ltac:(lia) L Fx) as Wc. fold c in Wc. pose proof (wt_host n s y ms Hn ltac:(lia) Ly Fy) as Wd. fold d in Wd.
  destruct (ix_shell _ (keep (hits s x) x) (keep (hits s x) ms) eq_refl ltac:(lia) (stored_keep _ _ _ Fx)) as [U1 _].
  specialize (U1 (s - 1) ltac:(lia) (keep_absmax s x ltac:(lia) ltac:(unfold s; lia))).
  destruct (ix_shell _ (keep (hits s y) y) (keep (hits s y) ms) eq_refl ltac:(lia) (stored_keep _ _ _ Fy)) as [U2 _].
  specialize (U2 (s - 1) ltac:(lia) (keep_absmax s y ltac:(lia) ltac:(lia))).
  pose proof (ix_nonneg (keep (hits s x) x) (keep (hits s x) ms) ltac:(lia) ltac:(apply keep_length; lia)) as N1.
  pose proof (ix_nonneg (keep (hits s y) y) (keep (hits s y) ms) ltac:(lia) ltac:(apply keep_length; lia)) as N2.
  assert (Ecd : c = d).
  { destruct (ceqb c d) eqn:Eb; [now apply ceqb_true|]. exfalso. assert (N : c <> d) by (intros H; apply ceqb_true in H; congruence).
    destruct (before_apart _ c d _ W Hc Hd N); lia. }
  rewrite Ecd in E. unfold c, d in Ecd. apply pair_equal_spec in Ecd. destruct Ecd as [EB EA].
  apply val_inj in EB; [|rewrite !negs_length; lia]. apply val_inj in EA; [|rewrite !hits_length; lia].
  rewrite EA in *. assert (X1 : keep (hits s y) x = keep (hits s y) y).
  { apply (IH (length (keep (hits s y) x)) ltac:(lia) _ _ (keep (hits s y) ms)); [reflexivity|lia|now apply stored_keep|now apply stored_keep|lia]. }
  rewrite <- (rebuild_host s x), <- (rebuild_host s y), EA, EB, X1. reflexivity.
Qed.
(** surjectivity *)
Lemma zeros_stored ms : stored ms (repeat 0 (length ms)).
Proof. induction ms as [|m ms IH]; cbn; constructor; [lia|exact IH]. Qed.
Lemma val_zero_false a : val a = 0 -> a = repeat false (length a).
Proof. intros E. rewrite <- (mb_val a) at 1. rewrite E. apply mb_zero. Qed.
Lemma keep_length_self {T} hs (l : list T) : length l = length hs -> length (keep hs l) = length (keep hs hs).
Proof. intros L. now apply keep_length. Qed.
Lemma ix_onto n : forall ms, length ms = n -> (n <= 32)%nat -> forall s, 0 <= s -> forall m, 0 <= m < count s ms -> exists x, length x = n /\ stored ms x /\ ix x ms = m.
Proof.
  induction n as [n IHn] using lt_wf_ind. intros ms Lm Hn s Hs. revert s Hs.
  apply (natlike_ind (fun s => forall m, 0 <= m < count s ms -> exists x, length x = n /\ stored ms x /\ ix x ms = m)).
  - intros m Hm. assert (E1 : count 0 ms = 1) by (clear; induction ms as [|b ms IH]; [reflexivity|]; cbn [count]; rewrite IH; destruct b; reflexivity).
    rewrite E1 in Hm. exists (repeat 0 n). split; [apply repeat_length|]. split; [rewrite <- Lm; apply zeros_stored|]. rewrite ix_zero; [lia|].
    assert (absmax (repeat 0 n) <= 0) by (apply absmax_le; [lia|]; intros v Hv; apply repeat_spec in Hv; subst; cbn; lia). pose proof (absmax_nonneg (repeat 0 n)). lia.
  - intros t Ht IHs m Hm. destruct (Z.lt_ge_cases m (count t ms)) as [|Hge]; [apply IHs; lia|]. set (s := Z.succ t) in *.
    assert (Hs : 1 <= s) by lia. replace t with (s - 1) in Hge by lia.
    rewrite <- (mb_val' ms n Lm) in Hm at 1. rewrite <- (total n s (val ms) Hn (val_bound' _ _ Lm)) in Hm.
    destruct (before_find (wt n s (val ms)) m (all_caps n) (all_caps_NoDup n) Hm) as (c & Hc & Bc).
    pose proof (proj1 (in_caps n c) Hc) as [HB HA]. destruct c as [B A]. cbn [fst snd] in HB, HA.
    set (b := mb B 0 n) in *. set (a := mb A 0 n) in *.
    assert (La : length a = n) by apply mb_length. assert (Lb : length b = n) by apply mb_length.
    pose proof (wt_prod n s (val ms) (B, A) Hn (val_bound' _ _ Lm) HB HA) as Wp. cbn [fst snd] in Wp. fold a b in Wp. rewrite mb_val' in Wp by exact Lm.
    assert (O : okcap b a ms) by (apply (pw_pos_ok s); lia).
    rewrite pw_ok, psize_keep in Wp by (auto; lia).
    assert (Ht1 : In true a).
    { destruct (in_dec Bool.bool_dec true a) as [|Na]; [assumption|exfalso].
      assert (Ea : a = repeat false n).
      { apply (list_ext_nth _ _ false); [now rewrite repeat_length|]. intros i Hi. rewrite nth_repeat. destruct (nth i a false) eqn:En; [|reflexivity]. exfalso. apply Na. rewrite <- En. now apply nth_In. }
      assert (Eb : b = repeat false n).
      { apply (list_ext_nth _ _ false); [now rewrite repeat_length|]. intros i Hi. rewrite nth_repeat. destruct (nth i b false) eqn:En; [|reflexivity]. exfalso.
        assert (G : forall b a ms i, okcap b a ms -> length b = length ms -> length a = length ms -> nth i b false = true -> nth i a false = true).
        { clear. induction b as [|x b IH]; intros [|y a] [|m ms] i O L1 L2 H; cbn [length] in *; try lia; [destruct i; discriminate|]. cbn [okcap] in O. destruct i; cbn [nth] in *; [now apply O|]. apply (IH a ms); [apply O|lia|lia|exact H]. }
        pose proof (G b a ms i O ltac:(lia) ltac:(lia) En) as G'. rewrite Ea, nth_repeat in G'. discriminate. }
      assert (A0 : A = 0). { pose proof (pow2_pos (Z.of_nat n) ltac:(lia)). apply (mb_inj A 0 n); [exact HA|lia|]. fold a. now rewrite Ea, mb_zero. }
      assert (B0 : B = 0). { pose proof (pow2_pos (Z.of_nat n) ltac:(lia)). apply (mb_inj B 0 n); [exact HB|lia|]. fold b. now rewrite Eb, mb_zero. }
      rewrite A0, B0 in *. destruct (caps_first n) as [r Er]. rewrite Er in Bc. cbn [before] in Bc. rewrite (proj2 (ceqb_true (0, 0) (0, 0)) eq_refl) in Bc.
      rewrite wt_first in Bc by assumption. lia. }
    pose proof (keep_lt a ms ltac:(lia) Ht1) as Lt.
    destruct (IHn (length (keep a ms)) ltac:(lia) (keep a ms) eq_refl ltac:(lia) (s - 1) ltac:(lia) (m - before (wt n s (val ms)) (B, A) (all_caps n)) ltac:(lia)) as (y & Ly & Fy & Ey).
    assert (By : absmax y <= s - 1).
    { destruct (Z.le_gt_cases (absmax y) (s - 1)); [assumption|]. destruct (ix_shell _ y (keep a ms) eq_refl ltac:(lia) Fy) as [_ D].
      specialize (D (s - 1) ltac:(lia)). lia. }
    destruct (rebuild_spec s a b y ms ltac:(lia) ltac:(lia) ltac:(lia) ltac:(rewrite Ly; apply keep_length; lia) ltac:(intros v Hv; pose proof (absmax_ge y v Hv); lia) O Fy) as (E1 & E2 & E3 & E4 & E5 & E6).
    set (x := rebuild s a b y) in *. exists x. split; [lia|]. split; [exact E5|].
    assert (Sx : absmax x = s).
    { assert (absmax x <= s) by (apply absmax_le; [lia|exact E6]). rewrite <- E2 in Ht1. unfold hits in Ht1. apply in_map_iff in Ht1. destruct Ht1 as (v & Ev & Hv). apply Z.eqb_eq in Ev.
      pose proof (absmax_ge x v Hv). lia. }
    rewrite (ix_step x ms s Sx ltac:(lia)), E2, E3, E4, E1, La. unfold a, b. rewrite !val_mb by assumption. fold a. lia.
Qed.
