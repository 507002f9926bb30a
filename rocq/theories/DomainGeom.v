From Coq Require Import List Arith ZArith QArith Qround Lqa Lia Bool Sorted.
From Verif Require Import Base ListFacts WrapModel WrapProofs DomainModel.
Import ListNotations.
Local Close Scope Q_scope.
Local Open Scope Z_scope.

Definition E (e : list Q) (i : nat) : Q := nth i e 0%Q.
Definition iz (z : Z) : Q := inject_Z z.

(** edges of one axis: at least one domain, increasing, from 0 to a positive period *)
Record axis_ok (e : list Q) : Prop := {
  ax_len : (2 <= length e)%nat;
  ax_sorted : StronglySorted Qle e;
  ax_zero : (E e 0 == 0)%Q;
  ax_pos : (0 < period e)%Q
}.

(* ---------- remainder ---------- *)

Lemma qrem_bounds x L : (0 < L)%Q -> (0 <= qrem x L)%Q /\ (qrem x L < L)%Q.
Proof.
  intros HL. unfold qrem.
  assert (H1 := Qfloor_le (x / L)). assert (H2 := Qlt_floor (x / L)).
  assert (Hx : (x == L * (x / L))%Q) by (field; lra).
  assert (H3 : (L * inject_Z (Qfloor (x / L)) <= L * (x / L))%Q).
  { apply Qmult_le_l; lra. }
  assert (H4 : (L * (x / L) < L * inject_Z (Qfloor (x / L) + 1))%Q).
  { apply Qmult_lt_l; lra. }
  rewrite inject_Z_plus in H4.
  split; [lra|]. change (inject_Z 1) with 1%Q in H4. lra.
Qed.

Lemma qrem_shift x L : exists m, (qrem x L == x + iz m * L)%Q.
Proof.
  exists (- Qfloor (x / L)). unfold qrem, iz. rewrite inject_Z_opp. ring.
Qed.

Lemma iz_plus a b : (iz (a + b) == iz a + iz b)%Q.
Proof. unfold iz. rewrite inject_Z_plus. reflexivity. Qed.
Lemma iz_opp a : (iz (- a) == - iz a)%Q.
Proof. unfold iz. rewrite inject_Z_opp. reflexivity. Qed.

Lemma iz_lt a b : (iz a < iz b)%Q <-> a < b.
Proof. unfold iz. rewrite <- Zlt_Qlt. reflexivity. Qed.
Lemma iz_le a b : (iz a <= iz b)%Q <-> a <= b.
Proof. unfold iz. rewrite <- Zle_Qle. reflexivity. Qed.

(** two numbers of [0, L) that differ by a multiple of L are equal *)
Lemma mult_small L m d : (0 < L)%Q -> (- L < d)%Q -> (d < L)%Q -> (d == iz m * L)%Q -> m = 0.
Proof.
  intros HL H1 H2 H3.
  destruct (Z_lt_le_dec m 1) as [Ha|Ha].
  - destruct (Z_lt_le_dec (-1) m) as [Hb|Hb]; [lia|].
    assert (iz m <= iz (-1))%Q by now apply iz_le.
    assert (iz m * L <= iz (-1) * L)%Q by (apply Qmult_le_compat_r; lra).
    change (iz (-1)) with (-(1))%Q in *. lra.
  - assert (iz 1 <= iz m)%Q by now apply iz_le.
    assert (iz 1 * L <= iz m * L)%Q by (apply Qmult_le_compat_r; lra).
    change (iz 1) with 1%Q in *. lra.
Qed.

Lemma qrem_unique x L z m : (0 < L)%Q -> (0 <= z)%Q -> (z < L)%Q -> (z == x + iz m * L)%Q -> (qrem x L == z)%Q.
Proof.
  intros HL H0 H1 H2. destruct (qrem_bounds x L HL) as [B1 B2]. destruct (qrem_shift x L) as [k Hk].
  assert (k - m = 0).
  { apply (mult_small L (k - m) (qrem x L - z)); [assumption|lra|lra|].
    unfold Z.sub. rewrite iz_plus, iz_opp, Hk, H2. ring. }
  assert (k = m) by lia. subst. rewrite Hk, H2. reflexivity.
Qed.

(* ---------- digitize ---------- *)

Lemma digitize_Qeq x y e : (x == y)%Q -> digitize x e = digitize y e.
Proof.
  intros H. unfold digitize. do 2 f_equal. apply filter_ext. intros a.
  apply Bool.eq_iff_eq_true. rewrite !Qle_bool_iff. now rewrite H.
Qed.

Lemma digitize_spec x e : StronglySorted Qle e ->
  exists k, digitize x e = Z.of_nat k /\ (k <= length e)%nat /\
    (forall i, (i < k)%nat -> (E e i <= x)%Q) /\
    (forall i, (k <= i)%nat -> (i < length e)%nat -> (x < E e i)%Q).
Proof.
  unfold digitize, E. induction 1 as [|a l Hs IH Hf].
  - exists 0%nat. simpl. repeat split; intros; lia.
  - destruct IH as (k & Hk & Hl & H1 & H2). simpl.
    destruct (Qle_bool a x) eqn:B.
    + apply Qle_bool_iff in B. exists (S k). simpl length. split; [lia|]. split; [lia|]. split.
      * intros [|i] Hi; simpl; [assumption|]. apply H1. lia.
      * intros [|i] Hi Hi'; simpl; [lia|]. apply H2; lia.
    + assert (Hx : (x < a)%Q).
      { apply Qnot_le_lt. intros C. apply Qle_bool_iff in C. congruence. }
      exists 0%nat.
      assert (Hn : filter (fun e => Qle_bool e x) l = []).
      { apply filter_none. intros b Hb. rewrite Forall_forall in Hf. specialize (Hf b Hb).
        destruct (Qle_bool b x) eqn:C; [|reflexivity]. apply Qle_bool_iff in C. lra. }
      rewrite Hn. split; [reflexivity|]. split; [lia|]. split; [intros; lia|].
      intros [|i] _ Hi; simpl; [assumption|]. simpl in Hi.
      rewrite Forall_forall in Hf. assert (Hin : In (nth i l 0%Q) l) by (apply nth_In; lia).
      specialize (Hf _ Hin). lra.
Qed.

Lemma sorted_nth e i j : StronglySorted Qle e -> (i <= j)%nat -> (j < length e)%nat -> (E e i <= E e j)%Q.
Proof.
  intros Hs. unfold E. revert i j. induction Hs as [|a l Hs IH Hf]; intros i j Hij Hj; [simpl in Hj; lia|].
  simpl in Hj. destruct i as [|i], j as [|j]; simpl.
  - apply Qle_refl.
  - rewrite Forall_forall in Hf. apply Hf. apply nth_In. lia.
  - lia.
  - apply IH; lia.
Qed.

Lemma period_E e : (1 <= length e)%nat -> period e = E e (length e - 1).
Proof.
  unfold period, E. induction e as [|a e IH]; intros H; [simpl in H; lia|].
  destruct e as [|b e]; [reflexivity|]. change (last (a :: b :: e) 0%Q) with (last (b :: e) 0%Q).
  rewrite IH by (simpl; lia). simpl length. replace (S (S (length e)) - 1)%nat with (S (S (length e) - 1)) by lia.
  reflexivity.
Qed.

Section Axis.
Context (e : list Q) (He : axis_ok e).
Local Notation L := (period e).
Local Notation n := (length e - 1)%nat.
Let HL := ax_pos e He.
Let Hs := ax_sorted e He.
Let Hlen := ax_len e He.

Lemma ndom_n : ndom e = Z.of_nat n.
Proof. unfold ndom. lia. Qed.

Lemma E_last : E e n = L.
Proof. symmetry. apply period_E. lia. Qed.

(** the domain of a point of [0, L) *)
Lemma digitize_own x : (0 <= x)%Q -> (x < L)%Q ->
  exists k, digitize x e = Z.of_nat (S k) /\ (k < n)%nat /\ (E e k <= x)%Q /\ (x < E e (S k))%Q.
Proof.
  intros H0 H1. destruct (digitize_spec x e Hs) as (k & Hk & Hkl & Ha & Hb).
  assert (k <> 0)%nat.
  { intros ->. specialize (Hb 0%nat (le_n _) ltac:(lia)). rewrite (ax_zero e He) in Hb. lra. }
  assert (k <= n)%nat.
  { destruct (le_lt_dec k n) as [?|Hk']; [assumption|].
    specialize (Ha n Hk'). rewrite E_last in Ha. lra. }
  exists (k - 1)%nat. replace (S (k - 1)) with k by lia.
  split; [assumption|]. split; [lia|]. split; [apply Ha; lia|apply Hb; lia].
Qed.

Lemma digitize_at k x : (k < n)%nat -> (E e k <= x)%Q -> (x < E e (S k))%Q -> digitize x e = Z.of_nat (S k).
Proof.
  intros Hk H1 H2. destruct (digitize_spec x e Hs) as (j & Hj & Hjl & Ha & Hb). rewrite Hj. f_equal.
  destruct (lt_eq_lt_dec j (S k)) as [[Hlt|Heq]|Hgt]; [|exact Heq|].
  - specialize (Hb k ltac:(lia) ltac:(lia)). lra.
  - specialize (Ha (S k) Hgt). lra.
Qed.

Lemma E_mono i j : (i <= j)%nat -> (j <= n)%nat -> (E e i <= E e j)%Q.
Proof. intros. apply sorted_nth; [assumption|assumption|lia]. Qed.

Lemma E_nonneg i : (i <= n)%nat -> (0 <= E e i)%Q.
Proof. intros H. rewrite <- (ax_zero e He). apply E_mono; lia. Qed.
Lemma E_le_L i : (i <= n)%nat -> (E e i <= L)%Q.
Proof. intros H. rewrite <- E_last. apply E_mono; lia. Qed.

(** order of domains follows order of points *)
Lemma own_mono j k x y : (j < n)%nat -> (k < n)%nat -> (E e j <= x)%Q -> (y < E e (S k))%Q -> (x <= y)%Q -> (j <= k)%nat.
Proof.
  intros Hj Hk H1 H2 H3. destruct (le_lt_dec j k) as [?|Hlt]; [assumption|].
  assert (E e (S k) <= E e j)%Q by (apply E_mono; lia). lra.
Qed.

(** domain [k] contains a point of the closed interval [x - s, x + s] modulo the period *)
Definition meets1 (s x : Q) (k : nat) : Prop :=
  exists y m, (x - s <= y)%Q /\ (y <= x + s)%Q /\ (E e k <= y + iz m * L)%Q /\ (y + iz m * L < E e (S k))%Q.

(** the smoothing length leaves a gap outside of the own domain, or the own
    domain is the whole axis *)
Definition gap_ok (s x : Q) : Prop :=
  forall k, (k < n)%nat -> (E e k <= qrem x L)%Q -> (qrem x L < E e (S k))%Q ->
    (s + (E e (S k) - E e k) <= L)%Q \/ (E e (S k) - E e k == L)%Q.

Lemma mod_n_small a : 0 <= a < Z.of_nat n -> a mod Z.of_nat n = a.
Proof. intros. apply Z.mod_small. assumption. Qed.
Lemma mod_n_neg a : - Z.of_nat n <= a < 0 -> a mod Z.of_nat n = a + Z.of_nat n.
Proof.
  intros. symmetry. apply (Z.mod_unique a (Z.of_nat n) (-1)); [left; lia|lia].
Qed.

Lemma patch_own s x : exists j, (j < n)%nat /\ (E e j <= qrem x L)%Q /\ (qrem x L < E e (S j))%Q /\
  fst (patch_periodic e s x) <= Z.of_nat j < snd (patch_periodic e s x).
Proof.
  destruct (qrem_bounds x L HL) as [B1 B2].
  destruct (digitize_own (qrem x L) B1 B2) as (j & Hp & Hj & H1 & H2).
  exists j. split; [assumption|]. split; [assumption|]. split; [assumption|].
  unfold patch_periodic. cbv zeta. rewrite Hp. cbn [fst snd]. rewrite ndom_n.
  assert (0 < Z.of_nat n) by lia.
  pose proof (Z.mod_pos_bound (Z.of_nat (S j) - digitize (qrem (qrem x L - s) L) e) (Z.of_nat n) H).
  pose proof (Z.mod_pos_bound (digitize (qrem (qrem x L + s) L) e - Z.of_nat (S j)) (Z.of_nat n) H).
  lia.
Qed.

Lemma mod_shift_up k : (k < n)%nat -> (Z.of_nat k + Z.of_nat n) mod Z.of_nat n = Z.of_nat k.
Proof.
  intros. symmetry. apply (Z.mod_unique _ _ 1); [left; lia|lia].
Qed.
Lemma mod_shift_down k : (k < n)%nat -> (Z.of_nat k - Z.of_nat n) mod Z.of_nat n = Z.of_nat k.
Proof.
  intros. symmetry. apply (Z.mod_unique _ _ (-1)); [left; lia|lia].
Qed.

Lemma iz0 : (iz 0 == 0)%Q. Proof. reflexivity. Qed.
Lemma iz1 : (iz 1 == 1)%Q. Proof. reflexivity. Qed.
Lemma izm1 : (iz (-1) == -(1))%Q. Proof. reflexivity. Qed.

Lemma patch_covers s x k : (0 <= s)%Q -> gap_ok s x -> (k < n)%nat -> meets1 s x k ->
  exists t, fst (patch_periodic e s x) <= t < snd (patch_periodic e s x) /\ t mod ndom e = Z.of_nat k.
Proof.
  intros Hs0 Hgap Hk (y & m & Hy1 & Hy2 & Hz1 & Hz2).
  destruct (qrem_bounds x L HL) as [B1 B2].
  destruct (patch_own s x) as (j & Hj & Hj1 & Hj2 & Hpo).
  destruct (Hgap j Hj Hj1 Hj2) as [Hg|Hg].
  2: { (* the own domain is everything *)
    assert (k = j).
    { assert (E0 : (E e 0 == 0)%Q) by apply (ax_zero e He).
      assert (A1 : (0 <= E e j)%Q) by (apply E_nonneg; lia).
      assert (A2 : (E e (S j) <= L)%Q) by (apply E_le_L; lia).
      destruct (lt_eq_lt_dec k j) as [[Hlt|?]|Hgt]; [exfalso|assumption|exfalso].
      - assert (E e (S k) <= E e j)%Q by (apply E_mono; lia).
        assert (0 <= E e k)%Q by (apply E_nonneg; lia). lra.
      - assert (E e (S j) <= E e k)%Q by (apply E_mono; lia).
        assert (E e (S k) <= L)%Q by (apply E_le_L; lia). lra. }
    subst k. exists (Z.of_nat j). split; [assumption|]. rewrite ndom_n. apply mod_n_small. lia. }
  unfold patch_periodic in *. cbv zeta in *. rewrite ndom_n in *.
  set (c := qrem x L) in *. set (z := (y + iz m * L)%Q) in *.
  destruct (qrem_shift x L) as [a Ha]. fold c in Ha.
  assert (Hp : digitize c e = Z.of_nat (S j)) by (apply digitize_at; assumption).
  rewrite Hp in *. cbn [fst snd] in *.
  assert (Ek0 : (0 <= E e k)%Q) by (apply E_nonneg; lia).
  assert (EkL : (E e (S k) <= L)%Q) by (apply E_le_L; lia).
  assert (Ej0 : (0 <= E e j)%Q) by (apply E_nonneg; lia).
  assert (EjL : (E e (S j) <= L)%Q) by (apply E_le_L; lia).
  set (d := (y - x)%Q).
  assert (Hzc : (z == c + d + iz (m - a) * L)%Q).
  { unfold z, d, Z.sub. rewrite iz_plus, iz_opp, Ha. ring. }
  assert (Hd1 : (- s <= d)%Q) by (unfold d; lra).
  assert (Hd2 : (d <= s)%Q) by (unfold d; lra).
  assert (HsL : (s < L)%Q) by lra.
  assert (Hm : m - a = 0 \/ m - a = 1 \/ m - a = -1).
  { assert (m - a < 2).
    { apply iz_lt. apply Qnot_le_lt. intros C.
      assert (iz 2 * L <= iz (m - a) * L)%Q by (apply Qmult_le_compat_r; lra).
      change (iz 2) with 2%Q in *. lra. }
    assert (-2 < m - a).
    { apply iz_lt. apply Qnot_le_lt. intros C.
      assert (iz (m - a) * L <= iz (-2) * L)%Q by (apply Qmult_le_compat_r; lra).
      change (iz (-2)) with (-(2))%Q in *. lra. }
    lia. }
  destruct (Qlt_le_dec d 0) as [Hdn|Hdp].
  - (* left side *)
    destruct (Qlt_le_dec (c - s) 0) as [Hw|Hw].
    + (* wraps *)
      assert (Hl : (qrem (c - s) L == c - s + L)%Q).
      { apply (qrem_unique _ _ _ 1); [assumption|lra|lra|rewrite iz1; lra]. }
      rewrite (digitize_Qeq _ _ e Hl) in *.
      destruct (digitize_own (c - s + L)%Q ltac:(lra) ltac:(lra)) as (l & El & Hln & Hl1 & Hl2).
      rewrite El in *.
      assert (Hjl : (j < l)%nat).
      { destruct (le_lt_dec l j) as [C|C]; [|assumption].
        assert (E e (S l) <= E e (S j))%Q by (apply E_mono; lia). lra. }
      rewrite (mod_n_neg (Z.of_nat (S j) - Z.of_nat (S l))) in * by lia.
      destruct Hm as [Hm|[Hm|Hm]]; rewrite Hm in Hzc.
      * rewrite iz0 in Hzc. exists (Z.of_nat k).
        assert (k <= j)%nat by (apply (own_mono k j z c); try assumption; lra).
        split; [lia|]. apply mod_n_small. lia.
      * rewrite iz1 in Hzc. exists (Z.of_nat k - Z.of_nat n).
        assert (l <= k)%nat by (apply (own_mono l k (c - s + L)%Q z); try assumption; lra).
        split; [lia|]. now apply mod_shift_down.
      * rewrite izm1 in Hzc. exfalso. lra.
    + assert (Hl : (qrem (c - s) L == c - s)%Q).
      { apply (qrem_unique _ _ _ 0); [assumption|lra|lra|rewrite iz0; lra]. }
      rewrite (digitize_Qeq _ _ e Hl) in *.
      destruct (digitize_own (c - s)%Q ltac:(lra) ltac:(lra)) as (l & El & Hln & Hl1 & Hl2).
      rewrite El in *.
      assert (Hlj : (l <= j)%nat) by (apply (own_mono l j (c - s)%Q c); try assumption; lra).
      rewrite (mod_n_small (Z.of_nat (S j) - Z.of_nat (S l))) in * by lia.
      destruct Hm as [Hm|[Hm|Hm]]; rewrite Hm in Hzc.
      * rewrite iz0 in Hzc. exists (Z.of_nat k).
        assert (k <= j)%nat by (apply (own_mono k j z c); try assumption; lra).
        assert (l <= k)%nat by (apply (own_mono l k (c - s)%Q z); try assumption; lra).
        split; [lia|]. apply mod_n_small. lia.
      * rewrite iz1 in Hzc. exfalso. lra.
      * rewrite izm1 in Hzc. exfalso. lra.
  - (* right side *)
    destruct (Qlt_le_dec (c + s) L) as [Hw|Hw].
    + assert (Hr : (qrem (c + s) L == c + s)%Q).
      { apply (qrem_unique _ _ _ 0); [assumption|lra|lra|rewrite iz0; lra]. }
      rewrite (digitize_Qeq _ _ e Hr) in *.
      destruct (digitize_own (c + s)%Q ltac:(lra) ltac:(lra)) as (r & Er & Hrn & Hr1 & Hr2).
      rewrite Er in *.
      assert (Hjr : (j <= r)%nat) by (apply (own_mono j r c (c + s)%Q); try assumption; lra).
      rewrite (mod_n_small (Z.of_nat (S r) - Z.of_nat (S j))) in * by lia.
      destruct Hm as [Hm|[Hm|Hm]]; rewrite Hm in Hzc.
      * rewrite iz0 in Hzc. exists (Z.of_nat k).
        assert (j <= k)%nat by (apply (own_mono j k c z); try assumption; lra).
        assert (k <= r)%nat by (apply (own_mono k r z (c + s)%Q); try assumption; lra).
        split; [lia|]. apply mod_n_small. lia.
      * rewrite iz1 in Hzc. exfalso. lra.
      * rewrite izm1 in Hzc. exfalso. lra.
    + assert (Hr : (qrem (c + s) L == c + s - L)%Q).
      { apply (qrem_unique _ _ _ (-1)); [assumption|lra|lra|rewrite izm1; lra]. }
      rewrite (digitize_Qeq _ _ e Hr) in *.
      destruct (digitize_own (c + s - L)%Q ltac:(lra) ltac:(lra)) as (r & Er & Hrn & Hr1 & Hr2).
      rewrite Er in *.
      assert (Hrj : (r < j)%nat).
      { destruct (le_lt_dec j r) as [C|C]; [|assumption].
        assert (E e j <= E e r)%Q by (apply E_mono; lia). lra. }
      rewrite (mod_n_neg (Z.of_nat (S r) - Z.of_nat (S j))) in * by lia.
      destruct Hm as [Hm|[Hm|Hm]]; rewrite Hm in Hzc.
      * rewrite iz0 in Hzc. exists (Z.of_nat k).
        assert (j <= k)%nat by (apply (own_mono j k c z); try assumption; lra).
        split; [lia|]. apply mod_n_small. lia.
      * rewrite iz1 in Hzc. exfalso. lra.
      * rewrite izm1 in Hzc. exists (Z.of_nat k + Z.of_nat n).
        assert (k <= r)%nat by (apply (own_mono k r z (c + s - L)%Q); try assumption; lra).
        split; [lia|]. now apply mod_shift_up.
Qed.

(** the point found by the converse lies in the domain, or is the single point
    of a domain of zero width *)
Definition touches1 (s x : Q) (k : nat) : Prop :=
  exists y m, (x - s <= y)%Q /\ (y <= x + s)%Q /\ (E e k <= y + iz m * L)%Q /\
    ((y + iz m * L < E e (S k))%Q \/ ((E e k == E e (S k))%Q /\ (y + iz m * L == E e k)%Q)).

Lemma touches_from s x k z : (0 <= s)%Q -> (k < n)%nat ->
  (E e k <= z)%Q -> ((z < E e (S k))%Q \/ ((E e k == E e (S k))%Q /\ (z == E e k)%Q)) ->
  (exists m, (qrem x L - s <= z + iz m * L)%Q /\ (z + iz m * L <= qrem x L + s)%Q) -> touches1 s x k.
Proof.
  intros Hs0 Hk H1 H2 (m & H3 & H4). destruct (qrem_shift x L) as [a Ha].
  exists (z + iz m * L - iz a * L)%Q, (a - m).
  assert (EE : (z + iz m * L - iz a * L + iz (a - m) * L == z)%Q).
  { unfold Z.sub. rewrite iz_plus, iz_opp. ring. }
  rewrite Ha in H3, H4. split; [lra|]. split; [lra|]. rewrite EE. split; assumption.
Qed.

Lemma corner_touch k : (k < n)%nat -> (E e k < E e (S k))%Q \/ ((E e k == E e (S k))%Q /\ (E e k == E e k)%Q).
Proof.
  intros Hk. assert (E e k <= E e (S k))%Q by (apply E_mono; lia).
  destruct (Qlt_le_dec (E e k) (E e (S k))); [now left|]. right. split; [lra|reflexivity].
Qed.

Lemma patch_tight s x t k : (0 <= s)%Q -> (k < n)%nat ->
  fst (patch_periodic e s x) <= t < snd (patch_periodic e s x) -> t mod ndom e = Z.of_nat k ->
  touches1 s x k.
Proof.
  intros Hs0 Hk Ht Htk.
  destruct (qrem_bounds x L HL) as [B1 B2].
  destruct (patch_own s x) as (j & Hj & Hj1 & Hj2 & Hpo).
  assert (Ek0 : (0 <= E e k)%Q) by (apply E_nonneg; lia).
  assert (EkL : (E e k <= L)%Q) by (apply E_le_L; lia).
  unfold patch_periodic in *. cbv zeta in *. rewrite ndom_n in *.
  set (c := qrem x L) in *.
  assert (Hp : digitize c e = Z.of_nat (S j)) by (apply digitize_at; assumption).
  rewrite Hp in *. cbn [fst snd] in *.
  assert (Ej0 : (0 <= E e j)%Q) by (apply E_nonneg; lia).
  assert (EjL : (E e (S j) <= L)%Q) by (apply E_le_L; lia).
  destruct (Qlt_le_dec s L) as [HsL|HsL].
  2: { apply (touches_from s x k (E e k)); try assumption; [apply Qle_refl|now apply corner_touch|].
       exists 0. fold c. rewrite iz0. split; lra. }
  destruct (Z.eq_dec t (Z.of_nat j)) as [Et|Hne].
  - assert (k = j). { rewrite Et in Htk. rewrite mod_n_small in Htk by lia. lia. }
    subst k. apply (touches_from s x j c); try assumption; [left; assumption|].
    exists 0. fold c. rewrite iz0. split; lra.
  - destruct (Z_lt_le_dec t (Z.of_nat j)) as [Hlt|Hge].
    + (* left *)
      destruct (Qlt_le_dec (c - s) 0) as [Hw|Hw].
      * assert (Hl : (qrem (c - s) L == c - s + L)%Q).
        { apply (qrem_unique _ _ _ 1); [assumption|lra|lra|rewrite iz1; lra]. }
        rewrite (digitize_Qeq _ _ e Hl) in *.
        destruct (digitize_own (c - s + L)%Q ltac:(lra) ltac:(lra)) as (l & El & Hln & Hl1 & Hl2).
        rewrite El in *.
        assert (Hjl : (j <= l)%nat) by (apply (own_mono j l c (c - s + L)%Q); try assumption; lra).
        destruct (Nat.eq_dec j l) as [->|Hjl'].
        { rewrite Z.sub_diag, Zmod_0_l in *. lia. }
        rewrite (mod_n_neg (Z.of_nat (S j) - Z.of_nat (S l))) in * by lia.
        destruct (Z_lt_le_dec t 0) as [Ht0|Ht0].
        { assert (Z.of_nat k = t + Z.of_nat n) by (rewrite <- Htk; apply mod_n_neg; lia).
          destruct (Nat.eq_dec k l) as [->|Hkl].
          - apply (touches_from s x l (c - s + L)%Q); try assumption; [left; assumption|].
            exists (-1). fold c. rewrite izm1. split; lra.
          - assert (E e (S l) <= E e k)%Q by (apply E_mono; lia).
            apply (touches_from s x k (E e k)); try assumption; [apply Qle_refl|now apply corner_touch|].
            exists (-1). fold c. rewrite izm1. split; lra. }
        { assert (Z.of_nat k = t) by (rewrite <- Htk; apply mod_n_small; lia).
          assert (E e k <= E e j)%Q by (apply E_mono; lia).
          apply (touches_from s x k (E e k)); try assumption; [apply Qle_refl|now apply corner_touch|].
          exists 0. fold c. rewrite iz0. split; lra. }
      * assert (Hl : (qrem (c - s) L == c - s)%Q).
        { apply (qrem_unique _ _ _ 0); [assumption|lra|lra|rewrite iz0; lra]. }
        rewrite (digitize_Qeq _ _ e Hl) in *.
        destruct (digitize_own (c - s)%Q ltac:(lra) ltac:(lra)) as (l & El & Hln & Hl1 & Hl2).
        rewrite El in *.
        assert (Hlj : (l <= j)%nat) by (apply (own_mono l j (c - s)%Q c); try assumption; lra).
        rewrite (mod_n_small (Z.of_nat (S j) - Z.of_nat (S l))) in * by lia.
        assert (Z.of_nat k = t) by (rewrite <- Htk; apply mod_n_small; lia).
        assert (E e k <= E e j)%Q by (apply E_mono; lia).
        destruct (Nat.eq_dec k l) as [->|Hkl].
        { apply (touches_from s x l (c - s)%Q); try assumption; [left; assumption|].
          exists 0. fold c. rewrite iz0. split; lra. }
        { assert (E e (S l) <= E e k)%Q by (apply E_mono; lia).
          apply (touches_from s x k (E e k)); try assumption; [apply Qle_refl|now apply corner_touch|].
          exists 0. fold c. rewrite iz0. split; lra. }
    + (* right *)
      assert (Z.of_nat j < t) by lia.
      destruct (Qlt_le_dec (c + s) L) as [Hw|Hw].
      * assert (Hr : (qrem (c + s) L == c + s)%Q).
        { apply (qrem_unique _ _ _ 0); [assumption|lra|lra|rewrite iz0; lra]. }
        rewrite (digitize_Qeq _ _ e Hr) in *.
        destruct (digitize_own (c + s)%Q ltac:(lra) ltac:(lra)) as (r & Er & Hrn & Hr1 & Hr2).
        rewrite Er in *.
        assert (Hjr : (j <= r)%nat) by (apply (own_mono j r c (c + s)%Q); try assumption; lra).
        rewrite (mod_n_small (Z.of_nat (S r) - Z.of_nat (S j))) in * by lia.
        assert (Z.of_nat k = t) by (rewrite <- Htk; apply mod_n_small; lia).
        assert (E e (S j) <= E e k)%Q by (apply E_mono; lia).
        assert (E e k <= E e r)%Q by (apply E_mono; lia).
        apply (touches_from s x k (E e k)); try assumption; [apply Qle_refl|now apply corner_touch|].
        exists 0. fold c. rewrite iz0. split; lra.
      * assert (Hr : (qrem (c + s) L == c + s - L)%Q).
        { apply (qrem_unique _ _ _ (-1)); [assumption|lra|lra|rewrite izm1; lra]. }
        rewrite (digitize_Qeq _ _ e Hr) in *.
        destruct (digitize_own (c + s - L)%Q ltac:(lra) ltac:(lra)) as (r & Er & Hrn & Hr1 & Hr2).
        rewrite Er in *.
        assert (Hrj : (r <= j)%nat) by (apply (own_mono r j (c + s - L)%Q c); try assumption; lra).
        destruct (Nat.eq_dec r j) as [->|Hrj'].
        { rewrite Z.sub_diag, Zmod_0_l in *. lia. }
        rewrite (mod_n_neg (Z.of_nat (S r) - Z.of_nat (S j))) in * by lia.
        destruct (Z_lt_le_dec t (Z.of_nat n)) as [Htn|Htn].
        { assert (Z.of_nat k = t) by (rewrite <- Htk; apply mod_n_small; lia).
          assert (E e (S j) <= E e k)%Q by (apply E_mono; lia).
          apply (touches_from s x k (E e k)); try assumption; [apply Qle_refl|now apply corner_touch|].
          exists 0. fold c. rewrite iz0. split; lra. }
        { assert (Z.of_nat k = t - Z.of_nat n).
          { rewrite <- Htk. symmetry. apply (Z.mod_unique _ _ 1); [left; lia|lia]. }
          assert (E e k <= E e r)%Q by (apply E_mono; lia).
          apply (touches_from s x k (E e k)); try assumption; [apply Qle_refl|now apply corner_touch|].
          exists 1. fold c. rewrite iz1. split; lra. }
Qed.

Lemma patch_zero s x : (s == 0)%Q -> exists j, (j < n)%nat /\ (E e j <= qrem x L)%Q /\ (qrem x L < E e (S j))%Q /\
  patch_periodic e s x = (Z.of_nat j, Z.of_nat j + 1).
Proof.
  intros Hs0. destruct (qrem_bounds x L HL) as [B1 B2].
  destruct (digitize_own (qrem x L) B1 B2) as (j & Hp & Hj & H1 & H2).
  exists j. split; [assumption|]. split; [assumption|]. split; [assumption|].
  unfold patch_periodic. cbv zeta.
  set (c := qrem x L) in *.
  assert (Hl : (qrem (c - s) L == c)%Q) by (apply (qrem_unique _ _ _ 0); [assumption|lra|lra|rewrite iz0; lra]).
  assert (Hr : (qrem (c + s) L == c)%Q) by (apply (qrem_unique _ _ _ 0); [assumption|lra|lra|rewrite iz0; lra]).
  rewrite (digitize_Qeq _ _ e Hl), (digitize_Qeq _ _ e Hr), Hp, Z.sub_diag, Zmod_0_l. f_equal; lia.
Qed.

(** meeting is the same as touching for a domain of positive width *)
Lemma touches_meets s x k : (E e k < E e (S k))%Q -> touches1 s x k -> meets1 s x k.
Proof.
  intros Hw (y & m & H1 & H2 & H3 & [H4|[H4 _]]); [|lra]. exists y, m. repeat split; assumption.
Qed.

End Axis.

(* ---------- an axis that is not periodic ---------- *)

Record open_axis_ok (e : list Q) : Prop := {
  oa_len : (2 <= length e)%nat;
  oa_sorted : StronglySorted Qle e
}.

Section Open.
Context (e : list Q) (He : open_axis_ok e).
Local Notation n := (length e - 1)%nat.

Lemma patch_open_bounds s x : (0 <= s)%Q ->
  0 <= fst (patch_open e s x) <= snd (patch_open e s x) /\ snd (patch_open e s x) <= Z.of_nat n.
Proof.
  intros Hs0. unfold patch_open, clip. cbv zeta. cbn [fst snd].
  assert (Hlen := oa_len e He). assert (HS := oa_sorted e He).
  destruct (digitize_spec (x - s)%Q e HS) as (l & El & Hl & Hl1 & Hl2).
  destruct (digitize_spec (x + s)%Q e HS) as (r & Er & Hr & Hr1 & Hr2).
  rewrite El, Er. unfold ndom.
  assert (l <= r)%nat.
  { destruct (le_lt_dec l r) as [?|C]; [assumption|].
    specialize (Hl1 r C). specialize (Hr2 r (le_n _) ltac:(lia)). lra. }
  lia.
Qed.

Lemma patch_open_spec s x k : (0 <= s)%Q -> (k < n)%nat ->
  (fst (patch_open e s x) <= Z.of_nat k < snd (patch_open e s x) <->
   (E e k <= x + s)%Q /\ ((x - s < E e (S k))%Q)).
Proof.
  intros Hs0 Hk. unfold patch_open, clip. cbv zeta. cbn [fst snd].
  assert (Hlen := oa_len e He). assert (HS := oa_sorted e He).
  destruct (digitize_spec (x - s)%Q e HS) as (l & El & Hl & Hl1 & Hl2).
  destruct (digitize_spec (x + s)%Q e HS) as (r & Er & Hr & Hr1 & Hr2).
  rewrite El, Er. unfold ndom. split.
  - intros Hb. split.
    + apply Hr1. lia.
    + apply Hl2; lia.
  - intros [H1 H2].
    assert (k < r)%nat.
    { destruct (le_lt_dec r k) as [C|?]; [|assumption]. specialize (Hr2 k C ltac:(lia)). lra. }
    assert (l <= S k)%nat.
    { destruct (le_lt_dec l (S k)) as [?|C]; [assumption|]. specialize (Hl1 (S k) C). lra. }
    lia.
Qed.
End Open.
