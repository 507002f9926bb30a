(** GridND in floating point: coverage of an axis, any monotone rounding. *)
From Coq Require Import List Arith ZArith QArith Qround Qabs Lqa Lia Bool Sorted.
From Verif Require Import Base ListFacts LayoutModel LayoutSpec LayoutProofs WrapModel WrapProofs
  DomainModel DomainFill DomainGeom DomainTargets DomainHome FloatModel.
Import ListNotations.
Local Close Scope Q_scope.
Local Open Scope Z_scope.

Section Rounding.
Variable rnd : Q -> Q.
(** what is needed of a rounding: it keeps the order, and zero is a number *)
Record rounding : Prop := {
  rd_mono : forall x y, (x <= y)%Q -> (rnd x <= rnd y)%Q;
  rd_zero : (rnd 0 == 0)%Q
}.
Hypothesis R : rounding.

Lemma rnd_compat x y : (x == y)%Q -> (rnd x == rnd y)%Q.
Proof. intros H. apply Qle_antisym; apply (rd_mono R); rewrite H; apply Qle_refl. Qed.

Lemma qrem_eq_small x L : (0 < L)%Q -> (0 <= x)%Q -> (x < L)%Q -> (qrem x L == x)%Q.
Proof. intros HL H0 H1. apply (qrem_unique x L x 0); [exact HL|exact H0|exact H1|]. change (iz 0) with 0%Q. ring. Qed.

Lemma fmod_pos x L : (0 < L)%Q -> (0 <= x)%Q -> fmod x L = qrem x L.
Proof.
  intros HL Hx. unfold fmod, qrem, qtrunc. replace (Qle_bool 0 (x / L)) with true; [reflexivity|].
  symmetry. apply Qle_bool_iff. apply Qle_shift_div_l; [exact HL|]. rewrite Qmult_0_l. exact Hx.
Qed.
Lemma fmod_neg x L : (0 < L)%Q -> (x < 0)%Q -> (- L < fmod x L)%Q /\ (fmod x L <= 0)%Q /\ exists m, (fmod x L == x + iz m * L)%Q.
Proof.
  intros HL Hx. unfold fmod, qtrunc. destruct (Qle_bool 0 (x / L)) eqn:B.
  - apply Qle_bool_iff in B. exfalso. assert (E : (x == x / L * L)%Q) by (field; lra).
    assert (0 <= x / L * L)%Q by (apply Qmult_le_0_compat; lra). lra.
  - pose proof (Qle_ceiling (x / L)) as A1. pose proof (Qceiling_lt (x / L)) as A2.
    assert (E : (x == x / L * L)%Q) by (field; lra). set (q := Qceiling (x / L)) in *.
    assert (B1 : (x / L * L <= inject_Z q * L)%Q) by (apply Qmult_le_compat_r; lra).
    assert (B2 : (inject_Z (q - 1) * L < x / L * L)%Q) by (apply Qmult_lt_r; assumption).
    unfold Z.sub in B2. rewrite inject_Z_plus in B2. change (inject_Z (- (1))) with (- (1))%Q in B2.
    rewrite <- E in B1, B2. split; [lra|]. split; [lra|]. exists (- q). rewrite iz_opp. unfold iz. ring.
Qed.
Lemma fmod_small x L : (0 < L)%Q -> (x < 0)%Q -> (- L < x)%Q -> (fmod x L == x)%Q.
Proof.
  intros HL Hx Hl. destruct (fmod_neg x L HL Hx) as (A & B & m & E).
  assert (m = 0).
  { apply (mult_small L m (fmod x L - x)); [exact HL|lra|lra|rewrite E; ring]. }
  subst m. rewrite E. change (iz 0) with 0%Q. ring.
Qed.
Lemma frem_pos x L : (0 < L)%Q -> (0 <= x)%Q -> frem rnd x L = qrem x L.
Proof.
  intros HL Hx. unfold frem. rewrite fmod_pos by assumption.
  destruct (qrem_bounds x L HL) as [B _]. replace (Qle_bool 0 (qrem x L)) with true; [reflexivity|]. symmetry. now apply Qle_bool_iff.
Qed.
(** the remainder lies in the closed interval; it is exact, or the rounding of the
    exact one *)
Lemma frem_spec x L : (0 < L)%Q -> (rnd L == L)%Q -> (0 <= frem rnd x L)%Q /\ (frem rnd x L <= L)%Q /\
  exists m y, (y == x + iz m * L)%Q /\ (0 <= y)%Q /\ (y < L)%Q /\ ((frem rnd x L == y)%Q \/ (frem rnd x L == rnd y)%Q).
Proof.
  intros HL HR. destruct (Qlt_le_dec x 0) as [Hx|Hx].
  - destruct (fmod_neg x L HL Hx) as (A & B & m & E). unfold frem. destruct (Qle_bool 0 (fmod x L)) eqn:D.
    + apply Qle_bool_iff in D. split; [exact D|]. split; [lra|]. exists m, (fmod x L). repeat split; [exact E|exact D|lra|now left].
    + assert (D' : (fmod x L < 0)%Q) by (apply Qnot_le_lt; intros C; apply Qle_bool_iff in C; congruence).
      split; [|split].
      * rewrite <- (rd_zero R). apply (rd_mono R). lra.
      * apply Qle_trans with (rnd L); [apply (rd_mono R); lra|lra].
      * exists (m + 1), (fmod x L + L)%Q. repeat split; [rewrite E, iz_plus; change (iz 1) with 1%Q; ring|lra|lra|now right].
  - rewrite frem_pos by assumption. destruct (qrem_bounds x L HL) as [B1 B2]. split; [exact B1|]. split; [lra|].
    destruct (qrem_shift x L) as [m Hm]. exists m, (qrem x L). repeat split; try assumption. now left.
Qed.

Section Axis.
Context (e : list Q) (He : axis_ok e).
Local Notation L := (period e).
Local Notation n := (length e - 1)%nat.
Let HL := ax_pos e He.
Let Hlen := ax_len e He.
Hypothesis HR : (rnd L == L)%Q.

Lemma digitize_L x : (x == L)%Q -> digitize x e = Z.of_nat n + 1.
Proof.
  intros H. rewrite (digitize_Qeq _ _ e H). destruct (digitize_spec L e (ax_sorted e He)) as (k & Hk & Hkl & _ & Hb).
  rewrite Hk. destruct (le_lt_dec (length e) k) as [A|A]; [lia|].
  specialize (Hb n ltac:(lia) ltac:(lia)). rewrite (E_last e He) in Hb. lra.
Qed.
(** a right end at or beyond the period *)
Lemma right_end s c : (0 <= s)%Q -> (c == L)%Q ->
  exists r, digitize (frem rnd (rnd (c + s)) L) e = Z.of_nat (S r) /\ (r < n)%nat /\
    (E e r <= frem rnd (rnd (c + s)) L)%Q /\ (frem rnd (rnd (c + s)) L < E e (S r))%Q.
Proof.
  intros Hs Hc. assert (W : (L <= rnd (c + s))%Q) by (apply Qle_trans with (rnd L); [lra|apply (rd_mono R); lra]).
  rewrite frem_pos by lra. destruct (qrem_bounds (rnd (c + s)) L HL) as [B1 B2].
  exact (digitize_own e He _ B1 B2).
Qed.

(** the domain of the rounded position is always reached *)
Lemma fpatch_home s x : (0 <= s)%Q -> exists t k, fst (fpatch rnd e s x) <= t < snd (fpatch rnd e s x) /\
  t mod ndom e = Z.of_nat k /\ (k < n)%nat /\ inside_axis e (frem rnd x L) (Z.of_nat k).
Proof.
  intros Hs. destruct (frem_spec x L HL HR) as (C0 & C1 & _).
  unfold fpatch. cbv zeta. set (c := frem rnd x L) in *. rewrite (ndom_n e He).
  assert (Hn : 0 < Z.of_nat n) by lia. cbn [fst snd].
  destruct (Qlt_le_dec c L) as [Hc|Hc].
  - destruct (digitize_own e He c C0 Hc) as (j & Hp & Hj & H1 & H2). exists (Z.of_nat j), j. rewrite Hp.
    pose proof (Z.mod_pos_bound (Z.of_nat (S j) - digitize (frem rnd (rnd (c - s)) L) e) (Z.of_nat n) Hn).
    pose proof (Z.mod_pos_bound (digitize (frem rnd (rnd (c + s)) L) e - Z.of_nat (S j)) (Z.of_nat n) Hn).
    split; [lia|]. split; [apply Z.mod_small; lia|]. split; [exact Hj|]. exists 0. rewrite Nat2Z.id.
    change (iz 0) with 0%Q. split; lra.
  - assert (Ec : (c == L)%Q) by lra. rewrite (digitize_L c Ec).
    destruct (right_end s c Hs Ec) as (r & Er & Hr & R1 & R2). rewrite Er.
    destruct (digitize_own e He 0 ltac:(lra) HL) as (j & Hj0 & Hj & H1 & H2).
    assert (Hjr : (j <= r)%nat).
    { apply (own_mono e He j r 0 (frem rnd (rnd (c + s)) L)); [exact Hj|exact Hr|exact H1|exact R2|].
      apply Qle_trans with (E e r); [|exact R1]. apply (E_nonneg e He). lia. }
    exists (Z.of_nat n + Z.of_nat j), j.
    pose proof (Z.mod_pos_bound (Z.of_nat n + 1 - digitize (frem rnd (rnd (c - s)) L) e) (Z.of_nat n) Hn).
    rewrite (mod_n_neg e He (Z.of_nat (S r) - (Z.of_nat n + 1))) by lia. split; [lia|].
    split; [rewrite Z.add_comm; apply (mod_shift_up e He); exact Hj|]. split; [exact Hj|].
    exists (-1). rewrite Nat2Z.id. change (iz (-1)) with (- (1))%Q. split; lra.
Qed.

(** ** coverage *)
(** the rounding error on the numbers that occur *)
Variable eps : Q.
Hypothesis err : forall y, (Qabs y <= 2 * L)%Q -> (Qabs (rnd y - y) <= eps)%Q.
Lemma err_bounds y : (- (2 * L) <= y)%Q -> (y <= 2 * L)%Q -> (y - eps <= rnd y)%Q /\ (rnd y <= y + eps)%Q.
Proof.
  intros A B. specialize (err y ltac:(apply Qabs_Qle_condition; split; assumption)). apply Qabs_Qle_condition in err. destruct err. split; lra.
Qed.
Lemma eps_pos : (0 <= eps)%Q.
Proof. eapply Qle_trans; [apply Qabs_nonneg|apply (err 0)]. change (Qabs 0) with 0%Q. lra. Qed.

Lemma fpatch_covers s s0 x k : (s0 + 3 * eps <= s)%Q -> (0 <= s)%Q ->
  n = 1%nat \/ (forall k, (k < n)%nat -> (s + 2 * eps + (E e (S k) - E e k) <= L)%Q) ->
  (k < n)%nat -> meets1 e s0 x k ->
  exists t, fst (fpatch rnd e s x) <= t < snd (fpatch rnd e s x) /\ t mod ndom e = Z.of_nat k.
Proof.
  intros Hs Hs0 [H1|Hgap] Hk (y & m & Hy1 & Hy2 & Hz1 & Hz2).
  { destruct (fpatch_home s x Hs0) as (t & k' & Ht & Hm & Hk' & _). exists t. split; [exact Ht|]. rewrite Hm. lia. }
  pose proof eps_pos as He0.
  destruct (frem_spec x L HL HR) as (C0 & C1 & a & c0 & Ea & G0 & G1 & Hc0).
  assert (Hcc : (c0 - eps <= frem rnd x L)%Q /\ (frem rnd x L <= c0 + eps)%Q).
  { destruct Hc0 as [-> | ->]; [split; lra|]. apply err_bounds; lra. }
  unfold fpatch. cbv zeta. set (c := frem rnd x L) in *. rewrite (ndom_n e He). cbn [fst snd].
  set (z := (y + iz m * L)%Q) in *. set (d := (y - x - (c - c0))%Q).
  assert (Hzc : (z == c + d + iz (m - a) * L)%Q).
  { unfold z, d, Z.sub. rewrite iz_plus, iz_opp, Ea. ring. }
  assert (Hd1 : (- (s0 + eps) <= d)%Q) by (unfold d; lra).
  assert (Hd2 : (d <= s0 + eps)%Q) by (unfold d; lra).
  assert (Ek0 : (0 <= E e k)%Q) by (apply (E_nonneg e He); lia).
  assert (EkL : (E e (S k) <= L)%Q) by (apply (E_le_L e He); lia).
  (* the smoothing length is below the period *)
  assert (HsL : (s + 2 * eps < L)%Q) by (specialize (Hgap k Hk); lra).
  clearbody d. clear Hy1 Hy2.
  assert (Hm : m - a = 0 \/ m - a = 1 \/ m - a = -1).
  { assert (m - a < 2).
    { apply iz_lt. apply Qnot_le_lt. intros C.
      assert (iz 2 * L <= iz (m - a) * L)%Q by (apply Qmult_le_compat_r; lra).
      change (iz 2) with 2%Q in *. lra. }
    assert (-2 < m - a).
    { apply iz_lt. apply Qnot_le_lt. intros C.
      assert (iz (m - a) * L <= iz (-2) * L)%Q by (apply Qmult_le_compat_r; lra).
      change (iz (-2)) with (-(2))%Q in *. lra. }
    lia. }
  destruct (err_bounds (c - s)%Q ltac:(lra) ltac:(lra)) as [WL1 WL2].
  destruct (err_bounds (c + s)%Q ltac:(lra) ltac:(lra)) as [WR1 WR2].
  assert (Hn : 0 < Z.of_nat n) by lia.
  pose proof (Z.mod_pos_bound (digitize c e - digitize (frem rnd (rnd (c - s)) L) e) (Z.of_nat n) Hn) as ML.
  pose proof (Z.mod_pos_bound (digitize (frem rnd (rnd (c + s)) L) e - digitize c e) (Z.of_nat n) Hn) as MR.
  destruct (Qlt_le_dec c L) as [Hc|Hc].
  - (* an ordinary position, own domain j *)
    destruct (digitize_own e He c C0 Hc) as (j & Hp & Hj & Hj1 & Hj2). rewrite Hp in *.
    pose proof (Hgap j Hj) as Hg.
    assert (Ej0 : (0 <= E e j)%Q) by (apply (E_nonneg e He); lia).
    assert (EjL : (E e (S j) <= L)%Q) by (apply (E_le_L e He); lia).
    destruct (Qlt_le_dec d 0) as [Hdn|Hdp].
    + (* left side *)
      destruct (Qlt_le_dec (rnd (c - s)) 0) as [Hw|Hw].
      * (* wraps *)
        assert (EM : (fmod (rnd (c - s)) L == rnd (c - s))%Q) by (apply fmod_small; lra).
        assert (EV : frem rnd (rnd (c - s)) L = rnd (fmod (rnd (c - s)) L + L)%Q).
        { unfold frem. destruct (Qle_bool 0 (fmod (rnd (c - s)) L)) eqn:B; [|reflexivity]. apply Qle_bool_iff in B. lra. }
        destruct (frem_spec (rnd (c - s)) L HL HR) as (V0 & V1 & _).
        destruct (err_bounds (fmod (rnd (c - s)) L + L)%Q ltac:(lra) ltac:(lra)) as [V2 V3]. rewrite <- EV in V2, V3.
        set (v := frem rnd (rnd (c - s)) L) in *.
        assert (Vj : (E e (S j) <= v)%Q) by lra.
        destruct (Qlt_le_dec v L) as [Hv|Hv].
        -- destruct (digitize_own e He v V0 Hv) as (l & El & Hln & Hl1 & Hl2). rewrite El in *.
           assert (Hjl : (j < l)%nat).
           { destruct (le_lt_dec l j) as [C|C]; [|assumption].
             assert (E e (S l) <= E e (S j))%Q by (apply (E_mono e He); lia). lra. }
           rewrite (mod_n_neg e He (Z.of_nat (S j) - Z.of_nat (S l))) in * by lia.
           destruct Hm as [Hm|[Hm|Hm]]; rewrite Hm in Hzc.
           ++ rewrite iz0 in Hzc. exists (Z.of_nat k).
              assert (k <= j)%nat by (apply (own_mono e He k j z c); try assumption; lra).
              split; [lia|]. apply (mod_n_small e). lia.
           ++ rewrite iz1 in Hzc. exists (Z.of_nat k - Z.of_nat n).
              assert (l <= k)%nat by (apply (own_mono e He l k v z); try assumption; lra).
              split; [lia|]. now apply (mod_shift_down e He).
           ++ rewrite izm1 in Hzc. exfalso. lra.
        -- assert (Ev : (v == L)%Q) by lra. rewrite (digitize_L v Ev) in *.
           rewrite (mod_n_neg e He (Z.of_nat (S j) - (Z.of_nat n + 1))) in * by lia.
           destruct Hm as [Hm|[Hm|Hm]]; rewrite Hm in Hzc.
           ++ rewrite iz0 in Hzc. exists (Z.of_nat k).
              assert (k <= j)%nat by (apply (own_mono e He k j z c); try assumption; lra).
              split; [lia|]. apply (mod_n_small e). lia.
           ++ rewrite iz1 in Hzc. exfalso. lra.
           ++ rewrite izm1 in Hzc. exfalso. lra.
      * rewrite (frem_pos (rnd (c - s)) L HL Hw) in *.
        assert (Hl : (qrem (rnd (c - s)) L == rnd (c - s))%Q) by (apply qrem_eq_small; lra).
        rewrite (digitize_Qeq _ _ e Hl) in *.
        destruct (digitize_own e He (rnd (c - s)) Hw ltac:(lra)) as (l & El & Hln & Hl1 & Hl2). rewrite El in *.
        assert (Hlj : (l <= j)%nat) by (apply (own_mono e He l j (rnd (c - s)) c); try assumption; lra).
        rewrite (mod_n_small e (Z.of_nat (S j) - Z.of_nat (S l))) in * by lia.
        destruct Hm as [Hm|[Hm|Hm]]; rewrite Hm in Hzc.
        -- rewrite iz0 in Hzc. exists (Z.of_nat k).
           assert (k <= j)%nat by (apply (own_mono e He k j z c); try assumption; lra).
           assert (l <= k)%nat by (apply (own_mono e He l k (rnd (c - s)) z); try assumption; lra).
           split; [lia|]. apply (mod_n_small e). lia.
        -- rewrite iz1 in Hzc. exfalso. lra.
        -- rewrite izm1 in Hzc. exfalso. lra.
    + (* right side *)
      rewrite (frem_pos (rnd (c + s)) L HL ltac:(lra)) in *.
      destruct (Qlt_le_dec (rnd (c + s)) L) as [Hw|Hw].
      * assert (Hr : (qrem (rnd (c + s)) L == rnd (c + s))%Q) by (apply qrem_eq_small; lra).
        rewrite (digitize_Qeq _ _ e Hr) in *.
        destruct (digitize_own e He (rnd (c + s)) ltac:(lra) Hw) as (r & Er & Hrn & Hr1 & Hr2). rewrite Er in *.
        assert (Hjr : (j <= r)%nat) by (apply (own_mono e He j r c (rnd (c + s))); try assumption; lra).
        rewrite (mod_n_small e (Z.of_nat (S r) - Z.of_nat (S j))) in * by lia.
        destruct Hm as [Hm|[Hm|Hm]]; rewrite Hm in Hzc.
        -- rewrite iz0 in Hzc. exists (Z.of_nat k).
           assert (j <= k)%nat by (apply (own_mono e He j k c z); try assumption; lra).
           assert (k <= r)%nat by (apply (own_mono e He k r z (rnd (c + s))); try assumption; lra).
           split; [lia|]. apply (mod_n_small e). lia.
        -- rewrite iz1 in Hzc. exfalso. lra.
        -- rewrite izm1 in Hzc. exfalso. lra.
      * assert (Hr : (qrem (rnd (c + s)) L == rnd (c + s) - L)%Q).
        { apply (qrem_unique _ _ _ (-1)); [exact HL|lra|lra|rewrite izm1; lra]. }
        rewrite (digitize_Qeq _ _ e Hr) in *.
        destruct (digitize_own e He (rnd (c + s) - L)%Q ltac:(lra) ltac:(lra)) as (r & Er & Hrn & Hr1 & Hr2). rewrite Er in *.
        assert (Hrj : (r < j)%nat).
        { destruct (le_lt_dec j r) as [C|C]; [|assumption]. assert (E e j <= E e r)%Q by (apply (E_mono e He); lia). lra. }
        rewrite (mod_n_neg e He (Z.of_nat (S r) - Z.of_nat (S j))) in * by lia.
        destruct Hm as [Hm|[Hm|Hm]]; rewrite Hm in Hzc.
        -- rewrite iz0 in Hzc. exists (Z.of_nat k).
           assert (j <= k)%nat by (apply (own_mono e He j k c z); try assumption; lra).
           split; [lia|]. apply (mod_n_small e). lia.
        -- rewrite iz1 in Hzc. exfalso. lra.
        -- rewrite izm1 in Hzc. exists (Z.of_nat k + Z.of_nat n).
           assert (k <= r)%nat by (apply (own_mono e He k r z (rnd (c + s) - L)%Q); try assumption; lra).
           split; [lia|]. now apply (mod_shift_up e He).
  - (* the remainder was rounded up to the period *)
    assert (Ec : (c == L)%Q) by lra. rewrite (digitize_L c Ec) in *.
    destruct (right_end s c Hs0 Ec) as (r & Er & Hr & R1 & R2).
    assert (W : (L <= rnd (c + s))%Q) by (apply Qle_trans with (rnd L); [lra|apply (rd_mono R); lra]).
    rewrite (frem_pos (rnd (c + s)) L HL ltac:(lra)) in *.
    assert (Hrv : (qrem (rnd (c + s)) L == rnd (c + s) - L)%Q).
    { apply (qrem_unique _ _ _ (-1)); [exact HL|lra|lra|rewrite izm1; lra]. }
    rewrite Er in *. rewrite Hrv in R1, R2.
    rewrite (mod_n_neg e He (Z.of_nat (S r) - (Z.of_nat n + 1))) in * by lia.
    destruct (Qlt_le_dec d 0) as [Hdn|Hdp].
    + destruct Hm as [Hm|[Hm|Hm]]; rewrite Hm in Hzc.
      * rewrite iz0 in Hzc. rewrite (frem_pos (rnd (c - s)) L HL ltac:(lra)) in *.
        assert (Hl : (qrem (rnd (c - s)) L == rnd (c - s))%Q) by (apply qrem_eq_small; lra).
        rewrite (digitize_Qeq _ _ e Hl) in *.
        destruct (digitize_own e He (rnd (c - s)) ltac:(lra) ltac:(lra)) as (l & El & Hln & Hl1 & Hl2). rewrite El in *.
        assert (Hl0 : (l <> 0)%nat).
        { intros ->. specialize (Hgap 0%nat ltac:(lia)). rewrite (ax_zero e He) in Hgap. lra. }
        rewrite (mod_n_small e (Z.of_nat n + 1 - Z.of_nat (S l))) in * by lia.
        assert (l <= k)%nat by (apply (own_mono e He l k (rnd (c - s)) z); try assumption; lra).
        exists (Z.of_nat k). split; [lia|]. apply (mod_n_small e). lia.
      * rewrite iz1 in Hzc. exfalso. lra.
      * rewrite izm1 in Hzc. exfalso. lra.
    + destruct Hm as [Hm|[Hm|Hm]]; rewrite Hm in Hzc.
      * rewrite iz0 in Hzc. exfalso. lra.
      * rewrite iz1 in Hzc. exfalso. lra.
      * rewrite izm1 in Hzc. exists (Z.of_nat k + Z.of_nat n).
        assert (k <= r)%nat by (apply (own_mono e He k r z (rnd (c + s) - L)%Q); try assumption; lra).
        split; [lia|]. now apply (mod_shift_up e He).
Qed.
Lemma fpatch_le s x : fst (fpatch rnd e s x) < snd (fpatch rnd e s x).
Proof.
  unfold fpatch. cbv zeta. cbn [fst snd]. rewrite (ndom_n e He). assert (Hn : 0 < Z.of_nat n) by lia.
  set (c := frem rnd x L).
  pose proof (Z.mod_pos_bound (digitize c e - digitize (frem rnd (rnd (c - s)) L) e) (Z.of_nat n) Hn).
  pose proof (Z.mod_pos_bound (digitize (frem rnd (rnd (c + s)) L) e - digitize c e) (Z.of_nat n) Hn). lia.
Qed.
End Axis.
End Rounding.
