(** Property C95: the order of the integrators of examples/nbody.py:84-152.  With kick and drift
    factors that are differences of log a, under a force proportional to the displacement, the
    programs of symp1, symp2 and symp3 converge to the motion with order one, two and three in the
    longest step. *)
From Coq Require Import List Arith ZArith Lia Bool Reals Lra.
From Coquelicot Require Import Coquelicot.
From Verif Require Import EngineModel Base RingModel FieldModel FourierReal NbodyModel NbodySteps.
Import ListNotations.
Local Open Scope R_scope.

(** ** what is claimed *)
(** K(ai, af, ar) = D(ai, af, ar) = log af - log ai *)
Definition log_factors : factors Rring := mkFactors Rring (fun ai af _ => ln af - ln ai) (fun ai af _ => ln af - ln ai).
(** one displacement, velocity and force under the instructions of an integrator; the force is [lam] times the displacement *)
Definition act (lam : R) (st : R * R * R) (i : instr Rring) : R * R * R :=
  let '(s, v, f) := st in
  match i with
  | Kick k => (s, v + f * k, f)
  | Drift d => (s + v * d, v, f)
  | Pull => (s, v, lam * s)
  end.
Definition follow (lam : R) (prog : list (instr Rring)) (st : R * R * R) : R * R * R := fold_left (act lam) prog st.
(** the integrator of order [p] *)
Definition program (p : nat) (ts : list R) : list (instr Rring) :=
  match p with
  | 1%nat => run_symp1 Rring log_factors ts
  | 2%nat => run_symp2 Rring sqrt log_factors ts
  | _ => run_symp3 Rring Rinv ln exp log_factors ts
  end.
(** positive times in order, no step longer than [H] in log a *)
Fixpoint steps (H : R) (a : R) (ts : list R) : Prop :=
  match ts with
  | [] => True
  | b :: ts => a <= b /\ ln b - ln a <= H /\ steps H b ts
  end.
(** the motion in log time *)
Definition motion (lam : R) (x u : R -> R) : Prop :=
  (forall t, derivable_pt_lim x t (u t)) /\ (forall t, derivable_pt_lim u t (lam * x t)).

(** ** one step *)
Section Step.
Variable lam : R.
Definition kick_by (c h : R) (z : R * R) : R * R := (fst z, snd z + lam * fst z * (c * h)).
Definition drift_by (c h : R) (z : R * R) : R * R := (fst z + snd z * (c * h), snd z).
Definition one_step (p : nat) (h : R) (z : R * R) : R * R :=
  match p with
  | 1%nat => drift_by 1 h (kick_by 1 h z)
  | 2%nat => kick_by (1 / 2) h (drift_by 1 h (kick_by (1 / 2) h z))
  | _ => kick_by (7 / 24) h (drift_by (2 / 3) h (kick_by (3 / 4) h (drift_by (- (2 / 3)) h (kick_by (- (1 / 24)) h (drift_by 1 h z)))))
  end.

Lemma follow_app a b st : follow lam (a ++ b) st = follow lam b (follow lam a st).
Proof. apply fold_left_app. Qed.

Lemma zin_R z : (0 < z)%Z -> zin Rring z = IZR z.
Proof. apply zin_real. Qed.
Lemma ln_mid a b : 0 < a -> 0 < b -> ln (sqrt (a * b)) = (ln a + ln b) / 2.
Proof.
  intros Ha Hb. assert (P : 0 < a * b) by now apply Rmult_lt_0_compat. pose proof (sqrt_lt_R0 _ P) as Q.
  assert (E : ln (sqrt (a * b) * sqrt (a * b)) = ln a + ln b) by (rewrite sqrt_sqrt by lra; now apply ln_mult).
  rewrite ln_mult in E by exact Q. lra.
Qed.
Lemma ln_times a x : 0 < a -> ln (a * exp x) = ln a + x.
Proof. intros Ha. rewrite ln_mult by (assumption || apply exp_pos). now rewrite ln_exp. Qed.

(** the instructions of one interval *)
Definition body (p : nat) (ai af : R) : list (instr Rring) :=
  match p with
  | 1%nat => [Pull Rring; Kick Rring (ln af - ln ai); Drift Rring (ln af - ln ai); Pull Rring]
  | 2%nat => let ac := sqrt (ai * af) in [Kick Rring (ln ac - ln ai); Drift Rring (ln af - ln ai); Pull Rring; Kick Rring (ln af - ln ac)]
  | _ => let ac2 := t_c2 Rring Rinv ln exp ai af in let ad1 := t_d1 Rring Rinv ln exp ai af in let ad2 := t_d2 Rring Rinv ln exp ai af in
         [Drift Rring (ln af - ln ai); Pull Rring; Kick Rring (ln ad1 - ln ai); Drift Rring (ln ac2 - ln af); Pull Rring; Kick Rring (ln ad2 - ln ad1);
          Drift Rring (ln af - ln ac2); Pull Rring; Kick Rring (ln af - ln ad2)]
  end.
Lemma program_body p ts : (1 <= p <= 3)%nat -> program p ts = Pull Rring :: flat_map (fun q => body p (fst q) (snd q)) (intervals R ts).
Proof. intros Hp. destruct p as [|[|[|[|p]]]]; try lia; reflexivity. Qed.

Lemma sub_times ai af : 0 < ai -> 0 < af -> let h := ln af - ln ai in
  ln (t_c2 Rring Rinv ln exp ai af) = ln af - 2 / 3 * h /\
  ln (t_d1 Rring Rinv ln exp ai af) = ln ai - 1 / 24 * h /\
  ln (t_d2 Rring Rinv ln exp ai af) = ln ai - 1 / 24 * h + 3 / 4 * h.
Proof.
  intros Ha Hb h.
  assert (E1 : ln (t_d1 Rring Rinv ln exp ai af) = ln ai - 1 / 24 * h).
  { unfold t_d1, Dloga. cbn [rmul rsub ropp r1 Rring]. rewrite zin_R by lia. rewrite ln_times by exact Ha. fold h. field. }
  assert (P : 0 < t_d1 Rring Rinv ln exp ai af).
  { unfold t_d1. cbn [rmul Rring]. apply Rmult_lt_0_compat; [exact Ha|apply exp_pos]. }
  split; [|split; [exact E1|]].
  - unfold t_c2, Dloga. cbn [rmul rsub ropp r1 Rring]. rewrite !zin_R by lia. rewrite ln_times by exact Hb. fold h. field.
  - unfold t_d2, Dloga. cbn [rmul rsub ropp r1 Rring]. rewrite !zin_R by lia. rewrite ln_times by exact P. rewrite E1. fold h. field.
Qed.

Lemma body_step p ai af s v : (1 <= p <= 3)%nat -> 0 < ai -> 0 < af ->
  follow lam (body p ai af) (s, v, lam * s) =
  let z := one_step p (ln af - ln ai) (s, v) in (fst z, snd z, lam * fst z).
Proof.
  intros Hp Ha Hb. destruct p as [|[|[|[|p]]]]; try lia; cbv zeta.
  - unfold follow, body, one_step, kick_by, drift_by. cbn [fold_left act fst snd]. rewrite !Rmult_1_l. reflexivity.
  - unfold follow, body, one_step, kick_by, drift_by. cbn [fold_left act fst snd]. rewrite ln_mid by assumption.
    set (x := ln ai). set (y := ln af). replace ((x + y) / 2 - x) with (1 / 2 * (y - x)) by field. replace (y - (x + y) / 2) with (1 / 2 * (y - x)) by field.
    rewrite Rmult_1_l. reflexivity.
  - destruct (sub_times ai af Ha Hb) as (E1 & E2 & E3). cbv zeta in E1, E2, E3.
    unfold follow, body, one_step, kick_by, drift_by. cbn [fold_left act fst snd]. rewrite E1, E2, E3. set (h := ln af - ln ai).
    replace (ln ai - 1 / 24 * h - ln ai) with (- (1 / 24) * h) by field.
    replace (ln af - 2 / 3 * h - ln af) with (- (2 / 3) * h) by field.
    replace (ln ai - 1 / 24 * h + 3 / 4 * h - (ln ai - 1 / 24 * h)) with (3 / 4 * h) by field.
    replace (ln af - (ln af - 2 / 3 * h)) with (2 / 3 * h) by field.
    replace (ln af - (ln ai - 1 / 24 * h + 3 / 4 * h)) with (7 / 24 * h) by (unfold h; field).
    rewrite Rmult_1_l. reflexivity.
Qed.
End Step.

(** ** errors *)
Definition norm (z : R * R) : R := Rabs (fst z) + Rabs (snd z).
Definition minus (z w : R * R) : R * R := (fst z - fst w, snd z - snd w).
Lemma norm_pos z : 0 <= norm z.
Proof. unfold norm. pose proof (Rabs_pos (fst z)). pose proof (Rabs_pos (snd z)). lra. Qed.
Lemma norm_triangle z y w : norm (minus z w) <= norm (minus z y) + norm (minus y w).
Proof.
  unfold norm, minus. cbn [fst snd].
  assert (T : forall a b c, Rabs (a - c) <= Rabs (a - b) + Rabs (b - c)).
  { intros a b c. replace (a - c) with ((a - b) + (b - c)) by ring. apply Rabs_triang. }
  pose proof (T (fst z) (fst y) (fst w)). pose proof (T (snd z) (snd y) (snd w)). lra.
Qed.

Section Errors.
Variable lam : R.
Local Notation M := (1 + Rabs lam).
Lemma M_pos : 1 <= M.
Proof. pose proof (Rabs_pos lam). lra. Qed.

(** *** stability *)
Lemma grow a : 1 + a <= exp a.
Proof.
  destruct (Req_dec a 0) as [->|N]; [rewrite exp_0; lra|]. left. now apply exp_ineq1.
Qed.
Lemma kick_norm c h z : 0 <= h -> norm (kick_by lam c h z) <= exp (Rabs lam * Rabs c * h) * norm z.
Proof.
  intros Hh. unfold norm, kick_by. cbn [fst snd]. pose proof (grow (Rabs lam * Rabs c * h)) as G.
  pose proof (Rabs_triang (snd z) (lam * fst z * (c * h))) as T. rewrite !Rabs_mult, (Rabs_right h) in T by lra.
  pose proof (Rabs_pos (fst z)). pose proof (Rabs_pos (snd z)).
  assert (0 <= Rabs lam * Rabs c * h) by (apply Rmult_le_pos; [apply Rmult_le_pos; apply Rabs_pos|exact Hh]).
  set (e := exp _) in *. set (q := Rabs lam * Rabs c * h) in *. set (a := Rabs (fst z)) in *. set (b := Rabs (snd z)) in *.
  assert (T' : Rabs (snd z + lam * fst z * (c * h)) <= b + a * q) by (unfold q; lra).
  assert (a * (1 + q) <= a * e) by (apply Rmult_le_compat_l; lra). assert (b * 1 <= b * e) by (apply Rmult_le_compat_l; lra). lra.
Qed.
Lemma drift_norm c h z : 0 <= h -> norm (drift_by c h z) <= exp (Rabs c * h) * norm z.
Proof.
  intros Hh. unfold norm, drift_by. cbn [fst snd]. pose proof (grow (Rabs c * h)) as G.
  pose proof (Rabs_triang (fst z) (snd z * (c * h))) as T. rewrite !Rabs_mult, (Rabs_right h) in T by lra.
  pose proof (Rabs_pos (fst z)). pose proof (Rabs_pos (snd z)).
  assert (0 <= Rabs c * h) by (apply Rmult_le_pos; [apply Rabs_pos|exact Hh]).
  set (e := exp _) in *. set (q := Rabs c * h) in *. set (a := Rabs (fst z)) in *. set (b := Rabs (snd z)) in *.
  assert (b * (1 + q) <= b * e) by (apply Rmult_le_compat_l; lra). assert (a * 1 <= a * e) by (apply Rmult_le_compat_l; lra). lra.
Qed.
Lemma exp_mono a b : a <= b -> exp a <= exp b.
Proof. intros [H|H]; [left; now apply exp_increasing|right; now rewrite H]. Qed.
Lemma chain e1 e2 a b c : 0 <= b -> b <= exp e1 * a -> c <= exp e2 * b -> c <= exp (e1 + e2) * a.
Proof.
  intros Hb H1 H2. rewrite exp_plus. pose proof (exp_pos e2). assert (exp e2 * b <= exp e2 * (exp e1 * a)) by (apply Rmult_le_compat_l; lra). lra.
Qed.

(** a step of every order stretches by at most exp (4 M h) *)
Lemma step_norm p h z : (1 <= p <= 3)%nat -> 0 <= h -> norm (one_step lam p h z) <= exp (4 * M * h) * norm z.
Proof.
  intros Hp Hh. pose proof (Rabs_pos lam) as L. pose proof (norm_pos z).
  enough (exists e, e <= 4 * M * h /\ norm (one_step lam p h z) <= exp e * norm z) as (e & E1 & E2).
  { apply exp_mono in E1. assert (exp e * norm z <= exp (4 * M * h) * norm z) by (apply Rmult_le_compat_r; lra). lra. }
  assert (LH : 0 <= Rabs lam * h) by (apply Rmult_le_pos; lra).
  assert (A1 : Rabs 1 = 1) by (apply Rabs_right; lra).
  destruct p as [|[|[|[|p]]]]; try lia; unfold one_step.
  - eexists. split; [|eapply chain; [apply norm_pos|apply kick_norm, Hh|apply drift_norm, Hh]]. rewrite A1. lra.
  - eexists. split; [|eapply chain; [apply norm_pos|eapply chain; [apply norm_pos|apply kick_norm, Hh|apply drift_norm, Hh]|apply kick_norm, Hh]].
    rewrite A1, (Rabs_right (1 / 2)) by lra. lra.
  - eexists. split; [|eapply chain; [apply norm_pos|eapply chain; [apply norm_pos|eapply chain; [apply norm_pos|eapply chain; [apply norm_pos|eapply chain;
      [apply norm_pos|apply drift_norm, Hh|apply kick_norm, Hh]|apply drift_norm, Hh]|apply kick_norm, Hh]|apply drift_norm, Hh]|apply kick_norm, Hh]].
    rewrite A1, !Rabs_Ropp, (Rabs_right (1 / 24)), (Rabs_right (2 / 3)), (Rabs_right (3 / 4)), (Rabs_right (7 / 24)) by lra. lra.
Qed.
Lemma step_minus p h z w : (1 <= p <= 3)%nat -> minus (one_step lam p h z) (one_step lam p h w) = one_step lam p h (minus z w).
Proof.
  intros Hp. destruct z as [s v], w as [s' v'].
  destruct p as [|[|[|[|p]]]]; try lia; unfold one_step, kick_by, drift_by, minus; cbn [fst snd]; f_equal; field.
Qed.

(** *** Taylor polynomials of the motion *)
Definition taylor (p : nat) (h : R) (z : R * R) : R * R :=
  let '(s, v) := z in
  match p with
  | 0%nat => (s, v)
  | 1%nat => (s + h * v, v + h * (lam * s))
  | 2%nat => (s + h * v + h ^ 2 / 2 * (lam * s), v + h * (lam * s) + h ^ 2 / 2 * (lam * v))
  | _ => (s + h * v + h ^ 2 / 2 * (lam * s) + h ^ 3 / 6 * (lam * v), v + h * (lam * s) + h ^ 2 / 2 * (lam * v) + h ^ 3 / 6 * (lam * (lam * s)))
  end.
Lemma step_taylor p h z : (1 <= p <= 3)%nat -> 0 <= h <= 1 -> norm (minus (taylor p h z) (one_step lam p h z)) <= M ^ 3 * norm z * h ^ (p + 1).
Proof.
  intros Hp [Hh H1]. destruct z as [s v]. pose proof M_pos as MP. pose proof (Rabs_pos lam) as L. pose proof (Rabs_pos s) as PS. pose proof (Rabs_pos v) as PV.
  assert (HP : forall k, 0 <= h ^ k <= 1).
  { intros k. split; [now apply pow_le|]. rewrite <- (pow1 k). now apply pow_incr. }
  assert (M2 : 1 <= M * M) by nra. assert (M3 : 1 <= M ^ 3) by (replace (M ^ 3) with (M * M * M) by ring; nra).
  assert (LM2 : Rabs lam * Rabs lam <= M ^ 3) by (replace (M ^ 3) with (M * M * M) by ring; nra).
  assert (LM3 : Rabs lam * Rabs lam * Rabs lam <= M ^ 3).
  { replace (M ^ 3) with (M * M * M) by ring. assert (Rabs lam * Rabs lam <= M * M) by nra. assert (0 <= Rabs lam * Rabs lam) by nra. nra. }
  assert (LM1 : Rabs lam <= M ^ 3) by (replace (M ^ 3) with (M * M * M) by ring; nra).
  unfold norm, minus. destruct p as [|[|[|[|p]]]]; try lia; unfold one_step, taylor, kick_by, drift_by; cbn [fst snd].
  - match goal with |- Rabs ?a + Rabs ?b <= _ => replace a with (- (lam * s * h ^ 2)) by ring; replace b with 0 by ring end.
    rewrite Rabs_Ropp, Rabs_R0, !Rabs_mult, (Rabs_right (h ^ 2)) by (apply Rle_ge, HP). cbn [Nat.add].
    rewrite Rplus_0_r. apply Rmult_le_compat_r; [apply HP|]. apply Rmult_le_compat; lra.
  - match goal with |- Rabs ?a + Rabs ?b <= _ => replace a with 0 by field; replace b with (- (1 / 4 * (lam * lam * s) * h ^ 3)) by field end.
    rewrite Rabs_Ropp, Rabs_R0, !Rabs_mult, (Rabs_right (h ^ 3)), (Rabs_right (1 / 4)) by (apply Rle_ge, HP || lra). cbn [Nat.add].
    rewrite Rplus_0_l. apply Rmult_le_compat_r; [apply HP|].
    assert (0 <= Rabs lam * Rabs lam * Rabs s <= M ^ 3 * Rabs s) by (split; [repeat apply Rmult_le_pos; assumption|apply Rmult_le_compat_r; assumption]).
    assert (0 <= M ^ 3 * Rabs v) by (apply Rmult_le_pos; lra). lra.
  - match goal with |- Rabs ?a + Rabs ?b <= _ =>
      replace a with (- ((1 / 72 * (lam * lam * s) + 1 / 72 * (lam * lam * v) * h) * h ^ 4)) by field;
      replace b with (- ((7 / 1728 * (lam * lam * lam * s) * h + 5 / 72 * (lam * lam * v) + 7 / 1728 * (lam * lam * lam * v) * h ^ 2) * h ^ 4)) by field end.
    rewrite !Rabs_Ropp, !(Rabs_mult _ (h ^ 4)), (Rabs_right (h ^ 4)) by (apply Rle_ge, HP). cbn [Nat.add].
    rewrite <- Rmult_plus_distr_r. apply Rmult_le_compat_r; [apply HP|].
    pose proof (HP 2%nat) as P2.
    assert (B : forall c q k, 0 <= c -> 0 <= k <= 1 -> Rabs (c * q * k) <= c * Rabs q).
    { intros c q k Hc Hk. rewrite !Rabs_mult, (Rabs_right c), (Rabs_right k) by lra. pose proof (Rabs_pos q).
      assert (c * Rabs q * k <= c * Rabs q * 1) by (apply Rmult_le_compat_l; [apply Rmult_le_pos; lra|lra]). lra. }
    assert (B1 : forall c q, 0 <= c -> Rabs (c * q) = c * Rabs q) by (intros c q Hc; rewrite Rabs_mult, (Rabs_right c) by lra; reflexivity).
    pose proof (Rabs_triang (1 / 72 * (lam * lam * s)) (1 / 72 * (lam * lam * v) * h)) as T1. rewrite (B1 (1 / 72)) in T1 by lra.
    pose proof (B (1 / 72) (lam * lam * v) h ltac:(lra) (conj Hh H1)) as B2.
    pose proof (Rabs_triang (7 / 1728 * (lam * lam * lam * s) * h + 5 / 72 * (lam * lam * v)) (7 / 1728 * (lam * lam * lam * v) * h ^ 2)) as T2.
    pose proof (Rabs_triang (7 / 1728 * (lam * lam * lam * s) * h) (5 / 72 * (lam * lam * v))) as T3. rewrite (B1 (5 / 72)) in T3 by lra.
    pose proof (B (7 / 1728) (lam * lam * lam * s) h ltac:(lra) (conj Hh H1)) as B3.
    pose proof (B (7 / 1728) (lam * lam * lam * v) (h ^ 2) ltac:(lra) P2) as B4.
    rewrite !Rabs_mult in T1, T2, T3, B2, B3, B4.
    assert (S2 : Rabs lam * Rabs lam * Rabs s <= M ^ 3 * Rabs s) by (apply Rmult_le_compat_r; assumption).
    assert (V2 : Rabs lam * Rabs lam * Rabs v <= M ^ 3 * Rabs v) by (apply Rmult_le_compat_r; assumption).
    assert (S3 : Rabs lam * Rabs lam * Rabs lam * Rabs s <= M ^ 3 * Rabs s) by (apply Rmult_le_compat_r; assumption).
    assert (V3 : Rabs lam * Rabs lam * Rabs lam * Rabs v <= M ^ 3 * Rabs v) by (apply Rmult_le_compat_r; assumption).
    assert (0 <= M ^ 3 * Rabs s) by (apply Rmult_le_pos; lra). assert (0 <= M ^ 3 * Rabs v) by (apply Rmult_le_pos; lra).
    unfold norm. cbn [fst snd]. rewrite !Rabs_mult in *. lra.
Qed.
End Errors.

(** *** the motion against its Taylor polynomials *)
Lemma mean f f' K k h : 0 <= K -> 0 <= h -> (forall c, 0 <= c <= h -> derivable_pt_lim f c (f' c)) ->
  (forall c, 0 <= c <= h -> Rabs (f' c) <= K * c ^ k) -> f 0 = 0 -> Rabs (f h) <= K * h ^ (k + 1).
Proof.
  intros HK Hh D B F0. destruct Hh as [Hh|Hh].
  - destruct (MVT_cor2 f f' 0 h Hh D) as (c & E & Hc). rewrite F0, !Rminus_0_r in E. rewrite E, Rabs_mult, (Rabs_right h) by lra.
    pose proof (B c ltac:(lra)) as Bc. assert (P : c ^ k <= h ^ k) by (apply pow_incr; lra).
    assert (Q : Rabs (f' c) <= K * h ^ k) by (eapply Rle_trans; [exact Bc|]; now apply Rmult_le_compat_l).
    rewrite pow_add, pow_1, <- Rmult_assoc. apply Rmult_le_compat_r; lra.
  - subst h. rewrite F0, Rabs_R0. apply Rmult_le_pos; [exact HK|]. apply pow_le. lra.
Qed.

Section Motion.
Variable lam : R.
Variables x u : R -> R.
Hypothesis XU : motion lam x u.
Local Notation M := (1 + Rabs lam).

Lemma shifted (f f' : R -> R) t c : (forall t, derivable_pt_lim f t (f' t)) -> derivable_pt_lim (fun c => f (t + c)) c (f' (t + c)).
Proof.
  intros D. replace (f' (t + c)) with (f' (t + c) * 1) by ring. apply (derivable_pt_lim_comp (fun c => t + c) f); [|apply D].
  apply is_derive_Reals. auto_derive; [trivial|ring].
Qed.
Definition Ts p t c := fst (taylor lam p c (x t, u t)).
Definition Tv p t c := snd (taylor lam p c (x t, u t)).
Lemma Ts_derive p t c : (p <= 2)%nat -> derivable_pt_lim (Ts (S p) t) c (Tv p t c).
Proof.
  intros Hp. apply is_derive_Reals. destruct p as [|[|[|p]]]; try lia; unfold Ts, Tv, taylor; cbn [fst snd]; (auto_derive; [trivial|]; simpl; field).
Qed.
Lemma Tv_derive p t c : (p <= 2)%nat -> derivable_pt_lim (Tv (S p) t) c (lam * Ts p t c).
Proof.
  intros Hp. apply is_derive_Reals. destruct p as [|[|[|p]]]; try lia; unfold Ts, Tv, taylor; cbn [fst snd]; (auto_derive; [trivial|]; simpl; field).
Qed.
Lemma Ts_0 p t : (p <= 3)%nat -> Ts p t 0 = x t.
Proof. intros Hp. destruct p as [|[|[|[|p]]]]; try lia; unfold Ts, taylor; cbn [fst snd]; field. Qed.
Lemma Tv_0 p t : (p <= 3)%nat -> Tv p t 0 = u t.
Proof. intros Hp. destruct p as [|[|[|[|p]]]]; try lia; unfold Tv, taylor; cbn [fst snd]; field. Qed.

Lemma remainder B t L p : (p <= 3)%nat -> 0 <= B -> (forall c, 0 <= c <= L -> Rabs (x (t + c)) <= B /\ Rabs (u (t + c)) <= B) ->
  forall h, 0 <= h <= L -> Rabs (x (t + h) - Ts p t h) <= M ^ (p + 1) * B * h ^ (p + 1) /\ Rabs (u (t + h) - Tv p t h) <= M ^ (p + 1) * B * h ^ (p + 1).
Proof.
  intros Hp HB HX. destruct XU as [DX DU]. pose proof (Rabs_pos lam) as PL.
  assert (DM : forall (f g : R -> R) (a b : R) c, derivable_pt_lim f c a -> derivable_pt_lim g c b -> derivable_pt_lim (fun c => f c - g c) c (a - b)).
  { intros f g a b c. apply derivable_pt_lim_minus. }
  induction p as [|p IH]; intros h Hh.
  - assert (C0 : forall a c, derivable_pt_lim (fun _ => a) c 0) by (intros a c; apply derivable_pt_lim_const).
    split.
    + eapply Rle_trans; [apply (mean (fun c => x (t + c) - x t) (fun c => u (t + c) - 0) B 0 h HB)|]; try lra.
      * intros c Hc. apply DM; [now apply shifted|apply C0].
      * intros c Hc. rewrite Rminus_0_r, pow_O, Rmult_1_r. apply HX. lra.
      * rewrite Rplus_0_r. ring.
      * cbn [Nat.add]. apply Rmult_le_compat_r; [apply pow_le; lra|]. assert (0 <= Rabs lam * B) by (now apply Rmult_le_pos). lra.
    + eapply Rle_trans; [apply (mean (fun c => u (t + c) - u t) (fun c => lam * x (t + c) - 0) (Rabs lam * B) 0 h)|]; try lra.
      * now apply Rmult_le_pos.
      * intros c Hc. apply DM; [|apply C0]. apply (shifted u (fun t => lam * x t) t c DU).
      * intros c Hc. rewrite Rminus_0_r, pow_O, Rmult_1_r, Rabs_mult. apply Rmult_le_compat_l; [exact PL|]. apply HX. lra.
      * rewrite Rplus_0_r. ring.
      * cbn [Nat.add]. apply Rmult_le_compat_r; [apply pow_le; lra|]. lra.
  - specialize (IH ltac:(lia)). assert (PM : 0 <= M ^ (p + 1) * B) by (apply Rmult_le_pos; [apply pow_le; lra|exact HB]).
    replace (S p + 1)%nat with ((p + 1) + 1)%nat by lia.
    assert (PH : 0 <= h ^ (p + 1 + 1)) by (apply pow_le; lra).
    assert (PL' : 0 <= Rabs lam * (M ^ (p + 1) * B)) by (now apply Rmult_le_pos).
    assert (EM : M ^ (p + 1 + 1) * B = M ^ (p + 1) * B + Rabs lam * (M ^ (p + 1) * B)) by (rewrite (pow_add M (p + 1) 1), pow_1; ring).
    rewrite EM. split.
    + eapply Rle_trans; [apply (mean (fun c => x (t + c) - Ts (S p) t c) (fun c => u (t + c) - Tv p t c) (M ^ (p + 1) * B) (p + 1) h PM)|]; try lra.
      * intros c Hc. apply DM; [now apply shifted|apply Ts_derive; lia].
      * intros c Hc. apply IH. lra.
      * rewrite Rplus_0_r, Ts_0 by lia. ring.
      * apply Rmult_le_compat_r; lra.
    + eapply Rle_trans; [apply (mean (fun c => u (t + c) - Tv (S p) t c) (fun c => lam * x (t + c) - lam * Ts p t c) (Rabs lam * (M ^ (p + 1) * B)) (p + 1) h PL')|]; try lra.
      * intros c Hc. apply DM; [apply (shifted u (fun t => lam * x t) t c DU)|apply Tv_derive; lia].
      * intros c Hc. rewrite <- Rmult_minus_distr_l, Rabs_mult, Rmult_assoc. apply Rmult_le_compat_l; [exact PL|]. apply IH. lra.
      * rewrite Rplus_0_r, Tv_0 by lia. ring.
      * apply Rmult_le_compat_r; lra.
Qed.

Lemma motion_bounded a T : 0 <= T -> exists B, 0 <= B /\ forall t, a <= t <= a + T -> norm (x t, u t) <= B.
Proof.
  intros HT. destruct XU as [DX DU].
  assert (CX : forall f f', (forall t, derivable_pt_lim f t (f' t)) -> forall c, continuity_pt (fun t => Rabs (f t)) c).
  { intros f f' D c. apply (continuity_pt_comp f Rabs); [|apply Rcontinuity_abs]. apply derivable_continuous_pt. exists (f' c). apply D. }
  destruct (continuity_ab_maj (fun t => Rabs (x t) + Rabs (u t)) a (a + T)) as (m & Hm & _); [lra| |].
  - intros c _. apply (continuity_pt_plus (fun t => Rabs (x t)) (fun t => Rabs (u t))); [now apply (CX x u)|now apply (CX u (fun t => lam * x t))].
  - exists (norm (x m, u m)). split; [apply norm_pos|exact Hm].
Qed.

(** *** one step against the motion *)
Lemma local_error B t h p : (1 <= p <= 3)%nat -> 0 <= h <= 1 -> (forall c, 0 <= c <= h -> norm (x (t + c), u (t + c)) <= B) ->
  norm (minus (one_step lam p h (x t, u t)) (x (t + h), u (t + h))) <= (M ^ 3 + 2 * M ^ (p + 1)) * B * h ^ (p + 1).
Proof.
  intros Hp Hh HX. pose proof (HX 0 ltac:(lra)) as X0. rewrite Rplus_0_r in X0. pose proof (norm_pos (x t, u t)) as N0. pose proof (Rabs_pos lam) as PL.
  eapply Rle_trans; [apply (norm_triangle _ (taylor lam p h (x t, u t)))|].
  pose proof (step_taylor lam p h (x t, u t) Hp Hh) as E1.
  assert (E1' : norm (minus (one_step lam p h (x t, u t)) (taylor lam p h (x t, u t))) = norm (minus (taylor lam p h (x t, u t)) (one_step lam p h (x t, u t)))).
  { unfold norm, minus. cbn [fst snd]. f_equal; apply Rabs_minus_sym. }
  assert (PH : 0 <= h ^ (p + 1)) by (apply pow_le; lra).
  assert (PM : 0 <= M ^ 3) by (apply pow_le; lra).
  assert (E2 : M ^ 3 * norm (x t, u t) * h ^ (p + 1) <= M ^ 3 * B * h ^ (p + 1)) by (apply Rmult_le_compat_r; [exact PH|]; now apply Rmult_le_compat_l).
  destruct (remainder B t h p ltac:(lia) ltac:(lra)) with (h := h) as [R1 R2]; [|lra|].
  { intros c Hc. specialize (HX c Hc). unfold norm in HX. cbn [fst snd] in HX. pose proof (Rabs_pos (x (t + c))). pose proof (Rabs_pos (u (t + c))). lra. }
  assert (E3 : norm (minus (taylor lam p h (x t, u t)) (x (t + h), u (t + h))) <= 2 * (M ^ (p + 1) * B * h ^ (p + 1))).
  { unfold norm, minus. cbn [fst snd]. fold (Ts p t h). fold (Tv p t h). rewrite Rabs_minus_sym. rewrite (Rabs_minus_sym (Tv p t h)). lra. }
  rewrite E1'. lra.
Qed.

(** *** all steps *)
Definition run_steps p (a : R) (ts : list R) (z : R * R) : R * R :=
  fold_left (fun z q => one_step lam p (ln (snd q) - ln (fst q)) z) (intervals R (a :: ts)) z.
Lemma intervals_cons (a b : R) r : intervals R (a :: b :: r) = (a, b) :: intervals R (b :: r).
Proof. reflexivity. Qed.
Lemma last_cons (b : R) ts a : last (b :: ts) a = last ts b.
Proof.
  revert b a. induction ts as [|c ts IH]; intros b a; [reflexivity|]. transitivity (last (c :: ts) a); [reflexivity|]. rewrite IH. symmetry. apply IH.
Qed.
Lemma steps_last H a ts : 0 < a -> steps H a ts -> 0 < last ts a /\ ln a <= ln (last ts a).
Proof.
  revert a. induction ts as [|b ts IH]; intros a Ha S; [cbn; lra|].
  destruct S as (S1 & S2 & S3). assert (Hb : 0 < b) by lra. destruct (IH b Hb S3) as [I1 I2].
  rewrite last_cons. split; [exact I1|]. assert (ln a <= ln b) by (destruct S1 as [S1|S1]; [left; now apply ln_increasing|right; now rewrite S1]). lra.
Qed.
Lemma global_error p H t0 T B : (1 <= p <= 3)%nat -> 0 <= H <= 1 -> (forall t, t0 <= t <= t0 + T -> norm (x t, u t) <= B) -> 0 <= B ->
  forall ts a z, 0 < a -> steps H a ts -> t0 <= ln a -> ln (last ts a) <= t0 + T ->
  norm (minus (run_steps p a ts z) (x (ln (last ts a)), u (ln (last ts a)))) <=
  exp (4 * M * (ln (last ts a) - ln a)) * (norm (minus z (x (ln a), u (ln a))) + (M ^ 3 + 2 * M ^ (p + 1)) * B * H ^ p * (ln (last ts a) - ln a)).
Proof.
  intros Hp HH HX HB. pose proof (Rabs_pos lam) as PL. set (C := (M ^ 3 + 2 * M ^ (p + 1)) * B).
  assert (PC : 0 <= C).
  { unfold C. assert (0 <= M ^ 3) by (apply pow_le; lra). assert (0 <= M ^ (p + 1)) by (apply pow_le; lra). apply Rmult_le_pos; lra. }
  assert (PHp : 0 <= H ^ p) by (apply pow_le; lra).
  assert (PCH : 0 <= C * H ^ p) by (now apply Rmult_le_pos).
  induction ts as [|b ts IH]; intros a z Ha S Ht0 HT.
  - cbn [last]. unfold run_steps. cbn. rewrite Rminus_diag_eq by reflexivity. rewrite !Rmult_0_r, exp_0, Rplus_0_r. lra.
  - destruct S as (S1 & S2 & S3). assert (Hb : 0 < b) by lra. rewrite last_cons in *. destruct (steps_last H b ts Hb S3) as [L1 L2].
    assert (Hab : ln a <= ln b) by (destruct S1 as [S1|S1]; [left; now apply ln_increasing|right; now rewrite S1]).
    unfold run_steps. rewrite intervals_cons. cbn [fold_left fst snd].
    set (h := ln b - ln a) in *. set (z' := one_step lam p h z).
    specialize (IH b z' Hb S3 ltac:(lra) HT). unfold run_steps in IH. set (l := ln (last ts b)) in *.
    eapply Rle_trans; [exact IH|]. clear IH.
    assert (Hh : 0 <= h <= 1) by (unfold h in *; lra).
    assert (E : norm (minus z' (x (ln b), u (ln b))) <= exp (4 * M * h) * (norm (minus z (x (ln a), u (ln a))) + C * H ^ p * h)).
    { eapply Rle_trans; [apply (norm_triangle _ (one_step lam p h (x (ln a), u (ln a))))|]. unfold z'. rewrite step_minus by exact Hp.
      pose proof (step_norm lam p h (minus z (x (ln a), u (ln a))) Hp ltac:(lra)) as E1.
      assert (Eb : ln b = ln a + h) by (unfold h; ring).
      pose proof (local_error B (ln a) h p Hp Hh) as E2. rewrite <- Eb in E2. fold C in E2.
      assert (E2' := E2 (fun c Hc => HX (ln a + c) ltac:(unfold h in *; lra))). clear E2.
      assert (HPp : h ^ p <= H ^ p) by (apply pow_incr; unfold h in *; lra).
      assert (E3 : C * h ^ (p + 1) <= C * H ^ p * h).
      { rewrite pow_add, pow_1, <- Rmult_assoc. apply Rmult_le_compat_r; [lra|]. now apply Rmult_le_compat_l. }
      assert (G : 1 <= exp (4 * M * h)). { pose proof (grow (4 * M * h)) as G. assert (0 <= 4 * M * h) by (apply Rmult_le_pos; lra). lra. }
      assert (E4 : 0 <= C * H ^ p * h) by (apply Rmult_le_pos; lra).
      assert (E5 : 1 * (C * H ^ p * h) <= exp (4 * M * h) * (C * H ^ p * h)) by (now apply Rmult_le_compat_r). lra. }
    assert (G : 1 <= exp (4 * M * h)). { pose proof (grow (4 * M * h)) as G. assert (0 <= 4 * M * h) by (apply Rmult_le_pos; lra). lra. }
    replace (4 * M * (l - ln a)) with (4 * M * (l - ln b) + 4 * M * h) by (unfold h; ring). rewrite exp_plus, (Rmult_assoc (exp _)).
    apply Rmult_le_compat_l; [left; apply exp_pos|].
    assert (E4 : 0 <= C * H ^ p * (l - ln b)) by (apply Rmult_le_pos; lra).
    assert (E5 : 1 * (C * H ^ p * (l - ln b)) <= exp (4 * M * h) * (C * H ^ p * (l - ln b))) by (now apply Rmult_le_compat_r).
    replace (l - ln a) with (h + (l - ln b)) by (unfold h; ring). lra.
Qed.
End Motion.

Lemma program_run lam p a ts s v f : (1 <= p <= 3)%nat -> 0 < a -> (exists H, steps H a ts) ->
  follow lam (program p (a :: ts)) (s, v, f) = let z := run_steps lam p a ts (s, v) in (fst z, snd z, lam * fst z).
Proof.
  intros Hp Ha [H S]. rewrite program_body by exact Hp. unfold follow. cbn [fold_left act]. fold (follow lam). cbv zeta.
  change (follow lam (flat_map (fun q => body p (fst q) (snd q)) (intervals R (a :: ts))) (s, v, lam * s) = (fst (run_steps lam p a ts (s, v)), snd (run_steps lam p a ts (s, v)), lam * fst (run_steps lam p a ts (s, v)))).
  revert a s v Ha S. induction ts as [|b ts IH]; intros a s v Ha S; [reflexivity|].
  destruct S as (S1 & S2 & S3). unfold run_steps. rewrite intervals_cons. cbn [flat_map fold_left fst snd]. rewrite follow_app, body_step by (assumption || lra). cbv zeta.
  destruct (one_step lam p (ln b - ln a) (s, v)) as [s' v']. cbn [fst snd]. apply IH; [lra|exact S3].
Qed.

(** * C95 *)
Theorem C95_order : forall (lam : R) (x u : R -> R) (p : nat) (a0 T : R), motion lam x u -> (1 <= p <= 3)%nat -> 0 < a0 -> 0 <= T ->
  exists C, 0 <= C /\
  forall (H : R) (ts : list R) (f0 : R), 0 <= H <= 1 -> steps H a0 ts -> ln (last ts a0) - ln a0 <= T ->
  exists s v, follow lam (program p (a0 :: ts)) (x (ln a0), u (ln a0), f0) = (s, v, lam * s) /\
    Rabs (s - x (ln (last ts a0))) <= C * H ^ p /\ Rabs (v - u (ln (last ts a0))) <= C * H ^ p.
Proof.
  intros lam x u p a0 T XU Hp Ha HT. destruct (motion_bounded lam x u XU (ln a0) T HT) as (B & HB & HX).
  pose proof (Rabs_pos lam) as PL. set (C1 := ((1 + Rabs lam) ^ 3 + 2 * (1 + Rabs lam) ^ (p + 1)) * B).
  assert (PC : 0 <= C1).
  { unfold C1. assert (0 <= (1 + Rabs lam) ^ 3) by (apply pow_le; lra). assert (0 <= (1 + Rabs lam) ^ (p + 1)) by (apply pow_le; lra). apply Rmult_le_pos; lra. }
  exists (exp (4 * (1 + Rabs lam) * T) * (C1 * T)). split.
  { apply Rmult_le_pos; [left; apply exp_pos|]. now apply Rmult_le_pos. }
  intros H ts f0 HH S HL. eexists _, _. split; [rewrite program_run by (eauto); reflexivity|].
  pose proof (global_error lam x u XU p H (ln a0) T B Hp HH HX HB ts a0 (x (ln a0), u (ln a0)) Ha S ltac:(lra) ltac:(lra)) as G. fold C1 in G.
  destruct (steps_last H a0 ts Ha S) as [_ L]. set (l := ln (last ts a0)) in *.
  assert (N0 : norm (minus (x (ln a0), u (ln a0)) (x (ln a0), u (ln a0))) = 0).
  { unfold norm, minus. cbn [fst snd]. rewrite !Rminus_diag_eq by reflexivity. rewrite Rabs_R0. ring. }
  rewrite N0, Rplus_0_l in G.
  assert (PH : 0 <= H ^ p) by (apply pow_le; lra).
  assert (G' : exp (4 * (1 + Rabs lam) * (l - ln a0)) * (C1 * H ^ p * (l - ln a0)) <= exp (4 * (1 + Rabs lam) * T) * (C1 * T) * H ^ p).
  { replace (exp (4 * (1 + Rabs lam) * T) * (C1 * T) * H ^ p) with (exp (4 * (1 + Rabs lam) * T) * (C1 * H ^ p * T)) by ring.
    assert (0 <= C1 * H ^ p) by (now apply Rmult_le_pos).
    apply Rmult_le_compat; [left; apply exp_pos|apply Rmult_le_pos; lra|apply exp_mono; apply Rmult_le_compat_l; lra|apply Rmult_le_compat_l; lra]. }
  unfold norm, minus in G. cbn [fst snd] in G. set (z := run_steps lam p a0 ts (x (ln a0), u (ln a0))) in *.
  pose proof (Rabs_pos (fst z - x l)). pose proof (Rabs_pos (snd z - u l)). lra.
Qed.
Print Assumptions C95_order.

(** the oscillator from rest *)
Lemma oscillator : motion (Ropp 1) cos (fun t => Ropp (sin t)).
Proof.
  split; intros t.
  - apply derivable_pt_lim_cos.
  - replace (Ropp 1 * cos t) with (- cos t) by ring. apply (derivable_pt_lim_opp sin). apply derivable_pt_lim_sin.
Qed.
Example C95_case : exists C, 0 <= C /\ forall H ts f0, 0 <= H <= 1 -> steps H 1 ts -> ln (last ts 1) <= 10 ->
  exists s v, follow (Ropp 1) (program 3 (1 :: ts)) (1, 0, f0) = (s, v, Ropp 1 * s) /\
    Rabs (s - cos (ln (last ts 1))) <= C * H ^ 3 /\ Rabs (v - Ropp (sin (ln (last ts 1)))) <= C * H ^ 3.
Proof.
  destruct (C95_order (Ropp 1) cos (fun t => Ropp (sin t)) 3 1 10 oscillator ltac:(lia) ltac:(lra) ltac:(lra)) as (C & HC & P).
  exists C. split; [exact HC|]. intros H ts f0 HH S L. rewrite ln_1 in P. specialize (P H ts f0 HH S ltac:(lra)).
  rewrite cos_0, sin_0, Ropp_0 in P. exact P.
Qed.
(** equal steps meet the hypotheses: the times exp 0, exp H, ..., exp (n H) *)
Lemma equal_steps H : 0 <= H -> forall n k, steps H (exp (INR k * H)) (map (fun i => exp (INR i * H)) (seq (S k) n)).
Proof.
  intros HH. induction n as [|n IH]; intros k; cbn [seq map steps]; [trivial|].
  assert (E : INR (S k) * H = INR k * H + H) by (rewrite S_INR; ring).
  split; [apply exp_mono; lra|]. split; [rewrite !ln_exp; lra|]. apply IH.
Qed.
