(** Property C102: every class of kick and drift factors of examples/nbody.py:13-75 is consistent
    with the equations of motion dS/da = V / (a^3 E), dV/da = F / (a^2 E), and symp1, symp2 and
    symp3 (nbody.py:84-152) with any of them converge to the motion under any Lipschitz force. *)
From Coq Require Import List Arith ZArith Lia Bool Reals Lra.
From Coquelicot Require Import Coquelicot.
From Verif Require Import EngineModel Base RingModel FieldModel FourierReal NbodyModel NbodySteps NbodyOrder.
Import ListNotations.
Local Open Scope R_scope.

(** ** what is claimed *)
(** the functions of nbodykit's PerturbationGrowth that the factors use: [gf], [gp] are the
    derivatives of [Gf], [Gp] *)
Record growing (E Gf gf Gp gp : R -> R) : Prop := {
  gr_E : forall a, 0 < a -> 0 < E a /\ continuity_pt E a;
  gr_gf : forall a, 0 < a -> gf a <> 0 /\ continuity_pt gf a /\ derivable_pt_lim Gf a (gf a);
  gr_gp : forall a, 0 < a -> gp a <> 0 /\ continuity_pt gp a /\ derivable_pt_lim Gp a (gp a)
}.
(** the integral that scipy approximates *)
Definition integral (g : R -> R) (a b : R) : R := RInt (V := R_CompleteNormedModule) g a b.
(** a factor with the rate [k]: over short intervals it is the rate times the change of a *)
Definition has_rate (k : R -> R) (f : R -> R -> R -> R) (lo hi : R) : Prop :=
  forall eps, 0 < eps -> exists d, 0 < d /\ forall p q r z, lo <= p <= hi -> lo <= q <= hi -> lo <= r <= hi -> lo <= z <= hi ->
    Rabs (p - z) <= d -> Rabs (q - z) <= d -> Rabs (r - z) <= d -> Rabs (f p q r - k z * (q - p)) <= eps * Rabs (q - p).
(** positions, velocities and forces by component *)
Definition vec : Type := nat -> R.
Definition vact (F : vec -> vec) (st : vec * vec * vec) (i : instr Rring) : vec * vec * vec :=
  let '(s, v, f) := st in
  match i with
  | Kick k => (s, fun c => v c + f c * k, f)
  | Drift d => (fun c => s c + v c * d, v, f)
  | Pull => (s, v, F s)
  end.
Definition vfollow (F : vec -> vec) (prog : list (instr Rring)) (st : vec * vec * vec) : vec * vec * vec := fold_left (vact F) prog st.
Definition program_of (p : nat) (f : factors Rring) (ts : list R) : list (instr Rring) :=
  match p with
  | 1%nat => run_symp1 Rring f ts
  | 2%nat => run_symp2 Rring sqrt f ts
  | _ => run_symp3 Rring Rinv ln exp f ts
  end.
Definition lipschitz (n : nat) (F : vec -> vec) (L : R) : Prop :=
  forall s t b, (forall i, (i < n)%nat -> Rabs (s i - t i) <= b) -> forall i, (i < n)%nat -> Rabs (F s i - F t i) <= L * b.
(** times in order, no step longer than [d] *)
Fixpoint short_steps (d : R) (a : R) (ts : list R) : Prop :=
  match ts with [] => True | b :: ts => a <= b /\ b - a <= d /\ short_steps d b ts end.

(** ** functions on an interval *)
Lemma uniform (f : R -> R) lo hi eps : (forall a, lo <= a <= hi -> continuity_pt f a) -> 0 < eps ->
  exists d, 0 < d /\ forall x y, lo <= x <= hi -> lo <= y <= hi -> Rabs (x - y) <= d -> Rabs (f x - f y) <= eps.
Proof.
  intros C He. destruct (Heine f (fun c => lo <= c <= hi) (compact_P3 lo hi) C (mkposreal eps He)) as [d Hd].
  exists (d / 2). pose proof (cond_pos d). split; [lra|]. intros x y Hx Hy H1. apply Rlt_le. apply (Hd x y Hx Hy). lra.
Qed.
Lemma bounded (f : R -> R) lo hi : (forall a, lo <= a <= hi -> continuity_pt f a) -> exists B, 0 <= B /\ forall a, lo <= a <= hi -> Rabs (f a) <= B.
Proof.
  intros C. destruct (Rle_dec lo hi) as [H|H]; [|exists 0; split; [lra|intros; lra]].
  destruct (continuity_ab_maj f lo hi H C) as (M1 & H1 & _). destruct (continuity_ab_min f lo hi H C) as (M2 & H2 & _).
  exists (Rabs (f M1) + Rabs (f M2)). pose proof (Rabs_pos (f M1)). pose proof (Rabs_pos (f M2)). split; [lra|].
  intros a Ha. specialize (H1 a Ha). specialize (H2 a Ha). apply Rabs_le. pose proof (Rle_abs (f M1)). pose proof (Rle_abs (- f M2)) as Q. rewrite Rabs_Ropp in Q. lra.
Qed.
Lemma mean_uniform (P g : R -> R) lo hi eps : (forall a, lo <= a <= hi -> derivable_pt_lim P a (g a)) -> (forall a, lo <= a <= hi -> continuity_pt g a) -> 0 < eps ->
  exists d, 0 < d /\ forall p q z, lo <= p <= hi -> lo <= q <= hi -> lo <= z <= hi -> Rabs (p - z) <= d -> Rabs (q - z) <= d ->
    Rabs (P q - P p - g z * (q - p)) <= eps * Rabs (q - p).
Proof.
  intros D C He. destruct (uniform g lo hi eps C He) as (d & Hd & U). exists d. split; [exact Hd|]. intros p q z Hp Hq Hz H1 H2.
  assert (M : forall a b, lo <= a <= hi -> lo <= b <= hi -> a < b -> Rabs (a - z) <= d -> Rabs (b - z) <= d -> Rabs (P b - P a - g z * (b - a)) <= eps * Rabs (b - a)).
  { intros a b Ha Hb L A1 A2. destruct (MVT_cor2 P g a b L) as (c & E & Hc); [intros c Hc; apply D; lra|]. rewrite E.
    replace (g c * (b - a) - g z * (b - a)) with ((g c - g z) * (b - a)) by ring. rewrite Rabs_mult. apply Rmult_le_compat_r; [apply Rabs_pos|].
    apply U; [lra|exact Hz|]. apply Rabs_le. apply Rabs_le_between in A1. apply Rabs_le_between in A2. lra. }
  destruct (Rtotal_order p q) as [L|[->|L]].
  - apply M; assumption.
  - rewrite !Rminus_eq_0, Rmult_0_r, Rminus_0_r, Rabs_R0. lra.
  - pose proof (M q p Hq Hp L H2 H1) as Q. replace (P q - P p - g z * (q - p)) with (- (P p - P q - g z * (p - q))) by ring.
    rewrite Rabs_Ropp, (Rabs_minus_sym q p). exact Q.
Qed.
(** all classes have factors of this form *)
Lemma rate_of (c P g : R -> R) lo hi : (forall a, lo <= a <= hi -> continuity_pt c a) -> (forall a, lo <= a <= hi -> derivable_pt_lim P a (g a)) ->
  (forall a, lo <= a <= hi -> continuity_pt g a) -> has_rate (fun a => c a * g a) (fun p q r => c r * (P q - P p)) lo hi.
Proof.
  intros Cc D Cg eps He. destruct (bounded c lo hi Cc) as (C & C0 & HC). destruct (bounded g lo hi Cg) as (G & G0 & HG).
  destruct (mean_uniform P g lo hi (eps / (2 * (C + 1))) D Cg ltac:(apply Rdiv_lt_0_compat; lra)) as (d1 & P1 & M1).
  destruct (uniform c lo hi (eps / (2 * (G + 1))) Cc ltac:(apply Rdiv_lt_0_compat; lra)) as (d2 & P2 & M2).
  exists (Rmin d1 d2). split; [now apply Rmin_glb_lt|]. intros p q r z Hp Hq Hr Hz H1 H2 H3.
  pose proof (Rmin_l d1 d2). pose proof (Rmin_r d1 d2).
  specialize (M1 p q z Hp Hq Hz ltac:(lra) ltac:(lra)). specialize (M2 r z Hr Hz ltac:(lra)).
  replace (c r * (P q - P p) - c z * g z * (q - p)) with (c r * (P q - P p - g z * (q - p)) + (c r - c z) * (g z * (q - p))) by ring.
  eapply Rle_trans; [apply Rabs_triang|]. rewrite !Rabs_mult. set (w := Rabs (q - p)) in *. pose proof (Rabs_pos (q - p)). fold w in H4.
  assert (A : Rabs (c r) * Rabs (P q - P p - g z * (q - p)) <= C * (eps / (2 * (C + 1)) * w)) by (apply Rmult_le_compat; try apply Rabs_pos; [apply HC, Hr|exact M1]).
  assert (B : Rabs (c r - c z) * (Rabs (g z) * w) <= eps / (2 * (G + 1)) * (G * w)).
  { apply Rmult_le_compat; [apply Rabs_pos|apply Rmult_le_pos; [apply Rabs_pos|exact H4]|exact M2|apply Rmult_le_compat_r; [exact H4|apply HG, Hz]]. }
  assert (A' : C * (eps / (2 * (C + 1)) * w) <= eps / 2 * w).
  { replace (C * (eps / (2 * (C + 1)) * w)) with (C / (C + 1) * (eps / 2 * w)) by (field; lra). rewrite <- (Rmult_1_l (eps / 2 * w)) at 2.
    apply Rmult_le_compat_r; [apply Rmult_le_pos; lra|]. apply Rmult_le_reg_r with (C + 1); [lra|]. unfold Rdiv. rewrite Rmult_assoc, Rinv_l by lra. lra. }
  assert (B' : eps / (2 * (G + 1)) * (G * w) <= eps / 2 * w).
  { replace (eps / (2 * (G + 1)) * (G * w)) with (G / (G + 1) * (eps / 2 * w)) by (field; lra). rewrite <- (Rmult_1_l (eps / 2 * w)) at 2.
    apply Rmult_le_compat_r; [apply Rmult_le_pos; lra|]. apply Rmult_le_reg_r with (G + 1); [lra|]. unfold Rdiv. rewrite Rmult_assoc, Rinv_l by lra. lra. }
  lra.
Qed.
Lemma rate_ext k k' f f' lo hi : (forall a, lo <= a <= hi -> k a = k' a) ->
  (forall p q r, lo <= p <= hi -> lo <= q <= hi -> lo <= r <= hi -> f p q r = f' p q r) -> has_rate k f lo hi -> has_rate k' f' lo hi.
Proof.
  intros Hk Hf H eps He. destruct (H eps He) as (d & Hd & M). exists d. split; [exact Hd|]. intros p q r z Hp Hq Hr Hz A1 A2 A3.
  rewrite <- Hk, <- Hf by assumption. now apply M.
Qed.

(** ** the classes *)
Section Classes.
Variables (E Gf gf Gp gp : R -> R).
Hypothesis GR : growing E Gf gf Gp gp.
Variables (lo hi : R).
Hypothesis (Hlo : 0 < lo).
Lemma cont_const (c a : R) : continuity_pt (fun _ => c) a.
Proof. apply continuity_pt_const. intros x y. reflexivity. Qed.
Lemma cont_id a : continuity_pt (fun x => x) a.
Proof. apply derivable_continuous_pt. apply derivable_pt_id. Qed.
Lemma cont_E a : 0 < a -> continuity_pt E a. Proof. intros H. apply (gr_E _ _ _ _ _ GR a H). Qed.
Lemma cont_inv (f : R -> R) a : continuity_pt f a -> f a <> 0 -> continuity_pt (fun x => 1 * / f x) a.
Proof.
  intros H H0. apply (continuity_pt_ext (fun x => / f x)); [intros x; ring|]. exact (continuity_pt_inv f a H H0).
Qed.
Lemma cont_mul (f g : R -> R) a : continuity_pt f a -> continuity_pt g a -> continuity_pt (fun x => f x * g x) a.
Proof. intros H1 H2. exact (continuity_pt_mult f g a H1 H2). Qed.
(** the primitive of a function that is continuous at positive numbers *)
Lemma integral_primitive (g : R -> R) : (forall a, 0 < a -> continuity_pt g a) ->
  exists P, (forall a, 0 < a -> derivable_pt_lim P a (g a)) /\ forall p q, 0 < p -> 0 < q -> integral g p q = P q - P p.
Proof.
  intros C. exists (fun b => integral g lo b).
  assert (X : forall p q, 0 < p -> 0 < q -> ex_RInt (V := R_NormedModule) g p q).
  { intros p q Hp Hq. apply (ex_RInt_continuous (V := R_CompleteNormedModule)). intros z Hz. apply continuity_pt_filterlim. apply C.
    pose proof (Rmin_glb_lt p q 0 Hp Hq). lra. }
  split.
  - intros a Ha. apply is_derive_Reals. apply (is_derive_RInt (V := R_NormedModule) g (fun b => integral g lo b) lo a).
    + exists (mkposreal a Ha). intros y Hy. apply (RInt_correct (V := R_CompleteNormedModule)). apply X; [exact Hlo|].
      unfold ball in Hy. cbn in Hy. unfold AbsRing_ball, abs, minus, plus, opp in Hy. cbn in Hy. apply Rabs_def2 in Hy. lra.
    + apply continuity_pt_filterlim. apply C, Ha.
  - intros p q Hp Hq. unfold integral. pose proof (RInt_Chasles (V := R_CompleteNormedModule) g lo p q (X lo p Hlo Hp) (X p q Hp Hq)) as H.
    assert (Q : forall x y z : R, x + y = z -> y = z - x) by (intros; lra). exact (Q _ _ _ H).
Qed.
Lemma positive a : lo <= a <= hi -> 0 < a. Proof. lra. Qed.
Lemma E_nz a : 0 < a -> E a <> 0. Proof. intros H. destruct (gr_E _ _ _ _ _ GR a H) as [P _]. lra. Qed.
Ltac nz := repeat apply Rmult_integral_contrapositive_currified; try (apply Rgt_not_eq; lra); try (apply E_nz; lra).
Ltac co := repeat first [apply cont_const | apply cont_id | apply cont_E; lra | apply cont_mul].
Lemma cont_k a : 0 < a -> continuity_pt (fun a => 1 * / (a * E a)) a.
Proof. intros H. apply cont_inv; [co|nz]. Qed.
Lemma cont_k2 a : 0 < a -> continuity_pt (fun a => 1 * / (a * a * E a)) a.
Proof. intros H. apply cont_inv; [co|nz]. Qed.
Lemma cont_k3 a : 0 < a -> continuity_pt (fun a => 1 * / (a * a * a * E a)) a.
Proof. intros H. apply cont_inv; [co|nz]. Qed.
Lemma derive_id a : derivable_pt_lim (fun x => x) a 1. Proof. apply derivable_pt_lim_id. Qed.
Lemma rate_integral (c g k : R -> R) (f : R -> R -> R -> R) : (forall a, 0 < a -> continuity_pt g a) -> (forall a, 0 < a -> continuity_pt c a) ->
  (forall p q r, f p q r = c r * integral g p q) -> (forall a, 0 < a -> c a * g a = k a) -> has_rate k f lo hi.
Proof.
  intros Cg Cc Hf Hk. destruct (integral_primitive g Cg) as (P & D & HP).
  eapply rate_ext; [| |apply (rate_of c P g lo hi)].
  - intros a Ha. apply Hk. now apply positive.
  - intros p q r H1 H2 H3. cbv beta. rewrite Hf, HP by now apply positive. reflexivity.
  - intros a Ha. apply Cc. now apply positive.
  - intros a Ha. apply D. now apply positive.
  - intros a Ha. apply Cg. now apply positive.
Qed.
Lemma rate_growth (G g k : R -> R) (f : R -> R -> R -> R) : (forall a, 0 < a -> g a <> 0 /\ continuity_pt g a /\ derivable_pt_lim G a (g a)) ->
  (forall a, 0 < a -> continuity_pt k a) -> (forall p q r, f p q r = k r * (G q - G p) * / g r) -> has_rate k f lo hi.
Proof.
  intros HG Ck Hf. eapply rate_ext; [| |apply (rate_of (fun a => k a * (1 * / g a)) G g lo hi)].
  - intros a Ha. cbv beta. field. apply HG. now apply positive.
  - intros p q r _ _ _. cbv beta. rewrite Hf. ring.
  - intros a Ha. apply cont_mul; [apply Ck; now apply positive|]. apply cont_inv; apply HG; now apply positive.
  - intros a Ha. apply HG. now apply positive.
  - intros a Ha. apply HG. now apply positive.
Qed.
Lemma rate_naive (k : R -> R) (f : R -> R -> R -> R) : (forall a, 0 < a -> continuity_pt k a) -> (forall p q r, f p q r = k r * (q - p)) -> has_rate k f lo hi.
Proof.
  intros Ck Hf. eapply rate_ext; [| |apply (rate_of k (fun x => x) (fun _ => 1) lo hi)].
  - intros a Ha. cbv beta. ring.
  - intros p q r _ _ _. cbv beta. now rewrite Hf.
  - intros a Ha. apply Ck. now apply positive.
  - intros a Ha. apply derive_id.
  - intros a Ha. apply cont_const.
Qed.
End Classes.

(** Every class of factors has the rates of the equations of motion. *)
Theorem C102_factors : forall E Gf gf Gp gp f lo hi, growing E Gf gf Gp gp -> In f (all_factors Rring Rinv E Gf gf Gp gp integral) -> 0 < lo ->
  has_rate (fun a => 1 / (a ^ 2 * E a)) (fK Rring f) lo hi /\ has_rate (fun a => 1 / (a ^ 3 * E a)) (fD Rring f) lo hi.
Proof.
  intros E Gf gf Gp gp f lo hi GR Hf Hlo.
  assert (N : forall a, 0 < a -> E a <> 0) by (intros a Ha; now apply (E_nz E Gf gf Gp gp GR)).
  set (k2 := fun a => 1 * / (a * a * E a)). set (k3 := fun a => 1 * / (a * a * a * E a)).
  assert (C1 : forall a, 0 < a -> continuity_pt (fun a => 1 * / (a * E a)) a) by (intros a Ha; now apply (cont_k E Gf gf Gp gp GR)).
  assert (C2 : forall a, 0 < a -> continuity_pt k2 a) by (intros a Ha; now apply (cont_k2 E Gf gf Gp gp GR)).
  assert (C3 : forall a, 0 < a -> continuity_pt k3 a) by (intros a Ha; now apply (cont_k3 E Gf gf Gp gp GR)).
  assert (W2 : forall f, has_rate k2 f lo hi -> has_rate (fun a => 1 / (a ^ 2 * E a)) f lo hi).
  { intros h. apply rate_ext; [|reflexivity]. intros a Ha. unfold k2. field. split; [apply N; lra|lra]. }
  assert (W3 : forall f, has_rate k3 f lo hi -> has_rate (fun a => 1 / (a ^ 3 * E a)) f lo hi).
  { intros h. apply rate_ext; [|reflexivity]. intros a Ha. unfold k3. field. split; [apply N; lra|lra]. }
  assert (GK : has_rate k2 (growth_kick Rring Rinv E Gf gf) lo hi) by (apply (rate_growth lo hi Hlo Gf gf); [apply (gr_gf _ _ _ _ _ GR)|exact C2|reflexivity]).
  assert (GD : has_rate k3 (growth_drift Rring Rinv E Gp gp) lo hi) by (apply (rate_growth lo hi Hlo Gp gp); [apply (gr_gp _ _ _ _ _ GR)|exact C3|reflexivity]).
  assert (I2 : has_rate k2 (fun p q _ => integral (per_a2 Rring Rinv E) p q) lo hi).
  { apply (rate_integral lo hi Hlo (fun _ => 1) k2 k2); [exact C2|intros; apply cont_const| |intros; ring]. intros p q r. symmetry. apply Rmult_1_l. }
  assert (I3 : has_rate k3 (fun p q _ => integral (per_a3 Rring Rinv E) p q) lo hi).
  { apply (rate_integral lo hi Hlo (fun _ => 1) k3 k3); [exact C3|intros; apply cont_const| |intros; ring]. intros p q r. symmetry. apply Rmult_1_l. }
  cbn [In all_factors] in Hf.
  destruct Hf as [<-|[<-|[<-|[<-|[<-|[<-|[<-|[]]]]]]]]; cbn [fK fD FastPM FastPM1 FastPM2 Quinn TVE VTE Naive]; split; (apply W2 || apply W3); try assumption.
  - apply (rate_integral lo hi Hlo (fun r => / (r * r)) (fun a => 1 * / (a * E a)) k3); [exact C1| |reflexivity|].
    + intros a Ha. apply (continuity_pt_inv (fun r => r * r)); [apply cont_mul; apply cont_id|]. apply Rmult_integral_contrapositive_currified; lra.
    + intros a Ha. unfold k3. field. split; [now apply N|lra].
  - apply (rate_integral lo hi Hlo (fun r => / r) (fun a => 1 * / (a * E a)) k2); [exact C1| |reflexivity|].
    + intros a Ha. apply (continuity_pt_inv (fun r => r)); [apply cont_id|lra].
    + intros a Ha. unfold k2. field. split; [now apply N|lra].
  - apply (rate_naive lo hi Hlo); [exact C2|reflexivity].
  - apply (rate_naive lo hi Hlo); [exact C3|reflexivity].
Qed.
Print Assumptions C102_factors.

(** ** the instructions of one interval *)
Definition kick_of (i : instr Rring) : R := match i with Kick k => k | _ => 0 end.
Definition drift_of (i : instr Rring) : R := match i with Drift d => d | _ => 0 end.
Definition rtotal (g : instr Rring -> R) (l : list (instr Rring)) : R := fold_right (fun i t => g i + t) 0 l.
Definition small_by (y : R) (i : instr Rring) : Prop := Rabs (kick_of i) <= y /\ Rabs (drift_of i) <= y.
Lemma abs_between x b : Rabs x <= b <-> - b <= x <= b.
Proof. split; [apply Rabs_le_between|intros; now apply Rabs_le]. Qed.
Lemma tri3 a b c x y : Rabs (a - b) <= x -> Rabs (b - c) <= y -> Rabs (a - c) <= x + y.
Proof. rewrite !abs_between. lra. Qed.
Section Stage.
Variables (n : nat) (F : vec -> vec) (L : R).
Hypothesis (HL : 0 <= L) (HF : lipschitz n F L).
Variables (X U : vec) (B y e : R) (m : nat).
Hypothesis (HU : forall i, (i < n)%nat -> Rabs (U i) <= B) (HX : forall i, (i < n)%nat -> Rabs (F X i) <= B) (HB : 0 <= B) (Hy : 0 <= y) (He : 0 <= e).
Let q := 1 + y * (1 + L).
Let w := e + INR m * y * B.
Lemma q_1 : 1 <= q. Proof. unfold q. nra. Qed.
Lemma w_0 : 0 <= w. Proof. unfold w. pose proof (pos_INR m). assert (0 <= INR m * y * B) by (repeat apply Rmult_le_pos; assumption). lra. Qed.
Lemma stage l : forall j s v f sd sk, List.Forall (small_by y) l -> (j + length l <= m)%nat -> Rabs sd <= INR j * y -> Rabs sk <= INR j * y ->
  (forall i, (i < n)%nat -> Rabs (s i - (X i + sd * U i)) <= e + (q ^ j - 1) * w) ->
  (forall i, (i < n)%nat -> Rabs (v i - (U i + sk * F X i)) <= e + (q ^ j - 1) * w) ->
  (forall i, (i < n)%nat -> Rabs (f i - F X i) <= (1 + L) * q ^ j * w) ->
  forall s' v' f', vfollow F l (s, v, f) = (s', v', f') ->
  (forall i, (i < n)%nat -> Rabs (s' i - (X i + (sd + rtotal drift_of l) * U i)) <= e + (q ^ (j + length l) - 1) * w) /\
  (forall i, (i < n)%nat -> Rabs (v' i - (U i + (sk + rtotal kick_of l) * F X i)) <= e + (q ^ (j + length l) - 1) * w).
Proof.
  induction l as [|i l IH]; intros j s v f sd sk Hl Hj Hd Hk Is Iv If.
  { intros s' v' f' EV. unfold vfollow in EV. cbn [fold_left] in EV. injection EV as <- <- <-. cbn [rtotal fold_right length]. rewrite Nat.add_0_r, !Rplus_0_r. split; assumption. }
  inversion Hl as [|? ? [K1 D1] Hl']; subst. cbn [length] in Hj. pose proof q_1 as Q1. pose proof w_0 as W0.
  assert (QJ : 1 <= q ^ j) by now apply pow_R1_Rle.
  assert (QS : q ^ S j = q ^ j + y * (1 + L) * q ^ j) by (cbn [pow]; unfold q; ring).
  assert (A0 : 0 <= y * (1 + L) * q ^ j) by (repeat apply Rmult_le_pos; lra).
  assert (A1 : 0 <= y * (1 + L) * q ^ j * w) by (apply Rmult_le_pos; assumption).
  assert (SJ : INR (S j) * y = INR j * y + y) by (rewrite S_INR; ring).
  assert (JM : INR j * y * B <= INR m * y * B).
  { apply Rmult_le_compat_r; [exact HB|]. apply Rmult_le_compat_r; [exact Hy|]. apply le_INR. lia. }
  assert (V0 : forall i, (i < n)%nat -> Rabs (v i - U i) <= q ^ j * w).
  { intros c Hc. specialize (Iv c Hc). assert (T : Rabs (sk * F X c) <= INR j * y * B) by (rewrite Rabs_mult; apply Rmult_le_compat; try apply Rabs_pos; [exact Hk|now apply HX]).
    rewrite abs_between in *. unfold w in *. nra. }
  assert (S0 : forall i, (i < n)%nat -> Rabs (s i - X i) <= q ^ j * w).
  { intros c Hc. specialize (Is c Hc). assert (T : Rabs (sd * U c) <= INR j * y * B) by (rewrite Rabs_mult; apply Rmult_le_compat; try apply Rabs_pos; [exact Hd|now apply HU]).
    rewrite abs_between in *. unfold w in *. nra. }
  assert (GO : forall s' v' f' sd' sk', vact F (s, v, f) i = (s', v', f') -> sd' = sd + drift_of i -> sk' = sk + kick_of i ->
    (forall c, (c < n)%nat -> Rabs (s' c - (X c + sd' * U c)) <= e + (q ^ S j - 1) * w) ->
    (forall c, (c < n)%nat -> Rabs (v' c - (U c + sk' * F X c)) <= e + (q ^ S j - 1) * w) ->
    (forall c, (c < n)%nat -> Rabs (f' c - F X c) <= (1 + L) * q ^ S j * w) ->
    forall s' v' f', vfollow F (i :: l) (s, v, f) = (s', v', f') ->
    (forall c, (c < n)%nat -> Rabs (s' c - (X c + (sd + rtotal drift_of (i :: l)) * U c)) <= e + (q ^ (j + S (length l)) - 1) * w) /\
    (forall c, (c < n)%nat -> Rabs (v' c - (U c + (sk + rtotal kick_of (i :: l)) * F X c)) <= e + (q ^ (j + S (length l)) - 1) * w)).
  { intros s' v' f' sd' sk' EV -> -> G1 G2 G3. assert (EQ : vfollow F (i :: l) (s, v, f) = vfollow F l (s', v', f')) by (unfold vfollow; cbn [fold_left]; now rewrite EV).
    intros s2 v2 f2 E2. rewrite EQ in E2. replace (sd + rtotal drift_of (i :: l)) with (sd + drift_of i + rtotal drift_of l) by (cbn [rtotal fold_right]; fold (rtotal drift_of l); ring).
    replace (sk + rtotal kick_of (i :: l)) with (sk + kick_of i + rtotal kick_of l) by (cbn [rtotal fold_right]; fold (rtotal kick_of l); ring).
    replace (j + S (length l))%nat with (S j + length l)%nat by lia.
    refine (IH (S j) s' v' f' _ _ Hl' _ _ _ G1 G2 G3 s2 v2 f2 E2); [lia|rewrite SJ; rewrite abs_between in *; lra|rewrite SJ; rewrite abs_between in *; lra]. }
  assert (Widen : forall a b, Rabs (a - b) <= e + (q ^ j - 1) * w -> Rabs (a - b) <= e + (q ^ S j - 1) * w) by (intros a b H; rewrite QS; lra).
  destruct i as [k|d|]; cbn [kick_of drift_of] in *.
  - eapply (GO s (fun c => v c + f c * k) f); [reflexivity|reflexivity|reflexivity| | |].
    + intros c Hc. rewrite Rplus_0_r. apply Widen, Is, Hc.
    + intros c Hc. specialize (Iv c Hc). specialize (If c Hc).
      assert (T : Rabs ((f c - F X c) * k) <= (1 + L) * q ^ j * w * y) by (rewrite Rabs_mult; apply Rmult_le_compat; try apply Rabs_pos; assumption).
      rewrite QS. rewrite abs_between in *. nra.
    + intros c Hc. specialize (If c Hc). rewrite QS. eapply Rle_trans; [exact If|]. nra.
  - eapply (GO (fun c => s c + v c * d) v f); [reflexivity|reflexivity|reflexivity| | |].
    + intros c Hc. specialize (Is c Hc). specialize (V0 c Hc).
      assert (T : Rabs ((v c - U c) * d) <= q ^ j * w * y) by (rewrite Rabs_mult; apply Rmult_le_compat; try apply Rabs_pos; assumption).
      assert (T' : q ^ j * w * y <= y * (1 + L) * q ^ j * w). { assert (0 <= L * (q ^ j * w * y)) by (repeat apply Rmult_le_pos; lra). lra. }
      rewrite QS. rewrite abs_between in *. nra.
    + intros c Hc. rewrite Rplus_0_r. apply Widen, Iv, Hc.
    + intros c Hc. specialize (If c Hc). rewrite QS. eapply Rle_trans; [exact If|]. nra.
  - eapply (GO s v (F s)); [reflexivity|reflexivity|reflexivity| | |].
    + intros c Hc. rewrite Rplus_0_r. apply Widen, Is, Hc.
    + intros c Hc. rewrite Rplus_0_r. apply Widen, Iv, Hc.
    + intros c Hc. eapply Rle_trans; [apply (HF s X _ S0 c Hc)|]. rewrite QS. assert (0 <= q ^ j * w) by (apply Rmult_le_pos; lra). nra.
Qed.
End Stage.

Definition vbody (p : nat) (f : factors Rring) (ai af : R) : list (instr Rring) :=
  let K := fK Rring f in let D := fD Rring f in
  match p with
  | 1%nat => [Pull Rring; Kick Rring (K ai af ai); Drift Rring (D ai af af); Pull Rring]
  | 2%nat => let ac := sqrt (ai * af) in [Kick Rring (K ai ac ai); Drift Rring (D ai af ac); Pull Rring; Kick Rring (K ac af af)]
  | _ => let ac2 := t_c2 Rring Rinv ln exp ai af in let ad1 := t_d1 Rring Rinv ln exp ai af in let ad2 := t_d2 Rring Rinv ln exp ai af in
         [Drift Rring (D ai af ai); Pull Rring; Kick Rring (K ai ad1 af); Drift Rring (D af ac2 ad1); Pull Rring; Kick Rring (K ad1 ad2 ac2);
          Drift Rring (D ac2 af ad2); Pull Rring; Kick Rring (K ad2 af af)]
  end.
Lemma program_vbody p f ts : (1 <= p <= 3)%nat -> program_of p f ts = Pull Rring :: flat_map (fun q => vbody p f (fst q) (snd q)) (intervals R ts).
Proof. intros Hp. destruct p as [|[|[|[|p]]]]; try lia; reflexivity. Qed.
Lemma vbody_force F p f ai af s v : (1 <= p <= 3)%nat -> exists s' v', vfollow F (vbody p f ai af) (s, v, F s) = (s', v', F s').
Proof. intros Hp. destruct p as [|[|[|[|p]]]]; try lia; cbn [vbody vfollow fold_left vact]; eexists; eexists; reflexivity. Qed.
(** the times inside a step *)
Lemma mid_between ai af : 0 < ai -> ai <= af -> ai <= sqrt (ai * af) <= af.
Proof.
  intros Ha H. split.
  - rewrite <- (sqrt_square ai) at 1 by lra. apply sqrt_le_1_alt. nra.
  - rewrite <- (sqrt_square af) at 2 by lra. apply sqrt_le_1_alt. nra.
Qed.
Lemma ln_between a b c : 0 < a -> 0 < b -> 0 < c -> ln a <= ln b <= ln c -> a <= b <= c.
Proof.
  intros Ha Hb Hc [H1 H2]. split.
  - destruct (Rle_dec a b) as [L|L]; [exact L|]. exfalso. pose proof (ln_increasing b a Hb ltac:(lra)). lra.
  - destruct (Rle_dec b c) as [L|L]; [exact L|]. exfalso. pose proof (ln_increasing c b Hc ltac:(lra)). lra.
Qed.
Lemma ln_mono a b : 0 < a -> a <= b -> ln a <= ln b.
Proof. intros Ha H. destruct (Req_dec a b) as [->|N]; [lra|]. apply Rlt_le, ln_increasing; lra. Qed.
Lemma times_between ai af : 0 < ai -> ai <= af ->
  ai <= t_c2 Rring Rinv ln exp ai af <= af /\ ai - (af - ai) <= t_d1 Rring Rinv ln exp ai af <= ai /\ ai <= t_d2 Rring Rinv ln exp ai af <= af.
Proof.
  intros Ha H. destruct (sub_times ai af Ha ltac:(lra)) as (E1 & E2 & E3). pose proof (ln_mono ai af Ha H) as M.
  assert (P1 : 0 < t_c2 Rring Rinv ln exp ai af) by (unfold t_c2; cbn [rmul Rring]; apply Rmult_lt_0_compat; [lra|apply exp_pos]).
  assert (P2 : 0 < t_d1 Rring Rinv ln exp ai af) by (unfold t_d1; cbn [rmul Rring]; apply Rmult_lt_0_compat; [lra|apply exp_pos]).
  assert (P3 : 0 < t_d2 Rring Rinv ln exp ai af) by (unfold t_d2; cbn [rmul Rring]; apply Rmult_lt_0_compat; [exact P2|apply exp_pos]).
  split; [apply ln_between; lra|]. split; [|apply ln_between; lra].
  assert (Q : 0 < ai * ai / af) by (apply Rdiv_lt_0_compat; [nra|lra]).
  assert (LQ : ln (ai * ai / af) = 2 * ln ai - ln af).
  { unfold Rdiv. rewrite ln_mult, ln_mult, ln_Rinv; try lra; [nra|apply Rinv_0_lt_compat; lra]. }
  destruct (ln_between (ai * ai / af) (t_d1 Rring Rinv ln exp ai af) ai Q P2 Ha ltac:(rewrite LQ, E2; lra)) as [B1 B2]. split; [|exact B2].
  eapply Rle_trans; [|exact B1]. apply Rmult_le_reg_r with af; [lra|]. unfold Rdiv. rewrite Rmult_assoc, Rinv_l by lra. nra.
Qed.
(** the factors of a step add up to the rates *)
Lemma vbody_sums p f ai af k d kap eps : (1 <= p <= 3)%nat -> 0 < ai -> ai <= af -> 0 <= eps <= 1 -> Rabs k <= kap -> Rabs d <= kap ->
  let h := af - ai in
  (forall p q r, ai - h <= p <= af -> ai - h <= q <= af -> ai - h <= r <= af -> Rabs (fK Rring f p q r - k * (q - p)) <= eps * Rabs (q - p)) ->
  (forall p q r, ai - h <= p <= af -> ai - h <= q <= af -> ai - h <= r <= af -> Rabs (fD Rring f p q r - d * (q - p)) <= eps * Rabs (q - p)) ->
  List.Forall (small_by (2 * (kap + 1) * h)) (vbody p f ai af) /\ (length (vbody p f ai af) <= 9)%nat /\
  Rabs (rtotal kick_of (vbody p f ai af) - k * h) <= 6 * eps * h /\ Rabs (rtotal drift_of (vbody p f ai af) - d * h) <= 6 * eps * h.
Proof.
  intros Hp Ha Haf He Hk Hd h HK HD. assert (H0 : 0 <= h) by (unfold h; lra). assert (kap0 : 0 <= kap) by (pose proof (Rabs_pos k); lra).
  assert (E0 : eps * h <= h) by nra. assert (EH : 0 <= eps * h) by nra.
  assert (Y0 : 0 <= 2 * (kap + 1) * h) by nra.
  (* one factor *)
  assert (One : forall (x c p q : R), Rabs c <= kap -> Rabs (x - c * (q - p)) <= eps * Rabs (q - p) -> Rabs (q - p) <= 2 * h ->
    Rabs x <= 2 * (kap + 1) * h /\ Rabs (x - c * (q - p)) <= 2 * (eps * h)).
  { intros x c p' q' Hc Hx Hpq. assert (T : Rabs (c * (q' - p')) <= kap * (2 * h)) by (rewrite Rabs_mult; apply Rmult_le_compat; try apply Rabs_pos; assumption).
    assert (T' : eps * Rabs (q' - p') <= 2 * (eps * h)) by nra. split; [|lra]. rewrite abs_between in *. lra. }
  assert (SK : forall x, Rabs x <= 2 * (kap + 1) * h -> small_by (2 * (kap + 1) * h) (Kick Rring x)) by (intros x Hx; split; cbn [kick_of drift_of]; [exact Hx|now rewrite Rabs_R0]).
  assert (SD : forall x, Rabs x <= 2 * (kap + 1) * h -> small_by (2 * (kap + 1) * h) (Drift Rring x)) by (intros x Hx; split; cbn [kick_of drift_of]; [now rewrite Rabs_R0|exact Hx]).
  assert (SP : small_by (2 * (kap + 1) * h) (Pull Rring)) by (split; cbn [kick_of drift_of]; now rewrite Rabs_R0).
  assert (KK : forall p q r, ai - h <= p <= af -> ai - h <= q <= af -> ai - h <= r <= af -> Rabs (fK Rring f p q r) <= 2 * (kap + 1) * h /\ Rabs (fK Rring f p q r - k * (q - p)) <= 2 * (eps * h)).
  { intros p' q' r' H1 H2 H3. apply One; [exact Hk|now apply HK|]. apply abs_between. unfold h in *. lra. }
  assert (DD : forall p q r, ai - h <= p <= af -> ai - h <= q <= af -> ai - h <= r <= af -> Rabs (fD Rring f p q r) <= 2 * (kap + 1) * h /\ Rabs (fD Rring f p q r - d * (q - p)) <= 2 * (eps * h)).
  { intros p' q' r' H1 H2 H3. apply One; [exact Hd|now apply HD|]. apply abs_between. unfold h in *. lra. }
  clear One HK HD. assert (Bi : ai - h <= ai <= af) by (unfold h in *; lra). assert (Bf : ai - h <= af <= af) by (unfold h in *; lra).
  destruct p as [|[|[|[|p]]]]; try lia; cbn [vbody].
  - destruct (KK ai af ai Bi Bf Bi) as [K1 K2]. destruct (DD ai af af Bi Bf Bf) as [D1 D2].
    split; [repeat apply Forall_cons; auto|]. split; [cbn [length]; lia|]. cbn [rtotal fold_right kick_of drift_of]. unfold h in *. rewrite !abs_between in *. lra.
  - pose proof (mid_between ai af Ha Haf) as M. set (ac := sqrt (ai * af)) in *. assert (Bc : ai - h <= ac <= af) by (unfold h in *; lra).
    destruct (KK ai ac ai Bi Bc Bi) as [K1 K2]. destruct (KK ac af af Bc Bf Bf) as [K3 K4]. destruct (DD ai af ac Bi Bf Bc) as [D1 D2].
    split; [repeat apply Forall_cons; auto|]. split; [cbn [length]; lia|]. cbn [rtotal fold_right kick_of drift_of]. unfold h in *. rewrite !abs_between in *. lra.
  - destruct (times_between ai af Ha Haf) as (T1 & T2 & T3). set (c2 := t_c2 _ _ _ _ _ _) in *. set (d1 := t_d1 _ _ _ _ _ _) in *. set (d2 := t_d2 _ _ _ _ _ _) in *.
    assert (B1 : ai - h <= c2 <= af) by (unfold h in *; lra). assert (B2 : ai - h <= d1 <= af) by (unfold h in *; lra). assert (B3 : ai - h <= d2 <= af) by (unfold h in *; lra).
    destruct (DD ai af ai Bi Bf Bi) as [D1 D2]. destruct (DD af c2 d1 Bf B1 B2) as [D3 D4]. destruct (DD c2 af d2 B1 Bf B3) as [D5 D6].
    destruct (KK ai d1 af Bi B2 Bf) as [K1 K2]. destruct (KK d1 d2 c2 B2 B3 B1) as [K3 K4]. destruct (KK d2 af af B3 Bf Bf) as [K5 K6].
    split; [repeat apply Forall_cons; auto|]. split; [cbn [length]; lia|]. cbn [rtotal fold_right kick_of drift_of].
    clear KK DD SK SD SP K1 K3 K5 D1 D3 D5. unfold h in *. rewrite !abs_between in *. lra.
Qed.

(** ** finitely many components *)
Lemma finitely n (Q : nat -> R -> Prop) : (forall i d d', Q i d -> 0 < d' <= d -> Q i d') -> (forall i, (i < n)%nat -> exists d, 0 < d /\ Q i d) ->
  exists d, 0 < d /\ forall i, (i < n)%nat -> Q i d.
Proof.
  intros Mono. induction n as [|n IH]; intros H; [exists 1; split; [lra|intros; lia]|].
  destruct IH as (d1 & P1 & Q1); [intros i Hi; apply H; lia|]. destruct (H n ltac:(lia)) as (d2 & P2 & Q2).
  exists (Rmin d1 d2). pose proof (Rmin_l d1 d2). pose proof (Rmin_r d1 d2). assert (0 < Rmin d1 d2) by now apply Rmin_glb_lt.
  split; [assumption|]. intros i Hi. destruct (Nat.eq_dec i n) as [->|N]; [apply (Mono n d2); [exact Q2|lra]|apply (Mono i d1); [apply Q1; lia|lra]].
Qed.
Lemma finitely_up n (Q : nat -> R -> Prop) : (forall i b b', Q i b -> b <= b' -> Q i b') -> (forall i, (i < n)%nat -> exists b, 0 <= b /\ Q i b) ->
  exists b, 0 <= b /\ forall i, (i < n)%nat -> Q i b.
Proof.
  intros Mono. induction n as [|n IH]; intros H; [exists 0; split; [lra|intros; lia]|].
  destruct IH as (d1 & P1 & Q1); [intros i Hi; apply H; lia|]. destruct (H n ltac:(lia)) as (d2 & P2 & Q2).
  exists (d1 + d2). split; [lra|]. intros i Hi. destruct (Nat.eq_dec i n) as [->|N]; [apply (Mono n d2); [exact Q2|lra]|apply (Mono i d1); [apply Q1; lia|lra]].
Qed.
Lemma abs3 a b c x y z : Rabs a <= x -> Rabs b <= y -> Rabs c <= z -> Rabs (a + b - c) <= x + y + z.
Proof. rewrite !abs_between. lra. Qed.
Lemma pow_close m y : 0 <= y <= 1 -> (1 + y) ^ m - 1 <= (2 ^ m - 1) * y.
Proof.
  intros Hy. induction m as [|m IH]; [cbn [pow]; lra|]. cbn [pow]. assert (1 <= 2 ^ m) by (apply pow_R1_Rle; lra).
  assert (A : (1 + y) * ((1 + y) ^ m - 1) <= 2 * ((2 ^ m - 1) * y)).
  { apply Rle_trans with ((1 + y) * ((2 ^ m - 1) * y)); [apply Rmult_le_compat_l; lra|]. apply Rmult_le_compat_r; [apply Rmult_le_pos; lra|lra]. }
  lra.
Qed.

Section Converge.
Variables (n : nat) (F : vec -> vec) (L : R) (p : nat) (f : factors Rring) (k d : R -> R) (x u : nat -> R -> R) (a0 T : R).
Hypothesis (HL : 0 <= L) (HF : lipschitz n F L) (Hp : (1 <= p <= 3)%nat) (Ha0 : 0 < a0) (HT : a0 <= T).
Hypothesis (RK : has_rate k (fK Rring f) (a0 / 2) T) (RD : has_rate d (fD Rring f) (a0 / 2) T).
Hypothesis (Ck : forall a, a0 / 2 <= a <= T -> continuity_pt k a) (Cd : forall a, a0 / 2 <= a <= T -> continuity_pt d a).
Hypothesis Mx : forall i a, (i < n)%nat -> a0 <= a <= T -> derivable_pt_lim (x i) a (d a * u i a).
Hypothesis Mu : forall i a, (i < n)%nat -> a0 <= a <= T -> derivable_pt_lim (u i) a (k a * F (fun j => x j a) i).
Local Notation Fx := (fun i a => F (fun j => x j a) i).

Lemma x_cont i a : (i < n)%nat -> a0 <= a <= T -> continuity_pt (x i) a.
Proof. intros Hi Ha. apply derivable_continuous_pt. exists (d a * u i a). now apply Mx. Qed.
Lemma u_cont i a : (i < n)%nat -> a0 <= a <= T -> continuity_pt (u i) a.
Proof. intros Hi Ha. apply derivable_continuous_pt. exists (k a * Fx i a). now apply Mu. Qed.
Lemma F_cont i a : (i < n)%nat -> a0 <= a <= T -> continuity_pt (Fx i) a.
Proof.
  intros Hi Ha eps He. set (b := eps / 2 / (L + 1)). assert (Hb : 0 < b) by (unfold b; repeat apply Rdiv_lt_0_compat; lra).
  destruct (finitely n (fun j dl => forall y, Rabs (y - a) < dl -> Rabs (x j y - x j a) <= b)) as (dl & P & Q).
  - intros j d1 d2 H Hd y Hy. apply H. lra.
  - intros j Hj. destruct (x_cont j a Hj Ha b Hb) as (al & P & Q). exists al. split; [exact P|]. intros y Hy.
    destruct (Req_dec a y) as [<-|N]; [rewrite Rminus_eq_0, Rabs_R0; lra|]. apply Rlt_le. apply Q. split; [split; [exact Logic.I|exact N]|exact Hy].
  - exists dl. split; [exact P|]. intros y [_ Hy]. unfold dist in *. cbn in *. unfold R_dist in *.
    eapply Rle_lt_trans; [apply (HF _ _ b (fun j Hj => Q j Hj y Hy) i Hi)|].
    unfold b. apply Rle_lt_trans with (eps / 2); [|lra]. replace (L * (eps / 2 / (L + 1))) with (L / (L + 1) * (eps / 2)) by (field; lra).
    rewrite <- (Rmult_1_l (eps / 2)) at 2. apply Rmult_le_compat_r; [lra|]. apply Rmult_le_reg_r with (L + 1); [lra|]. unfold Rdiv. rewrite Rmult_assoc, Rinv_l by lra. lra.
Qed.
Lemma sizes_bounded : exists B, 0 <= B /\ forall i a, (i < n)%nat -> a0 <= a <= T -> Rabs (u i a) <= B /\ Rabs (Fx i a) <= B.
Proof.
  destruct (finitely_up n (fun i b => forall a, a0 <= a <= T -> Rabs (u i a) <= b /\ Rabs (Fx i a) <= b)) as (B & P & Q).
  - intros i b b' H Hb a Ha. destruct (H a Ha). lra.
  - intros i Hi. destruct (bounded (u i) a0 T (fun a => u_cont i a Hi)) as (b1 & P1 & Q1). destruct (bounded (Fx i) a0 T (fun a => F_cont i a Hi)) as (b2 & P2 & Q2).
    exists (b1 + b2). split; [lra|]. intros a Ha. specialize (Q1 a Ha). specialize (Q2 a Ha). cbv beta in *. lra.
  - exists B. split; [exact P|]. intros i a Hi Ha. now apply Q.
Qed.
(** the motion over a short time *)
Lemma motion_uniform eps : 0 < eps -> exists dl, 0 < dl /\ forall i ai af, (i < n)%nat -> a0 <= ai <= T -> a0 <= af <= T -> ai <= af -> af - ai <= dl ->
  Rabs (x i af - x i ai - d ai * u i ai * (af - ai)) <= eps * (af - ai) /\ Rabs (u i af - u i ai - k ai * Fx i ai * (af - ai)) <= eps * (af - ai).
Proof.
  intros He.
  destruct (finitely n (fun i dl => forall ai af, a0 <= ai <= T -> a0 <= af <= T -> ai <= af -> af - ai <= dl ->
    Rabs (x i af - x i ai - d ai * u i ai * (af - ai)) <= eps * (af - ai) /\ Rabs (u i af - u i ai - k ai * Fx i ai * (af - ai)) <= eps * (af - ai))) as (dl & P & Q).
  - intros i d1 d2 H Hd ai af H1 H2 H3 H4. apply H; try assumption. lra.
  - intros i Hi.
    destruct (mean_uniform (x i) (fun a => d a * u i a) a0 T eps) as (d1 & P1 & Q1); [intros a Ha; now apply Mx| |exact He|].
    { intros a Ha. apply cont_mul; [apply Cd; lra|now apply u_cont]. }
    destruct (mean_uniform (u i) (fun a => k a * Fx i a) a0 T eps) as (d2 & P2 & Q2); [intros a Ha; now apply Mu| |exact He|].
    { intros a Ha. apply cont_mul; [apply Ck; lra|now apply F_cont]. }
    exists (Rmin d1 d2). pose proof (Rmin_l d1 d2). pose proof (Rmin_r d1 d2). split; [now apply Rmin_glb_lt|]. intros ai af H1 H2 H3 H4.
    assert (Z : Rabs (ai - ai) <= 0) by (rewrite Rminus_eq_0, Rabs_R0; lra). assert (W : Rabs (af - ai) = af - ai) by (apply Rabs_pos_eq; lra).
    specialize (Q1 ai af ai H1 H2 H1 ltac:(lra) ltac:(lra)). specialize (Q2 ai af ai H1 H2 H1 ltac:(lra) ltac:(lra)). rewrite W in *. split; assumption.
  - exists dl. split; [exact P|]. intros i ai af Hi. now apply Q.
Qed.
Lemma rates_bounded : exists kap, 0 <= kap /\ forall a, a0 / 2 <= a <= T -> Rabs (k a) <= kap /\ Rabs (d a) <= kap.
Proof.
  destruct (bounded k (a0 / 2) T Ck) as (b1 & P1 & Q1). destruct (bounded d (a0 / 2) T Cd) as (b2 & P2 & Q2). exists (b1 + b2). split; [lra|].
  intros a Ha. specialize (Q1 a Ha). specialize (Q2 a Ha). lra.
Qed.

(** one step: [y] bounds the factors *)
Lemma step_error ai af e B kap eps1 eps2 s v :
  a0 <= ai -> ai <= af -> af <= T -> 0 <= e -> 0 <= B -> 0 <= eps1 <= 1 -> 0 <= eps2 -> 0 <= kap ->
  let h := af - ai in let c := 2 * (kap + 1) in h <= a0 / 2 -> c * h * (1 + L) <= 1 ->
  Rabs (k ai) <= kap -> Rabs (d ai) <= kap ->
  (forall i, (i < n)%nat -> Rabs (u i ai) <= B /\ Rabs (Fx i ai) <= B) ->
  (forall p q r, ai - h <= p <= af -> ai - h <= q <= af -> ai - h <= r <= af -> Rabs (fK Rring f p q r - k ai * (q - p)) <= eps1 * Rabs (q - p)) ->
  (forall p q r, ai - h <= p <= af -> ai - h <= q <= af -> ai - h <= r <= af -> Rabs (fD Rring f p q r - d ai * (q - p)) <= eps1 * Rabs (q - p)) ->
  (forall i, (i < n)%nat -> Rabs (x i af - x i ai - d ai * u i ai * h) <= eps2 * h /\ Rabs (u i af - u i ai - k ai * Fx i ai * h) <= eps2 * h) ->
  (forall i, (i < n)%nat -> Rabs (s i - x i ai) <= e /\ Rabs (v i - u i ai) <= e) ->
  exists s' v', vfollow F (vbody p f ai af) (s, v, F s) = (s', v', F s') /\
    forall i, (i < n)%nat -> let A := 512 * c * (1 + L) in let r := (1 + A * h) * e + h * (A * 9 * c * h * B + 6 * eps1 * B + eps2) in
      Rabs (s' i - x i af) <= r /\ Rabs (v' i - u i af) <= r.
Proof.
  intros Hai Haf HaT He HB He1 He2 Hkap h c Hh Hch Hk Hd HUF HK HD HM HS.
  destruct (vbody_sums p f ai af (k ai) (d ai) kap eps1 Hp ltac:(lra) Haf He1 Hk Hd HK HD) as (B1 & B2 & B3 & B4).
  destruct (vbody_force F p f ai af s v Hp) as (s' & v' & EV). exists s', v'. split; [exact EV|].
  fold h in B1, B3, B4. fold c in B1. set (y := c * h) in *. assert (H0 : 0 <= h) by (unfold h; lra). assert (C0 : 0 < c) by (unfold c; lra).
  assert (Y0 : 0 <= y) by (unfold y; apply Rmult_le_pos; lra).
  set (X := fun j => x j ai). set (U := fun j => u j ai).
  assert (W0 : 0 <= e + INR 9 * y * B). { assert (0 <= INR 9 * y * B) by (repeat apply Rmult_le_pos; try lra; apply pos_INR). lra. }
  pose proof (stage n F L HL HF X U B y e 9 (fun i Hi => proj1 (HUF i Hi)) (fun i Hi => proj2 (HUF i Hi)) HB Y0 He (vbody p f ai af)
    0%nat s v (F s) 0 0 B1 ltac:(lia)) as ST.
  set (q := 1 + y * (1 + L)) in *. set (w := e + INR 9 * y * B) in *. cbn [pow INR Nat.add] in ST. rewrite Rabs_R0, Rmult_0_l in ST.
  specialize (ST ltac:(lra) ltac:(lra)).
  assert (I1 : forall i, (i < n)%nat -> Rabs (s i - (X i + 0 * U i)) <= e + (1 - 1) * w).
  { intros i Hi. rewrite !Rmult_0_l, Rplus_0_r, Rminus_eq_0, Rmult_0_l, Rplus_0_r. apply (HS i Hi). }
  assert (I2 : forall i, (i < n)%nat -> Rabs (v i - (U i + 0 * F X i)) <= e + (1 - 1) * w).
  { intros i Hi. rewrite !Rmult_0_l, Rplus_0_r, Rminus_eq_0, Rmult_0_l, Rplus_0_r. apply (HS i Hi). }
  assert (I3 : forall i, (i < n)%nat -> Rabs (F s i - F X i) <= (1 + L) * 1 * w).
  { intros i Hi. eapply Rle_trans; [apply (HF s X e (fun j Hj => proj1 (HS j Hj)) i Hi)|]. unfold w in *. assert (0 <= INR 9 * y * B) by (repeat apply Rmult_le_pos; try lra; apply pos_INR). nra. }
  destruct (ST I1 I2 I3 _ _ _ EV) as [S1 S2]. rewrite !Rplus_0_l in S1, S2.
  assert (QP : q ^ length (vbody p f ai af) <= q ^ 9) by (apply Rle_pow; [unfold q; nra|exact B2]).
  assert (Q9 : q ^ 9 - 1 <= 512 * (y * (1 + L))).
  { eapply Rle_trans; [apply (pow_close 9 (y * (1 + L))); split; [apply Rmult_le_pos; lra|exact Hch]|]. assert (0 <= y * (1 + L)) by (apply Rmult_le_pos; lra). cbn [pow]. lra. }
  intros i Hi. cbv zeta. set (A := 512 * c * (1 + L)).
  assert (AH : 512 * (y * (1 + L)) = A * h) by (unfold A, y; ring).
  assert (QW : (q ^ length (vbody p f ai af) - 1) * w <= A * h * w) by (rewrite <- AH; apply Rmult_le_compat_r; [exact W0|lra]).
  assert (WE : A * h * w = A * h * e + h * (A * 9 * c * h * B)) by (unfold w, y; cbn [INR]; ring).
  destruct (HUF i Hi) as [U1 U2]. destruct (HM i Hi) as [M1 M2]. specialize (S1 i Hi). specialize (S2 i Hi).
  assert (D1 : Rabs ((rtotal drift_of (vbody p f ai af) - d ai * h) * U i) <= 6 * eps1 * h * B) by (rewrite Rabs_mult; apply Rmult_le_compat; try apply Rabs_pos; assumption).
  assert (D2 : Rabs ((rtotal kick_of (vbody p f ai af) - k ai * h) * F X i) <= 6 * eps1 * h * B) by (rewrite Rabs_mult; apply Rmult_le_compat; try apply Rabs_pos; assumption).
  split.
  - replace (s' i - x i af) with ((s' i - (X i + rtotal drift_of (vbody p f ai af) * U i)) + ((rtotal drift_of (vbody p f ai af) - d ai * h) * U i) - (x i af - x i ai - d ai * u i ai * h)) by (unfold X, U; ring).
    eapply Rle_trans; [apply (abs3 _ _ _ _ _ _ S1 D1 M1)|]. lra.
  - replace (v' i - u i af) with ((v' i - (U i + rtotal kick_of (vbody p f ai af) * F X i)) + ((rtotal kick_of (vbody p f ai af) - k ai * h) * F X i) - (u i af - u i ai - k ai * F X i * h)) by (unfold X, U; ring).
    eapply Rle_trans; [apply (abs3 _ _ _ _ _ _ S2 D2 M2)|]. lra.
Qed.
(** all steps *)
Definition within (e a : R) (s v : vec) : Prop := forall i, (i < n)%nat -> Rabs (s i - x i a) <= e /\ Rabs (v i - u i a) <= e.
Lemma short_last dl a ts : short_steps dl a ts -> a <= last ts a.
Proof.
  revert a. induction ts as [|b ts IH]; intros a H; [cbn [last]; lra|]. cbn [short_steps] in H. destruct H as (H1 & _ & H2). rewrite last_cons. specialize (IH b H2). lra.
Qed.
Lemma all_steps A eta dl : 0 <= A -> 0 <= eta ->
  (forall ai af e s v, a0 <= ai -> ai <= af -> af <= T -> af - ai <= dl -> 0 <= e -> within e ai s v ->
     exists s' v', vfollow F (vbody p f ai af) (s, v, F s) = (s', v', F s') /\ within ((1 + A * (af - ai)) * e + (af - ai) * eta) af s' v') ->
  forall ts a e s v, a0 <= a -> short_steps dl a ts -> last ts a <= T -> 0 <= e -> within e a s v ->
  exists s' v', vfollow F (flat_map (fun q => vbody p f (fst q) (snd q)) (intervals R (a :: ts))) (s, v, F s) = (s', v', F s') /\
    within (exp (A * (last ts a - a)) * (e + eta * (last ts a - a))) (last ts a) s' v'.
Proof.
  intros HA Heta One. induction ts as [|b ts IH]; intros a e s v Ha Hs Hl He W.
  { exists s, v. split; [reflexivity|]. cbn [last]. rewrite !Rminus_eq_0, !Rmult_0_r, exp_0, Rmult_1_l, Rplus_0_r. exact W. }
  cbn [short_steps] in Hs. destruct Hs as (H1 & H2 & H3). rewrite last_cons in *. pose proof (short_last dl b ts H3) as LB.
  destruct (One a b e s v Ha H1 ltac:(lra) H2 He W) as (s1 & v1 & E1 & W1). set (h := b - a) in *. assert (H0 : 0 <= h) by (unfold h; lra).
  assert (E0 : 0 <= (1 + A * h) * e + h * eta). { assert (0 <= A * h) by now apply Rmult_le_pos. assert (0 <= h * eta) by now apply Rmult_le_pos. assert (0 <= A * h * e) by now apply Rmult_le_pos. lra. }
  destruct (IH b _ s1 v1 ltac:(lra) H3 Hl E0 W1) as (s2 & v2 & E2 & W2). exists s2, v2. split.
  - rewrite intervals_cons. cbn [flat_map fst snd]. unfold vfollow in *. rewrite fold_left_app, E1. exact E2.
  - set (l := last ts b) in *. intros i Hi. destruct (W2 i Hi) as [Q1 Q2].
    assert (Hh : exp (A * (l - a)) = exp (A * (l - b)) * exp (A * h)) by (rewrite <- exp_plus; f_equal; unfold h; ring).
    assert (G1 : 1 + A * h <= exp (A * h)) by apply grow. assert (P : 0 < exp (A * (l - b))) by apply exp_pos.
    assert (AH : 0 <= A * h) by now apply Rmult_le_pos.
    assert (B : (1 + A * h) * e + h * eta + eta * (l - b) <= exp (A * h) * (e + eta * (l - a))).
    { assert (0 <= eta * (l - a)) by (apply Rmult_le_pos; lra). assert (T1 : (1 + A * h) * e <= exp (A * h) * e) by (apply Rmult_le_compat_r; lra).
      assert (T2 : eta * (l - a) <= exp (A * h) * (eta * (l - a))) by (rewrite <- (Rmult_1_l (eta * (l - a))) at 1; apply Rmult_le_compat_r; lra). unfold h in *. lra. }
    assert (C : exp (A * (l - b)) * ((1 + A * h) * e + h * eta + eta * (l - b)) <= exp (A * (l - a)) * (e + eta * (l - a))).
    { rewrite Hh, Rmult_assoc. apply Rmult_le_compat_l; [lra|exact B]. }
    split; eapply Rle_trans; try exact C; assumption.
Qed.
Lemma converges eps : 0 < eps -> exists dl, 0 < dl /\ forall ts f0, short_steps dl a0 ts -> last ts a0 <= T ->
  exists s v, vfollow F (program_of p f (a0 :: ts)) ((fun i => x i a0), (fun i => u i a0), f0) = (s, v, F s) /\ within eps (last ts a0) s v.
Proof.
  intros He. destruct sizes_bounded as (B & B0 & HB). destruct rates_bounded as (kap & K0 & HK).
  set (c := 2 * (kap + 1)). set (A := 512 * c * (1 + L)). assert (C0 : 0 < c) by (unfold c; lra). assert (A0 : 0 < A) by (unfold A; repeat apply Rmult_lt_0_compat; lra).
  set (W := exp (A * (T - a0)) * (T - a0 + 1)). assert (W0 : 0 < W) by (unfold W; apply Rmult_lt_0_compat; [apply exp_pos|lra]).
  set (eta := eps / W). assert (E0 : 0 < eta) by now apply Rdiv_lt_0_compat.
  set (e1 := Rmin 1 (eta / (18 * (B + 1)))). assert (P1 : 0 < eta / (18 * (B + 1))) by (apply Rdiv_lt_0_compat; lra).
  assert (E1 : 0 < e1) by (unfold e1; apply Rmin_glb_lt; lra). assert (E1' : e1 <= 1) by apply Rmin_l.
  assert (E1B : 6 * e1 * B <= eta / 3).
  { apply Rle_trans with (6 * (eta / (18 * (B + 1))) * B); [apply Rmult_le_compat_r; [exact B0|]; apply Rmult_le_compat_l; [lra|apply Rmin_r]|].
    replace (6 * (eta / (18 * (B + 1))) * B) with (B / (B + 1) * (eta / 3)) by (field; lra). rewrite <- (Rmult_1_l (eta / 3)) at 2. apply Rmult_le_compat_r; [lra|].
    apply Rmult_le_reg_r with (B + 1); [lra|]. unfold Rdiv. rewrite Rmult_assoc, Rinv_l by lra. lra. }
  destruct (RK e1 E1) as (d1 & D1 & Q1). destruct (RD e1 E1) as (d2 & D2 & Q2). destruct (motion_uniform (eta / 3) ltac:(lra)) as (d3 & D3 & Q3).
  set (d4 := / (c * (1 + L))). assert (D4 : 0 < d4) by (unfold d4; apply Rinv_0_lt_compat; apply Rmult_lt_0_compat; lra).
  set (G := A * 9 * c * B). assert (G0 : 0 <= G) by (unfold G; repeat apply Rmult_le_pos; lra).
  set (d5 := eta / (3 * (G + 1))). assert (D5 : 0 < d5) by (unfold d5; apply Rdiv_lt_0_compat; lra).
  set (dl := Rmin (Rmin (Rmin d1 d2) (Rmin d3 d4)) (Rmin d5 (a0 / 2))). exists dl.
  assert (M : dl <= d1 /\ dl <= d2 /\ dl <= d3 /\ dl <= d4 /\ dl <= d5 /\ dl <= a0 / 2).
  { unfold dl. pose proof (Rmin_l (Rmin (Rmin d1 d2) (Rmin d3 d4)) (Rmin d5 (a0 / 2))). pose proof (Rmin_r (Rmin (Rmin d1 d2) (Rmin d3 d4)) (Rmin d5 (a0 / 2))).
    pose proof (Rmin_l (Rmin d1 d2) (Rmin d3 d4)). pose proof (Rmin_r (Rmin d1 d2) (Rmin d3 d4)). pose proof (Rmin_l d1 d2). pose proof (Rmin_r d1 d2).
    pose proof (Rmin_l d3 d4). pose proof (Rmin_r d3 d4). pose proof (Rmin_l d5 (a0 / 2)). pose proof (Rmin_r d5 (a0 / 2)). repeat split; lra. }
  destruct M as (M1 & M2 & M3 & M4 & M5 & M6).
  assert (DL : 0 < dl) by (unfold dl; repeat apply Rmin_glb_lt; lra). split; [exact DL|]. intros ts f0 Hs Hl.
  destruct (all_steps A eta dl ltac:(lra) ltac:(lra)) with (ts := ts) (a := a0) (e := 0) (s := fun i => x i a0) (v := fun i => u i a0) as (s & v & EV & WV); try assumption; try lra.
  - intros ai af e s v H1 H2 H3 H4 H5 HW. set (h := af - ai) in *. assert (H0 : 0 <= h) by (unfold h; lra).
    destruct (step_error ai af e B kap e1 (eta / 3) s v) as (s' & v' & EV & R); try assumption; try lra.
    + fold h. lra.
    + fold h. fold c. apply Rle_trans with (c * d4 * (1 + L)); [apply Rmult_le_compat_r; [lra|]; apply Rmult_le_compat_l; lra|]. unfold d4. right. field. split; lra.
    + apply HK. lra.
    + apply HK. lra.
    + intros i Hi. apply HB; [exact Hi|lra].
    + fold h. intros p' q' r' A1 A2 A3. apply Q1; try lra; try (unfold h in *; lra); apply abs_between; unfold h in *; lra.
    + fold h. intros p' q' r' A1 A2 A3. apply Q2; try lra; try (unfold h in *; lra); apply abs_between; unfold h in *; lra.
    + fold h. intros i Hi. apply Q3; try assumption; unfold h in *; lra.
    + exists s', v'. split; [exact EV|]. intros i Hi. specialize (R i Hi). cbv zeta in R. fold h c in R. fold A in R.
      assert (Z : A * 9 * c * h * B + 6 * e1 * B + eta / 3 <= eta).
      { assert (Y : G * h <= eta / 3).
        { apply Rle_trans with (G * d5); [apply Rmult_le_compat_l; lra|]. unfold d5. replace (G * (eta / (3 * (G + 1)))) with (G / (G + 1) * (eta / 3)) by (field; lra).
          rewrite <- (Rmult_1_l (eta / 3)) at 2. apply Rmult_le_compat_r; [lra|]. apply Rmult_le_reg_r with (G + 1); [lra|]. unfold Rdiv. rewrite Rmult_assoc, Rinv_l by lra. lra. }
        replace (A * 9 * c * h * B) with (G * h) by (unfold G; ring). lra. }
      assert (Z' : h * (A * 9 * c * h * B + 6 * e1 * B + eta / 3) <= h * eta) by (apply Rmult_le_compat_l; assumption).
      destruct R as [R1 R2]. split; (eapply Rle_trans; [eassumption|]); lra.
  - intros i Hi. rewrite !Rminus_eq_0, Rabs_R0. lra.
  - exists s, v. split.
    + rewrite program_vbody by exact Hp. unfold vfollow in *. cbn [fold_left vact]. exact EV.
    + pose proof (short_last dl a0 ts Hs) as LB. set (l := last ts a0) in *.
      assert (Fin : exp (A * (l - a0)) * (0 + eta * (l - a0)) <= eps).
      { apply Rle_trans with (W * eta); [|unfold eta; right; field; lra]. unfold W. rewrite Rplus_0_l.
        assert (X1 : exp (A * (l - a0)) <= exp (A * (T - a0))) by (apply exp_mono; apply Rmult_le_compat_l; lra).
        assert (X2 : 0 <= eta * (l - a0)) by (apply Rmult_le_pos; lra).
        apply Rle_trans with (exp (A * (T - a0)) * (eta * (l - a0))); [now apply Rmult_le_compat_r|]. rewrite Rmult_assoc. apply Rmult_le_compat_l; [apply Rlt_le, exp_pos|].
        rewrite (Rmult_comm _ eta). apply Rmult_le_compat_l; lra. }
      intros i Hi. destruct (WV i Hi). split; lra.
Qed.
End Converge.

(** Under any Lipschitz force and with any class of factors, every integrator converges to the
    motion: the error at the last time is small if all steps are short. *)
Theorem C102_converges : forall E Gf gf Gp gp f p n F L (x u : nat -> R -> R) a0 T,
  growing E Gf gf Gp gp -> In f (all_factors Rring Rinv E Gf gf Gp gp integral) -> (1 <= p <= 3)%nat ->
  0 <= L -> lipschitz n F L -> 0 < a0 -> a0 <= T ->
  (forall i a, (i < n)%nat -> a0 <= a <= T -> derivable_pt_lim (x i) a (1 / (a ^ 3 * E a) * u i a)) ->
  (forall i a, (i < n)%nat -> a0 <= a <= T -> derivable_pt_lim (u i) a (1 / (a ^ 2 * E a) * F (fun j => x j a) i)) ->
  forall eps, 0 < eps -> exists d, 0 < d /\
  forall ts f0, short_steps d a0 ts -> last ts a0 <= T ->
  exists s v, vfollow F (program_of p f (a0 :: ts)) ((fun i => x i a0), (fun i => u i a0), f0) = (s, v, F s) /\
    forall i, (i < n)%nat -> Rabs (s i - x i (last ts a0)) <= eps /\ Rabs (v i - u i (last ts a0)) <= eps.
Proof.
  intros E Gf gf Gp gp f p n F L x u a0 T GR Hf Hp HL HF Ha0 HT Mx Mu.
  destruct (C102_factors E Gf gf Gp gp f (a0 / 2) T GR Hf ltac:(lra)) as [RK RD].
  apply (converges n F L p f _ _ x u a0 T HL HF Hp Ha0 HT RK RD); try assumption.
  - intros a Ha. apply (continuity_pt_ext (fun a => 1 * / (a ^ 2 * E a))); [intros; reflexivity|]. apply cont_inv.
    + apply cont_mul; [|apply (cont_E E Gf gf Gp gp GR); lra]. apply derivable_continuous_pt, derivable_pt_pow.
    + apply Rmult_integral_contrapositive_currified; [apply pow_nonzero; lra|apply (E_nz E Gf gf Gp gp GR); lra].
  - intros a Ha. apply (continuity_pt_ext (fun a => 1 * / (a ^ 3 * E a))); [intros; reflexivity|]. apply cont_inv.
    + apply cont_mul; [|apply (cont_E E Gf gf Gp gp GR); lra]. apply derivable_continuous_pt, derivable_pt_pow.
    + apply Rmult_integral_contrapositive_currified; [apply pow_nonzero; lra|apply (E_nz E Gf gf Gp gp GR); lra].
Qed.
Print Assumptions C102_converges.
(** The growing mode of a flat universe of matter: E(a) = a^(-3/2), the force 3/2 of the
    displacement, S = a c and V = a^(3/2) c for three particles with displacements c = 1, 2, 3. *)
Definition matter_E (a : R) : R := / (a * sqrt a).
Lemma sqrt_nz a : 0 < a -> sqrt a <> 0. Proof. intros H. pose proof (sqrt_lt_R0 a H). lra. Qed.
Lemma derive_3_2 a : 0 < a -> derivable_pt_lim (fun a => a * sqrt a) a (3 / 2 * sqrt a).
Proof.
  intros H. pose proof (derivable_pt_lim_mult _ _ a 1 (/ (2 * sqrt a)) (derivable_pt_lim_id a) (derivable_pt_lim_sqrt a H)) as D.
  replace (3 / 2 * sqrt a) with (1 * sqrt a + id a * / (2 * sqrt a)); [exact D|].
  unfold id. assert (S2 : sqrt a * sqrt a = a) by (apply sqrt_sqrt; lra). rewrite <- S2 at 2. field. now apply sqrt_nz.
Qed.
Lemma matter : growing matter_E (fun a => a) (fun _ => 1) (fun a => a * sqrt a) (fun a => 3 / 2 * sqrt a).
Proof.
  assert (CS : forall a, 0 < a -> continuity_pt sqrt a) by (intros a H; apply continuity_pt_sqrt; lra).
  constructor; intros a H; pose proof (sqrt_lt_R0 a H) as S0.
  - split; [apply Rinv_0_lt_compat; nra|]. apply (continuity_pt_inv (fun a => a * sqrt a)); [apply cont_mul; [apply cont_id|now apply CS]|nra].
  - split; [lra|]. split; [apply cont_const|apply derive_id].
  - split; [lra|]. split; [apply cont_mul; [apply cont_const|now apply CS]|now apply derive_3_2].
Qed.
Example C102_case : forall p f eps, (1 <= p <= 3)%nat -> In f (all_factors Rring Rinv matter_E (fun a => a) (fun _ => 1) (fun a => a * sqrt a) (fun a => 3 / 2 * sqrt a) integral) -> 0 < eps ->
  exists d, 0 < d /\ forall ts f0, short_steps d (1 / 10) ts -> last ts (1 / 10) <= 1 ->
  exists s v, vfollow (fun s i => 3 / 2 * s i) (program_of p f (1 / 10 :: ts)) ((fun i => INR (S i) * (1 / 10)), (fun i => INR (S i) * (1 / 10 * sqrt (1 / 10))), f0) = (s, v, fun i => 3 / 2 * s i) /\
    forall i, (i < 3)%nat -> Rabs (s i - INR (S i) * last ts (1 / 10)) <= eps /\ Rabs (v i - INR (S i) * (last ts (1 / 10) * sqrt (last ts (1 / 10)))) <= eps.
Proof.
  intros p f eps Hp Hf He.
  apply (C102_converges matter_E (fun a => a) (fun _ => 1) (fun a => a * sqrt a) (fun a => 3 / 2 * sqrt a) f p 3 (fun s i => 3 / 2 * s i) (3 / 2)
    (fun i a => INR (S i) * a) (fun i a => INR (S i) * (a * sqrt a)) (1 / 10) 1 matter Hf Hp); try lra.
  - intros s t b H i Hi. specialize (H i Hi). replace (3 / 2 * s i - 3 / 2 * t i) with (3 / 2 * (s i - t i)) by ring. rewrite Rabs_mult, (Rabs_pos_eq (3 / 2)) by lra. lra.
  - intros i a _ Ha. assert (S2 : sqrt a * sqrt a = a) by (apply sqrt_sqrt; lra). pose proof (sqrt_nz a ltac:(lra)) as N.
    replace (1 / (a ^ 3 * matter_E a) * (INR (S i) * (a * sqrt a))) with (INR (S i) * 1).
    + exact (derivable_pt_lim_scal (fun a => a) (INR (S i)) a 1 (derive_id a)).
    + unfold matter_E. assert (A0 : a <> 0) by lra. assert (X : 1 / (a ^ 3 * / (a * sqrt a)) * (INR (S i) * (a * sqrt a)) = INR (S i) * (a * a * (sqrt a * sqrt a) / a ^ 3)) by (field; split; assumption).
      rewrite X, S2. field. exact A0.
  - intros i a _ Ha. assert (S2 : sqrt a * sqrt a = a) by (apply sqrt_sqrt; lra). pose proof (sqrt_nz a ltac:(lra)) as N.
    replace (1 / (a ^ 2 * matter_E a) * (3 / 2 * (INR (S i) * a))) with (INR (S i) * (3 / 2 * sqrt a)).
    + exact (derivable_pt_lim_scal (fun a => a * sqrt a) (INR (S i)) a (3 / 2 * sqrt a) (derive_3_2 a ltac:(lra))).
    + unfold matter_E. assert (A0 : a <> 0) by lra. field. split; assumption.
Qed.
(** equal steps are short *)
Lemma equal_short d a n h : 0 <= h <= d -> short_steps d a (map (fun i => a + INR i * h) (seq 1 n)).
Proof.
  intros H. assert (G : forall m k, short_steps d (a + INR k * h) (map (fun i => a + INR i * h) (seq (S k) m))).
  { induction m as [|m IH]; intros k; [exact Logic.I|]. cbn [seq map short_steps]. split; [|split; [|apply IH]]; rewrite S_INR; lra. }
  specialize (G n 0%nat). cbn [INR] in G. rewrite Rmult_0_l, Rplus_0_r in G. exact G.
Qed.
