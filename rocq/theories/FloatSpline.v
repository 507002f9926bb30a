(** The quadratic and cubic windows with rounded arithmetic
    (pmesh/_window_tuned_tsc.h:1-37, _window_tuned_pcs.h:1-52): the weights that a
    block of the mesh computes are those that the whole mesh computes.  Every
    operation is rounded once, as without fused multiply-add; the canvas is left out. *)
From Coq Require Import List Arith ZArith QArith Qround Qpower Qabs Lqa Lia Bool.
From Verif Require Import Base ListFacts LayoutModel WrapModel WrapProofs DomainModel FloatModel FloatRound FloatDomain FloatNearest FloatPaint FloatCic.
Import ListNotations.
Local Close Scope Q_scope.
Local Open Scope Z_scope.

Inductive spline := TSC | PCS.

Section Window.
Variable rnd : Q -> Q.
(** IJK1: _window_tuned_tsc.h:10, _window_tuned_pcs.h:10 *)
Definition fcentre (s : spline) (X : Q) : Z :=
  match s with TSC => Qfloor (rnd (X + (1 # 2))%Q) | PCS => Qfloor X end.
(** IJK0 to IJK2 or IJK3, relative to IJK1: _window_tuned_tsc.h:11-12, _window_tuned_pcs.h:11-13 *)
Definition offsets (s : spline) : list Z := match s with TSC => [-1; 0; 1] | PCS => [-1; 0; 1; 2] end.
(** V0 to V2 (_window_tuned_tsc.h:15-25), [d] is XYZ[d] - IJK[d], rounded *)
Definition ftsc (diff : bool) (scale : Q) (j : Z) (d : Q) : Q :=
  if j =? 0 then if diff then rnd (rnd (-2 * d) * scale) else rnd ((3 # 4) - rnd (d * d))
  else if j =? -1 then let e := rnd ((3 # 2) - d) in if diff then rnd (- e * scale) else rnd (rnd (e * e) * (1 # 2))
  else let e := rnd ((3 # 2) + d) in if diff then rnd (e * scale) else rnd (rnd (e * e) * (1 # 2)).
(** V0 to V3 (_window_tuned_pcs.h:16-38) *)
Definition fpcs (diff : bool) (j : Z) (d : Q) : Q :=
  let sixth := rnd (1 # 6) in
  if j =? 0 then
    if diff then rnd (sixth * rnd (rnd (-12 * d) + rnd (rnd (9 * d) * d)))
    else rnd (sixth * rnd (rnd (4 - rnd (rnd (6 * d) * d)) + rnd (rnd (rnd (3 * d) * d) * d)))
  else if j =? 1 then
    if diff then rnd (- sixth * rnd (rnd (12 * d) + rnd (rnd (9 * d) * d)))
    else rnd (sixth * rnd (rnd (4 - rnd (rnd (6 * d) * d)) - rnd (rnd (rnd (3 * d) * d) * d)))
  else if j =? -1 then let e := rnd (2 - d) in if diff then rnd (rnd (- (1 # 2) * e) * e) else rnd (rnd (rnd (sixth * e) * e) * e)
  else let e := rnd (2 + d) in if diff then rnd (rnd ((1 # 2) * e) * e) else rnd (rnd (rnd (sixth * e) * e) * e).
Definition fvalue (s : spline) (diff : bool) (scale : Q) (j : Z) (d : Q) : Q :=
  match s with TSC => ftsc diff scale j d | PCS => fpcs diff j d end.
(** one axis: the cells and the weights on a block that begins at cell [a], of a
    mesh with [N] cells (_window_tuned_tsc.h:7-37, _window_tuned_pcs.h:7-52) *)
Definition fspline (s : spline) (diff : bool) (scale : Q) (a N : Z) (pos : Q) : list (Z * Q) :=
  let X := rnd (rnd (pos * scale) + inject_Z (- a))%Q in
  let i := fcentre s X in
  map (fun j => (wrap_ud N (i + j), fvalue s diff scale j (rnd (X - inject_Z (i + j))%Q))) (offsets s).
End Window.

(** ** the value depends on the distance only *)
Section Compat.
Variable rnd : Q -> Q.
Hypothesis r_eq : forall x y, (x == y)%Q -> (rnd x == rnd y)%Q.
Ltac rq H := repeat first
  [ exact H | apply Qeq_refl | apply r_eq | apply Qplus_comp | apply Qmult_comp | apply Qopp_comp | apply Qminus_comp ].
Lemma fvalue_compat_ s diff scale j d d' : (d == d')%Q -> (fvalue rnd s diff scale j d == fvalue rnd s diff scale j d')%Q.
Proof.
  intros H. destruct s; unfold fvalue, ftsc, fpcs; cbv zeta.
  - destruct (j =? 0); [destruct diff; rq H|]. destruct (j =? -1); destruct diff; rq H.
  - destruct (j =? 0); [destruct diff; rq H|]. destruct (j =? 1); [destruct diff; rq H|]. destruct (j =? -1); destruct diff; rq H.
Qed.
End Compat.
Definition fvalue_compat := fvalue_compat_ round64 round64_compat.

(** ** a block that begins at most two cells after the particle *)
Lemma sub_near x a : double x -> 0 <= a <= 2 ^ 31 -> (1 <= x)%Q -> (x <= inject_Z (2 ^ 31))%Q -> (inject_Z a - 2 <= x)%Q ->
  (round64 (x + inject_Z (- a)) == x + inject_Z (- a))%Q.
Proof.
  intros D Ha Hx Hx2 H2. destruct (Qlt_le_dec x (inject_Z a)) as [Hxa|Hxa]; [|apply sub_exact; [exact D|lia|exact Hxa|exact Hx2]].
  destruct (octave x D Hx Hx2) as (k & m & Hk & Hm & E).
  pose proof (K_pos k Hk) as HK. set (K := 2 ^ (51 - k)) in *.
  assert (K2 : K <= 2 ^ 51) by (apply Z.pow_le_mono_r; lia).
  assert (L1 : m <= 2 * K * a).
  { rewrite E, (K_int k Hk a) in Hxa. fold K in Hxa. apply (u_inv k) in Hxa. lia. }
  assert (L2 : 2 * K * a - 4 * K <= m).
  { apply Z.nlt_ge. intros C. apply (u_lt k) in C. rewrite <- E in C. replace (2 * K * a - 4 * K) with (2 * K * (a - 2)) in C by ring.
    pose proof (K_int k Hk (a - 2)) as KA. fold K in KA. rewrite <- KA in C. unfold Z.sub in C. rewrite inject_Z_plus in C.
    change (inject_Z (- (2))) with (- (2))%Q in C. lra. }
  eapply Qeq_trans; [apply round64_compat, (sub_eq x a k m Hk E)|]. rewrite (sub_eq x a k m Hk E). fold K. apply (u_rep k Hk). lia.
Qed.
Lemma fcentre_near s x a : double x -> 0 <= a <= 2 ^ 31 -> (1 <= x)%Q -> (x <= inject_Z (2 ^ 31))%Q -> (inject_Z a - 2 <= x)%Q ->
  fcentre round64 s (round64 (x + inject_Z (- a))) = fcentre round64 s x - a.
Proof.
  intros D Ha Hx Hx2 H2. pose proof (sub_near x a D Ha Hx Hx2 H2) as EX. destruct s; cbn [fcentre].
  2:{ rewrite (floor_eq _ _ EX). apply floor_sub. }
  destruct (octave x D Hx Hx2) as (k & m & Hk & Hm & E).
  pose proof (K_pos k Hk) as HK. set (K := 2 ^ (51 - k)) in *.
  assert (K2 : K <= 2 ^ 51) by (apply Z.pow_le_mono_r; lia).
  assert (L2 : 2 * K * a - 4 * K <= m).
  { apply Z.nlt_ge. intros C. apply (u_lt k) in C. rewrite <- E in C. replace (2 * K * a - 4 * K) with (2 * K * (a - 2)) in C by ring.
    pose proof (K_int k Hk (a - 2)) as KA. fold K in KA. rewrite <- KA in C. unfold Z.sub in C. rewrite inject_Z_plus in C.
    change (inject_Z (- (2))) with (- (2))%Q in C. lra. }
  assert (F0 : Qfloor (round64 (x + (1 # 2))) = (m + K) / (2 * K)).
  { rewrite (floor_eq _ (round64 (inject_Z (m + K) * Qpower 2 (k - 52)))); [apply (half_floor k Hk m Hm)|]. apply round64_compat, (half_eq x k m Hk E). }
  pose proof (sub_eq x a k m Hk E) as ES. fold K in ES. set (m' := m - 2 * K * a) in *.
  assert (E' : (round64 (x + inject_Z (- a)) == inject_Z m' * Qpower 2 (k - 52))%Q) by (rewrite EX; exact ES).
  rewrite F0. rewrite (floor_eq _ (round64 (inject_Z (m' + K) * Qpower 2 (k - 52)))) by apply round64_compat, (half_eq _ k m' Hk E').
  assert (G : (m' + K) / (2 * K) = (m + K) / (2 * K) - a).
  { unfold m'. replace (m - 2 * K * a + K) with (m + K + - a * (2 * K)) by ring. rewrite Z.div_add by lia. ring. }
  rewrite <- G. destruct (Z_lt_le_dec m' 0) as [Hneg|Hpos].
  - rewrite (floor_eq _ (inject_Z (m' + K) * Qpower 2 (k - 52))) by (apply (u_rep k Hk); unfold m' in *; lia).
    pose proof (Z.div_mod (m' + K) (2 * K) ltac:(lia)) as DM. pose proof (Z.mod_pos_bound (m' + K) (2 * K) ltac:(lia)) as MB.
    set (q := (m' + K) / (2 * K)) in *. pose proof (K_int k Hk q) as Q1. pose proof (K_int k Hk (q + 1)) as Q2. fold K in Q1, Q2. apply floor_is.
    + rewrite Q1. apply (u_le k). lia.
    + rewrite Q2. apply (u_lt k). lia.
  - apply (half_floor k Hk). unfold m' in *. nia.
Qed.

Lemma entry1_map (cells : Z -> Z) (vals : Z -> Q) l c :
  entry1 (map (fun j => (cells j, vals j)) l) c = match find (fun j => cells j =? c) l with Some j => vals j | None => 0%Q end.
Proof.
  unfold entry1. induction l as [|j l IH]; [reflexivity|]. cbn. destruct (cells j =? c); [reflexivity|exact IH].
Qed.
Lemma in_offsets s j : In j (offsets s) -> -1 <= j <= match s with TSC => 1 | PCS => 2 end.
Proof. destruct s; cbn; intuition lia. Qed.
Lemma find_nothing {A} (p : A -> bool) l : (forall x, In x l -> p x = false) -> find p l = None.
Proof. induction l as [|b l IH]; intros H; [reflexivity|]. cbn. rewrite (H b) by now left. apply IH. intros y Hy. apply H. now right. Qed.
Lemma find_ext_in {A} (p q : A -> bool) l : (forall x, In x l -> p x = q x) -> find p l = find q l.
Proof. induction l as [|b l IH]; intros H; [reflexivity|]. cbn. rewrite (H b) by now left. rewrite IH; [reflexivity|]. intros y Hy. apply H. now right. Qed.

(** the exception: a particle of the first cell, on a block that does not begin there *)
Definition clear (a : Z) (x : Q) : Prop := (1 <= x)%Q \/ a = 0.

Lemma fspline_block s diff scale a n N pos c : 4 <= N -> 0 <= a -> 0 <= n -> a + n <= N -> N <= 2 ^ 31 ->
  (0 <= round64 (pos * scale) <= inject_Z (2 ^ 31))%Q -> clear a (round64 (pos * scale)) -> a <= c < a + n ->
  (entry1 (fspline round64 s diff scale a N pos) (c - a) == entry1 (fspline round64 s diff scale 0 N pos) c)%Q.
Proof.
  intros HN Ha Hn Han HN2 [Hx0 Hx2] Hcl Hc. destruct (Z.eq_dec a 0) as [->|Ha0]. { rewrite Z.sub_0_r. reflexivity. }
  destruct Hcl as [Hx1|?]; [|contradiction]. unfold fspline.
  assert (D : double (round64 (pos * scale))) by (eexists; reflexivity).
  set (x := round64 (pos * scale)) in *. cbv zeta.
  assert (E0 : (round64 (x + inject_Z (- 0)) == x)%Q).
  { change (inject_Z (- 0)) with 0%Q. eapply Qeq_trans; [apply round64_compat, Qplus_0_r|now apply double_fix]. }
  assert (C0 : fcentre round64 s (round64 (x + inject_Z (- 0))) = fcentre round64 s x).
  { destruct s; cbn [fcentre]; apply floor_eq; [apply round64_compat; now rewrite E0|exact E0]. }
  rewrite C0. rewrite !entry1_map.
  set (i0 := fcentre round64 s x). set (X0 := round64 (x + inject_Z (- 0))) in *. set (X := round64 (x + inject_Z (- a))).
  destruct (Qlt_le_dec x (inject_Z a - 2)) as [Hfar|Hnear].
  2:{ assert (EX : (X == x + inject_Z (- a))%Q) by (apply sub_near; try assumption; lia).
      assert (EC : fcentre round64 s X = i0 - a) by (apply fcentre_near; try assumption; lia). rewrite EC.
      rewrite (find_ext_in _ (fun j => wrap_ud N (i0 + j) =? c)).
      - destruct (find _ _) as [j|]; [|reflexivity]. apply fvalue_compat, round64_compat. rewrite E0, EX.
        replace (i0 - a + j) with (i0 + j + - a) by ring. rewrite (inject_Z_plus (i0 + j)). ring.
      - intros j _. rewrite !wrap_ud_mod by lia. replace (i0 - a + j) with (i0 + j - a) by ring. apply mod_shift; lia. }
  (* far from the block *)
  assert (Far : (inject_Z a - 2 == inject_Z (a - 2))%Q) by (unfold Z.sub; rewrite inject_Z_plus; reflexivity).
  rewrite Far in Hfar.
  assert (I0 : 1 <= i0 <= match s with TSC => a - 2 | PCS => a - 3 end).
  { unfold i0. assert (Hf : Qfloor x <= a - 3). { apply floor_ub. replace (a - 3 + 1) with (a - 2) by ring. exact Hfar. }
    destruct s; cbn [fcentre]; split; try exact Hf; try (apply floor_lb; exact Hx1).
    - apply floor_lb. apply round_lb; [apply round64_int; lia|]. change (inject_Z 1) with 1%Q. lra.
    - apply floor_ub. apply Qle_lt_trans with (inject_Z (a - 2) + (1 # 2))%Q.
      + apply round_ub; [apply rep_half; lia|lra].
      + rewrite inj_1. lra. }
  assert (XU : (X <= inject_Z (-2))%Q).
  { apply round_ub; [apply round64_int; lia|]. change (inject_Z (-2)) with (- (2))%Q. rewrite inject_Z_opp. rewrite <- Far in Hfar. lra. }
  assert (XL : (inject_Z (1 - a) <= X)%Q).
  { apply round_lb; [apply round64_int; lia|]. unfold Z.sub. rewrite inject_Z_plus. change (inject_Z 1) with 1%Q. lra. }
  assert (CX : 1 - a <= fcentre round64 s X <= -2).
  { destruct s; cbn [fcentre]; split; try (apply floor_lb; exact XL).
    - apply floor_lb. apply round_lb; [apply round64_int; lia|lra].
    - apply floor_ub. apply Qle_lt_trans with (inject_Z (-2) + (1 # 2))%Q.
      + apply round_ub; [apply rep_half; lia|lra].
      + reflexivity.
    - apply floor_ub. eapply Qle_lt_trans; [exact XU|]. reflexivity. }
  rewrite (find_nothing (fun j => wrap_ud N (i0 + j) =? c)).
  2:{ intros j Hj. apply in_offsets in Hj. rewrite wrap_ud_mod by lia. apply Z.eqb_neq. rewrite Z.mod_small; destruct s; lia. }
  set (i := fcentre round64 s X) in *.
  destruct (find _ _) as [j|] eqn:Ef; [|reflexivity]. apply find_some in Ef. destruct Ef as [Hj Ef]. apply in_offsets in Hj.
  apply Z.eqb_eq in Ef. rewrite wrap_ud_mod in Ef by lia.
  destruct (Z_lt_le_dec (i + j) 0) as [Hneg|Hnn].
  { exfalso. destruct (outside (i + j) N a n ltac:(lia) Hn Han ltac:(lia)) as [O1 O2]. lia. }
  (* the last cell of the cubic window, where it is zero *)
  destruct s; [lia|]. assert (i = -2) by lia. assert (j = 2) by lia. subst j.
  assert (EX : (X == - (2))%Q).
  { apply Qle_antisym; [exact XU|]. pose proof (Qfloor_le X) as L. change (Qfloor X) with i in L. rewrite H in L. exact L. }
  rewrite H. change (-2 + 2) with 0.
  assert (ED : (round64 (X - inject_Z 0) == - (2))%Q).
  { eapply Qeq_trans; [apply (round64_compat _ (- (2))%Q)|reflexivity]. rewrite EX. reflexivity. }
  eapply Qeq_trans; [apply fvalue_compat, ED|]. destruct diff; reflexivity.
Qed.
Lemma fspline_NoDup s diff scale a N pos : 4 <= N -> NoDup (map fst (fspline round64 s diff scale a N pos)).
Proof.
  intros HN. unfold fspline. cbv zeta. rewrite map_map. cbn [fst]. set (i := fcentre _ _ _).
  rewrite (map_ext _ (fun j => (i + j) mod N)) by (intros; apply wrap_ud_mod; lia).
  assert (Inj : forall j j', -1 <= j <= 2 -> -1 <= j' <= 2 -> (i + j) mod N = (i + j') mod N -> j = j').
  { intros j j' H H' C. pose proof (Z.div_mod (i + j) N ltac:(lia)). pose proof (Z.div_mod (i + j') N ltac:(lia)).
    assert ((i + j) / N - (i + j') / N = 0 \/ (i + j) / N - (i + j') / N <> 0) as [?|?] by lia; nia. }
  destruct s; cbn [offsets map]; repeat constructor; cbn [In]; intros H; repeat destruct H as [H|H]; try contradiction; apply Inj in H; lia.
Qed.

(** the centre of the quadratic window is the cell of the particle or the next one *)
Lemma half_up x : double x -> (0 <= x <= inject_Z (2 ^ 31))%Q ->
  (Qfloor (round64 (x + (1 # 2))) = Qfloor x /\ (x - inject_Z (Qfloor x) < 1 # 2)%Q) \/
  (Qfloor (round64 (x + (1 # 2))) = Qfloor x + 1 /\ (((1 # 2) <= x - inject_Z (Qfloor x))%Q \/ (x < 1 /\ (1 # 2) - Qpower 2 (-53) < x)%Q)).
Proof.
  intros D [H0 H2]. pose proof (Qfloor_le x) as F1. pose proof (Qlt_floor x) as F2. rewrite inj_1 in F2.
  assert (F0 : 0 <= Qfloor x) by (apply floor_lb; exact H0).
  assert (F3 : Qfloor x <= 2 ^ 31) by (rewrite Zle_Qle; lra).
  set (f := Qfloor x) in *. set (r := round64 (x + (1 # 2))).
  assert (L : f <= Qfloor r) by (apply floor_lb, round_lb; [apply round64_int; lia|lra]).
  assert (U : Qfloor r <= f + 1).
  { apply floor_ub. apply Qle_lt_trans with (inject_Z (f + 1) + (1 # 2))%Q; [apply round_ub; [apply rep_half; lia|rewrite inj_1; lra]|]. rewrite !inj_1. lra. }
  destruct (Qlt_le_dec (x - inject_Z f) (1 # 2)) as [H|H].
  - destruct (Z.eq_dec (Qfloor r) f) as [E|E]; [left; now split|]. right. split; [lia|]. right.
    assert (Hr : (inject_Z (f + 1) <= r)%Q). { replace (f + 1) with (Qfloor r) by lia. apply Qfloor_le. }
    destruct (Qlt_le_dec x 1) as [H1|H1].
    + split; [exact H1|]. apply Qnot_le_lt. intros C.
      assert (r <= 1 - Qpower 2 (-53))%Q.
      { unfold r. apply round_ub; [reflexivity|]. lra. }
      assert (inject_Z 1 <= inject_Z (f + 1))%Q by (apply inj_le; lia). change (inject_Z 1) with 1%Q in *.
      assert (0 < Qpower 2 (-53))%Q by reflexivity. lra.
    + exfalso. destruct (octave x D H1 H2) as (k & m & Hk & Hm & Em). pose proof (K_pos k Hk) as HK. set (K := 2 ^ (51 - k)) in *.
      assert (Fr : Qfloor r = (m + K) / (2 * K)).
      { unfold r. rewrite (floor_eq _ (round64 (inject_Z (m + K) * Qpower 2 (k - 52)))); [apply (half_floor k Hk m Hm)|]. apply round64_compat, (half_eq x k m Hk Em). }
      assert (M : m + K < 2 * K * (f + 1)).
      { apply (u_inv k). pose proof (half_eq x k m Hk Em) as HE. pose proof (K_int k Hk (f + 1)) as KA. fold K in KA, HE. rewrite <- HE, <- KA, inj_1. lra. }
      assert ((m + K) / (2 * K) < f + 1) by (apply Z.div_lt_upper_bound; lia). lia.
  - right. split; [|now left]. assert (f + 1 <= Qfloor r); [|lia]. apply floor_lb, round_lb; [apply round64_int; lia|]. rewrite inj_1. lra.
Qed.

