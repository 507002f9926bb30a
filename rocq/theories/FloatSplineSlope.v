(** Property C98: the differentiated weights of the quadratic and cubic windows in doubles. *)
From Coq Require Import List Arith ZArith QArith Qround Qabs Qpower Lqa Lia Bool.
From Verif Require Import Base ListFacts LayoutModel WrapModel WrapProofs DomainModel FloatModel FloatRound FloatDomain FloatNearest FloatPaint FloatCic FloatSpline FloatSplineError FloatSplineAxis.
Import ListNotations.
Local Close Scope Z_scope.
Local Open Scope Q_scope.

(** the slope of the exact splines *)
Definition slope (s : spline) (t : Q) : Q :=
  let r := Qabs t in
  let v := match s with
   | TSC => if Qle_bool r (1 # 2) then - (2 * r) else if Qle_bool r (3 # 2) then r - (3 # 2) else 0
   | PCS => if Qle_bool r 1 then (3 # 2) * r * r - 2 * r else if Qle_bool r 2 then - ((1 # 2) * (2 - r) * (2 - r)) else 0
   end in if Qle_bool 0 t then v else - v.

Lemma slope_compat s t t' : t == t' -> slope s t == slope s t'.
Proof.
  intros H. unfold slope. cbv zeta. assert (E : Qabs t == Qabs t') by now rewrite H.
  assert (B : forall b, Qle_bool (Qabs t) b = Qle_bool (Qabs t') b).
  { intros b. destruct (Qlt_le_dec b (Qabs t)) as [L|L]; [rewrite !le_bool_false by lra|rewrite !le_bool_true by lra]; reflexivity. }
  assert (Z : Qle_bool 0 t = Qle_bool 0 t') by (destruct (Qlt_le_dec t 0) as [L|L]; [rewrite !le_bool_false by lra|rewrite !le_bool_true by lra]; reflexivity).
  rewrite Z. destruct s; rewrite !B; destruct (Qle_bool (Qabs t') _); try destruct (Qle_bool (Qabs t') _); destruct (Qle_bool 0 t'); try reflexivity; now rewrite E.
Qed.
Lemma slope_pos_ s t : 0 <= t -> slope s t == (match s with
   | TSC => if Qle_bool t (1 # 2) then - (2 * t) else if Qle_bool t (3 # 2) then t - (3 # 2) else 0
   | PCS => if Qle_bool t 1 then (3 # 2) * t * t - 2 * t else if Qle_bool t 2 then - ((1 # 2) * (2 - t) * (2 - t)) else 0 end).
Proof.
  intros H. unfold slope. cbv zeta. assert (E : Qabs t == t) by (apply Qabs_pos; lra). rewrite (le_bool_true 0 t H).
  assert (B : forall b, Qle_bool (Qabs t) b = Qle_bool t b).
  { intros b. destruct (Qlt_le_dec b t) as [L|L]; [rewrite !le_bool_false by lra|rewrite !le_bool_true by lra]; reflexivity. }
  destruct s; rewrite !B; destruct (Qle_bool t _); try destruct (Qle_bool t _); try reflexivity; now rewrite E.
Qed.
Lemma slope_odd s t : slope s (- t) == - slope s t.
Proof.
  destruct (Qlt_le_dec 0 t) as [H|H]; [|destruct (Qlt_le_dec t 0) as [H'|H']].
  - unfold slope. cbv zeta. assert (E : Qabs (- t) = Qabs t) by (destruct t as [[|p|p] q]; reflexivity). rewrite E.
    rewrite (le_bool_false 0 (- t)) by lra. rewrite (le_bool_true 0 t) by lra. reflexivity.
  - unfold slope. cbv zeta. assert (E : Qabs (- t) = Qabs t) by (destruct t as [[|p|p] q]; reflexivity). rewrite E.
    rewrite (le_bool_true 0 (- t)) by lra. rewrite (le_bool_false 0 t) by lra. ring.
  - assert (E : t == 0) by lra. assert (E' : - t == 0) by lra. rewrite (slope_compat s _ _ E), (slope_compat s _ _ E'). destruct s; reflexivity.
Qed.
Lemma slope_tsc_in t : - (1 # 2) <= t -> t <= 1 # 2 -> slope TSC t == - (2 * t).
Proof.
  assert (P : forall u, 0 <= u -> u <= 1 # 2 -> slope TSC u == - (2 * u)) by (intros u A B; rewrite slope_pos_ by exact A; rewrite le_bool_true by exact B; reflexivity).
  intros A B. destruct (Qlt_le_dec t 0) as [L|L]; [|now apply P]. pose proof (P (- t) ltac:(lra) ltac:(lra)) as H. rewrite slope_odd in H. lra.
Qed.
Lemma slope_tsc_right t : 1 # 2 <= t -> t <= 3 # 2 -> slope TSC t == t - (3 # 2).
Proof.
  intros A B. destruct (Qlt_le_dec (1 # 2) t) as [L|L].
  - rewrite slope_pos_ by lra. rewrite le_bool_false by lra. rewrite le_bool_true by lra. reflexivity.
  - rewrite slope_tsc_in by lra. lra.
Qed.
Lemma slope_tsc_out t : 3 # 2 <= t -> slope TSC t == 0.
Proof.
  intros A. destruct (Qlt_le_dec (3 # 2) t) as [L|L].
  - rewrite slope_pos_ by lra. rewrite !le_bool_false by lra. reflexivity.
  - rewrite slope_tsc_right by lra. lra.
Qed.
Lemma slope_pcs_in t : 0 <= t -> t <= 1 -> slope PCS t == (3 # 2) * t * t - 2 * t.
Proof. intros A B. rewrite slope_pos_ by lra. rewrite le_bool_true by lra. reflexivity. Qed.
Lemma slope_pcs_right t : 1 <= t -> t <= 2 -> slope PCS t == - ((1 # 2) * (2 - t) * (2 - t)).
Proof.
  intros A B. destruct (Qlt_le_dec 1 t) as [L|L].
  - rewrite slope_pos_ by lra. rewrite le_bool_false by lra. rewrite le_bool_true by lra. reflexivity.
  - rewrite slope_pcs_in by lra. assert (E : t == 1) by lra. rewrite E. reflexivity.
Qed.
Lemma slope_pcs_out t : 2 <= t -> slope PCS t == 0.
Proof.
  intros A. destruct (Qlt_le_dec 2 t) as [L|L].
  - rewrite slope_pos_ by lra. rewrite !le_bool_false by lra. reflexivity.
  - rewrite slope_pcs_right by lra. assert (E : t == 2) by lra. rewrite E. reflexivity.
Qed.

(** *** the slope is the derivative *)
Definition tangent (f g : Q -> Q) (t u : Q) : Prop := Qabs (f u - f t - (u - t) * g t) <= (u - t) * (u - t).
Definition smooth (f g : Q -> Q) (t u : Q) : Prop := tangent f g t u /\ tangent f g u t /\ Qabs (g u - g t) <= 2 * (u - t).
Lemma smooth_chain f g t m u : t <= m -> m <= u -> smooth f g t m -> smooth f g m u -> smooth f g t u.
Proof.
  intros H1 H2 (A1 & A2 & A3) (B1 & B2 & B3). unfold smooth, tangent in *. rewrite !abs_le in *. split; [|split; [|lra]]; nra.
Qed.
Definition on (f g : Q -> Q) (lo hi : Q) : Prop := forall t u, lo <= t -> t <= u -> u <= hi -> smooth f g t u.
Lemma on_glue f g lo m hi : lo <= m -> m <= hi -> on f g lo m -> on f g m hi -> on f g lo hi.
Proof.
  intros L1 L2 A B t u H1 H2 H3. destruct (Qlt_le_dec u m) as [C|C]; [apply A; lra|]. destruct (Qlt_le_dec m t) as [D|D]; [apply B; lra|].
  apply (smooth_chain f g t m u); [exact D|exact C|apply A; lra|apply B; lra].
Qed.
Lemma on_mirror s lo hi : on (bspline s) (slope s) lo hi -> on (bspline s) (slope s) (- hi) (- lo).
Proof.
  intros A t u H1 H2 H3. destruct (A (- u) (- t) ltac:(lra) ltac:(lra) ltac:(lra)) as (P1 & P2 & P3).
  unfold smooth, tangent in *. rewrite !bspline_even, !slope_odd in *. rewrite !abs_le in *. split; [|split; [|lra]]; nra.
Qed.
Lemma spline_out s t : (match s with TSC => 3 # 2 | PCS => 2 end) <= t -> bspline s t == 0 /\ slope s t == 0.
Proof.
  intros H. split.
  - apply spline_zero. eapply Qle_trans; [exact H|apply Qle_Qabs].
  - destruct s; [now apply slope_tsc_out|now apply slope_pcs_out].
Qed.
Lemma between_scaled q k c : 0 <= q -> - c <= k <= c -> - (c * q) <= q * k <= c * q.
Proof. intros. nra. Qed.
Lemma on_all s B : 2 <= B -> on (bspline s) (slope s) 0 B.
Proof.
  intros HB. destruct s.
  - apply (on_glue _ _ 0 (1 # 2) B); [lra|lra| |apply (on_glue _ _ (1 # 2) (3 # 2) B); [lra|lra| |]]; intros t u H1 H2 H3; unfold smooth, tangent.
    + pose proof (tsc_in t ltac:(apply abs_le; lra)) as E1. pose proof (tsc_in u ltac:(apply abs_le; lra)) as E2. pose proof (slope_tsc_in t ltac:(lra) ltac:(lra)) as E3.
      pose proof (slope_tsc_in u ltac:(lra) ltac:(lra)) as E4. rewrite E1, E2, E3, E4, !abs_le. split; [|split]; try split; nra.
    + rewrite (tsc_right t), (tsc_right u), (slope_tsc_right t), (slope_tsc_right u) by lra. rewrite !abs_le. split; [|split]; try split; nra.
    + destruct (spline_out TSC t H1) as [E1 E2]. destruct (spline_out TSC u (Qle_trans _ _ _ H1 H2)) as [E3 E4]. rewrite E1, E2, E3, E4, !abs_le. split; [|split]; try split; nra.
  - apply (on_glue _ _ 0 1 B); [lra|lra| |apply (on_glue _ _ 1 2 B); [lra|lra| |]]; intros t u H1 H2 H3; unfold smooth, tangent.
    + rewrite (pcs_in t), (pcs_in u), (slope_pcs_in t), (slope_pcs_in u) by lra. rewrite !abs_le.
      assert (E1 : (1 # 6) * (4 - 6 * u * u + 3 * u * u * u) - (1 # 6) * (4 - 6 * t * t + 3 * t * t * t) - (u - t) * ((3 # 2) * t * t - 2 * t)
        == ((u - t) * (u - t)) * ((1 # 2) * (u + 2 * t) - 1)) by ring.
      assert (E2 : (1 # 6) * (4 - 6 * t * t + 3 * t * t * t) - (1 # 6) * (4 - 6 * u * u + 3 * u * u * u) - (t - u) * ((3 # 2) * u * u - 2 * u)
        == ((u - t) * (u - t)) * ((1 # 2) * (t + 2 * u) - 1)) by ring.
      assert (E3 : (3 # 2) * u * u - 2 * u - ((3 # 2) * t * t - 2 * t) == (u - t) * ((3 # 2) * (u + t) - 2)) by ring.
      rewrite E1, E2, E3. assert (S0 : 0 <= (u - t) * (u - t)) by nra.
      pose proof (between_scaled _ ((1 # 2) * (u + 2 * t) - 1) 1 S0 ltac:(lra)) as F1. pose proof (between_scaled _ ((1 # 2) * (t + 2 * u) - 1) 1 S0 ltac:(lra)) as F2.
      pose proof (between_scaled (u - t) ((3 # 2) * (u + t) - 2) 2 ltac:(lra) ltac:(lra)) as F3. split; [|split]; try split; lra.
    + rewrite (pcs_right t), (pcs_right u), (slope_pcs_right t), (slope_pcs_right u) by lra. rewrite !abs_le.
      assert (E1 : (1 # 6) * (2 - u) * (2 - u) * (2 - u) - (1 # 6) * (2 - t) * (2 - t) * (2 - t) - (u - t) * - ((1 # 2) * (2 - t) * (2 - t))
        == ((u - t) * (u - t)) * ((1 # 6) * ((2 - u) + 2 * (2 - t)))) by ring.
      assert (E2 : (1 # 6) * (2 - t) * (2 - t) * (2 - t) - (1 # 6) * (2 - u) * (2 - u) * (2 - u) - (t - u) * - ((1 # 2) * (2 - u) * (2 - u))
        == ((u - t) * (u - t)) * ((1 # 6) * ((2 - t) + 2 * (2 - u)))) by ring.
      assert (E3 : - ((1 # 2) * (2 - u) * (2 - u)) - - ((1 # 2) * (2 - t) * (2 - t)) == (u - t) * ((1 # 2) * (2 - u + (2 - t)))) by ring.
      rewrite E1, E2, E3. assert (S0 : 0 <= (u - t) * (u - t)) by nra.
      pose proof (between_scaled _ ((1 # 6) * ((2 - u) + 2 * (2 - t))) 1 S0 ltac:(lra)) as F1. pose proof (between_scaled _ ((1 # 6) * ((2 - t) + 2 * (2 - u))) 1 S0 ltac:(lra)) as F2.
      pose proof (between_scaled (u - t) ((1 # 2) * (2 - u + (2 - t))) 2 ltac:(lra) ltac:(lra)) as F3. split; [|split]; try split; lra.
    + destruct (spline_out PCS t H1) as [E1 E2]. destruct (spline_out PCS u (Qle_trans _ _ _ H1 H2)) as [E3 E4]. rewrite E1, E2, E3, E4, !abs_le. split; [|split]; try split; nra.
Qed.
Lemma spline_smooth s t u : t <= u -> smooth (bspline s) (slope s) t u.
Proof.
  intros H. set (B := 2 + Qabs t + Qabs u). pose proof (Qabs_nonneg t). pose proof (Qabs_nonneg u).
  pose proof (Qle_Qabs u). pose proof (Qle_Qabs (- t)) as T. rewrite Qabs_opp in T.
  pose proof (on_all s B ltac:(unfold B; lra)) as A. pose proof (on_mirror s 0 B A) as M.
  apply (on_glue _ _ (- B) 0 B); try (unfold B; lra); [|exact A]. intros a b H4 H5 H6. apply M; lra.
Qed.
(** The slope is the derivative of the spline, at every point. *)
Lemma slope_derivative s t h : Qabs (bspline s (t + h) - bspline s t - h * slope s t) <= h * h.
Proof.
  destruct (Qlt_le_dec h 0) as [H|H].
  - destruct (spline_smooth s (t + h) t ltac:(lra)) as (_ & A & _). unfold tangent in A. rewrite abs_le in *. nra.
  - destruct (spline_smooth s t (t + h) ltac:(lra)) as (A & _ & _). unfold tangent in A. rewrite abs_le in *. nra.
Qed.
Lemma slope_lipschitz s t u : Qabs (slope s t - slope s u) <= 2 * Qabs (t - u).
Proof.
  destruct (Qlt_le_dec t u) as [H|H].
  - destruct (spline_smooth s t u ltac:(lra)) as (_ & _ & A). rewrite Qabs_Qminus, (Qabs_Qminus t). pose proof (Qle_Qabs (u - t)). lra.
  - destruct (spline_smooth s u t H) as (_ & _ & A). pose proof (Qle_Qabs (t - u)). lra.
Qed.

(** *** the rounded operations *)
Lemma scaled_near e e' scale m d : Qabs scale <= Qpower 2 m -> (-1000 <= m)%Z -> Qabs (e - e') <= d -> Qabs e' <= 1 -> d <= 2 * ulp ->
  Qabs (round64 (e * scale) - e' * scale) <= 6 * ulp * Qpower 2 m.
Proof.
  intros Hs Hm He He' Hd. pose proof ulp_pos. pose proof ulp_small. set (c := Qpower 2 m) in *.
  assert (C0 : 0 <= c) by (pose proof (Qabs_nonneg scale); lra).
  assert (A : Qabs (e * scale - e' * scale) <= 2 * ulp * c).
  { assert (E : e * scale - e' * scale == (e - e') * scale) by ring. rewrite E. apply abs_mul; lra. }
  assert (B : Qabs (e' * scale) <= 1 * c) by now apply abs_mul.
  assert (P : Qpower 2 (m + 1) == 2 * c) by (rewrite qpow_plus; change (Qpower 2 1) with 2; unfold c; ring).
  apply (step' _ _ (2 * ulp * c) (m + 1) (1 * c)); [exact A|exact B|lia| |]; rewrite P; nra.
Qed.
Lemma two_near d : Qabs d <= 1 # 2 -> Qabs (round64 (-2 * d) - -2 * d) <= 2 * ulp.
Proof. intros H. apply (step' _ _ 0 0 1); [apply self|rewrite abs_le in H |- *; lra|lia|small|small]. Qed.
Lemma one_near f : Qabs f <= 1 -> Qabs (round64 f - f) <= ulp.
Proof. intros H. apply (step' _ _ 0 0 1); [apply self|exact H|lia|small|small]. Qed.
Lemma pcs_slope_sum v w d : Qabs d <= 1 -> Qabs (v - w) <= 16 * ulp -> Qabs w <= 12 ->
  Qabs (round64 (v + round64 (round64 (9 * d) * d)) - (w + 9 * d * d)) <= 80 * ulp /\ Qabs (w + 9 * d * d) <= 21.
Proof.
  intros Hd Hv Hw. assert (H9 : Qabs (9 * d) <= 9) by (rewrite abs_le in Hd |- *; lra).
  assert (A : Qabs (round64 (9 * d) - 9 * d) <= 16 * ulp) by (apply (step' _ _ 0 4 9); [apply self|exact H9|lia|small|small]).
  set (p := round64 (9 * d)) in *.
  assert (B : Qabs (p * d - 9 * d * d) <= 16 * ulp) by (apply (mul' p (9 * d) d d (16 * ulp) 0 9 1); try assumption; [apply self|small]).
  assert (HB : Qabs (9 * d * d) <= 9) by (eapply Qle_trans; [apply (abs_mul (9 * d) d 9 1 H9 Hd)|lra]).
  assert (C : Qabs (round64 (p * d) - 9 * d * d) <= 32 * ulp) by (apply (step' _ _ (16 * ulp) 4 9); [exact B|exact HB|lia|small|small]).
  assert (HS : Qabs (w + 9 * d * d) <= 21) by (eapply Qle_trans; [apply (abs_add _ _ _ _ Hw HB)|lra]).
  split; [|exact HS]. apply (step' _ _ (48 * ulp) 5 21); [|exact HS|lia| |].
  - eapply Qle_trans; [apply (add_near _ _ _ _ _ _ Hv C)|]. small.
  - change (Qpower 2 5) with 32. small.
  - change (Qpower 2 5) with 32. small.
Qed.
Lemma pcs_slope_last r c v t : Qabs (r - c) <= ulp -> Qabs c <= 1 # 6 -> Qabs (v - t) <= 80 * ulp -> Qabs t <= 21 -> Qabs (round64 (r * v) - c * t) <= 48 * ulp.
Proof.
  intros Hr Hc Hv Ht.
  assert (B : Qabs (r * v - c * t) <= 36 * ulp) by (apply (mul' r c v t ulp (80 * ulp) (1 # 6) 21); try assumption; small).
  apply (step' _ _ (36 * ulp) 2 (7 # 2)); [exact B| |lia|small|small]. eapply Qle_trans; [apply (abs_mul _ _ _ _ Hc Ht)|]. vm_compute. discriminate.
Qed.
Lemma pcs_slope_out r f : (r == 1 # 2 \/ r == - (1 # 2)) -> Qabs f <= 1 ->
  Qabs (round64 (round64 (r * round64 f) * round64 f) - r * f * f) <= 8 * ulp.
Proof.
  intros Hr Hf. pose proof (one_near f Hf) as A. set (e := round64 f) in *.
  assert (HR : Qabs r <= 1) by (apply abs_le; lra).
  assert (H1 : Qabs (r * f) <= 1) by (eapply Qle_trans; [apply (abs_mul _ _ _ _ HR Hf)|lra]).
  assert (B : Qabs (r * e - r * f) <= ulp) by (apply (mul' r r e f 0 ulp 1 1); try assumption; [apply self|small]).
  assert (C : Qabs (round64 (r * e) - r * f) <= 3 * ulp) by (apply (step' _ _ ulp 1 1); [exact B|exact H1|lia|small|small]).
  set (g := round64 (r * e)) in *.
  assert (D : Qabs (g * e - r * f * f) <= 5 * ulp) by (apply (mul' g (r * f) e f (3 * ulp) ulp 1 1); try assumption; small).
  assert (H2 : Qabs (r * f * f) <= 1) by (eapply Qle_trans; [apply (abs_mul _ _ _ _ H1 Hf)|lra]).
  apply (step' _ _ (5 * ulp) 1 1); [exact D|exact H2|lia|small|small].
Qed.
(** what the slope is multiplied with: the cubic window omits the scale of the axis
    (_window_tuned_pcs.h:21-38) *)
Definition factor (s : spline) (scale : Q) : Q := match s with TSC => scale | PCS => 1 end.
Lemma fslope_near s scale j d m : In j (offsets s) -> span s j d -> Qabs (factor s scale) <= Qpower 2 m -> (-1000 <= m)%Z ->
  Qabs (fvalue round64 s true scale j d - factor s scale * slope s d) <= 48 * ulp * Qpower 2 m.
Proof.
  intros Hj Hs Hf Hm. pose proof ulp_pos as U0. assert (C0 : 0 <= Qpower 2 m) by (pose proof (Qabs_nonneg (factor s scale)); lra).
  destruct s; cbn [offsets In factor] in *; unfold span in Hs.
  - assert (W : forall x y, Qabs (x - y) <= 6 * ulp * Qpower 2 m -> Qabs (x - y) <= 48 * ulp * Qpower 2 m) by (intros x y H; eapply Qle_trans; [exact H|nra]).
    destruct Hj as [<-|[<-|[<-|[]]]]; cbn [fvalue]; unfold ftsc; cbn [Z.eqb]; cbv zeta; apply W.
    + change (inject_Z (-1)) with (-1 # 1) in Hs. pose proof (slope_tsc_right d ltac:(lra) ltac:(lra)) as E.
      eapply near_eq; [|apply (scaled_near _ (d - (3 # 2)) scale m ulp Hf Hm); [|rewrite abs_le; lra|lra]]; [rewrite E; ring|].
      pose proof (one_near ((3 # 2) - d) ltac:(rewrite abs_le; lra)) as O. rewrite abs_le in O |- *. lra.
    + change (inject_Z 0) with 0 in Hs. pose proof (slope_tsc_in d ltac:(lra) ltac:(lra)) as E.
      eapply near_eq; [|apply (scaled_near _ (-2 * d) scale m (2 * ulp) Hf Hm); [apply two_near; rewrite abs_le; lra|rewrite abs_le; lra|lra]]. rewrite E. ring.
    + change (inject_Z 1) with 1 in Hs. pose proof (slope_tsc_right (- d) ltac:(lra) ltac:(lra)) as E. rewrite slope_odd in E.
      eapply near_eq; [|apply (scaled_near _ ((3 # 2) + d) scale m ulp Hf Hm); [apply one_near; rewrite abs_le; lra|rewrite abs_le; lra|lra]].
      assert (E' : slope TSC d == (3 # 2) + d) by lra. rewrite E'. ring.
  - assert (M1 : 1 <= Qpower 2 m) by (change (Qabs 1) with 1 in Hf; exact Hf).
    assert (W : forall x y, Qabs (x - y) <= 48 * ulp -> Qabs (x - 1 * y) <= 48 * ulp * Qpower 2 m).
    { intros x y H. eapply Qle_trans; [eapply near_eq; [|exact H]; ring|]. nra. }
    destruct Hj as [<-|[<-|[<-|[<-|[]]]]]; cbn [fvalue]; unfold fpcs; cbn [Z.eqb Pos.eqb]; cbv zeta; apply W.
    + change (inject_Z (-1)) with (-1 # 1) in Hs. pose proof (slope_pcs_right d ltac:(lra) ltac:(lra)) as E.
      eapply near_eq; [|eapply Qle_trans; [apply (pcs_slope_out (- (1 # 2)) (2 - d)); [right; reflexivity|rewrite abs_le; lra]|lra]]. rewrite E. ring.
    + change (inject_Z 0) with 0 in Hs. pose proof (slope_pcs_in d ltac:(lra) ltac:(lra)) as E. assert (D1 : Qabs d <= 1) by (rewrite abs_le; lra).
      assert (V : Qabs (round64 (-12 * d) - -12 * d) <= 16 * ulp) by (apply (step' _ _ 0 4 12); [apply self|rewrite abs_le in D1 |- *; lra|lia|small|small]).
      destruct (pcs_slope_sum _ _ d D1 V ltac:(rewrite abs_le in D1 |- *; lra)) as [S1 S2].
      eapply near_eq; [|apply (pcs_slope_last _ (1 # 6) _ _ sixth ltac:(vm_compute; discriminate) S1 S2)]. rewrite E. ring.
    + change (inject_Z 1) with 1 in Hs. pose proof (slope_pcs_in (- d) ltac:(lra) ltac:(lra)) as E. rewrite slope_odd in E. assert (D1 : Qabs d <= 1) by (rewrite abs_le; lra).
      assert (V : Qabs (round64 (12 * d) - 12 * d) <= 16 * ulp) by (apply (step' _ _ 0 4 12); [apply self|rewrite abs_le in D1 |- *; lra|lia|small|small]).
      destruct (pcs_slope_sum _ _ d D1 V ltac:(rewrite abs_le in D1 |- *; lra)) as [S1 S2].
      eapply near_eq; [|eapply (pcs_slope_last _ (- (1 # 6))); [|vm_compute; discriminate|exact S1|exact S2]].
      * assert (E' : slope PCS d == - ((3 # 2) * d * d + 2 * d)) by (assert (T : - slope PCS d == (3 # 2) * d * d + 2 * d) by (rewrite E; ring); lra). rewrite E'. ring.
      * pose proof sixth as S6. rewrite abs_le in S6 |- *. lra.
    + change (inject_Z 2) with 2 in Hs. pose proof (slope_pcs_right (- d) ltac:(lra) ltac:(lra)) as E. rewrite slope_odd in E.
      eapply near_eq; [|eapply Qle_trans; [apply (pcs_slope_out (1 # 2) (2 + d)); [left; reflexivity|rewrite abs_le; lra]|lra]].
      assert (T : slope PCS d == (1 # 2) * (2 - - d) * (2 - - d)) by lra. rewrite T. ring.
Qed.
Lemma span_round s i j X : In j (offsets s) -> span s 0 (X - inject_Z i) ->
  let y := X - inject_Z (i + j) in span s j (round64 y) /\ Qabs (round64 y - y) <= 2 * ulp.
Proof.
  intros Hj Hs y. pose proof (in_offsets s j Hj) as Hr.
  assert (Ey : y == X - inject_Z i - inject_Z j) by (unfold y; rewrite inj_plus; ring).
  assert (S0 : span s j y). { destruct s; unfold span in *; change (inject_Z 0) with 0 in Hs; lra. }
  split.
  - destruct s; unfold span in *.
    + split.
      * assert (inject_Z (- j - 1) + (1 # 2) <= round64 y); [|unfold Z.sub in *; rewrite inj_plus, inject_Z_opp in *; change (inject_Z (- (1))) with (-1 # 1) in *; lra].
        apply round_lb; [apply rep_half; lia|]. unfold Z.sub. rewrite inj_plus, inject_Z_opp. change (inject_Z (- (1))) with (-1 # 1). lra.
      * assert (round64 y <= inject_Z (- j) + (1 # 2)); [|rewrite inject_Z_opp in *; lra]. apply round_ub; [apply rep_half; lia|]. rewrite inject_Z_opp. lra.
    + split.
      * assert (inject_Z (- j) <= round64 y); [|rewrite inject_Z_opp in *; lra]. apply round_lb; [apply round64_int; lia|]. rewrite inject_Z_opp. lra.
      * assert (round64 y <= inject_Z (1 - j)); [|unfold Z.sub in *; rewrite inj_plus, inject_Z_opp in *; change (inject_Z 1) with 1 in *; lra].
        apply round_ub; [apply round64_int; lia|]. unfold Z.sub. rewrite inj_plus, inject_Z_opp. change (inject_Z 1) with 1. lra.
  - apply (step' _ _ 0 1 2); [apply self| |lia|small|small].
    apply abs_le. assert (J1 : -1 <= inject_Z j) by (change (-1) with (inject_Z (-1)); apply inj_le; lia).
    destruct s; unfold span in S0; [assert (J2 : inject_Z j <= 1) by (apply (inj_le j 1); lia)|assert (J2 : inject_Z j <= 2) by (apply (inj_le j 2); lia)]; lra.
Qed.

(** The differentiated weights of an axis are the slope of the spline, times the scale
    of the axis in the quadratic window, to 2^-47 of it. *)
Theorem C98_gradient : forall s, exists b' : Q -> Q, (forall t h, Qabs (bspline s (t + h) - bspline s t - h * b' t) <= h * h) /\
  forall scale a N pos m, (4 <= N)%Z -> (0 <= a < N)%Z -> (N <= 2 ^ 31)%Z ->
  let x := round64 (pos * scale) in 1 <= x <= inject_Z (2 ^ 31) -> inject_Z a - 2 <= x ->
  let c := match s with TSC => scale | PCS => 1 end in Qabs c <= Qpower 2 m -> (-1000 <= m)%Z ->
  Forall2 (fun e j => fst e = ((middle s x + j - a) mod N)%Z /\ Qabs (snd e - c * b' (x - inject_Z (middle s x + j))) <= Qpower 2 (m - 47))
    (fspline round64 s true scale a N pos) (offsets s).
Proof.
  intros s. exists (slope s). split; [apply slope_derivative|].
  intros scale a N pos m HN Ha HN2 x Hx Hax c Hc Hm. change c with (factor s scale) in *. clear c. assert (D : double x) by (eexists; reflexivity).
  destruct (middle_ok s x D ltac:(lra) ltac:(intros _; left; lra)) as [M1 M2].
  pose proof (sub_near x a D ltac:(lia) ltac:(lra) ltac:(lra) Hax) as EX.
  pose proof (fcentre_near s x a D ltac:(lia) ltac:(lra) ltac:(lra) Hax) as EC.
  unfold fspline. fold x. cbv zeta. set (X := round64 (x + inject_Z (- a))) in *. rewrite EC, M1. set (i := middle s x) in *.
  assert (PM : Qpower 2 (m - 47) == 64 * ulp * Qpower 2 m). { unfold Z.sub. rewrite qpow_plus. change (Qpower 2 (- (47))) with (1 # 140737488355328). unfold ulp. change (Qpower 2 (-53)) with (1 # 9007199254740992). ring. }
  assert (V : forall j, In j (offsets s) -> Qabs (fvalue round64 s true scale j (round64 (X - inject_Z (i - a + j))) - factor s scale * slope s (x - inject_Z (i + j))) <= Qpower 2 (m - 47)).
  { intros j Hj. assert (S' : span s 0 (X - inject_Z (i - a))).
    { assert (E : X - inject_Z (i - a) == x - inject_Z i) by (rewrite EX; unfold Z.sub; rewrite inj_plus; ring). destruct s; unfold span in *; rewrite E; exact M2. }
    destruct (span_round s (i - a) j X Hj S') as [R1 R2]. pose proof (fslope_near s scale j _ m Hj R1 Hc Hm) as R.
    assert (E : X - inject_Z (i - a + j) == x - inject_Z (i + j)) by (rewrite EX; unfold Z.sub; rewrite !inj_plus; ring).
    set (y := X - inject_Z (i - a + j)) in *. pose proof (slope_lipschitz s (round64 y) y) as L. rewrite (slope_compat s _ _ E) in L at 1.
    assert (L' : Qabs (factor s scale * (slope s (round64 y) - slope s (x - inject_Z (i + j)))) <= Qpower 2 m * (4 * ulp)) by (apply abs_mul; [exact Hc|lra]).
    rewrite PM. pose proof ulp_pos. assert (C0 : 0 <= Qpower 2 m) by (pose proof (Qabs_nonneg (factor s scale)); lra).
    assert (U : 0 <= ulp * Qpower 2 m) by nra. rewrite abs_le in *. nra. }
  assert (G : forall l, incl l (offsets s) -> Forall2 (fun e j => fst e = ((i + j - a) mod N)%Z /\ Qabs (snd e - factor s scale * slope s (x - inject_Z (i + j))) <= Qpower 2 (m - 47))
    (map (fun j => (wrap_ud N (i - a + j), fvalue round64 s true scale j (round64 (X - inject_Z (i - a + j))))) l) l).
  { induction l as [|j l IH]; intros Hl; constructor; [|apply IH; intros y Hy; apply Hl; now right]. cbn [fst snd].
    split; [rewrite wrap_ud_mod by lia; f_equal; lia|apply V, Hl; now left]. }
  apply G, incl_refl.
Qed.
Print Assumptions C98_gradient.
(** a third of the way between two cells of a mesh with scale 1/4 *)
Example C98_gradient_case : let x := round64 ((52 # 3) * (1 # 4)) in 1 <= x <= inject_Z (2 ^ 31) /\ inject_Z 6 - 2 <= x /\ Qabs (1 # 4) <= Qpower 2 (-2) /\
  Qabs (entry1 (fspline round64 TSC true (1 # 4) 6 8 (52 # 3)) 6 + (1 # 6)) <= Qpower 2 (-51) /\
  Qabs (entry1 (fspline round64 PCS true (1 # 4) 6 8 (52 # 3)) 6 + (1 # 2)) <= Qpower 2 (-51).
Proof. vm_compute. repeat split; discriminate. Qed.
