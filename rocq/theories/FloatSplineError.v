(** Property C98: the weights of the quadratic and cubic windows in doubles, against
    the exact splines. *)
From Coq Require Import List Arith ZArith QArith Qround Qabs Qpower Lqa Lia Bool.
From Verif Require Import Base ListFacts LayoutModel WrapModel WrapProofs DomainModel FloatModel FloatRound FloatDomain FloatNearest FloatPaint FloatCic FloatSpline.
Import ListNotations.
Local Close Scope Q_scope.
Local Open Scope Z_scope.

(** the exact splines, of the distance to the cell *)
Definition bspline (s : spline) (t : Q) : Q :=
  let r := Qabs t in
  (match s with
   | TSC => if Qle_bool r (1 # 2) then (3 # 4) - r * r
            else if Qle_bool r (3 # 2) then (1 # 2) * ((3 # 2) - r) * ((3 # 2) - r) else 0
   | PCS => if Qle_bool r 1 then (1 # 6) * (4 - 6 * r * r + 3 * r * r * r)
            else if Qle_bool r 2 then (1 # 6) * (2 - r) * (2 - r) * (2 - r) else 0
   end)%Q.
(** the cell below the particle, or the nearest one *)
Definition middle (s : spline) (x : Q) : Z := match s with TSC => Qfloor (x + (1 # 2)) | PCS => Qfloor x end.

Local Open Scope Q_scope.
Definition ulp : Q := Qpower 2 (-53).
Lemma ulp_pos : 0 < ulp. Proof. reflexivity. Qed.
Lemma abs_le x y : Qabs x <= y <-> - y <= x /\ x <= y.
Proof. apply Qabs_Qle_condition. Qed.
(** one rounded operation *)
Lemma step x y d k : Qabs (x - y) <= d -> (-1021 <= k)%Z -> Qabs x <= Qpower 2 k -> Qabs (round64 x - y) <= d + Qpower 2 k * ulp.
Proof.
  intros H Hk Hx. pose proof (round64_error x k Hk Hx) as R.
  assert (E : Qpower 2 (k - 53) == Qpower 2 k * ulp). { unfold Z.sub. rewrite qpow_plus. reflexivity. }
  rewrite E in R. assert (T : round64 x - y == (round64 x - x) + (x - y)) by ring. rewrite T. pose proof (Qabs_triangle (round64 x - x) (x - y)). lra.
Qed.
(** products of numbers that are nearly known *)
Lemma mul_near a a' b b' da db A B : Qabs (a - a') <= da -> Qabs (b - b') <= db -> Qabs a' <= A -> Qabs b <= B ->
  Qabs (a * b - a' * b') <= da * B + A * db.
Proof.
  intros Ha Hb HA HB. assert (E : a * b - a' * b' == (a - a') * b + a' * (b - b')) by ring. rewrite E.
  eapply Qle_trans; [apply Qabs_triangle|]. rewrite !Qabs_Qmult.
  pose proof (Qabs_nonneg (a - a')). pose proof (Qabs_nonneg b). pose proof (Qabs_nonneg a'). pose proof (Qabs_nonneg (b - b')).
  apply Qplus_le_compat.
  - apply Qle_trans with (Qabs (a - a') * B); [rewrite !(Qmult_comm (Qabs (a - a'))); apply Qmult_le_compat_r; lra|apply Qmult_le_compat_r; lra].
  - apply Qle_trans with (Qabs a' * db); [rewrite !(Qmult_comm (Qabs a')); apply Qmult_le_compat_r; lra|apply Qmult_le_compat_r; lra].
Qed.
Lemma abs_mul a b A B : Qabs a <= A -> Qabs b <= B -> Qabs (a * b) <= A * B.
Proof.
  intros HA HB. rewrite Qabs_Qmult. pose proof (Qabs_nonneg a). pose proof (Qabs_nonneg b).
  apply Qle_trans with (Qabs a * B); [rewrite !(Qmult_comm (Qabs a)); apply Qmult_le_compat_r; lra|apply Qmult_le_compat_r; lra].
Qed.
Lemma abs_zero d x y : x == y -> 0 <= d -> Qabs (x - y) <= d.
Proof. intros H Hd. apply abs_le. lra. Qed.
(** a number near another one of known size *)
Lemma near_abs x y d Y : Qabs (x - y) <= d -> Qabs y <= Y -> Qabs x <= Y + d.
Proof. rewrite !abs_le. lra. Qed.

Ltac pw := change (Qpower 2 (-2)) with (1 # 4) in *; change (Qpower 2 0) with 1 in *; change (Qpower 2 1) with 2 in *;
  change (Qpower 2 2) with 4 in *; change (Qpower 2 3) with 8 in *; change (Qpower 2 4) with 16 in *.
Lemma ulp_small : ulp <= 1 # 1024. Proof. vm_compute. discriminate. Qed.
(** a rounded operation: error before, size, and what remains *)
Lemma step' x y d k M e : Qabs (x - y) <= d -> Qabs y <= M -> (-1021 <= k)%Z -> M + d <= Qpower 2 k -> d + Qpower 2 k * ulp <= e -> Qabs (round64 x - y) <= e.
Proof.
  intros H HM Hk Hx He. eapply Qle_trans; [|exact He]. apply step; [exact H|exact Hk|]. eapply Qle_trans; [apply (near_abs x y d M H HM)|exact Hx].
Qed.
Lemma mul' a a' b b' da db A B e : Qabs (a - a') <= da -> Qabs (b - b') <= db -> Qabs a' <= A -> Qabs b' <= B ->
  da * (B + db) + A * db <= e -> Qabs (a * b - a' * b') <= e.
Proof. intros H1 H2 H3 H4 He. eapply Qle_trans; [|exact He]. apply mul_near; try assumption. now apply near_abs with b'. Qed.
Lemma self x : Qabs (x - x) <= 0. Proof. apply abs_zero; [reflexivity|lra]. Qed.
Ltac small := pw; pose proof ulp_pos; pose proof ulp_small; (lra || nra).
Lemma abs_add a b A B : Qabs a <= A -> Qabs b <= B -> Qabs (a + b) <= A + B.
Proof. rewrite !abs_le. lra. Qed.
Lemma abs_sub a b A B : Qabs a <= A -> Qabs b <= B -> Qabs (a - b) <= A + B.
Proof. rewrite !abs_le. lra. Qed.
Lemma add_near a a' b b' da db : Qabs (a - a') <= da -> Qabs (b - b') <= db -> Qabs (a + b - (a' + b')) <= da + db.
Proof. rewrite !abs_le. lra. Qed.
Lemma sub_near_ a a' b b' da db : Qabs (a - a') <= da -> Qabs (b - b') <= db -> Qabs (a - b - (a' - b')) <= da + db.
Proof. rewrite !abs_le. lra. Qed.

(** *** the quadratic window *)
Lemma tsc_mid d : Qabs d <= 1 # 2 -> Qabs (round64 ((3 # 4) - round64 (d * d)) - ((3 # 4) - d * d)) <= 4 * ulp.
Proof.
  intros Hd. pose proof (abs_mul d d _ _ Hd Hd) as Hq.
  assert (A : Qabs (round64 (d * d) - d * d) <= ulp).
  { apply (step' _ _ 0 0 ((1 # 2) * (1 # 2))); [apply self|exact Hq|lia|small|small]. }
  apply (step' _ _ ulp 1 1); [|rewrite abs_le in Hq |- *; lra|lia|small|small]. rewrite abs_le in A |- *. lra.
Qed.
Lemma tsc_out f : Qabs f <= 1 -> Qabs (round64 (round64 (round64 f * round64 f) * (1 # 2)) - (1 # 2) * f * f) <= 8 * ulp.
Proof.
  intros Hf. assert (A : Qabs (round64 f - f) <= ulp) by (apply (step' _ _ 0 0 1); [apply self|exact Hf|lia|small|small]).
  set (e := round64 f) in *.
  assert (F2 : Qabs (f * f) <= 1 * 1) by now apply abs_mul.
  assert (B : Qabs (e * e - f * f) <= 3 * ulp) by (apply (mul' e f e f ulp ulp 1 1); try assumption; small).
  assert (C : Qabs (round64 (e * e) - f * f) <= 5 * ulp) by (apply (step' _ _ (3 * ulp) 1 (1 * 1)); [exact B|exact F2|lia|small|small]).
  set (g := round64 (e * e)) in *. assert (D : Qabs (g * (1 # 2) - (1 # 2) * f * f) <= 5 * ulp) by (rewrite abs_le in C |- *; pose proof ulp_pos; lra).
  apply (step' _ _ (5 * ulp) 1 1); [exact D|rewrite abs_le in F2 |- *; lra|lia|small|small].
Qed.
(** *** the cubic window *)
Lemma sixth : Qabs (round64 (1 # 6) - (1 # 6)) <= ulp.
Proof. apply (step' _ _ 0 0 1); [apply self|vm_compute; discriminate|lia|small|small]. Qed.
Lemma pcs_square d : Qabs d <= 1 -> Qabs (round64 (4 - round64 (round64 (6 * d) * d)) - (4 - 6 * d * d)) <= 32 * ulp.
Proof.
  intros Hd. assert (H6 : Qabs (6 * d) <= 6) by (rewrite abs_le in Hd |- *; lra).
  assert (A : Qabs (round64 (6 * d) - 6 * d) <= 8 * ulp) by (apply (step' _ _ 0 3 6); [apply self|exact H6|lia|small|small]).
  set (p := round64 (6 * d)) in *.
  assert (B : Qabs (p * d - 6 * d * d) <= 8 * ulp) by (apply (mul' p (6 * d) d d (8 * ulp) 0 6 1); try assumption; [apply self|small]).
  assert (HB : Qabs (6 * d * d) <= 6) by (eapply Qle_trans; [apply (abs_mul (6 * d) d 6 1 H6 Hd)|lra]).
  assert (C : Qabs (round64 (p * d) - 6 * d * d) <= 16 * ulp) by (apply (step' _ _ (8 * ulp) 3 6); [exact B|exact HB|lia|small|small]).
  apply (step' _ _ (16 * ulp) 4 10); [rewrite abs_le in C |- *; lra|rewrite abs_le in HB |- *; lra|lia|small|small].
Qed.
Lemma pcs_cube d : Qabs d <= 1 -> Qabs (round64 (round64 (round64 (3 * d) * d) * d) - 3 * d * d * d) <= 12 * ulp.
Proof.
  intros Hd. assert (H3 : Qabs (3 * d) <= 3) by (rewrite abs_le in Hd |- *; lra).
  assert (A : Qabs (round64 (3 * d) - 3 * d) <= 4 * ulp) by (apply (step' _ _ 0 2 3); [apply self|exact H3|lia|small|small]).
  set (p := round64 (3 * d)) in *.
  assert (B : Qabs (p * d - 3 * d * d) <= 4 * ulp) by (apply (mul' p (3 * d) d d (4 * ulp) 0 3 1); try assumption; [apply self|small]).
  assert (HB : Qabs (3 * d * d) <= 3) by (eapply Qle_trans; [apply (abs_mul (3 * d) d 3 1 H3 Hd)|lra]).
  assert (C : Qabs (round64 (p * d) - 3 * d * d) <= 8 * ulp) by (apply (step' _ _ (4 * ulp) 2 3); [exact B|exact HB|lia|small|small]).
  set (q := round64 (p * d)) in *.
  assert (D : Qabs (q * d - 3 * d * d * d) <= 8 * ulp) by (apply (mul' q (3 * d * d) d d (8 * ulp) 0 3 1); try assumption; [apply self|small]).
  assert (HD : Qabs (3 * d * d * d) <= 3) by (eapply Qle_trans; [apply (abs_mul (3 * d * d) d 3 1 HB Hd)|lra]).
  apply (step' _ _ (8 * ulp) 2 3); [exact D|exact HD|lia|small|small].
Qed.
Lemma pcs_last v t : Qabs (v - t) <= 44 * ulp -> Qabs t <= 13 -> Qabs (round64 (round64 (1 # 6) * round64 v) - (1 # 6) * t) <= 32 * ulp.
Proof.
  intros Hv Ht.
  assert (A : Qabs (round64 v - t) <= 60 * ulp) by (apply (step' _ _ (44 * ulp) 4 13); [exact Hv|exact Ht|lia|small|small]).
  assert (B : Qabs (round64 (1 # 6) * round64 v - (1 # 6) * t) <= 25 * ulp).
  { apply (mul' _ (1 # 6) _ t ulp (60 * ulp) (1 # 6) 13); [exact sixth|exact A|vm_compute; discriminate|exact Ht|small]. }
  apply (step' _ _ (25 * ulp) 2 (13 # 6)); [exact B|rewrite abs_le in Ht |- *; lra|lia|small|small].
Qed.
Lemma pcs_mid d : Qabs d <= 1 ->
  Qabs (round64 (round64 (1 # 6) * round64 (round64 (4 - round64 (round64 (6 * d) * d)) + round64 (round64 (round64 (3 * d) * d) * d)))
    - (1 # 6) * (4 - 6 * d * d + 3 * d * d * d)) <= 32 * ulp /\
  Qabs (round64 (round64 (1 # 6) * round64 (round64 (4 - round64 (round64 (6 * d) * d)) - round64 (round64 (round64 (3 * d) * d) * d)))
    - (1 # 6) * (4 - 6 * d * d - 3 * d * d * d)) <= 32 * ulp.
Proof.
  intros Hd. pose proof (pcs_square d Hd) as A. pose proof (pcs_cube d Hd) as B.
  assert (H6 : Qabs (6 * d * d) <= 6). { assert (Qabs (6 * d) <= 6) by (rewrite abs_le in Hd |- *; lra). eapply Qle_trans; [apply (abs_mul (6 * d) d 6 1); assumption|lra]. }
  assert (H3 : Qabs (3 * d * d * d) <= 3).
  { assert (Qabs (3 * d) <= 3) by (rewrite abs_le in Hd |- *; lra). assert (Qabs (3 * d * d) <= 3 * 1) by now apply abs_mul.
    eapply Qle_trans; [apply (abs_mul (3 * d * d) d (3 * 1) 1); assumption|lra]. }
  set (p := round64 (4 - _)) in *. set (q := round64 (round64 (round64 (3 * d) * d) * d)) in *.
  set (P := 4 - 6 * d * d) in *. assert (HP : Qabs P <= 10) by (unfold P; rewrite abs_le in H6 |- *; lra). set (T := 3 * d * d * d) in *.
  split; apply pcs_last.
  - eapply Qle_trans; [apply (add_near p P q T _ _ A B)|]. small.
  - eapply Qle_trans; [apply (abs_add P T _ _ HP H3)|]. lra.
  - eapply Qle_trans; [apply (sub_near_ p P q T _ _ A B)|]. small.
  - eapply Qle_trans; [apply (abs_sub P T _ _ HP H3)|]. lra.
Qed.
Lemma pcs_out f : Qabs f <= 1 -> Qabs (round64 (round64 (round64 (round64 (1 # 6) * round64 f) * round64 f) * round64 f) - (1 # 6) * f * f * f) <= 32 * ulp.
Proof.
  intros Hf. assert (A : Qabs (round64 f - f) <= ulp) by (apply (step' _ _ 0 0 1); [apply self|exact Hf|lia|small|small]).
  set (e := round64 f) in *. set (r := round64 (1 # 6)). pose proof sixth as S6. fold r in S6.
  assert (H1 : Qabs ((1 # 6) * f) <= 1) by (rewrite abs_le in Hf |- *; lra).
  assert (B : Qabs (r * e - (1 # 6) * f) <= 2 * ulp) by (apply (mul' r (1 # 6) e f ulp ulp (1 # 6) 1); [exact S6|exact A|vm_compute; discriminate|exact Hf|small]).
  assert (C : Qabs (round64 (r * e) - (1 # 6) * f) <= 4 * ulp) by (apply (step' _ _ (2 * ulp) 1 1); [exact B|exact H1|lia|small|small]).
  set (g := round64 (r * e)) in *.
  assert (H2 : Qabs ((1 # 6) * f * f) <= 1) by (eapply Qle_trans; [apply (abs_mul _ _ _ _ H1 Hf)|lra]).
  assert (D : Qabs (g * e - (1 # 6) * f * f) <= 6 * ulp) by (apply (mul' g ((1 # 6) * f) e f (4 * ulp) ulp 1 1); try assumption; small).
  assert (E : Qabs (round64 (g * e) - (1 # 6) * f * f) <= 8 * ulp) by (apply (step' _ _ (6 * ulp) 1 1); [exact D|exact H2|lia|small|small]).
  set (h := round64 (g * e)) in *.
  assert (H3 : Qabs ((1 # 6) * f * f * f) <= 1) by (eapply Qle_trans; [apply (abs_mul _ _ _ _ H2 Hf)|lra]).
  assert (G : Qabs (h * e - (1 # 6) * f * f * f) <= 10 * ulp) by (apply (mul' h ((1 # 6) * f * f) e f (8 * ulp) ulp 1 1); try assumption; small).
  apply (step' _ _ (10 * ulp) 1 1); [exact G|exact H3|lia|small|small].
Qed.

(** *** the splines, piece by piece *)
Lemma le_bool_true a b : a <= b -> Qle_bool a b = true. Proof. apply Qle_bool_iff. Qed.
Lemma le_bool_false a b : b < a -> Qle_bool a b = false.
Proof. intros H. destruct (Qle_bool a b) eqn:E; [|reflexivity]. apply Qle_bool_iff in E. lra. Qed.
Lemma bspline_compat s t t' : t == t' -> bspline s t == bspline s t'.
Proof.
  intros H. unfold bspline. cbv zeta. assert (E : Qabs t == Qabs t') by now rewrite H.
  assert (B : forall b, Qle_bool (Qabs t) b = Qle_bool (Qabs t') b).
  { intros b. destruct (Qlt_le_dec b (Qabs t)) as [L|L]; [rewrite !le_bool_false by lra|rewrite !le_bool_true by lra]; reflexivity. }
  destruct s; rewrite !B; destruct (Qle_bool (Qabs t') _); try destruct (Qle_bool (Qabs t') _); try reflexivity; now rewrite E.
Qed.
Lemma bspline_even s t : bspline s (- t) = bspline s t.
Proof. unfold bspline. cbv zeta. assert (E : Qabs (- t) = Qabs t) by (destruct t as [[|p|p] q]; reflexivity). now rewrite E. Qed.
Lemma tsc_in t : Qabs t <= 1 # 2 -> bspline TSC t == (3 # 4) - t * t.
Proof.
  intros H. unfold bspline. cbv zeta. rewrite le_bool_true by exact H.
  assert (E : Qabs t * Qabs t == t * t). { rewrite <- Qabs_Qmult. apply Qabs_pos. destruct (Qlt_le_dec t 0); nra. }
  rewrite E. reflexivity.
Qed.
Lemma tsc_right t : 1 # 2 <= t -> t <= 3 # 2 -> bspline TSC t == (1 # 2) * ((3 # 2) - t) * ((3 # 2) - t).
Proof.
  intros H1 H2. assert (E : Qabs t == t) by (apply Qabs_pos; lra). unfold bspline. cbv zeta. destruct (Qlt_le_dec (1 # 2) t) as [L|L].
  - rewrite le_bool_false by lra. rewrite le_bool_true by lra. rewrite E. reflexivity.
  - rewrite le_bool_true by lra. rewrite E. assert (T : t == 1 # 2) by lra. rewrite T. reflexivity.
Qed.
Lemma pcs_in t : 0 <= t -> t <= 1 -> bspline PCS t == (1 # 6) * (4 - 6 * t * t + 3 * t * t * t).
Proof. intros H1 H2. assert (E : Qabs t == t) by (apply Qabs_pos; lra). unfold bspline. cbv zeta. rewrite le_bool_true by lra. rewrite E. reflexivity. Qed.
Lemma pcs_right t : 1 <= t -> t <= 2 -> bspline PCS t == (1 # 6) * (2 - t) * (2 - t) * (2 - t).
Proof.
  intros H1 H2. assert (E : Qabs t == t) by (apply Qabs_pos; lra). unfold bspline. cbv zeta. destruct (Qlt_le_dec 1 t) as [L|L].
  - rewrite le_bool_false by lra. rewrite le_bool_true by lra. rewrite E. reflexivity.
  - rewrite le_bool_true by lra. rewrite E. assert (T : t == 1) by lra. rewrite T. reflexivity.
Qed.

(** the weight that is computed for a distance that is known exactly *)
Definition span (s : spline) (j : Z) (t : Q) : Prop :=
  match s with TSC => - (1 # 2) <= t + inject_Z j <= 1 # 2 | PCS => 0 <= t + inject_Z j <= 1 end.
Lemma near_eq x y y' e : y == y' -> Qabs (x - y) <= e -> Qabs (x - y') <= e.
Proof. intros H. rewrite !abs_le. lra. Qed.
Lemma fvalue_near s scale j d : In j (offsets s) -> span s j d -> Qabs (fvalue round64 s false scale j d - bspline s d) <= 32 * ulp.
Proof.
  intros Hj Hs. pose proof ulp_pos as U0. destruct s; cbn [offsets In] in Hj; unfold span in Hs.
  - destruct Hj as [<-|[<-|[<-|[]]]]; cbn [fvalue]; unfold ftsc; cbn [Z.eqb]; cbv zeta.
    + change (inject_Z (-1)) with (-1 # 1) in Hs. eapply near_eq; [symmetry; apply (tsc_right d); lra|].
      eapply Qle_trans; [apply (tsc_out ((3 # 2) - d)); rewrite abs_le; lra|]. lra.
    + change (inject_Z 0) with 0 in Hs. eapply near_eq; [symmetry; apply (tsc_in d); rewrite abs_le; lra|].
      eapply Qle_trans; [apply (tsc_mid d); rewrite abs_le; lra|]. lra.
    + change (inject_Z 1) with 1 in Hs. rewrite <- bspline_even. eapply near_eq; [symmetry; apply (tsc_right (- d)); lra|].
      eapply Qle_trans; [|apply (Qle_trans _ (8 * ulp)); [apply (tsc_out ((3 # 2) + d)); rewrite abs_le; lra|lra]].
      apply Qle_lteq. right. apply Qabs_wd. ring.
  - destruct Hj as [<-|[<-|[<-|[<-|[]]]]]; cbn [fvalue]; unfold fpcs; cbn [Z.eqb]; cbv zeta.
    + change (inject_Z (-1)) with (-1 # 1) in Hs. eapply near_eq; [symmetry; apply (pcs_right d); lra|]. apply (pcs_out (2 - d)). rewrite abs_le. lra.
    + change (inject_Z 0) with 0 in Hs. eapply near_eq; [symmetry; apply (pcs_in d); lra|]. apply (proj1 (pcs_mid d ltac:(rewrite abs_le; lra))).
    + change (inject_Z 1) with 1 in Hs. rewrite <- bspline_even. eapply near_eq; [symmetry; etransitivity; [apply (pcs_in (- d)); lra|]|apply (proj2 (pcs_mid d ltac:(rewrite abs_le; lra)))]. ring.
    + change (inject_Z 2) with 2 in Hs. rewrite <- bspline_even. eapply near_eq; [symmetry; etransitivity; [apply (pcs_right (- d)); lra|]|apply (pcs_out (2 + d)); rewrite abs_le; lra]. ring.
Qed.

(** *** the splines change no faster than their argument *)
Lemma spline_decreasing s t t' : 0 <= t -> t <= t' -> 0 <= bspline s t - bspline s t' <= t' - t.
Proof.
  intros H0 H. destruct s.
  - assert (In : forall a b, 0 <= a -> a <= b -> b <= 1 # 2 -> 0 <= bspline TSC a - bspline TSC b <= b - a).
    { intros a b A B C. rewrite (tsc_in a), (tsc_in b) by (rewrite abs_le; lra). nra. }
    assert (Mid : forall a b, 1 # 2 <= a -> a <= b -> b <= 3 # 2 -> 0 <= bspline TSC a - bspline TSC b <= b - a).
    { intros a b A B C. rewrite (tsc_right a), (tsc_right b) by lra. nra. }
    assert (Out : forall a, 3 # 2 <= a -> bspline TSC a == 0).
    { intros a A. destruct (Qlt_le_dec (3 # 2) a) as [L|L].
      - unfold bspline. cbv zeta. assert (E : Qabs a == a) by (apply Qabs_pos; lra). rewrite !le_bool_false by lra. reflexivity.
      - rewrite tsc_right by lra. assert (E : a == 3 # 2) by lra. rewrite E. reflexivity. }
    destruct (Qlt_le_dec t (1 # 2)) as [A|A]; destruct (Qlt_le_dec t (3 # 2)) as [B|B]; try lra;
      destruct (Qlt_le_dec t' (1 # 2)) as [C|C]; destruct (Qlt_le_dec t' (3 # 2)) as [D|D]; try lra.
    + apply In; lra.
    + pose proof (In t (1 # 2)). pose proof (Mid (1 # 2) t'). lra.
    + pose proof (In t (1 # 2)). pose proof (Mid (1 # 2) (3 # 2)). rewrite (Out t') by lra. rewrite (Out (3 # 2)) in * by lra. lra.
    + apply Mid; lra.
    + pose proof (Mid t (3 # 2)). rewrite (Out t') by lra. rewrite (Out (3 # 2)) in * by lra. lra.
    + rewrite (Out t), (Out t') by lra. lra.
  - assert (In : forall a b, 0 <= a -> a <= b -> b <= 1 -> 0 <= bspline PCS a - bspline PCS b <= b - a).
    { intros a b A B C. rewrite (pcs_in a), (pcs_in b) by lra.
      assert (E : (1 # 6) * (4 - 6 * a * a + 3 * a * a * a) - (1 # 6) * (4 - 6 * b * b + 3 * b * b * b) == (b - a) * ((a + b) - (1 # 2) * (a * a + a * b + b * b))) by ring.
      rewrite E. assert (0 <= (a + b) - (1 # 2) * (a * a + a * b + b * b) <= 1) by nra. nra. }
    assert (Mid : forall a b, 1 <= a -> a <= b -> b <= 2 -> 0 <= bspline PCS a - bspline PCS b <= b - a).
    { intros a b A B C. rewrite (pcs_right a), (pcs_right b) by lra.
      assert (E : (1 # 6) * (2 - a) * (2 - a) * (2 - a) - (1 # 6) * (2 - b) * (2 - b) * (2 - b) == (b - a) * ((1 # 6) * ((2 - a) * (2 - a) + (2 - a) * (2 - b) + (2 - b) * (2 - b)))) by ring.
      rewrite E. assert (0 <= (1 # 6) * ((2 - a) * (2 - a) + (2 - a) * (2 - b) + (2 - b) * (2 - b)) <= 1) by nra. nra. }
    assert (Out : forall a, 2 <= a -> bspline PCS a == 0).
    { intros a A. destruct (Qlt_le_dec 2 a) as [L|L].
      - unfold bspline. cbv zeta. assert (E : Qabs a == a) by (apply Qabs_pos; lra). rewrite !le_bool_false by lra. reflexivity.
      - rewrite pcs_right by lra. assert (E : a == 2) by lra. rewrite E. reflexivity. }
    destruct (Qlt_le_dec t 1) as [A|A]; destruct (Qlt_le_dec t 2) as [B|B]; try lra;
      destruct (Qlt_le_dec t' 1) as [C|C]; destruct (Qlt_le_dec t' 2) as [D|D]; try lra.
    + apply In; lra.
    + pose proof (In t 1). pose proof (Mid 1 t'). lra.
    + pose proof (In t 1). pose proof (Mid 1 2). rewrite (Out t') by lra. rewrite (Out 2) in * by lra. lra.
    + apply Mid; lra.
    + pose proof (Mid t 2). rewrite (Out t') by lra. rewrite (Out 2) in * by lra. lra.
    + rewrite (Out t), (Out t') by lra. lra.
Qed.
Lemma bspline_abs s t : bspline s t == bspline s (Qabs t).
Proof. destruct (Qlt_le_dec t 0) as [H|H]; [rewrite <- bspline_even|]; apply bspline_compat; symmetry; [apply Qabs_neg|apply Qabs_pos]; lra. Qed.
Lemma spline_lipschitz s t t' : Qabs (bspline s t - bspline s t') <= Qabs (t - t').
Proof.
  rewrite (bspline_abs s t), (bspline_abs s t').
  assert (D : Qabs (Qabs t - Qabs t') <= Qabs (t - t')).
  { apply abs_le. pose proof (Qabs_triangle_reverse t t'). pose proof (Qabs_triangle_reverse t' t) as R. rewrite (Qabs_Qminus t' t) in R. lra. }
  eapply Qle_trans; [|exact D]. pose proof (Qabs_nonneg t). pose proof (Qabs_nonneg t'). destruct (Qlt_le_dec (Qabs t) (Qabs t')) as [L|L].
  - pose proof (spline_decreasing s (Qabs t) (Qabs t') ltac:(lra) ltac:(lra)). rewrite (Qabs_Qminus (Qabs t)). pose proof (Qle_Qabs (Qabs t' - Qabs t)). apply abs_le. lra.
  - pose proof (spline_decreasing s (Qabs t') (Qabs t) ltac:(lra) ltac:(lra)). pose proof (Qle_Qabs (Qabs t - Qabs t')). apply abs_le. lra.
Qed.
Lemma spline_zero s t : (match s with TSC => 3 # 2 | PCS => 2 end) <= Qabs t -> bspline s t == 0.
Proof.
  intros H. rewrite bspline_abs. destruct s; set (r := Qabs t) in *; assert (A : Qabs r == r) by (apply Qabs_pos; lra).
  - destruct (Qlt_le_dec (3 # 2) r); [unfold bspline; cbv zeta; rewrite !le_bool_false by lra; reflexivity|]. rewrite tsc_right by lra. assert (E : r == 3 # 2) by lra. rewrite E. reflexivity.
  - destruct (Qlt_le_dec 2 r); [unfold bspline; cbv zeta; rewrite !le_bool_false by lra; reflexivity|]. rewrite pcs_right by lra. assert (E : r == 2) by lra. rewrite E. reflexivity.
Qed.

(** *** the weights of an axis *)
Lemma inj_plus a b : inject_Z (a + b) == inject_Z a + inject_Z b. Proof. rewrite inject_Z_plus. reflexivity. Qed.
Lemma fvalue_round s scale j i X : In j (offsets s) -> span s 0 (X - inject_Z i) ->
  Qabs (fvalue round64 s false scale j (round64 (X - inject_Z (i + j))) - bspline s (X - inject_Z (i + j))) <= 34 * ulp.
Proof.
  intros Hj Hs. pose proof (in_offsets s j Hj) as Hr. pose proof ulp_pos as U0.
  set (y := X - inject_Z (i + j)). assert (Ey : y == X - inject_Z i - inject_Z j) by (unfold y; rewrite inj_plus; ring).
  assert (S0 : span s j y). { destruct s; unfold span in *; change (inject_Z 0) with 0 in Hs; lra. }
  assert (Sd : span s j (round64 y)).
  { destruct s; unfold span in *.
    - split.
      + assert (inject_Z (- j - 1) + (1 # 2) <= round64 y); [|unfold Z.sub in *; rewrite inj_plus, inject_Z_opp in *; change (inject_Z (- (1))) with (-1 # 1) in *; lra].
        apply round_lb; [apply rep_half; lia|]. unfold Z.sub. rewrite inj_plus, inject_Z_opp. change (inject_Z (- (1))) with (-1 # 1). lra.
      + assert (round64 y <= inject_Z (- j) + (1 # 2)); [|rewrite inject_Z_opp in *; lra]. apply round_ub; [apply rep_half; lia|]. rewrite inject_Z_opp. lra.
    - split.
      + assert (inject_Z (- j) <= round64 y); [|rewrite inject_Z_opp in *; lra]. apply round_lb; [apply round64_int; lia|]. rewrite inject_Z_opp. lra.
      + assert (round64 y <= inject_Z (1 - j)); [|unfold Z.sub in *; rewrite inj_plus, inject_Z_opp in *; change (inject_Z 1) with 1 in *; lra].
        apply round_ub; [apply round64_int; lia|]. unfold Z.sub. rewrite inj_plus, inject_Z_opp. change (inject_Z 1) with 1. lra. }
  pose proof (fvalue_near s scale j (round64 y) Hj Sd) as A.
  assert (Hy : Qabs y <= 2).
  { apply abs_le. assert (J1 : -1 <= inject_Z j) by (change (-1) with (inject_Z (-1)); apply inj_le; lia).
    destruct s; unfold span in S0; [assert (J2 : inject_Z j <= 1) by (apply (inj_le j 1); lia)|assert (J2 : inject_Z j <= 2) by (apply (inj_le j 2); lia)]; lra. }
  assert (B : Qabs (round64 y - y) <= 2 * ulp) by (apply (step' _ _ 0 1 2); [apply self|exact Hy|lia|small|small]).
  pose proof (spline_lipschitz s (round64 y) y) as C.
  rewrite abs_le in A. apply abs_le. assert (C' : Qabs (bspline s (round64 y) - bspline s y) <= 2 * ulp) by lra. rewrite abs_le in C'. lra.
Qed.
