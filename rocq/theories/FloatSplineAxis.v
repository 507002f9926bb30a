(** Property C98: the weights of an axis in doubles, and those of the first cell. *)
From Coq Require Import List Arith ZArith QArith Qround Qabs Qpower Lqa Lia Bool.
From Verif Require Import Base ListFacts LayoutModel WrapModel WrapProofs DomainModel FloatModel FloatRound FloatDomain FloatNearest FloatPaint FloatCic FloatSpline FloatSplineError.
Import ListNotations.
Local Close Scope Z_scope.
Local Open Scope Q_scope.

Lemma middle_ok s x : double x -> 0 <= x <= inject_Z (2 ^ 31) -> (s = TSC -> 1 <= x \/ (1 # 2) <= x \/ x <= (1 # 2) - Qpower 2 (-53)) ->
  fcentre round64 s x = middle s x /\ span s 0 (x - inject_Z (middle s x)).
Proof.
  intros D Hx Hs. unfold span. change (inject_Z 0) with 0. destruct s; cbn [fcentre middle].
  - specialize (Hs eq_refl). pose proof (Qfloor_le x). pose proof (Qlt_floor x) as F2. rewrite inj_1 in F2.
    pose proof (Qfloor_le (x + (1 # 2))). pose proof (Qlt_floor (x + (1 # 2))) as G2. rewrite inj_1 in G2. split; [|lra].
    symmetry. destruct (half_up x D Hx) as [[E F]|[E [F|[F F']]]]; rewrite E.
    + apply floor_is; [lra|]. rewrite inj_1. lra.
    + apply floor_is; [rewrite inj_1; lra|]. rewrite !inj_1. lra.
    + assert (X2 : 1 # 2 <= x) by (destruct Hs as [Hs|[Hs|Hs]]; lra). assert (F0 : Qfloor x = 0%Z) by (apply floor_is; [exact (proj1 Hx)|exact F]). rewrite F0.
      apply floor_is; [change (inject_Z (0 + 1)) with 1; lra|]. change (inject_Z (0 + 1 + 1)) with 2. lra.
  - split; [reflexivity|]. pose proof (Qfloor_le x). pose proof (Qlt_floor x) as F2. rewrite inj_1 in F2. lra.
Qed.
(** sums *)
Definition total (l : list (Z * Q)) : Q := fold_right Qplus 0 (map snd l).
Lemma spline_unity s t : span s 0 t -> fold_right Qplus 0 (map (fun j => bspline s (t - inject_Z j)) (offsets s)) == 1.
Proof.
  unfold span. change (inject_Z 0) with 0. intros H. destruct s; cbn [offsets map fold_right].
  - change (inject_Z (-1)) with (-1 # 1). change (inject_Z 0) with 0. change (inject_Z 1) with 1.
    rewrite (bspline_compat TSC (t - 0) t) by ring. rewrite <- (bspline_even TSC (t - 1)).
    rewrite (tsc_right (t - (-1 # 1))), (tsc_in t), (tsc_right (- (t - 1))) by (try (rewrite abs_le; lra); lra). ring.
  - change (inject_Z (-1)) with (-1 # 1). change (inject_Z 0) with 0. change (inject_Z 1) with 1. change (inject_Z 2) with 2.
    rewrite (bspline_compat PCS (t - 0) t) by ring. rewrite <- (bspline_even PCS (t - 1)), <- (bspline_even PCS (t - 2)).
    rewrite (pcs_right (t - (-1 # 1))), (pcs_in t), (pcs_in (- (t - 1))), (pcs_right (- (t - 2))) by lra. ring.
Qed.

(** The weights of an axis are those of the spline to 2^-47. *)
Theorem C98_axis : forall s scale a N pos, (4 <= N)%Z -> (0 <= a < N)%Z -> (N <= 2 ^ 31)%Z ->
  let x := round64 (pos * scale) in 1 <= x <= inject_Z (2 ^ 31) -> inject_Z a - 2 <= x ->
  Forall2 (fun e j => fst e = ((middle s x + j - a) mod N)%Z /\ Qabs (snd e - bspline s (x - inject_Z (middle s x + j))) <= Qpower 2 (-47))
    (fspline round64 s false scale a N pos) (offsets s) /\
  Qabs (total (fspline round64 s false scale a N pos) - 1) <= Qpower 2 (-45).
Proof.
  intros s scale a N pos HN Ha HN2 x Hx Hax. assert (D : double x) by (eexists; reflexivity).
  destruct (middle_ok s x D ltac:(lra) ltac:(intros _; left; lra)) as [M1 M2].
  pose proof (sub_near x a D ltac:(lia) ltac:(lra) ltac:(lra) Hax) as EX.
  pose proof (fcentre_near s x a D ltac:(lia) ltac:(lra) ltac:(lra) Hax) as EC.
  unfold fspline. fold x. cbv zeta. set (X := round64 (x + inject_Z (- a))) in *. rewrite EC, M1. set (i := middle s x) in *.
  assert (V : forall j, In j (offsets s) -> Qabs (fvalue round64 s false scale j (round64 (X - inject_Z (i - a + j))) - bspline s (x - inject_Z (i + j))) <= Qpower 2 (-47)).
  { intros j Hj. assert (S' : span s 0 (X - inject_Z (i - a))).
    { assert (E : X - inject_Z (i - a) == x - inject_Z i) by (rewrite EX; unfold Z.sub; rewrite inj_plus; ring). destruct s; unfold span in *; rewrite E; exact M2. }
    pose proof (fvalue_round s scale j (i - a) X Hj S') as R.
    assert (E : X - inject_Z (i - a + j) == x - inject_Z (i + j)) by (rewrite EX; unfold Z.sub; rewrite !inj_plus; ring).
    pose proof (near_eq _ _ _ _ (bspline_compat s _ _ E) R) as R'. eapply Qle_trans; [exact R'|]. vm_compute. discriminate. }
  split.
  - assert (G : forall l, incl l (offsets s) -> Forall2 (fun e j => fst e = ((i + j - a) mod N)%Z /\ Qabs (snd e - bspline s (x - inject_Z (i + j))) <= Qpower 2 (-47))
      (map (fun j => (wrap_ud N (i - a + j), fvalue round64 s false scale j (round64 (X - inject_Z (i - a + j))))) l) l).
    { induction l as [|j l IH]; intros Hl; constructor; [|apply IH; intros y Hy; apply Hl; now right]. cbn [fst snd].
      split; [rewrite wrap_ud_mod by lia; f_equal; lia|apply V, Hl; now left]. }
    apply G, incl_refl.
  - unfold total. rewrite map_map. cbn [snd].
    assert (U : fold_right Qplus 0 (map (fun j => bspline s (x - inject_Z (i + j))) (offsets s)) == 1).
    { rewrite <- (spline_unity s _ M2). clear. induction (offsets s) as [|j l IH]; [reflexivity|]. cbn [map fold_right]. apply Qplus_comp; [|exact IH].
      apply bspline_compat. rewrite inj_plus. ring. }
    assert (G : forall l, incl l (offsets s) -> Qabs (fold_right Qplus 0 (map (fun j => fvalue round64 s false scale j (round64 (X - inject_Z (i - a + j)))) l) -
      fold_right Qplus 0 (map (fun j => bspline s (x - inject_Z (i + j))) l)) <= inject_Z (Z.of_nat (length l)) * Qpower 2 (-47)).
    { induction l as [|j l IH]; intros Hl; [vm_compute; discriminate|]. cbn [map fold_right length].
      assert (EL : inject_Z (Z.of_nat (S (length l))) == 1 + inject_Z (Z.of_nat (length l))) by (rewrite Nat2Z.inj_succ, <- Z.add_1_l, inj_plus; reflexivity). rewrite EL.
      pose proof (IH ltac:(intros y Hy; apply Hl; now right)) as I1. pose proof (V j (Hl j ltac:(now left))) as I2.
      eapply Qle_trans; [apply add_near; [exact I2|exact I1]|]. lra. }
    specialize (G _ (incl_refl _)). apply (near_eq _ _ _ _ U) in G. eapply Qle_trans; [exact G|]. destruct s; vm_compute; discriminate.
Qed.
Print Assumptions C98_axis.

(** *** the first cell *)
Definition images (s : spline) (N : Z) (t : Q) : Q := bspline s t + bspline s (t + inject_Z N).
Lemma images_lipschitz s N t t' d : Qabs (t - t') <= d -> Qabs (images s N t - images s N t') <= 2 * d.
Proof.
  intros H. unfold images. pose proof (spline_lipschitz s t t') as A. pose proof (spline_lipschitz s (t + inject_Z N) (t' + inject_Z N)) as B.
  assert (E : t + inject_Z N - (t' + inject_Z N) == t - t') by ring. rewrite E in B.
  eapply Qle_trans; [apply (add_near _ _ _ _ d d)|]; lra.
Qed.
(** the weight of a cell that is found from the list of an axis *)
Lemma entry_images s scale N X i q : (4 <= N)%Z -> (i - 1 > q - 2 * N)%Z -> (i + 2 < q + N)%Z -> (0 <= q < N)%Z -> span s 0 (X - inject_Z i) ->
  Qabs (entry1 (map (fun j => (wrap_ud N (i + j), fvalue round64 s false scale j (round64 (X - inject_Z (i + j))))) (offsets s)) q
    - images s N (X - inject_Z q)) <= 34 * ulp.
Proof.
  intros HN H1 H2 Hq Hs. rewrite entry1_map. pose proof ulp_pos as U0.
  (* what lies outside of the window *)
  assert (Z0 : forall v, (v <= i - 2 \/ match s with TSC => i + 2 | PCS => i + 3 end <= v)%Z -> bspline s (X - inject_Z v) == 0).
  { intros v Hv. apply spline_zero. unfold span in Hs. change (inject_Z 0) with 0 in Hs. destruct Hv as [Hv|Hv].
    - apply inj_le in Hv. unfold Z.sub in Hv. rewrite inj_plus in Hv. change (inject_Z (- (2))) with (-2 # 1) in Hv. rewrite Qabs_pos; destruct s; lra.
    - apply inj_le in Hv. destruct s; rewrite inj_plus in Hv; [change (inject_Z 2) with 2 in Hv|change (inject_Z 3) with 3 in Hv]; rewrite Qabs_neg; lra. }
  assert (EN : bspline s (X - inject_Z q + inject_Z N) == bspline s (X - inject_Z (q - N))).
  { apply bspline_compat. unfold Z.sub. rewrite inj_plus, inject_Z_opp. ring. }
  unfold images. destruct (find _ (offsets s)) as [j|] eqn:Ef.
  - apply find_some in Ef. destruct Ef as [Hj Ef]. apply Z.eqb_eq in Ef. rewrite wrap_ud_mod in Ef by lia. pose proof (in_offsets s j Hj) as Hr.
    pose proof (fvalue_round s scale j i X Hj Hs) as R.
    assert (i + j = q \/ i + j = q - N)%Z as [E|E].
    { pose proof (Z.div_mod (i + j) N ltac:(lia)). set (w := ((i + j) / N)%Z) in *. assert (-2 < w < 1)%Z; [|destruct (Z.eq_dec w 0); [left|right]; nia].
      destruct s; split; nia. }
    + rewrite E in R |- *. assert (O : bspline s (X - inject_Z (q - N)) == 0) by (apply Z0; left; destruct s; lia). rewrite EN, O. apply (near_eq _ _ _ _ (Qeq_sym _ _ (Qplus_0_r _)) R).
    + rewrite E in R |- *. assert (O : bspline s (X - inject_Z q) == 0) by (apply Z0; right; destruct s; lia). rewrite EN, O. apply (near_eq _ _ _ _ (Qeq_sym _ _ (Qplus_0_l _)) R).
  - assert (O : forall v, (v = q \/ v = q - N)%Z -> bspline s (X - inject_Z v) == 0).
    { intros v Hv. apply Z0. destruct (Z_le_gt_dec v (i - 2)) as [L|L]; [now left|]. right. apply Z.nlt_ge. intros C.
      assert (Hj : In (v - i)%Z (offsets s)). { destruct s; cbn [offsets In]; lia. }
      pose proof (find_none _ _ Ef _ Hj) as F. cbv beta in F. apply Z.eqb_neq in F. apply F. rewrite wrap_ud_mod by lia. replace (i + (v - i))%Z with v by ring.
      destruct Hv as [-> | ->]; [apply Z.mod_small; lia|]. symmetry. apply Z.mod_unique with (-1)%Z; lia. }
    rewrite EN, (O q), (O (q - N)%Z) by lia. apply abs_le. lra.
Qed.
(** a third of the way between two cells, seen from a block that begins above the particle *)
Example C98_axis_case : let x := round64 ((13 # 3) * 1) in 1 <= x <= inject_Z (2 ^ 31) /\ inject_Z 6 - 2 <= x /\ middle TSC x = 4%Z /\
  map fst (fspline round64 TSC false 1 6 8 (13 # 3)) = [5; 6; 7]%Z /\
  Qabs (entry1 (fspline round64 TSC false 1 6 8 (13 # 3)) 6 - (23 # 36)) <= Qpower 2 (-51).
Proof. vm_compute. repeat split; discriminate. Qed.
