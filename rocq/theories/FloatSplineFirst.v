(** Property C98: a particle of the first cell, on a block that does not begin there. *)
From Coq Require Import List Arith ZArith QArith Qround Qabs Qpower Lqa Lia Bool.
From Verif Require Import Base ListFacts LayoutModel WrapModel WrapProofs DomainModel FloatModel FloatRound FloatDomain FloatNearest FloatPaint FloatCic FloatSpline FloatSplineError FloatSplineAxis.
Import ListNotations.
Local Close Scope Z_scope.
Local Open Scope Q_scope.

(** a double below 1/2 is a multiple of a finer unit: the centre is right for X <= 0 *)
Lemma below_zero X : double X -> X <= 0 -> inject_Z (- 2 ^ 31) <= X ->
  Qfloor (round64 (X + (1 # 2))) = Qfloor (X + (1 # 2)).
Proof.
  intros D H0 H1. destruct (Qlt_le_dec (- (1 # 2)) X) as [L|L].
  - assert (E : Qfloor (X + (1 # 2)) = 0%Z) by (apply floor_is; [change (inject_Z 0) with 0|change (inject_Z (0 + 1)) with 1]; lra). rewrite E.
    apply floor_is; [apply round_lb; [reflexivity|]; change (inject_Z 0) with 0; lra|]. apply Qle_lt_trans with (1 # 2); [apply round_ub; [reflexivity|lra]|reflexivity].
  - (* X <= -1/2: the sum is smaller and a multiple of the same unit *)
    apply floor_eq. destruct D as [q D]. destruct (round64_format q) as (m & e & Hm & He & Eq). rewrite <- D in Eq.
    destruct (Z_le_gt_dec e (-1)) as [Le|Ge].
    + assert (Eh : 1 # 2 == inject_Z (2 ^ (-1 - e)) * Qpower 2 e).
      { rewrite <- qpow_int by lia. rewrite <- qpow_plus. replace (-1 - e + e)%Z with (-1)%Z by ring. reflexivity. }
      assert (Es : X + (1 # 2) == inject_Z (m + 2 ^ (-1 - e)) * Qpower 2 e) by (rewrite inject_Z_plus, Eq, Eh at 1; ring).
      eapply Qeq_trans; [apply round64_compat, Es|]. rewrite Es. apply round64_exact; [|lia].
      pose proof (qpow_pos e) as PE. assert (m <= - 2 ^ (-1 - e))%Z.
      { apply Z.nlt_ge. intros C. rewrite Zlt_Qlt in C. apply (Qmult_lt_r _ _ _ PE) in C. rewrite <- Eq, inject_Z_opp in C.
        assert (EN : - inject_Z (2 ^ (-1 - e)) * Qpower 2 e == - (inject_Z (2 ^ (-1 - e)) * Qpower 2 e)) by ring. rewrite EN, <- Eh in C. lra. }
      assert (0 < 2 ^ (-1 - e))%Z by (apply Z.pow_pos_nonneg; lia). lia.
    + (* an integer *)
      assert (Ez : X == inject_Z (m * 2 ^ e)) by (rewrite inject_Z_mult, <- qpow_int by lia; exact Eq).
      set (v := (m * 2 ^ e)%Z) in *. assert (Hv : (- 2 ^ 31 <= v <= 0)%Z) by (rewrite Ez in H0, H1; change 0 with (inject_Z 0) in H0; rewrite <- Zle_Qle in H0, H1; lia).
      eapply Qeq_trans; [apply round64_compat; rewrite Ez; reflexivity|]. rewrite Ez. apply rep_half. lia.
Qed.
Lemma middle_below s X : double X -> X <= 0 -> inject_Z (- 2 ^ 31) <= X -> fcentre round64 s X = middle s X /\ span s 0 (X - inject_Z (middle s X)).
Proof.
  intros D H0 H1. unfold span. change (inject_Z 0) with 0. destruct s; cbn [fcentre middle].
  - split; [apply below_zero; assumption|]. pose proof (Qfloor_le (X + (1 # 2))). pose proof (Qlt_floor (X + (1 # 2))) as G2. rewrite inj_1 in G2. lra.
  - split; [reflexivity|]. pose proof (Qfloor_le X). pose proof (Qlt_floor X) as F2. rewrite inj_1 in F2. lra.
Qed.
(** the double next to 1/2 *)
Lemma next_half x : double x -> (1 # 2) - Qpower 2 (-53) < x -> x < 1 # 2 -> x == (1 # 2) - Qpower 2 (-54).
Proof.
  intros [q D] H1 H2. assert (L : Qpower 2 (-2) <= round64 q). { rewrite <- D. assert (Qpower 2 (-2) <= (1 # 2) - Qpower 2 (-53)) by (vm_compute; discriminate). lra. }
  destruct (double_grid q (-2) ltac:(lia) L) as [m Em]. change (-2 - 52)%Z with (-54)%Z in Em. rewrite <- D in Em.
  assert (E1 : (1 # 2) - Qpower 2 (-53) == inject_Z (2 ^ 53 - 2) * Qpower 2 (-54)) by reflexivity.
  assert (E2 : 1 # 2 == inject_Z (2 ^ 53) * Qpower 2 (-54)) by reflexivity.
  assert (E3 : (1 # 2) - Qpower 2 (-54) == inject_Z (2 ^ 53 - 1) * Qpower 2 (-54)) by reflexivity.
  rewrite Em, E1 in H1. rewrite Em, E2 in H2. apply Qmult_lt_r in H1; [|reflexivity]. apply Qmult_lt_r in H2; [|reflexivity].
  rewrite <- Zlt_Qlt in H1, H2. assert (m = 2 ^ 53 - 1)%Z by lia. subst m. rewrite Em. symmetry. exact E3.
Qed.

(** A particle of the first cell: on a block that begins at cell a <= 2^k the weights
    differ from those of the whole mesh by 2^(k-52) + 2^-46 at most. *)
Theorem C98_first_cell : forall s scale a n N pos c k, (4 <= N)%Z -> (0 < a)%Z -> (0 <= n)%Z -> (a + n <= N)%Z -> (N <= 2 ^ 31)%Z ->
  let x := round64 (pos * scale) in 0 <= x -> x < 1 -> (a <= c < a + n)%Z -> (0 <= k)%Z -> inject_Z a <= Qpower 2 k ->
  Qabs (entry1 (fspline round64 s false scale a N pos) (c - a) - entry1 (fspline round64 s false scale 0 N pos) c) <= Qpower 2 (k - 52) + Qpower 2 (-46).
Proof.
  intros s scale a n N pos c k HN Ha Hn Han HN2 x Hx0 Hx1 Hc Hk Hak. assert (D : double x) by (eexists; reflexivity).
  assert (A1 : 1 <= inject_Z a) by (apply (inj_le 1); lia). pose proof ulp_pos as U0.
  unfold fspline. fold x. cbv zeta.
  (* the block *)
  set (X := round64 (x + inject_Z (- a))).
  assert (XU : X <= inject_Z (1 - a)). { apply round_ub; [apply round64_int; lia|]. unfold Z.sub. rewrite inj_plus. change (inject_Z 1) with 1. lra. }
  assert (XL : inject_Z (- a) <= X) by (apply round_lb; [apply round64_int; lia|lra]).
  destruct (middle_below s X ltac:(eexists; reflexivity)) as [M1 M2].
  { eapply Qle_trans; [exact XU|]. apply (inj_le _ 0). lia. }
  { eapply Qle_trans; [|exact XL]. apply inj_le. lia. }
  rewrite M1. set (i := middle s X) in *.
  assert (Hi : (- a <= i <= 1 - a)%Z).
  { unfold i. destruct s; cbn [middle].
    - split; [apply floor_lb; lra|]. apply floor_ub. rewrite inj_1. lra.
    - split; [apply floor_lb; exact XL|]. apply floor_ub. eapply Qle_lt_trans; [exact XU|]. rewrite <- Zlt_Qlt. lia. }
  assert (BA : Qabs (entry1 (map (fun j => (wrap_ud N (i + j), fvalue round64 s false scale j (round64 (X - inject_Z (i + j))))) (offsets s)) (c - a)
      - images s N (X - inject_Z (c - a))) <= 34 * ulp) by (apply entry_images; try assumption; lia).
  (* the whole mesh *)
  assert (E0 : round64 (x + inject_Z (- 0)) == x).
  { change (inject_Z (- 0)) with 0. eapply Qeq_trans; [apply round64_compat, Qplus_0_r|now apply double_fix]. }
  assert (C0 : fcentre round64 s (round64 (x + inject_Z (- 0))) = fcentre round64 s x).
  { destruct s; cbn [fcentre]; apply floor_eq; [apply round64_compat; now rewrite E0|exact E0]. }
  set (X0 := round64 (x + inject_Z (- 0))) in *. rewrite C0. set (i0 := fcentre round64 s x).
  assert (V0 : entry1 (map (fun j => (wrap_ud N (i0 + j), fvalue round64 s false scale j (round64 (X0 - inject_Z (i0 + j))))) (offsets s)) c ==
               entry1 (map (fun j => (wrap_ud N (i0 + j), fvalue round64 s false scale j (round64 (x - inject_Z (i0 + j))))) (offsets s)) c).
  { rewrite !entry1_map. destruct (find _ _) as [j|]; [|reflexivity]. apply fvalue_compat, round64_compat. now rewrite E0. }
  assert (X31 : x <= inject_Z (2 ^ 31)) by (assert (1 <= inject_Z (2 ^ 31)) by (vm_compute; discriminate); lra).
  assert (B0 : Qabs (entry1 (map (fun j => (wrap_ud N (i0 + j), fvalue round64 s false scale j (round64 (x - inject_Z (i0 + j))))) (offsets s)) c
      - images s N (x - inject_Z c)) <= 36 * ulp).
  { destruct s as [|].
    - (* the double next to 1/2 apart *)
      destruct (Qlt_le_dec x (1 # 2)) as [H2|H2]; [destruct (Qlt_le_dec ((1 # 2) - Qpower 2 (-53)) x) as [H3|H3]|].
      + pose proof (next_half x D H3 H2) as Ex.
        assert (I1 : i0 = 1%Z). { unfold i0. cbn [fcentre]. rewrite (floor_eq _ 1); [reflexivity|]. eapply Qeq_trans; [apply round64_compat; rewrite Ex; reflexivity|]. reflexivity. }
        rewrite I1.
        assert (S1 : span TSC 0 ((1 # 2) - inject_Z 1)) by (split; vm_compute; discriminate).
        pose proof (entry_images TSC scale N (1 # 2) 1 c HN ltac:(lia) ltac:(lia) ltac:(lia) S1) as BH.
        assert (VE : entry1 (map (fun j => (wrap_ud N (1 + j), fvalue round64 TSC false scale j (round64 (x - inject_Z (1 + j))))) (offsets TSC)) c ==
                     entry1 (map (fun j => (wrap_ud N (1 + j), fvalue round64 TSC false scale j (round64 ((1 # 2) - inject_Z (1 + j))))) (offsets TSC)) c).
        { rewrite !entry1_map. destruct (find _ _) as [j|] eqn:Ef; [|reflexivity]. apply find_some in Ef. destruct Ef as [Hj Ef]. apply Z.eqb_eq in Ef.
          apply fvalue_compat. rewrite wrap_ud_mod in Ef by lia. cbn [offsets In] in Hj. destruct Hj as [<-|[<-|[<-|[]]]].
          - exfalso. rewrite Z.mod_small in Ef by lia. lia.
          - eapply Qeq_trans; [apply round64_compat; rewrite Ex; reflexivity|]. reflexivity.
          - eapply Qeq_trans; [apply round64_compat; rewrite Ex; reflexivity|]. reflexivity. }
        pose proof (images_lipschitz TSC N ((1 # 2) - inject_Z c) (x - inject_Z c) ulp) as IL.
        assert (DL : Qabs ((1 # 2) - inject_Z c - (x - inject_Z c)) <= ulp).
        { assert (DE : (1 # 2) - inject_Z c - (x - inject_Z c) == Qpower 2 (-54)) by (rewrite Ex; ring). rewrite DE. vm_compute. discriminate. }
        specialize (IL DL). rewrite abs_le in BH, IL |- *. rewrite VE. lra.
      + destruct (middle_ok TSC x D ltac:(split; lra) ltac:(intros _; right; right; exact H3)) as [N1 N2]. fold i0 in N1. rewrite <- N1 in N2.
        assert (0 <= i0 <= 1)%Z. { rewrite N1. cbn [middle]. split; [apply floor_lb; change (inject_Z 0) with 0; lra|]. apply floor_ub. change (inject_Z (1 + 1)) with 2. lra. }
        eapply Qle_trans; [apply entry_images; try assumption; lia|]. lra.
      + destruct (middle_ok TSC x D ltac:(split; lra) ltac:(intros _; right; left; exact H2)) as [N1 N2]. fold i0 in N1. rewrite <- N1 in N2.
        assert (0 <= i0 <= 1)%Z. { rewrite N1. cbn [middle]. split; [apply floor_lb; change (inject_Z 0) with 0; lra|]. apply floor_ub. change (inject_Z (1 + 1)) with 2. lra. }
        eapply Qle_trans; [apply entry_images; try assumption; lia|]. lra.
    - destruct (middle_ok PCS x D ltac:(split; lra) ltac:(intros C; discriminate)) as [N1 N2]. fold i0 in N1. rewrite <- N1 in N2.
      assert (i0 = 0)%Z by (rewrite N1; cbn [middle]; apply floor_is; [exact Hx0|exact Hx1]).
      eapply Qle_trans; [apply entry_images; try assumption; lia|]. lra. }
  (* the two positions *)
  assert (DX : Qabs (X - inject_Z (c - a) - (x - inject_Z c)) <= Qpower 2 (k - 53)).
  { assert (E : X - inject_Z (c - a) - (x - inject_Z c) == X - (x + inject_Z (- a))) by (unfold Z.sub; rewrite inj_plus; ring). rewrite E.
    apply round64_error; [lia|]. apply abs_le. rewrite inject_Z_opp. lra. }
  pose proof (images_lipschitz s N _ _ _ DX) as IL.
  assert (P2 : Qpower 2 (k - 52) == 2 * Qpower 2 (k - 53)). { replace (k - 52)%Z with (1 + (k - 53))%Z by ring. rewrite qpow_plus. reflexivity. }
  assert (P46 : Qpower 2 (-46) == 128 * ulp) by reflexivity.
  rewrite abs_le in BA, B0, IL |- *. rewrite V0, P2, P46. lra.
Qed.
Print Assumptions C98_first_cell.
(** seven of eight cells begin at cell one; the particle that [C98_same_bits_refuted] is about *)
Example C98_first_case : let x := Qpower 2 (-53) + Qpower 2 (-60) in let w a c := entry1 (fspline round64 PCS false 1 a 8 x) c in
  0 <= round64 (x * 1) /\ round64 (x * 1) < 1 /\ inject_Z 1 <= Qpower 2 0 /\ w 1%Z 6%Z - w 0%Z 7%Z == (3 # 4) * Qpower 2 (-53) /\
  w 1%Z 0%Z - w 0%Z 1%Z == 0.
Proof. vm_compute. repeat split; discriminate. Qed.
