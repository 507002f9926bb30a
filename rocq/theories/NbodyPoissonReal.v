(** Property C93 over the real numbers: the sine, 2 pi and the roots of unity are those of the
    standard library, for every mesh and box. *)
From Coq Require Import List Arith ZArith QArith Lia Bool Reals Lra Qreals.
From Verif Require Import EngineModel EnginePaint Base ListFacts WrapModel WrapProofs WindowModel DomainFill MeshModel MeshAssign MeshRoute MeshPaint MeshProperties MeshProperties2 MeshProperties3 RingModel FieldModel
  FieldFacts FieldProperties FieldNorm FourierModel FourierFacts FourierProperties FourierReal NbodyModel NbodyProperties NbodyReal NbodyPoisson MeshTile.
Import ListNotations.
Local Close Scope Q_scope.
Local Open Scope R_scope.

Lemma zin_IZR z : zin Rring z = IZR z.
Proof.
  destruct (Z_lt_le_dec 0 z) as [H|H]; [now apply zin_real|]. destruct (Z.eq_dec z 0) as [->|H']; [reflexivity|].
  replace z with (- (- z))%Z by lia. rewrite zin_opp, zin_real by lia. rewrite (opp_IZR (- z)). reflexivity.
Qed.
Lemma signed_cases n j : signed_index n j = j \/ signed_index n j = (j - n)%Z.
Proof. unfold signed_index. destruct (_ <=? _)%Z; auto. Qed.
Lemma sin_shift t m n : (0 < n)%Z -> sin (IZR m * ((t - IZR n) * (2 * PI / IZR n))) = sin (IZR m * (t * (2 * PI / IZR n))).
Proof.
  intros Hn. assert (NZ : IZR n <> 0) by (apply not_0_IZR; lia).
  replace (IZR m * ((t - IZR n) * (2 * PI / IZR n))) with (IZR m * (t * (2 * PI / IZR n)) + 2 * IZR (- m) * PI) by (rewrite opp_IZR; field; exact NZ).
  destruct (Z_le_gt_dec 0 (- m)) as [H|H].
  - rewrite <- (Z2Nat.id (- m)) by exact H. rewrite <- INR_IZR_INZ. apply sin_period.
  - set (a := IZR m * _). symmetry. replace a with ((a + 2 * IZR (- m) * PI) + 2 * IZR m * PI) at 1 by (rewrite opp_IZR; ring).
    rewrite <- (Z2Nat.id m) at 2 by lia. rewrite <- INR_IZR_INZ. apply sin_period.
Qed.
Lemma real_trigonometry Nmesh box : Forall (fun m => (0 < m)%Z) Nmesh -> length box = length Nmesh -> Forall (fun L => (0 < L)%Q) box ->
  trigonometry Rring Q2R sin Rinv zero_R (2 * PI) Nmesh box (roots Nmesh).
Proof.
  intros HN Lb HB. rewrite Forall_forall in HN, HB.
  assert (B : forall d, (d < length Nmesh)%nat -> Q2R (nth d box 0%Q) <> 0).
  { intros d Hd E. assert (0 < Q2R (nth d box 0%Q)); [|lra]. replace 0 with (Q2R 0) by (unfold Q2R; cbn; lra). apply Qlt_Rlt. apply HB, nth_In. lia. }
  assert (A : forall d, (d < length Nmesh)%nat -> (0 < nth d Nmesh 0)%Z) by (intros d Hd; apply HN, nth_In; exact Hd).
  constructor.
  - intros d j Hd Hj. cbv zeta. cbn [rmul Rring]. rewrite !zin_IZR. specialize (A d Hd). specialize (B d Hd).
    assert (NZ : IZR (nth d Nmesh 0%Z) <> 0) by (apply not_0_IZR; lia).
    assert (W : nth d (roots Nmesh) c1 = unit_root (nth d Nmesh 0%Z)).
    { unfold roots. apply (nth_map_in unit_root Nmesh d c1 0%Z). exact Hd. }
    rewrite W. unfold unit_root. rewrite !moivre. unfold im. cbn [snd]. set (L := Q2R (nth d box 0%Q)) in *. set (m := nth d Nmesh 0%Z) in *.
    rewrite !INR_IZR_INZ, !Z2Nat.id by lia. rewrite mult_IZR.
    replace (IZR (signed_index m j) * (2 * PI * / L) * (L * / IZR m)) with (IZR (signed_index m j) * (2 * PI / IZR m)) by (field; split; assumption).
    assert (X : forall q, sin (IZR q * (IZR (signed_index m j) * (2 * PI / IZR m))) = sin (IZR q * (IZR j * (2 * PI / IZR m)))).
    { intros q. destruct (signed_cases m j) as [-> | ->]; [reflexivity|]. rewrite minus_IZR. apply sin_shift. lia. }
    split; [|rewrite X; f_equal; ring]. specialize (X 1%Z). rewrite !Rmult_1_l in X. exact X.
  - cbn [rmul Rring r1]. rewrite zin_IZR. apply Rinv_l. lra.
  - intros d Hd. cbv zeta. cbn [rmul Rring r1]. rewrite zin_IZR. apply Rinv_l. apply Rmult_integral_contrapositive_currified; [exact (B d Hd)|].
    apply Rinv_neq_0_compat, not_0_IZR. specialize (A d Hd). lia.
  - intros a Ha. unfold zero_R in Ha. destruct (Req_EM_T a 0) as [E|NE]; [discriminate|]. cbn. now apply Rinv_l.
Qed.

(** (2 pi)^2 times the sum of (j_d / L_d)^2, j_d the signed number of the mode *)
Definition k_squared (Nmesh : list Z) (box : list Q) (k : list Z) : R := wave2 Rring (map (fun L => 2 * PI * / Q2R L) box) Nmesh k.

Theorem C93_real : forall base n BoxSize box w0 pt blocks pms outs Mid,
  world (N base n) BoxSize box w0 pt blocks pms -> (0 < native_of (w_kind w0))%Z -> (0 <= w_support w0)%Z -> length outs = length blocks ->
  (forall r, (r < length blocks)%nat -> MeshRoute.stored (f_array (nth r outs zero_field)) (block_shape (i_edges pt) (block blocks r))) ->
  tiles (half base n) Mid -> Forall (fun L => (0 < L)%Q) box -> Forall (fun m => Z.even m = true) (N base n) ->
  forall om Qpos S, let nd := length (N base n) in particles_ok nd (length blocks) Qpos -> same_particles nd Qpos S ->
  let X := map2 (map2 (map2 Qplus)) S Qpos in
  let arrays := map f_array outs in
  let modes := spectrum Rring base n (roots (N base n)) (inverses (N base n)) in
  exists ls ms (delta phi : list Z -> R) F,
    pm_decompose pms (SmoothNumber (Scalar (1 * inject_Z (w_support w0))%Q)) None X = map Ret ls /\
    pm_paint pms None None false None (Some ls) outs X WNone (unit_mass pms) = map Ret ms /\
    let rho := real_blocks Rring Q2R pms arrays (map (fun p => scale_by (fst p) (snd p) (factor pms X)) (combine arrays ms)) in
    tiles (N base n) rho /\ holds (V := Rring) rho delta /\
    (forall k, In k (cells_of (half base n)) -> k_squared (N base n) box k <> 0 ->
       k_squared (N base n) box k * re (modes phi k) = - re (modes delta k) /\
       k_squared (N base n) box k * im (modes phi k) = - im (modes delta k)) /\
    real_force om pms (N base n) box outs Mid Qpos S = Some F /\
    forall d, (d < nd)%nat -> exists Gs (G : list Z -> R) R,
      map lstart Gs = map lstart rho /\ map lshape Gs = map lshape rho /\ holds (V := Rring) Gs G /\
      (forall x, valid_index (N base n) x -> let h := Q2R (nth d box 0%Q) / IZR (nth d (N base n) 0%Z) in
         G x = - (8 * (phi (step_to (N base n) x d 1) - phi (step_to (N base n) x d (-1)))
                  - (phi (step_to (N base n) x d 2) - phi (step_to (N base n) x d (-2)))) / (12 * h)) /\
      readout_in Rring Q2R pms None ls arrays Gs X = Some R /\ nth d F [] = map (map (Rmult om)) R.
Proof.
  intros base n BoxSize box w0 pt blocks pms outs Mid W Hk Hs Lo St TM HB even om Qpos S nd Hp HS X arrays modes.
  pose proof (real_simulation base n BoxSize box w0 pt blocks pms outs Mid W Hk Hs Lo St TM) as Sim.
  assert (Pos : Forall (fun m => (0 < m)%Z) (N base n)) by exact (mesh_roots_pos _ _ _ _ (sm_roots _ _ _ _ _ _ _ _ _ _ _ _ _ Sim)).
  pose proof (real_trigonometry (N base n) box Pos (wd_boxdim _ _ _ _ _ _ _ W) HB) as T.
  destruct (C93_force Rring Q2R R_embedding sin Rinv zero_R (2 * PI) base n _ _ BoxSize box w0 pt blocks pms outs Mid Sim T two_real even om Qpos S Hp HS)
    as (ls & ms & delta & phi & F & H1 & H2 & H3 & H4 & H5 & H6 & H7).
  exists ls, ms, delta, phi, F. split; [exact H1|]. split; [exact H2|]. intros rho. split; [exact H3|]. split; [exact H4|]. split; [|split; [exact H6|]].
  - intros k Ik NZ. specialize (H5 k Ik). fold modes in H5. change (wave2 _ _ _ k) with (k_squared (N base n) box k) in H5.
    unfold zero_R in H5. destruct (Req_EM_T (k_squared (N base n) box k) 0) as [Z|_]; [contradiction|]. specialize (H5 eq_refl).
    destruct (modes phi k) as [a b], (modes delta k) as [p q]. unfold cmul, cof, copp in H5. injection H5 as E1 E2. cbn [rmul rsub radd ropp Rring r0] in E1, E2.
    unfold re, im. cbn [fst snd]. split; lra.
  - intros d Hd. destruct (H7 d Hd) as (Gs & G & R & G1 & G2 & G3 & G4 & G5 & G6). exists Gs, G, R. repeat (split; [assumption|]). split; [|split; [exact G5|exact G6]].
    intros x Hx h. specialize (G4 x Hx). unfold four_point in G4. rewrite !zin_IZR in G4. cbn [rmul rsub ropp Rring] in G4.
    assert (B : Q2R (nth d box 0%Q) <> 0).
    { intros E. assert (0 < Q2R (nth d box 0%Q)); [|lra]. replace 0 with (Q2R 0) by (unfold Q2R; cbn; lra). apply Qlt_Rlt.
      rewrite Forall_forall in HB. apply HB, nth_In. rewrite (wd_boxdim _ _ _ _ _ _ _ W). exact Hd. }
    assert (A : IZR (nth d (N base n) 0%Z) <> 0).
    { apply not_0_IZR. rewrite Forall_forall in Pos. specialize (Pos (nth d (N base n) 0%Z) (nth_In _ _ Hd)). lia. }
    unfold h. apply (Rmult_eq_reg_r (12 * (Q2R (nth d box 0%Q) * / IZR (nth d (N base n) 0%Z)))).
    + rewrite G4. field. split; assumption.
    + apply Rmult_integral_contrapositive_currified; [lra|]. apply Rmult_integral_contrapositive_currified; [exact B|]. now apply Rinv_neq_0_compat.
Qed.
Print Assumptions C93_real.

(** The sizes have to be even.  On three cells [pm.py] counts the modes 0, -2, -1, so the
    potential of the mode 1 is divided by four times its k^2 *)
Lemma spectrum_cells (f g : list Z -> Rring) base n ws is k : (forall x, In x (cells_of (N base n)) -> f x = g x) ->
  spectrum Rring base n ws is f k = spectrum Rring base n ws is g k.
Proof. intros H. unfold spectrum. f_equal. apply rsum_ext_in. intros x Hx. now rewrite H. Qed.
Theorem C93_odd_refuted : ~ forall (Ls : list (lfield Rring)) (Mid : list (lfield (cpx Rring))) f,
  tiles (N [] 3) Ls -> holds Ls f -> tiles (half [] 3) Mid ->
  exists phi, holds (c2r Rring (N [] 3) (roots [3%Z])
      (map (on_modes Rring (fun i v => cmul (pot_transfer Rring Rinv zero_R (wave Rring (units Rring Q2R Rinv (2 * PI) [1%Q]) (N [] 3) i)) v))
           (r2c Rring (roots [3%Z]) (inverses [3%Z]) Ls Mid)) Ls) phi /\
    forall k, In k (cells_of (half [] 3)) -> k_squared (N [] 3) [1%Q] k <> 0 ->
      k_squared (N [] 3) [1%Q] k * re (spectrum Rring [] 3 (roots [3%Z]) (inverses [3%Z]) phi k) = - re (spectrum Rring [] 3 (roots [3%Z]) (inverses [3%Z]) f k).
Proof.
  intros C. set (f := fun x => match x with [0%Z] => 1 | _ => 0 end : Rring).
  assert (Pos : Forall (fun m => (0 < m)%Z) [3%Z]) by (constructor; [lia|constructor]).
  pose proof (roots_mesh [3%Z] Pos) as M. change [3%Z] with (N [] 3) in M at 1.
  assert (T : trigonometry Rring Q2R sin Rinv zero_R (2 * PI) (N [] 3) [1%Q] (roots [3%Z])).
  { apply real_trigonometry; [exact Pos|reflexivity|]. constructor; [reflexivity|constructor]. }
  set (Ls := map (on_block f) [mkL [0%Z] [3%Z] ([] : list Z)]). set (Mid := [mkL [0%Z] [2%Z] ([] : list (cpx Rring))]).
  assert (TL : tiles (N [] 3) Ls) by now apply tiles_check. assert (TM : tiles (half [] 3) Mid) by now apply tiles_check.
  assert (HL : holds Ls f) by apply on_block_holds.
  destruct (C Ls Mid f TL HL TM) as (phi & Hphi & H). specialize (H [1%Z]).
  set (Phi := back Rring Q2R Rinv (2 * PI) [] 3 [1%Q] (roots [3%Z]) (pot_transfer Rring Rinv zero_R) (r2c Rring (roots [3%Z]) (inverses [3%Z]) Ls Mid)).
  assert (E : spectrum Rring [] 3 (roots [3%Z]) (inverses [3%Z]) phi [1%Z] = spectrum Rring [] 3 (roots [3%Z]) (inverses [3%Z]) Phi [1%Z]).
  { apply spectrum_cells. intros x Hx. eapply (holds_unique (N [] 3)); [|exact Hphi|apply filtered_back|exact Hx]. apply on_block_tiles. exact TL. }
  assert (SQ : square Rring Q2R Rinv (2 * PI) [] 3 [1%Q] [1%Z] = 16 * (PI * PI)).
  { unfold square, wave, units. cbn [N app map combine fst snd]. rewrite zin_IZR. change (signed_index 3 1) with (-2)%Z. unfold Q2R. cbn. rewrite Rinv_1. lra. }
  assert (KS : k_squared (N [] 3) [1%Q] [1%Z] = 4 * (PI * PI)).
  { unfold k_squared. cbn [map wave2 N app]. rewrite zin_IZR. change (FieldResample.signed 3 1) with 1%Z. unfold Q2R. cbn. rewrite Rinv_1. lra. }
  pose proof PI_RGT_0 as P0. assert (PP : 0 < PI * PI) by (apply Rmult_lt_0_compat; exact P0).
  assert (IK : In [1%Z] (cells_of (half [] 3))) by (vm_compute; auto).
  assert (FS : re (spectrum Rring [] 3 (roots [3%Z]) (inverses [3%Z]) f [1%Z]) = / 3).
  { unfold spectrum. change (cells_of (N [] 3)) with [[0%Z]; [1%Z]; [2%Z]]. cbn. ring_simplify. lra. }
  assert (S4 : zero_R (square Rring Q2R Rinv (2 * PI) [] 3 [1%Q] [1%Z]) = false).
  { unfold zero_R. rewrite SQ. destruct (Req_EM_T (16 * (PI * PI)) 0); [lra|reflexivity]. }
  assert (Y : forall k, In k (cells_of (half [] 3)) -> In (opposite (N [] 3) k) (cells_of (half [] 3)) ->
    square Rring Q2R Rinv (2 * PI) [] 3 [1%Q] (opposite (N [] 3) k) = square Rring Q2R Rinv (2 * PI) [] 3 [1%Q] k).
  { intros k Hk Hk'. change (cells_of (half [] 3)) with [[0%Z]; [1%Z]] in Hk, Hk'. destruct Hk as [<-|[<-|[]]]; [reflexivity|].
    change (opposite (N [] 3) [1%Z]) with [2%Z] in Hk'. destruct Hk' as [Q|[Q|[]]]; discriminate. }
  pose proof (poisson Rring Q2R sin Rinv zero_R (2 * PI) [] 3 [1%Q] (roots [3%Z]) (inverses [3%Z]) M T two_real Y Ls Mid f TL HL TM [1%Z] IK S4) as X.
  cbv zeta in X. fold Phi in X. rewrite <- E, SQ in X. rewrite KS in H. specialize (H IK ltac:(lra)). rewrite FS in H.
  destruct (spectrum Rring [] 3 (roots [3%Z]) (inverses [3%Z]) phi [1%Z]) as [a b]. destruct (spectrum Rring [] 3 (roots [3%Z]) (inverses [3%Z]) f [1%Z]) as [p q].
  unfold cmul, cof, copp in X. injection X as X1 _. cbn [rmul rsub ropp r0 Rring] in X1. unfold re in *. cbn [fst] in *. nra.
Qed.
Print Assumptions C93_odd_refuted.
