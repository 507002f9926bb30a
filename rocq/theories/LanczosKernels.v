(** C112: the windows lanczos and kaiser of pmesh/lanczos.py. *)
From Coq Require Import List Arith ZArith QArith Qabs Qround Lia Lqa Bool.
From Verif Require Import Base ListFacts WrapModel WrapProofs WindowModel WindowKernels WindowApi WindowAxis QSum LegacyModel LanczosModel LanczosProperties.
Import ListNotations.
Local Open Scope Q_scope.

Section Lanczos.
  (** numpy.sinc *)
  Variable sinc : Q -> Q.
  (** lanczos.py:36-40 *)
  Definition lanczos_kernel (a dx : Q) : Q := if Qltb dx (- a) then 0 else if Qltb a dx then 0 else sinc dx * sinc (dx * (1 / a)).
  (** lanczos.py:33-44; the integral, from 10000 points, is an argument *)
  Definition lanczos (a integral : Q) : lz_window := {| lz_kernel := lanczos_kernel a; lz_support := Z.to_nat (Qceiling a); lz_integral := integral |}.
End Lanczos.

Section Kaiser.
  (** numpy.i0, and the power 0.5 of a number, which is nan (None) for negative numbers *)
  Variables (i0 : Q -> Q) (root : Q -> option Q).
  (** lanczos.py:52-57: values that are nan are replaced outside of the support *)
  Definition kaiser_value (a : nat) (beta dx : Q) : option Q :=
    let a := inject_Z (Z.of_nat a) in
    let v := option_map (fun tmp => i0 (beta * tmp) / i0 beta) (root (1 - (dx / a) * (dx / a))) in
    if Qltb dx (- a) then Some 0 else if Qltb a dx then Some 0 else v.
  (** the same as a function on numbers *)
  Definition kaiser_kernel (a : nat) (beta dx : Q) : Q := match kaiser_value a beta dx with Some v => v | None => 0 end.
  (** lanczos.py:49-61, for a whole number a, which is the support *)
  Definition kaiser (a : nat) (beta integral : Q) : lz_window := {| lz_kernel := kaiser_kernel a beta; lz_support := a; lz_integral := integral |}.
End Kaiser.

(** What is used of sinc: 1 at 0, even, and zero at the other integers *)
Definition like_sinc (sinc : Q -> Q) : Prop :=
  (forall x y, x == y -> sinc x == sinc y) /\ sinc 0 == 1 /\ (forall x, sinc (- x) == sinc x) /\ (forall k, k <> 0%Z -> sinc (inject_Z k) == 0).
(** of the root and of i0: defined and right from zero on; i0 is positive *)
Definition like_root (root : Q -> option Q) : Prop :=
  (forall x, 0 <= x -> root x <> None) /\ (forall x y u v, x == y -> root x = Some u -> root y = Some v -> u == v) /\ (forall u, root 1 = Some u -> u == 1) /\ (forall u, root 0 = Some u -> u == 0).
Definition like_i0 (i0 : Q -> Q) : Prop := (forall x y, x == y -> i0 x == i0 y) /\ forall x, 0 < i0 x.

Lemma inject_minus i j : inject_Z (i - j) == inject_Z i - inject_Z j.
Proof. unfold Zminus. rewrite inject_Z_plus, inject_Z_opp. reflexivity. Qed.
Lemma support_ge a : 0 < a -> a <= inject_Z (Z.of_nat (Z.to_nat (Qceiling a))) /\ (1 <= Z.to_nat (Qceiling a))%nat.
Proof.
  intros H. pose proof (Qle_ceiling a) as C. assert (P : (0 < Qceiling a)%Z) by (rewrite Zlt_Qlt; change (inject_Z 0) with 0; lra).
  rewrite Z2Nat.id by lia. split; [exact C|lia].
Qed.

(** Points that paint does not visit are at least the support away, and exactly the support only to the left *)
Lemma not_around w x j : ~ In j (around w x) ->
  inject_Z (Z.of_nat (lz_support w)) <= x - inject_Z j \/ x - inject_Z j < - inject_Z (Z.of_nat (lz_support w)).
Proof.
  unfold around. rewrite in_zrange. intros H. pose proof (Qfloor_bounds x) as B.
  destruct (Z_le_gt_dec (Qfloor x - Z.of_nat (lz_support w) + 1) j) as [L|L].
  - right. assert (R : (Qfloor x + Z.of_nat (lz_support w) + 1 <= j)%Z) by lia. rewrite Zle_Qle, !inject_Z_plus in R. change (inject_Z 1) with 1 in R. lra.
  - left. assert (R : (j + Z.of_nat (lz_support w) <= Qfloor x)%Z) by lia. rewrite Zle_Qle, !inject_Z_plus in R. lra.
Qed.

(** lanczos is even, one at zero and zero at the other integers; it is zero beyond a *)
Theorem C112_lanczos : forall sinc a, like_sinc sinc -> 0 < a ->
  (forall dx, lanczos_kernel sinc a (- dx) == lanczos_kernel sinc a dx) /\
  (forall dx, a < Qabs dx -> lanczos_kernel sinc a dx == 0) /\
  lanczos_kernel sinc a 0 == 1 /\ (forall k, k <> 0%Z -> lanczos_kernel sinc a (inject_Z k) == 0).
Proof.
  intros sinc a (P & S0 & E & Z0) Ha. unfold lanczos_kernel. split; [|split; [|split]].
  - intros dx. destruct (Qltb_case (- dx) (- a)), (Qltb_case a (- dx)), (Qltb_case dx (- a)), (Qltb_case a dx); try reflexivity; try lra.
    rewrite E. rewrite (P (- dx * (1 / a)) (- (dx * (1 / a)))) by ring. now rewrite E.
  - intros dx H. destruct (Qltb_case dx (- a)), (Qltb_case a dx); try reflexivity. exfalso. revert H. apply Qle_not_lt, Qabs_Qle_condition. lra.
  - destruct (Qltb_case 0 (- a)), (Qltb_case a 0); try lra. rewrite S0, (P (0 * (1 / a)) 0) by ring. rewrite S0. ring.
  - intros k Hk. destruct (Qltb_case (inject_Z k) (- a)), (Qltb_case a (inject_Z k)); try reflexivity. rewrite (Z0 k Hk). ring.
Qed.
Print Assumptions C112_lanczos.

(** so it is zero on every mesh point that paint does not visit, and a sum over the visited points around a mesh point is the value there *)
Theorem C112_lanczos_paint : forall sinc a c, like_sinc sinc -> 0 < a ->
  (forall x j, ~ In j (around (lanczos sinc a c) x) -> lz_kernel (lanczos sinc a c) (x - inject_Z j) == 0) /\
  (forall z g, qsum (fun j => lz_kernel (lanczos sinc a c) (inject_Z z - inject_Z j) * g j) (around (lanczos sinc a c) (inject_Z z)) == g z).
Proof.
  intros sinc a c Hs Ha. destruct (C112_lanczos sinc a Hs Ha) as (_ & K1 & K2 & K3). destruct (support_ge a Ha) as (C1 & C2). pose proof Hs as (P & _ & _ & Z0).
  assert (KP : forall x y, x == y -> lanczos_kernel sinc a x == lanczos_kernel sinc a y).
  { intros x y H. unfold lanczos_kernel. destruct (Qltb_case x (- a)), (Qltb_case a x), (Qltb_case y (- a)), (Qltb_case a y); try reflexivity; try lra.
    rewrite (P x y H), (P (x * (1 / a)) (y * (1 / a))) by now rewrite H. reflexivity. }
  split.
  - intros x j H. apply not_around in H. cbn [lz_support lz_kernel lanczos] in *. set (s := Z.of_nat (Z.to_nat (Qceiling a))) in *.
    destruct (Qlt_le_dec a (x - inject_Z j)) as [L|L].
    + unfold lanczos_kernel. destruct (Qltb_case (x - inject_Z j) (- a)), (Qltb_case a (x - inject_Z j)); try reflexivity; lra.
    + destruct H as [H|H].
      * rewrite (KP _ (inject_Z s)) by lra. apply K3. unfold s. lia.
      * unfold lanczos_kernel. destruct (Qltb_case (x - inject_Z j) (- a)); [reflexivity|lra].
  - intros z g. cbn [lz_kernel lanczos].
    rewrite (qsum_single _ _ z).
    + rewrite (KP _ 0) by ring. rewrite K2. ring.
    + apply zrange_NoDup.
    + unfold around. rewrite in_zrange, Qfloor_Z. cbn [lz_support lanczos]. lia.
    + intros j _ N. rewrite (KP _ (inject_Z (z - j))) by (now rewrite inject_minus). rewrite K3 by lia. ring.
Qed.
Print Assumptions C112_lanczos_paint.

(** kaiser is never nan; it is even, one at zero and zero beyond a, and i0 (0) / i0 (beta) at a *)
Theorem C112_kaiser : forall i0 root a beta, like_i0 i0 -> like_root root -> (1 <= a)%nat ->
  (forall dx, kaiser_value i0 root a beta dx <> None) /\
  (forall dx, kaiser_kernel i0 root a beta (- dx) == kaiser_kernel i0 root a beta dx) /\
  (forall dx, inject_Z (Z.of_nat a) < Qabs dx -> kaiser_kernel i0 root a beta dx == 0) /\
  kaiser_kernel i0 root a beta 0 == 1 /\
  (forall dx, dx == inject_Z (Z.of_nat a) -> kaiser_kernel i0 root a beta dx == i0 0 / i0 beta /\ 0 < kaiser_kernel i0 root a beta dx).
Proof.
  intros i0 root a beta (I1 & I2) (R1 & R2 & R3 & R4) Ha. unfold kaiser_kernel, kaiser_value. set (q := inject_Z (Z.of_nat a)).
  assert (Hq : 1 <= q) by (unfold q; change 1 with (inject_Z 1); rewrite <- Zle_Qle; lia).
  assert (D : forall dx, - q <= dx -> dx <= q -> 0 <= 1 - dx / q * (dx / q)).
  { intros dx L1 L2. assert (A1 : dx / q <= 1) by (apply Qle_shift_div_r; lra). assert (A2 : -(1) <= dx / q) by (apply Qle_shift_div_l; lra).
    setoid_replace (1 - dx / q * (dx / q)) with ((1 - dx / q) * (1 + dx / q)) by ring. apply Qmult_le_0_compat; lra. }
  assert (N : forall x, ~ i0 x == 0) by (intros x; specialize (I2 x); lra).
  split; [|split; [|split; [|split]]].
  - intros dx. destruct (Qltb_case dx (- q)); [discriminate|]. destruct (Qltb_case q dx); [discriminate|]. specialize (R1 _ (D dx ltac:(lra) ltac:(lra))). destruct (root _); [discriminate|congruence].
  - intros dx. destruct (Qltb_case (- dx) (- q)), (Qltb_case q (- dx)), (Qltb_case dx (- q)), (Qltb_case q dx); try reflexivity; try lra.
    pose proof (R1 _ (D dx ltac:(lra) ltac:(lra))) as A1. pose proof (R1 _ (D (- dx) ltac:(lra) ltac:(lra))) as A2.
    destruct (root (1 - dx / q * (dx / q))) as [u|] eqn:U; [|congruence]. destruct (root (1 - - dx / q * (- dx / q))) as [v|] eqn:W; [|congruence]. cbn [option_map].
    rewrite (I1 (beta * v) (beta * u)); [reflexivity|]. rewrite (R2 _ _ v u) with (2 := W) (3 := U); [reflexivity|]. field. lra.
  - intros dx H. destruct (Qltb_case dx (- q)), (Qltb_case q dx); try reflexivity. exfalso. revert H. apply Qle_not_lt, Qabs_Qle_condition. lra.
  - destruct (Qltb_case 0 (- q)), (Qltb_case q 0); try lra. pose proof (R1 _ (D 0 ltac:(lra) ltac:(lra))) as A1. destruct (root (1 - 0 / q * (0 / q))) as [u|] eqn:U; [|congruence]. cbn [option_map].
    pose proof (R1 1 ltac:(lra)) as A2. destruct (root 1) as [v|] eqn:W; [|congruence].
    assert (E : u == 1). { rewrite (R2 _ _ u v) with (2 := U) (3 := W); [now apply R3|]. field. lra. }
    rewrite (I1 (beta * u) beta) by (rewrite E; ring). field. apply N.
  - intros dx E. assert (K : match (if Qltb dx (- q) then Some 0 else if Qltb q dx then Some 0 else option_map (fun tmp => i0 (beta * tmp) / i0 beta) (root (1 - dx / q * (dx / q)))) with Some v => v | None => 0 end == i0 0 / i0 beta).
    { fold q in E. destruct (Qltb_case dx (- q)), (Qltb_case q dx); try lra. pose proof (R1 _ (D dx ltac:(lra) ltac:(lra))) as A1. destruct (root (1 - dx / q * (dx / q))) as [u|] eqn:U; [|congruence]. cbn [option_map].
      pose proof (R1 0 ltac:(lra)) as A2. destruct (root 0) as [v|] eqn:W; [|congruence].
      assert (X : u == 0). { rewrite (R2 _ _ u v) with (2 := U) (3 := W); [now apply R4|]. rewrite E. field. lra. }
      rewrite (I1 (beta * u) 0) by (rewrite X; ring). reflexivity. }
    split; [exact K|]. rewrite K. apply Qlt_shift_div_l; [apply I2|]. rewrite Qmult_0_l. apply I2.
Qed.
Print Assumptions C112_kaiser.

(** paint visits every mesh point where kaiser is not zero, except the one a to the left of a particle on a mesh point; the one a to the right is visited. *)
Theorem C112_kaiser_paint : forall i0 root a beta c, like_i0 i0 -> like_root root -> (1 <= a)%nat -> let w := kaiser i0 root a beta c in
  (forall x j, ~ In j (around w x) -> ~ x - inject_Z j == inject_Z (Z.of_nat a) -> lz_kernel w (x - inject_Z j) == 0) /\
  (forall z, ~ In (z - Z.of_nat a)%Z (around w (inject_Z z)) /\ In (z + Z.of_nat a)%Z (around w (inject_Z z)) /\
     0 < lz_kernel w (inject_Z z - inject_Z (z - Z.of_nat a)) /\
     lz_kernel w (inject_Z z - inject_Z (z + Z.of_nat a)) == lz_kernel w (inject_Z z - inject_Z (z - Z.of_nat a))).
Proof.
  intros i0 root a beta c Hi Hr Ha w. destruct (C112_kaiser i0 root a beta Hi Hr Ha) as (_ & E & Z0 & _ & K).
  assert (KE : forall dx, dx == - inject_Z (Z.of_nat a) -> kaiser_kernel i0 root a beta dx == i0 0 / i0 beta).
  { intros dx H. rewrite <- E. apply K. rewrite H. ring. }
  subst w. split.
  - intros x j H N. apply not_around in H. cbn [lz_support lz_kernel kaiser] in *. apply Z0. apply Qnot_le_lt. intros B. apply Qabs_Qle_condition in B.
    destruct H as [H|H]; [apply N|]; lra.
  - intros z. unfold around. rewrite !in_zrange, Qfloor_Z. cbn [lz_support lz_kernel kaiser]. split; [lia|]. split; [lia|].
    assert (A1 : inject_Z z - inject_Z (z - Z.of_nat a) == inject_Z (Z.of_nat a)) by (rewrite inject_minus; ring).
    destruct (K _ A1) as (K1 & K2). split; [exact K2|]. rewrite K1. apply KE. rewrite inject_Z_plus. ring.
Qed.
Print Assumptions C112_kaiser_paint.

(** Functions with these laws, and values *)
Definition some_sinc (x : Q) : Q := if Qeq_bool x 0 then 1 else if Qeq_bool x (inject_Z (Qfloor x)) then 0 else 1#2.
Definition some_i0 (x : Q) : Q := 1 + x * x * (1#4).
Definition some_root (x : Q) : option Q := if Qltb x 0 then None else Some x.
Lemma some_sinc_like : like_sinc some_sinc.
Proof.
  assert (B : forall x, Qeq_bool x (inject_Z (Qfloor x)) = true <-> exists k, x == inject_Z k).
  { intros x. rewrite Qeq_bool_iff. split; [eauto|]. intros (k & E). rewrite E at 1. rewrite (Qfloor_comp _ _ E), Qfloor_Z. reflexivity. }
  assert (P : forall x y, (x == 0 <-> y == 0) -> ((exists k, x == inject_Z k) <-> exists k, y == inject_Z k) -> some_sinc x == some_sinc y).
  { intros x y H0 HZ. unfold some_sinc. rewrite <- !B in HZ. rewrite <- !Qeq_bool_iff in H0.
    destruct (Qeq_bool x 0), (Qeq_bool y 0), (Qeq_bool x (inject_Z (Qfloor x))), (Qeq_bool y (inject_Z (Qfloor y))); try reflexivity; exfalso; intuition congruence. }
  split; [|split; [|split]].
  - intros x y E. apply P; [now rewrite E|]. split; intros (k & H); exists k; [rewrite <- E|rewrite E]; exact H.
  - reflexivity.
  - intros x. apply P; [split; lra|]. split; intros (k & H); exists (- k)%Z; rewrite inject_Z_opp; lra.
  - intros k N. unfold some_sinc. rewrite Qfloor_Z. destruct (Qeq_bool (inject_Z k) 0) eqn:E; [|now rewrite Qeq_bool_refl].
    apply Qeq_bool_iff in E. unfold Qeq in E. cbn in E. lia.
Qed.
Lemma some_i0_like : like_i0 some_i0.
Proof. unfold like_i0, some_i0. split; [intros x y E; now rewrite E|]. intros x. nra. Qed.
Lemma some_root_like : like_root some_root.
Proof.
  unfold like_root, some_root. split; [|split; [|split]].
  - intros x H. destruct (Qltb_case x 0); [lra|discriminate].
  - intros x y u v E. destruct (Qltb_case x 0), (Qltb_case y 0); try discriminate. intros U V. injection U as <-. injection V as <-. exact E.
  - intros u H. cbn in H. injection H as <-. reflexivity.
  - intros u H. cbn in H. injection H as <-. reflexivity.
Qed.
Example C112_case :
  like_sinc some_sinc /\ like_i0 some_i0 /\ like_root some_root /\
  lanczos_kernel some_sinc 3 (5#2) == 1#4 /\ lanczos_kernel some_sinc 3 2 == 0 /\ lz_support (lanczos some_sinc (5#2) 1) = 3%nat /\
  kaiser_value some_i0 some_root 2 2 3 = Some 0 /\ kaiser_kernel some_i0 some_root 2 2 2 == 1#2 /\
  around (kaiser some_i0 some_root 2 2 1) 5 = [4; 5; 6; 7]%Z.
Proof. split; [exact some_sinc_like|]. split; [exact some_i0_like|]. split; [exact some_root_like|]. repeat split; reflexivity. Qed.
