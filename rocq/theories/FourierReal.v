(** The roots of unity and the inverses of the axis lengths over the real
    numbers: the hypotheses of C44 hold for every mesh. *)
From Coq Require Import List Arith ZArith QArith Lia Bool Reals Lra.
From Verif Require Import Base ListFacts WrapModel WrapProofs DomainFill MeshModel MeshTile RingModel FieldModel FieldFacts FieldProperties
  FieldNorm FourierModel FourierFacts FourierProperties.
Import ListNotations.
Local Close Scope Q_scope.
Local Open Scope R_scope.

Definition Rring : cring := mkRing R 0 1 Rplus Rmult Rminus Ropp RTheory.

(** exp (2 pi i / n) *)
Definition unit_root (n : Z) : cpx Rring := (cos (2 * PI / IZR n), sin (2 * PI / IZR n)).
Definition roots (Nmesh : list Z) : list (cpx Rring) := map unit_root Nmesh.
(** Nmesh ** -1.0 *)
Definition inverses (Nmesh : list Z) : list Rring := map (fun n => / IZR n) Nmesh.

Lemma zin_add a b : zin Rring (a + b) = zin Rring a + zin Rring b.
Proof.
  pose proof (InitialRing.gen_phiZ_morph (Ring_theory.Eqsth R) (Ring_theory.Eq_ext Rplus Rmult Ropp) RTheory) as M.
  apply (Ring_theory.morph_add M).
Qed.
Lemma zin_nat m : zin Rring (Z.of_nat m) = INR m.
Proof.
  induction m as [|m IH]; [reflexivity|].
  rewrite Nat2Z.inj_succ, S_INR, <- Z.add_1_r, zin_add, IH. reflexivity.
Qed.
Lemma zin_real n : (0 < n)%Z -> zin Rring n = IZR n.
Proof. intros H. rewrite <- (Z2Nat.id n) by lia. now rewrite zin_nat, <- INR_IZR_INZ. Qed.

Lemma moivre t m : cpow Rring (cos t, sin t) m = (cos (INR m * t), sin (INR m * t)).
Proof.
  induction m as [|m IH]; [cbn; rewrite Rmult_0_l, cos_0, sin_0; reflexivity|].
  cbn [cpow]. rewrite IH, S_INR. unfold cmul, re, im. cbn [fst snd radd rmul rsub Rring].
  replace ((INR m + 1) * t) with (t + INR m * t) by ring. rewrite cos_plus, sin_plus. f_equal; ring.
Qed.

Section Geometric.
Variable z : cpx Rring.
Lemma geometric m : csub (cmul z (rsum (K := cpx_cring Rring) (cpow Rring z) (seq 0 m)))
                         (rsum (K := cpx_cring Rring) (cpow Rring z) (seq 0 m)) = csub (cpow Rring z m) c1.
Proof.
  induction m as [|m IH].
  - cbn. unfold csub, cmul, c1. cbn. f_equal; ring.
  - rewrite seq_S, rsum_app. cbn [plus rsum fold_right].
    set (s := rsum (K := cpx_cring Rring) (cpow Rring z) (seq 0 m)) in *. cbn [cpow]. set (p := cpow Rring z m) in *.
    revert IH. cbn. unfold csub, cmul, cadd, c1. destruct z as [a b], s as [c d], p as [e f]. cbn. intros IH.
    injection IH as E1 E2. f_equal; lra.
Qed.
End Geometric.

Lemma unit_root_axis n : (0 < n)%Z -> axis_root Rring n (unit_root n) (/ IZR n).
Proof.
  intros Hn. assert (Pn : 0 < IZR n) by now apply IZR_lt.
  assert (En : INR (Z.to_nat n) = IZR n) by (rewrite INR_IZR_INZ, Z2Nat.id by lia; reflexivity).
  assert (Or : cpow Rring (unit_root n) (Z.to_nat n) = c1).
  { unfold unit_root. rewrite moivre, En. replace (IZR n * (2 * PI / IZR n)) with (2 * PI) by (field; lra).
    rewrite cos_2PI, sin_2PI. reflexivity. }
  split; [exact Hn| |exact Or| |].
  - unfold unit_root, cmul, cconj, re, im. cbn [fst snd radd rmul rsub ropp Rring]. pose proof (sin2_cos2 (2 * PI / IZR n)) as S.
    unfold Rsqr in S. unfold c1. cbn. f_equal; lra.
  - intros d Hd. set (z := cpow Rring (unit_root n) (Z.to_nat d)).
    assert (Ez : rsum (K := cpx_cring Rring) (fun j => cpow Rring (unit_root n) (Z.to_nat (j * d))) (zrange 0 (Z.to_nat n)) =
                 rsum (K := cpx_cring Rring) (cpow Rring z) (seq 0 (Z.to_nat n))).
    { assert (Zr : forall a m, zrange (Z.of_nat a) m = map Z.of_nat (seq a m)).
      { intros a m. revert a. induction m as [|m IH]; intros a; [reflexivity|]. cbn [zrange seq map]. f_equal.
        rewrite <- IH. f_equal. lia. }
      rewrite (Zr 0%nat), (rsum_map (cpx_cring Rring)). apply (rsum_ext (cpx_cring Rring)). intros i. unfold z. rewrite <- cpow_mul. f_equal. nia. }
    rewrite Ez. pose proof (geometric z (Z.to_nat n)) as G.
    assert (Zn : cpow Rring z (Z.to_nat n) = c1).
    { unfold z. rewrite <- cpow_mul, Nat.mul_comm, cpow_mul, Or. apply cpow_one. }
    rewrite Zn in G.
    assert (Nz : fst z <> 1).
    { unfold z, unit_root. rewrite moivre. cbn [fst]. set (t := INR (Z.to_nat d) * (2 * PI / IZR n)).
      assert (Hd' : 0 < INR (Z.to_nat d) / IZR n < 1).
      { rewrite INR_IZR_INZ, Z2Nat.id by lia. split; [apply Rdiv_lt_0_compat; [apply IZR_lt; lia|exact Pn]|].
        apply Rmult_lt_reg_r with (IZR n); [exact Pn|]. unfold Rdiv. rewrite Rmult_assoc, Rinv_l by lra.
        rewrite Rmult_1_l, Rmult_1_r. apply IZR_lt. lia. }
      replace t with (2 * (INR (Z.to_nat d) / IZR n * PI)) by (unfold t; field; lra).
      rewrite cos_2a_sin. pose proof PI_RGT_0 as PP.
      assert (S : 0 < sin (INR (Z.to_nat d) / IZR n * PI)) by (apply sin_gt_0; nra).
      nra. }
    revert G Nz. generalize (rsum (K := cpx_cring Rring) (cpow Rring z) (seq 0 (Z.to_nat n))).
    intros s G Nz. destruct z as [a b], s as [c e]. unfold csub, cmul, c1, c0 in *. cbn in *.
    injection G as G1 G2.
    assert (Q1 : 0 < (a - 1) * (a - 1)) by (destruct (Rdichotomy a 1 Nz); nra).
    assert (Q : 0 < (a - 1) * (a - 1) + b * b) by nra.
    assert (Hc : c = 0).
    { apply Rmult_eq_reg_l with ((a - 1) * (a - 1) + b * b); [|lra].
      transitivity ((a - 1) * (a * c - b * e - c) + b * (a * e + b * c - e)); [ring|]. rewrite G1, G2. ring. }
    assert (He : e = 0).
    { apply Rmult_eq_reg_l with ((a - 1) * (a - 1) + b * b); [|lra].
      transitivity ((a - 1) * (a * e + b * c - e) - b * (a * c - b * e - c)); [ring|]. rewrite G1, G2. ring. }
    now subst.
  - cbn. rewrite zin_real by exact Hn. field. lra.
Qed.

Lemma roots_mesh Nmesh : Forall (fun n => (0 < n)%Z) Nmesh -> mesh_roots Rring Nmesh (roots Nmesh) (inverses Nmesh).
Proof. induction 1 as [|n N Hn _ IH]; constructor; [now apply unit_root_axis|exact IH]. Qed.

Lemma two_real (a : Rring) : radd a a = r0 -> a = r0.
Proof. cbn. intros. lra. Qed.

(** ** C44 over the real numbers, for every mesh *)
Section Real.
Variables (base : list Z) (n : Z).
Hypothesis pos : Forall (fun d => (0 < d)%Z) (base ++ [n]).
Local Notation Nmesh := (base ++ [n]).
Local Notation cshape := (base ++ [(n / 2 + 1)%Z]).

Theorem C44_real_round_trip : forall (Ls Out : list (lfield Rring)) (Mid : list (lfield (cpx Rring))) f,
  tiles Nmesh Ls -> holds Ls f -> tiles cshape Mid -> tiles Nmesh Out ->
  holds (c2r Rring Nmesh (roots Nmesh) (r2c Rring (roots Nmesh) (inverses Nmesh) Ls Mid) Out) f.
Proof. intros. eapply (C44_c2r_r2c Rring base n); eauto. now apply roots_mesh. Qed.

Theorem C44_real_round_trip_complex : forall (Ls Mid : list (lfield (cpx Rring))) (Tmp : list (lfield Rring)) c,
  tiles cshape Ls -> holds Ls c -> hermitian Rring Nmesh cshape c -> tiles Nmesh Tmp -> tiles cshape Mid ->
  holds (r2c Rring (roots Nmesh) (inverses Nmesh) (c2r Rring Nmesh (roots Nmesh) Ls Tmp) Mid) c.
Proof. intros. eapply (C44_r2c_c2r Rring base n); eauto; [now apply roots_mesh|apply two_real]. Qed.
End Real.

Example C44_real_case : forall f, holds (map (on_block f) [mkL [0; 0] [3; 5] ([] : list Z); mkL [3; 0] [4; 5] []]%Z) f ->
  holds (c2r Rring [7; 5]%Z (roots [7; 5]%Z)
    (r2c Rring (roots [7; 5]%Z) (inverses [7; 5]%Z) (map (on_block f) [mkL [0; 0] [3; 5] ([] : list Z); mkL [3; 0] [4; 5] []]%Z)
       (map (on_block (fun _ => c0)) [mkL [0; 0] [7; 1] ([] : list Z); mkL [0; 1] [7; 2] []]%Z))
    (map (on_block (fun _ => 0)) [mkL [0; 0] [7; 5] ([] : list Z)]%Z)) f.
Proof.
  intros f H. apply (C44_real_round_trip [7%Z] 5%Z); [repeat constructor| |exact H| |]; now apply tiles_check.
Qed.

Print Assumptions C44_real_round_trip.
Print Assumptions C44_real_round_trip_complex.
