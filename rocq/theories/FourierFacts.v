(** Orthogonality of the characters and the transforms as sums over all modes. *)
From Coq Require Import List Arith ZArith QArith Lia Bool Permutation Ring.
From Verif Require Import Base ListFacts LayoutModel WrapModel WrapProofs DomainModel DomainFill MeshModel MeshAssign
  MeshRoute MeshTile RingModel FieldModel FieldFacts FieldProperties FieldSort FieldResample FieldNorm FourierModel.
Import ListNotations.
Local Close Scope Q_scope.
Local Open Scope Z_scope.

Section Roots.
Variable K : cring.
Add Ring Kr : (rth K).
Local Notation C := (cpx K).
Local Notation CC := (cpx_cring K).
Local Notation csum := (rsum (K := cpx_cring K)).

(** what is needed of the root of an axis of n cells and of 1/n *)
Record axis_root (n : Z) (w : C) (inv : K) : Prop := {
  ro_pos : 0 < n;
  ro_unit : cmul w (cconj w) = c1;
  ro_order : cpow K w (Z.to_nat n) = c1;
  ro_sum : forall d, 0 < d < n -> csum (fun j => cpow K w (Z.to_nat (j * d))) (zrange 0 (Z.to_nat n)) = c0;
  ro_inv : rmul inv (zin K n) = r1
}.
Inductive mesh_roots : list Z -> list C -> list K -> Prop :=
| mr_nil : mesh_roots [] [] []
| mr_cons n N w ws i is : axis_root n w i -> mesh_roots N ws is -> mesh_roots (n :: N) (w :: ws) (i :: is).

Lemma mesh_roots_pos N ws is : mesh_roots N ws is -> Forall (fun n => 0 < n) N.
Proof. induction 1 as [|n N w ws i is A M IH]; constructor; [apply (ro_pos _ _ _ A)|exact IH]. Qed.

(** ** complex arithmetic *)
Lemma cmul_assoc (a b c : C) : cmul a (cmul b c) = cmul (cmul a b) c.
Proof. unfold cmul. cbn. f_equal; ring. Qed.
Lemma cmul_comm (a b : C) : cmul a b = cmul b a.
Proof. unfold cmul. f_equal; ring. Qed.
Lemma cmul_1_l (a : C) : cmul c1 a = a.
Proof. destruct a. unfold cmul, c1. cbn. f_equal; ring. Qed.
Lemma cmul_1_r (a : C) : cmul a c1 = a.
Proof. rewrite cmul_comm. apply cmul_1_l. Qed.
Lemma cmul_0_l (a : C) : cmul c0 a = c0.
Proof. unfold cmul, c0. cbn. f_equal; ring. Qed.
Lemma cmul_0_r (a : C) : cmul a c0 = c0.
Proof. rewrite cmul_comm. apply cmul_0_l. Qed.
Lemma cconj_1 : cconj (c1 : C) = c1.
Proof. unfold cconj, c1. cbn. f_equal. ring. Qed.
Lemma cpow_add (w : C) a b : cpow K w (a + b) = cmul (cpow K w a) (cpow K w b).
Proof. induction a as [|a IH]; cbn; [now rewrite cmul_1_l|]. now rewrite IH, cmul_assoc. Qed.
Lemma cpow_one n : cpow K c1 n = c1.
Proof. induction n as [|n IH]; [reflexivity|]. cbn. now rewrite IH, cmul_1_l. Qed.
Lemma cpow_mul (w : C) a b : cpow K w (a * b) = cpow K (cpow K w a) b.
Proof. induction b as [|b IH]; [now rewrite Nat.mul_0_r|]. rewrite Nat.mul_succ_r, Nat.add_comm, cpow_add, IH. reflexivity. Qed.
Lemma cpow_conj (w : C) n : cconj (cpow K w n) = cpow K (cconj w) n.
Proof. induction n as [|n IH]; cbn; [apply cconj_1|]. now rewrite cconj_mul, IH. Qed.
Lemma cpow_cmul (z w : C) n : cpow K (cmul z w) n = cmul (cpow K z n) (cpow K w n).
Proof.
  induction n as [|n IH]; cbn; [now rewrite cmul_1_l|]. rewrite IH. unfold cmul. cbn. f_equal; ring.
Qed.
Lemma csum_scale {A} (c : C) (f : A -> C) l : csum (fun a => cmul c (f a)) l = cmul c (csum f l).
Proof. apply (rsum_scale CC). Qed.
Lemma csum_scale_r {A} (c : C) (f : A -> C) l : csum (fun a => cmul (f a) c) l = cmul (csum f l) c.
Proof. apply (rsum_scale_r CC). Qed.

(** ** one axis *)
Section Axis.
Variables (n : Z) (w : C) (inv : K).
Hypothesis A : axis_root n w inv.
Lemma unit_pow m : cmul (cpow K w m) (cconj (cpow K w m)) = c1.
Proof. rewrite cpow_conj, <- cpow_cmul, (ro_unit _ _ _ A). apply cpow_one. Qed.
Lemma order_pow m : cpow K w (Z.to_nat n * m) = c1.
Proof. rewrite cpow_mul, (ro_order _ _ _ A). apply cpow_one. Qed.
(** the value at an index and at its opposite *)
Lemma pow_opposite j a : 0 <= j < n -> 0 <= a ->
  cpow K w (Z.to_nat (((- j) mod n) * a)) = cconj (cpow K w (Z.to_nat (j * a))).
Proof.
  intros Hj Ha.
  assert (P : cmul (cpow K w (Z.to_nat (((- j) mod n) * a))) (cpow K w (Z.to_nat (j * a))) = c1).
  { rewrite <- cpow_add, <- Z2Nat.inj_add by (pose proof (Z.mod_pos_bound (- j) n); nia).
    rewrite <- Z.mul_add_distr_r. destruct (Z.eq_dec j 0) as [->|Hz].
    - rewrite Z.mod_0_l by lia. reflexivity.
    - replace ((- j) mod n) with (n - j)
        by (rewrite <- (Z.mod_small (n - j) n) by lia; rewrite <- (Z.mod_add (- j) 1 n) by lia; f_equal; lia).
      replace ((n - j + j) * a) with (n * a) by ring. rewrite Z2Nat.inj_mul by lia. apply order_pow. }
  rewrite <- (cmul_1_r (cpow K w (Z.to_nat (((- j) mod n) * a)))), <- (unit_pow (Z.to_nat (j * a))), cmul_assoc, P.
  apply cmul_1_l.
Qed.
Lemma csum_count (l : list Z) : csum (fun _ => c1) l = cof (zin K (Z.of_nat (length l))).
Proof.
  induction l as [|x l IH]; [reflexivity|]. rewrite rsum_cons, IH.
  replace (Z.of_nat (length (x :: l))) with (1 + Z.of_nat (length l)) by (cbn [length]; lia).
  pose proof (InitialRing.gen_phiZ_morph (Ring_theory.Eqsth K) (Ring_theory.Eq_ext radd rmul ropp) (rth K)) as M.
  unfold zin. rewrite (Ring_theory.morph_add M). cbn. unfold cadd, c1, cof. cbn. f_equal; ring.
Qed.
Lemma axis_orthogonal x y : 0 <= x < n -> 0 <= y < n ->
  csum (fun j => cmul (cpow K w (Z.to_nat (j * x))) (cconj (cpow K w (Z.to_nat (j * y))))) (zrange 0 (Z.to_nat n)) =
  if x =? y then cof (zin K n) else c0.
Proof.
  intros Hx Hy. pose proof (ro_pos _ _ _ A) as Hn.
  assert (G : forall x y, 0 <= x -> x <= y -> y < n ->
    csum (fun j => cmul (cpow K w (Z.to_nat (j * y))) (cconj (cpow K w (Z.to_nat (j * x))))) (zrange 0 (Z.to_nat n)) =
    if x =? y then cof (zin K n) else c0).
  { clear x y Hx Hy. intros x y Hx Hxy Hy.
    rewrite (rsum_ext_in CC _ (fun j => cpow K w (Z.to_nat (j * (y - x))))).
    - destruct (Z.eqb_spec x y) as [->|Hne].
      + rewrite (rsum_ext_in CC _ (fun _ => c1)) by (intros j _; replace (j * (y - y)) with 0 by ring; reflexivity).
        rewrite csum_count, zrange_length, Z2Nat.id by lia. reflexivity.
      + apply (ro_sum _ _ _ A). lia.
    - intros j Hj. apply in_zrange in Hj.
      replace (Z.to_nat (j * y)) with (Z.to_nat (j * (y - x)) + Z.to_nat (j * x))%nat by (rewrite <- Z2Nat.inj_add by nia; f_equal; ring).
      rewrite cpow_add, <- cmul_assoc, unit_pow. apply cmul_1_r. }
  destruct (Z.le_gt_cases y x) as [H|H].
  - rewrite (G y x) by lia. now rewrite Z.eqb_sym.
  - rewrite <- (cconj_involutive K (csum _ _)), cconj_rsum.
    rewrite (rsum_ext CC _ (fun j => cmul (cpow K w (Z.to_nat (j * y))) (cconj (cpow K w (Z.to_nat (j * x)))))).
    + rewrite (G x y) by lia. destruct (x =? y); [apply cconj_of|apply cconj_0].
    + intros j. rewrite cconj_mul, cconj_involutive. apply cmul_comm.
Qed.
End Axis.

(** ** all axes *)
Lemma cells_cons n N : cells_of (n :: N) = flat_map (fun x => map (cons x) (cells_of N)) (zrange 0 (Z.to_nat n)).
Proof. unfold cells_of. cbn [map box]. now rewrite Z.sub_0_r. Qed.

Definition sizes (N : list Z) : list K := map (zin K) N.

Lemma orthogonal N ws is : mesh_roots N ws is -> forall x y, valid_index N x -> valid_index N y ->
  csum (fun k => cmul (chi K ws k x) (cconj (chi K ws k y))) (cells_of N) = if idx_eqb x y then cof (rprod K (sizes N)) else c0.
Proof.
  induction 1 as [|n N w ws i is A M IH]; intros x y Vx Vy.
  - inversion Vx; inversion Vy; subst. unfold idx_eqb. destruct (list_eq_dec Z.eq_dec [] []); [|easy].
    cbn. unfold cmul, c1, cconj, cadd, cof. cbn. f_equal; ring.
  - inversion Vx as [|? a ? x' Ha Vx']; inversion Vy as [|? b ? y' Hb Vy']; subst.
    rewrite cells_cons, rsum_flat_map.
    rewrite (rsum_ext CC _ (fun j => cmul (cmul (cpow K w (Z.to_nat (j * a))) (cconj (cpow K w (Z.to_nat (j * b)))))
       (csum (fun k => cmul (chi K ws k x') (cconj (chi K ws k y'))) (cells_of N)))).
    + rewrite (csum_scale_r _ (fun j => cmul (cpow K w (Z.to_nat (j * a))) (cconj (cpow K w (Z.to_nat (j * b)))))).
      rewrite (axis_orthogonal n w i A a b Ha Hb), (IH x' y' Vx' Vy').
      unfold idx_eqb. destruct (Z.eqb_spec a b) as [->|Hab].
      * destruct (list_eq_dec Z.eq_dec x' y') as [->|Hxy]; destruct (list_eq_dec Z.eq_dec (b :: _) (b :: _)); try congruence.
        -- change (rprod K (sizes (n :: N))) with (rmul (zin K n) (rprod K (sizes N))). unfold cmul, cof. cbn. f_equal; ring.
        -- apply cmul_0_r.
      * destruct (list_eq_dec Z.eq_dec (a :: x') (b :: y')); [congruence|]. apply cmul_0_l.
    + intros j. rewrite rsum_map, <- csum_scale. apply (rsum_ext CC). intros k. cbn [chi]. rewrite cconj_mul.
      unfold cmul. cbn. f_equal; ring.
Qed.
Lemma chi_sym ws k x : chi K ws k x = chi K ws x k.
Proof. revert k x. induction ws as [|w ws IH]; intros [|j k] [|a x]; cbn; try reflexivity. now rewrite IH, Z.mul_comm. Qed.
Lemma chi_opposite N ws is : mesh_roots N ws is -> forall k x, valid_index N k -> valid_index N x ->
  chi K ws (opposite N k) x = cconj (chi K ws k x).
Proof.
  induction 1 as [|n N w ws i is A M IH]; intros k x Vk Vx.
  - inversion Vk; inversion Vx; subst. cbn. symmetry. apply cconj_1.
  - inversion Vx as [|? a ? x' Ha Vx']; inversion Vk as [|? j ? k' Hj Vk']; subst. unfold opposite in *. rewrite map2_cons. cbn [chi].
    rewrite (IH k' x' Vk' Vx'), (pow_opposite n w i A j a) by lia. now rewrite cconj_mul.
Qed.
Lemma inv_sizes N ws is : mesh_roots N ws is -> rmul (rprod K is) (rprod K (sizes N)) = r1.
Proof.
  induction 1 as [|n N w ws i is A M IH]; cbn; [ring|].
  transitivity (rmul (rmul i (zin K n)) (rmul (rprod K is) (rprod K (sizes N)))); [unfold sizes, rprod; ring|].
  rewrite (ro_inv _ _ _ A), IH. ring.
Qed.

(** ** the transforms as sums over the mesh *)
Lemma world_sum {V} cshape (Ls : list (lfield V)) f (g : list Z -> V -> C) : tiles cshape Ls -> holds Ls f ->
  csum (fun L => csum (fun p => g (fst p) (snd p)) (cells_values L)) Ls = csum (fun k => g k (f k)) (cells_of cshape).
Proof.
  intros T H. rewrite <- (tiles_sum CC cshape Ls _ T). apply rsum_ext_in. intros L HL. unfold holds in H. rewrite Forall_forall in H.
  unfold cells_values. rewrite (H L HL), combine_self, rsum_map. reflexivity.
Qed.
Lemma as_complex_tiles cshape (Ls : list (lfield K)) : tiles cshape Ls -> tiles cshape (map (as_complex K) Ls).
Proof. apply tiles_same; now rewrite map_map. Qed.
Lemma as_complex_holds (Ls : list (lfield K)) f : holds Ls f -> holds (map (as_complex K) Ls) (fun x => cof (f x)).
Proof.
  intros H. apply Forall_forall. intros L' HL. apply in_map_iff in HL. destruct HL as (L & <- & HL).
  unfold holds in H. rewrite Forall_forall in H. unfold as_complex. cbn [lvals].
  change (lcells {| lstart := lstart L; lshape := lshape L; lvals := map cof (lvals L) |}) with (lcells L).
  now rewrite (H L HL), map_map.
Qed.
Lemma on_block_holds {V W} (f : list Z -> V) (Ls : list (lfield W)) : holds (map (on_block f) Ls) f.
Proof. apply Forall_forall. intros L' HL. apply in_map_iff in HL. destruct HL as (L & <- & HL). reflexivity. Qed.
Lemma on_block_tiles {V W} (f : list Z -> V) cshape (Ls : list (lfield W)) : tiles cshape Ls -> tiles cshape (map (on_block f) Ls).
Proof. apply tiles_same; now rewrite map_map. Qed.

Lemma forward_sum cshape (Ls : list (lfield C)) f ws k : tiles cshape Ls -> holds Ls f ->
  dft_forward K ws Ls k = csum (fun x => cmul (f x) (cconj (chi K ws k x))) (cells_of cshape).
Proof. intros T H. exact (world_sum cshape Ls f (fun x v => cmul v (cconj (chi K ws k x))) T H). Qed.
Lemma backward_sum cshape (Ls : list (lfield C)) f ws x : tiles cshape Ls -> holds Ls f ->
  dft_backward K ws Ls x = csum (fun k => cmul (f k) (chi K ws k x)) (cells_of cshape).
Proof. intros T H. exact (world_sum cshape Ls f (fun k v => cmul v (chi K ws k x)) T H). Qed.

(** delta sums *)
Lemma csum_delta (f : list Z -> C) (c : C) N y : valid_index N y ->
  csum (fun x => cmul (f x) (if idx_eqb x y then c else c0)) (cells_of N) = cmul (f y) c.
Proof.
  intros Vy. rewrite (rsum_single CC (list_eq_dec Z.eq_dec) _ _ y (cells_of_NoDup _)).
  - unfold idx_eqb. destruct (list_eq_dec Z.eq_dec y y); [reflexivity|easy].
  - apply cells_valid, Vy.
  - intros x _ Hx. unfold idx_eqb. destruct (list_eq_dec Z.eq_dec x y); [easy|]. apply cmul_0_r.
Qed.

(** forward then backward, and backward then forward, over all modes *)
Lemma inversion N ws is f y : mesh_roots N ws is -> valid_index N y ->
  csum (fun k => cmul (csum (fun x => cmul (f x) (cconj (chi K ws k x))) (cells_of N)) (chi K ws k y)) (cells_of N) =
  cmul (f y) (cof (rprod K (sizes N))).
Proof.
  intros M Vy. rewrite (rsum_ext CC _ (fun k => csum (fun x => cmul (f x) (cmul (chi K ws k y) (cconj (chi K ws k x)))) (cells_of N))).
  2:{ intros k. rewrite <- (csum_scale_r (chi K ws k y) (fun x => cmul (f x) (cconj (chi K ws k x)))). apply (rsum_ext CC). intros x.
      rewrite <- cmul_assoc. f_equal. apply cmul_comm. }
  rewrite (rsum_swap CC).
  rewrite (rsum_ext_in CC _ (fun x => cmul (f x) (if idx_eqb x y then cof (rprod K (sizes N)) else c0))).
  - now apply csum_delta.
  - intros x Hx. rewrite (csum_scale (f x) (fun k => cmul (chi K ws k y) (cconj (chi K ws k x)))).
    rewrite (orthogonal N ws is M y x Vy) by now apply cells_valid. f_equal. unfold idx_eqb.
    destruct (list_eq_dec Z.eq_dec y x), (list_eq_dec Z.eq_dec x y); congruence.
Qed.
Lemma inversion' N ws is f j : mesh_roots N ws is -> valid_index N j ->
  csum (fun x => cmul (csum (fun k => cmul (f k) (chi K ws k x)) (cells_of N)) (cconj (chi K ws j x))) (cells_of N) =
  cmul (f j) (cof (rprod K (sizes N))).
Proof.
  intros M Vj. rewrite (rsum_ext CC _ (fun x => csum (fun k => cmul (f k) (cmul (chi K ws x k) (cconj (chi K ws x j)))) (cells_of N))).
  2:{ intros x. rewrite <- (csum_scale_r (cconj (chi K ws j x)) (fun k => cmul (f k) (chi K ws k x))). apply (rsum_ext CC). intros k.
      rewrite <- cmul_assoc, (chi_sym ws k x), (chi_sym ws j x). reflexivity. }
  rewrite (rsum_swap CC).
  rewrite (rsum_ext_in CC _ (fun k => cmul (f k) (if idx_eqb k j then cof (rprod K (sizes N)) else c0))).
  - now apply csum_delta.
  - intros k Hk. rewrite (csum_scale (f k) (fun x => cmul (chi K ws x k) (cconj (chi K ws x j)))).
    now rewrite (orthogonal N ws is M k j) by (auto; now apply cells_valid).
Qed.
End Roots.
