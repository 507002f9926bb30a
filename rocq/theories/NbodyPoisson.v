(** Property C93: what force() of examples/nbody.py:199-218 reads is a finite difference of the
    solution of the Poisson equation on the mesh. *)
From Coq Require Import List Arith ZArith QArith Lia Bool Permutation Ring Qcanon.
From Verif Require Import EngineModel Base ListFacts LayoutModel LayoutSpec LayoutProofs LayoutModes LayoutMore WrapModel WrapProofs DomainModel DomainFill DomainGeom DomainTargets
  DomainHome DomainProperties QSum WindowModel WindowStencil WindowSpread WindowKernels WindowAxis WindowNative WindowApi WindowPoints
  WindowGrad WindowTranslate
  MeshModel MeshAssign MeshRoute MeshPaint MeshTile MeshDistributed MeshGrad MeshProperties MeshProperties2 MeshProperties3
  RingModel FieldModel FieldFacts FieldProperties FieldNorm FourierModel FourierFacts FourierProperties EnginePaint NbodyModel NbodyProperties MeshTile.
Import ListNotations.
Local Close Scope Q_scope.
Local Open Scope Z_scope.

(** the cell [j] steps away along the axis [d], with periodic boundaries *)
Fixpoint step_to (N x : list Z) (d : nat) (j : Z) : list Z :=
  match N, x, d with
  | n :: N, a :: x, O => (a + j) mod n :: x
  | n :: N, a :: x, S d => a :: step_to N x d j
  | _, _, _ => x
  end.

Section Difference.
Variable K : cring.
Add Ring Kr11 : (rth K).
Local Notation C := (cpx K).
Local Notation csum := (rsum (K := cpx_cring K)).

Lemma rsum_minus {A} (f g : A -> K) l : rsum (fun a => rsub (f a) (g a)) l = rsub (rsum f l) (rsum g l).
Proof.
  transitivity (rsum (fun a => radd (f a) (ropp (g a))) l); [apply rsum_ext; intros a; ring|]. rewrite rsum_plus, rsum_opp. ring.
Qed.
Section Axis.
Variables (n : Z) (w : C) (i : K).
Hypothesis A : axis_root K n w i.
Lemma pow_mod m : 0 <= m -> cpow K w (Z.to_nat (m mod n)) = cpow K w (Z.to_nat m).
Proof.
  intros Hm. pose proof (ro_pos _ _ _ _ A) as Hn. rewrite (Z.div_mod m n) at 2 by lia. pose proof (Z.mod_pos_bound m n Hn). pose proof (Z.div_pos m n Hm Hn).
  rewrite Z2Nat.inj_add by nia. rewrite Z2Nat.inj_mul by lia. rewrite cpow_add, (order_pow K n w i A). now rewrite cmul_1_l.
Qed.
Lemma pow_step k a j : 0 <= k -> 0 <= a < n ->
  cpow K w (Z.to_nat (k * ((a + j) mod n))) = cmul (cpow K w (Z.to_nat (k * a))) (cpow K w (Z.to_nat (k * (j mod n)))).
Proof.
  intros Hk Ha. pose proof (ro_pos _ _ _ _ A) as Hn.
  pose proof (Z.mod_pos_bound (a + j) n Hn). pose proof (Z.mod_pos_bound j n Hn).
  rewrite <- cpow_add, <- Z2Nat.inj_add by nia. rewrite <- (pow_mod (k * ((a + j) mod n))), <- (pow_mod (k * a + k * (j mod n))) by nia.
  f_equal. f_equal. rewrite Z.mul_mod_idemp_r by lia. rewrite <- Z.mul_add_distr_l. rewrite <- (Z.mul_mod_idemp_r k (a + j mod n)) by lia.
  rewrite Z.add_mod_idemp_r by lia. now rewrite Z.mul_mod_idemp_r by lia.
Qed.
Lemma pow_back k j : 0 <= k -> 0 <= j -> cpow K w (Z.to_nat (k * ((- j) mod n))) = cconj (cpow K w (Z.to_nat (k * j))).
Proof.
  intros Hk Hj. pose proof (ro_pos _ _ _ _ A) as Hn. pose proof (Z.mod_pos_bound (- j) n Hn).
  assert (E : cmul (cpow K w (Z.to_nat (k * ((- j) mod n)))) (cpow K w (Z.to_nat (k * j))) = c1).
  { rewrite <- cpow_add, <- Z2Nat.inj_add by nia. rewrite <- pow_mod by nia. replace ((k * ((- j) mod n) + k * j) mod n) with 0; [reflexivity|].
    rewrite <- Z.mul_add_distr_l. rewrite <- Z.mul_mod_idemp_r by lia. rewrite Z.add_mod_idemp_l by lia. rewrite Z.add_opp_diag_l, Z.mod_0_l, Z.mul_0_r, Z.mod_0_l by lia. reflexivity. }
  rewrite <- (cmul_1_r K (cpow K w (Z.to_nat (k * ((- j) mod n))))). rewrite <- (unit_pow K n w i A (Z.to_nat (k * j))).
  rewrite cmul_assoc, E, cmul_1_l. reflexivity.
Qed.
End Axis.

Lemma chi_step N ws is : mesh_roots K N ws is -> forall k x d j, valid_index N k -> valid_index N x -> (d < length N)%nat ->
  chi K ws k (step_to N x d j) = cmul (chi K ws k x) (cpow K (nth d ws c1) (Z.to_nat (nth d k 0 * (j mod nth d N 1)))).
Proof.
  intros M. induction M as [|n N w ws i is A M IH]; intros k x d j Hk Hx Hd; [cbn in Hd; lia|].
  inversion Hk as [|? k0 ? k' Hk0 Hk']; subst. inversion Hx as [|? a ? x' Ha Hx']; subst. destruct d as [|d]; cbn [step_to chi nth] in *.
  - rewrite (pow_step n w i A) by lia. rewrite <- !cmul_assoc. f_equal. apply cmul_comm.
  - rewrite (IH k' x' d j Hk' Hx') by (cbn in Hd; lia). now rewrite cmul_assoc.
Qed.
Lemma chi_back N ws is : mesh_roots K N ws is -> forall k d j, valid_index N k -> (d < length N)%nat -> 0 <= j ->
  cpow K (nth d ws c1) (Z.to_nat (nth d k 0 * ((- j) mod nth d N 1))) = cconj (cpow K (nth d ws c1) (Z.to_nat (nth d k 0 * j))).
Proof.
  intros M. induction M as [|n N w ws i is A M IH]; intros k d j Hk Hd Hj; [cbn in Hd; lia|].
  inversion Hk as [|? k0 ? k' Hk0 Hk']; subst. destruct d as [|d]; cbn [nth] in *; [apply (pow_back n w i A); lia|]. apply IH; [exact Hk'|cbn in Hd; lia|exact Hj].
Qed.
Lemma chi_forth N ws is : mesh_roots K N ws is -> forall k d j, valid_index N k -> (d < length N)%nat -> 0 <= j ->
  cpow K (nth d ws c1) (Z.to_nat (nth d k 0 * (j mod nth d N 1))) = cpow K (nth d ws c1) (Z.to_nat (nth d k 0 * j)).
Proof.
  intros M. induction M as [|n N w ws i is A M IH]; intros k d j Hk Hd Hj; [cbn in Hd; lia|].
  inversion Hk as [|? k0 ? k' Hk0 Hk']; subst. destruct d as [|d]; cbn [nth] in *; [|apply IH; [exact Hk'|cbn in Hd; lia|exact Hj]].
  pose proof (ro_pos _ _ _ _ A) as Hn. pose proof (Z.mod_pos_bound j n Hn).
  rewrite <- (pow_mod n w i A (k0 * (j mod n))) by nia. rewrite <- (pow_mod n w i A (k0 * j)) by nia. now rewrite Z.mul_mod_idemp_r by lia.
Qed.
Lemma root_pos N ws is d : mesh_roots K N ws is -> (d < length N)%nat -> 0 < nth d N 1.
Proof. intros M Hd. pose proof (mesh_roots_pos K N ws is M) as F. rewrite Forall_forall in F. apply F, nth_In, Hd. Qed.

(** the four point difference of a function of the mesh *)
Definition four_point (N : list Z) (phi : list Z -> K) (d : nat) (x : list Z) : K :=
  rsub (rmul (zin K 8) (rsub (phi (step_to N x d 1)) (phi (step_to N x d (-1)))))
       (rsub (phi (step_to N x d 2)) (phi (step_to N x d (-2)))).

(** what is needed of the sine and the inverses: on the mesh the sine is the imaginary part
    of the powers of the roots of unity *)
Record trigonometry (inj : Q -> K) (sine inv : K -> K) (is0 : K -> bool) (twopi : K) (Nmesh : list Z) (box : list Q) (ws : list C) : Prop := {
  tr_sine : forall d j, (d < length Nmesh)%nat -> 0 <= j < nth d Nmesh 1 ->
    let w := rmul (rmul (zin K (signed_index (nth d Nmesh 0) j)) (rmul twopi (inv (inj (nth d box 0%Q)))))
                  (rmul (inj (nth d box 0%Q)) (inv (zin K (nth d Nmesh 0)))) in
    sine w = im (cpow K (nth d ws c1) (Z.to_nat j)) /\ sine (rmul (zin K 2) w) = im (cpow K (nth d ws c1) (Z.to_nat (j * 2)));
  tr_six : rmul (inv (zin K 6)) (zin K 6) = r1;
  tr_cell : forall d, (d < length Nmesh)%nat -> let h := rmul (inj (nth d box 0%Q)) (inv (zin K (nth d Nmesh 0))) in rmul (inv h) h = r1;
  tr_inv : forall a, is0 a = false -> rmul (inv a) a = r1
}.

Section Transfers.
Variables (inj : Q -> K) (sine inv : K -> K) (is0 : K -> bool) (twopi : K).
Variables (base : list Z) (n : Z).
Local Notation N := (N base n).
Local Notation half := (half base n).
Variables (box : list Q) (ws : list C) (is : list K).
Hypothesis M : mesh_roots K N ws is.
Hypothesis Lb : length box = length N.
Hypothesis T : trigonometry inj sine inv is0 twopi N box ws.
Local Notation kvec k := (wave K (units K inj inv twopi box) N k).

Lemma wave_at k d : length k = length N -> (d < length N)%nat ->
  nth d (kvec k) r0 = rmul (zin K (signed_index (nth d N 0) (nth d k 0))) (rmul twopi (inv (inj (nth d box 0%Q)))).
Proof.
  intros Hk Hd. unfold wave. set (g := fun p : K * (Z * Z) => _).
  rewrite (nth_map_in g (combine (units K inj inv twopi box) (combine N k)) d r0 (r0, (0, 0))).
  - unfold g. rewrite combine_nth by (unfold units; rewrite map_length, combine_length; lia). rewrite combine_nth by lia. cbn [fst snd].
    unfold units. rewrite (nth_map_in (fun L => rmul twopi (inv (inj L))) box d r0 0%Q) by lia. reflexivity.
  - rewrite !combine_length. unfold units. rewrite map_length. lia.
Qed.

Definition weight_of (k : list Z) : K := if (last k 0 =? 0) || (2 * last k 0 =? last N 0) then r1 else radd r1 r1.
Lemma c2r_weight_of k y : c2r_weight K N k y = cmul (cof (weight_of k)) y.
Proof. unfold c2r_weight, weight_of. destruct y as [a b]. destruct ((_ =? _) || _); unfold cmul, cadd, cof; cbn; f_equal; ring. Qed.
Lemma c2r_sum (Ls : list (lfield C)) c x : tiles half Ls -> holds Ls c ->
  dft_c2r K N ws Ls x = rsum (fun k => rmul (weight_of k) (re (cmul (c k) (chi K ws k x)))) (cells_of half).
Proof.
  intros Ht Hc. unfold dft_c2r. rewrite (world_sum K half Ls c (fun k v => c2r_weight K N k (cmul v (chi K ws k x))) Ht Hc).
  rewrite re_rsum. apply rsum_ext. intros k. rewrite c2r_weight_of. destruct (cmul (c k) (chi K ws k x)) as [a b]. unfold re, cmul, cof. cbn. ring.
Qed.

(** one mode *)
Lemma mode_difference d k (v : C) x : (d < length N)%nat -> valid_index N k -> valid_index N x ->
  rmul (re (cmul (cmul (force_transfer K inj sine inv is0 N box d (kvec k)) v) (chi K ws k x)))
       (rmul (zin K 12) (rmul (inj (nth d box 0%Q)) (inv (zin K (nth d N 0))))) =
  ropp (rsub (rmul (zin K 8) (rsub (re (cmul (cmul (pot_transfer K inv is0 (kvec k)) v) (chi K ws k (step_to N x d 1))))
                                   (re (cmul (cmul (pot_transfer K inv is0 (kvec k)) v) (chi K ws k (step_to N x d (-1)))))))
             (rsub (re (cmul (cmul (pot_transfer K inv is0 (kvec k)) v) (chi K ws k (step_to N x d 2))))
                   (re (cmul (cmul (pot_transfer K inv is0 (kvec k)) v) (chi K ws k (step_to N x d (-2))))))).
Proof.
  intros Hd Hk Hx. pose proof (root_pos N ws is d M Hd) as Hn.
  assert (Hlk : length k = length N) by (clear -Hk; induction Hk; cbn; lia).
  assert (Hkd : 0 <= nth d k 0 < nth d N 1).
  { clear -Hk Hd. revert d Hd. induction Hk as [|a b N' k' Hab Hk IH]; intros d Hd; [cbn in Hd; lia|]. destruct d; cbn [nth]; [exact Hab|apply IH; cbn in Hd; lia]. }
  assert (Hkd0 : nth d N 0 = nth d N 1) by (apply nth_indep; exact Hd).
  destruct (tr_sine _ _ _ _ _ _ _ _ T d (nth d k 0) Hd Hkd) as (S1 & S2).
  pose proof (tr_six _ _ _ _ _ _ _ _ T) as H6. pose proof (tr_cell _ _ _ _ _ _ _ _ T d Hd) as Hh.
  rewrite <- (wave_at k d Hlk Hd) in S1, S2. cbv zeta in S1, S2, Hh.
  unfold force_transfer. cbv zeta. rewrite S1, S2.
  rewrite !(chi_step N ws is M k x d) by (assumption || lia).
  pose proof (chi_back N ws is M k d 1 Hk Hd ltac:(lia)) as B1. pose proof (chi_back N ws is M k d 2 Hk Hd ltac:(lia)) as B2. cbn [Z.opp] in B1, B2.
  rewrite B1, B2. rewrite !(chi_forth N ws is M k d) by (assumption || lia). rewrite !Z.mul_1_r.
  set (h := rmul (inj (nth d box 0%Q)) (inv (zin K (nth d N 0)))) in *.
  set (z1 := cpow K (nth d ws c1) (Z.to_nat (nth d k 0))). set (z2 := cpow K (nth d ws c1) (Z.to_nat (nth d k 0 * 2))).
  unfold pot_transfer. set (q := inv (squared K is0 (kvec k))). destruct z1 as [a1 b1], z2 as [a2 b2], v as [va vb], (chi K ws k x) as [ca cb].
  unfold cmul, cconj, re, im. cbn [fst snd].
  assert (E12 : zin K 12 = radd (zin K 6) (zin K 6)) by (unfold zin; cbn; ring). rewrite E12. set (six := zin K 6) in *. set (e8 := zin K 8).
  transitivity (rmul (rmul (rmul (inv h) h) (rmul (inv six) six))
    (rmul (radd r1 r1) (rmul (rmul (rsub (rmul e8 b1) b2) q) (ropp (radd (rmul vb ca) (rmul va cb)))))); [ring|]. rewrite Hh, H6. ring.
Qed.

(** the field which c2r makes of the modes [Mid], times the function [t] of their wave numbers *)
Definition filtered (t : list K -> C) (Mid : list (lfield C)) (Out : list (lfield K)) : list (lfield K) :=
  c2r K N ws (map (on_modes K (fun i v => cmul (t (kvec i)) v)) Mid) Out.
Lemma filtered_sum t (Mid : list (lfield C)) c x : tiles half Mid -> holds Mid c ->
  dft_c2r K N ws (map (on_modes K (fun i v => cmul (t (kvec i)) v)) Mid) x =
  rsum (fun k => rmul (weight_of k) (re (cmul (cmul (t (kvec k)) (c k)) (chi K ws k x)))) (cells_of half).
Proof.
  intros Ht Hc. apply (c2r_sum _ (fun k => cmul (t (kvec k)) (c k))).
  - apply (transfer_tiles K half (fun i => t (kvec i))). exact Ht.
  - apply (transfer_holds K (fun i => t (kvec i))). exact Hc.
Qed.
Definition back (t : list K -> C) (Mid : list (lfield C)) : list Z -> K := dft_c2r K N ws (map (on_modes K (fun i v => cmul (t (kvec i)) v)) Mid).
Lemma filtered_back t Mid Out : holds (filtered t Mid Out) (back t Mid).
Proof. apply on_block_holds. Qed.
Lemma difference d (Mid : list (lfield C)) c : tiles half Mid -> holds Mid c -> (d < length N)%nat ->
  forall x, valid_index N x -> rmul (back (force_transfer K inj sine inv is0 N box d) Mid x) (rmul (zin K 12) (rmul (inj (nth d box 0%Q)) (inv (zin K (nth d N 0))))) =
    ropp (four_point N (back (pot_transfer K inv is0) Mid) d x).
Proof.
  intros Ht Hc Hd x Hx. unfold four_point, back.
  rewrite !(filtered_sum _ Mid c) by assumption. rewrite <- rsum_scale_r.
  transitivity (rsum (fun k => ropp (rsub
     (rmul (zin K 8) (rsub (rmul (weight_of k) (re (cmul (cmul (pot_transfer K inv is0 (kvec k)) (c k)) (chi K ws k (step_to N x d 1)))))
                           (rmul (weight_of k) (re (cmul (cmul (pot_transfer K inv is0 (kvec k)) (c k)) (chi K ws k (step_to N x d (-1))))))))
     (rsub (rmul (weight_of k) (re (cmul (cmul (pot_transfer K inv is0 (kvec k)) (c k)) (chi K ws k (step_to N x d 2)))))
           (rmul (weight_of k) (re (cmul (cmul (pot_transfer K inv is0 (kvec k)) (c k)) (chi K ws k (step_to N x d (-2))))))))) (cells_of half)).
  - apply rsum_ext_in. intros k Hk. pose proof (mode_difference d k (c k) x Hd (half_full K base n ws is M k Hk) Hx) as D.
    match type of D with rmul ?a ?b = _ => transitivity (rmul (weight_of k) (rmul a b)); [ring|rewrite D; ring] end.
  - rewrite rsum_opp. f_equal. rewrite !rsum_minus. rewrite rsum_scale. rewrite !rsum_minus. reflexivity.
Qed.

(** ** Poisson's equation *)
Definition square (k : list Z) : K := rsum (fun q => rmul q q) (kvec k).
Hypothesis two : forall a : K, radd a a = r0 -> a = r0.
Lemma square_wave2 k : Forall (fun m => Z.even m = true) N -> square k = wave2 K (units K inj inv twopi box) N k.
Proof.
  intros even. assert (F : Forall (fun m => 0 < m /\ Z.even m = true) N).
  { pose proof (mesh_roots_pos K N ws is M) as F. rewrite Forall_forall in *. intros m Hm. split; auto. }
  rewrite <- normp2_wave by exact F. unfold square, wave, normp2. rewrite rsum_map. reflexivity.
Qed.
Lemma square_opposite k : Forall (fun m => Z.even m = true) N -> valid_index N k -> square (opposite N k) = square k.
Proof.
  intros even Hk.
  assert (F : Forall (fun m => 0 < m /\ Z.even m = true) N).
  { pose proof (mesh_roots_pos K N ws is M) as F. rewrite Forall_forall in *. intros m Hm. split; auto. }
  rewrite !square_wave2 by exact even. apply wave2_opposite; assumption.
Qed.
Hypothesis sym : forall k, In k (cells_of half) -> In (opposite N k) (cells_of half) -> square (opposite N k) = square k.
Lemma poisson (Ls : list (lfield K)) (Mid : list (lfield C)) f : tiles N Ls -> holds Ls f -> tiles half Mid ->
    forall k, In k (cells_of half) -> is0 (square k) = false -> let phi := back (pot_transfer K inv is0) (r2c K ws is Ls Mid) in
      cmul (cof (square k)) (spectrum K base n ws is phi k) = copp (spectrum K base n ws is f k).
Proof.
  intros TL HL TM. set (c := fun k => cmul (pot_transfer K inv is0 (kvec k)) (spectrum K base n ws is f k)).
  assert (TR : tiles half (r2c K ws is Ls Mid)).
  { apply (tiles_same half Mid); [| |exact TM]; unfold r2c; rewrite map_map; reflexivity. }
  set (A := map (on_modes K (fun i v => cmul (pot_transfer K inv is0 (kvec i)) v)) (r2c K ws is Ls Mid)).
  assert (TA : tiles half A) by (apply (transfer_tiles K half (fun i => pot_transfer K inv is0 (kvec i))); exact TR).
  assert (HA : holds A c).
  { apply (transfer_holds K (fun i => pot_transfer K inv is0 (kvec i))). apply (r2c_holds K base n ws is); assumption. }
  assert (HH : hermitian K N half c).
  { intros k Hk Hk'. unfold c. assert (Vk : valid_index N k) by (apply (half_full K base n ws is M); exact Hk).
    rewrite (spectrum_opposite K base n ws is M) by exact Vk. unfold pot_transfer, squared. fold (square (opposite N k)). fold (square k). rewrite (sym k Hk Hk').
    destruct (spectrum K base n ws is f k) as [a b]. unfold cmul, cconj. cbn. f_equal; ring. }
  intros k Hk H0 phi.
  assert (HP : holds (c2r K N ws A Ls) phi) by apply on_block_holds.
  assert (TP : tiles N (c2r K N ws A Ls)) by (apply on_block_tiles; exact TL).
  pose proof (C44_r2c_c2r K base n ws is M two A Mid Ls c TA HA HH TL TM) as H1.
  pose proof (r2c_holds K base n ws is (c2r K N ws A Ls) Mid phi TP HP) as H2.
  assert (TM' : tiles half (r2c K ws is (c2r K N ws A Ls) Mid)).
  { apply (tiles_same half Mid); [| |exact TM]; unfold r2c; rewrite map_map; reflexivity. }
  rewrite (holds_unique half _ _ _ TM' H2 H1 k Hk). unfold c, pot_transfer, squared. fold (square k). rewrite H0.
  pose proof (tr_inv _ _ _ _ _ _ _ _ T (square k) H0) as I. destruct (spectrum K base n ws is f k) as [a b]. unfold cmul, cof, copp. cbn.
  f_equal.
  - transitivity (ropp (rmul (rmul (inv (square k)) (square k)) a)); [ring|rewrite I; ring].
  - transitivity (ropp (rmul (rmul (inv (square k)) (square k)) b)); [ring|rewrite I; ring].
Qed.
End Transfers.
Lemma poisson_even inj sine inv is0 twopi base n box ws is : mesh_roots K (N base n) ws is -> trigonometry inj sine inv is0 twopi (N base n) box ws ->
  (forall a : K, radd a a = r0 -> a = r0) -> Forall (fun m => Z.even m = true) (N base n) ->
  forall (Ls : list (lfield K)) (Mid : list (lfield C)) f, tiles (N base n) Ls -> holds Ls f -> tiles (half base n) Mid ->
  forall k, In k (cells_of (half base n)) -> is0 (wave2 K (units K inj inv twopi box) (N base n) k) = false ->
    cmul (cof (wave2 K (units K inj inv twopi box) (N base n) k))
      (spectrum K base n ws is (back inj inv twopi base n box ws (pot_transfer K inv is0) (r2c K ws is Ls Mid)) k) = copp (spectrum K base n ws is f k).
Proof.
  intros M T two even Ls Mid f TL HL TM k Hk. rewrite <- (square_wave2 inj inv twopi base n box ws is M k even). intros H0.
  apply (poisson inj sine inv is0 twopi base n box ws is M T two); try assumption.
  intros j Hj _. apply (square_opposite inj inv twopi base n box ws is M); [exact even|]. apply (half_full K base n ws is M). exact Hj.
Qed.

(** ** displacements *)
Section Displacement.
Variables (inv : K -> K) (is0 : K -> bool) (k : list K) (v : C).
Local Notation k2 := (rsum (fun q => rmul q q) k).
Lemma nth_sum (l : list K) : rsum (fun d => rmul (nth d l r0) (nth d l r0)) (seq 0 (length l)) = rsum (fun q => rmul q q) l.
Proof.
  transitivity (rsum (fun q => rmul q q) (map (fun i => nth i l r0) (seq 0 (length l)))); [now rewrite rsum_map|]. now rewrite (map_nth_seq l r0 (length l) eq_refl).
Qed.
Lemma divergence : rmul (inv k2) k2 = r1 -> is0 k2 = false ->
  csum (fun d => cmul (r0, nth d k r0) (cmul (dx1_transfer K inv is0 d k) v)) (seq 0 (length k)) = copp v.
Proof.
  intros I H. unfold dx1_transfer, squared. rewrite H. set (q := inv k2) in *.
  transitivity (csum (fun d => cmul (cof (rmul (nth d k r0) (nth d k r0))) (cmul (ropp q, r0) v)) (seq 0 (length k))).
  - apply rsum_ext. intros d. destruct v as [a b]. unfold cmul, cof. cbn. f_equal; ring.
  - rewrite (csum_scale_r K (cmul (ropp q, r0) v)).
    assert (X : forall l, csum (fun d => cof (rmul (nth d k r0) (nth d k r0))) l = cof (rsum (fun d => rmul (nth d k r0) (nth d k r0)) l)).
    { induction l as [|d l IH]; [reflexivity|]. rewrite !rsum_cons, IH. unfold cof. cbn. unfold cadd. cbn. f_equal. ring. }
    rewrite X, nth_sum. destruct v as [a b]. unfold cmul, cof, copp. cbn. f_equal.
    + transitivity (ropp (rmul (rmul q k2) a)); [ring|rewrite I; ring].
    + transitivity (ropp (rmul (rmul q k2) b)); [ring|rewrite I; ring].
Qed.
Lemma curl a b : cmul (r0, nth a k r0) (cmul (dx1_transfer K inv is0 b k) v) = cmul (r0, nth b k r0) (cmul (dx1_transfer K inv is0 a k) v).
Proof. unfold dx1_transfer. destruct v as [p q]. unfold cmul. cbn. f_equal; ring. Qed.
End Displacement.

Section Force.
Variable inj : Q -> K.
Hypothesis E : embedding K inj.
Variables (inv : K -> K) (twopi : K).
Variables (base : list Z) (n : Z).
Local Notation N := (N base n).
Local Notation half := (half base n).
Variables (ws : list C) (is : list K).
Hypothesis M : mesh_roots K N ws is.
Variables (BoxSize : value Q) (box : list Q) (w0 : window) (pt : partition) (blocks : list (list Z)) (pms : list pm).
Hypothesis W : world N BoxSize box w0 pt blocks pms.
Hypothesis Hk : (0 < native_of (w_kind w0))%Z.
Hypothesis Hsup : (0 <= w_support w0)%Z.
Variable outs : list field.
Hypothesis Lo : length outs = length blocks.
Hypothesis Hst : forall r, (r < length blocks)%nat -> MeshRoute.stored (f_array (nth r outs zero_field)) (block_shape (i_edges pt) (block blocks r)).
Variable Mid : list (lfield C).
Hypothesis TM : tiles half Mid.
Local Notation arrays := (map f_array outs).
Local Notation P := (length blocks).
(** the field which is painted, times the factor: the blocks of rho1 in force() *)
Definition density (X : list (list (list Q))) (ms : list memory) : list (lfield K) :=
  real_blocks K inj pms arrays (map (fun p => scale_by (fst p) (snd p) (factor pms X)) (combine arrays ms)).

Lemma mesh_fields : forall (tf : nat -> list K -> C) om X, particles_ok (length N) P X ->
  exists ls ms delta F,
    pm_decompose pms (SmoothNumber (Scalar (1 * inject_Z (w_support w0))%Q)) None X = map Ret ls /\
    pm_paint pms None None false None (Some ls) outs X WNone (unit_mass pms) = map Ret ms /\
    tiles N (density X ms) /\ holds (density X ms) delta /\
    forces K inj inv twopi ws is tf None om pms N box outs Mid X = Some F /\
    forall d, (d < length N)%nat -> exists R,
      readout_in K inj pms None ls arrays (filtered inj inv twopi base n box ws (tf d) (r2c K ws is (density X ms) Mid) (density X ms)) X = Some R /\
      nth d F [] = map (map (rmul om)) R.
Proof.
  intros tf om X Hp. pose proof (wd_mesh _ _ _ _ _ _ _ W) as OK. pose proof (world_blocks _ _ _ _ _ _ _ W) as H0.
  assert (Sup : match pms with p :: _ => w_support (pm_resampler p) | [] => 0%Z end = w_support w0).
  { rewrite (world_pms _ _ _ _ _ _ _ W). destruct P as [|m]; [lia|]. reflexivity. }
  assert (La : length arrays = P) by (rewrite map_length; exact Lo).
  destruct (C33_applies _ _ _ _ _ _ _ W X (mesh_scale N box) None (SmoothNumber (Scalar (1 * inject_Z (w_support w0))%Q))
     (repeat (1 * inject_Z (w_support w0))%Q (length N)) None arrays Hp) as (ls & Ed & CK & _).
  - apply (mesh_scale_length _ _ _ _ _ _ _ W).
  - exact (default_affines _ _ _ _ _ _ _ W).
  - reflexivity.
  - apply repeat_length.
  - apply Forall_forall. intros q Hin. apply repeat_spec in Hin. subst q. rewrite Qmult_1_l. unfold Qle. cbn. lia.
  - rewrite (default_resampler _ _ _ _ _ _ _ W). exact Hk.
  - exact La.
  - intros r Hr. rewrite (array_nth outs r). apply Hst. exact Hr.
  - destruct Hp as [Lp Dp].
    unfold forces. rewrite Sup, Ed, all_ret_Ret.
    destruct (unit_paint _ _ _ _ CK false outs eq_refl) as (m1 & m2 & P1 & L1 & P2 & E12).
    rewrite P1, all_ret_Ret. exists ls, m1.
    set (rho := density X m1). unfold density in rho. set (sm := map (fun p => scale_by (fst p) (snd p) (factor pms X)) (combine arrays m1)) in rho.
    assert (Lsm : length sm = length X) by (unfold sm; rewrite map_length, combine_length; lia).
    assert (Er : rho = map (fun r => mkL (nth r (map pm_start pms) []) (nth r (map pm_shape pms) [])
       (map (fun idx => inj (elem (nth r arrays (f_array zero_field)) (nth r sm (fun _ => 0%Q)) idx)) (elements (nth r arrays (f_array zero_field))))) (seq 0 P)).
    { unfold rho. rewrite (real_blocks_seq K inj _ _ _ _ _ CK sm Lsm). rewrite Lp. reflexivity. }
    assert (Trho : tiles N rho).
    { eapply tiles_same; [| |exact (block_tiles K base n BoxSize box w0 pt blocks pms W outs Lo)]; rewrite Er, !map_map; reflexivity. }
    assert (El : forall r, (r < P)%nat -> elements (nth r arrays (f_array zero_field)) = cells_of (nth r (map pm_shape pms) [])).
    { intros r Hr. unfold elements, cells_of. rewrite (array_nth outs r). rewrite (proj1 (Hst r Hr)). rewrite (proj2 (pm_nth base n BoxSize box w0 pt blocks pms W r Hr)). reflexivity. }
    destruct (values_hold N rho r0 Trho) as [f Hf].
    { rewrite Er. apply Forall_forall. intros L HL. apply in_map_iff in HL. destruct HL as (r & <- & Hr). apply in_seq in Hr.
      unfold lcells. cbn [lvals lstart lshape]. rewrite !map_length. rewrite El by lia. reflexivity. }
    assert (One : forall d, exists R,
      readout_in K inj pms None ls arrays (filtered inj inv twopi base n box ws (tf d) (r2c K ws is rho Mid) rho) X = Some R).
    { intros d. set (G := filtered _ _ _ _ _ _ _ _ _ rho).
      destruct (adjoint K inj E pms None ls arrays X CK outs (unit_array X) G eq_refl (unit_lengths X)) as (ms & R & _ & _ & ER & _). now exists R. }
    assert (All : forall l, exists F, sequence (map (fun d => option_map (map (map (fun f => rmul om f)))
        (readout_in K inj pms None ls arrays (c2r K N ws (map (on_modes K (fun i v => cmul (tf d (wave K (units K inj inv twopi box) N i)) v)) (r2c K ws is rho Mid)) rho) X)) l) = Some F /\
        forall j, (j < length l)%nat -> exists R,
          readout_in K inj pms None ls arrays (filtered inj inv twopi base n box ws (tf (nth j l 0%nat)) (r2c K ws is rho Mid) rho) X = Some R /\ nth j F [] = map (map (rmul om)) R).
    { induction l as [|d l (F & IH1 & IH2)]; [exists []; split; [reflexivity|intros j Hj; cbn in Hj; lia]|].
      destruct (One d) as (R & R1). exists (map (map (fun f => rmul om f)) R :: F). pose proof R1 as R1'. unfold filtered in R1'. cbn [map sequence]. rewrite R1'. cbn [option_map]. rewrite IH1.
      split; [reflexivity|]. intros [|j] Hj; cbn [nth]; [exists R; split; [exact R1|reflexivity]|]. apply IH2. cbn in Hj. lia. }
    destruct (All (seq 0 (length N))) as (F & F1 & F2). exists f, F. split; [reflexivity|]. split; [exact P1|]. split; [exact Trho|]. split; [exact Hf|]. split; [exact F1|].
    intros d Hd. destruct (F2 d) as (R & R1 & R2); [rewrite seq_length; exact Hd|]. rewrite seq_nth in R1 by exact Hd. exists R. split; [exact R1|exact R2].
Qed.
End Force.
End Difference.

(** * C93 *)
(** On any mesh and any complex field: what c2r makes of the modes times force_transfer(d) is
    minus the four point difference of what it makes of the modes times pot_transfer *)
Theorem C93_difference : forall (K : cring) inj sine inv is0 twopi base n box ws is, mesh_roots K (N base n) ws is -> length box = length (N base n) ->
  trigonometry K inj sine inv is0 twopi (N base n) box ws ->
  forall d (Mid : list (lfield (cpx K))) (Out : list (lfield K)) c, tiles (half base n) Mid -> holds Mid c -> (d < length (N base n))%nat ->
  let modes t := map (on_modes K (fun i v => cmul (t (wave K (units K inj inv twopi box) (N base n) i)) v)) Mid in
  exists G phi,
    holds (c2r K (N base n) ws (modes (force_transfer K inj sine inv is0 (N base n) box d)) Out) G /\
    holds (c2r K (N base n) ws (modes (pot_transfer K inv is0)) Out) phi /\
    forall x, valid_index (N base n) x ->
      rmul (G x) (rmul (zin K 12) (rmul (inj (nth d box 0%Q)) (inv (zin K (nth d (N base n) 0))))) = ropp (four_point K (N base n) phi d x).
Proof.
  intros K inj sine inv is0 twopi base n box ws is M Lb T d Mid Out c Ht Hc Hd modes. eexists. eexists.
  split; [apply (filtered_back K inj inv twopi base n box ws (force_transfer K inj sine inv is0 (N base n) box d))|].
  split; [apply (filtered_back K inj inv twopi base n box ws (pot_transfer K inv is0))|].
  exact (difference K inj sine inv is0 twopi base n box ws is M Lb T d Mid c Ht Hc Hd).
Qed.
Print Assumptions C93_difference.

(** On a mesh of even sizes: k^2 times the modes of the potential are minus the modes of the
    density, but for the zero mode *)
Theorem C93_poisson : forall (K : cring) inj sine inv is0 twopi base n box ws is, mesh_roots K (N base n) ws is -> length box = length (N base n) ->
  trigonometry K inj sine inv is0 twopi (N base n) box ws -> (forall a : K, radd a a = r0 -> a = r0) -> Forall (fun m => Z.even m = true) (N base n) ->
  forall (Ls : list (lfield K)) (Mid : list (lfield (cpx K))) f, tiles (N base n) Ls -> holds Ls f -> tiles (half base n) Mid ->
  let k2 k := wave2 K (map (fun L => rmul twopi (inv (inj L))) box) (N base n) k in
  exists phi, holds (c2r K (N base n) ws (map (on_modes K (fun i v => cmul (pot_transfer K inv is0 (wave K (units K inj inv twopi box) (N base n) i)) v)) (r2c K ws is Ls Mid)) Ls) phi /\
    forall k, In k (cells_of (half base n)) -> is0 (k2 k) = false ->
      cmul (cof (k2 k)) (spectrum K base n ws is phi k) = copp (spectrum K base n ws is f k).
Proof.
  intros K inj sine inv is0 twopi base n box ws is M Lb T two even Ls Mid f TL HL TM k2. eexists.
  split; [apply (filtered_back K inj inv twopi base n box ws (pot_transfer K inv is0))|].
  exact (poisson_even K inj sine inv is0 twopi base n box ws is M T two even Ls Mid f TL HL TM).
Qed.
Print Assumptions C93_poisson.

(** the displacements of dx1_transfer: their divergence is minus the density, and they have no curl *)
Theorem C93_displacement : forall (K : cring) inv is0 (k : list K) (v : cpx K), (forall a, is0 a = false -> rmul (inv a) a = r1) ->
  is0 (rsum (fun q => rmul q q) k) = false ->
  rsum (K := cpx_cring K) (fun d => cmul (r0, nth d k r0) (cmul (dx1_transfer K inv is0 d k) v)) (seq 0 (length k)) = copp v /\
  forall a b, cmul (r0, nth a k r0) (cmul (dx1_transfer K inv is0 b k) v) = cmul (r0, nth b k r0) (cmul (dx1_transfer K inv is0 a k) v).
Proof.
  intros K inv is0 k v I H. split.
  - exact (divergence K inv is0 k v (I _ H) H).
  - intros a b. exact (curl K inv is0 k v a b).
Qed.
Print Assumptions C93_displacement.

(** the transfer functions divide by k^2, and the mode with k^2 = 0 by one: never by zero *)
Theorem C93_divisor : forall (K : cring) inj sine inv is0 N box (k : list K), is0 r1 = false ->
  let k2 := rsum (fun q => rmul q q) k in
  exists q, is0 q = false /\ (is0 k2 = false -> q = k2) /\ (is0 k2 = true -> q = r1) /\
    pot_transfer K inv is0 k = (ropp (inv q), r0) /\
    (forall d, dx1_transfer K inv is0 d k = (r0, rmul (nth d k r0) (inv q))) /\
    (forall d, exists f, force_transfer K inj sine inv is0 N box d k = (r0, rmul f (inv q))).
Proof.
  intros K inj sine inv is0 N box k H1 k2. exists (if is0 k2 then r1 else k2).
  split; [destruct (is0 k2) eqn:E; assumption|]. split; [intros ->; reflexivity|]. split; [intros ->; reflexivity|].
  split; [reflexivity|]. split; [reflexivity|]. intros d. eexists. reflexivity.
Qed.
Print Assumptions C93_divisor.

(** The forces of a simulation: what is painted, times the factor, is the density [delta]; its
    potential [phi] solves Poisson's equation; what is read at the particles is minus its four
    point difference *)
Theorem C93_force : forall (K : cring) (inj : Q -> K), embedding K inj ->
  forall sine inv is0 twopi base n ws is BoxSize box w0 pt blocks pms outs Mid,
  simulation K base n ws is BoxSize box w0 pt blocks pms outs Mid ->
  trigonometry K inj sine inv is0 twopi (N base n) box ws -> (forall a : K, radd a a = r0 -> a = r0) -> Forall (fun m => Z.even m = true) (N base n) ->
  forall om Qpos S, let nd := length (N base n) in particles_ok nd (length blocks) Qpos -> same_particles nd Qpos S ->
  let X := map2 (map2 (map2 Qplus)) S Qpos in
  let arrays := map f_array outs in
  let k2 k := wave2 K (map (fun L => rmul twopi (inv (inj L))) box) (N base n) k in
  exists ls ms delta phi F,
    pm_decompose pms (SmoothNumber (Scalar (1 * inject_Z (w_support w0))%Q)) None X = map Ret ls /\
    pm_paint pms None None false None (Some ls) outs X WNone (unit_mass pms) = map Ret ms /\
    let rho := real_blocks K inj pms arrays (map (fun p => scale_by (fst p) (snd p) (factor pms X)) (combine arrays ms)) in
    tiles (N base n) rho /\ holds rho delta /\
    (forall k, In k (cells_of (half base n)) -> is0 (k2 k) = false ->
       cmul (cof (k2 k)) (spectrum K base n ws is phi k) = copp (spectrum K base n ws is delta k)) /\
    force K inj sine inv is0 twopi ws is om pms (N base n) box outs Mid Qpos S = Some F /\
    forall d, (d < nd)%nat -> exists Gs G R,
      map lstart Gs = map lstart rho /\ map lshape Gs = map lshape rho /\ holds Gs G /\
      (forall x, valid_index (N base n) x ->
         rmul (G x) (rmul (zin K 12) (rmul (inj (nth d box 0%Q)) (inv (zin K (nth d (N base n) 0))))) = ropp (four_point K (N base n) phi d x)) /\
      readout_in K inj pms None ls arrays Gs X = Some R /\ nth d F [] = map (map (rmul om)) R.
Proof.
  intros K inj E sine inv is0 twopi base n ws is BoxSize box w0 pt blocks pms outs Mid H T two even om Qpos S nd Hp HS X arrays k2.
  destruct H as [M W Hk Hs Lo St TM]. pose proof (wd_mesh _ _ _ _ _ _ _ W) as OK.
  destruct (shifted_particles nd (length blocks) Qpos S Hp HS) as [HX _]. fold X in HX.
  assert (Lb : length box = length (N base n)). { exact (wd_boxdim _ _ _ _ _ _ _ W). }
  destruct (mesh_fields K inj E inv twopi base n ws is BoxSize box w0 pt blocks pms W Hk Hs outs Lo St Mid
    (force_transfer K inj sine inv is0 (N base n) box) om X HX) as (ls & ms & delta & F & H1 & H2 & H3 & H4 & H5 & H6).
  exists ls, ms, delta, (back K inj inv twopi base n box ws (pot_transfer K inv is0) (r2c K ws is (density K inj pms outs X ms) Mid)), F.
  split; [exact H1|]. split; [exact H2|]. intros rho. split; [exact H3|]. split; [exact H4|].
  split; [exact (poisson_even K inj sine inv is0 twopi base n box ws is M T two even _ Mid delta H3 H4 TM)|]. split; [exact H5|].
  intros d Hd. destruct (H6 d Hd) as (R & R1 & R2). eexists. eexists. exists R.
  split; [|split; [|split; [apply filtered_back|split; [|split; [exact R1|exact R2]]]]].
  - unfold filtered, c2r. rewrite map_map. reflexivity.
  - unfold filtered, c2r. rewrite map_map. reflexivity.
  - apply (difference K inj sine inv is0 twopi base n box ws is M Lb T d _ (spectrum K base n ws is delta)).
    + apply (tiles_same (half base n) Mid); [| |exact TM]; unfold r2c; rewrite map_map; reflexivity.
    + apply (r2c_holds K base n ws is); assumption.
    + exact Hd.
Qed.
Print Assumptions C93_force.

(** ** four cells of size two; the right angle is 1, so the sine is rational *)
Lemma nb_trigonometry : trigonometry Qcring Q2Qc nb_sine Qcinv nb_is0 (ex_q 4) [4] [8%Q] nb_roots.
Proof.
  constructor.
  - intros d j Hd Hj. destruct d as [|d]; [|cbn in Hd; lia]. cbn [nth] in Hj. assert (J : j = 0 \/ j = 1 \/ j = 2 \/ j = 3) by lia.
    destruct J as [->|[->|[->| ->]]]; split; apply Qc_is_canon; vm_compute; reflexivity.
  - apply Qc_is_canon. vm_compute. reflexivity.
  - intros d Hd. destruct d as [|d]; [|cbn in Hd; lia]. apply Qc_is_canon. vm_compute. reflexivity.
  - intros a Ha. unfold nb_is0 in Ha. destruct (Qc_eq_dec a 0%Qc) as [Z|NZ]; [discriminate|]. apply Qcmult_inv_l. exact NZ.
Qed.
Definition nb_density : list Z -> Qcring := fun x => ex_q (match x with [0] => 3 | [1] => -1 | [2] => -5 | _ => 3 end).
Definition nb_blocks_real : list (lfield Qcring) := map (on_block nb_density) [mkL [0] [2] []; mkL [2] [2] ([] : list Z)].
Definition nb_field (t : list Qcring -> cpx Qcring) : list Q :=
  map this (concat (map lvals (c2r Qcring [4] nb_roots (map (on_modes Qcring (fun i v => cmul (t (wave Qcring (units Qcring Q2Qc Qcinv (ex_q 4) [8%Q]) [4] i)) v))
    (r2c Qcring nb_roots nb_invs nb_blocks_real nb_mid)) nb_blocks_real))).
(** the potential of the density 3, -1, -5, 3; the force -16/3 in the first cell is
    - (8 (7 - -9) - (17 - 17)) / (12 * 2) *)
Example C93_case : nb_field (pot_transfer Qcring Qcinv nb_is0) = [(-15)%Q; 7%Q; 17%Q; (-9)%Q] /\
  nb_field (force_transfer Qcring Q2Qc nb_sine Qcinv nb_is0 [4] [8%Q] 0) = [(-16#3)%Q; (-32#3)%Q; (16#3)%Q; (32#3)%Q] /\
  four_point Qcring [4] (fun x => nth (Z.to_nat (hd 0 x)) [ex_q (-15); ex_q 7; ex_q 17; ex_q (-9)] 0%Qc) 0 [0] = ex_q 128.
Proof. split; [vm_compute; reflexivity|]. split; [vm_compute; reflexivity|]. apply Qc_is_canon. vm_compute. reflexivity. Qed.
(** the world of [C87_case] *)
Example C93_force_case : exists delta phi F,
  (forall k, In k [[0]; [1]; [2]] -> nb_is0 (wave2 Qcring [Q2Qc (1#2)] [4] k) = false ->
     cmul (cof (wave2 Qcring [Q2Qc (1#2)] [4] k)) (spectrum Qcring [] 4 nb_roots nb_invs phi k) = copp (spectrum Qcring [] 4 nb_roots nb_invs delta k)) /\
  force Qcring Q2Qc nb_sine Qcinv nb_is0 (ex_q 4) nb_roots nb_invs 1%Qc nb_pms [4] [8%Q] nb_outs nb_mid [[[1%Q]; [(7#2)%Q]]; [[3%Q]]] [[[0%Q]; [0%Q]]; [[0%Q]]] = Some F.
Proof.
  destruct (C93_force Qcring Q2Qc Q_embedding nb_sine Qcinv nb_is0 (ex_q 4) [] 4 nb_roots nb_invs (Scalar 8%Q) [8%Q] ex_cic nb_pt nb_blocks nb_pms nb_outs nb_mid
    nb_simulation nb_trigonometry ex_two) with (om := 1%Qc) (Qpos := [[[1%Q]; [(7#2)%Q]]; [[3%Q]]]) (S := [[[0%Q]; [0%Q]]; [[0%Q]]])
    as (ls & ms & delta & phi & F & _ & _ & _ & _ & HP & HF & _).
  - repeat constructor.
  - split; [reflexivity|]. repeat constructor.
  - split; [reflexivity|]. repeat constructor.
  - exists delta, phi, F. split; [|exact HF]. intros k Hk. assert (E : Q2Qc (1#2) = rmul (ex_q 4) (Qcinv (Q2Qc 8))) by (apply Qc_is_canon; vm_compute; reflexivity).
    rewrite E. intros H0. exact (HP k Hk H0).
Qed.
(** the sizes have to be even for Poisson's equation: NbodyPoissonReal.v, [C93_odd_refuted] *)
