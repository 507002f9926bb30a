(** One axis of the stencil: which points are visited and with what weight. *)
From Coq Require Import List Arith ZArith QArith Qabs Qround Lia Lqa Bool Setoid Morphisms Permutation.
From Verif Require Import Base ListFacts WrapModel WrapProofs DomainModel DomainFill QSum WindowModel WindowStencil WindowSpread WindowKernels.
Import ListNotations.
Local Open Scope Q_scope.

Lemma Qfloor_bounds x : inject_Z (Qfloor x) <= x < inject_Z (Qfloor x) + 1.
Proof.
  split; [apply Qfloor_le|]. assert (H := Qlt_floor x). rewrite inject_Z_plus in H. exact H.
Qed.
Lemma inject_Z_lt_iff a b : (a < b)%Z <-> inject_Z a < inject_Z b.
Proof. rewrite Zlt_Qlt. reflexivity. Qed.
Lemma inject_Z_le_iff a b : (a <= b)%Z <-> inject_Z a <= inject_Z b.
Proof. rewrite Zle_Qle. reflexivity. Qed.
Lemma Qfloor_unique x z : inject_Z z <= x < inject_Z z + 1 -> Qfloor x = z.
Proof.
  intros [H1 H2]. destruct (Qfloor_bounds x) as [H3 H4].
  assert (Qfloor x < z + 1)%Z.
  { apply inject_Z_lt_iff. rewrite inject_Z_plus. apply (Qle_lt_trans _ x); assumption. }
  assert (z < Qfloor x + 1)%Z.
  { apply inject_Z_lt_iff. rewrite inject_Z_plus. apply (Qle_lt_trans _ x); assumption. }
  lia.
Qed.
Lemma Qfloor_shift x z : Qfloor (x + inject_Z z) = (Qfloor x + z)%Z.
Proof.
  apply Qfloor_unique. rewrite inject_Z_plus. destruct (Qfloor_bounds x). split; lra.
Qed.

(** the support actually used: non-positive means the native one *)
Definition eff_support (native : Z) (s : Q) : Q := if Qle_bool s 0 then inject_Z native else s.

Lemma eff_support_pos native s : (0 < native)%Z -> 0 < eff_support native s.
Proof.
  intros H. unfold eff_support. destruct (Qle_bool_case s 0); [|assumption].
  apply (inject_Z_lt_iff 0 native) in H. exact H.
Qed.

(** _window_imp.c:24-47 in terms of the rounded-up support *)
Lemma window_info_ok native s : (0 < native)%Z ->
  let w := window_info_init native s in
  let e := eff_support native s in
  inject_Z (wi_support w) - 1 < e <= inject_Z (wi_support w) /\
  (forall g, Qfloor (g + wi_shift w) - wi_left w = Qfloor (g + e / 2) - (wi_support w - 1))%Z /\
  wi_vfactor w == inject_Z native / e.
Proof.
  intros Hn. cbv zeta. unfold window_info_init, eff_support.
  assert (E2 : forall n : Z, (n / 2 + (n - 1) / 2 = n - 1)%Z).
  { intros n. destruct (Z.Even_or_Odd n) as [[k ->]|[k ->]].
    - replace (2 * k - 1)%Z with ((k - 1) * 2 + 1)%Z by lia.
      rewrite Z.div_add_l by lia. rewrite Z.mul_comm, Z.div_mul by lia. change (1 / 2)%Z with 0%Z. lia.
    - replace (2 * k + 1)%Z with (k * 2 + 1)%Z by lia. rewrite Z.div_add_l by lia.
      replace (k * 2 + 1 - 1)%Z with (k * 2)%Z by lia. rewrite Z.div_mul by lia. change (1 / 2)%Z with 0%Z. lia. }
  assert (SH : forall (n : Z) e g, (Qfloor (g + (e / 2 - inject_Z (n / 2))) - (n - 1) / 2 = Qfloor (g + e / 2) - (n - 1))%Z).
  { intros n e g. assert (F : g + (e / 2 - inject_Z (n / 2)) == g + e / 2 + inject_Z (- (n / 2))).
    { rewrite inject_Z_opp. ring. }
    rewrite (Qfloor_comp _ _ F), Qfloor_shift. pose proof (E2 n). lia. }
  destruct (Qle_bool_case s 0) as [H|H]; cbn [wi_support wi_shift wi_left wi_vfactor].
  - split; [split; lra|]. split; [intros g; apply SH|]. rewrite Qmult_1_l. reflexivity.
  - split; [|split; [intros g; apply SH|rewrite Qmult_1_l; reflexivity]].
    unfold trunc. destruct (Qle_bool_case 0 s) as [_|C]; [|lra].
    destruct (Qfloor_bounds s) as [F1 F2].
    destruct (Qeq_bool s (inject_Z (Qfloor s))) eqn:E.
    + apply Qeq_bool_eq in E. rewrite Z.add_0_r. split; lra.
    + rewrite inject_Z_plus. change (inject_Z 1) with 1. apply Qeq_bool_neq in E. split; [|lra].
      assert (inject_Z (Qfloor s) < s); [|lra]. apply Qnot_le_lt. intros C. apply E. lra.
Qed.

(** the window of a particle on one axis: the support times hsml, in mesh units *)
Definition grid_pos (a : axis) (x : Q) : Q := x * ax_scale a + ax_translate a.
(** first visited point *)
Definition first_point (e : Q) (n : Z) (g : Q) : Z := (Qfloor (g + e / 2) - (n - 1))%Z.
(** weight of the mesh point [j], everywhere on the line *)
Definition line_weight (k : kind) (e : Q) (a : axis) (x : Q) (j : Z) : Q :=
  let v := inject_Z (native_of k) / e in
  let y := (grid_pos a x - inject_Z j) * v in
  if (ax_order a =? 0)%Z then kernel_of k y * v else diff_of k y * ax_scale a * v * v.

Definition pair_eq (a b : Z * Q) : Prop := fst a = fst b /\ snd a == snd b.

(** what is needed of a kernel for the rational arithmetic to make sense *)
Definition proper_kind (k : kind) : Prop :=
  (0 < native_of k)%Z /\ Proper (Qeq ==> Qeq) (kernel_of k) /\ Proper (Qeq ==> Qeq) (diff_of k).
Definition standard (k : kind) : Prop := match k with Other _ _ _ => False | _ => True end.
Lemma standard_proper k : standard k -> proper_kind k.
Proof.
  unfold proper_kind. destruct k; intros H; try contradiction; cbn [native_of kernel_of diff_of];
    (split; [lia|]); split; exact _.
Qed.

Theorem generic_points_line k s a x : proper_kind k ->
  let w := window_info_init (native_of k) s in
  let e := eff_support (native_of k) s in
  Forall2 pair_eq (generic_points k w a x)
    (map (fun j => (wrap_axis a j, line_weight k e a x j))
         (zrange (first_point e (wi_support w) (grid_pos a x)) (Z.to_nat (wi_support w)))).
Proof.
  intros (Hn & PK & PD). cbv zeta.
  destruct (window_info_ok (native_of k) s Hn) as (_ & HI & HV).
  set (w := window_info_init (native_of k) s) in *. set (e := eff_support (native_of k) s) in *. clearbody w e.
  rewrite generic_points_map. unfold fill_k. cbn [fst snd]. fold (grid_pos a x).
  unfold first_point. rewrite <- HI.
  set (ipos := (Qfloor (grid_pos a x + wi_shift w) - wi_left w)%Z). clearbody ipos.
  assert (N : forall n d, Forall2 pair_eq
    (map (fun r => (wrap_axis a (ipos + r), nth (Z.to_nat r)
       (map (fun i => let y := (grid_pos a x - inject_Z ipos - inject_Z i) * wi_vfactor w in
              if (ax_order a =? 0)%Z then kernel_of k y * wi_vfactor w
              else diff_of k y * ax_scale a * wi_vfactor w * wi_vfactor w) (zrange 0 n)) 0)) (zrange (Z.of_nat d) (n - d)))
    (map (fun j => (wrap_axis a j, line_weight k e a x j)) (zrange (ipos + Z.of_nat d) (n - d)))).
  { intros n d. remember (n - d)%nat as m eqn:Em. revert d Em. induction m as [|m IH]; intros d Em; [constructor|].
    cbn [zrange map]. constructor.
    - split; [reflexivity|]. cbn [snd]. rewrite Nat2Z.id.
      rewrite (nth_map_in _ _ _ _ 0%Z) by (rewrite zrange_length; lia).
      rewrite nth_zrange by lia. rewrite Z.add_0_l. cbv zeta. unfold line_weight. cbv zeta.
      assert (Y : (grid_pos a x - inject_Z ipos - inject_Z (Z.of_nat d)) * wi_vfactor w ==
                  (grid_pos a x - inject_Z (ipos + Z.of_nat d)) * (inject_Z (native_of k) / e)).
      { rewrite HV, inject_Z_plus. ring. }
      destruct (ax_order a =? 0)%Z.
      + rewrite (PK _ _ Y), HV. reflexivity.
      + rewrite (PD _ _ Y), HV. reflexivity.
    - replace (Z.of_nat d + 1)%Z with (Z.of_nat (S d)) by lia.
      replace (ipos + Z.of_nat d + 1)%Z with (ipos + Z.of_nat (S d))%Z by lia.
      apply IH. lia. }
  specialize (N (Z.to_nat (wi_support w)) 0%nat). rewrite Nat.sub_0_r, Z.add_0_r in N. exact N.
Qed.

(* ---------- the stencil covers the kernel ---------- *)

(** every mesh point within half the support, the right end included, is visited *)
Lemma first_point_covers e n g j : inject_Z n - 1 < e <= inject_Z n ->
  g - e / 2 < inject_Z j <= g + e / 2 -> (first_point e n g <= j < first_point e n g + n)%Z.
Proof.
  intros [H1 H2] [J1 J2]. unfold first_point. destruct (Qfloor_bounds (g + e / 2)) as [F1 F2].
  assert (He : g - e / 2 == g + e / 2 - e) by field.
  split.
  - enough (Qfloor (g + e / 2) - n < j)%Z by lia. apply inject_Z_lt_iff.
    unfold Z.sub. rewrite inject_Z_plus, inject_Z_opp. lra.
  - enough (j < Qfloor (g + e / 2) + 1)%Z by lia. apply inject_Z_lt_iff.
    rewrite inject_Z_plus. change (inject_Z 1) with 1. lra.
Qed.

(** nothing further than one mesh unit beyond the support is visited *)
Lemma first_point_close e n g j : inject_Z n - 1 < e <= inject_Z n ->
  (first_point e n g <= j < first_point e n g + n)%Z -> g - e / 2 - 1 < inject_Z j <= g + e / 2.
Proof.
  intros [H1 H2] [J1 J2]. unfold first_point in *. destruct (Qfloor_bounds (g + e / 2)) as [F1 F2].
  assert (He : g - e / 2 == g + e / 2 - e) by field.
  apply inject_Z_le_iff in J1. assert (J3 : (j <= Qfloor (g + e / 2))%Z) by lia. apply inject_Z_le_iff in J3.
  unfold Z.sub in J1. rewrite !inject_Z_plus, !inject_Z_opp, inject_Z_plus in J1.
  assert (M1 : inject_Z (Z.opp 1) == -(1)) by reflexivity. rewrite M1 in J1. split; lra.
Qed.

(** a kernel that vanishes outside of [-n/2, n/2) *)
Definition confined (f : Q -> Q) (n : Z) : Prop :=
  forall y, y < - (inject_Z n / 2) \/ inject_Z n / 2 <= y -> f y == 0.
Definition confined_kind (k : kind) : Prop :=
  confined (kernel_of k) (native_of k) /\ confined (diff_of k) (native_of k).
Lemma standard_confined k : standard k -> confined_kind k.
Proof.
  destruct k; intros H; try contradiction; (split; intros y Hy); unfold Qdiv in Hy;
    cbn [kernel_of diff_of native_of] in *; unfold inject_Z in Hy; change (/ 2) with (1#2) in Hy.
  all: try reflexivity.
  all: first [apply nearest_out; lra | apply linear_out; lra | apply linear_diff_out; lra
             | apply quadratic_out; lra | apply quadratic_diff_out; lra
             | apply cubic_out; lra | apply cubic_diff_out; lra].
Qed.

Lemma line_weight_zero k e a x j : proper_kind k -> confined_kind k -> 0 < e ->
  ~ (grid_pos a x - e / 2 < inject_Z j <= grid_pos a x + e / 2) -> line_weight k e a x j == 0.
Proof.
  intros (Hn & _ & _) [C1 C2] He Hj. unfold line_weight. cbv zeta.
  apply (inject_Z_lt_iff 0) in Hn. change (inject_Z 0) with 0 in Hn.
  set (nn := inject_Z (native_of k)) in *. set (g := grid_pos a x) in *.
  assert (Hv : 0 < nn / e) by (apply Qlt_shift_div_l; lra).
  assert (Y : (g - inject_Z j) * (nn / e) < - (nn / 2) \/ nn / 2 <= (g - inject_Z j) * (nn / e)).
  { assert (E : nn / 2 == (e / 2) * (nn / e)) by (field; lra).
    rewrite E. set (v := nn / e) in *. set (h := e / 2) in *. clearbody v h. rewrite <- Qmult_opp_l || idtac.
    destruct (Qlt_le_dec (g + h) (inject_Z j)) as [H|H].
    - left. setoid_replace (- (h * v)) with ((- h) * v) by ring. apply Qmult_lt_compat_r; lra.
    - right. apply Qmult_le_compat_r; [|lra].
      destruct (Qlt_le_dec (g - h) (inject_Z j)) as [H'|H']; [destruct Hj; split; assumption|lra]. }
  destruct (ax_order a =? 0)%Z.
  - rewrite (C1 _ Y). ring.
  - rewrite (C2 _ Y). ring.
Qed.

(** the weight of a cell is the sum of the kernel over all mesh points that wrap onto
    it, for any list of mesh points that misses none within the support *)
Definition line_sum (k : kind) (e : Q) (a : axis) (x : Q) (L : list Z) (i : Z) : Q :=
  qsum (fun j => if (wrap_axis a j =? i)%Z then line_weight k e a x j else 0) L.
Definition covers (e g : Q) (L : list Z) : Prop :=
  NoDup L /\ forall j, g - e / 2 < inject_Z j <= g + e / 2 -> In j L.

Theorem generic_wsum k s a x i L : proper_kind k -> confined_kind k ->
  let w := window_info_init (native_of k) s in
  let e := eff_support (native_of k) s in
  covers e (grid_pos a x) L ->
  wsum (generic_points k w a x) i == line_sum k e a x L i.
Proof.
  intros Hp Hc. cbv zeta. intros [HL1 HL2].
  destruct Hp as (Hn & Hp'). destruct (window_info_ok (native_of k) s Hn) as (HS & _ & _).
  assert (He := eff_support_pos (native_of k) s Hn).
  assert (G := generic_points_line k s a x (conj Hn Hp')). cbv zeta in G.
  set (w := window_info_init (native_of k) s) in *. set (e := eff_support (native_of k) s) in *.
  unfold wsum. rewrite (qsum_F2 _ _ (fun jw => if (fst jw =? i)%Z then snd jw else 0) _ _ G).
  2:{ intros [j q] [j' q'] [E1 E2]. cbn in *. subst. destruct (j' =? i)%Z; [exact E2|reflexivity]. }
  rewrite qsum_map. cbn [fst snd]. unfold line_sum.
  apply qsum_support; [exact Z.eq_dec|apply zrange_NoDup|exact HL1|].
  intros j Hj.
  assert (Hs : grid_pos a x - e / 2 < inject_Z j <= grid_pos a x + e / 2).
  { destruct (Qlt_le_dec (grid_pos a x - e / 2) (inject_Z j)) as [H1|H1].
    - destruct (Qlt_le_dec (grid_pos a x + e / 2) (inject_Z j)) as [H2|H2]; [|split; assumption].
      destruct Hj. destruct (wrap_axis a j =? i)%Z; [|reflexivity].
      apply line_weight_zero; [exact (conj Hn Hp')|exact Hc|exact He|]. lra.
    - destruct Hj. destruct (wrap_axis a j =? i)%Z; [|reflexivity].
      apply line_weight_zero; [exact (conj Hn Hp')|exact Hc|exact He|]. lra. }
  split; intros _; [apply HL2, Hs|]. apply in_zrange.
  assert (C := first_point_covers e (wi_support w) (grid_pos a x) j HS Hs).
  assert (0 < wi_support w)%Z by (apply window_info_support, Hn). lia.
Qed.
