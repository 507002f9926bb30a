(** Property C106: [ResampleWindow.paint] and [readout] with the C ints of the code (pmesh/_window_imp.c,
    _window_generics.h, _window_tuned_{nnb,cic,tsc,pcs}.h).  WindowModel.v has integers without limits; here every
    int variable passes through one of two functions: [conv] for the conversion of a double to int, [store] for the
    int that is kept of an integer result.  C fixes both for numbers that fit an int and nothing else, the theorems are
    for all [conv] and [store] with that.  Offsets in bytes and Nmesh are of type ptrdiff_t and have no limit here,
    nor have the indices into the tables of the acg, lanczos and wavelet windows. *)
From Coq Require Import List Arith ZArith QArith Qabs Qround Lia Lqa Bool.
From Verif Require Import Base ListFacts WrapModel WrapProofs DomainModel DomainFill WindowModel WindowStencil WindowAxis MachineModel MachineDomain.
Import ListNotations.
Local Open Scope Q_scope.

Section Ints.
Variables conv store : Z -> Z.

(** the loops of _window_generics.h:44-51, 116-123 and of the SETUP_KERNEL macros: the new value is computed in
    ptrdiff_t and stored in an int.  The fuel is enough for numbers that fit; the loops of the examples beyond the limits
    end within it. *)
Fixpoint down32 (fuel : nat) (d t : Z) : Z :=
  match fuel with
  | O => t
  | S f => if (t >=? d)%Z then down32 f d (store (t - d)) else t
  end.
Fixpoint up32 (fuel : nat) (d t : Z) : Z :=
  match fuel with
  | O => t
  | S f => if (t <? 0)%Z then up32 f d (store (t + d)) else t
  end.
(** _window_generics.h:44-51, 116-123 *)
Definition wrap_du32 (d t : Z) : Z :=
  let t1 := down32 (wrap_fuel t) d t in up32 (wrap_fuel t1) d t1.
(** e.g. _window_tuned_cic.h:28-31 *)
Definition wrap_ud32 (d t : Z) : Z :=
  let t1 := up32 (wrap_fuel t) d t in down32 (wrap_fuel t1) d t1.

(** _window_imp.c:24-47: [info->support], [info->left] are ints *)
Definition window_info_init32 (native : Z) (support : Q) : winfo :=
  let '(n, support) :=
    if Qle_bool support 0 then (native, inject_Z native)
    else let n := conv (trunc support) in
         (store (n + (if Qeq_bool support (inject_Z n) then 0 else 1))%Z, support) in
  {| wi_support := n;
     wi_left := store ((n - 1) / 2)%Z;
     wi_shift := support / 2 - inject_Z (n / 2);
     wi_vfactor := inject_Z native / (1 * support) |}.
(** _window_imp.c:56-69: [ipos[d] = floor(..) - left], a double stored in an int *)
Definition fill_k32 (k : kind) (w : winfo) (a : axis) (x : Q) : Z * list Q :=
  let g := x * ax_scale a + ax_translate a in
  let ipos := conv (Qfloor (g + wi_shift w) - wi_left w)%Z in
  let dx := g - inject_Z ipos in
  (ipos,
   map (fun i => let y := (dx - inject_Z i) * wi_vfactor w in
                 if (ax_order a =? 0)%Z then kernel_of k y * wi_vfactor w
                 else diff_of k y * ax_scale a * wi_vfactor w * wi_vfactor w)
       (zrange 0 (Z.to_nat (wi_support w)))).
(** _window_generics.h:39-57, 108-130: [int targetpos = ipos[d] + r] *)
Fixpoint locate32 (axes : list axis) (fk : list (Z * list Q)) (rel : list Z)
    (kernel : Q) (ind : Z) : option (Q * Z) :=
  match axes, fk, rel with
  | a :: axes', (ipos, kd) :: fk', r :: rel' =>
      let kernel := kernel * nth (Z.to_nat r) kd 0 in
      let target := store (ipos + r)%Z in
      let target := if (ax_period a >? 0)%Z then wrap_du32 (ax_period a) target else target in
      if (target >=? ax_size a)%Z then None
      else if (target <? 0)%Z then None
      else locate32 axes' fk' rel' kernel (ind + ax_stride a * target)%Z
  | _, _, _ => Some (kernel, ind)
  end.
Definition window_for32 (p : painter) (hsml : Q) : winfo :=
  window_info_init32 (native_of (pt_kind p)) (inject_Z (pt_support p) * hsml).
Fixpoint fill_all32 (k : kind) (w : winfo) (axes : list axis) (pos : list Q) : list (Z * list Q) :=
  match axes, pos with
  | a :: axes', x :: pos' => fill_k32 k w a x :: fill_all32 k w axes' pos'
  | _, _ => []
  end.
(** _window_generics.h:21-73 *)
Definition generic_paint32 (p : painter) (w : winfo) (pos : list Q) (weight : Q) : list op :=
  let fk := fill_all32 (pt_kind p) w (pt_axes p) pos in
  flat_map (fun rel => match locate32 (pt_axes p) fk rel 1 0%Z with
                       | Some (kernel, ind) => [(ind, weight * kernel)]
                       | None => []
                       end) (stencil (length (pt_axes p)) (wi_support w)).
(** _window_generics.h:91-142 *)
Definition generic_readout32 (p : painter) (w : winfo) (pos : list Q) (m : memory) : Q :=
  let fk := fill_all32 (pt_kind p) w (pt_axes p) pos in
  fold_left (fun value rel => match locate32 (pt_axes p) fk rel 1 0%Z with
                              | Some (kernel, ind) => value + kernel * m ind
                              | None => value
                              end) (stencil (length (pt_axes p)) (wi_support w)) 0.

(** _window_tuned_nnb.h:8-20 *)
Definition setup_nnb32 (a : axis) (x : Q) : list Z * list Q :=
  let X := x * ax_scale a + ax_translate a in
  let I0 := conv (Qfloor (X + (1#2))) in
  ([I0], if (ax_order a =? 0)%Z then [1] else [0]).
(** _window_tuned_cic.h:7-22 *)
Definition setup_cic32 (a : axis) (x : Q) : list Z * list Q :=
  let X := x * ax_scale a + ax_translate a in
  let I0 := conv (Qfloor X) in
  let I1 := store (I0 + 1)%Z in
  ([I0; I1],
   if (ax_order a =? 0)%Z then let V1 := X - inject_Z I0 in let V0 := 1 - V1 in [V0; V1]
   else let V1 := ax_scale a in let V0 := - ax_scale a in [V0; V1]).
(** _window_tuned_tsc.h:7-25 *)
Definition setup_tsc32 (a : axis) (x : Q) : list Z * list Q :=
  let X := x * ax_scale a + ax_translate a in
  let I1 := conv (Qfloor (X + (1#2))) in
  let I0 := store (I1 - 1)%Z in
  let I2 := store (I1 + 1)%Z in
  let D0 := X - inject_Z I0 in
  let D1 := X - inject_Z I1 in
  let D2 := X - inject_Z I2 in
  ([I0; I1; I2],
   if (ax_order a =? 0)%Z then
     let V1 := (3#4) - D1 * D1 in
     let V0 := ((3#2) - D0) * ((3#2) - D0) * (1#2) in
     let V2 := ((3#2) + D2) * ((3#2) + D2) * (1#2) in
     [V0; V1; V2]
   else
     let V1 := -(2) * D1 * ax_scale a in
     let V0 := - ((3#2) - D0) * ax_scale a in
     let V2 := ((3#2) + D2) * ax_scale a in
     [V0; V1; V2]).
(** _window_tuned_pcs.h:7-38 *)
Definition setup_pcs32 (a : axis) (x : Q) : list Z * list Q :=
  let X := x * ax_scale a + ax_translate a in
  let I1 := conv (Qfloor X) in
  let I0 := store (I1 - 1)%Z in
  let I2 := store (I1 + 1)%Z in
  let I3 := store (I2 + 1)%Z in
  let D0 := X - inject_Z I0 in
  let D1 := X - inject_Z I1 in
  let D2 := X - inject_Z I2 in
  let D3 := X - inject_Z I3 in
  ([I0; I1; I2; I3],
   if (ax_order a =? 0)%Z then
     let V1 := (1#6) * (4 - 6 * D1 * D1 + 3 * D1 * D1 * D1) in
     let V2 := (1#6) * (4 - 6 * D2 * D2 - 3 * D2 * D2 * D2) in
     let V0 := (1#6) * (2 - D0) * (2 - D0) * (2 - D0) in
     let V3 := (1#6) * (2 + D3) * (2 + D3) * (2 + D3) in
     [V0; V1; V2; V3]
   else
     let V1 := (1#6) * (-(12) * D1 + 9 * D1 * D1) in
     let V2 := -(1#6) * (12 * D2 + 9 * D2 * D2) in
     let V0 := -(1#2) * (2 - D0) * (2 - D0) in
     let V3 := (1#2) * (2 + D3) * (2 + D3) in
     [V0; V1; V2; V3]).
Definition setup32 (k : kind) : axis -> Q -> list Z * list Q :=
  match k with
  | TunedNNB => setup_nnb32
  | TunedCIC => setup_cic32
  | TunedTSC => setup_tsc32
  | _ => setup_pcs32
  end.
(** e.g. _window_tuned_cic.h:26-32 *)
Definition setup_wrap32 (a : axis) (s : list Z * list Q) : list Z * list Q :=
  (if (ax_period a =? 0)%Z then fst s else map (wrap_ud32 (ax_period a)) (fst s), snd s).
Fixpoint setup_all32 (setup : axis -> Q -> list Z * list Q) (axes : list axis) (pos : list Q)
    : list (list Z * list Q) :=
  match axes, pos with
  | a :: axes', x :: pos' => setup_wrap32 a (setup a x) :: setup_all32 setup axes' pos'
  | _, _ => []
  end.
(** _window_tuned_cic.h:35-52 and its siblings; the arguments of ACCESS are ints, the address is a ptrdiff_t *)
Definition tuned_paint32 (setup : axis -> Q -> list Z * list Q) (lines : list (list nat))
    (axes : list axis) (pos : list Q) (weight : Q) : list op :=
  let s := setup_all32 setup axes pos in
  let IJK := map fst s in
  let V := scale_first weight (map snd s) in
  flat_map (fun abc => match access axes IJK V abc with
                       | Some (f, ind) => [(ind, f)]
                       | None => []
                       end) lines.
(** _window_tuned_cic.h:55-72 and its siblings *)
Definition tuned_readout32 (setup : axis -> Q -> list Z * list Q) (lines : list (list nat))
    (axes : list axis) (pos : list Q) (m : memory) : Q :=
  let s := setup_all32 setup axes pos in
  let IJK := map fst s in
  let V := map snd s in
  fold_left (fun value abc => value + match access axes IJK V abc with
                                      | Some (f, ind) => m ind * f
                                      | None => 0
                                      end) lines 0.
(** _window_generics.h:4-73; the lines of a fast method and the tests for it are those of WindowModel.v *)
Definition paint_ops32 (p : painter) (pos : list Q) (weight hsml : Q) : list op :=
  let w := window_for32 p hsml in
  match getfastmethod p w with
  | Some f => tuned_paint32 (setup32 (pt_kind p)) (f_paint f) (pt_axes p) pos weight
  | None => generic_paint32 p w pos weight
  end.
(** _window_generics.h:75-142 *)
Definition readout_at32 (p : painter) (m : memory) (pos : list Q) (hsml : Q) : Q :=
  let w := window_for32 p hsml in
  match getfastmethod p w with
  | Some f => tuned_readout32 (setup32 (pt_kind p)) (f_readout f) (pt_axes p) pos m
  | None => generic_readout32 p w pos m
  end.
(** window.py:106-163 with _window.pyx:125-161 *)
Definition window_paint32 (w : window) (real : array) (m : memory) (pos : list (list Q))
    (hsml mass : option (value Q)) (diffdir : option Z) (t : option affine) : outcome memory :=
  bind (transform_of (length (ar_shape real)) t) (fun t =>
  bind (order_of (length (ar_shape real)) diffdir) (fun order =>
  bind (mkarr (match mass with None => Scalar 1 | Some v => v end) (length pos)) (fun mass =>
  bind (hsml_of (length pos) hsml) (fun hsml =>
  let p := mk_painter w real order t in
  Ret (fold_left (fun m xmh => run m (paint_ops32 p (fst (fst xmh)) (snd (fst xmh)) (snd xmh)))
                 (combine (combine pos mass) hsml) m))))).
(** window.py:165-221 with _window.pyx:163-206 *)
Definition window_readout32 (w : window) (real : array) (m : memory) (pos : list (list Q))
    (hsml : option (value Q)) (diffdir : option Z) (t : option affine) : outcome (list Q) :=
  bind (transform_of (length (ar_shape real)) t) (fun t =>
  bind (order_of (length (ar_shape real)) diffdir) (fun order =>
  bind (hsml_of (length pos) hsml) (fun hsml =>
  let p := mk_painter w real order t in
  Ret (map (fun xh => readout_at32 p m (fst xh) (snd xh)) (combine pos hsml))))).

(** what C says of its ints *)
Definition fits_int (z : Z) : Prop := (-2147483648 <= z < 2147483648)%Z.
Definition c_ints : Prop := forall z, fits_int z -> conv z = z /\ store z = z.

(** ** Within the limits nothing is lost *)
Hypothesis HC : c_ints.
Lemma conv_id z : fits_int z -> conv z = z.
Proof. intros H. apply (HC z H). Qed.
Lemma store_id z : fits_int z -> store z = z.
Proof. intros H. apply (HC z H). Qed.

Lemma down32_id fuel d t : (0 < d)%Z -> fits_int t -> down32 fuel d t = down fuel d t /\ fits_int (down fuel d t).
Proof.
  intros Hd. revert t. induction fuel as [|f IH]; intros t Ht; [now split|].
  cbn [down32 down]. destruct (Z.geb_spec t d) as [H|H]; [|now split].
  assert (F : fits_int (t - d)) by (unfold fits_int in *; lia).
  rewrite store_id by exact F. now apply IH.
Qed.
Lemma up32_id fuel d t : (0 < d <= 2147483648)%Z -> fits_int t -> up32 fuel d t = up fuel d t /\ fits_int (up fuel d t).
Proof.
  intros Hd. revert t. induction fuel as [|f IH]; intros t Ht; [now split|].
  cbn [up32 up]. destruct (Z.ltb_spec t 0) as [H|H]; [|now split].
  assert (F : fits_int (t + d)) by (unfold fits_int in *; lia).
  rewrite store_id by exact F. now apply IH.
Qed.
Lemma wrap_du32_id d t : (0 < d <= 2147483648)%Z -> fits_int t -> wrap_du32 d t = wrap_du d t.
Proof.
  intros Hd Ht. unfold wrap_du32, wrap_du. cbv zeta.
  destruct (down32_id (wrap_fuel t) d t ltac:(lia) Ht) as [-> F]. now apply up32_id.
Qed.
Lemma wrap_ud32_id d t : (0 < d <= 2147483648)%Z -> fits_int t -> wrap_ud32 d t = wrap_ud d t.
Proof.
  intros Hd Ht. unfold wrap_ud32, wrap_ud. cbv zeta.
  destruct (up32_id (wrap_fuel t) d t Hd Ht) as [-> F]. now apply down32_id; [lia|].
Qed.

(** the size of the window in mesh units *)
Definition size_of (native : Z) (s : Q) : Q := if Qle_bool s 0 then inject_Z native else s.

Lemma zq a b : inject_Z a < inject_Z b -> (a < b)%Z.
Proof. now rewrite <- Zlt_Qlt. Qed.
Lemma zq_le a b : inject_Z a <= inject_Z b -> (a <= b)%Z.
Proof. now rewrite <- Zle_Qle. Qed.

Lemma window_info_id native s : (0 < native)%Z -> size_of native s + 3 <= 2147483648 ->
  window_info_init32 native s = window_info_init native s /\
  let w := window_info_init native s in
  (0 < wi_support w)%Z /\ inject_Z (wi_support w) < size_of native s + 1 /\ -(1) <= wi_shift w <= 1 /\
  (0 <= wi_left w)%Z /\ (wi_left w < wi_support w)%Z.
Proof.
  intros Hn Hs. unfold window_info_init32, window_info_init, size_of in *.
  destruct (Qle_bool s 0) eqn:E.
  - assert (F : fits_int ((native - 1) / 2)).
    { assert (native <= 2147483645)%Z by (apply zq_le; change (inject_Z 2147483645) with 2147483645; lra).
      pose proof (Z.div_le_upper_bound (native - 1) 2 native ltac:(lia) ltac:(lia)).
      pose proof (Z.div_pos (native - 1) 2 ltac:(lia) ltac:(lia)). unfold fits_int. lia. }
    rewrite store_id by exact F. split; [reflexivity|]. cbn [wi_support wi_shift wi_left].
    pose proof (Z.div_mod native 2 ltac:(lia)) as D. pose proof (Z.mod_pos_bound native 2 ltac:(lia)) as B.
    assert (D' : inject_Z native == 2 * inject_Z (native / 2) + inject_Z (native mod 2)).
    { rewrite <- (inject_Z_mult 2), <- inject_Z_plus, <- D. reflexivity. }
    assert (B' : 0 <= inject_Z (native mod 2) <= 1).
    { change 0 with (inject_Z 0). change 1 with (inject_Z 1). rewrite <- !Zle_Qle. lia. }
    pose proof (Z.div_le_upper_bound (native - 1) 2 (native - 1) ltac:(lia) ltac:(lia)).
    pose proof (Z.div_pos (native - 1) 2 ltac:(lia) ltac:(lia)).
    repeat split; try lia; try lra.
    + unfold Qdiv. change (/ 2) with (1 # 2). lra.
    + unfold Qdiv. change (/ 2) with (1 # 2). lra.
  - assert (P : 0 < s). { apply Qnot_le_lt. intros H. apply Qle_bool_iff in H. congruence. }
    assert (T : trunc s = Qfloor s).
    { unfold trunc. destruct (Qle_bool 0 s) eqn:E'; [reflexivity|]. exfalso.
      assert (Qle_bool 0 s = true) by (apply Qle_bool_iff; lra). congruence. }
    rewrite T. pose proof (Qfloor_bounds s) as [L U].
    assert (0 <= Qfloor s)%Z.
    { apply Z.lt_succ_r. apply zq. unfold Z.succ. rewrite inject_Z_plus. change (inject_Z 0) with 0. change (inject_Z 1) with 1. lra. }
    assert (Qfloor s <= 2147483645)%Z by (apply zq_le; change (inject_Z 2147483645) with 2147483645; lra).
    rewrite conv_id by (unfold fits_int; lia).
    set (n := (Qfloor s + (if Qeq_bool s (inject_Z (Qfloor s)) then 0 else 1))%Z).
    assert (N : (Qfloor s <= n <= Qfloor s + 1)%Z) by (unfold n; destruct (Qeq_bool s _); lia).
    assert (N1 : (0 < n)%Z /\ inject_Z n < s + 1 /\ s <= inject_Z n).
    { unfold n. destruct (Qeq_bool s (inject_Z (Qfloor s))) eqn:Eq.
      - apply Qeq_bool_iff in Eq. rewrite Z.add_0_r. repeat split; try lra. apply zq. change (inject_Z 0) with 0. lra.
      - split; [lia|]. rewrite inject_Z_plus. change (inject_Z 1) with 1.
        split; [|lra]. apply Qeq_bool_neq in Eq.
        destruct (Qlt_le_dec (inject_Z (Qfloor s)) s); [lra|]. exfalso. apply Eq. lra. }
    destruct N1 as (N1 & N2 & N3).
    rewrite (store_id n) by (unfold fits_int; lia).
    pose proof (Z.div_le_upper_bound (n - 1) 2 (n - 1) ltac:(lia) ltac:(lia)).
    pose proof (Z.div_pos (n - 1) 2 ltac:(lia) ltac:(lia)).
    rewrite store_id by (unfold fits_int; lia). split; [reflexivity|]. cbn [wi_support wi_shift wi_left].
    pose proof (Z.div_mod n 2 ltac:(lia)) as D. pose proof (Z.mod_pos_bound n 2 ltac:(lia)) as B.
    assert (D' : inject_Z n == 2 * inject_Z (n / 2) + inject_Z (n mod 2)).
    { rewrite <- (inject_Z_mult 2), <- inject_Z_plus, <- D. reflexivity. }
    assert (B' : 0 <= inject_Z (n mod 2) <= 1).
    { change 0 with (inject_Z 0). change 1 with (inject_Z 1). rewrite <- !Zle_Qle. lia. }
    repeat split; try lia; try lra.
    + unfold Qdiv. change (/ 2) with (1 # 2). lra.
    + unfold Qdiv. change (/ 2) with (1 # 2). lra.
Qed.

(** one coordinate, and the period of its axis *)
Definition coordinate_ok (s : Q) (a : axis) (x : Q) : Prop :=
  Qabs (x * ax_scale a + ax_translate a) + s + 3 <= 2147483648 /\ (0 <= ax_period a <= 2147483648)%Z.

Lemma near_floor g e s : Qabs g + s + 3 <= 2147483648 -> 0 < s -> -(1) <= e <= 1 ->
  inject_Z (Qfloor (g + e)) + s + 2 <= 2147483648 /\ -2147483648 <= inject_Z (Qfloor (g + e)) - s - 1.
Proof.
  intros H Hs He. pose proof (Qfloor_bounds (g + e)) as [L U].
  pose proof (Qle_Qabs g). pose proof (Qle_Qabs (- g)) as A. rewrite Qabs_opp in A. split; lra.
Qed.

(** the painter at one particle *)
Definition particle_ok (p : painter) (pos : list Q) (h : Q) : Prop :=
  Forall (fun ax => coordinate_ok (size_of (native_of (pt_kind p)) (inject_Z (pt_support p) * h)) (fst ax) (snd ax))
         (combine (pt_axes p) pos).

Section Particle.
Variables (p : painter) (h : Q).
Let native := native_of (pt_kind p).
Let s := size_of native (inject_Z (pt_support p) * h).
Let w := window_for p h.
Hypothesis Hn : (0 < native)%Z.
Hypothesis Hs : s + 3 <= 2147483648.

Lemma size_pos : 0 < s.
Proof.
  unfold s, size_of. destruct (Qle_bool _ 0) eqn:E.
  - change 0 with (inject_Z 0). now rewrite <- Zlt_Qlt.
  - apply Qnot_le_lt. intros H. apply Qle_bool_iff in H. congruence.
Qed.
Lemma window_for_id : window_for32 p h = w.
Proof. apply (window_info_id native (inject_Z (pt_support p) * h) Hn Hs). Qed.
Lemma window_facts : (0 < wi_support w)%Z /\ inject_Z (wi_support w) < s + 1 /\ -(1) <= wi_shift w <= 1 /\
  (0 <= wi_left w)%Z /\ (wi_left w < wi_support w)%Z.
Proof. apply (window_info_id native (inject_Z (pt_support p) * h) Hn Hs). Qed.

Lemma first_fits a x : coordinate_ok s a x ->
  let ipos := (Qfloor (x * ax_scale a + ax_translate a + wi_shift w) - wi_left w)%Z in
  fits_int ipos /\ forall r, (0 <= r < wi_support w)%Z -> fits_int (ipos + r)%Z.
Proof.
  intros [H _] ipos. destruct window_facts as (W1 & W2 & W3 & W4 & W5).
  destruct (near_floor _ (wi_shift w) s H size_pos W3) as [F1 F2]. fold ipos in F1, F2.
  set (f := Qfloor (x * ax_scale a + ax_translate a + wi_shift w)) in *.
  assert (G1 : (f + wi_support w < 2147483648)%Z).
  { apply zq. rewrite inject_Z_plus. change (inject_Z 2147483648) with 2147483648. lra. }
  assert (G2 : (-2147483648 < f - wi_support w + 1)%Z).
  { apply zq. replace (f - wi_support w + 1)%Z with (f + 1 + - wi_support w)%Z by lia.
    rewrite !inject_Z_plus, inject_Z_opp. change (inject_Z 1) with 1. change (inject_Z (-2147483648)) with (-2147483648). lra. }
  unfold fits_int, ipos. split; [lia|]. intros r Hr. lia.
Qed.
Lemma fill_id a x : coordinate_ok s a x -> fill_k32 (pt_kind p) w a x = fill_k (pt_kind p) w a x.
Proof.
  intros H. destruct (first_fits a x H) as [F _]. unfold fill_k32, fill_k. cbv zeta. now rewrite conv_id by exact F.
Qed.
Lemma fill_all_id axes : forall pos, Forall (fun ax => coordinate_ok s (fst ax) (snd ax)) (combine axes pos) ->
  fill_all32 (pt_kind p) w axes pos = fill_all (pt_kind p) w axes pos.
Proof.
  induction axes as [|a axes IH]; intros [|x pos] H; try reflexivity.
  cbn [combine] in H. inversion H as [|? ? H1 H2]; subst. cbn [fill_all32 fill_all]. now rewrite fill_id, IH.
Qed.
Lemma locate_id axes : forall pos rel kernel ind, Forall (fun ax => coordinate_ok s (fst ax) (snd ax)) (combine axes pos) ->
  Forall (fun r => 0 <= r < wi_support w)%Z rel ->
  locate32 axes (fill_all (pt_kind p) w axes pos) rel kernel ind = locate axes (fill_all (pt_kind p) w axes pos) rel kernel ind.
Proof.
  induction axes as [|a axes IH]; intros [|x pos] [|r rel] kernel ind H HR; try reflexivity.
  cbn [combine] in H. inversion H as [|? ? H1 H2]; subst. inversion HR as [|? ? R1 R2]; subst.
  cbn [fill_all]. destruct (fill_k (pt_kind p) w a x) as [ipos kd] eqn:E. cbn [locate32 locate].
  assert (F : fits_int (ipos + r)).
  { destruct (first_fits a x H1) as [_ F]. specialize (F r R1). unfold fill_k in E. cbv zeta in E. injection E as <- _. exact F. }
  rewrite store_id by exact F. destruct H1 as [_ HP]. cbn [fst] in HP.
  assert (T : (if (ax_period a >? 0)%Z then wrap_du32 (ax_period a) (ipos + r) else (ipos + r)%Z) =
              (if (ax_period a >? 0)%Z then wrap_du (ax_period a) (ipos + r) else (ipos + r)%Z)).
  { rewrite Z.gtb_ltb. destruct (Z.ltb_spec 0 (ax_period a)); [|reflexivity]. apply wrap_du32_id; [lia|exact F]. }
  rewrite T. destruct (_ >=? _)%Z; [reflexivity|]. destruct (_ <? 0)%Z; [reflexivity|]. now apply IH.
Qed.
Lemma rel_ok rel : In rel (stencil (length (pt_axes p)) (wi_support w)) -> Forall (fun r => 0 <= r < wi_support w)%Z rel.
Proof.
  destruct window_facts as (W1 & _). destruct (length (pt_axes p)) as [|n].
  - unfold stencil. cbn [repeat odometer]. cbn [hd]. rewrite Z.eqb_refl. contradiction.
  - rewrite stencil_box by (try lia; exact W1). intros H. apply in_box in H.
    remember (repeat (0, wi_support w)%Z (S n)) as l eqn:El.
    assert (A : Forall (fun lh => lh = (0, wi_support w)%Z) l) by (rewrite El; apply Forall_forall; intros y Hy; now apply repeat_spec in Hy).
    clear El. induction H as [|lh r l rel Hr H IH]; [constructor|]. inversion A as [|? ? A1 A2]; subst.
    constructor; [exact Hr|now apply IH].
Qed.
Lemma generic_paint_id pos weight : particle_ok p pos h -> generic_paint32 p w pos weight = generic_paint p w pos weight.
Proof.
  intros H. unfold generic_paint32, generic_paint. cbv zeta. rewrite fill_all_id by exact H.
  pose proof rel_ok as R. revert R. generalize (stencil (length (pt_axes p)) (wi_support w)). intros l R.
  induction l as [|rel l IH]; [reflexivity|]. cbn [flat_map]. rewrite IH by (intros; apply R; now right).
  rewrite locate_id; [reflexivity|exact H|apply R; now left].
Qed.
Lemma generic_readout_id pos m : particle_ok p pos h -> generic_readout32 p w pos m = generic_readout p w pos m.
Proof.
  intros H. unfold generic_readout32, generic_readout. cbv zeta. rewrite fill_all_id by exact H.
  pose proof rel_ok as R. revert R. generalize (stencil (length (pt_axes p)) (wi_support w)). intros l. generalize (0 : Q).
  induction l as [|rel l IH]; intros v R; [reflexivity|]. cbn [fold_left].
  rewrite locate_id; [|exact H|apply R; now left]. apply IH. intros; apply R; now right.
Qed.

(** the tuned routines *)
Lemma setup_fits a x f : getfastmethod p w = Some f -> coordinate_ok s a x ->
  setup32 (pt_kind p) a x = f_setup f a x /\ Forall fits_int (fst (f_setup f a x)).
Proof.
  intros Ef [H _]. unfold getfastmethod in Ef. cbv zeta in Ef.
  destruct (fast_allowed (pt_axes p)); [|discriminate].
  assert (N1 : native = native_of (pt_kind p)) by reflexivity.
  destruct window_facts as (W1 & W2 & _).
  assert (G : forall e, (e = 0 \/ e = 1 # 2) -> (-2147483646 <= Qfloor (x * ax_scale a + ax_translate a + e) <= 2147483645)%Z).
  { intros e He. destruct (near_floor _ e s H size_pos) as [F1 F2]; [destruct He as [-> | ->]; split; discriminate|].
    assert (B : 0 < inject_Z (wi_support w)) by (change 0 with (inject_Z 0); now rewrite <- Zlt_Qlt).
    pose proof size_pos as SP.
    assert (1 <= 2147483648) by discriminate.
    split.
    - apply Z.lt_pred_le. apply zq. unfold Z.pred. rewrite inject_Z_plus. cbn [Z.pred]. change (inject_Z (-1)) with (-(1)).
      change (inject_Z (-2147483646)) with (-2147483646). lra.
    - apply Z.lt_succ_r, zq. change (inject_Z (Z.succ 2147483645)) with 2147483646. lra. }
  pose proof (G (1 # 2) (or_intror eq_refl)) as G2. pose proof (G 0 (or_introl eq_refl)) as G1. clear G.
  assert (E0 : Qfloor (x * ax_scale a + ax_translate a + 0) = Qfloor (x * ax_scale a + ax_translate a)) by (apply Qfloor_comp; ring).
  rewrite E0 in G1. clear E0.
  destruct (pt_kind p) eqn:Ek; try discriminate;
    repeat match type of Ef with (if ?b then _ else _) = _ => destruct b; try discriminate end;
    injection Ef as <-; cbn [f_setup setup32];
    unfold setup_nnb32, setup_nnb, setup_cic32, setup_cic, setup_tsc32, setup_tsc, setup_pcs32, setup_pcs; cbv zeta;
    repeat (first [rewrite conv_id by (unfold fits_int; lia) | rewrite store_id by (unfold fits_int; lia)]);
    (split; [reflexivity|cbn [fst]; repeat constructor; lia]).
Qed.
Lemma setup_all_id f axes : getfastmethod p w = Some f -> forall pos,
  Forall (fun ax => coordinate_ok s (fst ax) (snd ax)) (combine axes pos) ->
  setup_all32 (setup32 (pt_kind p)) axes pos = setup_all (f_setup f) axes pos.
Proof.
  intros Ef. induction axes as [|a axes IH]; intros [|x pos] H; try reflexivity.
  cbn [combine] in H. inversion H as [|? ? H1 H2]; subst. cbn [setup_all32 setup_all].
  rewrite IH by exact H2. f_equal. destruct (setup_fits a x f Ef H1) as [-> F].
  unfold setup_wrap32, setup_wrap. f_equal. destruct (Z.eqb_spec (ax_period a) 0); [reflexivity|].
  apply map_ext_in. intros i Hi. rewrite Forall_forall in F. destruct H1 as [_ HP]. cbn [fst] in HP.
  apply wrap_ud32_id; [lia|now apply F].
Qed.
Lemma paint_ops_id pos weight : particle_ok p pos h -> paint_ops32 p pos weight h = paint_ops p pos weight h.
Proof.
  intros H. unfold paint_ops32, paint_ops. cbv zeta. rewrite window_for_id. fold w.
  destruct (getfastmethod p w) as [f|] eqn:Ef; [|now apply generic_paint_id].
  unfold tuned_paint32, tuned_paint. cbv zeta. now rewrite (setup_all_id f) by assumption.
Qed.
Lemma readout_at_id pos m : particle_ok p pos h -> readout_at32 p m pos h = readout_at p m pos h.
Proof.
  intros H. unfold readout_at32, readout_at. cbv zeta. rewrite window_for_id. fold w.
  destruct (getfastmethod p w) as [f|] eqn:Ef; [|now apply generic_readout_id].
  unfold tuned_readout32, tuned_readout. cbv zeta. now rewrite (setup_all_id f) by assumption.
Qed.
End Particle.

(** ** The call *)
(** What a call has to respect: no period above 2^31, and every particle with its window less than 2^31 cells from the
    first cell of the array.  [hs] are the smoothing lengths of the particles, 1 if there are none. *)
Definition call_ok (w : window) (t : affine) (pos : list (list Q)) (hs : list Q) : Prop :=
  Forall (fun n => 0 <= n <= 2147483648)%Z (af_period t) /\
  Forall (fun xh => let s := inject_Z (w_support w) * snd xh in
    let s := if Qle_bool s 0 then inject_Z (native_of (w_kind w)) else s in
    s + 3 <= 2147483648 /\
    Forall (fun c => Qabs (snd c * fst (fst c) + snd (fst c)) + s + 3 <= 2147483648)
           (combine (combine (af_scale t) (af_translate t)) (fst xh))) (combine pos hs).

Lemma mk_axes_ok s t : Forall (fun n => 0 <= n <= 2147483648)%Z (af_period t) ->
  forall order shape strides x,
  Forall (fun c => Qabs (snd c * fst (fst c) + snd (fst c)) + s + 3 <= 2147483648)
         (combine (combine (af_scale t) (af_translate t)) x) ->
  Forall (fun ax => coordinate_ok s (fst ax) (snd ax))
         (combine (mk_axes order (af_scale t) (af_translate t) (af_period t) shape strides) x).
Proof.
  destruct t as [sc tr pe]. cbn [af_scale af_translate af_period]. intros HP order. revert sc tr pe HP.
  induction order as [|o order IH]; intros sc tr pe HP shape strides x H; [constructor|].
  destruct sc as [|a sc], tr as [|b tr], pe as [|n pe], shape as [|l shape], strides as [|st strides], x as [|y x];
    try constructor; cbn [combine] in H; inversion H as [|? ? H1 H2]; subst; inversion HP as [|? ? P1 P2]; subst.
  - split; [exact H1|exact P1].
  - now apply IH.
Qed.
Lemma in_combine3 {A B C} (pos : list A) : forall (mass : list B) (hs : list C) x m h,
  In ((x, m), h) (combine (combine pos mass) hs) -> In (x, h) (combine pos hs).
Proof.
  induction pos as [|y pos IH]; intros [|m' mass] [|h' hs] x m h H; try contradiction.
  cbn [combine] in *. destruct H as [E|H]; [injection E as -> -> ->; now left|right; now apply (IH mass hs x m)].
Qed.
Lemma call_particle w real order t pos hs x h : call_ok w t pos hs -> In (x, h) (combine pos hs) ->
  let p := mk_painter w real order t in
  size_of (native_of (pt_kind p)) (inject_Z (pt_support p) * h) + 3 <= 2147483648 /\ particle_ok p x h.
Proof.
  intros [HP HF] Hx p. rewrite Forall_forall in HF. specialize (HF _ Hx). cbn [fst snd] in HF. cbv zeta in HF.
  destruct HF as [H1 H2]. split; [exact H1|]. unfold particle_ok, p. cbn [pt_kind pt_support pt_axes mk_painter].
  apply mk_axes_ok; [exact HP|exact H2].
Qed.

Theorem C106_paint : forall w real m pos hsml mass diffdir t, (0 < native_of (w_kind w))%Z ->
  (forall t' hs, transform_of (length (ar_shape real)) t = Ret t' -> hsml_of (length pos) hsml = Ret hs -> call_ok w t' pos hs) ->
  window_paint32 w real m pos hsml mass diffdir t = window_paint w real m pos hsml mass diffdir t.
Proof.
  intros w real m pos hsml mass diffdir t Hn H. unfold window_paint32, window_paint.
  destruct (transform_of (length (ar_shape real)) t) as [t'| | |]; try reflexivity. cbn [bind].
  destruct (order_of (length (ar_shape real)) diffdir) as [order| | |]; try reflexivity. cbn [bind].
  destruct (mkarr _ (length pos)) as [ms| | |]; try reflexivity. cbn [bind].
  destruct (hsml_of (length pos) hsml) as [hs| | |]; try reflexivity. cbn [bind]. cbv zeta.
  specialize (H t' hs eq_refl eq_refl). f_equal.
  assert (A : forall xmh, In xmh (combine (combine pos ms) hs) -> In (fst (fst xmh), snd xmh) (combine pos hs)).
  { intros [[x mm] h] Hx. cbn [fst snd]. eapply in_combine3. exact Hx. }
  revert A. generalize (combine (combine pos ms) hs). intros l. revert m.
  induction l as [|[[x mm] h] l IH]; intros m A; [reflexivity|]. cbn [fold_left fst snd].
  destruct (call_particle w real order t' pos hs x h H (A _ (or_introl eq_refl))) as [B1 B2].
  rewrite paint_ops_id; [|exact Hn|exact B1|exact B2]. apply IH. intros y Hy. apply A. now right.
Qed.
Theorem C106_readout : forall w real m pos hsml diffdir t, (0 < native_of (w_kind w))%Z ->
  (forall t' hs, transform_of (length (ar_shape real)) t = Ret t' -> hsml_of (length pos) hsml = Ret hs -> call_ok w t' pos hs) ->
  window_readout32 w real m pos hsml diffdir t = window_readout w real m pos hsml diffdir t.
Proof.
  intros w real m pos hsml diffdir t Hn H. unfold window_readout32, window_readout.
  destruct (transform_of (length (ar_shape real)) t) as [t'| | |]; try reflexivity. cbn [bind].
  destruct (order_of (length (ar_shape real)) diffdir) as [order| | |]; try reflexivity. cbn [bind].
  destruct (hsml_of (length pos) hsml) as [hs| | |]; try reflexivity. cbn [bind]. cbv zeta.
  specialize (H t' hs eq_refl eq_refl). f_equal. apply map_ext_in. intros [x h] Hx. cbn [fst snd].
  destruct (call_particle w real order t' pos hs x h H Hx) as [B1 B2].
  rewrite readout_at_id; [reflexivity|exact Hn|exact B1|exact B2].
Qed.
End Ints.
Print Assumptions C106_paint.
Print Assumptions C106_readout.

(** ** The integers of gcc on x86-64: a double that does not fit becomes INT_MIN (cvttsd2si), an integer is cut to its
    lowest 32 bits *)
Definition x86_conv (z : Z) : Z := if (-2147483648 <=? z)%Z && (z <? 2147483648)%Z then z else (-2147483648)%Z.
Lemma x86_ints : c_ints x86_conv i32.
Proof.
  intros z [H1 H2]. split; [|now apply MachineDomain.i32_id].
  unfold x86_conv. destruct (Z.leb_spec (-2147483648) z), (Z.ltb_spec z 2147483648); try lia. reflexivity.
Qed.

(** the hypotheses hold: a particle 10^9 cells away from a periodic mesh of 4 x 4 cells, and one near it with TSC, with
    and without a smoothing length *)
Definition small44 : array := {| ar_shape := [4; 4]%Z; ar_strides := [32; 8]%Z |}.
Definition turn44 : affine := {| af_scale := [1; 2]; af_translate := [0; -(1)]; af_period := [4; 4]%Z |}.
Example C106_case : forall m,
  window_paint32 x86_conv i32 (ResampleWindow TunedTSC (-1)) small44 m [[1000000001; -500000000]; [3 # 2; 7 # 3]] None (Some (Scalar 3)) None (Some turn44) =
  window_paint (ResampleWindow TunedTSC (-1)) small44 m [[1000000001; -500000000]; [3 # 2; 7 # 3]] None (Some (Scalar 3)) None (Some turn44) /\
  window_readout32 x86_conv i32 (ResampleWindow Cubic (-1)) small44 m [[1000000001; -500000000]] (Some (Array [3 # 2])) (Some 1%Z) (Some turn44) =
  window_readout (ResampleWindow Cubic (-1)) small44 m [[1000000001; -500000000]] (Some (Array [3 # 2])) (Some 1%Z) (Some turn44).
Proof.
  intros m. split.
  - apply (C106_paint _ _ x86_ints); [reflexivity|]. intros t' hs Et Eh. injection Et as <-. injection Eh as <-.
    split; [repeat constructor; discriminate|]. repeat constructor; discriminate.
  - apply (C106_readout _ _ x86_ints); [reflexivity|]. intros t' hs Et Eh. injection Et as <-. injection Eh as <-.
    split; [repeat constructor; discriminate|]. repeat constructor; discriminate.
Qed.

(** The limits are needed.  Lines of [n] cells of a mesh with [d] cells, nearest grid point: *)
Definition line (n : Z) : array := {| ar_shape := [n]; ar_strides := [8]%Z |}.
Definition turn (d : Z) : affine := {| af_scale := [1]; af_translate := [0]; af_period := [d] |}.
Lemma line_readout n d m x : window_readout (ResampleWindow TunedNNB (-1)) (line n) m [[x]] None None (Some (turn d)) =
  Ret [0 + match access (mk_axes [0%Z] [1] [0] [d] [n] [8%Z])
                   [let i := Qfloor (x * 1 + 0 + (1 # 2)) in if (d =? 0)%Z then [i] else [wrap_ud d i]] [[1]] [0%nat] with
           | Some (f, ind) => m ind * f
           | None => 0
           end].
Proof. reflexivity. Qed.
Lemma line_readout32 n d conv store m x : conv 1%Z = 1%Z -> store 1%Z = 1%Z -> store 0%Z = 0%Z ->
  window_readout32 conv store (ResampleWindow TunedNNB (-1)) (line n) m [[x]] None None (Some (turn d)) =
  Ret [0 + match access (mk_axes [0%Z] [1] [0] [d] [n] [8%Z])
                   [let i := conv (Qfloor (x * 1 + 0 + (1 # 2))) in if (d =? 0)%Z then [i] else [wrap_ud32 store d i]] [[1]] [0%nat] with
           | Some (f, ind) => m ind * f
           | None => 0
           end].
Proof.
  intros E1 E2 E3. unfold window_readout32. cbn [transform_of bind order_of line ar_shape length hsml_of repeat combine map fst snd].
  unfold readout_at32. cbv zeta.
  assert (E : getfastmethod (mk_painter (ResampleWindow TunedNNB (-1)) (line n) [0%Z] (turn d))
                (window_for32 conv store (mk_painter (ResampleWindow TunedNNB (-1)) (line n) [0%Z] (turn d)) 1) =
              Some {| f_setup := setup_nnb; f_paint := nnb_paint1; f_readout := nnb_readout1 |}).
  { unfold window_for32, window_info_init32. change (trunc _) with 1%Z. cbn. rewrite E1. cbn. rewrite E2. reflexivity. }
  unfold line in E |- *. rewrite E. reflexivity.
Qed.
(** A particle at 2^31 + 1 on a periodic mesh of four cells belongs to cell 1; it is taken for one in cell 0. *)
Theorem C106_far_refuted : forall m,
  window_readout (ResampleWindow TunedNNB (-1)) (line 4) m [[2147483649]] None None (Some (turn 4)) = Ret [0 + m 8%Z * 1] /\
  window_readout32 x86_conv i32 (ResampleWindow TunedNNB (-1)) (line 4) m [[2147483649]] None None (Some (turn 4)) = Ret [0 + m 0%Z * 1].
Proof.
  intros m.
  assert (E1 : wrap_ud 4 2147483649 = 1%Z) by (rewrite wrap_ud_mod by lia; reflexivity).
  assert (E2 : wrap_ud32 i32 4 (-2147483648) = 0%Z).
  { rewrite (wrap_ud32_id x86_conv i32 x86_ints) by (unfold fits_int; lia). rewrite wrap_ud_mod by lia. reflexivity. }
  split.
  - rewrite line_readout. replace (Qfloor (2147483649 * 1 + 0 + (1 # 2))) with 2147483649%Z by (vm_compute; reflexivity).
    cbv zeta. change (4 =? 0)%Z with false. cbv iota. rewrite E1. reflexivity.
  - rewrite line_readout32 by reflexivity.
    replace (x86_conv (Qfloor (2147483649 * 1 + 0 + (1 # 2)))) with (-2147483648)%Z by (vm_compute; reflexivity).
    cbv zeta. change (4 =? 0)%Z with false. cbv iota. rewrite E2. reflexivity.
Qed.
(** A mesh of 2^31 + 8 cells, of which a rank has the first 32.  A particle one cell before them belongs to the last cell of
    the mesh, on another rank; this rank takes it for one in cell 15. *)
Theorem C106_long_refuted : forall m,
  window_readout (ResampleWindow TunedNNB (-1)) (line 32) m [[-(1)]] None None (Some (turn 2147483656)) = Ret [0 + 0] /\
  window_readout32 x86_conv i32 (ResampleWindow TunedNNB (-1)) (line 32) m [[-(1)]] None None (Some (turn 2147483656)) = Ret [0 + m 120%Z * 1].
Proof.
  intros m.
  assert (E1 : wrap_ud 2147483656 (-1) = 2147483655%Z) by (rewrite wrap_ud_mod by lia; reflexivity).
  assert (E2 : wrap_ud32 i32 2147483656 (-1) = 15%Z) by (vm_compute; reflexivity).
  split.
  - rewrite line_readout. replace (Qfloor (-(1) * 1 + 0 + (1 # 2))) with (-1)%Z by (vm_compute; reflexivity).
    cbv zeta. change (2147483656 =? 0)%Z with false. cbv iota. rewrite E1. reflexivity.
  - rewrite line_readout32 by reflexivity.
    replace (x86_conv (Qfloor (-(1) * 1 + 0 + (1 # 2)))) with (-1)%Z by (vm_compute; reflexivity).
    cbv zeta. change (2147483656 =? 0)%Z with false. cbv iota. rewrite E2. reflexivity.
Qed.
Print Assumptions C106_far_refuted.
Print Assumptions C106_long_refuted.
