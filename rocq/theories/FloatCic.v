(** The linear window with rounded arithmetic (pmesh/_window_tuned_cic.h:1-133,
    _window_generics.h:143-220): the weights that a block of the mesh computes are
    those that the whole mesh computes.  XYZ is computed with two roundings, as
    without fused multiply-add; the canvas is left out. *)
From Coq Require Import List Arith ZArith QArith Qround Qpower Qabs Lqa Lia Bool.
From Verif Require Import Base ListFacts LayoutModel WrapModel WrapProofs DomainModel FloatModel FloatRound FloatDomain FloatNearest FloatPaint.
Import ListNotations.
Local Close Scope Q_scope.
Local Open Scope Z_scope.

Section Window.
Variable rnd : Q -> Q.
(** _window_tuned_cic.h:1-32 on one axis: IJK0, V0 and IJK1, V1 on a block that
    begins at cell [a], of a mesh with [N] cells; [diff] is order[d] != 0 *)
Definition fcic (diff : bool) (scale : Q) (a N : Z) (pos : Q) : list (Z * Q) :=
  let X := rnd (rnd (pos * scale) + inject_Z (- a))%Q in
  let i := Qfloor X in
  let v1 := if diff then scale else rnd (X - inject_Z i)%Q in
  let v0 := if diff then (- scale)%Q else rnd (1 - v1)%Q in
  [(wrap_ud N i, v0); (wrap_ud N (i + 1), v1)].
(** ACCESS1, ACCESS2, ACCESS3 (_window_generics.h:212-220): the products, from the left *)
Fixpoint faccess (f : Q) (axes : list (list (Z * Q))) : list (list Z * Q) :=
  match axes with
  | [] => [([], f)]
  | l :: ls => flat_map (fun p => map (fun e => (fst p :: fst e, snd e)) (faccess (rnd (f * snd p)%Q) ls)) l
  end.
(** _window_tuned_cic.h:35-133: in paint the first factor is multiplied by the mass,
    in readout it is not *)
Definition fproducts (mass : option Q) (axes : list (list (Z * Q))) : list (list Z * Q) :=
  match axes with
  | [] => []
  | l :: ls => flat_map (fun p => map (fun e => (fst p :: fst e, snd e))
                 (faccess (match mass with Some w => rnd (snd p * w)%Q | None => snd p end) ls)) l
  end.
(** _WRtPlus, _REd (_window_generics.h:143-210): what lies outside the block is left out *)
Definition local_cell (size : list Z) (c : list Z) : bool :=
  forallb (fun p => (0 <=? snd p) && (snd p <? fst p)) (combine size c).
Definition fentries (mass : option Q) (size : list Z) (axes : list (list (Z * Q))) : list (list Z * Q) :=
  filter (fun e => local_cell size (fst e)) (fproducts mass axes).
End Window.

(** the number that is added to a cell *)
Definition entry (l : list (list Z * Q)) (c : list Z) : Q :=
  match find (fun e => if list_eq_dec Z.eq_dec (fst e) c then true else false) l with Some e => snd e | None => 0 end.
Definition entry1 (l : list (Z * Q)) (c : Z) : Q :=
  match find (fun e => fst e =? c) l with Some e => snd e | None => 0 end.

(** ** one axis *)
Lemma mod_shift x a c N : 0 < N -> 0 <= a -> a <= c < N -> ((x - a) mod N =? c - a) = (x mod N =? c).
Proof.
  intros HN Ha Hc. pose proof (Z.mod_pos_bound x N HN). pose proof (Z.mod_pos_bound (x - a) N HN).
  pose proof (Z.div_mod x N ltac:(lia)). pose proof (Z.div_mod (x - a) N ltac:(lia)).
  destruct (Z.eqb_spec (x mod N) c) as [E|E]; destruct (Z.eqb_spec ((x - a) mod N) (c - a)) as [F|F]; try reflexivity; exfalso.
  - apply F. symmetry. apply Z.mod_unique with (x / N); [left; lia|]. lia.
  - apply E. symmetry. apply Z.mod_unique with ((x - a) / N); [left; lia|]. lia.
Qed.
Lemma outside t N a n : 0 < a -> 0 <= n -> a + n <= N -> - a <= t < 0 -> t mod N = t + N /\ n <= t + N.
Proof.
  intros Ha Hn HN Ht. split; [|lia]. symmetry. apply Z.mod_unique with (-1); [left; lia|lia].
Qed.

(** the subtraction of a block that begins just after the particle *)
Lemma sub_after x a : double x -> a <= 2 ^ 31 -> (1 <= x)%Q -> (inject_Z a - 1 <= x)%Q -> (x < inject_Z a)%Q ->
  (round64 (x + inject_Z (- a)) == x + inject_Z (- a))%Q.
Proof.
  intros D Ha2 Hx H1 Hxa. assert (inject_Z a <= inject_Z (2 ^ 31))%Q by (apply inj_le; lia).
  destruct (octave x D Hx ltac:(lra)) as (k & m & Hk & Hm & E).
  pose proof (K_pos k Hk) as HK. set (K := 2 ^ (51 - k)) in *.
  assert (K2 : K <= 2 ^ 51) by (apply Z.pow_le_mono_r; lia).
  assert (L1 : m <= 2 * K * a).
  { rewrite E, (K_int k Hk a) in Hxa. fold K in Hxa. apply (u_inv k) in Hxa. lia. }
  assert (L2 : 2 * K * a - 2 * K <= m).
  { apply Z.nlt_ge. intros C. apply (u_lt k) in C. rewrite <- E in C. replace (2 * K * a - 2 * K) with (2 * K * (a - 1)) in C by ring.
    pose proof (K_int k Hk (a - 1)) as KA. fold K in KA. rewrite <- KA in C. unfold Z.sub in C. rewrite inject_Z_plus in C.
    change (inject_Z (- (1))) with (- (1))%Q in C. lra. }
  eapply Qeq_trans; [apply round64_compat, (sub_eq x a k m Hk E)|]. rewrite (sub_eq x a k m Hk E). fold K. apply (u_rep k Hk). lia.
Qed.
Lemma floor_sub x a : Qfloor (x + inject_Z (- a)) = Qfloor x - a.
Proof.
  apply floor_is.
  - unfold Z.sub. rewrite inject_Z_plus. pose proof (Qfloor_le x). lra.
  - replace (Qfloor x - a + 1) with (Qfloor x + 1 + - a) by ring. rewrite inject_Z_plus. pose proof (Qlt_floor x). lra.
Qed.

(** the exceptions: a particle of the first cell and a block that begins next to it *)
Definition apart (diff : bool) (a : Z) (x : Q) : Prop := (1 <= x)%Q \/ a <> (if diff then 2 else 1).

Lemma entry1_pair i v0 j v1 c : entry1 [(i, v0); (j, v1)] c = if i =? c then v0 else if j =? c then v1 else 0%Q.
Proof. unfold entry1. cbn. destruct (i =? c); [reflexivity|]. now destruct (j =? c). Qed.

Lemma fcic_block diff scale a n N pos c : 2 <= N -> 0 <= a -> 0 <= n -> a + n <= N -> N <= 2 ^ 31 ->
  (0 <= round64 (pos * scale) <= inject_Z (2 ^ 31))%Q -> apart diff a (round64 (pos * scale)) -> a <= c < a + n ->
  (entry1 (fcic round64 diff scale a N pos) (c - a) == entry1 (fcic round64 diff scale 0 N pos) c)%Q.
Proof.
  intros HN Ha Hn Han HN2 [Hx0 Hx2] Hap Hc. unfold fcic.
  assert (D : double (round64 (pos * scale))) by (eexists; reflexivity).
  set (x := round64 (pos * scale)) in *. cbv zeta. rewrite !entry1_pair, !wrap_ud_mod by lia.
  assert (E0 : (round64 (x + inject_Z (- 0)) == x)%Q).
  { change (inject_Z (- 0)) with 0%Q. eapply Qeq_trans; [apply round64_compat, Qplus_0_r|now apply double_fix]. }
  assert (F0 : Qfloor (round64 (x + inject_Z (- 0))) = Qfloor x) by now apply floor_eq.
  rewrite F0. set (X := round64 (x + inject_Z (- a))).
  (* when the subtraction is exact *)
  assert (Exact : (X == x + inject_Z (- a))%Q ->
    Qfloor X = Qfloor x - a /\
    (round64 (X - inject_Z (Qfloor x - a)) == round64 (round64 (x + inject_Z (- 0)) - inject_Z (Qfloor x)))%Q).
  { intros EX. split; [rewrite (floor_eq _ _ EX); apply floor_sub|]. apply round64_compat. rewrite E0, EX.
    unfold Z.sub. rewrite !inject_Z_plus. ring. }
  destruct (Qlt_le_dec x (inject_Z a)) as [Hxa|Hxa].
  2:{ destruct (Exact (sub_exact x a D Ha Hxa Hx2)) as [F V]. rewrite F.
      rewrite (mod_shift (Qfloor x) a c N) by lia. replace (Qfloor x - a + 1) with (Qfloor x + 1 - a) by ring.
      rewrite (mod_shift (Qfloor x + 1) a c N) by lia.
      destruct (Qfloor x mod N =? c).
      - destruct diff; [reflexivity|]. apply round64_compat. rewrite V. reflexivity.
      - destruct ((Qfloor x + 1) mod N =? c); [|reflexivity]. destruct diff; [reflexivity|exact V]. }
  (* the block begins after the particle *)
  assert (Hi0 : 0 <= Qfloor x) by (apply floor_lb; exact Hx0).
  assert (Hia : Qfloor x < a).
  { rewrite Zlt_Qlt. eapply Qle_lt_trans; [apply Qfloor_le|exact Hxa]. }
  assert (HaN : a < N) by lia.
  rewrite (Z.mod_small (Qfloor x) N) by lia. rewrite (Z.mod_small (Qfloor x + 1) N) by lia.
  destruct (Z.eqb_spec (Qfloor x) c) as [?|_]; [lia|].
  assert (HXl : (inject_Z (- a) <= X)%Q) by (apply round_lb; [apply round64_int; lia|lra]).
  pose proof (floor_lb _ _ HXl) as Hil.
  destruct (Z.eq_dec (Qfloor x) (a - 1)) as [Ea|Ea].
  - assert (Hx1 : (inject_Z a - 1 <= x)%Q).
    { pose proof (Qfloor_le x) as L. rewrite Ea in L. unfold Z.sub in L. rewrite inject_Z_plus in L. change (inject_Z (- (1))) with (- (1))%Q in L. lra. }
    assert (Fl : Qfloor X = -1 -> (if Qfloor X mod N =? c - a then if diff then (- scale)%Q else round64 (1 - (if diff then scale else round64 (X - inject_Z (Qfloor X))))
        else if (Qfloor X + 1) mod N =? c - a then if diff then scale else round64 (X - inject_Z (Qfloor X)) else 0%Q) =
        if Qfloor x + 1 =? c then if diff then scale else round64 (X - inject_Z (Qfloor X)) else 0%Q).
    { intros Fm. rewrite Fm. destruct (outside (-1) N a n ltac:(lia) Hn Han ltac:(lia)) as [O1 O2]. rewrite O1.
      destruct (Z.eqb_spec (-1 + N) (c - a)) as [?|_]; [lia|]. change (-1 + 1) with 0. rewrite Z.mod_0_l by lia.
      destruct (Z.eqb_spec 0 (c - a)); destruct (Z.eqb_spec (Qfloor x + 1) c); try lia; reflexivity. }
    destruct (Qlt_le_dec x 1) as [Hlt|Hge].
    + (* the first cell *)
      assert (Ha1 : a = 1). { assert (Qfloor x <= 0) by (apply floor_ub; exact Hlt). lia. }
      destruct Hap as [Hap|Hap]; [lra|]. destruct diff; [|contradiction].
      assert (F : Qfloor X = -1).
      { apply floor_is; [subst a; exact HXl|]. change (inject_Z (-1 + 1)) with 0%Q.
        apply Qle_lt_trans with (inject_Z (-1) * Qpower 2 (-53))%Q; [|reflexivity].
        apply round_ub; [apply round64_exact; lia|]. subst a. change (inject_Z (- (1))) with (- (1))%Q.
        assert (Hx3 : (x <= 1 - Qpower 2 (-53))%Q).
        { destruct (Qlt_le_dec x (1 # 2)) as [Q2|Q2]; [assert (Qpower 2 (-53) <= 1 # 2)%Q by discriminate; lra|].
          destruct D as [q D]. rewrite D in Q2, Hlt |- *. destruct (double_grid q (-1) ltac:(lia) Q2) as [m Em].
          change (-1 - 52) with (-53) in Em. rewrite Em in *.
          assert (E1 : (1 == inject_Z (2 ^ 53) * Qpower 2 (-53))%Q) by reflexivity.
          assert (E2 : (1 - Qpower 2 (-53) == inject_Z (2 ^ 53 - 1) * Qpower 2 (-53))%Q) by reflexivity.
          rewrite E1 in Hlt. rewrite E2. apply Qmult_lt_r in Hlt; [|reflexivity]. rewrite <- Zlt_Qlt in Hlt.
          apply Qmult_le_compat_r; [|discriminate]. rewrite <- Zle_Qle. lia. }
        assert (E3 : (inject_Z (-1) * Qpower 2 (-53) == - Qpower 2 (-53))%Q) by reflexivity. rewrite E3. lra. }
      cbv beta iota in Fl |- *. rewrite (Fl F). reflexivity.
    + destruct (Exact (sub_after x a D ltac:(lia) Hge Hx1 Hxa)) as [F V]. rewrite Fl by lia. rewrite F.
      destruct (Qfloor x + 1 =? c); [|reflexivity]. destruct diff; [reflexivity|exact V].
  - (* not next to the block *)
    destruct (Z.eqb_spec (Qfloor x + 1) c) as [?|_]; [lia|].
    assert (Hx1 : (x < inject_Z (a - 1))%Q).
    { eapply Qlt_le_trans; [apply Qlt_floor|]. apply inj_le. lia. }
    unfold Z.sub in Hx1. rewrite inject_Z_plus in Hx1. change (inject_Z (- (1))) with (- (1))%Q in Hx1.
    assert (HXu : (X <= inject_Z (-1))%Q).
    { apply round_ub; [apply round64_int; lia|]. change (inject_Z (-1)) with (- (1))%Q. rewrite inject_Z_opp. lra. }
    assert (Hfu : Qfloor X <= -1). { apply floor_ub. eapply Qle_lt_trans; [exact HXu|]. reflexivity. }
    destruct (outside (Qfloor X) N a n ltac:(lia) Hn Han ltac:(lia)) as [O1 O2]. rewrite O1.
    destruct (Z.eqb_spec (Qfloor X + N) (c - a)) as [?|_]; [lia|].
    destruct (Z.eq_dec (Qfloor X) (-1)) as [Fm|Fm].
    2:{ destruct (outside (Qfloor X + 1) N a n ltac:(lia) Hn Han ltac:(lia)) as [O3 O4]. rewrite O3.
        destruct (Z.eqb_spec (Qfloor X + 1 + N) (c - a)) as [?|_]; [lia|reflexivity]. }
    (* rounded up to the next cell: the weight is zero *)
    rewrite Fm. change (-1 + 1) with 0. rewrite Z.mod_0_l by lia. destruct (0 =? c - a); [|reflexivity].
    assert (EX : (X == inject_Z (-1))%Q).
    { apply Qle_antisym; [exact HXu|]. rewrite <- Fm. apply Qfloor_le. }
    destruct diff; [|eapply Qeq_trans; [apply round64_compat; rewrite EX; apply Qplus_opp_r|reflexivity]].
    exfalso. destruct (Qlt_le_dec x 1) as [Hlt|Hge].
    + destruct Hap as [Hap|Hap]; [lra|]. assert (A3 : (inject_Z 3 <= inject_Z a)%Q) by (apply inj_le; lia). change (inject_Z 3) with 3%Q in A3.
      assert (U : (X <= inject_Z (-2))%Q) by (apply round_ub; [apply round64_int; lia|rewrite inject_Z_opp; change (inject_Z (-2)) with (- (2))%Q; lra]).
      rewrite EX, <- Zle_Qle in U. lia.
    + destruct (octave x D Hge Hx2) as (k & m & Hk & Hm & E). pose proof (K_pos k Hk) as HK. set (K := 2 ^ (51 - k)) in *.
      assert (K2 : K <= 2 ^ 51) by (apply Z.pow_le_mono_r; lia).
      assert (Hma : m < 2 * K * (a - 1)).
      { apply (u_inv k). pose proof (K_int k Hk (a - 1)) as KA. fold K in KA. rewrite <- KA, <- E. unfold Z.sub. rewrite inject_Z_plus.
        change (inject_Z (- (1))) with (- (1))%Q. lra. }
      assert (U : (X <= inject_Z (- (2 * K) - 1) * Qpower 2 (k - 52))%Q).
      { apply round_ub; [apply (u_rep k Hk); lia|]. rewrite (sub_eq x a k m Hk E). apply (u_le k). fold K. lia. }
      assert (V : (inject_Z (- (2 * K) - 1) * Qpower 2 (k - 52) < inject_Z (-1))%Q).
      { pose proof (K_int k Hk (-1)) as KA. fold K in KA. rewrite KA. apply (u_lt k). lia. }
      lra.
Qed.

(** the weights of an axis are exact *)
Lemma fcic_one scale a N pos : 2 <= N -> 0 <= a < N -> N <= 2 ^ 31 -> (1 <= round64 (pos * scale) <= inject_Z (2 ^ 31))%Q ->
  (inject_Z a <= round64 (pos * scale))%Q ->
  let x := round64 (pos * scale) in
  Forall2 (fun e e' => fst e = fst e' /\ (snd e == snd e')%Q) (fcic round64 false scale a N pos)
    [((Qfloor x - a)%Z mod N, 1 - (x - inject_Z (Qfloor x))); ((Qfloor x + 1 - a) mod N, x - inject_Z (Qfloor x))]%Q.
Proof.
  intros HN Ha HN2 [Hx0 Hx2] Hax x0. subst x0. unfold fcic.
  assert (D : double (round64 (pos * scale))) by (eexists; reflexivity).
  set (x := round64 (pos * scale)) in *. cbv zeta. pose proof (sub_exact x a D ltac:(lia) Hax Hx2) as EX.
  set (X := round64 (x + inject_Z (- a))) in *.
  destruct (octave x D Hx0 Hx2) as (k & m & Hk & Hm & E). pose proof (K_pos k Hk) as HK. set (K := 2 ^ (51 - k)) in *.
  assert (K2 : K <= 2 ^ 51) by (apply Z.pow_le_mono_r; lia).
  assert (EV : (X - inject_Z (Qfloor X) == inject_Z (m - 2 * K * Qfloor x) * Qpower 2 (k - 52))%Q).
  { rewrite (floor_eq _ _ EX), floor_sub, EX. unfold K. rewrite <- (sub_eq x (Qfloor x) k m Hk E).
    unfold Z.sub. rewrite !inject_Z_plus, !inject_Z_opp. ring. }
  assert (B : 0 <= m - 2 * K * Qfloor x < 2 * K).
  { pose proof (Qfloor_le x) as L1. pose proof (Qlt_floor x) as L2. pose proof (K_int k Hk (Qfloor x)) as A1. pose proof (K_int k Hk (Qfloor x + 1)) as A2. fold K in A1, A2.
    split.
    - apply Z.nlt_ge. intros C. assert (C' : m < 2 * K * Qfloor x) by lia. apply (u_lt k) in C'. rewrite <- A1, <- E in C'. lra.
    - assert (m < 2 * K * (Qfloor x + 1)); [|lia]. apply (u_inv k). rewrite <- A2, <- E. exact L2. }
  set (v := m - 2 * K * Qfloor x) in *.
  assert (V1 : (round64 (X - inject_Z (Qfloor X)) == inject_Z v * Qpower 2 (k - 52))%Q).
  { eapply Qeq_trans; [apply round64_compat, EV|]. apply (u_rep k Hk). lia. }
  assert (One : (1 == inject_Z (2 * K) * Qpower 2 (k - 52))%Q).
  { pose proof (K_int k Hk 1) as A. fold K in A. rewrite Z.mul_1_r in A. exact A. }
  assert (V0 : (round64 (1 - round64 (X - inject_Z (Qfloor X))) == inject_Z (2 * K - v) * Qpower 2 (k - 52))%Q).
  { assert (A : (1 - round64 (X - inject_Z (Qfloor X)) == inject_Z (2 * K - v) * Qpower 2 (k - 52))%Q).
    { rewrite V1, One. unfold Z.sub. rewrite inject_Z_plus, inject_Z_opp. ring. }
    eapply Qeq_trans; [apply round64_compat, A|]. apply (u_rep k Hk). lia. }
  assert (EF : (inject_Z v * Qpower 2 (k - 52) == x - inject_Z (Qfloor x))%Q).
  { unfold v, K. rewrite <- (sub_eq x (Qfloor x) k m Hk E). now rewrite inject_Z_opp. }
  pose proof (floor_eq _ _ EX) as FX. rewrite floor_sub in FX. rewrite !wrap_ud_mod by lia.
  constructor; [|constructor; [|constructor]]; cbn [fst snd]; split.
  - now rewrite FX.
  - rewrite V0. unfold Z.sub at 1. rewrite inject_Z_plus, inject_Z_opp, Qmult_plus_distr_l, <- One, <- EF. ring.
  - rewrite FX. f_equal. lia.
  - now rewrite V1.
Qed.
Lemma double_grid_neg q k : -1022 <= k -> (round64 q <= - Qpower 2 k)%Q -> exists m, (round64 q == inject_Z m * Qpower 2 (k - 52))%Q.
Proof.
  intros Hk H. destruct (round64_format q) as (m & e & Hm & He & E). destruct (Z_le_gt_dec (k - 52) e) as [G|G].
  - exists (m * 2 ^ (e - (k - 52))). rewrite E, inject_Z_mult. rewrite <- qpow_int by lia. rewrite <- Qmult_assoc, <- qpow_plus.
    replace (e - (k - 52) + (k - 52)) with e by lia. reflexivity.
  - exfalso. rewrite E in H. apply (Qlt_irrefl (- Qpower 2 k)). eapply Qlt_le_trans; [|exact H].
    apply Qle_lt_trans with (inject_Z (- 2 ^ 53) * Qpower 2 e)%Q.
    + rewrite inject_Z_opp, <- qpow_int by lia. assert (P : (Qpower 2 53 * Qpower 2 e <= Qpower 2 k)%Q) by (rewrite <- qpow_plus; apply qpow_le; lia). lra.
    + apply Qmult_lt_compat_r; [apply qpow_pos|]. rewrite <- Zlt_Qlt. lia.
Qed.
(** a block that begins at cell one, and a particle of the first cell *)
Lemma fcic_first scale n N pos c : 2 <= N -> 0 <= n -> 1 + n <= N -> N <= 2 ^ 31 ->
  (0 <= round64 (pos * scale))%Q -> (round64 (pos * scale) < 1)%Q -> 1 <= c < 1 + n ->
  (Qabs (entry1 (fcic round64 false scale 1 N pos) (c - 1) - entry1 (fcic round64 false scale 0 N pos) c) <= Qpower 2 (-53))%Q.
Proof.
  intros HN Hn Han HN2 Hx0 Hlt Hc. unfold fcic.
  assert (D : double (round64 (pos * scale))) by (eexists; reflexivity).
  set (x := round64 (pos * scale)) in *. cbv zeta. rewrite !entry1_pair, !wrap_ud_mod by lia.
  assert (E0 : (round64 (x + inject_Z (- 0)) == x)%Q).
  { change (inject_Z (- 0)) with 0%Q. eapply Qeq_trans; [apply round64_compat, Qplus_0_r|now apply double_fix]. }
  assert (F : Qfloor x = 0) by (apply floor_is; assumption).
  rewrite (floor_eq _ _ E0), F. change (0 + 1) with 1. rewrite Z.mod_0_l, (Z.mod_small 1) by lia.
  change (inject_Z (- (1))) with (- (1))%Q. set (X := round64 (x + - (1))).
  assert (Hx3 : (1 # 2 <= x)%Q -> exists m, (x == inject_Z m * Qpower 2 (-53))%Q /\ m <= 2 ^ 53 - 1).
  { intros Q2. destruct D as [q D]. rewrite D in Q2, Hlt |- *. destruct (double_grid q (-1) ltac:(lia) Q2) as [m Em].
    change (-1 - 52) with (-53) in Em. exists m. split; [exact Em|]. rewrite Em in Hlt.
    assert (E1 : (1 == inject_Z (2 ^ 53) * Qpower 2 (-53))%Q) by reflexivity.
    rewrite E1 in Hlt. apply Qmult_lt_r in Hlt; [|reflexivity]. rewrite <- Zlt_Qlt in Hlt. lia. }
  assert (P53 : (Qpower 2 (-53) == 1 # 9007199254740992)%Q) by reflexivity.
  assert (HX : exists m, (X == inject_Z m * Qpower 2 (-53))%Q /\ - 2 ^ 53 <= m <= -1 /\ (Qabs (X - (x - 1)) <= Qpower 2 (-53))%Q).
  { assert (ER : (Qabs (X - (x + - (1))) <= Qpower 2 (0 - 53))%Q).
    { apply round64_error; [lia|]. change (Qpower 2 0) with 1%Q. apply Qabs_case; lra. }
    assert (L : (inject_Z (-1) <= X)%Q) by (apply round_lb; [apply (round64_int (-1)); lia|change (inject_Z (-1)) with (- (1))%Q; lra]).
    assert (G : exists m, (X == inject_Z m * Qpower 2 (-53))%Q /\ m <= -1).
    { destruct (Qlt_le_dec x (1 # 2)) as [Q2|Q2].
      - assert (U : (X <= - (1 # 2))%Q) by (apply (round_ub _ (- (1 # 2))); [apply (half_int (-1)); lia|lra]).
        destruct (double_grid_neg (x + - (1)) (-1) ltac:(lia) U) as [m Em]. fold X in Em. change (-1 - 52) with (-53) in Em. exists m. split; [exact Em|].
        apply Z.nlt_ge. intros C. assert (C' : (0 <= inject_Z m * Qpower 2 (-53))%Q).
        { apply Qmult_le_0_compat; [apply (inj_le 0); lia|discriminate]. } rewrite <- Em in C'. lra.
      - destruct (Hx3 Q2) as (m & Em & Hm). exists (m - 2 ^ 53). split; [|lia].
        assert (A : (x + - (1) == inject_Z (m - 2 ^ 53) * Qpower 2 (-53))%Q).
        { rewrite Em. unfold Z.sub. rewrite inject_Z_plus. assert (E1 : (inject_Z (- 2 ^ 53) * Qpower 2 (-53) == - (1))%Q) by reflexivity. rewrite <- E1. ring. }
        assert (0 <= m).
        { apply Z.nlt_ge. intros C. assert (C' : (inject_Z m * Qpower 2 (-53) <= inject_Z 0 * Qpower 2 (-53))%Q).
          { apply Qmult_le_compat_r; [apply inj_le; lia|discriminate]. } rewrite <- Em in C'. change (inject_Z 0) with 0%Q in C'. lra. }
        eapply Qeq_trans; [apply round64_compat, A|]. apply round64_exact; lia. }
    destruct G as (m & Em & Hm). exists m. split; [exact Em|]. split.
    - split; [|exact Hm]. rewrite Em in L. assert (E1 : (inject_Z (-1) == inject_Z (- 2 ^ 53) * Qpower 2 (-53))%Q) by reflexivity.
      rewrite E1 in L. apply Qmult_le_r in L; [|reflexivity]. rewrite <- Zle_Qle in L. exact L.
    - change (0 - 53) with (-53) in ER. exact ER. }
  destruct HX as (m & Em & Hm & Er).
  assert (FX : Qfloor X = -1).
  { assert (E1 : (inject_Z (-1) == inject_Z (- 2 ^ 53) * Qpower 2 (-53))%Q) by reflexivity.
    apply floor_is; [rewrite E1, Em; apply Qmult_le_compat_r; [apply inj_le; lia|discriminate]|].
    rewrite Em. apply Qle_lt_trans with (inject_Z (-1) * Qpower 2 (-53))%Q; [apply Qmult_le_compat_r; [apply inj_le; lia|discriminate]|reflexivity]. }
  rewrite FX. destruct (outside (-1) N 1 n ltac:(lia) Hn Han ltac:(lia)) as [O1 O2]. rewrite O1.
  destruct (Z.eqb_spec (-1 + N) (c - 1)) as [?|_]; [lia|]. change (-1 + 1) with 0. rewrite Z.mod_0_l by lia.
  destruct (Z.eqb_spec 0 c) as [?|_]; [lia|]. destruct (Z.eqb_spec 0 (c - 1)) as [Hc1|Hc1]; destruct (Z.eqb_spec 1 c) as [Hc2|Hc2]; try lia;
    [|apply (Qle_trans _ 0); [apply Qle_refl|discriminate]].
  assert (V : (round64 (X - inject_Z (-1)) == X + 1)%Q).
  { assert (A : (X - inject_Z (-1) == inject_Z (m + 2 ^ 53) * Qpower 2 (-53))%Q).
    { rewrite Em, inject_Z_plus. assert (E1 : (inject_Z (2 ^ 53) * Qpower 2 (-53) == 1)%Q) by reflexivity. change (inject_Z (-1)) with (- (1))%Q. rewrite Qmult_plus_distr_l, E1. ring. }
    eapply Qeq_trans; [apply round64_compat, A|]. eapply Qeq_trans; [apply round64_exact; lia|]. rewrite <- A. change (inject_Z (-1)) with (- (1))%Q. ring. }
  assert (W : (round64 (round64 (x + inject_Z (- 0)) - inject_Z 0) == x)%Q).
  { eapply Qeq_trans; [|apply (double_fix x D)]. apply round64_compat. rewrite E0. change (inject_Z 0) with 0%Q. ring. }
  rewrite V, W. eapply Qle_trans; [|exact Er]. apply Qle_lteq. right. apply Qabs_wd. ring.
Qed.
