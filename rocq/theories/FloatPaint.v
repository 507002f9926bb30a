(** Property C72: the nearest window in doubles, over ranks. *)
From Coq Require Import List Arith ZArith QArith Qround Qabs Qpower Lqa Lia Bool Sorted.
From Verif Require Import Base ListFacts LayoutModel LayoutSpec LayoutProofs LayoutModes LayoutMore WrapModel WrapProofs
  DomainModel DomainFill DomainGeom DomainTargets DomainHome DomainAssign DomainProperties FloatModel FloatRound FloatDomain FloatProperties FloatNearest.
Import ListNotations.
Local Close Scope Q_scope.
Local Open Scope Z_scope.

Lemma sub_exact x a : double x -> 0 <= a -> (inject_Z a <= x)%Q -> (x <= inject_Z (2 ^ 31))%Q ->
  (round64 (x + inject_Z (- a)) == x + inject_Z (- a))%Q.
Proof.
  intros D Ha Hax Hx. destruct (Z.eq_dec a 0) as [->|Ha0].
  { change (inject_Z (- 0)) with 0%Q. eapply Qeq_trans; [apply round64_compat, Qplus_0_r|]. rewrite Qplus_0_r. now apply double_fix. }
  destruct (octave x D) as (k & m & Hk & Hm & E); [eapply Qle_trans; [|exact Hax]; apply (inj_le 1); lia|exact Hx|].
  pose proof (K_pos k Hk) as HK. set (K := 2 ^ (51 - k)) in *.
  assert (Hma : 2 * K * a <= m).
  { rewrite E, (K_int k Hk a) in Hax. apply Z.nlt_ge. intros C. apply (u_lt k) in C. fold K in Hax. lra. }
  eapply Qeq_trans; [apply round64_compat, (sub_eq x a k m Hk E)|]. rewrite (sub_eq x a k m Hk E). fold K. apply (u_rep k Hk). nia.
Qed.

Definition int_axis (z : list Z) : list Q := map inject_Z z.
Lemma int_E z k : (k < length z)%nat -> E (int_axis z) k = inject_Z (nth k z 0).
Proof. intros H. unfold E, int_axis. change 0%Q with (inject_Z 0). apply map_nth. Qed.
Lemma int_period z : period (int_axis z) = inject_Z (last z 0).
Proof. unfold period, int_axis. induction z as [|a [|b z] IH]; [reflexivity|reflexivity|]. exact IH. Qed.
Lemma int_sorted z i j : axis_ok (int_axis z) -> (i <= j < length z)%nat -> nth i z 0 <= nth j z 0.
Proof.
  intros He [H1 H2]. rewrite Zle_Qle, <- !int_E by lia.
  apply (E_mono (int_axis z) He); [exact H1|unfold int_axis; rewrite map_length; lia].
Qed.
Lemma int_pos z : axis_ok (int_axis z) -> 0 < last z 0.
Proof. intros He. rewrite Zlt_Qlt, <- int_period. apply (ax_pos _ He). Qed.
Lemma int_len z : length (int_axis z) = length z.
Proof. apply map_length. Qed.
Lemma int_block z k : axis_ok (int_axis z) -> (S k < length z)%nat ->
  0 <= nth k z 0 /\ 0 <= nth (S k) z 0 - nth k z 0 /\ nth k z 0 + (nth (S k) z 0 - nth k z 0) <= last z 0.
Proof.
  intros He Hk. pose proof (int_sorted z k (S k) He ltac:(lia)).
  pose proof (E_nonneg _ He k ltac:(rewrite int_len; lia)) as A. pose proof (E_le_L _ He (S k) ltac:(rewrite int_len; lia)) as B.
  rewrite int_E in A, B by lia. rewrite int_period in B. change 0%Q with (inject_Z 0) in A. rewrite <- Zle_Qle in A, B. lia.
Qed.
(** the block of a cell *)
Lemma int_find z c : axis_ok (int_axis z) -> 0 <= c < last z 0 -> exists k, (S k < length z)%nat /\ nth k z 0 <= c < nth (S k) z 0.
Proof.
  intros He Hc. destruct (digitize_own _ He (inject_Z c)) as (k & _ & Hk & H1 & H2).
  - apply (inj_le 0). lia.
  - rewrite int_period. rewrite <- Zlt_Qlt. lia.
  - rewrite int_len in Hk. exists k. rewrite int_E in H1, H2 by lia. rewrite <- Zle_Qle in H1. rewrite <- Zlt_Qlt in H2. split; [lia|lia].
Qed.
Lemma int_unique z c j k : axis_ok (int_axis z) -> (S j < length z)%nat -> (S k < length z)%nat ->
  nth j z 0 <= c < nth (S j) z 0 -> nth k z 0 <= c < nth (S k) z 0 -> j = k.
Proof.
  intros He Hj Hk H1 H2. destruct (lt_eq_lt_dec j k) as [[L|E]|L]; [|exact E|].
  - pose proof (int_sorted z (S j) k He ltac:(lia)). lia.
  - pose proof (int_sorted z (S k) j He ltac:(lia)). lia.
Qed.
Lemma qrem_floor y N : 0 < N -> Qfloor (qrem y (inject_Z N)) = Qfloor y mod N.
Proof.
  intros HN. assert (HQ : (0 < inject_Z N)%Q) by (rewrite <- (Zlt_Qlt 0); exact HN).
  destruct (qrem_bounds y _ HQ) as [B1 B2]. destruct (qrem_shift y (inject_Z N)) as [m Em].
  pose proof (Z.mod_pos_bound (Qfloor y) N HN) as MB. pose proof (Z.div_mod (Qfloor y) N ltac:(lia)) as DM.
  assert (F : Qfloor (qrem y (inject_Z N)) = Qfloor y + m * N).
  { apply floor_is; rewrite Em; unfold iz.
    - rewrite inject_Z_plus, inject_Z_mult. pose proof (Qfloor_le y). lra.
    - rewrite !inject_Z_plus, inject_Z_mult. pose proof (Qlt_floor y) as H. rewrite inject_Z_plus in H. lra. }
  pose proof (floor_lb _ 0 B1) as G1. assert (G2 : Qfloor (qrem y (inject_Z N)) < N) by (rewrite Zlt_Qlt; eapply Qle_lt_trans; [apply Qfloor_le|exact B2]).
  rewrite F in *. apply Z.mod_unique with (- m); [left; lia|]. lia.
Qed.
(** decompose reaches the block of the cell *)
Lemma fpatch_cell z x k : axis_ok (int_axis z) -> last z 0 <= 2 ^ 31 -> double x -> (0 <= x <= inject_Z (2 ^ 31))%Q -> (S k < length z)%nat ->
  nth k z 0 <= Qfloor (round64 (x + (1 # 2))) mod last z 0 < nth (S k) z 0 ->
  exists t, fst (fpatch round64 (int_axis z) (1 # 2) x) <= t < snd (fpatch round64 (int_axis z) (1 # 2) x) /\
    t mod ndom (int_axis z) = Z.of_nat k.
Proof.
  intros He HN D [Hx0 Hx2] Hk Hc. pose proof (int_pos z He) as HN0. set (N := last z 0) in *.
  pose proof (ax_pos _ He) as HL. unfold fpatch. cbv zeta. rewrite (frem_pos round64 x _ HL Hx0).
  set (c := qrem x (period (int_axis z))). destruct (qrem_bounds x _ HL) as [C1 C2]. fold c in C1, C2.
  assert (Hc0 : (0 <= round64 (c + (1 # 2)))%Q) by (apply round_lb; [apply (round64_int 0); lia|lra]).
  rewrite (frem_pos round64 (round64 (c + (1 # 2))) _ HL Hc0).
  assert (R : digitize (qrem (round64 (c + (1 # 2))) (period (int_axis z))) (int_axis z) = Z.of_nat (S k)).
  { assert (F : Qfloor (qrem (round64 (c + (1 # 2))) (period (int_axis z))) = Qfloor (round64 (x + (1 # 2))) mod N).
    { rewrite int_period. fold N. rewrite qrem_floor by exact HN0.
      destruct (qrem_shift x (period (int_axis z))) as [m Em]. fold c in Em. rewrite int_period in Em. fold N in Em.
      assert (Ec : (c == x + inject_Z (- (- m * N)))%Q).
      { rewrite Em. unfold iz. rewrite <- inject_Z_mult. replace (- (- m * N)) with (m * N) by ring. reflexivity. }
      assert (Hm : 0 <= - m * N).
      { assert (m <= 0); [|nia]. apply Z.nlt_ge. intros C. assert (Hp : (inject_Z N <= inject_Z (m * N))%Q) by (apply inj_le; nia).
        rewrite int_period in C2. fold N in C2. unfold iz in Em. rewrite <- inject_Z_mult in Em. lra. }
      assert (Hmx : (inject_Z (- m * N) <= x)%Q).
      { rewrite inject_Z_opp in Ec. lra. }
      assert (Fc : Qfloor (round64 (c + (1 # 2))) = Qfloor (round64 (x + (1 # 2))) - (- m * N)).
      { destruct (Z.eq_dec (- m * N) 0) as [Z0|Z0].
        - rewrite Z0 in *. rewrite Z.sub_0_r. apply floor_eq, round64_compat. rewrite Ec. change (inject_Z (- 0)) with 0%Q. ring.
        - rewrite <- (cell_from x (- m * N) D) by (assumption || lia). apply floor_eq, round64_compat.
          rewrite (sub_exact x _ D Hm Hmx Hx2), Ec. reflexivity. }
      rewrite Fc. replace (Qfloor (round64 (x + (1 # 2))) - - m * N) with (Qfloor (round64 (x + (1 # 2))) + m * N) by ring. apply Z.mod_add. lia. }
    apply (digitize_at _ He k); rewrite ?int_len, ?int_E by lia; [lia| |].
    - eapply Qle_trans; [|apply Qfloor_le]. apply inj_le. rewrite F. lia.
    - eapply Qlt_le_trans; [apply Qlt_floor|]. apply inj_le. rewrite F. lia. }
  rewrite R. set (p := digitize c (int_axis z)). rewrite (ndom_n _ He), int_len. cbn [fst snd].
  assert (Hn : 0 < Z.of_nat (length z - 1)) by lia.
  exists (p - 1 + (Z.of_nat (S k) - p) mod Z.of_nat (length z - 1)). split.
  - pose proof (Z.mod_pos_bound (Z.of_nat (S k) - p) _ Hn). match goal with |- _ - ?a mod ?b - 1 <= _ < _ => pose proof (Z.mod_pos_bound a b Hn) end. lia.
  - rewrite Zplus_mod_idemp_r. replace (p - 1 + (Z.of_nat (S k) - p)) with (Z.of_nat k) by lia. apply Z.mod_small. lia.
Qed.

(** ** n dimensions *)
(** the positions in cells, pm.py:1787-1789 *)
Definition scaled (scales : list Q) (pos : list Q) : list Q := map (fun p => round64 (snd p * fst p)%Q) (combine scales pos).
(** the local cell that the block [ks] of the mesh finds for a particle *)
Fixpoint fcell (scales : list Q) (zs : list (list Z)) (ks : list Z) (pos : list Q) : option (list Z) :=
  match zs, scales, ks, pos with
  | [], _, _, _ => Some []
  | z :: zs, s :: ss, k :: ks, x :: xs =>
      let a := nth (Z.to_nat k) z 0 in
      match fnnb round64 s a (nth (S (Z.to_nat k)) z 0 - a) (last z 0) x, fcell ss zs ks xs with
      | Some i, Some is => Some (i :: is)
      | _, _ => None
      end
  | _, _, _, _ => None
  end.
Definition starts (zs : list (list Z)) (ks : list Z) : list Z := map (fun p => nth (Z.to_nat (snd p)) (fst p) 0) (combine zs ks).
Definition undivided (zs : list (list Z)) : list (list Z) := map (fun z => [0; last z 0]) zs.
(** positions in [0, 2^31] cells *)
Definition inbox (scales : list Q) (pos : list Q) : Prop := Forall (fun x => (0 <= x <= inject_Z (2 ^ 31))%Q) (scaled scales pos).

Lemma cell_split scales zs pos : Forall (fun z => axis_ok (int_axis z) /\ last z 0 <= 2 ^ 31) zs -> length scales = length zs ->
  (length zs <= length pos)%nat -> inbox scales pos ->
  exists ks l c, valid_index (map ndom (map int_axis zs)) ks /\
    fcell scales zs ks pos = Some l /\ fcell scales (undivided zs) (map (fun _ => 0) zs) pos = Some c /\
    c = map (fun p => fst p + snd p) (combine (starts zs ks) l) /\
    (forall ks', valid_index (map ndom (map int_axis zs)) ks' -> ks' <> ks -> fcell scales zs ks' pos = None) /\
    exists p, In p (box (fpatches round64 true (map int_axis zs) (map (fun _ => 1 # 2)%Q zs) (scaled scales pos))) /\
      wrap_index true (map ndom (map int_axis zs)) p = ks.
Proof.
  intros Hz. revert scales pos. induction Hz as [|z zs [He HN] _ IH]; intros scales pos Hl Hp Hb.
  - exists [], [], []. split; [constructor|]. split; [now destruct scales|]. split; [now destruct scales|]. split; [reflexivity|]. split.
    + intros ks' Hv Hne. inversion Hv; subst. contradiction.
    + exists []. cbn. split; [left; reflexivity|reflexivity].
  - destruct scales as [|s scales]; [discriminate|]. destruct pos as [|x pos]; [cbn in Hp; lia|].
    unfold inbox, scaled in Hb. cbn [combine map fst snd] in Hb. inversion Hb as [|? ? Hx Hb']; subst.
    destruct (IH scales pos) as (ks & l & c & Hv & Hf & Hu & Hc & Hn & p & Hpb & Hw); [cbn in Hl; lia|cbn in Hp; lia|exact Hb'|]. clear IH.
    pose proof (int_pos z He) as HN0. pose proof (Z.mod_pos_bound (Qfloor (round64 (round64 (x * s) + (1 # 2)))) _ HN0) as Hg.
    fold (cell64 s (last z 0) x) in Hg. destruct (int_find z _ He Hg) as (k & Hk & Hck).
    assert (HF : forall k', (S k' < length z)%nat -> fnnb round64 s (nth k' z 0) (nth (S k') z 0 - nth k' z 0) (last z 0) x =
       (let g := cell64 s (last z 0) x in if (nth k' z 0 <=? g) && (g <? nth (S k') z 0) then Some (g - nth k' z 0) else None)).
    { intros k' Hk'. destruct (int_block z k' He Hk') as (B1 & B2 & B3). rewrite fnnb_block by assumption. cbv zeta.
      replace (nth k' z 0 + (nth (S k') z 0 - nth k' z 0)) with (nth (S k') z 0) by lia. reflexivity. }
    assert (HD : ndom (int_axis z) = Z.of_nat (length z - 1)) by (rewrite (ndom_n _ He), int_len; reflexivity).
    exists (Z.of_nat k :: ks), (cell64 s (last z 0) x - nth k z 0 :: l), (cell64 s (last z 0) x :: c).
    split; [constructor; [rewrite HD; lia|exact Hv]|].
    split.
    { cbn [fcell]. rewrite Nat2Z.id, (HF k Hk), Hf. cbv zeta. destruct (Z.leb_spec (nth k z 0) (cell64 s (last z 0) x)); [|lia].
      destruct (Z.ltb_spec (cell64 s (last z 0) x) (nth (S k) z 0)); [reflexivity|lia]. }
    split.
    { cbn [fcell undivided map nth last Z.to_nat]. fold (undivided zs). rewrite Hu. rewrite fnnb_block by (assumption || lia). cbv zeta.
      destruct (Z.leb_spec 0 (cell64 s (last z 0) x)); [|lia]. destruct (Z.ltb_spec (cell64 s (last z 0) x) (0 + (last z 0 - 0))); [|lia].
      cbn. now rewrite Z.sub_0_r. }
    split. { cbn. fold (starts zs ks). rewrite <- Hc. f_equal. rewrite Nat2Z.id. lia. }
    split.
    { intros ks' Hv' Hne. inversion Hv' as [|? k' ? ks'' Hk' Hks']; subst. cbn [fcell]. rewrite HD in Hk'.
      destruct (Nat.eq_dec (Z.to_nat k') k) as [Ek|Ek].
      - rewrite (Hn ks'' Hks'). { now destruct (fnnb _ _ _ _ _ _). } intros ->. apply Hne. f_equal. lia.
      - rewrite (HF (Z.to_nat k') ltac:(lia)). cbv zeta. destruct (Z.leb_spec (nth (Z.to_nat k') z 0) (cell64 s (last z 0) x)) as [L1|L1]; [|reflexivity].
        destruct (Z.ltb_spec (cell64 s (last z 0) x) (nth (S (Z.to_nat k')) z 0)) as [L2|L2]; [|reflexivity].
        exfalso. apply Ek. apply (int_unique z (cell64 s (last z 0) x)); [exact He|lia|lia|lia|lia]. }
    destruct (fpatch_cell z (round64 (x * s)) k He HN ltac:(eexists; reflexivity) Hx Hk Hck) as (t & Ht & Et).
    exists (t :: p). split.
    + apply in_box. cbn. constructor; [exact Ht|apply in_box; exact Hpb].
    + unfold wrap_index in *. cbn. now rewrite Hw, Et.
Qed.

(** Every particle at non-negative coordinates is sent to exactly one rank that has
    its cell, and the cell is the one found without dividing the mesh. *)
Theorem C72_nearest : forall P g zs scales poss, g_edges g = map int_axis zs -> Forall (fun z => last z 0 <= 2 ^ 31) zs ->
  setting P g (scaled scales) (map (fun _ => 1 # 2)%Q zs) poss -> periodic_axes g -> regular g -> length scales = length zs ->
  (forall pos x, In pos poss -> In x pos -> (length zs <= length x)%nat /\ inbox scales x) ->
  exists args, map (fdecompose round64 P g (scaled scales) (map (fun _ => 1 # 2)%Q zs)) poss = map Ret args /\ length args = P /\ wf_args args /\
    forall s i, (s < P)%nat -> (i < length (nth s poss []))%nat -> let x := particle poss s i in
      exists ks l c, valid_index (g_dims g) ks /\ In (s, i) (tags args (owner g ks)) /\
        fcell scales zs ks x = Some l /\
        fcell scales (undivided zs) (map (fun _ => 0) zs) x = Some c /\
        c = map (fun p => fst p + snd p) (combine (starts zs ks) l) /\
        forall ks', valid_index (g_dims g) ks' -> ks' <> ks -> fcell scales zs ks' x = None.
Proof.
  intros P g zs scales poss Hedges HN H Hp Hreg Hls Hbox.
  destruct (setting_fdecompose round64 P g _ _ poss H Hp) as (args & E1 & E2 & E3 & E4 & E5).
  exists args. split; [exact E1|]. split; [exact E2|]. split; [exact E3|]. intros s i Hs Hi. cbv zeta.
  destruct H as [Hg Ha Hw Hin]. destruct (particle_in poss s i ltac:(lia) Hi) as [P1 P2]. pose proof (Hin _ _ P1 P2) as Hx.
  destruct (Hbox _ _ P1 P2) as [Hlx Hbx].
  assert (HZ : Forall (fun z => axis_ok (int_axis z) /\ last z 0 <= 2 ^ 31) zs).
  { destruct Hp as [_ Hax]. rewrite Hedges, Forall_map in Hax. rewrite Forall_forall in *. intros z Hz. split; [now apply Hax|now apply HN]. }
  destruct (cell_split scales zs (particle poss s i) HZ Hls Hlx Hbx) as (ks & l & c & Hv & Hf & Hu & Hc & Hn & p & Hpb & Hwr).
  exists ks, l, c. unfold g_dims. rewrite Hedges. split; [exact Hv|]. split; [|repeat split; assumption].
  destruct (ftargets_ok round64 P g _ _ Hg Hp Hx) as (_ & _ & T3 & T4).
  assert (Hthick : exists y, inside g y ks).
  { (* the block has a cell *)
    exists (map (fun p => E (fst p) (Z.to_nat (snd p))) (combine (g_edges g) ks)). unfold inside, g_dims. rewrite Hedges. split; [exact Hv|].
    clear - HZ Hf Hv Hls Hlx. revert scales HZ ks l Hf Hv Hls Hlx. generalize (particle poss s i). induction zs as [|z zs IH]; intros x scales HZ ks l Hf Hv Hls Hlx; [inversion Hv; subst; exact Logic.I|].
    inversion HZ as [|? ? [He HN] HZ']; subst. inversion Hv as [|? k ? ks' Hk Hks]; subst. destruct scales as [|s' ss]; [discriminate|]. destruct x as [|x0 x]; [cbn in Hlx; lia|].
    cbn [fcell] in Hf. destruct (fnnb round64 s' _ _ _ x0) as [i0|] eqn:Ef; [|discriminate]. destruct (fcell ss zs ks' x) as [l'|] eqn:El; [|discriminate].
    cbn [combine map all_axes fst snd]. split; [|apply (IH x ss HZ' ks' l' El Hks); [cbn in Hls; lia|cbn in Hlx; lia]].
    exists 0. unfold iz. change (inject_Z 0) with 0%Q. rewrite (ndom_n _ He), int_len in Hk.
    unfold fnnb in Ef. cbv zeta in Ef. destruct (Z.leb_spec 0 (wrap_ud (last z 0) (Qfloor (round64 (round64 (round64 (x0 * s') + inject_Z (- nth (Z.to_nat k) z 0)) + (1 # 2)))))) as [L1|L1]; [|discriminate].
    destruct (Z.ltb_spec (wrap_ud (last z 0) (Qfloor (round64 (round64 (round64 (x0 * s') + inject_Z (- nth (Z.to_nat k) z 0)) + (1 # 2))))) (nth (S (Z.to_nat k)) z 0 - nth (Z.to_nat k) z 0)) as [L2|L2]; [|discriminate].
    rewrite !int_E by lia. split; [lra|]. assert (inject_Z (nth (Z.to_nat k) z 0%Z) < inject_Z (nth (S (Z.to_nat k)) z 0%Z))%Q by (rewrite <- Zlt_Qlt; lia). lra. }
  destruct Hthick as [y Hy].
  assert (Ht : In (owner g ks) (ftargets_of round64 g (map (fun _ => 1 # 2)%Q zs) (scaled scales (particle poss s i)))).
  { apply T4. exists p. unfold fpatch_of. rewrite (proj1 Hp), Hedges. split; [exact Hpb|]. unfold g_dims. rewrite Hedges, Hwr. split; [reflexivity|].
    apply (regular_flags P g Hg Hreg); [exact (proj1 Hy)|exact (inside_thick _ _ _ Hy)]. }
  pose proof (T3 _ Ht) as Ho. apply in_tags; [lia|]. rewrite E5 by assumption. apply sent_to_in. now split.
Qed.
Print Assumptions C72_nearest.

(** four cells on two ranks, doubles in cells of size one *)
Definition np_grid : grid := mkGrid [int_axis [0; 4; 8]] true [0; 1]%nat (degenerate_flags [int_axis [0; 4; 8]]).
Definition np_half : Q := (1 # 2) - Qpower 2 (-54).
Example C72_case : setting 2 np_grid (scaled [1]%Q) [1 # 2]%Q [[[7 # 2]; [0]]; [[31 # 4]; [12]]]%Q /\ periodic_axes np_grid /\ regular np_grid /\
  (forall x, In x [7 # 2; 0; 31 # 4; 12]%Q -> inbox [1]%Q [x]) /\
  map (fdecompose round64 2 np_grid (scaled [1]%Q) [1 # 2]%Q) [[[7 # 2]; [0]]; [[31 # 4]; [12]]]%Q
  = [Ret (2, [2; 2], [0; 1; 0; 1]); Ret (2, [2; 2], [0; 1; 0; 1])]%nat /\
  map (fun x => map (fun k => fcell [1]%Q [[0; 4; 8]] [k] [x]) [0; 1]) [7 # 2; 0; 31 # 4; 12]%Q
  = [[None; Some [0]]; [Some [0]; None]; [Some [0]; None]; [None; Some [0]]] /\
  (* the largest double below 1/2 goes to cell 1, on one rank and on two *)
  map (fun z => map (fun k => fcell [1]%Q [z] [k] [np_half]) [0; 1]) [[0; 1; 8]; [0; 4; 8]] = [[None; Some [0]]; [Some [1]; None]].
Proof.
  assert (W : wf_grid 2 np_grid /\ periodic_axes np_grid /\ regular np_grid).
  { split; [|split].
    - constructor; try reflexivity; repeat constructor; cbn; lia.
    - split; [reflexivity|]. constructor; [|constructor]. constructor; try reflexivity; [cbn; lia|].
      repeat constructor; try (unfold Qle; cbn; lia).
    - split; [reflexivity|]. right. reflexivity. }
  split; [|split; [apply W|split; [apply W|split; [|split; [vm_compute; reflexivity|split; vm_compute; reflexivity]]]]].
  - constructor; [apply W|apply periodic_wf_axes, W|reflexivity|].
    intros pos x Hpos Hx. cbn in Hpos, Hx. assert (length x = 1%nat).
    { destruct Hpos as [<-|[<-|[]]]; cbn in Hx; intuition (subst; reflexivity). }
    split; [reflexivity|]. split; [repeat constructor; discriminate|]. destruct x as [|? [|]]; try discriminate. cbn. lia.
  - intros x Hx. cbn in Hx. destruct Hx as [<-|[<-|[<-|[<-|[]]]]]; (constructor; [split; vm_compute; discriminate|constructor]).
Qed.
(** Outside of the box this is not so: at -1/2 - 2^-53, a double, the first rank
    finds cell 7 and the second one cell 8: nobody paints the particle. *)
Theorem C72_negative_refuted : let x := (- (1 # 2) - Qpower 2 (-53))%Q in (round64 x == x)%Q /\
  map (fun k => fcell [1]%Q [[0; 4; 8]] [k] [x]) [0; 1] = [None; None] /\
  fcell [1]%Q [[0; 8]] [0] [x] = Some [7].
Proof. vm_compute. repeat split. Qed.
Print Assumptions C72_negative_refuted.
