(** Properties of white noise: C48 (independence of the decomposition), C49 (reality),
    C50 (independence of the resolution), C51 (every mode is written, every column has
    a seed of its own). *)
From Coq Require Import List Arith ZArith QArith Lia Bool Permutation.
From Verif Require Import Base ListFacts WrapModel WrapProofs DomainFill MeshModel MeshRoute MeshTile RingModel FieldModel FieldFacts FieldProperties FourierProperties RanluxModel RanluxProofs NoiseModel NoiseFacts.
Import ListNotations.
Local Close Scope Q_scope.
Local Open Scope Z_scope.

(** ** indices *)
Lemma op_val N i : 0 <= i < N -> (- i) mod N = if i =? 0 then 0 else N - i.
Proof.
  intros H. destruct (Z.eqb_spec i 0) as [->|Hi]; [now rewrite Zmod_0_l|]. symmetry. apply Z.mod_unique_pos with (q := -1); lia.
Qed.
Lemma rem_val N i : 0 <= i < N -> Z.rem (N - i) N = if i =? 0 then 0 else N - i.
Proof.
  intros H. rewrite Z.rem_mod_nonneg by lia. destruct (Z.eqb_spec i 0) as [->|Hi]; [rewrite Z.sub_0_r, Z_mod_same_full; reflexivity|].
  apply Z.mod_small. lia.
Qed.
Lemma conj_val N i : 0 <= i < N -> conjugate N i = if i =? 0 then 0 else N - i.
Proof.
  intros H. unfold conjugate. rewrite Z.geb_leb. destruct (Z.eqb_spec i 0) as [E|E]; destruct (Z.leb_spec N (N - i)); lia.
Qed.
Definition oi (N i : Z) : Z := if i =? 0 then 0 else N - i.
Lemma oi_range N i : 0 <= i < N -> 0 <= oi N i < N.
Proof. unfold oi. intros H. destruct (Z.eqb_spec i 0); lia. Qed.
Lemma oi_inv N i : 0 <= i < N -> oi N (oi N i) = i.
Proof. unfold oi. intros H. destruct (Z.eqb_spec i 0) as [->|E]; [reflexivity|]. destruct (Z.eqb_spec (N - i) 0); lia. Qed.

(** ** the calls of SETSEED, in signed indices *)
Definition signed_ring (i : Z) : list (Z * Z) :=
  map (fun j => (i, j)) (range i) ++
  map (fun j => (j, i)) (range (i + 1)) ++
  map (fun j => (-1 - i, j)) (range i) ++
  map (fun j => (-1 - j, i)) (range (i + 1)) ++
  map (fun j => (i, -1 - j)) (range i) ++
  map (fun j => (j, -1 - i)) (range (i + 1)) ++
  map (fun j => (-1 - i, -1 - j)) (range i) ++
  map (fun j => (-1 - j, -1 - i)) (range (i + 1)).
Definition signed_calls (h : Z) : list (Z * Z) := flat_map signed_ring (range h).
Definition wrap (N a : Z) : Z := if a <? 0 then a + N else a.
Definition wrap2 (N : Z) (p : Z * Z) : Z * Z := (wrap N (fst p), wrap N (snd p)).

Lemma ring_calls_wrap N i : 0 <= i -> ring_calls N N i = map (wrap2 N) (signed_ring i).
Proof.
  intros Hi. unfold ring_calls, signed_ring. rewrite !map_app, !map_map.
  assert (E : forall n (f g : Z -> Z * Z), (forall j, 0 <= j < n -> f j = g j) -> map f (range n) = map g (range n)).
  { intros n f g H. apply map_ext_in. intros j Hj. apply H. now apply in_range_iff. }
  repeat (f_equal; [apply E; intros j Hj; unfold wrap2, wrap; cbn [fst snd]; f_equal;
    repeat match goal with |- context [?x <? 0] => destruct (Z.ltb_spec x 0) end; lia|]).
  apply E; intros j Hj; unfold wrap2, wrap; cbn [fst snd]; f_equal;
    repeat match goal with |- context [?x <? 0] => destruct (Z.ltb_spec x 0) end; lia.
Qed.
Lemma seed_calls_wrap N : seed_calls N N = map (wrap2 N) (signed_calls (N / 2)).
Proof.
  unfold seed_calls, signed_calls. rewrite map_flat_map. apply flat_map_ext_in. intros i Hi. apply in_range_iff in Hi. apply ring_calls_wrap. lia.
Qed.
Lemma signed_ring_in i a b : In (a, b) (signed_ring i) <->
  (-1 - i <= a <= i /\ -1 - i <= b <= i /\ (a = i \/ a = -1 - i \/ b = i \/ b = -1 - i) /\ 0 <= i).
Proof.
  unfold signed_ring. rewrite !in_app_iff, !in_map_iff. split.
  - intros H. repeat match goal with H : _ \/ _ |- _ => destruct H as [H|H] end; destruct H as (j & E & Hj); apply in_range_iff in Hj; apply pair_equal_spec in E; destruct E; lia.
  - intros (Ha & Hb & [H|[H|[H|H]]] & Hi).
    + destruct (Z.eq_dec b i) as [E|E].
      { right; left. exists a. assert (0 <= a) by lia. split; [f_equal; lia|]. apply in_range_iff. lia. }
      destruct (Z.eq_dec b (-1 - i)) as [E2|E2].
      { do 5 right; left. exists a. split; [f_equal; lia|]. apply in_range_iff. lia. }
      destruct (Z.le_gt_cases 0 b).
      { left. exists b. split; [f_equal; lia|]. apply in_range_iff. lia. }
      do 4 right; left. exists (-1 - b). split; [f_equal; lia|]. apply in_range_iff. lia.
    + destruct (Z.eq_dec b i) as [E|E].
      { do 3 right; left. exists (-1 - a). split; [f_equal; lia|]. apply in_range_iff. lia. }
      destruct (Z.eq_dec b (-1 - i)) as [E2|E2].
      { do 7 right. exists (-1 - a). split; [f_equal; lia|]. apply in_range_iff. lia. }
      destruct (Z.le_gt_cases 0 b).
      { do 2 right; left. exists b. split; [f_equal; lia|]. apply in_range_iff. lia. }
      do 6 right; left. exists (-1 - b). split; [f_equal; lia|]. apply in_range_iff. lia.
    + destruct (Z.le_gt_cases 0 a).
      { right; left. exists a. split; [f_equal; lia|]. apply in_range_iff. lia. }
      do 3 right; left. exists (-1 - a). split; [f_equal; lia|]. apply in_range_iff. lia.
    + destruct (Z.le_gt_cases 0 a).
      { do 5 right; left. exists a. split; [f_equal; lia|]. apply in_range_iff. lia. }
      do 7 right. exists (-1 - a). split; [f_equal; lia|]. apply in_range_iff. lia.
Qed.
Lemma signed_calls_in h a b : In (a, b) (signed_calls h) <-> (- h <= a < h /\ - h <= b < h).
Proof.
  unfold signed_calls. rewrite in_flat_map. split.
  - intros (i & Hi & H). apply in_range_iff in Hi. apply signed_ring_in in H. lia.
  - intros [Ha Hb].
    set (pa := if a <? 0 then -1 - a else a). set (pb := if b <? 0 then -1 - b else b).
    exists (Z.max pa pb). unfold pa, pb. rewrite in_range_iff, signed_ring_in. destruct (Z.ltb_spec a 0), (Z.ltb_spec b 0); lia.
Qed.
Lemma range_length n : length (range n) = Z.to_nat n.
Proof. apply zrange_length. Qed.
Lemma signed_calls_length h : 0 <= h -> length (signed_calls h) = Z.to_nat (4 * h * h).
Proof.
  intros H. rewrite <- (Z2Nat.id h H). generalize (Z.to_nat h) as n. clear h H. unfold signed_calls, range.
  induction n as [|n IH]; [reflexivity|]. rewrite Nat2Z.id in *.
  replace (Datatypes.S n) with (n + 1)%nat by lia. rewrite zrange_app, flat_map_app, app_length, IH. cbn [zrange flat_map].
  rewrite app_nil_r. unfold signed_ring. rewrite !app_length, !map_length, !range_length. lia.
Qed.
Lemma signed_calls_app h h' : 0 <= h <= h' -> signed_calls h' = signed_calls h ++ flat_map signed_ring (zrange h (Z.to_nat (h' - h))).
Proof.
  intros H. unfold signed_calls, range. replace (Z.to_nat h') with (Z.to_nat h + Z.to_nat (h' - h))%nat by lia.
  rewrite zrange_app, flat_map_app. now rewrite Z2Nat.id by lia.
Qed.
Lemma calls_range N a b : 0 < N -> In (a, b) (seed_calls N N) -> 0 <= a < N /\ 0 <= b < N.
Proof.
  intros HN. rewrite seed_calls_wrap, in_map_iff. intros ((x & y) & E & H). apply signed_calls_in in H. unfold wrap2, wrap in E. cbn [fst snd] in E.
  assert (D : 2 * (N / 2) <= N) by (apply Z.mul_div_le; lia).
  destruct (Z.ltb_spec x 0), (Z.ltb_spec y 0); apply pair_equal_spec in E; destruct E; lia.
Qed.

(** all pairs of indices *)
Definition plane (N : Z) : list (Z * Z) := flat_map (fun a => map (fun b => (a, b)) (range N)) (range N).
Lemma in_plane N a b : In (a, b) (plane N) <-> 0 <= a < N /\ 0 <= b < N.
Proof.
  unfold plane. rewrite in_flat_map. split.
  - intros (x & Hx & H). apply in_map_iff in H. destruct H as (y & E & Hy). apply in_range_iff in Hx, Hy. apply pair_equal_spec in E; destruct E; lia.
  - intros [Ha Hb]. exists a. split; [now apply in_range_iff|]. apply in_map_iff. exists b. split; [reflexivity|now apply in_range_iff].
Qed.
Lemma calls_cover N a b : Z.even N = true -> 0 <= a < N -> 0 <= b < N -> In (a, b) (seed_calls N N).
Proof.
  intros Ev Ha Hb. apply Z.even_spec in Ev. destruct Ev as [h ->]. rewrite seed_calls_wrap. replace (2 * h / 2) with h by (rewrite Z.mul_comm, Z.div_mul; lia).
  apply in_map_iff. exists (if a <? h then a else a - 2 * h, if b <? h then b else b - 2 * h). rewrite signed_calls_in. unfold wrap2, wrap. cbn [fst snd].
  split; [f_equal|]; destruct (Z.ltb_spec a h), (Z.ltb_spec b h);
    repeat match goal with |- context [?x <? 0] => destruct (Z.ltb_spec x 0) end; lia.
Qed.
Lemma plane_NoDup N : NoDup (plane N).
Proof.
  unfold plane, range. generalize (zrange_NoDup 0 (Z.to_nat N)). generalize (zrange 0 (Z.to_nat N)) at 1 3 as l.
  induction l as [|x l IH]; intros H; [constructor|]. inversion H; subst. cbn [flat_map]. apply NoDup_app_intro.
  - apply FinFun.Injective_map_NoDup; [intros p q E; now injection E|apply zrange_NoDup].
  - now apply IH.
  - intros p Hp Hq. apply in_map_iff in Hp. destruct Hp as (y & <- & _). apply in_flat_map in Hq. destruct Hq as (z & Hz & Hq).
    apply in_map_iff in Hq. destruct Hq as (w & E & _). injection E as -> _. contradiction.
Qed.
Lemma plane_length N : 0 <= N -> length (plane N) = Z.to_nat (N * N).
Proof.
  intros HN. unfold plane. assert (E : forall l : list Z, length (flat_map (fun a => map (fun b => (a, b)) (range N)) l) = (length l * Z.to_nat N)%nat).
  { induction l as [|x l IH]; [reflexivity|]. cbn [flat_map]. rewrite app_length, IH, map_length, range_length. cbn [length]. lia. }
  rewrite E, range_length. lia.
Qed.
Lemma seed_calls_length N : Z.even N = true -> 0 < N -> length (seed_calls N N) = Z.to_nat (N * N).
Proof.
  intros Ev HN. apply Z.even_spec in Ev. destruct Ev as [h ->]. rewrite seed_calls_wrap, map_length.
  replace (2 * h / 2) with h by (rewrite Z.mul_comm, Z.div_mul; lia). rewrite signed_calls_length by lia. f_equal. lia.
Qed.
Lemma seed_calls_NoDup N : Z.even N = true -> 0 < N -> NoDup (seed_calls N N).
Proof.
  intros Ev HN. apply (NoDup_incl_NoDup (plane_NoDup N)).
  - rewrite seed_calls_length, plane_length by (auto; lia). reflexivity.
  - intros [a b] H. apply in_plane in H. apply calls_cover; tauto.
Qed.

Lemma fold_left_ext_in {X Y} (f g : X -> Y -> X) l : (forall a b, In b l -> f a b = g a b) -> forall a, fold_left f l a = fold_left g l a.
Proof.
  induction l as [|y l IH]; intros H a; [reflexivity|]. cbn [fold_left]. rewrite (H a y (or_introl eq_refl)). apply IH. intros; apply H; now right.
Qed.
Lemma fold_left_map {X Y W} (f : X -> Y -> X) (h : W -> Y) l : forall a, fold_left f (map h l) a = fold_left (fun a w => f a (h w)) l a.
Proof. induction l as [|y l IH]; intros a; [reflexivity|]. cbn. apply IH. Qed.
Lemma combine_in_l {X Y} (l : list X) (m : list Y) x y : In (x, y) (combine l m) -> In x l.
Proof. apply in_combine_l. Qed.

Section Noise.
Variable K : cring.
Add Ring Kr : (rth K).
Local Notation C := (cpx K).
Variables (S A : Type).
Variable rng_set : Z -> S.
Variable uniform : S -> Z * S.
Variable sample : S -> A * S.
Variable polar : bool -> A -> C.
Local Notation fill := (generic_fill K S A rng_set uniform sample polar).
Local Notation entry := (entry S rng_set uniform).
Local Notation nval := (nval K S A rng_set uniform sample polar).

(** ** the seeds of opposite columns *)
Lemma entry_conj N seed a b : 0 < N -> 0 <= a < N -> 0 <= b < N -> entry true N N seed a b = entry false N N seed (oi N a) (oi N b).
Proof.
  intros HN Ha Hb. unfold NoiseFacts.entry, pick. apply fold_left_ext_in. intros acc [[i j] s] H. unfold stream in H. apply in_combine_l in H.
  apply calls_range in H; [|exact HN]. destruct H as [Hi Hj]. cbn [fst snd mirror]. rewrite !rem_val by lia.
  assert (E : forall i a, 0 <= i < N -> 0 <= a < N -> ((if i =? 0 then 0 else N - i) =? a) = (i =? oi N a)).
  { clear. intros i a Hi Ha. unfold oi. destruct (Z.eqb_spec i 0), (Z.eqb_spec a 0);
    repeat match goal with |- context [?x =? ?y] => destruct (Z.eqb_spec x y) end; lia. }
  now rewrite !E.
Qed.

(** ** the value of a mode, for an even last axis *)
Definition lower2 (N0 N1 i j : Z) : bool := ((oi N0 i =? i) && (oi N1 j <? j)) || (oi N0 i <? i).
Lemma lower_flag_val g i j : 0 <= i < gN0 g -> 0 <= j < gN1 g -> lower_flag g i j = lower2 (gN0 g) (gN1 g) i j.
Proof.
  intros Hi Hj. unfold lower_flag, lower2. rewrite !conj_val by lia. fold (oi (gN0 g) i) (oi (gN1 g) j).
  now destruct (oi (gN0 g) i =? i), (oi (gN1 g) j <? j), (oi (gN0 g) i <? i), (oi (gN1 g) j =? j).
Qed.
Definition selfc (N0 N1 N2 i j q : Z) : bool := (oi N0 i =? i) && (oi N1 j =? j) && (oi N2 q =? q).
Definition settle (N0 N1 N2 : Z) (u flip : bool) (i j q : Z) (z : C) : C :=
  if (i =? 0) && (j =? 0) && (q =? 0) then (r0, r0)
  else if selfc N0 N1 N2 i j q then ((if u then r1 else fst z), r0)
  else if flip then cconj z else z.
Lemma self_conjugate_val g i j q : 0 <= i < gN0 g -> 0 <= j < gN1 g -> 0 <= q < gN2 g ->
  self_conjugate g i j q = selfc (gN0 g) (gN1 g) (gN2 g) i j q.
Proof. intros. unfold self_conjugate, selfc, oi. now rewrite !rem_val by lia. Qed.
Lemma nval_val N0 N1 N2 u seed i j q : 0 <= i < N0 -> 0 <= j < N1 -> 0 <= q < N2 ->
  let big := N2 / 2 <? q in
  let m := if big then N2 - q else q in
  let uc := lower2 N0 N1 i j && ((m =? 0) || (m =? N2 / 2)) in
  nval N0 N1 N2 u seed i j q =
  settle N0 N1 N2 u (xorb big uc) i j q (polar u (sample_at S A sample (Z.to_nat m) (rng_set (entry (big || uc) N0 N1 seed i j)))).
Proof.
  intros Hi Hj Hq. cbv zeta. unfold NoiseFacts.nval, settle. rewrite Z.leb_antisym. set (big := N2 / 2 <? q). set (m := if big then N2 - q else q).
  replace (if negb big then q else N2 - q) with m by (unfold m; destruct big; reflexivity).
  assert (El : lower_flag (bare N0 N1 N2) i j = lower2 N0 N1 i j) by (apply (lower_flag_val (bare N0 N1 N2)); assumption).
  unfold use_conj. rewrite El. set (uc := lower2 N0 N1 i j && _).
  assert (Em : (if (if negb big then 1 else -1) =? -1 then N2 - m else m) = q) by (unfold m; destruct big; cbn; lia).
  replace (if uc then true else negb ((if negb big then 1 else -1) =? 1)) with (big || uc) by (destruct big, uc; reflexivity).
  set (a := sample_at S A sample _ _). unfold finish. destruct (polar u a) as [re im]. cbn [gN2 bare].
  assert (Es : self_conjugate (bare N0 N1 N2) i j q = selfc N0 N1 N2 i j q) by (apply (self_conjugate_val (bare N0 N1 N2)); assumption).
  destruct big; cbn [negb Z.eqb] in *; unfold m in *; cbn [Z.eqb Pos.eqb] in *.
  - replace (N2 - (N2 - q)) with q by lia. destruct uc; cbn [orb xorb]; rewrite Es;
      destruct (selfc _ _ _ _ _ _), ((i =? 0) && (j =? 0) && (q =? 0)); cbn [fst snd]; try reflexivity.
    f_equal. ring.
  - destruct uc; cbn [orb xorb]; rewrite Es; destruct (selfc _ _ _ _ _ _), ((i =? 0) && (j =? 0) && (q =? 0)); reflexivity.
Qed.

(** ** C49 on the closed form *)
Lemma oi_self_half N i h : N = 2 * h -> 0 <= i < N -> oi N i =? i = (i =? 0) || (i =? h).
Proof. intros -> H. unfold oi. destruct (Z.eqb_spec i 0), (Z.eqb_spec i h); cbn [orb]; apply Z.eqb_eq || apply Z.eqb_neq; lia. Qed.
Lemma nval_opposite N h u seed i j q : 0 <= i < N -> 0 <= j < N -> 0 <= q < 2 * h ->
  nval N N (2 * h) u seed (oi N i) (oi N j) (oi (2 * h) q) = cconj (nval N N (2 * h) u seed i j q).
Proof.
  intros Hi Hj Hq.
  pose proof (oi_range N i Hi) as Hi'. pose proof (oi_range N j Hj) as Hj'. pose proof (oi_range (2 * h) q Hq) as Hq'.
  assert (Hh : 2 * h / 2 = h) by (rewrite Z.mul_comm, Z.div_mul; lia).
  rewrite !nval_val by assumption. rewrite Hh. cbv zeta. unfold settle.
  assert (Es : selfc N N (2 * h) (oi N i) (oi N j) (oi (2 * h) q) = selfc N N (2 * h) i j q).
  { unfold selfc. rewrite !oi_inv by assumption. now rewrite (Z.eqb_sym i), (Z.eqb_sym j), (Z.eqb_sym q). }
  rewrite Es.
  assert (Z0 : forall M x, 0 <= x < M -> (oi M x =? 0) = (x =? 0)).
  { intros M x Hx. unfold oi. destruct (Z.eqb_spec x 0); [reflexivity|]. apply Z.eqb_neq. lia. }
  rewrite !Z0 by assumption.
  destruct ((i =? 0) && (j =? 0) && (q =? 0)) eqn:Ez; [unfold cconj; cbn; f_equal; ring|].
  destruct (selfc N N (2 * h) i j q) eqn:Ec.
  { unfold selfc in Ec. rewrite !andb_true_iff, !Z.eqb_eq in Ec. destruct Ec as [[-> ->] ->]. unfold cconj. cbn. f_equal. ring. }
  set (big := h <? q). set (big' := h <? oi (2 * h) q). set (m := if big then 2 * h - q else q). set (m' := if big' then 2 * h - oi (2 * h) q else oi (2 * h) q).
  set (edge := (m =? 0) || (m =? h)).
  assert (Em : m' = m). { unfold m', m, big', big, oi. destruct (Z.eqb_spec q 0); repeat match goal with |- context [?x <? ?y] => destruct (Z.ltb_spec x y) end; lia. }
  rewrite Em. fold edge.
  assert (Eb : big' = negb big && negb edge).
  { unfold edge, big', m, big, oi. destruct (Z.eqb_spec q 0); repeat match goal with |- context [?x <? ?y] => destruct (Z.ltb_spec x y) | |- context [?x =? ?y] => destruct (Z.eqb_spec x y) end; cbn; lia. }
  assert (El : edge = true -> lower2 N N (oi N i) (oi N j) = negb (lower2 N N i j)).
  { intros He. unfold lower2. rewrite !oi_inv by assumption. unfold selfc in Ec. rewrite !andb_false_iff, !Z.eqb_neq in Ec.
    assert (Eq : oi (2 * h) q = q).
    { apply Z.eqb_eq. rewrite (oi_self_half _ _ h) by (auto; lia). unfold edge, m, big in He. destruct (Z.ltb_spec h q); [|exact He].
      apply orb_true_iff in He. rewrite !Z.eqb_eq in He. lia. }
    destruct (Z.eqb_spec (oi N i) i), (Z.eqb_spec i (oi N i)), (Z.ltb_spec (oi N j) j), (Z.ltb_spec (oi N i) i), (Z.ltb_spec j (oi N j)), (Z.ltb_spec i (oi N i)); cbn; try reflexivity; exfalso; lia. }
  assert (Ee : edge = true -> big = false).
  { unfold edge, m, big. destruct (Z.ltb_spec h q); [|reflexivity]. intros E. apply orb_true_iff in E. rewrite !Z.eqb_eq in E. lia. }
  assert (X : forall d, entry (negb d) N N seed (oi N i) (oi N j) = entry d N N seed i j).
  { intros [|]; cbn [negb]; [symmetry; now rewrite entry_conj by (auto; lia)|]. rewrite entry_conj by (auto; lia). now rewrite !oi_inv. }
  rewrite Eb. destruct edge eqn:Ed.
  - rewrite (Ee eq_refl), (El eq_refl). cbn [andb negb orb xorb]. rewrite !andb_true_r. rewrite X.
    destruct (lower2 N N i j); cbn [xorb negb]; [symmetry; apply cconj_involutive|reflexivity].
  - rewrite !andb_false_r. rewrite andb_true_r. rewrite !orb_false_r, !xorb_false_r. rewrite X.
    destruct big; cbn [xorb negb]; [symmetry; apply cconj_involutive|reflexivity].
Qed.
Lemma nval_real N h u seed i j q : 0 <= i < N -> 0 <= j < N -> 0 <= q < 2 * h ->
  oi N i = i -> oi N j = j -> oi (2 * h) q = q -> im (nval N N (2 * h) u seed i j q) = r0.
Proof.
  intros Hi Hj Hq Ei Ej Eq. rewrite nval_val by assumption. unfold settle, selfc. rewrite Ei, Ej, Eq, !Z.eqb_refl. cbn [andb].
  destruct ((i =? 0) && (j =? 0) && (q =? 0)); reflexivity.
Qed.

(** ** the distributed field *)
(** the last axis: N2/2+1 modes are stored, split in any way, or it is stored in full
    on every rank *)
Definition last_axis {V} (N2 Z2 : Z) (Ls : list (lfield V)) : Prop :=
  Z2 = N2 / 2 + 1 \/
  (Z2 = N2 /\ forall L, In L Ls -> lcells L <> [] -> nth 2 (lstart L) 0 = 0 /\ nth 2 (lshape L) 0 = N2).
Local Notation generate := (generate_whitenoise K S A rng_set uniform sample polar).
Definition mode3 (f : Z -> Z -> Z -> C) (k : list Z) : C := f (nth 0 k 0) (nth 1 k 0) (nth 2 k 0).
Lemma list3 (k : list Z) : length k = 3%nat -> k = [nth 0 k 0; nth 1 k 0; nth 2 k 0].
Proof. destruct k as [|a [|b [|c [|d k]]]]; cbn; intros H; try discriminate; reflexivity. Qed.

Lemma generate_value {V} N0 N1 N2 Z2 u seed mean (Ls : list (lfield V)) : 0 < N2 -> tiles [N0; N1; Z2] Ls -> last_axis N2 Z2 Ls ->
  holds (generate [N0; N1; N2] u seed mean Ls)
        (fun k => Some (if is_zero_mode [N0; N1; N2] k then mean else mode3 (nval N0 N1 N2 u seed) k)).
Proof.
  intros HN T La. unfold holds, generate_whitenoise. rewrite Forall_map. apply Forall_forall. intros L HL.
  unfold whitenoise_local. cbn [lvals lcells lstart lshape]. unfold lcells at 2. cbn [lstart lshape]. fold (lcells L).
  apply map_ext_in. intros k Hk. destruct (is_zero_mode _ k); [reflexivity|].
  pose proof (tl_dim _ _ T) as TD. rewrite Forall_forall in TD. destruct (TD L HL) as [D1 D2]. cbn [length] in D1, D2.
  assert (Hin : forall k, In k (lcells L) <-> length k = 3%nat /\ forall i, (i < 3)%nat -> nth i (lstart L) 0 <= nth i k 0 < nth i (lstart L) 0 + nth i (lshape L) 0) by (intros; now apply in_lcells).
  assert (Hc : forall k, In k (lcells L) -> 0 <= nth 2 k 0 < Z2).
  { intros k' Hk'. apply (tiles_cell _ _ _ _ T HL) in Hk'. apply in_cells_of in Hk'. destruct Hk' as [_ H]. apply (H 2%nat). cbn. lia. }
  pose proof Hk as Hk0. apply Hin in Hk. destruct Hk as [Lk Hk].
  pose proof (Hk 0%nat ltac:(lia)) as H0. pose proof (Hk 1%nat ltac:(lia)) as H1. pose proof (Hk 2%nat ltac:(lia)) as H2.
  rewrite (list3 k Lk) at 1. unfold mode3. rewrite fill_value; [reflexivity| | | |].
  - split; [exact HN|]. cbn [gN2 gs2 gz2 generator_of nth]. destruct La as [E|[E F]].
    + left. assert (Lo : In [nth 0 k 0; nth 1 k 0; nth 2 (lstart L) 0] (lcells L)).
      { apply Hin. split; [reflexivity|]. intros [|[|[|i]]] Hi; cbn [nth]; lia. }
      assert (Hi : In [nth 0 k 0; nth 1 k 0; nth 2 (lstart L) 0 + nth 2 (lshape L) 0 - 1] (lcells L)).
      { apply Hin. split; [reflexivity|]. intros [|[|[|i]]] Hi; cbn [nth]; lia. }
      apply Hc in Lo, Hi. cbn [nth] in Lo, Hi. lia.
    + right. apply (F L HL). intros E0. rewrite E0 in Hk0. destruct Hk0.
  - cbn [gs0 gz0 generator_of]. lia.
  - cbn [gs1 gz1 generator_of]. lia.
  - unfold has_mode. cbn [gs2 gz2 generator_of]. rewrite andb_true_iff, Z.leb_le, Z.ltb_lt. lia.
Qed.

Lemma lcells_generate {V} Nmesh u seed mean (L : lfield V) : lcells (whitenoise_local K S A rng_set uniform sample polar Nmesh u seed mean L) = lcells L.
Proof. reflexivity. Qed.
Lemma generated {V} N0 N1 N2 Z2 u seed mean (Ls : list (lfield V)) f : 0 < N2 -> tiles [N0; N1; Z2] Ls -> last_axis N2 Z2 Ls ->
  holds (generate [N0; N1; N2] u seed mean Ls) (fun k => Some (f k)) ->
  forall k, In k (cells_of [N0; N1; Z2]) -> f k = if is_zero_mode [N0; N1; N2] k then mean else mode3 (nval N0 N1 N2 u seed) k.
Proof.
  intros HN T La H k Hk. pose proof (generate_value N0 N1 N2 Z2 u seed mean Ls HN T La) as G.
  destruct (tiles_rank _ _ _ T Hk) as (L & HL & HkL). unfold holds, generate_whitenoise in *. rewrite Forall_map, Forall_forall in H, G.
  specialize (H L HL). specialize (G L HL). rewrite G, lcells_generate in H. clear G.
  assert (E : forall (l : list (list Z)) (p q : list Z -> option C), map p l = map q l -> forall k, In k l -> p k = q k).
  { clear. induction l as [|x l IH]; intros p q E k []; injection E; intros; subst; auto. }
  pose proof (E _ _ _ H k HkL) as E1. cbv beta in E1. congruence.
Qed.

(** *** C48 and C51: there is one field, whatever the decomposition, and every mode of
    every rank gets its value *)
Theorem C48_decomposition_independent : forall N0 N1 N2 Z2 u seed mean, 0 < N2 -> exists f : list Z -> C,
  forall V (Ls : list (lfield V)), tiles [N0; N1; Z2] Ls -> last_axis N2 Z2 Ls ->
  holds (generate [N0; N1; N2] u seed mean Ls) (fun k => Some (f k)).
Proof. intros. eexists. intros V Ls T L. now apply (generate_value N0 N1 N2 Z2). Qed.
(** the two ways of storing the last axis agree *)
Theorem C48_compression_independent : forall V W N0 N1 N2 u seed mean (Ls : list (lfield V)) (Ms : list (lfield W)) f g,
  0 < N2 -> tiles [N0; N1; N2 / 2 + 1] Ls -> tiles [N0; N1; N2] Ms -> last_axis N2 N2 Ms ->
  holds (generate [N0; N1; N2] u seed mean Ls) (fun k => Some (f k)) ->
  holds (generate [N0; N1; N2] u seed mean Ms) (fun k => Some (g k)) ->
  forall k, In k (cells_of [N0; N1; N2 / 2 + 1]) -> In k (cells_of [N0; N1; N2]) -> f k = g k.
Proof.
  intros V W N0 N1 N2 u seed mean Ls Ms f g HN T1 T2 La Hf Hg k H1 H2.
  rewrite (generated N0 N1 N2 (N2 / 2 + 1) u seed mean Ls f HN T1 (or_introl eq_refl) Hf k H1).
  now rewrite (generated N0 N1 N2 N2 u seed mean Ms g HN T2 La Hg k H2).
Qed.

(** *** C49 *)
Lemma signed_zero N i : 0 <= i < N -> (signed_index N i =? 0) = (2 <=? N) && (i =? 0).
Proof.
  intros H. unfold signed_index. assert (D : 0 <= N / 2) by (apply Z.div_pos; lia).
  destruct (Z.leb_spec 2 N) as [H2|H2]; cbn [andb].
  - assert (1 <= N / 2) by (apply Z.div_le_lower_bound; lia). destruct (Z.leb_spec (N / 2) i); [|reflexivity].
    destruct (Z.eqb_spec (i - N) 0), (Z.eqb_spec i 0); lia.
  - assert (N = 1) by lia. subst N. assert (i = 0) by lia. now subst i.
Qed.
Lemma zero_mode_val N0 N1 N2 i j q : 0 <= i < N0 -> 0 <= j < N1 -> 0 <= q < N2 ->
  is_zero_mode [N0; N1; N2] [i; j; q] = (2 <=? N0) && (2 <=? N1) && (2 <=? N2) && ((i =? 0) && (j =? 0) && (q =? 0)).
Proof.
  intros. unfold is_zero_mode. cbn [combine forallb fst snd]. rewrite !signed_zero by assumption.
  destruct (2 <=? N0), (2 <=? N1), (2 <=? N2), (i =? 0), (j =? 0), (q =? 0); reflexivity.
Qed.
Lemma cells3 N0 N1 Z2 k : In k (cells_of [N0; N1; Z2]) -> exists i j q, k = [i; j; q] /\ 0 <= i < N0 /\ 0 <= j < N1 /\ 0 <= q < Z2.
Proof.
  intros H. apply in_cells_of in H. destruct H as [L H]. exists (nth 0 k 0), (nth 1 k 0), (nth 2 k 0). split; [now apply list3|].
  split; [exact (H 0%nat ltac:(cbn; lia))|]. split; [exact (H 1%nat ltac:(cbn; lia))|exact (H 2%nat ltac:(cbn; lia))].
Qed.
Lemma opposite3 N0 N1 N2 i j q : 0 <= i < N0 -> 0 <= j < N1 -> 0 <= q < N2 ->
  opposite [N0; N1; N2] [i; j; q] = [oi N0 i; oi N1 j; oi N2 q].
Proof. intros. unfold opposite, map2. cbn [combine map fst snd]. now rewrite !op_val by assumption. Qed.
Lemma z2_le N2 Z2 {V} (Ls : list (lfield V)) : 2 <= N2 -> last_axis N2 Z2 Ls -> Z2 <= N2.
Proof. intros H [-> | [-> _]]; [|lia]. assert (N2 / 2 < N2) by (apply Z.div_lt; lia). lia. Qed.

Theorem C49_hermitian : forall V N N2 Z2 u seed (mean : C) (Ls : list (lfield V)) f,
  Z.even N2 = true -> 0 < N2 -> im mean = r0 -> tiles [N; N; Z2] Ls -> last_axis N2 Z2 Ls ->
  holds (generate [N; N; N2] u seed mean Ls) (fun k => Some (f k)) ->
  hermitian K [N; N; N2] [N; N; Z2] f /\
  (forall k, In k (cells_of [N; N; Z2]) -> opposite [N; N; N2] k = k -> im (f k) = r0).
Proof.
  intros V N N2 Z2 u seed mean Ls f Ev HN Hm T La H. apply Z.even_spec in Ev. destruct Ev as [h Eh].
  assert (HZ : Z2 <= N2) by (apply (z2_le N2 Z2 Ls); [lia|exact La]).
  pose proof (generated N N N2 Z2 u seed mean Ls f HN T La H) as G.
  assert (Cm : cconj mean = mean) by (destruct mean as [x y]; cbn in Hm; subst y; unfold cconj; cbn; f_equal; ring).
  split.
  - intros k Hk Ho. rewrite (G _ Hk), (G _ Ho). apply cells3 in Hk. destruct Hk as (i & j & q & -> & Hi & Hj & Hq).
    rewrite opposite3 by lia. pose proof (oi_range N i Hi). pose proof (oi_range N j Hj). pose proof (oi_range N2 q ltac:(lia)).
    rewrite !zero_mode_val by lia.
    assert (Z0 : forall M x, 0 <= x < M -> (oi M x =? 0) = (x =? 0)).
    { intros M x Hx. unfold oi. destruct (Z.eqb_spec x 0); [reflexivity|]. apply Z.eqb_neq. lia. }
    rewrite !Z0 by lia. destruct (_ && _); [now symmetry|]. unfold mode3. cbn [nth]. rewrite Eh. apply nval_opposite; lia.
  - intros k Hk E. rewrite (G _ Hk). apply cells3 in Hk. destruct Hk as (i & j & q & -> & Hi & Hj & Hq).
    rewrite opposite3 in E by lia. injection E as Ei Ej Eq. destruct (is_zero_mode _ _); [exact Hm|]. unfold mode3. cbn [nth].
    rewrite Eh in *. apply nval_real; lia.
Qed.

(** *** C50 *)
Definition signed_stream (h seed : Z) : list ((Z * Z) * Z) :=
  combine (signed_calls h) (draw_seeds S uniform (length (signed_calls h)) (rng_set seed)).
Definition spick (a b : Z) (ps : list ((Z * Z) * Z)) (v : Z) : Z :=
  fold_left (fun acc p => if (fst (fst p) =? a) && (snd (fst p) =? b) then snd p else acc) ps v.
Lemma wrap_inj h a b : - h <= a < h -> - h <= b < h -> (wrap (2 * h) a =? wrap (2 * h) b) = (a =? b).
Proof.
  intros Ha Hb. unfold wrap. destruct (Z.ltb_spec a 0), (Z.ltb_spec b 0); destruct (Z.eqb_spec a b);
    repeat match goal with |- context [?x =? ?y] => destruct (Z.eqb_spec x y) end; lia.
Qed.
Lemma entry_signed h seed a b : - h <= a < h -> - h <= b < h ->
  entry false (2 * h) (2 * h) seed (wrap (2 * h) a) (wrap (2 * h) b) = spick a b (signed_stream h seed) 0.
Proof.
  intros Ha Hb. unfold NoiseFacts.entry, pick, spick, stream, signed_stream. rewrite seed_calls_wrap.
  replace (2 * h / 2) with h by (rewrite Z.mul_comm, Z.div_mul; lia). rewrite map_length, combine_map_l, fold_left_map.
  apply fold_left_ext_in. intros acc [[x y] s] Hin. apply in_combine_l, signed_calls_in in Hin. cbn [fst snd mirror wrap2].
  now rewrite !wrap_inj by lia.
Qed.
Lemma draw_seeds_app n m r : exists l, draw_seeds S uniform (n + m) r = draw_seeds S uniform n r ++ l /\ length (draw_seeds S uniform n r) = n.
Proof.
  revert r. induction n as [|n IH]; intros r; [exists (draw_seeds S uniform m r); split; reflexivity|].
  cbn [Nat.add draw_seeds]. destruct (draw_seed S uniform r) as [s r']. destruct (IH r') as (l & E & E2). exists l. rewrite E. split; [reflexivity|]. cbn [length]. now rewrite E2.
Qed.
Lemma spick_prefix h h' seed a b : 0 <= h <= h' -> - h <= a < h -> - h <= b < h ->
  spick a b (signed_stream h' seed) 0 = spick a b (signed_stream h seed) 0.
Proof.
  intros Hh Ha Hb. unfold signed_stream. rewrite (signed_calls_app h h' Hh). set (rest := flat_map _ _). rewrite app_length.
  destruct (draw_seeds_app (length (signed_calls h)) (length rest) (rng_set seed)) as (l & -> & El).
  rewrite combine_app by now rewrite El. unfold spick. rewrite fold_left_app. set (v := fold_left _ (combine (signed_calls h) _) 0). clearbody v.
  rewrite (fold_left_ext_in _ (fun acc _ => acc)).
  - generalize (combine rest l) as ps. induction ps; cbn; auto.
  - intros acc [[x y] s] Hin. apply in_combine_l in Hin. unfold rest in Hin. apply in_flat_map in Hin. destruct Hin as (i & Hi & Hin).
    apply in_zrange in Hi. apply signed_ring_in in Hin. cbn [fst snd]. destruct (Z.eqb_spec x a), (Z.eqb_spec y b); cbn [andb]; try reflexivity. lia.
Qed.
Definition negative (a b : Z) : bool := (a <? 0) || ((a =? 0) && (b <? 0)).
Definition sval (u : bool) (seed a b c : Z) (ps : list ((Z * Z) * Z)) : C :=
  if (a =? 0) && (b =? 0) && (c =? 0) then (r0, r0) else
  let flip := (c <? 0) || ((c =? 0) && negative a b) in
  let z := polar u (sample_at S A sample (Z.to_nat (Z.abs c)) (rng_set (if flip then spick (- a) (- b) ps 0 else spick a b ps 0))) in
  if flip then cconj z else z.
Lemma oi_wrap N a : - N < a < N -> oi N (wrap N a) = wrap N (- a).
Proof.
  intros H. unfold oi, wrap. destruct (Z.ltb_spec a 0), (Z.ltb_spec (- a) 0);
    repeat match goal with |- context [?x =? ?y] => destruct (Z.eqb_spec x y) end; lia.
Qed.
Lemma nval_signed h N2 u seed a b c : 2 * Z.abs a < 2 * h -> 2 * Z.abs b < 2 * h -> Z.abs c < N2 / 2 ->
  nval (2 * h) (2 * h) N2 u seed (wrap (2 * h) a) (wrap (2 * h) b) (wrap N2 c) = sval u seed a b c (signed_stream h seed).
Proof.
  intros Ha Hb Hc.
  assert (D : 2 * (N2 / 2) <= N2) by (apply Z.mul_div_le; lia).
  assert (R : forall N x, 2 * Z.abs x < N -> 0 <= wrap N x < N) by (intros N x Hx; unfold wrap; destruct (Z.ltb_spec x 0); lia).
  assert (Z0 : forall N x, 2 * Z.abs x < N -> (wrap N x =? 0) = (x =? 0)).
  { intros N x Hx. unfold wrap. destruct (Z.ltb_spec x 0); [|reflexivity]. destruct (Z.eqb_spec x 0), (Z.eqb_spec (x + N) 0); lia. }
  assert (Sf : forall N x, 2 * Z.abs x < N -> (wrap N (- x) =? wrap N x) = (x =? 0)).
  { intros N x Hx. unfold wrap. destruct (Z.ltb_spec x 0), (Z.ltb_spec (- x) 0); destruct (Z.eqb_spec x 0);
    repeat match goal with |- context [?x =? ?y] => destruct (Z.eqb_spec x y) end; lia. }
  assert (Lt : forall N x, 2 * Z.abs x < N -> (wrap N (- x) <? wrap N x) = (x <? 0)).
  { intros N x Hx. unfold wrap. destruct (Z.ltb_spec x 0), (Z.ltb_spec (- x) 0);
    repeat match goal with |- context [?x <? ?y] => destruct (Z.ltb_spec x y) end; lia. }
  rewrite nval_val by (apply R; lia). cbv zeta. unfold settle, sval, selfc, lower2. rewrite !oi_wrap by lia. rewrite !Z0, !Sf, !Lt by lia.
  fold (negative a b). replace ((a =? 0) && (b <? 0) || (a <? 0)) with (negative a b) by (unfold negative; now rewrite orb_comm).
  assert (Eb : (N2 / 2 <? wrap N2 c) = (c <? 0)).
  { unfold wrap. destruct (Z.ltb_spec c 0); [apply Z.ltb_lt; lia|apply Z.ltb_ge; lia]. }
  rewrite Eb.
  assert (Em : (if c <? 0 then N2 - wrap N2 c else wrap N2 c) = Z.abs c) by (unfold wrap; destruct (Z.ltb_spec c 0); lia).
  rewrite Em. replace (Z.abs c =? N2 / 2) with false by (symmetry; apply Z.eqb_neq; lia). rewrite orb_false_r.
  replace (Z.abs c =? 0) with (c =? 0) by (destruct (Z.eqb_spec c 0), (Z.eqb_spec (Z.abs c) 0); lia).
  destruct ((a =? 0) && (b =? 0) && (c =? 0)); [reflexivity|].
  assert (Ef : xorb (c <? 0) (negative a b && (c =? 0)) = (c <? 0) || (c =? 0) && negative a b).
  { destruct (Z.ltb_spec c 0), (Z.eqb_spec c 0), (negative a b); try reflexivity; lia. }
  rewrite Ef. rewrite (andb_comm (negative a b)). set (flip := (c <? 0) || (c =? 0) && negative a b).
  assert (En : entry flip (2 * h) (2 * h) seed (wrap (2 * h) a) (wrap (2 * h) b) = if flip then spick (- a) (- b) (signed_stream h seed) 0 else spick a b (signed_stream h seed) 0).
  { destruct flip; [rewrite entry_conj by (try apply R; lia); rewrite !oi_wrap by lia|]; apply entry_signed; lia. }
  now rewrite En.
Qed.

Lemma wrap_mod N a : 0 < N -> 2 * Z.abs a < N -> a mod N = wrap N a.
Proof.
  intros HN H. unfold wrap. destruct (Z.ltb_spec a 0); [|apply Z.mod_small; lia]. symmetry. apply Z.mod_unique_pos with (q := -1); lia.
Qed.
Lemma meant3 N0 N1 N2 a b c : meant [N0; N1; N2] [a; b; c] = [a mod N0; b mod N1; c mod N2].
Proof. reflexivity. Qed.
Theorem C50_resolution_invariant : forall V W N M N2 M2 Z2 Y2 u seed mean (Ls : list (lfield V)) (Ms : list (lfield W)) f g a b c,
  Z.even N = true -> Z.even M = true ->
  tiles [N; N; Z2] Ls -> last_axis N2 Z2 Ls -> tiles [M; M; Y2] Ms -> last_axis M2 Y2 Ms ->
  holds (generate [N; N; N2] u seed mean Ls) (fun k => Some (f k)) ->
  holds (generate [M; M; M2] u seed mean Ms) (fun k => Some (g k)) ->
  2 * Z.abs a < Z.min N M -> 2 * Z.abs b < Z.min N M -> Z.abs c < Z.min (N2 / 2) (M2 / 2) ->
  In (meant [N; N; N2] [a; b; c]) (cells_of [N; N; Z2]) -> In (meant [M; M; M2] [a; b; c]) (cells_of [M; M; Y2]) ->
  f (meant [N; N; N2] [a; b; c]) = g (meant [M; M; M2] [a; b; c]).
Proof.
  intros V W N M N2 M2 Z2 Y2 u seed mean Ls Ms f g a b c EN EM TL LL TM LM Hf Hg Ha Hb Hc I1 I2.
  assert (DN : 2 * (N2 / 2) <= N2) by (apply Z.mul_div_le; lia). assert (DM : 2 * (M2 / 2) <= M2) by (apply Z.mul_div_le; lia).
  rewrite (generated N N N2 Z2 u seed mean Ls f ltac:(lia) TL LL Hf _ I1), (generated M M M2 Y2 u seed mean Ms g ltac:(lia) TM LM Hg _ I2).
  apply Z.even_spec in EN, EM. destruct EN as [h EN], EM as [h' EM].
  assert (RN := fun x => Z.mod_pos_bound x N ltac:(lia)). assert (RM := fun x => Z.mod_pos_bound x M ltac:(lia)).
  assert (RN2 := Z.mod_pos_bound c N2 ltac:(lia)). assert (RM2 := Z.mod_pos_bound c M2 ltac:(lia)).
  rewrite !meant3. rewrite !zero_mode_val by (auto; lia).
  unfold mode3. cbn [nth]. rewrite !wrap_mod by lia.
  assert (Z0 : forall N x, 2 * Z.abs x < N -> (wrap N x =? 0) = (x =? 0)).
  { intros K0 x Hx. unfold wrap. destruct (Z.ltb_spec x 0); [|reflexivity]. destruct (Z.eqb_spec x 0), (Z.eqb_spec (x + K0) 0); lia. }
  rewrite !Z0 by lia.
  replace (2 <=? N) with true by (symmetry; apply Z.leb_le; lia). replace (2 <=? M) with true by (symmetry; apply Z.leb_le; lia).
  replace (2 <=? N2) with true by (symmetry; apply Z.leb_le; lia). replace (2 <=? M2) with true by (symmetry; apply Z.leb_le; lia). cbn [andb].
  destruct (_ && _); [reflexivity|]. rewrite EN, EM, !nval_signed by lia. unfold sval.
  assert (P : forall x y, Z.abs x < Z.min h h' -> Z.abs y < Z.min h h' -> spick x y (signed_stream h seed) 0 = spick x y (signed_stream h' seed) 0).
  { intros x y Hx Hy. destruct (Z.le_ge_cases h h'); [symmetry|]; apply spick_prefix; lia. }
  rewrite !P by lia. reflexivity.
Qed.

(** *** C51: on an even cubic mesh every column has a seed of its own *)
Theorem C51_own_seed : forall N seed, Z.even N = true -> 0 < N -> exists p : Z -> Z -> nat,
  (forall i j, 0 <= i < N -> 0 <= j < N -> (p i j < Z.to_nat (N * N))%nat) /\
  (forall i j i' j', 0 <= i < N -> 0 <= j < N -> 0 <= i' < N -> 0 <= j' < N -> p i j = p i' j' -> i = i' /\ j = j') /\
  forall g i j, gN0 g = N -> gN1 g = N -> 0 <= i < N -> 0 <= j < N -> 0 <= i - gs0 g < gz0 g -> 0 <= j - gs1 g < gz1 g ->
  GETSEED g (seed_tables S rng_set uniform g seed) i j false = nth (p i j) (draw_seeds S uniform (Z.to_nat (N * N)) (rng_set seed)) 0.
Proof.
  intros N seed Ev HN.
  assert (dec : forall x y : Z * Z, {x = y} + {x <> y}) by (decide equality; apply Z.eq_dec).
  set (calls := seed_calls N N).
  assert (X : exists p : Z * Z -> nat, forall x, In x calls -> (p x < length calls)%nat /\ nth (p x) calls (0, 0) = x).
  { clear. induction calls as [|y l [p IH]]; [exists (fun _ => O); intros x []|].
    assert (dec : forall x y : Z * Z, {x = y} + {x <> y}) by (decide equality; apply Z.eq_dec).
    exists (fun x => if dec x y then O else Datatypes.S (p x)). intros x Hx. destruct (dec x y) as [->|Ne]; [cbn; split; [lia|reflexivity]|].
    destruct Hx as [Hx|Hx]; [congruence|]. destruct (IH x Hx). cbn. split; [lia|assumption]. }
  destruct X as [p Hp].
  assert (Lc : length calls = Z.to_nat (N * N)) by now apply seed_calls_length.
  assert (Cv : forall i j, 0 <= i < N -> 0 <= j < N -> In (i, j) calls) by (intros; now apply calls_cover).
  exists (fun i j => p (i, j)). split; [|split].
  - intros i j Hi Hj. rewrite <- Lc. apply Hp, Cv; assumption.
  - intros i j i' j' Hi Hj Hi' Hj' E. destruct (Hp _ (Cv i j Hi Hj)) as [_ E1]. destruct (Hp _ (Cv i' j' Hi' Hj')) as [_ E2]. rewrite E in E1.
    rewrite E1 in E2. injection E2. auto.
  - intros g i j G0 G1 Hi Hj Bi Bj. rewrite getseed_entry by assumption. rewrite G0, G1. unfold NoiseFacts.entry, stream. fold calls. rewrite Lc.
    set (ds := draw_seeds S uniform (Z.to_nat (N * N)) (rng_set seed)).
    assert (Ld : length ds = length calls).
    { rewrite Lc. unfold ds. destruct (draw_seeds_app (Z.to_nat (N * N)) 0 (rng_set seed)) as (l & _ & E). exact E. }
    destruct (Hp _ (Cv i j Hi Hj)) as [P1 P2]. revert P1 P2. generalize (p (i, j)) as n.
    assert (Nd : NoDup calls) by now apply seed_calls_NoDup.
    clearbody ds. clear - Ld Nd. unfold pick.
    assert (F : forall (calls : list (Z * Z)) (ds : list Z) (v : Z), ~ In (i, j) calls ->
      fold_left (fun acc p0 => if (mirror false N (fst (fst p0)) =? i) && (mirror false N (snd (fst p0)) =? j) then snd p0 else acc) (combine calls ds) v = v).
    { clear. induction calls as [|[x y] l IH]; intros [|d ds] v H; try reflexivity. cbn [combine fold_left fst snd mirror].
      rewrite IH by (intros Hi; apply H; now right). destruct (Z.eqb_spec x i), (Z.eqb_spec y j); cbn [andb]; try reflexivity. subst. exfalso. apply H. now left. }
    clearbody calls. generalize 0 at 3 as v. revert ds Ld. induction calls as [|[x y] l IH]; intros ds Ld v n P1 P2; [cbn in P1; lia|].
    destruct ds as [|d ds]; [discriminate|]. inversion Nd as [|? ? Hn Hd]; subst. cbn [combine fold_left]. destruct n as [|n]; cbn [nth] in *.
    + injection P2 as -> ->. rewrite F by assumption. cbn [fst snd mirror]. now rewrite !Z.eqb_refl.
    + apply IH; [assumption|now injection Ld|cbn in P1; lia|assumption].
Qed.

(** *** C61: the amplitude of unitary noise, and the mean *)
Definition modulus2 (z : C) : K := (re z * re z + im z * im z)%rg.
Theorem C61_unitary : forall V N0 N1 N2 Z2 seed mean (Ls : list (lfield V)) f,
  0 < N2 -> Z2 <= N2 -> (forall a, modulus2 (polar true a) = r1) -> tiles [N0; N1; Z2] Ls -> last_axis N2 Z2 Ls ->
  holds (generate [N0; N1; N2] true seed mean Ls) (fun k => Some (f k)) ->
  forall k, In k (cells_of [N0; N1; Z2]) -> k <> [0; 0; 0] -> modulus2 (f k) = r1.
Proof.
  intros V N0 N1 N2 Z2 seed mean Ls f HN HZ Hp T La H k Hk Nz. rewrite (generated N0 N1 N2 Z2 true seed mean Ls f HN T La H k Hk).
  apply cells3 in Hk. destruct Hk as (i & j & q & -> & Hi & Hj & Hq). rewrite zero_mode_val by lia.
  assert (E : (i =? 0) && (j =? 0) && (q =? 0) = false).
  { destruct (Z.eqb_spec i 0), (Z.eqb_spec j 0), (Z.eqb_spec q 0); try reflexivity. subst. now elim Nz. }
  rewrite E, andb_false_r. unfold mode3. cbn [nth]. rewrite nval_val by lia. cbv zeta. unfold settle. rewrite E.
  destruct (selfc _ _ _ _ _ _); [unfold modulus2; cbn; ring|]. destruct (xorb _ _); [|apply Hp].
  rewrite <- (Hp (sample_at S A sample (Z.to_nat (if N2 / 2 <? q then N2 - q else q)) (rng_set
      (entry ((N2 / 2 <? q) || lower2 N0 N1 i j && (((if N2 / 2 <? q then N2 - q else q) =? 0) || ((if N2 / 2 <? q then N2 - q else q) =? N2 / 2))) N0 N1 seed i j)))).
  unfold modulus2, cconj. cbn. ring.
Qed.
Theorem C61_mean : forall V N0 N1 N2 Z2 u seed mean (Ls : list (lfield V)) f,
  2 <= N0 -> 2 <= N1 -> 2 <= N2 -> tiles [N0; N1; Z2] Ls -> last_axis N2 Z2 Ls ->
  holds (generate [N0; N1; N2] u seed mean Ls) (fun k => Some (f k)) -> f [0; 0; 0] = mean.
Proof.
  intros V N0 N1 N2 Z2 u seed mean Ls f H0 H1 H2 T La H.
  assert (HZ : 0 < Z2). { destruct La as [->|[-> _]]; [|lia]. assert (0 <= N2 / 2) by (apply Z.div_pos; lia). lia. }
  rewrite (generated N0 N1 N2 Z2 u seed mean Ls f ltac:(lia) T La H).
  - rewrite zero_mode_val by lia. replace (2 <=? N0) with true by (symmetry; apply Z.leb_le; lia).
    replace (2 <=? N1) with true by (symmetry; apply Z.leb_le; lia). replace (2 <=? N2) with true by (symmetry; apply Z.leb_le; lia). reflexivity.
  - apply in_cells_of. split; [reflexivity|]. intros [|[|[|i]]] Hi; cbn in *; lia.
Qed.
(** on a mesh with an axis of one cell the mean is not set *)
Theorem C61_thin_mesh_refuted : forall V N0 N1 Z2 u seed mean (Ls : list (lfield V)) f,
  0 < N0 -> 0 < N1 -> 0 < Z2 -> tiles [N0; N1; Z2] Ls -> last_axis 1 Z2 Ls ->
  holds (generate [N0; N1; 1] u seed mean Ls) (fun k => Some (f k)) -> f [0; 0; 0] = (r0, r0).
Proof.
  intros V N0 N1 Z2 u seed mean Ls f H0 H1 HZ T La H.
  rewrite (generated N0 N1 1 Z2 u seed mean Ls f ltac:(lia) T La H).
  - rewrite zero_mode_val by lia. rewrite andb_false_r. cbn [andb]. unfold mode3. cbn [nth]. rewrite nval_val by lia. reflexivity.
  - apply in_cells_of. split; [reflexivity|]. intros [|[|[|i]]] Hi; cbn in *; lia.
Qed.

(** *** what fails *)
(** C51: a block that has the upper but not the lower half of a fully stored last axis
    (a complex mesh on a process mesh that splits this axis) is not filled *)
Theorem C51_split_last_axis_refuted : forall u seed, fill (mkG 2 2 4 0 0 2 2 2 2) u seed [0; 1; 3] = None.
Proof.
  intros u seed. rewrite fill_column by (cbn; lia). set (g := mkG 2 2 4 0 0 2 2 2 2). change (signs g) with [-1; 1]. cbn [flat_map].
  rewrite !lastw_app, !column_last by (cbn; lia). reflexivity.
Qed.
Lemma entry_unseeded N0 N1 seed a b : ~ In (a, b) (seed_calls N0 N1) -> entry false N0 N1 seed a b = 0.
Proof.
  intros H. unfold NoiseFacts.entry, pick. rewrite (fold_left_ext_in _ (fun acc _ => acc)).
  - generalize (stream S rng_set uniform N0 N1 seed) as ps. induction ps; cbn; auto.
  - intros acc [[x y] s] Hin. apply in_combine_l in Hin. cbn [fst snd mirror]. destruct (Z.eqb_spec x a), (Z.eqb_spec y b); cbn [andb]; try reflexivity.
    subst. contradiction.
Qed.
(** C51: on odd or non-cubic meshes some columns have no seed of their own: they hold the
    same numbers *)
Theorem C51_odd_refuted : forall u seed,
  fill (mkG 3 3 4 0 0 0 3 3 3) u seed [1; 0; 1] = fill (mkG 3 3 4 0 0 0 3 3 3) u seed [1; 2; 1] /\ fill (mkG 3 3 4 0 0 0 3 3 3) u seed [1; 0; 1] <> None.
Proof.
  intros u seed. rewrite !fill_value by (try split; cbn; try lia; try reflexivity). cbn [gN0 gN1 gN2].
  split; [|discriminate]. rewrite !nval_val by lia. cbv zeta. change (4 / 2 <? 1) with false. cbv iota.
  change ((1 =? 0) || (1 =? 4 / 2)) with false. rewrite !andb_false_r. cbn [orb xorb]. rewrite !entry_unseeded; [reflexivity| |]; vm_compute; intuition discriminate.
Qed.
Theorem C51_non_cubic_refuted : forall u seed,
  fill (mkG 2 4 4 0 0 0 2 4 3) u seed [1; 0; 1] = fill (mkG 2 4 4 0 0 0 2 4 3) u seed [1; 1; 1] /\ fill (mkG 2 4 4 0 0 0 2 4 3) u seed [1; 0; 1] <> None.
Proof.
  intros u seed. rewrite !fill_value by (try split; cbn; try lia; try reflexivity). cbn [gN0 gN1 gN2].
  split; [|discriminate]. rewrite !nval_val by lia. cbv zeta. change (4 / 2 <? 1) with false. cbv iota.
  change ((1 =? 0) || (1 =? 4 / 2)) with false. rewrite !andb_false_r. cbn [orb xorb]. rewrite !entry_unseeded; [reflexivity| |]; vm_compute; intuition discriminate.
Qed.
End Noise.

(** ** the generator of the code; the pair of numbers stands for the mode *)
Definition pair_polar (u : bool) (a : Z * Z) : cpx Zring := a.
Definition ranlxd_fill := generic_fill Zring rstate (Z * Z) ranlxd1_set get_double ranlxd_sample pair_polar.
Definition ranlxd_noise (Nmesh : list Z) (u : bool) (seed : Z) (mean : Z) (Ls : list (lfield unit)) :=
  generate_whitenoise Zring rstate (Z * Z) ranlxd1_set get_double ranlxd_sample pair_polar Nmesh u seed (mean, 0) Ls.

Definition two_ranks : list (lfield unit) := [mkL [0; 0; 0] [2; 2; 2] []; mkL [0; 0; 2] [2; 2; 1] []].
Lemma two_ranks_ok : tiles [2; 2; 3] two_ranks /\ last_axis 4 3 two_ranks.
Proof. split; [apply tiles_check; vm_compute; reflexivity|left; reflexivity]. Qed.
Example C48_case : map lvals (ranlxd_noise [2; 2; 4] false 7 5 two_ranks) =
  [[Some (5, 0); Some (8402775957863, 26063575292138); Some (214134419347284, 0); Some (218679553221076, 73921432146419);
    Some (29987847349437, 0); Some (158240647725192, 170755558720466); Some (114836595658453, 0); Some (161713192776055, 133004726847840)];
   [Some (67546167665360, 0); Some (217116810714323, 0); Some (104548638922726, 0); Some (22569701301829, 0)]].
Proof. vm_compute. reflexivity. Qed.
(** the hypotheses of C48, C49, C51 and C61 are met by this case *)
Example C49_case : exists f, holds (ranlxd_noise [2; 2; 4] false 7 5 two_ranks) (fun k => Some (f k)) /\
  hermitian Zring [2; 2; 4] [2; 2; 3] f /\ f [0; 0; 0] = (5, 0) /\
  ranlxd_fill (mkG 4 4 4 0 0 0 4 4 3) false 7 [3; 0; 0] = Some (21856318927556, -78755910288323) /\
  ranlxd_fill (mkG 4 4 4 0 0 0 4 4 3) false 7 (opposite [4; 4; 4] [3; 0; 0]) = Some (21856318927556, 78755910288323).
Proof.
  destruct two_ranks_ok as [T La].
  destruct (C48_decomposition_independent Zring rstate (Z * Z) ranlxd1_set get_double ranlxd_sample pair_polar 2 2 4 3 false 7 (5, 0) ltac:(lia)) as [f F].
  specialize (F unit two_ranks T La). exists f. split; [exact F|]. split.
  - eapply (C49_hermitian Zring rstate (Z * Z) ranlxd1_set get_double ranlxd_sample pair_polar unit 2 4 3); try eassumption; reflexivity.
  - split; [|split; vm_compute; reflexivity].
    eapply (C61_mean Zring rstate (Z * Z) ranlxd1_set get_double ranlxd_sample pair_polar unit 2 2 4 3); try eassumption; lia.
Qed.
Example C50_case : ranlxd_fill (mkG 4 4 4 0 0 0 4 4 3) false 7 (meant [4; 4; 4] [-1; 1; 1]) = Some (264872925509517, 131876697068399) /\
  ranlxd_fill (mkG 6 6 8 0 0 0 6 6 8) false 7 (meant [6; 6; 8] [-1; 1; 1]) = Some (264872925509517, 131876697068399) /\
  ranlxd_fill (mkG 6 6 8 0 0 0 6 6 8) false 7 (meant [6; 6; 8] [1; -1; -1]) = Some (264872925509517, -131876697068399).
Proof. vm_compute. repeat split. Qed.
Example C51_case : map (fun j => GETSEED (mkG 4 4 4 2 0 0 2 4 3) (seed_tables rstate ranlxd1_set get_double (mkG 4 4 4 2 0 0 2 4 3) 7) 3 j false) [0; 1; 2; 3]
  = map (fun n => nth n (draw_seeds rstate get_double 16 (ranlxd1_set 7)) 0) [1; 8; 14; 3]%nat.
Proof. vm_compute. reflexivity. Qed.
Example C61_case : forall z : Z * Z, z = (1, 0) \/ z = (0, -1) -> modulus2 Zring (cconj (K := Zring) z) = 1.
Proof. intros z [-> | ->]; reflexivity. Qed.

(** C49 is false of a fully stored odd last axis, and of a mesh that is not cubic *)
Theorem C49_odd_refuted : exists z w,
  ranlxd_fill (mkG 4 4 3 0 0 0 4 4 3) false 7 [3; 0; 1] = Some z /\
  ranlxd_fill (mkG 4 4 3 0 0 0 4 4 3) false 7 (opposite [4; 4; 3] [3; 0; 1]) = Some w /\ w <> cconj z.
Proof.
  exists (279244527799450, -90021617025650), (158240647725192, -170755558720466).
  split; [vm_compute; reflexivity|]. split; [vm_compute; reflexivity|]. vm_compute. discriminate.
Qed.
Theorem C49_non_cubic_refuted : exists z w,
  ranlxd_fill (mkG 4 2 4 0 0 0 4 2 3) false 7 [3; 0; 0] = Some z /\
  ranlxd_fill (mkG 4 2 4 0 0 0 4 2 3) false 7 (opposite [4; 2; 4] [3; 0; 0]) = Some w /\ w <> cconj z.
Proof.
  exists (152242947420938, -58756455774685), (21856318927556, 78755910288323).
  split; [vm_compute; reflexivity|]. split; [vm_compute; reflexivity|]. vm_compute. discriminate.
Qed.
(** C50 is false of an odd mesh *)
Theorem C50_odd_refuted :
  ranlxd_fill (mkG 3 3 4 0 0 0 3 3 3) false 7 (meant [3; 3; 4] [1; 0; 1]) <>
  ranlxd_fill (mkG 4 4 4 0 0 0 4 4 3) false 7 (meant [4; 4; 4] [1; 0; 1]).
Proof. vm_compute. discriminate. Qed.

Print Assumptions C48_decomposition_independent.
Print Assumptions C48_compression_independent.
Print Assumptions C49_hermitian.
Print Assumptions C50_resolution_invariant.
Print Assumptions C51_own_seed.
Print Assumptions C61_unitary.
Print Assumptions C61_mean.
Print Assumptions C61_thin_mesh_refuted.
Print Assumptions C51_split_last_axis_refuted.
Print Assumptions C51_odd_refuted.
Print Assumptions C51_non_cubic_refuted.
Print Assumptions C49_odd_refuted.
Print Assumptions C49_non_cubic_refuted.
Print Assumptions C50_odd_refuted.
