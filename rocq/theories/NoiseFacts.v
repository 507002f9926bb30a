(** The value of a mode of the white noise in closed form. *)
From Coq Require Import List Arith ZArith QArith Lia Bool Permutation.
From Verif Require Import Base ListFacts WrapModel WrapProofs DomainFill MeshModel MeshRoute MeshTile RingModel FieldModel FieldFacts RanluxModel NoiseModel.
Import ListNotations.
Local Close Scope Q_scope.
Local Open Scope Z_scope.

Lemma in_range_iff k n : In k (range n) <-> 0 <= k < n.
Proof. unfold range. rewrite in_zrange. lia. Qed.
Lemma in_shifted s k n : In k (map (fun d => s + d) (range n)) <-> s <= k < s + n.
Proof.
  rewrite in_map_iff. split.
  - intros (d & <- & H). apply in_range_iff in H. lia.
  - intros H. exists (k - s). split; [lia|]. apply in_range_iff. lia.
Qed.

(** ** last writes *)
Section Last.
Context {I V : Type} (eqb : I -> I -> bool).
Definition orelse (a b : option V) : option V := match a with Some v => Some v | None => b end.
Definition lastw (ws : list (I * V)) (k : I) : option V :=
  fold_left (fun acc w => if eqb k (fst w) then Some (snd w) else acc) ws None.
Lemma lastw_acc ws k acc : fold_left (fun acc w => if eqb k (fst w) then Some (snd w) else acc) ws acc = orelse (lastw ws k) acc.
Proof.
  unfold lastw. revert acc. induction ws as [|w ws IH]; intros acc; [reflexivity|]. cbn [fold_left]. rewrite (IH (if eqb k (fst w) then _ else None)), IH.
  destruct (eqb k (fst w)); now destruct (fold_left _ ws None).
Qed.
Lemma lastw_app ws vs k : lastw (ws ++ vs) k = orelse (lastw vs k) (lastw ws k).
Proof. unfold lastw at 1. rewrite fold_left_app. apply lastw_acc. Qed.
Lemma lastw_cons w ws k : lastw (w :: ws) k = orelse (lastw ws k) (if eqb k (fst w) then Some (snd w) else None).
Proof. exact (lastw_app [w] ws k). Qed.
Lemma lastw_none ws k : (forall w, In w ws -> eqb k (fst w) = false) -> lastw ws k = None.
Proof.
  induction ws as [|w ws IH]; intros H; [reflexivity|]. rewrite lastw_cons, IH by (intros; apply H; now right).
  now rewrite (H w (or_introl eq_refl)).
Qed.
Lemma lastw_only {X} (F : X -> list (I * V)) l e k : In e l -> (forall x, In x l -> x <> e -> lastw (F x) k = None) ->
  (forall x y : X, {x = y} + {x <> y}) -> lastw (flat_map F l) k = lastw (F e) k.
Proof.
  intros Hin Hn dec. induction l as [|x l IH]; [destruct Hin|]. cbn [flat_map]. rewrite lastw_app.
  destruct (in_dec dec e l) as [He|He].
  - rewrite IH by (try exact He; intros; apply Hn; auto; now right). destruct (dec x e) as [->|Ne].
    + now destruct (lastw (F e) k).
    + rewrite (Hn x (or_introl eq_refl) Ne). now destruct (lastw (F e) k).
  - destruct Hin as [->|Hin]; [|contradiction].
    assert (E : lastw (flat_map F l) k = None).
    { clear IH. induction l as [|y l IHl]; [reflexivity|]. cbn [flat_map]. rewrite lastw_app, IHl.
      - rewrite (Hn y); [reflexivity|right; now left|]. intros ->. apply He. now left.
      - intros z Hz Nz. apply Hn; [|exact Nz]. destruct Hz as [->|Hz]; [now left|right; now right].
      - intros Hi. apply He. now right. }
    now rewrite E.
Qed.
Lemma lastw_flat_none {X} (F : X -> list (I * V)) l k : (forall x, In x l -> lastw (F x) k = None) -> lastw (flat_map F l) k = None.
Proof.
  induction l as [|y l IH]; intros H; [reflexivity|]. cbn [flat_map]. rewrite lastw_app, IH by (intros; apply H; now right).
  now rewrite (H y (or_introl eq_refl)).
Qed.
End Last.

Section Noise.
Variable K : cring.
Local Notation C := (cpx K).
Variables (S A : Type).
Variable rng_set : Z -> S.
Variable uniform : S -> Z * S.
Variable sample : S -> A * S.
Variable polar : bool -> A -> C.
Local Notation fill := (generic_fill K S A rng_set uniform sample polar).
Local Notation finish := (finish K A polar).

(** ** seeds *)
(** the last seed given to the column (a, b) by a call, mirrored or not *)
Definition pick (d1 d2 : bool) (N0 N1 a b : Z) (ps : list ((Z * Z) * Z)) (v : Z) : Z :=
  fold_left (fun acc p => if (mirror d1 N0 (fst (fst p)) =? a) && (mirror d2 N1 (snd (fst p)) =? b) then snd p else acc) ps v.
Definition stream (N0 N1 seed : Z) : list ((Z * Z) * Z) :=
  combine (seed_calls N0 N1) (draw_seeds S uniform (length (seed_calls N0 N1)) (rng_set seed)).
Definition entry (d : bool) (N0 N1 seed a b : Z) : Z := pick d d N0 N1 a b (stream N0 N1 seed) 0.

Lemma xget_xset_eq x i v : (i < length x)%nat -> xget (xset x i v) i = v.
Proof. unfold xget. revert i. induction x as [|a x IH]; intros [|i] H; cbn in *; try lia. apply IH. lia. Qed.
Lemma xget_xset_ne x i j v : i <> j -> xget (xset x j v) i = xget x i.
Proof.
  unfold xget. revert i j. induction x as [|a x IH]; intros [|i] [|j] H; cbn; try reflexivity; try congruence. apply IH. congruence.
Qed.
Lemma xset_len x i v : length (xset x i v) = length x.
Proof. revert i. induction x as [|a x IH]; intros [|i]; cbn; auto. Qed.

Lemma setseed_length g i j s t d1 d2 : length (SETSEED g i j s t d1 d2) = length (t d1 d2).
Proof. unfold SETSEED. destruct (_ && _); [apply xset_len|reflexivity]. Qed.
Lemma setseed_get g i j s t d1 d2 a b : 0 <= a - gs0 g < gz0 g -> 0 <= b - gs1 g < gz1 g ->
  length (t d1 d2) = Z.to_nat (gz0 g * gz1 g) ->
  xget (SETSEED g i j s t d1 d2) (Z.to_nat ((a - gs0 g) * gz1 g + (b - gs1 g))) =
  if (mirror d1 (gN0 g) i =? a) && (mirror d2 (gN1 g) j =? b) then s
  else xget (t d1 d2) (Z.to_nat ((a - gs0 g) * gz1 g + (b - gs1 g))).
Proof.
  intros Ha Hb L. unfold SETSEED. set (x := mirror d1 (gN0 g) i). set (y := mirror d2 (gN1 g) j).
  destruct (Z.eqb_spec x a) as [Ex|Ex], (Z.eqb_spec y b) as [Ey|Ey]; cbn [andb].
  - subst a b. replace (0 <=? x - gs0 g) with true by (symmetry; apply Z.leb_le; lia).
    replace (x - gs0 g <? gz0 g) with true by (symmetry; apply Z.ltb_lt; lia).
    replace (0 <=? y - gs1 g) with true by (symmetry; apply Z.leb_le; lia).
    replace (y - gs1 g <? gz1 g) with true by (symmetry; apply Z.ltb_lt; lia). cbn [andb].
    apply xget_xset_eq. rewrite L. apply Z2Nat.inj_lt; nia.
  - destruct (_ && _) eqn:R; [|reflexivity]. rewrite !andb_true_iff, !Z.leb_le, !Z.ltb_lt in R. apply xget_xset_ne. intros E. apply Z2Nat.inj in E; nia.
  - destruct (_ && _) eqn:R; [|reflexivity]. rewrite !andb_true_iff, !Z.leb_le, !Z.ltb_lt in R. apply xget_xset_ne. intros E. apply Z2Nat.inj in E; nia.
  - destruct (_ && _) eqn:R; [|reflexivity]. rewrite !andb_true_iff, !Z.leb_le, !Z.ltb_lt in R. apply xget_xset_ne. intros E. apply Z2Nat.inj in E; try nia.
Qed.
Lemma tables_pick g ps t d1 d2 a b : 0 <= a - gs0 g < gz0 g -> 0 <= b - gs1 g < gz1 g ->
  length (t d1 d2) = Z.to_nat (gz0 g * gz1 g) ->
  xget (fold_left (fun t p => SETSEED g (fst (fst p)) (snd (fst p)) (snd p) t) ps t d1 d2) (Z.to_nat ((a - gs0 g) * gz1 g + (b - gs1 g))) =
  pick d1 d2 (gN0 g) (gN1 g) a b ps (xget (t d1 d2) (Z.to_nat ((a - gs0 g) * gz1 g + (b - gs1 g)))).
Proof.
  intros Ha Hb. revert t. induction ps as [|p ps IH]; intros t L; [reflexivity|].
  cbn [fold_left]. rewrite IH by now rewrite setseed_length. unfold pick. cbn [fold_left]. f_equal. now apply setseed_get.
Qed.
Lemma getseed_entry g seed i j d : 0 <= i - gs0 g < gz0 g -> 0 <= j - gs1 g < gz1 g ->
  GETSEED g (seed_tables S rng_set uniform g seed) i j d = entry d (gN0 g) (gN1 g) seed i j.
Proof.
  intros Hi Hj. unfold GETSEED, seed_tables. rewrite tables_pick by (try assumption; unfold empty_tables; apply repeat_length).
  unfold entry, stream. f_equal. unfold empty_tables, xget. apply nth_repeat.
Qed.

(** ** columns *)
Fixpoint advance (n : nat) (r : S) : S := match n with O => r | Datatypes.S n => advance n (snd (sample r)) end.
(** the n-th pair of numbers from a state *)
Definition sample_at (n : nat) (r : S) : A := fst (sample (advance n r)).
Definition use_conj (d : bool) (N2 k : Z) : bool := d && ((k =? 0) || (k =? N2 / 2)).
Definition k_write (g : generator) (unitary d : bool) (sign i j k : Z) (a : A) : list (list Z * C) :=
  if has_mode g k then
    let w := finish g unitary sign (use_conj d (gN2 g) k) i j k a in
    if has_mode g (nth 2 (fst w) 0) then [w] else []
  else [].
Lemma k_loop_writes g u d sign i j n k lower this :
  k_loop K S A sample polar g u d sign i j n k lower this =
  flat_map (fun m => k_write g u d sign i j (k + Z.of_nat m)
                       (sample_at m (if use_conj d (gN2 g) (k + Z.of_nat m) then lower else this))) (seq 0 n).
Proof.
  revert k lower this. induction n as [|n IH]; intros k lower this; [reflexivity|].
  cbn [k_loop seq flat_map]. rewrite Z.add_0_r. fold (use_conj d (gN2 g) k).
  set (uc := use_conj d (gN2 g) k).
  assert (E : (if uc then let '(_, this0) := sample this in let '(a, lower0) := sample lower in (a, lower0, this0)
               else let '(_, lower0) := sample lower in let '(a, this0) := sample this in (a, lower0, this0))
              = (sample_at 0 (if uc then lower else this), snd (sample lower), snd (sample this))).
  { unfold sample_at, advance. destruct uc, (sample lower), (sample this); reflexivity. }
  rewrite E. rewrite IH.
  assert (R : flat_map (fun m => k_write g u d sign i j (k + 1 + Z.of_nat m)
      (sample_at m (if use_conj d (gN2 g) (k + 1 + Z.of_nat m) then snd (sample lower) else snd (sample this)))) (seq 0 n) =
    flat_map (fun m => k_write g u d sign i j (k + Z.of_nat m)
      (sample_at m (if use_conj d (gN2 g) (k + Z.of_nat m) then lower else this))) (seq 1 n)).
  { rewrite <- (seq_shift n 0), flat_map_map. apply flat_map_ext. intros m.
    replace (k + 1 + Z.of_nat m) with (k + Z.of_nat (Datatypes.S m)) by lia.
    f_equal. destruct (use_conj d (gN2 g) (k + Z.of_nat (Datatypes.S m))); reflexivity. }
  rewrite R. set (rest := flat_map _ (seq 1 n)). clearbody rest. unfold k_write. fold uc. destruct (has_mode g k); cbn [negb]; [|reflexivity].
  destruct (has_mode g (nth 2 (fst (finish g u sign uc i j k (sample_at 0 (if uc then lower else this)))) 0)); reflexivity.
Qed.

Lemma finish_index g u sign uc i j k a : fst (finish g u sign uc i j k a) = [i; j; if sign =? -1 then gN2 g - k else k].
Proof.
  unfold NoiseModel.finish. destruct (polar u a) as [re im]. destruct (sign =? -1).
  - destruct (self_conjugate g i j (gN2 g - k)), ((i =? 0) && (j =? 0) && (gN2 g - k =? 0)), uc; reflexivity.
  - destruct (self_conjugate g i j k), ((i =? 0) && (j =? 0) && (k =? 0)), uc; reflexivity.
Qed.
Lemma idx_eqb_true a b : idx_eqb a b = true <-> a = b.
Proof. unfold idx_eqb. destruct (list_eq_dec Z.eq_dec a b); split; congruence. Qed.
Lemma idx_eqb_refl a : idx_eqb a a = true.
Proof. now apply idx_eqb_true. Qed.
Lemma idx_eqb_false a b : idx_eqb a b = false <-> a <> b.
Proof. unfold idx_eqb. destruct (list_eq_dec Z.eq_dec a b); split; congruence. Qed.

(** the last write of a column at [i; j; q] *)
Lemma column_last g u t i j sign q : 0 <= gN2 g -> sign = 1 \/ sign = -1 ->
  lastw idx_eqb (column K S A rng_set sample polar g u t i j sign) [i; j; q] =
  let m := if sign =? -1 then gN2 g - q else q in
  let uc := use_conj (lower_flag g i j) (gN2 g) m in
  if (0 <=? m) && (m <=? gN2 g / 2) && has_mode g m && has_mode g q
  then Some (snd (finish g u sign uc i j m
     (sample_at (Z.to_nat m) (rng_set (GETSEED g t i j (if uc then lower_flag g i j else negb (sign =? 1)))))))
  else None.
Proof.
  intros HN Hs. unfold column. cbv zeta. rewrite k_loop_writes. set (d := lower_flag g i j).
  set (m := if sign =? -1 then gN2 g - q else q).
  assert (Hq : forall k, (if sign =? -1 then gN2 g - k else k) = q <-> k = m) by (intros k; unfold m; destruct (sign =? -1); lia).
  pose proof (Z.div_pos (gN2 g) 2 HN ltac:(lia)) as Hd.
  set (F := fun x : nat => k_write g u d sign i j (0 + Z.of_nat x)
     (sample_at x (if use_conj d (gN2 g) (0 + Z.of_nat x) then rng_set (GETSEED g t i j d) else rng_set (GETSEED g t i j (negb (sign =? 1)))))).
  assert (None_of : forall x, 0 + Z.of_nat x <> m -> lastw idx_eqb (F x) [i; j; q] = None).
  { intros x Hx. apply lastw_none. intros w Hw. unfold F, k_write in Hw. destruct (has_mode g (0 + Z.of_nat x)); [|destruct Hw].
    destruct (has_mode g _); [|destruct Hw]. destruct Hw as [<-|[]]. rewrite finish_index. apply idx_eqb_false. intros E. injection E as E.
    apply Hx, Hq. now symmetry. }
  destruct ((0 <=? m) && (m <=? gN2 g / 2)) eqn:R; cbn [andb].
  - apply andb_true_iff in R. rewrite !Z.leb_le in R.
    rewrite (lastw_only idx_eqb F (seq 0 (Z.to_nat (gN2 g / 2 + 1))) (Z.to_nat m)); [| |intros x _ Hx; apply None_of; lia|exact Nat.eq_dec].
    2:{ apply in_seq. lia. }
    unfold F, k_write. rewrite Z.add_0_l, Z2Nat.id by lia. destruct (has_mode g m); cbn [andb]; [|reflexivity].
    rewrite finish_index. cbn [nth]. assert (Em : (if sign =? -1 then gN2 g - m else m) = q) by now apply Hq.
    rewrite Em. destruct (has_mode g q); [|reflexivity]. rewrite lastw_cons. cbn [lastw fold_left orelse].
    rewrite finish_index, Em, idx_eqb_refl. f_equal. f_equal. f_equal. destruct (use_conj d (gN2 g) m); reflexivity.
  - apply lastw_flat_none. intros x Hx. apply None_of. apply in_seq in Hx. intros E. apply andb_false_iff in R.
    rewrite !Z.leb_gt in R. lia.
Qed.
Lemma column_other g u t i j sign k : (forall q, k <> [i; j; q]) -> lastw idx_eqb (column K S A rng_set sample polar g u t i j sign) k = None.
Proof.
  intros H. unfold column. rewrite k_loop_writes. apply lastw_flat_none. intros x _. apply lastw_none. intros w Hw.
  unfold k_write in Hw. destruct (has_mode g _); [|destruct Hw]. destruct (has_mode g (nth 2 _ 0)); [|destruct Hw].
  destruct Hw as [<-|[]]. rewrite finish_index. apply idx_eqb_false. apply H.
Qed.

Lemma fill_lastw g u seed k : fill g u seed k = lastw idx_eqb (all_writes K S A rng_set sample polar g u (seed_tables S rng_set uniform g seed)) k.
Proof.
  unfold generic_fill, lastw.
  assert (E : forall ws c, fold_left (write K) ws c k = fold_left (fun acc w => if idx_eqb k (fst w) then Some (snd w) else acc) ws (c k)).
  { intros ws. induction ws as [|w ws IH]; intros c; [reflexivity|]. cbn [fold_left]. rewrite IH. reflexivity. }
  apply E.
Qed.
Lemma fill_column g u seed i j q : 0 <= i - gs0 g < gz0 g -> 0 <= j - gs1 g < gz1 g ->
  fill g u seed [i; j; q] = lastw idx_eqb (flat_map (column K S A rng_set sample polar g u (seed_tables S rng_set uniform g seed) i j) (signs g)) [i; j; q].
Proof.
  intros Hi Hj. rewrite fill_lastw. unfold all_writes.
  rewrite (lastw_only idx_eqb _ _ i); [|apply in_shifted; lia| |exact Z.eq_dec].
  - rewrite (lastw_only idx_eqb _ _ j); [reflexivity|apply in_shifted; lia| |exact Z.eq_dec].
    intros x _ Hx. apply lastw_flat_none. intros s _. apply column_other. intros q' E. injection E. congruence.
  - intros x _ Hx. apply lastw_flat_none. intros y _. apply lastw_flat_none. intros s _. apply column_other. intros q' E. injection E. congruence.
Qed.

(** ** the value of a mode *)
Definition bare (N0 N1 N2 : Z) : generator := mkG N0 N1 N2 0 0 0 0 0 0.
Definition nval (N0 N1 N2 : Z) (u : bool) (seed i j q : Z) : C :=
  let g := bare N0 N1 N2 in
  let sign := if q <=? N2 / 2 then 1 else -1 in
  let m := if q <=? N2 / 2 then q else N2 - q in
  let uc := use_conj (lower_flag g i j) N2 m in
  snd (finish g u sign uc i j m
     (sample_at (Z.to_nat m) (rng_set (entry (if uc then true else negb (sign =? 1)) N0 N1 seed i j)))).

(** the block stores modes up to N2/2 only, or the whole last axis *)
Definition storable (g : generator) : Prop :=
  0 < gN2 g /\ ((0 <= gs2 g /\ gs2 g + gz2 g <= gN2 g / 2 + 1) \/ (gs2 g = 0 /\ gz2 g = gN2 g)).

Lemma signs_cases g : storable g ->
  (signs g = [1] /\ forall q, has_mode g q = true -> 0 <= q <= gN2 g / 2) \/
  (signs g = [-1; 1] /\ gs2 g = 0 /\ gz2 g = gN2 g).
Proof.
  intros [HN H]. unfold signs. set (l := map _ _).
  assert (Hl : forall k, In k l <-> gN2 g / 2 + 1 <= k < gN2 g).
  { intros k. unfold l. rewrite in_map_iff. split.
    - intros (d & <- & Hd). apply in_range_iff in Hd. lia.
    - intros Hk. exists (k - (gN2 g / 2 + 1)). split; [lia|]. apply in_range_iff. lia. }
  destruct (existsb (has_mode g) l) eqn:E.
  - right. split; [reflexivity|]. apply existsb_exists in E. destruct E as (k & Hk & Hm). apply Hl in Hk.
    unfold has_mode in Hm. rewrite andb_true_iff, Z.leb_le, Z.ltb_lt in Hm. lia.
  - left. split; [reflexivity|]. intros q Hq. pose proof Hq as Hq0. unfold has_mode in Hq. rewrite andb_true_iff, Z.leb_le, Z.ltb_lt in Hq.
    destruct H as [H|[H1 H2]]; [lia|].
    destruct (Z.le_gt_cases q (gN2 g / 2)) as [Hle|Hgt]; [lia|].
    assert (T : existsb (has_mode g) l = true) by (apply existsb_exists; exists q; split; [apply Hl; lia|exact Hq0]).
    congruence.
Qed.

Lemma finish_bare g u sign uc i j m a : finish g u sign uc i j m a = finish (bare (gN0 g) (gN1 g) (gN2 g)) u sign uc i j m a.
Proof. reflexivity. Qed.
Lemma lower_flag_bare g i j : lower_flag g i j = lower_flag (bare (gN0 g) (gN1 g) (gN2 g)) i j.
Proof. reflexivity. Qed.

Theorem fill_value g u seed i j q : storable g -> 0 <= i - gs0 g < gz0 g -> 0 <= j - gs1 g < gz1 g -> has_mode g q = true ->
  fill g u seed [i; j; q] = Some (nval (gN0 g) (gN1 g) (gN2 g) u seed i j q).
Proof.
  intros St Hi Hj Hq. rewrite fill_column by assumption. pose proof St as [HN _].
  assert (Hd : 0 <= gN2 g / 2) by (apply Z.div_pos; lia).
  assert (G : forall uc sgn, GETSEED g (seed_tables S rng_set uniform g seed) i j (if use_conj (lower_flag g i j) (gN2 g) uc then lower_flag g i j else negb (sgn =? 1))
    = entry (if use_conj (lower_flag g i j) (gN2 g) uc then true else negb (sgn =? 1)) (gN0 g) (gN1 g) seed i j).
  { intros uc sgn. rewrite getseed_entry by assumption. unfold use_conj. destruct (lower_flag g i j); [reflexivity|]. reflexivity. }
  destruct (signs_cases g St) as [[-> Hs]|(-> & E1 & E2)]; cbn [flat_map]; rewrite app_nil_r.
  - rewrite column_last by (auto; lia). cbv zeta. change (1 =? -1) with false. cbv iota. specialize (Hs q Hq).
    rewrite Hq. replace (0 <=? q) with true by (symmetry; apply Z.leb_le; lia).
    assert (Eq : q <=? gN2 g / 2 = true) by (apply Z.leb_le; lia). rewrite Eq. cbn [andb].
    rewrite G. unfold nval. rewrite Eq. reflexivity.
  - rewrite lastw_app, !column_last by (auto; lia). cbv zeta. change (1 =? -1) with false. change (-1 =? -1) with true. cbv iota.
    pose proof Hq as Hq'. unfold has_mode in Hq'. rewrite andb_true_iff, Z.leb_le, Z.ltb_lt in Hq'.
    rewrite Hq. replace (0 <=? q) with true by (symmetry; apply Z.leb_le; lia). cbn [andb].
    destruct (q <=? gN2 g / 2) eqn:Eq; cbn [andb orelse].
    + rewrite G. unfold nval. rewrite Eq. reflexivity.
    + apply Z.leb_gt in Eq. replace (0 <=? gN2 g - q) with true by (symmetry; apply Z.leb_le; lia).
      assert (H2 : gN2 g < 2 * (gN2 g / 2 + 1)) by (pose proof (Z.mul_succ_div_gt (gN2 g) 2 ltac:(lia)); lia).
      replace (gN2 g - q <=? gN2 g / 2) with true by (symmetry; apply Z.leb_le; lia).
      replace (has_mode g (gN2 g - q)) with true by (symmetry; unfold has_mode; rewrite andb_true_iff, Z.leb_le, Z.ltb_lt; lia).
      cbn [andb]. rewrite G. unfold nval. assert (Eq2 : q <=? gN2 g / 2 = false) by now apply Z.leb_gt. rewrite Eq2. reflexivity.
Qed.
End Noise.
