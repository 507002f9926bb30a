(** C53, C54: what a caller of get_index relies on. *)
From Coq Require Import List Arith ZArith Lia Bool Permutation.
From Verif Require Import Base ListFacts WrapModel WrapProofs InvariantModel InvariantBits InvariantFacts InvariantOrder InvariantProofs.
Import ListNotations.
Local Open Scope Z_scope.

(** [x] lies in the half that is stored: no axis in [cmask] is negative *)
Definition in_half (cmask : Z) (x : list Z) : Prop := forall d, (d < length x)%nat -> Z.testbit cmask (Z.of_nat d) = true -> 0 <= nth d x 0.
(** [x] lies in the cube of half width [s] *)
Definition within (s : Z) (x : list Z) : Prop := forall v, In v x -> Z.abs v <= s.
(** the number of modes of the half inside of the cube *)
Definition cube (n : nat) (cmask s : Z) : Z :=
  fold_right Z.mul 1 (map (fun d => if Z.testbit cmask (Z.of_nat d) then s + 1 else 2 * s + 1) (seq 0 n)).

Lemma cube_count n cmask s : cube n cmask s = count s (mb cmask 0 n).
Proof.
  unfold cube, mb. generalize 0%nat as d. induction n as [|n IH]; intros d; [reflexivity|]. cbn [seq map fold_right count]. now rewrite IH.
Qed.
Lemma half_stored cmask x : in_half cmask x <-> stored (mb cmask 0 (length x)) x.
Proof.
  unfold in_half, stored, mb. assert (G : forall k, (forall d, (d < length x)%nat -> Z.testbit cmask (Z.of_nat (k + d)) = true -> 0 <= nth d x 0) <->
    Forall2 (fun (m : bool) xd => m = true -> 0 <= xd) (map (fun i => Z.testbit cmask (Z.of_nat i)) (seq k (length x))) x).
  { induction x as [|v x IH]; intros k; cbn [length seq map]; [split; [constructor|intros _ d Hd; lia]|]. split.
    - intros H. constructor; [intros T; apply (H 0%nat); [lia|now rewrite Nat.add_0_r]|]. apply IH. intros d Hd T. apply (H (S d)); [lia|]. now rewrite Nat.add_succ_r.
    - intros F d Hd T. inversion F; subst. destruct d as [|d]; [cbn; rewrite Nat.add_0_r in T; auto|]. cbn [nth]. apply (proj2 (IH (S k)) ltac:(assumption)); [lia|]. now rewrite Nat.add_succ_r in T. }
  exact (G 0%nat).
Qed.
Lemma within_absmax s x : 0 <= s -> (within s x <-> absmax x <= s).
Proof. intros Hs. split; [intros H; now apply absmax_le|]. intros H v Hv. pose proof (absmax_ge x v Hv). lia. Qed.
Lemma index_ix x cmask ml : (length x < 32)%nat -> 0 <= cmask < 2 ^ Z.of_nat (length x) -> in_half cmask x -> ml < 0 \/ 0 < ml ->
  pmesh_get_invariant_index x cmask ml = trunc ml (ix x (mb cmask 0 (length x))).
Proof.
  intros Hn Hc H Hml. unfold pmesh_get_invariant_index, ix. rewrite <- (val_mb cmask (length x) Hc) at 1. apply index_trunc; [lia|lia|now apply half_stored|exact Hml].
Qed.
Lemma index_none x cmask : (length x < 32)%nat -> 0 <= cmask < 2 ^ Z.of_nat (length x) -> in_half cmask x ->
  pmesh_get_invariant_index x cmask (-1) = ix x (mb cmask 0 (length x)).
Proof. intros. rewrite index_ix by (auto; lia). reflexivity. Qed.

(** ** C53 *)
Theorem C53_shells n cmask x s : (n < 32)%nat -> 0 <= cmask < 2 ^ Z.of_nat n -> length x = n -> in_half cmask x -> 0 <= s ->
  0 <= pmesh_get_invariant_index x cmask (-1) /\
  (within s x <-> pmesh_get_invariant_index x cmask (-1) < cube n cmask s).
Proof.
  intros Hn Hc <- H Hs. rewrite index_none, cube_count by assumption. pose proof (proj1 (half_stored _ _) H) as F.
  split; [apply ix_nonneg; [lia|apply mb_length]|]. rewrite within_absmax by exact Hs.
  destruct (ix_shell _ x _ eq_refl ltac:(lia) F) as [U D]. split; [now apply U|]. intros I. destruct (Z.le_gt_cases (absmax x) s); [assumption|].
  specialize (D s ltac:(lia)). lia.
Qed.
Theorem C53_injective n cmask x y : (n < 32)%nat -> 0 <= cmask < 2 ^ Z.of_nat n -> length x = n -> length y = n -> in_half cmask x -> in_half cmask y ->
  pmesh_get_invariant_index x cmask (-1) = pmesh_get_invariant_index y cmask (-1) -> x = y.
Proof.
  intros Hn Hc Lx Ly Hx Hy E. rewrite !index_none in E by (rewrite ?Lx, ?Ly; assumption). rewrite Lx, Ly in E.
  apply half_stored in Hx, Hy. rewrite Lx in Hx. rewrite Ly in Hy. apply (ix_inj n x y (mb cmask 0 n)); auto. lia.
Qed.
Theorem C53_onto n cmask s m : (n < 32)%nat -> 0 <= cmask < 2 ^ Z.of_nat n -> 0 <= s -> 0 <= m < cube n cmask s ->
  exists x, length x = n /\ in_half cmask x /\ within s x /\ pmesh_get_invariant_index x cmask (-1) = m.
Proof.
  intros Hn Hc Hs Hm. pose proof Hm as Hm'. rewrite cube_count in Hm. destruct (ix_onto n (mb cmask 0 n) (mb_length _ _ _) ltac:(lia) s Hs m Hm) as (x & L & F & E).
  assert (H : in_half cmask x) by (apply half_stored; now rewrite L). exists x. split; [exact L|]. split; [exact H|].
  assert (Ei : pmesh_get_invariant_index x cmask (-1) = m) by (rewrite index_none by (rewrite ?L; assumption); now rewrite L).
  split; [|exact Ei]. apply (C53_shells n cmask x s); auto. lia.
Qed.
(** outside of the half there is no index *)
Theorem C53_other_half x cmask ml : (exists d, (d < length x)%nat /\ Z.testbit cmask (Z.of_nat d) = true /\ nth d x 0 < 0) ->
  pmesh_get_invariant_index x cmask ml = -1.
Proof.
  intros (d & Hd & T & N). unfold pmesh_get_invariant_index. assert (Ig : in_ignored_half x cmask = true).
  { destruct (in_ignored_half x cmask) eqn:E; [reflexivity|]. apply stored_half, half_stored in E. specialize (E d Hd T). lia. }
  assert (M : absmax x <> 0) by (pose proof (absmax_ge x (nth d x 0) (nth_In _ _ Hd)); lia).
  destruct (length x) as [|k]; [lia|]. cbn [invariant_index]. rewrite (proj2 (Z.eqb_neq _ _) M), Ig. reflexivity.
Qed.

(** the modes of a mesh of even size: a shell and the positive faces of the next *)
Lemma caps_row n : exists r, all_caps n = map (pair 0) (nrange n) ++ r /\ forall c, In c r -> fst c <> 0.
Proof.
  unfold all_caps. fold (nrange n). assert (E : exists k, nrange n = 0 :: k).
  { unfold nrange. rewrite Z.shiftl_mul_pow2, Z.mul_1_l by lia. pose proof (pow2_pos (Z.of_nat n) ltac:(lia)).
    destruct (Z.to_nat (2 ^ Z.of_nat n)) as [|k] eqn:E; [lia|]. unfold zrange. cbn [seq map]. eauto. }
  destruct E as [k E]. assert (N : NoDup (nrange n)) by apply zrange_NoDup. set (row := fun icap : Z => map (fun icapset : Z => (icap, icapset)) (nrange n)).
  exists (flat_map row k). rewrite E in N. inversion N; subst. split; [rewrite E at 1; reflexivity|].
  intros c Hc. apply in_flat_map in Hc. destruct Hc as (B & HB & Hc). apply in_map_iff in Hc. destruct Hc as (A & <- & _). cbn. intros ->. contradiction.
Qed.
Lemma row_sum n s ms : (n <= 32)%nat -> length ms = n -> sumz (wt n s (val ms)) (map (pair 0) (nrange n)) = pcount s ms.
Proof.
  intros Hn L. rewrite sumz_map, <- (sum_pw0 n s ms L), <- (sumz_perm _ _ _ (nrange_bits n)), sumz_map. apply sumz_ext_in. intros A HA. apply in_nrange in HA.
  rewrite wt_prod; cbn [fst snd]; [|exact Hn|now apply val_bound'|pose proof (pow2_pos (Z.of_nat n) ltac:(lia)); lia|exact HA].
  now rewrite mb_zero, mb_val'.
Qed.
Lemma pcount_le s ms : 0 <= s -> 0 <= pcount s ms <= count s ms.
Proof. intros Hs. induction ms as [|m ms IH]; cbn [pcount count]; [lia|]. destruct m; nia. Qed.
Lemma count_le_pcount s ms : 1 <= s -> count (s - 1) ms <= pcount s ms.
Proof. intros Hs. induction ms as [|m ms IH]; cbn [pcount count]; [lia|]. pose proof (count_pos (s - 1) ms ltac:(lia)). destruct m; nia. Qed.
Lemma ix_even n x ms h : length x = n -> (n <= 32)%nat -> stored ms x -> 1 <= h ->
  ((absmax x <= h /\ ~ In (- h) x) <-> ix x ms < pcount h ms).
Proof.
  intros L Hn F Hh. assert (Lm : length ms = n) by (rewrite (Forall2_len _ _ _ F); exact L).
  destruct (ix_shell n x ms L Hn F) as [U D]. destruct (Z.lt_trichotomy (absmax x) h) as [Lt|[Eq|Gt]].
  - specialize (U (h - 1) ltac:(lia) ltac:(lia)). pose proof (count_le_pcount h ms Hh). split; [lia|]. intros _. split; [lia|]. intros Hi. pose proof (absmax_ge x _ Hi). lia.
  - destruct (caps_row n) as (r & Er & Hr). rewrite (ix_step x ms h Eq ltac:(lia)), L, Er.
    pose proof (cap_in h x n L) as Hc. set (c := (val (negs h x), val (hits h x))) in *.
    assert (W : forall d, In d (all_caps n) -> 0 <= wt n h (val ms) d) by (intros d Hd; apply wt_nonneg; auto; lia).
    assert (NZ : absmax x <> 0) by lia. destruct (absmax_attained x NZ) as (v & Hv & Ev). rewrite Eq in Ev.
    pose proof (keep_lt (hits h x) x ltac:(now rewrite hits_length) (hits_true h x v Hv Ev)) as Lx1.
    destruct (ix_shell _ (keep (hits h x) x) (keep (hits h x) ms) eq_refl ltac:(lia) (stored_keep _ _ _ F)) as [U1 _].
    specialize (U1 (h - 1) ltac:(lia) (keep_absmax h x ltac:(lia) ltac:(lia))).
    pose proof (ix_nonneg (keep (hits h x) x) (keep (hits h x) ms) ltac:(lia) ltac:(apply keep_length; lia)) as N1.
    rewrite <- (wt_host n h x ms Hn Hh L F) in U1. fold c in U1.
    destruct (in_dec Z.eq_dec (- h) x) as [Hi|Hi].
    + split; [tauto|]. intros I. exfalso. assert (Nc : ~ In c (map (pair 0) (nrange n))).
      { intros Hin. apply in_map_iff in Hin. destruct Hin as (A & EA & _). unfold c in EA. apply pair_equal_spec in EA. destruct EA as [EA _]. symmetry in EA.
        apply val_zero_false in EA. assert (T : In true (negs h x)).
        { unfold negs. apply in_map_iff. exists (- h). split; [|exact Hi]. apply andb_true_iff. rewrite Z.eqb_eq, Z.ltb_lt. lia. }
        rewrite EA in T. apply repeat_spec in T. discriminate. }
      rewrite before_app, row_sum in I by assumption. pose proof (before_nonneg (wt n h (val ms)) c r ltac:(intros d Hd; apply W; rewrite Er; apply in_or_app; now right)). lia.
    + split; [intros _|intros _; split; [lia|exact Hi]]. assert (Z0 : val (negs h x) = 0).
      { assert (En : negs h x = repeat false (length x)).
        { apply (list_ext_nth _ _ false); [now rewrite negs_length, repeat_length|]. intros i Hl. rewrite nth_repeat. rewrite negs_length in Hl.
          unfold negs. rewrite (nth_indep _ false ((fun xd => (Z.abs xd =? h) && (xd <? 0)) 0)) by now rewrite map_length. rewrite (map_nth (fun xd => (Z.abs xd =? h) && (xd <? 0))).
          apply andb_false_iff. destruct (Z.eqb_spec (Z.abs (nth i x 0)) h); [right|now left]. apply Z.ltb_ge. destruct (Z.le_gt_cases 0 (nth i x 0)); [assumption|].
          exfalso. apply Hi. replace (- h) with (nth i x 0) by lia. now apply nth_In. }
        rewrite En, <- mb_zero. apply val_mb. pose proof (pow2_pos (Z.of_nat (length x)) ltac:(lia)). lia. }
      assert (Hrow : In c (map (pair 0) (nrange n))).
      { unfold c. rewrite Z0. apply in_map. apply in_nrange. rewrite <- L, <- (hits_length h x). apply val_bound. }
      rewrite before_app_in by exact Hrow. pose proof (before_total (wt n h (val ms)) c (map (pair 0) (nrange n)) ltac:(intros d Hd; apply W; rewrite Er; apply in_or_app; now left) Hrow) as B.
      rewrite row_sum in B by assumption. lia.
  - specialize (D h ltac:(lia)). pose proof (pcount_le h ms ltac:(lia)). lia.
Qed.

(** ** get_index on a mesh *)
Definition mask_of (n : nat) (compressed : bool) : Z := if compressed then 2 ^ (Z.of_nat n - 1) else 0.
Lemma mask_range n c : (1 <= n)%nat -> 0 <= mask_of n c < 2 ^ Z.of_nat n.
Proof.
  intros Hn. pose proof (pow2_pos (Z.of_nat n) ltac:(lia)). unfold mask_of. destruct c; [|lia]. pose proof (pow2_pos (Z.of_nat n - 1) ltac:(lia)).
  replace (Z.of_nat n) with (Z.succ (Z.of_nat n - 1)) at 3 by lia. rewrite Z.pow_succ_r by lia. lia.
Qed.
Lemma mask_bit n c d : (1 <= n)%nat -> Z.testbit (mask_of n c) (Z.of_nat d) = c && (d =? n - 1)%nat.
Proof.
  intros Hn. unfold mask_of. destruct c; [|apply Z.bits_0]. rewrite Z.pow2_bits_eqb by lia. cbn [andb].
  destruct (Nat.eqb_spec d (n - 1)); [apply Z.eqb_eq; lia|apply Z.eqb_neq; lia].
Qed.
Lemma get_index_mask Nmesh x c ml : (1 <= length x)%nat -> get_index Nmesh x c ml =
  let xi := map (fun p => fold_nyquist (fst p) (snd p)) (combine Nmesh x) in
  if existsb (fun p => out_of_mesh (fst p) (snd p)) (combine Nmesh xi) then -1
  else pmesh_get_invariant_index xi (mask_of (length x) c) (match ml with Some m => m | None => -1 end).
Proof. intros H. unfold get_index, mask_of. cbv zeta. destruct c; [rewrite Z.shiftl_mul_pow2, Z.mul_1_l by lia|]; reflexivity. Qed.

(** the index of a mode does not depend on the mesh *)
Theorem C53_mesh_free Nmesh x c ml : (1 <= length x)%nat -> length Nmesh = length x ->
  (forall d, (d < length x)%nat -> (- nth d Nmesh 0) / 2 < nth d x 0 <= nth d Nmesh 0 / 2) ->
  get_index Nmesh x c ml = pmesh_get_invariant_index x (mask_of (length x) c) (match ml with Some m => m | None => -1 end).
Proof.
  intros Hn L H. rewrite get_index_mask by exact Hn. cbv zeta.
  assert (E : map (fun p => fold_nyquist (fst p) (snd p)) (combine Nmesh x) = x /\ existsb (fun p => out_of_mesh (fst p) (snd p)) (combine Nmesh x) = false).
  { clear Hn. revert Nmesh L H. induction x as [|v x IH]; intros [|N Nmesh] L H; cbn [length] in *; try lia; [split; reflexivity|]. cbn [combine map existsb fst snd].
    destruct (IH Nmesh ltac:(lia)) as [E1 E2]; [intros d Hd; apply (H (S d)); lia|]. rewrite E1, E2. pose proof (H 0%nat ltac:(lia)) as H0. cbn [nth] in H0. split.
    - f_equal. unfold fold_nyquist. destruct (Z.eqb_spec v ((- N) / 2)); [lia|reflexivity].
    - unfold out_of_mesh. destruct (Z.gtb_spec v (N / 2)), (Z.ltb_spec v ((- N) / 2)); cbn; try reflexivity; lia. }
  destruct E as [E1 E2]. now rewrite E1, E2.
Qed.
Theorem C53_outside Nmesh x c ml : length Nmesh = length x -> (forall N, In N Nmesh -> 0 <= N) ->
  (exists d, (d < length x)%nat /\ (nth d x 0 < (- nth d Nmesh 0) / 2 \/ nth d Nmesh 0 / 2 < nth d x 0)) ->
  get_index Nmesh x c ml = -1.
Proof.
  intros L Hp (d & Hd & H). rewrite get_index_mask by lia. cbv zeta.
  assert (E : existsb (fun p => out_of_mesh (fst p) (snd p)) (combine Nmesh (map (fun p => fold_nyquist (fst p) (snd p)) (combine Nmesh x))) = true).
  { revert d Nmesh L Hp Hd H. induction x as [|v x IH]; intros d [|N Nmesh] L Hp Hd H; cbn [length] in *; try lia. cbn [combine map existsb fst snd].
    destruct d as [|d]; [|apply orb_true_iff; right; apply (IH d); auto; [intros; apply Hp; now right|lia]]. cbn [nth] in H. pose proof (Hp N (or_introl eq_refl)).
    assert ((- N) / 2 <= N / 2) by (apply Z.div_le_mono; lia).
    apply orb_true_iff. left. unfold fold_nyquist, out_of_mesh. destruct (Z.eqb_spec v ((- N) / 2)); [lia|]. apply orb_true_iff. rewrite Z.gtb_lt, Z.ltb_lt. lia. }
  now rewrite E.
Qed.

(** the modes of an even mesh as the field indexes them *)
Definition mesh_mode (compressed : bool) (h : Z) (x : list Z) : Prop :=
  forall d, (d < length x)%nat -> if compressed && (d =? length x - 1)%nat then 0 <= nth d x 0 <= h else - h <= nth d x 0 < h.
Definition mesh_size (n : nat) (compressed : bool) (h : Z) : Z :=
  if compressed then (2 * h) ^ (Z.of_nat n - 1) * (h + 1) else (2 * h) ^ Z.of_nat n.
Lemma pcount_mesh n c h : (1 <= n)%nat -> pcount h (mb (mask_of n c) 0 n) = mesh_size n c h.
Proof.
  intros Hn. assert (Z0 : forall k, pcount h (repeat false k) = (2 * h) ^ Z.of_nat k).
  { induction k as [|k IH]; [reflexivity|]. cbn [repeat pcount]. rewrite IH, Nat2Z.inj_succ, Z.pow_succ_r by lia. reflexivity. }
  destruct c; unfold mesh_size; [|cbn [mask_of]; now rewrite mb_zero, Z0].
  assert (E : mb (mask_of n true) 0 n = repeat false (n - 1) ++ [true]).
  { apply (list_ext_nth _ _ false); [rewrite mb_length, app_length, repeat_length; cbn; lia|]. intros i Hi. rewrite mb_length in Hi. rewrite mb_nth, mask_bit by lia. cbn [andb Nat.add].
    destruct (Nat.eqb_spec i (n - 1)) as [->|].
    - rewrite app_nth2 by (rewrite repeat_length; lia). now rewrite repeat_length, Nat.sub_diag.
    - rewrite app_nth1 by (rewrite repeat_length; lia). now rewrite nth_repeat. }
  rewrite E. assert (A : forall k, pcount h (repeat false k ++ [true]) = (2 * h) ^ Z.of_nat k * (h + 1)).
  { induction k as [|k IH]; [cbn [repeat app pcount]; change (2 * h) with (2 * h); cbn [Z.of_nat]; rewrite Z.pow_0_r; ring|]. cbn [repeat app pcount]. rewrite IH, Nat2Z.inj_succ, Z.pow_succ_r by lia. ring. }
  rewrite A. f_equal. f_equal. lia.
Qed.
Section EvenMesh.
  Variables (n : nat) (h : Z) (c : bool).
  Hypothesis (Hn : (1 <= n < 32)%nat) (Hh : 1 <= h).
  Let fld (x : list Z) : list Z := map (fold_nyquist (2 * h)) x.
  Lemma fold_even v : fold_nyquist (2 * h) v = if v =? - h then h else v.
  Proof. unfold fold_nyquist. replace (- (2 * h)) with (- h * 2) by ring. rewrite Z.div_mul by lia. replace (2 * h) with (h * 2) by ring. now rewrite Z.div_mul by lia. Qed.
  Lemma fld_combine x : length x = n -> map (fun p => fold_nyquist (fst p) (snd p)) (combine (repeat (2 * h) n) x) = fld x.
  Proof. clear Hn. intros <-. unfold fld. induction x as [|v x IH]; [reflexivity|]. cbn [length repeat combine map fst snd]. now rewrite IH. Qed.
  Lemma fld_nth x d : (d < length x)%nat -> nth d (fld x) 0 = fold_nyquist (2 * h) (nth d x 0).
  Proof. intros H. unfold fld. rewrite (nth_indep _ 0 (fold_nyquist (2 * h) 0)) by now rewrite map_length. apply map_nth. Qed.
  Lemma fld_inside x : length x = n -> mesh_mode c h x -> forall v, In v (fld x) -> - h < v <= h.
  Proof.
    intros L M v Hv. destruct (In_nth _ _ 0 Hv) as (d & Hd & <-). unfold fld in Hd. rewrite map_length in Hd. rewrite fld_nth by exact Hd.
    specialize (M d Hd). rewrite fold_even. destruct (Z.eqb_spec (nth d x 0) (- h)); [lia|]. destruct (c && (d =? length x - 1)%nat); lia.
  Qed.
  Lemma inside_get x ml : length x = n -> (forall v, In v (fld x) -> - h < v <= h) ->
    get_index (repeat (2 * h) n) x c ml = pmesh_get_invariant_index (fld x) (mask_of n c) (match ml with Some m => m | None => -1 end).
  Proof.
    intros L B. rewrite get_index_mask by lia. cbv zeta. rewrite fld_combine, L by exact L.
    assert (E : existsb (fun p => out_of_mesh (fst p) (snd p)) (combine (repeat (2 * h) n) (fld x)) = false).
    { clear L Hn. revert B. generalize (fld x) as y, n as k. induction y as [|v y IH]; intros k B; [now destruct k|]. destruct k as [|k]; [reflexivity|]. cbn [repeat combine existsb fst snd].
      rewrite IH by (intros; apply B; now right). pose proof (B v (or_introl eq_refl)). unfold out_of_mesh. replace (- (2 * h)) with (- h * 2) by ring. rewrite Z.div_mul by lia. replace (2 * h) with (h * 2) by ring. rewrite Z.div_mul by lia.
      destruct (Z.gtb_spec v h), (Z.ltb_spec v (- h)); cbn; try reflexivity; lia. }
    now rewrite E.
  Qed.
  Lemma fld_half x : length x = n -> mesh_mode c h x -> in_half (mask_of n c) (fld x).
  Proof.
    intros L M d Hd T. unfold fld in Hd. rewrite map_length in Hd. rewrite mask_bit in T by lia. specialize (M d Hd). rewrite L, T in M. rewrite fld_nth, fold_even by exact Hd.
    destruct (Z.eqb_spec (nth d x 0) (- h)); lia.
  Qed.
  Lemma even_mesh :
    (forall x, length x = n -> mesh_mode c h x -> 0 <= get_index (repeat (2 * h) n) x c None < mesh_size n c h) /\
    (forall x y, length x = n -> length y = n -> mesh_mode c h x -> mesh_mode c h y ->
       get_index (repeat (2 * h) n) x c None = get_index (repeat (2 * h) n) y c None -> x = y) /\
    (forall m, 0 <= m < mesh_size n c h -> exists x, length x = n /\ mesh_mode c h x /\ get_index (repeat (2 * h) n) x c None = m).
  Proof.
    pose proof (mask_range n c ltac:(lia)) as Hc.
    assert (Lf : forall x, length (fld x) = length x) by (intros; apply map_length).
    split; [|split].
    - intros x L M. pose proof (fld_inside x L M) as B. rewrite inside_get by assumption. pose proof (fld_half x L M) as Hf.
      rewrite index_none by (rewrite ?Lf, ?L; try assumption; lia). rewrite Lf, L. rewrite <- pcount_mesh by lia.
      pose proof (proj1 (half_stored _ _) Hf) as F. rewrite Lf, L in F. split; [apply ix_nonneg; [rewrite Lf; lia|now rewrite mb_length, Lf, L]|].
      apply (ix_even n); [now rewrite Lf|lia|exact F|exact Hh|]. split; [apply absmax_le; [lia|]; intros v Hv; pose proof (B v Hv); lia|intros Hi; pose proof (B _ Hi); lia].
    - intros x y Lx Ly Mx My E. rewrite !inside_get in E by (try assumption; now apply fld_inside).
      apply (C53_injective n) in E; [|lia|exact Hc|now rewrite Lf|now rewrite Lf|now apply fld_half|now apply fld_half].
      apply (list_ext_nth _ _ 0); [lia|]. intros d Hd. assert (Ed : nth d (fld x) 0 = nth d (fld y) 0) by now rewrite E. rewrite !fld_nth, !fold_even in Ed by lia.
      specialize (Mx d Hd). specialize (My d ltac:(lia)). rewrite Ly in My. rewrite Lx in Mx. destruct (Z.eqb_spec (nth d x 0) (- h)), (Z.eqb_spec (nth d y 0) (- h)); destruct (c && (d =? n - 1)%nat); lia.
    - intros m Hm. pose proof (pcount_le h (mb (mask_of n c) 0 n) ltac:(lia)) as Pl. rewrite pcount_mesh in Pl by lia. rewrite <- cube_count in Pl.
      destruct (C53_onto n (mask_of n c) h m ltac:(lia) Hc ltac:(lia) ltac:(lia)) as (y & L & Hy & W & E).
      pose proof (proj1 (half_stored _ _) Hy) as F. rewrite L in F.
      assert (Ny : ~ In (- h) y). { apply (ix_even n y (mb (mask_of n c) 0 n) h L ltac:(lia) F Hh). rewrite pcount_mesh by lia. rewrite index_none, L in E by (rewrite ?L; try assumption; lia). lia. }
      set (x := map (fun d => if negb (c && (d =? n - 1)%nat) && (nth d y 0 =? h) then - h else nth d y 0) (seq 0 n)).
      assert (Lx : length x = n) by (unfold x; now rewrite map_length, seq_length).
      assert (Nx : forall d, (d < n)%nat -> nth d x 0 = if negb (c && (d =? n - 1)%nat) && (nth d y 0 =? h) then - h else nth d y 0).
      { intros d Hd. unfold x. rewrite (nth_map_in _ _ d 0 0%nat) by now rewrite seq_length. now rewrite seq_nth. }
      assert (By : forall d, (d < n)%nat -> - h < nth d y 0 <= h).
      { intros d Hd. assert (Hin : In (nth d y 0) y) by (apply nth_In; lia). pose proof (W _ Hin). destruct (Z.eq_dec (nth d y 0) (- h)) as [Eh|]; [rewrite Eh in Hin; contradiction|lia]. }
      assert (Mx : mesh_mode c h x).
      { intros d Hd. rewrite Lx in *. rewrite Nx by lia. pose proof (By d Hd). destruct (c && (d =? n - 1)%nat) eqn:Ec; cbn [negb andb].
        - split; [apply Hy; [lia|now rewrite mask_bit by lia]|lia].
        - destruct (Z.eqb_spec (nth d y 0) h); lia. }
      assert (Ef : fld x = y).
      { apply (list_ext_nth _ _ 0); [rewrite Lf; lia|]. intros d Hd. rewrite Lf, Lx in Hd. rewrite fld_nth, fold_even, Nx by lia. pose proof (By d Hd).
        destruct (negb (c && (d =? n - 1)%nat)); cbn [andb].
        - destruct (Z.eqb_spec (nth d y 0) h); [rewrite Z.eqb_refl; lia|]. destruct (Z.eqb_spec (nth d y 0) (- h)); lia.
        - destruct (Z.eqb_spec (nth d y 0) (- h)); lia. }
      exists x. split; [exact Lx|]. split; [exact Mx|]. rewrite inside_get by (try assumption; now apply fld_inside). now rewrite Ef.
  Qed.
End EvenMesh.
Theorem C53_even_mesh n h c : (1 <= n < 32)%nat -> 1 <= h ->
  (forall x, length x = n -> mesh_mode c h x -> 0 <= get_index (repeat (2 * h) n) x c None < mesh_size n c h) /\
  (forall x y, length x = n -> length y = n -> mesh_mode c h x -> mesh_mode c h y ->
     get_index (repeat (2 * h) n) x c None = get_index (repeat (2 * h) n) y c None -> x = y) /\
  (forall m, 0 <= m < mesh_size n c h -> exists x, length x = n /\ mesh_mode c h x /\ get_index (repeat (2 * h) n) x c None = m).
Proof. apply even_mesh. Qed.
(** closer to zero in the maximum norm means a smaller index *)
Theorem C53_closer n cmask x y s : (n < 32)%nat -> 0 <= cmask < 2 ^ Z.of_nat n -> length x = n -> length y = n -> in_half cmask x -> in_half cmask y -> 0 <= s ->
  within s x -> ~ within s y -> pmesh_get_invariant_index x cmask (-1) < pmesh_get_invariant_index y cmask (-1).
Proof.
  intros Hn Hc Lx Ly Hx Hy Hs Wx Wy. destruct (C53_shells n cmask x s Hn Hc Lx Hx Hs) as [_ [H1 _]]. destruct (C53_shells n cmask y s Hn Hc Ly Hy Hs) as [_ [_ H2]].
  specialize (H1 Wx). destruct (Z.lt_ge_cases (pmesh_get_invariant_index y cmask (-1)) (cube n cmask s)) as [H|H]; [destruct (Wy (H2 H))|lia].
Qed.
(** the modes of any mesh, as the field indexes them, have different indices *)
Definition field_mode (c : bool) (Nmesh x : list Z) : Prop :=
  forall d, (d < length x)%nat -> let N := nth d Nmesh 0 in
    if c && (d =? length x - 1)%nat then 0 <= nth d x 0 <= N / 2 else - (N / 2) <= nth d x 0 <= (N - 1) / 2.
Theorem C53_any_mesh Nmesh x y c : (1 <= length Nmesh < 32)%nat -> (forall N, In N Nmesh -> 1 <= N) -> length x = length Nmesh -> length y = length Nmesh ->
  field_mode c Nmesh x -> field_mode c Nmesh y ->
  0 <= get_index Nmesh x c None /\ (get_index Nmesh x c None = get_index Nmesh y c None -> x = y).
Proof.
  intros Hn Hp Lx Ly Mx My. set (fld := fun x => map (fun p => fold_nyquist (fst p) (snd p)) (combine Nmesh x)).
  assert (Np : forall d, (d < length Nmesh)%nat -> 1 <= nth d Nmesh 0) by (intros; apply Hp; now apply nth_In).
  assert (Lf : forall x, length x = length Nmesh -> length (fld x) = length Nmesh) by (intros z Lz; unfold fld; rewrite map_length, combine_length; lia).
  assert (Nf : forall x d, length x = length Nmesh -> (d < length Nmesh)%nat -> nth d (fld x) 0 = fold_nyquist (nth d Nmesh 0) (nth d x 0)).
  { intros z d Lz Hd. unfold fld. rewrite (nth_map_in _ _ d 0 (0, 0)) by (rewrite combine_length; lia). now rewrite combine_nth by lia. }
  assert (B : forall x d, length x = length Nmesh -> field_mode c Nmesh x -> (d < length Nmesh)%nat -> (- nth d Nmesh 0) / 2 <= nth d (fld x) 0 <= nth d Nmesh 0 / 2 /\
     (c && (d =? length Nmesh - 1)%nat = true -> 0 <= nth d (fld x) 0)).
  { intros z d Lz M Hd. rewrite Nf by assumption. specialize (M d ltac:(lia)). rewrite Lz in M. cbv zeta in M. pose proof (Np d Hd). set (N := nth d Nmesh 0) in *. set (v := nth d z 0) in *.
    assert (Q : (- N) / 2 <= - (N / 2) /\ (N - 1) / 2 <= N / 2 /\ 0 <= N / 2 /\ (- N) / 2 < 0) by (Z.to_euclidean_division_equations; lia).
    unfold fold_nyquist. destruct (Z.eqb_spec v ((- N) / 2)); destruct (c && (d =? length Nmesh - 1)%nat); lia. }
  assert (G : forall x, length x = length Nmesh -> field_mode c Nmesh x -> get_index Nmesh x c None = pmesh_get_invariant_index (fld x) (mask_of (length Nmesh) c) (-1) /\ in_half (mask_of (length Nmesh) c) (fld x)).
  { intros z Lz M. split.
    - rewrite get_index_mask by lia. cbv zeta. fold (fld z). rewrite Lz.
      assert (E : existsb (fun p => out_of_mesh (fst p) (snd p)) (combine Nmesh (fld z)) = false).
      { destruct (existsb _ _) eqn:E; [|reflexivity]. apply existsb_exists in E. destruct E as (p & Hin & O). destruct (In_nth _ _ (0, 0) Hin) as (d & Hd & Ed).
        rewrite combine_length, (Lf z Lz) in Hd. rewrite combine_nth in Ed by now rewrite Lf. subst p. cbn [fst snd] in O. pose proof (B z d Lz M ltac:(lia)) as [B1 _].
        unfold out_of_mesh in O. apply orb_true_iff in O. rewrite Z.gtb_lt, Z.ltb_lt in O. lia. }
      now rewrite E.
    - intros d Hd T. rewrite (Lf z Lz) in Hd. rewrite mask_bit in T by lia. now apply (B z d Lz M Hd). }
  destruct (G x Lx Mx) as [Ex Hx]. destruct (G y Ly My) as [Ey Hy]. pose proof (mask_range (length Nmesh) c ltac:(lia)) as Hc. rewrite Ex, Ey. split.
  - apply (C53_shells (length Nmesh) (mask_of (length Nmesh) c) (fld x) 0); auto; lia.
  - intros E. apply (C53_injective (length Nmesh)) in E; auto; try lia. apply (list_ext_nth _ _ 0); [lia|]. intros d Hd. rewrite Lx in Hd.
    assert (Ed : nth d (fld x) 0 = nth d (fld y) 0) by now rewrite E. rewrite !Nf in Ed by assumption. specialize (Mx d ltac:(lia)). specialize (My d ltac:(lia)). rewrite Lx in Mx. rewrite Ly in My. cbv zeta in Mx, My.
    pose proof (Np d Hd). set (N := nth d Nmesh 0) in *. set (u := nth d x 0) in *. set (v := nth d y 0) in *.
    assert (Q : (- N) / 2 < 0 /\ 0 <= N / 2 /\ ((- N) / 2 = - (N / 2) /\ (N - 1) / 2 < N / 2 \/ (- N) / 2 < - (N / 2))) by (Z.to_euclidean_division_equations; lia).
    unfold fold_nyquist in Ed. destruct (Z.eqb_spec u ((- N) / 2)), (Z.eqb_spec v ((- N) / 2)); destruct (c && (d =? length Nmesh - 1)%nat); lia.
Qed.
Print Assumptions C53_closer.
Print Assumptions C53_any_mesh.
Print Assumptions C53_shells.
Print Assumptions C53_injective.
Print Assumptions C53_onto.
Print Assumptions C53_even_mesh.

(** a compressed mesh in three dimensions and a mesh in two; on the latter -2 is the Nyquist mode *)
Example C53_case : get_index [4; 4; 4] [-1; 1; 0] true None = 9 /\
  map (fun x => get_index [4; 4] x false None) [[0; 0]; [1; 0]; [0; 1]; [1; 1]; [-1; 0]; [-1; 1]; [0; -1]; [1; -1]; [-1; -1]; [-2; 0]; [-2; -2]] = [0; 1; 2; 3; 4; 5; 6; 7; 8; 9; 15] /\
  mesh_size 2 false 2 = 16 /\ mesh_mode false 2 [-2; -2] /\ field_mode true [4; 5; 6] [-2; 2; 3] /\ get_index [4; 5; 6] [-2; 2; 3] true None = 123.
Proof.
  assert (M : mesh_mode false 2 [-2; -2]) by (intros [|[|d]] Hd; cbn in *; lia).
  split; [vm_compute; reflexivity|]. split; [vm_compute; reflexivity|]. split; [reflexivity|]. split; [exact M|].
  split; [intros [|[|[|d]]] Hd; cbn in *; lia|vm_compute; reflexivity].
Qed.

(** on a mesh of odd size the mode below the lowest one is taken for the highest *)
Theorem C53_odd_refuted : get_index [5] [-3] false None = get_index [5] [2] false None /\ get_index [5] [2] false None <> -1.
Proof. split; [reflexivity|vm_compute; discriminate]. Qed.

(** ** C54 *)
Theorem C54_truncate Nmesh x c M : (1 <= length x < 32)%nat -> length Nmesh = length x -> 1 <= M ->
  get_index Nmesh x c (Some M) = if get_index Nmesh x c None <? M then get_index Nmesh x c None else -1.
Proof.
  intros Hn L HM. rewrite !get_index_mask by lia. cbv zeta. set (xi := map _ (combine Nmesh x)).
  assert (Li : length xi = length x) by (unfold xi; rewrite map_length, combine_length; lia).
  destruct (existsb _ _); [now destruct (-1 <? M)|]. pose proof (mask_range (length x) c ltac:(lia)) as Hc.
  destruct (in_ignored_half xi (mask_of (length x) c)) eqn:Ig.
  - assert (Ex : exists d, (d < length xi)%nat /\ Z.testbit (mask_of (length x) c) (Z.of_nat d) = true /\ nth d xi 0 < 0).
    { unfold in_ignored_half in Ig. apply existsb_exists in Ig. destruct Ig as ([d v] & Hin & T). cbn [fst snd] in T. apply andb_true_iff in T. destruct T as [T1 T2].
      assert (Hin' := Hin). apply in_combine_l in Hin'. apply in_seq in Hin'. exists d. split; [lia|].
      assert (v = nth d xi 0).
      { clear -Hin. assert (G : forall k l, In (d, v) (combine (seq k (length l)) l) -> (k <= d)%nat /\ v = nth (d - k) l 0).
        { intros k l. revert k. induction l as [|u l IH]; intros k Hk; [destruct Hk|]. cbn [length seq combine] in Hk. destruct Hk as [E|Hk].
          - injection E as <- <-. rewrite Nat.sub_diag. split; [lia|reflexivity].
          - destruct (IH (S k) Hk) as [H1 H2]. split; [lia|]. rewrite H2. replace (d - k)%nat with (S (d - S k)) by lia. reflexivity. }
        destruct (G 0%nat xi Hin) as [_ G2]. now rewrite Nat.sub_0_r in G2. }
      subst v. split; [|now apply Z.ltb_lt]. apply negb_true_iff, Z.eqb_neq in T1. destruct (Z.testbit (mask_of (length x) c) (Z.of_nat d)) eqn:Tb; [reflexivity|].
      exfalso. apply T1. apply Z.bits_inj'. intros k Hk. rewrite Z.shiftl_mul_pow2, Z.mul_1_l, Z.land_spec, Z.bits_0, Z.pow2_bits_eqb by lia.
      destruct (Z.eqb_spec (Z.of_nat d) k) as [<-|]; [now rewrite Tb|apply andb_false_r]. }
    rewrite !(C53_other_half _ _ _ Ex). now destruct (-1 <? M).
  - apply stored_half, half_stored in Ig. rewrite <- Li in *. rewrite !index_ix by (auto; lia). unfold trunc. destruct (Z.geb_spec M 0); [|lia]. cbn [andb Z.geb Z.compare].
    destruct (Z.geb_spec (ix xi (mb (mask_of (length xi) c) 0 (length xi))) M), (Z.ltb_spec (ix xi (mb (mask_of (length xi) c) 0 (length xi))) M); lia.
Qed.
Print Assumptions C54_truncate.
Example C54_case : get_index [4; 4] [-1; 1] false (Some 6) = 5 /\ get_index [4; 4] [-1; 1] false (Some 5) = -1.
Proof. split; vm_compute; reflexivity. Qed.
(** a limit of zero still lets the zero mode through, and a negative limit is no limit *)
Theorem C54_zero_refuted : get_index [4; 4] [0; 0] false (Some 0) = 0 /\ get_index [4; 4] [-1; 1] false (Some (-7)) = 5.
Proof. split; vm_compute; reflexivity. Qed.
