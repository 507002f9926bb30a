(** Property C97: the power spectrum of the deprecated ParticleMesh. *)
From Coq Require Import List Arith ZArith Reals Lra Lia Bool Permutation.
From Verif Require Import Base ListFacts WrapModel WrapProofs DomainModel DomainFill WindowModel WindowStencil WindowSpread MeshRoute MeshTile FieldModel FieldProperties FourierFacts LegacyMesh TransferModel TransferProperties PowerModel.
Import ListNotations.
Local Open Scope R_scope.

(** ** What the user means *)
(** the length of the vector of frequencies *)
Definition modulus (N : Z) (k : list Z) : R := sqrt (w_squared N k).
(** bin [b] of [nb] bins between 0 and pi *)
Definition in_bin (nb b : nat) (x : R) : Prop := PI * INR b / INR nb <= x < PI * INR (S b) / INR nb.
Definition bin_dec nb b x : {in_bin nb b x} + {~ in_bin nb b x}.
Proof.
  unfold in_bin. destruct (Rle_dec (PI * INR b / INR nb) x) as [H|H]; [|right; intros [C _]; contradiction].
  destruct (Rlt_dec x (PI * INR (S b) / INR nb)) as [H'|H']; [left; split; assumption|right; intros [_ C]; contradiction].
Defined.
(** the modes of a list that are in a bin *)
Definition members (N : Z) (nb b : nat) (l : list (list Z)) : list (list Z) :=
  filter (fun k => if bin_dec nb b (modulus N k) then true else false) l.
Definition total {A} (f : A -> R) (l : list A) : R := fold_right Rplus 0 (map f l).
(** the modes of the last row of a rank *)
Definition last_modes (s : spectrum) : list (list Z) :=
  filter (fun k => (nth 0 k 0 =? nth 0 (sp_start s) 0 + nth 0 (sp_shape s) 0 - 1)%Z) (modes_of s).

(** ** Sums *)
Lemma total_ext {A} (f g : A -> R) l : (forall a, In a l -> f a = g a) -> total f l = total g l.
Proof. intros H. unfold total. f_equal. apply map_ext_in. exact H. Qed.
Lemma total_app {A} (f : A -> R) l l' : total f (l ++ l') = total f l + total f l'.
Proof. unfold total. rewrite map_app. apply sum_app. Qed.
Lemma total_flat {A B} (f : B -> R) (g : A -> list B) l : total f (flat_map g l) = total (fun a => total f (g a)) l.
Proof. induction l as [|a l IH]; [reflexivity|]. cbn [flat_map]. rewrite total_app, IH. reflexivity. Qed.
Lemma total_map {A B} (f : B -> R) (g : A -> B) l : total f (map g l) = total (fun a => f (g a)) l.
Proof. unfold total. rewrite map_map. reflexivity. Qed.
Lemma total_perm {A} (f : A -> R) l l' : Permutation l l' -> total f l = total f l'.
Proof. intros P. apply sum_perm, Permutation_map, P. Qed.
Lemma total_plus {A} (f g : A -> R) l : total (fun a => f a + g a) l = total f l + total g l.
Proof. induction l as [|a l IH]; [unfold total; cbn; ring|]. unfold total in *. cbn [map fold_right]. rewrite IH. ring. Qed.
Lemma total_zero {A} (f : A -> R) l : (forall a, In a l -> f a = 0) -> total f l = 0.
Proof.
  induction l as [|a l IH]; intros H; [reflexivity|]. unfold total in *. cbn [map fold_right].
  rewrite (H a (or_introl eq_refl)), IH; [ring|]. intros b Hb. apply H. right. exact Hb.
Qed.
Lemma total_swap {A B} (f : A -> B -> R) l l' : total (fun a => total (f a) l') l = total (fun b => total (fun a => f a b) l) l'.
Proof.
  induction l as [|a l IH].
  - symmetry. apply total_zero. reflexivity.
  - change (total (fun a => total (f a) l') (a :: l)) with (total (f a) l' + total (fun a => total (f a) l') l).
    rewrite IH, <- total_plus. reflexivity.
Qed.
Lemma total_filter {A} (f : A -> R) (p : A -> bool) l : total f (filter p l) = total (fun a => if p a then f a else 0) l.
Proof.
  induction l as [|a l IH]; [reflexivity|]. cbn [filter]. unfold total in *. cbn [map fold_right].
  destruct (p a); cbn [map fold_right]; rewrite IH; [reflexivity|ring].
Qed.
Lemma total_one {A} (l : list A) : total (fun _ => 1) l = INR (length l).
Proof.
  induction l as [|a l IH]; [reflexivity|]. unfold total in *. cbn [map fold_right length]. rewrite IH, S_INR. ring.
Qed.

Lemma total_single {A} (f : A -> R) a : total f [a] = f a.
Proof. unfold total. cbn [map fold_right]. ring. Qed.

(** ** Bins *)
Lemma count_below (p : nat -> bool) n : (forall j, p (S j) = true -> p j = true) ->
  (length (filter p (seq 0 n)) <= n)%nat /\ forall j, (j < n)%nat -> p j = (j <? length (filter p (seq 0 n)))%nat.
Proof.
  intros Hp. induction n as [|n [L IH]]; [split; [reflexivity|lia]|].
  rewrite seq_S, filter_app, app_length. cbn [Nat.add filter]. destruct (p n) eqn:E; cbn [length].
  - assert (All : forall j, (j < n)%nat -> p j = true).
    { intros j Hj. remember (n - j)%nat as d. revert j Hj Heqd. induction d as [|d IHd]; intros j Hj Hd; [lia|].
      apply Hp. destruct (Nat.eq_dec (S j) n) as [->|Ne]; [exact E|]. apply IHd; lia. }
    assert (Full : length (filter p (seq 0 n)) = n).
    { destruct n as [|n]; [reflexivity|]. specialize (IH n ltac:(lia)). rewrite All in IH by lia. symmetry in IH. apply Nat.ltb_lt in IH. lia. }
    rewrite Full. split; [lia|]. intros j Hj. destruct (Nat.eq_dec j n) as [->|Ne]; [rewrite E|rewrite All by lia]; symmetry; apply Nat.ltb_lt; lia.
  - rewrite Nat.add_0_r. split; [lia|]. intros j Hj. destruct (Nat.eq_dec j n) as [->|Ne]; [rewrite E; symmetry; apply Nat.ltb_ge; lia|apply IH; lia].
Qed.
Lemma edge_below nb j x : (0 < nb)%nat -> 0 <= x -> ((PI * INR j / INR nb) ^ 2 <= x <-> PI * INR j / INR nb <= sqrt x).
Proof.
  intros Hnb Hx. assert (0 <= PI * INR j / INR nb).
  { apply Rmult_le_pos; [apply Rmult_le_pos; [apply Rlt_le, PI_RGT_0|apply pos_INR]|]. apply Rlt_le, Rinv_0_lt_compat, lt_0_INR, Hnb. }
  rewrite <- (sqrt_pow2 (PI * INR j / INR nb)) at 2 by assumption. split; intros Hle.
  - apply sqrt_le_1_alt. exact Hle.
  - apply sqrt_le_0; [apply pow2_ge_0|exact Hx|exact Hle].
Qed.
Lemma digitize_bin nb b x : (b < nb)%nat -> 0 <= x -> (digitize x (w2edges nb) = S b <-> in_bin nb b (sqrt x)).
Proof.
  intros Hb Hx. assert (Hnb : (0 < nb)%nat) by lia. unfold digitize, w2edges.
  set (p := fun j => if Rle_dec ((PI * INR j / INR nb) ^ 2) x then true else false).
  assert (E : length (filter (fun e => if Rle_dec e x then true else false) (map (fun b => (PI * INR b / INR nb) ^ 2) (seq 0 (S nb)))) =
              length (filter p (seq 0 (S nb)))).
  { generalize (seq 0 (S nb)). intros l. induction l as [|j l IH]; [reflexivity|]. cbn [map filter]. unfold p at 1.
    destruct (Rle_dec ((PI * INR j / INR nb) ^ 2) x); cbn [length]; rewrite IH; reflexivity. }
  rewrite E. assert (Pt : forall j, p j = true <-> PI * INR j / INR nb <= sqrt x).
  { intros j. unfold p. destruct (Rle_dec ((PI * INR j / INR nb) ^ 2) x) as [H|H]; split; intros H'; try reflexivity; try discriminate.
    - apply edge_below; assumption.
    - exfalso. apply H, edge_below; assumption. }
  destruct (count_below p (S nb)) as [_ C].
  { intros j Hj. apply Pt in Hj. apply Pt. eapply Rle_trans; [|exact Hj]. unfold Rdiv. apply Rmult_le_compat_r.
    - apply Rlt_le, Rinv_0_lt_compat, lt_0_INR, Hnb.
    - apply Rmult_le_compat_l; [apply Rlt_le, PI_RGT_0|]. apply le_INR. lia. }
  set (c := length (filter p (seq 0 (S nb)))) in *. unfold in_bin. rewrite <- Pt. rewrite (C b) by lia. rewrite Nat.ltb_lt.
  assert (Q : sqrt x < PI * INR (S b) / INR nb <-> p (S b) = false).
  { specialize (Pt (S b)). destruct (p (S b)); split; intros H; try reflexivity; try discriminate.
    - exfalso. destruct Pt as [Pt _]. specialize (Pt eq_refl). lra.
    - destruct (Rlt_dec (sqrt x) (PI * INR (S b) / INR nb)) as [L|L]; [exact L|]. exfalso. apply Rnot_lt_le in L. apply Pt in L. discriminate. }
  rewrite Q, (C (S b)) by lia. rewrite Nat.ltb_ge. lia.
Qed.

(** ** The arrays *)
Lemma nth_vadd nb a b j : (j < nb)%nat -> nth j (vadd nb a b) 0 = nth j a 0 + nth j b 0.
Proof. intros H. unfold vadd. rewrite (nth_map_in _ _ _ 0 0%nat) by (rewrite seq_length; exact H). rewrite seq_nth by exact H. reflexivity. Qed.
Lemma nth_vzero nb j : nth j (vzero nb) 0 = 0.
Proof. unfold vzero. revert j. induction nb as [|nb IH]; intros [|j]; cbn [repeat nth]; auto. Qed.
Lemma nth_vsum nb l j : (j < nb)%nat -> nth j (vsum nb l) 0 = total (fun v => nth j v 0) l.
Proof.
  intros H. unfold vsum, total. induction l as [|v l IH]; cbn [fold_right map]; [apply nth_vzero|]. rewrite nth_vadd by exact H. rewrite IH. reflexivity.
Qed.
Lemma nth_row N nb s row f j : (j < nb)%nat -> nth j (row_sums N nb s row f) 0 =
  total (fun rest => if (digitize (row_w2 N s row (row :: rest)) (w2edges nb) =? S j)%nat then f rest else 0) (row_cells s).
Proof. intros H. unfold row_sums. rewrite (nth_map_in _ _ _ 0 0%nat) by (rewrite seq_length; exact H). rewrite seq_nth by exact H. reflexivity. Qed.
Lemma steps N nb ws l : forall P C W P' C' W', fold_left (ps_step N nb ws) l (P, C, W) = (P', C', W') ->
  (forall j, (j < nb)%nat -> nth j P' 0 = nth j P 0 + total (fun row => total (fun s => nth j (row_p N nb s row) 0) ws) l) /\
  (forall j, (j < nb)%nat -> nth j C' 0 = nth j C 0 + total (fun row => total (fun s => nth j (row_n N nb s row) 0) ws) l) /\
  (forall l' r j, l = l' ++ [r] -> (j < nb)%nat -> nth j W' 0 = total (fun s => nth j (row_w N nb s r) 0) ws).
Proof.
  induction l as [|r l IH]; intros P C W P' C' W' E.
  - injection E as <- <- <-. unfold total at 1 3. cbn [map fold_right]. split; [intros; ring|split; [intros; ring|]].
    intros l' r j El. destruct l'; discriminate.
  - cbn [fold_left] in E. unfold ps_step at 2 in E. destruct (IH _ _ _ _ _ _ E) as [HP [HC HW]]. split; [|split].
    + intros j Hj. rewrite HP, nth_vadd, nth_vsum, total_map by exact Hj. unfold total at 4. cbn [map fold_right]. fold (total (fun row => total (fun s => nth j (row_p N nb s row) 0) ws) l). ring.
    + intros j Hj. rewrite HC, nth_vadd, nth_vsum, total_map by exact Hj. unfold total at 4. cbn [map fold_right]. fold (total (fun row => total (fun s => nth j (row_n N nb s row) 0) ws) l). ring.
    + intros l' q j El Hj. destruct l' as [|r' l'].
      * injection El as -> ->. cbn [fold_left] in E. injection E as _ _ <-. rewrite nth_vsum, total_map by exact Hj. reflexivity.
      * injection El as -> ->. apply (HW l'); [reflexivity|exact Hj].
Qed.

(** ** All ranks *)
Section World.
Variables (N : Z) (cshape : list Z) (ws : list spectrum) (G : list Z -> cplx) (nb m : nat).
Hypotheses (SO : spread_out N cshape ws) (HG : holds_modes ws G) (Ev : Z.Even N) (Nd : (2 <= length cshape)%nat).
Hypotheses (Eq : List.Forall (fun s => nth 0 (sp_shape s) 0 = Z.of_nat m)%Z ws) (M2 : (2 <= m)%nat).

Lemma rank_shape s : In s ws -> sp_shape s = Z.of_nat m :: tl (sp_shape s).
Proof.
  intros Hs. destruct (rank_dims N cshape ws SO s Hs) as [_ L]. rewrite List.Forall_forall in Eq. specialize (Eq s Hs).
  destruct (sp_shape s) as [|n l]; [cbn [length] in L; lia|]. cbn [nth] in Eq. subst n. reflexivity.
Qed.
Lemma cells_split s : In s ws -> cells_of (sp_shape s) = flat_map (fun x => map (cons x) (row_cells s)) (zrange 0 m).
Proof. intros Hs. rewrite (rank_shape s Hs) at 1. rewrite cells_cons, Nat2Z.id. reflexivity. Qed.
Lemma in_row s row rest : In s ws -> In row (zrange 0 m) -> In rest (row_cells s) -> In (row :: rest) (cells_of (sp_shape s)).
Proof. intros Hs Hr Hc. rewrite cells_split by exact Hs. apply in_flat_map. exists row. split; [exact Hr|]. apply in_map. exact Hc. Qed.
Lemma weight_one s row rest : In s ws -> In row (zrange 0 m) -> In rest (row_cells s) -> half N s rest = 1.
Proof.
  intros Hs Hr Hc. destruct (rank_dims N cshape ws SO s Hs) as [L1 L2].
  assert (Hl : In (Z.of_nat m - 1 :: rest)%Z (cells_of (sp_shape s))) by (apply in_row; [exact Hs|apply in_zrange; lia|exact Hc]).
  assert (Hz : In (0 :: rest)%Z (cells_of (sp_shape s))) by (apply in_row; [exact Hs|apply in_zrange; lia|exact Hc]).
  pose proof (in_modes s _ Hl) as Il. pose proof (in_modes s _ Hz) as Iz.
  assert (Bl := rank_inside N cshape ws SO s Hs _ Il 0%nat ltac:(lia)). assert (Bz := rank_inside N cshape ws SO s Hs _ Iz 0%nat ltac:(lia)).
  rewrite (mode_nth s (length cshape) L1 L2 _ 0 Hl) in Bl. rewrite (mode_nth s (length cshape) L1 L2 _ 0 Hz) in Bz. cbn [nth] in Bl, Bz.
  unfold half, singular. destruct (is0_spec (w_at N s 0 (nth 0 (sp_shape s) 0 - 1)%Z)) as [E|E]; [|reflexivity].
  exfalso. rewrite (rank_shape s Hs) in E. cbn [nth] in E. unfold w_at in E. apply frequency_zero in E; [lia|apply (so_N _ _ _ SO)|].
  lia.
Qed.
Lemma row_square s row rest : In s ws -> In row (zrange 0 m) -> In rest (row_cells s) ->
  row_w2 N s row (row :: rest) = w_squared N (zadd (row :: rest) (sp_start s)).
Proof.
  intros Hs Hr Hc. destruct (rank_dims N cshape ws SO s Hs) as [L1 L2]. pose proof (in_row s row rest Hs Hr Hc) as Hi.
  change (row_w2 N s row (row :: rest)) with (row_w2 N s (nth 0 (row :: rest) 0%Z) (row :: rest)).
  rewrite (row_w2_mode N s (length cshape) L1 L2) by (try exact Hi; lia).
  rewrite <- w_squared_code by exact Ev. rewrite (mode_length s (length cshape) L1 L2 _ Hi). reflexivity.
Qed.
Lemma square_pos k : 0 <= w_squared N k.
Proof.
  unfold w_squared. induction (seq 0 (length k)) as [|d l IH]; cbn [map fold_right]; [lra|].
  pose proof (pow2_ge_0 (frequency N k d)). lra.
Qed.
Lemma row_bin s row rest b : (b < nb)%nat -> In s ws -> In row (zrange 0 m) -> In rest (row_cells s) ->
  (digitize (row_w2 N s row (row :: rest)) (w2edges nb) =? S b)%nat =
  (if bin_dec nb b (modulus N (zadd (row :: rest) (sp_start s))) then true else false).
Proof.
  intros Hb Hs Hr Hc. rewrite (row_square s row rest Hs Hr Hc). pose proof (square_pos (zadd (row :: rest) (sp_start s))) as Sp.
  pose proof (digitize_bin nb b _ Hb Sp) as D. fold (modulus N (zadd (row :: rest) (sp_start s))) in D.
  destruct (bin_dec nb b _) as [I|I].
  - apply Nat.eqb_eq, D, I.
  - apply Nat.eqb_neq. intros C. apply I, D, C.
Qed.
(** the sum over rows, ranks and cells is a sum over modes *)
Lemma sum_rows (F : spectrum -> Z -> list Z -> R) (v : list Z -> R) b : (b < nb)%nat ->
  (forall s row rest, In s ws -> In row (zrange 0 m) -> In rest (row_cells s) -> F s row rest = v (zadd (row :: rest) (sp_start s))) ->
  total (fun row => total (fun s => nth b (row_sums N nb s row (F s row)) 0) ws) (zrange 0 m) = total v (members N nb b (cells_of cshape)).
Proof.
  intros Hb HF. rewrite total_swap. unfold members. rewrite total_filter. rewrite <- (total_perm _ _ _ (so_tile _ _ _ SO)), total_flat.
  apply total_ext. intros s Hs. unfold modes_of. rewrite total_map, cells_split by exact Hs. rewrite total_flat. apply total_ext. intros row Hr.
  rewrite nth_row by exact Hb. rewrite total_map. apply total_ext. intros rest Hc. rewrite row_bin by assumption.
  rewrite (HF s row rest) by assumption. reflexivity.
Qed.
Lemma sum_last (F : spectrum -> Z -> list Z -> R) (v : list Z -> R) b : (b < nb)%nat ->
  (forall s row rest, In s ws -> In row (zrange 0 m) -> In rest (row_cells s) -> F s row rest = v (zadd (row :: rest) (sp_start s))) ->
  total (fun s => nth b (row_sums N nb s (Z.of_nat m - 1)%Z (F s (Z.of_nat m - 1)%Z)) 0) ws = total v (members N nb b (flat_map last_modes ws)).
Proof.
  intros Hb HF. unfold members. rewrite total_filter, total_flat. apply total_ext. intros s Hs. unfold last_modes. rewrite total_filter.
  unfold modes_of. rewrite total_map, cells_split by exact Hs. rewrite total_flat.
  destruct (rank_dims N cshape ws SO s Hs) as [L1 L2].
  replace (zrange 0 m) with (zrange 0 (m - 1) ++ [(Z.of_nat m - 1)%Z]).
  2: { replace m with ((m - 1) + 1)%nat at 3 by lia. rewrite zrange_app. f_equal. cbn [zrange]. f_equal. lia. }
  rewrite total_app. rewrite (total_zero _ (zrange 0 (m - 1))).
  - rewrite Rplus_0_l, total_single.
    assert (Hr : In (Z.of_nat m - 1)%Z (zrange 0 m)) by (apply in_zrange; lia).
    rewrite nth_row by exact Hb. rewrite total_map. apply total_ext. intros rest Hc. rewrite row_bin by assumption.
    rewrite (HF s _ rest) by assumption. rewrite (mode_nth s (length cshape) L1 L2 _ 0) by (apply in_row; assumption). cbn [nth].
    rewrite (rank_shape s Hs). cbn [nth].
    replace (nth 0 (sp_start s) 0 + (Z.of_nat m - 1) =? nth 0 (sp_start s) 0 + Z.of_nat m - 1)%Z with true by (symmetry; apply Z.eqb_eq; lia). reflexivity.
  - intros row Hr. apply in_zrange in Hr. rewrite total_map. apply total_zero. intros rest Hc.
    rewrite (mode_nth s (length cshape) L1 L2 _ 0) by (apply in_row; [exact Hs|apply in_zrange; lia|exact Hc]). cbn [nth].
    rewrite (rank_shape s Hs). cbn [nth].
    replace (nth 0 (sp_start s) 0 + row =? nth 0 (sp_start s) 0 + Z.of_nat m - 1)%Z with false by (symmetry; apply Z.eqb_neq; lia). reflexivity.
Qed.
Lemma all_rows s : In s ws -> length (rows s) = m.
Proof. intros Hs. unfold rows. rewrite zrange_length, (rank_shape s Hs). cbn [nth]. apply Nat2Z.id. Qed.
Lemma fewest_all : ws <> [] -> fewest ws = m.
Proof.
  intros Ne. unfold fewest. destruct ws as [|s0 l] eqn:E; [contradiction|]. rewrite <- E in *.
  rewrite (all_rows s0) by (rewrite E; left; reflexivity).
  assert (A : forall s, In s ws -> length (rows s) = m) by (intros; apply all_rows; assumption).
  clear - A. induction ws as [|s r IH]; [reflexivity|]. cbn [map fold_right]. rewrite IH by (intros; apply A; right; assumption).
  rewrite (A s) by (left; reflexivity). apply Nat.min_id.
Qed.
Definition mean_power (l : list (list Z)) : option R :=
  match l with [] => None | _ => Some (total (fun k => cabs (G k) ^ 2) l / INR (length l)) end.
Definition mean_last (l l' : list (list Z)) : option R :=
  match l with [] => None | _ => Some (total (modulus N) l' / INR (length l)) end.
Lemma over_length {A} (l : list A) p : over p (total (fun _ => 1) l) = match l with [] => None | _ => Some (p / INR (length l)) end.
Proof.
  rewrite total_one. unfold over. destruct (is0_spec (INR (length l))) as [E|E]; destruct l as [|a l]; try reflexivity.
  - exfalso. revert E. apply not_0_INR. discriminate.
  - exfalso. apply E. reflexivity.
Qed.
Lemma spectrum_world : ws <> [] -> exists ps wo,
  PowerSpectrum false N nb ws = map (fun _ => Ret (ps, wo)) ws /\ length ps = nb /\ length wo = nb /\
  forall b, (b < nb)%nat ->
    nth b ps None = mean_power (members N nb b (cells_of cshape)) /\
    nth b wo None = mean_last (members N nb b (cells_of cshape)) (members N nb b (flat_map last_modes ws)).
Proof.
  intros Ne. unfold PowerSpectrum.
  assert (NoE : existsb (fun s => match ps_early false s with Some _ => true | None => false end) ws = false).
  { apply not_true_is_false. intros C. apply existsb_exists in C. destruct C as [s [Hs C]]. unfold ps_early in C.
    rewrite (all_rows s Hs) in C. destruct m as [|m']; [lia|]. cbn in C. discriminate. }
  rewrite NoE. rewrite fewest_all by exact Ne. destruct (fold_left _ _ _) as [[P C] W] eqn:E.
  destruct (steps _ _ _ _ _ _ _ _ _ _ E) as [HP [HC HW]]. exists (vover nb P C), (vover nb W C).
  split; [|split; [|split]].
  - apply map_ext_in. intros s Hs. rewrite (all_rows s Hs), Nat.eqb_refl. reflexivity.
  - unfold vover. rewrite map_length, seq_length. reflexivity.
  - unfold vover. rewrite map_length, seq_length. reflexivity.
  - intros b Hb. specialize (HP b Hb). specialize (HC b Hb).
    specialize (HW (zrange 0 (m - 1)) (Z.of_nat m - 1)%Z b).
    rewrite nth_vzero, Rplus_0_l in HP, HC.
    assert (EC : nth b C 0 = total (fun _ => 1) (members N nb b (cells_of cshape))).
    { rewrite HC. apply (sum_rows (fun s row rest => half N s rest) (fun _ => 1) b Hb). intros s row rest Hs Hr Hc. apply (weight_one s row); assumption. }
    assert (EP : nth b P 0 = total (fun k => cabs (G k) ^ 2) (members N nb b (cells_of cshape))).
    { rewrite HP. apply (sum_rows (fun s row rest => cabs (sp_data s (row :: rest)) ^ 2 * half N s rest) (fun k => cabs (G k) ^ 2) b Hb).
      intros s row rest Hs Hr Hc. rewrite (weight_one s row) by assumption. rewrite Rmult_1_r.
      rewrite (held ws G HG s) by (try exact Hs; apply in_row; assumption). reflexivity. }
    assert (EW : nth b W 0 = total (modulus N) (members N nb b (flat_map last_modes ws))).
    { rewrite HW; [|replace m with ((m - 1) + 1)%nat at 1 by lia; rewrite zrange_app; f_equal; cbn [zrange]; f_equal; lia|exact Hb].
      apply (sum_last (fun s row rest => sqrt (row_w2 N s row (row :: rest)) * half N s rest) (modulus N) b Hb).
      intros s row rest Hs Hr Hc. rewrite (weight_one s row) by assumption. rewrite Rmult_1_r, row_square by assumption. reflexivity. }
    unfold vover. rewrite !(nth_map_in _ _ _ None 0%nat) by (rewrite seq_length; exact Hb). rewrite seq_nth by exact Hb. cbn [Nat.add].
    rewrite EC, EP, EW, !over_length. split; reflexivity.
Qed.
End World.

(** ** Which modes are in a bin *)
Definition frequency_index (N : Z) (k : list Z) (d : nat) : Z := let g := nth d k 0%Z in (if (2 * g <? N)%Z then g else g - N)%Z.
Definition norm2 (N : Z) (k : list Z) : Z := fold_right Z.add 0%Z (map (fun d => frequency_index N k d ^ 2)%Z (seq 0 (length k))).
Definition in_bin_z (N : Z) (nb b : nat) (k : list Z) : bool :=
  ((Z.of_nat b * N) ^ 2 <=? 4 * Z.of_nat nb ^ 2 * norm2 N k)%Z && (4 * Z.of_nat nb ^ 2 * norm2 N k <? (Z.of_nat (S b) * N) ^ 2)%Z.
Lemma w_squared_norm N k : w_squared N k = (2 * PI / IZR N) ^ 2 * IZR (norm2 N k).
Proof.
  unfold w_squared, norm2. induction (seq 0 (length k)) as [|d l IH]; cbn [map fold_right]; [ring|].
  rewrite IH, plus_IZR. unfold frequency at 1. fold (frequency_index N k d). rewrite <- Z.pow_2_r || rewrite Z.pow_2_r. rewrite mult_IZR. ring.
Qed.
Lemma norm2_pos N k : (0 <= norm2 N k)%Z.
Proof. unfold norm2. induction (seq 0 (length k)) as [|d l IH]; cbn [map fold_right]; [lia|]. pose proof (Z.pow_even_nonneg (frequency_index N k d) 2 ltac:(exists 1%Z; reflexivity)). lia. Qed.
Lemma modulus_norm N k : (0 < N)%Z -> modulus N k = 2 * PI / IZR N * sqrt (IZR (norm2 N k)).
Proof.
  intros HN. pose proof (unit_pos N HN). unfold modulus. rewrite w_squared_norm, sqrt_mult_alt by apply pow2_ge_0. rewrite sqrt_pow2 by lra. reflexivity.
Qed.
Lemma edge_norm N nb j z : (0 < N)%Z -> (0 < nb)%nat -> (0 <= z)%Z ->
  (PI * INR j / INR nb <= 2 * PI / IZR N * sqrt (IZR z) <-> ((Z.of_nat j * N) ^ 2 <= 4 * Z.of_nat nb ^ 2 * z)%Z).
Proof.
  intros HN Hnb Hz. assert (PN : 0 < IZR N) by (apply (IZR_lt 0), HN). assert (Pb : 0 < INR nb) by (apply lt_0_INR, Hnb).
  pose proof PI_RGT_0 as PP. set (r := sqrt (IZR z)). assert (Hr : 0 <= r) by apply sqrt_pos.
  assert (Er : r * r = IZR z) by (apply sqrt_sqrt, (IZR_le 0), Hz). pose proof (pos_INR j) as Hj.
  assert (A : PI * INR j / INR nb <= 2 * PI / IZR N * r <-> INR j * IZR N <= 2 * INR nb * r).
  { replace (PI * INR j / INR nb) with ((INR j * IZR N) * (PI / (INR nb * IZR N))) by (field; lra).
    replace (2 * PI / IZR N * r) with ((2 * INR nb * r) * (PI / (INR nb * IZR N))) by (field; lra).
    assert (0 < PI / (INR nb * IZR N)) by (apply Rdiv_lt_0_compat; [exact PP|apply Rmult_lt_0_compat; assumption]).
    split; intros H'; [apply Rmult_le_reg_r with (1 := H); exact H'|apply Rmult_le_compat_r; [lra|exact H']]. }
  rewrite A. assert (X : 0 <= INR j * IZR N) by (apply Rmult_le_pos; lra). assert (Y : 0 <= 2 * INR nb * r) by (apply Rmult_le_pos; [lra|exact Hr]).
  assert (B : INR j * IZR N <= 2 * INR nb * r <-> (INR j * IZR N) * (INR j * IZR N) <= (2 * INR nb * r) * (2 * INR nb * r)).
  { split; intros H; [apply Rmult_le_compat; assumption|apply Rsqr_incr_0_var; [exact H|exact Y]]. }
  rewrite B. replace ((2 * INR nb * r) * (2 * INR nb * r)) with (4 * (INR nb * INR nb) * (r * r)) by ring. rewrite Er, !INR_IZR_INZ.
  replace ((Z.of_nat j * N) ^ 2)%Z with ((Z.of_nat j * N) * (Z.of_nat j * N))%Z by ring.
  replace (4 * Z.of_nat nb ^ 2 * z)%Z with (4 * (Z.of_nat nb * Z.of_nat nb) * z)%Z by ring.
  rewrite <- !mult_IZR. split; [apply le_IZR|apply IZR_le].
Qed.
Lemma bin_norm N nb b k : (0 < N)%Z -> (0 < nb)%nat -> (if bin_dec nb b (modulus N k) then true else false) = in_bin_z N nb b k.
Proof.
  intros HN Hnb. pose proof (edge_norm N nb b (norm2 N k) HN Hnb (norm2_pos N k)) as A.
  pose proof (edge_norm N nb (S b) (norm2 N k) HN Hnb (norm2_pos N k)) as B. rewrite <- modulus_norm in A, B by exact HN.
  unfold in_bin_z. destruct (bin_dec nb b (modulus N k)) as [[I J]|I]; symmetry.
  - apply andb_true_intro. split; [apply Z.leb_le, A, I|]. apply Z.ltb_lt. apply Z.nle_gt. intros C. apply B in C. lra.
  - apply not_true_is_false. intros C. apply andb_prop in C. destruct C as [C D]. apply Z.leb_le in C. apply Z.ltb_lt in D. apply I. split; [apply A, C|].
    apply Rnot_le_lt. intros E. apply B in E. lia.
Qed.
Lemma members_z N nb b l : (0 < N)%Z -> (0 < nb)%nat -> members N nb b l = filter (in_bin_z N nb b) l.
Proof. intros HN Hnb. unfold members. apply filter_ext. intros k. apply bin_norm; assumption. Qed.

(** ** The theorems *)
(** With a numpy that accepts the mask, and as many rows on every rank, at least two, every rank
    gets the same arrays.  [psout]: the mean of |complex|^2 over the stored modes of the bin,
    whatever the distribution.  [wout]: the frequencies of the last row of every rank only,
    divided by the number of all modes of the bin. *)
Theorem C97_power : forall N cshape ws G nb m,
  spread_out N cshape ws -> holds_modes ws G -> Z.Even N -> (2 <= length cshape)%nat ->
  List.Forall (fun s => nth 0 (sp_shape s) 0 = Z.of_nat m)%Z ws -> (2 <= m)%nat -> ws <> [] ->
  exists ps wo, PowerSpectrum false N nb ws = map (fun _ => Ret (ps, wo)) ws /\ length ps = nb /\ length wo = nb /\
    forall b, (b < nb)%nat -> let l := members N nb b (cells_of cshape) in
      (l = [] -> nth b ps None = None /\ nth b wo None = None) /\
      (l <> [] -> nth b ps None = Some (total (fun k => cabs (G k) ^ 2) l / INR (length l)) /\
                  nth b wo None = Some (total (modulus N) (members N nb b (flat_map last_modes ws)) / INR (length l))).
Proof.
  intros N cshape ws G nb m SO HG Ev Nd Eq M2 Ne.
  destruct (spectrum_world N cshape ws G nb m SO HG Ev Nd Eq M2 Ne) as [ps [wo [E [L1 [L2 H]]]]].
  exists ps, wo. split; [exact E|split; [exact L1|split; [exact L2|]]]. intros b Hb. destruct (H b Hb) as [HP HW]. cbv zeta.
  unfold mean_power in HP. unfold mean_last in HW. destruct (members N nb b (cells_of cshape)) as [|k l]; split; intros C; try discriminate; try contradiction; split; assumption.
Qed.
Print Assumptions C97_power.

(** From numpy 1.13 on nothing is returned: every rank raises, before any communication, unless
    its rows are single cells. *)
Theorem C97_mask_refuted : forall N nb ws, List.Forall (fun s => exists n, In n (tl (sp_shape s)) /\ n <> 1%Z) ws ->
  List.Forall (fun o => o = Raise IndexError \/ o = Raise NameError) (PowerSpectrum true N nb ws).
Proof.
  intros N nb ws H.
  assert (E : forall s, In s ws -> ps_early true s = Some IndexError \/ ps_early true s = Some NameError).
  { intros s Hs. rewrite List.Forall_forall in H. destruct (H s Hs) as [n [Hn N1]]. unfold ps_early. destruct (length (rows s) =? 0)%nat; [right; reflexivity|].
    replace (forallb (fun n0 => (n0 =? 1)%Z) (tl (sp_shape s))) with false; [left; reflexivity|]. symmetry. apply not_true_is_false. intros C.
    rewrite forallb_forall in C. specialize (C n Hn). apply Z.eqb_eq in C. contradiction. }
  unfold PowerSpectrum. destruct ws as [|s0 l] eqn:W; [constructor|]. rewrite <- W in *.
  replace (existsb _ ws) with true.
  - apply List.Forall_forall. intros o Ho. apply in_map_iff in Ho. destruct Ho as [s [<- Hs]]. destruct (E s Hs) as [->| ->]; [left|right]; reflexivity.
  - symmetry. apply existsb_exists. exists s0. assert (Hs : In s0 ws) by (rewrite W; left; reflexivity). split; [exact Hs|]. destruct (E s0 Hs) as [->| ->]; reflexivity.
Qed.
Print Assumptions C97_mask_refuted.

(** A rank with more rows than another one does not return. *)
Lemma fewest_le ws s : In s ws -> (fewest ws <= length (rows s))%nat.
Proof.
  unfold fewest. generalize (match ws with [] => 0%nat | s :: _ => length (rows s) end). intros z. induction ws as [|t l IH]; intros Hs; [destruct Hs|].
  cbn [map fold_right]. destruct Hs as [->|Hs]; [lia|]. specialize (IH Hs). lia.
Qed.
Theorem C97_rows_refuted : forall strict N nb ws i s s', nth_error ws i = Some s -> In s' ws -> (length (rows s') < length (rows s))%nat ->
  exists o, nth_error (PowerSpectrum strict N nb ws) i = Some o /\ forall r, o <> Ret r.
Proof.
  intros strict N nb ws i s s' Hi Hs' Lt. unfold PowerSpectrum. destruct (existsb _ ws) eqn:E.
  - rewrite nth_error_map, Hi. cbn [option_map]. destruct (ps_early strict s); eexists; (split; [reflexivity|discriminate]).
  - destruct (fold_left _ _ _) as [[P C] W]. rewrite nth_error_map, Hi. cbn [option_map].
    pose proof (fewest_le ws s' Hs') as L. replace (length (rows s) =? fewest ws)%nat with false by (symmetry; apply Nat.eqb_neq; lia).
    eexists. split; [reflexivity|discriminate].
Qed.
Print Assumptions C97_rows_refuted.

(** [wout] is not a mean: on one rank, for any field, the entry of the second of two bins is below
    the bin. *)
Lemma sqrt_half n : 0 <= n -> sqrt n <= (n + 1) / 2.
Proof. intros Hn. pose proof (pow2_ge_0 (sqrt n - 1)). pose proof (sqrt_sqrt n Hn). nra. Qed.
Lemma one_rank G nb : exists ps wo, PowerSpectrum false 4 nb [whole 4 G] = [Ret (ps, wo)] /\
  forall b, (b < nb)%nat -> let l := filter (in_bin_z 4 nb b) (cells_of [4; 4; 3]%Z) in l <> [] ->
    nth b ps None = Some (total (fun k => cabs (G k) ^ 2) l / INR (length l)) /\
    nth b wo None = Some (total (modulus 4) (filter (in_bin_z 4 nb b) (last_modes (whole 4 G))) / INR (length l)).
Proof.
  destruct (whole_ok 4 G ltac:(lia)) as [SO HG].
  destruct (C97_power 4 [4; 4; 3]%Z [whole 4 G] G nb 4 SO HG ltac:(exists 2%Z; reflexivity) ltac:(cbn [length]; lia)
    ltac:(repeat constructor) ltac:(lia) ltac:(discriminate)) as [ps [wo [E [_ [_ H]]]]].
  exists ps, wo. split; [exact E|]. intros b Hb l Hl. destruct (H b Hb) as [_ H']. cbv zeta in H'.
  rewrite !members_z in H' by lia. specialize (H' Hl). cbn [flat_map] in H'. rewrite app_nil_r in H'. exact H'.
Qed.
Theorem C97_wout_refuted : forall G, exists ps wo x, PowerSpectrum false 4 2 [whole 4 G] = [Ret (ps, wo)] /\
  nth 1 wo None = Some x /\ x < PI * INR 1 / INR 2.
Proof.
  intros G. destruct (one_rank G 2) as [ps [wo [E H]]]. exists ps, wo.
  set (x := total (modulus 4) (filter (in_bin_z 4 2 1) (last_modes (whole 4 G))) / INR (length (filter (in_bin_z 4 2 1) (cells_of [4; 4; 3]%Z)))) in *.
  exists x. split; [exact E|]. split; [apply (H 1%nat); [lia|vm_compute; discriminate]|].
  unfold x. replace (length (filter (in_bin_z 4 2 1) (cells_of [4; 4; 3]%Z))) with 17%nat by (vm_compute; reflexivity).
  replace (filter (in_bin_z 4 2 1) (last_modes (whole 4 G))) with [[3; 0; 0]; [3; 0; 1]; [3; 1; 0]; [3; 1; 1]; [3; 3; 0]; [3; 3; 1]]%Z by (vm_compute; reflexivity).
  unfold total. cbn [map fold_right]. rewrite !modulus_norm by lia.
  change (norm2 4 [3; 0; 0]%Z) with 1%Z. change (norm2 4 [3; 0; 1]%Z) with 2%Z. change (norm2 4 [3; 1; 0]%Z) with 2%Z.
  change (norm2 4 [3; 1; 1]%Z) with 3%Z. change (norm2 4 [3; 3; 0]%Z) with 2%Z. change (norm2 4 [3; 3; 1]%Z) with 3%Z.
  pose proof (sqrt_half 1 ltac:(lra)). pose proof (sqrt_half 2 ltac:(lra)). pose proof (sqrt_half 3 ltac:(lra)). pose proof PI_RGT_0.
  replace (INR 17) with 17 by (cbn; ring). replace (INR 1) with 1 by reflexivity. replace (INR 2) with 2 by (cbn; ring).
  replace (2 * PI / 4 * sqrt 1 + (2 * PI / 4 * sqrt 2 + (2 * PI / 4 * sqrt 2 + (2 * PI / 4 * sqrt 3 + (2 * PI / 4 * sqrt 2 + (2 * PI / 4 * sqrt 3 + 0))))))
    with (PI / 2 * (sqrt 1 + 3 * sqrt 2 + 2 * sqrt 3)) by field.
  apply Rmult_lt_reg_r with 17; [lra|]. replace (PI / 2 * (sqrt 1 + 3 * sqrt 2 + 2 * sqrt 3) / 17 * 17) with (PI / 2 * (sqrt 1 + 3 * sqrt 2 + 2 * sqrt 3)) by field.
  replace (PI * 1 / 2 * 17) with (PI / 2 * 17) by field. apply Rmult_lt_compat_l; lra.
Qed.
Print Assumptions C97_wout_refuted.

(** The plane of modes that have no partner is not down weighted: the mean over the stored modes
    is not the mean over all modes of the field. *)
Definition plane (k : list Z) : cplx := if (nth 2 k 0 =? 0)%Z then (1, 0) else (0, 0).
Lemma total_plane l : total (fun k => cabs (plane k) ^ 2) l = INR (length (filter (fun k => nth 2 k 0 =? 0)%Z l)).
Proof.
  rewrite <- total_one, total_filter. apply total_ext. intros k _. unfold plane. destruct (nth 2 k 0 =? 0)%Z; unfold cabs; cbn [fst snd].
  - replace (1 * 1 + 0 * 0) with 1 by ring. rewrite sqrt_1. ring.
  - replace (0 * 0 + 0 * 0) with 0 by ring. rewrite sqrt_0. ring.
Qed.
Theorem C97_plane_refuted : exists ps wo, PowerSpectrum false 4 1 [whole 4 plane] = [Ret (ps, wo)] /\
  nth 0 ps None = Some (1 / 2) /\
  let all := members 4 1 0 (cells_of [4; 4; 4]%Z) in total (fun k => cabs (plane k) ^ 2) all / INR (length all) = 1 / 3.
Proof.
  destruct (one_rank plane 1) as [ps [wo [E H]]]. exists ps, wo. split; [exact E|]. split.
  - destruct (H 0%nat ltac:(lia)) as [-> _]; [vm_compute; discriminate|]. rewrite total_plane.
    replace (length (filter (in_bin_z 4 1 0) (cells_of [4; 4; 3]%Z))) with 18%nat by (vm_compute; reflexivity).
    replace (length (filter (fun k => nth 2 k 0 =? 0)%Z (filter (in_bin_z 4 1 0) (cells_of [4; 4; 3]%Z)))) with 9%nat by (vm_compute; reflexivity).
    rewrite !INR_IZR_INZ. cbn [Z.of_nat Pos.of_succ_nat Pos.succ]. f_equal. field.
  - cbv zeta. rewrite members_z by lia. rewrite total_plane.
    replace (length (filter (in_bin_z 4 1 0) (cells_of [4; 4; 4]%Z))) with 27%nat by (vm_compute; reflexivity).
    replace (length (filter (fun k => nth 2 k 0 =? 0)%Z (filter (in_bin_z 4 1 0) (cells_of [4; 4; 4]%Z)))) with 9%nat by (vm_compute; reflexivity).
    rewrite !INR_IZR_INZ. cbn [Z.of_nat Pos.of_succ_nat Pos.succ]. field.
Qed.
Print Assumptions C97_plane_refuted.

(** Three ranks that share the second axis, one of them without modes; the bins have members. *)
Definition ps_part (i n : Z) : spectrum :=
  {| sp_start := [0; i; 0]%Z; sp_shape := [4; n; 3]%Z; sp_data := fun idx => (IZR (nth 0 idx 0%Z) + 1, IZR (nth 1 idx 0%Z + i)) |}.
Example C97_case :
  let ws := [ps_part 0 2; ps_part 2 2; ps_part 4 0] in
  let G := fun k => (IZR (nth 0 k 0%Z) + 1, IZR (nth 1 k 0%Z)) in
  spread_out 4 [4; 4; 3]%Z ws /\ holds_modes ws G /\ Z.Even 4 /\ (2 <= length [4; 4; 3]%Z)%nat /\
  List.Forall (fun s => nth 0 (sp_shape s) 0 = Z.of_nat 4)%Z ws /\ ws <> [] /\
  List.Forall (fun s => exists n, In n (tl (sp_shape s)) /\ n <> 1%Z) ws /\
  length (members 4 2 0 (cells_of [4; 4; 3]%Z)) = 1%nat /\ length (members 4 2 1 (cells_of [4; 4; 3]%Z)) = 17%nat /\
  (length (rows (ex_part 3 1)) < length (rows (ex_part 0 3)))%nat.
Proof.
  cbv zeta. split; [|split; [|split; [|split; [|split; [|split; [|split; [|split; [|split]]]]]]]].
  - constructor; [lia| | |].
    + repeat apply List.Forall_cons; try apply List.Forall_nil; lia.
    + repeat apply List.Forall_cons; try apply List.Forall_nil; split; reflexivity.
    + apply perm_check; [apply nodupb_ok|apply nodupb_ok| |]; reflexivity.
  - repeat apply List.Forall_cons; try apply List.Forall_nil; intros idx H; apply in_cells_of in H; destruct H as [L _];
      cbn [ps_part sp_shape length] in L; cbn [ps_part sp_data sp_start]; rewrite !zadd_nth by (rewrite L; reflexivity); cbn [nth]; rewrite ?Z.add_0_r; reflexivity.
  - exists 2%Z. reflexivity.
  - cbn [length]. lia.
  - repeat constructor.
  - discriminate.
  - repeat apply List.Forall_cons; try apply List.Forall_nil; exists 3%Z; (split; [right; left; reflexivity|discriminate]).
  - rewrite members_z by lia. vm_compute. reflexivity.
  - rewrite members_z by lia. vm_compute. reflexivity.
  - vm_compute. lia.
Qed.
