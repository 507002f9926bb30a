(** Properties C63 (apply), C64 (csum, cmean), C65 (preview). *)
From Coq Require Import List Arith ZArith QArith Lia Bool Permutation Ring Qcanon Field.
From Verif Require Import Base ListFacts LayoutModel WrapModel WrapProofs DomainFill MeshModel MeshAssign MeshRoute MeshTile RingModel FieldModel FieldFacts
  FieldProperties FieldNorm FourierModel FourierFacts FourierProperties NdModel NdProofs NdSums.
Import ListNotations.
Local Close Scope Q_scope.
Local Open Scope Z_scope.

(** ** C63 *)
(** every element of the output is func of its own coordinates and the value of the
    field there, whatever the order of the axes in memory, in place or not; nothing
    else is written *)
Theorem C63_apply : forall {V} argsort k BoxSize Nmesh (x : list (list Q)) i (func : list Q -> V -> V) field out (m : Z -> V),
  let n := length (v_shape field) in
  (forall l, Permutation (argsort l) (seq 0 (length l))) ->
  (2 <= n)%nat -> length (v_strides field) = n -> length (v_strides out) = n -> v_shape out = v_shape field ->
  k <> OtherKind -> length x = n -> length i = n -> length BoxSize = n -> length Nmesh = n ->
  injective out -> out = field \/ apart field out ->
  exists m', apply argsort k BoxSize Nmesh x i func field out m = Ret m' /\
  (forall idx, In idx (cells_of (v_shape field)) ->
     m' (addr out idx) = func (map (coordinate k BoxSize Nmesh x i idx) (seq 0 n)) (m (addr field idx))) /\
  (forall a, (forall idx, In idx (cells_of (v_shape field)) -> addr out idx <> a) -> m' a = m a).
Proof. intros. apply apply_spec; auto. Qed.

Lemma nth_zrange' lo c i : (i < c)%nat -> nth i (zrange lo c) 0 = lo + Z.of_nat i.
Proof. intro H. apply nth_zrange. exact H. Qed.
(** the cell of the whole mesh *)
Definition global_cell (start idx : list Z) (d : nat) : Z := nth d start 0 + nth d idx 0.
Section Coords.
Variables (start shape Nmesh : list Z) (BoxSize : list Q) (idx : list Z) (d : nat).
Local Notation n := (length shape).
Hypothesis (L1 : length start = n) (L2 : length Nmesh = n) (L3 : length BoxSize = n).
Hypothesis (HI : In idx (cells_of shape)) (Hd : (d < n)%nat).
Lemma coords_arange f : let c := map f (combine (combine start shape) (combine Nmesh BoxSize)) in
  nth d c ([] : list Q, [] : list Z) = f (nth d start 0, nth d shape 0, (nth d Nmesh 0, nth d BoxSize 0%Q)).
Proof.
  cbn zeta. rewrite (nth_map_in _ _ _ _ (0, 0, (0, 0%Q))) by (rewrite !combine_length; lia).
  rewrite !combine_nth by (rewrite ?combine_length; lia). reflexivity.
Qed.
Lemma nth_map_fst {A B} (l : list (A * B)) i a b : nth i (map fst l) a = fst (nth i l (a, b)).
Proof. change a with (fst (a, b)) at 1. apply map_nth. Qed.
Lemma nth_map_snd {A B} (l : list (A * B)) i a b : nth i (map snd l) b = snd (nth i l (a, b)).
Proof. change b with (snd (a, b)) at 1. apply map_nth. Qed.
Lemma arange_nth : nth (Z.to_nat (nth d idx 0)) (arange (nth d start 0) (nth d start 0 + nth d shape 0)) 0 = global_cell start idx d /\
  (Z.to_nat (nth d idx 0%Z) < length (arange (nth d start 0%Z) (nth d start 0 + nth d shape 0)%Z))%nat.
Proof.
  apply in_cells_of in HI. destruct HI as [_ H]. specialize (H d Hd). unfold arange.
  rewrite zrange_length. split; [|lia]. rewrite nth_zrange' by lia. unfold global_cell. lia.
Qed.
Lemma real_coordinate k : k = Relative \/ k = Absolute ->
  coordinate k BoxSize Nmesh (fst (real_coords start shape Nmesh BoxSize)) (snd (real_coords start shape Nmesh BoxSize)) idx d =
  (inject_Z (signed_index (nth d Nmesh 0%Z) (global_cell start idx d)) * nth d BoxSize 0 / inject_Z (nth d Nmesh 0%Z))%Q.
Proof.
  intro E. destruct arange_nth as [A1 A2]. unfold real_coords. cbn [fst snd]. unfold coordinate.
  rewrite (nth_map_fst _ _ [] []), coords_arange. unfold i_coords. cbn [fst snd].
  rewrite (nth_map_in _ _ _ _ 0) by exact A2. rewrite A1. destruct E as [-> | ->]; reflexivity.
Qed.
Lemma real_index :
  coordinate Index BoxSize Nmesh (fst (real_coords start shape Nmesh BoxSize)) (snd (real_coords start shape Nmesh BoxSize)) idx d =
  inject_Z (global_cell start idx d).
Proof.
  destruct arange_nth as [A1 A2]. unfold real_coords. cbn [fst snd]. unfold coordinate.
  rewrite (nth_map_snd _ _ [] []), coords_arange. unfold i_coords. cbn [fst snd]. rewrite A1. reflexivity.
Qed.
Lemma complex_index twopi :
  coordinate Index BoxSize Nmesh (fst (complex_coords twopi start shape Nmesh BoxSize)) (snd (complex_coords twopi start shape Nmesh BoxSize)) idx d =
  inject_Z (global_cell start idx d).
Proof.
  destruct arange_nth as [A1 A2]. unfold complex_coords. cbn [fst snd]. unfold coordinate.
  rewrite (nth_map_snd _ _ [] []), coords_arange. unfold o_coords. cbn [fst snd]. rewrite A1. reflexivity.
Qed.
Lemma wave_number twopi : (0 < nth d Nmesh 0) -> ~ (nth d BoxSize 0 == 0)%Q ->
  (coordinate Wavenumber BoxSize Nmesh (fst (complex_coords twopi start shape Nmesh BoxSize)) (snd (complex_coords twopi start shape Nmesh BoxSize)) idx d ==
   inject_Z (signed_index (nth d Nmesh 0%Z) (global_cell start idx d)) * twopi / nth d BoxSize 0)%Q.
Proof.
  intros HN HB. destruct arange_nth as [A1 A2]. unfold complex_coords. cbn [fst snd]. unfold coordinate.
  rewrite (nth_map_fst _ _ [] []), coords_arange. unfold o_coords. cbn [fst snd].
  rewrite (nth_map_in _ _ _ _ 0) by exact A2. rewrite A1.
  assert (HN' : ~ (inject_Z (nth d Nmesh 0%Z) == 0)%Q) by (intro E; unfold Qeq in E; cbn in E; lia).
  field. split; assumption.
Qed.
Lemma circular_frequency twopi : (0 < nth d Nmesh 0) -> ~ (nth d BoxSize 0 == 0)%Q ->
  (coordinate Circular BoxSize Nmesh (fst (complex_coords twopi start shape Nmesh BoxSize)) (snd (complex_coords twopi start shape Nmesh BoxSize)) idx d ==
   inject_Z (signed_index (nth d Nmesh 0%Z) (global_cell start idx d)) * twopi / inject_Z (nth d Nmesh 0%Z))%Q.
Proof.
  intros HN HB. assert (W := wave_number twopi HN HB). unfold coordinate in *. rewrite W.
  assert (HN' : ~ (inject_Z (nth d Nmesh 0%Z) == 0)%Q) by (intro E; unfold Qeq in E; cbn in E; lia).
  field. split; assumption.
Qed.
End Coords.

Lemma coords_lengths start shape Nmesh BoxSize : length start = length shape -> length Nmesh = length shape -> length BoxSize = length shape ->
  (length (fst (real_coords start shape Nmesh BoxSize)) = length shape /\ length (snd (real_coords start shape Nmesh BoxSize)) = length shape) /\
  forall twopi, length (fst (complex_coords twopi start shape Nmesh BoxSize)) = length shape /\ length (snd (complex_coords twopi start shape Nmesh BoxSize)) = length shape.
Proof. intros. unfold real_coords, complex_coords. cbn [fst snd]. split; [|intro]; split; rewrite !map_length, !combine_length; lia. Qed.

(** RealField.apply: 'relative' coordinates are the signed distances, 'index' the
    indices of the whole mesh *)
Theorem C63_real : forall {V} argsort k start Nmesh BoxSize (func : list Q -> V -> V) field out (m : Z -> V),
  let n := length (v_shape field) in
  (forall l, Permutation (argsort l) (seq 0 (length l))) ->
  (2 <= n)%nat -> length (v_strides field) = n -> length (v_strides out) = n -> v_shape out = v_shape field ->
  length start = n -> length BoxSize = n -> length Nmesh = n -> injective out -> out = field \/ apart field out ->
  k = Relative \/ k = Index ->
  exists m', real_apply argsort k start Nmesh BoxSize func field out m = Ret m' /\
  (forall idx, In idx (cells_of (v_shape field)) -> exists r, length r = n /\
     m' (addr out idx) = func r (m (addr field idx)) /\
     forall d, (d < n)%nat -> (nth d r 0 == match k with
       | Relative => inject_Z (signed_index (nth d Nmesh 0%Z) (nth d start 0 + nth d idx 0)%Z) * nth d BoxSize 0 / inject_Z (nth d Nmesh 0%Z)
       | _ => inject_Z (nth d start 0 + nth d idx 0)%Z end)%Q) /\
  (forall a, (forall idx, In idx (cells_of (v_shape field)) -> addr out idx <> a) -> m' a = m a).
Proof.
  intros V argsort k start Nmesh BoxSize func field out m n SORT Hn S1 S2 HS LS LB LN INJ AL HK.
  destruct (coords_lengths start (v_shape field) Nmesh BoxSize LS LN LB) as [[L1 L2] _].
  destruct (C63_apply argsort k BoxSize Nmesh (fst (real_coords start (v_shape field) Nmesh BoxSize)) (snd (real_coords start (v_shape field) Nmesh BoxSize))
    func field out m SORT Hn S1 S2 HS ltac:(destruct HK; congruence) L1 L2 LB LN INJ AL) as (m' & E & R1 & R2).
  exists m'. split; [|split; [|exact R2]].
  - unfold real_apply. replace (real_kind k) with true by (destruct HK as [-> | ->]; reflexivity).
    destruct (real_coords start (v_shape field) Nmesh BoxSize) eqn:EC. exact E.
  - intros idx HI. eexists. split; [|split; [apply R1, HI|]]; [rewrite map_length, seq_length; reflexivity|].
    intros d Hd. rewrite nth_map_seq by exact Hd. destruct HK as [-> | ->].
    + rewrite real_coordinate by auto. reflexivity.
    + rewrite real_index by auto. reflexivity.
Qed.
(** complex fields: wave numbers, circular frequencies, indices of the whole array *)
Theorem C63_complex : forall {V} argsort k twopi start Nmesh BoxSize (func : list Q -> V -> V) field out (m : Z -> V),
  let n := length (v_shape field) in
  (forall l, Permutation (argsort l) (seq 0 (length l))) ->
  (2 <= n)%nat -> length (v_strides field) = n -> length (v_strides out) = n -> v_shape out = v_shape field ->
  length start = n -> length BoxSize = n -> length Nmesh = n -> injective out -> out = field \/ apart field out ->
  Forall (fun N => 0 < N) Nmesh -> Forall (fun L => ~ (L == 0)%Q) BoxSize ->
  k = Wavenumber \/ k = Circular \/ k = Index ->
  exists m', complex_apply argsort k twopi start Nmesh BoxSize func field out m = Ret m' /\
  (forall idx, In idx (cells_of (v_shape field)) -> exists r, length r = n /\
     m' (addr out idx) = func r (m (addr field idx)) /\
     forall d, (d < n)%nat -> (nth d r 0 == match k with
       | Wavenumber => inject_Z (signed_index (nth d Nmesh 0%Z) (nth d start 0 + nth d idx 0)%Z) * twopi / nth d BoxSize 0
       | Circular => inject_Z (signed_index (nth d Nmesh 0%Z) (nth d start 0 + nth d idx 0)%Z) * twopi / inject_Z (nth d Nmesh 0%Z)
       | _ => inject_Z (nth d start 0 + nth d idx 0)%Z end)%Q) /\
  (forall a, (forall idx, In idx (cells_of (v_shape field)) -> addr out idx <> a) -> m' a = m a).
Proof.
  intros V argsort k twopi start Nmesh BoxSize func field out m n SORT Hn S1 S2 HS LS LB LN INJ AL PN PB HK.
  destruct (coords_lengths start (v_shape field) Nmesh BoxSize LS LN LB) as [_ L]. destruct (L twopi) as [L1 L2].
  destruct (C63_apply argsort k BoxSize Nmesh (fst (complex_coords twopi start (v_shape field) Nmesh BoxSize)) (snd (complex_coords twopi start (v_shape field) Nmesh BoxSize))
    func field out m SORT Hn S1 S2 HS ltac:(destruct HK as [|[|]]; congruence) L1 L2 LB LN INJ AL) as (m' & E & R1 & R2).
  exists m'. split; [|split; [|exact R2]].
  - unfold complex_apply. replace (complex_kind k) with true by (destruct HK as [-> |[-> | ->]]; reflexivity).
    destruct (complex_coords twopi start (v_shape field) Nmesh BoxSize) eqn:EC. exact E.
  - intros idx HI. eexists. split; [|split; [apply R1, HI|]]; [rewrite map_length, seq_length; reflexivity|].
    intros d Hd. rewrite nth_map_seq by exact Hd.
    assert (P1 : 0 < nth d Nmesh 0) by (rewrite Forall_forall in PN; apply PN, nth_In; unfold n in Hd; lia).
    assert (P2 : ~ (nth d BoxSize 0 == 0)%Q) by (rewrite Forall_forall in PB; apply PB, nth_In; unfold n in Hd; lia).
    destruct HK as [-> |[-> | ->]].
    + apply wave_number; auto.
    + apply circular_frequency; auto.
    + rewrite complex_index by auto. reflexivity.
Qed.

(** other kinds are refused before anything is written; 'absolute' is a second name of 'relative' *)
Theorem C63_kinds : forall {V} argsort k twopi start Nmesh BoxSize (func : list Q -> V -> V) field out (m : Z -> V),
  (~ In k [Relative; Index; Absolute] -> real_apply argsort k start Nmesh BoxSize func field out m = Raise AssertionError) /\
  (~ In k [Wavenumber; Circular; Index] -> complex_apply argsort k twopi start Nmesh BoxSize func field out m = Raise AssertionError) /\
  real_apply argsort Absolute start Nmesh BoxSize func field out m = real_apply argsort Relative start Nmesh BoxSize func field out m.
Proof.
  intros V argsort k twopi start Nmesh BoxSize func field out m. split; [|split].
  - intros H. destruct k; try reflexivity; exfalso; apply H; simpl; auto.
  - intros H. destruct k; try reflexivity; exfalso; apply H; simpl; auto.
  - reflexivity.
Qed.
Print Assumptions C63_kinds.

(** ** C64 *)
(** the rank's memory stores its block of the global field [f], in any order of the axes *)
Definition stores {V W} (f : list Z -> V) (L : lfield W) (p : view * (Z -> V)) : Prop :=
  v_shape (fst p) = lshape L /\ length (v_strides (fst p)) = length (lshape L) /\
  forall idx, In idx (cells_of (lshape L)) -> snd p (addr (fst p) idx) = f (zadd (lstart L) idx).
Section C64.
Variable K : cring.
Add Ring Kr64 : (rth K).
Theorem C64_csum : forall {W} argsort cshape (Ls : list (lfield W)) l (f : list Z -> K),
  (forall s, Permutation (argsort s) (seq 0 (length s))) ->
  tiles cshape Ls -> Forall2 (stores f) Ls l ->
  csum K argsort l = map (fun _ => rsum f (cells_of cshape)) Ls.
Proof.
  intros W argsort cshape Ls l f SORT T F. unfold csum.
  assert (E : rsum (fun p => csum_local K argsort (fst p) (snd p)) l = rsum f (cells_of cshape)).
  { rewrite <- (tiles_sum K cshape Ls f T). clear T. induction F as [|L p Ls l (H1 & H2 & H3) F IH]; [reflexivity|].
    rewrite !rsum_cons, IH. f_equal. rewrite csum_local_spec by (auto; congruence). rewrite H1. unfold lcells. rewrite rsum_map.
    apply rsum_ext_in. exact H3. }
  rewrite E. clear E T. induction F; cbn [map]; congruence.
Qed.
(** the mean times the number of elements is the sum *)
Theorem C64_cmean : forall {W} argsort inv cshape (Ls : list (lfield W)) l (f : list Z -> K),
  (forall s, Permutation (argsort s) (seq 0 (length s))) -> rmul (zin K (prodz cshape)) (inv (prodz cshape)) = r1 ->
  tiles cshape Ls -> Forall2 (stores f) Ls l ->
  exists mean, cmean K inv argsort (prodz cshape) l = map (fun _ => mean) Ls /\ rmul (zin K (prodz cshape)) mean = rsum f (cells_of cshape).
Proof.
  intros W argsort inv cshape Ls l f SORT HI T F. exists (rmul (rsum f (cells_of cshape)) (inv (prodz cshape))). split.
  - unfold cmean. rewrite (C64_csum argsort cshape Ls l f SORT T F), map_map. reflexivity.
  - transitivity (rmul (rsum f (cells_of cshape)) (rmul (zin K (prodz cshape)) (inv (prodz cshape)))); [ring|]. rewrite HI. ring.
Qed.
Lemma zin_mul a b : zin K (a * b) = rmul (zin K a) (zin K b).
Proof.
  pose proof (InitialRing.gen_phiZ_morph (Ring_theory.Eqsth K) (Ring_theory.Eq_ext radd rmul ropp) (rth K)) as M.
  unfold zin. apply (Ring_theory.morph_mul M).
Qed.
Lemma zin_prodz N : zin K (prodz N) = rprod K (sizes K N).
Proof. induction N as [|n N IH]; [reflexivity|]. cbn [prodz fold_right]. fold (prodz N). rewrite zin_mul, IH. reflexivity. Qed.
(** the mean of a real field is the zero mode of its transform *)
Theorem C64_zero_mode : forall base n ws is argsort inv (Ls : list (lfield K)) (Mid : list (lfield (cpx K))) l (f : list Z -> K),
  mesh_roots K (base ++ [n]) ws is ->
  (forall s, Permutation (argsort s) (seq 0 (length s))) -> rmul (zin K (prodz (base ++ [n]))) (inv (prodz (base ++ [n]))) = r1 ->
  tiles (base ++ [n]) Ls -> holds Ls f -> Forall2 (stores f) Ls l ->
  exists c, holds (r2c K ws is Ls Mid) c /\
    map cof (cmean K inv argsort (prodz (base ++ [n])) l) = map (fun _ => c (map (fun _ => 0) (base ++ [n]))) Ls.
Proof.
  intros base n ws is argsort inv Ls Mid l f M SORT HI T H F.
  destruct (C44_zero_mode K base n ws is Ls Mid f T H) as (c & HC & EC). exists c. split; [exact HC|].
  unfold cmean. rewrite (C64_csum argsort _ Ls l f SORT T F), !map_map. unfold N in EC. rewrite EC. apply map_ext. intros _. do 2 f_equal.
  pose proof (inv_sizes K _ ws is M) as I. rewrite zin_prodz in HI.
  transitivity (rmul (inv (prodz (base ++ [n]))) (rmul (rprod K is) (rprod K (sizes K (base ++ [n]))))); [rewrite I; ring|].
  transitivity (rmul (rprod K is) (rmul (rprod K (sizes K (base ++ [n]))) (inv (prodz (base ++ [n]))))); [ring|]. rewrite HI. ring.
Qed.
End C64.

(** ** C65 *)
Section C65.
Variable K : cring.
Add Ring Kr65 : (rth K).
(** on every rank the result has the sizes of the kept axes, in their order, and each
    element is the sum of the global field over the axes that are not kept *)
Theorem C65_preview : forall cshape axes (Ls : list (lfield K)) (f : list Z -> K),
  tiles cshape Ls -> holds Ls f -> NoDup axes -> Forall (fun a => (a < length cshape)%nat) axes ->
  (length axes < length cshape)%nat \/ axes = seq 0 (length cshape) ->
  exists a, preview K cshape axes Ls = map (fun _ => Ret a) Ls /\
    n_shape a = map (fun d => nth d cshape 0) axes /\
    forall j, length j = length axes ->
      n_get a j = rsum f (filter (fun idx => if list_eq_dec Z.eq_dec (map (fun d => nth d idx 0) axes) j then true else false) (cells_of cshape)).
Proof.
  intros cshape axes Ls f T H ND HA HF.
  assert (A : exists rs, all_ret (map (preview_local K cshape axes) Ls) = Some rs /\
    Forall2 (fun L a => forall j, length j = length axes -> n_get a j = rsum (fun idx => if keeps axes j idx then f idx else r0) (lcells L)) Ls rs).
  { destruct T as [TD _]. induction Ls as [|L Ls IH]; [exists []; split; [reflexivity|constructor]|].
    inversion TD as [|? ? [D1 D2] TD']; subst. inversion H as [|? ? H1 H2]; subst.
    destruct (IH TD' H2) as (rs & E & F).
    destruct (preview_local_spec K cshape axes L f D1 D2 H1 ND HA HF) as (a & Ea & Sa).
    exists (a :: rs). split; [|constructor; assumption]. cbn [map]. rewrite Ea. unfold all_ret in *. cbn [map sequence]. rewrite E. reflexivity. }
  destruct A as (rs & E & F). unfold preview. rewrite E. eexists. split; [reflexivity|]. split; [reflexivity|].
  intros j Hj. cbn [n_get]. rewrite rsum_filter.
  transitivity (rsum (fun idx => if keeps axes j idx then f idx else r0) (cells_of cshape)).
  - rewrite <- (tiles_sum K cshape Ls _ T). clear E T H. induction F as [|L a Ls rs H1 F IH]; [reflexivity|].
    rewrite !rsum_cons, IH. f_equal. apply H1, Hj.
  - apply rsum_ext. intro idx. unfold keeps, permute. destruct (list_eq_dec Z.eq_dec _ j) as [e|ne].
    + subst j. destruct (idx_eqb_spec (map (fun d => nth d idx 0) axes) (map (fun d => nth d idx 0) axes)); congruence.
    + destruct (idx_eqb_spec (map (fun d => nth d idx 0) axes) j); congruence.
Qed.
End C65.

(** keeping all axes in another order does not reorder the array: on one rank, with
    equal sizes, the element (1, 0) of the result is not the one asked for *)
Theorem C65_permuted_refuted : exists (f : list Z -> Zring) L a,
  tiles [2;2] [L] /\ holds [L] f /\ preview Zring [2;2] [1;0]%nat [L] = [Ret a] /\
  n_get a [1;0] <> rsum f (filter (fun idx => if list_eq_dec Z.eq_dec (map (fun d => nth d idx 0) [1;0]%nat) [1;0] then true else false) (cells_of [2;2])).
Proof.
  exists (fun idx => match idx with [a; b] => 10 * a + b | _ => 0 end), (mkL [0;0] [2;2] [0;1;10;11]). eexists.
  split; [|split; [|split; [reflexivity|]]].
  - split; [repeat constructor|]. apply Permutation_refl.
  - repeat constructor.
  - vm_compute. discriminate.
Qed.
(** and with unequal sizes the call raises *)
Example C65_permuted_raises : preview Zring [2;3] [1;0]%nat [mkL [0;0] [2;3] [0;1;2;10;11;12]] = [Raise ValueError].
Proof. reflexivity. Qed.

(** ** Cases *)
Definition nd_sort : list Z -> list nat := fun l => seq 0 (length l).
(** 3 x 2, the first axis contiguous, written to another array in C order *)
Definition nd_in : view := mkV 0 [3;2] [1;3].
Definition nd_out : view := mkV 100 [3;2] [2;1].
Lemma nd_in_cells idx : In idx (cells_of [3;2]) -> In idx [[0;0];[0;1];[1;0];[1;1];[2;0];[2;1]].
Proof. intro H. exact H. Qed.
Example C63_case :
  exists m', real_apply nd_sort Relative [1;0] [4;2] [8#1;6#1]%Q (fun x (y : Q) => (nth 0 x 0 + 10 * nth 1 x 0 + y)%Q) nd_in nd_out (fun a => inject_Z (1000 * a)) = Ret m' /\
  (forall idx, In idx (cells_of [3;2]) -> exists r, length r = 2%nat /\ m' (addr nd_out idx) = (nth 0 r 0 + 10 * nth 1 r 0 + inject_Z (1000 * addr nd_in idx)%Z)%Q) /\
  (m' 102%Z == -4 + 1000)%Q.
Proof.
  destruct (C63_real nd_sort Relative [1;0] [4;2] [8#1;6#1]%Q (fun x (y : Q) => (nth 0 x 0 + 10 * nth 1 x 0 + y)%Q) nd_in nd_out (fun a => inject_Z (1000 * a)))
    as (m' & E & R & _); auto.
  - intros a b Ha Hb. apply nd_in_cells in Ha. apply nd_in_cells in Hb. cbn in Ha, Hb.
    repeat (destruct Ha as [<- | Ha]; [repeat (destruct Hb as [<- | Hb]; [cbn; congruence|]); contradiction|]). contradiction.
  - right. intros a b Ha Hb. apply nd_in_cells in Ha. apply nd_in_cells in Hb. cbn in Ha, Hb.
    repeat (destruct Ha as [<- | Ha]; [repeat (destruct Hb as [<- | Hb]; [cbn; congruence|]); contradiction|]). contradiction.
  - exists m'. split; [exact E|]. split.
    + intros idx HI. destruct (R idx HI) as (r & L & V & _). exists r. split; [exact L|exact V].
    + destruct (R [1;0] ltac:(right; right; left; reflexivity)) as (r & L & V & P).
      change (addr nd_out [1;0]) with 102 in V. rewrite V.
      pose proof (P 0%nat ltac:(cbn; lia)) as P0. pose proof (P 1%nat ltac:(cbn; lia)) as P1. rewrite P0, P1. reflexivity.
Qed.
(** two blocks of a 3 x 2 array, in two memory orders *)
Definition nd_f (idx : list Z) : Zring := match idx with [a; b] => 10 * a + b | _ => 0 end.
Definition nd_blocks : list (lfield Z) := [mkL [0;0] [2;2] [0;1;10;11]; mkL [2;0] [1;2] [20;21]].
Lemma nd_tiles : tiles [3;2] nd_blocks.
Proof. split; [repeat constructor|apply Permutation_refl]. Qed.
Example C64_case : csum Zring nd_sort [(mkV 5 [2;2] [1;2], fun a => nth (Z.to_nat (a - 5)) [0;10;1;11] 7); (mkV 0 [1;2] [2;1], fun a => 20 + a)] = [63; 63].
Proof.
  rewrite (C64_csum Zring nd_sort [3;2] nd_blocks _ nd_f).
  - reflexivity.
  - intro s. apply Permutation_refl.
  - apply nd_tiles.
  - repeat constructor; intros idx H; cbn in H; repeat (destruct H as [<- | H]; [reflexivity|]); contradiction.
Qed.
Example C65_case : exists a, preview Zring [3;2] [1]%nat nd_blocks = [Ret a; Ret a] /\ n_shape a = [2] /\ n_get a [0] = 30 /\ n_get a [1] = 33.
Proof.
  destruct (C65_preview Zring [3;2] [1]%nat nd_blocks nd_f nd_tiles) as (a & E & Sh & G).
  - repeat constructor.
  - repeat constructor. intros [].
  - repeat constructor.
  - left. auto.
  - exists a. split; [exact E|]. split; [exact Sh|]. rewrite !G by reflexivity. split; reflexivity.
Qed.

Print Assumptions C63_apply.
Print Assumptions C63_real.
Print Assumptions C63_complex.
Print Assumptions C64_csum.
Print Assumptions C64_cmean.
Print Assumptions C64_zero_mode.
Print Assumptions C65_preview.
Print Assumptions C65_permuted_refuted.
