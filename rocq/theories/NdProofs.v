(** Proofs about slabs, Field.apply, csum, cmean and preview (NdModel.v). *)
From Coq Require Import List Arith ZArith QArith Lia Bool Permutation.
From Verif Require Import Base ListFacts LayoutModel WrapModel WrapProofs DomainFill MeshModel MeshRoute MeshTile RingModel FieldModel FieldFacts NdModel.
Import ListNotations.
Local Close Scope Q_scope.
Local Open Scope Z_scope.

(** ** permutations of axes *)
Lemma permute_length {A} (d : A) ax l : length (permute d ax l) = length ax.
Proof. apply map_length. Qed.
Lemma nth_permute {A} (d : A) ax l i : (i < length ax)%nat -> nth i (permute d ax l) d = nth (nth i ax O) l d.
Proof. intro H. unfold permute. rewrite (nth_map_in _ _ _ _ O) by exact H. reflexivity. Qed.
Lemma position_nth a ax : In a ax -> (position a ax < length ax)%nat /\ nth (position a ax) ax O = a.
Proof.
  induction ax as [|b ax IH]; [easy|]. intros [->|H]; cbn.
  - rewrite Nat.eqb_refl. cbn. split; [lia|reflexivity].
  - destruct (Nat.eqb_spec b a) as [->|E]; cbn; [split; [lia|reflexivity]|].
    destruct (IH H) as [H1 H2]. split; [lia|exact H2].
Qed.
Lemma nth_position ax k : NoDup ax -> (k < length ax)%nat -> position (nth k ax O) ax = k.
Proof.
  intros ND H. assert (I := nth_In ax O H). destruct (position_nth _ _ I) as [H1 H2].
  apply (proj1 (NoDup_nth ax O) ND); auto.
Qed.
Section Perm.
Variables (n : nat) (ax : list nat).
Hypothesis HP : Permutation ax (seq 0 n).
Lemma perm_length : length ax = n.
Proof. rewrite (Permutation_length HP). apply seq_length. Qed.
Lemma perm_NoDup : NoDup ax.
Proof. apply (Permutation_NoDup (Permutation_sym HP)), seq_NoDup. Qed.
Lemma perm_in a : In a ax <-> (a < n)%nat.
Proof.
  split; intro H.
  - apply (Permutation_in _ HP), in_seq in H. lia.
  - apply (Permutation_in _ (Permutation_sym HP)), in_seq. lia.
Qed.
Lemma unpermute_length idx : length (unpermute ax idx) = n.
Proof. unfold unpermute. rewrite map_length, seq_length. apply perm_length. Qed.
Lemma nth_unpermute idx a : (a < n)%nat -> nth a (unpermute ax idx) 0 = nth (position a ax) idx 0.
Proof. intro H. unfold unpermute. rewrite nth_map_seq by (rewrite perm_length; exact H). reflexivity. Qed.
Lemma permute_unpermute idx : length idx = n -> permute 0 ax (unpermute ax idx) = idx.
Proof.
  intro L. apply (nth_ext _ _ 0 0); [rewrite permute_length, perm_length; auto|].
  intros i H. rewrite permute_length in H. rewrite nth_permute by exact H.
  rewrite nth_unpermute by (apply perm_in, nth_In, H).
  rewrite nth_position; [reflexivity|apply perm_NoDup|exact H].
Qed.
Lemma unpermute_permute idx : length idx = n -> unpermute ax (permute 0 ax idx) = idx.
Proof.
  intro L. apply (nth_ext _ _ 0 0); [rewrite unpermute_length; auto|].
  intros i H. rewrite unpermute_length in H. rewrite nth_unpermute by exact H.
  destruct (position_nth i ax (proj2 (perm_in i) H)) as [H1 H2].
  rewrite nth_permute by exact H1. rewrite H2. reflexivity.
Qed.
Lemma unpermute_cells shape idx : length shape = n -> In idx (cells_of (permute 0 ax shape)) -> In (unpermute ax idx) (cells_of shape).
Proof.
  intros L H. apply in_cells_of in H. rewrite permute_length in H. destruct H as [H1 H2]. apply in_cells_of.
  rewrite unpermute_length, L. split; [reflexivity|]. intros i Hi. rewrite nth_unpermute by exact Hi.
  destruct (position_nth i ax (proj2 (perm_in i) Hi)) as [P1 P2].
  specialize (H2 _ P1). rewrite nth_permute in H2 by exact P1. rewrite P2 in H2. exact H2.
Qed.
Lemma permute_cells shape idx : length shape = n -> In idx (cells_of shape) -> In (permute 0 ax idx) (cells_of (permute 0 ax shape)).
Proof.
  intros L H. apply in_cells_of in H. rewrite L in H. destruct H as [H1 H2]. apply in_cells_of.
  rewrite !permute_length. split; [reflexivity|]. intros i Hi. rewrite !nth_permute by exact Hi.
  apply H2, perm_in, nth_In, Hi.
Qed.
End Perm.

(** ** addresses *)
Definition zdot (s i : list Z) (l : list nat) : Z := rsum (K := Zring) (fun a => nth a s 0 * nth a i 0) l.
Lemma dotz_nil i : dotz [] i = 0.
Proof. reflexivity. Qed.
Lemma dotz_cons s ss i ii : dotz (s :: ss) (i :: ii) = s * i + dotz ss ii.
Proof. reflexivity. Qed.
Lemma dotz_permute ax s idx : dotz (permute 0 ax s) (permute 0 ax idx) = zdot s idx ax.
Proof. induction ax as [|a ax IH]; [reflexivity|]. cbn [permute map]. rewrite dotz_cons. unfold permute in IH. rewrite IH. reflexivity. Qed.
Lemma dotz_zdot s idx : length idx = length s -> dotz s idx = zdot s idx (seq 0 (length s)).
Proof.
  intro L. rewrite <- dotz_permute. unfold permute.
  rewrite map_nth_seq by reflexivity. rewrite map_nth_seq by exact L. reflexivity.
Qed.
Lemma zdot_perm s idx l l' : Permutation l l' -> zdot s idx l = zdot s idx l'.
Proof. apply (rsum_perm Zring). Qed.
Lemma addr_transpose ax v idx n : Permutation ax (seq 0 n) -> length (v_strides v) = n -> length idx = n ->
  addr (transpose ax v) (permute 0 ax idx) = addr v idx.
Proof.
  intros HP L1 L2. unfold addr. cbn [transpose v_off v_strides]. rewrite dotz_permute, dotz_zdot by congruence.
  rewrite L1, (zdot_perm _ _ _ _ HP). reflexivity.
Qed.
Lemma addr_row i v s ss j : v_strides v = s :: ss -> addr (row i v) j = addr v (i :: j).
Proof. intro E. unfold addr, row. cbn [v_off v_strides]. rewrite E. rewrite dotz_cons. cbn [hd tl]. lia. Qed.

(** ** writing *)
Lemma assign_spec {V} (v : view) g (m : store (V := V)) :
  (forall j j', In j (cells_of (v_shape v)) -> In j' (cells_of (v_shape v)) -> addr v j = addr v j' -> j = j') ->
  (forall j, In j (cells_of (v_shape v)) -> assign v g m (addr v j) = g j) /\
  (forall a, (forall j, In j (cells_of (v_shape v)) -> addr v j <> a) -> assign v g m a = m a).
Proof.
  intro INJ. unfold assign.
  assert (ND := cells_of_NoDup (v_shape v)). revert m ND INJ. induction (cells_of (v_shape v)) as [|j l IH]; intros m ND INJ.
  - split; [easy|reflexivity].
  - apply NoDup_cons_iff in ND. destruct ND as [N1 N2]. cbn [fold_left].
    destruct (IH (poke m (addr v j) (g j)) N2) as [IH1 IH2]; [intros; apply INJ; auto; right; auto|].
    split.
    + intros j' [<-|H]; [|apply IH1, H].
      rewrite IH2; [unfold poke; rewrite Z.eqb_refl; reflexivity|].
      intros j' H E. apply INJ in E; [|right; exact H|left; reflexivity]. congruence.
    + intros a H. rewrite IH2 by (intros; apply H; right; auto). unfold poke.
      destruct (Z.eqb_spec a (addr v j)) as [E|E]; [|reflexivity]. exfalso. apply (H j); [left; reflexivity|congruence].
Qed.

(** ** one pass over the rows *)
Definition injective (v : view) : Prop :=
  forall i j, In i (cells_of (v_shape v)) -> In j (cells_of (v_shape v)) -> addr v i = addr v j -> i = j.
Definition apart (v w : view) : Prop :=
  forall i j, In i (cells_of (v_shape v)) -> In j (cells_of (v_shape w)) -> addr v i <> addr w j.
Section Rows.
Context {V : Type}.
Variables (field out : view) (count : nat) (R : nat -> list Z) (cell : nat -> list Z -> list Z) (islab oslab : nat -> view).
Let shape := v_shape field.
Hypothesis (Hout : v_shape out = shape) (INJ : injective out) (AL : out = field \/ apart field out).
Hypothesis (Hio : forall r, (r < count)%nat -> v_shape (oslab r) = R r).
Hypothesis (Ha : forall r j, (r < count)%nat -> In j (cells_of (R r)) ->
  addr (islab r) j = addr field (cell r j) /\ addr (oslab r) j = addr out (cell r j)).
Hypothesis (Hin : forall r j, (r < count)%nat -> In j (cells_of (R r)) -> In (cell r j) (cells_of shape)).
Hypothesis (Hall : forall idx, In idx (cells_of shape) -> exists r j, (r < count)%nat /\ In j (cells_of (R r)) /\ cell r j = idx).
Hypothesis (Hinj : forall r j r' j', (r < count)%nat -> (r' < count)%nat -> In j (cells_of (R r)) -> In j' (cells_of (R r')) ->
  cell r j = cell r' j' -> r = r' /\ j = j').
Variable (F : list Z -> V -> V) (m0 : store (V := V)).
Definition row_step (m : store (V := V)) (r : nat) : store := assign (oslab r) (fun j => F (cell r j) (m (addr (islab r) j))) m.
Lemma rows_spec k : (k <= count)%nat ->
  let m := fold_left row_step (seq 0 k) m0 in
  (forall r j, (r < k)%nat -> In j (cells_of (R r)) -> m (addr out (cell r j)) = F (cell r j) (m0 (addr field (cell r j)))) /\
  (forall r j, (k <= r < count)%nat -> In j (cells_of (R r)) -> m (addr out (cell r j)) = m0 (addr out (cell r j))) /\
  (forall a, (forall idx, In idx (cells_of shape) -> addr out idx <> a) -> m a = m0 a).
Proof.
  induction k as [|k IH]; intro Hk.
  - cbn. split; [lia|]. split; reflexivity.
  - rewrite seq_S, fold_left_app. cbn [fold_left]. set (m := fold_left row_step (seq 0 k) m0) in *.
    destruct (IH ltac:(lia)) as [I1 [I2 I3]]. cbn beta in *. cbn [Nat.add] in *.
    assert (Hk' : (k < count)%nat) by lia.
    assert (OI : forall j j', In j (cells_of (v_shape (oslab k))) -> In j' (cells_of (v_shape (oslab k))) ->
      addr (oslab k) j = addr (oslab k) j' -> j = j').
    { rewrite Hio by exact Hk'. intros j j' Hj Hj' E. rewrite (proj2 (Ha k j Hk' Hj)), (proj2 (Ha k j' Hk' Hj')) in E.
      apply INJ in E; [|rewrite Hout; apply Hin; auto..].
      apply (Hinj k j k j' Hk' Hk' Hj Hj') in E. apply E. }
    destruct (assign_spec (oslab k) (fun j => F (cell k j) (m (addr (islab k) j))) m OI) as [A1 A2].
    rewrite Hio in A1, A2 by exact Hk'. fold (row_step m k) in A1, A2.
    assert (RD : forall j, In j (cells_of (R k)) -> m (addr (islab k) j) = m0 (addr field (cell k j))).
    { intros j Hj. rewrite (proj1 (Ha k j Hk' Hj)). destruct AL as [E|AP].
      - subst out. apply I2; [lia|exact Hj].
      - apply I3. intros idx Hidx E. apply (AP (cell k j) idx); [apply Hin; auto|rewrite Hout; exact Hidx|auto]. }
    assert (OTHER : forall r j, (r < count)%nat -> r <> k -> In j (cells_of (R r)) -> row_step m k (addr out (cell r j)) = m (addr out (cell r j))).
    { intros r j Hr Hrk Hj. apply A2. intros j' Hj' E. rewrite (proj2 (Ha k j' Hk' Hj')) in E.
      apply INJ in E; [|rewrite Hout; apply Hin; auto..].
      apply Hinj in E; auto. destruct E as [E _]. congruence. }
    split; [|split].
    + intros r j Hr Hj. destruct (Nat.eq_dec r k) as [->|N].
      * rewrite <- (proj2 (Ha k j Hk' Hj)) at 1. rewrite A1 by exact Hj. rewrite RD by exact Hj. reflexivity.
      * rewrite OTHER by (auto; lia). apply I1; [lia|exact Hj].
    + intros r j Hr Hj. rewrite OTHER by (auto; lia). apply I2; [lia|exact Hj].
    + intros a H. rewrite A2; [apply I3, H|]. intros j Hj. rewrite (proj2 (Ha k j Hk' Hj)). apply H, Hin; auto.
Qed.
Lemma rows_all : let m := fold_left row_step (seq 0 count) m0 in
  (forall idx, In idx (cells_of shape) -> m (addr out idx) = F idx (m0 (addr field idx))) /\
  (forall a, (forall idx, In idx (cells_of shape) -> addr out idx <> a) -> m a = m0 a).
Proof.
  destruct (rows_spec count ltac:(lia)) as [R1 [_ R3]]. split; [|exact R3].
  intros idx H. destruct (Hall idx H) as (r & j & Hr & Hj & <-). apply R1; auto.
Qed.
End Rows.

(** ** coordinate arrays *)
Lemma c_strides_length sh : length (c_strides sh) = length sh.
Proof. induction sh as [|n sh IH]; [reflexivity|cbn; rewrite IH; reflexivity]. Qed.
Lemma nth_c_strides sh d : (d < length sh)%nat -> nth d (c_strides sh) 0 = fold_right Z.mul 1 (skipn (S d) sh).
Proof.
  revert d. induction sh as [|n sh IH]; intros d H; [cbn in H; lia|].
  destruct d as [|d]; [reflexivity|]. cbn [c_strides nth]. rewrite IH by (cbn in H; lia). reflexivity.
Qed.
Lemma skipn_map_seq {A} (f : nat -> A) s n k : skipn k (map f (seq s n)) = map f (seq (s + k) (n - k)).
Proof.
  revert s k. induction n as [|n IH]; intros s k.
  - destruct k; reflexivity.
  - destruct k as [|k]; [cbn; rewrite Nat.add_0_r; reflexivity|].
    cbn [seq map skipn]. rewrite IH. replace (S s + k)%nat with (s + S k)%nat by lia. reflexivity.
Qed.
Lemma prod_ones {A} (f : A -> Z) l : (forall a, In a l -> f a = 1) -> fold_right Z.mul 1 (map f l) = 1.
Proof.
  induction l as [|a l IH]; [reflexivity|]. intro H. cbn [map fold_right].
  rewrite IH by (intros; apply H; right; auto). rewrite (H a) by (left; auto). reflexivity.
Qed.
Section Axis.
Variables (n d : nat) (N : Z).
Hypothesis (Hd : (d < n)%nat).
Local Notation v := (axis_view n d N).
Lemma axis_shape_length : length (v_shape v) = n.
Proof. cbn. rewrite map_length, seq_length. reflexivity. Qed.
Lemma axis_strides_length : length (v_strides v) = n.
Proof. cbn. rewrite c_strides_length, map_length, seq_length. reflexivity. Qed.
Lemma axis_shape e : (e < n)%nat -> nth e (v_shape v) 0 = if (e =? d)%nat then N else 1.
Proof. intro H. cbn. rewrite nth_map_seq by exact H. reflexivity. Qed.
Lemma axis_stride : nth d (v_strides v) 0 = 1.
Proof.
  cbn. rewrite nth_c_strides by (rewrite map_length, seq_length; exact Hd).
  rewrite skipn_map_seq. apply prod_ones. intros e He. apply in_seq in He.
  destruct (Nat.eqb_spec e d); [lia|reflexivity].
Qed.
Definition bstrides : list Z := v_strides (broadcast v).
Lemma bstrides_length : length bstrides = n.
Proof. unfold bstrides, broadcast. cbn [v_strides]. rewrite map2_length; [apply axis_shape_length|]. rewrite axis_shape_length, axis_strides_length. reflexivity. Qed.
Lemma bstrides_nth e : (e < n)%nat -> nth e bstrides 0 = if (e =? d)%nat then (if N =? 1 then 0 else 1) else 0.
Proof.
  intro H. unfold bstrides, broadcast. cbn [v_strides]. unfold map2.
  rewrite (nth_map_in _ _ _ _ (0, 0)) by (rewrite combine_length, axis_shape_length, axis_strides_length; lia).
  rewrite combine_nth by (rewrite axis_shape_length, axis_strides_length; reflexivity). cbn [fst snd].
  rewrite axis_shape by exact H. destruct (Nat.eqb_spec e d) as [->|E]; [|reflexivity].
  rewrite axis_stride. reflexivity.
Qed.
Lemma bstrides_sum idx l : NoDup l -> (forall e, In e l -> (e < n)%nat) -> 0 <= nth d idx 0 < N ->
  zdot bstrides idx l = if existsb (fun e => (e =? d)%nat) l then nth d idx 0 else 0.
Proof.
  intros ND HL HI. unfold zdot. induction l as [|e l IH]; [reflexivity|].
  apply NoDup_cons_iff in ND. destruct ND as [N1 N2].
  rewrite rsum_cons. rewrite (IH N2) by (intros; apply HL; right; auto). cbn [existsb].
  rewrite bstrides_nth by (apply HL; left; auto).
  destruct (Nat.eqb_spec e d) as [->|E].
  - cbn [orb]. assert (X : existsb (fun e => (e =? d)%nat) l = false).
    { apply not_true_iff_false. intro X. apply existsb_exists in X. destruct X as (e & He & X). apply Nat.eqb_eq in X. congruence. }
    rewrite X. cbn [radd Zring]. destruct (Z.eqb_spec N 1); lia.
  - cbn [orb]. cbn [radd Zring]. lia.
Qed.
Lemma broadcast_transpose ax w : length (v_strides w) = length (v_shape w) -> Forall (fun a => (a < length (v_shape w))%nat) ax ->
  v_strides (broadcast (transpose ax w)) = permute 0 ax (v_strides (broadcast w)).
Proof.
  intros L H. cbn. unfold permute, map2. rewrite combine_map_map, map_map. apply map_ext_in. intros a Ha.
  cbn [fst snd]. rewrite Forall_forall in H. specialize (H a Ha).
  rewrite (nth_map_in _ _ _ _ (0, 0)) by (rewrite combine_length; lia).
  rewrite combine_nth by lia. reflexivity.
Qed.
Lemma broadcast_row i w : addr (broadcast (row i w)) = fun j => v_off w + i * hd 0 (v_strides w) + dotz (tl (v_strides (broadcast w))) j.
Proof.
  unfold addr, broadcast, row. cbn [v_off v_strides v_shape].
  destruct (v_shape w) as [|a sh], (v_strides w) as [|b st]; try reflexivity.
  unfold map2. destruct sh; reflexivity.
Qed.
Lemma axis_read_row a ax irow idx : Permutation (a :: ax) (seq 0 n) -> length idx = n -> nth a idx 0 = Z.of_nat irow -> 0 <= nth d idx 0 < N ->
  addr (broadcast (row (if (d =? a)%nat then Z.of_nat irow else 0) (transpose (a :: ax) v))) (permute 0 ax idx) = nth d idx 0.
Proof.
  intros HP L HR HI. rewrite broadcast_row.
  rewrite broadcast_transpose.
  2: { rewrite axis_strides_length, axis_shape_length. reflexivity. }
  2: { rewrite axis_shape_length. apply Forall_forall. intros e He. apply (proj1 (perm_in n _ HP e)), He. }
  cbn [transpose v_strides permute map hd tl v_off]. fold bstrides.
  fold (permute 0 ax bstrides). rewrite dotz_permute.
  assert (ND := perm_NoDup n _ HP). apply NoDup_cons_iff in ND. destruct ND as [N1 N2].
  rewrite bstrides_sum; [|exact N2|intros e He; apply (proj1 (perm_in n _ HP e)); right; exact He|exact HI].
  replace (v_off v) with 0 by reflexivity.
  destruct (Nat.eqb_spec d a) as [E|E].
  - rewrite <- E in HR, N1 |- *. rewrite axis_stride.
    assert (X : existsb (fun e => (e =? d)%nat) ax = false).
    { apply not_true_iff_false. intro X. apply existsb_exists in X. destruct X as (e & He & X). apply Nat.eqb_eq in X. congruence. }
    rewrite X. lia.
  - assert (X : existsb (fun e => (e =? d)%nat) ax = true).
    { apply existsb_exists. exists d. rewrite Nat.eqb_refl. split; [|reflexivity].
      assert (I := proj2 (perm_in n _ HP d) Hd). destruct I as [I|I]; [congruence|exact I]. }
    rewrite X. lia.
Qed.
Lemma axis_read_plane idx : length idx = n -> 0 <= nth d idx 0 < N ->
  addr (broadcast (row 0 (newaxis v))) idx = nth d idx 0.
Proof.
  intros L HI. rewrite broadcast_row. cbn [newaxis v_off v_strides v_shape hd tl].
  replace (tl (v_strides (broadcast (newaxis v)))) with bstrides by reflexivity.
  rewrite dotz_zdot by (rewrite bstrides_length; exact L). rewrite bstrides_length.
  rewrite bstrides_sum; [|apply seq_NoDup|intros e He; apply in_seq in He; lia|exact HI].
  assert (X : existsb (fun e => (e =? d)%nat) (seq 0 n) = true).
  { apply existsb_exists. exists d. rewrite Nat.eqb_refl. split; [apply in_seq; lia|reflexivity]. }
  rewrite X. cbn. lia.
Qed.
End Axis.

(** ** Field.apply *)
(** the coordinate of axis [d] at the cell [idx] of the local array *)
Definition coordinate (k : kind) (BoxSize : list Q) (Nmesh : list Z) (x : list (list Q)) (i : list (list Z)) (idx : list Z) (d : nat) : Q :=
  let p := Z.to_nat (nth d idx 0) in
  match k with
  | Index => inject_Z (nth p (nth d i []) 0)
  | Circular => (nth p (nth d x []) 0 * nth d BoxSize 0 / inject_Z (nth d Nmesh 0%Z))%Q
  | _ => nth p (nth d x []) 0%Q
  end.
Lemma nth_map2 {A B C} (f : A -> B -> C) l m d a b i : (i < length l)%nat -> (i < length m)%nat -> nth i (map2 f l m) d = f (nth i l a) (nth i m b).
Proof.
  revert m i. induction l as [|x l IH]; intros m i H1 H2; [cbn in H1; lia|].
  destruct m as [|y m]; [cbn in H2; lia|]. rewrite map2_cons. destruct i as [|i]; [reflexivity|].
  cbn [nth]. apply IH; cbn in *; lia.
Qed.
Lemma map2_length_min {A B C} (f : A -> B -> C) l m : length (map2 f l m) = Nat.min (length l) (length m).
Proof. unfold map2. rewrite map_length, combine_length. reflexivity. Qed.
Section ApplyProof.
Context {V : Type}.
Variables (argsort : list Z -> list nat) (k : kind) (BoxSize : list Q) (Nmesh : list Z) (x : list (list Q)) (i : list (list Z))
  (func : list Q -> V -> V) (field out : view) (m : store (V := V)).
Local Notation shape := (v_shape field).
Local Notation n := (length (v_shape field)).
Hypothesis (SORT : forall l, Permutation (argsort l) (seq 0 (length l))).
Hypothesis (Hn : (2 <= n)%nat) (Sf : length (v_strides field) = n) (So : length (v_strides out) = n) (Hout : v_shape out = shape).
Hypothesis (Hk : k <> OtherKind).
Hypothesis (LX : length x = n) (LI : length i = n) (LB : length BoxSize = n) (LN : length Nmesh = n).
Hypothesis (INJ : injective out) (AL : out = field \/ apart field out).
Definition wanted (idx : list Z) (y : V) : V := func (map (coordinate k BoxSize Nmesh x i idx) (seq 0 n)) y.
Lemma coords_wanted idx : forall views j, length views = n ->
  (forall d, (d < n)%nat -> addr (broadcast (nth d views (mkV 0 [] []))) j = nth d idx 0) ->
  apply_kind k (coords_at 0%Q x views j) (coords_at 0%Z i views j) BoxSize Nmesh = Some (map (coordinate k BoxSize Nmesh x i idx) (seq 0 n)).
Proof.
  intros views j LV H.
  assert (CX : coords_at 0%Q x views j = map (fun d => nth (Z.to_nat (nth d idx 0)) (nth d x []) 0%Q) (seq 0 n)).
  { symmetry. apply map_seq_eq with (d := 0%Q).
    - unfold coords_at. rewrite map2_length_min, LX, LV. lia.
    - intros d Hd. unfold coords_at. rewrite (nth_map2 _ _ _ _ [] (mkV 0 [] [])) by lia. rewrite H by exact Hd. reflexivity. }
  assert (CI : coords_at 0%Z i views j = map (fun d => nth (Z.to_nat (nth d idx 0)) (nth d i []) 0%Z) (seq 0 n)).
  { symmetry. apply map_seq_eq with (d := 0%Z).
    - unfold coords_at. rewrite map2_length_min, LI, LV. lia.
    - intros d Hd. unfold coords_at. rewrite (nth_map2 _ _ _ _ [] (mkV 0 [] [])) by lia. rewrite H by exact Hd. reflexivity. }
  rewrite CX, CI. unfold coordinate. destruct k; cbn [apply_kind]; try (f_equal; reflexivity).
  - rewrite map_map. reflexivity.
  - f_equal. symmetry. apply map_seq_eq with (d := 0%Q).
    + rewrite map2_length_min, map_length, seq_length, combine_length. lia.
    + intros d Hd. rewrite (nth_map2 _ _ _ _ 0%Q (0%Q, 0%Z)); [|rewrite map_length, seq_length; exact Hd|rewrite combine_length; lia].
      rewrite nth_map_seq by exact Hd. rewrite combine_nth by lia. reflexivity.
  - congruence.
Qed.
Local Notation xv := (map2 (fun d n' => axis_view n d n') (seq 0 n) (v_shape field)).
Lemma xv_length : length xv = n.
Proof. rewrite map2_length_min, seq_length. lia. Qed.
Lemma xv_nth d : (d < n)%nat -> nth d xv (mkV 0 [] []) = axis_view n d (nth d shape 0).
Proof.
  intro H. rewrite (nth_map2 _ _ _ _ O 0) by (rewrite ?seq_length; exact H).
  rewrite seq_nth by exact H. reflexivity.
Qed.
(** a fold of [apply_row] is a fold of [row_step] *)
Lemma apply_rows inp outp cell R islab oslab : s_count inp = s_count outp ->
  (forall r, (r < s_count inp)%nat -> slab_at inp r = Ret (islab r) /\ slab_at outp r = Ret (oslab r)) ->
  (forall r, (r < s_count inp)%nat -> v_shape (oslab r) = R r) ->
  (forall r j, (r < s_count inp)%nat -> In j (cells_of (R r)) ->
    apply_kind k (coords_at 0%Q x (slab_x inp r) j) (coords_at 0%Z i (slab_x inp r) j) BoxSize Nmesh =
    Some (map (coordinate k BoxSize Nmesh x i (cell r j)) (seq 0 n))) ->
  forall rs, (forall r, In r rs -> (r < s_count inp)%nat) -> forall m,
  fold_left (apply_row k BoxSize Nmesh x i func inp outp) rs (Ret m) =
  Ret (fold_left (row_step cell islab oslab wanted) rs m).
Proof.
  intros HC HS HR HK. induction rs as [|r rs IH]; intros Hrs m'; [reflexivity|].
  cbn [fold_left]. rewrite <- IH by (intros; apply Hrs; right; auto). f_equal.
  assert (Hr := Hrs r (or_introl eq_refl)). destruct (HS r Hr) as [S1 S2].
  unfold apply_row. cbn [bind]. rewrite S1, S2. cbn [bind].
  assert (E : forall (a b : outcome (store (V := V))), k <> OtherKind -> match k with OtherKind => a | _ => b end = b) by (intros; destruct k; congruence).
  rewrite E by exact Hk. f_equal. unfold row_step, assign.
  rewrite HR by exact Hr.
  assert (X : forall l (m1 : store (V := V)), (forall j, In j l -> In j (cells_of (R r))) ->
    fold_left (fun m0 j => poke m0 (addr (oslab r) j)
      match apply_kind k (coords_at 0%Q x (slab_x inp r) j) (coords_at 0%Z i (slab_x inp r) j) BoxSize Nmesh with
      | Some c => func c (m' (addr (islab r) j)) | None => m' (addr (islab r) j) end) l m1 =
    fold_left (fun m0 j => poke m0 (addr (oslab r) j) (wanted (cell r j) (m' (addr (islab r) j)))) l m1).
  { induction l as [|j l IHl]; intros m1 Hl; [reflexivity|]. cbn [fold_left].
    rewrite HK by (auto; apply Hl; left; auto). rewrite IHl by (intros; apply Hl; right; auto). reflexivity. }
  apply X. auto.
Qed.
Theorem apply_spec : exists m', apply argsort k BoxSize Nmesh x i func field out m = Ret m' /\
  (forall idx, In idx (cells_of shape) -> m' (addr out idx) = wanted idx (m (addr field idx))) /\
  (forall a, (forall idx, In idx (cells_of shape) -> addr out idx <> a) -> m' a = m a).
Proof.
  unfold apply. destruct (list_eq_dec Z.eq_dec (v_shape out) shape) as [_|E]; [|congruence].
  unfold slabiter. destruct (Nat.eqb_spec n 2) as [E2|E2]; cbn [bind].
  - cbn [s_count].
    pose (cell := fun (_ : nat) (j : list Z) => j).
    pose (islab := fun (_ : nat) => row 0 (newaxis field)). pose (oslab := fun (_ : nat) => row 0 (newaxis out)).
    assert (AE : forall v j, addr (row 0 (newaxis v)) j = addr v j).
    { intros v j. unfold addr, row, newaxis. cbn [v_off v_strides hd tl]. lia. }
    rewrite (apply_rows _ _ cell (fun _ => shape) islab oslab); cbn [s_count]; [|reflexivity|..].
    + eexists. split; [reflexivity|].
      apply (rows_all field out 1 (fun _ => shape) cell islab oslab); auto.
      * intros r j _ _. split; apply AE.
      * intros idx H. exists 0%nat, idx. auto.
      * intros r j r' j' H H' _ _ E. split; [lia|exact E].
    + intros r Hr. unfold slab_at. cbn [s_view newaxis v_shape length].
      rewrite Hout, E2. cbn [Nat.leb]. replace r with 0%nat by lia. split; reflexivity.
    + intros r _. exact Hout.
    + intros r j _ Hj. apply in_cells_of in Hj. destruct Hj as [J1 J2]. apply coords_wanted.
      * unfold slab_x. cbn [s_x]. rewrite map2_length_min, seq_length, map_length, xv_length. lia.
      * intros d Hd. unfold slab_x. cbn [s_x s_axis].
        rewrite (nth_map2 _ _ _ _ O (newaxis (mkV 0 [] []))); [|rewrite seq_length, map_length, xv_length; exact Hd|rewrite map_length, xv_length; exact Hd].
        rewrite seq_nth by (rewrite map_length, xv_length; exact Hd). cbn [Nat.add].
        rewrite map_nth, xv_nth by exact Hd.
        destruct (Nat.eqb_spec d 2); [lia|]. apply axis_read_plane; auto.
    + intros r Hr. apply in_seq in Hr. lia.
  - assert (HP0 : Permutation (rev (argsort (v_strides field))) (seq 0 n)).
    { rewrite <- Permutation_rev. rewrite SORT, Sf. reflexivity. }
    destruct (rev (argsort (v_strides field))) as [|a ax].
    { apply Permutation_length in HP0. rewrite seq_length in HP0. cbn in HP0. lia. }
    rename HP0 into HP. cbn [bind s_count].
    assert (Han : (a < n)%nat) by (apply (proj1 (perm_in n _ HP a)); left; auto).
    assert (Hax : forall e, In e ax -> (e < n)%nat) by (intros e He; apply (proj1 (perm_in n _ HP e)); right; auto).
    assert (LA : S (length ax) = n) by exact (perm_length n _ HP).
    set (count := Z.to_nat (nth a shape 0)).
    pose (R := fun (_ : nat) => permute 0 ax shape).
    pose (cell := fun (r : nat) (j : list Z) => unpermute (a :: ax) (Z.of_nat r :: j)).
    pose (islab := fun (r : nat) => row (Z.of_nat r) (transpose (a :: ax) field)).
    pose (oslab := fun (r : nat) => row (Z.of_nat r) (transpose (a :: ax) out)).
    assert (PC : forall r j, (r < count)%nat -> In j (cells_of (R r)) ->
      In (cell r j) (cells_of shape) /\ permute 0 (a :: ax) (cell r j) = Z.of_nat r :: j).
    { intros r j Hr Hj. split.
      - apply unpermute_cells with (n := n); auto. apply in_cells_of in Hj. destruct Hj as [J1 J2].
        unfold R in J1, J2. rewrite permute_length in J1, J2. apply in_cells_of. rewrite permute_length. cbn [length].
        split; [congruence|]. intros [|e] He.
        + rewrite nth_permute by (cbn; lia). cbn [nth]. unfold count in Hr. lia.
        + rewrite nth_permute by (cbn; lia). cbn [nth]. specialize (J2 e ltac:(lia)). rewrite nth_permute in J2 by lia. exact J2.
      - apply permute_unpermute with (n := n); auto. apply in_cells_of in Hj. destruct Hj as [J1 _].
        unfold R in J1. rewrite permute_length in J1. cbn. congruence. }
    assert (AD : forall v r j, length (v_strides v) = n -> (r < count)%nat -> In j (cells_of (R r)) ->
      addr (row (Z.of_nat r) (transpose (a :: ax) v)) j = addr v (cell r j)).
    { intros v r j Lv Hr Hj. destruct (PC r j Hr Hj) as [P1 P2].
      rewrite (addr_row _ _ (nth a (v_strides v) 0) (permute 0 ax (v_strides v))) by reflexivity.
      rewrite <- P2. apply addr_transpose with (n := n); auto. apply cells_dim in P1. exact P1. }
    rewrite (apply_rows _ _ cell R islab oslab); cbn [s_count]; [|reflexivity|..].
    + eexists. split; [reflexivity|].
      apply (rows_all field out count R cell islab oslab); auto.
      * intros r _. unfold oslab, R. cbn. rewrite Hout. reflexivity.
      * intros r j Hr Hj. split; apply AD; auto.
      * intros r j Hr Hj. apply PC; auto.
      * intros idx Hidx. exists (Z.to_nat (nth a idx 0)), (permute 0 ax idx).
        assert (Hc := Hidx). apply in_cells_of in Hc. destruct Hc as [I1 I2]. specialize (I2 a Han) as Ia.
        split; [unfold count; lia|]. split.
        -- apply in_cells_of. unfold R. rewrite !permute_length. split; [reflexivity|]. intros e He.
           rewrite !nth_permute by exact He. apply I2, Hax, nth_In, He.
        -- unfold cell. rewrite Z2Nat.id by lia. change (nth a idx 0 :: permute 0 ax idx) with (permute 0 (a :: ax) idx).
           apply unpermute_permute with (n := n); auto.
      * intros r j r' j' Hr Hr' Hj Hj' E. destruct (PC r j Hr Hj) as [_ P1], (PC r' j' Hr' Hj') as [_ P2].
        rewrite E, P2 in P1. apply (f_equal (fun l => (hd 0 l, tl l))) in P1. cbn [hd tl] in P1.
        apply pair_equal_spec in P1. destruct P1 as [P1 P3]. split; [lia|auto].
    + intros r Hr. unfold slab_at. cbn [s_view transpose v_shape]. rewrite !permute_length. cbn [length].
      destruct (Nat.leb_spec (S (length ax)) 1); [lia|]. split; reflexivity.
    + intros r _. unfold oslab, R. cbn. rewrite Hout. reflexivity.
    + intros r j Hr Hj. destruct (PC r j Hr Hj) as [P1 P2]. assert (P0 := P1). apply in_cells_of in P1. destruct P1 as [J1 J2].
      apply (f_equal (fun l => (hd 0 l, tl l))) in P2. cbn [hd tl permute map] in P2. apply pair_equal_spec in P2. destruct P2 as [P2 P3].
      apply coords_wanted.
      * unfold slab_x. cbn [s_x]. rewrite map2_length_min, seq_length, map_length, xv_length. lia.
      * intros d Hd. unfold slab_x. cbn [s_x s_axis].
        rewrite (nth_map2 _ _ _ _ O (transpose (a :: ax) (mkV 0 [] []))); [|rewrite seq_length, map_length, xv_length; exact Hd|rewrite map_length, xv_length; exact Hd].
        rewrite seq_nth by (rewrite map_length, xv_length; exact Hd). cbn [Nat.add].
        rewrite map_nth, xv_nth by exact Hd.
        rewrite <- P3 at 1. fold (permute 0 ax (cell r j)).
        rewrite <- (axis_read_row n d (nth d shape 0) Hd a ax r (cell r j)); auto.
        destruct (d =? a)%nat; reflexivity.
    + intros r Hr. apply in_seq in Hr. unfold count. lia.
Qed.
End ApplyProof.
