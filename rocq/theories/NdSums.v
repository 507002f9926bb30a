(** Proofs about csum, cmean and preview (NdModel.v). *)
From Coq Require Import List Arith ZArith QArith Lia Bool Permutation Ring.
From Verif Require Import Base ListFacts LayoutModel WrapModel WrapProofs DomainFill MeshModel MeshAssign MeshRoute MeshTile RingModel FieldModel FieldFacts NdModel NdProofs.
Import ListNotations.
Local Close Scope Q_scope.
Local Open Scope Z_scope.

Lemma cells_of_app s t : cells_of (s ++ t) = flat_map (fun a => map (app a) (cells_of t)) (cells_of s).
Proof.
  induction s as [|n s IH].
  - unfold cells_of at 2. cbn. rewrite app_nil_r, map_id. reflexivity.
  - unfold cells_of in *. cbn [app map box]. rewrite IH. clear IH.
    rewrite flat_map_flat_map. apply flat_map_ext_in. intros x _.
    rewrite map_flat_map, flat_map_map. apply flat_map_ext_in. intros a _.
    rewrite map_map. reflexivity.
Qed.
Lemma cells_permute n ax shape : Permutation ax (seq 0 n) -> length shape = n ->
  Permutation (map (permute 0 ax) (cells_of shape)) (cells_of (permute 0 ax shape)).
Proof.
  intros HP L. apply NoDup_Permutation.
  - apply NoDup_map_in; [|apply cells_of_NoDup]. intros a b Ha Hb E.
    rewrite <- (unpermute_permute n ax HP a), <- (unpermute_permute n ax HP b), E; [reflexivity|apply cells_dim in Hb; congruence|apply cells_dim in Ha; congruence].
  - apply cells_of_NoDup.
  - intro p. split; intro H.
    + apply in_map_iff in H. destruct H as (idx & <- & H). apply permute_cells with (n := n); auto.
    + apply in_map_iff. exists (unpermute ax p). split.
      * apply permute_unpermute with (n := n); auto. apply cells_dim in H. rewrite permute_length in H.
        rewrite H. exact (perm_length n ax HP).
      * apply unpermute_cells with (n := n); auto.
Qed.

Lemma iter_swap {A} (f : A -> A) n x : Nat.iter n f (f x) = f (Nat.iter n f x).
Proof. induction n as [|n IH]; [reflexivity|cbn; f_equal; exact IH]. Qed.
Lemma app_same_length {A} (a b c d : list A) : length a = length b -> a ++ c = b ++ d -> a = b /\ c = d.
Proof.
  revert b. induction a as [|x a IH]; intros [|y b] L E; cbn in L; try lia; [auto|].
  cbn in E. injection E as -> E. destruct (IH b ltac:(lia) E) as [-> ->]. auto.
Qed.
Section CSum.
Variable K : cring.
Add Ring Kr : (rth K).
Lemma iter_sum_last s : forall a : nd K, n_shape a = s -> n_get (Nat.iter (length s) (sum_last K) a) [] = rsum (n_get a) (cells_of s).
Proof.
  induction s as [|z s IH] using rev_ind; intros a E.
  - cbn. ring.
  - rewrite app_length, Nat.add_comm.
    change (length [z] + length s)%nat with (S (length s)).
    change (Nat.iter (S (length s)) (sum_last K) a) with (sum_last K (Nat.iter (length s) (sum_last K) a)). rewrite <- iter_swap.
    rewrite IH by (cbn; rewrite E, removelast_last; reflexivity).
    rewrite cells_of_app, rsum_flat_map. apply rsum_ext_in. intros idx _. cbn [sum_last n_get].
    rewrite E, last_last. unfold cells_of. cbn [map box]. rewrite rsum_map, Z.sub_0_r.
    rewrite (flat_map_single (fun x => [x])), rsum_map. reflexivity.
Qed.
Lemma csum_local_spec argsort v m : (forall l, Permutation (argsort l) (seq 0 (length l))) -> length (v_strides v) = length (v_shape v) ->
  csum_local K argsort v m = rsum (fun idx => m (addr v idx)) (cells_of (v_shape v)).
Proof.
  intros SORT L. unfold csum_local.
  assert (HP : Permutation (rev (argsort (v_strides v))) (seq 0 (length (v_shape v)))).
  { rewrite <- Permutation_rev, SORT, L. reflexivity. }
  set (ax := rev (argsort (v_strides v))) in *.
  replace (length (v_shape v)) with (length (permute 0 ax (v_shape v))) by (rewrite permute_length; exact (perm_length _ _ HP)).
  rewrite iter_sum_last by reflexivity.
  rewrite <- (rsum_perm K _ _ _ (cells_permute _ ax (v_shape v) HP eq_refl)). rewrite rsum_map.
  apply rsum_ext_in. intros idx H. cbn [of_view n_get]. f_equal.
  apply addr_transpose with (n := length (v_shape v)); auto. apply cells_dim in H. exact H.
Qed.
(** ** preview *)
Lemma permute_zadd ax s idx : length s = length idx -> Forall (fun a => (a < length s)%nat) ax ->
  permute 0 ax (zadd s idx) = zadd (permute 0 ax s) (permute 0 ax idx).
Proof.
  intros L H. induction H as [|a ax Ha H IH]; [reflexivity|].
  cbn [permute map]. fold (permute 0 ax (zadd s idx)) (permute 0 ax s) (permute 0 ax idx). rewrite zadd_cons, IH. f_equal.
  clear IH H. revert idx a L Ha. induction s as [|x s IHs]; intros [|y idx] a L Ha; cbn in L, Ha; try lia.
  rewrite zadd_cons. destruct a as [|a]; [reflexivity|]. cbn [nth]. apply IHs; lia.
Qed.
Lemma permute_app {A} (d : A) a b l : permute d (a ++ b) l = permute d a l ++ permute d b l.
Proof. apply map_app. Qed.
Lemma is_perm_true n ax : Permutation ax (seq 0 n) -> is_perm n ax = true.
Proof.
  intro HP. unfold is_perm. rewrite (perm_length n ax HP), Nat.eqb_refl. cbn [andb].
  apply forallb_forall. intros a Ha. apply existsb_exists. exists a. rewrite Nat.eqb_refl.
  split; [|reflexivity]. apply (Permutation_in _ (Permutation_sym HP)), Ha.
Qed.
Definition rest (n : nat) (axes : list nat) : list nat := filter (fun a => negb (existsb (fun b => (a =? b)%nat) axes)) (seq 0 n).
Lemma rest_perm n axes : NoDup axes -> Forall (fun a => (a < n)%nat) axes -> Permutation (axes ++ rest n axes) (seq 0 n).
Proof.
  intros ND H. rewrite Forall_forall in H. apply NoDup_Permutation; [|apply seq_NoDup|].
  - apply NoDup_app_intro; [exact ND|apply NoDup_filter, seq_NoDup|].
    intros a H1 H2. apply filter_In in H2. destruct H2 as [_ H2]. apply negb_true_iff in H2.
    assert (X : existsb (fun b => (a =? b)%nat) axes = true) by (apply existsb_exists; exists a; rewrite Nat.eqb_refl; auto). congruence.
  - intro a. rewrite in_app_iff. unfold rest. rewrite filter_In. split.
    + intros [Ha|[Ha _]]; [apply in_seq; specialize (H a Ha); lia|exact Ha].
    + intro Ha. destruct (existsb (fun b => (a =? b)%nat) axes) eqn:E; [left|right; auto].
      apply existsb_exists in E. destruct E as (b & Hb & E). apply Nat.eqb_eq in E. subst. exact Hb.
Qed.
(** the part of a projection that one rank holds *)
Lemma in_slice start shape j : length start = length shape -> length j = length shape ->
  forallb (fun p => (snd (fst p) <=? fst (fst p)) && (fst (fst p) <? snd (fst p) + snd p)) (combine (combine j start) shape) = true <->
  exists l, In l (cells_of shape) /\ zadd start l = j.
Proof.
  intros L1 L2. split.
  - intro H. exists (map2 Z.sub j start). split.
    + apply in_cells_of. rewrite map2_length by congruence. split; [exact L2|]. intros i Hi.
      rewrite forallb_forall in H. assert (X := H (nth i j 0, nth i start 0, nth i shape 0)).
      rewrite (nth_map2 _ _ _ _ 0 0) by lia. cbn [fst snd] in X.
      assert (X0 : In (nth i j 0, nth i start 0, nth i shape 0) (combine (combine j start) shape)).
      { rewrite <- combine_nth by congruence. rewrite <- combine_nth by (rewrite combine_length; lia).
        apply nth_In. rewrite !combine_length. lia. }
      specialize (X X0). apply andb_true_iff in X. destruct X as [X1 X2]. apply Z.leb_le in X1. apply Z.ltb_lt in X2. lia.
    + clear H. revert j start L1 L2. induction shape as [|n shape IH]; intros [|a j] [|b start] L1 L2; cbn in L1, L2; try lia; [reflexivity|].
      rewrite map2_cons, zadd_cons, IH by lia. f_equal. lia.
  - intros (l & Hl & <-). apply in_cells_of in Hl. destruct Hl as [D Hl].
    clear L2. revert start l L1 D Hl. induction shape as [|n shape IH]; intros [|b start] [|a l] L1 D Hl; cbn in L1, D; try lia; [reflexivity|].
    rewrite zadd_cons. cbn [combine forallb fst snd]. rewrite IH; [|lia|lia|intros i Hi; apply (Hl (S i)); cbn; lia].
    specialize (Hl 0%nat ltac:(cbn; lia)). cbn in Hl. rewrite andb_true_r. apply andb_true_iff. split; [apply Z.leb_le|apply Z.ltb_lt]; lia.
Qed.
Lemma map2_sub_zadd s l : length s = length l -> map2 Z.sub (zadd s l) s = l.
Proof.
  revert l. induction s as [|a s IH]; intros [|b l] L; cbn in L; try lia; [reflexivity|].
  rewrite zadd_cons, map2_cons, IH by lia. f_equal. lia.
Qed.
Definition keeps (axes : list nat) (j : list Z) (idx : list Z) : bool := idx_eqb (permute 0 axes idx) j.
Section Local.
Variables (cshape : list Z) (axes : list nat) (L : lfield K) (f : list Z -> K).
Local Notation n := (length cshape).
Hypothesis (Ls : length (lstart L) = n) (Lh : length (lshape L) = n) (HL : lvals L = map f (lcells L)).
Hypothesis (ND : NoDup axes) (HA : Forall (fun a => (a < n)%nat) axes) (HF : (length axes < n)%nat \/ axes = seq 0 n).
Lemma block_part l : In l (cells_of (permute 0 axes (lshape L))) ->
  rsum (fun idx => if keeps axes (zadd (permute 0 axes (lstart L)) l) idx then f idx else r0) (lcells L) =
  rsum (fun k => f (zadd (lstart L) (unpermute (axes ++ rest n axes) (l ++ k)))) (cells_of (permute 0 (rest n axes) (lshape L))).
Proof.
  intro Hl. assert (HP := rest_perm n axes ND HA). set (all := axes ++ rest n axes) in *.
  unfold lcells. rewrite rsum_map.
  transitivity (rsum (fun p => let idx := unpermute all p in if keeps axes (zadd (permute 0 axes (lstart L)) l) (zadd (lstart L) idx) then f (zadd (lstart L) idx) else r0)
                  (map (permute 0 all) (cells_of (lshape L)))).
  { rewrite rsum_map. apply rsum_ext_in. intros idx H. cbn beta zeta. rewrite (unpermute_permute n all HP); [reflexivity|apply cells_dim in H; congruence]. }
  rewrite (rsum_perm K _ _ _ (cells_permute n all (lshape L) HP Lh)). unfold all at 2. rewrite permute_app, cells_of_app, rsum_flat_map.
  rewrite (rsum_single K (list_eq_dec Z.eq_dec) _ _ l (cells_of_NoDup _) Hl).
  - rewrite rsum_map. apply rsum_ext_in. intros k Hk. cbn zeta.
    assert (D : length (l ++ k) = n).
    { apply cells_dim in Hl, Hk. rewrite app_length, Hl, Hk, !permute_length, <- app_length. exact (perm_length n all HP). }
    assert (PU : permute 0 axes (unpermute all (l ++ k)) = l).
    { assert (PU := permute_unpermute n all HP (l ++ k) D). unfold all in PU at 1. rewrite permute_app in PU.
      apply app_same_length in PU; [apply PU|]. apply cells_dim in Hl. rewrite Hl, !permute_length. reflexivity. }
    unfold keeps. rewrite permute_zadd; [|rewrite (unpermute_length n all HP); congruence|rewrite Ls; exact HA].
    rewrite PU. unfold idx_eqb. destruct (list_eq_dec Z.eq_dec _ _); [reflexivity|congruence].
  - intros l' Hl' Hne. rewrite rsum_map. apply rsum_zero. intros k Hk. cbn zeta.
    assert (D : length (l' ++ k) = n).
    { apply cells_dim in Hl', Hk. rewrite app_length, Hl', Hk, !permute_length, <- app_length. exact (perm_length n all HP). }
    assert (PU : permute 0 axes (unpermute all (l' ++ k)) = l').
    { assert (PU := permute_unpermute n all HP (l' ++ k) D). unfold all in PU at 1. rewrite permute_app in PU.
      apply app_same_length in PU; [apply PU|]. apply cells_dim in Hl'. rewrite Hl', !permute_length. reflexivity. }
    unfold keeps. rewrite permute_zadd; [|rewrite (unpermute_length n all HP); congruence|rewrite Ls; exact HA].
    rewrite PU. unfold idx_eqb. destruct (list_eq_dec Z.eq_dec _ _) as [E|E]; [|reflexivity].
    exfalso. apply Hne. apply cells_dim in Hl, Hl'. rewrite permute_length in Hl, Hl'.
    apply (zadd_inj (permute 0 axes (lstart L))); rewrite ?permute_length; congruence.
Qed.
Lemma block_outside j : (forall l, In l (cells_of (permute 0 axes (lshape L))) -> zadd (permute 0 axes (lstart L)) l <> j) ->
  rsum (fun idx => if keeps axes j idx then f idx else r0) (lcells L) = r0.
Proof.
  intro H. apply rsum_zero. intros idx Hidx. unfold lcells in Hidx. apply in_map_iff in Hidx. destruct Hidx as (i & <- & Hi).
  unfold keeps, idx_eqb. destruct (list_eq_dec Z.eq_dec _ _) as [E|E]; [|reflexivity]. exfalso.
  rewrite permute_zadd in E; [|apply cells_dim in Hi; congruence|rewrite Ls; exact HA].
  apply (H (permute 0 axes i)); [|exact E].
  apply in_cells_of in Hi. destruct Hi as [I1 I2]. apply in_cells_of. rewrite !permute_length. split; [reflexivity|].
  intros e He. rewrite !nth_permute by exact He. apply I2. rewrite Lh. rewrite Forall_forall in HA. apply HA, nth_In, He.
Qed.
Lemma preview_local_spec : exists a, preview_local K cshape axes L = Ret a /\
  forall j, length j = length axes ->
    n_get a j = rsum (fun idx => if keeps axes j idx then f idx else r0) (lcells L).
Proof.
  unfold preview_local.
  assert (B : forallb (fun a => (a <? n)%nat) axes = true).
  { apply forallb_forall. intros a Ha. apply Nat.ltb_lt. rewrite Forall_forall in HA. auto. }
  rewrite B. clear B. assert (HP := rest_perm n axes ND HA).
  assert (GET : forall idx, In idx (cells_of (lshape L)) -> lget r0 L idx = f (zadd (lstart L) idx)).
  { intros idx H. apply lget_holds; auto. }
  destruct (Nat.eqb_spec (length axes) n) as [E|E].
  - assert (AX : axes = seq 0 n) by (destruct HF; [lia|auto]).
    assert (ID : forall l, length l = n -> permute 0 axes l = l) by (intros l Hl; rewrite AX; apply map_nth_seq, Hl).
    unfold add_slice. cbn [n_shape]. rewrite !ID by auto.
    destruct (list_eq_dec Z.eq_dec (lshape L) (lshape L)) as [_|X]; [|congruence].
    eexists. split; [reflexivity|]. intros j Hj. cbn [n_get].
    destruct (forallb _ _) eqn:F.
    + apply in_slice in F; [|congruence..]. destruct F as (l & Hl & <-).
      rewrite map2_sub_zadd by (apply cells_dim in Hl; congruence). rewrite GET by exact Hl.
      rewrite (rsum_single K (list_eq_dec Z.eq_dec) _ _ (zadd (lstart L) l)).
      * unfold keeps. rewrite ID by (rewrite zadd_length; apply cells_dim in Hl; lia).
        unfold idx_eqb. destruct (list_eq_dec Z.eq_dec _ _); [reflexivity|congruence].
      * apply (lcells_NoDup L n); auto.
      * apply in_map, Hl.
      * intros b Hb Hne. unfold keeps. rewrite ID; [|apply (in_lcells L n) in Hb; auto; apply Hb].
        unfold idx_eqb. destruct (list_eq_dec Z.eq_dec _ _); [congruence|reflexivity].
    + symmetry. apply block_outside. rewrite !ID by auto. intros l Hl X.
      apply not_true_iff_false in F. apply F. apply in_slice; [congruence|congruence|]. exists l. auto.
  - fold (rest n axes). unfold nd_transpose. cbn [n_shape]. rewrite Lh, (is_perm_true n _ HP). cbn [bind].
    unfold add_slice, sum_from. cbn [n_shape n_get].
    replace (length (axes ++ rest n axes) - length (rest n axes))%nat with (length axes) by (rewrite app_length; lia).
    rewrite permute_app.
    assert (FS : firstn (length axes) (permute 0 axes (lshape L) ++ permute 0 (rest n axes) (lshape L)) = permute 0 axes (lshape L)).
    { rewrite <- (permute_length 0 axes (lshape L)) at 1. rewrite firstn_app, Nat.sub_diag, firstn_O, app_nil_r. apply firstn_all. }
    assert (SK : skipn (length axes) (permute 0 axes (lshape L) ++ permute 0 (rest n axes) (lshape L)) = permute 0 (rest n axes) (lshape L)).
    { rewrite <- (permute_length 0 axes (lshape L)) at 1. rewrite skipn_app, Nat.sub_diag, skipn_O, skipn_all. reflexivity. }
    rewrite FS, SK. destruct (list_eq_dec Z.eq_dec _ _) as [_|X]; [|congruence].
    eexists. split; [reflexivity|]. intros j Hj. cbn [n_get].
    destruct (forallb _ _) eqn:F.
    + apply in_slice in F; [|rewrite !permute_length; congruence..]. destruct F as (l & Hl & <-).
      rewrite map2_sub_zadd by (apply cells_dim in Hl; rewrite Hl, !permute_length; reflexivity).
      rewrite block_part by exact Hl. apply rsum_ext_in. intros k Hk. apply GET.
      apply unpermute_cells with (n := n); auto. rewrite permute_app, cells_of_app. apply in_flat_map. exists l. split; [exact Hl|].
      apply in_map, Hk.
    + symmetry. apply block_outside. intros l Hl X.
      apply not_true_iff_false in F. apply F. apply in_slice; [rewrite !permute_length; congruence..|]. exists l. auto.
Qed.
End Local.
End CSum.
