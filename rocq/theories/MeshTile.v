(** The blocks of the ranks tile the mesh. *)
From Coq Require Import List Arith ZArith QArith Lia Bool Sorted Permutation.
From Verif Require Import Base ListFacts LayoutModel WrapModel WrapProofs DomainModel DomainFill DomainGeom DomainTargets
  DomainHome QSum WindowModel WindowApi WindowTranslate MeshModel MeshAssign MeshRoute.
Import ListNotations.
Local Close Scope Q_scope.
Local Open Scope Z_scope.

(** the indices of an array of the given shape *)
Definition cells_of (shape : list Z) : list (list Z) := box (map (fun n => (0, n)) shape).

Lemma in_cells_of shape idx : In idx (cells_of shape) <->
  length idx = length shape /\ forall i, (i < length shape)%nat -> 0 <= nth i idx 0 < nth i shape 0.
Proof.
  unfold cells_of. rewrite in_box. revert idx. induction shape as [|n ns IH]; intros idx; cbn [map].
  - split.
    + intros H. inversion H; subst. split; [reflexivity|intros; simpl in *; lia].
    + intros [L _]. destruct idx; [constructor|discriminate].
  - split.
    + intros H. inversion H as [|? z ? l Hz Hl]; subst. apply IH in Hl. destruct Hl as [L Hl].
      split; [simpl; lia|]. intros [|i] Hi; [exact Hz|]. apply Hl. simpl in Hi; lia.
    + intros [L H]. destruct idx as [|z l]; [discriminate|]. constructor.
      * exact (H O ltac:(simpl; lia)).
      * apply IH. split; [simpl in L; lia|]. intros i Hi. exact (H (S i) ltac:(simpl; lia)).
Qed.
Lemma cells_of_NoDup shape : NoDup (cells_of shape).
Proof. apply box_NoDup. Qed.

Lemma find_block e c m : (m < length e)%nat -> nth 0 e 0 <= c -> c < nth m e 0 ->
  exists k, (k < m)%nat /\ nth k e 0 <= c < nth (S k) e 0.
Proof.
  induction m as [|m IH]; intros Hm H0 H1; [lia|].
  destruct (Z_lt_ge_dec c (nth m e 0)) as [H|H].
  - destruct IH as (k & K & B); [lia|lia|lia|]. exists k. split; [lia|exact B].
  - exists m. split; lia.
Qed.
Lemma block_unique e k k' c : StronglySorted Z.le e -> (S k < length e)%nat -> (S k' < length e)%nat ->
  nth k e 0 <= c < nth (S k) e 0 -> nth k' e 0 <= c < nth (S k') e 0 -> k = k'.
Proof.
  intros S K K' B B'. destruct (Nat.lt_trichotomy k k') as [H|[H|H]]; [|exact H|].
  - pose proof (Zsorted_nth e (Datatypes.S k) k' S ltac:(lia) ltac:(lia)). lia.
  - pose proof (Zsorted_nth e (Datatypes.S k') k S ltac:(lia) ltac:(lia)). lia.
Qed.

Lemma NoDup_flat_map {A B} (f : A -> list B) l : NoDup l -> (forall a, In a l -> NoDup (f a)) ->
  (forall a a' b, In a l -> In a' l -> In b (f a) -> In b (f a') -> a = a') -> NoDup (flat_map f l).
Proof.
  induction l as [|x l IH]; intros N F D; [constructor|]. inversion N as [|? ? N1 N2]; subst. cbn [flat_map].
  assert (NF : NoDup (flat_map f l)).
  { apply IH; [exact N2|intros; apply F; right; assumption|]. intros a a' b Ha Ha'. apply D; right; assumption. }
  assert (Nx := F x (or_introl eq_refl)).
  assert (Dx : forall b, In b (f x) -> ~ In b (flat_map f l)).
  { intros b Hb Hin. apply in_flat_map in Hin. destruct Hin as (a & Ha & Hb').
    apply N1. rewrite (D x a b (or_introl eq_refl) (or_intror Ha) Hb Hb'). exact Ha. }
  clear -NF Nx Dx. induction (f x) as [|y m IH]; [exact NF|]. cbn [app]. inversion Nx; subst. constructor.
  - rewrite in_app_iff. intros [H|H]; [contradiction|]. exact (Dx y (or_introl eq_refl) H).
  - apply IH; [assumption|]. intros b Hb. apply Dx. right. exact Hb.
Qed.

Section Mesh.
Variables (Nmesh : list Z) (pt : partition) (blocks : list (list Z)).
Hypothesis (OK : mesh_ok Nmesh pt blocks).
Local Notation edges := (i_edges pt).
Local Notation P := (length blocks).
Local Notation nd := (length Nmesh).
Local Notation start r := (block_start edges (block blocks r)).
Local Notation shape r := (block_shape edges (block blocks r)).

(** the cells of rank [r] as cells of the whole mesh *)
Definition rank_cells (r : nat) : list (list Z) := map (fun idx => zadd idx (start r)) (cells_of (shape r)).

Lemma in_rank_cells r c : (r < P)%nat ->
  (In c (rank_cells r) <-> length c = nd /\
   forall i, (i < nd)%nat -> nth i (start r) 0 <= nth i c 0 < nth i (start r) 0 + nth i (shape r) 0).
Proof.
  intros Hr. unfold rank_cells. rewrite in_map_iff.
  pose proof (start_length _ _ _ OK r Hr) as Ls. pose proof (block_shape_length _ _ _ OK r Hr) as Lsh. split.
  - intros (idx & <- & Hin). apply in_cells_of in Hin. destruct Hin as [L H]. rewrite Lsh in L.
    split; [rewrite zadd_length; lia|]. intros i Hi. rewrite zadd_nth by lia. specialize (H i ltac:(lia)). lia.
  - intros [L H]. exists (map (fun p => fst p - snd p) (combine c (start r))).
    assert (Lm : length (map (fun p => fst p - snd p) (combine c (start r))) = nd).
    { rewrite map_length, combine_length. lia. }
    assert (Nm : forall i, (i < nd)%nat -> nth i (map (fun p => fst p - snd p) (combine c (start r))) 0 = nth i c 0 - nth i (start r) 0).
    { intros i Hi. rewrite (nth_map_in _ _ i 0 (0, 0)) by (rewrite combine_length; lia).
      rewrite combine_nth by lia. reflexivity. }
    split.
    + apply (nth_ext _ _ 0 0); [rewrite zadd_length; lia|]. intros i Hi. rewrite zadd_length in Hi by lia.
      rewrite zadd_nth by lia. rewrite Nm by lia. lia.
    + apply in_cells_of. split; [lia|]. intros i Hi. rewrite Nm by lia. specialize (H i ltac:(lia)). lia.
Qed.

Lemma in_mesh_rank c : In c (cells_of Nmesh) -> exists r, (r < P)%nat /\ In c (rank_cells r).
Proof.
  intros H. apply in_cells_of in H. destruct H as [L H].
  destruct (exists_list (fun i (k : Z) => let e := nth i edges [] in
    0 <= k < Z.of_nat (length e) - 1 /\ nth (Z.to_nat k) e 0 <= nth i c 0 < nth (S (Z.to_nat k)) e 0) 0 nd) as (ks & Lk & Hks).
  { intros i Hi. pose proof (mk_edges _ _ _ OK) as Me. specialize (H i Hi).
    assert (E : edges_ok (nth i Nmesh 0) (nth i edges [])).
    { clear -Me Hi. revert i Hi. induction Me as [|n e ns es He _ IH]; intros i Hi; [simpl in Hi; lia|].
      destruct i as [|i]; [exact He|]. apply IH. simpl in Hi; lia. }
    destruct E as (E1 & E2 & E3 & E4 & E5). set (e := nth i edges []) in *.
    destruct (find_block e (nth i c 0) (length e - 1)) as (k & K & B); [lia|lia|rewrite nth_last; lia|].
    exists (Z.of_nat k). rewrite Nat2Z.id. split; [lia|exact B]. }
  destruct (block_of _ _ _ OK ks) as (r & Hr & Br).
  { unfold domain_shape. pose proof (edges_length _ _ _ OK) as Le. clear -Lk Hks Le.
    assert (G : forall i, (i < length edges)%nat -> 0 <= nth i ks 0 < Z.of_nat (length (nth i edges [])) - 1)
      by (intros i Hi; apply Hks; lia). rewrite <- Le in Lk. clear Hks Le.
    revert ks Lk G. induction edges as [|e es IH]; intros [|k ks] Lk G; simpl in Lk; try lia; constructor.
    - exact (G O ltac:(simpl; lia)).
    - apply IH; [lia|]. intros i Hi. exact (G (S i) ltac:(simpl; lia)). }
  exists r. split; [exact Hr|]. apply (in_rank_cells r c Hr). split; [exact L|].
  intros i Hi. destruct (block_nth _ _ _ OK r i Hr Hi) as (_ & _ & _ & E1 & E2).
  rewrite Br in *. rewrite E1, E2. destruct (Hks i Hi) as [_ B]. lia.
Qed.

Lemma rank_cells_disjoint r r' c : (r < P)%nat -> (r' < P)%nat -> In c (rank_cells r) -> In c (rank_cells r') -> r = r'.
Proof.
  intros Hr Hr' H H'. apply (in_rank_cells r c Hr) in H. apply (in_rank_cells r' c Hr') in H'.
  destruct H as [L H]. destruct H' as [_ H'].
  apply (block_inj _ _ _ OK); [exact Hr|exact Hr'|].
  assert (Lb : forall q, (q < P)%nat -> length (block blocks q) = nd).
  { intros q Hq. pose proof (block_valid _ _ _ OK q Hq) as V. apply Forall2_len in V. unfold domain_shape in V.
    rewrite map_length in V. rewrite (edges_length _ _ _ OK) in V. lia. }
  apply (nth_ext _ _ 0 0); [rewrite !Lb by assumption; reflexivity|]. intros i Hi. rewrite Lb in Hi by exact Hr.
  destruct (block_nth _ _ _ OK r i Hr Hi) as (Ne & K & K0 & E1 & E2).
  destruct (block_nth _ _ _ OK r' i Hr' Hi) as (_ & K' & K0' & E1' & E2').
  specialize (H i Hi). specialize (H' i Hi). rewrite E1, E2 in H. rewrite E1', E2' in H'.
  assert (E : Z.to_nat (nth i (block blocks r) 0) = Z.to_nat (nth i (block blocks r') 0)).
  { apply (block_unique (nth i edges []) _ _ (nth i c 0)); [apply Ne|exact K|exact K'|lia|lia]. }
  lia.
Qed.

Theorem blocks_tile : Permutation (flat_map rank_cells (seq 0 P)) (cells_of Nmesh).
Proof.
  apply NoDup_Permutation.
  - apply NoDup_flat_map; [apply seq_NoDup| |].
    + intros r Hr. apply in_seq in Hr. unfold rank_cells. apply NoDup_map_in; [|apply cells_of_NoDup].
      intros a b Ha Hb E. apply in_cells_of in Ha. apply in_cells_of in Hb.
      pose proof (start_length _ _ _ OK r ltac:(lia)) as Ls. pose proof (block_shape_length _ _ _ OK r ltac:(lia)) as Lsh.
      apply (nth_ext _ _ 0 0); [lia|]. intros i Hi.
      assert (E' : nth i (zadd a (start r)) 0 = nth i (zadd b (start r)) 0) by (rewrite E; reflexivity).
      rewrite !zadd_nth in E' by lia. lia.
    + intros r r' c Hr Hr' H H'. apply in_seq in Hr. apply in_seq in Hr'.
      apply (rank_cells_disjoint r r' c); [lia|lia|exact H|exact H'].
  - apply cells_of_NoDup.
  - intros c. rewrite in_flat_map. split.
    + intros (r & Hr & H). apply in_seq in Hr. assert (Hr' : (r < P)%nat) by lia.
      apply (in_rank_cells r c Hr') in H. destruct H as [L H]. apply in_cells_of. split; [exact L|].
      intros i Hi. specialize (H i Hi). pose proof (block_bounds _ _ _ OK r i Hr' Hi). lia.
    + intros H. destruct (in_mesh_rank c H) as (r & Hr & Hc). exists r. split; [apply in_seq; lia|exact Hc].
Qed.

(** a sum over the mesh is the sum over the ranks' blocks *)
Lemma mesh_sum (f : list Z -> Q) :
  (qsum f (cells_of Nmesh) == qsum (fun r => qsum (fun idx => f (zadd idx (start r))) (cells_of (shape r))) (seq 0 P))%Q.
Proof.
  rewrite <- (qsum_perm f _ _ blocks_tile). rewrite qsum_flat_map. apply qsum_ext. intros r.
  unfold rank_cells. rewrite qsum_map. reflexivity.
Qed.
End Mesh.
