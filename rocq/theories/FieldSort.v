(** Property C38: ravel and unravel (pmesh/pm.py:389-448). *)
From Coq Require Import List Arith ZArith QArith Lia Bool Permutation Sorted.
From Verif Require Import Base ListFacts LayoutModel WrapModel WrapProofs DomainModel DomainFill MeshModel MeshAssign
  MeshRoute MeshTile RingModel FieldModel FieldFacts FieldProperties.
Import ListNotations.
Local Close Scope Q_scope.
Local Open Scope Z_scope.

Section Sorting.
Context {V : Type}.
Local Notation ksorted := (StronglySorted (fun x y : Z * V => fst x < fst y)).

Lemma insert_key_perm x (l : list (Z * V)) : Permutation (insert_key x l) (x :: l).
Proof.
  induction l as [|y l IH]; [reflexivity|]. simpl. destruct (fst x <? fst y); [reflexivity|].
  rewrite IH. apply perm_swap.
Qed.
Lemma sort_keys_perm (l : list (Z * V)) : Permutation (sort_keys l) l.
Proof. induction l as [|x l IH]; [reflexivity|]. simpl. rewrite insert_key_perm, IH. reflexivity. Qed.
Lemma insert_key_sorted x (l : list (Z * V)) : ksorted l -> ~ In (fst x) (map fst l) -> ksorted (insert_key x l).
Proof.
  induction 1 as [|y l Hs IH Hf]; intros N; [repeat constructor|]. simpl.
  destruct (Z.ltb_spec (fst x) (fst y)) as [L|L].
  - constructor; [constructor; assumption|]. constructor; [assumption|].
    eapply Forall_impl; [|exact Hf]. intros z Hz. cbv beta in Hz. lia.
  - simpl in N. constructor; [apply IH; tauto|].
    rewrite Forall_forall in *. intros z Hz. apply (Permutation_in _ (insert_key_perm x l)) in Hz.
    destruct Hz as [<-|Hz]; [|auto]. assert (fst y <> fst x) by (intros E; apply N; now left). lia.
Qed.
Lemma sort_keys_sorted (l : list (Z * V)) : NoDup (map fst l) -> ksorted (sort_keys l).
Proof.
  induction l as [|x l IH]; intros N; [constructor|]. inversion N; subst. simpl. apply insert_key_sorted; [auto|].
  intros H. apply (Permutation_in _ (Permutation_map fst (sort_keys_perm l))) in H. contradiction.
Qed.
Lemma sorted_unique (l m : list (Z * V)) : ksorted l -> ksorted m -> Permutation l m -> l = m.
Proof.
  intros Hl. revert m. induction Hl as [|x l Hl IH Hx]; intros m Hm P.
  - symmetry. apply Permutation_nil, P.
  - destruct Hm as [|y m Hm Hy]; [symmetry in P; apply Permutation_nil in P; discriminate|].
    assert (E : x = y).
    { assert (A : In x (y :: m)) by (eapply Permutation_in; [exact P|now left]).
      assert (B : In y (x :: l)) by (eapply Permutation_in; [symmetry; exact P|now left]).
      destruct A as [A|A]; [congruence|]. destruct B as [B|B]; [congruence|].
      rewrite Forall_forall in Hx, Hy. specialize (Hx _ B). specialize (Hy _ A). lia. }
    subst y. f_equal. apply IH; [assumption|]. eapply Permutation_cons_inv; eauto.
Qed.

Lemma map_ravel_sorted (f : list Z -> V) cshape : Forall (fun d => 0 < d) cshape ->
  ksorted (map (fun k => (ravel cshape k, f k)) (cells_of cshape)).
Proof.
  intros H. pose proof (ravel_box _ H) as E. fold (cells_of cshape) in E.
  assert (S : StronglySorted Z.lt (map (ravel cshape) (cells_of cshape))).
  { rewrite E. generalize 0 as lo. generalize (Z.to_nat (prodz cshape)) as n.
    induction n as [|n IH]; intros lo; [constructor|]. simpl. constructor; [apply IH|].
    apply Forall_forall. intros x Hx. apply in_zrange in Hx. lia. }
  clear E. induction (cells_of cshape) as [|k l IH]; [constructor|]. simpl in *. inversion S; subst.
  constructor; [auto|]. apply Forall_forall. intros p Hp. apply in_map_iff in Hp. destruct Hp as (j & <- & Hj). cbn [fst].
  match goal with X : Forall _ (map _ _) |- _ => rewrite Forall_forall in X; apply X end. now apply in_map.
Qed.

Lemma deal_concat sizes (l : list V) : list_sum sizes = length l -> concat (deal sizes l) = l.
Proof.
  revert l. induction sizes as [|n s IH]; intros l H; simpl in *; [destruct l; [reflexivity|discriminate]|].
  rewrite IH; [apply firstn_skipn|]. rewrite skipn_length. lia.
Qed.
Lemma deal_lengths sizes (l : list V) : list_sum sizes = length l -> map (@length V) (deal sizes l) = sizes.
Proof.
  revert l. induction sizes as [|n s IH]; intros l H; simpl in *; [reflexivity|].
  rewrite IH by (rewrite skipn_length; lia). rewrite firstn_length. f_equal. lia.
Qed.

(** a block that tiles the array alone is the array *)
Lemma single_tile cshape (L : lfield V) : Forall (fun d => 0 < d) cshape -> tiles cshape [L] -> lcells L = cells_of cshape.
Proof.
  intros Hp T. pose proof (tl_dim _ _ T) as D. inversion D as [|? ? [Ds Dh] _]; subst.
  pose proof (tl_perm _ _ T) as P. simpl in P. rewrite app_nil_r in P.
  assert (M : forall k, In k (lcells L) <-> In k (cells_of cshape)).
  { intros k. split; apply Permutation_in; [exact P|symmetry; exact P]. }
  assert (B : forall j, (j < length cshape)%nat -> nth j (lstart L) 0 = 0 /\ nth j (lshape L) 0 = nth j cshape 0).
  { assert (Z0 : In (map (fun _ => 0) cshape) (cells_of cshape)).
    { apply cells_valid. clear -Hp. unfold valid_index. induction Hp; simpl; constructor; [lia|assumption]. }
    assert (Z1 : In (map (fun d => d - 1) cshape) (cells_of cshape)).
    { apply cells_valid. clear -Hp. unfold valid_index. induction Hp; simpl; constructor; [lia|assumption]. }
    pose proof Z0 as Y0. pose proof Z1 as Y1. apply M in Z0, Z1.
    rewrite (in_lcells L _ Ds Dh) in Z0, Z1. destruct Z0 as [_ Z0], Z1 as [_ Z1].
    assert (S0 : In (lstart L) (lcells L)).
    { apply (in_lcells L _ Ds Dh). split; [assumption|]. intros i Hi. specialize (Z0 i Hi). lia. }
    assert (S1 : In (map2 (fun s h => s + h - 1) (lstart L) (lshape L)) (lcells L)).
    { apply (in_lcells L _ Ds Dh). split; [rewrite map2_length; lia|]. intros i Hi. specialize (Z0 i Hi).
      unfold map2. rewrite (nth_map_in _ _ i 0 (0, 0)) by (rewrite combine_length; lia).
      rewrite combine_nth by lia. cbn [fst snd]. lia. }
    apply M in S0, S1. apply in_cells_of in S0, S1. destruct S0 as [_ S0], S1 as [_ S1].
    intros j Hj. specialize (Z0 j Hj). specialize (Z1 j Hj). specialize (S0 j Hj). specialize (S1 j Hj).
    rewrite (nth_map_in (fun _ => 0) cshape j 0 0) in Z0 by assumption.
    rewrite (nth_map_in (fun d => d - 1) cshape j 0 0) in Z1 by assumption.
    unfold map2 in S1. rewrite (nth_map_in _ _ j 0 (0, 0)) in S1 by (rewrite combine_length; lia).
    rewrite combine_nth in S1 by lia. cbn [fst snd] in S1. lia. }
  unfold lcells. replace (lshape L) with cshape.
  - transitivity (map (fun k : list Z => k) (cells_of cshape)); [|apply map_id]. apply map_ext_in. intros k Hk.
    apply cells_dim in Hk. apply (nth_ext _ _ 0 0); [rewrite zadd_length; lia|].
    intros i Hi. rewrite zadd_length in Hi by lia. rewrite zadd_nth by lia. destruct (B i ltac:(lia)). lia.
  - apply (nth_ext _ _ 0 0); [lia|]. intros i Hi. symmetry. apply B. lia.
Qed.

Lemma tiles_total cshape (Ls : list (lfield V)) f : tiles cshape Ls -> holds Ls f ->
  list_sum (map (fun L => length (lvals L)) Ls) = length (cells_of cshape).
Proof.
  intros [_ P] H. rewrite <- (Permutation_length P), flat_map_length_sum. f_equal.
  unfold holds in H. rewrite Forall_forall in H. apply map_ext_in. intros L HL. rewrite (H L HL). apply map_length.
Qed.

Lemma sorted_world cshape (Ls : list (lfield V)) f : Forall (fun d => 0 < d) cshape -> tiles cshape Ls -> holds Ls f ->
  map snd (sort_keys (flat_map (fun p => combine (snd p) (fst p)) (combine (map lvals Ls) (map (global_ind cshape) Ls))))
  = map f (cells_of cshape).
Proof.
  intros Hp [D P] H.
  assert (E : flat_map (fun p => combine (snd p) (fst p)) (combine (map lvals Ls) (map (global_ind cshape) Ls))
              = map (fun k => (ravel cshape k, f k)) (flat_map lcells Ls)).
  { rewrite combine_map_map, flat_map_map, map_flat_map. apply flat_map_ext_in. intros L HL. cbn [fst snd].
    unfold holds in H. rewrite Forall_forall in H. rewrite (H L HL). unfold global_ind. apply combine_map_map. }
  rewrite E. assert (S : sort_keys (map (fun k => (ravel cshape k, f k)) (flat_map lcells Ls)) =
                         map (fun k => (ravel cshape k, f k)) (cells_of cshape)).
  { apply sorted_unique.
    - apply sort_keys_sorted. rewrite map_map. cbn [fst].
      apply (Permutation_NoDup (l := map (ravel cshape) (cells_of cshape))); [apply Permutation_map; symmetry; exact P|].
      unfold cells_of. rewrite (ravel_box _ Hp). apply zrange_NoDup.
    - apply map_ravel_sorted, Hp.
    - rewrite sort_keys_perm. apply Permutation_map, P. }
  rewrite S, map_map. reflexivity.
Qed.

(** ** C38 *)
(** The concatenation over the ranks is the global array in C order, on every
    partition; each rank receives as many values as it holds. *)
Theorem C38_ravel : forall cshape (Ls : list (lfield V)) f outs,
  Forall (fun d => 0 < d) cshape -> tiles cshape Ls -> holds Ls f ->
  outs = map (fun L => length (lvals L)) Ls ->
  exists flat, ravel_field cshape Ls outs = map Ret flat /\
    map (@length V) flat = outs /\ concat flat = map f (cells_of cshape).
Proof.
  intros cshape Ls f outs Hp T H ->.
  assert (C : all_ret (map (fun p : lfield V * nat => if (snd p =? length (lvals (fst p)))%nat then Ret tt else Raise AssertionError)
                   (combine Ls (map (fun L => length (lvals L)) Ls))) = Some (map (fun _ => tt) Ls)).
  { rewrite combine_map_r, map_map. rewrite <- all_ret_map. f_equal. rewrite map_map.
    replace (combine Ls Ls) with (map (fun L => (L, L)) Ls) by (clear; induction Ls; simpl; congruence).
    rewrite map_map. apply map_ext. intros L. cbn [fst snd]. now rewrite Nat.eqb_refl. }
  assert (G : exists flat, map Ret (mpsort_sort (map lvals Ls) (map (global_ind cshape) Ls) (map (fun L => length (lvals L)) Ls)) = map (@Ret (list V)) flat /\
     map (@length V) flat = map (fun L => length (lvals L)) Ls /\ concat flat = map f (cells_of cshape)).
  { eexists. split; [reflexivity|]. unfold mpsort_sort. rewrite (sorted_world cshape Ls f Hp T H).
    pose proof (tiles_total _ _ _ T H) as TT.
    split; [apply deal_lengths|apply deal_concat]; rewrite map_length; exact TT. }
  unfold ravel_field. rewrite C. destruct Ls as [|L [|L' Ls]]; [exact G| |exact G].
  exists [lvals L]. split; [reflexivity|]. split; [reflexivity|]. simpl. rewrite app_nil_r.
  unfold holds in H. inversion H as [|? ? H1 _]; subst. rewrite H1. f_equal. now apply single_tile.
Qed.

(** unravel stores the given C-order values, however they are dealt to the ranks *)
Theorem C38_unravel : forall cshape (Ls : list (lfield V)) flat f,
  Forall (fun d => 0 < d) cshape -> tiles cshape Ls ->
  concat flat = map f (cells_of cshape) ->
  exists Ls', unravel_field cshape Ls flat = map Ret Ls' /\
    map lstart Ls' = map lstart Ls /\ map lshape Ls' = map lshape Ls /\ holds Ls' f.
Proof.
  intros cshape Ls flat f Hp T E.
  assert (LC : length (cells_of cshape) = Z.to_nat (prodz cshape)).
  { rewrite <- (map_length (ravel cshape)). unfold cells_of. rewrite (ravel_box _ Hp). apply zrange_length. }
  unfold unravel_field. rewrite E, map_length, LC, Z2Nat.id by (pose proof (prodz_pos _ Hp); lia). rewrite Z.eqb_refl.
  assert (G : exists Ls', map (fun L => match mpsort_take flat (global_ind cshape L) with
                         | Some v => Ret (mkL (lstart L) (lshape L) v)
                         | None => Raise IndexError
                         end) Ls = map Ret Ls' /\
    map lstart Ls' = map lstart Ls /\ map lshape Ls' = map lshape Ls /\ holds Ls' f).
  { exists (map (fun L => mkL (lstart L) (lshape L) (map f (lcells L))) Ls). rewrite !map_map. cbn [lstart lshape].
    split; [|split; [reflexivity|split; [reflexivity|]]].
    - apply map_ext_in. intros L HL. replace (mpsort_take flat (global_ind cshape L)) with (Some (map f (lcells L))); [reflexivity|].
      symmetry. unfold mpsort_take, global_ind. rewrite map_map, <- sequence_map_Some, map_map. f_equal.
      apply map_ext_in. intros k Hk. pose proof (tiles_cell _ _ _ _ T HL Hk) as Hc.
      pose proof (proj1 (cells_valid _ _) Hc) as Hv. pose proof (ravel_bound _ _ Hv).
      destruct (Z.ltb_spec (ravel cshape k) 0); [lia|]. rewrite E, nth_error_map, cells_nth by assumption. reflexivity.
    - unfold holds. apply Forall_forall. intros L HL. apply in_map_iff in HL. destruct HL as (L0 & <- & _). reflexivity. }
  destruct Ls as [|L [|L' Ls]]; [exact G| |exact G].
  exists [mkL (lstart L) (lshape L) (map f (cells_of cshape))]. split; [reflexivity|]. split; [reflexivity|]. split; [reflexivity|].
  constructor; [|constructor]. cbn [lvals]. f_equal. symmetry. apply (single_tile cshape L Hp T).
Qed.

(** ravel then unravel restores the field: also across two partitions of the
    same global array *)
Theorem C38_roundtrip : forall cshape (Ls Ms : list (lfield V)) f,
  Forall (fun d => 0 < d) cshape -> tiles cshape Ls -> holds Ls f -> tiles cshape Ms ->
  exists flat, ravel_field cshape Ls (map (fun L => length (lvals L)) Ls) = map Ret flat /\
    unravel_field cshape Ms flat =
    map (fun M => Ret (mkL (lstart M) (lshape M) (map f (lcells M)))) Ms.
Proof.
  intros cshape Ls Ms f Hp T H TM. destruct (C38_ravel cshape Ls f _ Hp T H eq_refl) as (flat & E & _ & Ef).
  exists flat. split; [exact E|]. destruct (C38_unravel cshape Ms flat f Hp TM Ef) as (Ms' & E' & S1 & S2 & H').
  rewrite E'. clear -S1 S2 H'. revert Ms S1 S2. induction H' as [|M' Ms' HM H IH]; intros [|M Ms] S1 S2; try discriminate; [reflexivity|].
  inversion S1; inversion S2. cbn [map]. f_equal; [|apply IH; assumption]. f_equal. destruct M' as [a b v].
  cbn [lstart lshape lvals] in *. subst. f_equal. rewrite HM. unfold lcells. reflexivity.
Qed.

(** and a wrong total length is refused by every rank *)
Theorem C38_length_refused : forall cshape (Ls : list (lfield V)) flat,
  Z.of_nat (length (concat flat)) <> prodz cshape ->
  unravel_field cshape Ls flat = map (fun _ => Raise AssertionError) Ls.
Proof.
  intros cshape Ls flat H. unfold unravel_field. destruct (Z.eqb_spec (Z.of_nat (length (concat flat))) (prodz cshape)); [contradiction|reflexivity].
Qed.
End Sorting.
Print Assumptions C38_ravel.
Print Assumptions C38_unravel.
Print Assumptions C38_roundtrip.
Print Assumptions C38_length_refused.

(** the field of C36's example: rows of three, dealt out as 8 + 4 values *)
Example C38_case : ravel_field ex_cshape (map (fun L => fill_block (fun k => ravel [10; 10] k) (lstart L) (lshape L)) ex_world) [8; 4]%nat
  = [Ret [0; 1; 2; 10; 11; 12; 20; 21]; Ret [22; 30; 31; 32]].
Proof. vm_compute. reflexivity. Qed.
Example C38_unravel_case : unravel_field ex_cshape ex_world [[]; map (fun z => (z, 0)) [0; 1; 2; 10; 11; 12; 20; 21; 22; 30; 31; 32]]
  = map Ret (map (fun L => fill_block (fun k => (ravel [10; 10] k, 0)) (lstart L) (lshape L)) ex_world).
Proof. vm_compute. reflexivity. Qed.
