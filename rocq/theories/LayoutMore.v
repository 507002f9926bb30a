From Coq Require Import List Arith Lia Bool QArith Permutation Sorted.
From Verif Require Import Base ListFacts LayoutModel LayoutSpec LayoutProofs LayoutModes.
Import ListNotations.
Local Close Scope Q_scope.
Local Open Scope nat_scope.
Local Arguments list_sum : simpl never.

(* ---------- local ---------- *)

(** values of the copies of element [i] of rank [s] that stayed on rank [s] *)
Definition own_copies {A} (args : list layout_arg) (y : list (list A)) (s i : nat) : list A :=
  map snd (filter (fun tv => (fst (fst tv) =? s) && (snd (fst tv) =? i))
                  (combine (tags args s) (nth s y []))).

Lemma own_copies_blk {A} args (y : list (list A)) s i : wf_args args -> s < length args ->
  length (nth s y []) = length (tags args s) ->
  own_copies args y s i =
  map snd (filter (fun p => fst p =? i) (combine (addr args s s) (blk args y s s))).
Proof.
  intros Hwf Hs Hy. unfold own_copies.
  rewrite <- (filter_filter (fun tv => snd (fst tv) =? i) (fun tv => fst (fst tv) =? s)).
  rewrite filter_tags by assumption. rewrite filter_map, map_map. reflexivity.
Qed.

Lemma gather_local_ok {A} args (y : list (list A)) : wf_args args -> received_lengths args y ->
  gather_local (layout_init args) y =
  map (fun s => Ret (map (fun i => last (map Some (own_copies args y s i)) None) (seq 0 (a_len (arg_at args s)))))
      (seq 0 (length args)).
Proof.
  intros Hwf Hy. destruct (received_lengths_nth args y Hy) as (Hl & Hn).
  unfold gather_local. rewrite len_mismatch_false; try assumption.
  2: { intros r Hr. rewrite Hn by assumption. simpl. now apply tags_length. }
  rewrite layout_init_eq, map_length, seq_length.
  replace (combine (seq 0 (length args)) (combine (map (lay args) (seq 0 (length args))) y))
    with (map (fun s => (s, (lay args s, nth s y []))) (seq 0 (length args))).
  2: { rewrite <- (map_nth_seq y [] (length args) Hl) at 1. rewrite combine_map_map.
       rewrite <- (map_id (seq 0 (length args))) at 2. rewrite combine_map_map. reflexivity. }
  rewrite map_map. apply map_ext_seq. intros s Hs.
  unfold gather_local1. cbn [lay sendoffsets sendcounts recvoffsets recvcounts indices sendlength].
  destruct (wf_at args Hwf s Hs) as (Hc & Hsum & Hf).
  assert (E1 : nth_error (offsets_from 0 (a_counts (arg_at args s))) s = Some (list_sum (firstn s (a_counts (arg_at args s))))).
  { rewrite offsets_from_nth by lia. reflexivity. }
  rewrite E1, (nth_error_nth' (a_counts (arg_at args s)) 0) by lia.
  assert (E2 : nth_error (offsets_from 0 (rcv args s)) s = Some (list_sum (firstn s (rcv args s)))).
  { rewrite offsets_from_nth by (rewrite rcv_length; lia). reflexivity. }
  rewrite E2, (nth_error_nth' (rcv args s) 0) by (rewrite rcv_length; lia).
  rewrite <- (nth_chunks (a_counts (arg_at args s))) by lia.
  rewrite <- (nth_chunks (rcv args s)) by (rewrite rcv_length; lia).
  fold (addr args s s). fold (blk args y s s).
  rewrite blk_length by (try apply Hn; assumption). rewrite Nat.eqb_refl.
  unfold scatter. rewrite repeat_length.
  replace (forallb (fun i => i <? a_len (arg_at args s)) (addr args s s)) with true.
  2: { symmetry. apply forallb_forall. intros i Hi. apply Nat.ltb_lt. now apply (addr_lt args Hwf s s). }
  f_equal. rewrite (fold_upd_eq (fun _ v => v)). apply map_ext. intros i.
  rewrite fold_last, own_copies_blk by (try apply Hn; assumption).
  rewrite combine_map_r, filter_map, !map_map. reflexivity.
Qed.

(* ---------- length mismatch ---------- *)

Lemma exchange_mismatch {A} args (data : list (list A)) r : length data = length args ->
  r < length args -> length (nth r data []) <> a_len (arg_at args r) ->
  exchange1 (layout_init args) data = map (fun _ => Raise ValueError) args.
Proof.
  intros Hl Hr Hne. unfold exchange1. rewrite (len_mismatch_true args sendlength data r) by assumption.
  unfold all_raise, layout_init. rewrite map_map. apply list_ext. intros i.
  rewrite !nth_error_map. destruct (lt_dec i (length args)) as [Hi|Hi].
  - rewrite nth_error_seq_lt by lia. simpl. destruct (nth_error args i) eqn:E; [reflexivity|].
    apply nth_error_None in E. lia.
  - rewrite nth_error_seq_ge by lia. rewrite (proj2 (nth_error_None args i)) by lia. reflexivity.
Qed.

Lemma combine_raise {A B} (ls : list A) e :
  combine ls (all_raise (B:=B) ls e) = map (fun L => (L, Raise e)) ls.
Proof.
  unfold all_raise. rewrite <- (map_id ls) at 1. rewrite combine_map_map. reflexivity.
Qed.

Lemma raise_map {A} (args : list layout_arg) (e : exn) (f : layout -> outcome A) :
  (forall L, f L = Raise e) -> map f (layout_init args) = map (fun _ : layout_arg => @Raise A e) args.
Proof.
  intros Hf. unfold layout_init. rewrite map_map. apply list_ext. intros i.
  rewrite !nth_error_map. destruct (lt_dec i (length args)) as [Hi|Hi].
  - rewrite nth_error_seq_lt by lia. simpl. rewrite Hf. destruct (nth_error args i) eqn:E; [reflexivity|].
    apply nth_error_None in E. lia.
  - rewrite nth_error_seq_ge by lia. rewrite (proj2 (nth_error_None args i)) by lia. reflexivity.
Qed.

Lemma gather_post_mismatch {A B} (post : layout -> list A -> outcome (list B)) args (y : list (list A)) r :
  wf_args args -> length y = length args -> r < length args ->
  length (nth r y []) <> length (tags args r) ->
  gather_post post (layout_init args) y = map (fun _ => Raise ValueError) args.
Proof.
  intros Hwf Hl Hr Hne. unfold gather_post, gather_buffer.
  rewrite (len_mismatch_true args recvlength y r) by (simpl; rewrite <- ?tags_length; assumption).
  rewrite combine_raise, map_map. simpl. apply raise_map. reflexivity.
Qed.

Lemma gather_local_mismatch {A} args (y : list (list A)) r :
  wf_args args -> length y = length args -> r < length args ->
  length (nth r y []) <> length (tags args r) ->
  gather_local (layout_init args) y = map (fun _ => Raise ValueError) args.
Proof.
  intros Hwf Hl Hr Hne. unfold gather_local.
  rewrite (len_mismatch_true args recvlength y r) by (simpl; rewrite <- ?tags_length; assumption).
  unfold all_raise. apply raise_map. reflexivity.
Qed.

(* ---------- packing ---------- *)

Lemma zip_cols_length {A} (cols : list (list A)) n : cols <> [] ->
  (forall c, In c cols -> length c = n) -> length (zip_cols cols) = n.
Proof.
  induction cols as [|c cs IH]; intros Hne H; [contradiction|].
  destruct cs as [|c' cs].
  - simpl. rewrite map_length. apply H. now left.
  - change (zip_cols (c :: c' :: cs)) with (map (fun p => fst p :: snd p) (combine c (zip_cols (c' :: cs)))).
    rewrite map_length, combine_length, IH.
    + rewrite (H c) by now left. lia.
    + discriminate.
    + intros; apply H; now right.
Qed.

Lemma zip_cols_nth {A} (cols : list (list A)) n j i : j < length cols ->
  (forall c, In c cols -> length c = n) ->
  match nth_error (zip_cols cols) i with Some row => nth_error row j | None => None end
  = nth_error (nth j cols []) i.
Proof.
  revert j; induction cols as [|c cs IH]; intros j Hj H; [simpl in Hj; lia|].
  destruct cs as [|c' cs].
  - simpl in Hj. assert (j = 0) as -> by lia. simpl. rewrite nth_error_map.
    destruct (nth_error c i); reflexivity.
  - change (zip_cols (c :: c' :: cs)) with (map (fun p => fst p :: snd p) (combine c (zip_cols (c' :: cs)))).
    rewrite nth_error_map, nth_error_combine.
    assert (Hz : length (zip_cols (c' :: cs)) = n).
    { apply zip_cols_length; [discriminate|]. intros; apply H; now right. }
    assert (Hcn : length c = n) by (apply H; now left).
    destruct (lt_dec i n) as [Hi|Hi].
    + destruct (nth_error c i) as [x|] eqn:E1; [|apply nth_error_None in E1; lia].
      destruct (nth_error (zip_cols (c' :: cs)) i) as [row|] eqn:E2; [|apply nth_error_None in E2; lia].
      simpl. destruct j as [|j]; [simpl; now rewrite E1|]. simpl nth_error.
      specialize (IH j). apply IH; [simpl in *; lia|]. intros; apply H; now right.
    + rewrite (proj2 (nth_error_None c i)) by lia. simpl option_map. cbv iota.
      symmetry. apply nth_error_None. rewrite (H (nth j (c :: c' :: cs) [])); [lia|]. now apply nth_In.
Qed.

Definition column {A} (cols : list (list (list A))) (j : nat) : list (list A) :=
  map (fun c => nth j c []) cols.

(** every rank passes [k] columns whose length is the rank's sendlength *)
Definition columns_ok {A} (args : list layout_arg) (k : nat) (cols : list (list (list A))) : Prop :=
  length cols = length args /\
  (forall s, s < length args -> length (nth s cols []) = k /\
     forall c, In c (nth s cols []) -> length c = a_len (arg_at args s)).

Lemma column_lengths {A} args k (cols : list (list (list A))) j : columns_ok args k cols -> j < k ->
  sent_lengths args (column cols j).
Proof.
  intros (Hl & H) Hj. unfold sent_lengths, lengths_ok, column. rewrite map_map.
  rewrite <- (map_nth_seq cols [] (length args) Hl), map_map.
  rewrite <- (map_nth_seq args (0, [], []) (length args) eq_refl) at 2. rewrite map_map.
  apply map_ext_seq. intros s Hs. destruct (H s Hs) as (Hk & Hc).
  rewrite Hc by (apply nth_In; lia). reflexivity.
Qed.

Lemma exchange_unpacked_ok {A} args k (cols : list (list (list A))) : wf_args args ->
  columns_ok args k cols ->
  exchange_unpacked (layout_init args) cols k =
  map (fun j => map (fun r => Ret (map (lookup2 (column cols j)) (tags args r))) (seq 0 (length args))) (seq 0 k).
Proof.
  intros Hwf Hc. unfold exchange_unpacked. apply map_ext_seq. intros j Hj.
  destruct (sent_lengths_nth args (column cols j)) as (Hl & Hd); [now apply (column_lengths args k)|].
  apply exchange1_ok; assumption.
Qed.

Lemma pack_ok {A} args k (cols : list (list (list A))) s : columns_ok args k cols -> 0 < k ->
  s < length args -> pack_arrays (nth s cols []) = Ret (zip_cols (nth s cols [])).
Proof.
  intros (Hl & H) Hk Hs. destruct (H s Hs) as (Hn & Hc). unfold pack_arrays.
  destruct (nth s cols []) as [|c cs] eqn:E; [simpl in Hn; lia|].
  replace (forallb (fun d => length d =? length c) (c :: cs)) with true; [reflexivity|].
  symmetry. apply forallb_forall. intros d Hd. apply Nat.eqb_eq.
  rewrite (Hc d Hd), (Hc c) by now left. reflexivity.
Qed.

Lemma exchange_packed_ok {A} args k (cols : list (list (list A))) : wf_args args ->
  columns_ok args k cols -> 0 < k ->
  exchange_packed (layout_init args) cols =
  map (fun r => Ret (map (fun j => map (lookup2 (column cols j)) (tags args r)) (seq 0 k))) (seq 0 (length args)).
Proof.
  intros Hwf Hc Hk. pose proof Hc as (Hl & H).
  set (rows := map (fun s => zip_cols (nth s cols [])) (seq 0 (length args))).
  unfold exchange_packed.
  assert (Hp : map pack_arrays cols = map Ret rows).
  { unfold rows. rewrite map_map. rewrite <- (map_nth_seq cols [] (length args) Hl) at 1. rewrite map_map.
    apply map_ext_seq. intros s Hs. now apply (pack_ok args k). }
  rewrite Hp. unfold all_ret. rewrite map_map, sequence_map_Some.
  assert (Hrl : length rows = length args) by (unfold rows; now rewrite map_length, seq_length).
  assert (Hrn : forall s, s < length args -> nth s rows [] = zip_cols (nth s cols [])).
  { intros s Hs. unfold rows. now rewrite nth_map_seq. }
  rewrite exchange1_ok.
  - rewrite <- (map_nth_seq cols [] (length args) Hl) at 1. rewrite combine_map_map, map_map.
    apply map_ext_seq. intros r Hr. simpl. destruct (H r Hr) as (Hkr & _). rewrite Hkr.
    unfold unpack_cols. f_equal. apply map_ext_seq. intros j Hj. rewrite map_map. apply map_ext_in.
    intros [s i] Hsi. unfold lookup2. simpl.
    assert (Hs : s < length args).
    { unfold tags in Hsi. apply in_flat_map in Hsi. destruct Hsi as (s' & Hs' & Hm).
      apply in_map_iff in Hm. destruct Hm as (i' & E & _). inversion E; subst. apply in_seq in Hs'. lia. }
    rewrite (nth_error_nth' rows []) by lia. rewrite Hrn by assumption.
    destruct (H s Hs) as (Hks & Hcs).
    unfold column. rewrite nth_error_map, (nth_error_nth' cols []) by lia. simpl.
    apply (zip_cols_nth _ (a_len (arg_at args s))); [lia|assumption].
  - assumption.
  - assumption.
  - intros s Hs. rewrite Hrn by assumption. destruct (H s Hs) as (Hks & Hcs).
    apply zip_cols_length; [|assumption]. intros E. rewrite E in Hks. simpl in Hks. lia.
Qed.

(* ---------- counts, cost ---------- *)

Lemma recvcounts_transpose args r s : wf_args args -> r < length args -> s < length args ->
  nth s (recvcounts (nth r (layout_init args) (mkLayout 0 [] [] [] [] [] 0))) 0 = length (addr args s r).
Proof.
  intros Hwf Hr Hs. rewrite layout_init_eq, nth_map_seq by assumption. simpl.
  rewrite rcv_nth by assumption. symmetry. now apply addr_length.
Qed.

Lemma recvlength_tags args r : wf_args args -> r < length args ->
  recvlength (nth r (layout_init args) (mkLayout 0 [] [] [] [] [] 0)) = length (tags args r).
Proof.
  intros Hwf Hr. rewrite layout_init_eq, nth_map_seq by assumption. simpl.
  symmetry. now apply tags_length.
Qed.

Lemma total_conserved args : wf_args args ->
  list_sum (map recvlength (layout_init args)) = list_sum (map (fun a => length (a_indices a)) args).
Proof.
  intros Hwf. rewrite layout_init_eq, map_map. cbn [lay recvlength]. unfold rcv.
  rewrite list_sum_map_swap.
  replace (map (fun a => length (a_indices a)) args)
    with (map (fun s => length (a_indices (arg_at args s))) (seq 0 (length args))).
  2: { rewrite <- (map_nth_seq args (0, [], []) (length args) eq_refl) at 2. now rewrite map_map. }
  apply list_sum_map_ext_in. intros s Hs. apply in_seq in Hs.
  destruct (wf_at args Hwf s) as (Hc & Hsum & _); [lia|]. rewrite <- Hsum. f_equal.
  apply map_nth_seq. assumption.
Qed.

Lemma cost_ok args : wf_args args ->
  get_exchange_cost (layout_init args) =
  map (fun s => list_sum (map (fun r => length (addr args s r))
                              (filter (fun r => negb (r =? s)) (seq 0 (length args))))) (seq 0 (length args)).
Proof.
  intros Hwf. unfold get_exchange_cost. rewrite layout_init_eq, map_length, seq_length.
  apply map_ext_seq. intros s Hs. rewrite nth_error_map, nth_error_seq_lt by lia. simpl.
  destruct (wf_at args Hwf s Hs) as (Hc & _). rewrite Hc.
  rewrite <- (map_nth_seq (a_counts (arg_at args s)) 0 (length args) Hc).
  rewrite <- (map_id (seq 0 (length args))) at 1. rewrite combine_map_map, map_map. simpl.
  assert (Hin : forall x, In x (seq 0 (length args)) -> x < length args) by (intros x Hx; apply in_seq in Hx; lia).
  revert Hin. generalize (seq 0 (length args)) as l. induction l as [|x l IH]; intros Hin; [reflexivity|].
  simpl. rewrite list_sum_cons, IH by (intros; apply Hin; now right).
  destruct (Nat.eqb_spec x s) as [->|Hne]; simpl; [reflexivity|].
  rewrite list_sum_cons, addr_length by (try assumption; apply Hin; now left). reflexivity.
Qed.

(* ---------- round trips ---------- *)

(** what the ranks hold after an exchange of [data], as a plain list *)
Definition is_exchanged {A} (args : list layout_arg) (data y : list (list A)) : Prop :=
  exchange1 (layout_init args) data = map (fun l => Ret (map Some l)) y.

Lemma map_Some_inj {A} (a b : list A) : map Some a = map Some b -> a = b.
Proof.
  revert b; induction a as [|x a IH]; intros [|z b] H; simpl in H; try discriminate; [reflexivity|].
  inversion H; subst. f_equal. now apply IH.
Qed.

Lemma exchanged_spec {A} args (data y : list (list A)) : wf_args args -> sent_lengths args data ->
  is_exchanged args data y ->
  length y = length args /\
  forall r, r < length args -> map Some (nth r y []) = map (lookup2 data) (tags args r).
Proof.
  intros Hwf Hd H. destruct (sent_lengths_nth args data Hd) as (Hl & Hn).
  unfold is_exchanged in H. rewrite exchange1_ok in H by assumption.
  assert (Hy : length y = length args).
  { apply (f_equal (@length _)) in H. rewrite !map_length, seq_length in H. lia. }
  split; [assumption|]. intros r Hr.
  apply (f_equal (fun l => nth_error l r)) in H. rewrite !nth_error_map, nth_error_seq_lt in H by lia.
  rewrite (nth_error_nth' y []) in H by lia. simpl in H. inversion H. reflexivity.
Qed.

Lemma exchanged_exists {A} args (data : list (list A)) : wf_args args -> sent_lengths args data ->
  exists y, is_exchanged args data y.
Proof.
  intros Hwf Hd. destruct (sent_lengths_nth args data Hd) as (Hl & Hn).
  exists (map (fun r => flat_map (fun t => match lookup2 data t with Some x => [x] | None => [] end) (tags args r)) (seq 0 (length args))).
  unfold is_exchanged. rewrite exchange1_ok by assumption. rewrite map_map. apply map_ext_seq.
  intros r Hr. f_equal. destruct (exchange1_values args Hwf data r Hl Hn Hr) as (l & Hv).
  rewrite Hv. f_equal.
  assert (E : forall ts l, map (lookup2 data) ts = map Some l ->
     flat_map (fun t => match lookup2 data t with Some x => [x] | None => [] end) ts = l).
  { induction ts as [|t ts IH]; intros [|x m] E; simpl in E; try discriminate; [reflexivity|].
    inversion E. simpl. rewrite H0. simpl. f_equal. now apply IH. }
  symmetry. now apply E.
Qed.

Lemma exchanged_received {A} args (data y : list (list A)) : wf_args args -> sent_lengths args data ->
  is_exchanged args data y -> received_lengths args y.
Proof.
  intros Hwf Hd H. destruct (exchanged_spec args data y Hwf Hd H) as (Hl & Hr).
  unfold received_lengths, lengths_ok. rewrite <- (map_nth_seq y [] (length args) Hl), map_map.
  apply map_ext_seq. intros r Hlt. rewrite <- (map_length Some), Hr by assumption. apply map_length.
Qed.

Lemma exchanged_blk {A} args (data y : list (list A)) r s : wf_args args -> sent_lengths args data ->
  is_exchanged args data y -> r < length args -> s < length args ->
  map Some (blk args y r s) = map (nth_error (nth s data [])) (addr args s r).
Proof.
  intros Hwf Hd H Hr Hs. destruct (exchanged_spec args data y Hwf Hd H) as (Hl & Hv).
  destruct (sent_lengths_nth args data Hd) as (Hdl & Hdn).
  unfold blk. rewrite <- (map_nth (map Some)). simpl. rewrite <- chunks_map, (Hv r Hr).
  unfold tags. rewrite map_flat_map, flat_map_concat_map.
  replace (rcv args r) with (map (@length (option A))
     (map (fun x => map (lookup2 data) (map (fun i => (x, i)) (addr args x r))) (seq 0 (length args)))).
  2: { rewrite map_map. unfold rcv. apply map_ext_seq. intros s' Hs'. rewrite !map_length.
       now apply addr_length. }
  rewrite chunks_concat, nth_map_seq by assumption. rewrite map_map. apply map_ext. intros i.
  unfold lookup2. simpl. now rewrite (nth_error_nth' data []) by lia.
Qed.

Lemma exchanged_copies {A} args (data y : list (list A)) s i v : wf_args args -> sent_lengths args data ->
  is_exchanged args data y -> s < length args ->
  In v (copies args y s i) -> nth_error (nth s data []) i = Some v.
Proof.
  intros Hwf Hd H Hs Hin. assert (Hrec := exchanged_received args data y Hwf Hd H).
  destruct (received_lengths_nth args y Hrec) as (Hl & Hn).
  rewrite copies_filter in Hin by assumption. apply in_map_iff in Hin.
  destruct Hin as ([j w] & E & Hf). simpl in E. subst w. apply filter_In in Hf. destruct Hf as (Hc & Hj).
  simpl in Hj. apply Nat.eqb_eq in Hj. subst j.
  rewrite combine_idx_returned in Hc by assumption. apply in_flat_map in Hc.
  destruct Hc as (r & Hr & Hc). apply in_seq in Hr.
  assert (Hb := exchanged_blk args data y r s Hwf Hd H).
  specialize (Hb ltac:(lia) Hs). revert Hc Hb. generalize (blk args y r s) as l.
  generalize (addr args s r) as m. induction m as [|a m IH]; intros [|x l] Hc Hb; simpl in *; try contradiction.
  inversion Hb. destruct Hc as [E|Hc].
  - inversion E; subst. now symmetry.
  - now apply (IH l).
Qed.

Lemma exchange_gather_all {A} args (data y : list (list A)) : wf_args args -> sent_lengths args data ->
  is_exchanged args data y ->
  exists z, gather_all (layout_init args) y = map Ret z /\ length z = length args /\
    forall s, s < length args ->
      map Some (nth s z []) = map (nth_error (nth s data [])) (a_indices (arg_at args s)).
Proof.
  intros Hwf Hd H. assert (Hrec := exchanged_received args data y Hwf Hd H).
  destruct (received_lengths_nth args y Hrec) as (Hl & Hn).
  exists (map (returned args y) (seq 0 (length args))). split; [|split].
  - rewrite gather_all_ok by assumption. now rewrite map_map.
  - now rewrite map_length, seq_length.
  - intros s Hs. rewrite nth_map_seq by assumption. rewrite returned_blk by assumption.
    rewrite (idx_addr args Hwf s Hs). rewrite !map_flat_map. apply flat_map_ext_in. intros r Hr.
    apply in_seq in Hr. apply exchanged_blk; try assumption; lia.
Qed.

Lemma copies_ncopies {A} args (y : list (list A)) s i : wf_args args -> received_lengths args y ->
  s < length args -> length (copies args y s i) = ncopies args s i.
Proof.
  intros Hwf Hy Hs. destruct (received_lengths_nth args y Hy) as (Hl & Hn).
  rewrite copies_filter by assumption. rewrite map_length.
  rewrite combine_idx_returned by assumption. rewrite filter_flat_map, flat_map_length_sum.
  unfold ncopies. apply list_sum_map_ext_in. intros r Hr. apply in_seq in Hr.
  assert (Hb : length (blk args y r s) = length (addr args s r)).
  { apply blk_length; try apply Hn; try assumption; lia. }
  revert Hb. generalize (blk args y r s) as l. generalize (addr args s r) as m.
  induction m as [|a m IH]; intros [|x l] Hb; simpl in *; try discriminate; [reflexivity|].
  destruct (Nat.eqb_spec a i) as [->|Hne].
  - destruct (Nat.eq_dec i i); [|contradiction]. simpl. f_equal. apply IH. lia.
  - destruct (Nat.eq_dec a i); [contradiction|]. apply IH. lia.
Qed.
