From Coq Require Import List Arith Lia Bool QArith Permutation.
From Verif Require Import Base ListFacts LayoutModel LayoutSpec.
Import ListNotations.
Local Close Scope Q_scope.
Local Open Scope nat_scope.
Local Arguments list_sum : simpl never.

(* ---------- offsets and chunks ---------- *)

Lemma offsets_from_length acc l : length (offsets_from acc l) = length l.
Proof. revert acc; induction l as [|x l IH]; simpl; intros; [reflexivity|now rewrite IH]. Qed.

Lemma offsets_from_nth acc l r : r < length l ->
  nth_error (offsets_from acc l) r = Some (acc + list_sum (firstn r l)).
Proof.
  revert acc r; induction l as [|x l IH]; simpl; intros acc r Hr; [lia|].
  destruct r as [|r]; simpl; [f_equal; unfold list_sum; simpl; lia|].
  rewrite IH by lia. f_equal. rewrite list_sum_cons. lia.
Qed.


Lemma chunks_length {A} cs (l : list A) : length (chunks cs l) = length cs.
Proof. revert l; induction cs as [|c cs IH]; simpl; intros; [reflexivity|now rewrite IH]. Qed.

Lemma concat_chunks {A} cs (l : list A) : list_sum cs = length l -> concat (chunks cs l) = l.
Proof.
  revert l; induction cs as [|c cs IH]; intros l H.
  - destruct l; [reflexivity|discriminate].
  - rewrite list_sum_cons in H. simpl. rewrite IH.
    + apply firstn_skipn.
    + rewrite skipn_length. lia.
Qed.

Lemma chunks_lengths {A} cs (l : list A) : list_sum cs <= length l ->
  map (@length A) (chunks cs l) = cs.
Proof.
  revert l; induction cs as [|c cs IH]; intros l H; [reflexivity|].
  rewrite list_sum_cons in H. simpl. f_equal.
  - rewrite firstn_length. lia.
  - apply IH. rewrite skipn_length. lia.
Qed.

Lemma nth_chunks {A} cs (l : list A) r : r < length cs ->
  nth r (chunks cs l) [] = firstn (nth r cs 0) (skipn (list_sum (firstn r cs)) l).
Proof.
  revert l r; induction cs as [|c cs IH]; intros l r Hr; simpl in Hr; [lia|].
  destruct r as [|r]; [reflexivity|].
  simpl chunks. simpl nth. simpl firstn. rewrite list_sum_cons.
  rewrite IH by lia. f_equal. now rewrite skipn_skipn_add.
Qed.

Lemma chunks_map {A B} (f : A -> B) cs l : chunks cs (map f l) = map (map f) (chunks cs l).
Proof.
  revert l; induction cs as [|c cs IH]; intros l; simpl; [reflexivity|].
  rewrite firstn_map, skipn_map, IH. reflexivity.
Qed.

Lemma chunks_concat {A} (ls : list (list A)) : chunks (map (@length A) ls) (concat ls) = ls.
Proof.
  induction ls as [|x ls IH]; simpl; [reflexivity|].
  rewrite firstn_app, firstn_all, Nat.sub_diag, firstn_O, app_nil_r.
  rewrite skipn_app, skipn_all, Nat.sub_diag. simpl. now rewrite IH.
Qed.

Lemma list_sum_firstn_le r cs : list_sum (firstn r cs) + nth r cs 0 <= list_sum cs.
Proof.
  revert r; induction cs as [|c cs IH]; intros r.
  - rewrite firstn_nil. destruct r; simpl; lia.
  - destruct r as [|r].
    + rewrite firstn_O, list_sum_nil, list_sum_cons. simpl. lia.
    + simpl firstn. simpl nth. rewrite !list_sum_cons. specialize (IH r). lia.
Qed.

Lemma slice_chunk {A} cs (b : list A) r : r < length cs -> list_sum cs = length b ->
  slice (list_sum (firstn r cs)) (nth r cs 0) b = Some (nth r (chunks cs b) []).
Proof.
  intros Hr Hs. unfold slice.
  pose proof (list_sum_firstn_le r cs) as Hle.
  destruct (Nat.leb_spec (list_sum (firstn r cs) + nth r cs 0) (length b)) as [H|H]; [|lia].
  now rewrite nth_chunks.
Qed.

Lemma nth_chunks_length {A} cs (b : list A) r : r < length cs -> list_sum cs = length b ->
  length (nth r (chunks cs b) []) = nth r cs 0.
Proof.
  intros Hr Hs. rewrite nth_chunks by assumption.
  pose proof (list_sum_firstn_le r cs). rewrite firstn_length, skipn_length. lia.
Qed.

(* ---------- Alltoallv ---------- *)

Definition src_ok {A} (P : nat) (x : list A * list nat * list nat) : Prop :=
  let '(b, sc, sd) := x in
  length sc = P /\ list_sum sc = length b /\ sd = offsets_from 0 sc.

Definition piece {A} (r : nat) (x : list A * list nat * list nat) : list A :=
  let '(b, sc, _) := x in nth r (chunks sc b) [].

Lemma recv_loop_ok {A} P r (srcs : list (list A * list nat * list nat)) pre :
  Forall (src_ok P) srcs -> r < P ->
  let rc := map (fun x => nth r (snd (fst x)) 0) srcs in
  recv_loop r srcs rc (offsets_from (length pre) rc)
            (map Some pre ++ repeat None (list_sum rc))
  = Some (map Some (pre ++ concat (map (piece r) srcs))).
Proof.
  intros Hok Hr. revert pre. induction Hok as [|[[b sc] sd] srcs Hx Hok IH]; intros pre.
  - simpl. now rewrite !app_nil_r.
  - destruct Hx as (Hl & Hs & ->).
    cbn [map fst snd offsets_from recv_loop].
    rewrite (nth_error_nth' sc 0) by lia.
    rewrite offsets_from_nth by lia. rewrite Nat.add_0_l, Nat.eqb_refl.
    rewrite slice_chunk by lia.
    set (seg := nth r (chunks sc b) []).
    assert (Hseg : length seg = nth r sc 0) by (apply nth_chunks_length; lia).
    unfold write.
    set (rc := map (fun x => nth r (snd (fst x)) 0) srcs) in *.
    rewrite app_length, map_length, repeat_length, list_sum_cons.
    destruct (Nat.leb_spec (length pre + length seg) (length pre + (nth r sc 0 + list_sum rc))) as [_|H]; [|lia].
    assert (E : firstn (length pre) (map Some pre ++ repeat None (nth r sc 0 + list_sum rc)) ++
                map Some seg ++ skipn (length pre + length seg) (map Some pre ++ repeat None (nth r sc 0 + list_sum rc))
              = map Some (pre ++ seg) ++ repeat None (list_sum rc)).
    { rewrite firstn_app, map_length, Nat.sub_diag, firstn_O, app_nil_r.
      rewrite <- (map_length Some pre) at 1. rewrite firstn_all.
      rewrite skipn_app, map_length.
      rewrite (skipn_all2 (map Some pre)) by (rewrite map_length; lia).
      replace (length pre + length seg - length pre) with (length seg) by lia.
      rewrite Hseg, repeat_app, skipn_app, repeat_length, Nat.sub_diag.
      rewrite skipn_all2 by (rewrite repeat_length; lia).
      rewrite map_app, app_assoc. reflexivity. }
    rewrite E. rewrite <- Hseg.
    replace (length pre + length seg) with (length (pre ++ seg)) by apply app_length.
    rewrite IH. simpl concat. rewrite app_assoc. reflexivity.
Qed.

Lemma alltoallv_ok {A} P (srcs : list (list A * list nat * list nat)) dsts :
  Forall (src_ok P) srcs -> length dsts = P ->
  (forall r, r < P -> nth_error dsts r =
     let rc := map (fun x => nth r (snd (fst x)) 0) srcs in
     Some (list_sum rc, rc, offsets_from 0 rc)) ->
  alltoallv srcs dsts = map (fun r => Some (map Some (concat (map (piece r) srcs)))) (seq 0 P).
Proof.
  intros Hok Hlen Hd. unfold alltoallv. rewrite Hlen.
  apply list_ext. intros r.
  destruct (lt_dec r P) as [Hr|Hr].
  - rewrite !nth_error_map, nth_error_combine, nth_error_seq_lt by lia.
    rewrite (Hd r Hr). cbv zeta. cbn [option_map].
    f_equal. exact (recv_loop_ok P r srcs [] Hok Hr).
  - rewrite !nth_error_map, nth_error_combine, nth_error_seq_ge by lia. reflexivity.
Qed.

(* ---------- the collective constructor ---------- *)

Section World.
Context (args : list layout_arg) (Hwf : wf_args args).
Local Notation P := (length args).
Local Notation cnt s := (a_counts (arg_at args s)).
Local Notation idx s := (a_indices (arg_at args s)).
Local Notation len s := (a_len (arg_at args s)).

Definition rcv (r : nat) : list nat := map (fun s => nth r (cnt s) 0) (seq 0 P).

Definition lay (r : nat) : layout :=
  mkLayout (len r) (cnt r) (idx r) (rcv r) (offsets_from 0 (cnt r)) (offsets_from 0 (rcv r))
           (list_sum (rcv r)).

Lemma alltoall_rcv r : alltoall (map a_counts args) r = rcv r.
Proof.
  unfold alltoall, rcv. rewrite map_map.
  symmetry. apply (map_seq_eq _ 0).
  - now rewrite map_length.
  - intros i Hi. rewrite (nth_map_in (A:=layout_arg) _ _ i 0 (0, [], [])) by lia. reflexivity.
Qed.

Lemma layout_init_eq : layout_init args = map lay (seq 0 P).
Proof.
  unfold layout_init. apply map_ext_seq. intros r Hr.
  rewrite (nth_error_nth' args (0, [], [])) by lia. fold (arg_at args r).
  rewrite alltoall_rcv. reflexivity.
Qed.

Lemma wf_at s : s < P ->
  length (cnt s) = P /\ list_sum (cnt s) = length (idx s) /\ Forall (fun i => i < len s) (idx s).
Proof.
  intros Hs. pose proof (proj1 (Forall_forall _ _) Hwf (arg_at args s)) as H.
  apply H. unfold arg_at. apply nth_In. lia.
Qed.

Lemma addr_length s r : s < P -> r < P -> length (addr args s r) = nth r (cnt s) 0.
Proof.
  intros Hs Hr. destruct (wf_at s Hs) as (Hl & Hsum & _).
  unfold addr. apply nth_chunks_length; lia.
Qed.

Lemma idx_addr s : s < P -> idx s = flat_map (addr args s) (seq 0 P).
Proof.
  intros Hs. destruct (wf_at s Hs) as (Hl & Hsum & _).
  rewrite <- (concat_chunks (cnt s) (idx s)) at 1 by lia.
  rewrite flat_map_concat_map. f_equal. symmetry. apply (map_seq_eq _ []).
  - now rewrite chunks_length.
  - intros i Hi. reflexivity.
Qed.

Lemma addr_lt s r i : s < P -> In i (addr args s r) -> i < len s.
Proof.
  intros Hs Hi. destruct (wf_at s Hs) as (Hl & Hsum & Hf).
  rewrite Forall_forall in Hf. apply Hf.
  rewrite <- (concat_chunks (cnt s) (idx s)) by lia. apply in_concat.
  unfold addr in Hi.
  destruct (lt_dec r (length (chunks (cnt s) (idx s)))) as [Hr|Hr].
  - exists (nth r (chunks (cnt s) (idx s)) []). split; [now apply nth_In|assumption].
  - rewrite nth_overflow in Hi by lia. contradiction.
Qed.

Lemma tags_length r : r < P -> length (tags args r) = list_sum (rcv r).
Proof.
  intros Hr. unfold tags. rewrite flat_map_length_sum. unfold rcv.
  apply list_sum_map_ext_in. intros s Hs. apply in_seq in Hs.
  rewrite map_length. apply addr_length; lia.
Qed.

Lemma rcv_length r : length (rcv r) = P.
Proof. unfold rcv. now rewrite map_length, seq_length. Qed.

Lemma rcv_nth r s : s < P -> nth s (rcv r) 0 = nth r (cnt s) 0.
Proof.
  intros Hs. unfold rcv. now rewrite nth_map_seq by lia.
Qed.

(* ---------- exchange ---------- *)

Definition tk {A} (d : list A) (ix : list nat) : list A :=
  flat_map (fun i => match nth_error d i with Some x => [x] | None => [] end) ix.

Lemma tk_some {A} (d : list A) ix : Forall (fun i => i < length d) ix ->
  map Some (tk d ix) = map (nth_error d) ix.
Proof.
  induction 1 as [|i ix Hi H IH]; [reflexivity|].
  simpl. destruct (nth_error d i) as [x|] eqn:E.
  - simpl. now rewrite IH.
  - apply nth_error_None in E. lia.
Qed.

Lemma take_tk {A} (d : list A) ix : Forall (fun i => i < length d) ix -> take d ix = Some (tk d ix).
Proof. intros H. unfold take. rewrite <- tk_some by assumption. apply sequence_map_Some. Qed.

Lemma tk_length {A} (d : list A) ix : Forall (fun i => i < length d) ix -> length (tk d ix) = length ix.
Proof. intros H. rewrite <- (map_length Some), tk_some by assumption. apply map_length. Qed.

Lemma len_mismatch_false {A} want (data : list (list A)) :
  length data = P -> (forall r, r < P -> length (nth r data []) = want (lay r)) ->
  len_mismatch want (layout_init args) data = false.
Proof.
  intros Hl H. unfold len_mismatch. rewrite layout_init_eq.
  rewrite <- (map_nth_seq data [] P Hl). rewrite combine_map_map.
  apply not_true_is_false. intros E. apply existsb_exists in E.
  destruct E as (p & Hp & E). apply in_map_iff in Hp. destruct Hp as (r & <- & Hr).
  apply in_seq in Hr. simpl in E. rewrite H in E by lia.
  rewrite Nat.eqb_refl in E. discriminate.
Qed.

Lemma len_mismatch_true {A} want (data : list (list A)) r :
  length data = P -> r < P -> length (nth r data []) <> want (lay r) ->
  len_mismatch want (layout_init args) data = true.
Proof.
  intros Hl Hr H. unfold len_mismatch. rewrite layout_init_eq.
  rewrite <- (map_nth_seq data [] P Hl). rewrite combine_map_map.
  apply existsb_exists. exists (lay r, nth r data []). split.
  - apply in_map_iff. exists r. split; [reflexivity|apply in_seq; lia].
  - simpl. apply negb_true_iff, Nat.eqb_neq. assumption.
Qed.

Lemma exchange1_ok {A} (data : list (list A)) :
  length data = P -> (forall s, s < P -> length (nth s data []) = len s) ->
  exchange1 (layout_init args) data = map (fun r => Ret (map (lookup2 data) (tags args r))) (seq 0 P).
Proof.
  intros Hl Hd. unfold exchange1. rewrite len_mismatch_false by assumption.
  set (d := fun s => nth s data []).
  change (forall s, s < P -> length (d s) = len s) in Hd.
  assert (Hdata : data = map d (seq 0 P)) by (symmetry; now apply map_nth_seq).
  rewrite layout_init_eq.
  assert (Hb : map (fun p => take (snd p) (indices (fst p))) (combine (map lay (seq 0 P)) data)
               = map Some (map (fun s => tk (d s) (idx s)) (seq 0 P))).
  { rewrite Hdata at 1. rewrite combine_map_map, !map_map. apply map_ext_seq. intros s Hs. simpl.
    apply take_tk. rewrite (Hd s Hs). apply wf_at; assumption. }
  rewrite Hb, sequence_map_Some. rewrite combine_map_map, !map_map. cbn [fst snd].
  rewrite (alltoallv_ok P).
  - rewrite map_map. apply map_ext_seq. intros r Hr. simpl. f_equal.
    rewrite concat_map, !map_map. unfold tags. rewrite map_flat_map, flat_map_concat_map.
    f_equal. apply map_ext_seq. intros s Hs. simpl.
    destruct (wf_at s Hs) as (Hc & Hsum & Hf).
    rewrite map_map.
    assert (E : map Some (nth r (chunks (cnt s) (tk (d s) (idx s))) []) =
                map (nth_error (d s)) (addr args s r)).
    { unfold addr. rewrite <- !(map_nth (map _)). simpl. rewrite <- !chunks_map.
      rewrite tk_some; [reflexivity|]. now rewrite (Hd s Hs). }
    rewrite E. apply map_ext. intros i. unfold lookup2. simpl.
    rewrite (nth_error_nth' data []) by lia. reflexivity.
  - apply Forall_forall. intros x Hx. apply in_map_iff in Hx. destruct Hx as (s & <- & Hs).
    apply in_seq in Hs. destruct (wf_at s) as (Hc & Hsum & Hf); [lia|].
    simpl. repeat split; [assumption|].
    rewrite tk_length; [assumption|]. rewrite Hd by lia. assumption.
  - now rewrite map_length, seq_length.
  - intros r Hr. rewrite nth_error_map, nth_error_seq_lt by lia. simpl.
    rewrite map_map. reflexivity.
Qed.

Lemma exchange1_values {A} (data : list (list A)) r :
  length data = P -> (forall s, s < P -> length (nth s data []) = len s) -> r < P ->
  exists l, map (lookup2 data) (tags args r) = map Some l.
Proof.
  intros Hl Hd Hr. exists (flat_map (fun s => tk (nth s data []) (addr args s r)) (seq 0 P)).
  unfold tags. rewrite !map_flat_map. apply flat_map_ext_in. intros s Hs. apply in_seq in Hs.
  rewrite tk_some.
  - rewrite map_map. apply map_ext. intros i. unfold lookup2. simpl.
    rewrite (nth_error_nth' data []) by lia. reflexivity.
  - apply Forall_forall. intros i Hi. rewrite Hd by lia. apply (addr_lt s r); [lia|assumption].
Qed.

(* ---------- gather ---------- *)

(** values carried by the copies that rank r holds of elements of rank s *)
Definition blk {A} (y : list (list A)) (r s : nat) : list A :=
  nth s (chunks (rcv r) (nth r y [])) [].

Lemma blk_length {A} (y : list (list A)) r s : s < P -> r < P ->
  length (nth r y []) = length (tags args r) -> length (blk y r s) = length (addr args s r).
Proof.
  intros Hs Hr Hy. unfold blk. rewrite nth_chunks_length.
  - rewrite rcv_nth by assumption. symmetry. apply addr_length; assumption.
  - now rewrite rcv_length.
  - rewrite Hy. symmetry. apply tags_length; assumption.
Qed.

Lemma combine_tags {A} (y : list (list A)) r : r < P ->
  length (nth r y []) = length (tags args r) ->
  combine (tags args r) (nth r y []) =
  flat_map (fun s => map (fun p => ((s, fst p), snd p)) (combine (addr args s r) (blk y r s))) (seq 0 P).
Proof.
  intros Hr Hy.
  assert (E : nth r y [] = flat_map (blk y r) (seq 0 P)).
  { rewrite <- (concat_chunks (rcv r) (nth r y [])) at 1.
    - rewrite flat_map_concat_map. f_equal. symmetry. apply (map_seq_eq _ []).
      + rewrite chunks_length. apply rcv_length.
      + reflexivity.
    - rewrite Hy. symmetry. apply tags_length; assumption. }
  rewrite E at 1. unfold tags. rewrite combine_flat_map.
  - apply flat_map_ext_in. intros s Hs. apply combine_map_l.
  - intros s Hs. apply in_seq in Hs. rewrite map_length. symmetry. apply blk_length; [lia|lia|assumption].
Qed.

Lemma filter_tags {A} (y : list (list A)) r s0 : r < P -> s0 < P ->
  length (nth r y []) = length (tags args r) ->
  filter (fun tv => fst (fst tv) =? s0) (combine (tags args r) (nth r y [])) =
  map (fun p => ((s0, fst p), snd p)) (combine (addr args s0 r) (blk y r s0)).
Proof.
  intros Hr Hs Hy. rewrite combine_tags by assumption. rewrite filter_flat_map.
  rewrite <- (flat_map_select (fun s0 => map (fun p => ((s0, fst p), snd p)) (combine (addr args s0 r) (blk y r s0))) P s0 Hs).
  apply flat_map_ext_in. intros s _. rewrite filter_map. simpl.
  destruct (Nat.eqb_spec s s0) as [->|Hne].
  - f_equal. apply filter_all. reflexivity.
  - rewrite filter_none; reflexivity.
Qed.

Lemma returned_blk {A} (y : list (list A)) s : s < P ->
  (forall r, r < P -> length (nth r y []) = length (tags args r)) ->
  returned args y s = flat_map (fun r => blk y r s) (seq 0 P).
Proof.
  intros Hs Hy. unfold returned. apply flat_map_ext_in. intros r Hr. apply in_seq in Hr.
  rewrite filter_tags by (try apply Hy; lia). rewrite map_map. simpl.
  change (fun x : nat * A => snd x) with (@snd nat A).
  apply map_snd_combine. rewrite blk_length by (try apply Hy; lia). lia.
Qed.

Lemma combine_idx_returned {A} (y : list (list A)) s : s < P ->
  (forall r, r < P -> length (nth r y []) = length (tags args r)) ->
  combine (idx s) (returned args y s) =
  flat_map (fun r => combine (addr args s r) (blk y r s)) (seq 0 P).
Proof.
  intros Hs Hy. rewrite returned_blk by assumption. rewrite idx_addr by assumption.
  apply combine_flat_map. intros r Hr. apply in_seq in Hr.
  symmetry. apply blk_length; try apply Hy; lia.
Qed.

Lemma copies_filter {A} (y : list (list A)) s i : s < P ->
  (forall r, r < P -> length (nth r y []) = length (tags args r)) ->
  copies args y s i =
  map snd (filter (fun p => fst p =? i) (combine (idx s) (returned args y s))).
Proof.
  intros Hs Hy. rewrite combine_idx_returned by assumption.
  rewrite filter_flat_map, map_flat_map. unfold copies.
  apply flat_map_ext_in. intros r Hr. apply in_seq in Hr.
  rewrite <- (filter_filter (fun tv => snd (fst tv) =? i) (fun tv => fst (fst tv) =? s)).
  rewrite filter_tags by (try apply Hy; lia).
  rewrite filter_map, map_map. reflexivity.
Qed.

Lemma gather_buffer_ok {A} (y : list (list A)) :
  length y = P -> (forall r, r < P -> length (nth r y []) = length (tags args r)) ->
  gather_buffer (layout_init args) y =
  map (fun s => Ret (map Some (returned args y s))) (seq 0 P).
Proof.
  intros Hl Hy. unfold gather_buffer. rewrite len_mismatch_false.
  2: assumption.
  2: { intros r Hr. rewrite (Hy r Hr). simpl. apply tags_length; assumption. }
  rewrite layout_init_eq.
  rewrite <- (map_nth_seq y [] P Hl) at 1. rewrite combine_map_map, !map_map. cbn [fst snd].
  rewrite (alltoallv_ok P).
  - rewrite map_map. apply map_ext_seq. intros s Hs. simpl. do 2 f_equal.
    rewrite map_map. simpl. rewrite returned_blk by assumption.
    rewrite flat_map_concat_map. reflexivity.
  - apply Forall_forall. intros x Hx. apply in_map_iff in Hx. destruct Hx as (r & <- & Hr).
    apply in_seq in Hr. simpl. repeat split.
    + apply rcv_length.
    + rewrite Hy by lia. symmetry. apply tags_length; lia.
  - now rewrite map_length, seq_length.
  - intros s Hs. rewrite nth_error_map, nth_error_seq_lt by lia. simpl. rewrite map_map. simpl.
    destruct (wf_at s Hs) as (Hc & Hsum & _).
    assert (E : map (fun r => nth s (rcv r) 0) (seq 0 P) = cnt s).
    { apply (map_seq_eq _ 0); [assumption|]. intros r Hr. now apply rcv_nth. }
    rewrite E, Hsum. reflexivity.
Qed.

Lemma returned_length {A} (y : list (list A)) s : s < P ->
  (forall r, r < P -> length (nth r y []) = length (tags args r)) ->
  length (returned args y s) = length (idx s).
Proof.
  intros Hs Hy. rewrite returned_blk, idx_addr by assumption.
  rewrite !flat_map_length_sum. apply list_sum_map_ext_in.
  intros r Hr. apply in_seq in Hr. apply blk_length; try apply Hy; lia.
Qed.

Lemma gather_post_ok {A B} (post : layout -> list A -> outcome (list B)) (y : list (list A)) :
  length y = P -> (forall r, r < P -> length (nth r y []) = length (tags args r)) ->
  gather_post post (layout_init args) y =
  map (fun s => if len s =? 0 then Ret [] else post (lay s) (returned args y s)) (seq 0 P).
Proof.
  intros Hl Hy. unfold gather_post. rewrite gather_buffer_ok by assumption.
  rewrite layout_init_eq, combine_map_map, map_map. cbn [fst snd bind].
  apply map_ext_seq. intros s Hs. simpl. destruct (len s =? 0); [reflexivity|].
  unfold force. rewrite sequence_map_Some. reflexivity.
Qed.

Lemma idx_nil s : s < P -> len s = 0 -> idx s = [].
Proof.
  intros Hs H0. destruct (wf_at s Hs) as (_ & _ & Hf). rewrite H0 in Hf.
  destruct (idx s) as [|i l]; [reflexivity|]. inversion Hf. lia.
Qed.

Lemma gather_all_ok {A} (y : list (list A)) :
  length y = P -> (forall r, r < P -> length (nth r y []) = length (tags args r)) ->
  gather_all (layout_init args) y = map (fun s => Ret (returned args y s)) (seq 0 P).
Proof.
  intros Hl Hy. unfold gather_all. rewrite gather_post_ok by assumption.
  apply map_ext_seq. intros s Hs. destruct (Nat.eqb_spec (len s) 0) as [H0|_]; [|reflexivity].
  pose proof (returned_length y s Hs Hy) as H. rewrite idx_nil in H by assumption.
  destruct (returned args y s); [reflexivity|discriminate].
Qed.

(* ---------- bincount ---------- *)

Lemma fold_upd_nth {A B} (f : A -> B -> A) (l : list (nat * B)) (acc : list A) i :
  nth_error (fold_left (fun acc p => upd (fst p) (fun x => f x (snd p)) acc) l acc) i =
  option_map (fun a => fold_left f (map snd (filter (fun p => fst p =? i) l)) a) (nth_error acc i).
Proof.
  revert acc; induction l as [|[k w] l IH]; intros acc; simpl.
  - destruct (nth_error acc i); reflexivity.
  - rewrite IH. rewrite nth_error_upd. destruct (k =? i); simpl; destruct (nth_error acc i); reflexivity.
Qed.

Lemma fold_upd_length {A B} (f : A -> B -> A) (l : list (nat * B)) (acc : list A) :
  length (fold_left (fun acc p => upd (fst p) (fun x => f x (snd p)) acc) l acc) = length acc.
Proof.
  revert acc; induction l as [|[k w] l IH]; intros acc; simpl; [reflexivity|].
  rewrite IH. apply upd_length.
Qed.

Lemma fold_upd_eq {A B} (f : A -> B -> A) (l : list (nat * B)) z n :
  fold_left (fun acc p => upd (fst p) (fun x => f x (snd p)) acc) l (repeat z n) =
  map (fun i => fold_left f (map snd (filter (fun p => fst p =? i) l)) z) (seq 0 n).
Proof.
  apply list_ext. intros i. rewrite fold_upd_nth. rewrite nth_error_map.
  destruct (lt_dec i n) as [Hi|Hi].
  - rewrite nth_error_seq_lt by lia. simpl.
    rewrite (nth_error_nth' _ z) by (rewrite repeat_length; lia).
    rewrite nth_repeat. reflexivity.
  - rewrite nth_error_seq_ge by lia.
    rewrite (proj2 (nth_error_None _ _)) by (rewrite repeat_length; lia). reflexivity.
Qed.

Lemma forallb_idx s : s < P -> forallb (fun i => i <? len s) (idx s) = true.
Proof.
  intros Hs. apply forallb_forall. intros i Hi. apply Nat.ltb_lt.
  destruct (wf_at s Hs) as (_ & _ & Hf). rewrite Forall_forall in Hf. now apply Hf.
Qed.

Lemma bincount_idx {A} (add : A -> A -> A) zero s w : s < P ->
  bincount add zero (len s) (idx s) w =
  Ret (map (fun i => fold_left add (map snd (filter (fun p => fst p =? i) (combine (idx s) w))) zero) (seq 0 (len s))).
Proof.
  intros Hs. unfold bincount. rewrite forallb_idx by assumption. f_equal. apply fold_upd_eq.
Qed.

Lemma gather_sum_ok {A} (add : A -> A -> A) zero (y : list (list A)) :
  length y = P -> (forall r, r < P -> length (nth r y []) = length (tags args r)) ->
  gather_sum add zero (layout_init args) y =
  map (fun s => Ret (map (fun i => fold_left add (copies args y s i) zero) (seq 0 (len s)))) (seq 0 P).
Proof.
  intros Hl Hy. unfold gather_sum. rewrite gather_post_ok by assumption.
  apply map_ext_seq. intros s Hs. destruct (Nat.eqb_spec (len s) 0) as [H0|_].
  - rewrite H0. reflexivity.
  - simpl. rewrite bincount_idx by assumption. f_equal. apply map_ext. intros i.
    rewrite copies_filter by assumption. reflexivity.
Qed.

Lemma copies_length {A} (y : list (list A)) s i : s < P ->
  (forall r, r < P -> length (nth r y []) = length (tags args r)) ->
  length (copies args y s i) = length (filter (fun k => k =? i) (idx s)).
Proof.
  intros Hs Hy. rewrite copies_filter by assumption. rewrite map_length.
  rewrite <- (map_length fst).
  rewrite (filter_combine_fst (fun k => k =? i)); [reflexivity|].
  symmetry. now apply returned_length.
Qed.

Lemma counts_ok {A} (y : list (list A)) s : s < P ->
  (forall r, r < P -> length (nth r y []) = length (tags args r)) ->
  bincount Nat.add 0 (len s) (idx s) (map (fun _ => 1) (idx s)) =
  Ret (map (fun i => length (copies args y s i)) (seq 0 (len s))).
Proof.
  intros Hs Hy. rewrite bincount_idx by assumption. f_equal. apply map_ext. intros i.
  rewrite copies_length by assumption.
  assert (G : forall l n, fold_left Nat.add (map snd (filter (fun p => fst p =? i) (combine l (map (fun _ => 1) l)))) n
                          = n + length (filter (fun k => k =? i) l)).
  { clear. induction l as [|k l IH]; intros n; simpl; [lia|].
    destruct (k =? i); simpl; rewrite IH; lia. }
  apply G.
Qed.
End World.
