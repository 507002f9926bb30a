(** Properties C01-C09: [Layout] (pmesh/domain.py:26-318). *)
From Coq Require Import List Arith Lia Bool QArith Permutation Sorted.
From Verif Require Import Base ListFacts LayoutModel LayoutSpec LayoutProofs LayoutModes LayoutMore.
Import ListNotations.
Local Close Scope Q_scope.
Local Open Scope nat_scope.

(** A concrete world of two ranks used by the examples: rank 0 has three
    particles, keeps 0 and 2 and sends 1 and 2 to rank 1; rank 1 has two
    particles, sends particle 1 to rank 0 and keeps particle 0. *)
Definition ex_args : list layout_arg := [(3, [2; 2], [0; 2; 1; 2]); (2, [1; 1], [1; 0])].
Definition ex_data : list (list nat) := [[10; 11; 12]; [20; 21]].
Definition ex_y : list (list nat) := [[10; 12; 21]; [11; 12; 20]].

Example ex_args_wf : wf_args ex_args.
Proof. repeat constructor. Qed.
Example ex_data_ok : sent_lengths ex_args ex_data.
Proof. reflexivity. Qed.
Example ex_exchanged : is_exchanged ex_args ex_data ex_y.
Proof. reflexivity. Qed.
Example ex_received : received_lengths ex_args ex_y.
Proof. reflexivity. Qed.

(** ** C01 *)
Theorem C01_exchange_delivers : forall A args (data : list (list A)),
  wf_args args -> sent_lengths args data ->
  exchange1 (layout_init args) data =
    map (fun r => Ret (map (lookup2 data) (tags args r))) (seq 0 (length args)) /\
  (forall r t, r < length args -> In t (tags args r) -> exists v, lookup2 data t = Some v).
Proof.
  intros A args data Hwf Hd. destruct (sent_lengths_nth args data Hd) as (Hl & Hn). split.
  - exact (exchange1_ok args Hwf data Hl Hn).
  - intros r t Hr Ht. destruct (exchange1_values args Hwf data r Hl Hn Hr) as (l & E).
    apply (in_map (lookup2 data)) in Ht. rewrite E in Ht. apply in_map_iff in Ht.
    destruct Ht as (v & Hv & _). exists v. now symmetry.
Qed.
Print Assumptions C01_exchange_delivers.

Example C01_case : exchange1 (layout_init ex_args) ex_data =
  [Ret [Some 10; Some 12; Some 21]; Ret [Some 11; Some 12; Some 20]].
Proof. reflexivity. Qed.

(** ** C02 *)
Theorem C02_exchange_gather_all : forall A args (data y : list (list A)),
  wf_args args -> sent_lengths args data -> is_exchanged args data y ->
  exists z, gather_all (layout_init args) y = map Ret z /\ length z = length args /\
    forall s, s < length args ->
      map Some (nth s z []) = map (nth_error (nth s data [])) (a_indices (arg_at args s)).
Proof. exact @exchange_gather_all. Qed.
Print Assumptions C02_exchange_gather_all.

(** an exchange always has a plain result, so the hypothesis above is about
    every exchange *)
Theorem C02_exchange_total : forall A args (data : list (list A)),
  wf_args args -> sent_lengths args data -> exists y, is_exchanged args data y.
Proof. exact @exchanged_exists. Qed.
Print Assumptions C02_exchange_total.

Example C02_case : gather_all (layout_init ex_args) ex_y = [Ret [10; 12; 11; 12]; Ret [21; 20]].
Proof. reflexivity. Qed.

(** ** C03 *)
Definition layout0 := mkLayout 0 [] [] [] [] [] 0.
Theorem C03_counts_conserved : forall args, wf_args args ->
  (forall r s, r < length args -> s < length args ->
     nth s (recvcounts (nth r (layout_init args) layout0)) 0 = length (addr args s r)) /\
  (forall r, r < length args ->
     recvlength (nth r (layout_init args) layout0) = length (tags args r)) /\
  list_sum (map recvlength (layout_init args)) = list_sum (map (fun a => length (a_indices a)) args) /\
  get_exchange_cost (layout_init args) =
    map (fun s => list_sum (map (fun r => length (addr args s r))
                                (filter (fun r => negb (r =? s)) (seq 0 (length args)))))
        (seq 0 (length args)).
Proof.
  intros args Hwf. split; [|split; [|split]].
  - intros r s. exact (recvcounts_transpose args r s Hwf).
  - intros r. exact (recvlength_tags args r Hwf).
  - exact (total_conserved args Hwf).
  - exact (cost_ok args Hwf).
Qed.
Print Assumptions C03_counts_conserved.

Example C03_case : get_exchange_cost (layout_init ex_args) = [2; 1]
  /\ map recvlength (layout_init ex_args) = [3; 3].
Proof. split; reflexivity. Qed.

(** ** C04 *)
(** [copies args y s i] are the values of all copies of particle [i] of rank
    [s] over all ranks (LayoutSpec); the sum is taken in rank order, so no law
    is required of [add] (floating point addition included). *)
Theorem C04_gather_sum : forall A (add : A -> A -> A) (zero : A) args (y : list (list A)),
  wf_args args -> received_lengths args y ->
  gather_sum add zero (layout_init args) y =
  map (fun s => Ret (map (fun i => fold_left add (copies args y s i) zero)
                         (seq 0 (a_len (arg_at args s)))))
      (seq 0 (length args)).
Proof.
  intros A add zero args y Hwf Hy. destruct (received_lengths_nth args y Hy) as (Hl & Hn).
  exact (gather_sum_ok args Hwf add zero y Hl Hn).
Qed.
Print Assumptions C04_gather_sum.

(** each particle is counted once per copy: the number of summands is the
    number of times its rank lists it in its send lists *)
Theorem C04_every_copy_once : forall A args (y : list (list A)) s i,
  wf_args args -> received_lengths args y -> s < length args ->
  length (copies args y s i) = ncopies args s i.
Proof. intros A args y s i. exact (copies_ncopies args y s i). Qed.
Print Assumptions C04_every_copy_once.

Example C04_case : gather_sum Nat.add 0 (layout_init ex_args) ex_y = [Ret [10; 11; 24]; Ret [20; 21]].
Proof. reflexivity. Qed.

(** ** C05 *)
Theorem C05_gather_any : forall A (zero : A) args (y : list (list A)),
  wf_args args -> received_lengths args y ->
  exists z, gather_any zero (layout_init args) y = map Ret z /\ length z = length args /\
    forall s, s < length args -> length (nth s z []) = a_len (arg_at args s) /\
      forall i v, i < a_len (arg_at args s) -> copies args y s i <> [] ->
        (forall w, In w (copies args y s i) -> w = v) -> nth i (nth s z []) zero = v.
Proof.
  intros A zero args y Hwf Hy.
  exists (map (fun s => map (fun i => last (copies args y s i) zero) (seq 0 (a_len (arg_at args s)))) (seq 0 (length args))).
  split; [|split].
  - rewrite map_map. exact (gather_any_ok args zero y Hwf Hy).
  - now rewrite map_length, seq_length.
  - intros s Hs. rewrite nth_map_seq by assumption. split; [now rewrite map_length, seq_length|].
    intros i v Hi Hne Hall. rewrite nth_map_seq by assumption. now apply last_const.
Qed.
Print Assumptions C05_gather_any.

Theorem C05_gather_mean : forall args (y : list (list Q)),
  wf_args args -> received_lengths args y ->
  exists z, gather_mean (layout_init args) y = map Ret z /\ length z = length args /\
    forall s, s < length args -> length (nth s z []) = a_len (arg_at args s) /\
      forall i v, i < a_len (arg_at args s) -> copies args y s i <> [] ->
        (forall w, In w (copies args y s i) -> (w == v)%Q) ->
        exists q, nth i (nth s z []) None = Some q /\ (q == v)%Q.
Proof.
  intros args y Hwf Hy.
  exists (map (fun s => map (fun i => qmean (fold_left Qplus (copies args y s i) 0%Q) (length (copies args y s i))) (seq 0 (a_len (arg_at args s)))) (seq 0 (length args))).
  split; [|split].
  - rewrite map_map. exact (gather_mean_ok args y Hwf Hy).
  - now rewrite map_length, seq_length.
  - intros s Hs. rewrite nth_map_seq by assumption. split; [now rewrite map_length, seq_length|].
    intros i v Hi Hne Hall. rewrite nth_map_seq by assumption. now apply qmean_const.
Qed.
Print Assumptions C05_gather_mean.

(** round trips: when every particle has a copy, gather restores the data *)
Theorem C05_roundtrip_any : forall A (zero : A) args (data y : list (list A)),
  wf_args args -> sent_lengths args data -> is_exchanged args data y ->
  (forall s i, s < length args -> i < a_len (arg_at args s) -> 0 < ncopies args s i) ->
  gather_any zero (layout_init args) y = map Ret data.
Proof.
  intros A zero args data y Hwf Hd Hx Hall.
  assert (Hy := exchanged_received args data y Hwf Hd Hx).
  destruct (sent_lengths_nth args data Hd) as (Hdl & Hdn).
  rewrite (gather_any_ok args zero y Hwf Hy).
  rewrite <- (map_nth_seq data [] (length args) Hdl), map_map. apply map_ext_seq. intros s Hs. f_equal.
  apply (map_seq_eq _ zero); [now apply Hdn|]. intros i Hi. apply last_const.
  - intros E. specialize (Hall s i Hs Hi). rewrite <- (copies_ncopies args y s i Hwf Hy Hs), E in Hall.
    simpl in Hall. lia.
  - intros v Hv. assert (E := exchanged_copies args data y s i v Hwf Hd Hx Hs Hv).
    rewrite (nth_error_nth' _ zero) in E by (rewrite Hdn; assumption). now inversion E.
Qed.
Print Assumptions C05_roundtrip_any.

Theorem C05_roundtrip_mean : forall args (data y : list (list Q)),
  wf_args args -> sent_lengths args data -> is_exchanged args data y ->
  (forall s i, s < length args -> i < a_len (arg_at args s) -> 0 < ncopies args s i) ->
  exists z, gather_mean (layout_init args) y = map Ret z /\
    forall s i, s < length args -> i < a_len (arg_at args s) ->
      exists q, nth i (nth s z []) None = Some q /\ (q == nth i (nth s data []) 0)%Q.
Proof.
  intros args data y Hwf Hd Hx Hall.
  assert (Hy := exchanged_received args data y Hwf Hd Hx).
  destruct (sent_lengths_nth args data Hd) as (Hdl & Hdn).
  destruct (C05_gather_mean args y Hwf Hy) as (z & Hz & Hzl & Hm).
  exists z. split; [assumption|]. intros s i Hs Hi. destruct (Hm s Hs) as (_ & H). apply H; [assumption| |].
  - intros E. specialize (Hall s i Hs Hi). rewrite <- (copies_ncopies args y s i Hwf Hy Hs), E in Hall.
    simpl in Hall. lia.
  - intros v Hv. assert (E := exchanged_copies args data y s i v Hwf Hd Hx Hs Hv).
    rewrite (nth_error_nth' _ 0%Q) in E by (rewrite Hdn; assumption). inversion E. reflexivity.
Qed.
Print Assumptions C05_roundtrip_mean.

Example C05_case : gather_any 0 (layout_init ex_args) ex_y = map Ret ex_data
  /\ (forall s i, s < 2 -> i < a_len (arg_at ex_args s) -> 0 < ncopies ex_args s i).
Proof.
  split; [reflexivity|]. intros [|[|s]] [|[|[|i]]] Hs Hi; vm_compute in Hi; try lia; vm_compute; lia.
Qed.

(** ** C06 *)
(** [own_copies args y s i]: values of the copies of particle [i] of rank [s]
    held by rank [s] itself; without one the entry stays uninitialised. *)
Theorem C06_gather_local : forall A args (y : list (list A)),
  wf_args args -> received_lengths args y ->
  exists z, gather_local (layout_init args) y = map Ret z /\ length z = length args /\
    forall s, s < length args -> length (nth s z []) = a_len (arg_at args s) /\
      forall i, i < a_len (arg_at args s) ->
        nth i (nth s z []) None = last (map Some (own_copies args y s i)) None.
Proof.
  intros A args y Hwf Hy.
  exists (map (fun s => map (fun i => last (map Some (own_copies args y s i)) None) (seq 0 (a_len (arg_at args s)))) (seq 0 (length args))).
  split; [|split].
  - rewrite map_map. exact (gather_local_ok args y Hwf Hy).
  - now rewrite map_length, seq_length.
  - intros s Hs. rewrite nth_map_seq by assumption. split; [now rewrite map_length, seq_length|].
    intros i Hi. now rewrite nth_map_seq by assumption.
Qed.
Print Assumptions C06_gather_local.

Example C06_case : gather_local (layout_init ex_args) ex_y =
  [Ret [Some 10; None; Some 12]; Ret [Some 20; None]].
Proof. reflexivity. Qed.

(** ** C07 *)
Theorem C07_gather_ufunc : forall A args argsort (op : A -> A -> A) (y : list (list A)),
  wf_args args -> received_lengths args y ->
  (forall a, In a args -> is_argsort (a_indices a) (argsort (a_indices a))) ->
  (forall a b, op a b = op b a) -> (forall a b c, op a (op b c) = op (op a b) c) ->
  (forall s i, s < length args -> i < a_len (arg_at args s) -> copies args y s i <> []) ->
  exists z, gather_ufunc argsort op (layout_init args) y = map Ret z /\ length z = length args /\
    forall s, s < length args ->
      map Some (nth s z []) = map (fun i => reduce1 op (copies args y s i)) (seq 0 (a_len (arg_at args s))).
Proof. exact @gather_ufunc_ok. Qed.
Print Assumptions C07_gather_ufunc.

(** A particle without copies silently gets the value of another particle, and
    if it is the last one the call raises. *)
Theorem C07_gather_ufunc_no_copy_refuted :
  (exists args argsort (y : list (list nat)),
     wf_args args /\ received_lengths args y /\
     (forall a, In a args -> is_argsort (a_indices a) (argsort (a_indices a))) /\
     copies args y 0 0 = [] /\ copies args y 0 1 = [7] /\
     gather_ufunc argsort Nat.max (layout_init args) y = [Ret [7; 7]]) /\
  (exists args argsort (y : list (list nat)),
     wf_args args /\ received_lengths args y /\
     (forall a, In a args -> is_argsort (a_indices a) (argsort (a_indices a))) /\
     copies args y 0 1 = [] /\
     gather_ufunc argsort Nat.max (layout_init args) y = [Raise IndexError]).
Proof.
  split.
  - exists [(2, [1], [1])], (fun _ => [0]), [[7]]. repeat split; try (repeat constructor; fail).
    + destruct H as [<-|[]]; simpl; constructor; constructor.
  - exists [(2, [1], [0])], (fun _ => [0]), [[7]]. repeat split; try (repeat constructor; fail).
    + destruct H as [<-|[]]; simpl; constructor; constructor.
Qed.
Print Assumptions C07_gather_ufunc_no_copy_refuted.

Example C07_case : exists argsort,
  (forall a, In a ex_args -> is_argsort (a_indices a) (argsort (a_indices a))) /\
  gather_ufunc argsort Nat.max (layout_init ex_args) [[10; 12; 21]; [11; 99; 20]] = [Ret [10; 11; 99]; Ret [20; 21]].
Proof.
  exists (fun l => if length l =? 4 then [0; 2; 3; 1] else [1; 0]). split; [|reflexivity].
  intros a [<-|[<-|[]]]; split; simpl.
  - apply perm_skip. symmetry. apply (Permutation_middle [2; 3] [] 1).
  - repeat constructor.
  - apply perm_swap.
  - repeat constructor.
Qed.

(** ** C08 *)
Theorem C08_exchange_mismatch_all_raise : forall A args (data : list (list A)),
  length data = length args ->
  (exists r, r < length args /\ length (nth r data []) <> a_len (arg_at args r)) ->
  exchange1 (layout_init args) data = map (fun _ => Raise ValueError) args.
Proof. intros A args data Hl (r & Hr & Hne). exact (exchange_mismatch args data r Hl Hr Hne). Qed.
Print Assumptions C08_exchange_mismatch_all_raise.

Theorem C08_gather_mismatch_all_raise : forall A B (post : layout -> list A -> outcome (list B)) args (y : list (list A)),
  wf_args args -> length y = length args ->
  (exists r, r < length args /\ length (nth r y []) <> length (tags args r)) ->
  gather_post post (layout_init args) y = map (fun _ => Raise ValueError) args /\
  gather_local (layout_init args) y = map (fun _ => Raise ValueError) args.
Proof.
  intros A B post args y Hwf Hl (r & Hr & Hne). split.
  - exact (gather_post_mismatch post args y r Hwf Hl Hr Hne).
  - exact (gather_local_mismatch args y r Hwf Hl Hr Hne).
Qed.
Print Assumptions C08_gather_mismatch_all_raise.

(** without a mismatch nobody raises *)
Theorem C08_no_mismatch_no_raise : forall A args (data y : list (list A)),
  wf_args args -> sent_lengths args data -> received_lengths args y ->
  (exists z, exchange1 (layout_init args) data = map Ret z) /\
  (exists z, gather_all (layout_init args) y = map Ret z) /\
  (exists z, gather_local (layout_init args) y = map Ret z).
Proof.
  intros A args data y Hwf Hd Hy.
  destruct (sent_lengths_nth args data Hd) as (Hl & Hn).
  destruct (received_lengths_nth args y Hy) as (Hyl & Hyn). split; [|split].
  - exists (map (fun r => map (lookup2 data) (tags args r)) (seq 0 (length args))). rewrite map_map.
    exact (exchange1_ok args Hwf data Hl Hn).
  - exists (map (returned args y) (seq 0 (length args))). rewrite map_map.
    exact (gather_all_ok args Hwf y Hyl Hyn).
  - eexists. rewrite (gather_local_ok args y Hwf Hy). symmetry. apply map_map.
Qed.
Print Assumptions C08_no_mismatch_no_raise.

Example C08_case : exchange1 (layout_init ex_args) [[10; 11; 12]; [20]] = [Raise ValueError; Raise ValueError].
Proof. reflexivity. Qed.

(** Two checks of the same call are not collective: columns of different
    lengths in one packed exchange, and trailing shapes that differ between
    ranks.  One rank raises and the others wait for ever. *)
Theorem C08_column_mismatch_not_collective_refuted :
  (exists (cols : list (list (list nat))),
     exchange_packed (layout_init ex_args) cols = [Raise ValueError; Blocked]) /\
  (exists shapes, promote shapes = [Blocked; Raise ValueError]).
Proof.
  split.
  - exists [[[10; 11; 12]; [1; 2]]; [[20; 21]; [3; 4]]]. reflexivity.
  - exists [[3]; []]. reflexivity.
Qed.
Print Assumptions C08_column_mismatch_not_collective_refuted.

(** Indices are not checked collectively either: when lengths agree but some
    rank was given an index beyond its data, that rank raises and every rank with
    valid indices is left waiting. *)
Theorem C08_bad_index_not_collective : forall A args (data : list (list A)),
  sent_lengths args data ->
  (exists r i, r < length args /\ In i (a_indices (arg_at args r)) /\ length (nth r data []) <= i) ->
  exchange1 (layout_init args) data =
  map (fun r => if existsb (fun i => length (nth r data []) <=? i) (a_indices (arg_at args r))
                then Raise IndexError else Blocked) (seq 0 (length args)).
Proof.
  intros A args data Hd (r & i & Hr & Hi & Hb).
  destruct (sent_lengths_nth args data Hd) as (Hl & Hn).
  assert (T : forall (d : list A) idx, take d idx = None <-> existsb (fun i => length d <=? i) idx = true).
  { intros d idx. unfold take. induction idx as [|j idx IH]; simpl; [split; discriminate|].
    destruct (nth_error d j) as [x|] eqn:E.
    - assert (j < length d) by (apply nth_error_Some; congruence).
      replace (length d <=? j) with false by (symmetry; apply Nat.leb_gt; lia). simpl. rewrite <- IH.
      destruct (sequence (map (nth_error d) idx)); split; congruence.
    - apply nth_error_None in E. replace (length d <=? j) with true by (symmetry; apply Nat.leb_le; lia).
      split; reflexivity. }
  unfold exchange1. rewrite (len_mismatch_false args sendlength data Hl) by (intros k Hk; apply Hn; exact Hk).
  assert (B : map (fun p => take (snd p) (indices (fst p))) (combine (layout_init args) data) =
              map (fun r => take (nth r data []) (a_indices (arg_at args r))) (seq 0 (length args))).
  { rewrite layout_init_eq. rewrite <- (map_nth_seq data [] (length args) Hl) at 1.
    rewrite combine_map_map, map_map. apply map_ext_seq. reflexivity. }
  rewrite B. destruct (sequence _) as [bs|] eqn:E.
  - exfalso. apply sequence_Some_inv in E.
    assert (F : nth r (map (fun r => take (nth r data []) (a_indices (arg_at args r))) (seq 0 (length args))) None = None).
    { rewrite nth_map_seq by lia. apply T. apply existsb_exists. exists i. split; [assumption|apply Nat.leb_le; assumption]. }
    rewrite E in F. assert (G : length bs = length args) by (apply (f_equal (@length _)) in E; rewrite !map_length, seq_length in E; lia).
    destruct bs as [|b0 bs]; [simpl in G; lia|]. rewrite (nth_indep _ None (Some b0)), (map_nth Some) in F by (rewrite map_length; lia).
    discriminate.
  - rewrite map_map. apply map_ext. intros k.
    destruct (take (nth k data []) (a_indices (arg_at args k))) as [x|] eqn:E1.
    + destruct (existsb _ _) eqn:E2; [|reflexivity]. apply T in E2. congruence.
    + apply T in E1. now rewrite E1.
Qed.
Print Assumptions C08_bad_index_not_collective.

Example C08_bad_index_case :
  exchange1 (layout_init [(1, [1; 0], [7]); (1, [0; 1], [0])]) [[10]; [20]] = [Raise IndexError; Blocked].
Proof. reflexivity. Qed.

(** ** C09 *)
(** result of the packed exchange on rank [r], column [j] = result of the
    separate exchange of column [j] on rank [r] *)
Theorem C09_packed_equals_columns : forall A args k (cols : list (list (list A))),
  wf_args args -> columns_ok args k cols -> 0 < k ->
  exists p, exchange_packed (layout_init args) cols = map Ret p /\ length p = length args /\
    (forall r, r < length args -> length (nth r p []) = k) /\
    forall j, j < k ->
      exchange1 (layout_init args) (map (fun c => nth j c []) cols) =
      map (fun r => Ret (nth j (nth r p []) [])) (seq 0 (length args)).
Proof.
  intros A args k cols Hwf Hc Hk.
  exists (map (fun r => map (fun j => map (lookup2 (column cols j)) (tags args r)) (seq 0 k)) (seq 0 (length args))).
  split; [|split; [|split]].
  - rewrite map_map. exact (exchange_packed_ok args k cols Hwf Hc Hk).
  - now rewrite map_length, seq_length.
  - intros r Hr. rewrite nth_map_seq by assumption. now rewrite map_length, seq_length.
  - intros j Hj. destruct (sent_lengths_nth args (column cols j)) as (Hl & Hd); [now apply (column_lengths args k)|].
    fold (column cols j). rewrite (exchange1_ok args Hwf (column cols j) Hl Hd).
    apply map_ext_seq. intros r Hr. rewrite nth_map_seq by assumption. now rewrite nth_map_seq by assumption.
Qed.
Print Assumptions C09_packed_equals_columns.

Example C09_case : exchange_packed (layout_init ex_args) [[[10; 11; 12]; [0; 1; 2]]; [[20; 21]; [3; 4]]] =
  [Ret [[Some 10; Some 12; Some 21]; [Some 0; Some 2; Some 4]];
   Ret [[Some 11; Some 12; Some 20]; [Some 1; Some 2; Some 3]]].
Proof. reflexivity. Qed.
