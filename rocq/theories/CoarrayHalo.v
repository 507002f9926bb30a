(** C108: several syncs one after the other, and the halo exchange of coarray.py:298-328 on any number of ranks. *)
From Coq Require Import List Arith Lia Bool.
From Verif Require Import Base ListFacts SchedModel CoarrayModel CoarrayProofs CoarrayObjects.
Import ListNotations.

(** ** sync in any state *)
Section Sync.
  Context {View Index X : Type} (cells : View -> list nat) (sub : View -> Index -> View).
  Variables (n : nat) (y : nat -> coa View).
  Notation world := (nat -> rstate View Index X).

  (** y.sync(images) takes the states st of the ranks to st': some complete run of the messages gives the memories (coarray.py:258-292),
      and the operations that were not done remain (294-296) *)
  Definition synced (images : nat -> list nat) (st st' : world) : Prop :=
    exists eager l s, co_run _ _ _ (read cells) n (memories st) (cops cells sub y st images) images eager l s /\
      co_final _ _ _ (read cells) n (memories st) (cops cells sub y st images) images s /\
      forall r, r < n ->
        after_sync _ _ _ (read cells) (write cells) n (memories st) (cops cells sub y st images) images (SchedModel.st s) r = Some (mem (st' r)) /\
        forall k, pending (st' r) k = if k =? meta (y r) then still_pending y st images r else pending (st r) k.

  Definition chosen (images : nat -> list nat) (r : nat) (o : rop View Index) : option nat :=
    match proxy_image (op_proxy o) with Some c => if listed c (images r) then Some c else None | None => None end.
  Definition gets (images : nat -> list nat) (st : world) (r : nat) : memory X :=
    fold_left (fun a q => fold_left (fun a o => match o, chosen images q o with
                                                | RPush p w, Some c => if c =? r then write cells a (push_target sub (y r) (indices p)) (read cells (mem (st q)) w) else a
                                                | _, _ => a
                                                end) (pending (st q) (meta (y q))) a) (seq 0 n) (mem (st r)).
  Definition takes (images : nat -> list nat) (st : world) (r : nat) (a : memory X) : memory X :=
    fold_left (fun a o => match o, chosen images r o with
                          | RPull v i p, Some c => write cells a (getitem sub v i) (read cells (mem (st c)) (follow sub (y c) (indices p)))
                          | _, _ => a
                          end) (pending (st r) (meta (y r))) a.
  Definition ops_one_way (images : nat -> list nat) (st : world) : Prop :=
    forall s d v i p p' w, s < n -> d < n -> In (RPull v i p) (pending (st d) (meta (y d))) -> chosen images d (RPull v i p) = Some s ->
      In (RPush p' w) (pending (st s) (meta (y s))) -> chosen images s (RPush p' w) = Some d -> False.

  Lemma chosen_selected images r o : selected images r o = chosen images r o.
  Proof. unfold selected, chosen. destruct (proxy_image (op_proxy o)); [|reflexivity]. now rewrite listed_existsb. Qed.
  Lemma chosen_listed images r o c : chosen images r o = Some c -> In c (images r).
  Proof. unfold chosen. destruct (proxy_image (op_proxy o)); [|discriminate]. pose proof (listed_in n0 (images r)). destruct (listed n0 (images r)); [|discriminate]. intros E. injection E as <-. tauto. Qed.
  Lemma in_cops_state images (st : world) r o : In o (cops cells sub y st images r) ->
    In (coindex o) (images r) /\
    match o with
    | Pull _ c _ => exists v i p, In (RPull v i p) (pending (st r) (meta (y r))) /\ chosen images r (RPull v i p) = Some c
    | Push c _ _ => exists p w, In (RPush p w) (pending (st r) (meta (y r))) /\ chosen images r (RPush p w) = Some c
    end.
  Proof.
    unfold cops. intros H. apply in_flat_map in H. destruct H as (ro & H1 & H2). rewrite chosen_selected in H2.
    destruct (chosen images r ro) as [c|] eqn:E; [|contradiction]. pose proof (chosen_listed _ _ _ _ E) as L.
    destruct ro as [v i p|p w]; destruct H2 as [<-|[]]; (split; [exact L|]); eauto.
  Qed.
  Lemma state_sound images (st : world) : (forall r c, r < n -> In c (images r) -> c < n) -> ops_one_way images st -> sound n (cops cells sub y st images) images.
  Proof.
    intros Himg O. split.
    - intros r o Hr Ho. apply (Himg r (coindex o) Hr). apply (in_cops_state _ _ _ _ Ho).
    - intros s d li ix ix' v Hs Hd (H1 & _) (H2 & _). destruct (in_cops_state _ _ _ _ H1) as (_ & v1 & i1 & p1 & A & A').
      destruct (in_cops_state _ _ _ _ H2) as (_ & p2 & w2 & B & B'). exact (O s d v1 i1 p1 p2 w2 Hs Hd A A' B B').
  Qed.
  Lemma state_values images (st : world) eager l s r : (forall r c, r < n -> In c (images r) -> c < n) -> ops_one_way images st ->
    co_run _ _ _ (read cells) n (memories st) (cops cells sub y st images) images eager l s -> r < n ->
    fi s r = co_len _ _ _ (read cells) n (memories st) (cops cells sub y st images) images r ->
    after_sync _ _ _ (read cells) (write cells) n (memories st) (cops cells sub y st images) images (SchedModel.st s) r = Some (takes images st r (gets images st r)).
  Proof.
    intros Himg O R Hr F. pose proof (state_sound images st Himg O) as Sd.
    rewrite (C56_values (read cells) (write cells) n (memories st) _ images eager l s r Sd R Hr F). f_equal. cbv zeta.
    refine (eq_trans (f_equal (fold_left _ _) _) _); [|].
    - instantiate (1 := gets images st r). unfold gets, memories. apply fold_ext. intros a q Hq. unfold cops. rewrite fold_flat_map. apply fold_ext. clear a. intros a o Ho.
      rewrite chosen_selected. destruct o as [v i p|p w]; [destruct (chosen images q _); reflexivity|]. destruct (chosen images q _) as [c|] eqn:E; [|reflexivity].
      pose proof (chosen_listed _ _ _ _ E) as L. cbn [fold_left coindex]. destruct (in_dec Nat.eq_dec c (images q)); [|contradiction]. cbn [andb].
      destruct (Nat.eqb_spec c r) as [->|]; reflexivity.
    - generalize (gets images st r) as a. unfold takes, cops. intros a. rewrite fold_flat_map. revert a. apply fold_ext. intros a o Ho.
      rewrite chosen_selected. destruct o as [v i p|p w]; [|destruct (chosen images r _); reflexivity]. destruct (chosen images r _) as [c|] eqn:E; [|reflexivity].
      pose proof (chosen_listed _ _ _ _ E) as L. cbn [fold_left coindex]. destruct (in_dec Nat.eq_dec c (images r)); [|contradiction]. reflexivity.
  Qed.

  Lemma synced_values images (st : world) st' : (forall r c, r < n -> In c (images r) -> c < n) -> ops_one_way images st -> synced images st st' ->
    forall r, r < n -> mem (st' r) = takes images st r (gets images st r) /\ forall k, pending (st' r) k = if k =? meta (y r) then still_pending y st images r else pending (st r) k.
  Proof.
    intros Himg O (eager & l & s & R & F & H) r Hr. destruct (H r Hr) as (E & P). split; [|exact P].
    rewrite (state_values images st eager l s r Himg O R Hr (F r Hr)) in E. now injection E as <-.
  Qed.
  Lemma synced_exists images (st : world) : (forall r c, r < n -> In c (images r) -> c < n) -> ops_one_way images st -> exists st', synced images st st'.
  Proof.
    intros Himg O. pose proof (state_sound images st Himg O) as Sd.
    destruct (C56_no_deadlock (read cells) n (memories st) _ images (fun _ _ => false) Sd) as (_ & C). destruct (C [] init (run_nil _ _ _)) as (l & s & R & F).
    exists (fun r => RState (takes images st r (gets images st r)) (fun k => if k =? meta (y r) then still_pending y st images r else pending (st r) k)).
    exists (fun _ _ => false), ([] ++ l), s. split; [exact R|]. split; [exact F|]. intros r Hr. split; [|reflexivity].
    apply (state_values images st _ _ s r Himg O R Hr (F r Hr)).
  Qed.
End Sync.

(** ** rows *)
Definition rowc (w i : nat) : coa (list nat) := Coa 0 (seq (i * w) w) 0.
Definition getrow (w : nat) (m : memory nat) (i : nat) : list nat := read same m (rowc w i).
Lemma getrow_length w m i : length (getrow w m i) = w.
Proof. unfold getrow, read, same, rowc. cbn [view]. now rewrite map_length, seq_length. Qed.
Lemma getrow_write w m i j xs : length xs = w -> getrow w (write same m (rowc w i) xs) j = if j =? i then xs else getrow w m j.
Proof.
  intros L. change (getrow w (write same m (rowc w i) xs) j) with (map (write same m (rowc w i) xs 0) (seq (j * w) w)). change (getrow w m j) with (map (m 0) (seq (j * w) w)). destruct (Nat.eqb_spec j i) as [->|N].
  - apply nth_ext with (d := 0) (d' := 0); [now rewrite map_length, seq_length|]. intros k Hk. rewrite map_length, seq_length in Hk. rewrite nth_map_seq by exact Hk.
    pose proof (write_seq 0 0 0 xs (i * w) m 0 (i * w + k)) as W. rewrite L in W. unfold rowc. rewrite W. cbn [Nat.eqb andb].
    destruct (Nat.leb_spec (i * w) (i * w + k)), (Nat.ltb_spec (i * w + k) (i * w + w)); cbn [andb]; try lia. f_equal. lia.
  - apply map_ext_in. intros a Ha. apply in_seq in Ha. pose proof (write_seq 0 0 0 xs (i * w) m 0 a) as W. rewrite L in W. unfold rowc. rewrite W. cbn [Nat.eqb andb].
    destruct (Nat.leb_spec (i * w) a), (Nat.ltb_spec a (i * w + w)); cbn [andb]; try reflexivity. exfalso. apply N. nia.
Qed.
Lemma getitem_row h w i : i < h -> getitem row_view (coa1 h w) (row w i) = rowc w i.
Proof. intros H. unfold coa1. now apply row_of. Qed.
Lemma fold_single {A} (f : A -> nat -> A) q0 : forall l a, NoDup l -> In q0 l -> (forall a q, In q l -> q <> q0 -> f a q = a) -> fold_left f l a = f a q0.
Proof.
  induction l as [|q l IH]; intros a Nd Hin H; [contradiction|]. inversion_clear Nd as [|? ? N1 N2]. cbn. destruct (Nat.eq_dec q q0) as [->|N].
  - assert (E : forall l' a, (forall q, In q l' -> In q l) -> fold_left f l' a = a).
    { induction l' as [|x l' IH']; intros b Hl; [reflexivity|]. cbn. rewrite H; [apply IH'; intros; apply Hl; now right|right; apply Hl; now left|]. intros ->. apply N1, Hl. now left. }
    apply E. auto.
  - rewrite H by (auto; now left). destruct Hin as [->|Hin]; [congruence|]. apply IH; auto. intros; apply H; auto. now right.
Qed.

(** ** test_coarray, coarray.py:298-328, on n ranks, for arrays of h rows of w numbers (the file has 8 rows of 3) *)
Section Test.
  Variables (n h w : nat).
  Hypothesis (Hn : 0 < n) (Hh : 4 <= h).
  (** 303, 304; n - 1 + r instead of r - 1 *)
  Definition lft (r : nat) : nat := (n - 1 + r) mod n.
  Definition rgt (r : nat) : nat := (r + 1) mod n.
  Notation C := (coa1 h w).
  Notation W := (nat -> rstate (list nat) (nat * nat) nat).
  Definition all_exec (prog : nat -> list (stmt (list nat) (nat * nat) nat)) (st st' : W) : Prop := forall r, r < n -> exec_all same row_view (st r) (prog r) = Some (st' r).
  (** 301, 310, 311 *)
  Definition part1 (r : nat) : list (stmt (list nat) (nat * nat) nat) :=
    [Writing C Dots (repeat r (h * w)); Pulling C (row w 0) (Child (Root C (Some (lft r))) (row w 0)); Pulling C (row w (h - 1)) (Child (Root C (Some (rgt r))) (row w (h - 1)))].
  (** 321, 322 *)
  Definition part2 (r : nat) : list (stmt (list nat) (nat * nat) nat) :=
    [Pushing (Root C (Some (lft r))) (row w 1) (getitem row_view C (row w 1)); Pushing (Root C (Some (rgt r))) (row w (h - 2)) (getitem row_view C (row w (h - 2)))].
  Definition sync_left := synced same row_view n (fun _ => C) (fun r => [lft r]) (X := nat).
  Definition sync_right := synced same row_view n (fun _ => C) (fun r => [rgt r]) (X := nat).

  Lemma lft_lt r : lft r < n. Proof. apply Nat.mod_upper_bound. lia. Qed.
  Lemma rgt_lt r : rgt r < n. Proof. apply Nat.mod_upper_bound. lia. Qed.
  Lemma lft_rgt r : r < n -> lft (rgt r) = r.
  Proof.
    intros H. unfold lft, rgt. rewrite Nat.add_mod_idemp_r by lia. replace (n - 1 + (r + 1)) with (r + 1 * n) by lia. rewrite Nat.mod_add, Nat.mod_small by lia. reflexivity.
  Qed.
  Lemma rgt_lft r : r < n -> rgt (lft r) = r.
  Proof.
    intros H. unfold lft, rgt. rewrite Nat.add_mod_idemp_l by lia. replace (n - 1 + r + 1) with (r + 1 * n) by lia. rewrite Nat.mod_add, Nat.mod_small by lia. reflexivity.
  Qed.

  Definition pull_left r := RPull C (row w 0) (Child (Root C (Some (lft r))) (row w 0)).
  Definition pull_right r := RPull C (row w (h - 1)) (Child (Root C (Some (rgt r))) (row w (h - 1))).
  Definition push_left r := RPush (Child (Root C (Some (lft r))) (row w 1)) (rowc w 1).
  Definition push_right r := RPush (Child (Root C (Some (rgt r))) (row w (h - 2))) (rowc w (h - 2)).
  Definition full (r : nat) : list nat := repeat r w.
  (** the rows of the array of rank r *)
  Definition rowsof (st : W) (r i : nat) : list nat := getrow w (mem (st r)) i.

  Lemma nth_seq_all r a : a < h * w -> write same (fun _ _ => 0) C (repeat r (h * w)) 0 a = r.
  Proof.
    intros H. pose proof (write_seq 0 0 r (repeat r (h * w)) 0 (fun _ _ => 0) 0 a) as E. rewrite repeat_length in E. unfold coa1. rewrite E. cbn [Nat.eqb andb Nat.leb].
    destruct (Nat.ltb_spec a (0 + h * w)); [|lia]. apply nth_repeat.
  Qed.
  Lemma part1_rows st0 st1 : (forall r, r < n -> st0 r = fresh _ _ (fun _ _ => 0)) -> all_exec part1 st0 st1 ->
    forall r, r < n -> (forall i, i < h -> rowsof st1 r i = full r) /\ pending (st1 r) 0 = [pull_left r; pull_right r].
  Proof.
    intros H0 H1 r Hr. specialize (H1 r Hr). rewrite (H0 r Hr) in H1. cbn in H1. injection H1 as E. split; [|rewrite <- E; reflexivity].
    intros i Hi. unfold rowsof. rewrite <- E. unfold getrow, read, full, same. cbn [mem append_op rowc buf view]. apply nth_ext with (d := r) (d' := r); [now rewrite map_length, seq_length, repeat_length|].
    intros k Hk. rewrite map_length, seq_length in Hk. rewrite nth_map_seq by exact Hk. rewrite nth_repeat. refine (nth_seq_all r _ _). nia.
  Qed.

  Lemma listed_self c : listed c [c] = true. Proof. apply listed_in. now left. Qed.
  Lemma listed_other c d : c <> d -> listed c [d] = false.
  Proof. intros H. apply not_true_iff_false. rewrite listed_in. intros [E|[]]. congruence. Qed.
  Lemma img_left : forall r c, r < n -> In c [lft r] -> c < n. Proof. intros r c _ [<-|[]]. apply lft_lt. Qed.
  Lemma img_right : forall r c, r < n -> In c [rgt r] -> c < n. Proof. intros r c _ [<-|[]]. apply rgt_lt. Qed.
  Lemma no_push images (st : W) : (forall r p v, r < n -> ~ In (RPush p v) (pending (st r) 0)) -> ops_one_way n (fun _ => C) images st.
  Proof. intros H s d v i p p' v' Hs Hd _ _ B _. exact (H s p' v' Hs B). Qed.
  Lemma no_pull images (st : W) : (forall r v i p, r < n -> ~ In (RPull v i p) (pending (st r) 0)) -> ops_one_way n (fun _ => C) images st.
  Proof. intros H s d v i p p' v' Hs Hd A _ _ _. exact (H d v i p Hd A). Qed.
  Lemma gets_nothing images (st : W) r : (forall r p v, r < n -> ~ In (RPush p v) (pending (st r) 0)) -> gets same row_view n (fun _ => C) images st r = mem (st r).
  Proof.
    intros H. unfold gets. generalize (mem (st r)) at 1 2. intros m. assert (E : forall l, (forall q, In q l -> q < n) -> forall m, fold_left (fun a q => fold_left (fun a o => match o, chosen images q o with
      | RPush p v, Some c => if c =? r then write same a (push_target row_view C (indices p)) (read same (mem (st q)) v) else a | _, _ => a end) (pending (st q) (meta C)) a) l m = m).
    { induction l as [|q l IH]; intros Hl b; [reflexivity|]. cbn [fold_left]. rewrite IH by (intros; apply Hl; now right). specialize (H q). cbn [meta coa1] in *.
      assert (Hq : q < n) by (apply Hl; now left). clear IH Hl. revert b. induction (pending (st q) 0) as [|o os IH]; intros b; [reflexivity|]. cbn [fold_left]. destruct o as [v i p|p v].
      - apply IH. intros p0 v' Hq' Hin. apply (H p0 v' Hq'). now right.
      - exfalso. apply (H p v Hq). now left. }
    apply E. intros q Hq. apply in_seq in Hq. lia.
  Qed.
  Lemma takes_nothing images (st : W) r a : (forall v i p, ~ In (RPull v i p) (pending (st r) 0)) -> takes same row_view (fun _ => C) images st r a = a.
  Proof.
    intros H. unfold takes. cbn [meta coa1]. revert a. induction (pending (st r) 0) as [|o os IH]; intros a; [reflexivity|]. cbn [fold_left]. destruct o as [v i p|p v].
    - exfalso. apply (H v i p). now left.
    - apply IH. intros v0 i0 p0 Hin. apply (H v0 i0 p0). now right.
  Qed.
  Lemma pull_row i : i < h -> follow row_view C [Dots; row w i] = rowc w i.
  Proof. intros H. unfold follow. cbn [fold_left]. rewrite getitem_dots. now apply getitem_row. Qed.

  (** first sync: the first row comes from the left; so does the last one if the right is the left *)
  Lemma sync1 (st1 st2 : W) : (forall r, r < n -> (forall i, i < h -> rowsof st1 r i = full r) /\ pending (st1 r) 0 = [pull_left r; pull_right r]) -> sync_left st1 st2 ->
    forall r, r < n ->
      (forall i, i < h -> rowsof st2 r i = if (i =? 0) || ((i =? h - 1) && (lft r =? rgt r)) then full (lft r) else full r) /\
      pending (st2 r) 0 = if lft r =? rgt r then [] else [pull_right r].
  Proof.
    intros H1 S2 r Hr.
    assert (NP : forall r p v, r < n -> ~ In (RPush p v) (pending (st1 r) 0)) by (intros q p v Hq Hin; rewrite (proj2 (H1 q Hq)) in Hin; destruct Hin as [E|[E|[]]]; discriminate).
    destruct (synced_values same row_view n _ _ _ _ img_left (no_push _ _ NP) S2 r Hr) as (M & P). specialize (P 0). cbn [meta coa1 Nat.eqb] in P.
    rewrite gets_nothing in M by exact NP. unfold takes in M. cbn [meta coa1] in M. unfold still_pending in P. cbn [meta coa1] in P.
    rewrite (proj2 (H1 r Hr)) in M, P. cbn [fold_left filter] in M, P. unfold pull_left, pull_right in M, P. rewrite !chosen_selected in P. unfold chosen in M, P. cbn [op_proxy proxy_image] in M, P.
    rewrite listed_self in M, P. unfold indices in M. cbn [collect app rev] in M. rewrite !pull_row in M by lia. rewrite !getitem_row in M by lia.
    assert (L : forall c i, c < n -> i < h -> read same (mem (st1 c)) (rowc w i) = full c) by (intros c i Hc Hi; exact (proj1 (H1 c Hc) i Hi)).
    assert (Lf : forall c, length (full c) = w) by (intros; apply repeat_length).
    rewrite (L (lft r) 0) in M by (try apply lft_lt; lia). rewrite (Nat.eqb_sym (lft r)) in *. destruct (Nat.eqb_spec (rgt r) (lft r)) as [E|E].
    - rewrite E, listed_self in M, P. split; [|exact P]. intros i Hi. unfold rowsof. rewrite M. rewrite (L (lft r) (h - 1)) in M |- * by (try apply lft_lt; lia).
      rewrite !getrow_write by apply Lf. destruct (Nat.eqb_spec i 0), (Nat.eqb_spec i (h - 1)); cbn [orb andb]; try lia; try reflexivity. exact (proj1 (H1 r Hr) i Hi).
    - rewrite listed_other in M, P by exact E. split; [|exact P]. intros i Hi. unfold rowsof. rewrite M. rewrite !getrow_write by apply Lf.
      destruct (Nat.eqb_spec i 0), (Nat.eqb_spec i (h - 1)); cbn [orb andb]; try lia; try reflexivity; exact (proj1 (H1 r Hr) i Hi).
  Qed.

  (** second sync: the last row comes from the right *)
  Lemma sync2 (st2 st3 : W) : (forall r, r < n ->
      (forall i, i < h -> rowsof st2 r i = if (i =? 0) || ((i =? h - 1) && (lft r =? rgt r)) then full (lft r) else full r) /\
      pending (st2 r) 0 = if lft r =? rgt r then [] else [pull_right r]) -> sync_right st2 st3 ->
    forall r, r < n ->
      (forall i, i < h -> rowsof st3 r i = if i =? 0 then full (lft r) else if i =? h - 1 then full (rgt r) else full r) /\
      pending (st3 r) 0 = [].
  Proof.
    intros H1 S2 r Hr.
    assert (NP : forall r p v, r < n -> ~ In (RPush p v) (pending (st2 r) 0)).
    { intros q p v Hq Hin; rewrite (proj2 (H1 q Hq)) in Hin. destruct (lft q =? rgt q); [contradiction|]. destruct Hin as [E|[]]; discriminate. }
    destruct (synced_values same row_view n _ _ _ _ img_right (no_push _ _ NP) S2 r Hr) as (M & P). specialize (P 0). cbn [meta coa1 Nat.eqb] in P.
    rewrite gets_nothing in M by exact NP. unfold takes in M. cbn [meta coa1] in M. unfold still_pending in P. cbn [meta coa1] in P.
    rewrite (proj2 (H1 r Hr)) in M, P. destruct (Nat.eqb_spec (lft r) (rgt r)) as [E|E].
    - cbn [fold_left filter] in M, P. split; [|exact P]. intros i Hi. unfold rowsof. rewrite M. rewrite <- E. pose proof (proj1 (H1 r Hr) i Hi) as V. rewrite E, Nat.eqb_refl in V. rewrite E.
      unfold rowsof in V. rewrite V. destruct (Nat.eqb_spec i 0), (Nat.eqb_spec i (h - 1)); cbn [orb andb]; reflexivity.
    - cbn [fold_left filter] in M, P. unfold pull_right in M, P. rewrite !chosen_selected in P. unfold chosen in M, P. cbn [op_proxy proxy_image] in M, P.
      rewrite listed_self in M, P. unfold indices in M. cbn [collect app rev] in M. rewrite !pull_row in M by lia. rewrite !getitem_row in M by lia. split; [|exact P].
      assert (L : read same (mem (st2 (rgt r))) (rowc w (h - 1)) = full (rgt r)).
      { pose proof (proj1 (H1 (rgt r) (rgt_lt r)) (h - 1) ltac:(lia)) as V. unfold rowsof, getrow in V. rewrite V. rewrite Nat.eqb_refl. cbn [andb].
        destruct (Nat.eqb_spec (h - 1) 0); [lia|]. cbn [orb]. destruct (Nat.eqb_spec (lft (rgt r)) (rgt (rgt r))) as [F|F]; [|reflexivity].
        exfalso. apply E. rewrite lft_rgt in F by exact Hr. rewrite <- (lft_rgt (rgt r) (rgt_lt r)). congruence. }
      rewrite L in M. intros i Hi. unfold rowsof. rewrite M. rewrite getrow_write by apply repeat_length. pose proof (proj1 (H1 r Hr) i Hi) as V. unfold rowsof in V. rewrite V.
      destruct (Nat.eqb_spec (lft r) (rgt r)); [contradiction|].
      destruct (Nat.eqb_spec i 0), (Nat.eqb_spec i (h - 1)); cbn [orb andb]; try lia; reflexivity.
  Qed.

  Lemma part2_rows (st3 st4 : W) : all_exec part2 st3 st4 ->
    forall r, r < n -> pending (st3 r) 0 = [] -> (forall i, rowsof st4 r i = rowsof st3 r i) /\ pending (st4 r) 0 = [push_left r; push_right r].
  Proof.
    intros H1 r Hr P. specialize (H1 r Hr). unfold part2 in H1. rewrite !getitem_row in H1 by lia. cbn [exec_all exec proxy_image] in H1. injection H1 as E. split.
    - intros i. unfold rowsof. rewrite <- E. reflexivity.
    - rewrite <- E. unfold append_op. cbn [pending proxy_coa meta coa1 Nat.eqb]. rewrite P. reflexivity.
  Qed.

  (** what rank r gets if every rank pushes to its left, and to its right as well if that is the same rank *)
  Lemma gets_left (st4 : W) r : (forall r, r < n -> pending (st4 r) 0 = [push_left r; push_right r]) -> r < n ->
    gets same row_view n (fun _ => C) (fun r => [lft r]) st4 r =
    let q := rgt r in
    let a := write same (mem (st4 r)) (rowc w 1) (read same (mem (st4 q)) (rowc w 1)) in
    if lft q =? rgt q then write same a (rowc w (h - 2)) (read same (mem (st4 q)) (rowc w (h - 2))) else a.
  Proof.
    intros H4 Hr. cbv zeta. unfold gets. cbn [meta coa1]. rewrite (fold_single _ (rgt r)).
    - rewrite (H4 (rgt r) (rgt_lt r)). cbn [fold_left]. unfold push_left, push_right, chosen. cbn [op_proxy proxy_image]. rewrite listed_self, lft_rgt, Nat.eqb_refl by exact Hr.
      rewrite !push_target_follow. unfold indices. cbn [collect app rev]. rewrite !pull_row by lia. rewrite (Nat.eqb_sym r). destruct (Nat.eqb_spec (rgt (rgt r)) r) as [E|E].
      + rewrite E, listed_self, Nat.eqb_refl. reflexivity.
      + rewrite listed_other by exact E. reflexivity.
    - apply seq_NoDup.
    - apply in_seq. pose proof (rgt_lt r). lia.
    - intros a q Hq Nq. apply in_seq in Hq. assert (Hq' : q < n) by lia. rewrite (H4 q Hq'). cbn [fold_left]. unfold push_left, push_right, chosen. cbn [op_proxy proxy_image]. rewrite listed_self.
      destruct (Nat.eqb_spec (lft q) r) as [E|E]; [exfalso; apply Nq; rewrite <- E; symmetry; now apply rgt_lft|].
      destruct (Nat.eq_dec (rgt q) (lft q)) as [F|F]; [rewrite F, listed_self; destruct (Nat.eqb_spec (lft q) r); [contradiction|reflexivity]|now rewrite listed_other by exact F].
  Qed.
  Lemma gets_right (st5 : W) r : (forall r, r < n -> pending (st5 r) 0 = if lft r =? rgt r then [] else [push_right r]) -> r < n ->
    gets same row_view n (fun _ => C) (fun r => [rgt r]) st5 r =
    let q := lft r in
    if lft q =? rgt q then mem (st5 r) else write same (mem (st5 r)) (rowc w (h - 2)) (read same (mem (st5 q)) (rowc w (h - 2))).
  Proof.
    intros H5 Hr. cbv zeta. unfold gets. cbn [meta coa1]. rewrite (fold_single _ (lft r)).
    - rewrite (H5 (lft r) (lft_lt r)). destruct (lft (lft r) =? rgt (lft r)); [reflexivity|]. cbn [fold_left]. unfold push_right, chosen. cbn [op_proxy proxy_image].
      rewrite listed_self, rgt_lft, Nat.eqb_refl by exact Hr. rewrite !push_target_follow. unfold indices. cbn [collect app rev]. rewrite !pull_row by lia. reflexivity.
    - apply seq_NoDup.
    - apply in_seq. pose proof (lft_lt r). lia.
    - intros a q Hq Nq. apply in_seq in Hq. assert (Hq' : q < n) by lia. rewrite (H5 q Hq'). destruct (lft q =? rgt q); [reflexivity|]. cbn [fold_left].
      unfold push_right, chosen. cbn [op_proxy proxy_image]. rewrite listed_self.
      destruct (Nat.eqb_spec (rgt q) r) as [E|E]; [exfalso; apply Nq; rewrite <- E; symmetry; now apply lft_rgt|reflexivity].
  Qed.
  Lemma both_sides r : r < n -> lft r = rgt r -> lft (lft r) = rgt (lft r) /\ lft (rgt r) = rgt (rgt r).
  Proof. intros Hr E. split; [rewrite E at 1|rewrite <- E at 2]; rewrite lft_rgt, rgt_lft by exact Hr; reflexivity. Qed.
  Lemma both_sides' r : r < n -> lft (lft r) = rgt (lft r) -> lft r = rgt r.
  Proof. intros Hr E. rewrite rgt_lft in E by exact Hr. rewrite <- E at 2. symmetry. apply rgt_lft, lft_lt. Qed.
  Lemma both_sides'' r : r < n -> lft (rgt r) = rgt (rgt r) -> lft r = rgt r.
  Proof. intros Hr E. rewrite lft_rgt in E by exact Hr. rewrite E at 1. apply lft_rgt, rgt_lt. Qed.

  (** third sync: row 1 comes from the right; row h - 2 from the left if that is the right *)
  Definition halo (r i : nat) : list nat := if i =? 0 then full (lft r) else if i =? h - 1 then full (rgt r) else full r.
  Lemma sync3 (st4 st5 : W) : (forall r, r < n -> (forall i, i < h -> rowsof st4 r i = halo r i) /\ pending (st4 r) 0 = [push_left r; push_right r]) -> sync_left st4 st5 ->
    forall r, r < n ->
      (forall i, i < h -> rowsof st5 r i = if i =? 1 then full (rgt r) else if (i =? h - 2) && (lft r =? rgt r) then full (lft r) else halo r i) /\
      pending (st5 r) 0 = if lft r =? rgt r then [] else [push_right r].
  Proof.
    intros H4 S5 r Hr.
    assert (NP : forall r v i p, r < n -> ~ In (RPull v i p) (pending (st4 r) 0)) by (intros q v i p Hq Hin; rewrite (proj2 (H4 q Hq)) in Hin; destruct Hin as [E|[E|[]]]; discriminate).
    destruct (synced_values same row_view n _ _ _ _ img_left (no_pull _ _ NP) S5 r Hr) as (M & P). specialize (P 0). cbn [meta coa1 Nat.eqb] in P.
    rewrite takes_nothing in M by (intros v i p; apply NP; exact Hr). rewrite gets_left in M by (auto; intros; apply H4; assumption). cbv zeta in M.
    assert (L : forall c i, c < n -> 0 < i < h - 1 -> read same (mem (st4 c)) (rowc w i) = full c).
    { intros c i Hc Hi. pose proof (proj1 (H4 c Hc) i ltac:(lia)) as V. unfold rowsof, getrow in V. rewrite V. unfold halo. destruct (Nat.eqb_spec i 0), (Nat.eqb_spec i (h - 1)); try lia. reflexivity. }
    rewrite !L in M by (try apply rgt_lt; lia). assert (Lf : forall c, length (full c) = w) by (intros; apply repeat_length). split.
    - intros i Hi. unfold rowsof. rewrite M. pose proof (proj1 (H4 r Hr) i Hi) as V. unfold rowsof in V.
      destruct (Nat.eqb_spec (lft r) (rgt r)) as [E|E]; destruct (Nat.eqb_spec (lft (rgt r)) (rgt (rgt r))) as [F|F].
      + rewrite !getrow_write by apply Lf. rewrite V, E. destruct (Nat.eqb_spec i 1), (Nat.eqb_spec i (h - 2)); cbn [andb]; try lia; reflexivity.
      + exfalso. apply F. now apply both_sides.
      + exfalso. apply E. now apply both_sides''.
      + rewrite !getrow_write by apply Lf. rewrite V. rewrite andb_false_r. reflexivity.
    - rewrite P. unfold still_pending. cbn [meta coa1]. rewrite (proj2 (H4 r Hr)). cbn [filter]. rewrite !chosen_selected. unfold push_left, push_right, chosen. cbn [op_proxy proxy_image].
      rewrite listed_self. rewrite (Nat.eqb_sym (lft r)). destruct (Nat.eqb_spec (rgt r) (lft r)) as [E|E]; [now rewrite E, listed_self|now rewrite listed_other by exact E].
  Qed.
  Lemma sync4 (st5 st6 : W) : (forall r, r < n ->
      (forall i, i < h -> rowsof st5 r i = if i =? 1 then full (rgt r) else if (i =? h - 2) && (lft r =? rgt r) then full (lft r) else halo r i) /\
      pending (st5 r) 0 = if lft r =? rgt r then [] else [push_right r]) -> sync_right st5 st6 ->
    forall r, r < n ->
      (forall i, i < h -> rowsof st6 r i = if i =? 1 then full (rgt r) else if i =? h - 2 then full (lft r) else halo r i) /\ pending (st6 r) 0 = [].
  Proof.
    intros H5 S6 r Hr.
    assert (NP : forall r v i p, r < n -> ~ In (RPull v i p) (pending (st5 r) 0)).
    { intros q v i p Hq Hin; rewrite (proj2 (H5 q Hq)) in Hin. destruct (lft q =? rgt q); [contradiction|]. destruct Hin as [E|[]]; discriminate. }
    destruct (synced_values same row_view n _ _ _ _ img_right (no_pull _ _ NP) S6 r Hr) as (M & P). specialize (P 0). cbn [meta coa1 Nat.eqb] in P.
    rewrite takes_nothing in M by (intros v i p; apply NP; exact Hr). rewrite gets_right in M by (auto; intros; apply H5; assumption). cbv zeta in M. split.
    - intros i Hi. unfold rowsof. rewrite M. pose proof (proj1 (H5 r Hr) i Hi) as V. unfold rowsof in V.
      destruct (Nat.eqb_spec (lft (lft r)) (rgt (lft r))) as [F|F].
      + rewrite V. assert (E : lft r = rgt r) by now apply both_sides'. rewrite E, Nat.eqb_refl, andb_true_r. reflexivity.
      + assert (E : lft r <> rgt r) by (intros E; apply F; now apply both_sides).
        assert (L : read same (mem (st5 (lft r))) (rowc w (h - 2)) = full (lft r)).
        { pose proof (proj1 (H5 (lft r) (lft_lt r)) (h - 2) ltac:(lia)) as V'. unfold rowsof, getrow in V'. rewrite V'. unfold halo. destruct (Nat.eqb_spec (lft (lft r)) (rgt (lft r))); [contradiction|].
          rewrite andb_false_r. destruct (Nat.eqb_spec (h - 2) 1), (Nat.eqb_spec (h - 2) 0), (Nat.eqb_spec (h - 2) (h - 1)); try lia; reflexivity. }
        rewrite L, getrow_write by apply repeat_length. rewrite V. destruct (Nat.eqb_spec (lft r) (rgt r)); [contradiction|]. rewrite andb_false_r.
        destruct (Nat.eqb_spec i 1), (Nat.eqb_spec i (h - 2)); try lia; reflexivity.
    - rewrite P. unfold still_pending. cbn [meta coa1]. rewrite (proj2 (H5 r Hr)). destruct (lft r =? rgt r); [reflexivity|]. cbn [filter]. rewrite chosen_selected. unfold push_right, chosen. cbn [op_proxy proxy_image].
      now rewrite listed_self.
  Qed.
End Test.

Lemma sides n r : 3 <= n -> r < n -> lft n r <> rgt n r.
Proof.
  intros Hn Hr. unfold lft, rgt. destruct (Nat.eq_dec r 0) as [->|N0].
  - rewrite !Nat.mod_small by lia. lia.
  - replace (n - 1 + r) with (r - 1 + 1 * n) by lia. rewrite Nat.mod_add by lia. rewrite (Nat.mod_small (r - 1)) by lia.
    destruct (Nat.eq_dec r (n - 1)) as [->|N1]; [replace (n - 1 + 1) with n by lia; rewrite Nat.mod_same by lia; lia|]. rewrite Nat.mod_small by lia. lia.
Qed.

(** test_coarray on any number of ranks, whatever the schedules of its four syncs: every assertion holds, the one of line 315 unless
    there are two ranks; the rows in between are not touched and nothing is left to be done. *)
Theorem C108_test n h w (st0 st1 st2 st3 st4 st5 st6 : nat -> rstate (list nat) (nat * nat) nat) : 0 < n -> 4 <= h ->
  (forall r, r < n -> st0 r = fresh _ _ (fun _ _ => 0)) ->
  all_exec n (part1 n h w) st0 st1 -> sync_left n h w st1 st2 -> sync_right n h w st2 st3 ->
  all_exec n (part2 n h w) st3 st4 -> sync_left n h w st4 st5 -> sync_right n h w st5 st6 ->
  forall r, r < n ->
    let coa st i := read same (mem (st r)) (Coa 0 (seq (i * w) w) 0) in
    let left := repeat ((n - 1 + r) mod n) w in
    let right := repeat ((r + 1) mod n) w in
    coa st2 0 = left /\ (n <> 2 -> coa st2 (h - 1) = repeat r w) /\
    coa st3 0 = left /\ coa st3 (h - 1) = right /\
    coa st5 1 = right /\
    coa st6 (h - 2) = left /\ coa st6 1 = right /\ coa st6 0 = left /\ coa st6 (h - 1) = right /\
    (forall i, 1 < i < h - 2 -> coa st6 i = repeat r w) /\ pending (st6 r) 0 = [].
Proof.
  intros Hn Hh H0 E1 S2 S3 E4 S5 S6 r Hr. cbv zeta.
  pose proof (part1_rows n h w Hn Hh st0 st1 H0 E1) as R1. pose proof (sync1 n h w Hn Hh st1 st2 R1 S2) as R2. pose proof (sync2 n h w Hn Hh st2 st3 R2 S3) as R3.
  assert (R4 : forall r, r < n -> (forall i, i < h -> rowsof w st4 r i = halo n h w r i) /\ pending (st4 r) 0 = [push_left n h w r; push_right n h w r]).
  { intros q Hq. destruct (part2_rows n h w Hn Hh st3 st4 E4 q Hq (proj2 (R3 q Hq))) as (A & B). split; [|exact B]. intros i Hi. rewrite A. apply R3; assumption. }
  pose proof (sync3 n h w Hn Hh st4 st5 R4 S5) as R5. pose proof (sync4 n h w Hn Hh st5 st6 R5 S6) as R6.
  destruct (R2 r Hr) as (V2 & _), (R3 r Hr) as (V3 & _), (R5 r Hr) as (V5 & _), (R6 r Hr) as (V6 & P6). unfold rowsof, getrow, rowc, full, halo in V2, V3, V5, V6.
  assert (K : forall a b, a <> b -> (a =? b) = false) by (intros; now apply Nat.eqb_neq).
  split; [rewrite V2 by lia; reflexivity|]. split.
  { intros N2. rewrite V2 by lia. rewrite Nat.eqb_refl, (K (h - 1) 0) by lia. cbn [orb andb]. destruct (Nat.eqb_spec (lft n r) (rgt n r)) as [E|E]; [|reflexivity].
    destruct (Nat.eq_dec n 1) as [N1|N1]; [|exfalso; apply (sides n r); [lia|exact Hr|exact E]]. f_equal. pose proof (lft_lt n h Hn Hh r). unfold full in *. lia. }
  split; [rewrite V3 by lia; reflexivity|]. split; [rewrite V3, Nat.eqb_refl, (K (h - 1) 0) by lia; reflexivity|].
  split; [rewrite V5 by lia; reflexivity|]. split; [rewrite V6, Nat.eqb_refl, (K (h - 2) 1) by lia; reflexivity|]. split; [rewrite V6 by lia; reflexivity|].
  split; [rewrite V6, (K 0 1), (K 0 (h - 2)) by lia; reflexivity|].
  split; [rewrite V6, (K (h - 1) 1), (K (h - 1) (h - 2)), (K (h - 1) 0), Nat.eqb_refl by lia; reflexivity|]. split; [|exact P6].
  intros i Hi. rewrite V6, (K i 1), (K i (h - 2)), (K i 0), (K i (h - 1)) by lia. reflexivity.
Qed.
Print Assumptions C108_test.

(** None of its syncs can fail to return: they are one-way, and each has an outcome. *)
Theorem C108_completes n h w : 0 < n -> 4 <= h -> exists st0 st1 st2 st3 st4 st5 st6 : nat -> rstate (list nat) (nat * nat) nat,
  (forall r, r < n -> st0 r = fresh _ _ (fun _ _ => 0)) /\ all_exec n (part1 n h w) st0 st1 /\
  (ops_one_way n (fun _ => coa1 h w) (fun r => [lft n r]) st1 /\ sync_left n h w st1 st2) /\ (ops_one_way n (fun _ => coa1 h w) (fun r => [rgt n r]) st2 /\ sync_right n h w st2 st3) /\
  all_exec n (part2 n h w) st3 st4 /\
  (ops_one_way n (fun _ => coa1 h w) (fun r => [lft n r]) st4 /\ sync_left n h w st4 st5) /\ (ops_one_way n (fun _ => coa1 h w) (fun r => [rgt n r]) st5 /\ sync_right n h w st5 st6).
Proof.
  intros Hn Hh. set (st0 := fun _ : nat => fresh (list nat) (nat * nat) (fun _ _ => 0)).
  set (step := fun prog (st : nat -> rstate (list nat) (nat * nat) nat) (r : nat) => match exec_all same row_view (st r) (prog r) with Some s => s | None => st r end).
  assert (X1 : forall st, all_exec n (part1 n h w) st (step (part1 n h w) st)) by (intros st r Hr; reflexivity).
  assert (X2 : forall st, all_exec n (part2 n h w) st (step (part2 n h w) st)) by (intros st r Hr; reflexivity).
  set (st1 := step (part1 n h w) st0). pose proof (part1_rows n h w Hn Hh st0 st1 (fun _ _ => eq_refl) (X1 st0)) as R1.
  assert (O1 : ops_one_way n (fun _ => coa1 h w) (fun r => [lft n r]) st1).
  { apply no_push. intros q p v Hq Hin. rewrite (proj2 (R1 q Hq)) in Hin. destruct Hin as [E|[E|[]]]; discriminate. }
  destruct (synced_exists same row_view n (fun _ => coa1 h w) _ st1 (img_left n h Hn Hh) O1) as (st2 & S2). pose proof (sync1 n h w Hn Hh st1 st2 R1 S2) as R2.
  assert (O2 : ops_one_way n (fun _ => coa1 h w) (fun r => [rgt n r]) st2).
  { apply no_push. intros q p v Hq Hin. rewrite (proj2 (R2 q Hq)) in Hin. destruct (lft n q =? rgt n q); [contradiction|]. destruct Hin as [E|[]]; discriminate. }
  destruct (synced_exists same row_view n (fun _ => coa1 h w) _ st2 (img_right n h Hn Hh) O2) as (st3 & S3). pose proof (sync2 n h w Hn Hh st2 st3 R2 S3) as R3.
  set (st4 := step (part2 n h w) st3).
  assert (R4 : forall r, r < n -> (forall i, i < h -> rowsof w st4 r i = halo n h w r i) /\ pending (st4 r) 0 = [push_left n h w r; push_right n h w r]).
  { intros q Hq. destruct (part2_rows n h w Hn Hh st3 st4 (X2 st3) q Hq (proj2 (R3 q Hq))) as (A & B). split; [|exact B]. intros i Hi. rewrite A. apply R3; assumption. }
  assert (O4 : ops_one_way n (fun _ => coa1 h w) (fun r => [lft n r]) st4).
  { apply no_pull. intros q v i p Hq Hin. rewrite (proj2 (R4 q Hq)) in Hin. destruct Hin as [E|[E|[]]]; discriminate. }
  destruct (synced_exists same row_view n (fun _ => coa1 h w) _ st4 (img_left n h Hn Hh) O4) as (st5 & S5). pose proof (sync3 n h w Hn Hh st4 st5 R4 S5) as R5.
  assert (O5 : ops_one_way n (fun _ => coa1 h w) (fun r => [rgt n r]) st5).
  { apply no_pull. intros q v i p Hq Hin. rewrite (proj2 (R5 q Hq)) in Hin. destruct (lft n q =? rgt n q); [contradiction|]. destruct Hin as [E|[]]; discriminate. }
  destruct (synced_exists same row_view n (fun _ => coa1 h w) _ st5 (img_right n h Hn Hh) O5) as (st6 & S6).
  exists st0, st1, st2, st3, st4, st5, st6. repeat split; auto.
Qed.
Print Assumptions C108_completes.

(** With two ranks left and right are the same image, and the first sync does both pulls: the assertion of line 315 fails. *)
Theorem C108_two_ranks_refuted h w (st0 st1 st2 : nat -> rstate (list nat) (nat * nat) nat) : 4 <= h -> 0 < w ->
  (forall r, r < 2 -> st0 r = fresh _ _ (fun _ _ => 0)) -> all_exec 2 (part1 2 h w) st0 st1 -> sync_left 2 h w st1 st2 ->
  forall r, r < 2 -> read same (mem (st2 r)) (Coa 0 (seq ((h - 1) * w) w) 0) = repeat (1 - r) w /\ repeat (1 - r) w <> repeat r w.
Proof.
  intros Hh Hw H0 E1 S2 r Hr. pose proof (part1_rows 2 h w ltac:(lia) Hh st0 st1 H0 E1) as R1. pose proof (sync1 2 h w ltac:(lia) Hh st1 st2 R1 S2) as R2.
  destruct (R2 r Hr) as (V & _). unfold rowsof, getrow, rowc in V. rewrite V by lia. rewrite Nat.eqb_refl. unfold full.
  assert (L : lft 2 r = 1 - r /\ rgt 2 r = 1 - r) by (destruct r as [|[|r]]; [split; reflexivity|split; reflexivity|lia]). destruct L as (L1 & L2). rewrite L1, L2, Nat.eqb_refl, orb_true_r.
  split; [reflexivity|]. intros E. destruct w; [lia|]. cbn in E. injection E as E _. destruct r; lia.
Qed.
Print Assumptions C108_two_ranks_refuted.

(** The chain of states with three ranks and arrays of four rows of two exists; its last array on rank 0. *)
Example C108_case : exists st0 st1 st2 st3 st4 st5 st6 : nat -> rstate (list nat) (nat * nat) nat,
  ((forall r, r < 3 -> st0 r = fresh _ _ (fun _ _ => 0)) /\ all_exec 3 (part1 3 4 2) st0 st1 /\ sync_left 3 4 2 st1 st2 /\ sync_right 3 4 2 st2 st3 /\
   all_exec 3 (part2 3 4 2) st3 st4 /\ sync_left 3 4 2 st4 st5 /\ sync_right 3 4 2 st5 st6) /\
  map (fun i => read same (mem (st6 0)) (Coa 0 (seq (i * 2) 2) 0)) [0; 1; 2; 3] = [[2; 2]; [1; 1]; [2; 2]; [1; 1]].
Proof.
  destruct (C108_completes 3 4 2) as (st0 & st1 & st2 & st3 & st4 & st5 & st6 & H0 & E1 & (_ & S2) & (_ & S3) & E4 & (_ & S5) & (_ & S6)); [lia|lia|].
  exists st0, st1, st2, st3, st4, st5, st6. split; [repeat split; assumption|].
  destruct (C108_test 3 4 2 st0 st1 st2 st3 st4 st5 st6 ltac:(lia) ltac:(lia) H0 E1 S2 S3 E4 S5 S6 0 ltac:(lia)) as (_ & _ & _ & _ & _ & A & B & C & D & _). cbv zeta in A, B, C, D.
  cbn [map]. change (4 - 1) with 3 in D. change (4 - 2) with 2 in A. cbn [Nat.mul] in A, B, C, D. cbn [Nat.mul]. rewrite A, B, C, D. reflexivity.
Qed.

(** ** Pushes without buffering
    MPI may read the array of an Isend at any time until its message has been received. Here it reads it when the receiver takes the message
    (coarray.py:287), so that the assignment of line 288 may change an array that its own rank is still sending. *)
Section Late.
  Context {View Index X : Type} (cells : View -> list nat) (sub : View -> Index -> View).
  Variables (n : nat) (y : nat -> coa View) (images : nat -> list nat) (st : nat -> rstate View Index X).
  (** The receives of rank r, 276-288: source, array to be written, array that is pushed *)
  Definition arrivals (r : nat) : list (nat * coa View * coa View) :=
    flat_map (fun q => flat_map (fun o => match o, chosen images q o with
                                          | RPush p w, Some c => if c =? r then [(q, push_target sub (y r) (indices p), w)] else []
                                          | _, _ => []
                                          end) (pending (st q) (meta (y q)))) (seq 0 n).
  (** one receive of rank r; done r of its receives have returned *)
  Definition late_step (s : (nat -> memory X) * (nat -> nat)) (r : nat) : (nat -> memory X) * (nat -> nat) :=
    match nth_error (arrivals r) (snd s r) with
    | Some (q, target, w) => (fun r' => if r' =? r then write cells (fst s r) target (read cells (fst s q) w) else fst s r',
                              fun r' => if r' =? r then S (snd s r) else snd s r')
    | None => s
    end.
  (** the receives in some order of the ranks *)
  Definition late (order : list nat) : (nat -> memory X) * (nat -> nat) := fold_left late_step order (fun r => mem (st r), fun _ => 0).
  Definition late_done (order : list nat) : Prop := forall r, r < n -> snd (late order) r = length (arrivals r).
  (** no array that rank q pushes has a cell that is written on rank q *)
  Definition apart : Prop := forall r q q' target w target' w', r < n -> q < n -> In (q, target, w) (arrivals r) -> In (q', target', w') (arrivals q) ->
    buf w = buf target' -> forall a, In a (cells (view w)) -> ~ In a (cells (view target')).

  Lemma write_other m c (xs : list X) b a : buf c <> b \/ ~ In a (cells (view c)) -> write cells m c xs b a = m b a.
  Proof.
    intros H. unfold write. assert (G : forall (l : list (nat * X)) (m : memory X), (forall p, In p l -> In (fst p) (cells (view c))) -> fold_left (fun (m : memory X) p => set m (buf c) (fst p) (snd p)) l m b a = m b a).
    { induction l as [|p l IH]; intros m' Hl; [reflexivity|]. cbn [fold_left]. rewrite IH by (intros; apply Hl; now right). unfold set.
      destruct (Nat.eqb_spec b (buf c)), (Nat.eqb_spec a (fst p)); cbn [andb]; try reflexivity. exfalso. destruct H as [H|H]; [congruence|]. apply H. subst a. apply Hl. now left. }
    apply G. intros (x, v) Hp. cbn. now apply in_combine_l in Hp.
  Qed.
  Lemma arrivals_lt r q target w : In (q, target, w) (arrivals r) -> q < n.
  Proof.
    unfold arrivals. intros H. apply in_flat_map in H. destruct H as (q' & Hq & H). apply in_seq in Hq. apply in_flat_map in H. destruct H as (o & _ & H).
    destruct o as [|p v]; [contradiction|]. destruct (chosen images q' _) as [c|]; [|contradiction]. destruct (c =? r); [|contradiction]. destruct H as [E|[]]. injection E as <- _ _. lia.
  Qed.
  Definition applied (r k : nat) : memory X :=
    fold_left (fun m x => write cells m (snd (fst x)) (read cells (mem (st (fst (fst x)))) (snd x))) (firstn k (arrivals r)) (mem (st r)).
  Lemma applied_keeps q k w : apart -> q < n -> (exists r target, r < n /\ In (q, target, w) (arrivals r)) -> read cells (applied q k) w = read cells (mem (st q)) w.
  Proof.
    intros A Hq (r & target & Hr & Hin). unfold read. apply map_ext_in. intros a Ha. unfold applied.
    assert (G : forall l (m : memory X), (forall x, In x l -> In x (arrivals q)) -> fold_left (fun (m : memory X) x => write cells m (snd (fst x)) (read cells (mem (st (fst (fst x)))) (snd x))) l m (buf w) a = m (buf w) a).
    { induction l as [|((q', t'), w') l IH]; intros m Hl; [reflexivity|]. cbn [fold_left]. rewrite IH by (intros; apply Hl; now right). apply write_other. cbn [fst snd].
      destruct (Nat.eq_dec (buf w) (buf t')) as [E|E]; [right|left; congruence]. apply (A r q q' target w t' w' Hr Hq Hin (Hl _ (or_introl eq_refl)) E a Ha). }
    apply G. intros x Hx. rewrite <- (firstn_skipn k). apply in_or_app. now left.
  Qed.
  Lemma firstn_S_nth {A} (l : list A) k x : nth_error l k = Some x -> firstn (S k) l = firstn k l ++ [x].
  Proof. revert k. induction l as [|z l IH]; intros [|k] H; cbn in *; try discriminate; [now injection H as ->|]. now rewrite (IH k H). Qed.
  Lemma late_invariant order : apart -> (forall r, In r order -> r < n) -> forall r, r < n ->
    snd (late order) r <= length (arrivals r) /\ fst (late order) r = applied r (snd (late order) r).
  Proof.
    intros A. unfold late. induction order as [|r0 order IH] using rev_ind; intros Ho r Hr; [split; [apply Nat.le_0_l|reflexivity]|].
    rewrite fold_left_app. cbn [fold_left]. assert (IH' := IH (fun r Hin => Ho r (in_or_app _ _ _ (or_introl Hin)))). clear IH.
    assert (Hr0 : r0 < n) by (apply Ho, in_or_app; right; now left). set (s := fold_left late_step order _) in *. unfold late_step.
    destruct (nth_error (arrivals r0) (snd s r0)) as [((q, t), w)|] eqn:E; [|apply IH'; exact Hr]. cbn [fst snd]. destruct (Nat.eqb_spec r r0) as [->|N]; [|apply IH'; exact Hr].
    assert (Hin : In (q, t, w) (arrivals r0)) by (eapply nth_error_In; exact E). assert (Hq : q < n) by (eapply arrivals_lt; exact Hin).
    split; [apply nth_error_Some; rewrite E; discriminate|]. rewrite (proj2 (IH' r0 Hr0)), (proj2 (IH' q Hq)). rewrite applied_keeps by (auto; exists r0, t; auto).
    unfold applied at 2. rewrite (firstn_S_nth _ _ _ E), fold_left_app. reflexivity.
  Qed.
  Lemma gets_arrivals r : gets cells sub n y images st r = fold_left (fun m x => write cells m (snd (fst x)) (read cells (mem (st (fst (fst x)))) (snd x))) (arrivals r) (mem (st r)).
  Proof.
    unfold gets, arrivals. rewrite fold_flat_map. apply fold_ext. intros a q _. rewrite fold_flat_map. apply fold_ext. clear a. intros a o _.
    destruct o as [v i p|p w]; [reflexivity|]. destruct (chosen images q _) as [c|]; [|reflexivity]. destruct (c =? r); reflexivity.
  Qed.
End Late.

(** If no rank pushes cells that are pushed to at the same time, it does not matter when MPI reads them. *)
Theorem C108_late {View Index X} (cells : View -> list nat) (sub : View -> Index -> View) n y images (st : nat -> rstate View Index X) order :
  apart cells sub n y images st -> (forall r, In r order -> r < n) -> late_done cells sub n y images st order ->
  forall r, r < n -> fst (late cells sub n y images st order) r = gets cells sub n y images st r.
Proof.
  intros A Ho D r Hr. destruct (late_invariant cells sub n y images st order A Ho r Hr) as (_ & E). rewrite E, (D r Hr), gets_arrivals. unfold applied. now rewrite firstn_all.
Qed.
Print Assumptions C108_late.

(** It does in test_coarray: rank 0 of two ranks has got row 1 of rank 1 before MPI sends its own row 1, and rank 1 gets its own number back.
    The assertion of line 325 fails. *)
Definition late_world (r : nat) : rstate (list nat) (nat * nat) nat :=
  match exec_all same row_view (fresh _ _ (fun _ _ => r)) (part2 2 4 1 r) with Some s => s | None => fresh _ _ (fun _ _ => r) end.
Theorem C108_late_refuted : exists order,
  (forall r, In r order -> r < 2) /\ late_done same row_view 2 (fun _ => coa1 4 1) (fun r => [lft 2 r]) late_world order /\
  let m := fst (late same row_view 2 (fun _ => coa1 4 1) (fun r => [lft 2 r]) late_world order) 1 in
  read same m (rowc 1 1) = [1] /\ read same (gets same row_view 2 (fun _ => coa1 4 1) (fun r => [lft 2 r]) late_world 1) (rowc 1 1) = [0].
Proof.
  exists [0; 0; 1; 1]. split; [intros r H; cbn in H; intuition lia|]. split; [intros [|[|r]] Hr; [reflexivity|reflexivity|lia]|]. vm_compute. split; reflexivity.
Qed.
Print Assumptions C108_late_refuted.
(** rank 0 pushes its row 1 to row 2 of rank 1 and rank 1 its row 1 to row 2 of rank 0: nothing overlaps *)
Definition apart_world (r : nat) : rstate (list nat) (nat * nat) nat :=
  RState (fun _ _ => r) (fun k => if k =? 0 then [RPush (Child (Root (coa1 4 1) (Some (1 - r))) (row 1 2)) (rowc 1 1)] else []).
Example C108_late_case : apart same row_view 2 (fun _ => coa1 4 1) (fun _ => [0; 1]) apart_world /\ late_done same row_view 2 (fun _ => coa1 4 1) (fun _ => [0; 1]) apart_world [1; 0] /\
  map (fun r => read same (fst (late same row_view 2 (fun _ => coa1 4 1) (fun _ => [0; 1]) apart_world [1; 0]) r) (coa1 4 1)) [0; 1] = [[0; 0; 1; 0]; [1; 1; 0; 1]].
Proof.
  split; [|split; [intros [|[|r]] Hr; [reflexivity|reflexivity|lia]|vm_compute; reflexivity]].
  intros r q q' t v t' v' Hr Hq H H' _ a Ha Ha'. destruct r as [|[|r]]; [| |lia]; destruct q as [|[|q]]; try lia; vm_compute in H, H';
    repeat match goal with H : _ \/ False |- _ => destruct H as [H|[]] end; try congruence; injection H as <- <-; injection H' as _ <- _; cbn in Ha, Ha'; lia.
Qed.
