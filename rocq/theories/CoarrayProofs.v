(** C56: sync of a co-array. *)
From Coq Require Import List Arith Lia Bool.
From Verif Require Import Base ListFacts SchedModel CoarrayModel.
Import ListNotations.

Arguments Pull {Path V}. Arguments Push {Path V}. Arguments coindex {Path V}. Arguments posted {Path V}. Arguments sendlist {Path V}. Arguments recvlist {Path V}.
Arguments sendactions {Path V}. Arguments recvactions {Path V}. Arguments program {Arr Path V}. Arguments sends_to {V}. Arguments recvs_from {V}. Arguments has_coll {V}.
Arguments AColl {V}. Arguments AIrecv {V}. Arguments AIsend {V}. Arguments ASend {V}. Arguments ARecv {V}. Arguments AWait {V}.

(** ** tickets *)
Lemma flat_map_one {A B} (f : A -> list B) (l : list A) (k : A) : NoDup l -> In k l -> (forall a, In a l -> a <> k -> f a = []) -> flat_map f l = f k.
Proof.
  induction l as [|a l IH]; intros Nd Hk H; [destruct Hk|]. inversion Nd; subst. cbn. destruct Hk as [->|Hk].
  - assert (E : flat_map f l = []).
    { clear -H H2. induction l as [|b l IH]; [reflexivity|]. cbn. rewrite (H b); [|right; now left|intros ->; apply H2; now left]. apply IH; [intros ?; apply H2; now right|intros c Hc; apply H; cbn in *; tauto]. }
    now rewrite E, app_nil_r.
  - rewrite (H a (or_introl eq_refl)) by (intros ->; contradiction). apply IH; auto. intros; apply H; auto. now right.
Qed.
Lemma flat_map_nil {A B} (f : A -> list B) (l : list A) : (forall a, In a l -> f a = []) -> flat_map f l = [].
Proof. induction l as [|a l IH]; intros H; [reflexivity|]. cbn. rewrite (H a (or_introl eq_refl)). apply IH. intros; apply H; now right. Qed.
Lemma flat_map_flat {A B C} (f : B -> list C) (g : A -> list B) l : flat_map f (flat_map g l) = flat_map (fun a => flat_map f (g a)) l.
Proof. induction l as [|a l IH]; [reflexivity|]. cbn. now rewrite flat_map_app, IH. Qed.
Lemma ticket {A B} (f : A -> list B) l i a x : nth_error l i = Some a -> f a = [x] -> nth_error (flat_map f l) (length (flat_map f (firstn i l))) = Some x.
Proof.
  revert i. induction l as [|b l IH]; intros [|i] E H; try discriminate; cbn in E.
  - injection E as ->. cbn. rewrite H. reflexivity.
  - cbn. rewrite app_length, nth_error_app2, Nat.add_comm, Nat.add_sub by lia. now apply IH.
Qed.
Lemma ticket_lt {A B} (f : A -> list B) l i a x : nth_error l i = Some a -> f a = [x] -> length (flat_map f (firstn i l)) < length (flat_map f l).
Proof. intros E H. apply nth_error_Some. rewrite (ticket f l i a x E H). discriminate. Qed.
Lemma missing {A B} (f : A -> list B) l k : length (flat_map f (firstn k l)) < length (flat_map f l) -> exists i a, k <= i /\ nth_error l i = Some a /\ f a <> [].
Proof.
  intros H. rewrite <- (firstn_skipn k l) in H at 2. rewrite flat_map_app, app_length in H.
  destruct (flat_map f (skipn k l)) as [|b m] eqn:E; [cbn in H; lia|].
  assert (Hb : In b (flat_map f (skipn k l))) by (rewrite E; now left). apply in_flat_map in Hb. destruct Hb as (a & Ha & Hb).
  apply In_nth_error in Ha. destruct Ha as [i Hi]. exists (k + i), a. split; [lia|]. split; [|intros E0; rewrite E0 in Hb; destruct Hb].
  rewrite <- (firstn_skipn k l). destruct (le_lt_dec (length l) k) as [L|L]; [rewrite skipn_all2 in Hi by exact L; destruct i; discriminate|].
  rewrite nth_error_app2 by (rewrite firstn_length; lia). rewrite firstn_length, Nat.min_l by lia. now rewrite Nat.add_comm, Nat.add_sub.
Qed.

Section Proofs.
  Context {Arr Path V : Type}.
  Variables (slice : Arr -> Path -> V) (store : Arr -> Path -> V -> Arr) (n : nat) (arr : nat -> Arr) (ops : nat -> list (cop Path V)) (images : nat -> list nat) (eager : nat -> nat -> bool).
  Hypothesis range : forall r o, r < n -> In o (ops r) -> coindex o < n.
  Let prog := program slice n arr ops images.
  Let len := co_len Arr Path V slice n arr ops images.
  Let rdy := comm_ready Arr Path V slice n arr ops images eager.
  Let posts (r : nat) : list (act V) := map (fun o => match o with Pull _ c _ => AIrecv c | Push c _ v => AIsend c v end) (posted ops images r).

  (** what rank r asks rank c for, and what it sends it *)
  Definition wants (r c : nat) : list Path := flat_map (fun o => match o with Pull _ c' ix => if c' =? c then [ix] else [] | _ => [] end) (posted ops images r).
  Definition gives (r c : nat) : list (Path * V) := flat_map (fun o => match o with Push c' ix v => if c' =? c then [(ix, v)] else [] | _ => [] end) (posted ops images r).
  Lemma sendlist_wants r c : sendlist ops images r c = map (fun ix => (ix, r)) (wants r c).
  Proof. unfold sendlist, wants. rewrite map_flat_map. apply flat_map_ext. intros [li c' ix|c' ix v]; [destruct (c' =? c); reflexivity|reflexivity]. Qed.
  Lemma recvlist_gives r c : recvlist ops images r c = map (fun p => (fst p, r)) (gives r c).
  Proof. unfold recvlist, gives. rewrite map_flat_map. apply flat_map_ext. intros [li c' ix|c' ix v]; [reflexivity|destruct (c' =? c); reflexivity]. Qed.

  Lemma sends_app d (l m : list (act V)) : sends_to d (l ++ m) = sends_to d l ++ sends_to d m.
  Proof. apply flat_map_app. Qed.
  Lemma recvs_app s (l m : list (act V)) : recvs_from s (l ++ m) = recvs_from s l ++ recvs_from s m.
  Proof. apply flat_map_app. Qed.
  Lemma sends_posts r d : sends_to d (posts r) = map snd (gives r d).
  Proof.
    unfold posts, sends_to, gives. rewrite flat_map_map, map_flat_map. apply flat_map_ext. intros [li c ix|c ix v]; [reflexivity|destruct (c =? d); reflexivity].
  Qed.
  Lemma recvs_posts r s : recvs_from s (posts r) = map (fun _ => tt) (wants r s).
  Proof.
    unfold posts, recvs_from, wants. rewrite flat_map_map, map_flat_map. apply flat_map_ext. intros [li c ix|c ix v]; [destruct (c =? s); reflexivity|reflexivity].
  Qed.
  Lemma sends_actions r d : d < n -> sends_to d (map (fun p => ASend (snd p) (slice (arr r) (fst p))) (sendactions n ops images r)) = map (slice (arr r)) (wants d r).
  Proof.
    intros Hd. unfold sends_to, sendactions. rewrite flat_map_map, flat_map_flat. rewrite (flat_map_one _ _ d); [|apply seq_NoDup|apply in_seq; lia|].
    - rewrite sendlist_wants, flat_map_map. induction (wants d r) as [|ix l IH]; [reflexivity|]. cbn in *. now rewrite IH, Nat.eqb_refl.
    - intros q Hq Hne. rewrite sendlist_wants, flat_map_map. apply flat_map_nil. intros ix _. cbn. destruct (Nat.eqb_spec q d); [contradiction|reflexivity].
  Qed.
  Lemma recvs_actions r s : s < n -> recvs_from (V := V) s (map (fun p => ARecv (snd p)) (recvactions n ops images r)) = map (fun _ => tt) (gives s r).
  Proof.
    intros Hd. unfold recvs_from, recvactions. rewrite flat_map_map, flat_map_flat. rewrite (flat_map_one _ _ s); [|apply seq_NoDup|apply in_seq; lia|].
    - rewrite recvlist_gives, flat_map_map. induction (gives s r) as [|ix l IH]; [reflexivity|]. cbn in *. now rewrite IH, Nat.eqb_refl.
    - intros q Hq Hne. rewrite recvlist_gives, flat_map_map. apply flat_map_nil. intros ix _. cbn. destruct (Nat.eqb_spec q s); [contradiction|reflexivity].
  Qed.
  Lemma sends_none_recv d l : sends_to (V := V) d (map (fun p : Path * nat => ARecv (snd p)) l) = [].
  Proof. unfold sends_to. rewrite flat_map_map. now apply flat_map_nil. Qed.
  Lemma recvs_none_send s r l : recvs_from (V := V) s (map (fun p => ASend (snd p) (slice (arr r) (fst p))) l) = [].
  Proof. unfold recvs_from. rewrite flat_map_map. now apply flat_map_nil. Qed.
  Lemma prog_eq r : prog r = [AColl 0; AColl 1] ++ posts r ++ map (fun p => ASend (snd p) (slice (arr r) (fst p))) (sendactions n ops images r)
    ++ map (fun p => ARecv (snd p)) (recvactions n ops images r) ++ [AWait].
  Proof. reflexivity. Qed.
  Lemma sends_prog r d : d < n -> sends_to d (prog r) = map snd (gives r d) ++ map (slice (arr r)) (wants d r).
  Proof.
    intros Hd. rewrite prog_eq, !sends_app, sends_posts, sends_actions, sends_none_recv by exact Hd. cbn [sends_to flat_map app]. now rewrite app_nil_r.
  Qed.
  Lemma recvs_prog r s : s < n -> recvs_from s (prog r) = map (fun _ => tt) (wants r s) ++ map (fun _ => tt) (gives s r).
  Proof.
    intros Hd. rewrite prog_eq, !recvs_app, recvs_posts, recvs_none_send, recvs_actions by exact Hd. cbn [recvs_from flat_map app]. now rewrite app_nil_r.
  Qed.
  Lemma balance r d : r < n -> d < n -> length (sends_to d (prog r)) = length (recvs_from r (prog d)).
  Proof. intros Hr Hd. rewrite sends_prog, recvs_prog by assumption. rewrite !app_length, !map_length. lia. Qed.

  (** ** the phases of the program *)
  Definition lvl (a : act V) : nat := match a with AColl k => k | AIrecv _ | AIsend _ _ => 2 | ASend _ _ | ARecv _ => 3 | AWait => 4 end.
  Definition phase (r i : nat) : nat := if i <? 2 then i else if i <? 2 + length (posted ops images r) then 2 else if S i <? len r then 3 else 4.
  Lemma len_eq r : len r = 2 + length (posted ops images r) + length (sendactions n ops images r) + length (recvactions n ops images r) + 1.
  Proof. unfold len, co_len. fold prog. rewrite prog_eq. unfold posts. rewrite !app_length, !map_length. cbn [length]. lia. Qed.
  Lemma nth_phase r i a : nth_error (prog r) i = Some a -> lvl a = phase r i /\ i < len r /\ (i < 2 -> a = AColl i).
  Proof.
    intros E. assert (L : i < len r) by (apply nth_error_Some; fold (prog r); congruence). rewrite len_eq in L. unfold phase. rewrite len_eq. rewrite prog_eq in E.
    split; [|split; [lia|]]; cbn [app] in E.
    - destruct i as [|[|i]]; [injection E as <-; reflexivity|injection E as <-; reflexivity|]. cbn [nth_error] in E. destruct (Nat.ltb_spec (S (S i)) 2); [lia|].
      destruct (Nat.ltb_spec (S (S i)) (2 + length (posted ops images r))).
      + rewrite nth_error_app1 in E by (unfold posts; rewrite map_length; lia). apply nth_error_In in E. unfold posts in E. apply in_map_iff in E. destruct E as ([|] & <- & _); reflexivity.
      + rewrite nth_error_app2 in E by (unfold posts; rewrite map_length; lia). unfold posts in E. rewrite map_length in E.
        rewrite app_assoc in E. destruct (Nat.ltb_spec (S (S (S i))) (2 + length (posted ops images r) + length (sendactions n ops images r) + length (recvactions n ops images r) + 1)).
        * rewrite nth_error_app1 in E by (rewrite app_length, !map_length; lia). apply nth_error_In in E. apply in_app_iff in E.
          destruct E as [E|E]; apply in_map_iff in E; destruct E as (? & <- & _); reflexivity.
        * rewrite nth_error_app2 in E by (rewrite app_length, !map_length; lia). apply nth_error_In in E. destruct E as [<-|[]]. reflexivity.
    - intros Hi. destruct i as [|[|i]]; [injection E as <-; reflexivity|injection E as <-; reflexivity|lia].
  Qed.
  Lemma phase_mono r i j : i <= j -> j < len r -> phase r i <= phase r j.
  Proof.
    intros H L. unfold phase.
    destruct (Nat.ltb_spec i 2), (Nat.ltb_spec j 2), (Nat.ltb_spec i (2 + length (posted ops images r))), (Nat.ltb_spec j (2 + length (posted ops images r))), (Nat.ltb_spec (S i) (len r)), (Nat.ltb_spec (S j) (len r)); lia.
  Qed.

  (** no two processes use the same channel for a pull and a push *)
  Hypothesis pure : forall s d, s < n -> d < n -> wants d s = [] \/ gives s d = [].
  Lemma posted_range r o : r < n -> In o (posted ops images r) -> coindex o < n.
  Proof. intros Hr H. unfold posted in H. apply filter_In in H. apply (range r); tauto. Qed.
  Lemma send_range r i d v : r < n -> nth_error (prog r) i = Some (ASend d v) -> d < n /\ wants d r <> [].
  Proof.
    intros Hr E. apply nth_error_In in E. rewrite prog_eq in E. rewrite !in_app_iff in E. destruct E as [[E|[E|[]]]|[E|[E|[E|[E|[]]]]]]; try discriminate.
    - unfold posts in E. apply in_map_iff in E. destruct E as ([|] & E & _); discriminate.
    - apply in_map_iff in E. destruct E as (p & E & Hp). injection E as <- _. unfold sendactions in Hp. apply in_flat_map in Hp. destruct Hp as (q & Hq & Hp). apply in_seq in Hq.
      rewrite sendlist_wants in Hp. apply in_map_iff in Hp. destruct Hp as (ix & <- & Hix). cbn. split; [lia|]. intros E. rewrite E in Hix. destruct Hix.
    - apply in_map_iff in E. destruct E as (p & E & Hp). discriminate.
  Qed.
  Lemma recv_range r i s : r < n -> nth_error (prog r) i = Some (ARecv s) -> s < n /\ gives s r <> [].
  Proof.
    intros Hr E. apply nth_error_In in E. rewrite prog_eq in E. rewrite !in_app_iff in E. destruct E as [[E|[E|[]]]|[E|[E|[E|[E|[]]]]]]; try discriminate.
    - unfold posts in E. apply in_map_iff in E. destruct E as ([|] & E & _); discriminate.
    - apply in_map_iff in E. destruct E as (p & E & Hp). discriminate.
    - apply in_map_iff in E. destruct E as (p & E & Hp). injection E as <-. unfold recvactions in Hp. apply in_flat_map in Hp. destruct Hp as (q & Hq & Hp). apply in_seq in Hq.
      rewrite recvlist_gives in Hp. apply in_map_iff in Hp. destruct Hp as (ix & <- & Hix). cbn. split; [lia|]. intros E. rewrite E in Hix. destruct Hix.
  Qed.
  Lemma irecv_range r i s : r < n -> nth_error (prog r) i = Some (AIrecv s) -> s < n /\ wants r s <> [].
  Proof.
    intros Hr E. apply nth_error_In in E. rewrite prog_eq in E. rewrite !in_app_iff in E. destruct E as [[E|[E|[]]]|[E|[E|[E|[E|[]]]]]]; try discriminate.
    - unfold posts in E. apply in_map_iff in E. destruct E as ([li c ix|c ix v] & E & Ho); [|discriminate]. injection E as ->. split; [apply (posted_range r _ Hr Ho)|].
      intros E. assert (Hin : In ix (wants r s)) by (unfold wants; apply in_flat_map; exists (Pull li s ix); split; [exact Ho|rewrite Nat.eqb_refl; now left]). rewrite E in Hin. destruct Hin.
    - apply in_map_iff in E. destruct E as (p & E & Hp). discriminate.
    - apply in_map_iff in E. destruct E as (p & E & Hp). discriminate.
  Qed.
  Lemma isend_range r i d v : r < n -> nth_error (prog r) i = Some (AIsend d v) -> d < n /\ gives r d <> [].
  Proof.
    intros Hr E. apply nth_error_In in E. rewrite prog_eq in E. rewrite !in_app_iff in E. destruct E as [[E|[E|[]]]|[E|[E|[E|[E|[]]]]]]; try discriminate.
    - unfold posts in E. apply in_map_iff in E. destruct E as ([li c ix|c ix v'] & E & Ho); [discriminate|]. injection E as -> ->. split; [apply (posted_range r _ Hr Ho)|].
      intros E. assert (Hin : In (ix, v) (gives r d)) by (unfold gives; apply in_flat_map; exists (Push d ix v); split; [exact Ho|rewrite Nat.eqb_refl; now left]). rewrite E in Hin. destruct Hin.
    - apply in_map_iff in E. destruct E as (p & E & Hp). discriminate.
    - apply in_map_iff in E. destruct E as (p & E & Hp). discriminate.
  Qed.

  (** a request that is not done waits for an operation that has not started *)
  Definition waits_for (s : state) (r i q i' : nat) : Prop :=
    q < n /\ st s q <= i' /\ exists a', nth_error (prog q) i' = Some a' /\ lvl a' <= 3 /\
      (forall a, nth_error (prog r) i = Some a -> lvl a = 3 -> lvl a' = 2).
  Lemma not_done s r i a : r < n -> nth_error (prog r) i = Some a -> request_done Arr Path V slice n arr ops images eager (st s) r i = false -> exists q i', waits_for s r i q i'.
  Proof.
    intros Hr E D. unfold request_done in D. fold prog in D. rewrite E in D.
    assert (RV : forall q, q < n -> (a = AIrecv q \/ a = ARecv q) -> arrived Arr Path V slice n arr ops images (st s) r i q = false ->
      exists i' a', st s q <= i' /\ nth_error (prog q) i' = Some a' /\ (exists v, a' = AIsend r v \/ a' = ASend r v)).
    { intros q Hq Ea Ar. unfold arrived, message in Ar. fold prog in Ar. destruct (nth_error (sends_to r (firstn (st s q) (prog q))) _) eqn:En in Ar; [discriminate|]. apply nth_error_None in En.
      assert (T : length (recvs_from q (firstn i (prog r))) < length (recvs_from q (prog r))).
      { apply (ticket_lt _ _ i a tt E). destruct Ea as [-> | ->]; now rewrite Nat.eqb_refl. }
      rewrite <- (balance q r Hq Hr) in T.
      destruct (missing (fun a => match a with AIsend d' v => if d' =? r then [v] else [] | ASend d' v => if d' =? r then [v] else [] | _ => [] end) (prog q) (st s q)) as (i' & a' & H1 & H2 & H3).
      - fold (sends_to r (prog q)). fold (sends_to r (firstn (st s q) (prog q))). lia.
      - exists i', a'. split; [exact H1|]. split; [exact H2|]. destruct a' as [| |d' v|d' v| |]; try (now destruct H3); destruct (Nat.eqb_spec d' r); try (now destruct H3); subst; exists v; auto. }
    assert (SD : forall q, q < n -> (exists v, a = AIsend q v \/ a = ASend q v) -> taken Arr Path V slice n arr ops images (st s) r i q = false ->
      exists i' a', st s q <= i' /\ nth_error (prog q) i' = Some a' /\ (a' = AIrecv r \/ a' = ARecv r)).
    { intros q Hq [v Ea] Ta. unfold taken in Ta. fold prog in Ta. apply Nat.ltb_ge in Ta.
      assert (T : length (sends_to q (firstn i (prog r))) < length (sends_to q (prog r))).
      { apply (ticket_lt _ _ i a v E). destruct Ea as [-> | ->]; now rewrite Nat.eqb_refl. }
      rewrite (balance r q Hr Hq) in T.
      destruct (missing (fun a : act V => match a with AIrecv s' => if s' =? r then [tt] else [] | ARecv s' => if s' =? r then [tt] else [] | _ => [] end) (prog q) (st s q)) as (i' & a' & H1 & H2 & H3).
      - fold (recvs_from r (prog q)). fold (recvs_from r (firstn (st s q) (prog q))). lia.
      - exists i', a'. split; [exact H1|]. split; [exact H2|]. destruct a' as [|d'| | |d'|]; try (now destruct H3); destruct (Nat.eqb_spec d' r); try (now destruct H3); subst; auto. }
    destruct a as [k|q|q v|q v|q|]; try discriminate.
    - destruct (irecv_range r i q Hr E) as [Hq _]. destruct (RV q Hq ltac:(auto) D) as (i' & a' & H1 & H2 & v & H3).
      exists q, i'. split; [exact Hq|]. split; [exact H1|]. exists a'. split; [exact H2|]. split; [destruct H3 as [-> | ->]; cbn; lia|]. intros b Eb Lb. rewrite E in Eb. injection Eb as <-. discriminate.
    - apply orb_false_iff in D. destruct D as [_ D]. destruct (isend_range r i q v Hr E) as [Hq _]. destruct (SD q Hq ltac:(eauto) D) as (i' & a' & H1 & H2 & H3).
      exists q, i'. split; [exact Hq|]. split; [exact H1|]. exists a'. split; [exact H2|]. split; [destruct H3 as [-> | ->]; cbn; lia|]. intros b Eb Lb. rewrite E in Eb. injection Eb as <-. discriminate.
    - apply orb_false_iff in D. destruct D as [_ D]. destruct (send_range r i q v Hr E) as [Hq Nw]. destruct (SD q Hq ltac:(eauto) D) as (i' & a' & H1 & H2 & H3).
      exists q, i'. split; [exact Hq|]. split; [exact H1|]. exists a'. split; [exact H2|]. split; [destruct H3 as [-> | ->]; cbn; lia|]. intros _ _ _. destruct H3 as [-> | ->]; [reflexivity|].
      destruct (recv_range q i' r Hq H2) as [_ Ng]. destruct (pure r q Hr Hq); contradiction.
    - destruct (recv_range r i q Hr E) as [Hq Ng]. destruct (RV q Hq ltac:(auto) D) as (i' & a' & H1 & H2 & v & H3).
      exists q, i'. split; [exact Hq|]. split; [exact H1|]. exists a'. split; [exact H2|]. split; [destruct H3 as [-> | ->]; cbn; lia|]. intros _ _ _. destruct H3 as [-> | ->]; [reflexivity|].
      destruct (send_range q i' r v Hq H2) as [_ Nw]. destruct (pure q r Hq Hr); contradiction.
  Qed.
  Lemma no_deadlock l s : run n len rdy l s -> (forall e s', ~ step n len rdy s e s') -> final n len s.
  Proof.
    intros R N. pose proof (run_wf _ _ _ _ _ R) as W. pose proof (stuck_blocked _ _ _ _ W N) as B.
    assert (M : forall L r a, r < n -> nth_error (prog r) (fi s r) = Some a -> lvl a = L -> False).
    { induction L as [L IH] using lt_wf_ind. intros r a Hr E La. destruct (nth_phase r (fi s r) a E) as (Pa & La' & Ca).
      destruct (B r Hr) as [F|(Es & Lt & G)]; [lia|].
      (* somebody who has not started operation i' is blocked at an earlier phase *)
      assert (Block : forall q i' a', q < n -> st s q <= i' -> nth_error (prog q) i' = Some a' -> lvl a' < L -> False).
      { intros q i' a' Hq Hi Ea Ll. destruct (nth_phase q i' a' Ea) as (P' & L' & _). destruct (B q Hq) as [F|(Eq & Ltq & Gq)]; [pose proof (W q); lia|].
        destruct (nth_error (prog q) (fi s q)) as [b|] eqn:Eb; [|apply nth_error_None in Eb; unfold len, co_len in Ltq; fold prog in Ltq; lia].
        destruct (nth_phase q (fi s q) b Eb) as (Pb & _ & _). pose proof (phase_mono q (fi s q) i' ltac:(lia) L'). apply (IH (lvl b) ltac:(lia) q b Hq Eb eq_refl). }
      unfold rdy, comm_ready in G. fold prog in G. rewrite E in G.
      destruct a as [k|q|q v|q v|q|]; try discriminate.
      - assert (Hk : fi s r < 2 /\ k = fi s r).
        { cbn [lvl] in Pa. destruct (lt_dec (fi s r) 2) as [Hi|Hi]; [split; [exact Hi|]; specialize (Ca Hi); now injection Ca|exfalso].
          clear -posts E Hi. rewrite prog_eq in E. apply (f_equal (fun x => x)) in E. rewrite nth_error_app2 in E by (cbn; lia). apply nth_error_In in E. rewrite !in_app_iff in E.
          destruct E as [E|[E|[E|[E|[]]]]]; try discriminate; try (apply in_map_iff in E; destruct E as (? & E & _); discriminate).
          unfold posts in E. apply in_map_iff in E. destruct E as ([|] & E & _); discriminate. }
        destruct Hk as [Hi ->].
        assert (X : exists q, q < n /\ has_coll (fi s r) (firstn (st s q) (prog q)) = false).
        { revert G. generalize (fi s r) as k. clear. intros k G. assert (Y : forall l, forallb (fun q => has_coll k (firstn (st s q) (prog q))) l = false -> exists q, In q l /\ has_coll k (firstn (st s q) (prog q)) = false).
          { induction l as [|a l IHl]; cbn; [discriminate|]. intros H. apply andb_false_iff in H. destruct H as [H|H]; [exists a; auto|]. destruct (IHl H) as (q & Hq & Hc). exists q. auto. }
          destruct (Y _ G) as (q & Hq & Hc). exists q. apply in_seq in Hq. split; [lia|exact Hc]. }
        destruct X as (q & Hq & Hc).
        assert (Sq : st s q <= fi s r).
        { destruct (le_lt_dec (st s q) (fi s r)); [assumption|exfalso]. rewrite prog_eq in Hc. destruct (fi s r) as [|[|]]; [| |lia]; (destruct (st s q) as [|[|]]; [lia| |]); cbn in Hc; try discriminate; lia. }
        destruct (B q Hq) as [F|(Eq & Ltq & Gq)]; [pose proof (W q); rewrite len_eq in F; lia|].
        destruct (nth_error (prog q) (fi s q)) as [b|] eqn:Eb; [|apply nth_error_None in Eb; unfold len, co_len in Ltq; fold prog in Ltq; lia].
        destruct (nth_phase q (fi s q) b Eb) as (_ & _ & Cb). specialize (Cb ltac:(lia)). subst b. apply (IH (fi s q)) with (r := q) (a := AColl (fi s q)); auto. cbn in La. lia.
      - cbn [lvl] in La. destruct (not_done s r (fi s r) _ Hr E G) as (p & i' & Hp & Hi & a' & Ea & _ & L2). apply (Block p i' a' Hp Hi Ea). rewrite (L2 _ E eq_refl). lia.
      - cbn [lvl] in La. destruct (not_done s r (fi s r) _ Hr E G) as (p & i' & Hp & Hi & a' & Ea & _ & L2). apply (Block p i' a' Hp Hi Ea). rewrite (L2 _ E eq_refl). lia.
      - cbn [lvl] in La. assert (X : exists i, i < fi s r /\ request_done Arr Path V slice n arr ops images eager (st s) r i = false).
        { revert G. generalize (fi s r) as k. clear. intros k G. assert (Y : forall l, forallb (request_done Arr Path V slice n arr ops images eager (st s) r) l = false -> exists i, In i l /\ request_done Arr Path V slice n arr ops images eager (st s) r i = false).
          { induction l as [|a l IHl]; cbn; [discriminate|]. intros H. apply andb_false_iff in H. destruct H as [H|H]; [exists a; auto|]. destruct (IHl H) as (q & Hq & Hc). exists q. auto. }
          destruct (Y _ G) as (i & Hq & Hc). exists i. apply in_seq in Hq. split; [lia|exact Hc]. }
        destruct X as (i & Hi & D). destruct (nth_error (prog r) i) as [b|] eqn:Eb; [|apply nth_error_None in Eb; unfold len, co_len in La'; fold prog in La'; lia].
        destruct (not_done s r i b Hr Eb D) as (p & i' & Hp & Hi' & a' & Ea & L3 & _). apply (Block p i' a' Hp Hi' Ea). lia. }
    intros r Hr. destruct (Nat.eq_dec (fi s r) (len r)) as [|NF]; [assumption|exfalso]. pose proof (W r) as Wr.
    destruct (nth_error (prog r) (fi s r)) as [b|] eqn:Eb; [exact (M (lvl b) r b Hr Eb eq_refl)|]. apply nth_error_None in Eb. unfold len, co_len in *. fold prog in Wr, NF. lia.
  Qed.

  (** ** the data when everybody is done *)
  Lemma firstn_le {A} (l : list A) i j : i <= j -> exists m, firstn j l = firstn i l ++ m.
  Proof. intros H. exists (skipn i (firstn j l)). rewrite <- (firstn_skipn i (firstn j l)) at 1. now rewrite firstn_firstn, Nat.min_l by exact H. Qed.
  Lemma message_mono f g r i q v : f q <= g q -> message Arr Path V slice n arr ops images f r i q = Some v -> message Arr Path V slice n arr ops images g r i q = Some v.
  Proof.
    unfold message. fold prog. intros H. destruct (firstn_le (prog q) _ _ H) as [m ->]. rewrite sends_app. intros E. rewrite nth_error_app1; [exact E|]. apply nth_error_Some. congruence.
  Qed.
  Lemma request_mono f g r i : (forall q, f q <= g q) -> request_done Arr Path V slice n arr ops images eager f r i = true -> request_done Arr Path V slice n arr ops images eager g r i = true.
  Proof.
    intros H. unfold request_done. fold prog. assert (Ar : forall q, arrived Arr Path V slice n arr ops images f r i q = true -> arrived Arr Path V slice n arr ops images g r i q = true).
    { intros q. unfold arrived. destruct (message _ _ _ _ _ _ _ _ f r i q) as [v|] eqn:E; [|discriminate]. now rewrite (message_mono f g r i q v (H q) E). }
    assert (Ta : forall q, taken Arr Path V slice n arr ops images f r i q = true -> taken Arr Path V slice n arr ops images g r i q = true).
    { intros q. unfold taken. fold prog. intros E. apply Nat.ltb_lt in E. apply Nat.ltb_lt. destruct (firstn_le (prog q) _ _ (H q)) as [m ->]. rewrite recvs_app, app_length. lia. }
    destruct (nth_error (prog r) i) as [[k|q|q v|q v|q|]|]; auto; rewrite !orb_true_iff; intros [E|E]; auto.
  Qed.
  Lemma ready_mono f g r i : (forall q, f q <= g q) -> rdy f r i = true -> rdy g r i = true.
  Proof.
    intros H. unfold rdy, comm_ready. fold prog. destruct (nth_error (prog r) i) as [[k|q|q v|q v|q|]|]; auto.
    - rewrite !forallb_forall. intros E q Hq. specialize (E q Hq). destruct (firstn_le (prog q) _ _ (H q)) as [m ->]. unfold has_coll in *. now rewrite existsb_app, E.
    - now apply request_mono.
    - now apply request_mono.
    - rewrite !forallb_forall. intros E j Hj. apply (request_mono f g r j H), E, Hj.
  Qed.
  Lemma last_wait r : nth_error (prog r) (len r - 1) = Some AWait.
  Proof.
    rewrite len_eq, prog_eq, !app_assoc. rewrite nth_error_app2; unfold posts; rewrite !app_length, !map_length; cbn [length]; [|lia].
    match goal with |- nth_error _ ?k = _ => replace k with 0 by lia end. reflexivity.
  Qed.
  Lemma message_returned l s r i q a : run n len rdy l s -> fi s r = len r -> r < n -> q < n -> nth_error (prog r) i = Some a -> a = AIrecv q \/ a = ARecv q ->
    message Arr Path V slice n arr ops images (st s) r i q = nth_error (sends_to r (prog q)) (length (recvs_from q (firstn i (prog r)))).
  Proof.
    intros R F Hr Hq E Ea. destruct (nth_phase r i a E) as (Pa & Li & _). assert (Li' : i < len r - 1).
    { destruct (Nat.eq_dec i (len r - 1)) as [->|]; [|lia]. rewrite last_wait in E. injection E as <-. destruct Ea; discriminate. }
    pose proof (run_ready _ _ _ _ _ ready_mono R r (len r - 1) ltac:(rewrite F; lia)) as W. unfold rdy, comm_ready in W. fold prog in W. rewrite last_wait in W.
    rewrite forallb_forall in W. specialize (W i ltac:(apply in_seq; lia)). unfold request_done in W. fold prog in W. rewrite E in W.
    assert (A : arrived Arr Path V slice n arr ops images (st s) r i q = true) by (destruct Ea as [-> | ->]; exact W). unfold arrived in A.
    destruct (message Arr Path V slice n arr ops images (st s) r i q) as [v|] eqn:Em; [|discriminate].
    pose proof (run_wf _ _ _ _ _ R q) as Wf. apply (message_mono _ (fun _ => length (prog q)) r i q v) in Em; [|unfold len, co_len in Wf; fold prog in Wf; lia].
    rewrite <- Em. unfold message. fold prog. now rewrite firstn_all.
  Qed.
  Lemma firstn_posts r i : i <= length (posted ops images r) -> firstn (2 + i) (prog r) = [AColl 0; AColl 1] ++ firstn i (posts r).
  Proof.
    intros H. rewrite prog_eq. cbn [Nat.add app firstn]. rewrite firstn_app. unfold posts at 2. rewrite map_length. replace (i - length (posted ops images r)) with 0 by lia. cbn [firstn]. now rewrite app_nil_r.
  Qed.
  Lemma pulled l s r i li c ix : run n len rdy l s -> fi s r = len r -> r < n -> nth_error (posted ops images r) i = Some (Pull li c ix) ->
    message Arr Path V slice n arr ops images (st s) r (2 + i) c = Some (slice (arr c) ix).
  Proof.
    intros R F Hr E. assert (Hc : c < n) by (apply (posted_range r (Pull li c ix) Hr), (nth_error_In _ _ E)).
    assert (Ep : nth_error (prog r) (2 + i) = Some (AIrecv c)).
    { rewrite prog_eq. cbn [Nat.add app nth_error]. rewrite nth_error_app1 by (unfold posts; rewrite map_length; apply nth_error_Some; congruence). unfold posts.
      now rewrite (map_nth_error _ _ _ E). }
    rewrite (message_returned l s r (2 + i) c _ R F Hr Hc Ep ltac:(now left)), firstn_posts by (apply Nat.lt_le_incl, nth_error_Some; congruence).
    rewrite recvs_app, app_length. cbn [recvs_from flat_map length Nat.add].
    set (w := fun o : cop Path V => match o with Pull _ c' ix => if c' =? c then [ix] else [] | _ => [] end).
    assert (L : length (recvs_from c (firstn i (posts r))) = length (flat_map w (firstn i (posted ops images r)))).
    { unfold posts. rewrite firstn_map. unfold recvs_from. rewrite flat_map_map. induction (firstn i (posted ops images r)) as [|[li' c' ix'|c' ix' v'] m IH]; [reflexivity| |]; cbn.
      - rewrite !app_length. f_equal; [destruct (c' =? c); reflexivity|exact IH].
      - exact IH. }
    rewrite L, sends_prog by exact Hr. assert (T := ticket w _ i (Pull li c ix) ix E ltac:(cbn; now rewrite Nat.eqb_refl)).
    change (flat_map w (posted ops images r)) with (wants r c) in T.
    destruct (pure c r Hc Hr) as [P|P]; [rewrite P in T; apply nth_error_In in T; destruct T|]. rewrite P. cbn [map app length Nat.add]. now apply map_nth_error.
  Qed.
  Definition pushes (r : nat) : list (Path * nat * V) := flat_map (fun q => map (fun p => (fst p, q, snd p)) (gives q r)) (seq 0 n).
  Lemma recvactions_pushes r : recvactions n ops images r = map fst (pushes r).
  Proof. unfold recvactions, pushes. rewrite map_flat_map. apply flat_map_ext. intros q. rewrite recvlist_gives, map_map. reflexivity. Qed.
  Lemma firstn_recvs r k : k <= length (recvactions n ops images r) -> firstn (recv_base Path V n ops images r + k) (prog r) =
    [AColl 0; AColl 1] ++ posts r ++ map (fun p => ASend (snd p) (slice (arr r) (fst p))) (sendactions n ops images r) ++ map (fun p => ARecv (snd p)) (firstn k (recvactions n ops images r)).
  Proof.
    intros H. rewrite prog_eq. unfold recv_base. rewrite !app_assoc. set (pre := (_ ++ _) ++ map _ (sendactions n ops images r)).
    assert (Lp : length pre = 2 + length (posted ops images r) + length (sendactions n ops images r)) by (unfold pre, posts; rewrite !app_length, !map_length; cbn [length]; lia).
    rewrite <- Lp, <- app_assoc, firstn_app_2. f_equal. rewrite firstn_app, map_length. replace (k - _) with 0 by lia. cbn [firstn]. now rewrite app_nil_r, firstn_map.
  Qed.
  Lemma pushed l s r k ix q v : run n len rdy l s -> fi s r = len r -> r < n -> nth_error (pushes r) k = Some (ix, q, v) ->
    message Arr Path V slice n arr ops images (st s) r (recv_base Path V n ops images r + k) q = Some v.
  Proof.
    intros R F Hr E. pose proof (nth_error_In _ _ E) as Hin. unfold pushes in Hin. apply in_flat_map in Hin. destruct Hin as (q' & Hq & Hin). apply in_map_iff in Hin. destruct Hin as ([ix' v'] & E' & Hg).
    cbn in E'. injection E' as -> -> ->. apply in_seq in Hq. assert (Hq' : q < n) by lia.
    assert (Wq : wants r q = []) by (destruct (pure q r Hq' Hr) as [P|P]; [exact P|rewrite P in Hg; destruct Hg]).
    assert (Ek : nth_error (recvactions n ops images r) k = Some (ix, q)) by (rewrite recvactions_pushes; apply (map_nth_error fst _ _ E)).
    assert (Ep : nth_error (prog r) (recv_base Path V n ops images r + k) = Some (ARecv q)).
    { rewrite prog_eq. unfold recv_base. rewrite !app_assoc, <- app_assoc. set (pre := (_ ++ _) ++ map _ (sendactions n ops images r)).
      assert (Lp : length pre = 2 + length (posted ops images r) + length (sendactions n ops images r)) by (unfold pre, posts; rewrite !app_length, !map_length; cbn [length]; lia).
      rewrite <- Lp, nth_error_app2 by lia. replace (length pre + k - length pre) with k by lia. rewrite nth_error_app1 by (rewrite map_length; apply nth_error_Some; congruence).
      now rewrite (map_nth_error _ _ _ Ek). }
    rewrite (message_returned l s r _ q _ R F Hr Hq' Ep ltac:(now right)), firstn_recvs by (rewrite recvactions_pushes, map_length; apply Nat.lt_le_incl, nth_error_Some; congruence).
    rewrite !recvs_app, recvs_posts, Wq, recvs_none_send. cbn [recvs_from flat_map map app].
    rewrite sends_prog, Wq by exact Hr. cbn [map]. rewrite app_nil_r.
    set (w := fun p : Path * nat * V => if snd (fst p) =? q then [snd p] else []).
    assert (E1 : map snd (gives q r) = flat_map w (pushes r)).
    { unfold pushes. rewrite flat_map_flat, (flat_map_one _ _ q); [|apply seq_NoDup|apply in_seq; lia|].
      - rewrite flat_map_map. unfold w. cbn [fst snd]. rewrite Nat.eqb_refl. clear. induction (gives q r) as [|p m IH]; [reflexivity|]. cbn. now rewrite IH.
      - intros a _ Ha. rewrite flat_map_map. apply flat_map_nil. intros p _. unfold w. cbn. destruct (Nat.eqb_spec a q); [contradiction|reflexivity]. }
    assert (E2 : length (recvs_from (V := V) q (map (fun p => ARecv (snd p)) (firstn k (recvactions n ops images r)))) = length (flat_map w (firstn k (pushes r)))).
    { rewrite recvactions_pushes, firstn_map, map_map. unfold recvs_from. rewrite flat_map_map. clear. induction (firstn k (pushes r)) as [|p m IH]; [reflexivity|]. cbn. rewrite !app_length.
      f_equal; [unfold w; destruct (snd (fst p) =? q); reflexivity|exact IH]. }
    rewrite E1, E2. apply (ticket w _ k (ix, q, v) v E). unfold w. cbn. now rewrite Nat.eqb_refl.
  Qed.
  Lemma fold_indexed {A B} (f : option A -> nat * B -> option A) (g : A -> B -> A) (m : list B) : forall k a,
    (forall i b a, nth_error m i = Some b -> f (Some a) (k + i, b) = Some (g a b)) -> fold_left f (combine (seq k (length m)) m) (Some a) = Some (fold_left g m a).
  Proof.
    induction m as [|b m IH]; intros k a H; [reflexivity|]. cbn [length seq combine fold_left]. pose proof (H 0 b a eq_refl) as H0. rewrite Nat.add_0_r in H0. rewrite H0. apply IH.
    intros i b' a' E. rewrite <- (H (S i) b' a' E). do 2 f_equal. lia.
  Qed.
  Lemma stored l s r : run n len rdy l s -> fi s r = len r -> r < n ->
    stored_pushes Arr Path V slice store n arr ops images (st s) r = Some (fold_left (fun a p => store a (fst (fst p)) (snd p)) (pushes r) (arr r)).
  Proof.
    intros R F Hr. unfold stored_pushes. rewrite recvactions_pushes, map_length.
    assert (G : forall (f : option Arr -> nat * (Path * nat) -> option Arr) m k o, fold_left f (combine (seq k (length m)) (map fst m)) o = fold_left (fun o p => f o (fst p, fst (snd p))) (combine (seq k (length m)) m) (A := option Arr) (B := nat * (Path * nat * V)) o).
    { intros f m. induction m as [|b m IH]; intros k o; [reflexivity|]. cbn. apply IH. }
    rewrite G. apply (fold_indexed _ (fun a p => store a (fst (fst p)) (snd p))). intros i [[ix q] v] a E. cbn [fst snd Nat.add]. now rewrite (pushed l s r i ix q v R F Hr E).
  Qed.
  Lemma synced l s r : run n len rdy l s -> fi s r = len r -> r < n ->
    after_sync Arr Path V slice store n arr ops images (st s) r =
    Some (fold_left (fun a o => match o with Pull li c ix => store a li (slice (arr c) ix) | Push _ _ _ => a end) (posted ops images r)
            (fold_left (fun a p => store a (fst (fst p)) (snd p)) (pushes r) (arr r))).
  Proof.
    intros R F Hr. unfold after_sync. rewrite (stored l s r R F Hr).
    apply (fold_indexed _ (fun a o => match o with Pull li c ix => store a li (slice (arr c) ix) | Push _ _ _ => a end)).
    intros i [li c ix|c ix v] a E; cbn [fst snd]; [|reflexivity]. change (0 + i) with i. now rewrite (pulled l s r i li c ix R F Hr E).
  Qed.
End Proofs.

(** ** the statements *)
(** the operations of rank r that take part in this sync *)
Definition asked {Path V} (ops : nat -> list (cop Path V)) (images : nat -> list nat) (r : nat) (o : cop Path V) : Prop := In o (ops r) /\ In (coindex o) (images r).
(** the target of every operation exists, and no process s sends data to d both because
    d pulls from s and because s pushes to d *)
Definition sound {Path V} (n : nat) (ops : nat -> list (cop Path V)) (images : nat -> list nat) : Prop :=
  (forall r o, r < n -> In o (ops r) -> coindex o < n) /\
  (forall s d li ix ix' v, s < n -> d < n -> asked ops images d (Pull li s ix) -> asked ops images s (Push d ix' v) -> False).
Lemma in_posted {Path V} (ops : nat -> list (cop Path V)) images r o : In o (posted ops images r) <-> asked ops images r o.
Proof.
  unfold posted, asked. rewrite filter_In, existsb_exists. split.
  - intros (H & x & Hx & E). apply Nat.eqb_eq in E. rewrite E. auto.
  - intros (H & Hx). split; [exact H|]. exists (coindex o). split; [exact Hx|apply Nat.eqb_refl].
Qed.
Lemma sound_pure {Path V} n (ops : nat -> list (cop Path V)) images : sound n ops images -> forall s d, s < n -> d < n -> wants ops images d s = [] \/ gives ops images s d = [].
Proof.
  intros (_ & P) s d Hs Hd. destruct (wants ops images d s) as [|w ws] eqn:E; [now left|right]. destruct (gives ops images s d) as [|g gs] eqn:E'; [reflexivity|exfalso].
  assert (H1 : In w (wants ops images d s)) by (rewrite E; now left). assert (H2 : In g (gives ops images s d)) by (rewrite E'; now left).
  unfold wants in H1. apply in_flat_map in H1. destruct H1 as ([li c ix|c ix v] & H1 & H1'); [|destruct H1']. destruct (Nat.eqb_spec c s); [subst|destruct H1'].
  unfold gives in H2. apply in_flat_map in H2. destruct H2 as ([li' c ix'|c ix' v] & H2 & H2'); [destruct H2'|]. destruct (Nat.eqb_spec c d); [subst|destruct H2'].
  rewrite in_posted in H1, H2. exact (P s d _ _ _ _ Hs Hd H1 H2).
Qed.

(** Whatever the processes do first, and whether or not MPI buffers the messages: sync returns everywhere. *)
Theorem C56_no_deadlock {Arr Path V} (slice : Arr -> Path -> V) n arr (ops : nat -> list (cop Path V)) images eager : sound n ops images ->
  (exists bound, forall l s, co_run Arr Path V slice n arr ops images eager l s -> length l <= bound) /\
  (forall l s, co_run Arr Path V slice n arr ops images eager l s -> exists l' s', co_run Arr Path V slice n arr ops images eager (l ++ l') s' /\ co_final Arr Path V slice n arr ops images s').
Proof.
  intros Sd. split; [eexists; intros l s; apply run_bounded|]. apply run_complete. intros l s R N.
  apply (no_deadlock slice n arr ops images eager (proj1 Sd) (sound_pure n ops images Sd) l s R N).
Qed.
Print Assumptions C56_no_deadlock.

(** As soon as it has returned on rank r, the array of rank r holds first the values that rank 0, rank 1, ... pushed to it,
    then the slices of the arrays before the sync that it pulled, everything in the order of the calls. *)
Theorem C56_values {Arr Path V} (slice : Arr -> Path -> V) (store : Arr -> Path -> V -> Arr) n arr (ops : nat -> list (cop Path V)) images eager l s r : sound n ops images ->
  co_run Arr Path V slice n arr ops images eager l s -> r < n -> fi s r = co_len Arr Path V slice n arr ops images r ->
  after_sync Arr Path V slice store n arr ops images (st s) r =
  Some (let now q o := if in_dec Nat.eq_dec (coindex o) (images q) then true else false in
        let received := fold_left (fun a q => fold_left (fun a o => match o with Push c ix v => if now q o && (c =? r) then store a ix v else a | Pull _ _ _ => a end) (ops q) a) (seq 0 n) (arr r) in
        fold_left (fun a o => match o with Pull li c ix => if now r o then store a li (slice (arr c) ix) else a | Push _ _ _ => a end) (ops r) received).
Proof.
  intros Sd R Hr F. rewrite (synced slice store n arr ops images eager (proj1 Sd) (sound_pure n ops images Sd) l s r R F Hr). f_equal. cbv zeta.
  assert (D : forall q (o : cop Path V), existsb (Nat.eqb (coindex o)) (images q) = (if in_dec Nat.eq_dec (coindex o) (images q) then true else false)).
  { intros q o. destruct (in_dec Nat.eq_dec (coindex o) (images q)) as [H|H].
    - apply existsb_exists. exists (coindex o). split; [exact H|apply Nat.eqb_refl].
    - destruct (existsb _ _) eqn:E; [|reflexivity]. apply existsb_exists in E. destruct E as (x & Hx & E). apply Nat.eqb_eq in E. subst x. contradiction. }
  assert (P : fold_left (fun a p => store a (fst (fst p)) (snd p)) (pushes n ops images r) (arr r) =
    fold_left (fun a q => fold_left (fun a o => match o with Push c ix v => if (if in_dec Nat.eq_dec (coindex o) (images q) then true else false) && (c =? r) then store a ix v else a | Pull _ _ _ => a end) (ops q) a) (seq 0 n) (arr r)).
  { unfold pushes. generalize (arr r) as a. induction (seq 0 n) as [|q m IH]; intros a; [reflexivity|]. cbn [flat_map fold_left]. rewrite fold_left_app, IH. f_equal. clear IH.
    unfold gives, posted. revert a. induction (ops q) as [|o os IH]; intros a; [reflexivity|]. cbn [filter fold_left]. rewrite D.
    destruct (in_dec Nat.eq_dec (coindex o) (images q)) as [H|H].
    - cbn [flat_map]. rewrite map_app, fold_left_app, IH. f_equal. destruct o as [li c ix|c ix v]; [reflexivity|]. cbn [andb]. destruct (c =? r); reflexivity.
    - rewrite IH. f_equal. destruct o; reflexivity. }
  rewrite P. generalize (fold_left (fun a q => fold_left (fun a o => match o with Push c ix v => if (if in_dec Nat.eq_dec (coindex o) (images q) then true else false) && (c =? r) then store a ix v else a | Pull _ _ _ => a end) (ops q) a) (seq 0 n) (arr r)) as a.
  unfold posted. induction (ops r) as [|o os IH]; intros a; [reflexivity|]. cbn [filter fold_left]. rewrite D.
  destruct (in_dec Nat.eq_dec (coindex o) (images r)) as [H|H]; [cbn [fold_left]; rewrite IH; destruct o; reflexivity|]. rewrite IH. destruct o; reflexivity.
Qed.
Print Assumptions C56_values.

(** The operations for other images, and only those, are left for a later sync. *)
Theorem C56_left_over {Path V} (ops : nat -> list (cop Path V)) images r :
  (forall o, In o (left_over Path V ops images r) <-> In o (ops r) /\ ~ In (coindex o) (images r)) /\
  (incl (map coindex (ops r)) (images r) -> left_over Path V ops images r = []) /\
  ((forall o, In o (ops r) -> ~ In (coindex o) (images r)) -> left_over Path V ops images r = ops r).
Proof.
  assert (A : forall o, In o (left_over Path V ops images r) <-> In o (ops r) /\ ~ In (coindex o) (images r)).
  { intros o. unfold left_over. rewrite filter_In, negb_true_iff. split; intros (H & E); split; auto.
    - intros Hi. rewrite <- not_true_iff_false in E. apply E. apply existsb_exists. exists (coindex o). split; [exact Hi|apply Nat.eqb_refl].
    - apply not_true_iff_false. intros Hx. apply existsb_exists in Hx. destruct Hx as (x & Hx & Ex). apply Nat.eqb_eq in Ex. subst x. contradiction. }
  split; [exact A|]. split.
  - intros I. destruct (left_over Path V ops images r) as [|o l] eqn:E; [reflexivity|]. assert (H : In o (o :: l)) by now left. apply A in H.
    destruct H as [H1 H2]. exfalso. apply H2, I, in_map, H1.
  - clear A. unfold left_over. induction (ops r) as [|o l IH]; intros H; [reflexivity|]. cbn. destruct (existsb (Nat.eqb (coindex o)) (images r)) eqn:E.
    + exfalso. apply existsb_exists in E. destruct E as (x & Hx & Ex). apply Nat.eqb_eq in Ex. subst x. apply (H o (or_introl eq_refl) Hx).
    + cbn. f_equal. apply IH. intros o' Ho. apply H. now right.
Qed.
Print Assumptions C56_left_over.

(** ** examples *)
Definition put (a : list nat) (i v : nat) : list nat := firstn i a ++ v :: skipn (S i) a.
Definition get (a : list nat) (i : nat) : nat := nth i a 0.
Definition ex_arr (r : nat) : list nat := [10 * r + 1; 10 * r + 2; 10 * r + 3].
Definition co_play (n : nat) (ops : nat -> list (cop nat nat)) (order : list nat) : option (list event * state) :=
  play n (co_len (list nat) nat nat get n ex_arr ops (fun _ => seq 0 n)) (comm_ready (list nat) nat nat get n ex_arr ops (fun _ => seq 0 n) (fun _ _ => false)) order [] init.
Lemma co_played n ops order : match co_play n ops order with
  | Some (l, s) => co_run (list nat) nat nat get n ex_arr ops (fun _ => seq 0 n) (fun _ _ => false) l s
  | None => True end.
Proof. destruct (co_play n ops order) as [[l s]|] eqn:E; [|exact I]. apply (play_run _ _ _ order [] init l s (run_nil _ _ _) E). Qed.
Lemma final_check n (len : nat -> nat) s : forallb (fun r => fi s r =? len r) (seq 0 n) = true -> final n len s.
Proof. intros H r Hr. rewrite forallb_forall in H. apply Nat.eqb_eq, H, in_seq. lia. Qed.

(** rank 0 pulls twice from 1 and once from itself, rank 1 pushes to rank 2, rank 2 pulls from 0; MPI does not buffer *)
Definition ex_ops (r : nat) : list (cop nat nat) :=
  match r with 0 => [Pull 0 1 2; Pull 1 0 2; Pull 2 1 0] | 1 => [Push 2 0 77; Push 2 1 78] | 2 => [Pull 2 0 1] | _ => [] end.
Definition ex_order : list nat :=
  [0; 1; 2; 0; 0; 1; 1; 2; 2; 0; 0; 0; 0; 0; 0; 0; 0; 0; 0; 1; 1; 1; 1; 1; 1; 1; 1; 1; 1; 2; 2; 0; 0; 0; 2; 2; 2; 2; 1; 2; 2; 2].
Example C56_case : sound 3 ex_ops (fun _ => seq 0 3) /\
  exists l s, co_run (list nat) nat nat get 3 ex_arr ex_ops (fun _ => seq 0 3) (fun _ _ => false) l s /\ co_final (list nat) nat nat get 3 ex_arr ex_ops (fun _ => seq 0 3) s /\
    map (after_sync (list nat) nat nat get put 3 ex_arr ex_ops (fun _ => seq 0 3) (st s)) [0; 1; 2] = [Some [13; 3; 11]; Some [11; 12; 13]; Some [77; 78; 2]].
Proof.
  split.
  - split.
    + intros [|[|[|r]]] o Hr Ho; cbn in Ho; intuition (subst; cbn; lia).
    + intros s d li ix ix' v Hs Hd (H1 & _) (H2 & _). destruct s as [|[|[|s]]], d as [|[|[|d]]]; cbn in H1, H2; try lia; intuition congruence.
  - pose proof (co_played 3 ex_ops ex_order) as R. destruct (co_play 3 ex_ops ex_order) as [[l s]|] eqn:E; [|vm_compute in E; discriminate].
    exists l, s. split; [exact R|]. vm_compute in E. injection E as <- <-. split; [apply final_check; vm_compute; reflexivity|vm_compute; reflexivity].
Qed.

(** The condition of C56 is needed: rank 0 pushes 7 to the item 1 of rank 1, rank 1 pulls the item 2
    of rank 0 (it is 3) to its item 0, and the two values get swapped. *)
Definition mixed_ops (r : nat) : list (cop nat nat) := match r with 0 => [Push 1 1 7] | 1 => [Pull 0 0 2] | _ => [] end.
Theorem C56_mixed_refuted : (forall r o, r < 2 -> In o (mixed_ops r) -> coindex o < 2) /\ get (ex_arr 0) 2 = 3 /\
  exists l s, co_run (list nat) nat nat get 2 ex_arr mixed_ops (fun _ => seq 0 2) (fun _ _ => false) l s /\ co_final (list nat) nat nat get 2 ex_arr mixed_ops (fun _ => seq 0 2) s /\
    after_sync (list nat) nat nat get put 2 ex_arr mixed_ops (fun _ => seq 0 2) (st s) 1 = Some [7; 3; 13].
Proof.
  split; [intros [|[|r]] o Hr Ho; cbn in Ho; intuition (subst; cbn; lia)|]. split; [reflexivity|].
  set (order := [0; 1; 0; 0; 1; 1; 0; 0; 0; 0; 1; 1; 1; 1; 0; 0; 0; 1; 1; 1]).
  pose proof (co_played 2 mixed_ops order) as R. destruct (co_play 2 mixed_ops order) as [[l s]|] eqn:E; [|vm_compute in E; discriminate].
  exists l, s. split; [exact R|]. vm_compute in E. injection E as <- <-. split; [apply final_check; vm_compute; reflexivity|vm_compute; reflexivity].
Qed.
Print Assumptions C56_mixed_refuted.

(** If both ranks pull and push, sync does not return when MPI does not buffer the messages. *)
Definition crossed_ops (r : nat) : list (cop nat nat) := match r with 0 => [Pull 0 1 0; Push 1 1 7] | 1 => [Pull 0 0 2; Push 0 1 8] | _ => [] end.
Theorem C56_crossed_refuted : (forall r o, r < 2 -> In o (crossed_ops r) -> coindex o < 2) /\
  exists l s, co_run (list nat) nat nat get 2 ex_arr crossed_ops (fun _ => seq 0 2) (fun _ _ => false) l s /\ ~ co_final (list nat) nat nat get 2 ex_arr crossed_ops (fun _ => seq 0 2) s /\
    forall e s', ~ step 2 (co_len (list nat) nat nat get 2 ex_arr crossed_ops (fun _ => seq 0 2)) (comm_ready (list nat) nat nat get 2 ex_arr crossed_ops (fun _ => seq 0 2) (fun _ _ => false)) s e s'.
Proof.
  split; [intros [|[|r]] o Hr Ho; cbn in Ho; intuition (subst; cbn; lia)|].
  set (order := [0; 1; 0; 0; 1; 1; 0; 0; 0; 0; 0; 0; 1; 1; 1; 1; 1; 1]).
  pose proof (co_played 2 crossed_ops order) as R. destruct (co_play 2 crossed_ops order) as [[l s]|] eqn:E; [|vm_compute in E; discriminate].
  exists l, s. split; [exact R|]. pose proof (run_wf _ _ _ _ _ R) as W. clear R. vm_compute in E. injection E as <- <-. split.
  - intros F. specialize (F 0 ltac:(lia)). vm_compute in F. discriminate.
  - apply (stuck_moves _ _ _ _ W). vm_compute. reflexivity.
Qed.
Print Assumptions C56_crossed_refuted.
