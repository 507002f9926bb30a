(** C55: with Rotator the bodies run one after the other. *)
From Coq Require Import List Arith Lia Bool Sorting.Sorted.
From Verif Require Import Base ListFacts SchedModel ToolsModel.
Import ListNotations.

(** ** sorted lists with the same elements *)
Lemma sorted_unique {T} (lt : T -> T -> Prop) : (forall x, ~ lt x x) -> (forall x y, lt x y -> ~ lt y x) ->
  forall l m, StronglySorted lt l -> StronglySorted lt m -> (forall x, In x l <-> In x m) -> l = m.
Proof.
  intros Irr Asym. induction l as [|a l IH]; intros [|b m] Sl Sm H; [reflexivity|exfalso; apply (H b); now left|exfalso; apply (H a); now left|].
  inversion Sl as [|? ? Sl' Fl]; subst. inversion Sm as [|? ? Sm' Fm]; subst. rewrite Forall_forall in Fl, Fm.
  assert (E : a = b).
  { destruct (proj1 (H a) (or_introl eq_refl)) as [<-|Ha]; [reflexivity|]. destruct (proj2 (H b) (or_introl eq_refl)) as [->|Hb]; [reflexivity|].
    destruct (Asym a b (Fl b Hb) (Fm a Ha)). }
  subst b. f_equal. apply IH; auto. intros x. split; intros Hx.
  - destruct (proj1 (H x) (or_intror Hx)) as [<-|]; [destruct (Irr a (Fl a Hx))|assumption].
  - destruct (proj2 (H x) (or_intror Hx)) as [<-|]; [destruct (Irr a (Fm a Hx))|assumption].
Qed.
Lemma sorted_app {T} (lt : T -> T -> Prop) l m : StronglySorted lt l -> StronglySorted lt m -> (forall x y, In x l -> In y m -> lt x y) -> StronglySorted lt (l ++ m).
Proof.
  intros Sl Sm H. induction Sl as [|a l Sl IH F]; [exact Sm|]. cbn. constructor; [apply IH; intros; apply H; auto; now right|].
  rewrite Forall_forall in *. intros x Hx. apply in_app_iff in Hx. destruct Hx; [now apply F|apply H; [now left|assumption]].
Qed.
Lemma sorted_flat_map {T U} (lt : U -> U -> Prop) (f : T -> list U) (l : list T) (ltT : T -> T -> Prop) : StronglySorted ltT l ->
  (forall t, In t l -> StronglySorted lt (f t)) -> (forall t u x y, In t l -> In u l -> ltT t u -> In x (f t) -> In y (f u) -> lt x y) -> StronglySorted lt (flat_map f l).
Proof.
  induction 1 as [|a l Sl IH F]; intros H1 H2; cbn; [constructor|]. rewrite Forall_forall in F. apply sorted_app.
  - apply H1. now left.
  - apply IH; [intros; apply H1; now right|]. intros t u x y Ht Hu. apply H2; now right.
  - intros x y Hx Hy. apply in_flat_map in Hy. destruct Hy as (u & Hu & Hy). apply (H2 a u); auto; [now left|now right].
Qed.
Lemma seq_sorted a k : StronglySorted lt (seq a k).
Proof.
  revert a. induction k as [|k IH]; intros a; cbn; constructor; [apply IH|]. rewrite Forall_forall. intros x Hx. apply in_seq in Hx. lia.
Qed.

(** ** positions in the program *)
Lemma bars_app l m : bars (l ++ m) = bars l + bars m.
Proof. unfold bars. now rewrite filter_app, app_length. Qed.
Lemma bars_repeat k : bars (repeat Bar k) = k.
Proof. induction k as [|k IH]; [reflexivity|]. cbn in *. unfold bars in *. cbn. now rewrite IH. Qed.
Lemma bars_work j l : bars (map (Work j) l) = 0.
Proof. induction l as [|k l IH]; [reflexivity|]. exact IH. Qed.
Lemma bars_firstn_mono l a b : a <= b -> bars (firstn a l) <= bars (firstn b l).
Proof.
  intros H. rewrite <- (firstn_skipn a (firstn b l)), firstn_firstn, Nat.min_l, bars_app by exact H. lia.
Qed.
Lemma bars_firstn_le l a : bars (firstn a l) <= bars l.
Proof. rewrite <- (firstn_skipn a l) at 2. rewrite bars_app. lia. Qed.
Lemma firstn_S {T} (l : list T) i o : nth_error l i = Some o -> firstn (S i) l = firstn i l ++ [o].
Proof. revert i. induction l as [|a l IH]; intros [|i] H; cbn in *; try discriminate; [now injection H as ->|]. now rewrite IH. Qed.

Section Rotator.
  Variables (n : nat) (w : nat -> nat -> nat) (K : nat).
  Let prog := rot_prog n w K.
  Let off (j r : nat) : nat := length (rot_prog n w j r).
  Lemma prog_S k r : rot_prog n w (S k) r = rot_prog n w k r ++ rot_block n r k (w k r).
  Proof. unfold rot_prog. rewrite seq_S, flat_map_app. cbn [flat_map Nat.add]. now rewrite app_nil_r. Qed.
  Lemma block_bars r j v : r < n -> bars (rot_block n r j v) = n + 2.
  Proof.
    intros H. unfold rot_block, rot_enter, rot_exit. change (Bar :: repeat Bar r) with (repeat Bar (S r)). change [Bar] with (repeat Bar 1).
    rewrite !bars_app, !bars_repeat, bars_work. lia.
  Qed.
  Lemma prog_bars k r : r < n -> bars (rot_prog n w k r) = k * (n + 2).
  Proof. intros H. induction k as [|k IH]; [reflexivity|]. rewrite prog_S, bars_app, IH, block_bars by exact H. lia. Qed.
  Lemma block_nth r j v i b k : nth_error (rot_block n r j v) i = Some (Work b k) <-> b = j /\ k < v /\ i = S r + k.
  Proof.
    unfold rot_block, rot_enter, rot_exit. change (Bar :: repeat Bar r) with (repeat Bar (S r)).
    assert (R : forall m i, nth_error (repeat Bar m) i <> Some (Work b k)).
    { intros m i' E. apply nth_error_In, repeat_spec in E. discriminate. }
    destruct (lt_dec i (S r)) as [H|H].
    - rewrite nth_error_app1 by (rewrite repeat_length; lia). split; [intros E; destruct (R _ _ E)|lia].
    - rewrite nth_error_app2 by (rewrite repeat_length; lia). rewrite repeat_length. destruct (lt_dec (i - S r) v) as [Hv|Hv].
      + rewrite nth_error_app1 by (rewrite map_length, seq_length; lia). rewrite nth_error_map.
        rewrite (nth_error_nth' _ 0) by (rewrite seq_length; lia). rewrite seq_nth by lia. cbn [option_map Nat.add]. split; [intros E; injection E as <- <-; lia|].
        intros (-> & Hk & ->). do 2 f_equal. lia.
      + rewrite nth_error_app2 by (rewrite map_length, seq_length; lia). split; [|lia]. intros E.
        apply nth_error_In in E. apply in_app_iff in E. destruct E as [E|[E|[]]]; [apply repeat_spec in E; discriminate|discriminate].
  Qed.
  Lemma prog_nth k r i j m : nth_error (rot_prog n w k r) i = Some (Work j m) <-> j < k /\ m < w j r /\ i = off j r + S r + m.
  Proof.
    revert i. induction k as [|k IH]; intros i; [cbn; destruct i; split; (discriminate || lia)|]. rewrite prog_S. fold (off k r).
    destruct (lt_dec i (off k r)) as [H|H].
    - rewrite nth_error_app1 by exact H. rewrite IH. split; [lia|]. intros (H1 & H2 & H3). destruct (Nat.eq_dec j k) as [->|]; [lia|]. repeat split; auto. lia.
    - rewrite nth_error_app2 by (fold (off k r); lia). fold (off k r). rewrite block_nth. split.
      + intros (-> & H1 & H2). repeat split; auto; lia.
      + intros (H1 & H2 & H3). destruct (Nat.eq_dec j k) as [->|]; [repeat split; auto; lia|]. exfalso. assert (Hjk : j < k) by lia.
        assert (B : nth_error (rot_prog n w k r) i = Some (Work j m)) by (apply IH; auto).
        apply H. unfold off. apply nth_error_Some. congruence.
  Qed.
  Lemma off_mono j j' r m : j < j' -> m < w j r -> off j r + S r + m < off j' r.
  Proof.
    intros H Hm. apply nth_error_Some. assert (E : nth_error (rot_prog n w j' r) (off j r + S r + m) = Some (Work j m)) by (apply prog_nth; auto). congruence.
  Qed.
  Lemma off_le j r : j <= K -> exists t, prog r = rot_prog n w j r ++ t.
  Proof.
    unfold prog. intros H. induction H as [|k H IH]; [exists []; now rewrite app_nil_r|]. destruct IH as [t IH]. exists (t ++ rot_block n r k (w k r)).
    now rewrite prog_S, IH, app_assoc.
  Qed.
  Lemma work_bars r i j m : r < n -> nth_error (prog r) i = Some (Work j m) -> bars (firstn i (prog r)) = j * (n + 2) + S r.
  Proof.
    intros Hr E. pose proof (proj1 (prog_nth K r i j m) E) as (Hj & Hm & Hi). destruct (off_le (S j) r ltac:(lia)) as [t Et]. rewrite prog_S in Et.
    rewrite Et. unfold off in Hi. rewrite <- app_assoc, firstn_app. rewrite (firstn_all2 (rot_prog n w j r)) by lia. rewrite bars_app, prog_bars by exact Hr. f_equal.
    replace (i - length (rot_prog n w j r)) with (S r + m) by lia.
    unfold rot_block, rot_enter. change (Bar :: repeat Bar r) with (repeat Bar (S r)). rewrite <- !app_assoc, firstn_app, (firstn_all2 (repeat Bar (S r))) by (rewrite repeat_length; lia).
    rewrite repeat_length, bars_app, bars_repeat. replace (S r + m - S r) with m by lia.
    rewrite firstn_app, map_length, seq_length. replace (m - w j r) with 0 by lia. rewrite firstn_O, app_nil_r.
    assert (B0 : bars (firstn m (map (Work j) (seq 0 (w j r)))) = 0) by (rewrite firstn_map; apply bars_work). lia.
  Qed.

  (** ** the run *)
  Let len (r : nat) := length (prog r).
  Let rdy := barrier_ready n prog.
  Lemma run_bars l s : run n len rdy l s -> forall r q, r < n -> q < n -> bars (firstn (fi s r) (prog r)) <= bars (firstn (st s q) (prog q)).
  Proof.
    induction 1 as [|l s e s' R IH T]; intros r q Hr Hq; [cbn; lia|]. pose proof (run_wf _ _ _ _ _ R) as W. destruct T as [p Hp E L|p Hp E G]; cbn [st fi].
    - specialize (IH r q Hr Hq). destruct (upd_cases (st s) p (S (st s p)) q) as [[-> ->]|[-> H]]; [|exact IH]. etransitivity; [exact IH|]. apply bars_firstn_mono. lia.
    - destruct (upd_cases (fi s) p (S (fi s p)) r) as [[-> ->]|[-> H]]; [|now apply IH]. unfold rdy, barrier_ready in G.
      destruct (nth_error (prog p) (fi s p)) as [[|j m]|] eqn:En.
      + rewrite forallb_forall in G. apply Nat.leb_le. apply G. apply in_seq. lia.
      + rewrite (firstn_S _ _ _ En), bars_app. change (bars [Work j m]) with 0. specialize (IH p q Hp Hq). lia.
      + apply nth_error_None in En. pose proof (W p) as Wp. unfold len in Wp. lia.
  Qed.
  Theorem rot_progress l s : run n len rdy l s -> (forall e s', ~ step n len rdy s e s') -> final n len s.
  Proof.
    intros R N r Hr. pose proof (run_wf _ _ _ _ _ R) as W. pose proof (stuck_blocked _ _ _ _ W N) as B.
    (* a process with the fewest barriers among those that are not finished *)
    assert (M : forall m q, q < n -> fi s q <> len q -> bars (firstn (st s q) (prog q)) <= m -> False).
    { induction m as [m IH] using lt_wf_ind. intros q Hq NF Hm. destruct (B q Hq) as [F|(E & L & G)]; [contradiction|].
      unfold rdy, barrier_ready in G. destruct (nth_error (prog q) (fi s q)) as [[|j k]|] eqn:En; [|discriminate|discriminate].
      assert (X : exists p, p < n /\ bars (firstn (st s p) (prog p)) < bars (firstn (S (fi s q)) (prog q))).
      { clear -G. revert G. generalize (bars (firstn (S (fi s q)) (prog q))) as c. intros c G. destruct (forallb _ _) eqn:F in G; [discriminate|]. clear G.
        assert (Y : forall l, forallb (fun q => c <=? bars (firstn (st s q) (prog q))) l = false -> exists p, In p l /\ bars (firstn (st s p) (prog p)) < c).
        { induction l as [|a l IHl]; cbn; [discriminate|]. intros H. apply andb_false_iff in H. destruct H as [H|H]; [exists a; split; [now left|]; apply Nat.leb_gt in H; exact H|].
          destruct (IHl H) as (p & Hp & Hlt). exists p. auto. }
        destruct (Y _ F) as (p & Hp & Hlt). exists p. apply in_seq in Hp. split; [lia|exact Hlt]. }
      destruct X as (p & Hp & Hlt). rewrite <- E in Hlt.
      destruct (Nat.eq_dec (fi s p) (len p)) as [F|F].
      - pose proof (W p) as Wp. assert (Ep : st s p = len p) by lia. rewrite Ep in Hlt. unfold len in Hlt. rewrite firstn_all in Hlt.
        pose proof (bars_firstn_le (prog q) (st s q)) as Le. unfold prog in Le, Hlt. rewrite !prog_bars in * by assumption. lia.
      - apply (IH (bars (firstn (st s p) (prog p))) ltac:(lia) p Hp F). lia. }
    destruct (Nat.eq_dec (fi s r) (len r)) as [|NF]; [assumption|]. exfalso. exact (M _ r Hr NF (le_n _)).
  Qed.

  (** what can be observed of the bodies: (rank, block, item, false at the start / true at the end) *)
  Definition obs (l : list event) : list (nat * nat * nat * bool) :=
    flat_map (fun e => match nth_error (prog (rank e)) (opno e) with Some (Work j k) => [(rank e, j, k, ends e)] | _ => [] end) l.
  Definition serial : list (nat * nat * nat * bool) :=
    flat_map (fun j => flat_map (fun r => flat_map (fun k => [(r, j, k, false); (r, j, k, true)]) (seq 0 (w j r))) (seq 0 n)) (seq 0 K).
  Definition olt (x y : nat * nat * nat * bool) : Prop :=
    let '(r, j, k, b) := x in let '(r', j', k', b') := y in
    j < j' \/ j = j' /\ (r < r' \/ r = r' /\ (k < k' \/ k = k' /\ b = false /\ b' = true)).
  Lemma in_obs l r j k b : In (r, j, k, b) (obs l) <-> exists i, In (mkE r i b) l /\ nth_error (prog r) i = Some (Work j k).
  Proof.
    unfold obs. rewrite in_flat_map. split.
    - intros ([r' i b'] & He & H). cbn [rank opno ends] in H. destruct (nth_error (prog r') i) as [[|j' k']|] eqn:E; cbn in H; try tauto. destruct H as [H|[]].
      injection H as <- <- <- <-. exists i. auto.
    - intros (i & He & E). exists (mkE r i b). split; [exact He|]. cbn [rank opno ends]. rewrite E. now left.
  Qed.
  Lemma obs_sorted l s : run n len rdy l s -> StronglySorted olt (obs l).
  Proof.
    induction 1 as [|l s e s' R IH T]; [constructor|]. unfold obs. rewrite flat_map_app. fold (obs l). cbn [flat_map]. rewrite app_nil_r.
    destruct (nth_error (prog (rank e)) (opno e)) as [[|j k]|] eqn:E; [now rewrite app_nil_r| |now rewrite app_nil_r].
    apply sorted_app; [exact IH|repeat constructor|]. intros [[[q j'] k'] b'] y Hx [<-|[]]. apply in_obs in Hx. destruct Hx as (i' & Hin & E').
    apply (run_events _ _ _ _ _ R) in Hin. destruct Hin as [Hq Hi']. pose proof (run_wf _ _ _ _ _ R) as W. pose proof (W q) as Wq.
    pose proof (proj1 (prog_nth K q i' j' k') E') as (Hj' & Hk' & Pi').
    assert (Er : rank e < n) by (destruct T; assumption).
    pose proof (proj1 (prog_nth K (rank e) (opno e) j k) E) as (Hj & Hk & Pi).
    destruct (Nat.eq_dec q (rank e)) as [->|NE].
    - (* the same process *)
      assert (C : i' < opno e \/ i' = opno e /\ b' = false /\ ends e = true).
      { destruct T as [r Hr Ef L|r Hr Ef G]; cbn [rank opno ends] in *; destruct b'; lia. }
      unfold olt. destruct C as [C|(C & -> & ->)].
      + destruct (lt_eq_lt_dec j' j) as [[H|H]|H]; [now left| |pose proof (off_mono j j' (rank e) k H Hk); lia].
        subst j'. right. split; [reflexivity|]. right. split; [reflexivity|]. left. lia.
      + destruct (lt_eq_lt_dec j' j) as [[H|H]|H]; [pose proof (off_mono j' j (rank e) k' H Hk'); lia| |pose proof (off_mono j j' (rank e) k H Hk); lia].
        subst j'. right. split; [reflexivity|]. right. split; [reflexivity|]. right. repeat split; auto. lia.
    - (* another process *)
      assert (B1 : bars (firstn i' (prog q)) <= bars (firstn (fi s q) (prog q))) by (apply bars_firstn_mono; destruct b'; lia).
      pose proof (run_bars l s R q (rank e) Hq Er) as B2.
      assert (B3 : bars (firstn (st s (rank e)) (prog (rank e))) = bars (firstn (opno e) (prog (rank e)))).
      { destruct T as [r Hr Ef L|r Hr Ef G]; cbn [rank opno ends] in *; [reflexivity|]. rewrite Ef, (firstn_S _ _ _ E), bars_app. change (bars [Work j k]) with 0. lia. }
      rewrite (work_bars q i' j' k' Hq E') in B1. rewrite B3, (work_bars _ _ _ _ Er E) in B2. unfold olt.
      destruct (lt_eq_lt_dec j' j) as [[H|H]|H]; [now left| |nia]. subst j'. right. split; [reflexivity|]. left. lia.
  Qed.
  Lemma serial_sorted : StronglySorted olt serial.
  Proof.
    unfold serial. apply (sorted_flat_map _ _ _ lt); [apply seq_sorted| |].
    - intros j _. apply (sorted_flat_map _ _ _ lt); [apply seq_sorted| |].
      + intros r _. apply (sorted_flat_map _ _ _ lt); [apply seq_sorted| |].
        * intros k _. constructor; [constructor; constructor|]. constructor; [|constructor]. right. split; [reflexivity|]. right. split; [reflexivity|]. right. auto.
        * intros k k' x y _ _ H Hx Hy. cbn in Hx, Hy. destruct Hx as [<-|[<-|[]]], Hy as [<-|[<-|[]]]; cbn; right; (split; [reflexivity|]); right; (split; [reflexivity|]); left; exact H.
      + intros r r' x y _ _ H Hx Hy. apply in_flat_map in Hx, Hy. destruct Hx as (k & _ & Hx). destruct Hy as (k' & _ & Hy). cbn in Hx, Hy.
        destruct Hx as [<-|[<-|[]]], Hy as [<-|[<-|[]]]; cbn; right; (split; [reflexivity|]); left; exact H.
    - intros j j' x y _ _ H Hx Hy. apply in_flat_map in Hx, Hy. destruct Hx as (r & _ & Hx). destruct Hy as (r' & _ & Hy). apply in_flat_map in Hx, Hy.
      destruct Hx as (k & _ & Hx). destruct Hy as (k' & _ & Hy). cbn in Hx, Hy. destruct Hx as [<-|[<-|[]]], Hy as [<-|[<-|[]]]; left; exact H.
  Qed.
  Lemma in_serial r j k b : In (r, j, k, b) serial <-> j < K /\ r < n /\ k < w j r.
  Proof.
    unfold serial. rewrite in_flat_map. split.
    - intros (j' & Hj & H). apply in_flat_map in H. destruct H as (r' & Hr & H). apply in_flat_map in H. destruct H as (k' & Hk & H). apply in_seq in Hj, Hr, Hk. cbn in H.
      destruct H as [H|[H|[]]]; injection H as <- <- <- <-; lia.
    - intros (Hj & Hr & Hk). exists j. split; [apply in_seq; lia|]. apply in_flat_map. exists r. split; [apply in_seq; lia|]. apply in_flat_map. exists k. split; [apply in_seq; lia|].
      destruct b; cbn; auto.
  Qed.
  Lemma olt_irr x : ~ olt x x.
  Proof. destruct x as [[[r j] k] b]. cbn. intros H. destruct b; intuition (try lia; try congruence). Qed.
  Lemma olt_asym x y : olt x y -> ~ olt y x.
  Proof. destruct x as [[[r j] k] b], y as [[[r' j'] k'] b']. cbn. intros H1 H2. destruct b, b'; intuition (try lia; try congruence). Qed.
  Lemma serial_final l s : run n len rdy l s -> final n len s -> obs l = serial.
  Proof.
    intros R F. apply (sorted_unique olt olt_irr olt_asym); [now apply (obs_sorted l s)|apply serial_sorted|]. intros [[[r j] k] b]. rewrite in_obs, in_serial. split.
    - intros (i & Hin & E). apply (run_events _ _ _ _ _ R) in Hin. apply (prog_nth K) in E. tauto.
    - intros (Hj & Hr & Hk). exists (off j r + S r + k). assert (E : nth_error (prog r) (off j r + S r + k) = Some (Work j k)) by (apply prog_nth; auto). split; [|exact E].
      apply (run_events _ _ _ _ _ R). split; [exact Hr|]. assert (L : off j r + S r + k < len r) by (unfold len; apply nth_error_Some; congruence).
      pose proof (F r Hr) as Fr. pose proof (run_wf _ _ _ _ _ R r) as W. destruct b; lia.
  Qed.
End Rotator.

(** ** C55 *)
(** nobody is left waiting: a run that cannot go on is complete, and every run is finite *)
Theorem C55_no_deadlock n w K l s : rot_run n w K l s ->
  length l <= 2 * sumn (fun r => length (rot_prog n w K r)) n /\
  ((forall e s', ~ step n (fun r => length (rot_prog n w K r)) (barrier_ready n (rot_prog n w K)) s e s') -> rot_final n w K s).
Proof. intros R. split; [eapply run_bounded; exact R|apply (rot_progress n w K l s R)]. Qed.
(** the bodies run in the serial order: block by block, rank by rank, nobody starts before the one before has ended;
    this holds at every moment, not only at the end *)
Theorem C55_serial n w K l s : rot_run n w K l s ->
  (exists rest, serial n w K = obs n w K l ++ rest) /\ (rot_final n w K s -> obs n w K l = serial n w K).
Proof.
  intros R. split; [|apply (serial_final n w K l s R)].
  destruct (run_complete _ _ _ (fun l s => rot_progress n w K l s) l s R) as (l' & s' & R' & F).
  exists (obs n w K l'). rewrite <- (serial_final n w K _ _ R' F). unfold obs. apply flat_map_app.
Qed.
Print Assumptions C55_no_deadlock.
Print Assumptions C55_serial.
(** two ranks, two with statements, bodies of one and two operations: the program of rank 1, the order of the
    bodies, and a complete run *)
Example C55_case : let w := fun _ r => S r in
  rot_prog 2 w 2 1 = [Bar; Bar; Work 0 0; Work 0 1; Bar; Bar; Bar; Bar; Work 1 0; Work 1 1; Bar; Bar] /\
  serial 2 w 1 = [(0, 0, 0, false); (0, 0, 0, true); (1, 0, 0, false); (1, 0, 0, true); (1, 0, 1, false); (1, 0, 1, true)] /\
  exists l s, rot_run 2 w 2 l s /\ rot_final 2 w 2 s /\ length (obs 2 w 2 l) = 12.
Proof.
  intros w. split; [reflexivity|]. split; [reflexivity|].
  destruct (run_complete _ _ _ (fun l s => rot_progress 2 w 2 l s) [] init (run_nil _ _ _)) as (l & s & R & F). exists l, s. split; [exact R|]. split; [exact F|].
  cbn [app] in R. rewrite (proj2 (C55_serial 2 w 2 l s R) F). reflexivity.
Qed.
