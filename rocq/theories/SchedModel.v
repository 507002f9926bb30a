(** Processes that run straight-line programs. An operation of a process is started
    and later finished; [ready] says when a blocking operation may finish, given how
    many operations every process has started. Any process may move at any time. *)
From Coq Require Import List Arith Lia Bool.
Import ListNotations.

Section Sched.
  Variable n : nat.                                   (* processes *)
  Variable len : nat -> nat.                          (* number of operations *)
  Variable ready : (nat -> nat) -> nat -> nat -> bool.  (* started, process, operation *)

  Record state := mkS { st : nat -> nat; fi : nat -> nat }.
  Definition upd (f : nat -> nat) (r v : nat) : nat -> nat := fun q => if q =? r then v else f q.
  Definition init : state := mkS (fun _ => 0) (fun _ => 0).
  Record event := mkE { rank : nat; opno : nat; ends : bool }.
  Inductive step (s : state) : event -> state -> Prop :=
  | step_start r : r < n -> fi s r = st s r -> st s r < len r ->
      step s (mkE r (st s r) false) (mkS (upd (st s) r (S (st s r))) (fi s))
  | step_finish r : r < n -> st s r = S (fi s r) -> ready (st s) r (fi s r) = true ->
      step s (mkE r (fi s r) true) (mkS (st s) (upd (fi s) r (S (fi s r)))).
  (** the events of a run, in the order in which they happen *)
  Inductive run : list event -> state -> Prop :=
  | run_nil : run [] init
  | run_step l s e s' : run l s -> step s e s' -> run (l ++ [e]) s'.
  Definition final (s : state) : Prop := forall r, r < n -> fi s r = len r.

  Lemma upd_same f r v : upd f r v r = v.
  Proof. unfold upd. now rewrite Nat.eqb_refl. Qed.
  Lemma upd_other f r v q : q <> r -> upd f r v q = f q.
  Proof. unfold upd. destruct (Nat.eqb_spec q r); [contradiction|reflexivity]. Qed.
  Lemma upd_cases f r v q : upd f r v q = v /\ q = r \/ upd f r v q = f q /\ q <> r.
  Proof. unfold upd. destruct (Nat.eqb_spec q r); [left|right]; auto. Qed.

  Definition wf (s : state) : Prop := forall r, fi s r <= st s r <= S (fi s r) /\ st s r <= len r /\ (n <= r -> st s r = 0).
  Lemma run_wf l s : run l s -> wf s.
  Proof.
    induction 1 as [|l s e s' R IH T]; [intros r; cbn; lia|]. intros q. specialize (IH q). destruct T as [r Hr E L|r Hr E G]; cbn [st fi].
    - destruct (upd_cases (st s) r (S (st s r)) q) as [[-> ->]|[-> H]]; lia.
    - destruct (upd_cases (fi s) r (S (fi s r)) q) as [[-> ->]|[-> H]]; lia.
  Qed.
  Lemma run_events l s : run l s -> forall r i b, In (mkE r i b) l <-> (r < n /\ if b then i < fi s r else i < st s r).
  Proof.
    induction 1 as [|l s e s' R IH T]; intros q i b; [cbn; destruct b; lia|]. rewrite in_app_iff, IH. cbn [In]. pose proof (run_wf l s R q) as W.
    destruct T as [r Hr E L|r Hr E G]; cbn [st fi].
    - destruct (upd_cases (st s) r (S (st s r)) q) as [[-> ->]|[-> H]]; destruct b;
        (split; [intros [H1|[H1|[]]]; try discriminate; try (injection H1; intros; subst); lia|intros H1; try (left; lia)]).
      destruct (Nat.eq_dec i (st s r)) as [->|]; [right; left; reflexivity|left; lia].
    - destruct (upd_cases (fi s) r (S (fi s r)) q) as [[-> ->]|[-> H]]; destruct b;
        (split; [intros [H1|[H1|[]]]; try discriminate; try (injection H1; intros; subst); lia|intros H1; try (left; lia)]).
      destruct (Nat.eq_dec i (fi s r)) as [->|]; [right; left; reflexivity|left; lia].
  Qed.

  (** an operation that has finished was ready; if [ready] is monotone it still is *)
  Lemma run_ready l s : (forall f g r i, (forall q, f q <= g q) -> ready f r i = true -> ready g r i = true) ->
    run l s -> forall r i, i < fi s r -> ready (st s) r i = true.
  Proof.
    intros M. induction 1 as [|l s e s' R IH T]; intros q i Hi; [cbn in Hi; lia|]. destruct T as [r Hr E L|r Hr E G]; cbn [st fi] in *.
    - apply (M (st s)); [|now apply IH]. intros p. destruct (upd_cases (st s) r (S (st s r)) p) as [[-> ->]|[-> H]]; lia.
    - destruct (upd_cases (fi s) r (S (fi s r)) q) as [[E1 ->]|[E1 H]]; rewrite E1 in Hi; [|now apply IH].
      destruct (Nat.eq_dec i (fi s r)) as [->|]; [exact G|apply IH; lia].
  Qed.

  (** every run ends *)
  Fixpoint sumn (f : nat -> nat) (k : nat) : nat := match k with O => 0 | S k => sumn f k + f k end.
  Lemma sumn_ext f g k : (forall i, i < k -> f i = g i) -> sumn f k = sumn g k.
  Proof. induction k as [|k IH]; intros H; cbn; [reflexivity|]. rewrite IH, H by auto. reflexivity. Qed.
  Lemma sumn_upd f r k : r < k -> sumn (upd f r (S (f r))) k = S (sumn f k).
  Proof.
    induction k as [|k IH]; intros H; [lia|]. cbn [sumn]. destruct (Nat.eq_dec r k) as [->|N].
    - rewrite upd_same, (sumn_ext _ f) by (intros; apply upd_other; lia). lia.
    - rewrite IH, upd_other by lia. lia.
  Qed.
  Lemma sumn_le f g k : (forall i, i < k -> f i <= g i) -> sumn f k <= sumn g k.
  Proof. induction k as [|k IH]; intros H; cbn; [lia|]. specialize (IH ltac:(auto)). specialize (H k ltac:(lia)). lia. Qed.
  Lemma run_length l s : run l s -> length l = sumn (st s) n + sumn (fi s) n.
  Proof.
    induction 1 as [|l s e s' R IH T]; [cbn; assert (Z : forall k, sumn (fun _ => 0) k = 0) by (induction k; cbn; lia); rewrite Z; reflexivity|].
    rewrite app_length, IH. cbn [length]. destruct T as [r Hr E L|r Hr E G]; cbn [st fi]; rewrite sumn_upd by exact Hr; lia.
  Qed.
  Theorem run_bounded l s : run l s -> length l <= 2 * sumn len n.
  Proof.
    intros R. rewrite (run_length l s R). pose proof (run_wf l s R) as W.
    assert (sumn (st s) n <= sumn len n) by (apply sumn_le; intros i _; apply W). assert (sumn (fi s) n <= sumn len n) by (apply sumn_le; intros i _; specialize (W i); lia). lia.
  Qed.
  (** a state in which nobody can move *)
  Lemma stuck_blocked s : wf s -> (forall e s', ~ step s e s') -> forall r, r < n -> fi s r = len r \/ (st s r = S (fi s r) /\ fi s r < len r /\ ready (st s) r (fi s r) = false).
  Proof.
    intros W N r Hr. pose proof (W r) as Wr. destruct (Nat.eq_dec (fi s r) (len r)) as [|NE]; [now left|right].
    destruct (Nat.eq_dec (st s r) (fi s r)) as [E|E].
    - exfalso. eapply N. apply (step_start s r Hr); lia.
    - split; [lia|]. split; [lia|]. destruct (ready (st s) r (fi s r)) eqn:G; [|reflexivity]. exfalso. eapply N. apply (step_finish s r Hr); [lia|exact G].
  Qed.
  Lemma step_dec s : (exists e s', step s e s') \/ (forall e s', ~ step s e s').
  Proof.
    assert (G : forall k, (exists r, r < k /\ r < n /\ exists e s', step s e s' /\ rank e = r) \/ (forall r e s', r < k -> step s e s' -> rank e = r -> False)).
    { induction k as [|k IH]; [right; lia|]. destruct IH as [(r & H1 & H2 & H3)|IH]; [left; exists r; auto|].
      destruct (lt_dec k n) as [Hk|Hk]; [|right; intros r e s' Hr T Er; apply (IH r e s'); auto; destruct T; cbn in Er; lia].
      destruct (Nat.eq_dec (fi s k) (st s k)) as [E|E].
      - destruct (lt_dec (st s k) (len k)) as [L|L].
        + left. exists k. split; [lia|]. split; [exact Hk|]. eexists. eexists. split; [apply (step_start s k Hk E L)|reflexivity].
        + right. intros r e s' Hr T Er. destruct (Nat.eq_dec r k) as [->|]; [|apply (IH r e s'); auto; lia]. destruct T; cbn in Er; subst; lia.
      - destruct (Nat.eq_dec (st s k) (S (fi s k))) as [E1|E1]; [destruct (ready (st s) k (fi s k)) eqn:G|].
        + left. exists k. split; [lia|]. split; [exact Hk|]. eexists. eexists. split; [apply (step_finish s k Hk E1 G)|reflexivity].
        + right. intros r e s' Hr T Er. destruct (Nat.eq_dec r k) as [->|]; [|apply (IH r e s'); auto; lia]. destruct T; cbn in Er; subst; [lia|congruence].
        + right. intros r e s' Hr T Er. destruct (Nat.eq_dec r k) as [->|]; [|apply (IH r e s'); auto; lia]. destruct T; cbn in Er; subst; lia. }
    destruct (G n) as [(r & _ & _ & e & s' & T & _)|N]; [left; eauto|right]. intros e s' T. apply (N (rank e) e s'); auto. destruct T; assumption.
  Qed.
  (** if only final states are stuck, every run can be completed *)
  Theorem run_complete : (forall l s, run l s -> (forall e s', ~ step s e s') -> final s) ->
    forall l s, run l s -> exists l' s', run (l ++ l') s' /\ final s'.
  Proof.
    intros P l s R. remember (2 * sumn len n - length l) as m eqn:Em. revert l s R Em. induction m as [m IH] using lt_wf_ind. intros l s R Em.
    destruct (step_dec s) as [(e & s' & T)|N]; [|exists [], s; rewrite app_nil_r; split; [exact R|now apply (P l s)]].
    assert (R' := run_step l s e s' R T). pose proof (run_bounded _ _ R') as B. rewrite app_length in B. cbn in B.
    destruct (IH (2 * sumn len n - length (l ++ [e])) ltac:(rewrite app_length; cbn; lia) (l ++ [e]) s' R' eq_refl) as (l' & s'' & R'' & F).
    exists (e :: l'), s''. rewrite <- app_assoc in R''. auto.
  Qed.
  (** run the processes in a given order; used for examples *)
  Definition move (s : state) (r : nat) : option (event * state) :=
    if r <? n then
      if fi s r =? st s r then (if st s r <? len r then Some (mkE r (st s r) false, mkS (upd (st s) r (S (st s r))) (fi s)) else None)
      else if (st s r =? S (fi s r)) && ready (st s) r (fi s r) then Some (mkE r (fi s r) true, mkS (st s) (upd (fi s) r (S (fi s r)))) else None
    else None.
  Lemma move_step s r e s' : move s r = Some (e, s') -> step s e s'.
  Proof.
    unfold move. destruct (Nat.ltb_spec r n) as [Hr|]; [|discriminate]. destruct (Nat.eqb_spec (fi s r) (st s r)) as [E|E].
    - destruct (Nat.ltb_spec (st s r) (len r)) as [L|]; [|discriminate]. intros H. injection H as <- <-. now constructor.
    - destruct (Nat.eqb_spec (st s r) (S (fi s r))) as [E1|]; [|discriminate]. cbn [andb]. destruct (ready (st s) r (fi s r)) eqn:G; [|discriminate].
      intros H. injection H as <- <-. now constructor.
  Qed.
  Fixpoint play (order : list nat) (l : list event) (s : state) : option (list event * state) :=
    match order with
    | [] => Some (l, s)
    | r :: order => match move s r with Some (e, s') => play order (l ++ [e]) s' | None => None end
    end.
  Lemma play_run order : forall l s l' s', run l s -> play order l s = Some (l', s') -> run l' s'.
  Proof.
    induction order as [|r order IH]; intros l s l' s' R H; cbn in H; [now injection H as <- <-|]. destruct (move s r) as [[e s1]|] eqn:M; [|discriminate].
    apply (IH _ _ _ _ (run_step l s e s1 R (move_step _ _ _ _ M)) H).
  Qed.
  Lemma stuck_moves s : wf s -> forallb (fun r => match move s r with Some _ => false | None => true end) (seq 0 n) = true -> forall e s', ~ step s e s'.
  Proof.
    intros W H e s' T. rewrite forallb_forall in H. assert (Hr : rank e < n) by (destruct T; assumption). specialize (H (rank e) ltac:(apply in_seq; lia)).
    destruct T as [r Hr' E L|r Hr' E G]; cbn [rank] in *; unfold move in H; rewrite (proj2 (Nat.ltb_lt r n) Hr') in H.
    - rewrite (proj2 (Nat.eqb_eq _ _) E), (proj2 (Nat.ltb_lt _ _) L) in H. discriminate.
    - destruct (Nat.eqb_spec (fi s r) (st s r)); [lia|]. rewrite (proj2 (Nat.eqb_eq _ _) E), G in H. discriminate.
  Qed.
End Sched.
