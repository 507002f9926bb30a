(** C110: pmesh/tools.py: FromRoot and the timers. *)
From Coq Require Import List Arith ZArith Lia Bool.
From Verif Require Import Base ListFacts.
Import ListNotations.

(** ** FromRoot *)
Section FromRoot.
  Context {V : Type}.
  (** A call of a function decorated by FromRoot, as it happens on rank 0: the decorated functions that its body calls, and
      what it returns (None: it raises, and rank 0 goes on after the call) *)
  Inductive call := Call (inner : list call) (result : option V).
  Definition result (c : call) : option V := match c with Call _ r => r end.
  Definition inner (c : call) : list call := match c with Call l _ => l end.
  (** tools.py:23-29 on rank 0: the values broadcast by a call: first those of the body (24), then its own (27), which is not reached if the body raises *)
  Fixpoint broadcasts (c : call) : list V :=
    match c with
    | Call l r => (fix go l := match l with [] => [] | d :: l' => broadcasts d ++ go l' end) l ++ match r with Some v => [v] | None => [] end
    end.
  Definition all_broadcasts (prog : list call) : list V := flat_map broadcasts prog.
  (** tools.py:25-29 on another rank: the body is not run, so that the k-th call of the program is its k-th broadcast; MPI matches the
      broadcasts of a communicator in the order of the calls. It waits for ever if rank 0 broadcasts no more. *)
  Definition elsewhere (prog : list call) (k : nat) : outcome V :=
    match nth_error (all_broadcasts prog) k with Some v => Ret v | None => Blocked end.
  Definition on_root (prog : list call) (k : nat) : option V := match nth_error prog k with Some c => result c | None => None end.
  (** The body broadcasts nothing itself (no decorated function called from it returns), and it returns *)
  Definition plain (c : call) : Prop := flat_map broadcasts (inner c) = [] /\ result c <> None.

  Lemma broadcasts_call l r : broadcasts (Call l r) = flat_map broadcasts l ++ match r with Some v => [v] | None => [] end.
  Proof. reflexivity. Qed.
  Lemma plain_broadcasts c : plain c -> exists v, result c = Some v /\ broadcasts c = [v].
  Proof. destruct c as [l r]. unfold plain. cbn [inner result]. intros (Q & H). rewrite broadcasts_call, Q. destruct r as [v|]; [|congruence]. exists v. split; reflexivity. Qed.
  Lemma agree_at prog k : Forall plain (firstn (S k) prog) -> k < length prog -> exists v, on_root prog k = Some v /\ elsewhere prog k = Ret v.
  Proof.
    revert k. induction prog as [|c prog IH]; intros k H Hk; [cbn in Hk; lia|]. cbn [firstn] in H. inversion_clear H as [|? ? Hc Hp].
    destruct (plain_broadcasts c Hc) as (v & E & B). unfold elsewhere, on_root, all_broadcasts. cbn [flat_map]. rewrite B. destruct k as [|k]; [exists v; cbn; auto|].
    cbn [app nth_error]. apply (IH k Hp). cbn in Hk. lia.
  Qed.
  Lemma first_bad c rest v : NoDup (broadcasts c ++ rest) -> result c = Some v -> nth_error (broadcasts c ++ rest) 0 = Some v -> plain c.
  Proof.
    destruct c as [l r]. unfold plain. cbn [inner result]. rewrite broadcasts_call. intros Nd -> H. split; [|discriminate].
    destruct (flat_map broadcasts l) as [|x xs]; [reflexivity|]. cbn in H. injection H as ->. cbn in Nd. inversion_clear Nd as [|? ? N _].
    exfalso. apply N. apply in_or_app. left. apply in_or_app. right. now left.
  Qed.
  Lemma plain_all_broadcasts prog : Forall plain prog -> length (all_broadcasts prog) = length prog.
  Proof. unfold all_broadcasts. induction 1 as [|c prog Hc _ IH]; [reflexivity|]. cbn [flat_map length]. destruct (plain_broadcasts c Hc) as (v & _ & ->). cbn. now rewrite IH. Qed.
  Lemma after prefix rest k : Forall plain prefix -> elsewhere (prefix ++ rest) (length prefix + k) = elsewhere rest k.
  Proof.
    intros H. unfold elsewhere, all_broadcasts. rewrite flat_map_app. pose proof (plain_all_broadcasts prefix H) as L. unfold all_broadcasts in L.
    rewrite nth_error_app2 by lia. rewrite L. replace (length prefix + k - length prefix) with k by lia. reflexivity.
  Qed.
End FromRoot.
Arguments call : clear implicits.

(** Every rank returns what rank 0 returns, from every call, if no body raises and no body broadcasts; and when the values are different
    that is the only way. *)
Theorem C110_from_root : forall (V : Type) (prog : list (call V)),
  (Forall plain prog -> forall k, k < length prog -> exists v, on_root prog k = Some v /\ elsewhere prog k = Ret v) /\
  (NoDup (all_broadcasts prog) -> (forall k, k < length prog -> exists v, on_root prog k = Some v /\ elsewhere prog k = Ret v) -> Forall plain prog).
Proof.
  intros V prog. split.
  - intros H k Hk. apply agree_at; [|exact Hk]. rewrite <- (firstn_skipn (S k) prog) in H. now apply Forall_app in H.
  - induction prog as [|c prog IH]; intros Nd H; [constructor|].
    assert (P : plain c).
    { destruct (H 0) as (v & E & F); [cbn; lia|]. unfold on_root in E. cbn in E. apply (first_bad c (all_broadcasts prog) v); [exact Nd|exact E|].
      unfold elsewhere, all_broadcasts in F. cbn [flat_map] in F. unfold all_broadcasts. destruct (nth_error _ 0); congruence. }
    constructor; [exact P|]. apply IH.
    + unfold all_broadcasts in Nd. cbn [flat_map] in Nd. destruct (plain_broadcasts c P) as (v & _ & B). rewrite B in Nd. now inversion Nd.
    + intros k Hk. destruct (H (S k)) as (v & E & F); [cbn; lia|]. exists v. split; [exact E|]. rewrite <- F. symmetry.
      apply (after [c] prog k). now constructor.
Qed.
Print Assumptions C110_from_root.

(** An exception that rank 0 survives: from that call on, every other rank is given the value of the next call, and it waits for ever in the last one. *)
Theorem C110_raise_shifts : forall (V : Type) (before later : list (call V)) (c : call V), Forall plain before -> Forall plain later -> broadcasts c = [] ->
  (forall k, k < length before -> exists v, on_root (before ++ c :: later) k = Some v /\ elsewhere (before ++ c :: later) k = Ret v) /\
  (forall k, k < length later -> exists v, on_root (before ++ c :: later) (S (length before + k)) = Some v /\ elsewhere (before ++ c :: later) (length before + k) = Ret v) /\
  elsewhere (before ++ c :: later) (length before + length later) = Blocked.
Proof.
  intros V before later c Hb Hl Hc.
  assert (S1 : forall k, elsewhere (c :: later) k = elsewhere later k) by (intros k; unfold elsewhere, all_broadcasts; cbn [flat_map]; now rewrite Hc).
  split; [|split].
  - intros k Hk. apply agree_at; [|rewrite app_length; lia]. rewrite firstn_app. replace (S k - length before) with 0 by lia. rewrite firstn_O, app_nil_r.
    rewrite <- (firstn_skipn (S k) before) in Hb. now apply Forall_app in Hb.
  - intros k Hk. rewrite after, S1 by exact Hb. destruct (proj1 (C110_from_root V later) Hl k Hk) as (v & E & F). exists v. split; [|exact F].
    unfold on_root in *. rewrite nth_error_app2 by lia. replace (S (length before + k) - length before) with (S k) by lia. exact E.
  - rewrite after, S1 by exact Hb. unfold elsewhere. pose proof (plain_all_broadcasts later Hl) as L.
    destruct (nth_error (all_broadcasts later) (length later)) eqn:X; [|reflexivity]. exfalso. assert (nth_error (all_broadcasts later) (length later) <> None) as Y by congruence.
    apply nth_error_Some in Y. lia.
Qed.
Print Assumptions C110_raise_shifts.

(** A decorated function that calls others: the other ranks return the values of the inner calls one after the other, then that of the outer
    call, and every later call is as many calls late. *)
Theorem C110_nested_shifts : forall (V : Type) (before later : list (call V)) (xs : list V) (y : V), Forall plain before ->
  let prog := before ++ Call (map (fun x => Call [] (Some x)) xs) (Some y) :: later in
  on_root prog (length before) = Some y /\
  (forall j x, nth_error xs j = Some x -> elsewhere prog (length before + j) = Ret x) /\
  elsewhere prog (length before + length xs) = Ret y /\
  (Forall plain later -> forall k, k < length later -> exists v, on_root prog (S (length before + k)) = Some v /\ elsewhere prog (length before + (S (length xs) + k)) = Ret v).
Proof.
  intros V before later xs y Hb prog. subst prog.
  assert (X : flat_map broadcasts (map (fun x => Call [] (Some x)) xs) = xs) by (induction xs as [|x xs IH]; [reflexivity|]; cbn [map flat_map]; rewrite IH; reflexivity).
  assert (B : forall k, elsewhere (Call (map (fun x => Call [] (Some x)) xs) (Some y) :: later) k =
    match nth_error (xs ++ y :: all_broadcasts later) k with Some v => Ret v | None => Blocked end).
  { intros k. unfold elsewhere, all_broadcasts. cbn [flat_map]. rewrite broadcasts_call, X, <- app_assoc. reflexivity. }
  split; [|split; [|split]].
  - unfold on_root. rewrite nth_error_app2, Nat.sub_diag by lia. reflexivity.
  - intros j x E. rewrite after, B by exact Hb. rewrite nth_error_app1 by (apply nth_error_Some; congruence). now rewrite E.
  - rewrite after, B by exact Hb. rewrite nth_error_app2, Nat.sub_diag by lia. reflexivity.
  - intros Hl k Hk. rewrite after, B by exact Hb. destruct (proj1 (C110_from_root V later) Hl k Hk) as (v & E & F). exists v. split.
    + unfold on_root in *. rewrite nth_error_app2 by lia. replace (S (length before + k) - length before) with (S k) by lia. exact E.
    + rewrite nth_error_app2 by lia. replace (S (length xs) + k - length xs) with (S k) by lia. exact F.
Qed.
Print Assumptions C110_nested_shifts.

(** ** Timer and Timers *)
(** tools.py:32-36: t0 and spent; times are whole numbers of ticks of the clock *)
Record timer := mkT { t0 : Z; spent : Z }.
(** tools.py:43-49: the dictionary, in the order of insertion *)
Definition timers := list (nat * timer).
Fixpoint find (key : nat) (d : timers) : option timer := match d with [] => None | (k, t) :: d' => if k =? key then Some t else find key d' end.
Fixpoint update (key : nat) (f : timer -> timer) (d : timers) : timers :=
  match d with [] => [] | (k, t) :: d' => if k =? key then (k, f t) :: d' else (k, t) :: update key f d' end.
(** What a program does with `with timers[key]:`, with the reading of the clock *)
Inductive event := Enter (key : nat) (now : Z) | Exit (key : nat) (now : Z).
(** tools.py:46-49: a missing timer is made, with t0 the clock and nothing spent *)
Definition getitem (key : nat) (now : Z) (d : timers) : timers := match find key d with Some _ => d | None => d ++ [(key, mkT now 0)] end.
(** tools.py:37-38 after 46-49, and 40-42 on the timer that was entered *)
Definition step (d : timers) (e : event) : timers :=
  match e with
  | Enter k now => update k (fun t => mkT now (spent t)) (getitem k now d)
  | Exit k now => update k (fun t => mkT (t0 t) (spent t + (now - t0 t))) d
  end.
Definition run_timers (log : list event) : timers := fold_left step log [].
(** tools.py:51: the value shown for a key *)
Definition shown (key : nat) (d : timers) : option Z := option_map spent (find key d).

(** ** What it should be: the log of one key *)
Definition key_of (e : event) : nat := match e with Enter k _ => k | Exit k _ => k end.
Definition of_key (key : nat) (log : list event) : list event := filter (fun e => key_of e =? key) log.
(** each exit counts from the latest enter before it *)
Fixpoint since_latest (start : Z) (log : list event) : Z :=
  match log with [] => 0 | Enter _ now :: l => since_latest now l | Exit _ now :: l => (now - start) + since_latest start l end%Z.
Definition uses (key : nat) (l : list (Z * Z)) : list event := flat_map (fun se => [Enter key (fst se); Exit key (snd se)]) l.
Definition total (l : list (Z * Z)) : Z := fold_right (fun se a => (snd se - fst se) + a)%Z 0%Z l.

Open Scope Z_scope.
Lemma find_update_same key f d : find key (update key f d) = option_map f (find key d).
Proof. induction d as [|(k, t) d IH]; [reflexivity|]. cbn. destruct (Nat.eqb_spec k key) as [->|N]; cbn; [now rewrite Nat.eqb_refl|]. destruct (Nat.eqb_spec k key); [contradiction|exact IH]. Qed.
Lemma find_update_other key k f d : k <> key -> find key (update k f d) = find key d.
Proof.
  intros N. induction d as [|(j, t) d IH]; [reflexivity|]. cbn. destruct (Nat.eqb_spec j k) as [->|M]; cbn.
  - destruct (Nat.eqb_spec k key); [contradiction|reflexivity].
  - now rewrite IH.
Qed.
Lemma find_app key d e : find key (d ++ e) = match find key d with Some t => Some t | None => find key e end.
Proof. induction d as [|(k, t) d IH]; [reflexivity|]. cbn. destruct (k =? key)%nat; [reflexivity|exact IH]. Qed.
Lemma find_getitem_same key now d : find key (getitem key now d) = Some (match find key d with Some t => t | None => mkT now 0 end).
Proof. unfold getitem. destruct (find key d) eqn:E; [exact E|]. rewrite find_app, E. cbn. now rewrite Nat.eqb_refl. Qed.
Lemma find_getitem_other key k now d : k <> key -> find key (getitem k now d) = find key d.
Proof. intros N. unfold getitem. destruct (find k d); [reflexivity|]. rewrite find_app. destruct (find key d); [reflexivity|]. cbn. destruct (Nat.eqb_spec k key); [contradiction|reflexivity]. Qed.
Lemma step_other key e d : key_of e <> key -> find key (step d e) = find key d.
Proof. destruct e as [k now|k now]; cbn; intros N; rewrite find_update_other by exact N; [now apply find_getitem_other|reflexivity]. Qed.
Lemma run_of_key key log d d' : find key d = find key d' -> find key (fold_left step log d) = find key (fold_left step (of_key key log) d').
Proof.
  revert d d'. induction log as [|e log IH]; intros d d' H; [exact H|]. cbn [fold_left of_key filter]. destruct (Nat.eqb_spec (key_of e) key) as [E|N].
  - cbn [fold_left]. apply IH. destruct e as [k now|k now]; cbn in E; subst k; cbn [step]; rewrite !find_update_same; [|now rewrite H]. rewrite !find_getitem_same, H. reflexivity.
  - apply IH. rewrite step_other by exact N. exact H.
Qed.
Lemma run_one key log d t : Forall (fun e => key_of e = key) log -> find key d = Some t ->
  shown key (fold_left step log d) = Some (spent t + since_latest (t0 t) log).
Proof.
  intros H. revert d t. induction H as [|e log He _ IH]; intros d t F; [cbn; unfold shown; rewrite F; cbn; f_equal; lia|].
  cbn [fold_left]. destruct e as [k now|k now]; cbn in He; subst k.
  - rewrite (IH _ (mkT now (spent t))); [reflexivity|]. cbn [step]. now rewrite find_update_same, find_getitem_same, F.
  - rewrite (IH _ (mkT (t0 t) (spent t + (now - t0 t)))); [cbn; f_equal; lia|]. cbn [step]. now rewrite find_update_same, F.
Qed.
Lemma of_key_keys key log : Forall (fun e => key_of e = key) (of_key key log).
Proof. apply Forall_forall. intros e H. apply filter_In in H. now apply Nat.eqb_eq. Qed.
Lemma since_uses key l : forall start, since_latest start (uses key l) = total l.
Proof. induction l as [|(s, e) l IH]; intros start; [reflexivity|]. cbn. unfold uses in IH. now rewrite IH. Qed.

(** The value of a key depends on its own events only, whatever runs under the other keys meanwhile: the sum over its exits of the time since its latest enter *)
Theorem C110_timers : forall (log : list event) (key : nat) (now : Z) (mine : list event), of_key key log = Enter key now :: mine ->
  shown key (run_timers log) = Some (since_latest now mine).
Proof.
  intros log key now mine H. unfold shown, run_timers. rewrite (run_of_key key log [] [] eq_refl), H. cbn [fold_left].
  pose proof (of_key_keys key log) as K. rewrite H in K. inversion_clear K as [|? ? _ Km].
  pose proof (run_one key mine (step [] (Enter key now)) (mkT now 0) Km) as R. unfold shown in R. rewrite R; [reflexivity|].
  cbn. rewrite Nat.eqb_refl. cbn. now rewrite Nat.eqb_refl.
Qed.
Print Assumptions C110_timers.

(** A key that is left before it is entered again shows the total time of its blocks *)
Theorem C110_total : forall (log : list event) (key : nat) (s e : Z) (l : list (Z * Z)), of_key key log = uses key ((s, e) :: l) ->
  shown key (run_timers log) = Some (total ((s, e) :: l)).
Proof. intros log key s e l H. rewrite (C110_timers log key s (Exit key e :: uses key l) H). cbn. now rewrite since_uses. Qed.
Print Assumptions C110_total.

(** Entered again inside its own block: the time before the inner enter is lost, and the inner block is counted twice *)
Theorem C110_reentered : forall (key : nat) (s1 s2 e2 e1 : Z),
  shown key (run_timers [Enter key s1; Enter key s2; Exit key e2; Exit key e1]) = Some ((e2 - s2) + (e1 - s2)).
Proof.
  intros key s1 s2 e2 e1. rewrite (C110_timers _ key s1 [Enter key s2; Exit key e2; Exit key e1]); [cbn; f_equal; lia|].
  unfold of_key. cbn. now rewrite Nat.eqb_refl.
Qed.
Print Assumptions C110_reentered.
Theorem C110_reentered_refuted : exists s1 s2 e2 e1 : Z, s1 < s2 < e2 /\ e2 < e1 /\
  shown 0 (run_timers [Enter 0 s1; Enter 0 s2; Exit 0 e2; Exit 0 e1]) <> Some (e1 - s1) /\
  shown 0 (run_timers [Enter 0 s1; Enter 0 s2; Exit 0 e2; Exit 0 e1]) <> Some ((e1 - s1) + (e2 - s2)).
Proof. exists 0, 10, 12, 13. rewrite C110_reentered. repeat split; try lia; intros H; discriminate H. Qed.
Print Assumptions C110_reentered_refuted.

Example C110_case :
  map (elsewhere [Call [] (Some 5); Call [] None; Call [] (Some 7); Call [Call [] (Some 8)] (Some 9)]) [0; 1; 2; 3]%nat = [Ret 5; Ret 7; Ret 8; Ret 9] /\
  map (on_root [Call [] (Some 5); Call [] None; Call [] (Some 7); Call [Call [] (Some 8)] (Some 9)]) [0; 1; 2; 3]%nat = [Some 5; None; Some 7; Some 9] /\
  shown 1 (run_timers [Enter 1 0; Enter 2 3; Exit 2 5; Exit 1 6; Enter 1 10; Exit 1 11]) = Some 7 /\
  shown 2 (run_timers [Enter 1 0; Enter 2 3; Exit 2 5; Exit 1 6; Enter 1 10; Exit 1 11]) = Some 2.
Proof. repeat split; reflexivity. Qed.
