(** Model of the plan cache of [ParticleMesh] (pm.py:1228-1230, 1359-1404, 1476-1485) and C46. *)
From Coq Require Import List Arith ZArith Lia Bool.
From Verif Require Import Base ListFacts.
Import ListNotations.
Local Open Scope nat_scope.

(** * Model *)

(** pm.py:1371-1373, [_cache_args]: the address of the Python communicator, the rank, the size and
    everything else (Nmesh, np, dtype, plan_method, paddedflag) as one number *)
Record key := { k_args : nat; k_addr : Z; k_rank : nat; k_size : nat }.
Definition key_eqb (a b : key) : bool :=
  (k_args a =? k_args b) && (k_addr a =? k_addr b)%Z && (k_rank a =? k_rank b) && (k_size a =? k_size b).

(** A communicator: per rank the process and the address of the communicator object there.
    A template is known by the number of the collective construction that created it. *)
Definition comm := list (nat * Z).
(** a living ParticleMesh refers to its communicator ([self.comm]) and its template
    ([self.template]) *)
Record mesh := { m_comm : nat; m_template : nat }.
Record process := { handles : list nat; meshes : list mesh; cache : list (key * nat) }.
Record state := { comms : list comm; procs : nat -> process; created : nat }.

Definition rank_in (c : comm) (p : nat) : option (nat * Z) :=
  option_map (fun x => (fst x, snd (snd x))) (find (fun x => fst (snd x) =? p) (combine (seq 0 (length c)) c)).
Definition key_of (c : comm) (args : nat) (rank : nat) (addr : Z) : key :=
  {| k_args := args; k_addr := addr; k_rank := rank; k_size := length c |}.

(** [_pm_cache.get]: a WeakValueDictionary has the entry only while the template is alive *)
Definition cache_get (q : process) (k : key) : option nat :=
  match find (fun e => key_eqb (fst e) k) (cache q) with
  | Some (_, t) => if existsb (fun m => m_template m =? t) (meshes q) then Some t else None
  | None => None
  end.
(** a communicator object lives while the program or a mesh refers to it *)
Definition comm_alive (q : process) (c : nat) : bool :=
  existsb (Nat.eqb c) (handles q) || existsb (fun m => m_comm m =? c) (meshes q).

(** [ParticleMesh(..., comm)] on all ranks.  The result has for each rank whether it reused a
    template, and the template. *)
Definition construct (s : state) (ci args : nat) : option (state * list (bool * nat)) :=
  match nth_error (comms s) ci with
  | None => None
  | Some c =>
      if forallb (fun pa => comm_alive (procs s (fst pa)) ci) c then
        (* template = _pm_cache.get(_cache_args, None) *)
        let templates := map (fun x => cache_get (procs s (fst (snd x))) (key_of c args (fst x) (snd (snd x)))) (combine (seq 0 (length c)) c) in
        (* hastemplate = comm.allgather(template is not None) *)
        let hastemplate := map (fun t => match t with Some _ => true | None => false end) templates in
        let choice := map (fun t => match t with
                                    | Some t => if forallb (fun b => b) hastemplate then (true, t) else (false, created s)
                                    | None => (false, created s)
                                    end) templates in
        let after := fun p =>
          match rank_in c p with
          | None => procs s p
          | Some (r, addr) =>
              let t := snd (nth r choice (false, 0)) in
              {| handles := handles (procs s p);
                 meshes := {| m_comm := ci; m_template := t |} :: meshes (procs s p);
                 cache := (key_of c args r addr, t) :: cache (procs s p) |}
          end in
        Some ({| comms := comms s; procs := after; created := S (created s) |}, choice)
      else None
  end.

(** what may happen: a new communicator, the program of a process letting go of a communicator, a mesh
    dying in a process, and a collective construction *)
Inductive event :=
  | NewComm (c : comm)
  | DropComm (p c : nat)
  | DropMesh (p i : nat)
  | Construct (c args : nat).

Definition set_proc (f : nat -> process) (p : nat) (q : process) : nat -> process := fun p' => if p' =? p then q else f p'.
Fixpoint remove_nth {A} (i : nat) (l : list A) : list A :=
  match l, i with [], _ => [] | _ :: l, O => l | x :: l, S i => x :: remove_nth i l end.

(** addresses of the living communicator objects of a process *)
Definition addr_of (c : comm) (p : nat) : option Z := option_map snd (rank_in c p).
Definition free_addr (s : state) (p : nat) (a : Z) : bool :=
  forallb (fun ic => negb (comm_alive (procs s p) (fst ic)) || match addr_of (snd ic) p with Some a' => negb (a' =? a)%Z | None => true end)
          (combine (seq 0 (length (comms s))) (comms s)).

Fixpoint distinct (l : list nat) : bool :=
  match l with [] => true | x :: l => negb (existsb (Nat.eqb x) l) && distinct l end.
(** one event; None if it cannot happen.  The log gets the constructions. *)
Record entry := { e_comm : nat; e_args : nat; e_choice : list (bool * nat) }.
Definition happen (s : state) (e : event) : option (state * list entry) :=
  match e with
  | NewComm c =>
      if forallb (fun pa => free_addr s (fst pa) (snd pa)) c && (1 <=? length c) && distinct (map fst c)
      then Some ({| comms := comms s ++ [c];
                    procs := (fun p => match rank_in c p with
                                       | Some _ => {| handles := length (comms s) :: handles (procs s p); meshes := meshes (procs s p); cache := cache (procs s p) |}
                                       | None => procs s p end);
                    created := created s |}, [])
      else None
  | DropComm p c => Some ({| comms := comms s;
      procs := set_proc (procs s) p {| handles := remove Nat.eq_dec c (handles (procs s p)); meshes := meshes (procs s p); cache := cache (procs s p) |};
      created := created s |}, [])
  | DropMesh p i => Some ({| comms := comms s;
      procs := set_proc (procs s) p {| handles := handles (procs s p); meshes := remove_nth i (meshes (procs s p)); cache := cache (procs s p) |};
      created := created s |}, [])
  | Construct c args =>
      match construct s c args with
      | Some (s', choice) => Some (s', [{| e_comm := c; e_args := args; e_choice := choice |}])
      | None => None
      end
  end.
Definition start : state := {| comms := []; procs := fun _ => {| handles := []; meshes := []; cache := [] |}; created := 0 |}.
(** a history; the log has the latest construction first *)
Fixpoint run (s : state) (log : list entry) (es : list event) : option (state * list entry) :=
  match es with
  | [] => Some (s, log)
  | e :: es => match happen s e with Some (s', l) => run s' (l ++ log) es | None => None end
  end.

(** * The invariant *)
Definition latest (log : list entry) (c args : nat) : option nat :=
  match find (fun e => (e_comm e =? c) && (e_args e =? args)) log with
  | Some e => Some (snd (nth 0 (e_choice e) (false, 0)))
  | None => None
  end.

(** what C46 says of the log *)
Inductive coherent (size : nat -> nat) : list entry -> Prop :=
  | coherent_nil : coherent size []
  | coherent_new e log t : coherent size log -> e_choice e = repeat (false, t) (size (e_comm e)) ->
      Forall (fun e' => ~ In t (map snd (e_choice e'))) log -> coherent size (e :: log)
  | coherent_reuse e log t e' : coherent size log -> e_choice e = repeat (true, t) (size (e_comm e)) ->
      In e' log -> e_comm e' = e_comm e -> e_args e' = e_args e -> e_choice e' = repeat (false, t) (size (e_comm e)) ->
      coherent size (e :: log).

Lemma key_eqb_spec a b : key_eqb a b = true <-> a = b.
Proof.
  unfold key_eqb. rewrite !andb_true_iff, !Nat.eqb_eq, Z.eqb_eq. destruct a, b; cbn. split; [intros (((-> & ->) & ->) & ->); reflexivity|].
  intros E. injection E as -> -> -> ->. auto.
Qed.

Lemma nth_error_combine_seq {A} (c : list A) r : nth_error (combine (seq 0 (length c)) c) r = option_map (pair r) (nth_error c r).
Proof.
  destruct (nth_error c r) as [x|] eqn:E.
  - assert (r < length c) by (apply nth_error_Some; rewrite E; discriminate).
    rewrite (nth_error_nth' _ (r, x)) by (rewrite combine_length, seq_length; lia).
    rewrite combine_nth by (rewrite seq_length; reflexivity). rewrite seq_nth by lia. cbn. f_equal. f_equal.
    apply nth_error_nth. exact E.
  - apply nth_error_None in E. apply nth_error_None. rewrite combine_length, seq_length. lia.
Qed.

Lemma rank_in_spec c p r a : NoDup (map fst c) -> (rank_in c p = Some (r, a) <-> nth_error c r = Some (p, a)).
Proof.
  intros ND. unfold rank_in. split.
  - destruct (find _ _) as [[r' [p' a']]|] eqn:F; [|discriminate]. cbn [option_map fst snd]. intros E. injection E as -> ->.
    apply find_some in F. destruct F as (I & E). cbn [fst snd] in E. apply Nat.eqb_eq in E. subst p'.
    apply In_nth_error in I. destruct I as (k & I). rewrite nth_error_combine_seq in I.
    destruct (nth_error c k) eqn:K; [|discriminate]. cbn in I. injection I as -> ->. exact K.
  - intros E. destruct (find _ _) as [[r' [p' a']]|] eqn:F.
    + apply find_some in F. destruct F as (I & E'). cbn [fst snd] in E'. apply Nat.eqb_eq in E'. subst p'.
      apply In_nth_error in I. destruct I as (k & I). rewrite nth_error_combine_seq in I.
      destruct (nth_error c k) eqn:K; [|discriminate]. cbn in I. injection I as -> ->.
      assert (X : r' = r).
      { apply (proj1 (NoDup_nth_error _) ND).
        - rewrite map_length. apply nth_error_Some. rewrite K. discriminate.
        - rewrite !nth_error_map, K, E. reflexivity. }
      subst r'. rewrite E in K. injection K as ->. reflexivity.
    + exfalso. assert (I : In (r, (p, a)) (combine (seq 0 (length c)) c)).
      { apply (nth_error_In _ r). rewrite nth_error_combine_seq, E. reflexivity. }
      apply (find_none _ _ F) in I. cbn in I. rewrite Nat.eqb_refl in I. discriminate.
Qed.

Lemma rank_in_none c p a : rank_in c p = None -> ~ In (p, a) c.
Proof.
  unfold rank_in. intros E I. destruct (find _ _) eqn:F; [discriminate|].
  apply In_nth_error in I. destruct I as (r & I).
  assert (J : In (r, (p, a)) (combine (seq 0 (length c)) c)) by (apply (nth_error_In _ r); rewrite nth_error_combine_seq, I; reflexivity).
  apply (find_none _ _ F) in J. cbn in J. rewrite Nat.eqb_refl in J. discriminate.
Qed.

Lemma distinct_spec l : distinct l = true -> NoDup l.
Proof.
  induction l as [|x l IH]; cbn; [constructor|]. rewrite andb_true_iff, negb_true_iff. intros (H & H'). constructor; [|auto].
  intros X. assert (existsb (Nat.eqb x) l = true) by (apply existsb_exists; exists x; rewrite Nat.eqb_refl; auto). congruence.
Qed.

Definition size_in (cs : list comm) (c : nat) : nat := length (nth c cs []).

Record inv (s : state) (log : list entry) : Prop := {
  iv_nodup : Forall (fun c => NoDup (map fst c) /\ 1 <= length c) (comms s);
  (* references are to communicators that exist and have the process as member *)
  iv_ref : forall p c, comm_alive (procs s p) c = true -> exists cm ra, nth_error (comms s) c = Some cm /\ rank_in cm p = Some ra;
  (* living communicators have different addresses *)
  iv_addr : forall p c c' cm cm' r r' a, comm_alive (procs s p) c = true -> comm_alive (procs s p) c' = true ->
     nth_error (comms s) c = Some cm -> nth_error (comms s) c' = Some cm' ->
     rank_in cm p = Some (r, a) -> rank_in cm' p = Some (r', a) -> c = c';
  (* templates are those of the log, and belong to one communicator and one set of arguments *)
  iv_log : forall e, In e log -> exists t, e_choice e = repeat (fst (nth 0 (e_choice e) (false, 0)), t) (size_in (comms s) (e_comm e)) /\ t < created s /\
     e_comm e < length (comms s) /\
     exists e', In e' log /\ e_comm e' = e_comm e /\ e_args e' = e_args e /\ e_choice e' = repeat (false, t) (size_in (comms s) (e_comm e));
  iv_one : forall e e' t, In e log -> In e' log -> In t (map snd (e_choice e)) -> In t (map snd (e_choice e')) -> e_comm e = e_comm e' /\ e_args e = e_args e';
  iv_mesh : forall p m, In m (meshes (procs s p)) -> exists e, In e log /\ e_comm e = m_comm m /\ In (m_template m) (map snd (e_choice e));
  (* a cache entry is of the latest construction with these arguments *)
  iv_cache : forall p k t, find (fun e => key_eqb (fst e) k) (cache (procs s p)) = Some (k, t) ->
     exists c args cm r a, nth_error (comms s) c = Some cm /\ rank_in cm p = Some (r, a) /\ k = key_of cm args r a /\
       latest log c args = Some t;
  iv_coherent : coherent (size_in (comms s)) log
}.

Lemma find_key l k e : find (fun x : key * nat => key_eqb (fst x) k) l = Some e -> fst e = k.
Proof. intros F. apply find_some in F. apply key_eqb_spec. exact (proj2 F). Qed.

Lemma in_remove_nth {A} i (l : list A) x : In x (remove_nth i l) -> In x l.
Proof. revert i. induction l as [|y l IH]; intros [|i] H; cbn in *; auto. destruct H as [->|H]; eauto. Qed.

Lemma start_inv : inv start [].
Proof. constructor; cbn; try constructor; try (intros; contradiction); intros; discriminate. Qed.

(** letting go of references keeps the invariant *)
Lemma drop_inv s log p q : inv s log -> (forall c, comm_alive q c = true -> comm_alive (procs s p) c = true) ->
  incl (meshes q) (meshes (procs s p)) -> cache q = cache (procs s p) ->
  inv {| comms := comms s; procs := set_proc (procs s) p q; created := created s |} log.
Proof.
  intros I HA HM HC.
  assert (A : forall p' c, comm_alive (set_proc (procs s) p q p') c = true -> comm_alive (procs s p') c = true).
  { intros p' c. unfold set_proc. destruct (Nat.eqb_spec p' p) as [->|]; auto. }
  constructor; cbn [comms procs created]; try apply I.
  - intros p' c H. apply (iv_ref _ _ I). auto.
  - intros p' c c' cm cm' r r' a H H'. apply (iv_addr _ _ I p'); auto.
  - intros p' m. unfold set_proc. destruct (Nat.eqb_spec p' p) as [->|]; intros H; [apply (iv_mesh _ _ I p), HM, H|apply (iv_mesh _ _ I p'), H].
  - intros p' k t. unfold set_proc. destruct (Nat.eqb_spec p' p) as [->|]; [rewrite HC|]; apply (iv_cache _ _ I).
Qed.

Lemma coherent_ext f g log : (forall e, In e log -> f (e_comm e) = g (e_comm e)) -> coherent f log -> coherent g log.
Proof.
  intros H C. induction C as [|e log t C IH E F|e log t e' C IH E I Ec Ea E'].
  - constructor.
  - apply (coherent_new _ _ _ t); [apply IH; intros; apply H; now right| |exact F]. rewrite E, H by (now left). reflexivity.
  - apply (coherent_reuse _ _ _ t e'); auto.
    + apply IH. intros; apply H; now right.
    + rewrite E, H by (now left). reflexivity.
    + rewrite E', H by (now left). reflexivity.
Qed.

Lemma size_in_app cs c i : i < length cs -> size_in (cs ++ [c]) i = size_in cs i.
Proof. intros H. unfold size_in. now rewrite app_nth1. Qed.

Lemma alive_spec q c : comm_alive q c = true <-> In c (handles q) \/ exists m, In m (meshes q) /\ m_comm m = c.
Proof.
  unfold comm_alive. rewrite orb_true_iff, !existsb_exists. split; (intros [H|H]; [left|right]).
  - destruct H as (x & H & E). apply Nat.eqb_eq in E. now subst.
  - destruct H as (x & H & E). apply Nat.eqb_eq in E. eauto.
  - exists c. now rewrite Nat.eqb_refl.
  - destruct H as (m & H & E). exists m. now rewrite E, Nat.eqb_refl.
Qed.

Lemma nth_error_comms_lt s c cm : nth_error (comms s) c = Some cm -> c < length (comms s).
Proof. intros H. apply nth_error_Some. rewrite H. discriminate. Qed.

Lemma new_inv s log c s' l : inv s log -> happen s (NewComm c) = Some (s', l) -> inv s' (l ++ log).
Proof.
  intros I. unfold happen.
  destruct (forallb _ c && _ && _) eqn:G; [|discriminate]. intros E. injection E as <- <-. cbn [app].
  apply andb_true_iff in G. destruct G as (G & ND). apply distinct_spec in ND. apply andb_true_iff in G. destruct G as (G & L1). apply Nat.leb_le in L1.
  rewrite forallb_forall in G. set (n := length (comms s)).
  set (after := fun p => match rank_in c p with Some _ => _ | None => procs s p end).
  assert (OLD : forall p i, comm_alive (procs s p) i = true -> i < n).
  { intros p i H. destruct (iv_ref _ _ I p i H) as (cm & _ & H' & _). exact (nth_error_comms_lt _ _ _ H'). }
  assert (A : forall p i, comm_alive (after p) i = true -> comm_alive (procs s p) i = true \/ i = n /\ exists ra, rank_in c p = Some ra).
  { intros p i. unfold after. destruct (rank_in c p) as [ra|]; [|auto]. rewrite !alive_spec. cbn [handles meshes].
    intros [[H|H]|H]; [right; split; [symmetry; exact H|eauto]|left; auto|left; auto]. }
  assert (M : forall p, meshes (after p) = meshes (procs s p)) by (intros p; unfold after; destruct (rank_in c p); reflexivity).
  assert (CA : forall p, cache (after p) = cache (procs s p)) by (intros p; unfold after; destruct (rank_in c p); reflexivity).
  assert (NE : forall i cm, nth_error (comms s) i = Some cm -> nth_error (comms s ++ [c]) i = Some cm).
  { intros i cm H. rewrite nth_error_app1; [exact H|]. exact (nth_error_comms_lt _ _ _ H). }
  assert (NN : nth_error (comms s ++ [c]) n = Some c) by (rewrite nth_error_app2 by (unfold n; lia); unfold n; rewrite Nat.sub_diag; reflexivity).
  assert (SZ : forall e, In e log -> size_in (comms s) (e_comm e) = size_in (comms s ++ [c]) (e_comm e)).
  { intros e He. destruct (iv_log _ _ I e He) as (t & _ & _ & H & _). symmetry. apply size_in_app. exact H. }
  assert (FR : forall p i cm r r' a, comm_alive (procs s p) i = true -> nth_error (comms s) i = Some cm ->
     rank_in cm p = Some (r, a) -> rank_in c p = Some (r', a) -> False).
  { intros p i cm r r' a H N R R'. apply (rank_in_spec c p r' a ND) in R'. apply nth_error_In in R'. specialize (G _ R'). cbn [fst snd] in G.
    unfold free_addr in G. rewrite forallb_forall in G.
    assert (J : In (i, cm) (combine (seq 0 (length (comms s))) (comms s))).
    { apply (nth_error_In _ i). rewrite nth_error_combine_seq, N. reflexivity. }
    specialize (G _ J). cbn [fst snd] in G. unfold addr_of in G. rewrite H, R in G. cbn in G. rewrite Z.eqb_refl in G. discriminate. }
  constructor; cbn [comms procs created].
  - apply Forall_app. split; [apply I|]. constructor; auto.
  - intros p i H. destruct (A p i H) as [H'|(-> & ra & R)].
    + destruct (iv_ref _ _ I p i H') as (cm & ra & N & R). exists cm, ra. auto.
    + exists c, ra. auto.
  - intros p i i' cm cm' r r' a H H' N N' R R'.
    destruct (A p i H) as [X|(-> & _)]; destruct (A p i' H') as [Y|(-> & _)].
    + rewrite nth_error_app1 in N by (exact (OLD p i X)). rewrite nth_error_app1 in N' by (exact (OLD p i' Y)).
      exact (iv_addr _ _ I p i i' cm cm' r r' a X Y N N' R R').
    + exfalso. rewrite NN in N'. injection N' as <-. rewrite nth_error_app1 in N by (exact (OLD p i X)). exact (FR p i cm r r' a X N R R').
    + exfalso. rewrite NN in N. injection N as <-. rewrite nth_error_app1 in N' by (exact (OLD p i' Y)). exact (FR p i' cm' r' r a Y N' R' R).
    + reflexivity.
  - intros e He. destruct (iv_log _ _ I e He) as (t & H1 & H2 & H3 & e' & H4 & H5 & H6 & H7). rewrite <- (SZ e He).
    exists t. split; [exact H1|]. split; [exact H2|]. split; [rewrite app_length; lia|]. exists e'. auto.
  - apply I.
  - intros p m. rewrite M. apply I.
  - intros p k t. rewrite CA. intros F. destruct (iv_cache _ _ I p k t F) as (ci & args & cm & r & a & H1 & H2 & H3 & H4).
    exists ci, args, cm, r, a. auto.
  - apply (coherent_ext (size_in (comms s))); [exact SZ|]. apply I.
Qed.

(** all ranks choose alike *)
Lemma construct_choice s log ci args s' choice : inv s log -> construct s ci args = Some (s', choice) ->
  exists cm, nth_error (comms s) ci = Some cm /\
  (choice = repeat (false, created s) (length cm) \/
   exists t, choice = repeat (true, t) (length cm) /\ latest log ci args = Some t).
Proof.
  intros I. unfold construct. destruct (nth_error (comms s) ci) as [cm|] eqn:N; [|discriminate].
  destruct (forallb _ cm) eqn:AL; [|discriminate]. rewrite forallb_forall in AL.
  set (templates := map _ (combine (seq 0 (length cm)) cm)). intros E. injection E as _ <-.
  exists cm. split; [reflexivity|].
  pose proof (iv_nodup _ _ I) as Hnd. rewrite Forall_forall in Hnd. destruct (Hnd cm (nth_error_In _ _ N)) as (ND & L1).
  assert (LT : length templates = length cm) by (unfold templates; rewrite map_length, combine_length, seq_length; lia).
  assert (T : forall o t, In o templates -> o = Some t -> latest log ci args = Some t).
  { intros o t Ho ->. unfold templates in Ho. apply in_map_iff in Ho. destruct Ho as ((r & p & a) & G & Hin). cbn [fst snd] in G.
    apply In_nth_error in Hin. destruct Hin as (k & Hin). rewrite nth_error_combine_seq in Hin.
    destruct (nth_error cm k) as [pa|] eqn:K; [|discriminate]. cbn in Hin. injection Hin as -> ->.
    assert (R : rank_in cm p = Some (r, a)) by (apply rank_in_spec; assumption).
    unfold cache_get in G. destruct (find _ (cache (procs s p))) as [[k t']|] eqn:F; [|discriminate].
    pose proof (find_key _ _ _ F) as EK. cbn [fst] in EK. rewrite EK in F.
    destruct (existsb _ _) eqn:X in G; [|discriminate]. injection G as ->.
    destruct (iv_cache _ _ I p _ _ F) as (c' & args' & cm' & r' & a' & N' & R' & K' & LA).
    unfold key_of in K'. injection K' as <- <- <- _.
    apply existsb_exists in X. destruct X as (m & Hm & X). apply Nat.eqb_eq in X.
    destruct (iv_mesh _ _ I p m Hm) as (e & He & Ec & Et). rewrite X in Et.
    assert (LA' := LA). unfold latest in LA'. destruct (find _ log) as [e'|] eqn:FL; [|discriminate]. injection LA' as LA'.
    apply find_some in FL. destruct FL as (He' & FL). apply andb_true_iff in FL. destruct FL as (Fc & Fa). apply Nat.eqb_eq in Fc, Fa.
    assert (Et' : In t (map snd (e_choice e'))).
    { destruct (iv_log _ _ I e' He') as (t0 & Q & _ & Lc & _).
      assert (S1 : 1 <= size_in (comms s) (e_comm e')).
      { unfold size_in. pose proof (nth_error_nth' (comms s) [] Lc) as Q'. destruct (Hnd _ (nth_error_In _ _ Q')) as (_ & Y). exact Y. }
      rewrite Q in LA' |- *. destruct (size_in (comms s) (e_comm e')); [lia|]. cbn in LA' |- *. left. exact LA'. }
    destruct (iv_one _ _ I e e' t He He' Et Et') as (Ecc & _).
    assert (AC : comm_alive (procs s p) c' = true) by (apply alive_spec; right; exists m; split; [exact Hm|congruence]).
    assert (AI : comm_alive (procs s p) ci = true) by (exact (AL (p, a) (nth_error_In _ _ K))).
    rewrite (iv_addr _ _ I p ci c' cm cm' r r a AI AC N N' R R'). exact LA. }
  destruct (forallb (fun b => b) (map (fun t => match t with Some _ => true | None => false end) templates)) eqn:B.
  - right. rewrite forallb_forall in B.
    destruct templates as [|o ts] eqn:ET; [simpl in LT; lia|].
    assert (Ho : exists t, o = Some t).
    { specialize (B (match o with Some _ => true | None => false end) (or_introl eq_refl)). destruct o; [eauto|discriminate]. }
    destruct Ho as (t & ->). pose proof (T (Some t) t (or_introl eq_refl) eq_refl) as LA. exists t. split; [|exact LA].
    rewrite <- LT. clear LT ET. set (l := Some t :: ts) in *. clearbody l. induction l as [|o l IH]; [reflexivity|].
    cbn [map length repeat]. f_equal.
    + pose proof (B _ (or_introl eq_refl)) as Bo. cbn in Bo. destruct o as [t'|]; [|discriminate].
      pose proof (T (Some t') t' (or_introl eq_refl) eq_refl). congruence.
    + apply IH; [intros x Hx; apply B; now right|intros o' t' Ho' E'; apply (T o' t'); [now right|exact E']].
  - left. rewrite <- LT. clear LT T B. clearbody templates. induction templates as [|o l IH]; [reflexivity|].
    cbn [map length repeat]. f_equal; [destruct o; reflexivity|exact IH].
Qed.

Lemma in_repeat {A} (x y : A) n : In x (repeat y n) -> x = y.
Proof. intros H. now apply repeat_spec in H. Qed.

Lemma construct_inv s log ci args s' l : inv s log -> happen s (Construct ci args) = Some (s', l) -> inv s' (l ++ log).
Proof.
  intros I. unfold happen. destruct (construct s ci args) as [[s1 choice]|] eqn:CO; [|discriminate]. intros E. injection E as <- <-.
  destruct (construct_choice _ _ _ _ _ _ I CO) as (cm & N & CH).
  unfold construct in CO. rewrite N in CO. destruct (forallb _ cm) eqn:AL; [|discriminate]. rewrite forallb_forall in AL.
  injection CO as <- EC. rewrite EC. clear EC.
  pose proof (iv_nodup _ _ I) as Hnd. rewrite Forall_forall in Hnd. destruct (Hnd cm (nth_error_In _ _ N)) as (ND & L1).
  set (e := {| e_comm := ci; e_args := args; e_choice := choice |}). cbn [app].
  assert (SZ : size_in (comms s) ci = length cm) by (unfold size_in; rewrite (nth_error_nth _ _ _ N); reflexivity).
  pose proof (nth_error_comms_lt _ _ _ N) as Lci.
  (* the template chosen *)
  assert (BT : exists b t, choice = repeat (b, t) (length cm) /\
    (b = false /\ t = created s \/ b = true /\ exists e0 e', In e0 log /\ e_comm e0 = ci /\ e_args e0 = args /\ In t (map snd (e_choice e0)) /\ t < created s /\
       In e' log /\ e_comm e' = ci /\ e_args e' = args /\ e_choice e' = repeat (false, t) (length cm))).
  { destruct CH as [CH|(t & CH & LA)]; [exists false, (created s); auto|]. exists true, t. split; [exact CH|]. right. split; [reflexivity|].
    unfold latest in LA. destruct (find _ log) as [e0|] eqn:F; [|discriminate]. injection LA as LA.
    apply find_some in F. destruct F as (He0 & F). apply andb_true_iff in F. destruct F as (Fc & Fa). apply Nat.eqb_eq in Fc, Fa.
    destruct (iv_log _ _ I e0 He0) as (t0 & Q & Lt & _ & e' & X1 & X2 & X3 & X4). rewrite Fc, SZ in *.
    assert (t0 = t). { rewrite Q in LA. destruct (length cm); [lia|]. cbn in LA. congruence. } subst t0.
    exists e0, e'. split; [exact He0|]. split; [exact Fc|]. split; [exact Fa|]. split.
    - rewrite Q. destruct (length cm); [lia|]. left. reflexivity.
    - split; [exact Lt|]. split; [exact X1|]. split; [exact X2|]. split; [congruence|exact X4]. }
  destruct BT as (b & t & CB & BT).
  assert (NT : forall r, r < length cm -> snd (nth r choice (false, 0)) = t).
  { intros r Hr. rewrite CB. rewrite (nth_indep _ _ (b, t)) by (rewrite repeat_length; exact Hr). rewrite nth_repeat. reflexivity. }
  assert (TE : map snd (e_choice e) = repeat t (length cm)).
  { cbn [e_choice e]. rewrite CB. clear. induction (length cm); cbn; [reflexivity|]. f_equal. assumption. }
  assert (TI : In t (map snd (e_choice e))) by (rewrite TE; destruct (length cm); [lia|left; reflexivity]).
  assert (OLDT : forall e' t', In e' log -> In t' (map snd (e_choice e')) -> t' < created s).
  { intros e' t' He' Ht'. destruct (iv_log _ _ I e' He') as (t0 & Q & Lt & _). rewrite Q in Ht'. apply in_map_iff in Ht'.
    destruct Ht' as (x & <- & Hx). apply in_repeat in Hx. subst x. exact Lt. }
  match goal with |- inv (Build_state _ ?f _) _ => set (after := f) end.
  assert (A : forall p c, comm_alive (after p) c = true -> comm_alive (procs s p) c = true).
  { intros p c. unfold after. destruct (rank_in cm p) as [[r a]|] eqn:R; [|auto]. rewrite !alive_spec. cbn [handles meshes].
    intros [H|(m & [<-|Hm] & Ec)]; [auto| |right; eauto]. cbn [m_comm] in Ec. subst c.
    apply (rank_in_spec _ _ _ _ ND) in R. apply nth_error_In in R. apply alive_spec. exact (AL _ R). }
  constructor; cbn [comms procs created].
  - apply I.
  - intros p c H. apply (iv_ref _ _ I). auto.
  - intros p c c' cm1 cm1' r r' a H H'. apply (iv_addr _ _ I p); auto.
  - intros e1 [<-|He1].
    + exists t. cbn [e_comm e e_choice e_args]. rewrite SZ. split; [|split; [|split; [exact Lci|]]].
      * rewrite CB at 1. f_equal. rewrite CB. destruct (length cm); [lia|]. reflexivity.
      * destruct BT as [(_ & ->)|(_ & e0 & e' & _ & _ & _ & _ & Lt & _)]; lia.
      * destruct BT as [(-> & ->)|(-> & e0 & e' & _ & _ & _ & _ & _ & X1 & X2 & X3 & X4)].
        -- exists e. cbn. auto.
        -- exists e'. split; [now right|]. auto.
    + destruct (iv_log _ _ I e1 He1) as (t0 & H1 & H2 & H3 & e' & H4 & H5 & H6 & H7).
      exists t0. split; [exact H1|]. split; [lia|]. split; [exact H3|]. exists e'. split; [now right|]. auto.
  - assert (K : forall e' t', In e' log -> In t' (map snd (e_choice e)) -> In t' (map snd (e_choice e')) -> e_comm e = e_comm e' /\ e_args e = e_args e').
    { intros e' t' He' Ht Ht'. rewrite TE in Ht. apply in_repeat in Ht. subst t'. cbn [e_comm e_args e].
      destruct BT as [(_ & ->)|(_ & e0 & e1 & He0 & Ec & Ea & H0 & _)].
      - pose proof (OLDT e' _ He' Ht'). lia.
      - rewrite <- Ec, <- Ea. apply (iv_one _ _ I e0 e' t); assumption. }
    intros e1 e2 t1 [<-|H1] [<-|H2] T1 T2.
    + auto.
    + apply (K e2 t1); assumption.
    + destruct (K e1 t1 H1 T2 T1). auto.
    + apply (iv_one _ _ I e1 e2 t1); assumption.
  - intros p m. unfold after. destruct (rank_in cm p) as [[r a]|] eqn:R.
    + cbn [meshes]. intros [<-|Hm].
      * exists e. split; [now left|]. split; [reflexivity|]. cbn [m_template]. rewrite NT; [exact TI|].
        apply (rank_in_spec _ _ _ _ ND) in R. apply nth_error_Some. rewrite R. discriminate.
      * destruct (iv_mesh _ _ I p m Hm) as (e1 & X & Y). exists e1. split; [now right|exact Y].
    + intros Hm. destruct (iv_mesh _ _ I p m Hm) as (e1 & X & Y). exists e1. split; [now right|exact Y].
  - assert (KEEP : forall p k t', find (fun x => key_eqb (fst x) k) (cache (procs s p)) = Some (k, t') ->
      (forall r a, rank_in cm p = Some (r, a) -> key_of cm args r a <> k) ->
      exists c args' cm' r a, nth_error (comms s) c = Some cm' /\ rank_in cm' p = Some (r, a) /\ k = key_of cm' args' r a /\ latest (e :: log) c args' = Some t').
    { intros p k t' F NK. destruct (iv_cache _ _ I p k t' F) as (c & args' & cm' & r & a & X1 & X2 & X3 & X4).
      exists c, args', cm', r, a. split; [exact X1|]. split; [exact X2|]. split; [exact X3|].
      unfold latest. cbn [find e e_comm e_args]. destruct ((ci =? c) && (args =? args')) eqn:B; [|exact X4].
      exfalso. apply andb_true_iff in B. destruct B as (B1 & B2). apply Nat.eqb_eq in B1, B2. subst c args'.
      rewrite N in X1. injection X1 as <-. apply (NK r a X2). symmetry. exact X3. }
    intros p k t'. unfold after. destruct (rank_in cm p) as [[r a]|] eqn:R.
    + cbn [cache find fst]. destruct (key_eqb (key_of cm args r a) k) eqn:KE.
      * apply key_eqb_spec in KE. subst k. intros E. injection E as <-.
        exists ci, args, cm, r, a. split; [exact N|]. split; [exact R|]. split; [reflexivity|].
        unfold latest. cbn [find e e_comm e_args]. rewrite !Nat.eqb_refl. cbn [andb e_choice]. f_equal.
        rewrite !NT; [reflexivity| |lia].
        apply (rank_in_spec _ _ _ _ ND) in R. apply nth_error_Some. rewrite R. discriminate.
      * intros F. apply (KEEP p k t' F). intros r0 a0 R0 KK. rewrite R in R0. injection R0 as <- <-.
        assert (key_eqb (key_of cm args r a) k = true) by (apply key_eqb_spec; exact KK). congruence.
    + intros F. apply (KEEP p k t' F). intros r0 a0 R0. congruence.
  - destruct BT as [(-> & ->)|(-> & e0 & e' & _ & _ & _ & _ & _ & X1 & X2 & X3 & X4)].
    + apply (coherent_new _ _ _ (created s)); [apply I|cbn [e_choice e_comm e]; rewrite SZ; exact CB|].
      apply Forall_forall. intros e1 He1 Hin. pose proof (OLDT e1 _ He1 Hin). lia.
    + apply (coherent_reuse _ _ _ t e'); auto; [apply I| |]; cbn [e_choice e_comm e]; rewrite SZ; assumption.
Qed.

Lemma remove_in c c' l : In c (remove Nat.eq_dec c' l) -> In c l.
Proof. intros H. apply in_remove in H. exact (proj1 H). Qed.

Lemma happen_inv s log e s' l : inv s log -> happen s e = Some (s', l) -> inv s' (l ++ log).
Proof.
  intros I H. destruct e as [c|p c|p i|c args].
  - exact (new_inv _ _ _ _ _ I H).
  - cbn in H. injection H as <- <-. apply drop_inv; cbn [meshes cache]; auto; [|apply incl_refl].
    intros c'. rewrite !alive_spec. cbn [handles meshes]. intros [X|X]; [left|right; exact X]. exact (remove_in _ _ _ X).
  - cbn in H. injection H as <- <-. apply drop_inv; cbn [meshes cache]; auto.
    + intros c'. rewrite !alive_spec. cbn [handles meshes]. intros [X|(m & X & Y)]; [left; exact X|right]. exists m. split; [|exact Y].
      exact (in_remove_nth _ _ _ X).
    + intros m. apply in_remove_nth.
  - exact (construct_inv _ _ _ _ _ _ I H).
Qed.

Lemma run_inv es : forall s log s' log', inv s log -> run s log es = Some (s', log') -> inv s' log'.
Proof.
  induction es as [|e es IH]; intros s log s' log' I H; cbn in H; [injection H as <- <-; exact I|].
  destruct (happen s e) as [[s1 l]|] eqn:E; [|discriminate]. exact (IH _ _ _ _ (happen_inv _ _ _ _ _ I E) H).
Qed.

(** * C46 *)

(** After any history, every construction in the log is one in which all ranks created a template
    no rank has had before, or all ranks reused the template that all of them created in one earlier
    construction with the same communicator and the same arguments. *)
Theorem C46_cache_coherent :
  forall es s log, run start [] es = Some (s, log) ->
  forall later e earlier, log = later ++ e :: earlier ->
  exists t, let n := length (nth (e_comm e) (comms s) []) in
    (e_choice e = repeat (false, t) n /\ forall e', In e' earlier -> ~ In t (map snd (e_choice e'))) \/
    (e_choice e = repeat (true, t) n /\ exists e', In e' earlier /\ e_comm e' = e_comm e /\ e_args e' = e_args e /\ e_choice e' = repeat (false, t) n).
Proof.
  intros es s log H later e earlier E. pose proof (iv_coherent _ _ (run_inv _ _ _ _ _ start_inv H)) as C. subst log. clear H.
  induction later as [|x later IH].
  - inversion C as [|? ? t C' E F|? ? t e' C' E I Ec Ea E']; subst; exists t; cbv zeta.
    + left. split; [exact E|]. rewrite Forall_forall in F. exact F.
    + right. split; [exact E|]. exists e'. auto.
  - apply IH. inversion C; assumption.
Qed.
Print Assumptions C46_cache_coherent.

(** two processes: a mesh, another that reuses its plans; process 0 loses both, so that the third
    construction creates plans although process 1 has some; then process 0 lets go of everything and
    a new communicator gets the address of the old one there *)
Definition ex_events : list event :=
  [NewComm [(0, 100%Z); (1, 200%Z)]; Construct 0 7; Construct 0 7; DropMesh 0 0; DropMesh 0 0; Construct 0 7;
   DropComm 0 0; DropMesh 0 0; NewComm [(0, 100%Z); (1, 300%Z)]; Construct 1 7; Construct 1 7].
Example C46_case :
  option_map (fun r => rev (map (fun e => (e_comm e, e_choice e)) (snd r))) (run start [] ex_events) =
  Some [(0, [(false, 0); (false, 0)]); (0, [(true, 0); (true, 0)]); (0, [(false, 2); (false, 2)]);
        (1, [(false, 3); (false, 3)]); (1, [(true, 3); (true, 3)])] /\
  run start [] [NewComm [(0, 100%Z); (1, 200%Z)]; NewComm [(0, 100%Z)]] = None.
Proof. split; vm_compute; reflexivity. Qed.
