(** C107: co-arrays as Python objects: views, proxies, the list of operations that all views of a co-array share, and
    which array sync reads and writes. The messages of sync are those of C56. *)
From Coq Require Import List Arith Lia Bool.
From Verif Require Import Base ListFacts SchedModel CoarrayModel CoarrayProofs.
Import ListNotations.

Set Implicit Arguments.

(** An index: Ellipsis, or one of those of the section below *)
Inductive idx (Index : Type) := Dots | At (i : Index).
Arguments Dots {Index}. Arguments At {Index}.

(** An object of the class coarray: the buffer and the view of it, and its __coameta__ (coarray.py:195-224). Buffers and metas
    have numbers; two objects with the same number share it. *)
Record coa (View : Type) := Coa { buf : nat; view : View; meta : nat }.

Section Objects.
  Variables (View Index X : Type).
  (** numpy: the cells of a view in the order of its items, and the view that an index selects. Indexing does not fail. *)
  Variables (cells : View -> list nat) (sub : View -> Index -> View).
  Notation coa := (coa View).
  Notation idx := (idx Index).
  Definition memory := nat -> nat -> X.

  (** numpy: a[...] is all of a *)
  Definition sub_view (v : View) (i : idx) : View := match i with Dots => v | At j => sub v j end.
  (** self[index], with coarray.py:218-222: a view has the __coameta__ of the array *)
  Definition getitem (c : coa) (i : idx) : coa := Coa (buf c) (sub_view (view c) i) (meta c).
  (** the loops of coarray.py:269-271, 277 and 281-282 *)
  Definition follow (c : coa) (path : list idx) : coa := fold_left getitem path c.

  (** numpy: the items of an array, and array[...] = values, one item after the other *)
  Definition read (m : memory) (c : coa) : list X := map (m (buf c)) (cells (view c)).
  Definition set (m : memory) (b a : nat) (x : X) : memory := fun b' a' => if (b' =? b) && (a' =? a) then x else m b' a'.
  Definition write (m : memory) (c : coa) (xs : list X) : memory :=
    fold_left (fun m p => set m (buf c) (fst p) (snd p)) (combine (cells (view c)) xs) m.

  (** coarray.py:63-83 and 97-98: a proxy is made from a co-array and an image (None: Ellipsis), or from a proxy and an index *)
  Inductive proxy := Root (c : coa) (image : option nat) | Child (parent : proxy) (index : idx).
  Fixpoint proxy_coa (p : proxy) : coa := match p with Root c _ => c | Child q _ => proxy_coa q end.
  Fixpoint proxy_image (p : proxy) : option nat := match p with Root _ k => k | Child q _ => proxy_image q end.
  (** coarray.py:86-91: the loop over the parents appends, and the list is then reversed; 71: the index of the root is Ellipsis *)
  Fixpoint collect (p : proxy) (acc : list idx) : list idx :=
    match p with Root _ _ => acc ++ [Dots] | Child q i => collect q (acc ++ [i]) end.
  Definition indices (p : proxy) : list idx := rev (collect p []).

  (** coarray.py:116-147: a pending operation. A push refers to the array that is pushed; it does not copy it. *)
  Inductive rop := RPull (c : coa) (localindex : idx) (p : proxy) | RPush (p : proxy) (value : coa).
  Definition op_proxy (o : rop) : proxy := match o with RPull _ _ p => p | RPush p _ => p end.

  (** One rank: its memory and the lists of operations of its metas *)
  Record rstate := RState { mem : memory; pending : nat -> list rop }.
  Definition append_op (s : rstate) (k : nat) (o : rop) : rstate :=
    RState (mem s) (fun k' => if k' =? k then pending s k ++ [o] else pending s k').

  (** Statements of a program: array[index] = proxy, proxy[index] = array, array[index] = numbers *)
  Inductive stmt := Pulling (c : coa) (i : idx) (p : proxy) | Pushing (p : proxy) (i : idx) (value : coa) | Writing (c : coa) (i : idx) (xs : list X).
  (** coarray.py:212-216 with 255-256; 100-106: a push to all images refers to the undefined name Scatter (None: NameError) *)
  Definition exec (s : rstate) (t : stmt) : option rstate :=
    match t with
    | Pulling c i p => Some (append_op s (meta c) (RPull c i p))
    | Pushing p i w => match proxy_image p with
                       | None => None
                       | Some _ => Some (append_op s (meta (proxy_coa p)) (RPush (Child p i) w))
                       end
    | Writing c i xs => Some (RState (write (mem s) (getitem c i) xs) (pending s))
    end.
  Fixpoint exec_all (s : rstate) (l : list stmt) : option rstate :=
    match l with [] => Some s | t :: l' => match exec s t with Some s' => exec_all s' l' | None => None end end.
  Definition fresh (m : memory) : rstate := RState m (fun _ => []).

  (** The call y.sync(images) on every rank; st r is the state of rank r and y r its array *)
  Variables (n : nat) (y : nat -> coa) (st : nat -> rstate) (images : nat -> list nat).
  (** coarray.py:165, 187: proxy.coindex in images. Ellipsis is in no list of images. *)
  Definition selected (r : nat) (o : rop) : option nat :=
    match proxy_image (op_proxy o) with
    | Some c => if existsb (Nat.eqb c) (images r) then Some c else None
    | None => None
    end.
  (** coarray.py:277-288: all indices but the last lead to an array, the last one is for its __setitem__ *)
  Definition push_target (c : coa) (path : list idx) : coa := getitem (follow c (removelast path)) (last path Dots).
  (** The operations as in C56. The owner c of the image starts from the array that it calls sync of (coarray.py:269, 277: value = self),
      because only the indices are sent (168, 171). The data of a push are those of the array at Isend (143). *)
  Definition cops (r : nat) : list (cop coa (list X)) :=
    flat_map (fun o => match selected r o with
                       | Some c => match o with
                                   | RPull v i p => [Pull (getitem v i) c (follow (y c) (indices p))]
                                   | RPush p w => [Push c (push_target (y c) (indices p)) (read (mem (st r)) w)]
                                   end
                       | None => []
                       end) (pending (st r) (meta (y r))).
  Definition memories (r : nat) : memory := mem (st r).
  (** coarray.py:294-296 *)
  Definition still_pending (r : nat) : list rop := filter (fun o => match selected r o with Some _ => false | None => true end) (pending (st r) (meta (y r))).
End Objects.

Arguments Root {View Index}. Arguments Child {View Index}. Arguments Pulling {View Index X}. Arguments Pushing {View Index X}. Arguments Writing {View Index X}.

(** ** proxies *)
Section Proofs.
  Context {View Index X : Type} (cells : View -> list nat) (sub : View -> Index -> View).
  Notation coa := (coa View).
  Notation idx := (idx Index).
  Notation getitem := (getitem sub).
  Notation follow := (follow sub).
  Notation exec := (exec cells sub (X := X)).
  Notation exec_all := (exec_all cells sub (X := X)).

  Lemma collect_app (p : proxy View Index) : forall acc, collect p acc = acc ++ collect p [].
  Proof. induction p as [c k|q IH i]; intros acc; [reflexivity|]. cbn. rewrite IH, (IH [i]), app_assoc. reflexivity. Qed.
  Lemma indices_child (p : proxy View Index) i : indices (Child p i) = indices p ++ [i].
  Proof. unfold indices. cbn. rewrite collect_app, rev_app_distr. reflexivity. Qed.
  Lemma getitem_dots c : getitem c Dots = c.
  Proof. destruct c; reflexivity. Qed.
  Lemma push_target_follow c (p : proxy View Index) (i : idx) : push_target sub c (indices (Child p i)) = follow c (indices p ++ [i]).
  Proof.
    rewrite indices_child. unfold push_target. rewrite removelast_last, last_last. unfold follow. rewrite fold_left_app. reflexivity.
  Qed.

  (** ** the lists of operations *)
  Definition recorded (k : nat) (t : stmt View Index X) : list (rop View Index) :=
    match t with
    | Pulling c i p => if meta c =? k then [RPull c i p] else []
    | Pushing p i w => if meta (proxy_coa p) =? k then [RPush (Child p i) w] else []
    | Writing _ _ _ => []
    end.
  Definition written (m : memory X) (t : stmt View Index X) : memory X := match t with Writing c i xs => write cells m (getitem c i) xs | _ => m end.
  Lemma exec_all_state l : forall s s', exec_all s l = Some s' ->
    mem s' = fold_left written l (mem s) /\ forall k, pending s' k = pending s k ++ flat_map (recorded k) l.
  Proof.
    induction l as [|t l IH]; intros s s' H; [injection H as <-; split; [reflexivity|intros k; cbn; now rewrite app_nil_r]|].
    cbn [exec_all] in H. destruct (exec s t) as [s1|] eqn:E; [|discriminate]. destruct (IH _ _ H) as (Hm & Hp). clear IH H.
    destruct t as [c i p|p i w|c i xs]; cbn [exec] in E.
    - injection E as <-. split; [exact Hm|]. intros k. rewrite Hp. cbn. rewrite (Nat.eqb_sym k). destruct (Nat.eqb_spec (meta c) k); [subst; now rewrite <- app_assoc|reflexivity].
    - destruct (proxy_image p); [|discriminate]. injection E as <-. split; [exact Hm|]. intros k. rewrite Hp. cbn. rewrite (Nat.eqb_sym k).
      destruct (Nat.eqb_spec (meta (proxy_coa p)) k); [subst; now rewrite <- app_assoc|reflexivity].
    - injection E as <-. split; [exact Hm|]. intros k. rewrite Hp. reflexivity.
  Qed.
  Lemma fold_flat_map {A B C} (f : C -> B -> C) (g : A -> list B) l : forall a, fold_left f (flat_map g l) a = fold_left (fun a x => fold_left f (g x) a) l a.
  Proof. induction l as [|x l IH]; intros a; [reflexivity|]. cbn. rewrite fold_left_app. apply IH. Qed.
  Lemma fold_ext {A B} (f g : A -> B -> A) l : (forall a x, In x l -> f a x = g a x) -> forall a, fold_left f l a = fold_left g l a.
  Proof. induction l as [|x l IH]; intros H a; [reflexivity|]. cbn. rewrite H by now left. apply IH. intros; apply H. now right. Qed.

  (** The indices written after an image, first to last *)
  Fixpoint path (p : proxy View Index) : list idx := match p with Root _ _ => [] | Child q i => path q ++ [i] end.
  Lemma indices_path p : indices p = Dots :: path p.
  Proof. induction p as [c k|q IH i]; [reflexivity|]. rewrite indices_child, IH. reflexivity. Qed.
  Lemma follow_indices c p : follow c (indices p) = follow c (path p).
  Proof. rewrite indices_path. unfold CoarrayObjects.follow. cbn [fold_left]. rewrite getitem_dots. reflexivity. Qed.
End Proofs.

Unset Implicit Arguments.

Section Sync.
  Context {View Index X : Type} (cells : View -> list nat) (sub : View -> Index -> View).
  Variables (n : nat) (y : nat -> coa View) (progs : nat -> list (stmt View Index X)) (start : nat -> memory X) (images : nat -> list nat) (st : nat -> rstate View Index X).

  Definition listed (c : nat) (l : list nat) : bool := if in_dec Nat.eq_dec c l then true else false.
  (** rank d pulls from s, rank s pushes to d, by operations of the arrays that are synchronized *)
  Definition pulls_from (d s : nat) : Prop := exists c i p, In (Pulling c i p) (progs d) /\ meta c = meta (y d) /\ proxy_image p = Some s /\ In s (images d).
  Definition pushes_to (s d : nat) : Prop := exists p i w, In (Pushing p i w) (progs s) /\ meta (proxy_coa p) = meta (y s) /\ proxy_image p = Some d /\ In d (images s).
  Definition one_way : Prop := forall s d, s < n -> d < n -> pulls_from d s -> pushes_to s d -> False.
  (** The memory of rank q after its statements: only the plain assignments change it *)
  Definition before (q : nat) : memory X := fold_left (fun m t => match t with Writing c i xs => write cells m (getitem sub c i) xs | _ => m end) (progs q) (start q).
  (** What sync makes of the memory of rank r *)
  Definition received (r : nat) : memory X :=
    fold_left (fun a q => fold_left (fun a t =>
      match t with
      | Pushing p i w => match proxy_image p with
                         | Some c => if (meta (proxy_coa p) =? meta (y q)) && listed c (images q) && (c =? r)
                                     then write cells a (getitem sub (follow sub (y r) (path p)) i) (read cells (before q) w) else a
                         | None => a
                         end
      | _ => a
      end) (progs q) a) (seq 0 n) (before r).
  Definition pulled (r : nat) (a : memory X) : memory X :=
    fold_left (fun a t =>
      match t with
      | Pulling v i p => match proxy_image p with
                         | Some c => if (meta v =? meta (y r)) && listed c (images r)
                                     then write cells a (getitem sub v i) (read cells (before c) (follow sub (y c) (path p))) else a
                         | None => a
                         end
      | _ => a
      end) (progs r) a.

  Hypothesis Himg : forall r c, r < n -> In c (images r) -> c < n.
  Hypothesis Hst : forall r, r < n -> exec_all cells sub (fresh View Index (start r)) (progs r) = Some (st r).

  Lemma st_mem r : r < n -> mem (st r) = before r.
  Proof. intros Hr. destruct (exec_all_state cells sub _ _ (Hst r Hr)) as (H & _). exact H. Qed.
  Lemma st_pending r k : r < n -> pending (st r) k = flat_map (recorded k) (progs r).
  Proof. intros Hr. destruct (exec_all_state cells sub _ _ (Hst r Hr)) as (_ & H). exact (H k). Qed.
  Lemma listed_existsb c l : existsb (Nat.eqb c) l = listed c l.
  Proof.
    unfold listed. destruct (in_dec Nat.eq_dec c l) as [H|H].
    - apply existsb_exists. exists c. split; [exact H|apply Nat.eqb_refl].
    - apply not_true_iff_false. intros E. apply existsb_exists in E. destruct E as (x & Hx & E). apply Nat.eqb_eq in E. now subst x.
  Qed.
  Lemma listed_in c l : listed c l = true <-> In c l.
  Proof. unfold listed. destruct (in_dec Nat.eq_dec c l); split; intros; try discriminate; auto; contradiction. Qed.

  (** every operation for C56 comes from a statement *)
  Lemma in_cops r o : r < n -> In o (cops cells sub y st images r) ->
    In (coindex o) (images r) /\
    match o with
    | Pull _ c _ => pulls_from r c
    | Push c _ _ => pushes_to r c
    end.
  Proof.
    intros Hr H. unfold cops in H. rewrite (st_pending r _ Hr) in H. apply in_flat_map in H. destruct H as (ro & H1 & H2).
    apply in_flat_map in H1. destruct H1 as (t & Ht & H1). unfold selected in H2.
    destruct t as [v i p|p i w|v i xs]; cbn in H1; [| |contradiction].
    - destruct (Nat.eqb_spec (meta v) (meta (y r))); [|contradiction]. destruct H1 as [<-|[]]. cbn [op_proxy] in H2.
      destruct (proxy_image p) as [c|] eqn:E; [|contradiction]. rewrite listed_existsb in H2. destruct (listed c (images r)) eqn:L; [|contradiction].
      apply listed_in in L. destruct H2 as [<-|[]]. split; [exact L|]. exists v, i, p. auto.
    - destruct (Nat.eqb_spec (meta (proxy_coa p)) (meta (y r))); [|contradiction]. destruct H1 as [<-|[]]. cbn [op_proxy proxy_image] in H2.
      destruct (proxy_image p) as [c|] eqn:E; [|contradiction]. rewrite listed_existsb in H2. destruct (listed c (images r)) eqn:L; [|contradiction].
      apply listed_in in L. destruct H2 as [<-|[]]. split; [exact L|]. exists p, i, w. auto.
  Qed.
  Lemma cops_sound : one_way -> sound n (cops cells sub y st images) images.
  Proof.
    intros O. split.
    - intros r o Hr Ho. refine (Himg r (coindex o) Hr _). exact (proj1 (in_cops r o Hr Ho)).
    - intros s d li ix ix' v Hs Hd (H1 & _) (H2 & _). apply (O s d Hs Hd); [exact (proj2 (in_cops d _ Hd H1))|exact (proj2 (in_cops s _ Hs H2))].
  Qed.
End Sync.

(** sync(images) of a co-array, after any programs that make pulls, pushes and assignments on every rank: it returns everywhere,
    and then the memory of a rank holds the pushes to it and its pulls. What was asked of another rank is done with the array
    that the other rank calls sync of, whatever array the proxy was made from; the values of a push are those at the sync. *)
Theorem C107_sync {View Index X} (cells : View -> list nat) (sub : View -> Index -> View) n y (progs : nat -> list (stmt View Index X)) start images st eager :
  (forall r c, r < n -> In c (images r) -> c < n) ->
  (forall r, r < n -> exec_all cells sub (fresh View Index (start r)) (progs r) = Some (st r)) ->
  one_way n y progs images ->
  let ops := cops cells sub y st images in
  (exists bound, forall l s, co_run _ _ _ (read cells) n (memories st) ops images eager l s -> length l <= bound) /\
  (forall l s, co_run _ _ _ (read cells) n (memories st) ops images eager l s ->
     exists l' s', co_run _ _ _ (read cells) n (memories st) ops images eager (l ++ l') s' /\ co_final _ _ _ (read cells) n (memories st) ops images s') /\
  (forall l s r, co_run _ _ _ (read cells) n (memories st) ops images eager l s -> r < n -> fi s r = co_len _ _ _ (read cells) n (memories st) ops images r ->
     after_sync _ _ _ (read cells) (write cells) n (memories st) ops images (SchedModel.st s) r =
     Some (pulled cells sub y progs start images r (received cells sub n y progs start images r))).
Proof.
  intros Himg Hst O ops. pose proof (cops_sound cells sub n y progs start images st Himg Hst O) as Sd. fold ops in Sd.
  destruct (C56_no_deadlock (read cells) n (memories st) ops images eager Sd) as (B & C). split; [exact B|]. split; [exact C|].
  intros l s r R Hr F. rewrite (C56_values (read cells) (write cells) n (memories st) ops images eager l s r Sd R Hr F). f_equal. cbv zeta.
  assert (Hm : forall q, q < n -> memories st q = before cells sub progs start q) by (intros q Hq; apply (st_mem cells sub n progs start st Hst q Hq)).
  assert (Hrecv : fold_left (fun a q => fold_left (fun a o => match o with Push c ix v => if (if in_dec Nat.eq_dec (coindex o) (images q) then true else false) && (c =? r) then write cells a ix v else a | Pull _ _ _ => a end) (ops q) a) (seq 0 n) (memories st r)
    = received cells sub n y progs start images r).
  { unfold received. rewrite (Hm r Hr). apply fold_ext. intros a q Hq. apply in_seq in Hq. assert (Hq' : q < n) by lia.
    unfold ops, cops. rewrite (st_pending cells sub n progs start st Hst q (meta (y q)) Hq'). rewrite !fold_flat_map. apply fold_ext. clear a. intros a t Ht.
    destruct t as [v i p|p i w|v i xs]; cbn [recorded]; [| |reflexivity].
    - destruct (meta v =? meta (y q)); [|reflexivity]. cbn [fold_left]. unfold selected. cbn [op_proxy]. destruct (proxy_image p) as [c|]; [|reflexivity].
      destruct (existsb (Nat.eqb c) (images q)); reflexivity.
    - destruct (meta (proxy_coa p) =? meta (y q)); [|destruct (proxy_image p); reflexivity]. cbn [fold_left]. unfold selected. cbn [op_proxy proxy_image].
      destruct (proxy_image p) as [c|]; [|reflexivity]. rewrite listed_existsb. fold (listed c (images q)). cbn [andb].
      destruct (listed c (images q)) eqn:L; cbn [fold_left andb]; [|reflexivity]. cbn [coindex]. fold (listed c (images q)). rewrite L. cbn [andb].
      destruct (Nat.eqb_spec c r) as [->|]; [|reflexivity]. f_equal.
      + rewrite push_target_follow. unfold follow at 1. rewrite fold_left_app. cbn [fold_left]. fold (follow sub (y r) (indices p)). now rewrite follow_indices.
      + f_equal. apply (Hm q Hq'). }
  refine (eq_trans (f_equal (fold_left _ _) Hrecv) _). generalize (received cells sub n y progs start images r) as a. intros a. unfold pulled, ops, cops.
  rewrite (st_pending cells sub n progs start st Hst r (meta (y r)) Hr). rewrite !fold_flat_map. revert a. apply fold_ext. intros a t Ht.
  destruct t as [v i p|p i w|v i xs]; cbn [recorded]; [| |reflexivity].
  - destruct (meta v =? meta (y r)); [|destruct (proxy_image p); reflexivity]. cbn [fold_left]. unfold selected. cbn [op_proxy].
    destruct (proxy_image p) as [c|]; [|reflexivity]. rewrite listed_existsb. cbn [andb].
    destruct (listed c (images r)) eqn:L; cbn [fold_left]; [|reflexivity]. cbn [coindex]. fold (listed c (images r)). rewrite L.
    assert (Hc : c < n) by (apply (Himg r c Hr); now apply listed_in). rewrite follow_indices, (Hm c Hc). reflexivity.
  - destruct (meta (proxy_coa p) =? meta (y r)); [|reflexivity]. cbn [fold_left]. unfold selected. cbn [op_proxy proxy_image].
    destruct (proxy_image p) as [c|]; [|reflexivity]. destruct (existsb (Nat.eqb c) (images r)); reflexivity.
Qed.
Print Assumptions C107_sync.

(** If the proxies are made from the array that the other rank synchronizes, the slices are those of the proxy. *)
Theorem C107_own {View Index X} (cells : View -> list nat) (sub : View -> Index -> View) n y (progs : nat -> list (stmt View Index X)) start images r a :
  (forall q v i p c, q < n -> In (Pulling v i p) (progs q) \/ In (Pushing p i v) (progs q) -> proxy_image p = Some c -> proxy_coa p = y c) -> r < n ->
  received cells sub n y progs start images r =
    fold_left (fun a q => fold_left (fun a t =>
      match t with
      | Pushing p i w => match proxy_image p with
                         | Some c => if (meta (proxy_coa p) =? meta (y q)) && listed c (images q) && (c =? r)
                                     then write cells a (getitem sub (follow sub (proxy_coa p) (path p)) i) (read cells (before cells sub progs start q) w) else a
                         | None => a
                         end
      | _ => a
      end) (progs q) a) (seq 0 n) (before cells sub progs start r) /\
  pulled cells sub y progs start images r a =
    fold_left (fun a t =>
      match t with
      | Pulling v i p => match proxy_image p with
                         | Some c => if (meta v =? meta (y r)) && listed c (images r)
                                     then write cells a (getitem sub v i) (read cells (before cells sub progs start c) (follow sub (proxy_coa p) (path p))) else a
                         | None => a
                         end
      | _ => a
      end) (progs r) a.
Proof.
  intros H Hr. split.
  - unfold received. apply fold_ext. intros b q Hq. apply in_seq in Hq. apply fold_ext. clear b. intros b t Ht. destruct t as [v i p|p i w|v i xs]; try reflexivity.
    destruct (proxy_image p) as [c|] eqn:E; [|reflexivity]. destruct (Nat.eqb_spec c r) as [->|]; [|rewrite andb_false_r; reflexivity].
    assert (Ep : proxy_coa p = y r) by (apply (H q w i p r); [lia|now right|exact E]). rewrite Ep. reflexivity.
  - revert a. unfold pulled. apply fold_ext. intros a t Ht. destruct t as [v i p|p i w|v i xs]; try reflexivity.
    destruct (proxy_image p) as [c|] eqn:E; [|reflexivity]. assert (Ep : proxy_coa p = y c) by (apply (H r v i p c); [lia|now left|exact E]). now rewrite Ep.
Qed.
Print Assumptions C107_own.

(** An assignment to all images raises; a pull from all images, or from one that is never synchronized, is done by no sync. *)
Theorem C107_group {View Index X} (cells : View -> list nat) (sub : View -> Index -> View) :
  (forall (s : rstate View Index X) p i w, proxy_image p = None -> exec cells sub s (Pushing p i w) = None) /\
  (forall (y : nat -> coa View) (st : nat -> rstate View Index X) images r o, In o (pending (st r) (meta (y r))) ->
     (In o (still_pending y st images r) <-> forall c, proxy_image (op_proxy o) = Some c -> ~ In c (images r))).
Proof.
  split; [intros s p i w H; cbn; now rewrite H|]. intros y st images r o Ho. unfold still_pending. rewrite filter_In. unfold selected.
  destruct (proxy_image (op_proxy o)) as [c|] eqn:E.
  - rewrite listed_existsb. pose proof (listed_in c (images r)) as L. destruct (listed c (images r)).
    + split; [intros (_ & F); discriminate|]. intros F. exfalso. apply (F c eq_refl). now apply L.
    + split; [|auto]. intros _ c' Ec Hc. injection Ec as <-. apply L in Hc. discriminate.
  - split; [discriminate|auto].
Qed.
Print Assumptions C107_group.

(** ** the co-transposition, coarray.py:332-341, for any number of ranks and rows of w items *)
Definition row_view (v : list nat) (i : nat * nat) : list nat := firstn (snd i) (skipn (fst i) v).
Definition same (v : list nat) : list nat := v.
Definition coa1 (n w : nat) : coa (list nat) := Coa 0 (seq 0 (n * w)) 0.
Definition coa2 (n w : nat) : coa (list nat) := Coa 1 (seq 0 (n * w)) 1.
Definition row (w i : nat) : idx (nat * nat) := At (i * w, w).
(** for i in range(num_images): coa1[i] = x(i)[thisimage] *)
Definition cotranspose {X} (n w : nat) (x : coa (list nat)) (r : nat) : list (stmt (list nat) (nat * nat) X) :=
  map (fun i => Pulling (coa1 n w) (row w i) (Child (Root x (Some i)) (row w r))) (seq 0 n).

Lemma firstn_seq_le k : forall s m, k <= m -> firstn k (seq s m) = seq s k.
Proof. induction k as [|k IH]; intros s [|m] H; try reflexivity; [lia|]. cbn. f_equal. apply IH. lia. Qed.
Lemma skipn_seq_le k : forall s m, k <= m -> skipn k (seq s m) = seq (s + k) (m - k).
Proof. induction k as [|k IH]; intros s m H; [cbn; f_equal; lia|]. destruct m; [lia|]. cbn. rewrite IH by lia. f_equal; lia. Qed.
Lemma row_of n w i b k : i < n -> getitem row_view (Coa b (seq 0 (n * w)) k) (row w i) = Coa b (seq (i * w) w) k.
Proof.
  intros Hi. unfold getitem, row, sub_view, row_view. cbn [buf view meta fst snd]. assert (i * w + w <= n * w) by nia.
  rewrite skipn_seq_le by lia. rewrite firstn_seq_le by lia. reflexivity.
Qed.
Lemma write_seq {X} b k (d : X) : forall xs s (m : memory X) b' a,
  write same m (Coa b (seq s (length xs)) k) xs b' a = if (b' =? b) && (s <=? a) && (a <? s + length xs) then nth (a - s) xs d else m b' a.
Proof.
  induction xs as [|x xs IH]; intros s m b' a.
  - cbn [length]. replace (write same m (Coa b (seq s 0) k) []) with m by reflexivity. destruct (b' =? b), (Nat.leb_spec s a), (Nat.ltb_spec a (s + 0)); cbn [andb]; try lia; reflexivity.
  - transitivity (write same (set m b s x) (Coa b (seq (S s) (length xs)) k) xs b' a); [reflexivity|]. rewrite IH. unfold set.
    cbn [length]. destruct (Nat.eqb_spec b' b) as [->|]; cbn [andb]; [|reflexivity].
    destruct (Nat.leb_spec (S s) a), (Nat.leb_spec s a), (Nat.ltb_spec a (S s + length xs)), (Nat.ltb_spec a (s + S (length xs))), (Nat.eqb_spec a s); cbn [andb]; try lia; try reflexivity.
    + replace (a - s) with (S (a - S s)) by lia. reflexivity.
    + subst. rewrite Nat.sub_diag. reflexivity.
Qed.
Lemma nth_map_seq {X} (f : nat -> X) s k j d : j < k -> nth j (map f (seq s k)) d = f (s + j).
Proof. intros H. rewrite (nth_indep _ d (f 0)) by (rewrite map_length, seq_length; exact H). rewrite map_nth, seq_nth by exact H. reflexivity. Qed.

Lemma before_cotranspose {X} n w x (start : nat -> memory X) q : before same row_view (cotranspose n w x) start q = start q.
Proof. unfold before, cotranspose. generalize (start q). induction (seq 0 n) as [|i l IH]; intros m; [reflexivity|]. cbn. apply IH. Qed.
Lemma received_cotranspose {X} n w x (start : nat -> memory X) images r : received same row_view n (fun _ => coa1 n w) (cotranspose n w x) start images r = start r.
Proof.
  unfold received. rewrite before_cotranspose. generalize (start r) at 1 2. intros m. induction (seq 0 n) as [|q l IH]; [reflexivity|]. cbn [fold_left].
  replace (fold_left _ (cotranspose n w x q) m) with m; [exact IH|]. unfold cotranspose. clear. induction (seq 0 n) as [|i l IH]; [reflexivity|]. cbn. exact IH.
Qed.
Lemma pulled_cotranspose {X} n w x (start : nat -> memory X) r b a : r < n ->
  pulled same row_view (fun _ => coa1 n w) (cotranspose n w x) start (fun _ => seq 0 n) r (start r) b a =
  if (b =? 0) && (a <? n * w) then start (a / w) 0 (r * w + a mod w) else start r b a.
Proof.
  intros Hr.
  assert (Rd : forall c, read same (start c) (follow row_view (coa1 n w) (path (Child (Root x (Some c)) (row w r)))) = map (start c 0) (seq (r * w) w)).
  { intros c. cbn [path app follow fold_left]. unfold follow. cbn [fold_left]. unfold coa1. rewrite row_of by exact Hr. reflexivity. }
  assert (P : forall k, k <= n -> forall b a,
    fold_left (fun a (t : stmt (list nat) (nat * nat) X) => match t with
      | Pulling v i p => match proxy_image p with
                         | Some c => if (meta v =? meta (coa1 n w)) && listed c (seq 0 n)
                                     then write same a (getitem row_view v i) (read same (before same row_view (cotranspose n w x) start c) (follow row_view (coa1 n w) (path p))) else a
                         | None => a
                         end
      | _ => a
      end) (map (fun i => Pulling (coa1 n w) (row w i) (Child (Root x (Some i)) (row w r))) (seq 0 k)) (start r) b a =
    if (b =? 0) && (a <? k * w) then start (a / w) 0 (r * w + a mod w) else start r b a).
  { induction k as [|k IH]; intros Hk b' a'; [cbn; destruct (b' =? 0); reflexivity|].
    rewrite seq_S, map_app, fold_left_app. cbn [map fold_left plus]. cbn [proxy_image]. rewrite Nat.eqb_refl.
    replace (listed k (seq 0 n)) with true by (symmetry; apply listed_in, in_seq; lia). cbn [andb].
    rewrite before_cotranspose, Rd. replace (getitem row_view (coa1 n w) (row w k)) with (Coa 0 (seq (k * w) w) 0) by (symmetry; apply row_of; lia).
    assert (Ln : length (map (start k 0) (seq (r * w) w)) = w) by (rewrite map_length, seq_length; reflexivity).
    pose proof (write_seq 0 0 (start k 0 0) (map (start k 0) (seq (r * w) w)) (k * w)) as W. rewrite Ln in W. rewrite W. clear W. rewrite IH by lia.
    destruct (Nat.eqb_spec b' 0) as [->|]; cbn [andb]; [|reflexivity].
    destruct (Nat.leb_spec (k * w) a'), (Nat.ltb_spec a' (k * w + w)), (Nat.ltb_spec a' (k * w)), (Nat.ltb_spec a' (S k * w)); cbn [andb]; try nia; try reflexivity.
    assert (w <> 0) by nia. rewrite nth_map_seq by nia.
    assert (Ed : a' / w = k) by (symmetry; apply (Nat.div_unique a' w k (a' - k * w)); nia). assert (Em : a' mod w = a' - k * w) by (symmetry; apply (Nat.mod_unique a' w k); nia).
    rewrite Ed, Em. reflexivity. }
  apply (P n (le_n n) b a).
Qed.

(** Whatever array x the rows are asked of, row i of rank r becomes row r of coa1 of rank i, as it was before. *)
Theorem C107_cotranspose {X} n w x (start : nat -> memory X) st eager :
  (forall r, r < n -> exec_all same row_view (fresh _ _ (start r)) (cotranspose n w x r) = Some (st r)) ->
  let ops := cops same row_view (fun _ => coa1 n w) st (fun _ => seq 0 n) in
  let all := fun _ : nat => seq 0 n in
  (forall l s, co_run _ _ _ (read same) n (memories st) ops all eager l s ->
     exists l' s', co_run _ _ _ (read same) n (memories st) ops all eager (l ++ l') s' /\ co_final _ _ _ (read same) n (memories st) ops all s') /\
  (forall l s r, co_run _ _ _ (read same) n (memories st) ops all eager l s -> r < n -> fi s r = co_len _ _ _ (read same) n (memories st) ops all r ->
     exists m, after_sync _ _ _ (read same) (write same) n (memories st) ops all (SchedModel.st s) r = Some m /\
       (forall i j, i < n -> j < w -> m 0 (i * w + j) = start i 0 (r * w + j)) /\
       (forall b a, b <> 0 \/ n * w <= a -> m b a = start r b a)).
Proof.
  intros Hst ops all. destruct (C107_sync same row_view n (fun _ => coa1 n w) (cotranspose n w x) start all st eager) as (_ & C & F).
  - intros r c _ Hc. apply in_seq in Hc. lia.
  - exact Hst.
  - intros s d _ _ _ (p & i & v & H & _). unfold cotranspose in H. apply in_map_iff in H. destruct H as (k & H & _). discriminate.
  - split; [exact C|]. intros l s r R Hr E. eexists. split; [exact (F l s r R Hr E)|]. rewrite received_cotranspose. split.
    + intros i j Hi Hj. rewrite pulled_cotranspose by exact Hr. cbn [Nat.eqb andb]. destruct (Nat.ltb_spec (i * w + j) (n * w)); [|nia].
      rewrite Nat.div_add_l, (Nat.div_small j w), Nat.add_0_r by lia. rewrite (Nat.add_comm (i * w)), Nat.mod_add, Nat.mod_small by lia. reflexivity.
    + intros b a H. rewrite pulled_cotranspose by exact Hr. destruct (Nat.eqb_spec b 0); cbn [andb]; [|reflexivity]. destruct (Nat.ltb_spec a (n * w)); [lia|reflexivity].
Qed.
Print Assumptions C107_cotranspose.

(** The example of the file: coa1 is zero and coa2 of rank r holds r + 1, say. Row i of coa1 should become i + 1; it stays zero. *)
Definition two_arrays (r b a : nat) : nat := if b =? 1 then r + 1 else 0.
Definition state_of (n w : nat) (x : coa (list nat)) (start : nat -> memory nat) (r : nat) : rstate (list nat) (nat * nat) nat :=
  match exec_all same row_view (fresh _ _ (start r)) (cotranspose n w x r) with Some s => s | None => fresh _ _ (start r) end.
Lemma state_of_ok n w x start r : exec_all same row_view (fresh _ _ (start r)) (cotranspose n w x r) = Some (state_of n w x start r).
Proof.
  unfold state_of, cotranspose. generalize (fresh (list nat) (nat * nat) (start r)) at 1 2. induction (seq 0 n) as [|i l IH]; intros s; [reflexivity|]. cbn [map exec_all exec]. apply IH.
Qed.
Theorem C107_two_arrays_refuted n w eager : 0 < n -> 0 < w ->
  let st := state_of n w (coa2 n w) two_arrays in
  let ops := cops same row_view (fun _ => coa1 n w) st (fun _ => seq 0 n) in
  let all := fun _ : nat => seq 0 n in
  (forall c r, r < n -> read same (two_arrays c) (getitem row_view (coa2 n w) (row w r)) = repeat (c + 1) w) /\
  exists l s, co_run _ _ _ (read same) n (memories st) ops all eager l s /\ co_final _ _ _ (read same) n (memories st) ops all s /\
    forall r, r < n -> exists m, after_sync _ _ _ (read same) (write same) n (memories st) ops all (SchedModel.st s) r = Some m /\
      forall i, i < n -> read same m (getitem row_view (coa1 n w) (row w i)) = repeat 0 w.
Proof.
  intros Hn Hw st ops all. split.
  - intros c r Hr. unfold coa2. rewrite row_of by exact Hr. unfold read, same, two_arrays. cbn. clear. generalize (r * w). induction w as [|k IH]; intros s; [reflexivity|]. cbn. now rewrite IH.
  - destruct (C107_cotranspose n w (coa2 n w) two_arrays st eager (fun r _ => state_of_ok n w (coa2 n w) two_arrays r)) as (C & F).
    destruct (C [] init (run_nil _ _ _)) as (l & s & R & Fi). exists ([] ++ l), s. split; [exact R|]. split; [exact Fi|].
    intros r Hr. destruct (F _ s r R Hr (Fi r Hr)) as (m & E & Hm & _). exists m. split; [exact E|]. intros i Hi. unfold coa1. rewrite row_of by exact Hi.
    unfold read, same. cbn [buf view]. apply nth_ext with (d := m 0 0) (d' := 0); [now rewrite map_length, seq_length, repeat_length|].
    intros j Hj. rewrite map_length, seq_length in Hj. rewrite nth_map_seq by exact Hj. rewrite nth_repeat. rewrite Hm by assumption. reflexivity.
Qed.
Print Assumptions C107_two_arrays_refuted.

(** Three ranks with two rows of two items. Rank 0 pushes its second row to the first row of rank 1 and changes the row afterwards:
    rank 1 gets the new values. Rank 2 pulls, into the last item of a view, the first item of the second row of rank 0. A pull from all images
    and one by another co-array stay pending. *)
Definition case_prog (r : nat) : list (stmt (list nat) (nat * nat) nat) :=
  match r with
  | 0 => [Pushing (Root (coa1 2 2) (Some 1)) (row 2 0) (getitem row_view (coa1 2 2) (row 2 1)); Writing (coa1 2 2) (row 2 1) [8; 9]]
  | 2 => [Pulling (getitem row_view (coa1 2 2) (row 2 1)) (At (1, 1)) (Child (Child (Root (coa1 2 2) (Some 0)) (row 2 1)) (At (0, 1)));
          Pulling (coa1 2 2) Dots (Root (coa1 2 2) None); Pulling (coa2 2 2) Dots (Root (coa1 2 2) (Some 1))]
  | _ => []
  end.
Definition case_start (r b a : nat) : nat := 100 * b + 10 * r + a.
Definition case_state (r : nat) : rstate (list nat) (nat * nat) nat :=
  match exec_all same row_view (fresh _ _ (case_start r)) (case_prog r) with Some s => s | None => fresh _ _ (case_start r) end.
Example C107_case :
  (forall r c, r < 3 -> In c ((fun _ => seq 0 3) r) -> c < 3) /\
  (forall r, r < 3 -> exec_all same row_view (fresh _ _ (case_start r)) (case_prog r) = Some (case_state r)) /\
  one_way 3 (fun _ => coa1 2 2) case_prog (fun _ => seq 0 3) /\
  map (fun r => read same (pulled same row_view (fun _ => coa1 2 2) case_prog case_start (fun _ => seq 0 3) r
         (received same row_view 3 (fun _ => coa1 2 2) case_prog case_start (fun _ => seq 0 3) r)) (coa1 2 2)) [0; 1; 2]
    = [[0; 1; 8; 9]; [8; 9; 12; 13]; [20; 21; 22; 8]] /\
  length (still_pending (fun _ => coa1 2 2) case_state (fun _ => seq 0 3) 2) = 1 /\ length (pending (case_state 2) 1) = 1.
Proof.
  split; [intros r c _ H; apply in_seq in H; lia|]. split; [intros [|[|[|r]]] H; try lia; reflexivity|]. split.
  - intros s d Hs Hd (c & i & p & H & M & P & _) (p' & i' & v & H' & M' & P' & _).
    destruct s as [|[|[|s]]]; try lia; cbn in H'; try contradiction; destruct d as [|[|[|d]]]; try lia; cbn in H; try contradiction; intuition (try congruence).
    all: match goal with E : Pushing _ _ _ = Pushing _ _ _ |- _ => injection E as <- _ _ end; discriminate.
  - vm_compute. auto.
Qed.
