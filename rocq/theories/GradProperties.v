(** Property C94: what abopt.check_grad accepts (pmesh/abopt.py:288-386). *)
From Coq Require Import List Arith ZArith Lia Bool Reals Lra Permutation.
From Verif Require Import EngineModel Base ListFacts LayoutModel WrapModel DomainModel DomainFill MeshModel MeshTile RingModel FieldModel
  FieldFacts FieldProperties FourierReal GradModel.
Import ListNotations.
Local Open Scope R_scope.

(** ** one comparison *)
(** the size that sets the tolerance of an entry: its modulus, or the standard deviation of all
    entries when it vanishes *)
Definition size (all : list R) (a : R) : R := if Req_EM_T a 0 then std all else Rabs a.
Definition tolerance (l1 l2 : list R) (rtol atol a b : R) : R := (size l1 a + size l2 b) * rtol + atol.
Definition close (l1 l2 : list R) (rtol atol a b : R) : Prop :=
  - tolerance l1 l2 rtol atol a b <= a - b < tolerance l1 l2 rtol atol a b.

Lemma std_nonneg l : 0 <= std l.
Proof. apply sqrt_pos. Qed.
Lemma size_nonneg l a : 0 <= size l a.
Proof. unfold size. destruct (Req_EM_T a 0); [apply std_nonneg|apply Rabs_pos]. Qed.
Lemma size_above l a : Rabs a <= size l a.
Proof. unfold size. destruct (Req_EM_T a 0) as [->|]; [rewrite Rabs_R0; apply std_nonneg|lra]. Qed.
Lemma weights_size g : weights g = map (size g) g.
Proof.
  unfold weights. apply map_ext. intros x. unfold size. destruct (Req_EM_T x 0) as [->|N].
  - rewrite Rabs_R0. destruct (Req_EM_T 0 0); [ring|lra].
  - destruct (Req_EM_T (Rabs x) 0) as [E|]; [|ring]. exfalso. apply N. destruct (Req_dec x 0) as [|H]; [assumption|].
    apply Rabs_no_R0 in H. contradiction.
Qed.
Lemma tolerance_pos l1 l2 rtol atol a b : 0 <= rtol -> 0 < atol -> 0 < tolerance l1 l2 rtol atol a b.
Proof.
  intros Hr Ha. unfold tolerance. pose proof (size_nonneg l1 a). pose proof (size_nonneg l2 b).
  assert (0 <= (size l1 a + size l2 b) * rtol) by (apply Rmult_le_pos; lra). lra.
Qed.

Lemma digitize_middle s : digitize (Number s) bins = 4%nat <-> -1 <= s < 1.
Proof.
  unfold digitize, bins. cbn [filter].
  repeat match goal with |- context [Rle_dec ?b s] => destruct (Rle_dec b s) end; cbn [length]; split; intros H; try discriminate H; try lra; try reflexivity.
Qed.
Lemma quotient_close d t : 0 < t -> digitize (divide d t) bins = 4%nat <-> - t <= d < t.
Proof.
  intros Ht. unfold divide. destruct (Req_EM_T t 0) as [|N]; [lra|]. rewrite digitize_middle.
  assert (I : 0 < / t) by now apply Rinv_0_lt_compat.
  assert (E : d = d / t * t) by (field; exact N). split; intros [A B].
  - rewrite E. set (q := d / t) in *. split; nra.
  - rewrite E in A, B. set (q := d / t) in *. split; nra.
Qed.

Lemma map2_map_pairs {A B C} (f : A -> B) (g : A -> C) {D} (h : B -> C -> D) l :
  map2 h (map f l) (map g l) = map (fun a => h (f a) (g a)) l.
Proof. unfold map2. induction l as [|a l IH]; [reflexivity|]. cbn. f_equal. exact IH. Qed.

Lemma errorstat_map stat rtol atol : errorstat stat rtol atol =
  map (fun p => digitize (divide (fst p - snd p) (tolerance (map fst stat) (map snd stat) rtol atol (fst p) (snd p))) bins) stat.
Proof.
  unfold errorstat. rewrite !weights_size, !map_map, !map2_map_pairs. reflexivity.
Qed.

Lemma existsb_map_false {A} (f : A -> nat) l :
  existsb (fun d => negb (Nat.eqb d 4)) (map f l) = false <-> (forall a, In a l -> f a = 4%nat).
Proof.
  induction l as [|a l IH]; cbn [map existsb In]; [split; [intros _ a []|reflexivity]|].
  rewrite orb_false_iff, IH, negb_false_iff, Nat.eqb_eq. split.
  - intros [E F] b [<-|Hb]; auto.
  - intros F. split; [apply F; now left|]. intros b Hb. apply F. now right.
Qed.

Lemma stat_close stat rtol atol : 0 <= rtol -> 0 < atol ->
  existsb (fun d => negb (Nat.eqb d 4)) (errorstat stat rtol atol) = false <->
  (forall p, In p stat -> close (map fst stat) (map snd stat) rtol atol (fst p) (snd p)).
Proof.
  intros Hr Ha. rewrite errorstat_map, existsb_map_false.
  split; intros H p Hp; specialize (H p Hp); apply quotient_close in H || apply quotient_close; auto using tolerance_pos.
Qed.

Lemma judge_passed fg ng rtol atol : 0 <= rtol -> 0 < atol ->
  judge fg ng rtol atol = Passed <->
  (forall p, In p fg -> close (map fst fg) (map snd fg) rtol atol (fst p) (snd p)) /\
  (forall p, In p ng -> close (map fst ng) (map snd ng) (rtol * 10000) atol (fst p) (snd p)).
Proof.
  intros Hr Ha. rewrite <- !stat_close by (assumption || lra). unfold judge.
  set (b1 := existsb _ (errorstat fg _ _)). set (b2 := existsb _ (errorstat ng _ _)).
  destruct b1, b2; split; try discriminate; try tauto; intros [A B]; discriminate.
Qed.
Lemma judge_fg fg ng rtol atol : 0 <= rtol -> 0 < atol ->
  judge fg ng rtol atol = FG_BG <->
  ~ (forall p, In p fg -> close (map fst fg) (map snd fg) rtol atol (fst p) (snd p)).
Proof.
  intros Hr Ha. rewrite <- stat_close by (assumption || lra). unfold judge.
  set (b1 := existsb _ (errorstat fg _ _)). set (b2 := existsb _ (errorstat ng _ _)).
  destruct b1, b2; split; try discriminate; try reflexivity; intros H; exfalso; now apply H.
Qed.

(** ** arrays of particles *)
(** number [c] of particle [p], the particles counted through over the ranks *)
Definition entry (w : particles) (p c : nat) : R := nth c (nth p (concat w) []) 0.
Definition same_shape (a b : particles) : Prop := map (map (@length _)) a = map (map (@length _)) b.
(** [w'] is [w] with [h] added to number [c] of particle [i] *)
Definition displaced (w : particles) (i c : nat) (h : R) (w' : particles) : Prop :=
  same_shape w' w /\
  forall p k, entry w' p k = entry w p k + (if Nat.eqb p i && Nat.eqb k c then h else 0).
Definition nowhere (w : particles) : particles := map (map (map (fun _ => 0))) w.
(** [nd] numbers for every particle *)
Definition rectangular (nd : nat) (w : particles) : Prop := Forall (Forall (fun row => length row = nd)) w.
Definition count (w : particles) : nat := list_sum (map (@length _) w).

Lemma upd_app {A} i f (a b : list A) : upd i f (a ++ b) = if Nat.ltb i (length a) then upd i f a ++ b else a ++ upd (i - length a) f b.
Proof.
  revert i. induction a as [|x a IH]; intros i.
  - cbn [app length]. destruct (Nat.ltb_spec i 0); [lia|]. now rewrite Nat.sub_0_r.
  - destruct i as [|i]; [reflexivity|]. cbn [app upd length]. rewrite IH.
    destruct (Nat.ltb_spec i (length a)), (Nat.ltb_spec (S i) (S (length a))); try lia; reflexivity.
Qed.
Lemma upd_beyond {A} i f (l : list A) : (length l <= i)%nat -> upd i f l = l.
Proof. revert i. induction l as [|x l IH]; intros [|i] H; cbn in *; try reflexivity; try lia. f_equal. apply IH. lia. Qed.

Lemma perturb_concat (w : particles) i c e : concat (cperturb w (i, c) e) = upd i (upd c (fun old => old + e)) (concat w).
Proof.
  unfold cperturb. cbn [fst snd].
  enough (G : forall pre w k, k = length pre ->
    concat (map (fun rp =>
         if Nat.leb (list_sum (firstn (fst rp) (pre ++ map (@length _) w))) i && Nat.ltb i (list_sum (firstn (fst rp + 1) (pre ++ map (@length _) w)))
         then upd (i - list_sum (firstn (fst rp) (pre ++ map (@length _) w))) (upd c (fun old => old + e)) (snd rp)
         else snd rp) (combine (seq k (length w)) w)) =
    if Nat.ltb i (list_sum pre) then concat w else upd (i - list_sum pre) (upd c (fun old => old + e)) (concat w)).
  { specialize (G [] w 0%nat eq_refl). cbn [app list_sum fold_right] in G. rewrite Nat.sub_0_r in G. exact G. }
  intros pre v. revert pre. induction v as [|r v IH]; intros pre k Hk.
  - cbn [length seq combine map concat]. destruct (Nat.ltb i (list_sum pre)); [reflexivity|]. destruct (i - list_sum pre)%nat; reflexivity.
  - cbn [length seq combine map concat fst snd].
    specialize (IH (pre ++ [length r]) (S k)). rewrite <- app_assoc in IH. cbn [app] in IH.
    rewrite IH by (rewrite app_length; cbn; lia). clear IH. rewrite !list_sum_app. cbn [list_sum fold_right].
    rewrite firstn_app, firstn_all2 by lia. replace (k - length pre)%nat with 0%nat by lia. cbn [firstn]. rewrite app_nil_r.
    rewrite firstn_app, firstn_all2 by lia. replace (k + 1 - length pre)%nat with 1%nat by lia. cbn [firstn]. rewrite list_sum_app. cbn [list_sum fold_right].
    rewrite upd_app, Nat.add_0_r.
    destruct (Nat.leb_spec (list_sum pre) i), (Nat.ltb_spec i (list_sum pre + length r)), (Nat.ltb_spec i (list_sum pre)),
      (Nat.ltb_spec (i - list_sum pre) (length r)); cbn [andb]; try lia; try reflexivity.
    rewrite Nat.sub_add_distr. reflexivity.
Qed.
Lemma perturb_shape (w : particles) ix e : same_shape (cperturb w ix e) w.
Proof.
  unfold same_shape, cperturb. rewrite map_map.
  assert (U : forall i (l : list (list R)), map (@length R) (upd i (upd (snd ix) (fun old => old + e)) l) = map (@length R) l).
  { intros i l. revert i. induction l as [|x l IH]; intros [|i]; cbn; try reflexivity; [now rewrite upd_length|now rewrite IH]. }
  transitivity (map (map (@length R)) (map snd (combine (seq 0 (length w)) w)));
    [|rewrite (map_snd_combine (seq 0 (length w)) w) by (now rewrite seq_length); reflexivity].
  rewrite map_map. apply map_ext. intros rp. destruct (_ && _); [apply U|reflexivity].
Qed.

Lemma count_concat w : count w = length (concat w).
Proof. unfold count. induction w as [|r w IH]; [reflexivity|]. cbn [map concat]. rewrite app_length, <- IH. reflexivity. Qed.
Lemma rows_concat nd w : rectangular nd w -> forall p, (p < count w)%nat -> length (nth p (concat w) []) = nd.
Proof.
  intros H p Hp. rewrite count_concat in Hp. pose proof (nth_In (concat w) [] Hp) as I. apply in_concat in I. destruct I as (r & R1 & R2).
  unfold rectangular in H. rewrite Forall_forall in H. specialize (H r R1). rewrite Forall_forall in H. now apply H.
Qed.
Lemma nth_upd {A} i f (l : list A) j d : nth j (upd i f l) d = if Nat.eqb j i && Nat.ltb j (length l) then f (nth j l d) else nth j l d.
Proof.
  revert i j. induction l as [|x l IH]; intros i j; [destruct i, j; cbn; now rewrite ?andb_false_r|].
  destruct i, j; cbn [upd nth]; try reflexivity. rewrite IH. reflexivity.
Qed.

(** perturbing moves one number of one particle, on the rank that has it *)
Lemma perturb_displaced nd w i c h : rectangular nd w -> (i < count w)%nat -> (c < nd)%nat -> displaced w i c h (cperturb w (i, c) h).
Proof.
  intros H Hi Hc. split; [apply perturb_shape|]. intros p k. unfold entry. rewrite perturb_concat, nth_upd, <- count_concat.
  destruct (Nat.eqb_spec p i) as [->|]; cbn [andb]; [|ring].
  destruct (Nat.ltb_spec i (count w)); [|lia]. rewrite nth_upd, (rows_concat nd) by assumption.
  destruct (Nat.eqb_spec k c) as [->|]; cbn [andb]; [|ring]. destruct (Nat.ltb_spec c nd); [reflexivity|lia].
Qed.

Lemma shape_count a b : same_shape a b -> count a = count b.
Proof.
  unfold same_shape, count. revert b. induction a as [|x a IH]; intros [|y b] E; try discriminate; [reflexivity|].
  cbn in *. inversion E as [[E1 E2]]. apply (f_equal (@length _)) in E1. rewrite !map_length in E1. rewrite E1. f_equal. now apply IH.
Qed.
Lemma shape_lengths a b : same_shape a b -> map (@length _) (concat a) = map (@length _) (concat b).
Proof. unfold same_shape. intros E. rewrite !concat_map, E. reflexivity. Qed.
Lemma concat_inj {A} (a b : list (list A)) : map (@length _) a = map (@length _) b -> concat a = concat b -> a = b.
Proof.
  revert b. induction a as [|x a IH]; intros [|y b] E F; try discriminate; [reflexivity|]. cbn in *. inversion E as [[E1 E2]].
  assert (x = y /\ concat a = concat b) as [-> G]; [|f_equal; now apply IH].
  clear -E1 F. revert y E1 F. induction x as [|u x IH]; intros [|v y] E F; try discriminate; [now split|].
  cbn in *. inversion F. destruct (IH y) as [-> ?]; auto.
Qed.
Lemma shape_sizes a b : same_shape a b -> map (@length (list R)) a = map (@length (list R)) b.
Proof.
  intros S. apply (f_equal (map (@length _))) in S. rewrite !map_map in S.
  assert (E : forall l : particles, map (fun x => length (map (@length R) x)) l = map (@length (list R)) l) by (intros l; apply map_ext; intros x; apply map_length).
  now rewrite !E in S.
Qed.
(** the shape and the numbers make the array *)
Lemma entries_equal a b : same_shape a b -> (forall p k, entry a p k = entry b p k) -> a = b.
Proof.
  intros S E. apply concat_inj.
  - now apply shape_sizes.
  - pose proof (shape_lengths a b S) as L. unfold entry in E. revert L E. generalize (concat a) (concat b). clear.
    intros a b L E. pose proof (f_equal (@length _) L) as LL. rewrite !map_length in LL.
    apply (nth_ext a b [] []); [exact LL|]. intros n Hn.
    assert (Q : length (nth n a []) = length (nth n b [])).
    { pose proof (f_equal (fun l => nth n l 0%nat) L) as Q. cbn beta in Q.
      rewrite (nth_map_in (@length R) a n 0%nat []), (nth_map_in (@length R) b n 0%nat []) in Q by lia. exact Q. }
    apply (nth_ext _ _ 0 0); [exact Q|]. intros k Hk. apply E.
Qed.
Lemma displaced_unique w i c h a b : displaced w i c h a -> displaced w i c h b -> a = b.
Proof. intros [S1 E1] [S2 E2]. apply entries_equal; [unfold same_shape in *; congruence|]. intros p k. now rewrite E1, E2. Qed.

Lemma minus_concat a b : map (@length _) a = map (@length _) b ->
  concat (map2 (map2 (map2 Rminus)) a b) = map2 (map2 Rminus) (concat a) (concat b).
Proof.
  revert b. induction a as [|x a IH]; intros [|y b] E; try discriminate; [reflexivity|]. inversion E as [[E1 E2]].
  unfold map2 at 1. cbn [combine map concat fst snd]. fold (map2 (map2 (map2 Rminus)) a b). rewrite (IH _ E2).
  unfold map2 at 1 3. rewrite <- map_app. f_equal. clear -E1. revert y E1. induction x as [|u x IH]; intros [|v y] E; try discriminate; [reflexivity|].
  cbn in *. f_equal. apply IH. lia.
Qed.
Lemma nth_map2 {A B C} (f : A -> B -> C) l m n da db dc : length l = length m -> f da db = dc ->
  nth n (map2 f l m) dc = f (nth n l da) (nth n m db).
Proof.
  intros E D. revert m n E. induction l as [|x l IH]; intros [|y m] n E; try discriminate; [destruct n; cbn; congruence|].
  destruct n; [reflexivity|]. unfold map2. cbn. apply IH. cbn in E. lia.
Qed.
Lemma entry_nowhere w p k : entry (nowhere w) p k = 0.
Proof.
  unfold entry, nowhere. rewrite <- concat_map. destruct (lt_dec p (length (concat w))) as [H|H].
  - rewrite (nth_map_in (map (fun _ => 0)) (concat w) p [] []) by exact H.
    destruct (lt_dec k (length (nth p (concat w) []))) as [G|G].
    + now rewrite (nth_map_in (fun _ => 0) _ k 0 0).
    + apply nth_overflow. rewrite map_length. lia.
  - rewrite (nth_overflow (map _ _)) by (rewrite map_length; lia). now destruct k.
Qed.

(** the direction of the jvp is the unit vector of the entry, 2 eps long *)
Lemma base_displaced nd w i c h : rectangular nd w -> (i < count w)%nat -> (c < nd)%nat ->
  displaced (nowhere w) i c (2 * h) (map2 (map2 (map2 Rminus)) (cperturb w (i, c) h) (cperturb w (i, c) (- h))).
Proof.
  intros H Hi Hc. destruct (perturb_displaced nd w i c h H Hi Hc) as [S1 E1]. destruct (perturb_displaced nd w i c (- h) H Hi Hc) as [S2 E2].
  set (a := cperturb w (i, c) h) in *. set (b := cperturb w (i, c) (- h)) in *. clearbody a b.
  assert (S : same_shape a b) by (unfold same_shape in *; congruence).
  assert (SL : map (@length _) a = map (@length _) b).
  { now apply shape_sizes. }
  split.
  - transitivity (map (map (@length R)) w); [|unfold nowhere; rewrite map_map; apply map_ext; intros r; rewrite map_map; apply map_ext; intros q; now rewrite map_length].
    rewrite <- S1. clear -S. unfold same_shape in S. unfold map2. revert b S. induction a as [|x a IH]; intros [|y b] S; try discriminate; [reflexivity|].
    cbn [map combine fst snd] in *. injection S as S1 S2. f_equal; [|now apply IH].
    clear -S1. revert y S1. induction x as [|u x IH]; intros [|v y] S; try discriminate; [reflexivity|]. cbn in *. injection S as S1 S2. f_equal; [|now apply IH].
    rewrite map_length, combine_length. lia.
  - intros p k. rewrite entry_nowhere. specialize (E1 p k). specialize (E2 p k). unfold entry in *. rewrite minus_concat by exact SL.
    pose proof (shape_lengths a b S) as L. pose proof (f_equal (@length _) L) as LL. rewrite !map_length in LL.
    rewrite (nth_map2 _ _ _ _ [] []) by (exact LL || reflexivity).
    rewrite (nth_map2 Rminus _ _ _ 0 0).
    + rewrite E1, E2. destruct (_ && _); ring.
    + destruct (lt_dec p (length (concat a))) as [Q|Q]; [|rewrite !nth_overflow by lia; reflexivity].
      pose proof (f_equal (fun l => nth p l 0%nat) L) as N. cbn beta in N.
      rewrite (nth_map_in (@length R) (concat a) p 0%nat []), (nth_map_in (@length R) (concat b) p 0%nat []) in N by lia. exact N.
    + ring.
Qed.

(** reading gives the entry, on all ranks *)
Lemma get_entry w i c : cget (Some w) (i, c) = entry w i c.
Proof.
  unfold cget, entry. cbn [fst snd].
  enough (G : forall pre w k, k = length pre ->
    rsum (K := Rring) (fun rp =>
         if Nat.leb (list_sum (firstn (fst rp) (pre ++ map (@length _) w))) i && Nat.ltb i (list_sum (firstn (fst rp + 1) (pre ++ map (@length _) w)))
         then nth c (nth (i - list_sum (firstn (fst rp) (pre ++ map (@length _) w))) (snd rp) []) 0
         else 0) (combine (seq k (length w)) w) =
    if Nat.ltb i (list_sum pre) then 0 else nth c (nth (i - list_sum pre) (concat w) []) 0).
  { specialize (G [] w 0%nat eq_refl). cbn [app list_sum fold_right] in G. rewrite Nat.sub_0_r in G. exact G. }
  intros pre v. revert pre. induction v as [|r v IH]; intros pre k Hk.
  - cbn [length seq combine concat rsum fold_right r0 Rring]. destruct (Nat.ltb i (list_sum pre)); [reflexivity|]. destruct (i - list_sum pre)%nat, c; reflexivity.
  - cbn [length seq combine concat]. rewrite rsum_cons. cbn [fst snd radd Rring].
    specialize (IH (pre ++ [length r]) (S k)). rewrite <- app_assoc in IH. cbn [app] in IH. cbn [map].
    rewrite IH by (rewrite app_length; cbn; lia). clear IH. rewrite !list_sum_app. cbn [list_sum fold_right].
    rewrite firstn_app, firstn_all2 by lia. replace (k - length pre)%nat with 0%nat by lia. cbn [firstn]. rewrite app_nil_r.
    rewrite firstn_app, firstn_all2 by lia. replace (k + 1 - length pre)%nat with 1%nat by lia. cbn [firstn]. rewrite list_sum_app. cbn [list_sum fold_right].
    rewrite Nat.add_0_r.
    destruct (Nat.leb_spec (list_sum pre) i), (Nat.ltb_spec i (list_sum pre + length r)), (Nat.ltb_spec i (list_sum pre)); cbn [andb]; try lia.
    + rewrite app_nth1 by lia. apply Rplus_0_r.
    + rewrite app_nth2 by lia. rewrite Nat.sub_add_distr. apply Rplus_0_l.
    + apply Rplus_0_l.
Qed.

(** ** what passes, for an array of particles *)
Section Particles.
Variables (nd : nat) (y jvp : particles -> R) (center : particles) (eps rtol atol : R) (g : option particles).
Hypothesis shape : rectangular nd center.
(** [D]: the difference of the function between the two displaced arrays; [J]: the jvp along the
    unit vector, 2 eps long; [A]: the gradient returned by the vjp, times 2 eps *)
Variables D J A : nat -> nat -> R.
Definition measures : Prop :=
  (forall i c w1 w0, (i < count center)%nat -> (c < nd)%nat -> displaced center i c eps w1 -> displaced center i c (- eps) w0 ->
     D i c = y w1 - y w0) /\
  (forall i c b, (i < count center)%nat -> (c < nd)%nat -> displaced (nowhere center) i c (2 * eps) b -> J i c = jvp b) /\
  (forall i c, (i < count center)%nat -> (c < nd)%nat -> A i c = match g with Some g => entry g i c | None => 0 end * (2 * eps)).
(** the numbers of all entries *)
Definition all_of (f : nat -> nat -> R) : list R :=
  flat_map (fun i => map (f i) (seq 0 nd)) (seq 0 (count center)).

Lemma all_indices f : map (fun ix => f (fst ix) (snd ix)) (ndindex (count center) nd) = all_of f.
Proof.
  unfold ndindex, all_of. induction (seq 0 (count center)) as [|i l IH]; [reflexivity|]. cbn [list_prod flat_map]. rewrite map_app, map_map, IH. reflexivity.
Qed.
Lemma in_ndindex i c n m : In (i, c) (ndindex n m) <-> (i < n)%nat /\ (c < m)%nat.
Proof. unfold ndindex. rewrite in_prod_iff, !in_seq. lia. Qed.

Hypothesis M : measures.
Lemma rows_measured :
  check_particles nd y jvp g center eps rtol atol =
  judge (map (fun ix => (J (fst ix) (snd ix), A (fst ix) (snd ix))) (ndindex (count center) nd))
        (map (fun ix => (D (fst ix) (snd ix), A (fst ix) (snd ix))) (ndindex (count center) nd)) rtol atol.
Proof.
  unfold check_particles. fold (count center). destruct M as (MD & MJ & MA).
  f_equal; apply map_ext_in; intros [i c] Hx; apply in_ndindex in Hx; destruct Hx as [Hi Hc]; cbn [fst snd].
  - f_equal.
    + symmetry. apply MJ; auto. now apply (base_displaced nd).
    + rewrite MA by assumption. destruct g; [rewrite get_entry|cbn [cget]]; ring.
  - f_equal.
    + symmetry. apply MD; auto; now apply (perturb_displaced nd).
    + rewrite MA by assumption. destruct g; [rewrite get_entry|cbn [cget]]; ring.
Qed.

Definition agree_jvp : Prop := forall i c, (i < count center)%nat -> (c < nd)%nat ->
  close (all_of J) (all_of A) rtol atol (J i c) (A i c).
Definition agree_difference : Prop := forall i c, (i < count center)%nat -> (c < nd)%nat ->
  close (all_of D) (all_of A) (rtol * 10000) atol (D i c) (A i c).

Lemma pairs_close (P Q : nat -> nat -> R) r :
  let l := map (fun ix => (P (fst ix) (snd ix), Q (fst ix) (snd ix))) (ndindex (count center) nd) in
  (forall p, In p l -> close (map fst l) (map snd l) r atol (fst p) (snd p)) <->
  (forall i c, (i < count center)%nat -> (c < nd)%nat -> close (all_of P) (all_of Q) r atol (P i c) (Q i c)).
Proof.
  intros l. assert (E1 : map fst l = all_of P) by (unfold l; rewrite map_map; apply all_indices).
  assert (E2 : map snd l = all_of Q) by (unfold l; rewrite map_map; apply all_indices).
  rewrite E1, E2. split.
  - intros H i c Hi Hc. apply (H (P i c, Q i c)). apply in_map_iff. exists (i, c). split; [reflexivity|]. now apply in_ndindex.
  - intros H p Hp. apply in_map_iff in Hp. destruct Hp as ([i c] & <- & Hx). apply in_ndindex in Hx. now apply H.
Qed.

(** the verdict, for every entry of every particle of every rank *)
Theorem C94_particles : 0 <= rtol -> 0 < atol ->
  (check_particles nd y jvp g center eps rtol atol = Passed <-> agree_jvp /\ agree_difference) /\
  (check_particles nd y jvp g center eps rtol atol = FG_BG <-> ~ agree_jvp).
Proof.
  intros Hr Ha. rewrite rows_measured. split.
  - rewrite judge_passed by assumption. cbv zeta. rewrite (pairs_close J A rtol), (pairs_close D A (rtol * 10000)). reflexivity.
  - rewrite judge_fg by assumption. rewrite (pairs_close J A rtol). reflexivity.
Qed.

Lemma close_same l1 l2 r a b : 0 <= r -> 0 < atol -> a = b -> close l1 l2 r atol a b.
Proof. intros Hr Ha ->. unfold close. pose proof (tolerance_pos l1 l2 r atol b b Hr Ha). lra. Qed.

(** exact derivatives of a function whose difference quotients are exact are accepted *)
Theorem C94_accepts : 0 <= rtol -> 0 < atol ->
  (forall i c, (i < count center)%nat -> (c < nd)%nat -> J i c = A i c /\ D i c = A i c) ->
  check_particles nd y jvp g center eps rtol atol = Passed.
Proof.
  intros Hr Ha H. apply C94_particles; [assumption..|]. split; intros i c Hi Hc; apply close_same; try assumption; try lra; now apply H.
Qed.

(** a gradient that is off by more than the tolerances is refused *)
Theorem C94_rejects : 0 <= rtol -> 0 < atol -> forall i c, (i < count center)%nat -> (c < nd)%nat -> A i c <> 0 ->
  (J i c <> 0 -> (Rabs (J i c) + Rabs (A i c)) * rtol + atol < Rabs (J i c - A i c) ->
     check_particles nd y jvp g center eps rtol atol = FG_BG) /\
  (D i c <> 0 -> (Rabs (D i c) + Rabs (A i c)) * (rtol * 10000) + atol < Rabs (D i c - A i c) ->
     check_particles nd y jvp g center eps rtol atol <> Passed).
Proof.
  intros Hr Ha i c Hi Hc NA.
  assert (X : forall l1 l2 r a, a <> 0 -> (Rabs a + Rabs (A i c)) * r + atol < Rabs (a - A i c) -> ~ close l1 l2 r atol a (A i c)).
  { intros l1 l2 r a Na L [C1 C2]. unfold tolerance, size in C1, C2. destruct (Req_EM_T a 0); [contradiction|]. destruct (Req_EM_T (A i c) 0); [contradiction|].
    revert L. unfold Rabs at 3. destruct (Rcase_abs _); lra. }
  split; intros N L.
  - apply C94_particles; [assumption..|]. intros H. exact (X _ _ _ _ N L (H i c Hi Hc)).
  - intros P. apply C94_particles in P; [|assumption..]. destruct P as [_ P]. exact (X _ _ _ _ N L (P i c Hi Hc)).
Qed.

(** the second comparison is made with ten thousand times the tolerance: from rtol = 1e-4 on it
    accepts every function *)
Theorem C94_difference_void : / 10000 <= rtol -> 0 < atol -> agree_difference /\ check_particles nd y jvp g center eps rtol atol <> NG_BG.
Proof.
  intros Hr Ha. assert (AD : agree_difference).
  { intros i c Hi Hc. unfold close, tolerance. set (a := D i c). set (b := A i c).
    pose proof (size_above (all_of D) a). pose proof (size_above (all_of A) b).
    set (sa := size _ a) in *. set (sb := size _ b) in *. pose proof (Rabs_pos a). pose proof (Rabs_pos b).
    assert (1 <= rtol * 10000) by lra. assert (sa + sb <= (sa + sb) * (rtol * 10000)) by nra.
    assert (- Rabs a <= a <= Rabs a) by (split; [pose proof (Rabs_def2 a (Rabs a + 1)); unfold Rabs in *; destruct (Rcase_abs a); lra|apply Rle_abs]).
    assert (- Rabs b <= b <= Rabs b) by (unfold Rabs; destruct (Rcase_abs b); lra).
    lra. }
  split; [exact AD|]. intros E.
  assert (H0 : 0 <= rtol) by lra. destruct (C94_particles H0 Ha) as [P1 P2].
  assert (NP : ~ agree_jvp) by (intros H; assert (X := proj2 P1 (conj H AD)); congruence).
  apply P2 in NP. congruence.
Qed.
End Particles.

(** every function and every gradient is measured by some numbers *)
Theorem C94_measured : forall nd y jvp center eps g, rectangular nd center -> exists D J A, measures nd y jvp center eps g D J A.
Proof.
  intros nd y jvp center eps g H.
  exists (fun i c => y (cperturb center (i, c) eps) - y (cperturb center (i, c) (- eps))),
    (fun i c => jvp (map2 (map2 (map2 Rminus)) (cperturb center (i, c) eps) (cperturb center (i, c) (- eps)))),
    (fun i c => match g with Some g => entry g i c | None => 0 end * (2 * eps)).
  split; [|split].
  - intros i c w1 w0 Hi Hc D1 D0.
    rewrite (displaced_unique _ _ _ _ _ _ D1 (perturb_displaced nd center i c eps H Hi Hc)).
    rewrite (displaced_unique _ _ _ _ _ _ D0 (perturb_displaced nd center i c (- eps) H Hi Hc)). reflexivity.
  - intros i c b Hi Hc B. rewrite (displaced_unique _ _ _ _ _ _ B (base_displaced nd center i c eps H Hi Hc)). reflexivity.
  - reflexivity.
Qed.

(** ** the statement to_scalar (abopt.py:266-286) passes *)
(** all numbers of an array, as the collective sum of to_scalar runs over them *)
Definition flat (w : particles) : EngineModel.world Rring := map (@concat R) w.
Definition numbers (w : particles) : list R := concat (concat w).

Lemma flat_numbers w : concat (flat w) = numbers w.
Proof. unfold flat, numbers. induction w as [|r w IH]; [reflexivity|]. cbn [map concat]. rewrite concat_app, <- IH. reflexivity. Qed.
Lemma flat_lengths a b : same_shape a b -> map (@length _) (flat a) = map (@length _) (flat b).
Proof.
  unfold same_shape, flat. revert b. induction a as [|x a IH]; intros [|z b] E; try discriminate; [reflexivity|].
  cbn [map] in *. injection E as E1 E2. f_equal; [|now apply IH]. clear -E1. revert z E1. induction x as [|u x IH]; intros [|v z] E; try discriminate; [reflexivity|].
  cbn [map concat] in *. injection E as E1 E2. rewrite !app_length. f_equal; [exact E1|now apply IH].
Qed.

Lemma rect_rows nd w : rectangular nd w -> Forall (fun row => length row = nd) (concat w).
Proof.
  unfold rectangular. intros H. induction H as [|r w Hr H IH]; [constructor|]. cbn [concat]. apply Forall_app. now split.
Qed.
Lemma upd_numbers {A} nd (rows : list (list A)) i c f : Forall (fun row => length row = nd) rows -> (c < nd)%nat ->
  concat (upd i (upd c f) rows) = upd (i * nd + c) f (concat rows).
Proof.
  intros H Hc. revert i. induction H as [|row rows Hr H IH]; intros i; [rewrite !upd_beyond by (cbn; lia); reflexivity|].
  destruct i as [|i]; cbn [upd concat]; rewrite upd_app, Hr.
  - cbn [Nat.mul Nat.add]. destruct (Nat.ltb_spec c nd); [reflexivity|lia].
  - destruct (Nat.ltb_spec (S i * nd + c) nd); [cbn in *; lia|]. rewrite IH. f_equal. f_equal. cbn. lia.
Qed.
Lemma nth_numbers nd (rows : list (list R)) i c : Forall (fun row => length row = nd) rows -> (c < nd)%nat ->
  nth c (nth i rows []) 0 = nth (i * nd + c) (concat rows) 0.
Proof.
  intros H Hc. revert i. induction H as [|row rows Hr H IH]; intros i; [rewrite !nth_overflow; cbn; try lia; rewrite ?nth_overflow by (destruct i; cbn; lia); try reflexivity; destruct i; cbn; lia|].
  destruct i as [|i]; cbn [nth concat].
  - rewrite app_nth1 by (cbn; lia). reflexivity.
  - rewrite IH, app_nth2 by (cbn; lia). f_equal. cbn. lia.
Qed.
Lemma numbers_length nd w : rectangular nd w -> length (numbers w) = (count w * nd)%nat.
Proof.
  intros H. rewrite count_concat. unfold numbers. pose proof (rect_rows nd w H) as R. induction R as [|row rows Hr R IH]; [reflexivity|].
  cbn [concat length]. rewrite app_length, IH, Hr. cbn. lia.
Qed.
Lemma displaced_numbers nd w i c h w' : rectangular nd w -> (i < count w)%nat -> (c < nd)%nat -> displaced w i c h w' ->
  numbers w' = upd (i * nd + c) (fun a => a + h) (numbers w).
Proof.
  intros H Hi Hc D. rewrite (displaced_unique _ _ _ _ _ _ D (perturb_displaced nd w i c h H Hi Hc)).
  unfold numbers. rewrite perturb_concat. apply upd_numbers; [now apply rect_rows|exact Hc].
Qed.

Definition total (l : list R) : R := fold_right Rplus 0 l.
Lemma total_app a b : total (a ++ b) = total a + total b.
Proof. unfold total. induction a as [|x a IH]; cbn [app fold_right]; [ring|]. rewrite IH. ring. Qed.
Lemma rsum_total {A} (f : A -> R) l : rsum (K := Rring) f l = total (map f l).
Proof. induction l as [|x l IH]; [reflexivity|]. rewrite rsum_cons, IH. reflexivity. Qed.
Lemma scalar_total w : to_scalar Rring (flat w) = total (map (fun a => a * a) (numbers w)).
Proof.
  rewrite <- flat_numbers. unfold to_scalar, allsum. rewrite rsum_map. generalize (flat w). intros f.
  induction f as [|r f IH]; [reflexivity|]. rewrite rsum_cons, IH, rsum_total. cbn [concat].
  etransitivity; [symmetry; apply total_app|]. f_equal. symmetry. apply map_app.
Qed.
Lemma jvp_total w b : map (@length _) (flat w) = map (@length _) (flat b) ->
  to_scalar_jvp Rring (flat b) (flat w) = 2 * total (map (fun q => fst q * snd q) (combine (numbers w) (numbers b))).
Proof.
  rewrite <- !flat_numbers. unfold to_scalar_jvp, allsum. rewrite rsum_map. generalize (flat w) (flat b). intros f e E.
  etransitivity; [apply Rmult_comm|]. change (@r1 Rring + @r1 Rring)%rg with (1 + 1). replace (1 + 1) with 2 by ring. f_equal. revert e E.
  induction f as [|r f IH]; intros [|s e] E; try discriminate; [reflexivity|]. injection E as E1 E2. specialize (IH e E2).
  cbn [combine]. rewrite rsum_cons, IH, rsum_total. cbn [concat fst snd].
  assert (C : combine (r ++ concat f) (s ++ concat e) = combine r s ++ combine (concat f) (concat e)).
  { clear -E1. revert s E1. induction r as [|u r IH]; intros [|v s] E; try discriminate; [reflexivity|]. cbn. f_equal. apply IH. cbn in E. lia. }
  etransitivity; [symmetry; apply total_app|]. f_equal. symmetry. etransitivity; [apply (f_equal _ C)|]. apply map_app.
Qed.
Lemma total_upd l k h : (k < length l)%nat ->
  total (map (fun a => a * a) (upd k (fun a => a + h) l)) = total (map (fun a => a * a) l) + 2 * h * nth k l 0 + h * h.
Proof.
  revert k. induction l as [|x l IH]; intros [|k] H; cbn [length] in H; try lia; cbn [upd map total fold_right nth].
  - ring.
  - fold (total (map (fun a => a * a) (upd k (fun a => a + h) l))). fold (total (map (fun a => a * a) l)). rewrite IH by lia. ring.
Qed.
Lemma total_unit l k h : (k < length l)%nat ->
  total (map (fun q => fst q * snd q) (combine l (upd k (fun a => a + h) (map (fun _ => 0) l)))) = h * nth k l 0.
Proof.
  assert (Z : forall l : list R, total (map (fun q => fst q * snd q) (combine l (map (fun _ => 0) l))) = 0).
  { intros m. induction m as [|x m IH]; [reflexivity|]. cbn [map combine total fold_right fst snd]. fold (total (map (fun q => fst q * snd q) (combine m (map (fun _ : R => 0) m)))).
    rewrite IH. ring. }
  revert k. induction l as [|x l IH]; intros [|k] H; cbn [length] in H; try lia; cbn [upd map combine total fold_right nth fst snd].
  - fold (total (map (fun q => fst q * snd q) (combine l (map (fun _ : R => 0) l)))). rewrite Z. ring.
  - fold (total (map (fun q => fst q * snd q) (combine l (upd k (fun a => a + h) (map (fun _ : R => 0) l))))). rewrite IH by lia. ring.
Qed.

(** y = sum of x^2 and jvp = 2 x . x_ measure 4 eps x, whatever the gradient *)
Lemma scalar_measures nd center eps g : rectangular nd center ->
  measures nd (fun w => to_scalar Rring (flat w)) (fun b => to_scalar_jvp Rring (flat b) (flat center)) center eps g
    (fun i c => 4 * eps * entry center i c) (fun i c => 4 * eps * entry center i c)
    (fun i c => match g with Some g => entry g i c | None => 0 end * (2 * eps)).
Proof.
  intros H. pose proof (rect_rows nd center H) as HR.
  assert (P : forall i c, (i < count center)%nat -> (c < nd)%nat -> (i * nd + c < length (numbers center))%nat).
  { intros i c Hi Hc. rewrite (numbers_length nd) by assumption. nia. }
  assert (E : forall i c, (i < count center)%nat -> (c < nd)%nat -> entry center i c = nth (i * nd + c) (numbers center) 0).
  { intros i c Hi Hc. unfold entry. now apply nth_numbers. }
  split; [|split].
  - intros i c w1 w0 Hi Hc D1 D0. rewrite !scalar_total, (displaced_numbers nd _ _ _ _ _ H Hi Hc D1), (displaced_numbers nd _ _ _ _ _ H Hi Hc D0).
    rewrite !total_upd, (E i c) by auto. ring.
  - intros i c b Hi Hc B. destruct B as [SB EB].
    assert (SN : same_shape (nowhere center) center).
    { unfold same_shape, nowhere. rewrite map_map. apply map_ext. intros r. rewrite map_map. apply map_ext. intros q. apply map_length. }
    rewrite jvp_total by (apply flat_lengths; unfold same_shape in *; congruence).
    assert (RN : rectangular nd (nowhere center)).
    { unfold rectangular, nowhere in *. apply Forall_map. eapply Forall_impl; [|exact H]. intros r Hr. apply Forall_map. eapply Forall_impl; [|exact Hr].
      intros q Hq. now rewrite map_length. }
    rewrite (displaced_numbers nd (nowhere center) i c (2 * eps) b RN ltac:(rewrite (shape_count _ _ SN); exact Hi) Hc (conj SB EB)).
    assert (NN : numbers (nowhere center) = map (fun _ => 0) (numbers center)) by (unfold numbers, nowhere; now rewrite !concat_map).
    rewrite NN, total_unit, (E i c) by auto. ring.
  - reflexivity.
Qed.

(** the vjp of to_scalar gives a gradient that is accepted at every point, with every step and tolerance *)
Theorem C94_to_scalar : forall nd center eps rtol atol g, rectangular nd center -> 0 <= rtol -> 0 < atol ->
  same_shape g center -> flat g = to_scalar_vjp Rring 1 (flat center) ->
  check_particles nd (fun w => to_scalar Rring (flat w)) (fun b => to_scalar_jvp Rring (flat b) (flat center)) (Some g) center eps rtol atol = Passed.
Proof.
  intros nd center eps rtol atol g H Hr Ha SG EG.
  apply (C94_accepts nd _ _ center eps rtol atol (Some g) H _ _ _ (scalar_measures nd center eps (Some g) H) Hr Ha).
  intros i c Hi Hc. enough (entry g i c = 2 * entry center i c) as -> by (split; ring).
  assert (RG : rectangular nd g).
  { unfold rectangular in *. clear -SG H. revert g SG. induction H as [|r w Hr H IH]; intros [|s g] E; try discriminate; constructor.
    - injection E as E1 E2. clear -E1 Hr. revert s E1. induction Hr as [|q r Hq Hr IH]; intros [|u s] E; try discriminate; constructor.
      + injection E as E1 E2. congruence.
      + injection E as E1 E2. now apply IH.
    - injection E as E1 E2. now apply IH. }
  unfold entry. rewrite !(nth_numbers nd) by (exact Hc || now apply rect_rows). fold (numbers g) (numbers center).
  assert (NG : numbers g = map (fun a => 2 * a) (numbers center)).
  { rewrite <- !flat_numbers, EG. unfold to_scalar_vjp, each. rewrite <- concat_map. apply map_ext. intros a. cbn [radd rmul r1 Rring]. ring. }
  rewrite NG. rewrite (nth_map_in (fun a => 2 * a) (numbers center) _ 0 0); [reflexivity|]. rewrite (numbers_length nd) by assumption. nia.
Qed.

(** a gradient that forgets the factor two is refused as soon as some number is not tiny *)
Theorem C94_half : forall nd center eps rtol atol i c, rectangular nd center -> 0 <= rtol -> 0 < atol ->
  (i < count center)%nat -> (c < nd)%nat -> 6 * Rabs (eps * entry center i c) * rtol + atol < 2 * Rabs (eps * entry center i c) ->
  check_particles nd (fun w => to_scalar Rring (flat w)) (fun b => to_scalar_jvp Rring (flat b) (flat center)) (Some center) center eps rtol atol = FG_BG.
Proof.
  intros nd center eps rtol atol i c H Hr Ha Hi Hc L. set (x := eps * entry center i c) in *.
  assert (NX : x <> 0) by (intros E; rewrite E, Rabs_R0 in L; lra).
  refine (proj1 (C94_rejects nd _ _ center eps rtol atol (Some center) H _ _ _ (scalar_measures nd center eps (Some center) H) Hr Ha i c Hi Hc _) _ _);
    cbv beta; replace (4 * eps * entry center i c) with (4 * x) by (unfold x; ring);
    replace (entry center i c * (2 * eps)) with (2 * x) by (unfold x; ring).
  - intros E. apply NX. lra.
  - intros E. apply NX. lra.
  - replace (4 * x - 2 * x) with (2 * x) by ring. rewrite !Rabs_mult, !(Rabs_right 4), !(Rabs_right 2) by lra. lra.
Qed.

(** y = 0 everywhere, yet the gradient 1000 passes when rtol = 1e-4 and the jvp makes the same mistake *)
Theorem C94_void_case : check_particles 1 (fun _ => 0) (fun b => 1000 * entry b 0 0) (Some [[[1000]]]) [[[1]]] 1 (/ 10000) 1 = Passed.
Proof.
  set (m := fun (i c : nat) => 2000).
  assert (RC : rectangular 1 [[[1]]]) by (repeat constructor).
  assert (M : measures 1 (fun _ => 0) (fun b => 1000 * entry b 0 0) [[[1]]] 1 (Some [[[1000]]]) (fun _ _ => 0) m m).
  { split; [|split].
    - intros. ring.
    - intros i c b Hi Hc [_ B]. cbn in Hi. assert (i = 0%nat) as -> by (cbn in Hi; lia). assert (c = 0%nat) as -> by lia.
      rewrite B. unfold m. cbn. ring.
    - intros i c Hi Hc. cbn in Hi. assert (i = 0%nat) as -> by lia. assert (c = 0%nat) as -> by lia. unfold m. cbn. ring. }
  apply (C94_particles 1 _ _ _ _ (/ 10000) 1 _ RC _ _ _ M); [lra..|]. split.
  - intros i c _ _. apply close_same; [lra|lra|reflexivity].
  - apply (C94_difference_void 1 _ _ _ _ (/ 10000) 1 _ RC _ _ _ M); lra.
Qed.

(** without atol the right gradient of a constant is refused: 0 / 0 is in no bin *)
Theorem C94_atol_refuted : check_particles 1 (fun _ => 0) (fun _ => 0) None [[[1]]] 1 (/ 10) 0 = FG_BG.
Proof.
  assert (S0 : std [0] = 0).
  { unfold std, mean. cbn. rewrite Rplus_0_l, !Rmult_1_r. replace (_ / 1) with 0; [apply sqrt_0|]. field. }
  unfold check_particles, judge. cbn [map length list_sum fold_right ndindex seq list_prod app Nat.add fst snd cget].
  rewrite !Rmult_0_l.
  assert (E : errorstat [(0, 0)] (/ 10) 0 = [8%nat]).
  { rewrite errorstat_map. cbn [map fst snd]. unfold tolerance, size. destruct (Req_EM_T 0 0); [|lra]. rewrite S0.
    unfold divide. destruct (Req_EM_T ((0 + 0) * / 10 + 0) 0); [|lra]. destruct (Req_EM_T (0 - 0) 0); [reflexivity|lra]. }
  rewrite E. reflexivity.
Qed.

(** three particles on two ranks: the gradient 2 x passes, x does not *)
Example C94_case :
  let center := [[[1; 2]]; [[3; 0]; [5; 7]]] in
  let check g := check_particles 2 (fun w => to_scalar Rring (flat w)) (fun b => to_scalar_jvp Rring (flat b) (flat center)) (Some g) center (/ 100) (/ 1000) (/ 1000000) in
  count center = 3%nat /\ check [[[2; 4]]; [[6; 0]; [10; 14]]] = Passed /\ check center = FG_BG.
Proof.
  intros center check. split; [reflexivity|]. unfold check. split.
  - apply C94_to_scalar; try lra; [repeat constructor|reflexivity|].
    unfold flat, to_scalar_vjp, each, center. cbn [map concat app radd rmul r1 Rring].
    repeat apply (f_equal2 (@cons _)); try reflexivity; match goal with |- @eq _ ?a ?b => change (@eq R a b) end; ring.
  - apply (C94_half 2 center _ _ _ 0 0); try lra; [repeat constructor|cbn; lia|lia|].
    unfold entry, center. cbn. rewrite Rmult_1_r, Rabs_right by lra. lra.
Qed.

Print Assumptions C94_particles.
Print Assumptions C94_measured.
Print Assumptions C94_accepts.
Print Assumptions C94_rejects.
Print Assumptions C94_difference_void.
Print Assumptions C94_to_scalar.
Print Assumptions C94_half.
Print Assumptions C94_void_case.
Print Assumptions C94_atol_refuted.
Print Assumptions C94_case.
