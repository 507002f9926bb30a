(** Assignment of domains to ranks, load balancing, the uniform factory. *)
From Coq Require Import List Arith ZArith QArith Qround Lqa Lia Bool Sorted Permutation.
From Verif Require Import Base ListFacts LayoutModel LayoutProofs WrapModel WrapProofs DomainModel DomainFill.
Import ListNotations.
Local Close Scope Q_scope.
Local Open Scope nat_scope.

(** ** default assignment *)
Lemma map_repeat' {A B} (f : A -> B) x n : map f (repeat x n) = repeat (f x) n.
Proof. induction n as [|n IH]; simpl; [reflexivity|now rewrite IH]. Qed.

Section Default.
Context (size P : nat) (HP : 0 < P).
Let b (i : nat) : nat := i * size / P.

Lemma b_mono i j : i <= j -> b i <= b j.
Proof. intros H. unfold b. apply Nat.div_le_mono; nia. Qed.
Lemma b_le i : i <= P -> b i <= size.
Proof. intros H. unfold b. apply Nat.div_le_upper_bound; nia. Qed.
Lemma b_P : b P = size.
Proof. unfold b. rewrite Nat.mul_comm. apply Nat.div_mul. lia. Qed.
Lemma b_step i : size / P <= b (i + 1) - b i <= size / P + 1.
Proof.
  unfold b. rewrite Nat.mul_add_distr_r, Nat.mul_1_l.
  set (q := size / P). assert (Hq := Nat.div_mod size P ltac:(lia)). fold q in Hq.
  assert (Hm := Nat.mod_upper_bound size P ltac:(lia)).
  assert (Ha := Nat.div_mod (i * size) P ltac:(lia)). assert (Hb := Nat.mod_upper_bound (i * size) P ltac:(lia)).
  set (u := i * size / P) in *. set (v := (i * size) mod P) in *. set (w := size mod P) in *.
  assert (L1 : u + q <= (i * size + size) / P) by (apply Nat.div_le_lower_bound; nia).
  assert (L2 : (i * size + size) / P < u + q + 2) by (apply Nat.div_lt_upper_bound; nia).
  lia.
Qed.

Definition blocks (k : nat) : list nat := flat_map (fun i => repeat i (b (i + 1) - b i)) (seq 0 k).

Lemma blocks_length k : length (blocks k) = b k.
Proof.
  induction k as [|k IH]; unfold blocks in *; [simpl; unfold b; now rewrite Nat.div_0_l by lia|].
  rewrite seq_S, flat_map_app, app_length, IH. simpl. rewrite app_nil_r, repeat_length.
  assert (b k <= b (k + 1)) by (apply b_mono; lia). replace (S k) with (k + 1) by lia. lia.
Qed.

Lemma default_fold k : k <= P ->
  fold_left (fun a i => write_slice (i * size / P) ((i + 1) * size / P) i a) (seq 0 k) (repeat None size)
  = map Some (blocks k) ++ repeat None (size - b k).
Proof.
  induction k as [|k IH]; intros Hk.
  - simpl. unfold b. rewrite Nat.mul_0_l, Nat.div_0_l by lia. now rewrite Nat.sub_0_r.
  - rewrite seq_S, fold_left_app, IH by lia. simpl fold_left.
    fold (b k). change ((k + 1) * size / P) with (b (k + 1)).
    unfold write_slice.
    assert (Hl := blocks_length k). assert (b k <= b (k + 1)) by (apply b_mono; lia).
    assert (b (k + 1) <= size) by (apply b_le; lia).
    rewrite firstn_app, map_length, Hl, Nat.sub_diag. simpl firstn. rewrite app_nil_r.
    rewrite firstn_all2 by (rewrite map_length; lia).
    rewrite skipn_app, map_length, Hl, skipn_all2 by (rewrite map_length; lia). simpl app.
    assert (Hsk : forall n m, skipn n (repeat (@None nat) m) = repeat None (m - n)).
    { induction n as [|n IHn]; intros [|m]; simpl; try reflexivity. apply IHn. }
    rewrite Hsk.
    unfold blocks. rewrite seq_S, flat_map_app, map_app. simpl. rewrite app_nil_r, map_repeat', <- app_assoc.
    replace (size - b k - (b (k + 1) - b k)) with (size - b (S k)) by (replace (S k) with (k + 1) by lia; lia).
    reflexivity.
Qed.

Lemma blocks_sorted k : StronglySorted le (blocks k) /\ (forall x, In x (blocks k) -> x < k).
Proof.
  induction k as [|k [IH1 IH2]]; unfold blocks in *; [split; [constructor|intros x []]|].
  rewrite seq_S, flat_map_app. simpl. rewrite app_nil_r. split.
  - assert (G : forall l n v, StronglySorted le l -> (forall x, In x l -> x <= v) -> StronglySorted le (l ++ repeat v n)).
    { induction 1 as [|y l Hl IHl Hf]; intros Hv; simpl.
      - induction n as [|n IHn]; simpl; constructor; [assumption|]. apply Forall_forall. intros z Hz.
        apply repeat_spec in Hz. lia.
      - constructor; [apply IHl; intros; apply Hv; now right|]. rewrite Forall_forall in *. intros z Hz.
        apply in_app_iff in Hz. destruct Hz as [Hz|Hz]; [now apply Hf|]. apply repeat_spec in Hz. subst. apply Hv. now left. }
    apply G; [assumption|]. intros x Hx. apply IH2 in Hx. lia.
  - intros x Hx. apply in_app_iff in Hx. destruct Hx as [Hx|Hx]; [apply IH2 in Hx; lia|].
    apply repeat_spec in Hx. lia.
Qed.

Lemma blocks_count k r : r < k -> count_occ Nat.eq_dec (blocks k) r = b (r + 1) - b r.
Proof.
  induction k as [|k IH]; intros Hr; [lia|]. unfold blocks. rewrite seq_S, flat_map_app, count_occ_app. fold (blocks k).
  simpl. rewrite app_nil_r. destruct (Nat.eq_dec r k) as [->|Hne].
  - assert (Z0 : count_occ Nat.eq_dec (blocks k) k = 0).
    { apply count_occ_not_In. intros H. apply (proj2 (blocks_sorted k)) in H. lia. }
    rewrite Z0, count_occ_repeat_eq by reflexivity. reflexivity.
  - rewrite IH by lia. rewrite count_occ_repeat_neq by congruence. lia.
Qed.

Lemma default_assign_blocks : P < size -> default_assign size P = map Some (blocks P).
Proof.
  intros H. unfold default_assign. destruct (Nat.leb_spec size P); [lia|].
  rewrite default_fold by lia. rewrite b_P, Nat.sub_diag. simpl. apply app_nil_r.
Qed.
End Default.

Lemma default_assign_ok size P : 0 < P -> P < size ->
  exists a, default_assign size P = map Some a /\ length a = size /\ StronglySorted le a /\
    (forall r, In r a -> r < P) /\
    (forall r, r < P -> size / P <= count_occ Nat.eq_dec a r <= size / P + 1).
Proof.
  intros HP H. exists (blocks size P P). split; [now apply default_assign_blocks|].
  split; [rewrite blocks_length by assumption; now apply b_P|].
  split; [now apply blocks_sorted|]. split; [intros r Hr; now apply (blocks_sorted size P) in Hr|].
  intros r Hr. rewrite blocks_count by assumption. now apply b_step.
Qed.

(** ** load balancing *)

Lemma pop_min_none l : pop_min l = None -> l = [].
Proof. destruct l as [|x r]; [reflexivity|]. simpl. destruct (pop_min r) as [[m r']|]; [destruct (pair_lt x m)|]; discriminate. Qed.

Lemma pop_min_spec l m r : pop_min l = Some (m, r) ->
  Permutation l (m :: r) /\ forall x, In x l -> fst m <= fst x.
Proof.
  revert m r; induction l as [|x l IH]; intros m r; simpl; [discriminate|].
  destruct (pop_min l) as [[m' r']|] eqn:Hp.
  - destruct (IH m' r' eq_refl) as [P1 P2]. destruct (pair_lt x m') eqn:Hlt; intros H; inversion H; subst; clear H.
    + split; [now constructor|]. intros y [<-|Hy]; [lia|]. specialize (P2 y Hy).
      unfold pair_lt in Hlt. apply orb_true_iff in Hlt. destruct Hlt as [Hlt|Hlt]; [apply Nat.ltb_lt in Hlt; lia|].
      apply andb_true_iff in Hlt. destruct Hlt as [Hlt _]. apply Nat.eqb_eq in Hlt. lia.
    + split; [eapply perm_trans; [constructor; exact P1|apply perm_swap]|].
      intros y [<-|Hy]; [|now apply P2].
      unfold pair_lt in Hlt. apply orb_false_iff in Hlt. destruct Hlt as [Hlt _]. apply Nat.ltb_ge in Hlt. assumption.
  - intros H; inversion H; subst. apply pop_min_none in Hp. subst. split; [reflexivity|].
    intros y [<-|[]]. lia.
Qed.

Lemma insert_desc_perm x l : Permutation (insert_desc x l) (x :: l).
Proof.
  induction l as [|y l IH]; simpl; [reflexivity|]. destruct (pair_lt x y); [|reflexivity].
  eapply perm_trans; [constructor; exact IH|]. apply perm_swap.
Qed.
Lemma sort_desc_perm l : Permutation (sort_desc l) l.
Proof.
  induction l as [|x l IH]; simpl; [reflexivity|]. eapply perm_trans; [apply insert_desc_perm|]. now constructor.
Qed.

(** load carried by rank [r] for the domains in [ds] *)
Definition carried (a : list nat) (ds : list (nat * nat)) (r : nat) : nat :=
  list_sum (map (fun d => if nth (snd d) a 0 =? r then fst d else 0) ds).

Lemma carried_perm a ds ds' r : Permutation ds ds' -> carried a ds r = carried a ds' r.
Proof. unfold carried. induction 1; simpl in *; lia. Qed.

Lemma carried_upd a ds r i v : ~ In i (map snd ds) -> carried (upd i (fun _ => v) a) ds r = carried a ds r.
Proof.
  unfold carried. intros H. apply list_sum_map_ext_in. intros [dl di] Hin. simpl.
  assert (di <> i). { intros ->. apply H. apply in_map_iff. exists (dl, i). now split. }
  assert (E1 : nth di (upd i (fun _ => v) a) 0 = nth di a 0).
  { rewrite <- !nth_default_eq. unfold nth_default. rewrite nth_error_upd.
    destruct (Nat.eqb_spec i di); [congruence|reflexivity]. }
  now rewrite E1.
Qed.

Lemma list_sum_perm l l' : Permutation l l' -> list_sum l = list_sum l'.
Proof. induction 1; simpl in *; lia. Qed.

Lemma sum_ge_min (l : list (nat * nat)) m : (forall x, In x l -> m <= fst x) -> length l * m <= list_sum (map fst l).
Proof.
  induction l as [|x l IH]; intros H; simpl; [lia|].
  assert (m <= fst x) by (apply H; now left). assert (length l * m <= list_sum (map fst l)) by (apply IH; intros; apply H; now right).
  lia.
Qed.

Lemma balance_loop_ok P M ds : forall done heap a,
  0 < P ->
  Forall (fun d => fst d <= M) ds ->
  NoDup (map snd (done ++ ds)) ->
  (forall d, In d (done ++ ds) -> snd d < length a) ->
  Permutation (map snd heap) (seq 0 P) ->
  (forall h, In h heap -> fst h = carried a done (snd h)) ->
  (forall d, In d done -> nth (snd d) a 0 < P) ->
  list_sum (map fst heap) = list_sum (map fst done) ->
  (forall h, In h heap -> P * fst h <= list_sum (map fst done) + (P - 1) * M) ->
  exists a', balance_loop ds heap a = Ret a' /\ length a' = length a /\
    (forall d, In d (done ++ ds) -> nth (snd d) a' 0 < P) /\
    (forall r, r < P -> P * carried a' (done ++ ds) r <= list_sum (map fst (done ++ ds)) + (P - 1) * M) /\
    list_sum (map (carried a' (done ++ ds)) (seq 0 P)) = list_sum (map fst (done ++ ds)).
Proof.
  induction ds as [|[dl di] ds IH]; intros done heap a HP HM Hnd Hlt Hheap Hcar Hval Hsum Hbd.
  - simpl. exists a. split; [reflexivity|]. rewrite app_nil_r in *. split; [reflexivity|]. split; [assumption|]. split.
    + intros r Hr. assert (Hin : In r (map snd heap)) by (apply (Permutation_in r (Permutation_sym Hheap)), in_seq; lia).
      apply in_map_iff in Hin. destruct Hin as (h & <- & Hh). rewrite <- Hcar by assumption. now apply Hbd.
    + rewrite <- Hsum. rewrite <- (list_sum_perm _ _ (Permutation_map (carried a done) Hheap)).
      rewrite map_map. apply list_sum_map_ext_in. intros h Hh. symmetry. now apply Hcar.
  - simpl. destruct (pop_min heap) as [[[pl rk] heap']|] eqn:Hp.
    2: { apply pop_min_none in Hp. subst. simpl in Hheap. apply Permutation_nil in Hheap. destruct P; [lia|discriminate]. }
    destruct (pop_min_spec _ _ _ Hp) as [Hperm Hmin].
    assert (Hrk : rk < P).
    { assert (In rk (seq 0 P)).
      { apply (Permutation_in rk Hheap). apply (Permutation_in rk (Permutation_map snd (Permutation_sym Hperm))). now left. }
      apply in_seq in H. lia. }
    assert (Hdi : ~ In di (map snd done)).
    { rewrite map_app in Hnd. apply NoDup_remove_2 in Hnd. intros H. apply Hnd. apply in_app_iff. now left. }
    inversion HM as [|? ? HMd HMds]; subst. simpl in HMd.
    assert (Hlen : length heap = P) by (rewrite <- (map_length snd heap), (Permutation_length Hheap); apply seq_length).
    assert (Hlh : length heap' = P - 1).
    { apply Permutation_length in Hperm. simpl in Hperm. lia. }
    assert (Hndh : NoDup (map snd heap)) by (apply (Permutation_NoDup (Permutation_sym Hheap)), seq_NoDup).
    assert (Hndh' : ~ In rk (map snd heap')).
    { apply (Permutation_NoDup (Permutation_map snd Hperm)) in Hndh. now inversion Hndh. }
    assert (Hpl : P * pl <= list_sum (map fst done)).
    { rewrite <- Hsum, <- Hlen. apply sum_ge_min. intros x Hx. exact (Hmin x Hx). }
    assert (Ha0 : forall v, nth di (upd di (fun _ => v) a) 0 = v).
    { intros v. rewrite <- nth_default_eq. unfold nth_default. rewrite nth_error_upd, Nat.eqb_refl.
      destruct (nth_error a di) eqn:Q0; [reflexivity|]. apply nth_error_None in Q0.
      specialize (Hlt (dl, di)). simpl in Hlt. assert (In (dl, di) (done ++ (dl, di) :: ds)) by (apply in_elt). specialize (Hlt H). lia. }
    destruct (IH (done ++ [(dl, di)]) ((pl + dl, rk) :: heap') (upd di (fun _ => rk) a)) as (a' & E1 & E2 & E3 & E4 & E5).
    + assumption.
    + assumption.
    + rewrite <- app_assoc. exact Hnd.
    + intros d Hd. rewrite upd_length. apply Hlt. now rewrite <- app_assoc in Hd.
    + simpl. eapply perm_trans; [|exact Hheap]. symmetry. exact (Permutation_map snd Hperm).
    + intros h Hh. unfold carried. rewrite map_app, list_sum_app'. fold (carried (upd di (fun _ => rk) a) done (snd h)).
      rewrite carried_upd by assumption. simpl. rewrite Ha0. destruct Hh as [<-|Hh].
      * simpl. rewrite Nat.eqb_refl. assert (Hc := Hcar (pl, rk) (Permutation_in _ (Permutation_sym Hperm) (or_introl eq_refl))).
        simpl in Hc. lia.
      * rewrite <- (Hcar h) by (apply (Permutation_in _ (Permutation_sym Hperm)); now right).
        destruct (Nat.eqb_spec rk (snd h)) as [Er|]; [|simpl; lia]. exfalso. apply Hndh'. rewrite Er. now apply in_map.
    + intros d Hd. apply in_app_iff in Hd. destruct Hd as [Hd|[<-|[]]].
      * assert (snd d <> di). { intros Ed. apply Hdi. rewrite <- Ed. now apply in_map. }
        rewrite <- nth_default_eq. unfold nth_default. rewrite nth_error_upd.
        destruct (Nat.eqb_spec di (snd d)); [congruence|]. specialize (Hval d Hd).
        rewrite <- nth_default_eq in Hval. exact Hval.
      * simpl. now rewrite Ha0.
    + simpl. rewrite map_app, list_sum_app'. simpl.
      assert (Hs := list_sum_perm _ _ (Permutation_map fst Hperm)). simpl in Hs. lia.
    + intros h Hh. rewrite map_app, list_sum_app'. simpl. destruct Hh as [<-|Hh].
      * simpl. nia.
      * assert (Hb := Hbd h (Permutation_in _ (Permutation_sym Hperm) (or_intror Hh))). lia.
    + exists a'. rewrite upd_length in E2. rewrite <- app_assoc in E3, E4, E5. simpl in E3, E4, E5.
      split; [assumption|]. split; [assumption|]. split; [assumption|]. split; assumption.
Qed.

(** load carried by a rank: sum of the loads of its domains *)
Definition rank_total (domainload a : list nat) (r : nat) : nat :=
  list_sum (map fst (filter (fun p => snd p =? r) (combine domainload a))).

Lemma carried_rank_total domainload a r : length domainload = length a ->
  carried a (combine domainload (seq 0 (length a))) r = rank_total domainload a r.
Proof.
  intros Hl. unfold carried, rank_total.
  assert (G : forall pre a, length domainload = length a ->
    list_sum (map (fun d => if nth (snd d) (pre ++ a) 0 =? r then fst d else 0) (combine domainload (seq (length pre) (length a))))
    = list_sum (map fst (filter (fun p => snd p =? r) (combine domainload a)))).
  { clear. induction domainload as [|x l IH]; intros pre [|y a] H; try discriminate; [reflexivity|].
    simpl length. simpl seq. cbn [combine map filter fst snd]. rewrite list_sum_cons.
    rewrite nth_middle. specialize (IH (pre ++ [y]) a ltac:(simpl in H; lia)).
    rewrite <- app_assoc in IH. simpl in IH. rewrite app_length in IH. simpl in IH.
    replace (length pre + 1) with (S (length pre)) in IH by lia. rewrite IH.
    destruct (y =? r); simpl; lia. }
  exact (G [] a Hl).
Qed.

Lemma map_fst_combine_seq (l : list nat) n : length l = n -> map fst (combine l (seq 0 n)) = l.
Proof. intros H. apply map_fst_combine. rewrite seq_length. lia. Qed.

Lemma loadbalance_ok P domainload a M : 0 < P -> P < length a -> length domainload = length a ->
  Forall (fun d => d <= M) domainload ->
  exists a', loadbalance P domainload a = Ret a' /\ length a' = length a /\ Forall (fun r => r < P) a' /\
    (forall r, r < P -> P * rank_total domainload a' r <= list_sum domainload + (P - 1) * M) /\
    list_sum (map (rank_total domainload a') (seq 0 P)) = list_sum domainload.
Proof.
  intros HP Hsz Hl HM. unfold loadbalance. destruct (Nat.leb_spec (length a) P); [lia|].
  set (D := combine domainload (seq 0 (length a))).
  assert (Hperm := sort_desc_perm D).
  destruct (balance_loop_ok P M (sort_desc D) [] (map (fun i => (0, i)) (seq 0 P)) a) as (a' & E1 & E2 & E3 & E4 & E5).
  - assumption.
  - apply Forall_forall. intros d Hd. apply (Permutation_in d Hperm) in Hd. destruct d as [dl di]. apply in_combine_l in Hd.
    rewrite Forall_forall in HM. now apply HM.
  - simpl. apply (Permutation_NoDup (Permutation_sym (Permutation_map snd Hperm))).
    unfold D. rewrite map_snd_combine by (rewrite seq_length; lia). apply seq_NoDup.
  - simpl. intros d Hd. apply (Permutation_in d Hperm) in Hd. destruct d as [dl di]. apply in_combine_r in Hd.
    apply in_seq in Hd. simpl. lia.
  - rewrite map_map. simpl. now rewrite map_id.
  - intros h Hh. apply in_map_iff in Hh. destruct Hh as (i & <- & _). reflexivity.
  - intros d [].
  - rewrite map_map. simpl. clear. induction (seq 0 P); simpl; [reflexivity|assumption].
  - intros h Hh. apply in_map_iff in Hh. destruct Hh as (i & <- & _). simpl. lia.
  - simpl app in *.
    assert (T : list_sum (map fst (sort_desc D)) = list_sum domainload).
    { rewrite (list_sum_perm _ _ (Permutation_map fst Hperm)). unfold D. now rewrite map_fst_combine_seq. }
    assert (Rk : forall r, carried a' (sort_desc D) r = rank_total domainload a' r).
    { intros r. rewrite (carried_perm _ _ _ _ Hperm). unfold D. rewrite <- E2. apply carried_rank_total. lia. }
    exists a'. split; [assumption|]. split; [assumption|]. split; [|split].
    + apply Forall_forall. intros r Hr. apply In_nth with (d := 0) in Hr. destruct Hr as (i & Hi & <-).
      apply (E3 (nth i domainload 0, i)). apply (Permutation_in _ (Permutation_sym Hperm)).
      unfold D. rewrite E2 in Hi.
      assert (N : nth i (combine domainload (seq 0 (length a))) (0, 0) = (nth i domainload 0, i)).
      { rewrite combine_nth by (now rewrite seq_length). rewrite seq_nth by assumption. reflexivity. }
      rewrite <- N. apply nth_In. rewrite combine_length, seq_length. lia.
    + intros r Hr. rewrite <- Rk, <- T. now apply E4.
    + rewrite <- T, <- E5. apply list_sum_map_ext_in. intros r _. symmetry. apply Rk.
Qed.

(** ** uniform *)
Local Open Scope Z_scope.

Lemma prodz_upd (l : list Z) i v : (i < length l)%nat -> nth i l 0 = 1 ->
  prodz (upd i (fun _ => v) l) = v * prodz l.
Proof.
  revert i; induction l as [|x l IH]; intros i Hi H1; simpl in Hi; [lia|]. destruct i as [|i]; simpl in *.
  - fold (prodz l). rewrite H1. lia.
  - fold (prodz l) (prodz (upd i (fun _ => v) l)). rewrite IH by (assumption || lia). lia.
Qed.

Lemma argmax_from_lt i best v l : (best < i + length l)%nat -> (argmax_from i best v l < i + length l)%nat.
Proof.
  revert i best v; induction l as [|x l IH]; intros i best v H; simpl in *; [assumption|].
  destruct (Qle_bool x v).
  - specialize (IH (S i) best v). lia.
  - specialize (IH (S i) i x). lia.
Qed.
Lemma argmax_lt l : l <> [] -> (argmax l < length l)%nat.
Proof. destruct l as [|x l]; intros H; [congruence|]. simpl. apply (argmax_from_lt 1 0 x l). lia. Qed.

(** numbers of domains along the axes other than the longest *)
Definition other_axes (box : list Q) (r : Q) : list Z :=
  let shape := map (fun b => (r * (b / qmin box))%Q) box in
  upd (argmax shape) (fun _ => 1) (map (fun x => if Qfloor x <? 1 then 1 else Qfloor x) shape).

Lemma upd_nth_same {A} i (f : A -> A) l d : (i < length l)%nat -> nth i (upd i f l) d = f (nth i l d).
Proof.
  revert i; induction l as [|x l IH]; intros i Hi; simpl in Hi; [lia|]. destruct i; simpl; [reflexivity|]. apply IH. lia.
Qed.

Lemma upd_upd {A} i (f g : A -> A) (l : list A) : upd i f (upd i g l) = upd i (fun x => f (g x)) l.
Proof. revert i; induction l as [|x l IH]; intros [|i]; simpl; try reflexivity. now rewrite IH. Qed.

Lemma uniform_shape_prod P box r : box <> [] ->
  prodz (uniform_shape P box r) = prodz (other_axes box r) * (Z.of_nat P / prodz (other_axes box r)).
Proof.
  intros Hb. unfold uniform_shape. cbv zeta. fold (other_axes box r).
  change (fold_right Z.mul 1 (other_axes box r)) with (prodz (other_axes box r)).
  assert (Hi : (argmax (map (fun b => (r * (b / qmin box))%Q) box) < length box)%nat).
  { rewrite <- (map_length (fun b => (r * (b / qmin box))%Q) box). apply argmax_lt. destruct box; [congruence|discriminate]. }
  rewrite prodz_upd; [lia| |].
  - unfold other_axes. rewrite upd_length, !map_length. exact Hi.
  - unfold other_axes. rewrite upd_nth_same; [reflexivity|]. now rewrite !map_length.
Qed.

Lemma other_axes_pos box r : Forall (fun z => 1 <= z) (other_axes box r).
Proof.
  unfold other_axes. set (im := argmax _). set (l := map (fun x => if Qfloor x <? 1 then 1 else Qfloor x) _).
  assert (Hl : Forall (fun z => 1 <= z) l).
  { unfold l. apply Forall_forall. intros z Hz. apply in_map_iff in Hz. destruct Hz as (x & <- & _).
    destruct (Z.ltb_spec (Qfloor x) 1); lia. }
  clearbody im l. revert im. induction Hl as [|x l Hx Hl IH]; intros [|im]; simpl; constructor; try assumption; try lia. apply IH.
Qed.

Lemma prodz_ge1 l : Forall (fun z => 1 <= z) l -> 1 <= prodz l.
Proof. induction 1; simpl; [lia|]. fold (prodz l). nia. Qed.

Lemma uniform_bounds P box r : box <> [] ->
  0 <= prodz (uniform_shape P box r) <= Z.of_nat P /\
  (1 <= prodz (uniform_shape P box r) <-> prodz (other_axes box r) <= Z.of_nat P).
Proof.
  intros Hb. rewrite uniform_shape_prod by assumption.
  assert (H1 := prodz_ge1 _ (other_axes_pos box r)). set (q := prodz (other_axes box r)) in *.
  assert (Hd := Z.div_mod (Z.of_nat P) q ltac:(lia)). assert (Hm := Z.mod_pos_bound (Z.of_nat P) q ltac:(lia)).
  assert (0 <= Z.of_nat P / q) by (apply Z.div_pos; lia).
  split; [nia|]. split; intros H2.
  - destruct (Z_lt_le_dec (Z.of_nat P) q) as [C|C]; [|assumption]. rewrite Z.div_small in H2 by lia. lia.
  - assert (1 <= Z.of_nat P / q) by (apply Z.div_le_lower_bound; lia). nia.
Qed.

(** every axis at least one unit long and every quotient at least one *)
Local Open Scope Q_scope.
Lemma qmin_le l x : In x l -> qmin l <= x.
Proof.
  induction l as [|y l IH]; intros H; [contradiction|]. destruct l as [|z l].
  - destruct H as [->|[]]. apply Qle_refl.
  - change (qmin (y :: z :: l)) with (if Qle_bool y (qmin (z :: l)) then y else qmin (z :: l)).
    destruct (Qle_bool y (qmin (z :: l))) eqn:B.
    + apply Qle_bool_iff in B. destruct H as [->|H]; [apply Qle_refl|]. apply IH in H. lra.
    + assert (qmin (z :: l) < y). { apply Qnot_le_lt. intros C. apply Qle_bool_iff in C. congruence. }
      destruct H as [->|H]; [lra|]. now apply IH.
Qed.

Lemma qprod_pos l : Forall (fun x => 0 < x) l -> 0 < qprod l.
Proof. induction 1; simpl; [lra|]. fold (qprod l). apply Qmult_lt_0_compat; assumption. Qed.

Lemma qprod_bound (f : Q -> Q) (zs : list Z) (l : list Q) :
  Forall2 (fun z b => (1 <= z)%Z /\ inject_Z z <= f b) zs l ->
  inject_Z (prodz zs) <= qprod (map f l).
Proof.
  induction 1 as [|z b zs l [H1 H2] H IH]; [simpl; change (inject_Z 1) with 1; lra|].
  change (prodz (z :: zs)) with (z * prodz zs)%Z. rewrite inject_Z_mult. simpl. fold (qprod (map f l)).
  apply Qmult_le_compat_nonneg.
  - split; [|assumption]. change 0 with (inject_Z 0). rewrite <- Zle_Qle. lia.
  - split; [|assumption]. change 0 with (inject_Z 0). rewrite <- Zle_Qle.
    assert (1 <= prodz zs)%Z; [|lia]. apply prodz_ge1.
    clear -H. induction H as [|? ? ? ? [? _]]; constructor; assumption.
Qed.

Lemma qprod_scale r m l : ~ m == 0 -> qprod (map (fun b => r * (b / m)) l) * qpow m (length l) == qpow r (length l) * qprod l.
Proof.
  intros Hm. induction l as [|b l IH]; simpl; [ring|]. fold (qprod (map (fun b => r * (b / m)) l)) (qprod l).
  transitivity (r * b * (qprod (map (fun b0 => r * (b0 / m)) l) * qpow m (length l))); [field; assumption|].
  rewrite IH. ring.
Qed.

Lemma qpow_ge1 m n : 1 <= m -> 1 <= qpow m n.
Proof.
  intros H. induction n as [|n IH]; simpl; [lra|]. setoid_replace 1 with (1 * 1) by ring.
  apply Qmult_le_compat_nonneg; lra.
Qed.

Lemma other_axes_le box r : 0 < qmin box -> 1 <= r ->
  Forall2 (fun z b => (1 <= z)%Z /\ inject_Z z <= r * (b / qmin box)) (other_axes box r) box.
Proof.
  intros Hm Hr. unfold other_axes. set (im := argmax _).
  assert (Hb : forall b, In b box -> 1 <= r * (b / qmin box)).
  { intros b Hb. apply qmin_le in Hb. setoid_replace 1 with (1 * 1) by ring.
    apply Qmult_le_compat_nonneg; [lra|]. split; [lra|]. apply Qle_shift_div_l; lra. }
  clear Hm. revert Hb. generalize (qmin box) as m. intros m. clearbody im. revert im. induction box as [|b bx IH]; intros im Hb.
  - destruct im; constructor.
  - assert (Hb1 : 1 <= r * (b / m)) by (apply Hb; now left).
    assert (F : (1 <= Qfloor (r * (b / m)))%Z).
    { change 1%Z with (Qfloor 1). apply Qfloor_resp_le. assumption. }
    destruct im as [|im]; cbn [map upd].
    + constructor.
      * split; [lia|]. change (inject_Z 1) with 1. assumption.
      * clear IH Hb1 F. induction bx as [|c bx IHb]; constructor.
        -- assert (Hc : 1 <= r * (c / m)) by (apply Hb; right; now left).
           assert (F : (1 <= Qfloor (r * (c / m)))%Z) by (change 1%Z with (Qfloor 1); now apply Qfloor_resp_le).
           destruct (Z.ltb_spec (Qfloor (r * (c / m))) 1); [lia|]. split; [assumption|apply Qfloor_le].
        -- apply IHb. intros d [Hd|Hd]; apply Hb; [now left|right; now right].
    + constructor.
      * destruct (Z.ltb_spec (Qfloor (r * (b / m))) 1); [lia|]. split; [assumption|apply Qfloor_le].
      * apply IH. intros d Hd. apply Hb. now right.
Qed.

(** the root need not be exact: any r not above it will do *)
Lemma uniform_positive P box r : Forall (fun b => 1 <= b) box -> box <> [] ->
  qpow r (length box) * qprod box <= inject_Z (Z.of_nat P) * qmin box -> 1 <= r ->
  (1 <= prodz (uniform_shape P box r) <= Z.of_nat P)%Z.
Proof.
  intros Hb Hne Hr Hr1.
  destruct (uniform_bounds P box r Hne) as [B1 B2]. split; [|apply B1]. apply B2.
  assert (Hm1 : 1 <= qmin box).
  { clear -Hb Hne. induction Hb as [|b l Hb Hl IH]; [congruence|]. destruct l as [|c l]; [assumption|].
    change (qmin (b :: c :: l)) with (if Qle_bool b (qmin (c :: l)) then b else qmin (c :: l)).
    destruct (Qle_bool b (qmin (c :: l))); [assumption|]. apply IH. discriminate. }
  rewrite Zle_Qle. eapply Qle_trans.
  - apply (qprod_bound (fun b => r * (b / qmin box)) _ box). apply other_axes_le; lra.
  - assert (S := qprod_scale r (qmin box) box ltac:(lra)).
    assert (Hp : 0 < qprod box). { apply qprod_pos. eapply Forall_impl; [|exact Hb]. intros; cbv beta in *; lra. }
    destruct box as [|b0 bx] eqn:Eb; [congruence|]. rewrite <- Eb in *.
    assert (Hlen : length box = Datatypes.S (length bx)) by now rewrite Eb.
    rewrite Hlen in S, Hr. cbn [qpow] in S, Hr.
    set (X := qprod (map (fun b => r * (b / qmin box)) box)) in *.
    assert (X0 : 0 <= X).
    { unfold X. clearbody X. apply Qlt_le_weak, qprod_pos. apply Forall_forall. intros y Hy. apply in_map_iff in Hy.
      destruct Hy as (b & <- & Hin). apply Qmult_lt_0_compat; [lra|]. apply Qlt_shift_div_l; [lra|].
      apply qmin_le in Hin. lra. }
    assert (S' : X * qpow (qmin box) (length bx) <= inject_Z (Z.of_nat P)).
    { apply (Qmult_le_r _ _ (qmin box)); [lra|].
      setoid_replace (X * qpow (qmin box) (length bx) * qmin box) with (X * (qmin box * qpow (qmin box) (length bx))) by ring.
      rewrite S. exact Hr. }
    assert (Hq := qpow_ge1 (qmin box) (length bx) Hm1).
    eapply Qle_trans; [|exact S']. setoid_replace X with (X * 1) at 1 by ring.
    apply Qmult_le_compat_nonneg; lra.
Qed.

Lemma uniform_root_le P box r : Forall (fun b => 1 <= b) box -> uniform_root P box r ->
  qpow r (length box) * qprod box <= inject_Z (Z.of_nat P) * qmin box.
Proof.
  intros Hb [_ Hr]. rewrite Hr.
  assert (Hp : 0 < qprod box). { apply qprod_pos. eapply Forall_impl; [|exact Hb]. intros; cbv beta in *; lra. }
  assert (Q0 : inject_Z (Z.of_nat P) / qprod box * qmin box * qprod box == inject_Z (Z.of_nat P) * qmin box) by (field; lra).
  rewrite Q0. apply Qle_refl.
Qed.
