From Coq Require Import List Arith Lia Bool QArith Permutation Sorted.
From Verif Require Import Base ListFacts LayoutModel LayoutSpec LayoutProofs.
Import ListNotations.
Local Close Scope Q_scope.
Local Open Scope nat_scope.
Local Arguments list_sum : simpl never.

(** the arrays [y] fit what each rank received *)
Definition received_lengths {A} (args : list layout_arg) (y : list (list A)) : Prop :=
  lengths_ok (map (fun r => length (tags args r)) (seq 0 (length args))) y.
Definition sent_lengths {A} (args : list layout_arg) (data : list (list A)) : Prop :=
  lengths_ok (map a_len args) data.

Lemma received_lengths_nth {A} args (y : list (list A)) :
  received_lengths args y ->
  length y = length args /\ (forall r, r < length args -> length (nth r y []) = length (tags args r)).
Proof.
  unfold received_lengths, lengths_ok. intros H.
  assert (Hl : length y = length args).
  { rewrite <- (map_length (@length A) y), H, map_length, seq_length. reflexivity. }
  split; [assumption|]. intros r Hr.
  rewrite <- (nth_map_in (@length A) y r 0 []) by lia. rewrite H. now rewrite nth_map_seq.
Qed.

Lemma sent_lengths_nth {A} args (data : list (list A)) :
  sent_lengths args data ->
  length data = length args /\
  (forall s, s < length args -> length (nth s data []) = a_len (arg_at args s)).
Proof.
  unfold sent_lengths, lengths_ok. intros H.
  assert (Hl : length data = length args).
  { rewrite <- (map_length (@length A) data), H, map_length. reflexivity. }
  split; [assumption|]. intros s Hs.
  rewrite <- (nth_map_in (@length A) data s 0 []) by lia. rewrite H.
  unfold arg_at. now apply nth_map_in.
Qed.

(* ---------- any ---------- *)

Lemma fold_last {A} (l : list A) d : fold_left (fun _ v => v) l d = last l d.
Proof.
  revert d; induction l as [|x l IH]; intros d; [reflexivity|].
  simpl fold_left. rewrite IH. destruct l; [reflexivity|]. simpl. clear. revert a.
  induction l as [|y l IH]; intros a; [reflexivity|]. exact (IH y).
Qed.

Lemma last_const {A} (l : list A) (v d : A) : l <> [] -> (forall x, In x l -> x = v) -> last l d = v.
Proof.
  intros Hne Hall. apply Hall. destruct (exists_last Hne) as (l' & x & ->).
  rewrite last_last. apply in_or_app. right; now left.
Qed.

Lemma gather_any_ok {A} args (zero : A) (y : list (list A)) : wf_args args -> received_lengths args y ->
  gather_any zero (layout_init args) y =
  map (fun s => Ret (map (fun i => last (copies args y s i) zero) (seq 0 (a_len (arg_at args s)))))
      (seq 0 (length args)).
Proof.
  intros Hwf Hy. destruct (received_lengths_nth args y Hy) as (Hl & Hn).
  unfold gather_any. rewrite gather_post_ok by assumption.
  apply map_ext_seq. intros s Hs. destruct (Nat.eqb_spec (a_len (arg_at args s)) 0) as [H0|_].
  - rewrite H0. reflexivity.
  - unfold scatter. simpl. rewrite repeat_length, forallb_idx by assumption. f_equal.
    rewrite (fold_upd_eq (fun _ v => v)). apply map_ext. intros i.
    rewrite fold_last, copies_filter by assumption. reflexivity.
Qed.

(* ---------- mean ---------- *)

Lemma gather_mean_ok args (y : list (list Q)) : wf_args args -> received_lengths args y ->
  gather_mean (layout_init args) y =
  map (fun s => Ret (map (fun i => qmean (fold_left Qplus (copies args y s i) 0%Q) (length (copies args y s i)))
                         (seq 0 (a_len (arg_at args s)))))
      (seq 0 (length args)).
Proof.
  intros Hwf Hy. destruct (received_lengths_nth args y Hy) as (Hl & Hn).
  unfold gather_mean. rewrite gather_post_ok by assumption.
  apply map_ext_seq. intros s Hs. destruct (Nat.eqb_spec (a_len (arg_at args s)) 0) as [H0|_].
  - rewrite H0. reflexivity.
  - cbn [sendlength indices lay]. rewrite (counts_ok args Hwf y) by assumption. cbn [bind].
    rewrite bincount_idx by assumption. cbn [bind].
    rewrite combine_map_map, map_map. cbn [fst snd]. f_equal. apply map_ext. intros i.
    rewrite copies_filter by assumption. reflexivity.
Qed.

Lemma fold_Qplus_const (l : list Q) (v a : Q) : (forall x, In x l -> (x == v)%Q) ->
  (fold_left Qplus l a == a + inject_Z (Z.of_nat (length l)) * v)%Q.
Proof.
  revert a; induction l as [|x l IH]; intros a H; simpl length; cbn [fold_left].
  - simpl. ring.
  - rewrite IH by (intros; apply H; now right). rewrite (H x) by now left.
    rewrite Nat2Z.inj_succ, <- Z.add_1_r, inject_Z_plus. simpl. ring.
Qed.

Lemma qmean_const (l : list Q) (v : Q) : l <> [] -> (forall x, In x l -> (x == v)%Q) ->
  exists q, qmean (fold_left Qplus l 0%Q) (length l) = Some q /\ (q == v)%Q.
Proof.
  intros Hne Hall. unfold qmean. destruct (Nat.eqb_spec (length l) 0) as [H|H].
  - destruct l; [contradiction|discriminate].
  - eexists. split; [reflexivity|]. rewrite (fold_Qplus_const l v) by assumption.
    field. intros E. unfold Qeq in E. simpl in E. lia.
Qed.

(* ---------- ufunc ---------- *)

(** numpy's argsort on the keys [idx]: some permutation that sorts them *)
Definition is_argsort (ix arg : list nat) : Prop :=
  Permutation arg (seq 0 (length ix)) /\ Sorted le (map (fun k => nth k ix 0) arg).

Lemma reduce1_perm {A} (op : A -> A -> A) :
  (forall a b, op a b = op b a) -> (forall a b c, op a (op b c) = op (op a b) c) ->
  forall l m, Permutation l m -> reduce1 op l = reduce1 op m.
Proof.
  intros Hc Ha.
  assert (F : forall l a b, fold_left op l (op a b) = op a (fold_left op l b)).
  { induction l as [|x l IH]; intros a b; simpl; [reflexivity|]. rewrite <- Ha. apply IH. }
  assert (G : forall l m, Permutation l m -> forall a, fold_left op l a = fold_left op m a).
  { induction 1 as [|x l m H IH|x y l|l m n H1 IH1 H2 IH2]; intros a; simpl.
    - reflexivity.
    - apply IH.
    - f_equal. rewrite <- !Ha. f_equal. apply Hc.
    - rewrite IH1. apply IH2. }
  induction 1 as [|x l m H IH|x y l|l m n H1 IH1 H2 IH2]; simpl.
  - reflexivity.
  - f_equal. now apply G.
  - f_equal. f_equal. apply Hc.
  - now rewrite IH1.
Qed.

(** a list of keyed values with sorted keys below n is the concatenation of its
    groups *)
Lemma sorted_groups {A} (l : list (nat * A)) lo n :
  StronglySorted le (map fst l) -> (forall p, In p l -> lo <= fst p < lo + n) ->
  l = flat_map (fun i => filter (fun p => fst p =? i) l) (seq lo n).
Proof.
  revert lo l; induction n as [|n IH]; intros lo l Hs Hr.
  - destruct l as [|p l]; [reflexivity|]. specialize (Hr p (or_introl eq_refl)). lia.
  - simpl.
    assert (E : l = filter (fun p => fst p =? lo) l ++ filter (fun p => negb (fst p =? lo)) l).
    { clear IH. induction l as [|[k a] l IHl]; [reflexivity|]. simpl.
      simpl in Hs. inversion Hs as [|? ? Hs' Hle]; subst.
      destruct (Nat.eqb_spec k lo) as [->|Hne]; simpl.
      - f_equal. apply IHl; [assumption|]. intros p Hp. apply Hr. now right.
      - assert (Hk : lo < k). { specialize (Hr (k, a) (or_introl eq_refl)). simpl in Hr. lia. }
        assert (Hall : forall p, In p l -> (fst p =? lo) = false).
        { intros p Hp. rewrite Forall_forall in Hle. specialize (Hle (fst p) (in_map fst l p Hp)).
          apply Nat.eqb_neq. lia. }
        rewrite filter_none by assumption. simpl. f_equal. symmetry.
        apply filter_all. intros p Hp. now rewrite Hall. }
    rewrite E at 1. f_equal.
    set (l' := filter (fun p => negb (fst p =? lo)) l) in *.
    assert (Hs' : StronglySorted le (map fst l')).
    { unfold l'. clear -Hs. induction l as [|[k a] l IHl]; [constructor|]. simpl in *.
      inversion Hs as [|? ? Hs' Hle]; subst. destruct (k =? lo); simpl; [now apply IHl|].
      constructor; [now apply IHl|]. rewrite Forall_forall in *. intros x Hx.
      apply Hle. apply in_map_iff in Hx. destruct Hx as (p & <- & Hp). apply filter_In in Hp.
      apply in_map. apply Hp. }
    rewrite (IH (S lo) l' Hs').
    + apply flat_map_ext_in. intros i Hi. apply in_seq in Hi.
      unfold l'. rewrite filter_filter. apply filter_ext_in. intros p Hp.
      destruct (Nat.eqb_spec (fst p) i); [|now rewrite andb_false_r].
      destruct (Nat.eqb_spec (fst p) lo); [lia|reflexivity].
    + intros p Hp. unfold l' in Hp. apply filter_In in Hp. destruct Hp as [Hp Hb].
      specialize (Hr p Hp). apply negb_true_iff, Nat.eqb_neq in Hb. lia.
Qed.

Lemma reduceat_groups {A} (op : A -> A -> A) (groups : list (list A)) pre :
  (forall g, In g groups -> g <> []) ->
  reduceat_from op (pre ++ concat groups) (offsets_from (length pre) (map (@length A) groups))
  = sequence (map (reduce1 op) groups).
Proof.
  revert pre; induction groups as [|g gs IH]; intros pre Hne; [reflexivity|].
  cbn [map offsets_from reduceat_from concat sequence].
  assert (Hg : 0 < length g).
  { destruct g; [exfalso; apply (Hne []); [now left|reflexivity]|simpl; lia]. }
  assert (IH' := IH (pre ++ g)). rewrite <- app_assoc, app_length in IH'.
  rewrite IH' by (intros; apply Hne; now right). clear IH IH'.
  set (stop := match offsets_from (length pre + length g) (map (@length A) gs) with
               | [] => length (pre ++ g ++ concat gs) | o' :: _ => o' end).
  assert (Hstop : stop = length pre + length g).
  { unfold stop. destruct gs as [|h gs]; simpl.
    - rewrite app_nil_r, app_length. reflexivity.
    - reflexivity. }
  rewrite Hstop. destruct (Nat.ltb_spec (length pre) (length pre + length g)) as [_|H]; [|lia].
  replace (length pre + length g - length pre) with (length g) by lia.
  rewrite skipn_app, skipn_all, Nat.sub_diag. simpl skipn. simpl app at 1.
  rewrite firstn_app, firstn_all, Nat.sub_diag, firstn_O, app_nil_r.
  destruct (reduce1 op g); reflexivity.
Qed.

Lemma take_perm {A} (l : list A) arg : Permutation arg (seq 0 (length l)) ->
  exists m, take l arg = Some m /\ Permutation m l /\ map Some m = map (nth_error l) arg.
Proof.
  intros Hp.
  assert (Hf : Forall (fun i => i < length l) arg).
  { apply Forall_forall. intros i Hi. apply (Permutation_in _ Hp) in Hi. apply in_seq in Hi. lia. }
  exists (tk l arg). split; [now apply take_tk|]. split; [|now apply tk_some].
  unfold tk. rewrite (Permutation_flat_map _ Hp).
  assert (E : map Some (tk l (seq 0 (length l))) = map Some l).
  { rewrite tk_some.
    - apply list_ext. intros i. rewrite !nth_error_map.
      destruct (lt_dec i (length l)) as [Hi|Hi].
      + rewrite nth_error_seq_lt by lia. simpl. destruct (nth_error l i) eqn:E; [reflexivity|].
        apply nth_error_None in E. lia.
      + rewrite nth_error_seq_ge by lia. rewrite (proj2 (nth_error_None l i)) by lia. reflexivity.
    - apply Forall_forall. intros i Hi. apply in_seq in Hi. lia. }
  assert (I : forall (a b : list A), map Some a = map Some b -> a = b).
  { induction a as [|x a IHa]; intros [|z b] H; simpl in H; try discriminate; [reflexivity|].
    inversion H; subst. f_equal. now apply IHa. }
  apply I in E. fold (tk l (seq 0 (length l))). rewrite E. reflexivity.
Qed.

Lemma gather_ufunc_ok {A} args argsort (op : A -> A -> A) (y : list (list A)) :
  wf_args args -> received_lengths args y ->
  (forall a, In a args -> is_argsort (a_indices a) (argsort (a_indices a))) ->
  (forall a b, op a b = op b a) -> (forall a b c, op a (op b c) = op (op a b) c) ->
  (forall s i, s < length args -> i < a_len (arg_at args s) -> copies args y s i <> []) ->
  exists z, gather_ufunc argsort op (layout_init args) y = map Ret z /\ length z = length args /\
    forall s, s < length args ->
      map Some (nth s z []) = map (fun i => reduce1 op (copies args y s i)) (seq 0 (a_len (arg_at args s))).
Proof.
  intros Hwf Hy Harg Hc Ha Hne. destruct (received_lengths_nth args y Hy) as (Hl & Hn).
  unfold gather_ufunc. rewrite gather_post_ok by assumption.
  assert (Hone : forall s, s < length args -> exists zs,
    (if a_len (arg_at args s) =? 0 then Ret []
     else (fun L buf =>
    match take buf (argsort (indices L)) with
    | None => Raise IndexError
    | Some sorted =>
        bind (bincount Nat.add 0 (sendlength L) (indices L) (map (fun _ => 1) (indices L))) (fun N =>
          reduceat op sorted (offsets_from 0 N))
    end) (lay args s) (returned args y s)) = Ret zs /\
    map Some zs = map (fun i => reduce1 op (copies args y s i)) (seq 0 (a_len (arg_at args s)))).
  { intros s Hs. destruct (Nat.eqb_spec (a_len (arg_at args s)) 0) as [H0|_].
    - exists []. rewrite H0. split; reflexivity.
    - cbn [sendlength indices lay].
      set (ix := a_indices (arg_at args s)). set (n := a_len (arg_at args s)).
      assert (Hrl : length (returned args y s) = length ix) by now apply returned_length.
      destruct (Harg (arg_at args s)) as [Hp Hsort].
      { unfold arg_at. apply nth_In. lia. }
      fold ix in Hp, Hsort. rewrite <- Hrl in Hp.
      destruct (take_perm (returned args y s) _ Hp) as (m & Hm & Hpm & Hmm). rewrite Hm.
      unfold n at 1, ix at 1 2. rewrite (counts_ok args Hwf y) by assumption. cbn [bind]. unfold reduceat.
      (* pairs sorted by key *)
      set (pairs := combine ix (returned args y s)).
      assert (Hpl : length pairs = length ix) by (unfold pairs; rewrite combine_length; lia).
      destruct (take_perm pairs (argsort ix)) as (mp & Hmp & Hpmp & Hmmp).
      { rewrite Hpl, <- Hrl. assumption. }
      assert (Hsnd : map snd mp = m).
      { assert (E : map (option_map snd) (map Some mp) = map Some m).
        { rewrite Hmmp, Hmm, map_map. apply map_ext_in. intros k Hk.
          apply (Permutation_in _ Hp) in Hk. apply in_seq in Hk.
          unfold pairs. rewrite nth_error_combine.
          destruct (nth_error ix k) eqn:E1; [|apply nth_error_None in E1; lia].
          destruct (nth_error (returned args y s) k) eqn:E2; [reflexivity|apply nth_error_None in E2; lia]. }
        rewrite map_map in E. simpl in E. rewrite <- (map_map snd Some) in E.
        clear -E. revert E. generalize (map snd mp). induction l as [|x l IH] in m |- *; destruct m as [|z m]; simpl; intros H; try discriminate; [reflexivity|].
        inversion H; subst. f_equal. now apply IH. }
      assert (Hfst : map fst mp = map (fun k => nth k ix 0) (argsort ix)).
      { assert (E : map (option_map fst) (map Some mp) = map Some (map (fun k => nth k ix 0) (argsort ix))).
        { rewrite Hmmp, !map_map. apply map_ext_in. intros k Hk.
          apply (Permutation_in _ Hp) in Hk. apply in_seq in Hk.
          unfold pairs. rewrite nth_error_combine. rewrite (nth_error_nth' ix 0) by lia.
          destruct (nth_error (returned args y s) k) eqn:E2; [reflexivity|apply nth_error_None in E2; lia]. }
        rewrite map_map in E. simpl in E. rewrite <- (map_map fst Some) in E.
        clear -E. revert E. generalize (map fst mp), (map (fun k => nth k ix 0) (argsort ix)).
        induction l as [|x l IH]; intros [|z m] H; simpl in H; try discriminate; [reflexivity|].
        inversion H; subst. f_equal. now apply IH. }
      assert (Hss : StronglySorted le (map fst mp)).
      { rewrite Hfst. apply Sorted_StronglySorted; [intros a b c; lia|assumption]. }
      assert (Hgr := sorted_groups mp 0 n Hss).
      set (groups := map (fun i => map snd (filter (fun p => fst p =? i) mp)) (seq 0 n)).
      assert (Hconc : m = concat groups).
      { rewrite <- Hsnd. rewrite Hgr at 1.
        - rewrite map_flat_map, flat_map_concat_map. reflexivity.
        - intros p Hp'. split; [lia|]. apply (Permutation_in _ Hpmp) in Hp'. unfold pairs in Hp'.
          destruct p as [k v]. apply in_combine_l in Hp'. simpl.
          destruct (wf_at args Hwf s Hs) as (_ & _ & Hf). rewrite Forall_forall in Hf. now apply Hf. }
      assert (Hgi : forall i, Permutation (map snd (filter (fun p => fst p =? i) mp)) (copies args y s i)).
      { intros i. rewrite copies_filter by assumption. apply Permutation_map.
        fold ix. fold pairs. clear -Hpmp. induction Hpmp as [|x l l' H IH|x z l|l l' l'' H1 IH1 H2 IH2]; simpl.
        - constructor.
        - destruct (fst x =? i); [now constructor|assumption].
        - destruct (fst x =? i), (fst z =? i); try reflexivity. apply perm_swap.
        - now transitivity (filter (fun p => fst p =? i) l'). }
      assert (Hlen : map (fun i => length (copies args y s i)) (seq 0 n) = map (@length A) groups).
      { unfold groups. rewrite map_map. apply map_ext. intros i. symmetry. apply Permutation_length, Hgi. }
      fold n. rewrite Hlen.
      assert (Hr : reduceat_from op m (offsets_from 0 (map (@length A) groups)) = sequence (map (reduce1 op) groups)).
      { rewrite Hconc. apply (reduceat_groups op groups []).
        intros g Hg E. unfold groups in Hg. apply in_map_iff in Hg. destruct Hg as (i & <- & Hi).
        apply in_seq in Hi. apply (Hne s i Hs); [lia|]. specialize (Hgi i). rewrite E in Hgi.
        now apply Permutation_nil in Hgi. }
      rewrite Hr.
      assert (Hred : map (reduce1 op) groups = map (fun i => reduce1 op (copies args y s i)) (seq 0 n)).
      { unfold groups. rewrite map_map. apply map_ext. intros i. apply reduce1_perm; [assumption|assumption|apply Hgi]. }
      rewrite Hred.
      destruct (sequence (map (fun i => reduce1 op (copies args y s i)) (seq 0 n))) as [zs|] eqn:Eseq.
      + exists zs. split; [reflexivity|]. symmetry. now apply sequence_Some_inv.
      + exfalso. clear -Eseq Hne Hs.
        assert (Hall : forall i, In i (seq 0 n) -> copies args y s i <> []).
        { intros i Hi. apply in_seq in Hi. apply Hne; [assumption|unfold n in *; lia]. }
        revert Eseq Hall. generalize (seq 0 n). induction l as [|i l IH]; simpl; [discriminate|].
        intros H Hall. destruct (copies args y s i) eqn:E; [now apply (Hall i (or_introl eq_refl))|].
        simpl in H. destruct (sequence (map (fun i => reduce1 op (copies args y s i)) l)) eqn:E2; [discriminate|].
        apply IH; [reflexivity|]. intros k Hk. apply Hall. now right. }
  (* collect over ranks *)
  assert (Hall : forall k, k <= length args -> exists z, length z = k /\
     forall s, s < k ->
    (if a_len (arg_at args s) =? 0 then Ret []
     else (fun L buf =>
    match take buf (argsort (indices L)) with
    | None => Raise IndexError
    | Some sorted =>
        bind (bincount Nat.add 0 (sendlength L) (indices L) (map (fun _ => 1) (indices L))) (fun N =>
          reduceat op sorted (offsets_from 0 N))
    end) (lay args s) (returned args y s)) = Ret (nth s z []) /\
       map Some (nth s z []) = map (fun i => reduce1 op (copies args y s i)) (seq 0 (a_len (arg_at args s)))).
  { induction k as [|k IHk]; intros Hk.
    - exists []. split; [reflexivity|]. intros s Hs. lia.
    - destruct IHk as (z & Hz & Hzs); [lia|]. destruct (Hone k) as (zs & Hzk & Hzk2); [lia|].
      exists (z ++ [zs]). split; [rewrite app_length; simpl; lia|]. intros s Hs.
      destruct (Nat.eq_dec s k) as [->|Hne'].
      + rewrite app_nth2 by lia. rewrite Hz, Nat.sub_diag. simpl. split; assumption.
      + rewrite app_nth1 by lia. apply Hzs. lia. }
  destruct (Hall (length args) (le_n _)) as (z & Hz & Hzs).
  exists z. repeat split; [|assumption|].
  - rewrite <- (map_nth_seq z [] (length args) Hz) at 1. rewrite map_map. apply map_ext_seq.
    intros s Hs. exact (proj1 (Hzs s Hs)).
  - intros s Hs. exact (proj2 (Hzs s Hs)).
Qed.
