(** Properties C39 and C40: resampling in Fourier space (pmesh/pm.py:479-547, 1091-1144). *)
From Coq Require Import List Arith ZArith QArith Lia Bool Permutation.
From Verif Require Import Base ListFacts LayoutModel WrapModel WrapProofs DomainModel DomainFill MeshModel MeshAssign
  MeshRoute MeshTile RingModel FieldModel FieldFacts FieldProperties FieldSort.
Import ListNotations.
Local Close Scope Q_scope.
Local Open Scope Z_scope.

(** ** slice assignment *)
Lemma py_bound_range n i : 0 <= n -> 0 <= py_bound n i <= n.
Proof. unfold py_bound. destruct (Z.ltb_spec i 0); lia. Qed.

Lemma nth_splice (l s : list Z) (a m j : nat) : length s = m -> (a + m <= length l)%nat ->
  nth j (firstn a l ++ s ++ skipn (a + m) l) 0 =
  if ((a <=? j)%nat && (j <? a + m)%nat)%bool then nth (j - a) s 0 else nth j l 0.
Proof.
  intros Hs Hl. destruct (Nat.leb_spec a j); cbn [andb].
  - rewrite app_nth2 by (rewrite firstn_length; lia). rewrite firstn_length, Nat.min_l by lia.
    destruct (Nat.ltb_spec j (a + m)).
    + rewrite app_nth1 by lia. reflexivity.
    + rewrite app_nth2 by lia. rewrite Hs.
      rewrite <- (firstn_skipn (a + m) l) at 2. rewrite app_nth2 by (rewrite firstn_length; lia).
      rewrite firstn_length, Nat.min_l by lia. f_equal. lia.
  - rewrite app_nth1 by (rewrite firstn_length; lia).
    rewrite <- (firstn_skipn a l) at 2. rewrite app_nth1 by (rewrite firstn_length; lia). reflexivity.
Qed.

Lemma set_slice_ok l a b vals :
  let n := Z.of_nat (length l) in
  let a' := py_bound n a in
  let m := Z.to_nat (py_bound n b - a') in
  length vals = m \/ length vals = 1%nat ->
  exists r, set_slice l a b vals = Ret r /\ length r = length l /\
    forall j, (j < length l)%nat ->
      nth j r 0 = if ((Z.to_nat a' <=? j)%nat && (j <? Z.to_nat a' + m)%nat)%bool
                  then nth (if (length vals =? m)%nat then j - Z.to_nat a' else 0)%nat vals 0 else nth j l 0.
Proof.
  intros n a' m H. unfold set_slice. fold n. fold a'. fold m.
  pose proof (py_bound_range n a ltac:(lia)) as Ba. pose proof (py_bound_range n b ltac:(lia)) as Bb.
  fold a' in Ba. assert (Hm : (Z.to_nat a' + m <= length l)%nat) by (subst m n; lia).
  destruct (Nat.eqb_spec (length vals) m) as [E|E].
  - eexists; split; [reflexivity|]. split.
    + rewrite !app_length, firstn_length, skipn_length. lia.
    + intros j Hj. rewrite nth_splice by assumption. reflexivity.
  - destruct H as [H|H]; [easy|]. destruct vals as [|v [|? ?]]; try discriminate H.
    eexists; split; [reflexivity|]. split.
    + rewrite !app_length, firstn_length, skipn_length, repeat_length. lia.
    + intros j Hj. rewrite nth_splice by (rewrite ?repeat_length; auto).
      destruct (Nat.leb_spec (Z.to_nat a') j), (Nat.ltb_spec j (Z.to_nat a' + m)); cbn [andb]; try reflexivity.
      cbn [nth]. rewrite (nth_indep _ 0 v) by (rewrite repeat_length; lia). apply nth_repeat.
Qed.

Lemma set_slice_fails l a b vals :
  let n := Z.of_nat (length l) in
  let m := Z.to_nat (py_bound n b - py_bound n a) in
  length vals <> m -> length vals <> 1%nat -> set_slice l a b vals = Raise ValueError.
Proof.
  intros n m H H1. unfold set_slice. fold n. fold m. destruct (Nat.eqb_spec (length vals) m); [easy|].
  destruct vals as [|v [|? ?]]; try reflexivity. now elim H1.
Qed.

Lemma arange_length a b : length (arange a b) = Z.to_nat (b - a).
Proof. apply zrange_length. Qed.
Lemma nth_arange a b j : (j < Z.to_nat (b - a))%nat -> nth j (arange a b) 0 = a + Z.of_nat j.
Proof. intros H. unfold arange. now apply nth_zrange. Qed.

(** pm.py:1128-1144 for an even destination: what every entry is *)
Lemma reindex_even Nsrc h : 0 < Nsrc -> 0 < h ->
  exists t, reindex Nsrc (2 * h) = Ret t /\ length t = Z.to_nat (2 * h) /\
    forall j, 0 <= j < 2 * h ->
      nth (Z.to_nat j) t 0 = if (Nsrc / 2 + 1 <=? j) && (j <=? 2 * h - Nsrc / 2) then -1
                             else if j <=? h then j else j + Nsrc - 2 * h.
Proof.
  intros Hs Hh. unfold reindex.
  assert (E2 : 2 * h / 2 = h) by (rewrite Z.mul_comm; apply Z.div_mul; lia). rewrite E2.
  assert (Hd : 0 <= Nsrc / 2) by (apply Z.div_pos; lia).
  pose proof (set_slice_ok (arange 0 (2 * h)) (h + 1) (2 * h) (arange (Nsrc - h + 1) Nsrc)) as S1. cbv zeta in S1.
  rewrite !arange_length in S1. replace (Z.of_nat (Z.to_nat (2 * h - 0))) with (2 * h) in S1 by lia.
  assert (B1 : py_bound (2 * h) (h + 1) = h + 1) by (unfold py_bound; destruct (Z.ltb_spec (h + 1) 0); lia).
  assert (B2 : py_bound (2 * h) (2 * h) = 2 * h) by (unfold py_bound; destruct (Z.ltb_spec (2 * h) 0); lia).
  rewrite B1, B2 in S1. destruct S1 as (t1 & T1 & L1 & N1); [left; lia|].
  rewrite T1. cbn [bind].
  pose proof (set_slice_ok t1 (Nsrc / 2 + 1) (2 * h - Nsrc / 2 + 1) [-1]) as S2. cbv zeta in S2.
  rewrite L1 in S2. replace (Z.of_nat (Z.to_nat (2 * h - 0))) with (2 * h) in S2 by lia.
  destruct S2 as (t2 & T2 & L2 & N2); [right; reflexivity|].
  exists t2. split; [exact T2|]. split; [lia|].
  intros j Hj. rewrite N2 by lia. rewrite N1 by lia.
  replace (Z.to_nat (Nsrc - (Nsrc - h + 1)) =? Z.to_nat (2 * h - (h + 1)))%nat with true
    by (symmetry; apply Nat.eqb_eq; lia).
  set (a := py_bound (2 * h) (Nsrc / 2 + 1)). set (b := py_bound (2 * h) (2 * h - Nsrc / 2 + 1)).
  assert (Ea : a = Z.min (Nsrc / 2 + 1) (2 * h)) by (unfold a, py_bound; destruct (Z.ltb_spec (Nsrc / 2 + 1) 0); lia).
  assert (Eb : (2 * h - Nsrc / 2 + 1 < 0 /\ a = 2 * h) \/ (0 <= 2 * h - Nsrc / 2 + 1 /\ b = Z.min (2 * h - Nsrc / 2 + 1) (2 * h)))
    by (unfold b, py_bound; destruct (Z.ltb_spec (2 * h - Nsrc / 2 + 1) 0); [left|right]; lia).
  pose proof (py_bound_range (2 * h) (2 * h - Nsrc / 2 + 1) ltac:(lia)) as Bb. fold b in Bb.
  destruct (Z.leb_spec (Nsrc / 2 + 1) j), (Z.leb_spec j (2 * h - Nsrc / 2)); cbn [andb].
  - replace ((Z.to_nat a <=? Z.to_nat j)%nat && (Z.to_nat j <? Z.to_nat a + Z.to_nat (b - a))%nat)%bool with true
      by (symmetry; apply andb_true_intro; split; [apply Nat.leb_le | apply Nat.ltb_lt]; lia).
    destruct (length [(-1)%Z] =? Z.to_nat (b - a))%nat eqn:El; [|reflexivity].
    apply Nat.eqb_eq in El. cbn [length] in El. replace (Z.to_nat j - Z.to_nat a)%nat with 0%nat by lia. reflexivity.
  - replace ((Z.to_nat a <=? Z.to_nat j)%nat && (Z.to_nat j <? Z.to_nat a + Z.to_nat (b - a))%nat)%bool with false
      by (symmetry; apply andb_false_iff; right; apply Nat.ltb_ge; lia).
    destruct (Z.leb_spec j h).
    + replace ((Z.to_nat (h + 1) <=? Z.to_nat j)%nat) with false by (symmetry; apply Nat.leb_gt; lia). cbn [andb].
      rewrite nth_arange by lia. lia.
    + replace ((Z.to_nat (h + 1) <=? Z.to_nat j)%nat && (Z.to_nat j <? Z.to_nat (h + 1) + Z.to_nat (2 * h - (h + 1)))%nat)%bool with true
        by (symmetry; apply andb_true_intro; split; [apply Nat.leb_le | apply Nat.ltb_lt]; lia).
      rewrite nth_arange by lia. lia.
  - replace ((Z.to_nat a <=? Z.to_nat j)%nat && (Z.to_nat j <? Z.to_nat a + Z.to_nat (b - a))%nat)%bool with false
      by (symmetry; apply andb_false_iff; left; apply Nat.leb_gt; lia).
    destruct (Z.leb_spec j h).
    + replace ((Z.to_nat (h + 1) <=? Z.to_nat j)%nat) with false by (symmetry; apply Nat.leb_gt; lia). cbn [andb].
      rewrite nth_arange by lia. lia.
    + replace ((Z.to_nat (h + 1) <=? Z.to_nat j)%nat && (Z.to_nat j <? Z.to_nat (h + 1) + Z.to_nat (2 * h - (h + 1)))%nat)%bool with true
        by (symmetry; apply andb_true_intro; split; [apply Nat.leb_le | apply Nat.ltb_lt]; lia).
      rewrite nth_arange by lia. lia.
  - replace ((Z.to_nat a <=? Z.to_nat j)%nat && (Z.to_nat j <? Z.to_nat a + Z.to_nat (b - a))%nat)%bool with false
      by (symmetry; apply andb_false_iff; left; apply Nat.leb_gt; lia).
    destruct (Z.leb_spec j h).
    + replace ((Z.to_nat (h + 1) <=? Z.to_nat j)%nat) with false by (symmetry; apply Nat.leb_gt; lia). cbn [andb].
      rewrite nth_arange by lia. lia.
    + replace ((Z.to_nat (h + 1) <=? Z.to_nat j)%nat && (Z.to_nat j <? Z.to_nat (h + 1) + Z.to_nat (2 * h - (h + 1)))%nat)%bool with true
        by (symmetry; apply andb_true_intro; split; [apply Nat.leb_le | apply Nat.ltb_lt]; lia).
      rewrite nth_arange by lia. lia.
Qed.

(** ** C40 *)
(** An even destination and any source.  A frequency [s] is an integer; a mesh of
    N cells stores it at index [s mod N]. *)
Theorem C40_even_destination : forall Nsrc Ndest,
  0 < Nsrc -> 0 < Ndest -> Z.even Ndest = true ->
  exists t, reindex Nsrc Ndest = Ret t /\ length t = Z.to_nat Ndest /\
    (forall s, 2 * Z.abs s < Nsrc -> 2 * Z.abs s < Ndest ->
       nth (Z.to_nat (s mod Ndest)) t 0 =
       if (s <? 0) && (2 * s =? 1 - Nsrc) && (Nsrc <? Ndest) then -1 else s mod Nsrc) /\
    (forall s, Nsrc < 2 * Z.abs s -> 2 * Z.abs s <= Ndest -> nth (Z.to_nat (s mod Ndest)) t 0 = -1).
Proof.
  intros Ns Nd Hs Hd Ev. apply Z.even_spec in Ev. destruct Ev as [h ->].
  destruct (reindex_even Ns h Hs ltac:(lia)) as (t & T & Lt & E). exists t. split; [exact T|]. split; [exact Lt|].
  pose proof (Z.div_mod Ns 2 ltac:(lia)) as Dm. pose proof (Z.mod_pos_bound Ns 2 ltac:(lia)) as Db.
  assert (M : forall N s, 0 < N -> 2 * Z.abs s <= N -> s mod N = if s <? 0 then s + N else if s =? N then 0 else s).
  { intros N s HN Ha. destruct (Z.ltb_spec s 0).
    - rewrite <- (Z.mod_small (s + N) N) by lia. rewrite <- (Z.mod_add s 1 N) by lia. f_equal. lia.
    - destruct (Z.eqb_spec s N); [lia|]. apply Z.mod_small. lia. }
  split.
  - intros s H1 H2. rewrite !M by lia.
    rewrite E by (destruct (Z.ltb_spec s 0), (Z.eqb_spec s (2 * h)); lia).
    destruct (Z.ltb_spec s 0), (Z.eqb_spec s (2 * h)), (Z.eqb_spec s Ns); try lia;
    destruct (Z.leb_spec (Ns / 2 + 1) s), (Z.leb_spec (Ns / 2 + 1) (s + 2 * h)), (Z.leb_spec s (2 * h - Ns / 2)),
      (Z.leb_spec (s + 2 * h) (2 * h - Ns / 2)), (Z.leb_spec s h), (Z.leb_spec (s + 2 * h) h),
      (Z.eqb_spec (2 * s) (1 - Ns)), (Z.ltb_spec Ns (2 * h)); cbn [andb]; lia.
  - intros s H1 H2. rewrite !M by lia.
    rewrite E by (destruct (Z.ltb_spec s 0), (Z.eqb_spec s (2 * h)); lia).
    destruct (Z.ltb_spec s 0), (Z.eqb_spec s (2 * h)); try lia;
    destruct (Z.leb_spec (Ns / 2 + 1) s), (Z.leb_spec (Ns / 2 + 1) (s + 2 * h)), (Z.leb_spec s (2 * h - Ns / 2)),
      (Z.leb_spec (s + 2 * h) (2 * h - Ns / 2)), (Z.leb_spec s h), (Z.leb_spec (s + 2 * h) h); cbn [andb]; lia.
Qed.
Print Assumptions C40_even_destination.

(** Odd destinations: the two sides of the assignment in line 1139 differ in
    length.  Except for sizes 1 and 5 it raises. *)
Theorem C40_odd_destination_raises : forall Nsrc h, 1 <= h -> h <> 2 ->
  reindex Nsrc (2 * h + 1) = Raise ValueError.
Proof.
  intros Ns h Hh H2. unfold reindex.
  assert (E2 : (2 * h + 1) / 2 = h) by (rewrite Z.mul_comm, Z.div_add_l by lia; cbn; lia). rewrite E2.
  rewrite set_slice_fails; [reflexivity| |]; rewrite !arange_length.
  - replace (Z.of_nat (Z.to_nat (2 * h + 1 - 0))) with (2 * h + 1) by lia.
    unfold py_bound. destruct (Z.ltb_spec (2 * h + 1) 0), (Z.ltb_spec (h + 1) 0); lia.
  - lia.
Qed.
Print Assumptions C40_odd_destination_raises.

(** Size 5 broadcasts: the slot of frequency -2 reads frequency -1. *)
Theorem C40_five_refuted : forall Nsrc, 6 <= Nsrc -> reindex Nsrc 5 = Ret [0; 1; 2; Nsrc - 1; Nsrc - 1].
Proof.
  intros Ns H. unfold reindex. change (5 / 2) with 2. change (arange 0 5) with [0; 1; 2; 3; 4].
  assert (E : arange (Ns - 2 + 1) Ns = [Ns - 1]).
  { unfold arange. replace (Z.to_nat (Ns - (Ns - 2 + 1))) with 1%nat by lia. cbn. f_equal. lia. }
  rewrite E. change (set_slice [0; 1; 2; 3; 4] (2 + 1) 5 [Ns - 1]) with (Ret [0; 1; 2; Ns - 1; Ns - 1]). cbn [bind].
  pose proof (Z.div_mod Ns 2 ltac:(lia)) as Dm. pose proof (Z.mod_pos_bound Ns 2 ltac:(lia)) as Db.
  destruct (set_slice_ok [0; 1; 2; Ns - 1; Ns - 1] (Ns / 2 + 1) (5 - Ns / 2 + 1) [-1]) as (r & R & Lr & Nr); [now right|].
  rewrite R. f_equal. change (Z.of_nat (length [0; 1; 2; Ns - 1; Ns - 1])) with 5 in Nr. cbn [length] in Nr, Lr.
  set (a := py_bound 5 (Ns / 2 + 1)) in Nr. set (b := py_bound 5 (5 - Ns / 2 + 1)) in Nr.
  assert (Hab : b - a <= 0).
  { unfold a, b, py_bound. destruct (Z.ltb_spec (Ns / 2 + 1) 0), (Z.ltb_spec (5 - Ns / 2 + 1) 0); lia. }
  replace (Z.to_nat (b - a)) with 0%nat in Nr by lia.
  apply (nth_ext _ _ 0 0); [cbn; lia|]. intros j Hj. rewrite Nr by lia.
  destruct (Nat.leb_spec (Z.to_nat a) j), (Nat.ltb_spec j (Z.to_nat a + 0)); cbn [andb]; try reflexivity; lia.
Qed.
Print Assumptions C40_five_refuted.

(** An odd source and a larger even destination: the frequency -(Nsrc-1)/2 is
    lost although both meshes have it. *)
Theorem C40_odd_source_refuted : forall h m, 1 <= h -> h < m ->
  exists t, reindex (2 * h + 1) (2 * m) = Ret t /\ nth (Z.to_nat ((- h) mod (2 * m))) t 0 = -1 /\
    nth (Z.to_nat (h mod (2 * m))) t 0 = h.
Proof.
  intros h m H1 H2.
  destruct (C40_even_destination (2 * h + 1) (2 * m)) as (t & T & _ & E & _); [lia|lia| |].
  { apply Z.even_spec. now exists m. }
  exists t. split; [exact T|]. split.
  - rewrite E by lia. destruct (Z.ltb_spec (- h) 0), (Z.eqb_spec (2 * - h) (1 - (2 * h + 1))), (Z.ltb_spec (2 * h + 1) (2 * m)); cbn [andb]; lia.
  - rewrite E by lia. destruct (Z.ltb_spec h 0); [lia|]. cbn [andb]. rewrite Z.mod_small; lia.
Qed.
Print Assumptions C40_odd_source_refuted.

Example C40_case : reindex 7 8 = Ret [0; 1; 2; 3; -1; -1; 5; 6] /\ reindex 6 4 = Ret [0; 1; 2; 5] /\
  reindex 4 8 = Ret [0; 1; 2; -1; -1; -1; -1; 3] /\ reindex 8 5 = Ret [0; 1; 2; 7; 7].
Proof. repeat split; reflexivity. Qed.

(** ** C39 *)
(** the frequency at index k of an axis of N cells *)
Definition signed (N k : Z) : Z := if 2 * k <? N then k else k - N.

(** one axis of source and destination: even sizes, stored in full on both
    sides or (the last axis of compressed fields) up to N/2 on both sides.
    The last clause excludes destinations smaller than the source of which an
    axis stored in full contains the index Nsrc/2: see C39_halfway_refuted. *)
Record axis_ok (ns cs nd cd : Z) : Prop := {
  ax_src : 0 < ns /\ Z.even ns = true;
  ax_dst : 0 < nd /\ Z.even nd = true;
  ax_stored : (cs = ns /\ cd = nd) \/ (cs = ns / 2 + 1 /\ cd = nd / 2 + 1);
  ax_halfway : ns / 2 <= nd / 2 \/ cd <= ns / 2
}.
Inductive axes_ok : list Z -> list Z -> list Z -> list Z -> Prop :=
| axes_nil : axes_ok [] [] [] []
| axes_cons ns cs nd cd Ns Cs Nd Cd : axis_ok ns cs nd cd -> axes_ok Ns Cs Nd Cd ->
    axes_ok (ns :: Ns) (cs :: Cs) (nd :: Nd) (cd :: Cd).

(** modes below the Nyquist frequency of both meshes, and where the source has them *)
Fixpoint resolved (Nsrc Ndst k : list Z) : bool :=
  match Nsrc, Ndst, k with
  | ns :: Ns, nd :: Nd, j :: k' => (2 * Z.abs (signed nd j) <? Z.min ns nd) && resolved Ns Nd k'
  | _, _, _ => true
  end.
Fixpoint source_mode (Nsrc Ndst k : list Z) : list Z :=
  match Nsrc, Ndst, k with
  | ns :: Ns, nd :: Nd, j :: k' => signed nd j mod ns :: source_mode Ns Nd k'
  | _, _, _ => []
  end.
(** every axis of a rank's block lies within the stored array *)
Definition block_within {V} (cshape : list Z) (L : lfield V) : Prop :=
  Forall2 (fun c p => snd p <= 0 \/ (0 <= fst p /\ fst p + snd p <= c)) cshape (combine (lstart L) (lshape L)).

(** one table entry *)
Lemma reindex_axis ns cs nd cd : axis_ok ns cs nd cd ->
  exists t, reindex ns nd = Ret t /\ length t = Z.to_nat nd /\ 0 < cs /\ 0 < cd <= nd /\
    forall j, 0 <= j < cd ->
      let e := nth (Z.to_nat j) t 0 in
      (e = -1 \/ 0 <= e < cs) /\
      if 2 * Z.abs (signed nd j) <? Z.min ns nd
      then e = signed nd j mod ns /\ e <> -1 /\ j <> nd / 2 /\ j <> ns / 2
      else e = -1 \/ j = nd / 2 \/ j = ns / 2.
Proof.
  intros [[Hs Es] [Hd Ed] St Hw].
  apply Z.even_spec in Es, Ed. destruct Es as [a ->], Ed as [b ->].
  assert (Ea : 2 * a / 2 = a) by (rewrite Z.mul_comm; apply Z.div_mul; lia).
  assert (Eb : 2 * b / 2 = b) by (rewrite Z.mul_comm; apply Z.div_mul; lia).
  rewrite Ea, Eb in *.
  destruct (reindex_even (2 * a) b Hs ltac:(lia)) as (t & T & Lt & E). exists t. rewrite Ea in E.
  split; [exact T|]. split; [exact Lt|]. split; [lia|]. split; [lia|].
  intros j Hj. cbv zeta. rewrite E by lia. unfold signed.
  split.
  - destruct (Z.leb_spec (a + 1) j), (Z.leb_spec j (2 * b - a)), (Z.leb_spec j b); cbn [andb]; lia.
  - destruct (Z.ltb_spec (2 * j) (2 * b)).
    + destruct (Z.ltb_spec (2 * Z.abs j) (Z.min (2 * a) (2 * b))).
      * rewrite Z.mod_small by lia.
        destruct (Z.leb_spec (a + 1) j), (Z.leb_spec j (2 * b - a)), (Z.leb_spec j b); cbn [andb]; lia.
      * destruct (Z.leb_spec (a + 1) j), (Z.leb_spec j (2 * b - a)), (Z.leb_spec j b); cbn [andb]; lia.
    + destruct (Z.ltb_spec (2 * Z.abs (j - 2 * b)) (Z.min (2 * a) (2 * b))).
      * replace ((j - 2 * b) mod (2 * a)) with (j - 2 * b + 2 * a)
          by (rewrite <- (Z.mod_small (j - 2 * b + 2 * a) (2 * a)) by lia; rewrite <- (Z.mod_add (j - 2 * b) 1 (2 * a)) by lia; f_equal; lia).
        destruct (Z.leb_spec (a + 1) j), (Z.leb_spec j (2 * b - a)), (Z.leb_spec j b); cbn [andb]; lia.
      * destruct (Z.leb_spec (a + 1) j), (Z.leb_spec j (2 * b - a)), (Z.leb_spec j b); cbn [andb]; lia.
Qed.

(** ** the local index array *)
Lemma cart_map (gs : list (Z -> Z)) ls : length gs = length ls ->
  cart (map2 (fun g l => map g l) gs ls) = map (map2 (fun g x => g x) gs) (cart ls).
Proof.
  revert ls. induction gs as [|g gs IH]; intros [|l ls] E; try discriminate E; [reflexivity|].
  rewrite map2_cons. cbn [cart]. rewrite flat_map_map, map_flat_map. apply flat_map_ext_in. intros x _.
  rewrite IH by (simpl in E; lia). rewrite !map_map. apply map_ext. intros k. reflexivity.
Qed.
Lemma zrange_shift a s n : map (Z.add a) (zrange s n) = zrange (a + s) n.
Proof. revert s. induction n as [|n IH]; intros s; [reflexivity|]. cbn. f_equal. rewrite IH. f_equal. lia. Qed.
Lemma lcells_cart {V} (L : lfield V) : length (lstart L) = length (lshape L) ->
  lcells L = cart (map2 (fun s n => zrange s (Z.to_nat n)) (lstart L) (lshape L)).
Proof.
  unfold lcells, cells_of. generalize (lstart L) (lshape L). intros s. clear L.
  induction s as [|a s IH]; intros [|n l] E; try discriminate E; [reflexivity|].
  rewrite map2_cons. cbn [map box cart]. rewrite Z.sub_0_r, map_flat_map.
  replace (zrange a (Z.to_nat n)) with (map (Z.add a) (zrange 0 (Z.to_nat n))) by (rewrite zrange_shift; f_equal; lia).
  rewrite flat_map_map. apply flat_map_ext_in. intros x _.
  rewrite <- IH by (simpl in E; lia). rewrite !map_map. apply map_ext. intros k. now rewrite zadd_cons.
Qed.
Lemma fold_ravel dims idx acc : length idx = length dims ->
  fold_left (fun ind p => ind * fst p + snd p) (combine dims idx) acc = acc * prodz dims + ravel dims idx.
Proof.
  revert idx acc. induction dims as [|d ds IH]; intros [|i idx] acc E; try discriminate E; cbn; [lia|].
  rewrite IH by (simpl in E; lia). unfold prodz. ring.
Qed.
Lemma fill_mask_map {A V} (F : A -> Z) (G : A -> V) d l :
  fill_mask (map F l) (map G (filter (fun k => 0 <=? F k) l)) (map (fun _ => d) l) =
  map (fun k => if 0 <=? F k then G k else d) l.
Proof.
  induction l as [|x l IH]; [reflexivity|]. cbn. destruct (0 <=? F x) eqn:E; cbn; now rewrite IH.
Qed.
Lemma filter_map_comm {A B} (p : B -> bool) (g : A -> B) l : filter p (map g l) = map g (filter (fun x => p (g x)) l).
Proof. induction l as [|x l IH]; [reflexivity|]. cbn. destruct (p (g x)); cbn; now rewrite IH. Qed.

(** a table applied to a range *)
Lemma table_column t s n : n <= 0 \/ (0 <= s /\ s + n <= Z.of_nat (length t)) ->
  sequence (map (nth_error t) (seq (Z.to_nat s) (Z.to_nat n))) =
  Some (map (fun j => nth (Z.to_nat j) t 0) (zrange s (Z.to_nat n))).
Proof.
  intros H. assert (G : forall m s, 0 <= s -> s + Z.of_nat m <= Z.of_nat (length t) ->
    sequence (map (nth_error t) (seq (Z.to_nat s) m)) = Some (map (fun j => nth (Z.to_nat j) t 0) (zrange s m))).
  { clear. induction m as [|m IH]; intros s H1 H2; [reflexivity|]. cbn [seq map zrange sequence].
    rewrite (nth_error_nth' t 0) by lia. cbn. 
    replace (S (Z.to_nat s)) with (Z.to_nat (s + 1)) by lia. rewrite IH by lia. reflexivity. }
  destruct H as [H|[H1 H2]].
  - replace (Z.to_nat n) with 0%nat by lia. reflexivity.
  - destruct (Z.le_gt_cases n 0). { replace (Z.to_nat n) with 0%nat by lia. reflexivity. }
    apply G; lia.
Qed.

Section Resample.
Variable K : cring.
Add Ring Kr : (rth K).
Local Notation C := (cpx K).

(** table entries for a mode *)
Definition entries (tables : list (list Z)) (k : list Z) : list Z :=
  map2 (fun t j => nth (Z.to_nat j) t 0) tables k.

(** everything about one mode of the destination *)
Lemma mode_tables Ns Cs Nd Cd : axes_ok Ns Cs Nd Cd ->
  exists tables, all_ret (map (fun p => reindex (fst p) (snd p)) (combine Ns Nd)) = Some tables /\
    length tables = length Cd /\
    map (fun t => Z.of_nat (length t)) tables = Nd /\
    Forall2 (fun c n => 0 < c <= n) Cd Nd /\
    Forall (fun c => 0 < c) Cs /\
    forall k, In k (cells_of Cd) ->
      (existsb (fun i => i =? -1) (entries tables k) = false -> valid_index Cs (entries tables k)) /\
      if resolved Ns Nd k
      then existsb (fun i => i =? -1) (entries tables k) = false /\ entries tables k = source_mode Ns Nd k /\
           existsb (fun p => snd p =? fst p / 2) (combine Nd k) = false /\
           existsb (fun p => snd p =? fst p / 2) (combine Ns k) = false
      else existsb (fun i => i =? -1) (entries tables k) = true \/
           existsb (fun p => snd p =? fst p / 2) (combine Nd k) = true \/
           existsb (fun p => snd p =? fst p / 2) (combine Ns k) = true.
Proof.
  induction 1 as [|ns cs nd cd Ns Cs Nd Cd A As IH].
  - exists []. do 3 (split; [reflexivity|]). do 2 (split; [constructor|]).
    intros k Hk. destruct Hk as [<-|[]]. split; [intros _; constructor|]. now repeat split.
  - destruct IH as (ts & T & Lt & Nt & F & Fs & E). destruct (reindex_axis _ _ _ _ A) as (t & T1 & L1 & P1 & P2 & E1).
    exists (t :: ts). split.
    + cbn [combine map fst snd]. rewrite T1. cbn [all_ret sequence map]. unfold all_ret in *. cbn. now rewrite T.
    + split; [simpl; lia|]. split; [cbn [map]; rewrite Nt; f_equal; lia|].
      split; [constructor; [lia|exact F]|]. split; [constructor; [lia|exact Fs]|].
      intros k Hk. apply in_cells_of in Hk. destruct Hk as [Lk Hk]. destruct k as [|j k]; [discriminate Lk|].
      assert (Hj : 0 <= j < cd) by (apply (Hk 0%nat); simpl; lia).
      assert (Hk' : In k (cells_of Cd)).
      { apply in_cells_of. split; [simpl in Lk; lia|]. intros i Hi. apply (Hk (S i)). simpl. lia. }
      specialize (E1 j Hj). specialize (E k Hk'). cbv zeta in E1. destruct E1 as [R1 E1], E as [R E].
      unfold entries in *. rewrite map2_cons. cbn [existsb combine fst snd resolved source_mode].
      split.
      { intros H. apply orb_false_iff in H. destruct H as [H1 H2]. apply Z.eqb_neq in H1.
        constructor; [lia|]. apply R, H2. }
      destruct (2 * Z.abs (signed nd j) <? Z.min ns nd); cbn [andb].
      * destruct E1 as (-> & H1 & H2 & H3). destruct (resolved Ns Nd k).
        -- destruct E as (H4 & H7 & H5 & H6). rewrite H4, H5, H6, H7. repeat split.
           ++ apply orb_false_iff. split; [now apply Z.eqb_neq|reflexivity].
           ++ apply orb_false_iff. split; [now apply Z.eqb_neq|reflexivity].
           ++ apply orb_false_iff. split; [now apply Z.eqb_neq|reflexivity].
        -- destruct E as [-> |[-> | ->]]; rewrite !orb_true_r; auto.
      * destruct E1 as [-> |[-> | ->]]; rewrite !Z.eqb_refl; cbn [orb]; auto.
Qed.

(** self-conjugate and away from the Nyquist indices: the zero mode *)
Lemma selfdual_zero Ns Cs Nd Cd k : axes_ok Ns Cs Nd Cd -> In k (cells_of Cd) ->
  existsb (fun p => snd p =? fst p / 2) (combine Nd k) = false ->
  forallb (fun p => (fst p - snd p) mod fst p =? snd p) (combine Nd k) = forallb (fun j => j =? 0) k.
Proof.
  intros A. revert k. induction A as [|ns cs nd cd Ns Cs Nd Cd A As IH]; intros k Hk H.
  - destruct Hk as [<-|[]]. reflexivity.
  - apply in_cells_of in Hk. destruct Hk as [Lk Hk]. destruct k as [|j k]; [discriminate Lk|].
    assert (Hj : 0 <= j < cd) by (apply (Hk 0%nat); simpl; lia).
    assert (Hk' : In k (cells_of Cd)).
    { apply in_cells_of. split; [simpl in Lk; lia|]. intros i Hi. apply (Hk (S i)). simpl. lia. }
    cbn [combine existsb forallb fst snd] in *. apply orb_false_iff in H. destruct H as [H1 H2].
    rewrite (IH k Hk' H2). f_equal. apply Z.eqb_neq in H1.
    destruct (reindex_axis _ _ _ _ A) as (t & _ & _ & _ & P2 & _).
    destruct A as [_ [Hd Ed] St _]. apply Z.even_spec in Ed. destruct Ed as [b ->].
    rewrite (Z.mul_comm 2 b), Z.div_mul in * by lia.
    destruct (Z.eqb_spec j 0) as [->|Hz].
    + rewrite Z.sub_0_r, Z.mod_same by lia. reflexivity.
    + apply Z.eqb_neq. rewrite Z.mod_small by lia. lia.
Qed.

Definition resampled (Nsrc Ndst : list Z) (f : list Z -> C) (k : list Z) : C :=
  if resolved Nsrc Ndst k
  then if forallb (fun j => j =? 0) k then creal (f (source_mode Nsrc Ndst k)) else f (source_mode Nsrc Ndst k)
  else c0.

(** For every pair of partitions: each mode below the Nyquist frequency of both
    meshes gets the value the source has at the same frequency (the zero mode
    without its imaginary part), all other modes are zero. *)
Theorem C39_resample : forall Nsrc csrc Ndst cdst (Src Dst : list (lfield C)) f,
  axes_ok Nsrc csrc Ndst cdst ->
  tiles csrc Src -> holds Src f -> tiles cdst Dst -> Forall (block_within cdst) Dst ->
  exists Out, resample K Nsrc csrc Src Ndst Dst = map Ret Out /\
    map lstart Out = map lstart Dst /\ map lshape Out = map lshape Dst /\
    holds Out (resampled Nsrc Ndst f).
Proof.
  intros Ns Cs Nd Cd Src Dst f A TS HS TD BD. unfold resample.
  destruct (mode_tables _ _ _ _ A) as (ts & T & Lt & Nt & Fd & Fs & E).
  destruct (C38_ravel Cs Src f (map (fun L => length (lvals L)) Src) Fs TS HS eq_refl) as (flat & R & _ & Cc).
  rewrite R, all_ret_map, T.
  set (g := resampled Ns Nd f).
  exists (map (fun L => mkL (lstart L) (lshape L) (map g (lcells L))) Dst).
  split.
  - rewrite map_map. apply map_ext_in. intros L HL. unfold resample_local.
    pose proof (tl_dim _ _ TD) as D. rewrite Forall_forall in D. destruct (D L HL) as [D1 D2].
    rewrite Forall_forall in BD. specialize (BD L HL).
    assert (Col : sequence (map (fun p => sequence (map (nth_error (fst p)) (seq (Z.to_nat (fst (snd p))) (Z.to_nat (snd (snd p))))))
                    (combine ts (combine (lstart L) (lshape L)))) =
                  Some (map2 (fun g l => map g l) (map (fun t j => nth (Z.to_nat j) t 0) ts)
                         (map2 (fun s n => zrange s (Z.to_nat n)) (lstart L) (lshape L)))).
    { clear - BD Nt D1 D2 Lt Fd. unfold block_within in BD. revert D1 D2 BD. generalize (lstart L) (lshape L). clear L.
      revert ts Nd Nt Lt Fd. induction Cd as [|c Cd IH]; intros [|t ts] Nd Nt Lt Fd [|s S] [|n N] D1 D2 B;
        try discriminate; [reflexivity|].
      cbn [combine] in B. inversion B as [|? ? ? ? B1 B2]; subst. inversion Fd as [|? nd ? ND F1 F2]; subst.
      cbn [length] in *. cbn [fst snd combine map sequence] in *.
      rewrite table_column by lia. rewrite (IH ts (map (fun t => Z.of_nat (length t)) ts)) by (auto; lia). reflexivity. }
    rewrite Col. clear Col. unfold build_index. rewrite cart_map.
    2:{ rewrite map_length, map2_length by congruence. congruence. }
    rewrite <- lcells_cart by congruence. rewrite map_map.
    set (F := fun k => if existsb (fun i => i =? -1) (entries ts k) then -1 else ravel Cs (entries ts k)).
    assert (EF : map (fun x => if existsb (fun i => i =? -1) (map2 (fun g x0 => g x0) (map (fun t j => nth (Z.to_nat j) t 0) ts) x) then -1
                   else fold_left (fun ind p => ind * fst p + snd p)
                     (combine Cs (map2 (fun g x0 => g x0) (map (fun t j => nth (Z.to_nat j) t 0) ts) x)) 0) (lcells L)
                 = map F (lcells L)).
    { apply map_ext_in. intros k Hk. apply (tiles_cell _ _ _ _ TD HL) in Hk.
      assert (Ee : map2 (fun g x0 => g x0) (map (fun t j => nth (Z.to_nat j) t 0) ts) k = entries ts k).
      { unfold entries, map2. clear. revert k. induction ts as [|t ts IH]; intros [|j k]; try reflexivity.
        cbn. f_equal. apply IH. }
      rewrite Ee. unfold F. destruct (E k Hk) as [V _]. destruct (existsb _ (entries ts k)); [reflexivity|].
      rewrite fold_ravel by (apply cells_dim, cells_valid, (V eq_refl)). lia. }
    rewrite EF. clear EF.
    assert (Fpos : forall k, In k (lcells L) -> 0 <= F k -> existsb (fun i => i =? -1) (entries ts k) = false).
    { intros k _ H. unfold F in H. destruct (existsb _ (entries ts k)); [lia|reflexivity]. }
    assert (Tk : mpsort_take flat (filter (fun i => 0 <=? i) (map F (lcells L))) =
                 Some (map (fun k => f (entries ts k)) (filter (fun k => 0 <=? F k) (lcells L)))).
    { rewrite filter_map_comm. unfold mpsort_take. rewrite map_map. rewrite <- sequence_map_Some.
      f_equal. rewrite map_map. apply map_ext_in. intros k Hk. apply filter_In in Hk. destruct Hk as [Hk H]. apply Z.leb_le in H.
      destruct (Z.ltb_spec (F k) 0); [lia|]. pose proof (Fpos k Hk H) as N. unfold F. rewrite N, Cc.
      rewrite nth_error_map. destruct (E k (tiles_cell _ _ _ _ TD HL Hk)) as [V _].
      rewrite cells_nth by (apply cells_valid, V, N). reflexivity. }
    rewrite Tk. rewrite fill_mask_map. f_equal. f_equal.
    assert (Cm : forall (H : list Z -> C) l, combine l (map H l) = map (fun k => (k, H k)) l).
    { clear. intros H l. induction l; cbn; congruence. }
    rewrite Cm, map_map. apply map_ext_in. intros k Hk.
    cbn [fst snd]. pose proof (tiles_cell _ _ _ _ TD HL Hk) as Hc. destruct (E k Hc) as [V Ek].
    unfold clean_mode, g, resampled. destruct (resolved Ns Nd k).
    + destruct Ek as (N1 & N2 & N3 & N4). rewrite N3, N4, (selfdual_zero _ _ _ _ k A Hc N3).
      assert (HF : 0 <=? F k = true).
      { apply Z.leb_le. unfold F. rewrite N1. apply (ravel_bound _ _ (V N1)). }
      rewrite HF, N2. reflexivity.
    + destruct (existsb _ (combine Ns k)); [reflexivity|]. destruct (existsb _ (combine Nd k)); [reflexivity|].
      destruct Ek as [N1|[N1|N1]]; [|discriminate N1|discriminate N1].
      assert (HF : 0 <=? F k = false).
      { apply Z.leb_gt. unfold F. rewrite N1. lia. }
      rewrite HF. destruct (forallb _ _); [|reflexivity]. reflexivity.
  - rewrite !map_map. split; [reflexivity|]. split; [reflexivity|].
    apply Forall_forall. intros L' HL'. apply in_map_iff in HL'. destruct HL' as (L & <- & HL). reflexivity.
Qed.

Lemma resolved_opposite Ns Cs Nd Cd k : axes_ok Ns Cs Nd Cd -> In k (cells_of Cd) -> In (opposite Nd k) (cells_of Cd) ->
  resolved Ns Nd (opposite Nd k) = resolved Ns Nd k /\
  forallb (fun j => j =? 0) (opposite Nd k) = forallb (fun j => j =? 0) k /\
  (resolved Ns Nd k = true -> source_mode Ns Nd (opposite Nd k) = opposite Ns (source_mode Ns Nd k)).
Proof.
  intros A. revert k. induction A as [|ns cs nd cd Ns Cs Nd Cd A As IH]; intros k Hk Ho.
  - destruct Hk as [<-|[]]. now repeat split.
  - apply in_cells_of in Hk. destruct Hk as [Lk Hk]. destruct k as [|j k]; [discriminate Lk|].
    unfold opposite in *. rewrite map2_cons in *. apply in_cells_of in Ho. destruct Ho as [Lo Ho].
    assert (Hj : 0 <= j < cd) by (apply (Hk 0%nat); simpl; lia).
    assert (Hk' : In k (cells_of Cd)).
    { apply in_cells_of. split; [simpl in Lk; lia|]. intros i Hi. apply (Hk (S i)). simpl. lia. }
    assert (Ho' : In (map2 (fun n i => (- i) mod n) Nd k) (cells_of Cd)).
    { apply in_cells_of. split; [simpl in Lo; lia|]. intros i Hi. apply (Ho (S i)). simpl. lia. }
    destruct (IH k Hk' Ho') as (E1 & E2 & E3). cbn [resolved forallb source_mode]. rewrite E1, E2.
    destruct (reindex_axis _ _ _ _ A) as (t & _ & _ & _ & P2 & _).
    destruct A as [[Hs _] [Hd Ed] _ _].
    assert (Sg : (2 * j = nd /\ (- j) mod nd = j) \/
                 (2 * j <> nd /\ signed nd ((- j) mod nd) = - signed nd j /\ ((- j) mod nd =? 0) = (j =? 0))).
    { destruct (Z.eq_dec j 0) as [->|Hz].
      - right. rewrite Z.mod_0_l by lia. repeat split; [lia|]. unfold signed. destruct (Z.ltb_spec (2 * 0) nd); lia.
      - assert (Em : (- j) mod nd = nd - j).
        { rewrite <- (Z.mod_small (nd - j) nd) by lia. rewrite <- (Z.mod_add (- j) 1 nd) by lia. f_equal. lia. }
        rewrite Em. destruct (Z.eq_dec (2 * j) nd); [left; lia|right]. split; [assumption|]. split.
        + unfold signed. destruct (Z.ltb_spec (2 * (nd - j)) nd), (Z.ltb_spec (2 * j) nd); lia.
        + destruct (Z.eqb_spec (nd - j) 0), (Z.eqb_spec j 0); lia || reflexivity. }
    destruct Sg as [[S1 S2]|[S1 [S2 S3]]].
    + rewrite S2. repeat split. intros H. apply andb_true_iff in H. destruct H as [H _]. apply Z.ltb_lt in H.
      unfold signed in H. destruct (Z.ltb_spec (2 * j) nd) in H; lia.
    + rewrite S2, S3, Z.abs_opp. repeat split. intros H. apply andb_true_iff in H. destruct H as [_ H].
      rewrite (E3 H), map2_cons. f_equal.
      rewrite <- (Z.sub_0_l (signed nd j)), <- (Z.sub_0_l (signed nd j mod ns)). now rewrite Zminus_mod_idemp_r.
Qed.

(** Fields of real numbers stay so: the result obeys the reality condition. *)
Theorem C39_hermitian : forall Nsrc csrc Ndst cdst f, axes_ok Nsrc csrc Ndst cdst ->
  hermitian K Nsrc csrc f -> hermitian K Ndst cdst (resampled Nsrc Ndst f).
Proof.
  intros Ns Cs Nd Cd f A H k Hk Ho. destruct (resolved_opposite _ _ _ _ k A Hk Ho) as (E1 & E2 & E3).
  unfold resampled. rewrite E1, E2. destruct (resolved Ns Nd k) eqn:R; [|now rewrite cconj_0].
  rewrite (E3 eq_refl). destruct (mode_tables _ _ _ _ A) as (ts & _ & _ & _ & _ & _ & E).
  assert (In1 : forall k, In k (cells_of Cd) -> resolved Ns Nd k = true -> In (source_mode Ns Nd k) (cells_of Cs)).
  { intros q Hq Rq. destruct (E q Hq) as [V Eq]. rewrite Rq in Eq. destruct Eq as (N1 & <- & _).
    apply cells_valid, V, N1. }
  pose proof (In1 k Hk R) as I1. pose proof (In1 _ Ho (eq_trans E1 eq_refl)) as I2. rewrite (E3 eq_refl) in I2.
  destruct (forallb (fun j => j =? 0) k) eqn:Z0; rewrite (H _ I1 I2); [|reflexivity].
  unfold creal, cconj. cbn. f_equal. ring.
Qed.
End Resample.
Print Assumptions C39_resample.
Print Assumptions C39_hermitian.

(** the field of C36's example made larger in one direction and smaller in the
    other: 4 x 4 to 8 x 2, on two ranks that split the first axis *)
Definition ex_dst : list (lfield (cpx Zring)) := [fill_block (fun _ => (9, 9)) [0; 0] [5; 2]; fill_block (fun _ => (9, 9)) [5; 0] [3; 2]].
Lemma ex_axes : axes_ok ex_Nmesh ex_cshape [8; 2] [8; 2].
Proof.
  constructor; [|constructor; [|constructor]]; constructor; cbn; try (split; [lia|reflexivity]); lia.
Qed.
Example C39_case : tiles [8; 2] ex_dst /\ Forall (block_within [8; 2]) ex_dst /\
  resample Zring ex_Nmesh ex_cshape ex_world [8; 2] ex_dst =
  [Ret (mkL [0; 0] [5; 2] [(7, 0); (0, 0); (2, 3); (0, 0); (0, 0); (0, 0); (0, 0); (0, 0); (0, 0); (0, 0)]);
   Ret (mkL [5; 0] [3; 2] [(0, 0); (0, 0); (0, 0); (0, 0); (2, -3); (0, 0)])].
Proof.
  split; [|split; [|reflexivity]].
  - constructor; [repeat constructor|]. apply perm_check; [apply nodupb_ok|apply nodupb_ok| |]; reflexivity.
  - repeat (apply Forall_cons || apply Forall2_cons || apply Forall_nil || apply Forall2_nil || (cbn; lia)).
Qed.

(** The last clause of [axis_ok] is needed: from 12 to 8 cells index 6 = 12/2 of
    the destination is frequency -2, which both meshes have.  It is set to zero
    while frequency 2 is kept: a real field becomes complex. *)
Theorem C39_halfway_refuted : exists (f : list Z -> cpx Zring) Src Dst Out,
  tiles [12; 3] Src /\ holds Src f /\ hermitian Zring [12; 4] [12; 3] f /\ tiles [8; 3] Dst /\ Forall (block_within [8; 3]) Dst /\
  resample Zring [12; 4] [12; 3] Src [8; 4] Dst = map Ret Out /\
  cgetitem Zring true [8; 4] Out [2; 0] = [Ret (1, 0)] /\ f [2; 0] = (1, 0) /\
  cgetitem Zring true [8; 4] Out [-2; 0] = [Ret (0, 0)] /\ f [10; 0] = (1, 0) /\
  forall g, holds Out g -> ~ hermitian Zring [8; 4] [8; 3] g.
Proof.
  exists (fun _ => (1, 0)), [fill_block (fun _ => (1, 0)) [0; 0] [12; 3]], [fill_block (fun _ => (0, 0)) [0; 0] [8; 3]].
  exists [mkL [0; 0] [8; 3] (flat_map (fun b : Z => [(b, 0); (b, 0); (0, 0)]) [1; 1; 1; 1; 0; 1; 0; 1])]. split.
  { constructor; [repeat constructor|]. apply perm_check; [apply nodupb_ok|apply nodupb_ok| |]; reflexivity. }
  split. { repeat constructor. }
  split. { intros k _ _. reflexivity. }
  split. { constructor; [repeat constructor|]. apply perm_check; [apply nodupb_ok|apply nodupb_ok| |]; reflexivity. }
  split. { repeat (apply Forall_cons || apply Forall2_cons || apply Forall_nil || apply Forall2_nil || (cbn; lia)). }
  split. { reflexivity. }
  do 4 (split; [reflexivity|]).
  intros g Hg Hh. inversion Hg as [|? ? E _]; subst. cbn in E. injection E. intros.
  specialize (Hh [2; 0]). cbn in Hh.
  assert (X : g [6; 0] = cconj (g [2; 0])).
  { apply Hh. - change (In [2; 0] (cells_of [8; 3])). vm_compute. tauto. - change (In [6; 0] (cells_of [8; 3])). vm_compute. tauto. }
  assert (X6 : g [6; 0] = (0, 0)) by (symmetry; assumption).
  assert (X2 : g [2; 0] = (1, 0)) by (symmetry; assumption).
  rewrite X6, X2 in X. discriminate X.
Qed.
Print Assumptions C39_halfway_refuted.
