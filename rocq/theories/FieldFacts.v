(** Facts about distributed fields: blocks, tilings, reading and writing one cell. *)
From Coq Require Import List Arith ZArith QArith Lia Bool Permutation.
From Verif Require Import Base ListFacts LayoutModel WrapModel WrapProofs DomainModel DomainFill DomainGeom MeshModel MeshAssign
  MeshRoute MeshTile RingModel FieldModel.
Import ListNotations.
Local Close Scope Q_scope.
Local Open Scope Z_scope.

Lemma map2_length {A B C} (f : A -> B -> C) l m : length l = length m -> length (map2 f l m) = length l.
Proof. intros H. unfold map2. rewrite map_length, combine_length. lia. Qed.
Lemma map2_cons {A B C} (f : A -> B -> C) a l b m : map2 f (a :: l) (b :: m) = f a b :: map2 f l m.
Proof. reflexivity. Qed.
Lemma zadd_cons a l b m : zadd (a :: l) (b :: m) = (a + b) :: zadd l m.
Proof. reflexivity. Qed.

(** ** cells of a block *)
Lemma cells_valid shape idx : In idx (cells_of shape) <-> valid_index shape idx.
Proof.
  unfold cells_of, valid_index. rewrite in_box. split.
  - revert idx. induction shape as [|n s IH]; intros idx H; inversion H; subst; constructor; auto.
  - intros H. induction H; simpl; constructor; auto.
Qed.

Lemma cells_nth shape idx : In idx (cells_of shape) ->
  nth_error (cells_of shape) (Z.to_nat (ravel shape idx)) = Some idx.
Proof.
  intros H. apply cells_valid in H. pose proof (valid_pos _ _ H) as Hp. pose proof (ravel_bound _ _ H) as Hb.
  pose proof (ravel_box _ Hp) as E. fold (cells_of shape) in E.
  assert (L : length (cells_of shape) = Z.to_nat (prodz shape))
    by (rewrite <- (map_length (ravel shape)), E; apply zrange_length).
  destruct (nth_error (cells_of shape) (Z.to_nat (ravel shape idx))) as [j|] eqn:En.
  - f_equal. assert (Hj : In j (cells_of shape)) by (eapply nth_error_In; eauto). apply cells_valid in Hj.
    apply (ravel_inj shape); [assumption|assumption|].
    assert (X : nth_error (map (ravel shape) (cells_of shape)) (Z.to_nat (ravel shape idx)) = Some (ravel shape j))
      by (rewrite nth_error_map, En; reflexivity).
    rewrite E in X. apply nth_error_nth with (d := 0) in X. rewrite nth_zrange in X by lia. lia.
  - apply nth_error_None in En. lia.
Qed.

(** all blocks have one start and one size per axis of the global array, and
    together they hold every global cell exactly once *)
Record tiles {V} (cshape : list Z) (Ls : list (lfield V)) : Prop := {
  tl_dim : Forall (fun L => length (lstart L) = length cshape /\ length (lshape L) = length cshape) Ls;
  tl_perm : Permutation (flat_map lcells Ls) (cells_of cshape)
}.
(** the field stores the values of the global function [f] *)
Definition holds {V} (Ls : list (lfield V)) (f : list Z -> V) : Prop :=
  Forall (fun L => lvals L = map f (lcells L)) Ls.

Lemma holds_ext {V} (Ls : list (lfield V)) f g :
  (forall L k, In L Ls -> In k (lcells L) -> f k = g k) -> holds Ls f -> holds Ls g.
Proof.
  unfold holds. rewrite !Forall_forall. intros H F L HL. rewrite (F L HL). apply map_ext_in.
  intros k Hk. now apply (H L).
Qed.

Lemma zadd_inj s a b : length a = length s -> length b = length s -> zadd s a = zadd s b -> a = b.
Proof.
  revert a b. induction s as [|x s IH]; intros [|y a] [|z b] Ha Hb E; try discriminate; [reflexivity|].
  rewrite !zadd_cons in E. inversion E. f_equal; [lia|]. apply IH; simpl in *; try lia; assumption.
Qed.

Lemma cells_dim shape idx : In idx (cells_of shape) -> length idx = length shape.
Proof. intros H. apply in_cells_of in H. apply H. Qed.

Section Block.
Context {V : Type} (L : lfield V) (nd : nat).
Hypothesis (Ds : length (lstart L) = nd) (Dh : length (lshape L) = nd).

Lemma lcells_NoDup : NoDup (lcells L).
Proof.
  unfold lcells. apply NoDup_map_in; [|apply cells_of_NoDup].
  intros a b Ha Hb. apply zadd_inj; [rewrite (cells_dim _ _ Ha)|rewrite (cells_dim _ _ Hb)]; lia.
Qed.

Lemma in_lcells k : In k (lcells L) <->
  length k = nd /\ forall i, (i < nd)%nat -> nth i (lstart L) 0 <= nth i k 0 < nth i (lstart L) 0 + nth i (lshape L) 0.
Proof.
  unfold lcells. rewrite in_map_iff. split.
  - intros (idx & <- & H). apply in_cells_of in H. destruct H as [Hl H]. rewrite Dh in *.
    split; [rewrite zadd_length; lia|]. intros i Hi. rewrite zadd_nth by lia. specialize (H i Hi). lia.
  - intros [Hl H]. exists (map2 Z.sub k (lstart L)).
    assert (E : forall i, (i < nd)%nat -> nth i (map2 Z.sub k (lstart L)) 0 = nth i k 0 - nth i (lstart L) 0).
    { intros i Hi. unfold map2. rewrite (nth_map_in _ _ i 0 (0, 0)) by (rewrite combine_length; lia).
      rewrite combine_nth by lia. reflexivity. }
    split.
    + apply (nth_ext _ _ 0 0); [rewrite zadd_length; rewrite ?map2_length; lia|].
      intros i Hi. rewrite zadd_length in Hi by (rewrite map2_length; lia).
      rewrite zadd_nth by (rewrite map2_length; lia). rewrite E by lia. lia.
    + apply in_cells_of. rewrite map2_length, Dh by lia. split; [assumption|].
      intros i Hi. rewrite E by assumption. specialize (H i Hi). lia.
Qed.

Lemma lget_holds f d idx : lvals L = map f (lcells L) -> In idx (cells_of (lshape L)) ->
  lget d L idx = f (zadd (lstart L) idx).
Proof.
  intros H Hi. unfold lget. apply nth_error_nth. rewrite H. unfold lcells.
  rewrite map_map, nth_error_map, cells_nth by assumption. reflexivity.
Qed.

Lemma lput_holds f g idx : lvals L = map f (lcells L) -> In idx (cells_of (lshape L)) ->
  lvals (lput L idx g) =
  map (fun k => if idx_eqb k (zadd (lstart L) idx) then g (f k) else f k) (lcells L).
Proof.
  intros H Hi. unfold lput. cbn [lvals]. rewrite H. apply list_ext. intros j.
  rewrite nth_error_upd, !nth_error_map. unfold lcells. rewrite nth_error_map.
  destruct (Nat.eqb_spec (Z.to_nat (ravel (lshape L) idx)) j) as [<-|E].
  - rewrite cells_nth by assumption. cbn. unfold idx_eqb.
    destruct (list_eq_dec Z.eq_dec (zadd (lstart L) idx) (zadd (lstart L) idx)); [reflexivity|congruence].
  - destruct (nth_error (cells_of (lshape L)) j) as [c|] eqn:Ec; [|reflexivity]. cbn. unfold idx_eqb.
    destruct (list_eq_dec Z.eq_dec (zadd (lstart L) c) (zadd (lstart L) idx)) as [Eq|]; [|reflexivity].
    exfalso. apply E. assert (Hc : In c (cells_of (lshape L))) by (eapply nth_error_In; eauto).
    apply zadd_inj in Eq; [|rewrite (cells_dim _ _ Hc); lia|rewrite (cells_dim _ _ Hi); lia]. subst c.
    pose proof (cells_nth _ _ Hi) as E1. pose proof (cells_of_NoDup (lshape L)) as N.
    rewrite NoDup_nth_error in N. apply N; [|congruence]. apply nth_error_Some. congruence.
Qed.

(** pm.py:282: the test selects exactly the cells of the block *)
Lemma ctol_spec Nmesh i : length Nmesh = nd -> length i = nd ->
  let m := map2 from_end Nmesh i in
  (In m (lcells L) /\ exists l, ctol Nmesh L i = Some l /\ In l (cells_of (lshape L)) /\ zadd (lstart L) l = m) \/
  (~ In m (lcells L) /\ ctol Nmesh L i = None).
Proof.
  intros HN Hi m. assert (Lm : length m = nd) by (unfold m; rewrite map2_length; lia).
  unfold ctol. fold m.
  assert (E : forallb (fun p => snd p <=? fst p) (combine m (lstart L)) &&
              forallb (fun p => fst p <? snd p) (combine m (zadd (lstart L) (lshape L))) = true <-> In m (lcells L)).
  { rewrite in_lcells, andb_true_iff, !forallb_forall. split.
    - intros [A B]. split; [assumption|]. intros j Hj.
      specialize (A (nth j m 0, nth j (lstart L) 0)). specialize (B (nth j m 0, nth j (zadd (lstart L) (lshape L)) 0)).
      cbn [fst snd] in A, B. rewrite zadd_nth in B by lia.
      assert (A' := A ltac:(rewrite <- combine_nth by lia; apply nth_In; rewrite combine_length; lia)).
      assert (B' := B ltac:(rewrite <- zadd_nth, <- combine_nth by (rewrite ?zadd_length; lia); apply nth_In;
                            rewrite combine_length, zadd_length; lia)).
      apply Z.leb_le in A'. apply Z.ltb_lt in B'. lia.
    - intros [_ H]. split.
      + intros p Hp. apply (In_nth _ _ (0, 0)) in Hp. destruct Hp as (j & Hj & <-). rewrite combine_length in Hj.
        rewrite combine_nth by lia. cbn [fst snd]. apply Z.leb_le. apply H. lia.
      + intros p Hp. apply (In_nth _ _ (0, 0)) in Hp. destruct Hp as (j & Hj & <-).
        rewrite combine_length, zadd_length in Hj by lia.
        rewrite combine_nth by (rewrite zadd_length; lia). cbn [fst snd]. rewrite zadd_nth by lia. apply Z.ltb_lt.
        specialize (H j ltac:(lia)). lia. }
  destruct (_ && _) eqn:Eb.
  - left. assert (Hin : In m (lcells L)) by (apply E; reflexivity). split; [assumption|].
    exists (map2 Z.sub m (lstart L)). split; [reflexivity|].
    pose proof Hin as Hin2. unfold lcells in Hin2. apply in_map_iff in Hin2. destruct Hin2 as (l & El & Hl).
    assert (Es : map2 Z.sub m (lstart L) = l).
    { rewrite <- El. pose proof (cells_dim _ _ Hl) as D. clear -D Ds Dh.
      assert (length l = length (lstart L)) as H by lia. clear D Ds Dh. revert H. generalize (lstart L) as s.
      induction l as [|x l IH]; intros [|y s] H; try discriminate; [reflexivity|].
      rewrite zadd_cons, map2_cons. f_equal; [lia|]. apply IH. simpl in H. lia. }
    rewrite Es. split; assumption.
  - right. split; [|reflexivity]. intros H. apply E in H. congruence.
Qed.
End Block.

(** ** one owner *)
Section Owner.
Variable K : cring.
Add Ring Kr : (rth K).
Local Open Scope rg_scope.

Definition memb (k : list Z) (l : list (list Z)) : bool := if in_dec (list_eq_dec Z.eq_dec) k l then true else false.
Lemma memb_true k l : memb k l = true <-> In k l.
Proof. unfold memb. destruct (in_dec _ k l); split; auto; discriminate. Qed.

Lemma rsum_member (w : K) k l : NoDup l -> rsum (fun j => if idx_eqb j k then w else 0) l = if memb k l then w else 0.
Proof.
  intros N. destruct (memb k l) eqn:E.
  - apply memb_true in E. rewrite (rsum_single K (list_eq_dec Z.eq_dec) _ l k N E).
    + unfold idx_eqb. destruct (list_eq_dec Z.eq_dec k k); [reflexivity|congruence].
    + intros b Hb Hn. unfold idx_eqb. destruct (list_eq_dec Z.eq_dec b k); [contradiction|reflexivity].
  - apply rsum_zero. intros a Ha. unfold idx_eqb. destruct (list_eq_dec Z.eq_dec a k) as [->|]; [|reflexivity].
    apply memb_true in Ha. congruence.
Qed.

Lemma tiles_NoDup {V} cshape (Ls : list (lfield V)) : tiles cshape Ls -> Forall (fun L => NoDup (lcells L)) Ls.
Proof.
  intros [D _]. eapply Forall_impl; [|exact D]. intros L [H1 H2]. exact (lcells_NoDup L _ H1 H2).
Qed.

Lemma tiles_sum {V} cshape (Ls : list (lfield V)) (f : list Z -> K) : tiles cshape Ls ->
  rsum (fun L => rsum f (lcells L)) Ls = rsum f (cells_of cshape).
Proof. intros [_ P]. rewrite <- rsum_flat_map. apply rsum_perm, P. Qed.

(** a contribution by the owner alone *)
Lemma tiles_owner {V} cshape (Ls : list (lfield V)) k (w : K) : tiles cshape Ls ->
  rsum (fun L => if memb k (lcells L) then w else 0) Ls = if memb k (cells_of cshape) then w else 0.
Proof.
  intros T. rewrite <- (rsum_member w k (cells_of cshape)) by apply cells_of_NoDup.
  rewrite <- (tiles_sum _ _ _ T). apply rsum_ext_in. intros L HL. symmetry. apply rsum_member.
  pose proof (tiles_NoDup _ _ T) as N. rewrite Forall_forall in N. now apply N.
Qed.
End Owner.

Lemma tiles_cell {V} cshape (Ls : list (lfield V)) L k : tiles cshape Ls -> In L Ls -> In k (lcells L) -> In k (cells_of cshape).
Proof. intros [_ P] HL Hk. eapply Permutation_in; [exact P|]. apply in_flat_map. eauto. Qed.
Lemma tiles_rank {V} cshape (Ls : list (lfield V)) k : tiles cshape Ls -> In k (cells_of cshape) -> exists L, In L Ls /\ In k (lcells L).
Proof. intros [_ P] Hk. apply (Permutation_in _ (Permutation_sym P)) in Hk. apply in_flat_map in Hk. exact Hk. Qed.

(** the tiling depends only on starts and shapes *)
Lemma tiles_same {V W} cshape (Ls : list (lfield V)) (Ms : list (lfield W)) :
  map lstart Ls = map lstart Ms -> map lshape Ls = map lshape Ms -> tiles cshape Ls -> tiles cshape Ms.
Proof.
  intros H1 H2 [D P]. split.
  - clear P. revert Ms H1 H2. induction Ls as [|L Ls IH]; intros [|M Ms] H1 H2; try discriminate; constructor.
    + inversion H1; inversion H2. inversion D; subst. congruence.
    + inversion H1; inversion H2. inversion D; subst. apply IH; assumption.
  - replace (flat_map lcells Ms) with (flat_map lcells Ls); [assumption|]. clear D P.
    revert Ms H1 H2. induction Ls as [|L Ls IH]; intros [|M Ms] H1 H2; try discriminate; [reflexivity|].
    inversion H1; inversion H2. cbn [flat_map]. rewrite (IH Ms) by assumption. f_equal.
    unfold lcells. congruence.
Qed.
