(** What painting adds to a cell and what readout reads from it: a product of one
    weight per axis. *)
From Coq Require Import List Arith ZArith QArith Qabs Qround Lia Lqa Bool Permutation Setoid Morphisms.
From Verif Require Import Base ListFacts WrapModel WrapProofs DomainModel DomainFill QSum WindowModel WindowStencil.
Import ListNotations.
Local Open Scope Q_scope.

(** an element of the array *)
Definition cell (axes : list axis) (m : memory) (idx : list Z) : Q := m (offset axes idx).
Definition valid_cell (axes : list axis) (idx : list Z) : Prop :=
  Forall2 (fun a i => 0 <= i < ax_size a)%Z axes idx.
(** no two elements of the array share memory *)
Definition strides_ok (axes : list axis) : Prop :=
  forall i j, valid_cell axes i -> valid_cell axes j -> offset axes i = offset axes j -> i = j.
Definition cells (axes : list axis) : list (list Z) := box (map (fun a => (0, ax_size a)%Z) axes).

(** total weight of an index in a list of points *)
Definition wsum (l : list (Z * Q)) (i : Z) : Q := qsum (fun jw => if (fst jw =? i)%Z then snd jw else 0) l.
Fixpoint spread (pts : list (list (Z * Q))) (idx : list Z) : Q :=
  match pts, idx with
  | l :: pts', i :: idx' => wsum l i * spread pts' idx'
  | _, _ => 1
  end.

Lemma in_cells axes idx : In idx (cells axes) <-> valid_cell axes idx.
Proof.
  unfold cells, valid_cell. rewrite in_box. revert idx. induction axes as [|a axes IH]; intros idx; cbn [map].
  - split; intros H; inversion H; constructor.
  - split; intros H; inversion H; subst; constructor; try (apply IH; assumption); cbn in *; lia.
Qed.
Lemma cells_NoDup axes : NoDup (cells axes).
Proof. apply box_NoDup. Qed.

Lemma inside_valid axes idx : length idx = length axes -> (inside_canvas axes idx = true <-> valid_cell axes idx).
Proof.
  revert idx. induction axes as [|a axes IH]; intros idx H; destruct idx as [|i idx]; try discriminate.
  - split; [constructor|reflexivity].
  - injection H as H. cbn [inside_canvas].
    destruct (Z.gtb_spec 0 i) as [H1|H1]; cbn [orb].
    + split; [discriminate|]. intros C. inversion C; subst. lia.
    + destruct (Z.leb_spec (ax_size a) i) as [H2|H2].
      * split; [discriminate|]. intros C. inversion C; subst. lia.
      * rewrite (IH idx H). split; intros C; [constructor; [lia|exact C]|inversion C; subst; assumption].
Qed.

Lemma cart_length pts iq : In iq (cart pts) -> length (fst iq) = length pts.
Proof.
  revert iq. induction pts as [|l pts IH]; intros iq H.
  - destruct H as [<-|[]]. reflexivity.
  - cbn [cart] in H. apply in_flat_map in H. destruct H as (jw & _ & H).
    apply in_map_iff in H. destruct H as (r & <- & Hr). cbn [fst length]. rewrite (IH r Hr). reflexivity.
Qed.

Definition zl_eqb (a b : list Z) : bool := if list_eq_dec Z.eq_dec a b then true else false.
Lemma zl_eqb_spec a b : reflect (a = b) (zl_eqb a b).
Proof. unfold zl_eqb. destruct (list_eq_dec Z.eq_dec a b); constructor; assumption. Qed.
Lemma zl_eqb_cons x a y b : zl_eqb (x :: a) (y :: b) = (x =? y)%Z && zl_eqb a b.
Proof.
  destruct (zl_eqb_spec (x :: a) (y :: b)) as [E|E]; destruct (Z.eqb_spec x y) as [E1|E1];
    destruct (zl_eqb_spec a b) as [E2|E2]; cbn; try reflexivity; try (inversion E; congruence); subst; congruence.
Qed.

Lemma cart_sum pts idx : length idx = length pts ->
  qsum (fun iq => if zl_eqb (fst iq) idx then snd iq else 0) (cart pts) == spread pts idx.
Proof.
  revert idx. induction pts as [|l pts IH]; intros idx H; destruct idx as [|i idx]; try discriminate.
  - cbn. ring.
  - injection H as H. cbn [cart spread]. rewrite qsum_flat_map. unfold wsum. rewrite <- qsum_scale_r.
    apply qsum_ext. intros [j w]. rewrite qsum_map. cbn [fst snd].
    rewrite <- (IH idx H). rewrite <- qsum_scale. apply qsum_ext. intros r. cbn [fst snd].
    rewrite zl_eqb_cons. destruct (j =? i)%Z; cbn [andb]; [|ring].
    destruct (zl_eqb (fst r) idx); ring.
Qed.

Lemma spread_ext pts pts' idx :
  Forall2 (fun l l' => forall i, wsum l i == wsum l' i) pts pts' -> spread pts idx == spread pts' idx.
Proof.
  intros H. revert idx. induction H as [|l l' pts pts' H _ IH]; intros idx; [reflexivity|].
  destruct idx as [|i idx]; [reflexivity|]. cbn [spread]. rewrite H, IH. reflexivity.
Qed.

(* ---------- the memory after a list of additions ---------- *)

Lemma run_spec ops m a : run m ops a == m a + qsum (fun o => if (fst o =? a)%Z then snd o else 0) ops.
Proof.
  revert m. induction ops as [|o ops IH]; intros m; [cbn; ring|].
  unfold run in *. cbn [fold_left]. rewrite IH, qsum_cons. unfold add_at.
  rewrite (Z.eqb_sym a). destruct (fst o =? a)%Z; ring.
Qed.

Lemma run_app m a b : run m (a ++ b) = run (run m a) b.
Proof. apply fold_left_app. Qed.

Lemma ops_eq_sum a b x : ops_eq a b ->
  qsum (fun o => if (fst o =? x)%Z then snd o else 0) a == qsum (fun o => if (fst o =? x)%Z then snd o else 0) b.
Proof.
  intros H. eapply qsum_F2; [exact H|]. intros o o' [E1 E2]. cbn beta. rewrite E1. destruct (fst o' =? x)%Z; [exact E2|reflexivity].
Qed.
Lemma run_ops_eq m a b x : ops_eq a b -> run m a x == run m b x.
Proof. intros H. rewrite !run_spec, (ops_eq_sum a b x H). reflexivity. Qed.

Theorem spec_ops_cell axes pts weight m idx :
  strides_ok axes -> length pts = length axes -> valid_cell axes idx ->
  cell axes (run m (spec_ops axes pts weight)) idx == cell axes m idx + weight * spread pts idx.
Proof.
  intros Hs Hl Hv. unfold cell. rewrite run_spec. apply Qplus_comp; [reflexivity|].
  unfold spec_ops. rewrite qsum_flat_map.
  assert (Hi : length idx = length axes) by (symmetry; apply (Forall2_len _ _ _ Hv)).
  rewrite <- (cart_sum pts idx) by congruence. rewrite <- qsum_scale.
  apply qsum_ext_in. intros iq Hq.
  assert (Hlen : length (fst iq) = length axes) by (rewrite (cart_length pts iq Hq); exact Hl).
  destruct (inside_canvas axes (fst iq)) eqn:E.
  - rewrite qsum_cons, qsum_nil. cbn [fst snd].
    apply (inside_valid axes _ Hlen) in E.
    destruct (zl_eqb_spec (fst iq) idx) as [->|N].
    + rewrite Z.eqb_refl. ring.
    + destruct (Z.eqb_spec (offset axes (fst iq)) (offset axes idx)) as [E2|E2]; [|ring].
      destruct (N (Hs _ _ E Hv E2)).
  - rewrite qsum_nil. destruct (zl_eqb_spec (fst iq) idx) as [E2|E2]; [|ring].
    rewrite E2 in E. apply (inside_valid axes idx Hi) in Hv. congruence.
Qed.

(** no address that is not one of the array's elements is written *)
Lemma spec_ops_addr axes pts weight o : length pts = length axes ->
  In o (spec_ops axes pts weight) ->
  exists idx q, fst o = offset axes idx /\ valid_cell axes idx /\ In (idx, q) (cart pts).
Proof.
  intros Hl H. unfold spec_ops in H. apply in_flat_map in H. destruct H as ([idx q] & Hq & H). cbn [fst snd] in H.
  destruct (inside_canvas axes idx) eqn:E; [|contradiction]. destruct H as [<-|[]].
  exists idx, q. split; [reflexivity|]. split; [|exact Hq].
  apply inside_valid; [|exact E]. rewrite <- Hl. apply (cart_length pts _ Hq).
Qed.

Theorem spec_readout_cells axes pts m : length pts = length axes ->
  spec_readout axes pts m == qsum (fun idx => spread pts idx * cell axes m idx) (cells axes).
Proof.
  intros Hl. unfold spec_readout.
  transitivity (qsum (fun iq => qsum (fun idx => (if zl_eqb (fst iq) idx then snd iq else 0) * cell axes m idx) (cells axes)) (cart pts)).
  - apply qsum_ext_in. intros iq Hq.
    assert (Hlen : length (fst iq) = length axes) by (rewrite (cart_length pts iq Hq); exact Hl).
    destruct (inside_canvas axes (fst iq)) eqn:E.
    + apply (inside_valid axes _ Hlen) in E.
      rewrite (qsum_single _ _ (fst iq) (cells_NoDup axes)).
      * destruct (zl_eqb_spec (fst iq) (fst iq)) as [_|N]; [reflexivity|congruence].
      * apply in_cells, E.
      * intros b _ Hb. destruct (zl_eqb_spec (fst iq) b); [congruence|ring].
    + symmetry. apply qsum_zero. intros idx Hidx. apply in_cells in Hidx.
      destruct (zl_eqb_spec (fst iq) idx) as [E2|E2]; [|ring]. subst idx.
      apply (inside_valid axes _ Hlen) in Hidx. congruence.
  - rewrite qsum_swap. apply qsum_ext_in. intros idx Hidx. rewrite qsum_scale_r.
    rewrite cart_sum; [reflexivity|]. apply in_cells in Hidx. rewrite Hl. symmetry. apply (Forall2_len _ _ _ Hidx).
Qed.

(** the sum over all cells of the spread is a product of sums *)
Lemma sum_spread axes pts : length pts = length axes ->
  qsum (spread pts) (cells axes) ==
  qprod (map (fun al => qsum (wsum (snd al)) (zrange 0 (Z.to_nat (ax_size (fst al))))) (combine axes pts)).
Proof.
  revert pts. induction axes as [|a axes IH]; intros pts H; destruct pts as [|l pts]; try discriminate.
  - cbn. ring.
  - injection H as H. unfold cells in *. cbn [map box combine qprod fst snd spread].
    rewrite qsum_flat_map, Z.sub_0_r. rewrite <- qsum_scale_r. apply qsum_ext. intros i.
    rewrite qsum_map. cbn [spread]. rewrite qsum_scale, IH by exact H. reflexivity.
Qed.

(** when all points lie inside, the weights of an axis add up to the points' total *)
Lemma wsum_total l n : Forall (fun jw => 0 <= fst jw < Z.of_nat n)%Z l ->
  qsum (wsum l) (zrange 0 n) == qsum snd l.
Proof.
  intros H. unfold wsum. rewrite qsum_swap. apply qsum_ext_in. intros jw Hj.
  rewrite Forall_forall in H. specialize (H jw Hj).
  rewrite (qsum_single _ _ (fst jw)).
  - rewrite Z.eqb_refl. reflexivity.
  - apply zrange_NoDup.
  - apply in_zrange. lia.
  - intros b _ Hb. destruct (Z.eqb_spec (fst jw) b); [congruence|reflexivity].
Qed.

(* ---------- a painter's effect ---------- *)

Definition wf_painter (p : painter) : Prop :=
  wf_kind (pt_kind p) /\ (0 < length (pt_axes p))%nat /\ strides_ok (pt_axes p).
(** weight of a cell for a particle *)
Definition weight_of (p : painter) (hsml : Q) (pos : list Q) (idx : list Z) : Q :=
  spread (all_points p hsml pos) idx.

Lemma points_with_length f axes pos : length pos = length axes -> length (points_with f axes pos) = length axes.
Proof.
  revert pos. induction axes as [|a axes IH]; intros pos H; destruct pos as [|x pos]; try discriminate; [reflexivity|].
  cbn [points_with length]. rewrite IH; [reflexivity|]. injection H. auto.
Qed.
Lemma all_points_length p hsml pos : length pos = length (pt_axes p) ->
  length (all_points p hsml pos) = length (pt_axes p).
Proof. apply points_with_length. Qed.

Theorem paint_cell p pos weight hsml m idx :
  wf_painter p -> length pos = length (pt_axes p) -> valid_cell (pt_axes p) idx ->
  cell (pt_axes p) (run m (paint_ops p pos weight hsml)) idx ==
  cell (pt_axes p) m idx + weight * weight_of p hsml pos idx.
Proof.
  intros (Hk & Hn & Hs) Hl Hv. unfold cell at 1.
  rewrite (run_ops_eq _ _ _ _ (paint_ops_spec p pos weight hsml Hk Hl Hn)).
  apply spec_ops_cell; [exact Hs|apply all_points_length, Hl|exact Hv].
Qed.
Theorem readout_cells p m pos hsml :
  wf_painter p -> length pos = length (pt_axes p) ->
  readout_at p m pos hsml ==
  qsum (fun idx => weight_of p hsml pos idx * cell (pt_axes p) m idx) (cells (pt_axes p)).
Proof.
  intros (Hk & Hn & Hs) Hl. rewrite readout_at_spec by assumption.
  apply spec_readout_cells, all_points_length, Hl.
Qed.

(** painting a list of particles (position, mass, hsml) in order *)
Definition paint_all (p : painter) (m : memory) (parts : list (list Q * Q * Q)) : memory :=
  fold_left (fun m xmh => run m (paint_ops p (fst (fst xmh)) (snd (fst xmh)) (snd xmh))) parts m.
Definition wf_parts (p : painter) (parts : list (list Q * Q * Q)) : Prop :=
  Forall (fun xmh => length (fst (fst xmh)) = length (pt_axes p)) parts.

Theorem paint_all_cell p m parts idx :
  wf_painter p -> wf_parts p parts -> valid_cell (pt_axes p) idx ->
  cell (pt_axes p) (paint_all p m parts) idx ==
  cell (pt_axes p) m idx +
  qsum (fun xmh => snd (fst xmh) * weight_of p (snd xmh) (fst (fst xmh)) idx) parts.
Proof.
  intros Hp Hw Hv. revert m. induction Hw as [|x parts Hx _ IH]; intros m; [rewrite qsum_nil; cbn [paint_all fold_left]; ring|].
  unfold paint_all in *. cbn [fold_left]. rewrite IH, qsum_cons, paint_cell by assumption. ring.
Qed.
