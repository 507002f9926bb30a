(** The domains of a [ParticleMesh] and the ranks they are assigned to. *)
From Coq Require Import List Arith ZArith QArith Qround Lqa Lia Bool Sorted Permutation.
From Verif Require Import Base ListFacts LayoutModel LayoutSpec LayoutProofs WrapModel WrapProofs DomainModel DomainFill DomainGeom DomainTargets
  DomainHome DomainProperties QSum WindowModel WindowApi MeshModel.
Import ListNotations.
Local Close Scope Q_scope.
Local Open Scope Z_scope.

(** ** Specification of pfft's partition *)

(** all multi-indices of blocks *)
Definition all_blocks (edges : list (list Z)) : list (list Z) :=
  box (map (fun e => (0, Z.of_nat (length e) - 1)) edges).
(** first cell and extent of a block *)
Definition block_start (edges : list (list Z)) (ks : list Z) : list Z :=
  map (fun ek => nth (Z.to_nat (snd ek)) (fst ek) 0) (combine edges ks).
Definition block_shape (edges : list (list Z)) (ks : list Z) : list Z :=
  map (fun ek => nth (S (Z.to_nat (snd ek))) (fst ek) 0 - nth (Z.to_nat (snd ek)) (fst ek) 0) (combine edges ks).
(** edges of one axis of [n] cells *)
Definition edges_ok (n : Z) (e : list Z) : Prop :=
  0 < n /\ (2 <= length e)%nat /\ StronglySorted Z.le e /\ nth 0 e 0 = 0 /\ last e 0 = n.
(** a partition of the mesh: rank [r] has block [nth r blocks], every block is one
    rank's *)
Record mesh_ok (Nmesh : list Z) (pt : partition) (blocks : list (list Z)) : Prop := {
  mk_dim : (0 < length Nmesh)%nat;
  mk_edges : Forall2 edges_ok Nmesh (i_edges pt);
  mk_blocks : Permutation blocks (all_blocks (i_edges pt));
  mk_start : local_i_start pt = map (block_start (i_edges pt)) blocks;
  mk_shape : local_i_shape pt = map (block_shape (i_edges pt)) blocks
}.
(** no two blocks of an axis begin at the same cell: at most the last is empty *)
Definition distinct_starts (edges : list (list Z)) : Prop :=
  Forall (fun e => forall i j, (i < j)%nat -> (S j < length e)%nat -> nth i e 0 <> nth j e 0) edges.
(** no block is empty *)
Definition no_empty (edges : list (list Z)) : Prop :=
  Forall (fun e => forall k, (S k < length e)%nat -> nth k e 0 < nth (S k) e 0) edges.

(** ** Proofs *)

Lemma nth_last (l : list Z) : nth (length l - 1) l 0 = last l 0.
Proof.
  induction l as [|x [|y l] IH]; [reflexivity|reflexivity|].
  cbn [length] in *. replace (S (S (length l)) - 1)%nat with (S (S (length l) - 1)) by lia.
  exact IH.
Qed.

Lemma domain_shape_ndom edges : domain_shape edges = map ndom (map (map inject_Z) edges).
Proof.
  unfold domain_shape. rewrite map_map. apply map_ext. intros e. unfold ndom. rewrite map_length. reflexivity.
Qed.

Lemma NoDup_map_in {A B} (f : A -> B) l : (forall a b, In a l -> In b l -> f a = f b -> a = b) -> NoDup l -> NoDup (map f l).
Proof.
  intros H N. induction N as [|x l Hx N IH]; simpl; constructor.
  - intros C. apply in_map_iff in C. destruct C as [y [E Hy]]. apply Hx.
    assert (y = x) as <-; [|exact Hy]. apply H; simpl; auto.
  - apply IH. intros a b Ha Hb. apply H; simpl; auto.
Qed.

Lemma map_const_repeat {A B} (l : list A) (b : B) : repeat b (length l) = map (fun _ => b) l.
Proof. induction l as [|x l IH]; simpl; [reflexivity|]. rewrite IH. reflexivity. Qed.

Lemma Zsorted_nth e i j : StronglySorted Z.le e -> (i <= j)%nat -> (j < length e)%nat -> nth i e 0 <= nth j e 0.
Proof.
  intros H. revert i j. induction H as [|x l H IH F]; intros i j L K; simpl in K; [lia|].
  destruct j as [|j]; destruct i as [|i]; simpl; try lia.
  - rewrite Forall_forall in F. apply F. apply nth_In. lia.
  - apply IH; lia.
Qed.

Lemma no_empty_distinct edges : Forall (fun e => StronglySorted Z.le e) edges -> no_empty edges -> distinct_starts edges.
Proof.
  unfold no_empty, distinct_starts. rewrite !Forall_forall. intros S H e He i j L K.
  pose proof (H e He i ltac:(lia)) as A.
  pose proof (Zsorted_nth e (Datatypes.S i) j (S e He) ltac:(lia) ltac:(lia)). lia.
Qed.

Lemma first_index_at e k : (forall i, (i < k)%nat -> nth i e 0 <> nth k e 0) -> (k < length e)%nat ->
  first_index (nth k e 0) e = Some k.
Proof.
  revert k. induction e as [|y r IH]; intros k H L; simpl in L; [lia|].
  destruct k as [|k]; simpl.
  - rewrite Z.eqb_refl. reflexivity.
  - destruct (Z.eqb_spec y (nth k r 0)) as [E|E].
    + exfalso. apply (H O); [lia|]. exact E.
    + rewrite IH; [reflexivity| |lia]. intros i Hi. apply (H (S i)). lia.
Qed.

Lemma all_blocks_valid edges ks : In ks (all_blocks edges) <-> valid_index (domain_shape edges) ks.
Proof.
  unfold all_blocks, valid_index, domain_shape. rewrite in_box. split.
  - intros H. induction edges as [|e r IH] in ks, H |- *; inversion H; subst; simpl; constructor; auto.
  - intros H. induction edges as [|e r IH] in ks, H |- *; inversion H; subst; simpl; constructor; auto.
Qed.

Lemma ilocal_ok edges ks : distinct_starts edges -> valid_index (domain_shape edges) ks ->
  ilocal_of edges (block_start edges ks) = Ret (ravel (domain_shape edges) ks).
Proof.
  intros D V. unfold ilocal_of.
  assert (S : sequence (map (fun p => first_index (fst p) (snd p)) (combine (block_start edges ks) edges))
              = Some (map Z.to_nat ks)).
  { unfold distinct_starts in D. revert ks V. induction D as [|e r De D IH]; intros ks V.
    - inversion V; subst. reflexivity.
    - inversion V as [|? k ? ks' Hk V']; subst. unfold block_start. cbn [combine map fst snd sequence].
      rewrite first_index_at; [|intros i Hi; apply De; lia|lia].
      cbn [sequence]. specialize (IH ks' V'). unfold block_start in IH. rewrite IH. reflexivity. }
  rewrite S. rewrite map_map.
  assert (M : map (fun x => Z.of_nat (Z.to_nat x)) ks = ks).
  { rewrite <- (map_id ks) at 2. apply map_ext_in. intros k Hk.
    clear -V Hk. unfold valid_index in V.
    induction V; simpl in *; [contradiction|]. destruct Hk as [->|Hk]; [lia|auto]. }
  rewrite M. unfold ravel_raise.
  assert (forallb (fun p => (0 <=? snd p) && (snd p <? fst p)) (combine (domain_shape edges) ks) = true) as ->; [|reflexivity].
  clear -V. unfold valid_index in V. induction V; simpl; auto.
  rewrite (proj2 (Z.leb_le _ _)), (proj2 (Z.ltb_lt _ _)) by lia. exact IHV.
Qed.

Lemma write_one {A} k (v : A) l : (k < length l)%nat -> write_slice k (S k) v l = upd k (fun _ => Some v) l.
Proof.
  unfold write_slice. intros H. replace (S k - k)%nat with 1%nat by lia. simpl repeat.
  revert l H. induction k as [|k IH]; intros [|x l] H; simpl in *; try lia; auto.
  f_equal. apply IH. lia.
Qed.

Lemma domain_assign_spec il : NoDup il -> Forall (fun d => 0 <= d < Z.of_nat (length il)) il ->
  let a := domain_assign (length il) (length il) il in
  length a = length il /\
  forall r, (r < length il)%nat -> nth_error a (Z.to_nat (nth r il 0)) = Some (Some r).
Proof.
  intros ND B a.
  set (P := length il) in *.
  assert (W : forall l acc, length acc = P -> Forall (fun ri => 0 <= snd ri < Z.of_nat P) l ->
     fold_left (fun a (ri : nat * Z) => write_slice (Z.to_nat (snd ri * Z.of_nat P / Z.of_nat P))
                                     (Z.to_nat ((snd ri + 1) * Z.of_nat P / Z.of_nat P)) (fst ri) a) l acc
     = fold_left (fun acc (p : nat * nat) => upd (fst p) (fun x => (fun (_ : option nat) b => Some b) x (snd p)) acc)
         (map (fun ri => (Z.to_nat (snd ri), fst ri)) l) acc).
  { induction l as [|[r d] l IH]; intros acc La Hl; [reflexivity|].
    inversion Hl as [|? ? H1 H2]; subst. cbn [fold_left map fst snd] in *.
    rewrite !Z.div_mul by lia.
    replace (Z.to_nat (d + 1)) with (S (Z.to_nat d)) by lia.
    rewrite write_one by lia. apply IH; [rewrite upd_length; exact La|exact H2]. }
  assert (Hl : Forall (fun ri : nat * Z => 0 <= snd ri < Z.of_nat P) (combine (seq 0 P) il)).
  { rewrite Forall_forall in *. intros [r d] H. apply B. exact (in_combine_r _ _ _ _ H). }
  assert (Ea : a = fold_left (fun acc (p : nat * nat) => upd (fst p) (fun x => (fun (_ : option nat) b => Some b) x (snd p)) acc)
         (map (fun ri => (Z.to_nat (snd ri), fst ri)) (combine (seq 0 P) il)) (repeat None P)).
  { unfold a, domain_assign. fold P. apply W; [apply repeat_length|exact Hl]. }
  split.
  - rewrite Ea, (fold_upd_length (fun (_ : option nat) b => Some b)), repeat_length. reflexivity.
  - intros r Hr. rewrite Ea.
    rewrite (fold_upd_nth (fun (_ : option nat) b => Some b)).
    assert (Hd : 0 <= nth r il 0 < Z.of_nat P).
    { rewrite Forall_forall in B. apply B. apply nth_In. exact Hr. }
    rewrite nth_error_repeat by lia. cbn [option_map]. f_equal.
    (* the matching writes *)
    assert (F : map snd (filter (fun p => (fst p =? Z.to_nat (nth r il 0%Z))%nat)
               (map (fun ri : nat * Z => (Z.to_nat (snd ri), fst ri)) (combine (seq 0 P) il))) = [r]).
    { clear Ea a W. unfold P in *.
      assert (G : forall k, map snd (filter (fun p => (fst p =? Z.to_nat (nth r il 0%Z))%nat)
               (map (fun ri : nat * Z => (Z.to_nat (snd ri), fst ri)) (combine (seq k (length il)) il))) = [(k + r)%nat]);
        [|exact (G O)].
      assert (B0 : Forall (fun d => 0 <= d) il).
      { rewrite Forall_forall in *. intros d H. apply B in H. lia. }
      clear P B Hl Hd. revert r Hr. induction il as [|d l IH]; intros r Hr k; simpl in Hr; [lia|].
      inversion ND as [|? ? N1 N2]; subst. inversion B0 as [|? ? B1 B2]; subst.
      cbn [length seq combine map filter fst snd].
      destruct r as [|r].
      - cbn [nth]. rewrite Nat.eqb_refl. cbn [map snd]. rewrite Nat.add_0_r. f_equal.
        rewrite filter_none; [reflexivity|].
        intros [x y] Hin. apply in_map_iff in Hin. destruct Hin as [[u v] [E H]].
        injection E as <- <-. apply in_combine_r in H. cbn [fst snd].
        apply Nat.eqb_neq. intros C. apply N1.
        assert (v = d) as <-; [|exact H]. rewrite Forall_forall in B2. pose proof (B2 v H). lia.
      - cbn [nth]. assert (Z.to_nat d =? Z.to_nat (nth r l 0%Z) = false)%nat as ->.
        { apply Nat.eqb_neq. intros C. apply N1.
          assert (d = nth r l 0) as ->; [|apply nth_In; lia].
          rewrite Forall_forall in B2. assert (In (nth r l 0) l) as I by (apply nth_In; lia). pose proof (B2 _ I). lia. }
        rewrite (IH N2 B2 r ltac:(lia) (S k)). f_equal. lia. }
    rewrite F. reflexivity.
Qed.

Section Mesh.
Variables (Nmesh : list Z) (pt : partition) (blocks : list (list Z)).
Hypothesis (OK : mesh_ok Nmesh pt blocks).
Local Notation edges := (i_edges pt).
Local Notation P := (length blocks).

Definition qedges : list (list Q) := map (map inject_Z) edges.
Definition block (r : nat) : list Z := nth r blocks [].

Lemma block_valid r : (r < P)%nat -> valid_index (domain_shape edges) (block r).
Proof.
  intros H. apply all_blocks_valid. apply (Permutation_in _ (mk_blocks _ _ _ OK)). apply nth_In. exact H.
Qed.

Lemma blocks_NoDup : NoDup blocks.
Proof. apply (Permutation_NoDup (Permutation_sym (mk_blocks _ _ _ OK))). apply box_NoDup. Qed.

Lemma block_inj r r' : (r < P)%nat -> (r' < P)%nat -> block r = block r' -> r = r'.
Proof. intros H H' E. exact (proj1 (NoDup_nth blocks []) blocks_NoDup r r' H H' E). Qed.

Lemma block_of ks : valid_index (domain_shape edges) ks -> exists r, (r < P)%nat /\ block r = ks.
Proof.
  intros V. apply all_blocks_valid in V. apply (Permutation_in _ (Permutation_sym (mk_blocks _ _ _ OK))) in V.
  apply In_nth with (d := []) in V. exact V.
Qed.

Lemma edges_length : length edges = length Nmesh.
Proof. symmetry. exact (Forall2_len _ _ _ (mk_edges _ _ _ OK)). Qed.

Lemma edges_each : Forall (fun e => (2 <= length e)%nat /\ StronglySorted Z.le e /\ nth 0 e 0 = 0) edges.
Proof.
  pose proof (mk_edges _ _ _ OK) as H. clear OK. induction H as [|n e ns es A H IH]; constructor; auto.
  destruct A as (A1 & A2 & A3 & A4 & A5). auto.
Qed.

Lemma P_prod : Z.of_nat P = prodz (domain_shape edges).
Proof.
  rewrite (Permutation_length (mk_blocks _ _ _ OK)). unfold all_blocks. rewrite box_length.
  - unfold patchsize, domain_shape, prodz. clear OK. induction edges as [|e r IH]; [reflexivity|].
    cbn [map fold_right fst snd]. rewrite IH. f_equal. lia.
  - pose proof edges_each as H. clear OK. induction H as [|e r [A _] H IH]; constructor; auto. cbn [fst snd]. lia.
Qed.

Lemma qaxis_ok : Forall axis_ok qedges.
Proof.
  unfold qedges. pose proof (mk_edges _ _ _ OK) as H. clear OK.
  induction H as [|n e ns es (A1 & A2 & A3 & A4 & A5) H IH]; constructor; auto.
  assert (Ev : forall k, E (map inject_Z e) k = inject_Z (nth k e 0)).
  { intros k. unfold E. change 0%Q with (inject_Z 0). apply map_nth. }
  assert (Lp : period (map inject_Z e) = inject_Z n).
  { rewrite period_E by (rewrite map_length; lia). rewrite Ev, map_length. f_equal. rewrite <- A5.
    apply nth_last. }
  constructor.
  - rewrite map_length. exact A2.
  - clear -A3. induction A3 as [|x l S IH F]; simpl; constructor; auto.
    rewrite Forall_forall in *. intros q Hq. apply in_map_iff in Hq. destruct Hq as [z [<- Hz]].
    rewrite <- Zle_Qle. apply F. exact Hz.
  - rewrite Ev, A4. reflexivity.
  - rewrite Lp. change 0%Q with (inject_Z 0). rewrite <- Zlt_Qlt. exact A1.
Qed.

(** ** The assignment *)

Definition ilocals : list Z := map (ravel (domain_shape edges)) blocks.

Lemma ilocals_ret : distinct_starts edges ->
  map (ilocal_of edges) (local_i_start pt) = map Ret ilocals.
Proof.
  intros D. rewrite (mk_start _ _ _ OK), map_map. unfold ilocals. rewrite map_map. apply map_ext_in.
  intros ks Hk. apply ilocal_ok; [exact D|]. apply all_blocks_valid. exact (Permutation_in _ (mk_blocks _ _ _ OK) Hk).
Qed.

Lemma ilocals_NoDup : NoDup ilocals.
Proof.
  unfold ilocals. apply NoDup_map_in; [|exact blocks_NoDup].
  intros a b Ha Hb. apply ravel_inj; apply all_blocks_valid; apply (Permutation_in _ (mk_blocks _ _ _ OK)); assumption.
Qed.

Lemma ilocals_bound : Forall (fun d => 0 <= d < Z.of_nat (length ilocals)) ilocals.
Proof.
  unfold ilocals. rewrite map_length, P_prod. rewrite Forall_forall. intros d Hd.
  apply in_map_iff in Hd. destruct Hd as [ks [<- Hk]]. apply ravel_bound. apply all_blocks_valid.
  exact (Permutation_in _ (mk_blocks _ _ _ OK) Hk).
Qed.

(** the rank of a block *)
Definition assignment : list nat :=
  map (fun d => match nth_error (domain_assign P P ilocals) d with Some (Some r) => r | _ => O end) (seq 0 P).

Lemma assignment_some : domain_assign P P ilocals = map Some assignment.
Proof.
  destruct (domain_assign_spec ilocals ilocals_NoDup ilocals_bound) as [L S].
  assert (Li : length ilocals = P) by apply map_length. rewrite Li in *.
  apply list_ext. intros d. unfold assignment. rewrite map_map, nth_error_map.
  destruct (Nat.lt_ge_cases d P) as [H|H].
  - rewrite nth_error_seq_lt by exact H. cbn [option_map]. rewrite Nat.add_0_l.
    assert (V : valid_index (domain_shape edges) (unravel (domain_shape edges) (Z.of_nat d)) /\
                ravel (domain_shape edges) (unravel (domain_shape edges) (Z.of_nat d)) = Z.of_nat d).
    { apply unravel_valid; [|rewrite <- P_prod; lia].
      pose proof edges_each as X. unfold domain_shape. clear -X. induction X as [|e r [A _] X IH]; constructor; auto. lia. }
    destruct V as [V R]. destruct (block_of _ V) as [r [Hr Er]].
    specialize (S r Hr). unfold ilocals in S.
    rewrite (nth_indep _ 0 (ravel (domain_shape edges) [])) in S by (rewrite map_length; exact Hr).
    rewrite map_nth in S. change (nth r blocks []) with (block r) in S. rewrite Er, R, Nat2Z.id in S.
    fold ilocals in S. rewrite S. reflexivity.
  - rewrite nth_error_seq_ge by exact H. cbn [option_map]. apply nth_error_None. lia.
Qed.

Definition mesh_grid : grid := mkGrid qedges true assignment (degenerate_flags qedges).

Lemma assignment_length : length assignment = P.
Proof. unfold assignment. rewrite map_length, seq_length. reflexivity. Qed.

Lemma g_dims_mesh : g_dims mesh_grid = domain_shape edges.
Proof. unfold g_dims, mesh_grid, qedges. cbn [g_edges]. symmetry. apply domain_shape_ndom. Qed.

(** every rank owns its block *)
Lemma owner_block r : (r < P)%nat -> owner mesh_grid (block r) = r.
Proof.
  intros Hr. unfold owner. rewrite g_dims_mesh. cbn [g_assign mesh_grid].
  destruct (domain_assign_spec ilocals ilocals_NoDup ilocals_bound) as [L S].
  assert (Li : length ilocals = P) by apply map_length. rewrite Li in *.
  specialize (S r Hr). rewrite assignment_some in S.
  rewrite nth_error_map in S. unfold ilocals in S.
  rewrite (nth_indep _ 0 (ravel (domain_shape edges) [])) in S by (rewrite map_length; exact Hr).
  rewrite map_nth in S. change (nth r blocks []) with (block r) in S.
  destruct (nth_error assignment _) as [q|] eqn:E; [|discriminate S].
  injection S as ->. apply nth_error_nth with (d := O) in E. exact E.
Qed.

Lemma assignment_bound : Forall (fun t => t < P)%nat assignment.
Proof.
  rewrite Forall_forall. intros t Ht. apply In_nth with (d := O) in Ht.
  destruct Ht as [d [Hd <-]]. rewrite assignment_length in Hd.
  assert (V : valid_index (domain_shape edges) (unravel (domain_shape edges) (Z.of_nat d)) /\
              ravel (domain_shape edges) (unravel (domain_shape edges) (Z.of_nat d)) = Z.of_nat d).
  { apply unravel_valid; [|rewrite <- P_prod; lia].
    pose proof edges_each as X. unfold domain_shape. clear -X. induction X as [|e r [A _] X IH]; constructor; auto. lia. }
  destruct V as [V R]. destruct (block_of _ V) as [r [Hr Er]].
  pose proof (owner_block r Hr) as O. unfold owner in O. rewrite g_dims_mesh, Er, R, Nat2Z.id in O.
  cbn [g_assign mesh_grid] in O. rewrite O. exact Hr.
Qed.

Lemma qedges_len : Forall (fun e => (2 <= length e)%nat) qedges.
Proof.
  unfold qedges. pose proof edges_each as X. clear -X. induction X as [|e r [A _] X IH]; simpl; constructor; auto.
  rewrite map_length. exact A.
Qed.

Lemma mesh_wf_grid : wf_grid P mesh_grid.
Proof.
  assert (D : Z.of_nat (length (degenerate_flags qedges)) = Z.of_nat P).
  { rewrite degenerate_flags_length by exact qedges_len. rewrite P_prod. f_equal. symmetry. apply domain_shape_ndom. }
  constructor.
  - exact qedges_len.
  - rewrite g_dims_mesh. cbn [g_assign mesh_grid]. rewrite assignment_length. apply P_prod.
  - rewrite g_dims_mesh. cbn [g_degenerate mesh_grid]. rewrite D. apply P_prod.
  - exact assignment_bound.
  - cbn [g_assign g_degenerate mesh_grid]. replace (length (degenerate_flags qedges)) with P by lia. exact assignment_bound.
Qed.

(** either no block is empty, or the ranks hold the blocks in C order *)
Definition plain_order : Prop := no_empty edges \/ blocks = all_blocks edges.

Lemma ravel_box dims : Forall (fun d => 0 < d) dims ->
  map (ravel dims) (box (map (fun d => (0, d)) dims)) = zrange 0 (Z.to_nat (prodz dims)).
Proof.
  intros H. induction H as [|d ds Hd H IH]; [reflexivity|].
  pose proof (prodz_pos _ H) as Hp.
  cbn [map box]. rewrite map_flat_map.
  change (prodz (d :: ds)) with (d * prodz ds).
  rewrite Z2Nat.inj_mul, Z.sub_0_r by lia.
  assert (G : forall n k, flat_map (fun x => map (ravel (d :: ds)) (map (cons x) (box (map (fun d => (0, d)) ds)))) (zrange k n)
             = zrange (k * prodz ds) (n * Z.to_nat (prodz ds))).
  { induction n as [|n IHn]; intros k; [reflexivity|].
    cbn [zrange flat_map]. rewrite map_map.
    replace (S n * Z.to_nat (prodz ds))%nat with (Z.to_nat (prodz ds) + n * Z.to_nat (prodz ds))%nat by lia.
    rewrite zrange_app. f_equal.
    - transitivity (map (fun y => y + k * prodz ds) (map (ravel ds) (box (map (fun d => (0, d)) ds)))).
      + rewrite map_map. apply map_ext. intros is. cbn [ravel]. fold (prodz ds). lia.
      + rewrite IH, <- (map_zrange_shift (fun y => y)), map_id. reflexivity.
    - rewrite IHn. f_equal. lia. }
  rewrite G. reflexivity.
Qed.

Lemma mesh_flags_ok : plain_order -> flags_ok mesh_grid.
Proof.
  intros [H|H].
  - apply (flags_ok_all_thick P).
    + exact mesh_wf_grid.
    + reflexivity.
    + unfold all_thick. cbn [g_edges mesh_grid]. unfold qedges.
      unfold no_empty in H. rewrite Forall_forall in *. intros e He. apply in_map_iff in He.
      destruct He as [z [<- Hz]]. intros k Hk. rewrite map_length in Hk. unfold E.
      change 0%Q with (inject_Z 0). rewrite !map_nth. rewrite <- Zlt_Qlt. apply H; assumption.
  - apply (flags_ok_identity P).
    + exact mesh_wf_grid.
    + reflexivity.
    + cbn [g_assign mesh_grid]. rewrite assignment_length.
      apply nth_ext with (d := O) (d' := O); rewrite ?seq_length, assignment_length; [reflexivity|].
      intros r Hr. rewrite seq_nth by exact Hr. cbn [Nat.add].
      pose proof (owner_block r Hr) as O. unfold owner in O. rewrite g_dims_mesh in O. cbn [g_assign mesh_grid] in O.
      assert (R : ravel (domain_shape edges) (block r) = Z.of_nat r).
      { assert (X : nth r (map (ravel (domain_shape edges)) blocks) 0 = Z.of_nat r).
        { rewrite H. unfold all_blocks. replace (map (fun e : list Z => (0, Z.of_nat (length e) - 1)) edges)
            with (map (fun d => (0, d)) (domain_shape edges)) by (unfold domain_shape; rewrite map_map; reflexivity).
          rewrite ravel_box.
          - rewrite <- P_prod, Nat2Z.id. rewrite nth_zrange by exact Hr. lia.
          - pose proof edges_each as X. unfold domain_shape. clear -X. induction X as [|e q [A _] X IH]; constructor; auto. lia. }
        rewrite (nth_indep _ 0 (ravel (domain_shape edges) [])) in X by (rewrite map_length; exact Hr).
        rewrite map_nth in X. exact X. }
      rewrite R, Nat2Z.id in O. exact O.
Qed.

(** ** The constructor *)

Lemma all_ret_Ret {A} (l : list A) : all_ret (map Ret l) = Some l.
Proof. rewrite <- (map_id l) at 2. apply (all_ret_map (fun x => x)). Qed.

Lemma force_some {A} (l : list A) : force (map Some l) = Ret l.
Proof.
  unfold force. assert (sequence (map Some l) = Some l) as ->; [|reflexivity].
  induction l as [|x l IH]; [reflexivity|]. cbn [map sequence]. rewrite IH. reflexivity.
Qed.

(** the transforms of rank [r], from simulation units and from cells of the whole
    mesh to cells of the local array *)
Definition affine_at (scale : list Q) (r : nat) : affine :=
  {| af_scale := scale; af_translate := map (fun s => inject_Z (- s)) (block_start edges (block r)); af_period := Nmesh |}.
Definition mesh_scale (box : list Q) : list Q := map (fun p => (1 * inject_Z (fst p) / snd p)%Q) (combine Nmesh box).
Definition mesh_pm (box : list Q) (w : window) (r : nat) : pm :=
  {| pm_Nmesh := Nmesh; pm_BoxSize := box; pm_domain := mesh_grid;
     pm_start := block_start edges (block r); pm_shape := block_shape edges (block r);
     pm_affine := affine_at (mesh_scale box) r; pm_affine_grid := affine_at (map (fun _ => 1%Q) Nmesh) r;
     pm_resampler := w |}.

Lemma mkarr_array {A} (l : list A) n : length l = n -> mkarr (Array l) n = Ret l.
Proof. intros H. unfold mkarr. rewrite (proj2 (Nat.eqb_eq _ _) H). reflexivity. Qed.

Lemma block_start_length r : (r < P)%nat -> length (block_start edges (block r)) = length Nmesh.
Proof.
  intros Hr. unfold block_start. rewrite map_length, combine_length.
  pose proof (Forall2_len _ _ _ (block_valid r Hr)) as L. unfold domain_shape in L. rewrite map_length in L.
  pose proof edges_length. lia.
Qed.
Lemma block_shape_length r : (r < P)%nat -> length (block_shape edges (block r)) = length Nmesh.
Proof.
  intros Hr. unfold block_shape. rewrite map_length, combine_length.
  pose proof (Forall2_len _ _ _ (block_valid r Hr)) as L. unfold domain_shape in L. rewrite map_length in L.
  pose proof edges_length. lia.
Qed.

Theorem ParticleMesh_ok BoxSize box w : distinct_starts edges -> mkarr BoxSize (length Nmesh) = Ret box ->
  length box = length Nmesh ->
  ParticleMesh Nmesh BoxSize w pt = map (fun r => Ret (mesh_pm box w r)) (seq 0 P).
Proof.
  intros D B L. unfold ParticleMesh. rewrite (ilocals_ret D), all_ret_Ret.
  assert (Lp : length (local_i_start pt) = P) by (rewrite (mk_start _ _ _ OK), map_length; reflexivity).
  rewrite Lp. apply map_ext_in. intros r Hr. apply in_seq in Hr.
  rewrite B. cbn [bind]. rewrite <- P_prod, Nat2Z.id.
  unfold GridND. rewrite assignment_some, force_some. cbn [bind].
  rewrite (mk_start _ _ _ OK), (mk_shape _ _ _ OK).
  rewrite (nth_indep _ [] (block_start edges [])) by (rewrite map_length; lia).
  rewrite (nth_indep (map (block_shape edges) blocks) [] (block_shape edges [])) by (rewrite map_length; lia).
  rewrite !map_nth. change (nth r blocks []) with (block r).
  unfold Affine. rewrite !mkarr_array; try (rewrite ?map_length, ?combine_length, ?block_start_length; lia).
  cbn [bind]. unfold mkarr at 1. cbn [bind].
  rewrite map_const_repeat. reflexivity.
Qed.
End Mesh.
