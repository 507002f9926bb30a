(** Property C88: which meshes can be made on which ranks, and what reshape and respawn make. *)
From Coq Require Import List Arith ZArith QArith Lia Bool Sorted Permutation.
From Verif Require Import Base ListFacts LayoutModel LayoutSpec LayoutProofs WrapModel WrapProofs DomainModel DomainFill DomainGeom DomainTargets
  DomainHome DomainProperties QSum WindowModel WindowApi MeshModel MeshAssign MeshRoute MeshPaint MeshTile MeshProperties MeshProperties2 CreateModel.
Import ListNotations.
Local Close Scope Q_scope.
Local Open Scope Z_scope.

(** * The blocks of pfft *)
Section Axis.
Variables (n : Z) (p : nat).
Hypothesis (Hn : 0 < n) (Hp : (0 < p)%nat).
Local Notation b := (pfft_block n p).
Lemma block_bounds' : 0 < b /\ n <= Z.of_nat p * b /\ Z.of_nat p * (b - 1) < n.
Proof.
  unfold pfft_block. pose proof (Z.div_mod (n + Z.of_nat p - 1) (Z.of_nat p) ltac:(lia)) as D.
  pose proof (Z.mod_pos_bound (n + Z.of_nat p - 1) (Z.of_nat p) ltac:(lia)) as B.
  set (q := (n + Z.of_nat p - 1) / Z.of_nat p) in *. nia.
Qed.
Lemma edges_len : length (pfft_edges n p) = S p.
Proof. unfold pfft_edges. now rewrite map_length, seq_length. Qed.
Lemma edges_nth k : (k <= p)%nat -> nth k (pfft_edges n p) 0 = Z.min (Z.of_nat k * b) n.
Proof. intros H. unfold pfft_edges. rewrite nth_map_seq by lia. reflexivity. Qed.
Lemma pfft_edges_ok : edges_ok n (pfft_edges n p).
Proof.
  destruct block_bounds' as (B1 & B2 & B3). split; [exact Hn|]. split; [rewrite edges_len; lia|]. split; [|split].
  - unfold pfft_edges. generalize O. induction (S p) as [|m IH]; intros k; cbn [seq map]; constructor; [apply IH|].
    rewrite Forall_map. apply Forall_forall. intros j Hj. apply in_seq in Hj. nia.
  - rewrite edges_nth by lia. lia.
  - rewrite <- nth_last, edges_len. replace (S p - 1)%nat with p by lia. rewrite edges_nth by lia. lia.
Qed.
(** every block but the last has a cell *)
Definition spread : Prop := p = 1%nat \/ (Z.of_nat p - 2) * b < n.
Lemma spread_iff : spread <-> forall i j, (i < j)%nat -> (S j < length (pfft_edges n p))%nat -> nth i (pfft_edges n p) 0 <> nth j (pfft_edges n p) 0.
Proof.
  destruct block_bounds' as (B1 & B2 & B3). rewrite edges_len. split.
  - intros S i j Hij Hj. rewrite !edges_nth by lia. unfold spread in S. nia.
  - intros H. unfold spread. destruct (Nat.eq_dec p 1) as [E|E]; [now left|right].
    specialize (H (p - 2)%nat (p - 1)%nat ltac:(lia) ltac:(lia)). rewrite !edges_nth in H by lia.
    replace (Z.of_nat (p - 2)) with (Z.of_nat p - 2) in H by lia. replace (Z.of_nat (p - 1)) with (Z.of_nat p - 1) in H by lia. nia.
Qed.
Lemma spread_many : (Z.of_nat p - 1) * (Z.of_nat p - 2) < 2 * n -> spread.
Proof.
  intros H. destruct block_bounds' as (B1 & B2 & B3). destruct (Nat.eq_dec p 1) as [E|E]; [now left|right].
  assert (X : Z.of_nat p * ((Z.of_nat p - 2) * b) < Z.of_nat p * n) by nia. nia.
Qed.
Lemma spread_divides : (Z.of_nat p | n) -> spread.
Proof.
  intros [q Hq]. destruct block_bounds' as (B1 & B2 & B3). right. assert (b = q) by nia. nia.
Qed.
End Axis.

(** * Partition *)
Lemma F2_same {A B C} (R : B -> C -> Prop) (f : A -> B) (g : A -> C) l : (forall x, In x l -> R (f x) (g x)) -> Forall2 R (map f l) (map g l).
Proof. induction l as [|x l IH]; intros H; cbn [map]; constructor; [apply H; now left|]. apply IH. intros y Hy. apply H. now right. Qed.
Definition np_ok (Nmesh : list Z) (np : list nat) : Prop := (0 < length Nmesh)%nat /\ Forall (fun n => 0 < n) Nmesh /\ Forall (fun p => (0 < p)%nat) np.
Lemma np_at np i : Forall (fun p => (0 < p)%nat) np -> (0 < nth i np 1)%nat.
Proof. intros H. destruct (Nat.lt_ge_cases i (length np)); [rewrite Forall_forall in H; now apply H, nth_In|rewrite nth_overflow by lia; lia]. Qed.
Lemma mesh_at Nmesh i : Forall (fun n => 0 < n) Nmesh -> (i < length Nmesh)%nat -> 0 < nth i Nmesh 0.
Proof. intros H Hi. rewrite Forall_forall in H. now apply H, nth_In. Qed.
Lemma pfft_mesh_ok Nmesh np : np_ok Nmesh np -> mesh_ok Nmesh (pfft_partition Nmesh np) (all_blocks (i_edges (pfft_partition Nmesh np))).
Proof.
  intros (H0 & HN & HP). constructor; try reflexivity; [exact H0|]. cbn [i_edges pfft_partition].
  replace Nmesh with (map (fun i => nth i Nmesh 0) (seq 0 (length Nmesh))) at 1 by (apply map_nth_seq; reflexivity).
  apply F2_same. intros i Hi. apply in_seq in Hi. apply pfft_edges_ok; [apply mesh_at; [exact HN|lia]|now apply np_at].
Qed.
(** all axes are spread *)
Definition spread_all (Nmesh : list Z) (np : list nat) : Prop := forall i, (i < length Nmesh)%nat -> spread (nth i Nmesh 0) (nth i np 1%nat).
Lemma spread_distinct Nmesh np : np_ok Nmesh np -> (spread_all Nmesh np <-> distinct_starts (i_edges (pfft_partition Nmesh np))).
Proof.
  intros (H0 & HN & HP). unfold distinct_starts, spread_all. cbn [i_edges pfft_partition]. rewrite Forall_map, Forall_forall. split.
  - intros H i Hi. apply in_seq in Hi. apply spread_iff; [apply mesh_at; [exact HN|lia]|now apply np_at|apply H; lia].
  - intros H i Hi. specialize (H i ltac:(apply in_seq; lia)). apply spread_iff in H; [exact H|now apply mesh_at|now apply np_at].
Qed.
Lemma prodz_ones l : Forall (fun x => x = 1) l -> prodz l = 1.
Proof. induction 1 as [|x l -> H IH]; [reflexivity|]. change (prodz (1 :: l)) with (1 * prodz l). now rewrite IH. Qed.
(** one rank per entry of the process mesh *)
Lemma pfft_ranks Nmesh np : np_ok Nmesh np -> (length np <= length Nmesh)%nat -> length (all_blocks (i_edges (pfft_partition Nmesh np))) = product np.
Proof.
  intros H L. pose proof (pfft_mesh_ok Nmesh np H) as OK. apply Nat2Z.inj. rewrite (P_prod _ _ _ OK). clear OK. destruct H as (_ & _ & HP).
  cbn [i_edges pfft_partition]. unfold domain_shape. rewrite map_map.
  rewrite (map_ext_in _ (fun i => Z.of_nat (nth i np 1%nat))) by (intros i Hi; rewrite edges_len; lia).
  generalize (length Nmesh) as m, L. clear -HP. induction np as [|p np IH]; intros m L.
  - cbn [product fold_right]. rewrite prodz_ones; [reflexivity|]. rewrite Forall_map. apply Forall_forall. intros i _. now destruct i.
  - destruct m as [|m]; [simpl in L; lia|]. inversion HP; subst. cbn [seq map nth]. rewrite <- seq_shift, map_map. cbn [nth].
    change (prodz (Z.of_nat p :: ?l)) with (Z.of_nat p * prodz l). rewrite IH by (simpl in L; try assumption; lia). unfold product. cbn [fold_right]. lia.
Qed.

(** * Blocks with the same start *)
Lemma upd_other {A} k (f : A -> A) l D : D <> k -> nth_error (upd k f l) D = nth_error l D.
Proof. revert k D. induction l as [|x l IH]; intros [|k] [|D] H; cbn [upd nth_error]; try reflexivity; try contradiction. apply IH. congruence. Qed.
Lemma Forall2_at {A B} (R : A -> B -> Prop) l m x y : Forall2 R l m -> forall i, (i < length l)%nat -> R (nth i l x) (nth i m y).
Proof. induction 1 as [|a b l m H F IH]; intros i Hi; simpl in Hi; [lia|]. destruct i; cbn [nth]; [exact H|]. apply IH. lia. Qed.
Lemma first_index_le e k : (k < length e)%nat -> exists j, first_index (nth k e 0) e = Some j /\ (j <= k)%nat /\ nth j e 0 = nth k e 0.
Proof.
  revert k. induction e as [|y r IH]; intros k L; simpl in L; [lia|]. cbn [first_index]. destruct (Z.eqb_spec y (nth k (y :: r) 0)) as [E|E].
  - exists O. split; [reflexivity|]. split; [lia|exact E].
  - destruct k as [|k]; [cbn [nth] in E; contradiction|]. cbn [nth] in *. destruct (IH k ltac:(lia)) as (j & J1 & J2 & J3).
    exists (S j). rewrite J1. split; [reflexivity|]. split; [lia|exact J3].
Qed.
Lemma firsts edges ks : valid_index (domain_shape edges) ks ->
  exists js, ilocal_of edges (block_start edges ks) = Ret (ravel (domain_shape edges) js) /\ valid_index (domain_shape edges) js /\
    forall i, (i < length edges)%nat -> first_index (nth (Z.to_nat (nth i ks 0)) (nth i edges []) 0) (nth i edges []) = Some (Z.to_nat (nth i js 0)).
Proof.
  intros V. assert (X : exists cs, sequence (map (fun p => first_index (fst p) (snd p)) (combine (block_start edges ks) edges)) = Some cs /\
    valid_index (domain_shape edges) (map Z.of_nat cs) /\
    forall i, (i < length edges)%nat -> first_index (nth (Z.to_nat (nth i ks 0)) (nth i edges []) 0) (nth i edges []) = Some (nth i cs O)).
  { unfold valid_index, domain_shape in *. revert ks V. induction edges as [|e r IH]; intros ks V.
    - exists []. split; [reflexivity|]. split; [constructor|]. intros i Hi. simpl in Hi. lia.
    - cbn [map] in V. inversion V as [|? k ? ks' Hk V']; subst. destruct (IH ks' V') as (cs & C1 & C2 & C3).
      destruct (first_index_le e (Z.to_nat k) ltac:(lia)) as (j & J1 & J2 & J3).
      exists (j :: cs). unfold block_start. cbn [combine map fst snd sequence]. rewrite J1. unfold block_start in C1. rewrite C1.
      split; [reflexivity|]. split; [constructor; [lia|exact C2]|]. intros [|i] Hi; cbn [nth]; [exact J1|]. apply C3. simpl in Hi. lia. }
  destruct X as (cs & C1 & C2 & C3). exists (map Z.of_nat cs). split; [|split; [exact C2|]].
  - unfold ilocal_of. rewrite C1. unfold ravel_raise.
    assert (forallb (fun p => (0 <=? snd p) && (snd p <? fst p)) (combine (domain_shape edges) (map Z.of_nat cs)) = true) as ->; [|reflexivity].
    clear -C2. unfold valid_index in C2. induction C2; simpl; auto. rewrite (proj2 (Z.leb_le _ _)), (proj2 (Z.ltb_lt _ _)) by lia. exact IHC2.
  - intros i Hi. rewrite C3 by exact Hi. change 0 with (Z.of_nat 0). now rewrite map_nth, Nat2Z.id.
Qed.
Lemma assign_skips (P : nat) (il : list (nat * Z)) acc D : (D < P)%nat -> length acc = P -> Forall (fun ri => 0 <= snd ri < Z.of_nat P /\ snd ri <> Z.of_nat D) il ->
  nth_error acc D = Some None ->
  nth_error (fold_left (fun a ri => write_slice (Z.to_nat (snd ri * Z.of_nat P / Z.of_nat P)) (Z.to_nat ((snd ri + 1) * Z.of_nat P / Z.of_nat P)) (fst ri) a) il acc) D =
  Some (@None nat).
Proof.
  intros HD. revert acc. induction il as [|[r d] il IH]; intros acc La F E; [exact E|]. inversion F as [|? ? [F1 F2] F3]; subst. cbn [fold_left fst snd] in *.
  rewrite !Z.div_mul by lia. replace (Z.to_nat (d + 1)) with (S (Z.to_nat d)) by lia. rewrite write_one by lia.
  apply IH; [rewrite upd_length; reflexivity|exact F3|]. rewrite upd_other by lia. exact E.
Qed.
Lemma force_none {A} (l : list (option A)) D : nth_error l D = Some None -> force l = Garbage.
Proof.
  intros H. unfold force. replace (sequence l) with (@None (list A)); [reflexivity|]. symmetry. revert D H. induction l as [|x l IH]; intros [|D] H; try discriminate.
  - injection H as ->. reflexivity.
  - cbn [nth_error] in H. cbn [sequence]. rewrite (IH D H). now destruct x.
Qed.
Theorem same_start_garbage Nmesh pt blocks BoxSize box w : mesh_ok Nmesh pt blocks -> mkarr BoxSize (length Nmesh) = Ret box ->
  forall i a b, (i < length Nmesh)%nat -> let e := nth i (i_edges pt) [] in (a < b)%nat -> (S b < length e)%nat -> nth a e 0 = nth b e 0 ->
  ParticleMesh Nmesh BoxSize w pt = repeat Garbage (length blocks).
Proof.
  intros OK HB i a b Hi e Hab Hb Eab. set (edges := i_edges pt) in *. set (dims := domain_shape edges).
  assert (Le : length edges = length Nmesh) by (symmetry; exact (Forall2_len _ _ _ (mk_edges _ _ _ OK))).
  assert (Pos : Forall (fun d => 0 < d) dims).
  { unfold dims, domain_shape. rewrite Forall_map. pose proof (mk_edges _ _ _ OK) as F. fold edges in F. clear -F.
    induction F as [|n e ns es H F IH]; constructor; [|exact IH]. destruct H as (_ & H & _). lia. }
  assert (Ni : nth i dims 0 = Z.of_nat (length e) - 1).
  { unfold dims, domain_shape. rewrite (nth_map_in _ edges i 0 []) by lia. reflexivity. }
  (* the domain of the second of the two blocks *)
  set (c := map (fun j => if (j =? i)%nat then Z.of_nat b else 0) (seq 0 (length dims))).
  assert (Ld : length dims = length edges) by (unfold dims, domain_shape; apply map_length).
  assert (Vc : valid_index dims c).
  { unfold valid_index. rewrite <- (map_nth_seq dims 0 (length dims) eq_refl) at 1. unfold c. apply F2_same. intros j Hj. apply in_seq in Hj.
    destruct (Nat.eqb_spec j i) as [->|]; [rewrite Ni; lia|]. pose proof (mesh_at dims j Pos ltac:(lia)). lia. }
  assert (Vb : forall ks, In ks blocks -> valid_index dims ks).
  { intros ks Hk. apply all_blocks_valid. exact (Permutation_in _ (mk_blocks _ _ _ OK) Hk). }
  assert (IL : exists il, map (ilocal_of edges) (local_i_start pt) = map Ret il /\ length il = length blocks /\
     Forall (fun d => 0 <= d < Z.of_nat (length blocks) /\ d <> ravel dims c) il).
  { rewrite (mk_start _ _ _ OK). fold edges. rewrite (P_prod _ _ _ OK). fold edges dims. clear OK. induction blocks as [|ks bs IH].
    - exists []. repeat split; constructor.
    - destruct IH as (il & I1 & I2 & I3); [intros k Hk; apply Vb; now right|]. destruct (firsts edges ks (Vb ks (or_introl eq_refl))) as (js & J1 & J2 & J3).
      exists (ravel dims js :: il). cbn [map length]. rewrite J1, I1. split; [reflexivity|]. split; [lia|]. constructor; [|exact I3].
      split; [now apply ravel_bound|]. intros E. apply ravel_inj in E; [|exact J2|exact Vc]. subst js.
      specialize (J3 i ltac:(lia)). fold e in J3. unfold c in J3. rewrite nth_map_seq, Nat.eqb_refl in J3 by lia. rewrite Nat2Z.id in J3.
      assert (Lk : (Z.to_nat (nth i ks 0%Z) < length e)%nat).
      { specialize (Vb ks (or_introl eq_refl)). unfold valid_index in Vb. pose proof (Forall2_at _ _ _ 0 0 Vb i ltac:(lia)) as X. cbn beta in X. rewrite Ni in X. lia. }
      destruct (first_index_le e (Z.to_nat (nth i ks 0)) Lk) as (j & K1 & K2 & K3). rewrite K1 in J3. injection J3 as ->.
      destruct (first_index_le e a ltac:(lia)) as (j' & A1 & A2 & A3). rewrite Eab, K3, K1 in A1. injection A1 as <-. lia. }
  destruct IL as (il & I1 & I2 & I3).
  assert (Lp : length (local_i_start pt) = length blocks) by (rewrite (mk_start _ _ _ OK); apply map_length).
  unfold ParticleMesh. fold edges. rewrite I1, all_ret_Ret, Lp, HB. cbn [bind]. fold dims.
  pose proof (P_prod _ _ _ OK) as PP. change (domain_shape (i_edges pt)) with dims in PP.
  assert (Sz : Z.to_nat (prodz dims) = length blocks) by (rewrite <- PP; apply Nat2Z.id).
  rewrite Sz. unfold GridND, domain_assign.
  assert (Dc : (Z.to_nat (ravel dims c) < length blocks)%nat).
  { pose proof (ravel_bound dims c Vc) as X. rewrite <- PP in X. lia. }
  rewrite (force_none _ (Z.to_nat (ravel dims c))).
  - cbn [bind]. rewrite <- (seq_length (length blocks) 0) at 2. now rewrite map_const_repeat.
  - apply assign_skips; [exact Dc|apply repeat_length| |].
    + apply Forall_forall. intros [r d] Hin. apply in_combine_r in Hin. rewrite Forall_forall in I3. specialize (I3 d Hin). cbn [snd].
      pose proof (ravel_bound dims c Vc). lia.
    + apply nth_error_repeat. exact Dc.
Qed.

(** * C88 *)
Lemma mkarr_length {A} (v : value A) n l : mkarr v n = Ret l -> length l = n.
Proof.
  destruct v as [a|k]; cbn [mkarr]; [intros E; injection E as <-; apply repeat_length|]. destruct (Nat.eqb_spec (length k) n) as [L|L]; [now intros E; injection E as <-|].
  destruct k as [|a [|? ?]]; try discriminate. intros E. injection E as <-. apply repeat_length.
Qed.
Lemma spread_dec n p : {spread n p} + {~ spread n p}.
Proof.
  unfold spread. destruct (Nat.eq_dec p 1) as [E|E]; [left; now left|]. destruct (Z_lt_dec ((Z.of_nat p - 2) * pfft_block n p) n) as [L|L]; [left; now right|].
  right. intros [X|X]; contradiction.
Qed.
Lemma not_spread Nmesh np : ~ spread_all Nmesh np -> exists i, (i < length Nmesh)%nat /\ ~ spread (nth i Nmesh 0) (nth i np 1%nat).
Proof.
  intros H. destruct (Forall_dec (fun i => spread (nth i Nmesh 0) (nth i np 1%nat)) (fun i => spread_dec _ _) (seq 0 (length Nmesh))) as [F|F].
  - exfalso. apply H. intros i Hi. rewrite Forall_forall in F. apply F, in_seq. lia.
  - apply neg_Forall_Exists_neg in F; [|intros i; apply spread_dec]. apply Exists_exists in F. destruct F as (i & Hi & N). apply in_seq in Hi. exists i. split; [lia|exact N].
Qed.
Lemma not_spread_edges n p : 0 < n -> (0 < p)%nat -> ~ spread n p -> let e := pfft_edges n p in
  exists a b, (a < b)%nat /\ (S b < length e)%nat /\ nth a e 0 = nth b e 0.
Proof.
  intros Hn Hp N e. destruct (block_bounds' n p Hn Hp) as (B1 & B2 & B3). unfold spread in N. exists (p - 2)%nat, (p - 1)%nat. unfold e. rewrite edges_len.
  assert (p <> 1%nat) by (intros E; apply N; now left). split; [lia|]. split; [lia|]. rewrite !edges_nth by lia.
  assert (X : n <= (Z.of_nat p - 2) * pfft_block n p) by (apply Z.nlt_ge; intros C; apply N; now right).
  replace (Z.of_nat (p - 2)) with (Z.of_nat p - 2) by lia. replace (Z.of_nat (p - 1)) with (Z.of_nat p - 1) by lia. nia.
Qed.

Section Statements.
Variables (split : nat -> list nat) (all_split : list Z -> list nat -> partition).
(** what the arguments of the constructor come to *)
Record arguments (size : nat) (Nmesh : list Z) (BoxSize : value Q) (t : dtype) (np : option (list nat)) (box : list Q) (np' : list nat) : Prop := {
  ag_np : process_mesh split size Nmesh np = Ret np';
  ag_ok : np_ok Nmesh np';
  ag_size : product np' = size;
  ag_dim : (length np' < length Nmesh)%nat;
  ag_box : mkarr BoxSize (length Nmesh) = Ret box;
  ag_dtype : t <> other_dtype
}.
Lemma create_made size Nmesh BoxSize t w np box np' : arguments size Nmesh BoxSize t np box np' ->
  create split all_split size Nmesh BoxSize t w np = map (fun o => bind o (fun p => Ret (mkMesh p np' t))) (ParticleMesh Nmesh (Array box) w (pfft_partition Nmesh np')).
Proof.
  intros [A1 A2 A3 A4 A5 A6]. unfold create.
  replace ((length Nmesh =? 1)%nat && negb (size =? 1)%nat) with false.
  - rewrite A1, A5. replace (product np' =? size)%nat with true by (symmetry; now apply Nat.eqb_eq).
    replace (length np' <=? length Nmesh)%nat with true by (symmetry; apply Nat.leb_le; lia). cbn [andb].
    unfold partition_of. replace (length np' <? length Nmesh)%nat with true by (symmetry; now apply Nat.ltb_lt). destruct t; try reflexivity. contradiction.
  - symmetry. destruct (Nat.eqb_spec (length Nmesh) 1) as [E|E]; [|reflexivity]. destruct np' as [|? ?]; [|simpl in A4; lia]. cbn in A3. subst size. reflexivity.
Qed.
Theorem C88_create : forall size Nmesh BoxSize t w np box np', arguments size Nmesh BoxSize t np box np' ->
  (spread_all Nmesh np' ->
   exists pms, create split all_split size Nmesh BoxSize t w np = map (fun p => Ret (mkMesh p np' t)) pms /\ length pms = size /\
     world Nmesh (Array box) box w (pfft_partition Nmesh np') (all_blocks (i_edges (pfft_partition Nmesh np'))) pms) /\
  (~ spread_all Nmesh np' -> create split all_split size Nmesh BoxSize t w np = repeat Garbage size).
Proof.
  intros size Nmesh BoxSize t w np box np' A. rewrite (create_made _ _ _ _ w _ _ _ A). destruct A as [A1 A2 A3 A4 A5 A6].
  pose proof (pfft_mesh_ok Nmesh np' A2) as OK. pose proof (mkarr_length _ _ _ A5) as Lb.
  assert (LP : length (all_blocks (i_edges (pfft_partition Nmesh np'))) = size) by (rewrite <- A3; apply pfft_ranks; [exact A2|lia]).
  assert (MB : mkarr (Array box) (length Nmesh) = Ret box) by now apply mkarr_array.
  split; intros H.
  - pose proof (proj1 (spread_distinct Nmesh np' A2) H) as D.
    exists (map (mesh_pm Nmesh (pfft_partition Nmesh np') (all_blocks (i_edges (pfft_partition Nmesh np'))) box w) (seq 0 size)).
    rewrite (ParticleMesh_ok _ _ _ OK (Array box) box w D MB Lb), LP, !map_map. split; [reflexivity|]. split; [now rewrite map_length, seq_length|].
    constructor; auto; [now right|]. rewrite map_map, <- LP. exact (ParticleMesh_ok _ _ _ OK (Array box) box w D MB Lb).
  - apply not_spread in H. destruct H as (i & Hi & N). destruct A2 as (H0 & HN & HP).
    destruct (not_spread_edges _ _ (mesh_at Nmesh i HN Hi) (np_at np' i HP) N) as (a & b & Hab & Hb & E).
    assert (Ei : nth i (i_edges (pfft_partition Nmesh np')) [] = pfft_edges (nth i Nmesh 0) (nth i np' 1%nat)).
    { cbn [i_edges pfft_partition]. now rewrite nth_map_seq by exact Hi. }
    rewrite <- Ei in Hb, E. rewrite (same_start_garbage Nmesh _ _ (Array box) box w OK MB i a b Hi Hab Hb E), LP.
    clear. induction size as [|n IH]; [reflexivity|]. cbn [repeat map bind]. now rewrite IH.
Qed.
(** the default process meshes *)
Theorem C88_defaults : forall size Nmesh BoxSize t box, (0 < size)%nat -> Forall (fun n => 0 < n) Nmesh -> mkarr BoxSize (length Nmesh) = Ret box -> t <> other_dtype ->
  (length Nmesh = 1%nat -> size = 1%nat -> arguments size Nmesh BoxSize t None box [] /\ spread_all Nmesh []) /\
  (length Nmesh = 1%nat -> size <> 1%nat -> forall w np, create split all_split size Nmesh BoxSize t w np = repeat (Raise ValueError) size) /\
  (length Nmesh = 2%nat -> arguments size Nmesh BoxSize t None box [size] /\ (spread_all Nmesh [size] <-> spread (nth 0 Nmesh 0) size)) /\
  ((3 <= length Nmesh)%nat -> forall a d, split size = [a; d] -> (a * d = size)%nat ->
     arguments size Nmesh BoxSize t None box [a; d] /\ (spread_all Nmesh [a; d] <-> spread (nth 0 Nmesh 0) a /\ spread (nth 1 Nmesh 0) d)).
Proof.
  intros size Nmesh BoxSize t box Hs HN HB Ht. split; [|split; [|split]].
  - intros L E. split.
    + constructor; auto; [unfold process_mesh; now rewrite L|split; [lia|auto]|simpl; lia].
    + intros i Hi. left. now destruct i.
  - intros L E w np. unfold create. rewrite L. destruct (Nat.eqb_spec size 1); [contradiction|]. reflexivity.
  - intros L. split.
    + constructor; auto; [unfold process_mesh; now rewrite L|split; [lia|auto]|cbn; lia|simpl; lia].
    + split; [intros H; apply (H O); lia|]. intros H i Hi. destruct i as [|[|i]]; [exact H|now left|lia].
  - intros L a d E1 E2. split.
    + constructor; auto; [unfold process_mesh; destruct Nmesh as [|? [|? [|? ?]]]; simpl in L; try lia; cbn [length]; now rewrite E1| |cbn; lia].
      split; [lia|]. split; [exact HN|]. repeat constructor; nia.
    + split; [intros H; split; [apply (H O)|apply (H 1%nat)]; lia|]. intros [H1 H2] i Hi. destruct i as [|[|i]]; [exact H1|exact H2|]. left. now destruct i.
Qed.
(** what is refused, on all ranks alike: an unknown dtype; no process mesh for a mesh of no
    dimension; a box of another dimension; a process mesh of another size, or of more axes *)
Theorem C88_refused : forall size Nmesh BoxSize t w np, (length Nmesh = 1%nat -> size = 1%nat) ->
  (Nmesh <> [] -> create split all_split size Nmesh BoxSize other_dtype w None = repeat (Raise ValueError) size) /\
  create split all_split size Nmesh BoxSize other_dtype w (Some np) = repeat (Raise ValueError) size /\
  (Nmesh = [] -> create split all_split size Nmesh BoxSize t w None = repeat (Raise TypeError) size) /\
  (forall l, BoxSize = Array l -> length l <> 1%nat -> length l <> length Nmesh ->
     create split all_split size Nmesh BoxSize t w (Some np) = repeat (Raise ValueError) size) /\
  (forall box, mkarr BoxSize (length Nmesh) = Ret box -> product np <> size \/ (length Nmesh < length np)%nat ->
     create split all_split size Nmesh BoxSize t w (Some np) = repeat (Raise ValueError) size).
Proof.
  intros size Nmesh BoxSize t w np H1.
  assert (E : ((length Nmesh =? 1)%nat && negb (size =? 1)%nat)%bool = false).
  { destruct (Nat.eqb_spec (length Nmesh) 1) as [e|e]; [|reflexivity]. rewrite (H1 e). reflexivity. }
  unfold create. rewrite E. split; [|split; [|split; [|split]]].
  - intros NE. unfold process_mesh. destruct Nmesh as [|a [|b [|c N]]]; [contradiction| | |]; reflexivity.
  - reflexivity.
  - intros ->. reflexivity.
  - intros l -> L1 LN. cbn [process_mesh]. unfold mkarr. destruct t; try reflexivity.
    all: destruct (Nat.eqb_spec (length l) (length Nmesh)) as [e|e]; [contradiction|]; destruct l as [|q [|q' l]]; cbn in L1; try lia; reflexivity.
  - intros box EB Hnp. cbn [process_mesh]. rewrite EB.
    assert (F : ((product np =? size)%nat && (length np <=? length Nmesh)%nat)%bool = false).
    { destruct Hnp as [Hp|Hp]; [apply Nat.eqb_neq in Hp; now rewrite Hp|]. apply Nat.leb_gt in Hp. rewrite Hp. apply andb_false_r. }
    rewrite F. destruct t; reflexivity.
Qed.
End Statements.
Print Assumptions C88_create.
Print Assumptions C88_defaults.
Print Assumptions C88_refused.
(** enough cells, or a divisor of the number of cells *)
Theorem C88_enough : forall n p, 0 < n -> (0 < p)%nat ->
  (spread n p <-> forall k, (S k < p)%nat -> nth k (pfft_edges n p) 0 < nth (S k) (pfft_edges n p) 0) /\
  ((Z.of_nat p - 1) * (Z.of_nat p - 2) < 2 * n -> spread n p) /\ ((Z.of_nat p | n) -> spread n p).
Proof.
  intros n p Hn Hp. split; [|split; [now apply spread_many|now apply spread_divides]]. destruct (block_bounds' n p Hn Hp) as (B1 & B2 & B3). split.
  - intros S k Hk. rewrite !edges_nth by lia. unfold spread in S. nia.
  - intros H. unfold spread. destruct (Nat.eq_dec p 1) as [E|E]; [now left|right]. specialize (H (p - 2)%nat ltac:(lia)). rewrite !edges_nth in H by lia. nia.
Qed.
Print Assumptions C88_enough.

(** ** reshape and respawn *)
Section Reshape.
Variables (split : nat -> list nat) (all_split : list Z -> list nat -> partition).
Local Notation create := (create split all_split).
Local Notation reshape := (reshape split all_split).
(** the meshes of all ranks after a call of the constructor *)
Definition made (ms : list mesh) (Nmesh : list Z) (box : list Q) (t : dtype) (w : window) (np : list nat) : Prop :=
  (0 < length ms)%nat /\ length box = length Nmesh /\ np_ok Nmesh np /\ (length np < length Nmesh)%nat /\
  create (length ms) Nmesh (Array box) t w (Some np) = map Ret ms.
Lemma made_at ms Nmesh box t w np : made ms Nmesh box t w np ->
  product np = length ms /\ t <> other_dtype /\
  Forall (fun m => pm_Nmesh (me_pm m) = Nmesh /\ pm_BoxSize (me_pm m) = box /\ pm_resampler (me_pm m) = w /\ me_np m = np /\ me_dtype m = t) ms.
Proof.
  intros (L & Lb & Hnp & Ln & E). unfold CreateModel.create in E.
  assert (X : forall e : outcome mesh, (forall m, e <> Ret m) -> repeat e (length ms) <> map Ret ms).
  { intros e N C. destruct ms as [|m ms]; [simpl in L; lia|]. cbn [length repeat map] in C. injection C as C1 _. now apply (N m). }
  destruct ((length Nmesh =? 1)%nat && negb (length ms =? 1)%nat); [exfalso; revert E; apply X; discriminate|].
  cbn [process_mesh] in E. rewrite (mkarr_array box _ Lb) in E.
  destruct ((product np =? length ms)%nat && (length np <=? length Nmesh)%nat) eqn:B; [|exfalso; revert E; destruct t; apply X; discriminate].
  assert (Ht : t <> other_dtype) by (intros ->; revert E; apply X; discriminate).
  apply andb_prop in B. destruct B as [B1 _]. apply Nat.eqb_eq in B1. split; [exact B1|]. split; [exact Ht|].
  assert (E' : map (fun o => bind o (fun p => Ret (mkMesh p np t))) (ParticleMesh Nmesh (Array box) w (partition_of all_split Nmesh np)) = map Ret ms) by (destruct t; [exact E..|contradiction]).
  clear E. unfold ParticleMesh in E'. destruct (all_ret _) as [il|].
  2:{ apply Forall_forall. intros m Hm. exfalso. assert (Hr : In (Ret m) (map Ret ms)) by now apply in_map. rewrite <- E' in Hr. apply in_map_iff in Hr. destruct Hr as (o & O1 & O2).
      unfold block_rest in O2. apply in_map_iff in O2. destruct O2 as (o' & <- & _). destruct o'; discriminate. }
  apply Forall_forall. intros m Hm. assert (Hr : In (Ret m) (map Ret ms)) by now apply in_map. rewrite <- E' in Hr. apply in_map_iff in Hr. destruct Hr as (o & O1 & O2).
  apply in_map_iff in O2. destruct O2 as (r & <- & _). rewrite (mkarr_array box _ Lb) in O1. cbn [bind] in O1.
  destruct (GridND _ _) as [g| | |]; try discriminate. cbn [bind] in O1. destruct (Affine _ _ _ _) as [af| | |]; try discriminate. cbn [bind] in O1.
  destruct (Affine _ _ _ _) as [ag| | |]; try discriminate. cbn [bind] in O1. injection O1 as <-. cbn [me_pm me_np me_dtype pm_Nmesh pm_BoxSize pm_resampler]. auto.
Qed.
(** what [reshape] makes of its arguments *)
Theorem C88_reshape : forall ms N B t w np, made ms N B t w np -> forall Nmesh BoxSize,
  let N' := match Nmesh with None => N | Some (Scalar n) => repeat n (length N) | Some (Array l) => l end in
  match BoxSize with
  | None => if (length N' <=? length N)%nat then reshape ms Nmesh BoxSize = create (length ms) N' (Array (firstn (length N') B)) t w (Some np)
            else reshape ms Nmesh BoxSize = repeat (Raise ValueError) (length ms)
  | Some (Scalar b) => reshape ms Nmesh BoxSize = create (length ms) N' (Array (repeat b (length N'))) t w (Some np)
  | Some (Array B') => if (length B' =? length N')%nat then reshape ms Nmesh BoxSize = create (length ms) N' (Array B') t w (Some np)
            else reshape ms Nmesh BoxSize = repeat (Raise ValueError) (length ms)
  end.
Proof.
  intros ms N B t w np M Nmesh BoxSize N'. pose proof (made_at _ _ _ _ _ _ M) as (_ & _ & F). destruct M as (L & Lb & _).
  destruct ms as [|m ms]; [simpl in L; lia|]. pose proof (Forall_inv F) as (F1 & F2 & F3 & F4 & F5).
  unfold CreateModel.reshape, reshape_args. rewrite F1, F2, F3, F4, F5.
  assert (EN : match Nmesh with None => N | Some (Scalar n) => map (fun _ => n) N | Some (Array l) => l end = N').
  { unfold N'. destruct Nmesh as [[n|l]|]; try reflexivity. symmetry. apply map_const_repeat. }
  rewrite EN. destruct BoxSize as [[b|B']|].
  - rewrite map_length, Nat.eqb_refl, map_const_repeat. reflexivity.
  - destruct (length B' =? length N')%nat; [reflexivity|]. symmetry. apply map_const_repeat.
  - rewrite firstn_length, Lb. destruct (Nat.leb_spec (length N') (length N)) as [X|X].
    + rewrite Nat.min_l, Nat.eqb_refl by exact X. reflexivity.
    + rewrite Nat.min_r by lia. destruct (Nat.eqb_spec (length N) (length N')); [lia|]. symmetry. apply map_const_repeat.
Qed.
Lemma create_length size Nmesh BoxSize t w np : np_ok Nmesh np -> product np = size -> (length np < length Nmesh)%nat ->
  length (create size Nmesh BoxSize t w (Some np)) = size.
Proof.
  intros Hnp Hs Hd. unfold CreateModel.create. destruct (_ && _); [apply repeat_length|]. cbn [process_mesh].
  assert (X : forall box, length (map (fun o => bind o (fun p => Ret (mkMesh p np t))) (ParticleMesh Nmesh (Array box) w (partition_of all_split Nmesh np))) = size).
  { intros box. rewrite map_length. unfold partition_of. destruct (Nat.ltb_spec (length np) (length Nmesh)); [|lia]. rewrite <- Hs, <- (pfft_ranks Nmesh np) by (assumption || lia).
    unfold ParticleMesh. destruct (all_ret _); [now rewrite map_length, seq_length; cbn [local_i_start pfft_partition]; rewrite map_length|].
    unfold block_rest. rewrite !map_length. cbn [local_i_start pfft_partition]. now rewrite map_length. }
  destruct t; try apply repeat_length; (destruct (mkarr _ _) as [box| | |]; try apply repeat_length; destruct (_ && _); [apply X|apply repeat_length]).
Qed.
(** without arguments it makes the same mesh again; and back again after a change of the
    number of cells, of the box, or of the dimension *)
Theorem C88_round_trip : forall ms N B t w np, made ms N B t w np ->
  reshape ms None None = map Ret ms /\
  forall N' B' ms', length B' = length N' -> np_ok N' np -> (length np < length N')%nat ->
  reshape ms (Some (Array N')) (Some (Array B')) = map Ret ms' ->
  reshape ms' (Some (Array N)) (Some (Array B)) = map Ret ms /\
  ((length N <= length N')%nat -> firstn (length N) B' = B -> resize split all_split ms' (Array N) = map Ret ms).
Proof.
  intros ms N B t w np M. pose proof M as (L & Lb & _ & _ & E). pose proof (made_at _ _ _ _ _ _ M) as (PP & _ & _). split.
  - pose proof (C88_reshape _ _ _ _ _ _ M None None) as R. cbv beta iota zeta in R. rewrite Nat.leb_refl in R. rewrite R. rewrite <- Lb, firstn_all. exact E.
  - intros N' B' ms' LB' OK' Ld E'. pose proof (C88_reshape _ _ _ _ _ _ M (Some (Array N')) (Some (Array B'))) as R. cbv beta iota zeta in R.
    rewrite (proj2 (Nat.eqb_eq _ _) LB'), E' in R.
    assert (LL : length ms' = length ms).
    { rewrite <- (map_length Ret ms'), R. now apply create_length. }
    assert (M' : made ms' N' B' t w np) by (split; [lia|]; split; [exact LB'|]; split; [exact OK'|]; split; [exact Ld|]; rewrite LL; now symmetry).
    clear R. split.
    + pose proof (C88_reshape _ _ _ _ _ _ M' (Some (Array N)) (Some (Array B))) as R. cbv beta iota zeta in R. rewrite Lb, Nat.eqb_refl, LL in R. now rewrite R.
    + intros X EB. pose proof (C88_reshape _ _ _ _ _ _ M' (Some (Array N)) None) as R. cbv beta iota zeta in R. unfold resize. destruct (Nat.leb_spec (length N) (length N')); [|lia].
      rewrite R, EB, LL. exact E.
Qed.
(** on other ranks: the same mesh; and back again *)
Theorem C88_respawn : forall ms N B t w np, made ms N B t w np -> forall m, In m ms -> forall size np',
  respawn split all_split m size np' = create size N (Array B) t w np' /\
  forall ms' np1, made ms' N B t w np1 -> forall m', In m' ms' -> respawn split all_split m' (length ms) (Some np) = map Ret ms.
Proof.
  intros ms N B t w np M m Hm size np'. pose proof (made_at _ _ _ _ _ _ M) as (_ & _ & F). rewrite Forall_forall in F. destruct (F m Hm) as (F1 & F2 & F3 & F4 & F5).
  split; [unfold respawn; now rewrite F1, F2, F3, F5|]. intros ms' np1 M' m' Hm'. pose proof (made_at _ _ _ _ _ _ M') as (_ & _ & F'). rewrite Forall_forall in F'.
  destruct (F' m' Hm') as (G1 & G2 & G3 & G4 & G5). unfold respawn. rewrite G1, G2, G3, G5. apply M.
Qed.
End Reshape.
Print Assumptions C88_reshape.
Print Assumptions C88_round_trip.
Print Assumptions C88_respawn.

(** 9 x 5 cells on 7 ranks: blocks of 2 rows leave two ranks without rows, and the constructor
    leaves a domain without a rank; 16 x 5 cells are fine, so that reshape can break a mesh *)
Theorem C88_blocks_refuted : forall split all_split w, 
  create split all_split 7 [9; 5]%Z (Scalar 1%Q) f8 w None = repeat Garbage 7 /\
  exists ms, create split all_split 7 [16; 5]%Z (Scalar 1%Q) f8 w None = map Ret ms /\ reshape split all_split ms (Some (Array [9; 5]%Z)) None = repeat Garbage 7.
Proof.
  intros split all_split w.
  assert (A : forall n, 0 < n -> arguments split 7 [n; 5] (Scalar 1%Q) f8 None [1%Q; 1%Q] [7%nat]).
  { intros n Hn. constructor; try reflexivity; [|simpl; lia|discriminate]. split; [simpl; lia|]. split; repeat constructor; lia. }
  assert (G : forall np, process_mesh split 7 [9; 5] np = Ret [7%nat] -> create split all_split 7 [9; 5] (Array [1%Q; 1%Q]) f8 w np = repeat Garbage 7).
  { intros np Hnp. assert (A' : arguments split 7 [9; 5] (Array [1%Q; 1%Q]) f8 np [1%Q; 1%Q] [7%nat]).
    { destruct (A 9 ltac:(lia)) as [_ A2 A3 A4 _ A6]. constructor; try assumption. reflexivity. }
    apply (proj2 (C88_create split all_split _ _ _ _ w _ _ _ A')). intros H. specialize (H O ltac:(simpl; lia)). cbn [nth] in H. destruct H as [H|H]; [discriminate|]. vm_compute in H. discriminate. }
  split.
  - apply (proj2 (C88_create split all_split _ _ _ _ w _ _ _ (A 9 ltac:(lia)))). intros H. specialize (H O ltac:(simpl; lia)). cbn [nth] in H.
    destruct H as [H|H]; [discriminate|]. vm_compute in H. discriminate.
  - destruct (proj1 (C88_create split all_split _ _ _ _ w _ _ _ (A 16 ltac:(lia)))) as (pms & E & L & W).
    { intros [|[|i]] Hi; [right; reflexivity|now left|simpl in Hi; lia]. }
    exists (map (fun p => mkMesh p [7%nat] f8) pms). rewrite map_map. split; [exact E|].
    assert (M : made split all_split (map (fun p => mkMesh p [7%nat] f8) pms) [16; 5] [1%Q; 1%Q] f8 w [7%nat]).
    { split; [rewrite map_length; lia|]. split; [reflexivity|]. destruct (A 16 ltac:(lia)) as [_ A2 _ A4 _ _]. split; [exact A2|]. split; [exact A4|]. rewrite map_length, L, map_map, <- E. reflexivity. }
    pose proof (C88_reshape split all_split _ _ _ _ _ _ M (Some (Array [9; 5]%Z)) None) as R. cbv beta iota zeta in R. cbn [length Nat.leb] in R.
    rewrite R, map_length, L. cbn [firstn]. apply G. reflexivity.
Qed.
Print Assumptions C88_blocks_refuted.
(** six ranks do not make a process mesh of 2 x 2, and a box of three sizes is not that of two axes *)
Example C88_refused_case : forall split all_split w, (length [4; 7] = 1%nat -> 6%nat = 1%nat) /\
  create split all_split 6 [4; 7] (Scalar 2%Q) f8 w (Some [2; 2]%nat) = repeat (Raise ValueError) 6 /\
  create split all_split 6 [4; 7] (Array [1; 2; 3]%Q) f8 w (Some [6]%nat) = repeat (Raise ValueError) 6.
Proof. intros split all_split w. split; [intros H; cbn in H; lia|]. split; reflexivity. Qed.
(** a mesh of three dimensions on six ranks, and the same after two changes of its cells *)
Example C88_case :
  let split := fun _ => [2; 3]%nat in let part := pfft_partition in
  map (fun o => match o with Ret m => Some (pm_start (me_pm m), pm_shape (me_pm m)) | _ => None end) (create split part 6 [4; 7; 2] (Scalar 2%Q) f8 ex_cic None) =
  map Some [([0; 0; 0], [2; 3; 2]); ([0; 3; 0], [2; 3; 2]); ([0; 6; 0], [2; 1; 2]); ([2; 0; 0], [2; 3; 2]); ([2; 3; 0], [2; 3; 2]); ([2; 6; 0], [2; 1; 2])] /\
  exists ms ms', create split part 6 [4; 7; 2] (Scalar 2%Q) f8 ex_cic None = map Ret ms /\
    reshape split part ms (Some (Scalar 8)) None = map Ret ms' /\ resize split part ms' (Array [4; 7; 2]) = map Ret ms /\
    reshape split part ms (Some (Array [4; 7; 2; 2])) None = repeat (Raise ValueError) 6.
Proof. cbv zeta. split; [vm_compute; reflexivity|]. set (rets := flat_map (fun o : outcome mesh => match o with Ret m => [m] | _ => [] end)).
  exists (rets (create (fun _ => [2; 3]%nat) pfft_partition 6 [4; 7; 2] (Scalar 2%Q) f8 ex_cic None)).
  exists (rets (create (fun _ => [2; 3]%nat) pfft_partition 6 [8; 8; 8] (Scalar 2%Q) f8 ex_cic None)).
  split; [vm_compute; reflexivity|]. split; [vm_compute; reflexivity|]. split; vm_compute; reflexivity.
Qed.
