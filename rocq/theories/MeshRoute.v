(** Where the window of a particle reaches, and which ranks get the particle. *)
From Coq Require Import List Arith ZArith QArith Qabs Qround Lqa Lia Bool Sorted Permutation Setoid Morphisms.
From Verif Require Import Base ListFacts LayoutModel LayoutSpec LayoutProofs WrapModel WrapProofs DomainModel DomainFill DomainGeom DomainTargets
  DomainHome DomainProperties QSum WindowModel WindowStencil WindowSpread WindowKernels WindowAxis WindowNative WindowApi WindowPoints
  WindowGrad WindowTranslate WindowProperties MeshModel MeshAssign.
Import ListNotations.
Local Open Scope Q_scope.

(** ** One axis: cells with weight are within half of the support *)

Lemma wsum_absent l i : ~ In i (map fst l) -> wsum l i == 0.
Proof.
  intros H. unfold wsum. apply qsum_zero. intros [j q] Hin. cbn [fst snd].
  destruct (Z.eqb_spec j i) as [->|N]; [|reflexivity].
  exfalso. apply H. apply in_map_iff. exists (i, q). auto.
Qed.

(** windows that vanish beyond their support, or whose support is a whole number of
    cells *)
Definition bounded (p : painter) (h : Q) : Prop :=
  confined_kind (pt_kind p) \/
  eff_support (native_of (pt_kind p)) (inject_Z (pt_support p) * h) == inject_Z (reach p h).

Lemma first_point_tight e n g j : inject_Z n - 1 < e <= inject_Z n ->
  (first_point e n g <= j < first_point e n g + n)%Z -> g + e / 2 - inject_Z n < inject_Z j <= g + e / 2.
Proof.
  intros [E1 E2] [J1 J2]. unfold first_point in *.
  pose proof (Qfloor_bounds (g + e / 2)) as [F1 F2].
  assert (A : inject_Z (Qfloor (g + e / 2) - n + 1) <= inject_Z j) by (rewrite <- Zle_Qle; lia).
  assert (B : inject_Z j <= inject_Z (Qfloor (g + e / 2))) by (rewrite <- Zle_Qle; lia).
  unfold Z.sub in A. rewrite !inject_Z_plus, inject_Z_opp in A. change (inject_Z 1) with 1 in A.
  split; lra.
Qed.

Lemma axis_support p h a x i : proper_kind (pt_kind p) -> bounded p h -> (0 <= ax_period a)%Z ->
  wsum (axis_points p h a x) i == 0 \/
  exists j, wrap_axis a j = i /\
    grid_pos a x - inject_Z (reach p h) / 2 < inject_Z j <= grid_pos a x + inject_Z (reach p h) / 2.
Proof.
  intros Hk Hb Hp. unfold axis_points.
  destruct (getfastmethod p (window_for p h)) as [f|] eqn:G.
  - destruct (getfastmethod_setup _ _ _ G) as (S & W & _). unfold reach. rewrite W.
    destruct (in_dec Z.eq_dec i (map fst (tuned_points (f_setup f) a x))) as [I|I].
    + right. rewrite (tuned_points_fst _ _ a x S Hp) in I. apply in_map_iff in I.
      destruct I as [j [E Hj]]. exists j. split; [exact E|]. apply in_zrange in Hj.
      rewrite Z2Nat.id in Hj by (destruct Hk; lia).
      assert (X : inject_Z (native_of (pt_kind p)) - 1 < inject_Z (native_of (pt_kind p)) <= inject_Z (native_of (pt_kind p))) by (split; lra).
      pose proof (first_point_tight _ _ _ _ X Hj) as T.
      clear Hj. revert T. generalize (inject_Z (native_of (pt_kind p))) as n. intros n T.
      unfold Qdiv in *. change (/ 2) with (1#2) in *. split; lra.
    + left. apply wsum_absent. exact I.
  - unfold reach, window_for.
    set (k := pt_kind p) in *. set (s := inject_Z (pt_support p) * h) in *.
    set (e := eff_support (native_of k) s).
    destruct (window_info_ok (native_of k) s (proj1 Hk)) as ([W1 W2] & _). fold e in W1, W2.
    pose proof (generic_points_line k s a x Hk) as F. cbv zeta in F. fold e in F.
    unfold bounded in Hb. fold k in Hb. unfold reach, window_for in Hb. fold k s in Hb. fold e in Hb.
    set (n := wi_support (window_info_init (native_of k) s)) in *.
    rewrite (pair_eq_wsum _ _ i F).
    set (L := zrange (first_point e n (grid_pos a x)) (Z.to_nat n)) in *.
    set (ok := fun j => (wrap_axis a j =? i)%Z &&
       (Qltb (grid_pos a x - inject_Z n / 2) (inject_Z j) && Qle_bool (inject_Z j) (grid_pos a x + inject_Z n / 2))).
    destruct (existsb ok L) eqn:X.
    + right. apply existsb_exists in X. destruct X as [j [_ Hj]]. unfold ok in Hj.
      apply andb_prop in Hj. destruct Hj as [J1 J2]. apply andb_prop in J2. destruct J2 as [J2 J3].
      exists j. split; [apply Z.eqb_eq; exact J1|]. split.
      * destruct (Qltb_case (grid_pos a x - inject_Z n / 2) (inject_Z j)); [assumption|discriminate].
      * apply Qle_bool_iff. exact J3.
    + left. unfold wsum. rewrite qsum_map. apply qsum_zero. intros j Hj. cbn [fst snd].
      destruct (Z.eqb_spec (wrap_axis a j) i) as [Ei|]; [|reflexivity].
      assert (N : ok j = false).
      { destruct (ok j) eqn:O; [|reflexivity]. exfalso.
        assert (existsb ok L = true) by (apply existsb_exists; exists j; auto). congruence. }
      unfold ok in N. rewrite Ei, Z.eqb_refl in N. cbn [andb] in N.
      assert (D : ~ (grid_pos a x - inject_Z n / 2 < inject_Z j /\ inject_Z j <= grid_pos a x + inject_Z n / 2)).
      { intros [D1 D2]. apply Bool.andb_false_iff in N. destruct N as [N|N].
        - destruct (Qltb_case (grid_pos a x - inject_Z n / 2) (inject_Z j)); [discriminate|lra].
        - rewrite (proj2 (Qle_bool_iff _ _) D2) in N. discriminate. }
      destruct Hb as [Hc|He].
      * apply line_weight_zero; [exact Hk|exact Hc|apply eff_support_pos; exact (proj1 Hk)|].
        intros [D1 D2]. apply D. revert W2 D1 D2. generalize e (inject_Z n) (inject_Z j) (grid_pos a x).
        intros e0 n0 j0 g0 W D1 D2. unfold Qdiv in *. change (/ 2) with (1#2) in *. split; lra.
      * exfalso. apply D. apply in_zrange in Hj.
        assert (N0 : (0 < n)%Z) by (apply window_info_support; exact (proj1 Hk)).
        rewrite Z2Nat.id in Hj by lia.
        pose proof (first_point_tight _ _ _ _ (conj W1 W2) Hj) as [T1 T2].
        revert He T1 T2. generalize e (inject_Z n) (inject_Z j) (grid_pos a x).
        intros e0 n0 j0 g0 W D1 D2. unfold Qdiv in *. change (/ 2) with (1#2) in *. split; lra.
Qed.

(** ** From axes to all dimensions *)

Lemma all_axes_nth (R : list Q -> Q -> Q -> Z -> Prop) edges sm x ks :
  length sm = length edges -> (length edges <= length x)%nat -> length ks = length edges ->
  (forall i, (i < length edges)%nat -> R (nth i edges []) (nth i sm 0) (nth i x 0) (nth i ks 0%Z)) ->
  all_axes R edges sm x ks.
Proof.
  revert sm x ks. induction edges as [|e es IH]; intros sm x ks L1 L2 L3 H.
  - destruct ks; simpl in L3; [|lia]. destruct sm; simpl in *; exact Logic.I.
  - destruct sm as [|s ss]; simpl in L1; [lia|]. destruct x as [|c cs]; simpl in L2; [lia|].
    destruct ks as [|k ks]; simpl in L3; [lia|]. cbn [all_axes]. split.
    + exact (H O ltac:(simpl; lia)).
    + apply IH; try lia. intros i Hi. exact (H (S i) ltac:(simpl; lia)).
Qed.

Lemma gaps_ok_nth edges sm x :
  (forall i, (i < length edges)%nat -> (i < length sm)%nat -> gap_ok (nth i edges []) (nth i sm 0) (nth i x 0)) ->
  gaps_ok edges sm x.
Proof.
  revert sm x. induction edges as [|e es IH]; intros sm x H; [exact Logic.I|].
  destruct sm as [|s ss]; [exact Logic.I|]. destruct x as [|c cs]; [exact Logic.I|]. cbn [gaps_ok]. split.
  - exact (H O ltac:(simpl; lia) ltac:(simpl; lia)).
  - apply IH. intros i H1 H2. exact (H (S i) ltac:(simpl; lia) ltac:(simpl; lia)).
Qed.

Lemma forall_or_exists (A B : nat -> Prop) n : (forall i, (i < n)%nat -> A i \/ B i) ->
  (exists i, (i < n)%nat /\ A i) \/ (forall i, (i < n)%nat -> B i).
Proof.
  induction n as [|n IH]; intros H; [right; intros; lia|].
  destruct IH as [(i & Hi & Ai)|Hall]; [intros; apply H; lia| |].
  - left. exists i. split; [lia|exact Ai].
  - destruct (H n ltac:(lia)) as [X|X]; [left; exists n; split; [lia|exact X]|].
    right. intros i Hi. destruct (Nat.eq_dec i n) as [->|N]; [exact X|apply Hall; lia].
Qed.

Lemma exists_list {A} (R : nat -> A -> Prop) (d : A) n : (forall i, (i < n)%nat -> exists a, R i a) ->
  exists l, length l = n /\ forall i, (i < n)%nat -> R i (nth i l d).
Proof.
  induction n as [|n IH]; intros H; [exists []; split; [reflexivity|intros; lia]|].
  destruct IH as (l & L & Hl); [intros; apply H; lia|]. destruct (H n ltac:(lia)) as [a Ha].
  exists (l ++ [a]). split; [rewrite app_length; simpl; lia|].
  intros i Hi. destruct (Nat.eq_dec i n) as [->|N].
  - rewrite app_nth2 by lia. rewrite L, Nat.sub_diag. exact Ha.
  - rewrite app_nth1 by lia. apply Hl. lia.
Qed.

Lemma qprod_map_zero (f : nat -> Q) l i : In i l -> f i == 0 -> qprod (map f l) == 0.
Proof.
  intros H E. induction l as [|x l IH]; [contradiction|]. cbn [map qprod fold_right].
  change (fold_right Qmult 1 (map f l)) with (qprod (map f l)).
  destruct H as [->|H]; [rewrite E; ring|rewrite IH by exact H; ring].
Qed.

(** componentwise sum of two indices *)
Definition zadd (a b : list Z) : list Z := map (fun p => (fst p + snd p)%Z) (combine a b).
Lemma zadd_nth a b i : length a = length b -> nth i (zadd a b) 0%Z = (nth i a 0 + nth i b 0)%Z.
Proof.
  revert b i. induction a as [|x a IH]; intros [|y b] i L; simpl in L; try lia.
  - destruct i; reflexivity.
  - destruct i as [|i]; [reflexivity|]. cbn [zadd combine map nth fst snd]. apply IH. lia.
Qed.
Lemma zadd_length a b : length a = length b -> length (zadd a b) = length a.
Proof. intros L. unfold zadd. rewrite map_length, combine_length. lia. Qed.

Section Mesh.
Variables (Nmesh : list Z) (pt : partition) (blocks : list (list Z)).
Hypothesis (OK : mesh_ok Nmesh pt blocks).
Local Notation edges := (i_edges pt).
Local Notation P := (length blocks).
Local Notation nd := (length Nmesh).
Local Notation start r := (block_start edges (block blocks r)).
Local Notation shape r := (block_shape edges (block blocks r)).

(** an array of the given shape whose elements do not share memory *)
Definition stored (real : array) (sh : list Z) : Prop :=
  ar_shape real = sh /\ length (ar_strides real) = length sh /\ no_overlap real.
(** the transform of a process that holds the whole mesh *)
Definition whole_affine (scale : list Q) : affine :=
  {| af_scale := scale; af_translate := map (fun _ => 0) Nmesh; af_period := Nmesh |}.

Lemma block_nth r i : (r < P)%nat -> (i < nd)%nat ->
  let e := nth i edges [] in let k := Z.to_nat (nth i (block blocks r) 0%Z) in
  edges_ok (nth i Nmesh 0%Z) e /\ (S k < length e)%nat /\ (0 <= nth i (block blocks r) 0)%Z /\
  nth i (start r) 0%Z = nth k e 0%Z /\ nth i (shape r) 0%Z = (nth (S k) e 0 - nth k e 0)%Z.
Proof.
  intros Hr Hi e k. pose proof (block_valid _ _ _ OK r Hr) as V.
  pose proof (edges_length _ _ _ OK) as Le. pose proof (mk_edges _ _ _ OK) as Me.
  assert (Lb : length (block blocks r) = length edges).
  { apply Forall2_len in V. unfold domain_shape in V. rewrite map_length in V. lia. }
  unfold block_start, block_shape in *. unfold e, k. clear e k.
  revert Hi Le Lb V Me. generalize (block blocks r) as ks. generalize edges as es. clear OK Hr. generalize Nmesh as ns.
  intros ns es. revert ns i. induction es as [|e es IH]; intros ns i ks Hi Le Lb V Me; [simpl in Le; lia|].
  destruct ks as [|k ks]; [simpl in Lb; lia|]. destruct ns as [|n ns]; [simpl in Le; lia|].
  inversion V as [|? ? ? ? Vk V']; subst. inversion Me as [|? ? ? ? Mn M']; subst.
  destruct i as [|i].
  - cbn [nth combine map fst snd]. repeat split; try exact Mn; try apply Mn; lia.
  - cbn [nth combine map]. apply IH; auto; simpl in *; lia.
Qed.

Lemma block_bounds r i : (r < P)%nat -> (i < nd)%nat ->
  (0 <= nth i (start r) 0)%Z /\ (0 <= nth i (shape r) 0)%Z /\
  (nth i (start r) 0 + nth i (shape r) 0 <= nth i Nmesh 0)%Z /\ (0 < nth i Nmesh 0)%Z.
Proof.
  intros Hr Hi. destruct (block_nth r i Hr Hi) as ((N & L & S & Z0 & E) & K & _ & -> & ->).
  set (e := nth i edges []) in *. set (k := Z.to_nat (nth i (block blocks r) 0%Z)) in *.
  pose proof (Zsorted_nth e 0 k S ltac:(lia) ltac:(lia)) as A1.
  pose proof (Zsorted_nth e k (Datatypes.S k) S ltac:(lia) ltac:(lia)) as A2.
  pose proof (Zsorted_nth e (Datatypes.S k) (length e - 1) S ltac:(lia) ltac:(lia)) as A3.
  rewrite nth_last, E in A3. rewrite Z0 in A1. lia.
Qed.

Lemma start_length r : (r < P)%nat -> length (start r) = nd.
Proof. apply block_start_length. exact OK. Qed.

Section Calls.
Variables (w : window) (scale : list Q) (d : option Z) (real : array) (whole : array) (r : nat).
Hypothesis (Hk : proper_kind (w_kind w)) (Hs : length scale = nd) (Hr : (r < P)%nat).
Hypothesis (HR : stored real (shape r)) (HW : stored whole Nmesh).
Local Notation tl := (affine_at Nmesh pt blocks scale r).
Local Notation tw := (whole_affine scale).
Local Notation pl := (painter_of w real tl d).
Local Notation pw := (painter_of w whole tw d).

Lemma real_dim : length (ar_shape real) = nd.
Proof. rewrite (proj1 HR). apply (block_shape_length _ _ _ OK). exact Hr. Qed.
Lemma whole_dim : length (ar_shape whole) = nd.
Proof. rewrite (proj1 HW). reflexivity. Qed.

Lemma wf_local : wf_call real tl.
Proof.
  unfold wf_call. cbv zeta. rewrite real_dim. destruct HR as (A & B & C).
  cbn [af_scale af_translate af_period affine_at]. rewrite map_length, (start_length r Hr).
  repeat split; auto; try exact (mk_dim _ _ _ OK). rewrite B. apply (block_shape_length _ _ _ OK). exact Hr.
Qed.
Lemma wf_whole : wf_call whole tw.
Proof.
  unfold wf_call. cbv zeta. rewrite whole_dim. destruct HW as (A & B & C).
  cbn [af_scale af_translate af_period whole_affine]. rewrite map_length.
  repeat split; auto; try exact (mk_dim _ _ _ OK).
Qed.

Lemma points_local_whole h : axis_points pl h = axis_points pw h.
Proof.
  apply axis_points_same; try reflexivity.
  destruct (axes_spec w real tl d wf_local) as (O1 & _). destruct (axes_spec w whole tw d wf_whole) as (O2 & _).
  rewrite O1, O2, real_dim, whole_dim. reflexivity.
Qed.

Lemma period_pos i : (i < nd)%nat -> (0 < ax_period (axis_of whole tw d i))%Z.
Proof. intros Hi. cbn [ax_period axis_of af_period whole_affine]. apply (block_bounds r i Hr Hi). Qed.

Lemma axis_shift i x : (i < nd)%nat ->
  displaced (axis_of whole tw d i) x (axis_of real tl d i) x (- nth i (start r) 0%Z).
Proof.
  intros Hi. unfold displaced, axis_of, grid_pos.
  cbn [ax_period ax_order ax_scale ax_translate af_scale af_translate af_period affine_at whole_affine].
  rewrite real_dim, whole_dim. repeat split; auto; try (right; reflexivity).
  rewrite (nth_map_in _ _ i 0 0%Z) by (rewrite (start_length r Hr); exact Hi).
  rewrite (nth_map_in _ _ i 0 0%Z) by exact Hi. ring.
Qed.

(** ** A cell of the local array weighs as the cell of the whole mesh it is *)
Lemma weight_local h x idx : length x = nd -> In idx (elements real) ->
  weight_of pl h x idx == weight_of pw h x (zadd idx (start r)).
Proof.
  intros Lx Hin. pose proof (elements_length _ _ Hin) as Li. rewrite real_dim in Li.
  rewrite weight_of_prod; [|exact wf_local|rewrite real_dim; exact Lx|rewrite real_dim; exact Li].
  rewrite weight_of_prod; [|exact wf_whole|rewrite whole_dim; exact Lx|
    rewrite whole_dim, zadd_length by (rewrite (start_length r Hr); exact Li); exact Li].
  rewrite real_dim, whole_dim. apply qprod_map_ext. intros i Hi. apply in_seq in Hi. assert (Hi' : (i < nd)%nat) by lia.
  rewrite zadd_nth by (rewrite (start_length r Hr); exact Li).
  rewrite points_local_whole.
  pose proof (axis_points_translate pw h _ _ _ _ _ Hk (Z.lt_le_incl _ _ (period_pos i Hi')) (axis_shift i (nth i x 0) Hi')) as T.
  rewrite (pair_eq_wsum _ _ _ T).
  pose proof (elements_bound _ _ i Hin ltac:(rewrite real_dim; exact Hi')) as B. rewrite (proj1 HR) in B.
  pose proof (block_bounds r i Hr Hi') as (B1 & B2 & B3 & B4).
  rewrite wsum_moved_periodic.
  - cbn [ax_period axis_of af_period whole_affine]. rewrite Z.mod_small by lia.
    replace (nth i idx 0 - - nth i (start r) 0)%Z with (nth i idx 0 + nth i (start r) 0)%Z by lia. reflexivity.
  - apply period_pos. exact Hi'.
  - cbn [ax_period axis_of af_period whole_affine]. lia.
  - apply axis_points_in_period; [exact Hk|apply period_pos; exact Hi'].
Qed.

(** the cell is one of the whole mesh *)
Lemma zadd_in idx : In idx (elements real) -> In (zadd idx (start r)) (elements whole).
Proof.
  intros Hin. pose proof (elements_length _ _ Hin) as Li. rewrite real_dim in Li.
  apply in_box. rewrite (proj1 HW).
  assert (La : length (zadd idx (start r)) = nd) by (rewrite zadd_length; rewrite ?(start_length r Hr); exact Li).
  assert (G : forall i, (i < nd)%nat -> (0 <= nth i (zadd idx (start r)) 0 < nth i Nmesh 0)%Z).
  { intros i Hi. rewrite zadd_nth by (rewrite (start_length r Hr); exact Li).
    pose proof (elements_bound _ _ i Hin ltac:(rewrite real_dim; exact Hi)) as B. rewrite (proj1 HR) in B.
    pose proof (block_bounds r i Hr Hi). lia. }
  clear -La G. revert La G. generalize (zadd idx (start r)) as l. generalize Nmesh as ns.
  induction ns as [|n ns IH]; intros [|z l] La G; simpl in La; try lia; constructor.
  - exact (G O ltac:(simpl; lia)).
  - apply IH; [lia|]. intros i Hi. exact (G (S i) ltac:(simpl; lia)).
Qed.

(** ** Particles with weight on a rank are sent to it *)
Variable sm : list Q.
Hypothesis (Hsm : length sm = nd) (Hpos : Forall (fun s => 0 <= s) sm).
(** the smoothing length and any block leave room on the axis, or the block is all of it *)
Definition room : Prop := forall i k, (i < nd)%nat -> (S k < length (nth i edges []))%nat ->
  let width := (nth (S k) (nth i edges []) 0 - nth k (nth i edges []) 0)%Z in
  nth i sm 0 + inject_Z width <= inject_Z (nth i Nmesh 0%Z) \/ width = nth i Nmesh 0%Z.
Hypothesis (Hroom : room) (Hord : plain_order pt blocks).
Local Notation g := (mesh_grid pt blocks).

Lemma qedges_nth i k : E (nth i (qedges pt) []) k = inject_Z (nth k (nth i edges []) 0%Z).
Proof.
  unfold E, qedges. change (@nil Q) with (map inject_Z []). rewrite map_nth.
  change 0 with (inject_Z 0). apply map_nth.
Qed.
Lemma qedges_nth_length i : length (nth i (qedges pt) []) = length (nth i edges []).
Proof. unfold qedges. change (@nil Q) with (map inject_Z []). rewrite map_nth. apply map_length. Qed.
Lemma qedges_length : length (qedges pt) = nd.
Proof. unfold qedges. rewrite map_length. apply (edges_length _ _ _ OK). Qed.
Lemma period_nth i : (i < nd)%nat -> period (nth i (qedges pt) []) = inject_Z (nth i Nmesh 0%Z).
Proof.
  intros Hi. destruct (block_nth r i Hr Hi) as ((N & L & S & Z0 & E0) & _).
  rewrite period_E by (rewrite qedges_nth_length; lia). rewrite qedges_nth, qedges_nth_length, nth_last, E0. reflexivity.
Qed.

Lemma mesh_wf_axes : wf_axes g.
Proof.
  unfold wf_axes. cbn [g_periodic g_edges mesh_grid]. exact (qaxis_ok _ _ _ OK).
Qed.
Lemma transform0_length t x : length (transform0 t x) = Nat.min (length (af_scale t)) (length x).
Proof. unfold transform0. rewrite map_length, combine_length. reflexivity. Qed.
Lemma transform0_nth x i : length x = nd -> (i < nd)%nat ->
  nth i (transform0 tl x) 0 == nth i scale 0 * nth i x 0.
Proof.
  intros Lx Hi. unfold transform0. cbn [af_scale affine_at].
  rewrite (nth_map_in _ _ i 0 (0, 0)) by (rewrite combine_length; lia).
  rewrite combine_nth by lia. reflexivity.
Qed.
Lemma mesh_wf_input x : length x = nd -> wf_input g sm (transform0 tl x).
Proof.
  intros Lx. unfold wf_input. cbn [g_edges mesh_grid]. rewrite qedges_length, transform0_length.
  cbn [af_scale affine_at]. repeat split; auto; lia.
Qed.
Lemma mesh_smoothing_ok x : smoothing_ok g sm x.
Proof.
  intros _. cbn [g_edges mesh_grid]. apply gaps_ok_nth. rewrite qedges_length. intros i Hi _.
  unfold gap_ok. rewrite qedges_nth_length. intros k K _ _. rewrite !qedges_nth, (period_nth i Hi).
  destruct (Hroom i k Hi ltac:(lia)) as [H|H].
  - left. unfold Z.sub in H. rewrite inject_Z_plus, inject_Z_opp in H. lra.
  - right. rewrite <- H. unfold Z.sub. rewrite inject_Z_plus, inject_Z_opp. lra.
Qed.

(** also where the particle has moved away from the position [x0] that was decomposed *)
Lemma unsent_no_weight_moved h x x0 idx : length x = nd -> length x0 = nd -> In idx (elements real) -> bounded pl h ->
  (forall i, (i < nd)%nat -> inject_Z (reach pl h) / 2 + Qabs (nth i scale 0 * nth i x 0 - nth i scale 0 * nth i x0 0) <= nth i sm 0) ->
  ~ In r (targets g sm (transform0 tl x0)) -> weight_of pl h x idx == 0.
Proof.
  intros Lx Lx0 Hin Hb Hreach Hnot. pose proof (elements_length _ _ Hin) as Li. rewrite real_dim in Li.
  rewrite weight_of_prod; [|exact wf_local|rewrite real_dim; exact Lx|rewrite real_dim; exact Li]. rewrite real_dim.
  destruct (forall_or_exists
     (fun i => wsum (axis_points pl h (axis_of real tl d i) (nth i x 0)) (nth i idx 0%Z) == 0)
     (fun i => exists j, wrap_axis (axis_of real tl d i) j = nth i idx 0%Z /\
        grid_pos (axis_of real tl d i) (nth i x 0) - inject_Z (reach pl h) / 2 < inject_Z j <=
        grid_pos (axis_of real tl d i) (nth i x 0) + inject_Z (reach pl h) / 2) nd) as [(i & Hi & Z0)|Hall].
  - intros i Hi. apply axis_support; [exact Hk|exact Hb|].
    cbn [ax_period axis_of af_period affine_at]. pose proof (block_bounds r i Hr Hi). lia.
  - apply (qprod_map_zero _ _ i); [apply in_seq; lia|exact Z0].
  - exfalso. apply Hnot.
    rewrite <- (owner_block _ _ _ OK r Hr) at 1.
    apply (targets_cover P).
    + exact (mesh_wf_grid _ _ _ OK).
    + exact mesh_wf_axes.
    + apply mesh_wf_input. exact Lx0.
    + apply mesh_smoothing_ok.
    + apply (mesh_flags_ok _ _ _ OK). exact Hord.
    + split.
      * rewrite g_dims_mesh. apply (block_valid _ _ _ OK r Hr).
      * cbn [g_edges g_periodic mesh_grid]. apply all_axes_nth; rewrite ?qedges_length.
        -- exact Hsm.
        -- rewrite transform0_length. cbn [af_scale affine_at]. lia.
        -- pose proof (block_valid _ _ _ OK r Hr) as V. apply Forall2_len in V. unfold domain_shape in V.
           rewrite map_length in V. rewrite (edges_length _ _ _ OK) in V. lia.
        -- intros i Hi. destruct (Hall i Hi) as (j & J1 & J2 & J3).
           destruct (block_nth r i Hr Hi) as (Ne & K & K0 & Es & Esh).
           set (k := Z.to_nat (nth i (block blocks r) 0%Z)) in *.
           set (N := nth i Nmesh 0%Z) in *.
           pose proof (block_bounds r i Hr Hi) as (B1 & B2 & B3 & B4). fold N in B3, B4.
           pose proof (elements_bound _ _ i Hin ltac:(rewrite real_dim; exact Hi)) as B. rewrite (proj1 HR) in B.
           unfold wrap_axis in J1. cbn [ax_period axis_of af_period affine_at] in J1. fold N in J1.
           assert (Hgt : (N >? 0)%Z = true) by (apply Z.gtb_lt; lia). rewrite Hgt in J1.
           unfold grid_pos in J2, J3. cbn [ax_scale ax_translate axis_of af_scale af_translate affine_at] in J2, J3.
           rewrite (nth_map_in _ _ i 0 0%Z) in J2, J3 by (rewrite (start_length r Hr); exact Hi).
           unfold meets_axis, meets1. fold k.
           set (st := nth i (start r) 0%Z) in *.
           exists (inject_Z (j + st)), (- (j / N))%Z.
           rewrite (period_nth i Hi). fold N. rewrite !qedges_nth.
           rewrite <- Es. assert (Eend : nth (S k) (nth i edges []) 0%Z = (st + nth i (shape r) 0)%Z) by lia.
           rewrite Eend. unfold iz. rewrite <- inject_Z_mult, <- inject_Z_plus.
           assert (Ej : (j + st + - (j / N) * N = nth i idx 0 + st)%Z).
           { rewrite <- J1. pose proof (Z.div_mod j N ltac:(lia)). lia. }
           rewrite Ej. pose proof (transform0_nth x0 i Lx0 Hi) as T. specialize (Hreach i Hi).
           pose proof (Qle_Qabs (nth i scale 0 * nth i x 0 - nth i scale 0 * nth i x0 0)) as M1.
           pose proof (Qle_Qabs (- (nth i scale 0 * nth i x 0 - nth i scale 0 * nth i x0 0))) as M2. rewrite Qabs_opp in M2.
           rewrite inject_Z_opp in J2, J3. rewrite inject_Z_plus.
           repeat split.
           ++ rewrite T. lra.
           ++ rewrite T. lra.
           ++ rewrite <- Zle_Qle. lia.
           ++ rewrite <- Zlt_Qlt. lia.
Qed.
Lemma unsent_no_weight h x idx : length x = nd -> In idx (elements real) -> bounded pl h ->
  (forall i, (i < nd)%nat -> inject_Z (reach pl h) / 2 <= nth i sm 0) ->
  ~ In r (targets g sm (transform0 tl x)) -> weight_of pl h x idx == 0.
Proof.
  intros Lx Hin Hb Hreach. apply unsent_no_weight_moved; auto. intros i Hi. specialize (Hreach i Hi).
  setoid_replace (nth i scale 0 * nth i x 0 - nth i scale 0 * nth i x 0) with 0 by ring. cbn [Qabs Z.abs]. lra.
Qed.
End Calls.
End Mesh.
