(** C33: the Jacobian products of painting and reading are dual. *)
From Coq Require Import List Arith ZArith QArith Qabs Qround Lqa Lia Bool Sorted Permutation Setoid Morphisms.
From Verif Require Import Base ListFacts LayoutModel LayoutSpec LayoutProofs LayoutModes LayoutMore WrapModel WrapProofs DomainModel DomainFill DomainGeom DomainTargets
  DomainHome DomainProperties QSum WindowModel WindowStencil WindowSpread WindowKernels WindowAxis WindowNative WindowApi WindowPoints
  WindowGrad WindowTranslate WindowProperties MeshModel MeshAssign MeshRoute MeshPaint MeshTile MeshDistributed MeshGrad MeshProperties MeshProperties2.
Import ListNotations.
Local Open Scope Q_scope.

(** no layout, or a layout made for these particles *)
Definition layout_fits (poss : list (list (list Q))) (ls : option (list layout)) : Prop :=
  ls = None \/ exists args, ls = Some (layout_init args) /\ wf_args args /\ sent_lengths args poss.
(** an array and a transform per rank, of the dimension of the mesh and the positions *)
Record call_ok (pms : list pm) (w : option window) (ts : option (list affine)) (ls : option (list layout))
    (arrays : list array) (poss : list (list (list Q))) : Prop := {
  ck_layout : layout_fits poss ls;
  ck_window : (0 < native_of (w_kind (resampler_of pms w)))%Z;
  ck_transforms : length (transforms pms ts) = length poss;
  ck_arrays : length arrays = length poss;
  ck_ranks : forall r a t, nth_error arrays r = Some a -> nth_error (transforms pms ts) r = Some t ->
    wf_call a t /\ length (ar_shape a) = ndim_of pms;
  ck_poss : Forall (Forall (fun x => length x = ndim_of pms)) poss
}.
(** one number, or one per particle *)
Definition mass_ok (poss : list (list (list Q))) (a : wvalue) : Prop := a <> WNone /\ wf_wvalue poss a.
(** one vector per particle *)
Definition vectors_ok (nd : nat) (poss v : list (list (list Q))) : Prop :=
  map (@length _) v = map (@length _) poss /\ Forall (Forall (fun row => length row = nd)) v.

(** sum over all cells of all ranks *)
Definition sum_cells (arrays : list array) (F : nat -> list Z -> Q) : Q :=
  qsum (fun r => qsum (F r) (elements (nth r arrays (f_array zero_field)))) (seq 0 (length arrays)).
(** sum over all particles of all ranks *)
Definition sum_particles (poss : list (list (list Q))) (F : nat -> nat -> Q) : Q :=
  qsum (fun s => qsum (F s) (seq 0 (length (nth s poss [])))) (seq 0 (length poss)).

Lemma sum_particles_tags poss F : sum_particles poss F == qsum (fun t => F (fst t) (snd t)) (all_tags poss).
Proof. unfold sum_particles. rewrite qsum_all_tags. reflexivity. Qed.

Section Setting.
Variables (pms : list pm) (w : option window) (ts : option (list affine)) (ls : option (list layout)).
Variables (arrays : list array) (poss : list (list (list Q))).
Hypothesis C : call_ok pms w ts ls arrays poss.
Local Notation P := (length poss).
Local Notation nd := (ndim_of pms).

Lemma call_routing : exists T, routing poss ls T.
Proof.
  destruct (ck_layout _ _ _ _ _ _ C) as [->|(args & -> & Ha & Hs)].
  - exists (own poss). constructor.
  - exists (tags args). constructor; assumption.
Qed.

Lemma call_rank d fs : map f_array fs = arrays -> direction_ok nd d ->
  forall r, (r < P)%nat -> rank_ok poss d (nth r fs zero_field) (nth r (transforms pms ts) zero_affine).
Proof.
  intros E Hd r Hr. pose proof (ck_arrays _ _ _ _ _ _ C) as La. pose proof (ck_transforms _ _ _ _ _ _ C) as Lt.
  assert (Lf : length fs = P) by (rewrite <- La, <- E, map_length; reflexivity).
  assert (Ea : nth_error arrays r = Some (f_array (nth r fs zero_field))).
  { rewrite <- E. rewrite nth_error_map. rewrite (nth_error_nth' fs zero_field (n := r)) by lia. reflexivity. }
  assert (Et : nth_error (transforms pms ts) r = Some (nth r (transforms pms ts) zero_affine)) by (apply nth_error_nth'; lia).
  destruct (ck_ranks _ _ _ _ _ _ C r _ _ Ea Et) as [W1 W2]. split; [exact W1|]. split.
  - destruct d as [d|]; [|exact Logic.I]. unfold wf_diffdir. rewrite W2. exact Hd.
  - eapply Forall_impl; [|exact (ck_poss _ _ _ _ _ _ C)]. intros pos Hp. unfold wf_pos. rewrite W2. exact Hp.
Qed.

Lemma fields_length fs : map f_array fs = arrays -> length fs = P.
Proof. intros E. rewrite <- (ck_arrays _ _ _ _ _ _ C), <- E, map_length. reflexivity. Qed.

Lemma call_read d fs : map f_array fs = arrays -> direction_ok nd d ->
  exists vs, pm_readout pms w ts d ls fs poss WNone = map Ret vs /\ map (@length Q) vs = map (@length _) poss.
Proof.
  intros E Hd. destruct call_routing as [T HT].
  destruct (routed_read poss ls T HT (resampler_of pms w) (transforms pms ts) (ck_window _ _ _ _ _ _ C) (ck_transforms _ _ _ _ _ _ C)
    pms w ts eq_refl eq_refl fs d (fields_length fs E) (call_rank d fs E Hd)) as (vs & E1 & E2 & _).
  exists vs. split; assumption.
Qed.

Lemma call_paint hold d fs mass : map f_array fs = arrays -> direction_ok nd d -> map (@length Q) mass = map (@length _) poss ->
  exists ms, pm_paint pms w ts hold d ls fs poss WNone (WArray mass) = map Ret ms /\ length ms = P.
Proof.
  intros E Hd Hm. destruct call_routing as [T HT].
  destruct (routed_paint poss ls T HT (resampler_of pms w) (transforms pms ts) (ck_window _ _ _ _ _ _ C) (ck_transforms _ _ _ _ _ _ C)
    pms w ts eq_refl eq_refl fs hold d mass (fields_length fs E) (call_rank d fs E Hd) Hm) as (ms & E1 & E2 & _).
  exists ms. split; assumption.
Qed.

(** the cell sums of MeshGrad *)
Lemma cells_eq fs F G : map f_array fs = arrays -> cell_sum poss fs F G == sum_cells arrays (fun r idx => F r idx * G r idx).
Proof.
  intros E. unfold cell_sum, sum_cells. rewrite (ck_arrays _ _ _ _ _ _ C). apply qsum_ext. intros r.
  rewrite <- E. rewrite (map_nth f_array). reflexivity.
Qed.
Lemma value_eq fs r idx : map f_array fs = arrays -> value_at fs r idx = elem (nth r arrays (f_array zero_field)) (f_data (nth r fs zero_field)) idx.
Proof. intros E. unfold value_at. rewrite <- E, (map_nth f_array). reflexivity. Qed.

Lemma call_dual hold d fs cots mass ms vs : map f_array fs = arrays -> map f_array cots = arrays -> direction_ok nd d ->
  map (@length Q) mass = map (@length _) poss ->
  pm_paint pms w ts hold d ls fs poss WNone (WArray mass) = map Ret ms ->
  pm_readout pms w ts d ls cots poss WNone = map Ret vs ->
  sum_cells arrays (fun r idx => elem (nth r arrays (f_array zero_field)) (f_data (nth r cots zero_field)) idx *
                                 elem (nth r arrays (f_array zero_field)) (nth r ms (fun _ => 0)) idx) ==
  (if hold then sum_cells arrays (fun r idx => elem (nth r arrays (f_array zero_field)) (f_data (nth r cots zero_field)) idx *
                                 elem (nth r arrays (f_array zero_field)) (f_data (nth r fs zero_field)) idx) else 0) +
  sum_particles poss (fun s i => nth i (nth s mass []) 0 * nth i (nth s vs []) 0).
Proof.
  intros E E' Hd Hm Ep Er. destruct call_routing as [T HT].
  pose proof (routed_dual poss ls T HT (resampler_of pms w) (transforms pms ts) (ck_window _ _ _ _ _ _ C) (ck_transforms _ _ _ _ _ _ C)
    pms w ts eq_refl eq_refl fs hold d mass cots ms vs (fields_length fs E) (eq_trans E' (eq_sym E)) (call_rank d fs E Hd) Hm Ep Er) as D.
  rewrite !(cells_eq cots _ _ E') in D. rewrite sum_particles_tags. unfold tag_sum, pick in D.
  assert (X : sum_cells arrays (fun r idx => elem (nth r arrays (f_array zero_field)) (f_data (nth r cots zero_field)) idx *
                                 elem (nth r arrays (f_array zero_field)) (nth r ms (fun _ => 0)) idx) ==
    sum_cells arrays (fun r idx => value_at cots r idx * elem (f_array (nth r fs zero_field)) (nth r ms (fun _ => 0)) idx)).
  { unfold sum_cells. apply qsum_ext. intros r. apply qsum_ext. intros idx. rewrite (value_eq cots r idx E').
    replace (nth r arrays (f_array zero_field)) with (f_array (nth r fs zero_field)) by (rewrite <- E, (map_nth f_array); reflexivity). reflexivity. }
  rewrite X, D. apply Qplus_comp; [|reflexivity]. destruct hold; [|reflexivity]. rewrite (cells_eq cots _ _ E').
  unfold sum_cells. apply qsum_ext. intros r. apply qsum_ext. intros idx.
  rewrite (value_eq cots r idx E'), (value_eq fs r idx E). reflexivity.
Qed.

(** products with a number or array *)
Definition scaled (a : wvalue) (vs : list (list Q)) (s : nat) : list Q :=
  map (fun i => nth i (nth s vs []) 0 * val a s (s, i)) (seq 0 (length (nth s poss []))).
Lemma products_ok vs a : map (@length Q) vs = map (@length _) poss -> mass_ok poss a ->
  products vs a = map Ret (map (scaled a vs) (seq 0 P)).
Proof.
  intros L [Ha Hw]. unfold products. assert (Lv : length vs = P) by (apply (f_equal (@length nat)) in L; rewrite !map_length in L; exact L).
  rewrite Lv, map_map. apply map_ext_in. intros s Hs. apply in_seq in Hs.
  assert (Ls : length (nth s vs []) = length (nth s poss [])).
  { rewrite <- !(map_nth (@length _)). rewrite L. reflexivity. }
  unfold scaled. destruct a as [|l|l]; [contradiction| |]; cbn [wf_wvalue local_arg val] in *.
  - rewrite (nth_error_nth' l 0 (n := s)) by lia. cbn [option_map product]. f_equal.
    symmetry. apply (map_seq_eq _ 0); [rewrite map_length; exact Ls|].
    intros i Hi. rewrite (nth_map_in _ _ i 0 0) by lia. reflexivity.
  - assert (Ll : length l = P) by (apply (f_equal (@length nat)) in Hw; rewrite !map_length in Hw; exact Hw).
    assert (Ll' : length (nth s l []) = length (nth s poss [])).
    { rewrite <- !(map_nth (@length _)). rewrite Hw. reflexivity. }
    rewrite (nth_error_nth' l [] (n := s)) by lia. cbn [option_map product].
    rewrite Ls, Ll', Nat.eqb_refl. f_equal.
    symmetry. apply (map_seq_eq _ 0).
    + rewrite map_length, combine_length. lia.
    + intros i Hi. rewrite (nth_map_in _ (combine _ _) i 0 (0, 0)) by (rewrite combine_length; lia).
      rewrite combine_nth by lia. reflexivity.
Qed.

Lemma combine_map_seq {A B} (f : nat -> A) (h : nat -> B) n : combine (map f (seq 0 n)) (map h (seq 0 n)) = map (fun s => (f s, h s)) (seq 0 n).
Proof. apply combine_map_map. Qed.

Lemma read_columns_ok a fs : map f_array fs = arrays -> mass_ok poss a -> forall ds, Forall (direction_ok nd) ds ->
  exists reads, Forall2 (fun d vs => pm_readout pms w ts d ls fs poss WNone = map Ret vs /\ map (@length Q) vs = map (@length _) poss) ds reads /\
  read_columns pms w ts ls fs poss a ds = map Ret (map (fun s => map (fun vs => scaled a vs s) reads) (seq 0 P)).
Proof.
  intros E Ha ds H. induction H as [|d ds Hd H (reads & F & IH)].
  - exists []. split; [constructor|]. cbn [read_columns map]. rewrite map_map.
    rewrite <- (map_nth_seq poss [] P eq_refl) at 1. rewrite map_map. reflexivity.
  - destruct (call_read d fs E Hd) as (vs & E1 & E2). exists (vs :: reads). split; [constructor; [split; assumption|exact F]|].
    cbn [read_columns]. rewrite E1, all_ret_Ret, (products_ok vs a E2 Ha), all_ret_Ret, IH, all_ret_Ret.
    rewrite combine_map_seq, !map_map. reflexivity.
Qed.
End Setting.

Lemma qsum_combine_nth {A B} (f : nat -> A) (reads : list B) (g : A * B -> Q) z n : length reads = n ->
  qsum g (combine (map f (seq 0 n)) reads) == qsum (fun d => g (f d, nth d reads z)) (seq 0 n).
Proof.
  intros L. transitivity (qsum g (combine (map f (seq 0 n)) (map (fun d => nth d reads z) (seq 0 n)))).
  - rewrite (map_nth_seq reads z n L). reflexivity.
  - rewrite combine_map_map, qsum_map. reflexivity.
Qed.
Lemma column_lengths poss v d : map (@length (list Q)) v = map (@length (list Q)) poss -> map (@length Q) (column d v) = map (@length _) poss.
Proof. intros H. unfold column. rewrite map_map. rewrite <- H. apply map_ext. intros l. apply map_length. Qed.
Lemma column_pick v d s i : nth i (nth s (column d v) []) 0 = nth d (nth i (nth s v []) []) 0.
Proof.
  unfold column. change (@nil Q) with (map (fun row => nth d row 0) []). rewrite (map_nth (map (fun row => nth d row 0))).
  assert (E : 0 = nth d (@nil Q) 0) by (destruct d; reflexivity).
  rewrite E at 1. apply (map_nth (fun row : list Q => nth d row 0)).
Qed.
Lemma directions_ok n : Forall (direction_ok n) (directions n).
Proof.
  unfold directions. apply Forall_forall. intros d Hd. apply in_map_iff in Hd. destruct Hd as (k & <- & Hk).
  apply in_seq in Hk. simpl. lia.
Qed.
Lemma all_ret_Some {A B} (f : A -> B) (l : list A) :
  all_ret (map (fun o : outcome A => bind o (fun x => Ret (f x))) (map Ret l)) = Some (map f l).
Proof. rewrite map_map. cbn [bind]. apply all_ret_map. Qed.

(** the vector-Jacobian product of painting returns the adjoint of the Jacobian-vector
    product, against positions and masses, for any number of ranks and any layout *)
Theorem C33_paint_dual : forall pms w ts ls arrays poss, call_ok pms w ts ls arrays poss ->
  forall outs cots mass v_pos v_mass,
  map f_array outs = arrays -> map f_array cots = arrays -> mass_ok poss mass ->
  (forall v, v_pos = Some v -> vectors_ok (ndim_of pms) poss v) ->
  (forall v, v_mass = Some v -> map (@length Q) v = map (@length _) poss) ->
  exists ms ps qs,
    pm_paint_jvp pms w ts None ls outs poss mass v_pos v_mass = map Ret ms /\
    pm_paint_vjp pms w ts None ls cots poss mass true true =
      map Ret (map (fun s => (Some (nth s ps []), Some (nth s qs []))) (seq 0 (length poss))) /\
    (forall s, (s < length poss)%nat -> length (nth s ps []) = ndim_of pms /\
       Forall (fun c => length c = length (nth s poss [])) (nth s ps []) /\ length (nth s qs []) = length (nth s poss [])) /\
    sum_cells arrays (fun r idx => elem (nth r arrays (f_array zero_field)) (f_data (nth r cots zero_field)) idx *
                                   elem (nth r arrays (f_array zero_field)) (nth r ms (fun _ => 0)) idx) ==
    match v_pos with
    | Some v => sum_particles poss (fun s i => qsum (fun d => nth d (nth i (nth s v []) []) 0 * nth i (nth d (nth s ps []) []) 0) (seq 0 (ndim_of pms)))
    | None => 0 end +
    match v_mass with
    | Some v => sum_particles poss (fun s i => nth i (nth s v []) 0 * nth i (nth s qs []) 0)
    | None => 0 end.
Proof.
  intros pms w ts ls arrays poss C outs cots mass v_pos v_mass Eo Ec Hm Hp Hq.
  set (P := length poss). set (nd := ndim_of pms) in *.
  destruct (read_columns_ok pms w ts ls arrays poss C mass cots Ec Hm (directions nd) (directions_ok nd)) as (reads & FR & ER).
  assert (Lr : length reads = nd).
  { rewrite <- (Forall2_len _ _ _ FR). unfold directions. rewrite map_length, seq_length. reflexivity. }
  destruct (call_read pms w ts ls arrays poss C None cots Ec Logic.I) as (qs & EQ & LQ).
  assert (Lqs : length qs = P) by (apply (f_equal (@length nat)) in LQ; rewrite !map_length in LQ; exact LQ).
  assert (Lcot : length cots = P) by exact (fields_length _ _ _ _ _ _ C cots Ec).
  set (ps := map (fun s => map (fun vs => scaled poss mass vs s) reads) (seq 0 P)).
  set (terms := (match v_pos with
         | Some v => map (fun d => (Some (Z.of_nat d), products (column d v) mass)) (seq 0 nd)
         | None => [] end ++
         match v_mass with Some v => [(@None Z, map Ret v)] | None => [] end)).
  set (zeroed := map (fun f => with_data f (fill (f_array f) (f_data f) 0)) outs).
  assert (Ez : map f_array zeroed = arrays) by (unfold zeroed; rewrite map_map; exact Eo).
  destruct (call_routing _ _ _ _ _ _ C) as [T HT].
  assert (FT : Forall (fun dm => (forall r, (r < length poss)%nat -> rank_ok poss (fst dm) (nth r zeroed zero_field) (nth r (transforms pms ts) zero_affine)) /\
                    exists m, snd dm = map Ret m /\ map (@length Q) m = map (@length _) poss) terms).
  { unfold terms. apply Forall_app. split.
    - destruct v_pos as [v|]; [|constructor]. apply Forall_forall. intros dm Hin. apply in_map_iff in Hin. destruct Hin as (d & <- & Hd). apply in_seq in Hd.
      cbn [fst snd]. split.
      + apply (call_rank _ _ _ _ _ _ C (Some (Z.of_nat d)) zeroed Ez). simpl. fold nd. lia.
      + destruct (Hp v eq_refl) as [V1 V2]. eexists. split; [apply (products_ok poss); [apply column_lengths; exact V1|exact Hm]|].
        rewrite map_map. rewrite <- (map_nth_seq poss [] P eq_refl) at 2. rewrite map_map. apply map_ext. intros s.
        unfold scaled. rewrite map_length, seq_length. reflexivity.
    - destruct v_mass as [v|]; [|constructor]. constructor; [|constructor]. cbn [fst snd]. split.
      + apply (call_rank _ _ _ _ _ _ C None zeroed Ez). exact Logic.I.
      + exists v. split; [reflexivity|exact (Hq v eq_refl)]. }
  destruct (routed_terms poss ls T HT (resampler_of pms w) (transforms pms ts) (ck_window _ _ _ _ _ _ C) (ck_transforms _ _ _ _ _ _ C)
    pms w ts eq_refl eq_refl cots terms zeroed (fields_length _ _ _ _ _ _ C zeroed Ez) (eq_trans Ec (eq_sym Ez)) FT) as (ms & E1 & E2 & E3).
  exists ms, ps, qs.
  assert (Fr : Forall2 (fun d vs => pm_readout pms w ts d ls cots poss WNone = map Ret vs) (directions nd) reads).
  { clear -FR. induction FR as [|d vs ds reads [H _] _ IH]; constructor; assumption. }
  split; [exact E1|]. split; [|split].
  - unfold pm_paint_vjp. cbn [andb]. fold nd. rewrite ER. rewrite all_ret_Some. rewrite EQ. rewrite all_ret_Some.
    rewrite <- (map_nth_seq qs [] P Lqs) at 1. rewrite map_map. unfold ps. rewrite map_map. rewrite combine_map_map. f_equal.
    apply map_ext_in. intros s Hs. apply in_seq in Hs. fold P. rewrite nth_map_seq by lia. reflexivity.
  - intros s Hs. fold P in Hs. unfold ps. rewrite nth_map_seq by exact Hs. split; [rewrite map_length; exact Lr|]. split.
    + apply Forall_forall. intros c Hc. apply in_map_iff in Hc. destruct Hc as (vs & <- & _). unfold scaled. rewrite map_length, seq_length. reflexivity.
    + rewrite <- !(map_nth (@length _)). rewrite LQ. reflexivity.
  - set (rs := (match v_pos with Some _ => reads | None => [] end ++ match v_mass with Some _ => [qs] | None => [] end)).
    assert (Frs : Forall2 (fun dm vs => pm_readout pms w ts (fst dm) ls cots poss WNone = map Ret vs) terms rs).
    { unfold terms, rs. apply Forall2_app.
      - destruct v_pos as [v|]; [|constructor]. clear -Fr. unfold directions in Fr. revert reads Fr. generalize (seq 0 nd) as l.
        intros l. induction l as [|d l IH]; intros reads Fr; inversion Fr; subst; constructor; [assumption|]. apply IH. assumption.
      - destruct v_mass as [v|]; [|constructor]. constructor; [exact EQ|constructor]. }
    specialize (E3 rs Frs).
    unfold zeroed at 2 in E3. rewrite (fill_sum poss (transforms pms ts) (ck_transforms _ _ _ _ _ _ C) cots outs (fields_length _ _ _ _ _ _ C outs Eo) (eq_trans Ec (eq_sym Eo))) in E3.
    rewrite (cells_eq pms w ts ls arrays poss C cots _ _ Ec) in E3.
    assert (X : sum_cells arrays (fun r idx => elem (nth r arrays (f_array zero_field)) (f_data (nth r cots zero_field)) idx *
                                   elem (nth r arrays (f_array zero_field)) (nth r ms (fun _ => 0)) idx) ==
      sum_cells arrays (fun r idx => value_at cots r idx * elem (f_array (nth r zeroed zero_field)) (nth r ms (fun _ => 0)) idx)).
    { unfold sum_cells. apply qsum_ext. intros r. apply qsum_ext. intros idx. rewrite (value_eq arrays cots r idx Ec).
      replace (nth r arrays (f_array zero_field)) with (f_array (nth r zeroed zero_field)) by (rewrite <- Ez, (map_nth f_array); reflexivity). reflexivity. }
    rewrite X, E3. rewrite Qplus_0_l. clear X E3 E1 E2.
    unfold terms, rs.
    assert (CA : forall {A B} (a1 a2 : list A) (b1 b2 : list B), length a1 = length b1 -> combine (a1 ++ a2) (b1 ++ b2) = combine a1 b1 ++ combine a2 b2).
    { clear. intros A B a1. induction a1 as [|a a1 IH]; intros a2 b1 b2 L; destruct b1 as [|b b1]; try discriminate; [reflexivity|].
      simpl. f_equal. apply IH. simpl in L. lia. }
    rewrite CA, qsum_app.
    2: { destruct v_pos; [rewrite map_length, seq_length; symmetry; exact Lr|reflexivity]. }
    apply Qplus_comp.
    + destruct v_pos as [v|]; [|reflexivity]. destruct (Hp v eq_refl) as [V1 V2].
      rewrite (qsum_combine_nth _ reads _ [] nd Lr). rewrite sum_particles_tags.
      transitivity (qsum (fun d => qsum (fun t => nth d (nth (snd t) (nth (fst t) v []) []) 0 * nth (snd t) (nth d (nth (fst t) ps []) []) 0) (all_tags poss)) (seq 0 nd)).
      * apply qsum_ext_in. intros d Hd. apply in_seq in Hd. cbn [fst snd].
        rewrite (products_ok poss _ mass (column_lengths poss v d V1) Hm), all_ret_Ret. unfold tag_sum. apply qsum_ext_in. intros t Ht.
        destruct (all_tags_in _ _ Ht) as [B1 B2]. unfold pick. rewrite nth_map_seq by exact B1. unfold scaled at 1. rewrite nth_map_seq by exact B2.
        rewrite column_pick. unfold ps. rewrite nth_map_seq by exact B1.
        rewrite (nth_map_in _ reads d [] []) by lia. unfold scaled. rewrite nth_map_seq by exact B2. ring.
      * apply qsum_swap.
    + destruct v_mass as [v|]; [|reflexivity]. cbn [combine]. rewrite qsum_cons, qsum_nil. cbn [fst snd]. rewrite all_ret_Ret.
      rewrite sum_particles_tags. unfold tag_sum, pick. ring.
Qed.
Print Assumptions C33_paint_dual.

Lemma lengths_nth {A B} (a : list (list A)) (b : list (list B)) : map (@length A) a = map (@length B) b ->
  length a = length b /\ forall s, length (nth s a []) = length (nth s b []).
Proof.
  intros H. split; [apply (f_equal (@length nat)) in H; rewrite !map_length in H; exact H|].
  intros s. pose proof (map_nth (@length A) a [] s) as E1. pose proof (map_nth (@length B) b [] s) as E2.
  cbn [length] in E1, E2. rewrite <- E1, <- E2, H. reflexivity.
Qed.

Definition factor_at (f : option (list (list Q))) (s i : nat) : Q := match f with Some c => nth i (nth s c []) 0 | None => 1 end.
Lemma read_terms_ok pms w ts ls poss terms reads :
  Forall2 (fun (x : option Z * list field * option (list (list Q))) vs =>
     pm_readout pms w ts (fst (fst x)) ls (snd (fst x)) poss WNone = map Ret vs /\ map (@length Q) vs = map (@length _) poss /\
     match snd x with Some c => map (@length Q) c = map (@length _) poss | None => True end) terms reads ->
  forall acc, map (@length Q) acc = map (@length _) poss ->
  exists js, read_terms pms w ts ls poss terms acc = map Ret js /\ map (@length Q) js = map (@length _) poss /\
    forall s i, (s < length poss)%nat -> (i < length (nth s poss []))%nat ->
      nth i (nth s js []) 0 == nth i (nth s acc []) 0 +
        qsum (fun x => nth i (nth s (snd x) []) 0 * factor_at (snd (fst x)) s i) (combine terms reads).
Proof.
  intros F. induction F as [|[[d fs] factor] vs terms reads (E1 & E2 & E3) F IH]; intros acc La.
  - exists acc. split; [reflexivity|]. split; [exact La|]. intros s i Hs Hi. cbn [combine]. rewrite qsum_nil. ring.
  - cbn [fst snd] in *.
    assert (X : exists xs, match factor with Some c => products vs (WArray c) | None => map Ret vs end = map Ret xs /\
      map (@length Q) xs = map (@length _) poss /\
      forall s i, (s < length poss)%nat -> (i < length (nth s poss []))%nat -> nth i (nth s xs []) 0 == nth i (nth s vs []) 0 * factor_at factor s i).
    { destruct factor as [c|].
      - eexists. split; [apply (products_ok poss); [exact E2|split; [discriminate|exact E3]]|]. split.
        + rewrite map_map. rewrite <- (map_nth_seq poss [] (length poss) eq_refl) at 2. rewrite map_map. apply map_ext. intros s.
          unfold scaled. rewrite map_length, seq_length. reflexivity.
        + intros s i Hs Hi. rewrite nth_map_seq by exact Hs. unfold scaled. rewrite nth_map_seq by exact Hi. reflexivity.
      - exists vs. split; [reflexivity|]. split; [exact E2|]. intros s i _ _. cbn [factor_at]. ring. }
    destruct X as (xs & X1 & X2 & X3).
    cbn [read_terms]. rewrite E1, all_ret_Ret, X1, all_ret_Ret.
    set (acc' := map (fun ax => add_to (fst ax) (snd ax)) (combine acc xs)).
    destruct (lengths_nth _ _ La) as [A1 A2]. destruct (lengths_nth _ _ X2) as [B1 B2].
    assert (N : forall s, (s < length poss)%nat -> nth s acc' [] = add_to (nth s acc []) (nth s xs [])).
    { intros s Hs. unfold acc'. rewrite (nth_map_in _ (combine acc xs) s [] ([], [])) by (rewrite combine_length; lia).
      rewrite combine_nth by lia. reflexivity. }
    assert (La' : map (@length Q) acc' = map (@length _) poss).
    { rewrite <- (map_nth_seq acc' [] (length poss)) by (unfold acc'; rewrite map_length, combine_length; lia).
      rewrite <- (map_nth_seq poss [] (length poss) eq_refl) at 2. rewrite !map_map. apply map_ext_in. intros s Hs. apply in_seq in Hs.
      rewrite N by lia. unfold add_to. rewrite map_length, combine_length, A2, B2. lia. }
    destruct (IH acc' La') as (js & J1 & J2 & J3). exists js. split; [exact J1|]. split; [exact J2|].
    intros s i Hs Hi. rewrite (J3 s i Hs Hi). cbn [combine]. rewrite qsum_cons. cbn [fst snd].
    rewrite (N s Hs). unfold add_to. rewrite (nth_map_in _ (combine _ _) i 0 (0, 0)) by (rewrite combine_length, A2, B2; lia).
    rewrite combine_nth by (rewrite A2, B2; reflexivity). cbn [fst snd]. rewrite (X3 s i Hs Hi). ring.
Qed.

Theorem C33_readout_dual : forall pms w ts ls arrays poss, call_ok pms w ts ls arrays poss ->
  forall fields outs v v_self v_pos,
  map f_array fields = arrays -> map f_array outs = arrays -> map (@length Q) v = map (@length _) poss ->
  (forall f, v_self = Some f -> map f_array f = arrays) ->
  (forall u, v_pos = Some u -> vectors_ok (ndim_of pms) poss u) ->
  exists js ms ps,
    pm_readout_jvp pms w ts None ls fields poss v_self v_pos = map Ret js /\
    pm_readout_vjp pms w ts None ls fields outs poss v true true =
      map Ret (map (fun s => (Some (nth s ms (fun _ => 0)), Some (nth s ps []))) (seq 0 (length poss))) /\
    (forall s, (s < length poss)%nat -> length (nth s ps []) = ndim_of pms /\
       Forall (fun c => length c = length (nth s poss [])) (nth s ps []) /\ length (nth s js []) = length (nth s poss [])) /\
    sum_particles poss (fun s i => nth i (nth s v []) 0 * nth i (nth s js []) 0) ==
    match v_self with
    | Some f => sum_cells arrays (fun r idx => elem (nth r arrays (f_array zero_field)) (f_data (nth r f zero_field)) idx *
                                               elem (nth r arrays (f_array zero_field)) (nth r ms (fun _ => 0)) idx)
    | None => 0 end +
    match v_pos with
    | Some u => sum_particles poss (fun s i => qsum (fun d => nth d (nth i (nth s u []) []) 0 * nth i (nth d (nth s ps []) []) 0) (seq 0 (ndim_of pms)))
    | None => 0 end.
Proof.
  intros pms w ts ls arrays poss C fields outs v v_self v_pos Ef Eo Hv Hs Hp.
  set (P := length poss). set (nd := ndim_of pms) in *.
  assert (Hm : mass_ok poss (WArray v)) by (split; [discriminate|exact Hv]).
  destruct (read_columns_ok pms w ts ls arrays poss C (WArray v) fields Ef Hm (directions nd) (directions_ok nd)) as (reads & FR & ER).
  assert (Lr : length reads = nd).
  { rewrite <- (Forall2_len _ _ _ FR). unfold directions. rewrite map_length, seq_length. reflexivity. }
  destruct (call_paint pms w ts ls arrays poss C false None outs v Eo Logic.I Hv) as (ms & EM & LM).
  assert (Q : exists q, match v_self with Some f => pm_readout pms w ts None ls f poss WNone = map Ret q | None => True end /\ map (@length Q) q = map (@length _) poss).
  { destruct v_self as [f|]; [|exists v; split; [exact Logic.I|exact Hv]].
    destruct (call_read pms w ts ls arrays poss C None f (Hs f eq_refl) Logic.I) as (q & E1 & E2). exists q. split; assumption. }
  destruct Q as (q & EQ & LQ).
  set (ps := map (fun s => map (fun vs => scaled poss (WArray v) vs s) reads) (seq 0 P)).
  set (terms := (match v_pos with
     | Some u => map (fun d => (Some (Z.of_nat d), fields, Some (column d u))) (seq 0 nd)
     | None => [] end ++
     match v_self with Some f => [(@None Z, f, @None (list (list Q)))] | None => [] end)).
  set (rs := (match v_pos with Some _ => reads | None => [] end ++ match v_self with Some _ => [q] | None => [] end)).
  assert (Frs : Forall2 (fun (x : option Z * list field * option (list (list Q))) vs =>
     pm_readout pms w ts (fst (fst x)) ls (snd (fst x)) poss WNone = map Ret vs /\ map (@length Q) vs = map (@length _) poss /\
     match snd x with Some c => map (@length Q) c = map (@length _) poss | None => True end) terms rs).
  { unfold terms, rs. apply Forall2_app.
    - destruct v_pos as [u|]; [|constructor]. destruct (Hp u eq_refl) as [V1 _]. clear -FR V1. unfold directions in FR. revert reads FR. generalize (seq 0 nd) as l.
      intros l. induction l as [|d l IH]; intros reads Fr; inversion Fr as [|? ? ? ? [H1 H2] H3]; subst; constructor; [|apply IH; assumption].
      cbn [fst snd]. split; [assumption|]. split; [assumption|]. apply column_lengths. exact V1.
    - destruct v_self as [f|]; [|constructor]. constructor; [|constructor]. cbn [fst snd]. auto. }
  destruct (read_terms_ok pms w ts ls poss terms rs Frs (map (fun pos => repeat 0 (length pos)) poss)) as (js & J1 & J2 & J3).
  { rewrite map_map. apply map_ext. intros l. apply repeat_length. }
  exists js, ms, ps. split; [exact J1|]. split; [|split].
  - unfold pm_readout_vjp. cbn [andb]. fold nd. rewrite ER, all_ret_Some, EM, all_ret_Some.
    rewrite <- (map_nth_seq ms (fun _ => 0) P LM) at 1. rewrite map_map. rewrite map_map. rewrite combine_map_map. f_equal.
    apply map_ext_in. intros s Hs'. apply in_seq in Hs'. unfold ps. fold P. rewrite nth_map_seq by lia. reflexivity.
  - intros s Hs'. fold P in Hs'. unfold ps. rewrite nth_map_seq by exact Hs'. split; [rewrite map_length; exact Lr|]. split.
    + apply Forall_forall. intros c Hc. apply in_map_iff in Hc. destruct Hc as (vs & <- & _). unfold scaled. rewrite map_length, seq_length. reflexivity.
    + apply (lengths_nth _ _ J2).
  - assert (CA : forall {A B} (a1 a2 : list A) (b1 b2 : list B), length a1 = length b1 -> combine (a1 ++ a2) (b1 ++ b2) = combine a1 b1 ++ combine a2 b2).
    { clear. intros A B a1. induction a1 as [|a a1 IH]; intros a2 b1 b2 L; destruct b1 as [|b b1]; try discriminate; [reflexivity|].
      simpl. f_equal. apply IH. simpl in L. lia. }
    rewrite sum_particles_tags.
    transitivity (qsum (fun t => qsum (fun x => nth (snd t) (nth (fst t) v []) 0 * (nth (snd t) (nth (fst t) (snd x) []) 0 * factor_at (snd (fst x)) (fst t) (snd t))) (combine terms rs)) (all_tags poss)).
    { apply qsum_ext_in. intros t Ht. destruct (all_tags_in _ _ Ht) as [B1 B2]. rewrite (J3 _ _ B1 B2). rewrite qsum_scale.
      rewrite (nth_map_in _ poss (fst t) [] []) by exact B1. rewrite nth_repeat_in by exact B2. ring. }
    rewrite qsum_swap. unfold terms, rs. rewrite CA, qsum_app.
    2: { destruct v_pos; [rewrite map_length, seq_length; symmetry; exact Lr|reflexivity]. }
    rewrite Qplus_comm. apply Qplus_comp.
    + destruct v_self as [f|]; [|reflexivity]. cbn [combine]. rewrite qsum_cons, qsum_nil. cbn [fst snd factor_at].
      rewrite (call_dual pms w ts ls arrays poss C false None outs f v ms q Eo (Hs f eq_refl) Logic.I Hv EM EQ). rewrite sum_particles_tags.
      rewrite Qplus_0_l, Qplus_0_r. apply qsum_ext. intros t. ring.
    + destruct v_pos as [u|]; [|reflexivity].
      rewrite (qsum_combine_nth _ reads _ [] nd Lr). rewrite sum_particles_tags, qsum_swap. apply qsum_ext_in. intros t Ht.
      apply qsum_ext_in. intros d Hd. apply in_seq in Hd. destruct (all_tags_in _ _ Ht) as [B1 B2]. cbn [fst snd factor_at].
      rewrite column_pick. unfold ps. rewrite nth_map_seq by exact B1.
      rewrite (nth_map_in _ reads d [] []) by lia. unfold scaled. rewrite nth_map_seq by exact B2. cbn [val]. unfold pick. cbn [fst snd]. ring.
Qed.
Print Assumptions C33_readout_dual.

(** with [gradient], only one of the gradients can be asked for; it is the adjoint of
    painting or reading with that gradient *)
Theorem C33_gradient_dual : forall pms w ts ls arrays poss, call_ok pms w ts ls arrays poss ->
  forall outs cots mass v gradient,
  map f_array outs = arrays -> map f_array cots = arrays -> map (@length Q) v = map (@length _) poss -> direction_ok (ndim_of pms) gradient ->
  exists ms qs,
    pm_paint pms w ts false gradient ls outs poss WNone (WArray v) = map Ret ms /\
    pm_paint_vjp pms w ts gradient ls cots poss mass false true = map Ret (map (fun s => (None, Some (nth s qs []))) (seq 0 (length poss))) /\
    pm_readout pms w ts gradient ls cots poss WNone = map Ret qs /\
    pm_readout_vjp pms w ts gradient ls cots outs poss v true false = map Ret (map (fun s => (Some (nth s ms (fun _ => 0)), None)) (seq 0 (length poss))) /\
    sum_cells arrays (fun r idx => elem (nth r arrays (f_array zero_field)) (f_data (nth r cots zero_field)) idx *
                                   elem (nth r arrays (f_array zero_field)) (nth r ms (fun _ => 0)) idx) ==
    sum_particles poss (fun s i => nth i (nth s v []) 0 * nth i (nth s qs []) 0).
Proof.
  intros pms w ts ls arrays poss C outs cots mass v gradient Eo Ec Hv Hd.
  destruct (call_paint pms w ts ls arrays poss C false gradient outs v Eo Hd Hv) as (ms & EM & LM).
  destruct (call_read pms w ts ls arrays poss C gradient cots Ec Hd) as (qs & EQ & LQ).
  destruct (lengths_nth _ _ LQ) as [Lqs _]. pose proof (fields_length _ _ _ _ _ _ C cots Ec) as Lc.
  assert (N : forall A, map (fun _ : field => @None A) cots = map (fun _ => None) (seq 0 (length poss))).
  { intros A. rewrite <- Lc. clear. generalize 0%nat. induction cots as [|c cs IH]; intros k; [reflexivity|]. cbn. f_equal. apply IH. }
  exists ms, qs. split; [exact EM|]. split; [|split; [exact EQ|split]].
  - unfold pm_paint_vjp. cbn [andb]. rewrite all_ret_map, EQ, all_ret_Some, N.
    rewrite <- (map_nth_seq qs [] _ Lqs) at 1. rewrite map_map, combine_map_map. reflexivity.
  - unfold pm_readout_vjp. cbn [andb]. rewrite all_ret_map, EM, all_ret_Some, N.
    rewrite <- (map_nth_seq ms (fun _ => 0) _ LM) at 1. rewrite map_map, combine_map_map. reflexivity.
  - rewrite (call_dual pms w ts ls arrays poss C false gradient outs cots v ms qs Eo Ec Hd Hv EM EQ). ring.
Qed.
Print Assumptions C33_gradient_dual.

(** any mesh with the layout that its [decompose] returns is such a call, whether the
    ghosts suffice or not *)
Theorem C33_applies : forall Nmesh BoxSize box w0 pt blocks pms, world Nmesh BoxSize box w0 pt blocks pms ->
  forall poss scale ts s sm w arrays,
  particles_ok (length Nmesh) (length blocks) poss ->
  length scale = length Nmesh -> transforms pms ts = rank_affines Nmesh pt blocks scale ->
  mkarr (smoothing_value (nth 0 pms (mesh_pm Nmesh pt blocks box w0 0)) s) (length Nmesh) = Ret sm ->
  length sm = length Nmesh -> Forall (fun q => 0 <= q) sm ->
  (0 < native_of (w_kind (resampler_of pms w)))%Z ->
  length arrays = length blocks ->
  (forall r, (r < length blocks)%nat -> stored (nth r arrays (f_array zero_field)) (block_shape (i_edges pt) (block blocks r))) ->
  exists ls, pm_decompose pms s ts poss = map Ret ls /\ call_ok pms w ts (Some ls) arrays poss /\ call_ok pms w ts None arrays poss.
Proof.
  intros Nmesh BoxSize box w0 pt blocks pms W poss scale ts s sm w arrays Hp Hsc Hts Hs Lsm Psm Hk La Hst.
  set (OK := wd_mesh _ _ _ _ _ _ _ W).
  assert (Hs' : mkarr (smoothing_value (mesh_pm Nmesh pt blocks box w0 0) s) (length Nmesh) = Ret sm).
  { rewrite <- Hs. rewrite (world_pms _ _ _ _ _ _ _ W).
    pose proof (world_blocks _ _ _ _ _ _ _ W) as H0. rewrite nth_map_seq by exact H0. reflexivity. }
  destruct (decompose_world _ _ _ _ _ _ _ W scale sm ts s poss Hsc Lsm Psm Hts Hs' Hp) as (args & Ed & Largs & Wa & Sa & _).
  destruct Hp as [Lp Dp].
  assert (Nd : ndim_of pms = length Nmesh).
  { rewrite (world_pms _ _ _ _ _ _ _ W). pose proof (world_blocks _ _ _ _ _ _ _ W) as H0. destruct (length blocks) as [|n]; [lia|]. reflexivity. }
  assert (Lt : length (transforms pms ts) = length poss) by (rewrite Hts, Lp; unfold rank_affines; rewrite map_length, seq_length; reflexivity).
  assert (CR : forall r a t, nth_error arrays r = Some a -> nth_error (transforms pms ts) r = Some t ->
    wf_call a t /\ length (ar_shape a) = ndim_of pms).
  { intros r a t Ea Et. rewrite Nd.
    assert (Hr : (r < length blocks)%nat) by (rewrite <- La; apply nth_error_Some; congruence).
    assert (A : nth r arrays (f_array zero_field) = a) by (apply nth_error_nth; exact Ea).
    specialize (Hst r Hr). rewrite A in Hst.
    rewrite Hts in Et. unfold rank_affines in Et. rewrite nth_error_map, nth_error_seq_lt in Et by exact Hr. cbn in Et. injection Et as <-.
    split; [apply (wf_local _ _ _ OK scale a r Hsc Hr Hst)|].
    rewrite (proj1 Hst). apply (block_shape_length _ _ _ OK). exact Hr. }
  exists (layout_init args). split; [exact Ed|]. split.
  - constructor; try assumption; [right; exists args; auto|lia|rewrite Nd; exact Dp].
  - constructor; try assumption; [left; reflexivity|lia|rewrite Nd; exact Dp].
Qed.
Print Assumptions C33_applies.

Definition ex_call : exists ls, pm_decompose ex_pms SmoothDefault None ex_parts = map Ret ls /\
  call_ok ex_pms None None (Some ls) [c_array [2; 4]%Z; c_array [2; 4]%Z] ex_parts /\
  call_ok ex_pms None None None [c_array [2; 4]%Z; c_array [2; 4]%Z] ex_parts.
Proof.
  apply (C33_applies _ _ _ _ _ _ _ ex_world ex_parts (mesh_scale [4; 4]%Z [8; 8]) None SmoothDefault (half_support ex_cic 2)).
  - split; [reflexivity|repeat constructor].
  - reflexivity.
  - exact (default_affines _ _ _ _ _ _ _ ex_world).
  - reflexivity.
  - reflexivity.
  - apply Forall_forall. intros q Hin. apply repeat_spec in Hin. subst q. discriminate.
  - reflexivity.
  - reflexivity.
  - intros r Hr. destruct r as [|[|r]]; [| |simpl in Hr; lia]; (apply (c_array_stored [2; 4]%Z); repeat constructor).
Qed.
Definition ex_vectors : list (list (list Q)) := [[[1; 2]; [3; -(1)]]; [[1#2; 5]]].
Example C33_case : exists ls ms ps qs,
  pm_decompose ex_pms SmoothDefault None ex_parts = map Ret ls /\
  pm_paint_jvp ex_pms None None None (Some ls) [ex_out; ex_out] ex_parts ex_mass (Some ex_vectors) (Some [[4; 5]; [6]]) = map Ret ms /\
  pm_paint_vjp ex_pms None None None (Some ls) [ex_field 0; ex_field 1] ex_parts ex_mass true true =
    map Ret (map (fun s => (Some (nth s ps []), Some (nth s qs []))) (seq 0 2)) /\
  sum_cells [c_array [2; 4]%Z; c_array [2; 4]%Z] (fun r idx => elem (c_array [2; 4]%Z) (f_data (nth r [ex_field 0; ex_field 1] zero_field)) idx *
     elem (c_array [2; 4]%Z) (nth r ms (fun _ => 0)) idx) ==
  sum_particles ex_parts (fun s i => qsum (fun d => nth d (nth i (nth s ex_vectors []) []) 0 * nth i (nth d (nth s ps []) []) 0) (seq 0 2)) +
  sum_particles ex_parts (fun s i => nth i (nth s [[4; 5]; [6]] []) 0 * nth i (nth s qs []) 0).
Proof.
  destruct ex_call as (ls & E & C & _). exists ls.
  destruct (C33_paint_dual _ _ _ _ _ _ C [ex_out; ex_out] [ex_field 0; ex_field 1] ex_mass (Some ex_vectors) (Some [[4; 5]; [6]]))
    as (ms & ps & qs & E1 & E2 & _ & E3); try reflexivity.
  - split; [discriminate|reflexivity].
  - intros v Hv. injection Hv as <-. split; [reflexivity|]. repeat constructor.
  - intros v Hv. injection Hv as <-. reflexivity.
  - exists ms, ps, qs. split; [exact E|]. split; [exact E1|]. split; [exact E2|].
    rewrite <- E3. unfold sum_cells. apply qsum_ext_in. intros r Hr. apply in_seq in Hr. destruct r as [|[|r]]; [reflexivity|reflexivity|simpl in Hr; lia].
Qed.

(** the gradient argument of [readout_jvp] is ignored *)
Definition one_pms : list pm := map (mesh_pm [4]%Z {| i_edges := [[0; 4]]%Z; local_i_start := [[0]]%Z; local_i_shape := [[4]]%Z |} [[0]]%Z [4] ex_cic) (seq 0 1).
Definition one_field : field := {| f_array := c_array [4]%Z; f_data := fun a => inject_Z a |}.
Theorem C33_readout_jvp_gradient_refuted :
  call_ok one_pms None None None [c_array [4]%Z] [[[1#2]]] /\
  exists js, pm_readout_jvp one_pms None None (Some 0%Z) None [one_field] [[[1#2]]] (Some [one_field]) None = map Ret js /\
  exists qs, pm_readout one_pms None None (Some 0%Z) None [one_field] [[[1#2]]] WNone = map Ret qs /\
  ~ nth 0 (nth 0 js []) 0 == nth 0 (nth 0 qs []) 0.
Proof.
  split.
  - constructor; try reflexivity; [left; reflexivity| |repeat constructor].
    intros r a t Ea Et. destruct r as [|[|r]]; cbn in Ea, Et; try discriminate. injection Ea as <-. injection Et as <-.
    split; [|reflexivity]. assert (S : stored (c_array [4]%Z) [4]%Z) by (apply c_array_stored; repeat constructor).
    destruct S as (S1 & S2 & S3). repeat split; try reflexivity; try assumption. simpl. lia.
  - destruct (all_ret_check (pm_readout_jvp one_pms None None (Some 0%Z) None [one_field] [[[1#2]]] (Some [one_field]) None)
      (fun js => Qeq_bool (nth 0 (nth 0 js []) 0) (1#2))) as (js & E1 & E2); [vm_compute; reflexivity|].
    destruct (all_ret_check (pm_readout one_pms None None (Some 0%Z) None [one_field] [[[1#2]]] WNone)
      (fun js => Qeq_bool (nth 0 (nth 0 js []) 0) 1)) as (qs & E3 & E4); [vm_compute; reflexivity|].
    exists js. split; [exact E1|]. exists qs. split; [exact E3|]. apply Qeq_bool_iff in E2. apply Qeq_bool_iff in E4.
    rewrite E2, E4. discriminate.
Qed.
Print Assumptions C33_readout_jvp_gradient_refuted.

(** both gradients at once with [gradient] are refused *)
Theorem C33_gradient_of_gradient_raises pms w ts ls fields outs poss mass v g b :
  pm_paint_vjp pms w ts (Some g) ls fields poss mass true b = map (fun _ => Raise ValueError) fields /\
  pm_readout_vjp pms w ts (Some g) ls fields outs poss v b true = map (fun _ => Raise ValueError) fields /\
  forall a c, pm_paint_jvp pms w ts (Some g) ls outs poss mass a c = map (fun _ => Raise AssertionError) outs.
Proof. repeat split. Qed.
Print Assumptions C33_gradient_of_gradient_raises.
