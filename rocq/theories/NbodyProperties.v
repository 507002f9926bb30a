(** Property C87: the particle mesh forces of examples/nbody.py add up to zero, a single particle
    feels no force, and the integrators keep the total momentum. *)
From Coq Require Import List Arith ZArith QArith Lia Bool Permutation Ring Qcanon Setoid Morphisms.
From Verif Require Import EngineModel Base ListFacts LayoutModel LayoutSpec LayoutProofs LayoutModes LayoutMore WrapModel WrapProofs DomainModel DomainFill DomainGeom DomainTargets
  DomainHome DomainProperties QSum WindowModel WindowStencil WindowSpread WindowKernels WindowAxis WindowNative WindowApi WindowPoints
  WindowGrad WindowTranslate
  MeshModel MeshAssign MeshRoute MeshPaint MeshTile MeshDistributed MeshGrad MeshProperties MeshProperties2 MeshProperties3
  RingModel FieldModel FieldFacts FieldProperties FieldNorm FourierModel FourierFacts FourierProperties EnginePaint NbodyModel MeshTile.
Import ListNotations.
Local Close Scope Q_scope.
Local Open Scope Z_scope.

(** * Statements *)
(** rational numbers in a ring *)
Record embedding (K : cring) (inj : Q -> K) : Prop := {
  emb_eq : forall x y, (x == y)%Q -> inj x = inj y;
  emb_add : forall x y, inj (x + y)%Q = radd (inj x) (inj y);
  emb_mul : forall x y, inj (x * y)%Q = rmul (inj x) (inj y);
  emb_one : inj 1%Q = r1
}.
(** the sum of a quantity of all particles of all ranks *)
Definition particle_sum {K : cring} (poss : list (list (list Q))) (F : nat -> nat -> K) : K :=
  rsum (fun s => rsum (F s) (seq 0 (length (nth s poss [])))) (seq 0 (length poss)).
(** the values at the particles: one per particle of every rank *)
Definition per_particle_of {K : cring} (poss : list (list (list Q))) (vs : list (list K)) : Prop :=
  map (@length _) vs = map (@length _) poss.

(** * Facts *)
Lemma sequence_some {A} (l : list (option A)) (m : list A) : l = map Some m -> sequence l = Some m.
Proof. intros ->. induction m as [|a m IH]; [reflexivity|]. cbn [map sequence]. now rewrite IH. Qed.

Section Emb.
Variable K : cring.
Add Ring Kr : (rth K).
Variable inj : Q -> K.
Hypothesis E : embedding K inj.
Local Open Scope rg_scope.
Lemma inj_zero : inj 0%Q = 0.
Proof.
  assert (H : inj 0%Q + inj 0%Q = inj 0%Q) by (rewrite <- (emb_add _ _ E); apply (emb_eq _ _ E); reflexivity).
  assert (H' : inj 0%Q = (inj 0%Q + inj 0%Q) - inj 0%Q) by ring. rewrite H in H'. rewrite H'. ring.
Qed.
Lemma inj_sum {A} (f : A -> Q) l : inj (qsum f l) = rsum (fun a => inj (f a)) l.
Proof.
  induction l as [|a l IH].
  - change (inj (qsum f []) = 0). rewrite <- inj_zero. apply (emb_eq _ _ E). rewrite qsum_nil. reflexivity.
  - rewrite rsum_cons, <- IH, <- (emb_add _ _ E). apply (emb_eq _ _ E). rewrite qsum_cons. reflexivity.
Qed.
End Emb.

(** a global function for any values *)
Lemma values_hold {V} shape (Ls : list (lfield V)) (d : V) : tiles shape Ls -> Forall (fun L => length (lvals L) = length (lcells L)) Ls ->
  exists f, holds Ls f.
Proof.
  intros T F.
  set (pairs := flat_map (fun L => combine (lcells L) (lvals L)) Ls).
  assert (E1 : map fst pairs = flat_map lcells Ls).
  { unfold pairs. clear T. induction F as [|L Ls HL F IH]; [reflexivity|]. cbn [flat_map]. rewrite map_app, IH. f_equal.
    revert HL. generalize (lcells L) (lvals L). intros l. induction l as [|a l IHl]; intros [|v m] HL; try discriminate; [reflexivity|].
    cbn [combine map fst]. rewrite IHl by (cbn [length] in HL; lia). reflexivity. }
  assert (N : NoDup (map fst pairs)).
  { rewrite E1. eapply Permutation_NoDup; [apply Permutation_sym, (tl_perm _ _ T)|apply cells_of_NoDup]. }
  set (look := fix look (ps : list (list Z * V)) k := match ps with [] => d | p :: ps => if idx_eqb (fst p) k then snd p else look ps k end).
  assert (LK : forall ps, NoDup (map fst ps) -> forall k v, In (k, v) ps -> look ps k = v).
  { induction ps as [|p ps IH]; intros Np k v Hin; [contradiction|]. cbn [map] in Np. inversion Np as [|? ? N1 N2]; subst. cbn [look]. unfold idx_eqb.
    destruct (list_eq_dec Z.eq_dec (fst p) k) as [Ek|Ne].
    - destruct Hin as [->|Hin]; [reflexivity|]. exfalso. apply N1. rewrite Ek. exact (in_map fst ps (k, v) Hin).
    - destruct Hin as [->|Hin]; [now contradiction Ne|]. now apply IH. }
  exists (look pairs). unfold holds. rewrite Forall_forall in *. intros L HL. specialize (F L HL).
  assert (Sub : forall k v, In (k, v) (combine (lcells L) (lvals L)) -> look pairs k = v).
  { intros k v Hin. apply LK; [exact N|]. unfold pairs. apply in_flat_map. eauto. }
  revert F Sub. generalize (lcells L) (lvals L). intros l. induction l as [|a l IH]; intros [|v m] F Sub; try discriminate; [reflexivity|].
  cbn [map]. f_equal; [symmetry; apply Sub; left; reflexivity|]. apply IH; [cbn [length] in F; lia|]. intros k w Hin. apply Sub. right. exact Hin.
Qed.

(** ** imaginary transfer functions *)
Section Transfer.
Variable K : cring.
Add Ring Kr2 : (rth K).
Local Notation C := (cpx K).
Local Notation csum := (rsum (K := cpx_cring K)).
Variables (base : list Z) (n : Z).
Local Notation N := (N base n).
Local Notation half := (half base n).
Variables (ws : list C) (is : list K).
Hypothesis M : mesh_roots K N ws is.

Lemma transfer_holds (tf : list Z -> C) (Ls : list (lfield C)) c : holds Ls c ->
  holds (map (on_modes K (fun i v => cmul (tf i) v)) Ls) (fun k => cmul (tf k) (c k)).
Proof.
  intros H. unfold holds in *. rewrite Forall_forall in *. intros L' HL'. apply in_map_iff in HL'. destruct HL' as (L & <- & HL).
  unfold on_modes. cbn [lvals]. change (lcells {| lstart := lstart L; lshape := lshape L; lvals := _ |}) with (lcells L).
  rewrite (H L HL). rewrite <- (map_id (lcells L)) at 1. rewrite combine_map_map, map_map. reflexivity.
Qed.
Lemma transfer_tiles shape (tf : list Z -> C) (Ls : list (lfield C)) : tiles shape Ls ->
  tiles shape (map (on_modes K (fun i v => cmul (tf i) v)) Ls).
Proof. intros T. apply (tiles_same shape Ls); [| |exact T]; rewrite map_map; reflexivity. Qed.

(** the field and its filtered version are orthogonal *)
Lemma imaginary_orthogonal (tf : list Z -> C) (Ls : list (lfield K)) (Mid : list (lfield C)) f :
  (forall k, re (tf k) = r0) -> tiles N Ls -> holds Ls f -> tiles half Mid ->
  exists x, holds (c2r K N ws (map (on_modes K (fun i v => cmul (tf i) v)) (r2c K ws is Ls Mid)) Ls) x /\
    rsum (fun q => rmul (f q) (x q)) (cells_of N) = r0.
Proof.
  intros Im T H TM.
  set (c := fun k => cmul (tf k) (spectrum K base n ws is f k)).
  exists (fun q => re (synthesis K base n ws c q)). split.
  - apply (c2r_holds K base n ws is M); [|apply transfer_holds; now apply (r2c_holds K base n ws is)|exact T].
    apply transfer_tiles. apply (tiles_same half Mid); [| |exact TM]; unfold r2c; rewrite map_map; reflexivity.
  - unfold synthesis. rewrite (rsum_re_swap K base n ws). apply rsum_zero. intros k Hk.
    set (S := csum (fun x => cmul (cof (f x)) (cconj (chi K ws k x))) (cells_of N)).
    set (z := rprod K (sizes K N)).
    assert (ES : S = cmul (spectrum K base n ws is f k) (cof z)).
    { unfold spectrum. fold S. rewrite <- cmul_assoc.
      assert (X : cmul (cof (rprod K is)) (cof z) = c1).
      { pose proof (inv_sizes K N ws is M) as I. unfold cmul, cof, c1. cbn. f_equal; [|ring]. fold z in I. rewrite <- I. ring. }
      rewrite X. now rewrite cmul_1_r. }
    rewrite ES. assert (EF : exists t, re t = r0 /\ full K N half c k = cmul t (spectrum K base n ws is f k)).
    { unfold full. destruct (memb k (cells_of half)); [exists (tf k); split; [apply Im|reflexivity]|].
      exists (cconj (tf (opposite N k))). split; [unfold cconj, re; cbn [fst]; apply Im|].
      unfold c. rewrite (spectrum_opposite K base n ws is M) by now apply cells_valid. now rewrite cconj_mul, cconj_involutive. }
    destruct EF as (t & It & ->). generalize (spectrum K base n ws is f k). intros s. destruct t as [ta tb], s as [sa sb].
    unfold re in It. cbn [fst] in It. subst ta. unfold cmul, cconj, cof, re, im. cbn. ring.
Qed.
End Transfer.

(** ** reading is the adjoint of painting *)
Section Adjoint.
Variable K : cring.
Add Ring Kr3 : (rth K).
Variable inj : Q -> K.
Hypothesis E : embedding K inj.
Variables (pms : list pm) (w : option window) (ls : list layout) (arrays : list WindowModel.array) (poss : list (list (list Q))).
Hypothesis CK : call_ok pms w None (Some ls) arrays poss.
Local Notation P := (length poss).
Local Notation arr r := (nth r arrays (f_array zero_field)).

Lemma spike_arrays r idx : map f_array (spike arrays r idx) = arrays.
Proof. unfold spike. rewrite map_map. cbn [f_array]. now apply map_nth_seq. Qed.
Lemma array_overlap q : (q < P)%nat -> no_overlap (arr q).
Proof.
  intros Hq. pose proof (ck_arrays _ _ _ _ _ _ CK) as La. pose proof (ck_transforms _ _ _ _ _ _ CK) as Lt.
  destruct (ck_ranks _ _ _ _ _ _ CK q (arr q) (nth q (transforms pms None) zero_affine)) as [Wf _].
  - apply nth_error_nth'. lia.
  - apply nth_error_nth'. lia.
  - apply Wf.
Qed.
Lemma spike_value r idx q idx' : (q < P)%nat -> In idx (elements (arr r)) -> In idx' (elements (arr q)) ->
  value_at (spike arrays r idx) q idx' = if (q =? r)%nat && idx_eqb idx' idx then 1%Q else 0%Q.
Proof.
  intros Hq Hi Hi'. unfold value_at, spike. pose proof (ck_arrays _ _ _ _ _ _ CK) as La. rewrite nth_map_seq by lia.
  cbn [f_array f_data]. unfold elem. destruct (Nat.eqb_spec q r) as [->|Hne]; [|reflexivity]. cbn [andb]. unfold idx_eqb.
  destruct (list_eq_dec Z.eq_dec idx' idx) as [->|Ne]; [now rewrite Z.eqb_refl|].
  destruct (Z.eqb_spec (byte_offset (ar_strides (arr r)) idx') (byte_offset (ar_strides (arr r)) idx)) as [Eq|]; [|reflexivity].
  exfalso. apply Ne. exact (array_overlap r Hq idx' idx Hi' Hi Eq).
Qed.
Lemma spike_sum r idx G : (r < P)%nat -> In idx (elements (arr r)) ->
  (cell_sum poss (spike arrays r idx) (value_at (spike arrays r idx)) G == G r idx)%Q.
Proof.
  intros Hr Hi. unfold cell_sum.
  assert (Ar : forall q, f_array (nth q (spike arrays r idx) zero_field) = arr q).
  { intros q. rewrite <- (map_nth f_array), spike_arrays. reflexivity. }
  rewrite (qsum_single _ (seq 0 P) r); [|apply seq_NoDup|apply in_seq; lia|].
  - rewrite (qsum_single _ _ idx); [|rewrite Ar; apply box_NoDup|rewrite Ar; exact Hi|].
    + rewrite spike_value by assumption. rewrite Nat.eqb_refl. unfold idx_eqb. destruct (list_eq_dec Z.eq_dec idx idx); [|contradiction]. cbn [andb]. ring.
    + intros j Hj Ne. rewrite Ar in Hj. rewrite spike_value by assumption. unfold idx_eqb. destruct (list_eq_dec Z.eq_dec j idx); [contradiction|]. rewrite andb_false_r. ring.
  - intros q Hq Ne. apply in_seq in Hq. apply qsum_zero. intros j Hj. rewrite Ar in Hj. rewrite spike_value by (assumption || lia).
    apply Nat.eqb_neq in Ne. rewrite Ne. cbn [andb]. ring.
Qed.

Lemma in_cells_with (Fs : list (lfield K)) c : In c (cells_with K arrays Fs) -> (fst (fst c) < P)%nat /\ In (snd (fst c)) (elements (arr (fst (fst c)))).
Proof.
  unfold cells_with. intros H. apply in_flat_map in H. destruct H as (r & Hr & H). apply in_seq in Hr. apply in_map_iff in H.
  destruct H as ([i v] & <- & H). cbn [fst snd]. pose proof (ck_arrays _ _ _ _ _ _ CK) as La. split; [lia|]. exact (in_combine_l _ _ _ _ H).
Qed.

(** what is read from the field that is one in one cell, for a list of cells *)
Lemma reads_exist (cells : list (nat * list Z * K)) :
  Forall (fun c => (fst (fst c) < P)%nat /\ In (snd (fst c)) (elements (arr (fst (fst c))))) cells ->
  exists reads, sequence (map (fun c => option_map (pair (snd c)) (all_ret (pm_readout pms w None None (Some ls) (spike arrays (fst (fst c)) (snd (fst c))) poss WNone))) cells) = Some reads /\
    Forall2 (fun c y => fst y = snd c /\ pm_readout pms w None None (Some ls) (spike arrays (fst (fst c)) (snd (fst c))) poss WNone = map Ret (snd y) /\
                        map (@length Q) (snd y) = map (@length _) poss) cells reads.
Proof.
  intros F. destruct (call_routing _ _ _ _ _ _ CK) as [T HT].
  induction F as [|c cells [Hr Hi] F (reads & IH1 & IH2)]; [exists []; split; [reflexivity|constructor]|].
  pose proof (spike_arrays (fst (fst c)) (snd (fst c))) as Ea.
  destruct (routed_read poss _ T HT _ _ (ck_window _ _ _ _ _ _ CK) (ck_transforms _ _ _ _ _ _ CK) pms w None eq_refl eq_refl
     (spike arrays (fst (fst c)) (snd (fst c))) None (fields_length _ _ _ _ _ _ CK _ Ea) (call_rank _ _ _ _ _ _ CK None _ Ea Logic.I)) as (vs & E1 & E2 & _).
  exists ((snd c, vs) :: reads). split.
  - cbn [map sequence]. rewrite E1, all_ret_Ret. cbn [option_map]. rewrite IH1. reflexivity.
  - constructor; [|exact IH2]. repeat split; assumption.
Qed.

Lemma inj_tags mass vs : map (@length Q) mass = map (@length _) poss -> map (@length Q) vs = map (@length _) poss ->
  inj (tag_sum poss mass vs) = particle_sum poss (fun s i => rmul (inj (nth i (nth s mass []) 0%Q)) (inj (nth i (nth s vs []) 0%Q))).
Proof.
  intros Hm Hv. unfold tag_sum, particle_sum. rewrite (emb_eq _ _ E _ _ (qsum_all_tags poss _)). rewrite (inj_sum K inj E).
  apply rsum_ext. intros s. rewrite (inj_sum K inj E). apply rsum_ext. intros i. rewrite (emb_mul _ _ E). reflexivity.
Qed.

Theorem adjoint outs mass (Fs : list (lfield K)) : map f_array outs = arrays -> map (@length Q) mass = map (@length _) poss ->
  exists ms R, pm_paint pms w None false None (Some ls) outs poss WNone (WArray mass) = map Ret ms /\ length ms = P /\
    readout_in K inj pms w ls arrays Fs poss = Some R /\ per_particle_of poss R /\
    particle_sum poss (fun s i => rmul (inj (nth i (nth s mass []) 0%Q)) (nth i (nth s R []) r0)) =
    rsum (fun c => rmul (snd c) (inj (elem (arr (fst (fst c))) (nth (fst (fst c)) ms (fun _ => 0%Q)) (snd (fst c))))) (cells_with K arrays Fs).
Proof.
  intros Ea Hm. destruct (call_routing _ _ _ _ _ _ CK) as [T HT].
  destruct (routed_paint poss _ T HT _ _ (ck_window _ _ _ _ _ _ CK) (ck_transforms _ _ _ _ _ _ CK) pms w None eq_refl eq_refl
      outs false None mass (fields_length _ _ _ _ _ _ CK _ Ea) (call_rank _ _ _ _ _ _ CK None _ Ea Logic.I) Hm) as (ms & Ep & Lms & _).
  destruct (reads_exist (cells_with K arrays Fs)) as (reads & Er & F2).
  { apply Forall_forall. intros c Hc. exact (in_cells_with Fs c Hc). }
  exists ms. unfold readout_in. rewrite Er. eexists. split; [exact Ep|]. split; [exact Lms|]. split; [reflexivity|]. split.
  - unfold per_particle_of. rewrite map_map. rewrite <- (map_nth_seq poss [] _ eq_refl) at 2. rewrite map_map. apply map_ext. intros s.
    rewrite map_length, seq_length. reflexivity.
  - assert (X : particle_sum poss (fun s i => rmul (inj (nth i (nth s mass []) 0%Q)) (nth i (nth s (map (fun s => map (fun i =>
        rsum (fun y => rmul (fst y) (inj (nth i (nth s (snd y) []) 0%Q))) reads) (seq 0 (length (nth s poss [])))) (seq 0 P)) []) r0)) =
        rsum (fun y => rmul (fst y) (inj (tag_sum poss mass (snd y)))) reads).
    { unfold particle_sum.
      rewrite (rsum_ext_in K _ (fun s => rsum (fun y => rsum (fun i => rmul (fst y) (rmul (inj (nth i (nth s mass []) 0%Q)) (inj (nth i (nth s (snd y) []) 0%Q))))
          (seq 0 (length (nth s poss [])))) reads)).
      - rewrite rsum_swap. apply rsum_ext_in. intros y Hy.
        rewrite inj_tags; [|exact Hm|].
        + unfold particle_sum. rewrite <- rsum_scale. apply rsum_ext. intros s. rewrite <- rsum_scale. reflexivity.
        + clear -F2 Hy. induction F2 as [|c z cs rs (_ & _ & H) F2 IH]; [contradiction|]. destruct Hy as [<-|Hy]; [exact H|now apply IH].
      - intros s Hs. apply in_seq in Hs. rewrite rsum_swap. apply rsum_ext_in. intros i Hi. apply in_seq in Hi.
        rewrite nth_map_seq by lia. rewrite nth_map_seq by lia. rewrite <- rsum_scale. apply rsum_ext. intros y. ring. }
    rewrite X. clear X Er.
    assert (Fc : Forall (fun c => (fst (fst c) < P)%nat /\ In (snd (fst c)) (elements (arr (fst (fst c))))) (cells_with K arrays Fs)).
    { apply Forall_forall. intros c Hc. exact (in_cells_with Fs c Hc). }
    revert Fc F2. generalize (cells_with K arrays Fs). intros cells Fc F2. induction F2 as [|c y cells reads (E1 & E2 & E3) F2 IH]; [reflexivity|].
    inversion_clear Fc as [|? ? [Hr Hi] Fc']. rewrite !rsum_cons, IH by exact Fc'. f_equal. rewrite E1. f_equal. apply (emb_eq _ _ E).
    rewrite <- (spike_sum (fst (fst c)) (snd (fst c)) (fun r idx => elem (arr r) (nth r ms (fun _ => 0%Q)) idx) Hr Hi).
    pose proof (spike_arrays (fst (fst c)) (snd (fst c))) as Es.
    pose proof (routed_dual poss _ T HT _ _ (ck_window _ _ _ _ _ _ CK) (ck_transforms _ _ _ _ _ _ CK) pms w None eq_refl eq_refl
      outs false None mass (spike arrays (fst (fst c)) (snd (fst c))) ms (snd y) (fields_length _ _ _ _ _ _ CK _ Ea) (eq_trans Es (eq_sym Ea))
      (call_rank _ _ _ _ _ _ CK None _ Ea Logic.I) Hm Ep E2) as D.
    rewrite Qplus_0_l in D. rewrite <- D. unfold cell_sum. apply qsum_ext. intros q. apply qsum_ext. intros j.
    rewrite <- (map_nth f_array outs zero_field q), Ea. reflexivity.
Qed.
End Adjoint.

(** ** what is read from a field of rational numbers *)
Section Rational.
Variable K : cring.
Add Ring Kr4 : (rth K).
Variable inj : Q -> K.
Hypothesis E : embedding K inj.
Variables (pms : list pm) (w : option window) (ls : list layout) (arrays : list WindowModel.array) (poss : list (list (list Q))).
Hypothesis CK : call_ok pms w None (Some ls) arrays poss.
Local Notation P := (length poss).
Local Notation arr r := (nth r arrays (f_array zero_field)).

Lemma call_pms_length : length pms = P.
Proof. pose proof (ck_transforms _ _ _ _ _ _ CK) as H. cbn [transforms] in H. rewrite map_length in H. exact H. Qed.
Lemma real_blocks_seq ms : length ms = P -> real_blocks K inj pms arrays ms =
  map (fun r => mkL (nth r (map pm_start pms) []) (nth r (map pm_shape pms) []) (map (fun idx => inj (elem (arr r) (nth r ms (fun _ => 0%Q)) idx)) (elements (arr r)))) (seq 0 P).
Proof.
  intros Lm. pose proof (ck_arrays _ _ _ _ _ _ CK) as La. pose proof call_pms_length as Lp. unfold real_blocks.
  revert Lm La Lp. generalize P as p. generalize arrays as a. revert ms. clear CK. induction pms as [|q qs IH]; intros ms a p Lm La Lp.
  - cbn [length] in Lp. rewrite <- Lp. reflexivity.
  - destruct p as [|p]; [discriminate|]. destruct a as [|b a]; [discriminate|]. destruct ms as [|m ms]; [discriminate|].
    cbn [combine map seq fst snd nth]. f_equal. rewrite <- seq_shift, map_map. cbn [nth]. apply IH; cbn [length] in *; lia.
Qed.
Lemma cells_with_blocks (ms : list memory) : length ms = P -> forall H : nat -> list Z -> K,
  rsum (fun c => rmul (snd c) (H (fst (fst c)) (snd (fst c)))) (cells_with K arrays (real_blocks K inj pms arrays ms)) =
  rsum (fun r => rsum (fun idx => rmul (inj (elem (arr r) (nth r ms (fun _ => 0%Q)) idx)) (H r idx)) (elements (arr r))) (seq 0 P).
Proof.
  intros Lm H. rewrite real_blocks_seq by exact Lm. unfold cells_with. pose proof (ck_arrays _ _ _ _ _ _ CK) as La. rewrite La.
  rewrite rsum_flat_map. apply rsum_ext_in. intros r Hr. apply in_seq in Hr. rewrite nth_map_seq by lia. cbn [lvals].
  rewrite rsum_map. rewrite <- (map_id (elements (arr r))) at 1. rewrite combine_map_map, rsum_map. reflexivity.
Qed.

(** the mass of one particle *)
Definition one_mass (s i : nat) : list (list Q) :=
  map (fun q => map (fun j => if (q =? s)%nat && (j =? i)%nat then 1%Q else 0%Q) (seq 0 (length (nth q poss [])))) (seq 0 P).
Lemma one_mass_length s i : map (@length Q) (one_mass s i) = map (@length _) poss.
Proof.
  unfold one_mass. rewrite map_map. pose proof (f_equal (map (@length _)) (map_nth_seq poss [] _ eq_refl)) as X. rewrite map_map in X. rewrite <- X. apply map_ext. intros q.
  now rewrite map_length, seq_length.
Qed.
Lemma one_mass_sum s i (F : nat -> nat -> K) : (s < P)%nat -> (i < length (nth s poss []))%nat ->
  particle_sum poss (fun q j => rmul (inj (nth j (nth q (one_mass s i) []) 0%Q)) (F q j)) = F s i.
Proof.
  intros Hs Hi. unfold particle_sum. rewrite (rsum_single K Nat.eq_dec _ (seq 0 P) s); [|apply seq_NoDup|apply in_seq; lia|intros q Hq Ne].
  - rewrite (rsum_single K Nat.eq_dec _ _ i); [|apply seq_NoDup|apply in_seq; lia|intros j Hj Ne].
    + unfold one_mass. rewrite nth_map_seq by exact Hs. rewrite nth_map_seq by exact Hi. rewrite !Nat.eqb_refl. cbn [andb]. rewrite (emb_one _ _ E). ring.
    + apply in_seq in Hj. unfold one_mass. rewrite nth_map_seq by exact Hs. rewrite nth_map_seq by lia.
      apply Nat.eqb_neq in Ne. rewrite Ne, andb_false_r, (inj_zero K inj E). ring.
  - apply in_seq in Hq. apply rsum_zero. intros j Hj. apply in_seq in Hj. unfold one_mass. rewrite nth_map_seq by lia. rewrite nth_map_seq by lia.
    apply Nat.eqb_neq in Ne. rewrite Ne. cbn [andb]. rewrite (inj_zero K inj E). ring.
Qed.

Theorem read_rational fields vs : map f_array fields = arrays ->
  pm_readout pms w None None (Some ls) fields poss WNone = map Ret vs ->
  readout_in K inj pms w ls arrays (real_blocks K inj pms arrays (map f_data fields)) poss = Some (map (map inj) vs).
Proof.
  intros Ef Er. set (Fs := real_blocks K inj pms arrays (map f_data fields)).
  pose proof (fields_length _ _ _ _ _ _ CK _ Ef) as Lf. destruct (call_routing _ _ _ _ _ _ CK) as [T HT].
  destruct (routed_read poss _ T HT _ _ (ck_window _ _ _ _ _ _ CK) (ck_transforms _ _ _ _ _ _ CK) pms w None eq_refl eq_refl
     fields None Lf (call_rank _ _ _ _ _ _ CK None _ Ef Logic.I)) as (vs' & E1 & E2 & _).
  assert (vs' = vs) by (apply map_Ret_inj; congruence). subst vs'.
  destruct (adjoint K inj E pms w ls arrays poss CK fields (one_mass 0 0) Fs Ef (one_mass_length 0 0)) as (_ & R & _ & _ & ER & LR & _).
  rewrite ER. f_equal.
  assert (X : forall s i, (s < P)%nat -> (i < length (nth s poss []))%nat -> nth i (nth s R []) r0 = inj (nth i (nth s vs []) 0%Q)).
  { intros s i Hs Hi.
    destruct (adjoint K inj E pms w ls arrays poss CK fields (one_mass s i) Fs Ef (one_mass_length s i)) as (ms & R' & Ep & Lm & ER' & _ & D).
    assert (R' = R) by congruence. subst R'.
    rewrite <- (one_mass_sum s i (fun s i => nth i (nth s R []) r0) Hs Hi).
    rewrite <- (one_mass_sum s i (fun s i => inj (nth i (nth s vs []) 0%Q)) Hs Hi).
    rewrite D. rewrite <- (inj_tags K inj E poss) by (apply one_mass_length || exact E2).
    pose proof (routed_dual poss _ T HT _ _ (ck_window _ _ _ _ _ _ CK) (ck_transforms _ _ _ _ _ _ CK) pms w None eq_refl eq_refl
      fields false None (one_mass s i) fields ms vs Lf eq_refl (call_rank _ _ _ _ _ _ CK None _ Ef Logic.I) (one_mass_length s i) Ep Er) as D2.
    rewrite Qplus_0_l in D2. rewrite <- (emb_eq _ _ E _ _ D2). unfold Fs. unfold cell_sum. rewrite (inj_sum K inj E).
    rewrite (cells_with_blocks (map f_data fields)) with (H := fun r idx => inj (elem (arr r) (nth r ms (fun _ => 0%Q)) idx)) by (rewrite map_length; exact Lf).
    apply rsum_ext_in. intros r Hr. apply in_seq in Hr.
    rewrite <- (map_nth f_array fields zero_field r), Ef. rewrite (inj_sum K inj E). apply rsum_ext. intros idx. rewrite (emb_mul _ _ E). f_equal. f_equal.
    unfold value_at. rewrite <- (map_nth f_array fields zero_field r), Ef. f_equal.
    change (fun _ : Z => 0%Q) with (f_data zero_field). apply map_nth. }
  unfold per_particle_of in LR.
  apply (nth_ext _ _ [] []).
  { rewrite map_length. apply (f_equal (@length nat)) in LR. apply (f_equal (@length nat)) in E2. rewrite !map_length in *. lia. }
  intros s Hs. assert (Hs' : (s < P)%nat) by (apply (f_equal (@length nat)) in LR; rewrite !map_length in LR; lia).
  assert (Lr : length (nth s R []) = length (nth s poss [])) by (rewrite <- !(map_nth (@length _)); now rewrite LR).
  assert (Lv : length (nth s vs []) = length (nth s poss [])) by (rewrite <- !(map_nth (@length _)); now rewrite E2).
  change (@nil K) with (map inj []) at 2. rewrite map_nth. apply (nth_ext _ _ r0 (inj 0%Q)); [rewrite map_length; lia|].
  intros i Hi. rewrite map_nth. apply X; [exact Hs'|lia].
Qed.
End Rational.

(** ** forces *)
Section Force.
Variable K : cring.
Add Ring Kr5 : (rth K).
Local Notation C := (cpx K).
Variable inj : Q -> K.
Hypothesis E : embedding K inj.
Variables (inv : K -> K) (twopi : K).
Variables (base : list Z) (n : Z).
Local Notation N := (N base n).
Local Notation half := (half base n).
Variables (ws : list C) (is : list K).
Hypothesis M : mesh_roots K N ws is.
Variables (BoxSize : value Q) (box : list Q) (w0 : window) (pt : partition) (blocks : list (list Z)) (pms : list pm).
Hypothesis W : world N BoxSize box w0 pt blocks pms.
Hypothesis Hk : (0 < native_of (w_kind w0))%Z.
Hypothesis Hsup : (0 <= w_support w0)%Z.
Variable outs : list field.
Hypothesis Lo : length outs = length blocks.
Hypothesis Hst : forall r, (r < length blocks)%nat -> MeshRoute.stored (f_array (nth r outs zero_field)) (block_shape (i_edges pt) (block blocks r)).
Variable Mid : list (lfield C).
Hypothesis TM : tiles half Mid.
Local Notation arrays := (map f_array outs).
Local Notation P := (length blocks).

Lemma array_nth r : nth r arrays (f_array zero_field) = f_array (nth r outs zero_field).
Proof. apply (map_nth f_array). Qed.
Lemma pm_nth r : (r < P)%nat -> nth r (map pm_start pms) [] = block_start (i_edges pt) (block blocks r) /\
  nth r (map pm_shape pms) [] = block_shape (i_edges pt) (block blocks r).
Proof.
  intros Hr. rewrite (world_pms _ _ _ _ _ _ _ W), !map_map. rewrite !nth_map_seq by exact Hr. split; reflexivity.
Qed.
Lemma block_tiles : tiles N (map (fun r => mkL (nth r (map pm_start pms) []) (nth r (map pm_shape pms) []) ([] : list K)) (seq 0 P)).
Proof.
  pose proof (wd_mesh _ _ _ _ _ _ _ W) as OK. split.
  - apply Forall_forall. intros L HL. apply in_map_iff in HL. destruct HL as (r & <- & Hr). apply in_seq in Hr. cbn [lstart lshape].
    destruct (pm_nth r ltac:(lia)) as [-> ->]. split; [apply (start_length _ _ _ OK); lia|apply (block_shape_length _ _ _ OK); lia].
  - rewrite <- (blocks_tile N pt blocks OK). rewrite flat_map_concat_map, map_map, <- flat_map_concat_map.
    rewrite !flat_map_concat_map. erewrite map_ext_in; [reflexivity|]. intros r Hr. apply in_seq in Hr. unfold lcells, rank_cells. cbn [lstart lshape].
    destruct (pm_nth r ltac:(lia)) as [-> ->]. apply map_ext_in. intros idx Hi.
    unfold zadd. revert idx Hi. intros idx _. generalize (block_start (i_edges pt) (block blocks r)). intros l. revert idx.
    induction l as [|a l IH]; intros [|b idx]; try reflexivity. cbn [combine map fst snd]. rewrite IH. f_equal. lia.
Qed.
Lemma fac_inverse X : (0 < length (concat X))%nat -> exists c, (factor pms X * c == 1)%Q.
Proof.
  intros Hx. rewrite (factor_is _ _ _ _ _ _ _ X W). unfold per_particle. exists (inject_Z (Z.of_nat (length (concat X))) / inject_Z (prodz N))%Q.
  assert (Pp : (0 < prodz N)%Z).
  { pose proof (N_pos K base n ws is M) as F. clear -F. induction F as [|a l Ha F IH]; [reflexivity|]. cbn [prodz fold_right]. unfold prodz in IH. nia. }
  field. split; intros H; unfold Qeq in H; cbn in H; lia.
Qed.

Theorem momentum : forall (tf : nat -> list K -> C) om X, (forall d k, re (tf d k) = r0) -> particles_ok (length N) P X ->
  exists F, forces K inj inv twopi ws is tf None om pms N box outs Mid X = Some F /\
    length F = length N /\ Forall (per_particle_of X) F /\
    forall d, (d < length N)%nat -> particle_sum X (fun s i => nth i (nth s (nth d F []) []) r0) = r0.
Proof.
  intros tf om X Im Hp. pose proof (wd_mesh _ _ _ _ _ _ _ W) as OK. pose proof (world_blocks _ _ _ _ _ _ _ W) as H0.
  assert (Sup : match pms with p :: _ => w_support (pm_resampler p) | [] => 0%Z end = w_support w0).
  { rewrite (world_pms _ _ _ _ _ _ _ W). destruct P as [|m]; [lia|]. reflexivity. }
  assert (La : length arrays = P) by (rewrite map_length; exact Lo).
  destruct (C33_applies _ _ _ _ _ _ _ W X (mesh_scale N box) None (SmoothNumber (Scalar (1 * inject_Z (w_support w0))%Q))
     (repeat (1 * inject_Z (w_support w0))%Q (length N)) None arrays Hp) as (ls & Ed & CK & _).
  - apply (mesh_scale_length _ _ _ _ _ _ _ W).
  - exact (default_affines _ _ _ _ _ _ _ W).
  - reflexivity.
  - apply repeat_length.
  - apply Forall_forall. intros q Hin. apply repeat_spec in Hin. subst q. rewrite Qmult_1_l. unfold Qle. cbn. lia.
  - rewrite (default_resampler _ _ _ _ _ _ _ W). exact Hk.
  - exact La.
  - intros r Hr. rewrite array_nth. apply Hst. exact Hr.
  - destruct Hp as [Lp Dp].
    unfold forces. rewrite Sup, Ed, all_ret_Ret.
    destruct (unit_paint _ _ _ _ CK false outs eq_refl) as (m1 & m2 & P1 & L1 & P2 & E12).
    rewrite P1, all_ret_Ret.
    set (fac := factor pms X). set (sm := map (fun p => scale_by (fst p) (snd p) fac) (combine arrays m1)).
    set (rho := real_blocks K inj pms arrays sm).
    assert (Lsm : length sm = length X) by (unfold sm; rewrite map_length, combine_length; lia).
    assert (Er : rho = map (fun r => mkL (nth r (map pm_start pms) []) (nth r (map pm_shape pms) [])
       (map (fun idx => inj (elem (nth r arrays (f_array zero_field)) (nth r sm (fun _ => 0%Q)) idx)) (elements (nth r arrays (f_array zero_field))))) (seq 0 P)).
    { unfold rho. rewrite (real_blocks_seq K inj _ _ _ _ _ CK sm Lsm). rewrite Lp. reflexivity. }
    assert (Trho : tiles N rho).
    { eapply tiles_same; [| |exact block_tiles]; rewrite Er, !map_map; reflexivity. }
    assert (El : forall r, (r < P)%nat -> elements (nth r arrays (f_array zero_field)) = cells_of (nth r (map pm_shape pms) [])).
    { intros r Hr. unfold elements, cells_of. rewrite array_nth. rewrite (proj1 (Hst r Hr)). rewrite (proj2 (pm_nth r Hr)). reflexivity. }
    destruct (values_hold N rho r0 Trho) as [f Hf].
    { rewrite Er. apply Forall_forall. intros L HL. apply in_map_iff in HL. destruct HL as (r & <- & Hr). apply in_seq in Hr.
      unfold lcells. cbn [lvals lstart lshape]. rewrite !map_length. rewrite El by lia. reflexivity. }
    (* one component *)
    assert (One : forall d, exists R,
      readout_in K inj pms None ls arrays (c2r K N ws (map (on_modes K (fun i v => cmul (tf d (wave K (units K inj inv twopi box) N i)) v)) (r2c K ws is rho Mid)) rho) X = Some R /\
      per_particle_of X R /\ particle_sum X (fun s i => nth i (nth s R []) r0) = r0).
    { intros d.
      destruct (imaginary_orthogonal K base n ws is M (fun i => tf d (wave K (units K inj inv twopi box) N i)) rho Mid f
        (fun k => Im d _) Trho Hf TM) as (x & Hx & Ort).
      set (G := c2r K N ws _ rho) in *.
      destruct (adjoint K inj E pms None ls arrays X CK outs (unit_array X) G eq_refl (unit_lengths X)) as (ms & R & Ep & Lm & ER & LR & D).
      assert (ms = m2) by (apply map_Ret_inj; congruence). subst ms.
      exists R. split; [exact ER|]. split; [exact LR|].
      destruct (Nat.eq_dec (length (concat X)) 0) as [Z0|Zp].
      - unfold particle_sum. apply rsum_zero. intros s Hs. apply in_seq in Hs.
        assert (Ln : length (nth s X []) = 0%nat).
        { clear -Z0 Hs. revert s Hs. induction X as [|y ys IH]; intros s Hs; [cbn in Hs; lia|]. cbn [concat] in Z0. rewrite app_length in Z0.
          destruct s as [|s]; cbn [nth]; [lia|]. apply IH; [lia|]. cbn [length] in Hs. lia. }
        rewrite Ln. reflexivity.
      - destruct (fac_inverse X ltac:(lia)) as [c Hc]. fold fac in Hc.
        transitivity (particle_sum X (fun s i => rmul (inj (nth i (nth s (unit_array X) []) 0%Q)) (nth i (nth s R []) r0))).
        { unfold particle_sum. apply rsum_ext_in. intros s Hs. apply in_seq in Hs. apply rsum_ext_in. intros i Hi. apply in_seq in Hi.
          pose proof (unit_pick X s i ltac:(lia) ltac:(lia)) as U. unfold pick in U. cbn [fst snd] in U. rewrite U, (emb_one _ _ E). ring. }
        rewrite D. transitivity (rmul (inj c) (rsum (fun q => rmul (f q) (x q)) (cells_of N))); [|rewrite Ort; ring].
        rewrite <- (tiles_sum K N rho (fun q => rmul (f q) (x q)) Trho). rewrite Er. rewrite rsum_map. rewrite <- rsum_scale.
        unfold cells_with. rewrite rsum_flat_map, La. apply rsum_ext_in. intros r Hr. apply in_seq in Hr. rewrite rsum_map.
        set (L := mkL (nth r (map pm_start pms) []) (nth r (map pm_shape pms) []) (map (fun idx => inj (elem (nth r arrays (f_array zero_field)) (nth r sm (fun _ => 0%Q)) idx)) (elements (nth r arrays (f_array zero_field))))).
        assert (InL : In L rho) by (rewrite Er; apply in_map_iff; exists r; split; [reflexivity|apply in_seq; lia]).
        assert (EG : lvals (nth r G (mkL [] [] [])) = map x (lcells L)).
        { unfold holds in Hx. rewrite Forall_forall in Hx.
          assert (Hn : nth r G (mkL [] [] []) = on_block (dft_c2r K N ws (map (on_modes K (fun i v => cmul (tf d (wave K (units K inj inv twopi box) N i)) v)) (r2c K ws is rho Mid))) L).
          { unfold G, c2r. rewrite (nth_map_in _ rho r (mkL [] [] []) L) by (rewrite Er, map_length, seq_length; lia). f_equal.
            rewrite Er. rewrite nth_map_seq by lia. reflexivity. }
          rewrite Hn. specialize (Hx (nth r G (mkL [] [] []))). rewrite Hn in Hx. rewrite Hx.
          - unfold on_block. unfold lcells at 1. cbn [lstart lshape]. reflexivity.
          - rewrite <- Hn. apply nth_In. unfold G, c2r. rewrite map_length, Er, map_length, seq_length. lia. }
        unfold holds in Hf. rewrite Forall_forall in Hf. specialize (Hf L InL).
        rewrite EG.
        assert (Hf' : map (fun idx => inj (elem (nth r arrays (f_array zero_field)) (nth r sm (fun _ => 0%Q)) idx)) (elements (nth r arrays (f_array zero_field))) =
          map f (map (zadd (nth r (map pm_start pms) [])) (cells_of (nth r (map pm_shape pms) [])))) by exact Hf.
        clear Hf. rename Hf' into Hf.
        change (lcells L) with (map (zadd (nth r (map pm_start pms) [])) (cells_of (nth r (map pm_shape pms) []))).
        rewrite El in Hf by lia. rewrite map_map in Hf. rewrite El by lia.
        rewrite !map_map, rsum_map. set (cells := cells_of (nth r (map pm_shape pms) [])) in *. set (st := nth r (map pm_start pms) []) in *.
        rewrite <- (map_id cells) at 1. rewrite combine_map_map, rsum_map.
        rewrite <- rsum_scale. apply rsum_ext_in. intros idx Hi. cbn [fst snd].
        assert (Hv : f (zadd st idx) = inj (elem (nth r arrays (f_array zero_field)) (nth r sm (fun _ => 0%Q)) idx)).
        { apply In_nth with (d := []) in Hi. destruct Hi as (j & Hj & <-).
          apply (f_equal (fun l => nth j l r0)) in Hf.
          rewrite (nth_map_in _ cells j r0 []), (nth_map_in _ cells j r0 []) in Hf by exact Hj. symmetry. exact Hf. }
        rewrite Hv. assert (Hin : In idx (elements (nth r arrays (f_array zero_field)))) by (rewrite El by lia; exact Hi).
        assert (Es : elem (nth r arrays (f_array zero_field)) (nth r sm (fun _ => 0%Q)) idx = (elem (nth r arrays (f_array zero_field)) (nth r m1 (fun _ => 0%Q)) idx * fac)%Q).
        { set (m0 := (fun _ => 0%Q) : memory). assert (Hn : nth r sm m0 = scale_by (nth r arrays (f_array zero_field)) (nth r m1 m0) fac).
          { unfold sm. rewrite (nth_map_in _ (combine arrays m1) r m0 (f_array zero_field, m0)) by (rewrite combine_length; lia).
            rewrite (combine_nth arrays m1 r (f_array zero_field) m0 (eq_trans La (eq_sym (eq_trans L1 Lp)))). reflexivity. }
          change (fun _ : Z => 0%Q) with m0. rewrite Hn. apply scale_elem. exact Hin. }
        rewrite Es. rewrite <- (emb_eq _ _ E _ _ (E12 r idx ltac:(lia) Hin)). rewrite (emb_mul _ _ E).
        assert (Ec : rmul (inj fac) (inj c) = r1) by (rewrite <- (emb_mul _ _ E), (emb_eq _ _ E _ _ Hc); apply (emb_one _ _ E)).
        transitivity (rmul (rmul (inj fac) (inj c)) (rmul (x (zadd st idx)) (inj (elem (nth r arrays (f_array zero_field)) (nth r m1 (fun _ => 0%Q)) idx)))); [rewrite Ec; ring|ring]. }
    (* all components *)
    assert (All : forall l, exists F, sequence (map (fun d => option_map (map (map (fun f => rmul om f)))
        (readout_in K inj pms None ls arrays (c2r K N ws (map (on_modes K (fun i v => cmul (tf d (wave K (units K inj inv twopi box) N i)) v)) (r2c K ws is rho Mid)) rho) X)) l) = Some F /\
        length F = length l /\ Forall (fun R => per_particle_of X R /\ particle_sum X (fun s i => nth i (nth s R []) r0) = r0) F).
    { induction l as [|d l (F & IH1 & IH2 & IH3)]; [exists []; repeat split; constructor|].
      destruct (One d) as (R & R1 & R2 & R3). exists (map (map (fun f => rmul om f)) R :: F). cbn [map sequence]. rewrite R1. cbn [option_map]. rewrite IH1.
      split; [reflexivity|]. split; [cbn [length]; lia|]. constructor; [|exact IH3]. unfold per_particle_of in *. split.
      - rewrite map_map. rewrite <- R2. apply map_ext. intros y. apply map_length.
      - transitivity (rmul om (particle_sum X (fun s i => nth i (nth s R []) r0))); [|rewrite R3; ring].
        unfold particle_sum. rewrite <- rsum_scale. apply rsum_ext_in. intros s Hs. apply in_seq in Hs. rewrite <- rsum_scale. apply rsum_ext_in. intros i Hi. apply in_seq in Hi.
        assert (LR : length R = length X) by (apply (f_equal (@length nat)) in R2; rewrite !map_length in R2; exact R2).
        rewrite (nth_map_in _ R s [] []) by lia.
        assert (Lr : length (nth s R []) = length (nth s X [])) by (rewrite <- !(map_nth (@length _)); now rewrite R2).
        rewrite (nth_map_in _ (nth s R []) i r0 r0) by lia. reflexivity. }
    destruct (All (seq 0 (length N))) as (F & F1 & F2 & F3). exists F. split; [exact F1|]. rewrite seq_length in F2. split; [exact F2|].
    rewrite Forall_forall in F3. split.
    + apply Forall_forall. intros R HR. exact (proj1 (F3 R HR)).
    + intros d Hd. apply (F3 (nth d F [])). apply nth_In. lia.
Qed.
End Force.

(** ** integrators *)
Lemma map2_at {A B D} (f : A -> B -> D) l m j da db dd : (j < length l)%nat -> (j < length m)%nat ->
  nth j (map2 f l m) dd = f (nth j l da) (nth j m db).
Proof.
  unfold map2. revert m j. induction l as [|a l IH]; intros [|b m] j Hl Hm; cbn [length] in *; try lia.
  destruct j as [|j]; [reflexivity|]. cbn [combine map nth]. apply IH; lia.
Qed.
Lemma map2_len {A B D} (f : A -> B -> D) l m : length l = length m -> length (map2 f l m) = length l.
Proof. intros H. unfold map2. rewrite map_length, combine_length. lia. Qed.
Lemma lengths_nth {A B} (l : list (list A)) (m : list (list B)) : length l = length m ->
  (forall s, (s < length m)%nat -> length (nth s l []) = length (nth s m [])) -> map (@length _) l = map (@length _) m.
Proof.
  intros L H. apply (nth_ext _ _ 0%nat 0%nat); [now rewrite !map_length|]. intros s Hs. rewrite map_length in Hs.
  change 0%nat with (@length A []) at 1. change 0%nat with (@length B []). rewrite !map_nth. apply H. lia.
Qed.
Lemma nth_lengths {A B} (l : list (list A)) (m : list (list B)) : map (@length _) l = map (@length _) m ->
  length l = length m /\ forall s, length (nth s l []) = length (nth s m []).
Proof.
  intros H. split.
  - apply (f_equal (@length nat)) in H. now rewrite !map_length in H.
  - intros s. rewrite <- (map_nth (@length A) l [] s), <- (map_nth (@length B) m [] s), H. reflexivity.
Qed.

(** the velocities: one number per component and particle *)
Definition velocities_ok {K : cring} (nd : nat) (poss : list (list (list Q))) (V : list (list (list K))) : Prop :=
  length V = nd /\ Forall (per_particle_of poss) V.
(** the sum of the velocities of all particles *)
Definition momentum_of {K : cring} (poss : list (list (list Q))) (V : list (list (list K))) (c : nat) : K :=
  particle_sum poss (fun s i => nth i (nth s (nth c V []) []) r0).

Section Steps.
Variable K : cring.
Add Ring Kr6 : (rth K).
Local Open Scope rg_scope.
Variables (inj : Q -> K) (store : K -> Q) (nd : nat) (Qpos : list (list (list Q))).
Variable pull : list (list (list Q)) -> option (list (list (list K))).
Definition displacements_ok (S : list (list (list Q))) : Prop :=
  map (@length _) S = map (@length _) Qpos /\ Forall (Forall (fun x => length x = nd)) S.
Hypothesis Hpull : forall S, displacements_ok S -> exists F, pull S = Some F /\ velocities_ok nd Qpos F /\ forall c, (c < nd)%nat -> momentum_of Qpos F c = 0.

Lemma entry_ok V c s : velocities_ok (K := K) nd Qpos V -> (c < nd)%nat -> (s < length Qpos)%nat ->
  (c < length V)%nat /\ (s < length (nth c V []))%nat /\ length (nth s (nth c V []) []) = length (nth s Qpos []).
Proof.
  intros [L F] Hc Hs. rewrite Forall_forall in F. assert (Hv : (c < length V)%nat) by lia. specialize (F _ (nth_In V [] Hv)).
  apply nth_lengths in F. destruct F as [F1 F2]. repeat split; [exact Hv|lia|apply F2].
Qed.
Lemma kick_ok k V F : velocities_ok nd Qpos V -> velocities_ok nd Qpos F -> velocities_ok nd Qpos (kick K k V F).
Proof.
  intros HV HF. unfold kick. split; [rewrite map2_len; [exact (proj1 HV)|rewrite (proj1 HV), (proj1 HF); reflexivity]|].
  apply Forall_forall. intros R HR. apply In_nth with (d := []) in HR. destruct HR as (c & Hc & <-).
  rewrite map2_len in Hc by (rewrite (proj1 HV), (proj1 HF); reflexivity). rewrite (proj1 HV) in Hc.
  assert (LV : (c < length V)%nat) by (rewrite (proj1 HV); exact Hc). assert (LF : (c < length F)%nat) by (rewrite (proj1 HF); exact Hc).
  rewrite (map2_at _ V F c [] []) by assumption. pose proof (proj2 HV) as AV. pose proof (proj2 HF) as AF. rewrite Forall_forall in AV, AF.
  specialize (AV _ (nth_In V [] LV)). specialize (AF _ (nth_In F [] LF)). apply nth_lengths in AV. apply nth_lengths in AF.
  destruct AV as [V1 V2], AF as [F1 F2]. apply lengths_nth; [rewrite map2_len; lia|]. intros s Hs.
  rewrite (map2_at _ _ _ s [] []) by lia. rewrite map2_len by (rewrite V2, F2; reflexivity). apply V2.
Qed.
Lemma kick_momentum k V F c : velocities_ok nd Qpos V -> velocities_ok nd Qpos F -> (c < nd)%nat ->
  momentum_of Qpos (kick K k V F) c = momentum_of Qpos V c + momentum_of Qpos F c * k.
Proof.
  intros HV HF Hc. unfold momentum_of, particle_sum. rewrite <- rsum_scale_r, <- rsum_plus. apply rsum_ext_in. intros s Hs. apply in_seq in Hs.
  rewrite <- rsum_scale_r, <- rsum_plus. apply rsum_ext_in. intros i Hi. apply in_seq in Hi.
  destruct (entry_ok V c s HV Hc ltac:(lia)) as (A1 & A2 & A3). destruct (entry_ok F c s HF Hc ltac:(lia)) as (B1 & B2 & B3).
  unfold kick. rewrite (map2_at _ V F c [] []) by assumption. rewrite (map2_at _ _ _ s [] []) by assumption. rewrite (map2_at _ _ _ i 0 0) by lia. reflexivity.
Qed.
Lemma drift_ok d S V : displacements_ok S -> displacements_ok (drift K inj store nd d S V).
Proof.
  intros [L F]. unfold drift. split.
  - apply nth_lengths in L. destruct L as [L1 L2]. apply lengths_nth; [rewrite map_length, seq_length; exact L1|]. intros s Hs.
    rewrite nth_map_seq by lia. rewrite map_length, seq_length. apply L2.
  - apply Forall_forall. intros a Ha. apply in_map_iff in Ha. destruct Ha as (s & <- & _). apply Forall_forall. intros b Hb. apply in_map_iff in Hb.
    destruct Hb as (i & <- & _). now rewrite map_length, seq_length.
Qed.
Theorem run_momentum : forall prog st, displacements_ok (st_S K st) -> velocities_ok nd Qpos (st_V K st) -> velocities_ok nd Qpos (st_F K st) ->
  (forall c, (c < nd)%nat -> momentum_of Qpos (st_F K st) c = 0) ->
  exists st', run K inj store pull nd prog st = Some st' /\ displacements_ok (st_S K st') /\ velocities_ok nd Qpos (st_V K st') /\
    forall c, (c < nd)%nat -> momentum_of Qpos (st_V K st') c = momentum_of Qpos (st_V K st) c.
Proof.
  induction prog as [|i prog IH]; intros st HS HV HF H0; [exists st; auto|]. cbn [run]. destruct i as [k|d|]; cbn [step].
  - destruct (IH (mkState K (st_S K st) (kick K k (st_V K st) (st_F K st)) (st_F K st))) as (st' & E1 & E2 & E3 & E4); cbn [st_S st_V st_F] in *; try assumption.
    + now apply kick_ok.
    + exists st'. split; [exact E1|]. split; [exact E2|]. split; [exact E3|]. intros c Hc. rewrite (E4 c Hc), kick_momentum by assumption. rewrite (H0 c Hc). ring.
  - destruct (IH (mkState K (drift K inj store nd d (st_S K st) (st_V K st)) (st_V K st) (st_F K st))) as (st' & E1 & E2 & E3 & E4); cbn [st_S st_V st_F] in *; try assumption.
    + now apply drift_ok.
    + exists st'. auto.
  - destruct (Hpull (st_S K st) HS) as (F & EF & OF & ZF). rewrite EF. cbn [option_map].
    destruct (IH (mkState K (st_S K st) (st_V K st) F)) as (st' & E1 & E2 & E3 & E4); cbn [st_S st_V st_F] in *; try assumption.
    exists st'. auto.
Qed.
(** a program that begins with the force *)
Theorem run_pull : forall prog st, displacements_ok (st_S K st) -> velocities_ok nd Qpos (st_V K st) ->
  exists st', run K inj store pull nd (Pull K :: prog) st = Some st' /\ displacements_ok (st_S K st') /\ velocities_ok nd Qpos (st_V K st') /\
    forall c, (c < nd)%nat -> momentum_of Qpos (st_V K st') c = momentum_of Qpos (st_V K st) c.
Proof.
  intros prog st HS HV. cbn [run step]. destruct (Hpull (st_S K st) HS) as (F & EF & OF & ZF). rewrite EF. cbn [option_map].
  destruct (run_momentum prog (mkState K (st_S K st) (st_V K st) F)) as (st' & E1 & E2 & E3 & E4); cbn [st_S st_V st_F] in *; try assumption.
  exists st'. auto.
Qed.
End Steps.

(** * C87 *)
(** what is painted and what is read, with the same window and the same layout, are adjoint to
    each other; whether or not the layout has the ghost particles that the window needs *)
Theorem C87_adjoint : forall (K : cring) (inj : Q -> K), embedding K inj ->
  forall pms w ls arrays poss, call_ok pms w None (Some ls) arrays poss ->
  forall outs mass (Fs : list (lfield K)), map f_array outs = arrays -> map (@length Q) mass = map (@length _) poss ->
  exists ms R, pm_paint pms w None false None (Some ls) outs poss WNone (WArray mass) = map Ret ms /\
    readout_in K inj pms w ls arrays Fs poss = Some R /\ per_particle_of poss R /\
    particle_sum poss (fun s i => rmul (inj (nth i (nth s mass []) 0%Q)) (nth i (nth s R []) r0)) =
    rsum (fun c => rmul (snd c) (inj (elem (nth (fst (fst c)) arrays (f_array zero_field)) (nth (fst (fst c)) ms (fun _ => 0%Q)) (snd (fst c)))))
         (cells_with K arrays Fs).
Proof.
  intros K inj E pms w ls arrays poss CK outs mass Fs Ea Hm.
  destruct (adjoint K inj E pms w ls arrays poss CK outs mass Fs Ea Hm) as (ms & R & H1 & _ & H2 & H3 & H4). exists ms, R. auto.
Qed.
Print Assumptions C87_adjoint.
(** on fields of rational numbers [readout_in] is pm.readout *)
Theorem C87_readout_rational : forall (K : cring) (inj : Q -> K), embedding K inj ->
  forall pms w ls arrays poss, call_ok pms w None (Some ls) arrays poss ->
  forall fields vs, map f_array fields = arrays ->
  pm_readout pms w None None (Some ls) fields poss WNone = map Ret vs ->
  readout_in K inj pms w ls arrays (real_blocks K inj pms arrays (map f_data fields)) poss = Some (map (map inj) vs).
Proof. intros K inj E pms w ls arrays poss CK fields vs. exact (read_rational K inj E pms w ls arrays poss CK fields vs). Qed.
Print Assumptions C87_readout_rational.

(** the mesh of a simulation: a ParticleMesh of real fields of Nmesh = base ++ [n] cells on any
    number of ranks, memory for its fields, and the blocks of its complex fields *)
Record simulation (K : cring) (base : list Z) (n : Z) (ws : list (cpx K)) (is : list K) (BoxSize : value Q) (box : list Q) (w0 : window)
    (pt : partition) (blocks : list (list Z)) (pms : list pm) (outs : list field) (Mid : list (lfield (cpx K))) : Prop := {
  sm_roots : mesh_roots K (N base n) ws is;
  sm_world : world (N base n) BoxSize box w0 pt blocks pms;
  sm_window : (0 < native_of (w_kind w0))%Z;
  sm_support : (0 <= w_support w0)%Z;
  sm_outs : length outs = length blocks;
  sm_stored : forall r, (r < length blocks)%nat -> MeshRoute.stored (f_array (nth r outs zero_field)) (block_shape (i_edges pt) (block blocks r));
  sm_mid : tiles (half base n) Mid
}.
(** as many displacements as particles *)
Definition same_particles (nd : nat) (Qpos S : list (list (list Q))) : Prop :=
  map (@length _) S = map (@length _) Qpos /\ Forall (Forall (fun x => length x = nd)) S.

(** any transfer function with imaginary values: the forces exist, and add up to zero *)
Theorem C87_forces : forall (K : cring) (inj : Q -> K), embedding K inj ->
  forall (inv : K -> K) twopi base n ws is BoxSize box w0 pt blocks pms outs Mid,
  simulation K base n ws is BoxSize box w0 pt blocks pms outs Mid ->
  forall (tf : nat -> list K -> cpx K) om X, (forall d k, re (tf d k) = r0) -> particles_ok (length (N base n)) (length blocks) X ->
  exists F, forces K inj inv twopi ws is tf None om pms (N base n) box outs Mid X = Some F /\
    velocities_ok (length (N base n)) X F /\ forall d, (d < length (N base n))%nat -> momentum_of X F d = r0.
Proof.
  intros K inj E inv twopi base n ws is BoxSize box w0 pt blocks pms outs Mid H tf om X Im Hp. destruct H as [M W Hk Hs Lo St TM].
  destruct (momentum K inj E inv twopi base n ws is M BoxSize box w0 pt blocks pms W Hk Hs outs Lo St Mid TM tf om X Im Hp) as (F & F1 & F2 & F3 & F4).
  exists F. split; [exact F1|]. split; [split; assumption|exact F4].
Qed.
Print Assumptions C87_forces.
Lemma shifted_particles nd P Qpos S : particles_ok nd P Qpos -> same_particles nd Qpos S ->
  particles_ok nd P (map2 (map2 (map2 Qplus)) S Qpos) /\ map (@length _) (map2 (map2 (map2 Qplus)) S Qpos) = map (@length _) Qpos.
Proof.
  intros [Lp Dp] [Ls Ds]. apply nth_lengths in Ls. destruct Ls as [L1 L2].
  assert (Lx : length (map2 (map2 (map2 Qplus)) S Qpos) = length Qpos) by (rewrite map2_len; exact L1).
  split; [split; [lia|]|].
  - apply Forall_forall. intros a Ha. apply In_nth with (d := []) in Ha. destruct Ha as (s & Hs & <-). rewrite Lx in Hs.
    rewrite (map2_at _ S Qpos s [] []) by lia. apply Forall_forall. intros b Hb. apply In_nth with (d := []) in Hb. destruct Hb as (i & Hi & <-).
    rewrite map2_len in Hi by apply L2. rewrite (map2_at _ _ _ i [] []) by (rewrite <- ?L2; exact Hi).
    rewrite Forall_forall in Dp, Ds. assert (HsS : (s < length S)%nat) by (rewrite L1; exact Hs).
    specialize (Ds _ (nth_In S [] HsS)). specialize (Dp _ (nth_In Qpos [] Hs)). rewrite Forall_forall in Dp, Ds.
    assert (Hi' : (i < length (nth s Qpos []))%nat) by (rewrite <- L2; exact Hi).
    specialize (Ds _ (nth_In _ [] Hi)). specialize (Dp _ (nth_In _ [] Hi')). rewrite map2_len by congruence. exact Ds.
  - apply lengths_nth; [exact Lx|]. intros s Hs. rewrite (map2_at _ S Qpos s [] []) by lia. rewrite map2_len by apply L2. apply L2.
Qed.
Lemma momentum_shape {K : cring} X Y (V : list (list (list K))) c : map (@length _) X = map (@length _) Y -> momentum_of X V c = momentum_of Y V c.
Proof.
  intros H. apply nth_lengths in H. destruct H as [H1 H2]. unfold momentum_of, particle_sum. rewrite H1. apply rsum_ext. intros s. now rewrite H2.
Qed.
Lemma velocities_shape {K : cring} nd X Y (V : list (list (list K))) : map (@length _) X = map (@length _) Y -> velocities_ok nd X V -> velocities_ok nd Y V.
Proof. intros H [L F]. split; [exact L|]. unfold per_particle_of in *. rewrite H in F. exact F. Qed.

(** nbody.py: the forces of one call add up to zero *)
Theorem C87_momentum : forall (K : cring) (inj : Q -> K), embedding K inj ->
  forall (sine inv : K -> K) is0 twopi base n ws is BoxSize box w0 pt blocks pms outs Mid,
  simulation K base n ws is BoxSize box w0 pt blocks pms outs Mid ->
  forall om Qpos S, particles_ok (length (N base n)) (length blocks) Qpos -> same_particles (length (N base n)) Qpos S ->
  exists F, force K inj sine inv is0 twopi ws is om pms (N base n) box outs Mid Qpos S = Some F /\
    velocities_ok (length (N base n)) Qpos F /\ forall c, (c < length (N base n))%nat -> momentum_of Qpos F c = r0.
Proof.
  intros K inj E sine inv is0 twopi base n ws is BoxSize box w0 pt blocks pms outs Mid H om Qpos S Hp HS.
  destruct (shifted_particles _ _ _ _ Hp HS) as [Hx Lx].
  destruct (C87_forces K inj E inv twopi base n ws is BoxSize box w0 pt blocks pms outs Mid H (force_transfer K inj sine inv is0 (N base n) box) om
    (map2 (map2 (map2 Qplus)) S Qpos) (fun d k => eq_refl) Hx) as (F & F1 & F2 & F3).
  exists F. split; [exact F1|]. split; [exact (velocities_shape _ _ _ _ Lx F2)|]. intros c Hc. rewrite <- (momentum_shape _ _ F c Lx). now apply F3.
Qed.
Print Assumptions C87_momentum.
(** a particle alone in the box is not accelerated *)
Theorem C87_single : forall (K : cring) (inj : Q -> K), embedding K inj ->
  forall (sine inv : K -> K) is0 twopi base n ws is BoxSize box w0 pt blocks pms outs Mid,
  simulation K base n ws is BoxSize box w0 pt blocks pms outs Mid ->
  forall om Qpos S, particles_ok (length (N base n)) (length blocks) Qpos -> same_particles (length (N base n)) Qpos S ->
  length (concat Qpos) = 1%nat ->
  exists F, force K inj sine inv is0 twopi ws is om pms (N base n) box outs Mid Qpos S = Some F /\
    forall c, (c < length (N base n))%nat -> concat (nth c F []) = [r0].
Proof.
  intros K inj E sine inv is0 twopi base n ws is BoxSize box w0 pt blocks pms outs Mid H om Qpos S Hp HS H1.
  destruct (C87_momentum K inj E sine inv is0 twopi base n ws is BoxSize box w0 pt blocks pms outs Mid H om Qpos S Hp HS) as (F & F1 & [F2 F3] & F4).
  exists F. split; [exact F1|]. intros c Hc. specialize (F4 c Hc). rewrite Forall_forall in F3.
  assert (Hc' : (c < length F)%nat) by lia. specialize (F3 _ (nth_In F [] Hc')). unfold momentum_of in F4. revert F3 F4. generalize (nth c F []). intros R F3 F4.
  unfold per_particle_of in F3.
  assert (X : particle_sum Qpos (fun s i => nth i (nth s R []) r0) = rsum (fun v => v) (concat R)).
  { clear -F3. revert Qpos F3. induction R as [|r R IH]; intros [|q qs] F3; try discriminate; [reflexivity|]. cbn [map] in F3. injection F3 as E1 E2.
    unfold particle_sum. cbn [length seq]. rewrite rsum_cons. cbn [nth concat]. rewrite rsum_app. f_equal.
    - rewrite <- E1. rewrite <- (map_nth_seq r r0 (length r) eq_refl) at 2. rewrite rsum_map. reflexivity.
    - rewrite <- seq_shift, rsum_map. cbn [nth]. exact (IH qs E2). }
  rewrite X in F4. assert (L : length (concat R) = 1%nat).
  { rewrite <- H1. clear -F3. revert Qpos F3. induction R as [|r R IH]; intros [|q qs] F3; try discriminate; [reflexivity|]. cbn [map] in F3. injection F3 as E1 E2.
    cbn [concat]. rewrite !app_length, (IH qs E2), E1. reflexivity. }
  destruct (concat R) as [|v [|? ?]]; try discriminate. rewrite rsum_cons in F4. change (rsum (fun v => v) []) with (@r0 K) in F4.
  f_equal. rewrite <- F4. destruct (rth K) as [_ A _ _ _ _ _ _ _]. rewrite (Radd_comm (rth K)). rewrite (Radd_0_l (rth K)). reflexivity.
Qed.
Print Assumptions C87_single.
(** the integrators keep the momentum, whatever the time steps, the kick and drift factors, and
    the rounding of the positions *)
Theorem C87_integrators : forall (K : cring) (inj : Q -> K), embedding K inj ->
  forall (sine inv : K -> K) is0 twopi base n ws is BoxSize box w0 pt blocks pms outs Mid,
  simulation K base n ws is BoxSize box w0 pt blocks pms outs Mid ->
  forall om store (T : Type) (Kf Df : T -> T -> T -> K) (mid c2 d1 d2 : T -> T -> T) ts Qpos S V F0,
  let nd := length (N base n) in
  particles_ok nd (length blocks) Qpos -> same_particles nd Qpos S -> velocities_ok nd Qpos V ->
  forall prog, In prog [symp1 K T Kf Df ts; symp2 K T Kf Df mid ts; symp3 K T Kf Df c2 d1 d2 ts] ->
  exists st, run K inj store (force K inj sine inv is0 twopi ws is om pms (N base n) box outs Mid Qpos) nd prog (mkState K S V F0) = Some st /\
    same_particles nd Qpos (st_S K st) /\ velocities_ok nd Qpos (st_V K st) /\
    forall c, (c < nd)%nat -> momentum_of Qpos (st_V K st) c = momentum_of Qpos V c.
Proof.
  intros K inj E sine inv is0 twopi base n ws is BoxSize box w0 pt blocks pms outs Mid H om store T Kf Df mid c2 d1 d2 ts Qpos S V F0 nd Hp HS HV prog Hprog.
  assert (X : exists tail, prog = Pull K :: tail).
  { destruct Hprog as [<-|[<-|[<-|[]]]]; unfold symp1, symp2, symp3; eexists; reflexivity. }
  destruct X as [tail ->].
  apply (run_pull K inj store nd Qpos (force K inj sine inv is0 twopi ws is om pms (N base n) box outs Mid Qpos)) with (st := mkState K S V F0); [|exact HS|exact HV].
  intros S' HS'. exact (C87_momentum K inj E sine inv is0 twopi base n ws is BoxSize box w0 pt blocks pms outs Mid H om Qpos S' Hp HS').
Qed.
Print Assumptions C87_integrators.

(** ** two ranks, four cells; the right angle is 1, so the sine is rational *)
Definition nb_pt : partition := {| i_edges := [[0; 2; 4]]%Z; local_i_start := [[0]; [2]]%Z; local_i_shape := [[2]; [2]]%Z |}.
Definition nb_blocks : list (list Z) := [[0]; [1]]%Z.
Definition nb_pms : list pm := map (mesh_pm [4]%Z nb_pt nb_blocks [8%Q] ex_cic) (seq 0 2).
Definition nb_outs : list field := [{| f_array := c_array [2]%Z; f_data := fun _ => 7%Q |}; {| f_array := c_array [2]%Z; f_data := fun _ => 5%Q |}].
Definition nb_roots : list (cpx Qcring) := [(0%Qc, 1%Qc)].
Definition nb_invs : list Qcring := [Q2Qc (1#4)].
Definition nb_mid : list (lfield (cpx Qcring)) := [mkL [0] [2] []; mkL [2] [1] []].
Definition nb_sine (x : Qcring) : Qcring := if Qc_eq_dec x 1%Qc then 1%Qc else if Qc_eq_dec x (- (1))%Qc then (- (1))%Qc else 0%Qc.
Definition nb_is0 (x : Qcring) : bool := if Qc_eq_dec x 0%Qc then true else false.
Definition nb_force (wr : option window) (tf : nat -> list Qcring -> cpx Qcring) (X : list (list (list Q))) : option (list (list (list Q))) :=
  option_map (map (map (map this))) (forces Qcring Q2Qc Qcinv (ex_q 4) nb_roots nb_invs tf wr 1%Qc nb_pms [4] [8%Q] nb_outs nb_mid X).
Definition nb_transfer : nat -> list Qcring -> cpx Qcring := force_transfer Qcring Q2Qc nb_sine Qcinv nb_is0 [4] [8%Q].
Lemma Q_embedding : embedding Qcring Q2Qc.
Proof.
  split.
  - intros x y H. now apply Qc_is_canon, Qred_correct_eq || (apply Qc_is_canon; cbn [Q2Qc this]; now rewrite !Qred_correct).
  - intros x y. apply Qc_is_canon. cbn [Qcring radd Qcplus Q2Qc this]. now rewrite !Qred_correct.
  - intros x y. apply Qc_is_canon. cbn [Qcring rmul Qcmult Q2Qc this]. now rewrite !Qred_correct.
  - reflexivity.
Qed.
Lemma nb_simulation : simulation Qcring [] 4 nb_roots nb_invs (Scalar 8%Q) [8%Q] ex_cic nb_pt nb_blocks nb_pms nb_outs nb_mid.
Proof.
  constructor; try reflexivity.
  - unfold N. cbn [app]. constructor; [|constructor]. split; [lia| | | |].
    + apply Qc_pair; reflexivity.
    + apply Qc_pair; reflexivity.
    + intros d Hd. assert (D : d = 1 \/ d = 2 \/ d = 3) by lia. destruct D as [->|[->| ->]]; apply Qc_pair; reflexivity.
    + apply Qc_is_canon. reflexivity.
  - constructor; try reflexivity.
    + constructor; try reflexivity; [simpl; lia|]. cbn [N app i_edges nb_pt]. repeat apply Forall2_cons; try apply Forall2_nil; (split; [lia|split; [simpl; lia|split; [sorted_z|split; reflexivity]]]).
    + cbn [i_edges nb_pt]. repeat apply Forall_cons; try apply Forall_nil; intros i j Hi Hj; simpl in Hj; destruct i as [|[|i]], j as [|[|j]]; simpl; lia.
    + right. reflexivity.
  - discriminate.
  - intros r Hr. destruct r as [|[|r]]; [| |simpl in Hr; lia]; (apply (c_array_stored [2]%Z); repeat constructor).
  - now apply tiles_check.
Qed.
(** three particles on two ranks: forces that differ from zero; one particle *)
Example C87_case : nb_force None nb_transfer [[[1%Q]; [(7#2)%Q]]; [[3%Q]]] = Some [[[(16#9)%Q; (-4#3)%Q]; [(-4#9)%Q]]] /\
  nb_force None nb_transfer [[[1%Q]]; []] = Some [[[0%Q]; []]].
Proof. split; vm_compute; reflexivity. Qed.
(** the same window is needed on both sides: read with another window, a particle pulls itself *)
Theorem C87_window_refuted : exists X F, length (concat X) = 1%nat /\ nb_force (Some (ResampleWindow TunedNNB 0)) nb_transfer X = Some [[[F]; []]] /\ ~ (F == 0)%Q.
Proof. exists [[[(1#2)%Q]]; []]. eexists. split; [reflexivity|]. split; [vm_compute; reflexivity|discriminate]. Qed.
Print Assumptions C87_window_refuted.
(** a transfer function with a real part *)
Theorem C87_real_part_refuted : exists X F, length (concat X) = 1%nat /\ nb_force None (fun _ _ => (1%Qc, 0%Qc)) X = Some [[[F]; []]] /\ ~ (F == 0)%Q.
Proof. exists [[[(1#2)%Q]]; []]. eexists. split; [reflexivity|]. split; [vm_compute; reflexivity|discriminate]. Qed.
Print Assumptions C87_real_part_refuted.
