(** C81: the Jacobian-vector products of painting and reading are the derivatives of
    painting and reading, on any number of ranks. *)
From Coq Require Import List Arith ZArith QArith Qabs Qround Lqa Lia Bool Sorted Permutation Setoid Morphisms.
From Verif Require Import Base ListFacts LayoutModel LayoutSpec LayoutProofs LayoutModes LayoutMore WrapModel WrapProofs DomainModel DomainFill DomainGeom DomainTargets
  DomainHome DomainProperties QSum WindowModel WindowStencil WindowSpread WindowKernels WindowAxis WindowNative WindowApi WindowPoints
  WindowGrad WindowTranslate WindowTables WindowProperties WindowProperties2 WindowProperties3
  MeshModel MeshAssign MeshRoute MeshPaint MeshTile MeshDistributed MeshGrad MeshProperties MeshProperties2 MeshProperties3 MeshTangent.
Import ListNotations.
Local Open Scope Q_scope.

(** * Small changes of the arguments *)

(** the entry of particle [i] of rank [s] of an optional direction, absent meaning zero *)
Definition vector_at (v : option (list (list (list Q)))) (s i d : nat) : Q :=
  match v with Some v => nth d (nth i (nth s v []) []) 0 | None => 0 end.
Definition number_at (u : option (list (list Q))) (s i : nat) : Q :=
  match u with Some u => nth i (nth s u []) 0 | None => 0 end.
Definition cell_at (arrays : list array) (g : option (list field)) (r : nat) (idx : list Z) : Q :=
  match g with Some g => elem (nth r arrays (f_array zero_field)) (f_data (nth r g zero_field)) idx | None => 0 end.
(** positions displaced by [eps * v] *)
Definition positions_by (nd : nat) (eps : Q) (v : option (list (list (list Q)))) (poss poss' : list (list (list Q))) : Prop :=
  vectors_ok nd poss poss' /\
  forall s i d, (s < length poss)%nat -> (i < length (nth s poss []))%nat -> (d < nd)%nat ->
    nth d (nth i (nth s poss' []) []) 0 == nth d (nth i (nth s poss []) []) 0 + eps * vector_at v s i d.
(** masses changed by [eps * u] *)
Definition masses_by (eps : Q) (u : option (list (list Q))) (poss : list (list (list Q))) (mass mass' : list (list Q)) : Prop :=
  map (@length Q) mass' = map (@length _) poss /\
  forall s i, (s < length poss)%nat -> (i < length (nth s poss []))%nat ->
    nth i (nth s mass' []) 0 == nth i (nth s mass []) 0 + eps * number_at u s i.
(** fields changed by [eps * g] *)
Definition fields_by (arrays : list array) (eps : Q) (g : option (list field)) (fs fs' : list field) : Prop :=
  map f_array fs' = arrays /\
  forall r idx, (r < length arrays)%nat -> In idx (elements (nth r arrays (f_array zero_field))) ->
    cell_at arrays (Some fs') r idx == cell_at arrays (Some fs) r idx + eps * cell_at arrays g r idx.

(** * The same layout routes the displaced particles *)
Lemma routing_moved poss poss' ls T : routing poss ls T -> map (@length (list Q)) poss' = map (@length _) poss ->
  exists T', routing poss' ls T' /\ forall r, T' r = T r.
Proof.
  intros H L. destruct H as [args Ha Hs|].
  - exists (tags args). split; [|reflexivity]. constructor; [exact Ha|].
    unfold sent_lengths, lengths_ok in *. rewrite L. exact Hs.
  - exists (own poss'). split; [constructor|]. intros r. unfold own.
    rewrite <- !(map_nth (@length (list Q))), L. reflexivity.
Qed.

Lemma call_moved pms w ts ls arrays poss poss' : call_ok pms w ts ls arrays poss -> vectors_ok (ndim_of pms) poss poss' ->
  call_ok pms w ts ls arrays poss'.
Proof.
  intros C [L H]. assert (Lp : length poss' = length poss) by (apply (f_equal (@length nat)) in L; rewrite !map_length in L; exact L).
  destruct C. constructor; try assumption; try lia.
  destruct ck_layout as [->|(args & -> & Ha & Hs)]; [left; reflexivity|right]. exists args. split; [reflexivity|]. split; [exact Ha|].
  unfold sent_lengths, lengths_ok in *. rewrite L. exact Hs.
Qed.

(** a bound for all of finitely many *)
Lemma finite_bound (F : nat -> Q -> Prop) n : (forall r C C', F r C -> C <= C' -> F r C') ->
  (forall r, (r < n)%nat -> exists C, 0 <= C /\ F r C) -> exists C, 0 <= C /\ forall r, (r < n)%nat -> F r C.
Proof.
  intros Mono. induction n as [|n IH]; intros H.
  - exists 0. split; [apply Qle_refl|]. intros r Hr. lia.
  - destruct IH as (C1 & P1 & H1); [intros r Hr; apply H; lia|]. destruct (H n ltac:(lia)) as (C2 & P2 & H2).
    exists (C1 + C2). split; [lra|]. intros r Hr. destruct (Nat.eq_dec r n) as [->|Hne].
    + apply (Mono _ C2); [exact H2|lra].
    + apply (Mono _ C1); [apply H1; lia|lra].
Qed.

Lemma near_mono w real t h C C' x y : near w real t h C x y -> C <= C' -> near w real t h C' x y.
Proof.
  intros H L idx Hi. destruct (H idx Hi) as [A B]. set (D := distance (length (ar_shape real)) x y) in *.
  assert (HD : 0 <= D) by apply distance_nonneg. assert (HDD : 0 <= D * D) by (apply Qmult_le_0_compat; assumption).
  split; (eapply Qle_trans; [eassumption|]; apply Qmult_le_compat_r; assumption).
Qed.

Section Routed.
Variables (pms : list pm) (w : option window) (ts : option (list affine)) (ls : option (list layout)).
Variables (arrays : list array) (poss : list (list (list Q))).
Hypothesis C : call_ok pms w ts ls arrays poss.
Local Notation P := (length poss).
Local Notation nd := (ndim_of pms).
Local Notation win := (resampler_of pms w).
Local Notation trs := (transforms pms ts).
Variable T : nat -> list (nat * nat).
Hypothesis HT : routing poss ls T.
(** weight of a particle on a rank *)
Local Notation arr r := (nth r arrays (f_array zero_field)).
Local Notation trf r := (nth r trs zero_affine).
Local Notation wgt d r x idx := (weight_of (painter_of win (arr r) (trf r) d) 1 x idx).

Lemma arr_field fs r : map f_array fs = arrays -> f_array (nth r fs zero_field) = arr r.
Proof. intros <-. rewrite (map_nth f_array). reflexivity. Qed.
Lemma rank_wf r : (r < P)%nat -> wf_call (arr r) (trf r) /\ length (ar_shape (arr r)) = nd.
Proof.
  intros Hr. apply (ck_ranks _ _ _ _ _ _ C r); apply nth_error_nth'.
  - rewrite (ck_arrays _ _ _ _ _ _ C). exact Hr.
  - rewrite (ck_transforms _ _ _ _ _ _ C). exact Hr.
Qed.

(** what a sequence of paints leaves in a cell *)
Lemma terms_elem terms : forall outs, map f_array outs = arrays ->
  Forall (fun dm => direction_ok nd (fst dm) /\ exists mass, snd dm = map Ret mass /\ map (@length Q) mass = map (@length _) poss) terms ->
  exists ms, paint_terms pms w ts ls outs poss terms = map Ret ms /\ length ms = P /\
    forall r idx, (r < P)%nat -> In idx (elements (arr r)) ->
      elem (arr r) (nth r ms (fun _ => 0)) idx == elem (arr r) (f_data (nth r outs zero_field)) idx +
      qsum (fun dm => match all_ret (snd dm) with
        | Some mass => qsum (fun t => pick 0 mass t * wgt (fst dm) r (pick [] poss t) idx) (T r)
        | None => 0 end) terms.
Proof.
  induction terms as [|[d mass] terms IH]; intros outs Ea H.
  - exists (map f_data outs). pose proof (fields_length _ _ _ _ _ _ C outs Ea) as Lo. cbn [paint_terms]. rewrite map_map.
    split; [reflexivity|]. split; [rewrite map_length; exact Lo|]. intros r idx Hr _. rewrite qsum_nil, Qplus_0_r.
    rewrite (nth_map_in f_data outs r (fun _ : Z => 0) zero_field) by lia. reflexivity.
  - apply Forall_cons_iff in H. destruct H as [[Hd (m & Em & Lm)] H2]. cbn [fst snd] in *. subst mass.
    pose proof (fields_length _ _ _ _ _ _ C outs Ea) as Lo.
    destruct (routed_paint poss ls T HT win trs (ck_window _ _ _ _ _ _ C) (ck_transforms _ _ _ _ _ _ C) pms w ts eq_refl eq_refl
      outs true d m Lo (call_rank _ _ _ _ _ _ C d outs Ea Hd) Lm) as (ms & E1 & L1 & H1).
    set (outs' := map (fun fm => with_data (fst fm) (snd fm)) (combine outs ms)).
    assert (Ea' : map f_array outs' = arrays).
    { rewrite <- Ea. unfold outs'. clear -Lo L1. rewrite <- L1 in Lo. clear L1. revert ms Lo. induction outs as [|f fs IHf]; intros ms L; destruct ms as [|m ms]; try discriminate; [reflexivity|].
      cbn [combine map]. f_equal. apply IHf. simpl in L. lia. }
    assert (Da' : forall r, (r < P)%nat -> f_data (nth r outs' zero_field) = nth r ms (fun _ => 0)).
    { intros r Hr'. unfold outs'. rewrite (nth_map_in _ (combine outs ms) r zero_field (zero_field, fun _ => 0)) by (rewrite combine_length; lia).
      rewrite combine_nth by exact (eq_trans Lo (eq_sym L1)). reflexivity. }
    destruct (IH outs' Ea' H2) as (ms2 & E2 & L2 & H3).
    exists ms2. cbn [paint_terms]. rewrite all_ret_Ret. rewrite E1, all_ret_Ret. fold outs'. split; [exact E2|]. split; [exact L2|].
    intros r idx Hr Hin. rewrite (H3 r idx Hr Hin), (Da' r Hr). rewrite qsum_cons. cbn [fst snd]. rewrite all_ret_Ret.
    rewrite <- (arr_field outs r Ea) in Hin. specialize (H1 r idx Hr Hin). unfold rank_painter in H1. rewrite !(arr_field outs r Ea) in H1.
    rewrite H1. ring.
Qed.

(** the Jacobian-vector product of painting in a cell *)
Lemma jvp_elem outs mass v u : map f_array outs = arrays -> map (@length Q) mass = map (@length _) poss ->
  (forall v', v = Some v' -> vectors_ok nd poss v') -> (forall u', u = Some u' -> map (@length Q) u' = map (@length _) poss) ->
  exists ms, pm_paint_jvp pms w ts None ls outs poss (WArray mass) v u = map Ret ms /\
    forall r idx, (r < P)%nat -> In idx (elements (arr r)) ->
      elem (arr r) (nth r ms (fun _ => 0)) idx ==
      qsum (fun t => pick 0 mass t * qsum (fun d => vector_at v (fst t) (snd t) d * wgt (Some (Z.of_nat d)) r (pick [] poss t) idx) (seq 0 nd)
                     + number_at u (fst t) (snd t) * wgt None r (pick [] poss t) idx) (T r).
Proof.
  intros Ea Hm Hv Hu.
  set (zeroed := map (fun f => with_data f (fill (f_array f) (f_data f) 0)) outs).
  assert (Ez : map f_array zeroed = arrays) by (unfold zeroed; rewrite map_map; exact Ea).
  set (terms := (match v with
         | Some v => map (fun d => (Some (Z.of_nat d), products (column d v) (WArray mass))) (seq 0 nd)
         | None => [] end ++
         match u with Some v => [(@None Z, map Ret v)] | None => [] end)).
  assert (MO : mass_ok poss (WArray mass)) by (split; [discriminate|exact Hm]).
  destruct (terms_elem terms zeroed Ez) as (ms & E1 & _ & E2).
  { unfold terms. apply Forall_app. split.
    - destruct v as [v|]; [|constructor]. destruct (Hv v eq_refl) as [V1 V2]. apply Forall_forall. intros dm Hin. apply in_map_iff in Hin.
      destruct Hin as (d & <- & Hd). apply in_seq in Hd. cbn [fst snd]. split; [simpl; lia|].
      eexists. split; [apply (products_ok poss); [apply column_lengths; exact V1|exact MO]|].
      rewrite map_map. rewrite <- (map_nth_seq poss [] P eq_refl) at 2. rewrite map_map. apply map_ext. intros s.
      unfold scaled. rewrite map_length, seq_length. reflexivity.
    - destruct u as [u|]; [|constructor]. constructor; [|constructor]. cbn [fst snd]. split; [exact Logic.I|]. exists u. split; [reflexivity|exact (Hu u eq_refl)]. }
  exists ms. split; [exact E1|]. intros r idx Hr Hin. rewrite (E2 r idx Hr Hin).
  assert (Z0 : elem (arr r) (f_data (nth r zeroed zero_field)) idx == 0).
  { unfold zeroed. rewrite (nth_map_in _ outs r zero_field zero_field) by (rewrite (fields_length _ _ _ _ _ _ C outs Ea); exact Hr).
    cbn [with_data f_data]. rewrite <- (arr_field outs r Ea) in Hin |- *. rewrite fill_elem by exact Hin. reflexivity. }
  rewrite Z0, Qplus_0_l. unfold terms. rewrite qsum_app, qsum_plus. apply Qplus_comp.
  - destruct v as [v|].
    + destruct (Hv v eq_refl) as [V1 V2]. rewrite qsum_map.
      transitivity (qsum (fun d => qsum (fun t => vector_at (Some v) (fst t) (snd t) d * pick 0 mass t * wgt (Some (Z.of_nat d)) r (pick [] poss t) idx) (T r)) (seq 0 nd)).
      * apply qsum_ext_in. intros d Hd. cbn [fst snd]. rewrite (products_ok poss _ (WArray mass) (column_lengths poss v d V1) MO), all_ret_Ret.
        apply qsum_ext_in. intros t Ht. destruct (routing_bound poss ls T HT r t Hr Ht) as [B1 B2]. apply Qmult_comp; [|reflexivity].
        unfold pick. rewrite nth_map_seq by exact B1. unfold scaled. rewrite nth_map_seq by exact B2. rewrite column_pick. reflexivity.
      * rewrite qsum_swap. apply qsum_ext. intros t. rewrite <- qsum_scale. apply qsum_ext. intros d. ring.
    + rewrite qsum_nil. symmetry. apply qsum_zero. intros t _. cbn [vector_at]. rewrite (qsum_zero _ (seq 0 nd)) by (intros; ring). ring.
  - destruct u as [u|].
    + rewrite qsum_cons, qsum_nil. cbn [fst snd]. rewrite all_ret_Ret. rewrite Qplus_0_r. reflexivity.
    + rewrite qsum_nil. symmetry. apply qsum_zero. intros t _. cbn [number_at]. ring.
Qed.

(** the Jacobian-vector product of reading *)
Definition read_sum (F : nat -> nat * nat -> list Z -> Q) (s i : nat) : Q :=
  qsum (fun r => qsum (fun t => if tag_eqb t (s, i) then qsum (F r t) (elements (arr r)) else 0) (T r)) (seq 0 P).
Lemma read_sum_ext F G s i : (forall r t idx, (r < P)%nat -> In t (T r) -> In idx (elements (arr r)) -> F r t idx == G r t idx) -> read_sum F s i == read_sum G s i.
Proof.
  intros H. unfold read_sum. apply qsum_ext_in. intros r Hr. apply in_seq in Hr. apply qsum_ext_in. intros t Ht.
  destruct (tag_eqb t (s, i)); [|reflexivity]. apply qsum_ext_in. intros idx Hi. apply H; [lia|exact Ht|exact Hi].
Qed.
Lemma read_sum_plus F G s i : read_sum (fun r t idx => F r t idx + G r t idx) s i == read_sum F s i + read_sum G s i.
Proof.
  unfold read_sum. rewrite <- qsum_plus. apply qsum_ext. intros r. rewrite <- qsum_plus. apply qsum_ext. intros t.
  destruct (tag_eqb t (s, i)); [apply qsum_plus|ring].
Qed.
Lemma read_sum_scale c F s i : read_sum (fun r t idx => c * F r t idx) s i == c * read_sum F s i.
Proof.
  unfold read_sum. rewrite <- qsum_scale. apply qsum_ext. intros r. rewrite <- qsum_scale. apply qsum_ext. intros t.
  destruct (tag_eqb t (s, i)); [apply qsum_scale|ring].
Qed.
Lemma read_sum_zero F s i : (forall r t idx, (r < P)%nat -> In t (T r) -> In idx (elements (arr r)) -> F r t idx == 0) -> read_sum F s i == 0.
Proof.
  intros H. transitivity (read_sum (fun _ _ _ => 0 * 0) s i).
  - apply read_sum_ext. intros. rewrite H by assumption. ring.
  - rewrite read_sum_scale. ring.
Qed.
Lemma read_sum_sum (F : nat -> nat -> nat * nat -> list Z -> Q) l s i :
  read_sum (fun r t idx => qsum (fun d => F d r t idx) l) s i == qsum (fun d => read_sum (F d) s i) l.
Proof.
  induction l as [|d l IH].
  - rewrite qsum_nil. apply read_sum_zero. reflexivity.
  - rewrite qsum_cons, <- IH, <- read_sum_plus. apply read_sum_ext. intros. reflexivity.
Qed.
Lemma read_sum_combine A B D eps s i : read_sum A s i - read_sum B s i - eps * read_sum D s i ==
  read_sum (fun r t idx => (A r t idx + (-(1)) * B r t idx) + (- eps) * D r t idx) s i.
Proof.
  rewrite (read_sum_plus (fun r t idx => A r t idx + (-(1)) * B r t idx) (fun r t idx => (- eps) * D r t idx)).
  rewrite (read_sum_plus A), !read_sum_scale. ring.
Qed.
(** the sum against its absolute value, over all particles *)
Lemma read_sum_bound F G s i : (forall r t idx, (r < P)%nat -> In t (T r) -> In idx (elements (arr r)) -> Qabs (F r t idx) <= G r t idx) ->
  Qabs (read_sum F s i) <= qsum (fun r => qsum (fun t => qsum (G r t) (elements (arr r))) (T r)) (seq 0 P).
Proof.
  intros H. unfold read_sum. eapply Qle_trans; [apply Qabs_qsum|]. apply qsum_le. intros r Hr. apply in_seq in Hr.
  eapply Qle_trans; [apply Qabs_qsum|]. apply qsum_le. intros t Ht.
  assert (X : qsum (fun idx => Qabs (F r t idx)) (elements (arr r)) <= qsum (G r t) (elements (arr r))).
  { apply qsum_le. intros idx Hi. apply H; [lia|exact Ht|exact Hi]. }
  destruct (tag_eqb t (s, i)).
  - eapply Qle_trans; [apply Qabs_qsum|exact X].
  - eapply Qle_trans; [|exact X]. apply qsum_nonneg. intros idx _. apply Qabs_nonneg.
Qed.

Lemma read_elem fs d : map f_array fs = arrays -> direction_ok nd d ->
  exists vs, pm_readout pms w ts d ls fs poss WNone = map Ret vs /\ map (@length Q) vs = map (@length _) poss /\
    forall s i, (s < P)%nat -> (i < length (nth s poss []))%nat ->
      nth i (nth s vs []) 0 == read_sum (fun r t idx => wgt d r (pick [] poss t) idx * cell_at arrays (Some fs) r idx) s i.
Proof.
  intros Ea Hd.
  destruct (routed_read poss ls T HT win trs (ck_window _ _ _ _ _ _ C) (ck_transforms _ _ _ _ _ _ C) pms w ts eq_refl eq_refl
    fs d (fields_length _ _ _ _ _ _ C fs Ea) (call_rank _ _ _ _ _ _ C d fs Ea Hd)) as (vs & E1 & E2 & E3).
  exists vs. split; [exact E1|]. split; [exact E2|]. intros s i Hs Hi. rewrite (E3 s i Hs Hi). unfold read_sum.
  apply qsum_ext. intros r. apply qsum_ext. intros t. destruct (tag_eqb t (s, i)); [|reflexivity].
  unfold rank_painter, value_at, cell_at. rewrite (arr_field fs r Ea). reflexivity.
Qed.

Lemma readout_jvp_elem fs g v : map f_array fs = arrays -> (forall g', g = Some g' -> map f_array g' = arrays) ->
  (forall v', v = Some v' -> vectors_ok nd poss v') ->
  exists js, pm_readout_jvp pms w ts None ls fs poss g v = map Ret js /\ map (@length Q) js = map (@length _) poss /\
    forall s i, (s < P)%nat -> (i < length (nth s poss []))%nat ->
      nth i (nth s js []) 0 ==
      read_sum (fun r t idx => qsum (fun d => vector_at v (fst t) (snd t) d * wgt (Some (Z.of_nat d)) r (pick [] poss t) idx) (seq 0 nd) * cell_at arrays (Some fs) r idx
        + wgt None r (pick [] poss t) idx * cell_at arrays g r idx) s i.
Proof.
  intros Ea Hg Hv.
  destruct (read_columns_ok pms w ts ls arrays poss C (WArray (map (fun p => repeat 0 (length p)) poss)) fs Ea) with (ds := directions nd) as (reads & FR & _).
  { split; [discriminate|]. cbn [wf_wvalue]. rewrite map_map. apply map_ext. intros l. apply repeat_length. }
  { apply directions_ok. }
  assert (Lr : length reads = nd).
  { rewrite <- (Forall2_len _ _ _ FR). unfold directions. rewrite map_length, seq_length. reflexivity. }
  assert (SelfR : exists qs, match g with
     | Some g' => pm_readout pms w ts None ls g' poss WNone = map Ret qs /\ map (@length Q) qs = map (@length _) poss /\
        forall s i, (s < P)%nat -> (i < length (nth s poss []))%nat -> nth i (nth s qs []) 0 == read_sum (fun r t idx => wgt None r (pick [] poss t) idx * cell_at arrays (Some g') r idx) s i
     | None => True end).
  { destruct g as [g'|]; [|exists []; exact Logic.I]. destruct (read_elem g' None (Hg g' eq_refl) Logic.I) as (qs & Hq). exists qs. exact Hq. }
  destruct SelfR as (qs & Hq).
  set (terms := (match v with
     | Some v => map (fun d => (Some (Z.of_nat d), fs, Some (column d v))) (seq 0 nd)
     | None => [] end ++
     match g with Some f => [(@None Z, f, @None (list (list Q)))] | None => [] end)).
  set (rs := (match v with Some _ => reads | None => [] end ++ match g with Some _ => [qs] | None => [] end)).
  assert (F : Forall2 (fun (x : option Z * list field * option (list (list Q))) vs =>
     pm_readout pms w ts (fst (fst x)) ls (snd (fst x)) poss WNone = map Ret vs /\ map (@length Q) vs = map (@length _) poss /\
     match snd x with Some c => map (@length Q) c = map (@length _) poss | None => True end) terms rs).
  { unfold terms, rs. apply Forall2_app.
    - destruct v as [v|]; [|constructor]. destruct (Hv v eq_refl) as [V1 _]. clear -FR V1. unfold directions in FR. revert reads FR. generalize (seq 0 nd) as l.
      intros l. induction l as [|d l IH]; intros reads FR; inversion FR; subst; constructor.
      + cbn [fst snd]. destruct H1 as [R1 R2]. split; [exact R1|]. split; [exact R2|]. apply column_lengths, V1.
      + apply IH. assumption.
    - destruct g as [g'|]; [|constructor]. destruct Hq as (Q1 & Q2 & _). constructor; [|constructor]. cbn [fst snd]. split; [exact Q1|]. split; [exact Q2|exact Logic.I]. }
  destruct (read_terms_ok pms w ts ls poss terms rs F (map (fun pos => repeat 0 (length pos)) poss)) as (js & J1 & J2 & J3).
  { rewrite map_map. apply map_ext. intros l. apply repeat_length. }
  exists js. split; [exact J1|]. split; [exact J2|]. intros s i Hs Hi. rewrite (J3 s i Hs Hi).
  assert (Z0 : nth i (nth s (map (fun pos : list (list Q) => repeat 0 (length pos)) poss) []) 0 = 0).
  { rewrite (nth_map_in _ poss s [] []) by exact Hs. apply nth_repeat_in. exact Hi. }
  rewrite Z0, Qplus_0_l, read_sum_plus. unfold terms, rs.
  assert (CA : forall {A B} (a1 a2 : list A) (b1 b2 : list B), length a1 = length b1 -> combine (a1 ++ a2) (b1 ++ b2) = combine a1 b1 ++ combine a2 b2).
  { clear. intros A B a1. induction a1 as [|a a1 IH]; intros a2 b1 b2 L; destruct b1 as [|b b1]; try discriminate; [reflexivity|].
    simpl. f_equal. apply IH. simpl in L. lia. }
  rewrite CA, qsum_app.
  2: { destruct v; [rewrite map_length, seq_length; symmetry; exact Lr|reflexivity]. }
  assert (Only : forall F G, (forall r idx, (r < P)%nat -> In idx (elements (arr r)) -> F r (s, i) idx == G r (s, i) idx) -> read_sum F s i == read_sum G s i).
  { intros F0 G0 H. unfold read_sum. apply qsum_ext_in. intros r Hr. apply in_seq in Hr. apply qsum_ext_in. intros t _.
    destruct (tag_eqb_spec t (s, i)) as [->|]; [|reflexivity]. apply qsum_ext_in. intros idx Hidx. apply H; [lia|exact Hidx]. }
  apply Qplus_comp.
  - destruct v as [v|].
    + rewrite (qsum_combine_nth _ reads _ [] nd Lr).
      transitivity (qsum (fun d => read_sum (fun r t idx => vector_at (Some v) s i d * (wgt (Some (Z.of_nat d)) r (pick [] poss t) idx * cell_at arrays (Some fs) r idx)) s i) (seq 0 nd)).
      * apply qsum_ext_in. intros d Hd. apply in_seq in Hd. cbn [fst snd factor_at]. rewrite column_pick, read_sum_scale.
        assert (R : nth_error (directions nd) d = Some (Some (Z.of_nat d))).
        { unfold directions. rewrite nth_error_map, nth_error_seq_lt by lia. reflexivity. }
        assert (Hdir : direction_ok nd (Some (Z.of_nat d))) by (simpl; lia).
        destruct (read_elem fs (Some (Z.of_nat d)) Ea Hdir) as (vs & X1 & X2 & X3).
        assert (Eq : nth d reads [] = vs).
        { assert (Y : forall (l : list (option Z)) rs0, Forall2 (fun d vs => pm_readout pms w ts d ls fs poss WNone = map Ret vs /\ map (@length Q) vs = map (@length _) poss) l rs0 ->
            forall k z, nth_error l k = Some z -> pm_readout pms w ts z ls fs poss WNone = map Ret (nth k rs0 [])).
          { clear. intros l rs0 H. induction H as [|z0 v0 l0 rs0 H1 H IH]; intros k z Hk; destruct k as [|k]; try discriminate.
            - injection Hk as <-. exact (proj1 H1).
            - apply (IH k z Hk). }
          specialize (Y _ _ FR d _ R). rewrite X1 in Y. apply (f_equal all_ret) in Y. rewrite !all_ret_Ret in Y. congruence. }
        rewrite Eq, (X3 s i Hs Hi). cbn [vector_at]. ring.
      * rewrite <- read_sum_sum. apply Only. intros r idx _ _. cbn [fst snd]. rewrite <- qsum_scale_r. apply qsum_ext. intros d. ring.
    + cbn [combine]. rewrite qsum_nil. symmetry. apply read_sum_zero. intros r t idx _ _ _. cbn [vector_at].
      rewrite (qsum_zero _ (seq 0 nd)) by (intros; ring). ring.
  - destruct g as [g'|].
    + destruct Hq as (_ & _ & Q3). cbn [combine]. rewrite qsum_cons, qsum_nil. cbn [fst snd factor_at]. rewrite (Q3 s i Hs Hi). ring.
    + cbn [combine]. rewrite qsum_nil. symmetry. apply read_sum_zero. intros r t idx _ _ _. cbn [cell_at]. ring.
Qed.

(** the displacement of a particle per unit of [eps] *)
Definition speed (v : option (list (list (list Q)))) (t : nat * nat) : Q := qsum (fun d => Qabs (vector_at v (fst t) (snd t) d)) (seq 0 nd).
Lemma speed_nonneg v t : 0 <= speed v t.
Proof. apply qsum_nonneg. intros d _. apply Qabs_nonneg. Qed.

(** the change of the weight of one particle *)
Lemma weight_change C0 eps v poss' r t idx : (r < P)%nat -> In t (T r) -> length idx = nd ->
  positions_by nd eps v poss poss' -> near win (arr r) (trf r) 1 C0 (pick [] poss t) (pick [] poss' t) ->
  Qabs (wgt None r (pick [] poss' t) idx - wgt None r (pick [] poss t) idx) <= C0 * (Qabs eps * speed v t) /\
  Qabs (wgt None r (pick [] poss' t) idx - wgt None r (pick [] poss t) idx -
    eps * qsum (fun d => vector_at v (fst t) (snd t) d * wgt (Some (Z.of_nat d)) r (pick [] poss t) idx) (seq 0 nd))
    <= C0 * (speed v t * speed v t) * (eps * eps).
Proof.
  intros Hr Ht Hi [_ Hp] Hn. destruct (routing_bound poss ls T HT r t Hr Ht) as [B1 B2]. destruct (rank_wf r Hr) as [_ Hd].
  unfold near in Hn. cbv zeta in Hn. rewrite Hd in Hn. destruct (Hn idx Hi) as [N1 N2].
  assert (D : distance nd (pick [] poss t) (pick [] poss' t) == Qabs eps * speed v t).
  { unfold distance, speed. rewrite <- qsum_scale. apply qsum_ext_in. intros d Hin. apply in_seq in Hin. rewrite <- Qabs_Qmult. apply Qabs_wd.
    unfold pick. rewrite (Hp (fst t) (snd t) d B1 B2) by lia. ring. }
  assert (E : qsum (fun d => (nth d (pick [] poss' t) 0 - nth d (pick [] poss t) 0) * wgt (Some (Z.of_nat d)) r (pick [] poss t) idx) (seq 0 nd) ==
              eps * qsum (fun d => vector_at v (fst t) (snd t) d * wgt (Some (Z.of_nat d)) r (pick [] poss t) idx) (seq 0 nd)).
  { rewrite <- qsum_scale. apply qsum_ext_in. intros d Hin. apply in_seq in Hin.
    assert (X : nth d (pick [] poss' t) 0 - nth d (pick [] poss t) 0 == eps * vector_at v (fst t) (snd t) d).
    { unfold pick. rewrite (Hp (fst t) (snd t) d B1 B2) by lia. ring. }
    rewrite X. ring. }
  rewrite E, !D in N2. rewrite D in N1. split; [exact N1|].
  assert (X : C0 * (Qabs eps * speed v t * (Qabs eps * speed v t)) == C0 * (speed v t * speed v t) * (eps * eps)).
  { rewrite <- (Qabs_pos (eps * eps)) by apply Qsq_nonneg. rewrite Qabs_Qmult. ring. }
  rewrite <- X. exact N2.
Qed.

Lemma painted_tangent C0 mass v u : 0 <= C0 -> map (@length Q) mass = map (@length _) poss ->
  (forall v', v = Some v' -> vectors_ok nd poss v') -> (forall u', u = Some u' -> map (@length Q) u' = map (@length _) poss) ->
  exists D, forall (hold : bool) outs outs' eps poss' mass', map f_array outs = arrays -> map f_array outs' = arrays ->
    positions_by nd eps v poss poss' -> masses_by eps u poss mass mass' ->
    (forall r t, (r < P)%nat -> In t (T r) -> near win (arr r) (trf r) 1 C0 (pick [] poss t) (pick [] poss' t)) ->
    exists m0 m1 mj,
      pm_paint pms w ts hold None ls outs poss WNone (WArray mass) = map Ret m0 /\
      pm_paint pms w ts hold None ls outs poss' WNone (WArray mass') = map Ret m1 /\
      pm_paint_jvp pms w ts None ls outs' poss (WArray mass) v u = map Ret mj /\
      forall r idx, (r < P)%nat -> In idx (elements (arr r)) ->
        Qabs (elem (arr r) (nth r m1 (fun _ => 0)) idx - elem (arr r) (nth r m0 (fun _ => 0)) idx
              - eps * elem (arr r) (nth r mj (fun _ => 0)) idx) <= D * (eps * eps).
Proof.
  intros HC0 Hm Hv Hu.
  set (bound := fun t => Qabs (pick 0 mass t) * (C0 * (speed v t * speed v t)) + Qabs (number_at u (fst t) (snd t)) * (C0 * speed v t)).
  assert (Pb : forall t, 0 <= bound t).
  { intros t. unfold bound. pose proof (speed_nonneg v t).
    assert (0 <= Qabs (pick 0 mass t) * (C0 * (speed v t * speed v t))) by (repeat apply Qmult_le_0_compat; try assumption; apply Qabs_nonneg).
    assert (0 <= Qabs (number_at u (fst t) (snd t)) * (C0 * speed v t)) by (repeat apply Qmult_le_0_compat; try assumption; apply Qabs_nonneg). lra. }
  exists (qsum (fun r => qsum bound (T r)) (seq 0 P)).
  intros hold outs outs' eps poss' mass' Eo Eo' Hpos Hmass Hnear.
  pose proof Hpos as [Vok Hmove]. destruct Hmass as [Lm' Hmass].
  pose proof (call_moved _ _ _ _ _ _ _ C Vok) as C'. destruct Vok as [Lv _].
  destruct (routing_moved poss poss' ls T HT Lv) as (T' & HT' & ET).
  assert (Lp : length poss' = P) by (apply (f_equal (@length nat)) in Lv; rewrite !map_length in Lv; exact Lv).
  destruct (routed_paint poss ls T HT win trs (ck_window _ _ _ _ _ _ C) (ck_transforms _ _ _ _ _ _ C) pms w ts eq_refl eq_refl
      outs hold None mass (fields_length _ _ _ _ _ _ C outs Eo) (call_rank _ _ _ _ _ _ C None outs Eo Logic.I) Hm) as (m0 & E0 & _ & F0).
  destruct (routed_paint poss' ls T' HT' win trs (ck_window _ _ _ _ _ _ C') (ck_transforms _ _ _ _ _ _ C') pms w ts eq_refl eq_refl
      outs hold None mass' (fields_length _ _ _ _ _ _ C' outs Eo) (call_rank _ _ _ _ _ _ C' None outs Eo Logic.I) (eq_trans Lm' (eq_sym Lv))) as (m1 & E1 & _ & F1).
  destruct (jvp_elem outs' mass v u Eo' Hm Hv Hu) as (mj & Ej & Fj).
  exists m0, m1, mj. split; [exact E0|]. split; [exact E1|]. split; [exact Ej|]. intros r idx Hr Hin.
  rewrite (Fj r idx Hr Hin).
  pose proof Hin as Hin'. rewrite <- (arr_field outs r Eo) in Hin'.
  specialize (F0 r idx Hr Hin'). assert (Hr' : (r < length poss')%nat) by lia. specialize (F1 r idx Hr' Hin').
  unfold rank_painter in F0, F1. rewrite !(arr_field outs r Eo) in F0, F1. rewrite (ET r) in F1. rewrite F0, F1. clear F0 F1 Fj.
  destruct (rank_wf r Hr) as [_ Hd]. assert (Li : length idx = nd) by (rewrite <- Hd; apply elements_length, Hin).
  match goal with |- Qabs (?o + ?a - (?o + ?b) - eps * ?c) <= _ =>
    setoid_replace (o + a - (o + b) - eps * c) with (a - b - eps * c) by ring end.
  rewrite <- qsum_minus, <- qsum_scale, <- qsum_minus. eapply Qle_trans; [apply Qabs_qsum|].
  apply Qle_trans with (qsum bound (T r) * (eps * eps)).
  - rewrite <- qsum_scale_r. apply qsum_le. intros t Ht. destruct (routing_bound poss ls T HT r t Hr Ht) as [B1 B2].
    destruct (weight_change C0 eps v poss' r t idx Hr Ht Li Hpos (Hnear r t Hr Ht)) as [N1 N2].
    assert (Em : pick 0 mass' t == pick 0 mass t + eps * number_at u (fst t) (snd t)) by (apply Hmass; assumption).
    set (Wy := wgt None r (pick [] poss' t) idx) in *. set (Wx := wgt None r (pick [] poss t) idx) in *.
    set (L := qsum (fun d => vector_at v (fst t) (snd t) d * wgt (Some (Z.of_nat d)) r (pick [] poss t) idx) (seq 0 nd)) in *.
    rewrite Em.
    match goal with |- Qabs ?e <= _ =>
      setoid_replace e with (pick 0 mass t * (Wy - Wx - eps * L) + eps * number_at u (fst t) (snd t) * (Wy - Wx)) by ring end.
    eapply Qle_trans; [apply Qabs_add_le; [apply Qabs_mult_le; [apply Qle_refl|exact N2]|apply Qabs_mult_le; [apply Qle_refl|exact N1]]|].
    rewrite Qabs_Qmult. unfold bound.
    assert (X : eps * eps == Qabs eps * Qabs eps) by (rewrite <- Qabs_Qmult; symmetry; apply Qabs_pos, Qsq_nonneg).
    rewrite X. apply Qle_lteq. right. ring.
  - apply Qmult_le_compat_r; [|apply Qsq_nonneg].
    assert (G : forall l, In r l -> qsum bound (T r) <= qsum (fun r => qsum bound (T r)) l).
    { induction l as [|a l IH]; [intros []|]. rewrite qsum_cons. intros [->|Hl].
      - assert (0 <= qsum (fun r => qsum bound (T r)) l) by (apply qsum_nonneg; intros; apply qsum_nonneg; intros; apply Pb). lra.
      - assert (0 <= qsum bound (T a)) by (apply qsum_nonneg; intros; apply Pb). specialize (IH Hl). lra. }
    apply G, in_seq. lia.
Qed.

Lemma read_tangent C0 fs g v : 0 <= C0 -> map f_array fs = arrays -> (forall g', g = Some g' -> map f_array g' = arrays) ->
  (forall v', v = Some v' -> vectors_ok nd poss v') ->
  exists D, forall eps fs' poss', fields_by arrays eps g fs fs' -> positions_by nd eps v poss poss' ->
    (forall r t, (r < P)%nat -> In t (T r) -> near win (arr r) (trf r) 1 C0 (pick [] poss t) (pick [] poss' t)) ->
    exists r0 r1 rj,
      pm_readout pms w ts None ls fs poss WNone = map Ret r0 /\
      pm_readout pms w ts None ls fs' poss' WNone = map Ret r1 /\
      pm_readout_jvp pms w ts None ls fs poss g v = map Ret rj /\
      forall s i, (s < P)%nat -> (i < length (nth s poss []))%nat ->
        Qabs (nth i (nth s r1 []) 0 - nth i (nth s r0 []) 0 - eps * nth i (nth s rj []) 0) <= D * (eps * eps).
Proof.
  intros HC0 Ef Hg Hv.
  set (bound := fun r t idx => C0 * (speed v t * speed v t) * Qabs (cell_at arrays (Some fs) r idx) + C0 * speed v t * Qabs (cell_at arrays g r idx)).
  exists (qsum (fun r => qsum (fun t => qsum (bound r t) (elements (arr r))) (T r)) (seq 0 P)).
  intros eps fs' poss' [Ef' Hf] Hpos Hnear.
  pose proof Hpos as [Vok Hmove].
  pose proof (call_moved _ _ _ _ _ _ _ C Vok) as C'. destruct Vok as [Lv _].
  destruct (routing_moved poss poss' ls T HT Lv) as (T' & HT' & ET).
  assert (Lp : length poss' = P) by (apply (f_equal (@length nat)) in Lv; rewrite !map_length in Lv; exact Lv).
  destruct (read_elem fs None Ef Logic.I) as (r0 & E0 & _ & F0).
  destruct (readout_jvp_elem fs g v Ef Hg Hv) as (rj & Ej & _ & Fj).
  destruct (routed_read poss' ls T' HT' win trs (ck_window _ _ _ _ _ _ C') (ck_transforms _ _ _ _ _ _ C') pms w ts eq_refl eq_refl
    fs' None (fields_length _ _ _ _ _ _ C' fs' Ef') (call_rank _ _ _ _ _ _ C' None fs' Ef' Logic.I)) as (r1 & E1 & _ & F1).
  exists r0, r1, rj. split; [exact E0|]. split; [exact E1|]. split; [exact Ej|]. intros s i Hs Hi.
  assert (F1' : nth i (nth s r1 []) 0 == read_sum (fun r t idx => wgt None r (pick [] poss' t) idx * cell_at arrays (Some fs') r idx) s i).
  { rewrite F1.
    - rewrite Lp. unfold read_sum. apply qsum_ext. intros r. rewrite (ET r). apply qsum_ext. intros t. destruct (tag_eqb t (s, i)); [|reflexivity].
      unfold rank_painter, value_at, cell_at. rewrite (arr_field fs' r Ef'). reflexivity.
    - lia.
    - rewrite <- (map_nth (@length (list Q))) in Hi |- *. rewrite Lv. exact Hi. }
  rewrite F1', (F0 s i Hs Hi), (Fj s i Hs Hi). clear F0 F1 F1' Fj.
  rewrite read_sum_combine.
  eapply Qle_trans; [apply (read_sum_bound _ (fun r t idx => (eps * eps) * bound r t idx))|].
  - intros r t idx Hr Ht Hin. destruct (routing_bound poss ls T HT r t Hr Ht) as [B1 B2].
    destruct (rank_wf r Hr) as [_ Hd]. assert (Li : length idx = nd) by (rewrite <- Hd; apply elements_length, Hin).
    destruct (weight_change C0 eps v poss' r t idx Hr Ht Li Hpos (Hnear r t Hr Ht)) as [N1 N2].
    assert (La : (r < length arrays)%nat) by (rewrite (ck_arrays _ _ _ _ _ _ C); exact Hr).
    rewrite (Hf r idx La Hin).
    set (Wy := wgt None r (pick [] poss' t) idx) in *. set (Wx := wgt None r (pick [] poss t) idx) in *.
    set (L := qsum (fun d => vector_at v (fst t) (snd t) d * wgt (Some (Z.of_nat d)) r (pick [] poss t) idx) (seq 0 nd)) in *.
    set (F := cell_at arrays (Some fs) r idx). set (G := cell_at arrays g r idx).
    match goal with |- Qabs ?e <= _ =>
      setoid_replace e with ((Wy - Wx - eps * L) * F + (Wy - Wx) * (eps * G)) by ring end.
    eapply Qle_trans; [apply Qabs_add_le; [apply Qabs_mult_le; [exact N2|apply Qle_refl]|apply Qabs_mult_le; [exact N1|apply Qle_refl]]|].
    rewrite Qabs_Qmult. unfold bound. fold F G.
    assert (X : eps * eps == Qabs eps * Qabs eps) by (rewrite <- Qabs_Qmult; symmetry; apply Qabs_pos, Qsq_nonneg).
    rewrite X. apply Qle_lteq. right. ring.
  - apply Qle_lteq. right. rewrite <- qsum_scale_r. apply qsum_ext. intros r. rewrite <- qsum_scale_r. apply qsum_ext. intros t.
    rewrite qsum_scale. ring.
Qed.
End Routed.

(** * The theorems *)

(** a quadratic or cubic window; the tuned cubic one on a mesh of unit spacing *)
Definition smooth_call (pms : list pm) (w : option window) (ts : option (list affine)) : Prop :=
  smooth (w_kind (resampler_of pms w)) /\ Forall periods_ok (transforms pms ts) /\
  (w_kind (resampler_of pms w) = TunedPCS -> Forall (fun t => Forall (fun s => s == 1) (af_scale t)) (transforms pms ts)).
(** cic of the default support *)
Definition cic_call (pms : list pm) (w : option window) (ts : option (list affine)) : Prop :=
  (exists k, resampler_of pms w = ResampleWindow k 0 /\ (k = Linear \/ k = TunedCIC)) /\ Forall periods_ok (transforms pms ts).
(** no particle is on the border of a cell, or moves out of its cell *)
Definition cells_kept (pms : list pm) (ts : option (list affine)) (poss poss' : list (list (list Q))) : Prop :=
  forall t s i, In t (transforms pms ts) -> (s < length poss)%nat -> (i < length (nth s poss []))%nat ->
    same_cell (ndim_of pms) t (nth i (nth s poss []) []) (nth i (nth s poss' []) []).

Section Bounds.
Variables (pms : list pm) (w : option window) (ts : option (list affine)) (ls : option (list layout)).
Variables (arrays : list array) (poss : list (list (list Q))).
Hypothesis C : call_ok pms w ts ls arrays poss.
Lemma pick_dim poss' t : map (@length (list Q)) poss' = map (@length _) poss -> Forall (Forall (fun x => length x = ndim_of pms)) poss' ->
  (fst t < length poss)%nat -> (snd t < length (nth (fst t) poss []))%nat -> length (pick [] poss' t) = ndim_of pms.
Proof.
  intros L H B1 B2. rewrite Forall_forall in H.
  assert (Lp : length poss' = length poss) by (apply (f_equal (@length nat)) in L; rewrite !map_length in L; exact L).
  assert (H1 : (fst t < length poss')%nat) by lia. specialize (H _ (nth_In poss' [] H1)). rewrite Forall_forall in H. apply H, nth_In.
  rewrite <- (map_nth (@length (list Q))) in B2 |- *. rewrite L. exact B2.
Qed.

Lemma smooth_bound : smooth_call pms w ts -> exists C0, 0 <= C0 /\ forall T, routing poss ls T -> forall poss', vectors_ok (ndim_of pms) poss poss' ->
  forall r t, (r < length poss)%nat -> In t (T r) ->
  near (resampler_of pms w) (nth r arrays (f_array zero_field)) (nth r (transforms pms ts) zero_affine) 1 C0 (pick [] poss t) (pick [] poss' t).
Proof.
  intros (Hs & Hp & Hf).
  destruct (finite_bound (fun r C0 => forall x y, length x = ndim_of pms -> length y = ndim_of pms ->
     near (resampler_of pms w) (nth r arrays (f_array zero_field)) (nth r (transforms pms ts) zero_affine) 1 C0 x y) (length poss)) as (C0 & P0 & H0).
  - intros r A B H L x y Hx Hy. apply (near_mono _ _ _ _ A); [apply H; assumption|exact L].
  - intros r Hr. destruct (rank_wf pms w ts ls arrays poss C r Hr) as [Hwf Hd]. rewrite <- Hd.
    assert (Hin : In (nth r (transforms pms ts) zero_affine) (transforms pms ts)) by (apply nth_In; rewrite (ck_transforms _ _ _ _ _ _ C); exact Hr).
    apply smooth_near; [exact Hwf|exact Hs|rewrite Forall_forall in Hp; apply Hp, Hin|].
    intros E. specialize (Hf E). rewrite Forall_forall in Hf. apply Hf, Hin.
  - exists C0. split; [exact P0|]. intros T HT poss' [L H] r t Hr Ht. destruct (routing_bound poss ls T HT r t Hr Ht) as [B1 B2].
    apply H0; [exact Hr| |]; apply pick_dim; try assumption; try reflexivity. exact (ck_poss _ _ _ _ _ _ C).
Qed.

Lemma cic_bound : cic_call pms w ts -> exists C0, 0 <= C0 /\ forall T, routing poss ls T -> forall poss', vectors_ok (ndim_of pms) poss poss' ->
  cells_kept pms ts poss poss' -> forall r t, (r < length poss)%nat -> In t (T r) ->
  near (resampler_of pms w) (nth r arrays (f_array zero_field)) (nth r (transforms pms ts) zero_affine) 1 C0 (pick [] poss t) (pick [] poss' t).
Proof.
  intros ((k & Ek & Hk) & Hp). rewrite Ek.
  destruct (finite_bound (fun r C0 => forall x y, length x = ndim_of pms -> length y = ndim_of pms ->
     same_cell (ndim_of pms) (nth r (transforms pms ts) zero_affine) x y ->
     near (ResampleWindow k 0) (nth r arrays (f_array zero_field)) (nth r (transforms pms ts) zero_affine) 1 C0 x y) (length poss)) as (C0 & P0 & H0).
  - intros r A B H L x y Hx Hy Hc. apply (near_mono _ _ _ _ A); [apply H; assumption|exact L].
  - intros r Hr. destruct (rank_wf pms w ts ls arrays poss C r Hr) as [Hwf Hd]. rewrite <- Hd.
    assert (Hin : In (nth r (transforms pms ts) zero_affine) (transforms pms ts)) by (apply nth_In; rewrite (ck_transforms _ _ _ _ _ _ C); exact Hr).
    apply cic_near; [exact Hwf|exact Hk|rewrite Forall_forall in Hp; apply Hp, Hin].
  - exists C0. split; [exact P0|]. intros T HT poss' [L H] Hc r t Hr Ht. destruct (routing_bound poss ls T HT r t Hr Ht) as [B1 B2].
    apply H0; [exact Hr| | |].
    + apply pick_dim; try assumption; try reflexivity. exact (ck_poss _ _ _ _ _ _ C).
    + apply pick_dim; assumption.
    + apply Hc; [|exact B1|exact B2]. apply nth_In. rewrite (ck_transforms _ _ _ _ _ _ C). exact Hr.
Qed.
End Bounds.

(** Painting the displaced particles of the changed masses differs from painting the
    original ones by [eps] times paint_jvp, up to the second order in [eps]. *)
Theorem C81_paint pms w ts ls arrays poss mass v_pos v_mass :
  call_ok pms w ts ls arrays poss -> smooth_call pms w ts ->
  map (@length Q) mass = map (@length _) poss ->
  (forall v, v_pos = Some v -> vectors_ok (ndim_of pms) poss v) ->
  (forall u, v_mass = Some u -> map (@length Q) u = map (@length _) poss) ->
  exists C, forall (hold : bool) outs outs' eps poss' mass',
  map f_array outs = arrays -> map f_array outs' = arrays ->
  positions_by (ndim_of pms) eps v_pos poss poss' -> masses_by eps v_mass poss mass mass' ->
  exists m0 m1 mj,
    pm_paint pms w ts hold None ls outs poss WNone (WArray mass) = map Ret m0 /\
    pm_paint pms w ts hold None ls outs poss' WNone (WArray mass') = map Ret m1 /\
    pm_paint_jvp pms w ts None ls outs' poss (WArray mass) v_pos v_mass = map Ret mj /\
    forall r real idx, nth_error arrays r = Some real -> In idx (elements real) ->
      Qabs (elem real (nth r m1 (fun _ => 0)) idx - elem real (nth r m0 (fun _ => 0)) idx
            - eps * elem real (nth r mj (fun _ => 0)) idx) <= C * (eps * eps).
Proof.
  intros C Hs Hm Hv Hu. destruct (call_routing _ _ _ _ _ _ C) as [T HT].
  destruct (smooth_bound _ _ _ _ _ _ C Hs) as (C0 & P0 & N).
  destruct (painted_tangent _ _ _ _ _ _ C T HT C0 mass v_pos v_mass P0 Hm Hv Hu) as (D & HD). exists D.
  intros hold outs outs' eps poss' mass' E1 E2 Hp Hm'.
  destruct (HD hold outs outs' eps poss' mass' E1 E2 Hp Hm') as (m0 & m1 & mj & A1 & A2 & A3 & A4).
  { apply N; [exact HT|exact (proj1 Hp)]. }
  exists m0, m1, mj. split; [exact A1|]. split; [exact A2|]. split; [exact A3|]. intros r real idx Er Hin.
  rewrite <- (nth_error_nth arrays r (f_array zero_field) Er) in Hin |- *. apply A4; [|exact Hin].
  rewrite <- (ck_arrays _ _ _ _ _ _ C). apply nth_error_Some. congruence.
Qed.
Print Assumptions C81_paint.

(** Reading the changed field at the displaced positions differs from reading the original
    one by [eps] times readout_jvp, up to the second order in [eps]. *)
Theorem C81_readout pms w ts ls arrays poss fields v_self v_pos :
  call_ok pms w ts ls arrays poss -> smooth_call pms w ts ->
  map f_array fields = arrays -> (forall g, v_self = Some g -> map f_array g = arrays) ->
  (forall v, v_pos = Some v -> vectors_ok (ndim_of pms) poss v) ->
  exists C, forall eps fields' poss',
  fields_by arrays eps v_self fields fields' -> positions_by (ndim_of pms) eps v_pos poss poss' ->
  exists r0 r1 rj,
    pm_readout pms w ts None ls fields poss WNone = map Ret r0 /\
    pm_readout pms w ts None ls fields' poss' WNone = map Ret r1 /\
    pm_readout_jvp pms w ts None ls fields poss v_self v_pos = map Ret rj /\
    forall s i, (s < length poss)%nat -> (i < length (nth s poss []))%nat ->
      Qabs (nth i (nth s r1 []) 0 - nth i (nth s r0 []) 0 - eps * nth i (nth s rj []) 0) <= C * (eps * eps).
Proof.
  intros C Hs Hf Hg Hv. destruct (call_routing _ _ _ _ _ _ C) as [T HT].
  destruct (smooth_bound _ _ _ _ _ _ C Hs) as (C0 & P0 & N).
  destruct (read_tangent _ _ _ _ _ _ C T HT C0 fields v_self v_pos P0 Hf Hg Hv) as (D & HD). exists D.
  intros eps fields' poss' Hf' Hp. apply (HD eps fields' poss' Hf' Hp). apply N; [exact HT|exact (proj1 Hp)].
Qed.
Print Assumptions C81_readout.

(** the same with cic, as long as no particle leaves its cell *)
Theorem C81_paint_cic pms w ts ls arrays poss mass v_pos v_mass :
  call_ok pms w ts ls arrays poss -> cic_call pms w ts ->
  map (@length Q) mass = map (@length _) poss ->
  (forall v, v_pos = Some v -> vectors_ok (ndim_of pms) poss v) ->
  (forall u, v_mass = Some u -> map (@length Q) u = map (@length _) poss) ->
  exists C, forall (hold : bool) outs outs' eps poss' mass',
  map f_array outs = arrays -> map f_array outs' = arrays ->
  positions_by (ndim_of pms) eps v_pos poss poss' -> masses_by eps v_mass poss mass mass' -> cells_kept pms ts poss poss' ->
  exists m0 m1 mj,
    pm_paint pms w ts hold None ls outs poss WNone (WArray mass) = map Ret m0 /\
    pm_paint pms w ts hold None ls outs poss' WNone (WArray mass') = map Ret m1 /\
    pm_paint_jvp pms w ts None ls outs' poss (WArray mass) v_pos v_mass = map Ret mj /\
    forall r real idx, nth_error arrays r = Some real -> In idx (elements real) ->
      Qabs (elem real (nth r m1 (fun _ => 0)) idx - elem real (nth r m0 (fun _ => 0)) idx
            - eps * elem real (nth r mj (fun _ => 0)) idx) <= C * (eps * eps).
Proof.
  intros C Hs Hm Hv Hu. destruct (call_routing _ _ _ _ _ _ C) as [T HT].
  destruct (cic_bound _ _ _ _ _ _ C Hs) as (C0 & P0 & N).
  destruct (painted_tangent _ _ _ _ _ _ C T HT C0 mass v_pos v_mass P0 Hm Hv Hu) as (D & HD). exists D.
  intros hold outs outs' eps poss' mass' E1 E2 Hp Hm' Hc.
  destruct (HD hold outs outs' eps poss' mass' E1 E2 Hp Hm') as (m0 & m1 & mj & A1 & A2 & A3 & A4).
  { apply N; [exact HT|exact (proj1 Hp)|exact Hc]. }
  exists m0, m1, mj. split; [exact A1|]. split; [exact A2|]. split; [exact A3|]. intros r real idx Er Hin.
  rewrite <- (nth_error_nth arrays r (f_array zero_field) Er) in Hin |- *. apply A4; [|exact Hin].
  rewrite <- (ck_arrays _ _ _ _ _ _ C). apply nth_error_Some. congruence.
Qed.
Print Assumptions C81_paint_cic.
Theorem C81_readout_cic pms w ts ls arrays poss fields v_self v_pos :
  call_ok pms w ts ls arrays poss -> cic_call pms w ts ->
  map f_array fields = arrays -> (forall g, v_self = Some g -> map f_array g = arrays) ->
  (forall v, v_pos = Some v -> vectors_ok (ndim_of pms) poss v) ->
  exists C, forall eps fields' poss',
  fields_by arrays eps v_self fields fields' -> positions_by (ndim_of pms) eps v_pos poss poss' -> cells_kept pms ts poss poss' ->
  exists r0 r1 rj,
    pm_readout pms w ts None ls fields poss WNone = map Ret r0 /\
    pm_readout pms w ts None ls fields' poss' WNone = map Ret r1 /\
    pm_readout_jvp pms w ts None ls fields poss v_self v_pos = map Ret rj /\
    forall s i, (s < length poss)%nat -> (i < length (nth s poss []))%nat ->
      Qabs (nth i (nth s r1 []) 0 - nth i (nth s r0 []) 0 - eps * nth i (nth s rj []) 0) <= C * (eps * eps).
Proof.
  intros C Hs Hf Hg Hv. destruct (call_routing _ _ _ _ _ _ C) as [T HT].
  destruct (cic_bound _ _ _ _ _ _ C Hs) as (C0 & P0 & N).
  destruct (read_tangent _ _ _ _ _ _ C T HT C0 fields v_self v_pos P0 Hf Hg Hv) as (D & HD). exists D.
  intros eps fields' poss' Hf' Hp Hc. apply (HD eps fields' poss' Hf' Hp). apply N; [exact HT|exact (proj1 Hp)|exact Hc].
Qed.
Print Assumptions C81_readout_cic.

(** * A case, and where the statement fails *)
Definition tsc : window := ResampleWindow TunedTSC 0.
Definition ex_push : list (list (list Q)) := [[[1; 2]; [3; -(1)]]; [[1#2; 5]]].
Lemma ex_tsc_call : exists ls, pm_decompose ex_pms (SmoothWindow tsc) None ex_parts = map Ret ls /\
  call_ok ex_pms (Some tsc) None (Some ls) [c_array [2; 4]%Z; c_array [2; 4]%Z] ex_parts.
Proof.
  destruct (C33_applies _ _ _ _ _ _ _ ex_world ex_parts (mesh_scale [4; 4]%Z [8; 8]) None (SmoothWindow tsc) (half_support tsc 2) (Some tsc)
    [c_array [2; 4]%Z; c_array [2; 4]%Z]) as (ls & E & C & _).
  - split; [reflexivity|repeat constructor].
  - reflexivity.
  - exact (default_affines _ _ _ _ _ _ _ ex_world).
  - reflexivity.
  - reflexivity.
  - apply Forall_forall. intros q Hin. apply repeat_spec in Hin. subst q. discriminate.
  - reflexivity.
  - reflexivity.
  - intros r Hr. destruct r as [|[|r]]; [| |simpl in Hr; lia]; (apply (c_array_stored [2; 4]%Z); repeat constructor).
  - exists ls. split; assumption.
Qed.
Definition ex_pushed (eps : Q) : list (list (list Q)) := [[[3 + eps; 5 + eps * 2]; [(15#2) + eps * 3; -(1) + eps * -(1)]]; [[1 + eps * (1#2); 1 + eps * 5]]].
Lemma ex_positions eps : positions_by 2 eps (Some ex_push) ex_parts (ex_pushed eps).
Proof.
  split; [split; [reflexivity|repeat constructor]|]. intros s i d Hs Hi Hd.
  destruct s as [|[|s]]; [| |cbn in Hs; lia].
  - destruct i as [|[|i]]; [| |cbn in Hi; lia]; (destruct d as [|[|d]]; [| |lia]; cbn; ring).
  - destruct i as [|i]; [|cbn in Hi; lia]; (destruct d as [|[|d]]; [| |lia]; cbn; ring).
Qed.
Lemma ex_masses eps : masses_by eps (Some [[4; 5]; [6]]) ex_parts [[1; 2]; [3]] [[1 + eps * 4; 2 + eps * 5]; [3 + eps * 6]].
Proof.
  split; [reflexivity|]. intros s i Hs Hi.
  destruct s as [|[|s]]; [| |cbn in Hs; lia].
  - destruct i as [|[|i]]; [| |cbn in Hi; lia]; cbn; ring.
  - destruct i as [|i]; [|cbn in Hi; lia]; cbn; ring.
Qed.
Example C81_case : exists ls C, pm_decompose ex_pms (SmoothWindow tsc) None ex_parts = map Ret ls /\ forall eps, exists m0 m1 mj,
  pm_paint ex_pms (Some tsc) None false None (Some ls) [ex_out; ex_out] ex_parts WNone (WArray [[1; 2]; [3]]) = map Ret m0 /\
  pm_paint ex_pms (Some tsc) None false None (Some ls) [ex_out; ex_out] (ex_pushed eps) WNone (WArray [[1 + eps * 4; 2 + eps * 5]; [3 + eps * 6]]) = map Ret m1 /\
  pm_paint_jvp ex_pms (Some tsc) None None (Some ls) [ex_out; ex_out] ex_parts (WArray [[1; 2]; [3]]) (Some ex_push) (Some [[4; 5]; [6]]) = map Ret mj /\
  forall r idx, (r < 2)%nat -> In idx (elements (c_array [2; 4]%Z)) ->
    Qabs (elem (c_array [2; 4]%Z) (nth r m1 (fun _ => 0)) idx - elem (c_array [2; 4]%Z) (nth r m0 (fun _ => 0)) idx
          - eps * elem (c_array [2; 4]%Z) (nth r mj (fun _ => 0)) idx) <= C * (eps * eps).
Proof.
  destruct ex_tsc_call as (ls & E & C). exists ls.
  destruct (C81_paint _ _ _ _ _ _ [[1; 2]; [3]] (Some ex_push) (Some [[4; 5]; [6]]) C) as (D & H).
  - split; [exact Logic.I|]. split; [repeat constructor; discriminate|]. discriminate.
  - reflexivity.
  - intros v Hv. injection Hv as <-. split; [reflexivity|repeat constructor].
  - intros v Hv. injection Hv as <-. reflexivity.
  - exists D. split; [exact E|]. intros eps.
    destruct (H false [ex_out; ex_out] [ex_out; ex_out] eps _ _ eq_refl eq_refl (ex_positions eps) (ex_masses eps)) as (m0 & m1 & mj & A1 & A2 & A3 & A4).
    exists m0, m1, mj. split; [exact A1|]. split; [exact A2|]. split; [exact A3|]. intros r idx Hr. apply A4. destruct r as [|[|r]]; [reflexivity|reflexivity|lia].
Qed.
Example C81_cic_case : exists ls C, pm_decompose ex_pms SmoothDefault None ex_parts = map Ret ls /\ exists r0 r1 rj,
  pm_readout ex_pms None None None (Some ls) [ex_field 0; ex_field 1] ex_parts WNone = map Ret r0 /\
  pm_readout ex_pms None None None (Some ls) [ex_field 0; ex_field 1] (ex_pushed (1#100)) WNone = map Ret r1 /\
  pm_readout_jvp ex_pms None None None (Some ls) [ex_field 0; ex_field 1] ex_parts None (Some ex_push) = map Ret rj /\
  forall s i, (s < 2)%nat -> (i < length (nth s ex_parts []))%nat ->
    Qabs (nth i (nth s r1 []) 0 - nth i (nth s r0 []) 0 - (1#100) * nth i (nth s rj []) 0) <= C * ((1#100) * (1#100)).
Proof.
  destruct ex_call as (ls & E & C & _). exists ls.
  destruct (C81_readout_cic _ _ _ _ _ _ [ex_field 0; ex_field 1] None (Some ex_push) C) as (D & H).
  - split; [exists TunedCIC; split; [reflexivity|right; reflexivity]|repeat constructor; discriminate].
  - reflexivity.
  - discriminate.
  - intros v Hv. injection Hv as <-. split; [reflexivity|repeat constructor].
  - exists D. split; [exact E|]. apply H.
    + split; [reflexivity|]. intros r idx _ _. cbn [cell_at]. ring.
    + apply ex_positions.
    + assert (Z0 : forall q z, Qfloor q = z -> ~ q == inject_Z z -> forall n : Z, ~ q == inject_Z n).
      { intros q z F N n En. pose proof (Qfloor_comp _ _ En) as G. rewrite Qfloor_Z in G. subst n. rewrite F in *. exact (N En). }
      intros t s i Ht Hs Hi d Hd.
      assert (Ht' : t = nth 0 (transforms ex_pms None) zero_affine \/ t = nth 1 (transforms ex_pms None) zero_affine).
      { destruct Ht as [<-|[<-|[]]]; [left|right]; reflexivity. }
      clear Ht.
      destruct s as [|[|s]]; [| |cbn in Hs; lia]; (destruct i as [|[|i]]; [| |cbn in Hi; lia]); try (cbn in Hi; lia);
        (destruct d as [|[|d]]; [| |cbn in Hd; lia]);
        (destruct Ht' as [->| ->]; (split; [eapply Z0; [vm_compute; reflexivity|vm_compute; discriminate]|split; vm_compute; discriminate])).
Qed.

(** pcs: the gradient lacks the factor of the scale (C29), so readout_jvp is not the
    derivative where the mesh spacing is not one *)
Definition pcs_field : field := {| f_array := mesh4; f_data := fun a => if (a =? 0)%Z then 1 else 0 |}.
Definition on_mesh4 (k : kind) : Prop :=
  call_ok one_pms (Some (ResampleWindow k 0)) (Some [line4 2]) None [mesh4] [[[1#4]]].
Lemma on_mesh4_ok k : standard k -> on_mesh4 k.
Proof.
  intros Hs. constructor; try reflexivity; [left; reflexivity|exact (proj1 (standard_proper _ Hs))| |repeat constructor].
  intros r a t Ea Et. destruct r as [|[|r]]; cbn in Ea, Et; try discriminate. injection Ea as <-. injection Et as <-.
  split; [apply wf_line4|reflexivity].
Qed.
Lemma one_read k d x : wf_diffdir mesh4 d ->
  pm_readout one_pms (Some (ResampleWindow k 0)) (Some [line4 2]) d None [pcs_field] [[[x]]] WNone =
  map Ret [[readout_at (painter_of (ResampleWindow k 0) mesh4 (line4 2) d) (f_data pcs_field) [x] 1]].
Proof.
  intros Hd. unfold pm_readout, readout_local. cbn [resampler_of transforms length seq map nth_error local_arg].
  cbn [f_array pcs_field]. rewrite (window_readout_none (ResampleWindow k 0) mesh4 (line4 2) d Hd). reflexivity.
Qed.
Theorem C81_pcs_refuted : on_mesh4 TunedPCS /\
  ~ exists C, forall eps poss', positions_by 1 eps (Some [[[1]]]) [[[1#4]]] poss' -> exists r0 r1 rj,
    pm_readout one_pms (Some (ResampleWindow TunedPCS 0)) (Some [line4 2]) None None [pcs_field] [[[1#4]]] WNone = map Ret r0 /\
    pm_readout one_pms (Some (ResampleWindow TunedPCS 0)) (Some [line4 2]) None None [pcs_field] poss' WNone = map Ret r1 /\
    pm_readout_jvp one_pms (Some (ResampleWindow TunedPCS 0)) (Some [line4 2]) None None [pcs_field] [[[1#4]]] None (Some [[[1]]]) = map Ret rj /\
    Qabs (nth 0 (nth 0 r1 []) 0 - nth 0 (nth 0 r0 []) 0 - eps * nth 0 (nth 0 rj []) 0) <= C * (eps * eps).
Proof.
  split; [apply on_mesh4_ok; exact Logic.I|]. intros (C & H).
  destruct (C81_readout _ _ _ _ _ _ [pcs_field] None (Some [[[1]]]) (on_mesh4_ok Cubic Logic.I)) as (C0 & H0).
  { split; [exact Logic.I|]. split; [repeat constructor; discriminate|discriminate]. } { reflexivity. } { discriminate. }
  { intros v Hv. injection Hv as <-. split; [reflexivity|repeat constructor]. }
  set (D := 1 + Qabs C + Qabs C0). pose proof (Qabs_nonneg C) as A1. pose proof (Qabs_nonneg C0) as A2.
  pose proof (Qle_Qabs C) as A3. pose proof (Qle_Qabs C0) as A4.
  assert (HD : 1 <= D) by (unfold D; lra). assert (HD' : C + C0 <= D) by (unfold D; lra). clearbody D.
  assert (HDi : 0 < / D) by (apply Qinv_lt_0_compat; lra).
  set (eps := (1#4) * / D).
  assert (He : 0 < eps) by (unfold eps; lra). assert (Hed : eps * D == 1#4) by (unfold eps; field; lra). clearbody eps.
  assert (Pb : positions_by 1 eps (Some [[[1]]]) [[[1#4]]] [[[(1#4) + eps]]]).
  { split; [split; [reflexivity|repeat constructor]|]. intros s i d Hs Hi Hd.
    destruct s as [|s]; [|cbn in Hs; lia]. destruct i as [|i]; [|cbn in Hi; lia]. destruct d as [|d]; [|lia]. cbn. ring. }
  destruct (H eps _ Pb) as (r0 & r1 & rj & R0 & R1 & Rj & B).
  assert (Fb : fields_by [mesh4] eps None [pcs_field] [pcs_field]) by (split; [reflexivity|]; intros r idx _ _; cbn [cell_at]; ring).
  destruct (H0 eps [pcs_field] _ Fb Pb) as (q0 & q1 & qj & Q0 & Q1 & Qj & B0).
  specialize (B0 0%nat 0%nat ltac:(cbn; lia) ltac:(cbn; lia)).
  rewrite one_read in R0, R1, Q0, Q1 by exact Logic.I.
  assert (Inj : forall (a b : list (list Q)), map Ret a = map Ret b -> a = b).
  { intros a b Hab. apply (f_equal all_ret) in Hab. rewrite !all_ret_Ret in Hab. congruence. }
  apply Inj in R0, R1, Q0, Q1. subst r0 r1 q0 q1. cbn [nth] in B, B0.
  assert (Same : forall y, readout_at (painter_of (ResampleWindow TunedPCS 0) mesh4 (line4 2) None) (f_data pcs_field) [y] 1 ==
     readout_at (painter_of (ResampleWindow Cubic 0) mesh4 (line4 2) None) (f_data pcs_field) [y] 1).
  { intros y. destruct (C24_tuned_is_generic TunedPCS mesh4 (line4 2) (f_data pcs_field) [[y]] [1] None (wf_line4 2) Logic.I) as [_ (v1 & v2 & E1 & E2 & S)].
    - repeat constructor; discriminate.
    - repeat constructor.
    - reflexivity.
    - exact Logic.I.
    - repeat constructor.
    - cbn [generic_of] in E2. rewrite window_readout_none in E1, E2 by exact Logic.I. injection E1 as <-. injection E2 as <-.
      cbn [map] in S. inversion S. assumption. }
  rewrite !Same in B.
  assert (Xg : nth 0 (nth 0 rj []) 0 == - (5#8)).
  { destruct (all_ret_check (pm_readout_jvp one_pms (Some (ResampleWindow TunedPCS 0)) (Some [line4 2]) None None [pcs_field] [[[1#4]]] None (Some [[[1]]]))
      (fun js => Qeq_bool (nth 0 (nth 0 js []) 0) (-(5#8)))) as (js & E1 & E2); [vm_compute; reflexivity|].
    rewrite Rj in E1. apply Inj in E1. subst js. apply Qeq_bool_iff, E2. }
  assert (Xk : nth 0 (nth 0 qj []) 0 == - (5#4)).
  { destruct (all_ret_check (pm_readout_jvp one_pms (Some (ResampleWindow Cubic 0)) (Some [line4 2]) None None [pcs_field] [[[1#4]]] None (Some [[[1]]]))
      (fun js => Qeq_bool (nth 0 (nth 0 js []) 0) (-(5#4)))) as (js & E1 & E2); [vm_compute; reflexivity|].
    rewrite Qj in E1. apply Inj in E1. subst js. apply Qeq_bool_iff, E2. }
  rewrite Xg in B. rewrite Xk in B0.
  apply Qabs_Qle_condition in B. apply Qabs_Qle_condition in B0.
  assert (F : eps * (5#8) <= (C + C0) * (eps * eps)) by lra.
  assert (F2 : (C + C0) * (eps * eps) <= D * (eps * eps)) by (apply Qmult_le_compat_r; [exact HD'|nra]).
  assert (F3 : D * (eps * eps) == eps * (1#4)) by (rewrite <- Hed; ring).
  nra.
Qed.
Print Assumptions C81_pcs_refuted.
