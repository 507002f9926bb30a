(** Model of the Jacobian products of painting and reading, pm.py:793-859, 1871-1934,
    and their sums over all ranks. *)
From Coq Require Import List Arith ZArith QArith Qabs Qround Lqa Lia Bool Sorted Permutation Setoid Morphisms.
From Verif Require Import Base ListFacts LayoutModel LayoutSpec LayoutProofs LayoutModes LayoutMore WrapModel WrapProofs DomainModel DomainFill DomainGeom DomainTargets
  DomainHome DomainProperties QSum WindowModel WindowStencil WindowSpread WindowKernels WindowAxis WindowNative WindowApi WindowPoints
  WindowGrad WindowTranslate WindowProperties MeshModel MeshAssign MeshRoute MeshPaint MeshTile MeshDistributed.
Import ListNotations.
Local Open Scope Q_scope.

(** * Model *)

(** [v[..., d]] on all ranks *)
Definition column (d : nat) (v : list (list (list Q))) : list (list Q) := map (map (fun row => nth d row 0)) v.
(** numpy's product of a rank's array with a number or an array of the same length *)
Definition product (l : list Q) (a : option (value Q)) : outcome (list Q) :=
  match a with
  | Some (Scalar c) => Ret (map (fun x => x * c) l)
  | Some (Array b) => if (length l =? length b)%nat then Ret (map (fun xy => fst xy * snd xy) (combine l b)) else Raise ValueError
  | None => Raise TypeError
  end.
Definition products (v : list (list Q)) (a : wvalue) : list (outcome (list Q)) :=
  map (fun r => product (nth r v []) (local_arg a r)) (seq 0 (length v)).
Definition ndim_of (pms : list pm) : nat := match pms with p :: _ => length (pm_Nmesh p) | [] => O end.
Definition directions (n : nat) : list (option Z) := map (fun d => Some (Z.of_nat d)) (seq 0 n).

(** a sequence of paints with hold=True into the same field *)
Fixpoint paint_terms (pms : list pm) (w : option window) (ts : option (list affine)) (ls : option (list layout))
    (outs : list field) (poss : list (list (list Q))) (terms : list (option Z * list (outcome (list Q)))) : list (outcome memory) :=
  match terms with
  | [] => map (fun f => Ret (f_data f)) outs
  | (d, mass) :: rest =>
      match all_ret mass with
      | None => block_rest mass
      | Some mass =>
          let painted := pm_paint pms w ts true d ls outs poss WNone (WArray mass) in
          match all_ret painted with
          | None => block_rest painted
          | Some ms => paint_terms pms w ts ls (map (fun fm => with_data (fst fm) (snd fm)) (combine outs ms)) poss rest
          end
      end
  end.
(** pm.py:1871-1887 with [out] given, [v_mass] an array *)
Definition pm_paint_jvp (pms : list pm) (w : option window) (ts : option (list affine)) (gradient : option Z)
    (ls : option (list layout)) (outs : list field) (poss : list (list (list Q))) (mass : wvalue)
    (v_pos : option (list (list (list Q)))) (v_mass : option (list (list Q))) : list (outcome memory) :=
  match gradient with
  | Some _ => map (fun _ => Raise AssertionError) outs
  | None =>
      paint_terms pms w ts ls (map (fun f => with_data f (fill (f_array f) (f_data f) 0)) outs) poss
        (match v_pos with
         | Some v => map (fun d => (Some (Z.of_nat d), products (column d v) mass)) (seq 0 (ndim_of pms))
         | None => [] end ++
         match v_mass with Some v => [(None, map Ret v)] | None => [] end)
  end.

(** the columns of a gradient against the positions, each multiplied by [a]:
    pm.py:1921-1923 and 832-834 *)
Fixpoint read_columns (pms : list pm) (w : option window) (ts : option (list affine)) (ls : option (list layout))
    (fields : list field) (poss : list (list (list Q))) (a : wvalue) (ds : list (option Z)) : list (outcome (list (list Q))) :=
  match ds with
  | [] => map (fun _ => Ret []) poss
  | d :: rest =>
      let read := pm_readout pms w ts d ls fields poss WNone in
      match all_ret read with
      | None => block_rest read
      | Some vs =>
          match all_ret (products vs a) with
          | None => block_rest (products vs a)
          | Some c =>
              let others := read_columns pms w ts ls fields poss a rest in
              match all_ret others with
              | None => block_rest others
              | Some cs => map (fun x => Ret (fst x :: snd x)) (combine c cs)
              end
          end
      end
  end.
(** pm.py:1889-1934.  The flags tell whether out_pos, out_mass are wanted (not False). *)
Definition pm_paint_vjp (pms : list pm) (w : option window) (ts : option (list affine)) (gradient : option Z)
    (ls : option (list layout)) (v : list field) (poss : list (list (list Q))) (mass : wvalue)
    (want_pos want_mass : bool) : list (outcome (option (list (list Q)) * option (list Q))) :=
  if want_pos && (match gradient with Some _ => true | None => false end) then map (fun _ => Raise ValueError) v else
  let out_pos := if want_pos
    then map (fun o => bind o (fun x => Ret (Some x))) (read_columns pms w ts ls v poss mass (directions (ndim_of pms)))
    else map (fun _ => Ret None) v in
  match all_ret out_pos with
  | None => block_rest out_pos
  | Some ps =>
      let out_mass := if want_mass
        then map (fun o => bind o (fun x => Ret (Some x))) (pm_readout pms w ts gradient ls v poss WNone)
        else map (fun _ => Ret None) v in
      match all_ret out_mass with
      | None => block_rest out_mass
      | Some qs => map Ret (combine ps qs)
      end
  end.

(** [jvp[...] += x], [jvp[...] += x * y] *)
Definition add_to (acc x : list Q) : list Q := map (fun ax => fst ax + snd ax) (combine acc x).
Fixpoint read_terms (pms : list pm) (w : option window) (ts : option (list affine)) (ls : option (list layout))
    (poss : list (list (list Q))) (terms : list (option Z * list field * option (list (list Q)))) (acc : list (list Q))
    : list (outcome (list Q)) :=
  match terms with
  | [] => map Ret acc
  | (d, fields, factor) :: rest =>
      let read := pm_readout pms w ts d ls fields poss WNone in
      match all_ret read with
      | None => block_rest read
      | Some vs =>
          let scaled := match factor with Some c => products vs (WArray c) | None => map Ret vs end in
          match all_ret scaled with
          | None => block_rest scaled
          | Some xs => read_terms pms w ts ls poss rest (map (fun ax => add_to (fst ax) (snd ax)) (combine acc xs))
          end
      end
  end.
(** pm.py:848-859.  The argument [gradient] is not used. *)
Definition pm_readout_jvp (pms : list pm) (w : option window) (ts : option (list affine)) (gradient : option Z)
    (ls : option (list layout)) (fields : list field) (poss : list (list (list Q)))
    (v_self : option (list field)) (v_pos : option (list (list (list Q)))) : list (outcome (list Q)) :=
  read_terms pms w ts ls poss
    (match v_pos with
     | Some v => map (fun d => (Some (Z.of_nat d), fields, Some (column d v))) (seq 0 (ndim_of pms))
     | None => [] end ++
     match v_self with Some f => [(None, f, None)] | None => [] end)
    (map (fun pos => repeat 0 (length pos)) poss).

(** pm.py:793-845 with [out_self] a field other than self *)
Definition pm_readout_vjp (pms : list pm) (w : option window) (ts : option (list affine)) (gradient : option Z)
    (ls : option (list layout)) (fields outs : list field) (poss : list (list (list Q))) (v : list (list Q))
    (want_self want_pos : bool) : list (outcome (option memory * option (list (list Q)))) :=
  if want_pos && (match gradient with Some _ => true | None => false end) then map (fun _ => Raise ValueError) fields else
  let out_pos := if want_pos
    then map (fun o => bind o (fun x => Ret (Some x))) (read_columns pms w ts ls fields poss (WArray v) (directions (ndim_of pms)))
    else map (fun _ => Ret None) fields in
  match all_ret out_pos with
  | None => block_rest out_pos
  | Some ps =>
      let out_self := if want_self
        then map (fun o => bind o (fun x => Ret (Some x))) (pm_paint pms w ts false gradient ls outs poss WNone (WArray v))
        else map (fun _ => Ret None) fields in
      match all_ret out_self with
      | None => block_rest out_self
      | Some ms => map Ret (combine ms ps)
      end
  end.

(** * With a layout or without *)

(** tags of the particles of rank [r] *)
Definition own {A} (poss : list (list A)) (r : nat) : list (nat * nat) := map (pair r) (seq 0 (length (nth r poss []))).
Inductive routing (poss : list (list (list Q))) : option (list layout) -> (nat -> list (nat * nat)) -> Prop :=
| by_layout args : wf_args args -> sent_lengths args poss -> routing poss (Some (layout_init args)) (tags args)
| in_place : routing poss None (own poss).

Section Routed.
Variables (poss : list (list (list Q))) (ls : option (list layout)) (T : nat -> list (nat * nat)).
Hypothesis HT : routing poss ls T.
Local Notation P := (length poss).

Lemma routing_bound r t : (r < P)%nat -> In t (T r) -> (fst t < P)%nat /\ (snd t < length (nth (fst t) poss []))%nat.
Proof.
  destruct HT as [args Ha Hs|]; intros Hr Hin.
  - pose proof (poss_length args poss Hs) as L. rewrite L. exact (tags_bound args poss Ha Hs r t Hin).
  - unfold own in Hin. apply in_map_iff in Hin. destruct Hin as (i & <- & Hi). apply in_seq in Hi. simpl. lia.
Qed.

Variables (w : window) (ts : list affine).
Hypothesis (Hk : (0 < native_of (w_kind w))%Z) (Hts : length ts = P).
Variables (pms : list pm) (w' : option window) (ts' : option (list affine)).
Hypothesis (Ew : resampler_of pms w' = w) (Et : transforms pms ts' = ts).

Lemma routed_paint outs hold d mass : length outs = P ->
  (forall r, (r < P)%nat -> rank_ok poss d (nth r outs zero_field) (nth r ts zero_affine)) ->
  map (@length Q) mass = map (@length _) poss ->
  exists ms, pm_paint pms w' ts' hold d ls outs poss WNone (WArray mass) = map Ret ms /\ length ms = P /\
    forall r idx, (r < P)%nat -> In idx (elements (f_array (nth r outs zero_field))) ->
      elem (f_array (nth r outs zero_field)) (nth r ms (fun _ => 0)) idx ==
      (if hold then elem (f_array (nth r outs zero_field)) (f_data (nth r outs zero_field)) idx else 0) +
      qsum (fun t => pick 0 mass t * weight_of (rank_painter w ts d outs r) 1 (pick [] poss t) idx) (T r).
Proof.
  intros Lo Hr Hm. destruct HT as [args Ha Hs|].
  - pose proof (poss_length args poss Hs) as L. rewrite L in *.
    exact (pm_paint_elem args poss Ha Hs w ts d Hk Hts outs hold Lo Hr pms w' ts' WNone (WArray mass) Ew Et Logic.I Hm).
  - unfold pm_paint. rewrite Ew, Et.
    set (fs := if hold then outs else map (fun f => with_data f (fill (f_array f) (f_data f) 0)) outs).
    assert (Lf : length fs = P) by (unfold fs; destruct hold; [exact Lo|rewrite map_length; exact Lo]).
    assert (Af : forall r, f_array (nth r fs zero_field) = f_array (nth r outs zero_field)).
    { intros r. rewrite <- !(map_nth f_array). unfold fs. destruct hold; [reflexivity|]. rewrite map_map. reflexivity. }
    assert (Lm : forall r, length (nth r mass []) = length (nth r poss [])).
    { intros r. rewrite <- !(map_nth (@length _)). rewrite Hm. reflexivity. }
    assert (Lmm : length mass = P) by (apply (f_equal (@length nat)) in Hm; rewrite !map_length in Hm; exact Hm).
    exists (map (fun r => paint_all (rank_painter w ts d outs r) (f_data (nth r fs zero_field))
       (parts_of (nth r poss []) (nth r mass []) (repeat 1 (length (nth r poss []))))) (seq 0 P)).
    split; [|split; [rewrite map_length, seq_length; reflexivity|]].
    + unfold paint_local. rewrite Lf, map_map. apply map_ext_in. intros r Hi. apply in_seq in Hi.
      assert (Hr' : (r < P)%nat) by lia.
      rewrite (nth_error_nth' fs zero_field (n := r)) by lia. rewrite (nth_error_nth' ts zero_affine (n := r)) by lia.
      rewrite (nth_error_nth' poss [] (n := r)) by lia. rewrite (Af r). destruct (Hr r Hr') as (W1 & W2 & W3).
      cbn [local_arg]. rewrite (nth_error_nth' mass [] (n := r)) by lia. cbn [option_map].
      rewrite window_paint_values; [reflexivity|assumption|exact Logic.I|exact (Lm r)].
    + intros r idx Hr' Hin. rewrite nth_map_seq by exact Hr'. destruct (Hr r Hr') as (W1 & W2 & W3). unfold rank_painter.
      rewrite paint_all_elem; [|exact W1|exact Hk| |exact (Lm r)|apply repeat_length|exact Hin].
      * apply Qplus_comp.
        -- unfold fs. destruct hold; [reflexivity|]. rewrite (nth_map_in _ outs r zero_field zero_field) by lia.
           cbn [with_data f_data]. rewrite fill_elem by exact Hin. reflexivity.
        -- unfold own. rewrite qsum_map. apply qsum_ext_in. intros i Hi. apply in_seq in Hi.
           rewrite nth_repeat_in by lia. reflexivity.
      * rewrite Forall_forall in W3. apply W3, nth_In. exact Hr'.
Qed.

Definition cell_sum (fs : list field) (F G : nat -> list Z -> Q) : Q :=
  qsum (fun r => qsum (fun idx => F r idx * G r idx) (elements (f_array (nth r fs zero_field)))) (seq 0 P).
Definition value_at (fs : list field) (r : nat) (idx : list Z) : Q := elem (f_array (nth r fs zero_field)) (f_data (nth r fs zero_field)) idx.
Definition tag_sum (a b : list (list Q)) : Q := qsum (fun t => pick 0 a t * pick 0 b t) (all_tags poss).

Lemma routed_read fields d : length fields = P ->
  (forall r, (r < P)%nat -> rank_ok poss d (nth r fields zero_field) (nth r ts zero_affine)) ->
  exists vs, pm_readout pms w' ts' d ls fields poss WNone = map Ret vs /\ map (@length Q) vs = map (@length _) poss /\
    forall s i, (s < P)%nat -> (i < length (nth s poss []))%nat ->
      nth i (nth s vs []) 0 ==
      qsum (fun r => qsum (fun t => if tag_eqb t (s, i)
        then qsum (fun idx => weight_of (rank_painter w ts d fields r) 1 (pick [] poss t) idx * value_at fields r idx) (elements (f_array (nth r fields zero_field)))
        else 0) (T r)) (seq 0 P).
Proof.
  intros Lf Hr.
  assert (RE : forall r x, (r < P)%nat -> length x = length (ar_shape (f_array (nth r fields zero_field))) ->
    readout_at (rank_painter w ts d fields r) (f_data (nth r fields zero_field)) x 1 ==
    qsum (fun idx => weight_of (rank_painter w ts d fields r) 1 x idx * value_at fields r idx) (elements (f_array (nth r fields zero_field)))).
  { intros r x Hr' Hx. destruct (Hr r Hr') as (W1 & W2 & W3). unfold rank_painter. rewrite (readout_elements w _ _ d _ x 1 W1 Hk Hx). reflexivity. }
  assert (Dim : forall r t, (r < P)%nat -> (fst t < P)%nat -> (snd t < length (nth (fst t) poss []))%nat ->
    length (pick [] poss t) = length (ar_shape (f_array (nth r fields zero_field)))).
  { intros r t Hr' H1 H2. destruct (Hr r Hr') as (_ & _ & W3). rewrite Forall_forall in W3.
    specialize (W3 _ (nth_In poss [] H1)). unfold wf_pos in W3. rewrite Forall_forall in W3. apply W3. exact (nth_In _ [] H2). }
  assert (RB := routing_bound). destruct HT as [args Ha Hs|].
  - pose proof (poss_length args poss Hs) as L. rewrite L in *.
    destruct (pm_readout_sum args poss Ha Hs w ts d Hts fields Lf Hr pms w' ts' WNone Ew Et Logic.I) as (vs & E1 & E2 & E3).
    exists vs. split; [exact E1|split; [exact E2|]]. intros s i Hs' Hi. rewrite (E3 s i Hs' Hi).
    apply qsum_ext_in. intros r Hin. apply in_seq in Hin. apply qsum_ext_in. intros t Ht.
    destruct (tag_eqb t (s, i)); [|reflexivity]. unfold read_at. cbn [val].
    assert (Hr' : (r < length args)%nat) by lia. destruct (RB r t Hr' Ht) as [B1 B2]. apply RE; [exact Hr'|apply Dim; assumption].
  - unfold pm_readout. rewrite Ew, Et.
    exists (map (fun r => map (fun i => readout_at (rank_painter w ts d fields r) (f_data (nth r fields zero_field)) (nth i (nth r poss []) []) 1)
                              (seq 0 (length (nth r poss [])))) (seq 0 P)).
    split; [|split].
    + unfold readout_local. rewrite Lf, map_map. apply map_ext_in. intros r Hi. apply in_seq in Hi.
      assert (Hr' : (r < P)%nat) by lia.
      rewrite (nth_error_nth' fields zero_field (n := r)) by lia. rewrite (nth_error_nth' ts zero_affine (n := r)) by lia.
      rewrite (nth_error_nth' poss [] (n := r)) by lia. destruct (Hr r Hr') as (W1 & W2 & W3).
      cbn [local_arg]. rewrite window_readout_values; [|assumption|exact Logic.I].
      f_equal. apply map_ext_in. intros i Hi'. apply in_seq in Hi'. cbn [values_of]. rewrite nth_repeat_in by lia. reflexivity.
    + rewrite map_map. rewrite <- (map_nth_seq poss [] P eq_refl) at 2. rewrite map_map. apply map_ext. intros r.
      rewrite map_length, seq_length. reflexivity.
    + intros s i Hs Hi. rewrite nth_map_seq by exact Hs. rewrite nth_map_seq by exact Hi.
      rewrite (RE s _ Hs (Dim s (s, i) Hs Hs Hi)).
      rewrite (qsum_single _ (seq 0 P) s); [|apply seq_NoDup|apply in_seq; lia|].
      * unfold own. rewrite qsum_map. rewrite (qsum_single _ (seq 0 (length (nth s poss []))) i); [|apply seq_NoDup|apply in_seq; lia|].
        -- unfold tag_eqb. cbn [fst snd]. rewrite !Nat.eqb_refl. reflexivity.
        -- intros j _ Hj. unfold tag_eqb. cbn [fst snd]. apply Nat.eqb_neq in Hj. rewrite Hj, andb_false_r. reflexivity.
      * intros r _ Hne. unfold own. rewrite qsum_map. apply qsum_zero. intros j _. unfold tag_eqb. cbn [fst snd].
        apply Nat.eqb_neq in Hne. rewrite Hne. reflexivity.
Qed.

Lemma tag_eqb_refl t : tag_eqb t t = true.
Proof. destruct (tag_eqb_spec t t); [reflexivity|contradiction]. Qed.

(** the cotangent field against what is painted, and the particles against what is read *)
Lemma routed_dual outs hold d mass cots ms vs : length outs = P -> map f_array cots = map f_array outs ->
  (forall r, (r < P)%nat -> rank_ok poss d (nth r outs zero_field) (nth r ts zero_affine)) ->
  map (@length Q) mass = map (@length _) poss ->
  pm_paint pms w' ts' hold d ls outs poss WNone (WArray mass) = map Ret ms ->
  pm_readout pms w' ts' d ls cots poss WNone = map Ret vs ->
  cell_sum cots (value_at cots) (fun r => elem (f_array (nth r outs zero_field)) (nth r ms (fun _ => 0))) ==
  (if hold then cell_sum cots (value_at cots) (value_at outs) else 0) + tag_sum mass vs.
Proof.
  intros Lo Ea Hr Hm Ep Er.
  assert (Ar : forall r, f_array (nth r cots zero_field) = f_array (nth r outs zero_field)).
  { intros r. rewrite <- !(map_nth f_array). rewrite Ea. reflexivity. }
  assert (Lc : length cots = P) by (apply (f_equal (@length array)) in Ea; rewrite !map_length in Ea; lia).
  destruct (routed_paint outs hold d mass Lo Hr Hm) as (ms' & E1 & L1 & H1).
  assert (ms' = ms) by (apply (f_equal all_ret) in E1; rewrite Ep, !all_ret_Ret in E1; congruence). subst ms'.
  destruct (routed_read cots d Lc) as (vs' & E2 & L2 & H2).
  { intros r Hr'. unfold rank_ok. rewrite (Ar r). exact (Hr r Hr'). }
  assert (vs' = vs) by (apply (f_equal all_ret) in E2; rewrite Er, !all_ret_Ret in E2; congruence). subst vs'.
  set (K := fun r t => qsum (fun idx => weight_of (rank_painter w ts d outs r) 1 (pick [] poss t) idx * value_at cots r idx) (elements (f_array (nth r outs zero_field)))).
  transitivity ((if hold then cell_sum cots (value_at cots) (value_at outs) else 0) +
    qsum (fun r => qsum (fun t => pick 0 mass t * K r t) (T r)) (seq 0 P)).
  - unfold cell_sum.
    transitivity (qsum (fun r =>
       (if hold then qsum (fun idx => value_at cots r idx * value_at outs r idx) (elements (f_array (nth r cots zero_field))) else 0) +
       qsum (fun t => pick 0 mass t * K r t) (T r)) (seq 0 P)).
    + apply qsum_ext_in. intros r Hin. apply in_seq in Hin. assert (Hr' : (r < P)%nat) by lia. rewrite (Ar r).
      transitivity (qsum (fun idx => (if hold then value_at cots r idx * value_at outs r idx else 0) +
        qsum (fun t => value_at cots r idx * (pick 0 mass t * weight_of (rank_painter w ts d outs r) 1 (pick [] poss t) idx)) (T r))
        (elements (f_array (nth r outs zero_field)))).
      * apply qsum_ext_in. intros idx Hi. rewrite (H1 r idx Hr' Hi). rewrite qsum_scale. unfold value_at at 3. destruct hold; ring.
      * rewrite qsum_plus. apply Qplus_comp.
        -- destruct hold; [reflexivity|]. apply qsum_zero. reflexivity.
        -- rewrite qsum_swap. apply qsum_ext_in. intros t _. unfold K. rewrite <- qsum_scale. apply qsum_ext. intros idx. ring.
    + rewrite qsum_plus. apply Qplus_comp; [|reflexivity]. destruct hold; [reflexivity|]. apply qsum_zero. reflexivity.
  - apply Qplus_comp; [reflexivity|]. unfold tag_sum.
    transitivity (qsum (fun t' => qsum (fun r => qsum (fun t => if tag_eqb t t' then pick 0 mass t' * K r t else 0) (T r)) (seq 0 P)) (all_tags poss)).
    + rewrite qsum_swap. apply qsum_ext_in. intros r Hin. apply in_seq in Hin. rewrite qsum_swap. apply qsum_ext_in. intros t Ht.
      assert (Hr' : (r < P)%nat) by lia. destruct (routing_bound r t Hr' Ht) as [B1 B2].
      rewrite (qsum_single _ (all_tags poss) t).
      * rewrite tag_eqb_refl. reflexivity.
      * apply all_tags_NoDup.
      * destruct t as [s i]. apply in_all_tags; assumption.
      * intros t' _ Hne. destruct (tag_eqb_spec t t'); [congruence|reflexivity].
    + apply qsum_ext_in. intros t' Ht'. destruct (all_tags_in _ _ Ht') as [B1 B2]. destruct t' as [s i]. cbn [fst snd] in B1, B2.
      unfold pick at 3. cbn [fst snd]. rewrite (H2 s i B1 B2). rewrite <- qsum_scale. apply qsum_ext_in. intros r _.
      rewrite <- qsum_scale. apply qsum_ext_in. intros t _. destruct (tag_eqb t (s, i)); [|ring].
      unfold K, rank_painter. rewrite (Ar r). reflexivity.
Qed.

(** a sequence of paints *)
Lemma routed_terms cots terms : forall outs, length outs = P -> map f_array cots = map f_array outs ->
  Forall (fun dm => (forall r, (r < P)%nat -> rank_ok poss (fst dm) (nth r outs zero_field) (nth r ts zero_affine)) /\
                    exists mass, snd dm = map Ret mass /\ map (@length Q) mass = map (@length _) poss) terms ->
  exists ms, paint_terms pms w' ts' ls outs poss terms = map Ret ms /\ length ms = P /\
    forall reads, Forall2 (fun dm vs => pm_readout pms w' ts' (fst dm) ls cots poss WNone = map Ret vs) terms reads ->
    cell_sum cots (value_at cots) (fun r => elem (f_array (nth r outs zero_field)) (nth r ms (fun _ => 0))) ==
    cell_sum cots (value_at cots) (value_at outs) +
    qsum (fun x => match all_ret (snd (fst x)) with Some mass => tag_sum mass (snd x) | None => 0 end) (combine terms reads).
Proof.
  induction terms as [|[d mass] terms IH]; intros outs Lo Ea H.
  - exists (map f_data outs). cbn [paint_terms]. rewrite map_map. split; [reflexivity|]. split; [rewrite map_length; exact Lo|].
    intros reads F. inversion F. cbn [combine]. rewrite qsum_nil, Qplus_0_r. unfold cell_sum, value_at.
    apply qsum_ext_in. intros r Hr. apply in_seq in Hr. apply qsum_ext. intros idx.
    rewrite (nth_map_in f_data outs r (fun _ : Z => 0) zero_field) by lia. reflexivity.
  - apply Forall_cons_iff in H. destruct H as [[Hr (m & Em & Lm)] H2]. cbn [fst snd] in *. subst mass.
    destruct (routed_paint outs true d m Lo Hr Lm) as (ms & E1 & L1 & _).
    set (outs' := map (fun fm => with_data (fst fm) (snd fm)) (combine outs ms)).
    assert (Lo' : length outs' = P) by (unfold outs'; rewrite map_length, combine_length; lia).
    assert (Ea' : map f_array outs = map f_array outs').
    { unfold outs'. clear -Lo L1. rewrite <- L1 in Lo. clear L1. revert ms Lo. induction outs as [|f fs IHf]; intros ms L; destruct ms as [|m ms]; try discriminate; [reflexivity|].
      cbn [combine map]. f_equal. apply IHf. simpl in L. lia. }
    assert (Da' : forall r, (r < P)%nat -> f_data (nth r outs' zero_field) = nth r ms (fun _ => 0)).
    { intros r Hr'. unfold outs'. rewrite (nth_map_in _ (combine outs ms) r zero_field (zero_field, fun _ => 0)) by (rewrite combine_length; lia).
      rewrite combine_nth by exact (eq_trans Lo (eq_sym L1)). reflexivity. }
    assert (Ar : forall r, f_array (nth r outs' zero_field) = f_array (nth r outs zero_field)).
    { intros r. rewrite <- !(map_nth f_array). rewrite Ea'. reflexivity. }
    destruct (IH outs' Lo') as (ms2 & E2 & L2 & H3).
    { rewrite <- Ea'. exact Ea. }
    { eapply Forall_impl; [|exact H2]. intros dm [A B]. split; [|exact B]. intros r Hr'. unfold rank_ok. rewrite (Ar r). exact (A r Hr'). }
    exists ms2. cbn [paint_terms]. rewrite all_ret_Ret. rewrite E1, all_ret_Ret. fold outs'. split; [exact E2|]. split; [exact L2|].
    intros reads F. inversion F as [|? vs ? reads' Ev F' E3 E4]. cbn [combine]. rewrite qsum_cons. cbn [fst snd] in *. rewrite all_ret_Ret.
    specialize (H3 reads' F').
    assert (X : cell_sum cots (value_at cots) (fun r => elem (f_array (nth r outs zero_field)) (nth r ms2 (fun _ => 0))) ==
                cell_sum cots (value_at cots) (fun r => elem (f_array (nth r outs' zero_field)) (nth r ms2 (fun _ => 0)))).
    { unfold cell_sum. apply qsum_ext. intros r. rewrite (Ar r). reflexivity. }
    rewrite X, H3. pose proof (routed_dual outs true d m cots ms vs Lo Ea Hr Lm E1 Ev) as D. cbn iota in D.
    assert (Y : cell_sum cots (value_at cots) (value_at outs') ==
                cell_sum cots (value_at cots) (fun r => elem (f_array (nth r outs zero_field)) (nth r ms (fun _ => 0)))).
    { unfold cell_sum. apply qsum_ext_in. intros r Hr'. apply in_seq in Hr'. apply qsum_ext. intros idx.
      unfold value_at. rewrite (Ar r), Da' by lia. reflexivity. }
    rewrite Y, D. ring.
Qed.

Lemma fill_sum cots outs : length outs = P -> map f_array cots = map f_array outs ->
  cell_sum cots (value_at cots) (value_at (map (fun f => with_data f (fill (f_array f) (f_data f) 0)) outs)) == 0.
Proof.
  intros Lo Ea. unfold cell_sum. apply qsum_zero. intros r Hr. apply in_seq in Hr. apply qsum_zero. intros idx Hi.
  assert (Ar : f_array (nth r cots zero_field) = f_array (nth r outs zero_field)).
  { rewrite <- !(map_nth f_array). rewrite Ea. reflexivity. }
  rewrite Ar in Hi. unfold value_at at 2. rewrite (nth_map_in _ outs r zero_field zero_field) by lia.
  cbn [with_data f_data f_array]. rewrite fill_elem by exact Hi. ring.
Qed.
End Routed.
