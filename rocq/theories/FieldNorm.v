(** Properties C41-C43: coordinates, norms of compressed fields, decompression
    (pmesh/pm.py:897-985, 1028-1045, 1178-1225). *)
From Coq Require Import List Arith ZArith QArith Lia Bool Permutation Ring InitialRing.
From Verif Require Import Base ListFacts LayoutModel WrapModel WrapProofs DomainModel DomainFill MeshModel MeshAssign
  MeshRoute MeshTile RingModel FieldModel FieldFacts FieldProperties FieldSort FieldResample.
Import ListNotations.
Local Close Scope Q_scope.
Local Open Scope Z_scope.

(** ** C41 *)
Lemma signed_index_even h i : 0 < h -> 0 <= i < 2 * h ->
  - h <= signed_index (2 * h) i < h /\ (signed_index (2 * h) i) mod (2 * h) = i /\ signed_index (2 * h) i = signed (2 * h) i.
Proof.
  intros Hh Hi. unfold signed_index, signed. rewrite (Z.mul_comm 2 h), Z.div_mul by lia.
  destruct (Z.leb_spec h i), (Z.ltb_spec (2 * i) (h * 2)); try lia.
  - split; [lia|]. split; [|reflexivity]. rewrite <- (Z.mod_small i (h * 2)) at 2 by lia.
    rewrite <- (Z.mod_add (i - h * 2) 1 (h * 2)) by lia. f_equal. lia.
  - split; [lia|]. split; [|reflexivity]. apply Z.mod_small. lia.
Qed.

(** On an even axis: the entry for array index i is r * BoxSize / N (positions) or
    r * 2 pi / BoxSize (wave numbers) with r in [-N/2, N/2) congruent to i. *)
Theorem C41_coordinates : forall N start n (BoxSize twopi : Q),
  0 < N -> Z.even N = true -> 0 <= start -> 0 <= n -> start + n <= N -> ~ (BoxSize == 0)%Q ->
  let (x, i) := i_coords start n N BoxSize in
  let (k, o) := o_coords twopi start n N BoxSize in
  length x = Z.to_nat n /\ length k = Z.to_nat n /\ i = zrange start (Z.to_nat n) /\ o = i /\
  forall j, (j < Z.to_nat n)%nat -> exists r,
    - N <= 2 * r < N /\ r mod N = start + Z.of_nat j /\
    (nth j x 0 == inject_Z r * (BoxSize / inject_Z N))%Q /\
    (nth j k 0 == inject_Z r * (twopi / BoxSize))%Q.
Proof.
  intros N s n L tp HN Ev Hs Hn Hle HL. cbv zeta. unfold i_coords, o_coords. cbv zeta.
  apply Z.even_spec in Ev. destruct Ev as [h ->].
  rewrite !map_length. assert (Ea : arange s (s + n) = zrange s (Z.to_nat n)) by (unfold arange; do 2 f_equal; lia).
  rewrite Ea, zrange_length. do 4 (split; [reflexivity|]). intros j Hj.
  assert (Hi : 0 <= s + Z.of_nat j < 2 * h) by lia.
  destruct (signed_index_even h _ ltac:(lia) Hi) as (B & M & _).
  exists (signed_index (2 * h) (s + Z.of_nat j)). split; [lia|]. split; [exact M|].
  assert (HN0 : ~ (inject_Z (2 * h) == 0)%Q).
  { intros H. unfold Qeq in H. cbn [Qnum Qden inject_Z] in H. lia. }
  split.
  - match goal with |- context[map ?g _] => set (f := g) end. rewrite (nth_indep _ _ (f 0%Z)) by (rewrite map_length, zrange_length; lia). rewrite map_nth, nth_zrange by lia. unfold f.
    unfold Qdiv. now rewrite Qmult_assoc.
  - match goal with |- context[map ?g _] => set (f := g) end. rewrite (nth_indep _ _ (f 0%Z)) by (rewrite map_length, zrange_length; lia). rewrite map_nth, nth_zrange by lia. unfold f.
    field. split; assumption.
Qed.
Print Assumptions C41_coordinates.

(** Wave numbers are odd: the entries of a mode and of its opposite are negatives
    of each other, except at the Nyquist index, which is its own opposite. *)
Theorem C41_odd : forall N i, 0 < N -> Z.even N = true -> 0 <= i < N ->
  signed_index N ((- i) mod N) = if 2 * i =? N then signed_index N i else - signed_index N i.
Proof.
  intros N i HN Ev Hi. apply Z.even_spec in Ev. destruct Ev as [h ->].
  unfold signed_index. rewrite (Z.mul_comm 2 h), Z.div_mul by lia.
  destruct (Z.eq_dec i 0) as [->|Hz].
  - rewrite Z.mod_0_l by lia. destruct (Z.eqb_spec (2 * 0) (h * 2)); [lia|]. destruct (Z.leb_spec h 0); lia.
  - assert (Em : (- i) mod (h * 2) = h * 2 - i).
    { rewrite <- (Z.mod_small (h * 2 - i) (h * 2)) by lia. rewrite <- (Z.mod_add (- i) 1 (h * 2)) by lia. f_equal. lia. }
    rewrite Em. destruct (Z.eqb_spec (2 * i) (h * 2)), (Z.leb_spec h (h * 2 - i)), (Z.leb_spec h i); lia.
Qed.
Print Assumptions C41_odd.

Example C41_case : i_coords 1 3 4 (2 # 1) = ([1 * 2 / 4; -2 * 2 / 4; -1 * 2 / 4]%Q, [1; 2; 3]) /\
  map (signed_index 6) [0; 1; 2; 3; 4; 5] = [0; 1; 2; -3; -2; -1].
Proof. split; reflexivity. Qed.

(** On every odd axis the middle index is moved too far: instead of (N-1)/2 it
    becomes -(N+1)/2, half a cell beyond the box; on one cell, -1 instead of 0. *)
Theorem C41_odd_size_refuted : forall h, 0 <= h ->
  signed_index (2 * h + 1) h = - (h + 1) /\ ~ (- (2 * h + 1) <= 2 * signed_index (2 * h + 1) h < 2 * h + 1) /\
  (1 <= h -> signed_index (2 * h + 1) ((- h) mod (2 * h + 1)) <> - signed_index (2 * h + 1) h).
Proof.
  intros h Hh. unfold signed_index.
  assert (E2 : (2 * h + 1) / 2 = h) by (rewrite Z.mul_comm, Z.div_add_l by lia; cbn; lia). rewrite E2.
  destruct (Z.leb_spec h h); [|lia]. split; [lia|]. split; [lia|]. intros H1.
  assert (Em : (- h) mod (2 * h + 1) = h + 1).
  { rewrite <- (Z.mod_small (h + 1) (2 * h + 1)) by lia. rewrite <- (Z.mod_add (- h) 1 (2 * h + 1)) by lia. f_equal. lia. }
  rewrite Em. destruct (Z.leb_spec h (h + 1)); lia.
Qed.
Print Assumptions C41_odd_size_refuted.

(** ** half of a mesh *)
Lemma half_even n : 0 < n -> Z.even n = true -> exists h, n = 2 * h /\ n / 2 = h /\ 0 < h.
Proof.
  intros Hn Ev. apply Z.even_spec in Ev. destruct Ev as [h ->]. exists h.
  rewrite (Z.mul_comm 2 h), Z.div_mul by lia. lia.
Qed.
Lemma half_any n : exists h, n / 2 = h /\ (n = 2 * h \/ n = 2 * h + 1).
Proof. exists (n / 2). pose proof (Z.div_mod n 2). pose proof (Z.mod_pos_bound n 2). lia. Qed.
Section Half.
Variable base : list Z.
Variable n : Z.
Hypothesis Hbase : Forall (fun d => 0 < d) base.
Hypothesis Hn : 0 < n.
Local Notation Nmesh := (base ++ [n]).
Local Notation half := (base ++ [n / 2 + 1]).

Lemma valid_snoc c k : valid_index (base ++ [c]) k <-> exists k' j, k = k' ++ [j] /\ valid_index base k' /\ 0 <= j < c.
Proof.
  unfold valid_index. split.
  - intros H. apply Forall2_app_inv_l in H. destruct H as (k1 & k2 & H1 & H2 & ->).
    inversion H2 as [|? j ? r Hj Hr]; subst. inversion Hr; subst. exists k1, j. auto.
  - intros (k' & j & -> & H1 & H2). apply Forall2_app; [exact H1|]. repeat constructor; lia.
Qed.
Lemma opposite_snoc k' j : length k' = length base ->
  opposite Nmesh (k' ++ [j]) = opposite base k' ++ [(- j) mod n].
Proof.
  intros L. unfold opposite, map2. rewrite combine_app by congruence. rewrite map_app. reflexivity.
Qed.
Lemma opposite_valid N k : Forall (fun d => 0 < d) N -> valid_index N k -> valid_index N (opposite N k).
Proof.
  intros P V. unfold valid_index, opposite in *. induction V as [|d i N k Hi V IH]; [constructor|].
  inversion P; subst. rewrite map2_cons. constructor; [|auto]. pose proof (Z.mod_pos_bound (- i) d). lia.
Qed.
Lemma neg_mod j : 0 < j < n -> (- j) mod n = n - j.
Proof. intros H. rewrite <- (Z.mod_small (n - j) n) by lia. rewrite <- (Z.mod_add (- j) 1 n) by lia. f_equal. lia. Qed.

(** the modes of the compressed array whose opposite is not stored *)
Definition interior (k : list Z) : bool := negb (last k 0 =? 0) && negb (2 * last k 0 =? n).

(** every mode is stored, or it is the opposite of exactly one interior mode *)
Lemma half_permutation :
  Permutation (cells_of Nmesh) (cells_of half ++ map (opposite Nmesh) (filter interior (cells_of half))).
Proof.
  destruct (half_any n) as (h & Ed & Eh). rewrite Ed.
  assert (Pos : Forall (fun d => 0 < d) Nmesh) by (apply Forall_app; split; [exact Hbase|repeat constructor; lia]).
  assert (Int : forall k, In k (filter interior (cells_of (base ++ [h + 1]))) <->
                exists k' j, k = k' ++ [j] /\ valid_index base k' /\ 0 < j < n - h).
  { intros k. rewrite filter_In, cells_valid, valid_snoc. unfold interior. split.
    - intros [(k' & j & -> & V & Hj) H]. rewrite last_last in H. apply andb_true_iff in H. destruct H as [H1 H2].
      apply negb_true_iff, Z.eqb_neq in H1. apply negb_true_iff, Z.eqb_neq in H2. exists k', j. repeat split; auto; lia.
    - intros (k' & j & -> & V & Hj). split; [exists k', j; repeat split; auto; lia|]. rewrite last_last.
      apply andb_true_iff. split; apply negb_true_iff, Z.eqb_neq; lia. }
  assert (Vlen : forall k', valid_index base k' -> length k' = length base).
  { intros k' V. apply cells_dim, cells_valid, V. }
  apply NoDup_Permutation.
  - apply cells_of_NoDup.
  - apply NoDup_app_intro.
    + apply cells_of_NoDup.
    + apply NoDup_map_in; [|apply NoDup_filter, cells_of_NoDup].
      { intros a b Ha Hb E. apply filter_In in Ha, Hb. destruct Ha as [Ha _], Hb as [Hb _].
        assert (Full : forall k, In k (cells_of (base ++ [h + 1])) -> valid_index Nmesh k).
        { intros k Hk. apply cells_valid, valid_snoc in Hk. destruct Hk as (k' & j & -> & V & Hj).
          apply valid_snoc. exists k', j. repeat split; auto; lia. }
        rewrite <- (opposite_involutive Nmesh a (Full a Ha)), E. apply opposite_involutive, Full, Hb. }
    + intros k Hk Hm. apply in_map_iff in Hm. destruct Hm as (q & <- & Hq).
      apply Int in Hq. destruct Hq as (k' & j & -> & V & Hj). rewrite opposite_snoc in Hk by auto.
      apply cells_valid, valid_snoc in Hk. destruct Hk as (k2 & j2 & E & _ & Hj2).
      apply app_inj_tail in E. destruct E as [_ E]. rewrite neg_mod in E by lia. lia.
  - intros k. rewrite in_app_iff, !cells_valid, in_map_iff. split.
    + intros V. pose proof V as V0. apply valid_snoc in V. destruct V as (k' & j & -> & V & Hj).
      destruct (Z.le_gt_cases j h).
      * left. apply valid_snoc. exists k', j. repeat split; auto; lia.
      * right. exists (opposite Nmesh (k' ++ [j])). split; [apply opposite_involutive; exact V0|].
        apply Int. rewrite opposite_snoc by auto. exists (opposite base k'), ((- j) mod n).
        split; [reflexivity|]. split; [now apply opposite_valid|]. rewrite neg_mod by lia. lia.
    + intros [V|(q & <- & Hq)].
      * apply valid_snoc in V. destruct V as (k' & j & -> & V & Hj). apply valid_snoc. exists k', j. repeat split; auto; lia.
      * apply Int in Hq. destruct Hq as (k' & j & -> & V & Hj). apply opposite_valid; [exact Pos|].
        apply valid_snoc. exists k', j. repeat split; auto; lia.
Qed.
End Half.

Section Norms.
Variable K : cring.
Add Ring Kr : (rth K).
Local Notation C := (cpx K).
Local Open Scope rg_scope.

(** the field on all modes that a compressed array stands for *)
Definition full (Nmesh cshape : list Z) (f : list Z -> C) (k : list Z) : C :=
  if memb k (cells_of cshape) then f k else cconj (f (opposite Nmesh k)).

(** the squared length of the wave vector of a mode *)
Fixpoint wave2 (units : list K) (Nmesh k : list Z) : K :=
  match units, Nmesh, k with
  | u :: us, n :: ns, j :: ks => (zin K (signed n j) * u) * (zin K (signed n j) * u) + wave2 us ns ks
  | _, _, _ => 0
  end.
Definition weigh (metric : option (K -> K)) (w : K) : K := match metric with Some m => m w | None => 1 end.

Lemma cadd_c0 (z : C) : cadd z c0 = z.
Proof. destruct z as [a b]. unfold cadd, c0. cbn. f_equal; ring. Qed.
Lemma zin_opp z : zin K (- z) = - zin K z.
Proof.
  pose proof (gen_phiZ_morph (Eqsth K) (Eq_ext radd rmul ropp) (rth K)) as M. apply (morph_opp M).
Qed.
Lemma signed_index_signed n j : (0 < n)%Z -> Z.even n = true -> signed_index n j = signed n j.
Proof.
  intros Hn Ev. apply Z.even_spec in Ev. destruct Ev as [h ->]. unfold signed_index, signed.
  rewrite (Z.mul_comm 2 h), Z.div_mul by lia. destruct (Z.leb_spec h j), (Z.ltb_spec (2 * j) (h * 2)); lia || reflexivity.
Qed.
(** normp on an even mesh *)
Lemma normp2_wave units Nmesh k : Forall (fun n => (0 < n)%Z /\ Z.even n = true) Nmesh ->
  normp2 K units Nmesh k = wave2 units Nmesh k.
Proof.
  intros F. unfold normp2. revert units k. induction F as [|n N [Hn Ev] F IH]; intros [|u us] [|j k]; try reflexivity.
  cbn [combine]. rewrite rsum_cons, IH. cbn [fst snd wave2]. rewrite signed_index_signed by assumption. reflexivity.
Qed.
Lemma wave2_opposite units Nmesh k : Forall (fun n => (0 < n)%Z /\ Z.even n = true) Nmesh -> valid_index Nmesh k ->
  wave2 units Nmesh (opposite Nmesh k) = wave2 units Nmesh k.
Proof.
  intros F V. revert units. induction V as [|n j N k Hj V IH]; intros [|u us]; try reflexivity.
  inversion F as [|? ? [Hn Ev] F']; subst. unfold opposite in *. rewrite map2_cons. cbn [wave2]. rewrite IH by assumption.
  rewrite <- !signed_index_signed by assumption. rewrite C41_odd by assumption.
  destruct (2 * j =? n)%Z; [reflexivity|]. rewrite zin_opp. ring.
Qed.

(** sums over a tiling *)
Lemma combine_self {A B} (g : A -> B) l : combine l (map g l) = map (fun a => (a, g a)) l.
Proof. induction l; cbn; congruence. Qed.

(** ** C42 *)
Section Mesh.
Variables (base : list Z) (n : Z) (comp : bool).
Hypothesis base_pos : Forall (fun d => (0 < d)%Z) base.
Hypothesis (Hn : (0 < n)%Z) (Ev : Z.even n = true).
Definition nmesh : list Z := base ++ [n].
Definition stored : list Z := base ++ [if comp then (n / 2 + 1)%Z else n].

Lemma mesh_even : Forall (fun d => Z.even d = true) base -> Forall (fun d => (0 < d)%Z /\ Z.even d = true) nmesh.
Proof.
  intros E. unfold nmesh. apply Forall_app. split; [|repeat constructor; assumption].
  rewrite Forall_forall in *. auto.
Qed.
(** the other axes have to be even only if wave numbers are needed *)
Definition evens (metric : option (K -> K)) : Prop := metric = None \/ Forall (fun d => Z.even d = true) base.
Lemma weigh_normp metric units k : evens metric -> weigh metric (normp2 K units nmesh k) = weigh metric (wave2 units nmesh k).
Proof. intros [->|E]; [reflexivity|]. now rewrite normp2_wave by now apply mesh_even. Qed.
Lemma weigh_opposite metric units k : evens metric -> valid_index nmesh k ->
  weigh metric (wave2 units nmesh (opposite nmesh k)) = weigh metric (wave2 units nmesh k).
Proof. intros [->|E] V; [reflexivity|]. now rewrite wave2_opposite by (try assumption; now apply mesh_even). Qed.

Lemma compressed_stored : compressed nmesh stored = Ret (if comp then negb (n =? 2)%Z else false).
Proof.
  unfold compressed, nmesh, stored. rewrite !last_last. destruct (half_even n Hn Ev) as (h & Eh & Ed & Hh).
  destruct comp; rewrite ?Ed, ?Z.eqb_refl; [|reflexivity].
  destruct (Z.eqb_spec n (h + 1)), (Z.eqb_spec n 2); cbn [negb]; try reflexivity; try lia.
Qed.

(** expanding by weights is summing over all modes *)
Lemma expand_sum (y : list Z -> C) (g : list Z -> C) :
  (forall k, In k (cells_of stored) -> g k = y k) ->
  (forall k, In k (cells_of stored) -> In (opposite nmesh k) (cells_of stored) \/ g (opposite nmesh k) = y k) ->
  rsum (K := cpx_cring K) (fun k => expand_hermitian K (if comp then negb (n =? 2)%Z else false) nmesh k (y k)) (cells_of stored) =
  rsum (K := cpx_cring K) g (cells_of nmesh).
Proof.
  intros H1 H2. unfold nmesh, stored in *. destruct comp.
  - destruct (half_even n Hn Ev) as (h & Eh & Ed & Hh).
    rewrite (rsum_perm (cpx_cring K) g _ _ (half_permutation base n base_pos Hn)).
    rewrite rsum_app, rsum_map, rsum_filter, <- rsum_plus. apply rsum_ext_in. intros k Hk.
    rewrite (H1 k Hk). pose proof Hk as Hk0.
    apply cells_valid, valid_snoc in Hk. destruct Hk as (k' & j & -> & V & Hj).
    unfold expand_hermitian, interior. rewrite !last_last.
    replace (2 * j =? n)%Z with (j =? n / 2)%Z by (destruct (Z.eqb_spec j (n / 2)), (Z.eqb_spec (2 * j) n); lia || reflexivity).
    destruct (negb (j =? 0)%Z && negb (j =? n / 2)%Z) eqn:I; cycle 1.
    { destruct (negb (n =? 2)%Z); [reflexivity|]. symmetry. apply cadd_c0. }
    apply andb_true_iff in I. destruct I as [I1 I2].
    apply negb_true_iff, Z.eqb_neq in I1. apply negb_true_iff, Z.eqb_neq in I2.
    destruct (Z.eqb_spec n 2); [lia|]. cbn [negb].
    destruct (H2 _ Hk0) as [O| ->]; [|reflexivity].
    rewrite opposite_snoc in O by (apply cells_dim, cells_valid, V).
    apply cells_valid, valid_snoc in O. destruct O as (k2 & j2 & E & _ & Hj2).
    apply app_inj_tail in E. destruct E as [_ E]. rewrite (neg_mod n) in E by lia. lia.
  - apply rsum_ext_in. intros k Hk. unfold expand_hermitian. symmetry. apply H1, Hk.
Qed.

Lemma stored_full k : In k (cells_of stored) -> valid_index nmesh k.
Proof.
  intros Hk. unfold nmesh, stored in *. destruct (half_even n Hn Ev) as (h & Eh & Ed & Hh).
  apply cells_valid, valid_snoc in Hk. destruct Hk as (k' & j & -> & V & Hj). apply valid_snoc. exists k', j.
  split; [reflexivity|]. split; [exact V|]. destruct comp; lia.
Qed.
Lemma full_stored f k : In k (cells_of stored) -> full nmesh stored f k = f k.
Proof. intros Hk. unfold full. apply memb_true in Hk. now rewrite Hk. Qed.
Lemma full_opposite f k : In k (cells_of stored) -> In (opposite nmesh k) (cells_of stored) \/
  full nmesh stored f (opposite nmesh k) = cconj (f k).
Proof.
  intros Hk. destruct (memb (opposite nmesh k) (cells_of stored)) eqn:M; [left; now apply memb_true|right].
  unfold full. rewrite M. rewrite opposite_involutive by (apply stored_full, Hk). reflexivity.
Qed.

(** cnorm is the sum of the metric times the squared modulus over all modes *)
Theorem C42_cnorm : forall (Ls : list (lfield C)) f units metric, evens metric ->
  tiles stored Ls -> holds Ls f ->
  cnorm K nmesh stored units metric Ls =
  map (fun _ => Ret (cof (rsum (fun k => let z := full nmesh stored f k in
                                 (re z * re z + im z * im z) * weigh metric (wave2 units nmesh k)) (cells_of nmesh)))) Ls.
Proof.
  intros Ls f units metric Em T H. unfold cnorm. rewrite compressed_stored. apply map_ext. intros _. f_equal.
  set (y := fun k => (cof (cnorm2 K (f k) * weigh metric (wave2 units nmesh k))) : C).
  transitivity (rsum (K := cpx_cring K) (fun L => rsum (K := cpx_cring K)
     (fun k => expand_hermitian K (if comp then negb (n =? 2)%Z else false) nmesh k (y k)) (lcells L)) Ls).
  - apply rsum_ext_in. intros L HL. unfold holds in H. rewrite Forall_forall in H. unfold cnorm_local.
    rewrite (H L HL), combine_self, rsum_map. apply rsum_ext. intros k. cbn [fst snd]. f_equal. unfold y. f_equal.
    rewrite <- weigh_normp by exact Em. destruct metric; cbn [weigh]; [reflexivity|]. ring.
  - rewrite (tiles_sum (cpx_cring K) stored Ls _ T).
    rewrite (expand_sum y (fun k => cof (cnorm2 K (full nmesh stored f k) * weigh metric (wave2 units nmesh k)))).
    + unfold cof. induction (cells_of nmesh) as [|k l IH]; [reflexivity|]. rewrite !rsum_cons, IH.
      cbn. unfold cadd, cnorm2. cbn. f_equal. ring.
    + intros k Hk. unfold y. now rewrite full_stored.
    + intros k Hk. destruct (full_opposite f k Hk) as [O|E]; [now left|right]. rewrite E. unfold y.
      rewrite weigh_opposite by (try exact Em; apply stored_full, Hk). unfold cnorm2, cconj. cbn. f_equal. ring.
Qed.

(** the real part of cdot is the real part of the inner product over all modes *)
Theorem C42_cdot : forall (Ls Ms : list (lfield C)) f g units metric, evens metric ->
  tiles stored Ls -> holds Ls f -> tiles stored Ms -> holds Ms g ->
  map lstart Ms = map lstart Ls -> map lshape Ms = map lshape Ls ->
  exists v, cdot K nmesh stored units metric Ls Ms = map (fun _ => Ret v) Ls /\
    re v = re (rsum (K := cpx_cring K) (fun k => cmul (cmul (full nmesh stored f k) (cconj (full nmesh stored g k)))
                                          (cof (weigh metric (wave2 units nmesh k)))) (cells_of nmesh)).
Proof.
  intros Ls Ms f g units metric Em T H T2 H2 E1 E2. unfold cdot. rewrite compressed_stored. eexists. split; [reflexivity|].
  set (y := fun k => cmul (cmul (cconj (g k)) (f k)) (cof (weigh metric (wave2 units nmesh k)))).
  transitivity (re (rsum (K := cpx_cring K) (fun L => rsum (K := cpx_cring K)
     (fun k => expand_hermitian K (if comp then negb (n =? 2)%Z else false) nmesh k (y k)) (lcells L)) Ls)).
  - f_equal. clear T T2. revert Ms H2 E1 E2. induction Ls as [|L Ls IH]; intros [|M Ms] H2 E1 E2; try discriminate E1; [reflexivity|].
    cbn [combine]. rewrite !rsum_cons. inversion H as [|? ? HL HLs]; subst. inversion H2 as [|? ? HM HMs]; subst.
    injection E1 as E1 E1'. injection E2 as E2 E2'.
    rewrite (IH HLs Ms HMs E1' E2'). f_equal. cbn [cdot_local].
    assert (Ec : lcells M = lcells L) by (unfold lcells; now rewrite E1, E2).
    rewrite HL, HM, Ec, combine_map_map.
    rewrite <- (map_id (lcells L)) at 1. rewrite combine_map_map.
    rewrite rsum_map. apply (rsum_ext (cpx_cring K)). intros k. cbn [fst snd].
    unfold y. rewrite <- weigh_normp by exact Em. unfold expand_hermitian.
    destruct metric as [m|]; cbn [weigh]; destruct comp; try destruct (negb (n =? 2)%Z);
      try destruct (negb (last k 0 =? 0)%Z && negb (last k 0 =? last nmesh 0 / 2)%Z); unfold cmul, cadd, cof, c0; cbn;
      f_equal; ring.
  - rewrite (tiles_sum (cpx_cring K) stored Ls _ T).
    (* real parts: replace the terms of the full sum by reals *)
    transitivity (re (rsum (K := cpx_cring K) (fun k => expand_hermitian K (if comp then negb (n =? 2)%Z else false) nmesh k (creal (y k))) (cells_of stored))).
    + rewrite !re_rsum. apply rsum_ext. intros k. unfold expand_hermitian.
      destruct comp; try destruct (negb (n =? 2)%Z); try destruct (negb _ && negb _); cbn; ring.
    + rewrite (expand_sum (fun k => creal (y k)) (fun k => creal (cmul (cmul (full nmesh stored f k) (cconj (full nmesh stored g k)))
                                          (cof (weigh metric (wave2 units nmesh k)))))).
      * rewrite !re_rsum. apply rsum_ext. intros k. reflexivity.
      * intros k Hk. rewrite !full_stored by exact Hk. unfold y, creal, cmul, cof. cbn. f_equal. ring.
      * intros k Hk. destruct (full_opposite f k Hk) as [O|E]; [now left|]. destruct (full_opposite g k Hk) as [O|E']; [now left|right].
        rewrite E, E', weigh_opposite by (try exact Em; apply stored_full, Hk).
        unfold y, creal, cmul, cof, cconj. cbn. f_equal. ring.
Qed.
End Mesh.

(** ** C43 *)
Lemma selfdual_opposite Nmesh k : valid_index Nmesh k ->
  forallb (fun q => ((fst q - snd q) mod fst q =? snd q)%Z) (combine Nmesh k) = idx_eqb (opposite Nmesh k) k.
Proof.
  intros V. unfold idx_eqb, opposite. induction V as [|n j N k Hj V IH]; [reflexivity|].
  cbn [combine forallb fst snd]. rewrite IH, map2_cons.
  assert (E : ((n - j) mod n = (- j) mod n)%Z).
  { rewrite <- (Z.mod_add (- j) 1 n) by lia. f_equal. lia. }
  rewrite E. destruct (Z.eqb_spec ((- j) mod n) j) as [E1|E1]; cbn [andb].
  - destruct (list_eq_dec Z.eq_dec _ k) as [E2|E2]; destruct (list_eq_dec Z.eq_dec _ (j :: k)) as [E3|E3]; congruence.
  - destruct (list_eq_dec Z.eq_dec _ (j :: k)) as [E3|E3]; congruence.
Qed.

(** v is the gradient of a function of all modes, so that a change D changes it by
    the sum of re (conj V * D).  Changing the stored mode k by d, and the opposite
    mode by conj d to keep the field real, changes it by re (conj (out k) * d),
    out the result of decompress_vjp.  (A mode that is its own opposite can only
    be changed by a real number.) *)
Theorem C43_decompress_vjp : forall Nmesh cshape (Ls : list (lfield C)) v,
  tiles cshape Ls -> stored_shape Nmesh cshape -> holds Ls v -> hermitian K Nmesh cshape v ->
  exists out, holds (map (decompress_vjp K Nmesh) Ls) out /\
    map lstart (map (decompress_vjp K Nmesh) Ls) = map lstart Ls /\
    map lshape (map (decompress_vjp K Nmesh) Ls) = map lshape Ls /\
    forall k (d : C), In k (cells_of cshape) -> (opposite Nmesh k = k -> im d = 0) ->
      rsum (fun q => re (cmul (cconj (full Nmesh cshape v q))
                              (if idx_eqb q k then d else if idx_eqb q (opposite Nmesh k) then cconj d else c0)))
           (cells_of Nmesh)
      = re (cmul (cconj (out k)) d).
Proof.
  intros Nmesh cshape Ls v T S H Hv.
  set (out := fun k => if idx_eqb (opposite Nmesh k) k then v k else cadd (v k) (v k)).
  exists out. split; [|split; [|split]].
  - apply Forall_forall. intros L' HL'. apply in_map_iff in HL'. destruct HL' as (L & <- & HL).
    unfold holds in H. rewrite Forall_forall in H. unfold decompress_vjp. cbn [lvals lstart lshape].
    change (lcells {| lstart := lstart L; lshape := lshape L; lvals := _ |}) with (lcells L).
    rewrite (H L HL), combine_self, map_map. apply map_ext_in. intros k Hk. cbn [fst snd].
    rewrite selfdual_opposite; [reflexivity|]. apply (stored_valid _ _ _ S (tiles_cell _ _ _ _ T HL Hk)).
  - rewrite map_map. reflexivity.
  - rewrite map_map. reflexivity.
  - intros k d Hk Hd. pose proof (stored_valid _ _ _ S Hk) as Vk.
    assert (Pos : Forall (fun n => (0 < n)%Z) Nmesh) by (clear - Vk; induction Vk; constructor; [lia|assumption]).
    pose proof (opposite_valid Nmesh k Pos Vk) as Vo.
    assert (Fk : full Nmesh cshape v k = v k) by (unfold full; apply memb_true in Hk; now rewrite Hk).
    assert (Fo : full Nmesh cshape v (opposite Nmesh k) = cconj (v k)).
    { unfold full. destruct (memb (opposite Nmesh k) (cells_of cshape)) eqn:M.
      - apply memb_true in M. now apply Hv.
      - now rewrite (opposite_involutive Nmesh k Vk). }
    set (g := fun q => re (cmul (cconj (full Nmesh cshape v q)) _)).
    unfold out. unfold idx_eqb at 1. destruct (list_eq_dec Z.eq_dec (opposite Nmesh k) k) as [E|E].
    + rewrite (rsum_single K (list_eq_dec Z.eq_dec) g _ k (cells_of_NoDup _)).
      * unfold g, idx_eqb. destruct (list_eq_dec Z.eq_dec k k) as [_|X]; [|easy]. now rewrite Fk.
      * apply cells_valid, Vk.
      * intros q _ Hq. unfold g, idx_eqb. rewrite E. destruct (list_eq_dec Z.eq_dec q k); [easy|]. cbn. ring.
    + rewrite (rsum_ext K g (fun q => (if idx_eqb q k then g k else 0) + (if idx_eqb q (opposite Nmesh k) then g (opposite Nmesh k) else 0))).
      * rewrite rsum_plus, !rsum_member by apply cells_of_NoDup.
        assert (M1 : memb k (cells_of Nmesh) = true) by (apply memb_true, cells_valid, Vk).
        assert (M2 : memb (opposite Nmesh k) (cells_of Nmesh) = true) by (apply memb_true, cells_valid, Vo).
        rewrite M1, M2. unfold g, idx_eqb. destruct (list_eq_dec Z.eq_dec k k) as [_|X]; [|easy].
        destruct (list_eq_dec Z.eq_dec (opposite Nmesh k) k) as [X|_]; [easy|].
        destruct (list_eq_dec Z.eq_dec (opposite Nmesh k) (opposite Nmesh k)) as [_|X]; [|easy].
        rewrite Fk, Fo. cbn. ring.
      * intros q. unfold g, idx_eqb. destruct (list_eq_dec Z.eq_dec q k) as [->|N1].
        -- destruct (list_eq_dec Z.eq_dec k (opposite Nmesh k)) as [X|_]; [now elim E|].
           destruct (list_eq_dec Z.eq_dec k k) as [_|X]; [|easy]. ring.
        -- destruct (list_eq_dec Z.eq_dec q (opposite Nmesh k)) as [->|N2].
           ++ destruct (list_eq_dec Z.eq_dec (opposite Nmesh k) k) as [X|_]; [easy|].
              destruct (list_eq_dec Z.eq_dec (opposite Nmesh k) (opposite Nmesh k)) as [_|X]; [|easy]. ring.
           ++ cbn. ring.
Qed.
End Norms.
Print Assumptions C42_cnorm.
Print Assumptions C42_cdot.
Print Assumptions C43_decompress_vjp.

(** the field of C36's example on 4 x 4 modes: 12 stored, 16 in all *)
Example C42_case : cnorm Zring ex_Nmesh ex_cshape [1; 1]%Z None ex_world = [Ret (3251, 0); Ret (3251, 0)] /\
  rsum (K := Zring) (fun k => let z := full Zring ex_Nmesh ex_cshape ex_modes k in (re z * re z + im z * im z)%Z) (cells_of ex_Nmesh) = 3251 /\
  cnorm Zring ex_Nmesh ex_cshape [1; 1]%Z (Some (fun k2 => k2)) ex_world = [Ret (9384, 0); Ret (9384, 0)].
Proof. repeat split; reflexivity. Qed.
Example C43_case : hermitian Zring ex_Nmesh ex_cshape ex_modes /\
  map lvals (map (decompress_vjp Zring ex_Nmesh) ex_world) =
  [[(7, 0); (2, -4); (4, 6); (22, -2); (-1, 0); (42, 0); (4, -6); (62, 2)]; [(5, 0); (2, -12); (4, 0); (2, 12)]].
Proof. split; [exact ex_hermitian|reflexivity]. Qed.

(** The last axis has to be even.  On 3 cells index 1 = 3 // 2 is not doubled,
    though its opposite, index 2, is not stored. *)
Theorem C42_odd_refuted : exists (Ls : list (lfield (cpx Zring))) f,
  tiles [2; 2] Ls /\ holds Ls f /\ hermitian Zring [2; 3] [2; 2] f /\
  cnorm Zring [2; 3] [2; 2] [1; 1]%Z None Ls = [Ret (4, 0)] /\
  rsum (K := Zring) (fun k => let z := full Zring [2; 3] [2; 2] f k in (re z * re z + im z * im z)%Z) (cells_of [2; 3]) = 6.
Proof.
  exists [fill_block (fun _ => (1, 0)) [0; 0] [2; 2]], (fun _ => (1, 0)). split.
  { constructor; [repeat constructor|]. apply perm_check; [apply nodupb_ok|apply nodupb_ok| |]; reflexivity. }
  split; [repeat constructor|]. split; [|split; reflexivity]. intros k _ _. reflexivity.
Qed.
Print Assumptions C42_odd_refuted.

(** The imaginary part of cdot is not that of the inner product over all modes
    (which is 0). *)
Theorem C42_imaginary_refuted : exists (Ls Ms : list (lfield (cpx Zring))) f g v,
  tiles ex_cshape Ls /\ holds Ls f /\ hermitian Zring ex_Nmesh ex_cshape f /\
  tiles ex_cshape Ms /\ holds Ms g /\ hermitian Zring ex_Nmesh ex_cshape g /\
  cdot Zring ex_Nmesh ex_cshape [1; 1]%Z None Ls Ms = map (fun _ => Ret v) Ls /\
  im v <> 0%Z /\ im (rsum (K := cpx_cring Zring) (fun k => cmul (full Zring ex_Nmesh ex_cshape f k) (cconj (full Zring ex_Nmesh ex_cshape g k))) (cells_of ex_Nmesh)) = 0%Z.
Proof.
  exists ex_world, (map (fun L => fill_block (fun _ => (1, 0)) (lstart L) (lshape L)) ex_world), ex_modes, (fun _ => (1, 0)).
  eexists. split; [exact ex_tiles|]. split; [exact ex_holds|]. split; [exact ex_hermitian|].
  split. { apply (tiles_same _ ex_world); [reflexivity|reflexivity|exact ex_tiles]. }
  split. { repeat constructor. }
  split. { intros k _ _. reflexivity. }
  split; [reflexivity|]. split; [vm_compute; discriminate|reflexivity].
Qed.
Print Assumptions C42_imaginary_refuted.

(** decompress_vjp is not the adjoint of the map from the array of stored values to
    all modes: on the planes where both a mode and its opposite are stored the
    pair is counted twice. *)
Theorem C43_array_gradient_refuted : exists (v D : list Z -> cpx Zring),
  hermitian Zring ex_Nmesh ex_cshape v /\ hermitian Zring ex_Nmesh ex_cshape D /\
  let Ls := map (fun L => fill_block v (lstart L) (lshape L)) ex_world in
  rsum (K := Zring) (fun q => re (cmul (cconj (full Zring ex_Nmesh ex_cshape v q)) (full Zring ex_Nmesh ex_cshape D q))) (cells_of ex_Nmesh) <>
  rsum (K := Zring) (fun L => rsum (K := Zring) (fun p => re (cmul (cconj (snd p)) (D (fst p)))) (combine (lcells L) (lvals L)))
    (map (decompress_vjp Zring ex_Nmesh) Ls).
Proof.
  exists (fun _ => (1, 0)), (fun _ => (1, 0)). split; [intros k _ _; reflexivity|]. split; [intros k _ _; reflexivity|].
  vm_compute. discriminate.
Qed.
Print Assumptions C43_array_gradient_refuted.
