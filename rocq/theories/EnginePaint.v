(** Property C83: the statements paint, readout and decompose of ParticleMeshEngine
    (pmesh/abopt.py:133-184) and their Jacobian products. *)
From Coq Require Import List Arith ZArith QArith Qabs Qround Lqa Lia Bool Sorted Permutation Setoid Morphisms.
From Verif Require Import Base ListFacts LayoutModel LayoutSpec LayoutProofs LayoutModes LayoutMore WrapModel WrapProofs DomainModel DomainFill DomainGeom DomainTargets
  DomainHome DomainProperties QSum WindowModel WindowStencil WindowSpread WindowKernels WindowAxis WindowNative WindowApi WindowPoints
  WindowGrad WindowTranslate WindowTables WindowProperties WindowProperties2 WindowProperties3
  MeshModel MeshAssign MeshRoute MeshPaint MeshTile MeshDistributed MeshGrad MeshProperties MeshProperties2 MeshProperties3 MeshTangent TangentProperties TangentDecompose.
Import ListNotations.
Local Open Scope Q_scope.

(** * Model *)
(** abopt.py:149, 158: [N = pm.comm.allreduce(len(x))] *)
Definition total_number (poss : list (list (list Q))) : Z := Z.of_nat (list_sum (map (@length _) poss)).
(** abopt.py:152, 160: [1.0 * pm.Nmesh.prod() / N].  Without particles numpy's quotient is
    inf; here it is 0.  The theorems are about at least one particle. *)
Definition factor (pms : list pm) (poss : list (list (list Q))) : Q :=
  inject_Z (match pms with p :: _ => prodz (pm_Nmesh p) | [] => 1%Z end) / inject_Z (total_number poss).
(** [m[...] *= c] of an array *)
Definition scale_by (real : array) (m : memory) (c : Q) : memory :=
  fun a => if existsb (fun idx => (byte_offset (ar_strides real) idx =? a)%Z) (elements real) then m a * c else m a.
(** the default argument [mass=1.0] of pm.paint, pm.paint_vjp, pm.paint_jvp *)
Definition unit_mass (pms : list pm) : wvalue := WScalar (repeat 1 (length pms)).
(** abopt.py:133-136.  The products of decompose, 138-144, are zero *)
Definition engine_decompose (pms : list pm) (poss : list (list (list Q))) : list (outcome layout) :=
  pm_decompose pms SmoothDefault None poss.
(** abopt.py:146-152; [outs] are the new fields that pm.paint creates *)
Definition engine_paint (pms : list pm) (ls : option (list layout)) (outs : list field) (poss : list (list (list Q))) : list (outcome memory) :=
  map (fun fo => bind (snd fo) (fun m => Ret (scale_by (f_array (fst fo)) m (factor pms poss))))
      (combine outs (pm_paint pms None None false None ls outs poss WNone (unit_mass pms))).
(** abopt.py:154-160: the columns of [_x] *)
Definition engine_paint_vjp (pms : list pm) (ls : option (list layout)) (cots : list field) (poss : list (list (list Q)))
    : list (outcome (list (list Q))) :=
  map (fun o => bind o (fun pj => match fst pj with
                                  | Some cols => Ret (map (map (fun x => x * factor pms poss)) cols)
                                  | None => Raise TypeError end))
      (pm_paint_vjp pms None None None ls cots poss (unit_mass pms) true false).
(** abopt.py:162-166: no factor *)
Definition engine_paint_jvp (pms : list pm) (ls : option (list layout)) (outs : list field) (poss : list (list (list Q)))
    (x_ : option (list (list (list Q)))) : list (outcome memory) :=
  pm_paint_jvp pms None None None ls outs poss (unit_mass pms) x_ None.
(** abopt.py:168-172 *)
Definition engine_readout (pms : list pm) (ls : option (list layout)) (mesh : list field) (poss : list (list (list Q))) : list (outcome (list Q)) :=
  pm_readout pms None None None ls mesh poss WNone.
(** abopt.py:174-177; [outs] are the new fields *)
Definition engine_readout_vjp (pms : list pm) (ls : option (list layout)) (mesh outs : list field) (poss : list (list (list Q))) (value : list (list Q))
    : list (outcome (option memory * option (list (list Q)))) :=
  pm_readout_vjp pms None None None ls mesh outs poss value true true.
(** abopt.py:179-184 *)
Definition engine_readout_jvp (pms : list pm) (ls : option (list layout)) (mesh : list field) (poss : list (list (list Q)))
    (mesh_ : option (list field)) (x_ : option (list (list (list Q)))) : list (outcome (list Q)) :=
  pm_readout_jvp pms None None None ls mesh poss mesh_ x_.

(** * Facts *)
Lemma scale_elem real m c idx : In idx (elements real) -> elem real (scale_by real m c) idx = elem real m idx * c.
Proof.
  intros Hin. unfold elem, scale_by.
  assert (E : existsb (fun i => (byte_offset (ar_strides real) i =? byte_offset (ar_strides real) idx)%Z) (elements real) = true).
  { apply existsb_exists. exists idx. split; [exact Hin|apply Z.eqb_refl]. }
  rewrite E. reflexivity.
Qed.
(** one number for every particle *)
Definition unit_array (poss : list (list (list Q))) : list (list Q) := map (fun pos => repeat 1 (length pos)) poss.
Lemma unit_lengths poss : map (@length Q) (unit_array poss) = map (@length _) poss.
Proof. unfold unit_array. rewrite map_map. apply map_ext. intros pos. apply repeat_length. Qed.
Lemma unit_pick poss s i : (s < length poss)%nat -> (i < length (nth s poss []))%nat -> pick 0 (unit_array poss) (s, i) = 1.
Proof.
  intros Hs Hi. unfold pick, unit_array. cbn [fst snd]. rewrite (nth_map_in _ poss s [] []) by exact Hs. apply nth_repeat_in. exact Hi.
Qed.

Section Call.
Variables (pms : list pm) (ls : option (list layout)) (arrays : list array) (poss : list (list (list Q))).
Hypothesis C : call_ok pms None None ls arrays poss.
Local Notation P := (length poss).
Local Notation arr r := (nth r arrays (f_array zero_field)).
Lemma call_pms : length pms = P.
Proof. pose proof (ck_transforms _ _ _ _ _ _ C) as H. cbn [transforms] in H. rewrite map_length in H. exact H. Qed.
Lemma unit_val s t : (s < P)%nat -> val (unit_mass pms) s t = 1.
Proof. intros Hs. unfold unit_mass. cbn [val]. apply nth_repeat_in. rewrite call_pms. exact Hs. Qed.
Lemma unit_ok : mass_ok poss (unit_mass pms).
Proof. split; [discriminate|]. unfold unit_mass. cbn [wf_wvalue]. rewrite repeat_length. exact call_pms. Qed.

(** painting with the number 1 is painting with an array of ones *)
Lemma unit_paint hold outs : map f_array outs = arrays ->
  exists m1 m2, pm_paint pms None None hold None ls outs poss WNone (unit_mass pms) = map Ret m1 /\ length m1 = P /\
    pm_paint pms None None hold None ls outs poss WNone (WArray (unit_array poss)) = map Ret m2 /\
    forall r idx, (r < P)%nat -> In idx (elements (arr r)) ->
      elem (arr r) (nth r m1 (fun _ => 0)) idx == elem (arr r) (nth r m2 (fun _ => 0)) idx.
Proof.
  intros Ea. destruct (call_routing _ _ _ _ _ _ C) as [T HT].
  pose proof (fields_length _ _ _ _ _ _ C outs Ea) as Lo. pose proof (call_rank _ _ _ _ _ _ C None outs Ea Logic.I) as Hr.
  destruct (routed_paint poss ls T HT _ _ (ck_window _ _ _ _ _ _ C) (ck_transforms _ _ _ _ _ _ C) pms None None eq_refl eq_refl
      outs hold None (unit_array poss) Lo Hr (unit_lengths poss)) as (m2 & E2 & L2 & F2).
  assert (X : exists m1, pm_paint pms None None hold None ls outs poss WNone (unit_mass pms) = map Ret m1 /\ length m1 = P /\
    forall r idx, (r < P)%nat -> In idx (elements (f_array (nth r outs zero_field))) ->
      elem (f_array (nth r outs zero_field)) (nth r m1 (fun _ => 0)) idx == elem (f_array (nth r outs zero_field)) (nth r m2 (fun _ => 0)) idx).
  { pose proof unit_ok as [_ Um]. pose proof unit_val as Uv. pose proof call_pms as Cp. inversion HT as [args Ha Hs Els|Els Eown]; subst.
    - pose proof (poss_length args poss Hs) as L.
      destruct (pm_paint_elem args poss Ha Hs (resampler_of pms None) (transforms pms None) None (ck_window _ _ _ _ _ _ C)
        (eq_trans (ck_transforms _ _ _ _ _ _ C) L) outs hold (eq_trans Lo L)) with (pms := pms) (w' := @None window) (ts' := @None (list affine)) (hsml := WNone) (mass := unit_mass pms)
        as (m1 & E1 & L1 & F1); try reflexivity; try exact Um; try exact Logic.I.
      { intros r Hr'. apply Hr. rewrite L. exact Hr'. }
      exists m1. split; [exact E1|]. split; [lia|]. intros r idx Hr' Hin. rewrite (F2 r idx Hr' Hin). rewrite L in Hr'. rewrite (F1 r idx Hr' Hin).
      apply Qplus_comp; [reflexivity|]. apply qsum_ext_in. intros t Ht.
      destruct (routing_bound poss _ (tags args) HT r t ltac:(lia) Ht) as [B1 B2]. destruct t as [s i].
      rewrite (Uv r) by lia. rewrite unit_pick by assumption. reflexivity.
    - exists m2. split; [|split; [exact L2|reflexivity]]. rewrite <- E2. unfold pm_paint.
      set (fs := if hold then outs else _). unfold paint_local. apply map_ext_in. intros r Hi. apply in_seq in Hi.
      assert (Lf : length fs = P) by (unfold fs; destruct hold; [exact Lo|rewrite map_length; exact Lo]).
      assert (Hr' : (r < P)%nat) by lia.
      rewrite (nth_error_nth' fs zero_field (n := r)) by lia.
      rewrite (nth_error_nth' (transforms pms None) zero_affine (n := r)) by (rewrite (ck_transforms _ _ _ _ _ _ C); exact Hr').
      rewrite (nth_error_nth' poss [] (n := r)) by lia. destruct (Hr r Hr') as (W1 & W2 & W3).
      assert (Af : f_array (nth r fs zero_field) = f_array (nth r outs zero_field)).
      { rewrite <- !(map_nth f_array). unfold fs. destruct hold; [reflexivity|]. rewrite map_map. reflexivity. }
      cbn [local_arg unit_mass]. rewrite (nth_error_nth' (repeat 1 (length pms)) 0 (n := r)) by (rewrite repeat_length, Cp; exact Hr').
      rewrite nth_repeat_in by (rewrite Cp; exact Hr').
      rewrite (nth_error_nth' (unit_array poss) [] (n := r)) by (unfold unit_array; rewrite map_length; exact Hr'). cbn [option_map].
      unfold unit_array. rewrite (nth_map_in _ poss r [] []) by exact Hr'. rewrite Af.
      rewrite !window_paint_values; try assumption; try exact Logic.I; [reflexivity|]. cbn [arg_fits]. apply repeat_length. }
  destruct X as (m1 & E1 & L1 & F1). exists m1, m2. split; [exact E1|]. split; [exact L1|]. split; [exact E2|].
  intros r idx Hr' Hin. rewrite <- (array_at _ outs r Ea) in Hin |- *. apply F1; assumption.
Qed.

Lemma unit_products v : map (@length Q) v = map (@length _) poss -> products v (unit_mass pms) = products v (WArray (unit_array poss)).
Proof.
  intros Hv. rewrite (products_ok poss v (unit_mass pms) Hv unit_ok).
  rewrite (products_ok poss v (WArray (unit_array poss)) Hv) by (split; [discriminate|apply unit_lengths]).
  f_equal. apply map_ext_in. intros s Hs. apply in_seq in Hs. unfold scaled. apply map_ext_in. intros i Hi. apply in_seq in Hi.
  rewrite unit_val by lia. cbn [val]. rewrite unit_pick by lia. reflexivity.
Qed.
Lemma unit_jvp outs v : (forall v', v = Some v' -> vectors_ok (ndim_of pms) poss v') ->
  engine_paint_jvp pms ls outs poss v = pm_paint_jvp pms None None None ls outs poss (WArray (unit_array poss)) v None.
Proof.
  intros Hv. unfold engine_paint_jvp, pm_paint_jvp. f_equal. f_equal. destruct v as [v|]; [|reflexivity].
  apply map_ext. intros d. f_equal. apply unit_products. apply column_lengths. exact (proj1 (Hv v eq_refl)).
Qed.

(** what the paint statement leaves in a cell *)
Lemma engine_paint_elem outs m : map f_array outs = arrays ->
  pm_paint pms None None false None ls outs poss WNone (WArray (unit_array poss)) = map Ret m ->
  exists m', engine_paint pms ls outs poss = map Ret m' /\ length m' = P /\
    forall r idx, (r < P)%nat -> In idx (elements (arr r)) ->
      elem (arr r) (nth r m' (fun _ => 0)) idx == elem (arr r) (nth r m (fun _ => 0)) idx * factor pms poss.
Proof.
  intros Ea Em. destruct (unit_paint false outs Ea) as (m1 & m2 & E1 & L1 & E2 & F).
  assert (m2 = m) by (apply map_Ret_inj; congruence). subst m2.
  pose proof (fields_length _ _ _ _ _ _ C outs Ea) as Lo.
  exists (map (fun fm => scale_by (f_array (fst fm)) (snd fm) (factor pms poss)) (combine outs m1)). split; [|split].
  - unfold engine_paint. rewrite E1. clear -Lo L1. rewrite <- L1 in Lo. clear L1. revert m1 Lo.
    generalize (factor pms poss). induction outs as [|f fs IH]; intros c m1 L; destruct m1 as [|m m1]; try discriminate L; [reflexivity|].
    cbn [map combine fst snd bind]. rewrite IH; [reflexivity|]. cbn [length] in L. lia.
  - rewrite map_length, combine_length. lia.
  - intros r idx Hr Hin. rewrite (nth_map_in _ (combine outs m1) r ((fun _ => 0) : memory) (zero_field, ((fun _ => 0) : memory))) by (rewrite combine_length; lia).
    rewrite combine_nth by lia. cbn [fst snd]. rewrite (array_at _ outs r Ea). rewrite scale_elem by exact Hin.
    rewrite (F r idx Hr Hin). reflexivity.
Qed.
End Call.

(** * C83 *)
(** The mesh holds 1 + delta: the cells of all ranks sum to their number. *)
Theorem C83_mean : forall Nmesh BoxSize box w0 pt blocks pms, world Nmesh BoxSize box w0 pt blocks pms ->
  forall poss outs,
  particles_ok (length Nmesh) (length blocks) poss -> default_window w0 -> room Nmesh pt (half_support w0 (length Nmesh)) ->
  length outs = length blocks ->
  (forall r, (r < length blocks)%nat -> stored (f_array (nth r outs zero_field)) (block_shape (i_edges pt) (block blocks r))) ->
  concat poss <> [] ->
  exists ls ms, engine_decompose pms poss = map Ret ls /\ engine_paint pms (Some ls) outs poss = map Ret ms /\
    qsum (fun r => total (f_array (nth r outs zero_field)) (nth r ms (fun _ => 0))) (seq 0 (length blocks)) == inject_Z (prodz Nmesh).
Proof.
  intros Nmesh BoxSize box w0 pt blocks pms W poss outs Hp Hw Hroom Lo Hst Hne.
  destruct (C31_mass_conserved _ _ _ _ _ _ _ W poss (unit_array poss) outs Hp (unit_lengths poss) Hw Hroom Lo Hst) as (ls & ms & E1 & E2 & E3).
  set (arrays := map f_array outs).
  assert (La : length arrays = length blocks) by (unfold arrays; rewrite map_length; exact Lo).
  assert (Hst' : forall r, (r < length blocks)%nat -> stored (nth r arrays (f_array zero_field)) (block_shape (i_edges pt) (block blocks r))).
  { intros r Hr. unfold arrays. rewrite (map_nth f_array). apply Hst, Hr. }
  assert (Hk := standard_proper _ (proj1 Hw)).
  assert (Hsup : (0 < w_support w0)%Z) by (rewrite (proj2 Hw); exact (proj1 Hk)).
  destruct (decomposed _ _ _ _ _ _ _ W _ _ _ _ _ (ghosts_default _ _ _ _ _ _ _ W Hk Hsup Hroom) arrays La Hst' poss Hp) as (ls' & T & Ed & Cd & _ & _).
  assert (ls' = ls) by (apply map_Ret_inj; congruence). subst ls'.
  destruct (engine_paint_elem _ _ _ _ Cd outs ms eq_refl E2) as (m' & E4 & _ & F).
  exists ls, m'. split; [exact E1|]. split; [exact E4|].
  transitivity (qsum (fun r => total (f_array (nth r outs zero_field)) (nth r ms (fun _ => 0))) (seq 0 (length blocks)) * factor pms poss).
  - rewrite <- qsum_scale_r. apply qsum_ext_in. intros r Hr. apply in_seq in Hr. unfold total. rewrite <- qsum_scale_r.
    apply qsum_ext_in. intros idx Hin. specialize (F r idx). unfold arrays in F. rewrite (map_nth f_array) in F. apply F; [rewrite (proj1 Hp); lia|exact Hin].
  - rewrite E3. unfold factor, total_number.
    assert (Ep : match pms with p :: _ => prodz (pm_Nmesh p) | [] => 1%Z end = prodz Nmesh).
    { rewrite (world_pms _ _ _ _ _ _ _ W). pose proof (world_blocks _ _ _ _ _ _ _ W) as H0. destruct (length blocks) as [|n]; [lia|]. reflexivity. }
    rewrite Ep. rewrite <- concat_length_sum.
    assert (S1 : qsum (fun q => q) (concat (unit_array poss)) == inject_Z (Z.of_nat (length (concat poss)))).
    { clear. induction poss as [|pos poss IH]; [reflexivity|]. unfold unit_array. cbn [map concat]. rewrite qsum_app, app_length, Nat2Z.inj_add, inject_Z_plus.
      apply Qplus_comp; [|exact IH]. clear. induction pos as [|x pos IH]; [reflexivity|]. cbn [length repeat]. rewrite qsum_cons, IH.
      rewrite Nat2Z.inj_succ. unfold Z.succ. rewrite inject_Z_plus. ring. }
    rewrite S1. assert (N0 : ~ inject_Z (Z.of_nat (length (concat poss))) == 0).
    { intros H. apply Hne. unfold Qeq in H. cbn in H. destruct (concat poss); [reflexivity|]. cbn [length] in H. lia. }
    field. exact N0.
Qed.
Print Assumptions C83_mean.

(** cells over particles, both counted over all ranks *)
Definition per_particle (Nmesh : list Z) (poss : list (list (list Q))) : Q := inject_Z (prodz Nmesh) / inject_Z (Z.of_nat (length (concat poss))).
Lemma factor_is Nmesh BoxSize box w0 pt blocks pms poss : world Nmesh BoxSize box w0 pt blocks pms -> factor pms poss = per_particle Nmesh poss.
Proof.
  intros W. unfold factor, total_number, per_particle. rewrite <- concat_length_sum. rewrite (world_pms _ _ _ _ _ _ _ W).
  pose proof (world_blocks _ _ _ _ _ _ _ W) as H0. destruct (length blocks) as [|n]; [lia|]. reflexivity.
Qed.
Lemma lengths_concat {A B} (a : list (list A)) (b : list (list B)) : map (@length A) a = map (@length B) b -> length (concat a) = length (concat b).
Proof. intros H. rewrite !concat_length_sum, H. reflexivity. Qed.

Section Derivative.
Variables (Nmesh : list Z) (BoxSize : value Q) (box : list Q) (w0 : window) (pt : partition) (blocks : list (list Z)) (pms : list pm).
Hypothesis W : world Nmesh BoxSize box w0 pt blocks pms.
Hypothesis G : ghosts_ok Nmesh box w0 pt blocks pms (mesh_scale Nmesh box) None SmoothDefault (half_support w0 (length Nmesh)) None.
Variable arrays : list array.
Hypothesis La : length arrays = length blocks.
Hypothesis Hst : forall r, (r < length blocks)%nat -> stored (nth r arrays (f_array zero_field)) (block_shape (i_edges pt) (block blocks r)).
Lemma paint_scaled poss v eps poss' ls ls' outs outs' m0 m1 mj D :
  particles_ok (length Nmesh) (length blocks) poss -> (forall u, v = Some u -> vectors_ok (ndim_of pms) poss u) ->
  positions_by (ndim_of pms) eps v poss poss' -> map f_array outs = arrays ->
  pm_decompose pms SmoothDefault None poss = map Ret ls -> pm_decompose pms SmoothDefault None poss' = map Ret ls' ->
  pm_paint pms None None false None (Some ls) outs poss WNone (WArray (unit_array poss)) = map Ret m0 ->
  pm_paint pms None None false None (Some ls') outs poss' WNone (WArray (unit_array poss)) = map Ret m1 ->
  pm_paint_jvp pms None None None (Some ls) outs' poss (WArray (unit_array poss)) v None = map Ret mj ->
  (forall r real idx, nth_error arrays r = Some real -> In idx (elements real) ->
      Qabs (elem real (nth r m1 (fun _ => 0)) idx - elem real (nth r m0 (fun _ => 0)) idx
            - eps * elem real (nth r mj (fun _ => 0)) idx) <= D * (eps * eps)) ->
  exists n0 n1, engine_decompose pms poss = map Ret ls /\ engine_decompose pms poss' = map Ret ls' /\
    engine_paint pms (Some ls) outs poss = map Ret n0 /\ engine_paint pms (Some ls') outs poss' = map Ret n1 /\
    engine_paint_jvp pms (Some ls) outs' poss v = map Ret mj /\
    forall r real idx, nth_error arrays r = Some real -> In idx (elements real) ->
      Qabs (elem real (nth r n1 (fun _ => 0)) idx - elem real (nth r n0 (fun _ => 0)) idx
            - eps * (per_particle Nmesh poss * elem real (nth r mj (fun _ => 0)) idx)) <= Qabs (per_particle Nmesh poss) * D * (eps * eps).
Proof.
  intros Hp Hv Hm Eo E0 E1 M0 M1 MJ B.
  assert (Hp' : particles_ok (length Nmesh) (length blocks) poss') by (apply (particles_moved Nmesh BoxSize box w0 pt blocks pms W arrays La Hst poss); [exact Hp|exact (proj1 Hm)]).
  destruct (decomposed _ _ _ _ _ _ _ W _ _ _ _ _ G arrays La Hst poss Hp) as (l1 & T1 & D1 & C1 & _).
  destruct (decomposed _ _ _ _ _ _ _ W _ _ _ _ _ G arrays La Hst poss' Hp') as (l2 & T2 & D2 & C2 & _).
  assert (l1 = ls) by (apply map_Ret_inj; congruence). assert (l2 = ls') by (apply map_Ret_inj; congruence). subst l1 l2.
  assert (Lp : map (@length (list Q)) poss' = map (@length _) poss) by exact (proj1 (proj1 Hm)).
  assert (Eu : unit_array poss' = unit_array poss).
  { unfold unit_array. rewrite <- (map_map (@length _) (fun n => repeat 1 n) poss'), <- (map_map (@length _) (fun n => repeat 1 n) poss), Lp. reflexivity. }
  rewrite <- Eu in M1.
  destruct (engine_paint_elem _ _ _ _ C1 outs m0 Eo M0) as (n0 & N0 & _ & F0).
  destruct (engine_paint_elem _ _ _ _ C2 outs m1 Eo M1) as (n1 & N1 & _ & F1).
  assert (Ef : per_particle Nmesh poss' = per_particle Nmesh poss) by (unfold per_particle; rewrite (lengths_concat _ _ Lp); reflexivity).
  exists n0, n1. split; [exact E0|]. split; [exact E1|]. split; [exact N0|]. split; [exact N1|]. split.
  - rewrite (unit_jvp _ _ _ _ C1) by exact Hv. exact MJ.
  - intros r real idx Hr Hin. specialize (B r real idx Hr Hin).
    assert (Rr : (r < length blocks)%nat) by (rewrite <- La; apply nth_error_Some; congruence).
    assert (Ea : nth r arrays (f_array zero_field) = real) by (apply nth_error_nth; exact Hr).
    specialize (F0 r idx). specialize (F1 r idx). rewrite Ea in F0, F1. rewrite (factor_is _ _ _ _ _ _ _ poss W) in F0. rewrite (factor_is _ _ _ _ _ _ _ poss' W) in F1. rewrite Ef in F1.
    rewrite (F0 ltac:(rewrite (proj1 Hp); exact Rr) Hin), (F1 ltac:(rewrite (proj1 Hp'); exact Rr) Hin).
    set (c := per_particle Nmesh poss) in *. set (a0 := elem real (nth r m0 _) idx) in *. set (a1 := elem real (nth r m1 _) idx) in *. set (aj := elem real (nth r mj _) idx) in *.
    setoid_replace (a1 * c - a0 * c - eps * (c * aj)) with (c * (a1 - a0 - eps * aj)) by ring.
    rewrite Qabs_Qmult. rewrite <- Qmult_assoc. rewrite (Qmult_comm (Qabs c)), (Qmult_comm (Qabs c)). apply Qmult_le_compat_r; [exact B|apply Qabs_nonneg].
Qed.
End Derivative.

(** The derivative of [paint(x, decompose(x))] is the ratio of cells to particles times
    paint.jvp; whatever the ranks the moved particles are on. *)
Theorem C83_paint_derivative : forall Nmesh BoxSize box w0 pt blocks pms, world Nmesh BoxSize box w0 pt blocks pms ->
  proper_kind (w_kind w0) -> (0 < w_support w0)%Z -> room Nmesh pt (half_support w0 (length Nmesh)) ->
  forall arrays, length arrays = length blocks ->
  (forall r, (r < length blocks)%nat -> stored (nth r arrays (f_array zero_field)) (block_shape (i_edges pt) (block blocks r))) ->
  forall poss v, particles_ok (length Nmesh) (length blocks) poss -> (forall u, v = Some u -> vectors_ok (ndim_of pms) poss u) ->
  smooth_call pms None None \/ cic_call pms None None ->
  exists C, forall outs outs' eps poss', map f_array outs = arrays -> map f_array outs' = arrays ->
  positions_by (ndim_of pms) eps v poss poss' -> smooth_call pms None None \/ cells_kept pms None poss poss' ->
  exists ls ls' m0 m1 mj,
    engine_decompose pms poss = map Ret ls /\ engine_decompose pms poss' = map Ret ls' /\
    engine_paint pms (Some ls) outs poss = map Ret m0 /\ engine_paint pms (Some ls') outs poss' = map Ret m1 /\
    engine_paint_jvp pms (Some ls) outs' poss v = map Ret mj /\
    forall r real idx, nth_error arrays r = Some real -> In idx (elements real) ->
      Qabs (elem real (nth r m1 (fun _ => 0)) idx - elem real (nth r m0 (fun _ => 0)) idx
            - eps * (per_particle Nmesh poss * elem real (nth r mj (fun _ => 0)) idx)) <= C * (eps * eps).
Proof.
  intros Nmesh BoxSize box w0 pt blocks pms W Hk Hsup Hroom arrays La Hst poss v Hp Hv Hw.
  pose proof (ghosts_default _ _ _ _ _ _ _ W Hk Hsup Hroom) as G.
  assert (Hu : forall u : list (list Q), None = Some u -> map (@length Q) u = map (@length _) poss) by discriminate.
  assert (Hmm : forall eps, masses_by eps None poss (unit_array poss) (unit_array poss)).
  { intros eps. split; [apply unit_lengths|]. intros s i _ _. cbn. ring. }
  assert (X : exists D, forall outs outs' eps poss', map f_array outs = arrays -> map f_array outs' = arrays ->
    positions_by (ndim_of pms) eps v poss poss' -> smooth_call pms None None \/ cells_kept pms None poss poss' ->
    exists ls ls' m0 m1 mj,
    pm_decompose pms SmoothDefault None poss = map Ret ls /\ pm_decompose pms SmoothDefault None poss' = map Ret ls' /\
    pm_paint pms None None false None (Some ls) outs poss WNone (WArray (unit_array poss)) = map Ret m0 /\
    pm_paint pms None None false None (Some ls') outs poss' WNone (WArray (unit_array poss)) = map Ret m1 /\
    pm_paint_jvp pms None None None (Some ls) outs' poss (WArray (unit_array poss)) v None = map Ret mj /\
    forall r real idx, nth_error arrays r = Some real -> In idx (elements real) ->
      Qabs (elem real (nth r m1 (fun _ => 0)) idx - elem real (nth r m0 (fun _ => 0)) idx
            - eps * elem real (nth r mj (fun _ => 0)) idx) <= D * (eps * eps)).
  { destruct Hw as [Hw|Hw].
    - destruct (C81_paint_decomposed _ _ _ _ _ _ _ W _ _ _ _ _ G Hw arrays La Hst poss (unit_array poss) v None Hp (unit_lengths poss) Hv Hu) as (D & HD).
      exists D. intros outs outs' eps poss' Eo Eo' Hm _. exact (HD false outs outs' eps poss' _ Eo Eo' Hm (Hmm eps)).
    - destruct (C81_paint_cic_decomposed _ _ _ _ _ _ _ W _ _ _ _ _ G Hw arrays La Hst poss (unit_array poss) v None Hp (unit_lengths poss) Hv Hu) as (D & HD).
      exists D. intros outs outs' eps poss' Eo Eo' Hm Hc. refine (HD false outs outs' eps poss' _ Eo Eo' Hm (Hmm eps) _).
      destruct Hc as [Hs|Hc]; [|exact Hc]. exfalso. destruct Hw as [(k & Ek & Hk') _]. destruct Hs as [Hs _]. rewrite Ek in Hs. cbn [w_kind] in Hs.
      destruct Hk' as [-> | ->]; exact Hs. }
  destruct X as (D & HD). exists (Qabs (per_particle Nmesh poss) * D). intros outs outs' eps poss' Eo Eo' Hm Hc.
  destruct (HD outs outs' eps poss' Eo Eo' Hm Hc) as (ls & ls' & m0 & m1 & mj & A1 & A2 & A3 & A4 & A5 & A6).
  destruct (paint_scaled _ _ _ _ _ _ _ W G arrays La Hst poss v eps poss' ls ls' outs outs' m0 m1 mj D Hp Hv Hm Eo A1 A2 A3 A4 A5 A6)
    as (n0 & n1 & B1 & B2 & B3 & B4 & B5 & B6).
  exists ls, ls', n0, n1, mj. repeat (split; [assumption|]). exact B6.
Qed.
Print Assumptions C83_paint_derivative.

(** The columns that paint.vjp returns are the adjoint of that derivative. *)
Theorem C83_paint_adjoint : forall Nmesh BoxSize box w0 pt blocks pms, world Nmesh BoxSize box w0 pt blocks pms ->
  forall ls arrays poss, call_ok pms None None ls arrays poss ->
  forall outs cots v, map f_array outs = arrays -> map f_array cots = arrays -> vectors_ok (ndim_of pms) poss v ->
  exists ms ps, engine_paint_jvp pms ls outs poss (Some v) = map Ret ms /\ engine_paint_vjp pms ls cots poss = map Ret ps /\
    length ps = length poss /\
    (forall s, (s < length poss)%nat -> length (nth s ps []) = ndim_of pms /\ Forall (fun c => length c = length (nth s poss [])) (nth s ps [])) /\
    sum_cells arrays (fun r idx => elem (nth r arrays (f_array zero_field)) (f_data (nth r cots zero_field)) idx *
                                   (per_particle Nmesh poss * elem (nth r arrays (f_array zero_field)) (nth r ms (fun _ => 0)) idx)) ==
    sum_particles poss (fun s i => qsum (fun d => nth d (nth i (nth s v []) []) 0 * nth i (nth d (nth s ps []) []) 0) (seq 0 (ndim_of pms))).
Proof.
  intros Nmesh BoxSize box w0 pt blocks pms W ls arrays poss C outs cots v Eo Ec Hv.
  pose proof (unit_ok _ _ _ _ C) as Hu.
  destruct (C33_paint_dual _ _ _ _ _ _ C outs cots (unit_mass pms) (Some v) None Eo Ec Hu ltac:(intros v' H; injection H as <-; exact Hv) ltac:(discriminate))
    as (ms & ps & qs & E1 & E2 & E3 & E4).
  destruct (read_columns_ok _ _ _ _ _ _ C (unit_mass pms) cots Ec Hu (directions (ndim_of pms)) (directions_ok (ndim_of pms))) as (reads & FR & ER).
  set (X := map (fun s => map (fun vs => scaled poss (unit_mass pms) vs s) reads) (seq 0 (length poss))) in *.
  assert (LX : length X = length poss) by (unfold X; rewrite map_length, seq_length; reflexivity).
  assert (HX : forall s, (s < length poss)%nat -> nth s X [] = nth s ps []).
  { intros s Hs. unfold pm_paint_vjp in E2. cbn [andb] in E2. rewrite ER, all_ret_Some in E2.
    destruct (all_ret (map _ (pm_readout pms None None None ls cots poss WNone))) as [q|] eqn:Eq.
    - apply map_Ret_inj in E2. apply (f_equal (fun l => nth_error l s)) in E2. rewrite nth_error_map in E2.
      rewrite (nth_error_nth' (seq 0 (length poss)) 0%nat) in E2 by (rewrite seq_length; exact Hs). rewrite seq_nth in E2 by exact Hs. cbn [option_map Nat.add] in E2.
      assert (Lc : (s < length (combine (map Some X) q))%nat) by (apply nth_error_Some; congruence).
      rewrite (nth_error_nth' _ (None, None)) in E2 by exact Lc. injection E2 as E2.
      rewrite combine_length, map_length in Lc.
      assert (Y : fst (nth s (combine (map Some X) q) (None, None)) = Some (nth s X [])).
      { clear -Lc. revert s q Lc. generalize X. induction X0 as [|x l IH]; intros s q L; [cbn in L; lia|]. destruct q as [|y q]; [cbn in L; lia|].
        destruct s as [|s]; [reflexivity|]. cbn [map combine nth]. apply IH. cbn [length] in L. lia. }
      rewrite E2 in Y. cbn [fst] in Y. congruence.
    - exfalso. destruct (call_read _ _ _ _ _ _ C None cots Ec Logic.I) as (q & EQ & _). rewrite EQ, all_ret_Some in Eq. discriminate Eq. }
  exists ms, (map (map (map (fun x => x * factor pms poss))) X). split; [exact E1|]. split; [|split; [|split]].
  - unfold engine_paint_vjp, pm_paint_vjp. cbn [andb]. rewrite ER, all_ret_Some.
    pose proof (fields_length _ _ _ _ _ _ C cots Ec) as Lc. rewrite all_ret_map. 
    rewrite map_map. cbn [bind]. rewrite <- LX in Lc. clear -Lc. revert cots Lc. generalize (factor pms poss) as c. generalize X.
    induction X0 as [|x l IH]; intros c cots L; destruct cots as [|f cots]; try discriminate L; [reflexivity|].
    cbn [map combine fst]. rewrite IH; [reflexivity|]. cbn [length] in L. lia.
  - rewrite map_length. exact LX.
  - intros s Hs. rewrite (nth_map_in _ X s [] []) by lia. rewrite (HX s Hs). destruct (E3 s Hs) as (A1 & A2 & _). split; [rewrite map_length; exact A1|].
    apply Forall_map. eapply Forall_impl; [|exact A2]. cbn beta. intros c Hc. rewrite map_length. exact Hc.
  - transitivity (per_particle Nmesh poss * sum_cells arrays (fun r idx => elem (nth r arrays (f_array zero_field)) (f_data (nth r cots zero_field)) idx *
                                   elem (nth r arrays (f_array zero_field)) (nth r ms (fun _ => 0)) idx)).
    + unfold sum_cells. rewrite <- qsum_scale. apply qsum_ext. intros r. rewrite <- qsum_scale. apply qsum_ext. intros idx. ring.
    + rewrite E4, Qplus_0_r. unfold sum_particles. rewrite <- qsum_scale. apply qsum_ext_in. intros s Hs. apply in_seq in Hs.
      rewrite <- qsum_scale. apply qsum_ext_in. intros i Hi. apply in_seq in Hi. rewrite <- qsum_scale. apply qsum_ext_in. intros d Hd. apply in_seq in Hd.
      rewrite (nth_map_in _ X s [] []) by lia. rewrite (HX s) by lia. destruct (E3 s) as (A1 & A2 & _); [lia|].
      rewrite (nth_map_in _ (nth s ps []) d [] []) by lia.
      assert (Lc : length (nth d (nth s ps []) []) = length (nth s poss [])).
      { rewrite Forall_forall in A2. apply A2. apply nth_In. lia. }
      rewrite (nth_map_in _ (nth d (nth s ps []) []) i 0 0) by lia. rewrite (factor_is _ _ _ _ _ _ _ _ W). ring.
Qed.
Print Assumptions C83_paint_adjoint.

(** With one particle per cell, the engine's own grid of particles, paint.jvp is the derivative. *)
Theorem C83_one_per_cell : forall Nmesh BoxSize box w0 pt blocks pms, world Nmesh BoxSize box w0 pt blocks pms ->
  proper_kind (w_kind w0) -> (0 < w_support w0)%Z -> room Nmesh pt (half_support w0 (length Nmesh)) ->
  forall arrays, length arrays = length blocks ->
  (forall r, (r < length blocks)%nat -> stored (nth r arrays (f_array zero_field)) (block_shape (i_edges pt) (block blocks r))) ->
  forall poss v, particles_ok (length Nmesh) (length blocks) poss -> (forall u, v = Some u -> vectors_ok (ndim_of pms) poss u) ->
  smooth_call pms None None \/ cic_call pms None None ->
  concat poss <> [] -> Z.of_nat (length (concat poss)) = prodz Nmesh ->
  exists C, forall outs outs' eps poss', map f_array outs = arrays -> map f_array outs' = arrays ->
  positions_by (ndim_of pms) eps v poss poss' -> smooth_call pms None None \/ cells_kept pms None poss poss' ->
  exists ls ls' m0 m1 mj,
    engine_decompose pms poss = map Ret ls /\ engine_decompose pms poss' = map Ret ls' /\
    engine_paint pms (Some ls) outs poss = map Ret m0 /\ engine_paint pms (Some ls') outs poss' = map Ret m1 /\
    engine_paint_jvp pms (Some ls) outs' poss v = map Ret mj /\
    forall r real idx, nth_error arrays r = Some real -> In idx (elements real) ->
      Qabs (elem real (nth r m1 (fun _ => 0)) idx - elem real (nth r m0 (fun _ => 0)) idx
            - eps * elem real (nth r mj (fun _ => 0)) idx) <= C * (eps * eps).
Proof.
  intros Nmesh BoxSize box w0 pt blocks pms W Hk Hsup Hroom arrays La Hst poss v Hp Hv Hw Hne HN.
  destruct (C83_paint_derivative _ _ _ _ _ _ _ W Hk Hsup Hroom arrays La Hst poss v Hp Hv Hw) as (D & HD). exists D.
  intros outs outs' eps poss' Eo Eo' Hm Hc. destruct (HD outs outs' eps poss' Eo Eo' Hm Hc) as (ls & ls' & m0 & m1 & mj & A1 & A2 & A3 & A4 & A5 & A6).
  exists ls, ls', m0, m1, mj. repeat (split; [assumption|]). intros r real idx Hr Hin. specialize (A6 r real idx Hr Hin).
  assert (E : per_particle Nmesh poss == 1).
  { unfold per_particle. rewrite HN. unfold Qdiv. apply Qmult_inv_r. rewrite <- HN. intros H. apply Hne. unfold Qeq in H. cbn in H.
    destruct (concat poss); [reflexivity|]. cbn [length] in H. lia. }
  rewrite E, Qmult_1_l in A6. exact A6.
Qed.
Print Assumptions C83_one_per_cell.

(** readout: with the layout of its positions, readout.jvp is the derivative against the mesh
    and the positions, and readout.vjp is its adjoint *)
Theorem C83_readout : forall Nmesh BoxSize box w0 pt blocks pms, world Nmesh BoxSize box w0 pt blocks pms ->
  proper_kind (w_kind w0) -> (0 < w_support w0)%Z -> room Nmesh pt (half_support w0 (length Nmesh)) ->
  forall arrays, length arrays = length blocks ->
  (forall r, (r < length blocks)%nat -> stored (nth r arrays (f_array zero_field)) (block_shape (i_edges pt) (block blocks r))) ->
  forall poss mesh mesh_ x_, particles_ok (length Nmesh) (length blocks) poss ->
  map f_array mesh = arrays -> (forall g, mesh_ = Some g -> map f_array g = arrays) ->
  (forall u, x_ = Some u -> vectors_ok (ndim_of pms) poss u) ->
  smooth_call pms None None \/ cic_call pms None None ->
  exists ls js, engine_decompose pms poss = map Ret ls /\ engine_readout_jvp pms (Some ls) mesh poss mesh_ x_ = map Ret js /\
  (exists C, forall eps mesh' poss',
    fields_by arrays eps mesh_ mesh mesh' -> positions_by (ndim_of pms) eps x_ poss poss' -> smooth_call pms None None \/ cells_kept pms None poss poss' ->
    exists ls' r0 r1, engine_decompose pms poss' = map Ret ls' /\
      engine_readout pms (Some ls) mesh poss = map Ret r0 /\ engine_readout pms (Some ls') mesh' poss' = map Ret r1 /\
      forall s i, (s < length poss)%nat -> (i < length (nth s poss []))%nat ->
        Qabs (nth i (nth s r1 []) 0 - nth i (nth s r0 []) 0 - eps * nth i (nth s js []) 0) <= C * (eps * eps)) /\
  forall outs value, map f_array outs = arrays -> map (@length Q) value = map (@length _) poss ->
    exists ms ps, engine_readout_vjp pms (Some ls) mesh outs poss value =
        map Ret (map (fun s => (Some (nth s ms (fun _ => 0)), Some (nth s ps []))) (seq 0 (length poss))) /\
      (forall s, (s < length poss)%nat -> length (nth s ps []) = ndim_of pms /\
         Forall (fun c => length c = length (nth s poss [])) (nth s ps []) /\ length (nth s js []) = length (nth s poss [])) /\
      sum_particles poss (fun s i => nth i (nth s value []) 0 * nth i (nth s js []) 0) ==
      match mesh_ with
      | Some g => sum_cells arrays (fun r idx => elem (nth r arrays (f_array zero_field)) (f_data (nth r g zero_field)) idx *
                                                 elem (nth r arrays (f_array zero_field)) (nth r ms (fun _ => 0)) idx)
      | None => 0 end +
      match x_ with
      | Some u => sum_particles poss (fun s i => qsum (fun d => nth d (nth i (nth s u []) []) 0 * nth i (nth d (nth s ps []) []) 0) (seq 0 (ndim_of pms)))
      | None => 0 end.
Proof.
  intros Nmesh BoxSize box w0 pt blocks pms W Hk Hsup Hroom arrays La Hst poss mesh mesh_ x_ Hp Em Hg Hv Hw.
  pose proof (ghosts_default _ _ _ _ _ _ _ W Hk Hsup Hroom) as G.
  destruct (decomposed _ _ _ _ _ _ _ W _ _ _ _ _ G arrays La Hst poss Hp) as (ls & T & D1 & C1 & _).
  destruct (C33_readout_dual _ _ _ _ _ _ C1 mesh mesh (unit_array poss) mesh_ x_ Em Em (unit_lengths poss) Hg Hv) as (js & _ & _ & EJ & _).
  exists ls, js. split; [exact D1|]. split; [exact EJ|]. split.
  - assert (X : exists D, forall eps mesh' poss', fields_by arrays eps mesh_ mesh mesh' -> positions_by (ndim_of pms) eps x_ poss poss' ->
      smooth_call pms None None \/ cells_kept pms None poss poss' ->
      exists ls0 ls' r0 r1 rj,
    pm_decompose pms SmoothDefault None poss = map Ret ls0 /\ pm_decompose pms SmoothDefault None poss' = map Ret ls' /\
    pm_readout pms None None None (Some ls0) mesh poss WNone = map Ret r0 /\
    pm_readout pms None None None (Some ls') mesh' poss' WNone = map Ret r1 /\
    pm_readout_jvp pms None None None (Some ls0) mesh poss mesh_ x_ = map Ret rj /\
    forall s i, (s < length poss)%nat -> (i < length (nth s poss []))%nat ->
      Qabs (nth i (nth s r1 []) 0 - nth i (nth s r0 []) 0 - eps * nth i (nth s rj []) 0) <= D * (eps * eps)).
    { destruct Hw as [Hw|Hw].
      - destruct (C81_readout_decomposed _ _ _ _ _ _ _ W _ _ _ _ _ G Hw arrays La Hst poss mesh mesh_ x_ Hp Em Hg Hv) as (D & HD).
        exists D. intros eps mesh' poss' Hf Hm _. exact (HD eps mesh' poss' Hf Hm).
      - destruct (C81_readout_cic_decomposed _ _ _ _ _ _ _ W _ _ _ _ _ G Hw arrays La Hst poss mesh mesh_ x_ Hp Em Hg Hv) as (D & HD).
        exists D. intros eps mesh' poss' Hf Hm Hc. refine (HD eps mesh' poss' Hf Hm _).
        destruct Hc as [Hs|Hc]; [|exact Hc]. exfalso. destruct Hw as [(k & Ek & Hk') _]. destruct Hs as [Hs _]. rewrite Ek in Hs. cbn [w_kind] in Hs.
        destruct Hk' as [-> | ->]; exact Hs. }
    destruct X as (D & HD). exists D. intros eps mesh' poss' Hf Hm Hc.
    destruct (HD eps mesh' poss' Hf Hm Hc) as (l0 & ls' & r0 & r1 & rj & A1 & A2 & A3 & A4 & A5 & A6).
    assert (l0 = ls) by (apply map_Ret_inj; congruence). subst l0. assert (rj = js) by (apply map_Ret_inj; congruence). subst rj.
    exists ls', r0, r1. repeat (split; [assumption|]). exact A6.
  - intros outs value Eo Lv.
    destruct (C33_readout_dual _ _ _ _ _ _ C1 mesh outs value mesh_ x_ Em Eo Lv Hg Hv) as (js' & ms & ps & E1 & E2 & E3 & E4).
    assert (js' = js) by (apply map_Ret_inj; congruence). subst js'. exists ms, ps. split; [exact E2|]. split; [exact E3|exact E4].
Qed.
Print Assumptions C83_readout.

(** * Cases *)
(** the mesh of C31 with tsc as its window *)
Definition tsc_pms : list pm := map (mesh_pm [4; 4]%Z ex_pt ex_blocks [8; 8] tsc) (seq 0 2).
Lemma tsc_world : world [4; 4]%Z (Scalar 8) [8; 8] tsc ex_pt ex_blocks tsc_pms.
Proof.
  constructor; try reflexivity.
  - exact ex_mesh_ok.
  - exact (wd_starts _ _ _ _ _ _ _ ex_world).
  - right. reflexivity.
Qed.
Lemma tsc_room : room [4; 4]%Z ex_pt (half_support tsc 2).
Proof.
  intros i k Hi Hk. cbv zeta. destruct i as [|[|i]]; [| |simpl in Hi; lia];
    cbn [ex_pt i_edges nth length] in Hk |- *.
  - left. destruct k as [|[|k]]; [vm_compute; discriminate|vm_compute; discriminate|lia].
  - right. destruct k as [|k]; [reflexivity|lia].
Qed.
Lemma tsc_smooth : smooth_call tsc_pms None None.
Proof. split; [exact Logic.I|]. split; [repeat constructor; discriminate|discriminate]. Qed.
Lemma tsc_stored r : (r < 2)%nat -> stored (nth r [c_array [2; 4]%Z; c_array [2; 4]%Z] (f_array zero_field)) (block_shape (i_edges ex_pt) (block ex_blocks r)).
Proof. intros Hr. pose proof (ex_stored r Hr) as S0. destruct r as [|[|r]]; [exact S0|exact S0|lia]. Qed.
(** the cells of the ranks after decompose and paint, and after paint.jvp *)
Definition cells_of (outs : list field) (ms : list (outcome memory)) : list (list Q) :=
  match all_ret ms with
  | Some ms => map (fun fm => map (fun idx => Qred (elem (f_array (fst fm)) (snd fm) idx)) (elements (f_array (fst fm)))) (combine outs ms)
  | None => []
  end.
Definition tsc_jvp_cells : list (list Q) :=
  match all_ret (engine_decompose tsc_pms ex_parts) with
  | Some ls => cells_of [ex_out; ex_out] (engine_paint_jvp tsc_pms (Some ls) [ex_out; ex_out] ex_parts (Some ex_push))
  | None => []
  end.
Definition paint_cells (pms : list pm) (poss : list (list (list Q))) : list (list Q) :=
  match all_ret (engine_decompose pms poss) with
  | Some ls => cells_of [ex_out; ex_out] (engine_paint pms (Some ls) [ex_out; ex_out] poss)
  | None => []
  end.
Example C83_case : 
  (exists ls ms, engine_decompose ex_pms ex_parts = map Ret ls /\ engine_paint ex_pms (Some ls) [ex_out; ex_out] ex_parts = map Ret ms /\
     qsum (fun r => total (f_array (nth r [ex_out; ex_out] zero_field)) (nth r ms (fun _ => 0))) (seq 0 2) == 16) /\
  paint_cells ex_pms ex_parts = [[10#3; 4#3; 0; 2; 4#3; 4#3; 4#3; 4#3]; [0; 0; 4#3; 4#3; 2#3; 0; 0; 2#3]].
Proof.
  split; [|vm_compute; reflexivity].
  apply (C83_mean _ _ _ _ _ _ _ ex_world ex_parts [ex_out; ex_out]).
  - split; [reflexivity|repeat constructor].
  - split; [exact Logic.I|reflexivity].
  - exact ex_room.
  - reflexivity.
  - exact ex_stored.
  - discriminate.
Qed.
(** for eps > 1/2 the first particle has left rank 0 *)
Example C83_derivative_case : exists C, forall eps, exists ls ls' m0 m1 mj,
  engine_decompose tsc_pms ex_parts = map Ret ls /\ engine_decompose tsc_pms (ex_pushed eps) = map Ret ls' /\
  engine_paint tsc_pms (Some ls) [ex_out; ex_out] ex_parts = map Ret m0 /\
  engine_paint tsc_pms (Some ls') [ex_out; ex_out] (ex_pushed eps) = map Ret m1 /\
  engine_paint_jvp tsc_pms (Some ls) [ex_out; ex_out] ex_parts (Some ex_push) = map Ret mj /\
  forall r idx, (r < 2)%nat -> In idx (elements (c_array [2; 4]%Z)) ->
    Qabs (elem (c_array [2; 4]%Z) (nth r m1 (fun _ => 0)) idx - elem (c_array [2; 4]%Z) (nth r m0 (fun _ => 0)) idx
          - eps * ((16#3) * elem (c_array [2; 4]%Z) (nth r mj (fun _ => 0)) idx)) <= C * (eps * eps).
Proof.
  destruct (C83_paint_derivative _ _ _ _ _ _ _ tsc_world (standard_proper TunedTSC Logic.I) eq_refl tsc_room [c_array [2; 4]%Z; c_array [2; 4]%Z] eq_refl
    tsc_stored ex_parts (Some ex_push)) as (D & H).
  - split; [reflexivity|repeat constructor].
  - intros v Hv. injection Hv as <-. split; [reflexivity|repeat constructor].
  - left. exact tsc_smooth.
  - exists D. intros eps. 
    destruct (H [ex_out; ex_out] [ex_out; ex_out] eps _ eq_refl eq_refl (ex_positions eps) (or_introl tsc_smooth)) as (ls & ls' & m0 & m1 & mj & A0 & A0' & A1 & A2 & A3 & A4).
    exists ls, ls', m0, m1, mj. repeat (split; [assumption|]). intros r idx Hr Hin.
    assert (E : (16#3) == per_particle [4; 4]%Z ex_parts) by reflexivity. rewrite E. apply A4; [|exact Hin]. destruct r as [|[|r]]; [reflexivity|reflexivity|lia].
Qed.
(** two multiples of eps within a multiple of eps^2 of the same number are the same *)
Lemma slopes_agree (f : Q -> Q) a b A B : (forall eps, Qabs (f eps - eps * a) <= A * (eps * eps)) -> (forall eps, Qabs (f eps - eps * b) <= B * (eps * eps)) -> a == b.
Proof.
  intros HA HB.
  assert (H : forall eps, 0 < eps -> Qabs (a - b) <= (A + B) * eps).
  { intros eps He. specialize (HA eps). specialize (HB eps).
    assert (X : eps * Qabs (a - b) <= eps * ((A + B) * eps)).
    { rewrite <- (Qabs_pos eps) at 1 by lra. rewrite <- Qabs_Qmult.
      setoid_replace (eps * (a - b)) with ((f eps - eps * b) - (f eps - eps * a)) by ring.
      eapply Qle_trans; [apply Qabs_triangle|]. rewrite Qabs_opp.
      setoid_replace (eps * ((A + B) * eps)) with (B * (eps * eps) + A * (eps * eps)) by ring. apply Qplus_le_compat; assumption. }
    apply Qmult_le_l in X; assumption. }
  destruct (Qeq_dec (Qabs (a - b)) 0) as [E|E].
  - pose proof (Qle_Qabs (a - b)) as L1. pose proof (Qle_Qabs (- (a - b))) as L2. rewrite Qabs_opp in L2. rewrite E in L1, L2. lra.
  - exfalso. assert (P0 : 0 < Qabs (a - b)).
    { destruct (Qlt_le_dec 0 (Qabs (a - b))) as [L|L]; [exact L|]. exfalso. apply E. apply Qle_antisym; [exact L|apply Qabs_nonneg]. }
    assert (S0 : 0 < A + B).
    { specialize (H 1 ltac:(lra)). lra. }
    specialize (H (Qabs (a - b) / (2 * (A + B)))).
    assert (0 < Qabs (a - b) / (2 * (A + B))) by (apply Qlt_shift_div_l; lra).
    specialize (H H0). setoid_replace ((A + B) * (Qabs (a - b) / (2 * (A + B)))) with (Qabs (a - b) * (1#2)) in H by (field; lra). lra.
Qed.
(** paint.jvp is not the derivative of paint where the particles are not as many as the cells *)
Theorem C83_jvp_refuted : exists Nmesh BoxSize box w0 pt blocks pms, world Nmesh BoxSize box w0 pt blocks pms /\
  proper_kind (w_kind w0) /\ (0 < w_support w0)%Z /\ room Nmesh pt (half_support w0 (length Nmesh)) /\ smooth_call pms None None /\
  exists outs poss v, particles_ok (length Nmesh) (length blocks) poss /\ vectors_ok (ndim_of pms) poss v /\
  length outs = length blocks /\
  (forall r, (r < length blocks)%nat -> stored (f_array (nth r outs zero_field)) (block_shape (i_edges pt) (block blocks r))) /\
  exists moved, (forall eps, positions_by (ndim_of pms) eps (Some v) poss (moved eps)) /\
  ~ exists C, forall eps, exists ls ls' m0 m1 mj,
    engine_decompose pms poss = map Ret ls /\ engine_decompose pms (moved eps) = map Ret ls' /\
    engine_paint pms (Some ls) outs poss = map Ret m0 /\ engine_paint pms (Some ls') outs (moved eps) = map Ret m1 /\
    engine_paint_jvp pms (Some ls) outs poss (Some v) = map Ret mj /\
    forall r idx, (r < length blocks)%nat -> In idx (elements (f_array (nth r outs zero_field))) ->
      Qabs (elem (f_array (nth r outs zero_field)) (nth r m1 (fun _ => 0)) idx - elem (f_array (nth r outs zero_field)) (nth r m0 (fun _ => 0)) idx
            - eps * elem (f_array (nth r outs zero_field)) (nth r mj (fun _ => 0)) idx) <= C * (eps * eps).
Proof.
  exists [4; 4]%Z, (Scalar 8), [8; 8], tsc, ex_pt, ex_blocks, tsc_pms. split; [exact tsc_world|]. split; [apply standard_proper; exact Logic.I|].
  split; [reflexivity|]. split; [exact tsc_room|]. split; [exact tsc_smooth|].
  exists [ex_out; ex_out], ex_parts, ex_push. split; [split; [reflexivity|repeat constructor]|]. split; [split; [reflexivity|repeat constructor]|].
  split; [reflexivity|]. split; [exact ex_stored|]. exists ex_pushed. split; [exact ex_positions|].
  intros (C & H). destruct C83_derivative_case as (D & HD).
  assert (R : (0 < length ex_blocks)%nat) by (cbn; lia).
  assert (I0 : In [0; 0]%Z (elements (c_array [2; 4]%Z))) by (vm_compute; left; reflexivity).
  (* the jvp of the first cell *)
  assert (J : exists ls mj, engine_decompose tsc_pms ex_parts = map Ret ls /\
     engine_paint_jvp tsc_pms (Some ls) [ex_out; ex_out] ex_parts (Some ex_push) = map Ret mj /\ elem (c_array [2; 4]%Z) (nth 0 mj (fun _ => 0)) [0; 0]%Z == -(43#32)).
  { destruct (H 0) as (ls & _ & _ & _ & mj & A0 & _ & _ & _ & A3 & _). exists ls, mj. split; [exact A0|]. split; [exact A3|].
    assert (E : tsc_jvp_cells = [[-43#32; 9#8; 0; 23#32; -61#64; 11#8; -3#4; 29#64]; [0; 0; -1#4; 3#4; -45#64; 0; 0; -27#64]]) by (vm_compute; reflexivity).
    unfold tsc_jvp_cells in E. rewrite A0, all_ret_Ret in E. rewrite A3 in E. unfold cells_of in E. rewrite all_ret_Ret in E.
    destruct mj as [|m mj]; [discriminate E|]. cbn [combine map fst snd f_array ex_out] in E.
    change (elements (c_array [2; 4]%Z)) with ([0; 0]%Z :: tl (elements (c_array [2; 4]%Z))) in E. cbn [map] in E. injection E as E _.
    cbn [nth]. rewrite <- (Qred_correct (elem (c_array [2; 4]%Z) m [0; 0]%Z)), E. reflexivity. }
  destruct J as (ls & mj & J1 & J2 & J3).
  (* the paint of the first cell, as a function of eps *)
  set (f := fun eps => match all_ret (engine_decompose tsc_pms ex_parts), all_ret (engine_decompose tsc_pms (ex_pushed eps)) with
    | Some ls, Some ls' => match all_ret (engine_paint tsc_pms (Some ls) [ex_out; ex_out] ex_parts), all_ret (engine_paint tsc_pms (Some ls') [ex_out; ex_out] (ex_pushed eps)) with
        | Some m0, Some m1 => elem (c_array [2; 4]%Z) (nth 0 m1 (fun _ => 0)) [0; 0]%Z - elem (c_array [2; 4]%Z) (nth 0 m0 (fun _ => 0)) [0; 0]%Z
        | _, _ => 0 end
    | _, _ => 0 end).
  assert (X : (-(43#32)) == (16#3) * (-(43#32))).
  { apply (slopes_agree f _ _ C D).
    - intros eps. destruct (H eps) as (l & l' & m0 & m1 & mj' & A0 & A0' & A1 & A2 & A3 & A4).
      assert (l = ls) by (apply map_Ret_inj; congruence). subst l. assert (mj' = mj) by (apply map_Ret_inj; congruence). subst mj'.
      unfold f. rewrite A0, A0', !all_ret_Ret, A1, A2, !all_ret_Ret. rewrite <- J3. apply (A4 0%nat [0; 0]%Z R I0).
    - intros eps. destruct (HD eps) as (l & l' & m0 & m1 & mj' & A0 & A0' & A1 & A2 & A3 & A4).
      assert (l = ls) by (apply map_Ret_inj; congruence). subst l. assert (mj' = mj) by (apply map_Ret_inj; congruence). subst mj'.
      unfold f. rewrite A0, A0', !all_ret_Ret, A1, A2, !all_ret_Ret. rewrite <- J3. apply (A4 0%nat [0; 0]%Z R I0). }
  discriminate X.
Qed.
Print Assumptions C83_jvp_refuted.

Example C83_adjoint_case : exists ls ms ps, engine_decompose ex_pms ex_parts = map Ret ls /\
  engine_paint_jvp ex_pms (Some ls) [ex_out; ex_out] ex_parts (Some ex_vectors) = map Ret ms /\
  engine_paint_vjp ex_pms (Some ls) [ex_field 0; ex_field 1] ex_parts = map Ret ps /\
  sum_cells [c_array [2; 4]%Z; c_array [2; 4]%Z] (fun r idx => elem (c_array [2; 4]%Z) (f_data (nth r [ex_field 0; ex_field 1] zero_field)) idx *
    ((16#3) * elem (c_array [2; 4]%Z) (nth r ms (fun _ => 0)) idx)) ==
  sum_particles ex_parts (fun s i => qsum (fun d => nth d (nth i (nth s ex_vectors []) []) 0 * nth i (nth d (nth s ps []) []) 0) (seq 0 2)) /\
  ~ sum_particles ex_parts (fun s i => qsum (fun d => nth d (nth i (nth s ex_vectors []) []) 0 * nth i (nth d (nth s ps []) []) 0) (seq 0 2)) == 0.
Proof.
  destruct ex_call as (ls & E & C & _). exists ls.
  destruct (C83_paint_adjoint _ _ _ _ _ _ _ ex_world _ _ _ C [ex_out; ex_out] [ex_field 0; ex_field 1] ex_vectors) as (ms & ps & E1 & E2 & _ & _ & E4).
  - reflexivity.
  - reflexivity.
  - split; [reflexivity|repeat constructor].
  - exists ms, ps. split; [exact E|]. split; [exact E1|]. split; [exact E2|]. split.
    + rewrite <- E4. unfold sum_cells. apply qsum_ext_in. intros r Hr. apply in_seq in Hr. 
      assert (Er : nth r [c_array [2; 4]%Z; c_array [2; 4]%Z] (f_array zero_field) = c_array [2; 4]%Z) by (destruct r as [|[|r]]; [reflexivity|reflexivity|cbn in Hr; lia]).
      rewrite Er. apply qsum_ext. intros idx. assert (X : (16#3) == per_particle [4; 4]%Z ex_parts) by reflexivity. rewrite X. reflexivity.
    + assert (X : match all_ret (engine_decompose ex_pms ex_parts) with
        | Some ls => match all_ret (engine_paint_vjp ex_pms (Some ls) [ex_field 0; ex_field 1] ex_parts) with
            | Some ps => Qeq_bool (sum_particles ex_parts (fun s i => qsum (fun d => nth d (nth i (nth s ex_vectors []) []) 0 * nth i (nth d (nth s ps []) []) 0) (seq 0 2))) 0
            | None => true end
        | None => true end = false) by (vm_compute; reflexivity).
      unfold engine_decompose in X. rewrite E, all_ret_Ret in X. rewrite E2, all_ret_Ret in X. intros Z0. apply Qeq_eq_bool in Z0. congruence.
Qed.
(** a particle in each of the 16 cells *)
Definition grid_parts : list (list (list Q)) :=
  map (fun r => flat_map (fun i => map (fun j => [inject_Z (4 * r + 2 * i); inject_Z (2 * j)]) [0; 1; 2; 3]%Z) [0; 1]%Z) [0; 1]%Z.
Example C83_one_per_cell_case : exists C, forall outs outs' eps poss',
  map f_array outs = [c_array [2; 4]%Z; c_array [2; 4]%Z] -> map f_array outs' = [c_array [2; 4]%Z; c_array [2; 4]%Z] ->
  positions_by 2 eps (Some (map (map (fun x => [nth 1 x 0; 1 - nth 0 x 0])) grid_parts)) grid_parts poss' ->
  exists ls ls' m0 m1 mj,
    engine_decompose tsc_pms grid_parts = map Ret ls /\ engine_decompose tsc_pms poss' = map Ret ls' /\
    engine_paint tsc_pms (Some ls) outs grid_parts = map Ret m0 /\ engine_paint tsc_pms (Some ls') outs poss' = map Ret m1 /\
    engine_paint_jvp tsc_pms (Some ls) outs' grid_parts (Some (map (map (fun x => [nth 1 x 0; 1 - nth 0 x 0])) grid_parts)) = map Ret mj /\
    forall r real idx, nth_error [c_array [2; 4]%Z; c_array [2; 4]%Z] r = Some real -> In idx (elements real) ->
      Qabs (elem real (nth r m1 (fun _ => 0)) idx - elem real (nth r m0 (fun _ => 0)) idx
            - eps * elem real (nth r mj (fun _ => 0)) idx) <= C * (eps * eps).
Proof.
  destruct (C83_one_per_cell _ _ _ _ _ _ _ tsc_world (standard_proper TunedTSC Logic.I) eq_refl tsc_room [c_array [2; 4]%Z; c_array [2; 4]%Z] eq_refl
    tsc_stored grid_parts (Some (map (map (fun x => [nth 1 x 0; 1 - nth 0 x 0])) grid_parts))) as (D & H).
  - split; [reflexivity|repeat constructor].
  - intros v Hv. injection Hv as <-. split; [reflexivity|repeat constructor].
  - left. exact tsc_smooth.
  - discriminate.
  - reflexivity.
  - exists D. intros outs outs' eps poss' Eo Eo' Hm. exact (H outs outs' eps poss' Eo Eo' Hm (or_introl tsc_smooth)).
Qed.
Example C83_readout_case : exists ls js, engine_decompose tsc_pms ex_parts = map Ret ls /\
  engine_readout_jvp tsc_pms (Some ls) [ex_field 0; ex_field 1] ex_parts (Some [ex_field 1; ex_field 0]) (Some ex_push) = map Ret js /\
  exists C, forall eps mesh', fields_by [c_array [2; 4]%Z; c_array [2; 4]%Z] eps (Some [ex_field 1; ex_field 0]) [ex_field 0; ex_field 1] mesh' ->
    exists ls' r0 r1, engine_decompose tsc_pms (ex_pushed eps) = map Ret ls' /\
      engine_readout tsc_pms (Some ls) [ex_field 0; ex_field 1] ex_parts = map Ret r0 /\ engine_readout tsc_pms (Some ls') mesh' (ex_pushed eps) = map Ret r1 /\
      forall s i, (s < 2)%nat -> (i < length (nth s ex_parts []))%nat ->
        Qabs (nth i (nth s r1 []) 0 - nth i (nth s r0 []) 0 - eps * nth i (nth s js []) 0) <= C * (eps * eps).
Proof.
  destruct (C83_readout _ _ _ _ _ _ _ tsc_world (standard_proper TunedTSC Logic.I) eq_refl tsc_room [c_array [2; 4]%Z; c_array [2; 4]%Z] eq_refl
    tsc_stored ex_parts [ex_field 0; ex_field 1] (Some [ex_field 1; ex_field 0]) (Some ex_push)) as (ls & js & A1 & A2 & (D & H) & _).
  - split; [reflexivity|repeat constructor].
  - reflexivity.
  - intros g Hg. injection Hg as <-. reflexivity.
  - intros v Hv. injection Hv as <-. split; [reflexivity|repeat constructor].
  - left. exact tsc_smooth.
  - exists ls, js. split; [exact A1|]. split; [exact A2|]. exists D. intros eps mesh' Hf. exact (H eps mesh' _ Hf (ex_positions eps) (or_introl tsc_smooth)).
Qed.
