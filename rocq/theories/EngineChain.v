(** Property C99: gradients of whole programmes of ParticleMeshEngine (pmesh/abopt.py): the statements c2r, r2c and
    decompress, and the chain from the modes of a field to the misfit of its transform with data.
    As in EngineModel.v the library abopt is not modelled: a programme is the composition of its
    statements, its vjp the composition of their vjps from the last to the first, its jvp the
    composition of their jvps. *)
From Coq Require Import List Arith ZArith QArith Lia Bool Permutation Ring Qcanon.
From Verif Require Import EngineModel Base ListFacts LayoutModel WrapModel WrapProofs DomainModel DomainFill DomainAssign MeshModel MeshAssign
  MeshRoute MeshTile RingModel FieldModel FieldFacts FieldProperties FieldSort FieldResample FieldNorm FourierModel FourierFacts
  FourierProperties FloatModel EngineProperties.
Import ListNotations.
Local Close Scope Q_scope.
Local Open Scope Z_scope.

(** ** the model *)
Section Model.
Variable K : cring.
Local Notation C := (cpx K).
Variables (Nmesh : list Z) (roots : list C) (invs sizes : list K).
(** abopt.py:70-80; Out and Mid are the blocks of the real and of the complex field *)
Definition c2r_st (Out : list (lfield K)) (complex : list (lfield C)) : list (lfield K) := c2r K Nmesh roots complex Out.
Definition c2r_st_vjp (Mid : list (lfield C)) (_real : list (lfield K)) : list (lfield C) := c2r_vjp K roots invs sizes _real Mid.
Definition c2r_st_jvp (Out : list (lfield K)) (complex_ : list (lfield C)) : list (lfield K) := c2r K Nmesh roots complex_ Out.
(** abopt.py:82-92 *)
Definition r2c_st (Mid : list (lfield C)) (real : list (lfield K)) : list (lfield C) := r2c K roots invs real Mid.
Definition r2c_st_vjp (Out : list (lfield K)) (_complex : list (lfield C)) : list (lfield K) := r2c_vjp K Nmesh roots invs _complex Out.
Definition r2c_st_jvp (Mid : list (lfield C)) (real_ : list (lfield K)) : list (lfield C) := r2c K roots invs real_ Mid.
(** abopt.py:94-104 *)
Definition decompress_st (complex : list (lfield C)) : list (lfield C) := complex.
Definition decompress_st_vjp (_complex : list (lfield C)) : list (lfield C) := map (decompress_vjp K Nmesh) _complex.
Definition decompress_st_jvp (complex_ : list (lfield C)) : list (lfield C) := complex_.

(** a RealField that has the blocks of Out and given values *)
Definition put (Out : list (lfield K)) (v : list (list K)) : list (lfield K) := map2 (fun L l => mkL (lstart L) (lshape L) l) Out v.
Definition vals (F : list (lfield K)) : list (list K) := map lvals F.

Variables (is0 : K -> bool) (inv : K -> K) (units : list K) (tf : list K -> C).
Variables (Out : list (lfield K)) (Mid : list (lfield C)) (data sigma : list (lfield K)).
(** code.transfer, code.c2r, code.residual, code.to_scalar *)
Definition misfit (complex : list (lfield C)) : K :=
  let complex := map (transfer K is0 units Nmesh tf) complex in
  let real := c2r_st Out complex in
  to_scalar K (residual K inv (vals real) (vals data) (vals sigma)).
Definition misfit_vjp (complex : list (lfield C)) (_y : K) : list (lfield C) :=
  let model := vals (c2r_st Out (map (transfer K is0 units Nmesh tf) complex)) in
  let _residual := to_scalar_vjp K _y (residual K inv model (vals data) (vals sigma)) in
  let _real := put Out (residual_vjp K inv _residual (vals data) (vals sigma)) in
  let _complex := c2r_st_vjp Mid _real in
  map (transfer_vjp K is0 units Nmesh tf) _complex.
Definition misfit_jvp (complex complex_ : list (lfield C)) : K :=
  let model := vals (c2r_st Out (map (transfer K is0 units Nmesh tf) complex)) in
  let real_ := c2r_st_jvp Out (map (transfer_jvp K is0 units Nmesh tf) complex_) in
  to_scalar_jvp K (residual_jvp K inv (vals real_) (vals data) (vals sigma)) (residual K inv model (vals data) (vals sigma)).

(** the parameters are the modes: code.decompress first *)
Definition from_modes (complex : list (lfield C)) : K := misfit (decompress_st complex).
Definition from_modes_vjp (complex : list (lfield C)) (_y : K) : list (lfield C) :=
  decompress_st_vjp (misfit_vjp (decompress_st complex) _y).
Definition from_modes_jvp (complex complex_ : list (lfield C)) : K := misfit_jvp (decompress_st complex) (decompress_st_jvp complex_).
(** the parameters are the cells: code.r2c first *)
Definition from_cells (real : list (lfield K)) : K := misfit (r2c_st Mid real).
Definition from_cells_vjp (real : list (lfield K)) (_y : K) : list (lfield K) := r2c_st_vjp real (misfit_vjp (r2c_st Mid real) _y).
Definition from_cells_jvp (real real_ : list (lfield K)) : K := misfit_jvp (r2c_st Mid real) (r2c_st_jvp Mid real_).
End Model.

(** ** sums over all modes *)
(** one of each pair of opposite modes *)
Record one_of_each (Nmesh stored : list Z) (Rep : list (list Z)) : Prop := {
  oe_nodup : NoDup Rep;
  oe_stored : incl Rep (cells_of stored);
  oe_all : forall k, In k (cells_of Nmesh) -> In k Rep \/ In (opposite Nmesh k) Rep;
  oe_one : forall k, In k Rep -> In (opposite Nmesh k) Rep -> opposite Nmesh k = k
}.

Section Sums.
Variable K : cring.
Add Ring Kr12 : (rth K).
Local Notation C := (cpx K).
Local Open Scope rg_scope.

Lemma pairs_permutation Nmesh stored Rep : stored_shape Nmesh stored -> one_of_each Nmesh stored Rep ->
  Permutation (cells_of Nmesh) (Rep ++ map (opposite Nmesh) (filter (fun k => negb (idx_eqb (opposite Nmesh k) k)) Rep)).
Proof.
  intros St O. assert (Va : forall k, In k Rep -> valid_index Nmesh k).
  { intros k Hk. apply (stored_valid _ _ _ St). now apply (oe_stored _ _ _ O). }
  assert (Pos : forall k, valid_index Nmesh k -> Forall (fun n => (0 < n)%Z) Nmesh) by (intros k V; clear - V; induction V; constructor; [lia|assumption]).
  apply NoDup_Permutation.
  - apply cells_of_NoDup.
  - apply NoDup_app_intro.
    + apply (oe_nodup _ _ _ O).
    + apply NoDup_map_in; [|apply NoDup_filter, (oe_nodup _ _ _ O)].
      intros a b Ha Hb E. apply filter_In in Ha. apply filter_In in Hb.
      rewrite <- (FieldProperties.opposite_involutive Nmesh a) by (apply Va; tauto). rewrite E. apply FieldProperties.opposite_involutive. apply Va. tauto.
    + intros k Hk Ho. apply in_map_iff in Ho. destruct Ho as (a & <- & Ha). apply filter_In in Ha. destruct Ha as [Ha Hn].
      pose proof (oe_one _ _ _ O a Ha Hk) as E. unfold idx_eqb in Hn. destruct (list_eq_dec _ _ _); [discriminate|contradiction].
  - intros k. rewrite in_app_iff, in_map_iff. split.
    + intros Hk. destruct (oe_all _ _ _ O k Hk) as [H|H]; [now left|].
      assert (Vk : valid_index Nmesh k) by now apply cells_valid.
      destruct (list_eq_dec Z.eq_dec (opposite Nmesh k) k) as [E|E]; [left; congruence|right].
      exists (opposite Nmesh k). split; [now apply FieldProperties.opposite_involutive|]. apply filter_In. split; [exact H|].
      rewrite FieldProperties.opposite_involutive by exact Vk. unfold idx_eqb. destruct (list_eq_dec _ _ _) as [E2|_]; [now symmetry in E2|reflexivity].
    + intros [Hk|(a & <- & Ha)]; [apply cells_valid; auto|]. apply filter_In in Ha. apply cells_valid.
      apply opposite_valid; [apply (Pos a)|]; apply Va; tauto.
Qed.
Lemma pairs_sum Nmesh stored Rep (h : list Z -> K) : stored_shape Nmesh stored -> one_of_each Nmesh stored Rep ->
  (forall k, In k Rep -> h (opposite Nmesh k) = h k) ->
  rsum h (cells_of Nmesh) = rsum (fun k => if idx_eqb (opposite Nmesh k) k then h k else h k + h k) Rep.
Proof.
  intros St O E. rewrite (rsum_perm K h _ _ (pairs_permutation _ _ _ St O)), rsum_app, rsum_map.
  clear O. induction Rep as [|k Rep IH]; [cbn; ring|]. cbn [filter]. specialize (IH (fun q Hq => E q (or_intror Hq))).
  destruct (idx_eqb (opposite Nmesh k) k) eqn:X; cbn [negb]; rewrite !rsum_cons, X; rewrite <- IH; [ring|].
  rewrite (E k (or_introl eq_refl)). ring.
Qed.
End Sums.

Section Chain.
Variable K : cring.
Add Ring Kr13 : (rth K).
Local Notation C := (cpx K).
Local Open Scope rg_scope.
Variables (base : list Z) (n : Z).
Local Notation N := (N base n).
Local Notation half := (half base n).
Variables (ws : list C) (is : list K).
Hypothesis M : mesh_roots K N ws is.
Variables (is0 : K -> bool) (inv : K -> K) (units : list K) (tf : list K -> C).
Hypothesis Is0 : forall a : K, is0 a = true <-> a = 0.
Variables (Out : list (lfield K)) (Mid : list (lfield C)) (data sigma : list (lfield K)) (dt sg : list Z -> K).
(** where the real fields are: Out is a partition of the mesh, the others lie the same way *)
Definition alike {V W} (A : list (lfield V)) (B : list (lfield W)) : Prop := map lstart A = map lstart B /\ map lshape A = map lshape B.
Hypothesis TO : tiles N Out.
Hypothesis TM : tiles half Mid.
Hypothesis Hd : holds data dt.
Hypothesis Ad : alike data Out.
Hypothesis Hs : holds sigma sg.
Hypothesis As : alike sigma Out.

Lemma half_stored : stored_shape N half.
Proof.
  pose proof (base_pos K base n ws is M) as B. pose proof (last_pos K base n ws is M) as L.
  unfold stored_shape, FourierProperties.N, FourierProperties.half. apply Forall2_app.
  - clear -B. induction B; constructor; [lia|assumption].
  - constructor; [|constructor]. pose proof (Z.div_pos n 2 ltac:(lia) ltac:(lia)). pose proof (Z.div_lt_upper_bound n 2 n ltac:(lia) ltac:(lia)). lia.
Qed.

Definition spread (f : list Z -> K) : list (list K) := map (fun L => map f (lcells L)) Out.
Lemma vals_spread (F : list (lfield K)) f : holds F f -> alike F Out -> vals K F = spread f.
Proof.
  intros H [E1 E2]. unfold vals, spread. clear TO Ad As. revert F H E1 E2. induction Out as [|L O IH]; intros [|A F] H E1 E2; try discriminate E1; [reflexivity|].
  cbn [map]. injection E1 as E1 E1'. injection E2 as E2 E2'. inversion H as [|? ? HA HF]; subst. rewrite (IH F HF E1' E2'). f_equal.
  rewrite HA. unfold lcells. now rewrite E1, E2.
Qed.
Lemma map2_same {A B D E} (f : B -> D -> E) (g : A -> B) (h : A -> D) l : map2 f (map g l) (map h l) = map (fun a => f (g a) (h a)) l.
Proof. induction l as [|a l IH]; [reflexivity|]. cbn [map]. now rewrite map2_cons, IH. Qed.
Lemma each2_spread op f g : each2 K op (spread f) (spread g) = spread (fun q => op (f q) (g q)).
Proof. unfold each2, spread. rewrite map2_same. apply map_ext. intro L. apply map2_same. Qed.
Lemma each_spread op f : each K op (spread f) = spread (fun q => op (f q)).
Proof. unfold each, spread. rewrite map_map. apply map_ext. intro L. apply map_map. Qed.
Lemma put_spread f : put K Out (spread f) = map (on_block f) Out.
Proof.
  unfold put, spread, on_block. rewrite <- (map_id Out) at 1. rewrite map2_same. reflexivity.
Qed.
Lemma to_scalar_spread f : to_scalar K (spread f) = rsum (fun q => f q * f q) (cells_of N).
Proof.
  unfold to_scalar, allsum, spread. rewrite map_map, rsum_map. rewrite <- (tiles_sum K N Out (fun q => f q * f q) TO).
  apply rsum_ext. intro L. apply rsum_map.
Qed.
Lemma to_scalar_jvp_spread f d : to_scalar_jvp K (spread d) (spread f) = rsum (fun q => f q * d q) (cells_of N) * (1 + 1).
Proof.
  unfold to_scalar_jvp, allsum, spread. rewrite combine_map_map, map_map, rsum_map. f_equal.
  rewrite <- (tiles_sum K N Out (fun q => f q * d q) TO). apply rsum_ext. intro L. cbn [fst snd].
  rewrite combine_map_map, rsum_map. reflexivity.
Qed.
Lemma on_block_alike {V} (f : list Z -> V) {W} (O : list (lfield W)) : alike (map (on_block f) O) O.
Proof. split; rewrite map_map; reflexivity. Qed.
Lemma on_block_holds {V} (f : list Z -> V) {W} (O : list (lfield W)) : holds (map (on_block f) O) f.
Proof. apply Forall_forall. intros L HL. apply in_map_iff in HL. destruct HL as (A & <- & _). reflexivity. Qed.

(** the factor a mode is multiplied with *)
Definition fac (k : list Z) : C := nyquist_mask K is0 N k (tf (wave K units N k)).
Lemma on_modes_holds (f : list Z -> C -> C) (Us : list (lfield C)) u : holds Us u -> holds (map (on_modes K f) Us) (fun k => f k (u k)).
Proof.
  intros H. unfold holds in *. rewrite Forall_forall in *. intros L' HL'. apply in_map_iff in HL'. destruct HL' as (L & <- & HL).
  unfold on_modes. cbn [lvals]. change (lcells {| lstart := lstart L; lshape := lshape L; lvals := _ |}) with (lcells L).
  rewrite (H L HL), combine_self, map_map. reflexivity.
Qed.
Lemma on_modes_tiles (f : list Z -> C -> C) shape (Us : list (lfield C)) : tiles shape Us -> tiles shape (map (on_modes K f) Us).
Proof. apply tiles_same; rewrite map_map; reflexivity. Qed.
Lemma transfer_holds (Us : list (lfield C)) u : holds Us u -> holds (map (transfer K is0 units N tf) Us) (fun k => cmul (fac k) (u k)).
Proof. apply on_modes_holds. Qed.
Lemma transfer_vjp_holds (Us : list (lfield C)) u : holds Us u -> holds (map (transfer_vjp K is0 units N tf) Us) (fun k => cmul (cconj (fac k)) (u k)).
Proof.
  intros H. apply (on_modes_holds (fun i v => cmul (nyquist_mask K is0 N i (cconj (tf (wave K units N i)))) v)) in H.
  revert H. apply holds_ext. intros L k _ _. unfold fac. now rewrite (mask_conj K is0 Is0).
Qed.
Local Notation syn := (synthesis K base n ws).
Lemma model_spread (Cs : list (lfield C)) c : tiles half Cs -> holds Cs c ->
  vals K (c2r_st K N ws Out (map (transfer K is0 units N tf) Cs)) = spread (fun q => re (syn (fun k => cmul (fac k) (c k)) q)).
Proof.
  intros T H. apply vals_spread; [|apply on_block_alike]. apply (c2r_holds K base n ws is M); [now apply on_modes_tiles|now apply transfer_holds|exact TO].
Qed.
(** the residual at a cell *)
Definition resid (c : list Z -> C) (q : list Z) : K := (re (syn (fun k => cmul (fac k) (c k)) q) - dt q) * inv (sg q).
Lemma residual_spread (Cs : list (lfield C)) c : tiles half Cs -> holds Cs c ->
  residual K inv (vals K (c2r_st K N ws Out (map (transfer K is0 units N tf) Cs))) (vals K data) (vals K sigma) = spread (resid c).
Proof.
  intros T H. rewrite (model_spread Cs c T H), (vals_spread data dt Hd Ad), (vals_spread sigma sg Hs As). unfold residual, over. now rewrite !each2_spread.
Qed.
Lemma misfit_value (Cs : list (lfield C)) c : tiles half Cs -> holds Cs c ->
  misfit K N ws is0 inv units tf Out data sigma Cs = rsum (fun q => resid c q * resid c q) (cells_of N).
Proof. intros T H. unfold misfit. rewrite (residual_spread Cs c T H). apply to_scalar_spread. Qed.
(** the cotangent of the real field, and that of the modes *)
Definition cot (y : K) (c : list Z -> C) (q : list Z) : K := resid c q * ((1 + 1) * y) * inv (sg q).
Definition cotm (y : K) (c : list Z -> C) (k : list Z) : C := cmul (spectrum K base n ws is (cot y c) k) (cof (rprod K (sizes K N))).
Lemma misfit_vjp_holds (Cs : list (lfield C)) c y : tiles half Cs -> holds Cs c ->
  holds (misfit_vjp K N ws is (sizes K N) is0 inv units tf Out Mid data sigma Cs y) (fun k => cmul (cconj (fac k)) (cotm y c k)).
Proof.
  intros T H. unfold misfit_vjp. rewrite (residual_spread Cs c T H). unfold to_scalar_vjp, residual_vjp, over.
  rewrite each_spread, (vals_spread sigma sg Hs As), each2_spread, put_spread. apply transfer_vjp_holds. fold (cot y c).
  unfold c2r_st_vjp, c2r_vjp. pose proof (r2c_holds K base n ws is (map (on_block (cot y c)) Out) Mid (cot y c)) as X.
  specialize (X ltac:(now apply on_block_tiles) ltac:(apply on_block_holds)).
  unfold holds in *. rewrite Forall_forall in *. intros L' HL'. apply in_map_iff in HL'. destruct HL' as (L & <- & HL). specialize (X L HL).
  unfold scale_c. cbn [lvals]. change (lcells {| lstart := lstart L; lshape := lshape L; lvals := _ |}) with (lcells L).
  rewrite X, map_map. reflexivity.
Qed.
Lemma misfit_jvp_value (Cs Ds : list (lfield C)) c d : tiles half Cs -> holds Cs c -> tiles half Ds -> holds Ds d ->
  misfit_jvp K N ws is0 inv units tf Out data sigma Cs Ds =
  rsum (fun q => resid c q * (re (syn (fun k => cmul (fac k) (d k)) q) * inv (sg q))) (cells_of N) * (1 + 1).
Proof.
  intros T H T2 H2. unfold misfit_jvp. rewrite (residual_spread Cs c T H).
  change (c2r_st_jvp K N ws Out (map (transfer_jvp K is0 units N tf) Ds)) with (c2r_st K N ws Out (map (transfer K is0 units N tf) Ds)).
  rewrite (model_spread Ds d T2 H2). unfold residual_jvp, over. rewrite (vals_spread sigma sg Hs As), each2_spread. apply to_scalar_jvp_spread.
Qed.

(** *** the inner product over all modes *)
Local Notation mp := (mode_product K base n).
Lemma full_fac d k : full K N half (fun k => cmul (fac k) (d k)) k = cmul (full K N half fac k) (full K N half d k).
Proof. unfold full. destruct (memb k (cells_of half)); [reflexivity|]. apply cconj_mul. Qed.
Lemma mp_fac d g : mp (fun k => cmul (fac k) (d k)) g = mp d (fun k => cmul (cconj (fac k)) (g k)).
Proof.
  unfold mode_product. apply rsum_ext. intro k. unfold full. destruct (memb k (cells_of half)); unfold cmul, cconj; cbn; ring.
Qed.
Lemma full_cotm y c k : In k (cells_of N) -> full K N half (cotm y c) k = cotm y c k.
Proof.
  intros Hk. unfold full. destruct (memb k (cells_of half)); [reflexivity|]. unfold cotm.
  rewrite (spectrum_opposite K base n ws is M) by now apply cells_valid. now rewrite cconj_mul, cconj_involutive, cconj_of.
Qed.
Lemma cot_product (v : list Z -> K) d :
  rsum (fun q => re (syn d q) * v q) (cells_of N) =
  mp d (fun k => cmul (spectrum K base n ws is v k) (cof (rprod K (sizes K N)))).
Proof.
  destruct (C44_c2r_vjp K base n ws is M (map (on_block d) Mid) Mid (map (on_block v) Out) Out d v) as (x & g & Hx & Hg & E).
  - now apply on_block_tiles.
  - apply on_block_holds.
  - now apply on_block_tiles.
  - apply on_block_holds.
  - exact TO.
  - assert (Hx2 : holds (c2r K N ws (map (on_block d) Mid) Out) (fun q => re (syn d q))).
    { apply (c2r_holds K base n ws is M); [now apply on_block_tiles|apply on_block_holds|exact TO]. }
    assert (TX : tiles N (c2r K N ws (map (on_block d) Mid) Out)) by now apply on_block_tiles.
    rewrite (rsum_ext_in K _ (fun q => x q * v q)).
    2:{ intros q Hq. f_equal. apply (holds_unique N _ _ _ TX Hx2 Hx q Hq). }
    rewrite E. unfold mode_product. apply rsum_ext_in. intros k Hk. do 3 f_equal.
    assert (Hg2 : holds (c2r_vjp K ws is (sizes K N) (map (on_block v) Out) Mid) (fun k => cmul (spectrum K base n ws is v k) (cof (rprod K (sizes K N))))).
    { unfold c2r_vjp. pose proof (r2c_holds K base n ws is (map (on_block v) Out) Mid v ltac:(now apply on_block_tiles) ltac:(apply on_block_holds)) as X.
      unfold holds in *. rewrite Forall_forall in *. intros L' HL'. apply in_map_iff in HL'. destruct HL' as (L & <- & HL). specialize (X L HL).
      unfold scale_c. cbn [lvals]. change (lcells {| lstart := lstart L; lshape := lshape L; lvals := _ |}) with (lcells L).
      rewrite X, map_map. reflexivity. }
    assert (TG : tiles half (c2r_vjp K ws is (sizes K N) (map (on_block v) Out) Mid)).
    { revert TM. apply tiles_same; unfold c2r_vjp, r2c; rewrite !map_map; reflexivity. }
    assert (V : valid_index N k) by now apply cells_valid.
    unfold full. destruct (memb k (cells_of half)) eqn:Mk.
    + apply (holds_unique half _ _ _ TG Hg Hg2). now apply memb_true.
    + f_equal. apply (holds_unique half _ _ _ TG Hg Hg2).
      assert (I : In k (cells_of N)) by exact Hk.
      apply (Permutation_in _ (half_permutation base n (base_pos K base n ws is M) (last_pos K base n ws is M))) in I.
      apply in_app_iff in I. fold half N in I. destruct I as [I|I]; [apply memb_true in I; unfold FourierProperties.half in *; congruence|].
      apply in_map_iff in I. destruct I as (q & Eq & Hq). apply filter_In in Hq. destruct Hq as [Hq _].
      unfold FourierProperties.N, FourierProperties.half in *. rewrite <- Eq, FieldProperties.opposite_involutive; [exact Hq|].
      apply (half_full K base n ws is M). exact Hq.
Qed.

(** *** steps *)
Definition stepped (t : K) (Cs Ds : list (lfield C)) : list (lfield C) := map2 (fun U D => moved_modes K (cof t) U D) Cs Ds.
Lemma stepped_facts t (Cs Ds : list (lfield C)) c d : tiles half Cs -> holds Cs c -> holds Ds d -> alike Ds Cs ->
  tiles half (stepped t Cs Ds) /\ holds (stepped t Cs Ds) (fun k => cadd (c k) (cmul (cof t) (d k))).
Proof.
  intros T H H2 [E1 E2]. split.
  - revert T. apply tiles_same; unfold stepped; clear H H2; revert Ds E1 E2;
      (induction Cs as [|U Cs IH]; intros [|D Ds] E1 E2; try discriminate E1; [reflexivity|]);
      injection E1 as E1 E1'; injection E2 as E2 E2'; rewrite map2_cons; cbn [map]; rewrite (IH Ds E1' E2'); reflexivity.
  - unfold stepped. clear T. revert Ds H2 E1 E2. induction Cs as [|U Cs IH]; intros [|D Ds] H2 E1 E2; try discriminate E1; [constructor|].
    injection E1 as E1 E1'. injection E2 as E2 E2'. inversion H as [|? ? HU HCs]; subst. inversion H2 as [|? ? HD HDs]; subst.
    rewrite map2_cons. constructor; [|now apply IH]. unfold moved_modes. cbn [lvals].
    change (lcells {| lstart := lstart U; lshape := lshape U; lvals := _ |}) with (lcells U).
    rewrite HU, HD. assert (E : lcells D = lcells U) by (unfold lcells; now rewrite E1, E2). rewrite E, map2_same. reflexivity.
Qed.
Lemma syn_step t c d q : syn (fun k => cmul (fac k) (cadd (c k) (cmul (cof t) (d k)))) q =
  cadd (syn (fun k => cmul (fac k) (c k)) q) (cmul (cof t) (syn (fun k => cmul (fac k) (d k)) q)).
Proof.
  unfold synthesis. symmetry.
  change (@radd (cpx_cring K) (rsum (K := cpx_cring K) (fun k => cmul (full K N half (fun k0 => cmul (fac k0) (c k0)) k) (chi K ws k q)) (cells_of N))
    (@rmul (cpx_cring K) (cof t) (rsum (K := cpx_cring K) (fun k => cmul (full K N half (fun k0 => cmul (fac k0) (d k0)) k) (chi K ws k q)) (cells_of N))) = 
    rsum (K := cpx_cring K) (fun k => cmul (full K N half (fun k0 => cmul (fac k0) (cadd (c k0) (cmul (cof t) (d k0)))) k) (chi K ws k q)) (cells_of N)).
  rewrite <- (rsum_scale (cpx_cring K)), <- (rsum_plus (cpx_cring K)). apply (rsum_ext (cpx_cring K)). intro k. unfold full.
  destruct (memb k (cells_of half)); cbn [radd rmul cpx_cring]; unfold cadd, cmul, cof, cconj; cbn; f_equal; ring.
Qed.
Lemma resid_step t c d q : resid (fun k => cadd (c k) (cmul (cof t) (d k))) q =
  resid c q + t * (re (syn (fun k => cmul (fac k) (d k)) q) * inv (sg q)).
Proof. unfold resid. rewrite syn_step. cbn. ring. Qed.
(** the misfit along a line: a parabola, whose slope is the inner product with the cotangent over all modes *)
Lemma misfit_line (Cs Ds : list (lfield C)) c d y : tiles half Cs -> holds Cs c -> holds Ds d -> alike Ds Cs ->
  exists p, forall t, y * misfit K N ws is0 inv units tf Out data sigma (stepped t Cs Ds) =
    y * misfit K N ws is0 inv units tf Out data sigma Cs + t * mp d (fun k => cmul (cconj (fac k)) (cotm y c k)) + t * t * p.
Proof.
  intros T H H2 A.
  exists (y * rsum (fun q => (re (syn (fun k => cmul (fac k) (d k)) q) * inv (sg q)) * (re (syn (fun k => cmul (fac k) (d k)) q) * inv (sg q))) (cells_of N)).
  intro t. destruct (stepped_facts t Cs Ds c d T H H2 A) as [T3 H3].
  rewrite (misfit_value _ _ T3 H3), (misfit_value _ _ T H).
  unfold cotm. rewrite <- mp_fac, <- cot_product. rewrite <- !rsum_scale, <- !rsum_plus. apply rsum_ext. intro q.
  rewrite resid_step. unfold cot. ring.
Qed.
Lemma misfit_slope (Cs Ds : list (lfield C)) c d y : tiles half Cs -> holds Cs c -> tiles half Ds -> holds Ds d ->
  y * misfit_jvp K N ws is0 inv units tf Out data sigma Cs Ds = mp d (fun k => cmul (cconj (fac k)) (cotm y c k)).
Proof.
  intros T H T2 H2. rewrite (misfit_jvp_value Cs Ds c d T H T2 H2). unfold cotm. rewrite <- mp_fac, <- cot_product.
  transitivity ((y * (1 + 1)) * rsum (fun q => resid c q * (re (syn (fun k => cmul (fac k) (d k)) q) * inv (sg q))) (cells_of N)); [ring|].
  rewrite <- rsum_scale. apply rsum_ext. intro q. unfold cot. ring.
Qed.

(** *** from the modes *)
Lemma decompress_holds (Us : list (lfield C)) u : tiles half Us -> holds Us u ->
  holds (decompress_st_vjp K N Us) (fun k => if idx_eqb (opposite N k) k then u k else cadd (u k) (u k)).
Proof.
  intros T H. apply Forall_forall. intros L' HL'. apply in_map_iff in HL'. destruct HL' as (L & <- & HL).
  unfold holds in H. rewrite Forall_forall in H. unfold decompress_vjp. cbn [lvals lstart lshape].
  change (lcells {| lstart := lstart L; lshape := lshape L; lvals := _ |}) with (lcells L).
  rewrite (H L HL), combine_self, map_map. apply map_ext_in. intros k Hk. cbn [fst snd].
  rewrite selfdual_opposite; [reflexivity|]. apply (stored_valid _ _ _ half_stored (tiles_cell _ _ _ _ T HL Hk)).
Qed.
(** decompress: its cotangents are right for fields that are real, if each pair of opposite modes is counted once *)
Theorem C99_decompress : forall (Us : list (lfield C)) u d Rep,
  tiles half Us -> holds Us u -> hermitian K N half u -> hermitian K N half d -> one_of_each N half Rep ->
  exists g, holds (decompress_st_vjp K N Us) g /\
    mp d u = rsum (fun k => re (cmul (cconj (g k)) (d k))) Rep.
Proof.
  intros Us u d Rep T H Hu Hd' O. exists (fun k => if idx_eqb (opposite N k) k then u k else cadd (u k) (u k)). split; [now apply decompress_holds|].
  unfold mode_product. rewrite (pairs_sum K N half Rep _ half_stored O).
  - apply rsum_ext_in. intros k Hk. pose proof (oe_stored _ _ _ O k Hk) as S. apply memb_true in S. unfold full. rewrite S.
    destruct (idx_eqb (opposite N k) k); unfold cmul, cconj, cadd; cbn; ring.
  - intros k Hk. pose proof (stored_valid _ _ _ half_stored (oe_stored _ _ _ O k Hk)) as V.
    rewrite !(full_hermitian K base n ws is M) by assumption. unfold cmul, cconj. cbn. ring.
Qed.

(** the gradient with respect to the modes *)
Theorem C99_modes : forall (Cs Ds : list (lfield C)) c d y Rep,
  tiles half Cs -> holds Cs c -> alike Mid Cs ->
  tiles half Ds -> holds Ds d -> alike Ds Cs -> hermitian K N half d ->
  (forall k, In k (cells_of half) -> In (opposite N k) (cells_of half) -> fac (opposite N k) = cconj (fac k)) ->
  one_of_each N half Rep ->
  exists g p, holds (from_modes_vjp K N ws is (sizes K N) is0 inv units tf Out Mid data sigma Cs y) g /\
    alike (from_modes_vjp K N ws is (sizes K N) is0 inv units tf Out Mid data sigma Cs y) Cs /\
    (forall t, y * from_modes K N ws is0 inv units tf Out data sigma (stepped t Cs Ds) =
       y * from_modes K N ws is0 inv units tf Out data sigma Cs + t * rsum (fun k => re (cmul (cconj (g k)) (d k))) Rep + t * t * p) /\
    y * from_modes_jvp K N ws is0 inv units tf Out data sigma Cs Ds = rsum (fun k => re (cmul (cconj (g k)) (d k))) Rep.
Proof.
  intros Cs Ds c d y Rep T H Am T2 H2 A Hh Hf O.
  pose proof (misfit_vjp_holds Cs c y T H) as G.
  assert (TG : tiles half (misfit_vjp K N ws is (sizes K N) is0 inv units tf Out Mid data sigma Cs y)).
  { revert TM. apply tiles_same; unfold misfit_vjp, c2r_st_vjp, c2r_vjp, r2c; rewrite !map_map; reflexivity. }
  assert (HG : hermitian K N half (fun k => cmul (cconj (fac k)) (cotm y c k))).
  { intros k Hk Ho. rewrite (Hf k Hk Ho). unfold cotm. rewrite (spectrum_opposite K base n ws is M) by (apply (stored_valid _ _ _ half_stored Hk)).
    unfold cmul, cconj, cof. cbn. f_equal; ring. }
  destruct (C99_decompress _ _ d Rep TG G HG Hh O) as (g & Hg & Eg).
  destruct (misfit_line Cs Ds c d y T H H2 A) as (p & Hp).
  exists g, p. split; [exact Hg|]. split; [|split].
  - destruct Am as [A1 A2]. unfold from_modes_vjp, decompress_st_vjp, misfit_vjp, c2r_st_vjp, c2r_vjp, r2c. split; rewrite !map_map; cbn; assumption.
  - intro t. unfold from_modes, decompress_st. rewrite Hp, Eg. reflexivity.
  - unfold from_modes_jvp, decompress_st, decompress_st_jvp. rewrite (misfit_slope Cs Ds c d y T H T2 H2). exact Eg.
Qed.

(** *** from the cells *)
Definition stepped_r (t : K) (Xs Ds : list (lfield K)) : list (lfield K) :=
  map2 (fun U D => mkL (lstart U) (lshape U) (map2 (fun u d => u + t * d) (lvals U) (lvals D))) Xs Ds.
Lemma stepped_r_facts t (Xs Ds : list (lfield K)) x d : tiles N Xs -> holds Xs x -> holds Ds d -> alike Ds Xs ->
  tiles N (stepped_r t Xs Ds) /\ holds (stepped_r t Xs Ds) (fun k => x k + t * d k).
Proof.
  intros T H H2 [E1 E2]. split.
  - revert T. apply tiles_same; unfold stepped_r; clear H H2; revert Ds E1 E2;
      (induction Xs as [|U Xs IH]; intros [|D Ds] E1 E2; try discriminate E1; [reflexivity|]);
      injection E1 as E1 E1'; injection E2 as E2 E2'; rewrite map2_cons; cbn [map]; rewrite (IH Ds E1' E2'); reflexivity.
  - unfold stepped_r. clear T. revert Ds H2 E1 E2. induction Xs as [|U Xs IH]; intros [|D Ds] H2 E1 E2; try discriminate E1; [constructor|].
    injection E1 as E1 E1'. injection E2 as E2 E2'. inversion H as [|? ? HU HXs]; subst. inversion H2 as [|? ? HD HDs]; subst.
    rewrite map2_cons. constructor; [|now apply IH]. cbn [lvals].
    change (lcells {| lstart := lstart U; lshape := lshape U; lvals := _ |}) with (lcells U).
    rewrite HU, HD. assert (E : lcells D = lcells U) by (unfold lcells; now rewrite E1, E2). rewrite E, map2_same. reflexivity.
Qed.
Lemma spectrum_step t x d k : spectrum K base n ws is (fun q => x q + t * d q) k =
  cadd (spectrum K base n ws is x k) (cmul (cof t) (spectrum K base n ws is d k)).
Proof.
  unfold spectrum.
  rewrite (rsum_ext (cpx_cring K) _ (fun q => @radd (cpx_cring K) (cmul (cof (x q)) (cconj (chi K ws k q))) (@rmul (cpx_cring K) (cof t) (cmul (cof (d q)) (cconj (chi K ws k q)))))).
  - rewrite (rsum_plus (cpx_cring K)), (rsum_scale (cpx_cring K)). cbn [radd rmul cpx_cring].
    unfold cadd, cmul, cof. cbn. f_equal; ring.
  - intro q. cbn [radd rmul cpx_cring]. unfold cadd, cmul, cof, cconj. cbn. f_equal; ring.
Qed.
(** the gradient with respect to the cells: no condition on the transfer function *)
Theorem C99_cells : forall (Xs Ds : list (lfield K)) x d y,
  tiles N Xs -> holds Xs x -> tiles N Ds -> holds Ds d -> alike Ds Xs ->
  exists g p, holds (from_cells_vjp K N ws is (sizes K N) is0 inv units tf Out Mid data sigma Xs y) g /\
    alike (from_cells_vjp K N ws is (sizes K N) is0 inv units tf Out Mid data sigma Xs y) Xs /\
    (forall t, y * from_cells K N ws is is0 inv units tf Out Mid data sigma (stepped_r t Xs Ds) =
       y * from_cells K N ws is is0 inv units tf Out Mid data sigma Xs + t * rsum (fun q => g q * d q) (cells_of N) + t * t * p) /\
    y * from_cells_jvp K N ws is is0 inv units tf Out Mid data sigma Xs Ds = rsum (fun q => g q * d q) (cells_of N).
Proof.
  intros Xs Ds x d y T H T2 H2 A.
  set (Cs := r2c_st K ws is Mid Xs). set (Es := r2c_st K ws is Mid Ds).
  assert (TC : tiles half Cs) by (unfold Cs, r2c_st, r2c; now apply on_block_tiles).
  assert (TE : tiles half Es) by (unfold Es, r2c_st, r2c; now apply on_block_tiles).
  assert (HC : holds Cs (spectrum K base n ws is x)) by (apply r2c_holds; assumption).
  assert (HE : holds Es (spectrum K base n ws is d)) by (apply r2c_holds; assumption).
  assert (AE : alike Es Cs) by (unfold Es, Cs, r2c_st, r2c; split; rewrite !map_map; reflexivity).
  pose proof (misfit_vjp_holds Cs _ y TC HC) as G.
  assert (TG : tiles half (misfit_vjp K N ws is (sizes K N) is0 inv units tf Out Mid data sigma Cs y)).
  { revert TM. apply tiles_same; unfold misfit_vjp, c2r_st_vjp, c2r_vjp, r2c; rewrite !map_map; reflexivity. }
  destruct (C44_r2c_vjp K base n ws is M Ds Xs _ Mid d _ T2 H2 TG G T) as (c & g & Hc & Hg & E).
  assert (Ec : mp c (fun k => cmul (cconj (fac k)) (cotm y (spectrum K base n ws is x) k)) =
               mp (spectrum K base n ws is d) (fun k => cmul (cconj (fac k)) (cotm y (spectrum K base n ws is x) k))).
  { assert (U : forall k, In k (cells_of half) -> c k = spectrum K base n ws is d k) by (intros k Hk; apply (holds_unique half _ _ _ TE Hc HE k Hk)).
    unfold mode_product. apply rsum_ext_in. intros k Hk. do 2 f_equal. unfold full. destruct (memb k (cells_of half)) eqn:Mk; [apply U; now apply memb_true|].
    f_equal. apply U. assert (I : In k (cells_of N)) by exact Hk.
    apply (Permutation_in _ (half_permutation base n (base_pos K base n ws is M) (last_pos K base n ws is M))) in I.
    apply in_app_iff in I. destruct I as [I|I]; [apply memb_true in I; unfold FourierProperties.half in *; congruence|].
    apply in_map_iff in I. destruct I as (q & Eq & Hq). apply filter_In in Hq. destruct Hq as [Hq _].
    unfold FourierProperties.N, FourierProperties.half in *. rewrite <- Eq, FieldProperties.opposite_involutive; [exact Hq|].
    apply (half_full K base n ws is M). exact Hq. }
  destruct (misfit_line Cs Es _ _ y TC HC HE AE) as (p & Hp).
  assert (Eg : mp (spectrum K base n ws is d) (fun k => cmul (cconj (fac k)) (cotm y (spectrum K base n ws is x) k)) = rsum (fun q => g q * d q) (cells_of N)).
  { rewrite <- Ec, E. apply rsum_ext. intro q. ring. }
  exists g, p. split; [exact Hg|]. split; [|split].
  - unfold from_cells_vjp, r2c_st_vjp, r2c_vjp, c2r. split; rewrite !map_map; reflexivity.
  - intro t. unfold from_cells. fold Cs. rewrite <- Eg, <- Hp. f_equal.
    destruct (stepped_r_facts t Xs Ds x d T H H2 A) as [T3 H3].
    destruct (stepped_facts t Cs Es _ _ TC HC HE AE) as [T4 H4].
    assert (T5 : tiles half (r2c_st K ws is Mid (stepped_r t Xs Ds))) by (unfold r2c_st, r2c; now apply on_block_tiles).
    assert (H5 : holds (r2c_st K ws is Mid (stepped_r t Xs Ds)) (spectrum K base n ws is (fun q => x q + t * d q))) by (apply r2c_holds; assumption).
    rewrite (misfit_value _ _ T5 H5).
    rewrite (misfit_value (stepped t Cs Es) (spectrum K base n ws is (fun q => x q + t * d q))); [reflexivity|exact T4|].
    revert H4. apply holds_ext. intros L k _ _. symmetry. apply spectrum_step.
  - unfold from_cells_jvp. fold Cs. change (r2c_st_jvp K ws is Mid Ds) with Es. rewrite (misfit_slope Cs Es _ _ y TC HC TE HE). exact Eg.
Qed.
End Chain.
Print Assumptions C99_decompress.
Print Assumptions C99_modes.
Print Assumptions C99_cells.

(** the condition on the factors, for a transfer function of the wave vector on a mesh of even axes *)
Theorem C99_factors : forall (K : cring) (is0 : K -> bool) base n units tf,
  (forall a : K, is0 a = true <-> a = r0) ->
  Forall (fun d => 0 < d /\ Z.even d = true) (N base n) -> stored_shape (N base n) (half base n) ->
  (forall q, tf (map ropp q) = cconj (tf q)) ->
  (forall k, valid_index (N base n) k -> opposite (N base n) k <> k -> existsb (fun p => (2 * snd p =? fst p)%Z) (combine (N base n) k) = true ->
     tf (wave K units (N base n) (opposite (N base n) k)) = cconj (tf (wave K units (N base n) k))) ->
  forall k, In k (cells_of (half base n)) -> In (opposite (N base n) k) (cells_of (half base n)) ->
  fac K base n is0 units tf (opposite (N base n) k) = cconj (fac K base n is0 units tf k).
Proof.
  intros K is0 base n units tf Is0 Ev St Odd Nyq k Hk Ho.
  set (L := mkL (map (fun _ => 0) (half base n)) (half base n) (map (fun _ => @c1 K) (cells_of (half base n))) : lfield (cpx K)).
  assert (EL : lcells L = cells_of (half base n)).
  { unfold lcells. cbn [lstart lshape L]. rewrite <- (map_id (cells_of (half base n))) at 2. apply map_ext_in. intros q Hq. apply cells_valid in Hq. clear -Hq.
    induction Hq as [|c j C q Hj Hq IH]; [reflexivity|]. cbn [map]. unfold zadd in *. cbn [combine map fst snd]. rewrite IH. reflexivity. }
  destruct (C82_transfer_hermitian K is0 Is0 (N base n) (half base n) units tf [L] (fun _ => c1) Ev St Odd Nyq) as (v & Hv & Hh).
  - constructor; [|constructor]. rewrite EL. reflexivity.
  - intros q _ _. symmetry. apply cconj_1.
  - pose proof (on_modes_holds K (fun i w => cmul (nyquist_mask K is0 (N base n) i (tf (wave K units (N base n) i))) w) [L] (fun _ => c1)) as X.
    assert (HX : holds [L] (fun _ => @c1 K)) by (constructor; [rewrite EL; reflexivity|constructor]).
    specialize (X HX).
    assert (E : forall q, In q (cells_of (half base n)) -> v q = fac K base n is0 units tf q).
    { intros q Hq. inversion Hv as [|? ? A _]; subst. inversion X as [|? ? B _]; subst. 
      change (lvals (transfer K is0 units (N base n) tf L)) with (lvals (on_modes K (fun i w => cmul (nyquist_mask K is0 (N base n) i (tf (wave K units (N base n) i))) w) L)) in A.
      rewrite A in B. change (lcells (transfer K is0 units (N base n) tf L)) with (lcells L) in B.
      match type of B with map _ _ = map _ (lcells ?x) => change (lcells x) with (lcells L) in B end.
      rewrite EL in B. apply ext_in_map with (a := q) in B; [|exact Hq]. rewrite B. apply cmul_1_r. }
    rewrite <- (E _ Ho), <- (E _ Hk). now apply Hh.
Qed.
Print Assumptions C99_factors.

(** ** what the conditions are for *)
Definition one_field (f : list Z -> Qcring) (shape : list Z) : list (lfield Qcring) := [mkL (map (fun _ => 0) shape) shape (map f (cells_of shape))].
Definition one_modes (f : list Z -> cpx Qcring) (shape : list Z) : list (lfield (cpx Qcring)) := [mkL (map (fun _ => 0) shape) shape (map f (cells_of shape))].
Definition qc0 (a : Qcring) : bool := Qeq_bool (this a) 0.
Definition found (Ls : list (lfield (cpx Qcring))) (k : list Z) : cpx Qcring :=
  match find (fun p => idx_eqb (fst p) k) (concat (map cells_values Ls)) with Some p => snd p | None => c0 end.
(** four cells in a row: three modes are stored, one of each pair *)
Definition four_roots : list (cpx Qcring) := [(0%Qc, 1%Qc)].
Definition four_invs : list Qcring := [Q2Qc (1#4)].
Definition wave_one (k : list Z) : cpx Qcring := if idx_eqb k [1] then (ex_q 1, ex_q 0) else c0.
Definition no_filter (q : list Qcring) : cpx Qcring := c1.
Lemma four_each : one_of_each (N [] 4) (half [] 4) [[0]; [1]; [2]].
Proof.
  constructor.
  - apply nodupb_ok. reflexivity.
  - intros k Hk. exact Hk.
  - intros k Hk. cbn in Hk. repeat destruct Hk as [<-|Hk]; try contradiction; vm_compute; tauto.
  - intros k Hk. cbn in Hk. repeat destruct Hk as [<-|Hk]; try contradiction; vm_compute; intros X; (reflexivity || (repeat destruct X as [X|X]; try discriminate X; try contradiction)).
Qed.
(** without decompress the cotangents of the modes are half of what they should be *)
Theorem C99_no_decompress_refuted :
  let Cs := one_modes wave_one [3] in let O := one_field (fun _ => ex_q 0) [4] in let sg := one_field (fun _ => ex_q 1) [4] in
  hermitian Qcring (N [] 4) (half [] 4) wave_one /\ one_of_each (N [] 4) (half [] 4) [[0]; [1]; [2]] /\
  misfit_jvp Qcring [4] four_roots qc0 (fun a => a) [ex_q 1] no_filter O O sg Cs Cs = ex_q 16 /\
  rsum (K := Qcring) (fun k => re (cmul (cconj (found (misfit_vjp Qcring [4] four_roots four_invs [ex_q 4] qc0 (fun a => a) [ex_q 1] no_filter O Cs O sg Cs (ex_q 1)) k)) (wave_one k)))
    [[0]; [1]; [2]] = ex_q 8.
Proof.
  intros Cs O sg. split; [|split; [exact four_each|split]].
  - intros k Hk. cbn in Hk. repeat destruct Hk as [<-|Hk]; try contradiction; vm_compute; intros X; repeat destruct X as [X|X]; try discriminate X; try contradiction; apply Qc_pair; reflexivity.
  - apply Qc_is_canon. vm_compute. reflexivity.
  - apply Qc_is_canon. vm_compute. reflexivity.
Qed.
Print Assumptions C99_no_decompress_refuted.

(** a transfer function for which the mask is not enough (C82_transfer_hermitian_refuted): 4 x 4 cells, the derivative
    along the last axis; the misfit does not depend on the modes [1; 2] and [3; 2] together, the cotangent says it does *)
Definition square_roots : list (cpx Qcring) := [(0%Qc, 1%Qc); (0%Qc, 1%Qc)].
Definition square_invs : list Qcring := [Q2Qc (1#4); Q2Qc (1#4)].
Definition along_q (q : list Qcring) : cpx Qcring := (ex_q 0, nth 1 q 0%Qc).
Definition nyquist_pair (k : list Z) : cpx Qcring :=
  if idx_eqb k [1; 2] then (ex_q 0, ex_q 1) else if idx_eqb k [3; 2] then (ex_q 0, ex_q (-1)) else c0.
Definition corner (x : list Z) : Qcring := if idx_eqb x [0; 0] then ex_q 1 else ex_q 0.
Definition square_each : list (list Z) := [[0; 0]; [1; 0]; [2; 0]; [0; 1]; [1; 1]; [2; 1]; [3; 1]; [0; 2]; [1; 2]; [2; 2]].
Lemma square_one_of_each : one_of_each (N [4] 4) (half [4] 4) square_each.
Proof.
  constructor.
  - apply nodupb_ok. reflexivity.
  - intros k Hk. apply memb_true. assert (A : forallb (fun k => memb k (cells_of (half [4] 4))) square_each = true) by reflexivity.
    rewrite forallb_forall in A. now apply A.
  - intros k Hk. assert (A : forallb (fun k => memb k square_each || memb (opposite (N [4] 4) k) square_each) (cells_of (N [4] 4)) = true) by reflexivity.
    rewrite forallb_forall in A. specialize (A k Hk). apply orb_true_iff in A. destruct A as [A|A]; [left|right]; now apply memb_true.
  - intros k Hk Ho. assert (A : forallb (fun k => negb (memb (opposite (N [4] 4) k) square_each) || idx_eqb (opposite (N [4] 4) k) k) square_each = true) by reflexivity.
    rewrite forallb_forall in A. specialize (A k Hk). apply memb_true in Ho. rewrite Ho in A. cbn [negb orb] in A.
    unfold idx_eqb in A. destruct (list_eq_dec _ _ _); [assumption|discriminate].
Qed.
Theorem C99_factors_refuted :
  let Cs := one_modes (fun _ => c0) [4; 3] in let Ds := one_modes nyquist_pair [4; 3] in
  let O := one_field (fun _ => ex_q 0) [4; 4] in let dt := one_field corner [4; 4] in let sg := one_field (fun _ => ex_q 1) [4; 4] in
  let g := found (from_modes_vjp Qcring [4; 4] square_roots square_invs [ex_q 4; ex_q 4] qc0 (fun a => a) [ex_q 1; ex_q 1] along_q O Cs dt sg Cs (ex_q 1)) in
  (forall q, length q = 2%nat -> along_q (map ropp q) = cconj (along_q q)) /\ one_of_each (N [4] 4) (half [4] 4) square_each /\
  from_modes_jvp Qcring [4; 4] square_roots qc0 (fun a => a) [ex_q 1; ex_q 1] along_q O dt sg Cs Ds = ex_q 0 /\
  rsum (K := Qcring) (fun k => re (cmul (cconj (g k)) (nyquist_pair k))) square_each <> ex_q 0.
Proof.
  intros Cs Ds O dt sg g. split; [|split; [exact square_one_of_each|split]].
  - intros [|a [|b [|]]] Hq; try discriminate Hq. reflexivity.
  - apply Qc_is_canon. vm_compute. reflexivity.
  - intro E. apply (f_equal this) in E. revert E. vm_compute. discriminate.
Qed.
Print Assumptions C99_factors_refuted.

(** ParticleMeshVectorSpace.dot of two complex fields is cdot, which counts a pair of opposite modes twice already: for
    this product the two rules of decompress are not adjoint *)
Theorem C99_dot_refuted : exists (Us Ds : list (lfield (cpx Zring))) a b,
  cdot Zring [4] [3] [1] None Us (decompress_st_jvp Zring Ds) = [Ret a] /\
  cdot Zring [4] [3] [1] None (decompress_st_vjp Zring [4] Us) Ds = [Ret b] /\ re a = 2 /\ re b = 4.
Proof.
  exists [mkL [0] [3] [(0, 0); (1, 0); (0, 0)]], [mkL [0] [3] [(0, 0); (1, 0); (0, 0)]]. eexists. eexists.
  split; [reflexivity|]. split; [reflexivity|]. split; reflexivity.
Qed.
Print Assumptions C99_dot_refuted.

(** ** concrete cases *)
(** 4 x 2 cells on two ranks, a filter that is not constant, data and errors that are not constant *)
Definition smooth (q : list Qcring) : cpx Qcring := match q with [a; b] => (ex_q 3 + a * a, a * a * a - a * ex_q 4)%Qc | _ => c0 end.
Definition ex_each : list (list Z) := [[0; 0]; [1; 0]; [2; 0]; [0; 1]; [1; 1]; [2; 1]].
Definition ex_data : list (lfield Qcring) := map (on_block (fun x => ex_q (match x with [a; b] => a - b + 2 | _ => 0 end))) ex_out.
Definition ex_sigma : list (lfield Qcring) := map (on_block (fun x => ex_q (match x with [a; b] => a + 1 | _ => 0 end))) ex_out.
Definition ex_modes_c : list (lfield (cpx Qcring)) := map (on_block (fun k => (ex_q (match k with [a; b] => a + b | _ => 0 end), ex_q 1))) ex_mid.
Definition ex_step (k : list Z) : cpx Qcring :=
  match k with [1; 0] => (ex_q 2, ex_q 5) | [3; 0] => (ex_q 2, ex_q (-5)) | [2; 1] => (ex_q 7, ex_q 0) | _ => c0 end.
Definition ex_modes_d : list (lfield (cpx Qcring)) := map (on_block ex_step) ex_mid.
Lemma ex_one_of_each : one_of_each (N [4] 2) (half [4] 2) ex_each.
Proof.
  constructor.
  - apply nodupb_ok. reflexivity.
  - intros k Hk. apply memb_true. assert (A : forallb (fun k => memb k (cells_of (half [4] 2))) ex_each = true) by reflexivity.
    rewrite forallb_forall in A. now apply A.
  - intros k Hk. assert (A : forallb (fun k => memb k ex_each || memb (opposite (N [4] 2) k) ex_each) (cells_of (N [4] 2)) = true) by reflexivity.
    rewrite forallb_forall in A. specialize (A k Hk). apply orb_true_iff in A. destruct A as [A|A]; [left|right]; now apply memb_true.
  - intros k Hk Ho. assert (A : forallb (fun k => negb (memb (opposite (N [4] 2) k) ex_each) || idx_eqb (opposite (N [4] 2) k) k) ex_each = true) by reflexivity.
    rewrite forallb_forall in A. specialize (A k Hk). apply memb_true in Ho. rewrite Ho in A. cbn [negb orb] in A.
    unfold idx_eqb in A. destruct (list_eq_dec _ _ _); [assumption|discriminate].
Qed.
Lemma qc0_spec (a : Qcring) : qc0 a = true <-> a = r0.
Proof. unfold qc0. rewrite Qeq_bool_iff. split; [intro E; apply Qc_is_canon; exact E|intros ->; reflexivity]. Qed.
Lemma modes_check {P : list Z -> Prop} (l : list (list Z)) : Forall P l -> forall k, In k l -> P k.
Proof. now rewrite Forall_forall. Qed.
Lemma ex_step_hermitian : hermitian Qcring (N [4] 2) (half [4] 2) ex_step.
Proof.
  unfold hermitian. apply (modes_check (P := fun k => In (opposite (N [4] 2) k) (cells_of (half [4] 2)) -> ex_step (opposite (N [4] 2) k) = cconj (ex_step k))).
  vm_compute cells_of. repeat constructor; intros _; apply Qc_pair; vm_compute; reflexivity.
Qed.
Example C99_case :
  exists g p, holds (from_modes_vjp Qcring (N [4] 2) ex_roots ex_invs (sizes Qcring (N [4] 2)) qc0 Qcinv [ex_q 1; ex_q 1] smooth ex_out ex_mid ex_data ex_sigma ex_modes_c (ex_q 1)) g /\
    alike (from_modes_vjp Qcring (N [4] 2) ex_roots ex_invs (sizes Qcring (N [4] 2)) qc0 Qcinv [ex_q 1; ex_q 1] smooth ex_out ex_mid ex_data ex_sigma ex_modes_c (ex_q 1)) ex_modes_c /\
    (forall t : Qcring, rmul (ex_q 1) (from_modes Qcring (N [4] 2) ex_roots qc0 Qcinv [ex_q 1; ex_q 1] smooth ex_out ex_data ex_sigma (stepped Qcring t ex_modes_c ex_modes_d)) =
       radd (radd (rmul (ex_q 1) (from_modes Qcring (N [4] 2) ex_roots qc0 Qcinv [ex_q 1; ex_q 1] smooth ex_out ex_data ex_sigma ex_modes_c))
            (rmul t (rsum (K := Qcring) (fun k => re (cmul (cconj (g k)) (ex_step k))) ex_each))) (rmul (rmul t t) p)) /\
    rmul (ex_q 1) (from_modes_jvp Qcring (N [4] 2) ex_roots qc0 Qcinv [ex_q 1; ex_q 1] smooth ex_out ex_data ex_sigma ex_modes_c ex_modes_d) =
      rsum (K := Qcring) (fun k => re (cmul (cconj (g k)) (ex_step k))) ex_each.
Proof.
  apply (C99_modes Qcring [4] 2 ex_roots ex_invs ex_mesh_roots qc0 Qcinv [ex_q 1; ex_q 1] smooth qc0_spec ex_out ex_mid ex_data ex_sigma
    (fun x => ex_q (match x with [a; b] => a - b + 2 | _ => 0 end)) (fun x => ex_q (match x with [a; b] => a + 1 | _ => 0 end))
    ex_out_tiles ex_mid_tiles) with (c := fun k => (ex_q (match k with [a; b] => a + b | _ => 0 end), ex_q 1)).
  - apply on_block_holds.
  - apply on_block_alike.
  - apply on_block_holds.
  - apply on_block_alike.
  - apply on_block_tiles, ex_mid_tiles.
  - apply on_block_holds.
  - split; reflexivity.
  - apply on_block_tiles, ex_mid_tiles.
  - apply on_block_holds.
  - split; reflexivity.
  - exact ex_step_hermitian.
  - apply (modes_check (P := fun k => In (opposite (N [4] 2) k) (cells_of (half [4] 2)) ->
      fac Qcring [4] 2 qc0 [ex_q 1; ex_q 1] smooth (opposite (N [4] 2) k) = cconj (fac Qcring [4] 2 qc0 [ex_q 1; ex_q 1] smooth k))).
    vm_compute cells_of. repeat constructor; intros _; apply Qc_pair; vm_compute; reflexivity.
  - exact ex_one_of_each.
Qed.
(** the slope of this case, computed with the tangents and with the cotangents *)
Example C99_value :
  this (from_modes_jvp Qcring (N [4] 2) ex_roots qc0 Qcinv [ex_q 1; ex_q 1] smooth ex_out ex_data ex_sigma ex_modes_c ex_modes_d) = (1082857 # 72)%Q /\
  (1082857 # 72)%Q =
  this (rsum (K := Qcring) (fun k => re (cmul (cconj (found (from_modes_vjp Qcring (N [4] 2) ex_roots ex_invs (sizes Qcring (N [4] 2)) qc0 Qcinv [ex_q 1; ex_q 1] smooth
    ex_out ex_mid ex_data ex_sigma ex_modes_c (ex_q 1)) k)) (ex_step k))) ex_each).
Proof. split; vm_compute; reflexivity. Qed.
