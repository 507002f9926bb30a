(** Property C44: the transforms are inverse to each other, adjoint, and
    normalised (pmesh/pm.py:655-694, 865-870, 987-1026). *)
From Coq Require Import List Arith ZArith QArith Lia Bool Permutation Ring Qcanon.
From Verif Require Import Base ListFacts LayoutModel WrapModel WrapProofs DomainModel DomainFill MeshModel MeshAssign
  MeshRoute MeshTile RingModel FieldModel FieldFacts FieldProperties FieldSort FieldResample FieldNorm FourierModel FourierFacts.
Import ListNotations.
Local Close Scope Q_scope.
Local Open Scope Z_scope.

Lemma holds_unique {V} shape (Ls : list (lfield V)) f g : tiles shape Ls -> holds Ls f -> holds Ls g ->
  forall k, In k (cells_of shape) -> f k = g k.
Proof.
  intros T F G k Hk. apply (Permutation_in _ (Permutation_sym (tl_perm _ _ T))) in Hk. apply in_flat_map in Hk.
  destruct Hk as (L & HL & Hk). unfold holds in *. rewrite Forall_forall in F, G. specialize (F L HL). rewrite (G L HL) in F.
  clear - F Hk. induction (lcells L) as [|q l IH]; [destruct Hk|]. injection F as E F. destruct Hk as [->|Hk]; [now symmetry|auto].
Qed.

Section Transforms.
Variable K : cring.
Add Ring Kr : (rth K).
Local Notation C := (cpx K).
Local Notation CC := (cpx_cring K).
Local Notation csum := (rsum (K := cpx_cring K)).

(** any shape of at least one axis, of any size *)
Variables (base : list Z) (n : Z).
Definition N : list Z := base ++ [n].
Definition half : list Z := base ++ [n / 2 + 1].
Variables (ws : list C) (is : list K).
Hypothesis M : mesh_roots K N ws is.

Lemma N_pos : Forall (fun d => 0 < d) N.
Proof. exact (mesh_roots_pos K _ _ _ M). Qed.
Lemma base_pos : Forall (fun d => 0 < d) base.
Proof. pose proof N_pos as P. apply Forall_app in P. tauto. Qed.
Lemma last_pos : 0 < n.
Proof. pose proof N_pos as P. apply Forall_app in P. destruct P as [_ P]. now inversion P. Qed.

Lemma half_full k : In k (cells_of half) -> valid_index N k.
Proof.
  pose proof last_pos as Hn. destruct (half_any n) as (h & Ed & Eh). unfold half, N. rewrite Ed.
  intros Hk. apply cells_valid, valid_snoc in Hk. destruct Hk as (k' & j & -> & V & Hj). apply valid_snoc. exists k', j.
  repeat split; auto; lia.
Qed.

(** the transform of a real field at every mode *)
Definition spectrum (f : list Z -> K) (k : list Z) : C :=
  cmul (csum (fun x => cmul (cof (f x)) (cconj (chi K ws k x))) (cells_of N)) (cof (rprod K is)).

Lemma spectrum_opposite f k : valid_index N k -> spectrum f (opposite N k) = cconj (spectrum f k).
Proof.
  intros Vk. unfold spectrum. rewrite cconj_mul, cconj_of, cconj_rsum. f_equal. apply rsum_ext_in. intros x Hx.
  rewrite (chi_opposite K N ws is M k x Vk) by now apply cells_valid. now rewrite cconj_mul, cconj_of.
Qed.
Lemma full_spectrum f k : In k (cells_of N) -> full K N half (spectrum f) k = spectrum f k.
Proof.
  intros Hk. unfold full. destruct (memb k (cells_of half)); [reflexivity|].
  rewrite spectrum_opposite by now apply cells_valid. apply cconj_involutive.
Qed.

Lemma r2c_holds (Ls : list (lfield K)) (Mid : list (lfield C)) f : tiles N Ls -> holds Ls f ->
  holds (r2c K ws is Ls Mid) (spectrum f).
Proof.
  intros T H. unfold r2c. eapply holds_ext; [|apply on_block_holds]. intros L k _ _. unfold spectrum.
  now rewrite (forward_sum K N _ _ ws k (as_complex_tiles K N Ls T) (as_complex_holds K Ls f H)).
Qed.

(** the backward transform of a compressed array: the real part of the sum over all modes *)
Definition synthesis (c : list Z -> C) (x : list Z) : C :=
  csum (fun k => cmul (full K N half c k) (chi K ws k x)) (cells_of N).

Lemma c2r_synthesis (Ls : list (lfield C)) c x : tiles half Ls -> holds Ls c -> valid_index N x ->
  dft_c2r K N ws Ls x = re (synthesis c x).
Proof.
  intros T H Vx. unfold dft_c2r, synthesis.
  rewrite (world_sum K half Ls c (fun k v => c2r_weight K N k (cmul v (chi K ws k x))) T H).
  rewrite (rsum_perm CC _ _ _ (half_permutation base n base_pos last_pos)).
  rewrite rsum_app, rsum_map, rsum_filter, <- rsum_plus. rewrite !re_rsum. apply rsum_ext_in. intros k Hk.
  assert (Fk : full K N half c k = c k).
  { unfold full. assert (Mk : memb k (cells_of half) = true) by now apply memb_true. now rewrite Mk. }
  fold N. rewrite Fk. unfold c2r_weight, interior.
  assert (El : last N 0 = n) by apply last_last. rewrite El.
  destruct (Z.eqb_spec (last k 0) 0) as [E0|E0]; cbn [orb negb andb]; [cbn; ring|].
  destruct (Z.eqb_spec (2 * last k 0) n) as [E1|E1]; cbn [orb negb andb]; [cbn; ring|].
  pose proof (half_full k Hk) as Vk.
  assert (NS : memb (opposite N k) (cells_of half) = false).
  { destruct (memb (opposite N k) (cells_of half)) eqn:Mm; [|reflexivity]. exfalso. apply memb_true in Mm.
    unfold half in Hk, Mm. apply cells_valid, valid_snoc in Hk. destruct Hk as (k' & j & -> & V & Hj). rewrite last_last in *.
    unfold N in Mm. rewrite opposite_snoc in Mm by (apply cells_dim, cells_valid, V).
    apply cells_valid, valid_snoc in Mm. destruct Mm as (k2 & j2 & E & _ & Hj2).
    apply app_inj_tail in E. destruct E as [_ E]. pose proof last_pos. destruct (half_any n) as (h & Ed & Eh).
    rewrite (neg_mod n) in E by lia. lia. }
  unfold full. rewrite NS, opposite_involutive by exact Vk.
  rewrite (chi_opposite K N ws is M k x Vk Vx). cbn. ring.
Qed.

Lemma chi_zeros (vs : list C) (l x : list Z) : chi K vs (map (fun _ => 0) l) x = c1.
Proof.
  revert vs x. induction l as [|d l IH]; intros [|w vs] [|a x]; try reflexivity.
  cbn [map chi]. rewrite IH. cbn. apply cmul_1_l.
Qed.

(** ** C44 *)
(** c2r (r2c x) = x on every triple of partitions *)
Theorem C44_c2r_r2c : forall (Ls Out : list (lfield K)) (Mid : list (lfield C)) f,
  tiles N Ls -> holds Ls f -> tiles half Mid -> tiles N Out ->
  holds (c2r K N ws (r2c K ws is Ls Mid) Out) f.
Proof.
  intros Ls Out Mid f T H TM TO. unfold c2r. eapply holds_ext; [|apply on_block_holds].
  intros L y HL Hy.
  assert (Vy : valid_index N y).
  { apply cells_valid. apply (tiles_cell N (map (on_block (dft_c2r K N ws (r2c K ws is Ls Mid))) Out) L); auto. now apply on_block_tiles. }
  rewrite (c2r_synthesis _ (spectrum f) y) by (try apply r2c_holds; try apply on_block_tiles; assumption).
  unfold synthesis. rewrite (rsum_ext_in CC _ (fun k => cmul (cof (rprod K is))
     (cmul (csum (fun x => cmul (cof (f x)) (cconj (chi K ws k x))) (cells_of N)) (chi K ws k y)))).
  - rewrite csum_scale, (inversion K N ws is (fun x => cof (f x)) y M Vy).
    pose proof (inv_sizes K N ws is M) as I. unfold cmul, cof. cbn.
    transitivity (rmul (f y) (rmul (rprod K is) (rprod K (sizes K N)))); [ring|]. rewrite I. ring.
  - intros k Hk. rewrite full_spectrum by exact Hk. unfold spectrum. rewrite (cmul_comm K _ (cof _)).
    now rewrite <- cmul_assoc.
Qed.

(** the zero mode is the mean *)
Theorem C44_zero_mode : forall (Ls : list (lfield K)) (Mid : list (lfield C)) f,
  tiles N Ls -> holds Ls f ->
  exists c, holds (r2c K ws is Ls Mid) c /\
    c (map (fun _ => 0) N) = cof (rmul (rsum f (cells_of N)) (rprod K is)).
Proof.
  intros Ls Mid f T H. exists (spectrum f). split; [now apply r2c_holds|]. unfold spectrum.
  rewrite (rsum_ext CC _ (fun x => cof (f x))).
  - assert (E : csum (fun x => cof (f x)) (cells_of N) = cof (rsum f (cells_of N))).
    { generalize (cells_of N). intros l. induction l as [|x l IH]; [reflexivity|]. rewrite !rsum_cons, IH.
      unfold cof. cbn. unfold cadd. cbn. f_equal. ring. }
    rewrite E. unfold cmul, cof. cbn. f_equal; ring.
  - intros x. assert (E : chi K ws (map (fun _ => 0) N) x = c1).
    { apply chi_zeros. }
    rewrite E, cconj_1. apply cmul_1_r.
Qed.

(** ** Hermitian arrays *)
(** no 2-torsion: true of the real numbers *)
Hypothesis two : forall a : K, radd a a = r0 -> a = r0.
Lemma real_of_conj (z : C) : cconj z = z -> z = cof (re z).
Proof.
  destruct z as [a b]. unfold cconj, cof. cbn. intros E. injection E as E. f_equal. apply two.
  rewrite <- E at 1. ring.
Qed.
Lemma full_hermitian c k : hermitian K N half c -> valid_index N k ->
  full K N half c (opposite N k) = cconj (full K N half c k).
Proof.
  intros Hc Vk. unfold full. destruct (memb k (cells_of half)) eqn:M1, (memb (opposite N k) (cells_of half)) eqn:M2.
  - apply memb_true in M1, M2. now apply Hc.
  - now rewrite (opposite_involutive N k Vk).
  - now rewrite cconj_involutive.
  - exfalso.
    assert (I : In k (cells_of N)) by now apply cells_valid.
    apply (Permutation_in _ (half_permutation base n base_pos last_pos)) in I. apply in_app_iff in I. fold half N in I.
    destruct I as [I|I]; [apply memb_true in I; congruence|].
    apply in_map_iff in I. destruct I as (q & Eq & Hq). apply filter_In in Hq. destruct Hq as [Hq _].
    rewrite <- Eq, (opposite_involutive N q (half_full q Hq)) in M2. apply memb_true in Hq. congruence.
Qed.
Lemma synthesis_real c x : hermitian K N half c -> valid_index N x -> synthesis c x = cof (re (synthesis c x)).
Proof.
  intros Hc Vx. apply real_of_conj. unfold synthesis. rewrite cconj_rsum.
  rewrite (rsum_involution CC (list_eq_dec Z.eq_dec) (opposite N) (fun k => cmul (full K N half c k) (chi K ws k x)) _ (cells_of_NoDup N)).
  - apply (rsum_ext_in CC). intros k Hk. apply cells_valid in Hk.
    rewrite (full_hermitian c k Hc Hk), (chi_opposite K N ws is M k x Hk Vx). apply cconj_mul.
  - intros k Hk. apply cells_valid. apply opposite_valid; [exact N_pos|now apply cells_valid].
  - intros k Hk. apply opposite_involutive. now apply cells_valid.
Qed.

Lemma c2r_holds (Ls : list (lfield C)) (Out : list (lfield K)) c : tiles half Ls -> holds Ls c -> tiles N Out ->
  holds (c2r K N ws Ls Out) (fun x => re (synthesis c x)).
Proof.
  intros T H TO. unfold c2r. eapply holds_ext; [|apply on_block_holds].
  intros L y HL Hy. apply c2r_synthesis; auto. apply cells_valid.
  apply (tiles_cell N (map (on_block (dft_c2r K N ws Ls)) Out) L); auto. now apply on_block_tiles.
Qed.

(** r2c (c2r c) = c if the array obeys the reality condition *)
Theorem C44_r2c_c2r : forall (Ls Mid : list (lfield C)) (Tmp : list (lfield K)) c,
  tiles half Ls -> holds Ls c -> hermitian K N half c -> tiles N Tmp -> tiles half Mid ->
  holds (r2c K ws is (c2r K N ws Ls Tmp) Mid) c.
Proof.
  intros Ls Mid Tmp c T H Hc TT TM.
  eapply holds_ext; [|apply (r2c_holds _ Mid (fun x => re (synthesis c x)))];
    [|now apply on_block_tiles|now apply c2r_holds].
  intros L j HL Hj.
  assert (Sj : In j (cells_of half)).
  { apply (tiles_cell half (r2c K ws is (c2r K N ws Ls Tmp) Mid) L); auto. now apply on_block_tiles. }
  unfold spectrum.
  rewrite (rsum_ext_in CC _ (fun x => cmul (csum (fun k => cmul (full K N half c k) (chi K ws k x)) (cells_of N)) (cconj (chi K ws j x)))).
  - rewrite (inversion' K N ws is (full K N half c) j M (half_full j Sj)).
    unfold full at 1. assert (Mj : memb j (cells_of half) = true) by now apply memb_true. rewrite Mj.
    pose proof (inv_sizes K N ws is M) as I. rewrite <- cmul_assoc.
    assert (E : cmul (cof (rprod K (sizes K N))) (cof (rprod K is)) = c1).
    { unfold cmul, cof, c1. cbn. f_equal; [|ring]. rewrite <- I. ring. }
    rewrite E. apply cmul_1_r.
  - intros x Hx. f_equal. symmetry. apply synthesis_real; [exact Hc|now apply cells_valid].
Qed.

(** so a cast between the two complex types keeps the field (pm.py:470-473) *)
Theorem C44_cast : forall (Ls Out : list (lfield C)) (Tmp : list (lfield K)) c,
  tiles half Ls -> holds Ls c -> hermitian K N half c -> tiles N Tmp -> tiles half Out ->
  holds (cast_complex K N ws is Ls Tmp Out) c /\
  map lstart (cast_complex K N ws is Ls Tmp Out) = map lstart Out /\
  map lshape (cast_complex K N ws is Ls Tmp Out) = map lshape Out.
Proof.
  intros Ls Out Tmp c T H Hc TT TO. split; [now apply C44_r2c_c2r|]. unfold cast_complex, r2c. rewrite !map_map. split; reflexivity.
Qed.

(** ** adjoints: the inner product of complex fields is that over all modes *)
Definition mode_product (a b : list Z -> C) : K :=
  rsum (fun k => re (cmul (full K N half a k) (cconj (full K N half b k)))) (cells_of N).

Lemma rsum_re_swap (v : list Z -> K) (a : list Z -> C) :
  rsum (fun x => rmul (v x) (re (csum (fun k => cmul (a k) (chi K ws k x)) (cells_of N)))) (cells_of N) =
  rsum (fun k => re (cmul (a k) (cconj (csum (fun x => cmul (cof (v x)) (cconj (chi K ws k x))) (cells_of N))))) (cells_of N).
Proof.
  rewrite (rsum_ext K _ (fun x => rsum (fun k => rmul (v x) (re (cmul (a k) (chi K ws k x)))) (cells_of N))).
  2:{ intros x. now rewrite re_rsum, rsum_scale. }
  rewrite (rsum_swap K). apply rsum_ext. intros k. rewrite cconj_rsum, <- csum_scale, re_rsum. apply rsum_ext. intros x. cbn. ring.
Qed.

(** c2r_vjp is the adjoint of c2r *)
Theorem C44_c2r_vjp : forall (Ls Mid : list (lfield C)) (V Out : list (lfield K)) c v,
  tiles half Ls -> holds Ls c -> tiles N V -> holds V v -> tiles N Out ->
  exists x g, holds (c2r K N ws Ls Out) x /\ holds (c2r_vjp K ws is (sizes K N) V Mid) g /\
    rsum (fun q => rmul (x q) (v q)) (cells_of N) = mode_product c g.
Proof.
  intros Ls Mid V Out c v T H TV HV TO.
  set (g := fun k => cmul (spectrum v k) (cof (rprod K (sizes K N)))).
  exists (fun q => re (synthesis c q)), g. split; [now apply c2r_holds|]. split.
  - pose proof (r2c_holds V Mid v TV HV) as Hr. unfold c2r_vjp. unfold holds in *. rewrite Forall_forall in *.
    intros L' HL'. apply in_map_iff in HL'. destruct HL' as (L & <- & HL). specialize (Hr L HL).
    unfold scale_c. cbn [lvals]. change (lcells {| lstart := lstart L; lshape := lshape L; lvals := _ |}) with (lcells L).
    rewrite Hr, map_map. reflexivity.
  - unfold mode_product. rewrite (rsum_ext K _ (fun q => rmul (v q) (re (synthesis c q)))) by (intros q; ring).
    unfold synthesis. rewrite rsum_re_swap. apply rsum_ext_in. intros k Hk. do 3 f_equal.
    assert (Fg : full K N half g k = g k).
    { unfold full. destruct (memb k (cells_of half)); [reflexivity|]. unfold g.
      rewrite spectrum_opposite by now apply cells_valid. now rewrite cconj_mul, cconj_involutive, cconj_of. }
    rewrite Fg. unfold g, spectrum. rewrite <- cmul_assoc.
    assert (E : cmul (cof (rprod K is)) (cof (rprod K (sizes K N))) = c1).
    { pose proof (inv_sizes K N ws is M) as I. unfold cmul, cof, c1. cbn. f_equal; [|ring]. rewrite <- I. ring. }
    rewrite E. now rewrite cmul_1_r.
Qed.

(** r2c_vjp is the adjoint of r2c *)
Theorem C44_r2c_vjp : forall (Ls Out : list (lfield K)) (V Mid : list (lfield C)) f v,
  tiles N Ls -> holds Ls f -> tiles half V -> holds V v -> tiles N Out ->
  exists c g, holds (r2c K ws is Ls Mid) c /\ holds (r2c_vjp K N ws is V Out) g /\
    mode_product c v = rsum (fun q => rmul (f q) (g q)) (cells_of N).
Proof.
  intros Ls Out V Mid f v T H TV HV TO.
  exists (spectrum f), (fun q => rmul (re (synthesis v q)) (rprod K is)). split; [now apply r2c_holds|]. split.
  - pose proof (c2r_holds V Out v TV HV TO) as Hr. unfold r2c_vjp. unfold holds in *. rewrite Forall_forall in *.
    intros L' HL'. apply in_map_iff in HL'. destruct HL' as (L & <- & HL). specialize (Hr L HL).
    unfold scale_r. cbn [lvals]. change (lcells {| lstart := lstart L; lshape := lshape L; lvals := _ |}) with (lcells L).
    rewrite Hr, map_map. reflexivity.
  - rewrite (rsum_ext K _ (fun q => rmul (rprod K is) (rmul (f q) (re (synthesis v q))))) by (intros q; ring).
    rewrite rsum_scale. unfold synthesis. rewrite rsum_re_swap, <- rsum_scale. unfold mode_product. apply rsum_ext_in. intros k Hk.
    rewrite full_spectrum by exact Hk. unfold spectrum. cbn. ring.
Qed.

(** the inner product of complex fields is that of the real fields divided by the
    number of cells, as the documentation of cdot says (pm.py:948) *)
Theorem C44_plancherel : forall (As Bs : list (lfield C)) (XA XB : list (lfield K)) a b,
  tiles half As -> holds As a -> tiles half Bs -> holds Bs b -> hermitian K N half b -> tiles N XA -> tiles N XB ->
  exists x y, holds (c2r K N ws As XA) x /\ holds (c2r K N ws Bs XB) y /\
    rsum (fun q => rmul (x q) (y q)) (cells_of N) = rmul (rprod K (sizes K N)) (mode_product a b).
Proof.
  intros As Bs XA XB a b TA HA TB HB Hb TXA TXB.
  exists (fun q => re (synthesis a q)), (fun q => re (synthesis b q)).
  split; [now apply c2r_holds|]. split; [now apply c2r_holds|].
  rewrite (rsum_ext K _ (fun q => rmul (re (synthesis b q)) (re (synthesis a q)))) by (intros q; ring).
  unfold synthesis at 2. rewrite rsum_re_swap. unfold mode_product. rewrite <- rsum_scale. apply rsum_ext_in. intros k Hk.
  assert (E : csum (fun x => cmul (cof (re (synthesis b x))) (cconj (chi K ws k x))) (cells_of N) =
              cmul (full K N half b k) (cof (rprod K (sizes K N)))).
  { rewrite <- (inversion' K N ws is (full K N half b) k M) by now apply cells_valid.
    apply rsum_ext_in. intros x Hx. rewrite <- synthesis_real by (auto; now apply cells_valid). reflexivity. }
  rewrite E. cbn. ring.
Qed.

(** ** complex dtype *)
Theorem C44_complex_inverse : forall (Ls Mid Out : list (lfield C)) f,
  tiles N Ls -> holds Ls f -> tiles N Mid -> tiles N Out ->
  holds (c2r_c K ws (r2c_c K ws is Ls Mid) Out) f /\ holds (r2c_c K ws is (c2r_c K ws Ls Mid) Out) f.
Proof.
  intros Ls Mid Out f T H TM TO. pose proof (inv_sizes K N ws is M) as I.
  assert (E : cmul (cof (rprod K (sizes K N))) (cof (rprod K is)) = c1).
  { unfold cmul, cof, c1. cbn. f_equal; [|ring]. rewrite <- I. ring. }
  split.
  - unfold c2r_c. eapply holds_ext; [|apply on_block_holds]. intros L y HL Hy.
    assert (Vy : valid_index N y).
    { apply cells_valid, (tiles_cell N (map (on_block (dft_backward K ws (r2c_c K ws is Ls Mid))) Out) L); auto. now apply on_block_tiles. }
    rewrite (backward_sum K N _ (fun k => cmul (dft_forward K ws Ls k) (cof (rprod K is))) ws y)
      by (try apply on_block_holds; now apply on_block_tiles).
    rewrite (rsum_ext CC _ (fun k => cmul (cof (rprod K is)) (cmul (csum (fun x => cmul (f x) (cconj (chi K ws k x))) (cells_of N)) (chi K ws k y)))).
    + rewrite csum_scale, (inversion K N ws is f y M Vy), cmul_comm, <- cmul_assoc, E. apply cmul_1_r.
    + intros k. rewrite (forward_sum K N Ls f ws k T H), (cmul_comm K _ (cof _)). now rewrite <- cmul_assoc.
  - unfold r2c_c. eapply holds_ext; [|apply on_block_holds]. intros L j HL Hj.
    assert (Vj : valid_index N j).
    { apply cells_valid, (tiles_cell N (map (on_block (fun k => cmul (dft_forward K ws (c2r_c K ws Ls Mid) k) (cof (rprod K is)))) Out) L); auto.
      now apply on_block_tiles. }
    cbv beta. rewrite (forward_sum K N _ (dft_backward K ws Ls) ws j) by (try apply on_block_holds; now apply on_block_tiles).
    rewrite (rsum_ext CC _ (fun x => cmul (csum (fun k => cmul (f k) (chi K ws k x)) (cells_of N)) (cconj (chi K ws j x)))).
    + rewrite (inversion' K N ws is f j M Vj), <- cmul_assoc, E. apply cmul_1_r.
    + intros x. now rewrite (backward_sum K N Ls f ws x T H).
Qed.

(** ** C59 *)
Lemma real_cdot_holds (As Bs : list (lfield K)) x y : tiles N As -> holds As x -> holds Bs y ->
  map lstart Bs = map lstart As -> map lshape Bs = map lshape As ->
  real_cdot K As Bs = map (fun _ => Ret (rsum (fun q => rmul (x q) (y q)) (cells_of N))) As.
Proof.
  intros T HA HB E1 E2. unfold real_cdot. apply map_ext. intros _. f_equal.
  rewrite <- (tiles_sum K N As (fun q => rmul (x q) (y q)) T). clear T.
  revert Bs HB E1 E2. induction As as [|L As IH]; intros [|M' Bs] HB E1 E2; try discriminate E1; [reflexivity|].
  cbn [combine]. rewrite !rsum_cons. inversion HA as [|? ? HL HLs]; subst. inversion HB as [|? ? HM HMs]; subst.
  injection E1 as E1 E1'. injection E2 as E2 E2'. rewrite (IH HLs Bs HMs E1' E2'). f_equal. cbn [fst snd].
  assert (Ec : lcells M' = lcells L) by (unfold lcells; now rewrite E1, E2).
  rewrite HL, HM, Ec, combine_map_map, rsum_map. reflexivity.
Qed.

(** the real part of cdot is c2r().cdot(other.c2r()) / Nmesh.prod(), as documented
    (pm.py:948), on a mesh of even last axis *)
Theorem C59_cdot : forall (As Bs : list (lfield C)) (X : list (lfield K)) a b units,
  Z.even n = true ->
  tiles half As -> holds As a -> tiles half Bs -> holds Bs b -> hermitian K N half b -> tiles N X ->
  map lstart Bs = map lstart As -> map lshape Bs = map lshape As ->
  exists v w, cdot K N half units None As Bs = map (fun _ => Ret v) As /\
    real_cdot K (c2r K N ws As X) (c2r K N ws Bs X) = map (fun _ => Ret w) X /\
    rmul w (rprod K is) = re v.
Proof.
  intros As Bs X a b units Ev TA HA TB HB Hb TX E1 E2.
  destruct (C42_cdot K base n true base_pos last_pos Ev As Bs a b units None (or_introl eq_refl) TA HA TB HB E1 E2) as (v & Ev1 & Ev2).
  exists v, (rsum (fun q => rmul (re (synthesis a q)) (re (synthesis b q))) (cells_of N)).
  split; [exact Ev1|]. split.
  - rewrite (real_cdot_holds _ _ (fun q => re (synthesis a q)) (fun q => re (synthesis b q)));
      try (apply c2r_holds; assumption); try (now apply on_block_tiles); try (unfold c2r; now rewrite !map_map).
  - destruct (C44_plancherel As Bs X X a b TA HA TB HB Hb TX TX) as (x & y & Hx & Hy & P).
    assert (Ex : forall q, In q (cells_of N) -> x q = re (synthesis a q)).
    { intros q Hq. apply (holds_unique N (c2r K N ws As X) x (fun q => re (synthesis a q))); auto; [now apply on_block_tiles|now apply c2r_holds]. }
    assert (Ey : forall q, In q (cells_of N) -> y q = re (synthesis b q)).
    { intros q Hq. apply (holds_unique N (c2r K N ws Bs X) y (fun q => re (synthesis b q))); auto; [now apply on_block_tiles|now apply c2r_holds]. }
    rewrite <- (rsum_ext_in K (fun q => rmul (x q) (y q))) by (intros q Hq; now rewrite Ex, Ey by assumption).
    rewrite P, Ev2. transitivity (rmul (mode_product a b) (rmul (rprod K is) (rprod K (sizes K N)))); [ring|].
    rewrite (inv_sizes K N ws is M). unfold mode_product. rewrite re_rsum.
    change (nmesh base n) with N. change (stored base n true) with half. assert (R1 : forall t : K, rmul t r1 = t) by (intros; ring). rewrite R1. apply rsum_ext.
    intros k. unfold weigh. cbn. ring.
Qed.
End Transforms.

(** ** a concrete case: 4 x 2 cells over the rationals, roots i and -1, two ranks *)
Definition Qcring : cring := mkRing Qc 0%Qc 1%Qc Qcplus Qcmult Qcminus Qcopp Qcrt.
Definition ex_roots : list (cpx Qcring) := [(0%Qc, 1%Qc); ((- (1))%Qc, 0%Qc)].
Definition ex_invs : list Qcring := [Q2Qc (1#4); Q2Qc (1#2)].
Lemma Qc_pair (a b c d : Qc) : Qeq_bool a c = true -> Qeq_bool b d = true -> (a, b) = (c, d).
Proof. intros E F. f_equal; apply Qc_is_canon, Qeq_bool_iff; assumption. Qed.
Lemma ex_mesh_roots : mesh_roots Qcring (N [4] 2) ex_roots ex_invs.
Proof.
  unfold N. cbn [app]. unfold ex_roots, ex_invs. constructor; [|constructor; [|constructor]].
  - split; [lia| | | |].
    + apply Qc_pair; reflexivity.
    + apply Qc_pair; reflexivity.
    + intros d Hd. assert (D : d = 1 \/ d = 2 \/ d = 3) by lia.
      destruct D as [->|[->| ->]]; apply Qc_pair; reflexivity.
    + apply Qc_is_canon. reflexivity.
  - split; [lia| | | |].
    + apply Qc_pair; reflexivity.
    + apply Qc_pair; reflexivity.
    + intros d Hd. assert (D : d = 1) by lia. subst d. apply Qc_pair; reflexivity.
    + apply Qc_is_canon. reflexivity.
Qed.
Lemma ex_two (a : Qcring) : radd a a = r0 -> a = r0.
Proof.
  change ((a + a)%Qc = 0%Qc -> a = 0%Qc). intros H. change Qc in (type of a).
  assert (E : (a = (a + a) * Q2Qc (1#2))%Qc).
  { assert (T : ((1 + 1) * Q2Qc (1#2) = 1)%Qc) by (apply Qc_is_canon; reflexivity).
    transitivity (a * ((1 + 1) * Q2Qc (1#2)))%Qc; [rewrite T; ring|ring]. }
  rewrite E, H. apply Qcmult_0_l.
Qed.
Definition ex_q (z : Z) : Qcring := Q2Qc (inject_Z z).
Definition ex_real : list Z -> Qcring := fun x => ex_q (match x with [a; b] => a * a + 3 * b + 1 | _ => 0 end).
Definition ex_src : list (lfield Qcring) := map (on_block ex_real) [mkL [0;0] [3;2] []; mkL [3;0] [1;2] ([] : list Z)].
Definition ex_mid : list (lfield (cpx Qcring)) := map (on_block (fun _ => c0)) [mkL [0;0] [2;2] []; mkL [2;0] [2;2] ([] : list Z)].
Definition ex_out : list (lfield Qcring) := map (on_block (fun _ => r0)) [mkL [0;1] [4;1] []; mkL [0;0] [4;1] ([] : list Z)].
Lemma tiles_check {V} shape (Ls : list (lfield V)) :
  forallb (fun L => Nat.eqb (length (lstart L)) (length shape) && Nat.eqb (length (lshape L)) (length shape)) Ls && nodupb (flat_map lcells Ls) && nodupb (cells_of shape) &&
  forallb (fun k => memb k (cells_of shape)) (flat_map lcells Ls) && forallb (fun k => memb k (flat_map lcells Ls)) (cells_of shape) = true ->
  tiles shape Ls.
Proof.
  rewrite !andb_true_iff. intros [[[[A B] C] D] E]. split.
  - rewrite forallb_forall in A. apply Forall_forall. intros L HL.
    specialize (A L HL). apply andb_true_iff in A. rewrite !Nat.eqb_eq in A. exact A.
  - apply perm_check; auto using nodupb_ok.
Qed.
Lemma ex_src_tiles : tiles (N [4] 2) ex_src. Proof. now apply tiles_check. Qed.
Lemma ex_mid_tiles : tiles (half [4] 2) ex_mid. Proof. now apply tiles_check. Qed.
Lemma ex_out_tiles : tiles (N [4] 2) ex_out. Proof. now apply tiles_check. Qed.
Example C44_case :
  holds (c2r Qcring (N [4] 2) ex_roots (r2c Qcring ex_roots ex_invs ex_src ex_mid) ex_out) ex_real /\
  map this (map re (concat (map lvals (r2c Qcring ex_roots ex_invs ex_src ex_mid)))) =
    [6#1; -3#2; -1#1; 0#1; -3#2; 0#1; -1#1; 0#1]%Q.
Proof.
  split.
  - apply C44_c2r_r2c; [exact ex_mesh_roots|exact ex_src_tiles| |exact ex_mid_tiles|exact ex_out_tiles].
    apply on_block_holds.
  - vm_compute. reflexivity.
Qed.

(** the reality condition is needed: an imaginary zero mode is lost *)
Definition ex_imag : list Z -> cpx Qcring := fun k => match k with [0; 0] => (0%Qc, 1%Qc) | _ => c0 end.
Theorem C44_imaginary_refuted : ~ forall (Ls Mid : list (lfield (cpx Qcring))) (Tmp : list (lfield Qcring)) c,
  tiles (half [4] 2) Ls -> holds Ls c -> tiles (N [4] 2) Tmp -> tiles (half [4] 2) Mid ->
  holds (r2c Qcring ex_roots ex_invs (c2r Qcring (N [4] 2) ex_roots Ls Tmp) Mid) c.
Proof.
  intros H. specialize (H (map (on_block ex_imag) ex_mid) ex_mid ex_out ex_imag).
  assert (T : tiles (half [4] 2) (map (on_block ex_imag) ex_mid)) by (apply on_block_tiles, ex_mid_tiles).
  specialize (H T (on_block_holds _ _) ex_out_tiles ex_mid_tiles).
  unfold holds in H. apply Forall_inv in H.
  apply (f_equal (fun l => map (fun z => this (snd z)) l)) in H. vm_compute in H. discriminate.
Qed.
(** Hermitian arrays exist: the transform of the case above *)
Example C44_hermitian_case :
  hermitian Qcring (N [4] 2) (half [4] 2) (spectrum Qcring [4] 2 ex_roots ex_invs ex_real) /\
  ~ spectrum Qcring [4] 2 ex_roots ex_invs ex_real [1; 0] = c0.
Proof.
  split.
  - intros k Hk Ho. apply (spectrum_opposite Qcring [4] 2 ex_roots ex_invs ex_mesh_roots).
    apply (half_full Qcring [4] 2 ex_roots ex_invs ex_mesh_roots). exact Hk.
  - intros E. apply (f_equal (fun z => this (fst z))) in E. vm_compute in E. discriminate.
Qed.

(** the inner product of the field of the case of C44 with itself: 404 / 8 = 101 / 2 *)
Example C59_case : exists v w,
  cdot Qcring (N [4] 2) (half [4] 2) [1%Qc; 1%Qc] None (r2c Qcring ex_roots ex_invs ex_src ex_mid) (r2c Qcring ex_roots ex_invs ex_src ex_mid)
    = [Ret v; Ret v] /\ real_cdot Qcring ex_src ex_src = [Ret w; Ret w] /\
  this (fst v) = (101#2)%Q /\ this w = (404#1)%Q.
Proof. do 2 eexists. split; [reflexivity|]. split; [reflexivity|]. split; vm_compute; reflexivity. Qed.

Print Assumptions C44_imaginary_refuted.
Print Assumptions C44_c2r_r2c.
Print Assumptions C44_r2c_c2r.
Print Assumptions C44_zero_mode.
Print Assumptions C44_c2r_vjp.
Print Assumptions C44_r2c_vjp.
Print Assumptions C44_plancherel.
Print Assumptions C44_complex_inverse.
Print Assumptions C44_cast.
Print Assumptions C59_cdot.
