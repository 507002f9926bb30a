(** Property C105: the forces and the trajectories of the n-body example do not depend on the
    number of ranks, on how the mesh is divided between them, nor on which rank holds which
    particle. *)
From Coq Require Import List Arith ZArith QArith Lqa Lia Bool Permutation Ring Qcanon.
From Verif Require Import EngineModel Base ListFacts LayoutModel LayoutSpec LayoutProofs LayoutModes LayoutMore WrapModel WrapProofs DomainModel DomainFill DomainGeom DomainTargets
  DomainHome DomainProperties QSum WindowModel WindowStencil WindowSpread WindowKernels WindowAxis WindowNative WindowApi WindowPoints
  WindowGrad WindowTranslate
  MeshModel MeshAssign MeshRoute MeshPaint MeshTile MeshDistributed MeshGrad MeshProperties MeshProperties2 MeshProperties3
  RingModel FieldModel FieldFacts FieldProperties FieldNorm FourierModel FourierFacts FourierProperties EnginePaint NbodyModel NbodyProperties MeshTile NbodyPoisson.
Import ListNotations.
Local Close Scope Q_scope.
Local Open Scope Z_scope.

(** * What a process that holds the whole mesh computes *)
(** the weight of the window at the position [x] in the cell [c] of the whole mesh *)
Definition mesh_weight (N : list Z) (box : list Q) (w : window) (x : list Q) (c : list Z) : Q :=
  WindowSpread.weight_of (painter_of w (c_array N) (whole_affine N (mesh_scale N box)) None) 1%Q x c.
(** the number of particles in the cell over its mean *)
Definition mesh_density (N : list Z) (box : list Q) (w : window) (xs : list (list Q)) (c : list Z) : Q :=
  (qsum (fun x => mesh_weight N box w x c) xs * (inject_Z (prodz N) / inject_Z (Z.of_nat (length xs))))%Q.

(** * Lists *)
Lemma qsum_seq_S (f : nat -> Q) m : (qsum f (seq 0 (S m)) == f 0%nat + qsum (fun i => f (S i)) (seq 0 m))%Q.
Proof. cbn [seq]. rewrite qsum_cons. rewrite <- seq_shift, qsum_map. reflexivity. Qed.
Lemma combine_at {A B} (x : list A) (m : list B) a b : length m = length x -> combine x m = map (fun i => (nth i x a, nth i m b)) (seq 0 (length x)).
Proof.
  revert m. induction x as [|y x IH]; intros [|z m] L; try discriminate; [reflexivity|].
  cbn [combine length seq map nth]. f_equal. rewrite <- seq_shift, map_map. apply IH. cbn in L. lia.
Qed.
Lemma combine_app2 {A B} (a a' : list A) (b b' : list B) : length a = length b -> combine (a ++ a') (b ++ b') = combine a b ++ combine a' b'.
Proof. revert b. induction a as [|x a IH]; intros [|y b] L; try discriminate; [reflexivity|]. cbn. f_equal. apply IH. cbn in L. lia. Qed.
Lemma qsum_combine_concat (f : list Q * Q -> Q) X M : map (@length Q) M = map (@length _) X ->
  (qsum f (combine (concat X) (concat M)) ==
   qsum (fun s => qsum (fun i => f (nth i (nth s X []) [], nth i (nth s M []) 0%Q)) (seq 0 (length (nth s X [])))) (seq 0 (length X)))%Q.
Proof.
  revert M. induction X as [|x X IH]; intros [|m M] L; try discriminate; [reflexivity|].
  cbn [map] in L. injection L as L1 L2. cbn [concat length]. rewrite combine_app2 by lia. rewrite qsum_app, qsum_seq_S. cbn [nth].
  apply Qplus_comp; [|exact (IH M L2)]. rewrite (combine_at x m [] 0%Q L1), qsum_map. reflexivity.
Qed.
Lemma zadd_swap a b : zadd a b = zadd b a.
Proof. revert b. induction a as [|x a IH]; intros [|y b]; try reflexivity. unfold zadd in *. cbn [combine map fst snd]. f_equal; [lia|apply IH]. Qed.
Section Ranks.
Variable K : cring.
Add Ring Kr15 : (rth K).
Local Notation C := (cpx K).
Variable inj : Q -> K.
Hypothesis E : embedding K inj.
Variables (inv : K -> K) (twopi : K).
Variables (base : list Z) (n : Z).
Local Notation N := (N base n).
Local Notation half := (half base n).
Variables (ws : list C) (is : list K).
Variables (box : list Q) (w0 : window).

(** the acceleration along [d] at the position [x], of the particles at [xs] *)
Definition mesh_field (tf : nat -> list K -> C) (xs : list (list Q)) (d : nat) (c : list Z) : K :=
  rsum (fun k => rmul (NbodyPoisson.weight_of K base n k)
         (re (cmul (cmul (tf d (wave K (units K inj inv twopi box) N k)) (spectrum K base n ws is (fun c => inj (mesh_density N box w0 xs c)) k)) (chi K ws k c))))
       (cells_of half).
Definition acceleration (tf : nat -> list K -> C) (om : K) (xs : list (list Q)) (d : nat) (x : list Q) : K :=
  rmul om (rsum (fun c => rmul (mesh_field tf xs d c) (inj (mesh_weight N box w0 x c))) (cells_of N)).

Lemma density_perm xs ys c : Permutation xs ys -> (mesh_density N box w0 xs c == mesh_density N box w0 ys c)%Q.
Proof.
  intros P. unfold mesh_density. rewrite (Permutation_length P). apply Qmult_comp; [|reflexivity]. now apply qsum_perm.
Qed.
Lemma acceleration_perm tf om xs ys d x : Permutation xs ys -> acceleration tf om xs d x = acceleration tf om ys d x.
Proof.
  intros P. unfold acceleration. f_equal. apply rsum_ext. intros c. f_equal. unfold mesh_field. apply rsum_ext. intros k. f_equal. f_equal. f_equal. f_equal.
  unfold spectrum. f_equal. apply rsum_ext. intros y. now rewrite (emb_eq _ _ E _ _ (density_perm xs ys y P)).
Qed.

Section World.
Hypothesis M : mesh_roots K N ws is.
Variables (BoxSize : value Q) (pt : partition) (blocks : list (list Z)) (pms : list pm).
Hypothesis W : world N BoxSize box w0 pt blocks pms.
Hypothesis Hk : proper_kind (w_kind w0).
Hypothesis Hsup : (0 < w_support w0)%Z.
Hypothesis Hroom : room N pt (repeat (inject_Z (w_support w0)) (length N)).
Variable outs : list field.
Hypothesis Lo : length outs = length blocks.
Hypothesis Hst : forall r, (r < length blocks)%nat -> MeshRoute.stored (f_array (nth r outs zero_field)) (block_shape (i_edges pt) (block blocks r)).
Variable Mid : list (lfield C).
Hypothesis TM : tiles half Mid.
Local Notation arrays := (map f_array outs).
Local Notation P := (length blocks).
Local Notation start r := (block_start (i_edges pt) (block blocks r)).
Local Notation smooth := (SmoothNumber (Scalar (1 * inject_Z (w_support w0))%Q)).

Lemma whole_stored : MeshRoute.stored (c_array N) N.
Proof. apply c_array_stored. exact (world_sizes _ _ _ _ _ _ _ W). Qed.
Lemma cell_in r idx : (r < P)%nat -> In idx (elements (f_array (nth r outs zero_field))) -> In (zadd idx (start r)) (cells_of N).
Proof.
  intros Hr Hi. change (cells_of N) with (elements (c_array N)).
  exact (zadd_in _ _ _ (wd_mesh _ _ _ _ _ _ _ W) (map (fun _ => 0%Q) N) (f_array (nth r outs zero_field)) (c_array N) r (map_length _ _) Hr (Hst r Hr) whole_stored idx Hi).
Qed.
(** painting with the layout of force() *)
Lemma painted_mass X mass : particles_ok (length N) P X -> map (@length Q) mass = map (@length _) X ->
  exists ls ms, pm_decompose pms smooth None X = map Ret ls /\
    pm_paint pms None None false None (Some ls) outs X WNone (WArray mass) = map Ret ms /\
    forall r idx, (r < P)%nat -> In idx (elements (f_array (nth r outs zero_field))) ->
      (elem (f_array (nth r outs zero_field)) (nth r ms (fun _ => 0%Q)) idx ==
       qsum (fun xq => snd xq * mesh_weight N box w0 (fst xq) (zadd idx (start r))) (combine (concat X) (concat mass)))%Q.
Proof.
  intros Hp Hm. pose proof (world_blocks _ _ _ _ _ _ _ W) as H0.
  assert (Hq : (0 <= inject_Z (w_support w0))%Q) by (change 0%Q with (inject_Z 0); rewrite <- Zle_Qle; lia).
  assert (Wf : wf_call (c_array N) (whole_affine N (mesh_scale N box))).
  { apply (wf_whole _ _ _ (wd_mesh _ _ _ _ _ _ _ W)); [exact (mesh_scale_length _ _ _ _ _ _ _ W)|exact whole_stored]. }
  destruct (C31_paint_distributed N BoxSize box w0 pt blocks pms W X (mesh_scale N box) None smooth (repeat (1 * inject_Z (w_support w0))%Q (length N))
    None w0 None false WNone (WArray mass) outs (c_array N) (fun _ => 0%Q)) as (ls & ms & wm & E1 & E2 & _ & E4 & E5); auto; try exact Logic.I.
  - exact (mesh_scale_length _ _ _ _ _ _ _ W).
  - exact (default_affines _ _ _ _ _ _ _ W).
  - exact (default_resampler _ _ _ _ _ _ _ W).
  - apply repeat_length.
  - apply Forall_forall. intros q Hin. apply repeat_spec in Hin. subst q. lra.
  - intros i k Hi Hk'. specialize (Hroom i k Hi Hk'). cbv zeta in *. rewrite nth_repeat_in in * by exact Hi. rewrite Qmult_1_l. exact Hroom.
  - intros r i _ _. cbn [val]. split; [apply within_one; exact Hsup|]. intros a Ha.
    rewrite (extent_one w0 Hsup). rewrite nth_repeat_in by exact Ha. unfold Qdiv. change (/ 2)%Q with (1#2)%Q. lra.
  - exact whole_stored.
  - intros r idx _ _. reflexivity.
  - exists ls, ms. split; [exact E1|]. split; [exact E2|]. intros r idx Hr Hi. rewrite (E5 r idx Hr Hi).
    pose proof (whole_cell w0 (c_array N) _ (zadd idx (start r)) (fun _ => 0%Q) wm X mass Hm Wf (proj1 Hk)
      ltac:(rewrite (proj1 whole_stored); exact (proj2 Hp)) (cell_in r idx Hr Hi) E4) as Q.
    rewrite Q. unfold elem at 1. rewrite Qplus_0_l. reflexivity.
Qed.
Lemma unit_sum X (f : list Q -> Q) : (qsum (fun xq => snd xq * f (fst xq)) (combine (concat X) (concat (unit_array X))) == qsum f (concat X))%Q.
Proof.
  unfold unit_array. induction X as [|x X IH]; [reflexivity|]. cbn [map concat]. rewrite combine_app2 by (now rewrite repeat_length). rewrite !qsum_app, IH.
  apply Qplus_comp; [|reflexivity]. clear. induction x as [|y x IH]; [reflexivity|]. cbn [length repeat combine]. rewrite !qsum_cons, IH. cbn [fst snd]. ring.
Qed.
Lemma factor_whole X : particles_ok (length N) P X -> factor pms X = (inject_Z (prodz N) / inject_Z (Z.of_nat (length (concat X))))%Q.
Proof.
  intros _. unfold factor, total_number. rewrite concat_length_sum. rewrite (world_pms _ _ _ _ _ _ _ W).
  pose proof (world_blocks _ _ _ _ _ _ _ W). destruct P as [|m]; [lia|]. reflexivity.
Qed.

Theorem one_world : forall (tf : nat -> list K -> C) om X, particles_ok (length N) P X ->
  forces K inj inv twopi ws is tf None om pms N box outs Mid X = Some (map (fun d => map (map (acceleration tf om (concat X) d)) X) (seq 0 (length N))).
Proof.
  intros tf om X Hp. pose proof (wd_mesh _ _ _ _ _ _ _ W) as OK. pose proof (world_blocks _ _ _ _ _ _ _ W) as H0.
  assert (Sup : match pms with p :: _ => w_support (pm_resampler p) | [] => 0%Z end = w_support w0).
  { rewrite (world_pms _ _ _ _ _ _ _ W). destruct P as [|m]; [lia|]. reflexivity. }
  assert (La : length arrays = P) by (rewrite map_length; exact Lo).
  destruct (C33_applies _ _ _ _ _ _ _ W X (mesh_scale N box) None smooth
     (repeat (1 * inject_Z (w_support w0))%Q (length N)) None arrays Hp) as (ls & Ed & CK & _).
  - apply (mesh_scale_length _ _ _ _ _ _ _ W).
  - exact (default_affines _ _ _ _ _ _ _ W).
  - reflexivity.
  - apply repeat_length.
  - apply Forall_forall. intros q Hin. apply repeat_spec in Hin. subst q. rewrite Qmult_1_l. unfold Qle. cbn. lia.
  - rewrite (default_resampler _ _ _ _ _ _ _ W). exact (proj1 Hk).
  - exact La.
  - intros r Hr. rewrite (array_nth outs r). apply Hst. exact Hr.
  - assert (Lp : length X = P) by exact (proj1 Hp).
    assert (paint : forall mass, map (@length Q) mass = map (@length _) X -> exists ms,
      pm_paint pms None None false None (Some ls) outs X WNone (WArray mass) = map Ret ms /\
      forall r idx, (r < P)%nat -> In idx (elements (f_array (nth r outs zero_field))) ->
      (elem (f_array (nth r outs zero_field)) (nth r ms (fun _ => 0%Q)) idx ==
       qsum (fun xq => snd xq * mesh_weight N box w0 (fst xq) (zadd idx (start r))) (combine (concat X) (concat mass)))%Q).
    { intros mass Hm. destruct (painted_mass X mass Hp Hm) as (ls' & ms & E1 & E2 & E3).
      rewrite Ed in E1. apply map_Ret_inj in E1. subst ls'. now exists ms. }
    unfold forces. rewrite Sup, Ed, all_ret_Ret.
    destruct (unit_paint _ _ _ _ CK false outs eq_refl) as (m1 & m2 & P1 & L1 & P2 & E12).
    rewrite P1, all_ret_Ret.
    set (sm := map (fun p => scale_by (fst p) (snd p) (factor pms X)) (combine arrays m1)). set (rho := real_blocks K inj pms arrays sm).
    assert (Lsm : length sm = length X) by (unfold sm; rewrite map_length, combine_length; lia).
    assert (Er : rho = map (fun r => mkL (nth r (map pm_start pms) []) (nth r (map pm_shape pms) [])
       (map (fun idx => inj (elem (nth r arrays (f_array zero_field)) (nth r sm (fun _ => 0%Q)) idx)) (elements (nth r arrays (f_array zero_field))))) (seq 0 P)).
    { unfold rho. rewrite (real_blocks_seq K inj _ _ _ _ _ CK sm Lsm). rewrite Lp. reflexivity. }
    assert (Trho : tiles N rho).
    { eapply tiles_same; [| |exact (block_tiles K base n BoxSize box w0 pt blocks pms W outs Lo)]; rewrite Er, !map_map; reflexivity. }
    assert (El : forall r, (r < P)%nat -> elements (nth r arrays (f_array zero_field)) = cells_of (nth r (map pm_shape pms) [])).
    { intros r Hr. unfold elements, cells_of. rewrite (array_nth outs r). rewrite (proj1 (Hst r Hr)). rewrite (proj2 (pm_nth base n BoxSize box w0 pt blocks pms W r Hr)). reflexivity. }
    assert (Hf : holds rho (fun c => inj (mesh_density N box w0 (concat X) c))).
    { unfold holds. rewrite Er. apply Forall_forall. intros L HL. apply in_map_iff in HL. destruct HL as (r & <- & Hr). apply in_seq in Hr.
      unfold lcells. cbn [lvals lstart lshape]. rewrite map_map. rewrite <- El by lia. apply map_ext_in. intros idx Hi. apply (emb_eq _ _ E).
      rewrite (proj1 (pm_nth base n BoxSize box w0 pt blocks pms W r ltac:(lia))).
      set (m0 := (fun _ => 0%Q) : memory).
      assert (Hn : nth r sm m0 = scale_by (nth r arrays (f_array zero_field)) (nth r m1 m0) (factor pms X)).
      { unfold sm. rewrite (nth_map_in _ (combine arrays m1) r m0 (f_array zero_field, m0)) by (rewrite combine_length; lia).
        rewrite (combine_nth arrays m1 r (f_array zero_field) m0 ltac:(lia)). reflexivity. }
      rewrite Hn. rewrite scale_elem by exact Hi. rewrite (factor_whole X Hp).
      unfold mesh_density. apply Qmult_comp; [|reflexivity]. refine (Qeq_trans _ _ _ (E12 r idx _ Hi) _); [lia|].
      destruct (paint (unit_array X) (unit_lengths X)) as (m2' & P2' & E2). rewrite P2 in P2'. apply map_Ret_inj in P2'. subst m2'.
      rewrite (array_nth outs r) in *. refine (Qeq_trans _ _ _ (E2 r idx _ Hi) _); [lia|].
      rewrite (unit_sum X (fun x => mesh_weight N box w0 x (zadd idx (start r)))).
      rewrite (zadd_swap idx). reflexivity. }
    apply sequence_some. rewrite map_map. apply map_ext. intros d.
    set (G := c2r K N ws _ rho).
    assert (HG : holds G (mesh_field tf (concat X) d)).
    { eapply holds_ext; [|exact (filtered_back K inj inv twopi base n box ws (tf d) (r2c K ws is rho Mid) rho)]. intros L c _ _. unfold back, mesh_field.
      apply (filtered_sum K inj inv twopi base n box ws).
      - unfold r2c. now apply on_block_tiles.
      - exact (r2c_holds K base n ws is rho Mid _ Trho Hf). }
    assert (LG : length G = P) by (unfold G, c2r; rewrite map_length, Er, map_length, seq_length; reflexivity).
    assert (SG : forall r, (r < P)%nat -> lvals (nth r G (mkL [] [] [])) = map (fun idx => mesh_field tf (concat X) d (zadd idx (start r))) (elements (nth r arrays (f_array zero_field)))).
    { intros r Hr. unfold holds in HG. rewrite Forall_forall in HG. rewrite (HG (nth r G (mkL [] [] []))) by (apply nth_In; lia).
      assert (Hn : lcells (nth r G (mkL [] [] [])) = map (zadd (start r)) (elements (nth r arrays (f_array zero_field)))).
      { unfold G, c2r. rewrite (nth_map_in _ rho r (mkL [] [] []) (mkL [] [] [])) by (rewrite Er, map_length, seq_length; lia).
        unfold lcells, on_block. cbn [lstart lshape]. rewrite Er, nth_map_seq by lia. cbn [lstart lshape].
        rewrite (proj1 (pm_nth base n BoxSize box w0 pt blocks pms W r Hr)). rewrite El by lia. reflexivity. }
      rewrite Hn, map_map. apply map_ext. intros idx. now rewrite zadd_swap. }
    destruct (adjoint K inj E pms None ls arrays X CK outs (unit_array X) G eq_refl (unit_lengths X)) as (_ & R & _ & _ & ER & LR & _).
    rewrite ER. cbn [option_map]. f_equal.
    assert (each : forall s i, (s < length X)%nat -> (i < length (nth s X []))%nat -> rmul om (nth i (nth s R []) r0) = acceleration tf om (concat X) d (nth i (nth s X []) [])).
    { intros s i Hs Hi. unfold acceleration. f_equal.
      destruct (adjoint K inj E pms None ls arrays X CK outs (one_mass X s i) G eq_refl (one_mass_length X s i)) as (ms & R' & Pm & _ & ER' & _ & D).
      rewrite ER in ER'. injection ER' as <-. rewrite (one_mass_sum K inj E X s i (fun s i => nth i (nth s R []) r0) Hs Hi) in D. rewrite D.
      destruct (paint (one_mass X s i) (one_mass_length X s i)) as (ms' & Pm' & Em). rewrite Pm in Pm'. apply map_Ret_inj in Pm'. subst ms'.
      rewrite <- (tiles_sum K N rho _ Trho). rewrite Er, rsum_map. unfold cells_with. rewrite rsum_flat_map, La.
      apply rsum_ext_in. intros r Hr. apply in_seq in Hr. rewrite rsum_map. rewrite SG by lia.
      unfold lcells. cbn [lstart lshape]. rewrite <- El by lia. rewrite (proj1 (pm_nth base n BoxSize box w0 pt blocks pms W r ltac:(lia))).
      rewrite combine_self, !rsum_map. apply rsum_ext_in. intros idx Hin. cbn [fst snd]. rewrite (zadd_swap idx). f_equal.
      rewrite (array_nth outs r) in *. rewrite (emb_eq _ _ E _ _ (Em r idx ltac:(lia) Hin)). rewrite (zadd_swap idx).
      rewrite (emb_eq _ _ E _ _ (qsum_combine_concat _ X (one_mass X s i) (one_mass_length X s i))). rewrite (inj_sum K inj E).
      rewrite <- (one_mass_sum K inj E X s i (fun s i => inj (mesh_weight N box w0 (nth i (nth s X []) []) (zadd (start r) idx))) Hs Hi).
      unfold particle_sum. apply rsum_ext. intros s'. rewrite (inj_sum K inj E). apply rsum_ext. intros i'. cbn [fst snd]. apply (emb_mul _ _ E). }
    apply nth_ext with (d := []) (d' := []); rewrite !map_length.
    { apply (f_equal (@length _)) in LR. rewrite !map_length in LR. exact LR. }
    intros s Hs. assert (Ls : length R = length X) by (apply (f_equal (@length _)) in LR; rewrite !map_length in LR; exact LR).
    rewrite (nth_map_in _ R s [] []), (nth_map_in _ X s [] []) by lia.
    assert (Le : length (nth s R []) = length (nth s X [])) by exact (proj2 (nth_lengths R X LR) s).
    apply nth_ext with (d := r0) (d' := r0); rewrite !map_length; [exact Le|]. intros i Hi.
    rewrite (nth_map_in _ (nth s R []) i r0 r0), (nth_map_in _ (nth s X []) i r0 []) by lia. apply each; lia.
Qed.
End World.
End Ranks.

(** * Trajectories *)
Section Tracks.
Variable K : cring.
Local Notation r0 := (@r0 K).
Variables (inj : Q -> K) (store : K -> Q) (nd : nat).
Local Open Scope rg_scope.
(** initial position, displacement, velocity and force of a particle *)
Definition body : Type := (list Q * list Q * list K * list K)%type.
Definition components (V : list (list (list K))) (t : nat * nat) : list K := map (fun c => pick r0 (nth c V []) t) (seq 0 nd).
Definition body_at (Qpos : list (list (list Q))) (st : state K) (t : nat * nat) : body :=
  (pick [] Qpos t, pick [] (st_S K st) t, components (st_V K st) t, components (st_F K st) t).
Definition bodies (Qpos : list (list (list Q))) (st : state K) : list body := map (body_at Qpos st) (all_tags Qpos).
Definition moved (b : body) : list Q := let '(q, s, _, _) := b in map2 Qplus s q.
Record good (Qpos : list (list (list Q))) (st : state K) : Prop := {
  gd_S : same_particles nd Qpos (st_S K st);
  gd_V : velocities_ok nd Qpos (st_V K st);
  gd_F : velocities_ok nd Qpos (st_F K st)
}.
Definition kicked (k : K) (b : body) : body :=
  let '(q, s, v, f) := b in (q, s, map (fun c => nth c v r0 + nth c f r0 * k) (seq 0 nd), f).
Definition drifted (d : K) (b : body) : body :=
  let '(q, s, v, f) := b in (q, map (fun c => store (inj (nth c s 0%Q) + nth c v r0 * d)) (seq 0 nd), v, f).
Definition pulled (a : nat -> list Q -> K) (b : body) : body :=
  let '(q, s, v, f) := b in (q, s, v, map (fun c => a c (map2 Qplus s q)) (seq 0 nd)).

Section One.
Variable Qpos : list (list (list Q)).
Local Notation X S := (map2 (map2 (map2 Qplus)) S Qpos).
Lemma kick_bodies k st : good Qpos st -> let st' := mkState K (st_S K st) (kick K k (st_V K st) (st_F K st)) (st_F K st) in
  good Qpos st' /\ bodies Qpos st' = map (kicked k) (bodies Qpos st).
Proof.
  intros [HS HV HF] st'. split; [constructor; cbn [st' st_S st_V st_F]; try assumption; now apply kick_ok|].
  unfold bodies. rewrite map_map. apply map_ext_in. intros t Ht. apply all_tags_in in Ht. destruct Ht as [H1 H2].
  unfold body_at, kicked, st'. cbn [st_S st_V st_F]. f_equal. f_equal. unfold components. apply map_ext_in. intros c Hc. apply in_seq in Hc.
  rewrite !nth_map_seq by lia. destruct (entry_ok K nd Qpos _ c (fst t) HV ltac:(lia) H1) as (V1 & V2 & V3). destruct (entry_ok K nd Qpos _ c (fst t) HF ltac:(lia) H1) as (F1 & F2 & F3).
  unfold pick, kick. rewrite (map2_at _ _ _ c [] []) by assumption. rewrite (map2_at _ _ _ (fst t) [] []) by assumption. rewrite (map2_at _ _ _ (snd t) r0 r0) by lia. reflexivity.
Qed.
Lemma drift_bodies d st : good Qpos st -> let st' := mkState K (drift K inj store nd d (st_S K st) (st_V K st)) (st_V K st) (st_F K st) in
  good Qpos st' /\ bodies Qpos st' = map (drifted d) (bodies Qpos st).
Proof.
  intros [HS HV HF] st'. split; [constructor; cbn [st' st_S st_V st_F]; try assumption; now apply drift_ok|].
  unfold bodies. rewrite map_map. apply map_ext_in. intros t Ht. apply all_tags_in in Ht. destruct Ht as [H1 H2].
  destruct HS as [LS _]. apply nth_lengths in LS. destruct LS as [L1 L2].
  unfold body_at, drifted, st'. cbn [st_S st_V st_F]. f_equal. f_equal. f_equal. unfold pick at 1, drift. rewrite nth_map_seq by lia. rewrite nth_map_seq by (rewrite L2; exact H2).
  apply map_ext_in. intros c Hc. apply in_seq in Hc. unfold components. rewrite nth_map_seq by lia. reflexivity.
Qed.
Lemma moved_positions st : good Qpos st -> concat (X (st_S K st)) = map moved (bodies Qpos st) /\ map (@length _) (X (st_S K st)) = map (@length _) Qpos.
Proof.
  intros [[LS _] _ _]. apply nth_lengths in LS. destruct LS as [L1 L2].
  assert (Lx : map (@length _) (X (st_S K st)) = map (@length _) Qpos).
  { apply lengths_nth; [rewrite map2_len; exact L1|]. intros s Hs. rewrite (map2_at _ _ Qpos s [] []) by lia. rewrite map2_len by apply L2. apply L2. }
  split; [|exact Lx]. rewrite (concat_tags Qpos [] (X (st_S K st)) Lx). unfold bodies. rewrite map_map. apply map_ext_in. intros t Ht. apply all_tags_in in Ht. destruct Ht as [H1 H2].
  unfold body_at, moved, pick. rewrite (map2_at _ _ Qpos (fst t) [] []) by lia. rewrite (map2_at _ _ _ (snd t) [] []) by (rewrite ?L2; exact H2). reflexivity.
Qed.
Lemma pull_bodies (a : nat -> list Q -> K) st F0 : same_particles nd Qpos (st_S K st) -> velocities_ok nd Qpos (st_V K st) ->
  let st' := mkState K (st_S K st) (st_V K st) (map (fun d => map (map (a d)) (X (st_S K st))) (seq 0 nd)) in
  good Qpos st' /\ bodies Qpos st' = map (pulled a) (bodies Qpos (mkState K (st_S K st) (st_V K st) F0)).
Proof.
  intros HS HV st'. pose proof HS as [LS _]. apply nth_lengths in LS. destruct LS as [L1 L2].
  assert (Lx : map (@length _) (X (st_S K st)) = map (@length _) Qpos).
  { apply lengths_nth; [rewrite map2_len; exact L1|]. intros s Hs. rewrite (map2_at _ _ Qpos s [] []) by lia. rewrite map2_len by apply L2. apply L2. }
  split.
  - constructor; cbn [st' st_S st_V st_F]; try assumption. split; [now rewrite map_length, seq_length|]. apply Forall_forall. intros R HR. apply in_map_iff in HR. destruct HR as (d & <- & _).
    unfold per_particle_of. rewrite map_map. rewrite <- Lx. apply map_ext. intros l. apply map_length.
  - unfold bodies. rewrite map_map. apply map_ext_in. intros t Ht. apply all_tags_in in Ht. destruct Ht as [H1 H2].
    unfold body_at, pulled, st'. cbn [st_S st_V st_F]. f_equal. unfold components. apply map_ext_in. intros c Hc. apply in_seq in Hc.
    rewrite nth_map_seq by lia. unfold pick. apply nth_lengths in Lx. destruct Lx as [X1 X2].
    rewrite (nth_map_in _ (X (st_S K st)) (fst t) [] []) by lia. rewrite (nth_map_in _ (nth (fst t) (X (st_S K st)) []) (snd t) r0 []) by (rewrite X2; exact H2). f_equal.
    rewrite (map2_at _ _ Qpos (fst t) [] []) by lia. rewrite (map2_at _ _ _ (snd t) [] []) by (rewrite ?L2; exact H2). reflexivity.
Qed.
End One.

Section Two.
Variables Qpos Qpos' : list (list (list Q)).
Variables pull pull' : list (list (list Q)) -> option (list (list (list K))).
Local Notation X S := (map2 (map2 (map2 Qplus)) S Qpos).
Local Notation X' S := (map2 (map2 (map2 Qplus)) S Qpos').
(** both compute the same forces for the same particles *)
Hypothesis Hpull : forall S S', same_particles nd Qpos S -> same_particles nd Qpos' S' -> Permutation (concat (X S)) (concat (X' S')) ->
  exists a, pull S = Some (map (fun d => map (map (a d)) (X S)) (seq 0 nd)) /\ pull' S' = Some (map (fun d => map (map (a d)) (X' S')) (seq 0 nd)).
Theorem same_run : forall prog st st', good Qpos st -> good Qpos' st' -> Permutation (bodies Qpos st) (bodies Qpos' st') ->
  exists r r' g, run K inj store pull nd prog st = Some r /\ run K inj store pull' nd prog st' = Some r' /\ good Qpos r /\ good Qpos' r' /\
    bodies Qpos r = map g (bodies Qpos st) /\ bodies Qpos' r' = map g (bodies Qpos' st').
Proof.
  induction prog as [|i prog IH]; intros st st' G G' P.
  { exists st, st', (fun b => b). rewrite !map_id. repeat split; try reflexivity; try apply G; apply G'. }
  assert (next : forall s s' h, step K inj store pull nd i st = Some s -> step K inj store pull' nd i st' = Some s' -> good Qpos s -> good Qpos' s' ->
    bodies Qpos s = map h (bodies Qpos st) -> bodies Qpos' s' = map h (bodies Qpos' st') ->
    exists r r' g, run K inj store pull nd (i :: prog) st = Some r /\ run K inj store pull' nd (i :: prog) st' = Some r' /\ good Qpos r /\ good Qpos' r' /\
      bodies Qpos r = map g (bodies Qpos st) /\ bodies Qpos' r' = map g (bodies Qpos' st')).
  { intros s s' h E1 E1' Gs Gs' B B'. destruct (IH s s' Gs Gs') as (r & r' & g & R1 & R2 & R3 & R4 & R5 & R6).
    { rewrite B, B'. now apply Permutation_map. }
    exists r, r', (fun b => g (h b)). cbn [run]. rewrite E1, E1'. repeat (split; [assumption|]). rewrite R5, R6, B, B', !map_map. now split. }
  destruct i as [k|d|].
  - destruct (kick_bodies Qpos k st G) as [A1 A2]. destruct (kick_bodies Qpos' k st' G') as [B1 B2].
    exact (next _ _ _ eq_refl eq_refl A1 B1 A2 B2).
  - destruct (drift_bodies Qpos d st G) as [A1 A2]. destruct (drift_bodies Qpos' d st' G') as [B1 B2].
    exact (next _ _ _ eq_refl eq_refl A1 B1 A2 B2).
  - destruct (Hpull (st_S K st) (st_S K st') (gd_S _ _ G) (gd_S _ _ G')) as (a & E1 & E1').
    { rewrite (proj1 (moved_positions Qpos st G)), (proj1 (moved_positions Qpos' st' G')). now apply Permutation_map. }
    destruct (pull_bodies Qpos a st (st_F K st) (gd_S _ _ G) (gd_V _ _ G)) as [A1 A2]. destruct (pull_bodies Qpos' a st' (st_F K st') (gd_S _ _ G') (gd_V _ _ G')) as [B1 B2].
    apply (next _ _ (pulled a)) with (3 := A1) (4 := B1); [cbn [step]; rewrite E1; reflexivity|cbn [step]; rewrite E1'; reflexivity| |].
    + rewrite A2. destruct st; reflexivity.
    + rewrite B2. destruct st'; reflexivity.
Qed.
End Two.
End Tracks.

(** * C105 *)
(** the smoothing length of force() leaves room on every axis that is divided *)
Definition near (N : list Z) (pt : partition) (w : window) : Prop := room N pt (repeat (inject_Z (w_support w)) (length N)).
(** The forces of a simulation on any number of ranks are those of one process that holds the
    whole mesh: density contrast of all particles, its modes times the transfer function, the
    transform back, and the sum over the cells with the weights of the window *)
Theorem C105_forces : forall (K : cring) (inj : Q -> K), embedding K inj ->
  forall (inv : K -> K) twopi base n ws is BoxSize box w0 pt blocks pms outs Mid,
  simulation K base n ws is BoxSize box w0 pt blocks pms outs Mid ->
  proper_kind (w_kind w0) -> 0 < w_support w0 -> near (N base n) pt w0 ->
  forall (tf : nat -> list K -> cpx K) om X, particles_ok (length (N base n)) (length blocks) X ->
  forces K inj inv twopi ws is tf None om pms (N base n) box outs Mid X =
    Some (map (fun d => map (map (fun x =>
      rmul om (rsum (fun c => rmul
        (rsum (fun k => rmul (if (last k 0 =? 0) || (2 * last k 0 =? last (N base n) 0) then r1 else radd r1 r1)
             (re (cmul (cmul (tf d (wave K (units K inj inv twopi box) (N base n) k))
                             (spectrum K base n ws is (fun c => inj (mesh_density (N base n) box w0 (concat X) c)) k)) (chi K ws k c)))) (cells_of (half base n)))
        (inj (mesh_weight (N base n) box w0 x c))) (cells_of (N base n))))) X) (seq 0 (length (N base n)))).
Proof.
  intros K inj E inv twopi base n ws is BoxSize box w0 pt blocks pms outs Mid Sm Hk Hs Hn tf om X Hp.
  exact (one_world K inj E inv twopi base n ws is box w0 BoxSize pt blocks pms (sm_world _ _ _ _ _ _ _ _ _ _ _ _ _ Sm) Hk Hs Hn outs
    (sm_outs _ _ _ _ _ _ _ _ _ _ _ _ _ Sm) (sm_stored _ _ _ _ _ _ _ _ _ _ _ _ _ Sm) Mid (sm_mid _ _ _ _ _ _ _ _ _ _ _ _ _ Sm) tf om X Hp).
Qed.
Print Assumptions C105_forces.

(** Two worlds with the same mesh and the same particles, in any order and on any ranks: the
    force on a particle is the same function of its position *)
Theorem C105_ranks : forall (K : cring) (inj : Q -> K), embedding K inj ->
  forall (inv : K -> K) twopi base n ws is box w0 BoxSize pt blocks pms outs Mid BoxSize' pt' blocks' pms' outs' Mid',
  simulation K base n ws is BoxSize box w0 pt blocks pms outs Mid -> simulation K base n ws is BoxSize' box w0 pt' blocks' pms' outs' Mid' ->
  proper_kind (w_kind w0) -> 0 < w_support w0 -> near (N base n) pt w0 -> near (N base n) pt' w0 ->
  forall (tf : nat -> list K -> cpx K) om X X', let nd := length (N base n) in
  particles_ok nd (length blocks) X -> particles_ok nd (length blocks') X' -> Permutation (concat X) (concat X') ->
  exists a : nat -> list Q -> K,
    forces K inj inv twopi ws is tf None om pms (N base n) box outs Mid X = Some (map (fun d => map (map (a d)) X) (seq 0 nd)) /\
    forces K inj inv twopi ws is tf None om pms' (N base n) box outs' Mid' X' = Some (map (fun d => map (map (a d)) X') (seq 0 nd)).
Proof.
  intros K inj E inv twopi base n ws is box w0 BoxSize pt blocks pms outs Mid BoxSize' pt' blocks' pms' outs' Mid' Sm Sm' Hk Hs Hn Hn' tf om X X' nd Hp Hp' P.
  exists (acceleration K inj inv twopi base n ws is box w0 tf om (concat X)). split.
  - exact (one_world K inj E inv twopi base n ws is box w0 BoxSize pt blocks pms (sm_world _ _ _ _ _ _ _ _ _ _ _ _ _ Sm) Hk Hs Hn outs
      (sm_outs _ _ _ _ _ _ _ _ _ _ _ _ _ Sm) (sm_stored _ _ _ _ _ _ _ _ _ _ _ _ _ Sm) Mid (sm_mid _ _ _ _ _ _ _ _ _ _ _ _ _ Sm) tf om X Hp).
  - rewrite (one_world K inj E inv twopi base n ws is box w0 BoxSize' pt' blocks' pms' (sm_world _ _ _ _ _ _ _ _ _ _ _ _ _ Sm') Hk Hs Hn' outs'
      (sm_outs _ _ _ _ _ _ _ _ _ _ _ _ _ Sm') (sm_stored _ _ _ _ _ _ _ _ _ _ _ _ _ Sm') Mid' (sm_mid _ _ _ _ _ _ _ _ _ _ _ _ _ Sm') tf om X' Hp').
    f_equal. apply map_ext. intros d. apply map_ext. intros l. apply map_ext. intros x. symmetry. now apply acceleration_perm.
Qed.
Print Assumptions C105_ranks.

(** initial position, displacement and velocity of every particle, by rank *)
Definition tracks {K : cring} (nd : nat) (Qpos S : list (list (list Q))) (V : list (list (list K))) : list (list Q * list Q * list K) :=
  flat_map (fun s => map (fun i => (nth i (nth s Qpos []) [], nth i (nth s S []) [], map (fun c => nth i (nth s (nth c V []) []) r0) (seq 0 nd)))
                         (seq 0 (length (nth s Qpos [])))) (seq 0 (length Qpos)).
Lemma tracks_bodies (K : cring) nd Qpos (st : state K) : tracks nd Qpos (st_S K st) (st_V K st) = map (fun b => fst b) (bodies K nd Qpos st).
Proof.
  unfold tracks, bodies, all_tags. rewrite map_map. rewrite (flat_map_concat_map _ (seq 0 (length Qpos))), (flat_map_concat_map (fun s => map (pair s) _)).
  rewrite concat_map, map_map. f_equal. apply map_ext. intros s. rewrite map_map. reflexivity.
Qed.
(** The integrators: what becomes of a particle is the same function of its initial state *)
Theorem C105_integrators : forall (K : cring) (inj : Q -> K), embedding K inj ->
  forall (sine inv : K -> K) is0 twopi base n ws is box w0 BoxSize pt blocks pms outs Mid BoxSize' pt' blocks' pms' outs' Mid',
  simulation K base n ws is BoxSize box w0 pt blocks pms outs Mid -> simulation K base n ws is BoxSize' box w0 pt' blocks' pms' outs' Mid' ->
  proper_kind (w_kind w0) -> 0 < w_support w0 -> near (N base n) pt w0 -> near (N base n) pt' w0 ->
  forall om store (T : Type) (Kf Df : T -> T -> T -> K) (mid c2 d1 d2 : T -> T -> T) ts Qpos S V F0 Qpos' S' V' F0', let nd := length (N base n) in
  particles_ok nd (length blocks) Qpos -> same_particles nd Qpos S -> velocities_ok nd Qpos V ->
  particles_ok nd (length blocks') Qpos' -> same_particles nd Qpos' S' -> velocities_ok nd Qpos' V' ->
  Permutation (tracks nd Qpos S V) (tracks nd Qpos' S' V') ->
  forall prog, In prog [symp1 K T Kf Df ts; symp2 K T Kf Df mid ts; symp3 K T Kf Df c2 d1 d2 ts] ->
  exists st st' g,
    run K inj store (force K inj sine inv is0 twopi ws is om pms (N base n) box outs Mid Qpos) nd prog (mkState K S V F0) = Some st /\
    run K inj store (force K inj sine inv is0 twopi ws is om pms' (N base n) box outs' Mid' Qpos') nd prog (mkState K S' V' F0') = Some st' /\
    tracks nd Qpos (st_S K st) (st_V K st) = map g (tracks nd Qpos S V) /\
    tracks nd Qpos' (st_S K st') (st_V K st') = map g (tracks nd Qpos' S' V').
Proof.
  intros K inj E sine inv is0 twopi base n ws is box w0 BoxSize pt blocks pms outs Mid BoxSize' pt' blocks' pms' outs' Mid' Sm Sm' Hk Hs Hn Hn'
    om store T Kf Df mid c2 d1 d2 ts Qpos S V F0 Qpos' S' V' F0' nd Hp HS HV Hp' HS' HV' Pm prog Hprog.
  set (pull := force K inj sine inv is0 twopi ws is om pms (N base n) box outs Mid Qpos).
  set (pull' := force K inj sine inv is0 twopi ws is om pms' (N base n) box outs' Mid' Qpos').
  assert (Hpull : forall S S', same_particles nd Qpos S -> same_particles nd Qpos' S' ->
    Permutation (concat (map2 (map2 (map2 Qplus)) S Qpos)) (concat (map2 (map2 (map2 Qplus)) S' Qpos')) ->
    exists a, pull S = Some (map (fun d => map (map (a d)) (map2 (map2 (map2 Qplus)) S Qpos)) (seq 0 nd)) /\
              pull' S' = Some (map (fun d => map (map (a d)) (map2 (map2 (map2 Qplus)) S' Qpos')) (seq 0 nd))).
  { intros A A' HA HA' P. unfold pull, pull', force.
    exact (C105_ranks K inj E inv twopi base n ws is box w0 BoxSize pt blocks pms outs Mid BoxSize' pt' blocks' pms' outs' Mid' Sm Sm' Hk Hs Hn Hn' _ om _ _
      (proj1 (shifted_particles nd _ Qpos A Hp HA)) (proj1 (shifted_particles nd _ Qpos' A' Hp' HA')) P). }
  assert (Head : exists rest, prog = Pull K :: rest).
  { destruct Hprog as [<-|[<-|[<-|[]]]]; eexists; reflexivity. }
  destruct Head as [rest ->].
  set (z := map (fun _ => map (map (fun _ => r0 : K)) Qpos) (seq 0 nd)). set (z' := map (fun _ => map (map (fun _ => r0 : K)) Qpos') (seq 0 nd)).
  assert (Gz : good K nd Qpos (mkState K S V z)).
  { constructor; cbn [st_S st_V st_F]; try assumption. split; [unfold z; now rewrite map_length, seq_length|]. apply Forall_forall. intros R HR. apply in_map_iff in HR.
    destruct HR as (d & <- & _). unfold per_particle_of. rewrite map_map. apply map_ext. intros l. apply map_length. }
  assert (Gz' : good K nd Qpos' (mkState K S' V' z')).
  { constructor; cbn [st_S st_V st_F]; try assumption. split; [unfold z'; now rewrite map_length, seq_length|]. apply Forall_forall. intros R HR. apply in_map_iff in HR.
    destruct HR as (d & <- & _). unfold per_particle_of. rewrite map_map. apply map_ext. intros l. apply map_length. }
  set (zero := map (fun _ => r0 : K) (seq 0 nd)).
  assert (Bz : forall Q0 (s : state K), (forall t, In t (all_tags Q0) -> components K nd (st_F K s) t = zero) ->
    bodies K nd Q0 s = map (fun b => (b, zero)) (tracks nd Q0 (st_S K s) (st_V K s))).
  { intros Q0 s H0. rewrite tracks_bodies. unfold bodies. rewrite !map_map. apply map_ext_in. intros t Ht. unfold body_at. cbn [fst]. now rewrite (H0 t Ht). }
  assert (Cz : forall (Q0 : list (list (list Q))) t, In t (all_tags Q0) -> components K nd (map (fun _ => map (map (fun _ => r0 : K)) Q0) (seq 0 nd)) t = zero).
  { intros Q0 t Ht. apply all_tags_in in Ht. destruct Ht as [H1 H2]. unfold components, zero. apply map_ext_in. intros c Hc. apply in_seq in Hc.
    rewrite nth_map_seq by lia. unfold pick. rewrite (nth_map_in _ Q0 (fst t) [] []) by exact H1. rewrite (nth_map_in _ _ (snd t) r0 []) by exact H2. reflexivity. }
  pose proof (Bz Qpos (mkState K S V z) (Cz Qpos)) as B. pose proof (Bz Qpos' (mkState K S' V' z') (Cz Qpos')) as B'. cbn [st_S st_V] in B, B'.
  destruct (same_run K inj store nd Qpos Qpos' pull pull' Hpull (Pull K :: rest) (mkState K S V z) (mkState K S' V' z') Gz Gz') as (r & r' & g & R1 & R2 & _ & _ & R5 & R6).
  { rewrite B, B'. now apply Permutation_map. }
  exists r, r', (fun b => fst (g (b, zero))). split; [exact R1|]. split; [exact R2|].
  rewrite !tracks_bodies, R5, R6, B, B', !map_map. now split.
Qed.
Print Assumptions C105_integrators.

(** ** four cells; two ranks and one *)
Definition lone_pt : partition := {| i_edges := [[0; 4]]%Z; local_i_start := [[0]]%Z; local_i_shape := [[4]]%Z |}.
Definition lone_pms (w : window) : list pm := [mesh_pm [4]%Z lone_pt [[0]] [8%Q] w 0].
Definition lone_outs : list field := [{| f_array := c_array [4]%Z; f_data := fun _ => 3%Q |}].
Definition skew_pt : partition := {| i_edges := [[0; 3; 4]]%Z; local_i_start := [[0]; [3]]%Z; local_i_shape := [[3]; [1]]%Z |}.
Definition skew_pms (w : window) : list pm := map (mesh_pm [4]%Z skew_pt nb_blocks [8%Q] w) (seq 0 2).
Definition skew_outs : list field := [{| f_array := c_array [3]%Z; f_data := fun _ => 3%Q |}; {| f_array := c_array [1]%Z; f_data := fun _ => 3%Q |}].
Definition rank_tsc : window := ResampleWindow TunedTSC 0.
Lemma lone_simulation w : 0 < native_of (w_kind w) -> 0 <= w_support w ->
  simulation Qcring [] 4 nb_roots nb_invs (Scalar 8%Q) [8%Q] w lone_pt [[0]] (lone_pms w) lone_outs nb_mid.
Proof.
  intros Hk Hs. constructor; try assumption; try reflexivity.
  - exact (sm_roots _ _ _ _ _ _ _ _ _ _ _ _ _ nb_simulation).
  - constructor; try reflexivity.
    + constructor; try reflexivity; [simpl; lia|]. cbn [N app i_edges lone_pt]. repeat apply Forall2_cons; try apply Forall2_nil; (split; [lia|split; [simpl; lia|split; [sorted_z|split; reflexivity]]]).
    + cbn [i_edges lone_pt]. repeat apply Forall_cons; try apply Forall_nil; intros i j Hi Hj; simpl in Hj; destruct i as [|[|i]], j as [|[|j]]; simpl; lia.
    + right. reflexivity.
  - intros r Hr. destruct r as [|r]; [|simpl in Hr; lia]. apply (c_array_stored [4]%Z). repeat constructor.
  - now apply tiles_check.
Qed.
Lemma skew_simulation w : 0 < native_of (w_kind w) -> 0 <= w_support w ->
  simulation Qcring [] 4 nb_roots nb_invs (Scalar 8%Q) [8%Q] w skew_pt nb_blocks (skew_pms w) skew_outs nb_mid.
Proof.
  intros Hk Hs. constructor; try assumption; try reflexivity.
  - exact (sm_roots _ _ _ _ _ _ _ _ _ _ _ _ _ nb_simulation).
  - constructor; try reflexivity.
    + constructor; try reflexivity; [simpl; lia|]. cbn [N app i_edges skew_pt]. repeat apply Forall2_cons; try apply Forall2_nil; (split; [lia|split; [simpl; lia|split; [sorted_z|split; reflexivity]]]).
    + cbn [i_edges skew_pt]. repeat apply Forall_cons; try apply Forall_nil; intros i j Hi Hj; simpl in Hj; destruct i as [|[|i]], j as [|[|j]]; simpl; lia.
    + right. reflexivity.
  - intros r Hr. destruct r as [|[|r]]; [| |simpl in Hr; lia]; [apply (c_array_stored [3]%Z)|apply (c_array_stored [1]%Z)]; repeat constructor.
  - now apply tiles_check.
Qed.
Lemma nb_near : near [4] nb_pt ex_cic.
Proof.
  intros i k Hi Hk. destruct i as [|i]; [|simpl in Hi; lia]. cbn [i_edges nb_pt nth length] in *. destruct k as [|[|k]]; [| |lia]; left; cbn; unfold Qle; cbn; lia.
Qed.
Lemma lone_near w : near [4] lone_pt w.
Proof. intros i k Hi Hk. destruct i as [|i]; [|simpl in Hi; lia]. cbn [i_edges lone_pt nth length] in *. destruct k as [|k]; [|lia]. right. reflexivity. Qed.
Definition rank_force (pms : list pm) (outs : list field) (X : list (list (list Q))) : option (list (list (list Q))) :=
  option_map (map (map (map this))) (forces Qcring Q2Qc Qcinv (ex_q 4) nb_roots nb_invs nb_transfer None 1%Qc pms [4] [8%Q] outs nb_mid X).
(** three particles, on two ranks and in another order on one *)
Example C105_case :
  (exists a : nat -> list Q -> Qcring,
    forces Qcring Q2Qc Qcinv (ex_q 4) nb_roots nb_invs nb_transfer None 1%Qc nb_pms [4] [8%Q] nb_outs nb_mid [[[1%Q]; [(7#2)%Q]]; [[3%Q]]] = Some [[[a 0%nat [1%Q]; a 0%nat [(7#2)%Q]]; [a 0%nat [3%Q]]]] /\
    forces Qcring Q2Qc Qcinv (ex_q 4) nb_roots nb_invs nb_transfer None 1%Qc (lone_pms ex_cic) [4] [8%Q] lone_outs nb_mid [[[3%Q]; [1%Q]; [(7#2)%Q]]] = Some [[[a 0%nat [3%Q]; a 0%nat [1%Q]; a 0%nat [(7#2)%Q]]]]) /\
  rank_force nb_pms nb_outs [[[1%Q]; [(7#2)%Q]]; [[3%Q]]] = Some [[[(16#9)%Q; (-4#3)%Q]; [(-4#9)%Q]]] /\
  rank_force (lone_pms ex_cic) lone_outs [[[3%Q]; [1%Q]; [(7#2)%Q]]] = Some [[[(-4#9)%Q; (16#9)%Q; (-4#3)%Q]]].
Proof.
  split; [|split; vm_compute; reflexivity].
  destruct (C105_ranks Qcring Q2Qc Q_embedding Qcinv (ex_q 4) [] 4 nb_roots nb_invs [8%Q] ex_cic (Scalar 8%Q) nb_pt nb_blocks nb_pms nb_outs nb_mid
    (Scalar 8%Q) lone_pt [[0]] (lone_pms ex_cic) lone_outs nb_mid nb_simulation (lone_simulation ex_cic eq_refl ltac:(discriminate)) (standard_proper TunedCIC Logic.I) eq_refl
    nb_near (lone_near ex_cic) nb_transfer 1%Qc [[[1%Q]; [(7#2)%Q]]; [[3%Q]]] [[[3%Q]; [1%Q]; [(7#2)%Q]]]) as (a & E1 & E2).
  - split; [reflexivity|]. repeat constructor.
  - split; [reflexivity|]. repeat constructor.
  - cbn [concat app]. apply Permutation_sym. apply perm_trans with [[1%Q]; [3%Q]; [(7#2)%Q]]; [apply perm_swap|]. apply perm_skip, perm_swap.
  - exists a. split; [exact E1|exact E2].
Qed.
(** one step of the integrator of second order, with kick and drift factors 1/4 and 1/2: the
    particles move, and their order on the ranks does not matter *)
Definition rank_run (pms : list pm) (outs : list field) (Qpos S : list (list (list Q))) (V : list (list (list Qcring))) : option (list (list (list Q))) :=
  option_map (st_S Qcring) (run Qcring Q2Qc this (force Qcring Q2Qc nb_sine Qcinv nb_is0 (ex_q 4) nb_roots nb_invs 1%Qc pms [4] [8%Q] outs nb_mid Qpos) 1
    (symp2 Qcring nat (fun _ _ _ => Q2Qc (1#4)) (fun _ _ _ => Q2Qc (1#2)) (fun a _ => a) [0; 1]%nat) (mkState Qcring S V [])).
Example C105_integrators_case :
  (exists st st' g,
    run Qcring Q2Qc this (force Qcring Q2Qc nb_sine Qcinv nb_is0 (ex_q 4) nb_roots nb_invs 1%Qc nb_pms [4] [8%Q] nb_outs nb_mid [[[1%Q]; [(7#2)%Q]]; [[3%Q]]]) 1
      (symp2 Qcring nat (fun _ _ _ => Q2Qc (1#4)) (fun _ _ _ => Q2Qc (1#2)) (fun a _ => a) [0; 1]%nat) (mkState Qcring [[[0%Q]; [0%Q]]; [[0%Q]]] [[[0%Qc; 1%Qc]; [0%Qc]]] []) = Some st /\
    run Qcring Q2Qc this (force Qcring Q2Qc nb_sine Qcinv nb_is0 (ex_q 4) nb_roots nb_invs 1%Qc (lone_pms ex_cic) [4] [8%Q] lone_outs nb_mid [[[3%Q]; [1%Q]; [(7#2)%Q]]]) 1
      (symp2 Qcring nat (fun _ _ _ => Q2Qc (1#4)) (fun _ _ _ => Q2Qc (1#2)) (fun a _ => a) [0; 1]%nat) (mkState Qcring [[[0%Q]; [0%Q]; [0%Q]]] [[[0%Qc; 0%Qc; 1%Qc]]] []) = Some st' /\
    tracks 1 [[[1%Q]; [(7#2)%Q]]; [[3%Q]]] (st_S _ st) (st_V _ st) = [g ([1%Q], [0%Q], [0%Qc]); g ([(7#2)%Q], [0%Q], [1%Qc]); g ([3%Q], [0%Q], [0%Qc])] /\
    tracks 1 [[[3%Q]; [1%Q]; [(7#2)%Q]]] (st_S _ st') (st_V _ st') = [g ([3%Q], [0%Q], [0%Qc]); g ([1%Q], [0%Q], [0%Qc]); g ([(7#2)%Q], [0%Q], [1%Qc])]) /\
  rank_run nb_pms nb_outs [[[1%Q]; [(7#2)%Q]]; [[3%Q]]] [[[0%Q]; [0%Q]]; [[0%Q]]] [[[0%Qc; 1%Qc]; [0%Qc]]] = Some [[[(2#9)%Q]; [(1#3)%Q]]; [[(-1#18)%Q]]] /\
  rank_run (lone_pms ex_cic) lone_outs [[[3%Q]; [1%Q]; [(7#2)%Q]]] [[[0%Q]; [0%Q]; [0%Q]]] [[[0%Qc; 0%Qc; 1%Qc]]] = Some [[[(-1#18)%Q]; [(2#9)%Q]; [(1#3)%Q]]].
Proof.
  split; [|split; vm_compute; reflexivity].
  apply (C105_integrators Qcring Q2Qc Q_embedding nb_sine Qcinv nb_is0 (ex_q 4) [] 4 nb_roots nb_invs [8%Q] ex_cic (Scalar 8%Q) nb_pt nb_blocks nb_pms nb_outs nb_mid
    (Scalar 8%Q) lone_pt [[0]] (lone_pms ex_cic) lone_outs nb_mid nb_simulation (lone_simulation ex_cic eq_refl ltac:(discriminate)) (standard_proper TunedCIC Logic.I) eq_refl
    nb_near (lone_near ex_cic) 1%Qc this nat (fun _ _ _ => Q2Qc (1#4)) (fun _ _ _ => Q2Qc (1#2)) (fun a _ => a) (fun a _ => a) (fun a _ => a) (fun a _ => a) [0; 1]%nat
    [[[1%Q]; [(7#2)%Q]]; [[3%Q]]] [[[0%Q]; [0%Q]]; [[0%Q]]] [[[0%Qc; 1%Qc]; [0%Qc]]] [] [[[3%Q]; [1%Q]; [(7#2)%Q]]] [[[0%Q]; [0%Q]; [0%Q]]] [[[0%Qc; 0%Qc; 1%Qc]]] []).
  1-6: split; [reflexivity|]; repeat constructor.
  - cbn [tracks flat_map map seq length nth app]. eapply perm_trans; [apply perm_skip, perm_swap|]. apply perm_swap.
  - right. left. reflexivity.
Qed.
(** Without room - three cells and one on two ranks, and a window of three cells - the force on
    the same particle differs from that on one rank *)
Theorem C105_room_refuted : exists X X' a b,
  simulation Qcring [] 4 nb_roots nb_invs (Scalar 8%Q) [8%Q] rank_tsc skew_pt nb_blocks (skew_pms rank_tsc) skew_outs nb_mid /\
  simulation Qcring [] 4 nb_roots nb_invs (Scalar 8%Q) [8%Q] rank_tsc lone_pt [[0]] (lone_pms rank_tsc) lone_outs nb_mid /\
  near [4] lone_pt rank_tsc /\ concat X = concat X' /\
  rank_force (skew_pms rank_tsc) skew_outs X = Some [a] /\ rank_force (lone_pms rank_tsc) lone_outs X' = Some [b] /\
  ~ Forall2 Qeq (concat a) (concat b).
Proof.
  exists [[[1%Q]; [(7#2)%Q]; [3%Q]]; []], [[[1%Q]; [(7#2)%Q]; [3%Q]]]. do 2 eexists.
  split; [exact (skew_simulation rank_tsc eq_refl ltac:(discriminate))|]. split; [exact (lone_simulation rank_tsc eq_refl ltac:(discriminate))|].
  split; [exact (lone_near rank_tsc)|]. split; [reflexivity|]. split; [vm_compute; reflexivity|]. split; [vm_compute; reflexivity|].
  intros H. inversion H as [|? ? ? ? Q]. discriminate Q.
Qed.
Print Assumptions C105_room_refuted.
