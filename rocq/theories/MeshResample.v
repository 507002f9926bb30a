(** Model of [mesh_coordinates], [generate_uniform_particle_grid], [upsample] and
    [downsample] (pm.py:1697-1751, 1936-2026) and the cells they visit. *)
From Coq Require Import List Arith ZArith QArith Qabs Qround Lqa Lia Bool Sorted Permutation Setoid Morphisms.
From Verif Require Import Base ListFacts LayoutModel LayoutSpec LayoutProofs LayoutModes LayoutMore WrapModel WrapProofs DomainModel DomainFill DomainGeom DomainTargets
  DomainHome DomainProperties QSum WindowModel WindowStencil WindowSpread WindowKernels WindowAxis WindowNative WindowApi WindowPoints
  WindowGrad WindowTranslate WindowProperties MeshModel MeshAssign MeshRoute MeshPaint MeshTile MeshDistributed MeshGrad.
Import ListNotations.
Local Open Scope Q_scope.

(** * Model *)

(** pm.py:1697-1702: the indices of the local array in C order, plus its start *)
Definition mesh_coordinates (p : pm) : list (list Z) :=
  map (fun idx => map (fun c => (fst c + snd c)%Z) (combine idx (pm_start p)))
      (DomainFill.box (map (fun n => (0%Z, n)) (pm_shape p))).
Definition coordinates_Q (p : pm) : list (list Q) := map (map inject_Z) (mesh_coordinates p).

(** pm.py:1727-1751; [shift] broadcast to the dimensions.  Positions and ids. *)
Definition generate_uniform_particle_grid (p : pm) (shift : value Q) : outcome (list (list Q) * list Z) :=
  bind (mkarr shift (length (pm_Nmesh p))) (fun sh =>
  Ret (map (fun c => map (fun x => (fst (fst x) + snd (fst x)) * snd x)
                         (combine (combine c sh) (map (fun nb => snd nb / inject_Z (fst nb)) (combine (pm_Nmesh p) (pm_BoxSize p)))))
           (coordinates_Q p),
       map (fun c => match c with
                     | [] => 0%Z
                     | c0 :: cs => fold_left (fun id nc => (id * fst nc + snd nc)%Z) (combine (tl (pm_Nmesh p)) cs) c0
                     end) (mesh_coordinates p))).

Definition prod_Z (l : list Z) : Q := inject_Z (fold_left Z.mul l 1%Z).
Definition prod_Q (l : list Q) : Q := fold_left Qmult l 1.
(** pm.py:1980 and 2018: ratio of the number densities of mesh points *)
Definition density_ratio (source target : pm) : Q :=
  (prod_Z (pm_Nmesh source) / prod_Q (pm_BoxSize source)) / (prod_Z (pm_Nmesh target) / prod_Q (pm_BoxSize target)).
Definition nnb : window := ResampleWindow TunedNNB 0.
Definition smoothing_of (w : option window) : smoothing_arg := match w with Some w => SmoothWindow w | None => SmoothDefault end.

(** pm.py:1957-1985 *)
Definition upsample (pms : list pm) (sources : list pm) (fields : list field) (outs : list field)
    (w : option window) (keep_mean : bool) : list (outcome memory) :=
  let q := map coordinates_Q pms in
  let transforms := map (fun ps : pm * pm => let (p, s) := ps in
      Affine (length (pm_Nmesh p)) (Some (Array (map (fun ab => 1 * inject_Z (fst ab) / inject_Z (snd ab)) (combine (pm_Nmesh s) (pm_Nmesh p)))))
             (Some (Array (map (fun x => inject_Z (- x)) (pm_start s)))) (Some (Array (pm_Nmesh s)))) (combine pms sources) in
  match all_ret transforms with
  | None => block_rest transforms
  | Some ts =>
      let first := pm_decompose sources (smoothing_of w) (Some ts) q in
      match all_ret first with
      | None => block_rest first
      | Some _ =>
          let layouts := pm_decompose sources (SmoothNumber (Scalar (16#10))) (Some ts) q in
          match all_ret layouts with
          | None => block_rest layouts
          | Some ls =>
              let read := pm_readout sources w (Some ts) None (Some ls) fields q WNone in
              match all_ret read with
              | None => block_rest read
              | Some f =>
                  let f := if keep_mean then f
                           else map (fun x : pm * pm * list Q => let '(p, s, l) := x in map (fun v => v * density_ratio s p) l) (combine (combine pms sources) f) in
                  pm_paint pms (Some nnb) (Some (map pm_affine_grid pms)) false None None outs q WNone (WArray f)
              end
          end
      end
  end.

(** pm.py:2009-2026 *)
Definition downsample (pms : list pm) (sources : list pm) (fields : list field) (outs : list field)
    (w : option window) (keep_mean : bool) : list (outcome memory) :=
  let q := map coordinates_Q sources in
  let read := pm_readout sources (Some nnb) (Some (map pm_affine_grid sources)) None None fields q WNone in
  match all_ret read with
  | None => block_rest read
  | Some f =>
      let transforms := map (fun ps : pm * pm => let (p, s) := ps in
          affine_rescale (pm_affine_grid p) (Array (map (fun ab => 1 * inject_Z (fst ab) / inject_Z (snd ab)) (combine (pm_Nmesh p) (pm_Nmesh s)))))
          (combine pms sources) in
      match all_ret transforms with
      | None => block_rest transforms
      | Some ts =>
          let f := if keep_mean
                   then map (fun x : pm * pm * list Q => let '(p, s, l) := x in map (fun v => v / density_ratio s p) l) (combine (combine pms sources) f)
                   else f in
          let layouts := pm_decompose pms (smoothing_of w) (Some ts) q in
          match all_ret layouts with
          | None => block_rest layouts
          | Some ls => pm_paint pms w (Some ts) false None (Some ls) outs q WNone (WArray f)
          end
      end
  end.

(** * The nearest window on the mesh points of a rank *)
Section Nnb.
Variables (Nmesh : list Z) (pt : partition) (blocks : list (list Z)).
Hypothesis (OK : mesh_ok Nmesh pt blocks).
Local Notation P := (length blocks).
Local Notation nd := (length Nmesh).
Local Notation start r := (block_start (i_edges pt) (block blocks r)).
Local Notation shape r := (block_shape (i_edges pt) (block blocks r)).
Variables (r : nat) (real : array).
Hypothesis (Hr : (r < P)%nat) (HR : stored real (shape r)).
Let t := affine_at Nmesh pt blocks (map (fun _ => 1) Nmesh) r.

Lemma nnb_wf : wf_call real t.
Proof. apply (wf_local _ _ _ OK); [apply map_length|exact Hr|exact HR]. Qed.

Lemma nnb_axis i c j : (i < nd)%nat -> (0 <= c < nth i Nmesh 0)%Z ->
  wsum (axis_points (painter_of nnb real t None) 1 (axis_of real t None i) (inject_Z (c + nth i (start r) 0%Z))) j ==
  if (c =? j)%Z then 1 else 0.
Proof.
  intros Hi Hc. set (a := axis_of real t None i). set (x := inject_Z (c + nth i (start r) 0%Z)).
  assert (Pa : ax_period a = nth i Nmesh 0%Z) by reflexivity.
  assert (G : grid_pos a x == inject_Z c).
  { unfold grid_pos, x, a. cbn [ax_scale ax_translate axis_of af_scale af_translate t affine_at].
    rewrite (nth_map_in _ Nmesh i 0 0%Z) by exact Hi.
    rewrite (nth_map_in _ (start r) i 0 0%Z) by (rewrite (start_length _ _ _ OK r Hr); exact Hi).
    rewrite inject_Z_plus, inject_Z_opp. ring. }
  assert (O : ax_order a = 0%Z).
  { unfold a. cbn [ax_order axis_of]. rewrite (proj1 HR), (block_shape_length _ _ _ OK r Hr). rewrite order_spec_nth by exact Hi. reflexivity. }
  assert (F : Qfloor (grid_pos a x + (1#2)) = c).
  { apply Qfloor_unique. rewrite G. split; lra. }
  assert (N : Forall2 pair_eq (axis_points (painter_of nnb real t None) 1 a x) (native_line TunedNNB a x)).
  { apply axis_points_native.
    - apply standard_proper. exact Logic.I.
    - unfold native_painter. reflexivity.
    - rewrite Pa. lia.
    - intros _. left. exact O. }
  rewrite (pair_eq_wsum _ _ j N). unfold native_line. cbn [native_of]. rewrite first_point_1, F.
  change (Z.to_nat 1) with 1%nat. cbn [zrange map]. unfold wsum. rewrite qsum_cons, qsum_nil. cbn [fst snd].
  unfold wrap_axis. rewrite Pa. destruct (Z.gtb_spec (nth i Nmesh 0%Z) 0); [|lia]. rewrite Z.mod_small by exact Hc.
  destruct (c =? j)%Z; [|ring].
  rewrite (line_weight_n TunedNNB 1 a x c Logic.I eq_refl). rewrite O. cbn [Z.eqb kernel_of].
  rewrite nearest_in; [ring| |]; rewrite G; lra.
Qed.

(** a particle on a cell weighs one there and nothing elsewhere *)
Lemma nnb_weight idx idx' : In idx (elements real) -> In idx' (elements real) ->
  weight_of (painter_of nnb real t None) 1 (map inject_Z (zadd idx (start r))) idx' ==
  if list_eq_dec Z.eq_dec idx idx' then 1 else 0.
Proof.
  intros H H'. pose proof (elements_length _ _ H) as L. pose proof (elements_length _ _ H') as L'.
  assert (D : length (ar_shape real) = nd) by (rewrite (proj1 HR); apply (block_shape_length _ _ _ OK r Hr)).
  assert (Lz : length (zadd idx (start r)) = length idx) by (apply zadd_length; rewrite (start_length _ _ _ OK r Hr); lia).
  rewrite weight_of_prod; [|exact nnb_wf|rewrite map_length; lia|exact L'].
  rewrite D.
  assert (A : forall i, (i < nd)%nat ->
    wsum (axis_points (painter_of nnb real t None) 1 (axis_of real t None i) (nth i (map inject_Z (zadd idx (start r))) 0)) (nth i idx' 0%Z) ==
    if (nth i idx 0 =? nth i idx' 0)%Z then 1 else 0).
  { intros i Hi. rewrite (nth_map_in _ (zadd idx (start r)) i 0 0%Z) by lia.
    rewrite zadd_nth by (rewrite (start_length _ _ _ OK r Hr); lia). apply nnb_axis; [exact Hi|].
    pose proof (elements_bound _ _ i H ltac:(lia)) as B. rewrite (proj1 HR) in B.
    pose proof (block_bounds _ _ _ OK r i Hr Hi). lia. }
  destruct (list_eq_dec Z.eq_dec idx idx') as [E|E].
  - subst idx'. rewrite (qprod_map_ext _ (fun _ => 1)).
    + generalize (seq 0 nd) as l. intros l. induction l as [|k l IH]; [reflexivity|]. cbn [map qprod fold_right].
      change (fold_right Qmult 1 (map (fun _ => 1) l)) with (qprod (map (fun _ : nat => 1) l)). rewrite IH. ring.
    + intros i Hi. apply in_seq in Hi. rewrite A by lia. rewrite Z.eqb_refl. reflexivity.
  - assert (X : exists i, (i < nd)%nat /\ nth i idx 0%Z <> nth i idx' 0%Z).
    { destruct (forall_or_exists (fun i => nth i idx 0%Z <> nth i idx' 0%Z) (fun i => nth i idx 0%Z = nth i idx' 0%Z) nd) as [Y|Y].
      - intros i _. destruct (Z.eq_dec (nth i idx 0%Z) (nth i idx' 0%Z)); [right|left]; assumption.
      - exact Y.
      - exfalso. apply E. apply (nth_ext _ _ 0%Z 0%Z); [lia|]. intros i Hi. apply Y. lia. }
    destruct X as (i & Hi & Ne). apply (qprod_map_zero _ _ i); [apply in_seq; lia|].
    rewrite A by exact Hi. destruct (Z.eqb_spec (nth i idx 0%Z) (nth i idx' 0%Z)); [contradiction|reflexivity].
Qed.

Definition own_cells : list (list Q) := map (fun idx => map inject_Z (zadd idx (start r))) (elements real).

Lemma own_cells_wf : wf_pos real own_cells.
Proof.
  unfold wf_pos, own_cells. rewrite Forall_map. apply Forall_forall. intros idx H. rewrite map_length.
  assert (D : length (ar_shape real) = nd) by (rewrite (proj1 HR); apply (block_shape_length _ _ _ OK r Hr)).
  pose proof (elements_length _ _ H). rewrite zadd_length; [lia|]. rewrite (start_length _ _ _ OK r Hr). lia.
Qed.

Lemma elements_NoDup' : NoDup (elements real).
Proof. unfold elements. apply cells_of_NoDup. Qed.

Lemma nnb_paint m f : length f = length (elements real) ->
  exists m', window_paint nnb real m own_cells None (Some (Array f)) None (Some t) = Ret m' /\
  forall k, (k < length (elements real))%nat ->
    elem real m' (nth k (elements real) []) == elem real m (nth k (elements real) []) + nth k f 0.
Proof.
  intros L. assert (Lc : length own_cells = length (elements real)) by apply map_length.
  eexists. split; [apply (window_paint_values nnb real t None); [exact Logic.I|exact Logic.I|cbn [arg_fits]; lia]|].
  intros k Hk. set (idx := nth k (elements real) []). assert (Hin : In idx (elements real)) by (apply nth_In; exact Hk).
  rewrite (paint_all_elem nnb real t None nnb_wf ltac:(reflexivity)); [|exact own_cells_wf|cbn [values_of]; lia|cbn [values_of]; apply repeat_length|exact Hin].
  apply Qplus_comp; [reflexivity|]. cbn [values_of].
  rewrite (qsum_single _ (seq 0 (length own_cells)) k); [|apply seq_NoDup|apply in_seq; lia|].
  - unfold own_cells at 2. rewrite (nth_map_in _ (elements real) k [] []) by exact Hk. rewrite nth_repeat_in by lia.
    fold idx. rewrite nnb_weight by assumption. destruct (list_eq_dec Z.eq_dec idx idx); [ring|contradiction].
  - intros j Hj Ne. apply in_seq in Hj. unfold own_cells at 2. rewrite (nth_map_in _ (elements real) j [] []) by lia. rewrite nth_repeat_in by lia.
    rewrite nnb_weight; [|apply nth_In; lia|exact Hin]. destruct (list_eq_dec Z.eq_dec (nth j (elements real) []) idx) as [E|E]; [|ring].
    exfalso. apply Ne. apply (proj1 (NoDup_nth _ []) elements_NoDup' j k); [lia|exact Hk|exact E].
Qed.

Lemma nnb_readout m : exists us, window_readout nnb real m own_cells None None (Some t) = Ret us /\
  length us = length (elements real) /\
  forall k, (k < length (elements real))%nat -> nth k us 0 == elem real m (nth k (elements real) []).
Proof.
  assert (Lc : length own_cells = length (elements real)) by apply map_length.
  eexists. split; [apply (window_readout_values nnb real t None); exact Logic.I|].
  split; [rewrite map_length, seq_length; exact Lc|].
  intros k Hk. rewrite nth_map_seq by lia. cbn [values_of]. rewrite nth_repeat_in by lia.
  unfold own_cells. rewrite (nth_map_in _ (elements real) k [] []) by exact Hk.
  set (idx := nth k (elements real) []). assert (Hin : In idx (elements real)) by (apply nth_In; exact Hk).
  rewrite readout_elements; [|exact nnb_wf|reflexivity|].
  - rewrite (qsum_single _ (elements real) idx elements_NoDup' Hin).
    + rewrite nnb_weight by assumption. destruct (list_eq_dec Z.eq_dec idx idx); [ring|contradiction].
    + intros b Hb Ne. rewrite nnb_weight by assumption. destruct (list_eq_dec Z.eq_dec idx b); [congruence|ring].
  - pose proof own_cells_wf as W. unfold wf_pos in W. rewrite Forall_forall in W. apply W. unfold own_cells.
    apply (in_map (fun idx => map inject_Z (zadd idx (start r)))). exact Hin.
Qed.
End Nnb.
