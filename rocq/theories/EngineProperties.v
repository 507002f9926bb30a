(** Property C82: the Jacobian products of the statements of ParticleMeshEngine (pmesh/abopt.py). *)
From Coq Require Import List Arith ZArith QArith Lia Bool Permutation Ring Qcanon.
From Verif Require Import Base ListFacts LayoutModel WrapModel WrapProofs DomainModel DomainFill DomainAssign MeshModel MeshAssign
  MeshRoute MeshTile RingModel FieldModel FieldFacts FieldProperties FieldSort FieldResample FieldNorm FourierModel FourierFacts
  FourierProperties FloatModel EngineModel.
Import ListNotations.
Local Close Scope Q_scope.
Local Open Scope Z_scope.

(** ** arrays *)
Section Arrays.
Variable R : cring.
Add Ring Rr : (rth R).
Local Open Scope rg_scope.
Local Notation world := (world R).
(** numbers of elements on the ranks *)
Definition shape (x : world) : list nat := map (@length _) x.
(** the inner product of two arrays: all ranks, all elements *)
Definition dot2 (x y : world) : R := rsum (fun q => fst q * snd q) (combine (concat x) (concat y)).
(** x + t d *)
Definition moved (t : R) (x d : world) : world := each2 R radd x (each R (fun a => t * a) d).
(** x + t j + t^2 r *)
Definition expansion (t : R) (x j r : world) : world := each2 R radd (moved t x j) (each R (fun a => t * t * a) r).

Lemma map2_nil {A B D} (f : A -> B -> D) l : map2 f l [] = [].
Proof. destruct l; reflexivity. Qed.
Lemma concat_each2 f (x y : world) : shape x = shape y -> concat (each2 R f x y) = map2 f (concat x) (concat y).
Proof.
  revert y. induction x as [|a x IH]; intros [|b y] H; try discriminate; [reflexivity|].
  injection H as H1 H2. unfold each2. rewrite map2_cons. cbn [concat]. change (map2 (map2 f) x y) with (each2 R f x y).
  rewrite IH by assumption. clear IH H2. revert b H1. induction a as [|u a IHa]; intros [|v b] H1; try discriminate; [reflexivity|].
  cbn [app]. rewrite !map2_cons. cbn [app]. f_equal. apply IHa. now injection H1.
Qed.
Lemma concat_each f (x : world) : concat (each R f x) = map f (concat x).
Proof. unfold each. symmetry. apply concat_map. Qed.
Lemma shape_each f (x : world) : shape (each R f x) = shape x.
Proof. unfold shape, each. rewrite map_map. apply map_ext. intros l. apply map_length. Qed.
Lemma shape_each2 f (x y : world) : shape x = shape y -> shape (each2 R f x y) = shape x.
Proof.
  revert y. induction x as [|a x IH]; intros [|b y] H; try discriminate; [reflexivity|].
  injection H as H1 H2. unfold each2. rewrite map2_cons. cbn [shape map]. f_equal; [now apply map2_length|]. now apply IH.
Qed.
Lemma world_eq (x y : world) : shape x = shape y -> concat x = concat y -> x = y.
Proof.
  revert y. induction x as [|a x IH]; intros [|b y] H E; try discriminate; [reflexivity|].
  injection H as H1 H2. cbn [concat] in E.
  assert (a = b /\ concat x = concat y) as [-> E2].
  { clear IH H2. revert b H1 E. induction a as [|u a IHa]; intros [|v b] H1 E; try discriminate; [now split|].
    injection E as -> E. injection H1 as H1. destruct (IHa b H1 E) as [-> E']. now split. }
  f_equal. now apply IH.
Qed.
Lemma shape_concat (x y : world) : shape x = shape y -> length (concat x) = length (concat y).
Proof.
  revert y. induction x as [|a x IH]; intros [|b y] H; try discriminate; [reflexivity|].
  injection H as H1 H2. cbn [concat]. rewrite !app_length, H1. f_equal. now apply IH.
Qed.
Lemma sums_dot (x y : world) : shape x = shape y ->
  allsum R (map (fun p => rsum (fun q => fst q * snd q) (combine (fst p) (snd p))) (combine x y)) = dot2 x y.
Proof.
  unfold dot2, allsum. revert y. induction x as [|a x IH]; intros [|b y] H; try discriminate; [reflexivity|].
  injection H as H1 H2. cbn [combine map concat]. rewrite rsum_cons, IH by assumption. cbn [fst snd].
  assert (E : combine (a ++ concat x) (b ++ concat y) = combine a b ++ combine (concat x) (concat y)).
  { clear -H1. revert b H1. induction a as [|u a IHa]; intros [|v b] H1; try discriminate; [reflexivity|].
    cbn. f_equal. apply IHa. now injection H1. }
  rewrite E, rsum_app. reflexivity.
Qed.
(** RealField.cdot *)
Lemma real_cdot_dot2 (Ls Ms : list (lfield R)) : map (fun L => length (lvals L)) Ls = map (fun L => length (lvals L)) Ms ->
  real_cdot R Ls Ms = map (fun _ => Ret (dot2 (map lvals Ls) (map lvals Ms))) Ls.
Proof.
  intros H. unfold real_cdot. rewrite <- sums_dot by (unfold shape; rewrite !map_map; exact H).
  apply map_ext. intros _. f_equal. unfold allsum. rewrite rsum_map. clear H. revert Ms.
  induction Ls as [|L Ls IH]; intros [|M Ms]; try reflexivity. cbn [map combine]. rewrite !rsum_cons. f_equal. apply IH.
Qed.


Lemma has_shape_each f (x : world) s : shape x = s -> shape (each R f x) = s.
Proof. now rewrite shape_each. Qed.
Lemma has_shape_each2 f (x y : world) s : shape x = s -> shape y = s -> shape (each2 R f x y) = s.
Proof. intros H1 H2. rewrite shape_each2; congruence. Qed.
Ltac shape_to := repeat first [apply has_shape_each | apply has_shape_each2]; try assumption; reflexivity.
Ltac shapes y := unfold expansion, moved; transitivity (shape y); [shape_to | symmetry; shape_to].
Ltac flatten y := unfold expansion, moved; repeat first [rewrite concat_each | rewrite concat_each2 by (shapes y)].

(** *** add *)
Theorem C82_add : forall x1 x2 d1 d2 y : world,
  shape x1 = shape y -> shape x2 = shape y -> shape d1 = shape y -> shape d2 = shape y ->
  (forall t, add R (moved t x1 d1) (moved t x2 d2) = moved t (add R x1 x2) (add_jvp R d1 d2)) /\
  dot2 y (add_jvp R d1 d2) = dot2 (fst (add_vjp R y)) d1 + dot2 (snd (add_vjp R y)) d2.
Proof.
  intros x1 x2 d1 d2 y S1 S2 S3 S4. unfold add, add_jvp, add_vjp. cbn [fst snd]. split.
  - intros t. apply world_eq; [shapes y|]. flatten y.
    assert (L1 : length (concat x1) = length (concat y)) by now apply shape_concat.
    assert (L2 : length (concat x2) = length (concat y)) by now apply shape_concat.
    assert (L3 : length (concat d1) = length (concat y)) by now apply shape_concat.
    assert (L4 : length (concat d2) = length (concat y)) by now apply shape_concat.
    revert L1 L2 L3 L4. generalize (concat x1) (concat x2) (concat d1) (concat d2). generalize (concat y).
    intros l. induction l as [|c l IH]; intros [|a1 l1] [|a2 l2] [|a3 l3] [|a4 l4] L1 L2 L3 L4; try discriminate; [reflexivity|].
    cbn [map]. rewrite !map2_cons. cbn [map]. rewrite !map2_cons. f_equal; [ring|]. apply IH; cbn [length] in *; lia.
  - unfold dot2. flatten y.
    assert (L3 : length (concat d1) = length (concat y)) by now apply shape_concat.
    assert (L4 : length (concat d2) = length (concat y)) by now apply shape_concat.
    revert L3 L4. generalize (concat d1) (concat d2). generalize (concat y).
    intros l. induction l as [|c l IH]; intros [|a3 l3] [|a4 l4] L3 L4; try discriminate; [cbn; ring|].
    cbn [combine]. rewrite !map2_cons. cbn [combine]. rewrite !rsum_cons. cbn [fst snd]. rewrite IH by (cbn [length] in *; lia). ring.
Qed.

Ltac lengths l := match goal with
  | H : shape ?x = shape l |- _ =>
      let L := fresh "L" in assert (L : length (concat x) = length (concat l)) by (now apply shape_concat);
      clear H; revert L; generalize (concat x); lengths l
  | _ => generalize (concat l) end.
Ltac walk l := let c := fresh "c" in let IH := fresh "IH" in
  induction l as [|c l IH]; intros;
  repeat match goal with H : length ?a = length _ |- _ => is_var a; destruct a; try discriminate H end;
  [try reflexivity; try (cbn; ring)|].
Ltac steps := repeat (cbn [map combine]; rewrite ?map2_cons); rewrite ?rsum_cons; cbn [fst snd].
Ltac ih := cbn [length] in *; try lia.

(** *** multiply *)
Theorem C82_multiply : forall x1 x2 d1 d2 y : world,
  shape x1 = shape y -> shape x2 = shape y -> shape d1 = shape y -> shape d2 = shape y ->
  (forall t, multiply R (moved t x1 d1) (moved t x2 d2) =
             expansion t (multiply R x1 x2) (multiply_jvp R d1 d2 x1 x2) (multiply R d1 d2)) /\
  dot2 y (multiply_jvp R d1 d2 x1 x2) = dot2 (fst (multiply_vjp R y x1 x2)) d1 + dot2 (snd (multiply_vjp R y x1 x2)) d2.
Proof.
  intros x1 x2 d1 d2 y S1 S2 S3 S4. unfold multiply, multiply_jvp, multiply_vjp. cbn [fst snd]. split.
  - intros t. apply world_eq; [shapes y|]. flatten y. lengths y. intros l. walk l.
    steps. f_equal; [ring|]. apply IH; ih.
  - unfold dot2. flatten y. lengths y. intros l. walk l. steps. rewrite IH by ih. ring.
Qed.
(** *** residual *)
Theorem C82_residual : forall (inv : R -> R) (model data sigma d y : world),
  shape model = shape y -> shape data = shape y -> shape sigma = shape y -> shape d = shape y ->
  (forall t, residual R inv (moved t model d) data sigma = moved t (residual R inv model data sigma) (residual_jvp R inv d data sigma)) /\
  dot2 y (residual_jvp R inv d data sigma) = dot2 (residual_vjp R inv y data sigma) d.
Proof.
  intros inv model data sigma d y S1 S2 S3 S4. unfold residual, residual_jvp, residual_vjp, over. split.
  - intros t. apply world_eq; [shapes y|]. flatten y. lengths y. intros l. walk l.
    steps. f_equal; [ring|]. apply IH; ih.
  - clear S1 S2. unfold dot2. flatten y. lengths y. intros l. walk l. steps. rewrite IH by ih. ring.
Qed.
(** the values: (model - data) / sigma, entry by entry *)
Theorem C82_residual_value : forall (inv : R -> R) (model data sigma : world) r i,
  shape data = shape model -> shape sigma = shape model -> (r < length model)%nat -> (i < length (nth r model []))%nat ->
  shape (residual R inv model data sigma) = shape model /\
  nth i (nth r (residual R inv model data sigma) []) 0 =
   (nth i (nth r model []) 0 - nth i (nth r data []) 0) * inv (nth i (nth r sigma []) 0).
Proof.
  intros inv model data sigma r i S1 S2 Hr Hi. unfold residual, over. split; [shapes model|].
  revert data sigma r S1 S2 Hr Hi. induction model as [|m model IH]; intros [|d data] [|s sigma] r S1 S2 Hr Hi; try discriminate; [cbn in Hr; lia|].
  injection S1 as L1 S1. injection S2 as L2 S2. destruct r as [|r].
  - cbn in Hi |- *. clear IH. revert d s i L1 L2 Hi. induction m as [|a m IH]; intros [|b d] [|c s] i L1 L2 Hi; try discriminate; [cbn in Hi; lia|].
    destruct i as [|i]; [reflexivity|]. cbn in *. apply IH; lia.
  - cbn in Hr, Hi |- *. apply IH; try assumption; lia.
Qed.
(** *** assign *)
Theorem C82_assign : forall x d y : world, shape x = shape y -> shape d = shape y ->
  (forall t, assign R (moved t x d) = moved t (assign R x) (assign_jvp R d x)) /\
  dot2 y (assign_jvp R d x) = dot2 (assign_vjp R y) d.
Proof.
  intros x d y S1 S2. assert (E : assign_jvp R d x = d).
  { unfold assign_jvp. apply world_eq; [shapes y|]. flatten y. lengths y. intros l. walk l. steps. f_equal. apply IH; ih. }
  rewrite E. now split.
Qed.
(** *** to_scalar *)
Theorem C82_to_scalar : forall (x d : world) (y : R), shape x = shape d ->
  (forall t, to_scalar R (moved t x d) = to_scalar R x + t * to_scalar_jvp R d x + t * t * to_scalar R d) /\
  y * to_scalar_jvp R d x = dot2 (to_scalar_vjp R y x) d.
Proof.
  intros x d y S1.
  assert (Q : forall z, to_scalar R z = dot2 z z).
  { intros z. rewrite <- sums_dot by reflexivity. unfold to_scalar. f_equal.
    induction z as [|a z IH]; [reflexivity|]. cbn [map combine]. f_equal; [|exact IH]. cbn [fst snd].
    clear. induction a as [|u a IH]; [reflexivity|]. cbn [combine]. rewrite !rsum_cons. cbn [fst snd]. now rewrite IH. }
  assert (J : to_scalar_jvp R d x = dot2 x d * (1 + 1)) by (unfold to_scalar_jvp; now rewrite sums_dot).
  rewrite J. unfold to_scalar_vjp. split.
  - intros t. rewrite !Q. unfold dot2. flatten d. lengths d. intros l. walk l. steps. rewrite IH by ih. ring.
  - unfold dot2. flatten d. lengths d. intros l. walk l. steps. rewrite <- IH by ih. ring.
Qed.
(** *** addmul *)
Lemma power_product (c : R) p : power R c p = fold_right rmul 1 (repeat c p).
Proof. induction p as [|p IH]; [reflexivity|]. cbn [power repeat fold_right]. now rewrite IH. Qed.
Theorem C82_addmul : forall (a b y : world) (c : R) (p : nat), shape a = shape y -> shape b = shape y ->
  shape (addmul R a b c p) = shape y /\ dot2 (addmul R a b c p) y = dot2 a y + fold_right rmul 1 (repeat c p) * dot2 b y.
Proof.
  intros a b y c p S1 S2. rewrite <- power_product. unfold addmul. split; [shape_to|]. unfold dot2. flatten y. lengths y. intros l. walk l.
  steps. rewrite IH by ih. ring.
Qed.

(** *** assign_component *)
Local Notation rows := (rows R).
(** as many rows as values on every rank, each of [nd] entries *)
Definition table (nd : nat) (a : rows) (value : world) : Prop :=
  map (@length _) a = shape value /\ Forall (Forall (fun row => length row = nd)) a.
(** the inner product of two arrays of vectors, a + t d *)
Definition dot_rows (a b : rows) : R := rsum (fun q => inner R (fst q) (snd q)) (combine (concat a) (concat b)).
Definition moved_rows (t : R) (a d : rows) : rows :=
  map2 (map2 (fun u v => map2 (fun x y => x + t * y) u v)) a d.

Lemma concat_map22 {A B D} (f : A -> B -> D) (x : list (list A)) (y : list (list B)) : map (@length _) x = map (@length _) y ->
  concat (map2 (map2 f) x y) = map2 f (concat x) (concat y) /\ map (@length _) (map2 (map2 f) x y) = map (@length _) y.
Proof.
  revert y. induction x as [|a x IH]; intros [|b y] H; try discriminate; [now split|].
  injection H as H1 H2. rewrite map2_cons. cbn [concat map]. destruct (IH y H2) as [-> E]. split.
  - clear -H1. revert b H1. induction a as [|u a IHa]; intros [|v b] H1; try discriminate; [reflexivity|].
    cbn [app]. rewrite !map2_cons. cbn [app]. f_equal. apply IHa. now injection H1.
  - f_equal; [|exact E]. rewrite map2_length; assumption.
Qed.
Lemma list_eq_blocks {A} (x y : list (list A)) : map (@length _) x = map (@length _) y -> concat x = concat y -> x = y.
Proof.
  revert y. induction x as [|a x IH]; intros [|b y] H E; try discriminate; [reflexivity|].
  injection H as H1 H2. cbn [concat] in E.
  assert (a = b /\ concat x = concat y) as [-> E2].
  { clear IH H2. revert b H1 E. induction a as [|u a IHa]; intros [|v b] H1 E; try discriminate; [now split|].
    injection E as -> E. injection H1 as H1. destruct (IHa b H1 E) as [-> E']. now split. }
  f_equal. now apply IH.
Qed.
Lemma set_entry_moved t dim : forall (a d : list R) v w, length a = length d ->
  set_entry R dim (map2 (fun x y => x + t * y) a d) (v + t * w) = map2 (fun x y => x + t * y) (set_entry R dim a v) (set_entry R dim d w).
Proof.
  unfold set_entry. induction dim as [|dim IH]; intros [|x a] [|y d] v w H; try discriminate; try reflexivity.
  cbn [upd]. rewrite !map2_cons. cbn [upd]. f_equal. apply IH. now injection H.
Qed.
Lemma set_entry_inner dim : forall (y d : list R) v, length y = length d -> (dim < length d)%nat ->
  inner R y (set_entry R dim d v) + nth dim y 0 * nth dim d 0 = inner R y d + nth dim y 0 * v.
Proof.
  unfold set_entry, inner. induction dim as [|dim IH]; intros [|x y] [|z d] v H L; try discriminate; cbn [length] in *; try lia.
  - cbn [upd combine nth]. rewrite !rsum_cons. cbn [fst snd]. ring.
  - cbn [upd combine nth]. rewrite !rsum_cons. cbn [fst snd]. injection H as H.
    transitivity (x * z + (rsum (fun q => fst q * snd q) (combine y (upd dim (fun _ => v) d)) + nth dim y 0 * nth dim d 0)); [ring|].
    rewrite IH by lia. ring.
Qed.

(** what the products of assign_component amount to: [_attribute] keeps the component that
    the statement overwrites *)
Theorem C82_assign_component : forall nd dim (a d y : rows) (v w : world), (dim < nd)%nat ->
  table nd a v -> table nd d v -> table nd y v -> shape w = shape v ->
  (forall t, assign_component R dim (moved_rows t a d) (moved t v w) =
             moved_rows t (assign_component R dim a v) (assign_component_jvp R dim d w)) /\
  dot_rows (fst (assign_component_vjp R dim y)) d + dot2 (snd (assign_component_vjp R dim y)) w =
  dot_rows y (assign_component_jvp R dim d w) + dot2 (component R dim y) (component R dim d).
Proof.
  intros nd dim a d y v w Hd [Sa Fa] [Sd Fd] [Sy Fy] Sw. unfold assign_component, assign_component_jvp, assign_component_vjp, moved_rows, moved.
  apply Forall_concat in Fa, Fd, Fy. cbn [fst snd]. split.
  - intros t.
    assert (Smv : map (@length _) (each2 R radd v (each R (fun a => t * a) w)) = map (@length _) v).
    { apply has_shape_each2; [reflexivity|]. now apply has_shape_each. }
    destruct (concat_map22 (fun u v => map2 (fun x y : R => x + t * y) u v) a d) as [E1 L1]; [now rewrite Sa, Sd|].
    destruct (concat_map22 (set_entry R dim) (map2 (map2 (fun u v => map2 (fun x y : R => x + t * y) u v)) a d)
               (each2 R radd v (each R (fun a => t * a) w))) as [E2 L2]; [rewrite L1, Sd, Smv; reflexivity|].
    destruct (concat_map22 (set_entry R dim) a v Sa) as [E3 L3].
    destruct (concat_map22 (set_entry R dim) d w) as [E4 L4]; [unfold shape in Sw; now rewrite Sd, Sw|].
    destruct (concat_map22 (fun u v => map2 (fun x y : R => x + t * y) u v) (map2 (map2 (set_entry R dim)) a v) (map2 (map2 (set_entry R dim)) d w)) as [E5 L5].
    { rewrite L3, L4. symmetry. exact Sw. }
    apply list_eq_blocks.
    { rewrite L2, Smv, L5, L4. symmetry. exact Sw. }
    rewrite E2, E1, E5, E3, E4. rewrite concat_each2 by (symmetry; now apply has_shape_each). rewrite concat_each.
    assert (La : length (concat a) = length (concat v)) by (rewrite !concat_length_sum; unfold shape in *; now rewrite Sa).
    assert (Ld : length (concat d) = length (concat v)) by (rewrite !concat_length_sum; unfold shape in *; now rewrite Sd).
    assert (Lw : length (concat w) = length (concat v)) by now apply shape_concat.
    clear -La Ld Lw Fa Fd. revert La Ld Lw Fa Fd. generalize (concat a) (concat d) (concat w). generalize (concat v).
    intros l. induction l as [|c l IH]; intros [|r1 l1] [|r2 l2] [|c3 l3] La Ld Lw Fa Fd; try discriminate; [reflexivity|].
    cbn [map]. rewrite !map2_cons. inversion_clear Fa. inversion_clear Fd. f_equal; [apply set_entry_moved; congruence|].
    apply IH; cbn [length] in *; try lia; assumption.
  - destruct (concat_map22 (set_entry R dim) d w) as [E4 _]; [unfold shape in Sw; now rewrite Sd, Sw|].
    unfold dot_rows, dot2. rewrite E4. unfold component. rewrite <- !concat_map.
    assert (Ly : length (concat y) = length (concat v)) by (rewrite !concat_length_sum; unfold shape in *; now rewrite Sy).
    assert (Ld : length (concat d) = length (concat v)) by (rewrite !concat_length_sum; unfold shape in *; now rewrite Sd).
    assert (Lw : length (concat w) = length (concat v)) by now apply shape_concat.
    clear -Hd Ly Ld Lw Fy Fd. revert Ly Ld Lw Fy Fd. generalize (concat y) (concat d) (concat w). generalize (concat v).
    intros l. induction l as [|c l IH]; intros [|r1 l1] [|r2 l2] [|c3 l3] Ly Ld Lw Fy Fd; try discriminate; [reflexivity|].
    cbn [map combine]. rewrite !map2_cons. cbn [combine]. rewrite !rsum_cons. cbn [fst snd]. inversion_clear Fy. inversion_clear Fd.
    specialize (IH l1 l2 l3). assert (E : inner R r1 (set_entry R dim r2 c3) + nth dim r1 0 * nth dim r2 0 = inner R r1 r2 + nth dim r1 0 * c3)
      by (apply set_entry_inner; congruence).
    transitivity (inner R r1 r2 + nth dim r1 0 * c3 +
      (rsum (fun q => inner R (fst q) (snd q)) (combine l1 l2) + rsum (fun q => fst q * snd q) (combine (map (fun row => nth dim row 0) l1) l3))); [ring|].
    rewrite IH by (cbn [length] in *; try lia; assumption). rewrite <- E. ring.
Qed.
(** so the cotangents are right if the component that is overwritten had no tangent *)
Corollary C82_assign_component_adjoint : forall nd dim (d y : rows) (v w : world), (dim < nd)%nat ->
  table nd d v -> table nd y v -> shape w = shape v -> Forall (Forall (fun row => nth dim row 0 = 0)) d ->
  dot_rows y (assign_component_jvp R dim d w) =
  dot_rows (fst (assign_component_vjp R dim y)) d + dot2 (snd (assign_component_vjp R dim y)) w.
Proof.
  intros nd dim d y v w Hd Td Ty Sw Z. destruct (C82_assign_component nd dim d d y v w Hd Td Td Ty Sw) as [_ E]. rewrite E.
  assert (O : dot2 (component R dim y) (component R dim d) = 0); [|rewrite O; ring].
  unfold dot2, component. rewrite <- !concat_map. apply Forall_concat in Z. apply rsum_zero. intros [u c] H. cbn [fst snd].
  apply in_combine_r in H. apply in_map_iff in H. destruct H as (row & <- & Hr). rewrite Forall_forall in Z. rewrite (Z row Hr). ring.
Qed.
End Arrays.
(** on complex fields: a number multiplies the modes, a field does not, but its real parts the real parts and its
    imaginary parts the imaginary parts (abopt.py:29-35) *)
Section Times.
Variable K : cring.
Add Ring Kt : (rth K).
Lemma number_times (f u v : K) : (rmul u f, rmul v f) = cmul (cof f) (u, v).
Proof. unfold cmul, cof, re, im. cbn [fst snd]. f_equal; ring. Qed.
End Times.
Lemma plain_power_product (K : cring) (w : cpx K) p : plain_power K w p = (fold_right rmul r1 (repeat (re w) p), fold_right rmul r1 (repeat (im w) p)).
Proof. induction p as [|p IH]; [reflexivity|]. cbn [plain_power repeat fold_right]. rewrite IH. reflexivity. Qed.
Theorem C82_addmul_complex : forall (K : cring) (a b w : lfield (cpx K)) (c : K) (p i : nat) x y z,
  nth_error (lvals a) i = Some x -> nth_error (lvals b) i = Some y -> nth_error (lvals w) i = Some z ->
  nth_error (lvals (addmul_c K a b (Number K c) p)) i = Some (cadd x (cmul (cof (fold_right rmul r1 (repeat c p))) y)) /\
  nth_error (lvals (addmul_c K a b (ByField K w) p)) i =
    Some (radd (re x) (rmul (re y) (fold_right rmul r1 (repeat (re z) p))), radd (im x) (rmul (im y) (fold_right rmul r1 (repeat (im z) p)))) /\
  lstart (addmul_c K a b (Number K c) p) = lstart b /\ lshape (addmul_c K a b (Number K c) p) = lshape b.
Proof.
  intros K a b w c p i x y z Ha Hb Hw.
  assert (M : forall f u v : K, (rmul u f, rmul v f) = cmul (cof f) (u, v)) by (intros; apply number_times).
  unfold addmul_c. cbn [lvals lstart lshape]. split; [|split; [|split; reflexivity]].
  - clear Hw. revert i Ha Hb. generalize (lvals a) (lvals b). intros l. induction l as [|u l IH]; intros [|v m] [|i] Ha Hb; try discriminate; cbn [map]; rewrite map2_cons.
    + cbn in *. inversion Ha. inversion Hb. subst. rewrite plain_power_product. unfold plain_mul. cbn [re im fst snd].
      rewrite M. destruct y. reflexivity.
    + cbn [nth_error] in *. now apply IH.
  - revert i Ha Hb Hw. generalize (lvals a) (lvals b) (lvals w). intros l. induction l as [|u l IH]; intros [|v m] [|q n] [|i] Ha Hb Hw; try discriminate; rewrite !map2_cons.
    + cbn in *. inversion Ha. inversion Hb. inversion Hw. subst. rewrite plain_power_product. reflexivity.
    + cbn [nth_error] in *. now apply IH.
Qed.
Theorem C82_addmul_complex_refuted : exists a b w : lfield (cpx Zring),
  lvals (addmul_c Zring a b (ByField Zring w) 1) <> map2 cadd (lvals a) (map2 cmul (lvals b) (lvals w)).
Proof. exists (mkL [0%Z] [1%Z] [(0%Z, 0%Z)]), (mkL [0%Z] [1%Z] [(0%Z, 1%Z)]), (mkL [0%Z] [1%Z] [(0%Z, 1%Z)]). vm_compute. discriminate. Qed.
Print Assumptions C82_addmul_complex.
Print Assumptions C82_addmul_complex_refuted.
Print Assumptions C82_add.
Print Assumptions C82_multiply.
Print Assumptions C82_residual.
Print Assumptions C82_residual_value.
Print Assumptions C82_assign.
Print Assumptions C82_to_scalar.
Print Assumptions C82_addmul.
Print Assumptions C82_assign_component.
Print Assumptions C82_assign_component_adjoint.

(** ParticleMeshVectorSpace.dot: right for vectors *)
Theorem C82_dot : forall (R : cring) (v w : list R), length v = length w ->
  vs_dot_local R (length v) (Vector R v) (Vector R w) = Ret (Vector R [dot2 R [v] [w]]).
Proof.
  intros R v w H. unfold vs_dot_local, np_dot, dot2, inner. cbn [array_len concat]. rewrite !app_nil_r, <- H, !Nat.eqb_refl. reflexivity.
Qed.
(** arrays of different lengths, or of another length than the particles, are refused *)
Theorem C82_dot_lengths : forall (R : cring) (rows : nat) (v w : array R),
  array_len R v <> array_len R w \/ array_len R v <> rows -> vs_dot_local R rows v w = Raise AssertionError.
Proof.
  intros R rows v w H. unfold vs_dot_local. destruct (Nat.eqb_spec (array_len R v) (array_len R w)); [|reflexivity].
  destruct (Nat.eqb_spec (array_len R v) rows); [tauto|reflexivity].
Qed.
Print Assumptions C82_dot_lengths.
(** the positions and displacements of the engine are arrays of [nd] columns, for which it
    is a matrix product: an exception, or a matrix *)
Theorem C82_dot_refuted : forall (R : cring) (nd : nat) (m n : list (list R)), length m = length n ->
  (length n <> nd -> vs_dot_local R (length m) (Matrix R nd m) (Matrix R nd n) = Raise ValueError) /\
  (length n = nd -> exists k, vs_dot_local R (length m) (Matrix R nd m) (Matrix R nd n) = Ret (Matrix R nd k)).
Proof.
  intros R nd m n H. unfold vs_dot_local, np_dot. cbn [array_len]. rewrite H, !Nat.eqb_refl. cbn [andb]. split; intros E.
  - destruct (Nat.eqb_spec nd (length n)); [congruence|reflexivity].
  - destruct (Nat.eqb_spec nd (length n)); [eauto|congruence].
Qed.
Print Assumptions C82_dot.
Print Assumptions C82_dot_refuted.

(** ** modes *)
Section Modes.
Variable K : cring.
Add Ring Kr : (rth K).
Local Notation C := (cpx K).
Local Open Scope rg_scope.
Variable is0 : K -> bool.
Hypothesis Is0 : forall a : K, is0 a = true <-> a = 0.

Lemma is0_opp a : is0 (- a) = is0 a.
Proof.
  destruct (is0 a) eqn:E.
  - apply Is0 in E. subst. apply Is0. ring.
  - destruct (is0 (- a)) eqn:F; [|reflexivity]. apply Is0 in F.
    assert (a = 0) by (transitivity (- - a); [ring|]; rewrite F; ring). apply Is0 in H. congruence.
Qed.
Lemma mask_conj N i (z : C) : nyquist_mask K is0 N i (cconj z) = cconj (nyquist_mask K is0 N i z).
Proof.
  unfold nyquist_mask. cbn [cconj im snd]. rewrite is0_opp. destruct (_ || _); [reflexivity|].
  unfold cconj, c0. cbn. f_equal. ring.
Qed.
Lemma on_modes_cells f (L : lfield C) : lcells (on_modes K f L) = lcells L.
Proof. reflexivity. Qed.

(** transfer: cdot of the products, on every mesh and every partition *)
Theorem C82_transfer_adjoint : forall Nmesh cshape units tf metric units' (Us Vs : list (lfield C)),
  map lstart Us = map lstart Vs -> map lshape Us = map lshape Vs ->
  Forall (fun L => length (lvals L) = length (lcells L)) Us -> Forall (fun L => length (lvals L) = length (lcells L)) Vs ->
  cdot K Nmesh cshape units' metric (map (transfer_jvp K is0 units Nmesh tf) Us) Vs =
  cdot K Nmesh cshape units' metric Us (map (transfer_vjp K is0 units Nmesh tf) Vs).
Proof.
  intros Nmesh cshape units tf metric units' Us Vs Es Eh FU FV. unfold cdot.
  destruct (compressed Nmesh cshape) as [comp| | |]; try (unfold all_raise; now rewrite map_map).
  rewrite map_map. apply map_ext. intros _. f_equal.
  revert Vs Es Eh FV. induction Us as [|U Us IH]; intros [|V Vs] Es Eh FV; try discriminate; [reflexivity|].
  cbn [map combine]. rewrite !rsum_cons. injection Es as Es Es'. injection Eh as Eh Eh'.
  inversion_clear FU as [|? ? HU FU']. inversion_clear FV as [|? ? HV FV'].
  f_equal; [|now apply IH]. clear IH FU' FV' Es' Eh'. unfold cdot_local.
  assert (Ec : lcells V = lcells U) by (unfold lcells; now rewrite Es, Eh).
  unfold transfer_jvp, transfer_vjp. rewrite !on_modes_cells. unfold on_modes. cbn [lvals]. rewrite Ec in *.
  revert HU HV. generalize (lcells U) (lvals U) (lvals V). intros l. induction l as [|i l IH]; intros [|u us] [|v vs] HU HV; try discriminate; [reflexivity|].
  cbn [combine map]. rewrite !rsum_cons. f_equal; [|apply IH; cbn [length] in *; lia]. cbn [fst snd].
  assert (E : cmul (cconj v) (cmul (nyquist_mask K is0 Nmesh i (tf (wave K units Nmesh i))) u) =
              cmul (cconj (cmul (nyquist_mask K is0 Nmesh i (cconj (tf (wave K units Nmesh i)))) v)) u).
  { rewrite mask_conj. generalize (nyquist_mask K is0 Nmesh i (tf (wave K units Nmesh i))). intros m.
    destruct m, u, v. unfold cmul, cconj, re, im. cbn. f_equal; ring. }
  now rewrite E.
Qed.
(** and transfer_jvp is the derivative of transfer, a linear function: t z stands for a complex step *)
Definition moved_modes (t : C) (U D : lfield C) : lfield C := mkL (lstart U) (lshape U) (map2 (fun u d => cadd u (cmul t d)) (lvals U) (lvals D)).
Theorem C82_transfer_derivative : forall Nmesh units tf t (U D : lfield C),
  lstart U = lstart D -> lshape U = lshape D ->
  transfer K is0 units Nmesh tf (moved_modes t U D) =
  moved_modes t (transfer K is0 units Nmesh tf U) (transfer_jvp K is0 units Nmesh tf D).
Proof.
  intros Nmesh units tf t U D Es Eh. unfold transfer, transfer_jvp, on_modes, moved_modes. cbn [lstart lshape lvals]. f_equal.
  assert (Ec : lcells D = lcells U) by (unfold lcells; now rewrite Es, Eh). rewrite Ec.
  change (lcells {| lstart := lstart U; lshape := lshape U; lvals := _ |}) with (lcells U).
  generalize (lcells U) (lvals U) (lvals D). intros l. induction l as [|i l IH]; intros [|u us] [|v vs]; try reflexivity.
  cbn [combine map]. rewrite !map2_cons. cbn [combine map]. f_equal; [|apply IH]. cbn [fst snd].
  generalize (nyquist_mask K is0 Nmesh i (tf (wave K units Nmesh i))). intros m. destruct m, u, v, t.
  unfold cmul, cadd, re, im. cbn. f_equal; ring.
Qed.

(** the reality condition: a transfer function with tf(-k) = conj tf(k).  The mask takes care of
    the modes that are their own opposite; the others with an index N/2 need the symmetry
    themselves, for their wave vectors are not opposite *)
Lemma wave_opposite units Nmesh k : Forall (fun n => (0 < n)%Z /\ Z.even n = true) Nmesh -> valid_index Nmesh k ->
  forallb (fun p => negb (2 * snd p =? fst p)%Z) (combine Nmesh k) = true ->
  wave K units Nmesh (opposite Nmesh k) = map ropp (wave K units Nmesh k).
Proof.
  intros Ev V. unfold wave, opposite. revert units. induction V as [|n j N k Hj V IH]; intros units NQ.
  - destruct units; reflexivity.
  - destruct units as [|u units]; [reflexivity|]. rewrite map2_cons. inversion_clear Ev as [|? ? [Hn En] Ev'].
    cbn [combine forallb fst snd] in NQ. apply andb_true_iff in NQ. destruct NQ as [Nj NQ]. cbn [combine map fst snd]. f_equal.
    + rewrite C41_odd by assumption. destruct (Z.eqb_spec (2 * j) n); [discriminate|]. rewrite zin_opp. ring.
    + now apply IH.
Qed.
Lemma masked_index N k : Forall (fun n => (0 < n)%Z /\ Z.even n = true) N -> valid_index N k ->
  forallb (fun p => (snd p =? 0)%Z || (snd p =? fst p / 2)%Z) (combine N k) = true <-> opposite N k = k.
Proof.
  intros Ev V. unfold opposite. induction V as [|n j N k Hj V IH]; [now split|]. inversion_clear Ev as [|? ? [Hn En] Ev'].
  destruct (half_even n Hn En) as (h & -> & Hh & Ph). cbn [combine forallb fst snd]. rewrite map2_cons, andb_true_iff, (IH Ev'), orb_true_iff, !Z.eqb_eq, Hh.
  assert (E : (- j) mod (2 * h) = if (j =? 0)%Z then 0%Z else (2 * h - j)%Z).
  { destruct (Z.eqb_spec j 0); [subst; reflexivity|]. symmetry. apply Zmod_unique with (q := (-1)%Z); lia. }
  rewrite E. split.
  - intros [H1 H2]. rewrite H2. f_equal. destruct (Z.eqb_spec j 0); lia.
  - intros H. pose proof (f_equal (hd 0%Z) H) as H1. pose proof (f_equal (@tl Z) H) as H2. cbn [hd tl] in H1, H2.
    split; [|exact H2]. destruct (Z.eqb_spec j 0); lia.
Qed.
Lemma opposite_involutive N k : Forall (fun n => (0 < n)%Z /\ Z.even n = true) N -> valid_index N k -> opposite N (opposite N k) = k.
Proof.
  intros Ev V. unfold opposite. induction V as [|n j N k Hj V IH]; [reflexivity|]. inversion_clear Ev as [|? ? [Hn En] Ev'].
  rewrite !map2_cons, (IH Ev'). f_equal. destruct (Z.eq_dec j 0) as [E|J]; [subst j; reflexivity|].
  rewrite <- (Zmod_unique (- j) n (-1) (n - j)) by lia. rewrite <- (Zmod_unique (- (n - j)) n (-1) j) by lia. reflexivity.
Qed.
Theorem C82_transfer_hermitian : forall Nmesh cshape units tf (Us : list (lfield C)) u,
  Forall (fun n => (0 < n)%Z /\ Z.even n = true) Nmesh -> stored_shape Nmesh cshape ->
  (forall q, tf (map ropp q) = cconj (tf q)) ->
  (forall k, valid_index Nmesh k -> opposite Nmesh k <> k -> existsb (fun p => (2 * snd p =? fst p)%Z) (combine Nmesh k) = true ->
     tf (wave K units Nmesh (opposite Nmesh k)) = cconj (tf (wave K units Nmesh k))) ->
  holds Us u -> hermitian K Nmesh cshape u ->
  exists v, holds (map (transfer K is0 units Nmesh tf) Us) v /\ hermitian K Nmesh cshape v.
Proof.
  intros Nmesh cshape units tf Us u Ev St Odd Nyq H Hu.
  exists (fun k => cmul (nyquist_mask K is0 Nmesh k (tf (wave K units Nmesh k))) (u k)). split.
  - unfold holds in *. rewrite Forall_forall in *. intros L' HL'. apply in_map_iff in HL'. destruct HL' as (L & <- & HL).
    unfold transfer, on_modes. cbn [lvals]. change (lcells {| lstart := lstart L; lshape := lshape L; lvals := _ |}) with (lcells L).
    rewrite (H L HL), combine_self, map_map. reflexivity.
  - intros k Hk Ho. rewrite (Hu k Hk Ho), cconj_mul. f_equal.
    assert (V : valid_index Nmesh k).
    { apply cells_valid in Hk. clear -Hk St. revert k cshape Hk St. induction Nmesh as [|n N IH]; intros k cs Hk St.
      - inversion St; subst. exact Hk.
      - inversion St; subst. inversion Hk; subst. constructor; [lia|]. eapply IH; eauto. }
    destruct (list_eq_dec Z.eq_dec (opposite Nmesh k) k) as [E|NE].
    + rewrite E. unfold nyquist_mask. apply masked_index in E; [|assumption|assumption]. rewrite E. cbn [negb]. rewrite orb_false_r.
      destruct (is0 (im (tf (wave K units Nmesh k)))) eqn:Z0; [|unfold cconj, c0; cbn; f_equal; ring].
      apply Is0 in Z0. destruct (tf (wave K units Nmesh k)) as [a b]. cbn in Z0. subst b. unfold cconj. cbn. f_equal. ring.
    + rewrite <- mask_conj. 
      assert (T : tf (wave K units Nmesh (opposite Nmesh k)) = cconj (tf (wave K units Nmesh k))).
      { destruct (existsb (fun p => (2 * snd p =? fst p)%Z) (combine Nmesh k)) eqn:X; [now apply Nyq|].
        rewrite wave_opposite; [apply Odd|assumption|assumption|].
        apply forallb_forall. intros p Hp. destruct (2 * snd p =? fst p)%Z eqn:Y; [|reflexivity].
        exfalso. assert (existsb (fun p => (2 * snd p =? fst p)%Z) (combine Nmesh k) = true) by (apply existsb_exists; eauto). congruence. }
      rewrite T. unfold nyquist_mask.
      assert (F1 : forallb (fun p => (snd p =? 0)%Z || (snd p =? fst p / 2)%Z) (combine Nmesh k) = false).
      { destruct (forallb _ (combine Nmesh k)) eqn:F; [|reflexivity]. apply masked_index in F; [congruence|assumption|assumption]. }
      assert (F2 : forallb (fun p => (snd p =? 0)%Z || (snd p =? fst p / 2)%Z) (combine Nmesh (opposite Nmesh k)) = false).
      { destruct (forallb _ (combine Nmesh (opposite Nmesh k))) eqn:F; [|reflexivity]. apply masked_index in F; [|assumption|].
        - rewrite opposite_involutive in F by assumption. congruence.
        - apply opposite_valid; [|assumption]. eapply Forall_impl; [|exact Ev]. intros a0 [A0 _]. exact A0. }
      now rewrite F1, F2.
Qed.
End Modes.
Print Assumptions C82_transfer_adjoint.
Print Assumptions C82_transfer_derivative.
Print Assumptions C82_transfer_hermitian.

(** the last condition is needed: differentiation along the last axis of 4 x 4 cells, stored
    4 x 3.  The field is real; the result is not the transform of a real field, because the
    modes [1; 2] and [3; 2] get the same imaginary number *)
Definition along (q : list Zring) : cpx Zring := (0, nth 1 q 0).
Definition nyquist_modes (k : list Z) : cpx Zring := if idx_eqb k [1; 2] || idx_eqb k [3; 2] then (1, 0) else (0, 0).
Theorem C82_transfer_hermitian_refuted :
  (forall q, along (map ropp q) = cconj (along q)) /\
  exists (Us : list (lfield (cpx Zring))) u, tiles [4; 3] Us /\ holds Us u /\ hermitian Zring [4; 4] [4; 3] u /\
  ~ exists v, holds (map (transfer Zring (fun a => Z.eqb a 0) [1; 1] [4; 4] along) Us) v /\ hermitian Zring [4; 4] [4; 3] v.
Proof.
  split.
  - intros q. unfold along, cconj. cbn [re im fst snd].
    change ((0, nth 1 (map Z.opp q) (Z.opp 0)) = (0, (- nth 1 q 0)%Z)). now rewrite map_nth.
  - exists [fill_block nyquist_modes [0; 0] [4; 3]], nyquist_modes.
    assert (T : tiles [4; 3] [fill_block nyquist_modes [0; 0] [4; 3]]) by (apply tiles_check; vm_compute; reflexivity).
    assert (H : holds [fill_block nyquist_modes [0; 0] [4; 3]] nyquist_modes) by (constructor; [reflexivity|constructor]).
    split; [exact T|]. split; [exact H|]. split.
    + assert (F : forallb (fun k => implb (memb (opposite [4; 4] k) (cells_of [4; 3]))
          (let a := nyquist_modes (opposite [4; 4] k) in let b := cconj (nyquist_modes k) in (fst a =? fst b) && (snd a =? snd b))) (cells_of [4; 3]) = true)
        by (vm_compute; reflexivity).
      rewrite forallb_forall in F. intros k Hk Ho. specialize (F k Hk). apply memb_true in Ho. rewrite Ho in F. cbn [implb] in F.
      apply andb_true_iff in F. destruct F as [F1 F2]. apply Z.eqb_eq in F1, F2.
      rewrite (surjective_pairing (nyquist_modes (opposite [4; 4] k))), (surjective_pairing (cconj (nyquist_modes k))). now f_equal.
    + intros (v & Hv & Hh). inversion_clear Hv as [|? ? Hv' _]. vm_compute in Hv'.
      assert (E1 : v [1; 2] = (0, -2)) by congruence. assert (E2 : v [3; 2] = (0, -2)) by congruence.
      specialize (Hh [1; 2]). change (opposite [4; 4] [1; 2]) with [3; 2] in Hh. rewrite E1, E2 in Hh.
      assert (X : (0, -2) = (0, 2)); [|discriminate X].
      apply Hh; apply memb_true; vm_compute; reflexivity.
Qed.
Print Assumptions C82_transfer_hermitian_refuted.

(** multiply on complex fields: the cotangents lack the complex conjugate *)
Theorem C82_multiply_complex_refuted : exists (x1 x2 d y : lfield (cpx Zring)) v w,
  cdot Zring [1] [1] [1] None [multiply_c Zring d x2] [y] = [Ret v] /\
  cdot Zring [1] [1] [1] None [d] [multiply_c Zring y x2] = [Ret w] /\ re v <> re w /\
  fst (multiply_vjp (cpx_cring Zring) [lvals y] [lvals x1] [lvals x2]) = [lvals (multiply_c Zring y x2)].
Proof.
  exists (mkL [0] [1] [(1, 0)]), (mkL [0] [1] [(0, 1)]), (mkL [0] [1] [(1, 0)]), (mkL [0] [1] [(0, 1)]).
  do 2 eexists. split; [vm_compute; reflexivity|]. split; [vm_compute; reflexivity|]. split; [vm_compute; discriminate|reflexivity].
Qed.
Print Assumptions C82_multiply_complex_refuted.
(** assign_component: a cotangent is reported for a component that has no influence *)
Theorem C82_assign_component_refuted : exists (d y : rows Zring) (v w : world Zring),
  table Zring 2 d v /\ table Zring 2 y v /\ shape Zring w = shape Zring v /\
  dot_rows Zring y (assign_component_jvp Zring 0 d w) <>
  dot_rows Zring (fst (assign_component_vjp Zring 0 y)) d + dot2 Zring (snd (assign_component_vjp Zring 0 y)) w.
Proof.
  exists [[[1; 0]]], [[[1; 0]]], [[0]], [[0]]. repeat split; try (repeat apply Forall_cons; try apply Forall_nil; reflexivity).
  vm_compute. discriminate.
Qed.
Print Assumptions C82_assign_component_refuted.

(** ** lowpass *)
Section Lowpass.
Variable K : cring.
Add Ring Kr3 : (rth K).
Local Notation C := (cpx K).
Variables (base : list Z) (n : Z).
Local Notation N := (N base n).
Local Notation half := (half base n).
Variables (ws : list C) (is : list K).
Hypothesis M : mesh_roots K N ws is.
Hypothesis Ev : Forall (fun d => 0 < d /\ Z.even d = true) N.

Lemma low_opposite Neff k : valid_index N k -> low N Neff (opposite N k) = low N Neff k.
Proof.
  unfold low. intros V. revert V Ev. generalize N. intros l V E0. unfold opposite. induction V as [|d j l k Hj V IH]; [reflexivity|].
  inversion_clear E0 as [|? ? [Hd Ed] E']. rewrite map2_cons. cbn [combine forallb fst snd]. rewrite (IH E'). f_equal.
  rewrite C41_odd by assumption. destruct (2 * j =? d); [reflexivity|]. now rewrite Z.abs_opp.
Qed.
(** the modes kept, as a function of the field *)
Definition kept (Neff : Z) (f : list Z -> K) (k : list Z) : C := if low N Neff k then spectrum K base n ws is f k else c0.
Lemma filter_holds Neff (Us : list (lfield K)) (Mid : list (lfield C)) u : tiles N Us -> holds Us u ->
  holds (map (lowpass_filter K N Neff) (r2c K ws is Us Mid)) (kept Neff u).
Proof.
  intros T H. pose proof (r2c_holds K base n ws is Us Mid u T H) as Hr. unfold holds in *. rewrite Forall_forall in *.
  intros L' HL'. apply in_map_iff in HL'. destruct HL' as (L & <- & HL). unfold lowpass_filter, on_modes. cbn [lvals].
  change (lcells {| lstart := lstart L; lshape := lshape L; lvals := _ |}) with (lcells L).
  rewrite (Hr L HL), combine_self, map_map. reflexivity.
Qed.
Lemma blocks_filter Neff (Us : list (lfield K)) (Mid : list (lfield C)) : tiles half Mid ->
  tiles half (map (lowpass_filter K N Neff) (r2c K ws is Us Mid)).
Proof.
  intros T. apply (tiles_same half Mid); [| |exact T]; unfold r2c; rewrite !map_map; reflexivity.
Qed.
Lemma full_kept Neff u k : In k (cells_of N) -> full K N half (kept Neff u) k = if low N Neff k then spectrum K base n ws is u k else c0.
Proof.
  intros Hk. unfold full, kept. destruct (memb k (cells_of half)); [reflexivity|]. apply cells_valid in Hk.
  rewrite low_opposite by assumption. destruct (low N Neff k).
  - rewrite (spectrum_opposite K base n ws is M) by assumption. apply cconj_involutive.
  - unfold cconj, c0. cbn. f_equal. ring.
Qed.
Hypothesis two : forall a : K, radd a a = r0 -> a = r0.
Lemma lowpass_holds Neff (Us : list (lfield K)) (Mid : list (lfield C)) u : tiles N Us -> holds Us u -> tiles half Mid ->
  holds (lowpass K N ws is Neff Mid Us) (fun x => re (synthesis K base n ws (kept Neff u) x)).
Proof.
  intros T H TM. unfold lowpass. apply (c2r_holds K base n ws is M); [now apply blocks_filter|now apply filter_holds|exact T].
Qed.
Lemma rsum_re_kept Neff u v : 
  rsum (fun x => rmul (re (synthesis K base n ws (kept Neff u) x)) (v x)) (cells_of N) =
  rsum (fun k => if low N Neff k then rmul (rprod K (sizes K N)) (re (cmul (spectrum K base n ws is u k) (cconj (spectrum K base n ws is v k)))) else r0) (cells_of N).
Proof.
  rewrite (rsum_ext K _ (fun x => rmul (v x) (re (synthesis K base n ws (kept Neff u) x)))) by (intros q; ring).
  unfold synthesis. rewrite (rsum_re_swap K base n ws). apply rsum_ext_in. intros k Hk. rewrite full_kept by assumption.
  destruct (low N Neff k); [|rewrite (cmul_0_l K); reflexivity].
  set (S := rsum (K := cpx_cring K) (fun x => cmul (cof (v x)) (cconj (chi K ws k x))) (cells_of N)).
  assert (E : spectrum K base n ws is v k = cmul S (cof (rprod K is))) by reflexivity. rewrite E.
  pose proof (inv_sizes K N ws is M) as I. destruct (spectrum K base n ws is u k) as [a b]. destruct S as [c d].
  unfold cmul, cconj, cof, re, im. cbn.
  transitivity (rmul (rmul (rprod K is) (rprod K (sizes K N))) (radd (rmul a c) (rmul b d))); [rewrite I; ring|ring].
Qed.
(** lowpass is its own adjoint (and linear) ... *)
Theorem C82_lowpass_adjoint : forall Neff (Us Vs : list (lfield K)) (Mid : list (lfield C)) u v,
  tiles N Us -> holds Us u -> tiles N Vs -> holds Vs v -> map lstart Us = map lstart Vs -> map lshape Us = map lshape Vs -> tiles half Mid ->
  real_cdot K (lowpass K N ws is Neff Mid Us) Vs = real_cdot K Us (lowpass K N ws is Neff Mid Vs).
Proof.
  intros Neff Us Vs Mid u v TU HU TV HV Es Eh TM.
  pose proof (lowpass_holds Neff Us Mid u TU HU TM) as Hu. pose proof (lowpass_holds Neff Vs Mid v TV HV TM) as Hv.
  assert (Bs : forall Ws, map lstart (lowpass K N ws is Neff Mid Ws) = map lstart Ws) by (intros Ws; unfold lowpass, c2r; rewrite map_map; reflexivity).
  assert (Bh : forall Ws, map lshape (lowpass K N ws is Neff Mid Ws) = map lshape Ws) by (intros Ws; unfold lowpass, c2r; rewrite map_map; reflexivity).
  rewrite (real_cdot_holds K base n _ Vs (fun x => re (synthesis K base n ws (kept Neff u) x)) v).
  - rewrite (real_cdot_holds K base n Us _ u (fun x => re (synthesis K base n ws (kept Neff v) x))).
    + unfold lowpass, c2r. rewrite map_map. apply map_ext. intros _. f_equal.
      rewrite (rsum_ext K (fun q => rmul (u q) (re (synthesis K base n ws (kept Neff v) q))) (fun q => rmul (re (synthesis K base n ws (kept Neff v) q)) (u q))) by (intros q; ring).
      rewrite !rsum_re_kept. apply rsum_ext_in. intros k _. destruct (low N Neff k); [|reflexivity]. f_equal.
      destruct (spectrum K base n ws is u k), (spectrum K base n ws is v k). unfold cmul, cconj, re, im. cbn. ring.
    + exact TU.
    + exact HU.
    + exact Hv.
    + now rewrite Bs.
    + now rewrite Bh.
  - apply (tiles_same N Us); [now rewrite Bs|now rewrite Bh|exact TU].
  - exact Hu.
  - exact HV.
  - now rewrite Bs.
  - now rewrite Bh.
Qed.
Lemma kept_hermitian Neff u : hermitian K N half (kept Neff u).
Proof.
  intros k Hk Ho. unfold kept. apply (half_full K base n ws is M) in Hk. rewrite low_opposite by assumption.
  destruct (low N Neff k); [now apply (spectrum_opposite K base n ws is M)|]. unfold cconj, c0. cbn. f_equal. ring.
Qed.
(** ... and a projection: the modes it keeps stay, the others are gone *)
Theorem C82_lowpass_modes : forall Neff (Us : list (lfield K)) (Mid : list (lfield C)) u,
  tiles N Us -> holds Us u -> tiles half Mid ->
  holds (r2c K ws is (lowpass K N ws is Neff Mid Us) Mid)
        (fun k => if low N Neff k then spectrum K base n ws is u k else c0) /\
  lowpass K N ws is Neff Mid (lowpass K N ws is Neff Mid Us) = lowpass K N ws is Neff Mid Us.
Proof.
  intros Neff Us Mid u TU HU TM.
  assert (R1 : holds (r2c K ws is (lowpass K N ws is Neff Mid Us) Mid) (kept Neff u)).
  { unfold lowpass. apply (C44_r2c_c2r K base n ws is M two); [now apply blocks_filter|now apply filter_holds|apply kept_hermitian|exact TU|exact TM]. }
  split; [exact R1|].
  assert (E : map (lowpass_filter K N Neff) (r2c K ws is (lowpass K N ws is Neff Mid Us) Mid) = map (lowpass_filter K N Neff) (r2c K ws is Us Mid)).
  { pose proof (filter_holds Neff Us Mid u TU HU) as R2. revert R1 R2. unfold r2c, holds. rewrite !map_map, !Forall_map. intros R1 R2.
    apply map_ext_in. intros L HL. rewrite Forall_forall in R1, R2. specialize (R1 L HL). specialize (R2 L HL).
    unfold lowpass_filter, on_modes in *. cbn [lvals on_block lstart lshape] in *. f_equal.
    change (lcells (on_block _ L)) with (lcells L) in *. change (lcells {| lstart := lstart L; lshape := lshape L; lvals := _ |}) with (lcells L) in *.
    rewrite R1. etransitivity; [|symmetry; exact R2]. rewrite combine_self, map_map. apply map_ext. intros k. cbn [fst snd]. unfold kept.
    destruct (low N Neff k); reflexivity. }
  unfold lowpass at 1. rewrite E. unfold lowpass, c2r. rewrite map_map. reflexivity.
Qed.
End Lowpass.
Print Assumptions C82_lowpass_adjoint.
Print Assumptions C82_lowpass_modes.

(** The products of lowpass change nothing: the filter is applied to a temporary field.
    Two cells, Neff = 0: lowpass is the mean, its products are the identity. *)
Definition two_cells (a b : Z) : list (lfield Qcring) := [mkL [0] [2] [ex_q a; ex_q b]].
Definition two_modes : list (lfield (cpx Qcring)) := [mkL [0] [2] [c0; c0]].
Definition two_roots : list (cpx Qcring) := [((- (1))%Qc, 0%Qc)].
Theorem C82_lowpass_refuted :
  (forall (K : cring) Nmesh roots invs sizes Neff Mid (V : list (lfield K)), lowpass_vjp K Nmesh roots invs sizes Neff Mid V = V /\
     lowpass_jvp K Nmesh roots invs Neff Mid V = V) /\
  mesh_roots Qcring (N [] 2) two_roots [Q2Qc (1#2)] /\
  tiles (N [] 2) (two_cells 1 0) /\ tiles (half [] 2) two_modes /\
  lowpass Qcring (N [] 2) two_roots [Q2Qc (1#2)] 0 two_modes (two_cells 0 0) = two_cells 0 0 /\
  lowpass Qcring (N [] 2) two_roots [Q2Qc (1#2)] 0 two_modes (two_cells 1 0) <>
    lowpass_jvp Qcring (N [] 2) two_roots [Q2Qc (1#2)] 0 two_modes (two_cells 1 0) /\
  real_cdot Qcring (lowpass Qcring (N [] 2) two_roots [Q2Qc (1#2)] 0 two_modes (two_cells 1 0)) (two_cells 1 0) <>
    real_cdot Qcring (two_cells 1 0) (lowpass_vjp Qcring (N [] 2) two_roots [Q2Qc (1#2)] [ex_q 2] 0 two_modes (two_cells 1 0)).
Proof.
  split; [split; reflexivity|]. split; [|split; [apply tiles_check; vm_compute; reflexivity|split; [apply tiles_check; vm_compute; reflexivity|]]].
  - constructor; [|constructor]. constructor.
    + reflexivity.
    + apply Qc_pair; reflexivity.
    + apply Qc_pair; reflexivity.
    + intros d Hd. assert (d = 1) as -> by lia. apply Qc_pair; reflexivity.
    + apply Qc_is_canon. reflexivity.
  - split; [|split].
    + unfold two_cells. vm_compute. reflexivity.
    + intros H. apply (f_equal (fun l => match l with L :: _ => match lvals L with a :: _ => Qeq_bool (this a) 1 | [] => false end | [] => false end)) in H.
      vm_compute in H. discriminate H.
    + intros H. apply (f_equal (fun l => match l with Ret a :: _ => Qeq_bool (this a) 1 | _ => false end)) in H. vm_compute in H. discriminate H.
Qed.
Print Assumptions C82_lowpass_refuted.
(** In double precision the comparison [|k| <= Neff // 2 * k0] fails for modes that lie on the
    limit: with BoxSize = 1380, 8 cells and Neff = 6 the modes 3 and -3 are removed. *)
Theorem C82_lowpass_rounded_refuted :
  low [8] 6 [3] = true /\ low [8] 6 [5] = true /\ low64 8 1380 6 3 = false /\ low64 8 1380 6 5 = false /\
  low64 8 1380 6 2 = true /\ low64 8 1 6 3 = true /\ low64 8 1 6 5 = true.
Proof. repeat split; vm_compute; reflexivity. Qed.
Print Assumptions C82_lowpass_rounded_refuted.

(** ** concrete cases *)
(** 8 cells on two ranks: lowpass of a field of several modes; Neff = 2 removes the mode 2 *)
Example C82_case :
  low (N [4] 2) 2 [1; 0] = true /\ low (N [4] 2) 2 [2; 0] = false /\
  real_cdot Qcring (lowpass Qcring (N [4] 2) ex_roots ex_invs 2 ex_mid ex_src) ex_src =
  real_cdot Qcring ex_src (lowpass Qcring (N [4] 2) ex_roots ex_invs 2 ex_mid ex_src).
Proof.
  split; [reflexivity|]. split; [reflexivity|].
  apply (C82_lowpass_adjoint Qcring [4] 2 ex_roots ex_invs ex_mesh_roots) with (u := ex_real) (v := ex_real).
  - repeat apply Forall_cons; try apply Forall_nil; split; reflexivity.
  - exact ex_src_tiles.
  - apply on_block_holds.
  - exact ex_src_tiles.
  - apply on_block_holds.
  - reflexivity.
  - reflexivity.
  - exact ex_mid_tiles.
Qed.
(** an imaginary transfer function for which the mask suffices: i k0 (k0^2 - 4) (k1^2 - 4) on 4 x 4 modes *)
Definition smooth_tf (q : list Zring) : cpx Zring :=
  match q with [a; b] => (0, a * (a * a - 4) * (b * b - 4)) | _ => (0, 0) end.
Example C82_transfer_case :
  (exists v, holds (map (transfer Zring (fun a => Z.eqb a 0) [1; 1] ex_Nmesh smooth_tf) ex_world) v /\ hermitian Zring ex_Nmesh ex_cshape v) /\
  transfer Zring (fun a => Z.eqb a 0) [1; 1] [4] (fun q => match q with [a] => (a, a) | _ => (0, 0) end) (mkL [0] [4] [(1, 0); (2, 1); (3, 0); (2, -1)]) =
  mkL [0] [4] [(0, 0); (1, 3); (0, 0); (-3, -1)].
Proof.
  split; [|vm_compute; reflexivity].
  apply C82_transfer_hermitian with (u := ex_modes).
  - intros a. apply Z.eqb_eq.
  - repeat apply Forall_cons; try apply Forall_nil; split; reflexivity.
  - unfold stored_shape, ex_Nmesh, ex_cshape. repeat constructor; discriminate.
  - intros [|a [|b [|c q]]]; try reflexivity. unfold smooth_tf, cconj. cbn [map re im fst snd].
    change (@eq (Z * Z) (0, - a * (- a * - a - 4) * (- b * - b - 4)) (0, - (a * (a * a - 4) * (b * b - 4)))). f_equal. ring.
  - intros k Hk _. assert (F : forallb (fun k => implb (existsb (fun p => 2 * snd p =? fst p) (combine ex_Nmesh k))
      (let a := smooth_tf (wave Zring [1; 1] ex_Nmesh (opposite ex_Nmesh k)) in let b := cconj (smooth_tf (wave Zring [1; 1] ex_Nmesh k)) in
       (fst a =? fst b) && (snd a =? snd b))) (cells_of ex_Nmesh) = true) by (vm_compute; reflexivity).
    rewrite forallb_forall in F. apply cells_valid in Hk. specialize (F k Hk). intros E. rewrite E in F. cbn [implb] in F.
    apply andb_true_iff in F. destruct F as [F1 F2]. apply Z.eqb_eq in F1, F2.
    rewrite (surjective_pairing (smooth_tf _)). rewrite (surjective_pairing (cconj (smooth_tf (wave Zring [1; 1] ex_Nmesh k)))). now f_equal.
  - repeat constructor.
  - apply C43_case.
Qed.
(** two ranks, three elements: the products of multiply and to_scalar; one column of two rows replaced *)
Example C82_arrays_case :
  multiply_jvp Zring [[1; 2]; [3]] [[0; 1]; [1]] [[4; 5]; [6]] [[7; 8]; [9]] = [[7; 21]; [33]] /\
  multiply_vjp Zring [[1; 2]; [3]] [[4; 5]; [6]] [[7; 8]; [9]] = ([[7; 16]; [27]], [[4; 10]; [18]]) /\
  to_scalar Zring [[4; 5]; [6]] = 77 /\ to_scalar_jvp Zring [[1; 2]; [3]] [[4; 5]; [6]] = 64 /\
  assign_component Zring 1 [[[1; 2]; [3; 4]]] [[7; 8]] = [[[1; 7]; [3; 8]]] /\
  table Zring 2 [[[1; 2]; [3; 4]]] [[7; 8]].
Proof. repeat split; try (vm_compute; reflexivity). repeat apply Forall_cons; try apply Forall_nil; reflexivity. Qed.
