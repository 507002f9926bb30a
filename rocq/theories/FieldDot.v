(** Property C67: cdot_vjp (pm.py:976-985). *)
From Coq Require Import List Arith ZArith QArith Lia Bool Permutation Ring InitialRing.
From Verif Require Import Base ListFacts LayoutModel WrapModel WrapProofs DomainModel DomainFill MeshModel MeshAssign
  MeshRoute MeshTile RingModel FieldModel FieldFacts FieldProperties FieldSort FieldResample FieldNorm.
Import ListNotations.
Local Close Scope Q_scope.
Local Open Scope Z_scope.

Section Dot.
Variable K : cring.
Add Ring Kr : (rth K).
Local Notation C := (cpx K).
Local Open Scope rg_scope.

(** pm.py:976-985 on one rank: [v] is a number, [metric] gets the square of the wave number *)
Definition cdot_vjp (Nmesh : list Z) (units : list K) (metric : option (K -> K)) (v : C) (L : lfield C) : lfield C :=
  mkL (lstart L) (lshape L)
    (map (fun p => let y := cmul (snd p) v in
                   match metric with Some m => cmul y (cof (m (normp2 K units Nmesh (fst p)))) | None => y end)
         (combine (lcells L) (lvals L))).

Section Mesh.
Variables (base : list Z) (n : Z) (comp : bool).
Hypothesis base_pos : Forall (fun d => (0 < d)%Z) base.
Hypothesis (Hn : (0 < n)%Z) (Ev : Z.even n = true).
Local Notation N := (nmesh base n).
Local Notation st := (stored base n comp).

Lemma cdot_vjp_holds (Ls : list (lfield C)) f units metric v : evens K base metric -> holds Ls f ->
  holds (map (cdot_vjp N units metric v) Ls) (fun k => cmul (cmul (f k) v) (cof (weigh K metric (wave2 K units N k)))).
Proof.
  intros Em H. unfold holds in *. rewrite Forall_forall in H. apply Forall_forall. intros L' HL'. apply in_map_iff in HL'. destruct HL' as (L & <- & HL).
  unfold cdot_vjp. cbn [lvals]. match goal with |- _ = map _ (lcells ?x) => change (lcells x) with (lcells L) end.
  rewrite (H L HL), combine_self, map_map.
  apply map_ext. intro k. cbn [fst snd]. rewrite <- (weigh_normp K base n base_pos Hn Ev metric units k Em).
  destruct metric; cbn [weigh]; [reflexivity|]. unfold cmul, cof. cbn. f_equal; ring.
Qed.

(** the gradient of v times the real part of cdot with respect to all modes of [other] *)
Theorem C67_full : forall (Ls Ms : list (lfield C)) f g units metric (v : K), evens K base metric ->
  tiles st Ls -> holds Ls f -> tiles st Ms -> holds Ms g -> map lstart Ms = map lstart Ls -> map lshape Ms = map lshape Ls ->
  exists w gf, cdot K N st units metric Ls Ms = map (fun _ => Ret w) Ls /\ holds (map (cdot_vjp N units metric (cof v)) Ls) gf /\
    v * re w = rsum (fun k => re (cmul (cconj (full K N st gf k)) (full K N st g k))) (cells_of N).
Proof.
  intros Ls Ms f g units metric v Em T H T2 H2 E1 E2.
  destruct (C42_cdot K base n comp base_pos Hn Ev Ls Ms f g units metric Em T H T2 H2 E1 E2) as (w & Ew & Rw).
  exists w, (fun k => cmul (cmul (f k) (cof v)) (cof (weigh K metric (wave2 K units N k)))). split; [exact Ew|]. split; [apply cdot_vjp_holds; assumption|].
  rewrite Rw, re_rsum, <- rsum_scale. apply rsum_ext_in. intros k Hk.
  unfold full. destruct (memb k (cells_of st)).
  - unfold cmul, cconj, cof. cbn. ring.
  - rewrite (weigh_opposite K base n base_pos Hn Ev metric units k Em) by (apply cells_valid; exact Hk). unfold cmul, cconj, cof. cbn. ring.
Qed.

(** changing one stored mode of [other] by d, and the opposite mode by the conjugate *)
Definition nudge (g : list Z -> C) (k : list Z) (d : C) : list Z -> C :=
  fun q => cadd (g q) (if idx_eqb q k then d else if idx_eqb q (opposite N k) then cconj d else c0).
Lemma full_nudge g k d q : In k (cells_of st) -> valid_index N q -> (opposite N k = k -> im d = 0) ->
  full K N st (nudge g k d) q = cadd (full K N st g q) (if idx_eqb q k then d else if idx_eqb q (opposite N k) then cconj d else c0).
Proof.
  intros Hk Vq Hd. unfold full. destruct (memb q (cells_of st)) eqn:Mq; [reflexivity|]. unfold nudge.
  assert (Vk : valid_index N k) by (apply (stored_full base n comp Hn Ev); exact Hk).
  destruct (idx_eqb_spec (opposite N q) k) as [E|E].
  - assert (Eq : q = opposite N k) by (rewrite <- E, opposite_involutive by exact Vq; reflexivity).
    destruct (idx_eqb_spec q k) as [E2|E2]; [apply memb_true in Hk; congruence|].
    destruct (idx_eqb_spec q (opposite N k)) as [_|E3]; [|contradiction]. unfold cconj, cadd. cbn. f_equal; ring.
  - destruct (idx_eqb_spec q k) as [E2|E2]; [apply memb_true in Hk; congruence|].
    destruct (idx_eqb_spec q (opposite N k)) as [E3|E3].
    { exfalso. apply E. rewrite E3. apply opposite_involutive. exact Vk. }
    destruct (idx_eqb_spec (opposite N q) (opposite N k)) as [E4|E4].
    { exfalso. apply E2. rewrite <- (opposite_involutive N q Vq), E4. apply opposite_involutive. exact Vk. }
    unfold cconj, cadd, c0. cbn. f_equal; ring.
Qed.
(** cdot_vjp followed by decompress_vjp is the gradient with respect to the stored modes *)
Theorem C67_gradient : forall (Ls Ms Ms' : list (lfield C)) f g units metric (v : K) k d, evens K base metric ->
  tiles st Ls -> holds Ls f -> hermitian K N st f ->
  tiles st Ms -> holds Ms g -> map lstart Ms = map lstart Ls -> map lshape Ms = map lshape Ls ->
  In k (cells_of st) -> (opposite N k = k -> im d = 0) ->
  tiles st Ms' -> holds Ms' (nudge g k d) -> map lstart Ms' = map lstart Ls -> map lshape Ms' = map lshape Ls ->
  exists w w' out, cdot K N st units metric Ls Ms = map (fun _ => Ret w) Ls /\ cdot K N st units metric Ls Ms' = map (fun _ => Ret w') Ls /\
    holds (map (fun L => decompress_vjp K N (cdot_vjp N units metric (cof v) L)) Ls) out /\
    v * re w' = v * re w + re (cmul (cconj (out k)) d).
Proof.
  intros Ls Ms Ms' f g units metric v k d Em T H Hf T1 H1 A1 A2 Hk Hd T2 H2 B1 B2.
  destruct (C42_cdot K base n comp base_pos Hn Ev Ls Ms f g units metric Em T H T1 H1 A1 A2) as (w & Ew & Rw).
  destruct (C42_cdot K base n comp base_pos Hn Ev Ls Ms' f _ units metric Em T H T2 H2 B1 B2) as (w' & Ew' & Rw').
  set (gf := fun k => cmul (cmul (f k) (cof v)) (cof (weigh K metric (wave2 K units N k)))).
  assert (HG : holds (map (cdot_vjp N units metric (cof v)) Ls) gf) by (apply cdot_vjp_holds; assumption).
  assert (SS : stored_shape N st).
  { unfold stored_shape, nmesh, stored. apply Forall2_app; [clear - base_pos; induction base as [|b0 bs IH]; [constructor|]; inversion base_pos; subst; constructor; [lia|auto]|].
    repeat constructor; destruct comp; try lia; pose proof (Z.mul_div_le n 2 ltac:(lia)); pose proof (Z.div_pos n 2 ltac:(lia) ltac:(lia)).
    - lia.
    - apply Z.even_spec in Ev. destruct Ev as [h Eh]. lia. }
  assert (TG : tiles st (map (cdot_vjp N units metric (cof v)) Ls)) by (apply (tiles_same _ Ls); [rewrite map_map; reflexivity|rewrite map_map; reflexivity|exact T]).
  assert (Hh : hermitian K N st gf).
  { intros q Hq Ho. unfold gf. rewrite (Hf q Hq Ho), (weigh_opposite K base n base_pos Hn Ev metric units q Em) by (apply (stored_full base n comp Hn Ev); exact Hq).
    unfold cmul, cconj, cof. cbn. f_equal; ring. }
  destruct (C43_decompress_vjp K N st _ gf TG SS HG Hh) as (out & HO & _ & _ & X).
  exists w, w', out. split; [exact Ew|]. split; [exact Ew'|]. split; [rewrite map_map in HO; exact HO|].
  rewrite <- (X k d Hk Hd). rewrite Rw, Rw', !re_rsum, <- !rsum_scale, <- rsum_plus. apply rsum_ext_in. intros q Hq.
  rewrite full_nudge by (try assumption; apply cells_valid; exact Hq).
  set (D := if idx_eqb q k then d else _).
  assert (EF : full K N st gf q = cmul (cmul (full K N st f q) (cof v)) (cof (weigh K metric (wave2 K units N q)))).
  { unfold full, gf. destruct (memb q (cells_of st)); [reflexivity|].
    rewrite (weigh_opposite K base n base_pos Hn Ev metric units q Em) by (apply cells_valid; exact Hq). unfold cmul, cconj, cof. cbn. f_equal; ring. }
  rewrite EF. unfold cmul, cconj, cof, cadd. cbn. ring.
Qed.
End Mesh.
End Dot.

(** 4 x 4 modes, the last axis compressed, on two ranks; a metric that is not constant *)
Definition dot_other (q : list Z) : cpx Zring := if idx_eqb q [1; 1] then (2, -5) else (0, 0).
Definition dot_blocks (g : list Z -> cpx Zring) : list (lfield (cpx Zring)) := map (fun L => fill_block g (lstart L) (lshape L)) ex_world.
Example C67_case :
  exists w w' out, cdot Zring ex_Nmesh ex_cshape [1; 1] (Some (fun x => x + 3)) ex_world (dot_blocks dot_other) = map (fun _ => Ret w) ex_world /\
    cdot Zring ex_Nmesh ex_cshape [1; 1] (Some (fun x => x + 3)) ex_world (dot_blocks (nudge Zring [4] 4 dot_other [3; 1] (7, 2))) = map (fun _ => Ret w') ex_world /\
    holds (map (fun L => decompress_vjp Zring ex_Nmesh (cdot_vjp Zring ex_Nmesh [1; 1] (Some (fun x => x + 3)) (cof (K := Zring) 2) L)) ex_world) out /\
    (2 * re w' = 2 * re w + re (cmul (K := Zring) (cconj (out [3; 1])) (7, 2)))%Z.
Proof.
  apply (C67_gradient Zring [4] 4 true ltac:(repeat constructor; lia) ltac:(lia) eq_refl ex_world (dot_blocks dot_other) (dot_blocks (nudge Zring [4] 4 dot_other [3; 1] (7, 2)))
    ex_modes dot_other [1; 1] (Some (fun x => x + 3)) 2 [3; 1] (7, 2)).
  - right. repeat constructor.
  - exact ex_tiles.
  - exact ex_holds.
  - exact ex_hermitian.
  - apply (tiles_same _ ex_world); [reflexivity|reflexivity|exact ex_tiles].
  - repeat constructor.
  - reflexivity.
  - reflexivity.
  - vm_compute. tauto.
  - intro E. discriminate E.
  - apply (tiles_same _ ex_world); [reflexivity|reflexivity|exact ex_tiles].
  - repeat constructor.
  - reflexivity.
  - reflexivity.
Qed.
Print Assumptions C67_full.
Print Assumptions C67_gradient.
