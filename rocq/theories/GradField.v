(** Property C94 for a RealField (pmesh/abopt.py:321-331): the entries are the cells of the mesh. *)
From Coq Require Import List Arith ZArith Lia Bool Reals Lra Permutation.
From Verif Require Import EngineModel Base ListFacts LayoutModel WrapModel WrapProofs DomainModel DomainFill MeshModel MeshAssign MeshRoute MeshTile RingModel FieldModel
  FieldFacts FieldProperties FourierReal GradModel GradProperties.
Import ListNotations.
Local Open Scope R_scope.

(** the field stores the real numbers [phi] on the blocks of [Ls] *)
Definition stores (Ls : rfield) (phi : list Z -> R) (w : rfield) : Prop :=
  map lstart w = map lstart Ls /\ map lshape w = map lshape Ls /\ holds w (fun k => cof (phi k : Rring)).
(** [h] in cell [k], nothing elsewhere *)
Definition spike (k : list Z) (h : R) (j : list Z) : R := if idx_eqb j k then h else 0.

Lemma stores_unique Ls phi a b : stores Ls phi a -> stores Ls phi b -> a = b.
Proof.
  intros (A1 & A2 & A3) (B1 & B2 & B3). revert a b A1 A2 A3 B1 B2 B3. induction Ls as [|L Ls IH]; intros [|x a] [|z b] A1 A2 A3 B1 B2 B3; try discriminate; [reflexivity|].
  cbn [map] in *. inversion A3; subst. inversion B3; subst. injection A1 as A1 A1'. injection A2 as A2 A2'. injection B1 as B1 B1'. injection B2 as B2 B2'.
  f_equal; [|now apply IH]. destruct x as [s1 h1 v1], z as [s2 h2 v2]. unfold lcells in *. cbn [lstart lshape lvals] in *. subst. reflexivity.
Qed.

Lemma cell_range Nmesh k : In k (cells_of Nmesh) -> in_range Nmesh k /\ meant Nmesh k = k.
Proof.
  intros H. apply cells_valid in H. induction H as [|n i N l Hi H [IH1 IH2]]; [split; [constructor|reflexivity]|]. split.
  - constructor; [lia|exact IH1].
  - unfold meant in *. rewrite map2_cons, IH2, Z.mod_small by lia. reflexivity.
Qed.

Lemma access_cell (Nmesh k : list Z) : length k = length Nmesh -> access_of (length Nmesh) k = Some (Whole k).
Proof. intros H. exact (access_index Rring Nmesh (Mode Rring k c0) H). Qed.
Lemma get_cell Nmesh (Ls : rfield) f k : tiles Nmesh Ls -> holds Ls f -> In k (cells_of Nmesh) ->
  cgetitem Rring false Nmesh Ls k = map (fun _ => Ret (f k)) Ls.
Proof.
  intros T H Hk. destruct (cell_range _ _ Hk) as [R1 R2].
  pose proof (cgetitem_world Rring Nmesh Nmesh Ls f (Mode Rring k c0) T eq_refl H R1) as W. cbn [mode_of index_of part_of] in W. cbv zeta in W.
  rewrite R2 in W. rewrite (proj2 (memb_true k (cells_of Nmesh)) Hk) in W. rewrite <- W.
  unfold cgetitem. f_equal. f_equal. apply map_ext. intros L. unfold cgetitem_local.
  rewrite access_cell by apply in_range_length, R1. reflexivity.
Qed.

Lemma set_cell Nmesh (Ls : rfield) f k v : tiles Nmesh Ls -> holds Ls f -> In k (cells_of Nmesh) ->
  exists Ls' s, csetitem Rring false Nmesh Ls k v = map (fun L => Ret (L, s)) Ls' /\
    map lstart Ls' = map lstart Ls /\ map lshape Ls' = map lshape Ls /\ holds Ls' (fun j => if idx_eqb j k then v else f j).
Proof.
  intros T H Hk. destruct (cell_range _ _ Hk) as [R1 R2]. pose proof (in_range_length _ _ R1) as Li.
  assert (X : exists rs, map (fun L => csetitem_local Rring false Nmesh L k v) Ls = map Ret rs /\
     map lstart (map fst rs) = map lstart Ls /\ map lshape (map fst rs) = map lshape Ls /\ holds (map fst rs) (fun j => if idx_eqb j k then v else f j)).
  { pose proof (tl_dim _ _ T) as TD. clear T. unfold holds in *. induction Ls as [|L Ls IH]; [exists []; repeat split; constructor|].
    inversion TD as [|? ? [D1 D2] TD']; subst. inversion H as [|? ? HL H']; subst. destruct (IH H' TD') as (rs & E0 & E1 & E2 & E3).
    assert (LO : located Rring L (ctol Nmesh L k) k).
    { pose proof (ctol_spec L (length Nmesh) D1 D2 Nmesh k eq_refl Li) as S1. cbv zeta in S1. rewrite (from_end_meant _ _ R1), R2 in S1. exact S1. }
    set (v' := match ctol Nmesh L k with None => c0 | Some _ => v end).
    destruct (opt_put_holds Rring L (length Nmesh) _ k f (fun _ => v') D1 D2 LO HL) as (P1 & P2 & P3).
    exists ((opt_put Rring L (ctol Nmesh L k) (fun _ => v'), v') :: rs). cbn [map fst]. rewrite E0, E1, E2, P1, P2. split; [|split; [reflexivity|split; [reflexivity|]]].
    - f_equal. unfold csetitem_local. rewrite access_cell by exact Li. unfold opt_put, v'. destruct (ctol Nmesh L k); reflexivity.
    - constructor; [|exact E3]. rewrite P3. unfold lcells at 2. rewrite P1, P2. fold (lcells L). apply map_ext_in. intros j Hj.
      destruct (idx_eqb_spec j k) as [->|]; [|reflexivity]. unfold v'. destruct LO as [(_ & l & -> & _)|(N & _)]; [reflexivity|contradiction]. }
  destruct X as (rs & E0 & E1 & E2 & E3). exists (map fst rs), (rsum (K := cpx_cring Rring) snd rs). split; [|repeat split; assumption].
  unfold csetitem, allreduce. rewrite E0, all_ret_map, map_map. reflexivity.
Qed.

Lemma perturb_cell Nmesh (Ls : rfield) phi k h : tiles Nmesh Ls -> stores Ls phi Ls -> In k (cells_of Nmesh) ->
  exists w, fperturb Ls Nmesh k h = Some w /\ stores Ls (fun j => phi j + spike k h j) w.
Proof.
  intros T (_ & _ & H) Hk. unfold fperturb, returned. rewrite (get_cell _ _ _ _ T H Hk).
  set (old := cof (phi k : Rring)).
  assert (E : all_ret (map (fun _ : lfield (cpx Rring) => Ret old) Ls) = Some (map (fun _ => old) Ls)) by (rewrite <- all_ret_map, map_map; reflexivity).
  rewrite E. destruct (tiles_rank _ _ _ T Hk) as (L & HL & _). destruct Ls as [|L0 Ls0] eqn:EL; [destruct HL|]. rewrite <- EL in *. clear E.
  replace (map (fun _ : lfield (cpx Rring) => old) Ls) with (old :: map (fun _ : lfield (cpx Rring) => old) Ls0) by (rewrite EL; reflexivity).
  destruct (set_cell Nmesh Ls _ k (cadd old (cof (h : Rring))) T H Hk) as (Ls' & s & E0 & E1 & E2 & E3). rewrite E0.
  rewrite <- (map_map (fun L => (L, s)) Ret), all_ret_map, map_map. cbn [fst]. rewrite map_id. exists Ls'. split; [reflexivity|].
  split; [exact E1|split; [exact E2|]]. eapply holds_ext; [|exact E3]. intros M j _ _. cbn beta. unfold spike.
  destruct (idx_eqb_spec j k) as [->|].
  - unfold old, cadd, cof, re, im. cbn [fst snd radd r0 Rring]. f_equal. apply Rplus_0_r.
  - unfold cof. f_equal. symmetry. apply Rplus_0_r.
Qed.

Lemma minus_stores Ls phi psi a b : stores Ls phi a -> stores Ls psi b -> stores Ls (fun j => phi j - psi j) (fminus a b).
Proof.
  intros (A1 & A2 & A3) (B1 & B2 & B3). unfold stores, fminus, holds in *.
  revert a b A1 A2 A3 B1 B2 B3. induction Ls as [|L Ls IH]; intros [|x a] [|z b] A1 A2 A3 B1 B2 B3; try discriminate; [repeat split; constructor|].
  cbn [map] in *. inversion A3; subst. inversion B3; subst. injection A1 as A1 A1'. injection A2 as A2 A2'. injection B1 as B1 B1'. injection B2 as B2 B2'.
  destruct (IH a b) as (C1 & C2 & C3); auto. rewrite map2_cons. cbn [map lstart lshape]. rewrite C1, C2, A1, A2. split; [reflexivity|split; [reflexivity|]].
  constructor; [|exact C3]. cbn [lvals]. unfold lcells in *. cbn [lstart lshape]. rewrite H1, H3, A1, A2, B1, B2. unfold map2.
  generalize (map (zadd (lstart L)) (cells_of (lshape L))). intros l. induction l as [|j l IHl]; [reflexivity|]. cbn [map combine fst snd]. f_equal; [|exact IHl].
  unfold csub, cof, re, im. cbn [fst snd rsub r0 Rring]. f_equal. apply Rminus_0_r.
Qed.

(** ** what passes, for a field *)
Section Field.
Variables (Nmesh : list Z) (y jvp : rfield -> R) (center : rfield) (phi : list Z -> R) (eps rtol atol : R)
  (g : option rfield) (gamma : list Z -> R).
Hypothesis T : tiles Nmesh center.
Hypothesis C : stores center phi center.
(** the gradient holds the numbers [gamma]; the marker ZERO stands for nothing *)
Hypothesis G : match g with Some w => tiles Nmesh w /\ stores w gamma w | None => forall k, gamma k = 0 end.
Variables D J A : list Z -> R.
Definition field_measures : Prop :=
  (forall k w1 w0, In k (cells_of Nmesh) -> stores center (fun j => phi j + spike k eps j) w1 -> stores center (fun j => phi j + spike k (- eps) j) w0 ->
     D k = y w1 - y w0) /\
  (forall k b, In k (cells_of Nmesh) -> stores center (spike k (2 * eps)) b -> J k = jvp b) /\
  (forall k, In k (cells_of Nmesh) -> A k = gamma k * (2 * eps)).
Definition all_cells (f : list Z -> R) : list R := map f (cells_of Nmesh).

Lemma frow_measured : field_measures -> forall k, In k (cells_of Nmesh) ->
  frow y jvp g Nmesh center eps k = Some ((J k, A k), (D k, A k)).
Proof.
  intros (MD & MJ & MA) k Hk. unfold frow.
  destruct (perturb_cell Nmesh center phi k eps T C Hk) as (w1 & -> & S1).
  destruct (perturb_cell Nmesh center phi k (- eps) T C Hk) as (w0 & -> & S0).
  assert (E : fget g Nmesh k = Some (gamma k)).
  { unfold fget, returned. destruct g as [w|]; [|now rewrite G]. destruct G as (TW & _ & _ & HW). rewrite (get_cell _ _ _ _ TW HW Hk).
    rewrite <- (map_map (fun _ => cof (gamma k : Rring)) Ret), all_ret_map. destruct (tiles_rank _ _ _ TW Hk) as (L & HL & _). destruct w; [destruct HL|]. reflexivity. }
  rewrite E, (MA k Hk), (MD k w1 w0 Hk S1 S0). rewrite (MJ k (fminus w1 w0) Hk).
  - replace (gamma k * 2 * eps) with (gamma k * (2 * eps)) by ring. reflexivity.
  - destruct (minus_stores _ _ _ _ _ S1 S0) as (M1 & M2 & M3). split; [exact M1|split; [exact M2|]]. eapply holds_ext; [|exact M3].
    intros L j _ _. cbn beta. f_equal. unfold spike. destruct (idx_eqb j k); ring.
Qed.

Hypothesis M : field_measures.
Definition field_jvp : Prop := forall k, In k (cells_of Nmesh) -> close (all_cells J) (all_cells A) rtol atol (J k) (A k).
Definition field_difference : Prop := forall k, In k (cells_of Nmesh) -> close (all_cells D) (all_cells A) (rtol * 10000) atol (D k) (A k).

Theorem C94_field : 0 <= rtol -> 0 < atol -> exists v, check_field y jvp g Nmesh center eps rtol atol = Some v /\
  (v = Passed <-> field_jvp /\ field_difference) /\ (v = FG_BG <-> ~ field_jvp).
Proof.
  intros Hr Ha. unfold check_field.
  assert (E : map (frow y jvp g Nmesh center eps) (cells_of Nmesh) = map Some (map (fun k => ((J k, A k), (D k, A k))) (cells_of Nmesh))).
  { rewrite map_map. apply map_ext_in. intros k Hk. now apply frow_measured. }
  rewrite E, sequence_map_Some. eexists. split; [reflexivity|]. rewrite !map_map. cbn [fst snd].
  assert (PC : forall (P Q : list Z -> R) r,
    (forall p, In p (map (fun k => (P k, Q k)) (cells_of Nmesh)) -> close (map fst (map (fun k => (P k, Q k)) (cells_of Nmesh))) (map snd (map (fun k => (P k, Q k)) (cells_of Nmesh))) r atol (fst p) (snd p)) <->
    (forall k, In k (cells_of Nmesh) -> close (all_cells P) (all_cells Q) r atol (P k) (Q k))).
  { intros P Q r. rewrite !map_map. cbn [fst snd]. fold (all_cells P) (all_cells Q). split.
    - intros H k Hk. apply (H (P k, Q k)). apply in_map_iff. now exists k.
    - intros H p Hp. apply in_map_iff in Hp. destruct Hp as (k & <- & Hk). now apply H. }
  split.
  - rewrite judge_passed by assumption. rewrite (PC J A rtol), (PC D A (rtol * 10000)). reflexivity.
  - rewrite judge_fg by assumption. rewrite (PC J A rtol). reflexivity.
Qed.
End Field.

(** every function and gradient is measured by some numbers *)
Theorem C94_field_measured : forall Nmesh y jvp center phi eps gamma, tiles Nmesh center -> stores center phi center ->
  exists D J A, field_measures Nmesh y jvp center phi eps gamma D J A.
Proof.
  intros Nmesh y jvp center phi eps gamma T C.
  set (put := fun k h => match fperturb center Nmesh k h with Some w => w | None => [] end).
  assert (P : forall k h, In k (cells_of Nmesh) -> stores center (fun j => phi j + spike k h j) (put k h)).
  { intros k h Hk. unfold put. destruct (perturb_cell Nmesh center phi k h T C Hk) as (w & -> & S). exact S. }
  exists (fun k => y (put k eps) - y (put k (- eps))), (fun k => jvp (fminus (put k eps) (put k (- eps)))), (fun k => gamma k * (2 * eps)).
  split; [|split].
  - intros k w1 w0 Hk S1 S0. rewrite (stores_unique _ _ _ _ S1 (P k eps Hk)), (stores_unique _ _ _ _ S0 (P k (- eps) Hk)). reflexivity.
  - intros k b Hk B. f_equal. apply (stores_unique center (spike k (2 * eps))); [|exact B].
    destruct (minus_stores _ _ _ _ _ (P k eps Hk) (P k (- eps) Hk)) as (M1 & M2 & M3). split; [exact M1|split; [exact M2|]].
    eapply holds_ext; [|exact M3]. intros L j _ _. cbn beta. f_equal. unfold spike. destruct (idx_eqb j k); ring.
  - reflexivity.
Qed.

(** exact derivatives pass; a gradient off by more than the tolerance does not *)
Theorem C94_field_verdicts : forall Nmesh y jvp center phi eps rtol atol g gamma D J A,
  tiles Nmesh center -> stores center phi center ->
  match g with Some w => tiles Nmesh w /\ stores w gamma w | None => forall k, gamma k = 0 end ->
  field_measures Nmesh y jvp center phi eps gamma D J A -> 0 <= rtol -> 0 < atol ->
  ((forall k, In k (cells_of Nmesh) -> J k = A k /\ D k = A k) -> check_field y jvp g Nmesh center eps rtol atol = Some Passed) /\
  (forall k, In k (cells_of Nmesh) -> A k <> 0 -> J k <> 0 -> (Rabs (J k) + Rabs (A k)) * rtol + atol < Rabs (J k - A k) ->
     check_field y jvp g Nmesh center eps rtol atol = Some FG_BG) /\
  (forall k, In k (cells_of Nmesh) -> A k <> 0 -> D k <> 0 -> (Rabs (D k) + Rabs (A k)) * (rtol * 10000) + atol < Rabs (D k - A k) ->
     check_field y jvp g Nmesh center eps rtol atol <> Some Passed).
Proof.
  intros Nmesh y jvp center phi eps rtol atol g gamma D J A T C G M Hr Ha.
  destruct (C94_field Nmesh y jvp center phi eps rtol atol g gamma T C G D J A M Hr Ha) as (v & E & P1 & P2). rewrite E.
  assert (X : forall l1 l2 r a b, a <> 0 -> b <> 0 -> (Rabs a + Rabs b) * r + atol < Rabs (a - b) -> ~ close l1 l2 r atol a b).
  { intros l1 l2 r a b Na Nb L [C1 C2]. unfold tolerance, size in C1, C2. destruct (Req_EM_T a 0); [contradiction|]. destruct (Req_EM_T b 0); [contradiction|].
    revert L. unfold Rabs at 3. destruct (Rcase_abs _); lra. }
  split; [|split].
  - intros H. f_equal. apply P1. split; intros k Hk; apply close_same; try assumption; try lra; now apply H.
  - intros k Hk NA NJ L. f_equal. apply P2. intros H. exact (X _ _ _ _ _ NJ NA L (H k Hk)).
  - intros k Hk NA ND L V. injection V as ->. destruct (proj1 P1 eq_refl) as [_ H]. exact (X _ _ _ _ _ ND NA L (H k Hk)).
Qed.

(** a field of four cells on two ranks, the sum of its values: the constant gradient 1 passes and the
    constant gradient 3 does not *)
Definition case_field (v : list Z -> R) : rfield :=
  [mkL [0%Z] [2%Z] [cof (v [0%Z] : Rring); cof (v [1%Z] : Rring)]; mkL [2%Z] [2%Z] [cof (v [2%Z] : Rring); cof (v [3%Z] : Rring)]].
Definition sum_field (w : rfield) : R := rsum (K := Rring) (fun L => rsum (K := Rring) re (lvals L)) w.
Theorem C94_field_case : forall v, check_field sum_field sum_field (Some (case_field (fun _ => 1))) [4%Z] (case_field v) 1 0 (/ 10) = Some Passed /\
  check_field sum_field sum_field (Some (case_field (fun _ => 3))) [4%Z] (case_field v) 1 0 (/ 10) = Some FG_BG.
Proof.
  intros v.
  assert (T : forall u, tiles [4%Z] (case_field u)) by (intros u; constructor; [repeat constructor|vm_compute; apply Permutation_refl]).
  assert (S : forall u, stores (case_field u) u (case_field u)) by (intros u; split; [reflexivity|split; [reflexivity|repeat constructor]]).
  assert (SU : forall u w, stores (case_field v) u w -> w = case_field u).
  { intros u w SW. apply (stores_unique (case_field v) u); [exact SW|]. split; [reflexivity|split; [reflexivity|repeat constructor]]. }
  assert (V : forall u, sum_field (case_field u) = u [0%Z] + u [1%Z] + u [2%Z] + u [3%Z]).
  { intros u. unfold sum_field, case_field. cbn [rsum fold_right lvals]. unfold re, cof. cbn [fst radd r0 Rring].
    change (u [0%Z] + (u [1%Z] + 0) + (u [2%Z] + (u [3%Z] + 0) + 0) = u [0%Z] + u [1%Z] + u [2%Z] + u [3%Z]). ring. }
  assert (SP : forall k h, In k (cells_of [4%Z]) -> spike k h [0%Z] + spike k h [1%Z] + spike k h [2%Z] + spike k h [3%Z] = h).
  { intros k h Hk. cbn in Hk. destruct Hk as [<-|[<-|[<-|[<-|[]]]]]; unfold spike; cbn; ring. }
  assert (M : forall c, field_measures [4%Z] sum_field sum_field (case_field v) v 1 (fun _ => c) (fun _ => 2) (fun _ => 2) (fun _ => c * 2)).
  { intros c. split; [|split].
    - intros k w1 w0 Hk S1 S0. rewrite (SU _ _ S1), (SU _ _ S0), !V. pose proof (SP k 1 Hk). pose proof (SP k (Ropp 1) Hk). lra.
    - intros k b Hk SB. rewrite (SU _ _ SB), V, SP by exact Hk. ring.
    - intros k Hk. ring. }
  split.
  - refine (proj1 (C94_field_verdicts [4%Z] sum_field sum_field (case_field v) v 1 0 (/ 10) (Some (case_field (fun _ => 1))) (fun _ => 1) _ _ _ (T v) (S v) (conj (T _) (S _)) (M 1) _ _) _); try lra.
    intros k _. split; ring.
  - refine (proj1 (proj2 (C94_field_verdicts [4%Z] sum_field sum_field (case_field v) v 1 0 (/ 10) (Some (case_field (fun _ => 3))) (fun _ => 3) _ _ _ (T v) (S v) (conj (T _) (S _)) (M 3) _ _)) [0%Z] _ _ _ _); try lra.
    + cbn. now left.
    + replace (2 - 3 * 2) with (Ropp 4) by ring. rewrite Rabs_Ropp, (Rabs_right 4), (Rabs_right 2), (Rabs_right (3 * 2)) by lra. lra.
Qed.

Print Assumptions C94_field.
Print Assumptions C94_field_measured.
Print Assumptions C94_field_verdicts.
Print Assumptions C94_field_case.
