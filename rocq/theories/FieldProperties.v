(** Properties C36 and C37: collective item access of complex fields
    (pmesh/pm.py:267-345). *)
From Coq Require Import List Arith ZArith QArith Lia Bool Permutation.
From Verif Require Import Base ListFacts LayoutModel WrapModel WrapProofs DomainModel DomainFill MeshModel MeshAssign
  MeshRoute MeshTile RingModel FieldModel FieldFacts.
Import ListNotations.
Local Close Scope Q_scope.
Local Open Scope Z_scope.

(** ** modes *)
(** the mode with the opposite wave vector, and the array index a Python index means *)
Definition opposite (Nmesh k : list Z) : list Z := map2 (fun n i => (- i) mod n) Nmesh k.
Definition meant (Nmesh i : list Z) : list Z := map2 (fun n i => i mod n) Nmesh i.
Definition in_range (Nmesh i : list Z) : Prop := Forall2 (fun n i => - n <= i < n) Nmesh i.

(** the stored array: every axis in full, or a part of it (the last axis of a
    compressed field stores N / 2 + 1 entries, pm.py:356-375) *)
Definition stored_shape (Nmesh cshape : list Z) : Prop := Forall2 (fun n c => 0 < c <= n) Nmesh cshape.

Lemma in_range_length N i : in_range N i -> length i = length N.
Proof. intros H. induction H; simpl; congruence. Qed.
Lemma from_end_meant N i : in_range N i -> map2 from_end N i = meant N i.
Proof.
  intros H. induction H as [|n i N l Hi H IH]; [reflexivity|].
  unfold meant in *. rewrite !map2_cons. f_equal; [|exact IH]. unfold from_end.
  destruct (Z.ltb_spec i 0).
  - rewrite <- (Z.mod_small (i + n) n) by lia. replace (i + n) with (i + 1 * n) by lia. apply Z.mod_add. lia.
  - symmetry. apply Z.mod_small. lia.
Qed.
Lemma dual_opposite N i : in_range N i -> dual_index N i = opposite N (meant N i).
Proof.
  intros H. induction H as [|n i N l Hi H IH]; [reflexivity|].
  unfold dual_index, opposite, meant in *. rewrite !map2_cons. f_equal; [|exact IH].
  replace (- i + n) with (- i + 1 * n) by lia. rewrite Z.mod_add by lia.
  rewrite <- (Z.sub_0_l (i mod n)), Zminus_mod_idemp_r. reflexivity.
Qed.
Lemma opposite_fixed N k : in_range N (opposite N k) -> map2 from_end N (opposite N k) = opposite N k.
Proof.
  unfold opposite. revert k. induction N as [|n N IH]; intros [|x k] H; try reflexivity.
  rewrite !map2_cons in *. inversion H; subst. f_equal; [|apply IH; assumption].
  unfold from_end. destruct (Z.ltb_spec (- x mod n) 0); [|reflexivity].
  pose proof (Z.mod_pos_bound (- x) n). lia.
Qed.
Lemma opposite_range N k : Forall (fun n => 0 < n) N -> length k = length N -> in_range N (opposite N k).
Proof.
  intros H. revert k. induction H as [|n N Hn H IH]; intros [|x k] L; try discriminate; [constructor|].
  unfold opposite in *. rewrite map2_cons. constructor; [|apply IH; simpl in L; lia].
  pose proof (Z.mod_pos_bound (- x) n). lia.
Qed.
Lemma opposite_involutive N k : Forall2 (fun n i => 0 <= i < n) N k -> opposite N (opposite N k) = k.
Proof.
  intros H. induction H as [|n i N l Hi H IH]; [reflexivity|].
  unfold opposite in *. rewrite !map2_cons. f_equal; [|exact IH].
  rewrite <- (Z.sub_0_l (- i mod n)), Zminus_mod_idemp_r. replace (0 - - i) with i by lia. apply Z.mod_small. lia.
Qed.
Lemma meant_valid N i : in_range N i -> Forall2 (fun n k => 0 <= k < n) N (meant N i).
Proof.
  intros H. induction H as [|n i N l Hi H IH]; [constructor|]. unfold meant in *. rewrite map2_cons.
  constructor; [|exact IH]. apply Z.mod_pos_bound. lia.
Qed.
Lemma in_range_pos N i : in_range N i -> Forall (fun n => 0 < n) N.
Proof. intros H. induction H; constructor; [lia|assumption]. Qed.
Lemma meant_length N i : length i = length N -> length (meant N i) = length N.
Proof. intros H. unfold meant. apply map2_length. lia. Qed.
Lemma opposite_length N i : length i = length N -> length (opposite N i) = length N.
Proof. intros H. unfold opposite. apply map2_length. lia. Qed.

Lemma idx_eqb_spec a b : reflect (a = b) (idx_eqb a b).
Proof. unfold idx_eqb. destruct (list_eq_dec Z.eq_dec a b); constructor; assumption. Qed.

Section Items.
Variable K : cring.
Add Ring Kr : (rth K).
Local Notation C := (cpx K).

(** the reality condition, on the modes that are stored *)
Definition hermitian (Nmesh cshape : list Z) (f : list Z -> C) : Prop :=
  forall k, In k (cells_of cshape) -> In (opposite Nmesh k) (cells_of cshape) -> f (opposite Nmesh k) = cconj (f k).

(** the assignments of the documentation: a whole mode, or one component (0 the
    real part, 1 the imaginary part) *)
Inductive request := Mode (i : list Z) (y : C) | Component (i : list Z) (imag : bool) (y : K).
Definition mode_of (q : request) : list Z := match q with Mode i _ => i | Component i _ _ => i end.
Definition index_of (q : request) : list Z :=
  match q with Mode i _ => i | Component i imag _ => i ++ [if imag then 1 else 0] end.
Definition number_of (q : request) : C := match q with Mode _ y => y | Component _ _ y => cof y end.

(** what the mode [m] itself becomes; [own] tells whether it is its own conjugate *)
Definition new_value (q : request) (own : bool) (old : C) : C :=
  match q with
  | Mode _ y => if own then creal y else y
  | Component _ false y => (y, im old)
  | Component _ true y => (re old, if own then r0 else y)
  end.
(** what the conjugate mode becomes *)
Definition new_conj (q : request) (old : C) : C :=
  match q with
  | Mode _ y => cconj y
  | Component _ false y => (y, im old)
  | Component _ true y => (re old, ropp y)
  end.
(** the number the call reports when the mode is stored *)
Definition reported (q : request) (own : bool) : C :=
  match q with
  | Mode _ y => if own then creal y else y
  | Component _ false y => cof y
  | Component _ true y => cof (if own then r0 else y)
  end.

(** the field after the call *)
Definition assigned (Nmesh : list Z) (q : request) (f : list Z -> C) (k : list Z) : C :=
  let m := meant Nmesh (mode_of q) in
  let own := idx_eqb (opposite Nmesh m) m in
  if idx_eqb k m then new_value q own (f k)
  else if idx_eqb k (opposite Nmesh m) then new_conj q (f k) else f k.

Lemma access_index (Nmesh : list Z) q : length (mode_of q) = length Nmesh ->
  access_of (length Nmesh) (index_of q) =
  Some (match q with Mode i _ => Whole i | Component i b _ => Part i (if b then 1 else 0) end).
Proof.
  intros H. unfold access_of. destruct q as [i y|i b y]; simpl in *.
  - destruct (Nat.eqb_spec (length i) (length Nmesh + 1)); [lia|]. destruct (Nat.eqb_spec (length i) (length Nmesh)); [reflexivity|lia].
  - rewrite app_length. simpl. destruct (Nat.eqb_spec (length i + 1) (length Nmesh + 1)); [|lia].
    rewrite removelast_last, last_last. reflexivity.
Qed.

(** [o] is the local index of the global cell [m], if this rank has it *)
Definition located (L : lfield C) (o : option (list Z)) (m : list Z) : Prop :=
  (In m (lcells L) /\ exists l, o = Some l /\ In l (cells_of (lshape L)) /\ zadd (lstart L) l = m) \/
  (~ In m (lcells L) /\ o = None).
Definition opt_put (L : lfield C) (o : option (list Z)) (g : C -> C) : lfield C :=
  match o with Some l => lput L l g | None => L end.

Lemma opt_put_holds (L : lfield C) nd o m f g : length (lstart L) = nd -> length (lshape L) = nd ->
  located L o m -> lvals L = map f (lcells L) ->
  lstart (opt_put L o g) = lstart L /\ lshape (opt_put L o g) = lshape L /\
  lvals (opt_put L o g) = map (fun k => if idx_eqb k m then g (f k) else f k) (lcells L).
Proof.
  intros Ds Dh [(M & l & -> & B & Z)|(M & ->)] H; (split; [reflexivity|]; split; [reflexivity|]); cbn [opt_put].
  - rewrite (lput_holds L nd Ds Dh f) by assumption. now rewrite Z.
  - rewrite H. apply map_ext_in. intros k Hk. destruct (idx_eqb_spec k m); [congruence|reflexivity].
Qed.

Lemma located_same (L : lfield C) o o2 m d : length (lstart L) = length (lshape L) ->
  located L o m -> located L o2 d ->
  match o, o2 with Some a, Some b => idx_eqb a b | _, _ => false end = memb m (lcells L) && idx_eqb d m.
Proof.
  intros D [(M & l & -> & B & Z)|(M & ->)] [(M2 & l2 & -> & B2 & Z2)|(M2 & ->)].
  - replace (memb m (lcells L)) with true by (symmetry; apply memb_true; assumption). cbn [andb].
    destruct (idx_eqb_spec l l2) as [->|N], (idx_eqb_spec d m) as [Q|Q]; try reflexivity; exfalso; try congruence.
    apply N. apply (zadd_inj (lstart L)); [rewrite (cells_dim _ _ B); lia|rewrite (cells_dim _ _ B2); lia|congruence].
  - destruct (idx_eqb_spec d m); [congruence|]. now rewrite andb_false_r.
  - destruct (memb m (lcells L)) eqn:E; [apply memb_true in E; contradiction|reflexivity].
  - destruct (memb m (lcells L)) eqn:E; [apply memb_true in E; contradiction|reflexivity].
Qed.

Lemma located_dec {A} (L : lfield C) o m (x y : A) : located L o m ->
  match o with None => x | Some _ => y end = if memb m (lcells L) then y else x.
Proof.
  intros [(M & l & -> & _)|(M & ->)]; destruct (memb m (lcells L)) eqn:E; try reflexivity.
  - apply memb_true in M. congruence.
  - apply memb_true in E. contradiction.
Qed.

(** one rank: what it stores afterwards and what it contributes to the sum *)
Lemma csetitem_rank Nmesh (L : lfield C) q f :
  length (lstart L) = length Nmesh -> length (lshape L) = length Nmesh -> in_range Nmesh (mode_of q) ->
  lvals L = map f (lcells L) ->
  let m := meant Nmesh (mode_of q) in
  exists L', csetitem_local K true Nmesh L (index_of q) (number_of q) =
             Ret (L', if memb m (lcells L) then reported q (idx_eqb (opposite Nmesh m) m) else c0) /\
    lstart L' = lstart L /\ lshape L' = lshape L /\ lvals L' = map (assigned Nmesh q f) (lcells L).
Proof.
  intros Ds Dh R H m. pose proof (in_range_length _ _ R) as Li. pose proof (in_range_pos _ _ R) as HN.
  unfold csetitem_local. rewrite (access_index Nmesh q Li).
  assert (Lm : length m = length Nmesh) by (apply meant_length; assumption).
  assert (Ld : length (dual_index Nmesh (mode_of q)) = length Nmesh) by (unfold dual_index; apply map2_length; lia).
  assert (S1 : located L (ctol Nmesh L (mode_of q)) m).
  { pose proof (ctol_spec L (length Nmesh) Ds Dh Nmesh (mode_of q) eq_refl Li) as S1. cbv zeta in S1.
    rewrite (from_end_meant _ _ R) in S1. exact S1. }
  assert (S2 : located L (ctol Nmesh L (dual_index Nmesh (mode_of q))) (opposite Nmesh m)).
  { pose proof (ctol_spec L (length Nmesh) Ds Dh Nmesh (dual_index Nmesh (mode_of q)) eq_refl Ld) as S2. cbv zeta in S2.
    replace (map2 from_end Nmesh (dual_index Nmesh (mode_of q))) with (opposite Nmesh m) in S2; [exact S2|].
    rewrite (dual_opposite _ _ R). symmetry. apply opposite_fixed. apply opposite_range; assumption. }
  set (d := opposite Nmesh m) in *.
  assert (W : forall g1 g2,
    let L2 := opt_put (opt_put L (ctol Nmesh L (mode_of q)) g1) (ctol Nmesh L (dual_index Nmesh (mode_of q))) g2 in
    lstart L2 = lstart L /\ lshape L2 = lshape L /\
    lvals L2 = map (fun k => if idx_eqb k d then g2 (if idx_eqb k m then g1 (f k) else f k)
                             else if idx_eqb k m then g1 (f k) else f k) (lcells L)).
  { intros g1 g2 L2. destruct (opt_put_holds L _ _ _ f g1 Ds Dh S1 H) as (A1 & A2 & A3).
    set (L1 := opt_put L (ctol Nmesh L (mode_of q)) g1) in *.
    assert (CE : lcells L1 = lcells L) by (unfold lcells; now rewrite A1, A2).
    assert (S3 : located L1 (ctol Nmesh L (dual_index Nmesh (mode_of q))) d)
      by (unfold located; rewrite CE, A1, A2; exact S2).
    destruct (opt_put_holds L1 (length Nmesh) _ _ (fun k => if idx_eqb k m then g1 (f k) else f k) g2
                ltac:(now rewrite A1) ltac:(now rewrite A2) S3 ltac:(rewrite CE; exact A3)) as (B1 & B2 & B3).
    fold L2 in B1, B2, B3. split; [congruence|]. split; [congruence|]. rewrite B3, CE. reflexivity. }
  assert (D : length (lstart L) = length (lshape L)) by lia.
  assert (MD : forall k, In k (lcells L) -> k = m -> memb m (lcells L) = true) by (intros k Hk ->; now apply memb_true).
  assert (DD : forall k, In k (lcells L) -> k = d -> memb d (lcells L) = true) by (intros k Hk ->; now apply memb_true).
  destruct q as [i y|i b y]; cbn [mode_of number_of] in *.
  - rewrite (located_same L _ _ m d D S1 S2), (located_dec L _ m c0 y S1), (located_dec L _ d c0 y S2).
    destruct (W (fun _ => if memb m (lcells L) && idx_eqb d m then creal (if memb m (lcells L) then y else c0)
                          else if memb m (lcells L) then y else c0)
                (fun _ => if memb m (lcells L) && idx_eqb d m then creal (cconj (if memb d (lcells L) then y else c0))
                          else cconj (if memb d (lcells L) then y else c0))) as (A1 & A2 & A3).
    eexists. split; [|split; [exact A1|split; [exact A2|]]].
    + f_equal. f_equal. cbn [reported]. destruct (memb m (lcells L)); reflexivity.
    + rewrite A3. apply map_ext_in. intros k Hk. unfold assigned. cbn [mode_of new_value new_conj]. fold m d.
      specialize (MD k Hk). specialize (DD k Hk).
      destruct (idx_eqb_spec k d) as [E1|E1]; destruct (idx_eqb_spec k m) as [E2|E2];
        destruct (idx_eqb_spec d m) as [E3|E3]; try congruence.
      * rewrite (MD E2), (DD E1). reflexivity.
      * rewrite (DD E1), andb_false_r. reflexivity.
      * rewrite (MD E2), andb_false_r. reflexivity.
  - rewrite (located_same L _ _ m d D S1 S2), (located_dec L _ m c0 (cof y) S1), (located_dec L _ d c0 (cof y) S2).
    replace (part_slot (if b then 1 else 0)) with (Some b) by (destruct b; reflexivity).
    set (c1 := (if b then 1 else 0) =? 1) in *. assert (C1 : c1 = b) by (unfold c1; destruct b; reflexivity). clearbody c1. subst c1.
    set (z := b && (memb m (lcells L) && idx_eqb d m)).
    destruct (W (set_part K b (if z then c0 else if memb m (lcells L) then cof y else c0))
                (set_part K b (if z then c0 else if b then copp (if memb d (lcells L) then cof y else c0)
                                                 else if memb d (lcells L) then cof y else c0))) as (A1 & A2 & A3).
    eexists. split; [|split; [exact A1|split; [exact A2|]]].
    + f_equal. f_equal. cbn [reported]. unfold z. destruct (memb m (lcells L)), b; cbn [andb]; try reflexivity.
      destruct (idx_eqb d m); reflexivity.
    + rewrite A3. apply map_ext_in. intros k Hk. unfold assigned. cbn [mode_of new_value new_conj]. fold m d.
      specialize (MD k Hk). specialize (DD k Hk). unfold z.
      destruct (idx_eqb_spec k d) as [E1|E1]; destruct (idx_eqb_spec k m) as [E2|E2];
        destruct (idx_eqb_spec d m) as [E3|E3]; try congruence.
      * rewrite (MD E2), (DD E1). destruct b; reflexivity.
      * rewrite (DD E1), !andb_false_r. destruct b; reflexivity.
      * rewrite (MD E2), !andb_false_r. destruct b; reflexivity.
Qed.

Lemma all_ret_map {A} (l : list A) : all_ret (map Ret l) = Some l.
Proof. unfold all_ret. rewrite map_map. apply sequence_map_Some. Qed.

(** ** the collective calls *)
(** All ranks return the same number, and the field holds the assigned values. *)
Theorem csetitem_world Nmesh cshape (Ls : list (lfield C)) f q :
  tiles cshape Ls -> length cshape = length Nmesh -> holds Ls f -> in_range Nmesh (mode_of q) ->
  let m := meant Nmesh (mode_of q) in
  let v := if memb m (cells_of cshape) then reported q (idx_eqb (opposite Nmesh m) m) else c0 in
  exists Ls', csetitem K true Nmesh Ls (index_of q) (number_of q) = map (fun L => Ret (L, v)) Ls' /\
    map lstart Ls' = map lstart Ls /\ map lshape Ls' = map lshape Ls /\ holds Ls' (assigned Nmesh q f).
Proof.
  intros T HD H R m v. pose proof (tl_dim _ _ T) as TD.
  assert (X : exists Ls', map (fun L => csetitem_local K true Nmesh L (index_of q) (number_of q)) Ls =
      map Ret (combine Ls' (map (fun L => if memb m (lcells L) then reported q (idx_eqb (opposite Nmesh m) m) else c0) Ls)) /\
      length Ls' = length Ls /\
      map lstart Ls' = map lstart Ls /\ map lshape Ls' = map lshape Ls /\ holds Ls' (assigned Nmesh q f)).
  { clear T v. unfold holds in *. induction Ls as [|L Ls IH]; [exists []; repeat split; constructor|].
    inversion TD; subst. inversion H; subst. destruct (IH ltac:(assumption) ltac:(assumption)) as (Ls' & E0 & E1 & E2 & E3 & E4).
    destruct (csetitem_rank Nmesh L q f ltac:(lia) ltac:(lia) R ltac:(assumption)) as (L' & F1 & F2 & F3 & F4).
    exists (L' :: Ls'). cbn [map combine]. rewrite F1, E0, E2, E3, F2, F3. cbn [length]. rewrite E1.
    repeat split. constructor; [|assumption]. rewrite F4. f_equal. unfold lcells. now rewrite F2, F3. }
  destruct X as (Ls' & E0 & EL & E1 & E2 & E3). exists Ls'. split; [|repeat split; assumption].
  unfold csetitem, allreduce. rewrite E0, all_ret_map.
  assert (SV : rsum (K := cpx_cring K) snd (combine Ls' (map (fun L => if memb m (lcells L) then reported q (idx_eqb (opposite Nmesh m) m) else c0) Ls)) = v).
  { rewrite <- (rsum_map (cpx_cring K) snd (fun x => x)). rewrite map_snd_combine by (rewrite map_length; lia).
    rewrite rsum_map. exact (tiles_owner (cpx_cring K) cshape Ls m (reported q (idx_eqb (opposite Nmesh m) m)) T). }
  rewrite SV, <- (map_map fst (fun L => Ret (L, v))). f_equal. apply map_fst_combine. rewrite map_length. lia.
Qed.

(** what a read of the same index yields *)
Definition part_of (q : request) (z : C) : C :=
  match q with Mode _ _ => z | Component _ false _ => cof (re z) | Component _ true _ => cof (im z) end.

Theorem cgetitem_world Nmesh cshape (Ls : list (lfield C)) f q :
  tiles cshape Ls -> length cshape = length Nmesh -> holds Ls f -> in_range Nmesh (mode_of q) ->
  let m := meant Nmesh (mode_of q) in
  cgetitem K true Nmesh Ls (index_of q) =
  map (fun _ => Ret (if memb m (cells_of cshape) then part_of q (f m) else c0)) Ls.
Proof.
  intros T HD H R m. pose proof (tl_dim _ _ T) as TD. pose proof (in_range_length _ _ R) as Li.
  unfold cgetitem.
  assert (X : map (fun L => bind (cgetitem_local K true Nmesh L (index_of q)) (fun v => Ret (tt, v))) Ls =
              map Ret (map (fun L => (tt, if memb m (lcells L) then part_of q (f m) else c0)) Ls)).
  { rewrite map_map. apply map_ext_in. intros L HL.
    unfold holds in H. rewrite Forall_forall in TD, H. destruct (TD L HL) as [Ds Dh]. specialize (H L HL).
    unfold cgetitem_local. rewrite (access_index Nmesh q Li).
    pose proof (ctol_spec L (length Nmesh) ltac:(lia) ltac:(lia) Nmesh (mode_of q) eq_refl Li) as S1. cbv zeta in S1.
    rewrite (from_end_meant _ _ R) in S1. fold m in S1.
    destruct S1 as [(M1 & l & E1 & B1 & Z1)|(M1 & E1)].
    - replace (memb m (lcells L)) with true by (symmetry; apply memb_true; assumption).
      pose proof (lget_holds L f c0 l H B1) as G. rewrite Z1 in G.
      destruct q as [i y|i b y]; cbn [mode_of part_of] in *; rewrite E1; [now rewrite G|].
      replace (part_slot (if b then 1 else 0)) with (Some b) by (destruct b; reflexivity).
      rewrite G. destruct b; reflexivity.
    - destruct (memb m (lcells L)) eqn:E; [apply memb_true in E; contradiction|].
      destruct q as [i y|i b y]; cbn [mode_of part_of] in *; rewrite E1; reflexivity. }
  rewrite X. unfold allreduce. rewrite all_ret_map, !map_map. apply map_ext. intros L0. cbn [bind snd]. f_equal.
  rewrite rsum_map. exact (tiles_owner (cpx_cring K) cshape Ls m (part_of q (f m)) T).
Qed.

Lemma stored_length Nmesh cshape : stored_shape Nmesh cshape -> length cshape = length Nmesh.
Proof. intros H. induction H; simpl; congruence. Qed.
Lemma stored_valid Nmesh cshape k : stored_shape Nmesh cshape -> In k (cells_of cshape) ->
  Forall2 (fun n i => 0 <= i < n) Nmesh k.
Proof.
  intros H Hk. apply cells_valid in Hk. revert k Hk. induction H as [|n c N s Hc H IH]; intros k Hk; inversion Hk; subst; constructor.
  - lia.
  - now apply IH.
Qed.

(** ** C36: the reality condition is an invariant *)
Lemma assigned_hermitian Nmesh cshape f q : stored_shape Nmesh cshape -> in_range Nmesh (mode_of q) ->
  hermitian Nmesh cshape f -> hermitian Nmesh cshape (assigned Nmesh q f).
Proof.
  intros S R H k Hk Hd. specialize (H k Hk Hd). unfold assigned.
  pose proof (meant_valid _ _ R) as Vm. set (m := meant Nmesh (mode_of q)) in *.
  pose proof (opposite_involutive Nmesh k (stored_valid _ _ _ S Hk)) as I1.
  pose proof (opposite_involutive Nmesh m Vm) as I2.
  destruct (idx_eqb_spec k m) as [->|E1].
  - destruct (idx_eqb_spec (opposite Nmesh m) m) as [E2|E2].
    + rewrite E2 in *. destruct q as [i y|i b y]; cbn [new_value].
      * now rewrite cconj_real.
      * destruct (f m) as [a c]. unfold cconj, re, im in *. cbn [fst snd] in *. inversion H as [[Q1]]. destruct b; cbn; f_equal; [ring|congruence].
    + destruct (idx_eqb_spec (opposite Nmesh m) (opposite Nmesh m)); [|congruence].
      destruct q as [i y|i b y]; cbn [new_value new_conj]; [reflexivity|].
      rewrite H. destruct b; reflexivity.
  - destruct (idx_eqb_spec k (opposite Nmesh m)) as [->|E2].
    + rewrite I2 in *. destruct (idx_eqb_spec m m); [|congruence].
      destruct (idx_eqb_spec (opposite Nmesh m) m) as [E3|E3]; [congruence|].
      destruct q as [i y|i b y]; cbn [new_value new_conj]; [now rewrite cconj_involutive|].
      rewrite H. destruct b; unfold cconj, re, im; cbn; f_equal. ring.
    + destruct (idx_eqb_spec (opposite Nmesh k) m) as [E3|E3].
      { exfalso. apply E2. rewrite <- E3. congruence. }
      destruct (idx_eqb_spec (opposite Nmesh k) (opposite Nmesh m)) as [E4|E4].
      { exfalso. apply E1. rewrite <- I1, E4. exact I2. }
      exact H.
Qed.

(** a program that assigns items one after the other *)
Fixpoint csetitems (Nmesh : list Z) (Ls : list (lfield C)) (qs : list request) : option (list (lfield C)) :=
  match qs with
  | [] => Some Ls
  | q :: r => match all_ret (csetitem K true Nmesh Ls (index_of q) (number_of q)) with
              | Some res => csetitems Nmesh (map fst res) r
              | None => None
              end
  end.

Lemma csetitem_after Nmesh cshape (Ls : list (lfield C)) f q :
  tiles cshape Ls -> length cshape = length Nmesh -> holds Ls f -> in_range Nmesh (mode_of q) ->
  exists res, all_ret (csetitem K true Nmesh Ls (index_of q) (number_of q)) = Some res /\
    map lstart (map fst res) = map lstart Ls /\ map lshape (map fst res) = map lshape Ls /\
    tiles cshape (map fst res) /\ holds (map fst res) (assigned Nmesh q f).
Proof.
  intros T D H R. destruct (csetitem_world Nmesh cshape Ls f q T D H R) as (Ls' & E & S1 & S2 & H').
  set (v := if memb _ _ then _ else _) in E. exists (map (fun L => (L, v)) Ls').
  rewrite E, <- (map_map (fun L => (L, v)) Ret), all_ret_map.
  assert (EF : map fst (map (fun L => (L, v)) Ls') = Ls') by (rewrite map_map; apply map_id). rewrite EF.
  repeat split; try assumption; apply (tiles_same cshape Ls); auto.
Qed.

(** Any history of assignments, on any partition of any mesh, keeps the field
    Hermitian; afterwards reading any index gives one and the same number on every
    rank. *)
Theorem C36_hermitian_history : forall Nmesh cshape (Ls : list (lfield C)) f qs,
  tiles cshape Ls -> stored_shape Nmesh cshape -> holds Ls f -> hermitian Nmesh cshape f ->
  Forall (fun q => in_range Nmesh (mode_of q)) qs ->
  exists Ls' f', csetitems Nmesh Ls qs = Some Ls' /\ tiles cshape Ls' /\
    map lstart Ls' = map lstart Ls /\ map lshape Ls' = map lshape Ls /\
    holds Ls' f' /\ hermitian Nmesh cshape f' /\
    forall k, Forall (fun q => k <> meant Nmesh (mode_of q) /\ k <> opposite Nmesh (meant Nmesh (mode_of q))) qs -> f' k = f k.
Proof.
  intros Nmesh cshape Ls f qs T S H Hm F. pose proof (stored_length _ _ S) as D.
  revert Ls f T H Hm. induction F as [|q qs R F IH]; intros Ls f T H Hm.
  - exists Ls, f. repeat split; try assumption; try reflexivity; apply T.
  - destruct (csetitem_after Nmesh cshape Ls f q T D H R) as (res & E & S1 & S2 & T' & H').
    destruct (IH _ _ T' H' (assigned_hermitian _ _ _ _ S R Hm)) as (Ls' & f' & E' & T2 & S3 & S4 & H2 & Hm2 & K2).
    exists Ls', f'. cbn [csetitems]. rewrite E. split; [exact E'|]. split; [exact T2|].
    split; [congruence|]. split; [congruence|]. split; [exact H2|]. split; [exact Hm2|].
    intros k Hk. inversion Hk as [|? ? [N1 N2] Hk']; subst. rewrite (K2 k Hk').
    unfold assigned. destruct (idx_eqb_spec k (meant Nmesh (mode_of q))); [contradiction|].
    destruct (idx_eqb_spec k (opposite Nmesh (meant Nmesh (mode_of q)))); [contradiction|reflexivity].
Qed.

(** Writing a stored mode and reading it back, and what the calls report. *)
Theorem C36_set_then_get : forall Nmesh cshape (Ls : list (lfield C)) f q,
  tiles cshape Ls -> stored_shape Nmesh cshape -> holds Ls f -> in_range Nmesh (mode_of q) ->
  let m := meant Nmesh (mode_of q) in
  let written := match q with
                 | Mode _ y => if idx_eqb (opposite Nmesh m) m then (re y, r0) else y
                 | Component _ false y => (y, r0)
                 | Component _ true y => if idx_eqb (opposite Nmesh m) m then (r0, r0) else (y, r0)
                 end in
  In m (cells_of cshape) ->
  exists Ls', csetitem K true Nmesh Ls (index_of q) (number_of q) = map (fun L => Ret (L, written)) Ls' /\
    length Ls' = length Ls /\
    cgetitem K true Nmesh Ls' (index_of q) = map (fun _ => Ret written) Ls'.
Proof.
  intros Nmesh cshape Ls f q T S H R m written Hm. pose proof (stored_length _ _ S) as D.
  destruct (csetitem_world Nmesh cshape Ls f q T D H R) as (Ls' & E & S1 & S2 & H'). fold m in E.
  assert (MB : memb m (cells_of cshape) = true) by (apply memb_true; assumption). rewrite MB in E.
  assert (T' : tiles cshape Ls') by (apply (tiles_same cshape Ls); auto).
  exists Ls'. split; [|split].
  - rewrite E. apply map_ext. intros L. f_equal. f_equal. unfold written, reported.
    destruct q as [i y|i [|] y]; cbn [mode_of]; unfold cof, creal; try reflexivity. now destruct (idx_eqb _ _).
  - rewrite <- (map_length lstart Ls'), S1. apply map_length.
  - rewrite (cgetitem_world Nmesh cshape Ls' (assigned Nmesh q f) q T' D H' R). fold m. rewrite MB.
    apply map_ext. intros L0. f_equal. unfold assigned. fold m.
    destruct (idx_eqb_spec m m); [|congruence]. unfold written.
    destruct q as [i y|i [|] y]; cbn [mode_of new_value part_of]; unfold cof, creal; try reflexivity.
    destruct (idx_eqb _ _); reflexivity.
Qed.

(** ** C37 *)
(** Setting a mode of the unstored half stores the conjugate at the opposite
    mode, nothing else; the number reported is 0, and reading the unstored mode
    gives 0. *)
Theorem C37_unstored_mode : forall Nmesh cshape (Ls : list (lfield C)) f i y,
  tiles cshape Ls -> stored_shape Nmesh cshape -> holds Ls f -> in_range Nmesh i ->
  let m := meant Nmesh i in
  ~ In m (cells_of cshape) ->
  exists Ls', csetitem K true Nmesh Ls i y = map (fun L => Ret (L, (r0, r0))) Ls' /\
    length Ls' = length Ls /\
    holds Ls' (fun k => if list_eq_dec Z.eq_dec k (opposite Nmesh m) then cconj y else f k) /\
    cgetitem K true Nmesh Ls' i = map (fun _ => Ret (r0, r0)) Ls' /\
    (forall i', in_range Nmesh i' -> meant Nmesh i' = opposite Nmesh m -> In (opposite Nmesh m) (cells_of cshape) ->
       cgetitem K true Nmesh Ls' i' = map (fun _ => Ret (cconj y)) Ls').
Proof.
  intros Nmesh cshape Ls f i y T S H R m Hm. pose proof (stored_length _ _ S) as D.
  destruct (csetitem_world Nmesh cshape Ls f (Mode i y) T D H R) as (Ls' & E & S1 & S2 & H'). cbn [mode_of index_of number_of] in E. fold m in E.
  assert (MB : memb m (cells_of cshape) = false) by (destruct (memb m (cells_of cshape)) eqn:Q; [apply memb_true in Q; contradiction|reflexivity]).
  rewrite MB in E.
  assert (T' : tiles cshape Ls') by (apply (tiles_same cshape Ls); auto).
  exists Ls'. split; [exact E|]. split; [rewrite <- (map_length lstart Ls'), S1; apply map_length|].
  assert (H2 : holds Ls' (fun k => if list_eq_dec Z.eq_dec k (opposite Nmesh m) then cconj y else f k)).
  { apply (holds_ext Ls' (assigned Nmesh (Mode i y) f)); [|exact H'].
    intros L k HL Hk. unfold assigned. cbn [mode_of new_value new_conj]. fold m.
    destruct (idx_eqb_spec k m) as [->|]; [exfalso; apply Hm; eapply tiles_cell; eauto|].
    unfold idx_eqb. destruct (list_eq_dec Z.eq_dec k (opposite Nmesh m)); reflexivity. }
  split; [exact H2|]. split.
  - pose proof (cgetitem_world Nmesh cshape Ls' _ (Mode i y) T' D H2 R) as G. cbn [mode_of index_of] in G. fold m in G.
    rewrite MB in G. exact G.
  - intros i' R' Ei Hin. pose proof (cgetitem_world Nmesh cshape Ls' _ (Mode i' y) T' D H2 R') as G.
    cbn [mode_of index_of part_of] in G. rewrite Ei in G. apply memb_true in Hin. rewrite Hin in G.
    rewrite G. destruct (list_eq_dec Z.eq_dec (opposite Nmesh m) (opposite Nmesh m)); [reflexivity|congruence].
Qed.
End Items.
Print Assumptions C36_hermitian_history.
Print Assumptions C36_set_then_get.
Print Assumptions C37_unstored_mode.

(** ** a 2-d compressed field, Nmesh = 4 x 4, stored 4 x 3, on two ranks that split the last axis *)
Definition ex_Nmesh : list Z := [4; 4].
Definition ex_cshape : list Z := [4; 3].
(** Gaussian integer with the symmetry of a real field *)
Definition ex_modes (k : list Z) : cpx Zring :=
  match k with
  | [0; 0] => (7, 0) | [2; 0] => (-1, 0) | [1; 0] => (2, 3) | [3; 0] => (2, -3)
  | [0; 2] => (5, 0) | [2; 2] => (4, 0) | [1; 2] => (1, -6) | [3; 2] => (1, 6)
  | [a; b] => (a * 10 + b, a - 2 * b)
  | _ => (0, 0)
  end%Z.
Definition fill_block {V} (f : list Z -> V) (start shape : list Z) : lfield V :=
  mkL start shape (map f (map (zadd start) (cells_of shape))).
Definition ex_world : list (lfield (cpx Zring)) := [fill_block ex_modes [0; 0] [4; 2]; fill_block ex_modes [0; 2] [4; 1]].

Lemma perm_check (l m : list (list Z)) : NoDup l -> NoDup m ->
  forallb (fun k => memb k m) l = true -> forallb (fun k => memb k l) m = true -> Permutation l m.
Proof.
  intros N1 N2 H1 H2. rewrite forallb_forall in H1, H2. apply NoDup_Permutation; try assumption.
  intros x. split; intros Hx; apply memb_true; auto.
Qed.
Fixpoint nodupb (l : list (list Z)) : bool :=
  match l with [] => true | x :: r => negb (memb x r) && nodupb r end.
Lemma nodupb_ok l : nodupb l = true -> NoDup l.
Proof.
  induction l as [|x l IH]; simpl; intros H; [constructor|]. apply andb_true_iff in H. destruct H as [H1 H2].
  constructor; [|auto]. intros Hx. apply memb_true in Hx. rewrite Hx in H1. discriminate.
Qed.

Lemma ex_tiles : tiles ex_cshape ex_world.
Proof.
  split; [repeat constructor|].
  apply perm_check; [apply nodupb_ok|apply nodupb_ok| |]; vm_compute; reflexivity.
Qed.
Lemma ex_stored : stored_shape ex_Nmesh ex_cshape.
Proof. repeat constructor; lia. Qed.
Lemma ex_holds : holds ex_world ex_modes.
Proof. repeat constructor. Qed.
Lemma cells_check (P : list Z -> bool) shape : forallb P (cells_of shape) = true -> forall k, In k (cells_of shape) -> P k = true.
Proof. rewrite forallb_forall. auto. Qed.
Lemma ex_hermitian : hermitian Zring ex_Nmesh ex_cshape ex_modes.
Proof.
  intros k Hk. revert k Hk.
  assert (X : Forall (fun k => In (opposite ex_Nmesh k) (cells_of ex_cshape) ->
            ex_modes (opposite ex_Nmesh k) = cconj (ex_modes k)) (cells_of ex_cshape)).
  { vm_compute. repeat constructor; intros; try reflexivity;
    exfalso; repeat match goal with H : _ \/ _ |- _ => destruct H as [H|H]; [discriminate H|] end; assumption. }
  rewrite Forall_forall in X. exact X.
Qed.

(** a self-conjugate mode, an ordinary mode by a negative index, one component *)
Definition ex_requests : list (request Zring) :=
  [Mode Zring [2; 0] (9, 8); Mode Zring [-1; -2] (3, 4); Component Zring [1; 0] true 5; Mode Zring [1; 3] (6, 1)].
Example C36_case : exists Ls, csetitems Zring ex_Nmesh ex_world ex_requests = Some Ls /\
  cgetitem Zring true ex_Nmesh Ls [2; 0] = [Ret (9, 0); Ret (9, 0)] /\
  cgetitem Zring true ex_Nmesh Ls [3; 2] = [Ret (3, 4); Ret (3, 4)] /\
  cgetitem Zring true ex_Nmesh Ls [1; 2] = [Ret (3, -4); Ret (3, -4)] /\
  cgetitem Zring true ex_Nmesh Ls [1; 0; 1] = [Ret (5, 0); Ret (5, 0)] /\
  cgetitem Zring true ex_Nmesh Ls [3; 0] = [Ret (2, -5); Ret (2, -5)].
Proof. eexists. split; [vm_compute; reflexivity|]. vm_compute. repeat split. Qed.
(** the unstored mode (1, 3): its partner (3, 1) receives the conjugate *)
Example C37_case : ~ In [1; 3] (cells_of ex_cshape) /\ exists Ls,
  map fst (match all_ret (csetitem Zring true ex_Nmesh ex_world [1; 3] (6, 1)) with Some r => r | None => [] end) = Ls /\
  cgetitem Zring true ex_Nmesh Ls [3; 1] = [Ret (6, -1); Ret (6, -1)].
Proof.
  split; [|eexists; split; [reflexivity|vm_compute; reflexivity]].
  intros H. apply memb_true in H. vm_compute in H. discriminate.
Qed.

(** the English claim also asked for the value to be reported: it is not *)
Theorem C37_report_refuted : exists (Nmesh cshape : list Z) (Ls : list (lfield (cpx Zring))) f i y,
  tiles cshape Ls /\ stored_shape Nmesh cshape /\ holds Ls f /\ in_range Nmesh i /\
  map (fun o => bind o (fun r => Ret (snd r))) (csetitem Zring true Nmesh Ls i y) <> map (fun _ => Ret y) Ls.
Proof.
  exists ex_Nmesh, ex_cshape, ex_world, ex_modes, [1; 3], (6, 1).
  split; [exact ex_tiles|]. split; [exact ex_stored|]. split; [exact ex_holds|].
  split; [repeat constructor; lia|]. vm_compute. discriminate.
Qed.
Print Assumptions C37_report_refuted.

(** The condition on the index is needed: an index beyond the mesh is not
    rejected; it leaves the mode alone and overwrites its partner only.  So does
    the component index -1, which numpy accepts as the imaginary part. *)
Theorem C36_range_refuted : exists Ls : list (lfield (cpx Zring)),
  map fst (match all_ret (csetitem Zring true ex_Nmesh ex_world [5; 0] (6, 1)) with Some r => r | None => [] end) = Ls /\
  cgetitem Zring true ex_Nmesh Ls [1; 0] = [Ret (2, 3); Ret (2, 3)] /\
  cgetitem Zring true ex_Nmesh Ls [3; 0] = [Ret (6, -1); Ret (6, -1)].
Proof. eexists. split; [reflexivity|]. vm_compute. repeat split. Qed.
Print Assumptions C36_range_refuted.
Theorem C36_component_refuted : exists Ls : list (lfield (cpx Zring)),
  map fst (match all_ret (csetitem Zring true ex_Nmesh ex_world [1; 0; -1] (6, 0)) with Some r => r | None => [] end) = Ls /\
  cgetitem Zring true ex_Nmesh Ls [1; 0] = [Ret (2, 6); Ret (2, 6)] /\
  cgetitem Zring true ex_Nmesh Ls [3; 0] = [Ret (2, 6); Ret (2, 6)].
Proof. eexists. split; [reflexivity|]. vm_compute. repeat split. Qed.
Print Assumptions C36_component_refuted.
