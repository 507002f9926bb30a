(** Property C96: the coordinates of a field are its own. *)
From Coq Require Import String List Arith ZArith QArith Lia Bool.
From Verif Require Import Base ListFacts WrapModel RingModel FieldModel BufferModel CoordsModel.
Import ListNotations.
Local Close Scope Q_scope.

(** ** what is claimed *)
(** the type a request means *)
Inductive means : request -> ftype -> Prop :=
| means_class t : means (Class (TypeC t)) t
| means_real : means (Name "real") RealT
| means_complex : means (Name "complex") TransposedT
| means_transposed : means (Name "transposedcomplex") TransposedT
| means_untransposed : means (Name "untransposedcomplex") UntransposedT.

Section Spec.
Variable twopi : Q.
(** the array of axis [d]: positions for a real field, wave numbers for a complex one *)
Definition right_array (m : cmesh) (t : ftype) (return_indices : bool) (d : nat) : arr :=
  let '(start, n) := nth d (cm_part m t) (0, 0)%Z in
  let N := nth d (cm_N m) 0%Z in
  let L := nth d (cm_box m) 0%Q in
  let idx := zrange start (Z.to_nat n) in
  if return_indices then Is idx
  else Xs (map (fun i => let s := inject_Z (if (N / 2 <=? i)%Z then (i - N)%Z else i) in
                         match t with
                         | RealT => s * L / inject_Z N
                         | _ => s * (twopi / inject_Z N) * inject_Z N / L
                         end)%Q idx).
Definition mesh_good (nd : nat) (m : cmesh) : Prop :=
  length (cm_N m) = nd /\ length (cm_box m) = nd /\ forall t, length (cm_part m t) = nd /\ Forall (fun q => 0 <= snd q)%Z (cm_part m t).
Definition right_arrays (nd : nat) (m : cmesh) (t : ftype) (b : bool) : list arr := map (right_array m t b) (seq 0 nd).
End Spec.

Lemma nth_error_ext_ {A} (l m : list A) : (forall i, nth_error l i = nth_error m i) -> l = m.
Proof.
  revert m. induction l as [|a l IH]; intros [|b m] H; [reflexivity|specialize (H 0%nat); discriminate|specialize (H 0%nat); discriminate|].
  pose proof (H 0%nat) as H0. injection H0 as ->. f_equal. apply IH. intros i. exact (H (S i)).
Qed.
Lemma option_map_None_ {A B} (f : A -> B) o : o = None -> option_map f o = None.
Proof. now intros ->. Qed.

(** ** the invariant *)
Section Proofs.
Variable twopi : Q.
Variable meshes : list cmesh.
Definition kept (h : heap) (m : cmesh) (q : ftype * (arrays * arrays)) : Prop :=
  contents h (fst (snd q)) = map Some (fst (init_coords twopi m (fst q))) /\
  contents h (snd (snd q)) = map Some (snd (init_coords twopi m (fst q))).
Record inv (u : ustate) : Prop := mkInv {
  i_len : length (cs_caches (fst u)) = length meshes;
  i_kept : forall p m c q, nth_error meshes p = Some m -> nth_error (cs_caches (fst u)) p = Some c -> In q c ->
    kept (cs_heap (fst u)) m q /\
    forall a, In a (fst (snd q) ++ snd (snd q)) -> (a < length (cs_heap (fst u)))%nat /\ ~ In a (concat (snd u));
  i_held : NoDup (concat (snd u));
  i_in : forall a, In a (concat (snd u)) -> (a < length (cs_heap (fst u)))%nat
}.

Lemma contents_app h l x : (forall a, In a x -> (a < length h)%nat) -> contents (h ++ l) x = contents h x.
Proof. intros H. unfold contents. apply map_ext_in. intros a Ha. apply nth_error_app1, H, Ha. Qed.
Lemma contents_alloc h l : contents (h ++ l) (seq (length h) (length l)) = map Some l.
Proof.
  unfold contents. revert h. induction l as [|a l IH]; intros h; [reflexivity|]. cbn [length seq map]. f_equal.
  - rewrite nth_error_app2 by lia. now rewrite Nat.sub_diag.
  - specialize (IH (h ++ [a])). rewrite app_length in IH. cbn [length] in IH. rewrite Nat.add_1_r, <- app_assoc in IH. exact IH.
Qed.
Lemma contents_in h x l : contents h x = map Some l -> forall a, In a x -> (a < length h)%nat.
Proof.
  intros E a Ha. apply nth_error_Some. intros N. assert (I : In None (map Some l)) by (rewrite <- E, <- N; apply in_map, Ha).
  apply in_map_iff in I. destruct I as (? & ? & _). discriminate.
Qed.
Lemma copied h x l : contents h x = map Some l -> map (fun a => nth a h (Is [])) x = l.
Proof.
  revert l. induction x as [|a x IH]; intros [|b l] E; cbn in *; try discriminate; [reflexivity|].
  injection E as E1 E2. f_equal; [|now apply IH]. now apply nth_error_nth.
Qed.
Lemma ftype_eqb_eq a b : ftype_eqb a b = true -> a = b.
Proof. destruct a, b; cbn; congruence. Qed.
Lemma find_in c t v : find_cache c t = Some v -> In (t, v) c.
Proof.
  induction c as [|[t' v'] c IH]; cbn; [discriminate|]. destruct (ftype_eqb t' t) eqn:E; [|auto].
  intros [= ->]. apply ftype_eqb_eq in E. subst. now left.
Qed.

(** one call from a good state *)
Lemma called u p m t r b : inv u -> nth_error meshes p = Some m -> typestr_to_type r = Ret (TypeC t) ->
  exists out st, create_coords twopi meshes (fst u) p r b = (Ret out, st) /\
    contents (cs_heap st) out = map Some ((if b then snd else fst) (init_coords twopi m t)) /\
    (exists ext, cs_heap st = cs_heap (fst u) ++ ext) /\
    (forall a, In a out -> (length (cs_heap (fst u)) <= a)%nat) /\ NoDup out /\
    inv (st, snd u ++ [out]).
Proof.
  destruct u as [st held]. intros [I1 I2 I3 I4] Hm Hr. cbn [fst snd] in *. unfold create_coords. rewrite Hm.
  destruct (nth_error (cs_caches st) p) as [c|] eqn:Ec.
  2: { apply nth_error_None in Ec. assert (N : nth_error meshes p <> None) by congruence. apply nth_error_Some in N. lia. }
  rewrite Hr. cbn [get_type].
  (* after the lookup *)
  enough (G : forall x i h c', (exists ext, h = cs_heap st ++ ext) ->
     contents h x = map Some (fst (init_coords twopi m t)) -> contents h i = map Some (snd (init_coords twopi m t)) ->
     (forall q, In q c' -> In q c \/ q = (t, (x, i))) -> (forall a, In a (x ++ i) -> ~ In a (concat held)) ->
     exists out st', (let (out, h) := copies h (if b then i else x) in (Ret out, mkCS h (upd p (fun _ => c') (cs_caches st)))) = (Ret out, st') /\
      contents (cs_heap st') out = map Some ((if b then snd else fst) (init_coords twopi m t)) /\
      (exists ext, cs_heap st' = cs_heap st ++ ext) /\
      (forall a, In a out -> (length (cs_heap st) <= a)%nat) /\ NoDup out /\ inv (st', held ++ [out])).
  { destruct (find_cache c t) as [[x i]|] eqn:Ef.
    - apply find_in in Ef. destruct (I2 p m c _ Hm Ec Ef) as [[K1 K2] K3]. cbn [fst snd] in *.
      apply G; try assumption; [exists []; now rewrite app_nil_r|auto|]. intros a Ha. now apply K3.
    - destruct (init_coords twopi m t) as [xs is] eqn:Ei. cbn [fst snd] in *. unfold alloc.
      apply G.
      + exists (xs ++ is). now rewrite app_assoc.
      + rewrite contents_app; [apply contents_alloc|]. intros a Ha. apply in_seq in Ha. rewrite app_length. lia.
      + apply contents_alloc.
      + intros q [<-|Hq]; [now right|now left].
      + intros a Ha Hin. apply I4 in Hin. apply in_app_or in Ha. rewrite !in_seq, app_length in Ha. lia. }
  intros x i h c' [ext ->] Kx Ki Hc' Priv. set (h := cs_heap st ++ ext) in *. unfold copies, alloc. do 2 eexists. split; [reflexivity|]. cbn [cs_heap].
  match goal with |- contents (_ ++ ?L) _ = _ /\ _ => set (l := L) end.
  assert (El : l = (if b then snd else fst) (init_coords twopi m t)) by (unfold l; destruct b; now apply copied).
  assert (Len : (length (cs_heap st) <= length h)%nat) by (unfold h; rewrite app_length; lia).
  split; [rewrite contents_alloc; now rewrite El|]. split; [exists (ext ++ l); unfold h; now rewrite app_assoc|].
  split; [intros a Ha; apply in_seq in Ha; lia|]. split; [apply seq_NoDup|].
  constructor; cbn [fst snd cs_heap cs_caches].
  - now rewrite upd_length.
  - intros p' m0 c0 q Hm0 Hc0 Hq. rewrite nth_error_upd in Hc0.
    assert (Bound : forall a, In a (x ++ i) -> (a < length h)%nat).
    { intros a Ha. apply in_app_or in Ha. destruct Ha as [Ha|Ha]; [exact (contents_in _ _ _ Kx a Ha)|exact (contents_in _ _ _ Ki a Ha)]. }
    assert (Done : forall a, (a < length h)%nat -> ~ In a (concat held) -> ~ In a (concat (held ++ [seq (length h) (length l)]))).
    { intros a Ha Hn. rewrite concat_app. cbn [concat]. rewrite app_nil_r. intros Hin. apply in_app_or in Hin. rewrite in_seq in Hin. destruct Hin; [tauto|lia]. }
    assert (Old : forall m0 c0 p', nth_error meshes p' = Some m0 -> nth_error (cs_caches st) p' = Some c0 -> In q c0 ->
      kept (h ++ l) m0 q /\ forall a, In a (fst (snd q) ++ snd (snd q)) -> (a < length (h ++ l))%nat /\ ~ In a (concat (held ++ [seq (length h) (length l)]))).
    { clear p' m0 c0 Hm0 Hc0 Hq. intros m0 c0 p' Hm0 Hc0 Hq. destruct (I2 p' m0 c0 q Hm0 Hc0 Hq) as [[K1 K2] K3].
      assert (K4 : forall a, In a (fst (snd q) ++ snd (snd q)) -> (a < length (cs_heap st))%nat) by (intros a Ha; apply K3, Ha).
      split.
      - unfold kept, h. rewrite <- app_assoc, !contents_app; [now split| |]; intros a Ha; apply K4, in_or_app; auto.
      - intros a Ha. rewrite app_length. split; [specialize (K4 a Ha); lia|]. apply Done; [specialize (K4 a Ha); lia|]. now apply K3. }
    destruct (Nat.eq_dec p' p) as [->|Np].
    + rewrite Nat.eqb_refl, Ec in Hc0. cbn in Hc0. injection Hc0 as <-. rewrite Hm in Hm0. injection Hm0 as <-.
      destruct (Hc' q Hq) as [Hq'|Hq']; [exact (Old m c p Hm Ec Hq')|]. rewrite Hq' in *. cbn [fst snd]. split.
      * unfold kept. cbn [fst snd]. rewrite !contents_app; [now split| |]; intros a Ha; apply Bound, in_or_app; auto.
      * intros a Ha. rewrite app_length. specialize (Bound a Ha). split; [lia|]. apply Done; [exact Bound|]. now apply Priv.
    + destruct (Nat.eqb_spec p p'); [congruence|]. eapply Old; eassumption.
  - rewrite concat_app. cbn [concat]. rewrite app_nil_r. apply NoDup_app_intro; [exact I3|apply seq_NoDup|]. intros a Ha Hs. apply I4 in Ha. apply in_seq in Hs. lia.
  - intros a Ha. rewrite concat_app in Ha. cbn [concat] in Ha. rewrite app_nil_r in Ha. rewrite app_length. apply in_app_or in Ha. rewrite in_seq in Ha.
    destruct Ha as [Ha|Ha]; [apply I4 in Ha|]; lia.
Qed.

(** a request that is refused *)
Lemma refused st p m r b e : nth_error meshes p = Some m -> length (cs_caches st) = length meshes ->
  (typestr_to_type r = Raise e \/ exists c, typestr_to_type r = Ret c /\ get_type c = Raise e) -> create_coords twopi meshes st p r b = (Raise e, st).
Proof.
  intros Hm L H. unfold create_coords. rewrite Hm. destruct (nth_error (cs_caches st) p) eqn:Ec.
  - destruct H as [->|(cl & -> & ->)]; reflexivity.
  - apply nth_error_None in Ec. assert (N : nth_error meshes p <> None) by congruence. apply nth_error_Some in N. lia.
Qed.
Lemma requests r : (exists t, typestr_to_type r = Ret (TypeC t)) \/ (exists e, typestr_to_type r = Raise e \/ exists c, typestr_to_type r = Ret c /\ get_type c = Raise e).
Proof.
  destruct r as [[| |t|]|s]; cbn.
  - right. exists TypeError. right. now exists FieldC.
  - right. exists TypeError. right. now exists BaseComplexC.
  - left. now exists t.
  - right. exists TypeError. now left.
  - repeat (destruct (String.eqb _ _); [left; eauto|]). right. eauto.
Qed.
Lemma out_of_meshes st p r b : nth_error meshes p = None -> create_coords twopi meshes st p r b = (Garbage, st).
Proof. intros H. unfold create_coords. now rewrite H. Qed.

(** what a call does to a good state: nothing, or it hands out arrays *)
Lemma call_cases u p r b : inv u ->
  (exists o, (forall l, o <> Ret l) /\ create_coords twopi meshes (fst u) p r b = (o, fst u)) \/
  exists out st, create_coords twopi meshes (fst u) p r b = (Ret out, st) /\ (exists ext, cs_heap st = cs_heap (fst u) ++ ext) /\ inv (st, snd u ++ [out]).
Proof.
  intros I. destruct (nth_error meshes p) as [m|] eqn:Hm.
  - destruct (requests r) as [[t Ht]|[e He]].
    + right. destruct (called u p m t r b I Hm Ht) as (out & st & E & _ & X & _ & _ & I'). eauto 6.
    + left. exists (Raise e). split; [discriminate|]. eapply refused; [exact Hm|apply I|exact He].
  - left. exists Garbage. split; [discriminate|]. now apply out_of_meshes.
Qed.
Definition grows (u u' : ustate) : Prop :=
  (exists more, snd u' = snd u ++ more) /\ forall a, (a < length (cs_heap (fst u)))%nat -> nth_error (cs_heap (fst u')) a = nth_error (cs_heap (fst u)) a.
Lemma hand_ok u p r b : inv u -> inv (hand (create_coords twopi meshes (fst u) p r b) (snd u)) /\ grows u (hand (create_coords twopi meshes (fst u) p r b) (snd u)).
Proof.
  intros I. destruct (call_cases u p r b I) as [(o & N & E)|(out & st & E & [ext X] & I')]; rewrite E; unfold hand; cbn [fst snd].
  - destruct u as [st held]. destruct o; try (exfalso; eapply N; reflexivity); cbn [fst snd]; (split; [exact I|split; [exists []; now rewrite app_nil_r|auto]]).
  - split; [exact I'|]. split; [now exists [out]|]. intros a Ha. cbn [fst]. rewrite X. now apply nth_error_app1.
Qed.
Lemma grows_length u u' : grows u u' -> (length (cs_heap (fst u)) <= length (cs_heap (fst u')))%nat.
Proof.
  intros [_ G]. destruct (Nat.le_gt_cases (length (cs_heap (fst u))) (length (cs_heap (fst u')))) as [L|L]; [exact L|].
  exfalso. specialize (G (length (cs_heap (fst u'))) L). apply (nth_error_Some (cs_heap (fst u)) (length (cs_heap (fst u')))); [exact L|]. rewrite <- G. now apply nth_error_None.
Qed.
Lemma grows_trans u v w : grows u v -> grows v w -> grows u w.
Proof.
  intros G1 G2. pose proof (grows_length _ _ G1) as L. destruct G1 as [[m1 M1] G1], G2 as [[m2 M2] G2]. split.
  - exists (m1 ++ m2). now rewrite M2, M1, app_assoc.
  - intros a Ha. rewrite G2, G1 by lia. reflexivity.
Qed.
Lemma new_field_ok u p t : inv u -> inv (step twopi meshes u (NewField p t)) /\ grows u (step twopi meshes u (NewField p t)).
Proof.
  destruct u as [st held]. intros I. cbn [step]. destruct (hand_ok (st, held) p (Class (TypeC t)) false I) as [I1 G1]. cbn [fst snd] in *.
  destruct (hand (create_coords twopi meshes st p (Class (TypeC t)) false) held) as [st1 held1].
  destruct (hand_ok (st1, held1) p (Class (TypeC t)) true I1) as [I2 G2]. cbn [fst snd] in *. split; [exact I2|]. eapply grows_trans; eassumption.
Qed.
Lemma member a held : existsb (existsb (Nat.eqb a)) held = true <-> In a (concat held).
Proof.
  rewrite in_concat, existsb_exists. split.
  - intros (l & Hl & E). apply existsb_exists in E. destruct E as (b & Hb & E). apply Nat.eqb_eq in E. subst. eauto.
  - intros (l & Hl & Ha). exists l. split; [exact Hl|]. apply existsb_exists. exists a. split; [exact Ha|apply Nat.eqb_refl].
Qed.
Lemma write_ok u a v : inv u -> inv (step twopi meshes u (Write a v)) /\ snd (step twopi meshes u (Write a v)) = snd u /\
  forall a', a' <> a -> nth_error (cs_heap (fst (step twopi meshes u (Write a v)))) a' = nth_error (cs_heap (fst u)) a'.
Proof.
  destruct u as [st held]. intros [I1 I2 I3 I4]. cbn [step fst snd] in *.
  destruct (existsb (existsb (Nat.eqb a)) held) eqn:E; [|split; [now constructor|auto]]. apply member in E. cbn [fst snd cs_heap].
  assert (O : forall a', a' <> a -> nth_error (upd a (fun _ => v) (cs_heap st)) a' = nth_error (cs_heap st) a').
  { intros a' N. rewrite nth_error_upd. destruct (Nat.eqb_spec a a'); [congruence|reflexivity]. }
  split; [|auto]. constructor; cbn [fst snd cs_heap cs_caches]; [exact I1| |exact I3|].
  - intros p m c q Hm Hc Hq. destruct (I2 p m c q Hm Hc Hq) as [[K1 K2] K3]. rewrite upd_length. split; [|exact K3].
    assert (C : forall l, (forall b, In b l -> In b (fst (snd q) ++ snd (snd q))) -> contents (upd a (fun _ => v) (cs_heap st)) l = contents (cs_heap st) l).
    { intros l Hl. unfold contents. apply map_ext_in. intros b Hb. apply O. intros ->. apply (K3 a); [now apply Hl|exact E]. }
    split; rewrite C; auto; intros b Hb; apply in_or_app; auto.
  - intros b Hb. rewrite upd_length. now apply I4.
Qed.
Lemma step_ok u o : inv u -> inv (step twopi meshes u o).
Proof.
  intros I. destruct o as [p r b|p t|a v]; [|now apply new_field_ok|now apply write_ok].
  destruct (hand_ok u p r b I) as [I' _]. destruct u. exact I'.
Qed.
Lemma run_inv ops : inv (run twopi meshes ops).
Proof.
  unfold run. assert (G : forall u, inv u -> inv (fold_left (step twopi meshes) ops u)).
  { induction ops as [|o ops IH]; intros u I; [exact I|]. cbn [fold_left]. apply IH, step_ok, I. }
  apply G. constructor; cbn; [now rewrite map_length| |constructor|easy].
  intros p m c q _ Hc Hq. apply nth_error_In in Hc. apply in_map_iff in Hc. destruct Hc as (? & <- & _). destruct Hq.
Qed.

(** *** the arrays *)
Lemma init_right nd m t (b : bool) : mesh_good nd m -> (if b then snd else fst) (init_coords twopi m t) = right_arrays twopi nd m t b.
Proof.
  intros (L1 & L2 & L3). destruct (L3 t) as [L4 F]. unfold right_arrays, init_coords.
  set (axes := map _ (combine (cm_part m t) (combine (cm_N m) (cm_box m)))).
  transitivity (map (fun a : list Q * list Z => if b then Is (snd a) else Xs (fst a)) axes); [destruct b; reflexivity|].
  unfold axes. rewrite map_map. apply nth_error_ext_. intros d.
  rewrite !nth_error_map. destruct (Nat.lt_ge_cases d nd) as [Hd|Hd].
  - rewrite (nth_error_nth' (seq 0 nd) 0%nat) by now rewrite seq_length. rewrite seq_nth by exact Hd. cbn [option_map Nat.add].
    rewrite (nth_error_nth' (combine (cm_part m t) (combine (cm_N m) (cm_box m))) ((0, 0)%Z, (0%Z, 0%Q))) by (rewrite !combine_length; lia).
    rewrite !combine_nth by (rewrite ?combine_length; lia). cbn [option_map]. f_equal. unfold right_array.
    rewrite Forall_forall in F. assert (Hn : (0 <= snd (nth d (cm_part m t) (0, 0)))%Z) by (apply F, nth_In; lia).
    destruct (nth d (cm_part m t) (0, 0)%Z) as [s n]. cbn [snd] in Hn.
    assert (Ea : arange s (s + n) = zrange s (Z.to_nat n)) by (unfold arange; do 2 f_equal; lia).
    destruct b; destruct t; unfold i_coords, o_coords; cbn [fst snd]; rewrite Ea; reflexivity.
  - transitivity (@None arr); [|symmetry]; apply option_map_None_; apply nth_error_None; rewrite ?combine_length, ?seq_length; lia.
Qed.
End Proofs.

(** * C96 *)
Lemma means_type r t : means r t <-> typestr_to_type r = Ret (TypeC t).
Proof.
  split.
  - intros []; reflexivity.
  - destruct r as [[| |t'|]|s]; cbn; try discriminate; [intros [= ->]; constructor|].
    repeat match goal with |- context [String.eqb s ?x] => destruct (String.eqb_spec s x) as [->|]; [intros [= <-]; constructor|] end. discriminate.
Qed.

(** whatever was asked for, created and overwritten before *)
Theorem C96_values : forall twopi meshes nd ops p m r b, nth_error meshes p = Some m -> mesh_good nd m ->
  let u := run twopi meshes ops in
  (forall t, means r t -> exists out st, create_coords twopi meshes (fst u) p r b = (Ret out, st) /\
     contents (cs_heap st) out = map Some (right_arrays twopi nd m t b) /\
     NoDup out /\ (forall a, In a out -> ~ In a (concat (snd u))) /\
     forall l, In l (snd u) -> contents (cs_heap st) l = contents (cs_heap (fst u)) l) /\
  ((forall t, ~ means r t) -> exists e, create_coords twopi meshes (fst u) p r b = (Raise e, fst u) /\ e = match r with Name _ => ValueError | Class _ => TypeError end).
Proof.
  intros twopi meshes nd ops p m r b Hm G u. pose proof (run_inv twopi meshes ops) as I. fold u in I. split.
  - intros t Ht. apply means_type in Ht. destruct (called twopi meshes u p m t r b I Hm Ht) as (out & st & E & C & [ext X] & F & N & _).
    exists out, st. split; [exact E|]. split; [rewrite C; f_equal; now apply init_right|]. split; [exact N|]. destruct I as [_ _ _ I4]. split.
    + intros a Ha Hin. apply F in Ha. apply I4 in Hin. lia.
    + intros l Hl. rewrite X. apply contents_app. intros a Ha. apply I4, in_concat. eauto.
  - intros N. destruct r as [c|s].
    + exists TypeError. split; [|reflexivity]. apply (refused twopi meshes _ p m); [exact Hm|apply I|].
      destruct c as [| |t|]; [right; now exists FieldC|right; now exists BaseComplexC| |now left]. exfalso. apply (N t). constructor.
    + exists ValueError. split; [|reflexivity]. apply (refused twopi meshes _ p m); [exact Hm|apply I|]. left. cbn.
      repeat match goal with |- context [String.eqb s ?x] => destruct (String.eqb_spec s x) as [->|]; [exfalso; eapply N; constructor|] end. reflexivity.
Qed.
Print Assumptions C96_values.

(** no two arrays handed out are the same memory, and an array changes only when somebody writes into it *)
Theorem C96_own : forall twopi meshes ops more l, In l (snd (run twopi meshes ops)) ->
  NoDup (concat (snd (run twopi meshes ops))) /\
  ((forall a v, In (Write a v) more -> ~ In a l) ->
   In l (snd (run twopi meshes (ops ++ more))) /\
   contents (cs_heap (fst (run twopi meshes (ops ++ more)))) l = contents (cs_heap (fst (run twopi meshes ops))) l).
Proof.
  intros twopi meshes ops more l Hl. pose proof (run_inv twopi meshes ops) as I. split; [apply I|]. intros W.
  assert (R : run twopi meshes (ops ++ more) = fold_left (step twopi meshes) more (run twopi meshes ops)) by apply fold_left_app.
  rewrite R. clear R. generalize dependent (run twopi meshes ops). clear ops.
  induction more as [|o more IH]; intros u Hl I; [now split|]. cbn [fold_left].
  assert (H : In l (snd (step twopi meshes u o)) /\ contents (cs_heap (fst (step twopi meshes u o))) l = contents (cs_heap (fst u)) l).
  { assert (G : grows u (step twopi meshes u o) -> In l (snd (step twopi meshes u o)) /\ contents (cs_heap (fst (step twopi meshes u o))) l = contents (cs_heap (fst u)) l).
    { intros [[m M] G]. split; [rewrite M; apply in_or_app; now left|]. unfold contents. apply map_ext_in. intros a Ha. apply G, I, in_concat. eauto. }
    destruct o as [p r b|p t|a v].
    - apply G. destruct (hand_ok twopi meshes u p r b I) as [_ G']. destruct u. exact G'.
    - apply G. now apply new_field_ok.
    - destruct (write_ok twopi meshes u a v I) as (_ & E & O). rewrite E. split; [exact Hl|]. unfold contents. apply map_ext_in. intros a' Ha'. apply O.
      intros ->. apply (W a v); [now left|exact Ha']. }
  destruct H as [H1 H2]. rewrite <- H2. apply IH; [|exact H1|now apply step_ok]. intros a v Hin. apply (W a v). now right.
Qed.
Print Assumptions C96_own.

(** a new field holds the coordinates of its mesh and type, in arrays nobody else holds *)
Theorem C96_field : forall twopi meshes nd ops p m t, nth_error meshes p = Some m -> mesh_good nd m ->
  let u := run twopi meshes ops in let u' := run twopi meshes (ops ++ [NewField p t]) in
  exists x i, snd u' = snd u ++ [x; i] /\ NoDup (concat (snd u')) /\
    contents (cs_heap (fst u')) x = map Some (right_arrays twopi nd m t false) /\
    contents (cs_heap (fst u')) i = map Some (right_arrays twopi nd m t true).
Proof.
  intros twopi meshes nd ops p m t Hm G u u'. pose proof (run_inv twopi meshes (ops ++ [NewField p t])) as I'. fold u' in I'.
  pose proof (run_inv twopi meshes ops) as I. fold u in I. unfold u' in *. clear u'. unfold run in I' |- *. rewrite fold_left_app in I' |- *.
  fold (run twopi meshes ops) in I' |- *. fold u in I' |- *. cbn [fold_left] in I' |- *. destruct u as [st held]. cbn [step] in I' |- *.
  destruct (called twopi meshes (st, held) p m t (Class (TypeC t)) false I Hm eq_refl) as (x & st1 & E1 & C1 & X1 & _ & _ & I1). cbn [fst snd] in *.
  rewrite E1 in I' |- *. unfold hand at 1 in I'. unfold hand at 1 3 5 7. cbn [fst snd] in I' |- *.
  destruct (called twopi meshes (st1, held ++ [x]) p m t (Class (TypeC t)) true I1 Hm eq_refl) as (i & st2 & E2 & C2 & [ext X2] & _ & _ & I2). cbn [fst snd] in *.
  rewrite E2 in I' |- *. unfold hand in I' |- *. cbn [fst snd] in I' |- *. exists x, i.
  split; [now rewrite <- app_assoc|]. split; [apply I'|]. split.
  - rewrite X2, contents_app; [rewrite C1; f_equal; apply (init_right twopi nd m t false G)|].
    intros a Ha. destruct I1 as [_ _ _ I4]. apply I4. cbn [snd]. rewrite concat_app. apply in_or_app. right. cbn. now rewrite app_nil_r.
  - rewrite C2. f_equal. apply (init_right twopi nd m t true G).
Qed.
Print Assumptions C96_field.

(** a mesh of 4 x 2 cells, this rank has rows 2 and 3; a user overwrites what they were handed *)
Definition ex_mesh : cmesh := mkCM [4; 2]%Z [8#1; 1#1]%Q (fun _ => [(2, 2); (0, 2)]%Z).
Definition ex_ops : list op :=
  [NewField 0 RealT; Write 4 (Xs []); Coords 0 (Name "real") false; Write 8 (Xs [5#1]%Q); Coords 0 (Name "Real") false; NewField 0 TransposedT].
Example C96_case : mesh_good 2 ex_mesh /\ snd (run (6#1) [ex_mesh] ex_ops) = [[4; 5]; [6; 7]; [8; 9]; [14; 15]; [16; 17]]%nat /\
  exists out st, create_coords (6#1) [ex_mesh] (fst (run (6#1) [ex_mesh] ex_ops)) 0 (Name "real") true = (Ret out, st) /\
    contents (cs_heap st) out = [Some (Is [2; 3]%Z); Some (Is [0; 1]%Z)].
Proof.
  split; [|split; [reflexivity|]].
  - split; [reflexivity|]. split; [reflexivity|]. intros t. split; [reflexivity|]. repeat constructor; cbn; lia.
  - do 2 eexists. split; reflexivity.
Qed.
