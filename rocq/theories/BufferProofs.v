(** Proofs for C68 and C69: what transforms and casts read and write
    (pmesh/pm.py:217-265, 450-547, 655-694, 987-1019, 1601-1633). *)
From Coq Require Import List Arith ZArith QArith Lia Bool Permutation Ring.
From Verif Require Import Base ListFacts LayoutModel WrapModel WrapProofs DomainModel DomainFill MeshModel MeshAssign
  MeshRoute MeshTile RingModel FieldModel FieldFacts FieldProperties FieldSort FieldResample FieldNorm FourierModel FourierFacts
  FourierProperties BufferModel.
Import ListNotations.
Local Close Scope Q_scope.
Local Open Scope Z_scope.

Lemma addr_eqb_spec a b : reflect (a = b) (addr_eqb a b).
Proof.
  destruct a as [r o], b as [r' o']. unfold addr_eqb. cbn.
  destruct (Nat.eqb_spec r r'), (Z.eqb_spec o o'); cbn; constructor; congruence.
Qed.

Section Memory.
Variable K : cring.
Local Notation C := (cpx K).
Implicit Types (m : memory K) (f : field K) (me : mesh K).

Definition pokes m b (l : list (addr * K)) : memory K := fold_left (fun m p => poke K m b (fst p) (snd p)) l m.
Lemma pokes_other m b l b' a : b' <> b -> pokes m b l b' a = m b' a.
Proof.
  intros H. revert m. induction l as [|p l IH]; intros m; [reflexivity|].
  unfold pokes in *. cbn [fold_left]. rewrite IH. unfold poke. apply Nat.eqb_neq in H. now rewrite H.
Qed.
Lemma pokes_miss m b l a : ~ In a (map fst l) -> pokes m b l b a = m b a.
Proof.
  revert m. induction l as [|p l IH]; intros m H; [reflexivity|].
  unfold pokes in *. cbn [fold_left map] in *. rewrite IH by (intro; apply H; now right).
  unfold poke. destruct (addr_eqb_spec a (fst p)) as [E|E]; [|now rewrite andb_false_r].
  exfalso. apply H. left. now symmetry.
Qed.
Lemma pokes_hit m b l a v : NoDup (map fst l) -> In (a, v) l -> pokes m b l b a = v.
Proof.
  revert m. induction l as [|p l IH]; intros m Nd H; [destruct H|].
  inversion Nd as [|? ? N1 N2]; subst. unfold pokes in *. cbn [fold_left]. destruct H as [->|H].
  - fold (pokes (poke K m b (fst (a, v)) (snd (a, v))) b l). rewrite pokes_miss by exact N1.
    unfold poke. cbn. rewrite Nat.eqb_refl. destruct (addr_eqb_spec a a); [reflexivity|congruence].
  - apply IH; assumption.
Qed.

Lemma put_real_pokes m f Ls : put_real K m f Ls =
  pokes m (fl_buf K f) (map (fun p => (me_at K (fl_mesh K f) (fl_type K f) (fst p), snd p)) (flat_map (cells_values (V := K)) Ls)).
Proof. unfold put_real, pokes. rewrite fold_left_map. reflexivity. Qed.
Definition halves (me : mesh K) (t : ftype) (p : list Z * C) : list (addr * K) :=
  let a := me_at K me t (fst p) in [(a, re (snd p)); (next_addr a, im (snd p))].
Lemma put_complex_pokes m f Ls : put_complex K m f Ls =
  pokes m (fl_buf K f) (flat_map (halves (fl_mesh K f) (fl_type K f)) (flat_map (cells_values (V := C)) Ls)).
Proof.
  unfold put_complex, pokes. generalize (flat_map (cells_values (V := C)) Ls) as l. intros l. revert m.
  induction l as [|p l IH]; intros m; [reflexivity|]. cbn [fold_left flat_map]. rewrite fold_left_app. apply IH.
Qed.

Lemma cells_values_holds {V} (Ls : list (lfield V)) g : holds Ls g ->
  flat_map (cells_values (V := V)) Ls = map (fun c => (c, g c)) (flat_map lcells Ls).
Proof.
  intros H. induction H as [|L Ls E H IH]; [reflexivity|]. cbn [flat_map]. rewrite map_app, IH. f_equal.
  unfold cells_values. rewrite E. generalize (lcells L) as l. intros l. induction l as [|c l IHl]; [reflexivity|]. cbn. now rewrite IHl.
Qed.

(** ** what is assumed of a mesh *)
(** the partitions tile the real and the compressed mesh, the roots are those of the
    mesh, and no two elements of a view share an address *)
Record good (base : list Z) (n : Z) me : Prop := {
  go_nmesh : me_nmesh K me = N base n;
  go_roots : mesh_roots K (N base n) (me_roots K me) (me_invs K me);
  go_real : tiles (N base n) (on_blocks (fun _ => tt) (me_blocks K me RealT));
  go_complex : forall t, t <> RealT -> tiles (half base n) (on_blocks (fun _ => tt) (me_blocks K me t));
  go_real_at : NoDup (map (me_at K me RealT) (cells_of (N base n)));
  go_complex_at : forall t, t <> RealT ->
    NoDup (flat_map (fun k => [me_at K me t k; next_addr (me_at K me t k)]) (cells_of (half base n)))
}.
(** the values of a field *)
Definition real_is base n m f (g : list Z -> K) : Prop := forall c, In c (cells_of (N base n)) -> real_at K m f c = g c.
Definition complex_is base n m f (g : list Z -> C) : Prop := forall k, In k (cells_of (half base n)) -> complex_at K m f k = g k.

Lemma on_blocks_holds {V} (g : list Z -> V) bs : holds (on_blocks g bs) g.
Proof. unfold holds, on_blocks. apply Forall_map, Forall_forall. intros b _. reflexivity. Qed.
Lemma on_blocks_starts {V W} (g : list Z -> V) (h : list Z -> W) bs : map lstart (on_blocks g bs) = map lstart (on_blocks h bs).
Proof. unfold on_blocks. rewrite !map_map. reflexivity. Qed.
Lemma on_blocks_shapes {V W} (g : list Z -> V) (h : list Z -> W) bs : map lshape (on_blocks g bs) = map lshape (on_blocks h bs).
Proof. unfold on_blocks. rewrite !map_map. reflexivity. Qed.
Lemma on_blocks_tiles {V W} shape (g : list Z -> V) (h : list Z -> W) bs : tiles shape (on_blocks g bs) -> tiles shape (on_blocks h bs).
Proof. apply tiles_same; [apply on_blocks_starts|apply on_blocks_shapes]. Qed.
Lemma holds_on_blocks {V} shape (g h : list Z -> V) bs : tiles shape (on_blocks g bs) ->
  (forall c, In c (cells_of shape) -> g c = h c) -> holds (on_blocks g bs) h.
Proof.
  intros T E. eapply holds_ext; [|apply on_blocks_holds]. intros L k HL Hk. apply E. eapply tiles_cell; eassumption.
Qed.

Section Mesh.
Variables (base : list Z) (n : Z) (me : mesh K).
Hypothesis G : good base n me.
Local Notation NN := (N base n).
Local Notation HH := (half base n).

Lemma put_real_is m b Ls g : tiles NN Ls -> holds Ls g -> real_is base n (put_real K m (mkF K me RealT b) Ls) (mkF K me RealT b) g.
Proof.
  intros T H c Hc. rewrite put_real_pokes. unfold real_at. cbn. rewrite (cells_values_holds _ _ H), map_map. cbn.
  apply pokes_hit.
  - rewrite map_map. cbn. apply (Permutation_NoDup (l := map (me_at K me RealT) (cells_of NN))); [|apply (go_real_at _ _ _ G)].
    apply Permutation_map. symmetry. apply (tl_perm _ _ T).
  - apply in_map_iff. exists c. split; [reflexivity|]. eapply Permutation_in; [|exact Hc]. symmetry. apply (tl_perm _ _ T).
Qed.
Lemma put_real_other m f Ls b a : b <> fl_buf K f -> put_real K m f Ls b a = m b a.
Proof. intros H. rewrite put_real_pokes. now apply pokes_other. Qed.
Lemma put_complex_is m t b Ls g : t <> RealT -> tiles HH Ls -> holds Ls g ->
  complex_is base n (put_complex K m (mkF K me t b) Ls) (mkF K me t b) g.
Proof.
  intros Ht T H k Hk. rewrite put_complex_pokes. unfold complex_at. cbn. rewrite (cells_values_holds _ _ H).
  set (l := flat_map (halves me t) (map (fun c => (c, g c)) (flat_map lcells Ls))).
  assert (Nd : NoDup (map fst l)).
  { unfold l. rewrite flat_map_concat_map, concat_map, !map_map, <- flat_map_concat_map. cbn.
    eapply Permutation_NoDup; [|apply (go_complex_at _ _ _ G t Ht)].
    apply Permutation_flat_map. symmetry. apply (tl_perm _ _ T). }
  assert (P : In k (flat_map lcells Ls)) by (eapply Permutation_in; [symmetry; apply (tl_perm _ _ T)|exact Hk]).
  rewrite (pokes_hit m b l _ (re (g k)) Nd), (pokes_hit m b l _ (im (g k)) Nd).
  - now destruct (g k).
  - unfold l. apply in_flat_map. exists (k, g k). split; [apply in_map_iff; eauto|]. cbn. auto.
  - unfold l. apply in_flat_map. exists (k, g k). split; [apply in_map_iff; eauto|]. cbn. auto.
Qed.
Lemma put_complex_other m f Ls b a : b <> fl_buf K f -> put_complex K m f Ls b a = m b a.
Proof. intros H. rewrite put_complex_pokes. now apply pokes_other. Qed.

Lemma real_view_tiles m b : tiles NN (real_view K m (mkF K me RealT b)).
Proof. eapply on_blocks_tiles, (go_real _ _ _ G). Qed.
Lemma real_view_holds m b g : real_is base n m (mkF K me RealT b) g -> holds (real_view K m (mkF K me RealT b)) g.
Proof. intros H. eapply holds_on_blocks; [apply (real_view_tiles m b)|exact H]. Qed.
Lemma complex_view_tiles m t b : t <> RealT -> tiles HH (complex_view K m (mkF K me t b)).
Proof. intros Ht. eapply on_blocks_tiles, (go_complex _ _ _ G t Ht). Qed.
Lemma complex_view_holds m t b g : t <> RealT -> complex_is base n m (mkF K me t b) g -> holds (complex_view K m (mkF K me t b)) g.
Proof. intros Ht H. eapply holds_on_blocks; [apply (complex_view_tiles m t b Ht)|exact H]. Qed.

Lemma forward_spectrum Ls g k : tiles NN Ls -> holds Ls g ->
  cmul (dft_forward K (me_roots K me) (map (as_complex K) Ls) k) (cof (rprod K (me_invs K me))) = spectrum K base n (me_roots K me) (me_invs K me) g k.
Proof.
  intros T H. unfold spectrum.
  now rewrite (forward_sum K NN _ _ (me_roots K me) k (as_complex_tiles K NN Ls T) (as_complex_holds K Ls g H)).
Qed.

Variable junk : memory K -> addr -> K.
Lemma scramble_other m b b' a : b' <> b -> scramble K junk m b b' a = m b' a.
Proof. intros H. unfold scramble. apply Nat.eqb_neq in H. now rewrite H. Qed.

(** the memory after a transform run in place, or out of place on a padded mesh *)
Lemma execute_forward_ok p m src dst g :
  pl_inplace p = (src =? dst)%nat -> pl_type p <> RealT -> (me_padded K me = true \/ src = dst) ->
  real_is base n m (mkF K me RealT src) g ->
  exists m', execute_forward K junk me p m src dst = Ret m' /\
    complex_is base n (put_complex K m' (mkF K me (pl_type p) dst)
        (map (scale_c K (rprod K (me_invs K me))) (complex_view K m' (mkF K me (pl_type p) dst))))
      (mkF K me (pl_type p) dst) (spectrum K base n (me_roots K me) (me_invs K me) g) /\
    forall b a, b <> dst -> m' b a = m b a.
Proof.
  intros Ei Et Ep H. unfold execute_forward. rewrite Ei, eqb_reflx. eexists. split; [reflexivity|].
  set (m0 := scramble K junk _ dst). set (Ls := real_view K m (mkF K me RealT src)).
  assert (T : tiles NN Ls) by apply real_view_tiles.
  assert (HL : holds Ls g) by (apply real_view_holds; exact H).
  set (F := on_blocks _ _).
  assert (TF : tiles HH F) by (eapply on_blocks_tiles, (go_complex _ _ _ G _ Et)).
  split.
  - apply put_complex_is; [exact Et| |].
    + eapply tiles_same; [| |apply (complex_view_tiles (put_complex K m0 (mkF K me (pl_type p) dst) F) _ dst Et)]; unfold scale_c; rewrite map_map; reflexivity.
    + pose proof (put_complex_is m0 _ dst F _ Et TF (on_blocks_holds _ _)) as P.
      apply (complex_view_holds _ _ _ _ Et) in P. unfold holds in *. apply Forall_map. rewrite Forall_forall in P |- *.
      intros L HIn. specialize (P L HIn). unfold scale_c. cbn [lvals]. unfold lcells. cbn [lstart lshape]. fold (lcells L).
      rewrite P, map_map. apply map_ext. intros k. apply forward_spectrum; assumption.
  - intros b a Hb. rewrite put_complex_other by exact Hb. unfold m0. rewrite scramble_other by exact Hb.
    destruct (me_padded K me); [reflexivity|]. destruct Ep as [Ep|<-]; [discriminate Ep|].
    rewrite Nat.eqb_refl. cbn [orb]. reflexivity.
Qed.
Lemma execute_backward_ok p m src dst c :
  pl_inplace p = (src =? dst)%nat -> pl_type p <> RealT -> (me_padded K me = true \/ src = dst) ->
  complex_is base n m (mkF K me (pl_type p) src) c ->
  exists m', execute_backward K junk me p m src dst = Ret m' /\
    real_is base n m' (mkF K me RealT dst) (fun x => re (synthesis K base n (me_roots K me) c x)) /\
    forall b a, b <> dst -> m' b a = m b a.
Proof.
  intros Ei Et Ep H. unfold execute_backward. rewrite Ei, eqb_reflx. eexists. split; [reflexivity|].
  set (m0 := scramble K junk _ dst). set (Ls := complex_view K m _).
  assert (T : tiles HH Ls) by (apply complex_view_tiles; exact Et).
  assert (HL : holds Ls c) by (apply complex_view_holds; [exact Et|exact H]).
  split.
  - apply put_real_is; [eapply on_blocks_tiles, (go_real _ _ _ G)|].
    eapply holds_on_blocks; [eapply on_blocks_tiles, (go_real _ _ _ G)|]. intros x Hx.
    rewrite (go_nmesh _ _ _ G). apply c2r_synthesis with (is := me_invs K me); [apply (go_roots _ _ _ G)|exact T|exact HL|]. now apply cells_valid.
  - intros b a Hb. rewrite put_real_other by exact Hb. unfold m0. rewrite scramble_other by exact Hb.
    destruct (me_padded K me); [reflexivity|]. destruct Ep as [Ep|<-]; [discriminate Ep|].
    rewrite Nat.eqb_refl. cbn [orb]. reflexivity.
Qed.

(** ** r2c and c2r *)
(** the field a transform returns *)
Definition result_of (st : state K) (self : field K) (t : ftype) (out : out_arg K) : field K :=
  match out with
  | OutNone _ => mkF K me t (st_next K st)
  | OutSelf _ => mkF K me t (fl_buf K self)
  | OutField _ f => f
  end.
(** nothing outside the buffer [b] has changed; buffers are only added *)
Definition only_changes (st st' : state K) (b : buffer) : Prop :=
  (st_next K st <= st_next K st')%nat /\ forall b' a, b' <> b -> st_mem K st' b' a = st_mem K st b' a.

Lemma r2c_ok st b out g : real_is base n (st_mem K st) (mkF K me RealT b) g ->
  (forall f, out = OutField K f -> fl_mesh K f = me /\ fl_type K f <> RealT) ->
  let r := result_of st (mkF K me RealT b) TransposedT out in
  exists st', r2c K junk st (mkF K me RealT b) out = Ret (r, st') /\
    complex_is base n (st_mem K st') r (spectrum K base n (me_roots K me) (me_invs K me) g) /\
    only_changes st st' (fl_buf K r) /\
    st_next K st' = match out with OutNone _ => S (st_next K st) | _ => st_next K st end.
Proof.
  intros H Ho r. unfold r2c. cbn [fl_type fl_mesh].
  set (os := match out with OutNone _ => _ | OutSelf _ => _ | OutField _ f => _ end).
  assert (Eo : fst os = r /\ st_mem K (snd os) = st_mem K st /\
     st_next K (snd os) = match out with OutNone _ => S (st_next K st) | _ => st_next K st end) by (unfold os, r; destruct out; cbn; auto).
  assert (Er : fl_mesh K r = me /\ fl_type K r <> RealT).
  { unfold r. destruct out; cbn; [split; [reflexivity|discriminate]..|]. apply Ho. reflexivity. }
  destruct os as [o st1]. cbn [fst snd] in Eo. destruct Eo as (-> & Em & En). clearbody r. destruct r as [me' t bo]. cbn [fl_mesh fl_type] in Er. destruct Er as [-> Et].
  cbn [fl_type fl_mesh fl_buf].
  assert (X : exists bs st2, (if me_padded K me then (mkF K me RealT b, st1)
      else create_real K st1 me (Some bo) (real_view K (st_mem K st1) (mkF K me RealT b))) = (mkF K me RealT bs, st2) /\
      (me_padded K me = true \/ bs = bo) /\ real_is base n (st_mem K st2) (mkF K me RealT bs) g /\
      st_next K st2 = st_next K st1 /\ forall b' a, b' <> bo -> st_mem K st2 b' a = st_mem K st b' a).
  { destruct (me_padded K me) eqn:P.
    - exists b, st1. rewrite Em. split; [reflexivity|]. split; [now left|]. split; [exact H|]. auto.
    - exists bo. eexists. split; [reflexivity|]. split; [now right|]. cbn. split; [|split; [reflexivity|]].
      + apply put_real_is; [apply real_view_tiles|]. apply real_view_holds. rewrite Em. exact H.
      + intros b' a Hb. rewrite put_real_other by exact Hb. now rewrite Em. }
  destruct X as (bs & st2 & E2 & Hp & H2 & N2 & F2).
  assert (Y : forall p, pl_inplace p = (bs =? bo)%nat -> pl_type p = t ->
    exists st', bind (execute_forward K junk me p (st_mem K st2) bs bo) (fun m =>
       Ret (mkF K me t bo, mkS K (put_complex K m (mkF K me t bo) (map (scale_c K (rprod K (me_invs K me))) (complex_view K m (mkF K me t bo)))) (st_next K st2)))
       = Ret (mkF K me t bo, st') /\
    complex_is base n (st_mem K st') (mkF K me t bo) (spectrum K base n (me_roots K me) (me_invs K me) g) /\
    only_changes st st' bo /\ st_next K st' = match out with OutNone _ => S (st_next K st) | _ => st_next K st end).
  { intros p Ep Et'.
    destruct (execute_forward_ok p (st_mem K st2) bs bo g Ep ltac:(congruence) Hp H2) as (m' & Ex & Hc & Fr).
    rewrite Et' in Hc. rewrite Ex. cbn [bind]. eexists. split; [reflexivity|]. cbn [st_mem st_next]. split; [exact Hc|]. split; [split|].
    - cbn [st_next]. rewrite N2, En. destruct out; lia.
    - intros b' a Hb. cbn [st_mem]. rewrite put_complex_other by exact Hb. rewrite Fr by exact Hb. apply F2; exact Hb.
    - congruence. }
  destruct t; [contradiction|..]; rewrite E2; cbn [fl_buf]; apply Y; destruct (bs =? bo)%nat; reflexivity.
Qed.
Lemma c2r_ok st t b out c : t <> RealT -> complex_is base n (st_mem K st) (mkF K me t b) c ->
  (forall f, out = OutField K f -> fl_mesh K f = me /\ fl_type K f = RealT) ->
  let r := result_of st (mkF K me t b) RealT out in
  exists st', c2r K junk st (mkF K me t b) out = Ret (r, st') /\
    real_is base n (st_mem K st') r (fun x => re (synthesis K base n (me_roots K me) c x)) /\
    only_changes st st' (fl_buf K r) /\
    st_next K st' = match out with OutNone _ => S (st_next K st) | _ => st_next K st end.
Proof.
  intros Et H Ho r.
  set (os := match out with OutNone _ => create K st me RealT None | OutSelf _ => create K st me RealT (Some b) | OutField _ f => (f, st) end).
  assert (Eo : fst os = r /\ st_mem K (snd os) = st_mem K st /\
     st_next K (snd os) = match out with OutNone _ => S (st_next K st) | _ => st_next K st end) by (unfold os, r; destruct out; cbn; auto).
  assert (Er : fl_mesh K r = me /\ fl_type K r = RealT).
  { unfold r. destruct out; cbn; [split; reflexivity..|]. apply Ho. reflexivity. }
  destruct os as [o st1] eqn:Eos. cbn [fst snd] in Eo. destruct Eo as (-> & Em & En). clearbody r. destruct r as [me' t' bo]. cbn [fl_mesh fl_type] in Er. destruct Er as [-> ->].
  assert (X : exists bs st2, (if me_padded K me then (mkF K me t b, st1)
      else create_complex K st1 me t (Some bo) (complex_view K (st_mem K st1) (mkF K me t b))) = (mkF K me t bs, st2) /\
      (me_padded K me = true \/ bs = bo) /\ complex_is base n (st_mem K st2) (mkF K me t bs) c /\
      st_next K st2 = st_next K st1 /\ forall b' a, b' <> bo -> st_mem K st2 b' a = st_mem K st b' a).
  { destruct (me_padded K me) eqn:P.
    - exists b, st1. rewrite Em. split; [reflexivity|]. split; [now left|]. split; [exact H|]. auto.
    - exists bo. eexists. split; [reflexivity|]. split; [now right|]. cbn. split; [|split; [reflexivity|]].
      + apply put_complex_is; [exact Et|apply complex_view_tiles; exact Et|]. apply complex_view_holds; [exact Et|]. rewrite Em. exact H.
      + intros b' a Hb. rewrite put_complex_other by exact Hb. now rewrite Em. }
  destruct X as (bs & st2 & E2 & Hp & H2 & N2 & F2).
  assert (Y : forall p, pl_inplace p = (bs =? bo)%nat -> pl_type p = t ->
    exists st', bind (execute_backward K junk me p (st_mem K st2) bs bo) (fun m =>
       Ret (mkF K me RealT bo, mkS K m (st_next K st2))) = Ret (mkF K me RealT bo, st') /\
    real_is base n (st_mem K st') (mkF K me RealT bo) (fun x => re (synthesis K base n (me_roots K me) c x)) /\
    only_changes st st' bo /\ st_next K st' = match out with OutNone _ => S (st_next K st) | _ => st_next K st end).
  { intros p Ep Et'. rewrite <- Et' in H2, Et.
    destruct (execute_backward_ok p (st_mem K st2) bs bo c Ep Et Hp H2) as (m' & Ex & Hc & Fr).
    rewrite Ex. cbn [bind]. eexists. split; [reflexivity|]. cbn [st_mem st_next]. split; [exact Hc|]. split; [split|].
    - cbn [st_next]. rewrite N2, En. destruct out; lia.
    - intros b' a Hb. cbn [st_mem]. rewrite Fr by exact Hb. apply F2; exact Hb.
    - congruence. }
  unfold c2r. destruct t; [contradiction|..]; cbn [fl_type fl_mesh fl_buf]; fold os; rewrite Eos; cbn [fl_type fl_buf]; rewrite E2; cbn [fl_buf];
    apply Y; rewrite (Nat.eqb_sym bo bs); destruct (bs =? bo)%nat; reflexivity.
Qed.

(** ** what a buffer contains *)
(** the values written last, with the type of the view they were written through *)
Inductive content := Unknown | RealC (g : list Z -> K) | ComplexC (t : ftype) (c : list Z -> C).
Definition contains (m : memory K) (b : buffer) (x : content) : Prop :=
  match x with
  | Unknown => True
  | RealC g => real_is base n m (mkF K me RealT b) g
  | ComplexC t c => t <> RealT /\ complex_is base n m (mkF K me t b) c
  end.
(** what a field of type [t] reads from it *)
Definition seen (t : ftype) (x : content) : content :=
  match x with
  | RealC _ => match t with RealT => x | _ => Unknown end
  | ComplexC s _ => if ftype_eqb s t then x else Unknown
  | Unknown => Unknown
  end.
Definition forward (t : ftype) (x : content) : content :=
  match x with RealC g => ComplexC t (spectrum K base n (me_roots K me) (me_invs K me) g) | _ => Unknown end.
Definition backward (x : content) : content :=
  match x with ComplexC _ c => RealC (fun q => re (synthesis K base n (me_roots K me) c q)) | _ => Unknown end.
Definition converted (s t : ftype) (x : content) : content :=
  if ftype_eqb s t then x
  else match s, t with
       | RealT, _ => forward t x
       | _, RealT => backward x
       | _, _ => forward t (backward x)
       end.

Lemma ftype_eqb_spec a b : reflect (a = b) (ftype_eqb a b).
Proof. destruct a, b; cbn; constructor; congruence. Qed.
Lemma contains_frame st st' b b' x : only_changes st st' b -> b' <> b ->
  contains (st_mem K st) b' x -> contains (st_mem K st') b' x.
Proof.
  intros [_ F] Hb H. destruct x as [|g|t c]; cbn in *; [exact H| |].
  - intros q Hq. rewrite <- (H q Hq). unfold real_at. cbn. now rewrite F.
  - split; [apply H|]. intros k Hk. rewrite <- (proj2 H k Hk). unfold complex_at. cbn. now rewrite !F.
Qed.
Lemma only_changes_trans st1 st2 st3 b : only_changes st1 st2 b -> only_changes st2 st3 b -> only_changes st1 st3 b.
Proof. intros [L1 F1] [L2 F2]. split; [lia|]. intros b' a Hb. now rewrite F2, F1. Qed.
Lemma own_real st b : real_is base n (st_mem K st) (mkF K me RealT b) (real_at K (st_mem K st) (mkF K me RealT b)).
Proof. intros q _. reflexivity. Qed.
Lemma own_complex st t b : complex_is base n (st_mem K st) (mkF K me t b) (complex_at K (st_mem K st) (mkF K me t b)).
Proof. intros q _. reflexivity. Qed.

Lemma r2c_contains st b out x : contains (st_mem K st) b x ->
  (forall f, out = OutField K f -> fl_mesh K f = me /\ fl_type K f <> RealT) ->
  let r := result_of st (mkF K me RealT b) TransposedT out in
  exists st', r2c K junk st (mkF K me RealT b) out = Ret (r, st') /\
    contains (st_mem K st') (fl_buf K r) (forward (fl_type K r) (seen RealT x)) /\
    only_changes st st' (fl_buf K r) /\
    st_next K st' = match out with OutNone _ => S (st_next K st) | _ => st_next K st end.
Proof.
  intros H Ho r.
  assert (Hr : fl_mesh K r = me /\ fl_type K r <> RealT).
  { unfold r. destruct out; cbn; [split; [reflexivity|discriminate]..|]. apply Ho. reflexivity. }
  assert (E : exists g, real_is base n (st_mem K st) (mkF K me RealT b) g /\ (seen RealT x = Unknown \/ seen RealT x = RealC g)).
  { destruct x as [|g|[] c]; cbn in *; eauto using own_real. destruct H; contradiction. }
  destruct E as (g & Hg & E). destruct (r2c_ok st b out g Hg Ho) as (st' & E1 & E2 & E3 & E4). fold r in E1, E2, E3.
  exists st'. split; [exact E1|]. split; [|split; [exact E3|exact E4]].
  destruct E as [-> | ->]; cbn; [exact Logic.I|]. split; [apply Hr|]. destruct r as [me' t' b']. cbn in *. destruct Hr as [-> _]. exact E2.
Qed.
Lemma c2r_contains st t b out x : t <> RealT -> contains (st_mem K st) b x ->
  (forall f, out = OutField K f -> fl_mesh K f = me /\ fl_type K f = RealT) ->
  let r := result_of st (mkF K me t b) RealT out in
  exists st', c2r K junk st (mkF K me t b) out = Ret (r, st') /\
    contains (st_mem K st') (fl_buf K r) (backward (seen t x)) /\
    only_changes st st' (fl_buf K r) /\
    st_next K st' = match out with OutNone _ => S (st_next K st) | _ => st_next K st end.
Proof.
  intros Ht H Ho r.
  assert (Hr : fl_mesh K r = me /\ fl_type K r = RealT).
  { unfold r. destruct out; cbn; [split; reflexivity..|]. apply Ho. reflexivity. }
  assert (E : exists c, complex_is base n (st_mem K st) (mkF K me t b) c /\ (seen t x = Unknown \/ seen t x = ComplexC t c)).
  { destruct x as [|g|s c]; cbn in *.
    - eauto using own_complex.
    - exists (complex_at K (st_mem K st) (mkF K me t b)). split; [apply own_complex|]. destruct t; [contradiction|auto..].
    - destruct (ftype_eqb_spec s t) as [->|_]; [|eauto using own_complex]. exists c. split; [apply H|now right]. }
  destruct E as (c & Hc & E). destruct (c2r_ok st t b out c Ht Hc Ho) as (st' & E1 & E2 & E3 & E4). fold r in E1, E2, E3.
  exists st'. split; [exact E1|]. split; [|split; [exact E3|exact E4]].
  destruct E as [-> | ->]; cbn; [exact Logic.I|]. destruct r as [me' t' b']. cbn in *. destruct Hr as [-> ->]. exact E2.
Qed.

(** a plain copy of the values to a field of the same type *)
Lemma put_contains st (t : ftype) b b' x :
  let m := match t with
           | RealT => put_real K (st_mem K st) (mkF K me RealT b') (real_view K (st_mem K st) (mkF K me RealT b))
           | t => put_complex K (st_mem K st) (mkF K me t b') (complex_view K (st_mem K st) (mkF K me t b))
           end in
  contains (st_mem K st) b x -> contains m b' (seen t x) /\ forall b1 a, b1 <> b' -> m b1 a = st_mem K st b1 a.
Proof.
  intros m H. split.
  - destruct x as [|g|s c]; cbn [seen]; [exact Logic.I| |].
    + unfold m. destruct t; [|exact Logic.I..]. cbn in *. apply put_real_is; [apply real_view_tiles|]. now apply real_view_holds.
    + destruct (ftype_eqb_spec s t) as [->|_]; [|exact Logic.I]. cbn in *. destruct H as [Ht H]. split; [exact Ht|].
      unfold m. destruct t; [contradiction|..]; (apply put_complex_is; [exact Ht|apply complex_view_tiles; exact Ht|]; apply complex_view_holds; assumption).
  - intros b1 a Hb. unfold m. destruct t; [apply put_real_other|apply put_complex_other..]; exact Hb.
Qed.
Lemma copy_contains st t b x : contains (st_mem K st) b x ->
  exists st', copy K st (mkF K me t b) = (mkF K me t (st_next K st), st') /\
    contains (st_mem K st') (st_next K st) (seen t x) /\ only_changes st st' (st_next K st) /\ st_next K st' = S (st_next K st).
Proof.
  intros H. destruct (put_contains st t b (st_next K st) x H) as [H1 H2]. unfold copy, create_real, create_complex.
  destruct t; cbn in *; (eexists; split; [reflexivity|]; split; [exact H1|]; split; [|reflexivity]; split; [cbn; lia|exact H2]).
Qed.
Lemma cast_contains st s b t out x : contains (st_mem K st) b x ->
  let r := mkF K me t (match out with Some f => fl_buf K f | None => st_next K st end) in
  exists st', cast K junk st (mkF K me s b) t out = Ret (r, st') /\
    contains (st_mem K st') (fl_buf K r) (converted s t (seen s x)) /\ only_changes st st' (fl_buf K r) /\
    st_next K st' = match out with None => S (st_next K st) | Some _ => st_next K st end.
Proof.
  intros H r. unfold cast. cbn [fl_mesh fl_type].
  set (os := create K st me t (option_map (fl_buf K) out)).
  assert (Eo : fst os = r /\ st_mem K (snd os) = st_mem K st /\
     st_next K (snd os) = match out with None => S (st_next K st) | Some _ => st_next K st end) by (unfold os, r; destruct out; cbn; auto).
  destruct os as [o st1]. cbn [fst snd] in Eo. destruct Eo as (-> & Em & En). unfold r. cbn [fl_buf].
  set (bo := match out with Some f => fl_buf K f | None => st_next K st end).
  assert (O1 : forall st2, only_changes st1 st2 bo -> only_changes st st2 bo).
  { intros st2 [L F]. split; [destruct out; lia|]. intros b' a Hb'. rewrite F by exact Hb'. now rewrite Em. }
  rewrite <- Em in H.
  assert (Plain : forall m, m = match t with
      | RealT => put_real K (st_mem K st1) (mkF K me RealT bo) (real_view K (st_mem K st1) (mkF K me RealT b))
      | t => put_complex K (st_mem K st1) (mkF K me t bo) (complex_view K (st_mem K st1) (mkF K me t b))
      end ->
      exists st', Ret (mkF K me t bo, mkS K m (st_next K st1)) = Ret (mkF K me t bo, st') /\
        contains (st_mem K st') bo (seen t x) /\ only_changes st st' bo /\
        st_next K st' = match out with None => S (st_next K st) | Some _ => st_next K st end).
  { intros m ->. destruct (put_contains st1 t b bo x H) as [H1 H2]. eexists. split; [reflexivity|]. cbn [st_mem st_next].
    split; [exact H1|]. split; [|exact En]. apply O1. split; [cbn; lia|exact H2]. }
  assert (Fwd : forall st2 b2 y, contains (st_mem K st2) b2 y -> t <> RealT -> only_changes st st2 bo -> st_next K st2 = st_next K st1 ->
      exists st', r2c K junk st2 (mkF K me RealT b2) (OutField K (mkF K me t bo)) = Ret (mkF K me t bo, st') /\
        contains (st_mem K st') bo (forward t (seen RealT y)) /\ only_changes st st' bo /\
        st_next K st' = match out with None => S (st_next K st) | Some _ => st_next K st end).
  { intros st2 b2 y Hy Ht Hc Hn. destruct (r2c_contains st2 b2 (OutField K (mkF K me t bo)) y Hy) as (st' & E1 & E2 & E3 & E4).
    { intros f Ef. injection Ef as <-. cbn. auto. }
    exists st'. cbn in *. split; [exact E1|]. split; [exact E2|]. split; [eapply only_changes_trans; eassumption|congruence]. }
  assert (O0 : only_changes st st1 bo) by (apply O1; split; [lia|reflexivity]).
  destruct s, t; cbn [ftype_eqb fl_type converted].
  - apply Plain. reflexivity.
  - apply Fwd; [exact H|discriminate|exact O0|reflexivity].
  - apply Fwd; [exact H|discriminate|exact O0|reflexivity].
  - destruct (c2r_contains st1 TransposedT b (OutField K (mkF K me RealT bo)) x) as (st' & E1 & E2 & E3 & E4);
      [discriminate|exact H|intros f Ef; injection Ef as <-; auto|]. exists st'. cbn in *. split; [exact E1|]. split; [exact E2|]. split; [now apply O1|congruence].
  - apply Plain. reflexivity.
  - cbn [create fl_buf]. destruct (c2r_contains st1 TransposedT b (OutField K (mkF K me RealT bo)) x) as (st' & E1 & E2 & E3 & E4);
      [discriminate|exact H|intros f Ef; injection Ef as <-; auto|]. rewrite E1. cbn [bind fst snd]. cbn in E2, E3, E4.
    replace (backward (seen TransposedT x)) with (seen RealT (backward (seen TransposedT x))) by (destruct (seen TransposedT x); reflexivity).
    apply Fwd; [exact E2|discriminate|now apply O1|exact E4].
  - destruct (c2r_contains st1 UntransposedT b (OutField K (mkF K me RealT bo)) x) as (st' & E1 & E2 & E3 & E4);
      [discriminate|exact H|intros f Ef; injection Ef as <-; auto|]. exists st'. cbn in *. split; [exact E1|]. split; [exact E2|]. split; [now apply O1|congruence].
  - cbn [create fl_buf]. destruct (c2r_contains st1 UntransposedT b (OutField K (mkF K me RealT bo)) x) as (st' & E1 & E2 & E3 & E4);
      [discriminate|exact H|intros f Ef; injection Ef as <-; auto|]. rewrite E1. cbn [bind fst snd]. cbn in E2, E3, E4.
    replace (backward (seen UntransposedT x)) with (seen RealT (backward (seen UntransposedT x))) by (destruct (seen UntransposedT x); reflexivity).
    apply Fwd; [exact E2|discriminate|now apply O1|exact E4].
  - apply Plain. reflexivity.
Qed.
End Mesh.
End Memory.
