(** Property C85: arithmetic on fields (pmesh/pm.py:156-208). *)
From Coq Require Import List Arith ZArith QArith Lia Bool Permutation Ring Qcanon.
From Verif Require Import Base ListFacts LayoutModel WrapModel WrapProofs DomainModel DomainFill MeshModel MeshAssign
  MeshRoute MeshTile RingModel FieldModel FieldFacts FieldProperties FieldSort FieldResample FieldNorm FourierModel FourierFacts
  FourierProperties BufferModel BufferProofs BufferProperties UfuncModel.
Import ListNotations.
Local Close Scope Qc_scope.
Local Close Scope Q_scope.
Local Open Scope Z_scope.

(** ** Broadcasting of equal shapes and numbers *)
Lemma brev_same a : brev a a = Some a.
Proof. induction a as [|x a IH]; [reflexivity|]. cbn [brev]. unfold bdim. now rewrite Z.eqb_refl, IH. Qed.
Lemma broadcast_same a : broadcast a a = Some a.
Proof. unfold broadcast. rewrite brev_same. cbn. now rewrite rev_involutive. Qed.
Lemma broadcast_nil_r a : broadcast a [] = Some a.
Proof. unfold broadcast. cbn. destruct (rev a) eqn:E; cbn; rewrite <- (rev_involutive a), E; reflexivity. Qed.
Lemma broadcast_nil_l a : broadcast [] a = Some a.
Proof. unfold broadcast. cbn. now rewrite rev_involutive. Qed.
Lemma broadcast_all_two s l : Forall (fun t => t = s \/ t = []) l -> broadcast_all l = Some s \/ (broadcast_all l = Some [] /\ Forall (fun t => t = []) l).
Proof.
  induction 1 as [|t l Ht Hl IH]; [right; now split|]. cbn [broadcast_all]. destruct IH as [E|[E IH]]; rewrite E.
  - left. destruct Ht as [-> | ->]; [apply broadcast_same|apply broadcast_nil_l].
  - rewrite broadcast_nil_r. destruct Ht as [-> | ->]; [now left|right]. split; [reflexivity|now constructor].
Qed.
Lemma broadcast_all_some s l : Forall (fun t => t = s \/ t = []) l -> In s l -> broadcast_all l = Some s.
Proof.
  intros H Hi. destruct (broadcast_all_two s l H) as [E|[E F]]; [exact E|]. rewrite Forall_forall in F. now rewrite (F s Hi) in *.
Qed.
Lemma bindex_same s idx : In idx (cells_of s) -> bindex s idx = idx.
Proof.
  intros H. apply in_cells_of in H as [L H]. unfold bindex. rewrite L, Nat.sub_diag. cbn [skipn].
  revert idx L H. induction s as [|n s IH]; intros [|i idx] L H; try discriminate; [reflexivity|]. cbn [combine map fst snd]. f_equal.
  - destruct (Z.eqb_spec n 1); [|reflexivity]. specialize (H 0%nat ltac:(cbn; lia)). cbn in H. lia.
  - apply IH; [now injection L|]. intros k Hk. apply (H (S k)). cbn. lia.
Qed.

Lemma map_const_seq {A} (x : A) k i : map (fun _ => x) (seq i k) = repeat x k.
Proof. revert i. induction k as [|k IH]; intros i; [reflexivity|]. cbn. f_equal. apply IH. Qed.

Section Fields.
Variable K : cring.
Local Notation C := (cpx K).

Lemma put_real_app m f A B : put_real K (put_real K m f A) f B = put_real K m f (A ++ B).
Proof. unfold put_real. now rewrite flat_map_app, fold_left_app. Qed.
Lemma put_complex_app m f A B : put_complex K (put_complex K m f A) f B = put_complex K m f (A ++ B).
Proof. unfold put_complex. now rewrite flat_map_app, fold_left_app. Qed.
Definition lf_real (f : field K) (ra : nat * nda K) : lfield K :=
  mkL (fst (block_of K f (fst ra))) (snd (block_of K f (fst ra))) (map (fun i => re (nd_val K (snd ra) i)) (cells_of (snd (block_of K f (fst ra))))).
Definition lf_complex (f : field K) (ra : nat * nda K) : lfield C :=
  mkL (fst (block_of K f (fst ra))) (snd (block_of K f (fst ra))) (map (nd_val K (snd ra)) (cells_of (snd (block_of K f (fst ra))))).
Lemma put_all_lists m f l : put_all K m f l =
  match fl_type K f with RealT => put_real K m f (map (lf_real f) l) | _ => put_complex K m f (map (lf_complex f) l) end.
Proof.
  revert m. induction l as [|ra l IH]; intros m; [cbn; destruct (fl_type K f); reflexivity|].
  unfold put_all in *. cbn [fold_left map]. rewrite IH. unfold put_value. destruct (fl_type K f).
  - rewrite put_real_app. reflexivity.
  - rewrite put_complex_app. reflexivity.
  - rewrite put_complex_app. reflexivity.
Qed.
Lemma put_all_other m f l b a : b <> fl_buf K f -> put_all K m f l b a = m b a.
Proof.
  intros H. rewrite put_all_lists. destruct (fl_type K f); [now apply put_real_other| |]; now apply put_complex_other.
Qed.

Section Mesh.
Variables (base : list Z) (n : Z) (me : mesh K).
Hypothesis G : good K base n me.
(** the cells, or modes, of a field of type [t] *)
Definition domain (t : ftype) : list (list Z) := match t with RealT => cells_of (N base n) | _ => cells_of (half base n) end.
(** a number as the elements of a field of type [t] *)
Definition stored_as (t : ftype) (z : C) : C := match t with RealT => cof (re z) | _ => z end.
Local Notation blocks t := (me_blocks K me t).
Local Notation nranks t := (length (me_blocks K me t)).

Lemma seq_blocks {A} t (F : list Z * list Z -> A) : map (fun r => F (nth r (blocks t) ([], []))) (seq 0 (nranks t)) = map F (blocks t).
Proof.
  pose proof (f_equal (map F) (map_nth_seq (blocks t) ([], []) _ eq_refl)) as E. rewrite map_map in E. exact E.
Qed.
Lemma put_all_value m t b (a : nat -> nda K) (g : list Z -> C) :
  (forall r i, (r < nranks t)%nat -> In i (cells_of (snd (nth r (blocks t) ([], [])))) -> nd_val K (a r) i = g (zadd (fst (nth r (blocks t) ([], []))) i)) ->
  forall x, In x (domain t) -> value_at K (put_all K m (mkF K me t b) (map (fun r => (r, a r)) (seq 0 (nranks t)))) (mkF K me t b) x = stored_as t (g x).
Proof.
  intros H x Hx. rewrite put_all_lists. unfold value_at, stored_as. cbn [fl_type].
  assert (ER : map (lf_real (mkF K me t b)) (map (fun r => (r, a r)) (seq 0 (nranks t))) = on_blocks (fun c => re (g c)) (blocks t)).
  { unfold on_blocks. rewrite <- (seq_blocks t (fun bl => on_block (fun c => re (g c)) (mkL (V := K) (fst bl) (snd bl) []))), map_map.
    apply map_ext_in. intros r Hr. apply in_seq in Hr. unfold lf_real, on_block, block_of, lcells. cbn [fst snd fl_mesh fl_type lstart lshape].
    f_equal. rewrite map_map. apply map_ext_in. intros i Hi. now rewrite H by (exact Hi || lia). }
  assert (EC : map (lf_complex (mkF K me t b)) (map (fun r => (r, a r)) (seq 0 (nranks t))) = on_blocks g (blocks t)).
  { unfold on_blocks. rewrite <- (seq_blocks t (fun bl => on_block g (mkL (V := C) (fst bl) (snd bl) []))), map_map.
    apply map_ext_in. intros r Hr. apply in_seq in Hr. unfold lf_complex, on_block, block_of, lcells. cbn [fst snd fl_mesh fl_type lstart lshape].
    f_equal. rewrite map_map. apply map_ext_in. intros i Hi. now rewrite H by (exact Hi || lia). }
  destruct t; cbn [domain] in Hx.
  - rewrite ER. f_equal. apply (put_real_is K base n me G m b _ (fun c => re (g c))); [eapply on_blocks_tiles, (go_real K _ _ _ G)|apply on_blocks_holds|exact Hx].
  - rewrite EC. apply (put_complex_is K base n me G m TransposedT b _ g); [discriminate|eapply on_blocks_tiles, (go_complex K _ _ _ G); discriminate|apply on_blocks_holds|exact Hx].
  - rewrite EC. apply (put_complex_is K base n me G m UntransposedT b _ g); [discriminate|eapply on_blocks_tiles, (go_complex K _ _ _ G); discriminate|apply on_blocks_holds|exact Hx].
Qed.
Lemma block_in_domain t r i : (r < nranks t)%nat -> In i (cells_of (snd (nth r (blocks t) ([], [])))) ->
  In (zadd (fst (nth r (blocks t) ([], []))) i) (domain t).
Proof.
  intros Hr Hi.
  assert (HL : In (on_block (fun _ => tt) (mkL (V := unit) (fst (nth r (blocks t) ([], []))) (snd (nth r (blocks t) ([], []))) [])) (on_blocks (fun _ => tt) (blocks t))).
  { unfold on_blocks. apply in_map_iff. exists (nth r (blocks t) ([], [])). split; [reflexivity|]. now apply nth_In. }
  assert (HC : In (zadd (fst (nth r (blocks t) ([], []))) i) (lcells (on_block (fun _ => tt) (mkL (V := unit) (fst (nth r (blocks t) ([], []))) (snd (nth r (blocks t) ([], []))) [])))).
  { unfold lcells, on_block. cbn [lstart lshape]. now apply in_map. }
  destruct t; cbn [domain]; eapply tiles_cell; try eassumption; [apply (go_real K _ _ _ G)| |]; apply (go_complex K _ _ _ G); discriminate.
Qed.

(** operands of one type: fields of type [t] of this mesh, and numbers *)
Definition alike (t : ftype) (o : operand K) : Prop :=
  match o with OpField _ f => fl_mesh K f = me /\ fl_type K f = t | OpNumber _ _ _ => True | _ => False end.
Definition is_field (o : operand K) : Prop := match o with OpField _ _ => True | _ => False end.
Definition operand_at (m : memory K) (c : list Z) (o : operand K) : C :=
  match o with OpField _ f => value_at K m f c | OpNumber _ _ z => z | _ => c0 end.
Definition operand_kind (o : operand K) : kind :=
  match o with OpField _ f => type_kind (fl_type K f) | OpNumber _ k _ => k | _ => RealK end.
Definition oval (m : memory K) (r : nat) (o : operand K) : nda K :=
  match operand_value K m r o with Ret a => a | _ => mkNd K RealK [] (fun _ => c0) end.
Lemma operand_values_alike m r t l : Forall (alike t) l -> operand_values K m r l = Ret (map (oval m r) l).
Proof.
  induction 1 as [|o l Ho _ IH]; [reflexivity|]. cbn [operand_values map]. rewrite IH. destruct o; try contradiction; reflexivity.
Qed.
Lemma first_field_alike t l out : Forall (alike t) l -> (forall o, out = Some o -> fl_mesh K o = me /\ fl_type K o = t) ->
  (Exists is_field l \/ out <> None) -> exists f, first_field K l out = Some f /\ fl_mesh K f = me /\ fl_type K f = t.
Proof.
  intros H Ho Hf. induction H as [|o l Hl HF IH]; cbn [first_field].
  - destruct Hf as [Hf|Hf]; [inversion Hf|]. destruct out as [o|]; [|congruence]. exists o. split; [reflexivity|]. now apply Ho.
  - destruct o; try contradiction; [exists f; split; [reflexivity|exact Hl]|]. apply IH. destruct Hf as [Hf|Hf]; [left|now right].
    inversion Hf; subst; [contradiction|assumption].
Qed.
Definition shape_at (t : ftype) (r : nat) : list Z := snd (nth r (blocks t) ([], [])).
Lemma oval_shape m r t o : alike t o -> nd_shape K (oval m r o) = (match o with OpField _ _ => shape_at t r | _ => [] end).
Proof.
  destruct o; try contradiction; [|reflexivity]. intros [H1 H2]. unfold oval. cbn. unfold shape_at, block_of. now rewrite H1, H2.
Qed.
Lemma oval_kind m r t o : alike t o -> nd_kind K (oval m r o) = operand_kind o.
Proof. destruct o; try contradiction; reflexivity. Qed.
Lemma oval_at m r t o i : alike t o -> In i (cells_of (shape_at t r)) ->
  nd_val K (oval m r o) (bindex (nd_shape K (oval m r o)) i) = operand_at m (zadd (fst (nth r (blocks t) ([], []))) i) o.
Proof.
  intros Ho Hi. rewrite (oval_shape m r t o Ho). destruct o; try contradiction; [|reflexivity]. destruct Ho as [H1 H2].
  rewrite bindex_same by exact Hi. unfold oval. cbn. unfold block_of. now rewrite H1, H2.
Qed.
(** the element of the result *)
Definition outcome_at (m : memory K) (u : ufunc K) (inputs : list (operand K)) (c : list Z) : C :=
  as_kind K (uf_kind K u (map operand_kind inputs)) (uf_fun K u (map (operand_at m c) inputs)).
Definition computed_value (m : memory K) (u : ufunc K) (inputs : list (operand K)) (r : nat) : list Z -> C :=
  fun idx => as_kind K (uf_kind K u (map operand_kind inputs)) (uf_fun K u (map (fun a => nd_val K a (bindex (nd_shape K a) idx)) (map (oval m r) inputs))).
Lemma computed_value_at m u t inputs r i : Forall (alike t) inputs -> In i (cells_of (shape_at t r)) ->
  computed_value m u inputs r i = outcome_at m u inputs (zadd (fst (nth r (blocks t) ([], []))) i).
Proof.
  intros HF Hi. unfold computed_value, outcome_at. f_equal. f_equal. rewrite map_map. apply map_ext_in. intros o Ho.
  rewrite Forall_forall in HF. apply (oval_at m r t); auto.
Qed.
Lemma apply_alike m u t inputs r : Forall (alike t) inputs ->
  exists s, apply_ufunc K u (map (oval m r) inputs) = Ret (mkNd K (uf_kind K u (map operand_kind inputs)) s (computed_value m u inputs r)) /\
    (Exists is_field inputs -> s = shape_at t r) /\ (s = shape_at t r \/ s = [] /\ ~ Exists is_field inputs).
Proof.
  intros HF. unfold apply_ufunc. rewrite !map_map.
  assert (Hs : Forall (fun s => s = shape_at t r \/ s = []) (map (fun o => nd_shape K (oval m r o)) inputs)).
  { apply Forall_map. eapply Forall_impl; [|exact HF]. intros o Ho. cbn beta. rewrite (oval_shape m r t o Ho). destruct o; auto. }
  assert (Hk : map (fun o => nd_kind K (oval m r o)) inputs = map operand_kind inputs).
  { apply map_ext_in. intros o Ho. rewrite Forall_forall in HF. now apply (oval_kind m r t), HF. }
  destruct (broadcast_all_two _ _ Hs) as [E|[E F]]; rewrite E, Hk; eexists; (split; [reflexivity|]).
  - split; auto.
  - assert (HS : Exists is_field inputs -> [] = shape_at t r).
    { intros HE. apply Exists_exists in HE as [o [Ho Hi]]. rewrite Forall_map, Forall_forall in F. rewrite Forall_forall in HF.
      specialize (F o Ho). cbn beta in F. rewrite (oval_shape m r t o (HF o Ho)) in F. destruct o; try contradiction. now symmetry. }
    split; [exact HS|]. destruct (Exists_dec is_field inputs (fun o => ltac:(destruct o; cbn; auto))) as [HE|HE]; [left; auto|now right].
Qed.
Lemma ret_list_map {A} (f : nat -> A) l : ret_list (map (fun r => (r, Ret (f r))) l) = map (fun r => (r, f r)) l.
Proof. induction l as [|r l IH]; [reflexivity|]. cbn. now rewrite <- IH. Qed.
Lemma map_seq_nil {A} (f : nat -> A) k : map f (seq 0 k) = [] -> k = 0%nat.
Proof. destruct k; [reflexivity|discriminate]. Qed.
Lemma shape_dec_true (s : list Z) : (if list_eq_dec Z.eq_dec s s then true else false) = true.
Proof. now destruct list_eq_dec. Qed.

(** ** A call without output *)
Lemma call_new st u t inputs : Forall (alike t) inputs -> Exists is_field inputs -> uf_kind K u (map operand_kind inputs) <> BoolK -> blocks t <> [] ->
  let new := mkF K me t (st_next K st) in
  exists m', call K st u inputs None = (repeat (Ret (RField K new)) (nranks t), mkS K m' (S (st_next K st))) /\
    (forall x, In x (domain t) -> value_at K m' new x = stored_as t (outcome_at (st_mem K st) u inputs x)) /\
    (forall b a, b <> st_next K st -> m' b a = st_mem K st b a).
Proof.
  intros HF HE Hk Hb new. destruct (first_field_alike t inputs None HF ltac:(discriminate) (or_introl HE)) as [self [Es [E1 E2]]].
  unfold call. rewrite Es, E1, E2. set (m := st_mem K st).
  set (k := uf_kind K u (map operand_kind inputs)) in *.
  set (a := fun r => mkNd K k (shape_at t r) (computed_value m u inputs r)).
  assert (EC : forall r, computed K m u inputs None r = Ret (a r)).
  { intros r. unfold computed. rewrite (operand_values_alike m r t inputs HF). cbn [bind].
    destruct (apply_alike m u t inputs r HF) as [s [Ea [Hs _]]]. rewrite Ea, (Hs HE). reflexivity. }
  rewrite (map_ext _ _ (fun r => f_equal (pair r) (EC r))). rewrite !map_map. cbn [fst snd bind].
  rewrite ret_list_map.
  assert (IF : forall r, is_field_result K self r (a r) = true).
  { intros r. unfold is_field_result, a. cbn [nd_kind nd_shape]. unfold block_of. rewrite E1, E2. fold (shape_at t r). rewrite shape_dec_true. now destruct k. }
  rewrite filter_all by (intros ra Hr; apply in_map_iff in Hr as [r [<- _]]; apply IF).
  eexists. split; [|split].
  - f_equal; [|].
    + rewrite (map_ext _ (fun _ => Ret (RField K new))) by (intros r; now rewrite IF). apply map_const_seq.
    + f_equal. destruct (blocks t); [congruence|reflexivity].
  - intros x Hx. unfold new. apply (put_all_value m t (st_next K st) a (outcome_at m u inputs)); [|exact Hx].
    intros r i Hr Hi. unfold a. cbn [nd_val]. now apply computed_value_at.
  - intros b ad Hb'. now rewrite put_all_other.
Qed.
(** booleans are returned as arrays *)
Lemma call_bool st u t inputs : Forall (alike t) inputs -> Exists is_field inputs -> uf_kind K u (map operand_kind inputs) = BoolK ->
  exists l, call K st u inputs None = (map (fun a => Ret (RArray K a)) l, st) /\ length l = nranks t /\
    forall r, (r < nranks t)%nat -> exists a, nth_error l r = Some a /\ nd_kind K a = BoolK /\ nd_shape K a = shape_at t r /\
      forall i, In i (cells_of (shape_at t r)) -> nd_val K a i = outcome_at (st_mem K st) u inputs (zadd (fst (nth r (blocks t) ([], []))) i).
Proof.
  intros HF HE Hk. destruct (first_field_alike t inputs None HF ltac:(discriminate) (or_introl HE)) as [self [Es [E1 E2]]].
  unfold call. rewrite Es, E1, E2. set (m := st_mem K st).
  set (a := fun r => mkNd K BoolK (shape_at t r) (computed_value m u inputs r)).
  assert (EC : forall r, computed K m u inputs None r = Ret (a r)).
  { intros r. unfold computed. rewrite (operand_values_alike m r t inputs HF). cbn [bind].
    destruct (apply_alike m u t inputs r HF) as [s [Ea [Hs _]]]. rewrite Ea, (Hs HE), Hk. reflexivity. }
  rewrite (map_ext _ _ (fun r => f_equal (pair r) (EC r))). rewrite !map_map. cbn [fst snd bind].
  rewrite ret_list_map. exists (map a (seq 0 (nranks t))). split; [|split].
  - rewrite filter_none by (intros ra Hr; apply in_map_iff in Hr as [r [<- _]]; reflexivity). rewrite map_map. cbn.
    f_equal. destruct st; reflexivity.
  - now rewrite map_length, seq_length.
  - intros r Hr. exists (a r). split; [|split; [reflexivity|split; [reflexivity|]]].
    + rewrite nth_error_map. rewrite (nth_error_nth' _ 0%nat) by now rewrite seq_length. cbn. now rewrite seq_nth.
    + intros i Hi. unfold a. cbn [nd_val]. now apply computed_value_at.
Qed.
(** ** A call with an output *)
Lemma call_out st u t inputs b : Forall (alike t) inputs -> can_cast (uf_kind K u (map operand_kind inputs)) t = true -> blocks t <> [] ->
  (b < st_next K st)%nat ->
  let new := mkF K me t (st_next K st) in
  exists m', call K st u inputs (Some (mkF K me t b)) = (repeat (Ret (RField K new)) (nranks t), mkS K m' (S (st_next K st))) /\
    (forall x, In x (domain t) -> value_at K m' (mkF K me t b) x = stored_as t (outcome_at (st_mem K st) u inputs x)) /\
    (forall x, In x (domain t) -> value_at K m' new x = stored_as t (outcome_at (st_mem K st) u inputs x)) /\
    (forall b' a, b' <> st_next K st -> b' <> b -> m' b' a = st_mem K st b' a).
Proof.
  intros HF Hk Hb Hlt new. destruct (first_field_alike t inputs (Some (mkF K me t b)) HF) as [self [Es [E1 E2]]].
  { intros o E. injection E as <-. now split. } { right. discriminate. }
  unfold call. rewrite Es, E1, E2. set (m := st_mem K st).
  set (k := uf_kind K u (map operand_kind inputs)) in *. set (o := mkF K me t b) in *.
  assert (EC : forall r, exists a, computed K m u inputs (Some o) r = Ret a /\ nd_shape K a = shape_at t r /\
     forall i, In i (cells_of (shape_at t r)) -> nd_val K a i = outcome_at m u inputs (zadd (fst (nth r (blocks t) ([], []))) i)).
  { intros r. unfold computed. rewrite (operand_values_alike m r t inputs HF). cbn [bind].
    destruct (apply_alike m u t inputs r HF) as [s [Ea [_ Hs]]]. rewrite Ea. cbn [bind].
    unfold to_output. cbn [nd_kind nd_shape nd_val]. change (fl_type K o) with t. fold k. rewrite Hk. change (snd (block_of K o r)) with (shape_at t r).
    destruct Hs as [-> | [-> Hs]].
    - rewrite broadcast_same. destruct list_eq_dec; [|congruence]. eexists. split; [reflexivity|]. split; [reflexivity|].
      intros i Hi. cbn [nd_val]. rewrite bindex_same by exact Hi. now apply computed_value_at.
    - rewrite broadcast_nil_l. destruct list_eq_dec; [|congruence]. eexists. split; [reflexivity|]. split; [reflexivity|].
      intros i Hi. cbn [nd_val]. unfold computed_value, outcome_at. f_equal. f_equal. rewrite map_map. apply map_ext_in. intros x Hx.
      assert (Hn : ~ is_field x) by (intros Hx'; apply Hs; apply Exists_exists; now exists x).
      rewrite Forall_forall in HF. specialize (HF x Hx). destruct x; try contradiction; [now destruct Hn|reflexivity]. }
  set (a := fun r => match computed K m u inputs (Some o) r with Ret a => a | _ => mkNd K RealK [] (fun _ => c0) end).
  assert (ER : forall r, computed K m u inputs (Some o) r = Ret (a r)).
  { intros r. unfold a. destruct (EC r) as [a0 [-> _]]. reflexivity. }
  assert (ES : forall r, nd_shape K (a r) = shape_at t r) by (intros r; unfold a; destruct (EC r) as [a0 [-> [H _]]]; exact H).
  assert (EV : forall r i, In i (cells_of (shape_at t r)) -> nd_val K (a r) i = outcome_at m u inputs (zadd (fst (nth r (blocks t) ([], []))) i))
    by (intros r; unfold a; destruct (EC r) as [a0 [-> [_ H]]]; exact H).
  clearbody a. clear EC.
  rewrite (map_ext _ _ (fun r => f_equal (pair r) (ER r))). rewrite !map_map. cbn [fst snd bind].
  rewrite ret_list_map.
  set (m1 := put_all K m o (map (fun r => (r, a r)) (seq 0 (nranks t)))).
  assert (EM : forall x, In x (domain t) -> value_at K m1 o x = stored_as t (outcome_at m u inputs x)).
  { intros x Hx. unfold m1, o. apply put_all_value; [|exact Hx]. intros r i Hr Hi. now apply EV. }
  assert (IF : forall r, is_field_result K self r (field_value K m1 o r) = true).
  { intros r. unfold is_field_result, field_value. cbn [nd_kind nd_shape]. unfold block_of. rewrite E1, E2. cbn [fl_mesh fl_type o]. fold (shape_at t r). rewrite shape_dec_true. now destruct t. }
  rewrite ret_list_map.
  rewrite filter_all by (intros ra Hr; apply in_map_iff in Hr as [r [<- _]]; apply IF).
  assert (EN : forall x, In x (domain t) -> value_at K (put_all K m1 new (map (fun r => (r, field_value K m1 o r)) (seq 0 (nranks t)))) new x = stored_as t (outcome_at m u inputs x)).
  { intros x Hx. unfold new. rewrite (put_all_value m1 t (st_next K st) (fun r => field_value K m1 o r) (value_at K m1 o)); [|reflexivity|exact Hx].
    rewrite EM by exact Hx. now destruct t. }
  eexists. split; [|split; [|split]].
  - f_equal; [|].
    + rewrite (map_ext _ (fun _ => Ret (RField K new))) by (intros r; now rewrite IF). apply map_const_seq.
    + f_equal. destruct (blocks t); [congruence|reflexivity].
  - intros x Hx. rewrite <- EM by exact Hx. assert (Hne : b <> st_next K st) by lia.
    unfold value_at. cbn [fl_type o]. destruct t; cbn [fl_buf fl_mesh new]; unfold real_at, complex_at; cbn [fl_buf fl_mesh fl_type]; rewrite ?put_all_other by exact Hne; reflexivity.
  - exact EN.
  - intros b' ad H1 H2. rewrite put_all_other by exact H1. unfold m1. rewrite put_all_other by exact H2. reflexivity.
Qed.
(** every rank refuses: nothing is written, no field is made *)
Lemma call_refused st u inputs out e (f : field K) : first_field K inputs out = Some f ->
  (forall r, computed K (st_mem K st) u inputs out r = Raise e) ->
  call K st u inputs out = (repeat (Raise e) (length (me_blocks K (fl_mesh K f) (fl_type K f))), st).
Proof.
  intros Ef H. unfold call. rewrite Ef. rewrite (map_ext _ _ (fun r => f_equal (pair r) (H r))).
  rewrite !map_map. cbn [fst snd bind].
  assert (E : forall A l, ret_list (A := A) (map (fun r : nat => (r, Raise e)) l) = []) by (intros A l; induction l; [reflexivity|exact IHl]).
  rewrite !E. cbn [filter put_all fold_left]. f_equal; [apply map_const_seq|]. destruct st, out; reflexivity.
Qed.
Lemma call_out_type st u inputs b : Forall (alike RealT) inputs -> uf_kind K u (map operand_kind inputs) = ComplexK ->
  call K st u inputs (Some (mkF K me RealT b)) = (repeat (Raise TypeError) (nranks RealT), st).
Proof.
  intros HF Hk. destruct (first_field_alike RealT inputs (Some (mkF K me RealT b)) HF) as [self [Es [E1 E2]]].
  { intros o E. injection E as <-. now split. } { right. discriminate. }
  rewrite (call_refused st u inputs _ TypeError self Es).
  - now rewrite E1, E2.
  - intros r. unfold computed. rewrite (operand_values_alike _ r RealT inputs HF). cbn [bind].
    destruct (apply_alike (st_mem K st) u RealT inputs r HF) as [s [-> _]]. cbn [bind]. unfold to_output. cbn. now rewrite Hk.
Qed.

(** ** programs *)
Variable junk : memory K -> addr -> K.
(** a statement of C68, or the call of a numpy function on fields and numbers, into a field if
    one is given.  [a + b] is [Apply add [a; b] None]; [a += b] is
    [Apply add [a; b] (Some a)] and makes a stand for the field it returns. *)
Inductive arg := ArgField (i : nat) | ArgNumber (k : kind) (z : C).
Inductive stmt := Do (o : op K) | Apply (u : ufunc K) (args : list arg) (out : option nat).
Definition operand_of (env : list (field K)) (a : arg) : outcome (operand K) :=
  match a with ArgField i => bind (field_of K env i) (fun f => Ret (OpField K f)) | ArgNumber k z => Ret (OpNumber K k z) end.
Fixpoint operands_of (env : list (field K)) (l : list arg) : outcome (list (operand K)) :=
  match l with
  | [] => Ret []
  | a :: l => bind (operand_of env a) (fun o => bind (operands_of env l) (fun l => Ret (o :: l)))
  end.
(** what the ranks agree on: a field, an array each, or an exception *)
Definition agree (x y : outcome (UfuncModel.result K)) : bool :=
  match x, y with
  | Ret (RField _ f), Ret (RField _ g) => ftype_eqb (fl_type K f) (fl_type K g) && (fl_buf K f =? fl_buf K g)%nat
  | Ret (RArray _ _), Ret (RArray _ _) => true
  | Raise TypeError, Raise TypeError => true
  | _, _ => false
  end.
Definition joined (l : list (outcome (UfuncModel.result K))) : outcome (option (field K)) :=
  match l with
  | x :: _ => if forallb (agree x) l
              then bind x (fun r => Ret match r with RField _ f => Some f | RArray _ _ => None end) else Garbage
  | [] => Garbage
  end.
Definition run_stmt (s : list (field K) * state K) (c : stmt) : outcome (list (field K) * state K) :=
  match c with
  | Do o => run_op K me junk s o
  | Apply u args out =>
      let (env, st) := s in
      bind (operands_of env args) (fun inputs =>
      bind (match out with None => Ret None | Some j => bind (field_of K env j) (fun f => Ret (Some f)) end) (fun out =>
      let r := call K st u inputs out in
      bind (joined (fst r)) (fun f => Ret (match f with Some f => env ++ [f] | None => env end, snd r))))
  end.
Fixpoint run_stmts (prog : list stmt) (s : list (field K) * state K) : outcome (list (field K) * state K) :=
  match prog with [] => Ret s | c :: prog => bind (run_stmt s c) (run_stmts prog) end.

(** the meaning: the same function of the contents, element by element *)
Inductive marg := MField (t : ftype) (b : buffer) | MNumber (k : kind) (z : C).
Definition marg_of (s : meaning K) (a : arg) : outcome marg :=
  match a with ArgField i => bind (name_of K s i) (fun f => Ret (MField (fst f) (snd f))) | ArgNumber k z => Ret (MNumber k z) end.
Fixpoint margs_of (s : meaning K) (l : list arg) : outcome (list marg) :=
  match l with
  | [] => Ret []
  | a :: l => bind (marg_of s a) (fun o => bind (margs_of s l) (fun l => Ret (o :: l)))
  end.
Definition marg_kind (a : marg) : kind := match a with MField t _ => type_kind t | MNumber k _ => k end.
Definition marg_type (a : marg) : option ftype := match a with MField t _ => Some t | MNumber _ _ => None end.
(** the numbers of an argument, if known *)
Definition marg_fun (s : meaning K) (a : marg) : option (list Z -> C) :=
  match a with
  | MNumber _ z => Some (fun _ => z)
  | MField t b => match seen K t (mn_of K s b) with
                  | RealC _ g => Some (fun x => cof (g x))
                  | ComplexC _ _ c => Some c
                  | Unknown _ => None
                  end
  end.
Fixpoint known {A} (l : list (option A)) : option (list A) :=
  match l with
  | [] => Some []
  | x :: l => match x, known l with Some x, Some l => Some (x :: l) | _, _ => None end
  end.
Definition elementwise (s : meaning K) (u : ufunc K) (t : ftype) (args : list marg) : content K :=
  match known (map (marg_fun s) args) with
  | None => Unknown K
  | Some fs => let h := fun x => as_kind K (uf_kind K u (map marg_kind args)) (uf_fun K u (map (fun f => f x) fs)) in
               match t with RealT => RealC K (fun x => re (h x)) | _ => ComplexC K t h end
  end.
Definition only (t : ftype) (l : list (option ftype)) : bool := forallb (fun x => match x with Some t' => ftype_eqb t t' | None => true end) l.
Fixpoint first_type (l : list (option ftype)) : option ftype :=
  match l with [] => None | Some t :: _ => Some t | None :: l => first_type l end.
(** no claim is made (Garbage) without a field and for fields of several types *)
Definition mean_stmt (s : meaning K) (c : stmt) : outcome (meaning K) :=
  match c with
  | Do o => mean_op K base n me s o
  | Apply u args out =>
      bind (margs_of s args) (fun l =>
      bind (match out with None => Ret None | Some j => bind (name_of K s j) (fun f => Ret (Some f)) end) (fun out =>
      let types := map marg_type l ++ match out with Some f => [Some (fst f)] | None => [] end in
      let k := uf_kind K u (map marg_kind l) in
      match first_type types with
      | None => Garbage
      | Some t =>
          if only t types then
            let x := elementwise s u t l in
            match out with
            | None => match k with BoolK => Ret s | _ => Ret (BufferProperties.result K s t None x) end
            | Some f => if can_cast k t then
                          Ret (BufferProperties.result K (mkM K (mn_env K s) (mn_next K s) (replace K (mn_of K s) (snd f) x)) t None x)
                        else Raise TypeError
            end
          else Garbage
      end))
  end.
Fixpoint mean_stmts (prog : list stmt) (s : meaning K) : outcome (meaning K) :=
  match prog with [] => Ret s | c :: prog => bind (mean_stmt s c) (mean_stmts prog) end.
Definition agrees (a : outcome (list (field K) * state K)) (b : outcome (meaning K)) : Prop :=
  match b with
  | Ret t => exists s, a = Ret s /\ related K base n me s t
  | Raise e => a = Raise e
  | _ => True
  end.
(** names are names of buffers that exist *)
Definition allocated (t : meaning K) : Prop := Forall (fun f => (snd f < mn_next K t)%nat) (mn_env K t).

Definition to_operand (a : marg) : operand K := match a with MField t b => OpField K (mkF K me t b) | MNumber k z => OpNumber K k z end.
Lemma operands_margs env t l : env = map (fun f => mkF K me (fst f) (snd f)) (mn_env K t) ->
  operands_of env l = bind (margs_of t l) (fun l => Ret (map to_operand l)).
Proof.
  intros E. induction l as [|a l IH]; [reflexivity|]. cbn [operands_of margs_of]. rewrite IH.
  assert (Ha : operand_of env a = bind (marg_of t a) (fun a => Ret (to_operand a))).
  { destruct a as [i|k z]; [|reflexivity]. cbn [operand_of marg_of]. rewrite (field_name K me env t i E). now destruct (name_of K t i). }
  rewrite Ha. destruct (marg_of t a); try reflexivity. cbn [bind]. now destruct (margs_of t l).
Qed.
Lemma to_operand_kind a : operand_kind (to_operand a) = marg_kind a.
Proof. now destruct a. Qed.
Lemma to_operand_kinds l : map operand_kind (map to_operand l) = map marg_kind l.
Proof. rewrite map_map. apply map_ext, to_operand_kind. Qed.
Lemma only_alike t l : only t (map marg_type l) = true -> Forall (alike t) (map to_operand l).
Proof.
  unfold only. intros H. rewrite forallb_forall in H. apply Forall_map, Forall_forall. intros a Ha. specialize (H (marg_type a) (in_map _ _ _ Ha)).
  destruct a as [t' b|k z]; cbn in *; [|exact Logic.I]. destruct (ftype_eqb_spec t t'); [auto|discriminate].
Qed.
Lemma marg_fun_at s a f x t ty : related K base n me s t -> match marg_type a with Some t => t = ty | None => True end ->
  marg_fun t a = Some f -> In x (domain ty) -> operand_at (st_mem K (snd s)) x (to_operand a) = f x.
Proof.
  intros (_ & _ & R) Hty Hf Hx. destruct a as [ty' b|k z]; cbn in *; [subst ty'|now injection Hf as <-]. specialize (R b).
  destruct (mn_of K t b) as [|g|ty' c]; cbn in *; [discriminate| |].
  - destruct ty; try discriminate. injection Hf as <-. unfold value_at. cbn. f_equal. now apply R.
  - destruct (ftype_eqb_spec ty' ty) as [->|]; [|discriminate]. injection Hf as <-. destruct R as [Ht R]. unfold value_at. cbn [fl_type].
    destruct ty; [contradiction|now apply R..].
Qed.
Lemma known_map s t fs l x ty : related K base n me s t -> known (map (marg_fun t) l) = Some fs -> only ty (map marg_type l) = true ->
  In x (domain ty) -> map (operand_at (st_mem K (snd s)) x) (map to_operand l) = map (fun f => f x) fs.
Proof.
  intros R. revert fs. induction l as [|a l IH]; intros fs Hf Ho Hx; cbn in Hf |- *; [now injection Hf as <-|].
  destruct (marg_fun t a) as [f|] eqn:Ea; [|discriminate]. destruct (known (map (marg_fun t) l)) as [fs'|]; [|discriminate].
  injection Hf as <-. cbn in Ho |- *. apply andb_true_iff in Ho. destruct Ho as [Ho1 Ho2]. f_equal; [|now apply IH].
  apply (marg_fun_at s a f x t ty); try assumption. destruct (marg_type a) as [t'|]; [|exact Logic.I]. destruct (ftype_eqb_spec ty t'); [now symmetry|discriminate].
Qed.
(** a buffer with the elements of the call contains what the meaning says *)
Lemma contains_elementwise s t u ty l m b : related K base n me s t -> only ty (map marg_type l) = true ->
  (forall x, In x (domain ty) -> value_at K m (mkF K me ty b) x = stored_as ty (outcome_at (st_mem K (snd s)) u (map to_operand l) x)) ->
  contains K base n me m b (elementwise t u ty l).
Proof.
  intros R Ho H. unfold elementwise. destruct (known (map (marg_fun t) l)) as [fs|] eqn:Ek; [|exact Logic.I].
  assert (HV : forall x, In x (domain ty) -> value_at K m (mkF K me ty b) x = stored_as ty (as_kind K (uf_kind K u (map marg_kind l)) (uf_fun K u (map (fun f => f x) fs)))).
  { intros x Hx. rewrite (H x Hx). unfold outcome_at. rewrite to_operand_kinds, (known_map s t fs l x ty R Ek Ho Hx). reflexivity. }
  clear H. unfold value_at in HV. destruct ty; cbn in *.
  - intros x Hx. specialize (HV x Hx). now injection HV.
  - split; [discriminate|exact HV].
  - split; [discriminate|exact HV].
Qed.
Lemma first_type_some l t : first_type l = Some t -> In (Some t) l.
Proof. induction l as [|[x|] l IH]; cbn; intros H; [discriminate|left; congruence|right; auto]. Qed.
Lemma joined_fields f k : (0 < k)%nat -> joined (repeat (Ret (RField K f)) k) = Ret (Some f).
Proof.
  intros H. destruct k as [|k]; [lia|]. cbn [repeat joined]. replace (forallb _ _) with true; [reflexivity|]. symmetry. apply forallb_forall.
  intros x Hx. change (Ret (RField K f) :: repeat (Ret (RField K f)) k) with (repeat (Ret (RField K f)) (S k)) in Hx. apply repeat_spec in Hx. subst x.
  cbn. rewrite Nat.eqb_refl, andb_true_r. now destruct (ftype_eqb_spec (fl_type K f) (fl_type K f)).
Qed.
Lemma joined_arrays (l : list (nda K)) : l <> [] -> joined (map (fun a => Ret (RArray K a)) l) = Ret None.
Proof.
  intros H. destruct l as [|a l]; [congruence|]. cbn [map joined]. replace (forallb _ _) with true; [reflexivity|]. symmetry. apply forallb_forall.
  intros x Hx. change (Ret (RArray K a) :: map (fun a => Ret (RArray K a)) l) with (map (fun a => Ret (RArray K a)) (a :: l)) in Hx. apply in_map_iff in Hx as [y [<- _]]. reflexivity.
Qed.
Lemma joined_refused k : (0 < k)%nat -> joined (repeat (Raise TypeError) k) = Raise TypeError.
Proof.
  intros H. destruct k as [|k]; [lia|]. cbn [repeat joined]. replace (forallb _ _) with true; [reflexivity|]. symmetry. apply forallb_forall.
  intros x Hx. change (Raise TypeError :: repeat (Raise TypeError) k) with (repeat (@Raise (UfuncModel.result K) TypeError) (S k)) in Hx. apply repeat_spec in Hx. subst x. reflexivity.
Qed.
Hypothesis nonempty : forall t, blocks t <> [].
Lemma blocks_pos t : (0 < nranks t)%nat.
Proof. specialize (nonempty t). destruct (blocks t); [congruence|cbn; lia]. Qed.
Lemma name_cases t i : (exists f, name_of K t i = Ret f /\ In f (mn_env K t)) \/ name_of K t i = Raise NameError.
Proof. unfold name_of. destruct (nth_error (mn_env K t) i) as [f|] eqn:E; [left; exists f; split; [reflexivity|eapply nth_error_In, E]|now right]. Qed.
Lemma margs_cases t l : (exists a, margs_of t l = Ret a) \/ margs_of t l = Raise NameError.
Proof.
  induction l as [|a l IH]; [left; eexists; reflexivity|]. cbn [margs_of].
  assert (Ha : (exists b, marg_of t a = Ret b) \/ marg_of t a = Raise NameError).
  { destruct a as [i|k z]; [|left; eexists; reflexivity]. cbn. destruct (name_cases t i) as [[f [-> _]]| ->]; [left; eexists; reflexivity|now right]. }
  destruct Ha as [[b ->]| ->]; [|now right]. cbn [bind]. destruct IH as [[l' ->]| ->]; [left; eexists; reflexivity|now right].
Qed.
Lemma run_stmt_ok s t c : related K base n me s t -> allocated t -> agrees (run_stmt s c) (mean_stmt t c).
Proof.
  intros R Al. destruct c as [o|u args out].
  { cbn [run_stmt mean_stmt]. pose proof (run_op_ok K base n me junk G s t o R) as H. unfold same_outcome in H. unfold agrees.
    destruct (mean_op K base n me t o); auto. }
  destruct s as [env st]. pose proof R as (E1 & E2 & E3). cbn [fst snd] in *. cbn [run_stmt mean_stmt].
  rewrite (operands_margs env t args E1). destruct (margs_cases t args) as [[l ->]| ->]; [|reflexivity]. cbn [bind].
  set (ins := map to_operand l).
  assert (Hkinds : map operand_kind ins = map marg_kind l) by apply to_operand_kinds.
  destruct out as [j|].
  - rewrite (field_name K me env t j E1). destruct (name_cases t j) as [[[tj bj] [-> Hj]]| ->]; [|reflexivity]. cbn [bind fst snd].
    assert (Hbj : (bj < st_next K st)%nat) by (rewrite E2; unfold allocated in Al; rewrite Forall_forall in Al; exact (Al _ Hj)).
    destruct (first_type _) as [ty|] eqn:Ef; [|exact Logic.I]. destruct (only ty _) eqn:Eo; [|exact Logic.I].
    unfold only in Eo. rewrite forallb_app in Eo. apply andb_true_iff in Eo. destruct Eo as [Eo Eo2]. cbn in Eo2.
    destruct (ftype_eqb_spec ty tj) as [->|]; [|discriminate].
    assert (HF : Forall (alike tj) ins) by (apply only_alike; exact Eo).
    destruct (can_cast (uf_kind K u (map marg_kind l)) tj) eqn:Ec.
    + rewrite <- Hkinds in Ec. destruct (call_out st u tj ins bj HF Ec (nonempty tj) Hbj) as (m' & -> & V1 & V2 & Fr).
      cbn [fst snd]. rewrite joined_fields by apply blocks_pos. cbn [bind agrees]. eexists. split; [reflexivity|].
      unfold related, BufferProperties.result. cbn. split; [rewrite E1, map_app; cbn; now rewrite E2|]. split; [now rewrite E2|].
      intros b'. unfold replace. rewrite <- E2. destruct (Nat.eqb_spec b' (st_next K st)) as [->|Hb'].
      * apply (contains_elementwise (env, st) t u tj l m' _ R Eo). exact V2.
      * destruct (Nat.eqb_spec b' bj) as [->|Hb2].
        -- apply (contains_elementwise (env, st) t u tj l m' _ R Eo). exact V1.
        -- specialize (E3 b'). destruct (mn_of K t b') as [|g|ty' c]; cbn in *; [exact Logic.I| |].
           ++ intros x Hx. rewrite <- (E3 x Hx). unfold real_at. cbn. now apply Fr.
           ++ split; [apply E3|]. intros x Hx. rewrite <- (proj2 E3 x Hx). unfold complex_at. cbn. now rewrite !Fr.
    + assert (X : tj = RealT /\ uf_kind K u (map operand_kind ins) = ComplexK).
      { rewrite Hkinds. destruct (uf_kind K u (map marg_kind l)), tj; cbn in Ec; try discriminate; auto. }
      destruct X as [-> X]. rewrite (call_out_type st u ins bj HF X). cbn [fst snd].
      rewrite joined_refused by apply blocks_pos. reflexivity.
  - cbn [bind]. rewrite app_nil_r. destruct (first_type _) as [ty|] eqn:Ef; [|exact Logic.I]. destruct (only ty _) eqn:Eo; [|exact Logic.I].
    assert (HF : Forall (alike ty) ins) by (apply only_alike; exact Eo).
    assert (HE : Exists is_field ins).
    { apply first_type_some in Ef. apply in_map_iff in Ef as [a [Ea Hin]]. apply Exists_exists. exists (to_operand a). split; [now apply in_map|]. destruct a; [exact Logic.I|discriminate]. }
    assert (X : uf_kind K u (map marg_kind l) <> BoolK -> agrees
       (let r := call K st u ins None in bind (joined (fst r)) (fun f => Ret (match f with Some f => env ++ [f] | None => env end, snd r)))
       (Ret (BufferProperties.result K t ty None (elementwise t u ty l)))).
    { intros Hk. rewrite <- Hkinds in Hk. destruct (call_new st u ty ins HF HE Hk (nonempty ty)) as (m' & -> & V & Fr).
      cbn [fst snd]. rewrite joined_fields by apply blocks_pos. cbn [bind agrees]. eexists. split; [reflexivity|].
      rewrite E2. apply (result_related K base n me env st _ t ty None _ R); cbn.
      - split; [cbn; lia|]. intros b a Hb. cbn. apply Fr. now rewrite E2.
      - now rewrite E2.
      - rewrite <- E2. apply (contains_elementwise (env, st) t u ty l m' _ R Eo). exact V. }
    destruct (uf_kind K u (map marg_kind l)) eqn:Ek; [|apply X; discriminate..].
    rewrite <- Hkinds in Ek. destruct (call_bool st u ty ins HF HE Ek) as (l' & -> & Hl & _). cbn [fst snd].
    rewrite joined_arrays by (pose proof (blocks_pos ty); destruct l'; [cbn in Hl; lia|discriminate]).
    cbn [bind agrees]. eexists. split; [reflexivity|exact R].
Qed.
Lemma allocated_result t ty b x : allocated t -> (forall b', b = Some b' -> (b' < mn_next K t)%nat) -> allocated (BufferProperties.result K t ty b x).
Proof.
  intros H Hb. unfold allocated, BufferProperties.result in *. cbn. apply Forall_app. split.
  - eapply Forall_impl; [|exact H]. cbn. intros f Hf. destruct b; lia.
  - constructor; [|constructor]. cbn. destruct b as [b|]; [now apply Hb|lia].
Qed.
Lemma allocated_in t f : allocated t -> In f (mn_env K t) -> (snd f < mn_next K t)%nat.
Proof. unfold allocated. rewrite Forall_forall. auto. Qed.
Lemma allocated_target t b ty o r : allocated t -> (b < mn_next K t)%nat -> target K t b ty o = Ret r ->
  forall b', snd r = Some b' -> (b' < mn_next K t)%nat.
Proof.
  intros Al Hb H b' Hb'. destruct o as [| |j]; cbn in H.
  - injection H as <-. discriminate.
  - injection H as <-. cbn in Hb'. congruence.
  - destruct (name_cases t j) as [[f [E Hf]]|E]; rewrite E in H; [|discriminate]. cbn in H. injection H as <-. cbn in Hb'. injection Hb' as <-. now apply allocated_in.
Qed.
Lemma allocated_op t o t' : allocated t -> mean_op K base n me t o = Ret t' -> allocated t'.
Proof.
  intros Al H. destruct o as [g|ty c|i ty|i|i o|i o|i ty o]; cbn [mean_op] in H.
  - injection H as <-. apply allocated_result; [exact Al|discriminate].
  - destruct ty; [discriminate|..]; injection H as <-; (apply allocated_result; [exact Al|discriminate]).
  - destruct (name_cases t i) as [[f [E Hf]]|E]; rewrite E in H; [|discriminate]. cbn in H. injection H as <-. unfold allocated in *. cbn. apply Forall_app. split; [exact Al|].
    constructor; [|constructor]. cbn. now apply allocated_in.
  - destruct (name_cases t i) as [[f [E Hf]]|E]; rewrite E in H; [|discriminate]. cbn in H. injection H as <-. apply allocated_result; [exact Al|discriminate].
  - destruct (name_cases t i) as [[f [E Hf]]|E]; rewrite E in H; [|discriminate]. cbn [bind] in H.
    destruct (target K t (snd f) TransposedT o) as [r|e| |] eqn:Et; try discriminate. cbn [bind] in H.
    pose proof (allocated_target t _ _ _ r Al (allocated_in t f Al Hf) Et) as Hr.
    destruct (fst f); try discriminate. destruct (fst r); try discriminate; injection H as <-; (apply allocated_result; [exact Al|exact Hr]).
  - destruct (name_cases t i) as [[f [E Hf]]|E]; rewrite E in H; [|discriminate]. cbn [bind] in H.
    destruct (target K t (snd f) RealT o) as [r|e| |] eqn:Et; try discriminate. cbn [bind] in H.
    pose proof (allocated_target t _ _ _ r Al (allocated_in t f Al Hf) Et) as Hr.
    destruct (fst f); try discriminate; destruct (fst r); try discriminate; injection H as <-; (apply allocated_result; [exact Al|exact Hr]).
  - destruct (name_cases t i) as [[f [E Hf]]|E]; rewrite E in H; [|discriminate]. cbn [bind] in H.
    destruct o as [j|]; cbn [bind] in H.
    + destruct (name_cases t j) as [[f' [E' Hf']]|E']; rewrite E' in H; [|discriminate]. cbn [bind] in H. injection H as <-.
      apply allocated_result; [exact Al|]. intros b' Hb'. injection Hb' as <-. now apply allocated_in.
    + injection H as <-. apply allocated_result; [exact Al|discriminate].
Qed.
Lemma allocated_stmt t c t' : allocated t -> mean_stmt t c = Ret t' -> allocated t'.
Proof.
  intros Al H. destruct c as [o|u args out]; [eapply allocated_op; eassumption|]. cbn [mean_stmt] in H.
  destruct (margs_of t args) as [l|e| |]; try discriminate. cbn [bind] in H. destruct out as [j|].
  - destruct (name_cases t j) as [[f [E Hf]]|E]; rewrite E in H; [|discriminate]. cbn [bind] in H.
    destruct (first_type _) as [ty|]; [|discriminate]. destruct (only _ _); [|discriminate]. destruct (can_cast _ _); [|discriminate].
    injection H as <-. apply allocated_result; [exact Al|discriminate].
  - cbn [bind] in H. destruct (first_type _) as [ty|]; [|discriminate]. destruct (only _ _); [|discriminate].
    destruct (uf_kind _ _ _); injection H as <-; [exact Al|apply allocated_result; [exact Al|discriminate]..].
Qed.
Lemma run_stmts_ok prog : forall s t, related K base n me s t -> allocated t -> agrees (run_stmts prog s) (mean_stmts prog t).
Proof.
  induction prog as [|c prog IH]; intros s t R Al; [cbn; eauto|]. cbn [run_stmts mean_stmts].
  pose proof (run_stmt_ok s t c R Al) as H1. pose proof (fun t' => allocated_stmt t c t' Al) as H2. unfold agrees in H1.
  destruct (mean_stmt t c) as [t'|e| |]; cbn [bind agrees]; [|now rewrite H1|exact Logic.I..].
  destruct H1 as (s' & -> & R'). cbn [bind]. apply IH; [exact R'|now apply H2].
Qed.

(** ** C85 *)
(** An operator or numpy function of fields of one type and mesh, and of numbers: all ranks
    return the same new field, of this type and mesh, and each of its elements is the function of the
    elements at the same place (of its real part for a real field).  No other memory
    changes, in particular not that of the operands. *)
Theorem C85_call : forall st u t inputs, Forall (alike t) inputs -> Exists is_field inputs ->
  uf_kind K u (map operand_kind inputs) <> BoolK ->
  exists st', call K st u inputs None = (repeat (Ret (RField K (mkF K me t (st_next K st)))) (nranks t), st') /\
    (forall x, In x (domain t) -> value_at K (st_mem K st') (mkF K me t (st_next K st)) x =
       stored_as t (as_kind K (uf_kind K u (map operand_kind inputs)) (uf_fun K u (map (operand_at (st_mem K st) x) inputs)))) /\
    (forall b a, b <> st_next K st -> st_mem K st' b a = st_mem K st b a).
Proof.
  intros st u t inputs HF HE Hk. destruct (call_new st u t inputs HF HE Hk (nonempty t)) as (m' & H1 & H2 & H3).
  eexists. split; [exact H1|]. split; [exact H2|exact H3].
Qed.
(** A comparison: each rank gets an array of its own part; no memory changes. *)
Theorem C85_compare : forall st u t inputs, Forall (alike t) inputs -> Exists is_field inputs ->
  uf_kind K u (map operand_kind inputs) = BoolK ->
  exists l, call K st u inputs None = (map (fun a => Ret (RArray K a)) l, st) /\ length l = nranks t /\
    forall r, (r < nranks t)%nat -> exists a, nth_error l r = Some a /\ nd_kind K a = BoolK /\ nd_shape K a = snd (nth r (blocks t) ([], [])) /\
      forall i, In i (cells_of (nd_shape K a)) ->
        nd_val K a i = cof (re (uf_fun K u (map (operand_at (st_mem K st) (zadd (fst (nth r (blocks t) ([], []))) i)) inputs))).
Proof.
  intros st u t inputs HF HE Hk. destruct (call_bool st u t inputs HF HE Hk) as (l & H1 & H2 & H3).
  exists l. split; [exact H1|]. split; [exact H2|]. intros r Hr. destruct (H3 r Hr) as (a & A1 & A2 & A3 & A4).
  exists a. split; [exact A1|]. split; [exact A2|]. split; [exact A3|]. intros i Hi. rewrite A3 in Hi. rewrite (A4 i Hi).
  unfold outcome_at. now rewrite Hk.
Qed.
(** With an output of the same type, which may be an operand or share its memory ([a += b]): the output
    holds the result, and so does the new field that is returned; nothing else changes. *)
Theorem C85_out : forall st u t inputs b, Forall (alike t) inputs -> (b < st_next K st)%nat ->
  (t = RealT -> uf_kind K u (map operand_kind inputs) <> ComplexK) ->
  exists st', call K st u inputs (Some (mkF K me t b)) = (repeat (Ret (RField K (mkF K me t (st_next K st)))) (nranks t), st') /\
    (forall b' x, b' = b \/ b' = st_next K st -> In x (domain t) -> value_at K (st_mem K st') (mkF K me t b') x =
       stored_as t (as_kind K (uf_kind K u (map operand_kind inputs)) (uf_fun K u (map (operand_at (st_mem K st) x) inputs)))) /\
    (forall b' a, b' <> st_next K st -> b' <> b -> st_mem K st' b' a = st_mem K st b' a).
Proof.
  intros st u t inputs b HF Hb Hk. destruct (call_out st u t inputs b HF) as (m' & H1 & H2 & H3 & H4); [|apply nonempty|exact Hb|].
  - destruct (uf_kind K u (map operand_kind inputs)), t; try reflexivity. now destruct (Hk eq_refl).
  - eexists. split; [exact H1|]. split; [|exact H4]. intros b' x [-> | ->] Hx; [now apply H2|now apply H3].
Qed.
(** Complex numbers into a real field: every rank raises, nothing is written. *)
Theorem C85_out_type : forall st u inputs b, Forall (alike RealT) inputs -> uf_kind K u (map operand_kind inputs) = ComplexK ->
  call K st u inputs (Some (mkF K me RealT b)) = (repeat (Raise TypeError) (nranks RealT), st).
Proof. intros. now apply call_out_type. Qed.
(** An operand that is not a field, a number or an array: every rank raises, nothing is written. *)
Theorem C85_other : forall st u inputs out f, In (OpOther K) inputs -> first_field K inputs out = Some f ->
  call K st u inputs out = (repeat (Raise TypeError) (length (me_blocks K (fl_mesh K f) (fl_type K f))), st).
Proof.
  intros st u inputs out f Hi Ef. apply call_refused; [exact Ef|]. intros r. unfold computed.
  assert (E : operand_values K (st_mem K st) r inputs = Raise TypeError); [|now rewrite E].
  clear Ef. induction inputs as [|o l IH]; [contradiction|]. cbn [operand_values]. destruct Hi as [->|Hi]; [reflexivity|].
  rewrite (IH Hi). destruct o; reflexivity.
Qed.
(** An array operand whose shape does not fit that of the field: sizes of one axis, counted from the last, that differ and
    are both not one.  The rank that holds it raises ValueError. *)
Lemma brev_none a b i x y : nth_error a i = Some x -> nth_error b i = Some y -> x <> y -> x <> 1 -> y <> 1 -> brev a b = None.
Proof.
  revert b i. induction a as [|u a IH]; intros [|v b] [|i] Ha Hb D X Y; try discriminate; cbn [brev nth_error] in *.
  - inversion Ha. inversion Hb. subst u v. unfold bdim. destruct (Z.eqb_spec x y); [contradiction|]. destruct (Z.eqb_spec x 1); [contradiction|].
    destruct (Z.eqb_spec y 1); [contradiction|]. reflexivity.
  - rewrite (IH b i Ha Hb D X Y). now destruct (bdim u v).
Qed.
Theorem C85_shapes : forall st u t b l r a i x y,
  nth_error (me_blocks K me t) r <> None -> nth_error l r = Some a ->
  nth_error (rev (snd (nth r (me_blocks K me t) ([], [])))) i = Some x -> nth_error (rev (nd_shape K a)) i = Some y -> x <> y -> x <> 1 -> y <> 1 ->
  nth_error (fst (call K st u [OpField K (mkF K me t b); OpArray K l] None)) r = Some (Raise ValueError).
Proof.
  intros st u t b l r a i x y Hr Hl Hx Hy D X Y. unfold call. cbn [first_field fl_mesh fl_type fst].
  assert (Lr : (r < length (me_blocks K me t))%nat) by now apply nth_error_Some.
  rewrite !map_map. assert (Es : nth_error (seq 0 (length (me_blocks K me t))) r = Some r)
    by (rewrite (nth_error_nth' _ 0%nat) by (now rewrite seq_length); now rewrite seq_nth).
  rewrite (map_nth_error _ _ _ Es). cbn [fst snd].
  assert (E : computed K (st_mem K st) u [OpField K (mkF K me t b); OpArray K l] None r = Raise ValueError).
  { unfold computed. cbn [operand_values operand_value bind]. unfold apply_ufunc. cbn [map field_value nd_shape broadcast_all].
    unfold block_of. cbn [fl_mesh fl_type]. rewrite (nth_error_nth l r _ Hl), broadcast_nil_r. unfold broadcast.
    rewrite (brev_none _ _ i x y Hx Hy D X Y). reflexivity. }
  rewrite E. reflexivity.
Qed.
(** Programs of transforms, copies, casts, shared views and arithmetic: exceptions are those
    of missing names and wrong types, and otherwise every buffer holds what the program says. *)
Theorem C85_programs : forall prog m0 next,
  agrees (run_stmts prog ([], mkS K m0 next)) (mean_stmts prog (mkM K [] next (fun _ => Unknown K))).
Proof.
  intros prog m0 next. apply run_stmts_ok; [|constructor]. split; [reflexivity|]. split; [reflexivity|]. intros b. exact Logic.I.
Qed.
End Mesh.
End Fields.
Print Assumptions C85_call.
Print Assumptions C85_compare.
Print Assumptions C85_out.
Print Assumptions C85_out_type.
Print Assumptions C85_other.
Print Assumptions C85_shapes.
Print Assumptions C85_programs.

(** ** the mesh of C68 *)
Definition kind_max (l : list kind) : kind :=
  fold_right (fun a b => match a, b with ComplexK, _ | _, ComplexK => ComplexK | BoolK, BoolK => BoolK | _, _ => RealK end) BoolK l.
Definition u_add : ufunc Qcring := mkUf Qcring kind_max (fun l => fold_right (@cadd Qcring) c0 l).
Definition u_mul : ufunc Qcring := mkUf Qcring kind_max (fun l => fold_right (@cmul Qcring) (cof (ex_q 1)) l).
Definition u_same : ufunc Qcring := mkUf Qcring (fun _ => BoolK)
  (fun l => match l with [a; b] => if Qc_eq_dec (re a) (re b) then cof (ex_q 1) else c0 | _ => c0 end).
Lemma bx_nonempty padded t : me_blocks Qcring (bx_mesh padded) t <> [].
Proof. destruct t; discriminate. Qed.
Definition num (z : Z) : arg Qcring := ArgNumber Qcring RealK (cof (ex_q z)).
(** a = field; b = a * 2 + a; b is transformed in place; its modes are added to themselves in
    place; back: six times the field.  The comparison with itself adds no field. *)
Definition bx_sum : list (stmt Qcring) :=
  [Do Qcring (NewReal Qcring ex_real);
   Apply Qcring u_mul [ArgField Qcring 0; num 2] None;
   Apply Qcring u_add [ArgField Qcring 1; ArgField Qcring 0] (Some 1%nat);
   Apply Qcring u_same [ArgField Qcring 1; ArgField Qcring 2] None;
   Do Qcring (R2C Qcring 2%nat ToSelf);
   Apply Qcring u_add [ArgField Qcring 3; ArgField Qcring 3] (Some 3%nat);
   Do Qcring (C2R Qcring 4%nat ToNew)]%nat.
Example C85_case : forall padded,
  match run_stmts Qcring (bx_mesh padded) bx_junk bx_sum ([], bx_start) with
  | Ret (env, st) => match env with
      | [a; b; c; d; e; f] => (map (fl_buf Qcring) env, reals a st, reals b st, reals f st) =
         ([3; 4; 5; 5; 6; 7]%nat, map (fun x => this (ex_real x)) (cells_of [4; 2]),
          map (fun x => this (ex_q 3 * ex_real x)%Qc) (cells_of [4; 2]), map (fun x => this (ex_q 6 * ex_real x)%Qc) (cells_of [4; 2]))
      | _ => False
      end
  | _ => False
  end.
Proof. intros []; vm_compute; reflexivity. Qed.
(** the hypotheses hold *)
Example C85_hypotheses : forall padded st,
  let a := mkF Qcring (bx_mesh padded) RealT 0%nat in
  exists st', call Qcring st u_add [OpField Qcring a; OpNumber Qcring RealK (cof (ex_q 7))] None =
      ([Ret (RField Qcring (mkF Qcring (bx_mesh padded) RealT (st_next Qcring st))); Ret (RField Qcring (mkF Qcring (bx_mesh padded) RealT (st_next Qcring st)))], st') /\
    forall x, In x (cells_of [4; 2]) -> value_at Qcring (st_mem Qcring st') (mkF Qcring (bx_mesh padded) RealT (st_next Qcring st)) x =
      cof (K := Qcring) (real_at Qcring (st_mem Qcring st) a x + (ex_q 7 + ex_q 0))%Qc.
Proof.
  intros padded st a. destruct (C85_call Qcring [4] 2 (bx_mesh padded) (bx_good padded) (bx_nonempty padded) st u_add RealT
    [OpField Qcring a; OpNumber Qcring RealK (cof (ex_q 7))]) as (st' & E & V & _).
  - repeat constructor.
  - now constructor.
  - discriminate.
  - exists st'. split; [exact E|]. intros x Hx. rewrite (V x Hx). reflexivity.
Qed.

(** [b = a; a += 1; a += 1]: the operator returns a new field (pm.py:199), to which the name is
    bound, so a and b part: b sees the first statement and not the second. *)
Definition bx_twice : list (stmt Qcring) :=
  [Do Qcring (NewReal Qcring ex_real);
   Apply Qcring u_add [ArgField Qcring 0; num 1] (Some 0%nat);
   Apply Qcring u_add [ArgField Qcring 1; num 1] (Some 1%nat)]%nat.
Theorem C85_rebind_refuted : forall padded,
  match run_stmts Qcring (bx_mesh padded) bx_junk bx_twice ([], bx_start) with
  | Ret (env, st) => match env with
      | [b; _; a] => reals a st = map (fun x => this (ex_real x + ex_q 2)%Qc) (cells_of [4; 2]) /\
                     reals b st = map (fun x => this (ex_real x + ex_q 1)%Qc) (cells_of [4; 2]) /\ reals a st <> reals b st
      | _ => False
      end
  | _ => False
  end.
Proof. intros []; vm_compute; (split; [reflexivity|split; [reflexivity|discriminate]]). Qed.
(** A real field times i is a real field of zeros, without an error; in place the same product
    raises. *)
Theorem C85_imaginary_refuted : forall padded,
  let a := mkF Qcring (bx_mesh padded) RealT 0%nat in let i := OpNumber Qcring ComplexK (ex_q 0, ex_q 1) in
  let new := mkF Qcring (bx_mesh padded) RealT 3%nat in
  (exists st', call Qcring (bx_real_st padded) u_mul [OpField Qcring a; i] None = ([Ret (RField Qcring new); Ret (RField Qcring new)], st') /\
     reals new st' = [0; 0; 0; 0; 0; 0; 0; 0]%Q) /\
  call Qcring (bx_real_st padded) u_mul [OpField Qcring a; i] (Some a) = ([Raise TypeError; Raise TypeError], bx_real_st padded).
Proof.
  intros padded a i new. split.
  - eexists. split; [reflexivity|]. destruct padded; vm_compute; reflexivity.
  - apply (C85_out_type Qcring (bx_mesh padded)); [repeat constructor|reflexivity].
Qed.
(** A real field and a complex one are added if their local arrays happen to have equal shapes, which
    the code does not exclude: cell values plus modes, as a real field. *)
Theorem C85_mixed_refuted : forall padded,
  let a := mkF Qcring (bx_mesh padded) RealT 0%nat in let c := mkF Qcring (bx_mesh padded) UntransposedT 1%nat in
  let new := mkF Qcring (bx_mesh padded) RealT 3%nat in
  exists st', call Qcring (bx_real_st padded) u_add [OpField Qcring a; OpField Qcring c] None = ([Ret (RField Qcring new); Ret (RField Qcring new)], st') /\
    forallb (fun x => Qeq_bool (this (real_at Qcring (st_mem Qcring st') new x))
       (this (real_at Qcring (st_mem Qcring (bx_real_st padded)) a x + re (complex_at Qcring (st_mem Qcring (bx_real_st padded)) c x))%Qc)) (cells_of [4; 2]) = true.
Proof. intros padded a c new. eexists. split; [reflexivity|]. destruct padded; vm_compute; reflexivity. Qed.
(** An array is combined with the part of each rank as numpy broadcasts it, and whether the result is a
    field is decided by each rank.  3 x 2 cells on two ranks, two rows on the first and one
    on the second; an array of two rows: a field on the first rank, an array on the second. *)
Definition by_mesh : mesh Qcring := mkMesh Qcring [3; 2] ex_roots ex_invs true (fun _ => [([0; 0], [2; 2]); ([2; 0], [1; 2])]) bx_at.
Theorem C85_ranks_refuted : let rows := mkNd Qcring RealK [2; 2] (fun i => cof (ex_q (nth 0 i 0))) in
  match fst (call Qcring bx_start u_add [OpField Qcring (mkF Qcring by_mesh RealT 0%nat); OpArray Qcring [rows; rows]] None) with
  | [Ret (RField _ f); Ret (RArray _ a)] => f = mkF Qcring by_mesh RealT 3%nat /\ nd_shape Qcring a = [2; 2]
  | _ => False
  end.
Proof. split; reflexivity. Qed.
Print Assumptions C85_rebind_refuted.
Print Assumptions C85_imaginary_refuted.
Print Assumptions C85_mixed_refuted.
Print Assumptions C85_ranks_refuted.
