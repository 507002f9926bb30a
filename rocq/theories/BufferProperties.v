(** Properties C68 and C69: transforms, copies and casts in any order, in place or
    not, on fields that may share memory (pmesh/pm.py:217-265, 450-547, 655-694,
    987-1019, 1601-1633). *)
From Coq Require Import List Arith ZArith QArith Lia Bool Permutation Ring Qcanon.
From Verif Require Import Base ListFacts LayoutModel WrapModel WrapProofs DomainModel DomainFill MeshModel MeshAssign
  MeshRoute MeshTile RingModel FieldModel FieldFacts FieldProperties FieldSort FieldResample FieldNorm FourierModel FourierFacts
  FourierProperties BufferModel BufferProofs.
Import ListNotations.
Local Close Scope Qc_scope.
Local Close Scope Q_scope.
Local Open Scope Z_scope.

Section Programs.
Variable K : cring.
Local Notation C := (cpx K).
Variables (base : list Z) (n : Z) (me : mesh K).
Variable junk : memory K -> addr -> K.

(** ** programs over fields of one mesh *)
(** a program names fields by their number; [Alias] is pm.create(type, base=f._base) *)
Inductive out_ref := ToNew | ToSelf | To (j : nat).
Inductive op :=
| NewReal (g : list Z -> K)
| NewComplex (t : ftype) (c : list Z -> C)
| Alias (i : nat) (t : ftype)
| Copy (i : nat)
| R2C (i : nat) (o : out_ref)
| C2R (i : nat) (o : out_ref)
| Cast (i : nat) (t : ftype) (o : option nat).

Definition field_of (env : list (field K)) (i : nat) : outcome (field K) :=
  match nth_error env i with Some f => Ret f | None => Raise NameError end.
Definition out_of (env : list (field K)) (o : out_ref) : outcome (out_arg K) :=
  match o with
  | ToNew => Ret (OutNone K)
  | ToSelf => Ret (OutSelf K)
  | To j => bind (field_of env j) (fun f => Ret (OutField K f))
  end.
Definition push (env : list (field K)) (r : field K * state K) : list (field K) * state K := (env ++ [fst r], snd r).
(** one statement of the program, run by the model of the code *)
Definition run_op (s : list (field K) * state K) (o : op) : outcome (list (field K) * state K) :=
  let (env, st) := s in
  match o with
  | NewReal g => Ret (push env (create_real K st me None (on_blocks g (me_blocks K me RealT))))
  | NewComplex t c =>
      match t with
      | RealT => Raise ValueError
      | _ => Ret (push env (create_complex K st me t None (on_blocks c (me_blocks K me t))))
      end
  | Alias i t => bind (field_of env i) (fun f => Ret (push env (create K st me t (Some (fl_buf K f)))))
  | Copy i => bind (field_of env i) (fun f => Ret (push env (copy K st f)))
  | R2C i o => bind (field_of env i) (fun f => bind (out_of env o) (fun o => bind (r2c K junk st f o) (fun r => Ret (push env r))))
  | C2R i o => bind (field_of env i) (fun f => bind (out_of env o) (fun o => bind (c2r K junk st f o) (fun r => Ret (push env r))))
  | Cast i t o =>
      bind (field_of env i) (fun f =>
      bind (match o with None => Ret None | Some j => bind (field_of env j) (fun f => Ret (Some f)) end) (fun o =>
      bind (cast K junk st f t o) (fun r => Ret (push env r))))
  end.
Fixpoint run (prog : list op) (s : list (field K) * state K) : outcome (list (field K) * state K) :=
  match prog with [] => Ret s | o :: prog => bind (run_op s o) (run prog) end.

(** ** what a program means *)
(** fields are names of buffers; a statement replaces the content of the buffer of
    its result by the transform of what its argument reads, and nothing else *)
Record meaning := mkM { mn_env : list (ftype * buffer); mn_next : buffer; mn_of : buffer -> content K }.
Definition replace (A : buffer -> content K) (b : buffer) (x : content K) : buffer -> content K :=
  fun b' => if (b' =? b)%nat then x else A b'.
Definition result (s : meaning) (t : ftype) (b : option buffer) (x : content K) : meaning :=
  let fresh := match b with None => true | _ => false end in
  let b := match b with Some b => b | None => mn_next s end in
  mkM (mn_env s ++ [(t, b)]) (if fresh then S (mn_next s) else mn_next s) (replace (mn_of s) b x).
Definition name_of (s : meaning) (i : nat) : outcome (ftype * buffer) :=
  match nth_error (mn_env s) i with Some f => Ret f | None => Raise NameError end.
Definition target (s : meaning) (self : buffer) (t : ftype) (o : out_ref) : outcome (ftype * option buffer) :=
  match o with
  | ToNew => Ret (t, None)
  | ToSelf => Ret (t, Some self)
  | To j => bind (name_of s j) (fun f => Ret (fst f, Some (snd f)))
  end.
Definition mean_op (s : meaning) (o : op) : outcome meaning :=
  match o with
  | NewReal g => Ret (result s RealT None (RealC K g))
  | NewComplex t c => match t with RealT => Raise ValueError | _ => Ret (result s t None (ComplexC K t c)) end
  | Alias i t => bind (name_of s i) (fun f => Ret (mkM (mn_env s ++ [(t, snd f)]) (mn_next s) (mn_of s)))
  | Copy i => bind (name_of s i) (fun f => Ret (result s (fst f) None (seen K (fst f) (mn_of s (snd f)))))
  | R2C i o => bind (name_of s i) (fun f => bind (target s (snd f) TransposedT o) (fun r =>
      match fst f with
      | RealT => match fst r with
                 | RealT => Raise AssertionError
                 | t => Ret (result s t (snd r) (forward K base n me t (seen K RealT (mn_of s (snd f)))))
                 end
      | _ => Raise AttributeError
      end))
  | C2R i o => bind (name_of s i) (fun f => bind (target s (snd f) RealT o) (fun r =>
      match fst f with
      | RealT => Raise AttributeError
      | t => match fst r with
             | RealT => Ret (result s RealT (snd r) (backward K base n me (seen K t (mn_of s (snd f)))))
             | _ => Raise AssertionError
             end
      end))
  | Cast i t o => bind (name_of s i) (fun f =>
      bind (match o with None => Ret None | Some j => bind (name_of s j) (fun g => Ret (Some (snd g))) end) (fun b =>
      Ret (result s t b (converted K base n me (fst f) t (seen K (fst f) (mn_of s (snd f)))))))
  end.
Fixpoint mean (prog : list op) (s : meaning) : outcome meaning :=
  match prog with [] => Ret s | o :: prog => bind (mean_op s o) (mean prog) end.

(** ** the model of the code computes the meaning *)
Hypothesis G : good K base n me.
Definition related (s : list (field K) * state K) (t : meaning) : Prop :=
  fst s = map (fun f => mkF K me (fst f) (snd f)) (mn_env t) /\
  st_next K (snd s) = mn_next t /\
  forall b, contains K base n me (st_mem K (snd s)) b (mn_of t b).
Definition same_outcome (a : outcome (list (field K) * state K)) (b : outcome meaning) : Prop :=
  match b with
  | Ret t => exists s, a = Ret s /\ related s t
  | Raise e => a = Raise e
  | _ => False
  end.

Lemma field_name env t i : env = map (fun f => mkF K me (fst f) (snd f)) (mn_env t) ->
  field_of env i = bind (name_of t i) (fun f => Ret (mkF K me (fst f) (snd f))).
Proof. intros ->. unfold field_of, name_of. rewrite nth_error_map. destruct (nth_error (mn_env t) i); reflexivity. Qed.
Lemma result_related env st st' t ty b x : related (env, st) t ->
  only_changes K st st' (match b with Some b => b | None => mn_next t end) ->
  st_next K st' = match b with None => S (st_next K st) | _ => st_next K st end ->
  contains K base n me (st_mem K st') (match b with Some b => b | None => mn_next t end) x ->
  related (env ++ [mkF K me ty (match b with Some b => b | None => mn_next t end)], st') (result t ty b x).
Proof.
  intros (E1 & E2 & E3) O En Hx. cbn in *. subst env. unfold related, result. cbn. split; [now rewrite map_app|].
  split; [rewrite En; destruct b; congruence|]. intros b'. unfold replace.
  set (b0 := match b with Some b => b | None => mn_next t end) in *. clearbody b0.
  destruct (Nat.eqb_spec b' b0) as [->|Hb]; [exact Hx|].
  eapply contains_frame; [exact O|exact Hb|apply E3].
Qed.

Lemma target_out env t i o ty : env = map (fun f => mkF K me (fst f) (snd f)) (mn_env t) ->
  match target t i ty o with
  | Ret (ty', b) => exists oa, out_of env o = Ret oa /\
      (forall st self, fl_buf K self = i -> st_next K st = mn_next t ->
         result_of K me st self ty oa = mkF K me ty' (match b with Some b => b | None => mn_next t end)) /\
      (forall st : state K, match oa with OutNone _ => S (st_next K st) | _ => st_next K st end = match b with None => S (st_next K st) | _ => st_next K st end) /\
      (forall f, oa = OutField K f -> fl_mesh K f = me /\ fl_type K f = ty') /\ ((forall f, oa <> OutField K f) -> ty' = ty)
  | Raise e => out_of env o = Raise e
  | _ => False
  end.
Proof.
  intros E. destruct o as [| |j]; cbn.
  - exists (OutNone K). split; [reflexivity|]. split; [intros st self _ En; cbn; now rewrite En|]. split; [reflexivity|]. split; [intros f H; discriminate H|auto].
  - exists (OutSelf K). split; [reflexivity|]. split; [intros st self <- _; reflexivity|]. split; [reflexivity|]. split; [intros f H; discriminate H|auto].
  - rewrite (field_name env t j E). unfold name_of. destruct (nth_error (mn_env t) j) as [[ty' b]|]; cbn; [|reflexivity].
    eexists. split; [reflexivity|]. split; [reflexivity|]. split; [reflexivity|]. split; [intros f H; injection H as <-; cbn; auto|].
    intros H. exfalso. eapply H. reflexivity.
Qed.

Lemma run_op_ok s t o : related s t -> same_outcome (run_op s o) (mean_op t o).
Proof.
  intros R. destruct s as [env st]. pose proof R as (E1 & E2 & E3). cbn [fst snd] in *. destruct o as [g|ty c|i ty|i|i o|i o|i ty o]; cbn [run_op mean_op].
  - unfold same_outcome, push, create_real. cbn. eexists. split; [reflexivity|]. rewrite E2.
    apply (result_related env st _ t RealT None _ R); cbn.
    + split; [cbn; lia|]. intros b a Hb. cbn. now apply put_real_other.
    + now rewrite E2.
    + apply (put_real_is K base n me G); [|apply on_blocks_holds]. eapply on_blocks_tiles, (go_real _ _ _ _ G).
  - assert (X : ty <> RealT -> same_outcome (Ret (push env (create_complex K st me ty None (on_blocks c (me_blocks K me ty))))) (Ret (result t ty None (ComplexC K ty c)))).
    { intros Ht. unfold same_outcome, push, create_complex. cbn. eexists. split; [reflexivity|]. rewrite E2.
      apply (result_related env st _ t ty None _ R); cbn.
      - split; [cbn; lia|]. intros b a Hb. cbn. now apply put_complex_other.
      - now rewrite E2.
      - split; [exact Ht|]. apply (put_complex_is K base n me G); [exact Ht| |apply on_blocks_holds]. eapply on_blocks_tiles, (go_complex _ _ _ _ G _ Ht). }
    destruct ty; [reflexivity|apply X; discriminate..].
  - rewrite (field_name env t i E1). destruct (name_of t i) as [[ty' b]|e| |] eqn:En; cbn; try reflexivity; try (unfold name_of in En; destruct (nth_error _ i); discriminate).
    eexists. split; [reflexivity|]. unfold related. cbn. subst env. rewrite map_app. auto.
  - rewrite (field_name env t i E1). destruct (name_of t i) as [[ty' b]|e| |] eqn:En; cbn; try reflexivity; try (unfold name_of in En; destruct (nth_error _ i); discriminate).
    destruct (copy_contains K base n me G st ty' b (mn_of t b) (E3 b)) as (st' & -> & H1 & H2 & H3). eexists. split; [reflexivity|].
    unfold push. cbn [fst snd]. rewrite E2 in *. apply (result_related env st st' t ty' None _ R); cbn; try assumption. now rewrite H3, E2.
  - rewrite (field_name env t i E1). destruct (name_of t i) as [[ty' b]|e| |] eqn:En; cbn; try reflexivity; try (unfold name_of in En; destruct (nth_error _ i); discriminate).
    pose proof (target_out env t b o TransposedT E1) as X. destruct (target t b TransposedT o) as [[ty'' b'']|e| |]; cbn; [|now rewrite X|contradiction..].
    destruct X as (oa & -> & X1 & X2 & X3 & X4). cbn [bind fst snd]. destruct ty'; [|reflexivity..].
    destruct (ftype_eqb_spec ty'' RealT) as [->|Hty].
    + unfold same_outcome. unfold r2c. cbn. destruct oa as [| |f]; [discriminate X4; intros f H; discriminate H|discriminate X4; intros f H; discriminate H|].
      destruct (X3 f eq_refl) as [_ ->]. reflexivity.
    + assert (Ho : forall f, oa = OutField K f -> fl_mesh K f = me /\ fl_type K f <> RealT) by (intros f Hf; destruct (X3 f Hf) as [? ->]; auto).
      destruct (r2c_contains K base n me G junk st b oa (mn_of t b) (E3 b) Ho) as (st' & Y1 & Y2 & Y3 & Y4).
      rewrite (X1 st (mkF K me RealT b) eq_refl E2) in Y1, Y2, Y3. rewrite Y1. cbn [bind]. cbn [fl_buf fl_type] in Y2, Y3. rewrite X2 in Y4.
      destruct ty''; [contradiction|..]; (eexists; split; [reflexivity|]; unfold push; cbn [fst snd]; apply (result_related env st st' t _ b'' _ R); assumption).
  - rewrite (field_name env t i E1). destruct (name_of t i) as [[ty' b]|e| |] eqn:En; cbn; try reflexivity; try (unfold name_of in En; destruct (nth_error _ i); discriminate).
    pose proof (target_out env t b o RealT E1) as X. destruct (target t b RealT o) as [[ty'' b'']|e| |]; cbn; [|now rewrite X|contradiction..].
    destruct X as (oa & -> & X1 & X2 & X3 & X4). cbn [bind fst snd].
    destruct (ftype_eqb_spec ty' RealT) as [->|Hty']; [reflexivity|].
    destruct (ftype_eqb_spec ty'' RealT) as [->|Hty].
    + assert (Ho : forall f, oa = OutField K f -> fl_mesh K f = me /\ fl_type K f = RealT) by (intros f Hf; exact (X3 f Hf)).
      destruct (c2r_contains K base n me G junk st ty' b oa (mn_of t b) Hty' (E3 b) Ho) as (st' & Y1 & Y2 & Y3 & Y4).
      rewrite (X1 st (mkF K me ty' b) eq_refl E2) in Y1, Y2, Y3. rewrite Y1. cbn [bind]. cbn [fl_buf fl_type] in Y2, Y3. rewrite X2 in Y4.
      destruct ty'; [contradiction|..]; (eexists; split; [reflexivity|]; unfold push; cbn [fst snd]; apply (result_related env st st' t _ b'' _ R); assumption).
    + assert (Z : exists f, oa = OutField K f /\ fl_type K f = ty'').
      { destruct oa as [| |f]; [exfalso; apply Hty, X4; intros f H; discriminate H|exfalso; apply Hty, X4; intros f H; discriminate H|].
        exists f. split; [reflexivity|]. now destruct (X3 f eq_refl). }
      destruct Z as (f & -> & Ef). unfold same_outcome, c2r. destruct ty'; [contradiction|..]; cbn; rewrite Ef; destruct ty''; [contradiction|reflexivity|reflexivity|contradiction|reflexivity..].
  - rewrite (field_name env t i E1). destruct (name_of t i) as [[ty' b]|e| |] eqn:En; cbn; try reflexivity; try (unfold name_of in En; destruct (nth_error _ i); discriminate).
    assert (X : forall oa bo, bo = option_map (fl_buf K) oa -> same_outcome (bind (cast K junk st (mkF K me ty' b) ty oa) (fun r => Ret (push env r)))
        (Ret (result t ty bo (converted K base n me ty' ty (seen K ty' (mn_of t b)))))).
    { intros oa bo ->. destruct (cast_contains K base n me G junk st ty' b ty oa (mn_of t b) (E3 b)) as (st' & -> & Y2 & Y3 & Y4).
      cbn [bind]. eexists. split; [reflexivity|]. unfold push. cbn [fst snd fl_buf] in *. rewrite E2 in *.
      replace (match oa with Some f => fl_buf K f | None => mn_next t end) with (match option_map (fl_buf K) oa with Some b0 => b0 | None => mn_next t end) in * by (destruct oa; reflexivity).
      apply (result_related env st st' t ty _ _ R); try assumption. rewrite Y4, E2. destruct oa; reflexivity. }
    destruct o as [j|]; cbn [bind]; [|apply X; reflexivity].
    rewrite (field_name env t j E1). destruct (name_of t j) as [[ty'' b'']|e| |] eqn:Ej; cbn [bind snd]; try reflexivity; try (unfold name_of in Ej; destruct (nth_error _ j); discriminate).
    apply X. reflexivity.
Qed.

(** ** C68 *)
(** Every program of transforms, copies, casts and shared views, whatever memory its
    fields share: no plan is run on buffers it was not made for, exceptions are
    those of wrong types, and afterwards every buffer holds what the program says.
    pfft may leave anything in padding and in the input it is allowed to destroy. *)
Theorem C68_programs : forall prog m0 next,
  same_outcome (run prog ([], mkS K m0 next)) (mean prog (mkM [] next (fun _ => Unknown K))).
Proof.
  intros prog m0 next.
  assert (X : forall prog s t, related s t -> same_outcome (run prog s) (mean prog t)).
  { clear - G. induction prog as [|o prog IH]; intros s t R; [cbn; eauto|]. cbn [run mean].
    pose proof (run_op_ok s t o R) as S1. destruct (mean_op t o) as [t'|e| |]; cbn in S1 |- *; [|now rewrite S1|contradiction..].
    destruct S1 as (s' & -> & R'). cbn [bind]. apply IH, R'. }
  apply X. split; [reflexivity|]. split; [reflexivity|]. intros b. exact Logic.I.
Qed.

(** one transform at a time: the result holds the transform; no other buffer
    changes, in particular not that of the argument unless the result shares it *)
Theorem C68_r2c : forall st b out g,
  (forall x, In x (cells_of (N base n)) -> real_at K (st_mem K st) (mkF K me RealT b) x = g x) ->
  (forall f, out = OutField K f -> fl_mesh K f = me /\ fl_type K f <> RealT) ->
  exists r st', r2c K junk st (mkF K me RealT b) out = Ret (r, st') /\
    match out with
    | OutNone _ => r = mkF K me TransposedT (st_next K st)
    | OutSelf _ => r = mkF K me TransposedT b
    | OutField _ f => r = f
    end /\
    (forall k, In k (cells_of (half base n)) -> complex_at K (st_mem K st') r k = spectrum K base n (me_roots K me) (me_invs K me) g k) /\
    forall b' a, b' <> fl_buf K r -> st_mem K st' b' a = st_mem K st b' a.
Proof.
  intros st b out g H Ho. destruct (r2c_ok K base n me G junk st b out g H Ho) as (st' & E1 & E2 & [_ E3] & _).
  eexists. exists st'. split; [exact E1|]. split; [destruct out; reflexivity|]. split; [exact E2|exact E3].
Qed.
Theorem C68_c2r : forall st t b out c, t <> RealT ->
  (forall k, In k (cells_of (half base n)) -> complex_at K (st_mem K st) (mkF K me t b) k = c k) ->
  (forall f, out = OutField K f -> fl_mesh K f = me /\ fl_type K f = RealT) ->
  exists r st', c2r K junk st (mkF K me t b) out = Ret (r, st') /\
    match out with
    | OutNone _ => r = mkF K me RealT (st_next K st)
    | OutSelf _ => r = mkF K me RealT b
    | OutField _ f => r = f
    end /\
    (forall x, In x (cells_of (N base n)) -> real_at K (st_mem K st') r x = re (synthesis K base n (me_roots K me) c x)) /\
    forall b' a, b' <> fl_buf K r -> st_mem K st' b' a = st_mem K st b' a.
Proof.
  intros st t b out c Ht H Ho. destruct (c2r_ok K base n me G junk st t b out c Ht H Ho) as (st' & E1 & E2 & [_ E3] & _).
  eexists. exists st'. split; [exact E1|]. split; [destruct out; reflexivity|]. split; [exact E2|exact E3].
Qed.

Hypothesis two : forall a : K, radd a a = r0 -> a = r0.
Lemma round_trip c k : hermitian K (N base n) (half base n) c -> In k (cells_of (half base n)) ->
  spectrum K base n (me_roots K me) (me_invs K me) (fun x => re (synthesis K base n (me_roots K me) c x)) k = c k.
Proof.
  intros Hc Hk. pose proof (go_roots _ _ _ _ G) as R.
  pose proof (go_complex _ _ _ _ G TransposedT ltac:(discriminate)) as TC. pose proof (go_real _ _ _ _ G) as TR.
  set (Ls := on_blocks c (me_blocks K me TransposedT)).
  set (Tmp := on_blocks (fun _ => r0) (me_blocks K me RealT) : list (lfield K)).
  assert (TL : tiles (half base n) Ls) by (eapply on_blocks_tiles; exact TC).
  assert (TT : tiles (N base n) Tmp) by (eapply on_blocks_tiles; exact TR).
  pose proof (C44_r2c_c2r K base n _ _ R two Ls Ls Tmp c TL (on_blocks_holds _ _) Hc TT TL) as H1.
  pose proof (c2r_holds K base n _ _ R Ls Tmp c TL (on_blocks_holds _ _) TT) as H2.
  assert (T2 : tiles (N base n) (FourierModel.c2r K (N base n) (me_roots K me) Ls Tmp)).
  { eapply tiles_same; [| |exact TT]; unfold FourierModel.c2r; rewrite map_map; reflexivity. }
  pose proof (r2c_holds K base n (me_roots K me) (me_invs K me) _ Ls _ T2 H2) as H3.
  symmetry. eapply holds_unique; [|exact H1|exact H3|exact Hk].
  eapply tiles_same; [| |exact TL]; unfold FourierModel.r2c; rewrite map_map; reflexivity.
Qed.
(** a cast between any two types keeps the field: the same values for the same
    type, the transform from real to complex and back, the same modes between the
    two complex types.  [out] may share the memory of the field. *)
Theorem C68_cast : forall st s b t out x, contains K base n me (st_mem K st) b x -> seen K s x = x -> x <> Unknown K ->
  (forall c, x = ComplexC K s c -> hermitian K (N base n) (half base n) c) ->
  exists st', cast K junk st (mkF K me s b) t out = Ret (mkF K me t (match out with Some f => fl_buf K f | None => st_next K st end), st') /\
    contains K base n me (st_mem K st') (match out with Some f => fl_buf K f | None => st_next K st end)
      match x, t with
      | RealC _ g, RealT => RealC K g
      | RealC _ g, _ => ComplexC K t (spectrum K base n (me_roots K me) (me_invs K me) g)
      | ComplexC _ _ c, RealT => RealC K (fun q => re (synthesis K base n (me_roots K me) c q))
      | ComplexC _ _ c, _ => ComplexC K t c
      | Unknown _, _ => Unknown K
      end /\
    forall b' a, b' <> match out with Some f => fl_buf K f | None => st_next K st end -> st_mem K st' b' a = st_mem K st b' a.
Proof.
  intros st s b t out x H Hs Hx Hh. destruct (cast_contains K base n me G junk st s b t out x H) as (st' & E1 & E2 & [_ E3] & _).
  exists st'. split; [exact E1|]. split; [|exact E3]. cbn [fl_buf] in E2. rewrite Hs in E2. destruct x as [|g|s' c]; [contradiction| |].
  - destruct s; [|discriminate Hs..]. destruct t; exact E2.
  - cbn in Hs. destruct (ftype_eqb_spec s' s) as [->|]; [|discriminate Hs]. pose proof (Hh c eq_refl) as Hc. destruct H as [Ht _].
    assert (R : forall t, complex_is K base n (st_mem K st') (mkF K me t (match out with Some f => fl_buf K f | None => st_next K st end))
       (spectrum K base n (me_roots K me) (me_invs K me) (fun q => re (synthesis K base n (me_roots K me) c q))) ->
       complex_is K base n (st_mem K st') (mkF K me t (match out with Some f => fl_buf K f | None => st_next K st end)) c).
    { intros t' Hq k Hk. rewrite Hq by exact Hk. apply round_trip; assumption. }
    unfold converted in E2. destruct s, t; cbn in *; try contradiction; try exact E2; (split; [discriminate|]; apply R, E2).
Qed.
End Programs.

(** ** C69 *)
Section Resampling.
Variable K : cring.
Local Notation C := (cpx K).
Variable junk : memory K -> addr -> K.
Hypothesis two : forall a : K, radd a a = r0 -> a = r0.

(** [F] are the modes of the field *)
Definition modes_are base n (m : memory K) (f : field K) (F : list Z -> C) : Prop :=
  match fl_type K f with
  | RealT => exists g, real_is K base n m f g /\ F = spectrum K base n (me_roots K (fl_mesh K f)) (me_invs K (fl_mesh K f)) g
  | _ => complex_is K base n m f F /\ hermitian K (N base n) (half base n) F
  end.

Lemma half_cshape base n me : good K base n me -> me_cshape K me = half base n.
Proof. intros G. unfold me_cshape. rewrite (go_nmesh _ _ _ _ G). unfold N, half. now rewrite removelast_last, last_last. Qed.

(** For a real or transposed complex output on any mesh: every mode that both meshes
    resolve is copied, all others are zero (and the field of these modes for a real
    output); no memory but that of the output changes. *)
Theorem C69_resample : forall base n base' n' st self out F,
  good K base n (fl_mesh K self) -> good K base' n' (fl_mesh K out) ->
  axes_ok (N base n) (half base n) (N base' n') (half base' n') ->
  Forall (block_within (half base' n')) (on_blocks (fun _ => tt) (me_blocks K (fl_mesh K out) TransposedT)) ->
  (fl_buf K self < st_next K st)%nat -> (fl_buf K out < st_next K st)%nat ->
  fl_type K out <> UntransposedT ->
  (fl_buf K out <> fl_buf K self \/ fl_type K out = fl_type K self \/ N base' n' <> N base n) ->
  modes_are base n (st_mem K st) self F ->
  exists st', BufferModel.resample K junk st self out = Ret (out, st') /\
    match fl_type K out with
    | RealT => real_is K base' n' (st_mem K st') out
        (fun x => re (synthesis K base' n' (me_roots K (fl_mesh K out)) (resampled K (N base n) (N base' n') F) x))
    | _ => complex_is K base' n' (st_mem K st') out (resampled K (N base n) (N base' n') F)
    end /\
    forall b a, (b < st_next K st)%nat -> b <> fl_buf K out -> st_mem K st' b a = st_mem K st b a.
Proof.
  intros base n base' n' st [me s b] [me' t bo] F G G' A BW Hb Hbo Hu Hal HF. cbn [fl_mesh fl_type fl_buf] in *.
  (* the content of the source *)
  assert (X : exists x, contains K base n me (st_mem K st) b x /\ seen K s x = x /\
     forall m b', contains K base n me m b' (converted K base n me s TransposedT x) -> complex_is K base n m (mkF K me TransposedT b') F).
  { unfold modes_are in HF. cbn [fl_type fl_mesh] in HF. destruct s.
    - destruct HF as (g & Hg & ->). exists (RealC K g). repeat split; [exact Hg|]. cbn. tauto.
    - destruct HF as [Hc Hh]. exists (ComplexC K TransposedT F). repeat split; [discriminate|exact Hc|]. cbn. tauto.
    - destruct HF as [Hc Hh]. exists (ComplexC K UntransposedT F). repeat split; [discriminate|exact Hc|]. cbn.
      intros m b' [_ H] k Hk. rewrite H by exact Hk. apply (round_trip K base n me G two); assumption. }
  destruct X as (x & Hx & Sx & Cx). unfold BufferModel.resample. cbn [fl_mesh fl_type fl_buf].
  (* the short cut for equal meshes *)
  assert (S1 : exists st1 r1, (if forallb (fun p => fst p =? snd p) (combine (me_nmesh K me') (me_nmesh K me))
      then cast K junk st (mkF K me s b) t (Some (mkF K me' t bo)) else Ret (mkF K me' t bo, st)) = Ret (r1, st1) /\
      contains K base n me (st_mem K st1) b x /\ only_changes K st st1 bo /\ st_next K st1 = st_next K st).
  { destruct (forallb _ _) eqn:Eq.
    - destruct (cast_contains K base n me G junk st s b t (Some (mkF K me' t bo)) x Hx) as (st1 & E1 & E2 & E3 & E4). cbn [fl_buf] in E2, E3.
      exists st1. eexists. split; [exact E1|]. split; [|split; [exact E3|exact E4]].
      destruct (Nat.eq_dec b bo) as [->|Hne].
      + destruct Hal as [?|[->|Hn]]; [congruence| |].
        * rewrite Sx in E2. unfold converted in E2. destruct s; exact E2.
        * exfalso. apply Hn. rewrite (go_nmesh _ _ _ _ G), (go_nmesh _ _ _ _ G') in Eq.
          assert (L : length (N base' n') = length (N base n)).
          { clear - A. induction A; cbn; congruence. }
          revert L Eq. generalize (N base' n') (N base n). clear. induction l as [|a l IH]; intros [|a' l']; cbn; try discriminate; [reflexivity|].
          intros L E. apply andb_true_iff in E. destruct E as [E1 E2]. apply Z.eqb_eq in E1. f_equal; [exact E1|apply IH; [lia|exact E2]].
      + eapply contains_frame; [exact E3|exact Hne|exact Hx].
    - exists st. eexists. split; [reflexivity|]. split; [exact Hx|]. split; [split; [lia|reflexivity]|reflexivity]. }
  destruct S1 as (st1 & r1 & E1 & H1 & O1 & N1). rewrite E1. cbn [bind snd].
  destruct (cast_contains K base n me G junk st1 s b TransposedT None x H1) as (st2 & E2 & H2 & O2 & N2). cbn [fl_buf] in H2, O2.
  rewrite E2. cbn [bind]. unfold create_complex. cbn [create fl_mesh fl_type fl_buf st_mem st_next].
  rewrite Sx in H2. apply Cx in H2. rewrite N1 in *.
  set (m3 := put_complex K (st_mem K st2) (mkF K me' TransposedT bo) _).
  assert (H3 : complex_is K base n m3 (mkF K me TransposedT (st_next K st)) F).
  { intros k Hk. rewrite <- (H2 k Hk). unfold complex_at. cbn. unfold m3. rewrite !put_complex_other by (cbn; lia). reflexivity. }
  rewrite (go_nmesh _ _ _ _ G), (go_nmesh _ _ _ _ G'), (half_cshape _ _ _ G).
  assert (BW' : Forall (block_within (half base' n')) (complex_view K m3 (mkF K me' TransposedT bo))).
  { unfold complex_view, on_blocks in *. cbn [fl_mesh fl_type] in *. rewrite Forall_map in BW |- *. exact BW. }
  assert (NT : TransposedT <> RealT) by discriminate.
  destruct (C39_resample K _ _ _ _ (complex_view K m3 (mkF K me TransposedT (st_next K st))) (complex_view K m3 (mkF K me' TransposedT bo)) F A
     (complex_view_tiles K base n me G _ _ _ NT) (complex_view_holds K base n me G _ _ _ _ NT H3)
     (complex_view_tiles K base' n' me' G' _ _ _ NT) BW') as (Out & E3 & Es & Eh & HO).
  rewrite E3, all_ret_map.
  assert (TO : tiles (half base' n') Out).
  { eapply tiles_same; [symmetry; exact Es|symmetry; exact Eh|]. apply (complex_view_tiles K base' n' me' G' _ _ _ NT). }
  set (m4 := put_complex K m3 (mkF K me' TransposedT bo) Out).
  assert (H4 : complex_is K base' n' m4 (mkF K me' TransposedT bo) (resampled K (N base n) (N base' n') F)).
  { apply (put_complex_is K base' n' me' G'); [discriminate|exact TO|exact HO]. }
  assert (F4 : forall b0 a, (b0 < st_next K st)%nat -> b0 <> bo -> m4 b0 a = st_mem K st b0 a).
  { intros b0 a L Hne. unfold m4, m3. rewrite !put_complex_other by (cbn; congruence). rewrite (proj2 O2) by lia. apply (proj2 O1). exact Hne. }
  destruct t; [|eexists; split; [reflexivity|]; split; [exact H4|exact F4]|contradiction].
  destruct (c2r_ok K base' n' me' G' junk (mkS K m4 (st_next K st2)) TransposedT bo (OutField K (mkF K me' RealT bo)) _ NT H4) as (st5 & E5 & H5 & [_ F5] & N5).
  { intros f Ef. injection Ef as <-. auto. }
  cbn [result_of] in *. rewrite E5. cbn [bind snd]. exists st5. split; [reflexivity|]. split; [exact H5|].
  intros b0 a L Hne. rewrite F5 by exact Hne. cbn. now apply F4.
Qed.
End Resampling.

(** ** a concrete mesh: 4 x 2 cells on two ranks of eight numbers each; rows are
    padded, the transposed modes are split along the second axis *)
Definition bx_blocks (t : ftype) : list (list Z * list Z) :=
  match t with
  | TransposedT => [([0; 0], [4; 1]); ([0; 1], [4; 1])]
  | _ => [([0; 0], [2; 2]); ([2; 0], [2; 2])]
  end.
Definition bx_at (t : ftype) (i : list Z) : addr :=
  match i with
  | [x; y] => match t with
              | RealT => (Z.to_nat (x / 2), (x mod 2) * 4 + y)
              | TransposedT => (Z.to_nat y, 2 * x)
              | UntransposedT => (Z.to_nat (x / 2), 2 * ((x mod 2) * 2 + y))
              end
  | _ => (0%nat, 0)
  end.
Definition bx_mesh (padded : bool) : mesh Qcring := mkMesh Qcring [4; 2] ex_roots ex_invs padded bx_blocks bx_at.
Fixpoint nodup_addr (l : list addr) : bool :=
  match l with [] => true | a :: l => negb (existsb (addr_eqb a) l) && nodup_addr l end.
Lemma nodup_addr_ok l : nodup_addr l = true -> NoDup l.
Proof.
  induction l as [|a l IH]; cbn; intros H; constructor; apply andb_true_iff in H; destruct H as [H1 H2]; [|now apply IH].
  intros Ha. apply negb_true_iff in H1. assert (existsb (addr_eqb a) l = true); [|congruence].
  apply existsb_exists. exists a. split; [exact Ha|]. now destruct (addr_eqb_spec a a).
Qed.
Lemma bx_good padded : good Qcring [4] 2 (bx_mesh padded).
Proof.
  constructor.
  - reflexivity.
  - exact ex_mesh_roots.
  - apply tiles_check. reflexivity.
  - intros [] Ht; [contradiction|apply tiles_check; reflexivity..].
  - apply nodup_addr_ok. reflexivity.
  - intros [] Ht; [contradiction|apply nodup_addr_ok; reflexivity..].
Qed.
Definition bx_start : state Qcring := mkS Qcring (fun b a => ex_q (Z.of_nat b + snd a)) 3%nat.
Definition bx_junk : memory Qcring -> addr -> Qcring := fun _ a => ex_q (100 + snd a).
Definition reals (f : field Qcring) (st : state Qcring) : list Q := map (fun x => this (real_at Qcring (st_mem Qcring st) f x)) (cells_of [4; 2]).
Definition modes (f : field Qcring) (st : state Qcring) : list (Q * Q) :=
  map (fun x => let z := complex_at Qcring (st_mem Qcring st) f x in (this (re z), this (im z))) (cells_of [4; 2]).
(** a field is transformed in place, cast to the untransposed type on another
    buffer, and transformed back into a new field *)
Definition bx_prog : list (op Qcring) :=
  [NewReal Qcring ex_real; R2C Qcring 0%nat ToSelf; Cast Qcring 1%nat UntransposedT None;
   C2R Qcring 2%nat ToNew; Alias Qcring 3%nat TransposedT; Cast Qcring 2%nat TransposedT (Some 2%nat)].
Example C68_case : forall padded,
  match run Qcring (bx_mesh padded) bx_junk bx_prog ([], bx_start) with
  | Ret (env, st) => match env with
      | [a; b; c; d; e; f] => (map (fl_buf Qcring) env, reals d st, modes b st, modes f st) =
         ([3; 3; 4; 5; 5; 4]%nat, map (fun x => this (ex_real x)) (cells_of [4; 2]), modes b st, modes b st) /\
         modes b st = [((6#1), 0); ((-3#2), 0); ((-1#1), (2#1)); (0, 0); ((-3#2), 0); (0, 0); ((-1#1), (-2#1)); (0, 0)]%Q
      | _ => False
      end
  | _ => False
  end.
Proof. intros []; vm_compute; split; reflexivity. Qed.
Print Assumptions C68_programs.
Print Assumptions C68_r2c.
Print Assumptions C68_c2r.
Print Assumptions C68_cast.

(** a Hermitian field of three modes *)
Definition bx_modes (k : list Z) : cpx Qcring :=
  match k with
  | [0; 0] => (ex_q 4, ex_q 0)
  | [1; 0] => (ex_q 5, ex_q 1)
  | [3; 0] => (ex_q 5, ex_q (-1))
  | _ => c0
  end.
Lemma Qc_eq2 (a b : cpx Qcring) : Qeq_bool (this (fst a)) (this (fst b)) && Qeq_bool (this (snd a)) (this (snd b)) = true -> a = b.
Proof. destruct a as [a1 a2], b as [b1 b2]. intros H. apply andb_true_iff in H. destruct H. now apply Qc_pair. Qed.
Lemma all_cells (P : list Z -> Prop) l : (forall k, In k l -> P k) <-> fold_right (fun k Q => P k /\ Q) True l.
Proof.
  induction l as [|a l IH]; cbn; split; auto; intros H.
  - contradiction.
  - split; [apply H; now left|]. apply IH. intros k Hk. apply H. now right.
  - intros k [<-|Hk]; [apply H|]. apply IH; [apply H|exact Hk].
Qed.
Definition bx_src (padded : bool) : field Qcring := mkF Qcring (bx_mesh padded) TransposedT 0%nat.
Definition bx_st (padded : bool) : state Qcring :=
  mkS Qcring (put_complex Qcring (st_mem Qcring bx_start) (bx_src padded) (on_blocks bx_modes (bx_blocks TransposedT))) 3%nat.
Lemma bx_src_modes padded : modes_are Qcring [4] 2 (st_mem Qcring (bx_st padded)) (bx_src padded) bx_modes.
Proof.
  split.
  - apply (put_complex_is Qcring [4] 2 (bx_mesh padded) (bx_good padded)); [discriminate| |apply on_blocks_holds]. apply tiles_check. reflexivity.
  - intros k Hk _. assert (A : fold_right (fun k Q => bx_modes (opposite (N [4] 2) k) = cconj (bx_modes k) /\ Q) True (cells_of (half [4] 2))).
    { vm_compute cells_of. cbn [fold_right]. repeat split; apply Qc_eq2; vm_compute; reflexivity. }
    now apply (proj2 (all_cells _ _) A).
Qed.
Lemma bx_axes : axes_ok (N [4] 2) (half [4] 2) (N [4] 2) (half [4] 2).
Proof. constructor; [|constructor; [|constructor]]; constructor; cbn; try (split; [lia|reflexivity]); lia. Qed.
Lemma bx_within padded : Forall (block_within (half [4] 2)) (on_blocks (fun _ => tt) (me_blocks Qcring (bx_mesh padded) TransposedT)).
Proof. repeat (apply Forall_cons || apply Forall2_cons || apply Forall_nil || apply Forall2_nil || (cbn; lia)). Qed.
(** the field above into a real field on another buffer *)
Example C69_case : forall padded,
  exists st', BufferModel.resample Qcring bx_junk (bx_st padded) (bx_src padded) (mkF Qcring (bx_mesh padded) RealT 1%nat) = Ret (mkF Qcring (bx_mesh padded) RealT 1%nat, st') /\
    real_is Qcring [4] 2 (st_mem Qcring st') (mkF Qcring (bx_mesh padded) RealT 1%nat)
      (fun x => re (synthesis Qcring [4] 2 ex_roots (resampled Qcring (N [4] 2) (N [4] 2) bx_modes) x)) /\
    (forall b a, (b < 3)%nat -> b <> 1%nat -> st_mem Qcring st' b a = st_mem Qcring (bx_st padded) b a).
Proof.
  intros padded.
  apply (C69_resample Qcring bx_junk ex_two [4] 2 [4] 2 (bx_st padded) (bx_src padded) (mkF Qcring (bx_mesh padded) RealT 1%nat) bx_modes);
    [apply bx_good|apply bx_good|apply bx_axes|apply bx_within|cbn; lia|cbn; lia|discriminate|left; discriminate|apply bx_src_modes].
Qed.
Print Assumptions C69_resample.

(** An untransposed output is not supported although the documentation names it: the
    modes are written through the transposed view of its memory (pm.py:497). *)
Theorem C69_untransposed_refuted : forall padded, let out := mkF Qcring (bx_mesh padded) UntransposedT 1%nat in
  resampled Qcring (N [4] 2) (N [4] 2) bx_modes [1; 0] = (ex_q 5, ex_q 1) /\
  exists st', BufferModel.resample Qcring bx_junk (bx_st padded) (bx_src padded) out = Ret (out, st') /\
    complex_at Qcring (st_mem Qcring st') out [1; 0] <> (ex_q 5, ex_q 1).
Proof.
  intros padded out. split; [apply Qc_eq2; reflexivity|].
  assert (A : match BufferModel.resample Qcring bx_junk (bx_st padded) (bx_src padded) out with
              | Ret (f, st') => f = out /\ this (re (complex_at Qcring (st_mem Qcring st') out [1; 0])) = 0%Q | _ => False end)
    by (destruct padded; vm_compute; split; reflexivity).
  destruct (BufferModel.resample _ _ _ _ _) as [[f st']| | |]; try contradiction. destruct A as [-> A].
  exists st'. split; [reflexivity|]. intros E. rewrite E in A. discriminate A.
Qed.
Print Assumptions C69_untransposed_refuted.
(** Sharing memory with a field of another type on the same mesh destroys the
    source before it is read (pm.py:491-495). *)
Definition bx_real_st (padded : bool) : state Qcring :=
  mkS Qcring (put_real Qcring (st_mem Qcring bx_start) (mkF Qcring (bx_mesh padded) RealT 0%nat) (on_blocks ex_real (bx_blocks RealT))) 3%nat.
Theorem C69_shared_refuted : forall padded,
  let self := mkF Qcring (bx_mesh padded) RealT 0%nat in let out := mkF Qcring (bx_mesh padded) TransposedT 0%nat in
  real_is Qcring [4] 2 (st_mem Qcring (bx_real_st padded)) self ex_real /\
  this (re (resampled Qcring (N [4] 2) (N [4] 2) (spectrum Qcring [4] 2 ex_roots ex_invs ex_real) [0; 0])) = (6 # 1)%Q /\
  exists st', BufferModel.resample Qcring bx_junk (bx_real_st padded) self out = Ret (out, st') /\
    this (re (complex_at Qcring (st_mem Qcring st') out [0; 0])) <> (6 # 1)%Q.
Proof.
  intros padded self out. split; [|split].
  - apply (put_real_is Qcring [4] 2 (bx_mesh padded) (bx_good padded)); [|apply on_blocks_holds]. apply tiles_check. reflexivity.
  - vm_compute. reflexivity.
  - assert (A : match BufferModel.resample Qcring bx_junk (bx_real_st padded) self out with
                | Ret (f, st') => f = out /\ Qeq_bool (this (re (complex_at Qcring (st_mem Qcring st') out [0; 0]))) (6 # 1) = false | _ => False end)
      by (destruct padded; vm_compute; split; reflexivity).
    destruct (BufferModel.resample _ _ _ _ _) as [[f st']| | |]; try contradiction. destruct A as [-> A].
    exists st'. split; [reflexivity|]. intros E. rewrite E in A. discriminate A.
Qed.
Print Assumptions C69_shared_refuted.
