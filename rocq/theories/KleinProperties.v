(** Property C89: the Klein-Gordon solver of examples/klein-gordon.py:31-100. *)
From Coq Require Import List Arith ZArith QArith Lia Bool Permutation Ring Qcanon.
From Verif Require Import Base ListFacts LayoutModel WrapModel WrapProofs DomainModel DomainFill MeshModel MeshAssign
  MeshRoute MeshTile RingModel FieldModel FieldFacts FieldProperties FieldSort FieldResample FieldNorm FourierModel FourierFacts
  FourierProperties EngineModel EngineProperties BufferModel BufferProofs BufferProperties UfuncModel UfuncProperties KleinModel.
Import ListNotations.
Local Close Scope Qc_scope.
Local Close Scope Q_scope.
Local Open Scope Z_scope.

Section Klein.
Variable K : cring.
Add Ring Kr : (rth K).
Local Notation C := (cpx K).
Variable inv : K -> K.
Variable junk : memory K -> addr -> K.
Variables (base : list Z) (n : Z) (me : mesh K).
Hypothesis G : good K base n me.
Hypothesis ranks : forall t, me_blocks K me t <> [].
Local Notation real_is := (real_is K base n).
Local Notation complex_is := (complex_is K base n).
Local Notation mem := (st_mem K).
Local Notation next := (st_next K).
Local Notation fresh t b := (mkF K me t b).

(** old buffers outside [l] keep their contents; buffers are only added *)
Definition keeps (st st' : state K) (l : list buffer) : Prop :=
  (next st <= next st')%nat /\ forall b a, (b < next st)%nat -> ~ In b l -> mem st' b a = mem st b a.
Lemma keeps_trans st1 st2 st3 l : keeps st1 st2 l -> keeps st2 st3 l -> keeps st1 st3 l.
Proof. intros [A1 A2] [B1 B2]. split; [lia|]. intros b a Hb Hl. rewrite B2, A2; auto; lia. Qed.
Lemma keeps_new st1 st2 st3 b l : keeps st1 st2 l -> only_changes K st2 st3 b -> (next st1 <= b)%nat -> keeps st1 st3 l.
Proof. intros [A1 A2] [B1 B2] H. split; [lia|]. intros b' a Hb Hl. rewrite B2, A2; auto; lia. Qed.
Lemma keeps_refl st l : keeps st st l.
Proof. split; [lia|auto]. Qed.
Lemma keeps_in st st' l b : keeps st st' l -> In b l -> forall st'', only_changes K st' st'' b -> keeps st st'' l.
Proof. intros [A1 A2] H st'' [B1 B2]. split; [lia|]. intros b' a Hb Hl. rewrite B2, A2; auto. intros ->. contradiction. Qed.
Lemma keeps_sub st st' : forall l, keeps st st' [] -> keeps st st' l.
Proof. intros l [A1 A2]. split; [lia|]. intros b a Hb Hl. apply A2; auto. Qed.
Lemma keeps_real st st' l b g : keeps st st' l -> (b < next st)%nat -> ~ In b l ->
  real_is (mem st) (fresh RealT b) g -> real_is (mem st') (fresh RealT b) g.
Proof. intros [_ A] Hb Hl H c Hc. rewrite <- (H c Hc). unfold real_at. cbn [fl_buf fl_mesh fl_type]. now apply A. Qed.
Lemma keeps_complex st st' l t b g : keeps st st' l -> (b < next st)%nat -> ~ In b l ->
  complex_is (mem st) (fresh t b) g -> complex_is (mem st') (fresh t b) g.
Proof. intros [_ A] Hb Hl H c Hc. rewrite <- (H c Hc). unfold complex_at. cbn [fl_buf fl_mesh fl_type]. now rewrite !A. Qed.

Lemma apply_real_ok st b H (inplace : bool) g : real_is (mem st) (fresh RealT b) g ->
  let r := fresh RealT (if inplace then b else next st) in
  exists st', apply_real K st (fresh RealT b) H inplace = Ret (r, st') /\
    real_is (mem st') r (fun c => H c (g c)) /\ only_changes K st st' (fl_buf K r) /\
    next st' = if inplace then next st else S (next st).
Proof.
  intros Hg. pose proof (go_real _ _ _ _ G) as TR.
  assert (P : forall m r, (forall c, In c (cells_of (N base n)) -> real_at K m (fresh RealT b) c = g c) ->
     real_is (put_real K m (fresh RealT r) (on_blocks (fun c => H c (real_at K m (fresh RealT b) c)) (me_blocks K me RealT))) (fresh RealT r) (fun c => H c (g c))).
  { intros m r Hm c Hc. rewrite (put_real_is K base n me G m r _ (fun c => H c (real_at K m (fresh RealT b) c))); [now rewrite Hm| |apply on_blocks_holds|exact Hc].
    eapply on_blocks_tiles; exact TR. }
  destruct inplace; unfold apply_real; cbn [fl_type fl_mesh create fst snd]; eexists; (split; [reflexivity|]); cbn [fl_buf st_mem st_next]; (split; [apply P; exact Hg|]); (split; [|reflexivity]).
  - split; [cbn; lia|]. intros b' a Hb. cbn. now apply put_real_other.
  - split; [cbn; lia|]. intros b' a Hb. cbn. now apply put_real_other.
Qed.
Lemma apply_complex_ok st t b H (inplace : bool) g : t <> RealT -> complex_is (mem st) (fresh t b) g ->
  let r := fresh t (if inplace then b else next st) in
  exists st', apply_complex K st (fresh t b) H inplace = Ret (r, st') /\
    complex_is (mem st') r (fun c => H c (g c)) /\ only_changes K st st' (fl_buf K r) /\
    next st' = if inplace then next st else S (next st).
Proof.
  intros Ht Hg. pose proof (go_complex _ _ _ _ G t Ht) as TR.
  assert (P : forall m r, (forall c, In c (cells_of (half base n)) -> complex_at K m (fresh t b) c = g c) ->
     complex_is (put_complex K m (fresh t r) (on_blocks (fun c => H c (complex_at K m (fresh t b) c)) (me_blocks K me t))) (fresh t r) (fun c => H c (g c))).
  { intros m r Hm c Hc. rewrite (put_complex_is K base n me G m t r _ (fun c => H c (complex_at K m (fresh t b) c))); [now rewrite Hm|exact Ht| |apply on_blocks_holds|exact Hc].
    eapply on_blocks_tiles; exact TR. }
  assert (E : apply_complex K st (fresh t b) H inplace =
    let (out, st) := if inplace then (fresh t b, st) else create K st me t None in
    Ret (out, mkS K (put_complex K (mem st) out (on_blocks (fun c => H c (complex_at K (mem st) (fresh t b) c)) (me_blocks K me t))) (next st))).
  { unfold apply_complex. cbn [fl_type fl_mesh]. destruct t; [congruence| |]; reflexivity. }
  rewrite E. clear E.
  destruct inplace; cbn [create]; eexists; (split; [reflexivity|]); cbn [fl_buf st_mem st_next]; (split; [apply P; exact Hg|]); (split; [|reflexivity]).
  - split; [cbn; lia|]. intros b' a Hb. cbn. now apply put_complex_other.
  - split; [cbn; lia|]. intros b' a Hb. cbn. now apply put_complex_other.
Qed.
Lemma assign_ok st t b b' g : t <> RealT -> complex_is (mem st) (fresh t b') g ->
  complex_is (mem (assign K st (fresh t b) (fresh t b'))) (fresh t b) g /\ only_changes K st (assign K st (fresh t b) (fresh t b')) b.
Proof.
  intros Ht Hg. split.
  - unfold assign. cbn [st_mem]. apply (put_complex_is K base n me G); [exact Ht|now apply (complex_view_tiles K base n me G)|now apply (complex_view_holds K base n me G)].
  - split; [cbn; lia|]. intros b1 a Hb. cbn. now apply put_complex_other.
Qed.

(** ** arithmetic *)
Lemma arith_ok st u t args : Forall (alike K me t) args -> Exists (is_field K) args ->
  uf_kind K u (map (operand_kind K) args) <> BoolK ->
  let new := fresh t (next st) in
  exists st', arith K st u args = Ret (new, st') /\
    (forall x, In x (domain base n t) -> value_at K (mem st') new x = stored_as K t (outcome_at K (mem st) u args x)) /\
    only_changes K st st' (next st) /\ next st' = S (next st).
Proof.
  intros A E NB new. destruct (call_new K base n me G st u t args A E NB (ranks t)) as (m' & E1 & E2 & E3).
  exists (mkS K m' (S (next st))). split; [|split; [exact E2|split; [split; [cbn; lia|exact E3]|reflexivity]]].
  unfold arith. rewrite E1. cbn [fst snd]. pose proof (ranks t) as Hr.
  destruct (me_blocks K me t) as [|x l] eqn:El; [congruence|]. cbn [length repeat bind].
  assert (X : forallb (fun y : outcome (UfuncModel.result K) => match y with Ret (RField _ _) => true | _ => false end)
                (repeat (Ret (RField K (fresh t (next st)))) (length l)) = true)
    by (apply forallb_forall; intros y Hy; apply repeat_spec in Hy; now subst y).
  now rewrite X.
Qed.
Lemma arith_complex st op t b b' f g : t <> RealT -> complex_is (mem st) (fresh t b) f -> complex_is (mem st) (fresh t b') g ->
  exists st', arith K st (binary K op) [OpField K (fresh t b); OpField K (fresh t b')] = Ret (fresh t (next st), st') /\
    complex_is (mem st') (fresh t (next st)) (fun k => op (f k) (g k)) /\ only_changes K st st' (next st) /\ next st' = S (next st).
Proof.
  intros Ht Hf Hg. destruct (arith_ok st (binary K op) t [OpField K (fresh t b); OpField K (fresh t b')]) as (st' & E1 & E2 & E3 & E4).
  { repeat constructor. } { constructor. exact Logic.I. }
  { cbn. unfold result_kind. destruct (existsb _ _); discriminate. }
  exists st'. split; [exact E1|]. split; [|split; assumption]. intros k Hk. specialize (E2 k).
  assert (D : domain base n t = cells_of (half base n)) by (destruct t; [congruence|reflexivity|reflexivity]). rewrite D in E2. specialize (E2 Hk).
  unfold value_at in E2. unfold outcome_at in E2. cbn [fl_type map operand_at value_at uf_fun binary] in E2.
  unfold value_at in E2. cbn [fl_type] in E2. rewrite <- (Hf k Hk), <- (Hg k Hk). destruct t; [congruence| |]; exact E2.
Qed.
Lemma arith_complex_number st op t b x f : t <> RealT -> complex_is (mem st) (fresh t b) f ->
  exists st', arith K st (binary K op) [OpField K (fresh t b); OpNumber K RealK (cof x)] = Ret (fresh t (next st), st') /\
    complex_is (mem st') (fresh t (next st)) (fun k => op (f k) (cof x)) /\ only_changes K st st' (next st) /\ next st' = S (next st).
Proof.
  intros Ht Hf. destruct (arith_ok st (binary K op) t [OpField K (fresh t b); OpNumber K RealK (cof x)]) as (st' & E1 & E2 & E3 & E4).
  { repeat constructor. } { constructor. exact Logic.I. }
  { cbn. unfold result_kind. destruct (existsb _ _); discriminate. }
  exists st'. split; [exact E1|]. split; [|split; assumption]. intros k Hk. specialize (E2 k).
  assert (D : domain base n t = cells_of (half base n)) by (destruct t; [congruence|reflexivity|reflexivity]). rewrite D in E2. specialize (E2 Hk).
  unfold value_at in E2. unfold outcome_at in E2. cbn [fl_type map operand_at value_at uf_fun binary] in E2.
  unfold value_at in E2. cbn [fl_type] in E2. rewrite <- (Hf k Hk). destruct t; [congruence| |]; exact E2.
Qed.
Lemma arith_real st op opr b b' f g : (forall x y, op (cof x) (cof y) = cof (opr x y)) ->
  real_is (mem st) (fresh RealT b) f -> real_is (mem st) (fresh RealT b') g ->
  exists st', arith K st (binary K op) [OpField K (fresh RealT b); OpField K (fresh RealT b')] = Ret (fresh RealT (next st), st') /\
    real_is (mem st') (fresh RealT (next st)) (fun k => opr (f k) (g k)) /\ only_changes K st st' (next st) /\ next st' = S (next st).
Proof.
  intros Ho Hf Hg. destruct (arith_ok st (binary K op) RealT [OpField K (fresh RealT b); OpField K (fresh RealT b')]) as (st' & E1 & E2 & E3 & E4).
  { repeat constructor. } { constructor. exact Logic.I. }
  { cbn. discriminate. }
  exists st'. split; [exact E1|]. split; [|split; assumption]. intros k Hk. specialize (E2 k Hk).
  unfold value_at, outcome_at in E2. cbn [fl_type map operand_at uf_fun binary] in E2. unfold value_at in E2. cbn [fl_type] in E2.
  rewrite (Hf k Hk), (Hg k Hk), Ho in E2. apply (f_equal re) in E2. exact E2.
Qed.
Lemma arith_real_number st op opr b x f : (forall x y, op (cof x) (cof y) = cof (opr x y)) ->
  real_is (mem st) (fresh RealT b) f ->
  exists st', arith K st (binary K op) [OpField K (fresh RealT b); OpNumber K RealK (cof x)] = Ret (fresh RealT (next st), st') /\
    real_is (mem st') (fresh RealT (next st)) (fun k => opr (f k) x) /\ only_changes K st st' (next st) /\ next st' = S (next st).
Proof.
  intros Ho Hf. destruct (arith_ok st (binary K op) RealT [OpField K (fresh RealT b); OpNumber K RealK (cof x)]) as (st' & E1 & E2 & E3 & E4).
  { repeat constructor. } { constructor. exact Logic.I. }
  { cbn. discriminate. }
  exists st'. split; [exact E1|]. split; [|split; assumption]. intros k Hk. specialize (E2 k Hk).
  unfold value_at, outcome_at in E2. cbn [fl_type map operand_at uf_fun binary] in E2. unfold value_at in E2. cbn [fl_type] in E2.
  rewrite (Hf k Hk), Ho in E2. apply (f_equal re) in E2. exact E2.
Qed.

(** ** one step *)
Variable units : list K.
Variable F : K -> K.
Local Notation spec := (spectrum K base n (me_roots K me) (me_invs K me)).
Local Notation synth := (synthesis K base n (me_roots K me)).
Local Notation kk := (k_of K units me).
Local Notation modes b := (fresh TransposedT b).
Lemma nt : TransposedT <> RealT. Proof. discriminate. Qed.
Definition modes_step (dt : K) (c1 c2 : list Z -> C) : list Z -> C :=
  fun k => csub (transfer_n K inv dt (kk k) (csub (spec (fun x => F (re (synth c1 x))) k) (transfer_n_1 K inv dt (kk k) (c1 k)))) (c2 k).

Lemma kg_next_ok st b1 b2 dt c1 c2 : (b1 < next st)%nat -> (b2 < next st)%nat ->
  complex_is (mem st) (modes b1) c1 -> complex_is (mem st) (modes b2) c2 ->
  exists (b : buffer) (st' : state K), kg_next K inv junk units F st (modes b1) (modes b2) dt = Ret (modes b, st') /\
    (next st <= b)%nat /\ (b < next st')%nat /\ keeps st st' [] /\ complex_is (mem st') (modes b) (modes_step dt c1 c2).
Proof.
  intros B1 B2 H1 H2. unfold kg_next. cbn [fl_mesh].
  destruct (c2r_ok K base n me G junk st TransposedT b1 (OutNone K) c1 nt H1 ltac:(discriminate)) as (s1 & -> & P1 & O1 & N1).
  cbn [result_of fl_buf] in P1, O1. cbn [bind result_of].
  assert (K1 : keeps st s1 []) by (eapply keeps_new; [apply keeps_refl|exact O1|lia]).
  destruct (apply_real_ok s1 (next st) (fun _ => F) true _ P1) as (s2 & -> & P2 & O2 & N2). cbn [bind fl_buf] in *.
  assert (K2 : keeps st s2 []) by (eapply keeps_new; [exact K1|exact O2|lia]).
  destruct (r2c_ok K base n me G junk s2 (next st) (OutSelf K) _ P2 ltac:(discriminate)) as (s3 & -> & P3 & O3 & N3).
  cbn [result_of fl_buf] in P3, O3. cbn [bind result_of fl_buf].
  assert (K3 : keeps st s3 []) by (eapply keeps_new; [exact K2|exact O3|lia]).
  pose proof (keeps_complex _ _ _ _ _ _ K3 B1 ltac:(easy) H1) as H1'.
  destruct (apply_complex_ok s3 TransposedT b1 (fun i => transfer_n_1 K inv dt (kk i)) false _ nt H1') as (s4 & -> & P4 & O4 & N4).
  cbn [bind fl_buf] in *.
  assert (K4 : keeps st s4 []) by (eapply keeps_new; [exact K3|exact O4|lia]).
  assert (P3' : complex_is (mem s4) (modes (next st)) (spec (fun x => F (re (synth c1 x))))).
  { eapply (keeps_complex s3 s4 []); [|lia|easy|exact P3]. eapply keeps_new; [apply keeps_refl|exact O4|lia]. }
  destruct (arith_complex s4 (@csub K) TransposedT _ _ _ _ nt P3' P4) as (s5 & E5 & P5 & O5 & N5).
  unfold np_subtract. rewrite E5. cbn [bind].
  assert (K5 : keeps st s5 []) by (eapply keeps_new; [exact K4|exact O5|lia]).
  destruct (apply_complex_ok s5 TransposedT (next s4) (fun i => transfer_n K inv dt (kk i)) true _ nt P5) as (s6 & -> & P6 & O6 & N6).
  cbn [bind fl_buf] in *.
  assert (K6 : keeps st s6 []) by (eapply keeps_new; [exact K5|exact O6|lia]).
  pose proof (keeps_complex _ _ _ _ _ _ K6 B2 ltac:(easy) H2) as H2'.
  destruct (arith_complex s6 (@csub K) TransposedT _ _ _ _ nt P6 H2') as (s7 & E7 & P7 & O7 & N7).
  exists (next s6), s7. split; [exact E7|]. split; [lia|]. split; [lia|]. split; [eapply keeps_new; [exact K6|exact O7|lia]|]. exact P7.
Qed.

Local Notation view c := (on_blocks c (me_blocks K me TransposedT)).
Lemma view_eq m b c : complex_is m (modes b) c -> complex_view K m (modes b) = view c.
Proof.
  intros H. unfold complex_view. cbn [fl_mesh fl_type]. unfold on_blocks. apply map_ext_in. intros bl Hbl. unfold on_block. f_equal.
  apply map_ext_in. intros k Hk. apply H.
  eapply Permutation_in; [exact (tl_perm _ _ (go_complex _ _ _ _ G TransposedT nt))|]. apply in_flat_map.
  exists (on_block (fun _ => tt) (mkL (V := unit) (fst bl) (snd bl) [])). split; [|exact Hk].
  unfold on_blocks. apply in_map_iff. exists bl. split; [reflexivity|exact Hbl].
Qed.
Lemma view_ext (c d : list Z -> C) : (forall k, In k (cells_of (half base n)) -> c k = d k) -> view c = view d.
Proof.
  intros H. unfold on_blocks. apply map_ext_in. intros bl Hbl. unfold on_block. f_equal.
  apply map_ext_in. intros k Hk. apply H.
  eapply Permutation_in; [exact (tl_perm _ _ (go_complex _ _ _ _ G TransposedT nt))|]. apply in_flat_map.
  exists (on_block (fun _ => tt) (mkL (V := unit) (fst bl) (snd bl) [])). split; [|exact Hk].
  unfold on_blocks. apply in_map_iff. exists bl. split; [reflexivity|exact Hbl].
Qed.

Definition rate (dt : K) (c d : list Z -> C) : list Z -> C := fun k => cmul (csub (c k) (d k)) (cof (inv dt)).
Lemma kg_monitor_ok st t dt step b1 b c1 c : (b1 < next st)%nat -> (b < next st)%nat ->
  complex_is (mem st) (modes b1) c1 -> complex_is (mem st) (modes b) c ->
  exists st', kg_monitor K inv st t dt step (modes b1) (modes b) = Ret (mkE K t dt (view c1) (view (rate step c c1)), st') /\ keeps st st' [].
Proof.
  intros B1 B H1 H. unfold kg_monitor.
  destruct (arith_complex st (@csub K) TransposedT _ _ _ _ nt H H1) as (s1 & E1 & P1 & O1 & N1).
  unfold np_subtract. rewrite E1. cbn [bind].
  destruct (arith_complex_number s1 (fun a b => cmul a (cof (inv (re b)))) TransposedT _ step _ nt P1) as (s2 & E2 & P2 & O2 & N2).
  unfold np_divide. rewrite E2. cbn [bind]. exists s2.
  assert (K2 : keeps st s2 []) by (eapply keeps_new; [eapply keeps_new; [apply keeps_refl|exact O1|lia]|exact O2|lia]).
  split; [|exact K2]. repeat f_equal.
  - apply view_eq. eapply keeps_complex; [exact K2|exact B1|easy|exact H1].
  - apply view_eq. exact P2.
Qed.

(** ** the loop *)
Lemma kg_loop_ok (U : nat -> list Z -> C) (monitor : bool) l : forall (ds : list (K * K)) i u1 u2 un log st,
  length ds = i -> (forall j, (i <= j < i + length l)%nat -> forall k, In k (cells_of (half base n)) ->
     U (S (S j)) k = modes_step (snd (nth j (ds ++ l) (r0, r0))) (U (S j)) (U j) k) ->
  u1 <> u2 -> (u1 < next st)%nat -> (u2 < next st)%nat ->
  complex_is (mem st) (modes u1) (U (S i)) -> complex_is (mem st) (modes u2) (U i) ->
  exists un' st', kg_loop K inv junk units F monitor l (modes u1) (modes u2) un log st =
     Ret (un', log ++ (if monitor then map (fun j => let p := nth j (ds ++ l) (r0, r0) in
            mkE K (fst p) (snd p) (view (U (S j))) (view (rate (snd p) (U (S (S j))) (U (S j))))) (seq i (length l)) else []), st') /\
    keeps st st' [u1; u2] /\ (u1 < next st')%nat /\
    (l = [] -> un' = un) /\
    (l <> [] -> exists b, un' = Some (modes b, snd (last l (r0, r0))) /\ (b < next st')%nat /\
       complex_is (mem st') (modes b) (U (S (i + length l)))) /\
    complex_is (mem st') (modes u1) (U (S (i + length l))).
Proof.
  induction l as [|[t dt] l IH]; intros ds i u1 u2 un log st Hi HU Hne B1 B2 H1 H2.
  - exists un, st. cbn [kg_loop length seq map]. split; [destruct monitor; now rewrite app_nil_r|].
    split; [apply keeps_refl|]. split; [exact B1|]. split; [reflexivity|]. split; [congruence|]. now rewrite Nat.add_0_r.
  - cbn [kg_loop]. destruct (kg_next_ok st u1 u2 dt _ _ B1 B2 H1 H2) as (b & s1 & -> & Hb1 & Hb2 & K1 & P1). cbn [bind].
    assert (En : nth i (ds ++ (t, dt) :: l) (r0, r0) = (t, dt)) by (rewrite app_nth2 by lia; now rewrite Hi, Nat.sub_diag).
    assert (P1' : complex_is (mem s1) (modes b) (U (S (S i)))).
    { intros k Hk. rewrite (P1 k Hk). symmetry. rewrite (HU i); [now rewrite En|cbn; lia|exact Hk]. }
    pose proof (proj1 K1) as L1.
    pose proof (keeps_complex _ _ _ _ _ _ K1 B1 ltac:(easy) H1) as Q1.
    assert (M : exists s2, (if monitor then bind (kg_monitor K inv s1 t dt dt (modes u1) (modes b)) (fun '(e, st0) => Ret (log ++ [e], st0)) else Ret (log, s1)) =
        Ret (log ++ (if monitor then [mkE K t dt (view (U (S i))) (view (rate dt (U (S (S i))) (U (S i))))] else []), s2) /\ keeps s1 s2 []).
    { destruct monitor.
      - destruct (kg_monitor_ok s1 t dt dt u1 b _ _ ltac:(lia) Hb2 Q1 P1') as (s2 & -> & K2). cbn [bind]. exists s2. split; [reflexivity|exact K2].
      - exists s1. rewrite app_nil_r. split; [reflexivity|apply keeps_refl]. }
    destruct M as (s2 & -> & K2). cbn [bind]. pose proof (proj1 K2) as L2.
    assert (R1 : complex_is (mem s2) (modes u1) (U (S i))) by (eapply keeps_complex; [exact K2|lia|easy|exact Q1]).
    pose proof (keeps_complex _ _ _ _ _ _ K2 Hb2 ltac:(easy) P1') as R2.
    destruct (assign_ok s2 TransposedT u2 u1 _ nt R1) as (A1 & O3). set (s3 := assign K s2 (modes u2) (modes u1)) in *.
    assert (K3 : keeps s2 s3 [u1; u2]) by (eapply keeps_in; [apply keeps_refl|right; now left|exact O3]).
    assert (R3 : complex_is (mem s3) (modes b) (U (S (S i)))) by (eapply keeps_complex; [exact K3|lia|intros [X|[X|[]]]; lia|exact R2]).
    destruct (assign_ok s3 TransposedT u1 b _ nt R3) as (A2 & O4). set (s4 := assign K s3 (modes u1) (modes b)) in *.
    pose proof (proj1 O3) as L3. pose proof (proj1 O4) as L4.
    assert (A1' : complex_is (mem s4) (modes u2) (U (S i))).
    { intros k Hk. rewrite <- (A1 k Hk). unfold complex_at. cbn [fl_buf fl_mesh fl_type]. now rewrite !(proj2 O4) by auto. }
    assert (R4 : complex_is (mem s4) (modes b) (U (S (S i)))).
    { intros k Hk. rewrite <- (R3 k Hk). unfold complex_at. cbn [fl_buf fl_mesh fl_type]. rewrite !(proj2 O4); [reflexivity|lia|lia]. }
    assert (K4 : keeps st s4 [u1; u2]).
    { eapply keeps_trans; [apply keeps_sub; exact K1|]. eapply keeps_trans; [apply keeps_sub; exact K2|].
      eapply keeps_in; [exact K3|now left|exact O4]. }
    destruct (IH (ds ++ [(t, dt)]) (S i) u1 u2 (Some (modes b, dt)) (log ++ (if monitor then [mkE K t dt (view (U (S i))) (view (rate dt (U (S (S i))) (U (S i))))] else [])) s4)
      as (un' & s5 & E5 & K5 & B5 & N5 & S5 & P5); [rewrite app_length; cbn; lia| |exact Hne|lia|lia|exact A2|exact A1'|].
    { intros j Hj k Hk. rewrite <- app_assoc. apply HU; [cbn; lia|exact Hk]. }
    exists un', s5. split; [|split; [|split; [exact B5|split; [discriminate|split]]]].
    + rewrite E5. f_equal. f_equal. f_equal. rewrite <- app_assoc. f_equal. destruct monitor; [|reflexivity].
      cbn [length seq map]. rewrite En. cbn [fst snd app]. f_equal. rewrite <- app_assoc. reflexivity.
    + eapply keeps_trans; [exact K4|exact K5].
    + intros _. destruct l as [|p l].
      * specialize (N5 eq_refl). subst un'. cbn [kg_loop] in E5. inversion E5; subst s5. exists b. split; [reflexivity|]. split; [lia|].
        cbn [length]. rewrite Nat.add_1_r. exact R4.
      * destruct S5 as (b' & E & Hb' & P); [discriminate|]. exists b'. split; [rewrite E; reflexivity|]. split; [exact Hb'|].
        cbn [length] in P |- *. rewrite Nat.add_succ_r. exact P.
    + cbn [length]. rewrite Nat.add_succ_r. exact P5.
Qed.
(** ** the whole solver *)
Fixpoint recurrence (ds : list K) (c0 c1 : list Z -> C) (i : nat) : (list Z -> C) * (list Z -> C) :=
  match i with
  | O => (c0, c1)
  | S j => let r := recurrence ds c0 c1 j in (snd r, modes_step (nth (S j) ds r0) (snd r) (fst r))
  end.
Lemma recurrence_next ds c0 c1 j : fst (recurrence ds c0 c1 (S (S j))) =
  modes_step (nth (S j) ds r0) (fst (recurrence ds c0 c1 (S j))) (fst (recurrence ds c0 c1 j)).
Proof. reflexivity. Qed.

Lemma diff_length l : length (diff K l) = (length l - 1)%nat.
Proof. induction l as [|a [|b l] IH]; [reflexivity|reflexivity|]. change (diff K (a :: b :: l)) with (rsub b a :: diff K (b :: l)). cbn [length] in *. lia. Qed.
Lemma diff_nth l i : (S i < length l)%nat -> nth i (diff K l) r0 = rsub (nth (S i) l r0) (nth i l r0).
Proof.
  revert i. induction l as [|a [|b l] IH]; intros i Hi; [cbn in Hi; lia|cbn in Hi; lia|].
  change (diff K (a :: b :: l)) with (rsub b a :: diff K (b :: l)). destruct i as [|i]; [reflexivity|].
  cbn [nth]. rewrite IH by (cbn in *; lia). reflexivity.
Qed.

(** the operators of the scheme at the mode [k]: 1 / dt^2 + (k^2 + 1) / 4 and - 1 / dt^2 + (k^2 + 1) / 4 *)
Definition energy (k : list Z) : K := rmul (inv (radd (radd r1 r1) (radd r1 r1))) (radd (rsum (fun w => rmul w w) (wave K units (N base n) k)) r1).
Definition A (dt : K) (k : list Z) : K := radd (inv (rmul dt dt)) (energy k).
Definition B (dt : K) (k : list Z) : K := rsub (energy k) (inv (rmul dt dt)).

Lemma fold_sum (g : K -> K) l : forall s, fold_left (fun s x => radd s (g x)) l s = radd s (rsum g l).
Proof. induction l as [|x l IH]; intros s; cbn [fold_left]; [cbn; ring|]. rewrite IH. change (rsum g (x :: l)) with (radd (g x) (rsum g l)). ring. Qed.
Lemma k2_sum k : k_squared K (kk k) = rsum (fun w => rmul w w) (wave K units (N base n) k).
Proof. unfold k_squared, k_of. rewrite (fold_sum (fun w => square K w)), (go_nmesh _ _ _ _ G). unfold square. ring. Qed.
Lemma factor_A dt k : factor_n K inv dt (kk k) = A dt k.
Proof.
  unfold factor_n, A, energy, quarter, square. rewrite k2_sum.
  replace (radd (radd (radd r1 r1) r1) r1 : K) with (radd (radd r1 r1) (radd r1 r1) : K) by ring. ring.
Qed.
Lemma factor_B dt k : factor_n_1 K inv dt (kk k) = B dt k.
Proof.
  unfold factor_n_1, B, energy, quarter, square. rewrite k2_sum.
  replace (radd (radd (radd r1 r1) r1) r1 : K) with (radd (radd r1 r1) (radd r1 r1) : K) by ring. ring.
Qed.
Hypothesis inverse : forall x : K, x <> r0 -> rmul x (inv x) = r1.
Lemma step_equation dt c1 c2 k : A dt k <> r0 ->
  cadd (cadd (cmul (cof (A dt k)) (modes_step dt c1 c2 k)) (cmul (cof (B dt k)) (c1 k))) (cmul (cof (A dt k)) (c2 k)) =
  spec (fun x => F (re (synth c1 x))) k.
Proof.
  intros HA. unfold modes_step, transfer_n, transfer_n_1. rewrite factor_A, factor_B. pose proof (inverse _ HA) as E.
  set (a := A dt k) in *. set (i := inv a) in *. set (w := spec _ k). set (bb := B dt k). destruct w as [wr wi], (c1 k) as [ur ui], (c2 k) as [vr vi].
  unfold cadd, cmul, csub, cof, re, im. cbn [fst snd]. f_equal.
  - transitivity (radd (rmul (rmul a i) (rsub wr (rsub (rmul bb ur) (rmul r0 ui)))) (rmul bb ur)); [ring|]. rewrite E. ring.
  - transitivity (radd (rmul (rmul a i) (rsub wi (radd (rmul bb ui) (rmul r0 ur)))) (rmul bb ui)); [ring|]. rewrite E. ring.
Qed.

(** what the monitor is shown: times, steps and the modes with their rates of change; the rate at the end is zero *)
Definition expected_log (steps : list K) (U : nat -> list Z -> C) (V : list Z -> C) : list (entry K) :=
  let last := (length steps - 1)%nat in
  let dt i := rsub (nth (S i) steps r0) (nth i steps r0) in
  mkE K (nth 0 steps r0) (dt 0%nat) (view (U 0%nat)) (view V) ::
  map (fun i => mkE K (nth i steps r0) (dt i) (view (U i)) (view (fun k => cmul (csub (U (S i) k) (U i k)) (cof (inv (dt i)))))) (seq 1 (last - 1)) ++
  [mkE K (nth last steps r0) r0 (view (U last)) (view (fun _ => c0))].

Theorem C89_modes : forall monitor steps u0 du0 st f0 f1,
  (3 <= length steps)%nat ->
  (forall i k, (1 <= i < length steps - 1)%nat -> In k (cells_of (half base n)) ->
     A (rsub (nth (S i) steps r0) (nth i steps r0)) k <> r0) ->
  (u0 < next st)%nat -> (du0 < next st)%nat ->
  real_is (mem st) (fresh RealT u0) f0 -> real_is (mem st) (fresh RealT du0) f1 ->
  exists U u st', kgsolver K inv junk units F monitor steps (fresh RealT u0) (fresh RealT du0) st =
      Ret (fresh RealT u, (if monitor then expected_log steps U (spec f1) else []), st') /\
    (forall b a, (b < next st)%nat -> mem st' b a = mem st b a) /\ (next st <= u)%nat /\
    real_is (mem st') (fresh RealT u) (fun x => re (synth (U (length steps - 1)%nat) x)) /\
    U 0%nat = spec f0 /\ U 1%nat = spec (fun x => radd (f0 x) (rmul (f1 x) (rsub (nth 1 steps r0) (nth 0 steps r0)))) /\
    forall i, (1 <= i < length steps - 1)%nat -> 
      let dt := rsub (nth (S i) steps r0) (nth i steps r0) in
      forall k, In k (cells_of (half base n)) ->
        cadd (cadd (cmul (cof (A dt k)) (U (S i) k)) (cmul (cof (B dt k)) (U i k))) (cmul (cof (A dt k)) (U (i - 1)%nat k)) =
        spec (fun x => F (re (synth (U i) x))) k.
Proof.
  intros monitor steps u0 du0 st f0 f1 L HA B0 B1 H0 H1.
  set (d0 := rsub (nth 1 steps r0) (nth 0 steps r0)).
  set (U := fun i => fst (recurrence (diff K steps) (spec f0) (spec (fun x => radd (f0 x) (rmul (f1 x) d0))) i)).
  assert (Hdt : forall i, (1 <= i < length steps - 1)%nat -> nth i (diff K steps) r0 = rsub (nth (S i) steps r0) (nth i steps r0)) by (intros i Hi; apply diff_nth; lia).
  assert (HU : forall j, (0 <= j < length steps - 2)%nat -> U (S (S j)) = modes_step (nth (S j) (diff K steps) r0) (U (S j)) (U j)) by reflexivity.
  exists U. unfold kgsolver.
  destruct (r2c_ok K base n me G junk st u0 (OutNone K) _ H0 ltac:(discriminate)) as (s1 & -> & P1 & O1 & N1).
  cbn [result_of fl_buf] in P1, O1. cbn [bind result_of].
  assert (K1 : keeps st s1 []) by (eapply keeps_new; [apply keeps_refl|exact O1|lia]).
  destruct (diff K steps) as [|dt0 rest] eqn:Ed; [pose proof (diff_length steps) as X; rewrite Ed in X; cbn in X; lia|].
  assert (E0 : dt0 = d0) by (pose proof (diff_nth steps 0 ltac:(lia)) as X; rewrite Ed in X; exact X).
  assert (Lr : length rest = (length steps - 2)%nat) by (pose proof (diff_length steps) as X; rewrite Ed in X; cbn in X; lia).
  pose proof (keeps_real _ _ _ _ _ K1 B1 ltac:(easy) H1) as H1a.
  destruct (arith_real_number s1 (@cmul K) (@rmul K) du0 dt0 f1 ltac:(intros; unfold cmul, cof, re, im; cbn; f_equal; ring) H1a) as (s2 & E2 & P2 & O2 & N2).
  unfold np_multiply. rewrite E2. cbn [bind].
  assert (K2 : keeps st s2 []) by (eapply keeps_new; [exact K1|exact O2|lia]).
  pose proof (keeps_real _ _ _ _ _ K2 B0 ltac:(easy) H0) as H0b.
  destruct (arith_real s2 (@cadd K) (@radd K) u0 (next s1) f0 _ ltac:(intros; unfold cadd, cof, re, im; cbn; f_equal; ring) H0b P2) as (s3 & E3 & P3 & O3 & N3).
  unfold np_add. rewrite E3. cbn [bind].
  assert (K3 : keeps st s3 []) by (eapply keeps_new; [exact K2|exact O3|lia]).
  destruct (r2c_ok K base n me G junk s3 (next s2) (OutNone K) _ P3 ltac:(discriminate)) as (s4 & -> & P4 & O4 & N4).
  cbn [result_of fl_buf] in P4, O4. cbn [bind result_of].
  assert (K4 : keeps st s4 []) by (eapply keeps_new; [exact K3|exact O4|lia]).
  assert (P1' : complex_is (mem s4) (modes (next st)) (spec f0)).
  { eapply (keeps_complex s1 s4 []); [|lia|easy|exact P1].
    eapply keeps_new; [eapply keeps_new; [eapply keeps_new; [apply keeps_refl|exact O2|lia]|exact O3|lia]|exact O4|lia]. }
  assert (M : exists s5, (if monitor then bind (r2c K junk s4 (fresh RealT u0) (OutNone K)) (fun '(a, st0) => bind (r2c K junk st0 (fresh RealT du0) (OutNone K)) (fun '(b, st1) =>
        Ret ([mkE K (hd r0 steps) dt0 (complex_view K (mem st1) a) (complex_view K (mem st1) b)], st1))) else Ret ([], s4)) =
        Ret (if monitor then [mkE K (hd r0 steps) d0 (view (spec f0)) (view (spec f1))] else [], s5) /\ keeps s4 s5 []).
  { destruct monitor; [|exists s4; split; [reflexivity|apply keeps_refl]].
    pose proof (keeps_real _ _ _ _ _ K4 B0 ltac:(easy) H0) as H0c.
    destruct (r2c_ok K base n me G junk s4 u0 (OutNone K) _ H0c ltac:(discriminate)) as (s5 & -> & P5 & O5 & N5).
    cbn [result_of fl_buf] in P5, O5. cbn [bind result_of].
    assert (K5 : keeps st s5 []) by (eapply keeps_new; [exact K4|exact O5|destruct K4; lia]).
    pose proof (keeps_real _ _ _ _ _ K5 B1 ltac:(easy) H1) as H1c.
    destruct (r2c_ok K base n me G junk s5 du0 (OutNone K) _ H1c ltac:(discriminate)) as (s6 & -> & P6 & O6 & N6).
    cbn [result_of fl_buf] in P6, O6. cbn [bind result_of].
    exists s6. assert (K6 : keeps s4 s6 []) by (eapply keeps_new; [eapply keeps_new; [apply keeps_refl|exact O5|lia]|exact O6|lia]).
    split; [|exact K6]. rewrite E0. repeat f_equal.
    - apply view_eq. eapply (keeps_complex s5 s6 []); [eapply keeps_new; [apply keeps_refl|exact O6|lia]|lia|easy|exact P5].
    - apply view_eq. exact P6. }
  destruct M as (s5 & -> & K5). cbn [bind]. pose proof (proj1 K4) as L4. pose proof (proj1 K5) as L5.
  set (l := combine (tl steps) rest).
  assert (Ltl : length (tl steps) = (length steps - 1)%nat) by (destruct steps; cbn; lia).
  assert (Ll : length l = (length steps - 2)%nat) by (unfold l; rewrite combine_length; lia).
  assert (Nl : forall j, (j < length steps - 2)%nat -> nth j l (r0, r0) = (nth (S j) steps r0, rsub (nth (S (S j)) steps r0) (nth (S j) steps r0))).
  { intros j Hj. unfold l. 
    assert (X : nth j rest r0 = rsub (nth (S (S j)) steps r0) (nth (S j) steps r0)) by (pose proof (diff_nth steps (S j) ltac:(lia)) as X; rewrite Ed in X; exact X).
    rewrite <- X. destruct steps as [|t0 ts]; [cbn in L; lia|]. cbn [tl nth].
    clear -Hj Lr. cbn [length] in *. revert j rest Hj Lr. induction ts as [|t ts IH]; intros j rest Hj Lr; [cbn in Hj; lia|].
    destruct rest as [|r rest]; [cbn in *; lia|]. destruct j as [|j]; [reflexivity|]. cbn [combine nth]. apply IH; cbn in *; lia. }
  destruct (kg_loop_ok U monitor l [] 0%nat (next s3) (next st) None
     (if monitor then [mkE K (hd r0 steps) d0 (view (spec f0)) (view (spec f1))] else []) s5) as (un' & s6 & E6 & K6 & B6 & N6 & S6 & P6).
  { reflexivity. }
  { intros j Hj k Hk. rewrite HU by lia. f_equal. cbn [app]. rewrite Nl by lia. cbn [snd].
    pose proof (Hdt (S j) ltac:(lia)) as X. exact X. }
  { lia. } { lia. } { lia. }
  { eapply keeps_complex; [exact K5|lia|easy|]. unfold U. cbn [recurrence fst snd]. rewrite <- E0. exact P4. }
  { eapply keeps_complex; [exact K5|lia|easy|exact P1']. }
  rewrite E6. cbn [bind]. destruct S6 as (b & -> & Hb & P7); [intros X; rewrite X in Ll; cbn in Ll; lia|].
  cbn [Nat.add] in P6, P7. replace (S (length l)) with (length steps - 1)%nat in P6, P7 by lia.
  set (log := _ ++ _). set (dtl := snd (last l (r0, r0))).
  assert (M : exists s7, (if monitor then bind (kg_monitor K inv s6 (last steps r0) r0 dtl (modes (next s3)) (modes b)) (fun '(e, st0) => Ret (log ++ [e], st0)) else Ret (log, s6)) =
     Ret (if monitor then expected_log steps U (spec f1) else [], s7) /\ keeps s6 s7 []).
  { destruct monitor.
    - destruct (kg_monitor_ok s6 (last steps r0) r0 dtl (next s3) b _ _ B6 Hb P6 P7) as (s7 & -> & K7). cbn [bind]. exists s7. split; [|exact K7].
      f_equal. f_equal. unfold log, expected_log. cbn [app]. f_equal.
      { destruct steps; [cbn in L; lia|]. reflexivity. }
      f_equal.
      + rewrite Ll. rewrite <- seq_shift, map_map. replace (length steps - 1 - 1)%nat with (length steps - 2)%nat by lia.
        apply map_ext_in. intros j Hj. apply in_seq in Hj. cbv zeta. rewrite Nl by lia. reflexivity.
      + f_equal. f_equal.
        * destruct steps as [|t0 ts]; [cbn in L; lia|]. clear. cbn [length]. rewrite Nat.sub_succ, Nat.sub_0_r. revert t0. induction ts as [|t ts IH]; intros t0; [reflexivity|]. cbn [length]. change (last (t0 :: t :: ts) r0) with (last (t :: ts) r0). rewrite IH. reflexivity.
        * apply view_ext. intros k _. unfold rate. unfold csub, cmul, cof, c0, re, im. cbn. f_equal; ring.
    - exists s6. split; [|apply keeps_refl]. reflexivity. }
  destruct M as (s7 & -> & K7). cbn [bind].
  pose proof (keeps_complex _ _ _ _ _ _ K7 Hb ltac:(easy) P7) as P8.
  destruct (c2r_ok K base n me G junk s7 TransposedT b (OutNone K) _ nt P8 ltac:(discriminate)) as (s8 & -> & P9 & O9 & N9).
  cbn [result_of fl_buf] in P9, O9. cbn [bind result_of]. pose proof (proj1 K6) as L6. pose proof (proj1 K7) as L7.
  exists (next s7), s8. split; [reflexivity|]. split; [|split; [lia|split; [exact P9|split; [reflexivity|split; [reflexivity|]]]]].
  - intros b' a Hb'. rewrite (proj2 O9) by lia. rewrite (proj2 K7) by (auto; lia). rewrite (proj2 K6); [|lia|intros [X|[X|[]]]; lia].
    rewrite (proj2 K5) by (auto; lia). rewrite (proj2 K4) by auto. reflexivity.
  - intros i Hi k Hk. destruct i as [|j]; [lia|]. rewrite HU by lia. rewrite Nat.sub_succ, Nat.sub_0_r.
    pose proof (Hdt (S j) ltac:(lia)) as X. rewrite X. apply step_equation. apply HA; [lia|exact Hk].
Qed.

(** Without a third time there is nothing to return. *)
Theorem C89_short : forall monitor steps u0 du0 st f0 f1,
  (u0 < next st)%nat -> (du0 < next st)%nat ->
  real_is (mem st) (fresh RealT u0) f0 -> real_is (mem st) (fresh RealT du0) f1 ->
  ((length steps <= 1)%nat -> kgsolver K inv junk units F monitor steps (fresh RealT u0) (fresh RealT du0) st = Raise IndexError) /\
  (length steps = 2%nat -> kgsolver K inv junk units F monitor steps (fresh RealT u0) (fresh RealT du0) st = Raise NameError).
Proof.
  intros monitor steps u0 du0 st f0 f1 B0 B1 H0 H1. unfold kgsolver.
  destruct (r2c_ok K base n me G junk st u0 (OutNone K) _ H0 ltac:(discriminate)) as (s1 & -> & P1 & O1 & N1).
  cbn [result_of fl_buf] in P1, O1. cbn [bind result_of].
  assert (K1 : keeps st s1 []) by (eapply keeps_new; [apply keeps_refl|exact O1|lia]).
  destruct steps as [|t0 [|t1 [|t2 r]]]; cbn [length diff]; (split; [intros L; try reflexivity; lia|intros L; try discriminate]).
  pose proof (keeps_real _ _ _ _ _ K1 B1 ltac:(easy) H1) as H1a.
  destruct (arith_real_number s1 (@cmul K) (@rmul K) du0 (rsub t1 t0) f1 ltac:(intros; unfold cmul, cof, re, im; cbn; f_equal; ring) H1a) as (s2 & E2 & P2 & O2 & N2).
  unfold np_multiply. rewrite E2. cbn [bind].
  assert (K2 : keeps st s2 []) by (eapply keeps_new; [exact K1|exact O2|lia]).
  pose proof (keeps_real _ _ _ _ _ K2 B0 ltac:(easy) H0) as H0b.
  destruct (arith_real s2 (@cadd K) (@radd K) u0 (next s1) f0 _ ltac:(intros; unfold cadd, cof, re, im; cbn; f_equal; ring) H0b P2) as (s3 & E3 & P3 & O3 & N3).
  unfold np_add. rewrite E3. cbn [bind].
  assert (K3 : keeps st s3 []) by (eapply keeps_new; [exact K2|exact O3|lia]).
  destruct (r2c_ok K base n me G junk s3 (next s2) (OutNone K) _ P3 ltac:(discriminate)) as (s4 & -> & P4 & O4 & N4).
  cbn [result_of fl_buf] in P4, O4. cbn [bind result_of].
  assert (K4 : keeps st s4 []) by (eapply keeps_new; [exact K3|exact O4|lia]).
  destruct monitor; [|reflexivity].
  pose proof (keeps_real _ _ _ _ _ K4 B0 ltac:(easy) H0) as H0c.
  destruct (r2c_ok K base n me G junk s4 u0 (OutNone K) _ H0c ltac:(discriminate)) as (s5 & -> & P5 & O5 & N5).
  cbn [result_of fl_buf] in P5, O5. cbn [bind result_of].
  assert (K5 : keeps st s5 []) by (eapply keeps_new; [exact K4|exact O5|destruct K4; lia]).
  pose proof (keeps_real _ _ _ _ _ K5 B1 ltac:(easy) H1) as H1c.
  destruct (r2c_ok K base n me G junk s5 du0 (OutNone K) _ H1c ltac:(discriminate)) as (s6 & -> & P6 & O6 & N6).
  reflexivity.
Qed.

(** ** in terms of the fields *)
Hypothesis two : forall a : K, radd a a = r0 -> a = r0.
Hypothesis even : Forall (fun m => Z.even m = true) (N base n).
Lemma sizes_pos : Forall (fun m => (0 < m)%Z /\ Z.even m = true) (N base n).
Proof.
  pose proof (mesh_roots_pos K _ _ _ (go_roots _ _ _ _ G)) as P. rewrite Forall_forall in *. intros m Hm. split; auto.
Qed.
Lemma wave_square us Ns k : Forall (fun m => (0 < m)%Z /\ Z.even m = true) Ns -> valid_index Ns k ->
  rsum (fun w => rmul w w) (wave K us Ns (opposite Ns k)) = rsum (fun w => rmul w w) (wave K us Ns k).
Proof.
  intros Ev V. unfold wave, opposite. revert us. induction V as [|m j Ns k Hj V IH]; intros us.
  - destruct us; reflexivity.
  - destruct us as [|u us]; [reflexivity|]. rewrite map2_cons. inversion_clear Ev as [|? ? [Hn En] Ev'].
    cbn [combine map fst snd]. change (rsum (fun w => rmul w w) (?x :: ?l)) with (radd (rmul x x) (rsum (fun w => rmul w w) l)).
    rewrite (IH Ev' us). f_equal. rewrite C41_odd by assumption. destruct (Z.eqb_spec (2 * j) m); [reflexivity|]. rewrite zin_opp. ring.
Qed.
Lemma energy_opposite k : In k (cells_of (half base n)) -> energy (opposite (N base n) k) = energy k.
Proof. intros Hk. unfold energy. rewrite wave_square; [reflexivity|apply sizes_pos|eapply half_full; [exact (go_roots _ _ _ _ G)|exact Hk]]. Qed.
Lemma spec_hermitian f : hermitian K (N base n) (half base n) (spec f).
Proof. intros k Hk _. apply spectrum_opposite; [exact (go_roots _ _ _ _ G)|]. eapply half_full; [exact (go_roots _ _ _ _ G)|exact Hk]. Qed.
Lemma real_round_trip f x : In x (cells_of (N base n)) -> re (synth (spec f) x) = f x.
Proof.
  intros Hx. pose proof (go_roots _ _ _ _ G) as R.
  pose proof (go_complex _ _ _ _ G TransposedT nt) as TC. pose proof (go_real _ _ _ _ G) as TR.
  set (Ls := on_blocks f (me_blocks K me RealT)). set (Mid := on_blocks (fun _ => c0) (me_blocks K me TransposedT) : list (lfield C)).
  assert (TL : tiles (N base n) Ls) by (eapply on_blocks_tiles; exact TR).
  assert (TM : tiles (half base n) Mid) by (eapply on_blocks_tiles; exact TC).
  pose proof (C44_c2r_r2c K base n _ _ R Ls Ls Mid f TL (on_blocks_holds _ _) TM TL) as H1.
  pose proof (r2c_holds K base n (me_roots K me) (me_invs K me) Ls Mid f TL (on_blocks_holds _ _)) as H2.
  assert (T2 : tiles (half base n) (FourierModel.r2c K (me_roots K me) (me_invs K me) Ls Mid)).
  { eapply tiles_same; [| |exact TM]; unfold FourierModel.r2c; rewrite map_map; reflexivity. }
  pose proof (c2r_holds K base n _ _ R _ Ls _ T2 H2 TL) as H3.
  change ((fun x => re (synth (spec f) x)) x = f x). eapply holds_unique; [|exact H3|exact H1|exact Hx].
  eapply tiles_same; [| |exact TL]; unfold FourierModel.c2r; rewrite map_map; reflexivity.
Qed.
Lemma cancel (a : K) (z w : C) : a <> r0 -> cmul (cof a) z = cmul (cof a) w -> z = w.
Proof.
  intros Ha E. apply (f_equal (cmul (cof (inv a)))) in E. pose proof (inverse a Ha) as I.
  destruct z as [zr zi], w as [wr wi]. unfold cmul, cof, re, im in E. cbn [fst snd] in E. inversion E as [[E1 E2]].
  f_equal.
  - transitivity (rmul (rmul a (inv a)) zr); [rewrite I; ring|]. transitivity (rmul (rmul a (inv a)) wr); [|rewrite I; ring].
    transitivity (rsub (rmul (inv a) (rsub (rmul a zr) (rmul r0 zi))) (rmul r0 (radd (rmul a zi) (rmul r0 zr)))); [ring|]. rewrite E1. ring.
  - transitivity (rmul (rmul a (inv a)) zi); [rewrite I; ring|]. transitivity (rmul (rmul a (inv a)) wi); [|rewrite I; ring].
    transitivity (radd (rmul (inv a) (radd (rmul a zi) (rmul r0 zr))) (rmul r0 (rsub (rmul a zr) (rmul r0 zi)))); [ring|]. rewrite E2. ring.
Qed.

Theorem C89_fields : forall monitor steps u0 du0 st f0 f1,
  (3 <= length steps)%nat ->
  (forall i k, (1 <= i < length steps - 1)%nat -> In k (cells_of (half base n)) ->
     A (rsub (nth (S i) steps r0) (nth i steps r0)) k <> r0) ->
  (u0 < next st)%nat -> (du0 < next st)%nat ->
  real_is (mem st) (fresh RealT u0) f0 -> real_is (mem st) (fresh RealT du0) f1 ->
  exists (v : nat -> list Z -> K) u st', kgsolver K inv junk units F monitor steps (fresh RealT u0) (fresh RealT du0) st =
      Ret (fresh RealT u, (if monitor then expected_log steps (fun i => spec (v i)) (spec f1) else []), st') /\
    (forall b a, (b < next st)%nat -> mem st' b a = mem st b a) /\
    real_is (mem st') (fresh RealT u) (v (length steps - 1)%nat) /\
    (forall x, In x (cells_of (N base n)) -> v 0%nat x = f0 x /\ v 1%nat x = radd (f0 x) (rmul (f1 x) (rsub (nth 1 steps r0) (nth 0 steps r0)))) /\
    forall i, (1 <= i < length steps - 1)%nat ->
      let dt := rsub (nth (S i) steps r0) (nth i steps r0) in
      forall k, In k (cells_of (half base n)) ->
        cadd (cadd (cmul (cof (A dt k)) (spec (v (S i)) k)) (cmul (cof (B dt k)) (spec (v i) k))) (cmul (cof (A dt k)) (spec (v (i - 1)%nat) k)) =
        spec (fun x => F (v i x)) k.
Proof.
  intros monitor steps u0 du0 st f0 f1 L HA B0 B1 H0 H1.
  destruct (C89_modes monitor steps u0 du0 st f0 f1 L HA B0 B1 H0 H1) as (U & u & st' & E & Fr & _ & R & U0 & U1 & Eq).
  set (v := fun i x => re (synth (U i) x)).
  assert (H : forall i, (i < length steps)%nat -> hermitian K (N base n) (half base n) (U i) /\ ((S i < length steps)%nat -> hermitian K (N base n) (half base n) (U (S i)))).
  { induction i as [|i IH]; intros Hi.
    - rewrite U0, U1. split; [apply spec_hermitian|intros _; apply spec_hermitian].
    - destruct IH as [I1 I2]; [lia|]. specialize (I2 Hi). split; [exact I2|]. intros Hs k Hk Ho.
      pose proof (Eq (S i) ltac:(lia) k Hk) as E1. pose proof (Eq (S i) ltac:(lia) _ Ho) as E2. cbv zeta in E1, E2.
      rewrite Nat.sub_succ, Nat.sub_0_r in E1, E2. set (dt := rsub (nth (S (S i)) steps r0) (nth (S i) steps r0)) in *.
      assert (EA : A dt (opposite (N base n) k) = A dt k) by (unfold A; now rewrite energy_opposite).
      assert (EB : B dt (opposite (N base n) k) = B dt k) by (unfold B; now rewrite energy_opposite).
      rewrite EA, EB, (I1 k Hk Ho), (I2 k Hk Ho), (spec_hermitian _ k Hk Ho), <- E1 in E2.
      apply (cancel (A dt k)); [apply HA; [lia|exact Hk]|].
      destruct (U (S (S i)) (opposite (N base n) k)) as [pr pi], (U (S (S i)) k) as [qr qi], (U (S i) k) as [rr ri], (U i k) as [sr si].
      unfold cadd, cmul, cof, cconj, re, im in *. cbn [fst snd] in *. inversion E2 as [[X Y]]. f_equal.
      + match type of X with ?l = ?r => transitivity (rsub l (rsub r (rsub (rmul (A dt k) qr) (rmul r0 (ropp qi))))); [ring|rewrite X; ring] end.
      + match type of Y with ?l = ?r => transitivity (rsub l (rsub r (radd (rmul (A dt k) (ropp qi)) (rmul r0 qr)))); [ring|rewrite Y; ring] end. }
  assert (S1 : forall i, (i < length steps)%nat -> forall k, In k (cells_of (half base n)) -> spec (v i) k = U i k).
  { intros i Hi k Hk. apply (round_trip K base n me G two); [apply H; exact Hi|exact Hk]. }
  exists v, u, st'. split; [|split; [exact Fr|split; [exact R|split]]].
  - rewrite E. destruct monitor; [|reflexivity]. f_equal. f_equal. f_equal. unfold expected_log.
    f_equal; [f_equal; apply view_ext; intros k Hk; symmetry; apply S1; [lia|exact Hk]|]. f_equal.
    + apply map_ext_in. intros i Hi. apply in_seq in Hi. f_equal.
      * apply view_ext. intros k Hk. symmetry. apply S1; [lia|exact Hk].
      * apply view_ext. intros k Hk. rewrite !S1 by (auto; lia). reflexivity.
    + f_equal. f_equal. apply view_ext. intros k Hk. symmetry. apply S1; [lia|exact Hk].
  - intros x Hx. unfold v. rewrite U0, U1. split; now rewrite real_round_trip.
  - intros i Hi dt k Hk. rewrite !S1 by (auto; lia). apply Eq; assumption.
Qed.
End Klein.
Print Assumptions C89_modes.
Print Assumptions C89_short.
Print Assumptions C89_fields.

(** ** the mesh of C68: 4 x 2 cells on two ranks, boxes of the size 2 pi *)
Definition kg_st (padded : bool) (g : list Z -> Qcring) : state Qcring :=
  mkS Qcring (put_real Qcring (put_real Qcring (st_mem Qcring bx_start) (mkF Qcring (bx_mesh padded) RealT 0%nat) (on_blocks g (bx_blocks RealT)))
    (mkF Qcring (bx_mesh padded) RealT 1%nat) (on_blocks (fun _ => ex_q 0) (bx_blocks RealT))) 3%nat.
Definition kg_inv (x : Qcring) : Qcring := Qcinv x.
Lemma kg_inverse (x : Qcring) : x <> r0 -> rmul x (kg_inv x) = r1.
Proof. apply Qcmult_inv_r. Qed.
Definition kg_run (padded monitor : bool) (F : Qcring -> Qcring) (g : list Z -> Qcring) (steps : list Z) : outcome (field Qcring * list (entry Qcring) * state Qcring) :=
  kgsolver Qcring kg_inv bx_junk [ex_q 1; ex_q 1] F monitor (map ex_q steps)
    (mkF Qcring (bx_mesh padded) RealT 0%nat) (mkF Qcring (bx_mesh padded) RealT 1%nat) (kg_st padded g).

(** The documented scheme has twice the middle term.  A field that is constant in space and time solves it for F(u) = u,
    and solves the Klein-Gordon equation u'' = Laplace u - u + F(u); the solver does not keep it: it returns 2/5 for 1. *)
Definition kg_one : list Z -> Qcring := fun _ => ex_q 1.
Theorem C89_scheme_refuted : forall padded,
  (forall k, In k (cells_of (half [4] 2)) ->
     let s := spectrum Qcring [4] 2 ex_roots ex_invs kg_one k in
     let a := A Qcring kg_inv [4] 2 [ex_q 1; ex_q 1] (ex_q 1) k in let b := B Qcring kg_inv [4] 2 [ex_q 1; ex_q 1] (ex_q 1) k in
     cadd (cadd (cmul (cof a) s) (cmul (cof (radd b b)) s)) (cmul (cof a) s) = spectrum Qcring [4] 2 ex_roots ex_invs (fun x => kg_one x) k) /\
  exists u st', kg_run padded false (fun u => u) kg_one [0; 1; 2] = Ret (u, [], st') /\
    reals u st' = repeat (2 # 5)%Q 8.
Proof.
  intros padded. split.
  - intros k Hk. cbv zeta. apply Qc_eq2. revert k Hk. refine (proj1 (forallb_forall _ _) _). vm_compute. reflexivity.
  - assert (H : match kg_run padded false (fun u => u) kg_one [0; 1; 2] with Ret (u, l, st') => reals u st' = repeat (2 # 5)%Q 8 /\ l = [] | _ => False end)
      by (destruct padded; vm_compute; split; reflexivity).
    destruct (kg_run padded false (fun u => u) kg_one [0; 1; 2]) as [[[u l] st']| | |]; try contradiction.
    destruct H as [H ->]. exists u, st'. split; [reflexivity|exact H].
Qed.
Print Assumptions C89_scheme_refuted.

(** four times, a field that varies, F(u) = - u^3: the theorem applies, and what the monitor sees of the mean; the last
    rate is zero although the mean still changes *)
Lemma kg_state padded g : real_is Qcring [4] 2 (st_mem Qcring (kg_st padded g)) (mkF Qcring (bx_mesh padded) RealT 0%nat) g /\
  real_is Qcring [4] 2 (st_mem Qcring (kg_st padded g)) (mkF Qcring (bx_mesh padded) RealT 1%nat) (fun _ => ex_q 0).
Proof.
  pose proof (bx_good padded) as G. assert (T : forall h, tiles (N [4] 2) (on_blocks (V := Qcring) h (bx_blocks RealT))).
  { intros h. eapply on_blocks_tiles. exact (go_real _ _ _ _ G). }
  split.
  - intros c Hc. unfold kg_st. cbn [st_mem]. unfold real_at. rewrite put_real_other by (cbn; lia).
    exact (put_real_is Qcring [4] 2 _ G _ 0%nat _ g (T g) (on_blocks_holds _ _) c Hc).
  - apply (put_real_is Qcring [4] 2 _ G _ 1%nat _ _ (T _) (on_blocks_holds _ _)).
Qed.
Definition kg_cube (u : Qcring) : Qcring := ropp (rmul u (rmul u u)).
Example C89_case : forall padded,
  (exists v u st', kg_run padded true kg_cube ex_real [0; 1; 3; 4] =
     Ret (mkF Qcring (bx_mesh padded) RealT u, expected_log Qcring kg_inv (bx_mesh padded) (map ex_q [0; 1; 3; 4]) (fun i => spectrum Qcring [4] 2 ex_roots ex_invs (v i)) (spectrum Qcring [4] 2 ex_roots ex_invs (fun _ => ex_q 0)), st') /\
     real_is Qcring [4] 2 (st_mem Qcring st') (mkF Qcring (bx_mesh padded) RealT u) (v 3%nat)) /\
  match kg_run padded true kg_cube (fun _ => ex_q 1) [0; 1; 3; 4] with
  | Ret (u, l, st') => map (fun e => (this (e_time Qcring e), this (e_step Qcring e),
       map (fun L : lfield (cpx Qcring) => this (re (hd c0 (lvals L)))) (e_u Qcring e), map (fun L : lfield (cpx Qcring) => this (re (hd c0 (lvals L)))) (e_du Qcring e))) l =
      [(0, 1, [1; 0], [0; 0]); (1, 2, [1; 0], [- (2); 0]); (3 # 1, 1, [- (3); 0], [109 # 5; 0]); (4 # 1, 0, [94 # 5; 0], [0; 0])]%Q
  | _ => False
  end.
Proof.
  intros padded. split.
  - destruct (kg_state padded ex_real) as [S0 S1].
    destruct (C89_fields Qcring kg_inv bx_junk [4] 2 (bx_mesh padded) (bx_good padded) (bx_nonempty padded) [ex_q 1; ex_q 1] kg_cube kg_inverse ex_two
      ltac:(repeat constructor) true (map ex_q [0; 1; 3; 4]) 0%nat 1%nat (kg_st padded ex_real) ex_real (fun _ => ex_q 0)) as (v & u & st' & E & _ & R & _).
    + cbn. lia.
    + intros i k Hi Hk Z0. cbn [length map] in Hi.
      assert (X : Qeq_bool (this (A Qcring kg_inv [4] 2 [ex_q 1; ex_q 1] (rsub (nth (S i) (map ex_q [0; 1; 3; 4]) r0) (nth i (map ex_q [0; 1; 3; 4]) r0)) k)) 0 = false).
      { apply negb_true_iff. destruct i as [|[|[|i]]]; [lia| | |lia]; revert k Hk Z0; intros k Hk _; revert k Hk; refine (proj1 (forallb_forall _ _) _); vm_compute; reflexivity. }
      rewrite Z0 in X. discriminate X.
    + cbn. lia.
    + cbn. lia.
    + exact S0.
    + exact S1.
    + exists v, u, st'. split; [exact E|exact R].
  - destruct padded; vm_compute; reflexivity.
Qed.
