(** Property C90: the leapfrog of examples/nbody.py is reversible in time.
    Property C91: with the factors of FastPM all integrators follow linear growth exactly, and
    with additive factors a uniform force is integrated exactly. *)
From Coq Require Import List Arith ZArith QArith Lia Bool Ring Qcanon.
From Verif Require Import EngineModel Base ListFacts LayoutModel MeshModel MeshAssign MeshDistributed MeshProperties
  RingModel FieldModel FourierModel FourierFacts FourierProperties NbodyModel NbodyProperties NbodySteps.
Import ListNotations.
Local Close Scope Q_scope.
Local Open Scope nat_scope.

(** * Statements *)
Section Say.
Context {K : cring}.
Local Open Scope rg_scope.
(** the number that [S] holds for component c of particle i of rank s, and that of [V] or [F] *)
Definition disp (S : list (list (list Q))) (c s i : nat) : Q := nth c (nth i (nth s S []) []) 0%Q.
Definition vel (V : list (list (list K))) (c s i : nat) : K := nth i (nth s (nth c V []) []) 0.
(** every number that the drifts of a program put into S *)
Fixpoint writes (inj : Q -> K) (store : K -> Q) (pull : list (list (list Q)) -> option (list (list (list K)))) (nd : nat)
    (prog : list (instr K)) (st : state K) : list K :=
  match prog with
  | [] => []
  | i :: prog =>
      match i with
      | Drift _ d => flat_map (fun s => flat_map (fun j => map (fun c => inj (disp (st_S K st) c s j) + vel (st_V K st) c s j * d) (seq 0 nd))
                                               (seq 0 (length (nth s (st_S K st) [])))) (seq 0 (length (st_S K st)))
      | _ => []
      end ++ match step K inj store pull nd i st with Some st => writes inj store pull nd prog st | None => [] end
  end.
(** an integral changes its sign with its direction *)
Definition directed (quad : (K -> K) -> K -> K -> K) : Prop := forall f a b, quad f b a = - quad f a b.
End Say.

(** * Facts *)
Lemma list3_ext {A} (d : A) (l m : list (list (list A))) : map (@length _) l = map (@length _) m ->
  (forall s, s < length l -> map (@length _) (nth s l []) = map (@length _) (nth s m [])) ->
  (forall s i c, s < length l -> i < length (nth s l []) -> c < length (nth i (nth s l []) []) ->
     nth c (nth i (nth s l []) []) d = nth c (nth i (nth s m []) []) d) -> l = m.
Proof.
  intros H1 H2 H3. apply (nth_ext _ _ [] []).
  - rewrite <- (map_length (@length _) l), H1. apply map_length.
  - intros s Hs. apply (nth_ext _ _ [] []).
    + rewrite <- (map_length (@length _) (nth s l [])), H2 by exact Hs. apply map_length.
    + intros i Hi. apply (nth_ext _ _ d d).
      * destruct (nth_lengths _ _ (H2 s Hs)) as [_ E]. apply E.
      * intros c Hc. apply H3; assumption.
Qed.

Section Reverse.
Variable K : cring.
Add Ring Kr7 : (rth K).
Local Open Scope rg_scope.
Variables (inj : Q -> K) (store : K -> Q) (nd : nat) (Qpos : list (list (list Q))).
Variable pull : list (list (list Q)) -> option (list (list (list K))).
Local Notation dok := (displacements_ok nd Qpos).
Local Notation vok := (velocities_ok (K := K) nd Qpos).
Hypothesis Hpull : forall S, dok S -> exists F, pull S = Some F /\ vok F.
Local Notation go := (run K inj store pull nd).

Lemma run_app p1 p2 st : go (p1 ++ p2) st = match go p1 st with Some st => go p2 st | None => None end.
Proof.
  revert st. induction p1 as [|i p1 IH]; intros st; cbn; [reflexivity|].
  destruct (step _ _ _ _ _ i st); [apply IH|reflexivity].
Qed.
Lemma writes_app p1 p2 st : writes inj store pull nd (p1 ++ p2) st =
  writes inj store pull nd p1 st ++ match go p1 st with Some st => writes inj store pull nd p2 st | None => [] end.
Proof.
  revert st. induction p1 as [|i p1 IH]; intros st; cbn [writes app run]; [reflexivity|].
  rewrite <- app_assoc. f_equal. destruct (step _ _ _ _ _ i st); [apply IH|reflexivity].
Qed.

Lemma vel_ext V W : vok V -> vok W ->
  (forall c s i, (c < nd)%nat -> (s < length Qpos)%nat -> (i < length (nth s Qpos []))%nat -> vel V c s i = vel W c s i) -> V = W.
Proof.
  intros HV HW H. destruct (HV) as [LV FV], (HW) as [LW FW].
  assert (forall (c : nat) X, vok X -> (c < nd)%nat -> per_particle_of Qpos (nth c X [])) as G.
  { intros c X [L F] Hc. rewrite Forall_forall in F. apply F, nth_In. rewrite L. exact Hc. }
  apply (list3_ext (r0 (c := K))).
  - apply lengths_nth; [congruence|]. intros c Hc. rewrite LW in Hc.
    pose proof (G c V HV Hc) as A. pose proof (G c W HW Hc) as B.
    rewrite <- (map_length (@length _) (nth c V [])), A, <- B. apply map_length.
  - intros c Hc. rewrite LV in Hc. rewrite (G c V HV Hc), (G c W HW Hc). reflexivity.
  - intros c s i Hc Hs Hi. rewrite LV in Hc. destruct (nth_lengths _ _ (G c V HV Hc)) as [A B].
    apply (H c s i); [exact Hc|rewrite <- A; exact Hs|rewrite <- B; exact Hi].
Qed.
Lemma kick_vel k V F c s i : vok V -> vok F -> (c < nd)%nat -> (s < length Qpos)%nat -> (i < length (nth s Qpos []))%nat ->
  vel (kick K k V F) c s i = vel V c s i + vel F c s i * k.
Proof.
  intros HV HF Hc Hs Hi. unfold vel, kick.
  destruct (entry_ok _ nd Qpos V c s HV Hc Hs) as (A1 & A2 & A3), (entry_ok _ nd Qpos F c s HF Hc Hs) as (B1 & B2 & B3).
  rewrite (map2_at _ _ _ c [] []) by assumption. rewrite (map2_at _ _ _ s [] []) by assumption.
  apply (map2_at (fun v f => v + f * k) _ _ i 0 0 0); rewrite ?A3, ?B3; exact Hi.
Qed.
Lemma kick_back k V F : vok V -> vok F -> kick K (- k) (kick K k V F) F = V.
Proof.
  intros HV HF. assert (vok (kick K k V F)) as HK by (apply kick_ok; assumption).
  apply vel_ext; [apply kick_ok; assumption|assumption|]. intros c s i Hc Hs Hi.
  rewrite !kick_vel by assumption. ring.
Qed.
Lemma dok_at S s i : dok S -> (s < length Qpos)%nat -> (i < length (nth s Qpos []))%nat ->
  (s < length S)%nat /\ length (nth s S []) = length (nth s Qpos []) /\ length (nth i (nth s S []) []) = nd.
Proof.
  intros [L F] Hs Hi. destruct (nth_lengths _ _ L) as [A B]. rewrite A. split; [exact Hs|split; [apply B|]].
  rewrite Forall_forall in F. assert (In (nth s S []) S) as HI by (apply nth_In; rewrite A; exact Hs).
  specialize (F _ HI). rewrite Forall_forall in F. apply F, nth_In. rewrite B. exact Hi.
Qed.
Lemma disp_ext S R : dok S -> dok R ->
  (forall c s i, (c < nd)%nat -> (s < length Qpos)%nat -> (i < length (nth s Qpos []))%nat -> disp S c s i = disp R c s i) -> S = R.
Proof.
  intros HS HR H. destruct (HS) as [LS FS], (HR) as [LR FR]. destruct (nth_lengths _ _ LS) as [A B], (nth_lengths _ _ LR) as [A' B'].
  apply (list3_ext 0%Q).
  - congruence.
  - intros s Hs. rewrite A in Hs. apply lengths_nth; [rewrite B, B'; reflexivity|]. intros i Hi. rewrite B' in Hi.
    rewrite (proj2 (proj2 (dok_at S s i HS Hs Hi))), (proj2 (proj2 (dok_at R s i HR Hs Hi))). reflexivity.
  - intros s i c Hs Hi Hc. rewrite A in Hs. rewrite B in Hi. rewrite (proj2 (proj2 (dok_at S s i HS Hs Hi))) in Hc.
    apply (H c s i); assumption.
Qed.
Lemma drift_disp d S V c s i : dok S -> (c < nd)%nat -> (s < length Qpos)%nat -> (i < length (nth s Qpos []))%nat ->
  disp (drift K inj store nd d S V) c s i = store (inj (disp S c s i) + vel V c s i * d).
Proof.
  intros HS Hc Hs Hi. destruct (dok_at S s i HS Hs Hi) as (A & B & C). unfold disp at 1, drift.
  rewrite (nth_map_in _ _ _ _ 0%nat) by (rewrite seq_length; exact A). rewrite seq_nth by exact A. cbn [plus].
  rewrite (nth_map_in _ _ _ _ 0%nat) by (rewrite seq_length, B; exact Hi). rewrite seq_nth by (rewrite B; exact Hi). cbn [plus].
  rewrite (nth_map_in _ _ _ _ 0%nat) by (rewrite seq_length; exact Hc). rewrite seq_nth by exact Hc. reflexivity.
Qed.

(** what becomes of the numbers in S *)
Definition kept (S : list (list (list Q))) : Prop :=
  forall c s i, (c < nd)%nat -> (s < length Qpos)%nat -> (i < length (nth s Qpos []))%nat -> store (inj (disp S c s i)) = disp S c s i.
Definition exact (y : K) : Prop := inj (store y) = y.
Lemma in_writes d S V F c s i : dok S -> (c < nd)%nat -> (s < length Qpos)%nat -> (i < length (nth s Qpos []))%nat ->
  In (inj (disp S c s i) + vel V c s i * d) (writes inj store pull nd [Drift K d] (mkState K S V F)).
Proof.
  intros HS Hc Hs Hi. destruct (dok_at S s i HS Hs Hi) as (A & B & C). cbn [writes st_S st_V]. apply in_or_app. left.
  apply in_flat_map. exists s. split; [apply in_seq; lia|]. apply in_flat_map. exists i. split; [apply in_seq; lia|].
  apply (in_map (fun c => inj (disp S c s i) + vel V c s i * d)), in_seq. lia.
Qed.
Lemma drift_kept d S V F : dok S -> Forall exact (writes inj store pull nd [Drift K d] (mkState K S V F)) -> kept (drift K inj store nd d S V).
Proof.
  intros HS HE c s i Hc Hs Hi. rewrite Forall_forall in HE. rewrite drift_disp by assumption.
  rewrite (HE _ (in_writes d S V F c s i HS Hc Hs Hi)). reflexivity.
Qed.
Lemma drift_back d S V F : dok S -> kept S -> Forall exact (writes inj store pull nd [Drift K d] (mkState K S V F)) ->
  drift K inj store nd (- d) (drift K inj store nd d S V) V = S.
Proof.
  intros HS HP HE. assert (dok (drift K inj store nd d S V)) as HD by (apply drift_ok; exact HS).
  apply disp_ext; [apply drift_ok; exact HD|exact HS|]. intros c s i Hc Hs Hi.
  rewrite !drift_disp by assumption. rewrite Forall_forall in HE.
  rewrite (HE _ (in_writes d S V F c s i HS Hc Hs Hi)).
  replace (_ + _) with (inj (disp S c s i)) by ring. apply HP; assumption.
Qed.

(** states whose force belongs to the positions *)
Definition settled (st : state K) : Prop := dok (st_S K st) /\ vok (st_V K st) /\ kept (st_S K st) /\ pull (st_S K st) = Some (st_F K st).

Variables (T : Type) (Kf Df : T -> T -> T -> K) (mid : T -> T -> T).
Hypothesis HK : forall ai af ar, Kf af ai ar = - Kf ai af ar.
Hypothesis HD : forall ai af ar, Df af ai ar = - Df ai af ar.
Hypothesis Hmid : forall ai af, mid af ai = mid ai af.
Definition leap (p : T * T) : list (instr K) :=
  let ai := fst p in let af := snd p in let ac := mid ai af in
  [Kick K (Kf ai ac ai); Drift K (Df ai af ac); Pull K; Kick K (Kf ac af af)].
Lemma neg_neg x : - - x = x :> K. Proof. ring. Qed.

Lemma leap_back p st : settled st -> Forall exact (writes inj store pull nd (leap p) st) ->
  exists st', go (leap p) st = Some st' /\ settled st' /\ go (leap (snd p, fst p)) st' = Some st.
Proof.
  destruct p as [ai af], st as [S V F]. intros (HS & HV & HP & HF) HE. cbn [st_S st_V st_F] in *.
  destruct (Hpull S HS) as (F' & E' & VF). rewrite HF in E'. injection E' as <-.
  unfold leap in *. cbn [fst snd] in *. set (ac := mid ai af) in *.
  set (k1 := Kf ai ac ai) in *. set (d := Df ai af ac) in *. set (k2 := Kf ac af af) in *.
  set (V1 := kick K k1 V F). assert (vok V1) as HV1 by (apply kick_ok; assumption).
  set (S1 := drift K inj store nd d S V1). assert (dok S1) as HS1 by (apply drift_ok; assumption).
  destruct (Hpull S1 HS1) as (F1 & E1 & VF1).
  cbn [writes step st_S st_V st_F app] in HE. fold V1 S1 in HE.
  assert (Forall exact (writes inj store pull nd [Drift K d] (mkState K S V1 F))) as HW.
  { apply Forall_app in HE. cbn [writes st_S st_V step]. rewrite app_nil_r. apply HE. }
  exists (mkState K S1 (kick K k2 V1 F1) F1). split; [|split].
  - cbn [run step st_S st_V st_F]. fold V1 S1. rewrite E1. reflexivity.
  - split; [exact HS1|split; [apply kick_ok; assumption|split; [apply (drift_kept d S V1 F HS HW)|exact E1]]].
  - rewrite Hmid. fold ac. replace (Kf af ac af) with (- k2) by (symmetry; apply HK).
    replace (Df af ai ac) with (- d) by (symmetry; apply HD). replace (Kf ac ai ai) with (- k1) by (symmetry; apply HK).
    cbn [run step st_S st_V st_F]. rewrite (kick_back k2 V1 F1) by assumption.
    unfold S1. rewrite (drift_back d S V1 F HS HP HW). rewrite HF. cbn [option_map st_S st_V st_F].
    unfold V1. rewrite (kick_back k1 V F) by assumption. reflexivity.
Qed.
Lemma leaps_back l st : settled st -> Forall exact (writes inj store pull nd (flat_map leap l) st) ->
  exists st', go (flat_map leap l) st = Some st' /\ settled st' /\ go (flat_map leap (map (fun p => (snd p, fst p)) (rev l))) st' = Some st.
Proof.
  revert st. induction l as [|p l IH]; intros st HS HE.
  - exists st. split; [reflexivity|split; [exact HS|reflexivity]].
  - cbn [flat_map] in *. rewrite writes_app in HE. apply Forall_app in HE. destruct HE as [E1 E2].
    destruct (leap_back p st HS E1) as (st1 & R1 & S1 & B1). rewrite R1 in E2. destruct (IH st1 S1 E2) as (st2 & R2 & S2 & B2).
    exists st2. split; [|split; [exact S2|]].
    + rewrite run_app, R1. exact R2.
    + cbn [rev]. rewrite map_app, flat_map_app, run_app, B2. cbn [map flat_map]. rewrite app_nil_r. exact B1.
Qed.
Lemma symp2_leaps ts : symp2 K T Kf Df mid ts = Pull K :: flat_map leap (intervals T ts).
Proof. reflexivity. Qed.
Lemma intervals_rev ts : intervals T (rev ts) = map (fun p => (snd p, fst p)) (rev (intervals T ts)).
Proof.
  unfold intervals. induction ts as [|a ts IH]; [reflexivity|]. destruct ts as [|b ts]; [reflexivity|].
  replace (removelast (a :: b :: ts)) with (a :: removelast (b :: ts)) by reflexivity. cbn [tl combine rev].
  cbn [tl] in IH. rewrite map_app, <- IH. cbn [map fst snd]. cbn [rev]. rewrite removelast_app by discriminate. cbn [removelast]. rewrite app_nil_r.
  set (r := rev ts). clear IH. clearbody r. cbn [app].
  assert (forall x, combine (r ++ [b]) (tl ((r ++ [b]) ++ [x])) = combine (removelast (r ++ [b])) (tl (r ++ [b])) ++ [(b, x)]) as G.
  { intros x. rewrite removelast_app by discriminate. cbn [removelast]. rewrite app_nil_r.
    induction r as [|y r IH]; [reflexivity|]. cbn [app tl].
    destruct r as [|z r]; [reflexivity|]. exact (f_equal (cons (y, z)) IH). }
  apply G.
Qed.
Theorem symp2_back ts S V F0 F1 : dok S -> vok V -> kept S -> Forall exact (writes inj store pull nd (symp2 K T Kf Df mid ts) (mkState K S V F0)) ->
  exists st F, go (symp2 K T Kf Df mid ts) (mkState K S V F0) = Some st /\
    go (symp2 K T Kf Df mid (rev ts)) (mkState K (st_S K st) (st_V K st) F1) = Some (mkState K S V F).
Proof.
  intros HS HV HP HE. rewrite symp2_leaps in HE |- *. rewrite symp2_leaps. cbn [writes app step run st_S st_V st_F] in *.
  destruct (Hpull S HS) as (F & EF & VF). rewrite EF in HE |- *. cbn [option_map] in *.
  destruct (leaps_back (intervals T ts) (mkState K S V F)) as (st & R & (A & B & C & D) & Bk); [|exact HE|].
  { split; [exact HS|split; [exact HV|split; [exact HP|exact EF]]]. }
  exists st, F. split; [exact R|]. rewrite D. cbn [option_map]. rewrite intervals_rev. destruct st as [S' V' F']. exact Bk.
Qed.
End Reverse.

(** ** linear growth *)
Lemma last_cons {A} (l : list A) a b : last (b :: l) a = last l b.
Proof. revert a b. induction l as [|x l IH]; intros a b; [reflexivity|]. change (last (b :: x :: l) a) with (last (x :: l) a). rewrite !IH. reflexivity. Qed.
Section Linear.
Variable K : cring.
Add Ring Kr8 : (rth K).
Local Open Scope rg_scope.
Variables (inv : K -> K) (E Gf gf Gp gp D1 f1 : K -> K) (inj : Q -> K) (store : K -> Q) (nd : nat) (Qpos : list (list (list Q))).
Variable pull : list (list (list Q)) -> option (list (list (list K))).
Variable A : nat -> nat -> nat -> K.
Local Notation dok := (displacements_ok nd Qpos).
Local Notation vok := (velocities_ok (K := K) nd Qpos).
Local Notation go := (run K inj store pull nd).
Local Notation counts := (map (@length (list Q)) Qpos).
Local Notation SL := (first_S K D1 store counts nd A).
(** one number per component, rank and particle *)
Definition table (f : nat -> nat -> nat -> K) : list (list (list K)) :=
  map (fun c => map (fun s => map (f c s) (seq 0 (nth s counts 0%nat))) (seq 0 (length counts))) (seq 0 nd).
Lemma count_at s : nth s counts 0%nat = length (nth s Qpos []).
Proof. apply (map_nth (@length (list Q)) Qpos []). Qed.
Lemma table_vok f : vok (table f).
Proof.
  split; [unfold table; rewrite map_length, seq_length; reflexivity|]. apply Forall_forall. intros x Hx. apply in_map_iff in Hx.
  destruct Hx as (c & <- & _). unfold per_particle_of. apply lengths_nth; [rewrite !map_length, seq_length; reflexivity|].
  intros s Hs. rewrite (nth_map_in _ _ _ _ 0%nat) by (rewrite seq_length, map_length; exact Hs).
  rewrite seq_nth by (rewrite map_length; exact Hs). cbn [plus]. rewrite map_length, seq_length. apply count_at.
Qed.
Lemma table_vel f c s i : (c < nd)%nat -> (s < length Qpos)%nat -> (i < length (nth s Qpos []))%nat -> vel (table f) c s i = f c s i.
Proof.
  intros Hc Hs Hi. unfold vel, table. rewrite (nth_map_in _ _ _ _ 0%nat) by (rewrite seq_length; exact Hc).
  rewrite (nth_map_in _ _ _ _ 0%nat) by (rewrite seq_length, map_length; exact Hs).
  rewrite (nth_map_in _ _ _ _ 0%nat); rewrite ?seq_length; rewrite !seq_nth; rewrite ?map_length; try assumption; cbn [plus]; rewrite ?count_at; try exact Hi.
  reflexivity.
Qed.
Lemma SL_dok a : dok (SL a).
Proof.
  split.
  - apply lengths_nth; [unfold first_S; rewrite map_length, seq_length, map_length; reflexivity|]. intros s Hs. unfold first_S.
    rewrite (nth_map_in _ _ _ _ 0%nat) by (rewrite seq_length, map_length; exact Hs).
    rewrite map_length, seq_length, seq_nth by (rewrite map_length; exact Hs). cbn [plus]. apply count_at.
  - apply Forall_forall. intros x Hx. apply in_map_iff in Hx. destruct Hx as (s & <- & _).
    apply Forall_forall. intros y Hy. apply in_map_iff in Hy. destruct Hy as (i & <- & _). rewrite map_length. apply seq_length.
Qed.
Lemma SL_disp a c s i : (c < nd)%nat -> (s < length Qpos)%nat -> (i < length (nth s Qpos []))%nat -> disp (SL a) c s i = store (A c s i * D1 a).
Proof.
  intros Hc Hs Hi. unfold disp, first_S. rewrite (nth_map_in _ _ _ _ 0%nat) by (rewrite seq_length, map_length; exact Hs).
  rewrite seq_nth by (rewrite map_length; exact Hs). cbn [plus]. rewrite (nth_map_in _ _ _ _ 0%nat) by (rewrite seq_length, count_at; exact Hi).
  rewrite seq_nth by (rewrite count_at; exact Hi). cbn [plus]. rewrite (nth_map_in _ _ _ _ 0%nat) by (rewrite seq_length; exact Hc).
  rewrite seq_nth by exact Hc. reflexivity.
Qed.

Variable good : K -> Prop.
Hypothesis HGp : forall a, good a -> Gp a = D1 a.
Hypothesis Hgp : forall a, good a -> a * gp a = f1 a * D1 a.
Hypothesis HGf : forall a, good a -> Gf a = pow3 K a * E a * gp a.
Hypothesis I2 : forall a, good a -> inv (pow2 K a * E a) * (pow2 K a * E a) = 1.
Hypothesis I3 : forall a, good a -> inv (pow3 K a * E a) * (pow3 K a * E a) = 1.
Hypothesis If : forall a, good a -> inv (gf a) * gf a = 1.
Hypothesis Ip : forall a, good a -> inv (gp a) * gp a = 1.
Hypothesis HX : forall a c s i, good a -> inj (store (A c s i * D1 a)) = A c s i * D1 a.
Definition FL (a : K) := table (fun c s i => A c s i * (pow2 K a * E a * gf a)).
Definition VL (a : K) := table (fun c s i => A c s i * Gf a).
Hypothesis HP : forall a, good a -> pull (SL a) = Some (FL a).

Lemma kick_growth a b r : good r -> kick K (growth_kick K inv E Gf gf a b r) (VL a) (FL r) = VL b.
Proof.
  intros Hr. apply (vel_ext K nd Qpos); [apply kick_ok; apply table_vok|apply table_vok|]. intros c s i Hc Hs Hi.
  rewrite (kick_vel K nd Qpos) by (assumption || apply table_vok). unfold VL, FL. rewrite !table_vel by assumption.
  unfold growth_kick. transitivity (A c s i * Gf a + A c s i * (Gf b - Gf a) * (inv (pow2 K r * E r) * (pow2 K r * E r)) * (inv (gf r) * gf r)); [ring|].
  rewrite I2, If by exact Hr. ring.
Qed.
Lemma drift_growth a b r : good a -> good b -> good r -> drift K inj store nd (growth_drift K inv E Gp gp a b r) (SL a) (VL r) = SL b.
Proof.
  intros Ha Hb Hr. apply (disp_ext nd Qpos); [apply drift_ok; apply SL_dok|apply SL_dok|]. intros c s i Hc Hs Hi.
  rewrite (drift_disp K inj store nd Qpos) by (assumption || apply SL_dok). unfold VL. rewrite table_vel by assumption. rewrite !SL_disp by assumption.
  f_equal. rewrite HX by exact Ha. unfold growth_drift. rewrite HGf, !HGp by assumption.
  transitivity (A c s i * D1 a + A c s i * (D1 b - D1 a) * (inv (pow3 K r * E r) * (pow3 K r * E r)) * (inv (gp r) * gp r)); [ring|].
  rewrite I3, Ip by exact Hr. ring.
Qed.
Lemma first_V_growth a : good a -> first_V K E f1 inj counts nd (SL a) a = VL a.
Proof.
  intros Ha. apply (vel_ext K nd Qpos); [apply table_vok|apply table_vok|]. intros c s i Hc Hs Hi.
  unfold VL. rewrite table_vel by assumption. change (first_V K E f1 inj counts nd (SL a) a) with
    (table (fun c s i => inj (disp (SL a) c s i) * pow2 K a * f1 a * E a)). rewrite table_vel by assumption.
  rewrite SL_disp, HX, HGf by assumption. unfold pow2, pow3.
  transitivity (A c s i * a * a * E a * (f1 a * D1 a)); [ring|]. rewrite <- Hgp by exact Ha. ring.
Qed.
Definition on (a : K) : state K := mkState K (SL a) (VL a) (FL a).
Variables (mid c2 d1 d2 : K -> K -> K).
Local Notation kf := (growth_kick K inv E Gf gf).
Local Notation df := (growth_drift K inv E Gp gp).
Lemma go_pull l S V F F' : pull S = Some F' -> go (Pull K :: l) (mkState K S V F) = go l (mkState K S V F').
Proof. intros H. cbn [run step st_S st_V]. rewrite H. reflexivity. Qed.
Lemma go_kick l S V F k : go (Kick K k :: l) (mkState K S V F) = go l (mkState K S (kick K k V F) F).
Proof. reflexivity. Qed.
Lemma go_drift l S V F d : go (Drift K d :: l) (mkState K S V F) = go l (mkState K (drift K inj store nd d S V) V F).
Proof. reflexivity. Qed.
Lemma steps_growth (one : K * K -> list (instr K)) (a : K) ts F0 : good a -> Forall good ts ->
  (forall x y, In (x, y) (intervals K (a :: ts)) -> good x -> good y -> go (one (x, y)) (on x) = Some (on y)) ->
  go (Pull K :: flat_map one (intervals K (a :: ts))) (mkState K (SL a) (VL a) F0) = Some (on (last ts a)).
Proof.
  intros Ha Hts H. rewrite (go_pull _ _ _ _ (FL a)) by (apply HP; exact Ha). change (mkState K (SL a) (VL a) (FL a)) with (on a). clear F0.
  revert a Ha H. induction ts as [|b ts IH]; intros a Ha H; [reflexivity|]. inversion_clear Hts as [|? ? Hb Hts'].
  change (intervals K (a :: b :: ts)) with ((a, b) :: intervals K (b :: ts)) in *. cbn [flat_map]. rewrite run_app, H by (assumption || (left; reflexivity)).
  rewrite (IH Hts' b Hb), last_cons; [reflexivity|]. intros x y HI. apply H. right. exact HI.
Qed.
Theorem growth_exact ts a F0 prog (inner : K -> K -> list K) : good a -> Forall good ts ->
  In (prog, inner) [(symp1 K K kf df (a :: ts), fun _ _ => []); (symp2 K K kf df mid (a :: ts), fun x y => [mid x y]);
                    (symp3 K K kf df c2 d1 d2 (a :: ts), fun x y => [c2 x y; d1 x y; d2 x y])] ->
  (forall x y, In (x, y) (intervals K (a :: ts)) -> Forall good (inner x y)) ->
  go prog (mkState K (SL a) (first_V K E f1 inj counts nd (SL a) a) F0) =
    Some (mkState K (SL (last ts a)) (first_V K E f1 inj counts nd (SL (last ts a)) (last ts a)) (FL (last ts a))).
Proof.
  intros Ha Hts Hp Hin. assert (good (last ts a)) as Hl.
  { clear Hp Hin. revert a Ha. induction ts as [|b ts IH]; intros a Ha; [exact Ha|]. inversion_clear Hts as [|? ? Hb Hts'].
    rewrite last_cons. apply (IH Hts' b Hb). }
  rewrite !first_V_growth by assumption. change (mkState K (SL (last ts a)) _ _) with (on (last ts a)).
  cbn [In] in Hp. destruct Hp as [Hp|[Hp|[Hp|[]]]]; injection Hp as <- <-; apply steps_growth; try assumption; intros x y HI Hx Hy;
    specialize (Hin x y HI); rewrite Forall_forall in Hin; unfold on; cbn [fst snd].
  - rewrite (go_pull _ _ _ _ (FL x)) by (apply HP; exact Hx). rewrite go_kick, kick_growth by exact Hx.
    rewrite go_drift, drift_growth by assumption. rewrite (go_pull _ _ _ _ (FL y)) by (apply HP; exact Hy). reflexivity.
  - assert (good (mid x y)) by (apply Hin; left; reflexivity). rewrite go_kick, kick_growth, go_drift, drift_growth by assumption.
    rewrite (go_pull _ _ _ _ (FL y)) by (apply HP; exact Hy). rewrite go_kick, kick_growth by assumption. reflexivity.
  - assert (good (c2 x y)) by (apply Hin; left; reflexivity). assert (good (d1 x y)) by (apply Hin; right; left; reflexivity).
    assert (good (d2 x y)) by (apply Hin; do 2 right; left; reflexivity).
    rewrite go_drift, drift_growth by assumption. rewrite (go_pull _ _ _ _ (FL y)) by (apply HP; assumption).
    rewrite go_kick, kick_growth, go_drift, drift_growth by assumption.
    rewrite (go_pull _ _ _ _ (FL (c2 x y))) by (apply HP; assumption). rewrite go_kick, kick_growth, go_drift, drift_growth by assumption.
    rewrite (go_pull _ _ _ _ (FL y)) by (apply HP; assumption). rewrite go_kick, kick_growth by assumption. reflexivity.
Qed.
End Linear.

(** ** uniform forces *)
Section Uniform.
Variable K : cring.
Add Ring Kr9 : (rth K).
Local Open Scope rg_scope.
Variables (inj : Q -> K) (store : K -> Q) (nd : nat) (Qpos : list (list (list Q))).
Variables (pull : list (list (list Q)) -> option (list (list (list K)))) (F : list (list (list K))).
Local Notation dok := (displacements_ok nd Qpos).
Local Notation vok := (velocities_ok (K := K) nd Qpos).
Local Notation go := (run K inj store pull nd).
Hypothesis HF : vok F.
Hypothesis Hpull : forall S, dok S -> pull S = Some F.
Fixpoint kicks (prog : list (instr K)) : K := match prog with [] => 0 | Kick _ k :: prog => k + kicks prog | _ :: prog => kicks prog end.
Fixpoint drifts (prog : list (instr K)) : K := match prog with [] => 0 | Drift _ d :: prog => d + drifts prog | _ :: prog => drifts prog end.
Lemma kicks_app p q : kicks (p ++ q) = kicks p + kicks q.
Proof. induction p as [|[k|d|] p IH]; cbn [kicks app]; rewrite ?IH; ring. Qed.
Lemma drifts_app p q : drifts (p ++ q) = drifts p + drifts q.
Proof. induction p as [|[k|d|] p IH]; cbn [drifts app]; rewrite ?IH; ring. Qed.
Lemma run_uniform prog : forall S V, dok S -> vok V ->
  exists S' V', go prog (mkState K S V F) = Some (mkState K S' V' F) /\ dok S' /\ vok V' /\
    (forall c s i, (c < nd)%nat -> (s < length Qpos)%nat -> (i < length (nth s Qpos []))%nat -> vel V' c s i = vel V c s i + vel F c s i * kicks prog) /\
    (Forall (exact K inj store) (writes inj store pull nd prog (mkState K S V F)) ->
     (forall c s i, (c < nd)%nat -> (s < length Qpos)%nat -> (i < length (nth s Qpos []))%nat -> vel F c s i = 0) ->
     forall c s i, (c < nd)%nat -> (s < length Qpos)%nat -> (i < length (nth s Qpos []))%nat -> inj (disp S' c s i) = inj (disp S c s i) + vel V c s i * drifts prog).
Proof.
  induction prog as [|[k|d|] prog IH]; intros S V HS HV.
  - exists S, V. split; [reflexivity|split; [exact HS|split; [exact HV|split]]]; intros; cbn [kicks drifts]; ring.
  - destruct (IH S (kick K k V F) HS (kick_ok _ _ _ _ _ _ HV HF)) as (S' & V' & R & A & B & C & D).
    exists S', V'. split; [exact R|split; [exact A|split; [exact B|split]]].
    + intros c s i Hc Hs Hi. rewrite C, (kick_vel K nd Qpos) by assumption. cbn [kicks]. ring.
    + intros HE H0 c s i Hc Hs Hi. rewrite (D HE H0) by assumption. rewrite (kick_vel K nd Qpos) by assumption. rewrite H0 by assumption. cbn [drifts]. ring.
  - destruct (IH (drift K inj store nd d S V) V (drift_ok _ _ _ _ _ _ _ _ HS) HV) as (S' & V' & R & A & B & C & D).
    exists S', V'. split; [exact R|split; [exact A|split; [exact B|split]]].
    + intros c s i Hc Hs Hi. rewrite C by assumption. cbn [kicks]. ring.
    + intros HE H0 c s i Hc Hs Hi. cbn [writes step] in HE. apply Forall_app in HE. destruct HE as [E1 E2].
      rewrite (D E2 H0) by assumption. rewrite (drift_disp K inj store nd Qpos) by assumption.
      pose proof (in_writes K inj store nd Qpos pull d S V F c s i HS Hc Hs Hi) as HI. cbn [writes step] in HI. rewrite app_nil_r in HI.
      rewrite Forall_forall in E1. rewrite (E1 _ HI). cbn [drifts]. ring.
  - destruct (IH S V HS HV) as (S' & V' & R & A & B & C & D). exists S', V'.
    assert (step K inj store pull nd (Pull K) (mkState K S V F) = Some (mkState K S V F)) as ES by (cbn [step st_S st_V]; rewrite Hpull by exact HS; reflexivity).
    split; [cbn [run]; rewrite ES; exact R|split; [exact A|split; [exact B|split; [exact C|]]]].
    intros HE. cbn [writes app] in HE. rewrite ES in HE. exact (D HE).
Qed.
Variables (T : Type) (Kf Df : T -> T -> T -> K) (mid c2 d1 d2 : T -> T -> T).
Definition additive (G : T -> T -> T -> K) : Prop := forall a b c r r' r'', G a b r + G b c r' = G a c r''.
Lemma additive_same G : additive G -> forall a r, G a a r = 0.
Proof. intros H a r. pose proof (H a a a r r r) as E. transitivity (G a a r + G a a r - G a a r); [ring|]. rewrite E. ring. Qed.
Lemma additive_r G : additive G -> forall a b r r', G a b r = G a b r'.
Proof. intros H a b r r'. rewrite <- (H a a b r r r'), (additive_same G H a r). ring. Qed.
Lemma telescope (G : T -> T -> T -> K) (one : T * T -> list (instr K)) (count : list (instr K) -> K) : additive G -> count [] = 0 ->
  (forall p q, count (p ++ q) = count p + count q) -> (forall a b, count (one (a, b)) = G a b a) ->
  forall ts a r, count (flat_map one (intervals T (a :: ts))) = G a (last ts a) r.
Proof.
  intros HG C0 CA C1 ts. induction ts as [|b ts IH]; intros a r; [cbn [last]; rewrite (additive_same G HG); exact C0|].
  change (intervals T (a :: b :: ts)) with ((a, b) :: intervals T (b :: ts)). cbn [flat_map]. rewrite CA, C1, (IH b r), last_cons. apply HG.
Qed.
Definition schemes (ts : list T) : list (list (instr K)) := [symp1 K T Kf Df ts; symp2 K T Kf Df mid ts; symp3 K T Kf Df c2 d1 d2 ts].
Lemma scheme_kicks a ts prog r : additive Kf -> In prog (schemes (a :: ts)) -> kicks prog = Kf a (last ts a) r.
Proof.
  intros HA Hp. cbn [In schemes] in Hp. destruct Hp as [<-|[<-|[<-|[]]]]; apply (telescope Kf _ kicks HA eq_refl kicks_app); intros x y; cbn [fst snd kicks].
  - ring.
  - transitivity (Kf x (mid x y) x + Kf (mid x y) y y); [ring|apply HA].
  - transitivity (Kf x (d1 x y) y + (Kf (d1 x y) (d2 x y) (c2 x y) + Kf (d2 x y) y y)); [ring|]. rewrite (HA _ _ _ _ _ x). apply HA.
Qed.
Lemma scheme_drifts a ts prog r : additive Df -> In prog (schemes (a :: ts)) -> drifts prog = Df a (last ts a) r.
Proof.
  intros HA Hp. cbn [In schemes] in Hp. destruct Hp as [<-|[<-|[<-|[]]]]; apply (telescope Df _ drifts HA eq_refl drifts_app); intros x y; cbn [fst snd drifts].
  - rewrite (additive_r Df HA x y y x). ring.
  - rewrite (additive_r Df HA x y (mid x y) x). ring.
  - transitivity (Df x y x + (Df y (c2 x y) (d1 x y) + Df (c2 x y) y (d2 x y))); [ring|]. rewrite (HA _ _ _ _ _ x), (additive_same Df HA). ring.
Qed.
End Uniform.

(** ** the classes of factors *)
Section Flip.
Variable K : cring.
Add Ring Kr10 : (rth K).
Local Open Scope rg_scope.
Variables (inv E Gf gf Gp gp : K -> K) (quad : (K -> K) -> K -> K -> K).
Lemma factors_flip f : directed quad -> In f (all_factors K inv E Gf gf Gp gp quad) ->
  (forall ai af ar, fK K f af ai ar = - fK K f ai af ar) /\ (forall ai af ar, fD K f af ai ar = - fD K f ai af ar).
Proof.
  intros HQ Hf. cbn [In all_factors] in Hf.
  destruct Hf as [<-|[<-|[<-|[<-|[<-|[<-|[<-|[]]]]]]]]; cbn [fK fD FastPM FastPM1 FastPM2 Quinn TVE VTE Naive]; unfold growth_kick, growth_drift;
    split; intros ai af ar; rewrite ?(HQ _ ai af); ring.
Qed.
End Flip.

(** * C90 *)
(** [pull] is any force that depends on the positions only and gives one number per component and
    particle; the positions that are put into S on the way are not rounded *)
Theorem C90_reversible : forall (K : cring) inv (E Gf gf Gp gp : K -> K) quad root (inj : Q -> K) store nd Qpos pull,
  directed quad -> (forall S, same_particles nd Qpos S -> exists F, pull S = Some F /\ velocities_ok (K := K) nd Qpos F) ->
  forall f ts S V F0 F1, In f (all_factors K inv E Gf gf Gp gp quad) ->
  same_particles nd Qpos S -> velocities_ok nd Qpos V ->
  (forall c s i, c < nd -> s < length Qpos -> i < length (nth s Qpos []) -> store (inj (disp S c s i)) = disp S c s i) ->
  (forall y, In y (writes inj store pull nd (run_symp2 K root f ts) (mkState K S V F0)) -> inj (store y) = y) ->
  exists st F, run K inj store pull nd (run_symp2 K root f ts) (mkState K S V F0) = Some st /\
    run K inj store pull nd (run_symp2 K root f (rev ts)) (mkState K (st_S K st) (st_V K st) F1) = Some (mkState K S V F).
Proof.
  intros K inv E Gf gf Gp gp quad root inj store nd Qpos pull HQ HP f ts S V F0 F1 Hf HS HV Hk Hw.
  destruct (factors_flip K inv E Gf gf Gp gp quad f HQ Hf) as [HK HD].
  apply (symp2_back K inj store nd Qpos pull HP K (fK K f) (fD K f) (t_mid K root) HK HD); try assumption.
  - intros ai af. unfold t_mid. f_equal. apply (Rmul_comm (rth K)).
  - apply Forall_forall. exact Hw.
Qed.
Print Assumptions C90_reversible.

(** the force of the example *)
Theorem C90_force : forall (K : cring) (inj : Q -> K), embedding K inj ->
  forall (sine inv : K -> K) is0 twopi base n ws is BoxSize box w0 pt blocks pms outs Mid,
  simulation K base n ws is BoxSize box w0 pt blocks pms outs Mid ->
  forall om store (E Gf gf Gp gp : K -> K) quad root Qpos,
  let nd := length (N base n) in let pull := force K inj sine inv is0 twopi ws is om pms (N base n) box outs Mid Qpos in
  particles_ok nd (length blocks) Qpos -> directed quad ->
  forall f ts S V F0 F1, In f (all_factors K inv E Gf gf Gp gp quad) ->
  same_particles nd Qpos S -> velocities_ok nd Qpos V ->
  (forall c s i, c < nd -> s < length Qpos -> i < length (nth s Qpos []) -> store (inj (disp S c s i)) = disp S c s i) ->
  (forall y, In y (writes inj store pull nd (run_symp2 K root f ts) (mkState K S V F0)) -> inj (store y) = y) ->
  exists st F, run K inj store pull nd (run_symp2 K root f ts) (mkState K S V F0) = Some st /\
    run K inj store pull nd (run_symp2 K root f (rev ts)) (mkState K (st_S K st) (st_V K st) F1) = Some (mkState K S V F).
Proof.
  intros K inj Em sine inv is0 twopi base n ws is BoxSize box w0 pt blocks pms outs Mid SM om store E Gf gf Gp gp quad root Qpos nd pull HQ HD
    f ts S V F0 F1 Hf HS HV Hk Hw.
  apply (C90_reversible K inv E Gf gf Gp gp quad root inj store nd Qpos pull HD); try assumption.
  intros S' HS'. destruct (C87_momentum K inj Em sine inv is0 twopi base n ws is BoxSize box w0 pt blocks pms outs Mid SM om Qpos S' HQ HS') as (F & E1 & E2 & _).
  exists F. split; assumption.
Qed.
Print Assumptions C90_force.

(** ** one particle in one dimension *)
Definition one_pull (g : Qcring -> Qcring) (S : list (list (list Q))) : option (list (list (list Qcring))) := Some [[[g (Q2Qc (disp S 0 0 0))]]].
Definition one_state (x : Q) (v : Qcring) : state Qcring := mkState Qcring [[[x]]] [[[v]]] [].
(** position and velocity at the end *)
Definition one_run (store : Qcring -> Q) (g : Qcring -> Qcring) (prog : list (instr Qcring)) (x : Q) (v : Qcring) : option (Q * Q) :=
  option_map (fun st => (Qred (disp (st_S Qcring st) 0 0 0), this (vel (st_V Qcring st) 0 0 0)))
             (run Qcring Q2Qc store (one_pull g) 1 prog (one_state x v)).
Definition q (z : Z) : Qcring := Q2Qc (inject_Z z).
(** E = 1, D1(a) = a: f1 = 1, Gp(a) = a, gp = 1, Gf(a) = a ** 3, gf(a) = 3 a ** 2 *)
Definition q_one (_ : Qcring) : Qcring := 1%Qc.
Definition q_id (a : Qcring) : Qcring := a.
Definition q_cube (a : Qcring) : Qcring := (a * a * a)%Qc.
Definition q_gf (a : Qcring) : Qcring := (q 3 * a * a)%Qc.
(** the square root of squares, and powers of two with their logarithms (instead of e, which makes
    no difference for the times of symp3) *)
Definition q_root (a : Qcring) : Qcring := Q2Qc (Qmake (Z.sqrt (Qnum a)) (Z.to_pos (Z.sqrt (Zpos (Qden a))))).
Definition q_log (a : Qcring) : Qcring := q (Z.log2 (Qnum a) - Z.log2 (Zpos (Qden a))).
Definition q_exp (a : Qcring) : Qcring := Q2Qc (Qpower 2 (Qnum a)).
(** the integrals of a ** -2 and a ** -3 *)
Definition q_quad (f : Qcring -> Qcring) (a b : Qcring) : Qcring :=
  if Qc_eq_dec (f (q 2)) (Q2Qc (1#4)) then (/ a - / b)%Qc
  else if Qc_eq_dec (f (q 2)) (Q2Qc (1#8)) then (Q2Qc (1#2) * (/ (a * a) - / (b * b)))%Qc else 0%Qc.
Lemma q_quad_directed : directed q_quad.
Proof.
  intros f a b. unfold q_quad. destruct (Qc_eq_dec _ _); [change (/ b - / a = - (/ a - / b))%Qc; ring|].
  destruct (Qc_eq_dec _ _); [change (Q2Qc (1#2) * (/ (b * b) - / (a * a)) = - (Q2Qc (1#2) * (/ (a * a) - / (b * b))))%Qc; ring|reflexivity].
Qed.
Definition q_fast : factors Qcring := FastPM Qcring Qcinv q_one q_cube q_gf q_id q_one.
Definition q_quinn : factors Qcring := Quinn Qcring Qcinv q_one q_quad.
(** an attractive force *)
Definition q_pull (x : Qcring) : Qcring := (- x)%Qc.
Example C90_case : let go := one_run this q_pull in
  let forth := go (run_symp2 Qcring q_root q_quinn [q 1; q 4; q 16]) (1#3)%Q (q 2) in
  forth <> Some ((1#3), 2)%Q /\
  match forth with Some (x, v) => go (run_symp2 Qcring q_root q_quinn [q 16; q 4; q 1]) x (Q2Qc v) | None => None end = Some ((1#3), 2)%Q.
Proof. split; [vm_compute; discriminate|vm_compute; reflexivity]. Qed.
(** the other schemes do not come back *)
Theorem C90_other_schemes_refuted : forall prog, In prog [run_symp1 Qcring q_quinn; run_symp3 Qcring Qcinv q_log q_exp q_quinn] ->
  exists ts x v x' v' x'' v'', one_run this q_pull (prog ts) x v = Some (x', v') /\
    one_run this q_pull (prog (rev ts)) x' (Q2Qc v') = Some (x'', v'') /\ ~ (x'' == x)%Q.
Proof.
  intros prog Hp. exists [q 1; q (2 ^ 24)], 1%Q, (q 1). cbn [In] in Hp.
  destruct Hp as [<-|[<-|[]]]; do 4 eexists; (split; [vm_compute; reflexivity|split; [vm_compute; reflexivity|]]); vm_compute; discriminate.
Qed.
Print Assumptions C90_other_schemes_refuted.
(** nor does the leapfrog if displacements are rounded, here to integers *)
Theorem C90_rounding_refuted : exists ts x v x' v' x'' v'',
  let store y := inject_Z (Qround.Qfloor (this y)) in
  one_run store q_pull (run_symp2 Qcring q_root q_quinn ts) x v = Some (x', v') /\
  one_run store q_pull (run_symp2 Qcring q_root q_quinn (rev ts)) x' (Q2Qc v') = Some (x'', v'') /\ ~ (x'' == x)%Q.
Proof.
  exists [q 1; q 4], 1%Q, (q 1). do 4 eexists. cbv zeta. split; [vm_compute; reflexivity|split; [vm_compute; reflexivity|]]. vm_compute; discriminate.
Qed.
Print Assumptions C90_rounding_refuted.

(** * C91 *)
(** the growth functions belong together, and can be divided by *)
Record growth (K : cring) (inv E Gf gf Gp gp D1 f1 : K -> K) (a : K) : Prop := {
  gr_Gp : Gp a = D1 a;
  gr_gp : rmul a (gp a) = rmul (f1 a) (D1 a);
  gr_Gf : Gf a = rmul (rmul (rmul (rmul a a) a) (E a)) (gp a);
  gr_2 : rmul (inv (rmul (rmul a a) (E a))) (rmul (rmul a a) (E a)) = r1;
  gr_3 : rmul (inv (rmul (rmul (rmul a a) a) (E a))) (rmul (rmul (rmul a a) a) (E a)) = r1;
  gr_inv_gf : rmul (inv (gf a)) (gf a) = r1;
  gr_inv_gp : rmul (inv (gp a)) (gp a) = r1
}.
(** [good] are the times that are used.  On the displacements of linear theory at time a, DX1 D1(a),
    the force is that of linear theory, DX1 a^2 E(a) gf(a).  Then every scheme, after any number of
    steps of any size, ends with the displacements and velocities that the initial conditions would
    have at the last time. *)
Theorem C91_growth : forall (K : cring) inv (E Gf gf Gp gp D1 f1 root log exp : K -> K) (inj : Q -> K) store nd Qpos pull DX1 (good : K -> Prop),
  let counts := map (@length (list Q)) Qpos in
  let S_of := first_S K D1 store counts nd DX1 in
  let V_of a := first_V K E f1 inj counts nd (S_of a) a in
  let fast := FastPM K inv E Gf gf Gp gp in
  (forall a, good a -> growth K inv E Gf gf Gp gp D1 f1 a) ->
  (forall a c s i, good a -> inj (store (rmul (DX1 c s i) (D1 a))) = rmul (DX1 c s i) (D1 a)) ->
  (forall a, good a -> exists F, pull (S_of a) = Some F /\ velocities_ok nd Qpos F /\
     forall c s i, c < nd -> s < length Qpos -> i < length (nth s Qpos []) ->
     vel F c s i = rmul (DX1 c s i) (rmul (rmul (rmul a a) (E a)) (gf a))) ->
  forall a0 ts F0 prog inner, good a0 -> Forall good ts ->
  In (prog, inner) [(run_symp1 K fast (a0 :: ts), fun _ _ => []);
                    (run_symp2 K root fast (a0 :: ts), fun x y => [t_mid K root x y]);
                    (run_symp3 K inv log exp fast (a0 :: ts), fun x y => [t_c2 K inv log exp x y; t_d1 K inv log exp x y; t_d2 K inv log exp x y])] ->
  (forall x y, In (x, y) (combine (a0 :: ts) ts) -> Forall good (inner x y)) ->
  exists st, run K inj store pull nd prog (mkState K (S_of a0) (V_of a0) F0) = Some st /\
    st_S K st = S_of (last ts a0) /\ st_V K st = V_of (last ts a0).
Proof.
  intros K inv E Gf gf Gp gp D1 f1 root log exp inj store nd Qpos pull DX1 good counts S_of V_of fast HG HX HP a0 ts F0 prog inner Ha Hts Hp Hin.
  assert (intervals K (a0 :: ts) = combine (a0 :: ts) ts) as EI.
  { clear. unfold intervals. revert a0. induction ts as [|b ts IH]; intros a; [reflexivity|].
    change (removelast (a :: b :: ts)) with (a :: removelast (b :: ts)). cbn [tl combine]. f_equal. apply (IH b). }
  rewrite <- EI in Hin.
  eexists. split; [eapply (growth_exact K inv E Gf gf Gp gp D1 f1 inj store nd Qpos pull DX1 good); try exact Hts; try exact Ha; try exact Hp; try exact Hin|split; reflexivity];
    try (intros a Hg; destruct (HG a Hg); assumption).
  - intros a c s i Hg. apply HX. exact Hg.
  - intros a Hg. destruct (HP a Hg) as (F & E1 & E2 & E3). fold counts S_of. rewrite E1. f_equal. apply (vel_ext K nd Qpos); [exact E2|apply table_vok|].
    intros c s i Hc Hs Hi. unfold FL. rewrite table_vel by assumption. rewrite E3 by assumption. reflexivity.
Qed.
Print Assumptions C91_growth.

(** with factors that are integrals, uniform forces are integrated exactly, whatever the steps *)
Definition joined {K : cring} (quad : (K -> K) -> K -> K -> K) : Prop := forall f a b c, radd (quad f a b) (quad f b c) = quad f a c.
Theorem C91_uniform : forall (K : cring) inv (E Gp gp root log exp : K -> K) quad (inj : Q -> K) store nd Qpos pull F,
  joined quad -> velocities_ok nd Qpos F -> (forall S, same_particles nd Qpos S -> pull S = Some F) ->
  forall f a0 ts S V F0 prog, In f [FastPM1 K inv E Gp gp quad; Quinn K inv E quad; TVE K inv E quad] ->
  In prog [run_symp1 K f (a0 :: ts); run_symp2 K root f (a0 :: ts); run_symp3 K inv log exp f (a0 :: ts)] ->
  same_particles nd Qpos S -> velocities_ok nd Qpos V ->
  exists st, run K inj store pull nd prog (mkState K S V F0) = Some st /\
    forall c s i, c < nd -> s < length Qpos -> i < length (nth s Qpos []) ->
    vel (st_V K st) c s i = radd (vel V c s i) (rmul (vel F c s i) (quad (fun a => rmul r1 (inv (rmul (rmul a a) (E a)))) a0 (last ts a0))).
Proof.
  intros K inv E Gp gp root log exp quad inj store nd Qpos pull F HQ HF HP f a0 ts S V F0 prog Hf Hp HS HV.
  assert (additive K K (fK K f)) as HA.
  { cbn [In] in Hf. destruct Hf as [<-|[<-|[<-|[]]]]; intros a b c r r' r''; cbn [fK FastPM1 Quinn TVE]; apply HQ. }
  assert (exists l, prog = Pull K :: l) as [l El].
  { cbn [In] in Hp. destruct Hp as [<-|[<-|[<-|[]]]]; eexists; reflexivity. }
  destruct (run_uniform K inj store nd Qpos pull F HF HP prog S V HS HV) as (S' & V' & R & _ & _ & B & _).
  exists (mkState K S' V' F). split.
  - rewrite El in R |- *. cbn [run step st_S st_V] in R |- *. rewrite HP in R |- * by exact HS. exact R.
  - intros c s i Hc Hs Hi. cbn [st_V]. rewrite B by assumption. do 2 f_equal.
    rewrite (scheme_kicks K K (fK K f) (fD K f) (t_mid K root) (t_c2 K inv log exp) (t_d1 K inv log exp) (t_d2 K inv log exp) a0 ts prog a0 HA Hp).
    cbn [In] in Hf. destruct Hf as [<-|[<-|[<-|[]]]]; reflexivity.
Qed.
Print Assumptions C91_uniform.
(** and so are free particles *)
Theorem C91_free : forall (K : cring) inv (E Gf gf root log exp : K -> K) quad (inj : Q -> K) store nd Qpos pull F,
  joined quad -> velocities_ok nd Qpos F -> (forall S, same_particles nd Qpos S -> pull S = Some F) ->
  (forall c s i, c < nd -> s < length Qpos -> i < length (nth s Qpos []) -> vel F c s i = r0) ->
  forall f a0 ts S V F0 prog, In f [FastPM2 K inv E Gf gf quad; Quinn K inv E quad; VTE K inv E quad] ->
  In prog [run_symp1 K f (a0 :: ts); run_symp2 K root f (a0 :: ts); run_symp3 K inv log exp f (a0 :: ts)] ->
  same_particles nd Qpos S -> velocities_ok nd Qpos V ->
  (forall y, In y (writes inj store pull nd prog (mkState K S V F0)) -> inj (store y) = y) ->
  exists st, run K inj store pull nd prog (mkState K S V F0) = Some st /\
    forall c s i, c < nd -> s < length Qpos -> i < length (nth s Qpos []) ->
    inj (disp (st_S K st) c s i) =
      radd (inj (disp S c s i)) (rmul (vel V c s i) (quad (fun a => rmul r1 (inv (rmul (rmul (rmul a a) a) (E a)))) a0 (last ts a0))).
Proof.
  intros K inv E Gf gf root log exp quad inj store nd Qpos pull F HQ HF HP H0 f a0 ts S V F0 prog Hf Hp HS HV HW.
  assert (additive K K (fD K f)) as HA.
  { cbn [In] in Hf. destruct Hf as [<-|[<-|[<-|[]]]]; intros a b c r r' r''; cbn [fD FastPM2 Quinn VTE]; apply HQ. }
  assert (exists l, prog = Pull K :: l) as [l El].
  { cbn [In] in Hp. destruct Hp as [<-|[<-|[<-|[]]]]; eexists; reflexivity. }
  destruct (run_uniform K inj store nd Qpos pull F HF HP prog S V HS HV) as (S' & V' & R & _ & _ & _ & B).
  exists (mkState K S' V' F). split.
  - rewrite El in R |- *. cbn [run step st_S st_V] in R |- *. rewrite HP in R |- * by exact HS. exact R.
  - intros c s i Hc Hs Hi. cbn [st_S]. rewrite B; try assumption.
    + do 2 f_equal.
      rewrite (scheme_drifts K K (fK K f) (fD K f) (t_mid K root) (t_c2 K inv log exp) (t_d1 K inv log exp) (t_d2 K inv log exp) a0 ts prog a0 HA Hp).
      cbn [In] in Hf. destruct Hf as [<-|[<-|[<-|[]]]]; reflexivity.
    + apply Forall_forall. intros y Hy. apply HW. rewrite El in Hy |- *. cbn [writes step st_S st_V app] in Hy |- *. rewrite HP in Hy |- * by exact HS. exact Hy.
Qed.
Print Assumptions C91_free.

(** a force for which x = a is a solution: x' = v / a^3, v' = force / a^2 = 3 x^4 / a^2 *)
Definition q_grow (x : Qcring) : Qcring := (q 3 * x * x * x * x)%Qc.
(** all schemes of the FastPM factors end at x = 16, v = 16^3, and for the times of symp3 at 2^24 *)
Example C91_case : let go := one_run this q_grow in
  go (run_symp2 Qcring q_root q_fast [q 1; q 4; q 16]) 1%Q (q 1) = Some (16, 4096)%Q /\
  go (run_symp1 Qcring q_fast [q 1; q 4; q 16]) 1%Q (q 1) = Some (16, 4096)%Q /\
  go (run_symp3 Qcring Qcinv q_log q_exp q_fast [q 1; q (2 ^ 24)]) 1%Q (q 1) = Some (inject_Z (2 ^ 24), inject_Z (2 ^ 72)).
Proof. repeat split; vm_compute; reflexivity. Qed.
(** the hypotheses of C91_growth hold for them *)
Example C91_case_growth : Forall (growth Qcring Qcinv q_one q_cube q_gf q_id q_one q_id q_one) [q 1; q 2; q 4; q 8; q 16] /\
  forall a, In a [q 1; q 2; q 4; q 8; q 16] -> one_pull q_grow (first_S Qcring q_id this [1] 1 (fun _ _ _ => q 1) a) =
    Some [[[(q 1 * (a * a * q_one a * q_gf a))%Qc]]].
Proof.
  split.
  - repeat constructor; apply Qc_is_canon; vm_compute; reflexivity.
  - intros a Ha. unfold one_pull. do 4 f_equal. revert a Ha. apply Forall_forall. repeat constructor; apply Qc_is_canon; vm_compute; reflexivity.
Qed.
(** the factors of Quinn do not follow it: they are exact for uniform forces instead *)
Theorem C91_quinn_refuted : exists x v, one_run this q_grow (run_symp2 Qcring q_root q_quinn [q 1; q 4; q 16]) 1%Q (q 1) = Some (x, v) /\ ~ (x == 16)%Q.
Proof. do 2 eexists. split; [vm_compute; reflexivity|]. vm_compute. discriminate. Qed.
Print Assumptions C91_quinn_refuted.
(** and the drifts of FastPM not a free particle: two steps are not one *)
Theorem C91_free_refuted : exists x v x' v', one_run this (fun _ => 0%Qc) (run_symp2 Qcring q_root q_fast [q 1; q 4; q 16]) 1%Q (q 1) = Some (x, v) /\
  one_run this (fun _ => 0%Qc) (run_symp2 Qcring q_root q_fast [q 1; q 16]) 1%Q (q 1) = Some (x', v') /\ ~ (x == x')%Q.
Proof. do 4 eexists. split; [vm_compute; reflexivity|split; [vm_compute; reflexivity|]]. vm_compute. discriminate. Qed.
Print Assumptions C91_free_refuted.
Example C91_case_uniform : let go := one_run this (fun _ => q 5) in
  go (run_symp2 Qcring q_root q_quinn [q 1; q 4; q 16]) 1%Q (q 1) = Some ((11461#4096), (91#16))%Q /\
  option_map snd (go (run_symp1 Qcring q_quinn [q 1; q 16]) 1%Q (q 1)) = Some (91#16)%Q /\
  one_run this (fun _ => 0%Qc) (run_symp1 Qcring q_quinn [q 1; q 3; q 16]) 1%Q (q 1) = Some ((767#512), 1)%Q.
Proof. repeat split; vm_compute; reflexivity. Qed.
