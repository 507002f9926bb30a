(** Property C86: the deprecated ParticleMesh as a state machine (pmesh/particlemesh.py:220-375). *)
From Coq Require Import List Arith ZArith QArith Lia Bool Permutation Ring Qcanon.
From Verif Require Import Base ListFacts LayoutModel WrapModel WrapProofs DomainModel DomainFill MeshModel MeshAssign
  MeshRoute MeshTile RingModel FieldModel FieldFacts FieldProperties FieldSort FieldResample FieldNorm FourierModel FourierFacts
  FourierProperties BufferModel BufferProofs BufferProperties LegacyState.
Import ListNotations.
Local Close Scope Qc_scope.
Local Close Scope Q_scope.
Local Open Scope Z_scope.

Section Machine.
Variable K : cring.
Add Ring Kr : (rth K).
Local Notation C := (cpx K).
Variables (base : list Z) (n : Z) (me : mesh K).
Variable junk : memory K -> addr -> K.
Hypothesis G : good K base n me.
Local Notation NN := (N base n).
Local Notation HH := (half base n).
Local Notation spec g := (spectrum K base n (me_roots K me) (me_invs K me) g).
Local Notation synth c := (fun x => re (synthesis K base n (me_roots K me) c x)).
Local Notation RF := (pm_real K me).
Local Notation CF := (pm_complex K me).

(** a transfer function [fst f] does [snd f] to the modes, on any division over ranks *)
Definition faithful (f : tfun K * ((list Z -> C) -> list Z -> C)) : Prop :=
  forall Ls c, tiles HH Ls -> holds Ls c -> tiles HH (fst f Ls) /\ holds (fst f Ls) (snd f c).
Definition chain (fs : list (tfun K * ((list Z -> C) -> list Z -> C))) (c : list Z -> C) : list Z -> C :=
  fold_left (fun c f => snd f c) fs c.

(** ** single calls *)
Lemma clear_is m : real_is K base n (clear K me m) RF (fun _ => r0).
Proof. apply (put_real_is K base n me G); [eapply on_blocks_tiles, (go_real K _ _ _ G)|apply on_blocks_holds]. Qed.
Lemma paint_is g h m : real_is K base n m RF h -> real_is K base n (paint K me g m) RF (fun x => radd (h x) (g x)).
Proof.
  intros H x Hx. unfold paint.
  rewrite (put_real_is K base n me G m 0%nat _ (fun c => radd (real_at K m RF c) (g c)));
    [now rewrite (H x Hx)|eapply on_blocks_tiles, (go_real K _ _ _ G)|apply on_blocks_holds|exact Hx].
Qed.
Lemma legacy_r2c_is g m : real_is K base n m RF g -> exists m', LegacyState.r2c K me junk m = Ret m' /\ complex_is K base n m' CF (spec g).
Proof.
  intros H. unfold LegacyState.r2c.
  destruct (execute_forward_ok K base n me G junk ipforwardT m 0%nat 0%nat g eq_refl ltac:(discriminate) (or_intror eq_refl) H) as (m' & -> & Hc & _).
  cbn [bind]. eexists. split; [reflexivity|exact Hc].
Qed.
Lemma transfer_is fs : Forall faithful fs -> forall c m, complex_is K base n m CF c -> complex_is K base n (transfer K me (map fst fs) m) CF (chain fs c).
Proof.
  induction 1 as [|f fs Hf _ IH]; intros c m H; [exact H|]. cbn [map transfer fold_left chain]. apply IH.
  assert (NT : TransposedT <> RealT) by discriminate.
  destruct (Hf (complex_view K m CF) c) as [T HL].
  - apply (complex_view_tiles K base n me G _ _ _ NT).
  - apply (complex_view_holds K base n me G _ _ _ _ NT H).
  - now apply (put_complex_is K base n me G).
Qed.
Lemma legacy_c2r_is fs c m : Forall faithful fs -> complex_is K base n m CF c ->
  exists m', LegacyState.c2r K me junk (map fst fs) m = Ret m' /\ real_is K base n m' RF (synth (chain fs c)).
Proof.
  intros Hf H. unfold LegacyState.c2r.
  destruct (execute_backward_ok K base n me G junk ipbackwardT (transfer K me (map fst fs) m) 0%nat 0%nat (chain fs c) eq_refl ltac:(discriminate) (or_intror eq_refl)
     (transfer_is fs Hf c m H)) as (m' & -> & Hc & _).
  exists m'. split; [reflexivity|exact Hc].
Qed.
Lemma synth_spec g x : In x (cells_of NN) -> re (synthesis K base n (me_roots K me) (spec g) x) = g x.
Proof.
  intros Hx. pose proof (go_roots _ _ _ _ G) as R.
  pose proof (go_complex _ _ _ _ G TransposedT ltac:(discriminate)) as TC. pose proof (go_real _ _ _ _ G) as TR.
  set (Rs := on_blocks g (me_blocks K me RealT)). set (Cs := on_blocks (fun _ => c0) (me_blocks K me TransposedT) : list (lfield C)).
  assert (T1 : tiles NN Rs) by (eapply on_blocks_tiles; exact TR). assert (T2 : tiles HH Cs) by (eapply on_blocks_tiles; exact TC).
  pose proof (C44_c2r_r2c K base n _ _ R Rs Rs Cs g T1 (on_blocks_holds _ _) T2 T1) as H1.
  pose proof (r2c_holds K base n (me_roots K me) (me_invs K me) Rs Cs g T1 (on_blocks_holds _ _)) as H2.
  assert (T3 : tiles HH (FourierModel.r2c K (me_roots K me) (me_invs K me) Rs Cs)).
  { eapply tiles_same; [| |exact T2]; unfold FourierModel.r2c; rewrite map_map; reflexivity. }
  pose proof (c2r_holds K base n _ _ R _ Rs _ T3 H2 T1) as H3.
  symmetry. refine (holds_unique NN _ g (synth (spec g)) _ H1 H3 x Hx).
  eapply tiles_same; [| |exact T1]; unfold FourierModel.c2r; rewrite map_map; reflexivity.
Qed.

(** ** programs *)
(** the same calls, with what is known about their transfer functions *)
Inductive call :=
| DoClear | DoPaint (g : list Z -> K) | DoR2C | DoTransfer (fs : list (tfun K * ((list Z -> C) -> list Z -> C)))
| DoC2R (fs : list (tfun K * ((list Z -> C) -> list Z -> C))) | DoPush | DoPop | DoReadout.
Definition code (c : call) : command K :=
  match c with
  | DoClear => Clear K | DoPaint g => Paint K g | DoR2C => LegacyState.R2C K
  | DoTransfer fs => Transfer K (map fst fs) | DoC2R fs => LegacyState.C2R K (map fst fs)
  | DoPush => Push K | DoPop => Pop K | DoReadout => Readout K
  end.
Definition good_call (c : call) : Prop :=
  match c with DoTransfer fs | DoC2R fs => Forall faithful fs | _ => True end.
(** what the buffer holds: cells, modes, or neither (None) *)
Inductive holding := Cells (g : list Z -> K) | Modes (c : list Z -> C) | Neither.
Record mstate := mkMS { ms_now : holding; ms_saved : list (option (list Z -> C)) }.
Definition mean_step (s : mstate) (c : call) : outcome (list (option (list Z -> K)) * mstate) :=
  let stay h := Ret ([], mkMS h (ms_saved s)) in
  match c with
  | DoClear => stay (Cells (fun _ => r0))
  | DoPaint g => stay (match ms_now s with Cells h => Cells (fun x => radd (h x) (g x)) | _ => Neither end)
  | DoR2C => stay (match ms_now s with Cells h => Modes (spec h) | _ => Neither end)
  | DoTransfer fs => stay (match ms_now s with Modes c => Modes (chain fs c) | _ => Neither end)
  | DoC2R fs => stay (match ms_now s with Modes c => Cells (synth (chain fs c)) | _ => Neither end)
  | DoPush => Ret ([], mkMS (ms_now s) ((match ms_now s with Modes c => Some c | _ => None end) :: ms_saved s))
  | DoPop => match ms_saved s with
             | [] => Raise IndexError
             | x :: l => Ret ([], mkMS (match x with Some c => Modes c | None => Neither end) l)
             end
  | DoReadout => Ret ([match ms_now s with Cells h => Some h | _ => None end], s)
  end.
Fixpoint mean_exec (prog : list call) (s : mstate) : outcome (list (option (list Z -> K)) * mstate) :=
  match prog with
  | [] => Ret ([], s)
  | c :: prog => bind (mean_step s c) (fun r => bind (mean_exec prog (snd r)) (fun r' => Ret (fst r ++ fst r', snd r')))
  end.
Definition now_ok (m : memory K) (h : holding) : Prop :=
  match h with Cells g => real_is K base n m RF g | Modes c => complex_is K base n m CF c | Neither => True end.
Definition saved_ok (L : list (lfield C)) (x : option (list Z -> C)) : Prop :=
  match x with Some c => tiles HH L /\ holds L c | None => True end.
Definition mrelated (s : machine K) (t : mstate) : Prop :=
  now_ok (pm_mem K s) (ms_now t) /\ Forall2 saved_ok (pm_stack K s) (ms_saved t).
(** the canvas a readout sees, on all ranks *)
Definition out_ok (L : list (lfield K)) (x : option (list Z -> K)) : Prop :=
  match x with Some g => tiles NN L /\ holds L g | None => True end.
Definition magrees (a : outcome (list (list (lfield K)) * machine K)) (b : outcome (list (option (list Z -> K)) * mstate)) : Prop :=
  match b with
  | Ret (o, t) => exists o' s, a = Ret (o', s) /\ Forall2 out_ok o' o /\ mrelated s t
  | Raise e => a = Raise e
  | _ => False
  end.
Lemma step_ok s t c : good_call c -> mrelated s t -> magrees (step K me junk s (code c)) (mean_step t c).
Proof.
  intros Hg [Hn Hs]. assert (NT : TransposedT <> RealT) by discriminate. destruct c as [|g| |fs|fs| | |]; cbn [code step mean_step magrees].
  - exists [], (mkPM K (clear K me (pm_mem K s)) (pm_stack K s)). repeat split; [constructor| |exact Hs]. apply clear_is.
  - eexists [], _. split; [reflexivity|]. split; [constructor|]. split; [|exact Hs]. destruct (ms_now t); cbn in *; [|exact Logic.I..]. now apply paint_is.
  - destruct (ms_now t) as [g|c|]; cbn in Hn.
    + destruct (legacy_r2c_is g _ Hn) as (m' & -> & H). cbn. eexists [], _. split; [reflexivity|]. split; [constructor|]. split; [exact H|exact Hs].
    + unfold LegacyState.r2c, execute_forward. cbn. eexists [], _. split; [reflexivity|]. split; [constructor|]. split; [exact Logic.I|exact Hs].
    + unfold LegacyState.r2c, execute_forward. cbn. eexists [], _. split; [reflexivity|]. split; [constructor|]. split; [exact Logic.I|exact Hs].
  - eexists [], _. split; [reflexivity|]. split; [constructor|]. split; [|exact Hs]. destruct (ms_now t); cbn in *; try exact Logic.I. now apply transfer_is.
  - destruct (ms_now t) as [g|c|]; cbn in Hn.
    + unfold LegacyState.c2r, execute_backward. cbn. eexists [], _. split; [reflexivity|]. split; [constructor|]. split; [exact Logic.I|exact Hs].
    + destruct (legacy_c2r_is fs c _ Hg Hn) as (m' & -> & H). cbn. eexists [], _. split; [reflexivity|]. split; [constructor|]. split; [exact H|exact Hs].
    + unfold LegacyState.c2r, execute_backward. cbn. eexists [], _. split; [reflexivity|]. split; [constructor|]. split; [exact Logic.I|exact Hs].
  - eexists [], _. split; [reflexivity|]. split; [constructor|]. split; [exact Hn|]. cbn. constructor; [|exact Hs].
    destruct (ms_now t); cbn in *; try exact Logic.I. split; [apply (complex_view_tiles K base n me G _ _ _ NT)|now apply (complex_view_holds K base n me G)].
  - destruct Hs as [|L x Ls xs Hx Hs]; cbn; [reflexivity|]. eexists [], _. split; [reflexivity|]. split; [constructor|]. split; [|exact Hs].
    destruct x as [c|]; cbn in *; [|exact Logic.I]. destruct Hx. now apply (put_complex_is K base n me G).
  - eexists. exists s. split; [reflexivity|]. split; [|now split]. constructor; [|constructor]. destruct (ms_now t); cbn in *; try exact Logic.I.
    split; [apply (real_view_tiles K base n me G)|now apply (real_view_holds K base n me G)].
Qed.
Lemma exec_ok prog : Forall good_call prog -> forall s t, mrelated s t -> magrees (exec K me junk (map code prog) s) (mean_exec prog t).
Proof.
  induction 1 as [|c prog Hc _ IH]; intros s t R; [exists [], s; repeat split; [constructor|apply R..]|]. cbn [map exec mean_exec].
  pose proof (step_ok s t c Hc R) as H. unfold magrees in H. destruct (mean_step t c) as [[o t']|e| |]; cbn [bind]; [|now rewrite H|contradiction..].
  destruct H as (o' & s' & -> & Ho & R'). cbn [bind fst snd]. specialize (IH s' t' R'). unfold magrees in IH.
  destruct (mean_exec prog t') as [[o2 t2]|e| |]; cbn [bind magrees]; [|now rewrite IH|contradiction..].
  destruct IH as (o2' & s2 & -> & Ho2 & R2). cbn [bind fst snd]. exists (o' ++ o2'), s2. split; [reflexivity|]. split; [now apply Forall2_app|exact R2].
Qed.

(** ** C86 *)
(** Any sequence of method calls, from a new object: it fails only when [pop] finds no saved modes, and
    readouts see what the calls say as long as cells are used as cells and modes as modes. *)
Theorem C86_programs : forall prog m, Forall good_call prog ->
  magrees (exec K me junk (map code prog) (fresh K me m)) (mean_exec prog (mkMS (Cells (fun _ => r0)) [])).
Proof. intros prog m H. apply exec_ok; [exact H|]. split; [apply clear_is|constructor]. Qed.

Lemma mean_app p q s : mean_exec (p ++ q) s = bind (mean_exec p s) (fun r => bind (mean_exec q (snd r)) (fun r' => Ret (fst r ++ fst r', snd r'))).
Proof.
  revert s. induction p as [|c p IH]; intros s; cbn [app mean_exec bind fst snd].
  - destruct (mean_exec q s) as [[o t]|e| |]; reflexivity.
  - destruct (mean_step s c) as [[o t]|e| |]; cbn [bind fst snd]; try reflexivity. rewrite IH.
    destruct (mean_exec p t) as [[o' t']|e| |]; cbn [bind fst snd]; try reflexivity.
    destruct (mean_exec q t') as [[o2 t2]|e| |]; cbn [bind fst snd]; try reflexivity. now rewrite app_assoc.
Qed.
Lemma mean_paints gs h l : exists h', mean_exec (map DoPaint gs) (mkMS (Cells h) l) = Ret ([], mkMS (Cells h') l) /\
  forall x, h' x = fold_left (fun v g => radd v (g x)) gs (h x).
Proof.
  revert h. induction gs as [|g gs IH]; intros h; cbn [map mean_exec mean_step ms_now ms_saved bind fst snd].
  - exists h. split; reflexivity.
  - destruct (IH (fun x => radd (h x) (g x))) as (h' & -> & E). cbn [bind fst snd]. exists h'. split; [reflexivity|exact E].
Qed.
Definition one_field (fs : list (tfun K * ((list Z -> C) -> list Z -> C))) : list call := [DoPush; DoC2R fs; DoReadout; DoPop].
Lemma mean_fields fss c l : mean_exec (flat_map one_field fss) (mkMS (Modes c) l) =
  Ret (map (fun fs => Some (synth (chain fs c))) fss, mkMS (Modes c) l).
Proof.
  induction fss as [|fs fss IH]; [reflexivity|]. cbn [flat_map]. rewrite mean_app. unfold one_field at 1.
  cbn [mean_exec mean_step ms_now ms_saved bind fst snd app]. rewrite IH. reflexivity.
Qed.
(** The standard sequence: particles are painted in any number of calls and transformed; then for every
    chain of transfer functions the modes are saved, transformed back with the chain, read and
    restored.  Every readout sees the inverse transform of its chain applied to the modes of the
    painted field; at the end these modes are still there. *)
Theorem C86_forces : forall gs fss m, Forall (Forall faithful) fss ->
  exists h outs s, (forall x, h x = fold_left (fun v g => radd v (g x)) gs r0) /\
    exec K me junk (map (Paint K) gs ++ [LegacyState.R2C K] ++
        flat_map (fun fs => [Push K; LegacyState.C2R K (map fst fs); Readout K; Pop K]) fss) (fresh K me m) = Ret (outs, s) /\
    Forall2 (fun fs out => tiles NN out /\ holds out (fun x => re (synthesis K base n (me_roots K me) (chain fs (spec h)) x))) fss outs /\
    (forall k, In k (cells_of HH) -> complex_at K (pm_mem K s) (mkF K me TransposedT 0%nat) k = spec h k) /\ pm_stack K s = [].
Proof.
  intros gs fss m Hf. destruct (mean_paints gs (fun _ => r0) []) as (h & Eh & Hh).
  set (prog := map DoPaint gs ++ [DoR2C] ++ flat_map one_field fss).
  assert (GP : Forall good_call prog).
  { unfold prog. apply Forall_app. split; [apply Forall_map, Forall_forall; intros; exact Logic.I|]. constructor; [exact Logic.I|].
    apply Forall_flat_map. eapply Forall_impl; [|exact Hf]. intros fs H. unfold one_field. repeat constructor; exact H. }
  pose proof (C86_programs prog m GP) as H. unfold prog in H at 2. rewrite !mean_app, Eh in H.
  cbn [bind fst snd mean_exec mean_step ms_now ms_saved app] in H. rewrite mean_fields in H. cbn [bind fst snd magrees] in H.
  destruct H as (o & s & E & Ho & Hn & Hs). exists h, o, s. split; [exact Hh|]. split; [|split; [|split]].
  - rewrite <- E. f_equal. unfold prog. rewrite !map_app, map_map. cbn [map app]. f_equal. f_equal. clear. induction fss as [|fs fss IH]; [reflexivity|].
    cbn [flat_map one_field map code app]. now rewrite IH.
  - clear - Ho. cbn [app] in Ho. revert o Ho. induction fss as [|fs fss IH]; intros o Ho; cbn in Ho; inversion Ho; subst; constructor; [assumption|]. now apply IH.
  - exact Hn.
  - cbn in Hs. now inversion Hs.
Qed.
Lemma zeros_in_half : In (map (fun _ => 0) NN) (cells_of HH).
Proof.
  pose proof (base_pos K base n _ _ (go_roots _ _ _ _ G)) as Hb. pose proof (last_pos K base n _ _ (go_roots _ _ _ _ G)) as Hl.
  apply in_cells_of. unfold N, half. rewrite map_app, !app_length, map_length. cbn [map length]. split; [reflexivity|].
  intros k Hk.
  assert (E : nth k (map (fun _ : Z => 0) base ++ [0]) 0 = 0).
  { destruct (lt_dec k (length base)) as [H|H]; [rewrite app_nth1 by now rewrite map_length|rewrite app_nth2 by (rewrite map_length; lia)].
    - exact (map_nth (fun _ : Z => 0) base 0 k).
    - rewrite map_length. destruct (k - length base)%nat as [|[|]]; reflexivity. }
  rewrite E. split; [lia|]. destruct (lt_dec k (length base)) as [H|H]; [rewrite app_nth1 by exact H|rewrite app_nth2 by lia].
  - rewrite Forall_forall in Hb. apply Hb. now apply nth_In.
  - replace (k - length base)%nat with 0%nat by lia. cbn [nth]. assert (0 <= n / 2) by (apply Z.div_pos; lia). lia.
Qed.
Lemma spec_zero h : spec h (map (fun _ => 0) NN) = cof (rmul (rsum h (cells_of NN)) (rprod K (me_invs K me))).
Proof.
  pose proof (go_complex _ _ _ _ G TransposedT ltac:(discriminate)) as TC. pose proof (go_real _ _ _ _ G) as TR.
  set (Rs := on_blocks h (me_blocks K me RealT)). set (Cs := on_blocks (fun _ => c0) (me_blocks K me TransposedT) : list (lfield C)).
  assert (T1 : tiles NN Rs) by (eapply on_blocks_tiles; exact TR). assert (T2 : tiles HH Cs) by (eapply on_blocks_tiles; exact TC).
  destruct (C44_zero_mode K base n (me_roots K me) (me_invs K me) Rs Cs h T1 (on_blocks_holds _ _)) as (c & Hc & <-).
  pose proof (r2c_holds K base n (me_roots K me) (me_invs K me) Rs Cs h T1 (on_blocks_holds _ _)) as H2.
  apply (holds_unique HH (FourierModel.r2c K (me_roots K me) (me_invs K me) Rs Cs) (spec h) c); try assumption; [|apply zeros_in_half].
  eapply tiles_same; [| |exact T2]; unfold FourierModel.r2c; rewrite map_map; reflexivity.
Qed.
Lemma spec_scale v h k : spec (fun x => rmul v (h x)) k = cmul (cof v) (spec h k).
Proof.
  unfold spectrum. rewrite (rsum_ext (cpx_cring K) _ (fun x => cmul (cof v) (cmul (cof (h x)) (cconj (chi K (me_roots K me) k x))))).
  - rewrite (csum_scale K (cof v)). unfold cmul, cof. cbn. f_equal; ring.
  - intros x. unfold cmul, cof. cbn. f_equal; ring.
Qed.
Lemma exec_app p q s : exec K me junk (p ++ q) s =
  bind (exec K me junk p s) (fun r => bind (exec K me junk q (snd r)) (fun r' => Ret (fst r ++ fst r', snd r'))).
Proof.
  revert s. induction p as [|c p IH]; intros s; cbn [app exec bind fst snd].
  - destruct (exec K me junk q s) as [[o t]|e| |]; reflexivity.
  - destruct (step K me junk s c) as [[o t]|e| |]; cbn [bind fst snd]; try reflexivity. rewrite IH.
    destruct (exec K me junk p t) as [[o' t']|e| |]; cbn [bind fst snd]; try reflexivity.
    destruct (exec K me junk q t') as [[o2 t2]|e| |]; cbn [bind fst snd]; try reflexivity. now rewrite app_assoc.
Qed.
(** Without transfer functions the readout sees the painted field. *)
Theorem C86_round_trip : forall gs m, exists out s,
  exec K me junk (map (Paint K) gs ++ [LegacyState.R2C K; LegacyState.C2R K []; Readout K]) (fresh K me m) = Ret ([out], s) /\
  tiles NN out /\ holds out (fun x => fold_left (fun v g => radd v (g x)) gs r0).
Proof.
  intros gs m. destruct (mean_paints gs (fun _ => r0) []) as (h & Eh & Hh).
  set (prog := map DoPaint gs ++ [DoR2C; DoC2R []; DoReadout]).
  assert (GP : Forall good_call prog).
  { unfold prog. apply Forall_app. split; [apply Forall_map, Forall_forall; intros; exact Logic.I|]. repeat constructor. }
  pose proof (C86_programs prog m GP) as H. unfold prog in H at 2. rewrite !mean_app, Eh in H. cbn in H.
  destruct H as (o & s & E & Ho & Hn & Hs). inversion Ho as [|L y o' l' HL Hnil]; subst. destruct HL as [HT HL]. inversion Hnil; subst.
  exists L, s. split; [|split; [exact HT|]].
  - rewrite <- E. f_equal. unfold prog. rewrite !map_app, map_map. reflexivity.
  - eapply holds_ext; [|exact HL]. intros L' k HL' Hk. cbn beta. rewrite <- Hh. apply synth_spec. eapply tiles_cell; eassumption.
Qed.
(** The zero mode is the mean of the painted field. *)
Theorem C86_mean : forall gs m, exists h s, (forall x, h x = fold_left (fun v g => radd v (g x)) gs r0) /\
  exec K me junk (map (Paint K) gs ++ [LegacyState.R2C K]) (fresh K me m) = Ret ([], s) /\
  complex_at K (pm_mem K s) (mkF K me TransposedT 0%nat) (map (fun _ => 0) NN) =
    cof (rmul (rsum h (cells_of NN)) (rprod K (me_invs K me))).
Proof.
  intros gs m. destruct (mean_paints gs (fun _ => r0) []) as (h & Eh & Hh).
  set (prog := map DoPaint gs ++ [DoR2C]).
  assert (GP : Forall good_call prog).
  { unfold prog. apply Forall_app. split; [apply Forall_map, Forall_forall; intros; exact Logic.I|]. repeat constructor. }
  pose proof (C86_programs prog m GP) as H. unfold prog in H at 2. rewrite !mean_app, Eh in H. cbn in H.
  destruct H as (o & s & E & Ho & Hn & Hs). inversion Ho; subst. exists h, s. split; [exact Hh|]. split.
  - rewrite <- E. f_equal. unfold prog. rewrite !map_app, map_map. reflexivity.
  - cbn in Hn. rewrite <- spec_zero. apply Hn. apply zeros_in_half.
Qed.
(** Dividing the modes by the mean, as NormalizeDC does, gives the painted field over its mean: 1 + delta. *)
Theorem C86_normalised : forall gs m f v, faithful (f, fun c k => cmul (cof v) (c k)) ->
  exists h out s, (forall x, h x = fold_left (fun v g => radd v (g x)) gs r0) /\
  exec K me junk (map (Paint K) gs ++ [LegacyState.R2C K; LegacyState.C2R K [f]; Readout K]) (fresh K me m) = Ret ([out], s) /\
  tiles NN out /\ holds out (fun x => rmul v (h x)) /\
  (rmul v (rmul (rsum h (cells_of NN)) (rprod K (me_invs K me))) = r1 ->
   rmul (rsum (fun x => rmul v (h x)) (cells_of NN)) (rprod K (me_invs K me)) = r1).
Proof.
  intros gs m f v Hf. destruct (mean_paints gs (fun _ => r0) []) as (h & Eh & Hh).
  set (F := (f, fun (c : list Z -> C) k => cmul (cof v) (c k)) : tfun K * ((list Z -> C) -> list Z -> C)).
  set (prog := map DoPaint gs ++ [DoR2C]).
  assert (GP : Forall good_call prog).
  { unfold prog. apply Forall_app. split; [apply Forall_map, Forall_forall; intros; exact Logic.I|]. repeat constructor. }
  pose proof (C86_programs prog m GP) as H. unfold prog in H at 2. rewrite !mean_app, Eh in H. cbn in H.
  destruct H as (o & s & E & Ho & Hn & Hs). inversion Ho; subst. cbn in Hn.
  assert (Hc : complex_is K base n (transfer K me [f] (pm_mem K s)) CF (spec (fun x => rmul v (h x)))).
  { intros k Hk. rewrite spec_scale. exact (transfer_is [F] (Forall_cons F Hf (Forall_nil _)) (spec h) (pm_mem K s) Hn k Hk). }
  destruct (execute_backward_ok K base n me G junk ipbackwardT _ 0%nat 0%nat _ eq_refl ltac:(discriminate) (or_intror eq_refl) Hc) as (m' & Em & Hr & _).
  exists h, (real_view K m' RF), (mkPM K m' (pm_stack K s)). split; [exact Hh|]. split; [|split; [|split]].
  - replace (map (Paint K) gs ++ [LegacyState.R2C K; LegacyState.C2R K [f]; Readout K]) with (map code prog ++ [LegacyState.C2R K [f]; Readout K]).
    2: { unfold prog. rewrite map_app, map_map, <- app_assoc. reflexivity. }
    rewrite exec_app, E. cbn [bind fst snd exec step]. unfold LegacyState.c2r. rewrite Em. reflexivity.
  - apply (real_view_tiles K base n me G).
  - apply (real_view_holds K base n me G). intros x Hx. rewrite (Hr x Hx). now apply synth_spec.
  - intros Hv. rewrite rsum_scale. rewrite <- Hv. ring.
Qed.
End Machine.
Print Assumptions C86_programs.
Print Assumptions C86_forces.
Print Assumptions C86_round_trip.
Print Assumptions C86_mean.
Print Assumptions C86_normalised.

(** ** the mesh of C68 *)
(** multiplication of every mode by a number that depends on the mode *)
Definition by_factor (F : list Z -> cpx Qcring) : tfun Qcring * ((list Z -> cpx Qcring) -> list Z -> cpx Qcring) :=
  (map (fun L => mkL (lstart L) (lshape L) (map (fun p => cmul (F (fst p)) (snd p)) (combine (lcells L) (lvals L)))),
   fun c k => cmul (F k) (c k)).
Lemma combine_self {A B D} (f : A -> B) (h : A * B -> D) l : map h (combine l (map f l)) = map (fun a => h (a, f a)) l.
Proof. induction l as [|a l IH]; [reflexivity|]. cbn. now rewrite IH. Qed.
Lemma by_factor_faithful F : faithful Qcring [4] 2 (by_factor F).
Proof.
  intros Ls c T H. split.
  - eapply tiles_same; [| |exact T]; cbn; rewrite map_map; reflexivity.
  - unfold holds in *. cbn [fst snd by_factor]. apply Forall_map. eapply Forall_impl; [|exact H]. intros L HL. cbn [lvals].
    rewrite HL, combine_self. reflexivity.
Qed.
(** two forces from one density: the gradient along the first axis and twice the field *)
Definition sx_grad (k : list Z) : cpx Qcring := match k with [1; _] => (ex_q 0, ex_q 1) | [3; _] => (ex_q 0, ex_q (-1)) | _ => c0 end.
Definition sx_fss := [[by_factor sx_grad]; [by_factor (fun _ => cof (ex_q 2))]].
Definition sx_prog : list (command Qcring) :=
  map (Paint Qcring) [ex_real; fun _ => ex_q 1] ++ [LegacyState.R2C Qcring] ++
  flat_map (fun fs => [Push Qcring; LegacyState.C2R Qcring (map fst fs); Readout Qcring; Pop Qcring]) sx_fss.
Definition all_values (L : list (lfield Qcring)) : list Q := map (fun v => this v) (flat_map lvals L).
Example C86_case : forall padded,
  Forall (Forall (faithful Qcring [4] 2)) sx_fss /\
  match exec Qcring (bx_mesh padded) bx_junk sx_prog (fresh Qcring (bx_mesh padded) (st_mem Qcring bx_start)) with
  | Ret ([a; b], s) => all_values a = [(-4)%Q; (-4)%Q; 2; 2; 4; 4; (-2)%Q; (-2)%Q]%Q /\
      all_values b = map (fun x => this (ex_q 2 * (ex_real x + ex_q 1))%Qc) (cells_of [4; 2])
  | _ => False
  end.
Proof.
  intros padded. split; [repeat (apply Forall_cons || apply Forall_nil || apply by_factor_faithful)|].
  destruct padded; vm_compute; split; reflexivity.
Qed.
(** Without push and pop the first inverse transform destroys the modes: the second finds
    something else, and no error is raised. *)
Theorem C86_destroyed_refuted : forall padded,
  match exec Qcring (bx_mesh padded) bx_junk [Paint Qcring ex_real; LegacyState.R2C Qcring; LegacyState.C2R Qcring []; Readout Qcring; LegacyState.C2R Qcring []; Readout Qcring]
     (fresh Qcring (bx_mesh padded) (st_mem Qcring bx_start)) with
  | Ret ([a; b], s) => all_values a = map (fun x => this (ex_real x)) (cells_of [4; 2]) /\ all_values a <> all_values b
  | _ => False
  end.
Proof. intros []; vm_compute; (split; [reflexivity|discriminate]). Qed.
(** Painting again without clear after the modes were computed does not add to the density. *)
Theorem C86_repaint_refuted : forall padded,
  match exec Qcring (bx_mesh padded) bx_junk [Paint Qcring ex_real; LegacyState.R2C Qcring; Paint Qcring ex_real; Readout Qcring]
     (fresh Qcring (bx_mesh padded) (st_mem Qcring bx_start)) with
  | Ret ([a], s) => all_values a <> map (fun x => this (ex_real x)) (cells_of [4; 2]) /\
                    all_values a <> map (fun x => this (ex_q 2 * ex_real x)%Qc) (cells_of [4; 2])
  | _ => False
  end.
Proof. intros []; vm_compute; (split; discriminate). Qed.
Print Assumptions C86_destroyed_refuted.
Print Assumptions C86_repaint_refuted.
