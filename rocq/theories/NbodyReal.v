(** The simulation of examples/nbody.py over the real numbers: the sine, 2 pi and the roots of
    unity are those of the standard library, for every mesh. *)
From Coq Require Import List Arith ZArith QArith Lia Bool Reals Lra Qreals.
From Verif Require Import Base ListFacts WindowModel DomainFill MeshModel MeshAssign MeshRoute MeshPaint MeshProperties MeshProperties2 MeshProperties3 RingModel FieldModel
  FieldFacts FourierModel FourierFacts FourierProperties FourierReal NbodyModel NbodyProperties MeshTile.
Import ListNotations.
Local Close Scope Q_scope.
Local Open Scope R_scope.

Lemma R_embedding : embedding Rring Q2R.
Proof.
  split.
  - exact Qeq_eqR.
  - exact Q2R_plus.
  - exact Q2R_mult.
  - unfold Q2R. cbn. lra.
Qed.
(** k2[k2 == 0] = 1.0 in nbody.py asks whether a number is zero *)
Definition zero_R (x : Rring) : bool := if Req_EM_T x 0 then true else false.
Definition real_force : Rring -> list pm -> list Z -> list Q -> list field -> list (lfield (cpx Rring)) -> list (list (list Q)) -> list (list (list Q)) ->
    option (list (list (list Rring))) :=
  fun om pms Nmesh => force Rring Q2R sin Rinv zero_R (2 * PI) (roots Nmesh) (inverses Nmesh) om pms Nmesh.

Lemma real_simulation base n BoxSize box w0 pt blocks pms outs Mid :
  world (N base n) BoxSize box w0 pt blocks pms -> (0 < native_of (w_kind w0))%Z -> (0 <= w_support w0)%Z -> length outs = length blocks ->
  (forall r, (r < length blocks)%nat -> MeshRoute.stored (f_array (nth r outs zero_field)) (block_shape (i_edges pt) (block blocks r))) ->
  tiles (half base n) Mid ->
  simulation Rring base n (roots (N base n)) (inverses (N base n)) BoxSize box w0 pt blocks pms outs Mid.
Proof.
  intros W Hk Hs Lo St TM. constructor; try assumption. apply roots_mesh.
  pose proof (mk_edges _ _ _ (wd_mesh _ _ _ _ _ _ _ W)) as X. clear -X.
  induction X as [|m e ms es H X IH]; constructor; [|exact IH]. destruct H as [H _]. exact H.
Qed.

Theorem C87_real : forall base n BoxSize box w0 pt blocks pms outs Mid,
  world (N base n) BoxSize box w0 pt blocks pms -> (0 < native_of (w_kind w0))%Z -> (0 <= w_support w0)%Z -> length outs = length blocks ->
  (forall r, (r < length blocks)%nat -> MeshRoute.stored (f_array (nth r outs zero_field)) (block_shape (i_edges pt) (block blocks r))) ->
  tiles (half base n) Mid ->
  forall om Qpos S, let nd := length (N base n) in particles_ok nd (length blocks) Qpos -> same_particles nd Qpos S ->
  (exists F, real_force om pms (N base n) box outs Mid Qpos S = Some F /\ velocities_ok nd Qpos F /\
     (forall c, (c < nd)%nat -> momentum_of Qpos F c = 0) /\
     (length (concat Qpos) = 1%nat -> forall c, (c < nd)%nat -> concat (nth c F []) = [0])) /\
  forall store (T : Type) (Kf Df : T -> T -> T -> R) (mid c2 d1 d2 : T -> T -> T) ts V F0, velocities_ok nd Qpos V ->
  forall prog, In prog [symp1 Rring T Kf Df ts; symp2 Rring T Kf Df mid ts; symp3 Rring T Kf Df c2 d1 d2 ts] ->
  exists st, run Rring Q2R store (real_force om pms (N base n) box outs Mid Qpos) nd prog (mkState Rring S V F0) = Some st /\
    same_particles nd Qpos (st_S Rring st) /\ velocities_ok nd Qpos (st_V Rring st) /\
    forall c, (c < nd)%nat -> momentum_of Qpos (st_V Rring st) c = momentum_of Qpos V c.
Proof.
  intros base n BoxSize box w0 pt blocks pms outs Mid W Hk Hs Lo St TM om Qpos S nd Hp HS.
  pose proof (real_simulation base n BoxSize box w0 pt blocks pms outs Mid W Hk Hs Lo St TM) as Sim. split.
  - destruct (C87_momentum Rring Q2R R_embedding sin Rinv zero_R (2 * PI) _ _ _ _ _ _ _ _ _ _ _ _ Sim om Qpos S Hp HS) as (F & F1 & F2 & F3).
    exists F. split; [exact F1|]. split; [exact F2|]. split; [exact F3|]. intros H1.
    destruct (C87_single Rring Q2R R_embedding sin Rinv zero_R (2 * PI) _ _ _ _ _ _ _ _ _ _ _ _ Sim om Qpos S Hp HS H1) as (F' & F1' & F4).
    rewrite F1 in F1'. injection F1' as <-. exact F4.
  - intros store T Kf Df mid c2 d1 d2 ts V F0 HV prog Hprog.
    exact (C87_integrators Rring Q2R R_embedding sin Rinv zero_R (2 * PI) _ _ _ _ _ _ _ _ _ _ _ _ Sim om store T Kf Df mid c2 d1 d2 ts Qpos S V F0 Hp HS HV prog Hprog).
Qed.
Print Assumptions C87_real.
(** the world of [C87_case] meets the hypotheses over the real numbers too *)
Example C87_real_case : exists F, real_force 1 nb_pms [4%Z] [8%Q] nb_outs [mkL [0%Z] [2%Z] []; mkL [2%Z] [1%Z] []] [[[1%Q]; [(7#2)%Q]]; [[3%Q]]] [[[0%Q]; [0%Q]]; [[0%Q]]] = Some F /\
  momentum_of [[[1%Q]; [(7#2)%Q]]; [[3%Q]]] F 0 = 0.
Proof.
  destruct nb_simulation as [_ W Hk Hs Lo St _].
  destruct (C87_real [] 4 (Scalar 8%Q) [8%Q] ex_cic nb_pt nb_blocks nb_pms nb_outs [mkL [0%Z] [2%Z] []; mkL [2%Z] [1%Z] []] W Hk Hs Lo St
    ltac:(now apply tiles_check) 1 [[[1%Q]; [(7#2)%Q]]; [[3%Q]]] [[[0%Q]; [0%Q]]; [[0%Q]]]) as [(F & F1 & _ & F2 & _) _].
  - split; [reflexivity|]. repeat constructor.
  - split; [reflexivity|]. repeat constructor.
  - exists F. split; [exact F1|]. apply F2. cbn. lia.
Qed.
