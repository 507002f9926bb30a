(** The windows given by tables: acg2-6, lanczos2-6, db6-20, sym6-20.  The entries of
    the tables are arguments, their number, step and offset are those of the code. *)
From Coq Require Import List Arith ZArith QArith Qabs Qround Lia Lqa Bool Setoid Morphisms.
From Verif Require Import Base ListFacts WrapModel WrapProofs QSum WindowModel WindowStencil WindowSpread WindowKernels WindowAxis.
Import ListNotations.
Local Open Scope Q_scope.

Definition even_table (v : Z -> Q) (native n : Z) (step : Q) : kind :=
  Other (even_table_kernel v n step) (even_table_diff v n step) native.
(** _window_acg.h:2057-2085, 4135-4163, 6213-6241, 8291-8319, 10369-10397 *)
Definition acg2 v := even_table v 2 8192 (305213#2500000000).
Definition acg3 v := even_table v 3 8192 (915639#5000000000).
Definition acg4 v := even_table v 4 8192 (305213#1250000000).
Definition acg5 v := even_table v 5 8192 (305213#1000000000).
Definition acg6 v := even_table v 6 8192 (915639#2500000000).
(** _window_lanczos.h, the same lines *)
Definition lanczos2 v := even_table v 4 8192 (1220703#5000000000).
Definition lanczos3 v := even_table v 6 8192 (3662109#10000000000).
Definition lanczos4 v := even_table v 8 8192 (1220703#2500000000).
Definition lanczos5 v := even_table v 10 8192 (1525879#2500000000).
Definition lanczos6 v := even_table v 12 8192 (7324219#10000000000).

Definition offset_table (v : Z -> Q) (native n : Z) (o : Q) : kind :=
  Other (offset_table_kernel v n o (1#256)) (offset_table_diff v n o (1#256)) native.
(** _window_wavelets.h:457-479, 1122-1144, 1915-1937, 2388-2410, 3053-3075, 3910-3932 *)
Definition sym6 v := offset_table v 7 1796 (7#2).
Definition sym12 v := offset_table v 10 2564 5.
Definition sym20 v := offset_table v 12 3076 6.
Definition db6 v := offset_table v 7 1796 (7#2).
Definition db12 v := offset_table v 10 2564 5.
Definition db20 v := offset_table v 13 3332 (13#2).

Lemma trunc_nonneg f : 0 <= f -> trunc f = Qfloor f.
Proof. intros H. unfold trunc. replace (Qle_bool 0 f) with true; [reflexivity|]. symmetry. apply Qle_bool_iff, H. Qed.
Lemma trunc_ge (n : Z) f : 0 <= f -> inject_Z n <= f -> (n <= trunc f)%Z.
Proof.
  intros H0 H. rewrite trunc_nonneg by exact H0. rewrite <- (Qfloor_Z n). apply Qfloor_resp_le, H.
Qed.

Global Instance even_table_kernel_proper v n step : Proper (Qeq ==> Qeq) (even_table_kernel v n step).
Proof.
  intros x y E. unfold even_table_kernel. cbv zeta. assert (F : Qabs x / step == Qabs y / step) by (rewrite E; reflexivity).
  rewrite (trunc_proper _ _ F). destruct (_ <? 0)%Z; [reflexivity|]. destruct (_ >=? _)%Z; [reflexivity|].
  rewrite F. reflexivity.
Qed.
Global Instance even_table_diff_proper v n step : Proper (Qeq ==> Qeq) (even_table_diff v n step).
Proof.
  intros x y E. unfold even_table_diff.
  replace (Qle_bool 0 y) with (Qle_bool 0 x) by (rewrite E; reflexivity).
  destruct (Qle_bool 0 x).
  - assert (F : x / step == y / step) by (rewrite E; reflexivity). rewrite (trunc_proper _ _ F). reflexivity.
  - assert (F : - x / step == - y / step) by (rewrite E; reflexivity). rewrite (trunc_proper _ _ F). reflexivity.
Qed.
Global Instance offset_table_kernel_proper v n o step : Proper (Qeq ==> Qeq) (offset_table_kernel v n o step).
Proof.
  intros x y E. unfold offset_table_kernel. cbv zeta. assert (F : (x + o) / step == (y + o) / step) by (rewrite E; reflexivity).
  rewrite (Qltb_proper _ _ F 0 0 (Qeq_refl 0)), (trunc_proper _ _ F). destruct (Qltb _ _); [reflexivity|].
  destruct (_ >=? _)%Z; [reflexivity|]. rewrite F. reflexivity.
Qed.
Global Instance offset_table_diff_proper v n o step : Proper (Qeq ==> Qeq) (offset_table_diff v n o step).
Proof.
  intros x y E. unfold offset_table_diff. assert (F : (x + o) / step == (y + o) / step) by (rewrite E; reflexivity).
  rewrite (trunc_proper _ _ F). reflexivity.
Qed.

Lemma even_table_proper v native n step : (0 < native)%Z -> proper_kind (even_table v native n step).
Proof. intros H. split; [exact H|]. split; cbn; typeclasses eauto. Qed.
Lemma offset_table_proper v native n o : (0 < native)%Z -> proper_kind (offset_table v native n o).
Proof. intros H. split; [exact H|]. split; cbn; typeclasses eauto. Qed.

(** the tables of the acg and lanczos windows end within the support *)
Lemma even_table_confined v native n step : 0 < step -> (1 <= n)%Z -> inject_Z (n - 1) * step <= inject_Z native / 2 ->
  confined_kind (even_table v native n step).
Proof.
  intros Hs Hn He.
  assert (0 <= inject_Z (n - 1) * step) by (apply Qmult_le_0_compat; [change 0 with (inject_Z 0); rewrite <- Zle_Qle; lia|lra]).
  assert (T : forall z, inject_Z native / 2 <= z -> (n - 1 <= trunc (z / step))%Z).
  { intros z Hz. assert (B : inject_Z (n - 1) <= z / step) by (apply Qle_shift_div_l; [exact Hs|lra]).
    apply trunc_ge; [|exact B]. eapply Qle_trans; [|exact B]. change 0 with (inject_Z 0). rewrite <- Zle_Qle. lia. }
  split; intros y Hy; cbn [even_table kernel_of diff_of native_of] in *.
  - assert (A : inject_Z native / 2 <= Qabs y).
    { destruct (Qabs_split y) as [[A1 A2]|[A1 A2]]; rewrite A2; destruct Hy as [Hy|Hy]; lra. }
    unfold even_table_kernel. cbv zeta. specialize (T _ A). destruct (_ <? 0)%Z; [reflexivity|].
    destruct (Z.geb_spec (trunc (Qabs y / step)) (n - 1)); [reflexivity|lia].
  - unfold even_table_diff. destruct (Qle_bool_case 0 y) as [Hp|Hp].
    + assert (A : inject_Z native / 2 <= y).
      { destruct Hy as [Hy|Hy]; [|exact Hy].
        lra. }
      specialize (T _ A). destruct (_ <? 0)%Z; [reflexivity|]. destruct (Z.geb_spec (trunc (y / step)) (n - 1)); [reflexivity|lia].
    + assert (A : inject_Z native / 2 <= - y).
      { destruct Hy as [Hy|Hy]; [lra|].
        lra. }
      specialize (T _ A). destruct (_ <? 0)%Z; [reflexivity|]. destruct (Z.geb_spec (trunc (- y / step)) (n - 1)); [reflexivity|lia].
Qed.
Definition even_kind (k : kind) : Prop :=
  exists v, In k [acg2 v; acg3 v; acg4 v; acg5 v; acg6 v; lanczos2 v; lanczos3 v; lanczos4 v; lanczos5 v; lanczos6 v].
Theorem even_kind_ok k : even_kind k -> proper_kind k /\ confined_kind k.
Proof.
  intros (v & H). cbn [In] in H.
  repeat destruct H as [<-|H]; [..|destruct H];
    (split; [apply even_table_proper; lia|apply even_table_confined; [reflexivity|lia|vm_compute; discriminate]]).
Qed.
Definition wavelet (k : kind) : Prop :=
  exists v, In k [sym6 v; sym12 v; sym20 v; db6 v; db12 v; db20 v].
Theorem wavelet_proper k : wavelet k -> proper_kind k.
Proof.
  intros (v & H). cbn [In] in H. repeat destruct H as [<-|H]; [..|destruct H]; apply offset_table_proper; lia.
Qed.
(** the tables of the wavelets reach three steps beyond the support.  The last two
    entries of the db6 table are those of _window_wavelets.h:2387. *)
Theorem wavelet_not_confined v : v 1793%Z = 33314#100000000 -> v 1794%Z = 30357#100000000 -> v 1795%Z = 27428#100000000 ->
  ~ confined_kind (db6 v).
Proof.
  intros H1 H2 H3 [C _]. specialize (C (3505#1000)). cbn [db6 offset_table kernel_of native_of] in C.
  assert (E : offset_table_kernel v 1796 (7#2) (1#256) (3505#1000) ==
    v 1793%Z * (1 - (((3505#1000) + (7#2)) / (1#256) - inject_Z 1793)) + v 1794%Z * (((3505#1000) + (7#2)) / (1#256) - inject_Z 1793)).
  { reflexivity. }
  rewrite E, H1, H2 in C. assert (X : inject_Z 7 / 2 <= 3505#1000) by (vm_compute; discriminate).
  specialize (C (or_intror X)). vm_compute in C. discriminate.
Qed.
Print Assumptions wavelet_not_confined.
