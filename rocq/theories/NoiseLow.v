(** White noise in one and two dimensions (pmesh/whitenoise.py:22-36, pm.py:1684-1691),
    and the real field made from complex white noise (pm.py:1694). *)
From Coq Require Import List Arith ZArith QArith Lia Bool Qcanon.
From Verif Require Import Base ListFacts DomainFill MeshModel MeshRoute MeshTile RingModel FieldModel FieldFacts FieldProperties FieldNorm FourierModel FourierFacts FourierProperties RanluxModel NoiseModel NoiseFacts NoiseProofs.
Import ListNotations.
Local Close Scope Q_scope.
Local Open Scope Z_scope.

Section Low.
Variable K : cring.
Add Ring Kr : (rth K).
Local Notation C := (cpx K).

(** whitenoise.py:22-36 and pm.py:1684-1691 on one rank.  [normal] is
    RandomState(seed).normal(size=Nmesh), which all ranks draw in full; [s] is
    prod(Nmesh) ** -0.5; [phase] is exp(1j * angle(z)). *)
Definition low_value (Nmesh : list Z) (roots : list C) (normal : list Z -> K) (s : K) (k : list Z) : C :=
  cmul (rsum (K := cpx_cring K) (fun x => cmul (cof (normal x)) (cconj (chi K roots k x))) (cells_of Nmesh)) (cof s).
Definition low_noise {V} (Nmesh : list Z) (roots : list C) (normal : list Z -> K) (s : K) (phase : C -> C) (unitary : bool) (mean : C)
  (Ls : list (lfield V)) : list (lfield C) :=
  map (on_block (fun k => if is_zero_mode Nmesh k then mean
                          else if unitary then phase (low_value Nmesh roots normal s k) else low_value Nmesh roots normal s k)) Ls.

Lemma signed_zero_op N i : 0 <= i < N -> (signed_index N ((- i) mod N) =? 0) = (signed_index N i =? 0).
Proof.
  intros H. pose proof (Z.mod_pos_bound (- i) N ltac:(lia)). rewrite !signed_zero by lia. f_equal. rewrite op_val by lia.
  destruct (Z.eqb_spec i 0); [reflexivity|]. apply Z.eqb_neq. lia.
Qed.
Lemma zero_mode_opposite N k : valid_index N k -> is_zero_mode N (opposite N k) = is_zero_mode N k.
Proof.
  unfold is_zero_mode, opposite. induction 1 as [|n i N k H V IH]; [reflexivity|]. rewrite map2_cons. cbn [combine forallb fst snd].
  rewrite IH. now rewrite signed_zero_op.
Qed.
Lemma low_opposite N ws is normal s k : mesh_roots K N ws is -> valid_index N k ->
  low_value N ws normal s (opposite N k) = cconj (low_value N ws normal s k).
Proof.
  intros M V. unfold low_value. rewrite cconj_mul, cconj_of, cconj_rsum. f_equal. apply (rsum_ext_in (cpx_cring K)). intros x Hx.
  rewrite (chi_opposite K N ws is M k x V) by now apply cells_valid. now rewrite cconj_mul, cconj_of.
Qed.

(** C48 and C49 in one and two dimensions: the field does not depend on the
    decomposition and obeys the reality condition, on every mesh, odd sizes included *)
Theorem C49_low_dimension : forall N ws is normal s phase unitary mean cshape,
  mesh_roots K N ws is -> im mean = r0 -> (forall z, phase (cconj z) = cconj (phase z)) ->
  (forall k, In k (cells_of cshape) -> valid_index N k) ->
  exists f, hermitian K N cshape f /\
    forall V (Ls : list (lfield V)), tiles cshape Ls -> holds (low_noise N ws normal s phase unitary mean Ls) f.
Proof.
  intros N ws is normal s phase unitary mean cshape M Hm Hp Hc. eexists. split; [|intros V Ls _; apply on_block_holds].
  intros k Hk _. cbv beta. rewrite (zero_mode_opposite N k (Hc k Hk)). destruct (is_zero_mode N k).
  - destruct mean as [a b]. cbn in Hm. subst b. unfold cconj. cbn. f_equal. ring.
  - rewrite (low_opposite N ws is normal s k M (Hc k Hk)). destruct unitary; [apply Hp|reflexivity].
Qed.

(** ** type='real': the complex noise is transformed to a real field, whose transform is
    the complex noise again *)
Variables (S A : Type).
Variable rng_set : Z -> S.
Variable uniform : S -> Z * S.
Variable sample : S -> A * S.
Variable polar : bool -> A -> C.
Theorem C49_real_field : forall N N2 ws is u seed mean (Ls Mid : list (lfield C)) (Tmp : list (lfield K)) f,
  mesh_roots K [N; N; N2] ws is -> (forall a : K, radd a a = r0 -> a = r0) -> Z.even N2 = true -> im mean = r0 ->
  tiles [N; N; N2 / 2 + 1] Ls -> tiles [N; N; N2 / 2 + 1] Mid -> tiles [N; N; N2] Tmp ->
  holds (generate_whitenoise K S A rng_set uniform sample polar [N; N; N2] u seed mean Ls) (fun k => Some (f k)) ->
  holds Ls f -> holds (r2c K ws is (c2r K [N; N; N2] ws Ls Tmp) Mid) f.
Proof.
  intros N N2 ws is u seed mean Ls Mid Tmp f M Two Ev Hm TL TM TT H HL.
  assert (P : 0 < N2). { pose proof (mesh_roots_pos K _ _ _ M) as P. rewrite Forall_forall in P. apply P. right. right. now left. }
  apply (C44_r2c_c2r K [N; N] N2 ws is M Two Ls Mid Tmp f TL HL); try assumption.
  exact (proj1 (C49_hermitian K S A rng_set uniform sample polar C N N2 (N2 / 2 + 1) u seed mean Ls f Ev P Hm TL (or_introl eq_refl) H)).
Qed.
End Low.

(** the conditions can be met: the 4 x 2 mesh of C44, any numbers, and for unitary noise
    a function that commutes with conjugation *)
Example C49_low_case : exists f, hermitian Qcring [4; 2] [4; 2] f /\
  holds (low_noise Qcring [4; 2] ex_roots ex_real (Q2Qc (1#2)) (fun z => z) true c0 ex_mid) f /\
  low_value Qcring [4; 2] ex_roots ex_real (Q2Qc (1#2)) [1; 0] = (ex_q (-4), ex_q 8).
Proof.
  destruct (C49_low_dimension Qcring [4; 2] ex_roots ex_invs ex_real (Q2Qc (1#2)) (fun z => z) true c0 [4; 2] ex_mesh_roots eq_refl (fun z => eq_refl)
    (fun k H => proj1 (cells_valid _ _) H)) as (f & Hf & F).
  exists f. split; [exact Hf|]. split; [apply F; apply tiles_check; vm_compute; reflexivity|].
  apply Qc_pair; vm_compute; reflexivity.
Qed.
Print Assumptions C49_low_dimension.
Print Assumptions C49_real_field.
