(** The kick and drift factors of examples/nbody.py:13-75, the times inside a step
    (nbody.py:94, 113-121) and the initial conditions (nbody.py:270-275).  Numbers are exact:
    [x / y] is [x * inv y]. *)
From Coq Require Import List Arith ZArith QArith Lia Bool.
From Verif Require Import EngineModel Base RingModel FieldModel NbodyModel.
Import ListNotations.
Local Close Scope Q_scope.

Section Factors.
Variable K : cring.
Local Open Scope rg_scope.
Variable inv : K -> K.
(** the methods E, Gf, gf, Gp, gp, D1, f1 of nbodykit's PerturbationGrowth *)
Variables (E Gf gf Gp gp D1 f1 : K -> K).
(** scipy.integrate.quad(func, ai, af)[0] *)
Variable quad : (K -> K) -> K -> K -> K.
(** a ** 0.5, numpy.log, numpy.exp *)
Variables (root log exp : K -> K).

Record factors := mkFactors { fK : K -> K -> K -> K; fD : K -> K -> K -> K }.
Definition pow2 (a : K) : K := a * a.
Definition pow3 (a : K) : K := a * a * a.
(** the integrands *)
Definition per_a (a : K) : K := 1 * inv (a * E a).
Definition per_a2 (a : K) : K := 1 * inv (a * a * E a).
Definition per_a3 (a : K) : K := 1 * inv (a * a * a * E a).
Definition growth_kick (ai af ar : K) : K := 1 * inv (pow2 ar * E ar) * (Gf af - Gf ai) * inv (gf ar).
Definition growth_drift (ai af ar : K) : K := 1 * inv (pow3 ar * E ar) * (Gp af - Gp ai) * inv (gp ar).
(** nbody.py:13-17 *)
Definition FastPM : factors := mkFactors growth_kick growth_drift.
(** nbody.py:19-25 *)
Definition FastPM1 : factors := mkFactors (fun ai af _ => quad per_a2 ai af) growth_drift.
(** nbody.py:27-33 *)
Definition FastPM2 : factors := mkFactors growth_kick (fun ai af _ => quad per_a3 ai af).
(** nbody.py:35-43 *)
Definition Quinn : factors := mkFactors (fun ai af _ => quad per_a2 ai af) (fun ai af _ => quad per_a3 ai af).
(** nbody.py:45-54 *)
Definition TVE : factors := mkFactors (fun ai af _ => quad per_a2 ai af) (fun ai af ar => inv (pow2 ar) * quad per_a ai af).
(** nbody.py:56-65 *)
Definition VTE : factors := mkFactors (fun ai af ar => inv ar * quad per_a ai af) (fun ai af _ => quad per_a3 ai af).
(** nbody.py:67-75 *)
Definition Naive : factors := mkFactors (fun ai af ar => per_a2 ar * (af - ai)) (fun ai af ar => per_a3 ar * (af - ai)).
Definition all_factors : list factors := [FastPM; FastPM1; FastPM2; Quinn; TVE; VTE; Naive].

(** nbody.py:94: ac = (ai * af) ** 0.5 *)
Definition t_mid (ai af : K) : K := root (ai * af).
(** nbody.py:113-121 *)
Definition Dloga (ai af : K) : K := log af - log ai.
Definition t_c2 (ai af : K) : K := af * exp (- zin K 2 * inv (zin K 3) * Dloga ai af).
Definition t_d1 (ai af : K) : K := ai * exp (- (1) * inv (zin K 24) * Dloga ai af).
Definition t_d2 (ai af : K) : K := t_d1 ai af * exp (zin K 3 * inv (zin K 4) * Dloga ai af).

(** the integrators with the factors of a class *)
Definition run_symp1 (f : factors) (ts : list K) : list (instr K) := symp1 K K (fK f) (fD f) ts.
Definition run_symp2 (f : factors) (ts : list K) : list (instr K) := symp2 K K (fK f) (fD f) t_mid ts.
Definition run_symp3 (f : factors) (ts : list K) : list (instr K) := symp3 K K (fK f) (fD f) t_c2 t_d1 t_d2 ts.

(** nbody.py:270-275: S = DX1 * pt.D1(a=a0), V = S * a0 ** 2 * pt.f1(a0) * pt.E(a0).
    [DX1] by component, rank and particle; S is stored by rank, particle and component. *)
Variables (inj : Q -> K) (store : K -> Q).
Definition first_S (counts : list nat) (nd : nat) (DX1 : nat -> nat -> nat -> K) (a0 : K) : list (list (list Q)) :=
  map (fun s => map (fun i => map (fun c => store (DX1 c s i * D1 a0)) (seq 0 nd)) (seq 0 (nth s counts 0%nat))) (seq 0 (length counts)).
Definition first_V (counts : list nat) (nd : nat) (S : list (list (list Q))) (a0 : K) : list (list (list K)) :=
  map (fun c => map (fun s => map (fun i => inj (nth c (nth i (nth s S []) []) 0%Q) * pow2 a0 * f1 a0 * E a0) (seq 0 (nth s counts 0%nat)))
                    (seq 0 (length counts))) (seq 0 nd).
End Factors.
