(** Fourier transforms of fields (pmesh/pm.py:450-477, 655-694, 865-870, 987-1026).
    pfft is an external library: it is modelled by what it computes, the exact
    discrete Fourier transform of the array distributed over the ranks.  Complex
    numbers are pairs over an arbitrary commutative ring; the n-th roots of unity
    and the inverses of the axis lengths are arguments (FourierReal.v supplies
    those of the real numbers). Sharing of memory between [self] and [out]
    (is_inplace, _base) is modelled in BufferModel.v. *)
From Coq Require Import List Arith ZArith QArith Lia Bool.
From Verif Require Import Base ListFacts DomainFill MeshModel MeshRoute MeshTile RingModel FieldModel.
Import ListNotations.
Local Close Scope Q_scope.
Local Open Scope Z_scope.

Section Fourier.
Variable K : cring.
Local Notation C := (cpx K).

Fixpoint cpow (z : C) (n : nat) : C := match n with O => c1 | S n => cmul z (cpow z n) end.

(** exp (2 pi i sum_d k_d x_d / N_d), [roots] the numbers exp (2 pi i / N_d) *)
Fixpoint chi (roots : list C) (k x : list Z) : C :=
  match roots, k, x with
  | w :: ws, j :: k', a :: x' => cmul (cpow w (Z.to_nat (j * a))) (chi ws k' x')
  | _, _, _ => c1
  end.

(** numpy.prod(Nmesh ** -1.0) and numpy.prod(Nmesh ** 1.0) *)
Definition rprod (l : list K) : K := fold_right rmul r1 l.

Definition cells_values {V} (L : lfield V) : list (list Z * V) := combine (lcells L) (lvals L).

(** pfft.Plan(FORWARD).execute: PFFT_C2C and PFFT_R2C (which computes the stored half only) *)
Definition dft_forward (roots : list C) (Ls : list (lfield C)) (k : list Z) : C :=
  rsum (K := cpx_cring K) (fun L => rsum (K := cpx_cring K)
    (fun p => cmul (snd p) (cconj (chi roots k (fst p)))) (cells_values L)) Ls.
(** pfft.Plan(BACKWARD).execute with PFFT_C2C *)
Definition dft_backward (roots : list C) (Ls : list (lfield C)) (x : list Z) : C :=
  rsum (K := cpx_cring K) (fun L => rsum (K := cpx_cring K)
    (fun p => cmul (snd p) (chi roots (fst p) x)) (cells_values L)) Ls.
(** PFFT_C2R: the planes 0 and N/2 of the last axis enter once, the others twice,
    for the opposite modes that are not stored; only the real part is formed *)
Definition c2r_weight (Nmesh k : list Z) (y : C) : C :=
  if (last k 0 =? 0) || (2 * last k 0 =? last Nmesh 0) then y else cadd y y.
Definition dft_c2r (Nmesh : list Z) (roots : list C) (Ls : list (lfield C)) (x : list Z) : K :=
  re (rsum (K := cpx_cring K) (fun L => rsum (K := cpx_cring K)
    (fun p => c2r_weight Nmesh (fst p) (cmul (snd p) (chi roots (fst p) x))) (cells_values L)) Ls).

(** the rank's part of the result *)
Definition on_block {V W} (f : list Z -> V) (L : lfield W) : lfield V := mkL (lstart L) (lshape L) (map f (lcells L)).
Definition as_complex (L : lfield K) : lfield C := mkL (lstart L) (lshape L) (map cof (lvals L)).

(** pm.py:655-694; [invs] are the inverses of Nmesh.  Mid are the blocks of [out]. *)
Definition r2c (roots : list C) (invs : list K) (Ls : list (lfield K)) (Mid : list (lfield C)) : list (lfield C) :=
  map (on_block (fun k => cmul (dft_forward roots (map as_complex Ls) k) (cof (rprod invs)))) Mid.
(** pm.py:987-1019 *)
Definition c2r (Nmesh : list Z) (roots : list C) (Ls : list (lfield C)) (Out : list (lfield K)) : list (lfield K) :=
  map (on_block (dft_c2r Nmesh roots Ls)) Out.

(** the same for a ParticleMesh of complex dtype (PFFT_C2C) *)
Definition r2c_c (roots : list C) (invs : list K) (Ls Mid : list (lfield C)) : list (lfield C) :=
  map (on_block (fun k => cmul (dft_forward roots Ls k) (cof (rprod invs)))) Mid.
Definition c2r_c (roots : list C) (Ls Out : list (lfield C)) : list (lfield C) :=
  map (on_block (dft_backward roots Ls)) Out.

Definition scale_c (a : K) (L : lfield C) : lfield C := mkL (lstart L) (lshape L) (map (fun y => cmul y (cof a)) (lvals L)).
Definition scale_r (a : K) (L : lfield K) : lfield K := mkL (lstart L) (lshape L) (map (fun y => rmul y a) (lvals L)).

(** pm.py:865-870 and 1021-1026; [sizes] are Nmesh as numbers *)
Definition c2r_vjp (roots : list C) (invs sizes : list K) (V : list (lfield K)) (Mid : list (lfield C)) : list (lfield C) :=
  map (scale_c (rprod sizes)) (r2c roots invs V Mid).
Definition r2c_vjp (Nmesh : list Z) (roots : list C) (invs : list K) (V : list (lfield C)) (Out : list (lfield K)) : list (lfield K) :=
  map (scale_r (rprod invs)) (c2r Nmesh roots V Out).

(** pm.py:450-477 between the two complex types (line 470-473): from the blocks of
    one type to those of the other *)
Definition cast_complex (Nmesh : list Z) (roots : list C) (invs : list K) (Ls : list (lfield C)) (Tmp : list (lfield K)) (Out : list (lfield C))
  : list (lfield C) := r2c roots invs (c2r Nmesh roots Ls Tmp) Out.
End Fourier.
