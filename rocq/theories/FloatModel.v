(** GridND with floating point positions (pmesh/domain.py:409-465, 519-652).

    A double is the rational number it stands for.  [rnd] is the rounding of the
    result of one operation; [round64] is that of IEEE 754 binary64 (nearest, ties
    to even, gradual underflow; overflow and NaN are not modelled).  The functions
    are those of DomainModel.v with a rounding after every operation that is not
    exact. *)
From Coq Require Import List Arith ZArith QArith Qround Qpower Qabs Lia Bool.
From Verif Require Import Base LayoutModel WrapModel DomainModel.
Import ListNotations.
Local Close Scope Q_scope.
Local Open Scope Z_scope.

(** ** binary64 *)
(** the integer nearest to a rational, the even one of two *)
Definition qnear (q : Q) : Z :=
  let f := Qfloor q in
  match Qcompare (q - inject_Z f)%Q (1 # 2) with
  | Lt => f
  | Eq => if Z.even f then f else f + 1
  | Gt => f + 1
  end.
(** 2^(qmag q - 1) <= |q| < 2^(qmag q) *)
Definition qmag (q : Q) : Z :=
  let e := Z.log2 (Z.abs (Qnum q)) - Z.log2 (Zpos (Qden q)) in
  if Qle_bool (Qpower 2 e) (Qabs q) then e + 1 else e.
Definition round64 (q : Q) : Q :=
  if Qeq_bool q 0 then 0%Q
  else let e := Z.max (qmag q - 53) (-1074) in
       (inject_Z (qnear (q * Qpower 2 (- e))) * Qpower 2 e)%Q.

Section Rounded.
Variable rnd : Q -> Q.

(** C fmod is exact; numpy.remainder (npy_divmod) adds the divisor if the sign is
    wrong, which rounds *)
Definition qtrunc (q : Q) : Z := if Qle_bool 0 q then Qfloor q else Qceiling q.
Definition fmod (x L : Q) : Q := (x - L * inject_Z (qtrunc (x / L)))%Q.
Definition frem (x L : Q) : Q :=
  let m := fmod x L in if Qle_bool 0 m then m else rnd (m + L)%Q.

(** domain.py:612-624 *)
Definition fpatch (edges : list Q) (s x : Q) : Z * Z :=
  let L := period edges in
  let n := ndom edges in
  let c := frem x L in
  let l := digitize (frem (rnd (c - s)%Q) L) edges in
  let r := digitize (frem (rnd (c + s)%Q) L) edges in
  let p := digitize c edges in
  (p - (p - l) mod n - 1, p + (r - p) mod n).
(** domain.py:625-630 *)
Definition fpatch_open (edges : list Q) (s x : Q) : Z * Z :=
  let n := ndom edges in
  let l := digitize (rnd (x - s)%Q) edges in
  let r := digitize (rnd (x + s)%Q) edges in
  (clip 0 n (l - 1), clip 0 n r).
(** domain.py:605-630 *)
Fixpoint fpatches (periodic : bool) (edges : list (list Q)) (sm x : list Q) : list (Z * Z) :=
  match edges, sm, x with
  | e :: es, s :: ss, c :: cs =>
      (if periodic then fpatch e s c else fpatch_open e s c) :: fpatches periodic es ss cs
  | _, _, _ => []
  end.
(** _domain.pyx:59-118, the ranks of one particle *)
Definition ftargets (g : grid) (sm x : list Q) : outcome (list nat) :=
  let r := fpatches (g_periodic g) (g_edges g) sm x in
  match patch_loop g (g_dims g) r (Z.to_nat (patchsize r)) (map fst r) [] with
  | None => Garbage
  | Some l => unique_targets None (rev l)
  end.
(** domain.py:561-652; the transform returns rounded numbers *)
Definition fdecompose (P : nat) (g : grid) (transform : list Q -> list Q) (sm : list Q) (pos : list (list Q))
  : outcome layout_arg :=
  match pos with
  | [] => Ret (0%nat, repeat 0%nat P, [])
  | _ =>
      bind (collect (map (fun x => ftargets g sm (transform x)) pos)) (fun ts =>
        if forallb (forallb (fun t => (t <? P)%nat)) ts then
          let counts := count_pass P ts in
          let st := index_pass 0 ts (repeat None (list_sum counts), offsets_from 0 counts) in
          bind (force (fst st)) (fun idx => Ret (length pos, counts, idx))
        else Garbage)
  end.

(** domain.py:519-559 *)
Definition fisprimary (g : grid) (rank : nat) (x : list Q) : bool :=
  let c := if g_periodic g then map (fun p => frem (snd p) (period (fst p))) (combine (g_edges g) x)
           else map snd (combine (g_edges g) x) in
  existsb (fun b => in_corner b c) (corners g rank).

(** domain.py:409-465, the domain of one particle *)
Definition fload_domain (g : grid) (x : list Q) : outcome Z :=
  (if g_periodic g then ravel_raise else ravel_clip) (g_dims g)
    (map (fun p => digitize (if g_periodic g then frem (snd p) (period (fst p)) else snd p) (fst p) - 1)
         (combine (g_edges g) x)).
Definition frank_load (g : grid) (transform : list Q -> list Q) (size : nat) (pos : list (list Q)) : outcome (list nat) :=
  bind (collect (map (fun x => fload_domain g (transform x)) pos))
       (fun ds => bincount Nat.add 0%nat size (map Z.to_nat ds) (map (fun _ => 1%nat) ds)).
End Rounded.
