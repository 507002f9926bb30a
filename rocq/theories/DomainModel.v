(** Model of [GridND] in pmesh/domain.py and of pmesh/_domain.pyx.

    Positions, edges and smoothing lengths are exact rationals. *)
From Coq Require Import List Arith ZArith QArith Qround Lia Bool.
From Verif Require Import Base LayoutModel WrapModel.
Import ListNotations.
Local Close Scope Q_scope.
Local Open Scope Z_scope.

(** numpy.remainder / Python % with a positive divisor *)
Definition qrem (x L : Q) : Q := (x - L * inject_Z (Qfloor (x / L)))%Q.

(** domain.py:342-347 [_digitize] (numpy.digitize, increasing bins, right=False):
    the number of bins not above x *)
Definition digitize (x : Q) (bins : list Q) : Z :=
  Z.of_nat (length (filter (fun e => Qle_bool e x) bins)).

Definition period (edges : list Q) : Q := last edges 0%Q.
(** number of domains along one dimension, domain.py:378 *)
Definition ndom (edges : list Q) : Z := Z.of_nat (length edges) - 1.

(** domain.py:612-624: range [sil, sir) of domains along one periodic dimension *)
Definition patch_periodic (edges : list Q) (s x : Q) : Z * Z :=
  let L := period edges in
  let n := ndom edges in
  let c := qrem x L in
  let l := digitize (qrem (c - s)%Q L) edges in
  let r := digitize (qrem (c + s)%Q L) edges in
  let p := digitize c edges in
  (p - (p - l) mod n - 1, p + (r - p) mod n).

Definition clip (lo hi x : Z) : Z := Z.min hi (Z.max lo x).

(** domain.py:625-630: the same without periodicity *)
Definition patch_open (edges : list Q) (s x : Q) : Z * Z :=
  let n := ndom edges in
  let l := digitize (x - s)%Q edges in
  let r := digitize (x + s)%Q edges in
  (clip 0 n (l - 1), clip 0 n r).

(** a grid (domain.py:370-407) *)
Record grid := mkGrid {
  g_edges : list (list Q);
  g_periodic : bool;
  g_assign : list nat;
  g_degenerate : list bool
}.

(** domain.py:605-630 for one particle: only the first ndim columns are used *)
Fixpoint patches (periodic : bool) (edges : list (list Q)) (sm x : list Q) : list (Z * Z) :=
  match edges, sm, x with
  | e :: es, s :: ss, c :: cs =>
      (if periodic then patch_periodic e s c else patch_open e s c) :: patches periodic es ss cs
  | _, _, _ => []
  end.

(** _domain.pyx:54-56, strides in C order *)
Fixpoint strides_of (dims : list Z) : list Z :=
  match dims with
  | [] => []
  | d :: r => let st := strides_of r in
              match r, st with
              | d' :: _, s' :: _ => s' * d' :: st
              | _, _ => [1]
              end
  end.

(** _domain.pyx:72-80, domain number of the patch cell p *)
Fixpoint flat_target (periodic : bool) (dims strides p : list Z) : Z :=
  match dims, strides, p with
  | d :: ds, st :: sts, t :: ts =>
      (if periodic then wrap_du d t else t) * st + flat_target periodic ds sts ts
  | _, _, _ => 0
  end.

(** _domain.pyx:99-106: advance the odometer. The innermost coordinate is
    incremented; a coordinate other than the first one that reaches [sir] is
    reset to [sil] and carries; the first coordinate that does not carry ends
    the loop. [advance_in] treats the coordinates after the first. *)
Fixpoint advance_in (r : list (Z * Z)) (p : list Z) : list Z * bool :=
  match r, p with
  | (lo, hi) :: r', x :: p' =>
      let '(p'', c) := advance_in r' p' in
      if c then (if x + 1 =? hi then (lo :: p'', true) else (x + 1 :: p'', false))
      else (x :: p'', false)
  | _, _ => ([], true)
  end.
Definition advance (r : list (Z * Z)) (p : list Z) : list Z :=
  match r, p with
  | _ :: r', x :: p' =>
      let '(p'', c) := advance_in r' p' in
      (if c then x + 1 else x) :: p''
  | _, _ => []
  end.

(** _domain.pyx:83-97: insertion of a target into the sorted list; the list is
    kept with the last element first *)
Fixpoint insert_target (t : nat) (l : list nat) : list nat :=
  match l with
  | [] => [t]
  | h :: r => if (t <? h)%nat then h :: insert_target t r else t :: h :: r
  end.

Definition zlookup {A} (l : list A) (z : Z) : option A :=
  if z <? 0 then None else nth_error l (Z.to_nat z).

(** _domain.pyx:69-106, the loop over the patch of one particle.  The arrays are
    accessed without bounds checks: [None] is an access out of bounds.  Line 83
    tests the degeneracy flag at the position of the *rank*. *)
Fixpoint patch_loop (g : grid) (dims : list Z) (r : list (Z * Z)) (n : nat) (p : list Z) (acc : list nat)
  : option (list nat) :=
  match n with
  | O => Some acc
  | S n' =>
      match zlookup (g_assign g) (flat_target (g_periodic g) dims (strides_of dims) p) with
      | None => None
      | Some t =>
          match nth_error (g_degenerate g) t with
          | None => None
          | Some deg => patch_loop g dims r n' (advance r p) (if deg then acc else insert_target t acc)
          end
      end
  end.

Definition patchsize (r : list (Z * Z)) : Z := fold_right (fun lh a => (snd lh - fst lh) * a) 1 r.

(** _domain.pyx:107-116: skip repeated targets; a decrease raises *)
Fixpoint unique_targets (prev : option nat) (l : list nat) : outcome (list nat) :=
  match l with
  | [] => Ret []
  | t :: r =>
      match prev with
      | Some q => if (q =? t)%nat then unique_targets prev r
                  else if (t <? q)%nat then Raise ValueError
                  else bind (unique_targets (Some t) r) (fun u => Ret (t :: u))
      | None => bind (unique_targets (Some t) r) (fun u => Ret (t :: u))
      end
  end.

Definition g_dims (g : grid) : list Z := map ndom (g_edges g).

(** the ranks one particle is sent to *)
Definition particle_targets (g : grid) (sm x : list Q) : outcome (list nat) :=
  let r := patches (g_periodic g) (g_edges g) sm x in
  match patch_loop g (g_dims g) r (Z.to_nat (patchsize r)) (map fst r) [] with
  | None => Garbage
  | Some l => unique_targets None (rev l)
  end.

(** _domain.pyx:59-118 mode 0: one count per (particle, target).
    A target beyond the counts array is out of bounds. *)
Definition count_pass (P : nat) (ts : list (list nat)) : list nat :=
  fold_left (fun c t => fold_left (fun c t => upd t S c) t c) ts (repeat 0%nat P).

(** mode 1, _domain.pyx:44-50 and 117-119: indices[offset[target]] = i; offset[target] += 1 *)
Definition push (i : nat) (st : list (option nat) * list nat) (t : nat) : list (option nat) * list nat :=
  (upd (nth t (snd st) 0%nat) (fun _ => Some i) (fst st), upd t S (snd st)).
Fixpoint index_pass (i : nat) (ts : list (list nat)) (st : list (option nat) * list nat)
  : list (option nat) * list nat :=
  match ts with
  | [] => st
  | t :: r => index_pass (S i) r (fold_left (push i) t st)
  end.

(** collect the outcomes of all particles *)
Fixpoint collect {A} (l : list (outcome A)) : outcome (list A) :=
  match l with
  | [] => Ret []
  | x :: r => bind x (fun a => bind (collect r) (fun b => Ret (a :: b)))
  end.

(** domain.py:561-652 decompose on one rank: the arguments of the Layout *)
Definition decompose (P : nat) (g : grid) (transform : list Q -> list Q) (sm : list Q) (pos : list (list Q))
  : outcome layout_arg :=
  match pos with
  | [] => Ret (0%nat, repeat 0%nat P, [])
  | _ =>
      bind (collect (map (fun x => particle_targets g sm (transform x)) pos)) (fun ts =>
        if forallb (forallb (fun t => (t <? P)%nat)) ts then
          let counts := count_pass P ts in
          let st := index_pass 0 ts (repeat None (list_sum counts), offsets_from 0 counts) in
          bind (force (fst st)) (fun idx => Ret (length pos, counts, idx))
        else Garbage)
  end.

(** numpy C-order index of a multi-index, and its inverse (ravel_multi_index /
    unravel_index, domain.py:450, 513) *)
Fixpoint ravel (dims idx : list Z) : Z :=
  match dims, idx with
  | d :: ds, i :: is => i * fold_right Z.mul 1 ds + ravel ds is
  | _, _ => 0
  end.
Fixpoint unravel (dims : list Z) (k : Z) : list Z :=
  match dims with
  | [] => []
  | d :: ds => let m := fold_right Z.mul 1 ds in k / m :: unravel ds (k mod m)
  end.

(** domain.py:384-393, the default DomainAssign: slices written into an
    uninitialised array *)
Definition write_slice {A} (start stop : nat) (v : A) (l : list (option A)) : list (option A) :=
  firstn start l ++ repeat (Some v) (stop - start) ++ skipn stop l.
Definition default_assign (size P : nat) : list (option nat) :=
  if (size <=? P)%nat then map Some (seq 0 size)
  else fold_left (fun a i => write_slice (i * size / P) ((i + 1) * size / P) i a)
                 (seq 0 P) (repeat None size).

(** domain.py:397-405: a domain is degenerate if it has zero width along some axis *)
Definition width0 (edges : list Q) (k : Z) : bool :=
  Qeq_bool (nth (Z.to_nat k + 1) edges 0%Q) (nth (Z.to_nat k) edges 0%Q).
Fixpoint degenerate_flags (edges : list (list Q)) : list bool :=
  match edges with
  | [] => [false]
  | e :: es => flat_map (fun k => map (orb (width0 e k)) (degenerate_flags es))
                        (zrange 0 (length e - 1))
  end.

(** domain.py:501-517: start and end corners of the domains of one rank *)
Definition corners (g : grid) (rank : nat) : list (list (Q * Q)) :=
  map (fun d => map (fun ek => (nth (Z.to_nat (snd ek)) (fst ek) 0%Q, nth (Z.to_nat (snd ek) + 1) (fst ek) 0%Q))
                    (combine (g_edges g) (unravel (g_dims g) (Z.of_nat d))))
      (filter (fun d => (nth d (g_assign g) 0 =? rank)%nat) (seq 0 (length (g_assign g)))).

(** domain.py:519-559 isprimary for one particle on one rank *)
Definition in_corner (b : list (Q * Q)) (x : list Q) : bool :=
  forallb (fun p => Qle_bool (fst (fst p)) (snd p) && negb (Qle_bool (snd (fst p)) (snd p))) (combine b x).
Definition isprimary (g : grid) (rank : nat) (x : list Q) : bool :=
  let c := if g_periodic g then map (fun p => qrem (snd p) (period (fst p))) (combine (g_edges g) x)
           else map snd (combine (g_edges g) x) in
  existsb (fun b => in_corner b c) (corners g rank).

(** domain.py:409-465 load: domain of one particle; mode 'raise' when periodic,
    'clip' otherwise *)
Definition load_index (g : grid) (x : list Q) : list Z :=
  map (fun p => digitize (if g_periodic g then qrem (snd p) (period (fst p)) else snd p) (fst p) - 1)
      (combine (g_edges g) x).
Definition ravel_raise (dims idx : list Z) : outcome Z :=
  if forallb (fun p => (0 <=? snd p) && (snd p <? fst p)) (combine dims idx)
  then Ret (ravel dims idx) else Raise ValueError.
Definition ravel_clip (dims idx : list Z) : outcome Z :=
  Ret (ravel dims (map (fun p => clip 0 (fst p - 1) (snd p)) (combine dims idx))).
Definition rank_load (g : grid) (transform : list Q -> list Q) (size : nat) (pos : list (list Q)) : outcome (list nat) :=
  bind (collect (map (fun x => (if g_periodic g then ravel_raise else ravel_clip) (g_dims g) (load_index g (transform x))) pos))
       (fun ds => bincount Nat.add 0%nat size (map Z.to_nat ds) (map (fun _ => 1%nat) ds)).
(** allreduce and the power law; if a rank raised the others wait *)
Definition add_lists (a b : list nat) : list nat := map (fun p => (fst p + snd p)%nat) (combine a b).
Definition load (g : grid) (transform : list Q -> list Q) (size gamma : nat) (world : list (list (list Q)))
  : list (outcome (list nat)) :=
  let locals := map (rank_load g transform size) world in
  match all_ret locals with
  | Some ls => map (fun _ => Ret (map (fun n => Nat.pow n gamma) (fold_left add_lists ls (repeat 0%nat size)))) world
  | None => block_rest locals
  end.

(** domain.py:468-499 loadbalance. [sorted(..., reverse=True)] is a descending
    sort of (load, index); heapq is modelled by its meaning: pop removes the
    least (load, rank). *)
Definition pair_lt (a b : nat * nat) : bool :=
  (fst a <? fst b)%nat || ((fst a =? fst b)%nat && (snd a <? snd b)%nat).
Fixpoint insert_desc (x : nat * nat) (l : list (nat * nat)) : list (nat * nat) :=
  match l with
  | [] => [x]
  | y :: r => if pair_lt x y then y :: insert_desc x r else x :: y :: r
  end.
Definition sort_desc (l : list (nat * nat)) : list (nat * nat) := fold_right insert_desc [] l.
Fixpoint pop_min (l : list (nat * nat)) : option ((nat * nat) * list (nat * nat)) :=
  match l with
  | [] => None
  | x :: r => match pop_min r with
              | None => Some (x, [])
              | Some (m, r') => if pair_lt x m then Some (x, m :: r') else Some (m, x :: r')
              end
  end.
Fixpoint balance_loop (domains : list (nat * nat)) (heap : list (nat * nat)) (assign : list nat)
  : outcome (list nat) :=
  match domains with
  | [] => Ret assign
  | (dload, dindex) :: ds =>
      match pop_min heap with
      | None => Raise IndexError
      | Some ((pload, rank), heap') =>
          balance_loop ds ((pload + dload, rank)%nat :: heap') (upd dindex (fun _ => rank) assign)
      end
  end.
Definition loadbalance (P : nat) (domainload : list nat) (assign : list nat) : outcome (list nat) :=
  let size := length assign in
  if (size <=? P)%nat then Ret assign
  else balance_loop (sort_desc (combine domainload (seq 0 size))) (map (fun i => (0, i)%nat) (seq 0 P)) assign.

(** domain.py:349-368 uniform. The real exponent is avoided by taking the root
    [r] as an argument; [uniform_root] states which number it is. [fl] truncates
    towards zero (numpy.int32 of a non-negative number). *)
Definition qprod (l : list Q) : Q := fold_right Qmult 1%Q l.
Fixpoint qmin (l : list Q) : Q :=
  match l with
  | [] => 0%Q
  | [x] => x
  | x :: r => if Qle_bool x (qmin r) then x else qmin r
  end.
Fixpoint qpow (x : Q) (n : nat) : Q := match n with O => 1%Q | S m => (x * qpow x m)%Q end.
Definition uniform_root (P : nat) (box : list Q) (r : Q) : Prop :=
  (0 <= r)%Q /\ (qpow r (length box) == inject_Z (Z.of_nat P) / qprod box * qmin box)%Q.
Fixpoint argmax_from (i best : nat) (vbest : Q) (l : list Q) : nat :=
  match l with
  | [] => best
  | x :: r => if Qle_bool x vbest then argmax_from (S i) best vbest r else argmax_from (S i) i x r
  end.
Definition argmax (l : list Q) : nat :=
  match l with [] => 0%nat | x :: r => argmax_from 1 0 x r end.
Definition uniform_shape (P : nat) (box : list Q) (r : Q) : list Z :=
  let shape := map (fun b => (r * (b / qmin box))%Q) box in
  let imax := argmax shape in
  let ishape := map (fun x => if Qfloor x <? 1 then 1 else Qfloor x) shape in
  let ishape1 := upd imax (fun _ => 1) ishape in
  upd imax (fun _ => Z.of_nat P / fold_right Z.mul 1 ishape1) ishape1.
