(** Field objects of pmesh/pm.py: values distributed over ranks, collective item
    access, C-order export and import, mode resampling, coordinates, Hermitian
    weights.  The values of one rank are the flat C-order list of its block;
    strides (padding, transposed storage) are invisible to these functions. *)
From Coq Require Import List Arith ZArith QArith Lia Bool.
From Verif Require Import Base ListFacts LayoutModel WrapModel DomainModel DomainFill MeshModel MeshRoute MeshTile RingModel.
Import ListNotations.
Local Close Scope Q_scope.
Local Open Scope Z_scope.

Definition map2 {A B C} (f : A -> B -> C) (l : list A) (m : list B) : list C :=
  map (fun p => f (fst p) (snd p)) (combine l m).

(** one rank's part of a field: pm.py:218-265 [start] (236, 240), [shape] (257), [value] *)
Record lfield (V : Type) := mkL { lstart : list Z; lshape : list Z; lvals : list V }.
Arguments mkL {V}. Arguments lstart {V}. Arguments lshape {V}. Arguments lvals {V}.

(** the global indices stored on a rank, in the order of [value.flat] *)
Definition lcells {V} (L : lfield V) : list (list Z) := map (zadd (lstart L)) (cells_of (lshape L)).

(** value[idx] and value[idx] = y for a valid local index *)
Definition lput {V} (L : lfield V) (idx : list Z) (f : V -> V) : lfield V :=
  mkL (lstart L) (lshape L) (upd (Z.to_nat (ravel (lshape L) idx)) f (lvals L)).
Definition lget {V} (d : V) (L : lfield V) (idx : list Z) : V :=
  nth (Z.to_nat (ravel (lshape L) idx)) (lvals L) d.

(** pm.py:280-285 [_ctol] on the spatial part of the index: negative entries
    count from the end; [None] when this rank does not store the cell *)
Definition from_end (N i : Z) : Z := if i <? 0 then i + N else i.
Definition ctol {V} (Nmesh : list Z) (L : lfield V) (index1 : list Z) : option (list Z) :=
  let index1 := map2 from_end Nmesh index1 in
  if forallb (fun p => snd p <=? fst p) (combine index1 (lstart L)) &&
     forallb (fun p => fst p <? snd p) (combine index1 (zadd (lstart L) (lshape L)))
  then Some (map2 Z.sub index1 (lstart L)) else None.

(** pm.py:309-314: the index of the complex conjugate mode *)
Definition dual_index (Nmesh index : list Z) : list Z := map2 (fun N i => (- i + N) mod N) Nmesh index.

Section Items.
Variable K : cring.
Local Notation C := (cpx K).

(** numpy index into the trailing axis of [plain], of length 2 (pm.py:245):
    0 the real part, 1 the imaginary part, negative from the end *)
Definition part_slot (c : Z) : option bool :=
  if (c =? 0) || (c =? -2) then Some false else if (c =? 1) || (c =? -1) then Some true else None.
Definition get_part (s : bool) (z : C) : C := cof (if s then im z else re z).
Definition set_part (s : bool) (y : C) (z : C) : C := if s then (re z, re y) else (re y, im z).

(** index is a vector of ndim entries, or ndim + 1 for one component of a
    complex field (pm.py:271-278); a RealField has no [plain] *)
Inductive access := Whole (i : list Z) | Part (i : list Z) (c : Z).
Definition access_of (nd : nat) (index : list Z) : option access :=
  if (length index =? nd + 1)%nat then Some (Part (removelast index) (last index 0))
  else if (length index =? nd)%nat then Some (Whole index) else None.

(** a value read on this rank and added up over the ranks (pm.py:290-296) *)
Definition cgetitem_local (isc : bool) (Nmesh : list Z) (L : lfield C) (index : list Z) : outcome C :=
  match access_of (length Nmesh) index with
  | None => Raise IndexError
  | Some (Whole i) =>
      match ctol Nmesh L i with
      | Some l => Ret (lget c0 L l)
      | None => Ret c0
      end
  | Some (Part i c) =>
      if isc then
        match ctol Nmesh L i with
        | Some l => match part_slot c with
                    | Some s => Ret (get_part s (lget c0 L l))
                    | None => Raise IndexError
                    end
        | None => Ret c0
        end
      else Raise AttributeError
  end.

Definition idx_eqb (a b : list Z) : bool := if list_eq_dec Z.eq_dec a b then true else false.

(** pm.py:298-343 on one rank: the new local values and the number this rank
    contributes to the sum.  [y] is a complex number for a whole mode and has to
    be real for a component or a RealField. *)
Definition csetitem_local (isc : bool) (Nmesh : list Z) (L : lfield C) (index : list Z) (y : C)
  : outcome (lfield C * C) :=
  match access_of (length Nmesh) index with
  | None => Raise IndexError
  | Some (Whole i) =>
      let loc := ctol Nmesh L i in
      let dual := if isc then ctol Nmesh L (dual_index Nmesh i) else None in
      let same := match loc, dual with Some a, Some b => idx_eqb a b | _, _ => false end in
      let y1 := match loc with None => c0 | Some _ => y end in
      let dualy := cconj (match dual with None => c0 | Some _ => y end) in
      let dualy := if same then creal dualy else dualy in
      let y1 := if same then creal y1 else y1 in
      let L1 := match loc with Some l => lput L l (fun _ => y1) | None => L end in
      let L2 := match dual with Some l => lput L1 l (fun _ => dualy) | None => L1 end in
      Ret (L2, y1)
  | Some (Part i c) =>
      if isc then
        let loc := ctol Nmesh L i in
        let dual := ctol Nmesh L (dual_index Nmesh i) in
        let same := match loc, dual with Some a, Some b => idx_eqb a b | _, _ => false end in
        let y1 := match loc with None => c0 | Some _ => y end in
        let dualy := match dual with None => c0 | Some _ => y end in
        let dualy := if c =? 1 then copp dualy else dualy in
        let zero := (c =? 1) && same in
        let y1 := if zero then c0 else y1 in
        let dualy := if zero then c0 else dualy in
        match part_slot c with
        | Some s =>
            let L1 := match loc with Some l => lput L l (set_part s y1) | None => L end in
            let L2 := match dual with Some l => lput L1 l (set_part s dualy) | None => L1 end in
            Ret (L2, y1)
        | None => match loc, dual with None, None => Ret (L, y1) | _, _ => Raise IndexError end
        end
      else Raise AttributeError
  end.

(** comm.allreduce of one number per rank: a rank that raised before leaves the
    others waiting *)
Definition allreduce {A} (l : list (outcome (A * C))) : list (outcome (A * C)) :=
  match all_ret l with
  | Some rs => let s := rsum (K := cpx_cring K) snd rs in map (fun r => Ret (fst r, s)) rs
  | None => block_rest l
  end.

(** pm.py:287-296 and 298-345, collective *)
Definition cgetitem (isc : bool) (Nmesh : list Z) (Ls : list (lfield C)) (index : list Z) : list (outcome C) :=
  map (fun o => bind o (fun r => Ret (snd r)))
    (allreduce (map (fun L => bind (cgetitem_local isc Nmesh L index) (fun v => Ret (tt, v))) Ls)).
Definition csetitem (isc : bool) (Nmesh : list Z) (Ls : list (lfield C)) (index : list Z) (y : C)
  : list (outcome (lfield C * C)) :=
  allreduce (map (fun L => csetitem_local isc Nmesh L index y) Ls).
End Items.

(** ** export and import in C order *)
Section Sorting.
Context {V : Type}.

(** mpsort.sort: the values of all ranks ordered by their integer keys and dealt
    out again according to the lengths of the output arrays (external library;
    the keys used here are distinct, so ties do not arise) *)
Fixpoint insert_key (x : Z * V) (l : list (Z * V)) : list (Z * V) :=
  match l with
  | [] => [x]
  | y :: r => if fst x <? fst y then x :: l else y :: insert_key x r
  end.
Definition sort_keys (l : list (Z * V)) : list (Z * V) := fold_right insert_key [] l.
Fixpoint deal (sizes : list nat) (l : list V) : list (list V) :=
  match sizes with
  | [] => []
  | n :: r => firstn n l :: deal r (skipn n l)
  end.
Definition mpsort_sort (data : list (list V)) (keys : list (list Z)) (outs : list nat) : list (list V) :=
  deal outs (map snd (sort_keys (flat_map (fun p => combine (snd p) (fst p)) (combine data keys)))).

(** mpsort.permute and mpsort.take: out[i] = (all data)[argindex[i]] *)
Definition mpsort_take (data : list (list V)) (args : list Z) : option (list V) :=
  sequence (map (fun i => if i <? 0 then None else nth_error (concat data) (Z.to_nat i)) args).

(** pm.py:417, 443: the C-order number of every cell of a rank *)
Definition global_ind (cshape : list Z) (L : lfield V) : list Z := map (ravel cshape) (lcells L).

(** pm.py:389-424; [outs] are the lengths of the arrays given as [out] (line 415
    compares them on each rank) *)
Definition ravel_field (cshape : list Z) (Ls : list (lfield V)) (outs : list nat) : list (outcome (list V)) :=
  let checked := map (fun p => if (snd p =? length (lvals (fst p)))%nat then Ret tt else Raise AssertionError) (combine Ls outs) in
  match all_ret checked with
  | None => block_rest checked
  | Some _ =>
      match Ls with
      | [L] => [Ret (lvals L)]
      | _ => map Ret (mpsort_sort (map lvals Ls) (map (global_ind cshape) Ls) outs)
      end
  end.

(** pm.py:426-448; the total length is compared collectively (line 440) *)
Definition unravel_field (cshape : list Z) (Ls : list (lfield V)) (flat : list (list V)) : list (outcome (lfield V)) :=
  if Z.of_nat (length (concat flat)) =? prodz cshape then
    match Ls with
    | [L] => [Ret (mkL (lstart L) (lshape L) (concat flat))]
    | _ => map (fun L => match mpsort_take flat (global_ind cshape L) with
                         | Some v => Ret (mkL (lstart L) (lshape L) v)
                         | None => Raise IndexError
                         end) Ls
    end
  else all_raise Ls AssertionError.
End Sorting.

(** ** resampling in Fourier space *)
(** l[a:b] = vals for a 1-d numpy array: bounds clipped, negative bounds count
    from the end, a single value is broadcast *)
Definition py_bound (n i : Z) : Z := if i <? 0 then Z.max 0 (i + n) else Z.min i n.
Definition set_slice (l : list Z) (a b : Z) (vals : list Z) : outcome (list Z) :=
  let n := Z.of_nat (length l) in
  let a := py_bound n a in
  let b := py_bound n b in
  let m := Z.to_nat (b - a) in
  let put s := Ret (firstn (Z.to_nat a) l ++ s ++ skipn (Z.to_nat a + m) l) in
  if (length vals =? m)%nat then put vals
  else match vals with [v] => put (repeat v m) | _ => Raise ValueError end.
Definition arange (a b : Z) : list Z := zrange a (Z.to_nat (b - a)).

(** pm.py:1128-1144 *)
Definition reindex (Nsrc Ndest : Z) : outcome (list Z) :=
  bind (set_slice (arange 0 Ndest) (Ndest / 2 + 1) Ndest (arange (Nsrc - Ndest / 2 + 1) Nsrc)) (fun t =>
    set_slice t (Nsrc / 2 + 1) (Ndest - Nsrc / 2 + 1) [-1]).

(** all combinations, last axis fastest *)
Fixpoint cart (ls : list (list Z)) : list (list Z) :=
  match ls with
  | [] => [[]]
  | l :: r => flat_map (fun x => map (cons x) (cart r)) l
  end.
(** pm.py:1091-1126, in the order of ind.flat *)
Definition build_index (indices : list (list Z)) (fullshape : list Z) : list Z :=
  map (fun ix => if existsb (fun i => i =? -1) ix then -1
                 else fold_left (fun ind p => ind * fst p + snd p) (combine fullshape ix) 0)
      (cart indices).

(** complex[mask] = data (pm.py:521), mask = (ind >= 0) *)
Fixpoint fill_mask {V} (ind : list Z) (data : list V) (vals : list V) : list V :=
  match ind, vals with
  | i :: ind', v :: vals' =>
      if 0 <=? i then match data with
                      | x :: data' => x :: fill_mask ind' data' vals'
                      | [] => v :: fill_mask ind' [] vals'
                      end
      else v :: fill_mask ind' data vals'
  | _, _ => vals
  end.

Section Resample.
Variable K : cring.
Local Notation C := (cpx K).

(** pm.py:523-543, one mode of the output: real if self conjugate, zero at the
    Nyquist index of the output and where the index is that of the input's *)
Definition clean_mode (Nsrc Ndest i : list Z) (z : C) : C :=
  let z := if forallb (fun p => (fst p - snd p) mod fst p =? snd p) (combine Ndest i) then creal z else z in
  let z := if existsb (fun p => snd p =? fst p / 2) (combine Ndest i) then c0 else z in
  if existsb (fun p => snd p =? fst p / 2) (combine Nsrc i) then c0 else z.

(** pm.py:497-543 on one rank, given the source in C order *)
Definition resample_local (Nsrc csrc Ndest : list Z) (tables : list (list Z)) (flat : list (list C)) (L : lfield C)
  : outcome (lfield C) :=
  match sequence (map (fun p => sequence (map (nth_error (fst p)) (seq (Z.to_nat (fst (snd p))) (Z.to_nat (snd (snd p))))))
                      (combine tables (combine (lstart L) (lshape L)))) with
  | None => Raise IndexError
  | Some cols =>
      let ind := build_index cols csrc in
      match mpsort_take flat (filter (fun i => 0 <=? i) ind) with
      | None => Raise IndexError
      | Some data =>
          let vals := fill_mask ind data (map (fun _ => c0) (lcells L)) in
          Ret (mkL (lstart L) (lshape L) (map (fun p => clean_mode Nsrc Ndest (fst p) (snd p)) (combine (lcells L) vals)))
      end
  end.

(** pm.py:479-543 for complex fields (the transforms of a RealField are in
    FourierModel.v): Src the source on all ranks, Dst the blocks of the output.
    The short cut for equal Nmesh (491-493) writes into [out], which is then
    overwritten. *)
Definition resample (Nsrc csrc : list Z) (Src : list (lfield C)) (Ndest : list Z) (Dst : list (lfield C))
  : list (outcome (lfield C)) :=
  match all_ret (ravel_field csrc Src (map (fun L => length (lvals L)) Src)) with
  | None => all_raise Dst AssertionError
  | Some flat =>
      match all_ret (map (fun p => reindex (fst p) (snd p)) (combine Nsrc Ndest)) with
      | None => all_raise Dst ValueError
      | Some tables => map (resample_local Nsrc csrc Ndest tables flat) Dst
      end
  end.
End Resample.

(** ** coordinates *)
(** ri[ri >= N // 2] -= N (pm.py:1190, 1214) *)
Definition signed_index (N i : Z) : Z := if N / 2 <=? i then i - N else i.
(** pm.py:1178-1200: one axis of a RealField, distances and array indices *)
Definition i_coords (start n N : Z) (BoxSize : Q) : list Q * list Z :=
  let i := arange start (start + n) in
  (map (fun i => inject_Z (signed_index N i) * BoxSize / inject_Z N)%Q i, i).
(** pm.py:1202-1225: one axis of a complex field, wave numbers and array
    indices; [twopi] stands for 2 * numpy.pi *)
Definition o_coords (twopi : Q) (start n N : Z) (BoxSize : Q) : list Q * list Z :=
  let i := arange start (start + n) in
  (map (fun i => inject_Z (signed_index N i) * (twopi / inject_Z N) * inject_Z N / BoxSize)%Q i, i).

(** pm.py:356-375 *)
Definition compressed (Nmesh cshape : list Z) : outcome bool :=
  if last Nmesh 0 =? last cshape 0 then Ret false
  else if last Nmesh 0 / 2 + 1 =? last cshape 0 then Ret true
  else Raise ValueError.

(** ** inner products *)
Section Norms.
Variable K : cring.
Local Notation C := (cpx K).
Local Open Scope rg_scope.

(** a number as an element of the ring *)
Definition zin (z : Z) : K := InitialRing.gen_phiZ r0 r1 radd rmul ropp z.
(** k.normp(2) of xslab (pm.py:122-138) at the mode i; units are 2 pi / BoxSize *)
Definition normp2 (units : list K) (Nmesh i : list Z) : K :=
  rsum (fun p => let k := zin (signed_index (fst (snd p)) (snd (snd p))) * fst p in k * k)
       (combine units (combine Nmesh i)).

(** pm.py:908-918 *)
Definition expand_hermitian (comp : bool) (Nmesh i : list Z) (y : C) : C :=
  if comp then cadd y (if (negb (last i 0 =? 0) && negb (last i 0 =? last Nmesh 0 / 2))%Z then y else c0) else y.

(** the default norm, pm.py:920 *)
Definition cnorm2 (z : C) : K := re z * re z + im z * im z.

(** pm.py:920-943: [metric] gets the square of the wave number *)
Definition cnorm_local (comp : bool) (Nmesh : list Z) (units : list K) (metric : option (K -> K)) (L : lfield C) : C :=
  rsum (K := cpx_cring K) (fun p =>
      let y := cnorm2 (snd p) in
      let y := match metric with Some m => y * m (normp2 units Nmesh (fst p)) | None => y end in
      expand_hermitian comp Nmesh (fst p) (cof y))
    (combine (lcells L) (lvals L)).
Definition cnorm (Nmesh cshape : list Z) (units : list K) (metric : option (K -> K)) (Ls : list (lfield C)) : list (outcome C) :=
  match compressed Nmesh cshape with
  | Ret comp => let s := rsum (K := cpx_cring K) (cnorm_local comp Nmesh units metric) Ls in map (fun _ => Ret s) Ls
  | _ => all_raise Ls ValueError
  end.

(** pm.py:945-974 for another field of the same type on the same mesh *)
Definition cdot_local (comp : bool) (Nmesh : list Z) (units : list K) (metric : option (K -> K)) (p : lfield C * lfield C) : C :=
  let (L, M) := p in
  rsum (K := cpx_cring K) (fun q =>
      let y := cmul (cconj (snd (snd q))) (fst (snd q)) in
      let y := expand_hermitian comp Nmesh (fst q) y in
      match metric with Some m => cmul y (cof (m (normp2 units Nmesh (fst q)))) | None => y end)
    (combine (lcells L) (combine (lvals L) (lvals M))).
Definition cdot (Nmesh cshape : list Z) (units : list K) (metric : option (K -> K)) (Ls Ms : list (lfield C)) : list (outcome C) :=
  match compressed Nmesh cshape with
  | Ret comp => let s := rsum (K := cpx_cring K) (cdot_local comp Nmesh units metric) (combine Ls Ms) in map (fun _ => Ret s) Ls
  | _ => all_raise Ls ValueError
  end.

(** pm.py:897-902: RealField *)
Definition real_cdot (Ls Ms : list (lfield K)) : list (outcome K) :=
  let s := rsum (fun p => rsum (fun q => fst q * snd q) (combine (lvals (fst p)) (lvals (snd p)))) (combine Ls Ms) in
  map (fun _ => Ret s) Ls.

(** pm.py:1028-1045 *)
Definition decompress_vjp (Nmesh : list Z) (L : lfield C) : lfield C :=
  mkL (lstart L) (lshape L)
    (map (fun p => if forallb (fun q => ((fst q - snd q) mod fst q =? snd q)%Z) (combine Nmesh (fst p)) then snd p
                   else cadd (snd p) (snd p))
         (combine (lcells L) (lvals L))).
End Norms.
