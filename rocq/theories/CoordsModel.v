(** The coordinate arrays of fields (pmesh/pm.py:1159-1225, 1487-1531, 249-250): which arrays
    ParticleMesh.create_coords keeps, which it hands out, and what is in them.  One rank; an
    array is a place of a heap, and a user may write into every array they were handed.  Numbers
    are rational ([twopi] stands for 2 * numpy.pi), the shapes are those of C41. *)
From Coq Require Import String List Arith ZArith QArith Lia Bool.
From Verif Require Import Base ListFacts RingModel FieldModel BufferModel.
Import ListNotations.
Local Close Scope Q_scope.

Inductive arr := Xs (l : list Q) | Is (l : list Z).

(** what the constructor sets: Nmesh, BoxSize and, for the partition of each type
    (pm.py:1489-1502), the start and the number of cells of this rank on every axis *)
Record cmesh := mkCM { cm_N : list Z; cm_box : list Q; cm_part : ftype -> list (Z * Z) }.

(** the classes that an argument may be *)
Inductive pyclass := FieldC | BaseComplexC | TypeC (t : ftype) | OtherC.
(** a type argument: a class, or something else that is compared with strings *)
Inductive request := Class (c : pyclass) | Name (s : string).

(** pm.py:1159-1176; ComplexField is TransposedComplexField (pm.py:1089) *)
Definition typestr_to_type (r : request) : outcome pyclass :=
  match r with
  | Class OtherC => Raise TypeError
  | Class c => Ret c
  | Name s =>
      if String.eqb s "real" then Ret (TypeC RealT)
      else if String.eqb s "complex" then Ret (TypeC TransposedT)
      else if String.eqb s "transposedcomplex" then Ret (TypeC TransposedT)
      else if String.eqb s "untransposedcomplex" then Ret (TypeC UntransposedT)
      else Raise ValueError
  end.
(** pm.py:1489-1502 and 1520-1525 *)
Definition get_type (c : pyclass) : outcome ftype :=
  match c with TypeC t => Ret t | _ => Raise TypeError end.

Section Coords.
Variable twopi : Q.

(** pm.py:1178-1225: the arrays x (or k) and the arrays of indices *)
Definition init_coords (m : cmesh) (t : ftype) : list arr * list arr :=
  let axes := map (fun a => let '((start, n), (N, L)) := a in
                            match t with
                            | RealT => i_coords start n N L
                            | _ => o_coords twopi start n N L
                            end)
                  (combine (cm_part m t) (combine (cm_N m) (cm_box m))) in
  (map (fun a => Xs (fst a)) axes, map (fun a => Is (snd a)) axes).

Definition heap := list arr.
Definition arrays := list nat.
(** [self._coords] of every mesh *)
Definition cache := list (ftype * (arrays * arrays)).
Record cstate := mkCS { cs_heap : heap; cs_caches : list cache }.

Definition alloc (h : heap) (l : list arr) : arrays * heap := (seq (length h) (length l), h ++ l).
Definition contents (h : heap) (l : arrays) : list (option arr) := map (nth_error h) l.
Fixpoint find_cache (c : cache) (t : ftype) : option (arrays * arrays) :=
  match c with
  | [] => None
  | (t', v) :: c => if ftype_eqb t' t then Some v else find_cache c t
  end.
(** [ii.copy() for ii in i] *)
Definition copies (h : heap) (l : arrays) : arrays * heap := alloc h (map (fun a => nth a h (Is [])) l).

(** pm.py:1504-1531 of mesh number [p] *)
Definition create_coords (meshes : list cmesh) (st : cstate) (p : nat) (r : request) (return_indices : bool)
    : outcome arrays * cstate :=
  match nth_error meshes p, nth_error (cs_caches st) p with
  | Some m, Some c =>
      match typestr_to_type r with
      | Ret cl =>
          match get_type cl with
          | Ret t =>
              let '((x, i), h, c) :=
                match find_cache c t with
                | Some xi => (xi, cs_heap st, c)
                | None =>
                    let (xs, is) := init_coords m t in
                    let (x, h) := alloc (cs_heap st) xs in
                    let (i, h) := alloc h is in
                    ((x, i), h, (t, (x, i)) :: c)
                end in
              let (out, h) := copies h (if return_indices then i else x) in
              (Ret out, mkCS h (upd p (fun _ => c) (cs_caches st)))
          | Raise e => (Raise e, st)
          | _ => (Garbage, st)
          end
      | Raise e => (Raise e, st)
      | _ => (Garbage, st)
      end
  | _, _ => (Garbage, st)
  end.

(** what a user does: ask for coordinates, create a field, write into an array they hold *)
Inductive op :=
| Coords (p : nat) (r : request) (return_indices : bool)
| NewField (p : nat) (t : ftype)
| Write (a : nat) (v : arr).
(** the state with the lists of arrays handed out so far, oldest first *)
Definition ustate : Type := cstate * list arrays.
Definition hand (q : outcome arrays * cstate) (held : list arrays) : ustate :=
  match fst q with Ret l => (snd q, held ++ [l]) | _ => (snd q, held) end.
Definition step (meshes : list cmesh) (u : ustate) (o : op) : ustate :=
  let (st, held) := u in
  match o with
  | Coords p r b => hand (create_coords meshes st p r b) held
  (* pm.py:249-250: self.x and self.i *)
  | NewField p t =>
      let (st, held) := hand (create_coords meshes st p (Class (TypeC t)) false) held in
      hand (create_coords meshes st p (Class (TypeC t)) true) held
  | Write a v => if existsb (existsb (Nat.eqb a)) held then (mkCS (upd a (fun _ => v) (cs_heap st)) (cs_caches st), held) else u
  end.
(** pm.py:1487: every mesh begins with an empty cache *)
Definition start (meshes : list cmesh) : ustate := (mkCS [] (map (fun _ => []) meshes), []).
Definition run (meshes : list cmesh) (ops : list op) : ustate := fold_left (step meshes) ops (start meshes).
End Coords.
