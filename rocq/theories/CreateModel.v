(** The arguments of the constructor of [ParticleMesh] (pm.py:1293-1358), [reshape], [resize] and
    [respawn] (pm.py:1536-1599), and the default partition of pfft.  All ranks pass the same
    arguments. *)
From Coq Require Import List Arith ZArith QArith Lia Bool.
From Verif Require Import Base ListFacts LayoutModel WrapModel DomainModel WindowModel MeshModel MeshAssign.
Import ListNotations.
Local Close Scope Q_scope.
Local Open Scope Z_scope.

(** pfft, not part of pmesh: n cells on p processes go to blocks of ceil(n / p) cells, the last
    ones may be smaller or empty *)
Definition pfft_block (n : Z) (p : nat) : Z := (n + Z.of_nat p - 1) / Z.of_nat p.
Definition pfft_edges (n : Z) (p : nat) : list Z := map (fun k => Z.min (Z.of_nat k * pfft_block n p) n) (seq 0 (S p)).
(** the first axes are split over the process mesh, the others are not (len(np) < len(Nmesh));
    processes are numbered in C order *)
Definition pfft_partition (Nmesh : list Z) (np : list nat) : partition :=
  let edges := map (fun i => pfft_edges (nth i Nmesh 0) (nth i np 1%nat)) (seq 0 (length Nmesh)) in
  {| i_edges := edges; local_i_start := map (block_start edges) (all_blocks edges);
     local_i_shape := map (block_shape edges) (all_blocks edges) |}.

(** numpy dtypes *)
Inductive dtype := f8 | f4 | c16 | c8 | other_dtype.
(** what a rank remembers beside [pm] *)
Record mesh := mkMesh { me_pm : pm; me_np : list nat; me_dtype : dtype }.
Definition product (np : list nat) : nat := fold_right Nat.mul 1%nat np.

Section Create.
(** pfft.split_size_2d; the partition of a mesh all of whose axes are split *)
Variable split : nat -> list nat.
Variable all_split : list Z -> list nat -> partition.
Definition partition_of (Nmesh : list Z) (np : list nat) : partition :=
  if (length np <? length Nmesh)%nat then pfft_partition Nmesh np else all_split Nmesh np.
(** pm.py:1316-1322; len(None) in line 1326 for a mesh of no dimension *)
Definition process_mesh (size : nat) (Nmesh : list Z) (np : option (list nat)) : outcome (list nat) :=
  match np with
  | Some np => Ret np
  | None => match length Nmesh with
            | O => Raise TypeError
            | S O => Ret []
            | S (S O) => Ret [size]
            | _ => Ret (split size)
            end
  end.
(** pm.py:1293-1358 and the rest of the constructor, [ParticleMesh].  pfft refuses a
    process mesh that does not have the size of the communicator, or more axes than the mesh. *)
Definition create (size : nat) (Nmesh : list Z) (BoxSize : value Q) (t : dtype) (w : window) (np : option (list nat)) : list (outcome mesh) :=
  if (length Nmesh =? 1)%nat && negb (size =? 1)%nat then repeat (Raise ValueError) size
  else match process_mesh size Nmesh np with
  | Ret np =>
      match t with
      | other_dtype => repeat (Raise ValueError) size
      | _ =>
          match mkarr BoxSize (length Nmesh) with
          | Ret box =>
              if (product np =? size)%nat && (length np <=? length Nmesh)%nat
              then map (fun o => bind o (fun p => Ret (mkMesh p np t))) (ParticleMesh Nmesh (Array box) w (partition_of Nmesh np))
              else repeat (Raise ValueError) size
          | Raise e => repeat (Raise e) size
          | Blocked => repeat Blocked size
          | Garbage => repeat Garbage size
          end
      end
  | Raise e => repeat (Raise e) size
  | Blocked => repeat Blocked size
  | Garbage => repeat Garbage size
  end.

(** pm.py:1553-1565 *)
Definition reshape_args (p : pm) (Nmesh : option (value Z)) (BoxSize : option (value Q)) : outcome (list Z * list Q) :=
  let N := match Nmesh with
           | None => pm_Nmesh p
           | Some (Scalar n) => map (fun _ => n) (pm_Nmesh p)
           | Some (Array l) => l
           end in
  let B := match BoxSize with
           | None => firstn (length N) (pm_BoxSize p)
           | Some (Scalar b) => map (fun _ => b) N
           | Some (Array l) => l
           end in
  if (length B =? length N)%nat then Ret (N, B) else Raise ValueError.
(** pm.py:1540-1572 *)
Definition reshape (ms : list mesh) (Nmesh : option (value Z)) (BoxSize : option (value Q)) : list (outcome mesh) :=
  match ms with
  | [] => []
  | m :: _ =>
      match reshape_args (me_pm m) Nmesh BoxSize with
      | Ret (N, B) => create (length ms) N (Array B) (me_dtype m) (pm_resampler (me_pm m)) (Some (me_np m))
      | Raise e => map (fun _ => Raise e) ms
      | Blocked => map (fun _ => Blocked) ms
      | Garbage => map (fun _ => Garbage) ms
      end
  end.
(** pm.py:1536-1538 *)
Definition resize (ms : list mesh) (Nmesh : value Z) : list (outcome mesh) := reshape ms (Some Nmesh) None.
(** pm.py:1574-1599: [size] ranks of another communicator *)
Definition respawn (m : mesh) (size : nat) (np : option (list nat)) : list (outcome mesh) :=
  create size (pm_Nmesh (me_pm m)) (Array (pm_BoxSize (me_pm m))) (me_dtype m) (pm_resampler (me_pm m)) np.
End Create.
