(** C113: get_index of pmesh/invariant.py on arrays of points. *)
From Coq Require Import List Arith ZArith Lia Bool.
From Verif Require Import Base InvariantModel.
Import ListNotations.

(** An argument x: a numpy array (of integers or of another type), or nested lists, which have a shape but no methods; the elements in C order *)
Inductive points := PArray (integer : bool) (shape : list nat) (data : list Z) | PLists (shape : list nat) (data : list Z).
Definition shape_of (x : points) : list nat := match x with PArray _ s _ => s | PLists s _ => s end.
Definition data_of (x : points) : list Z := match x with PArray _ _ l => l | PLists _ l => l end.
Definition product (shape : list nat) : nat := fold_right Nat.mul 1 shape.
(** An argument Nmesh: a number or a list *)
Inductive mesh := MScalar (n : Z) | MList (l : list Z).
(** numpy.broadcast_to (Nmesh, d): a number or a list of one element is repeated *)
Definition broadcast_to (m : mesh) (d : nat) : outcome (list Z) :=
  match m with
  | MScalar n => Ret (repeat n d)
  | MList [n] => Ret (repeat n d)
  | MList l => if length l =? d then Ret l else Raise ValueError
  end.
(** x.reshape (-1, d): the number of rows is computed, which fails if d is zero; element (i, k) is number i * d + k *)
Definition rows (d : nat) (data : list Z) : outcome (list (list Z)) :=
  if d =? 0 then Raise ValueError else Ret (map (fun i => map (fun k => nth (i * d + k) data 0%Z) (seq 0 d)) (seq 0 (length data / d))).
(** _invariant.pyx:33-53, the loop over the rows *)
Fixpoint loop (Nmesh : list Z) (compressed : bool) (maxlength : option Z) (l : list (list Z)) : list Z :=
  match l with [] => [] | x :: l' => get_index Nmesh x compressed maxlength :: loop Nmesh compressed maxlength l' end.
(** invariant.py:35-41: shape and elements of the result *)
Definition get_index_array (x : points) (Nmesh : mesh) (compressed : bool) (maxlength : option Z) : outcome (list nat * list Z) :=
  if length (shape_of x) <? 2 then Raise AssertionError else
  let ndim := last (shape_of x) 0 in
  match broadcast_to Nmesh ndim with
  | Ret N =>
      let oldshape := removelast (shape_of x) in
      match x with
      | PLists _ _ => Raise AttributeError
      | PArray integer _ data =>
          match rows ndim data with
          | Ret r => if negb integer then Raise TypeError else
                     let r := loop N compressed maxlength r in
                     if length r =? product oldshape then Ret (oldshape, r) else Raise ValueError
          | Raise e => Raise e | Blocked => Blocked | Garbage => Garbage
          end
      end
  | Raise e => Raise e | Blocked => Blocked | Garbage => Garbage
  end.

(** ** Elements of an array by their indices *)
Definition flat (shape idx : list nat) : nat := fold_left (fun a p => a * fst p + snd p) (combine shape idx) 0.
Definition element (shape : list nat) (data : list Z) (idx : list nat) : Z := nth (flat shape idx) data 0%Z.
Definition valid (shape idx : list nat) : Prop := Forall2 (fun n i => i < n) shape idx.
(** the mesh that is meant *)
Definition meant (m : mesh) (d : nat) (N : list Z) : Prop := length N = d /\ match m with MScalar n => N = repeat n d | MList l => N = l \/ exists n, l = [n] /\ N = repeat n d end.

Lemma loop_map N c ml l : loop N c ml l = map (fun x => get_index N x c ml) l.
Proof. induction l as [|x l IH]; [reflexivity|]. cbn. now rewrite IH. Qed.
Lemma product_app a b : product (a ++ b) = product a * product b.
Proof. unfold product. induction a as [|n a IH]; [cbn; lia|]. cbn. rewrite IH. lia. Qed.
Lemma flat_from shape idx a : Forall2 (fun n i => i < n) shape idx -> fold_left (fun a p => a * fst p + snd p) (combine shape idx) a < (a + 1) * product shape.
Proof.
  intros H. revert a. induction H as [|n i s l Hi _ IH]; intros a; [cbn; lia|]. cbn [combine fold_left fst snd]. specialize (IH (a * n + i)). unfold product in *. cbn [fold_right].
  set (P := fold_right Nat.mul 1 s) in *. assert (a * n + i + 1 <= (a + 1) * n) by nia. nia.
Qed.
Lemma flat_lt shape idx : valid shape idx -> flat shape idx < product shape.
Proof. intros H. pose proof (flat_from shape idx 0 H). unfold flat. lia. Qed.
Lemma combine_snoc {A B} (a : list A) (b : list B) x y : length a = length b -> combine (a ++ [x]) (b ++ [y]) = combine a b ++ [(x, y)].
Proof. revert b. induction a as [|u a IH]; intros [|v b] H; cbn in *; try lia; [reflexivity|]. now rewrite IH by lia. Qed.
Lemma flat_snoc shape d idx k : valid shape idx -> flat (shape ++ [d]) (idx ++ [k]) = flat shape idx * d + k.
Proof. intros H. unfold flat. rewrite combine_snoc by (unfold valid in H; induction H; cbn; lia). rewrite fold_left_app. reflexivity. Qed.
Lemma meant_broadcast m d N : broadcast_to m d = Ret N <-> meant m d N.
Proof.
  unfold broadcast_to, meant. destruct m as [n|[|n [|n' l]]].
  - split; [intros H; injection H as <-; split; [apply repeat_length|reflexivity]|intros (_ & ->); reflexivity].
  - destruct (Nat.eqb_spec (length (@nil Z)) d) as [E|E].
    + split; [intros H; injection H as <-; split; [exact E|now left]|intros (_ & [->|(n & H & _)]); [reflexivity|discriminate]].
    + split; [discriminate|]. intros (L & [->|(n & H & _)]); [contradiction|discriminate].
  - split; [intros H; injection H as <-; split; [apply repeat_length|right; eauto]|]. intros (L & [->|(n0 & H & ->)]); [|injection H as ->; reflexivity]. cbn in L. subst d. reflexivity.
  - destruct (Nat.eqb_spec (length (n :: n' :: l)) d) as [E|E].
    + split; [intros H; injection H as <-; split; [exact E|now left]|intros (_ & [->|(n0 & H & _)]); [reflexivity|discriminate]].
    + split; [discriminate|]. intros (L & [->|(n0 & H & _)]); [contradiction|discriminate].
Qed.

(** An integer array of shape s + (d,) with any s but (), and d > 0: the result has shape s, and its element at any index is the index of the point there. *)
Theorem C113_elements : forall (s : list nat) (d : nat) (data : list Z) (m : mesh) (N : list Z) (c : bool) (ml : option Z),
  s <> [] -> 0 < d -> length data = product (s ++ [d]) -> meant m d N ->
  exists r, get_index_array (PArray true (s ++ [d]) data) m c ml = Ret (s, r) /\ length r = product s /\
  forall idx, valid s idx -> element s r idx = get_index N (map (fun k => element (s ++ [d]) data (idx ++ [k])) (seq 0 d)) c ml.
Proof.
  intros s d data m N c ml Hs Hd L M. apply meant_broadcast in M. unfold get_index_array. cbn [shape_of]. rewrite last_last, removelast_last, M.
  assert (T : length (s ++ [d]) <? 2 = false) by (apply Nat.ltb_ge; rewrite app_length; destruct s; [congruence|]; cbn; lia). rewrite T. unfold rows. rewrite (proj2 (Nat.eqb_neq d 0)) by lia.
  rewrite product_app in L. replace (product [d]) with d in L by (cbn; lia). rewrite loop_map, map_map. cbn [negb]. rewrite map_length, seq_length.
  assert (Q : length data / d = product s) by (rewrite L; apply Nat.div_mul; lia). rewrite Q, Nat.eqb_refl. eexists. split; [reflexivity|]. split; [now rewrite map_length, seq_length|].
  intros idx V. unfold element. pose proof (flat_lt s idx V) as F.
  set (g := fun i => get_index N (map (fun k => nth (i * d + k) data 0%Z) (seq 0 d)) c ml).
  rewrite (nth_indep _ 0%Z (g 0)) by (rewrite map_length, seq_length; exact F). rewrite (map_nth g), seq_nth by exact F. unfold g. cbn [Nat.add]. f_equal.
  apply map_ext. intros k. now rewrite flat_snoc.
Qed.
Print Assumptions C113_elements.

(** Everything else raises: one point alone, a mesh of another number of axes, nested lists, points without coordinates, numbers that are not integers. *)
Theorem C113_errors : forall (x : points) (m : mesh) (c : bool) (ml : option Z), length (data_of x) = product (shape_of x) ->
  let d := last (shape_of x) 0 in
  (length (shape_of x) < 2 -> get_index_array x m c ml = Raise AssertionError) /\
  (2 <= length (shape_of x) -> (forall N, ~ meant m d N) -> get_index_array x m c ml = Raise ValueError) /\
  (2 <= length (shape_of x) -> (exists N, meant m d N) ->
     match x with
     | PLists _ _ => get_index_array x m c ml = Raise AttributeError
     | PArray integer _ _ => (d = 0 -> get_index_array x m c ml = Raise ValueError) /\ (0 < d -> integer = false -> get_index_array x m c ml = Raise TypeError) /\
                             (0 < d -> integer = true -> exists r, get_index_array x m c ml = Ret (removelast (shape_of x), r))
     end).
Proof.
  intros x m c ml L d. split; [|split].
  - intros H. unfold get_index_array. now rewrite (proj2 (Nat.ltb_lt _ _) H).
  - intros H N. unfold get_index_array. rewrite (proj2 (Nat.ltb_ge _ _) H). fold d. destruct (broadcast_to m d) as [N0|e| |] eqn:E.
    + destruct (N N0). now apply meant_broadcast.
    + assert (e = ValueError) as ->; [|reflexivity]. unfold broadcast_to in E. destruct m as [n|[|n [|n' l]]]; try discriminate; [destruct (length (@nil Z) =? d)|destruct (length (n :: n' :: l) =? d)]; congruence.
    + unfold broadcast_to in E. destruct m as [n|[|n [|n' l]]]; try discriminate; [destruct (length (@nil Z) =? d)|destruct (length (n :: n' :: l) =? d)]; discriminate.
    + unfold broadcast_to in E. destruct m as [n|[|n [|n' l]]]; try discriminate; [destruct (length (@nil Z) =? d)|destruct (length (n :: n' :: l) =? d)]; discriminate.
  - intros H (N & M). pose proof (proj2 (meant_broadcast m d N) M) as B. destruct x as [integer s data|s data]; subst d; cbn [shape_of data_of] in *.
    + split; [|split].
      * intros E. unfold get_index_array. cbn [shape_of]. rewrite (proj2 (Nat.ltb_ge _ _) H), B. unfold rows. now rewrite E.
      * intros P ->. unfold get_index_array. cbn [shape_of]. rewrite (proj2 (Nat.ltb_ge _ _) H), B. unfold rows. now rewrite (proj2 (Nat.eqb_neq (last s 0) 0)) by lia.
      * intros P ->. assert (S0 : s <> []) by (intros ->; cbn in H; lia). rewrite (app_removelast_last 0 S0) in L.
        destruct (C113_elements (removelast s) (last s 0) data m N c ml) as (r & E & _); [|exact P|exact L|exact M|].
        -- intros X. rewrite (app_removelast_last 0 S0), X in H. cbn in H. lia.
        -- rewrite <- (app_removelast_last 0 S0) in E. exists r. exact E.
    + unfold get_index_array. cbn [shape_of]. now rewrite (proj2 (Nat.ltb_ge _ _) H), B.
Qed.
Print Assumptions C113_errors.

Example C113_case :
  get_index_array (PArray true [2; 1; 2] [1; 0; 0; 1]%Z) (MScalar 4) false None = Ret ([2; 1], [get_index [4; 4]%Z [1; 0]%Z false None; get_index [4; 4]%Z [0; 1]%Z false None]) /\
  get_index [4; 4]%Z [1; 0]%Z false None = 1%Z /\ get_index_array (PLists [1; 2] [1; 0]%Z) (MScalar 4) false None = Raise AttributeError /\
  get_index_array (PArray true [2] [1; 0]%Z) (MScalar 4) false None = Raise AssertionError.
Proof. repeat split; reflexivity. Qed.
