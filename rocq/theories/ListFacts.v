(** General list lemmas missing from the standard library. *)
From Coq Require Import List Arith Lia Bool Permutation.
From Verif Require Import Base.
Import ListNotations.

Lemma skipn_skipn_add {A} n m (l : list A) : skipn n (skipn m l) = skipn (m + n) l.
Proof.
  revert l; induction m as [|m IH]; intros l; [reflexivity|].
  destruct l as [|x l]; simpl; [now rewrite skipn_nil|apply IH].
Qed.

Lemma list_ext {A} (l m : list A) :
  (forall i, nth_error l i = nth_error m i) -> l = m.
Proof.
  revert m; induction l as [|x l IH]; intros [|y m] H.
  - reflexivity.
  - specialize (H 0); discriminate.
  - specialize (H 0); discriminate.
  - pose proof (H 0) as H0; simpl in H0; inversion H0; subst. f_equal.
    apply IH. intros i. exact (H (S i)).
Qed.

Lemma nth_error_seq_lt s n i : i < n -> nth_error (seq s n) i = Some (s + i).
Proof.
  intros H. rewrite (nth_error_nth' _ 0) by (rewrite seq_length; lia).
  now rewrite seq_nth.
Qed.

Lemma nth_error_seq_ge s n i : n <= i -> nth_error (seq s n) i = None.
Proof. intros H. apply nth_error_None. rewrite seq_length. lia. Qed.

Lemma nth_error_combine {A B} (l : list A) (m : list B) i :
  nth_error (combine l m) i =
  match nth_error l i, nth_error m i with
  | Some a, Some b => Some (a, b)
  | _, _ => None
  end.
Proof.
  revert m i; induction l as [|x l IH]; intros m i; simpl.
  - destruct i; reflexivity.
  - destruct m as [|y m]; simpl.
    + destruct i; simpl; [reflexivity|]. destruct (nth_error l i); reflexivity.
    + destruct i; simpl; [reflexivity|apply IH].
Qed.

Lemma map_nth_seq {A} (l : list A) d n : length l = n -> map (fun i => nth i l d) (seq 0 n) = l.
Proof.
  intros Hn. subst n. induction l as [|x l IH]; simpl; [reflexivity|].
  f_equal. rewrite <- seq_shift, map_map. exact IH.
Qed.

Lemma map_seq_eq {A} (l : list A) d (f : nat -> A) n :
  length l = n -> (forall i, i < n -> f i = nth i l d) -> map f (seq 0 n) = l.
Proof.
  intros Hn Hf. rewrite <- (map_nth_seq l d n Hn). apply map_ext_in.
  intros i Hi. apply in_seq in Hi. apply Hf. lia.
Qed.

Lemma combine_map_l {A B C} (f : A -> C) (l : list A) (m : list B) :
  combine (map f l) m = map (fun p => (f (fst p), snd p)) (combine l m).
Proof. revert m; induction l as [|x l IH]; intros [|y m]; simpl; try reflexivity. now rewrite IH. Qed.

Lemma combine_map_r {A B C} (f : B -> C) (l : list A) (m : list B) :
  combine l (map f m) = map (fun p => (fst p, f (snd p))) (combine l m).
Proof. revert m; induction l as [|x l IH]; intros [|y m]; simpl; try reflexivity. now rewrite IH. Qed.

Lemma combine_app {A B} (l1 l2 : list A) (m1 m2 : list B) :
  length l1 = length m1 -> combine (l1 ++ l2) (m1 ++ m2) = combine l1 m1 ++ combine l2 m2.
Proof.
  revert m1; induction l1 as [|x l1 IH]; intros [|y m1]; simpl; intros H; try discriminate; [reflexivity|].
  f_equal. apply IH. lia.
Qed.

Lemma map_fst_combine {A B} (l : list A) (m : list B) :
  length l <= length m -> map fst (combine l m) = l.
Proof.
  revert m; induction l as [|x l IH]; intros [|y m]; simpl; intros H; try lia; [reflexivity|reflexivity|].
  f_equal. apply IH. lia.
Qed.

Lemma map_snd_combine {A B} (l : list A) (m : list B) :
  length m <= length l -> map snd (combine l m) = m.
Proof.
  revert m; induction l as [|x l IH]; intros [|y m]; simpl; intros H; try lia; [reflexivity|reflexivity|].
  f_equal. apply IH. lia.
Qed.

Lemma filter_all {A} (f : A -> bool) l : (forall x, In x l -> f x = true) -> filter f l = l.
Proof.
  induction l as [|x l IH]; intros H; simpl; [reflexivity|].
  rewrite H by (left; reflexivity). f_equal. apply IH. intros y Hy. apply H. now right.
Qed.

Lemma filter_none {A} (f : A -> bool) l : (forall x, In x l -> f x = false) -> filter f l = [].
Proof.
  induction l as [|x l IH]; intros H; simpl; [reflexivity|].
  rewrite H by (left; reflexivity). apply IH. intros y Hy. apply H. now right.
Qed.

Lemma filter_map {A B} (g : A -> B) (f : B -> bool) l :
  filter f (map g l) = map g (filter (fun x => f (g x)) l).
Proof. induction l as [|x l IH]; simpl; [reflexivity|]. destruct (f (g x)); simpl; now rewrite IH. Qed.

Lemma filter_flat_map {A B} (g : A -> list B) (f : B -> bool) l :
  filter f (flat_map g l) = flat_map (fun x => filter f (g x)) l.
Proof. induction l as [|x l IH]; simpl; [reflexivity|]. now rewrite filter_app, IH. Qed.

Lemma filter_filter {A} (f g : A -> bool) l :
  filter f (filter g l) = filter (fun x => g x && f x) l.
Proof.
  induction l as [|x l IH]; simpl; [reflexivity|].
  destruct (g x); simpl; [destruct (f x); now rewrite IH|exact IH].
Qed.

Lemma flat_map_map {A B C} (g : A -> B) (f : B -> list C) l :
  flat_map f (map g l) = flat_map (fun x => f (g x)) l.
Proof. induction l as [|x l IH]; simpl; [reflexivity|]. now rewrite IH. Qed.

Lemma map_flat_map {A B C} (f : B -> C) (g : A -> list B) l :
  map f (flat_map g l) = flat_map (fun x => map f (g x)) l.
Proof. induction l as [|x l IH]; simpl; [reflexivity|]. now rewrite map_app, IH. Qed.

Lemma flat_map_ext_in {A B} (f g : A -> list B) l :
  (forall x, In x l -> f x = g x) -> flat_map f l = flat_map g l.
Proof.
  induction l as [|x l IH]; intros H; simpl; [reflexivity|].
  rewrite H by (left; reflexivity). f_equal. apply IH. intros y Hy. apply H. now right.
Qed.

Lemma flat_map_single {A B} (f : A -> B) l : flat_map (fun x => [f x]) l = map f l.
Proof. induction l as [|x l IH]; simpl; [reflexivity|]. now rewrite IH. Qed.

Lemma flat_map_nil {A B} (f : A -> list B) l : (forall x, In x l -> f x = []) -> flat_map f l = [].
Proof.
  induction l as [|x l IH]; intros H; simpl; [reflexivity|].
  rewrite H by (left; reflexivity). apply IH. intros y Hy. apply H. now right.
Qed.

Lemma flat_map_flat_map {A B C} (f : B -> list C) (g : A -> list B) l :
  flat_map f (flat_map g l) = flat_map (fun x => flat_map f (g x)) l.
Proof. induction l as [|x l IH]; simpl; [reflexivity|]. now rewrite flat_map_app, IH. Qed.

Lemma upd_length {A} i f (l : list A) : length (upd i f l) = length l.
Proof. revert i; induction l as [|x l IH]; intros [|i]; simpl; try reflexivity. now rewrite IH. Qed.

Lemma nth_error_upd {A} i f (l : list A) j :
  nth_error (upd i f l) j = if i =? j then option_map f (nth_error l j) else nth_error l j.
Proof.
  revert i j; induction l as [|x l IH]; intros i j.
  - destruct i, j; simpl; try reflexivity; destruct (_ =? _); reflexivity.
  - destruct i, j; simpl; try reflexivity. apply IH.
Qed.

Lemma list_sum_cons x l : list_sum (x :: l) = x + list_sum l.
Proof. reflexivity. Qed.

Lemma list_sum_nil : list_sum [] = 0.
Proof. reflexivity. Qed.

Lemma list_sum_app' l m : list_sum (l ++ m) = list_sum l + list_sum m.
Proof. induction l as [|x l IH]; [reflexivity|]. rewrite <- app_comm_cons, !list_sum_cons, IH; lia. Qed.

Lemma flat_map_length_sum {A B} (f : A -> list B) l :
  length (flat_map f l) = list_sum (map (fun x => length (f x)) l).
Proof. induction l as [|x l IH]; simpl; [reflexivity|]. rewrite app_length, IH. reflexivity. Qed.

Lemma concat_length_sum {A} (l : list (list A)) : length (concat l) = list_sum (map (@length A) l).
Proof. induction l as [|x l IH]; simpl; [reflexivity|]. rewrite app_length, IH. reflexivity. Qed.

Lemma list_sum_map_add {A} (f g : A -> nat) l :
  list_sum (map (fun x => f x + g x) l) = list_sum (map f l) + list_sum (map g l).
Proof.
  induction l as [|x l IH]; [reflexivity|].
  cbn [map]. rewrite !list_sum_cons, IH. lia.
Qed.

Lemma list_sum_map_swap {A B} (f : A -> B -> nat) l m :
  list_sum (map (fun x => list_sum (map (f x) m)) l) =
  list_sum (map (fun y => list_sum (map (fun x => f x y) l)) m).
Proof.
  induction l as [|x l IH].
  - cbn [map]. rewrite list_sum_nil. induction m as [|y m IHm]; [reflexivity|]. exact IHm.
  - cbn [map]. rewrite list_sum_cons, IH, <- list_sum_map_add.
    reflexivity.
Qed.

Lemma list_sum_map_ext_in {A} (f g : A -> nat) l :
  (forall x, In x l -> f x = g x) -> list_sum (map f l) = list_sum (map g l).
Proof. intros H. f_equal. now apply map_ext_in. Qed.

Lemma sequence_map_Some {A} (l : list A) : sequence (map Some l) = Some l.
Proof. induction l as [|a l IH]; simpl; [reflexivity|]. now rewrite IH. Qed.

Lemma sequence_Some_inv {A} (l : list (option A)) r : sequence l = Some r -> l = map Some r.
Proof.
  revert r; induction l as [|[a|] l IH]; simpl; intros r H; [now inversion H| |discriminate].
  destruct (sequence l) as [r'|]; [|discriminate]. inversion H; subst. simpl. f_equal. now apply IH.
Qed.

Lemma sequence_Some_iff {A} (l : list (option A)) r : sequence l = Some r <-> l = map Some r.
Proof. split; [apply sequence_Some_inv|intros ->; apply sequence_map_Some]. Qed.

Lemma fold_left_map {A B C} (f : C -> B -> C) (g : A -> B) l c :
  fold_left f (map g l) c = fold_left (fun c x => f c (g x)) l c.
Proof. revert c; induction l as [|x l IH]; intros c; simpl; [reflexivity|apply IH]. Qed.

Lemma combine_flat_map {S A B} (f : S -> list A) (g : S -> list B) l :
  (forall s, In s l -> length (f s) = length (g s)) ->
  combine (flat_map f l) (flat_map g l) = flat_map (fun s => combine (f s) (g s)) l.
Proof.
  induction l as [|s l IH]; intros H; simpl; [reflexivity|].
  rewrite combine_app by (apply H; now left). f_equal. apply IH.
  intros t Ht. apply H. now right.
Qed.

Lemma firstn_seq_min s n k : firstn k (seq s n) = seq s (min k n).
Proof.
  revert s k; induction n as [|n IH]; intros s k; simpl.
  - rewrite firstn_nil, Nat.min_0_r. reflexivity.
  - destruct k as [|k]; simpl; [reflexivity|]. now rewrite IH.
Qed.

Lemma combine_map_map {S A B} (f : S -> A) (g : S -> B) l :
  combine (map f l) (map g l) = map (fun s => (f s, g s)) l.
Proof. induction l as [|s l IH]; simpl; [reflexivity|]. now rewrite IH. Qed.

Lemma concat_map_flat_map {A B} (f : A -> list B) l : concat (map f l) = flat_map f l.
Proof. symmetry. apply flat_map_concat_map. Qed.

Lemma flat_map_select {A} (f : nat -> list A) n s :
  s < n -> flat_map (fun t => if t =? s then f t else []) (seq 0 n) = f s.
Proof.
  intros H. replace n with (s + (1 + (n - s - 1))) by lia.
  rewrite !seq_app, !flat_map_app. simpl flat_map at 2. rewrite Nat.eqb_refl, app_nil_r.
  rewrite flat_map_nil.
  - rewrite flat_map_nil; [now rewrite app_nil_r|].
    intros t Ht. apply in_seq in Ht. destruct (Nat.eqb_spec t s); [lia|reflexivity].
  - intros t Ht. apply in_seq in Ht. destruct (Nat.eqb_spec t s); [lia|reflexivity].
Qed.

Lemma map_ext_seq {A} (f g : nat -> A) n :
  (forall i, i < n -> f i = g i) -> map f (seq 0 n) = map g (seq 0 n).
Proof. intros H. apply map_ext_in. intros i Hi. apply in_seq in Hi. apply H. lia. Qed.

Lemma filter_combine_fst {A} (p : A -> bool) {B} (l : list A) (m : list B) :
  length l = length m ->
  map fst (filter (fun x => p (fst x)) (combine l m)) = filter p l.
Proof.
  revert m; induction l as [|x l IH]; intros [|y m] H; simpl in *; try discriminate; [reflexivity|].
  destruct (p x); simpl; rewrite IH by lia; reflexivity.
Qed.

Lemma nth_map_in {A B} (f : A -> B) l i d d' : i < length l -> nth i (map f l) d = f (nth i l d').
Proof.
  intros H. rewrite (nth_indep _ d (f d')) by (rewrite map_length; lia). apply map_nth.
Qed.

Lemma nth_map_seq {A} (f : nat -> A) n i d : i < n -> nth i (map f (seq 0 n)) d = f i.
Proof.
  intros H. rewrite (nth_map_in f _ i d 0) by (rewrite seq_length; lia). now rewrite seq_nth.
Qed.

Lemma NoDup_app_intro {A} (l m : list A) : NoDup l -> NoDup m -> (forall x, In x l -> In x m -> False) -> NoDup (l ++ m).
Proof.
  intros Hl Hm H. induction Hl as [|x l Hx Hl IH]; [exact Hm|]. cbn. constructor.
  - rewrite in_app_iff. intros [I|I]; [easy|]. apply (H x); [now left|exact I].
  - apply IH. intros y Iy Im. apply (H y); [now right|exact Im].
Qed.
