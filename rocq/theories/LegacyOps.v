(** C111: the operators of fields with numpy before 1.13 (pmesh/pm.py:14-70), on one rank. *)
From Coq Require Import List Arith ZArith Lia Bool.
From Verif Require Import Base.
Import ListNotations.

(** The functions of numpy behind the operators *)
Inductive ufunc2 := Add | Subtract | Multiply | Divide | Power.
Inductive ufunc1 := Absolute | Negative.

Section Ops.
  (** Numbers, and the functions of numpy on them: [true] if one of the arguments is complex. *)
  Context {C : Type}.
  Variable u2 : ufunc2 -> bool -> C -> C -> C.
  Variable u1 : ufunc1 -> bool -> C -> C.
  (** the real part, which is what remains of a complex number that is assigned to an element of a real array (ComplexWarning) *)
  Variable re : C -> C.
  (** the number -1 of line 36 *)
  Variable minus_one : C.
  Variable eqb : C -> C -> bool.

  (** A field: its buffer and whether it is complex; other operands are numbers and arrays of any kind *)
  Record fld := Fld { buf : nat; cplx : bool }.
  Inductive operand := OScalar (c : bool) (x : C) | OArray (c : bool) (l : list C) | OField (f : fld).
  (** the buffers, and the number of those in use *)
  Record state := State { mem : nat -> list C; next : nat }.
  Definition store (s : state) (b : nat) (l : list C) : state := State (fun b' => if b' =? b then l else mem s b') (next s).
  Definition ocplx (o : operand) : bool := match o with OScalar c _ => c | OArray c _ => c | OField f => cplx f end.
  (** the values of an operand next to an array of n elements; None: the shapes do not fit. Only numbers are broadcast. *)
  Definition ovalues (s : state) (n : nat) (o : operand) : option (list C) :=
    match o with
    | OScalar _ x => Some (repeat x n)
    | OArray _ l => if length l =? n then Some l else None
    | OField f => if length (mem s (buf f)) =? n then Some (mem s (buf f)) else None
    end.
  Definition zip (g : C -> C -> C) (a b : list C) : list C := map (fun p => g (fst p) (snd p)) (combine a b).

  (** Field.copy, pm.py:217-218: a new buffer *)
  Definition copy (s : state) (f : fld) : state * fld :=
    (State (fun b => if b =? next s then mem s (buf f) else mem s b) (S (next s)), Fld (next s) (cplx f)).
  (** r[...] op= other: numpy writes to the buffer, and refuses to write complex results to a real one (casting same_kind) *)
  Definition inplace (g : ufunc2) (s : state) (r : fld) (o : operand) : outcome state :=
    match ovalues s (length (mem s (buf r))) o with
    | None => Raise ValueError
    | Some l => if ocplx o && negb (cplx r) then Raise TypeError else Ret (store s (buf r) (zip (u2 g (cplx r || ocplx o)) (mem s (buf r)) l))
    end.
  (** r[...] = array, of the same shape: numpy casts without a check *)
  Definition assign (s : state) (r : fld) (c : bool) (l : list C) : state := store s (buf r) (if c && negb (cplx r) then map re l else l).
  Definition with_result (r : fld) (o : outcome state) : outcome (state * fld) := match o with Ret s => Ret (s, r) | Raise e => Raise e | Blocked => Blocked | Garbage => Garbage end.

  (** pm.py:24-27, 29-32, 40-43, 45-50 *)
  Definition op_add (s : state) (f : fld) (o : operand) := let (s1, r) := copy s f in with_result r (inplace Add s1 r o).
  Definition op_sub (s : state) (f : fld) (o : operand) := let (s1, r) := copy s f in with_result r (inplace Subtract s1 r o).
  Definition op_mul (s : state) (f : fld) (o : operand) := let (s1, r) := copy s f in with_result r (inplace Multiply s1 r o).
  Definition op_div (s : state) (f : fld) (o : operand) := let (s1, r) := copy s f in with_result r (inplace Divide s1 r o).
  (** pm.py:18-19 *)
  Definition op_radd := op_add.
  Definition op_rmul := op_mul.
  (** pm.py:34-38 *)
  Definition op_rsub (s : state) (f : fld) (o : operand) :=
    let (s1, r) := copy s f in
    match inplace Multiply s1 r (OScalar false minus_one) with
    | Ret s2 => with_result r (inplace Add s2 r o)
    | e => with_result r e
    end.
  (** pm.py:51-55 *)
  Definition op_rdiv (s : state) (f : fld) (o : operand) : outcome (state * fld) :=
    let (s1, r) := copy s f in
    match ovalues s1 (length (mem s1 (buf f))) o with
    | None => Raise ValueError
    | Some l => Ret (assign s1 r (cplx f || ocplx o) (zip (u2 Divide (cplx f || ocplx o)) l (mem s1 (buf f))), r)
    end.
  (** pm.py:62-65 *)
  Definition op_pow (s : state) (f : fld) (o : operand) : outcome (state * fld) :=
    let (s1, r) := copy s f in
    match ovalues s1 (length (mem s1 (buf f))) o with
    | None => Raise ValueError
    | Some l => Ret (assign s1 r (cplx f || ocplx o) (zip (u2 Power (cplx f || ocplx o)) (mem s1 (buf f)) l), r)
    end.
  (** pm.py:57-60, 67-70; the absolute values of complex numbers are real *)
  Definition op_abs (s : state) (f : fld) : state * fld := let (s1, r) := copy s f in (assign s1 r false (map (u1 Absolute (cplx f)) (mem s1 (buf f))), r).
  Definition op_neg (s : state) (f : fld) : state * fld := let (s1, r) := copy s f in (assign s1 r (cplx f) (map (u1 Negative (cplx f)) (mem s1 (buf f))), r).
  (** pm.py:21-22: an array of bool, not a field *)
  Definition op_eq (s : state) (f : fld) (o : operand) : option (list bool) :=
    option_map (fun l => map (fun p => eqb (fst p) (snd p)) (combine (mem s (buf f)) l)) (ovalues s (length (mem s (buf f))) o).

  (** ** What they should be *)
  Inductive binary := BAdd | BRadd | BSub | BRsub | BMul | BRmul | BDiv | BRdiv | BPow.
  Definition operator (b : binary) : state -> fld -> operand -> outcome (state * fld) :=
    match b with BAdd => op_add | BRadd => op_radd | BSub => op_sub | BRsub => op_rsub | BMul => op_mul | BRmul => op_rmul | BDiv => op_div | BRdiv => op_rdiv | BPow => op_pow end.
  (** the value of an element: x of the field, y of the other operand, in the order in which they are written *)
  Definition meaning (b : binary) (c : bool) (x y : C) : C :=
    match b with
    | BAdd => u2 Add c x y | BRadd => u2 Add c y x | BSub => u2 Subtract c x y | BRsub => u2 Subtract c y x | BMul => u2 Multiply c x y | BRmul => u2 Multiply c y x
    | BDiv => u2 Divide c x y | BRdiv => u2 Divide c y x | BPow => u2 Power c x y
    end.
  Definition in_use (s : state) (o : operand) : Prop := match o with OField f => buf f < next s | _ => True end.
  (** the result is a new field of the kind of f that holds l, and nothing else has changed *)
  Definition new_field (s : state) (f : fld) (l : list C) (res : state * fld) : Prop :=
    snd res = Fld (next s) (cplx f) /\ next (fst res) = S (next s) /\ mem (fst res) (next s) = l /\ forall b, b <> next s -> mem (fst res) b = mem s b.
End Ops.
Arguments operand : clear implicits.
Arguments state : clear implicits.

(** What is used of the numbers: addition and multiplication commute, and x * -1 + y is y - x *)
Definition laws {C} (u2 : ufunc2 -> bool -> C -> C -> C) (minus_one : C) : Prop :=
  (forall c x y, u2 Add c x y = u2 Add c y x) /\ (forall c x y, u2 Multiply c x y = u2 Multiply c y x) /\
  (forall c c' x y, u2 Add c (u2 Multiply c' x minus_one) y = u2 Subtract c y x).

Section Proofs.
  Context {C : Type} (u2 : ufunc2 -> bool -> C -> C -> C) (u1 : ufunc1 -> bool -> C -> C) (re : C -> C) (minus_one : C).
  Lemma zip_ext (g h : C -> C -> C) a b : (forall x y, g x y = h x y) -> zip g a b = zip h a b.
  Proof. intros H. unfold zip. apply map_ext. intros p. apply H. Qed.
  Lemma zip_swap (g : C -> C -> C) a b : zip g b a = zip (fun x y => g y x) a b.
  Proof. revert b. induction a as [|x a IH]; intros [|y b]; try reflexivity. unfold zip in *. cbn. now rewrite IH. Qed.
  Lemma zip_repeat (g : C -> C -> C) a x n : n = length a -> zip g a (repeat x n) = map (fun y => g y x) a.
  Proof. intros ->. unfold zip. induction a as [|y a IH]; [reflexivity|]. cbn. now rewrite IH. Qed.
  Lemma zip_map (g : C -> C -> C) (h : C -> C) a b : zip g (map h a) b = zip (fun x y => g (h x) y) a b.
  Proof. revert b. induction a as [|x a IH]; intros [|y b]; try reflexivity. unfold zip in *. cbn. now rewrite IH. Qed.
  Lemma ovalues_ext (s t : state C) n o : (forall b, b < next s -> mem t b = mem s b) -> in_use s o -> ovalues t n o = ovalues s n o.
  Proof. intros H U. destruct o as [c x|c l|f]; try reflexivity. cbn in *. now rewrite H. Qed.
  Lemma copied (s : state C) f b : b <> next s -> mem (fst (copy s f)) b = mem s b.
  Proof. intros N. cbn. destruct (Nat.eqb_spec b (next s)); [contradiction|reflexivity]. Qed.
  Lemma copied_new (s : state C) f : mem (fst (copy s f)) (next s) = mem s (buf f).
  Proof. cbn. now rewrite Nat.eqb_refl. Qed.
  Lemma inplace_copy g (s : state C) f o l : buf f < next s -> in_use s o -> ovalues s (length (mem s (buf f))) o = Some l -> ocplx o && negb (cplx f) = false ->
    inplace u2 g (fst (copy s f)) (snd (copy s f)) o = Ret (store (fst (copy s f)) (next s) (zip (u2 g (cplx f || ocplx o)) (mem s (buf f)) l)).
  Proof.
    intros F U V K. unfold inplace. change (buf (snd (copy s f))) with (next s). change (cplx (snd (copy s f))) with (cplx f). rewrite copied_new.
    rewrite (ovalues_ext s) by (auto; intros b Hb; apply copied; lia). now rewrite V, K.
  Qed.
  Lemma new_store (s : state C) f l : new_field s f l (store (fst (copy s f)) (next s) l, snd (copy s f)).
  Proof. split; [reflexivity|]. split; [reflexivity|]. cbn. split; [now rewrite Nat.eqb_refl|]. intros b N. destruct (Nat.eqb_spec b (next s)); [contradiction|reflexivity]. Qed.
  Lemma new_store2 (s : state C) f l k : new_field s f l (store (store (fst (copy s f)) (next s) k) (next s) l, snd (copy s f)).
  Proof. split; [reflexivity|]. split; [reflexivity|]. cbn. split; [now rewrite Nat.eqb_refl|]. intros b N. destruct (Nat.eqb_spec b (next s)); [contradiction|reflexivity]. Qed.
End Proofs.

(** An operator with an operand that fits and is not of a larger kind makes a new field of the kind of the left one, with the values of the operator in
    the order in which it is written, and changes no other field, also if both operands are the same field. *)
Theorem C111_operators : forall (C : Type) u2 re minus_one (b : binary) (s : state C) (f : fld) (o : operand C) (l : list C), laws u2 minus_one ->
  buf f < next s -> in_use s o -> (ocplx o = true -> cplx f = true) -> ovalues s (length (mem s (buf f))) o = Some l ->
  exists res, operator u2 re minus_one b s f o = Ret res /\ new_field s f (zip (meaning u2 b (cplx f)) (mem s (buf f)) l) res.
Proof.
  intros C u2 re minus_one b s f o l (LA & LM & LS) F U K V.
  assert (K1 : ocplx o && negb (cplx f) = false) by (destruct (ocplx o); [now rewrite (K eq_refl)|reflexivity]).
  assert (K2 : cplx f || ocplx o = cplx f) by (destruct (ocplx o); [now rewrite (K eq_refl)|apply orb_false_r]).
  assert (V' : ovalues (fst (copy s f)) (length (mem (fst (copy s f)) (buf f))) o = Some l).
  { rewrite copied by lia. rewrite (ovalues_ext s); auto. intros b' Hb. apply copied. lia. }
  pose proof (fun g => inplace_copy u2 g s f o l F U V K1) as P. rewrite K2 in P.
  destruct b; cbn [operator meaning]; unfold op_radd, op_rmul, op_add, op_sub, op_mul, op_div, op_rsub, op_rdiv, op_pow; rewrite (surjective_pairing (copy s f)).
  - rewrite P. eexists. split; [reflexivity|]. apply new_store.
  - rewrite P. eexists. split; [reflexivity|]. rewrite (zip_ext (fun x y => u2 Add (cplx f) y x) (u2 Add (cplx f))) by auto. apply new_store.
  - rewrite P. eexists. split; [reflexivity|]. apply new_store.
  - rewrite (inplace_copy u2 Multiply s f (OScalar false minus_one) (repeat minus_one (length (mem s (buf f)))) F Logic.I eq_refl eq_refl). cbn [ocplx]. rewrite orb_false_r.
    rewrite zip_repeat by reflexivity.
    set (k := map _ _). unfold inplace. change (buf (snd (copy s f))) with (next s). change (cplx (snd (copy s f))) with (cplx f).
    assert (N : mem (store (fst (copy s f)) (next s) k) (next s) = k) by (cbn; now rewrite Nat.eqb_refl). rewrite N.
    assert (Lk : length k = length (mem s (buf f))) by (unfold k; apply map_length). rewrite Lk.
    rewrite (ovalues_ext s) by (auto; intros b' Hb; cbn; destruct (Nat.eqb_spec b' (next s)); lia || reflexivity). rewrite V, K1, K2.
    eexists. split; [reflexivity|]. unfold k. rewrite zip_map.
    rewrite (zip_ext (fun x y => u2 Add (cplx f) (u2 Multiply (cplx f) x minus_one) y) (fun x y => u2 Subtract (cplx f) y x)) by auto. apply new_store2.
  - rewrite P. eexists. split; [reflexivity|]. apply new_store.
  - rewrite P. eexists. split; [reflexivity|]. rewrite (zip_ext (fun x y => u2 Multiply (cplx f) y x) (u2 Multiply (cplx f))) by auto. apply new_store.
  - rewrite P. eexists. split; [reflexivity|]. apply new_store.
  - rewrite V', K2. eexists. split; [reflexivity|]. unfold assign. change (cplx (snd (copy s f))) with (cplx f). rewrite andb_negb_r. rewrite copied by lia.
    rewrite zip_swap. apply new_store.
  - rewrite V', K2. eexists. split; [reflexivity|]. unfold assign. change (cplx (snd (copy s f))) with (cplx f). rewrite andb_negb_r. rewrite copied by lia. apply new_store.
Qed.
Print Assumptions C111_operators.

(** An array or field of another length raises ValueError with every operator; one of the same length, and every number, is an operand as above. *)
Theorem C111_shapes : forall (C : Type) u2 re minus_one (s : state C) (f : fld), buf f < next s ->
  (forall b c l, length l <> length (mem s (buf f)) -> operator u2 re minus_one b s f (OArray c l) = Raise ValueError) /\
  (forall b g, buf g < next s -> length (mem s (buf g)) <> length (mem s (buf f)) -> operator u2 re minus_one b s f (OField g) = Raise ValueError) /\
  (forall c l, length l = length (mem s (buf f)) -> ovalues s (length (mem s (buf f))) (OArray c l) = Some l) /\
  (forall g, length (mem s (buf g)) = length (mem s (buf f)) -> ovalues s (length (mem s (buf f))) (OField g) = Some (mem s (buf g))) /\
  (forall c x, ovalues s (length (mem s (buf f))) (OScalar c x) = Some (repeat x (length (mem s (buf f))))).
Proof.
  intros C u2 re minus_one s f F.
  assert (A : forall b o, in_use s o -> ovalues s (length (mem s (buf f))) o = None -> operator u2 re minus_one b s f o = Raise ValueError).
  { intros b o U V.
    assert (V' : ovalues (fst (copy s f)) (length (mem (fst (copy s f)) (buf f))) o = None).
    { rewrite copied by lia. rewrite (ovalues_ext s); auto. intros b' Hb. apply copied. lia. }
    assert (P : forall g, inplace u2 g (fst (copy s f)) (snd (copy s f)) o = Raise ValueError).
    { intros g. unfold inplace. change (buf (snd (copy s f))) with (next s). rewrite copied_new.
      rewrite (ovalues_ext s) by (auto; intros b' Hb; apply copied; lia). now rewrite V. }
    destruct b; cbn [operator]; unfold op_radd, op_rmul, op_add, op_sub, op_mul, op_div, op_rsub, op_rdiv, op_pow; rewrite (surjective_pairing (copy s f)); try (now rewrite P); try (now rewrite V').
    rewrite (inplace_copy u2 Multiply s f (OScalar false minus_one) (repeat minus_one (length (mem s (buf f)))) F Logic.I eq_refl eq_refl).
    unfold inplace. change (buf (snd (copy s f))) with (next s). rewrite zip_repeat by reflexivity. set (k := map _ _).
    assert (N : mem (store (fst (copy s f)) (next s) k) (next s) = k) by (cbn; now rewrite Nat.eqb_refl). rewrite N.
    assert (Lk : length k = length (mem s (buf f))) by (unfold k; apply map_length). rewrite Lk.
    rewrite (ovalues_ext s) by (auto; intros b' Hb; cbn; destruct (Nat.eqb_spec b' (next s)); lia || reflexivity). now rewrite V. }
  split; [|split; [|split; [|split]]].
  - intros b c l H. apply A; [exact Logic.I|]. cbn. now apply Nat.eqb_neq in H as ->.
  - intros b g G H. apply A; [exact G|]. cbn. now apply Nat.eqb_neq in H as ->.
  - intros c l H. cbn. now rewrite H, Nat.eqb_refl.
  - intros g H. cbn. now rewrite H, Nat.eqb_refl.
  - reflexivity.
Qed.
Print Assumptions C111_shapes.

(** abs, minus and == *)
Theorem C111_unary : forall (C : Type) (u1 : ufunc1 -> bool -> C -> C) re (s : state C) (f : fld), buf f < next s ->
  new_field s f (map (u1 Absolute (cplx f)) (mem s (buf f))) (op_abs u1 re s f) /\ new_field s f (map (u1 Negative (cplx f)) (mem s (buf f))) (op_neg u1 re s f).
Proof.
  intros C u1 re s f F. unfold op_abs, op_neg. rewrite (surjective_pairing (copy s f)). rewrite copied by lia. unfold assign. change (cplx (snd (copy s f))) with (cplx f).
  rewrite andb_negb_r. split; apply new_store.
Qed.
Print Assumptions C111_unary.
Theorem C111_equal : forall (C : Type) (eqb : C -> C -> bool), (forall x y, eqb x y = true <-> x = y) -> forall (s : state C) (f g : fld),
  (length (mem s (buf f)) = length (mem s (buf g)) -> exists l, op_eq eqb s f (OField g) = Some l /\ (forallb (fun b => b) l = true <-> mem s (buf f) = mem s (buf g))) /\
  (length (mem s (buf f)) <> length (mem s (buf g)) -> op_eq eqb s f (OField g) = None).
Proof.
  intros C eqb E s f g. unfold op_eq. cbn [ovalues]. destruct (Nat.eqb_spec (length (mem s (buf g))) (length (mem s (buf f)))) as [L|L]; split; intros H; try congruence; [|reflexivity].
  eexists. split; [reflexivity|]. clear L. revert H. generalize (mem s (buf f)) (mem s (buf g)). intros a. induction a as [|x a IH]; intros [|y b] H; cbn in H; try lia; [cbn; tauto|].
  cbn. rewrite andb_true_iff, E, IH by lia. split; [intros (-> & ->); reflexivity|intros X; injection X; auto].
Qed.
Print Assumptions C111_equal.

(** A complex operand next to a real field: +, -, * and field / operand raise TypeError; operand / field and field ** operand
    return a real field with the real parts. *)
Theorem C111_complex_operand : forall (C : Type) u2 re minus_one (s : state C) (f : fld) (o : operand C) (l : list C),
  buf f < next s -> in_use s o -> ocplx o = true -> cplx f = false -> ovalues s (length (mem s (buf f))) o = Some l ->
  (forall b, b <> BRdiv -> b <> BPow -> operator u2 re minus_one b s f o = Raise TypeError) /\
  (forall b, b = BRdiv \/ b = BPow -> exists res, operator u2 re minus_one b s f o = Ret res /\ new_field s f (map re (zip (meaning u2 b true) (mem s (buf f)) l)) res).
Proof.
  intros C u2 re minus_one s f o l F U K Kf V.
  assert (V' : ovalues (fst (copy s f)) (length (mem (fst (copy s f)) (buf f))) o = Some l).
  { rewrite copied by lia. rewrite (ovalues_ext s); auto. intros b' Hb. apply copied. lia. }
  assert (P : forall g, inplace u2 g (fst (copy s f)) (snd (copy s f)) o = Raise TypeError).
  { intros g. unfold inplace. change (buf (snd (copy s f))) with (next s). change (cplx (snd (copy s f))) with (cplx f). rewrite copied_new.
    rewrite (ovalues_ext s) by (auto; intros b' Hb; apply copied; lia). now rewrite V, K, Kf. }
  split.
  - intros b N1 N2. destruct b; try congruence; cbn [operator]; unfold op_radd, op_rmul, op_add, op_sub, op_mul, op_div, op_rsub; rewrite (surjective_pairing (copy s f)); try (now rewrite P).
    rewrite (inplace_copy u2 Multiply s f (OScalar false minus_one) (repeat minus_one (length (mem s (buf f)))) F Logic.I eq_refl eq_refl).
    unfold inplace. change (buf (snd (copy s f))) with (next s). change (cplx (snd (copy s f))) with (cplx f).
    rewrite zip_repeat by reflexivity. set (k := map _ _).
    assert (N : mem (store (fst (copy s f)) (next s) k) (next s) = k) by (cbn; now rewrite Nat.eqb_refl). rewrite N.
    assert (Lk : length k = length (mem s (buf f))) by (unfold k; apply map_length). rewrite Lk.
    rewrite (ovalues_ext s) by (auto; intros b' Hb; cbn; destruct (Nat.eqb_spec b' (next s)); lia || reflexivity). now rewrite V, K, Kf.
  - intros b [->| ->]; cbn [operator meaning]; unfold op_rdiv, op_pow; rewrite (surjective_pairing (copy s f)), V', K, Kf; cbn [orb]; (eexists; split; [reflexivity|]);
      unfold assign; change (cplx (snd (copy s f))) with (cplx f); rewrite Kf; cbn [andb negb]; rewrite copied by lia; [rewrite zip_swap|]; apply new_store.
Qed.
Print Assumptions C111_complex_operand.

(** ** Pairs of integers as complex numbers (the division is only used by 1 and i) *)
Definition gauss_mul (x y : Z * Z) : Z * Z := ((fst x * fst y - snd x * snd y)%Z, (fst x * snd y + snd x * fst y)%Z).
Definition gauss2 (g : ufunc2) (c : bool) (x y : Z * Z) : Z * Z :=
  match g with
  | Add => ((fst x + fst y)%Z, (snd x + snd y)%Z)
  | Subtract => ((fst x - fst y)%Z, (snd x - snd y)%Z)
  | Multiply => gauss_mul x y
  | Divide => gauss_mul x (fst y, (- snd y)%Z)
  | Power => gauss_mul x x
  end.
Lemma gauss_laws : laws gauss2 ((-1)%Z, 0%Z).
Proof. unfold laws, gauss2, gauss_mul. repeat split; intros; cbn [fst snd]; f_equal; ring. Qed.
(** 1j / field is not the quotient: it is lost that it is imaginary *)
Theorem C111_imaginary_refuted : exists (s : state (Z * Z)) (f : fld) (res : state (Z * Z) * fld),
  operator gauss2 (fun x => (fst x, 0%Z)) ((-1)%Z, 0%Z) BRdiv s f (OScalar true (0%Z, 1%Z)) = Ret res /\ mem s (buf f) = [(1%Z, 0%Z)] /\ mem (fst res) (buf (snd res)) <> [(0%Z, 1%Z)].
Proof.
  exists (State (fun _ => [(1%Z, 0%Z)]) 1), (Fld 0 false). eexists. split; [reflexivity|]. split; [reflexivity|]. cbn. intros H. discriminate H.
Qed.
Print Assumptions C111_imaginary_refuted.

Example C111_case : exists res,
  operator gauss2 (fun x => (fst x, 0%Z)) ((-1)%Z, 0%Z) BRsub (State (fun b => [(Z.of_nat b, 0%Z); (5%Z, 0%Z)]) 2) (Fld 1 true) (OScalar true (7%Z, 2%Z)) = Ret res /\
  mem (fst res) (buf (snd res)) = [(6%Z, 2%Z); (2%Z, 2%Z)] /\ mem (fst res) 1 = [(1%Z, 0%Z); (5%Z, 0%Z)].
Proof. eexists. split; [reflexivity|]. split; reflexivity. Qed.
