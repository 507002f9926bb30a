(** Finite sums and products of rationals. *)
From Coq Require Import List ZArith QArith Qabs Lia Lqa Permutation Setoid Morphisms.
From Verif Require Import ListFacts WrapModel WrapProofs.
Import ListNotations.
Local Open Scope Q_scope.

Definition qsum {A} (f : A -> Q) (l : list A) : Q := fold_right (fun a s => f a + s) 0 l.
Fixpoint qprod (l : list Q) : Q := match l with [] => 1 | x :: r => x * qprod r end.

Lemma qsum_nil {A} (f : A -> Q) : qsum f [] = 0.
Proof. reflexivity. Qed.
Lemma qsum_cons {A} (f : A -> Q) a l : qsum f (a :: l) = f a + qsum f l.
Proof. reflexivity. Qed.

Lemma qsum_ext_in {A} (f g : A -> Q) l : (forall a, In a l -> f a == g a) -> qsum f l == qsum g l.
Proof.
  induction l as [|a l IH]; intros H; [reflexivity|].
  rewrite !qsum_cons, (H a (or_introl eq_refl)), IH; [reflexivity|].
  intros b Hb. apply H. right. exact Hb.
Qed.
Lemma qsum_ext {A} (f g : A -> Q) l : (forall a, f a == g a) -> qsum f l == qsum g l.
Proof. intros H. apply qsum_ext_in. intros a _. apply H. Qed.

Lemma qsum_app {A} (f : A -> Q) l m : qsum f (l ++ m) == qsum f l + qsum f m.
Proof.
  induction l as [|a l IH]; cbn [app]; [rewrite qsum_nil; ring|].
  rewrite !qsum_cons, IH. ring.
Qed.
Lemma qsum_zero {A} (f : A -> Q) l : (forall a, In a l -> f a == 0) -> qsum f l == 0.
Proof.
  induction l as [|a l IH]; intros H; [reflexivity|].
  rewrite qsum_cons, (H a (or_introl eq_refl)), IH; [ring|].
  intros b Hb. apply H. right. exact Hb.
Qed.
Lemma qsum_plus {A} (f g : A -> Q) l : qsum (fun a => f a + g a) l == qsum f l + qsum g l.
Proof. induction l as [|a l IH]; [reflexivity|]. rewrite !qsum_cons, IH. ring. Qed.
Lemma qsum_minus {A} (f g : A -> Q) l : qsum (fun a => f a - g a) l == qsum f l - qsum g l.
Proof. induction l as [|a l IH]; [reflexivity|]. rewrite !qsum_cons, IH. ring. Qed.
Lemma qsum_scale {A} c (f : A -> Q) l : qsum (fun a => c * f a) l == c * qsum f l.
Proof. induction l as [|a l IH]; [cbn; ring|]. rewrite !qsum_cons, IH. ring. Qed.
Lemma qsum_scale_r {A} c (f : A -> Q) l : qsum (fun a => f a * c) l == qsum f l * c.
Proof. induction l as [|a l IH]; [cbn; ring|]. rewrite !qsum_cons, IH. ring. Qed.
Lemma qsum_map {A B} (g : A -> B) (f : B -> Q) l : qsum f (map g l) = qsum (fun a => f (g a)) l.
Proof. induction l as [|a l IH]; [reflexivity|]. cbn [map]. rewrite !qsum_cons, IH. reflexivity. Qed.
Lemma qsum_flat_map {A B} (g : A -> list B) (f : B -> Q) l :
  qsum f (flat_map g l) == qsum (fun a => qsum f (g a)) l.
Proof.
  induction l as [|a l IH]; [reflexivity|]. cbn [flat_map].
  rewrite qsum_app, qsum_cons, IH. reflexivity.
Qed.
Lemma qsum_perm {A} (f : A -> Q) l m : Permutation l m -> qsum f l == qsum f m.
Proof.
  intros H. induction H; rewrite ?qsum_cons.
  - reflexivity.
  - rewrite IHPermutation. reflexivity.
  - ring.
  - etransitivity; eassumption.
Qed.
Lemma qsum_swap {A B} (f : A -> B -> Q) l m :
  qsum (fun a => qsum (fun b => f a b) m) l == qsum (fun b => qsum (fun a => f a b) l) m.
Proof.
  induction l as [|a l IH].
  - cbn [qsum fold_right]. symmetry. apply qsum_zero. reflexivity.
  - rewrite qsum_cons, IH, <- qsum_plus. apply qsum_ext. intros b. rewrite qsum_cons. reflexivity.
Qed.
Lemma qsum_const {A} c (l : list A) : qsum (fun _ => c) l == inject_Z (Z.of_nat (length l)) * c.
Proof.
  induction l as [|a l IH]; [cbn; ring|].
  rewrite qsum_cons, IH. cbn [length]. rewrite Nat2Z.inj_succ, <- Z.add_1_r, inject_Z_plus. ring.
Qed.
Lemma qsum_le {A} (f g : A -> Q) l : (forall a, In a l -> f a <= g a) -> qsum f l <= qsum g l.
Proof.
  induction l as [|a l IH]; intros H; [cbn; lra|].
  rewrite !qsum_cons. pose proof (H a (or_introl eq_refl)) as H1.
  assert (qsum f l <= qsum g l) by (apply IH; intros b Hb; apply H; right; exact Hb). lra.
Qed.
Lemma qsum_nonneg {A} (f : A -> Q) l : (forall a, In a l -> 0 <= f a) -> 0 <= qsum f l.
Proof.
  intros H. rewrite <- (qsum_zero (fun _ : A => 0) l) by (intros; reflexivity). apply qsum_le, H.
Qed.
Lemma qsum_Qabs {A} (f : A -> Q) l : Qabs (qsum f l) <= qsum (fun a => Qabs (f a)) l.
Proof.
  induction l as [|a l IH]; [cbn; lra|].
  rewrite !qsum_cons. eapply Qle_trans; [apply Qabs_triangle|]. lra.
Qed.
Lemma qsum_filter {A} (p : A -> bool) (f : A -> Q) l :
  qsum f (filter p l) == qsum (fun a => if p a then f a else 0) l.
Proof.
  induction l as [|a l IH]; [reflexivity|]. cbn [filter]. rewrite qsum_cons.
  destruct (p a); [rewrite qsum_cons, IH; reflexivity|rewrite IH; ring].
Qed.

(** the only non-zero term *)
Lemma qsum_single {A} (f : A -> Q) l a : NoDup l -> In a l ->
  (forall b, In b l -> b <> a -> f b == 0) -> qsum f l == f a.
Proof.
  induction l as [|x l IH]; intros Hn Hi H; [contradiction|].
  rewrite qsum_cons. inversion Hn as [|? ? Hx Hl]; subst.
  destruct Hi as [<-|Hi].
  - rewrite qsum_zero; [ring|]. intros b Hb. apply H; [right; exact Hb|]. intros ->. contradiction.
  - rewrite IH; [|exact Hl|exact Hi|].
    + rewrite (H x (or_introl eq_refl)); [ring|]. intros ->. contradiction.
    + intros b Hb. apply H. right. exact Hb.
Qed.

(** sums over a list without repetitions only depend on the terms that are not zero *)
Lemma qsum_support {A} (f : A -> Q) l m : (forall a b : A, {a = b} + {a <> b}) -> NoDup l -> NoDup m ->
  (forall a, ~ (f a == 0) -> (In a l <-> In a m)) -> qsum f l == qsum f m.
Proof.
  intros dec Hl Hm H.
  assert (Hf : forall k : list A, qsum f k == qsum f (filter (fun a => negb (Qeq_bool (f a) 0)) k)).
  { intros k. rewrite qsum_filter. apply qsum_ext. intros a.
    destruct (Qeq_bool (f a) 0) eqn:E; cbn; [|reflexivity]. apply Qeq_bool_eq. exact E. }
  rewrite (Hf l), (Hf m). apply qsum_perm, NoDup_Permutation.
  - apply NoDup_filter, Hl.
  - apply NoDup_filter, Hm.
  - intros a. rewrite !filter_In. destruct (Qeq_bool (f a) 0) eqn:E; cbn.
    + split; intros [_ ?]; discriminate.
    + apply Qeq_bool_neq in E. rewrite (H a E). reflexivity.
Qed.

Lemma qprod_app l m : qprod (l ++ m) == qprod l * qprod m.
Proof. induction l as [|x l IH]; cbn; [ring|]. rewrite IH. ring. Qed.
Lemma qprod_ext l m : Forall2 Qeq l m -> qprod l == qprod m.
Proof. induction 1 as [|x y l m H _ IH]; cbn; [reflexivity|]. rewrite H, IH. reflexivity. Qed.
Lemma qprod_ones l : Forall (fun x => x == 1) l -> qprod l == 1.
Proof. induction 1 as [|x l H _ IH]; cbn; [reflexivity|]. rewrite H, IH. reflexivity. Qed.
Lemma qprod_zero l x : In x l -> x == 0 -> qprod l == 0.
Proof.
  induction l as [|y l IH]; intros Hi Hx; [contradiction|]. cbn. destruct Hi as [<-|Hi].
  - rewrite Hx. ring.
  - rewrite IH by assumption. ring.
Qed.
Lemma qprod_unit l : Forall (fun x => 0 <= x <= 1) l -> 0 <= qprod l <= 1.
Proof.
  induction 1 as [|x l [H0 H1] _ [I0 I1]]; cbn; [split; lra|]. split.
  - apply Qmult_le_0_compat; assumption.
  - setoid_replace 1 with (1 * 1) by ring. apply Qmult_le_compat_nonneg; split; assumption.
Qed.

Lemma Forall2_len {A B} (R : A -> B -> Prop) l m : Forall2 R l m -> length l = length m.
Proof. induction 1; cbn; congruence. Qed.
Lemma nth_error_zrange lo n i : (i < n)%nat -> nth_error (zrange lo n) i = Some (lo + Z.of_nat i)%Z.
Proof.
  intros Hi. rewrite (nth_error_nth' _ 0%Z) by (rewrite zrange_length; exact Hi).
  rewrite nth_zrange by exact Hi. reflexivity.
Qed.
