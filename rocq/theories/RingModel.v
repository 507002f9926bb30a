(** Exact numbers for the field values: an arbitrary commutative ring stands for
    the real numbers, pairs of its elements for the complex numbers.  Every
    statement about field values therefore holds for the reals (FourierReal.v),
    the rationals and the integers alike; rounding is not modelled. *)
From Coq Require Import List ZArith Lia Ring InitialRing Permutation Bool.
From Verif Require Import Base ListFacts.
Import ListNotations.

Record cring := mkRing {
  rt :> Type;
  r0 : rt; r1 : rt;
  radd : rt -> rt -> rt; rmul : rt -> rt -> rt; rsub : rt -> rt -> rt; ropp : rt -> rt;
  rth : ring_theory r0 r1 radd rmul rsub ropp (@eq rt)
}.
Arguments r0 {c}. Arguments r1 {c}.
Arguments radd {c} _ _. Arguments rmul {c} _ _. Arguments rsub {c} _ _. Arguments ropp {c} _.

Declare Scope rg_scope.
Delimit Scope rg_scope with rg.
Notation "0" := r0 : rg_scope.
Notation "1" := r1 : rg_scope.
Infix "+" := radd : rg_scope.
Infix "*" := rmul : rg_scope.
Infix "-" := rsub : rg_scope.
Notation "- x" := (ropp x) : rg_scope.

Definition Zring : cring := mkRing Z 0%Z 1%Z Z.add Z.mul Z.sub Z.opp (Zth).

(** ** finite sums *)
Section Sums.
Variable K : cring.
Add Ring Kring : (rth K).
Local Open Scope rg_scope.

Definition rsum {A} (f : A -> K) (l : list A) : K := fold_right (fun a s => f a + s) 0 l.

Lemma rsum_cons {A} (f : A -> K) a l : rsum f (a :: l) = f a + rsum f l.
Proof. reflexivity. Qed.
Lemma rsum_ext_in {A} (f g : A -> K) l : (forall a, In a l -> f a = g a) -> rsum f l = rsum g l.
Proof.
  induction l as [|a l IH]; intros H; [reflexivity|].
  rewrite !rsum_cons, (H a (or_introl eq_refl)), IH; [reflexivity|].
  intros b Hb. apply H. right. exact Hb.
Qed.
Lemma rsum_ext {A} (f g : A -> K) l : (forall a, f a = g a) -> rsum f l = rsum g l.
Proof. intros H. apply rsum_ext_in. intros a _. apply H. Qed.
Lemma rsum_app {A} (f : A -> K) l m : rsum f (l ++ m) = rsum f l + rsum f m.
Proof.
  induction l as [|a l IH]; cbn [app]; [cbn; ring|].
  rewrite !rsum_cons, IH. ring.
Qed.
Lemma rsum_zero {A} (f : A -> K) l : (forall a, In a l -> f a = 0) -> rsum f l = 0.
Proof.
  induction l as [|a l IH]; intros H; [reflexivity|].
  rewrite rsum_cons, (H a (or_introl eq_refl)), IH; [ring|].
  intros b Hb. apply H. right. exact Hb.
Qed.
Lemma rsum_plus {A} (f g : A -> K) l : rsum (fun a => f a + g a) l = rsum f l + rsum g l.
Proof. induction l as [|a l IH]; [cbn; ring|]. rewrite !rsum_cons, IH. ring. Qed.
Lemma rsum_opp {A} (f : A -> K) l : rsum (fun a => - f a) l = - rsum f l.
Proof. induction l as [|a l IH]; [cbn; ring|]. rewrite !rsum_cons, IH. ring. Qed.
Lemma rsum_scale {A} c (f : A -> K) l : rsum (fun a => c * f a) l = c * rsum f l.
Proof. induction l as [|a l IH]; [cbn; ring|]. rewrite !rsum_cons, IH. ring. Qed.
Lemma rsum_scale_r {A} c (f : A -> K) l : rsum (fun a => f a * c) l = rsum f l * c.
Proof. induction l as [|a l IH]; [cbn; ring|]. rewrite !rsum_cons, IH. ring. Qed.
Lemma rsum_map {A B} (g : A -> B) (f : B -> K) l : rsum f (map g l) = rsum (fun a => f (g a)) l.
Proof. induction l as [|a l IH]; [reflexivity|]. cbn [map]. rewrite !rsum_cons, IH. reflexivity. Qed.
Lemma rsum_flat_map {A B} (g : A -> list B) (f : B -> K) l :
  rsum f (flat_map g l) = rsum (fun a => rsum f (g a)) l.
Proof.
  induction l as [|a l IH]; [reflexivity|]. cbn [flat_map].
  rewrite rsum_app, rsum_cons, IH. reflexivity.
Qed.
Lemma rsum_perm {A} (f : A -> K) l m : Permutation l m -> rsum f l = rsum f m.
Proof.
  intros H. induction H; rewrite ?rsum_cons; [reflexivity|congruence|ring|congruence].
Qed.
Lemma rsum_swap {A B} (f : A -> B -> K) l m :
  rsum (fun a => rsum (fun b => f a b) m) l = rsum (fun b => rsum (fun a => f a b) l) m.
Proof.
  induction l as [|a l IH].
  - cbn. symmetry. apply rsum_zero. reflexivity.
  - rewrite rsum_cons, IH, <- rsum_plus. reflexivity.
Qed.
Lemma rsum_filter {A} (p : A -> bool) (f : A -> K) l :
  rsum f (filter p l) = rsum (fun a => if p a then f a else 0) l.
Proof.
  induction l as [|a l IH]; [reflexivity|]. cbn [filter]. rewrite rsum_cons.
  destruct (p a); [rewrite rsum_cons, IH; reflexivity|rewrite IH; ring].
Qed.
Lemma rsum_split {A} (p : A -> bool) (f : A -> K) l :
  rsum f l = rsum f (filter p l) + rsum f (filter (fun a => negb (p a)) l).
Proof.
  rewrite !rsum_filter, <- rsum_plus. apply rsum_ext. intros a. destruct (p a); cbn; ring.
Qed.
(** exactly one term of a duplicate-free list is non-zero *)
Lemma rsum_single {A} (dec : forall x y : A, {x = y} + {x <> y}) (f : A -> K) l a :
  NoDup l -> In a l -> (forall b, In b l -> b <> a -> f b = 0) -> rsum f l = f a.
Proof.
  induction 1 as [|b l Hb Hl IH]; intros Ha H; [destruct Ha|]. rewrite rsum_cons.
  destruct (dec b a) as [->|E].
  - rewrite rsum_zero; [ring|]. intros c Hc. apply H; [now right|]. intros ->. contradiction.
  - destruct Ha as [->|Ha]; [contradiction|]. rewrite IH; [|assumption|intros c Hc Hn; apply H; [now right|assumption]].
    rewrite (H b (or_introl eq_refl) E). ring.
Qed.
(** reindexing a sum along an involution of the index set *)
Lemma rsum_involution {A} (dec : forall x y : A, {x = y} + {x <> y}) (s : A -> A) (f : A -> K) l :
  NoDup l -> (forall a, In a l -> In (s a) l) -> (forall a, In a l -> s (s a) = a) ->
  rsum f l = rsum (fun a => f (s a)) l.
Proof.
  intros N I S. rewrite <- (rsum_map s f l). apply rsum_perm, NoDup_Permutation; [assumption| |].
  - clear f. assert (J : forall a b, In a l -> In b l -> s a = s b -> a = b)
      by (intros a b Ha Hb E; rewrite <- (S a Ha), E; apply S; assumption).
    clear I S. induction N as [|a l Ha Hl IH]; [constructor|]. cbn [map]. constructor.
    + intros H. apply in_map_iff in H. destruct H as (b & E & Hb). apply Ha.
      rewrite (J a b); [assumption|now left|now right|now symmetry].
    + apply IH. intros x y Hx Hy. apply J; now right.
  - intros x. rewrite in_map_iff. split.
    + intros Hx. exists (s x). split; [apply S; assumption|apply I; assumption].
    + intros (y & <- & Hy). apply I, Hy.
Qed.
End Sums.
Arguments rsum {K A} f l.

(** ** complex numbers *)
Section Complex.
Variable K : cring.
Add Ring Kring2 : (rth K).
Local Open Scope rg_scope.
Definition cpx : Type := (K * K)%type.
Definition re (z : cpx) : K := fst z.
Definition im (z : cpx) : K := snd z.
Definition c0 : cpx := (0, 0).
Definition c1 : cpx := (1, 0).
Definition cadd (z w : cpx) : cpx := (re z + re w, im z + im w).
Definition cmul (z w : cpx) : cpx := (re z * re w - im z * im w, re z * im w + im z * re w).
Definition copp (z : cpx) : cpx := (- re z, - im z).
Definition csub (z w : cpx) : cpx := (re z - re w, im z - im w).
Definition cconj (z : cpx) : cpx := (re z, - im z).
Definition creal (z : cpx) : cpx := (re z, 0).
(** the embedding of the reals *)
Definition cof (a : K) : cpx := (a, 0).

Lemma cpx_ring : ring_theory c0 c1 cadd cmul csub copp (@eq cpx).
Proof.
  constructor; intros; repeat match goal with z : cpx |- _ => destruct z as [? ?] end;
  unfold c0, c1, cadd, cmul, csub, copp, re, im; cbn [fst snd]; f_equal; ring.
Qed.
Definition cpx_cring : cring := mkRing cpx c0 c1 cadd cmul csub copp cpx_ring.

Lemma cconj_involutive z : cconj (cconj z) = z.
Proof. destruct z. unfold cconj, re, im. cbn. f_equal; ring. Qed.
Lemma cconj_add z w : cconj (cadd z w) = cadd (cconj z) (cconj w).
Proof. destruct z, w. unfold cconj, cadd, re, im. cbn. f_equal; ring. Qed.
Lemma cconj_mul z w : cconj (cmul z w) = cmul (cconj z) (cconj w).
Proof. destruct z, w. unfold cconj, cmul, re, im. cbn. f_equal; ring. Qed.
Lemma cconj_real z : cconj (creal z) = creal z.
Proof. unfold cconj, creal, re, im. cbn. f_equal; ring. Qed.
Lemma cconj_0 : cconj c0 = c0.
Proof. unfold cconj, c0, re, im. cbn. f_equal; ring. Qed.
Lemma cconj_of a : cconj (cof a) = cof a.
Proof. unfold cconj, cof, re, im. cbn. f_equal; ring. Qed.
Lemma re_rsum {A} (f : A -> cpx_cring) l : re (rsum f l) = rsum (fun a => re (f a)) l.
Proof. induction l as [|a l IH]; [reflexivity|]. rewrite !rsum_cons, <- IH. reflexivity. Qed.
Lemma im_rsum {A} (f : A -> cpx_cring) l : im (rsum f l) = rsum (fun a => im (f a)) l.
Proof. induction l as [|a l IH]; [reflexivity|]. rewrite !rsum_cons, <- IH. reflexivity. Qed.
Lemma cconj_rsum {A} (f : A -> cpx_cring) l : cconj (rsum f l) = rsum (fun a => cconj (f a) : cpx_cring) l.
Proof. induction l as [|a l IH]; [apply cconj_0|]. rewrite !rsum_cons, <- IH. apply cconj_add. Qed.
End Complex.
Arguments re {K} z. Arguments im {K} z. Arguments c0 {K}. Arguments c1 {K}.
Arguments cadd {K} z w. Arguments cmul {K} z w. Arguments copp {K} z. Arguments csub {K} z w.
Arguments cconj {K} z. Arguments creal {K} z. Arguments cof {K} a.
