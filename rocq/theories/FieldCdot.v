(** Property C100: what the inner products of fields accept (pmesh/pm.py:210-215, 897-902, 945-974), on
    the memory of BufferModel.v, for fields of the same mesh, fields of other meshes, arrays, numbers
    and anything else.  Arrays with more axes than the field are left out: UfuncModel.to_output refuses
    them, numpy takes those that have ones in front. *)
From Coq Require Import List Arith ZArith QArith Lia Bool Permutation Ring Qcanon.
From Verif Require Import Base ListFacts LayoutModel WrapModel WrapProofs DomainModel DomainFill MeshModel MeshAssign
  MeshRoute MeshTile RingModel FieldModel FieldFacts FieldProperties FieldSort FieldResample FieldNorm FourierModel FourierFacts
  FourierProperties BufferModel BufferProofs BufferProperties UfuncModel UfuncProperties.
From Verif Require DomainHome.
Import ListNotations.
Local Close Scope Qc_scope.
Local Close Scope Q_scope.
Local Open Scope Z_scope.

Section Cdot.
Variable K : cring.
Add Ring Kr14 : (rth K).
Local Notation C := (cpx K).

(** pm.comm.allreduce: the sum of what the ranks bring; if some rank has raised, the others wait *)
Definition allreduce (R : cring) (l : list (outcome R)) : list (outcome R) :=
  match all_ret l with
  | Some xs => map (fun _ => Ret (rsum (K := R) (fun x => x) xs)) l
  | None => block_rest l
  end.

(** pm.py:210-215.  The shape of something that is not a Field is compared to that of the field with ==,
    which gives a bool for two tuples; all() of a bool raises TypeError. *)
Definition check_compatible (self : field K) (other : operand K) : outcome unit :=
  match other with
  | OpField _ f => if ftype_eqb (fl_type K f) (fl_type K self) then Ret tt else Raise TypeError
  | _ => Raise TypeError
  end.

Definition ranks_of (self : field K) : list nat := seq 0 (length (me_blocks K (fl_mesh K self) (fl_type K self))).
(** numpy.sum(self[...] * other[...]) on one rank *)
Definition real_dot_local (m : memory K) (self other : field K) (r : nat) : outcome K :=
  let (o1, s1) := block_of K self r in
  let (o2, s2) := block_of K other r in
  match broadcast s1 s2 with
  | None => Raise ValueError
  | Some s => Ret (rsum (fun i => rmul (real_at K m self (zadd o1 (bindex s1 i))) (real_at K m other (zadd o2 (bindex s2 i)))) (cells_of s))
  end.
(** pm.py:897-899 on all ranks *)
Definition RealField_cdot (m : memory K) (self : field K) (other : operand K) : list (outcome K) :=
  allreduce K (map (fun r => bind (check_compatible self other) (fun _ =>
    match other with OpField _ f => real_dot_local m self f r | _ => Garbage end)) (ranks_of self)).
(** pm.py:901-902 *)
Definition RealField_cnorm (m : memory K) (self : field K) : list (outcome K) := RealField_cdot m self (OpField K self).

(** pm.py:964: self.pm.create(type=type(self), value=other) on one rank *)
Definition created (m : memory K) (self : field K) (other : operand K) (r : nat) : outcome (lfield C) :=
  let b := block_of K self r in
  bind (operand_value K m r other) (fun a => bind (to_output K self r a) (fun v =>
    Ret (mkL (fst b) (snd b) (map (nd_val K v) (cells_of (snd b)))))).
(** pm.py:960-974 on all ranks *)
Definition ComplexField_cdot (units : list K) (metric : option (K -> K)) (m : memory K) (self : field K) (other : operand K) : list (outcome C) :=
  let me := fl_mesh K self in
  allreduce (cpx_cring K) (map (fun r =>
    bind (match other with OpField _ f => check_compatible self other | _ => Ret tt end) (fun _ =>
    bind (created m self other r) (fun M =>
    bind (compressed (me_nmesh K me) (me_cshape K me)) (fun comp =>
    Ret (cdot_local K comp (me_nmesh K me) units metric
           (on_block (complex_at K m self) (mkL (V := C) (fst (block_of K self r)) (snd (block_of K self r)) []), M)))))) (ranks_of self)).

(** ** Collective sums *)
Lemma allreduce_ret (R : cring) {A} (f : A -> R) l : allreduce R (map (fun r => Ret (f r)) l) = repeat (Ret (rsum (K := R) f l)) (length l).
Proof.
  unfold allreduce. rewrite DomainHome.all_ret_map, map_map.
  assert (E : rsum (K := R) (fun x => x) (map f l) = rsum (K := R) f l) by apply rsum_map.
  rewrite E. clear E. induction l as [|x l IH]; [reflexivity|]. cbn [map repeat length]. f_equal.
  generalize (rsum (K := R) f (x :: l)). clear. induction l as [|y l IH]; intros v; [reflexivity|]. cbn. now rewrite IH.
Qed.
Lemma allreduce_raise (R : cring) {A} (e : exn) (l : list A) : allreduce R (map (fun _ => Raise e) l) = repeat (Raise e) (length l).
Proof.
  destruct l as [|x l]; [reflexivity|]. unfold allreduce. cbn [map]. unfold all_ret. cbn [map sequence].
  unfold block_rest. cbn [map length repeat]. f_equal. induction l as [|y l IH]; [reflexivity|]. cbn. now rewrite IH.
Qed.
Lemma all_ret_none {A} (l : list (outcome A)) : (exists x, In x l /\ forall a, x <> Ret a) -> all_ret l = None.
Proof.
  intros (x & Hx & E). unfold all_ret. induction l as [|y l IH]; [contradiction|]. cbn [map sequence].
  destruct Hx as [->|Hx].
  - destruct x; [now destruct (E a)|reflexivity..].
  - rewrite IH by exact Hx. destruct y; reflexivity.
Qed.

(** ** Shapes *)
(** numpy combines arrays of the shapes [a] and [b] *)
Definition fits (a b : list Z) : Prop := forall j, let x := nth j (rev a) 1 in let y := nth j (rev b) 1 in x = y \/ x = 1 \/ y = 1.
(** numpy writes an array of the shape [a] into one of the shape [s] *)
Definition goes_into (a s : list Z) : Prop := (length a <= length s)%nat /\ forall j, let x := nth j (rev a) 1 in let y := nth j (rev s) 1 in x = y \/ x = 1.
Lemma brev_fits a b : (exists s, brev a b = Some s) <-> (forall j, nth j a 1 = nth j b 1 \/ nth j a 1 = 1 \/ nth j b 1 = 1).
Proof.
  revert b. induction a as [|x a IH]; intros b.
  - split; [intros _ j; right; left; now destruct j|]. intros _. now exists b.
  - destruct b as [|y b].
    + split; [intros _ j; right; right; now destruct j|]. intros _. now exists (x :: a).
    + cbn [brev]. split.
      * intros (s & E). destruct (bdim x y) as [d|] eqn:Ed; [|discriminate]. destruct (brev a b) as [s'|] eqn:Es; [|discriminate].
        intros [|j].
        -- cbn. unfold bdim in Ed. destruct (Z.eqb_spec x y); [now left|]. destruct (Z.eqb_spec x 1); [now right; left|].
           destruct (Z.eqb_spec y 1); [now right; right|discriminate].
        -- cbn [nth]. apply (proj1 (IH b)). now exists s'.
      * intros H. destruct (proj2 (IH b) (fun j => H (S j))) as (s' & Es). rewrite Es.
        specialize (H 0%nat). cbn in H. unfold bdim. destruct (Z.eqb_spec x y); [eexists; reflexivity|].
        destruct (Z.eqb_spec x 1); [eexists; reflexivity|]. destruct (Z.eqb_spec y 1); [eexists; reflexivity|]. tauto.
Qed.
Lemma broadcast_fits a b : fits a b <-> exists s, broadcast a b = Some s.
Proof.
  unfold fits, broadcast. rewrite <- brev_fits. split.
  - intros (s & ->). eexists. reflexivity.
  - intros (s & E). destruct (brev (rev a) (rev b)); [now eexists|discriminate].
Qed.
Lemma brev_into a s : brev a s = Some s <-> ((length a <= length s)%nat /\ forall j, nth j a 1 = nth j s 1 \/ nth j a 1 = 1).
Proof.
  revert s. induction a as [|x a IH]; intros s.
  - split; [|reflexivity]. intros _. split; [cbn; lia|]. intros j. right. now destruct j.
  - destruct s as [|y s].
    + split; [discriminate|]. cbn. lia.
    + cbn [brev]. split.
      * intros E. destruct (bdim x y) as [d|] eqn:Ed; [|discriminate]. destruct (brev a s) as [s'|] eqn:Es; [|discriminate].
        injection E as -> ->. destruct (proj1 (IH s) Es) as [L H]. split; [cbn; lia|]. intros [|j]; [|apply H].
        cbn. unfold bdim in Ed. destruct (Z.eqb_spec x y); [now left|]. destruct (Z.eqb_spec x 1); [now right|].
        destruct (Z.eqb_spec y 1); [congruence|discriminate].
      * intros [L H]. rewrite (proj2 (IH s)) by (split; [cbn in L; lia|intros j; exact (H (S j))]).
        specialize (H 0%nat). cbn in H. unfold bdim. destruct (Z.eqb_spec x y) as [->|]; [reflexivity|].
        destruct (Z.eqb_spec x 1) as [->|]; [reflexivity|]. tauto.
Qed.
Lemma broadcast_into a s : goes_into a s <-> broadcast a s = Some s.
Proof.
  unfold goes_into, broadcast. rewrite <- (rev_length a), <- (rev_length s). split.
  - intros H. apply brev_into in H. rewrite H. cbn. now rewrite rev_involutive.
  - intros E. apply brev_into. destruct (brev (rev a) (rev s)) as [t|]; [|discriminate]. cbn in E. injection E as E.
    rewrite <- E. now rewrite rev_involutive.
Qed.
Lemma fits_dec a b : {fits a b} + {~ fits a b}.
Proof. destruct (broadcast a b) as [s|] eqn:E; [left; apply broadcast_fits; now exists s|right; intros H; apply broadcast_fits in H as (s & Hs); congruence]. Qed.
Lemma goes_into_dec a b : {goes_into a b} + {~ goes_into a b}.
Proof.
  destruct (broadcast a b) as [s|] eqn:E; [destruct (list_eq_dec Z.eq_dec s b) as [->|N]|].
  - left. now apply broadcast_into.
  - right. intros H. apply broadcast_into in H. congruence.
  - right. intros H. apply broadcast_into in H. congruence.
Qed.

(** ** The sum over all ranks, and what becomes of a disagreement *)
Lemma disagreement (R : cring) (P : nat -> Prop) (local : nat -> outcome R) n :
  (forall r, {P r} + {~ P r}) -> (forall r, P r -> exists v, local r = Ret v) -> (forall r, ~ P r -> local r = Raise ValueError) ->
  ((forall r, (r < n)%nat -> P r) -> exists v, allreduce R (map local (seq 0 n)) = repeat (Ret v) n) /\
  (forall r0, (r0 < n)%nat -> ~ P r0 -> forall r, (r < n)%nat ->
     (P r -> nth_error (allreduce R (map local (seq 0 n))) r = Some Blocked) /\
     (~ P r -> nth_error (allreduce R (map local (seq 0 n))) r = Some (Raise ValueError))).
Proof.
  intros D H1 H2. split.
  - intros HP. exists (rsum (K := R) (fun r => match local r with Ret v => v | _ => r0 end) (seq 0 n)).
    rewrite (map_ext_in local (fun r => Ret (match local r with Ret v => v | _ => r0 end))).
    + now rewrite allreduce_ret, seq_length.
    + intros r Hr. apply in_seq in Hr. destruct (H1 r (HP r ltac:(lia))) as (v & ->). reflexivity.
  - intros r0 Hr0 N0. unfold allreduce. rewrite all_ret_none.
    + intros r Hr. unfold block_rest. rewrite map_map.
      assert (E : nth_error (seq 0 n) r = Some r) by (rewrite (nth_error_nth' _ 0%nat) by (rewrite seq_length; lia); now rewrite seq_nth by lia).
      split; intros HP; rewrite (map_nth_error _ _ _ E).
      * destruct (H1 r HP) as (v & ->). reflexivity.
      * now rewrite H2.
    + exists (local r0). split; [apply in_map, in_seq; lia|]. intros a. rewrite H2 by exact N0. discriminate.
Qed.

(** ** RealField.cdot *)
Definition shape_of (f : field K) (r : nat) : list Z := snd (block_of K f r).
Definition nranks (f : field K) : nat := length (me_blocks K (fl_mesh K f) (fl_type K f)).
Lemma real_cdot_fields m self f : fl_type K self = RealT -> fl_type K f = RealT ->
  RealField_cdot m self (OpField K f) = allreduce K (map (real_dot_local m self f) (ranks_of self)).
Proof.
  intros E1 E2. unfold RealField_cdot. f_equal. apply map_ext. intros r. cbn [check_compatible]. rewrite E1, E2. reflexivity.
Qed.

(** Anything but a RealField is refused by all ranks, arrays of the right shape and numbers included. *)
Theorem C100_real_refuses : forall m self other, fl_type K self = RealT ->
  (forall f, other = OpField K f -> fl_type K f <> RealT) ->
  RealField_cdot m self other = repeat (Raise TypeError) (nranks self).
Proof.
  intros m self other Es H. unfold RealField_cdot.
  rewrite (map_ext _ (fun _ => Raise TypeError)).
  - rewrite allreduce_raise. unfold ranks_of. now rewrite seq_length.
  - intros r. unfold check_compatible. destruct other as [f| | |]; try reflexivity. rewrite Es.
    specialize (H f eq_refl). destruct (fl_type K f); [contradiction|reflexivity..].
Qed.

(** A RealField of any mesh on the same ranks: either the local shapes fit on all ranks and they all get the same
    number, or the ranks where they do not raise and all others wait for ever. *)
Theorem C100_real_shapes : forall m self f, fl_type K self = RealT -> fl_type K f = RealT ->
  let out := RealField_cdot m self (OpField K f) in
  ((forall r, (r < nranks self)%nat -> fits (shape_of self r) (shape_of f r)) -> exists v, out = repeat (Ret v) (nranks self)) /\
  (forall r0, (r0 < nranks self)%nat -> ~ fits (shape_of self r0) (shape_of f r0) -> forall r, (r < nranks self)%nat ->
     (fits (shape_of self r) (shape_of f r) -> nth_error out r = Some Blocked) /\
     (~ fits (shape_of self r) (shape_of f r) -> nth_error out r = Some (Raise ValueError))).
Proof.
  intros m self f E1 E2 out. unfold out. rewrite real_cdot_fields by assumption. unfold ranks_of. fold (nranks self).
  apply (disagreement K (fun r => fits (shape_of self r) (shape_of f r)) (real_dot_local m self f)).
  - intros r. apply fits_dec.
  - intros r H. apply broadcast_fits in H as (s & Hs). unfold shape_of in Hs. unfold real_dot_local.
    destruct (block_of K self r) as [o1 s1], (block_of K f r) as [o2 s2]. cbn [snd] in Hs. rewrite Hs. eexists. reflexivity.
  - intros r H. unfold shape_of in H. unfold real_dot_local.
    destruct (block_of K self r) as [o1 s1], (block_of K f r) as [o2 s2]. cbn [snd] in H.
    destruct (broadcast s1 s2) as [s|] eqn:E; [|reflexivity]. destruct H. apply broadcast_fits. now exists s.
Qed.

(** The order of the two fields does not matter, of whatever meshes on the same ranks they are. *)
Lemma brev_comm a b : brev a b = brev b a.
Proof.
  revert b. induction a as [|x a IH]; intros [|y b]; try reflexivity. cbn [brev]. rewrite (IH b).
  assert (E : bdim x y = bdim y x).
  { unfold bdim. rewrite (Z.eqb_sym y x). destruct (Z.eqb_spec x y) as [->|]; [reflexivity|].
    destruct (Z.eqb_spec x 1), (Z.eqb_spec y 1); try reflexivity. congruence. }
  now rewrite E.
Qed.
Theorem C100_real_symmetric : forall m self f, fl_type K self = RealT -> fl_type K f = RealT -> nranks self = nranks f ->
  RealField_cdot m self (OpField K f) = RealField_cdot m f (OpField K self).
Proof.
  intros m self f E1 E2 En. rewrite !real_cdot_fields by assumption. unfold ranks_of. fold (nranks self) (nranks f). rewrite En.
  f_equal. apply map_ext. intros r. unfold real_dot_local.
  destruct (block_of K self r) as [o1 s1], (block_of K f r) as [o2 s2].
  unfold broadcast. rewrite (brev_comm (rev s1) (rev s2)).
  destruct (option_map (@rev Z) (brev (rev s2) (rev s1))) as [s|]; [|reflexivity].
  f_equal. apply rsum_ext. intros i. ring.
Qed.

Section Mesh.
Variables (base : list Z) (n : Z) (me : mesh K).
Hypothesis G : good K base n me.
(** Two real fields of one mesh: the sum of the products over all cells, on every rank, however the cells are
    spread, and also if both share their memory. *)
Theorem C100_real : forall m b1 b2,
  RealField_cdot m (mkF K me RealT b1) (OpField K (mkF K me RealT b2)) =
  repeat (Ret (rsum (fun c => rmul (real_at K m (mkF K me RealT b1) c) (real_at K m (mkF K me RealT b2) c)) (cells_of (N base n))))
         (length (me_blocks K me RealT)).
Proof.
  intros m b1 b2. rewrite real_cdot_fields by reflexivity.
  set (f := fun c => rmul (real_at K m (mkF K me RealT b1) c) (real_at K m (mkF K me RealT b2) c)).
  rewrite (map_ext _ (fun r => Ret (rsum f (map (zadd (fst (nth r (me_blocks K me RealT) ([], [])))) (cells_of (snd (nth r (me_blocks K me RealT) ([], [])))))))).
  - rewrite allreduce_ret. unfold ranks_of. cbn [fl_mesh fl_type]. rewrite seq_length. f_equal. f_equal.
    rewrite <- (tiles_sum K (N base n) _ f (go_real _ _ _ _ G)). unfold on_blocks. rewrite rsum_map.
    assert (E : map (fun r => nth r (me_blocks K me RealT) ([], [])) (seq 0 (length (me_blocks K me RealT))) = me_blocks K me RealT).
    { pose proof (seq_blocks K me RealT (fun x => x)) as E. cbn beta in E. now rewrite map_id in E. }
    transitivity (rsum (fun a : list Z * list Z => rsum f (map (zadd (fst a)) (cells_of (snd a)))) (me_blocks K me RealT)); [|reflexivity]. etransitivity; [|exact (f_equal (rsum (fun a : list Z * list Z => rsum f (map (zadd (fst a)) (cells_of (snd a))))) E)]. rewrite rsum_map. apply rsum_ext_in. intros p _. reflexivity.
  - intros r. unfold real_dot_local, block_of. cbn [fl_mesh fl_type].
    destruct (nth r (me_blocks K me RealT) ([], [])) as [o s]. cbn [fst snd]. rewrite broadcast_same. f_equal. rewrite rsum_map.
    apply rsum_ext_in. intros i Hi. rewrite bindex_same by exact Hi. reflexivity.
Qed.
Theorem C100_cnorm : forall m b,
  RealField_cnorm m (mkF K me RealT b) =
  repeat (Ret (rsum (fun c => rmul (real_at K m (mkF K me RealT b) c) (real_at K m (mkF K me RealT b) c)) (cells_of (N base n))))
         (length (me_blocks K me RealT)).
Proof. intros m b. apply C100_real. Qed.
End Mesh.

(** ** BaseComplexField.cdot *)
(** Fields of another type are refused by all ranks. *)
Theorem C100_complex_refuses : forall units metric m self f, fl_type K f <> fl_type K self ->
  ComplexField_cdot units metric m self (OpField K f) = repeat (Raise TypeError) (nranks self).
Proof.
  intros units metric m self f H. unfold ComplexField_cdot.
  rewrite (map_ext _ (fun _ => Raise TypeError)).
  - rewrite allreduce_raise. unfold ranks_of. now rewrite seq_length.
  - intros r. cbn [check_compatible]. destruct (fl_type K f), (fl_type K self); try reflexivity; contradiction.
Qed.

(** the shape of the operand on one rank *)
Definition operand_shape (o : operand K) (r : nat) : list Z :=
  match o with
  | OpField _ f => shape_of f r
  | OpNumber _ _ _ => []
  | OpArray _ l => nd_shape K (nth r l (mkNd K RealK [] (fun _ => c0)))
  | OpOther _ => []
  end.
Definition acceptable (self : field K) (o : operand K) : Prop :=
  match o with OpField _ f => fl_type K f = fl_type K self | OpOther _ => False | _ => True end.
Lemma created_into m self o r : fl_type K self <> RealT -> acceptable self o ->
  (goes_into (operand_shape o r) (shape_of self r) -> exists M, created m self o r = Ret M) /\
  (~ goes_into (operand_shape o r) (shape_of self r) -> created m self o r = Raise ValueError).
Proof.
  intros Et A. unfold created.
  assert (EV : exists a, operand_value K m r o = Ret a /\ nd_shape K a = operand_shape o r) by (destruct o; [eexists; split; reflexivity..|destruct A]).
  destruct EV as (a & -> & <-). cbn [bind]. unfold to_output. fold (shape_of self r).
  assert (Ec : can_cast (nd_kind K a) (fl_type K self) = true) by (destruct (nd_kind K a), (fl_type K self); try reflexivity; contradiction).
  rewrite Ec. split.
  - intros H. apply broadcast_into in H. rewrite H. destruct (list_eq_dec Z.eq_dec (shape_of self r) (shape_of self r)); [|contradiction]. eexists. reflexivity.
  - intros H. destruct (broadcast (nd_shape K a) (shape_of self r)) as [s|] eqn:E; [|reflexivity].
    destruct (list_eq_dec Z.eq_dec s (shape_of self r)) as [->|]; [|reflexivity]. destruct H. now apply broadcast_into.
Qed.
(** Fields of the same type, of any mesh, arrays and numbers. *)
Theorem C100_complex_shapes : forall units metric m self o comp, fl_type K self <> RealT -> acceptable self o ->
  compressed (me_nmesh K (fl_mesh K self)) (me_cshape K (fl_mesh K self)) = Ret comp ->
  let out := ComplexField_cdot units metric m self o in
  ((forall r, (r < nranks self)%nat -> goes_into (operand_shape o r) (shape_of self r)) -> exists v, out = repeat (Ret v) (nranks self)) /\
  (forall r0, (r0 < nranks self)%nat -> ~ goes_into (operand_shape o r0) (shape_of self r0) -> forall r, (r < nranks self)%nat ->
     (goes_into (operand_shape o r) (shape_of self r) -> nth_error out r = Some Blocked) /\
     (~ goes_into (operand_shape o r) (shape_of self r) -> nth_error out r = Some (Raise ValueError))).
Proof.
  intros units metric m self o comp Et A EC out. unfold out, ComplexField_cdot.
  assert (Ek : (match o with OpField _ _ => check_compatible self o | _ => Ret tt end) = Ret tt).
  { destruct o; try reflexivity. cbn in A |- *. rewrite A. now destruct (fl_type K self). }
  rewrite Ek, EC. unfold ranks_of. fold (nranks self).
  apply (disagreement (cpx_cring K) (fun r => goes_into (operand_shape o r) (shape_of self r))).
  - intros r. apply goes_into_dec.
  - intros r H. cbn [bind]. destruct (proj1 (created_into m self o r Et A) H) as (M & ->). eexists. reflexivity.
  - intros r H. cbn [bind]. now rewrite (proj2 (created_into m self o r Et A) H).
Qed.

Section Complex.
Variables (base : list Z) (n : Z) (me : mesh K).
Hypothesis G : good K base n me.
Hypothesis base_pos : Forall (fun d => (0 < d)%Z) base.
Hypothesis (Hn : (0 < n)%Z) (Ev : Z.even n = true).
(** what stands for a field of the values [g]: a field of this mesh and type, a number, or on each rank an array
    of the shape of its part *)
Definition stands_for (m : memory K) (t : ftype) (o : operand K) (g : list Z -> C) : Prop :=
  match o with
  | OpField _ f => fl_mesh K f = me /\ fl_type K f = t /\ forall k, In k (cells_of (half base n)) -> complex_at K m f k = g k
  | OpNumber _ _ z => forall k, In k (cells_of (half base n)) -> g k = z
  | OpArray _ l => forall r, (r < length (me_blocks K me t))%nat -> exists a, nth_error l r = Some a /\
      nd_shape K a = snd (nth r (me_blocks K me t) ([], [])) /\
      forall i, In i (cells_of (nd_shape K a)) -> nd_val K a i = g (zadd (fst (nth r (me_blocks K me t) ([], []))) i)
  | OpOther _ => False
  end.
Lemma created_block m t b o g r : t <> RealT -> stands_for m t o g -> (r < length (me_blocks K me t))%nat ->
  created m (mkF K me t b) o r = Ret (on_block g (mkL (V := C) (fst (nth r (me_blocks K me t) ([], []))) (snd (nth r (me_blocks K me t) ([], []))) [])).
Proof.
  intros Et H Hr. unfold created, to_output, block_of. cbn [fl_mesh fl_type].
  assert (D : forall i, In i (cells_of (snd (nth r (me_blocks K me t) ([], [])))) -> In (zadd (fst (nth r (me_blocks K me t) ([], []))) i) (cells_of (half base n))).
  { intros i Hi. pose proof (block_in_domain K base n me G t r i Hr Hi) as B. destruct t; [contradiction|exact B..]. }
  assert (F : forall (v : list Z -> C), (forall i, In i (cells_of (snd (nth r (me_blocks K me t) ([], [])))) -> v i = g (zadd (fst (nth r (me_blocks K me t) ([], []))) i)) ->
    mkL (fst (nth r (me_blocks K me t) ([], []))) (snd (nth r (me_blocks K me t) ([], []))) (map v (cells_of (snd (nth r (me_blocks K me t) ([], []))))) =
    on_block g (mkL (V := C) (fst (nth r (me_blocks K me t) ([], []))) (snd (nth r (me_blocks K me t) ([], []))) [])).
  { intros v Hv. unfold on_block. cbn [lstart lshape]. f_equal. unfold lcells. cbn [lstart lshape]. rewrite map_map. apply map_ext_in. exact Hv. }
  destruct o as [f|k z|l|]; [| | |destruct H].
  - destruct f as [me' t' b']. destruct H as (E1 & E2 & H). cbn [fl_mesh fl_type] in E1, E2. subst me' t'.
    cbn [operand_value bind nd_kind nd_shape field_value fl_mesh fl_type]. unfold block_of. cbn [fl_mesh fl_type].
    assert (Ec : can_cast (type_kind t) t = true) by (destruct t; reflexivity). rewrite Ec.
    rewrite broadcast_same. destruct (list_eq_dec Z.eq_dec _ _) as [_|X]; [|now destruct X]. cbn [bind nd_val]. f_equal. apply F.
    intros i Hi. rewrite bindex_same by exact Hi. rewrite <- H by (apply D, Hi). unfold value_at. cbn [fl_type]. destruct t; [contradiction|reflexivity..].
  - cbn [operand_value bind nd_kind nd_shape].
    assert (Ec : can_cast k t = true) by (destruct k, t; try reflexivity; contradiction). rewrite Ec.
    rewrite broadcast_nil_l. destruct (list_eq_dec Z.eq_dec _ _) as [_|X]; [|now destruct X]. cbn [bind nd_val]. f_equal. apply F.
    intros i Hi. symmetry. apply H, D, Hi.
  - destruct (H r Hr) as (a & Ea & Es & Va). cbn [operand_value]. rewrite (nth_error_nth _ _ _ Ea). cbn [bind].
    assert (Ec : can_cast (nd_kind K a) t = true) by (destruct (nd_kind K a), t; try reflexivity; contradiction). rewrite Ec.
    rewrite Es, broadcast_same. destruct (list_eq_dec Z.eq_dec _ _) as [_|X]; [|now destruct X]. cbn [bind nd_val]. f_equal. apply F.
    intros i Hi. rewrite bindex_same by exact Hi. apply Va. now rewrite Es.
Qed.
(** A field, a number or arrays standing for [g]: the same number on all ranks, the one of C42; its real part is that
    of the inner product over all modes of the mesh. *)
Theorem C100_complex : forall units metric m t b f o g, evens K base metric -> t <> RealT -> stands_for m t o g ->
  (forall k, In k (cells_of (half base n)) -> complex_at K m (mkF K me t b) k = f k) ->
  exists v, ComplexField_cdot units metric m (mkF K me t b) o = repeat (Ret v) (length (me_blocks K me t)) /\
    re v = re (rsum (K := cpx_cring K) (fun k => cmul (cmul (full K (N base n) (half base n) f k) (cconj (full K (N base n) (half base n) g k)))
                                          (cof (weigh K metric (wave2 K units (N base n) k)))) (cells_of (N base n))).
Proof.
  intros units metric m t b f o g Em Et So Hf.
  set (self := mkF K me t b). set (bs := me_blocks K me t).
  set (Ls := on_blocks (complex_at K m self) bs). set (Ms := on_blocks g bs).
  assert (TL : tiles (half base n) Ls) by (eapply on_blocks_tiles, (go_complex _ _ _ _ G t Et)).
  assert (TM : tiles (half base n) Ms) by (eapply on_blocks_tiles, (go_complex _ _ _ _ G t Et)).
  destruct (C42_cdot K base n true base_pos Hn Ev Ls Ms f g units metric Em TL) as (v & E & R).
  - eapply holds_on_blocks; [exact TL|exact Hf].
  - exact TM.
  - apply on_blocks_holds.
  - apply on_blocks_starts.
  - apply on_blocks_shapes.
  - exists v. split; [|exact R].
    transitivity (map (fun _ : lfield C => Ret (A := C) v) Ls);
      [|unfold Ls, on_blocks; rewrite map_map; clear; induction bs as [|x l IH]; [reflexivity|]; cbn; now rewrite IH].
    rewrite <- E. unfold ComplexField_cdot, FieldModel.cdot. cbn [fl_mesh fl_type].
    change (fl_mesh K self) with me. unfold me_cshape. rewrite (go_nmesh _ _ _ _ G).
    assert (Eh : removelast (N base n) ++ [last (N base n) 0 / 2 + 1] = stored base n true).
    { unfold N, stored. now rewrite removelast_last, last_last. }
    rewrite Eh. change (N base n) with (nmesh base n). rewrite (compressed_stored base n true Hn Ev). cbn [bind].
    set (comp := if true then negb (n =? 2) else false).
    rewrite (map_ext_in _ (fun r => Ret (cdot_local K comp (nmesh base n) units metric
       (on_block (complex_at K m self) (mkL (V := C) (fst (nth r bs ([], []))) (snd (nth r bs ([], []))) []),
        on_block g (mkL (V := C) (fst (nth r bs ([], []))) (snd (nth r bs ([], []))) []))))).
    + rewrite allreduce_ret. unfold ranks_of. change (me_blocks K (fl_mesh K self) (fl_type K self)) with bs. rewrite seq_length.
      assert (ES : map (fun r => nth r bs ([], [])) (seq 0 (length bs)) = bs).
      { pose proof (seq_blocks K me t (fun x => x)) as X. cbn beta in X. now rewrite map_id in X. }
      assert (EQ : combine Ls Ms = map (fun r => (on_block (complex_at K m self) (mkL (V := C) (fst (nth r bs ([], []))) (snd (nth r bs ([], []))) []),
        on_block g (mkL (V := C) (fst (nth r bs ([], []))) (snd (nth r bs ([], []))) []))) (seq 0 (length bs))).
      { unfold Ls, Ms, on_blocks. rewrite combine_map_map. rewrite <- ES at 1. rewrite map_map. reflexivity. }
      rewrite EQ. rewrite rsum_map. unfold Ls, on_blocks. rewrite map_map.
      match goal with |- _ = map (fun _ => ?x) _ => generalize x end. intros x. clear. exact (map_const_repeat bs x).
    + intros r Hr. apply in_seq in Hr. unfold self in Hr. cbn [fl_mesh fl_type] in Hr. fold bs in Hr.
      assert (Ek : (match o with OpField _ _ => check_compatible self o | _ => Ret tt end) = Ret tt).
      { destruct o; try reflexivity. destruct So as (_ & X & _). cbn. rewrite X. now destruct t. }
      rewrite Ek. cbn [bind]. unfold self at 1. rewrite (created_block m t b o g r Et So) by (fold bs; lia). reflexivity.
Qed.
End Complex.
End Cdot.

Print Assumptions C100_real_refuses.
Print Assumptions C100_real_shapes.
Print Assumptions C100_real_symmetric.
Print Assumptions C100_real.
Print Assumptions C100_cnorm.
Print Assumptions C100_complex_refuses.
Print Assumptions C100_complex_shapes.
Print Assumptions C100_complex.

(** ** the mesh of C68: 4 x 2 cells on two ranks *)
Definition dot_mem : memory Qcring := fun b a => ex_q (Z.of_nat b * 10 + Z.of_nat (fst a) * 3 + snd a).
Definition dot_field (t : ftype) (b : nat) : field Qcring := mkF Qcring (bx_mesh true) t b.
Example C100_case :
  map (fun o => match o with Ret v => Some (this v) | _ => None end)
    (RealField_cdot Qcring dot_mem (dot_field RealT 0) (OpField Qcring (dot_field RealT 1))) = [Some 500; Some 500]%Q /\
  map (fun o => match o with Ret v => Some (this v) | _ => None end)
    (RealField_cnorm Qcring dot_mem (dot_field RealT 0)) = [Some 180; Some 180]%Q.
Proof. split; vm_compute; reflexivity. Qed.
(** the hypotheses hold: a complex field and the number 3 + i, and an array on each rank *)
Definition dot_out (l : list (outcome (cpx Qcring))) : list (option (Q * Q)) :=
  map (fun o => match o with Ret v => Some (this (@re Qcring v), this (@im Qcring v)) | _ => None end) l.
Definition dot_arrays : list (nda Qcring) :=
  map (fun b => mkNd Qcring ComplexK (snd b) (fun i => complex_at Qcring dot_mem (dot_field TransposedT 1) (zadd (fst b) i))) (bx_blocks TransposedT).
Example C100_complex_case :
  (exists v, ComplexField_cdot Qcring [1%Qc; 1%Qc] None dot_mem (dot_field TransposedT 0) (OpNumber Qcring ComplexK (ex_q 3, ex_q 1)) = repeat (Ret v) 2) /\
  (exists v, ComplexField_cdot Qcring [1%Qc; 1%Qc] None dot_mem (dot_field TransposedT 0) (OpArray Qcring dot_arrays) = repeat (Ret v) 2) /\
  dot_out (ComplexField_cdot Qcring [1%Qc; 1%Qc] None dot_mem (dot_field TransposedT 0) (OpNumber Qcring ComplexK (ex_q 3, ex_q 1))) = [Some (152, 96); Some (152, 96)]%Q /\
  dot_out (ComplexField_cdot Qcring [1%Qc; 1%Qc] None dot_mem (dot_field TransposedT 0) (OpArray Qcring dot_arrays)) =
  dot_out (ComplexField_cdot Qcring [1%Qc; 1%Qc] None dot_mem (dot_field TransposedT 0) (OpField Qcring (dot_field TransposedT 1))).
Proof.
  split; [|split; [|split]].
  - destruct (C100_complex Qcring [4] 2 (bx_mesh true) (bx_good true) ltac:(repeat constructor) eq_refl eq_refl [1%Qc; 1%Qc] None dot_mem TransposedT 0%nat
      (complex_at Qcring dot_mem (dot_field TransposedT 0)) (OpNumber Qcring ComplexK (ex_q 3, ex_q 1)) (fun _ => (ex_q 3, ex_q 1))) as (v & E & _);
      [now left|discriminate|intros k _; reflexivity|reflexivity|]. exists v. exact E.
  - destruct (C100_complex Qcring [4] 2 (bx_mesh true) (bx_good true) ltac:(repeat constructor) eq_refl eq_refl [1%Qc; 1%Qc] None dot_mem TransposedT 0%nat
      (complex_at Qcring dot_mem (dot_field TransposedT 0)) (OpArray Qcring dot_arrays) (complex_at Qcring dot_mem (dot_field TransposedT 1))) as (v & E & _);
      [now left|discriminate| |reflexivity|].
    + intros r Hr. cbn in Hr. destruct r as [|[|r]]; [| |lia]; (eexists; split; [reflexivity|]; split; [reflexivity|]; intros i _; reflexivity).
    + exists v. exact E.
  - vm_compute. reflexivity.
  - vm_compute. reflexivity.
Qed.

(** RealField.cdot refuses an array even if it holds exactly the values of a field it accepts, on each rank of the shape
    of that rank's part. *)
Theorem C100_array_refuted :
  let arrays := map (fun b => mkNd Qcring RealK (snd b) (fun i => cof (real_at Qcring dot_mem (dot_field RealT 1) (zadd (fst b) i)))) (bx_blocks RealT) in
  RealField_cdot Qcring dot_mem (dot_field RealT 0) (OpArray Qcring arrays) = [Raise TypeError; Raise TypeError] /\
  (exists v, RealField_cdot Qcring dot_mem (dot_field RealT 0) (OpField Qcring (dot_field RealT 1)) = [Ret v; Ret v]).
Proof.
  intros arrays. split.
  - apply (C100_real_refuses Qcring dot_mem (dot_field RealT 0) (OpArray Qcring arrays)); [reflexivity|discriminate].
  - eexists. exact (C100_real Qcring [4] 2 (bx_mesh true) (bx_good true) dot_mem 0%nat 1%nat).
Qed.
(** A field of another mesh is not refused as such.  4 x 2 and 5 x 2 cells on two ranks: rank 0 holds two rows of the one
    and three of the other and raises, rank 1 holds two of both and waits for rank 0 for ever. *)
Definition dot_longer : mesh Qcring := mkMesh Qcring [5; 2] ex_roots ex_invs true (fun _ => [([0; 0], [3; 2]); ([3; 0], [2; 2])]) bx_at.
Theorem C100_hang_refuted :
  RealField_cdot Qcring dot_mem (dot_field RealT 0) (OpField Qcring (mkF Qcring dot_longer RealT 1%nat)) = [Raise ValueError; Blocked].
Proof. reflexivity. Qed.
(** 4 x 2 and 1 x 2 cells on one rank: the only row of the second mesh is repeated and a number comes back. *)
Definition dot_one (rows : Z) : mesh Qcring := mkMesh Qcring [rows; 2] ex_roots ex_invs true (fun _ => [([0; 0], [rows; 2])]) (fun _ i => (0%nat, 2 * nth 0 i 0 + nth 1 i 0)).
Theorem C100_repeated_refuted :
  map (fun o => match o with Ret v => Some (this v) | _ => None end)
    (RealField_cdot Qcring dot_mem (mkF Qcring (dot_one 4) RealT 0%nat) (OpField Qcring (mkF Qcring (dot_one 1) RealT 1%nat))) = [Some 296%Q] /\
  map (fun o => match o with Ret v => Some (this v) | _ => None end)
    (RealField_cdot Qcring dot_mem (mkF Qcring (dot_one 1) RealT 1%nat) (OpField Qcring (mkF Qcring (dot_one 4) RealT 0%nat))) = [Some 296%Q].
Proof. split; vm_compute; reflexivity. Qed.
Print Assumptions C100_array_refuted.
Print Assumptions C100_hang_refuted.
Print Assumptions C100_repeated_refuted.
