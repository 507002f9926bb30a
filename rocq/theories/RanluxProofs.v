(** Properties of the random generator: C52 (the stream is the subtract-with-borrow
    recurrence, all numbers are in [0,1)) and C60 (sampling terminates). *)
From Coq Require Import List Arith ZArith Lia Bool.
From Verif Require Import Base ListFacts RanluxModel.
Import ListNotations.
Local Open Scope Z_scope.

(** ** the recurrence on a window of twelve words, oldest first *)
Definition swb (w : list Z * Z) : list Z * Z :=
  let y := nth 7 (fst w) 0 - nth 0 (fst w) 0 - snd w in
  (tl (fst w) ++ [y mod two48], if y <? 0 then 1 else 0).
Fixpoint iter {A} (n : nat) (f : A -> A) (a : A) : A := match n with O => a | S n => f (iter n f a) end.
Lemma iter_add {A} n m (f : A -> A) a : iter (n + m) f a = iter n f (iter m f a).
Proof. induction n; cbn; congruence. Qed.
Lemma iter_S {A} n (f : A -> A) a : iter (S n) f a = iter n f (f a).
Proof. replace (S n) with (n + 1)%nat by lia. now rewrite iter_add. Qed.

Definition word_ok (v : Z) : Prop := 0 <= v < two48.
Definition state_ok (w : list Z * Z) : Prop :=
  length (fst w) = 12%nat /\ Forall word_ok (fst w) /\ (snd w = 0 \/ snd w = 1).

Lemma swb_ok w : state_ok w -> state_ok (swb w).
Proof.
  intros (L & F & _). unfold swb, state_ok. cbn [fst snd]. repeat split.
  - rewrite app_length. destruct (fst w); cbn in *; lia.
  - apply Forall_app. split; [destruct (fst w); [constructor|now inversion F]|]. constructor; [|constructor].
    unfold word_ok. apply Z.mod_pos_bound. reflexivity.
  - destruct (_ <? 0); auto.
Qed.
Lemma iter_ok n w : state_ok w -> state_ok (iter n swb w).
Proof. intros H. induction n; cbn; [exact H|now apply swb_ok]. Qed.

(** ** the circular buffer *)
Definition rot {A} (r : nat) (x : list A) : list A := skipn r x ++ firstn r x.
Definition view (s : cursor) : list Z * Z := let '(x, c, i, _) := s in (rot i x, c).
Definition cursor_ok (s : cursor) : Prop :=
  let '(x, c, i, j) := s in (i < 12)%nat /\ j = ((i + 7) mod 12)%nat /\ state_ok (x, c).

Lemma twelve {A} (x : list A) : length x = 12%nat ->
  exists a0 a1 a2 a3 a4 a5 a6 a7 a8 a9 a10 a11, x = [a0; a1; a2; a3; a4; a5; a6; a7; a8; a9; a10; a11].
Proof.
  intros H. do 12 (destruct x as [|? x]; [discriminate|]). destruct x; [|discriminate]. repeat eexists.
Qed.
Lemma borrow a b c : word_ok a -> word_ok b -> c = 0 \/ c = 1 ->
  (a - b - c) mod two48 = if a - b - c <? 0 then a - b - c + two48 else a - b - c.
Proof.
  unfold word_ok, two48. intros Ha Hb Hc. destruct (Z.ltb_spec (a - b - c) 0).
  - symmetry. apply (Z.mod_unique _ _ (-1)); lia.
  - apply Z.mod_small. lia.
Qed.
Lemma word_nth x i : Forall word_ok x -> word_ok (nth i x 0).
Proof.
  intros F. destruct (Nat.lt_ge_cases i (length x)) as [H|H].
  - rewrite Forall_forall in F. apply F, nth_In, H.
  - rewrite nth_overflow by exact H. unfold word_ok, two48. lia.
Qed.

Lemma one_step_view s : cursor_ok s ->
  view (one_step s) = swb (view s) /\ cursor_ok (one_step s) /\
  snd (fst (one_step s)) = next (snd (fst s)).
Proof.
  destruct s as [[[x c] i] j]. intros (Hi & Ej & L & F & Hc). cbn [fst snd] in *.
  pose proof (word_nth x i F) as Wi. pose proof (word_nth x j F) as Wj.
  pose proof (borrow _ _ c Wj Wi Hc) as B.
  assert (E : one_step (x, c, i, j) = (xset x i ((xget x j - xget x i - c) mod two48), (if xget x j - xget x i - c <? 0 then 1 else 0), next i, next j)).
  { unfold one_step, xget. rewrite B. now destruct (_ <? 0). }
  rewrite E. clear E. cbn [fst snd].
  assert (Wy : word_ok ((xget x j - xget x i - c) mod two48)) by (apply Z.mod_pos_bound; reflexivity).
  set (y := xget x j - xget x i - c) in *.
  assert (Ok : cursor_ok (xset x i (y mod two48), if y <? 0 then 1 else 0, next i, next j)).
  { unfold cursor_ok, state_ok. cbn [fst snd].
    destruct (twelve x L) as (a0 & a1 & a2 & a3 & a4 & a5 & a6 & a7 & a8 & a9 & a10 & a11 & ->).
    repeat match goal with H : Forall _ (_ :: _) |- _ => inversion H; clear H; subst end.
    split; [|split; [|split; [|split]]].
    1,2: do 12 (destruct i as [|i]; [cbv; lia|]); lia.
    - do 12 (destruct i as [|i]; [reflexivity|]); lia.
    - clear B. do 12 (destruct i as [|i]; [cbn [xset]; repeat (constructor; [assumption|]); constructor|]); lia.
    - destruct (y <? 0); auto. }
  split; [|split; [exact Ok|reflexivity]].
  unfold view, swb. cbn [fst snd].
  assert (E7 : nth 7 (rot i x) 0 = xget x j /\ nth 0 (rot i x) 0 = xget x i).
  { subst j. unfold xget. destruct (twelve x L) as (a0 & a1 & a2 & a3 & a4 & a5 & a6 & a7 & a8 & a9 & a10 & a11 & ->).
    do 12 (destruct i as [|i]; [split; reflexivity|]); lia. }
  destruct E7 as [E7 E0]. rewrite E7, E0. fold y. f_equal.
  clear E7 E0 B Wi Wj Wy Ok. clearbody y. destruct (twelve x L) as (a0 & a1 & a2 & a3 & a4 & a5 & a6 & a7 & a8 & a9 & a10 & a11 & ->).
  do 12 (destruct i as [|i]; [reflexivity|]); lia.
Qed.

Lemma steps_view n s : cursor_ok s ->
  view (iter n one_step s) = iter n swb (view s) /\ cursor_ok (iter n one_step s) /\
  snd (fst (iter n one_step s)) = iter n next (snd (fst s)).
Proof.
  intros H. induction n as [|n (E & C & I)]; [cbn; auto|]. cbn [iter].
  destruct (one_step_view _ C) as (E1 & C1 & I1). rewrite E1, E, I1, I. auto.
Qed.

(** ** the unrolled block is twelve steps *)
Lemma xget_xset x i j v : i <> j -> xget (xset x j v) i = xget x i.
Proof.
  unfold xget. revert i j. induction x as [|a x IH]; intros [|i] [|j] H; cbn; try reflexivity; try congruence. apply IH. congruence.
Qed.
Lemma ranlux_step_one x c i j y i1 i2 : y = xget x j - xget x i - c -> i1 = next j -> i2 = next i -> i1 <> i -> i2 <> i ->
  exists c', one_step (x, c, i, j) = (snd (ranlux_step x y i1 i2 i), c', i2, i1) /\
    fst (ranlux_step x y i1 i2 i) = xget (snd (ranlux_step x y i1 i2 i)) i1 - xget (snd (ranlux_step x y i1 i2 i)) i2 - c'.
Proof.
  intros -> -> -> N1 N2. unfold one_step, ranlux_step. destruct (_ <? 0); eexists; (split; [reflexivity|]);
  cbn [fst snd]; rewrite !xget_xset by assumption; lia.
Qed.
Lemma block_step_steps x c : let '(x', c') := block_step x c in iter 12 one_step (x, c, 0%nat, 7%nat) = (x', c', 0%nat, 7%nat).
Proof.
  unfold block_step.
  assert (E0 : xget x 7 - xget x 0 - c = xget x 7 - xget x 0 - c) by reflexivity.
  revert E0. generalize (xget x 7 - xget x 0 - c) at 1 3. intros y E0.
  rewrite iter_S.
  Ltac go i1 i2 i3 :=
    match goal with
    | H : ?y = xget ?x ?j - xget ?x i3 - ?c |- context[ranlux_step ?x ?y i1 i2 i3] =>
        let c' := fresh "c" in let E := fresh "E" in let Q := fresh "Q" in
        destruct (ranlux_step_one x c i3 j y i1 i2 H) as (c' & E & Q); [reflexivity|reflexivity|discriminate|discriminate|];
        rewrite E; clear E H; destruct (ranlux_step x y i1 i2 i3) as [? ?]; cbn [fst snd] in Q |- *
    end.
  go 8%nat 1%nat 0%nat. rewrite iter_S.
  go 9%nat 2%nat 1%nat. rewrite iter_S.
  go 10%nat 3%nat 2%nat. rewrite iter_S.
  go 11%nat 4%nat 3%nat. rewrite iter_S.
  go 0%nat 5%nat 4%nat. rewrite iter_S.
  go 1%nat 6%nat 5%nat. rewrite iter_S.
  go 2%nat 7%nat 6%nat. rewrite iter_S.
  go 3%nat 8%nat 7%nat. rewrite iter_S.
  go 4%nat 9%nat 8%nat. rewrite iter_S.
  go 5%nat 10%nat 9%nat. rewrite iter_S.
  go 6%nat 11%nat 10%nat. rewrite iter_S. cbn [iter].
  unfold one_step. rewrite <- Q. destruct (_ <? 0); reflexivity.
Qed.

(** ** the loops make pr steps *)
Lemma lead_loop_steps fuel k x c i j : cursor_ok (x, c, i, j) -> (12 - i <= fuel)%nat -> (0 < fuel)%nat ->
  exists n, (n <= 11)%nat /\ lead_loop fuel k (x, c, i, j) = (k + Z.of_nat n, iter n one_step (x, c, i, j)) /\
    snd (fst (iter n one_step (x, c, i, j))) = 0%nat /\ (i <> 0%nat -> (n <= 12 - i)%nat).
Proof.
  revert k x c i j. induction fuel as [|fuel IH]; intros k x c i j H Hf Hp; [lia|]. cbn [lead_loop].
  destruct (Nat.eqb_spec i 0) as [->|Hi].
  - exists 0%nat. rewrite Z.add_0_r. cbn. repeat split; auto; lia.
  - destruct (one_step_view _ H) as (E & C & I). cbn [fst snd] in I.
    assert (I12 : (i < 12)%nat) by apply H.
    destruct (one_step (x, c, i, j)) as [[[x' c'] i'] j'] eqn:O. cbn [fst snd] in I. subst i'.
    destruct (Nat.eq_dec i 11) as [->|Hn].
    + exists 1%nat. cbn [iter]. rewrite O. destruct fuel as [|fuel].
      * cbn. repeat split; auto; lia.
      * cbn [lead_loop]. cbn. repeat split; auto; lia.
    + assert (En : next i = S i) by (do 11 (destruct i as [|i]; [reflexivity|]); lia).
      destruct (IH (k + 1) x' c' (next i) j' C) as (n & Hn1 & El & Ei & Hn2); [rewrite En; lia|lia|].
      exists (S n). specialize (Hn2 ltac:(rewrite En; lia)). rewrite En in Hn2.
      repeat split; [lia| | |lia].
      * rewrite iter_S, O, El. f_equal. lia.
      * rewrite iter_S, O. exact Ei.
Qed.
Lemma block_loop_steps fuel kmax k x c : exists m, block_loop fuel kmax k (x, c, 0%nat, 7%nat) =
    (k + 12 * Z.of_nat m, iter (12 * m) one_step (x, c, 0%nat, 7%nat)) /\ (m = 0%nat \/ k + 12 * Z.of_nat m <= kmax + 12).
Proof.
  revert k x c. induction fuel as [|fuel IH]; intros k x c.
  - exists 0%nat. cbn. rewrite Z.add_0_r. auto.
  - cbn [block_loop]. destruct (Z.leb_spec k kmax) as [Hk|Hk].
    + pose proof (block_step_steps x c) as B. destruct (block_step x c) as [x' c'].
      destruct (IH (k + 12) x' c') as (m & E & Hm). exists (S m). split; [|right; lia].
      rewrite E. replace (12 * S m)%nat with (12 * m + 12)%nat by lia. rewrite iter_add, B. f_equal. lia.
    + exists 0%nat. cbn. rewrite Z.add_0_r. auto.
Qed.
Lemma tail_loop_steps fuel kmax k s : kmax - k <= Z.of_nat fuel -> tail_loop fuel kmax k s = iter (Z.to_nat (kmax - k)) one_step s.
Proof.
  revert k s. induction fuel as [|fuel IH]; intros k s H; cbn [tail_loop].
  - now replace (Z.to_nat (kmax - k)) with 0%nat by lia.
  - destruct (Z.ltb_spec k kmax).
    + rewrite IH by lia. replace (Z.to_nat (kmax - k)) with (S (Z.to_nat (kmax - (k + 1)))) by lia. now rewrite iter_S.
    + now replace (Z.to_nat (kmax - k)) with 0%nat by lia.
Qed.
Lemma increment_steps st : cursor_ok (xdbl st, carry st, ir st, jr st) -> 12 <= pr st ->
  increment_state st = let '(x, c, i, j) := iter (Z.to_nat (pr st)) one_step (xdbl st, carry st, ir st, jr st) in mkR x c i j i (pr st).
Proof.
  intros H Hp. unfold increment_state.
  destruct (lead_loop_steps (Z.to_nat (pr st) + 12) 0 _ _ _ _ H) as (n & Hn & E & I & _); [lia|lia|]. rewrite E.
  destruct (steps_view n _ H) as (_ & C & _).
  destruct (iter n one_step (xdbl st, carry st, ir st, jr st)) as [[[x c] i] j] eqn:Es. cbn [fst snd] in I. subst i.
  assert (Ej : j = 7%nat) by (destruct C as (_ & -> & _); reflexivity). subst j.
  destruct (block_loop_steps (Z.to_nat (pr st) + 12) (pr st - 12) (0 + Z.of_nat n) x c) as (m & E2 & Hm). rewrite E2.
  rewrite tail_loop_steps by lia.
  assert (Et : (Z.to_nat (pr st - (0 + Z.of_nat n + 12 * Z.of_nat m)) + (12 * m + n))%nat = Z.to_nat (pr st)) by lia.
  rewrite <- Es, <- (iter_add (12 * m) n), <- (iter_add _ (12 * m + n)), Et. reflexivity.
Qed.

(** ** seeding *)
Definition bit_ok (b : Z) : Prop := -1 <= b <= 1.
Lemma rem2 z : bit_ok (Z.rem z 2).
Proof. unfold bit_ok. pose proof (Z.rem_bound_abs z 2 ltac:(lia)). lia. Qed.
Lemma rem2_bit b : bit_ok b -> 0 <= Z.rem (b + 1) 2 <= 1.
Proof.
  unfold bit_ok. intros H. assert (D : b = -1 \/ b = 0 \/ b = 1) by lia.
  destruct D as [->|[->| ->]]; cbn; lia.
Qed.
Lemma xset_length x i v : length (xset x i v) = length x.
Proof. revert i. induction x as [|a x IH]; intros [|i]; cbn; auto. Qed.
Lemma xset_Forall (P : Z -> Prop) x i v : Forall P x -> P v -> Forall P (xset x i v).
Proof. intros F Hv. revert i. induction F; intros [|i]; cbn; constructor; auto. Qed.
Lemma xget_bit b i : Forall bit_ok b -> bit_ok (xget b i).
Proof.
  intros F. unfold xget. destruct (Nat.lt_ge_cases i (length b)) as [H|H].
  - rewrite Forall_forall in F. apply F, nth_In, H.
  - rewrite nth_overflow by exact H. unfold bit_ok. lia.
Qed.
Lemma bit_loop_ok n b i j x : Forall bit_ok b -> 0 <= x ->
  let '(b', i', j', x') := bit_loop n (b, i, j, x) in
  Forall bit_ok b' /\ x * 2 ^ Z.of_nat n <= x' < (x + 1) * 2 ^ Z.of_nat n.
Proof.
  revert b i j x. induction n as [|n IH]; intros b i j x F Hx; [cbn; split; [exact F|lia]|].
  cbn [bit_loop bit_step]. pose proof (rem2_bit _ (xget_bit b i F)) as Y.
  set (y := Z.rem (xget b i + 1) 2) in *.
  specialize (IH (xset b i (Z.rem (xget b i + xget b j) 2)) ((i + 1) mod 31)%nat ((j + 1) mod 31)%nat (x + (x + y))
    ltac:(apply xset_Forall; [exact F|apply rem2]) ltac:(lia)).
  destruct (bit_loop n _) as [[[b' i'] j'] x']. destruct IH as [F' B]. split; [exact F'|].
  rewrite Nat2Z.inj_succ, Z.pow_succ_r by lia. nia.
Qed.
Lemma word_loop_ok n b i j : Forall bit_ok b -> length (word_loop n b i j) = n /\ Forall word_ok (word_loop n b i j).
Proof.
  revert b i j. induction n as [|n IH]; intros b i j F; [split; [reflexivity|constructor]|].
  cbn [word_loop]. pose proof (bit_loop_ok 48 b i j 0 F ltac:(lia)) as B.
  destruct (bit_loop 48 (b, i, j, 0)) as [[[b' i'] j'] x]. destruct B as [F' B].
  destruct (IH b' i' j' F') as [L W]. split; [cbn; lia|]. constructor; [|exact W].
  unfold word_ok, two48. change (2 ^ Z.of_nat 48) with 281474976710656 in B. lia.
Qed.
Lemma seed_bits_ok n i : Forall bit_ok (seed_bits n i) /\ length (seed_bits n i) = n.
Proof.
  revert i. induction n as [|n IH]; intros i; [split; [constructor|reflexivity]|].
  destruct (IH (Z.quot i 2)) as [F L]. cbn [seed_bits length]. split; [|lia]. constructor; [apply rem2|exact F].
Qed.
Lemma seed_ok s : state_ok (seed_words s, 0).
Proof.
  unfold seed_words. destruct (word_loop_ok 12 (seed_bits 31 (to_int32 (if s =? 0 then 1 else s))) 0 18 (proj1 (seed_bits_ok _ _))) as [L W].
  repeat split; auto.
Qed.

(** ** the stream *)
(** b times pr steps made, p + 1 numbers of the window returned *)
Record at_point (w : list Z * Z) (lux : Z) (st : rstate) (b p : nat) : Prop := {
  ap_p : (p < 12)%nat;
  ap_pr : pr st = lux;
  ap_cur : cursor_ok (xdbl st, carry st, ir_old st, jr st);
  ap_ir : ir st = ((ir_old st + p) mod 12)%nat;
  ap_view : view (xdbl st, carry st, ir_old st, jr st) = iter (Z.to_nat lux * b) swb w
}.
Lemma next_mod i : (i < 12)%nat -> next i = ((i + 1) mod 12)%nat.
Proof. intros H. do 12 (destruct i as [|i]; [reflexivity|]). lia. Qed.
Lemma nth_rot (x : list Z) r p : length x = 12%nat -> (r < 12)%nat -> (p < 12)%nat -> nth p (rot r x) 0 = xget x ((r + p) mod 12).
Proof.
  intros L Hr Hp. destruct (twelve x L) as (a0 & a1 & a2 & a3 & a4 & a5 & a6 & a7 & a8 & a9 & a10 & a11 & ->).
  do 12 (destruct r as [|r]; [do 12 (destruct p as [|p]; [reflexivity|]); lia|]). lia.
Qed.
Lemma draw_next w lux st b p : 12 <= lux -> at_point w lux st b p ->
  let '(v, st') := get_double st in
  if Nat.eqb p 11 then at_point w lux st' (S b) 0 /\ v = nth 0 (fst (iter (Z.to_nat lux * S b) swb w)) 0
  else at_point w lux st' b (S p) /\ v = nth (S p) (fst (iter (Z.to_nat lux * b) swb w)) 0.
Proof.
  intros Hl [Hp Epr Hc Ei Ev]. unfold get_double. destruct st as [x c i j r l]. cbn [xdbl carry ir jr ir_old pr] in *.
  assert (Hr : (r < 12)%nat) by apply Hc.
  assert (Hi : (i < 12)%nat) by (rewrite Ei; apply Nat.mod_upper_bound; lia).
  assert (En : next i = ((r + S p) mod 12)%nat).
  { rewrite next_mod by exact Hi. rewrite Ei, Nat.add_mod_idemp_l by lia. f_equal. lia. }
  destruct (Nat.eqb_spec p 11) as [->|Np].
  - assert (E : next i = r).
    { rewrite En. replace (r + 12)%nat with (r + 1 * 12)%nat by lia. rewrite Nat.mod_add, Nat.mod_small by lia. reflexivity. }
    rewrite E, Nat.eqb_refl. rewrite increment_steps by (cbn [xdbl carry ir jr pr]; try assumption; lia).
    cbn [xdbl carry ir jr ir_old pr].
    destruct (steps_view (Z.to_nat l) _ Hc) as (E1 & C1 & _).
    destruct (iter (Z.to_nat l) one_step (x, c, r, j)) as [[[x' c'] r'] j']. cbn [xdbl carry ir jr ir_old pr].
    assert (Ew : view (x', c', r', j') = iter (Z.to_nat lux * S b) swb w).
    { rewrite E1, Ev, <- iter_add. f_equal. subst l. lia. }
    split.
    + split; cbn [xdbl carry ir jr ir_old pr]; auto; [lia|]. destruct C1 as (Hr' & _). rewrite Nat.add_0_r, Nat.mod_small by lia. reflexivity.
    + rewrite <- Ew. unfold view. cbn [fst]. destruct C1 as (Hr' & _ & L & _).
      rewrite nth_rot by (assumption || lia). rewrite Nat.add_0_r, Nat.mod_small by lia. reflexivity.
  - assert (E : next i <> r).
    { rewrite En. intros E. destruct (Nat.lt_ge_cases (r + S p) 12).
      - rewrite Nat.mod_small in E by lia. lia.
      - replace (r + S p)%nat with ((r + S p - 12) + 1 * 12)%nat in E by lia. rewrite Nat.mod_add, Nat.mod_small in E by lia. lia. }
    apply Nat.eqb_neq in E. rewrite E. cbn [xdbl carry ir jr ir_old pr]. split.
    + split; cbn [xdbl carry ir jr ir_old pr]; auto. lia.
    + rewrite <- Ev. unfold view. cbn [fst]. rewrite nth_rot by (try lia; apply Hc). now rewrite En.
Qed.
Lemma at_seed s lux : at_point (seed_words s, 0) lux (set_lux s lux) 0 11.
Proof.
  split; cbn [xdbl carry ir jr ir_old pr set_lux]; try reflexivity; try lia.
  - split; [lia|]. split; [reflexivity|apply seed_ok].
  - rewrite Nat.mul_0_r. cbn [iter view]. unfold rot. cbn [skipn firstn]. now rewrite app_nil_r.
Qed.

(** ** C52 *)
Lemma draw_at w lux st q : 12 <= lux -> at_point w lux st (q / 12) (q mod 12) ->
  let '(v, st') := get_double st in
  at_point w lux st' (S q / 12) (S q mod 12) /\ v = nth (S q mod 12) (fst (iter (Z.to_nat lux * (S q / 12)) swb w)) 0.
Proof.
  intros Hl H. pose proof (draw_next w lux st _ _ Hl H) as D. destruct (get_double st) as [v st'].
  assert (Hq : q = (12 * (q / 12) + q mod 12)%nat) by (apply Nat.div_mod; lia).
  assert (Hm : (q mod 12 < 12)%nat) by (apply Nat.mod_upper_bound; lia).
  destruct (Nat.eqb_spec (q mod 12) 11) as [E|E].
  - assert (Ed : (S q / 12 = S (q / 12))%nat) by (symmetry; apply (Nat.div_unique _ _ _ 0); lia).
    assert (Em : (S q mod 12 = 0)%nat) by (symmetry; apply (Nat.mod_unique _ _ (S (q / 12))); lia).
    rewrite Ed, Em. exact D.
  - assert (Ed : (S q / 12 = q / 12)%nat) by (symmetry; apply (Nat.div_unique _ _ _ (S (q mod 12))); lia).
    assert (Em : (S q mod 12 = S (q mod 12))%nat) by (symmetry; apply (Nat.mod_unique _ _ (q / 12)); lia).
    rewrite Ed, Em. exact D.
Qed.
Lemma draws_at w lux n : 12 <= lux -> forall st q, at_point w lux st (q / 12) (q mod 12) ->
  at_point w lux (snd (draws n st)) ((q + n) / 12) ((q + n) mod 12) /\
  fst (draws n st) = map (fun m => nth (m mod 12) (fst (iter (Z.to_nat lux * (m / 12)) swb w)) 0) (seq (S q) n).
Proof.
  intros Hl. induction n as [|n IH]; intros st q H; [rewrite Nat.add_0_r; auto|].
  cbn [draws]. pose proof (draw_at w lux st q Hl H) as D. destruct (get_double st) as [v st']. destruct D as [D ->].
  destruct (IH st' (S q) D) as [P E]. destruct (draws n st') as [vs st2]. cbn [fst snd] in *.
  replace (q + S n)%nat with (S q + n)%nat by lia. split; [exact P|]. cbn [seq map]. now rewrite E.
Qed.
Lemma window_words n w i : state_ok w -> (i < 12)%nat -> nth i (fst (iter n swb w)) 0 = nth 0 (fst (iter (n + i) swb w)) 0.
Proof.
  intros H. revert n. induction i as [|i IH]; intros n Hi; [now rewrite Nat.add_0_r|].
  replace (n + S i)%nat with (S n + i)%nat by lia. rewrite <- IH by lia. cbn [iter].
  destruct (iter_ok n w H) as (L & _). unfold swb at 2. cbn [fst]. rewrite app_nth1 by (destruct (fst (iter n swb w)); cbn in *; lia).
  destruct (fst (iter n swb w)); [discriminate|]. reflexivity.
Qed.

(** The m-th number from seed s is word 202 (m / 12 + 1) + m mod 12 of the sequence
    that starts with the twelve seed words and obeys
    X (n + 12) = X (n + 7) - X n - c n modulo 2^48, c the borrow: the unrolled and
    the rolled loops and the circular buffer do not matter.  (12 words of every 202
    are used.) *)
Theorem C52_stream : forall s, exists X c : nat -> Z,
  (forall n, (n < 12)%nat -> X n = nth n (seed_words s) 0) /\ c 0%nat = 0 /\
  (forall n, X (n + 12)%nat = (X (n + 7)%nat - X n - c n) mod 2 ^ 48 /\
             c (n + 1)%nat = if X (n + 7)%nat - X n - c n <? 0 then 1 else 0) /\
  forall k m, (m < k)%nat -> nth m (fst (draws k (ranlxd1_set s))) 0 = X (202 * (m / 12 + 1) + m mod 12)%nat.
Proof.
  intros s. set (W := fun n => iter n swb (seed_words s, 0)). pose proof (seed_ok s) as Hs.
  exists (fun n => nth 0 (fst (W n)) 0), (fun n => snd (W n)).
  assert (HW : forall n i, (i < 12)%nat -> nth i (fst (W n)) 0 = nth 0 (fst (W (n + i)%nat)) 0) by (intros; now apply window_words).
  split; [|split; [|split]].
  - intros n Hn. change n with (0 + n)%nat at 1. now rewrite <- HW by exact Hn.
  - reflexivity.
  - intros n. rewrite <- (HW n 7%nat) by lia. rewrite (Nat.add_1_r n). split; [|reflexivity].
    replace (n + 12)%nat with (S n + 11)%nat by lia. rewrite <- HW by lia.
    unfold W at 1. cbn [iter]. change (iter n swb (seed_words s, 0)) with (W n). destruct (iter_ok n _ Hs) as (L & _).
    change (iter n swb (seed_words s, 0)) with (W n) in L. unfold swb. cbn [fst].
    assert (Lt : length (tl (fst (W n))) = 11%nat).
    { clear - L. revert L. generalize (fst (W n)). intros [|a l]; cbn; lia. }
    rewrite app_nth2 by lia. rewrite Lt. reflexivity.
  - intros k m Hm. destruct (draws_at (seed_words s, 0) 202 k ltac:(lia) (ranlxd1_set s) 11) as [_ E]; [apply at_seed|].
    rewrite E. rewrite (nth_map_in _ _ _ 0 0%nat) by now rewrite seq_length. rewrite seq_nth by exact Hm.
    replace (12 + m)%nat with (m + 1 * 12)%nat by lia. rewrite Nat.mod_add, Nat.div_add by lia.
    fold (W (Z.to_nat 202 * (m / 12 + 1))%nat). rewrite HW by (apply Nat.mod_upper_bound; lia). reflexivity.
Qed.

(** every number is in [0, 1), the state always consists of twelve 48-bit words and a
    borrow *)
Theorem C52_range : forall s k,
  Forall (fun v => 0 <= v < 2 ^ 48) (fst (draws k (ranlxd1_set s))) /\
  length (fst (draws k (ranlxd1_set s))) = k /\
  length (xdbl (snd (draws k (ranlxd1_set s)))) = 12%nat /\
  Forall (fun v => 0 <= v < 2 ^ 48) (xdbl (snd (draws k (ranlxd1_set s)))) /\
  (carry (snd (draws k (ranlxd1_set s))) = 0 \/ carry (snd (draws k (ranlxd1_set s))) = 1).
Proof.
  intros s k. destruct (draws_at (seed_words s, 0) 202 k ltac:(lia) (ranlxd1_set s) 11) as [P E]; [apply at_seed|].
  split; [|split].
  - rewrite E. apply Forall_forall. intros v Hv. apply in_map_iff in Hv. destruct Hv as (m & <- & _).
    apply word_nth. apply (iter_ok _ _ (seed_ok s)).
  - now rewrite E, map_length, seq_length.
  - destruct (ap_cur _ _ _ _ _ P) as (_ & _ & L & F & C). auto.
Qed.

(** seed 0 is seed 1 *)
Theorem C52_seed_zero : ranlxd1_set 0 = ranlxd1_set 1.
Proof. vm_compute. reflexivity. Qed.

(** the 10000th integer (32 bits) of seed 1 is the one of the test suite of GSL *)
Example C52_case : snd (draws (Z.to_nat 9999) (ranlxd1_set 1)) = snd (draws (Z.to_nat 9999) (ranlxd1_set 0)) /\
  fst (get_double (snd (draws (Z.to_nat 9999) (ranlxd1_set 1)))) * 2 ^ 32 / 2 ^ 48 = 1998227290.
Proof. split; [now rewrite C52_seed_zero|]. vm_compute. reflexivity. Qed.

(** the seeds s and 2^32 - s give the same numbers: the bits of a negative int are
    taken with their sign, and only their parity matters *)
Definition twin (a b : Z) : Prop := bit_ok a /\ Z.abs a = Z.abs b.
Lemma twin_cases a b : twin a b -> (a = 0 /\ b = 0) \/ ((a = 1 \/ a = -1) /\ (b = 1 \/ b = -1)).
Proof. unfold twin, bit_ok. lia. Qed.
Lemma twin_get b b' i : Forall2 twin b b' -> twin (xget b i) (xget b' i).
Proof.
  intros H. unfold xget. revert i. induction H as [|x y l m T H IH]; intros [|i]; cbn; auto; unfold twin, bit_ok; lia.
Qed.
Lemma twin_set b b' i v v' : Forall2 twin b b' -> twin v v' -> Forall2 twin (xset b i v) (xset b' i v').
Proof. intros H T. revert i. induction H; intros [|i]; cbn; constructor; auto. Qed.
Lemma twin_loop n b b' i j x : Forall2 twin b b' ->
  let '(c, i1, j1, x1) := bit_loop n (b, i, j, x) in let '(c', i2, j2, x2) := bit_loop n (b', i, j, x) in
  Forall2 twin c c' /\ i1 = i2 /\ j1 = j2 /\ x1 = x2.
Proof.
  revert b b' i j x. induction n as [|n IH]; intros b b' i j x H; [cbn; auto|]. cbn [bit_loop bit_step].
  assert (E : Z.rem (xget b i + 1) 2 = Z.rem (xget b' i + 1) 2).
  { destruct (twin_cases _ _ (twin_get b b' i H)) as [[-> ->]|[[->| ->] [->| ->]]]; reflexivity. }
  rewrite E. apply IH. apply twin_set; [exact H|]. split; [apply rem2|].
  destruct (twin_cases _ _ (twin_get b b' i H)) as [[-> ->]|[[->| ->] [->| ->]]],
           (twin_cases _ _ (twin_get b b' j H)) as [[-> ->]|[[->| ->] [->| ->]]]; reflexivity.
Qed.
Lemma twin_words n b b' i j : Forall2 twin b b' -> word_loop n b i j = word_loop n b' i j.
Proof.
  revert b b' i j. induction n as [|n IH]; intros b b' i j H; [reflexivity|]. cbn [word_loop].
  pose proof (twin_loop 48 b b' i j 0 H) as T.
  destruct (bit_loop 48 (b, i, j, 0)) as [[[c i1] j1] x1], (bit_loop 48 (b', i, j, 0)) as [[[c' i2] j2] x2].
  destruct T as (T & -> & -> & ->). f_equal. now apply IH.
Qed.
Lemma twin_bits n i : Forall2 twin (seed_bits n i) (seed_bits n (- i)).
Proof.
  revert i. induction n as [|n IH]; intros i; [constructor|]. cbn [seed_bits].
  rewrite Z.rem_opp_l, Z.quot_opp_l by lia. constructor; [|apply IH]. split; [apply rem2|lia].
Qed.
Theorem C52_seed_collision : forall s, 0 < s < 2 ^ 32 -> ranlxd1_set (2 ^ 32 - s) = ranlxd1_set s.
Proof.
  intros s Hs. unfold ranlxd1_set, set_lux. f_equal. unfold seed_words.
  destruct (Z.eqb_spec s 0), (Z.eqb_spec (2 ^ 32 - s) 0); try lia.
  destruct (Z.eq_dec s (2 ^ 31)) as [->|Hn]; [reflexivity|].
  assert (E : to_int32 (2 ^ 32 - s) = - to_int32 s).
  { unfold to_int32. rewrite !Z.mod_small by lia. destruct (Z.ltb_spec (2 ^ 32 - s) 2147483648), (Z.ltb_spec s 2147483648); lia. }
  rewrite E. symmetry. apply twin_words, twin_bits.
Qed.

(** ** C60: sampling terminates *)
Definition dead (w : list Z * Z) : Prop := fst w = repeat 0 12 /\ snd w = 0.
Lemma swb_alive w : state_ok w -> dead (swb w) -> dead w.
Proof.
  intros (L & F & C) [D1 D2]. destruct w as [x c]. cbn [fst snd] in *. unfold swb in *. cbn [fst snd] in *.
  destruct (twelve x L) as (a0 & a1 & a2 & a3 & a4 & a5 & a6 & a7 & a8 & a9 & a10 & a11 & ->).
  cbn [nth tl app repeat] in *. injection D1 as -> -> -> -> -> -> -> -> -> -> -> D1.
  destruct (Z.ltb_spec (0 - a0 - c) 0); [discriminate|].
  inversion F as [|? ? W _]; subst. unfold word_ok in W. unfold dead. cbn [fst snd repeat].
  assert (a0 = 0 /\ c = 0) by lia. destruct H0 as [-> ->]. auto.
Qed.
Lemma iter_alive n w : state_ok w -> ~ dead w -> ~ dead (iter n swb w).
Proof. intros H D. induction n as [|n IH]; [exact D|]. cbn [iter]. intros E. apply IH, (swb_alive _ (iter_ok n w H) E). Qed.

(** the first seed word is not zero *)
Lemma bit_loop_lower n b i j x : Forall bit_ok b -> 0 < x -> 0 < snd (bit_loop n (b, i, j, x)).
Proof.
  intros F Hx. pose proof (bit_loop_ok n b i j x F ltac:(lia)) as B. destruct (bit_loop n (b, i, j, x)) as [[[b' i'] j'] x'].
  destruct B as [_ [B _]]. cbn [snd]. pose proof (Z.pow_pos_nonneg 2 (Z.of_nat n) ltac:(lia) ltac:(lia)). nia.
Qed.
Lemma bit_loop_add m n s : bit_loop (m + n) s = bit_loop n (bit_loop m s).
Proof. revert s. induction m as [|m IH]; intros s; [reflexivity|]. cbn [Nat.add bit_loop]. apply IH. Qed.
(** positions of the bits during the first 31 steps *)
Lemma first_pass m b x : length b = 31%nat -> (m <= 31)%nat ->
  let '(b', i, j, _) := bit_loop m (b, 0%nat, 18%nat, x) in
  length b' = 31%nat /\ i = (m mod 31)%nat /\ j = ((m + 18) mod 31)%nat /\
  (forall q, (m <= q)%nat -> xget b' q = xget b q) /\
  ((1 <= m)%nat -> xget b' 0 = Z.rem (xget b 0 + xget b 18) 2).
Proof.
  intros L. induction m as [|m IH]; intros Hm.
  - cbn. repeat split; auto; lia.
  - specialize (IH ltac:(lia)). rewrite <- Nat.add_1_r, bit_loop_add.
    destruct (bit_loop m (b, 0%nat, 18%nat, x)) as [[[b' i] j] x']. destruct IH as (L' & -> & -> & Q & Z0).
    cbn [bit_loop bit_step]. rewrite !Nat.add_mod_idemp_l by lia. repeat split.
    + now rewrite xset_length.
    + f_equal. lia.
    + rewrite (Nat.mod_small m) by lia. intros q Hq. rewrite xget_xset by lia. apply Q. lia.
    + intros _. rewrite (Nat.mod_small m) by lia. destruct m as [|m].
      * rewrite !Q by lia. change ((0 + 18) mod 31)%nat with 18%nat.
        destruct b' as [|a b']; [discriminate|]. reflexivity.
      * rewrite xget_xset by lia. apply Z0. lia.
Qed.
Lemma bit_step_one b i j x : Forall bit_ok b -> 0 <= x -> xget b i = 0 -> 0 < snd (bit_step (b, i, j, x)).
Proof. intros F Hx E. cbn [bit_step snd]. rewrite E. cbn. lia. Qed.
Lemma zero_at m b : Forall bit_ok b -> (m < 48)%nat ->
  (let '(b', i, _, _) := bit_loop m (b, 0%nat, 18%nat, 0) in xget b' i = 0) -> 0 < snd (bit_loop 48 (b, 0%nat, 18%nat, 0)).
Proof.
  intros F Hm. replace 48%nat with (m + (1 + (47 - m)))%nat by lia. rewrite bit_loop_add, bit_loop_add.
  pose proof (bit_loop_ok m b 0 18 0 F ltac:(lia)) as B.
  destruct (bit_loop m (b, 0%nat, 18%nat, 0)) as [[[b' i] j] x]. destruct B as [F' B]. intros E.
  assert (Hx : 0 <= x) by (pose proof (Z.pow_pos_nonneg 2 (Z.of_nat m) ltac:(lia) ltac:(lia)); nia).
  change (bit_loop 1 (b', i, j, x)) with (bit_step (b', i, j, x)).
  pose proof (bit_step_one b' i j x F' Hx E) as P. pose proof (bit_loop_ok 1 b' i j x F' Hx) as B1.
  change (bit_loop 1 (b', i, j, x)) with (bit_step (b', i, j, x)) in B1.
  destruct (bit_step (b', i, j, x)) as [[[b2 i2] j2] x2]. apply bit_loop_lower; [apply B1|exact P].
Qed.
Lemma first_word b : length b = 31%nat -> Forall bit_ok b -> 0 < snd (bit_loop 48 (b, 0%nat, 18%nat, 0)).
Proof.
  intros L F. pose proof (xget_bit b 0 F) as B0. pose proof (xget_bit b 18 F) as B18.
  destruct (Z.eq_dec (xget b 0) 0) as [E|N0]; [apply (zero_at 0); [exact F|lia|exact E]|].
  destruct (Z.eq_dec (xget b 18) 0) as [E|N1].
  - apply (zero_at 18); [exact F|lia|]. pose proof (first_pass 18 b 0 L ltac:(lia)) as P.
    destruct (bit_loop 18 _) as [[[b' i] j] x]. destruct P as (_ & -> & _ & Q & _). change (18 mod 31)%nat with 18%nat. rewrite Q by lia. exact E.
  - apply (zero_at 31); [exact F|lia|]. pose proof (first_pass 31 b 0 L ltac:(lia)) as P.
    destruct (bit_loop 31 _) as [[[b' i] j] x]. destruct P as (_ & -> & _ & _ & Q). change (31 mod 31)%nat with 0%nat.
    rewrite Q by lia. unfold bit_ok in *.
    assert (D0 : xget b 0 = 1 \/ xget b 0 = -1) by lia. assert (D1 : xget b 18 = 1 \/ xget b 18 = -1) by lia.
    destruct D0 as [->| ->], D1 as [->| ->]; reflexivity.
Qed.
Lemma word_loop_S n b i j : word_loop (S n) b i j = let '(b', i', j', x) := bit_loop 48 (b, i, j, 0) in x :: word_loop n b' i' j'.
Proof. reflexivity. Qed.
Lemma word_loop_hd n b i j : hd 0 (word_loop (S n) b i j) = snd (bit_loop 48 (b, i, j, 0)).
Proof. rewrite word_loop_S. destruct (bit_loop 48 (b, i, j, 0)) as [[[b' i'] j'] x]. reflexivity. Qed.
Lemma seed_first s : 0 < hd 0 (seed_words s).
Proof.
  unfold seed_words. generalize (to_int32 (if s =? 0 then 1 else s)). intros t.
  rewrite word_loop_hd. apply first_word; apply seed_bits_ok.
Qed.
Lemma seed_alive s : ~ dead (seed_words s, 0).
Proof.
  intros [D _]. pose proof (seed_first s) as P. revert D P. generalize (seed_words s). cbn [fst].
  intros l -> P. cbn in P. lia.
Qed.

Definition all_zero (w : list Z * Z) : Prop := forall i, (i < 12)%nat -> nth i (fst w) 0 = 0.
Lemma all_zero_repeat w : length (fst w) = 12%nat -> all_zero w -> fst w = repeat 0 12.
Proof.
  intros L A. unfold all_zero in A. revert L A. generalize (fst w). intros x L A.
  destruct (twelve x L) as (a0 & a1 & a2 & a3 & a4 & a5 & a6 & a7 & a8 & a9 & a10 & a11 & ->).
  pose proof (A 0%nat ltac:(lia)) as A0. pose proof (A 1%nat ltac:(lia)) as A1. pose proof (A 2%nat ltac:(lia)) as A2.
  pose proof (A 3%nat ltac:(lia)) as A3. pose proof (A 4%nat ltac:(lia)) as A4. pose proof (A 5%nat ltac:(lia)) as A5.
  pose proof (A 6%nat ltac:(lia)) as A6. pose proof (A 7%nat ltac:(lia)) as A7. pose proof (A 8%nat ltac:(lia)) as A8.
  pose proof (A 9%nat ltac:(lia)) as A9. pose proof (A 10%nat ltac:(lia)) as A10. pose proof (A 11%nat ltac:(lia)) as A11.
  cbn in *. now subst.
Qed.
Lemma not_twice w : state_ok w -> ~ dead w -> all_zero w -> ~ all_zero (iter 202 swb w).
Proof.
  intros H D A. pose proof (all_zero_repeat w (proj1 H) A) as E. destruct w as [x c]. cbn [fst] in E. subst x.
  destruct H as (_ & _ & [Hc|Hc]); cbn [snd] in Hc; subst c; [exfalso; apply D; split; reflexivity|].
  intros B. specialize (B 0%nat ltac:(lia)). vm_compute in B. discriminate.
Qed.

Lemma draws_S n st : draws (S n) st = let '(v, st1) := get_double st in let '(vs, st2) := draws n st1 in (v :: vs, st2).
Proof. reflexivity. Qed.
Lemma nonzero_spec fuel st : (exists m, (m < fuel)%nat /\ nth m (fst (draws fuel st)) 0 <> 0) ->
  exists v st', nonzero fuel st = Some (v, st') /\ v <> 0 /\ exists k, (k <= fuel)%nat /\ st' = snd (draws k st) /\ In v (fst (draws k st)).
Proof.
  revert st. induction fuel as [|fuel IH]; intros st (m & Hm & Hv); [lia|]. cbn [nonzero]. rewrite draws_S in Hv.
  destruct (get_double st) as [v st1] eqn:G.
  destruct (Z.eqb_spec v 0) as [->|N].
  - destruct (draws fuel st1) as [vs st2] eqn:Dr. cbn [fst] in Hv. destruct m as [|m]; [now cbn in Hv|].
    destruct (IH st1) as (v & st' & E & Nv & k & Hk & Es & Hi); [exists m; split; [lia|]; now rewrite Dr|].
    exists v, st'. split; [exact E|]. split; [exact Nv|]. exists (S k). split; [lia|]. rewrite draws_S, G.
    destruct (draws k st1) as [us st3]. cbn [fst snd] in *. split; [exact Es|right; exact Hi].
  - exists v, st1. split; [reflexivity|]. split; [exact N|]. exists 1%nat. split; [lia|]. cbn [draws]. rewrite G. cbn. auto.
Qed.

Lemma draws_compose n k st : snd (draws (n + k) st) = snd (draws k (snd (draws n st))) /\
  fst (draws (n + k) st) = fst (draws n st) ++ fst (draws k (snd (draws n st))).
Proof.
  revert st. induction n as [|n IH]; intros st; [split; reflexivity|]. cbn [Nat.add]. rewrite !draws_S.
  destruct (get_double st) as [v st1]. destruct (IH st1) as [E1 E2].
  destruct (draws (n + k) st1) as [a b], (draws n st1) as [c d]. cbn [fst snd] in *. split; [exact E1|]. cbn. now f_equal.
Qed.

(** Whatever has been drawn before, the loop that looks for a number other than 0
    ends after 36 draws at most; the amplitude is in (0,1), so that its logarithm
    exists, and the phase is in [0,1). *)
Theorem C60_sample_terminates : forall s n, exists ampl phase st,
  SAMPLE 36 (snd (draws n (ranlxd1_set s))) = Some (ampl, phase, st) /\
  0 < ampl < 2 ^ 48 /\ 0 <= phase < 2 ^ 48 /\
  exists k, (2 <= k <= 37)%nat /\ st = snd (draws (n + k) (ranlxd1_set s)).
Proof.
  intros s n. unfold SAMPLE.
  assert (P1 : snd (draws (n + 1) (ranlxd1_set s)) = snd (get_double (snd (draws n (ranlxd1_set s))))).
  { rewrite (proj1 (draws_compose n 1 _)). cbn [draws]. destruct (get_double (snd (draws n (ranlxd1_set s)))). reflexivity. }
  assert (F1 : In (fst (get_double (snd (draws n (ranlxd1_set s))))) (fst (draws (n + 1) (ranlxd1_set s)))).
  { rewrite (proj2 (draws_compose n 1 _)). apply in_or_app. right. cbn [draws]. destruct (get_double (snd (draws n (ranlxd1_set s)))). now left. }
  destruct (get_double (snd (draws n (ranlxd1_set s)))) as [phase st1]. cbn [fst snd] in P1, F1. subst st1.
  destruct (draws_at (seed_words s, 0) 202 (n + 1) ltac:(lia) (ranlxd1_set s) 11) as [P _]; [apply at_seed|].
  set (q := (11 + (n + 1))%nat) in P.
  destruct (draws_at (seed_words s, 0) 202 36 ltac:(lia) (snd (draws (n + 1) (ranlxd1_set s))) q P) as [_ E].
  destruct (nonzero_spec 36 (snd (draws (n + 1) (ranlxd1_set s)))) as (v & st' & En & Nv & k & Hk & Es & Hi).
  { destruct (Forall_Exists_dec (fun v => v = 0) (fun v => Z.eq_dec v 0) (fst (draws 36 (snd (draws (n + 1) (ranlxd1_set s)))))) as [A|A].
    - exfalso. rewrite E in A. rewrite Forall_map, Forall_forall in A.
      set (B := S (q / 12)).
      assert (Hq : q = (12 * (q / 12) + q mod 12)%nat) by (apply Nat.div_mod; lia).
      assert (Hm : (q mod 12 < 12)%nat) by (apply Nat.mod_upper_bound; lia).
      assert (Zb : forall b, (b = B \/ b = S B) -> all_zero (iter (Z.to_nat 202 * b) swb (seed_words s, 0))).
      { intros b Hb i Hi. specialize (A (12 * b + i)%nat).
        rewrite (Nat.mul_comm 12 b), (Nat.add_comm (b * 12)), Nat.mod_add, Nat.div_add in A by lia.
        rewrite (Nat.mod_small i), (Nat.div_small i) in A by lia. apply A. apply in_seq. unfold B in *. lia. }
      apply (not_twice (iter (Z.to_nat 202 * B) swb (seed_words s, 0))); [apply iter_ok, seed_ok|apply iter_alive; [apply seed_ok|apply seed_alive]|apply Zb; now left|].
      rewrite <- iter_add. replace (202 + Z.to_nat 202 * B)%nat with (Z.to_nat 202 * S B)%nat by (change (Z.to_nat 202) with 202%nat; lia). apply Zb. now right.
    - apply Exists_exists in A. destruct A as (v & Hv & Nv). destruct (In_nth _ _ 0 Hv) as (m & Hm & Em).
      exists m. assert (Ln : length (fst (draws 36 (snd (draws (n + 1) (ranlxd1_set s))))) = 36%nat) by (rewrite E, map_length, seq_length; reflexivity).
      split; [rewrite <- Ln; exact Hm|rewrite Em; exact Nv]. }
  rewrite En. exists v, phase, st'. split; [reflexivity|].
  assert (R : forall k', In v (fst (draws k' (snd (draws (n + 1) (ranlxd1_set s))))) -> 0 <= v < 2 ^ 48).
  { intros k' H. destruct (C52_range s (n + 1 + k')) as [F _]. rewrite Forall_forall in F. apply F.
    rewrite (proj2 (draws_compose (n + 1) k' _)). apply in_or_app. now right. }
  split; [specialize (R k Hi); lia|]. split.
  - destruct (C52_range s (n + 1)) as [F _]. rewrite Forall_forall in F. now apply F.
  - destruct k as [|k]; [destruct Hi|]. exists (1 + S k)%nat. split; [lia|]. rewrite Nat.add_assoc. now rewrite (proj1 (draws_compose (n + 1) (S k) _)).
Qed.
Example C60_case : exists st, SAMPLE 36 (snd (draws 5 (ranlxd1_set 7))) = Some (210314797736146, 2621159302034, st).
Proof. eexists. vm_compute. reflexivity. Qed.

Print Assumptions C52_stream.
Print Assumptions C52_range.
Print Assumptions C52_seed_zero.
Print Assumptions C52_seed_collision.
Print Assumptions C60_sample_terminates.
