(** Property C103: decompose and load with the integers the code stores ([MachineModel.v]). *)
From Coq Require Import List Arith ZArith QArith Qround Lqa Lia Bool Sorted.
From Verif Require Import Base ListFacts LayoutModel LayoutSpec LayoutProofs LayoutModes LayoutMore
  WrapModel WrapProofs DomainModel DomainFill DomainGeom DomainTargets DomainHome DomainAssign DomainProperties MachineModel.
Import ListNotations.
Local Close Scope Q_scope.
Local Open Scope Z_scope.
Local Arguments list_sum : simpl never.

(** ** stored integers *)
Lemma i16_id z : -32768 <= z < 32768 -> i16 z = z.
Proof. intros H. unfold i16, signed. change (2 ^ (16 - 1)) with 32768. change (2 ^ 16) with 65536. rewrite Z.mod_small by lia. lia. Qed.
Lemma i32_id z : -2147483648 <= z < 2147483648 -> i32 z = z.
Proof. intros H. unfold i32, signed. change (2 ^ (32 - 1)) with 2147483648. change (2 ^ 32) with 4294967296. rewrite Z.mod_small by lia. lia. Qed.
Lemma i32_add a b : i32 (i32 a + b) = i32 (a + b).
Proof.
  unfold i32, signed. change (2 ^ (32 - 1)) with 2147483648. change (2 ^ 32) with 4294967296.
  replace ((a + 2147483648) mod 4294967296 - 2147483648 + b + 2147483648) with ((a + 2147483648) mod 4294967296 + b) by ring.
  rewrite Zplus_mod_idemp_l. f_equal. f_equal. ring.
Qed.
Lemma i32_neg z : 2147483648 <= z < 4294967296 -> i32 z = z - 4294967296.
Proof.
  intros H. unfold i32, signed. change (2 ^ (32 - 1)) with 2147483648. change (2 ^ 32) with 4294967296.
  replace (z + 2147483648) with (z - 2147483648 + 1 * 4294967296) by ring. rewrite Z.mod_add by lia. rewrite Z.mod_small by lia. ring.
Qed.

(** ** the ranges of domains *)
Lemma digitize_bound x e : 0 <= digitize x e <= Z.of_nat (length e).
Proof. unfold digitize. induction e as [|a e IH]; cbn [filter length]; [lia|]. destruct (Qle_bool a x); cbn [length]; lia. Qed.
Definition in16 (lh : Z * Z) : Prop := -32768 <= fst lh < 32768 /\ -32768 <= snd lh < 32768.
Lemma axis_bounds (per : bool) e s c : (if per then axis_ok e else open_axis_ok e) -> (0 <= s)%Q -> (2 <= length e)%nat ->
  let r := if per then patch_periodic e s c else patch_open e s c in
  - ndom e <= fst r <= ndom e /\ - ndom e <= snd r <= 2 * ndom e - 1 /\ 0 <= snd r - fst r <= 2 * ndom e.
Proof.
  intros H Hs Hl r. pose proof (axis_patch_le per e s c H Hs) as Hle. fold r in Hle. pose proof (ndom_pos e Hl) as Hn. destruct per; unfold r in *.
  - unfold patch_periodic in *. cbn [fst snd] in *.
    destruct (digitize_own e H (qrem c (period e))) as (k & E1 & E2 & _); [apply qrem_bounds; apply (ax_pos e H)..|]. rewrite E1 in *.
    assert (Hk : Z.of_nat (S k) <= ndom e) by (unfold ndom; lia).
    match goal with |- context [(Z.of_nat (S k) - ?l) mod _] => pose proof (Z.mod_pos_bound (Z.of_nat (S k) - l) (ndom e) Hn) end.
    match goal with |- context [(?l - Z.of_nat (S k)) mod _] => pose proof (Z.mod_pos_bound (l - Z.of_nat (S k)) (ndom e) Hn) end.
    lia.
  - unfold patch_open, clip in *. cbn [fst snd] in *. lia.
Qed.

Definition few_domains (g : grid) : Prop := Forall (fun e => ndom e <= 16384) (g_edges g).
Lemma patches_bounds g sm x : Forall (fun e => (2 <= length e)%nat) (g_edges g) -> wf_axes g -> wf_input g sm x ->
  Forall2 (fun lh n => - n <= fst lh <= n /\ - n <= snd lh <= 2 * n - 1 /\ 0 <= snd lh - fst lh <= 2 * n) (patch_of g sm x) (g_dims g).
Proof.
  unfold wf_axes, wf_input, patch_of, g_dims. generalize (g_edges g) as es. generalize (g_periodic g) as per. intros per es.
  revert sm x. induction es as [|e es IH]; intros sm x Hl Ha (H1 & H2 & H3); destruct sm as [|s sm]; try discriminate; [constructor|].
  destruct x as [|c x]; [cbn in H3; lia|]. cbn in H1, H3. inversion Hl; subst. inversion Ha; subst. inversion H2; subst. cbn [patches map]. constructor.
  - apply axis_bounds; assumption.
  - apply IH; [assumption..|]. repeat split; [lia|assumption|lia].
Qed.
Lemma patches16_id g sm x : Forall (fun e => (2 <= length e)%nat) (g_edges g) -> wf_axes g -> wf_input g sm x -> few_domains g ->
  patches16 (g_periodic g) (g_edges g) sm x = patch_of g sm x.
Proof.
  intros H1 H2 H3 H4. pose proof (patches_bounds g sm x H1 H2 H3) as B. unfold patches16. fold (patch_of g sm x).
  assert (F : Forall in16 (patch_of g sm x)).
  { unfold few_domains, g_dims in *. revert B H4. generalize (patch_of g sm x) as r. generalize (g_edges g) as es. clear.
    induction es as [|e es IH]; intros r B H; inversion B; subst; constructor; inversion H; subst.
    - unfold in16. lia.
    - now apply IH. }
  clear B. induction F as [|lh r H F IH]; [reflexivity|]. cbn [map]. rewrite IH. destruct H. rewrite !i16_id by assumption. now destruct lh.
Qed.

(** ** sizes, strides, domain numbers *)
Lemma prodz_ge1 ms : Forall (fun m => 1 <= m) ms -> 1 <= prodz ms.
Proof. intros H. assert (0 < prodz ms); [|lia]. apply prodz_pos. eapply Forall_impl; [|exact H]. cbn. lia. Qed.
Lemma patchsize32_fold r ms a A : Forall2 (fun lh m => 0 <= snd lh - fst lh <= m) r ms -> Forall (fun m => 1 <= m) ms ->
  0 <= a <= A -> A * prodz ms < 2147483648 ->
  fold_left (fun a lh => i32 (a * i32 (snd lh - fst lh))) r a = a * patchsize r.
Proof.
  intros H. revert a A. induction H as [|lh m r ms H _ IH]; intros a A Hm Ha HA; [cbn; ring|]. inversion Hm; subst.
  pose proof (prodz_ge1 ms H3) as Hp. cbn [prodz fold_right] in HA. fold (prodz ms) in HA.
  assert (Q0 : m <= m * prodz ms) by nia.
  assert (Q1 : A * m <= A * (m * prodz ms)) by (apply Z.mul_le_mono_nonneg_l; lia).
  assert (Q2 : 1 <= A -> m <= A * m) by nia.
  cbn [fold_left patchsize fold_right]. fold (patchsize r).
  destruct (Z.eq_dec a 0) as [->|Hz].
  - rewrite Z.mul_0_l, (i32_id 0) by lia. rewrite (IH 0 0) by (try assumption; lia). ring.
  - assert (Hd : i32 (snd lh - fst lh) = snd lh - fst lh) by (apply i32_id; nia). rewrite Hd.
    assert (Hq : 0 <= a * (snd lh - fst lh) <= A * m) by nia.
    rewrite i32_id by nia. rewrite (IH _ (A * m)); [ring|assumption|assumption|lia].
Qed.
Lemma prodz_two dims : prodz (map (Z.mul 2) dims) = 2 ^ Z.of_nat (length dims) * prodz dims.
Proof.
  induction dims as [|d ds IH]; [reflexivity|]. cbn [map prodz fold_right length]. fold (prodz (map (Z.mul 2) ds)) (prodz ds). rewrite IH.
  rewrite Nat2Z.inj_succ, Z.pow_succ_r by lia. ring.
Qed.
Lemma strides32_id dims : Forall (fun d => 0 < d) dims -> prodz dims < 2147483648 -> strides32 dims = strides_of dims.
Proof.
  induction dims as [|d ds IH]; intros Hp Hb; [reflexivity|]. inversion Hp; subst. cbn [prodz fold_right] in Hb. fold (prodz ds) in Hb.
  pose proof (prodz_pos ds H2) as Q. cbn [strides32 strides_of]. rewrite IH by (try assumption; nia). destruct ds as [|d' ds]; [reflexivity|].
  rewrite strides_of_eq. cbn [suffix_prods]. f_equal. apply i32_id. cbn [prodz fold_right] in Hb, Q. fold (prodz ds) in Hb, Q. nia.
Qed.
Lemma flat_target32_id per dims p : valid_index dims (wrap_index per dims p) -> prodz dims < 2147483648 -> length p = length dims ->
  flat_target32 per dims (suffix_prods dims) p = flat_target per dims (suffix_prods dims) p.
Proof.
  revert p. induction dims as [|d ds IH]; intros [|t p] H Hb Hl; try reflexivity; try discriminate.
  unfold wrap_index in H. cbn [combine map fst snd] in H. inversion H; subst. fold (wrap_index per ds p) in *.
  cbn [suffix_prods flat_target32 flat_target]. cbn [prodz fold_right] in Hb. fold (prodz ds) in Hb.
  pose proof (prodz_pos ds (valid_pos _ _ H5)) as Q. rewrite (IH p); [|assumption|nia|now injection Hl].
  f_equal. apply i32_id. assert (T : 0 <= (if per then wrap_du d t else t) < d).
  { destruct per; [|exact H3]. rewrite wrap_du_mod by lia. exact H3. }
  nia.
Qed.
(** ** the odometer *)
Definition in32 (x : Z) : Prop := -2147483648 <= x < 2147483647.
Lemma advance_in32_id r p : Forall in32 p -> advance_in32 r p = advance_in r p.
Proof.
  revert p. induction r as [|[lo hi] r IH]; intros [|x p] H; try reflexivity. inversion H; subst. unfold in32 in *.
  cbn [advance_in32 advance_in]. rewrite IH by assumption. rewrite i32_id by lia. reflexivity.
Qed.
Lemma advance32_id r p : Forall in32 p -> advance32 r p = advance r p.
Proof.
  destruct r as [|lh r], p as [|x p]; intros H; try reflexivity. inversion H; subst. unfold in32 in *.
  cbn [advance32 advance]. rewrite advance_in32_id by assumption. rewrite i32_id by lia. reflexivity.
Qed.
Lemma patch_loop32_id g dims r n p acc :
  Forall (fun q => Forall in32 q /\ flat_target32 (g_periodic g) dims (strides32 dims) q = flat_target (g_periodic g) dims (strides_of dims) q) (visit r n p) ->
  patch_loop32 g dims r n p acc = patch_loop g dims r n p acc.
Proof.
  revert p acc. induction n as [|n IH]; intros p acc H; [reflexivity|]. cbn [visit] in H. inversion H as [|? ? [H1 H2] H3]; subst.
  cbn [patch_loop32 patch_loop]. rewrite H2. destruct (zlookup _ _) as [t|]; [|reflexivity]. destruct (nth_error _ t) as [b|]; [|reflexivity].
  rewrite advance32_id by assumption. now apply IH.
Qed.
Definition countable (g : grid) : Prop := 2 ^ Z.of_nat (length (g_edges g)) * prodz (g_dims g) < 2 ^ 31.
Lemma particle_targets32_id P g sm x : wf_grid P g -> wf_axes g -> wf_input g sm x -> few_domains g -> countable g ->
  particle_targets32 g sm x = particle_targets g sm x.
Proof.
  intros W A I F C. unfold particle_targets32, particle_targets. fold (patch_of g sm x). rewrite patches16_id by (try assumption; apply W).
  set (r := patch_of g sm x). pose proof (patches_bounds g sm x (wf_dims P g W) A I) as B. fold r in B. pose proof (wf_dims_pos P g W) as D.
  pose proof (patches_le g sm x A I) as L. fold r in L. unfold countable in C. change (2 ^ 31) with 2147483648 in C.
  pose proof (prodz_pos _ D) as DP. assert (P1 : 1 <= 2 ^ Z.of_nat (length (g_edges g))) by (assert (0 < 2 ^ Z.of_nat (length (g_edges g))) by (apply Z.pow_pos_nonneg; lia); lia).
  assert (S1 : patchsize32 r = patchsize r).
  { unfold patchsize32. rewrite (patchsize32_fold r (map (Z.mul 2) (g_dims g)) 1 1); [ring| | |lia|].
    - clear -B. induction B as [|lh n r ns H B IH]; constructor; [lia|exact IH].
    - apply Forall_map. eapply Forall_impl; [|exact D]. intros a Q. cbv beta in Q. lia.
    - rewrite prodz_two. unfold g_dims. rewrite map_length. fold (g_dims g). lia. }
  rewrite S1. rewrite patch_loop32_id; [reflexivity|]. rewrite visit_box by exact L. apply Forall_forall. intros q Hq.
  assert (V : valid_index (g_dims g) (wrap_index (g_periodic g) (g_dims g) q)) by exact (proj1 (patch_cells g sm x q A I Hq)).
  apply in_box in Hq. assert (Lq : length q = length (g_dims g)).
  { clear -B Hq. revert q Hq. induction B as [|lh n r ns _ B IH]; intros q Hq; inversion Hq; subst; [reflexivity|]. cbn. f_equal. now apply IH. }
  split.
  - unfold few_domains in F. assert (F' : Forall (fun n => n <= 16384) (g_dims g)) by (unfold g_dims; apply Forall_map; exact F). clear -B F' Hq.
    revert q Hq. induction B as [|lh n r ns H B IH]; intros q Hq; inversion Hq; subst; constructor.
    + inversion F'; subst. unfold in32. lia.
    + inversion F'; subst. now apply IH.
  - rewrite strides32_id by (try assumption; nia). rewrite strides_of_eq. apply flat_target32_id; [exact V|nia|exact Lq].
Qed.

(** ** the two passes *)
Lemma upd_map {A B} (h : A -> B) (f : B -> B) (f' : A -> A) t l : (forall a, f (h a) = h (f' a)) -> upd t f (map h l) = map h (upd t f' l).
Proof. intros H. revert t. induction l as [|a l IH]; intros [|t]; cbn; try reflexivity; [now rewrite H|now rewrite IH]. Qed.
Lemma upd_nth_other {A} i (f : A -> A) l j d : j <> i -> nth j (upd i f l) d = nth j l d.
Proof. revert i j. induction l as [|a l IH]; intros [|i] [|j] H; cbn; try reflexivity; [congruence|apply IH; congruence]. Qed.
Definition stored (n : nat) : Z := i32 (Z.of_nat n).
Lemma stored_S n : i32 (stored n + 1) = stored (S n).
Proof. unfold stored. rewrite i32_add. f_equal. lia. Qed.
Lemma count32 P ts : count_pass32 P ts = map stored (count_pass P ts).
Proof.
  unfold count_pass32, count_pass. replace (repeat 0 P) with (map stored (repeat 0%nat P)).
  - generalize (repeat 0%nat P) as c. induction ts as [|t ts IH]; intros c; [reflexivity|]. cbn [fold_left]. rewrite <- IH. f_equal.
    revert c. induction t as [|k t IHt]; intros c; [reflexivity|]. cbn [fold_left]. rewrite <- IHt. f_equal. apply upd_map. intros a. apply stored_S.
  - induction P as [|P IH]; [reflexivity|]. cbn [repeat map]. now rewrite IH.
Qed.
Lemma offsets32_eq c a : offsets32 (stored a) (map stored c) = map stored (offsets_from a c ++ [(a + list_sum c)%nat]).
Proof.
  revert a. induction c as [|k c IH]; intros a; [cbn; now rewrite Nat.add_0_r|]. cbn [map offsets32 offsets_from app]. f_equal.
  replace (i32 (stored a + stored k)) with (stored (a + k)).
  - rewrite IH. do 2 f_equal. f_equal. change (list_sum (k :: c)) with (k + list_sum c)%nat. lia.
  - unfold stored. rewrite i32_add. rewrite (Z.add_comm (Z.of_nat a)), i32_add. f_equal. lia.
Qed.
Lemma stored_id n : Z.of_nat n < 2147483648 -> stored n = Z.of_nat n.
Proof. intros H. apply i32_id. lia. Qed.
Lemma index_pass32_pairs i0 ts st :
  index_pass32 i0 ts st = fold_left (fun st p => push32 (snd p) st (fst p)) (pairs_of i0 ts) st.
Proof.
  revert i0 st; induction ts as [|t ts IH]; intros i0 st; [reflexivity|].
  rewrite pairs_of_cons, fold_left_app. simpl. rewrite IH. f_equal.
  revert st. induction t as [|x t IHt]; intros st; simpl; [reflexivity|]. apply IHt.
Qed.
(** while every offset with the pushes still to come stays inside of the array, the stored offsets
    are the true ones *)
Lemma push32_fold W : forall idx off tot, Z.of_nat (length idx) < 2147483648 ->
  Forall (fun p => (fst p < length off)%nat /\ Z.of_nat (snd p) < 2147483648) W ->
  (forall t, (t < length off)%nat -> (nth t off 0 + length (group t W) <= length idx)%nat) ->
  exists o', fold_left (fun st p => push32 (snd p) st (fst p)) W (Some (map (option_map Z.of_nat) idx, map Z.of_nat off ++ [tot]))
    = Some (map (option_map Z.of_nat) (fst (fold_left (fun st p => push (snd p) st (fst p)) W (idx, off))), o').
Proof.
  induction W as [|[t i] W IH]; intros idx off tot HB HW HI; [eexists; reflexivity|]. inversion HW as [|? ? [H1 H2] H3]; subst. cbn [fst snd] in *.
  cbn [fold_left fst snd]. pose proof (HI t H1) as Ht. unfold group in Ht. cbn [filter fst] in Ht. rewrite Nat.eqb_refl in Ht. cbn [map length] in Ht.
  unfold push32. rewrite app_nth1 by (rewrite map_length; exact H1). rewrite (nth_map_in Z.of_nat off t 0 0%nat) by exact H1. rewrite map_length.
  replace ((0 <=? Z.of_nat (nth t off 0%nat)) && (Z.of_nat (nth t off 0%nat) <? Z.of_nat (length idx))) with true by (symmetry; apply andb_true_intro; split; [apply Z.leb_le|apply Z.ltb_lt]; lia).
  rewrite Nat2Z.id. unfold push at 2. cbn [fst snd].
  assert (E1 : upd (nth t off 0%nat) (fun _ => Some (i32 (Z.of_nat i))) (map (option_map Z.of_nat) idx) = map (option_map Z.of_nat) (upd (nth t off 0%nat) (fun _ => Some i) idx)).
  { apply upd_map. intros a. cbn. now rewrite i32_id by lia. }
  assert (E2 : upd t (fun k => i32 (k + 1)) (map Z.of_nat off ++ [tot]) = map Z.of_nat (upd t S off) ++ [tot]).
  { rewrite upd_app_l by (rewrite map_length; exact H1). f_equal. apply (nth_ext _ _ 0 0); [rewrite !upd_length, !map_length; now rewrite upd_length|].
    intros j Hj. rewrite upd_length, map_length in Hj. rewrite (nth_map_in Z.of_nat (upd t S off) j 0 0%nat) by (now rewrite upd_length).
    destruct (Nat.eq_dec j t) as [->|Hn].
    - rewrite (upd_nth_same t _ _ 0) by (rewrite map_length; exact H1). rewrite (upd_nth_same t S off 0%nat) by exact H1. rewrite (nth_map_in Z.of_nat off t 0 0%nat) by exact H1.
      rewrite i32_id by lia. lia.
    - rewrite !upd_nth_other by congruence. now rewrite (nth_map_in Z.of_nat off j 0 0%nat). }
  rewrite E1, E2. apply IH.
  - now rewrite upd_length.
  - now rewrite upd_length.
  - intros r Hr. rewrite !upd_length in *. pose proof (HI r Hr) as Q. unfold group in *. cbn [filter fst] in Q. destruct (Nat.eq_dec r t) as [->|Hn].
    + rewrite (upd_nth_same t S off 0%nat) by exact H1. rewrite Nat.eqb_refl in Q. cbn [map length] in Q. lia.
    + rewrite upd_nth_other by congruence. replace (t =? r)%nat with false in Q by (symmetry; apply Nat.eqb_neq; congruence). exact Q.
Qed.
Lemma firstn_nth_sum c t : (list_sum (firstn t c) + nth t c 0 <= list_sum c)%nat.
Proof.
  revert t. induction c as [|a c IH]; intros [|t]; cbn [firstn nth]; [cbn; lia|cbn; lia| |]; change (list_sum (a :: c)) with (a + list_sum c)%nat.
  - change (list_sum []) with 0%nat. lia.
  - change (list_sum (a :: firstn t c)) with (a + list_sum (firstn t c))%nat. specialize (IH t). lia.
Qed.
Lemma filter_le {A} (f : A -> bool) l : (length (filter f l) <= length l)%nat.
Proof. induction l as [|a l IH]; cbn; [lia|]. destruct (f a); cbn; lia. Qed.
Lemma last_app_one {A} (l : list A) a d : last (l ++ [a]) d = a.
Proof. induction l as [|b l IH]; [reflexivity|]. cbn [app]. destruct l; [reflexivity|exact IH]. Qed.

(** ** the theorem on decompose *)
Theorem C103_decompose : forall P g tr sm poss pos n c idx, setting P g tr sm poss -> In pos poss -> few_domains g -> countable g ->
  Z.of_nat (length pos) < 2 ^ 31 -> decompose P g tr sm pos = Ret (n, c, idx) ->
  (Z.of_nat (length idx) < 2 ^ 31 -> decompose32 P g tr sm pos = Ret (n, map Z.of_nat c, map Z.of_nat idx)) /\
  (2 ^ 31 <= Z.of_nat (length idx) < 2 ^ 32 -> decompose32 P g tr sm pos = Raise ValueError).
Proof.
  intros P g tr sm poss pos n c idx [W A _ I] Hin F C Hlen HD. change (2 ^ 31) with 2147483648 in *. change (2 ^ 32) with 4294967296.
  set (T := fun x => targets g sm (tr x)).
  assert (HT : forall x, In x pos -> particle_targets g sm (tr x) = Ret (T x) /\ StronglySorted lt (T x) /\ (forall t, In t (T x) -> (t < P)%nat)).
  { intros x Hx. destruct (targets_ok P g sm (tr x) W A (I pos x Hin Hx)) as (H1 & H2 & H3 & _). now repeat split. }
  pose proof (decompose_ok P g tr sm pos T HT) as DO. rewrite HD in DO. injection DO as -> -> ->.
  unfold decompose32. replace (Z.of_nat (length pos) <? 2 ^ 31) with true by (symmetry; apply Z.ltb_lt; exact Hlen).
  destruct pos as [|x0 pos'] eqn:Epos.
  { replace (flat_map (sent_to T []) (seq 0 P)) with (@nil nat) by (symmetry; apply flat_map_nil; reflexivity). cbn [length]. split; [|lia]. intros _. do 3 f_equal.
    rewrite map_map. cbn. clear. generalize 0%nat as a. induction P as [|P IH]; intros a; [reflexivity|]. cbn [repeat seq map]. now rewrite (IH (S a)). }
  rewrite <- Epos in *. clear x0 pos' Epos HD.
  assert (Hc : collect (map (fun x => particle_targets32 g sm (tr x)) pos) = Ret (map T pos)).
  { apply collect_Ret. rewrite map_map. apply map_ext_in. intros x Hx. rewrite (particle_targets32_id P) by (try assumption; now apply (I pos)). apply HT, Hx. }
  rewrite Hc. cbn [bind].
  assert (HP : Forall (Forall (fun t => t < P)%nat) (map T pos)).
  { apply Forall_forall. intros l Hl. apply in_map_iff in Hl. destruct Hl as (x & <- & Hx). apply Forall_forall. apply HT, Hx. }
  replace (forallb (forallb (fun t => (t <? P)%nat)) (map T pos)) with true.
  2: { symmetry. apply forallb_forall. intros l Hl. apply forallb_forall. intros t Ht.
       apply Nat.ltb_lt. rewrite Forall_forall in HP. specialize (HP l Hl). rewrite Forall_forall in HP. now apply HP. }
  assert (HN : Forall (@NoDup nat) (map T pos)).
  { apply Forall_forall. intros l Hl. apply in_map_iff in Hl. destruct Hl as (x & <- & Hx). apply sorted_lt_NoDup, HT, Hx. }
  assert (HG : forall r, group r (pairs_of 0 (map T pos)) = sent_to T pos r).
  { intros r. rewrite group_pairs by assumption. rewrite map_length. unfold sent_to.
    apply filter_ext_in. intros i Hi. apply in_seq in Hi. rewrite Nat.sub_0_r. rewrite (nth_map_in T pos i [] []) by lia. reflexivity. }
  destruct (passes_ok P (map T pos) HP) as (E1 & E2). set (counts := count_pass P (map T pos)) in *.
  assert (EC : counts = map (fun r => length (sent_to T pos r)) (seq 0 P)) by (rewrite E1; apply map_ext; intros r; now rewrite HG).
  assert (EL : length (flat_map (sent_to T pos) (seq 0 P)) = list_sum counts).
  { rewrite EC. clear. generalize (seq 0 P). intros l. induction l as [|a l IH]; [reflexivity|]. cbn [flat_map map]. rewrite app_length, IH. reflexivity. }
  assert (LC : length counts = P) by (rewrite EC; now rewrite map_length, seq_length).
  assert (HC : forall k, In k counts -> Z.of_nat k < 2147483648).
  { intros k Hk. rewrite EC in Hk. apply in_map_iff in Hk. destruct Hk as (r & <- & _). unfold sent_to.
    match goal with |- context [filter ?f ?l] => pose proof (filter_le f l) as Q end. rewrite seq_length in Q. lia. }
  rewrite count32. fold counts. pose proof (offsets32_eq counts 0) as OE. change (stored 0) with 0 in OE. rewrite OE, map_app. cbn [map]. rewrite last_app_one. rewrite EL. cbn [Nat.add].
  split; intros HB.
  - rewrite (stored_id (list_sum counts)) by exact HB. replace (Z.of_nat (list_sum counts) <? 0) with false by (symmetry; apply Z.ltb_ge; lia).
    rewrite Nat2Z.id. assert (S1 : map stored counts = map Z.of_nat counts) by (apply map_ext_in; intros k Hk; apply stored_id; now apply HC).
    assert (S2 : map stored (offsets_from 0 counts) = map Z.of_nat (offsets_from 0 counts)).
    { apply map_ext_in. intros k Hk. apply stored_id. rewrite offsets_from_firstn in Hk. apply in_map_iff in Hk. destruct Hk as (r & <- & _). pose proof (firstn_nth_sum counts r). lia. }
    rewrite S2. replace (repeat None (list_sum counts)) with (map (option_map Z.of_nat) (repeat (@None nat) (list_sum counts))).
    2: { generalize (list_sum counts). intros m. induction m as [|m IH]; [reflexivity|]. cbn [repeat map]. now rewrite IH. }
    rewrite index_pass32_pairs. destruct (push32_fold (pairs_of 0 (map T pos)) (repeat None (list_sum counts)) (offsets_from 0 counts) (Z.of_nat (list_sum counts))) as (o' & EF).
    + rewrite repeat_length. exact HB.
    + assert (LO : length (offsets_from 0 counts) = P) by (rewrite offsets_from_firstn, map_length, seq_length; exact LC). rewrite LO.
      assert (G : forall ts i0, Forall (Forall (fun t => t < P)%nat) ts -> Forall (fun p => (fst p < P)%nat /\ (snd p < i0 + length ts)%nat) (pairs_of i0 ts)).
      { clear. intros ts. induction ts as [|t ts IH]; intros i0 H; [constructor|]. inversion H; subst. rewrite pairs_of_cons. apply Forall_app. split.
        - apply Forall_map. eapply Forall_impl; [|exact H2]. cbn. intros a Ha. lia.
        - eapply Forall_impl; [|apply (IH (S i0)); assumption]. cbn. intros [a b] [Q1 Q2]. cbn in *. lia. }
      eapply Forall_impl; [|apply (G _ 0%nat HP)]. rewrite map_length. intros [a b] [Q1 Q2]. cbn in *. lia.
    + intros t Ht. rewrite offsets_from_firstn in *. rewrite map_length, seq_length in Ht. rewrite nth_map_seq by exact Ht. rewrite repeat_length.
      pose proof (firstn_nth_sum counts t) as Q. rewrite HG. rewrite EC in Q at 2. rewrite nth_map_seq in Q by (rewrite <- LC; exact Ht). exact Q.
    + rewrite EF. rewrite <- index_pass_pairs, E2. rewrite map_map. cbn [option_map]. rewrite <- (map_map Z.of_nat Some). unfold force. rewrite sequence_map_Some. cbn [bind].
      rewrite S1, EC. do 2 f_equal. f_equal. apply flat_map_ext. intros r. apply HG.
  - replace (stored (list_sum counts) <? 0) with true; [reflexivity|]. symmetry. apply Z.ltb_lt. unfold stored. rewrite i32_neg by exact HB. lia.
Qed.
Print Assumptions C103_decompose.

(** two particles on the first rank, one of them sent to both ranks *)
Example C103_case : few_domains ex_grid /\ countable ex_grid /\
  map (decompose32 2 ex_grid (fun x => x) ex_sm) ex_poss = [Ret (2%nat, [2; 2], [0; 1; 0; 1]); Ret (1%nat, [1; 1], [0; 0])].
Proof. split; [repeat constructor; vm_compute; discriminate|]. split; [vm_compute; reflexivity|]. vm_compute. reflexivity. Qed.

Lemma nth_repeat_in {A} (a z : A) n i : (i < n)%nat -> nth i (repeat a n) z = a.
Proof. revert i. induction n as [|n IH]; intros [|i] H; cbn; try lia; [reflexivity|apply IH; lia]. Qed.
(** ** more copies than 2^31 - 1: two domains, every particle is sent to both *)
Definition two_grid : grid := mkGrid [[0; 1; 2]]%Q true [0; 1]%nat [false; false].
Theorem C103_too_many : forall N, 2 ^ 30 <= Z.of_nat N < 2 ^ 31 ->
  decompose32 2 two_grid (fun x => x) [1 # 2]%Q (repeat [1 # 2]%Q N) = Raise ValueError.
Proof.
  intros N HN. change (2 ^ 30) with 1073741824 in HN. change (2 ^ 31) with 2147483648 in HN.
  set (T := fun x => targets two_grid [1 # 2]%Q x).
  assert (W : wf_grid 2 two_grid) by (split; [repeat constructor; cbn; lia|reflexivity|reflexivity|repeat constructor|repeat constructor]).
  assert (A : wf_axes two_grid).
  { repeat constructor. all: try (vm_compute; intuition congruence). }
  assert (T1 : T [1 # 2]%Q = [0; 1]%nat) by (vm_compute; reflexivity).
  assert (I : forall x, In x (repeat [1 # 2]%Q N) -> wf_input two_grid [1 # 2]%Q x).
  { intros x Hx. apply repeat_spec in Hx. subst x. repeat split; [repeat constructor; vm_compute; discriminate|cbn; lia]. }
  assert (D : decompose 2 two_grid (fun x => x) [1 # 2]%Q (repeat [1 # 2]%Q N) = Ret (N, map (fun r => length (sent_to T (repeat [1 # 2]%Q N) r)) (seq 0 2), flat_map (sent_to T (repeat [1 # 2]%Q N)) (seq 0 2))).
  { rewrite <- (repeat_length [1 # 2]%Q N) at 2. apply decompose_ok. intros x Hx.
    destruct (targets_ok 2 two_grid [1 # 2]%Q x W A (I x Hx)) as (H1 & H2 & H3 & _). now repeat split. }
  assert (S1 : forall r, (r < 2)%nat -> length (sent_to T (repeat [1 # 2]%Q N) r) = N).
  { intros r Hr. unfold sent_to. rewrite repeat_length. rewrite filter_all; [apply seq_length|]. intros i Hi. apply in_seq in Hi.
    rewrite nth_repeat_in by lia. rewrite T1. destruct (in_dec Nat.eq_dec r [0; 1]%nat) as [_|Q]; [reflexivity|]. exfalso. apply Q. destruct r as [|[|r]]; [now left|right; now left|lia]. }
  apply (C103_decompose 2 two_grid (fun x => x) [1 # 2]%Q [repeat [1 # 2]%Q N; []] (repeat [1 # 2]%Q N) N (map (fun r => length (sent_to T (repeat [1 # 2]%Q N) r)) (seq 0 2)) (flat_map (sent_to T (repeat [1 # 2]%Q N)) (seq 0 2))).
  - split; [exact W|exact A|reflexivity|]. intros pos x [<-|[<-|[]]] Hx; [now apply I|destruct Hx].
  - now left.
  - repeat constructor. vm_compute. discriminate.
  - vm_compute. reflexivity.
  - rewrite repeat_length. apply HN.
  - exact D.
  - cbn [seq flat_map]. rewrite app_nil_r, app_length, !S1 by lia. change (2 ^ 31) with 2147483648. change (2 ^ 32) with 4294967296. lia.
Qed.
Print Assumptions C103_too_many.

(** ** more domains than 32767 along an axis: n domains of width one, one on each of n ranks, and
    a particle in the middle of the last one *)
Definition long_edges (n : nat) : list Q := map (fun k => inject_Z (Z.of_nat k)) (seq 0 (S n)).
Definition long_grid (n : nat) : grid := mkGrid [long_edges n] true (seq 0 n) (repeat false n).
Definition far_out (n : nat) : Q := (inject_Z (Z.of_nat n) - (1 # 2))%Q.
Lemma long_E n k : (k <= n)%nat -> E (long_edges n) k = inject_Z (Z.of_nat k).
Proof. intros H. unfold E, long_edges. rewrite nth_map_seq by lia. reflexivity. Qed.
Lemma long_length n : length (long_edges n) = S n.
Proof. unfold long_edges. now rewrite map_length, seq_length. Qed.
Lemma long_axis n : (1 <= n)%nat -> axis_ok (long_edges n).
Proof.
  intros H. assert (L := long_length n). split.
  - rewrite L. lia.
  - unfold long_edges. generalize 0%nat as a. generalize (S n) as m. clear. intros m. induction m as [|m IH]; intros a; [constructor|]. cbn [seq map]. constructor; [apply IH|].
    apply Forall_map, Forall_forall. intros x Hx. apply in_seq in Hx. rewrite <- Zle_Qle. lia.
  - rewrite long_E by lia. reflexivity.
  - rewrite period_E by (rewrite L; lia). rewrite L. replace (S n - 1)%nat with n by lia. rewrite long_E by lia. change 0%Q with (inject_Z 0). rewrite <- Zlt_Qlt. lia.
Qed.
Lemma long_patch n : (1 <= n)%nat -> patch_periodic (long_edges n) 0 (far_out n) = (Z.of_nat n - 1, Z.of_nat n).
Proof.
  intros H. pose proof (long_axis n H) as A. assert (L := long_length n).
  assert (HP : period (long_edges n) = inject_Z (Z.of_nat n)) by (rewrite period_E by (rewrite L; lia); rewrite L; replace (S n - 1)%nat with n by lia; now apply long_E).
  assert (Hn : (1 <= inject_Z (Z.of_nat n))%Q) by (change 1%Q with (inject_Z 1); rewrite <- Zle_Qle; lia).
  assert (R : forall y, (y == far_out n)%Q -> (qrem y (inject_Z (Z.of_nat n)) == far_out n)%Q).
  { intros y Hy. apply (qrem_unique y _ (far_out n) 0); unfold far_out in *; [lra|lra|lra|]. unfold iz. change (inject_Z 0) with 0%Q. lra. }
  assert (Dg : forall y, (y == far_out n)%Q -> digitize y (long_edges n) = Z.of_nat n).
  { intros y Hy. rewrite (digitize_Qeq _ _ _ Hy). rewrite (digitize_at _ A (n - 1)); [f_equal; lia|rewrite L; lia| |].
    - rewrite long_E by lia. unfold far_out. replace (Z.of_nat (n - 1)) with (Z.of_nat n + -1) by lia. rewrite inject_Z_plus. change (inject_Z (-1)) with (-1)%Q. lra.
    - replace (S (n - 1)) with n by lia. rewrite long_E by lia. unfold far_out. lra. }
  unfold patch_periodic. rewrite HP. rewrite !Dg.
  - rewrite Z.sub_diag, Z.mod_0_l by (unfold ndom; rewrite L; lia). f_equal; lia.
  - apply R. rewrite R by reflexivity. lra.
  - apply R. rewrite R by reflexivity. lra.
  - apply R. reflexivity.
Qed.
Lemma i16_over z : 32768 <= z < 98304 -> i16 z = z - 65536.
Proof.
  intros H. unfold i16, signed. change (2 ^ (16 - 1)) with 32768. change (2 ^ 16) with 65536.
  replace (z + 32768) with (z - 32768 + 1 * 65536) by ring. rewrite Z.mod_add by lia. rewrite Z.mod_small by lia. ring.
Qed.
Lemma long_ndom n : ndom (long_edges n) = Z.of_nat n.
Proof. unfold ndom. rewrite long_length. lia. Qed.
Lemma nth_error_repeat_in {A} (a : A) n i : (i < n)%nat -> nth_error (repeat a n) i = Some a.
Proof. revert i. induction n as [|n IH]; intros [|i] H; cbn; try lia; [reflexivity|apply IH; lia]. Qed.
(** with unbounded integers it goes to the last rank *)
Lemma long_ideal n : (1 <= n)%nat -> particle_targets (long_grid n) [0]%Q [far_out n] = Ret [(n - 1)%nat].
Proof.
  intros H. unfold particle_targets. cbn [long_grid g_periodic g_edges patches]. rewrite long_patch by exact H.
  cbn [patchsize fold_right map fst snd]. replace (Z.to_nat ((Z.of_nat n - (Z.of_nat n - 1)) * 1)) with 1%nat by lia.
  cbn [patch_loop g_dims long_grid g_edges g_assign g_periodic map strides_of flat_target]. rewrite long_ndom. rewrite wrap_du_mod by lia. rewrite Z.mod_small by lia.
  unfold zlookup. replace ((Z.of_nat n - 1) * 1 + 0 <? 0) with false by (symmetry; apply Z.ltb_ge; lia).
  replace (Z.to_nat ((Z.of_nat n - 1) * 1 + 0)) with (n - 1)%nat by lia.
  rewrite (nth_error_nth' _ 0%nat) by (rewrite seq_length; lia). rewrite seq_nth by lia. cbn [g_degenerate long_grid]. rewrite nth_error_repeat_in by lia. reflexivity.
Qed.
Theorem C103_lost : forall n, Z.of_nat n = 32768 ->
  particle_targets (long_grid n) [0]%Q [far_out n] = Ret [(n - 1)%nat] /\
  particle_targets32 (long_grid n) [0]%Q [far_out n] = Ret [].
Proof.
  intros n H. split; [apply long_ideal; lia|]. unfold particle_targets32, patches16. cbn [long_grid g_periodic g_edges patches]. rewrite long_patch by lia.
  cbn [map fst snd]. rewrite i16_id by lia. rewrite i16_over by lia. unfold patchsize32. cbn [fold_left fst snd]. rewrite H. reflexivity.
Qed.
Print Assumptions C103_lost.
Theorem C103_misplaced : forall n, 32768 < Z.of_nat n < 65536 ->
  particle_targets (long_grid n) [0]%Q [far_out n] = Ret [(n - 1)%nat] /\
  exists k, particle_targets32 (long_grid n) [0]%Q [far_out n] = Ret [k] /\ (k < n - 1)%nat.
Proof.
  intros n H. split; [apply long_ideal; lia|]. exists (Z.to_nat (2 * Z.of_nat n - 65537)). split; [|lia].
  unfold particle_targets32, patches16. cbn [long_grid g_periodic g_edges patches]. rewrite long_patch by lia.
  cbn [map fst snd]. rewrite !i16_over by lia. unfold patchsize32. cbn [fold_left fst snd].
  replace (Z.of_nat n - 65536 - (Z.of_nat n - 1 - 65536)) with 1 by ring. replace (Z.to_nat (i32 (1 * i32 1))) with 1%nat by reflexivity.
  cbn [patch_loop32 g_dims long_grid g_edges g_assign g_periodic map strides32 flat_target32]. rewrite long_ndom. rewrite wrap_du_mod by lia.
  replace ((Z.of_nat n - 1 - 65536) mod Z.of_nat n) with (2 * Z.of_nat n - 65537).
  2: { apply (Z.mod_unique _ _ (-1)); [lia|ring]. }
  rewrite i32_id by lia. unfold zlookup. replace ((2 * Z.of_nat n - 65537) * 1 + 0 <? 0) with false by (symmetry; apply Z.ltb_ge; lia).
  replace (Z.to_nat ((2 * Z.of_nat n - 65537) * 1 + 0)) with (Z.to_nat (2 * Z.of_nat n - 65537)) by lia.
  rewrite (nth_error_nth' _ 0%nat) by (rewrite seq_length; lia). rewrite seq_nth by lia. cbn [g_degenerate long_grid]. rewrite nth_error_repeat_in by lia. reflexivity.
Qed.
Print Assumptions C103_misplaced.

(** ** load *)
Theorem C103_load : forall g tr size pos, Forall (fun e => ndom e <= 32767) (g_edges g) ->
  rank_load16 g tr size pos = rank_load g tr size pos.
Proof.
  intros g tr size pos F. unfold rank_load16, rank_load. f_equal. f_equal. apply map_ext. intros x. f_equal. unfold load_index16, load_index.
  rewrite map_map. apply map_ext_in. intros [e c] Hp. apply in_combine_l in Hp. rewrite Forall_forall in F. specialize (F e Hp). cbn [fst snd]. apply i16_id.
  match goal with |- context [digitize ?y e] => pose proof (digitize_bound y e) as B end. unfold ndom in F. lia.
Qed.
Print Assumptions C103_load.
(** ** the offsets of a layout *)
Lemma fold_list_sum l : fold_right Z.add 0 (map Z.of_nat l) = Z.of_nat (list_sum l).
Proof. induction l as [|a l IH]; [reflexivity|]. cbn [map fold_right]. rewrite IH. change (list_sum (a :: l)) with (a + list_sum l)%nat. lia. Qed.
Theorem C103_layout : forall counts,
  (Z.of_nat (list_sum counts) < 2 ^ 31 -> layout_offsets32 (map Z.of_nat counts) = map Z.of_nat (offsets_from 0 counts)) /\
  (forall r, (r < length counts)%nat -> 2 ^ 31 <= Z.of_nat (list_sum (firstn r counts)) < 2 ^ 32 -> nth r (layout_offsets32 (map Z.of_nat counts)) 0 < 0).
Proof.
  intros c. change (2 ^ 31) with 2147483648. change (2 ^ 32) with 4294967296. split.
  - intros H. unfold layout_offsets32. rewrite offsets_from_firstn, map_map, map_length. apply map_ext. intros r.
    rewrite firstn_map, fold_list_sum. apply i32_id. pose proof (firstn_nth_sum c r). lia.
  - intros r Hr H. unfold layout_offsets32. rewrite map_length, nth_map_seq by exact Hr. rewrite firstn_map, fold_list_sum, i32_neg by exact H. lia.
Qed.
Print Assumptions C103_layout.
Example C103_load_case : rank_load16 ex_grid (fun x => x) 4 [[5 # 2; -(1 # 2)]; [1 # 2; 1]]%Q = Ret [1; 0; 0; 1]%nat /\
  layout_offsets32 [2; 2; 1] = [0; 2; 4].
Proof. vm_compute. split; reflexivity. Qed.
