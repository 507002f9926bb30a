(** The index of a mode: the modes before its cap, then its place inside of the cap. *)
From Coq Require Import List Arith ZArith Lia Bool Permutation.
From Verif Require Import Base ListFacts WrapModel WrapProofs InvariantModel InvariantBits InvariantFacts.
Import ListNotations.
Local Open Scope Z_scope.

(** ** the weight before an element of a list *)
Definition ceqb (c d : Z * Z) : bool := (fst c =? fst d) && (snd c =? snd d).
Lemma ceqb_true c d : ceqb c d = true <-> c = d.
Proof. unfold ceqb. rewrite andb_true_iff, !Z.eqb_eq. destruct c, d; cbn. split; [intros [-> ->]; reflexivity|intros E; now injection E]. Qed.
Fixpoint before (w : Z * Z -> Z) (c : Z * Z) (l : list (Z * Z)) : Z :=
  match l with [] => 0 | d :: r => if ceqb d c then 0 else w d + before w c r end.
Section Before.
  Variable w : Z * Z -> Z.
  Lemma before_nonneg c l : (forall d, In d l -> 0 <= w d) -> 0 <= before w c l.
  Proof.
    induction l as [|d l IH]; intros H; cbn [before]; [lia|]. destruct (ceqb d c); [lia|]. pose proof (H d (or_introl eq_refl)).
    assert (0 <= before w c l) by (apply IH; intros; apply H; now right). lia.
  Qed.
  Lemma before_total c l : (forall d, In d l -> 0 <= w d) -> In c l -> before w c l + w c <= sumz w l.
  Proof.
    induction l as [|d l IH]; intros H Hc; [destruct Hc|]. cbn [before]. unfold sumz. cbn [fold_right]. fold (sumz w l).
    assert (0 <= sumz w l) by (apply sumz_nonneg; intros; apply H; now right).
    destruct (ceqb d c) eqn:E; [apply ceqb_true in E; subst; lia|]. destruct Hc as [->|Hc]; [exfalso; rewrite (proj2 (ceqb_true c c) eq_refl) in E; discriminate|].
    specialize (IH ltac:(intros; apply H; now right) Hc). lia.
  Qed.
  Lemma before_apart c d l : (forall e, In e l -> 0 <= w e) -> In c l -> In d l -> c <> d ->
    before w c l + w c <= before w d l \/ before w d l + w d <= before w c l.
  Proof.
    induction l as [|e l IH]; intros H Hc Hd N; [destruct Hc|]. cbn [before]. assert (H' : forall e, In e l -> 0 <= w e) by (intros; apply H; now right).
    destruct (ceqb e c) eqn:Ec; destruct (ceqb e d) eqn:Ed; try apply ceqb_true in Ec; try apply ceqb_true in Ed; subst.
    - congruence.
    - left. pose proof (before_nonneg d l H'). lia.
    - right. pose proof (before_nonneg c l H'). lia.
    - assert (In c l) by (destruct Hc as [->|]; [rewrite (proj2 (ceqb_true c c) eq_refl) in Ec; discriminate|assumption]).
      assert (In d l) by (destruct Hd as [->|]; [rewrite (proj2 (ceqb_true d d) eq_refl) in Ed; discriminate|assumption]).
      destruct (IH H' H0 H1 N); lia.
  Qed.
  Lemma before_find m l : NoDup l -> 0 <= m < sumz w l -> exists c, In c l /\ before w c l <= m < before w c l + w c.
  Proof.
    revert m. induction l as [|d l IH]; intros m Hn Hm; [cbn in Hm; lia|]. unfold sumz in Hm. cbn [fold_right] in Hm. fold (sumz w l) in Hm.
    inversion Hn; subst. destruct (Z.lt_ge_cases m (w d)).
    - exists d. split; [now left|]. cbn [before]. rewrite (proj2 (ceqb_true d d) eq_refl). lia.
    - destruct (IH (m - w d) ltac:(assumption) ltac:(lia)) as (c & Hc & B). exists c. split; [now right|]. cbn [before].
      destruct (ceqb d c) eqn:E; [apply ceqb_true in E; subst; contradiction|]. lia.
  Qed.
  Lemma before_app c l m : ~ In c l -> before w c (l ++ m) = sumz w l + before w c m.
  Proof.
    induction l as [|d l IH]; intros H; [reflexivity|]. cbn [app before]. destruct (ceqb d c) eqn:E; [apply ceqb_true in E; subst; destruct H; now left|].
    rewrite IH by (intros ?; apply H; now right). unfold sumz. cbn [fold_right]. lia.
  Qed.
  Lemma before_app_in c l m : In c l -> before w c (l ++ m) = before w c l.
  Proof.
    induction l as [|d l IH]; intros H; [destruct H|]. cbn [app before]. destruct (ceqb d c) eqn:E; [reflexivity|].
    destruct H as [->|H]; [rewrite (proj2 (ceqb_true c c) eq_refl) in E; discriminate|]. now rewrite IH.
  Qed.
End Before.

(** ** the walk over the caps *)
Definition trunc (ml v : Z) : Z := if (ml >=? 0) && (v >=? ml) then -1 else v.
Lemma walk_trunc n s cmask ml h sub sv : forall caps ind,
  In (icap_x h, icapset_x h) caps ->
  Z.land (icap_x h) (Z.lnot (icapset_x h)) = 0 -> Z.land (icap_x h) cmask = 0 -> 0 <= sv ->
  (forall d, In d caps -> 0 <= cap_size n s cmask (snd d)) ->
  (forall m, m < 0 \/ 0 < m -> sub m = trunc m sv) -> (ml < 0 \/ ind < ml) ->
  walk (cap_size n s cmask) cmask ml h sub caps ind = trunc ml (ind + before (wt n s cmask) (icap_x h, icapset_x h) caps + sv).
Proof.
  induction caps as [|[B A] caps IH]; intros ind Hin V1 V2 Hsv Hsz Hsub Hml; [destruct Hin|].
  cbn [walk before]. unfold ceqb, wt at 1. cbn [fst snd].
  destruct ((B =? icap_x h) && (A =? icapset_x h)) eqn:E.
  - apply andb_true_iff in E. rewrite !Z.eqb_eq in E. destruct E as [-> ->]. rewrite V1, V2. cbn [negb Z.eqb]. rewrite Z.add_0_r.
    destruct (Z.geb_spec ml 0).
    + rewrite Hsub by lia. unfold trunc. destruct (Z.geb_spec (ml - ind) 0); [|lia]. destruct (Z.geb_spec ml 0); [|lia]. cbn [andb].
      destruct (Z.geb_spec sv (ml - ind)).
      * cbn [Z.eqb]. destruct (Z.geb_spec (ind + sv) ml); [reflexivity|lia].
      * destruct (Z.eqb_spec sv (-1)); [lia|]. destruct (Z.geb_spec (ind + sv) ml); [lia|reflexivity].
    + rewrite Hsub by lia. unfold trunc. cbn [Z.geb Z.compare andb]. destruct (Z.geb_spec ml 0); [lia|]. cbn [andb]. destruct (Z.eqb_spec sv (-1)); [lia|reflexivity].
  - destruct Hin as [Hin|Hin]; [injection Hin as -> ->; rewrite !Z.eqb_refl in E; discriminate|].
    assert (Hsz' : forall d, In d caps -> 0 <= cap_size n s cmask (snd d)) by (intros; apply Hsz; now right).
    assert (W : forall d, In d caps -> 0 <= wt n s cmask d) by (intros d Hd; unfold wt; destruct (Z.land (fst d) (Z.lnot (snd d)) =? 0), (Z.land (fst d) cmask =? 0); cbn [andb]; try lia; now apply Hsz').
    destruct (Z.land B (Z.lnot A) =? 0); cbn [negb andb]; [|rewrite IH by assumption; f_equal; lia].
    destruct (Z.land B cmask =? 0); cbn [negb andb]; [|rewrite IH by assumption; f_equal; lia].
    pose proof (Hsz (B, A) (or_introl eq_refl)) as P. cbn [snd] in P. pose proof (before_nonneg (wt n s cmask) (icap_x h, icapset_x h) caps W).
    destruct (Z.geb_spec ml 0); cbn [andb].
    + destruct (Z.geb_spec (ind + cap_size n s cmask A) ml).
      * unfold trunc. destruct (Z.geb_spec ml 0); [|lia]. cbn [andb]. destruct (Z.geb_spec (ind + (cap_size n s cmask A + before (wt n s cmask) (icap_x h, icapset_x h) caps) + sv) ml); [reflexivity|lia].
      * rewrite IH; try assumption; [|lia]. f_equal. lia.
    + rewrite IH; try assumption; [|lia]. f_equal. lia.
Qed.

(** ** the largest absolute value *)
Lemma absmax_fold x : forall s, let r := fold_left (fun shell xd => if Z.abs xd >? shell then Z.abs xd else shell) x s in
  s <= r /\ (forall v, In v x -> Z.abs v <= r) /\ (r = s \/ exists v, In v x /\ Z.abs v = r).
Proof.
  induction x as [|v x IH]; intros s; cbn [fold_left]; [cbn; repeat split; [lia|intros ? []|now left]|].
  set (s' := if Z.abs v >? s then Z.abs v else s). destruct (IH s') as (H1 & H2 & H3).
  assert (S' : s <= s' /\ Z.abs v <= s' /\ (s' = s \/ s' = Z.abs v)) by (unfold s'; destruct (Z.gtb_spec (Z.abs v) s); lia).
  cbv zeta. repeat split; [lia| |].
  - intros u [->|Hu]; [lia|now apply H2].
  - destruct H3 as [H3|(u & Hu & H3)]; [|right; exists u; split; [now right|exact H3]].
    destruct S' as (_ & _ & [E|E]); [left; lia|right; exists v; split; [now left|lia]].
Qed.
Lemma absmax_ge x v : In v x -> Z.abs v <= absmax x.
Proof. intros H. destruct x as [|x0 x]; [destruct H|]. unfold absmax. now apply absmax_fold. Qed.
Lemma absmax_nonneg x : 0 <= absmax x.
Proof. destruct x as [|x0 x]; [cbn; lia|]. pose proof (absmax_ge (x0 :: x) x0 (or_introl eq_refl)). lia. Qed.
Lemma absmax_attained x : absmax x <> 0 -> exists v, In v x /\ Z.abs v = absmax x.
Proof.
  intros H. destruct x as [|x0 x]; [cbn in H; lia|]. unfold absmax in *. destruct (absmax_fold (x0 :: x) (Z.abs x0)) as (_ & _ & [E|E]); [|exact E].
  exists x0. split; [now left|]. now rewrite E.
Qed.
Lemma absmax_le x s : 0 <= s -> (forall v, In v x -> Z.abs v <= s) -> absmax x <= s.
Proof. intros Hs H. destruct (Z.eq_dec (absmax x) 0) as [->|E]; [exact Hs|]. destruct (absmax_attained x E) as (v & Hv & <-). now apply H. Qed.

(** ** modes in the stored half *)
Lemma Forall2_len {A B} (R : A -> B -> Prop) l m : Forall2 R l m -> length l = length m.
Proof. induction 1; cbn; congruence. Qed.
Definition stored (ms : list bool) (x : list Z) : Prop := Forall2 (fun m xd => m = true -> 0 <= xd) ms x.
Lemma stored_half x cmask : stored (mb cmask 0 (length x)) x <-> in_ignored_half x cmask = false.
Proof.
  unfold in_ignored_half, mb, stored. generalize 0%nat as d. induction x as [|xd x IH]; intros d; cbn [length seq map combine existsb]; [split; [reflexivity|constructor]|].
  cbn [fst snd]. assert (E : negb (Z.land cmask (Z.shiftl 1 (Z.of_nat d)) =? 0) = Z.testbit cmask (Z.of_nat d)).
  { rewrite Z.shiftl_mul_pow2, Z.mul_1_l by lia. destruct (Z.testbit cmask (Z.of_nat d)) eqn:T.
    - apply negb_true_iff, Z.eqb_neq. intros Z0. assert (Q : Z.testbit (Z.land cmask (2 ^ Z.of_nat d)) (Z.of_nat d) = false) by (rewrite Z0; apply Z.bits_0).
      rewrite Z.land_spec, T, Z.pow2_bits_true in Q by lia. discriminate.
    - apply negb_false_iff, Z.eqb_eq. apply Z.bits_inj'. intros k Hk. rewrite Z.land_spec, Z.bits_0, Z.pow2_bits_eqb by lia.
      destruct (Z.eqb_spec (Z.of_nat d) k) as [<-|]; [now rewrite T|apply andb_false_r]. }
  rewrite E, orb_false_iff, <- IH, andb_false_iff, Z.ltb_ge. split.
  - intros F. inversion F; subst. split; [|assumption]. destruct (Z.testbit cmask (Z.of_nat d)); [right; auto|now left].
  - intros [[H|H] F]; constructor; auto. intros T. congruence.
Qed.
Lemma stored_keep hs ms x : stored ms x -> stored (keep hs ms) (keep hs x).
Proof.
  unfold stored. intros F. revert hs. induction F as [|m xd ms x H F IH]; intros [|h hs]; cbn [keep]; try constructor. destruct h; [apply IH|]. constructor; [exact H|apply IH].
Qed.
Fixpoint okcap (bs a ms : list bool) : Prop :=
  match bs, a, ms with b :: bs, x :: a, m :: ms => (b = true -> x = true /\ m = false) /\ okcap bs a ms | _, _, _ => True end.
Lemma pw_nonneg s bs a ms : 1 <= s -> 0 <= pw s bs a ms.
Proof.
  intros Hs. revert a ms. induction bs as [|b bs IH]; intros [|x a] [|m ms]; cbn [pw]; try lia. specialize (IH a ms). destruct b, x, m; cbn [andb negb]; nia.
Qed.
Lemma pw_ok s bs a ms : length bs = length ms -> length a = length ms -> okcap bs a ms -> pw s bs a ms = psize s ms a.
Proof.
  revert a ms. induction bs as [|b bs IH]; intros [|x a] [|m ms] L1 L2 O; cbn [length] in *; try lia; [reflexivity|]. cbn [okcap] in O. destruct O as [O1 O2].
  cbn [pw psize]. rewrite IH by (auto; lia). destruct b; [|reflexivity]. destruct (O1 eq_refl) as [-> ->]. cbn [andb negb]. ring.
Qed.
Lemma pw_pos_ok s bs a ms : pw s bs a ms <> 0 -> okcap bs a ms.
Proof.
  revert a ms. induction bs as [|b bs IH]; intros [|x a] [|m ms] H; cbn [okcap]; try exact I. cbn [pw] in H. split; [|apply IH; intros E; apply H; rewrite E; ring].
  intros ->. destruct x, m; cbn [andb negb] in H; auto; exfalso; apply H; ring.
Qed.
Lemma host_ok s x ms : 0 < s -> stored ms x -> okcap (negs s x) (hits s x) ms.
Proof.
  intros Hs F. induction F as [|m xd ms x H F IH]; cbn [negs hits map okcap]; [exact I|]. split; [|exact IH].
  intros E. apply andb_true_iff in E. destruct E as [E1 E2]. split; [exact E1|]. apply Z.ltb_lt in E2. destruct m; [|reflexivity]. specialize (H eq_refl). lia.
Qed.
Lemma hits_length s x : length (hits s x) = length x.
Proof. apply map_length. Qed.
Lemma negs_length s x : length (negs s x) = length x.
Proof. apply map_length. Qed.
Lemma keep_lt {T} hs (l : list T) : length hs = length l -> In true hs -> (length (keep hs l) < length l)%nat.
Proof.
  assert (G : forall hs (l : list T), (length (keep hs l) <= length l)%nat).
  { induction hs0 as [|h hs0 IH]; intros [|y l0]; cbn [keep length]; try lia. destruct h; [specialize (IH l0); lia|]. cbn [length]. specialize (IH l0). lia. }
  revert l. induction hs as [|h hs IH]; intros [|y l] L H; cbn [length] in L; try lia; [destruct H|]. cbn [keep length]. destruct h; [specialize (G hs l); lia|].
  cbn [length]. destruct H as [H|H]; [discriminate|]. specialize (IH l ltac:(lia) H). lia.
Qed.
Lemma hits_true s x v : In v x -> Z.abs v = s -> In true (hits s x).
Proof. intros H E. unfold hits. apply in_map_iff. exists v. split; [now apply Z.eqb_eq|exact H]. Qed.
Lemma keep_absmax s x : 0 < s -> absmax x <= s -> absmax (keep (hits s x) x) <= s - 1.
Proof.
  intros Hs H. apply absmax_le; [lia|]. intros v Hv. assert (B : forall u, In u x -> Z.abs u <= s) by (intros u Hu; pose proof (absmax_ge x u Hu); lia).
  clear H. induction x as [|u x IH]; [destruct Hv|]. cbn [hits map keep] in Hv. fold (hits s x) in Hv. destruct (Z.eqb_spec (Z.abs u) s).
  - apply IH; [exact Hv|intros; apply B; now right].
  - destruct Hv as [->|Hv]; [pose proof (B v (or_introl eq_refl)); lia|]. apply IH; [exact Hv|intros; apply B; now right].
Qed.

(** ** rebuilding a mode *)
Fixpoint rebuild (s : Z) (a bs : list bool) (y : list Z) : list Z :=
  match a, bs with
  | true :: a, b :: bs => (if b then - s else s) :: rebuild s a bs y
  | false :: a, _ :: bs => match y with v :: y => v :: rebuild s a bs y | [] => [] end
  | _, _ => []
  end.
Lemma rebuild_host s x : rebuild s (hits s x) (negs s x) (keep (hits s x) x) = x.
Proof.
  induction x as [|u x IH]; [reflexivity|]. cbn [hits negs map keep rebuild]. fold (hits s x) (negs s x). destruct (Z.eqb_spec (Z.abs u) s); cbn [andb].
  - rewrite IH. destruct (Z.ltb_spec u 0); f_equal; lia.
  - now rewrite IH.
Qed.
Lemma rebuild_spec s : forall a bs y ms, 0 < s -> length bs = length a -> length ms = length a -> length y = length (keep a a) ->
  (forall v, In v y -> Z.abs v <= s - 1) -> okcap bs a ms -> stored (keep a ms) y ->
  let x := rebuild s a bs y in
  length x = length a /\ hits s x = a /\ negs s x = bs /\ keep a x = y /\ stored ms x /\ (forall v, In v x -> Z.abs v <= s).
Proof.
  induction a as [|h a IH]; intros [|b bs] y [|m ms] Hs L1 L2 Ly B O F; cbn [length] in L1, L2; try lia.
  - cbn in Ly. destruct y; [|discriminate]. cbn. repeat split; [constructor|]. intros ? [].
  - cbn [okcap] in O. destruct O as [O1 O2]. cbn [keep] in Ly, F. cbn [rebuild]. destruct h.
    + destruct (IH bs y ms Hs ltac:(lia) ltac:(lia) Ly B O2 F) as (E1 & E2 & E3 & E4 & E5 & E6). cbv zeta. cbn [length hits negs map keep]. fold (hits s (rebuild s a bs y)) (negs s (rebuild s a bs y)).
      rewrite E1, E2, E3, E4. assert (Ea : Z.abs (if b then - s else s) =? s = true) by (apply Z.eqb_eq; destruct b; lia). rewrite Ea.
      repeat split; auto.
      * f_equal. destruct b; cbn [andb]; [apply Z.ltb_lt; lia|apply Z.ltb_ge; lia].
      * constructor; [|exact E5]. intros ->. destruct b; [destruct (O1 eq_refl); discriminate|lia].
      * intros v [<-|Hv]; [destruct b; lia|now apply E6].
    + destruct y as [|v y]; [discriminate|]. cbn [length] in Ly. inversion F; subst.
      destruct (IH bs y ms Hs ltac:(lia) ltac:(lia) ltac:(lia) ltac:(intros; apply B; now right) O2 ltac:(assumption)) as (E1 & E2 & E3 & E4 & E5 & E6).
      cbv zeta. cbn [length hits negs map keep]. fold (hits s (rebuild s a bs y)) (negs s (rebuild s a bs y)). rewrite E1, E2, E3, E4.
      pose proof (B v (or_introl eq_refl)). assert (Ea : Z.abs v =? s = false) by (apply Z.eqb_neq; lia). rewrite Ea. cbn [andb].
      assert (b = false) by (destruct b; [destruct (O1 eq_refl); discriminate|reflexivity]). subst b.
      repeat split; auto.
      * constructor; assumption.
      * intros u [<-|Hu]; [lia|now apply E6].
Qed.

(** ** the index as a sum *)
Fixpoint sidx (fuel : nat) (x : list Z) (ms : list bool) : Z :=
  let s := absmax x in
  if s =? 0 then 0 else
  match fuel with
  | O => 0
  | S fuel => before (wt (length x) s (val ms)) (val (negs s x), val (hits s x)) (all_caps (length x))
              + sidx fuel (keep (hits s x) x) (keep (hits s x) ms)
  end.
Lemma in_caps n c : In c (all_caps n) <-> (0 <= fst c < 2 ^ Z.of_nat n /\ 0 <= snd c < 2 ^ Z.of_nat n).
Proof.
  unfold all_caps. fold (nrange n). rewrite in_flat_map. split.
  - intros (B & HB & H). apply in_map_iff in H. destruct H as (A & <- & HA). split; now apply in_nrange.
  - intros [HB HA]. exists (fst c). split; [now apply in_nrange|]. apply in_map_iff. exists (snd c). split; [now destruct c|now apply in_nrange].
Qed.
Lemma val_bound' bs n : length bs = n -> 0 <= val bs < 2 ^ Z.of_nat n.
Proof. intros <-. apply val_bound. Qed.
Lemma mb_val' bs n : length bs = n -> mb (val bs) 0 n = bs.
Proof. intros <-. apply mb_val. Qed.
Lemma cap_in s x n : length x = n -> In (val (negs s x), val (hits s x)) (all_caps n).
Proof. intros <-. apply in_caps. cbn [fst snd]. split; apply val_bound'; [apply negs_length|apply hits_length]. Qed.
Lemma wt_nonneg n s ms d : (n <= 32)%nat -> 1 <= s -> length ms = n -> In d (all_caps n) -> 0 <= wt n s (val ms) d.
Proof.
  intros Hn Hs L Hd. apply in_caps in Hd. rewrite wt_prod; [now apply pw_nonneg|exact Hn|now apply val_bound'|apply Hd|apply Hd].
Qed.
Lemma wt_host n s x ms : (n <= 32)%nat -> 1 <= s -> length x = n -> stored ms x ->
  wt n s (val ms) (val (negs s x), val (hits s x)) = count (s - 1) (keep (hits s x) ms).
Proof.
  intros Hn Hs L F. assert (Lm : length ms = n) by (rewrite <- L; eapply Forall2_len; exact F).
  rewrite wt_prod; cbn [fst snd]; [|exact Hn|now apply val_bound'|apply val_bound'; now rewrite negs_length|apply val_bound'; now rewrite hits_length].
  rewrite !mb_val' by (rewrite ?negs_length, ?hits_length; assumption).
  rewrite pw_ok; [|rewrite negs_length; lia|rewrite hits_length; lia|apply host_ok; [lia|exact F]].
  apply psize_keep. rewrite hits_length; lia.
Qed.
Lemma sidx_nonneg fuel : forall x ms, (length x <= 32)%nat -> length ms = length x -> 0 <= sidx fuel x ms.
Proof.
  induction fuel as [|fuel IH]; intros x ms Hn L; cbn [sidx]; destruct (Z.eqb_spec (absmax x) 0); try lia.
  assert (P := absmax_nonneg x).
  pose proof (before_nonneg (wt (length x) (absmax x) (val ms)) (val (negs (absmax x) x), val (hits (absmax x) x)) (all_caps (length x)) (fun d Hd => wt_nonneg (length x) (absmax x) ms d Hn ltac:(lia) L Hd)).
  destruct (absmax_attained x n) as (v & Hv & Ev).
  pose proof (keep_lt (hits (absmax x) x) x ltac:(now rewrite hits_length) (hits_true _ x v Hv Ev)).
  specialize (IH (keep (hits (absmax x) x) x) (keep (hits (absmax x) x) ms) ltac:(lia) (keep_length _ _ _ L)). lia.
Qed.
Lemma index_trunc fuel : forall x ms ml, (length x <= fuel)%nat -> (length x <= 32)%nat -> stored ms x -> ml < 0 \/ 0 < ml ->
  invariant_index fuel x (val ms) ml = trunc ml (sidx fuel x ms).
Proof.
  induction fuel as [|fuel IH]; intros x ms ml Hf Hn F Hml.
  - destruct x as [|]; [|cbn in Hf; lia]. cbn. unfold trunc. destruct (Z.geb_spec ml 0), (Z.geb_spec 0 ml); cbn [andb]; try reflexivity; lia.
  - cbn [invariant_index sidx]. assert (L : length ms = length x) by (eapply Forall2_len; exact F).
    assert (Fm : stored (mb (val ms) 0 (length x)) x) by now rewrite mb_val'.
    destruct (Z.eqb_spec (absmax x) 0) as [E|E].
    { unfold trunc. destruct (Z.geb_spec ml 0), (Z.geb_spec 0 ml); cbn [andb]; try reflexivity; lia. }
    rewrite (proj1 (stored_half x (val ms)) Fm). rewrite host_val, mb_val' by exact L. set (s := absmax x) in *.
    assert (Hs : 0 < s) by (pose proof (absmax_nonneg x); unfold s in *; lia).
    destruct (absmax_attained x E) as (v & Hv & Ev).
    pose proof (keep_lt (hits s x) x ltac:(now rewrite hits_length) (hits_true _ x v Hv Ev)) as Lt.
    pose proof (wt_host (length x) s x ms Hn ltac:(lia) eq_refl F) as W.
    pose proof (count_pos (s - 1) (keep (hits s x) ms) ltac:(lia)) as Wp. rewrite <- W in Wp. unfold wt in Wp. cbn [fst snd] in Wp.
    destruct (Z.eqb_spec (Z.land (val (negs s x)) (Z.lnot (val (hits s x)))) 0) as [V1|]; [|cbn [andb] in Wp; lia].
    destruct (Z.eqb_spec (Z.land (val (negs s x)) (val ms)) 0) as [V2|]; [|cbn [andb] in Wp; lia].
    rewrite (walk_trunc (length x) s (val ms) ml _ _ (sidx fuel (keep (hits s x) x) (keep (hits s x) ms))); cbn [icap_x icapset_x x1 cmask1].
    + f_equal. 
    + now apply cap_in.
    + exact V1.
    + exact V2.
    + apply sidx_nonneg; [lia|now apply keep_length].
    + intros d Hd. apply in_caps in Hd. rewrite cap_size_prod; [|exact Hn|now apply val_bound'|apply Hd].
      rewrite psize_keep by now rewrite !mb_length. pose proof (count_pos (s - 1) (keep (mb (snd d) 0 (length x)) (mb (val ms) 0 (length x))) ltac:(lia)). lia.
    + intros m Hm. apply IH; [lia|lia|now apply stored_keep|exact Hm].
    + lia.
Qed.
Lemma sidx_fuel f : forall g x ms, (length x <= f)%nat -> (length x <= g)%nat -> sidx f x ms = sidx g x ms.
Proof.
  induction f as [|f IH]; intros g x ms Hf Hg.
  - destruct x; [|cbn in Hf; lia]. now destruct g.
  - destruct g as [|g]; [destruct x; [reflexivity|cbn in Hg; lia]|]. cbn [sidx]. destruct (Z.eqb_spec (absmax x) 0) as [|E]; [reflexivity|].
    destruct (absmax_attained x E) as (v & Hv & Ev).
    pose proof (keep_lt (hits (absmax x) x) x ltac:(now rewrite hits_length) (hits_true _ x v Hv Ev)) as Lt.
    rewrite (IH g); [reflexivity|lia|lia].
Qed.
Definition ix (x : list Z) (ms : list bool) : Z := sidx (length x) x ms.
Lemma ix_zero x ms : absmax x = 0 -> ix x ms = 0.
Proof. intros E. unfold ix. destruct (length x); cbn [sidx]; rewrite E; reflexivity. Qed.
Lemma ix_step x ms s : absmax x = s -> s <> 0 ->
  ix x ms = before (wt (length x) s (val ms)) (val (negs s x), val (hits s x)) (all_caps (length x)) + ix (keep (hits s x) x) (keep (hits s x) ms).
Proof.
  intros <- E. destruct (absmax_attained x E) as (v & Hv & Ev).
  pose proof (keep_lt (hits (absmax x) x) x ltac:(now rewrite hits_length) (hits_true _ x v Hv Ev)) as Lt.
  unfold ix at 1. destruct (length x) as [|n] eqn:En; [lia|]. cbn [sidx]. rewrite (proj2 (Z.eqb_neq _ _) E), En. f_equal. apply sidx_fuel; lia.
Qed.
Lemma ix_nonneg x ms : (length x <= 32)%nat -> length ms = length x -> 0 <= ix x ms.
Proof. apply sidx_nonneg. Qed.
