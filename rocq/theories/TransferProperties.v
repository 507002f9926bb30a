(** Property C80: the transfer functions of the deprecated ParticleMesh. *)
From Coq Require Import List Arith ZArith Reals Lra Lia Bool Permutation.
From Verif Require Import Base ListFacts WrapModel WrapProofs DomainModel DomainFill WindowModel WindowStencil WindowSpread MeshRoute MeshTile LegacyMesh TransferModel.
From Coquelicot Require Import Coquelicot.
From Verif Require Import FwindowModel FwindowProperties.
Import ListNotations.
Local Open Scope R_scope.

(** ** The ranks hold a field *)
(** the cells of a rank in the whole array of modes *)
Definition modes_of (s : spectrum) : list (list Z) := map (fun idx => zadd idx (sp_start s)) (cells_of (sp_shape s)).
(** every mode belongs to one rank; [cshape] is the shape of the complex array, at most N along
    every axis *)
Record spread_out (N : Z) (cshape : list Z) (ws : list spectrum) : Prop := {
  so_N : (2 <= N)%Z;
  so_shape : List.Forall (fun n => 0 < n <= N)%Z cshape;
  so_dims : List.Forall (fun s => length (sp_start s) = length cshape /\ length (sp_shape s) = length cshape) ws;
  so_tile : Permutation (flat_map modes_of ws) (cells_of cshape)
}.
(** the array [G] of all modes *)
Definition holds_modes (ws : list spectrum) (G : list Z -> cplx) : Prop :=
  List.Forall (fun s => forall idx, In idx (cells_of (sp_shape s)) -> sp_data s idx = G (zadd idx (sp_start s))) ws.
(** the circular frequency of mode [k] along axis [d] *)
Definition frequency (N : Z) (k : list Z) (d : nat) : R :=
  let g := nth d k 0%Z in IZR (if (2 * g <? N)%Z then g else g - N) * (2 * PI / IZR N).
Definition w_squared (N : Z) (k : list Z) : R := fold_right Rplus 0 (map (fun d => frequency N k d ^ 2) (seq 0 (length k))).
Definition zero_mode (k : list Z) : Prop := List.Forall (fun i => i = 0%Z) k.

(** [ws'] is the same distribution, holding the modes [G'] *)
Definition transferred (ws ws' : list spectrum) (G' : list Z -> cplx) : Prop :=
  Forall2 (fun s s' => sp_start s' = sp_start s /\ sp_shape s' = sp_shape s) ws ws' /\ holds_modes ws' G'.

(** the frequency the code uses *)
Definition code_w (N : Z) (k : list Z) (d : nat) : R := IZR (old_frequency N (nth d k 0%Z)) * (2 * PI / IZR N).
Lemma code_w_even N k d : Z.Even N -> code_w N k d = frequency N k d.
Proof.
  intros [h ->]. unfold code_w, frequency, old_frequency. rewrite (Z.mul_comm 2 h), Z.div_mul by lia.
  destruct (Z.geb_spec (nth d k 0%Z) h) as [H|H], (Z.ltb_spec (2 * nth d k 0%Z) (h * 2)) as [H'|H']; try lia; reflexivity.
Qed.
Lemma is0_spec x : reflect (x = 0) (is0 x).
Proof. unfold is0. destruct (Req_EM_T x 0); constructor; assumption. Qed.
Lemma unit_pos N : (0 < N)%Z -> 0 < 2 * PI / IZR N.
Proof. intros H. apply IZR_lt in H. pose proof PI_RGT_0. apply Rdiv_lt_0_compat; lra. Qed.
Lemma frequency_zero N g : (2 <= N)%Z -> (0 <= g < N)%Z -> (IZR (old_frequency N g) * (2 * PI / IZR N) = 0 <-> g = 0%Z).
Proof.
  intros HN Hg. pose proof (unit_pos N ltac:(lia)) as U. split.
  - intros E. apply Rmult_integral in E. destruct E as [E|E]; [|lra]. apply eq_IZR in E. unfold old_frequency in E.
    destruct (Z.geb_spec g (N / 2)) as [H|H]; lia.
  - intros ->. unfold old_frequency. assert (1 <= N / 2)%Z by (apply Z.div_le_lower_bound; lia).
    destruct (Z.geb_spec 0 (N / 2)) as [H'|H']; [lia|]. cbn. ring.
Qed.
Lemma zero_mode_nth k : zero_mode k <-> forall d, nth d k 0%Z = 0%Z.
Proof.
  unfold zero_mode. split.
  - intros H d. destruct (Nat.lt_ge_cases d (length k)) as [L|L]; [|apply nth_overflow; exact L].
    rewrite Forall_forall in H. apply H, nth_In, L.
  - intros H. apply Forall_forall. intros x Hx. apply (In_nth _ _ 0%Z) in Hx as (d & _ & <-). apply H.
Qed.
Lemma zero_mode_dec k : {zero_mode k} + {~ zero_mode k}.
Proof. apply Forall_dec. intros x. apply Z.eq_dec. Qed.

Section Rank.
Variables (N : Z) (s : spectrum) (nd : nat).
Hypothesis (HN : (2 <= N)%Z) (Ls : length (sp_start s) = nd) (Lh : length (sp_shape s) = nd).
Hypothesis (Hin : forall k, In k (modes_of s) -> forall d, (d < nd)%nat -> (0 <= nth d k 0 < N)%Z).
Lemma local_bound idx d : In idx (cells_of (sp_shape s)) -> (d < nd)%nat -> (0 <= nth d idx 0 < nth d (sp_shape s) 0)%Z.
Proof. intros H Hd. apply in_cells_of in H. destruct H as [_ H]. apply H. lia. Qed.
Lemma local_length idx : In idx (cells_of (sp_shape s)) -> length idx = nd.
Proof. intros H. apply in_cells_of in H. lia. Qed.
Lemma mode_nth idx d : In idx (cells_of (sp_shape s)) -> nth d (zadd idx (sp_start s)) 0%Z = (nth d (sp_start s) 0 + nth d idx 0)%Z.
Proof. intros H. rewrite zadd_nth by (rewrite (local_length idx H); lia). lia. Qed.
Lemma mode_length idx : In idx (cells_of (sp_shape s)) -> length (zadd idx (sp_start s)) = nd.
Proof. intros H. rewrite zadd_length by (rewrite (local_length idx H); lia). apply local_length, H. Qed.
Lemma in_modes idx : In idx (cells_of (sp_shape s)) -> In (zadd idx (sp_start s)) (modes_of s).
Proof. intros H. unfold modes_of. apply (in_map (fun idx => zadd idx (sp_start s))). exact H. Qed.
Lemma w_at_mode idx d : In idx (cells_of (sp_shape s)) -> w_at N s d (nth d idx 0%Z) = code_w N (zadd idx (sp_start s)) d.
Proof. intros H. unfold w_at, code_w. rewrite (mode_nth idx d H). reflexivity. Qed.
(** the zero mode can only be the first one *)
Lemma zero_first idx : In idx (cells_of (sp_shape s)) -> zero_mode (zadd idx (sp_start s)) ->
  sp_start s = repeat 0%Z nd /\ idx = repeat 0%Z nd /\ forall d, (d < nd)%nat -> (0 < nth d (sp_shape s) 0)%Z.
Proof.
  intros H Z0. rewrite zero_mode_nth in Z0.
  assert (S0 : forall d, (d < nd)%nat -> (0 < nth d (sp_shape s) 0)%Z) by (intros d Hd; pose proof (local_bound idx d H Hd); lia).
  assert (H0 : In (repeat 0%Z nd) (cells_of (sp_shape s))).
  { apply in_cells_of. rewrite repeat_length. split; [lia|]. intros d Hd. rewrite nth_repeat. specialize (S0 d ltac:(lia)). lia. }
  assert (A : forall d, (d < nd)%nat -> nth d (sp_start s) 0%Z = 0%Z /\ nth d idx 0%Z = 0%Z).
  { intros d Hd. pose proof (Hin _ (in_modes _ H0) d Hd) as B. rewrite (mode_nth _ d H0), nth_repeat in B.
    specialize (Z0 d). rewrite (mode_nth idx d H) in Z0. pose proof (local_bound idx d H Hd). lia. }
  split; [|split; [|exact S0]].
  - apply (nth_ext _ _ 0%Z 0%Z); [rewrite repeat_length; exact Ls|]. intros d Hd. rewrite nth_repeat. apply A. lia.
  - apply (nth_ext _ _ 0%Z 0%Z); [rewrite repeat_length; exact (local_length idx H)|]. intros d Hd. rewrite nth_repeat.
    apply A. rewrite (local_length idx H) in Hd. exact Hd.
Qed.
Lemma search_found ds : (forall d, In d ds -> nth d (sp_start s) 0%Z = 0%Z /\ (0 < nth d (sp_shape s) 0)%Z) ->
  dc_search N s ds = Some (repeat 0%Z (length ds)).
Proof.
  induction ds as [|d ds IH]; intros H; [reflexivity|]. cbn [dc_search length repeat].
  destruct (H d (or_introl eq_refl)) as [A B].
  assert (E : exists l, axis_w N s d = 0 :: l).
  { unfold axis_w. destruct (Z.to_nat (nth d (sp_shape s) 0%Z)) as [|n] eqn:En; [lia|]. cbn [zrange map]. eexists. f_equal.
    unfold w_at. rewrite A. apply frequency_zero; lia. }
  destruct E as [l E]. rewrite E. cbn [forallb]. unfold nonzero00. cbn [first_zero].
  destruct (is0_spec 0) as [_|C]; [|lra]. cbn [negb andb]. rewrite IH by (intros d' Hd'; apply H; right; exact Hd'). cbn [option_map].
  destruct (d =? 0)%nat; reflexivity.
Qed.
Lemma search_some ds ind : dc_search N s ds = Some ind ->
  forall d, In d ds -> exists i, (0 <= i < nth d (sp_shape s) 0)%Z /\ w_at N s d i = 0.
Proof.
  revert ind. induction ds as [|d ds IH]; intros ind E d' Hd'; [destruct Hd'|]. cbn [dc_search] in E.
  destruct (forallb (fun x => negb (is0 x)) (axis_w N s d)) eqn:F; [discriminate|].
  destruct (dc_search N s ds) as [l|] eqn:E'; [|discriminate]. destruct Hd' as [<-|Hd']; [|exact (IH l eq_refl d' Hd')].
  assert (X : exists x, In x (axis_w N s d) /\ x = 0).
  { clear - F. induction (axis_w N s d) as [|x l' IHl]; [discriminate|]. cbn [forallb] in F. destruct (is0_spec x) as [Z0|_].
    - exists x. split; [left; reflexivity|exact Z0].
    - cbn in F. destruct (IHl F) as (y & Hy & Ey). exists y. split; [right; exact Hy|exact Ey]. }
  destruct X as (x & Hx & Ex). unfold axis_w in Hx. apply in_map_iff in Hx as (i & Ei & Hi). apply in_zrange in Hi.
  exists i. split; [lia|congruence].
Qed.
(** the zero mode is found by the rank that has it, at the right place *)
Lemma dc_index_spec : 
  ((exists idx, In idx (cells_of (sp_shape s)) /\ zero_mode (zadd idx (sp_start s))) -> dc_index N s = Some (repeat 0%Z nd)) /\
  ((forall k, In k (modes_of s) -> ~ zero_mode k) -> dc_index N s = None).
Proof.
  unfold dc_index. rewrite Ls. split.
  - intros (idx & H & Z0). destruct (zero_first idx H Z0) as (A & _ & B). rewrite search_found; [rewrite seq_length; reflexivity|].
    intros d Hd. apply in_seq in Hd. split; [rewrite A; apply nth_repeat|apply B; lia].
  - intros No. destruct (dc_search N s (seq 0 nd)) as [ind|] eqn:E; [|reflexivity]. exfalso.
    pose proof (search_some _ _ E) as X.
    destruct (exists_list (fun d i => (0 <= i < nth d (sp_shape s) 0)%Z /\ w_at N s d i = 0) 0%Z nd) as (idx & Li & Hi).
    { intros d Hd. apply X. apply in_seq. lia. }
    assert (H : In idx (cells_of (sp_shape s))) by (apply in_cells_of; split; [lia|]; intros d Hd; apply Hi; lia).
    apply (No _ (in_modes idx H)). rewrite zero_mode_nth. intros d. destruct (Nat.lt_ge_cases d nd) as [L|L].
    + destruct (Hi d L) as [_ W0]. pose proof (Hin _ (in_modes idx H) d L) as B. rewrite (w_at_mode idx d H) in W0.
      unfold code_w in W0. apply (frequency_zero N _ HN B) in W0. exact W0.
    + apply nth_overflow. rewrite (mode_length idx H). exact L.
Qed.
Lemma poisson_rows l s' idx : NoDup l -> sp_start s' = sp_start s ->
  sp_data (fold_left (fun s row => with_values s (fun idx =>
      if (nth 0 idx 0 =? row)%Z then match row_kernel N s row idx with Some w2 => cdiv (sp_data s idx) w2 | None => (0, 0) end
      else sp_data s idx)) l s') idx =
  if in_dec Z.eq_dec (nth 0 idx 0%Z) l
  then match row_kernel N s (nth 0 idx 0%Z) idx with Some w2 => cdiv (sp_data s' idx) w2 | None => (0, 0) end else sp_data s' idx.
Proof.
  revert s'. induction l as [|r l IH]; intros s' ND Es; [reflexivity|]. cbn [fold_left]. apply NoDup_cons_iff in ND. destruct ND as [Nr ND'].
  rewrite (IH _ ND') by exact Es. cbn [with_values sp_data].
  assert (Ek : row_kernel N s' r idx = row_kernel N s r idx) by (unfold row_kernel, row_w2, w_at; rewrite Es; reflexivity).
  rewrite Ek.
  destruct (Z.eqb_spec (nth 0 idx 0%Z) r) as [E|E].
  - destruct (in_dec Z.eq_dec (nth 0 idx 0%Z) l) as [C|_]; [exfalso; apply Nr; rewrite <- E; exact C|].
    destruct (in_dec Z.eq_dec (nth 0 idx 0%Z) (r :: l)) as [_|C]; [rewrite E; reflexivity|]. exfalso. apply C. left. congruence.
  - destruct (in_dec Z.eq_dec (nth 0 idx 0%Z) l) as [A|A], (in_dec Z.eq_dec (nth 0 idx 0%Z) (r :: l)) as [B|B]; try reflexivity.
    + exfalso. apply B. right. exact A.
    + exfalso. destruct B as [B|B]; [congruence|contradiction].
Qed.
Lemma poisson_place l s' : sp_start s' = sp_start s -> sp_shape s' = sp_shape s ->
  let r := fold_left (fun s row => with_values s (fun idx =>
      if (nth 0 idx 0 =? row)%Z then match row_kernel N s row idx with Some w2 => cdiv (sp_data s idx) w2 | None => (0, 0) end
      else sp_data s idx)) l s' in sp_start r = sp_start s /\ sp_shape r = sp_shape s.
Proof. revert s'. induction l as [|x l IH]; intros s' A B; [split; assumption|]. cbn [fold_left]. apply IH; assumption. Qed.
Lemma fold_left_sum {A} (f : A -> R) l a : fold_left (fun t d => t + f d) l a = a + fold_right Rplus 0 (map f l).
Proof. revert a. induction l as [|x l IH]; intros a; cbn [fold_left map fold_right]; [ring|]. rewrite IH. ring. Qed.
Lemma row_w2_mode idx : (1 <= nd)%nat -> In idx (cells_of (sp_shape s)) ->
  row_w2 N s (nth 0 idx 0%Z) idx = fold_right Rplus 0 (map (fun d => code_w N (zadd idx (sp_start s)) d ^ 2) (seq 0 nd)).
Proof.
  intros H1 H. unfold row_w2. rewrite Ls. rewrite (fold_left_sum (fun d => w_at N s d (nth d idx 0%Z) ^ 2)).
  rewrite (w_at_mode idx 0 H). replace nd with (S (nd - 1)) at 2 by lia. cbn [seq map fold_right]. f_equal. f_equal.
  apply map_ext. intros d. rewrite (w_at_mode idx d H). reflexivity.
Qed.
End Rank.

Lemma sum_squares_zero {A} (f : A -> R) l : fold_right Rplus 0 (map (fun d => f d ^ 2) l) = 0 <-> List.Forall (fun d => f d = 0) l.
Proof.
  assert (P : forall l, 0 <= fold_right Rplus 0 (map (fun d => f d ^ 2) l)).
  { induction l0 as [|x l0 IH]; cbn [map fold_right]; [lra|]. pose proof (pow2_ge_0 (f x)). lra. }
  induction l as [|x l IH]; cbn [map fold_right]; [split; [constructor|reflexivity]|].
  specialize (P l). pose proof (pow2_ge_0 (f x)) as Q. split.
  - intros E. constructor; [|apply IH; lra]. assert (E2 : f x ^ 2 = 0) by lra. apply Rsqr_0_uniq. unfold Rsqr. lra.
  - intros F. inversion F as [|? ? F0 F1]; subst. apply IH in F1. rewrite F0, F1. ring.
Qed.
Lemma code_sum_zero N k : (2 <= N)%Z -> List.Forall (fun g => 0 <= g < N)%Z k ->
  (fold_right Rplus 0 (map (fun d => code_w N k d ^ 2) (seq 0 (length k))) = 0 <-> zero_mode k).
Proof.
  intros HN B. rewrite sum_squares_zero. rewrite zero_mode_nth. rewrite Forall_forall in B. split.
  - intros F d. destruct (Nat.lt_ge_cases d (length k)) as [L|L]; [|apply nth_overflow; exact L].
    rewrite Forall_forall in F. specialize (F d ltac:(apply in_seq; lia)). apply (frequency_zero N _ HN) in F; [exact F|]. apply B, nth_In, L.
  - intros F. apply Forall_forall. intros d Hd. apply in_seq in Hd. apply (frequency_zero N _ HN); [apply B, nth_In; lia|apply F].
Qed.

Section World.
Variables (N : Z) (cshape : list Z) (ws : list spectrum).
Hypothesis SO : spread_out N cshape ws.
Notation nd := (length cshape).
Lemma mode_in s k : In s ws -> In k (modes_of s) -> In k (cells_of cshape).
Proof. intros Hs Hk. apply (Permutation_in _ (so_tile _ _ _ SO)). apply in_flat_map. exists s. split; assumption. Qed.
Lemma mode_bound k d : In k (cells_of cshape) -> (d < nd)%nat -> (0 <= nth d k 0 < N)%Z.
Proof.
  intros Hk Hd. apply in_cells_of in Hk. destruct Hk as [L Hk]. specialize (Hk d ltac:(lia)).
  pose proof (so_shape _ _ _ SO) as S. rewrite Forall_forall in S. specialize (S (nth d cshape 0%Z) (nth_In _ _ Hd)). lia.
Qed.
Lemma rank_dims s : In s ws -> length (sp_start s) = nd /\ length (sp_shape s) = nd.
Proof. intros Hs. pose proof (so_dims _ _ _ SO) as D. rewrite Forall_forall in D. apply D, Hs. Qed.
Lemma rank_inside s : In s ws -> forall k, In k (modes_of s) -> forall d, (d < nd)%nat -> (0 <= nth d k 0 < N)%Z.
Proof. intros Hs k Hk d Hd. apply mode_bound; [exact (mode_in s k Hs Hk)|exact Hd]. Qed.
Lemma cell_length k : In k (cells_of cshape) -> length k = nd.
Proof. intros H. apply in_cells_of in H. lia. Qed.
Lemma cell_bounds k : In k (cells_of cshape) -> List.Forall (fun g => 0 <= g < N)%Z k.
Proof.
  intros H. apply Forall_forall. intros g Hg. apply (In_nth _ _ 0%Z) in Hg as (d & Hd & <-). apply mode_bound; [exact H|].
  rewrite <- (cell_length k H). exact Hd.
Qed.
Lemma zero_is k : zero_mode k -> length k = nd -> k = repeat 0%Z nd.
Proof.
  intros Z0 L. rewrite zero_mode_nth in Z0. apply (nth_ext _ _ 0%Z 0%Z); [rewrite repeat_length; exact L|].
  intros d _. rewrite nth_repeat. apply Z0.
Qed.
Lemma zero_zero n : zero_mode (repeat 0%Z n).
Proof. rewrite zero_mode_nth. intros d. apply nth_repeat. Qed.
Lemma zero_cell : In (repeat 0%Z nd) (cells_of cshape).
Proof.
  apply in_cells_of. rewrite repeat_length. split; [reflexivity|]. intros d Hd. rewrite nth_repeat.
  pose proof (so_shape _ _ _ SO) as S. rewrite Forall_forall in S. specialize (S (nth d cshape 0%Z) (nth_In _ _ Hd)). lia.
Qed.
Lemma transferred_map (f : spectrum -> spectrum) G' :
  (forall s, In s ws -> sp_start (f s) = sp_start s /\ sp_shape (f s) = sp_shape s /\
     forall idx, In idx (cells_of (sp_shape s)) -> sp_data (f s) idx = G' (zadd idx (sp_start s))) ->
  transferred ws (map f ws) G'.
Proof.
  intros H. split.
  - assert (A : List.Forall (fun s => sp_start (f s) = sp_start s /\ sp_shape (f s) = sp_shape s) ws).
    { apply Forall_forall. intros s Hs. destruct (H s Hs) as (A & B & _). split; assumption. }
    clear - A. induction A; cbn [map]; constructor; auto.
  - apply Forall_forall. intros s' Hs'. apply in_map_iff in Hs' as (s & <- & Hs). destruct (H s Hs) as (A & B & C).
    intros idx Hi. rewrite B in Hi. rewrite A. apply C, Hi.
Qed.
Variable G : list Z -> cplx.
Hypothesis HG : holds_modes ws G.
Lemma held s idx : In s ws -> In idx (cells_of (sp_shape s)) -> sp_data s idx = G (zadd idx (sp_start s)).
Proof. intros Hs. unfold holds_modes in HG. rewrite Forall_forall in HG. apply (HG s Hs). Qed.

Lemma remove_dc : transferred ws (map (RemoveDC N) ws) (fun k => if zero_mode_dec k then (0, 0) else G k).
Proof.
  apply transferred_map. intros s Hs. destruct (rank_dims s Hs) as [Ls Lh].
  destruct (dc_index_spec N s nd (so_N _ _ _ SO) Ls Lh (rank_inside s Hs)) as [D1 D2].
  unfold RemoveDC.
  assert (Dec : (exists idx, In idx (cells_of (sp_shape s)) /\ zero_mode (zadd idx (sp_start s))) \/
                (forall k, In k (modes_of s) -> ~ zero_mode k)).
  { unfold modes_of. destruct (Exists_dec (fun idx => zero_mode (zadd idx (sp_start s))) (cells_of (sp_shape s)) ltac:(intros; apply zero_mode_dec)) as [E|E].
    - left. apply Exists_exists in E. exact E.
    - right. intros k Hk Zk. apply in_map_iff in Hk as (idx & <- & Hi). apply E, Exists_exists. exists idx. split; assumption. }
  destruct Dec as [E|E].
  - rewrite (D1 E). cbn [with_values sp_start sp_shape sp_data]. split; [reflexivity|split; [reflexivity|]]. intros idx Hi.
    destruct E as (i0 & Hi0 & Z0). pose proof (zero_first N s nd Ls Lh (rank_inside s Hs) i0 Hi0 Z0) as (A & B & _).
    destruct (zl_eqb_spec idx (repeat 0%Z nd)) as [E|E]; destruct (zero_mode_dec (zadd idx (sp_start s))) as [Zi|Zi].
    + reflexivity.
    + exfalso. apply Zi. rewrite E, <- B. exact Z0.
    + exfalso. apply E. apply (zero_first N s nd Ls Lh (rank_inside s Hs) idx Hi Zi).
    + apply held; assumption.
  - rewrite (D2 E). split; [reflexivity|split; [reflexivity|]]. intros idx Hi.
    destruct (zero_mode_dec (zadd idx (sp_start s))) as [Zi|Zi]; [|apply held; assumption].
    exfalso. apply (E (zadd idx (sp_start s))); [|exact Zi]. apply in_modes, Hi.
Qed.
Definition mean_at (k : list Z) : R := if zero_mode_dec k then cabs (G k) else 0.
Lemma mean_sum l : NoDup l -> (forall k, In k l -> length k = nd) ->
  fold_right Rplus 0 (map mean_at l) = if in_dec (list_eq_dec Z.eq_dec) (repeat 0%Z nd) l then cabs (G (repeat 0%Z nd)) else 0.
Proof.
  induction l as [|k l IH]; intros ND L; [reflexivity|]. inversion ND as [|? ? Nk ND']; subst. cbn [map fold_right].
  rewrite IH by (auto; intros k' Hk'; apply L; right; exact Hk'). unfold mean_at.
  destruct (zero_mode_dec k) as [Zk|Zk].
  - pose proof (zero_is k Zk (L k (or_introl eq_refl))) as E. rewrite <- E.
    destruct (in_dec (list_eq_dec Z.eq_dec) k l) as [C|_]; [contradiction|].
    destruct (in_dec (list_eq_dec Z.eq_dec) k (k :: l)) as [_|C]; [ring|]. exfalso. apply C. left. reflexivity.
  - destruct (in_dec (list_eq_dec Z.eq_dec) (repeat 0%Z nd) l) as [A|A], (in_dec (list_eq_dec Z.eq_dec) (repeat 0%Z nd) (k :: l)) as [B|B]; try ring.
    + exfalso. apply B. right. exact A.
    + exfalso. destruct B as [B|B]; [|contradiction]. apply Zk. rewrite B. apply zero_zero.
Qed.
Lemma sum_perm l l' : Permutation l l' -> fold_right Rplus 0 l = fold_right Rplus 0 l'.
Proof. induction 1; cbn [fold_right]; lra. Qed.
Lemma sum_app l l' : fold_right Rplus 0 (l ++ l') = fold_right Rplus 0 l + fold_right Rplus 0 l'.
Proof. induction l as [|x l IH]; cbn [app fold_right]; [ring|]. rewrite IH. ring. Qed.
Lemma flat_NoDup_part {A B} (f : A -> list B) l : NoDup (flat_map f l) -> forall x, In x l -> NoDup (f x).
Proof.
  induction l as [|y l IH]; intros ND x Hx; [destruct Hx|]. cbn [flat_map] in ND. destruct Hx as [<-|Hx].
  - clear IH. revert ND. generalize (flat_map f l). intros r. induction (f y) as [|b t IHt]; intros ND; [constructor|].
    cbn [app] in ND. inversion ND as [|? ? Nb ND']; subst. constructor; [|exact (IHt ND')]. intros C. apply Nb, in_or_app. left. exact C.
  - apply IH; [|exact Hx]. clear IH Hx. induction (f y) as [|b t IHt]; [exact ND|]. apply IHt. now inversion ND.
Qed.
Lemma all_NoDup : NoDup (flat_map modes_of ws).
Proof. apply (Permutation_NoDup (Permutation_sym (so_tile _ _ _ SO))). apply cells_of_NoDup. Qed.
Lemma dc_value s : In s ws ->
  match dc_index N s with Some ind => cabs (sp_data s ind) | None => 0 end = fold_right Rplus 0 (map mean_at (modes_of s)).
Proof.
  intros Hs. destruct (rank_dims s Hs) as [Ls Lh].
  destruct (dc_index_spec N s nd (so_N _ _ _ SO) Ls Lh (rank_inside s Hs)) as [D1 D2].
  rewrite mean_sum; [|exact (flat_NoDup_part _ _ all_NoDup s Hs)|intros k Hk; apply cell_length, (mode_in s k Hs Hk)].
  destruct (in_dec (list_eq_dec Z.eq_dec) (repeat 0%Z nd) (modes_of s)) as [C|C].
  - pose proof C as C'. unfold modes_of in C'. apply in_map_iff in C' as (idx & E & Hi).
    assert (Z0 : zero_mode (zadd idx (sp_start s))) by (rewrite E; apply zero_zero).
    rewrite D1 by (exists idx; split; assumption). pose proof (zero_first N s nd Ls Lh (rank_inside s Hs) idx Hi Z0) as (A & B & _).
    rewrite <- B at 1. rewrite (held s idx Hs Hi), E. reflexivity.
  - rewrite D2; [reflexivity|]. intros k Hk Zk. apply C. rewrite <- (zero_is k Zk); [exact Hk|]. apply cell_length, (mode_in s k Hs Hk).
Qed.
Lemma normalize_dc : transferred ws (NormalizeDC N ws) (fun k => cdiv (G k) (cabs (G (repeat 0%Z nd)))).
Proof.
  unfold NormalizeDC.
  assert (V : fold_right Rplus 0 (map (fun s => match dc_index N s with Some ind => cabs (sp_data s ind) | None => 0 end) ws)
              = cabs (G (repeat 0%Z nd))).
  { transitivity (fold_right Rplus 0 (map mean_at (flat_map modes_of ws))).
    - transitivity (fold_right Rplus 0 (map (fun s => fold_right Rplus 0 (map mean_at (modes_of s))) ws)).
      + f_equal. apply map_ext_in. intros s Hs. apply dc_value, Hs.
      + clear. induction ws as [|s l IH]; [reflexivity|]. cbn [map fold_right flat_map]. rewrite map_app, sum_app, IH. reflexivity.
    - rewrite (sum_perm _ (map mean_at (cells_of cshape))) by (apply Permutation_map, (so_tile _ _ _ SO)).
      rewrite mean_sum; [|apply cells_of_NoDup|apply cell_length].
      destruct (in_dec (list_eq_dec Z.eq_dec) (repeat 0%Z nd) (cells_of cshape)) as [_|C]; [reflexivity|]. exfalso. apply C, zero_cell. }
  rewrite V. apply transferred_map. intros s Hs. cbn [with_values sp_start sp_shape sp_data].
  split; [reflexivity|split; [reflexivity|]]. intros idx Hi. rewrite (held s idx Hs Hi). reflexivity.
Qed.
Lemma poisson : (1 <= nd)%nat -> transferred ws (map (Poisson N) ws)
  (fun k => if zero_mode_dec k then (0, 0) else cdiv (G k) (fold_right Rplus 0 (map (fun d => code_w N k d ^ 2) (seq 0 nd)) * -1)).
Proof.
  intros H1. apply transferred_map. intros s Hs. destruct (rank_dims s Hs) as [Ls Lh]. unfold Poisson.
  destruct (poisson_place N s (rows s) s eq_refl eq_refl) as [A B]. split; [exact A|split; [exact B|]]. intros idx Hi.
  rewrite (poisson_rows N s (rows s) s idx) by (first [reflexivity|apply zrange_NoDup]).
  pose proof (local_bound s nd Ls Lh idx 0 Hi ltac:(lia)) as Bd.
  destruct (in_dec Z.eq_dec (nth 0 idx 0%Z) (rows s)) as [_|C]; [|exfalso; apply C; unfold rows; apply in_zrange; lia].
  unfold row_kernel. cbv zeta. rewrite (row_w2_mode N s nd Ls Lh idx H1 Hi). rewrite (held s idx Hs Hi).
  assert (Hk : In (zadd idx (sp_start s)) (cells_of cshape)) by (apply (mode_in s _ Hs), in_modes, Hi).
  pose proof (code_sum_zero N _ (so_N _ _ _ SO) (cell_bounds _ Hk)) as Zs. rewrite (cell_length _ Hk) in Zs.
  destruct (is0_spec (fold_right Rplus 0 (map (fun d => code_w N (zadd idx (sp_start s)) d ^ 2) (seq 0 nd)))) as [E|E];
    destruct (zero_mode_dec (zadd idx (sp_start s))) as [Zi|Zi]; try reflexivity.
  - exfalso. apply Zi, Zs, E.
  - exfalso. apply E, Zs, Zi.
Qed.
(** an axis after the other *)
Lemma axes_fold (step : R -> cplx -> cplx) ds s s' idx : sp_start s' = sp_start s ->
  sp_data (fold_left (fun s d => with_values s (fun idx => step (w_at N s d (nth d idx 0%Z)) (sp_data s idx))) ds s') idx =
  fold_left (fun v d => step (w_at N s d (nth d idx 0%Z)) v) ds (sp_data s' idx).
Proof.
  revert s'. induction ds as [|d ds IH]; intros s' E; [reflexivity|]. cbn [fold_left]. rewrite IH by exact E.
  cbn [with_values sp_data]. unfold w_at at 2. rewrite E. reflexivity.
Qed.
Lemma axes_place (step : R -> cplx -> cplx) ds s s' : sp_start s' = sp_start s -> sp_shape s' = sp_shape s ->
  let r := fold_left (fun s d => with_values s (fun idx => step (w_at N s d (nth d idx 0%Z)) (sp_data s idx))) ds s' in
  sp_start r = sp_start s /\ sp_shape r = sp_shape s.
Proof. revert s'. induction ds as [|d ds IH]; intros s' A B; [split; assumption|]. cbn [fold_left]. apply IH; assumption. Qed.
Lemma axes (step : R -> cplx -> cplx) :
  transferred ws (map (fun s => fold_left (fun s d => with_values s (fun idx => step (w_at N s d (nth d idx 0%Z)) (sp_data s idx)))
      (seq 0 (length (sp_start s))) s) ws)
    (fun k => fold_left (fun v d => step (code_w N k d) v) (seq 0 nd) (G k)).
Proof.
  apply transferred_map. intros s Hs. destruct (rank_dims s Hs) as [Ls Lh].
  destruct (axes_place step (seq 0 (length (sp_start s))) s s eq_refl eq_refl) as [A B]. split; [exact A|split; [exact B|]].
  intros idx Hi. rewrite (axes_fold step _ s s idx eq_refl), Ls. rewrite (held s idx Hs Hi).
  generalize (G (zadd idx (sp_start s))). generalize (seq 0 nd). intros l. induction l as [|d l IH]; intros v; [reflexivity|].
  cbn [fold_left]. rewrite IH, (w_at_mode N s nd Ls Lh idx d Hi). reflexivity.
Qed.
End World.

Lemma transferred_spread N cshape ws ws' G : spread_out N cshape ws -> transferred ws ws' G -> spread_out N cshape ws'.
Proof.
  intros [A B C D] [F _]. constructor; [exact A|exact B| |].
  - clear - C F. revert C. induction F as [|s s' l l' [E1 E2] F IH]; intros C; [constructor|].
    inversion C; subst. constructor; [rewrite E1, E2; assumption|auto].
  - replace (flat_map modes_of ws') with (flat_map modes_of ws); [exact D|]. clear - F.
    induction F as [|s s' l l' [E1 E2] F IH]; [reflexivity|]. cbn [flat_map]. rewrite IH. unfold modes_of. rewrite E1, E2. reflexivity.
Qed.
Lemma transferred_trans ws ws' ws'' G' G'' : transferred ws ws' G' -> transferred ws' ws'' G'' -> transferred ws ws'' G''.
Proof.
  intros [F _] [F' H]. split; [|exact H]. clear H. revert ws'' F'. induction F as [|s s' l l' [E1 E2] F IH]; intros ws'' F'.
  - inversion F'. constructor.
  - inversion F' as [|? s'' ? l'' [E3 E4] F'']; subst. constructor; [|apply IH, F'']. split; congruence.
Qed.
Lemma transferred_ext N cshape ws ws' G G' : spread_out N cshape ws -> transferred ws ws' G ->
  (forall k, In k (cells_of cshape) -> G k = G' k) -> transferred ws ws' G'.
Proof.
  intros SO T E. pose proof (transferred_spread _ _ _ _ _ SO T) as SO'. destruct T as [F H]. split; [exact F|].
  unfold holds_modes in *. rewrite Forall_forall in *. intros s Hs idx Hi. rewrite (H s Hs idx Hi). apply E.
  apply (mode_in N cshape ws' SO' s _ Hs), in_modes, Hi.
Qed.
Lemma cabs_nonzero c : c <> (0, 0) -> cabs c <> 0.
Proof.
  intros H E. apply H. destruct c as [a b]. unfold cabs in E. cbn [fst snd] in E. apply sqrt_eq_0 in E; [|nra].
  assert (a = 0) by nra. assert (b = 0) by nra. subst. reflexivity.
Qed.
Lemma cabs_self c : c <> (0, 0) -> cabs (cdiv c (cabs c)) = 1.
Proof.
  intros H. pose proof (cabs_nonzero c H) as H0. unfold cabs at 1. unfold cdiv. cbn [fst snd].
  replace (fst c / cabs c * (fst c / cabs c) + snd c / cabs c * (snd c / cabs c)) with ((fst c * fst c + snd c * snd c) / (cabs c * cabs c)) by (field; exact H0).
  unfold cabs at 1 2. rewrite sqrt_sqrt by nra. unfold Rdiv. rewrite Rinv_r; [apply sqrt_1|].
  intros E. apply H0. unfold cabs. rewrite E. apply sqrt_0.
Qed.
Lemma cmul_cdiv c x : x <> 0 -> cmul (cdiv c x) x = c.
Proof. intros H. destruct c as [a b]. unfold cmul, cdiv. cbn [fst snd]. f_equal; field; exact H. Qed.

(** ** The zero mode *)
Theorem C80_dc : forall N cshape ws G,
  spread_out N cshape ws -> holds_modes ws G ->
  let zero := repeat 0%Z (length cshape) in
  (exists H, transferred ws (map (RemoveDC N) ws) H /\ H zero = (0, 0) /\ (forall k, In k (cells_of cshape) -> k <> zero -> H k = G k)) /\
  (G zero <> (0, 0) -> exists H, transferred ws (NormalizeDC N ws) H /\ cabs (H zero) = 1 /\
     forall k, In k (cells_of cshape) -> cmul (H k) (cabs (G zero)) = G k).
Proof.
  intros N cshape ws G SO HG zero. split.
  - eexists. split; [exact (remove_dc N cshape ws SO G HG)|]. cbv beta. split.
    + destruct (zero_mode_dec zero) as [_|C]; [reflexivity|]. exfalso. apply C, zero_zero.
    + intros k Hk NE. destruct (zero_mode_dec k) as [Zk|_]; [|reflexivity]. exfalso. apply NE, (zero_is cshape k Zk), cell_length, Hk.
  - intros G0. eexists. split; [exact (normalize_dc N cshape ws SO G HG)|]. cbv beta. split.
    + apply cabs_self, G0.
    + intros k _. apply cmul_cdiv, cabs_nonzero, G0.
Qed.
Print Assumptions C80_dc.

(** ** The Poisson equation *)
Lemma w_squared_code N k : Z.Even N -> fold_right Rplus 0 (map (fun d => code_w N k d ^ 2) (seq 0 (length k))) = w_squared N k.
Proof. intros HE. unfold w_squared. f_equal. apply map_ext. intros d. rewrite (code_w_even N k d HE). reflexivity. Qed.
Theorem C80_poisson : forall N cshape ws G,
  spread_out N cshape ws -> holds_modes ws G -> Z.Even N -> (2 <= length cshape)%nat ->
  let zero := repeat 0%Z (length cshape) in
  exists phi, transferred ws (map (Poisson N) ws) phi /\ phi zero = (0, 0) /\
    (forall k, In k (cells_of cshape) -> k <> zero -> w_squared N k <> 0 /\ cmul (phi k) (- w_squared N k) = G k).
Proof.
  intros N cshape ws G SO HG HE Hd zero. eexists. split; [exact (poisson N cshape ws SO G HG ltac:(lia))|]. cbv beta. split.
  - destruct (zero_mode_dec zero) as [_|C]; [reflexivity|]. exfalso. apply C, zero_zero.
  - intros k Hk NE.
    assert (Zk : ~ zero_mode k) by (intros Zk; apply NE, (zero_is cshape k Zk), cell_length, Hk).
    rewrite <- (cell_length cshape k Hk), (w_squared_code N k HE).
    assert (W : w_squared N k <> 0).
    { rewrite <- (w_squared_code N k HE). intros E. apply Zk. apply (code_sum_zero N k (so_N _ _ _ SO) (cell_bounds N cshape ws SO k Hk)), E. }
    split; [exact W|]. destruct (zero_mode_dec k) as [C|_]; [contradiction|].
    replace (w_squared N k * -1) with (- w_squared N k) by ring. apply cmul_cdiv. lra.
Qed.
Print Assumptions C80_poisson.

(** ** The Gaussian *)
Lemma fold_exp (f : nat -> R) l v :
  fold_left (fun v d => cmul v (exp (f d))) l v = cmul v (exp (fold_right Rplus 0 (map f l))).
Proof.
  revert v. induction l as [|d l IH]; intros v; cbn [fold_left map fold_right].
  - rewrite exp_0. destruct v. unfold cmul. cbn [fst snd]. f_equal; ring.
  - rewrite IH, exp_plus. destruct v. unfold cmul. cbn [fst snd]. f_equal; ring.
Qed.
Lemma sum_scale {A} (f : A -> R) c l : fold_right Rplus 0 (map (fun d => c * f d) l) = c * fold_right Rplus 0 (map f l).
Proof. induction l as [|x l IH]; cbn [map fold_right]; [ring|]. rewrite IH. ring. Qed.
Theorem C80_gaussian : forall N cshape ws G smoothing,
  spread_out N cshape ws -> holds_modes ws G -> Z.Even N ->
  transferred ws (map (Gaussian smoothing N) ws) (fun k => cmul (G k) (exp (- (smoothing ^ 2 * w_squared N k / 2)))).
Proof.
  intros N cshape ws G sm SO HG HE.
  eapply (transferred_ext N cshape); [exact SO|exact (axes N cshape ws SO G HG (fun w v => cmul v (exp (- (1 / 2) * w ^ 2 * sm ^ 2))))|].
  intros k Hk. cbv beta. rewrite (fold_exp (fun d => - (1 / 2) * code_w N k d ^ 2 * sm ^ 2)). f_equal. f_equal.
  rewrite <- (cell_length cshape k Hk). rewrite <- (w_squared_code N k HE).
  rewrite (map_ext (fun d => - (1 / 2) * code_w N k d ^ 2 * sm ^ 2) (fun d => (- (1 / 2) * sm ^ 2) * code_w N k d ^ 2)) by (intros; ring).
  rewrite (sum_scale (fun d => code_w N k d ^ 2)). unfold Rdiv. ring.
Qed.
Print Assumptions C80_gaussian.

(** A constant in a chain multiplies every mode of what the functions before it gave. *)
Theorem C80_constant : forall N cshape ws G C fs,
  spread_out N cshape ws -> holds_modes ws G ->
  exists ws', transferred ws ws' (fun k => (fst (G k) * C, snd (G k) * C)) /\
    transfer N (tf_Constant C :: fs) ws = transfer N fs ws'.
Proof.
  intros N cshape ws G C fs SO HG. exists (map (fun s => with_values s (fun idx => cmul (sp_data s idx) C)) ws).
  split; [|reflexivity]. apply transferred_map. intros s Hs. split; [reflexivity|split; [reflexivity|]]. intros idx Hi.
  cbn [with_values sp_data]. rewrite (held ws G HG s idx Hs Hi). reflexivity.
Qed.
Print Assumptions C80_constant.

(** ** The derivative *)
Lemma lanczos_odd w : lanczos (- w) = - lanczos w.
Proof. unfold lanczos. replace (2 * - w) with (- (2 * w)) by ring. rewrite !sin_neg. ring. Qed.
Lemma lanczos_gap w : 0 <= w -> 0 <= w - lanczos w <= w ^ 5 / 30.
Proof.
  intros Hw. destruct (Req_dec w 0) as [->|N0].
  { unfold lanczos. rewrite Rmult_0_r, sin_0. split; right; field. }
  assert (D : forall c, 0 <= 2 / 3 * (1 - cos c) ^ 2 <= c ^ 4 / 6).
  { intros c. assert (B : 0 <= 1 - cos c <= c ^ 2 / 2).
    { pose proof (COS_bound c). split; [lra|].
      replace c with (2 * (c / 2)) at 1 by field. rewrite cos_2a_sin.
      assert (S : Rabs (sin (c / 2)) <= Rabs (c / 2)).
      { destruct (Rle_dec 0 (c / 2)) as [P|P].
        - destruct (Req_dec (c / 2) 0) as [->|Q]; [rewrite sin_0; right; reflexivity|].
          destruct (Rle_dec (c / 2) 1) as [T|T].
          + assert (0 < sin (c / 2)) by (apply sin_gt_0; [lra|pose proof PI2_1; lra]).
            rewrite !Rabs_pos_eq by lra. left. apply sin_lt_x. lra.
          + apply Rle_trans with 1; [apply Rabs_le, SIN_bound|]. rewrite Rabs_pos_eq; lra.
        - rewrite <- (Rabs_Ropp (sin (c / 2))), <- sin_neg, <- (Rabs_Ropp (c / 2)).
          destruct (Rle_dec (- (c / 2)) 1) as [T|T].
          + assert (0 < sin (- (c / 2))) by (apply sin_gt_0; [lra|pose proof PI2_1; lra]).
            rewrite !Rabs_pos_eq by lra. left. apply sin_lt_x. lra.
          + apply Rle_trans with 1; [apply Rabs_le, SIN_bound|]. rewrite Rabs_pos_eq; lra. }
      apply Rsqr_le_abs_1 in S. unfold Rsqr in S. nra. }
    split; [apply Rmult_le_pos; [lra|apply pow2_ge_0]|].
    apply Rle_trans with (2 / 3 * (c ^ 2 / 2) ^ 2); [|right; field].
    apply Rmult_le_compat_l; [lra|]. apply pow_incr. exact B. }
  assert (D1 : forall c, derivable_pt_lim (fun w => w - lanczos w) c (2 / 3 * (1 - cos c) ^ 2)).
  { intros c. apply is_derive_Reals. unfold lanczos. auto_derive; [exact I|].
    replace (cos (2 * c)) with (2 * cos c * cos c - 1) by (rewrite cos_2a_cos; ring). field. }
  assert (D2 : forall c, derivable_pt_lim (fun w => w ^ 5 / 30 - (w - lanczos w)) c (c ^ 4 / 6 - 2 / 3 * (1 - cos c) ^ 2)).
  { intros c. apply is_derive_Reals. unfold lanczos. auto_derive; [exact I|].
    replace (cos (2 * c)) with (2 * cos c * cos c - 1) by (rewrite cos_2a_cos; ring). field. }
  assert (L0 : lanczos 0 = 0) by (unfold lanczos; rewrite Rmult_0_r, sin_0; ring).
  destruct (MVT_cor2 _ _ 0 w ltac:(lra) (fun c _ => D1 c)) as [a [Ea _]].
  destruct (MVT_cor2 _ _ 0 w ltac:(lra) (fun c _ => D2 c)) as [b [Eb _]].
  cbv beta in Ea, Eb. rewrite L0 in Ea, Eb. pose proof (D a) as Da. pose proof (D b) as Db.
  assert (0 <= 2 / 3 * (1 - cos a) ^ 2 * (w - 0)) by (apply Rmult_le_pos; lra).
  assert (0 <= (b ^ 4 / 6 - 2 / 3 * (1 - cos b) ^ 2) * (w - 0)) by (apply Rmult_le_pos; lra).
  replace (0 ^ 5) with 0 in Eb by ring. lra.
Qed.
Lemma sin_shift x n : sin (x + 2 * IZR n * PI) = sin x.
Proof.
  destruct (Z_le_dec 0 n) as [P|P].
  - rewrite <- (Z2Nat.id n P), <- INR_IZR_INZ. apply sin_period.
  - rewrite <- (sin_period (x + 2 * IZR n * PI) (Z.to_nat (- n))). f_equal. rewrite INR_IZR_INZ, Z2Nat.id, opp_IZR by lia. ring.
Qed.
Lemma lanczos_shift x n : lanczos (x + 2 * IZR n * PI) = lanczos x.
Proof.
  unfold lanczos. rewrite sin_shift. replace (2 * (x + 2 * IZR n * PI)) with (2 * x + 2 * IZR (2 * n) * PI) by (rewrite mult_IZR; ring).
  rewrite sin_shift. reflexivity.
Qed.
Lemma lanczos_alias N g g' m : (0 < N)%Z -> (g = g' + m * N)%Z ->
  lanczos (IZR g * (2 * PI / IZR N)) = lanczos (IZR g' * (2 * PI / IZR N)).
Proof.
  intros HN ->. rewrite <- (lanczos_shift (IZR g' * (2 * PI / IZR N)) m). f_equal. rewrite plus_IZR, mult_IZR.
  apply IZR_lt in HN. field. lra.
Qed.
Lemma lanczos_code N k d : (0 < N)%Z -> lanczos (code_w N k d) = lanczos (frequency N k d).
Proof.
  intros HN. unfold code_w, frequency, old_frequency. cbv zeta. set (g := nth d k 0%Z).
  destruct (g >=? N / 2)%Z, (2 * g <? N)%Z; [apply (lanczos_alias N _ _ (-1))|reflexivity|reflexivity|apply (lanczos_alias N _ _ 1)]; lia.
Qed.
Theorem C80_lanczos : forall N cshape ws G dir order,
  spread_out N cshape ws -> holds_modes ws G ->
  exists T : R -> R,
    (order <> 0%Z -> transferred ws (map (SuperLanzcos dir order N) ws) (fun k => cmuli (G k) (T (frequency N k dir)))) /\
    (order = 0%Z -> Z.Even N -> transferred ws (map (SuperLanzcos dir order N) ws) (fun k => cmuli (G k) (frequency N k dir))) /\
    (forall w, Rabs (T w - w) <= Rabs w ^ 5 / 30) /\
    (forall g, (0 < g < N)%Z -> T (frequency N [(N - g)%Z] 0) = - T (frequency N [g] 0)).
Proof.
  intros N cshape ws G dir order SO HG. pose proof (so_N _ _ _ SO) as HN. exists lanczos.
  assert (Base : forall f : R -> R, (forall s idx, sp_data (SuperLanzcos dir order N s) idx = cmuli (sp_data s idx) (f (w_at N s dir (nth dir idx 0%Z)))) ->
    transferred ws (map (SuperLanzcos dir order N) ws) (fun k => cmuli (G k) (f (code_w N k dir)))).
  { intros f Hf. apply transferred_map. intros s Hs. split; [reflexivity|split; [reflexivity|]]. intros idx Hi.
    destruct (rank_dims N cshape ws SO s Hs) as [Ls Lh]. rewrite Hf, (held ws G HG s idx Hs Hi), (w_at_mode N s (length cshape) Ls Lh idx dir Hi). reflexivity. }
  split; [|split; [|split]].
  - intros Ho. eapply (transferred_ext N cshape); [exact SO|apply (Base lanczos)|].
    + intros s idx. cbn [SuperLanzcos with_values sp_data]. cbv zeta. rewrite Rmult_1_r. destruct (Z.eqb_spec order 0); [contradiction|reflexivity].
    + intros k _. cbv beta. rewrite lanczos_code by lia. reflexivity.
  - intros Ho HE. eapply (transferred_ext N cshape); [exact SO|apply (Base (fun w => w))|].
    + intros s idx. cbn [SuperLanzcos with_values sp_data]. cbv zeta. rewrite Rmult_1_r, Ho. reflexivity.
    + intros k _. cbv beta. rewrite (code_w_even N k dir HE). reflexivity.
  - intros w. destruct (Rle_dec 0 w) as [P|P].
    + pose proof (lanczos_gap w P). rewrite Rabs_minus_sym, !Rabs_pos_eq by lra. lra.
    + pose proof (lanczos_gap (- w) ltac:(lra)) as Q. rewrite lanczos_odd in Q. rewrite (Rabs_left w) by lra.
      rewrite Rabs_pos_eq by lra. lra.
  - intros g Hg. rewrite <- lanczos_odd. unfold frequency. cbv zeta. cbn [nth].
    replace (- (IZR (if (2 * g <? N)%Z then g else (g - N)%Z) * (2 * PI / IZR N))) with (IZR (- (if (2 * g <? N)%Z then g else g - N)) * (2 * PI / IZR N)) by (rewrite opp_IZR; ring).
    destruct (Z.ltb_spec (2 * (N - g)) N), (Z.ltb_spec (2 * g) N).
    + lia.
    + apply (lanczos_alias N _ _ 0); lia.
    + apply (lanczos_alias N _ _ 0); lia.
    + apply (lanczos_alias N _ _ (-1)); lia.
Qed.
Print Assumptions C80_lanczos.

(** ** The window of the linear kernel *)
Lemma frequency_range N k d : (0 < N)%Z -> (0 <= nth d k 0 < N)%Z -> Rabs (frequency N k d) <= PI.
Proof.
  intros HN Hg. unfold frequency. cbv zeta. set (m := (if (2 * nth d k 0 <? N)%Z then nth d k 0 else nth d k 0 - N)%Z).
  assert (B : (- N <= 2 * m <= N)%Z) by (unfold m; destruct (Z.ltb_spec (2 * nth d k 0%Z) N); lia).
  destruct B as [B1 B2]. apply IZR_le in B1, B2. rewrite opp_IZR, mult_IZR in B1. rewrite mult_IZR in B2. apply IZR_lt in HN.
  pose proof PI_RGT_0 as HP. replace (IZR m * (2 * PI / IZR N)) with (2 * IZR m / IZR N * PI) by (field; lra).
  rewrite Rabs_mult, (Rabs_pos_eq PI) by lra. rewrite <- (Rmult_1_l PI) at 2. apply Rmult_le_compat_r; [lra|].
  apply Rabs_le. unfold Rdiv. split.
  - apply Rmult_le_reg_r with (IZR N); [lra|]. rewrite Rmult_assoc, Rinv_l by lra. lra.
  - apply Rmult_le_reg_r with (IZR N); [lra|]. rewrite Rmult_assoc, Rinv_l by lra. lra.
Qed.
Lemma sinc_nonzero x : Rabs x <= PI / 2 -> sinc x <> 0.
Proof.
  pose proof PI_RGT_0 as HP.
  assert (P : forall y, 0 < y <= PI / 2 -> sinc y <> 0).
  { intros y Hy. unfold sinc. destruct (Req_EM_T y 0); [lra|]. assert (0 < sin y) by (apply sin_gt_0; lra).
    assert (0 < sin y / y) by (apply Rdiv_lt_0_compat; lra). lra. }
  intros H. destruct (Rtotal_order x 0) as [L|[->|L]].
  - rewrite <- sinc_even. apply P. rewrite Rabs_left in H by lra. lra.
  - unfold sinc. destruct (Req_EM_T 0 0); lra.
  - apply P. rewrite Rabs_pos_eq in H by lra. lra.
Qed.
Lemma np_sinc_sinc w : np_sinc (w / (2 * PI)) = sinc (w / 2).
Proof.
  pose proof PI_RGT_0 as HP. unfold np_sinc, sinc. replace (PI * (w / (2 * PI))) with (w / 2) by (field; lra).
  destruct (is0_spec (w / (2 * PI))) as [E|E], (Req_EM_T (w / 2) 0) as [E'|E']; try reflexivity.
  - exfalso. apply E'. replace (w / 2) with (w / (2 * PI) * PI) by (field; lra). rewrite E. ring.
  - exfalso. apply E. replace (w / (2 * PI)) with (w / 2 / PI) by (field; lra). rewrite E'. unfold Rdiv. ring.
Qed.
Lemma fold_cdiv (f : nat -> R) l v : (forall d, In d l -> f d <> 0) ->
  cmul (fold_left (fun v d => cdiv v (f d)) l v) (fold_right Rmult 1 (map f l)) = v.
Proof.
  revert v. induction l as [|d l IH]; intros v H; cbn [fold_left map fold_right].
  - destruct v. unfold cmul. cbn [fst snd]. f_equal; ring.
  - assert (E : forall c x y, cmul c (x * y) = cmul (cmul c y) x) by (intros c x y; unfold cmul; cbn [fst snd]; f_equal; ring).
    rewrite E, IH by (intros d' Hd'; apply H; right; exact Hd'). apply cmul_cdiv, H. left. reflexivity.
Qed.
Theorem C80_trilinear : forall N cshape ws G,
  spread_out N cshape ws -> holds_modes ws G -> Z.Even N ->
  exists H, transferred ws (map (Trilinear N) ws) H /\
    forall k (W : nat -> R), In k (cells_of cshape) ->
      (forall d, (d < length k)%nat -> is_RInt (fun x => linearR x * cos (frequency N k d * x)) (-1) 1 (W d)) ->
      cmul (H k) (fold_right Rmult 1 (map W (seq 0 (length k)))) = G k.
Proof.
  intros N cshape ws G SO HG HE. eexists. split; [exact (axes N cshape ws SO G HG (fun w v => cdiv v (np_sinc (w / (2 * PI)) ^ 2)))|].
  intros k W Hk HW. cbv beta. pose proof (so_N _ _ _ SO) as HN.
  assert (E : forall d, (d < length k)%nat -> W d = np_sinc (code_w N k d / (2 * PI)) ^ 2).
  { intros d Hd. rewrite np_sinc_sinc, (code_w_even N k d HE).
    destruct (kernel_transform Linear 2 (frequency N k d) eq_refl) as [T _]. unfold half in T. simpl INR in T.
    replace ((1 + 1) / 2) with 1 in T by field. replace (- (1)) with (-1) in T by ring.
    transitivity (RInt (fun x => linearR x * cos (frequency N k d * x)) (-1) 1); [symmetry; apply is_RInt_unique, HW, Hd|].
    apply is_RInt_unique. exact T. }
  rewrite (map_ext_in W (fun d => np_sinc (code_w N k d / (2 * PI)) ^ 2)) by (intros d Hd; apply E; apply in_seq in Hd; lia).
  rewrite <- (cell_length cshape k Hk). apply (fold_cdiv (fun d => np_sinc (code_w N k d / (2 * PI)) ^ 2)). intros d Hd. apply in_seq in Hd.
  rewrite np_sinc_sinc, (code_w_even N k d HE). apply pow_nonzero, sinc_nonzero.
  pose proof (frequency_range N k d ltac:(lia) (mode_bound N cshape ws SO k d Hk ltac:(rewrite <- (cell_length cshape k Hk); lia))) as R.
  unfold Rdiv. rewrite Rabs_mult, (Rabs_pos_eq (/ 2)) by lra. lra.
Qed.
Print Assumptions C80_trilinear.

(** ** A chain of functions: the smoothed force along an axis *)
Theorem C80_force : forall N cshape ws G smoothing dir,
  spread_out N cshape ws -> holds_modes ws G -> Z.Even N -> (2 <= length cshape)%nat ->
  let zero := repeat 0%Z (length cshape) in
  exists ws' H, transfer N [tf_RemoveDC; tf_Gaussian smoothing; tf_Poisson; tf_SuperLanzcos dir 3] ws = Ret ws' /\
    transferred ws ws' H /\ H zero = (0, 0) /\
    forall k, In k (cells_of cshape) -> k <> zero ->
      exists t, Rabs (t - frequency N k dir) <= Rabs (frequency N k dir) ^ 5 / 30 /\
        cmul (H k) (- w_squared N k) = cmuli (G k) (exp (- (smoothing ^ 2 * w_squared N k / 2)) * t).
Proof.
  intros N cshape ws G sm dir SO HG HE Hd zero.
  destruct (C80_dc N cshape ws G SO HG) as [(H1 & T1 & Z1 & E1) _]. fold zero in Z1, E1.
  pose proof (transferred_spread _ _ _ _ _ SO T1) as SO1.
  pose proof (C80_gaussian N cshape _ H1 sm SO1 (proj2 T1) HE) as T2. pose proof (transferred_spread _ _ _ _ _ SO1 T2) as SO2.
  destruct (C80_poisson N cshape _ _ SO2 (proj2 T2) HE Hd) as (H3 & T3 & Z3 & E3). fold zero in Z3, E3.
  pose proof (transferred_spread _ _ _ _ _ SO2 T3) as SO3.
  destruct (C80_lanczos N cshape _ H3 dir 3%Z SO3 (proj2 T3)) as (T & T4 & _ & BT & _). specialize (T4 ltac:(lia)).
  eexists. eexists. split; [reflexivity|]. split; [|split].
  - eapply transferred_trans; [exact T1|]. eapply transferred_trans; [exact T2|]. eapply transferred_trans; [exact T3|]. exact T4.
  - cbv beta. rewrite Z3. unfold cmuli. cbn [fst snd]. f_equal; ring.
  - intros k Hk NE. exists (T (frequency N k dir)). split; [apply BT|]. destruct (E3 k Hk NE) as [_ P].
    rewrite (E1 k Hk NE) in P. cbv beta.
    transitivity (cmuli (cmul (H3 k) (- w_squared N k)) (T (frequency N k dir))); [unfold cmul, cmuli; cbn [fst snd]; f_equal; ring|].
    rewrite P. unfold cmul, cmuli. cbn [fst snd]. f_equal; ring.
Qed.
Print Assumptions C80_force.

(** ** What fails *)
Definition whole (N : Z) (G : list Z -> cplx) : spectrum :=
  {| sp_start := [0; 0; 0]%Z; sp_shape := [N; N; N / 2 + 1]%Z; sp_data := G |}.
Lemma zadd_zero idx : length idx = 3%nat -> zadd idx [0; 0; 0]%Z = idx.
Proof.
  destruct idx as [|a [|b [|c [|]]]]; try discriminate. intros _. unfold zadd. cbn. rewrite !Z.add_0_r. reflexivity.
Qed.
Lemma whole_ok N G : (2 <= N)%Z -> spread_out N [N; N; N / 2 + 1]%Z [whole N G] /\ holds_modes [whole N G] G.
Proof.
  intros HN. assert (L : forall idx, In idx (cells_of [N; N; N / 2 + 1]%Z) -> length idx = 3%nat) by (intros idx H; apply in_cells_of in H; apply H).
  assert (D : (0 < N / 2 + 1 <= N)%Z) by (split; [assert (0 <= N / 2)%Z by (apply Z.div_pos; lia); lia|assert (N / 2 < N)%Z by (apply Z.div_lt; lia); lia]).
  split.
  - constructor; [exact HN| | |].
    + repeat apply Forall_cons; try apply Forall_nil; lia.
    + apply Forall_cons; [split; reflexivity|apply Forall_nil].
    + cbn [flat_map]. rewrite app_nil_r. unfold modes_of, whole. cbn [sp_start sp_shape].
      rewrite (map_ext_in _ (fun idx => idx)) by (intros idx H; apply zadd_zero, L, H). rewrite map_id. reflexivity.
  - apply Forall_cons; [|apply Forall_nil]. intros idx H. unfold whole. cbn [sp_start sp_data]. rewrite zadd_zero by (apply L, H). reflexivity.
Qed.
(** the product of [Laplace] is taken with the last row's frequencies; the zero mode is not
    finite; a rank without rows fails *)
Theorem C80_laplace_refuted :
  (forall N, (4 <= N)%Z -> exists f, Laplace N (whole N (fun _ => (1, 0))) = Ret f /\
     In [2; 0; 0]%Z (cells_of [N; N; N / 2 + 1]%Z) /\
     exists v, f [2; 0; 0]%Z = Some v /\ v <> cmul (1, 0) (- w_squared N [2; 0; 0]%Z)) /\
  (forall N start shape data, (2 <= N)%Z -> shape = [1; N; N]%Z -> start = [0; 0; 0]%Z ->
     exists f, Laplace N {| sp_start := start; sp_shape := shape; sp_data := data |} = Ret f /\ f [0; 0; 0]%Z = None) /\
  (forall N start data, Laplace N {| sp_start := start; sp_shape := [0; N; N]%Z; sp_data := data |} = Raise NameError).
Proof.
  split; [|split; [|reflexivity]].
  - intros N HN. pose proof (unit_pos N ltac:(lia)) as U. unfold Laplace, rows, whole. cbn [sp_shape nth].
    assert (R : exists l, rev (zrange 0 (Z.to_nat N)) = (N - 1)%Z :: l).
    { replace (Z.to_nat N) with (Z.to_nat (N - 1) + 1)%nat by lia. rewrite zrange_app, rev_app_distr. cbn [zrange rev app].
      eexists. f_equal. lia. }
    destruct R as [l R]. rewrite R. eexists. split; [reflexivity|]. split.
    { apply in_cells_of. split; [reflexivity|]. assert (0 <= N / 2)%Z by (apply Z.div_pos; lia).
      intros d Hd. destruct d as [|[|[|d]]]; cbn [nth]; try lia; cbn [length] in Hd; lia. }
    cbv beta. unfold row_kernel, row_w2. cbn [sp_start length Nat.sub seq fold_left nth].
    assert (H0 : w_at N {| sp_start := [0; 0; 0]%Z; sp_shape := [N; N; (N / 2 + 1)%Z]; sp_data := fun _ => (1, 0) |} 1 0 = 0).
    { unfold w_at. cbn [sp_start nth]. apply frequency_zero; lia. }
    assert (H1 : w_at N {| sp_start := [0; 0; 0]%Z; sp_shape := [N; N; (N / 2 + 1)%Z]; sp_data := fun _ => (1, 0) |} 2 0 = 0).
    { unfold w_at. cbn [sp_start nth]. apply frequency_zero; lia. }
    assert (H2 : w_at N {| sp_start := [0; 0; 0]%Z; sp_shape := [N; N; (N / 2 + 1)%Z]; sp_data := fun _ => (1, 0) |} 0 (N - 1) = - (2 * PI / IZR N)).
    { unfold w_at, old_frequency. cbn [sp_start nth]. assert (N / 2 < N)%Z by (apply Z.div_lt; lia).
      destruct (Z.geb_spec (0 + (N - 1)) (N / 2)) as [X|X]; [|lia]. replace (0 + (N - 1) - N)%Z with (-1)%Z by lia. ring. }
    rewrite H0, H1, H2. set (u := 2 * PI / IZR N) in *.
    destruct (is0_spec ((- u) ^ 2 + 0 ^ 2 + 0 ^ 2)) as [E|E]; [exfalso; nra|]. eexists. split; [reflexivity|].
    cbn [sp_data]. unfold cmul. cbn [fst snd]. intros C. injection C as C _.
    assert (Wz : forall d, d = 1%nat \/ d = 2%nat -> frequency N [2; 0; 0]%Z d = 0).
    { intros d [-> | ->]; unfold frequency; cbn [nth]; (destruct (Z.ltb_spec (2 * 0) N); [ring|lia]). }
    assert (W0 : frequency N [2; 0; 0]%Z 0 ^ 2 >= 4 * u ^ 2).
    { unfold frequency. cbn [nth]. fold u. destruct (Z.ltb_spec (2 * 2) N) as [X|X].
      - right. simpl. ring.
      - assert (N = 4%Z) by lia. subst N. replace (2 - 4)%Z with (-2)%Z by lia. right. simpl. ring. }
    unfold w_squared in C. cbn [length seq map fold_right] in C. rewrite (Wz 1%nat), (Wz 2%nat) in C by auto. nra.
  - intros N start shape data HN -> ->. unfold Laplace, rows. cbn [sp_shape nth]. change (Z.to_nat 1) with 1%nat. cbn [zrange rev app].
    eexists. split; [reflexivity|]. cbv beta. unfold row_kernel, row_w2. cbn [sp_start length Nat.sub seq fold_left nth].
    assert (H0 : forall d, (d < 3)%nat -> w_at N {| sp_start := [0; 0; 0]%Z; sp_shape := [1; N; N]%Z; sp_data := data |} d 0 = 0).
    { intros d Hd. unfold w_at. cbn [sp_start]. replace (nth d [0; 0; 0]%Z 0%Z) with 0%Z by (destruct d as [|[|[|[|d]]]]; reflexivity). apply frequency_zero; lia. }
    rewrite (H0 0%nat), (H0 1%nat), (H0 2%nat) by lia. destruct (is0_spec (0 ^ 2 + 0 ^ 2 + 0 ^ 2)) as [_|C]; [reflexivity|]. exfalso. apply C. ring.
Qed.
Print Assumptions C80_laplace_refuted.
(** [transfer] cannot call [Trilinear] *)
Theorem C80_trilinear_refuted : forall N fs ws, transfer N (tf_Trilinear :: fs) ws = Raise TypeError.
Proof. reflexivity. Qed.
Print Assumptions C80_trilinear_refuted.
(** on a mesh of odd size the Poisson equation is not solved *)
Theorem C80_odd_refuted : forall N, (3 <= N)%Z -> Z.Odd N ->
  let k := [N / 2; 0; 0]%Z in
  In k (cells_of [N; N; N / 2 + 1]%Z) /\
  cmul (sp_data (Poisson N (whole N (fun _ => (1, 0)))) k) (- w_squared N k) <> (1, 0).
Proof.
  intros N HN [h ->] k. assert (Hh : ((2 * h + 1) / 2 = h)%Z) by (rewrite Z.mul_comm, Z.div_add_l by lia; cbn; lia).
  assert (K : In k (cells_of [2 * h + 1; 2 * h + 1; (2 * h + 1) / 2 + 1]%Z)).
  { apply in_cells_of. split; [reflexivity|]. unfold k. rewrite Hh. intros d Hd. destruct d as [|[|[|d]]]; cbn [nth]; try lia; cbn [length] in Hd; lia. }
  split; [exact K|]. destruct (whole_ok (2 * h + 1) (fun _ => (1, 0)) ltac:(lia)) as [SO HG].
  destruct (poisson _ _ _ SO _ HG ltac:(cbn [length]; lia)) as [_ P]. unfold holds_modes in P. cbn [map] in P.
  apply Forall_inv in P. specialize (P k).
  destruct (poisson_place (2 * h + 1) (whole (2 * h + 1) (fun _ => (1, 0))) (rows (whole (2 * h + 1) (fun _ => (1, 0)))) _ eq_refl eq_refl) as [A B].
  unfold Poisson in P |- *. rewrite B in P. specialize (P K). rewrite A in P. cbn [whole sp_start] in P. rewrite (zadd_zero k eq_refl) in P. rewrite P. clear P A B.
  destruct (zero_mode_dec k) as [Zk|_].
  { exfalso. apply Forall_inv in Zk. rewrite Hh in Zk. lia. }
  pose proof (unit_pos (2 * h + 1) ltac:(lia)) as U. cbn [length seq map fold_right].
  assert (F0 : forall d, d = 1%nat \/ d = 2%nat -> frequency (2 * h + 1) k d = 0 /\ code_w (2 * h + 1) k d = 0).
  { intros d Hd. unfold frequency, code_w, old_frequency. cbv zeta. replace (nth d k 0%Z) with 0%Z by (destruct Hd as [-> | ->]; reflexivity).
    rewrite Hh. destruct (Z.ltb_spec (2 * 0) (2 * h + 1)), (Z.geb_spec 0 h); try lia. split; ring. }
  destruct (F0 1%nat) as [A1 B1]; [auto|]. destruct (F0 2%nat) as [A2 B2]; [auto|].
  unfold w_squared. change (length k) with 3%nat. cbn [seq map fold_right]. rewrite A1, A2, B1, B2.
  unfold frequency, code_w, old_frequency. cbv zeta. change (nth 0 k 0%Z) with ((2 * h + 1) / 2)%Z. rewrite Hh.
  destruct (Z.geb_spec h h) as [_|X]; [|lia]. destruct (Z.ltb_spec (2 * h) (2 * h + 1)) as [_|X]; [|lia].
  set (u := 2 * PI / IZR (2 * h + 1)) in *. replace (h - (2 * h + 1))%Z with (- (h + 1))%Z by lia.
  assert (H1 : (1 <= IZR h)) by (apply IZR_le; lia). rewrite opp_IZR, plus_IZR. unfold cmul, cdiv. cbn [fst snd]. intros C. injection C as C _.
  assert (E : (IZR h * u) ^ 2 = ((IZR h + 1) * u) ^ 2).
  { assert (X : (IZR h + 1) * u <> 0) by nra.
    match type of C with ?L = _ => assert (E : L = (IZR h * u) ^ 2 / ((IZR h + 1) * u) ^ 2) by (field; split; nra) end.
    rewrite E in C. transitivity ((IZR h * u) ^ 2 / ((IZR h + 1) * u) ^ 2 * ((IZR h + 1) * u) ^ 2); [field; split; nra|].
    rewrite C. ring. }
  assert (U2 : 0 < u ^ 2) by (apply pow_lt; exact U). nra.
Qed.
Print Assumptions C80_odd_refuted.

(** Three ranks, one of them without modes, hold the modes of a mesh of four cells per side. *)
Definition ex_part (i n : Z) : spectrum :=
  {| sp_start := [i; 0; 0]%Z; sp_shape := [n; 4; 3]%Z; sp_data := fun idx => (IZR (nth 0 idx 0%Z + i) + 1, IZR (nth 1 idx 0%Z)) |}.
Example C80_case :
  let ws := [ex_part 0 3; ex_part 3 1; ex_part 4 0] in
  let G := fun k => (IZR (nth 0 k 0%Z) + 1, IZR (nth 1 k 0%Z)) in
  spread_out 4 [4; 4; 3]%Z ws /\ holds_modes ws G /\ G [0; 0; 0]%Z <> (0, 0) /\ Z.Even 4 /\
  In [3; 1; 2]%Z (cells_of [4; 4; 3]%Z).
Proof.
  cbv zeta. split; [|split; [|split; [|split]]].
  - constructor; [lia| | |].
    + repeat apply Forall_cons; try apply Forall_nil; lia.
    + repeat apply Forall_cons; try apply Forall_nil; split; reflexivity.
    + apply Permutation_refl'. reflexivity.
  - repeat apply Forall_cons; try apply Forall_nil; intros idx H; apply in_cells_of in H; destruct H as [L _];
      cbn [ex_part sp_shape length] in L; cbn [ex_part sp_data sp_start]; rewrite !zadd_nth by (rewrite L; reflexivity); cbn [nth]; rewrite ?Z.add_0_r; reflexivity.
  - cbn [nth]. intros C. injection C as C. lra.
  - exists 2%Z. reflexivity.
  - apply in_cells_of. split; [reflexivity|]. intros d Hd. destruct d as [|[|[|d]]]; cbn [nth]; try lia; cbn [length] in Hd; lia.
Qed.
