(** Property C92: the linear window in doubles, over ranks. *)
From Coq Require Import List Arith ZArith QArith Qround Qabs Qpower Lqa Lia Bool Sorted.
From Verif Require Import Base ListFacts LayoutModel LayoutSpec LayoutProofs LayoutModes LayoutMore WrapModel WrapProofs
  DomainModel DomainFill DomainGeom DomainTargets DomainHome DomainAssign DomainProperties FloatModel FloatRound FloatDomain FloatProperties FloatNearest
  FloatPaint FloatCic.
Import ListNotations.
Local Close Scope Q_scope.
Local Open Scope Z_scope.

(** ** products *)
Fixpoint prodf (f : Q) (axes : list (list (Z * Q))) (c : list Z) : Q :=
  match axes, c with
  | a :: axes, i :: c => prodf (round64 (f * entry1 a i)%Q) axes c
  | _, _ => f
  end.
Lemma round64_0 f : (f == 0)%Q -> (round64 f == 0)%Q.
Proof. intros H. eapply Qeq_trans; [apply (round64_compat _ 0), H|reflexivity]. Qed.
Lemma prodf_zero axes : forall f c, (f == 0)%Q -> (prodf f axes c == 0)%Q.
Proof. induction axes as [|a axes IH]; intros f [|i c] H; cbn; try exact H. apply IH, round64_0. rewrite H. ring. Qed.
Lemma prodf_compat axes : forall axes' f f' c c', (f == f')%Q -> Forall2 (fun p q => (entry1 (fst p) (snd p) == entry1 (fst q) (snd q))%Q) (combine axes c) (combine axes' c') ->
  (prodf f axes c == prodf f' axes' c')%Q.
Proof.
  induction axes as [|a axes IH]; intros axes' f f' c c' Hf H.
  - cbn in H. inversion H as [H1 H2|]. destruct axes' as [|a' axes']; [exact Hf|]. destruct c' as [|i' c']; [exact Hf|discriminate].
  - destruct c as [|i c].
    + cbn in H. inversion H as [H1 H2|]. destruct axes' as [|a' axes']; [exact Hf|]. destruct c' as [|i' c']; [exact Hf|discriminate].
    + cbn in H. inversion H as [|? ? ? ? H1 H2 E1 E2]. destruct axes' as [|a' axes']; [discriminate|]. destruct c' as [|i' c']; [discriminate|].
      cbn in E2. injection E2 as -> ->. cbn. apply IH; [|exact H2]. apply round64_compat. cbn in H1. now rewrite Hf, H1.
Qed.

Local Notation is c := (fun e : list Z * Q => if list_eq_dec Z.eq_dec (fst e) c then true else false).
Lemma find_none_map {A} (p : A -> bool) l : (forall x, In x l -> p x = false) -> find p l = None.
Proof. induction l as [|a l IH]; intros H; [reflexivity|]. cbn. rewrite (H a) by now left. apply IH. intros x Hx. apply H. now right. Qed.
Lemma find_app_ {A} (p : A -> bool) l m : find p (l ++ m) = match find p l with Some x => Some x | None => find p m end.
Proof. induction l as [|a l IH]; [reflexivity|]. cbn. destruct (p a); [reflexivity|exact IH]. Qed.
Lemma find_cons i (l : list (list Z * Q)) (c : list Z) (j : Z) :
  find (is (j :: c)) (map (fun e => (i :: fst e, snd e)) l) =
  if i =? j then match find (is c) l with Some e => Some (i :: fst e, snd e) | None => None end else None.
Proof.
  induction l as [|e l IH]; [now destruct (i =? j)|]. cbn [map find fst]. rewrite IH. clear IH. destruct (Z.eqb_spec i j) as [->|Hij].
  - destruct (list_eq_dec Z.eq_dec (j :: fst e) (j :: c)) as [E|E]; destruct (list_eq_dec Z.eq_dec (fst e) c) as [F|F]; try reflexivity.
    + injection E as E. contradiction.
    + subst c. contradiction.
  - destruct (list_eq_dec Z.eq_dec (i :: fst e) (j :: c)) as [E|E]; [congruence|reflexivity].
Qed.
(** whether a cell occurs does not depend on the factor *)
Lemma faccess_keys axes : forall f f', map fst (faccess round64 f axes) = map fst (faccess round64 f' axes).
Proof.
  induction axes as [|l axes IH]; intros f f'; [reflexivity|]. cbn [faccess]. rewrite !flat_map_concat_map, !concat_map, !map_map. f_equal.
  apply map_ext. intros p. rewrite !map_map. cbn [fst].
  rewrite <- (map_map fst (cons (fst p)) (faccess round64 (round64 (f * snd p)) axes)), <- (map_map fst (cons (fst p)) (faccess round64 (round64 (f' * snd p)) axes)).
  f_equal. apply IH.
Qed.
Lemma find_keys (l l' : list (list Z * Q)) c : map fst l = map fst l' -> find (is c) l = None -> find (is c) l' = None.
Proof.
  revert l'. induction l as [|e l IH]; intros [|e' l'] H; try discriminate; [reflexivity|]. cbn in *. injection H as H1 H2. rewrite H1.
  destruct (list_eq_dec Z.eq_dec (fst e') c); [discriminate|]. apply IH, H2.
Qed.
Lemma find_product (g : Z * Q -> Q) axes l i c :
  find (is (i :: c)) (flat_map (fun p => map (fun e => (fst p :: fst e, snd e)) (faccess round64 (g p) axes)) l) =
  match find (fun e => fst e =? i) l with
  | Some p => match find (is c) (faccess round64 (g p) axes) with Some e => Some (i :: fst e, snd e) | None => None end
  | None => None end.
Proof.
  induction l as [|p l IH]; [reflexivity|]. cbn [flat_map find]. rewrite find_app_, find_cons, IH. clear IH.
  destruct (Z.eqb_spec (fst p) i) as [<-|Hp]; [|reflexivity].
  destruct (find (is c) (faccess round64 (g p) axes)) as [e|] eqn:Ef; [reflexivity|].
  destruct (find (fun e => fst e =? fst p) l) as [q|]; [|reflexivity].
  now rewrite (find_keys _ _ c (faccess_keys axes (g p) (g q)) Ef).
Qed.
Lemma faccess_entry axes : forall f c, length c = length axes -> (entry (faccess round64 f axes) c == prodf f axes c)%Q.
Proof.
  induction axes as [|l axes IH]; intros f [|i c] Hl; try discriminate.
  - unfold entry. cbn. reflexivity.
  - cbn [prodf]. unfold entry, entry1. cbn [faccess]. rewrite (find_product (fun p => round64 (f * snd p))).
    destruct (find (fun e => fst e =? i) l) as [p|]; [|symmetry; apply prodf_zero, round64_0; ring].
    cbn in Hl. rewrite <- (IH (round64 (f * snd p)) c ltac:(lia)). unfold entry. now destruct (find _ (faccess _ _ _)).
Qed.
Definition first_factor (mass : option Q) (v : Q) : Q := match mass with Some w => round64 (v * w)%Q | None => v end.
Lemma fproducts_entry mass l axes i c : length c = length axes ->
  (entry (fproducts round64 mass (l :: axes)) (i :: c) == prodf (first_factor mass (entry1 l i)) axes c)%Q.
Proof.
  intros Hl. unfold entry, entry1. cbn [fproducts]. rewrite (find_product (fun p => match mass with Some w => round64 (snd p * w) | None => snd p end)).
  destruct (find (fun e => fst e =? i) l) as [p|].
  - rewrite <- (faccess_entry axes _ c Hl). unfold entry. unfold first_factor. now destruct (find _ (faccess _ _ _)).
  - symmetry. apply prodf_zero. unfold first_factor. destruct mass; [apply round64_0; ring|reflexivity].
Qed.
Lemma find_filter_true (q : list Z * Q -> bool) l c : (forall e, fst e = c -> q e = true) -> find (is c) (filter q l) = find (is c) l.
Proof.
  intros H. induction l as [|e l IH]; [reflexivity|]. cbn. destruct (q e) eqn:Eq; cbn; destruct (list_eq_dec Z.eq_dec (fst e) c) as [E|E]; try reflexivity; try exact IH.
  rewrite (H e E) in Eq. discriminate.
Qed.
Lemma fentries_entry mass size axes c : local_cell size c = true -> (entry (fentries round64 mass size axes) c == entry (fproducts round64 mass axes) c)%Q.
Proof. intros H. unfold entry, fentries. rewrite find_filter_true; [reflexivity|]. intros e ->. exact H. Qed.

(** every cell occurs once *)
Lemma NoDup_app_ {A} (l m : list A) : NoDup l -> NoDup m -> (forall x, In x l -> ~ In x m) -> NoDup (l ++ m).
Proof.
  induction l as [|a l IH]; intros Hl Hm H; [exact Hm|]. inversion Hl; subst. cbn. constructor.
  - rewrite in_app_iff. intros [C|C]; [contradiction|]. now apply (H a); [left|].
  - apply IH; try assumption. intros x Hx. apply H. now right.
Qed.
Lemma product_NoDup (g : Z * Q -> Q) axes l : NoDup (map fst l) -> (forall f, NoDup (map fst (faccess round64 f axes))) ->
  NoDup (map fst (flat_map (fun p => map (fun e => (fst p :: fst e, snd e)) (faccess round64 (g p) axes)) l)).
Proof.
  intros Hl Ha. induction l as [|p l IH]; [constructor|]. cbn [flat_map map] in *. inversion Hl as [|? ? Hp Hl']; subst. rewrite map_app. apply NoDup_app_; [|now apply IH|].
  - rewrite map_map. cbn [fst]. rewrite <- (map_map fst (cons (fst p))). apply FinFun.Injective_map_NoDup; [intros ? ? E; now injection E|apply Ha].
  - intros x Hx C. apply Hp. rewrite map_map, in_map_iff in Hx. destruct Hx as (e & <- & _). cbn [fst] in C.
    apply in_map_iff in C. destruct C as (e' & Ee & C). apply in_flat_map in C. destruct C as (q & Hq & C). apply in_map_iff in C. destruct C as (e2 & <- & _).
    cbn in Ee. injection Ee as Ee _. rewrite <- Ee. now apply in_map.
Qed.
Lemma faccess_NoDup axes : Forall (fun l => NoDup (map fst l)) axes -> forall f, NoDup (map fst (faccess round64 f axes)).
Proof.
  induction 1 as [|l axes Hl _ IH]; intros f; [constructor; [auto|constructor]|]. cbn [faccess]. now apply (product_NoDup (fun p => round64 (f * snd p))).
Qed.
Lemma filter_NoDup_map {A B} (h : A -> B) q l : NoDup (map h l) -> NoDup (map h (filter q l)).
Proof.
  induction l as [|a l IH]; [trivial|]. cbn. intros H. inversion H as [|? ? H1 H2]; subst. destruct (q a); [|now apply IH].
  cbn. constructor; [|now apply IH]. intros C. apply H1. apply in_map_iff in C. destruct C as (b & <- & C). apply filter_In in C. now apply in_map.
Qed.
Lemma fentries_NoDup mass size axes : Forall (fun l => NoDup (map fst l)) axes -> NoDup (map fst (fentries round64 mass size axes)).
Proof.
  intros H. apply filter_NoDup_map. destruct H as [|l axes Hl H]; [constructor|]. cbn [fproducts].
  apply (product_NoDup (fun p => match mass with Some w => round64 (snd p * w) | None => snd p end)); [exact Hl|now apply faccess_NoDup].
Qed.
Lemma fcic_NoDup diff scale a N pos : 2 <= N -> NoDup (map fst (fcic round64 diff scale a N pos)).
Proof.
  intros HN. unfold fcic. cbn [map fst]. rewrite !wrap_ud_mod by lia. constructor; [|constructor; [auto|constructor]].
  intros [C|[]]. set (i := Qfloor _) in *. pose proof (Z.div_mod i N ltac:(lia)). pose proof (Z.div_mod (i + 1) N ltac:(lia)).
  pose proof (Z.mod_pos_bound i N ltac:(lia)). assert ((i + 1) / N - i / N = 0 \/ (i + 1) / N - i / N <> 0) as [?|?] by lia; nia.
Qed.

(** ** decompose, one axis *)
(** no block has all cells of the axis but one *)
Definition roomy (z : list Z) : Prop := forall k, (S k < length z)%nat -> nth (S k) z 0 - nth k z 0 <> last z 0 - 1.

Lemma fpatch_cic z x k g : axis_ok (int_axis z) -> 2 <= last z 0 <= 2 ^ 31 -> roomy z -> (0 <= x)%Q -> (S k < length z)%nat ->
  g = Qfloor x mod last z 0 \/ g = (Qfloor x + 1) mod last z 0 -> nth k z 0 <= g < nth (S k) z 0 ->
  exists t, fst (fpatch round64 (int_axis z) 1 x) <= t < snd (fpatch round64 (int_axis z) 1 x) /\ t mod ndom (int_axis z) = Z.of_nat k.
Proof.
  intros He [HN2 HN] Hroom Hx0 Hk Hg Hgk. pose proof (int_pos z He) as HN0. set (N := last z 0) in *.
  pose proof (ax_pos _ He) as HL. unfold fpatch. cbv zeta. rewrite (frem_pos round64 x _ HL Hx0).
  set (c := qrem x (period (int_axis z))). destruct (qrem_bounds x _ HL) as [C1 C2]. fold c in C1, C2.
  assert (Fc : Qfloor c = Qfloor x mod N). { unfold c. rewrite int_period. apply qrem_floor, HN0. }
  pose proof (Z.mod_pos_bound (Qfloor x) N HN0) as Hc. rewrite <- Fc in Hc.
  set (rho := round64 (c + 1)). assert (Hr1 : (inject_Z (Qfloor c + 1) <= rho)%Q).
  { apply round_lb; [apply round64_int; lia|]. rewrite inject_Z_plus. pose proof (Qfloor_le c). change (inject_Z 1) with 1%Q. lra. }
  assert (Hr2 : (rho <= inject_Z (Qfloor c + 2))%Q).
  { apply round_ub; [apply round64_int; lia|]. replace (Qfloor c + 2) with (Qfloor c + 1 + 1) by ring. rewrite inject_Z_plus. pose proof (Qlt_floor c). change (inject_Z 1) with 1%Q. lra. }
  assert (Hr0 : (0 <= rho)%Q) by (eapply Qle_trans; [|exact Hr1]; apply (inj_le 0); lia).
  rewrite (frem_pos round64 rho _ HL Hr0).
  assert (Fr : Qfloor rho = Qfloor c + 1 \/ Qfloor rho = Qfloor c + 2).
  { pose proof (floor_lb _ _ Hr1). assert (Qfloor rho <= Qfloor c + 2); [|lia]. apply floor_ub. eapply Qle_lt_trans; [exact Hr2|]. rewrite <- Zlt_Qlt. lia. }
  assert (DG : forall y q j, Qfloor y = q -> (S j < length z)%nat -> nth j z 0 <= q < nth (S j) z 0 -> digitize y (int_axis z) = Z.of_nat (S j)).
  { intros y q j Fy Hj Hq. apply (digitize_at _ He j); rewrite ?int_len, ?int_E by lia; [lia| |].
    - eapply Qle_trans; [|apply Qfloor_le]. apply inj_le. lia.
    - eapply Qlt_le_trans; [apply Qlt_floor|]. apply inj_le. lia. }
  destruct (int_find z (Qfloor c) He Hc) as (kp & Hkp & Bp).
  rewrite (DG c (Qfloor c) kp eq_refl Hkp Bp).
  pose proof (Z.mod_pos_bound (Qfloor rho) N HN0) as Hr. destruct (int_find z _ He Hr) as (kr & Hkr & Br).
  rewrite (DG (qrem rho (period (int_axis z))) (Qfloor rho mod N) kr) by (try assumption; rewrite int_period; apply qrem_floor, HN0).
  rewrite (ndom_n _ He), int_len. cbn [fst snd]. set (n := Z.of_nat (length z - 1)). assert (Hn : 0 < n) by lia.
  (* the cell g is met on the way from kp to kr *)
  assert (Way : (Z.of_nat k - Z.of_nat kp) mod n <= (Z.of_nat (S kr) - Z.of_nat (S kp)) mod n).
  { replace (Z.of_nat (S kr) - Z.of_nat (S kp)) with (Z.of_nat kr - Z.of_nat kp) by lia.
    destruct (Nat.eq_dec k kp) as [->|Hkkp]. { rewrite Z.sub_diag, Z.mod_0_l by lia. apply Z.mod_pos_bound, Hn. }
    destruct Hg as [Hg|Hg]. { exfalso. apply Hkkp. apply (int_unique z g); try assumption. rewrite Hg, <- Fc. exact Bp. }
    assert (Hg' : g = (Qfloor c + 1) mod N). { rewrite Hg, Fc, Zplus_mod_idemp_l. reflexivity. }
    destruct (Nat.eq_dec k kr) as [->|Hkkr]; [lia|].
    assert (Fr2 : Qfloor rho = Qfloor c + 2). { destruct Fr as [Fr|Fr]; [|exact Fr]. exfalso. apply Hkkr. apply (int_unique z g); try assumption. rewrite Hg', <- Fr. exact Br. }
    assert (Mono : forall i j u v, (S i < length z)%nat -> (S j < length z)%nat -> nth i z 0 <= u < nth (S i) z 0 -> nth j z 0 <= v < nth (S j) z 0 -> u <= v -> (i <= j)%nat).
    { intros i j u v Hi Hj Hu Hv Huv. destruct (le_lt_dec i j) as [L|L]; [exact L|]. pose proof (int_sorted z (S j) i He ltac:(lia)). lia. }
    rewrite Fr2 in Br, Hr. destruct (Z.eq_dec (Qfloor c + 1) N) as [L1|L1].
    - (* the particle is in the last cell *)
      assert (G0 : g = 0) by (rewrite Hg', L1; apply Z.mod_same; lia).
      replace (Qfloor c + 2) with (1 + 1 * N) in Br by lia. rewrite Z.mod_add in Br by lia. rewrite (Z.mod_small 1 N) in Br by lia.
      pose proof (Mono k kr g 1 Hk Hkr Hgk Br ltac:(lia)). pose proof (Mono k kp g (Qfloor c) Hk Hkp Hgk Bp ltac:(lia)).
      pose proof (Mono kr kp 1 (Qfloor c) Hkr Hkp Br Bp ltac:(lia)).
      destruct (Nat.eq_dec kr kp) as [E|E].
      + exfalso. subst kr. apply (Hroom kp Hkp). destruct (int_block z kp He Hkp) as (B1 & B2 & B3). fold N in B3.
        pose proof (int_sorted z (S k) kp He ltac:(lia)). lia.
      + replace ((Z.of_nat k - Z.of_nat kp) mod n) with (Z.of_nat k - Z.of_nat kp + n) by (apply Z.mod_unique with (-1); [left; lia|lia]).
        replace ((Z.of_nat kr - Z.of_nat kp) mod n) with (Z.of_nat kr - Z.of_nat kp + n) by (apply Z.mod_unique with (-1); [left; lia|lia]). lia.
    - rewrite (Z.mod_small (Qfloor c + 1) N) in Hg' by lia. pose proof (Mono kp k (Qfloor c) g Hkp Hk Bp Hgk ltac:(lia)).
      rewrite (Z.mod_small (Z.of_nat k - Z.of_nat kp) n) by lia. destruct (Z.eq_dec (Qfloor c + 2) N) as [L2|L2].
      + rewrite L2, Z.mod_same in Br by lia. pose proof (Mono kr kp 0 (Qfloor c) Hkr Hkp Br Bp ltac:(lia)).
        destruct (Nat.eq_dec kr kp) as [E|E].
        * exfalso. subst kr. apply (Hroom kp Hkp). destruct (int_block z kp He Hkp) as (B1 & B2 & B3). fold N in B3.
          pose proof (int_sorted z (S kp) k He ltac:(lia)). fold N. lia.
        * replace ((Z.of_nat kr - Z.of_nat kp) mod n) with (Z.of_nat kr - Z.of_nat kp + n) by (apply Z.mod_unique with (-1); [left; lia|lia]). lia.
      + rewrite (Z.mod_small (Qfloor c + 2) N) in Br by lia. pose proof (Mono k kr g (Qfloor c + 2) Hk Hkr Hgk Br ltac:(lia)).
        rewrite (Z.mod_small (Z.of_nat kr - Z.of_nat kp) n) by lia. lia. }
  exists (Z.of_nat kp + (Z.of_nat k - Z.of_nat kp) mod n). split.
  - pose proof (Z.mod_pos_bound (Z.of_nat k - Z.of_nat kp) n Hn). match goal with |- _ - ?a mod ?b - 1 <= _ < _ => pose proof (Z.mod_pos_bound a b Hn) end. lia.
  - rewrite Zplus_mod_idemp_r. replace (Z.of_nat kp + (Z.of_nat k - Z.of_nat kp)) with (Z.of_nat k) by lia. apply Z.mod_small. lia.
Qed.

(** ** n dimensions *)
(** the cells and weights of every axis on the block [ks] *)
Fixpoint faxes (diffs : list bool) (scales : list Q) (zs : list (list Z)) (ks : list Z) (pos : list Q) {struct zs} : list (list (Z * Q)) :=
  match zs, diffs, scales, ks, pos with
  | z :: zs, d :: ds, s :: ss, k :: ks, x :: xs =>
      fcic round64 d s (nth (Z.to_nat k) z 0) (last z 0) x :: faxes ds ss zs ks xs
  | _, _, _, _, _ => []
  end.
Definition sizes (zs : list (list Z)) (ks : list Z) : list Z :=
  map (fun p => nth (S (Z.to_nat (snd p))) (fst p) 0 - nth (Z.to_nat (snd p)) (fst p) 0) (combine zs ks).
(** the cells that the block [ks] writes or reads for a particle, and their weights *)
Definition weights (mass : option Q) (diffs : list bool) (scales : list Q) (zs : list (list Z)) (ks : list Z) (pos : list Q) : list (list Z * Q) :=
  fentries round64 mass (sizes zs ks) (faxes diffs scales zs ks pos).
(** the cell [c] of the mesh is in the block [ks] *)
Definition in_block (zs : list (list Z)) (ks c : list Z) : Prop :=
  length c = length zs /\ Forall (fun p => fst (fst p) <= snd p < fst (fst p) + snd (fst p)) (combine (combine (starts zs ks) (sizes zs ks)) c).
Definition local (zs : list (list Z)) (ks c : list Z) : list Z := map (fun p => snd p - fst p) (combine (starts zs ks) c).
Fixpoint all_apart (diffs : list bool) (scales : list Q) (zs : list (list Z)) (ks : list Z) (pos : list Q) {struct zs} : Prop :=
  match zs, diffs, scales, ks, pos with
  | z :: zs, d :: ds, s :: ss, k :: ks, x :: xs =>
      apart d (nth (Z.to_nat k) z 0) (round64 (x * s)) /\ all_apart ds ss zs ks xs
  | _, _, _, _, _ => True
  end.

Definition mesh_axis (z : list Z) : Prop := axis_ok (int_axis z) /\ 2 <= last z 0 <= 2 ^ 31.

Lemma block_entries diffs scales zs ks pos c : Forall mesh_axis zs -> valid_index (map ndom (map int_axis zs)) ks ->
  length diffs = length zs -> length scales = length zs -> (length zs <= length pos)%nat -> inbox scales pos ->
  all_apart diffs scales zs ks pos -> in_block zs ks c ->
  local_cell (sizes zs ks) (local zs ks c) = true /\ local_cell (sizes (undivided zs) (map (fun _ => 0) zs)) c = true /\
  length (faxes diffs scales zs ks pos) = length zs /\ length (faxes diffs scales (undivided zs) (map (fun _ => 0) zs) pos) = length zs /\
  length (local zs ks c) = length zs /\
  Forall2 (fun p q => (entry1 (fst p) (snd p) == entry1 (fst q) (snd q))%Q)
    (combine (faxes diffs scales zs ks pos) (local zs ks c)) (combine (faxes diffs scales (undivided zs) (map (fun _ => 0) zs) pos) c).
Proof.
  intros Hz. revert diffs scales ks pos c. induction Hz as [|z zs [He HN] _ IH]; intros diffs scales ks pos c Hv Hd Hs Hp Hb Ha [Hc Hin].
  - inversion Hv; subst. destruct c; [|discriminate]. cbn. repeat split; constructor.
  - inversion Hv as [|? k ? ks' Hk Hv']; subst. destruct diffs as [|d diffs]; [discriminate|]. destruct scales as [|s scales]; [discriminate|].
    destruct pos as [|x pos]; [cbn in Hp; lia|]. destruct c as [|i c]; [discriminate|].
    unfold inbox, scaled in Hb. cbn [combine map fst snd] in Hb. inversion Hb as [|? ? Hx Hb']; subst.
    cbn [all_apart] in Ha. destruct Ha as [Ha Ha'].
    unfold starts, sizes in Hin. cbn [combine map fst snd] in Hin. inversion Hin as [|? ? Hi Hin']; subst. cbn [fst snd] in Hi.
    destruct (IH diffs scales ks' pos c) as (L1 & L2 & L3 & L4 & L5 & L6); [exact Hv'|cbn in Hd; lia|cbn in Hs; lia|cbn in Hp; lia|exact Hb'|exact Ha'|split; [cbn in Hc; lia|exact Hin']|]. clear IH.
    rewrite (ndom_n _ He), int_len in Hk.
    destruct (int_block z (Z.to_nat k) He ltac:(lia)) as (B1 & B2 & B3).
    set (a := nth (Z.to_nat k) z 0) in *. set (b := nth (S (Z.to_nat k)) z 0) in *.
    split. { unfold local, local_cell, sizes, starts in *. cbn [combine map fst snd forallb]. fold a b.
      destruct (Z.leb_spec 0 (i - a)); [|lia]. destruct (Z.ltb_spec (i - a) (b - a)); [|lia]. exact L1. }
    split. { unfold local_cell, sizes, undivided in *. cbn [combine map fst snd forallb nth Z.to_nat].
      destruct (Z.leb_spec 0 i); [|lia]. destruct (Z.ltb_spec i (last z 0 - 0)); [|lia]. exact L2. }
    split. { cbn. now rewrite L3. } split. { unfold undivided in *. cbn in *. now rewrite L4. }
    split. { unfold local in L5 |- *. cbn. f_equal. exact L5. }
    unfold local, undivided, starts in *. cbn [faxes combine map nth Z.to_nat last fst snd] in *. fold a. constructor; [|exact L6]. cbn [fst snd].
    apply fcic_block with (n := b - a); try assumption; lia.
Qed.
Lemma faxes_NoDup diffs scales zs ks pos : Forall mesh_axis zs -> Forall (fun l => NoDup (map fst l)) (faxes diffs scales zs ks pos).
Proof.
  intros Hz. revert diffs scales ks pos. induction Hz as [|z zs [He HN] _ IH]; intros [|d diffs] [|s scales] [|k ks] [|x pos]; try constructor.
  - apply fcic_NoDup. lia.
  - apply IH.
Qed.
Lemma entries_eq mass axes axes' c c' : length c = length axes -> length c' = length axes' ->
  Forall2 (fun p q => (entry1 (fst p) (snd p) == entry1 (fst q) (snd q))%Q) (combine axes c) (combine axes' c') ->
  (entry (fproducts round64 mass axes) c == entry (fproducts round64 mass axes') c')%Q.
Proof.
  intros H1 H2 H. destruct axes as [|l axes]; destruct c as [|i c]; try discriminate.
  - cbn in H. inversion H as [E|]. destruct axes' as [|l' axes']; destruct c' as [|i' c']; try discriminate. reflexivity.
  - destruct axes' as [|l' axes']; destruct c' as [|i' c']; try discriminate; [inversion H|]. cbn in H. inversion H as [|? ? ? ? E H']; subst. cbn in H1, H2, E.
    rewrite !fproducts_entry by lia. apply prodf_compat; [|exact H'].
    unfold first_factor. destruct mass as [w|]; [|exact E]. apply round64_compat. now rewrite E.
Qed.
(** a weight that is not zero: its cell is one of the two of every axis *)
Lemma entries_nonzero mass axes c : length c = length axes -> ~ (entry (fproducts round64 mass axes) c == 0)%Q ->
  Forall (fun p => ~ (entry1 (fst p) (snd p) == 0)%Q) (combine axes c).
Proof.
  intros Hl H. destruct axes as [|l axes]; destruct c as [|i c]; try discriminate; [constructor|]. rewrite fproducts_entry in H by (cbn in Hl; lia).
  assert (G : forall axes f c, length c = length axes -> ~ (prodf f axes c == 0)%Q -> ~ (f == 0)%Q /\ Forall (fun p => ~ (entry1 (fst p) (snd p) == 0)%Q) (combine axes c)).
  { clear. induction axes as [|l axes IH]; intros f [|i c] Hl H; try discriminate; [split; [exact H|constructor]|]. cbn [prodf] in H.
    destruct (IH _ c ltac:(cbn in Hl; lia) H) as [A B]. split.
    - intros C. apply A, round64_0. rewrite C. ring.
    - constructor; [|exact B]. cbn. intros C. apply A, round64_0. rewrite C. ring. }
  destruct (G axes _ c ltac:(cbn in Hl; lia) H) as [A B]. constructor; [|exact B]. cbn. intros C. apply A. unfold first_factor. destruct mass; [|exact C].
  apply round64_0. rewrite C. ring.
Qed.
Lemma entry1_cell diff scale N pos c : 0 < N -> double (round64 (pos * scale)) -> ~ (entry1 (fcic round64 diff scale 0 N pos) c == 0)%Q ->
  c = Qfloor (round64 (pos * scale)) mod N \/ c = (Qfloor (round64 (pos * scale)) + 1) mod N.
Proof.
  intros HN D H. unfold fcic in H. rewrite entry1_pair, !wrap_ud_mod in H by lia.
  assert (E0 : (round64 (round64 (pos * scale) + inject_Z (- 0)) == round64 (pos * scale))%Q).
  { change (inject_Z (- 0)) with 0%Q. eapply Qeq_trans; [apply round64_compat, Qplus_0_r|now apply double_fix]. }
  rewrite (floor_eq _ _ E0) in H. destruct (Z.eqb_spec (Qfloor (round64 (pos * scale)) mod N) c) as [E|_]; [now left|].
  destruct (Z.eqb_spec ((Qfloor (round64 (pos * scale)) + 1) mod N) c) as [E|_]; [now right|]. exfalso. apply H. reflexivity.
Qed.
Lemma cover diffs scales zs ks pos c : Forall mesh_axis zs -> Forall roomy zs -> valid_index (map ndom (map int_axis zs)) ks ->
  length diffs = length zs -> length scales = length zs -> (length zs <= length pos)%nat -> inbox scales pos -> in_block zs ks c ->
  Forall (fun p => ~ (entry1 (fst p) (snd p) == 0)%Q) (combine (faxes diffs scales (undivided zs) (map (fun _ => 0) zs) pos) c) ->
  exists p, In p (box (fpatches round64 true (map int_axis zs) (map (fun _ => 1%Q) zs) (scaled scales pos))) /\
    wrap_index true (map ndom (map int_axis zs)) p = ks.
Proof.
  intros Hz. revert diffs scales ks pos c. induction Hz as [|z zs [He HN] _ IH]; intros diffs scales ks pos c Hr Hv Hd Hs Hp Hb [Hc Hin] Hne.
  - inversion Hv; subst. exists []. cbn. now split; [left|].
  - inversion Hv as [|? k ? ks' Hk Hv']; subst. destruct diffs as [|d diffs]; [discriminate|]. destruct scales as [|s scales]; [discriminate|].
    destruct pos as [|x pos]; [cbn in Hp; lia|]. destruct c as [|i c]; [discriminate|].
    unfold inbox, scaled in Hb. cbn [combine map fst snd] in Hb. inversion Hb as [|? ? Hx Hb']; subst. inversion Hr as [|? ? Hrz Hr']; subst.
    unfold starts, sizes in Hin. cbn [combine map fst snd] in Hin. inversion Hin as [|? ? Hi Hin']; subst. cbn [fst snd] in Hi.
    unfold undivided in Hne. cbn [faxes combine map nth Z.to_nat last fst snd] in Hne. inversion Hne as [|? ? Hn Hne']; subst. cbn [fst snd] in Hn.
    destruct (IH diffs scales ks' pos c) as (p & P1 & P2); [exact Hr'|exact Hv'|cbn in Hd; lia|cbn in Hs; lia|cbn in Hp; lia|exact Hb'|split; [cbn in Hc; lia|exact Hin']|exact Hne'|]. clear IH.
    rewrite (ndom_n _ He), int_len in Hk.
    apply entry1_cell in Hn; [|lia|eexists; reflexivity].
    destruct (fpatch_cic z (round64 (x * s)) (Z.to_nat k) i He HN Hrz (proj1 Hx) ltac:(lia) Hn ltac:(lia)) as (t & Ht & Et).
    exists (t :: p). split.
    + apply in_box. cbn. constructor; [exact Ht|apply in_box; exact P1].
    + unfold wrap_index in *. cbn. rewrite P2, Et. f_equal. lia.
Qed.

(** Every weight of a particle that is not zero is found by the rank that has the
    cell, and it is the number that is found without dividing the mesh.  [mass] is
    the value of the particle in paint, and nothing in readout. *)
Theorem C92_weights : forall P g zs scales poss, g_edges g = map int_axis zs -> Forall (fun z => 2 <= last z 0 <= 2 ^ 31) zs -> Forall roomy zs ->
  setting P g (scaled scales) (map (fun _ => 1%Q) zs) poss -> periodic_axes g -> regular g -> length scales = length zs ->
  (forall pos x, In pos poss -> In x pos -> (length zs <= length x)%nat /\ inbox scales x) ->
  exists args, map (fdecompose round64 P g (scaled scales) (map (fun _ => 1%Q) zs)) poss = map Ret args /\ length args = P /\ wf_args args /\
    forall s i mass diffs ks c, (s < P)%nat -> (i < length (nth s poss []))%nat -> length diffs = length zs ->
      let x := particle poss s i in valid_index (g_dims g) ks -> all_apart diffs scales zs ks x -> in_block zs ks c ->
      NoDup (map fst (weights mass diffs scales zs ks x)) /\
      (entry (weights mass diffs scales zs ks x) (local zs ks c) ==
       entry (weights mass diffs scales (undivided zs) (map (fun _ => 0%Z) zs) x) c)%Q /\
      (~ (entry (weights mass diffs scales (undivided zs) (map (fun _ => 0%Z) zs) x) c == 0)%Q -> In (s, i) (tags args (owner g ks))).
Proof.
  intros P g zs scales poss Hedges HN Hr H Hp Hreg Hls Hbox.
  destruct (setting_fdecompose round64 P g _ _ poss H Hp) as (args & E1 & E2 & E3 & E4 & E5).
  exists args. split; [exact E1|]. split; [exact E2|]. split; [exact E3|]. intros s i mass diffs ks c Hs Hi Hd x Hv Ha Hc.
  destruct H as [Hg Hax Hw Hin]. destruct (particle_in poss s i ltac:(lia) Hi) as [P1 P2]. pose proof (Hin _ _ P1 P2) as Hx.
  destruct (Hbox _ _ P1 P2) as [Hlx Hbx]. fold x in Hlx, Hbx, Hx.
  assert (HZ : Forall mesh_axis zs).
  { destruct Hp as [_ Hax']. rewrite Hedges, Forall_map in Hax'. rewrite Forall_forall in *. intros z Hz. split; [now apply Hax'|now apply HN]. }
  pose proof Hv as Hv'. unfold g_dims in Hv. rewrite Hedges in Hv.
  destruct (block_entries diffs scales zs ks x c HZ Hv Hd Hls Hlx Hbx Ha Hc) as (L1 & L2 & L3 & L4 & L5 & L6).
  split; [apply fentries_NoDup, faxes_NoDup, HZ|]. unfold weights. rewrite !fentries_entry by assumption.
  split; [apply entries_eq; [lia|destruct Hc; lia|exact L6]|]. intros Hne.
  assert (Hlc : length c = length (faxes diffs scales (undivided zs) (map (fun _ => 0) zs) x)) by (destruct Hc; lia).
  pose proof (entries_nonzero mass _ c Hlc Hne) as Hnz.
  destruct (cover diffs scales zs ks x c HZ Hr Hv Hd Hls Hlx Hbx Hc Hnz) as (p & Hpb & Hwr).
  destruct (ftargets_ok round64 P g _ _ Hg Hp Hx) as (_ & _ & T3 & T4).
  assert (Hthick : exists y, inside g y ks).
  { (* the block has a cell *)
    exists (map (fun p => E (fst p) (Z.to_nat (snd p))) (combine (g_edges g) ks)). unfold inside, g_dims. rewrite Hedges. split; [exact Hv|].
    destruct Hc as [Hc1 Hc2]. clear - HZ Hv Hc1 Hc2. revert ks c Hv Hc1 Hc2. induction HZ as [|z zs [He HN] _ IH]; intros ks c Hv Hc1 Hc2; [inversion Hv; subst; exact Logic.I|].
    inversion Hv as [|? k ? ks' Hk Hks]; subst. destruct c as [|j c]; [discriminate|].
    unfold starts, sizes in Hc2. cbn [combine map fst snd] in Hc2. inversion Hc2 as [|? ? Hj Hc2']; subst. cbn [fst snd] in Hj.
    cbn [combine map all_axes fst snd]. split; [|apply (IH ks' c Hks); [cbn in Hc1; lia|exact Hc2']].
    exists 0. unfold iz. change (inject_Z 0) with 0%Q. rewrite (ndom_n _ He), int_len in Hk. rewrite !int_E by lia. split; [lra|].
    assert (inject_Z (nth (Z.to_nat k) z 0%Z) < inject_Z (nth (S (Z.to_nat k)) z 0%Z))%Q by (rewrite <- Zlt_Qlt; lia). lra. }
  destruct Hthick as [y Hy].
  assert (Ht : In (owner g ks) (ftargets_of round64 g (map (fun _ => 1%Q) zs) (scaled scales x))).
  { apply T4. exists p. unfold fpatch_of. rewrite (proj1 Hp), Hedges. split; [exact Hpb|]. unfold g_dims. rewrite Hedges, Hwr. split; [reflexivity|].
    apply (regular_flags P g Hg Hreg); [exact Hv'|exact (inside_thick _ _ _ Hy)]. }
  pose proof (T3 _ Ht) as Ho. apply in_tags; [lia|]. rewrite E5 by assumption. apply sent_to_in. now split.
Qed.
Print Assumptions C92_weights.

(** the weights of an axis are exactly one minus the distance to the two cells *)
Theorem C92_axis : forall scale a N pos, 2 <= N -> 0 <= a < N -> N <= 2 ^ 31 -> (1 <= round64 (pos * scale) <= inject_Z (2 ^ 31))%Q ->
  (inject_Z a <= round64 (pos * scale))%Q ->
  let x := round64 (pos * scale) in
  Forall2 (fun e e' => fst e = fst e' /\ (snd e == snd e')%Q) (fcic round64 false scale a N pos)
    [((Qfloor x - a) mod N, 1 - (x - inject_Z (Qfloor x))); ((Qfloor x + 1 - a) mod N, x - inject_Z (Qfloor x))]%Q.
Proof. exact fcic_one. Qed.
(** the exception: a particle of the first cell on a block that begins at cell one *)
Theorem C92_first_cell : forall scale n N pos c, 2 <= N -> 0 <= n -> 1 + n <= N -> N <= 2 ^ 31 ->
  (0 <= round64 (pos * scale))%Q -> (round64 (pos * scale) < 1)%Q -> 1 <= c < 1 + n ->
  (Qabs (entry1 (fcic round64 false scale 1 N pos) (c - 1) - entry1 (fcic round64 false scale 0 N pos) c) <= Qpower 2 (-53))%Q.
Proof. exact fcic_first. Qed.
Print Assumptions C92_axis.
Print Assumptions C92_first_cell.

(** eight by six cells on two by three ranks; the second axis is differentiated *)
Definition ci_zs : list (list Z) := [[0; 4; 8]; [0; 2; 4; 6]].
Definition ci_grid : grid := mkGrid (map int_axis ci_zs) true [0; 1; 2; 3; 4; 5]%nat (degenerate_flags (map int_axis ci_zs)).
Definition ci_x : list Q := [63 # 16; 95 # 16]%Q.
Example C92_case : g_edges ci_grid = map int_axis ci_zs /\ Forall (fun z => 2 <= last z 0 <= 2 ^ 31) ci_zs /\ Forall roomy ci_zs /\
  setting 6 ci_grid (scaled [1; 1]%Q) [1; 1]%Q [[ci_x]; []; []; []; []; []] /\ periodic_axes ci_grid /\ regular ci_grid /\
  inbox [1; 1]%Q ci_x /\ all_apart [false; true] [1; 1]%Q ci_zs [1; 0] ci_x /\ in_block ci_zs [1; 0] [4; 0] /\
  (entry (weights (Some 3) [false; true] [1; 1] ci_zs [1; 0]%Z ci_x) (local ci_zs [1; 0]%Z [4; 0]%Z) == 45 # 16)%Q /\
  (entry (weights None [false; false] [1; 1] ci_zs [1; 0]%Z ci_x) (local ci_zs [1; 0]%Z [4; 0]%Z) == 225 # 256)%Q /\
  map (fun ks => map fst (weights None [false; false] [1; 1]%Q ci_zs ks ci_x)) [[0; 0]; [1; 0]; [0; 2]; [1; 1]; [1; 2]]
  = [[[3; 0]]; [[0; 0]]; [[3; 1]]; []; [[0; 1]]].
Proof.
  assert (W : wf_grid 6 ci_grid /\ periodic_axes ci_grid /\ regular ci_grid).
  { split; [|split].
    - constructor; try reflexivity; repeat constructor; cbn; lia.
    - split; [reflexivity|]. constructor; [|constructor; [|constructor]]; (constructor; try reflexivity; [cbn; lia|]);
      repeat constructor; try (unfold Qle; cbn; lia).
    - split; [reflexivity|]. right. reflexivity. }
  split; [reflexivity|]. split; [repeat constructor; cbn; lia|].
  split. { repeat constructor; intros [|[|[|k]]] Hk; cbn in Hk |- *; lia. }
  split.
  { constructor; [apply W|apply periodic_wf_axes, W|reflexivity|].
    intros pos x Hpos Hx. cbn in Hpos. destruct Hpos as [<-|[<-|[<-|[<-|[<-|[<-|[]]]]]]]; cbn in Hx; try contradiction. destruct Hx as [<-|[]].
    split; [reflexivity|]. split; [repeat constructor; discriminate|]. cbn. lia. }
  split; [apply W|]. split; [apply W|].
  split; [repeat constructor; vm_compute; discriminate|]. split; [split; [right; vm_compute; discriminate|split; [right; vm_compute; discriminate|exact Logic.I]]|].
  split; [split; [reflexivity|unfold starts, sizes; cbn; repeat (constructor; [vm_compute; split; [discriminate|reflexivity]|]); constructor]|]. repeat split; vm_compute; reflexivity.
Qed.
(** Of the conditions.  A block that begins at cell one: a particle at 2^-60 has
    another weight in it.  *)
Theorem C92_same_bits_refuted : let x := Qpower 2 (-60) in (round64 x == x)%Q /\
  (entry (weights None [false] [1] [[0; 1; 8]]%Z [1]%Z [x]) [0]%Z == 0)%Q /\
  (entry (weights None [false] [1] [[0; 8]]%Z [0]%Z [x]) [1]%Z == x)%Q.
Proof. vm_compute. repeat split. Qed.
(** A gradient, and a block that begins at cell two: just below 1 the rank reads a
    third cell, that of the next block, and decompose sends it the particle. *)
Theorem C92_gradient_refuted : let x := (1 - Qpower 2 (-53))%Q in (round64 x == x)%Q /\
  map (fun ks => weights None [true] [1]%Q [[0; 2; 4]] ks [x]) [[0]; [1]] = [[([0], (-1 # 1)%Q); ([1], (1 # 1)%Q)]; [([0], (1 # 1)%Q)]] /\
  weights None [true] [1]%Q [[0; 4]] [0] [x] = [([0], (-1 # 1)%Q); ([1], (1 # 1)%Q)] /\
  ftargets_of round64 (mkGrid [[0; 2; 4]]%Q true [0; 1]%nat (degenerate_flags [[0; 2; 4]]%Q)) [1]%Q [x] = [0; 1]%nat.
Proof. vm_compute. repeat split. Qed.
(** A block of all cells but one: just below 2 the rank of the third cell does not
    receive the particle, although its weight is nearly one. *)
Theorem C92_lost_refuted : let x := (2 - Qpower 2 (-52))%Q in (round64 x == x)%Q /\ ~ roomy [0; 2; 3] /\
  (entry (weights None [false] [1] [[0; 2; 3]]%Z [1]%Z [x]) [0]%Z == 1 - Qpower 2 (-52))%Q /\
  ftargets_of round64 (mkGrid [[0; 2; 3]]%Q true [0; 1]%nat (degenerate_flags [[0; 2; 3]]%Q)) [1]%Q [x] = [0]%nat.
Proof.
  cbv zeta. split; [reflexivity|]. split; [intros H; apply (H 0%nat); [cbn; lia|reflexivity]|]. split; vm_compute; reflexivity.
Qed.
Print Assumptions C92_same_bits_refuted.
Print Assumptions C92_gradient_refuted.
Print Assumptions C92_lost_refuted.
