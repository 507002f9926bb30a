From Coq Require Import List ZArith Lia.
From Verif Require Import WrapModel.
Import ListNotations.
Local Open Scope Z_scope.

Lemma down_spec fuel d t : 0 < d -> t < Z.of_nat fuel ->
  down fuel d t < d /\ (exists k, down fuel d t = t - k * d) /\ (0 <= t -> 0 <= down fuel d t) /\ (t < d -> down fuel d t = t).
Proof.
  intros Hd. revert t; induction fuel as [|f IH]; intros t Ht; simpl.
  - split; [lia|]. split; [exists 0; lia|]. split; lia.
  - destruct (Z.geb_spec t d) as [H|H].
    + destruct (IH (t - d)) as (H1 & (k & Hk) & H3 & H4); [lia|].
      split; [assumption|]. split; [exists (k + 1); lia|]. split; intros; lia.
    + split; [lia|]. split; [exists 0; lia|]. split; lia.
Qed.

Lemma up_spec fuel d t : 0 < d -> - t <= Z.of_nat fuel ->
  0 <= up fuel d t /\ (exists k, up fuel d t = t + k * d) /\ (t < d -> up fuel d t < d) /\ (0 <= t -> up fuel d t = t).
Proof.
  intros Hd. revert t; induction fuel as [|f IH]; intros t Ht; simpl.
  - split; [lia|]. split; [exists 0; lia|]. split; lia.
  - destruct (Z.ltb_spec t 0) as [H|H].
    + destruct (IH (t + d)) as (H1 & (k & Hk) & H3 & H4); [lia|].
      split; [assumption|]. split; [exists (k + 1); lia|]. split; intros; [apply H3; lia|lia].
    + split; [lia|]. split; [exists 0; lia|]. split; lia.
Qed.

Lemma mod_from d t x k : 0 < d -> 0 <= x < d -> x = t + k * d -> x = t mod d.
Proof.
  intros Hd Hx E. apply (Z.mod_unique t d (- k)); [left; assumption|lia].
Qed.

Lemma wrap_du_mod d t : 0 < d -> wrap_du d t = t mod d.
Proof.
  intros Hd. unfold wrap_du.
  destruct (down_spec (wrap_fuel t) d t Hd) as (H1 & (k & Hk) & _); [unfold wrap_fuel; lia|].
  set (t1 := down (wrap_fuel t) d t) in *.
  destruct (up_spec (wrap_fuel t1) d t1 Hd) as (H2 & (k' & Hk') & H3 & _); [unfold wrap_fuel; lia|].
  apply (mod_from d t _ (k' - k) Hd); [split; [assumption|apply H3; assumption]|]. lia.
Qed.

Lemma wrap_ud_mod d t : 0 < d -> wrap_ud d t = t mod d.
Proof.
  intros Hd. unfold wrap_ud.
  destruct (up_spec (wrap_fuel t) d t Hd) as (H1 & (k & Hk) & _); [unfold wrap_fuel; lia|].
  set (t1 := up (wrap_fuel t) d t) in *.
  destruct (down_spec (wrap_fuel t1) d t1 Hd) as (H2 & (k' & Hk') & H3 & _); [unfold wrap_fuel; lia|].
  apply (mod_from d t _ (k - k') Hd); [split; [apply H3; assumption|assumption]|]. lia.
Qed.

Lemma zrange_length lo n : length (zrange lo n) = n.
Proof. revert lo; induction n; intros; simpl; [reflexivity|]. now rewrite IHn. Qed.

Lemma in_zrange lo n x : In x (zrange lo n) <-> lo <= x < lo + Z.of_nat n.
Proof.
  revert lo; induction n as [|n IH]; intros lo; simpl; [split; [contradiction|lia]|].
  rewrite IH. lia.
Qed.

Lemma zrange_NoDup lo n : NoDup (zrange lo n).
Proof.
  revert lo; induction n as [|n IH]; intros lo; simpl; [constructor|].
  constructor; [|apply IH]. rewrite in_zrange. lia.
Qed.

Lemma nth_zrange lo n i d : (i < n)%nat -> nth i (zrange lo n) d = lo + Z.of_nat i.
Proof.
  revert lo i; induction n as [|n IH]; intros lo i Hi; [lia|].
  destruct i as [|i]; simpl; [lia|]. rewrite IH by lia. lia.
Qed.

Lemma zrange_app lo n m : zrange lo (n + m) = zrange lo n ++ zrange (lo + Z.of_nat n) m.
Proof.
  revert lo; induction n as [|n IH]; intros lo; simpl.
  - f_equal. lia.
  - rewrite IH. do 3 f_equal. lia.
Qed.

Lemma map_zrange_shift {A} (f : Z -> A) lo n k :
  map f (zrange (lo + k) n) = map (fun x => f (x + k)) (zrange lo n).
Proof.
  revert lo; induction n as [|n IH]; intros lo; simpl; [reflexivity|].
  f_equal. rewrite <- IH. f_equal. f_equal. lia.
Qed.
