(** C109: the names of the windows, FindResampler, and the argument smoothing of decompose. *)
From Coq Require Import String Ascii List Arith ZArith QArith Lia Bool.
From Verif Require Import Base ListFacts WrapModel WrapProofs DomainModel DomainFill QSum WindowModel WindowStencil WindowSpread WindowKernels WindowAxis WindowNative WindowApi WindowPoints WindowGrad WindowTranslate WindowProperties WindowProperties2.
Import ListNotations.
Open Scope string_scope.

(** ** Python strings; str.lower and str.upper on the letters A to Z (no name has others) *)
Definition lower_char (c : ascii) : ascii := let k := nat_of_ascii c in if ((65 <=? k) && (k <=? 90))%nat then ascii_of_nat (k + 32) else c.
Definition upper_char (c : ascii) : ascii := let k := nat_of_ascii c in if ((97 <=? k) && (k <=? 122))%nat then ascii_of_nat (k - 32) else c.
Fixpoint map_string (f : ascii -> ascii) (s : string) : string := match s with EmptyString => EmptyString | String c r => String (f c) (map_string f r) end.
Definition lower := map_string lower_char.
Definition upper := map_string upper_char.

Section Names.
  (** kernel, derivative and support of the windows that are tables: _window_lanczos.h, _window_acg.h, _window_wavelets.h *)
  Variable table : string -> kind.
  (** _window.pyx:72-97 with _window_imp.c:259-447: the kinds of windows and their C types *)
  Definition kinds : list (string * kind) :=
    [("tunednnb", TunedNNB); ("tunedcic", TunedCIC); ("tunedtsc", TunedTSC); ("tunedpcs", TunedPCS);
     ("nearest", Nearest); ("linear", Linear); ("quadratic", Quadratic); ("cubic", Cubic)]
    ++ map (fun s => (s, table s)) ["lanczos2"; "lanczos3"; "lanczos4"; "lanczos5"; "lanczos6"; "acg2"; "acg3"; "acg4"; "acg5"; "acg6"; "db6"; "db12"; "db20"; "sym6"; "sym12"; "sym20"].
  (** a dict: the last entry with a key counts *)
  Fixpoint lookup {A} (d : list (string * A)) (k : string) : option A :=
    match d with [] => None | (k', v) :: d' => match lookup d' k with Some w => Some w | None => if string_dec k' k then Some v else None end end.
  (** an object of class ResampleWindow: window.py:57-59, _window.pyx:71-116 *)
  Record named := { n_kind : string; n_window : window }.
  (** ResampleWindow(kind=k), with support = -1; _window.pyx:102-105: another string is no int *)
  Definition make (k : string) : outcome named := match lookup kinds k with Some c => Ret {| n_kind := k; n_window := ResampleWindow c (-1) |} | None => Raise TypeError end.

  (** window.py:230-255 *)
  Definition literal : list (string * string) :=
    [("NEAREST", "nearest"); ("LINEAR", "linear"); ("NNB", "tunednnb"); ("CIC", "tunedcic"); ("TSC", "tunedtsc"); ("PCS", "tunedpcs");
     ("QUADRATIC", "quadratic"); ("CUBIC", "cubic"); ("LANCZOS2", "lanczos2"); ("LANCZOS3", "lanczos3"); ("LANCZOS4", "lanczos4"); ("LANCZOS5", "lanczos5"); ("LANCZOS6", "lanczos6");
     ("ACG2", "acg2"); ("ACG3", "acg3"); ("ACG4", "acg4"); ("ACG5", "acg5"); ("ACG6", "acg6"); ("DB6", "db6"); ("DB12", "db12"); ("DB20", "db20"); ("SYM6", "sym6"); ("SYM12", "sym12"); ("SYM20", "sym20")].
  (** the windows of a dict literal; None if a constructor raises *)
  Fixpoint build (d : list (string * string)) : option (list (string * named)) :=
    match d with
    | [] => Some []
    | (m, k) :: d' => match make k, build d' with Ret w, Some r => Some ((m, w) :: r) | _, _ => None end
    end.
  (** window.py:257-259: the items are listed before the loop, every pass sets one key *)
  Definition with_lower (d : list (string * named)) : list (string * named) := fold_left (fun acc mp => (acc ++ [(lower (fst mp), snd mp)])%list) d d.
  Definition windows : option (list (string * named)) := option_map with_lower (build literal).

  (** A Python object: a string, a window, another object that can be hashed, or one that cannot *)
  Inductive pyval := PStr (s : string) | PWin (w : named) | PHash (x : nat) | PUnhash (x : nat).
  (** window.py:223-228. A window or another object is no key of the dict (windows have the hash of their address); an object that cannot be hashed raises
      TypeError at [in]. [None]: the import of the module fails. *)
  Definition find_resampler (v : pyval) : option (outcome named) :=
    match windows with
    | None => None
    | Some d => Some (match v with
                      | PStr s => match lookup d s with Some w => Ret w | None => Raise TypeError end
                      | PWin w => Ret w
                      | PHash _ => Raise TypeError
                      | PUnhash _ => Raise TypeError
                      end)
    end.
  (** pm.py:1773-1781, what decompose passes on to GridND.decompose *)
  Inductive passed := Half (s : Q) | Same (v : pyval).
  Definition smoothing (self_resampler : named) (v : option pyval) : option passed :=
    let v := match v with None => PWin self_resampler | Some v => v end in
    match find_resampler v with
    | None => None
    | Some (Ret w) => Some (Half (inject_Z (w_support (n_window w)) * (1#2)))
    | Some _ => Some (Same v)
    end.

  Definition window_of (k : string) (c : kind) : named := {| n_kind := k; n_window := ResampleWindow c (-1) |}.
  Definition all_names : list (string * named) :=
    [("NEAREST", window_of "nearest" Nearest); ("LINEAR", window_of "linear" Linear); ("NNB", window_of "tunednnb" TunedNNB); ("CIC", window_of "tunedcic" TunedCIC);
     ("TSC", window_of "tunedtsc" TunedTSC); ("PCS", window_of "tunedpcs" TunedPCS); ("QUADRATIC", window_of "quadratic" Quadratic); ("CUBIC", window_of "cubic" Cubic)]
    ++ map (fun N => (N, window_of (lower N) (table (lower N))))
       ["LANCZOS2"; "LANCZOS3"; "LANCZOS4"; "LANCZOS5"; "LANCZOS6"; "ACG2"; "ACG3"; "ACG4"; "ACG5"; "ACG6"; "DB6"; "DB12"; "DB20"; "SYM6"; "SYM12"; "SYM20"].

  Lemma built : windows = Some (all_names ++ map (fun p => (lower (fst p), snd p)) all_names)%list.
  Proof. reflexivity. Qed.
  Lemma lookup_in {A} (d : list (string * A)) k v : lookup d k = Some v -> In (k, v) d.
  Proof.
    induction d as [|(k', w) d IH]; [discriminate|]. cbn. destruct (lookup d k) as [z|]; [intros E; right; apply IH; exact E|].
    destruct (string_dec k' k) as [->|]; [|discriminate]. intros E. injection E as ->. now left.
  Qed.
  Lemma lookup_none {A} (d : list (string * A)) k : lookup d k = None <-> ~ In k (map fst d).
  Proof.
    induction d as [|(k', w) d IH]; [cbn; tauto|]. cbn. destruct (lookup d k) as [z|] eqn:E.
    - split; [discriminate|]. intros H. exfalso. apply H. right. apply lookup_in in E. apply (in_map fst) in E. exact E.
    - destruct (string_dec k' k) as [->|N]; [split; [discriminate|intros H; exfalso; apply H; now left]|]. split; [|reflexivity]. intros _ [H|H]; [congruence|]. apply (proj1 IH eq_refl H).
  Qed.
End Names.

Notation dict table := (all_names table ++ map (fun p => (lower (fst p), snd p)) (all_names table))%list.
Lemma each_name table : Forall (fun p => lookup (dict table) (fst p) = Some (snd p) /\ lookup (dict table) (lower (fst p)) = Some (snd p) /\ upper (lower (fst p)) = fst p /\
  upper (fst p) = fst p /\ lower (lower (fst p)) = lower (fst p)) (all_names table).
Proof. unfold all_names. cbn [app map]. repeat constructor. Qed.

(** FindResampler knows the 24 names in capital and in small letters and nothing else; every other string raises TypeError. *)
Theorem C109_names table s :
  (forall w, find_resampler table (PStr s) = Some (Ret w) <-> exists N, In (N, w) (all_names table) /\ (s = N \/ s = lower N)) /\
  ((forall N w, In (N, w) (all_names table) -> s <> N /\ s <> lower N) <-> find_resampler table (PStr s) = Some (Raise TypeError)).
Proof.
  unfold find_resampler. rewrite built. pose proof (each_name table) as E. rewrite Forall_forall in E.
  assert (A : forall w, lookup (dict table) s = Some w <-> exists N, In (N, w) (all_names table) /\ (s = N \/ s = lower N)).
  { intros w. split.
    - intros H. apply lookup_in, in_app_or in H. destruct H as [H|H]; [exists s; auto|]. apply in_map_iff in H. destruct H as ((N, w') & H & Hin). injection H as <- <-. exists N. auto.
    - intros (N & Hin & [->| ->]); destruct (E _ Hin) as (E1 & E2 & _); assumption. }
  split.
  - intros w. rewrite <- A. destruct (lookup (dict table) s); split; intros H; try discriminate; injection H as ->; reflexivity.
  - destruct (lookup (dict table) s) as [w|] eqn:L.
    + split; [|discriminate]. intros H. destruct (proj1 (A w) eq_refl) as (N & Hin & [->| ->]); destruct (H _ _ Hin); congruence.
    + split; [reflexivity|]. intros _ N w Hin. split; intros ->; destruct (E _ Hin) as (E1 & E2 & _); cbn [fst] in E1, E2; congruence.
Qed.
Print Assumptions C109_names.

(** A known name is written in capital or in small letters throughout, and both mean the same window. *)
Theorem C109_case_of_letters table s w : find_resampler table (PStr s) = Some (Ret w) ->
  (s = upper s \/ s = lower s) /\ find_resampler table (PStr (lower s)) = Some (Ret w) /\ find_resampler table (PStr (upper s)) = Some (Ret w).
Proof.
  intros H. apply C109_names in H. destruct H as (N & Hin & Hs). pose proof (each_name table) as E. rewrite Forall_forall in E. destruct (E _ Hin) as (_ & _ & E3 & E4 & E5). cbn [fst] in E3, E4, E5.
  split; [destruct Hs as [->| ->]; [left|right]; congruence|]. split; apply C109_names; exists N; (split; [exact Hin|]); destruct Hs as [->| ->]; rewrite ?E3, ?E4, ?E5; auto.
Qed.
Print Assumptions C109_case_of_letters.

(** Its result is again an argument with the same result; the only exception is TypeError; so decompose takes half of the support
    of a window or a name, and everything else, numbers and unknown names alike, goes to GridND.decompose as it is. *)
Theorem C109_objects table v :
  (exists w, find_resampler table v = Some (Ret w) /\ find_resampler table (PWin w) = Some (Ret w)) \/ find_resampler table v = Some (Raise TypeError).
Proof.
  unfold find_resampler. rewrite built. destruct v as [s|w|x|x]; [|left; eauto|right; reflexivity|right; reflexivity].
  destruct (lookup (dict table) s) as [w|]; [left; eauto|right; reflexivity].
Qed.
Print Assumptions C109_objects.
Theorem C109_smoothing table own v :
  smoothing table own None = Some (Half (inject_Z (w_support (n_window own)) * (1#2))) /\
  (forall w, find_resampler table v = Some (Ret w) -> smoothing table own (Some v) = Some (Half (inject_Z (w_support (n_window w)) * (1#2)))) /\
  ((forall w, find_resampler table v <> Some (Ret w)) -> smoothing table own (Some v) = Some (Same v)).
Proof.
  unfold smoothing. split; [unfold find_resampler; rewrite built; reflexivity|]. split.
  - intros w H. rewrite H. reflexivity.
  - intros H. destruct (C109_objects table v) as [(w & E & _)|E]; [destruct (H w E)|]. rewrite E. reflexivity.
Qed.
Print Assumptions C109_smoothing.

(** NNB and NEAREST, CIC and LINEAR, TSC and QUADRATIC, PCS and CUBIC name windows with the same support that paint and read the same
    (the gradients of cic on the mesh points and of pcs with another scale than one are different, C24). *)
Definition twins : list (string * string) := [("NNB", "NEAREST"); ("CIC", "LINEAR"); ("TSC", "QUADRATIC"); ("PCS", "CUBIC")].
Lemma default_support k : ResampleWindow k (-1) = ResampleWindow k 0.
Proof. reflexivity. Qed.
Theorem C109_twins table a b : In (a, b) twins -> exists wa wb,
  find_resampler table (PStr a) = Some (Ret wa) /\ find_resampler table (PStr b) = Some (Ret wb) /\ w_support (n_window wa) = w_support (n_window wb) /\
  forall real t m pos mass d, wf_call real t -> periods_ok t -> wf_pos real pos -> length mass = length pos -> wf_diffdir real d ->
    Forall (tuned_gradient_ok (w_kind (n_window wa)) real t d) pos ->
    (exists m1 m2, window_paint (n_window wa) real m pos None (Some (Array mass)) d (Some t) = Ret m1 /\ window_paint (n_window wb) real m pos None (Some (Array mass)) d (Some t) = Ret m2 /\ same_memory m1 m2) /\
    (exists v1 v2, window_readout (n_window wa) real m pos None d (Some t) = Ret v1 /\ window_readout (n_window wb) real m pos None d (Some t) = Ret v2 /\ same_values v1 v2).
Proof.
  intros H. cbn in H.
  destruct H as [H|[H|[H|[H|[]]]]]; injection H as <- <-; eexists _, _; (split; [reflexivity|]); (split; [reflexivity|]); (split; [reflexivity|]); cbn [n_window window_of w_kind ResampleWindow];
    intros real t m pos mass d H1 H2 H3 H4 H5 H6; rewrite ?default_support.
  - apply (C24_tuned_is_generic TunedNNB); auto; exact Logic.I.
  - apply (C24_tuned_is_generic TunedCIC); auto; exact Logic.I.
  - apply (C24_tuned_is_generic TunedTSC); auto; exact Logic.I.
  - apply (C24_tuned_is_generic TunedPCS); auto; exact Logic.I.
Qed.
Print Assumptions C109_twins.

Definition no_table (s : string) : kind := Other (fun _ => 0%Q) (fun _ => 0%Q) 4.
Example C109_case : find_resampler no_table (PStr "cic") = Some (Ret (window_of "tunedcic" TunedCIC)) /\ find_resampler no_table (PStr "Cic") = Some (Raise TypeError) /\
  find_resampler no_table (PStr "tunedcic") = Some (Raise TypeError) /\ find_resampler no_table (PStr "cubic") = find_resampler no_table (PStr "CUBIC") /\
  smoothing no_table (window_of "cubic" Cubic) (Some (PStr "tsc")) = Some (Half (3 * (1#2))) /\ smoothing no_table (window_of "cubic" Cubic) (Some (PStr "Tsc")) = Some (Same (PStr "Tsc")).
Proof. vm_compute. repeat split; reflexivity. Qed.
