(** Units, anchors, literals and quantifiers: C09, C10, C12, C13, C29, C31, C32, C45. *)

From Coq Require Import List Arith NArith Bool Lia.
From Verif Require Import Base Text Context Neu Syntax Regex Ctor Api TextProofs Spec Core Obs Laws UnitLaws ApiLaws UnitProps Samples.
Import ListNotations.

(** ** C09 *)

(** [MaxRun f w i lim n] (Obs.v): [n] is the length of the longest run of items satisfying [f] at [i], cut off at [lim]. *)

Theorem C09_many0 : forall k G, core_env k G no_skip -> forall u w i b j,
  i <= length w ->
    (Matches k G (PMany0 u CEmpty) w i b j <-> b = i /\ exists n, j = i + n /\ MaxRun (is_match u) w i None n).
Proof. exact many0_run. Qed.

Theorem C09_many0_never_fails : forall k G, core_env k G no_skip -> forall u w i e,
  i <= length w -> ~ Fails k G (PMany0 u CEmpty) w i e.
Proof. exact many0_total. Qed.

Theorem C09_many1 : forall k G, core_env k G no_skip -> forall u w i b j,
  i <= length w ->
    (Matches k G (PMany1 u CEmpty) w i b j <-> b = i /\ exists n, 0 < n /\ j = i + n /\ MaxRun (is_match u) w i None n).
Proof. exact many1_run. Qed.

Theorem C09_many1_err : forall k G, core_env k G no_skip -> forall u w i e,
  i <= length w ->
    (Fails k G (PMany1 u CEmpty) w i e <-> e = EMany1 /\ MaxRun (is_match u) w i None 0).
Proof. exact many1_fails. Qed.

Theorem C09_once : forall k G, core_env k G no_skip -> forall u w i b j,
  i <= length w ->
    (Matches k G (POnce u CEmpty) w i b j <-> b = i /\ j = i + 1 /\ exists x, nth_error w i = Some x /\ is_match u x = true).
Proof. exact once_run. Qed.

Theorem C09_once_err : forall k G, core_env k G no_skip -> forall u w i e,
  i <= length w ->
    (Fails k G (POnce u CEmpty) w i e <-> e = EOnce /\ forall x, nth_error w i = Some x -> is_match u x = false).
Proof. exact once_fails. Qed.

Theorem C09_opt : forall k G, core_env k G no_skip -> forall u w i b j,
  i <= length w ->
    (Matches k G (POpt u CEmpty) w i b j <-> b = i /\ exists n, j = i + n /\ MaxRun (is_match u) w i (Some 1) n).
Proof. exact opt_run. Qed.

Theorem C09_opt_never_fails : forall k G, core_env k G no_skip -> forall u w i e,
  i <= length w -> ~ Fails k G (POpt u CEmpty) w i e.
Proof. exact opt_total. Qed.

(** There is always exactly one such run. *)
Theorem C09_run_exists : forall f w i lim, exists n, MaxRun f w i lim n.
Proof. exact maxrun_exists. Qed.

Theorem C09_run_unique : forall f w i lim n m, MaxRun f w i lim n -> MaxRun f w i lim m -> n = m.
Proof. exact maxrun_det. Qed.

Example C09_case : core_env KStr [] no_skip /\ Matches KStr [] number sample 3 3 5 /\ Fails KStr [] number sample 2 EMany1 /\
  Matches KStr [] (PMany0 NAlways CEmpty) sample 2 2 9 /\ Matches KStr [] (POnce NAlways CEmpty) sample 8 8 9 /\
  Fails KStr [] (POnce NAlways CEmpty) sample 9 EOnce /\ Matches KStr [] (POpt NAsciiDigit CEmpty) sample 2 2 2.
Proof.
  split; [apply sample_env_core|]. split; [matches 9|]. split; [fails 9|]. split; [matches 9|]. split; [matches 9|].
  split; [fails 9|]. matches 9.
Qed.

(** ** C10 *)

(** [between::<M,N>], [count::<N>] (= [between::<N,N>]), [at_least::<M>] ([None]: no upper end), [at_most::<N>].  [honest]: see C31. *)
Theorem C10_between : forall k G, core_env k G no_skip -> forall u m n w i b j,
  i <= length w -> honest k u ->
    (Matches k G (PBetween m n u CEmpty) w i b j <-> b = i /\ exists t, j = i + t /\ MaxRun (is_match u) w i n t /\ m <= t).
Proof. exact between_run. Qed.

Theorem C10_between_err : forall k G, core_env k G no_skip -> forall u m n w i e,
  i <= length w -> honest k u ->
    (Fails k G (PBetween m n u CEmpty) w i e <-> e = EBetween /\ exists t, MaxRun (is_match u) w i n t /\ t < m).
Proof. exact between_fails. Qed.

Theorem C10_times : forall k G, core_env k G no_skip -> forall u r w i b j,
  i <= length w -> honest k u ->
    (Matches k G (PTimes r u CEmpty) w i b j <-> b = i /\ exists t, j = i + t /\ MaxRun (is_match u) w i (cap r) t /\ InRange r t).
Proof. exact times_run. Qed.

Theorem C10_times_err : forall k G, core_env k G no_skip -> forall u r w i e,
  i <= length w -> honest k u ->
    (Fails k G (PTimes r u CEmpty) w i e <-> e = ETimes /\ exists t, MaxRun (is_match u) w i (cap r) t /\ ~ InRange r t).
Proof. exact times_fails. Qed.

(** Two units in sequence. *)
Theorem C10_then : forall k G, core_env k G no_skip -> forall u v w i b j,
  i <= length w -> honest k u -> honest k v ->
    (Matches k G (PNeuThen u v CEmpty) w i b j <-> b = i /\ j = i + 2 /\
      (exists x y, nth_error w i = Some x /\ is_match u x = true /\ nth_error w (i + 1) = Some y /\ is_match v y = true)).
Proof. exact neuthen_run. Qed.
Theorem C10_then_err : forall k G, core_env k G no_skip -> forall u v w i e,
  i <= length w -> honest k u -> honest k v ->
    (Fails k G (PNeuThen u v CEmpty) w i e <-> e = ENeureThen /\
      ~ exists x y, nth_error w i = Some x /\ is_match u x = true /\ nth_error w (i + 1) = Some y /\ is_match v y = true).
Proof.
  intros k G CE u v w i e Hi Hu Hv.
  assert (C : core k G no_skip (PNeuThen u v CEmpty)) by (constructor; constructor). split.
  - intros F. destruct (neuthen_err k G CE u CEmpty (core_cempty k G no_skip) w i Hi v e Hu Hv F) as [[-> N]|[R|[_ R]]].
    + split; [reflexivity|]. intros E. apply N. exists i, (i + 2). now apply neuthen_run.
    + now apply raises_empty in R.
    + now apply raises_empty in R.
  - intros [-> N]. apply fails_peg; auto.
    destruct (lt_dec (tlen k w - bo k w i) (min_length k u + min_length k v)) as [T|T]; [apply Peg_neuthen_short; now left|].
    destruct (le_lt_dec (i + 2) (length w)) as [L|L]; [|apply Peg_neuthen_short; now right].
    destruct (nth_error w i) as [x|] eqn:Ex; [|apply nth_error_None in Ex; lia].
    destruct (nth_error w (i + 1)) as [y|] eqn:Ey; [|apply nth_error_None in Ey; lia].
    destruct (is_match u x) eqn:Mx.
    + destruct (is_match v y) eqn:My; [exfalso; apply N; eauto 8|].
      apply Peg_neuthen_ko2; auto.
      * eapply Acc_yes; [rewrite Nat.add_0_r; exact Ex|exact Mx|constructor].
      * eapply Acc_no; eauto.
    + apply Peg_neuthen_ko1; auto. eapply Acc_no; [rewrite Nat.add_0_r; exact Ex|exact Mx].
Qed.

Example C10_case : core_env KStr [] no_skip /\ honest KStr NAsciiDigit /\ honest KStr (NChar 8364%N) /\
  Matches KStr [] (PBetween 1 (Some 2) NAsciiDigit CEmpty) sample 3 3 5 /\ Fails KStr [] (PBetween 2 None NAsciiDigit CEmpty) sample 1 EBetween /\
  Matches KStr [] (PTimes (CRange (Excl 0) (Excl 2)) NAsciiDigit CEmpty) sample 3 3 4 /\
  Fails KStr [] (PTimes (CRange (Incl 3) Unb) NAsciiDigit CEmpty) sample 3 ETimes /\
  Matches KStr [] (PNeuThen NAlways (NChar 8364%N) CEmpty) sample 6 6 8.
Proof.
  split; [apply sample_env_core|]. split; [now apply plain_honest|]. split; [now apply plain_honest|].
  split; [matches 9|]. split; [fails 9|]. split; [matches 9|]. split; [fails 9|]. matches 9.
Qed.

(** ** C12 *)

Theorem C12_empty : forall G c,
  Returns G [] PEmpty c (Ok (Span (c_off c) 0)) c.
Proof. exact empty_any. Qed.

Theorem C12_fail : forall G c,
  Returns G [] PFail c (Err EFail) c.
Proof. exact fail_any. Qed.

Theorem C12_start : forall G c,
  Returns G [] PStart c (if c_off c =? 0 then Ok (Span 0 0) else Err EAnchorStart) c.
Proof. exact start_any. Qed.

Theorem C12_end : forall G c,
  Returns G [] PEnd c (if c_off c =? ctx_len c then Ok (Span (c_off c) 0) else Err EAnchorEnd) c.
Proof. exact end_any. Qed.

Theorem C12_consume : forall G n c,
  c_off c + n <= ctx_len c ->
  Returns G [] (PConsume n) c (Ok (Span (c_off c) n)) (at_off (c_off c + n) c).
Proof. exact consume_any_ok. Qed.

Theorem C12_consume_err : forall G n c,
  c_off c <= ctx_len c -> ctx_len c < c_off c + n ->
  Returns G [] (PConsume n) c (Err EConsume) c.
Proof. exact consume_any_err. Qed.

Theorem C12_consume_all : forall G c,
  c_off c <= ctx_len c ->
  Returns G [] PConsumeAll c (Ok (Span (c_off c) (ctx_len c - c_off c))) (at_off (ctx_len c) c).
Proof. exact consume_all_any. Qed.

Example C12_case : Returns [] [] (PConsume 3) (cx KStr sample 1) (Ok (Span 1 3)) (cx KStr sample 4) /\
  Returns [] [] (PConsume 9) (cx KStr sample 6) (Ok (Span 6 9)) (cx KStr sample 9) /\
  Returns [] [] (PConsume 10) (cx KStr sample 6) (Err EConsume) (cx KStr sample 6) /\
  Returns [] [] PEnd (cx KStr sample 9) (Ok (Span 15 0)) (cx KStr sample 9) /\
  Returns [] [] PStart (cx KStr sample 1) (Err EAnchorStart) (cx KStr sample 1).
Proof. repeat split; returns 9. Qed.

(** ** C13 *)

Theorem C13_literal : forall k G, core_env k G no_skip -> forall l w i b j,
  i <= length w ->
    (Matches k G (PLit l) w i b j <-> b = i /\ j = i + length l /\ firstn (length l) (skipn i w) = l).
Proof. exact lit_ok. Qed.

Theorem C13_literal_err : forall k G, core_env k G no_skip -> forall l w i e,
  i <= length w ->
    (Fails k G (PLit l) w i e <-> e = ELiteral /\ firstn (length l) (skipn i w) <> l).
Proof. exact lit_err. Qed.

(** Comparing items is comparing the bytes in memory ([raw] is the UTF-8 encoding for [str]): the bytes after the offset begin with the literal's bytes iff the items begin with its items. *)
Theorem C13_bytes : forall k l w i, i <= length w ->
  ((exists rest, skipn (bo k w i) (raw k w) = raw k l ++ rest) <-> firstn (length l) (skipn i w) = l).
Proof. exact lit_bytes. Qed.

(** The span has the literal's length in bytes. *)
Theorem C13_span : forall k l w i, i <= length w -> firstn (length l) (skipn i w) = l ->
  sp k w i (i + length l) = Span (bo k w i) (length (raw k l)).
Proof. exact lit_width. Qed.

Example C13_case : core_env KStr [] no_skip /\ Matches KStr [] (PLit [233; 8364]%N) sample 6 6 8 /\
  sp KStr sample 6 8 = Span 6 5 /\ Fails KStr [] (PLit [233; 8365]%N) sample 6 ELiteral.
Proof. split; [apply sample_env_core|]. split; [matches 9|]. split; [reflexivity|]. fails 9. Qed.

(** ** C29 *)

(** [UnitSet] (UnitProps.v) lists what each unit is documented to match. *)
Theorem C29_units : forall u c, is_match u c = true <-> UnitSet u c.
Proof. exact unit_set. Qed.

Example C29_case : UnitSet (NAnd (NNot (NDigit 16)) NAsciiAlphanumeric) 103%N /\
  is_match (NAnd (NNot (NDigit 16)) NAsciiAlphanumeric) 102%N = false.
Proof. split; [apply unit_set; reflexivity|reflexivity]. Qed.

(** ** C31 *)

(** [min_length] is a lower bound of the width of every item the unit accepts, provided no complement is taken of a unit claiming more than one byte.  With C10 (stated for [honest] units) the length pre-check is then invisible. *)
Theorem C31_min_length_sound : forall k u, plain_unit k u = true -> honest k u.
Proof. exact plain_honest. Qed.

(** On [u8] every unit qualifies. *)
Theorem C31_bytes : forall u, honest KBytes u.
Proof. exact bytes_honest. Qed.

(** What the pre-check does, for every unit: it rejects when the bytes behind the cursor are fewer
    than the smallest number asked for times [min_length] ... *)
Theorem C31_rejects : forall k G, core_env k G no_skip -> forall u m n w i, i <= length w ->
  tlen k w < bo k w i + m * min_length k u -> Fails k G (PBetween m n u CEmpty) w i EBetween.
Proof.
  intros k G CE u m n w i Hi H. apply fails_peg; [exact CE|constructor; constructor|exact Hi|].
  apply Peg_between_short. unfold too_short. pose proof (bo_le_len k w i). lia.
Qed.
(** ... and for an honest unit that never happens to a text which has the items. *)
Theorem C31_never_rejects_a_match : forall k G, core_env k G no_skip -> forall u, honest k u -> forall w i, i <= length w ->
  (forall m n t, MaxRun (is_match u) w i n t -> m <= t ->
     bo k w i + m * min_length k u <= tlen k w /\ Matches k G (PBetween m n u CEmpty) w i i (i + t)) /\
  (forall r t, MaxRun (is_match u) w i (cap r) t -> InRange r t -> Matches k G (PTimes r u CEmpty) w i i (i + t)) /\
  (forall v x y, honest k v -> nth_error w i = Some x -> is_match u x = true ->
     nth_error w (i + 1) = Some y -> is_match v y = true -> Matches k G (PNeuThen u v CEmpty) w i i (i + 2)).
Proof.
  intros k G CE u Hu w i Hi. split; [|split].
  - intros m n t R L. assert (M : Matches k G (PBetween m n u CEmpty) w i i (i + t)) by (apply between_run; eauto 8).
    split; [|exact M]. destruct (le_lt_dec (bo k w i + m * min_length k u) (tlen k w)) as [E|E]; [exact E|exfalso].
    apply (matches_fails k G CE (PBetween m n u CEmpty) w i i (i + t) EBetween); auto.
    + constructor. constructor.
    + now apply C31_rejects.
  - intros r t R I. apply times_run; eauto 8.
  - intros v x y Hv Ex Mx Ey My. apply neuthen_run; eauto 12.
Qed.

(** The complement of a wide character: the text has the required run, but [between] rejects it. *)
Theorem C31_complement_refuted : exists u m w,
  MaxRun (is_match u) w 0 (Some m) m /\ Fails KStr [] (PBetween m (Some m) u CEmpty) w 0 EBetween.
Proof. exact not_dishonest. Qed.

Theorem C31_once_count_refuted : exists u w,
  Matches KStr [] (POnce u CEmpty) w 0 0 1 /\ Fails KStr [] (PBetween 1 (Some 1) u CEmpty) w 0 EBetween.
Proof. exact not_dishonest_once. Qed.

Example C31_case : plain_unit KStr (NOr (NNot (NAnd NAsciiDigit NAlways)) (NChar 8364%N)) = true /\
  min_length KStr (NChar 8364%N) = 3 /\ plain_unit KStr (NNot (NChar 8364%N)) = false.
Proof. auto. Qed.

(** ** C32 *)

Theorem C32_once_count : forall k G, core_env k G no_skip -> forall u, honest k u -> forall c, core_cond k G no_skip c ->
  forall w i, i <= length w -> forall b j,
  Matches k G (POnce u c) w i b j <-> Matches k G (PBetween 1 (Some 1) u c) w i b j.
Proof. exact once_count. Qed.

Theorem C32_many0_at_least : forall k G, core_env k G no_skip -> forall u, honest k u -> forall c, core_cond k G no_skip c ->
  forall w i, i <= length w -> forall b j,
  Matches k G (PMany0 u c) w i b j <-> Matches k G (PBetween 0 None u c) w i b j.
Proof. exact many0_atleast. Qed.

Theorem C32_many1_at_least : forall k G, core_env k G no_skip -> forall u, honest k u -> forall c, core_cond k G no_skip c ->
  forall w i, i <= length w -> forall b j,
  Matches k G (PMany1 u c) w i b j <-> Matches k G (PBetween 1 None u c) w i b j.
Proof. exact many1_atleast. Qed.

Theorem C32_opt_at_most : forall k G, core_env k G no_skip -> forall u, honest k u -> forall c, core_cond k G no_skip c ->
  forall w i, i <= length w -> forall b j,
  Matches k G (POpt u c) w i b j <-> Matches k G (PBetween 0 (Some 1) u c) w i b j.
Proof. exact opt_atmost. Qed.

Theorem C32_between_times : forall k G, core_env k G no_skip -> forall u, honest k u -> forall c, core_cond k G no_skip c ->
  forall w i, i <= length w -> forall m n b j,
  Matches k G (PBetween m (Some n) u c) w i b j <-> Matches k G (PTimes (CRange (Incl m) (Incl n)) u c) w i b j.
Proof. exact between_times. Qed.

Theorem C32_at_least_times : forall k G, core_env k G no_skip -> forall u, honest k u -> forall c, core_cond k G no_skip c ->
  forall w i, i <= length w -> forall m b j,
  Matches k G (PBetween m None u c) w i b j <-> Matches k G (PTimes (CRange (Incl m) Unb) u c) w i b j.
Proof. exact atleast_times. Qed.

Example C32_case : core_env KStr [] no_skip /\ honest KStr NAsciiDigit /\
  core_cond KStr [] no_skip (CRegex (PThen (POnce NAlways CEmpty) number)) /\
  Matches KStr [] (PMany1 NAsciiDigit (CRegex (PThen (POnce NAlways CEmpty) number))) sample 3 3 4 /\
  Matches KStr [] (PBetween 1 None NAsciiDigit (CRegex (PThen (POnce NAlways CEmpty) number))) sample 3 3 4.
Proof.
  split; [apply sample_env_core|]. split; [now apply plain_honest|]. split; [shape|]. split; matches 9.
Qed.

(** ** C45 *)

(** [Takes u c w i t] (Obs.v): item [t] is matched by [u] and the condition holds of it; for a regex condition [p]: [p] matches the text [skipn t w] from its start, as a fresh context. *)

Theorem C45_once : forall k G, core_env k G no_skip -> forall u c, core_cond k G no_skip c -> forall w i, i <= length w -> forall b j,
  Matches k G (POnce u c) w i b j <-> b = i /\ j = S i /\ Takes k G u c w i i.
Proof. exact once_ok. Qed.

Theorem C45_once_err : forall k G, core_env k G no_skip -> forall u c, core_cond k G no_skip c -> forall w i, i <= length w -> forall e,
  Fails k G (POnce u c) w i e <-> (e = EOnce /\ Leaves k G u c w i i) \/ Raises k u c w i i e.
Proof. exact once_err. Qed.

Theorem C45_opt : forall k G, core_env k G no_skip -> forall u c, core_cond k G no_skip c -> forall w i, i <= length w -> forall b j,
  Matches k G (POpt u c) w i b j <-> b = i /\ ((j = S i /\ Takes k G u c w i i) \/ (j = i /\ Leaves k G u c w i i)).
Proof. exact opt_ok. Qed.

Theorem C45_many0 : forall k G, core_env k G no_skip -> forall u c, core_cond k G no_skip c -> forall w i, i <= length w -> forall b j,
  Matches k G (PMany0 u c) w i b j <-> b = i /\ RunTo (Takes k G u c w i) (Leaves k G u c w i) None i j.
Proof. exact many0_ok. Qed.

(** An error of the condition at a matching item is the error of the whole, and the cursor stays. *)
Theorem C45_many0_err : forall k G, core_env k G no_skip -> forall u c, core_cond k G no_skip c -> forall w i, i <= length w -> forall e,
  Fails k G (PMany0 u c) w i e <-> RunRaises (Takes k G u c w i) (fun t => Raises k u c w i t e) None i.
Proof. exact many0_err. Qed.

Theorem C45_many1 : forall k G, core_env k G no_skip -> forall u c, core_cond k G no_skip c -> forall w i, i <= length w -> forall b j,
  Matches k G (PMany1 u c) w i b j <-> b = i /\ i < j /\ RunTo (Takes k G u c w i) (Leaves k G u c w i) None i j.
Proof. exact many1_ok. Qed.

Theorem C45_many1_err : forall k G, core_env k G no_skip -> forall u c, core_cond k G no_skip c -> forall w i, i <= length w -> forall e,
  Fails k G (PMany1 u c) w i e <->
  (e = EMany1 /\ Leaves k G u c w i i) \/ RunRaises (Takes k G u c w i) (fun t => Raises k u c w i t e) None i.
Proof. exact many1_err. Qed.

Theorem C45_between : forall k G, core_env k G no_skip -> forall u c, core_cond k G no_skip c -> forall w i, i <= length w -> forall m n b j, honest k u ->
  (Matches k G (PBetween m n u c) w i b j <-> b = i /\ i + m <= j /\ RunTo (Takes k G u c w i) (Leaves k G u c w i) n i j).
Proof. exact between_ok. Qed.

Theorem C45_times : forall k G, core_env k G no_skip -> forall u c, core_cond k G no_skip c -> forall w i, i <= length w -> forall r b j, honest k u ->
  (Matches k G (PTimes r u c) w i b j <-> b = i /\ RunTo (Takes k G u c w i) (Leaves k G u c w i) (cap r) i j /\ InRange r (j - i)).
Proof. exact times_ok. Qed.

Theorem C45_opt_err : forall k G, core_env k G no_skip -> forall u c, core_cond k G no_skip c -> forall w i, i <= length w -> forall e,
  Fails k G (POpt u c) w i e <-> Raises k u c w i i e.
Proof. exact opt_err. Qed.

(** The counted forms first compare lengths; only if the text is long enough is a condition asked. *)
Theorem C45_between_err : forall k G, core_env k G no_skip -> forall u c, core_cond k G no_skip c -> forall w i, i <= length w -> forall m n e,
  Fails k G (PBetween m n u c) w i e <->
  (e = EBetween /\ tlen k w < bo k w i + m * min_length k u) \/
  (bo k w i + m * min_length k u <= tlen k w /\
   ((e = EBetween /\ exists j, RunTo (Takes k G u c w i) (Leaves k G u c w i) n i j /\ j < i + m) \/
    RunRaises (Takes k G u c w i) (fun t => Raises k u c w i t e) n i)).
Proof.
  intros k G CE u c CC w i Hi m n e. pose proof (bo_le_len k w i) as BL.
  rewrite fails_peg by (auto; now constructor). split.
  - intros H; inversion H; subst; unfold too_short in *.
    + left. split; [reflexivity|lia].
    + right. split; [lia|]. left. split; [reflexivity|]. exists (i + t). split; [|lia]. now apply (run0 k G CE u c CC w i).
    + right. split; [lia|]. right. now apply (run0_err k G CE u c CC w i).
  - intros [[-> L]|[L [[-> (j & R & J)]|R]]].
    + apply Peg_between_short. unfold too_short. lia.
    + destruct R as (R0 & R). replace j with (i + (j - i)) in R by lia.
      apply (Peg_between_ko k G no_skip w m n u c i (j - i)); [unfold too_short; lia| |lia].
      apply (run0 k G CE u c CC w i). split; [lia|exact R].
    + apply Peg_between_err; [unfold too_short; lia|]. now apply (run0_err k G CE u c CC w i).
Qed.

(** [fewest r]: the number of items the pre-check of [times] asks for. *)
Definition fewest (r : crange) : nat := match r_lo r with Incl m => m | Excl m => m - 1 | Unb => 0 end.
Theorem C45_times_err : forall k G, core_env k G no_skip -> forall u c, core_cond k G no_skip c -> forall w i, i <= length w -> forall r e,
  Fails k G (PTimes r u c) w i e <->
  (e = ETimes /\ tlen k w < bo k w i + fewest r * min_length k u) \/
  (bo k w i + fewest r * min_length k u <= tlen k w /\
   ((e = ETimes /\ exists j, RunTo (Takes k G u c w i) (Leaves k G u c w i) (cap r) i j /\ ~ InRange r (j - i)) \/
    RunRaises (Takes k G u c w i) (fun t => Raises k u c w i t e) (cap r) i)).
Proof.
  intros k G CE u c CC w i Hi r e. pose proof (bo_le_len k w i) as BL.
  rewrite fails_peg by (auto; now constructor). unfold fewest. split.
  - intros H; inversion H; subst; unfold too_short in *.
    + left. split; [reflexivity|lia].
    + right. split; [lia|]. left. split; [reflexivity|]. exists (i + t).
      split; [now apply (run0 k G CE u c CC w i)|]. replace (i + t - i) with t by lia. now apply contains_not.
    + right. split; [lia|]. right. now apply (run0_err k G CE u c CC w i).
  - intros [[-> L]|[L [[-> (j & R & J)]|R]]].
    + apply Peg_times_short. unfold too_short. lia.
    + destruct R as (R0 & R). replace j with (i + (j - i)) in R by lia.
      apply (Peg_times_ko k G no_skip w r u c i (j - i)); [unfold too_short; lia| |now apply contains_not].
      apply (run0 k G CE u c CC w i). split; [lia|exact R].
    + apply Peg_times_err; [unfold too_short; lia|]. now apply (run0_err k G CE u c CC w i).
Qed.

(** Two units in sequence: the condition is asked of both items. *)
Theorem C45_then : forall k G, core_env k G no_skip -> forall u c, core_cond k G no_skip c -> forall w i, i <= length w -> forall v b j,
  honest k u -> honest k v ->
  (Matches k G (PNeuThen u v c) w i b j <-> b = i /\ j = i + 2 /\ Takes k G u c w i i /\ Takes k G v c w i (S i)).
Proof. exact neuthen_ok. Qed.
Theorem C45_then_err : forall k G, core_env k G no_skip -> forall u c, core_cond k G no_skip c -> forall w i, i <= length w -> forall v e,
  honest k u -> honest k v -> Fails k G (PNeuThen u v c) w i e ->
  (e = ENeureThen /\ ~ exists b j, Matches k G (PNeuThen u v c) w i b j) \/
  Raises k u c w i i e \/ (Takes k G u c w i i /\ Raises k v c w i (S i) e).
Proof. exact neuthen_err. Qed.

(** [start()] in a condition always matches; a condition error propagates from the third item. *)
Example C45_case :
  let c1 := CRegex (PThen PStart (PThen (POnce NAlways CEmpty) number)) in
  let c2 := CFn (fun _ x => if (snd x =? 51)%N then Err EFail else Ok true) in
  core_env KStr [] no_skip /\ core_cond KStr [] no_skip c1 /\ core_cond KStr [] no_skip c2 /\
  Matches KStr [] (PMany1 NAsciiDigit c1) sample 3 3 4 /\ Fails KStr [] (PMany0 NAlways c2) sample 2 EFail.
Proof.
  cbv zeta. split; [apply sample_env_core|]. split; [shape|]. split.
  { constructor. intros c x. destruct (snd x =? 51)%N; exact I. }
  split; [matches 9|]. fails 9.
Qed.

(** The condition raises at the third item: reported by [between], unless the text is too short. *)
Example C45_counted_case :
  let c := CFn (fun _ x => if (snd x =? 51)%N then Err EFail else Ok true) in let w := [49; 50; 51]%N in
  core_env KStr [] no_skip /\ core_cond KStr [] no_skip c /\ honest KStr NAsciiDigit /\
  Fails KStr [] (PBetween 2 None NAsciiDigit c) w 0 EFail /\ Fails KStr [] (PBetween 4 None NAsciiDigit c) w 0 EBetween /\
  Fails KStr [] (PTimes (CRange (Incl 3) Unb) NAsciiDigit c) w 0 EFail /\ Fails KStr [] (POpt NAsciiDigit c) w 2 EFail /\
  Matches KStr [] (PBetween 1 (Some 2) NAsciiDigit c) w 0 0 2 /\ Matches KStr [] (PNeuThen NAsciiDigit NAlways c) w 0 0 2 /\
  Fails KStr [] (PNeuThen NAlways NAsciiDigit c) w 1 EFail /\ Fails KStr [] (PNeuThen NAlways NAlways CEmpty) w 2 ENeureThen.
Proof.
  cbv zeta. split; [apply sample_env_core|]. split.
  { constructor. intros c x. destruct (snd x =? 51)%N; exact I. }
  split; [now apply plain_honest|]. split; [fails 9|]. split; [fails 9|]. split; [fails 9|]. split; [fails 9|].
  split; [matches 9|]. split; [matches 9|]. split; fails 9.
Qed.

Print Assumptions C09_many0.
Print Assumptions C09_many0_never_fails.
Print Assumptions C09_many1.
Print Assumptions C09_many1_err.
Print Assumptions C09_once.
Print Assumptions C09_once_err.
Print Assumptions C09_opt.
Print Assumptions C09_opt_never_fails.
Print Assumptions C09_run_exists.
Print Assumptions C09_run_unique.
Print Assumptions C10_between.
Print Assumptions C10_between_err.
Print Assumptions C10_times.
Print Assumptions C10_times_err.
Print Assumptions C10_then.
Print Assumptions C10_then_err.
Print Assumptions C12_empty.
Print Assumptions C12_fail.
Print Assumptions C12_start.
Print Assumptions C12_end.
Print Assumptions C12_consume.
Print Assumptions C12_consume_err.
Print Assumptions C12_consume_all.
Print Assumptions C13_literal.
Print Assumptions C13_literal_err.
Print Assumptions C13_bytes.
Print Assumptions C13_span.
Print Assumptions C29_units.
Print Assumptions C31_min_length_sound.
Print Assumptions C31_bytes.
Print Assumptions C31_rejects.
Print Assumptions C31_never_rejects_a_match.
Print Assumptions C31_complement_refuted.
Print Assumptions C31_once_count_refuted.
Print Assumptions C32_once_count.
Print Assumptions C32_many0_at_least.
Print Assumptions C32_many1_at_least.
Print Assumptions C32_opt_at_most.
Print Assumptions C32_between_times.
Print Assumptions C32_at_least_times.
Print Assumptions C45_once.
Print Assumptions C45_once_err.
Print Assumptions C45_opt.
Print Assumptions C45_many0.
Print Assumptions C45_many0_err.
Print Assumptions C45_many1.
Print Assumptions C45_many1_err.
Print Assumptions C45_between.
Print Assumptions C45_times.
Print Assumptions C45_opt_err.
Print Assumptions C45_between_err.
Print Assumptions C45_times_err.
Print Assumptions C45_then.
Print Assumptions C45_then_err.
