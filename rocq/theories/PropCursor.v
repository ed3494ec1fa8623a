(** C01 - C04, C06: where the cursor is after a match, what the span covers, no panics. *)

From Coq Require Import List Arith NArith Bool Lia.
From Verif Require Import Base Text Context Neu Syntax Regex Ctor Api TextProofs Spec Core Obs Mono Atomic ByteInv Boundary Laws ApiLaws PolicyLaws CursorLaws Samples.
Import ListNotations.

(** ** C01 *)

(** Every combinator of the library that can fail for reasons of its own restores the cursor when it
    fails, whatever its parts do (even if they are user closures that move the cursor and fail), in a
    context with any policies.  [self_restoring] lists the combinators. *)
Theorem C01_combinators_restore_the_cursor : forall n G held pols p c e c',
  self_restoring p = true -> parse n G held pols p c = (Err e, c') -> c_off c' = c_off c.
Proof. exact parse_restores. Qed.
Example C01_restore_case :
  parse 9 [] [] [] (PThen (PFn (fun c => (Ok (Span 0 0), at_off 1 c))) (PFn (fun c => (Err EFail, at_off 7 c)))) (cx KStr sample 0)
  = (Err EFail, cx KStr sample 0) /\ c_off (snd (parse 9 [] [] [] (PFn (fun c => (Err EFail, at_off 7 c))) (cx KStr sample 0))) = 7.
Proof. vm_compute. auto. Qed.

(** On a plain context a failed [try_mat] leaves the cursor where it was, for every parser in which
    user closures used as parsers restore the cursor and builder closures do not fail. *)
Theorem C01_failed_match_keeps_cursor : forall G p c e c',
  atomic_env G -> atomic G p -> Returns G [] p c (Err e) c' -> c_off c' = c_off c.
Proof. exact returns_atomic. Qed.
Example C01_case : atomic_env nested_env /\ atomic nested_env (PRef 0) /\
  Returns nested_env [] (PRef 0) (cx KStr (firstn 6 nested) 0) (Err ELiteral) (cx KStr (firstn 6 nested) 0).
Proof. split; [closed_env; shape|]. split; [apply at_ref|]. returns 40. Qed.

(** ** C02 *)

(** On a plain context, for parsers whose matches start at the cursor ([tame true]): the span of a
    successful match starts at the old offset, and the new offset is its end, inside the text. *)
Theorem C02_span_is_what_was_consumed : forall G p c s c',
  tame_env G true -> tame true true p -> c_off c <= ctx_len c -> Returns G [] p c (Ok s) c' ->
  sbeg s = c_off c /\ c_off c' = c_off c + slen s /\ c_off c' <= ctx_len c /\ c_dat c' = c_dat c.
Proof. exact returns_span. Qed.
Example C02_case : tame_env nested_env true /\ tame true true (PRef 0) /\
  Returns nested_env [] (PRef 0) (cx KStr nested 0) (Ok (Span 0 7)) (cx KStr nested 7).
Proof. split; [closed_env; shape|]. split; [now constructor|]. returns 40. Qed.

(** With dynamic builders or user closures as parsers the span may start later, but it still ends at
    the cursor. *)
Theorem C02_span_ends_at_cursor : forall G t p c s c',
  tame_env G false -> tame false t p -> c_off c <= ctx_len c -> Returns G [] p c (Ok s) c' ->
  c_off c <= sbeg s /\ c_off c' = sbeg s + slen s /\ c_off c' <= ctx_len c.
Proof. exact returns_span_end. Qed.
Example C02_end_case :
  let p := PBuilder number (fun c s => (Ok comma, c)) in
  tame false false p /\ Returns [] [] p (cx KStr sample 1) (Ok (Span 2 1)) (cx KStr sample 3).
Proof.
  split; [|returns 9]. apply (tm_builder false false); [shape|]. intros c s H1 H2. exists comma, (c_off c). destruct c; simpl in *.
  repeat split; try lia. constructor.
Qed.

(** ** C03 *)

(** Started on a character boundary, [try_mat] (with any boundary-respecting policies) leaves the
    cursor on a boundary whether it succeeds or fails, and the returned span covers whole items. *)
Theorem C03_boundaries : forall k G pols p w i r c',
  bd_pols k G false pols -> bd k false (is_plain pols) false p -> i <= length w ->
  Returns G pols p (cx k w i) r c' -> r <> Panic ->
  (exists x, x <= length w /\ c' = cx k w x) /\
  (forall s, r = Ok s -> exists b j, b <= j /\ j <= length w /\ s = sp k w b j /\
     span_orig s c' = Ok (firstn (j - b) (skipn b w))).
Proof. exact returns_boundary. Qed.
Example C03_case : bd_pols KStr [] false skip_whitespace /\ bd KStr false false false (PMany0 NAlways CEmpty) /\
  Returns [] skip_whitespace (PMany1 NAlways CEmpty) (cx KStr (32%N :: sample) 0) (Ok (Span 1 15)) (cx KStr (32%N :: sample) 10).
Proof. split; [simpl; repeat split; try (intros [|]; discriminate); shape|]. split; [shape|]. returns 9. Qed.

(** What an item boundary is in bytes: the cursor positions [bo k w i] are exactly the byte offsets at
    which [str::is_char_boundary] holds. *)
Theorem C03_boundary_is_char_boundary : forall w o, valid_text KStr w = true ->
  ((exists i, i <= length w /\ o = bo KStr w i) <-> is_char_boundary (raw KStr w) o = true).
Proof. exact bo_is_boundary. Qed.
Example C03_boundary_case : valid_text KStr sample = true /\ is_char_boundary (raw KStr sample) 7 = false
  /\ is_char_boundary (raw KStr sample) 8 = true.
Proof. now vm_compute. Qed.

(** [consume(n)] on [str] is the exception: it can stop inside a character, after which the context
    is unusable. *)
Theorem C03_consume_refuted : exists w n c',
  valid_text KStr w = true /\ Returns [] [] (PConsume n) (cx KStr w 0) (Ok (Span 0 n)) c' /\
  is_char_boundary (raw KStr w) (c_off c') = false /\ orig c' = Err EOutOfBound.
Proof. exact consume_splits_char. Qed.

(** ** C04 *)

(** [try_mat] never panics on a plain context whose offset is inside the text. *)
Theorem C04_no_panic : forall G t p c r c',
  tame_env G false -> tame false t p -> c_off c <= ctx_len c -> Returns G [] p c r c' -> r <> Panic.
Proof. exact returns_no_panic. Qed.
Example C04_case : tame_env nested_env false /\ tame false false (PCollect (PRef 0) 0) /\ 
  c_off (cx KStr nested 3) <= ctx_len (cx KStr nested 3).
Proof. split; [closed_env; shape|]. split; [shape|]. vm_compute. lia. Qed.

(** Nor on a context with policies, for [core] parsers and policies that always succeed. *)
Theorem C04_no_panic_policy : forall k G sk pols p w i r c',
  skipper sk -> core_env k G sk -> implements k G sk pols -> core k G sk p -> i <= length w ->
  Returns G pols p (cx k w i) r c' -> r <> Panic.
Proof. exact returns_no_panic_policy. Qed.
Example C04_policy_case : exists sk,
  skipper sk /\ core_env KStr nested_env sk /\ implements KStr nested_env sk skip_ascii_whitespace /\ core KStr nested_env sk (PRef 0).
Proof.
  exists (skip_run NAsciiWhitespace). split; [apply skip_run_skipper|]. split; [closed_env; shape|].
  split; [apply skip_ascii_implements|]. shape.
Qed.

(** ** C06 *)

(** Matching is a function of pattern, policies, text and offset. *)
Theorem C06_deterministic : forall G pols p c r c1 r' c2,
  Returns G pols p c r c1 -> Returns G pols p c r' c2 -> r = r' /\ c1 = c2.
Proof. exact returns_det. Qed.
(** So is construction (with the handler's state as a further input). *)
Theorem C06_ctor_deterministic : forall S (h : handler S) G pols p c s r c1 s1 r' c2 s2,
  Builds h G pols p c s r c1 s1 -> Builds h G pols p c s r' c2 s2 -> r = r' /\ c1 = c2 /\ s1 = s2.
Proof. exact @builds_det. Qed.
(** A larger step budget never changes an answer. *)
Theorem C06_more_steps : forall n m G held pols p c r c',
  parse n G held pols p c = (r, c') -> r <> OOF -> n <= m -> parse m G held pols p c = (r, c').
Proof. exact parse_at. Qed.
Theorem C06_ctor_more_steps : forall S (h : handler S) n m G held pols p x r x',
  construct h n G held pols p x = (r, x') -> r <> OOF -> n <= m -> construct h m G held pols p x = (r, x').
Proof. exact @construct_at. Qed.
(** Matching does not alter the text. *)
Theorem C06_text_unchanged : forall G t p c r c',
  tame_env G false -> tame false t p -> c_off c <= ctx_len c -> Returns G [] p c r c' ->
  c_dat c' = c_dat c /\ c_kind c' = c_kind c.
Proof. exact returns_text. Qed.
Example C06_case : tame_env nested_env false /\ tame false false (PRef 0) /\
  Returns nested_env [] (PRef 0) (cx KStr nested 0) (Ok (Span 0 7)) (cx KStr nested 7) /\
  fst (parse 3 nested_env [] [] (PRef 0) (cx KStr nested 0)) = OOF /\
  Builds extract_text nested_env [] (PCollect (PPat number) 1) (cx KStr nested 2) tt
    (Ok (VList [VText [49%N]])) (cx KStr nested 3) tt.
Proof. split; [closed_env; shape|]. split; [shape|]. split; [returns 40|]. split; [reflexivity|]. returns 9. Qed.

Print Assumptions C01_combinators_restore_the_cursor.
Print Assumptions C01_failed_match_keeps_cursor.
Print Assumptions C02_span_is_what_was_consumed.
Print Assumptions C02_span_ends_at_cursor.
Print Assumptions C03_boundaries.
Print Assumptions C03_boundary_is_char_boundary.
Print Assumptions C03_consume_refuted.
Print Assumptions C04_no_panic.
Print Assumptions C04_no_panic_policy.
Print Assumptions C06_deterministic.
Print Assumptions C06_ctor_deterministic.
Print Assumptions C06_more_steps.
Print Assumptions C06_ctor_more_steps.
Print Assumptions C06_text_unchanged.
