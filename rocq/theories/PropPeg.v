(** C05: [try_mat] computes the parsing-expression semantics of Spec.v. *)

From Coq Require Import List Arith NArith Bool Lia.
From Verif Require Import Base Text Context Neu Syntax Regex Ctor Api TextProofs Spec Core Obs Laws PolicyLaws PegLaws Samples.
Import ListNotations.

(** Whatever [try_mat] returns on a plain context, the specification allows it: the span covers
    whole items, the cursor is at its end (or where it was, on failure), the error is the specified
    one. *)
Theorem C05_sound : forall k G p w i r c',
  core_env k G no_skip -> core k G no_skip p -> i <= length w ->
  Returns G [] p (cx k w i) r c' ->
  (exists b j, r = Ok (sp k w b j) /\ c' = cx k w j /\ i <= b /\ b <= j /\ j <= length w /\ Peg k G no_skip w p i (OK b j)) \/
  (exists e, r = Err e /\ c' = cx k w i /\ Peg k G no_skip w p i (KO e)).
Proof. exact plain_sound. Qed.

(** Whatever the specification derives, [try_mat] returns. *)
Theorem C05_complete : forall k G p w i,
  core_env k G no_skip -> core k G no_skip p -> i <= length w ->
  (forall b j, Peg k G no_skip w p i (OK b j) -> Returns G [] p (cx k w i) (Ok (sp k w b j)) (cx k w j)) /\
  (forall e, Peg k G no_skip w p i (KO e) -> Returns G [] p (cx k w i) (Err e) (cx k w i)).
Proof. exact plain_complete. Qed.

Example C05_case : core_env KStr nested_env no_skip /\ core KStr nested_env no_skip (PRef 0) /\ 0 <= length nested /\
  Returns nested_env [] (PRef 0) (cx KStr nested 0) (Ok (sp KStr nested 0 7)) (cx KStr nested 7).
Proof. split; [apply nested_env_core|]. split; [shape|]. split; [vm_compute; lia|]. returns 40. Qed.

(** The specification itself is deterministic. *)
Theorem C05_spec_deterministic : forall k G sk pols w p i o o',
  skipper sk -> core_env k G sk -> implements k G sk pols -> core k G sk p -> i <= length w -> sk w i = i ->
  Peg k G sk w p i o -> Peg k G sk w p i o' -> o = o'.
Proof. exact spec_det. Qed.

(** The same on a context with policies that skip text: matching from [i] is the specification from
    the skipped position [sk w i]. *)
Theorem C05_policy_sound : forall k G sk pols, skipper sk -> core_env k G sk -> implements k G sk pols ->
  forall p w i r c', core k G sk p -> i <= length w -> Returns G pols p (cx k w i) r c' ->
  (exists b j x, r = Ok (sp k w b j) /\ c' = cx k w x /\ Peg k G sk w p (sk w i) (OK b j) /\
     sk w i <= b /\ b <= j /\ j <= x /\ x <= sk w j /\ j <= length w) \/
  (exists e, r = Err e /\ c' = cx k w (sk w i) /\ Peg k G sk w p (sk w i) (KO e)).
Proof. exact policy_sound. Qed.

Theorem C05_policy_complete : forall k G sk pols, skipper sk -> core_env k G sk -> implements k G sk pols ->
  forall p w i o, core k G sk p -> i <= length w -> Peg k G sk w p (sk w i) o ->
  exists r c', Returns G pols p (cx k w i) r c' /\
  match o with
  | OK b j => r = Ok (sp k w b j) /\ exists x, j <= x /\ x <= sk w j /\ c' = cx k w x
  | KO e => r = Err e /\ c' = cx k w (sk w i)
  end.
Proof. exact policy_complete. Qed.

(** [" [ 1 , 2 ] "] with ASCII whitespace skipped. *)
Example C05_policy_case :
  let w := [32; 91; 32; 49; 32; 44; 32; 50; 32; 93; 32]%N in
  let sk := skip_run NAsciiWhitespace in
  skipper sk /\ core_env KStr [] sk /\ implements KStr [] sk skip_ascii_whitespace /\ core KStr [] sk array /\
  Returns [] skip_ascii_whitespace array (cx KStr w 0) (Ok (sp KStr w 1 10)) (cx KStr w 10).
Proof.
  cbv zeta. split; [apply skip_run_skipper|]. split; [no_env|].
  split; [apply skip_ascii_implements|]. split; [shape|]. returns 40.
Qed.

Print Assumptions C05_sound.
Print Assumptions C05_complete.
Print Assumptions C05_spec_deterministic.
Print Assumptions C05_policy_sound.
Print Assumptions C05_policy_complete.
