(** Corollaries of the refinement in the form used by the property theorems. *)

From Coq Require Import List Arith NArith Bool Lia.
From Verif Require Import Base Text Context Neu Syntax Regex Ctor Api TextProofs Spec Core Sound Complete Obs Laws PolicyLaws.
Import ListNotations.

Lemma plain_sound k G p w i r c' : core_env k G no_skip -> core k G no_skip p -> i <= length w ->
  Returns G [] p (cx k w i) r c' ->
  (exists b j, r = Ok (sp k w b j) /\ c' = cx k w j /\ i <= b /\ b <= j /\ j <= length w /\ Peg k G no_skip w p i (OK b j)) \/
  (exists e, r = Err e /\ c' = cx k w i /\ Peg k G no_skip w p i (KO e)).
Proof.
  intros CE C Hi R.
  destruct (policy_sound k G no_skip [] (no_skip_skipper) CE (no_skip_implements k G) p w i r c' C Hi R)
    as [(b & j & x & -> & -> & P & H)|(e & -> & -> & P)]; unfold no_skip in *; [left|right; eauto].
  destruct H as (H1 & H2 & H3 & H4 & H5). assert (x = j) as -> by lia. exists b, j. auto 10.
Qed.

Lemma plain_complete k G p w i : core_env k G no_skip -> core k G no_skip p -> i <= length w ->
  (forall b j, Peg k G no_skip w p i (OK b j) -> Returns G [] p (cx k w i) (Ok (sp k w b j)) (cx k w j)) /\
  (forall e, Peg k G no_skip w p i (KO e) -> Returns G [] p (cx k w i) (Err e) (cx k w i)).
Proof.
  intros CE C Hi. split.
  - intros b j P. apply (matches_peg k G CE) in P; auto. destruct P as (_ & _ & n & E). exists n. split; [exact E|discriminate].
  - intros e P. apply (fails_peg k G CE) in P; auto. destruct P as (n & E). exists n. split; [exact E|discriminate].
Qed.

Lemma spec_det k G sk pols w p i o o' : skipper sk -> core_env k G sk -> implements k G sk pols ->
  core k G sk p -> i <= length w -> sk w i = i ->
  Peg k G sk w p i o -> Peg k G sk w p i o' -> o = o'.
Proof. intros SK CE IM C Hi E P P'. eapply (peg_det k G sk pols); eauto. Qed.
