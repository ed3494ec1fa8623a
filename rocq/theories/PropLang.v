(** A match stays inside the language of the pattern (C46).  [Lang] (file Lang.v) reads the
    combinators as concatenation, union and iteration; it has no positions and no priorities. *)

From Coq Require Import List Arith NArith Bool Lia.
From Verif Require Import Base Text Context Neu Syntax Regex Ctor Api TextProofs Spec Core Obs Laws PegLaws
  Lang CtorSpec Samples.
Import ListNotations.

(** ** C46 *)

(** If [try_mat] succeeds at item [i], the span starts at [i], the cursor is at its end, and the items
    in between are a word of the language of the parser. *)
Theorem C46_match : forall k G p w i s c',
  core_env k G no_skip -> static_env G -> core k G no_skip p -> static p -> i <= length w ->
  Returns G [] p (cx k w i) (Ok s) c' ->
  exists j, s = sp k w i j /\ c' = cx k w j /\ i <= j /\ j <= length w /\ Lang G p (slice w i j).
Proof.
  intros k G p w i s c' CE SE C S Hi R. destruct (plain_sound k G p w i _ _ CE C Hi R) as [(b & j & E & -> & I1 & I2 & I3 & P)|(e & E & _)]; [|discriminate].
  injection E as ->. exists j.
  destruct (proj1 (lang_all k G CE SE) w p i _ P C S Hi) as (-> & ? & ? & H). auto.
Qed.
Example C46_match_case : core_env KStr nested_env no_skip /\ static_env nested_env /\
  core KStr nested_env no_skip (PRef 0) /\ static (PRef 0) /\
  Returns nested_env [] (PRef 0) (cx KStr nested 0) (Ok (sp KStr nested 0 7)) (cx KStr nested 7).
Proof. split; [apply nested_env_core|]. split; [closed_env; shape|]. split; [shape|]. split; [shape|]. returns 40. Qed.

(** A parser that must reach the end of the input accepts only texts of its language. *)
Theorem C46_whole : forall k G p w s c',
  core_env k G no_skip -> static_env G -> core k G no_skip p -> static p ->
  Returns G [] (PThen p PEnd) (cx k w 0) (Ok s) c' -> Lang G p w.
Proof.
  intros k G p w s c' CE SE C S R.
  destruct (plain_sound k G (PThen p PEnd) w 0 _ _ CE (core_then _ _ _ _ _ C (core_end _ _ _)) (Nat.le_0_l _) R)
    as [(b & j & E & -> & I1 & I2 & I3 & P)|(e & E & _)]; [|discriminate].
  assert (Q : exists j1, Peg k G no_skip w p 0 (OK b j1) /\ j1 = length w).
  { inversion P; subst. match goal with H : Peg _ _ _ _ PEnd _ _ |- _ => inversion H; subst end. eauto. }
  destruct Q as (j1 & Q & ->).
  destruct (proj1 (lang_all k G CE SE) w p 0 _ Q C S (Nat.le_0_l _)) as (-> & _ & _ & H).
  unfold slice in H. rewrite Nat.sub_0_r in H. cbn [skipn] in H. now rewrite firstn_all in H.
Qed.
Example C46_whole_case : static (PThen array PEnd) /\
  Returns [] [] (PThen array PEnd) (cx KStr (firstn 6 sample) 0) (Ok (sp KStr (firstn 6 sample) 0 6)) (cx KStr (firstn 6 sample) 6).
Proof. split; [shape|]. returns 40. Qed.

(** The converse fails: alternatives are tried in order and a committed choice is not revisited.
    ["abc"] is in the language of [("a" | "ab") "c"], and the parser rejects it. *)
Theorem C46_converse_refuted : exists G p w e c',
  core KStr G no_skip p /\ static p /\ Lang G p w /\ Returns G [] p (cx KStr w 0) (Err e) c'.
Proof.
  exists [], (PThen (POr (PLit [97]) (PLit [97; 98])) (PLit [99]))%N, [97; 98; 99]%N, ELiteral, (cx KStr [97; 98; 99]%N 0).
  split; [shape|]. split; [shape|]. split; [|returns 9].
  apply (L_then [] _ _ [97; 98]%N [99]%N); [apply L_or_r|]; constructor.
Qed.

Print Assumptions C46_match.
Print Assumptions C46_whole.
Print Assumptions C46_converse_refuted.
