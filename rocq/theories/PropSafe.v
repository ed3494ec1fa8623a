(** C02, C04 beyond plain contexts: arbitrary policies and all separator forms. *)

From Coq Require Import List Arith NArith Bool Lia.
From Verif Require Import Base Text Context Neu Syntax Regex TextProofs Spec Leaf Obs Core ByteInv Boundary Loose Samples.
Import ListNotations.

(** No match panics and no span or cursor leaves the text, on a context with any number of policies of any kind, for
    every parser made of tame closures, without longest-match containers, sync handles and [longest] on
    a policy context ([loose], Loose.v). *)
Theorem C04_no_panic_any : forall G te pols t p c r c',
  loose_env G (is_plain pols) te -> all_loose (is_plain pols) te pols -> loose (is_plain pols) te t p ->
  c_off c <= ctx_len c -> Returns G pols p c r c' -> r <> Panic.
Proof.
  intros G te pols t p c r c' HE AL Hp Hl (n & E & _). pose proof (try_mat_l G te pols t p n c HE AL Hp Hl) as B.
  rewrite E in B. inversion B; discriminate.
Qed.
(** The span lies between the old and the new cursor, and the cursor never moves backwards, on success
    and on failure. *)
Theorem C02_span_inside : forall G te pols t p c s c',
  loose_env G (is_plain pols) te -> all_loose (is_plain pols) te pols -> loose (is_plain pols) te t p ->
  c_off c <= ctx_len c -> Returns G pols p c (Ok s) c' ->
  c_off c <= sbeg s /\ sbeg s + slen s <= c_off c' /\ c_off c' <= ctx_len c.
Proof.
  intros G te pols t p c s c' HE AL Hp Hl (n & E & _). pose proof (try_mat_l G te pols t p n c HE AL Hp Hl) as B.
  rewrite E in B. inversion B; subst. cbn. auto.
Qed.
Theorem C02_failure_inside : forall G te pols t p c e c',
  loose_env G (is_plain pols) te -> all_loose (is_plain pols) te pols -> loose (is_plain pols) te t p ->
  c_off c <= ctx_len c -> Returns G pols p c (Err e) c' -> c_off c <= c_off c' /\ c_off c' <= ctx_len c.
Proof.
  intros G te pols t p c e c' HE AL Hp Hl (n & E & _). pose proof (try_mat_l G te pols t p n c HE AL Hp Hl) as B.
  rewrite E in B. inversion B; subst. cbn. auto.
Qed.

(** Two policies, one of which can fail; a list whose elements need a separator; "1, 2, x". *)
Definition policies : list pat := [POr (PMany1 NAsciiWhitespace CEmpty) PEmpty; PMany0 NWhitespace CEmpty].
Definition listed : text := [49; 44; 32; 50; 44; 32; 51]%N.
Example C04_any_case :
  loose_env [] (is_plain policies) true /\ all_loose (is_plain policies) true policies /\
  loose (is_plain policies) true true (PSep number comma 1 false) /\
  Returns [] policies (PSep number comma 1 false) (cx KStr listed 0) (Ok (Span 0 5)) (cx KStr listed 7) /\
  Returns [] policies (PSep number comma 3 false) (cx KStr listed 0) (Err ESeparate) (cx KStr listed 0).
Proof.
  split; [no_env|]. split.
  { intros r [<-|[<-|[]]]; repeat constructor. 1,2: eapply ls_unit; [reflexivity|constructor]. }
  split.
  { apply (ls_sep _ _ true true true); [eapply ls_unit; [reflexivity|constructor]|constructor]. }
  split; returns 12.
Qed.

(** Left out because false: with a parser whose span starts later than the cursor (a dynamic one
    here, any parser under a policy that skips twice otherwise), [longest] moves the cursor by the length
    of the span instead of to its end; what follows is matched a second time or panics. *)
Definition late : pat := PBuilder (PLit [97; 98]%N) (fun c _ => (Ok (PLit [99; 100]%N), c)).
Definition abcd : text := [97; 98; 99; 100]%N.
Theorem C14_longest_refuted : exists p w s c', tame true false p /\
  Returns [] [] (PLongest p p) (cx KStr w 0) (Ok s) c' /\ c_off c' < sbeg s + slen s.
Proof.
  exists late, abcd, (Span 2 2), (cx KStr abcd 2). split.
  { apply (tm_builder _ true); [constructor|]. intros c s H1 H2. exists (PLit [99; 100]%N), (c_off c). destruct c; cbn in *.
    repeat split; try lia. constructor. }
  split; [returns 9|vm_compute; lia].
Qed.
Theorem C04_longest_refuted : exists p q w c', tame true false p /\ tame true true q /\
  Returns [] [] (PThen (PLongest p p) q) (cx KStr w 0) Panic c'.
Proof.
  exists late, (PLit [99%N]), abcd. eexists. split.
  { apply (tm_builder _ true); [constructor|]. intros c s H1 H2. exists (PLit [99; 100]%N), (c_off c). destruct c; cbn in *.
    repeat split; try lia. constructor. }
  split; [constructor|returns 9].
Qed.
(** A longest-match container whose last alternative is not the longest makes what follows panic too. *)
Theorem C04_ltm_refuted : exists p q r w c', tame true true p /\ tame true true q /\ tame true true r /\
  Returns [] [] (PThen (PChoice EArray true [p; q]) r) (cx KStr w 0) Panic c'.
Proof.
  exists (PLit [97; 98; 99]%N), (PLit [97%N]), (PLit [98%N]), abcd. eexists.
  split; [constructor|]. split; [constructor|]. split; [constructor|]. returns 9.
Qed.

Print Assumptions C04_no_panic_any.
Print Assumptions C02_span_inside.
Print Assumptions C02_failure_inside.
Print Assumptions C14_longest_refuted.
Print Assumptions C04_longest_refuted.
Print Assumptions C04_ltm_refuted.
