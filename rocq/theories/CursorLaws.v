(** Cursor, span and panic facts in observable terms. *)

From Coq Require Import List Arith NArith Bool Lia.
From Verif Require Import Base Text Context Neu Syntax Regex Ctor Api TextProofs Spec Units Core Sound Complete Mono Obs Atomic Leaf ByteInv Boundary Laws ApiLaws.
Import ListNotations.

Lemma returns_atomic G p c e c' :
  atomic_env G -> atomic G p -> Returns G [] p c (Err e) c' -> c_off c' = c_off c.
Proof. intros HG HP (n & E & _). exact (parse_atomic G HG n [] p HP c e c' E). Qed.

Lemma returns_b G te t p c r c' : tame_env G te -> tame te t p -> c_off c <= ctx_len c ->
  Returns G [] p c r c' -> bres t c (r, c') /\ r <> OOF.
Proof.
  intros HG HP HC (n & E & N). split; auto. rewrite <- E. rewrite tm_plain. now apply (parse_b G te).
Qed.

Lemma returns_span G p c s c' :
  tame_env G true -> tame true true p -> c_off c <= ctx_len c -> Returns G [] p c (Ok s) c' ->
  sbeg s = c_off c /\ c_off c' = c_off c + slen s /\ c_off c' <= ctx_len c /\ c_dat c' = c_dat c.
Proof.
  intros HG HP HC R. destruct (returns_b _ _ _ _ _ _ _ HG HP HC R) as [B _].
  inversion B; subst. rewrite (H2 eq_refl) in *. cbn in *. repeat split; auto.
Qed.

Lemma returns_span_end G t p c s c' :
  tame_env G false -> tame false t p -> c_off c <= ctx_len c -> Returns G [] p c (Ok s) c' ->
  c_off c <= sbeg s /\ c_off c' = sbeg s + slen s /\ c_off c' <= ctx_len c.
Proof.
  intros HG HP HC R. destruct (returns_b _ _ _ _ _ _ _ HG HP HC R) as [B _].
  inversion B; subst. cbn in *. repeat split; auto.
Qed.

Lemma returns_no_panic G t p c r c' :
  tame_env G false -> tame false t p -> c_off c <= ctx_len c -> Returns G [] p c r c' -> r <> Panic.
Proof.
  intros HG HP HC R. destruct (returns_b _ _ _ _ _ _ _ HG HP HC R) as [B _]. inversion B; discriminate.
Qed.

Lemma returns_text G t p c r c' :
  tame_env G false -> tame false t p -> c_off c <= ctx_len c -> Returns G [] p c r c' ->
  c_dat c' = c_dat c /\ c_kind c' = c_kind c.
Proof.
  intros HG HP HC R. destruct (returns_b _ _ _ _ _ _ _ HG HP HC R) as [B N]. inversion B; subst; auto.
  now elim N.
Qed.

Lemma orig_sub_sp k w x b j : b <= j -> j <= length w ->
  orig_sub (cx k w x) (sbeg (sp k w b j)) (slen (sp k w b j)) = Ok (firstn (j - b) (skipn b w)).
Proof.
  intros H1 H2. unfold orig_sub. cbn [c_kind c_dat cx sbeg slen sp]. rewrite drop_at_bo by lia.
  replace (bo k w j - bo k w b) with (bo k (skipn b w) (j - b)).
  - rewrite take_at_bo; [reflexivity|]. rewrite skipn_length. lia.
  - replace j with (b + (j - b)) at 2 by lia. rewrite bo_add. lia.
Qed.

Lemma returns_boundary k G pols p w i r c' :
  bd_pols k G false pols -> bd k false (is_plain pols) false p -> i <= length w ->
  Returns G pols p (cx k w i) r c' -> r <> Panic ->
  (exists x, x <= length w /\ c' = cx k w x) /\
  (forall s, r = Ok s -> exists b j, b <= j /\ j <= length w /\ s = sp k w b j /\
     span_orig s c' = Ok (firstn (j - b) (skipn b w))).
Proof.
  intros HP HB Hi (n & E & N) NP. pose proof (try_mat_d k G false n [] pols false p w i HP HB Hi) as D.
  unfold try_mat_top in E. rewrite E in D. inversion D; subst; try congruence.
  - split; [eauto|]. intros s Es. injection Es as <-. exists b, j. repeat split; auto. now apply orig_sub_sp.
  - split; [eauto|]. discriminate.
Qed.

Lemma bo_is_boundary w o : valid_text KStr w = true ->
  ((exists i, i <= length w /\ o = bo KStr w i) <-> is_char_boundary (raw KStr w) o = true).
Proof.
  intros V. rewrite (drop_at_boundary w o V). split.
  - intros (i & Hi & ->). rewrite drop_at_bo by auto. eauto.
  - intros (l & E). destruct (drop_at_some _ _ _ _ E) as (i & H1 & H2 & _). eauto.
Qed.

Lemma consume_splits_char : exists w n c',
  valid_text KStr w = true /\ Returns [] [] (PConsume n) (cx KStr w 0) (Ok (Span 0 n)) c' /\
  is_char_boundary (raw KStr w) (c_off c') = false /\ orig c' = Err EOutOfBound.
Proof.
  exists [233%N], 1, (Ctx KStr [233%N] 1). split; [reflexivity|]. split; [|now vm_compute].
  exists 1. now vm_compute.
Qed.

Lemma returns_no_panic_policy k G sk pols p w i r c' :
  skipper sk -> core_env k G sk -> implements k G sk pols -> core k G sk p -> i <= length w ->
  Returns G pols p (cx k w i) r c' -> r <> Panic.
Proof.
  intros SK CE IM C Hi (n & E & N). pose proof (try_mat_sound k G sk pols SK CE IM n [] p w i C Hi) as T.
  unfold try_mat_top in E. unfold tm in T. rewrite E in T. inversion T; discriminate.
Qed.
