(** C71: the error of a failing call is one that a part of the parser reports. *)

From Coq Require Import List Arith NArith ZArith Bool Lia.
From Verif Require Import Base Text Context Neu Syntax Regex Ctor Api TextProofs Spec Core Obs PegLaws PolicyLaws CtorSpec ConSpec
  ConSound ConComplete PropCon Blame BlameLaws.
Import ListNotations.

(** Nobody answers with an error. *)
Definition nobody : error -> Prop := fun _ => False.

Lemma reports_mono G (H H' : error -> Prop) b m p e : (m = Constructing -> forall x, H x -> H' x) ->
  Reports G H b m p e -> Reports G H' b m p e.
Proof.
  intros I R. destruct R; try (econstructor; solve [eauto]); constructor; auto.
Qed.
Lemma matching_stays G m p m' q : Passes G m p m' q -> m = Matching -> m' = Matching.
Proof. intros P. destruct P; auto; discriminate. Qed.
Lemma blame_matching G H H' b m p e : Blame G H b m p e -> m = Matching -> Blame G H' b m p e.
Proof.
  intros B. induction B as [m p e R|m p m' q e P B IH]; intros ->.
  - apply blame_here. eapply reports_mono; [|exact R]. discriminate.
  - eapply blame_part; [exact P|]. apply IH. eapply matching_stays; eauto.
Qed.

(** A match that fails returns an error that a part of the parser, or of a policy of the context, reports. *)
Theorem C71_matching : forall G pols p c e c',
  Returns G pols p c (Err e) c' -> exists q, In q (p :: pols) /\ Blame G nobody true Matching q e.
Proof.
  intros G pols p c e c' (n & E & _). set (h := fun (_ : ctx) (_ : span) (s : unit) => (@Panic val, s)).
  destruct (match_errs h G n [] pols p c e c' E) as [B|(r & I & B)]; [exists p|exists r]; (split; [cbn [In]; auto|]); eapply blame_matching; eauto.
Qed.

(** The same for constructing: here mappers and the handler may be to blame as well. *)
Theorem C71_constructing : forall S (h : handler S) G pols p c s e c' s',
  Builds h G pols p c s (Err e) c' s' ->
  Blame G (handler_errs h) true Constructing p e \/ exists r, In r pols /\ Blame G nobody true Matching r e.
Proof.
  intros S h G pols p c s e c' s' (n & E & _).
  destruct (construct_errs h G n [] pols p _ e _ E) as [B|(r & I & B)]; [now left|]. right. exists r. split; [exact I|]. eapply blame_matching; eauto.
Qed.

(** In the scope of the matching semantics, with the cursor in the text, nobody reports
    [EOutOfBound] and no policy is to blame. *)
Theorem C71_matching_in_text : forall k G sk pols p w i e c',
  skipper sk -> core_env k G sk -> implements k G sk pols -> core k G sk p -> i <= length w ->
  Returns G pols p (cx k w i) (Err e) c' -> Blame G nobody false Matching p e.
Proof.
  intros k G sk pols p w i e c' Sk CEnv I C Hi R.
  destruct (policy_sound k G sk pols Sk CEnv I p w i _ _ C Hi R) as [(b & j & x & E & _)|(e' & E & _ & P)]; [discriminate|].
  injection E as <-. exact (proj1 (peg_blame k G sk nobody) _ _ _ _ P e eq_refl).
Qed.
Theorem C71_constructing_in_text : forall S k G sk pols hv (h : handler S) p w i s e c' s',
  InScope k G sk pols hv h p -> i <= length w ->
  Builds h G pols p (cx k w i) s (Err e) c' s' -> Blame G (answer_errs hv) false Constructing p e.
Proof.
  intros S k G sk pols hv h p w i s e c' s' C Hi B.
  destruct (run_con k G sk pols hv h p w i s _ _ _ C Hi B) as [R _]. inversion R as [|e' j' y' s1 P Q L E| |]; subst.
  exact (proj1 (con_blame k G sk hv) _ _ _ _ _ P e _ _ eq_refl).
Qed.

(** Errors that never reach the caller, whatever the parts and closures do. *)

(** The error of a combinator that counts. *)
Definition count_error (p : pat) : option error :=
  match p with
  | PSep _ _ _ _ => Some ESeparate
  | PSep2 _ _ _ _ _ => Some ESeparate2
  | PSepCollect _ _ _ _ => Some ESepCollect
  | PRepeat _ _ => Some ERepeat
  | PRepeat2 _ _ _ => Some ERepeat2
  | PCollect _ _ => Some ECollect
  | PChoice e _ _ | PPairChoice e _ _ => Some e
  | _ => None
  end.
Lemma count_blame G H b m p e0 e : count_error p = Some e0 -> Blame G H b m p e -> e = e0.
Proof.
  intros C B. inversion B as [m0 p0 e1 R|m0 p0 m' q e1 P B']; subst.
  - destruct p; try discriminate C; injection C as <-; inversion R; subst; auto; contradiction.
  - destruct p; try discriminate C; inversion P; subst; contradiction.
Qed.
(** A repetition, a separated list or a container of alternatives fails with its own error only, never
    with the error of an element, a separator or an alternative. *)
Theorem C71_counts : forall p e0, count_error p = Some e0 ->
  (forall G c e c', Returns G [] p c (Err e) c' -> e = e0) /\
  (forall S (h : handler S) G c s e c' s', Builds h G [] p c s (Err e) c' s' -> e = e0).
Proof.
  intros p e0 C. split.
  - intros G c e c' R. destruct (C71_matching G [] p c e c' R) as (q & [<-|[]] & B). eapply count_blame; eauto.
  - intros S h G c s e c' s' R. destruct (C71_constructing S h G [] p c s e c' s' R) as [B|(r & [] & _)]. eapply count_blame; eauto.
Qed.

(** An optional parser does not fail. *)
Theorem C71_option : forall p,
  (forall G c e c', ~ Returns G [] (POption p) c (Err e) c') /\
  (forall S (h : handler S) G c s e c' s', ~ Builds h G [] (POption p) c s (Err e) c' s').
Proof.
  assert (N : forall G H b m p e, ~ Blame G H b m (POption p) e).
  { intros G H b m p e B. inversion B as [m0 p0 e1 R|m0 p0 m' q e1 P B']; subst; [inversion R; contradiction|inversion P; contradiction]. }
  intros p. split.
  - intros G c e c' R. destruct (C71_matching G [] _ c e c' R) as (q & [<-|[]] & B). now apply N in B.
  - intros S h G c s e c' s' R. destruct (C71_constructing S h G [] _ c s e c' s' R) as [B|(r & [] & _)]. now apply N in B.
Qed.

(** An ordered or longest choice of two fails with an error of the second one. *)
Theorem C71_second : forall p q r, r = POr p q \/ r = PLongest p q ->
  (forall G c e c', Returns G [] r c (Err e) c' -> Blame G nobody true Matching q e) /\
  (forall S (h : handler S) G c s e c' s', Builds h G [] r c s (Err e) c' s' -> Blame G (handler_errs h) true Constructing q e).
Proof.
  assert (N : forall G H b m p q r e, r = POr p q \/ r = PLongest p q -> Blame G H b m r e -> Blame G H b m q e).
  { intros G H b m p q r e O B. inversion B as [m0 p0 e1 R|m0 p0 m' q' e1 P B']; subst.
    - destruct O as [-> | ->]; inversion R; contradiction.
    - destruct O as [-> | ->]; inversion P; subst; auto; contradiction. }
  intros p q r O. split.
  - intros G c e c' R. destruct (C71_matching G [] _ c e c' R) as (q' & [<-|[]] & B). eapply N; eauto.
  - intros S h G c s e c' s' R. destruct (C71_constructing S h G [] _ c s e c' s' R) as [B|(r' & [] & _)]. eapply N; eauto.
Qed.

(** An assertion fails with its own error, which tells what was asserted. *)
Theorem C71_assertion : forall p v G c e c', Returns G [] (PAssert p v) c (Err e) c' -> e = if v then EAssertTrue else EAssertFalse.
Proof.
  intros p v G c e c' R. destruct (C71_matching G [] _ c e c' R) as (q & [<-|[]] & B).
  inversion B as [m0 p0 e1 R'|m0 p0 m' q e1 P B']; subst; [inversion R'; reflexivity|inversion P].
Qed.

(** [("a" or "b" then three digits) then "!"]: whom the errors on [b12x] and [c] blame; the error of the
    first alternative is lost. *)
Definition plate : pat :=
  PThen (POr (PLit [97%N]) (PThen (PLit [98%N]) (PRepeat (POnce (NDigit 10) CEmpty) (CRange (Incl 3) (Incl 3))))) (PNoneP).
Example C71_case :
  Returns [] [] plate (cx KStr [98; 49; 50; 120]%N 0) (Err ERepeat) (cx KStr [98; 49; 50; 120]%N 0) /\
  Returns [] [] plate (cx KStr [99]%N 0) (Err ELiteral) (cx KStr [99]%N 0) /\
  Returns [] [] plate (cx KStr [97]%N 0) (Err EOption) (cx KStr [97]%N 0) /\
  Blame [] nobody false Matching plate ERepeat /\ ~ Blame [] nobody true Matching plate EOnce.
Proof.
  split; [exists 20; split; [vm_compute; reflexivity|discriminate]|]. split; [exists 20; split; [vm_compute; reflexivity|discriminate]|].
  split; [exists 20; split; [vm_compute; reflexivity|discriminate]|]. split.
  - eapply blame_part; [apply P_then1|]. eapply blame_part; [apply P_or|]. eapply blame_part; [apply P_then2|]. apply blame_here. constructor.
  - intros B. repeat match goal with
      | R : Reports _ _ _ _ _ _ |- _ => inversion R; clear R; subst
      | P : Passes _ _ _ _ _ |- _ => inversion P; clear P; subst
      | B : Blame _ _ _ _ _ _ |- _ => inversion B; clear B; subst
      | L : lost_reports _ _ |- _ => destruct L as [_ L]; discriminate L
      end.
Qed.
(** A handler that rejects long matches, and a mapper that rejects everything. *)
Definition short_only : handler nat := fun _ s st => if slen s <? 3 then (Ok (VSpan s), S st) else (Err EBounded, S st).
Example C71_constructing_case :
  Builds short_only [] [] (POr (PLit [97%N]) (PMany1 (NDigit 10) CEmpty)) (cx KStr [49; 50; 51]%N 0) 0 (Err EBounded) (cx KStr [49; 50; 51]%N 0) 1 /\
  Builds short_only [] [] (PMap (PMany1 (NDigit 10) CEmpty) (fun _ => Err ETryInto)) (cx KStr [49]%N 0) 0 (Err ETryInto) (cx KStr [49]%N 1) 1 /\
  Blame [] (handler_errs short_only) true Constructing (POr (PLit [97%N]) (PMany1 (NDigit 10) CEmpty)) EBounded.
Proof.
  split; [exists 20; split; [vm_compute; reflexivity|discriminate]|]. split; [exists 20; split; [vm_compute; reflexivity|discriminate]|].
  eapply blame_part; [apply P_or|]. apply blame_here. apply R_handler; [exact I|]. exists (cx KStr [] 0), (Span 0 3), 0, 1. reflexivity.
Qed.

Print Assumptions C71_matching.
Print Assumptions C71_constructing.
Print Assumptions C71_matching_in_text.
Print Assumptions C71_constructing_in_text.
Print Assumptions C71_counts.
Print Assumptions C71_option.
Print Assumptions C71_second.
Print Assumptions C71_assertion.
