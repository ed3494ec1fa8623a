(** C27, C28: contexts with a policy. *)

From Coq Require Import List Arith NArith Bool Lia.
From Verif Require Import Base Text Context Neu Syntax Regex Ctor Api TextProofs Spec Units Core Sound Mono Obs
  Atomic ByteInv Laws ApiLaws PolicyLaws Samples UnitLaws UnitProps.
Import ListNotations.

(** ** C27: policies never enter the span *)

(** The policy of the context, run once on the context it wraps, succeeds and leaves it as [c1]. *)
Definition Skips (G : env) (pols : list pat) (c c1 : ctx) : Prop :=
  match pols with
  | [] => c1 = c
  | r :: rest => exists n s, parse n G [] rest r c = (Ok s, c1)
  end.

(** [try_mat] runs the policy once and then the parser, for every policy, nesting and parser. *)
Theorem C27_policy_then_parser : forall G pols p c c1 r c', Skips G pols c c1 ->
  (Returns G pols p c r c' <-> exists n, parse n G [] pols p c1 = (r, c') /\ r <> OOF).
Proof.
  intros G pols p c c1 r c' H. unfold Returns, try_mat_top, try_mat. destruct pols as [|q rest].
  - cbn in H. subst c1. reflexivity.
  - destruct H as (m & s & E). split; intros (n & En & N).
    + exists n. split; [|exact N]. unfold bind in En.
      destruct (parse n G [] rest q c) as [[s'|e| |] c2] eqn:Eq.
      * pose proof (parse_at n (n + m) _ _ _ _ _ _ _ Eq ltac:(discriminate) ltac:(lia)) as A.
        pose proof (parse_at m (n + m) _ _ _ _ _ _ _ E ltac:(discriminate) ltac:(lia)) as B.
        rewrite A in B. injection B as _ ->. exact En.
      * pose proof (parse_at n (n + m) _ _ _ _ _ _ _ Eq ltac:(discriminate) ltac:(lia)) as A.
        pose proof (parse_at m (n + m) _ _ _ _ _ _ _ E ltac:(discriminate) ltac:(lia)) as B.
        rewrite A in B. discriminate B.
      * pose proof (parse_at n (n + m) _ _ _ _ _ _ _ Eq ltac:(discriminate) ltac:(lia)) as A.
        pose proof (parse_at m (n + m) _ _ _ _ _ _ _ E ltac:(discriminate) ltac:(lia)) as B.
        rewrite A in B. discriminate B.
      * injection En as <- _. congruence.
    + exists (m + n). split; [|exact N]. unfold bind.
      rewrite (parse_at m (m + n) _ _ _ _ _ _ _ E ltac:(discriminate) ltac:(lia)).
      exact (parse_at n (m + n) _ _ _ _ _ _ _ En N ltac:(lia)).
Qed.

(** A leaf (literal, anchor, unit run, ...) on a policy context behaves as on the plain context whose
    cursor is after the skipped text. *)
Theorem C27_leaf : forall G pols p c c1 r c', policy_free p = true -> Skips G pols c c1 ->
  (Returns G pols p c r c' <-> Returns G [] p c1 r c').
Proof.
  intros G pols p c c1 r c' F H. rewrite (C27_policy_then_parser G pols p c c1 r c' H).
  unfold Returns, try_mat_top, try_mat.
  split; intros (n & E & N); exists n; (split; [|exact N]); rewrite <- E.
  - now rewrite (policy_free_parse n G [] [] pols p F).
  - now rewrite (policy_free_parse n G [] [] pols p F).
Qed.

(** So a matched span starts at or after the cursor the policy left, and ends at the final cursor.
    [tame true] leaves match where they are started. *)
Theorem C27_span : forall G te pols p c c1 s c', policy_free p = true -> tame_env G te -> tame te true p ->
  Skips G pols c c1 -> c_off c1 <= ctx_len c1 ->
  Returns G pols p c (Ok s) c' ->
  sbeg s = c_off c1 /\ sbeg s + slen s = c_off c' /\ c_off c' <= ctx_len c1.
Proof.
  intros G te pols p c c1 s c' F TE TP H L R. apply (C27_leaf G pols p c c1 (Ok s) c' F H) in R.
  destruct R as (n & E & _). unfold try_mat_top, try_mat in E.
  pose proof (parse_b G te TE n [] true p c1 TP L) as B. rewrite E in B. inversion B; subst.
  cbn [sbeg slen c_off]. repeat split; auto.
Qed.

(** For a policy that skips the longest run of one unit (the two whitespace policies are of this
    kind): the skipped text is exactly that run. *)
Theorem C27_skip_run : forall k G u rest w i, i <= length w ->
  Skips G (PMany0 u CEmpty :: rest) (cx k w i) (cx k w (skip_run u w i)) /\
  i <= skip_run u w i /\
  (forall m x, i <= m -> m < skip_run u w i -> nth_error w m = Some x -> is_match u x = true) /\
  (forall x, nth_error w (skip_run u w i) = Some x -> is_match u x = false).
Proof.
  intros k G u rest w i Hi. split; [|apply skip_run_spec; exact Hi].
  exists 1, (sp k w i (skip_run u w i)). now apply many0_skips.
Qed.

(** The two named policies: the longest run of the five ASCII blanks, and the longest run of the
    characters with the property White_Space. *)
Theorem C27_whitespace : forall k G w i, i <= length w ->
  (forall pols blank, (pols, blank) = (skip_ascii_whitespace, fun x => In x [32; 9; 10; 12; 13]%N) \/
     (pols, blank) = (skip_whitespace, fun x =>
       In x [9; 10; 11; 12; 13; 32; 133; 160; 5760; 8192; 8193; 8194; 8195; 8196; 8197; 8198; 8199; 8200;
             8201; 8202; 8232; 8233; 8239; 8287; 12288]%N) ->
   exists j, Skips G pols (cx k w i) (cx k w j) /\ i <= j <= length w /\
     (forall m x, i <= m < j -> nth_error w m = Some x -> blank x) /\ (forall x, nth_error w j = Some x -> ~ blank x)).
Proof.
  intros k G w i Hi pols blank E.
  assert (X : exists u, pols = [PMany0 u CEmpty] /\ forall x, is_match u x = true <-> blank x).
  { destruct E as [E|E]; injection E as -> ->; eexists; (split; [reflexivity|]); intros x; apply unit_set. }
  destruct X as (u & -> & H). destruct (C27_skip_run k G u [] w i Hi) as (A & B & C & D). exists (skip_run u w i).
  split; [exact A|]. split; [split; [exact B|]; apply (skip_run_skipper u); exact Hi|]. split.
  - intros m x L Ex. apply H. apply (C m x); auto; lia.
  - intros x Ex Bx. apply H in Bx. rewrite (D x Ex) in Bx. discriminate.
Qed.

(** Inside a combinator the policy runs again before each part, always outside the parts' spans. *)
Theorem C27_then : forall G pols p q c c0 s1 c1 s2 c2 s, Skips G pols c c0 ->
  Returns G pols p c0 (Ok s1) c1 -> Returns G pols q c1 (Ok s2) c2 ->
  add_assign s1 s2 = Ok s -> Returns G pols (PThen p q) c (Ok s) c2.
Proof.
  intros G pols p q c c0 s1 c1 s2 c2 s H R1 R2 A.
  apply (proj2 (C27_policy_then_parser G pols (PThen p q) c c0 (Ok s) c2 H)).
  apply returns_at in R1. apply returns_at in R2. destruct R1 as (n1 & R1). destruct R2 as (n2 & R2).
  exists (S (n1 + n2)). split; [|discriminate]. cbn [parse parse_step].
  change (tm (parse (n1 + n2) G) [] pols) with (try_mat_top (n1 + n2) G pols).
  mstep. rewrite R1 by lia. rewrite R2 by lia. now rewrite A.
Qed.

(** A policy that fails makes the match fail. *)
Theorem C27_policy_fails : forall G r rest p c n e c1, parse n G [] rest r c = (Err e, c1) ->
  Returns G (r :: rest) p c (Err e) c1.
Proof.
  intros G r rest p c n e c1 E. exists n. split; [|discriminate].
  unfold try_mat_top, try_mat, bind. now rewrite E.
Qed.

(** "  12 ab" with whitespace skipped, also under a second, outer policy. *)
Definition spaced : text := [32; 32; 49; 50; 32; 97]%N.
Example C27_case :
  Skips [] skip_ascii_whitespace (cx KStr spaced 0) (cx KStr spaced 2) /\
  Skips [] (PMany0 NAsciiWhitespace CEmpty :: skip_whitespace) (cx KStr spaced 0) (cx KStr spaced 2) /\
  policy_free number = true /\ tame_env [] true /\ tame true true number /\
  Returns [] skip_ascii_whitespace number (cx KStr spaced 0) (Ok (Span 2 2)) (cx KStr spaced 4).
Proof.
  split; [exists 1; eexists; vm_compute; reflexivity|].
  split; [exists 1; eexists; vm_compute; reflexivity|].
  split; [reflexivity|]. split; [no_env|]. split; [shape|]. returns 4.
Qed.
Example C27_then_case :
  Returns [] skip_ascii_whitespace (PThen number (PLit [97]%N)) (cx KStr spaced 0) (Ok (Span 2 4)) (cx KStr spaced 6).
Proof. returns 4. Qed.
(** A policy that is not idempotent shows that it runs once per attempt: [consume(1)] drops one byte
    before the sequence, one before its first part and one before its second part. *)
Example C27_once_case :
  Returns [] [PConsume 1] (PThen (PLit [97]) (PLit [98]))%N (cx KStr [1; 2; 97; 3; 98]%N 0)
    (Ok (Span 2 3)) (cx KStr [1; 2; 97; 3; 98]%N 5).
Proof. returns 4. Qed.

(** The span of a repetition does not include the text skipped before the attempt that ended it, but
    the cursor is after it: on policy contexts a combinator's span need not end at the cursor. *)
Theorem C27_combinator_span_refuted : exists w p s c',
  Returns [] skip_ascii_whitespace p (cx KStr w 0) (Ok s) c' /\ sbeg s + slen s < c_off c'.
Proof. exact policy_loop_cursor. Qed.

(** ** C28: failure on a policy context *)

(** What holds: the failing match leaves the cursor exactly after the skipped text. *)
Theorem C28_failure_after_skip_partial : forall k G sk pols,
  skipper sk -> core_env k G sk -> implements k G sk pols ->
  forall p w i e c', core k G sk p -> i <= length w ->
  Returns G pols p (cx k w i) (Err e) c' -> c' = cx k w (sk w i).
Proof.
  intros k G sk pols SK CE IM p w i e c' C Hi R.
  destruct (policy_sound k G sk pols SK CE IM p w i _ c' C Hi R) as [(b & j & x & E & _)|(e' & _ & E & _)];
    [discriminate E|exact E].
Qed.
Corollary C28_restored_if_nothing_skipped_partial : forall k G sk pols,
  skipper sk -> core_env k G sk -> implements k G sk pols ->
  forall p w i e c', core k G sk p -> i <= length w -> sk w i = i ->
  Returns G pols p (cx k w i) (Err e) c' -> c' = cx k w i.
Proof.
  intros k G sk pols SK CE IM p w i e c' C Hi E R.
  pose proof (C28_failure_after_skip_partial k G sk pols SK CE IM p w i e c' C Hi R) as H. now rewrite E in H.
Qed.
(** For [try_mat_policy]: restored if neither the before nor the pattern moved. *)
Theorem C28_try_mat_policy_partial : forall (before pat after : M ctx span) c e c',
  (forall x e' x', before x = (Err e', x') -> c_off x' = c_off x) ->
  (forall x e' x', pat x = (Err e', x') -> c_off x' = c_off x) ->
  (forall x e' x', after x = (Err e', x') -> c_off x' = c_off x) ->
  (forall s x, before c = (Ok s, x) -> c_off x = c_off c) ->
  (forall s x x', pat x = (Ok s, x') -> forall e2 y, after x' = (Err e2, y) -> c_off x' = c_off x) ->
  try_mat_policy before pat after c = (Err e, c') -> c_off c' = c_off c.
Proof.
  intros before pat after c e c' B P A B0 P0 E. unfold try_mat_policy, bind, ret in E.
  pose proof (B c) as Bc. destruct (before c) as [[s|e1| |] c1] eqn:E1; try discriminate E.
  - specialize (B0 s c1 eq_refl). destruct (pat c1) as [[s2|e2| |] c2] eqn:E2; try discriminate E.
    + destruct (after c2) as [[s3|e3| |] c3] eqn:E3; try discriminate E. injection E as _ <-.
      rewrite (A _ _ _ E3), (P0 _ _ _ E2 _ _ E3). exact B0.
    + injection E as _ <-. rewrite (P _ _ _ E2). exact B0.
  - injection E as _ <-. exact (Bc _ _ eq_refl).
Qed.
Example C28_case : skipper (skip_run NAsciiWhitespace) /\ core_env KStr [] (skip_run NAsciiWhitespace) /\
  implements KStr [] (skip_run NAsciiWhitespace) skip_ascii_whitespace /\
  core KStr [] (skip_run NAsciiWhitespace) (PLit [98]%N) /\
  Returns [] skip_ascii_whitespace (PLit [98]%N) (cx KStr spaced 0) (Err ELiteral) (cx KStr spaced 2).
Proof.
  split; [apply skip_run_skipper|]. split; [no_env|]. split; [apply skip_ascii_implements|]. split; [shape|].
  returns 4.
Qed.

(** What does not hold: the offset from before the call is not restored. *)
Theorem C28_try_mat_refuted : exists w p e c',
  Returns [] skip_ascii_whitespace p (cx KStr w 0) (Err e) c' /\ c_off c' <> 0.
Proof. exact policy_not_atomic. Qed.
Theorem C28_try_mat_policy_refuted : exists (before pat : M ctx span) c e c',
  (forall x e' x', before x = (Err e', x') -> c_off x' = c_off x) /\
  (forall x e' x', pat x = (Err e', x') -> c_off x' = c_off x) /\
  try_mat_policy before pat noop c = (Err e, c') /\ c_off c' <> c_off c.
Proof. exact try_mat_policy_not_atomic. Qed.

Print Assumptions C27_policy_then_parser.
Print Assumptions C27_leaf.
Print Assumptions C27_span.
Print Assumptions C27_skip_run.
Print Assumptions C27_whitespace.
Print Assumptions C27_then.
Print Assumptions C27_policy_fails.
Print Assumptions C27_combinator_span_refuted.
Print Assumptions C28_failure_after_skip_partial.
Print Assumptions C28_restored_if_nothing_skipped_partial.
Print Assumptions C28_try_mat_policy_partial.
Print Assumptions C28_try_mat_refuted.
Print Assumptions C28_try_mat_policy_refuted.
