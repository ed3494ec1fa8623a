(** The one-call forms of src/ctx.rs (C60): [map_handler], [map_with], [map_span], [map], [ctor_span],
    [ctor], [try_mat_before], [try_mat_after]. *)

From Coq Require Import List Arith NArith ZArith Bool Lia.
From Verif Require Import Base Text Context Neu Syntax Regex Ctor Api TextProofs Spec Core Obs Laws UnitLaws UnitProps
  ApiLaws SeqLaws Samples CtorSpec CursorLaws CtorLaws Maps.
Import ListNotations.

(** A matched text is what the extracting handler gives. *)
Lemma matched_text k w b j x : b <= j -> j <= length w -> extract_text (cx k w x) (sp k w b j) tt = (Ok (VText (slice w b j)), tt).
Proof.
  intros H1 H2. unfold extract_text. now rewrite orig_sub_sp by auto.
Qed.

(** [m], given enough fuel, leaves result [r] and state [x']. *)
Definition Ends {X A} (m : nat -> M X A) (x : X) (r : res A) (x' : X) : Prop :=
  exists n0, forall n, n0 <= n -> m n x = (r, x').

Definition t1c23 : text := [49; 44; 50; 51]%N.

(** ** C60 *)

(** After a match the handler is called once, with the cursor already behind the match, with the
    matched span; its result is the result, also when it is an error, and the cursor stays there. *)
Theorem C60_map_handler : forall S (h : handler S) G pols p c st s c1, Returns G pols p c (Ok s) c1 ->
  Ends (fun n => map_handler h n G pols p) (c, st) (fst (h c1 s st)) (c1, snd (h c1 s st)).
Proof.
  intros S h G pols p c st s c1 R. destruct (returns_at _ _ _ _ _ _ R) as [N HN]. exists N. intros n Hn.
  unfold map_handler, bind, on_ctx, invoke. cbn [fst snd]. rewrite HN by auto. cbn [fst snd].
  now destruct (h c1 s st).
Qed.

(** When the match fails the handler is not called: its state is what it was, the error is the match's. *)
Theorem C60_map_handler_err : forall S (h : handler S) G pols p c st e c1, Returns G pols p c (Err e) c1 ->
  Ends (fun n => map_handler h n G pols p) (c, st) (Err e) (c1, st).
Proof.
  intros S h G pols p c st e c1 R. destruct (returns_at _ _ _ _ _ _ R) as [N HN]. exists N. intros n Hn.
  unfold map_handler, bind, on_ctx. cbn [fst snd]. now rewrite HN by auto.
Qed.

(** On a text: [ctx.map(&p, f)] is [f] of the matched text, [ctx.map_span(&p, f)] is [f] of the span
    in bytes; the cursor is behind the match whether or not [f] accepts. *)
Theorem C60_map : forall k G p w i b j f, Matches k G p w i b j ->
  Ends (fun n => map_text n G [] p f) (cx k w i, tt) (f (VText (slice w b j))) (cx k w j, tt).
Proof.
  intros k G p w i b j f (H1 & H2 & n & H). assert (R : Returns G [] p (cx k w i) (Ok (sp k w b j)) (cx k w j)) by (exists n; split; [auto|discriminate]).
  destruct (C60_map_handler _ extract_text G [] p _ tt _ _ R) as [N HN]. exists N. intros m Hm.
  unfold map_text, bind. rewrite HN by auto. rewrite matched_text by auto. cbn [fst snd]. unfold lift.
  now destruct (f (VText (slice w b j))).
Qed.
Theorem C60_map_span : forall k G p w i b j f, Matches k G p w i b j ->
  Ends (fun n => map_span n G [] p f) (cx k w i, tt) (f (VSpan (sp k w b j))) (cx k w j, tt).
Proof.
  intros k G p w i b j f (H1 & H2 & n & H). assert (R : Returns G [] p (cx k w i) (Ok (sp k w b j)) (cx k w j)) by (exists n; split; [auto|discriminate]).
  destruct (C60_map_handler _ extract_span G [] p _ tt _ _ R) as [N HN]. exists N. intros m Hm.
  unfold map_span, bind. rewrite HN by auto. unfold extract_span. cbn [fst snd]. unfold lift.
  now destruct (f (VSpan (sp k w b j))).
Qed.
Theorem C60_map_err : forall k G p w i e f, Fails k G p w i e ->
  Ends (fun n => map_text n G [] p f) (cx k w i, tt) (Err e) (cx k w i, tt) /\
  Ends (fun n => map_span n G [] p f) (cx k w i, tt) (Err e) (cx k w i, tt).
Proof.
  intros k G p w i e f (n & H). assert (R : Returns G [] p (cx k w i) (Err e) (cx k w i)) by (exists n; split; [auto|discriminate]).
  destruct (C60_map_handler_err _ extract_text G [] p _ tt _ _ R) as [N HN].
  destruct (C60_map_handler_err _ extract_span G [] p _ tt _ _ R) as [N' HN'].
  split; [exists N|exists N']; intros m Hm; unfold map_text, map_span, bind; [rewrite HN|rewrite HN']; auto.
Qed.

(** [ctx.map(&p, f)] and [ctx.ctor(&p.pat().try_map(f))] end alike in every context and under every
    policy, with any result; likewise [map_span] and [ctor_span]. *)
Theorem C60_map_is_ctor : forall G pols p f c r x',
  (Ends (fun n => map_text n G pols p f) (c, tt) r x' <->
   Ends (fun n x => ctor n G pols (PMap (PPat p) f) (fst x)) (c, tt) r x') /\
  (Ends (fun n => map_span n G pols p f) (c, tt) r x' <->
   Ends (fun n x => ctor_span n G pols (PMap (PPat p) f) (fst x)) (c, tt) r x').
Proof.
  intros G pols p f c r x'.
  assert (T : forall n, ctor (S (S n)) G pols (PMap (PPat p) f) c = map_text n G pols p f (c, tt)) by reflexivity.
  assert (U : forall n, ctor_span (S (S n)) G pols (PMap (PPat p) f) c = map_span n G pols p f (c, tt)) by reflexivity.
  split; split; intros [N H].
  - exists (S (S N)). intros [|[|n]] Hn; try lia. cbn [fst]. rewrite T. apply H. lia.
  - exists N. intros n Hn. rewrite <- T. apply (H (S (S n))). lia.
  - exists (S (S N)). intros [|[|n]] Hn; try lia. cbn [fst]. rewrite U. apply H. lia.
  - exists N. intros n Hn. rewrite <- U. apply (H (S (S n))). lia.
Qed.

(** [ctor] and [ctor_span] of a plain pattern: the matched text and its span. *)
Theorem C60_ctor : forall k G p w i b j, Matches k G p w i b j ->
  Ends (fun n x => ctor n G [] (PPat p) (fst x)) (cx k w i, tt) (Ok (VText (slice w b j))) (cx k w j, tt) /\
  Ends (fun n x => ctor_span n G [] (PPat p) (fst x)) (cx k w i, tt) (Ok (VSpan (sp k w b j))) (cx k w j, tt) /\
  Ends (fun n x => ctor_handler extract_unit tt n G [] (PPat p) (fst x)) (cx k w i, tt) (Ok VUnit) (cx k w j, tt).
Proof.
  intros k G p w i b j H.
  assert (R : forall h : handler unit, fst (h (cx k w j) (sp k w b j) tt) <> OOF ->
    exists N, forall n, N <= n -> construct h n G [] [] (PPat p) (cx k w i, tt) = (fst (h (cx k w j) (sp k w b j) tt), (cx k w j, tt))).
  { intros h O. destruct H as (H1 & H2 & n & H). eapply builds_at.
    replace tt with (snd (h (cx k w j) (sp k w b j) tt)) at 3 by now destruct (snd (h (cx k w j) (sp k w b j) tt)).
    apply pat_builds; auto. exists n; split; [auto|discriminate]. }
  split; [|split].
  - destruct (R extract_text) as [N HN]; [rewrite matched_text by apply H; discriminate|]. rewrite matched_text in HN by apply H. exists N. exact HN.
  - destruct (R extract_span) as [N HN]; [discriminate|]. exists N. exact HN.
  - destruct (R extract_unit) as [N HN]; [discriminate|]. exists N. exact HN.
Qed.

(** [try_mat_before], [try_mat_after]: the extra step runs before or after the pattern, on the cursor
    left by what ran first; the span returned is the pattern's; an error of the one that runs first
    stops the other. *)
Theorem C60_before : forall (pat before : M ctx span) c r1 c1, before c = (r1, c1) ->
  match r1 with
  | Ok _ => try_mat_before pat before c = pat c1
  | Err e => try_mat_before pat before c = (Err e, c1)
  | _ => True
  end.
Proof.
  intros pat before c r1 c1 H. unfold try_mat_before, try_mat_policy, bind, noop, ret. rewrite H.
  destruct r1; auto. now destruct (pat c1) as [[] ?].
Qed.
Theorem C60_after : forall (pat after : M ctx span) c r1 c1 r2 c2, pat c = (r1, c1) -> after c1 = (r2, c2) ->
  try_mat_after pat after c =
  match r1, r2 with
  | Ok s, Ok _ => (Ok s, c2)
  | Ok _, Err e => (Err e, c2)
  | Ok _, Panic => (Panic, c2)
  | Ok _, OOF => (OOF, c2)
  | _, _ => (r1, c1)
  end.
Proof.
  intros pat after c r1 c1 r2 c2 H H2. unfold try_mat_after, try_mat_policy, bind, noop, ret. rewrite H.
  destruct r1; auto. rewrite H2. now destruct r2.
Qed.
(** So an error after a successful match leaves the cursor moved. *)
Theorem C60_after_refuted : exists (pat after : M ctx span) c e c', pat c = (Ok (Span 0 1), at_off 1 c) /\
  try_mat_after pat after c = (Err e, c') /\ c_off c' <> c_off c.
Proof.
  exists (fun c => (Ok (Span 0 1), at_off 1 c)), (fun c => (Err EFail, c)), (cx KStr t1c23 0), EFail, (at_off 1 (cx KStr t1c23 0)).
  repeat split. vm_compute. discriminate.
Qed.

(** The digits of 1,23 from the third item on; the mapper of the second call rejects them. *)
Example C60_case :
  Matches KStr [] (PMany1 (NDigit 10) CEmpty) t1c23 2 2 4 /\ slice t1c23 2 4 = [50; 51]%N /\
  map_text 9 [] [] (PMany1 (NDigit 10) CEmpty) (try_map (from_str (ITy 4 true))) (cx KStr t1c23 2, tt) = (Ok (VNum 23), (cx KStr t1c23 4, tt)) /\
  map_text 9 [] [] (PMany1 (NDigit 10) CEmpty) (fun _ => Err EFromStr) (cx KStr t1c23 2, tt) = (Err EFromStr, (cx KStr t1c23 4, tt)) /\
  Fails KStr [] (PMany1 (NDigit 10) CEmpty) t1c23 1 EMany1.
Proof. split; [matches 9|]. split; [reflexivity|]. split; [vm_compute; reflexivity|]. split; [vm_compute; reflexivity|fails 9]. Qed.

Print Assumptions C60_map_handler.
Print Assumptions C60_map_handler_err.
Print Assumptions C60_map.
Print Assumptions C60_map_span.
Print Assumptions C60_map_err.
Print Assumptions C60_map_is_ctor.
Print Assumptions C60_ctor.
Print Assumptions C60_before.
Print Assumptions C60_after.
Print Assumptions C60_after_refuted.
