(** C23, C24: termination and non-termination. *)

From Coq Require Import List Arith NArith Bool Lia.
From Verif Require Import Base Text Context Neu Syntax Regex Ctor Api TextProofs Spec Core Obs Term Consumes TermLaws Diverge CtorSpec PolicyLaws CtorLaws Samples PropPolicy.
Import ListNotations.

(** ** C23 *)

(** On every input [try_mat] returns, for every parser in which unbounded loop bodies consume and
    recursion that can be reached without consuming is ranked ([wf], Term.v); with policies too. *)
Theorem C23_matching_terminates : forall k G sk pols,
  skipper sk -> implements k G sk pols -> core_env k G sk ->
  forall rk m p w i, wf_env k G sk rk -> wf k G sk rk m p -> core k G sk p -> i <= length w ->
  exists r c', Returns G pols p (cx k w i) r c'.
Proof. exact match_total. Qed.

(** A purely syntactic check is enough: [wfb] (TermLaws.v) on the parser and on every recursive
    parser, with [K] telling which recursive parsers consume (checked too). *)
Theorem C23_checked_terminates : forall k G sk pols,
  skipper sk -> implements k G sk pols -> core_env k G sk ->
  forall K rk L, (forall x p, env_get G x = Some p -> K x = true -> consumes K p = true) ->
  forall m p w i, (forall x q, env_get G x = Some q -> wfb K rk L (rk x) q = true) ->
  core k G sk p -> wfb K rk L m p = true -> i <= length w ->
  exists r c', Returns G pols p (cx k w i) r c'.
Proof. exact checked_total. Qed.

(** Construction returns as well, whatever the handler builds. *)
Theorem C23_construction_terminates : forall k G sk pols,
  skipper sk -> implements k G sk pols ->
  forall HV S (h : handler S) rk m p w i st,
  tcore_env k G sk HV -> tcore k G sk HV p ->
  (forall w x b j st, x <= length w -> b <= j -> j <= length w ->
     exists v, fst (h (cx k w x) (sp k w b j) st) = Ok v /\ HV w b j v) ->
  wf_env k G sk rk -> wf k G sk rk m p -> i <= length w ->
  exists r c' st', Builds h G pols p (cx k w i) st r c' st'.
Proof. exact build_total. Qed.

(** The nested arrays of Samples.v pass the check: they recurse only after consuming a bracket. *)
Example C23_case : let sk := skip_run NAsciiWhitespace in let K := fun _ => true in let rk := fun _ => 0 in
  skipper sk /\ implements KStr nested_env sk skip_ascii_whitespace /\ core_env KStr nested_env sk /\
  (forall x p, env_get nested_env x = Some p -> K x = true -> consumes K p = true) /\
  (forall x q, env_get nested_env x = Some q -> wfb K rk 1 (rk x) q = true) /\
  core KStr nested_env sk (PRef 0) /\ wfb K rk 1 1 (PCollect (PRef 0) 0) = true.
Proof.
  cbv zeta. split; [apply skip_run_skipper|]. split; [apply skip_ascii_implements|]. split; [closed_env; shape|].
  split; [closed_env; reflexivity|]. split; [closed_env; reflexivity|]. split; [shape|reflexivity].
Qed.
Example C23_ctor_case : tcore_env KStr nested_env no_skip is_slice /\ tcore KStr nested_env no_skip is_slice (PCollect (PRef 0) 0) /\
  (forall w x b j (st : unit), x <= length w -> b <= j -> j <= length w ->
     exists v, fst (extract_text (cx KStr w x) (sp KStr w b j) st) = Ok v /\ is_slice w b j v).
Proof. split; [closed_env; tshape|]. split; [tshape|]. apply extract_text_slice. Qed.

(** ** C24 *)

(** An unbounded loop over a body that matches the empty string at the cursor never returns. *)
Theorem C24_repeat : forall G c p lo,
  Returns G [] p c (Ok (Span (c_off c) 0)) c -> Diverges G [] (PRepeat p (CRange lo Unb)) c.
Proof. exact repeat_diverges. Qed.
Theorem C24_collect : forall G c p mn,
  Returns G [] p c (Ok (Span (c_off c) 0)) c -> Diverges G [] (PCollect p mn) c.
Proof. exact collect_diverges. Qed.
Theorem C24_sep : forall G c p s mn skip,
  Returns G [] p c (Ok (Span (c_off c) 0)) c -> Returns G [] s c (Ok (Span (c_off c) 0)) c ->
  Diverges G [] (PSep p s mn skip) c.
Proof. exact sep_diverges. Qed.
Theorem C24_sep_collect : forall G c p s mn skip,
  Returns G [] p c (Ok (Span (c_off c) 0)) c -> Returns G [] s c (Ok (Span (c_off c) 0)) c ->
  Diverges G [] (PSepCollect p s mn skip) c.
Proof. exact sepcollect_diverges. Qed.
(** Also when the loop first makes progress and only later reaches such a position. *)
Theorem C24_repeat_later : forall k G, core_env k G no_skip -> forall w p lo i j,
  core k G no_skip p -> i <= length w ->
  Steps (fun a a' => exists b, Matches k G p w a b a') i j -> Matches k G p w j j j ->
  Diverges G [] (PRepeat p (CRange lo Unb)) (cx k w i).
Proof. exact repeat_diverges_later. Qed.
Theorem C24_collect_later : forall k G, core_env k G no_skip -> forall w p mn i j,
  core k G no_skip p -> i <= length w ->
  Steps (fun a a' => exists b, Matches k G p w a b a') i j -> Matches k G p w j j j ->
  Diverges G [] (PCollect p mn) (cx k w i).
Proof. exact collect_diverges_later. Qed.
(** In constructing mode: [stuck h G pols c p] says that from [c] the element is always built and
    the cursor does not move, whatever the handler state. *)
Theorem C24_ctor_repeat : forall S (h : handler S) G pols c p lo s,
  stuck h G pols c p -> BuildDiverges h G pols (PRepeat p (CRange lo Unb)) c s.
Proof. exact @repeat_build_diverges. Qed.
Theorem C24_ctor_collect : forall S (h : handler S) G pols c p mn s,
  stuck h G pols c p -> BuildDiverges h G pols (PCollect p mn) c s.
Proof. exact @collect_build_diverges. Qed.
(** [idle G pols c q]: the separator matches at [c] without moving the cursor. *)
Theorem C24_ctor_sep : forall S (h : handler S) G pols c p q mn skip s,
  stuck h G pols c p -> idle G pols c q -> BuildDiverges h G pols (PSep p q mn skip) c s.
Proof. exact @sep_build_diverges. Qed.
Theorem C24_ctor_sep_collect : forall S (h : handler S) G pols c p q mn skip s,
  stuck h G pols c p -> idle G pols c q -> BuildDiverges h G pols (PSepCollect p q mn skip) c s.
Proof. exact @sepcollect_build_diverges. Qed.
(** Matching in a context with policies: the position where the body matches the empty text is the
    one behind the skipped text. *)
Theorem C24_policies : forall G pols c0 c p, Skips G pols c0 c ->
  Returns G pols p c (Ok (Span (c_off c) 0)) c ->
  (forall lo, Diverges G pols (PRepeat p (CRange lo Unb)) c0) /\
  (forall mn, Diverges G pols (PCollect p mn) c0) /\
  (forall s mn skip, Returns G pols s c (Ok (Span (c_off c) 0)) c ->
     Diverges G pols (PSep p s mn skip) c0 /\ Diverges G pols (PSepCollect p s mn skip) c0).
Proof.
  intros G [|r rest] c0 c p Sk H.
  - cbn in Sk. subst c0. split; [intros lo; now apply repeat_diverges|].
    split; [intros mn; now apply collect_diverges|]. intros s mn skip K.
    split; [now apply sep_diverges|now apply sepcollect_diverges].
  - split; [intros lo; now apply (repeat_diverges_pols G r rest c0 c)|].
    split; [intros mn; now apply (collect_diverges_pols G r rest c0 c)|]. intros s mn skip K.
    split; [now apply (sep_diverges_pols G r rest c0 c)|now apply (sepcollect_diverges_pols G r rest c0 c)].
Qed.

(** [digit.many0().repeat(0..)]: first consumes the digits, then loops for ever. *)
Example C24_case : let p := PMany0 NAsciiDigit CEmpty in
  core_env KStr [] no_skip /\ core KStr [] no_skip p /\
  Steps (fun a a' => exists b, Matches KStr [] p sample a b a') 3 5 /\ Matches KStr [] p sample 5 5 5 /\
  Returns [] [] p (cx KStr sample 0) (Ok (Span (c_off (cx KStr sample 0)) 0)) (cx KStr sample 0) /\
  stuck extract_text [] [] (cx KStr sample 0) (PPat p).
Proof.
  cbv zeta. split; [apply sample_env_core|]. split; [shape|].
  split; [apply steps_more with 5; [exists 3; matches 9|apply steps_here]|]. split; [matches 9|]. split; [returns 9|].
  intros s. exists (VText []), s. returns 9.
Qed.
(** Blanks are skipped first, then optional digits separated by an optional comma loop for ever. *)
Example C24_policies_case : let p := PMany0 NAsciiDigit CEmpty in let q := POpt (NChar 44%N) CEmpty in let w := [32; 32; 97]%N in
  Skips [] skip_ascii_whitespace (cx KStr w 0) (cx KStr w 2) /\
  Returns [] skip_ascii_whitespace p (cx KStr w 2) (Ok (Span (c_off (cx KStr w 2)) 0)) (cx KStr w 2) /\
  Returns [] skip_ascii_whitespace q (cx KStr w 2) (Ok (Span (c_off (cx KStr w 2)) 0)) (cx KStr w 2) /\
  idle [] skip_ascii_whitespace (cx KStr w 2) q /\ stuck extract_text [] skip_ascii_whitespace (cx KStr w 2) (PPat p).
Proof.
  cbv zeta. split; [exists 9; eexists; vm_compute; reflexivity|]. split; [returns 9|]. split; [returns 9|].
  split; [eexists; returns 9|]. intros s. exists (VText []), s. returns 9.
Qed.

Print Assumptions C23_matching_terminates.
Print Assumptions C23_checked_terminates.
Print Assumptions C23_construction_terminates.
Print Assumptions C24_repeat.
Print Assumptions C24_collect.
Print Assumptions C24_sep.
Print Assumptions C24_sep_collect.
Print Assumptions C24_repeat_later.
Print Assumptions C24_collect_later.
Print Assumptions C24_ctor_repeat.
Print Assumptions C24_ctor_collect.
Print Assumptions C24_ctor_sep.
Print Assumptions C24_ctor_sep_collect.
Print Assumptions C24_policies.
