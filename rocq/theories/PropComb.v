(** Laws of the combinators, stated with [Matches], [Fails] (Obs.v): C07, C08, C11, C14, C16, C43,
    C44, C47, C48, C49. *)

From Coq Require Import List Arith NArith Bool Lia.
From Verif Require Import Base Text Context Neu Syntax Regex Ctor Api TextProofs Spec Core Obs Laws ApiLaws Samples.
Import ListNotations.

(** ** C07 *)

(** [a.or(b)] matches what [a] matches; only when [a] fails what [b] matches from the same position. *)
Theorem C07_or : forall k G, core_env k G no_skip -> forall p q w i b j,
  core k G no_skip p -> core k G no_skip q -> i <= length w ->
    (Matches k G (POr p q) w i b j <->
     Matches k G p w i b j \/ exists e, Fails k G p w i e /\ Matches k G q w i b j).
Proof. exact or_ok. Qed.

(** It fails when both fail, with [b]'s error. *)
Theorem C07_or_err : forall k G, core_env k G no_skip -> forall p q w i e,
  core k G no_skip p -> core k G no_skip q -> i <= length w ->
    (Fails k G (POr p q) w i e <-> exists e', Fails k G p w i e' /\ Fails k G q w i e).
Proof. exact or_err. Qed.

(** For arbitrary parsers, even ill-behaved closures: a success of [a] is the result. *)
Theorem C07_or_first : forall G p q c s c',
  Returns G [] p c (Ok s) c' -> Returns G [] (POr p q) c (Ok s) c'.
Proof. exact or_first. Qed.

(** And when [a] fails, [b] starts from the original offset wherever [a] left the cursor. *)
Theorem C07_or_second : forall G p q c e c1 r c2,
  Returns G [] p c (Err e) c1 -> Returns G [] q (at_off (c_off c) c1) r c2 ->
  Returns G [] (POr p q) c r (match r with Err _ => at_off (c_off c) c2 | _ => c2 end).
Proof. exact or_second. Qed.

(** [array], [vector], [slice], tuples of alternatives: the first element that matches, all earlier ones failing. *)
Theorem C07_choice : forall k G, core_env k G no_skip -> forall e ps w i b j,
  Forall (core k G no_skip) ps -> i <= length w ->
    (Matches k G (PChoice e false ps) w i b j <->
     exists pre p post, ps = pre ++ p :: post /\
       (forall q, In q pre -> exists e', Fails k G q w i e') /\ Matches k G p w i b j).
Proof. exact choice_ok. Qed.

(** When none matches, the container's own error. *)
Theorem C07_choice_err : forall k G, core_env k G no_skip -> forall e ps w i e',
  Forall (core k G no_skip) ps -> i <= length w ->
    (Fails k G (PChoice e false ps) w i e' <->
     e' = e /\ forall q, In q ps -> exists e', Fails k G q w i e').
Proof. exact choice_err. Qed.

(** The containers of (pattern, value) pairs match like the containers of their patterns. *)
Theorem C07_pair_choice : forall k G, core_env k G no_skip -> forall e ps w i,
  Forall (core k G no_skip) (map fst ps) -> i <= length w ->
    (forall b j, Matches k G (PPairChoice e false ps) w i b j <-> Matches k G (PChoice e false (map fst ps)) w i b j) /\
    (forall e', Fails k G (PPairChoice e false ps) w i e' <-> Fails k G (PChoice e false (map fst ps)) w i e').
Proof. exact pairchoice_same. Qed.

Example C07_case : core_env KStr [] no_skip /\ core KStr [] no_skip (POr number word) /\
  Matches KStr [] (POr word comma) sample 2 2 3 /\ Fails KStr [] word sample 2 EMany1 /\
  Fails KStr [] (POr number word) sample 2 EMany1 /\ Fails KStr [] (PChoice EVector false [number; word]) sample 2 EVector /\
  Matches KStr [] (PChoice EVector false [comma; number; word]) sample 3 3 5.
Proof.
  split; [apply sample_env_core|]. split; [shape|]. split; [matches 9|]. split; [fails 9|]. split; [fails 9|].
  split; [fails 9|]. matches 9.
Qed.

(** ** C08 *)

Theorem C08_then : forall k G, core_env k G no_skip -> forall p q w i b j,
  core k G no_skip p -> core k G no_skip q -> i <= length w ->
    (Matches k G (PThen p q) w i b j <-> exists m b', Matches k G p w i b m /\ Matches k G q w m b' j).
Proof. exact then_ok. Qed.

Theorem C08_then_err : forall k G, core_env k G no_skip -> forall p q w i e,
  core k G no_skip p -> core k G no_skip q -> i <= length w ->
    (Fails k G (PThen p q) w i e <->
     Fails k G p w i e \/ exists b m, Matches k G p w i b m /\ Fails k G q w m e).
Proof. exact then_err. Qed.

Theorem C08_prefix : forall k G, core_env k G no_skip -> forall p q w i b j,
  core k G no_skip p -> core k G no_skip q -> i <= length w ->
    (Matches k G (PPrefix p q) w i b j <-> exists m b', Matches k G q w i b m /\ Matches k G p w m b' j).
Proof. exact prefix_ok. Qed.

Theorem C08_prefix_err : forall k G, core_env k G no_skip -> forall p q w i e,
  core k G no_skip p -> core k G no_skip q -> i <= length w ->
    (Fails k G (PPrefix p q) w i e <->
     Fails k G q w i e \/ exists b m, Matches k G q w i b m /\ Fails k G p w m e).
Proof. exact prefix_err. Qed.

Theorem C08_suffix : forall k G, core_env k G no_skip -> forall p q w i b j,
  core k G no_skip p -> core k G no_skip q -> i <= length w ->
    (Matches k G (PSuffix p q) w i b j <-> exists m b', Matches k G p w i b m /\ Matches k G q w m b' j).
Proof. exact suffix_ok. Qed.

Theorem C08_suffix_err : forall k G, core_env k G no_skip -> forall p q w i e,
  core k G no_skip p -> core k G no_skip q -> i <= length w ->
    (Fails k G (PSuffix p q) w i e <->
     Fails k G p w i e \/ exists b m, Matches k G p w i b m /\ Fails k G q w m e).
Proof. exact suffix_err. Qed.

Theorem C08_enclose : forall k G, core_env k G no_skip -> forall p o c w i b j,
  core k G no_skip p -> core k G no_skip o -> core k G no_skip c -> i <= length w ->
    (Matches k G (PEnclose p o c) w i b j <->
     exists m b1 m' b2, Matches k G o w i b m /\ Matches k G p w m b1 m' /\ Matches k G c w m' b2 j).
Proof. exact enclose_ok. Qed.

Theorem C08_enclose_err : forall k G, core_env k G no_skip -> forall p o c w i e,
  core k G no_skip p -> core k G no_skip o -> core k G no_skip c -> i <= length w ->
    (Fails k G (PEnclose p o c) w i e <->
     Fails k G o w i e \/
     (exists b m, Matches k G o w i b m /\ Fails k G p w m e) \/
     (exists b m b1 m', Matches k G o w i b m /\ Matches k G p w m b1 m' /\ Fails k G c w m' e)).
Proof. exact enclose_err. Qed.

Theorem C08_sep_once : forall k G, core_env k G no_skip -> forall p s q w i b j,
  core k G no_skip p -> core k G no_skip s -> core k G no_skip q -> i <= length w ->
    (Matches k G (PSepOnce p s q) w i b j <->
     b = i /\ exists b0 m b1 m' b2, Matches k G p w i b0 m /\ Matches k G s w m b1 m' /\ Matches k G q w m' b2 j).
Proof. exact seponce_ok. Qed.

Theorem C08_sep_once_err : forall k G, core_env k G no_skip -> forall p s q w i e,
  core k G no_skip p -> core k G no_skip s -> core k G no_skip q -> i <= length w ->
    (Fails k G (PSepOnce p s q) w i e <->
     Fails k G p w i e \/
     (exists b m, Matches k G p w i b m /\ Fails k G s w m e) \/
     (exists b m b1 m', Matches k G p w i b m /\ Matches k G s w m b1 m' /\ Fails k G q w m' e)).
Proof. exact seponce_err. Qed.

Example C08_case : core_env KStr [] no_skip /\ core KStr [] no_skip array /\
  Matches KStr [] (PThen comma number) sample 2 2 5 /\ Fails KStr [] (PThen comma comma) sample 2 ELiteral /\
  Matches KStr [] (PPrefix number comma) sample 2 2 5 /\ Matches KStr [] (PSuffix number comma) sample 1 1 3 /\
  Matches KStr [] array sample 0 0 6 /\ Fails KStr [] (PEnclose number lbrack rbrack) sample 0 ELiteral /\
  Matches KStr [] (PSepOnce number comma number) sample 1 1 5.
Proof.
  split; [apply sample_env_core|]. split; [shape|]. split; [matches 9|]. split; [fails 9|]. split; [matches 9|].
  split; [matches 9|]. split; [matches 19|]. split; [fails 9|]. matches 9.
Qed.

(** ** C11 *)

(** [peek(p)] is [PAssert p true], [not(p)] is [PAssert p false]. *)
Theorem C11_peek : forall k G, core_env k G no_skip -> forall p v w i b j,
  core k G no_skip p -> i <= length w ->
    (Matches k G (PAssert p v) w i b j <->
     b = i /\ j = i /\ if v then exists b' j', Matches k G p w i b' j' else exists e, Fails k G p w i e).
Proof. exact peek_ok. Qed.

Theorem C11_peek_err : forall k G, core_env k G no_skip -> forall p v w i e,
  core k G no_skip p -> i <= length w ->
    (Fails k G (PAssert p v) w i e <->
     if v then e = EAssertTrue /\ exists e', Fails k G p w i e'
     else e = EAssertFalse /\ exists b' j', Matches k G p w i b' j').
Proof. exact peek_err. Qed.

(** For every parser whatsoever, wherever it leaves the cursor: the offset is put back. *)
Theorem C11_any_pattern : forall G p v c r c1,
  Returns G [] p c r c1 ->
  Returns G [] (PAssert p v) c
    (match r with
     | Ok _ => if v then Ok (Span (c_off c) 0) else Err EAssertFalse
     | Err _ => if v then Err EAssertTrue else Ok (Span (c_off c) 0)
     | Panic => Panic
     | OOF => OOF
     end)
    (match r with Ok _ | Err _ => at_off (c_off c) c1 | _ => c1 end).
Proof. exact assert_any. Qed.

(** [ctx.try_assert(&p)] (any policies): [Ok(whether p matches)], offset put back. *)
Theorem C11_try_assert : forall G pols p c r c1,
  Returns G pols p c r c1 ->
  exists n, forall m, n <= m ->
  try_assert m G pols p c =
  match r with
  | Ok _ => (Ok true, at_off (c_off c) c1)
  | Err _ => (Ok false, at_off (c_off c) c1)
  | Panic => (Panic, c1)
  | OOF => (OOF, c1)
  end.
Proof. exact try_assert_any. Qed.

(** [ctx.is_mat(&p)] tells the same but keeps the match's cursor. *)
Theorem C11_is_mat : forall G pols p c r c1,
  Returns G pols p c r c1 ->
  exists n, forall m, n <= m ->
  is_mat m G pols p c =
  match r with Ok _ => (Ok true, c1) | Err _ => (Ok false, c1) | Panic => (Panic, c1) | OOF => (OOF, c1) end.
Proof. exact is_mat_any. Qed.

Example C11_case : core_env KStr [] no_skip /\ core KStr [] no_skip array /\
  Matches KStr [] (PAssert array true) sample 0 0 0 /\ Fails KStr [] (PAssert array false) sample 0 EAssertFalse /\
  Matches KStr [] (PAssert array false) sample 1 1 1 /\ Fails KStr [] (PAssert array true) sample 1 EAssertTrue /\
  Returns [] [] (PFn (fun c => (Err EFail, at_off 7 c))) (cx KStr sample 0) (Err EFail) (Ctx KStr sample 7).
Proof.
  split; [apply sample_env_core|]. split; [shape|]. split; [matches 19|]. split; [fails 19|]. split; [matches 19|].
  split; [fails 19|]. returns 9.
Qed.

(** ** C14: for parsers whose span starts at the cursor; otherwise see C14_longest_refuted *)

Theorem C14_longest_partial : forall k G, core_env k G no_skip -> forall p q w i b j,
  core k G no_skip p -> core k G no_skip q -> starts_here k G no_skip p -> starts_here k G no_skip q ->
    i <= length w ->
    (Matches k G (PLongest p q) w i b j <->
     b = i /\
     ((exists j', Matches k G p w i i j /\ Matches k G q w i i j' /\ j' <= j) \/
      (exists j', Matches k G p w i i j' /\ Matches k G q w i i j /\ j' < j) \/
      (exists e, Matches k G p w i i j /\ Fails k G q w i e) \/
      (exists e, Fails k G p w i e /\ Matches k G q w i i j))).
Proof. exact longest_ok. Qed.

Theorem C14_longest_err_partial : forall k G, core_env k G no_skip -> forall p q w i e,
  core k G no_skip p -> core k G no_skip q -> starts_here k G no_skip p -> starts_here k G no_skip q ->
    i <= length w ->
    (Fails k G (PLongest p q) w i e <-> exists e', Fails k G p w i e' /\ Fails k G q w i e).
Proof. exact longest_err. Qed.

Example C14_case : core_env KStr [] no_skip /\
  core KStr [] no_skip (PThen number comma) /\ core KStr [] no_skip number /\
  starts_here KStr [] no_skip (PThen number comma) /\ starts_here KStr [] no_skip number /\
  Matches KStr [] (PLongest number (PThen number comma)) sample 1 1 3 /\
  Matches KStr [] (PLongest (PThen number comma) number) sample 1 1 3 /\
  Fails KStr [] (PLongest number comma) sample 0 ELiteral.
Proof.
  split; [apply sample_env_core|]. split; [shape|]. split; [shape|].
  split; [apply starts_then, starts_number|]. split; [apply starts_number|].
  split; [matches 9|]. split; [matches 9|]. fails 9.
Qed.

(** ** C16 *)

(** [p.sep(s)] (trailing separator optional), see [Alternation] in Obs.v; [step_of p w i j]: [p] matches at [i] and ends at [j]; [stop_of p w i]: it fails at [i]. *)
Theorem C16_sep : forall k G, core_env k G no_skip -> forall p s mn w i b j,
  core k G no_skip p -> core k G no_skip s -> i <= length w ->
    (Matches k G (PSep p s mn true) w i b j <-> b = i /\ exists n, Alternation (step_of k G p w) (step_of k G s w) (stop_of k G p w) (stop_of k G s w) None i n j /\ mn <= n).
Proof. exact sep_ok. Qed.

Theorem C16_sep_err : forall k G, core_env k G no_skip -> forall p s mn w i e,
  core k G no_skip p -> core k G no_skip s -> i <= length w ->
    (Fails k G (PSep p s mn true) w i e <-> e = ESeparate /\ exists n j, Alternation (step_of k G p w) (step_of k G s w) (stop_of k G p w) (stop_of k G s w) None i n j /\ n < mn).
Proof. exact sep_err. Qed.

Theorem C16_sep_collect : forall k G, core_env k G no_skip -> forall p s mn w i b j,
  core k G no_skip p -> core k G no_skip s -> i <= length w ->
    (Matches k G (PSepCollect p s mn true) w i b j <-> b = i /\ exists n, Alternation (step_of k G p w) (step_of k G s w) (stop_of k G p w) (stop_of k G s w) None i n j /\ mn <= n).
Proof. exact sepcollect_ok. Qed.

Theorem C16_sep_collect_err : forall k G, core_env k G no_skip -> forall p s mn w i e,
  core k G no_skip p -> core k G no_skip s -> i <= length w ->
    (Fails k G (PSepCollect p s mn true) w i e <->
     e = ESepCollect /\ exists n j, Alternation (step_of k G p w) (step_of k G s w) (stop_of k G p w) (stop_of k G s w) None i n j /\ n < mn).
Proof. exact sepcollect_err. Qed.

Example C16_case : core_env KStr [] no_skip /\ core KStr [] no_skip number /\ core KStr [] no_skip comma /\
  Matches KStr [] (PSep number comma 2 true) sample 1 1 5 /\ Fails KStr [] (PSep number comma 3 true) sample 1 ESeparate /\
  Matches KStr [] (PSep number comma 1 true) [49; 44; 65]%N 0 0 2 /\
  Matches KStr [] (PSepCollect number comma 2 true) sample 1 1 5 /\ Fails KStr [] (PSepCollect number comma 3 true) sample 1 ESepCollect.
Proof.
  split; [apply sample_env_core|]. split; [shape|]. split; [shape|]. split; [matches 19|]. split; [fails 19|].
  split; [matches 19|]. split; [matches 19|]. fails 19.
Qed.

(** ** C43 *)

Theorem C43_branch : forall k G, core_env k G no_skip -> forall t p q w i b j,
  (forall c, decides (t c)) -> core k G no_skip p -> core k G no_skip q -> i <= length w ->
    (Matches k G (PBranch t p q) w i b j <->
     (t (cx k w i) = Ok true /\ Matches k G p w i b j) \/ (t (cx k w i) = Ok false /\ Matches k G q w i b j)).
Proof. exact branch_ok. Qed.

Theorem C43_branch_err : forall k G, core_env k G no_skip -> forall t p q w i e,
  (forall c, decides (t c)) -> core k G no_skip p -> core k G no_skip q -> i <= length w ->
    (Fails k G (PBranch t p q) w i e <->
     (t (cx k w i) = Ok true /\ Fails k G p w i e) \/ (t (cx k w i) = Ok false /\ Fails k G q w i e) \/
     t (cx k w i) = Err e).
Proof. exact branch_err. Qed.

(** For every parser, and in constructing mode. *)
Theorem C43_any_pattern : forall G t p q c b r c1,
  t c = Ok b ->
  Returns G [] (if b : bool then p else q) c r c1 ->
  Returns G [] (PBranch t p q) c r (match r with Err _ => at_off (c_off c) c1 | _ => c1 end).
Proof. exact branch_any. Qed.

Theorem C43_test_error : forall G t p q c e,
  t c = Err e -> Returns G [] (PBranch t p q) c (Err e) c.
Proof. exact branch_test_err. Qed.

Theorem C43_ctor : forall (S : Type) (h : handler S) G pols t p q c s b r c1 s1,
  t c = Ok b ->
  Builds h G pols (if b : bool then p else q) c s r c1 s1 ->
  Builds h G pols (PBranch t p q) c s r (match r with Err _ => at_off (c_off c) c1 | _ => c1 end) s1.
Proof. exact @branch_builds. Qed.

Theorem C43_ctor_test_error : forall (S : Type) (h : handler S) G pols t p q c s e,
  t c = Err e ->
  Builds h G pols (PBranch t p q) c s (Err e) c s.
Proof. exact @branch_builds_err. Qed.

Example C43_case : let t := fun c => if c_off c =? 0 then Ok true else if c_off c =? 1 then Ok false else Err EFail in
  (forall c, decides (t c)) /\ core_env KStr [] no_skip /\ core KStr [] no_skip (PBranch t array number) /\
  Matches KStr [] (PBranch t array number) sample 0 0 6 /\ Matches KStr [] (PBranch t array number) sample 1 1 2 /\
  Fails KStr [] (PBranch t array number) sample 3 EFail.
Proof.
  cbv zeta. assert (D : forall c, decides (if c_off c =? 0 then Ok true else if c_off c =? 1 then Ok false else Err EFail)).
  { intros c. destruct (c_off c =? 0); [exact I|]. destruct (c_off c =? 1); exact I. }
  split; [exact D|]. split; [apply sample_env_core|]. split; [apply core_branch; [exact D|shape|shape]|].
  split; [matches 19|]. split; [matches 19|]. fails 19.
Qed.

(** ** C44 *)

Theorem C44_if_then : forall k G, core_env k G no_skip -> forall p t q w i b j,
  core k G no_skip p -> core k G no_skip t -> core k G no_skip q -> i <= length w ->
    (Matches k G (PIfThen p t q) w i b j <->
     (exists e, Matches k G p w i b j /\ Fails k G t w j e) \/
     (exists m b1 m' b2, Matches k G p w i b m /\ Matches k G t w m b1 m' /\ Matches k G q w m' b2 j)).
Proof. exact ifthen_ok. Qed.

Theorem C44_if_then_err : forall k G, core_env k G no_skip -> forall p t q w i e,
  core k G no_skip p -> core k G no_skip t -> core k G no_skip q -> i <= length w ->
    (Fails k G (PIfThen p t q) w i e <->
     Fails k G p w i e \/
     (exists b m b1 m', Matches k G p w i b m /\ Matches k G t w m b1 m' /\ Fails k G q w m' e)).
Proof. exact ifthen_err. Qed.

Example C44_case : core_env KStr [] no_skip /\ core KStr [] no_skip (PIfThen number comma number) /\
  Matches KStr [] (PIfThen number comma number) sample 1 1 5 /\ Matches KStr [] (PIfThen number comma number) sample 3 3 5 /\
  Fails KStr [] (PIfThen number comma rbrack) sample 1 ELiteral.
Proof.
  split; [apply sample_env_core|]. split; [shape|]. split; [matches 19|]. split; [matches 19|]. fails 19.
Qed.

(** ** C47 *)

(** [p.repeat(range)]: the greedy number of repetitions capped by the range's upper end lies in the range ([Greedy], [InRange], [cap] in Obs.v). *)
Theorem C47_repeat : forall k G, core_env k G no_skip -> forall p r w i b j,
  core k G no_skip p -> i <= length w ->
    (Matches k G (PRepeat p r) w i b j <->
     b = i /\ exists n, Greedy (step_of k G p w) (stop_of k G p w) (cap r) i n j /\ InRange r n).
Proof. exact repeat_ok. Qed.

Theorem C47_repeat_err : forall k G, core_env k G no_skip -> forall p r w i e,
  core k G no_skip p -> i <= length w ->
    (Fails k G (PRepeat p r) w i e <->
     e = ERepeat /\ exists n j, Greedy (step_of k G p w) (stop_of k G p w) (cap r) i n j /\ ~ InRange r n).
Proof. exact repeat_err. Qed.

Theorem C47_collect : forall k G, core_env k G no_skip -> forall p mn w i b j,
  core k G no_skip p -> i <= length w ->
    (Matches k G (PCollect p mn) w i b j <->
     b = i /\ exists n, Greedy (step_of k G p w) (stop_of k G p w) None i n j /\ mn <= n).
Proof. exact collect_ok. Qed.

Theorem C47_collect_err : forall k G, core_env k G no_skip -> forall p mn w i e,
  core k G no_skip p -> i <= length w ->
    (Fails k G (PCollect p mn) w i e <->
     e = ECollect /\ exists n j, Greedy (step_of k G p w) (stop_of k G p w) None i n j /\ n < mn).
Proof. exact collect_err. Qed.

Example C47_case : let p := PThen number (POption comma) in core_env KStr [] no_skip /\ core KStr [] no_skip p /\
  Matches KStr [] (PRepeat p (CRange (Incl 1) (Excl 3))) sample 1 1 5 /\
  Matches KStr [] (PRepeat p (CRange (Incl 1) (Excl 2))) sample 1 1 3 /\
  Fails KStr [] (PRepeat p (CRange (Excl 2) Unb)) sample 1 ERepeat /\
  Matches KStr [] (PCollect p 2) sample 1 1 5 /\ Fails KStr [] (PCollect p 3) sample 1 ECollect.
Proof.
  cbv zeta. split; [apply sample_env_core|]. split; [shape|]. split; [matches 19|]. split; [matches 19|].
  split; [fails 19|]. split; [matches 19|]. fails 19.
Qed.

(** ** C48 *)

(** [Box], [Rc], [Arc], [RefCell], [Cell], [Some(p)], references. *)
Theorem C48_wrappers : forall G pols p c r c',
  Returns G pols (PWrap p) c r c' <-> Returns G pols p c r c'.
Proof. exact wrap_returns. Qed.

Theorem C48_wrappers_ctor : forall (S : Type) (h : handler S) G pols p c s r c' s',
  Builds h G pols (PWrap p) c s r c' s' <-> Builds h G pols p c s r c' s'.
Proof. exact @wrap_builds. Qed.

(** [p.pat()]. *)
Theorem C48_pat : forall G p c r c',
  Returns G [] (PPat p) c r c' <-> Returns G [] p c r c'.
Proof. exact pat_returns. Qed.

Theorem C48_pat_ctor : forall (S : Type) (h : handler S) G pols p c s span c',
  Returns G pols p c (Ok span) c' ->
  fst (h c' span s) <> OOF ->
  Builds h G pols (PPat p) c s (fst (h c' span s)) c' (snd (h c' span s)).
Proof. exact @pat_builds. Qed.

Theorem C48_pat_ctor_err : forall (S : Type) (h : handler S) G pols p c s e c',
  Returns G pols p c (Err e) c' -> Builds h G pols (PPat p) c s (Err e) c' s.
Proof. exact @pat_builds_err. Qed.

(** [p.map(f)] matches like [p]. *)
Theorem C48_map : forall G p f c r c',
  Returns G [] (PMap p f) c r c' <-> Returns G [] p c r c'.
Proof. exact map_returns. Qed.

Theorem C48_leaf : forall G pols p c r c',
  Returns G pols (PLeaf p) c r c' <-> Returns G pols p c r c'.
Proof. exact leaf_returns. Qed.

(** [None]. *)
Theorem C48_none : forall G c,
  Returns G [] PNoneP c (Err EOption) c.
Proof. exact nonep_returns. Qed.

Theorem C48_none_ctor : forall (S : Type) (h : handler S) G pols c s,
  Builds h G pols PNoneP c s (Err EOption) c s.
Proof. exact @nonep_builds. Qed.

Example C48_case : Returns [] [] (PWrap (PWrap array)) (cx KStr sample 0) (Ok (Span 0 6)) (cx KStr sample 6) /\
  Builds extract_text [] [] (PWrap (PPat array)) (cx KStr sample 0) tt (Ok (VText (firstn 6 sample))) (cx KStr sample 6) tt.
Proof. split; returns 19. Qed.

(** ** C49 *)

Theorem C49_never_fails : forall G p c e c',
  ~ Returns G [] (POption p) c (Err e) c'.
Proof. exact option_never_fails. Qed.

Theorem C49_never_fails_ctor : forall (S : Type) (h : handler S) G pols p c s e c' s',
  ~ Builds h G pols (POption p) c s (Err e) c' s'.
Proof. exact @option_never_fails_ctor. Qed.

Theorem C49_any_pattern : forall G p c r c1,
  Returns G [] p c r c1 ->
  Returns G [] (POption p) c
    (match r with Err _ => Ok (Span (c_off c) 0) | r => r end)
    (match r with Err _ => at_off (c_off c) c1 | _ => c1 end).
Proof. exact option_any. Qed.

Theorem C49_any_pattern_ctor : forall (S : Type) (h : handler S) G pols p c s r c1 s1,
  Builds h G pols p c s r c1 s1 ->
  Builds h G pols (POption p) c s
    (match r with Ok v => Ok (VSome v) | Err _ => Ok VNone | r => r end)
    (match r with Err _ => at_off (c_off c) c1 | _ => c1 end) s1.
Proof. exact @option_builds_any. Qed.

Theorem C49_option : forall k G, core_env k G no_skip -> forall p w i b j,
  core k G no_skip p -> i <= length w ->
    (Matches k G (POption p) w i b j <->
     Matches k G p w i b j \/ (b = i /\ j = i /\ exists e, Fails k G p w i e)).
Proof. exact option_ok. Qed.

Example C49_case : core_env KStr [] no_skip /\ core KStr [] no_skip array /\
  Matches KStr [] (POption array) sample 0 0 6 /\ Matches KStr [] (POption array) sample 1 1 1 /\
  Builds extract_text [] [] (POption (PPat array)) (cx KStr sample 1) tt (Ok VNone) (cx KStr sample 1) tt.
Proof.
  split; [apply sample_env_core|]. split; [shape|]. split; [matches 19|]. split; [matches 19|]. returns 19.
Qed.

Print Assumptions C07_or.
Print Assumptions C07_or_err.
Print Assumptions C07_or_first.
Print Assumptions C07_or_second.
Print Assumptions C07_choice.
Print Assumptions C07_choice_err.
Print Assumptions C07_pair_choice.
Print Assumptions C08_then.
Print Assumptions C08_then_err.
Print Assumptions C08_prefix.
Print Assumptions C08_prefix_err.
Print Assumptions C08_suffix.
Print Assumptions C08_suffix_err.
Print Assumptions C08_enclose.
Print Assumptions C08_enclose_err.
Print Assumptions C08_sep_once.
Print Assumptions C08_sep_once_err.
Print Assumptions C11_peek.
Print Assumptions C11_peek_err.
Print Assumptions C11_any_pattern.
Print Assumptions C11_try_assert.
Print Assumptions C11_is_mat.
Print Assumptions C14_longest_partial.
Print Assumptions C14_longest_err_partial.
Print Assumptions C16_sep.
Print Assumptions C16_sep_err.
Print Assumptions C16_sep_collect.
Print Assumptions C16_sep_collect_err.
Print Assumptions C43_branch.
Print Assumptions C43_branch_err.
Print Assumptions C43_any_pattern.
Print Assumptions C43_test_error.
Print Assumptions C43_ctor.
Print Assumptions C43_ctor_test_error.
Print Assumptions C44_if_then.
Print Assumptions C44_if_then_err.
Print Assumptions C47_repeat.
Print Assumptions C47_repeat_err.
Print Assumptions C47_collect.
Print Assumptions C47_collect_err.
Print Assumptions C48_wrappers.
Print Assumptions C48_wrappers_ctor.
Print Assumptions C48_pat.
Print Assumptions C48_pat_ctor.
Print Assumptions C48_pat_ctor_err.
Print Assumptions C48_map.
Print Assumptions C48_leaf.
Print Assumptions C48_none.
Print Assumptions C48_none_ctor.
Print Assumptions C49_never_fails.
Print Assumptions C49_never_fails_ctor.
Print Assumptions C49_any_pattern.
Print Assumptions C49_any_pattern_ctor.
Print Assumptions C49_option.
