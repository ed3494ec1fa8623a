(** Constructing mode: C15, C16 (without the optional last element), C17, C18, C19, C20, C21, C22,
    C30, and the constructing halves of C07, C08, C14, C44, C47.  [Builds h G pols p c s r c' s'] is
    "[ctx.ctor_handler(&p, &mut h)] returns [r]" (Obs.v). *)

From Coq Require Import List Arith NArith Bool Lia.
From Verif Require Import Base Text Context Neu Syntax Regex Ctor Api TextProofs Spec Core Obs Laws ApiLaws Boundary Atomic CtorSpec CtorLaws CtorShape LoopLaws SeqLaws AgreeLaws Samples.
Import ListNotations.

(** A digit. *)
Definition dg : pat := POnce NAsciiDigit CEmpty.
Definition alpha : pat := PMany1 NAsciiAlphabetic CEmpty.
(** "1234", "1,2,3,4", "1,23". *)
Definition t1234 : text := [49; 50; 51; 52]%N.
Definition t1c2c3c4 : text := [49; 44; 50; 44; 51; 44; 52]%N.
Definition t1c23 : text := [49; 44; 50; 51]%N.

Ltac builds n := exists n; split; [vm_compute; reflexivity|discriminate].

(** ** C07, C08, C14, C44: constructing mode, for arbitrary parts *)

(** [a.or(b)]: what [a] builds; if [a] fails, what [b] builds from the same offset. *)
Theorem C07_ctor_or_first : forall S (h : handler S) G pols p q c s v c' s',
  Builds h G pols p c s (Ok v) c' s' -> Builds h G pols (POr p q) c s (Ok v) c' s'.
Proof. exact @or_builds_first. Qed.
Theorem C07_ctor_or_second : forall S (h : handler S) G pols p q c s e c1 s1 r c' s',
  Builds h G pols p c s (Err e) c1 s1 -> Builds h G pols q (at_off (c_off c) c1) s1 r c' s' ->
  Builds h G pols (POr p q) c s r (match r with Err _ => at_off (c_off c) c' | _ => c' end) s'.
Proof. exact @or_builds_second. Qed.
(** The containers build what their first successful alternative builds ([BuildFirst], SeqLaws.v). *)
Theorem C07_ctor_choice : forall S (h : handler S) G pols e ps c s r c' s',
  BuildFirst h G pols (c_off c) e c s (plain ps) r c' s' -> Builds h G pols (PChoice e false ps) c s r c' s'.
Proof. exact @choice_builds. Qed.
(** The key-value containers pair it with the value stored under that alternative. *)
Theorem C07_ctor_pair_choice : forall S (h : handler S) G pols e ps c s r c' s',
  BuildFirst h G pols (c_off c) e c s (keyed ps) r c' s' -> Builds h G pols (PPairChoice e false ps) c s r c' s'.
Proof. exact @pairchoice_builds. Qed.

Example C07_ctor_case : Builds extract_text [] [] (POr (PPat alpha) (PPat comma)) (cx KStr t1c23 1) tt (Ok (VText [44]%N)) (cx KStr t1c23 2) tt /\
  BuildFirst extract_text [] [] 1 EVector (cx KStr t1c23 1) tt (keyed [(PPat alpha, VUnit); (PPat comma, VText [35]%N)])
    (Ok (VPair (VText [44]%N) (VText [35]%N))) (cx KStr t1c23 2) tt.
Proof.
  split; [builds 9|]. eapply bfirst_miss; [builds 9|].
  apply (bfirst_hit extract_text [] [] 1 EVector (cx KStr t1c23 1) tt (PPat comma) (fun v => VPair v (VText [35]%N)) [] (VText [44]%N)). builds 9.
Qed.

(** The sequencing combinators run their parts one after the other ([Parts], SeqLaws.v).  If all
    succeed the values kept are combined; the first failure is the result and puts the cursor back. *)
Theorem C08_ctor_then : forall S (h : handler S) G pols p q c s r c' s',
  Parts h G pols [Build p; Build q] c s r c' s' -> Builds h G pols (PThen p q) c s (outcome the_pair r) (rewound r c c') s'.
Proof. exact @then_builds. Qed.
Theorem C08_ctor_prefix : forall S (h : handler S) G pols p pre c s r c' s',
  Parts h G pols [Match pre; Build p] c s r c' s' -> Builds h G pols (PPrefix p pre) c s (outcome the_one r) (rewound r c c') s'.
Proof. exact @prefix_builds. Qed.
Theorem C08_ctor_suffix : forall S (h : handler S) G pols p suf c s r c' s',
  Parts h G pols [Build p; Match suf] c s r c' s' -> Builds h G pols (PSuffix p suf) c s (outcome the_one r) (rewound r c c') s'.
Proof. exact @suffix_builds. Qed.
Theorem C08_ctor_enclose : forall S (h : handler S) G pols p op cl c s r c' s',
  Parts h G pols [Match op; Build p; Match cl] c s r c' s' -> Builds h G pols (PEnclose p op cl) c s (outcome the_one r) (rewound r c c') s'.
Proof. exact @enclose_builds. Qed.
Theorem C08_ctor_sep_once : forall S (h : handler S) G pols p t q c s r c' s',
  Parts h G pols [Build p; Match t; Build q] c s r c' s' -> Builds h G pols (PSepOnce p t q) c s (outcome the_pair r) (rewound r c c') s'.
Proof. exact @seponce_builds. Qed.

Example C08_ctor_case :
  Parts extract_text [] [] [Build (PPat dg); Match comma; Build (PPat number)] (cx KStr t1c23 0) tt
    (Ok [VText [49]%N; VText [50; 51]%N]) (cx KStr t1c23 4) tt /\
  Parts extract_text [] [] [Build (PPat dg); Match comma; Build (PPat alpha)] (cx KStr t1c23 0) tt (Err EMany1) (cx KStr t1c23 2) tt.
Proof.
  split.
  - apply (parts_build extract_text [] [] (PPat dg) _ _ tt (VText [49]%N) (cx KStr t1c23 1) tt (Ok [VText [50; 51]%N])); [builds 9|].
    eapply parts_match; [returns 9|]. apply (parts_build extract_text [] [] (PPat number) _ _ tt (VText [50; 51]%N) (cx KStr t1c23 4) tt (Ok [])); [builds 9|constructor].
  - apply (parts_build extract_text [] [] (PPat dg) _ _ tt (VText [49]%N) (cx KStr t1c23 1) tt (Err EMany1)); [builds 9|].
    eapply parts_match; [returns 9|]. apply parts_build_err. builds 9.
Qed.

(** [a.longest(b)] builds both from the same offset.  The one that ends further is the result, the
    left one on ties; the cursor ends there.  If none succeeds, [b]'s error and the cursor is put back. *)
Theorem C14_ctor : forall S (h : handler S) G pols p q c s r1 c1 s1 r2 c2 s2,
  Builds h G pols p c s r1 c1 s1 -> r1 <> Panic -> Builds h G pols q (at_off (c_off c) c1) s1 r2 c2 s2 ->
  Builds h G pols (PLongest p q) c s
    (match r1, r2 with
     | Ok v, Ok u => if c_off c2 <=? c_off c1 then Ok v else Ok u
     | Ok v, Err _ => Ok v
     | _, r2 => r2
     end)
    (match r1, r2 with
     | _, Panic => c2
     | Ok v, Ok u => if c_off c2 <=? c_off c1 then at_off (c_off c1) c2 else c2
     | Ok v, _ => at_off (c_off c1) c2
     | _, Ok u => c2
     | _, _ => at_off (c_off c) c2
     end) s2.
Proof. exact @longest_builds. Qed.

Example C14_ctor_case : Builds extract_text [] [] (PPat dg) (cx KStr t1234 0) tt (Ok (VText [49]%N)) (cx KStr t1234 1) tt /\
  Builds extract_text [] [] (PPat number) (at_off 0 (cx KStr t1234 1)) tt (Ok (VText t1234)) (cx KStr t1234 4) tt /\
  Builds extract_text [] [] (PLongest (PPat dg) (PPat number)) (cx KStr t1234 0) tt (Ok (VText t1234)) (cx KStr t1234 4) tt.
Proof. split; [builds 9|]. split; builds 9. Qed.

(** [if_then]: the test decides; a failing test does not move the cursor; after a successful one the
    continuation must succeed. *)
Theorem C44_ctor_no : forall S (h : handler S) G pols p t q c s v c1 s1 e c2,
  Builds h G pols p c s (Ok v) c1 s1 -> Returns G pols t c1 (Err e) c2 ->
  Builds h G pols (PIfThen p t q) c s (Ok (VPair v VNone)) (at_off (c_off c1) c2) s1.
Proof. exact @ifthen_builds_no. Qed.
Theorem C44_ctor_yes : forall S (h : handler S) G pols p t q c s v c1 s1 sp0 c2 r c' s',
  Builds h G pols p c s (Ok v) c1 s1 -> Returns G pols t c1 (Ok sp0) c2 -> Builds h G pols q c2 s1 r c' s' ->
  Builds h G pols (PIfThen p t q) c s
    (match r with Ok b => Ok (VPair v (VSome b)) | Err e => Err e | Panic => Panic | OOF => OOF end) (rewound r c c') s'.
Proof. exact @ifthen_builds_yes. Qed.
Theorem C44_ctor_err : forall S (h : handler S) G pols p t q c s e c1 s1,
  Builds h G pols p c s (Err e) c1 s1 -> Builds h G pols (PIfThen p t q) c s (Err e) (at_off (c_off c) c1) s1.
Proof. exact @ifthen_builds_err. Qed.

Example C44_ctor_case :
  Builds extract_text [] [] (PIfThen (PPat dg) comma (PPat number)) (cx KStr t1c23 0) tt (Ok (VPair (VText [49]%N) (VSome (VText [50; 51]%N)))) (cx KStr t1c23 4) tt /\
  Builds extract_text [] [] (PIfThen (PPat dg) comma (PPat number)) (cx KStr t1c23 2) tt (Ok (VPair (VText [50]%N) VNone)) (cx KStr t1c23 3) tt /\
  Builds extract_text [] [] (PIfThen (PPat dg) comma (PPat alpha)) (cx KStr t1c23 0) tt (Err EMany1) (cx KStr t1c23 0) tt.
Proof. repeat split; builds 9. Qed.

(** ** C15 *)

(** [array_ltm], [vector_ltm], [slice_ltm]: every alternative is tried from the starting offset
    ([Tries], LoopLaws.v, for arbitrary alternatives); the span returned is the first longest one.
    The final state is the one the last alternative left, which is not what the property asks. *)
Theorem C15_span_partial : forall G e ps c rs c' s,
  Tries G [] (c_off c) c ps rs c' -> FirstLongest rs s -> Returns G [] (PChoice e true ps) c (Ok s) c'.
Proof. exact ltm_longest. Qed.
(** If there is any success then there is a first longest one. *)
Theorem C15_span_exists : forall rs, NoSpan rs \/ exists s, FirstLongest rs s.
Proof. exact first_longest_exists. Qed.
(** No alternative matches: the container's error and the cursor has not moved. *)
Theorem C15_none : forall k G e ps w i,
  (forall p, In p ps -> exists e', Fails k G p w i e') -> Fails k G (PChoice e true ps) w i e.
Proof. exact ltm_all_fail. Qed.
(** The full claim holds when the longest match belongs to the last alternative. *)
Theorem C15_last_partial : forall k G e ps p w i b j, Matches k G p w i b j ->
  (forall q, In q ps -> (exists e', Fails k G q w i e') \/
     exists b' j', Matches k G q w i b' j' /\ slen (sp k w b' j') < slen (sp k w b j)) ->
  Matches k G (PChoice e true (ps ++ [p])) w i b j.
Proof. exact ltm_last. Qed.
(** It does not hold in general: with alternatives [number] and [digit] on "1234" the span covers
    four bytes and the cursor stands after the first. *)
Theorem C15_refuted : exists e p q w i b j c',
  core KStr [] no_skip p /\ core KStr [] no_skip q /\
  Returns [] [] (PChoice e true [p; q]) (cx KStr w i) (Ok (sp KStr w b j)) c' /\ c' <> cx KStr w j.
Proof.
  exists EArray, number, dg, t1234, 0, 0, 4, (cx KStr t1234 1). split; [shape|]. split; [shape|].
  split; [returns 9|vm_compute; discriminate].
Qed.
(** The key-value forms ([PairArray], [PairVector], [PairSlice]) match exactly like the plain ones. *)
Theorem C15_pairs : forall G pols e ltm ps c r c',
  Returns G pols (PPairChoice e ltm ps) c r c' <-> Returns G pols (PChoice e ltm (map fst ps)) c r c'.
Proof.
  assert (E : forall n G held pols e ltm ps, parse n G held pols (PPairChoice e ltm ps) = parse n G held pols (PChoice e ltm (map fst ps))).
  { intros [|n] G held pols e ltm ps; reflexivity. }
  intros G pols e ltm ps c r c'. unfold Returns, try_mat_top, try_mat.
  destruct pols as [|q rest]; split; intros (n & H & N); exists n; (split; [|exact N]); rewrite E in *; exact H.
Qed.
(** Constructing mode: the value of the first alternative that went furthest, provided it moved at all. *)
Theorem C15_ctor_value_partial : forall S (h : handler S) G pols e ps c s rs c' s' v,
  BuildTries h G pols (c_off c) c s (plain ps) rs c' s' -> FirstFurthest (c_off c) rs v ->
  Builds h G pols (PChoice e true ps) c s (Ok v) c' s'.
Proof. exact @ctor_ltm_furthest. Qed.
Theorem C15_ctor_none : forall S (h : handler S) G pols e ps c s rs c' s',
  BuildTries h G pols (c_off c) c s (plain ps) rs c' s' -> NoProgress (c_off c) rs ->
  Builds h G pols (PChoice e true ps) c s (Err e) c' s'.
Proof. exact @ctor_ltm_none. Qed.
Theorem C15_ctor_pair_value_partial : forall S (h : handler S) G pols e ps c s rs c' s' v,
  BuildTries h G pols (c_off c) c s (keyed ps) rs c' s' -> FirstFurthest (c_off c) rs v ->
  Builds h G pols (PPairChoice e true ps) c s (Ok v) c' s'.
Proof. exact @ctor_pair_ltm_furthest. Qed.
Theorem C15_ctor_pair_none : forall S (h : handler S) G pols e ps c s rs c' s',
  BuildTries h G pols (c_off c) c s (keyed ps) rs c' s' -> NoProgress (c_off c) rs ->
  Builds h G pols (PPairChoice e true ps) c s (Err e) c' s'.
Proof. exact @ctor_pair_ltm_none. Qed.
(** The cursor is wrong in constructing mode too, and a successful empty match is turned into an
    error there although matching mode accepts it. *)
Theorem C15_ctor_refuted : exists e p q w i j c',
  Builds extract_text [] [] (PChoice e true [PPat p; PPat q]) (cx KStr w i) tt (Ok (VText (slice w i j))) c' tt /\ c' <> cx KStr w j.
Proof. exists EArray, number, dg, t1234, 0, 4, (cx KStr t1234 1). split; [builds 9|vm_compute; discriminate]. Qed.
Theorem C15_ctor_empty_refuted : exists e p w i, Matches KStr [] (PChoice e true [p]) w i i i /\
  exists e', Builds extract_text [] [] (PChoice e true [p]) (cx KStr w i) tt (Err e') (cx KStr w i) tt.
Proof. exists EArray, PEmpty, t1234, 0. split; [matches 9|]. exists EArray. builds 9. Qed.

Example C15_case :
  (exists c', Tries [] [] 0 (cx KStr t1234 0) [dg; comma; number] [inl (Span 0 1); inr ELiteral; inl (Span 0 4)] c' /\ c' = cx KStr t1234 4) /\
  FirstLongest [inl (Span 0 1); inr ELiteral; inl (Span 0 4)] (Span 0 4) /\
  Matches KStr [] number t1234 0 0 4 /\ Matches KStr [] dg t1234 0 0 1 /\ Fails KStr [] comma t1234 0 ELiteral /\
  BuildTries extract_text [] [] 0 (cx KStr t1234 0) tt (plain [PPat dg; PPat number]) [Some (VText [49]%N, 1); Some (VText t1234, 4)] (cx KStr t1234 4) tt /\
  FirstFurthest 0 [Some (VText [49]%N, 1); Some (VText t1234, 4)] (VText t1234).
Proof.
  split.
  { eexists. split; [|reflexivity]. eapply tries_ok; [returns 9|]. eapply tries_err; [returns 9|]. eapply tries_ok; [returns 9|]. constructor. }
  split.
  { exists [inl (Span 0 1); inr ELiteral], []. split; [reflexivity|]. split; [|intros ? []].
    intros s' [E|[E|[]]]; [injection E as <-; cbn; lia|discriminate]. }
  split; [matches 9|]. split; [matches 9|]. split; [fails 9|]. split.
  { apply (btries_ok extract_text [] [] 0 _ tt (PPat dg) (fun v => v) (VText [49]%N) (cx KStr t1234 1) tt); [builds 9|].
    apply (btries_ok extract_text [] [] 0 _ tt (PPat number) (fun v => v) (VText t1234) (cx KStr t1234 4) tt); [builds 9|constructor]. }
  exists [Some (VText [49]%N, 1)], 4, []. split; [reflexivity|]. split; [lia|]. split; [|intros ? ? []].
  intros v' n' [E|[]]. injection E as <- <-. lia.
Qed.

(** ** C16 without the optional last element *)

(** With [skip = false] an element counts only if a separator follows ([Terminated], LoopLaws.v).
    The span ends with the last counted separator, and the cursor behind an uncounted last element. *)
Theorem C16_noskip : forall k G, core_env k G no_skip -> forall p s mn w i n j x,
  core k G no_skip p -> core k G no_skip s -> i <= length w -> terminated k G p s w None i n j x -> mn <= n ->
  Returns G [] (PSep p s mn false) (cx k w i) (Ok (sp k w i j)) (cx k w x).
Proof. exact sep_noskip_ok. Qed.
Theorem C16_noskip_err : forall k G, core_env k G no_skip -> forall p s mn w i n j x,
  core k G no_skip p -> core k G no_skip s -> i <= length w -> terminated k G p s w None i n j x -> n < mn ->
  Returns G [] (PSep p s mn false) (cx k w i) (Err ESeparate) (cx k w i).
Proof. exact sep_noskip_err. Qed.
Theorem C16_collect_noskip : forall k G, core_env k G no_skip -> forall p s mn w i n j x,
  core k G no_skip p -> core k G no_skip s -> i <= length w -> terminated k G p s w None i n j x -> mn <= n ->
  Returns G [] (PSepCollect p s mn false) (cx k w i) (Ok (sp k w i j)) (cx k w x).
Proof. exact sepcollect_noskip_ok. Qed.
Theorem C16_collect_noskip_err : forall k G, core_env k G no_skip -> forall p s mn w i n j x,
  core k G no_skip p -> core k G no_skip s -> i <= length w -> terminated k G p s w None i n j x -> n < mn ->
  Returns G [] (PSepCollect p s mn false) (cx k w i) (Err ESepCollect) (cx k w i).
Proof. exact sepcollect_noskip_err. Qed.
(** Constructing mode, for arbitrary parts: the values in order, the same count. *)
Theorem C16_ctor : forall S (h : handler S) G pols p q mn skip c s vs en c' s',
  SepRepeats h G pols p q skip None c s vs en c' s' ->
  let o := verdict (mn <=? length vs) ESeparate (VList vs) c c' in
  Builds h G pols (PSep p q mn skip) c s (fst o) (snd o) s'.
Proof. exact @sep_law. Qed.
(** "the offset stays at the end of the counted text" is false: the uncounted element stays consumed. *)
Theorem C16_noskip_refuted : exists p s w i b j c',
  core KStr [] no_skip p /\ core KStr [] no_skip s /\
  Returns [] [] (PSep p s 0 false) (cx KStr w i) (Ok (sp KStr w b j)) c' /\ c' <> cx KStr w j.
Proof.
  exists dg, comma, t1c23, 0, 0, 2, (cx KStr t1c23 3). split; [shape|]. split; [shape|].
  split; [returns 9|vm_compute; discriminate].
Qed.

Example C16_noskip_case : core_env KStr [] no_skip /\ core KStr [] no_skip dg /\ core KStr [] no_skip comma /\
  terminated KStr [] dg comma t1c23 None 0 1 2 3 /\
  SepRepeats extract_text [] [] (PPat dg) comma false None (cx KStr t1c23 0) tt [VText [49]%N] false (cx KStr t1c23 3) tt.
Proof.
  split; [apply sample_env_core|]. split; [shape|]. split; [shape|]. split.
  - eapply term_more with (j := 1) (j' := 2); [discriminate|exists 0; matches 9|exists 1; matches 9|].
    eapply term_open; [discriminate|exists 2; matches 9|exists ELiteral; fails 9].
  - eapply srep_more; [discriminate|builds 9|returns 9|].
    eapply (srep_last extract_text [] [] (PPat dg) comma false None (cx KStr t1c23 2) tt); [discriminate|builds 9|returns 9].
Qed.

(** ** C17 *)

(** [repeat2::<M, N>] and [sep2::<_, M, N>] in constructing mode, for arbitrary parts: as long as at
    most N elements can be built, the result is the array of the elements in order, padded with
    [None], if there are at least M; otherwise the error, with the cursor put back. *)
Theorem C17_repeat2_partial : forall S (h : handler S) G pols p m n c s vs c' s',
  Repeats h G pols p (Some (Datatypes.S n)) c s vs c' s' -> length vs <= n ->
  let o := verdict (m <=? length vs) ERepeat2 (cells n vs) c c' in
  Builds h G pols (PRepeat2 p m n) c s (fst o) (snd o) s'.
Proof. exact @repeat2_law. Qed.
Theorem C17_sep2_partial : forall S (h : handler S) G pols p q m n skip c s vs en c' s',
  SepRepeats h G pols p q skip (Some (Datatypes.S n)) c s vs en c' s' -> length vs <= n ->
  let o := verdict (m <=? length vs) ESeparate2 (cells n vs) c c' in
  Builds h G pols (PSep2 p q m n skip) c s (fst o) (snd o) s'.
Proof. exact @sep2_law. Qed.
(** The array: N cells, the elements in order first, [None] in the rest. *)
Theorem C17_array : forall n vs, length vs <= n -> exists l, cells n vs = VList l /\ length l = n /\
  (forall i v, nth_error vs i = Some v -> nth_error l i = Some (VSome v)) /\
  (forall i, length vs <= i -> i < n -> nth_error l i = Some VNone).
Proof.
  intros n vs H. eexists. split; [reflexivity|]. split; [|split].
  - rewrite app_length, map_length, repeat_length. lia.
  - intros i v E. assert (i < length vs) by (apply nth_error_Some; congruence).
    rewrite nth_error_app1 by (rewrite map_length; auto). now apply map_nth_error.
  - intros i H1 H2. rewrite nth_error_app2 by (rewrite map_length; auto). rewrite map_length.
    apply nth_error_repeat. lia.
Qed.
(** With one element more the code writes behind its array. *)
Theorem C17_repeat2_overflow : forall S (h : handler S) G pols p m n c s vs c' s',
  Repeats h G pols p (Some (Datatypes.S n)) c s vs c' s' -> length vs = Datatypes.S n ->
  Builds h G pols (PRepeat2 p m n) c s Panic c' s'.
Proof. exact @repeat2_panics. Qed.
Theorem C17_sep2_overflow : forall S (h : handler S) G pols p q m n skip c s vs en c' s',
  SepRepeats h G pols p q skip (Some (Datatypes.S n)) c s vs en c' s' -> length vs = Datatypes.S n ->
  Builds h G pols (PSep2 p q m n skip) c s Panic c' s'.
Proof. exact @sep2_panics. Qed.
(** So the property is false: three digits do not stop [repeat2::<1, 2>] at two, they make it panic;
    matching mode rejects them with an error, and [sep2] accepts N + 1 elements there. *)
Theorem C17_repeat2_refuted : exists p m n w i c', m <= n /\
  Builds extract_text [] [] (PRepeat2 (PPat p) m n) (cx KStr w i) tt Panic c' tt /\ Fails KStr [] (PRepeat2 p m n) w i ERepeat2.
Proof. exists dg, 1, 2, t1234, 0, (cx KStr t1234 3). split; [lia|]. split; [builds 9|fails 9]. Qed.
Theorem C17_sep2_refuted : exists p q m n w i j c', m <= n /\
  Builds extract_text [] [] (PSep2 (PPat p) q m n true) (cx KStr w i) tt Panic c' tt /\
  Matches KStr [] (PSep2 p q m n true) w i i j /\
  Alternation (step_of KStr [] p w) (step_of KStr [] q w) (stop_of KStr [] p w) (stop_of KStr [] q w) (Some (Datatypes.S n)) i (Datatypes.S n) j.
Proof.
  exists dg, comma, 1, 2, t1c2c3c4, 0, 6, (cx KStr t1c2c3c4 6). split; [lia|]. split; [builds 9|]. split; [matches 9|].
  eapply alt_more with (j := 1) (j' := 2); [discriminate|exists 0; matches 9|exists 1; matches 9|].
  eapply alt_more with (j := 3) (j' := 4); [discriminate|exists 2; matches 9|exists 3; matches 9|].
  eapply alt_more with (j := 5) (j' := 6); [discriminate|exists 4; matches 9|exists 5; matches 9|]. constructor.
Qed.
(** For patterns whose handler and mappers succeed, matching and building [repeat2] and [sep2] take
    the same elements as long as there are at most N. *)
Theorem C17_repeat2_agree_partial : forall k G HV S (h : handler S), tcore_env k G no_skip HV ->
  (forall w x b j st, x <= length w -> b <= j -> j <= length w -> exists v, fst (h (cx k w x) (sp k w b j) st) = Ok v /\ HV w b j v) ->
  forall p m l w i n j st, tcore k G no_skip HV p -> i <= length w ->
  Greedy (step_of k G p w) (stop_of k G p w) (Some (Datatypes.S l)) i n j -> n <= l -> m <= n ->
  exists vs st', length vs = n /\ Builds h G [] (PRepeat2 p m l) (cx k w i) st (Ok (cells l vs)) (cx k w j) st'.
Proof. exact @repeat2_agree. Qed.
Theorem C17_sep2_agree_partial : forall k G HV S (h : handler S), tcore_env k G no_skip HV ->
  (forall w x b j st, x <= length w -> b <= j -> j <= length w -> exists v, fst (h (cx k w x) (sp k w b j) st) = Ok v /\ HV w b j v) ->
  forall p s m l w i n j st, tcore k G no_skip HV p -> core k G no_skip s -> i <= length w ->
  Alternation (step_of k G p w) (step_of k G s w) (stop_of k G p w) (stop_of k G s w) (Some (Datatypes.S l)) i n j -> n <= l -> m <= n ->
  exists vs st', length vs = n /\ Builds h G [] (PSep2 p s m l true) (cx k w i) st (Ok (cells l vs)) (cx k w j) st'.
Proof. exact @sep2_agree. Qed.

Example C17_case :
  Repeats extract_text [] [] (PPat dg) (Some 4) (cx KStr t1c23 2) tt [VText [50]%N; VText [51]%N] (cx KStr t1c23 4) tt /\
  Repeats extract_text [] [] (PPat dg) (Some 2) (cx KStr t1c23 2) tt [VText [50]%N; VText [51]%N] (cx KStr t1c23 4) tt /\
  Builds extract_text [] [] (PRepeat2 (PPat dg) 1 3) (cx KStr t1c23 2) tt (Ok (VList [VSome (VText [50]%N); VSome (VText [51]%N); VNone])) (cx KStr t1c23 4) tt /\
  SepRepeats extract_text [] [] (PPat dg) comma true (Some 4) (cx KStr t1c23 0) tt [VText [49]%N; VText [50]%N] true (cx KStr t1c23 3) tt /\
  SepRepeats extract_text [] [] (PPat dg) comma true (Some 2) (cx KStr t1c23 0) tt [VText [49]%N; VText [50]%N] true (cx KStr t1c23 3) tt /\
  tcore KStr [] no_skip is_slice (PPat dg) /\ Greedy (step_of KStr [] dg t1c23) (stop_of KStr [] dg t1c23) (Some 4) 2 2 4.
Proof.
  split; [eapply rep_more; [discriminate|builds 9|]; eapply rep_more; [discriminate|builds 9|]; eapply rep_stop; [discriminate|builds 9]|].
  split; [eapply rep_more; [discriminate|builds 9|]; eapply rep_more; [discriminate|builds 9|]; constructor|].
  split; [builds 9|].
  split; [eapply srep_more; [discriminate|builds 9|returns 9|];
    eapply (srep_last extract_text [] [] (PPat dg) comma true); [discriminate|builds 9|returns 9]|].
  split; [eapply srep_more; [discriminate|builds 9|returns 9|];
    eapply (srep_last extract_text [] [] (PPat dg) comma true); [discriminate|builds 9|returns 9]|].
  split; [tshape|].
  eapply greedy_step with (j := 3); [discriminate|exists 2; matches 9|].
  eapply greedy_step with (j := 4); [discriminate|exists 3; matches 9|]. apply greedy_stop; [discriminate|exists EOnce; fails 9].
Qed.

(** [repeat] and [collect] build the greedy list of values (C47), for arbitrary parts.  When the last
    attempt fails without putting the cursor back (a bare [map], see C22), it stays there. *)
Theorem C47_ctor_repeat : forall S (h : handler S) G pols p r c s vs c' s',
  Repeats h G pols p (cap r) c s vs c' s' ->
  let o := verdict (crange_contains r (length vs)) ERepeat (VList vs) c c' in
  Builds h G pols (PRepeat p r) c s (fst o) (snd o) s'.
Proof. exact @repeat_law. Qed.
Theorem C47_ctor_collect : forall S (h : handler S) G pols p mn c s vs c' s',
  Repeats h G pols p None c s vs c' s' ->
  let o := verdict (mn <=? length vs) ECollect (VList vs) c c' in
  Builds h G pols (PCollect p mn) c s (fst o) (snd o) s'.
Proof. exact @collect_law. Qed.

(** ** C18 *)

(** A parser of the fragment [tcore] (CtorSpec.v), a handler that succeeds on every piece of text, no
    policies: whatever building returns, matching returns the same verdict with the cursor at the
    same place, and conversely. *)
Theorem C18_build_then_match : forall k G HV S (h : handler S), tcore_env k G no_skip HV ->
  (forall w x b j st, x <= length w -> b <= j -> j <= length w -> exists v, fst (h (cx k w x) (sp k w b j) st) = Ok v /\ HV w b j v) ->
  forall p w i st r c' st', tcore k G no_skip HV p -> i <= length w ->
  Builds h G [] p (cx k w i) st r c' st' -> exists r', Returns G [] p (cx k w i) r' c' /\ same_verdict r r'.
Proof. exact @build_then_match. Qed.
Theorem C18_match_then_build : forall k G HV S (h : handler S), tcore_env k G no_skip HV ->
  (forall w x b j st, x <= length w -> b <= j -> j <= length w -> exists v, fst (h (cx k w x) (sp k w b j) st) = Ok v /\ HV w b j v) ->
  forall p w i st r c', tcore k G no_skip HV p -> i <= length w ->
  Returns G [] p (cx k w i) r c' -> exists r' st', Builds h G [] p (cx k w i) st r' c' st' /\ same_verdict r r'.
Proof. exact @match_then_build. Qed.
(** With policies the two cursors may differ, but only by text the policy would skip next. *)
Theorem C18_policies : forall k G sk pols HV S (h : handler S), skipper sk -> tcore_env k G sk HV -> implements k G sk pols ->
  (forall w x b j st, x <= length w -> b <= j -> j <= length w -> exists v, fst (h (cx k w x) (sp k w b j) st) = Ok v /\ HV w b j v) ->
  forall p w i st r c' st', tcore k G sk HV p -> i <= length w -> Builds h G pols p (cx k w i) st r c' st' ->
  exists r1 x y, Returns G pols p (cx k w i) r1 (cx k w x) /\ c' = cx k w y /\ sk w x = sk w y /\
    (forall e, r = Err e <-> r1 = Err e) /\ ((exists v, r = Ok v) <-> exists s, r1 = Ok s).
Proof. exact @builds_agrees. Qed.

Example C18_case : tcore_env KStr nested_env no_skip is_slice /\ tcore KStr nested_env no_skip is_slice pair_pat /\
  tcore KStr nested_env no_skip is_slice (PRef 0) /\
  Returns nested_env [] (PRef 0) (cx KStr nested 0) (Ok (Span 0 7)) (cx KStr nested 7) /\
  Builds extract_text nested_env [] (PRef 0) (cx KStr nested 0) tt
    (Ok (VList [VList [VText [49]%N]; VText [50]%N])) (cx KStr nested 7) tt.
Proof.
  split; [closed_env; tshape|]. split; [tshape|]. split; [tshape|]. split; [returns 30|builds 30].
Qed.

(** ** C19 *)

(** [sep_collect] in constructing mode, for arbitrary parts.  The values are those of the separated
    list.  But after a last element without separator the code tries one more element and throws it
    away ([Discards], LoopLaws.v): the cursor is where that attempt left it. *)
Theorem C19_ctor : forall S (h : handler S) G pols p q mn skip c s vs en c' s' c2 s2,
  SepRepeats h G pols p q skip None c s vs en c' s' ->
  (if en then Discards h G pols p q c' s' c2 s2 else c2 = c' /\ s2 = s') ->
  let o := verdict (mn <=? length vs) ESepCollect (VList vs) c c2 in
  Builds h G pols (PSepCollect p q mn skip) c s (fst o) (snd o) s2.
Proof. exact @sepcollect_law. Qed.
(** Hence the modes disagree: on "1,23" matching stops after "1,2", building consumes "1,23" and
    returns two values. *)
Theorem C19_refuted : exists p q w i j vs c',
  Matches KStr [] (PSepCollect p q 0 true) w i i j /\
  Builds extract_text [] [] (PSepCollect (PPat p) q 0 true) (cx KStr w i) tt (Ok (VList vs)) c' tt /\ length vs = 2 /\ c' <> cx KStr w j.
Proof.
  exists dg, comma, t1c23, 0, 3, [VText [49]%N; VText [50]%N], (cx KStr t1c23 4).
  split; [matches 9|]. split; [builds 9|]. split; [reflexivity|vm_compute; discriminate].
Qed.
(** They agree when no element matches directly after the list, and always with [skip = false]. *)
Theorem C19_agree_partial : forall k G HV S (h : handler S), tcore_env k G no_skip HV ->
  (forall w x b j st, x <= length w -> b <= j -> j <= length w -> exists v, fst (h (cx k w x) (sp k w b j) st) = Ok v /\ HV w b j v) ->
  forall p s mn w i n j e st, tcore k G no_skip HV p -> core k G no_skip s -> i <= length w ->
  Alternation (step_of k G p w) (step_of k G s w) (stop_of k G p w) (stop_of k G s w) None i n j -> mn <= n -> Fails k G p w j e ->
  exists vs st', length vs = n /\ Builds h G [] (PSepCollect p s mn true) (cx k w i) st (Ok (VList vs)) (cx k w j) st'.
Proof. exact @sepcollect_agree. Qed.
Theorem C19_noskip : forall k G HV S (h : handler S), tcore_env k G no_skip HV ->
  (forall w x b j st, x <= length w -> b <= j -> j <= length w -> exists v, fst (h (cx k w x) (sp k w b j) st) = Ok v /\ HV w b j v) ->
  forall p s mn w i n j x st, tcore k G no_skip HV p -> core k G no_skip s -> i <= length w -> terminated k G p s w None i n j x -> mn <= n ->
  exists vs st', length vs = n /\ Builds h G [] (PSepCollect p s mn false) (cx k w i) st (Ok (VList vs)) (cx k w x) st'.
Proof. exact @sepcollect_noskip_agree. Qed.

Example C19_case : tcore KStr [] no_skip is_slice (PPat dg) /\ core KStr [] no_skip comma /\
  Alternation (step_of KStr [] (PPat number) sample) (step_of KStr [] comma sample) (stop_of KStr [] (PPat number) sample) (stop_of KStr [] comma sample) None 1 2 5 /\
  Fails KStr [] (PPat number) sample 5 EMany1 /\
  Builds extract_text [] [] (PSepCollect (PPat number) comma 2 true) (cx KStr sample 1) tt (Ok (VList [VText [49]%N; VText [50; 51]%N])) (cx KStr sample 5) tt /\
  Discards extract_text [] [] (PPat dg) comma (cx KStr t1c23 3) tt (cx KStr t1c23 4) tt.
Proof.
  split; [tshape|]. split; [shape|]. split.
  - eapply alt_more with (j := 2) (j' := 3); [discriminate|exists 1; matches 9|exists 2; matches 9|].
    apply alt_last; [discriminate|exists 3; matches 9|exists ELiteral; fails 9].
  - split; [fails 9|]. split; [builds 9|]. eapply disc_one; [builds 9|returns 9|discriminate].
Qed.

(** ** C20 *)

(** [ctx.ctor(&p)] with the default extractor builds exactly the tree that the shape of [p] declares
    ([Tree], CtorSpec.v), whose leaves are the slices of the text matched by the leaves of [p]. *)
Theorem C20_tree : forall k G p w i v c',
  tcore_env k G no_skip is_slice -> tcore k G no_skip is_slice p -> i <= length w ->
  (Builds extract_text G [] p (cx k w i) tt (Ok v) c' tt <->
   exists j, c' = cx k w j /\ Tree k G no_skip is_slice w p i v j).
Proof. exact ctor_tree. Qed.
(** With policies: skipped text is in no slice, and the cursor differs only by skippable text. *)
Theorem C20_policies : forall k G sk pols HV S (h : handler S), skipper sk -> tcore_env k G sk HV -> implements k G sk pols ->
  (forall w x b j st, x <= length w -> b <= j -> j <= length w -> exists v, fst (h (cx k w x) (sp k w b j) st) = Ok v /\ HV w b j v) ->
  forall p w i st r c' st', tcore k G sk HV p -> i <= length w -> Builds h G pols p (cx k w i) st r c' st' ->
  (exists v j y, r = Ok v /\ c' = cx k w y /\ Tree k G sk HV w p (sk w i) v j /\
     sk w i <= j /\ j <= length w /\ y <= length w /\ sk w y = sk w j) \/
  (exists e y, r = Err e /\ c' = cx k w y /\ Peg k G sk w p (sk w i) (KO e) /\ y <= length w /\ sk w y = sk w i).
Proof. exact @builds_spec. Qed.
(** Nothing is lost: for combinators that drop no part ([lossless], CtorShape.v) the texts in the
    value, read from left to right, are exactly the text consumed. *)
Theorem C20_lossless : forall k G, tcore_env k G no_skip is_slice -> lossless_env k G ->
  forall p w i v c', tcore k G no_skip is_slice p -> lossless k G p -> i <= length w ->
  Builds extract_text G [] p (cx k w i) tt (Ok v) c' tt ->
  exists j, c' = cx k w j /\ i <= j /\ j <= length w /\ texts_of v = slice w i j.
Proof. exact ctor_lossless. Qed.

Lemma starts_unit k G p : match p with POnce _ _ | PMany1 _ _ | PLit _ => True | _ => False end -> starts_here k G no_skip p.
Proof. intros U w i b j P. destruct p; try contradiction; inversion P; reflexivity. Qed.

Example C20_case : tcore_env KStr [] no_skip is_slice /\ tcore KStr [] no_skip is_slice pair_pat /\
  Builds extract_text [] [] pair_pat (cx KStr pair_text 0) tt (Ok (VPair (VText [107]%N) (VSome (VText [49; 50]%N)))) (cx KStr pair_text 4) tt /\
  lossless_env KStr [] /\ lossless KStr [] mixed_pat /\
  Builds extract_text [] [] mixed_pat (cx KStr mixed_text 0) tt
    (Ok (VPair (VList [VText [97; 98]%N; VText [49; 50]%N; VText [99]%N]) (VSome (VText [44]%N)))) (cx KStr mixed_text 6) tt.
Proof.
  split; [no_env|]. split; [tshape|]. split; [builds 20|]. split; [no_env|]. split; [|builds 20].
  apply ll_then; [apply ll_repeat; apply ll_or; apply ll_pat; now apply starts_unit|apply ll_option; apply ll_pat; now apply starts_unit].
Qed.

(** ** C21 *)

(** Every call a handler receives, on the successful path or not, for every parser that stays on item
    boundaries ([bd], Boundary.v; see C03), every handler and every policy: the cursor is on a
    boundary, the span covers whole items of the input, and extracting it succeeds and gives them. *)
Theorem C21_calls : forall k G te S (h : handler S) pols t p w i st r c' st' l,
  bd_pols k G te pols -> bd k te (is_plain pols) t p -> i <= length w ->
  Builds (spy h) G pols p (cx k w i) (st, []) r c' (st', l) -> Forall (good_call k w) l.
Proof. exact @calls_good. Qed.
(** [spy h] only adds the log: it builds exactly what [h] builds. *)
Theorem C21_spy : forall S (h : handler S) G pols p c st l r c' st',
  Builds h G pols p c st r c' st' <-> exists l', Builds (spy h) G pols p c (st, l) r c' (st', l').
Proof. exact @spy_transparent. Qed.
(** On the successful path the spans are in order and do not overlap. *)
Theorem C21_in_order : forall k G sk pols, skipper sk -> tcore_env k G sk (is_span k) -> implements k G sk pols ->
  mapless_env G -> forall p w i v c', tcore k G sk (is_span k) p -> mapless p -> i <= length w ->
  Builds extract_span G pols p (cx k w i) tt (Ok v) c' tt ->
  exists j y, c' = cx k w y /\ sk w y = sk w j /\ i <= j /\ j <= length w /\ in_order (bo k w i) (spans_of v) (bo k w j).
Proof. exact spans_in_order. Qed.

Example C21_case : bd_pols KStr [] false [] /\ bd KStr false true false pair_pat /\
  Builds (spy extract_text) [] [] pair_pat (cx KStr pair_text 0) (tt, [])
    (Ok (VPair (VText [107]%N) (VSome (VText [49; 50]%N)))) (cx KStr pair_text 4)
    (tt, [(cx KStr pair_text 1, Span 0 1); (cx KStr pair_text 4, Span 2 2)]) /\
  tcore KStr [] no_skip (is_span KStr) pair_pat /\ mapless pair_pat /\
  Builds extract_span [] [] pair_pat (cx KStr pair_text 0) tt (Ok (VPair (VSpan (Span 0 1)) (VSome (VSpan (Span 2 2))))) (cx KStr pair_text 4) tt.
Proof.
  split; [cbn; no_env|]. split; [shape|]. split; [builds 20|]. split; [tshape|]. split; [|builds 20].
  apply ml_seponce; [apply ml_pat|apply ml_option, ml_pat].
Qed.

(** ** C22 *)

(** [p.map(f)]: if [p] builds [v], the result is what [f v] says, value or error, and the cursor stays
    behind [p]; if [p] fails, its error. *)
Theorem C22_map : forall S (h : handler S) G pols p f c s v c' s',
  f v <> OOF -> Builds h G pols p c s (Ok v) c' s' -> Builds h G pols (PMap p f) c s (f v) c' s'.
Proof. exact @map_builds_ok. Qed.
Theorem C22_map_err : forall S (h : handler S) G pols p f c s e c' s',
  Builds h G pols p c s (Err e) c' s' -> Builds h G pols (PMap p f) c s (Err e) c' s'.
Proof. exact @map_builds_err. Qed.
(** Every enclosing combinator (sequences, choices, repetitions, [opt], [branch]) puts the cursor back
    when it fails, whatever mapper or handler inside it failed. *)
Theorem C22_enclosing_restores : forall S (h : handler S) n G held pols p x e x',
  self_restoring_ctor p = true -> construct h n G held pols p x = (Err e, x') -> get_off x' = get_off x.
Proof. exact @construct_restores. Qed.
(** A bare [map] at the top does not. *)
Theorem C22_bare_map_refuted : exists p f w i e c',
  Builds extract_text [] [] (PMap p f) (cx KStr w i) tt (Err e) c' tt /\ c' <> cx KStr w i.
Proof.
  exists (PPat number), (fun _ => Err EFromStr), t1234, 0, EFromStr, (cx KStr t1234 4). split; [builds 9|vm_compute; discriminate].
Qed.
(** Consequence: an element whose mapper fails ends a [repeat], which succeeds with the cursor behind
    the element that does not count. *)
Theorem C22_repeat_refuted : exists p f w i vs c',
  Builds extract_text [] [] (PRepeat (PMap (PPat p) f) (CRange (Incl 0) Unb)) (cx KStr w i) tt (Ok (VList vs)) c' tt /\
  length vs = 1 /\ (forall b j, Matches KStr [] p w i b j -> j = 1) /\ c' <> cx KStr w 1.
Proof.
  exists dg, (fun v => match v with VText [49]%N => Ok v | _ => Err EFromStr end), t1234, 0, [VText [49]%N], (cx KStr t1234 2).
  split; [builds 9|]. split; [reflexivity|]. split; [|vm_compute; discriminate].
  intros b j M. assert (M1 : Matches KStr [] dg t1234 0 0 1) by matches 9.
  destruct (matches_det KStr [] (sample_env_core KStr) dg t1234 0 b j 0 1); auto; [shape|cbn; lia].
Qed.

Example C22_case :
  Builds extract_text [] [] (POr (PMap (PPat number) (fun _ => Err EFromStr)) (PPat dg)) (cx KStr t1234 0) tt (Ok (VText [49]%N)) (cx KStr t1234 1) tt /\
  Builds extract_text [] [] (PThen (PPat dg) (PMap (PPat number) (fun _ => Err EFromStr))) (cx KStr t1234 0) tt (Err EFromStr) (cx KStr t1234 0) tt /\
  Builds extract_text [] [] (POption (PMap (PPat number) (fun _ => Err EFromStr))) (cx KStr t1234 0) tt (Ok VNone) (cx KStr t1234 0) tt.
Proof. repeat split; builds 9. Qed.

(** ** C30 *)

(** [into_regex_builder]: the closure sees the context after the first match and its span; the parser
    it returns runs from there and gives the result; if it fails the cursor is put back. *)
Theorem C30_builder : forall G p f c s c1 q c2 r c',
  Returns G [] p c (Ok s) c1 -> f c1 s = (Ok q, c2) -> Returns G [] q c2 r c' -> Returns G [] (PBuilder p f) c r (rewound r c c').
Proof. exact builder_match. Qed.
Theorem C30_builder_first : forall G p f c e c1,
  Returns G [] p c (Err e) c1 -> Returns G [] (PBuilder p f) c (Err e) (at_off (c_off c) c1).
Proof. exact builder_first. Qed.
(** A failing closure: the error, with the cursor where the closure left it. *)
Theorem C30_builder_closure : forall G p f c s c1 e c2,
  Returns G [] p c (Ok s) c1 -> f c1 s = (Err e, c2) -> Returns G [] (PBuilder p f) c (Err e) c2.
Proof. exact builder_closure. Qed.
(** [into_ctor_then_builder] likewise, with the value instead of the span. *)
Theorem C30_dynamic_then : forall S (h : handler S) G pols p f c s v c1 s1 q c2 r c' s',
  Builds h G pols p c s (Ok v) c1 s1 -> f c1 v = (Ok q, c2) -> Builds h G pols q c2 s1 r c' s' ->
  Builds h G pols (PDynThen p f) c s
    (match r with Ok b => Ok (VPair v b) | Err e => Err e | Panic => Panic | OOF => OOF end) (rewound r c c') s'.
Proof. exact @dthen_builds. Qed.
Theorem C30_dynamic_then_first : forall S (h : handler S) G pols p f c s e c1 s1,
  Builds h G pols p c s (Err e) c1 s1 -> Builds h G pols (PDynThen p f) c s (Err e) (at_off (c_off c) c1) s1.
Proof. exact @dthen_builds_first. Qed.
Theorem C30_dynamic_then_closure : forall S (h : handler S) G pols p f c s v c1 s1 e c2,
  Builds h G pols p c s (Ok v) c1 s1 -> f c1 v = (Err e, c2) -> Builds h G pols (PDynThen p f) c s (Err e) c2 s1.
Proof. exact @dthen_builds_closure. Qed.

(** The same digit twice; the closure rejects a "4". *)
Definition again : ctx -> span -> res pat * ctx :=
  fun c s => (match nth_error (c_dat c) (sbeg s) with
              | Some 52%N => Err EFail
              | Some x => Ok (PLit [x])
              | None => Err EFail
              end, c).
Example C30_case :
  Returns [] [] (PBuilder dg again) (cx KStr [49; 49; 50]%N 0) (Ok (Span 1 1)) (cx KStr [49; 49; 50]%N 2) /\
  Returns [] [] (PBuilder dg again) (cx KStr t1234 0) (Err ELiteral) (cx KStr t1234 0) /\
  Returns [] [] (PBuilder dg again) (cx KStr t1234 3) (Err EFail) (cx KStr t1234 4) /\
  Builds extract_text [] [] (PDynThen (PPat dg) (fun c v => (match v with VText t => Ok (PPat (PLit t)) | _ => Err EFail end, c)))
    (cx KStr [49; 49; 50]%N 0) tt (Ok (VPair (VText [49]%N) (VText [49]%N))) (cx KStr [49; 49; 50]%N 2) tt.
Proof. split; [returns 9|]. split; [returns 9|]. split; [returns 9|builds 9]. Qed.

Print Assumptions C07_ctor_or_first.
Print Assumptions C07_ctor_or_second.
Print Assumptions C07_ctor_choice.
Print Assumptions C07_ctor_pair_choice.
Print Assumptions C08_ctor_then.
Print Assumptions C08_ctor_prefix.
Print Assumptions C08_ctor_suffix.
Print Assumptions C08_ctor_enclose.
Print Assumptions C08_ctor_sep_once.
Print Assumptions C14_ctor.
Print Assumptions C44_ctor_no.
Print Assumptions C44_ctor_yes.
Print Assumptions C44_ctor_err.
Print Assumptions C15_span_partial.
Print Assumptions C15_span_exists.
Print Assumptions C15_none.
Print Assumptions C15_last_partial.
Print Assumptions C15_refuted.
Print Assumptions C15_pairs.
Print Assumptions C15_ctor_value_partial.
Print Assumptions C15_ctor_none.
Print Assumptions C15_ctor_pair_value_partial.
Print Assumptions C15_ctor_pair_none.
Print Assumptions C15_ctor_refuted.
Print Assumptions C15_ctor_empty_refuted.
Print Assumptions C16_noskip.
Print Assumptions C16_noskip_err.
Print Assumptions C16_collect_noskip.
Print Assumptions C16_collect_noskip_err.
Print Assumptions C16_ctor.
Print Assumptions C16_noskip_refuted.
Print Assumptions C17_repeat2_partial.
Print Assumptions C17_sep2_partial.
Print Assumptions C17_array.
Print Assumptions C17_repeat2_overflow.
Print Assumptions C17_sep2_overflow.
Print Assumptions C17_repeat2_refuted.
Print Assumptions C17_sep2_refuted.
Print Assumptions C17_repeat2_agree_partial.
Print Assumptions C17_sep2_agree_partial.
Print Assumptions C47_ctor_repeat.
Print Assumptions C47_ctor_collect.
Print Assumptions C18_build_then_match.
Print Assumptions C18_match_then_build.
Print Assumptions C18_policies.
Print Assumptions C19_ctor.
Print Assumptions C19_refuted.
Print Assumptions C19_agree_partial.
Print Assumptions C19_noskip.
Print Assumptions C20_tree.
Print Assumptions C20_policies.
Print Assumptions C20_lossless.
Print Assumptions C21_calls.
Print Assumptions C21_spy.
Print Assumptions C21_in_order.
Print Assumptions C22_map.
Print Assumptions C22_map_err.
Print Assumptions C22_enclosing_restores.
Print Assumptions C22_bare_map_refuted.
Print Assumptions C22_repeat_refuted.
Print Assumptions C30_builder.
Print Assumptions C30_builder_first.
Print Assumptions C30_builder_closure.
Print Assumptions C30_dynamic_then.
Print Assumptions C30_dynamic_then_first.
Print Assumptions C30_dynamic_then_closure.
