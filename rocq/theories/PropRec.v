(** Recursive parsers (C42) and their synchronized variant (C51). *)

From Coq Require Import List Arith NArith Bool Lia.
From Verif Require Import Base Text Context Neu Syntax Regex Ctor Api TextProofs Spec Units Core Sound Obs Laws PegLaws
  ApiLaws Mono CtorShape CtorSpec CtorLaws Lang RecLaws Unlock PolicyLaws Samples.
Import ListNotations.

(** ** C42 *)

(** A recursive handle is the fixpoint of its definition: on every context, with every policy, it returns
    what the parser it was defined as (which may mention the handle) returns, and diverges when that
    does. *)
Theorem C42_fixpoint_match : forall G pols x p c, env_get G x = Some p ->
  (forall r c', Returns G pols (PRef x) c r c' <-> Returns G pols p c r c') /\
  (Diverges G pols (PRef x) c <-> Diverges G pols p c).
Proof.
  intros G pols x p c E. split; [intros; now apply ref_returns|].
  assert (S : forall n, try_mat_top (S n) G [] (PRef x) c = try_mat_top n G [] p c).
  { intros n. unfold try_mat_top, try_mat. cbn [parse parse_step]. now rewrite E. }
  split; intros D n.
  - destruct (try_mat_top n G pols p c) as [r c'] eqn:T. cbn. destruct r as [s|e| |]; [exfalso..|reflexivity].
    + assert (R : Returns G pols (PRef x) c (Ok s) c') by (apply (ref_returns G pols x p); auto; exists n; split; [exact T|discriminate]).
      destruct R as (m & R & _). specialize (D m). rewrite R in D. discriminate.
    + assert (R : Returns G pols (PRef x) c (Err e) c') by (apply (ref_returns G pols x p); auto; exists n; split; [exact T|discriminate]).
      destruct R as (m & R & _). specialize (D m). rewrite R in D. discriminate.
    + assert (R : Returns G pols (PRef x) c Panic c') by (apply (ref_returns G pols x p); auto; exists n; split; [exact T|discriminate]).
      destruct R as (m & R & _). specialize (D m). rewrite R in D. discriminate.
  - destruct (try_mat_top n G pols (PRef x) c) as [r c'] eqn:T. cbn. destruct r as [s|e| |]; [exfalso..|reflexivity].
    + assert (R : Returns G pols p c (Ok s) c') by (apply (ref_returns G pols x p); auto; exists n; split; [exact T|discriminate]).
      destruct R as (m & R & _). specialize (D m). rewrite R in D. discriminate.
    + assert (R : Returns G pols p c (Err e) c') by (apply (ref_returns G pols x p); auto; exists n; split; [exact T|discriminate]).
      destruct R as (m & R & _). specialize (D m). rewrite R in D. discriminate.
    + assert (R : Returns G pols p c Panic c') by (apply (ref_returns G pols x p); auto; exists n; split; [exact T|discriminate]).
      destruct R as (m & R & _). specialize (D m). rewrite R in D. discriminate.
Qed.
Theorem C42_fixpoint_build : forall S (h : handler S) G pols x p c s r c' s', env_get G x = Some p ->
  (Builds h G pols (PRef x) c s r c' s' <-> Builds h G pols p c s r c' s').
Proof. intros. now apply ref_builds. Qed.
Example C42_fixpoint_case : exists p, env_get nested_env 0 = Some p /\
  Returns nested_env [] p (cx KStr nested 0) (Ok (sp KStr nested 0 7)) (cx KStr nested 7).
Proof. eexists. split; [reflexivity|]. returns 40. Qed.

(** The bracket grammar [rec_parser(|s| s.enclose("(", ")").repeat(0..))] matches, from any position of
    any text, the longest balanced stretch that starts there. *)
Theorem C42_brackets : forall k w i, i <= length w ->
  exists j, Matches k bracket_env (PRef 0) w i i j /\ balanced (slice w i j) /\
    forall j', j < j' -> j' <= length w -> ~ balanced (slice w i j').
Proof.
  intros k w i Hi. destruct (bracket_total k w i Hi) as [j P]. exists j.
  destruct (peg_ref0 k w i _ P) as (n & j' & E & R). injection E as <-.
  split; [|split].
  - apply matches_peg; auto using bracket_core. constructor.
  - apply balanced_dyck. eapply reps_dyck; eauto.
  - intros j' L1 L2 B. apply balanced_dyck in B.
    pose proof (reps_max k _ B w i n j (skipn (j' - i) (skipn i w)) Hi R) as M.
    unfold slice in M at 1. rewrite firstn_skipn in M. specialize (M eq_refl).
    replace j' with (i + (j' - i)) in M by lia. rewrite slice_length in M by lia. lia.
Qed.

(** So the whole text is accepted exactly if it is balanced, at any depth. *)
Theorem C42_brackets_whole : forall k w,
  (exists s c', Returns bracket_env [] (PThen (PRef 0) PEnd) (cx k w 0) (Ok s) c') <-> balanced w.
Proof.
  intros k w. split.
  - intros (s & c' & R).
    destruct (plain_sound k bracket_env (PThen (PRef 0) PEnd) w 0 _ _ (bracket_core k)
      (core_then _ _ _ _ _ (core_ref _ _ _ 0) (core_end _ _ _)) (Nat.le_0_l _) R)
      as [(b & j & E & -> & I1 & I2 & I3 & P)|(e & E & _)]; [|discriminate].
    assert (Q : exists j1, Peg k bracket_env no_skip w (PRef 0) 0 (OK b j1) /\ j1 = length w).
    { inversion P; subst. match goal with H : Peg _ _ _ _ PEnd _ _ |- _ => inversion H; subst end. eauto. }
    destruct Q as (j1 & Q & ->). destruct (peg_ref0 k w 0 _ Q) as (n & j' & E' & R'). injection E' as -> <-.
    apply reps_dyck with (len := length w) in R'; [|lia|lia].
    unfold slice in R'. rewrite Nat.sub_0_r in R'. cbn [skipn] in R'. rewrite firstn_all in R'. now apply balanced_dyck.
  - intros B. destruct (bracket_total k w 0 (Nat.le_0_l _)) as [j P].
    destruct (peg_ref0 k w 0 _ P) as (n & j' & E & R). injection E as <-.
    apply balanced_dyck in B.
    pose proof (reps_max k _ B w 0 n j [] (Nat.le_0_l _) R) as M. rewrite app_nil_r in M. specialize (M eq_refl).
    assert (j <= length w) as L by (eapply (peg_in k bracket_env (bracket_core k) (PRef 0) w 0 0 j); [constructor|lia|exact P]).
    cbn in M. assert (j = length w) by lia. subst j.
    exists (sp k w 0 (length w)), (cx k w (length w)).
    apply (proj1 (plain_complete k bracket_env (PThen (PRef 0) PEnd) w 0 (bracket_core k)
      (core_then _ _ _ _ _ (core_ref _ _ _ 0) (core_end _ _ _)) (Nat.le_0_l _))).
    eapply Peg_then; [exact P|]. unfold no_skip. now constructor.
Qed.
Fixpoint nest (d : nat) : text := match d with 0 => [] | S d => opening :: nest d ++ [closing] end.
(** In particular it follows nesting to any depth. *)
Corollary C42_any_depth : forall k d, exists s c',
  Returns bracket_env [] (PThen (PRef 0) PEnd) (cx k (nest d) 0) (Ok s) c'.
Proof.
  intros k d. apply C42_brackets_whole. apply balanced_dyck. induction d; cbn; [constructor|].
  now apply (dyck_cons (nest d) []); [|constructor].
Qed.
Example C42_brackets_case : balanced [40; 40; 41; 41; 40; 41]%N /\ ~ balanced [40; 41; 41]%N /\ ~ balanced [40; 40; 41]%N.
Proof. repeat split; try discriminate. Qed.

(** ** C51 *)

(** Using [rec_parser_sync] instead of [rec_parser] anywhere in a grammar never changes an answer: the
    call returns what the plain grammar returns, or it does not return a result (the model's [Panic]
    also stands for the self-deadlock of the mutex). *)
Theorem C51_same_or_stuck : forall G pols p c r c', Returns G pols p c r c' -> r <> Panic ->
  Returns (unlock_env G) (map unlock pols) (unlock p) c r c'.
Proof. intros. now apply returns_or. Qed.
Theorem C51_same_or_stuck_build : forall S (h : handler S) G pols p c s r c' s',
  Builds h G pols p c s r c' s' -> r <> Panic ->
  Builds h (unlock_env G) (map unlock pols) (unlock p) c s r c' s'.
Proof. intros. now apply builds_or. Qed.

(** If no definition reaches its own synchronized handle again ([rank] orders the cells: a definition
    mentions only synchronized handles of lower rank), the two grammars agree on every input. *)
Theorem C51_no_reentry : forall G rank p m c r c', ranked_env G rank -> ranked rank m p ->
  (Returns G [] p c r c' <-> Returns (unlock_env G) [] (unlock p) c r c').
Proof.
  intros G rank p m c r c' RE R.
  assert (E : forall n, try_mat_top n G [] p c = try_mat_top n (unlock_env G) [] (unlock p) c).
  { intros n. apply ple_false. apply (may_all G rank RE n [] [] [] p); [constructor|].
    exists m. split; [exact R|constructor]. }
  unfold Returns. split; intros (n & H); exists n; now rewrite E in *.
Qed.
Theorem C51_no_reentry_build : forall S (h : handler S) G rank p m c s r c' s', ranked_env G rank -> ranked rank m p ->
  (Builds h G [] p c s r c' s' <-> Builds h (unlock_env G) [] (unlock p) c s r c' s').
Proof.
  intros S h G rank p m c s r c' s' RE R.
  assert (E : forall n, construct h n G [] [] p (c, s) = construct h n (unlock_env G) [] [] (unlock p) (c, s)).
  { intros n. apply ple_false. apply (may_all G rank RE n [] [] [] p); [constructor|].
    exists m. split; [exact R|constructor]. }
  unfold Builds. split; intros (n & H); exists n; now rewrite E in *.
Qed.

(** A pair of synchronized handles, the second using the first. *)
Definition sync_env : env := [Some number; Some (PEnclose (PSep (PLock 0) comma 0 true) lbrack rbrack)].
Example C51_no_reentry_case : ranked_env sync_env (fun i => i) /\ ranked (fun i => i) 2 (PLock 1) /\
  Returns sync_env [] (PLock 1) (cx KStr sample 0) (Ok (sp KStr sample 0 6)) (cx KStr sample 6).
Proof.
  assert (L : forall p q, within p q -> within p q) by auto.
  split; [|split; [|returns 40]].
  - intros [|[|[|i]]] q E; try discriminate E; injection E as <-; intros q W.
    + inversion W; subst; [exact I|]. cbn in *. contradiction.
    + repeat match goal with
        | W : within _ _ |- _ => inversion W; clear W; subst; [first [exact I | cbn; lia]|]
        | H : sub _ _ |- _ => cbn in H; repeat destruct H as [->|H]; try contradiction; try subst
        end.
  - intros q W. inversion W; subst; [cbn; lia|contradiction].
Qed.

(** In general: a call of a synchronized handle that returns a result never used the handle again while
    it was running.  Its definition with any parser [q] whatever in place of that handle
    ([relock (detour x q)], Unlock.v) returns the same. *)
Theorem C51_never_nested : forall x q G p c r c', env_get G x = Some p -> Returns G [] (PLock x) c r c' -> r <> Panic ->
  Returns (detour_env x q G) [] (relock (detour x q) p) c r c'.
Proof. exact returns_detour. Qed.
Theorem C51_never_nested_build : forall x q G S (h : handler S) p c s r c' s', env_get G x = Some p ->
  Builds h G [] (PLock x) c s r c' s' -> r <> Panic -> Builds h (detour_env x q G) [] (relock (detour x q) p) c s r c' s'.
Proof. intros x q G S. exact (@builds_detour x q G S). Qed.
(** So an answer of the plain grammar that depends on a nested level is out of reach: if some other
    parser in place of the nested handle gives another answer, the synchronized call gives none. *)
Theorem C51_nested_stuck : forall x q G p c r c' r0 c0, env_get G x = Some p ->
  Returns (unlock_env G) [] (unlock p) c r c' ->
  Returns (detour_env x q G) [] (relock (detour x q) p) c r0 c0 -> (r0, c0) <> (r, c') ->
  forall r1 c1, Returns G [] (PLock x) c r1 c1 -> r1 = Panic.
Proof.
  intros x q G p c r c' r0 c0 E A B N r1 c1 H. destruct r1 as [s|e| |]; try reflexivity; exfalso; apply N;
    [| |destruct H as (n & _ & X); contradiction].
  all: match type of H with Returns _ _ _ _ ?r _ => assert (NP : r <> Panic) by discriminate end.
  all: pose proof (returns_detour x q G p c _ c1 E H NP) as D.
  all: pose proof (C51_same_or_stuck G [] (PLock x) c _ c1 H NP) as U.
  all: assert (EU : env_get (unlock_env G) x = Some (unlock p)) by
    (unfold unlock_env; change unlock with (relock PRef); rewrite env_get_unlock, E; reflexivity).
  all: apply (proj1 (C42_fixpoint_match (unlock_env G) [] x (unlock p) c EU)) in U.
  all: destruct (returns_det _ _ _ _ _ _ _ _ A U) as [-> ->]; destruct (returns_det _ _ _ _ _ _ _ _ B D) as [-> ->]; reflexivity.
Qed.
Example C51_never_nested_case : let w := [40; 41]%N in let p := PRepeat (PEnclose (PLock 0) (PLit [40%N]) (PLit [41%N])) (CRange (Incl 0) Unb) in
  let G := [Some p] in
  Returns (unlock_env G) [] (unlock p) (cx KStr w 0) (Ok (sp KStr w 0 2)) (cx KStr w 2) /\
  Returns (detour_env 0 PFail G) [] (relock (detour 0 PFail) p) (cx KStr w 0) (Ok (sp KStr w 0 0)) (cx KStr w 0) /\
  Returns G [] (PLock 0) (cx KStr [41%N] 0) (Ok (sp KStr [41%N] 0 0)) (cx KStr [41%N] 0).
Proof. cbv zeta. split; [returns 12|]. split; returns 12. Qed.

(** A definition that does reach its own handle never gets past that point: the synchronized bracket
    grammar does not return on any text that starts with a bracket (balanced or not), and matches
    nothing on the others. *)
Definition sync_bracket_env : env :=
  [Some (PRepeat (PEnclose (PLock 0) (PLit [opening]) (PLit [closing])) (CRange (Incl 0) Unb))].
Theorem C51_reentry_stuck : forall k w i, i <= length w ->
  (nth_error w i = Some opening -> exists c', Returns sync_bracket_env [] (PLock 0) (cx k w i) Panic c') /\
  (nth_error w i <> Some opening -> Returns sync_bracket_env [] (PLock 0) (cx k w i) (Ok (sp k w i i)) (cx k w i)).
Proof.
  intros k w i Hi.
  assert (E : firstn 1 (skipn i w) = [opening] <-> nth_error w i = Some opening).
  { clear Hi. revert i. induction w as [|y w IH]; intros [|i]; cbn; try (split; congruence). apply IH. }
  pose proof (literal_nf k [opening] w i Hi) as L. cbn [length] in L.
  split; intros H.
  - destruct (list_eq_dec N.eq_dec (firstn 1 (skipn i w)) [opening]) as [_|N]; [|now apply E in H].
    exists (cx k w (i + 1)), 8. split; [|discriminate].
    lazy -[literal_parse cx sp opening closing bo Nat.add]. match goal with |- context [literal_parse ?a ?b] => change (literal_parse a b) with (literal_parse [opening] (cx k w i)) end. rewrite L. reflexivity.
  - destruct (list_eq_dec N.eq_dec (firstn 1 (skipn i w)) [opening]) as [N|_]; [now apply E in N|].
    exists 8. split; [|discriminate].
    lazy -[literal_parse cx sp opening closing bo Nat.add Nat.sub]. match goal with |- context [literal_parse ?a ?b] => change (literal_parse a b) with (literal_parse [opening] (cx k w i)) end. rewrite L. lazy -[literal_parse opening closing bo Nat.sub]. now rewrite Nat.sub_diag.
Qed.
(** A balanced text that the plain grammar accepts and the synchronized one never answers. *)
Theorem C51_nested_refuted : exists w s c1 c2, balanced w /\
  Returns bracket_env [] (PRef 0) (cx KStr w 0) (Ok s) c1 /\
  Returns sync_bracket_env [] (PLock 0) (cx KStr w 0) Panic c2.
Proof.
  exists [40; 41]%N, (sp KStr [40; 41]%N 0 2), (cx KStr [40; 41]%N 2), (cx KStr [40; 41]%N 1).
  split; [reflexivity|]. split; returns 12.
Qed.

Print Assumptions C42_fixpoint_match.
Print Assumptions C42_fixpoint_build.
Print Assumptions C42_brackets.
Print Assumptions C42_brackets_whole.
Print Assumptions C42_any_depth.
Print Assumptions C51_same_or_stuck.
Print Assumptions C51_same_or_stuck_build.
Print Assumptions C51_no_reentry.
Print Assumptions C51_no_reentry_build.
Print Assumptions C51_never_nested.
Print Assumptions C51_never_nested_build.
Print Assumptions C51_nested_stuck.
Print Assumptions C51_reentry_stuck.
Print Assumptions C51_nested_refuted.
