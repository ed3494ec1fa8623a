(** How much work a match is (C87).  [Work k G sk w p i o n] (file Work.v): the match of [p] at [i] with outcome
    [o] takes [n] steps, a step being the call of a parser or the test of an item by a unit. *)

From Coq Require Import List Arith NArith Bool Lia.
From Verif Require Import Base Text Context Neu Syntax Regex Ctor Api TextProofs Spec Core Obs Laws ApiLaws PegLaws PolicyLaws
  Consumes TermLaws Term Lang Ll1 Complete CtorSpec Samples PropLl1 Work WorkLaws WorkPoly Calls WorkCalls.
Import ListNotations.

(** ** C87 *)

(** The count is one of the runs there are: what matches, and what fails, does so in some number of steps. *)
Theorem C87_counted : forall k G p w i, core_env k G no_skip -> core k G no_skip p -> i <= length w ->
  (forall b j, Matches k G p w i b j <-> exists n, Work k G no_skip w p i (OK b j) n) /\
  (forall e, Fails k G p w i e <-> exists n, Work k G no_skip w p i (KO e) n).
Proof.
  intros k G p w i CE C Hi. split.
  - intros b j. rewrite (matches_peg k G CE) by auto. split; [apply (proj1 (peg_work k G no_skip))|].
    intros [n W]. now apply (proj1 (work_peg k G no_skip)) in W.
  - intros e. rewrite (fails_peg k G CE) by auto. split; [apply (proj1 (peg_work k G no_skip))|].
    intros [n W]. now apply (proj1 (work_peg k G no_skip)) in W.
Qed.

(** Where one item of lookahead decides, there is a constant for the parser such that on every text and
    at every position it answers, and the steps are at most the constant times what is left of the text. *)
Theorem C87_linear : forall k G R p, one_ahead k G R p -> exists c, forall w i, i <= length w ->
  (exists o n, Work k G no_skip w p i o n) /\
  (forall o n, Work k G no_skip w p i o n -> n <= c * S (length w - i)).
Proof.
  intros k G R p O. destruct (linear_work k G R p O) as [c H]. exists c. intros w i Hi. split; [|eauto].
  destruct (one_ahead_answers k G R p w i O Hi) as [o P]. apply (proj1 (peg_work k G no_skip)) in P. destruct P; eauto.
Qed.

(** The same of the parser anchored at the end. *)
Theorem C87_whole : forall k G R p, one_ahead k G R p -> exists c, forall w o n,
  Work k G no_skip w (PThen p PEnd) 0 o n -> n <= c * S (length w).
Proof.
  intros k G R p O. destruct (linear_work k G R p O) as [c H]. exists (c + 2). intros w o n W.
  assert (X : exists o' m, Work k G no_skip w p 0 o' m /\ n <= m + 2).
  { inversion W; subst;
      try match goal with V : Work _ _ _ _ PEnd _ _ _ |- _ => inversion V; subst end; do 2 eexists; (split; [eassumption|lia]). }
  destruct X as (o' & m & V & Hn). specialize (H w 0 o' m (Nat.le_0_l _) V). rewrite Nat.sub_0_r in H.
  rewrite Nat.mul_add_distr_r. lia.
Qed.

(** Arithmetic expressions are one: *)
Example C87_linear_case : one_ahead KStr expr_env expr_info (PRef 0) /\
  exists n, Work KStr expr_env no_skip [49; 43; 50]%N (PRef 0) 0 (OK 0 3) n.
Proof.
  split; [exact expr_ready|]. apply (proj1 (C87_counted KStr expr_env (PRef 0) [49; 43; 50]%N 0
    (proj1 (one_ahead_core _ _ _ _ expr_ready)) (core_ref _ _ _ 0) (Nat.le_0_l _))). matches 60.
Qed.
Example C87_whole_case : one_ahead KStr expr_env expr_info (PRef 0).
Proof. exact expr_ready. Qed.

(** In general there is no such constant, and no polynomial: [S = "a" S "b" | "a" S "c" | "a"], in which
    two alternatives begin alike, reads what it reads of [n] times "a" twice over at each level. *)
Definition twice : pat :=
  POr (PThen (PLit [97]%N) (PThen (PRef 0) (PLit [98]%N)))
    (POr (PThen (PLit [97]%N) (PThen (PRef 0) (PLit [99]%N))) (PLit [97]%N)).
Definition twice_env : env := [Some twice].
Definition as_ (n : nat) : text := repeat 97%N n.

Lemma as_at n i x : firstn 1 (skipn i (as_ n)) = [x] -> x = 97%N /\ i < n.
Proof.
  unfold as_. revert i. induction n as [|n IH]; intros [|i] E; cbn in E; try discriminate.
  - injection E as <-. split; [reflexivity|lia].
  - destruct (IH i E). split; [assumption|lia].
Qed.
Lemma as_in n i : i < n -> firstn 1 (skipn i (as_ n)) = [97]%N.
Proof.
  unfold as_. revert i. induction n as [|n IH]; intros [|i] H; cbn; try lia; [reflexivity|]. apply IH. lia.
Qed.
Lemma twice_runs n m : forall i, i + m = n -> exists o, Peg KStr twice_env no_skip (as_ n) (PRef 0) i o.
Proof.
  induction m as [|m IH]; intros i E.
  - exists (KO ELiteral). apply Peg_ref with (p := twice); [reflexivity|].
    assert (L : Peg KStr twice_env no_skip (as_ n) (PLit [97]%N) i (KO ELiteral)).
    { apply Peg_lit_ko. cbn [length]. intros X. apply as_at in X. lia. }
    eapply Peg_or2; [apply Peg_then_ko1; exact L|]. eapply Peg_or2; [apply Peg_then_ko1; exact L|exact L].
  - destruct (IH (S i)) as [o P]; [lia|]. exists (OK i (S i)). apply Peg_ref with (p := twice); [reflexivity|].
    assert (L : Peg KStr twice_env no_skip (as_ n) (PLit [97]%N) i (OK i (S i))).
    { replace (S i) with (i + length [97]%N) by (cbn; lia). apply Peg_lit. cbn [length]. apply as_in. lia. }
    assert (T : forall x, x <> 97%N -> exists e, Peg KStr twice_env no_skip (as_ n) (PThen (PLit [97]%N) (PThen (PRef 0) (PLit [x]))) i (KO e)).
    { intros x Hx. destruct o as [b j|e].
      - exists ELiteral. eapply Peg_then_ko2; [exact L|]. eapply Peg_then_ko2; [exact P|]. apply Peg_lit_ko.
        cbn [length]. intros X. apply as_at in X. destruct X. contradiction.
      - exists e. eapply Peg_then_ko2; [exact L|]. now apply Peg_then_ko1. }
    destruct (T 98%N ltac:(discriminate)) as [e1 T1]. destruct (T 99%N ltac:(discriminate)) as [e2 T2].
    eapply Peg_or2; [exact T1|]. eapply Peg_or2; [exact T2|exact L].
Qed.
(** An alternative runs the handle in full and fails. *)
Lemma twice_part n m i x o N : i < n -> x <> 97%N ->
  (forall o N, Work KStr twice_env no_skip (as_ n) (PRef 0) (S i) o N -> m <= N) ->
  Work KStr twice_env no_skip (as_ n) (PThen (PLit [97]%N) (PThen (PRef 0) (PLit [x]))) i o N -> m <= N /\ exists e, o = KO e.
Proof.
  intros Hi Hx IH W.
  assert (LIT : forall j b j' z, Work KStr twice_env no_skip (as_ n) (PLit [x]) j (OK b j') z -> False).
  { intros j b j' z V. inversion V; subst. match goal with X : firstn _ _ = _ |- _ => apply as_at in X; destruct X; contradiction end. }
  assert (A1 : forall o z, Work KStr twice_env no_skip (as_ n) (PLit [97]%N) i o z -> o = OK i (S i)).
  { intros o' z V. inversion V; subst; [f_equal; cbn; lia|]. exfalso. match goal with X : _ <> _ |- _ => apply X end. now apply as_in. }
  inversion W; subst; match goal with V : Work _ _ _ _ (PLit [97]%N) _ _ _ |- _ => apply A1 in V; try discriminate V; try (injection V as -> ->) end.
  - exfalso. match goal with V : Work _ _ _ _ (PThen _ _) _ _ _ |- _ => inversion V; subst end. eapply LIT; eassumption.
  - split; [|eauto]. match goal with V : Work _ _ _ _ (PThen _ _) _ _ _ |- _ => inversion V; subst end;
      match goal with V : Work _ _ _ _ (PRef 0) _ _ _ |- _ => unfold no_skip in V at 2; apply IH in V end; lia.
Qed.
Lemma twice_cost n m : forall i o N, i + m = n -> Work KStr twice_env no_skip (as_ n) (PRef 0) i o N -> 2 ^ m <= N.
Proof.
  induction m as [|m IH]; intros i o N E W; [inversion W; cbn; lia|].
  assert (IH' : forall o N, Work KStr twice_env no_skip (as_ n) (PRef 0) (S i) o N -> 2 ^ m <= N) by (intros; eapply (IH (S i)); eauto; lia).
  assert (HI : i < n) by lia.
  inversion W; subst; [|discriminate].
  match goal with X : env_get _ _ = Some _ |- _ => injection X as <- end.
  match goal with V : Work _ _ _ _ twice _ _ _ |- _ => unfold twice in V; inversion V; subst; clear V end;
    match goal with V : Work _ _ _ _ (PThen _ (PThen _ (PLit [98%N]))) _ _ _ |- _ => apply (twice_part _ (2 ^ m) i 98%N _ _ HI ltac:(discriminate) IH') in V end.
  - match goal with V : _ /\ exists _, _ |- _ => destruct V as [_ [? V]]; discriminate V end.
  - match goal with V : Work _ _ _ _ (POr _ _) _ _ _ |- _ => inversion V; subst; clear V end;
      match goal with V : Work _ _ _ _ (PThen _ (PThen _ (PLit [99%N]))) _ _ _ |- _ => apply (twice_part _ (2 ^ m) i 99%N _ _ HI ltac:(discriminate) IH') in V end;
      cbn [Nat.pow]; lia.
Qed.

Theorem C87_exponential_refuted : exists G p, forall n,
  (exists o N, Work KStr G no_skip (as_ n) p 0 o N) /\
  (forall o N, Work KStr G no_skip (as_ n) p 0 o N -> 2 ^ n <= N).
Proof.
  exists twice_env, (PRef 0). intros n. split.
  - destruct (twice_runs n n 0 eq_refl) as [o P]. apply (proj1 (peg_work KStr twice_env no_skip)) in P. destruct P as [N W]. eauto.
  - intros o N. now apply (twice_cost n n 0).
Qed.

(** Without recursive handles ([flat]) it is never worse than polynomial, under any policy (whose own work is not counted): the exponent is how
    deep loops are nested in each other ([loops]; a run of one unit is a loop, one of bounded length is not). *)
Theorem C87_polynomial : forall k G sk pols p,
  skipper sk -> core_env k G sk -> implements k G sk pols -> core k G sk p -> flat p = true ->
  exists c, forall w i o n, i <= length w -> sk w i = i -> Work k G sk w p i o n -> n <= c * S (length w) ^ loops p.
Proof.
  intros k G sk pols p SK CE IM C F. exists (share p). intros w i o n. now apply (poly_work k G sk pols p).
Qed.

(** Numbers separated by commas, blanks skipped: at most quadratic. *)
Example C87_polynomial_case : exists sk, let p := PSep (PMany1 NAsciiDigit CEmpty) (PLit [44]%N) 1 true in
  skipper sk /\ core_env KStr [] sk /\ implements KStr [] sk skip_ascii_whitespace /\ core KStr [] sk p /\ flat p = true /\ loops p = 2.
Proof.
  exists (skip_run NAsciiWhitespace). split; [apply skip_run_skipper|]. split; [closed_env; shape|].
  split; [apply skip_ascii_implements|]. split; [shape|]. split; reflexivity.
Qed.

(** The exponent is reached: [("a"* "b" | "a")*] has loops nested two deep, and on [n] times "a" it reads
    the rest of the text at each item. *)
Definition again : pat := POr (PThen (PMany0 (NChar 97%N) CEmpty) (PLit [98]%N)) (PLit [97]%N).
Lemma as_nth n i : i < n -> nth_error (as_ n) i = Some 97%N.
Proof. unfold as_. revert i. induction n as [|n IH]; intros [|i] H; cbn; try lia; [reflexivity|]. apply IH. lia. Qed.
Lemma as_length n : length (as_ n) = n.
Proof. apply repeat_length. Qed.
Lemma again_run n i l : forall m, i + m + l = n -> Run KStr [] no_skip (as_ n) i (NChar 97%N) CEmpty None m (inl l).
Proof.
  induction l as [|l IH]; intros m E.
  - apply Run_stop; [discriminate|]. apply Acc_end. rewrite as_length. lia.
  - apply Run_step; [discriminate| |apply IH; lia].
    eapply Acc_yes; [apply as_nth; lia|reflexivity|constructor].
Qed.
Lemma again_cost n i l : forall m r N, i + m + l = n ->
  RunW KStr [] no_skip (as_ n) i (NChar 97%N) CEmpty None m r N -> l < N /\ r = inl l.
Proof.
  induction l as [|l IH]; intros m r N E W.
  - inversion W; subst; match goal with A : AccW _ _ _ _ _ _ _ _ _ _ |- _ => inversion A; subst end;
      try (match goal with X : nth_error _ _ = Some _ |- _ => apply (f_equal (fun o => match o with Some _ => true | None => false end)) in X;
             rewrite (proj2 (nth_error_None _ _)) in X by (rewrite as_length; lia); discriminate X end).
    split; [lia|reflexivity].
  - assert (HN : i + m < n) by lia.
    inversion W; subst; match goal with A : AccW _ _ _ _ _ _ _ _ _ _ |- _ => inversion A; subst end;
      try (match goal with X : length (as_ _) <= _ |- _ => rewrite as_length in X; lia end);
      match goal with X : nth_error _ _ = Some ?x |- _ => rewrite as_nth in X by assumption; injection X as <- end; try discriminate;
      match goal with X : ChkW _ _ _ _ _ _ _ _ _ _ |- _ => inversion X; subst end.
    + match goal with X : RunW _ _ _ _ _ _ _ _ _ _ _ |- _ => apply (IH (S m)) in X; [destruct X as [? X]; injection X as ->|lia] end. split; [lia|reflexivity].
    + match goal with X : RunW _ _ _ _ _ _ _ _ _ _ _ |- _ => apply (IH (S m)) in X; [destruct X as [? X]; discriminate X|lia] end.
Qed.
Lemma again_lit n i x o N : Work KStr [] no_skip (as_ n) (PLit [x]) i o N -> (x = 97%N /\ i < n /\ o = OK i (S i)) \/ ((x <> 97%N \/ n <= i) /\ exists e, o = KO e).
Proof.
  intros W. inversion W; subst.
  - left. match goal with X : firstn _ _ = _ |- _ => apply as_at in X; destruct X as [-> ?] end. cbn [length].
    split; [reflexivity|]. split; [assumption|]. f_equal. lia.
  - right. split; [|eauto]. destruct (N.eq_dec x 97) as [->|]; [|now left]. right. destruct (le_lt_dec n i) as [|L]; [assumption|].
    exfalso. match goal with X : _ <> _ |- _ => apply X end. now apply as_in.
Qed.
Lemma again_once n i l o N : i + l = n -> Work KStr [] no_skip (as_ n) again i o N ->
  l <= N /\ (0 < l -> o = OK i (S i)).
Proof.
  intros E W. unfold again in W. inversion W; subst;
    match goal with V : Work _ _ _ _ (PThen _ _) _ _ _ |- _ => inversion V; subst end;
    match goal with V : Work _ _ _ _ (PMany0 _ _) _ _ _ |- _ => inversion V; subst end;
    match goal with R : RunW _ _ _ _ ?x _ _ _ _ _ _ |- _ => apply (again_cost (x + l) x l) in R; [destruct R as [? R]|lia]; try discriminate R end;
    match goal with V : Work _ _ _ _ (PLit [98%N]) _ _ _ |- _ => apply again_lit in V; destruct V as [[V _]|[_ [? V]]]; try discriminate V end.
  match goal with V : Work _ _ _ _ (PLit [97%N]) _ _ _ |- _ => apply again_lit in V; destruct V as [(_ & ? & ->)|[[V|V] [? ->]]] end.
  - split; [lia|reflexivity].
  - congruence.
  - split; [lia|]. intros; lia.
Qed.
Lemma again_loop n l : forall i a j N, i + l = n -> RepsW KStr [] no_skip (as_ n) again None i a j N -> l * l <= 2 * N.
Proof.
  induction l as [|l IH]; intros i a j N E R; [lia|].
  inversion R; subst;
    match goal with V : Work _ _ _ _ again (no_skip _ ?x) _ _ |- _ => apply (again_once (x + S l) x (S l)) in V; [destruct V as [V1 V2]; specialize (V2 (Nat.lt_0_succ _)); try discriminate V2|reflexivity] end.
  injection V2 as -> ->. match goal with X : RepsW _ _ _ _ _ _ _ _ _ _ |- _ => apply (IH (S i)) in X; [|lia] end. lia.
Qed.
Lemma again_runs n l : forall i, i + l = n -> Reps KStr [] no_skip (as_ n) again None i l n.
Proof.
  induction l as [|l IH]; intros i E.
  - assert (i = n) as -> by lia. apply Reps_stop with (e := ELiteral); [discriminate|].
    eapply Peg_or2; [eapply Peg_then_ko2; [apply Peg_many0, (again_run n n 0 0); lia|]|]; apply Peg_lit_ko; cbn [length]; intros X; apply as_at in X;
      [destruct X; discriminate|unfold no_skip in X; lia].
  - eapply Reps_step with (b := i) (j := S i); [discriminate| |apply IH; lia].
    eapply Peg_or2; [eapply Peg_then_ko2; [apply Peg_many0, (again_run n i (S l) 0); lia|apply Peg_lit_ko; cbn [length]; intros X; apply as_at in X; destruct X; discriminate]|].
    unfold no_skip. replace (S i) with (i + length [97]%N) by (cbn; lia). apply Peg_lit. cbn [length]. apply as_in. lia.
Qed.
Theorem C87_quadratic : exists p, core KStr [] no_skip p /\ flat p = true /\ loops p = 2 /\ forall n,
  (exists o N, Work KStr [] no_skip (as_ n) p 0 o N) /\
  (forall o N, Work KStr [] no_skip (as_ n) p 0 o N -> n * n <= 2 * N).
Proof.
  exists (PCollect again 0). split; [|split; [reflexivity|split; [reflexivity|]]].
  { unfold again. repeat constructor. }
  intros n. split.
  - pose proof (Peg_collect KStr [] no_skip _ _ 0 _ _ _ (again_runs n n 0 eq_refl) (Nat.le_0_l _)) as P.
    apply (proj1 (peg_work KStr [] no_skip)) in P. destruct P as [N W]. eauto.
  - intros o N W. inversion W; subst; [|lia]. match goal with X : RepsW _ _ _ _ _ _ _ _ _ _ |- _ => apply (again_loop n n 0) in X; [lia|reflexivity] end.
Qed.

(** No call goes uncounted: the steps are at least as many as the calls that are on top of each other at any time
    (Calls.v). *)
Theorem C87_covers : forall k G sk w p i o n, Work k G sk w p i o n ->
  forall m, Stack k G sk (CPat w p i) m -> m <= n.
Proof. intros k G sk w p i o n W m St. exact (proj1 (work_counted k G sk) w p i o n W _ m eq_refl St). Qed.
(** A literal behind a handle behind two adapters. *)
Example C87_covers_case : exists G p w o n, Work KStr G no_skip w p 0 o n /\ Stack KStr G no_skip (CPat w p 0) 4.
Proof.
  assert (CE : core_env KStr [Some (PLit [97]%N)] no_skip) by (closed_env; shape).
  assert (M : Matches KStr [Some (PLit [97]%N)] (PPat (PLeaf (PRef 0))) [97]%N 0 0 1) by matches 20.
  apply C87_counted in M; [|exact CE|shape|cbn; lia]. destruct M as [n W].
  exists [Some (PLit [97]%N)], (PPat (PLeaf (PRef 0))), [97]%N, (OK 0 1), n. split; [exact W|].
  eapply s_more; [apply c_pat|]. eapply s_more; [apply c_leaf|]. eapply s_more; [apply c_ref; reflexivity|]. apply s_one.
Qed.

Print Assumptions C87_counted.
Print Assumptions C87_linear.
Print Assumptions C87_whole.
Print Assumptions C87_exponential_refuted.
Print Assumptions C87_polynomial.
Print Assumptions C87_quadratic.
Print Assumptions C87_covers.
