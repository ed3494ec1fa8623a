(** How deep the calls of a match nest (C88).  [Deep k G sk w p i o n] (file Deep.v): during the match of [p] at [i] with
    outcome [o] up to [n] calls are on the stack. *)

From Coq Require Import List Arith NArith Bool Lia.
From Verif Require Import Base Text Context Neu Syntax Regex Ctor Api TextProofs Spec Core Obs Laws ApiLaws PegLaws PolicyLaws
  Consumes Term TermLaws Complete Samples WorkPoly Deep DeepLaws Calls.
Import ListNotations.

(** ** C88 *)

(** The height is one of the runs there are: what matches, and what fails, does so with some height. *)
Theorem C88_counted : forall k G p w i, core_env k G no_skip -> core k G no_skip p -> i <= length w ->
  (forall b j, Matches k G p w i b j <-> exists n, Deep k G no_skip w p i (OK b j) n) /\
  (forall e, Fails k G p w i e <-> exists n, Deep k G no_skip w p i (KO e) n).
Proof.
  intros k G p w i CE C Hi. split.
  - intros b j. rewrite (matches_peg k G CE) by auto. split; [apply (proj1 (peg_deep k G no_skip))|].
    intros [n W]. now apply (proj1 (deep_peg k G no_skip)) in W.
  - intros e. rewrite (fails_peg k G CE) by auto. split; [apply (proj1 (peg_deep k G no_skip))|].
    intros [n W]. now apply (proj1 (deep_peg k G no_skip)) in W.
Qed.

(** Without recursive handles and parsers made while matching ([flat], WorkPoly.v) no text makes the stack higher than a
    number that depends on the parser alone: loops do not nest. *)
Theorem C88_flat : forall p, flat p = true ->
  exists c, forall k G sk w i o n, Deep k G sk w p i o n -> n <= c.
Proof. intros p F. exists (height p). intros k G sk w i o n D. exact (proj1 (deep_flat k G sk) w p i o n D F). Qed.
Example C88_flat_case : flat (PCollect (PSep number comma 0 true) 0) = true.
Proof. reflexivity. Qed.

(** With recursive handles, if the parser and the handles pass the check of C23 ([wfb]: no left recursion, no loop over
    what may be empty), the match answers, and the stack is at most a constant times what is left of the text. *)
Theorem C88_linear : forall k G sk pols, skipper sk -> implements k G sk pols -> core_env k G sk ->
  forall K rk L, (forall x p, env_get G x = Some p -> K x = true -> consumes K p = true) ->
  (forall x q, env_get G x = Some q -> wfb K rk L (rk x) q = true /\ fixed q = true) ->
  forall m p, core k G sk p -> wfb K rk L m p = true -> fixed p = true ->
  exists c, forall w i, i <= length w -> sk w i = i ->
    (exists o n, Deep k G sk w p i o n) /\
    (forall o n, Deep k G sk w p i o n -> n <= c * S (length w - i)).
Proof.
  intros k G sk pols SK IM CE K rk L HK HE m p C W F.
  assert (WE : wf_env k G sk rk).
  { intros x q E. apply (wfb_wf k G sk pols SK IM CE K rk L HK); [eapply CE; eauto|exact (proj1 (HE x q E))]. }
  pose proof (wfb_wf k G sk pols SK IM CE K rk L HK p m C W) as Wp.
  destruct (linear_depth k G sk pols rk m p SK IM CE WE (fun x q E => proj2 (HE x q E)) Wp C F) as [c H].
  exists c. intros w i Hi S0. split; [|eauto].
  destruct (peg_total k G sk rk SK CE WE pols IM m p Wp C w i Hi S0) as [o P].
  apply (proj1 (peg_deep k G sk)) in P. destruct P; eauto.
Qed.
(** Lists of lists of numbers, blanks skipped. *)
Example C88_linear_case : exists sk K rk,
  skipper sk /\ implements KStr nested_env sk skip_ascii_whitespace /\ core_env KStr nested_env sk /\
  (forall x p, env_get nested_env x = Some p -> K x = true -> consumes K p = true) /\
  (forall x q, env_get nested_env x = Some q -> wfb K rk 1 (rk x) q = true /\ fixed q = true) /\
  core KStr nested_env sk (PRef 0) /\ wfb K rk 1 1 (PRef 0) = true /\ fixed (PRef 0) = true.
Proof.
  exists (skip_run NAsciiWhitespace), (fun _ => true), (fun _ => 0).
  split; [apply skip_run_skipper|]. split; [apply skip_ascii_implements|]. split; [closed_env; shape|].
  split; [closed_env; reflexivity|]. split; [closed_env; split; reflexivity|]. split; [shape|]. split; reflexivity.
Qed.

(** And no text is needed that is cleverer than [n] opening brackets: [S = "(" S ")" | ""] needs [n] calls on top of each
    other, whatever follows. *)
Definition parens : pat := POr (PThen (PLit [40]%N) (PThen (PRef 0) (PLit [41]%N))) PEmpty.
Definition parens_env : env := [Some parens].
Definition opened (n : nat) (r : text) : text := repeat 40%N n ++ r.
Lemma opened_at n r i : i < n -> firstn 1 (skipn i (opened n r)) = [40]%N.
Proof. unfold opened. revert i. induction n as [|n IH]; intros [|i] H; cbn; try lia; [reflexivity|]. apply IH. lia. Qed.
Lemma parens_depth n r m : forall i o N, i + m = n -> Deep KStr parens_env no_skip (opened n r) (PRef 0) i o N -> m < N.
Proof.
  induction m as [|m IH]; intros i o N E D; [inversion D; subst; lia|].
  assert (T : forall o N, Deep KStr parens_env no_skip (opened n r) (PThen (PLit [40]%N) (PThen (PRef 0) (PLit [41]%N))) i o N -> m < N).
  { intros o' N' V. inversion V; subst;
      match goal with X : Deep _ _ _ _ (PLit [40]%N) _ _ _ |- _ => inversion X; subst end;
      try (exfalso; match goal with Y : _ <> _ |- _ => apply Y; apply opened_at; lia end);
      match goal with X : Deep _ _ _ _ (PThen _ (PLit [41]%N)) _ _ _ |- _ => unfold no_skip in X at 2; cbn [length] in X; inversion X; subst end;
      match goal with X : Deep _ _ _ _ (PRef 0) ?x _ _ |- _ => apply (IH x) in X; lia end. }
  inversion D; subst; [|discriminate]. match goal with X : env_get _ _ = Some _ |- _ => injection X as <- end.
  match goal with X : Deep _ _ _ _ parens _ _ _ |- _ => unfold parens in X; inversion X; subst end;
    match goal with X : Deep _ _ _ _ (PThen _ _) _ _ _ |- _ => apply T in X end; lia.
Qed.
Theorem C88_reached : forall n r,
  (exists o N, Deep KStr parens_env no_skip (opened n r) (PRef 0) 0 o N) /\
  (forall o N, Deep KStr parens_env no_skip (opened n r) (PRef 0) 0 o N -> n < N).
Proof.
  intros n r. split.
  - assert (WE : forall x q, env_get parens_env x = Some q -> wfb (fun _ => false) (fun _ => 0) 1 0 q = true /\ fixed q = true)
      by (closed_env; split; reflexivity).
    destruct (C88_linear KStr parens_env no_skip [] no_skip_skipper (no_skip_implements _ _) ltac:(closed_env; shape)
      (fun _ => false) (fun _ => 0) 1 ltac:(discriminate) WE 1 (PRef 0) ltac:(shape) eq_refl eq_refl) as [c H].
    exact (proj1 (H (opened n r) 0 (Nat.le_0_l _) eq_refl)).
  - intros o N. now apply (parens_depth n r n 0).
Qed.

(** The heights above are those of chains of calls: Calls.v lists, parser by parser, the calls each call makes, and the
    height is that of the highest chain that starts at the parser. *)
Theorem C88_exact : forall k G sk w p i o n,
  Deep k G sk w p i o n ->
  Stack k G sk (CPat w p i) n /\ forall m, Stack k G sk (CPat w p i) m -> m <= n.
Proof.
  intros k G sk w p i o n D. apply (proj1 (deep_highest k G sk)) in D. destruct n as [|n].
  - destruct D as [_ D]. specialize (D _ 1 eq_refl (s_one k G sk _)). lia.
  - now apply highest_one.
Qed.
(** An "a" and some "b" in quotes: the highest chain is that of the delimiters, the pair, the run as a constructor, the run
    and the test of an item. *)
Definition quoted : pat := PEnclose (PThen (POnce (NChar 97%N) CEmpty) (PLeaf (PMany1 (NChar 98%N) CEmpty))) (PLit [34]%N) (PLit [34]%N).
Example C88_exact_case : exists n, Deep KStr [] no_skip [34; 97; 98; 98; 34]%N quoted 0 (OK 0 5) n /\
  Stack KStr [] no_skip (CPat [34; 97; 98; 98; 34]%N quoted 0) 5.
Proof.
  assert (M : Matches KStr [] quoted [34; 97; 98; 98; 34]%N 0 0 5) by (unfold quoted; matches 20).
  apply C88_counted in M; [|closed_env|unfold quoted; shape|cbn; lia]. destruct M as [n D]. exists n. split; [exact D|].
  assert (A : Matches KStr [] (PLit [34]%N) [34; 97; 98; 98; 34]%N 0 0 1) by matches 20.
  assert (B : Matches KStr [] (POnce (NChar 97%N) CEmpty) [34; 97; 98; 98; 34]%N 1 1 2) by matches 20.
  apply (matches_peg KStr []) in A; [|closed_env|shape|cbn; lia]. apply (matches_peg KStr []) in B; [|closed_env|shape|cbn; lia].
  unfold quoted. eapply s_more; [eapply c_enclose2; exact A|]. eapply s_more; [eapply c_then2; exact B|].
  eapply s_more; [apply c_leaf|]. eapply s_more; [apply c_many1; apply T_here; discriminate|]. apply s_one.
Qed.

Print Assumptions C88_counted.
Print Assumptions C88_flat.
Print Assumptions C88_linear.
Print Assumptions C88_reached.
Print Assumptions C88_exact.
