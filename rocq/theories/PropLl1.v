(** Parsers that need one item of lookahead read every word of their language (C79), the converse of
    C46 where it holds.  [one_ahead] (file Ll1.v) is the textbook LL(1) condition in the form the
    combinators need: by the next item one can tell whether a repetition, an option or a word goes on,
    and which alternative begins. *)

From Coq Require Import List Arith NArith Bool Lia.
From Verif Require Import Base Text Context Neu Syntax Regex Ctor Api TextProofs Spec Core Obs Laws ApiLaws PegLaws
  Consumes TermLaws Lang Ll1 Complete CtorSpec Samples.
Import ListNotations.

(** ** C79 *)

(** A word [s] of the language in front of the cursor, not followed by an item that could continue
    it, is matched, all of it. *)
Theorem C79_match : forall k G R p a s t,
  one_ahead k G R p -> Lang G p s -> ~ ahead t (ex (info_of R p)) ->
  Matches k G p (a ++ s ++ t) (length a) (length a) (length a + length s).
Proof.
  intros k G R p a s t O H N. destruct (one_ahead_core k G R p O) as (CE & _ & C & _).
  assert (Hi : length a <= length (a ++ s ++ t)) by (rewrite app_length; lia).
  apply (matches_peg k G CE); auto. eapply one_ahead_peg; eauto.
  rewrite skipn_app, skipn_all, Nat.sub_diag. reflexivity.
Qed.

(** Anchored at both ends the parser accepts exactly the texts of its language. *)
Theorem C79_whole : forall k G R p w, one_ahead k G R p ->
  (Matches k G (PThen p PEnd) w 0 0 (length w) <-> Lang G p w).
Proof.
  intros k G R p w O. destruct (one_ahead_core k G R p O) as (CE & SE & C & S).
  pose proof (core_then _ _ _ _ _ C (core_end _ _ _)) as CT. rewrite (matches_peg k G CE) by (auto; lia). split.
  - intros P.
    assert (Q : exists j1, Peg k G no_skip w p 0 (OK 0 j1) /\ j1 = length w).
    { inversion P; subst. match goal with H : Peg _ _ _ _ PEnd _ _ |- _ => inversion H; subst end. eauto. }
    destruct Q as (j1 & Q & ->).
    destruct (proj1 (lang_all k G CE SE) w p 0 _ Q C S (Nat.le_0_l _)) as (_ & _ & _ & H).
    unfold slice in H. rewrite Nat.sub_0_r in H. cbn [skipn] in H. now rewrite firstn_all in H.
  - intros H. eapply Peg_then with (j := length w).
    + change (length w) with (0 + length w). eapply (one_ahead_peg k G R p w 0 w []); eauto; [lia|cbn; now rewrite app_nil_r].
    + unfold no_skip. now apply Peg_end.
Qed.

(** Every other text is rejected with an error, the cursor at the start. *)
Theorem C79_reject : forall k G R p w, one_ahead k G R p ->
  (~ Lang G p w <-> exists e, Fails k G (PThen p PEnd) w 0 e).
Proof.
  intros k G R p w O. destruct (one_ahead_core k G R p O) as (CE & SE & C & S).
  rewrite <- (C79_whole k G R p w O). pose proof (core_then _ _ _ _ _ C (core_end _ _ _)) as CT. rewrite (matches_peg k G CE) by (auto; lia).
  assert (A : exists o, Peg k G no_skip w (PThen p PEnd) 0 o /\ forall b j, o = OK b j -> o = OK 0 (length w)).
  { destruct (one_ahead_answers k G R p w 0 O (Nat.le_0_l _)) as [[b j|e] P].
    - destruct (proj1 (lang_all k G CE SE) w p 0 _ P C S (Nat.le_0_l _)) as (-> & _ & Hj & _).
      destruct (Nat.eq_dec j (length w)) as [->|Z].
      + exists (OK 0 (length w)). split; [|now intros ? ? ->]. eapply Peg_then; eauto. unfold no_skip. now apply Peg_end.
      + exists (KO EAnchorEnd). split; [|discriminate]. eapply Peg_then_ko2; eauto. unfold no_skip. apply Peg_end_ko. lia.
    - exists (KO e). split; [|discriminate]. now apply Peg_then_ko1. }
  destruct A as (o & P & A). split.
  - intros N. destruct o as [b j|e]; [rewrite (A b j eq_refl) in P; now destruct N|].
    exists e. apply (fails_peg k G CE); [exact CT|lia|exact P].
  - intros (e & F) M. apply (fails_peg k G CE) in F; [|exact CT|lia].
    pose proof (peg_det k G no_skip [] no_skip_skipper CE (no_skip_implements k G) w _ 0 _ _ CT (Nat.le_0_l _) eq_refl M F). discriminate.
Qed.

(** Words of the language that begin at the same place and cannot be continued there are equal. *)
Theorem C79_unambiguous : forall k G R p s t s' t',
  one_ahead k G R p -> Lang G p s -> Lang G p s' -> s ++ t = s' ++ t' ->
  ~ ahead t (ex (info_of R p)) -> ~ ahead t' (ex (info_of R p)) -> s = s' /\ t = t'.
Proof.
  intros k G R p s t s' t' O H H' E N N'. destruct (one_ahead_core k G R p O) as (CE & _ & C & _).
  pose proof (C79_match k G R p [] s t O H N) as M. pose proof (C79_match k G R p [] s' t' O H' N') as M'.
  cbn [app length Nat.add] in M, M'. rewrite <- E in M'.
  destruct (matches_det k G CE p _ 0 _ _ _ _ C (Nat.le_0_l _) M M') as [_ L].
  split.
  - apply (f_equal (firstn (length s))) in E. rewrite L in E at 2. now rewrite !pre_app in E.
  - apply (f_equal (skipn (length s))) in E. rewrite L in E at 2. now rewrite !skipn_app, !skipn_all, !Nat.sub_diag in E.
Qed.

(** Arithmetic: [expr = atom (op atom)*], [atom = digit+ | "(" expr ")"], the handle of [expr] being
    number 0.  It needs one item of lookahead. *)
Definition op : neu := NSet [43; 45; 42; 47]%N.
Definition atom : pat := POr number (PEnclose (PRef 0) (PLit [40]%N) (PLit [41]%N)).
Definition expr : pat := PThen atom (PRepeat (PThen (POnce op CEmpty) atom) (CRange (Incl 0) Unb)).
Definition expr_env : env := [Some expr].
Definition expr_info (i : nat) : info :=
  Info false (fun x => is_match NAsciiDigit x = true \/ x = 40%N)
    (fun x => is_match NAsciiDigit x = true \/ is_match op x = true).

Lemma op_in x : is_match op x = true -> x = 43%N \/ x = 45%N \/ x = 42%N \/ x = 47%N.
Proof. cbn. rewrite !orb_true_iff, !N.eqb_eq. intuition (subst; auto; try discriminate). Qed.

Ltac sets := repeat match goal with
  | H : False |- _ => destruct H
  | H : _ /\ _ |- _ => destruct H
  | H : _ \/ _ |- _ => destruct H
  | H : is_match op _ = true |- _ => apply op_in in H
  | H : of op _ |- _ => apply op_in in H
  | H : Some _ = Some _ |- _ => injection H as H
  | H : ?x = _ |- _ => is_var x; subst x
  | H : _ = ?x |- _ => is_var x; subst x
  end; try discriminate.

Lemma expr_ready : one_ahead KStr expr_env expr_info (PRef 0).
Proof.
  split; [|split; [exact I|]].
  - intros [|i]; [|split; [discriminate|intros p E; destruct i; discriminate E]].
    split; [discriminate|intros p [= <-]].
    split; [cbn [expr atom number ll1 info_of]|]; repeat split; try discriminate.
    all: try (intros x; cbn -[is_match]; unfold of, none; intros; sets; fail).
    all: intros x; cbn -[is_match]; unfold of, none; intros; sets; auto.
  - exists (fun _ => true), (fun _ => 0), 1, 1. split; [|split].
    + intros [|x] q E; [|destruct x; discriminate E]. injection E as <-. reflexivity.
    + intros [|x] q E; [|destruct x; discriminate E]. injection E as <-. reflexivity.
    + reflexivity.
Qed.

(** "(1+2)*3" is a word of it; so the parser reads it, and stops before the semicolon. *)
Definition expr_text : text := [40; 49; 43; 50; 41; 42; 51]%N.
Lemma expr_word : Lang expr_env (PRef 0) expr_text.
Proof.
  assert (ND : forall x, is_match NAsciiDigit x = true -> Lang expr_env atom [x]).
  { intros x Hx. apply L_or_l, L_many1; [discriminate|]. now intros y [<-|[]]. }
  assert (OP : forall x, is_match op x = true -> Lang expr_env (POnce op CEmpty) [x]) by (intros; now apply L_once).
  assert (E2 : Lang expr_env (PRef 0) [49; 43; 50]%N).
  { eapply L_ref; [reflexivity|]. apply (L_then _ _ _ [49]%N [43; 50]%N); [now apply ND|].
    apply (L_repeat _ _ _ 1); [split; [apply Nat.le_0_l|exact I]|].
    apply (iter_cons _ 0 [43; 50]%N []); [|constructor].
    apply (L_then _ _ _ [43]%N [50]%N); [now apply OP|now apply ND]. }
  eapply L_ref; [reflexivity|]. apply (L_then _ _ _ [40; 49; 43; 50; 41]%N [42; 51]%N).
  - apply L_or_r. apply (L_enclose _ _ _ _ [40]%N [49; 43; 50]%N [41]%N); [constructor|exact E2|constructor].
  - apply (L_repeat _ _ _ 1); [split; [apply Nat.le_0_l|exact I]|].
    apply (iter_cons _ 0 [42; 51]%N []); [|constructor].
    apply (L_then _ _ _ [42]%N [51]%N); [now apply OP|now apply ND].
Qed.
Example C79_match_case : one_ahead KStr expr_env expr_info (PRef 0) /\ Lang expr_env (PRef 0) expr_text /\
  ~ ahead [59]%N (ex (info_of expr_info (PRef 0))) /\
  Matches KStr expr_env (PRef 0) ([32] ++ expr_text ++ [59])%N 1 1 8.
Proof.
  split; [exact expr_ready|]. split; [exact expr_word|]. split; [cbn -[is_match]; intros [H|H]; discriminate H|].
  matches 60.
Qed.
Example C79_whole_case : one_ahead KStr expr_env expr_info (PRef 0) /\ Lang expr_env (PRef 0) expr_text.
Proof. split; [exact expr_ready|exact expr_word]. Qed.
Example C79_reject_case : one_ahead KStr expr_env expr_info (PRef 0) /\
  Fails KStr expr_env (PThen (PRef 0) PEnd) (expr_text ++ [43]%N) 0 EAnchorEnd.
Proof. split; [exact expr_ready|]. fails 60. Qed.
Example C79_unambiguous_case : one_ahead KStr expr_env expr_info (PRef 0) /\ Lang expr_env (PRef 0) expr_text /\
  ~ ahead [59]%N (ex (info_of expr_info (PRef 0))).
Proof.
  split; [exact expr_ready|]. split; [exact expr_word|]. cbn -[is_match]. intros [H|H]; discriminate H.
Qed.

Print Assumptions C79_match.
Print Assumptions C79_whole.
Print Assumptions C79_reject.
Print Assumptions C79_unambiguous.
