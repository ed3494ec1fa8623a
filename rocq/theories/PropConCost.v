(** What building a value costs (C90).  [ConD k G sk hv w p i st o n] (ConDeep.v): while [p] builds a value at [i], with the
    handler's state [st] and the outcome [o], up to [n] calls are on the stack.  [ConW] (ConWork.v): [n] calls are made. *)

From Coq Require Import List Arith NArith ZArith Bool Lia.
From Verif Require Import Base Text Context Neu Syntax Regex Ctor Api TextProofs Spec Core Sound Obs Laws ApiLaws PegLaws PolicyLaws
  Consumes Term TermLaws Complete CtorSpec ConSpec ConSound ConComplete ConTerm PropCon Samples Json JsonOwned OwnedLaws WorkPoly Deep DeepLaws PropDeep Work
  ConDeep ConDeepLaws ConWork ConWorkLaws Calls ConCalls.
Import ListNotations.

(** ** C90 *)

(** The two counts are those of the runs there are. *)
Theorem C90_counted : forall S k G hv (h : handler S) p w i st,
  InPlainScope k G hv h p -> i <= length w ->
  (forall v j st', j <= length w ->
    Builds h G [] p (cx k w i) st (Ok v) (cx k w j) st' <->
    exists n N, ConD k G no_skip hv w p i st (CV v j st') n /\ ConW k G no_skip hv w p i st (CV v j st') N) /\
  (forall e j st', j <= length w ->
    Builds h G [] p (cx k w i) st (Err e) (cx k w j) st' <->
    exists n N, ConD k G no_skip hv w p i st (CE e j st') n /\ ConW k G no_skip hv w p i st (CE e j st') N) /\
  ((exists c' st', Builds h G [] p (cx k w i) st Panic c' st') <->
    exists n N, ConD k G no_skip hv w p i st CP n /\ ConW k G no_skip hv w p i st CP N).
Proof.
  intros S k G hv h p w i st C Hi.
  assert (X : forall o, Con k G no_skip hv w p i st o <->
    exists n N, ConD k G no_skip hv w p i st o n /\ ConW k G no_skip hv w p i st o N).
  { intros o. split.
    - intros P. destruct (proj1 (con_condeep k G no_skip hv) _ _ _ _ _ P) as [n D].
      destruct (proj1 (con_conwork k G no_skip hv) _ _ _ _ _ P) as [N W]. eauto.
    - intros (n & N & D & _). exact (proj1 (condeep_con k G no_skip hv) _ _ _ _ _ _ D). }
  split; [|split].
  - intros v j st' Hj. rewrite (C70_built S k G hv h p w i st v j st' C Hi Hj). apply X.
  - intros e j st' Hj. rewrite (C70_failed S k G hv h p w i st e j st' C Hi Hj). apply X.
  - rewrite (C70_panicked S k G no_skip [] hv h p w i st C Hi). apply X.
Qed.
Example C90_counted_case : InPlainScope KStr [] tally_answer tally shorts /\
  exists n N, ConD KStr [] no_skip tally_answer shorts_text shorts 0 0 (CV (VList [VText [49; 50]%N]) 6 2) n /\
    ConW KStr [] no_skip tally_answer shorts_text shorts 0 0 (CV (VList [VText [49; 50]%N]) 6 2) N.
Proof.
  pose proof (shorts_scope KStr) as C. split; [exact C|].
  apply (C90_counted nat KStr [] tally_answer tally shorts shorts_text 0 0 C); [cbn; lia..|].
  exists 20. split; [reflexivity|discriminate].
Qed.

(** Without recursive handles and parsers made while matching, no text, handler or skipping policy makes the stack higher
    than a number that depends on the parser alone. *)
Theorem C90_flat : forall p, flat p = true ->
  exists c, forall S k G sk (hv : text -> nat -> nat -> S -> res val * S) w i st o n, ConD k G sk hv w p i st o n -> n <= c.
Proof. intros p F. exists (1 + height p). intros S k G sk hv w i st o n D. exact (proj1 (condeep_flat k G sk hv) w p i st o n D F). Qed.
Example C90_flat_case : flat shorts = true.
Proof. reflexivity. Qed.

(** With recursive handles, if the parser and the handles pass the checks of C23 and C70, building answers, whatever the
    handler returns, and the stack is at most a constant times what is left of the text.  The constant does not depend on
    the handler's state. *)
Theorem C90_linear : forall S k G sk pols hv (h : handler S) K KC rk L m p,
  InScope k G sk pols hv h p ->
  (forall x q, env_get G x = Some q -> K x = true -> consumes K q = true) ->
  (forall x q, env_get G x = Some q -> KC x = true -> cconsumes K KC q = true) ->
  (forall x q, env_get G x = Some q -> wfb K rk L (rk x) q = true /\ cwfb K KC rk L (rk x) q = true /\ fixed q = true) ->
  cwfb K KC rk L m p = true -> fixed p = true ->
  exists c, forall w i st, i <= length w ->
    (exists o n, ConD k G sk hv w p i st o n) /\
    (forall o n, ConD k G sk hv w p i st o n -> n <= c * (1 + (length w - i))).
Proof.
  intros S k G sk pols hv h K KC rk L m p [C1 C2 C3 C4 C5 C6] KE KCE WE W F.
  assert (W1 : wf_env k G sk rk).
  { intros x q E. apply (wfb_wf k G sk pols C1 C2 C3 K rk L KE); [eapply C3; eauto|apply (WE x q E)]. }
  assert (W2 : cwf_env k G sk hv rk).
  { intros x q E. eapply (cwfb_cwf k G sk pols hv K KC rk L h); eauto; try (eapply C4; eauto); apply (WE x q E). }
  assert (W3 : cwf k G sk hv rk m p) by (eapply (cwfb_cwf k G sk pols hv K KC rk L h); eauto).
  destruct (con_linear_depth k G sk pols hv h rk m p C1 C2 C3 C4 C6 W1 W2 (fun x q E => proj2 (proj2 (WE x q E))) W3 C5 F) as [c H].
  exists c. intros w i st Hi. split.
  - destruct (con_checked k G sk pols hv K KC rk L h C1 C3 C2 C4 C6 KE KCE m p w i st) as [o P]; auto.
    { intros x q E. destruct (WE x q E) as (A & B & _). now split. }
    destruct (proj1 (con_condeep k G sk hv) _ _ _ _ _ P) as [n D]. eauto.
  - intros o n D. specialize (H w i st o n Hi D). etransitivity; [exact H|].
    apply Nat.mul_le_mono_l. destruct C1 as [A B]. specialize (A w i). lia.
Qed.
(** Lists of lists of numbers, blanks skipped. *)
Example C90_linear_case : exists sk K rk,
  InScope KStr nested_env sk skip_ascii_whitespace slice_answer extract_text (PRef 0) /\
  (forall x q, env_get nested_env x = Some q -> K x = true -> consumes K q = true) /\
  (forall x q, env_get nested_env x = Some q -> K x = true -> cconsumes K K q = true) /\
  (forall x q, env_get nested_env x = Some q -> wfb K rk 1 (rk x) q = true /\ cwfb K K rk 1 (rk x) q = true /\ fixed q = true) /\
  cwfb K K rk 1 1 (PRef 0) = true.
Proof.
  exists (skip_run NAsciiWhitespace), (fun _ => true), (fun _ => 0). split.
  - constructor.
    + apply skip_run_skipper.
    + apply skip_ascii_implements.
    + closed_env; shape.
    + closed_env. apply ok_or; [apply ok_leaf; [exact I|shape]|].
      apply ok_enclose; [apply ok_sep; [apply ok_ref|shape]|shape|shape].
    + apply ok_ref.
    + apply slice_answers.
  - split; [closed_env; reflexivity|]. split; [closed_env; reflexivity|]. split; [closed_env; repeat split; reflexivity|]. reflexivity.
Qed.

(** And that much is needed: see C88. *)
Lemma parens_builds n r m : forall i o N, i + m = n -> ConD KStr parens_env no_skip slice_answer (opened n r) (PRef 0) i tt o N -> m < N.
Proof.
  induction m as [|m IH]; intros i o N E D.
  { inversion D; subst; try lia; cbn in *; try contradiction. }
  assert (T : forall o N, ConD KStr parens_env no_skip slice_answer (opened n r) (PThen (PLit [40]%N) (PThen (PRef 0) (PLit [41]%N))) i tt o N -> m < N).
  { intros o' N' V. inversion V; subst; try contradiction;
      match goal with X : ConD _ _ _ _ _ (PLit [40]%N) _ _ _ _ |- _ => inversion X; subst; clear X end; try discriminate;
      match goal with X : Deep _ _ _ _ (PLit [40]%N) _ _ _ |- _ => inversion X; subst end;
      try (exfalso; match goal with Y : _ <> _ |- _ => apply Y; apply opened_at; unfold no_skip; lia end);
      repeat match goal with X : settle _ _ = CV _ _ _ |- _ => unfold settle, slice_answer in X; cbn in X; injection X as <- <- <- end;
      try (match goal with X : stops (settle _ _) |- _ => exfalso; exact X end);
      match goal with X : ConD _ _ _ _ _ (PThen _ (PLit [41]%N)) ?x ?s _ _ |- _ => inversion X; subst; try contradiction end;
      match goal with X : ConD _ _ _ _ _ (PRef 0) ?x ?s _ _ |- _ => try destruct s; apply (IH x) in X; unfold no_skip in *; try lia end. }
  inversion D; subst; try contradiction; [|discriminate]. match goal with X : env_get _ _ = Some _ |- _ => injection X as <- end.
  match goal with X : ConD _ _ _ _ _ parens _ _ _ _ |- _ => unfold parens in X; inversion X; subst end; try contradiction;
    match goal with X : ConD _ _ _ _ _ (PThen _ _) _ _ _ _ |- _ => apply T in X end; lia.
Qed.

Lemma parens_scope : InPlainScope KStr parens_env slice_answer extract_text (PRef 0).
Proof.
  constructor.
  - apply no_skip_skipper.
  - apply no_skip_implements.
  - closed_env; shape.
  - closed_env. apply ok_or; [apply ok_then; [|apply ok_then; [apply ok_ref|]]|]; apply ok_leaf; first [exact I|shape].
  - apply ok_ref.
  - apply slice_answers.
Qed.
Theorem C90_reached : forall n r,
  (exists o N, ConD KStr parens_env no_skip slice_answer (opened n r) (PRef 0) 0 tt o N) /\
  (forall o N, ConD KStr parens_env no_skip slice_answer (opened n r) (PRef 0) 0 tt o N -> n < N).
Proof.
  intros n r. split; [|intros o N; now apply (parens_builds n r n 0)].
  destruct (C90_linear unit KStr parens_env no_skip [] slice_answer extract_text (fun _ => false) (fun _ => false) (fun _ => 0) 1 1 (PRef 0)
    parens_scope ltac:(discriminate) ltac:(discriminate) ltac:(closed_env; repeat split; reflexivity) eq_refl eq_refl) as [c H].
  exact (proj1 (H (opened n r) 0 tt (Nat.le_0_l _))).
Qed.

(** Without recursive handles, if the loops of the parser consume, the calls are at most a constant times the length of
    the text to the power of the nesting of its loops. *)
Theorem C90_polynomial : forall S k G sk pols hv (h : handler S) K KC rk L m p,
  InScope k G sk pols hv h p ->
  (forall x q, env_get G x = Some q -> K x = true -> consumes K q = true) ->
  (forall x q, env_get G x = Some q -> KC x = true -> cconsumes K KC q = true) ->
  cwfb K KC rk L m p = true -> flat p = true ->
  exists c, forall w i st o n, i <= length w -> ConW k G sk hv w p i st o n -> n <= c * (1 + length w) ^ loops p.
Proof.
  intros S k G sk pols hv h K KC rk L m p [C1 C2 C3 C4 C5 C6] KE KCE W F. exists (cshare p).
  apply (con_poly_work k G sk pols hv h rk m p C1 C2 C3 C4 C6); auto.
  eapply (cwfb_cwf k G sk pols hv K KC rk L h); eauto.
Qed.
Example C90_polynomial_case : InPlainScope KStr [] tally_answer tally shorts /\
  cwfb (fun _ => true) (fun _ => true) (fun _ => 0) 1 0 shorts = true /\ flat shorts = true.
Proof. split; [apply shorts_scope|]. split; reflexivity. Qed.

(** The loops must consume: a loop over what may be empty has no end when it matches (C23), but when it builds it goes on
    for as long as the handler accepts.  This handler accepts [st] times; the text is empty. *)
Definition patient_answer (w : text) (b j : nat) (n : nat) : res val * nat := match n with O => (Err EBounded, O) | S n' => (Ok VUnit, n') end.
Definition patient : handler nat := fun c s n => patient_answer [] 0 0 n.
Lemma patient_loop k n : forall N l, CrepsW k [] no_skip patient_answer [] PEmpty None 0 n l N -> n <= N.
Proof.
  induction n as [|n IH]; intros N l D; [lia|].
  inversion D; subst; match goal with X : ConW _ _ _ _ _ PEmpty _ _ _ _ |- _ => inversion X; subst; clear X end; try discriminate;
    match goal with X : Work _ _ _ _ PEmpty _ _ _ |- _ => inversion X; subst; clear X end; try discriminate.
  match goal with X : CrepsW _ _ _ _ _ _ _ _ _ _ _ |- _ => cbn in X; apply IH in X end. lia.
Qed.
Lemma patient_runs k n : exists l, Creps k [] no_skip patient_answer [] PEmpty None 0 n l.
Proof.
  assert (M : forall m, Con k [] no_skip patient_answer [] PEmpty 0 m (settle 0 (patient_answer [] 0 0 m))).
  { intros m. apply (Con_leaf k [] no_skip patient_answer [] PEmpty 0 m 0 0); [exact I|]. apply Peg_empty. }
  induction n as [|n [l IH]].
  - eexists. eapply Creps_stop; [discriminate|exact (M 0)].
  - eexists. eapply Creps_step; [discriminate|exact (M (S n))|exact IH].
Qed.
Theorem C90_polynomial_refuted : exists p hv (h : handler nat),
  InPlainScope KStr [] hv h p /\ flat p = true /\ loops p = 1 /\ forall n,
    (exists o N, ConW KStr [] no_skip hv [] p 0 n o N) /\
    (forall o N, ConW KStr [] no_skip hv [] p 0 n o N -> n < N).
Proof.
  exists (PCollect PEmpty 0), patient_answer, patient. split; [|split; [reflexivity|split; [reflexivity|intros n; split]]].
  - constructor.
    + apply no_skip_skipper.
    + apply no_skip_implements.
    + apply sample_env_core.
    + intros x q E. destruct x; discriminate E.
    + apply ok_collect, ok_leaf; [exact I|shape].
    + intros w x b j st _ _. split; [now destruct st|]. now destruct st.
  - destruct (patient_runs KStr n) as [l P]. apply (Con_collect _ _ _ _ _ _ 0) in P.
    destruct (proj1 (con_conwork KStr [] no_skip patient_answer) _ _ _ _ _ P) as [N W]. eauto.
  - intros o N D. inversion D; subst; try contradiction.
    match goal with X : CrepsW _ _ _ _ _ _ _ _ _ _ _ |- _ => apply patient_loop in X end. lia.
Qed.

(** The heights above are those of chains of calls: ConCalls.v lists, parser by parser, the calls each call makes, and the
    height is that of the highest chain that starts at the parser.  The calls that are made are no fewer. *)
Theorem C90_exact : forall S k G sk (hv : text -> nat -> nat -> S -> res val * S) w p i st o n,
  ConD k G sk hv w p i st o n ->
  BStack k G sk hv (BBuild w p i st) n /\ forall m, BStack k G sk hv (BBuild w p i st) m -> m <= n.
Proof.
  intros S k G sk hv w p i st o n D. destruct (proj1 (condeep_highest k G sk hv) _ _ _ _ _ _ D) as [[A|(c & <- & A)] B].
  - subst n. exfalso. specialize (B (BBuild w p i st) 1 eq_refl (bs_one _ _ _ _ _)). lia.
  - split; [exact A|]. intros m St. exact (B _ m eq_refl St).
Qed.
Theorem C90_covers : forall S k G sk (hv : text -> nat -> nat -> S -> res val * S) w p i st o n,
  ConW k G sk hv w p i st o n -> forall m, BStack k G sk hv (BBuild w p i st) m -> m <= n.
Proof. intros S k G sk hv w p i st o n W m St. exact (proj1 (conwork_counted k G sk hv) _ _ _ _ _ _ W _ m eq_refl St). Qed.
(** An optional literal: the option builds, the literal builds, the literal is matched. *)
Example C90_exact_case : exists o n N,
  ConD KStr [] no_skip slice_answer [97]%N (POption (PLit [97]%N)) 0 tt o n /\
  ConW KStr [] no_skip slice_answer [97]%N (POption (PLit [97]%N)) 0 tt o N /\
  BStack KStr [] no_skip slice_answer (BBuild [97]%N (POption (PLit [97]%N)) 0 tt) 3.
Proof.
  assert (P : Con KStr [] no_skip slice_answer [97]%N (POption (PLit [97]%N)) 0 tt (CV (VSome (VText [97]%N)) 1 tt)).
  { apply Con_some. apply (Con_leaf KStr [] no_skip slice_answer [97]%N (PLit [97]%N) 0 tt 0 1 I).
    apply (Peg_lit KStr [] no_skip [97]%N 0 [97]%N). reflexivity. }
  destruct (proj1 (con_condeep KStr [] no_skip slice_answer) _ _ _ _ _ P) as [n D].
  destruct (proj1 (con_conwork KStr [] no_skip slice_answer) _ _ _ _ _ P) as [N W].
  do 3 eexists. split; [exact D|]. split; [exact W|].
  eapply bs_more; [apply b_option|]. eapply bs_more; [apply b_leaf; exact I|]. apply bs_one.
Qed.

Print Assumptions C90_counted.
Print Assumptions C90_flat.
Print Assumptions C90_linear.
Print Assumptions C90_reached.
Print Assumptions C90_polynomial.
Print Assumptions C90_polynomial_refuted.
Print Assumptions C90_exact.
Print Assumptions C90_covers.
