(** C70: what a parser builds when its mappers and handlers may fail or panic.

    The specification is [Con] (ConSpec.v): started at item [i] of the text [w] with the handler in
    state [s], constructing with [p] yields a value, a position and a state; an error, a position and
    a state; or a panic. *)

From Coq Require Import List Arith NArith ZArith Bool Lia.
From Verif Require Import Base Text Context Neu Syntax Regex Ctor Api TextProofs Spec Core Sound Complete Obs Laws PolicyLaws ApiLaws
  CtorSpec CtorLaws Term TermLaws Consumes ConSpec ConSound ConComplete ConTerm ConCalm Samples.
Import ListNotations.

(** The contexts, parsers, environments and handlers the property speaks about: [sk] is what the
    skipping policies [pols] skip, [hv] what the handler answers. *)
Record InScope {S} (k : kind) (G : env) (sk : text -> nat -> nat) (pols : list pat)
    (hv : text -> nat -> nat -> S -> res val * S) (h : handler S) (p : pat) : Prop := {
  sc_skip : skipper sk;
  sc_pols : implements k G sk pols;
  sc_core : core_env k G sk;
  sc_env : con_ok_env k G sk;
  sc_pat : con_ok k G sk p;
  sc_handler : answers k sk hv h
}.
(** The same for a context without policies. *)
Definition InPlainScope {S} k G hv (h : handler S) p : Prop := InScope k G no_skip [] hv h p.

Section Main.
  Context {S : Type}.
  Variable k : kind.
  Variable G : env.
  Variable sk : text -> nat -> nat.
  Variable pols : list pat.
  Variable hv : text -> nat -> nat -> S -> res val * S.
  Variable h : handler S.

  Lemma run_con p w i st r c' st' : InScope k G sk pols hv h p -> i <= length w ->
    Builds h G pols p (cx k w i) st r c' st' -> cres k G sk hv w p i st (r, (c', st')) /\ r <> OOF.
  Proof.
    intros [C1 C2 C3 C4 C5 C6] Hi (n & E & N). split; [|exact N]. rewrite <- E. apply con_sound with (pols := pols); auto. now apply same_refl.
  Qed.
  Lemma con_run p w i x st o : InScope k G sk pols hv h p -> same sk w i x -> Con k G sk hv w p i st o ->
    cbounds sk w i o /\
    match o with
    | CV v j st' => exists y, same sk w j y /\ Builds h G pols p (cx k w x) st (Ok v) (cx k w y) st'
    | CE e j st' => exists y, same sk w j y /\ Builds h G pols p (cx k w x) st (Err e) (cx k w y) st'
    | CP => exists c' st', Builds h G pols p (cx k w x) st Panic c' st'
    end.
  Proof.
    intros [C1 C2 C3 C4 C5 C6] Q P. destruct (con_complete k G sk pols hv h C1 C3 C2 C4 C6 w p i st o P C5 (same_l _ _ _ _ Q)) as [B [n E]].
    split; [exact B|]. specialize (E n (le_n _) [] x Q). destruct o as [v j st'|e j st'|]; cbn [agrees] in E.
    - destruct E as (y & Y & E). exists y. split; [exact Y|]. exists n. split; [exact E|discriminate].
    - destruct E as (y & Y & E). exists y. split; [exact Y|]. exists n. split; [exact E|discriminate].
    - destruct E as ([c' st'] & E). exists c', st', n. split; [exact E|discriminate].
  Qed.
End Main.

Lemma plain_same w i j : same no_skip w i j -> j = i.
Proof. intros (E & _ & _). symmetry. exact E. Qed.

(** Without policies there is no condition on the handler: it is called with the match, and with the
    cursor of the context at the end of the match. *)
Definition asked {S} (k : kind) (h : handler S) (w : text) (b j : nat) (st : S) : res val * S := h (cx k w j) (sp k w b j) st.
Theorem C70_every_handler : forall S k G (h : handler S) p,
  (forall c s st, fst (h c s st) <> OOF) -> core_env k G no_skip -> con_ok_env k G no_skip -> con_ok k G no_skip p ->
  InPlainScope k G (asked k h) h p.
Proof.
  intros S k G h p N C1 C2 C3. constructor; auto; [apply no_skip_skipper|apply no_skip_implements|].
  intros w x b j st Q _. apply plain_same in Q. subst x. unfold asked. auto.
Qed.

(** A value is built exactly where the specification says; the cursor and the handler's state end up
    as it says. *)
Theorem C70_built : forall S k G hv (h : handler S) p w i st v j st',
  InPlainScope k G hv h p -> i <= length w -> j <= length w ->
  Builds h G [] p (cx k w i) st (Ok v) (cx k w j) st' <-> Con k G no_skip hv w p i st (CV v j st').
Proof.
  intros S k G hv h p w i st v j st' C Hi Hj. split.
  - intros B. destruct (run_con k G no_skip [] hv h p w i st _ _ _ C Hi B) as [R _]. inversion R; subst.
    match goal with Q : same _ _ _ _ |- _ => pose proof (plain_same _ _ _ Q); subst end.
    replace j with j0; [assumption|]. apply (bo_inj k w); auto. match goal with Q : same _ _ _ _ |- _ => apply Q end.
  - intros P. destruct (con_run k G no_skip [] hv h p w i i st _ C (same_refl _ _ _ Hi) P) as [_ (y & Y & B)].
    pose proof (plain_same _ _ _ Y). now subst y.
Qed.

(** The same for errors: which error, and where the cursor is left. *)
Theorem C70_failed : forall S k G hv (h : handler S) p w i st e j st',
  InPlainScope k G hv h p -> i <= length w -> j <= length w ->
  Builds h G [] p (cx k w i) st (Err e) (cx k w j) st' <-> Con k G no_skip hv w p i st (CE e j st').
Proof.
  intros S k G hv h p w i st e j st' C Hi Hj. split.
  - intros B. destruct (run_con k G no_skip [] hv h p w i st _ _ _ C Hi B) as [R _]. inversion R; subst.
    match goal with Q : same _ _ _ _ |- _ => pose proof (plain_same _ _ _ Q); subst end.
    replace j with j0; [assumption|]. apply (bo_inj k w); auto. match goal with Q : same _ _ _ _ |- _ => apply Q end.
  - intros P. destruct (con_run k G no_skip [] hv h p w i i st _ C (same_refl _ _ _ Hi) P) as [_ (y & Y & B)].
    pose proof (plain_same _ _ _ Y). now subst y.
Qed.

(** On a context that skips, the cursor is the specified one up to what the context skips: [same]. *)
Theorem C70_policies_built : forall S k G sk pols hv (h : handler S) p w i st v j st',
  InScope k G sk pols hv h p -> i <= length w ->
  (exists y, same sk w j y /\ Builds h G pols p (cx k w i) st (Ok v) (cx k w y) st') <->
  (exists y, same sk w j y /\ Con k G sk hv w p i st (CV v y st')).
Proof.
  intros S k G sk pols hv h p w i st v j st' C Hi. split.
  - intros (y & Y & B). destruct (run_con k G sk pols hv h p w i st _ _ _ C Hi B) as [R _].
    inversion R as [v' j' y' s' P Q L E| | |]; subst. exists j'. split; [|exact P].
    match goal with E : bo _ _ _ = bo _ _ _ |- _ => apply (bo_inj k w) in E; [subst|apply Q|apply Y] end.
    destruct Y as (? & ? & ?), Q as (? & ? & ?). repeat split; auto; congruence.
  - intros (y & Y & P). destruct (con_run k G sk pols hv h p w i i st _ C (same_refl _ _ _ Hi) P) as [_ (z & Z & B)].
    exists z. split; [|exact B]. destruct Y as (? & ? & ?), Z as (? & ? & ?). repeat split; auto; congruence.
Qed.
Theorem C70_policies_failed : forall S k G sk pols hv (h : handler S) p w i st e j st',
  InScope k G sk pols hv h p -> i <= length w ->
  (exists y, same sk w j y /\ Builds h G pols p (cx k w i) st (Err e) (cx k w y) st') <->
  (exists y, same sk w j y /\ Con k G sk hv w p i st (CE e y st')).
Proof.
  intros S k G sk pols hv h p w i st e j st' C Hi. split.
  - intros (y & Y & B). destruct (run_con k G sk pols hv h p w i st _ _ _ C Hi B) as [R _].
    inversion R as [|e' j' y' s' P Q L E| |]; subst. exists j'. split; [|exact P].
    match goal with E : bo _ _ _ = bo _ _ _ |- _ => apply (bo_inj k w) in E; [subst|apply Q|apply Y] end.
    destruct Y as (? & ? & ?), Q as (? & ? & ?). repeat split; auto; congruence.
  - intros (y & Y & P). destruct (con_run k G sk pols hv h p w i i st _ C (same_refl _ _ _ Hi) P) as [_ (z & Z & B)].
    exists z. split; [|exact B]. destruct Y as (? & ? & ?), Z as (? & ? & ?). repeat split; auto; congruence.
Qed.

(** And for panics, on any context. *)
Theorem C70_panicked : forall S k G sk pols hv (h : handler S) p w i st,
  InScope k G sk pols hv h p -> i <= length w ->
  (exists c' st', Builds h G pols p (cx k w i) st Panic c' st') <-> Con k G sk hv w p i st CP.
Proof.
  intros S k G sk pols hv h p w i st C Hi. split.
  - intros (c' & st' & B). destruct (run_con k G sk pols hv h p w i st _ _ _ C Hi B) as [R _]. now inversion R; subst.
  - intros P. exact (proj2 (con_run k G sk pols hv h p w i i st _ C (same_refl _ _ _ Hi) P)).
Qed.

(** Nothing else can happen; in particular the text is kept and the cursor is never moved off an item
    boundary or back over text that was not just skipped. *)
Theorem C70_outcomes : forall S k G sk pols hv (h : handler S) p w i st r c' st',
  InScope k G sk pols hv h p -> i <= length w -> Builds h G pols p (cx k w i) st r c' st' ->
  r = Panic \/ exists y j, c' = cx k w y /\ same sk w j y /\ sk w i <= sk w y /\
    ((exists v, r = Ok v /\ Con k G sk hv w p i st (CV v j st')) \/ (exists e, r = Err e /\ Con k G sk hv w p i st (CE e j st'))).
Proof.
  intros S k G sk pols hv h p w i st r c' st' C Hi B. destruct (run_con k G sk pols hv h p w i st _ _ _ C Hi B) as [R N].
  inversion R as [v j y s' P Q L|e j y s' P Q L| |]; subst; try congruence; auto; right; exists y, j; (split; [reflexivity|]); (split; [auto|]);
    (split; [destruct Q as (<- & _); exact L|]); [left|right]; eauto.
Qed.

(** One text position and one handler state have one outcome. *)
Theorem C70_deterministic : forall S k G hv (h : handler S) p w i st o o',
  InPlainScope k G hv h p -> i <= length w -> Con k G no_skip hv w p i st o -> Con k G no_skip hv w p i st o' -> o = o'.
Proof.
  intros S k G hv h p w i st o o' [C1 C2 C3 C4 C5 C6] Hi P Q.
  pose proof (con_det k G no_skip [] hv h C1 C3 C2 C4 C6 w p i i st o o' C5 (same_refl _ _ _ Hi) P Q) as D.
  destruct o, o'; cbn [same_out] in D; try contradiction; [| |reflexivity];
    destruct D as (-> & D & ->); pose proof (plain_same _ _ _ D); now subst.
Qed.
(** On a context that skips, it makes no difference whether the parser is started before or after the
    text that would be skipped. *)
Theorem C70_policies_deterministic : forall S k G sk pols hv (h : handler S) p w i i' st o o',
  InScope k G sk pols hv h p -> same sk w i i' -> Con k G sk hv w p i st o -> Con k G sk hv w p i' st o' -> same_out sk w o o'.
Proof.
  intros S k G sk pols hv h p w i i' st o o' [C1 C2 C3 C4 C5 C6] Q P P'.
  exact (con_det k G sk pols hv h C1 C3 C2 C4 C6 w p i i' st o o' C5 Q P P').
Qed.

(** Parsers whose unbounded loops consume and whose recursion is guarded always return.  The check is
    [cwfb] (ConTerm.v). *)
Theorem C70_returns : forall S k G sk pols hv (h : handler S) K KC rk L m p w i st,
  InScope k G sk pols hv h p -> i <= length w ->
  (forall x q, env_get G x = Some q -> K x = true -> consumes K q = true) ->
  (forall x q, env_get G x = Some q -> KC x = true -> cconsumes K KC q = true) ->
  (forall x q, env_get G x = Some q -> wfb K rk L (rk x) q = true /\ cwfb K KC rk L (rk x) q = true) ->
  cwfb K KC rk L m p = true ->
  exists r c' st', Builds h G pols p (cx k w i) st r c' st'.
Proof.
  intros S k G sk pols hv h K KC rk L m p w i st C Hi KE KCE WE W.
  pose proof C as [C1 C2 C3 C4 C5 C6].
  destruct (con_checked k G sk pols hv K KC rk L h C1 C3 C2 C4 C6 KE KCE m p w i st WE C5 W Hi) as [o P].
  destruct (con_run k G sk pols hv h p w i i st o C (same_refl _ _ _ Hi) P) as [_ B].
  destruct o as [v j s'|e j s'|].
  - destruct B as (y & _ & B). eauto.
  - destruct B as (y & _ & B). eauto.
  - destruct B as (c' & st' & B). eauto.
Qed.

(** Constructing panics only if a mapper, handler, test or closure does, or an array of fixed size is
    filled ([calm], ConCalm.v). *)
Theorem C70_no_panic : forall S k G sk pols hv (h : handler S) p w i st c' st',
  InScope k G sk pols hv h p -> i <= length w ->
  calm p -> (forall x q, env_get G x = Some q -> calm q) ->
  (forall w b j s, fst (hv w b j s) <> Panic /\ fst (hv w b j s) <> OOF) ->
  ~ Builds h G pols p (cx k w i) st Panic c' st'.
Proof.
  intros S k G sk pols hv h p w i st c' st' C Hi CP' CG CH B.
  assert (P : Con k G sk hv w p i st CP) by (apply (C70_panicked S k G sk pols hv h p w i st C Hi); eauto).
  exact (proj1 (con_calm k G sk hv CG CH) w p i st CP P CP' eq_refl).
Qed.

(** Consequences a user meets.  A mapper that rejects makes an alternative fail, and the next one
    starts from the same place - but what the handler did for the abandoned one stays done: the next
    alternative starts in the state [st1] it left. *)
Theorem C70_rejected_alternative : forall S k G hv (h : handler S) p f q w i st v j st1 e v' j' st2,
  InPlainScope k G hv h p -> InPlainScope k G hv h q -> (forall x, f x <> OOF) -> i <= length w -> j' <= length w ->
  Con k G no_skip hv w p i st (CV v j st1) -> f v = Err e -> Con k G no_skip hv w q i st1 (CV v' j' st2) ->
  Builds h G [] (POr (PMap p f) q) (cx k w i) st (Ok v') (cx k w j') st2.
Proof.
  intros S k G hv h p f q w i st v j st1 e v' j' st2 [C1 C2 C3 C4 C5 C6] [D1 D2 D3 D4 D5 D6] F Hi Hj P E Q.
  apply (C70_built S k G hv h); auto.
  - constructor; auto. apply ok_or; auto. now apply ok_map.
  - change (CV v' j' st2) with (undo i (CV v' j' st2)). eapply Con_or2; [|exact Q].
    pose proof (Con_map k G no_skip hv w p f i st v j st1 P) as M. rewrite E in M. exact M.
Qed.

(** A mapper that rejects the first element of a list does not make the list fail: the list is empty,
    the text of the rejected element has been consumed and the handler has seen it. *)
Theorem C70_rejected_element_swallowed : forall S k G hv (h : handler S) p f w i st v j st1 e,
  InPlainScope k G hv h p -> (forall x, f x <> OOF) -> i <= length w ->
  Con k G no_skip hv w p i st (CV v j st1) -> f v = Err e ->
  Builds h G [] (PCollect (PMap p f) 0) (cx k w i) st (Ok (VList [])) (cx k w j) st1.
Proof.
  intros S k G hv h p f w i st v j st1 e C F Hi P E. pose proof C as [C1 C2 C3 C4 C5 C6].
  destruct (con_run k G no_skip [] hv h p w i i st _ C (same_refl _ _ _ Hi) P) as [B _]. cbn [cbounds] in B.
  apply (C70_built S k G hv h); auto; [|lia|].
  - constructor; auto. apply ok_collect. now apply ok_map.
  - pose proof (Con_map k G no_skip hv w p f i st v j st1 P) as M. rewrite E in M. cbn [settle] in M.
    change (CV (VList []) j st1) with (count_ok (fun vs => 0 <=? length vs) ECollect i VList (LV [] j st1)).
    apply Con_collect. eapply Creps_stop; [discriminate|exact M].
Qed.

(** An optional parser that fails has no effect on the cursor, but keeps the handler's state. *)
Theorem C70_option_keeps_state : forall S k G hv (h : handler S) p w i st e x st1,
  InPlainScope k G hv h p -> i <= length w -> Con k G no_skip hv w p i st (CE e x st1) ->
  Builds h G [] (POption p) (cx k w i) st (Ok VNone) (cx k w i) st1.
Proof.
  intros S k G hv h p w i st e x st1 [C1 C2 C3 C4 C5 C6] Hi P. apply (C70_built S k G hv h); auto.
  - constructor; auto. now apply ok_option.
  - eapply Con_none; exact P.
Qed.

(** Numbers of at most two digits, separated by commas; the text is 12,345,6 *)
Definition short : pat := PMap (PPat number) (fun v => match v with VText t => if length t <=? 2 then Ok v else Err EBounded | _ => Err EBounded end).
Definition shorts : pat := PSep short comma 0 true.
Definition shorts_text : text := [49; 50; 44; 51; 52; 53; 44; 54]%N.
(** A handler that extracts the text and counts its calls. *)
Definition tally_answer (w : text) (b j : nat) (n : nat) : res val * nat := (Ok (VText (firstn (j - b) (skipn b w))), S n).
Definition tally : handler nat := fun c s n => (fst (extract_text c s tt), S n).

Lemma tally_answers k sk : answers k sk tally_answer tally.
Proof.
  intros w x b j st (_ & H2 & Hx) H1. destruct (extract_text_slice k w x b j tt Hx H1 H2) as (v & E & V). split; [|discriminate].
  unfold tally. rewrite E. unfold tally_answer. unfold is_slice in V. now rewrite V.
Qed.
Lemma short_ok k G sk : con_ok k G sk short.
Proof.
  apply ok_map; [apply ok_pat; repeat constructor|].
  intros v. destruct v; try discriminate. now destruct (length _ <=? 2).
Qed.
Lemma shorts_scope k : InPlainScope k [] tally_answer tally shorts.
Proof.
  constructor.
  - apply no_skip_skipper.
  - apply no_skip_implements.
  - apply sample_env_core.
  - intros x q E. destruct x; discriminate E.
  - apply ok_sep; [apply short_ok|constructor].
  - apply tally_answers.
Qed.

(** The list ends at the rejected element and the cursor is behind it, not in front of it; the handler
    has been called twice. *)
Example C70_case :
  InPlainScope KStr [] tally_answer tally shorts /\
  cwfb (fun _ => true) (fun _ => true) (fun _ => 0) 1 0 shorts = true /\ calm shorts /\
  Con KStr [] no_skip tally_answer shorts_text shorts 0 0 (CV (VList [VText [49; 50]%N]) 6 2) /\
  Con KStr [] no_skip tally_answer shorts_text short 3 7 (CE EBounded 6 8) /\
  Con KStr [] no_skip tally_answer shorts_text (POption short) 3 7 (CV VNone 3 8).
Proof.
  pose proof (shorts_scope KStr) as C. split; [exact C|]. split; [reflexivity|].
  split; [apply calm_sep, calm_map; [apply calm_pat|intros []; try (split; discriminate); cbn; destruct (length _ <=? 2); split; discriminate]|].
  assert (C' : InPlainScope KStr [] tally_answer tally short).
  { destruct C as [C1 C2 C3 C4 C5 C6]. constructor; auto. apply short_ok. }
  assert (E : Con KStr [] no_skip tally_answer shorts_text short 3 7 (CE EBounded 6 8)).
  { apply (C70_failed nat KStr [] tally_answer tally short shorts_text 3 7 EBounded 6 8 C'); [cbn; lia..|].
    exists 20. split; [reflexivity|discriminate]. }
  split; [|split; [exact E|eapply Con_none; exact E]].
  apply (C70_built nat KStr [] tally_answer tally shorts shorts_text 0 0 _ 6 2 C); [cbn; lia..|].
  exists 20. split; [reflexivity|discriminate].
Qed.

(** A handler that returns the offset of the cursor: behind the match. *)
Definition here : handler unit := fun c _ st => (Ok (VNum (Z.of_nat (c_off c))), st).
Example C70_every_handler_case :
  InPlainScope KStr [] (asked KStr here) here (PSep number comma 0 true) /\
  Con KStr [] no_skip (asked KStr here) shorts_text (PSep number comma 0 true) 0 tt (CV (VList [VNum 2; VNum 6; VNum 8]) 8 tt).
Proof.
  assert (C : InPlainScope KStr [] (asked KStr here) here (PSep number comma 0 true)).
  { apply C70_every_handler; [discriminate|apply sample_env_core|intros x q E; destruct x; discriminate E|].
    apply ok_sep; [apply ok_leaf; [exact I|]|]; repeat constructor. }
  split; [exact C|]. apply (C70_built unit KStr [] _ here _ shorts_text 0 tt _ 8 tt C); [cbn; lia..|].
  exists 20. split; [reflexivity|discriminate].
Qed.

(** On a context that skips ASCII white space: the text is " 12 , 345" *)
Definition spaced : text := [32; 49; 50; 32; 44; 32; 51; 52; 53]%N.
Example C70_policies_case :
  InScope KStr [] (skip_run NAsciiWhitespace) skip_ascii_whitespace tally_answer tally shorts /\
  exists y, same (skip_run NAsciiWhitespace) spaced 9 y /\
    Con KStr [] (skip_run NAsciiWhitespace) tally_answer spaced shorts 0 0 (CV (VList [VText [49; 50]%N]) y 2).
Proof.
  assert (C : InScope KStr [] (skip_run NAsciiWhitespace) skip_ascii_whitespace tally_answer tally shorts).
  { constructor.
    - apply skip_run_skipper.
    - apply skip_ascii_implements.
    - intros x q E. destruct x; discriminate E.
    - intros x q E. destruct x; discriminate E.
    - apply ok_sep; [apply short_ok|constructor].
    - apply tally_answers. }
  split; [exact C|].
  apply (C70_policies_built nat KStr [] _ skip_ascii_whitespace tally_answer tally shorts spaced 0 0 _ 9 2 C); [cbn; lia|].
  exists 9. split; [repeat split; cbn; lia|]. exists 20. split; [reflexivity|discriminate].
Qed.

Print Assumptions C70_every_handler.
Print Assumptions C70_built.
Print Assumptions C70_failed.
Print Assumptions C70_policies_built.
Print Assumptions C70_policies_failed.
Print Assumptions C70_panicked.
Print Assumptions C70_outcomes.
Print Assumptions C70_deterministic.
Print Assumptions C70_policies_deterministic.
Print Assumptions C70_returns.
Print Assumptions C70_no_panic.
Print Assumptions C70_rejected_alternative.
Print Assumptions C70_rejected_element_swallowed.
Print Assumptions C70_option_keeps_state.
