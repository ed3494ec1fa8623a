(** C82: parts that match the same pieces of texts are interchangeable. *)

From Coq Require Import List Arith NArith ZArith Bool Lia.
From Verif Require Import Base Text Context Neu Syntax Regex Ctor Api TextProofs Spec Core Sound Complete Obs Laws PolicyLaws ApiLaws
  CtorSpec CtorLaws Term TermLaws Consumes ConSpec ConSound ConComplete ConTerm PropCon UnitLaws Refactor Cong Respell RespellCon Samples Macros Json JsonLaws PropJson JsonZero.
From Coq Require Import String.
Import ListNotations.
Local Open Scope list_scope.
Local Notation length := List.length.

(** ** What is claimed *)

(** On every text, from every position: the parser [p] with the recursive parsers [G] and the parser [q]
    with the recursive parsers [H] match the same pieces of text, and one fails where the other fails. *)
Definition MatchAlike (k : kind) (G : env) (p : pat) (H : env) (q : pat) : Prop :=
  forall w i, i <= length w ->
  (forall b j, Matches k G p w i b j <-> Matches k H q w i b j) /\
  ((exists e, Fails k G p w i e) <-> (exists e, Fails k H q w i e)).

(** They build the same values, leave the cursor at the same place, the handler in the same state, and
    one fails or panics where the other does. *)
Definition BuildAlike {S} (h : handler S) (k : kind) (G : env) (p : pat) (H : env) (q : pat) : Prop :=
  forall w i st, i <= length w ->
  (forall v j st', j <= length w -> (Builds h G [] p (cx k w i) st (Ok v) (cx k w j) st' <-> Builds h H [] q (cx k w i) st (Ok v) (cx k w j) st')) /\
  (forall j st', j <= length w -> ((exists e, Builds h G [] p (cx k w i) st (Err e) (cx k w j) st') <-> (exists e, Builds h H [] q (cx k w i) st (Err e) (cx k w j) st'))) /\
  ((exists c' st', Builds h G [] p (cx k w i) st Panic c' st') <-> (exists c' st', Builds h H [] q (cx k w i) st Panic c' st')).

(** Two environments with the same handles, whose parsers arise from each other by exchanging parts. *)
Definition CellsRewritten (B : pat -> pat -> Prop) (G H : env) : Prop :=
  forall x, match env_get G x, env_get H x with
            | Some p, Some q => Rewritten B p q
            | None, None => True
            | _, _ => False
            end.

(** Parsers in scope of C05 (and of C70, when building), whichever of the two environments is in use. *)
Definition core2 k G H p : Prop := core k G no_skip p /\ core k H no_skip p.
Definition con_ok2 k G H p : Prop := con_ok k G no_skip p /\ con_ok k H no_skip p.
Definition cells2 (ok : pat -> Prop) (G H : env) : Prop := forall x p, env_get G x = Some p \/ env_get H x = Some p -> ok p.

(** ** Proofs *)
Lemma matches_follows k G p q : core_env k G no_skip -> core k G no_skip p -> core k G no_skip q ->
  MatchAlike k G p G q -> follows k G no_skip p q.
Proof.
  intros CE Cp Cq M w i o [Hi _] P. destruct (M w i Hi) as [M1 M2]. destruct o as [b j|e].
  - exists (OK b j). split; [cbn; auto|]. apply (matches_peg k G CE); auto. apply M1. now apply (matches_peg k G CE).
  - destruct (proj1 M2) as [e' F]; [exists e; now apply (fails_peg k G CE)|]. exists (KO e'). split; [exact I|].
    now apply (fails_peg k G CE) in F.
Qed.
Lemma match_sym k G p H q : MatchAlike k G p H q -> MatchAlike k H q G p.
Proof. intros M w i Hi. destruct (M w i Hi) as [M1 M2]. split; [intros; now rewrite M1|now rewrite M2]. Qed.
Lemma builds_follows {S} (h : handler S) k G p q : (forall c s st, fst (h c s st) <> OOF) ->
  core_env k G no_skip -> con_ok_env k G no_skip -> con_ok k G no_skip p -> con_ok k G no_skip q ->
  BuildAlike h k G p G q -> cfollows k G no_skip (asked k h) p q.
Proof.
  intros HN CE OE Cp Cq M w i s o Hi P. destruct (M w i s Hi) as (M1 & M2 & M3).
  pose proof (C70_every_handler S k G h p HN CE OE Cp) as Sp.
  pose proof (C70_every_handler S k G h q HN CE OE Cq) as Sq.
  pose proof (con_in k G no_skip [] (asked k h) h no_skip_skipper CE (no_skip_implements k G) OE (sc_handler _ _ _ _ _ _ _ Sp) _ _ _ _ _ P Cp Hi) as B.
  destruct o as [v j s'|e j s'|]; cbn in B.
  - exists (CV v j s'). split; [cbn; auto|]. apply (C70_built S k G (asked k h) h q); auto; [apply B|]. apply M1; [apply B|].
    apply (C70_built S k G (asked k h) h p); auto. apply B.
  - destruct (proj1 (M2 j s' (proj2 B))) as [e' F]; [exists e; apply (C70_failed S k G (asked k h) h p); auto; apply B|].
    exists (ConSpec.CE e' j s'). split; [cbn; auto|]. apply (C70_failed S k G (asked k h) h q) in F; auto. apply B.
  - exists CP. split; [exact I|]. apply (C70_panicked S k G no_skip [] (asked k h) h q); auto. apply M3.
    now apply (C70_panicked S k G no_skip [] (asked k h) h p) in P.
Qed.
Lemma build_sym {S} (h : handler S) k G p H q : BuildAlike h k G p H q -> BuildAlike h k H q G p.
Proof.
  intros M w i st Hi. destruct (M w i st Hi) as (M1 & M2 & M3). split; [|split].
  - intros v j st' L. now rewrite M1.
  - intros j st' L. now rewrite M2.
  - now rewrite M3.
Qed.

(** Half of the claims. *)
Lemma match_half k G H (B : pat -> pat -> Prop) p q :
  cells2 (core2 k G H) G H -> core2 k G H p -> core2 k G H q ->
  (forall a b, B a b -> core k H no_skip a -> core k H no_skip b /\ MatchAlike k H a H b) ->
  CellsRewritten B G H -> Rewritten B p q ->
  forall w i o, i <= length w -> Peg k G no_skip w p i o -> exists o', alike o o' /\ Peg k H no_skip w q i o'.
Proof.
  intros CC Cp Cq HB RC R w i o Hi P.
  assert (CG : core_env k G no_skip) by (intros x y E; apply (CC x y); auto).
  assert (CH : core_env k H no_skip) by (intros x y E; apply (CC x y); auto).
  assert (RW : forall a b, Rewritten B a b -> covers k H no_skip a b).
  { apply (rewritten_covers k H no_skip [] no_skip_skipper CH (no_skip_implements k H) B). intros a b X C. destruct (HB a b X C). now apply matches_follows. }
  destruct (proj1 (peg_cells k G H no_skip [] no_skip_skipper CG (no_skip_implements k G)
    ltac:(intros x; specialize (RC x); destruct (env_get G x) eqn:E, (env_get H x) eqn:E'; auto; apply RW; auto; apply (CC x _ (or_introl E)))) w p i o P)
    as (o1 & A1 & P1); [apply Cp|split; [exact Hi|reflexivity]|].
  destruct (RW p q R (proj2 Cp) w i o1 (conj Hi eq_refl) P1) as (o2 & A2 & P2).
  exists o2. split; [|exact P2]. destruct o, o1, o2; cbn in *; intuition congruence.
Qed.
Lemma build_half {S} (h : handler S) k G H (B : pat -> pat -> Prop) p q : (forall c s st, fst (h c s st) <> OOF) ->
  cells2 (core2 k G H) G H -> cells2 (con_ok2 k G H) G H -> con_ok2 k G H p ->
  (forall a b, B a b -> core k H no_skip a -> core k H no_skip b /\ MatchAlike k H a H b) ->
  (forall a b, B a b -> con_ok k H no_skip a -> con_ok k H no_skip b /\ BuildAlike h k H a H b) ->
  CellsRewritten B G H -> Rewritten B p q ->
  forall w i s o, i <= length w -> Con k G no_skip (asked k h) w p i s o -> exists o', calike o o' /\ Con k H no_skip (asked k h) w q i s o'.
Proof.
  intros HN CC OC Cp HB HC RC R w i s o Hi P.
  assert (CG : core_env k G no_skip) by (intros x y E; apply (CC x y); auto).
  assert (CH : core_env k H no_skip) by (intros x y E; apply (CC x y); auto).
  assert (OG : con_ok_env k G no_skip) by (intros x y E; apply (OC x y); auto).
  assert (OH : con_ok_env k H no_skip) by (intros x y E; apply (OC x y); auto).
  pose proof (sc_handler _ _ _ _ _ _ _ (C70_every_handler S k G h p HN CG OG (proj1 Cp))) as HA.
  assert (RW : forall a b, Rewritten B a b -> both k H no_skip (asked k h) a b).
  { apply (rewritten_both k H no_skip [] (asked k h) h no_skip_skipper CH (no_skip_implements k H) OH HA B). intros a b X. split; intros C.
    - destruct (HB a b X C). now apply matches_follows.
    - destruct (HC a b X C). now apply builds_follows. }
  destruct (proj1 (con_cells k G H no_skip [] (asked k h) h no_skip_skipper CG (no_skip_implements k G) OG HA
    ltac:(intros x; specialize (RC x); destruct (env_get G x) eqn:E, (env_get H x) eqn:E'; auto; split; apply RW; auto; [apply (CC x _ (or_introl E))|apply (OC x _ (or_introl E))])) w p i s o P)
    as (o1 & A1 & P1); [apply Cp|exact Hi|].
  destruct (proj2 (RW p q R) (proj2 Cp) w i s o1 Hi P1) as (o2 & A2 & P2).
  exists o2. split; [|exact P2]. eapply calike_trans; eassumption.
Qed.
Lemma cells_flip B G H : CellsRewritten B G H -> CellsRewritten (fun a b => B b a) H G.
Proof.
  intros RC x. specialize (RC x). destruct (env_get G x), (env_get H x); auto. apply (rewritten_flip B); auto.
Qed.

Lemma pegs_match k G H p q : core_env k G no_skip -> core_env k H no_skip -> core k G no_skip p -> core k H no_skip q ->
  (forall w i o, i <= length w -> Peg k G no_skip w p i o -> exists o', alike o o' /\ Peg k H no_skip w q i o') ->
  (forall w i o, i <= length w -> Peg k H no_skip w q i o -> exists o', alike o o' /\ Peg k G no_skip w p i o') ->
  MatchAlike k G p H q.
Proof.
  intros CG CH Cp Cq F F' w i Hi. split; [intros b j; split|split; intros [e X]].
  - intros M. apply (matches_peg k G CG) in M; auto. destruct (F _ _ _ Hi M) as ([b' j'|] & A & P); cbn in A; [destruct A; subst|easy].
    apply (matches_peg k H CH); auto.
  - intros M. apply (matches_peg k H CH) in M; auto. destruct (F' _ _ _ Hi M) as ([b' j'|] & A & P); cbn in A; [destruct A; subst|easy].
    apply (matches_peg k G CG); auto.
  - apply (fails_peg k G CG) in X; auto. destruct (F _ _ _ Hi X) as ([|e'] & A & P); cbn in A; [easy|].
    exists e'. apply (fails_peg k H CH); auto.
  - apply (fails_peg k H CH) in X; auto. destruct (F' _ _ _ Hi X) as ([|e'] & A & P); cbn in A; [easy|].
    exists e'. apply (fails_peg k G CG); auto.
Qed.
Lemma cons_build {S} (h : handler S) k G H p q : (forall c s st, fst (h c s st) <> OOF) ->
  core_env k G no_skip -> core_env k H no_skip -> con_ok_env k G no_skip -> con_ok_env k H no_skip ->
  con_ok k G no_skip p -> con_ok k H no_skip q ->
  (forall w i s o, i <= length w -> Con k G no_skip (asked k h) w p i s o -> exists o', calike o o' /\ Con k H no_skip (asked k h) w q i s o') ->
  (forall w i s o, i <= length w -> Con k H no_skip (asked k h) w q i s o -> exists o', calike o o' /\ Con k G no_skip (asked k h) w p i s o') ->
  BuildAlike h k G p H q.
Proof.
  intros HN CG CH OG OH Cp Cq F F' w i st Hi.
  pose proof (C70_every_handler S k G h p HN CG OG Cp) as Sp.
  pose proof (C70_every_handler S k H h q HN CH OH Cq) as Sq.
  split; [|split].
  - intros v j st' Hj. rewrite (C70_built S k G (asked k h) h p) by auto. rewrite (C70_built S k H (asked k h) h q) by auto.
    split; intros P; [destruct (F _ _ _ _ Hi P) as ([| |] & A & Q)|destruct (F' _ _ _ _ Hi P) as ([| |] & A & Q)]; cbn in A; try easy; destruct A as (-> & -> & ->); exact Q.
  - intros j st' Hj. split; intros [e P].
    + apply (C70_failed S k G (asked k h) h p) in P; auto. destruct (F _ _ _ _ Hi P) as ([| |] & A & Q); cbn in A; try easy; destruct A as (-> & ->).
      eexists. apply (C70_failed S k H (asked k h) h q); eauto.
    + apply (C70_failed S k H (asked k h) h q) in P; auto. destruct (F' _ _ _ _ Hi P) as ([| |] & A & Q); cbn in A; try easy; destruct A as (-> & ->).
      eexists. apply (C70_failed S k G (asked k h) h p); eauto.
  - rewrite (C70_panicked S k G no_skip [] (asked k h) h p) by auto. rewrite (C70_panicked S k H no_skip [] (asked k h) h q) by auto.
    split; intros P; [destruct (F _ _ _ _ Hi P) as ([| |] & A & Q)|destruct (F' _ _ _ _ Hi P) as ([| |] & A & Q)]; cbn in A; try easy; exact Q.
Qed.

(** ** C82 *)

(** Exchange however many parts, at whatever depth, of a parser and of the recursive parsers it uses: if
    each pair of exchanged parts matches the same pieces of every text and fails at the same places, then
    so does the whole. The parts need not agree on cursors outside the text, unlike in C63. *)
Theorem C82_match : forall k G H (B : pat -> pat -> Prop) p q,
  cells2 (core2 k G H) G H -> core2 k G H p -> core2 k G H q ->
  (forall E a b, E = G \/ E = H -> B a b -> (core k E no_skip a <-> core k E no_skip b) /\ (core k E no_skip a -> MatchAlike k E a E b)) ->
  CellsRewritten B G H -> Rewritten B p q -> MatchAlike k G p H q.
Proof.
  intros k G H B p q CC Cp Cq HB RC R.
  apply pegs_match; [intros x y E; apply (CC x y); auto|intros x y E; apply (CC x y); auto|apply Cp|apply Cq| |].
  - intros w i. apply (match_half k G H B p q CC Cp Cq); auto.
    intros a b X C. destruct (HB H a b (or_intror eq_refl) X) as [W1 W2]. split; [now apply W1|now apply W2].
  - intros w i. apply (match_half k H G (fun a b => B b a) q p).
    + intros x y E. assert (core2 k G H y) as [] by (apply (CC x y); tauto). now split.
    + now destruct Cq; split.
    + now destruct Cp; split.
    + intros a b X C. destruct (HB G b a (or_introl eq_refl) X) as [W1 W2]. split; [now apply W1|apply match_sym, W2; now apply W1].
    + now apply cells_flip.
    + now apply (rewritten_flip B).
Qed.

(** The same for building values, with any handler that answers. *)
Theorem C82_build : forall S (h : handler S) k G H (B : pat -> pat -> Prop) p q, (forall c s st, fst (h c s st) <> OOF) ->
  cells2 (core2 k G H) G H -> cells2 (con_ok2 k G H) G H -> con_ok2 k G H p -> con_ok2 k G H q ->
  (forall E a b, E = G \/ E = H -> B a b -> (core k E no_skip a <-> core k E no_skip b) /\ (core k E no_skip a -> MatchAlike k E a E b)) ->
  (forall E a b, E = G \/ E = H -> B a b -> (con_ok k E no_skip a <-> con_ok k E no_skip b) /\ (con_ok k E no_skip a -> BuildAlike h k E a E b)) ->
  CellsRewritten B G H -> Rewritten B p q -> BuildAlike h k G p H q.
Proof.
  intros S h k G H B p q HN CC OC Cp Cq HB HC RC R.
  apply cons_build; [exact HN|intros x y E; apply (CC x y); auto|intros x y E; apply (CC x y); auto
    |intros x y E; apply (OC x y); auto|intros x y E; apply (OC x y); auto|apply Cp|apply Cq| |].
  - intros w i s. apply (build_half h k G H B p q HN CC OC Cp); auto.
    + intros a b X C. destruct (HB H a b (or_intror eq_refl) X) as [W1 W2]. split; [now apply W1|now apply W2].
    + intros a b X C. destruct (HC H a b (or_intror eq_refl) X) as [W1 W2]. split; [now apply W1|now apply W2].
  - intros w i s. apply (build_half h k H G (fun a b => B b a) q p HN).
    + intros x y E. assert (core2 k G H y) as [] by (apply (CC x y); tauto). now split.
    + intros x y E. assert (con_ok2 k G H y) as [] by (apply (OC x y); tauto). now split.
    + now destruct Cq; split.
    + intros a b X C. destruct (HB G b a (or_introl eq_refl) X) as [W1 W2]. split; [now apply W1|apply match_sym, W2; now apply W1].
    + intros a b X C. destruct (HC G b a (or_introl eq_refl) X) as [W1 W2]. split; [now apply W1|apply build_sym, W2; now apply W1].
    + now apply cells_flip.
    + now apply (rewritten_flip B).
Qed.

(** *** Spellings of the same loop *)

Lemma acc_wide k G w i u c r : honest k u -> Acc k G no_skip w i u c 0 r -> r = inl false \/ ~ too_short k w i (1 * min_length k u).
Proof.
  intros Ho A. inversion A; subst; auto. right. rewrite Nat.add_0_r in *.
  pose proof (Ho _ H0) as L. unfold too_short.
  assert (bo k w (S i) = bo k w i + width k x).
  { unfold bo. assert (exists l, skipn i w = x :: l /\ firstn (S i) w = firstn i w ++ [x]) as (l & _ & ->).
    { clear - H. revert i H. induction w as [|y w IH]; intros [|i] E; cbn in *; try discriminate.
      - injection E as ->. eauto.
      - destruct (IH i E) as (l & -> & ->). eauto. }
    rewrite tlen_app. cbn. lia. }
  pose proof (bo_le_len k w (S i)). lia.
Qed.

Lemma opt_follow k G u c w i o : Peg k G no_skip w (POpt u c) i o -> exists o', alike o o' /\ Peg k G no_skip w (PBetween 0 (Some 1) u c) i o'.
Proof.
  assert (T : ~ too_short k w i (0 * min_length k u)) by (unfold too_short; lia).
  intros P. inversion P; subst.
  - exists (OK i (i + 1)). split; [cbn; lia|]. apply Peg_between; auto. apply Run_step; [easy|auto|constructor].
  - exists (OK i (i + 0)). split; [cbn; lia|]. apply Peg_between; auto. now constructor.
  - exists (KO e). split; [exact I|]. apply Peg_between_err; auto. now constructor.
Qed.
Lemma opt_follow' k G u c w i o : Peg k G no_skip w (PBetween 0 (Some 1) u c) i o -> exists o', alike o o' /\ Peg k G no_skip w (POpt u c) i o'.
Proof.
  intros P. inversion P; subst; try lia.
  - unfold too_short in *; lia.
  - match goal with R : Run _ _ _ _ _ _ _ _ _ _ |- _ => inversion R; subst end.
    + exists (OK i i). split; [cbn; lia|]. now constructor.
    + match goal with R : Run _ _ _ _ _ _ _ (limit_pred _) _ _ |- _ => inversion R; subst; try easy end.
      exists (OK i (S i)). split; [cbn; lia|]. now constructor.
  - match goal with R : Run _ _ _ _ _ _ _ _ _ _ |- _ => inversion R; subst end.
    + exists (KO e). split; [exact I|]. now apply Peg_opt_err.
    + match goal with R : Run _ _ _ _ _ _ _ (limit_pred _) _ _ |- _ => inversion R; subst; easy end.
Qed.
Lemma many0_follow k G u c w i o : Peg k G no_skip w (PMany0 u c) i o -> exists o', alike o o' /\ Peg k G no_skip w (PBetween 0 None u c) i o'.
Proof.
  assert (T : ~ too_short k w i (0 * min_length k u)) by (unfold too_short; lia).
  intros P. inversion P; subst.
  - exists (OK i (i + n)). split; [cbn; auto|]. apply Peg_between; auto. lia.
  - exists (KO e). split; [exact I|]. now apply Peg_between_err.
Qed.
Lemma many0_follow' k G u c w i o : Peg k G no_skip w (PBetween 0 None u c) i o -> exists o', alike o o' /\ Peg k G no_skip w (PMany0 u c) i o'.
Proof.
  intros P. inversion P; subst; try lia; [unfold too_short in *; lia| |].
  - exists (OK i (i + t)). split; [cbn; auto|]. now constructor.
  - exists (KO e). split; [exact I|]. now apply Peg_many0_err.
Qed.
Lemma many1_follow k G u c w i o : honest k u -> Peg k G no_skip w (PMany1 u c) i o -> exists o', alike o o' /\ Peg k G no_skip w (PBetween 1 None u c) i o'.
Proof.
  intros Ho P. destruct (UnitLaws.too_short_dec k w i (1 * min_length k u)) as [T|T].
  - exists (KO EBetween). split; [|now constructor].
    inversion P; subst; cbn; auto; exfalso;
      match goal with R : Run _ _ _ _ _ _ _ _ _ _ |- _ => inversion R; subst end;
      match goal with A : Acc _ _ _ _ _ _ _ _ _ |- _ => destruct (acc_wide _ _ _ _ _ _ _ Ho A); try discriminate; contradiction end.
  - inversion P; subst.
    + eexists. split; [|eapply Peg_between; eauto; lia]. cbn; auto.
    + eexists. split; [|eapply Peg_between_ko; eauto; lia]. cbn; auto.
    + eexists. split; [|eapply Peg_between_err; eauto]. cbn; auto.
Qed.
Lemma short_acc k G w i u c : honest k u -> too_short k w i (1 * min_length k u) -> Acc k G no_skip w i u c 0 (inl false).
Proof.
  intros Ho T. destruct (nth_error w (i + 0)) as [x|] eqn:E; [|apply Acc_end; now apply nth_error_None].
  destruct (is_match u x) eqn:M; [|eapply Acc_no; eassumption]. exfalso.
  assert (A : Acc k G no_skip w i u CEmpty 0 (inl true)) by (eapply Acc_yes; [exact E|exact M|constructor]).
  destruct (acc_wide _ _ _ _ _ _ _ Ho A); [discriminate|contradiction].
Qed.
Lemma many1_follow' k G u c w i o : honest k u -> Peg k G no_skip w (PBetween 1 None u c) i o -> exists o', alike o o' /\ Peg k G no_skip w (PMany1 u c) i o'.
Proof.
  intros Ho P. inversion P; subst.
  - exists (KO EMany1). split; [exact I|]. apply Peg_many1_ko, Run_stop; [easy|]. now apply short_acc.
  - destruct t; [lia|]. eexists. split; [|eapply Peg_many1; eauto]. cbn; auto.
  - assert (t = 0) by lia. subst t. exists (KO EMany1). split; [exact I|]. now apply Peg_many1_ko.
  - exists (KO e). split; [exact I|]. now apply Peg_many1_err.
Qed.
Lemma once_follow k G u c w i o : honest k u -> Peg k G no_skip w (POnce u c) i o -> exists o', alike o o' /\ Peg k G no_skip w (PBetween 1 (Some 1) u c) i o'.
Proof.
  intros Ho P. destruct (UnitLaws.too_short_dec k w i (1 * min_length k u)) as [T|T].
  - exists (KO EBetween). split; [|now constructor].
    inversion P; subst; cbn; auto; exfalso;
      match goal with A : Acc _ _ _ _ _ _ _ _ _ |- _ => destruct (acc_wide _ _ _ _ _ _ _ Ho A); try discriminate; contradiction end.
  - inversion P; subst.
    + exists (OK i (i + 1)). split; [cbn; lia|]. apply Peg_between; auto. apply Run_step; [easy|auto|constructor].
    + exists (KO EBetween). split; [exact I|]. apply Peg_between_ko with (t := 0); auto. now apply Run_stop.
    + exists (KO e). split; [exact I|]. apply Peg_between_err; auto. now apply Run_err.
Qed.
Lemma once_follow' k G u c w i o : honest k u -> Peg k G no_skip w (PBetween 1 (Some 1) u c) i o -> exists o', alike o o' /\ Peg k G no_skip w (POnce u c) i o'.
Proof.
  intros Ho P. inversion P; subst.
  - exists (KO EOnce). split; [exact I|]. apply Peg_once_ko. now apply short_acc.
  - match goal with R : Run _ _ _ _ _ _ _ _ _ _ |- _ => inversion R; subst; [lia|] end.
    match goal with R : Run _ _ _ _ _ _ _ (limit_pred _) _ _ |- _ => inversion R; subst; try easy end.
    exists (OK i (S i)). split; [cbn; lia|]. now constructor.
  - match goal with R : Run _ _ _ _ _ _ _ _ _ _ |- _ => inversion R; subst; [|lia] end.
    exists (KO EOnce). split; [exact I|]. now apply Peg_once_ko.
  - match goal with R : Run _ _ _ _ _ _ _ _ _ _ |- _ => inversion R; subst end.
    + exists (KO e). split; [exact I|]. now apply Peg_once_err.
    + match goal with R : Run _ _ _ _ _ _ _ (limit_pred _) _ _ |- _ => inversion R; subst; easy end.
Qed.
Lemma lit_item (w : text) i (x : item) : nth_error w i = Some x <-> firstn 1 (skipn i w) = [x].
Proof.
  revert i. induction w as [|y w IH]; intros [|i]; cbn; try (split; intros; discriminate); [split; congruence|apply IH].
Qed.
Lemma lit_follow k G x w i o : Peg k G no_skip w (POnce (NChar x) CEmpty) i o -> exists o', alike o o' /\ Peg k G no_skip w (PLit [x]) i o'.
Proof.
  intros P. inversion P; subst; match goal with A : Acc _ _ _ _ _ _ _ _ _ |- _ => inversion A; subst end; rewrite Nat.add_0_r in *;
    try (match goal with C : Chk _ _ _ _ _ _ _ _ _ |- _ => now inversion C end).
  - match goal with M : is_match _ _ = true |- _ => cbn in M; apply N.eqb_eq in M; subst end.
    exists (OK i (i + 1)). split; [cbn; lia|]. apply (Peg_lit k G no_skip w i [_]). cbn [length]. now apply lit_item.
  - exists (KO ELiteral). split; [exact I|]. apply Peg_lit_ko. cbn [length]. intros E. apply lit_item in E. apply nth_error_None in H. congruence.
  - exists (KO ELiteral). split; [exact I|]. apply Peg_lit_ko. cbn [length]. intros E. apply lit_item in E. assert (x0 = x) by congruence. subst.
    match goal with M : is_match _ _ = false |- _ => cbn in M; rewrite N.eqb_refl in M end. discriminate.
Qed.
Lemma lit_follow' k G x w i o : Peg k G no_skip w (PLit [x]) i o -> exists o', alike o o' /\ Peg k G no_skip w (POnce (NChar x) CEmpty) i o'.
Proof.
  intros P. inversion P; subst; cbn [length] in *.
  - exists (OK i (S i)). split; [cbn; lia|]. apply Peg_once. apply Acc_yes with (x := x); [rewrite Nat.add_0_r; now apply lit_item|apply N.eqb_refl|constructor].
  - exists (KO EOnce). split; [exact I|]. apply Peg_once_ko. destruct (nth_error w (i + 0)) as [y|] eqn:E; [|apply Acc_end; now apply nth_error_None].
    eapply Acc_no; [exact E|]. cbn. apply N.eqb_neq. intros <-. rewrite Nat.add_0_r in E. now apply lit_item in E.
Qed.

(** The same set of items. *)
Lemma acc_same k G w i u v c m r : (forall x, is_match u x = is_match v x) -> Acc k G no_skip w i u c m r -> Acc k G no_skip w i v c m r.
Proof.
  intros E A. inversion A; subst; [now apply Acc_end|eapply Acc_no; eauto; now rewrite <- E|eapply Acc_yes; eauto; now rewrite <- E].
Qed.
Lemma run_same k G w i u v c lim m r : (forall x, is_match u x = is_match v x) -> Run k G no_skip w i u c lim m r -> Run k G no_skip w i v c lim m r.
Proof.
  intros E R. induction R; [apply Run_lim|apply Run_stop|apply Run_err|apply Run_step|apply Run_step_err]; auto; eapply acc_same; eauto.
Qed.
Lemma class_follow k G u v c w i o (f : neu -> pat) : (forall x, is_match u x = is_match v x) ->
  (f = fun a => POnce a c) \/ (f = fun a => POpt a c) \/ (f = fun a => PMany0 a c) \/ (f = fun a => PMany1 a c) ->
  Peg k G no_skip w (f u) i o -> Peg k G no_skip w (f v) i o.
Proof.
  intros E [F|[F|[F|F]]] P; subst f; cbv beta in *; inversion P; subst; constructor;
    first [eapply acc_same; eassumption|eapply run_same; eassumption].
Qed.
Lemma between_follow k G u v c m n w i o : (forall x, is_match u x = is_match v x) -> min_length k u = min_length k v ->
  Peg k G no_skip w (PBetween m n u c) i o -> Peg k G no_skip w (PBetween m n v c) i o.
Proof.
  intros E L P. inversion P; subst; rewrite L in *; [now apply Peg_between_short|eapply Peg_between|eapply Peg_between_ko|eapply Peg_between_err];
    eauto; eapply run_same; eassumption.
Qed.
Lemma times_follow k G u v c r w i o : (forall x, is_match u x = is_match v x) -> min_length k u = min_length k v ->
  Peg k G no_skip w (PTimes r u c) i o -> Peg k G no_skip w (PTimes r v c) i o.
Proof.
  intros E L P. inversion P; subst; rewrite L in *; [now apply Peg_times_short|eapply Peg_times|eapply Peg_times_ko|eapply Peg_times_err];
    eauto; eapply run_same; eassumption.
Qed.

(** Interchangeable in matching and in building, whatever the handler. *)
Definition Interchangeable (k : kind) (G : env) (p q : pat) : Prop :=
  MatchAlike k G p G q /\ forall S (h : handler S), (forall c s st, fst (h c s st) <> OOF) -> BuildAlike h k G p G q.

Lemma leaf_cfollows {S} k G (hv : text -> nat -> nat -> S -> res val * S) p q : CtorSpec.leafy p -> CtorSpec.leafy q ->
  (forall w i o, i <= length w -> Peg k G no_skip w p i o -> exists o', alike o o' /\ Peg k G no_skip w q i o') ->
  forall w i s o, i <= length w -> Con k G no_skip hv w p i s o -> exists o', calike o o' /\ Con k G no_skip hv w q i s o'.
Proof.
  intros Lp Lq F w i s o Hi P. inversion P; subst; try (cbn in Lp; contradiction).
  - destruct (F w i _ Hi H0) as ([b' j'|] & A & Q); cbn in A; [destruct A as [<- <-]|easy]. eexists. split; [apply calike_refl|]. now apply Con_leaf.
  - destruct (F w i _ Hi H0) as ([|e'] & A & Q); cbn in A; [easy|]. exists (ConSpec.CE e' i s). split; [cbn; auto|]. now apply Con_leaf_ko.
Qed.
Lemma leaf_inter k G p q : core_env k G no_skip -> con_ok_env k G no_skip -> CtorSpec.leafy p -> CtorSpec.leafy q -> core k G no_skip p -> core k G no_skip q ->
  (forall w i o, Peg k G no_skip w p i o -> exists o', alike o o' /\ Peg k G no_skip w q i o') ->
  (forall w i o, Peg k G no_skip w q i o -> exists o', alike o o' /\ Peg k G no_skip w p i o') ->
  Interchangeable k G p q.
Proof.
  intros CE OE Lp Lq Cp Cq F F'. split; [apply pegs_match; auto|].
  intros S h HN. apply cons_build; auto; try (now apply ok_leaf); apply leaf_cfollows; auto.
Qed.
Lemma same_alike (P : out -> Prop) o : P o -> exists o', alike o o' /\ P o'.
Proof. intros H. exists o. split; [destruct o; cbn; auto|exact H]. Qed.

(** [u.opt()] is [u.between::<0, 1>()], [u.many0()] is [{0,}], [u.many1()] is [{1,}], [u.once()] is [{1}], with
    any condition. *)
Theorem C82_counts : forall k G u c, core_env k G no_skip -> con_ok_env k G no_skip -> core_cond k G no_skip c ->
  Interchangeable k G (POpt u c) (PBetween 0 (Some 1) u c) /\
  Interchangeable k G (PMany0 u c) (PBetween 0 None u c) /\
  (honest k u -> Interchangeable k G (PMany1 u c) (PBetween 1 None u c)) /\
  (honest k u -> Interchangeable k G (POnce u c) (PBetween 1 (Some 1) u c)).
Proof.
  intros k G u c CE OE CC. split; [|split; [|split; intros Ho]]; (apply leaf_inter; auto; try exact I; try (now constructor)); intros.
  - now apply opt_follow.
  - now apply opt_follow'.
  - now apply many0_follow.
  - now apply many0_follow'.
  - now apply many1_follow.
  - now apply many1_follow'.
  - now apply once_follow.
  - now apply once_follow'.
Qed.

(** Two units that accept the same items are interchangeable wherever units are repeated. *)
Theorem C82_classes : forall k G u v c, core_env k G no_skip -> con_ok_env k G no_skip -> core_cond k G no_skip c ->
  (forall x, is_match u x = is_match v x) ->
  Interchangeable k G (POnce u c) (POnce v c) /\ Interchangeable k G (POpt u c) (POpt v c) /\
  Interchangeable k G (PMany0 u c) (PMany0 v c) /\ Interchangeable k G (PMany1 u c) (PMany1 v c) /\
  (min_length k u = min_length k v -> forall m n r,
   Interchangeable k G (PBetween m n u c) (PBetween m n v c) /\ Interchangeable k G (PTimes r u c) (PTimes r v c)).
Proof.
  intros k G u v c CE OE CC E. assert (E' : forall x, is_match v x = is_match u x) by auto.
  split; [|split; [|split; [|split; [|intros L m n r; split]]]]; (apply leaf_inter; auto; try exact I; try (now constructor)); intros; apply same_alike.
  - apply (class_follow k G u v c w i o (fun a => POnce a c)); auto.
  - apply (class_follow k G v u c w i o (fun a => POnce a c)); auto.
  - apply (class_follow k G u v c w i o (fun a => POpt a c)); auto.
  - apply (class_follow k G v u c w i o (fun a => POpt a c)); auto.
  - apply (class_follow k G u v c w i o (fun a => PMany0 a c)); auto.
  - apply (class_follow k G v u c w i o (fun a => PMany0 a c)); auto 6.
  - apply (class_follow k G u v c w i o (fun a => PMany1 a c)); auto 6.
  - apply (class_follow k G v u c w i o (fun a => PMany1 a c)); auto 6.
  - eapply between_follow; [| |eassumption]; auto.
  - eapply between_follow; [| |eassumption]; auto.
  - eapply times_follow; [| |eassumption]; auto.
  - eapply times_follow; [| |eassumption]; auto.
Qed.

(** One character is the literal of one character. *)
Theorem C82_char : forall k G x, core_env k G no_skip -> con_ok_env k G no_skip ->
  Interchangeable k G (POnce (NChar x) CEmpty) (PLit [x]).
Proof.
  intros k G x CE OE. apply leaf_inter; auto; try exact I; try (constructor; constructor); intros.
  - now apply lit_follow.
  - now apply lit_follow'.
Qed.

(** A boxed, shared or borrowed parser is the parser. *)
Theorem C82_wrap : forall k G p, core_env k G no_skip -> con_ok_env k G no_skip -> core k G no_skip p -> con_ok k G no_skip p ->
  Interchangeable k G (PWrap p) p.
Proof.
  intros k G p CE OE C O. split.
  - apply pegs_match; auto; [now constructor| |]; intros w i o _ P; apply same_alike; [now inversion P|now constructor].
  - intros S h HN. apply cons_build; auto; [now constructor| |]; intros w i s o _ P; exists o; (split; [apply calike_refl|]).
    + inversion P; subst; auto; match goal with L : CtorSpec.leafy _ |- _ => now elim L end.
    + now constructor.
Qed.

Theorem C82_equivalence : forall k G,
  (forall p, Interchangeable k G p p) /\ (forall p q, Interchangeable k G p q -> Interchangeable k G q p) /\
  (forall p q r, Interchangeable k G p q -> Interchangeable k G q r -> Interchangeable k G p r).
Proof.
  intros k G. split; [|split].
  - intros p. split; [intros w i Hi; split; intros; reflexivity|intros S h HN w i st Hi; split; [|split]; intros; reflexivity].
  - intros p q [M B]. split; [now apply match_sym|intros; apply build_sym; auto].
  - intros p q r [M B] [M' B']. split.
    + intros w i Hi. destruct (M w i Hi) as [A1 A2], (M' w i Hi) as [B1 B2]. split; [intros; now rewrite A1|now rewrite A2].
    + intros S h HN w i st Hi. destruct (B S h HN w i st Hi) as (A1 & A2 & A3), (B' S h HN w i st Hi) as (B1 & B2 & B3).
      split; [|split]; [intros; rewrite A1; auto|intros; rewrite A2; auto|now rewrite A3].
Qed.

(** Inside a character (where [ctx.set_offset] can put the cursor) the two spellings of an option
    differ: C63, which speaks of every context, does not apply to them. *)
Theorem C82_off_text_refuted : exists c r r' c1 c2, Returns [] [] (POpt (NChar 97%N) CEmpty) c r c1 /\
  Returns [] [] (PBetween 0 (Some 1) (NChar 97%N) CEmpty) c r' c2 /\ r <> r'.
Proof.
  exists (Ctx KStr [97; 233]%N 2). do 4 eexists. split; [exists 5; split; [vm_compute; reflexivity|discriminate]|].
  split; [exists 5; split; [vm_compute; reflexivity|discriminate]|]. discriminate.
Qed.

(** The two together: exchanging interchangeable parts of a parser and of its recursive parsers. *)
Definition proper (k : kind) (G : env) (p : pat) : Prop := core k G no_skip p /\ con_ok k G no_skip p.
Theorem C82_exchange : forall k G H (B : pat -> pat -> Prop) p q,
  (forall E x r, E = G \/ E = H -> env_get G x = Some r \/ env_get H x = Some r -> proper k E r) ->
  (forall E a b, E = G \/ E = H -> B a b -> proper k E a /\ proper k E b /\ Interchangeable k E a b) ->
  CellsRewritten B G H -> Rewritten B p q ->
  proper k G p -> proper k H p -> proper k G q -> proper k H q ->
  MatchAlike k G p H q /\ forall S (h : handler S), (forall c s st, fst (h c s st) <> OOF) -> BuildAlike h k G p H q.
Proof.
  intros k G H B p q CC HB RC R P1 P2 P3 P4.
  assert (C1 : cells2 (core2 k G H) G H) by (intros x r E; split; [apply (CC G x r)|apply (CC H x r)]; auto).
  assert (C2 : cells2 (con_ok2 k G H) G H) by (intros x r E; split; [apply (CC G x r)|apply (CC H x r)]; auto).
  assert (HM : forall E a b, E = G \/ E = H -> B a b -> (core k E no_skip a <-> core k E no_skip b) /\ (core k E no_skip a -> MatchAlike k E a E b)).
  { intros E a b HE X. destruct (HB E a b HE X) as ([] & [] & []). tauto. }
  split.
  - apply (C82_match k G H B); auto; split; (apply P1 || apply P2 || apply P3 || apply P4).
  - intros S h HN. apply (C82_build S h k G H B); auto; try (split; (apply P1 || apply P2 || apply P3 || apply P4)).
    intros E a b HE X. destruct (HB E a b HE X) as ([] & [] & [? HX]). split; [tauto|]. intros _. now apply HX.
Qed.
Lemma exchange_here k G (B : pat -> pat -> Prop) p q : (forall x r, env_get G x = Some r -> proper k G r) ->
  (forall a b, B a b -> proper k G a /\ proper k G b /\ Interchangeable k G a b) ->
  Rewritten B p q -> proper k G p -> proper k G q -> Interchangeable k G p q.
Proof.
  intros CC HB R P Q. apply (C82_exchange k G G B p q); auto.
  - intros E x r [->| ->] [X|X]; eauto.
  - intros E a b [->| ->]; auto.
  - intros x. destruct (env_get G x); [apply rw_same|exact I].
Qed.

(** *** The JSON parser of the benchmark *)

(** [JsonParser::parse(w)] of bench/json.rs ([neure_json_zero]) returns [r] and leaves the context in state [c]. *)
Definition ZeroParses (f64 : text -> val) (w : text) (r : res val) (c : ctx) : Prop :=
  Builds extract_text (z_env f64) [] (PRef 0) (Ctx KBytes w 0) tt r c tt.

Section Bench.
  Variable f64 : text -> val.
  Definition spelled (a b : pat) : Prop := (exists u c, a = POpt u c /\ b = PBetween 0 (Some 1) u c) \/ (a = PWrap b) \/ (b = PWrap a).
  Definition numbers (a b : pat) : Prop := (a = j_num f64 /\ b = z_num f64) \/ b = PWrap a.
  Ltac okk := repeat first
    [ apply ok_map; [|intros []; discriminate] | apply ok_map; [|discriminate] | apply ok_wrap | apply ok_or | apply ok_prefix | apply ok_suffix | apply ok_enclose | apply ok_seponce
    | apply ok_sep | apply ok_ref | apply ok_pat | apply ok_leaf; [exact I|] | shape ].
  Lemma j_ok E : con_ok KBytes E no_skip (PWrap (POr (j_obj f64) (j_array f64))).
  Proof. okk. Qed.
  Lemma z_ok E : con_ok KBytes E no_skip (PWrap (POr (z_obj f64) (z_array f64))).
  Proof. okk. Qed.
  Lemma j_core E : core KBytes E no_skip (PWrap (POr (j_obj f64) (j_array f64))).
  Proof. shape. Qed.
  Lemma z_core E : core KBytes E no_skip (PWrap (POr (z_obj f64) (z_array f64))).
  Proof. shape. Qed.
  Lemma extract_text_answers (c : ctx) s (st : unit) : fst (extract_text c s st) <> OOF.
  Proof.
    unfold extract_text, orig_sub. cbn [fst]. destruct (drop_at _ _ _) as [l|]; [destruct (take_at _ _ _)|]; discriminate.
  Qed.
  Lemma num_ok E : con_ok KBytes E no_skip (j_num f64) /\ con_ok KBytes E no_skip (z_num f64).
  Proof. split; okk. Qed.
  Lemma num_core E : core KBytes E no_skip (j_num f64) /\ core KBytes E no_skip (z_num f64).
  Proof. split; shape. Qed.
  Lemma num_proper E : proper KBytes E (j_num f64) /\ proper KBytes E (z_num f64).
  Proof. split; split; first [apply num_core|apply num_ok]. Qed.
  Definition opted (a b : pat) : Prop := exists u, a = POpt u CEmpty /\ b = PBetween 0 (Some 1) u CEmpty.
  Lemma num_inter E : (forall x r, env_get E x = Some r -> proper KBytes E r) -> Interchangeable KBytes E (j_num f64) (z_num f64).
  Proof.
    intros CC.
    assert (CE : core_env KBytes E no_skip) by (intros x r X; apply (CC x r X)).
    assert (OE : con_ok_env KBytes E no_skip) by (intros x r X; apply (CC x r X)).
    destruct (C82_equivalence KBytes E) as (_ & SY & TR). unfold j_num, z_num.
    match goal with |- Interchangeable _ _ (PWrap (PMap _ ?g)) _ => set (f := g) end.
    assert (F : forall v, f v <> OOF) by (intros []; discriminate). clearbody f.
    assert (Pj : proper KBytes E (PPat j_numeral)) by (split; [shape|okk]).
    assert (Pz : proper KBytes E (PPat z_numeral)) by (split; [shape|okk]).
    assert (PM : forall p, proper KBytes E p -> proper KBytes E (PMap p f)) by (intros p []; split; now constructor).
    assert (PW : forall p, proper KBytes E p -> proper KBytes E (PWrap p)) by (intros p []; split; now constructor).
    apply TR with (q := PMap (PPat j_numeral) f); [apply C82_wrap; auto; now apply PM|].
    apply TR with (q := PMap (PPat z_numeral) f).
    - apply (exchange_here KBytes E opted); auto.
      + intros a b (u & -> & ->). assert (core_cond KBytes E no_skip CEmpty) by constructor.
        split; [split; [now constructor|apply ok_leaf; [exact I|now constructor]]|].
        split; [split; [now constructor|apply ok_leaf; [exact I|now constructor]]|]. now apply C82_counts.
      + apply rw_inside, nd_map; [|reflexivity]. apply rw_inside, nd_pat. apply rw_inside, nd_then; [|apply rw_same].
        apply rw_inside, nd_then; [|apply rw_same]. apply rw_here. eexists. split; reflexivity.
    - apply (exchange_here KBytes E (fun a b => a = PPat z_numeral /\ b = PWrap a)); auto.
      + intros a b (-> & ->). split; [auto|]. split; [auto|]. apply SY, C82_wrap; auto; apply Pz.
      + apply rw_inside, nd_map; [|reflexivity]. apply rw_here. auto.
  Qed.
  (** Halfway: the numbers of the benchmark, the array of the example. *)
  Definition m_array : pat := PEnclose (PSep (z_ele f64) (PLit [44%N]) 1 true) (PLit [91%N]) (PLit [93%N]).
  Definition m_env : env := [Some (PWrap (POr (z_obj f64) (PMap m_array (tagged 4))))].
  Lemma m_proper E : proper KBytes E m_array /\ proper KBytes E (PWrap m_array) /\ proper KBytes E (PWrap (POr (z_obj f64) (PMap m_array (tagged 4)))).
  Proof. split; [split; [shape|okk]|]. split; (split; [shape|okk]). Qed.
  Lemma bench_build : BuildAlike extract_text KBytes (j_env f64) (PRef 0) (z_env f64) (PRef 0).
  Proof.
    assert (RP : forall E, proper KBytes E (PRef 0)) by (intros E; split; constructor).
    assert (PE : forall E, E = j_env f64 \/ E = m_env \/ E = z_env f64 -> forall E' x r, env_get E x = Some r -> proper KBytes E' r).
    { intros E [->|[->| ->]] E' [|[|x]] r X; try discriminate X; injection X as <-; try apply m_proper; split; first [apply j_core|apply j_ok|apply z_core|apply z_ok]. }
    assert (A : BuildAlike extract_text KBytes (j_env f64) (PRef 0) m_env (PRef 0)).
    { apply (C82_exchange KBytes (j_env f64) m_env (fun a b => a = j_num f64 /\ b = z_num f64)); auto using extract_text_answers, rw_same.
      - intros E x r _ [X|X]; [apply (PE (j_env f64)) with (x := x)|apply (PE m_env) with (x := x)]; auto.
      - intros E a b HE (-> & ->). split; [apply num_proper|]. split; [apply num_proper|]. apply num_inter. intros x r X. apply (PE E) with (x := x); tauto.
      - intros [|[|x]]; cbn; auto.
        assert (ES : Rewritten (fun a b => a = j_num f64 /\ b = z_num f64) (j_ele f64) (z_ele f64)).
        { apply rw_inside, nd_wrap. apply rw_inside, nd_prefix; [|apply rw_same]. apply rw_inside, nd_suffix; [|apply rw_same].
          apply rw_inside, nd_or; [now apply rw_here|apply rw_same]. }
        apply rw_inside, nd_wrap. apply rw_inside, nd_or.
        + apply rw_inside, nd_map; [|reflexivity]. apply rw_inside, nd_wrap. apply rw_inside, nd_enclose; [|apply rw_same|apply rw_same].
          apply rw_inside, nd_sep; [|apply rw_same]. apply rw_inside, nd_seponce; [apply rw_same|apply rw_same|exact ES].
        + apply rw_inside, nd_map; [|reflexivity]. apply rw_inside, nd_enclose; [|apply rw_same|apply rw_same].
          apply rw_inside, nd_sep; [exact ES|apply rw_same]. }
    assert (B : BuildAlike extract_text KBytes m_env (PRef 0) (z_env f64) (PRef 0)).
    { apply (C82_exchange KBytes m_env (z_env f64) (fun a b => a = m_array /\ b = PWrap a)); auto using extract_text_answers, rw_same.
      - intros E x r _ [X|X]; [apply (PE m_env) with (x := x)|apply (PE (z_env f64)) with (x := x)]; auto.
      - intros E a b HE (-> & ->). destruct (m_proper E) as (M1 & M2 & _). split; [exact M1|]. split; [exact M2|].
        apply C82_equivalence. apply C82_wrap; [intros x r X|intros x r X|apply M1|apply M1]; apply (PE E) with (x := x) (E' := E); tauto.
      - intros [|[|x]]; cbn; auto. apply rw_inside, nd_wrap. apply rw_inside, nd_or; [apply rw_same|].
        apply rw_inside, nd_map; [|reflexivity]. apply rw_here. auto. }
    intros w i st Hi. destruct (A w i st Hi) as (A1 & A2 & A3), (B w i st Hi) as (B1 & B2 & B3).
    split; [|split]; [intros; rewrite A1; auto|intros; rewrite A2; auto|now rewrite A3].
  Qed.
End Bench.

(** On every byte string both parsers return, the same value with the cursor at the same place, or both an
    error. *)
Theorem C82_bench_json : forall f64 w,
  (exists v c, JsonParses f64 w (Ok v) c /\ ZeroParses f64 w (Ok v) c) \/
  (exists e e' c, JsonParses f64 w (Err e) c /\ ZeroParses f64 w (Err e') c).
Proof.
  intros f64 w. destruct (bench_build f64 w 0 tt ltac:(lia)) as (B1 & B2 & _).
  assert (X : forall j, j <= length w -> cx KBytes w j = Ctx KBytes w j) by (intros; now apply cx_bytes). rewrite X in * by lia.
  destruct (C55_total f64 w) as (r & c & J). destruct (C55_sound f64 w r c J) as [(v & s & t & E & _ & _ & -> & ->)|(e & -> & -> & _)].
  - left. do 2 eexists. split; [exact J|]. assert (L : length s <= length w) by (subst w; rewrite app_length; lia).
    unfold ZeroParses. rewrite <- (X (length s)) by exact L. apply B1; [exact L|]. rewrite (X (length s)) by exact L. exact J.
  - right. destruct (proj1 (B2 0 tt ltac:(lia))) as [e' Z]; [exists e; rewrite X by lia; exact J|].
    rewrite X in Z by lia. eauto 6.
Qed.
(** So it accepts the same language as the example (C55), with the same values. *)
Theorem C82_bench_json_language : forall f64 w v c, ZeroParses f64 w (Ok v) c <->
  exists j s t, w = s ++ t /\ Spell j s /\ is_container j = true /\ v = as_val f64 j /\ c = Ctx KBytes w (length s).
Proof.
  intros f64 w v c. split.
  - intros Z. destruct (C82_bench_json f64 w) as [(v' & c' & J & Z')|(e & e' & c' & J & Z')].
    + destruct (builds_det _ _ _ _ _ _ _ _ _ _ _ _ Z Z') as (E & -> & _). injection E as ->.
      destruct (C55_sound f64 w _ _ J) as [(j & s & t & E & S & C & Q & ->)|(e & Q & _)]; [|discriminate].
      injection Q as ->. exists j, s, t. auto.
    + destruct (builds_det _ _ _ _ _ _ _ _ _ _ _ _ Z Z') as (E & _). discriminate.
  - intros (j & s & t & -> & S & C & -> & ->). pose proof (C55_complete f64 j s t S C) as J.
    destruct (C82_bench_json f64 (s ++ t)) as [(v' & c' & J' & Z')|(e & e' & c' & J' & Z')].
    + destruct (builds_det _ _ _ _ _ _ _ _ _ _ _ _ J J') as (E & -> & _). injection E as ->. exact Z'.
    + destruct (builds_det _ _ _ _ _ _ _ _ _ _ _ _ J J') as (E & _). discriminate.
Qed.

(** A run, and a parser in scope. *)
Example C82_case : exists v c, ZeroParses VText (bytes "[-1.5, {""a"" : true}] "%string) (Ok v) c /\ c_off c = 20.
Proof. do 2 eexists. split; [exists 40; split; [vm_compute; reflexivity|discriminate]|reflexivity]. Qed.
Example C82_case_scope : forall E, proper KBytes E (j_num VText) /\ proper KBytes E (z_num VText).
Proof. exact (num_proper VText). Qed.

Print Assumptions C82_match.
Print Assumptions C82_build.
Print Assumptions C82_counts.
Print Assumptions C82_classes.
Print Assumptions C82_char.
Print Assumptions C82_wrap.
Print Assumptions C82_equivalence.
Print Assumptions C82_off_text_refuted.
Print Assumptions C82_exchange.
Print Assumptions C82_bench_json.
Print Assumptions C82_bench_json_language.
