(** Constructing mode against matching mode for the counting combinators in which the two differ:
    fixed-capacity repetitions, [sep_collect], and [sep] without the optional last element. *)

From Coq Require Import List Arith NArith Bool Lia.
From Verif Require Import Base Text Context Neu Syntax Regex Ctor Api TextProofs Spec Core Sound Complete Obs Laws ApiLaws CtorSpec CtorSound CtorComplete PolicyLaws CtorLaws LoopLaws.
Import ListNotations.

Section Agree.
  Variable k : kind.
  Variable G : env.
  Variable HV : text -> nat -> nat -> val -> Prop.
  Context {S : Type}.
  Variable h : handler S.
  Hypothesis TE : tcore_env k G no_skip HV.
  Hypothesis HH : forall w x b j st, x <= length w -> b <= j -> j <= length w ->
    exists v, fst (h (cx k w x) (sp k w b j) st) = Ok v /\ HV w b j v.
  Notation tcore := (tcore k G no_skip HV).
  Notation core := (core k G no_skip).
  Let CE := tcore_core_env k G no_skip HV TE.
  Notation Matches := (Matches k G).
  Notation Fails := (Fails k G).

  Lemma step_builds p w i b j st : tcore p -> i <= length w -> Matches p w i b j ->
    exists v st', Builds h G [] p (cx k w i) st (Ok v) (cx k w j) st'.
  Proof.
    intros C Hi (_ & _ & n & E).
    destruct (returns_agrees k G no_skip [] HV h no_skip_skipper TE (no_skip_implements k G) HH p w i st (Ok (sp k w b j)) (cx k w j) C Hi) as
      (r1 & x & y & st' & B & Ec & X & _ & Hok); [exists n; split; [exact E|discriminate]|].
    destruct (proj1 Hok (ex_intro _ _ eq_refl)) as [v ->]. change (x = y) in X. subst y.
    exists v, st'. now rewrite Ec.
  Qed.
  Lemma stop_builds p w i e st : tcore p -> i <= length w -> Fails p w i e ->
    exists st', Builds h G [] p (cx k w i) st (Err e) (cx k w i) st'.
  Proof.
    intros C Hi (n & E).
    destruct (returns_agrees k G no_skip [] HV h no_skip_skipper TE (no_skip_implements k G) HH p w i st (Err e) (cx k w i) C Hi) as
      (r1 & x & y & st' & B & Ec & X & Herr & _); [exists n; split; [exact E|discriminate]|].
    rewrite (proj1 (Herr e) eq_refl) in B. change (x = y) in X. subst y. exists st'. rewrite <- Ec in B. exact B.
  Qed.
  Lemma returns_ok p w i b j : Matches p w i b j -> Returns G [] p (cx k w i) (Ok (sp k w b j)) (cx k w j).
  Proof. intros (_ & _ & n & E). exists n. split; [exact E|discriminate]. Qed.
  Lemma returns_err p w i e : Fails p w i e -> Returns G [] p (cx k w i) (Err e) (cx k w i).
  Proof. intros (n & E). exists n. split; [exact E|discriminate]. Qed.

  Lemma greedy_repeats p w lim i n j : tcore p -> i <= length w ->
    Greedy (step_of k G p w) (stop_of k G p w) lim i n j ->
    forall st, exists vs st', Repeats h G [] p lim (cx k w i) st vs (cx k w j) st' /\ length vs = n.
  Proof.
    intros C Hi H. revert Hi. induction H as [i|lim i NZ [e E]|lim i j n j' NZ [b E] H IH]; intros Hi st.
    - exists [], st. split; [constructor|reflexivity].
    - destruct (stop_builds p w i e st C Hi E) as [st' B]. exists [], st'. split; [|reflexivity]. eapply rep_stop; eauto.
    - destruct (step_builds p w i b j st C Hi E) as (v & st1 & B).
      destruct (IH (proj2 (proj2 (matches_in _ _ CE _ _ _ _ _ (tcore_core _ _ _ _ _ C) Hi E))) st1) as (vs & st' & R & L).
      exists (v :: vs), st'. split; [|cbn; now rewrite L]. eapply rep_more; eauto.
  Qed.

  Lemma alternation_repeats p s w lim i n j : tcore p -> core s -> i <= length w ->
    Alternation (step_of k G p w) (step_of k G s w) (stop_of k G p w) (stop_of k G s w) lim i n j ->
    forall st, exists vs en st', SepRepeats h G [] p s true lim (cx k w i) st vs en (cx k w j) st' /\ length vs = n /\ j <= length w.
  Proof.
    intros C Cs Hi H. revert Hi.
    induction H as [i|lim i NZ [e E]|lim i j NZ [b E] [e E']|lim i j j' n j'' NZ [b E] [b' E'] H IH]; intros Hi st.
    - exists [], false, st. split; [constructor|auto].
    - destruct (stop_builds p w i e st C Hi E) as [st' B]. exists [], false, st'. split; [|auto]. eapply srep_stop; eauto.
    - destruct (step_builds p w i b j st C Hi E) as (v & st1 & B).
      pose proof (matches_in _ _ CE _ _ _ _ _ (tcore_core _ _ _ _ _ C) Hi E).
      exists [v], true, st1. split; [|split; [reflexivity|lia]].
      exact (srep_last h G [] p s true lim _ _ v _ _ e _ NZ B (returns_err _ _ _ _ E')).
    - destruct (step_builds p w i b j st C Hi E) as (v & st1 & B).
      pose proof (matches_in _ _ CE _ _ _ _ _ (tcore_core _ _ _ _ _ C) Hi E). assert (Hj : j <= length w) by lia.
      pose proof (matches_in _ _ CE _ _ _ _ _ Cs Hj E'). assert (Hj' : j' <= length w) by lia.
      destruct (IH Hj' st1) as (vs & en & st' & R & L & Hl).
      exists (v :: vs), en, st'. split; [|split; [cbn [length]; f_equal; exact L|exact Hl]].
      eapply srep_more; [exact NZ|exact B|exact (returns_ok _ _ _ _ _ E')|exact R].
  Qed.

  Lemma terminated_repeats p s w lim i n j x : tcore p -> core s -> i <= length w -> terminated k G p s w lim i n j x ->
    forall st, exists vs st', SepRepeats h G [] p s false lim (cx k w i) st vs false (cx k w x) st' /\ length vs = n.
  Proof.
    intros C Cs Hi H. revert Hi.
    induction H as [i|lim i NZ [e E]|lim i x NZ [b E] [e E']|lim i j j' n j'' x NZ [b E] [b' E'] H IH]; intros Hi st.
    - exists [], st. split; [constructor|auto].
    - destruct (stop_builds p w i e st C Hi E) as [st' B]. exists [], st'. split; [|auto]. eapply srep_stop; eauto.
    - destruct (step_builds p w i b x st C Hi E) as (v & st1 & B).
      exists [], st1. split; [|reflexivity].
      exact (srep_last h G [] p s false lim _ _ v _ _ e _ NZ B (returns_err _ _ _ _ E')).
    - destruct (step_builds p w i b j st C Hi E) as (v & st1 & B).
      pose proof (matches_in _ _ CE _ _ _ _ _ (tcore_core _ _ _ _ _ C) Hi E). assert (Hj : j <= length w) by lia.
      pose proof (matches_in _ _ CE _ _ _ _ _ Cs Hj E'). assert (Hj' : j' <= length w) by lia.
      destruct (IH Hj' st1) as (vs & st' & R & L).
      exists (v :: vs), st'. split; [|cbn; now rewrite L].
      eapply srep_more; [exact NZ|exact B|exact (returns_ok _ _ _ _ _ E')|exact R].
  Qed.

  (** [repeat2]: as long as there are at most [l] elements the modes agree. *)
  Lemma repeat2_agree p m l w i n j st : tcore p -> i <= length w ->
    Greedy (step_of k G p w) (stop_of k G p w) (Some (Datatypes.S l)) i n j -> n <= l -> m <= n ->
    exists vs st', length vs = n /\ Builds h G [] (PRepeat2 p m l) (cx k w i) st (Ok (cells l vs)) (cx k w j) st'.
  Proof.
    intros C Hi Gr L M. destruct (greedy_repeats _ _ _ _ _ _ C Hi Gr st) as (vs & st' & R & <-). exists vs, st'. split; auto.
    pose proof (repeat2_law h G [] p m l _ _ _ _ _ R L) as B. cbv zeta in B. unfold verdict in B. now rewrite (proj2 (Nat.leb_le _ _) M) in B.
  Qed.
  (** With one more the construction panics. *)
  Lemma repeat2_overflow p m l w i j st : tcore p -> i <= length w ->
    Greedy (step_of k G p w) (stop_of k G p w) (Some (Datatypes.S l)) i (Datatypes.S l) j ->
    exists st', Builds h G [] (PRepeat2 p m l) (cx k w i) st Panic (cx k w j) st'.
  Proof.
    intros C Hi Gr. destruct (greedy_repeats _ _ _ _ _ _ C Hi Gr st) as (vs & st' & R & L). exists st'. eapply repeat2_panics; eauto.
  Qed.
  Lemma sep2_overflow p s m l w i j st : tcore p -> core s -> i <= length w ->
    Alternation (step_of k G p w) (step_of k G s w) (stop_of k G p w) (stop_of k G s w) (Some (Datatypes.S l)) i (Datatypes.S l) j ->
    exists st', Builds h G [] (PSep2 p s m l true) (cx k w i) st Panic (cx k w j) st'.
  Proof.
    intros C Cs Hi A. destruct (alternation_repeats _ _ _ _ _ _ _ C Cs Hi A st) as (vs & en & st' & R & L & _).
    exists st'. eapply sep2_panics; eauto.
  Qed.
  Lemma sep2_agree p s m l w i n j st : tcore p -> core s -> i <= length w ->
    Alternation (step_of k G p w) (step_of k G s w) (stop_of k G p w) (stop_of k G s w) (Some (Datatypes.S l)) i n j -> n <= l -> m <= n ->
    exists vs st', length vs = n /\ Builds h G [] (PSep2 p s m l true) (cx k w i) st (Ok (cells l vs)) (cx k w j) st'.
  Proof.
    intros C Cs Hi A L M. destruct (alternation_repeats _ _ _ _ _ _ _ C Cs Hi A st) as (vs & en & st' & R & <- & _). exists vs, st'. split; auto.
    pose proof (sep2_law h G [] p s m l true _ _ _ _ _ _ R L) as B. cbv zeta in B. unfold verdict in B. now rewrite (proj2 (Nat.leb_le _ _) M) in B.
  Qed.

  (** [sep] and [sep_collect] without the optional last element. *)
  Lemma sep_noskip_agree p s mn w i n j x st : tcore p -> core s -> i <= length w -> terminated k G p s w None i n j x -> mn <= n ->
    exists vs st', length vs = n /\ Builds h G [] (PSep p s mn false) (cx k w i) st (Ok (VList vs)) (cx k w x) st'.
  Proof.
    intros C Cs Hi T M. destruct (terminated_repeats _ _ _ _ _ _ _ _ C Cs Hi T st) as (vs & st' & R & <-). exists vs, st'. split; auto.
    pose proof (sep_law h G [] p s mn false _ _ _ _ _ _ R) as B. cbv zeta in B. unfold verdict in B. now rewrite (proj2 (Nat.leb_le _ _) M) in B.
  Qed.
  Lemma sepcollect_noskip_agree p s mn w i n j x st : tcore p -> core s -> i <= length w -> terminated k G p s w None i n j x -> mn <= n ->
    exists vs st', length vs = n /\ Builds h G [] (PSepCollect p s mn false) (cx k w i) st (Ok (VList vs)) (cx k w x) st'.
  Proof.
    intros C Cs Hi T M. destruct (terminated_repeats _ _ _ _ _ _ _ _ C Cs Hi T st) as (vs & st' & R & <-). exists vs, st'. split; auto.
    pose proof (sepcollect_law h G [] p s mn false _ _ _ _ _ _ _ _ R (conj eq_refl eq_refl)) as B. cbv zeta in B. unfold verdict in B.
    now rewrite (proj2 (Nat.leb_le _ _) M) in B.
  Qed.

  (** [sep_collect] with it: if no further element matches directly after the list, the modes agree. *)
  Lemma sepcollect_agree p s mn w i n j e st : tcore p -> core s -> i <= length w ->
    Alternation (step_of k G p w) (step_of k G s w) (stop_of k G p w) (stop_of k G s w) None i n j -> mn <= n -> Fails p w j e ->
    exists vs st', length vs = n /\ Builds h G [] (PSepCollect p s mn true) (cx k w i) st (Ok (VList vs)) (cx k w j) st'.
  Proof.
    intros C Cs Hi A M F. destruct (alternation_repeats _ _ _ _ _ _ _ C Cs Hi A st) as (vs & en & st' & R & <- & Hj).
    destruct (stop_builds p w j e st' C Hj F) as [st2 B2].
    destruct en.
    - pose proof (sepcollect_law h G [] p s mn true _ _ _ _ _ _ _ _ R (disc_none h G [] p s _ _ _ _ _ B2)) as B. cbv zeta in B. unfold verdict in B.
      rewrite (proj2 (Nat.leb_le _ _) M) in B. exists vs, st2. auto.
    - pose proof (sepcollect_law h G [] p s mn true _ _ _ _ _ _ _ _ R (conj eq_refl eq_refl)) as B. cbv zeta in B. unfold verdict in B.
      rewrite (proj2 (Nat.leb_le _ _) M) in B. exists vs, st'. auto.
  Qed.
End Agree.

(** Without policies: same verdict, same error, same cursor. *)
Definition same_verdict {A B} (r : res A) (r' : res B) : Prop :=
  (exists a b, r = Ok a /\ r' = Ok b) \/ (exists e, r = Err e /\ r' = Err e).

Lemma verdicts {A B} (r : res A) (r' : res B) : (exists v, r = Ok v) \/ (exists e, r = Err e) ->
  (forall e, r = Err e <-> r' = Err e) -> ((exists v, r = Ok v) <-> exists s, r' = Ok s) -> same_verdict r r'.
Proof.
  intros [[v ->]|[e ->]] H1 H2.
  - destruct (proj1 H2 (ex_intro _ _ eq_refl)) as [s ->]. left; eauto.
  - right. exists e. split; [reflexivity|]. now apply H1.
Qed.

Section Plain.
  Variable k : kind.
  Variable G : env.
  Variable HV : text -> nat -> nat -> val -> Prop.
  Context {S : Type}.
  Variable h : handler S.
  Hypothesis TE : tcore_env k G no_skip HV.
  Hypothesis HH : forall w x b j st, x <= length w -> b <= j -> j <= length w ->
    exists v, fst (h (cx k w x) (sp k w b j) st) = Ok v /\ HV w b j v.

  Lemma build_then_match p w i st r c' st' : tcore k G no_skip HV p -> i <= length w ->
    Builds h G [] p (cx k w i) st r c' st' -> exists r', Returns G [] p (cx k w i) r' c' /\ same_verdict r r'.
  Proof.
    intros C Hi B.
    destruct (builds_spec k G no_skip [] HV h no_skip_skipper TE (no_skip_implements k G) HH _ _ _ _ _ _ _ C Hi B) as
      [(v & j & y & E & _)|(e & y & E & _)];
    destruct (builds_agrees k G no_skip [] HV h no_skip_skipper TE (no_skip_implements k G) HH _ _ _ _ _ _ _ C Hi B) as
      (r1 & x & y' & R & -> & X & H1 & H2); change (x = y') in X; subst y'; exists r1; (split; [exact R|]);
      apply verdicts; eauto.
  Qed.
  Lemma match_then_build p w i st r c' : tcore k G no_skip HV p -> i <= length w ->
    Returns G [] p (cx k w i) r c' -> exists r' st', Builds h G [] p (cx k w i) st r' c' st' /\ same_verdict r r'.
  Proof.
    intros C Hi R.
    destruct (returns_agrees k G no_skip [] HV h no_skip_skipper TE (no_skip_implements k G) HH _ _ _ st _ _ C Hi R) as
      (r1 & x & y & st' & B & -> & X & H1 & H2). change (x = y) in X. subst y. exists r1, st'. split; [exact B|].
    destruct (build_then_match _ _ _ _ _ _ _ C Hi B) as (r2 & R2 & V).
    destruct (returns_det _ _ _ _ _ _ _ _ R R2) as [-> _].
    destruct V as [(a & b & -> & ->)|(e & -> & ->)]; [left|right]; eauto.
  Qed.

  Lemma builds_tree p w i st v c' st' : tcore k G no_skip HV p -> i <= length w ->
    Builds h G [] p (cx k w i) st (Ok v) c' st' -> exists j, c' = cx k w j /\ Tree k G no_skip HV w p i v j.
  Proof.
    intros C Hi B.
    destruct (builds_spec k G no_skip [] HV h no_skip_skipper TE (no_skip_implements k G) HH _ _ _ _ _ _ _ C Hi B) as
      [(v' & j & y & [= <-] & -> & T & _ & _ & _ & X)|(e & y & E & _)]; [|discriminate].
    change (y = j) in X. subst y. exists j. auto.
  Qed.
  Lemma tree_builds_plain p w i st v j : (forall w b j v v', HV w b j v -> HV w b j v' -> v = v') ->
    tcore k G no_skip HV p -> i <= length w -> Tree k G no_skip HV w p i v j ->
    exists st', Builds h G [] p (cx k w i) st (Ok v) (cx k w j) st'.
  Proof.
    intros HF C Hi T.
    destruct (tree_builds k G no_skip [] HV h no_skip_skipper TE (no_skip_implements k G) HH p w i st v j HF C Hi T) as (y & st' & B & X).
    change (y = j) in X. subst y. eauto.
  Qed.
End Plain.

(** The extractor of [ctor] builds exactly the trees of slices. *)
Lemma ctor_tree k G p w i v c' : tcore_env k G no_skip is_slice -> tcore k G no_skip is_slice p -> i <= length w ->
  (Builds extract_text G [] p (cx k w i) tt (Ok v) c' tt <->
   exists j, c' = cx k w j /\ Tree k G no_skip is_slice w p i v j).
Proof.
  intros TE C Hi. split.
  - apply (builds_tree k G is_slice extract_text TE (extract_text_slice k)); auto.
  - intros (j & -> & T). destruct (tree_builds_plain k G is_slice extract_text TE (extract_text_slice k) p w i tt v j) as ([] & B); auto.
    unfold is_slice. congruence.
Qed.
