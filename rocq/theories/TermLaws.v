(** Termination of [try_mat] and [ctor], with a checkable criterion. *)

From Coq Require Import List Arith NArith Bool Lia.
From Verif Require Import Base Text Context Neu Syntax Regex Ctor Api TextProofs Spec Core Sound Complete Obs Laws Term Consumes CtorSpec CtorSound CtorComplete PolicyLaws.
Import ListNotations.

(** A syntactic criterion: every unbounded loop body consumes ([consumes], Consumes.v), and a
    recursive parser reached without consuming anything has a smaller rank than the level of the
    place where it is used.  [K x]: is the recursive parser [x] known to consume; [rk x]: its rank;
    [L]: a bound of all ranks. *)
Section Check.
  Variable K : nat -> bool.
  Variable rk : nat -> nat.
  Variable L : nat.

  Definition next (m : nat) (p : pat) : nat := if consumes K p then L else m.
  Definition bounded (r : crange) : bool := match limit_of r with Some _ => true | None => false end.

  Fixpoint wfb (m : nat) (p : pat) {struct p} : bool :=
    match p with
    | PEmpty | PFail | PStart | PEnd | PConsume _ | PConsumeAll | PLit _ | PFn _ | PNoneP => true
    | PAssert p _ | PLeaf p | PPat p | PRepeat2 p _ _ | POption p | PMap p _ | PWrap p => wfb m p
    | POnce _ c | PMany1 _ c | POpt _ c | PMany0 _ c | PBetween _ _ _ c | PTimes _ _ c | PNeuThen _ _ c => wfb_cond m c
    | PThen p q | PSuffix p q => wfb m p && wfb (next m p) q
    | PPrefix p q => wfb m q && wfb (next m q) p
    | PIfThen p t q | PSepOnce p t q =>
        wfb m p && wfb (next m p) t && wfb (next (next m p) t) q
    | PEnclose p o c => wfb m o && wfb (next m o) p && wfb (next (next m o) p) c
    | POr p q | PLongest p q | PBranch _ p q => wfb m p && wfb m q
    | PSep p s _ _ | PSepCollect p s _ _ => wfb m p && wfb (next m p) s && (consumes K p || consumes K s)
    | PSep2 p s _ _ _ => wfb m p && wfb (next m p) s
    | PRepeat p r => wfb m p && (bounded r || consumes K p)
    | PCollect p _ => wfb m p && consumes K p
    | PChoice _ _ ps => forallb (wfb m) ps
    | PPairChoice _ _ ps => forallb (fun x => wfb m (fst x)) ps
    | PRef x => rk x <? m
    | PBuilder _ _ | PDynThen _ _ | PCtorFn _ | PLock _ => false
    end
  with wfb_cond (m : nat) (c : cond) : bool :=
    match c with CEmpty | CFn _ => true | CRegex p => wfb m p end.
End Check.

Section Laws.
  Variable k : kind.
  Variable G : env.
  Variable sk : text -> nat -> nat.
  Variable pols : list pat.
  Hypothesis SK : skipper sk.
  Hypothesis IM : implements k G sk pols.

  Section Core.
    Hypothesis CE : core_env k G sk.

    Lemma match_total rk m p w i : wf_env k G sk rk -> wf k G sk rk m p -> core k G sk p -> i <= length w ->
      exists r c', Returns G pols p (cx k w i) r c'.
    Proof.
      intros WE W C Hi.
      destruct (peg_total k G sk rk SK CE WE pols IM m p W C w (sk w i)) as [o P]; [now apply sk_le|now apply sk_idem|].
      destruct (policy_complete k G sk pols SK CE IM p w i o C Hi P) as (r & c' & R & _). eauto.
    Qed.

    Variable K : nat -> bool.
    Variable rk : nat -> nat.
    Variable L : nat.
    Hypothesis KE : forall x p, env_get G x = Some p -> K x = true -> consumes K p = true.
    Notation wf := (wf k G sk rk).

    Lemma next_ok m p : core k G sk p -> next_level k G sk m p (next K L m p).
    Proof.
      intros C. unfold next, next_level. destruct (consumes K p) eqn:E; [right|now left].
      eapply consumes_advances; eauto.
    Qed.

    Fixpoint wfb_wf (p : pat) : forall m, core k G sk p -> wfb K rk L m p = true -> wf m p
    with wfb_cond_wf (c : cond) : forall m, core_cond k G sk c -> wfb_cond K rk L m c = true -> wf_cond k G sk rk m c.
    Proof.
      - destruct p; intros lv C H; cbn [wfb] in H; try discriminate H;
          repeat match goal with H : _ && _ = true |- _ => apply andb_true_iff in H; destruct H end;
          try (apply wf_leaf; exact I); inversion C; subst.
        + apply wf_assert. now apply wfb_wf.
        + apply wf_pleaf. now apply wfb_wf.
        + apply wf_once, wfb_cond_wf; assumption.
        + apply wf_many1, wfb_cond_wf; assumption.
        + apply wf_opt, wfb_cond_wf; assumption.
        + apply wf_many0, wfb_cond_wf; assumption.
        + apply wf_between, wfb_cond_wf; assumption.
        + apply wf_times, wfb_cond_wf; assumption.
        + apply wf_neuthen, wfb_cond_wf; assumption.
        + eapply wf_then; [now apply wfb_wf|now apply next_ok|now apply wfb_wf].
        + eapply wf_ifthen; [now apply wfb_wf|now apply next_ok|now apply wfb_wf|now apply next_ok|now apply wfb_wf].
        + apply wf_or; now apply wfb_wf.
        + apply wf_longest; now apply wfb_wf.
        + apply wf_pat; now apply wfb_wf.
        + eapply wf_prefix; [now apply wfb_wf|now apply next_ok|now apply wfb_wf].
        + eapply wf_suffix; [now apply wfb_wf|now apply next_ok|now apply wfb_wf].
        + eapply wf_enclose; [now apply wfb_wf|now apply next_ok|now apply wfb_wf|now apply next_ok|now apply wfb_wf].
        + eapply wf_seponce; [now apply wfb_wf|now apply next_ok|now apply wfb_wf|now apply next_ok|now apply wfb_wf].
        + eapply wf_sep; [now apply wfb_wf|now apply next_ok|now apply wfb_wf|].
          match goal with H : _ || _ = true |- _ => apply orb_true_iff in H as [H|H] end; [left|right]; eapply consumes_advances; eauto.
        + eapply wf_sep2; [now apply wfb_wf|now apply next_ok|now apply wfb_wf].
        + eapply wf_sepcollect; [now apply wfb_wf|now apply next_ok|now apply wfb_wf|].
          match goal with H : _ || _ = true |- _ => apply orb_true_iff in H as [H|H] end; [left|right]; eapply consumes_advances; eauto.
        + apply wf_repeat; [now apply wfb_wf|].
          match goal with H : _ || _ = true |- _ => apply orb_true_iff in H as [H|H] end; [left|right; eapply consumes_advances; eauto].
          unfold bounded in H0. now destruct (limit_of r).
        + apply wf_repeat2; now apply wfb_wf.
        + apply wf_collect; [now apply wfb_wf|]. eapply consumes_advances; eauto.
        + apply wf_option; now apply wfb_wf.
        + apply wf_branch; now apply wfb_wf.
        + apply wf_map; now apply wfb_wf.
        + apply wf_choice. match goal with H : Forall _ ps |- _ => revert H H end. clear C. intros F _. revert H F.
          induction ps as [|q ps IH]; intros H F p I; [destruct I|]. cbn [forallb] in H. apply andb_true_iff in H as [H1 H2].
          inversion F; subst. destruct I as [<-|I]; [now apply wfb_wf|]. now apply IH.
        + apply wf_pairchoice. match goal with H : Forall _ (map fst ps) |- _ => revert H H end. clear C. intros F _. revert H F.
          induction ps as [|[q x] ps IH]; intros H F p I; [destruct I|]. cbn [forallb map fst] in H, F, I. apply andb_true_iff in H as [H1 H2].
          inversion F; subst. destruct I as [<-|I]; [now apply wfb_wf|]. now apply IH.
        + apply wf_wrap; now apply wfb_wf.
        + apply wf_ref. intros _. now apply Nat.ltb_lt.
      - destruct c; intros lv C H; cbn [wfb_cond] in H; inversion C; subst.
        + apply wf_cempty.
        + apply wf_cfn.
        + apply wf_cregex. now apply wfb_wf.
    Qed.

    Lemma checked_total m p w i :
      (forall x q, env_get G x = Some q -> wfb K rk L (rk x) q = true) ->
      core k G sk p -> wfb K rk L m p = true -> i <= length w ->
      exists r c', Returns G pols p (cx k w i) r c'.
    Proof.
      intros WE C W Hi. eapply match_total; eauto.
      - intros x q E. apply wfb_wf; [|now apply WE]. eapply CE; eauto.
      - apply wfb_wf; eauto.
    Qed.
  End Core.

  Lemma build_total HV S (h : handler S) rk m p w i st :
    tcore_env k G sk HV -> tcore k G sk HV p ->
    (forall w x b j st, x <= length w -> b <= j -> j <= length w ->
       exists v, fst (h (cx k w x) (sp k w b j) st) = Ok v /\ HV w b j v) ->
    wf_env k G sk rk -> wf k G sk rk m p -> i <= length w ->
    exists r c' st', Builds h G pols p (cx k w i) st r c' st'.
  Proof.
    intros TE T HH WE W Hi.
    pose proof (tcore_core_env k G sk HV TE) as CE. pose proof (tcore_core k G sk HV p T) as C.
    destruct (peg_total k G sk rk SK CE WE pols IM m p W C w (sk w i)) as [o P]; [now apply sk_le|now apply sk_idem|].
    destruct (construct_complete k G sk pols HV h SK TE IM HH w p (sk w i) o P T) as [n V]; [now apply sk_le|now apply sk_idem|].
    specialize (V n (le_n _) [] i st Hi eq_refl). destruct o as [b j|e].
    - destruct V as (v & y & st' & E & _). exists (Ok v), (cx k w y), st'. exists n. split; [exact E|discriminate].
    - destruct V as (y & st' & E & _). exists (Err e), (cx k w y), st'. exists n. split; [exact E|discriminate].
  Qed.
End Laws.
