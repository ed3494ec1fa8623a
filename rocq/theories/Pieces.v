(** Laws of the leaves in terms of the text that follows the cursor: what a run, a literal or an anchor
    cuts off [skipn i w]. *)

From Coq Require Import List Arith NArith Bool Lia.
From Verif Require Import Base Text Context Neu Syntax Regex Ctor Api TextProofs Spec Units Core Sound
  Complete Mono Atomic Obs Laws UnitLaws UnitProps CtorSpec CtorLaws CtorShape.
Import ListNotations.

(** Every item of [s], seen with what follows it, passes [f]; [t] comes after [s]. *)
Fixpoint took (f : text -> bool) (s t : text) : Prop :=
  match s with [] => True | x :: s' => f (x :: s' ++ t) = true /\ took f s' t end.
(** The next item, if there is one, does not pass. *)
Definition halted (f : text -> bool) (t : text) : Prop := match t with [] => True | _ => f t = false end.

Lemma skip_cons (w : text) i x r : skipn i w = x :: r -> nth_error w i = Some x /\ skipn (S i) w = r /\ i < length w.
Proof.
  revert w. induction i as [|i IH]; intros [|a w] E; cbn in *; try discriminate.
  - injection E as -> ->. repeat split. lia.
  - destruct (IH _ E) as (A & B & C). repeat split; auto. lia.
Qed.
Lemma skip_nil (w : text) i : skipn i w = [] -> length w <= i.
Proof. intros E. pose proof (f_equal (@length item) E) as L. rewrite skipn_length in L. cbn in L. lia. Qed.
Lemma skip_app (w : text) i s t : skipn i w = s ++ t -> skipn (i + length s) w = t.
Proof.
  revert i. induction s as [|x s IH]; intros i E; cbn in *; [now rewrite Nat.add_0_r|].
  apply skip_cons in E as (_ & E & _). apply IH in E. now rewrite Nat.add_succ_r.
Qed.
Lemma skip_len (w : text) i s t : skipn i w = s ++ t -> i <= length w -> i + length s <= length w.
Proof. intros E Hi. pose proof (f_equal (@length item) E) as L. rewrite skipn_length, app_length in L. lia. Qed.
Lemma skip_slice (w : text) i s t : skipn i w = s ++ t -> slice w i (i + length s) = s.
Proof.
  intros E. unfold slice. rewrite E. replace (i + length s - i) with (length s) by lia.
  rewrite firstn_app, firstn_all, Nat.sub_diag. cbn. apply app_nil_r.
Qed.
Lemma took_impl (f g : text -> bool) s t : (forall r, f r = true -> g r = true) -> took f s t -> took g s t.
Proof. intros H. induction s as [|x s IH]; cbn; [auto|]. intros [A B]. split; auto. Qed.

Section Pieces.
  Variable k : kind.
  Variable G : env.
  Hypothesis CE : core_env k G no_skip.
  Notation core := (core k G no_skip).
  Notation core_cond := (core_cond k G no_skip).
  Notation Matches := (Matches k G).
  Notation Fails := (Fails k G).

  (** The condition [c] is the test [ok] of the text that starts with the item asked about. *)
  Definition tests (c : cond) (ok : text -> bool) : Prop :=
    forall w i t x r, skipn t w = x :: r ->
      if ok (x :: r) then CondTrue k G c w i t x else CondFalse k G c w i t x.
  Lemma tests_empty : tests CEmpty (fun _ => true).
  Proof. intros w i t x r E. exact I. Qed.

  Definition passes (u : neu) (ok : text -> bool) (r : text) : bool :=
    match r with [] => false | x :: _ => is_match u x && ok r end.

  Section Run.
    Variables (u : neu) (c : cond) (ok : text -> bool).
    Hypothesis CC : core_cond c.
    Hypothesis TS : tests c ok.
    Notation f := (passes u ok).

    Lemma takes_skip w i t x r : skipn t w = x :: r -> f (x :: r) = true -> Takes k G u c w i t.
    Proof.
      intros E F. unfold passes in F. apply andb_true_iff in F as [F1 F2]. exists x.
      split; [now apply skip_cons in E|]. split; [exact F1|].
      pose proof (TS w i t x r E) as H. now rewrite F2 in H.
    Qed.
    Lemma leaves_skip w i t : halted f (skipn t w) -> Leaves k G u c w i t.
    Proof.
      destruct (skipn t w) as [|x r] eqn:E; intros F.
      - left. now apply skip_nil.
      - right. exists x. split; [now apply skip_cons in E|]. unfold halted, passes in F.
        destruct (is_match u x); [right|now left]. cbn in F. split; [reflexivity|].
        pose proof (TS w i t x r E) as H. now rewrite F in H.
    Qed.
    Lemma took_takes w i s : forall t j, skipn j w = s ++ t -> took f s t ->
      forall m, j <= m -> m < j + length s -> Takes k G u c w i m.
    Proof.
      induction s as [|x s IH]; intros t j E T m H1 H2; cbn in *; [lia|]. destruct T as [T1 T2].
      destruct (Nat.eq_dec m j) as [->|N]; [eapply takes_skip; eauto|].
      apply skip_cons in E as (_ & E & _). apply (IH t (S j)); auto; lia.
    Qed.

    (** The run exists. *)
    Lemma run_cut lim r : exists s t, r = s ++ t /\ took f s t /\
      (lim = Some (length s) \/ (below lim (length s) /\ halted f t)).
    Proof.
      revert lim. induction r as [|x r IH]; intros lim.
      - exists [], []. repeat split. destruct lim as [[|n]|]; cbn; auto; right; split; auto. lia.
      - destruct lim as [[|n]|].
        + exists [], (x :: r). repeat split. now left.
        + destruct (f (x :: r)) eqn:F.
          * destruct (IH (Some n)) as (s & t & -> & T & D). exists (x :: s), t. repeat split; auto.
            destruct D as [[= ->]|[B H]]; [now left|right]. cbn in *. split; [lia|exact H].
          * exists [], (x :: r). repeat split. right. split; [cbn; lia|exact F].
        + destruct (f (x :: r)) eqn:F.
          * destruct (IH None) as (s & t & -> & T & D). exists (x :: s), t. repeat split; auto.
            destruct D as [D|[B H]]; [discriminate|right]. split; [exact I|exact H].
          * exists [], (x :: r). repeat split. right. split; [exact I|exact F].
    Qed.

    Lemma cut_run lim w i s t : i <= length w -> skipn i w = s ++ t -> took f s t ->
      (lim = Some (length s) \/ (below lim (length s) /\ halted f t)) ->
      RunTo (Takes k G u c w i) (Leaves k G u c w i) lim i (i + length s).
    Proof.
      intros Hi E T D. split; [lia|]. split.
      - intros m H1 H2. eapply took_takes; eauto.
      - replace (i + length s - i) with (length s) by lia. destruct D as [D|[D H]]; [now left|right].
        split; [exact D|]. apply leaves_skip. now rewrite (skip_app _ _ _ _ E).
    Qed.

    Definition Cut (lim : option nat) (w : text) (i j : nat) : Prop :=
      exists s t, skipn i w = s ++ t /\ j = i + length s /\ took f s t /\
        (lim = Some (length s) \/ (below lim (length s) /\ halted f t)).

    Lemma between_piece m n w i b j : i <= length w -> honest k u ->
      (Matches (PBetween m n u c) w i b j <-> b = i /\ i + m <= j /\ Cut n w i j).
    Proof.
      intros Hi H. assert (C : core (PBetween m n u c)) by now constructor. split.
      - intros M. destruct (run_cut n (skipn i w)) as (s & t & E & T & D).
        pose proof (cut_run n w i s t Hi E T D) as R.
        destruct (le_lt_dec m (length s)) as [L|L].
        + assert (M' : Matches (PBetween m n u c) w i i (i + length s)) by (apply between_ok; auto; repeat split; auto; try lia; apply R).
          destruct (matches_det k G CE _ _ _ _ _ _ _ C Hi M M') as [-> ->].
          split; [reflexivity|]. split; [lia|]. exists s, t. auto.
        + exfalso. eapply (matches_fails k G CE); [exact C|exact Hi|exact M|]. eapply between_ko; eauto. lia.
      - intros (-> & Hm & s & t & E & -> & T & D). apply between_ok; auto. split; [reflexivity|]. split; [exact Hm|].
        now apply (cut_run n w i s t).
    Qed.
    Lemma many0_piece w i b j : i <= length w ->
      (Matches (PMany0 u c) w i b j <-> b = i /\ Cut None w i j).
    Proof.
      intros Hi. assert (C : core (PMany0 u c)) by now constructor. split.
      - intros M. destruct (run_cut None (skipn i w)) as (s & t & E & T & D).
        pose proof (cut_run None w i s t Hi E T D) as R.
        assert (M' : Matches (PMany0 u c) w i i (i + length s)) by (apply many0_ok; auto).
        destruct (matches_det k G CE _ _ _ _ _ _ _ C Hi M M') as [-> ->]. split; [reflexivity|]. exists s, t. auto.
      - intros (-> & s & t & E & -> & T & D). apply many0_ok; auto. split; [reflexivity|]. now apply (cut_run None w i s t).
    Qed.
    Lemma many1_piece w i b j : i <= length w ->
      (Matches (PMany1 u c) w i b j <-> b = i /\ i < j /\ Cut None w i j).
    Proof.
      intros Hi. assert (C : core (PMany1 u c)) by now constructor. split.
      - intros M. destruct (run_cut None (skipn i w)) as (s & t & E & T & D).
        pose proof (cut_run None w i s t Hi E T D) as R. destruct s as [|x s].
        + exfalso. eapply (matches_fails k G CE); [exact C|exact Hi|exact M|]. apply many1_err; auto. left. split; [reflexivity|].
          apply leaves_skip. rewrite E. destruct D as [D|[_ D]]; [discriminate|exact D].
        + assert (M' : Matches (PMany1 u c) w i i (i + length (x :: s))) by (apply many1_ok; auto; repeat split; try apply R; cbn; lia).
          destruct (matches_det k G CE _ _ _ _ _ _ _ C Hi M M') as [-> ->].
          split; [reflexivity|]. split; [cbn; lia|]. exists (x :: s), t. auto.
      - intros (-> & Hl & s & t & E & -> & T & D). apply many1_ok; auto. split; [reflexivity|]. split; [exact Hl|].
        now apply (cut_run None w i s t).
    Qed.
  End Run.

  (** Without a condition. *)
  Lemma took_plain u s t : took (passes u (fun _ => true)) s t <-> Forall (fun x => is_match u x = true) s.
  Proof.
    induction s as [|x s IH]; cbn; [split; auto|]. rewrite andb_true_r, IH. split.
    - intros [A B]. now constructor.
    - intros H. inversion H; auto.
  Qed.

  Lemma lit_piece l w i b j : i <= length w ->
    (Matches (PLit l) w i b j <-> b = i /\ j = i + length l /\ exists t, skipn i w = l ++ t).
  Proof.
    intros Hi. rewrite (lit_ok k G CE l w i b j Hi). split.
    - intros (-> & -> & E). split; [reflexivity|]. split; [reflexivity|]. exists (skipn (length l) (skipn i w)).
      rewrite <- E at 1. symmetry. apply firstn_skipn.
    - intros (-> & -> & t & E). split; [reflexivity|]. split; [reflexivity|].
      rewrite E, firstn_app, firstn_all, Nat.sub_diag. cbn. apply app_nil_r.
  Qed.
  Lemma start_piece w i b j : i <= length w -> (Matches PStart w i b j <-> b = i /\ j = i /\ i = 0).
  Proof.
    intros Hi. rewrite (matches_peg k G CE) by (auto; constructor). split.
    - intros H. inversion H; subst; auto.
    - intros (-> & -> & ->). constructor.
  Qed.
  Lemma end_piece w i b j : i <= length w -> (Matches PEnd w i b j <-> b = i /\ j = i /\ skipn i w = []).
  Proof.
    intros Hi. rewrite (matches_peg k G CE) by (auto; constructor). split.
    - intros H. inversion H; subst; auto. split; [reflexivity|]. split; [reflexivity|]. apply skipn_all.
    - intros (-> & -> & E). apply skip_nil in E. constructor. lia.
  Qed.
  Lemma end_fails w i e : i <= length w -> (Fails PEnd w i e <-> e = EAnchorEnd /\ skipn i w <> []).
  Proof.
    intros Hi. rewrite (fails_peg k G CE) by (auto; constructor). split.
    - intros H. inversion H; subst; auto. split; [reflexivity|]. intros E. apply skip_nil in E. lia.
    - intros (-> & E). constructor. destruct (le_lt_dec (length w) i) as [L|L]; [|exact L]. exfalso. now apply E, skipn_all2.
  Qed.
End Pieces.
