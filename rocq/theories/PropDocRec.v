(** Property C76: the recursive parsers of the documentation of [rec_parser] read exactly their notations. *)

From Coq Require Import List Arith NArith ZArith Bool Lia.
From Verif Require Import Base Text Context Neu Syntax Regex Ctor Api TextProofs Spec Core Sound Obs Laws PegLaws Term TermLaws CtorShape CtorSpec CtorLaws
  PolicyLaws Lang MapLaws ConSpec ConCalm ConTerm PropCon ApiLaws Samples RecLaws JsonLaws JsonOwned OwnedLaws Consumes PropJson DocRec.
Import ListNotations.

(** ** Rules for the pieces of both grammars *)
Section Pieces.
  Variable k : kind.
  Variable G : env.
  Hypothesis CE : core_env k G no_skip.
  Notation Peg := (Peg k G no_skip).
  Notation Con := (Con k G no_skip slice_answer).
  Notation Creps := (Creps k G no_skip slice_answer).
  Notation con_ok := (con_ok k G no_skip).
  Notation Val w p i v j := (Con w p i tt (CV v j tt)).
  Notation Not w p i := (exists e, Con w p i tt (ConSpec.CE e i tt)).

  Lemma dr_lit_at l w i t : skipn i w = l ++ t -> Peg w (PLit l) i (OK i (i + length l)).
  Proof. intros E. apply Peg_lit. rewrite E, firstn_app, firstn_all, Nat.sub_diag. cbn. apply app_nil_r. Qed.
  Lemma dr_lit_sound l w i b j : Peg w (PLit l) i (OK b j) -> b = i /\ j = i + length l /\ skipn i w = l ++ skipn j w.
  Proof.
    intros P. inversion P; subst. split; [reflexivity|]. split; [reflexivity|].
    match goal with H : firstn _ _ = l |- skipn ?x _ = _ =>
      transitivity (firstn (length l) (skipn x w) ++ skipn (length l) (skipn x w)); [symmetry; apply firstn_skipn|]; rewrite H; f_equal; rewrite <- skipn_add; f_equal; lia end.
  Qed.
  Lemma dr_lit_not l w i : (forall t, skipn i w <> l ++ t) -> Peg w (PLit l) i (KO ELiteral).
  Proof.
    intros N. apply Peg_lit_ko. intros X. apply (N (skipn (length l) (skipn i w))). rewrite <- X at 1. symmetry. apply firstn_skipn.
  Qed.
  Lemma dr_run_at u w i : forall r m, skipn (i + m) w = r -> Run k G no_skip w i u CEmpty None m (inl (runlen (is_match u) r)).
  Proof.
    induction r as [|x r IH]; intros m E; cbn [runlen].
    - apply Run_stop; [discriminate|]. apply Acc_end. now apply skipn_nil_inv.
    - apply skipn_cons_inv in E as (N1 & E & _). destruct (is_match u x) eqn:M.
      + apply Run_step; [discriminate|eapply Acc_yes; eauto; constructor|]. apply IH. now rewrite Nat.add_succ_r.
      + apply Run_stop; [discriminate|]. eapply Acc_no; eauto.
  Qed.
  Lemma dr_many0_at u w i : Peg w (PMany0 u CEmpty) i (OK i (i + runlen (is_match u) (skipn i w))).
  Proof. apply Peg_many0. apply dr_run_at. now rewrite Nat.add_0_r. Qed.
  Lemma dr_many0_sound u w i b j : i <= length w -> Peg w (PMany0 u CEmpty) i (OK b j) -> b = i /\ j = i + runlen (is_match u) (skipn i w).
  Proof.
    intros Hi P. pose proof (spec_det k G no_skip [] w (PMany0 u CEmpty) i _ _ no_skip_skipper CE (no_skip_implements _ _) ltac:(repeat constructor) Hi eq_refl P (dr_many0_at u w i)) as E.
    now injection E as -> ->.
  Qed.
  Lemma runlen_split f (r : text) : exists s, forallb f s = true /\ r = s ++ skipn (runlen f r) r /\ length s = runlen f r.
  Proof.
    induction r as [|x r (s & A & E & L)]; [exists []; auto|]. cbn [runlen]. destruct (f x) eqn:X.
    - exists (x :: s). cbn. rewrite X, A, L. split; [reflexivity|]. split; [now rewrite <- E|reflexivity].
    - exists []. auto.
  Qed.
  Lemma runlen_all f s t : forallb f s = true -> stops f t -> runlen f (s ++ t) = length s.
  Proof. intros A S. apply runlen_app; [|exact S]. intros x I. rewrite forallb_forall in A. auto. Qed.

  Ltac nosk := repeat match goal with H : context [no_skip ?a ?b] |- _ => change (no_skip a b) with b in H end.
  Ltac units := repeat match goal with s : unit |- _ => destruct s end.
  Ltac cinv T := inversion T; subst; try contradiction; nosk; units;
    repeat match goal with
    | H : undo _ ?o = CV _ _ _ |- _ => destruct o; cbn in H; try discriminate H; try injection H as ? ?; subst; units
    | H : CV _ _ _ = undo _ ?o |- _ => destruct o; cbn in H; try discriminate H; try injection H as ? ?; subst; units
    | H : ConSpec.stops (CV _ _ _) |- _ => destruct H
    end.
  Lemma dr_wrap_inv w p i v j : Val w (PWrap p) i v j -> Val w p i v j.
  Proof. intros T. cinv T. assumption. Qed.
  Lemma dr_map_inv w p f i v j : Val w (PMap p f) i v j -> exists v0, Val w p i v0 j /\ f v0 = Ok v.
  Proof.
    intros T. cinv T. match goal with H : match f ?x with _ => _ end = _ |- _ => destruct (f x) eqn:E; cbn in H; try discriminate H; injection H as ? ?; subst; eauto end.
  Qed.
  Lemma dr_mapv w p f i v v' j : Val w p i v j -> f v = Ok v' -> Val w (PMap p f) i v' j.
  Proof. intros A B. pose proof (Con_map k G no_skip slice_answer w p f i tt v j tt A) as H. rewrite B in H. exact H. Qed.
  Lemma dr_mape w p f i : Not w p i -> Not w (PMap p f) i.
  Proof. intros [e A]. exists e. apply Con_map_stops; [exact A|exact I]. Qed.
  Lemma dr_or_inv w p q i v j : Val w (POr p q) i v j -> Val w p i v j \/ Val w q i v j.
  Proof. intros T. cinv T; auto. Qed.
  Lemma dr_or_skip w p q i v j : Not w p i -> Val w q i v j -> Val w (POr p q) i v j.
  Proof. intros [e A] B. exact (Con_or2 _ _ _ _ _ _ _ _ _ _ _ _ _ A B). Qed.
  Lemma dr_or_undo w p q i e x : Con w (POr p q) i tt (ConSpec.CE e x tt) -> x = i.
  Proof.
    intros T. inversion T; subst; try contradiction.
    match goal with X : undo _ ?o = ConSpec.CE _ _ _ |- _ => destruct o; cbn in X; try discriminate; injection X; auto end.
  Qed.
  Lemma dr_then_inv w p q i v j : Val w (PThen p q) i v j -> exists a m b, Val w p i a m /\ Val w q m b j /\ v = VPair a b.
  Proof. intros T. cinv T. eauto 8. Qed.
  Lemma dr_enclose_inv w p a c i v j : Val w (PEnclose p (PLit a) (PLit c)) i v j ->
    exists m, Val w p (i + length a) v m /\ j = m + length c /\ skipn i w = a ++ skipn (i + length a) w /\ skipn m w = c ++ skipn j w.
  Proof.
    intros T. cinv T.
    repeat match goal with X : Peg w (PLit _) _ _ |- _ => apply dr_lit_sound in X as (-> & -> & ?) end. eauto.
  Qed.
  Lemma dr_ref_inv w x p i v j : env_get G x = Some p -> Val w (PRef x) i v j -> Val w p i v j.
  Proof. intros E T. cinv T. congruence. Qed.
  Lemma dr_reps_inv w p i vs j : (forall e x, Con w p i tt (ConSpec.CE e x tt) -> x = i) -> Creps w p None i tt (LV vs j tt) ->
    (vs = [] /\ j = i /\ Not w p i) \/ exists v m vs', vs = v :: vs' /\ Val w p i v m /\ Creps w p None m tt (LV vs' j tt).
  Proof.
    intros U T. inversion T; subst; nosk; units.
    - left. match goal with X : ConSpec.Con _ _ _ _ w p _ _ (ConSpec.CE ?e ?x _) |- _ => pose proof (U _ _ X) as Y; subst x; eauto end.
    - match goal with H : lcons _ ?l = _ |- _ => destruct l as [vs' y []|]; cbn [lcons] in H; [|discriminate]; injection H as ? ?; subst end.
      right. eauto 8.
  Qed.
  Lemma dr_repeat_inv w p i v j : Val w (PRepeat p (CRange (Incl 1) Unb)) i v j ->
    exists vs, Creps w p None i tt (LV vs j tt) /\ v = VList vs /\ vs <> [].
  Proof.
    intros T. cinv T. match goal with H : count_ok _ _ _ _ ?l = _ |- _ => destruct l as [vs y []|]; cbn [count_ok] in H; [|discriminate] end.
    match goal with H : (if ?b then _ else _) = _ |- _ => destruct b eqn:E; [|discriminate]; injection H as ? ?; subst end.
    exists vs. repeat split; auto. intros ->. discriminate.
  Qed.
  Lemma dr_repeatv w p i vs j : Creps w p None i tt (LV vs j tt) -> vs <> [] -> Val w (PRepeat p (CRange (Incl 1) Unb)) i (VList vs) j.
  Proof.
    intros A N. pose proof (Con_repeat k G no_skip slice_answer w p (CRange (Incl 1) Unb) i tt _ A) as H. cbn [count_ok] in H.
    destruct vs; [congruence|]. exact H.
  Qed.
  Lemma dr_stepv w p i v m vs j : Val w p i v m -> Creps w p None m tt (LV vs j tt) -> Creps w p None i tt (LV (v :: vs) j tt).
  Proof. intros A B. refine (Creps_step _ _ _ _ w p None i tt v m tt _ _ A B). discriminate. Qed.
  Lemma dr_stopv w p i : Not w p i -> Creps w p None i tt (LV [] i tt).
  Proof. intros [e A]. refine (Creps_stop _ _ _ _ w p None i tt e i tt _ A). discriminate. Qed.
  Lemma dr_repeate w p i e x : (forall e x, Con w p i tt (ConSpec.CE e x tt) -> x = i) -> Con w (PRepeat p (CRange (Incl 1) Unb)) i tt (ConSpec.CE e x tt) ->
    x = i /\ Creps w p None i tt (LV [] i tt).
  Proof.
    intros U T. inversion T; subst; try contradiction; nosk; units.
    match goal with H : count_ok _ _ _ _ ?l = _ |- _ => destruct l as [vs y []|]; cbn [count_ok] in H; [|discriminate] end.
    match goal with H : (if ?b then _ else _) = _ |- _ => destruct b eqn:E; [discriminate|]; injection H as ? ?; subst end.
    split; [reflexivity|]. destruct vs as [|v vs]; [|discriminate E].
    match goal with X : ConSpec.Creps _ _ _ _ _ _ _ _ _ _ |- _ => pose proof X as Y; apply dr_reps_inv in X as [(_ & -> & _)|(? & ? & ? & X & _)]; [exact Y|discriminate|exact U] end.
  Qed.
  Lemma dr_bounds w p i v j : con_ok_env k G no_skip -> con_ok p -> i <= length w -> Val w p i v j -> i <= j /\ j <= length w.
  Proof.
    intros CO C Hi T.
    assert (SC : InPlainScope k G slice_answer extract_text p).
    { constructor; [apply no_skip_skipper|apply no_skip_implements|exact CE|exact CO|exact C|apply slice_answers]. }
    destruct (con_run k G no_skip [] slice_answer extract_text p w i i tt _ SC (conj eq_refl (conj Hi Hi)) T) as [B _]. exact B.
  Qed.
End Pieces.

(** A parser of one of the two grammars in a context at the start of the text [w]. *)
Definition DocParses (k : kind) (G : env) (w : text) (r : res val) (c : ctx) : Prop :=
  Builds extract_text G [] (PRef 0) (Ctx k w 0) tt r c tt.

Lemma app_rest (w : text) i s : i <= length w -> skipn i w = s ++ skipn (i + length s) w -> i + length s <= length w.
Proof. intros H E. apply (f_equal (@length item)) in E. rewrite app_length, !skipn_length in E. unfold text, item in *. destruct s; cbn [length] in *; lia. Qed.
Lemma at_start k w s t : w = s ++ t -> cx k w (length s) = Ctx k w (tlen k s).
Proof. intros ->. unfold cx, bo. f_equal. rewrite firstn_app, firstn_all, Nat.sub_diag. cbn [firstn]. now rewrite app_nil_r. Qed.

(** An unfinished run is impossible: the termination criterion and the absence of panics together. *)
Lemma dr_total k G p : core_env k G no_skip -> con_ok_env k G no_skip -> con_ok k G no_skip p ->
  (forall x q, env_get G x = Some q -> calm q) -> calm p ->
  (forall x q, env_get G x = Some q -> consumes (fun _ => true) q = true /\ cconsumes (fun _ => true) (fun _ => true) q = true /\
    wfb (fun _ => true) (fun _ => 0) 1 0 q = true /\ cwfb (fun _ => true) (fun _ => true) (fun _ => 0) 1 0 q = true) ->
  cwfb (fun _ => true) (fun _ => true) (fun _ => 0) 1 1 p = true ->
  forall w i, i <= length w ->
  exists r c, Builds extract_text G [] p (cx k w i) tt r c tt /\ r <> Panic /\ r <> OOF /\
    forall r' c', Builds extract_text G [] p (cx k w i) tt r' c' tt -> r' = r /\ c' = c.
Proof.
  intros CE CO C CG CP' CH W w i Hi.
  assert (SC : InPlainScope k G slice_answer extract_text p).
  { constructor; [apply no_skip_skipper|apply no_skip_implements|exact CE|exact CO|exact C|apply slice_answers]. }
  destruct (C70_returns unit k G no_skip [] slice_answer extract_text (fun _ => true) (fun _ => true) (fun _ => 0) 1 1 p w i tt SC Hi) as (r & c & [] & B).
  - intros x q E _. now apply CH in E.
  - intros x q E _. now apply CH in E as (_ & E & _).
  - intros x q E. now apply CH in E as (_ & _ & E).
  - exact W.
  - exists r, c. split; [exact B|]. split; [|split].
    + intros ->. revert B. apply (C70_no_panic unit k G no_skip [] slice_answer extract_text p w i tt c tt SC Hi CP' CG). intros. split; discriminate.
    + destruct B as (n & _ & H). exact H.
    + intros r' c' B'. destruct (builds_det _ _ _ _ _ _ _ _ _ _ _ _ B B') as (-> & -> & _). auto.
Qed.
Lemma dr_outcome k G p w i : InPlainScope k G slice_answer extract_text p -> i <= length w ->
  (exists r c, Builds extract_text G [] p (cx k w i) tt r c tt /\ r <> Panic /\ r <> OOF /\
    forall r' c', Builds extract_text G [] p (cx k w i) tt r' c' tt -> r' = r /\ c' = c) ->
  (exists v j, Con k G no_skip slice_answer w p i tt (CV v j tt)) \/ (exists e j, Con k G no_skip slice_answer w p i tt (ConSpec.CE e j tt)).
Proof.
  intros SC Hi (r & c & B & NP & _).
  destruct (C70_outcomes unit k G no_skip [] slice_answer extract_text p w i tt _ _ _ SC Hi B) as [X|(y & j & -> & _ & _ & [(v & _ & T)|(e & _ & T)])]; [congruence| |]; eauto.
Qed.
Lemma start_cx k w : cx k w 0 = Ctx k w 0.
Proof. unfold cx, bo. cbn [firstn]. now destruct k. Qed.

Lemma app_same_length (s t s' t' : text) : length s = length s' -> s ++ t = s' ++ t' -> s = s' /\ t = t'.
Proof.
  revert s'. induction s as [|x s IH]; intros [|y s'] L E; cbn in *; try discriminate; [auto|]. injection E as -> E. injection L as L.
  destruct (IH s' L E) as [-> ->]. auto.
Qed.

(** ** Brackets *)
Section Brackets.
  Notation Con := (Con KBytes br_env no_skip slice_answer).
  Notation con_ok := (con_ok KBytes br_env no_skip).
  Notation Val w p i v j := (Con w p i tt (CV v j tt)).
  Notation Not w p i := (exists e, Con w p i tt (ConSpec.CE e i tt)).
  Lemma br_core : core_env KBytes br_env no_skip.
  Proof. closed_env. shape. Qed.
  Lemma br_inner_ok : con_ok br_inner.
  Proof. apply ok_or; [apply ok_ref|apply ok_leaf; [exact I|shape]]. Qed.
  Lemma br_ok : con_ok_env KBytes br_env no_skip.
  Proof. intros [|x] p E; [injection E as <-|destruct x; discriminate]. apply ok_wrap, ok_or; apply ok_enclose; [exact br_inner_ok|shape|shape|exact br_inner_ok|shape|shape]. Qed.
  Lemma br_scope : InPlainScope KBytes br_env slice_answer extract_text (PRef 0).
  Proof. constructor; [apply no_skip_skipper|apply no_skip_implements|exact br_core|exact br_ok|apply ok_ref|apply slice_answers]. Qed.
  Lemma br_calm : forall x q, env_get br_env x = Some q -> calm q.
  Proof.
    assert (C : calm br_inner) by (apply calm_or; [apply calm_ref|apply calm_leaf; exact I]).
    intros [|x] q H; [injection H as <-|destruct x; discriminate H]. apply calm_wrap, calm_or; apply calm_enclose; exact C.
  Qed.

  Lemma br_letter_sound w i v j : Val w br_letter i v j -> exists x, (97 <= x <= 122)%N /\ v = VText [x] /\ j = S i /\ skipn i w = x :: skipn j w.
  Proof.
    intros T. inversion T; subst.
    match goal with P : Spec.Peg _ _ _ _ _ _ (OK _ _) |- _ => inversion P; subst end.
    match goal with A : Spec.Acc _ _ _ _ _ _ _ _ _ |- _ => inversion A; subst end.
    match goal with N : nth_error _ _ = Some ?x, M : is_match _ ?x = true |- _ => rename N into HN; rename M into HM; rename x into y end.
    rewrite Nat.add_0_r in HN. exists y. cbn in HM. unfold is_ascii_lower, between_N in HM. apply andb_true_iff in HM as [M1 M2].
    apply N.leb_le in M1, M2. split; [lia|]. unfold no_skip in *. rewrite (slice_one _ _ _ HN).
    repeat split; auto. clear -HN. revert i HN. induction w as [|z w IH]; intros [|i] H; cbn in *; try discriminate; [injection H as ->; reflexivity|apply IH; exact H].
  Qed.
  Lemma br_sound : forall n w i v j, j - i <= n -> i <= length w -> Val w (PRef 0) i v j ->
    exists s x, Nested s x /\ v = VText [x] /\ j = i + length s /\ skipn i w = s ++ skipn j w.
  Proof.
    induction n as [n IH] using lt_wf_ind. intros w i v j Hn Hi T.
    apply dr_ref_inv with (p := PWrap (POr (PEnclose br_inner (PLit [123%N]) (PLit [125%N])) (PEnclose br_inner (PLit [91%N]) (PLit [93%N])))) in T; [|reflexivity].
    apply dr_wrap_inv in T.
    assert (IN : forall m v j0, Val w br_inner (i + 1) v m -> j = m + 1 -> i + 1 <= length w -> v = j0 ->
      exists s x, ((97 <= x <= 122)%N /\ s = [x] \/ Nested s x) /\ v = VText [x] /\ m = i + 1 + length s /\ skipn (i + 1) w = s ++ skipn m w).
    { intros m v0 _ T0 -> L _. apply dr_or_inv in T0 as [T0|T0].
      - pose proof (dr_bounds KBytes br_env br_core w _ _ _ _ br_ok (ok_ref _ _ _ _) L T0) as [B1 B2].
        destruct (IH (m - (i + 1)) ltac:(lia) w (i + 1) v0 m (le_n _) L T0) as (s & x & N1 & V & E1 & E2). exists s, x. auto.
      - apply br_letter_sound in T0 as (x & X & V & -> & E). exists [x], x. split; [left; auto|]. split; [exact V|]. cbn [length]. split; [lia|]. exact E. }
    apply dr_or_inv in T as [T|T]; apply dr_enclose_inv in T as (m & T & -> & E1 & E2); cbn [length] in *;
      (assert (L : i + 1 <= length w) by (apply (f_equal (@length item)) in E1; rewrite app_length, !skipn_length in E1; cbn in E1; unfold text, item in *; lia));
      destruct (IN m v v T eq_refl L eq_refl) as (s & x & N1 & -> & -> & E3); rewrite E1, E3, E2.
    - exists (123%N :: s ++ [125%N]), x. split; [destruct N1 as [[X ->]|N1]; [now apply nested_curly|now apply nested_in_curly]|].
      split; [reflexivity|]. cbn [length app]. rewrite app_length. cbn [length]. split; [lia|]. rewrite <- app_assoc. reflexivity.
    - exists (91%N :: s ++ [93%N]), x. split; [destruct N1 as [[X ->]|N1]; [now apply nested_square|now apply nested_in_square]|].
      split; [reflexivity|]. cbn [length app]. rewrite app_length. cbn [length]. split; [lia|]. rewrite <- app_assoc. reflexivity.
  Qed.
  Lemma br_enclose_not w a c i r y : skipn i w = y :: r -> y <> a -> Not w (PEnclose br_inner (PLit [a]) (PLit [c])) i.
  Proof.
    intros E N. eexists. apply Con_enclose_ko1. apply dr_lit_not. unfold no_skip. intros t X. rewrite E in X. injection X as X _. congruence.
  Qed.
  Lemma br_letter_at w i x r : skipn i w = x :: r -> (97 <= x <= 122)%N -> Val w br_inner i (VText [x]) (i + 1).
  Proof.
    intros E X. apply dr_or_skip.
    - destruct (br_enclose_not w 123%N 125%N i r x E ltac:(lia)) as [e1 A]. destruct (br_enclose_not w 91%N 93%N i r x E ltac:(lia)) as [e2 B].
      exists e2. eapply Con_ref; [reflexivity|]. apply Con_wrap. exact (Con_or2 _ _ _ _ _ _ _ _ _ _ _ _ _ A B).
    - apply skipn_cons_inv in E as (N1 & _ & _). rewrite Nat.add_1_r.
      assert (P : Peg KBytes br_env no_skip w br_letter i (OK i (S i))).
      { apply Peg_once. eapply Acc_yes; [rewrite Nat.add_0_r; exact N1| |constructor].
        cbn. unfold is_ascii_lower, between_N. apply andb_true_iff. split; apply N.leb_le; lia. }
      pose proof (Con_leaf KBytes br_env no_skip slice_answer w br_letter i tt i (S i) I P) as H.
      unfold slice_answer in H. rewrite (slice_one _ _ _ N1) in H. exact H.
  Qed.
  Lemma br_complete s x : Nested s x -> forall w i t, skipn i w = s ++ t -> Val w (PRef 0) i (VText [x]) (i + length s).
  Proof.
    assert (ENC : forall w i a c m t, skipn i w = a :: m ++ c :: t -> Val w br_inner (i + 1) (VText [x]) (i + 1 + length m) ->
       Val w (PEnclose br_inner (PLit [a]) (PLit [c])) i (VText [x]) (i + length (a :: m ++ [c]))).
    { intros w i a c m t E T. pose proof (skipn_at w [a] _ _ E) as E1. cbn [length] in E1. pose proof (skipn_at _ _ _ _ E1) as E2.
      replace (i + length (a :: m ++ [c])) with (i + 1 + length m + 1) by (cbn [length]; rewrite app_length; cbn [length]; lia).
      eapply Con_enclose; [eapply (dr_lit_at _ _ [a]); exact E|exact T|]. eapply (dr_lit_at _ _ [c]); exact E2. }
    assert (CURLY : forall w i m t, skipn i w = 123%N :: m ++ 125%N :: t -> Val w br_inner (i + 1) (VText [x]) (i + 1 + length m) ->
       Val w (PRef 0) i (VText [x]) (i + length (123%N :: m ++ [125%N]))).
    { intros w i m t E T. eapply Con_ref; [reflexivity|]. apply Con_wrap, Con_or1. eapply ENC; eauto. }
    assert (SQUARE : forall w i m t, skipn i w = 91%N :: m ++ 93%N :: t -> Val w br_inner (i + 1) (VText [x]) (i + 1 + length m) ->
       Val w (PRef 0) i (VText [x]) (i + length (91%N :: m ++ [93%N]))).
    { intros w i m t E T. eapply Con_ref; [reflexivity|]. apply Con_wrap. apply dr_or_skip; [eapply br_enclose_not; [exact E|discriminate]|]. eapply ENC; eauto. }
    induction 1 as [x X|x X|s x N1 IH|s x N1 IH]; intros w i t E.
    - apply (CURLY w i [x] t E). eapply br_letter_at; [|exact X]. exact (skipn_at w [123%N] _ _ E).
    - apply (SQUARE w i [x] t E). eapply br_letter_at; [|exact X]. exact (skipn_at w [91%N] _ _ E).
    - cbn [app] in E. rewrite <- app_assoc in E. apply (CURLY w i s t E). apply Con_or1. eapply IH; auto. exact (skipn_at w [123%N] _ _ E).
    - cbn [app] in E. rewrite <- app_assoc in E. apply (SQUARE w i s t E). apply Con_or1. eapply IH; auto. exact (skipn_at w [91%N] _ _ E).
  Qed.
  Lemma br_undo w i e x : Con w (PRef 0) i tt (ConSpec.CE e x tt) -> x = i.
  Proof.
    intros T. inversion T; subst; try contradiction; [|discriminate]. match goal with X : env_get _ _ = Some _ |- _ => injection X as <- end.
    match goal with X : ConSpec.Con _ _ _ _ w (PWrap _) _ _ _ |- _ => inversion X; subst; try contradiction end. eapply dr_or_undo; eauto.
  Qed.
End Brackets.

(** The parser always returns, never panics, and has one answer. *)
Theorem C76_brackets_total : forall w, exists r c, DocParses KBytes br_env w r c /\ r <> Panic /\ r <> OOF /\
  forall r' c', DocParses KBytes br_env w r' c' -> r' = r /\ c' = c.
Proof.
  intros w. unfold DocParses. rewrite <- start_cx. apply dr_total; [exact br_core|exact br_ok|apply ok_ref|exact br_calm|apply calm_ref| |reflexivity|lia].
  intros [|x] q E; [injection E as <-; repeat split; reflexivity|destruct x; discriminate E].
Qed.
(** It accepts exactly the texts that begin with a letter inside properly nested brackets; it returns
    the letter, and the cursor is behind the last bracket. *)
Theorem C76_brackets_accept : forall w v c, DocParses KBytes br_env w (Ok v) c <->
  exists s x t, w = s ++ t /\ Nested s x /\ v = VText [x] /\ c = Ctx KBytes w (length s).
Proof.
  intros w v c. unfold DocParses. rewrite <- start_cx. split.
  - intros B.
    destruct (C70_outcomes unit KBytes br_env no_skip [] slice_answer extract_text (PRef 0) w 0 tt _ _ _ br_scope ltac:(lia) B)
      as [X|(y & j & -> & (E & L1 & L2) & _ & [(v' & [= <-] & T)|(e & X & _)])]; [discriminate| |discriminate].
    unfold no_skip in E. subst y.
    destruct (br_sound (j - 0) w 0 v j (le_n _) ltac:(lia) T) as (s & x & N1 & -> & -> & E2). cbn [Nat.add skipn] in *.
    exists s, x, (skipn (length s) w). rewrite cx_bytes by assumption. auto.
  - intros (s & x & t & -> & N1 & -> & ->). rewrite <- (cx_bytes (s ++ t) (length s)) by (rewrite app_length; lia).
    apply (C70_built unit KBytes br_env slice_answer extract_text (PRef 0) (s ++ t) 0 tt _ _ tt br_scope); [lia|rewrite app_length; lia|].
    exact (br_complete s x N1 (s ++ t) 0 t eq_refl).
Qed.
(** Everything else is an error with the cursor at the start. *)
Theorem C76_brackets_reject : forall w, (exists e, DocParses KBytes br_env w (Err e) (Ctx KBytes w 0)) <-> forall s x t, w = s ++ t -> ~ Nested s x.
Proof.
  intros w. destruct (C76_brackets_total w) as (r & c & B & NP & NO & U). split.
  - intros (e & B') s x t -> N1. destruct (U _ _ B') as [<- <-].
    assert (B2 : DocParses KBytes br_env (s ++ t) (Ok (VText [x])) (Ctx KBytes (s ++ t) (length s))) by (apply C76_brackets_accept; eauto 10).
    destruct (U _ _ B2). discriminate.
  - intros H. destruct r as [v|e| |]; try congruence.
    + apply C76_brackets_accept in B as (s & x & t & E & N1 & _). destruct (H s x t E N1).
    + exists e. enough (c = Ctx KBytes w 0) by (subst; exact B). pose proof B as B'. unfold DocParses in B'. rewrite <- start_cx in B'.
      destruct (C70_outcomes unit KBytes br_env no_skip [] slice_answer extract_text (PRef 0) w 0 tt _ _ _ br_scope ltac:(lia) B')
        as [X|(y & j & -> & (E & L1 & L2) & _ & [(v & X & T)|(e' & [= <-] & T)])]; [discriminate|discriminate|].
      unfold no_skip in E. subst y. apply br_undo in T. subst j. apply start_cx.
Qed.
(** A text has one reading: no nested notation is the beginning of another. *)
Theorem C76_brackets_unambiguous : forall s x t s' x' t', Nested s x -> Nested s' x' -> s ++ t = s' ++ t' -> s = s' /\ x = x' /\ t = t'.
Proof.
  intros s x t s' x' t' N1 N2 E.
  assert (B1 : DocParses KBytes br_env (s ++ t) (Ok (VText [x])) (Ctx KBytes (s ++ t) (length s))) by (apply C76_brackets_accept; eauto 10).
  assert (B2 : DocParses KBytes br_env (s ++ t) (Ok (VText [x'])) (Ctx KBytes (s ++ t) (length s'))) by (apply C76_brackets_accept; eauto 10).
  destruct (builds_det _ _ _ _ _ _ _ _ _ _ _ _ B1 B2) as (V & L & _). injection V as <-. injection L as L.
  destruct (app_same_length _ _ _ _ L E) as [-> ->]. auto.
Qed.
(** A text of the documentation, with the closing brackets in the right and in a wrong order. *)
Example C76_brackets_doc : Nested [91; 123; 123; 123; 91; 99; 93; 125; 125; 125; 93]%N 99%N.
Proof.
  apply (nested_in_square [123; 123; 123; 91; 99; 93; 125; 125; 125]%N), (nested_in_curly [123; 123; 91; 99; 93; 125; 125]%N), (nested_in_curly [123; 91; 99; 93; 125]%N),
    (nested_in_curly [91; 99; 93]%N), nested_square. lia.
Qed.
Example C76_brackets_run : exists n, fst (construct extract_text n br_env [] [] (PRef 0) (Ctx KBytes [91; 123; 123; 123; 91; 99; 93; 125; 125; 125; 93]%N 0, tt)) = Ok (VText [99%N]).
Proof. exists 60. vm_compute. reflexivity. Qed.
Example C76_brackets_wrong : exists e n, fst (construct extract_text n br_env [] [] (PRef 0) (Ctx KBytes [91; 123; 123; 123; 91; 99; 125; 93; 125; 125; 93]%N 0, tt)) = Err e.
Proof. eexists _, 60. vm_compute. reflexivity. Qed.

(** ** Elements *)
Section XmlInd.
  Variable P : xml -> Prop.
  Hypothesis HE : forall n c, (forall x, In x c -> P x) -> P (Element n c).
  Hypothesis HS : forall n, P (Single n).
  Fixpoint xml_induct (x : xml) : P x.
  Proof.
    destruct x as [n c|n]; [|apply HS]. apply HE. induction c as [|y c IH]; [intros z []|]. intros z [<-|I].
    - apply xml_induct.
    - now apply IH.
  Qed.
End XmlInd.

(** No element is at the front of [t]. *)
Definition no_element (letter : item -> bool) (t : text) : Prop := forall x t', proper letter x = true -> t <> written x ++ t'.

Section Elements.
  Variable letter : item -> bool.
  Hypothesis L_open : letter 60%N = false.
  Hypothesis L_slash : letter 47%N = false.
  Hypothesis L_close : letter 62%N = false.
  Let G := x_env letter.
  Notation Con := (Con KStr G no_skip slice_answer).
  Notation Creps := (Creps KStr G no_skip slice_answer).
  Notation con_ok := (con_ok KStr G no_skip).
  Notation Val w p i v j := (Con w p i tt (CV v j tt)).
  Notation Not w p i := (exists e, Con w p i tt (ConSpec.CE e i tt)).
  Notation item_ := (x_item letter).
  Notation name_ := (x_name letter).

  Lemma x_core : core_env KStr G no_skip.
  Proof. closed_env. shape. Qed.
  Lemma x_name_ok : con_ok name_.
  Proof. apply ok_map; [apply ok_leaf; [exact I|shape]|discriminate]. Qed.
  Lemma x_tag_ok a b : con_ok (PEnclose name_ (PLit a) (PLit b)).
  Proof. apply ok_enclose; [exact x_name_ok|shape|shape]. Qed.
  Lemma x_element_fine v : x_element v <> Panic /\ x_element v <> OOF.
  Proof. unfold x_element. repeat match goal with |- context [match ?x with _ => _ end] => destruct x end; split; discriminate. Qed.
  Lemma x_item_ok : con_ok item_.
  Proof.
    apply ok_or; [|apply ok_map; [apply x_tag_ok|discriminate]].
    apply ok_map; [|intros v; apply x_element_fine]. apply ok_then; [apply ok_then; [apply x_tag_ok|apply ok_ref]|apply x_tag_ok].
  Qed.
  Lemma x_ok : con_ok_env KStr G no_skip.
  Proof. intros [|x] p E; [injection E as <-|destruct x; discriminate]. apply ok_wrap, ok_repeat. exact x_item_ok. Qed.
  Lemma x_scope p : con_ok p -> InPlainScope KStr G slice_answer extract_text p.
  Proof. intros C. constructor; [apply no_skip_skipper|apply no_skip_implements|exact x_core|exact x_ok|exact C|apply slice_answers]. Qed.
  Lemma x_calm_item : calm item_.
  Proof.
    assert (N1 : calm name_) by (apply calm_map; [apply calm_leaf; exact I|intros; split; discriminate]).
    apply calm_or.
    - apply calm_map; [|intros v; apply x_element_fine]. apply calm_then; [apply calm_then; [apply calm_enclose; exact N1|apply calm_ref]|apply calm_enclose; exact N1].
    - apply calm_map; [apply calm_enclose; exact N1|intros; split; discriminate].
  Qed.
  Lemma x_calm : forall x q, env_get G x = Some q -> calm q.
  Proof. intros [|x] q H; [injection H as <-|destruct x; discriminate H]. apply calm_wrap, calm_repeat. exact x_calm_item. Qed.

  (** *** What is read is a notation *)
  Lemma x_name_sound w i v j : i <= length w -> Val w name_ i v j ->
    exists n, v = VText n /\ forallb letter n = true /\ j = i + length n /\ skipn i w = n ++ skipn j w.
  Proof.
    intros Hi T. apply dr_map_inv in T as (v0 & T & E). injection E as ->. inversion T; subst.
    match goal with P : Spec.Peg _ _ _ _ _ _ (OK _ _) |- _ => apply (dr_many0_sound KStr G x_core _ _ _ _ _ Hi) in P as [-> ->] end.
    unfold no_skip in *. destruct (runlen_split letter (skipn i w)) as (n & A & E & L).
    assert (E' : skipn i w = n ++ skipn (i + runlen (is_match (NFn letter)) (skipn i w)) w).
    { change (is_match (NFn letter)) with letter. rewrite skipn_add. exact E. }
    exists n. rewrite <- L in *. change (is_match (NFn letter)) with letter in *. rewrite <- L in *.
    split; [|auto]. f_equal. eapply slice_at. exact E'.
  Qed.
  Lemma x_tag_sound w a b i v j : i <= length w -> Val w (PEnclose name_ (PLit a) (PLit b)) i v j ->
    exists n, v = VText n /\ forallb letter n = true /\ j = i + length (a ++ n ++ b) /\ skipn i w = (a ++ n ++ b) ++ skipn j w.
  Proof.
    intros Hi T. apply dr_enclose_inv in T as (m & T & -> & E1 & E2).
    destruct (x_name_sound w (i + length a) v m (app_rest _ _ _ Hi E1) T) as (n & -> & A & -> & E3).
    exists n. split; [reflexivity|]. split; [exact A|]. rewrite !app_length. split; [lia|].
    rewrite <- !app_assoc. now rewrite <- E2, <- E3.
  Qed.
  Lemma x_undo w i e x : Con w item_ i tt (ConSpec.CE e x tt) -> x = i.
  Proof. apply dr_or_undo. Qed.
  Lemma same_text_eq a b : same_text a b = true <-> a = b.
  Proof. unfold same_text. destruct (list_eq_dec N.eq_dec a b); split; congruence. Qed.

  Definition Reads (w : text) (i : nat) (f : list xml) (j : nat) : Prop :=
    j = i + length (flat_map written f) /\ skipn i w = flat_map written f ++ skipn j w.
  (** With an empty name the closing tag would have been read as one more element. *)
  Lemma x_sound : forall n w i v j, j - i <= n -> i <= length w -> Val w item_ i v j ->
    exists x, proper letter x = true /\ v = xml_val x /\ Reads w i [x] j.
  Proof.
    induction n as [n IH] using lt_wf_ind. intros w i v j Hn Hi T.
    assert (FOREST : forall vs i' j', j' - i' < n -> i' <= length w -> Creps w item_ None i' tt (LV vs j' tt) ->
      exists f, forallb (proper letter) f = true /\ vs = map xml_val f /\ Reads w i' f j' /\ Not w item_ j').
    { induction vs as [|v0 vs IHv]; intros i' j' H1 H2 T'.
      - apply dr_reps_inv in T' as [(_ & -> & NI)|(? & ? & ? & X & _)]; [|discriminate|apply x_undo].
        exists []. split; [reflexivity|]. split; [reflexivity|]. split; [split; [cbn; lia|reflexivity]|].
        exact NI.
      - apply dr_reps_inv in T' as [[X _]|(v1 & m & vs' & [= <- <-] & T1 & T2)]; [discriminate| |apply x_undo].
        pose proof (dr_bounds KStr G x_core w _ _ _ _ x_ok x_item_ok H2 T1) as [B1 B2].
        destruct (IHv m j' ltac:(lia) B2 T2) as (f & F1 & -> & [F2 F3] & F4).
        destruct (IH (m - i') ltac:(lia) w i' v0 m (le_n _) H2 T1) as (x & X1 & -> & [X2 X3]).
        exists (x :: f). cbn [forallb map flat_map] in *. rewrite app_nil_r in *. rewrite X1, F1. split; [reflexivity|]. split; [reflexivity|].
        split; [|exact F4]. split; [cbn [flat_map]; rewrite app_length; lia|]. cbn [flat_map]. rewrite <- app_assoc, <- F3. exact X3. }
    apply dr_or_inv in T as [T|T].
    - apply dr_map_inv in T as (v0 & T & E). apply dr_then_inv in T as (a & m & b & T & TC & ->). apply dr_then_inv in T as (o & m0 & c & TO & TR & ->).
      apply x_tag_sound in TO as (n1 & -> & A1 & -> & E1); [|exact Hi].
      pose proof (app_rest _ _ _ Hi E1) as L1. set (m0 := i + length ([60%N] ++ n1 ++ [62%N])) in *.
      pose proof (dr_bounds KStr G x_core w _ _ _ _ x_ok (ok_ref _ _ _ _) L1 TR) as [B1 B2].
      apply x_tag_sound in TC as (n2 & -> & A2 & -> & E2); [|exact B2].
      apply dr_ref_inv with (p := PWrap (PRepeat item_ (CRange (Incl 1) Unb))) in TR; [|reflexivity].
      apply dr_wrap_inv, dr_repeat_inv in TR as (vs & TR & -> & NE).
      cbn in E. destruct (same_text n1 n2) eqn:ST; [|discriminate]. injection E as <-. apply same_text_eq in ST. subst n2.
      destruct (FOREST vs m0 m) as (f & F1 & -> & [F2 F3] & [e F4]); [|exact L1|exact TR|].
      { assert (length ([60%N; 47%N] ++ n1 ++ [62%N]) > 0) by (cbn; lia). assert (m0 > i) by (unfold m0; cbn; lia). clearbody m0. rewrite !app_length in *. cbn [length] in *. unfold text, item in *. lia. }
      exists (Element n1 f). cbn [proper xml_val]. rewrite A1, F1. split; [|split; [reflexivity|]].
      + assert (N1 : n1 <> []).
        { intros ->. cbn [app] in E2.
          assert (TS : Val w (x_single letter) m (VPair (VNum 1) (VText [])) (m + 3)).
          { eapply dr_mapv; [|reflexivity]. replace (m + 3) with (m + 1 + 0 + 2) by lia. eapply Con_enclose.
            - eapply (dr_lit_at _ _ [60%N]); exact E2.
            - pose proof (skipn_at w [60%N] _ _ E2) as E4. cbn [length] in E4. unfold no_skip.
              eapply dr_mapv; [|reflexivity]. pose proof (dr_many0_at KStr G (NFn letter) w (m + 1)) as P. change (is_match (NFn letter)) with letter in P. unfold text, item in *. rewrite E4 in P. cbn [runlen] in P. rewrite L_slash in P.
              pose proof (Con_leaf KStr G no_skip slice_answer w (PMany0 (NFn letter) CEmpty) (m + 1) tt _ _ I P) as H. unfold slice_answer in H.
              rewrite Nat.add_0_r in *. rewrite slice_nil in H. exact H.
            - pose proof (skipn_at w [60%N] _ _ E2) as E4. cbn [length] in E4. unfold no_skip. rewrite Nat.add_0_r. eapply (dr_lit_at _ _ [47%N; 62%N]). exact E4. }
          assert (NF : Not w (PMap (PThen (PThen (x_open letter) (PRef 0)) (x_close letter)) x_element) m \/ exists v j, Val w (PMap (PThen (PThen (x_open letter) (PRef 0)) (x_close letter)) x_element) m v j).
          { left. eexists. apply Con_map_stops; [|exact I]. eapply (Con_then1 _ _ _ _ w _ _ m tt (ConSpec.CE _ m tt)); [|exact I].
            eapply (Con_then1 _ _ _ _ w _ _ m tt (ConSpec.CE _ m tt)); [|exact I]. eapply Con_enclose_ko3.
            - eapply (dr_lit_at _ _ [60%N]); exact E2.
            - pose proof (skipn_at w [60%N] _ _ E2) as E4. cbn [length] in E4. unfold no_skip.
              eapply dr_mapv; [|reflexivity]. pose proof (dr_many0_at KStr G (NFn letter) w (m + 1)) as P. change (is_match (NFn letter)) with letter in P. unfold text, item in *. rewrite E4 in P. cbn [runlen] in P. rewrite L_slash in P.
              pose proof (Con_leaf KStr G no_skip slice_answer w (PMany0 (NFn letter) CEmpty) (m + 1) tt _ _ I P) as H. exact H.
            - pose proof (skipn_at w [60%N] _ _ E2) as E4. cbn [length] in E4. unfold no_skip. rewrite Nat.add_0_r. apply dr_lit_not. intros t X. unfold text, item in *. rewrite E4 in X. discriminate. }
          assert (TI : exists v j, Val w item_ m v j).
          { destruct NF as [NF|(v & j & NF)]; [|exists v, j; now apply Con_or1]. eexists _, _. apply dr_or_skip; [exact NF|exact TS]. }
          destruct TI as (v & j & TI).
          pose proof (C70_deterministic unit KStr G slice_answer extract_text item_ w m tt _ _ (x_scope _ x_item_ok) B2 TI F4). discriminate. }
        destruct n1; [congruence|]. destruct f; [destruct NE; reflexivity|]. reflexivity.
      + unfold Reads. cbn [flat_map written]. rewrite app_nil_r.
        replace (60%N :: n1 ++ 62%N :: flat_map written f ++ 60%N :: 47%N :: n1 ++ [62%N]) with
          (([60%N] ++ n1 ++ [62%N]) ++ flat_map written f ++ ([60%N; 47%N] ++ n1 ++ [62%N])) by (cbn [app]; rewrite <- !app_assoc; reflexivity).
        split; [clear -F2; unfold m0 in F2; rewrite !app_length in *; cbn [length] in *; unfold text, item in *; lia|]. transitivity (([60%N] ++ n1 ++ [62%N]) ++ skipn m0 w); [exact E1|].
        rewrite F3, E2 at 1. now rewrite <- !app_assoc.
    - apply dr_map_inv in T as (v0 & T & E). injection E as <-. apply x_tag_sound in T as (n1 & -> & A1 & -> & E1); [|exact Hi].
      exists (Single n1). split; [exact A1|]. split; [reflexivity|]. unfold Reads. cbn [flat_map written]. rewrite app_nil_r. auto.
  Qed.
  (** *** Every notation is read *)
  Lemma x_total w i : i <= length w ->
    exists r c, Builds extract_text G [] item_ (cx KStr w i) tt r c tt /\ r <> Panic /\ r <> OOF /\
      forall r' c', Builds extract_text G [] item_ (cx KStr w i) tt r' c' tt -> r' = r /\ c' = c.
  Proof.
    apply dr_total; [exact x_core|exact x_ok|exact x_item_ok|exact x_calm|exact x_calm_item| |reflexivity].
    intros [|x] q E; [injection E as <-; repeat split; reflexivity|destruct x; discriminate E].
  Qed.
  Lemma x_not w i : i <= length w -> no_element letter (skipn i w) -> Not w item_ i.
  Proof.
    intros Hi N. destruct (dr_outcome KStr G item_ w i (x_scope _ x_item_ok) Hi (x_total w i Hi)) as [(v & j & T)|(e & j & T)].
    - destruct (x_sound (j - i) w i v j (le_n _) Hi T) as (x & X & _ & _ & E). cbn [flat_map] in E. rewrite app_nil_r in E. destruct (N x _ X E).
    - pose proof (x_undo _ _ _ _ T). subst j. eauto.
  Qed.
  Lemma x_name_at w i n t : forallb letter n = true -> stops letter t -> skipn i w = n ++ t -> Val w name_ i (VText n) (i + length n).
  Proof.
    intros A S E. eapply dr_mapv; [|reflexivity]. pose proof (dr_many0_at KStr G (NFn letter) w i) as P. change (is_match (NFn letter)) with letter in P.
    rewrite E, (runlen_all letter n t A S) in P. pose proof (Con_leaf KStr G no_skip slice_answer w (PMany0 (NFn letter) CEmpty) i tt _ _ I P) as H.
    unfold slice_answer in H. rewrite (slice_at _ _ _ _ E) in H. exact H.
  Qed.
  Lemma x_tag_at w a b n i t : forallb letter n = true -> stops letter (b ++ t) -> skipn i w = (a ++ n ++ b) ++ t ->
    Val w (PEnclose name_ (PLit a) (PLit b)) i (VText n) (i + length (a ++ n ++ b)).
  Proof.
    intros A S E. rewrite <- !app_assoc in E. pose proof (skipn_at _ _ _ _ E) as E1. pose proof (skipn_at _ _ _ _ E1) as E2.
    replace (i + length (a ++ n ++ b)) with (i + length a + length n + length b) by (rewrite !app_length; lia).
    eapply Con_enclose; [eapply dr_lit_at; exact E|eapply x_name_at; [exact A|exact S|exact E1]|eapply dr_lit_at; exact E2].
  Qed.
  Lemma x_tag_not w a b n i t : forallb letter n = true -> stops letter t -> skipn i w = a ++ n ++ t -> (forall t', t <> b ++ t') ->
    Not w (PEnclose name_ (PLit a) (PLit b)) i.
  Proof.
    intros A S E N. pose proof (skipn_at _ _ _ _ E) as E1. pose proof (skipn_at _ _ _ _ E1) as E2.
    eexists. eapply Con_enclose_ko3; [eapply dr_lit_at; exact E|eapply x_name_at; [exact A|exact S|exact E1]|].
    apply dr_lit_not. intros t' X. unfold no_skip in X. apply (N t'). now rewrite <- E2.
  Qed.
  Lemma x_first_not w i : Not w (x_open letter) i -> Not w (PMap (PThen (PThen (x_open letter) (PRef 0)) (x_close letter)) x_element) i.
  Proof.
    intros [e A]. apply dr_mape. exists e. eapply (Con_then1 _ _ _ _ w _ _ i tt (ConSpec.CE e i tt)); [|exact I].
    eapply (Con_then1 _ _ _ _ w _ _ i tt (ConSpec.CE e i tt)); [exact A|exact I].
  Qed.
  (** A closing tag with a name starts no element. *)
  Lemma x_close_no n t : forallb letter n = true -> n <> [] -> no_element letter (60%N :: 47%N :: n ++ t).
  Proof.
    intros A N [m c|m] t' X E; cbn [proper written] in *.
    - rewrite !andb_true_iff in X. destruct X as [[[X1 X2] _] _]. destruct m as [|y m]; [discriminate|]. cbn in E. injection E as <- _.
      cbn in X1. rewrite L_slash in X1. discriminate.
    - destruct m as [|y m]; cbn in E.
      + destruct n as [|z n]; [congruence|]. injection E as -> _. cbn in A. rewrite L_close in A. discriminate.
      + injection E as <- _. cbn in X. rewrite L_slash in X. discriminate.
  Qed.
  Lemma x_forest f : (forall x, In x f -> forall w i t, proper letter x = true -> skipn i w = written x ++ t -> Val w item_ i (xml_val x) (i + length (written x))) ->
    forall w i t, i <= length w -> forallb (proper letter) f = true -> skipn i w = flat_map written f ++ t -> no_element letter t ->
    Creps w item_ None i tt (LV (map xml_val f) (i + length (flat_map written f)) tt).
  Proof.
    induction f as [|x f IHf]; intros IH w i t Hi P E N; cbn [map flat_map forallb] in *.
    - cbn [length]. rewrite Nat.add_0_r. apply dr_stopv. apply x_not; [exact Hi|]. cbn in E. now rewrite E.
    - apply andb_true_iff in P as [P1 P2]. rewrite <- app_assoc in E. pose proof (skipn_at _ _ _ _ E) as E1.
      eapply dr_stepv; [eapply IH; [now left|exact P1|exact E]|]. rewrite app_length, Nat.add_assoc.
      eapply IHf; [intros y I; apply IH; now right| |exact P2|exact E1|exact N].
      apply app_rest; [exact Hi|]. now rewrite E1.
  Qed.
  Lemma x_complete x : forall w i t, proper letter x = true -> skipn i w = written x ++ t -> Val w item_ i (xml_val x) (i + length (written x)).
  Proof.
    induction x as [n c IH|n] using xml_induct; intros w i t P E; cbn [proper written xml_val] in *.
    - rewrite !andb_true_iff in P. destruct P as [[[P1 P2] P3] P4].
      assert (N1 : n <> []) by (intros ->; discriminate). assert (C1 : c <> []) by (intros ->; discriminate). clear P2 P3.
      set (o := [60%N] ++ n ++ [62%N]). set (cl := [60%N; 47%N] ++ n ++ [62%N]).
      assert (S : 60%N :: n ++ 62%N :: flat_map written c ++ 60%N :: 47%N :: n ++ [62%N] = o ++ flat_map written c ++ cl).
      { unfold o, cl. cbn [app]. rewrite <- !app_assoc. reflexivity. }
      unfold text, item in *. rewrite S in *. rewrite <- !app_assoc in E. pose proof (skipn_at _ _ _ _ E) as E1. pose proof (skipn_at _ _ _ _ E1) as E2.
      assert (Hi : i + length o <= length w).
      { destruct (le_lt_dec (length w) (i + length o)) as [L|L]; [|lia]. rewrite skipn_all2 in E1 by exact L. apply (f_equal (@length N)) in E1. rewrite !app_length in E1. unfold cl in E1. cbn in E1. lia. }
      apply Con_or1. eapply dr_mapv.
      + rewrite !app_length, !Nat.add_assoc. eapply Con_then; [eapply Con_then|].
        * eapply (x_tag_at w [60%N] [62%N] n i); [exact P1|exact L_close|exact E].
        * eapply Con_ref; [reflexivity|]. apply Con_wrap. apply dr_repeatv.
          -- eapply x_forest; [exact IH|exact Hi|exact P4|exact E1|]. unfold cl. cbn [app]. rewrite <- app_assoc. now apply x_close_no.
          -- destruct c; [congruence|discriminate].
        * eapply (x_tag_at w [60%N; 47%N] [62%N] n); [exact P1|exact L_close|exact E2].
      + cbn. replace (same_text n n) with true; [reflexivity|]. symmetry. now apply same_text_eq.
    - apply dr_or_skip.
      + apply x_first_not. eapply (x_tag_not w [60%N] [62%N] n i (47%N :: 62%N :: t)); [exact P|exact L_slash| |discriminate].
        cbn [app] in *. rewrite <- app_assoc in E. exact E.
      + eapply dr_mapv; [|reflexivity]. eapply (x_tag_at w [60%N] [47%N; 62%N] n i); [exact P|exact L_slash|]. exact E.
  Qed.
  Lemma x_forest_sound w : forall vs i j, i <= length w -> Creps w item_ None i tt (LV vs j tt) ->
    exists f, forallb (proper letter) f = true /\ vs = map xml_val f /\ Reads w i f j /\ Not w item_ j /\ j <= length w.
  Proof.
    induction vs as [|v0 vs IHv]; intros i j Hi T.
    - apply dr_reps_inv in T as [(_ & -> & NI)|(? & ? & ? & X & _)]; [|discriminate|apply x_undo].
      exists []. split; [reflexivity|]. split; [reflexivity|]. split; [split; [cbn; lia|reflexivity]|auto].
    - apply dr_reps_inv in T as [[X _]|(v1 & m & vs' & [= <- <-] & T1 & T2)]; [discriminate| |apply x_undo].
      pose proof (dr_bounds KStr G x_core w _ _ _ _ x_ok x_item_ok Hi T1) as [B1 B2].
      destruct (IHv m j B2 T2) as (f & F1 & -> & [F2 F3] & F4).
      destruct (x_sound (m - i) w i v0 m (le_n _) Hi T1) as (x & X1 & -> & [X2 X3]).
      exists (x :: f). cbn [forallb map flat_map] in *. rewrite app_nil_r in *. rewrite X1, F1. split; [reflexivity|]. split; [reflexivity|].
      split; [|exact F4]. split; [cbn [flat_map]; rewrite app_length; lia|]. cbn [flat_map]. rewrite <- app_assoc, <- F3. exact X3.
  Qed.
  Lemma x_not_inv w i : i <= length w -> Not w item_ i -> no_element letter (skipn i w).
  Proof.
    intros Hi [e A] x t' P E. pose proof (x_complete x w i t' P E) as T.
    pose proof (C70_deterministic unit KStr G slice_answer extract_text item_ w i tt _ _ (x_scope _ x_item_ok) Hi A T). discriminate.
  Qed.
  Lemma x_ref_scope : InPlainScope KStr G slice_answer extract_text (PRef 0).
  Proof. apply x_scope, ok_ref. Qed.
  Lemma x_ref_inv w i o : Con w (PRef 0) i tt o -> Con w (PRepeat item_ (CRange (Incl 1) Unb)) i tt o.
  Proof.
    intros T. inversion T; subst; try contradiction; [|discriminate]. match goal with X : env_get _ _ = Some _ |- _ => injection X as <- end.
    match goal with X : ConSpec.Con _ _ _ _ w (PWrap _) _ _ _ |- _ => inversion X; subst; try contradiction; assumption end.
  Qed.
End Elements.

Lemma xml_val_inj : forall x y, xml_val x = xml_val y -> x = y.
Proof.
  induction x as [n c IH|n] using xml_induct; intros [n' c'|n'] E; cbn in E; try discriminate; [injection E as -> E|injection E as ->; reflexivity].
  f_equal. revert c' E. induction c as [|x c IHc]; intros [|y c'] E; cbn in E; try discriminate; [reflexivity|]. injection E as E1 E2.
  f_equal; [apply IH; [now left|exact E1]|apply IHc; [intros z I; apply IH; now right|exact E2]].
Qed.
Lemma xml_vals_inj f : forall f', map xml_val f = map xml_val f' -> f = f'.
Proof. induction f as [|x f IH]; intros [|y f'] E; cbn in E; try discriminate; [reflexivity|]. injection E as E1 E2. f_equal; [now apply xml_val_inj|auto]. Qed.

(** What [char::is_alphabetic] says of the three characters of the notation. *)
Definition names_only (letter : item -> bool) : Prop := letter 60%N = false /\ letter 47%N = false /\ letter 62%N = false.

(** The parser always returns, never panics, and has one answer. *)
Theorem C76_xml_total : forall letter w, exists r c, DocParses KStr (x_env letter) w r c /\ r <> Panic /\ r <> OOF /\
  forall r' c', DocParses KStr (x_env letter) w r' c' -> r' = r /\ c' = c.
Proof.
  intros letter w. unfold DocParses. rewrite <- start_cx. apply dr_total; [apply x_core|apply x_ok|apply ok_ref|apply x_calm|apply calm_ref| |reflexivity|lia].
  intros [|x] q E; [injection E as <-; repeat split; reflexivity|destruct x; discriminate E].
Qed.
(** It accepts exactly the texts that begin with the notation of one or more elements whose opening and
    closing names agree, all of them up to the first place where none begins; it returns the elements in
    order, each with its name and children, and the cursor is behind the last of them. *)
Theorem C76_xml_reads : forall letter w v c, names_only letter ->
  (DocParses KStr (x_env letter) w (Ok v) c <->
   exists f t, w = flat_map written f ++ t /\ f <> [] /\ forallb (proper letter) f = true /\ no_element letter t /\
     v = VList (map xml_val f) /\ c = Ctx KStr w (tlen KStr (flat_map written f))).
Proof.
  intros letter w v c (L1 & L2 & L3). unfold DocParses. rewrite <- start_cx. split.
  - intros B.
    destruct (C70_outcomes unit KStr (x_env letter) no_skip [] slice_answer extract_text (PRef 0) w 0 tt _ _ _ (x_ref_scope letter) ltac:(lia) B)
      as [X|(y & j & -> & (E & LA & LB) & _ & [(v' & [= <-] & T)|(e & X & _)])]; [discriminate| |discriminate].
    unfold no_skip in E. subst y. apply x_ref_inv, dr_repeat_inv in T as (vs & T & -> & NE).
    destruct (x_forest_sound letter L2 w vs 0 j ltac:(lia) T) as (f & F1 & -> & [-> F3] & F4 & F5).
    cbn [Nat.add skipn] in *. exists f, (skipn (length (flat_map written f)) w). split; [exact F3|]. split; [intros ->; now apply NE|].
    split; [exact F1|]. split; [now apply x_not_inv|]. split; [reflexivity|]. eapply at_start. exact F3.
  - intros (f & t & -> & NE & F1 & NT & -> & ->). rewrite <- (at_start KStr (flat_map written f ++ t) _ t eq_refl).
    apply (C70_built unit KStr (x_env letter) slice_answer extract_text (PRef 0) _ 0 tt _ _ tt (x_ref_scope letter)); [lia|rewrite app_length; lia|].
    eapply Con_ref; [reflexivity|]. apply Con_wrap, dr_repeatv; [|destruct f; [congruence|discriminate]].
    apply (x_forest letter L2 f (fun x _ => x_complete letter L2 L3 x) _ 0 t); [lia|exact F1|reflexivity|exact NT].
Qed.
(** It is an error exactly when no element begins the text; the cursor is then at the start. *)
Theorem C76_xml_fails : forall letter w, names_only letter ->
  ((exists e, DocParses KStr (x_env letter) w (Err e) (Ctx KStr w 0)) <-> no_element letter w).
Proof.
  intros letter w L. pose proof L as (L1 & L2 & L3). destruct (C76_xml_total letter w) as (r & c & B & NP & NO & U). split.
  - intros (e & B'). unfold DocParses in B'. rewrite <- start_cx in B'.
    destruct (C70_outcomes unit KStr (x_env letter) no_skip [] slice_answer extract_text (PRef 0) w 0 tt _ _ _ (x_ref_scope letter) ltac:(lia) B')
        as [X|(y & j & _ & _ & _ & [(v & X & T)|(e' & [= <-] & T)])]; [discriminate|discriminate|].
    apply x_ref_inv, dr_repeate in T as [_ T]; [|intros; eapply x_undo; eauto].
    apply dr_reps_inv in T as [(_ & _ & NI)|(? & ? & ? & X & _)]; [|discriminate|intros; eapply x_undo; eauto].
    apply x_not_inv in NI; [exact NI|assumption..|lia].
  - intros H. destruct r as [v|e| |]; try congruence.
    + apply C76_xml_reads in B as (f & t & -> & NE & F1 & _); [|exact L]. destruct f as [|x f]; [congruence|]. cbn in *. apply andb_true_iff in F1 as [F1 _].
      rewrite <- app_assoc in H. destruct (H x _ F1 eq_refl).
    + exists e. enough (c = Ctx KStr w 0) by (subst; exact B). pose proof B as B'. unfold DocParses in B'. rewrite <- start_cx in B'.
      destruct (C70_outcomes unit KStr (x_env letter) no_skip [] slice_answer extract_text (PRef 0) w 0 tt _ _ _ (x_ref_scope letter) ltac:(lia) B')
        as [X|(y & j & -> & (E & LA & LB) & _ & [(v & X & T)|(e' & [= <-] & T)])]; [discriminate|discriminate|].
      unfold no_skip in E. subst y. apply x_ref_inv, dr_repeate in T as [-> _]; [apply start_cx|intros; eapply x_undo; eauto].
Qed.
(** Writing elements and reading them back gives the same elements and uses the whole text. *)
Theorem C76_xml_round_trip : forall letter f, names_only letter -> f <> [] -> forallb (proper letter) f = true ->
  DocParses KStr (x_env letter) (flat_map written f) (Ok (VList (map xml_val f))) (Ctx KStr (flat_map written f) (tlen KStr (flat_map written f))).
Proof.
  intros letter f L NE P. apply C76_xml_reads; [exact L|]. exists f, []. rewrite app_nil_r. repeat split; auto.
  intros [n c|n] t _ X; discriminate.
Qed.
(** A text has one reading: the notation of an element is not the beginning of another's. *)
Theorem C76_xml_unambiguous : forall letter x t x' t', names_only letter -> proper letter x = true -> proper letter x' = true ->
  written x ++ t = written x' ++ t' -> x = x' /\ t = t'.
Proof.
  intros letter x t x' t' (L1 & L2 & L3) P P' E.
  pose proof (x_complete letter L2 L3 x (written x ++ t) 0 t P eq_refl) as T.
  pose proof (x_complete letter L2 L3 x' (written x ++ t) 0 t' P' E) as T'.
  pose proof (C70_deterministic unit KStr (x_env letter) slice_answer extract_text (x_item letter) _ 0 tt _ _ (x_scope letter _ (x_item_ok letter)) ltac:(lia) T T') as D.
  injection D as D1 D2. apply xml_val_inj in D1. subst x'. split; [reflexivity|]. eapply app_inv_head; exact E.
Qed.
Lemma forests_unambiguous letter f : forall f' t t', names_only letter -> forallb (proper letter) f = true -> forallb (proper letter) f' = true ->
  no_element letter t -> no_element letter t' -> flat_map written f ++ t = flat_map written f' ++ t' -> f = f' /\ t = t'.
Proof.
  induction f as [|x f IH]; intros [|x' f'] t t' L P P' N N' E; cbn in *.
  - auto.
  - apply andb_true_iff in P' as [P1 _]. rewrite <- app_assoc in E. destruct (N x' _ P1 E).
  - apply andb_true_iff in P as [P1 _]. rewrite <- app_assoc in E. destruct (N' x _ P1 (eq_sym E)).
  - apply andb_true_iff in P as [P1 P2]. apply andb_true_iff in P' as [P1' P2']. rewrite <- !app_assoc in E.
    apply (C76_xml_unambiguous letter) in E as [-> E]; auto. apply IH in E as [-> ->]; auto.
Qed.
Lemma name_ends letter (n n' : text) : forall x x' t t', forallb letter n = true -> forallb letter n' = true -> letter x = false -> letter x' = false ->
  n ++ x :: t = n' ++ x' :: t' -> n = n' /\ x = x' /\ t = t'.
Proof.
  revert n'. induction n as [|y n IH]; intros [|y' n'] x x' t t' A A' X X' E; cbn in *.
  - injection E as -> ->. auto.
  - injection E as -> _. apply andb_true_iff in A' as [A' _]. congruence.
  - injection E as <- _. apply andb_true_iff in A as [A _]. congruence.
  - injection E as -> E. apply andb_true_iff in A as [_ A]. apply andb_true_iff in A' as [_ A']. destruct (IH n' x x' t t' A A' X X' E) as (-> & -> & ->). auto.
Qed.
(** Elements closed with another name are refused, whatever is between the tags and behind them. *)
Theorem C76_xml_mismatch : forall letter a b f t, names_only letter -> forallb letter a = true -> forallb letter b = true -> b <> [] -> a <> b ->
  forallb (proper letter) f = true ->
  let w := 60%N :: a ++ 62%N :: flat_map written f ++ 60%N :: 47%N :: b ++ 62%N :: t in
  exists e, DocParses KStr (x_env letter) w (Err e) (Ctx KStr w 0).
Proof.
  intros letter a b f t L A B NB NE P w. apply C76_xml_fails; [exact L|]. pose proof L as (L1 & L2 & L3). intros [n c|n] t' X E; unfold w in E; cbn [proper written] in *.
  - rewrite !andb_true_iff in X. destruct X as [[[X1 X2] _] X4]. injection E as E. rewrite <- app_assoc in E. cbn [app] in E.
    apply (name_ends letter) in E as (<- & _ & E); auto. rewrite <- app_assoc in E. cbn [app] in E. rewrite <- app_assoc in E.
    assert (NN : a <> []) by (intros ->; discriminate).
    apply (forests_unambiguous letter) in E as [_ E]; auto; try (now apply x_close_no). injection E as E. apply (name_ends letter) in E as (<- & _); auto.
  - injection E as E. rewrite <- app_assoc in E. cbn [app] in E. apply (name_ends letter) in E as (_ & X' & _); auto. discriminate.
Qed.
(** An empty name is accepted in a single tag only: whatever follows [<>], it is refused. *)
Theorem C76_xml_empty_name : forall letter t, names_only letter ->
  exists e, DocParses KStr (x_env letter) (60%N :: 62%N :: t) (Err e) (Ctx KStr (60%N :: 62%N :: t) 0).
Proof.
  intros letter t L. apply C76_xml_fails; [exact L|]. destruct L as (L1 & L2 & L3). intros [n c|n] t' X E; cbn [proper written] in *.
  - rewrite !andb_true_iff in X. destruct X as [[[X1 X2] _] _]. destruct n as [|y n]; [discriminate|]. cbn in *. injection E as <- _. rewrite L3 in X1. discriminate.
  - destruct n as [|y n]; cbn in *; [discriminate|]. injection E as <- _. rewrite L3 in X. discriminate.
Qed.

(** The text of the documentation. *)
Definition doc_letter (x : item) : bool := ((97 <=? x) && (x <=? 122))%N.
Definition doc_xml : list xml :=
  [Element [108; 97; 110; 103; 117; 97; 103; 101]%N
     [Element [114; 117; 115; 116]%N [Single [108; 105; 110; 117; 120]%N];
      Element [99; 112; 112]%N [Single [119; 105; 110; 100; 111; 119; 115]%N]]].
Example C76_xml_hypotheses : names_only doc_letter /\ doc_xml <> [] /\ forallb (proper doc_letter) doc_xml = true.
Proof. split; [repeat split|split; [discriminate|reflexivity]]. Qed.
Example C76_xml_doc : exists n, fst (construct extract_text n (x_env doc_letter) [] [] (PRef 0) (Ctx KStr (flat_map written doc_xml) 0, tt)) = Ok (VList (map xml_val doc_xml)).
Proof. exists 80. vm_compute. reflexivity. Qed.
(** Two elements and a tail; the tail is left. *)
Example C76_xml_tail : no_element doc_letter [60; 97]%N /\
  exists n, fst (construct extract_text n (x_env doc_letter) [] [] (PRef 0) (Ctx KStr (flat_map written [Single [97]%N; Single []] ++ [60; 97]%N) 0, tt)) = Ok (VList (map xml_val [Single [97]%N; Single []])).
Proof.
  split; [|exists 80; vm_compute; reflexivity]. intros [n c|n] t _ E; cbn in E; injection E as E; destruct n as [|? [|? ?]]; cbn in E; try discriminate.
Qed.

Print Assumptions C76_brackets_total.
Print Assumptions C76_brackets_accept.
Print Assumptions C76_brackets_reject.
Print Assumptions C76_brackets_unambiguous.
Print Assumptions C76_xml_total.
Print Assumptions C76_xml_reads.
Print Assumptions C76_xml_fails.
Print Assumptions C76_xml_round_trip.
Print Assumptions C76_xml_unambiguous.
Print Assumptions C76_xml_mismatch.
Print Assumptions C76_xml_empty_name.
