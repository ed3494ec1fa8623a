(** A context that skips blanks makes the layout free (C81): what a parser reads is a list of tokens,
    with blanks before, between and after them.  [Toks] and [Spread] (file Tokens.v) say so without
    positions or priorities. *)

From Coq Require Import List Arith NArith Bool Lia.
From Verif Require Import Base Text Context Neu Syntax Regex Ctor Api TextProofs Spec Core Obs Laws ApiLaws PegLaws
  PolicyLaws Consumes TermLaws CtorShape CtorLaws Lang Ll1 Tokens TokensLl1 Complete CtorSpec Samples PropLl1.
Import ListNotations.

(** ** C81 *)

(** If [try_mat] succeeds on a context that skips the items of [u], only such items lie between the
    cursor and the span, and the text of the span is tokens of the parser laid out with such items. *)
Theorem C81_match : forall k G u p w i s c',
  core_env k G (skip_run u) -> static_env G -> core k G (skip_run u) p -> static p -> i <= length w ->
  Returns G [PMany0 u CEmpty] p (cx k w i) (Ok s) c' ->
  exists b j x ts, s = sp k w b j /\ c' = cx k w x /\ i <= b /\ b <= j /\ j <= x /\ x <= length w /\
    all_of u (slice w i b) /\ Toks G p ts /\ Spread (all_of u) ts (slice w b j) /\ all_of u (slice w j x).
Proof.
  intros k G u p w i s c' CE SE C S Hi R.
  destruct (policy_sound k G _ _ (skip_run_skipper u) CE (many0_implements k G u []) p w i _ _ C Hi R)
    as [(b & j & x & E & -> & P & B1 & B2 & B3 & B4 & B5)|(e & E & _)]; [|discriminate].
  injection E as ->.
  destruct (skipped _ (skip_run_skipper u) w i Hi) as (H1 & H2 & H3).
  destruct (peg_toks (blank u) (blank_nil u) (blank_app u) k G _ (skip_run_skipper u) CE SE (skip_run_blank u) w p _ b j C S H2 H3 P)
    as (-> & _ & _ & ts & T & L).
  destruct (skipped _ (skip_run_skipper u) w j B5) as (H4 & H5 & _).
  exists (skip_run u w i), j, x, ts. repeat split; auto; try lia.
  - now apply skip_run_blank.
  - intros y Y. apply (skip_run_blank u w j B5). unfold slice in *.
    replace (skip_run u w j - j) with ((x - j) + (skip_run u w j - x)) by lia.
    rewrite <- (firstn_skipn (x - j)) in Y |- *. apply in_or_app. left.
    rewrite firstn_firstn. replace (Nat.min (x - j) (x - j + (skip_run u w j - x))) with (x - j) by lia.
    apply in_app_or in Y. destruct Y as [Y|Y]; [now rewrite firstn_firstn, Nat.min_id in Y|].
    rewrite skipn_firstn_comm, Nat.sub_diag in Y. destruct Y.
Qed.

(** The same for any policy that always succeeds: [B] covers what it skips. *)
Theorem C81_any_policy : forall k G sk pols (B : text -> Prop) p w i s c',
  skipper sk -> implements k G sk pols ->
  B [] -> (forall s t, B s -> B t -> B (s ++ t)) -> (forall w i, i <= length w -> B (slice w i (sk w i))) ->
  core_env k G sk -> static_env G -> core k G sk p -> static p -> i <= length w ->
  Returns G pols p (cx k w i) (Ok s) c' ->
  exists b j ts, s = sp k w b j /\ i <= b /\ b <= j /\ j <= length w /\
    B (slice w i b) /\ Toks G p ts /\ Spread B ts (slice w b j).
Proof.
  intros k G sk pols B p w i s c' SK IM BN BA BS CE SE C S Hi R.
  destruct (policy_sound k G sk pols SK CE IM p w i _ _ C Hi R)
    as [(b & j & x & E & -> & P & B1 & B2 & B3 & B4 & B5)|(e & E & _)]; [|discriminate].
  injection E as ->. destruct (skipped sk SK w i Hi) as (H1 & H2 & H3).
  destruct (peg_toks B BN BA k G sk SK CE SE BS w p _ b j C S H2 H3 P) as (-> & _ & _ & ts & T & L).
  exists (sk w i), j, ts. repeat split; auto.
Qed.

(** A parser that needs one item of lookahead and whose tokens do not begin with a skipped item,
    anchored at the end, accepts exactly the layouts of its tokens. *)
Theorem C81_whole : forall k G R u p w,
  one_ahead k G R p -> crisp_env u G -> crisp u p ->
  ((exists s c', Returns G [PMany0 u CEmpty] (PThen p PEnd) (cx k w 0) (Ok s) c') <->
   (exists ts, Toks G p ts /\ Spread (all_of u) ts w)).
Proof.
  intros k G R u p w O XE X. destruct (tokens_core u k G R p O) as (CE & C).
  destruct (one_ahead_core k G R p O) as (_ & SE & _ & S).
  pose proof (core_then _ _ _ _ _ C (core_end _ _ _)) as CT.
  destruct (skipped _ (skip_run_skipper u) w 0 (Nat.le_0_l _)) as (H1 & H2 & H3). split.
  - intros (s & c' & M).
    destruct (policy_sound k G _ _ (skip_run_skipper u) CE (many0_implements k G u []) _ w 0 _ _ CT (Nat.le_0_l _) M)
      as [(b & j & x & E & -> & P & B1 & B2 & B3 & B4 & B5)|(e & E & _)]; [|discriminate].
    assert (Q : exists j1, Peg k G (skip_run u) w p (skip_run u w 0) (OK b j1) /\ skip_run u w j1 = length w).
    { inversion P; subst. match goal with H : Peg _ _ _ _ PEnd _ _ |- _ => inversion H; subst end. eauto. }
    destruct Q as (j1 & Q & E1).
    destruct (peg_toks (blank u) (blank_nil u) (blank_app u) k G _ (skip_run_skipper u) CE SE (skip_run_blank u) w p _ b j1 C S H2 H3 Q)
      as (-> & J1 & J2 & ts & T & L).
    exists ts. split; [exact T|].
    assert (EW : slice w 0 (skip_run u w 0) ++ slice w (skip_run u w 0) j1 ++ slice w j1 (length w) = w).
    { rewrite slice_app, slice_app by lia. unfold slice. cbn [skipn]. rewrite Nat.sub_0_r. apply firstn_all. }
    assert (A : Spread (blank u) ts (slice w 0 (skip_run u w 0) ++ slice w (skip_run u w 0) j1 ++ slice w j1 (length w))).
    { apply spread_blank; [apply blank_app|apply skip_run_blank; lia|].
      rewrite <- (app_nil_r ts). apply spread_app; [apply blank_app|exact L|]. constructor. rewrite <- E1. now apply skip_run_blank. }
    rewrite EW in A. exact A.
  - intros (ts & T & L). destruct (tokens_peg u k G R p w ts O XE X T L) as (j & P & J1 & J2).
    assert (Q : Peg k G (skip_run u) w (PThen p PEnd) (skip_run u w 0) (OK (skip_run u w 0) (length w))).
    { eapply Peg_then; [exact P|]. rewrite J2. now apply Peg_end. }
    destruct (policy_complete k G _ _ (skip_run_skipper u) CE (many0_implements k G u []) _ w 0 _ CT (Nat.le_0_l _) Q)
      as (r & c' & M & -> & _). eauto.
Qed.

(** Every other text is rejected with an error. *)
Theorem C81_reject : forall k G R u p w,
  one_ahead k G R p -> crisp_env u G -> crisp u p ->
  (~ (exists ts, Toks G p ts /\ Spread (all_of u) ts w) <->
   (exists e c', Returns G [PMany0 u CEmpty] (PThen p PEnd) (cx k w 0) (Err e) c')).
Proof.
  intros k G R u p w O XE X. rewrite <- (C81_whole k G R u p w O XE X).
  destruct (tokens_core u k G R p O) as (CE & C).
  destruct (one_ahead_core k G R p O) as (_ & SE & _ & S).
  pose proof (core_then _ _ _ _ _ C (core_end _ _ _)) as CT.
  destruct (skipped _ (skip_run_skipper u) w 0 (Nat.le_0_l _)) as (H1 & H2 & H3).
  assert (A : exists o, Peg k G (skip_run u) w (PThen p PEnd) (skip_run u w 0) o).
  { destruct (tokens_answers u k G R p w O) as [[b j|e] P].
    - destruct (peg_toks (blank u) (blank_nil u) (blank_app u) k G _ (skip_run_skipper u) CE SE (skip_run_blank u) w p _ b j C S H2 H3 P)
        as (-> & J1 & J2 & _).
      destruct (skipped _ (skip_run_skipper u) w j J2) as (_ & J3 & _).
      destruct (Nat.eq_dec (skip_run u w j) (length w)) as [E|N]; eexists.
      + eapply Peg_then; [exact P|]. now apply Peg_end.
      + eapply Peg_then_ko2; [exact P|]. apply Peg_end_ko. lia.
    - eexists. eapply Peg_then_ko1; eauto. }
  destruct A as (o & P).
  destruct (policy_complete k G _ _ (skip_run_skipper u) CE (many0_implements k G u []) _ w 0 _ CT (Nat.le_0_l _) P)
    as (r & c' & M & Q).
  split.
  - intros N. destruct o as [b j|e]; [|destruct Q as [-> _]; eauto]. destruct Q as [-> _]. exfalso. eauto.
  - intros (e & c2 & F) (s & c3 & M3). pose proof (returns_det _ _ _ _ _ _ _ _ F M3) as Z. destruct Z; discriminate.
Qed.

(** One after the other, the lists of tokens are the words of C46. *)
Theorem C81_words : forall G p s, Lang G p s <-> exists ts, Toks G p ts /\ concat ts = s.
Proof. intros G p s. split; [apply lang_toks|]. intros (ts & T & <-). now apply toks_lang. Qed.

(** The arithmetic of C79 with white space: " ( 1 + 23 )*4 " is read; the number cannot be split. *)
Definition loose_text : text := [32; 40; 32; 49; 32; 43; 9; 50; 51; 32; 41; 42; 52; 10]%N.
Lemma expr_crisp : crisp_env NAsciiWhitespace expr_env /\ crisp NAsciiWhitespace (PRef 0).
Proof.
  split; [|exact I]. intros [|x] q E; [|destruct x; discriminate E]. injection E as <-.
  cbn [expr atom number crisp]. repeat split.
  all: try (cbn; intros H; discriminate H).
  all: intros x; unfold of, none.
  all: try (intros H; apply op_in in H; cbn -[N.eqb]; intros H2; intuition (subst; discriminate)).
  all: cbn [is_match]; unfold is_ascii_digit, between_N, is_ascii_ws; rewrite ?andb_true_iff, ?orb_true_iff, ?N.leb_le, ?N.eqb_eq; lia.
Qed.

Lemma loose_spread : exists ts, Toks expr_env (PRef 0) ts /\ Spread (all_of NAsciiWhitespace) ts loose_text.
Proof.
  assert (ND : forall s, s <> [] -> all_of NAsciiDigit s -> Toks expr_env atom [s]).
  { intros s N A. apply T_or_l, T_token; [reflexivity|]. now apply L_many1. }
  assert (OP : forall x, is_match op x = true -> Toks expr_env (POnce op CEmpty) [[x]]).
  { intros. apply T_token; [reflexivity|]. now apply L_once. }
  assert (LT : forall l, Toks expr_env (PLit l) [l]) by (intros; apply T_token; [reflexivity|constructor]).
  assert (E2 : Toks expr_env (PRef 0) [[49]; [43]; [50; 51]]%N).
  { eapply T_ref; [reflexivity|]. apply (T_then _ _ _ [[49]] [[43]; [50; 51]])%N.
    - apply ND; [discriminate|]. now intros y [<-|[]].
    - apply (T_repeat _ _ _ 1); [split; [apply Nat.le_0_l|exact I]|].
      apply (ti_cons _ 0 [[43]; [50; 51]]%N []); [|constructor].
      apply (T_then _ _ _ [[43]] [[50; 51]])%N; [now apply OP|]. apply ND; [discriminate|]. now intros y [<-|[<-|[]]]. }
  exists [[40]; [49]; [43]; [50; 51]; [41]; [42]; [52]]%N. split.
  - eapply T_ref; [reflexivity|]. apply (T_then _ _ _ [[40]; [49]; [43]; [50; 51]; [41]] [[42]; [52]])%N.
    + apply T_or_r. apply (T_enclose _ _ _ _ [[40]] [[49]; [43]; [50; 51]] [[41]])%N; auto.
    + apply (T_repeat _ _ _ 1); [split; [apply Nat.le_0_l|exact I]|].
      apply (ti_cons _ 0 [[42]; [52]]%N []); [|constructor].
      apply (T_then _ _ _ [[42]] [[52]])%N; [now apply OP|]. apply ND; [discriminate|]. now intros y [<-|[]].
  - assert (B : forall x, is_match NAsciiWhitespace x = true -> all_of NAsciiWhitespace [x]) by (now intros x H y [<-|[]]).
    assert (B0 : all_of NAsciiWhitespace []) by intros y [].
    apply (spread_cons _ [32]%N [40]%N _ [32; 49; 32; 43; 9; 50; 51; 32; 41; 42; 52; 10]%N); [now apply B|].
    apply (spread_cons _ [32]%N [49]%N _ [32; 43; 9; 50; 51; 32; 41; 42; 52; 10]%N); [now apply B|].
    apply (spread_cons _ [32]%N [43]%N _ [9; 50; 51; 32; 41; 42; 52; 10]%N); [now apply B|].
    apply (spread_cons _ [9]%N [50; 51]%N _ [32; 41; 42; 52; 10]%N); [now apply B|].
    apply (spread_cons _ [32]%N [41]%N _ [42; 52; 10]%N); [now apply B|].
    apply (spread_cons _ [] [42]%N _ [52; 10]%N); [exact B0|].
    apply (spread_cons _ [] [52]%N _ [10]%N); [exact B0|].
    constructor. now apply B.
Qed.
Example C81_whole_case : one_ahead KStr expr_env expr_info (PRef 0) /\ crisp_env NAsciiWhitespace expr_env /\
  crisp NAsciiWhitespace (PRef 0) /\
  (exists ts, Toks expr_env (PRef 0) ts /\ Spread (all_of NAsciiWhitespace) ts loose_text) /\
  Returns expr_env skip_ascii_whitespace (PThen (PRef 0) PEnd) (cx KStr loose_text 0) (Ok (sp KStr loose_text 1 14)) (cx KStr loose_text 14).
Proof. split; [exact expr_ready|]. split; [apply expr_crisp|]. split; [apply expr_crisp|]. split; [exact loose_spread|]. returns 60. Qed.
Example C81_reject_case : one_ahead KStr expr_env expr_info (PRef 0) /\ crisp_env NAsciiWhitespace expr_env /\
  exists c', Returns expr_env skip_ascii_whitespace (PThen (PRef 0) PEnd) (cx KStr [49; 32; 50]%N 0) (Err EAnchorEnd) c'.
Proof. split; [exact expr_ready|]. split; [apply expr_crisp|]. eexists. returns 60. Qed.
Example C81_match_case : core_env KStr expr_env (skip_run NAsciiWhitespace) /\ static_env expr_env /\
  core KStr expr_env (skip_run NAsciiWhitespace) (PRef 0) /\ static (PRef 0) /\
  exists c', Returns expr_env [PMany0 NAsciiWhitespace CEmpty] (PRef 0) (cx KStr loose_text 0) (Ok (sp KStr loose_text 1 13)) c'.
Proof.
  destruct (tokens_core NAsciiWhitespace _ _ _ _ expr_ready) as [A B]. destruct (one_ahead_core _ _ _ _ expr_ready) as (_ & C & _ & D).
  repeat (split; [assumption|]). eexists. returns 60.
Qed.
Example C81_any_policy_case : skipper (skip_run NWhitespace) /\
  implements KStr expr_env (skip_run NWhitespace) skip_whitespace /\ blank NWhitespace [] /\
  (forall s t, blank NWhitespace s -> blank NWhitespace t -> blank NWhitespace (s ++ t)) /\
  (forall w i, i <= length w -> blank NWhitespace (slice w i (skip_run NWhitespace w i))) /\
  exists c', Returns expr_env skip_whitespace (PRef 0) (cx KStr loose_text 0) (Ok (sp KStr loose_text 1 13)) c'.
Proof.
  split; [apply skip_run_skipper|]. split; [apply skip_ws_implements|]. split; [apply blank_nil|]. split; [apply blank_app|].
  split; [apply skip_run_blank|]. eexists. returns 60.
Qed.

(** Without the condition on the tokens layouts are missed: [" b"] after ["a"] is never found, because
    the blank that begins it is skipped. *)
Theorem C81_blank_token_refuted : exists p w ts,
  one_ahead KStr [] expr_info p /\ Toks [] p ts /\ concat ts = w /\ Spread (all_of NAsciiWhitespace) ts w /\
  (exists s c', Returns [] [] (PThen p PEnd) (cx KStr w 0) (Ok s) c') /\
  (exists e c', Returns [] skip_ascii_whitespace (PThen p PEnd) (cx KStr w 0) (Err e) c').
Proof.
  exists (PThen (PLit [97]) (PLit [32; 98]))%N, [97; 32; 98]%N, [[97]; [32; 98]]%N.
  split; [|split; [|split; [reflexivity|split; [|split]]]].
  - split; [intros [|i]; (split; [discriminate|intros p E; destruct i; discriminate E] || (split; [discriminate|intros p E; discriminate E]))|].
    split; [cbn [ll1]; repeat split; intros x; cbn; tauto|].
    exists (fun _ => true), (fun _ => 0), 1, 1. split; [|split; [|reflexivity]]; intros [|x] q E; discriminate E.
  - apply (T_then _ _ _ [[97]] [[32; 98]])%N; (apply T_token; [reflexivity|constructor]).
  - assert (B0 : all_of NAsciiWhitespace []) by intros y [].
    apply (spread_cons _ [] [97]%N _ [32; 98]%N); [exact B0|].
    apply (spread_cons _ [] [32; 98]%N _ []); [exact B0|]. now constructor.
  - do 2 eexists. returns 9.
  - do 2 eexists. returns 9.
Qed.

Print Assumptions C81_match.
Print Assumptions C81_any_policy.
Print Assumptions C81_whole.
Print Assumptions C81_reject.
Print Assumptions C81_words.
Print Assumptions C81_blank_token_refuted.
