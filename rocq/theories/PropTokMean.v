(** With blanks skipped, parsers that need one item of lookahead build the value of their tokens (C84),
    the building counterpart of C81.  The value of a list of tokens is [TMean] (file TokMean.v), without
    positions, choice order, greediness or layout. *)

From Coq Require Import List Arith NArith ZArith Bool Lia.
From Verif Require Import Base Text Context Neu Syntax Regex Ctor Api TextProofs Spec Core Sound Complete Obs Laws ApiLaws PegLaws PolicyLaws
  Consumes Term TermLaws CtorShape CtorSpec CtorLaws ConSpec ConSound ConComplete ConTerm Lang Ll1 Meaning MeanLaws Tokens TokensLl1
  TokMean TokMeanLaws OwnedLaws Samples PropCon PropMean.
Import ListNotations.

(** The handler makes [lv t] of the text [t] a token matched, wherever the cursor is, and keeps its
    state. *)
Definition tsays {S} (k : kind) (lv : text -> val) (h : handler S) : Prop :=
  forall w x b j st, x <= length w -> b <= j -> j <= length w -> h (cx k w x) (sp k w b j) st = (Ok (lv (slice w b j)), st).

(** One item of lookahead decides ([ll1], Ll1.v), no token begins with a skipped item ([crisp],
    TokensLl1.v), the mappers accept what their parts build and handlers are asked about tokens
    ([tfed], TokMean.v), and no handle reaches itself before an item was read (the checks of C20 and
    C70). *)
Definition builds_loose (u : neu) (k : kind) (G : env) (R : nat -> info) (lv : text -> val) (p : pat) : Prop :=
  ll1_env R k G /\ tfed_env G lv R /\ crisp_env u G /\ ll1 R k p /\ tfed G lv R p /\ crisp u p /\
  exists K KC rk L m,
    (forall x q, env_get G x = Some q -> K x = true -> consumes K q = true) /\
    (forall x q, env_get G x = Some q -> KC x = true -> cconsumes K KC q = true) /\
    (forall x q, env_get G x = Some q -> wfb K rk L (rk x) q = true /\ cwfb K KC rk L (rk x) q = true) /\
    cwfb K KC rk L m p = true.

Section Scope.
  Context {S : Type}.
  Variable u : neu.
  Variable k : kind.
  Variable G : env.
  Variable R : nat -> info.
  Variable lv : text -> val.
  Variable h : handler S.
  Hypothesis HS : tsays k lv h.
  Notation sk := (skip_run u).
  Lemma tsays_answers : ConSpec.answers k sk (tells lv) h.
  Proof. intros w x b j st (_ & Q1 & Q2) B. rewrite HS by auto. split; [reflexivity|discriminate]. Qed.
  Lemma loose_scope p : builds_loose u k G R lv p -> InScope k G sk [PMany0 u CEmpty] (tells lv) h p.
  Proof.
    intros (RE & FE & XE & C & F & X & _). constructor; [apply skip_run_skipper|apply many0_implements| | | |exact tsays_answers].
    - now apply (ll1_core_env_sk u k G R).
    - now apply (tfed_ok_env u k G R lv).
    - now apply (tfed_con_ok u k G R lv).
  Qed.
  Lemma loose_con p ts v w (st : S) : builds_loose u k G R lv p -> TMean G lv p ts v -> Spread (all_of u) ts w ->
    exists j, Con k G sk (tells lv) w p 0 st (CV v j st) /\ j <= length w /\ sk w j = length w.
  Proof.
    intros (RE & FE & XE & C & F & X & K & KC & rk & L & m & KE & KCE & WE & W) M S'.
    destruct (spread_trim u ts w S' (toks_solid u k G R RE XE p ts (tmean_toks G lv p ts v M) C X)) as (b & s & -> & Hb & Hs & CL).
    assert (E0 : sk (b ++ s) 0 = length b) by (now apply (skip_over u (b ++ s) 0 b s)).
    assert (E1 : skipn (length b) (b ++ s) = s ++ []) by (rewrite app_nil_r, skipn_app, skipn_all, Nat.sub_diag; reflexivity).
    destruct (tbuilt u k G R lv RE FE XE K KC rk L h tsays_answers KE KCE WE p ts v M m C F X W (b ++ s) 0 (length b) s [] st) as (j & P & J1 & J2);
      auto; try (intros []; fail); [lia|].
    exists j. split; [exact P|]. split; [exact J1|]. now rewrite J2, app_length.
  Qed.
  Lemma loose_out p w i (st : S) : builds_loose u k G R lv p -> i <= length w ->
    exists o, Con k G sk (tells lv) w p i st o /\ tmeant u G lv w p i st o.
  Proof.
    intros (RE & FE & XE & C & F & X & K & KC & rk & L & m & KE & KCE & WE & W) Hi.
    destruct (tcon_answers u k G R lv RE FE K KC rk L h tsays_answers KE KCE WE m p w i st C F W Hi) as [o P].
    exists o. split; [exact P|]. exact (proj1 (con_tmean u k G R lv RE FE) w p i st o P C F Hi).
  Qed.
End Scope.

(** [ctor]: the handler of [Extract<&str>] and [Extract<&[u8]>] says the text itself. *)
Lemma extract_tsays k : tsays k VText extract_text.
Proof.
  intros w x b j st Hx B J.
  destruct (slice_answers k (fun w _ => length w) w x b j st) as [E _]; [repeat split; auto|exact B|exact E].
Qed.
Lemma read_tsays k lv : tsays k lv (read lv).
Proof. intros w x b j st Hx B J. unfold read. now rewrite (extract_tsays k w x b j st Hx B J). Qed.

(** ** C84 *)

(** Whatever is built is the value of tokens laid out between the cursor and the place where the next
    match will begin, the state of the handler is kept, a failure consumes at most blanks, and nothing
    panics. *)
Theorem C84_sound : forall S u k G R lv (h : handler S) p w i st r c st',
  tsays k lv h -> builds_loose u k G R lv p -> i <= length w -> Builds h G [PMany0 u CEmpty] p (cx k w i) st r c st' ->
  st' = st /\ exists y, y <= length w /\ c = cx k w y /\
  ((exists v ts, r = Ok v /\ i <= skip_run u w y /\ TMean G lv p ts v /\ Spread (all_of u) ts (slice w i (skip_run u w y))) \/
   (exists e, r = Err e /\ skip_run u w y = skip_run u w i)).
Proof.
  intros S u k G R lv h p w i st r c st' HS B Hi X.
  pose proof (loose_scope u k G R lv h HS p B) as SC.
  assert (OUT : forall o, Con k G (skip_run u) (tells lv) w p i st o -> tmeant u G lv w p i st o).
  { destruct B as (RE & FE & XE & C & F & CX & _). intros o P. exact (proj1 (con_tmean u k G R lv RE FE) w p i st o P C F Hi). }
  destruct (C70_outcomes S k G (skip_run u) _ (tells lv) h p w i st r c st' SC Hi X) as [->|(y & j & -> & (Q & Hj & Hy) & _ & O)].
  - assert (Y : Con k G (skip_run u) (tells lv) w p i st CP) by (apply (C70_panicked S k G _ [PMany0 u CEmpty] (tells lv) h); eauto).
    destruct (OUT _ Y).
  - destruct O as [(v & -> & Y)|(e & -> & Y)]; apply OUT in Y; cbn [tmeant] in Y.
    + destruct Y as (H1 & H2 & (ts & M & SP) & ->). split; [reflexivity|]. exists y. repeat (split; [assumption||reflexivity|]).
      left. exists v, ts. destruct (skipped _ (skip_run_skipper u) w j Hj) as (H3 & H4 & H5). rewrite <- Q.
      split; [reflexivity|]. split; [lia|]. split; [exact M|].
      rewrite <- (slice_app w i j) by lia. rewrite <- (app_nil_r ts). apply spread_app; [apply blank_app|exact SP|].
      constructor. now apply skip_run_blank.
    + destruct Y as [-> ->]. split; [reflexivity|]. exists y. repeat (split; [assumption||reflexivity|]). right. eauto.
Qed.

Section Whole.
  Context {S : Type}.
  Variable u : neu.
  Variable k : kind.
  Variable G : env.
  Variable R : nat -> info.
  Variable lv : text -> val.
  Variable h : handler S.
  Hypothesis HS : tsays k lv h.
  Variable p : pat.
  Hypothesis B : builds_loose u k G R lv p.
  Notation sk := (skip_run u).
  Lemma whole_scope : InScope k G sk [PMany0 u CEmpty] (tells lv) h (PSuffix p PEnd).
  Proof. destruct (loose_scope u k G R lv h HS p B) as [C1 C2 C3 C4 C5 C6]. constructor; auto; apply ok_suffix; auto; constructor. Qed.
  Lemma loose_meant w i (st : S) o : i <= length w -> Con k G sk (tells lv) w p i st o -> tmeant u G lv w p i st o.
  Proof. destruct B as (RE & FE & XE & C & F & CX & _). intros Hi P. exact (proj1 (con_tmean u k G R lv RE FE) w p i st o P C F Hi). Qed.
  Lemma whole_con w (st : S) v :
    (exists y, same sk w (length w) y /\ Con k G sk (tells lv) w (PSuffix p PEnd) 0 st (CV v y st)) <->
    exists ts, TMean G lv p ts v /\ Spread (all_of u) ts w.
  Proof.
    split.
    - intros (y & Y & X). inversion X; subst; try contradiction.
      + destruct o; try contradiction; discriminate.
      + match goal with H : Peg _ _ _ _ PEnd _ _ |- _ => inversion H; subst end.
        match goal with H : Con _ _ _ _ _ p _ _ _ |- _ => destruct (loose_meant _ _ _ _ (Nat.le_0_l _) H) as (_ & H2 & (ts & M & SP) & _) end.
        exists ts. split; [exact M|]. rewrite <- (firstn_all w), <- (firstn_skipn j (firstn _ w)).
        rewrite <- (app_nil_r ts). apply spread_app; [apply blank_app| |].
        * rewrite firstn_all. unfold slice in SP. now rewrite Nat.sub_0_r in SP.
        * constructor. rewrite firstn_all. replace (skipn j w) with (slice w j (sk w j)); [now apply skip_run_blank|].
          unfold slice. match goal with Z : sk w j = length w |- _ => rewrite Z end. rewrite <- (skipn_length j w). apply firstn_all.
    - intros (ts & M & SP). destruct (loose_con u k G R lv h HS p ts v w st B M SP) as (j & P & J1 & J2).
      exists (length w). split; [repeat split; auto|]. eapply Con_suffix; [exact P|]. rewrite J2. now apply Peg_end.
  Qed.
End Whole.

Lemma skip_rest u w y : y <= length w -> skip_run u w y = length w -> all_of u (skipn y w).
Proof.
  intros Hy E. replace (skipn y w) with (slice w y (skip_run u w y)); [now apply skip_run_blank|].
  unfold slice. rewrite E, <- (skipn_length y w). apply firstn_all.
Qed.

(** Anchored at the end, the parser builds [v] from exactly the texts in which tokens of value [v] are
    laid out with blanks; only blanks are left behind the cursor then. *)
Theorem C84_whole : forall S u k G R lv (h : handler S) p w st v,
  tsays k lv h -> builds_loose u k G R lv p ->
  ((exists c, Builds h G [PMany0 u CEmpty] (PSuffix p PEnd) (cx k w 0) st (Ok v) c st) <->
   (exists ts, TMean G lv p ts v /\ Spread (all_of u) ts w)) /\
  (forall c st', Builds h G [PMany0 u CEmpty] (PSuffix p PEnd) (cx k w 0) st (Ok v) c st' ->
    st' = st /\ exists y, y <= length w /\ c = cx k w y /\ all_of u (skipn y w)).
Proof.
  intros S u k G R lv h p w st v HS B. pose proof (whole_scope u k G R lv h HS p B) as SC.
  assert (A : forall c st', Builds h G [PMany0 u CEmpty] (PSuffix p PEnd) (cx k w 0) st (Ok v) c st' ->
    st' = st /\ exists y, same (skip_run u) w (length w) y /\ c = cx k w y).
  { intros c st' X.
    destruct (C70_outcomes S k G (skip_run u) _ (tells lv) h _ w 0 st _ _ _ SC (Nat.le_0_l _) X) as [?|(y & j & -> & Q & _ & O)]; [discriminate|].
    destruct O as [(v' & E & Y)|(e & E & _)]; [|discriminate]. injection E as <-.
    inversion Y; subst; try contradiction; [destruct o; try contradiction; discriminate|].
    match goal with H : Peg _ _ _ _ PEnd _ _ |- _ => inversion H; subst end.
    match goal with H : Con _ _ _ _ _ p _ _ _ |- _ => destruct (loose_meant u k G R lv p B _ _ _ _ (Nat.le_0_l _) H) as (_ & H2 & _ & ->) end.
    split; [reflexivity|]. exists y. split; [|reflexivity].
    match goal with Z : skip_run u w _ = length w |- _ => rewrite Z in Q end. exact Q. }
  split.
  - rewrite <- (whole_con u k G R lv h HS p B w st v).
    rewrite <- (C70_policies_built S k G _ _ (tells lv) h (PSuffix p PEnd) w 0 st v (length w) st SC (Nat.le_0_l _)).
    split; [|intros (y & _ & X); eauto]. intros (c & X). destruct (A c st X) as (_ & y & Q & ->). eauto.
  - intros c st' X. destruct (A c st' X) as (-> & y & (Q & _ & Q2) & ->). split; [reflexivity|].
    exists y. repeat (split; [assumption||reflexivity|]). apply skip_rest; [exact Q2|].
    rewrite <- Q. destruct (skipped _ (skip_run_skipper u) w (length w) (le_n _)) as (H1 & H2 & _). lia.
Qed.

Lemma spread_tight u ts : Spread (all_of u) ts (concat ts).
Proof.
  assert (N : all_of u []) by intros x [].
  induction ts as [|t ts IH]; [now constructor|]. now apply (spread_cons _ [] t ts (concat ts)).
Qed.

(** The lists of tokens the parser may read have a value, only they have, and only one.  It is the
    value of the word the tokens make without blanks (C83). *)
Theorem C84_values : forall u k G R lv p ts, builds_loose u k G R lv p ->
  (Toks G p ts <-> exists v, TMean G lv p ts v) /\
  (forall v, TMean G lv p ts v -> Mean G lv p (concat ts) v) /\
  (forall v v', TMean G lv p ts v -> TMean G lv p ts v' -> v = v').
Proof.
  intros u k G R lv p ts B. split; [split|split].
  - intros H. destruct B as (RE & FE & XE & C & F & X & _). now apply (toks_mean G lv k R RE FE).
  - intros [v H]. now apply tmean_toks in H.
  - intros v. apply tmean_mean.
  - intros v v' H H'. pose proof (read_tsays k lv) as HS. pose proof (loose_scope u k G R lv (read lv) HS p B) as SC.
    destruct (loose_con u k G R lv (read lv) HS p ts v (concat ts) tt B H (spread_tight u ts)) as (j & P & J1 & _).
    destruct (loose_con u k G R lv (read lv) HS p ts v' (concat ts) tt B H' (spread_tight u ts)) as (j' & P' & J1' & _).
    pose proof (C70_policies_deterministic unit k G _ _ (tells lv) (read lv) p (concat ts) 0 0 tt _ _ SC
      (conj eq_refl (conj (Nat.le_0_l _) (Nat.le_0_l _))) P P') as (E & _). exact E.
Qed.

(** Every other text is rejected with an error, without consuming more than blanks. *)
Theorem C84_reject : forall S u k G R lv (h : handler S) p w st,
  tsays k lv h -> builds_loose u k G R lv p ->
  (~ (exists ts, Toks G p ts /\ Spread (all_of u) ts w) <->
   exists e y, y <= length w /\ all_of u (firstn y w) /\
     Builds h G [PMany0 u CEmpty] (PSuffix p PEnd) (cx k w 0) st (Err e) (cx k w y) st).
Proof.
  intros S u k G R lv h p w st HS B. pose proof (whole_scope u k G R lv h HS p B) as SC. split.
  - intros N.
    assert (X : exists e, Con k G (skip_run u) (tells lv) w (PSuffix p PEnd) 0 st (CE e 0 st)).
    { destruct (loose_out u k G R lv h HS p w 0 st B (Nat.le_0_l _)) as ([v j st'|e j st'|] & P & M); cbn [tmeant] in M; [| |destruct M].
      + destruct M as (_ & H2 & _ & ->). exists EAnchorEnd. eapply Con_suffix_ko; [exact P|]. apply Peg_end_ko.
        destruct (skipped _ (skip_run_skipper u) w j H2) as (_ & H3 & _).
        destruct (Nat.eq_dec (skip_run u w j) (length w)) as [E|]; [|lia]. exfalso. apply N.
        destruct (proj1 (whole_con u k G R lv h HS p B w st v)) as (ts & T & SP).
        { exists (length w). split; [repeat split; auto|]. eapply Con_suffix; [exact P|]. rewrite E. now apply Peg_end. }
        exists ts. split; [now apply tmean_toks in T|exact SP].
      + destruct M as [-> ->]. exists e. change (CE e 0 st) with (undo 0 (CE e 0 st)). apply Con_suffix1; [exact P|exact I]. }
    destruct X as (e & X).
    destruct (proj2 (C70_policies_failed S k G _ _ (tells lv) h (PSuffix p PEnd) w 0 st e 0 st SC (Nat.le_0_l _))) as (y & (Q & _ & Hy) & Y).
    { exists 0. split; [repeat split; lia|exact X]. }
    exists e, y. split; [exact Hy|]. split; [|exact Y].
    pose proof (skip_run_blank u w 0 (Nat.le_0_l _)) as Z. unfold slice in Z. rewrite Nat.sub_0_r, Q in Z. cbn [skipn] in Z.
    destruct (skipped _ (skip_run_skipper u) w y Hy) as (H1 & _ & _).
    replace (skip_run u w y) with (y + (skip_run u w y - y)) in Z by lia.
    intros x Ix. apply Z. rewrite <- (firstn_skipn y (firstn _ w)). apply in_or_app. left. rewrite firstn_firstn. now rewrite Nat.min_l by lia.
  - intros (e & y & Hy & _ & X) (ts & T & SP).
    destruct (proj1 (proj1 (C84_values u k G R lv p ts B)) T) as (v & M).
    destruct (proj2 (proj1 (C84_whole S u k G R lv h p w st v HS B)) (ex_intro _ ts (conj M SP))) as (c & Y).
    destruct (builds_det _ _ _ _ _ _ _ _ _ _ _ _ X Y) as (E & _). discriminate E.
Qed.

(** ** The calculator of C83 with white space *)

(** What a list of tokens stands for, left to right: operands of kind [F] joined by operators. *)
Inductive TChain (F : list text -> Z -> Prop) (ops : list item) : list text -> Z -> Prop :=
| tchain_one s z : F s z -> TChain F ops s z
| tchain_more s z c t y : TChain F ops s z -> In c ops -> F t y -> TChain F ops (s ++ [c] :: t) (apply_op c z y).
Inductive TFactor : list text -> Z -> Prop :=
| tfactor_num s : s <> [] -> (forall x, In x s -> (48 <= x <= 57)%N) -> TFactor [s] (decimal s)
| tfactor_par s z : TChain (TChain TFactor [42%N]) [43; 45]%N s z -> TFactor ([40%N] :: s ++ [[41%N]]) z.
Definition TProduct : list text -> Z -> Prop := TChain TFactor [42%N].
Definition TSum : list text -> Z -> Prop := TChain TProduct [43; 45]%N.

Notation TM := (TMean calc_env VText).
Notation ws := NAsciiWhitespace.

Lemma calc_loose : builds_loose ws KStr calc_env calc_info VText (PRef 0).
Proof.
  destruct calc_ready as (RE & FE & C & _ & ST). split; [exact RE|]. split; [|split; [|split; [exact C|split; [exact I|split; [exact I|exact ST]]]]].
  - intros [|i] p E; [|destruct i; discriminate E]. pose proof (FE 0 p E) as F. injection E as <-.
    cbn [calc level factor number fed tfed] in F |- *.
    repeat match goal with H : _ /\ _ |- _ => destruct H end. repeat split; auto.
    all: intros ts v M; apply tmean_mean in M; eauto.
  - intros [|x] q E; [|destruct x; discriminate E]. injection E as <-.
    cbn [calc level factor number crisp]. repeat split.
    all: try (cbn; intros H; discriminate H).
    all: intros x; unfold of, none.
    all: try (intros H; first [apply add_in in H|apply mul_in in H]; cbn -[N.eqb]; intros H2; intuition (subst; discriminate)).
    all: cbn [is_match]; unfold is_ascii_digit, between_N, is_ascii_ws; rewrite ?andb_true_iff, ?orb_true_iff, ?N.leb_le, ?N.eqb_eq; lia.
Qed.

Section TChainMap.
  Variable F F' : list text -> Z -> Prop.
  Variable ops : list item.
  Variable f : forall s z, F s z -> F' s z.
  Fixpoint tchain_map s z (H : TChain F ops s z) : TChain F' ops s z :=
    match H in TChain _ _ s z return TChain F' ops s z with
    | tchain_one _ _ s z a => tchain_one F' ops s z (f s z a)
    | tchain_more _ _ s z c t y a b d => tchain_more F' ops s z c t y (tchain_map s z a) b (f t y d)
    end.
End TChainMap.

Lemma tvals_snoc M vs s v t : TVals M vs s -> M t v -> TVals M (vs ++ [v]) (s ++ t).
Proof.
  intros H A. induction H as [|u vs s s' B H IH]; [rewrite <- (app_nil_r t); cbn; repeat constructor; auto; now rewrite app_nil_r|].
  cbn. rewrite <- app_assoc. now constructor.
Qed.
Lemma tchain_mean p o ops s z : (forall x, In x ops -> is_match o x = true) ->
  TChain (fun s z => TM p s (VNum z)) ops s z -> TM (level p o) s (VNum z).
Proof.
  intros O H.
  assert (X : exists s0 z0 s1 vs, s = s0 ++ s1 /\ TM p s0 (VNum z0) /\ TVals (TM (PThen (POnce o CEmpty) p)) vs s1 /\ run z0 vs = Ok (VNum z)).
  { induction H as [s z A|s z c t y H IH IC A].
    - exists s, z, [], []. rewrite app_nil_r. repeat split; auto. constructor.
    - destruct IH as (s0 & z0 & s1 & vs & -> & B & V & E).
      exists s0, z0, (s1 ++ [c] :: t), (vs ++ [VPair (VText [c]) (VNum y)]). rewrite <- app_assoc. repeat split; auto.
      + apply tvals_snoc; [exact V|]. apply (TM_then _ _ _ _ [[c]] t); [|exact A]. apply (TM_leaf _ _ (POnce o CEmpty) [c]); [exact I|reflexivity|].
        apply T_token; [reflexivity|]. constructor. auto.
      + now rewrite (run_app _ _ _ _ E). }
  destruct X as (s0 & z0 & s1 & vs & -> & A & V & E). apply (TM_map _ _ _ eval _ (VPair (VNum z0) (VList vs))); [|exact E].
  apply (TM_then _ _ _ _ s0 s1); [exact A|]. apply TM_repeat; [|exact V]. split; [apply Nat.le_0_l|exact I].
Qed.
Lemma tmean_chain (F : list text -> Z -> Prop) p o ops s v :
  (forall x, is_match o x = true -> In x ops) ->
  (forall t u, length t <= length s -> TM p t u -> exists z, u = VNum z /\ F t z) ->
  TM (level p o) s v -> exists z, v = VNum z /\ TChain F ops s z.
Proof.
  intros O P H. inversion H as [| | | | | | | | | | | | | | | |? ? ? u ? A E| | |]; subst; [contradiction|].
  inversion A as [| |? ? s0 s1 a b B D| | | | | | | | | | | | | | | | |]; subst; [contradiction|].
  inversion D as [| | | | | | | | | | | |? ? vs ? IR V| | | | | | |]; subst; [contradiction|].
  rewrite app_length in P. destruct (P s0 a ltac:(lia) B) as (z0 & -> & F0). cbn [eval] in E.
  assert (P' : forall t u, length t <= length s1 -> TM p t u -> exists z, u = VNum z /\ F t z) by (intros; apply P; auto; lia).
  clear P A B D IR H. assert (C : TChain F ops s0 z0) by now apply tchain_one. clear F0. revert s0 z0 C E.
  induction V as [|w vs t t' X V IH]; intros s0 z0 C E.
  - injection E as <-. exists z0. rewrite app_nil_r. auto.
  - inversion X as [| |? ? c1 t1 a b X1 X2| | | | | | | | | | | | | | | | |]; subst; [contradiction|].
    inversion X1; subst. match goal with B : Toks _ (POnce _ _) _ |- _ => inversion B; subst end.
    match goal with B : Lang _ (POnce _ _) _ |- _ => inversion B; subst end.
    destruct (P' t1 b) as (y & -> & FY); [rewrite !app_length; lia|exact X2|].
    cbn [run] in E. rewrite app_assoc. apply (IH ltac:(intros; apply P'; auto; rewrite !app_length; lia) _ (apply_op x z0 y)); [|exact E].
    cbn [app]. apply tchain_more; auto.
Qed.
Lemma tfactor_mean : forall s z, TFactor s z -> TM factor s (VNum z).
Proof.
  fix F 3. intros s z H. destruct H as [s N D|s z C].
  - apply TM_or_l. eapply TM_map; [apply (TM_leaf _ _ number s)|reflexivity]; [exact I|reflexivity|]. apply T_token; [reflexivity|].
    constructor; [exact N|]. intros x Ix. apply digit_range. auto.
  - apply TM_or_r. apply (TM_enclose _ _ (PRef 0) (PLit [40]%N) (PLit [41]%N) [[40%N]] s [[41%N]]); [apply T_token; [reflexivity|constructor]| |apply T_token; [reflexivity|constructor]].
    eapply TM_ref; [reflexivity|]. apply (tchain_mean _ _ [43; 45]%N); [intros x [<-|[<-|[]]]; reflexivity|].
    apply (tchain_map (TChain TFactor [42%N]) (fun s z => TM (level factor mulop) s (VNum z)) [43; 45]%N); [|exact C].
    intros s' z' C'. apply (tchain_mean _ _ [42]%N); [intros x [<-|[]]; reflexivity|].
    exact (tchain_map TFactor (fun s z => TM factor s (VNum z)) [42%N] F s' z' C').
Qed.
Lemma calc_tmeans s v : TM (PRef 0) s v <-> exists z, v = VNum z /\ TSum s z.
Proof.
  split.
  - revert v. remember (length s) as n eqn:E. assert (Hn : length s <= n) by lia. clear E. revert s Hn.
    induction n as [|n IH]; intros s Hn v H.
    all: inversion H; subst; [contradiction|]; match goal with E : env_get _ _ = Some _ |- _ => injection E as <- end.
    all: match goal with H : TM calc _ _ |- _ => revert H end; apply tmean_chain; [intros x Hx; apply add_in in Hx as [->| ->]; cbn; auto|].
    all: intros t u Ht; apply tmean_chain; [intros x Hx; apply mul_in in Hx as ->; cbn; auto|].
    all: intros t' u' Ht' M; inversion M; subst; [contradiction| |].
    all: try (match goal with X : TM (PMap _ _) _ _ |- _ => inversion X; subst; [contradiction|] end;
      match goal with X : TM number _ _ |- _ => inversion X; subst end;
      match goal with X : to_num _ = Ok _ |- _ => injection X as <- end;
      match goal with X : Toks _ number _ |- _ => inversion X; subst end;
      match goal with X : Lang _ number _ |- _ => inversion X; subst end;
      eexists; split; [reflexivity|]; apply tfactor_num; [assumption|]; intros x Hx; apply digit_range; auto).
    all: match goal with X : TM (PEnclose _ _ _) _ _ |- _ => inversion X; subst; [contradiction|] end;
      repeat match goal with X : Toks _ (PLit _) _ |- _ => inversion X; subst; clear X end;
      repeat match goal with X : Lang _ (PLit _) _ |- _ => inversion X; subst; clear X end; cbn [app] in *;
      cbn [length] in Ht'; rewrite app_length in Ht'; cbn [length] in Ht'.
    + lia.
    + match goal with X : TM (PRef 0) ?s0 u' |- _ => destruct (IH s0 ltac:(lia) u' X) as (z & -> & SZ) end.
      exists z. split; [reflexivity|]. now apply tfactor_par.
  - intros (z & -> & H). eapply TM_ref; [reflexivity|]. apply (tchain_mean _ _ [43; 45]%N); [intros x [<-|[<-|[]]]; reflexivity|].
    apply (tchain_map TProduct (fun s z => TM (level factor mulop) s (VNum z)) [43; 45]%N); [|exact H].
    intros s' z' C'. apply (tchain_mean _ _ [42]%N); [intros x [<-|[]]; reflexivity|].
    exact (tchain_map TFactor (fun s z => TM factor s (VNum z)) [42%N] tfactor_mean s' z' C').
Qed.

(** The tokens hold no white space: without it, the text is the tokens one after the other. *)
Definition dense (t : text) : Prop := forall x, In x t -> is_match ws x = false.
Lemma digit_dense x : (48 <= x <= 57)%N -> is_match ws x = false.
Proof. intros H. cbn [is_match]. unfold is_ascii_ws. rewrite !orb_false_iff, !N.eqb_neq. lia. Qed.
Lemma tchain_dense (F : list text -> Z -> Prop) ops ts z : (forall c, In c ops -> is_match ws c = false) ->
  TChain (fun s z => F s z /\ Forall dense s) ops ts z -> Forall dense ts.
Proof.
  intros O H. induction H as [s z A|s z c t y H IH IC A]; [apply A|]. apply Forall_app. split; [exact IH|]. constructor; [|apply A].
  intros x [<-|[]]. auto.
Qed.
Lemma tfactor_dense : forall ts z, TFactor ts z -> Forall dense ts.
Proof.
  fix F 3. intros ts z H. destruct H as [s N D|s z C].
  - constructor; [|constructor]. intros x Hx. apply digit_dense. auto.
  - constructor; [intros x [<-|[]]; reflexivity|]. apply Forall_app. split; [|constructor; [intros x [<-|[]]; reflexivity|constructor]].
    apply (tchain_dense (TChain TFactor [42%N]) [43; 45]%N _ z); [intros c [<-|[<-|[]]]; reflexivity|].
    refine (tchain_map _ _ _ _ _ _ C). intros t y A. split; [exact A|].
    apply (tchain_dense TFactor [42%N] _ y); [intros c [<-|[]]; reflexivity|].
    exact (tchain_map TFactor (fun s z => TFactor s z /\ Forall dense s) [42%N] (fun s z a => conj a (F s z a)) t y A).
Qed.
Lemma tsum_dense ts z : TSum ts z -> Forall dense ts.
Proof.
  intros H. apply (tchain_dense TProduct [43; 45]%N _ z); [intros c [<-|[<-|[]]]; reflexivity|].
  refine (tchain_map _ _ _ _ _ _ H). intros t y A. split; [exact A|].
  apply (tchain_dense TFactor [42%N] _ y); [intros c [<-|[]]; reflexivity|].
  exact (tchain_map TFactor (fun s z => TFactor s z /\ Forall dense s) [42%N] (fun s z a => conj a (tfactor_dense s z a)) t y A).
Qed.
Definition squeeze (w : text) : text := filter (fun x => negb (is_match ws x)) w.
Lemma squeeze_blank b : all_of ws b -> squeeze b = [].
Proof.
  induction b as [|x b IH]; [reflexivity|]. intros A. unfold squeeze. cbn [filter]. rewrite (A x (or_introl eq_refl)). cbn [negb].
  apply IH. intros y Y. apply A. now right.
Qed.
Lemma squeeze_dense t : dense t -> squeeze t = t.
Proof.
  induction t as [|x t IH]; [reflexivity|]. intros A. unfold squeeze. cbn [filter]. rewrite (A x (or_introl eq_refl)). cbn [negb].
  f_equal. apply IH. intros y Y. apply A. now right.
Qed.
Lemma squeeze_spread ts w : Spread (all_of ws) ts w -> Forall dense ts -> squeeze w = concat ts.
Proof.
  intros H. induction H as [b Hb|b t ts s Hb H IH]; intros D; [now apply squeeze_blank|].
  inversion D; subst. unfold squeeze in *. rewrite !filter_app. fold (squeeze b) (squeeze t). rewrite (squeeze_blank b Hb), (squeeze_dense t) by assumption.
  cbn [app concat]. f_equal. auto.
Qed.

(** The calculator, with white space skipped, computes what the tokens laid out in the text stand for,
    and rejects every other text.  The value is the one C83 gives to the text without its white
    space. *)
Theorem C84_calculator : forall w,
  (forall z, (exists c, Builds extract_text calc_env skip_ascii_whitespace (PSuffix (PRef 0) PEnd) (cx KStr w 0) tt (Ok (VNum z)) c tt) <->
     (exists ts, TSum ts z /\ Spread (all_of ws) ts w)) /\
  (~ (exists ts z, TSum ts z /\ Spread (all_of ws) ts w) <->
     exists e c, Builds extract_text calc_env skip_ascii_whitespace (PSuffix (PRef 0) PEnd) (cx KStr w 0) tt (Err e) c tt) /\
  (forall ts z, TSum ts z -> Spread (all_of ws) ts w -> Sum (squeeze w) z).
Proof.
  intros w. pose proof (extract_tsays KStr) as HS. pose proof calc_loose as B. split; [|split].
  - intros z. rewrite (proj1 (C84_whole unit ws KStr calc_env calc_info VText extract_text (PRef 0) w tt (VNum z) HS B)).
    split; intros (ts & M & SP); exists ts; (split; [|exact SP]).
    + apply calc_tmeans in M. destruct M as (z' & [= <-] & M). exact M.
    + apply calc_tmeans. eauto.
  - assert (A : (exists ts z, TSum ts z /\ Spread (all_of ws) ts w) <-> exists ts, Toks calc_env (PRef 0) ts /\ Spread (all_of ws) ts w).
    { split.
      - intros (ts & z & M & SP). exists ts. split; [|exact SP]. eapply tmean_toks. apply calc_tmeans. eauto.
      - intros (ts & T & SP). apply (proj1 (C84_values ws KStr calc_env calc_info VText (PRef 0) ts B)) in T. destruct T as (v & M).
        apply calc_tmeans in M. destruct M as (z & _ & M). eauto. }
    rewrite A, (C84_reject unit ws KStr calc_env calc_info VText extract_text (PRef 0) w tt HS B). split.
    + intros (e & y & _ & _ & X). eauto.
    + intros (e & c & X). apply (C84_reject unit ws KStr calc_env calc_info VText extract_text (PRef 0) w tt HS B). intros (ts & T & SP). apply (proj1 (C84_values ws KStr calc_env calc_info VText (PRef 0) ts B)) in T. destruct T as (v & M).
      destruct (proj2 (proj1 (C84_whole unit ws KStr calc_env calc_info VText extract_text (PRef 0) w tt v HS B))) as (c' & Y); [eauto|].
      destruct (builds_det _ _ _ _ _ _ _ _ _ _ _ _ X Y) as (E & _). discriminate E.
  - intros ts z T SP. rewrite (squeeze_spread ts w SP (tsum_dense ts z T)).
    assert (M : TM (PRef 0) ts (VNum z)) by (apply calc_tmeans; eauto).
    apply tmean_mean in M. apply calc_means in M. destruct M as (z' & [= <-] & M). exact M.
Qed.

(** " 2 * ( 3 + 4 ) - 5 " and "1 2" *)
Definition airy : text := [32; 50; 32; 42; 32; 40; 32; 51; 32; 43; 32; 52; 9; 41; 10; 45; 32; 53; 32]%N.
Definition airy_tokens : list text := [[50]; [42]; [40]; [51]; [43]; [52]; [41]; [45]; [53]]%N.
Lemma airy_spread : Spread (all_of ws) airy_tokens airy.
Proof.
  assert (B : forall x, is_match ws x = true -> all_of ws [x]) by (intros x H y [<-|[]]; exact H).
  unfold airy_tokens, airy.
  repeat match goal with |- Spread _ ([?t] :: _) (?b :: ?t :: ?r) => apply (spread_cons _ [b] [t] _ r); [apply B; reflexivity|] end.
  constructor. apply B. reflexivity.
Qed.
Lemma airy_sum : TSum airy_tokens 9.
Proof.
  assert (D : forall x, (48 <= x <= 57)%N -> TFactor [[x]] (decimal [x])).
  { intros x Hx. apply tfactor_num; [discriminate|]. now intros y [<-|[]]. }
  apply (tchain_more _ _ [[50]; [42]; [40]; [51]; [43]; [52]; [41]]%N 14 45%N [[53%N]] 5); [|cbn; auto|apply tchain_one, (D 53%N); lia].
  apply tchain_one. apply (tchain_more _ _ [[50]]%N 2 42%N [[40]; [51]; [43]; [52]; [41]]%N 7); [apply tchain_one, (D 50%N); lia|cbn; auto|].
  apply (tfactor_par [[51]; [43]; [52]]%N). apply (tchain_more _ _ [[51]]%N 3 43%N [[52]]%N 4); [|cbn; auto|apply tchain_one, (D 52%N); lia].
  apply tchain_one, tchain_one, (D 51%N). lia.
Qed.
Example C84_whole_case : tsays KStr VText extract_text /\ builds_loose ws KStr calc_env calc_info VText (PRef 0) /\
  TM (PRef 0) airy_tokens (VNum 9) /\ Spread (all_of ws) airy_tokens airy /\
  Builds extract_text calc_env skip_ascii_whitespace (PSuffix (PRef 0) PEnd) (cx KStr airy 0) tt (Ok (VNum 9)) (cx KStr airy 19) tt.
Proof.
  split; [apply extract_tsays|]. split; [exact calc_loose|]. split; [apply calc_tmeans; exists 9%Z; split; [reflexivity|exact airy_sum]|].
  split; [exact airy_spread|]. exists 90. split; [vm_compute; reflexivity|discriminate].
Qed.
Example C84_reject_case : tsays KStr VText extract_text /\ builds_loose ws KStr calc_env calc_info VText (PRef 0) /\
  exists c, Builds extract_text calc_env skip_ascii_whitespace (PSuffix (PRef 0) PEnd) (cx KStr [49; 32; 50]%N 0) tt (Err EAnchorEnd) c tt.
Proof.
  split; [apply extract_tsays|]. split; [exact calc_loose|]. eexists. exists 90. split; [vm_compute; reflexivity|discriminate].
Qed.

(** The value of the text without its blanks is not always built: [pattern] over several tokens takes
    its text with the blanks in it. *)
Theorem C84_pattern_refuted : exists p s t w,
  Toks [] p [s; t] /\ Spread (all_of ws) [s; t] w /\ Mean [] VText (PPat p) (s ++ t) (VText (s ++ t)) /\
  (exists c, Builds extract_text [] [] (PPat p) (cx KStr (s ++ t) 0) tt (Ok (VText (s ++ t))) c tt) /\
  (exists c v, Builds extract_text [] skip_ascii_whitespace (PPat p) (cx KStr w 0) tt (Ok v) c tt /\ v <> VText (s ++ t)).
Proof.
  exists (PThen (PLit [97]) (PLit [98]))%N, [97]%N, [98]%N, [97; 32; 98]%N. split; [|split; [|split; [|split]]].
  - apply (T_then _ _ _ [[97]] [[98]])%N; (apply T_token; [reflexivity|constructor]).
  - assert (B0 : all_of ws []) by intros y []. apply (spread_cons _ [] [97]%N _ [32; 98]%N); [exact B0|].
    apply (spread_cons _ [32]%N [98]%N _ []); [intros y [<-|[]]; reflexivity|]. constructor. exact B0.
  - apply M_pat. apply L_then; constructor.
  - eexists. exists 20. split; [vm_compute; reflexivity|discriminate].
  - eexists _, _. split; [exists 20; split; [vm_compute; reflexivity|discriminate]|discriminate].
Qed.

Print Assumptions C84_sound.
Print Assumptions C84_whole.
Print Assumptions C84_values.
Print Assumptions C84_reject.
Print Assumptions C84_calculator.
Print Assumptions C84_pattern_refuted.
