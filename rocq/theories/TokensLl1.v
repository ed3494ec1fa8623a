(** Grammars that need one item of lookahead and whose tokens never begin with what is skipped: with a
    skipping context their parsers miss no layout of their tokens. *)

From Coq Require Import List Arith NArith Bool Lia.
From Verif Require Import Base Text Context Neu Syntax Regex Ctor Api TextProofs Spec Core Sound Obs Laws
  ApiLaws Consumes Term TermLaws PolicyLaws UnitProps CtorShape CtorSpec CtorLaws Lang Ll1 Tokens.
Import ListNotations.

Section Crisp.
  (** The unit that is skipped. *)
  Variable bl : neu.

  (** No token begins with a skipped item; a run of a unit contains none. *)
  Fixpoint crisp (p : pat) : Prop :=
    match p with
    | PLit l => ~ ahead l (of bl)
    | POnce u _ | PMany1 u _ | POpt u _ | PMany0 u _ | PBetween _ _ u _ | PTimes _ u _ | PNeuThen u _ _ =>
        disj (of u) (of bl)
    | PThen p q | PSuffix p q | PPrefix p q | POr p q | PSep p q _ _ | PSep2 p q _ _ _ | PSepCollect p q _ _ =>
        crisp p /\ crisp q
    | PEnclose p q r | PSepOnce p q r | PIfThen p q r => crisp p /\ crisp q /\ crisp r
    | PChoice _ _ ps => (fix go ps := match ps with [] => True | q :: r => crisp q /\ go r end) ps
    | POption p | PRepeat p _ | PRepeat2 p _ _ | PCollect p _ | PPat p | PLeaf p | PMap p _ | PWrap p => crisp p
    | _ => True
    end.
  Definition crisp_env (G : env) : Prop := forall i p, env_get G i = Some p -> crisp p.

  Definition blank : text -> Prop := all_of bl.
  (** Does not begin with a skipped item. *)
  Definition clear (t : text) : Prop := ~ ahead t (of bl).

  Lemma blank_nil : blank [].
  Proof. intros x []. Qed.
  Lemma blank_app s t : blank s -> blank t -> blank (s ++ t).
  Proof. intros A B x H. apply in_app_or in H. destruct H; auto. Qed.
  Lemma blank_clear b s : blank b -> clear (b ++ s) -> b = [].
  Proof. destruct b as [|x b]; [auto|]. intros A C. exfalso. apply C. cbn. apply A. now left. Qed.
  Lemma clear_app s t : clear s -> clear t -> clear (s ++ t).
  Proof. destruct s; auto. Qed.

  Lemma clear_firstn n s : clear s -> clear (firstn n s).
  Proof. destruct n, s; cbn; auto; intros _ []. Qed.

  Lemma choice_crisp e b ps : crisp (PChoice e b ps) -> Forall crisp ps.
  Proof. cbn. induction ps as [|q r IH]; [constructor|]. intros [H1 H2]. constructor; auto. Qed.

  Lemma skip_run_blank w i : i <= length w -> blank (slice w i (skip_run bl w i)).
  Proof.
    intros Hi x H. destruct (skip_run_spec bl w i Hi) as (H1 & H2 & _).
    apply In_nth_error in H. destruct H as [m H]. unfold slice in H.
    assert (m < skip_run bl w i - i).
    { assert (m < length (firstn (skip_run bl w i - i) (skipn i w))) by (apply nth_error_Some; congruence).
      rewrite firstn_length in H0. lia. }
    apply (H2 (i + m) x); [lia|lia|].
    rewrite <- (firstn_skipn (skip_run bl w i - i) (skipn i w)) in H.
    rewrite <- (firstn_skipn i w), nth_error_app2, firstn_length_le by (rewrite ?firstn_length_le; lia).
    replace (i + m - i) with m by lia.
    rewrite <- (firstn_skipn (skip_run bl w i - i) (skipn i w)), nth_error_app1; [|apply nth_error_Some; rewrite firstn_skipn in H; congruence].
    now rewrite firstn_skipn in H.
  Qed.

  Lemma run_stops b t : blank b -> clear t -> prefix_len (is_match bl) (b ++ t) = length b.
  Proof.
    induction b as [|x b IH]; cbn; intros A C.
    - destruct t as [|y t]; [reflexivity|]. cbn. destruct (is_match bl y) eqn:E; [|reflexivity]. now destruct C.
    - rewrite (A x (or_introl eq_refl)). f_equal. apply IH; auto. intros y Y. apply A. now right.
  Qed.
  Lemma skip_over w i b t : skipn i w = b ++ t -> blank b -> clear t -> skip_run bl w i = i + length b.
  Proof. intros E A C. unfold skip_run. now rewrite E, run_stops. Qed.
  Lemma skip_none w i t : skipn i w = t -> clear t -> skip_run bl w i = i.
  Proof. intros E C. rewrite (skip_over w i [] t E blank_nil C). cbn. lia. Qed.
  Lemma skipped_clear w i : i <= length w -> skip_run bl w i = i -> clear (skipn i w).
  Proof.
    intros Hi E A. unfold skip_run in E. destruct (skipn i w) as [|x s]; [exact A|]. cbn in *.
    unfold of in A. rewrite A in E. lia.
  Qed.

  (** ** Splitting a layout *)
  Definition solid (ts : list text) : Prop := Forall clear ts.

  Lemma spread_trim ts s : Spread blank ts s -> solid ts ->
    exists b s', s = b ++ s' /\ blank b /\ Spread blank ts s' /\ clear s'.
  Proof.
    intros H. induction H as [b Hb|b t ts s Hb H IH]; intros O.
    - exists b, []. rewrite app_nil_r. repeat split; auto; [constructor; apply blank_nil|intros []].
    - inversion O; subst. destruct t as [|x t].
      + destruct IH as (b' & s' & -> & B' & S' & C'); [assumption|].
        exists (b ++ b'), s'. cbn [app]. rewrite app_assoc. repeat split; auto; [now apply blank_app|].
        change s' with ([] ++ [] ++ s'). constructor; auto. apply blank_nil.
      + exists b, ((x :: t) ++ s). repeat split; auto.
        change ((x :: t) ++ s) with ([] ++ (x :: t) ++ s). constructor; auto. apply blank_nil.
  Qed.
  Lemma spread_split ts1 ts2 s : Spread blank (ts1 ++ ts2) s -> solid ts2 ->
    exists s1 s2, s = s1 ++ s2 /\ Spread blank ts1 s1 /\ Spread blank ts2 s2 /\ clear s2.
  Proof.
    revert s. induction ts1 as [|t ts1 IH]; intros s H O.
    - destruct (spread_trim _ _ H O) as (b & s' & -> & A & B & C). exists b, s'. repeat split; auto. now constructor.
    - cbn [app] in H. inversion H; subst.
      match goal with X : Spread blank (ts1 ++ ts2) _ |- _ => destruct (IH _ X O) as (s1 & s2 & -> & A & B & C) end.
      exists (b ++ t ++ s1), s2. rewrite <- !app_assoc. repeat split; auto. now constructor.
  Qed.
  Lemma spread_begins a ts s : Spread blank ts s -> clear s -> begins a (concat ts) -> begins a s.
  Proof.
    intros H. induction H as [b Hb|b t ts s Hb H IH]; intros C A.
    - replace b with (@nil item) by (symmetry; apply (blank_clear b []); [exact Hb|now rewrite app_nil_r]). exact A.
    - assert (b = []) as -> by (eapply blank_clear; eauto). cbn [app concat] in *.
      destruct t as [|x t]; cbn [app] in *; auto.
  Qed.
  Lemma spread_nothing s : Spread blank [] s -> clear s -> s = [].
  Proof. intros H C. inversion H; subst. apply (blank_clear s []); [assumption|now rewrite app_nil_r]. Qed.
End Crisp.

Section Proofs.
  Variable bl : neu.
  Variable k : kind.
  Variable G : env.
  Variable R : nat -> info.
  Hypothesis RE : ll1_env R k G.
  Hypothesis XE : crisp_env bl G.
  Notation sk := (skip_run bl).
  Notation II := (info_of R).
  Notation LL := (ll1 R k).
  Notation Cr := (crisp bl).
  Notation Spr := (Spread (blank bl)).
  Notation Peg := (Peg k G sk).

  Fixpoint ll1_core_sk p : LL p -> core k G sk p.
  Proof.
    destruct p; intros H; try (destruct H; fail); try (cbn in H; contradiction);
      try (cbn [ll1] in H; repeat match goal with X : _ /\ _ |- _ => destruct X end; subst; constructor; auto; constructor; fail).
    apply choice_all in H. destruct H as [-> F]. constructor.
    induction ps as [|q r IH]; constructor; inversion F; subst; auto.
  Qed.
  Lemma ll1_core_env_sk : core_env k G sk.
  Proof. intros i p E. apply ll1_core_sk. now apply (proj2 (RE i)). Qed.

  Lemma token_clear p s : token p = true -> Lang G p s -> LL p -> Cr p -> clear bl s.
  Proof.
    intros K H C X. destruct H; try discriminate K; try (destruct C; fail); cbn [crisp] in X; try exact X.
    all: unfold clear.
    all: try (destruct s as [|y s]; cbn; [tauto|]; intros E; apply (X y); [|exact E]; match goal with A : all_of _ _ |- _ => apply A; now left end).
    all: cbn; intros E; apply (X x); auto.
  Qed.

  Lemma solid_app a b : solid bl a -> solid bl b -> solid bl (a ++ b).
  Proof. intros A B. apply Forall_app. now split. Qed.
  Lemma solid_iter n ts : TIter (solid bl) n ts -> solid bl ts.
  Proof. induction 1; [constructor|now apply solid_app]. Qed.
  Lemma solid_sepiter n ts : TSepIter (solid bl) (solid bl) n ts -> solid bl ts.
  Proof. induction 1; [constructor|assumption|]. apply solid_app; [assumption|now apply solid_app]. Qed.

  Lemma toks_solid : forall p ts, Toks G p ts -> LL p -> Cr p -> solid bl ts.
  Proof.
    fix F 3. intros p ts H. destruct H; intros C X; try (destruct C; fail); try (cbn in C; contradiction).
    all: repeat match goal with X : Toks G ?p ?s |- _ =>
      let Y := fresh "B" in pose proof (F p s X) as Y; clear X end.
    all: try match goal with X : TIter (Toks G ?p) ?n ?s |- _ =>
      let Y := fresh "B" in pose proof (titer_map _ _ (F p) n s X) as Y; clear X end.
    all: try match goal with X : TSepIter (Toks G ?p) (Toks G ?d) ?n ?s |- _ =>
      let Y := fresh "B" in pose proof (tsepiter_map _ _ (F p) _ _ (F d) n s X) as Y; clear X end.
    all: clear F.
    all: try (constructor; fail).
    all: try match goal with |- solid _ [_] => constructor; [now apply (token_clear p)|constructor] end.
    all: try match goal with J : In ?q ?ps, B : _ -> _ -> solid _ _ |- _ =>
      apply choice_all in C; destruct C as [-> C]; apply choice_crisp in X; rewrite Forall_forall in C, X; auto end.
    all: cbn [ll1 crisp] in C, X; repeat match goal with Z : _ /\ _ |- _ => destruct Z end; subst.
    all: try (auto; fail).
    all: try (repeat apply solid_app; auto; fail).
    all: try match goal with Y : TIter _ ?n ?s, P : LL ?p, Q : Cr ?p |- _ =>
      apply (solid_iter n); exact (titer_map (fun s => LL p -> Cr p -> solid bl s) (solid bl) (fun s f => f P Q) n s Y) end.
    all: try match goal with Y : TSepIter _ _ ?n ?s, P : LL ?p, Q : Cr ?p, P' : LL ?d, Q' : Cr ?d |- solid _ ?s =>
      apply (solid_sepiter n); exact (tsepiter_map (fun s => LL p -> Cr p -> solid bl s) (solid bl) (fun s f => f P Q) (fun s => LL d -> Cr d -> solid bl s) (solid bl) (fun s f => f P' Q') n s Y) end.
    match goal with E : env_get G _ = Some ?q |- _ => apply B; [now apply (proj2 (RE i))|exact (XE _ _ E)] end.
  Qed.
  Lemma toks_begins p ts s : Toks G p ts -> LL p -> Spr ts s -> clear bl s -> begins (II p) s.
  Proof. intros H C S X. eapply spread_begins; eauto. apply (first_sound k G R RE); auto. now apply toks_lang. Qed.

  (** ** Failing *)
  Variable K : nat -> bool.
  Variable rk : nat -> nat.
  Variable L : nat.
  Hypothesis KE : forall x p, env_get G x = Some p -> K x = true -> consumes K p = true.
  Hypothesis WE : forall x q, env_get G x = Some q -> wfb K rk L (rk x) q = true.

  Lemma answers_sk m p w i : LL p -> wfb K rk L m p = true -> i <= length w -> sk w i = i -> exists o, Peg w p i o.
  Proof.
    intros C W Hi E.
    apply (peg_total k G sk rk (skip_run_skipper bl) ll1_core_env_sk) with (pols := [PMany0 bl CEmpty]) (m := m); auto.
    - intros x q E'. apply (wfb_wf k G sk [PMany0 bl CEmpty] (skip_run_skipper bl) (many0_implements k G bl []) ll1_core_env_sk K rk L KE);
        [|now apply WE]. apply ll1_core_sk. now apply (proj2 (RE x)).
    - apply many0_implements.
    - apply (wfb_wf k G sk [PMany0 bl CEmpty] (skip_run_skipper bl) (many0_implements k G bl []) ll1_core_env_sk K rk L KE); [|exact W].
      now apply ll1_core_sk.
    - now apply ll1_core_sk.
  Qed.

  Lemma sound_sk p w i b j : LL p -> i <= length w -> sk w i = i -> Peg w p i (OK b j) ->
    b = i /\ i <= j /\ j <= length w /\ exists ts, Toks G p ts /\ Spr ts (slice w i j).
  Proof.
    intros C Hi E P. apply (peg_toks (blank bl) (blank_nil bl) (blank_app bl) k G sk (skip_run_skipper bl) ll1_core_env_sk
      (ll1_static_env k G R RE) (skip_run_blank bl)); auto. now apply ll1_core_sk. eapply ll1_static; eauto.
  Qed.

  Lemma idle_sk m p w i : LL p -> wfb K rk L m p = true -> i <= length w -> sk w i = i ->
    ~ ahead (skipn i w) (fs (II p)) -> (Peg w p i (OK i i) /\ nl (II p) = true) \/ exists e, Peg w p i (KO e).
  Proof.
    intros C W Hi E A. destruct (answers_sk m p w i C W Hi E) as [[b j|e] P]; [left|eauto].
    destruct (sound_sk p w i b j C Hi E P) as (-> & H1 & H2 & ts & H & S).
    pose proof (skipped_clear bl w i Hi E) as CL.
    assert (B : begins (II p) (slice w i j)).
    { apply (toks_begins p ts); auto. now apply clear_firstn. }
    unfold slice in B.
    assert (j - i = 0 \/ exists x r, skipn i w = x :: r) as [Z|(x & r & E')].
    { destruct (skipn i w) as [|x r] eqn:E'; [left|eauto].
      apply (f_equal (@length item)) in E'. rewrite skipn_length in E'. cbn in E'. lia. }
    - rewrite Z in B. cbn in B. assert (j = i) as -> by lia. auto.
    - rewrite E' in B, A. destruct (j - i) eqn:Z; cbn in B, A; [|easy]. assert (j = i) as -> by lia. auto.
  Qed.
  Lemma fails_sk m p w i : LL p -> wfb K rk L m p = true -> i <= length w -> sk w i = i ->
    nl (II p) = false -> ~ ahead (skipn i w) (fs (II p)) -> exists e, Peg w p i (KO e).
  Proof. intros C W Hi E N A. destruct (idle_sk m p w i C W Hi E A) as [[_ Z]|P]; [congruence|exact P]. Qed.

  (** ** Nothing is missed: the tokens laid out as [s] in front of the cursor are read, and what is left
      of [s] is skipped next. *)
  Definition DoneT (p : pat) (ts : list text) : Prop := forall m, LL p -> Cr p -> wfb K rk L m p = true ->
    forall w i s t, i <= length w -> sk w i = i -> skipn i w = s ++ t -> Spr ts s -> clear bl t ->
    ~ ahead t (ex (II p)) ->
    exists j, Peg w p i (OK i j) /\ i <= j /\ j <= length w /\ sk w j = i + length s.

  Lemma clear_here w i s t : i <= length w -> skipn i w = s ++ t -> clear bl (s ++ t) ->
    i <= length w /\ sk w i = i.
  Proof. intros Hi E C. split; [exact Hi|]. eapply skip_none; eauto. Qed.

  Lemma seq_done_sk p q ts1 ts2 m1 m2 w i s t : DoneT p ts1 -> DoneT q ts2 -> Toks G q ts2 ->
    LL p -> LL q -> Cr p -> Cr q -> seq_ok (II p) (II q) -> wfb K rk L m1 p = true -> wfb K rk L m2 q = true ->
    i <= length w -> sk w i = i -> skipn i w = s ++ t -> Spr (ts1 ++ ts2) s -> clear bl t ->
    ~ ahead t (ex (iseq (II p) (II q))) ->
    exists j1 j2, Peg w p i (OK i j1) /\ i <= j1 /\ j1 <= length w /\
      Peg w q (sk w j1) (OK (sk w j1) j2) /\ sk w j1 <= j2 /\ j2 <= length w /\ sk w j2 = i + length s.
  Proof.
    intros D1 D2 TQ C1 C2 X1 X2 O W1 W2 Hi Hs E S CT N.
    destruct (spread_split bl ts1 ts2 s S (toks_solid q ts2 TQ C2 X2)) as (s1 & s2 & -> & S1 & S2 & CS).
    rewrite <- app_assoc in E. destruct (rest_at G K rk L KE WE w s1 (s2 ++ t) i Hi E) as [H1 H2].
    destruct (ahead_seq _ _ s2 t O (toks_begins q ts2 s2 TQ C2 S2 CS) N) as [A1 A2].
    pose proof (clear_app bl s2 t CS CT) as CST.
    destruct (D1 m1 C1 X1 W1 w i s1 (s2 ++ t) Hi Hs E S1 CST A1) as (j1 & P1 & J1 & J2 & J3).
    destruct (D2 m2 C2 X2 W2 w (i + length s1) s2 t H1 (skip_none bl w _ _ H2 CST) H2 S2 CT A2) as (j2 & P2 & J4 & J5 & J6).
    exists j1, j2. rewrite J3. rewrite app_length. repeat split; auto. lia.
  Qed.

  Lemma seq3_done_sk p q r ts1 ts2 ts3 m1 m2 m3 w i s t : DoneT p ts1 -> DoneT q ts2 -> DoneT r ts3 ->
    Toks G q ts2 -> Toks G r ts3 -> LL p -> LL q -> LL r -> Cr p -> Cr q -> Cr r ->
    seq_ok (II p) (iseq (II q) (II r)) -> seq_ok (II q) (II r) ->
    wfb K rk L m1 p = true -> wfb K rk L m2 q = true -> wfb K rk L m3 r = true ->
    i <= length w -> sk w i = i -> skipn i w = s ++ t -> Spr (ts1 ++ ts2 ++ ts3) s -> clear bl t ->
    ~ ahead t (ex (iseq (II p) (iseq (II q) (II r)))) ->
    exists j1 j2 j3, Peg w p i (OK i j1) /\ i <= j1 /\ j1 <= length w /\
      Peg w q (sk w j1) (OK (sk w j1) j2) /\ sk w j1 <= j2 /\ j2 <= length w /\
      Peg w r (sk w j2) (OK (sk w j2) j3) /\ sk w j2 <= j3 /\ j3 <= length w /\ sk w j3 = i + length s.
  Proof.
    intros D1 D2 D3 TQ TR C1 C2 C3 X1 X2 X3 O O' W1 W2 W3 Hi Hs E S CT N.
    pose proof (solid_app _ _ (toks_solid q ts2 TQ C2 X2) (toks_solid r ts3 TR C3 X3)) as SO.
    destruct (spread_split bl ts1 (ts2 ++ ts3) s S SO) as (s1 & s2 & -> & S1 & S2 & CS).
    assert (B : begins (iseq (II q) (II r)) s2).
    { eapply spread_begins; eauto. rewrite concat_app. apply begins_seq; apply (first_sound k G R RE); auto; now apply toks_lang. }
    rewrite <- app_assoc in E. destruct (rest_at G K rk L KE WE w s1 (s2 ++ t) i Hi E) as [H1 H2].
    destruct (ahead_seq _ _ s2 t O B N) as [A1 A2].
    pose proof (clear_app bl s2 t CS CT) as CST.
    destruct (D1 m1 C1 X1 W1 w i s1 (s2 ++ t) Hi Hs E S1 CST A1) as (j1 & P1 & J1 & J2 & J3).
    destruct (seq_done_sk q r ts2 ts3 m2 m3 w (i + length s1) s2 t D2 D3 TR C2 C3 X2 X3 O' W2 W3 H1 (skip_none bl w _ _ H2 CST) H2 S2 CT A2)
      as (j2 & j3 & P2 & J4 & J5 & P3 & J6 & J7 & J8).
    exists j1, j2, j3. rewrite J3. rewrite app_length. repeat split; auto. lia.
  Qed.

  Lemma titer_begins p n ts s : LL p -> nl (II p) = false -> TIter (fun s => DoneT p s /\ Toks G p s) n ts ->
    Spr ts s -> clear bl s -> n = 0 /\ s = [] \/ begins (II p) s /\ s <> [].
  Proof.
    intros C N H S CS. destruct H as [|n ts1 ts2 [_ A] _]; [left; split; [reflexivity|eapply spread_nothing; eauto]|right].
    apply toks_lang in A. apply (first_sound k G R RE) in A; [|exact C].
    assert (B : begins (II p) (concat (ts1 ++ ts2))).
    { rewrite concat_app. destruct (concat ts1); cbn in *; [congruence|exact A]. }
    pose proof (spread_begins bl _ _ _ S CS B) as B'. split; [exact B'|]. intros ->. cbn in B'. congruence.
  Qed.
  Lemma titer_solid p n ts : LL p -> Cr p -> TIter (fun s => DoneT p s /\ Toks G p s) n ts -> solid bl ts.
  Proof.
    intros C X H. apply (solid_iter n).
    exact (titer_map (fun s => DoneT p s /\ Toks G p s) (solid bl) (fun s a => toks_solid p s (proj2 a) C X) n ts H).
  Qed.

  Lemma loop_done_sk p m : LL p -> Cr p -> wfb K rk L m p = true -> loop_ok (II p) ->
    forall n ts, TIter (fun s => DoneT p s /\ Toks G p s) n ts ->
    forall w j0 i s t lim, j0 <= length w -> sk w j0 = i -> skipn i w = s ++ t -> Spr ts s -> clear bl t ->
    ~ ahead t (ex (II p)) -> ~ ahead t (fs (II p)) -> (forall l, lim = Some l -> n <= l) ->
    exists j, Reps k G sk w p lim j0 n j /\ j0 <= j /\ j <= length w /\ sk w j = i + length s.
  Proof.
    intros C X W [N O] n ts H. induction H as [|n ts1 ts2 [D LA] H IH]; intros w j0 i s t lim Hj Hs E S CT A1 A2 LM.
    - destruct (skipped (skip_run bl) (skip_run_skipper bl) w j0 Hj) as (G1 & G2 & G3). rewrite Hs in *.
      assert (CL : clear bl s).
      { pose proof (skipped_clear bl w i G2 G3) as Z. rewrite E in Z. destruct s; [intros []|exact Z]. }
      assert (s = []) as -> by (eapply spread_nothing; eauto). cbn [length]. rewrite Nat.add_0_r.
      exists j0. repeat split; auto. destruct lim as [[|l]|]; [apply Reps_lim| |].
      all: destruct (fails_sk m p w i C W G2 G3 N) as [e P]; [rewrite E; exact A2|];
        apply Reps_stop with (e := e); [discriminate|rewrite Hs; exact P].
    - destruct (skipped (skip_run bl) (skip_run_skipper bl) w j0 Hj) as (G1 & G2 & G3). rewrite Hs in *.
      destruct (spread_split bl ts1 ts2 s S (titer_solid p n ts2 C X H)) as (s1 & s2 & -> & S1 & S2 & CS).
      rewrite <- app_assoc in E. destruct (rest_at G K rk L KE WE w s1 (s2 ++ t) i G2 E) as [H1 H2].
      pose proof (clear_app bl s2 t CS CT) as CST.
      assert (LZ : lim <> Some 0) by (intros ->; specialize (LM 0 eq_refl); lia).
      destruct (D m C X W w i s1 (s2 ++ t) G2 G3 E S1 CST) as (j1 & P & J1 & J2 & J3).
      { destruct (titer_begins p n ts2 s2 C N H S2 CS) as [[_ ->]|[B Z]]; [exact A1|].
        destruct s2 as [|x s2]; [easy|]. cbn in *. intros Y. exact (O x Y B). }
      destruct (IH w j1 (i + length s1) s2 t (limit_pred lim) J2 J3 H2 S2 CT A1 A2) as (j2 & Q & J4 & J5 & J6).
      { intros l EL. destruct lim as [l'|]; [|discriminate EL]. cbn in EL. injection EL as <-. specialize (LM l' eq_refl). lia. }
      exists j2. rewrite app_length. repeat split; auto; [|lia|lia].
      apply Reps_step with (b := i) (j := j1); [exact LZ|rewrite Hs; exact P|exact Q].
  Qed.
  Lemma tsep_begins p d n ts s : LL p -> nl (II p) = false ->
    TSepIter (fun s => DoneT p s /\ Toks G p s) (fun s => DoneT d s /\ Toks G d s) n ts ->
    Spr ts s -> clear bl s -> n = 0 /\ s = [] \/ begins (II p) s /\ s <> [].
  Proof.
    intros C N H S CS.
    assert (ts = [] /\ n = 0 \/ begins (II p) (concat ts)) as [[-> ->]|B].
    { destruct H as [|ts1 [_ A]|n ts1 ts2 ts3 [_ A] _ _]; [now left|right|right].
      all: apply toks_lang in A; apply (first_sound k G R RE) in A; [|exact C]; [exact A||idtac].
      rewrite concat_app. destruct (concat ts1); cbn in *; [congruence|exact A]. }
    - left. split; [reflexivity|eapply spread_nothing; eauto].
    - right. pose proof (spread_begins bl _ _ _ S CS B) as B'. split; [exact B'|]. intros ->. cbn in B'. congruence.
  Qed.
  Lemma tsep_solid p d n ts : LL p -> Cr p -> LL d -> Cr d ->
    TSepIter (fun s => DoneT p s /\ Toks G p s) (fun s => DoneT d s /\ Toks G d s) n ts -> solid bl ts.
  Proof.
    intros C X C' X' H. apply (solid_sepiter n).
    exact (tsepiter_map (fun s => DoneT p s /\ Toks G p s) (solid bl) (fun s a => toks_solid p s (proj2 a) C X)
      (fun s => DoneT d s /\ Toks G d s) (solid bl) (fun s a => toks_solid d s (proj2 a) C' X') n ts H).
  Qed.

  Lemma sep_done_sk p d m m' : LL p -> LL d -> Cr p -> Cr d -> wfb K rk L m p = true -> wfb K rk L m' d = true ->
    sep_ok (II p) (II d) ->
    forall n ts, TSepIter (fun s => DoneT p s /\ Toks G p s) (fun s => DoneT d s /\ Toks G d s) n ts ->
    forall w j0 i s t lim, j0 <= length w -> sk w j0 = i -> skipn i w = s ++ t -> Spr ts s -> clear bl t ->
    ~ ahead t (ex (II p)) -> ~ ahead t (fs (II p)) -> ~ ahead t (ex (II d)) -> ~ ahead t (fs (II d)) ->
    (forall l, lim = Some l -> n <= l) ->
    exists j, Seps k G sk w p d lim j0 n j /\ j0 <= j /\ j <= length w /\ sk w j = i + length s.
  Proof.
    intros C C' X X' W W' (N & N' & O & O') n ts H.
    induction H as [|ts1 [D LA]|n ts1 ts2 ts3 [D LA] [D' LB] H IH]; intros w j0 i s t lim Hj Hs E S CT A1 A2 A3 A4 LM.
    all: destruct (skipped (skip_run bl) (skip_run_skipper bl) w j0 Hj) as (G1 & G2 & G3); rewrite Hs in *.
    - assert (CL : clear bl s).
      { pose proof (skipped_clear bl w i G2 G3) as Z. rewrite E in Z. destruct s; [intros []|exact Z]. }
      assert (s = []) as -> by (eapply spread_nothing; eauto). cbn [length]. rewrite Nat.add_0_r.
      exists j0. repeat split; auto. destruct lim as [[|l]|]; [apply Seps_lim| |].
      all: destruct (fails_sk m p w i C W G2 G3 N) as [e P]; [rewrite E; exact A2|];
        apply Seps_stop with (e := e); [discriminate|rewrite Hs; exact P].
    - destruct (rest_at G K rk L KE WE w s t i G2 E) as [H1 H2].
      destruct (D m C X W w i s t G2 G3 E S CT A1) as (j1 & P & J1 & J2 & J3).
      destruct (fails_sk m' d w (i + length s) C' W' H1 (skip_none bl w _ _ H2 CT) N') as [e Q]; [rewrite H2; exact A4|].
      exists j1. repeat split; auto; [|lia].
      apply Seps_last with (b := i) (e := e); [intros ->; specialize (LM 0 eq_refl); lia|rewrite Hs; exact P|rewrite J3; exact Q].
    - pose proof (toks_solid d ts2 LB C' X') as SD. pose proof (tsep_solid p d n ts3 C X C' X' H) as SP.
      destruct (spread_split bl ts1 (ts2 ++ ts3) s S (solid_app _ _ SD SP)) as (s1 & s23 & -> & S1 & S23 & CS23).
      destruct (spread_split bl ts2 ts3 s23 S23 SP) as (s2 & s3 & -> & S2 & S3 & CS3).
      assert (CS2 : clear bl s2) by (destruct s2; [intros []|exact CS23]).
      rewrite <- !app_assoc in E.
      destruct (rest_at G K rk L KE WE w s1 (s2 ++ s3 ++ t) i G2 E) as [H1 H2].
      destruct (rest_at G K rk L KE WE w s2 (s3 ++ t) _ H1 H2) as [H3 H4].
      pose proof (clear_app bl s3 t CS3 CT) as CT3. pose proof (clear_app bl s2 (s3 ++ t) CS2 CT3) as CT2.
      assert (LZ : lim <> Some 0) by (intros ->; specialize (LM 0 eq_refl); lia).
      pose proof (toks_begins d ts2 s2 LB C' S2 CS2) as BU.
      destruct (D m C X W w i s1 (s2 ++ s3 ++ t) G2 G3 E S1 CT2) as (j1 & P & J1 & J2 & J3).
      { destruct s2 as [|x s2]; cbn in *; [congruence|]. intros Y. exact (O x Y BU). }
      destruct (D' m' C' X' W' w (i + length s1) s2 (s3 ++ t) H1 (skip_none bl w _ _ H2 CT2) H2 S2 CT3) as (j2 & P2 & J4 & J5 & J6).
      { destruct (tsep_begins p d n ts3 s3 C N H S3 CS3) as [[_ ->]|[B Z]]; [exact A3|].
        destruct s3 as [|x s3]; [easy|]. cbn in *. intros Y. exact (O' x Y B). }
      destruct (IH w j2 (i + length s1 + length s2) s3 t (limit_pred lim) J5 J6 H4 S3 CT A1 A2 A3 A4) as (j3 & Q & J7 & J8 & J9).
      { intros l EL. destruct lim as [l'|]; [|discriminate EL]. cbn in EL. injection EL as <-. specialize (LM l' eq_refl). lia. }
      pose proof (proj1 (skipped (skip_run bl) (skip_run_skipper bl) w j1 J2)).
      exists j3. rewrite !app_length. repeat split; auto; [|lia|lia].
      apply Seps_step with (b := i) (j := j1) (b' := i + length s1) (j' := j2);
        [exact LZ|rewrite Hs; exact P|rewrite J3; exact P2|exact Q].
  Qed.

  Lemma choice_done_sk e ps p ts m : LL (PChoice e false ps) -> Cr (PChoice e false ps) ->
    forallb (wfb K rk L m) ps = true -> In p ps -> Toks G p ts -> DoneT p ts ->
    forall w i s t, i <= length w -> sk w i = i -> skipn i w = s ++ t -> Spr ts s -> clear bl t ->
    ~ ahead t (ex (II (PChoice e false ps))) ->
    exists j, First k G sk w ps i e (OK i j) /\ i <= j /\ j <= length w /\ sk w j = i + length s.
  Proof.
    intros C X W J LA D w i s t Hi Hs E S CT N. induction ps as [|q r IH]; [destruct J|].
    rewrite choice_cons in N. cbn [forallb] in W. apply andb_prop in W. destruct W as [W1 W2].
    destruct C as (_ & C1 & C2 & C3). destruct X as [X1 X2].
    destruct J as [->|J].
    - destruct (D m C1 X1 W1 w i s t Hi Hs E S CT) as (j & P & J1 & J2 & J3); [now apply ahead_alt_l in N|].
      exists j. repeat split; auto. now apply First_hit.
    - assert (CR : LL (PChoice e false r)) by exact (conj eq_refl C3).
      destruct (choice_all _ _ _ _ _ CR) as [_ F]. rewrite Forall_forall in F.
      assert (CL : clear bl s).
      { pose proof (skipped_clear bl w i Hi Hs) as Z. rewrite E in Z. destruct s; [intros []|exact Z]. }
      assert (B : begins (II (PChoice EFail false r)) s) by (eapply begins_choice; eauto; eapply toks_begins; eauto).
      destruct (ahead_alt_r _ _ s t C2 B N) as [A1 A2].
      destruct (fails_sk m q w i C1 W1 Hi Hs (proj1 C2)) as [e' P]; [rewrite E; exact A1|].
      destruct (IH CR X2 W2 J A2) as (j & Q & J1). exists j. split; [|exact J1]. now apply First_next with (e' := e').
  Qed.

  (** ** One token *)
  Lemma run_transfer w i u lim m r : Run k G no_skip w i u CEmpty lim m r -> Run k G sk w i u CEmpty lim m r.
  Proof.
    assert (A : forall w i u m r, Acc k G no_skip w i u CEmpty m r -> Acc k G sk w i u CEmpty m r).
    { intros w' i' u' m' r' H. inversion H; subst; try (econstructor; eauto; fail).
      match goal with Z : Chk _ _ _ _ _ _ _ _ _ |- _ => inversion Z; subst end. eapply Acc_yes; eauto. constructor. }
    intros H. remember CEmpty as c eqn:Ec. induction H; subst; try (econstructor; eauto; fail).
  Qed.
  Lemma token_transfer p w i o : token p = true -> LL p -> Spec.Peg k G no_skip w p i o -> Peg w p i o.
  Proof.
    assert (A : forall w i u m r, Acc k G no_skip w i u CEmpty m r -> Acc k G sk w i u CEmpty m r).
    { intros w' i' u' m' r' H. inversion H; subst; try (econstructor; eauto; fail).
      match goal with Z : Chk _ _ _ _ _ _ _ _ _ |- _ => inversion Z; subst end. eapply Acc_yes; eauto. constructor. }
    intros K0 C H. destruct p; try discriminate K0; try (destruct C; fail); cbn [ll1] in C;
      repeat match goal with Z : _ /\ _ |- _ => destruct Z end; subst; inversion H; subst;
      try (econstructor; eauto using run_transfer; fail).
  Qed.

  Lemma token_ex p : token p = true -> LL p -> Cr p -> disj (ex (II p)) (of bl).
  Proof.
    intros K0 C X. destruct p; try discriminate K0; try (destruct C; fail); cbn [crisp info_of ex] in *;
      intros x A B; try (destruct A; fail); try (exact (X x A B)). exact (X x (proj1 A) B).
  Qed.
  Lemma token_done p tok : token p = true -> Lang G p tok -> DoneT p [tok].
  Proof.
    intros K0 H m C X W w i s t Hi Hs E S CT N.
    assert (CL : clear bl s).
    { pose proof (skipped_clear bl w i Hi Hs) as Z. rewrite E in Z. destruct s; [intros []|exact Z]. }
    inversion S as [|b tk ts b' Hb S']; subst. inversion S'; subst.
    assert (b = []) as -> by (eapply blank_clear; eauto). cbn [app] in *. rewrite <- app_assoc in E.
    destruct (rest_at G K rk L KE WE w tok (b' ++ t) i Hi E) as [H1 H2].
    exists (i + length tok). split; [|split; [lia|split; [exact H1|]]].
    - apply token_transfer; auto. apply (complete k G R RE K rk L KE WE p tok H m C W w i (b' ++ t)); auto.
      destruct b' as [|x b']; [exact N|]. cbn. intros A. apply (token_ex p K0 C X x A).
      match goal with Z : blank bl (x :: b') |- _ => apply Z; now left end.
    - rewrite app_length, Nat.add_assoc. now apply (skip_over bl w _ b' t).
  Qed.

  Lemma complete_sk : forall p ts, Toks G p ts -> DoneT p ts.
  Proof.
    fix F 3. intros p ts H.
    destruct H.
    all: repeat match goal with X : Toks G ?p ?s |- _ =>
      lazymatch goal with D : DoneT p s |- _ => fail | _ => pose proof (F p s X) end end.
    all: try match goal with X : TIter (Toks G ?p) ?n ?s |- _ =>
      pose proof (titer_map (Toks G p) (fun s => DoneT p s /\ Toks G p s) (fun s a => conj (F p s a) a) n s X) end.
    all: try match goal with X : TSepIter (Toks G ?p) (Toks G ?d) ?n ?s |- _ =>
      pose proof (tsepiter_map (Toks G p) (fun s => DoneT p s /\ Toks G p s) (fun s a => conj (F p s a) a)
         (Toks G d) (fun s => DoneT d s /\ Toks G d s) (fun s a => conj (F d s a) a) n s X) end.
    all: clear F.
    1: now apply token_done.
    all: intros m' C Cp W w a str rest Hi Hs E Sp CT N.
    all: try (destruct C; fail).
    all: assert (CL : clear bl str) by
      (pose proof (skipped_clear bl w a Hi Hs) as Z; rewrite E in Z; destruct str; [intros []|exact Z]).
    all: pose proof C as C0; pose proof Cp as Cp0; cbn [ll1 info_of wfb crisp] in C, Cp, N, W.
    all: repeat match goal with X : _ && _ = true |- _ => apply andb_prop in X; destruct X end.
    - assert (str = []) as -> by (eapply spread_nothing; eauto).
      exists a. cbn [length]. rewrite Nat.add_0_r. repeat split; auto. apply Peg_empty.
    - edestruct H0 as (j & P & J); eauto. exists j. split; [now apply Peg_leaf|exact J].
    - destruct C as (C1 & C2 & C3). destruct Cp as (X1 & X2).
      edestruct (seq_done_sk p q s t) as (j1 & j2 & P1 & J1 & J2 & P2 & J3 & J4 & J5); eauto.
      exists j2. pose proof (proj1 (skipped (skip_run bl) (skip_run_skipper bl) w j1 J2)).
      split; [eapply Peg_then; eauto|]. repeat split; auto; lia.
    - destruct C as (C1 & C2 & C3 & C4 & C5 & C6). destruct Cp as (X1 & X2 & X3).
      destruct (rest_at G K rk L KE WE w str rest a Hi E) as [G1 G2].
      assert (A1 : ~ ahead rest (ex (II p))) by (intros X; apply N; destruct rest; [exact X|]; cbn in *; auto).
      assert (A2 : ~ ahead rest (fs (II t))) by (intros X; apply N; destruct rest; [exact X|]; cbn in *; auto).
      destruct (H0 m' C1 X1 ltac:(assumption) w a str rest Hi Hs E Sp CT A1) as (j & P & J1 & J2 & J3).
      assert (exists e, Peg w t (a + length str) (KO e)) as [e Q]
        by (eapply fails_sk; eauto; [eapply skip_none; eauto|rewrite G2; exact A2]).
      exists j. split; [|auto]. eapply Peg_ifthen_no; [exact P|]. rewrite J3. exact Q.
    - destruct C as (C1 & C2 & C3 & C4 & C5 & C6). destruct Cp as (X1 & X2 & X3).
      assert (A1 : ~ ahead rest (ex (iseq (II p) (iseq (II t) (II q))))).
      { intros X. apply N. destruct rest; [exact X|]. cbn in *. rewrite C4 in X. cbn in X. intuition discriminate. }
      assert (A2 : seq_ok (II p) (iseq (II t) (II q))).
      { intros x X [Y|[Y _]]; [exact (C5 x X Y)|congruence]. }
      edestruct (seq3_done_sk p t q s s' s'') as (j1 & j2 & j3 & P1 & J1 & J2 & P2 & J3 & J4 & P3 & J5 & J6 & J7); eauto.
      pose proof (proj1 (skipped (skip_run bl) (skip_run_skipper bl) w j1 J2)).
      pose proof (proj1 (skipped (skip_run bl) (skip_run_skipper bl) w j2 J4)).
      exists j3. split; [eapply Peg_ifthen_yes; eauto|]. repeat split; auto; lia.
    - destruct C as (C1 & C2 & C3). destruct Cp as (X1 & X2).
      edestruct H0 as (j & P & J); eauto; [eapply ahead_alt_l; eauto|]. exists j. split; [now apply Peg_or1|exact J].
    - destruct C as (C1 & C2 & C3). destruct Cp as (X1 & X2).
      destruct (ahead_alt_r _ _ str rest C3 ltac:(eapply toks_begins; eauto) N) as [A1 A2].
      destruct (fails_sk m' p w a C1 ltac:(assumption) Hi Hs (proj1 C3)) as [e P]; [rewrite E; exact A1|].
      edestruct H0 as (j & Q & J); eauto. exists j. split; [eapply Peg_or2; eauto|exact J].
    - edestruct H0 as (j & P & J); eauto. exists j. split; [now apply Peg_pat|exact J].
    - destruct C as (C1 & C2 & C3). destruct Cp as (X1 & X2).
      edestruct (seq_done_sk pre p s t) as (j1 & j2 & P1 & J1 & J2 & P2 & J3 & J4 & J5); eauto.
      exists j2. pose proof (proj1 (skipped (skip_run bl) (skip_run_skipper bl) w j1 J2)).
      split; [eapply Peg_prefix; eauto|]. repeat split; auto; lia.
    - destruct C as (C1 & C2 & C3). destruct Cp as (X1 & X2).
      edestruct (seq_done_sk p suf s t) as (j1 & j2 & P1 & J1 & J2 & P2 & J3 & J4 & J5); eauto.
      exists j2. pose proof (proj1 (skipped (skip_run bl) (skip_run_skipper bl) w j1 J2)).
      split; [eapply Peg_suffix; eauto|]. repeat split; auto; lia.
    - destruct C as (C1 & C2 & C3 & C4 & C5). destruct Cp as (X1 & X2 & X3).
      edestruct (seq3_done_sk o p c s t u) as (j1 & j2 & j3 & P1 & J1 & J2 & P2 & J3 & J4 & P3 & J5 & J6 & J7); eauto.
      pose proof (proj1 (skipped (skip_run bl) (skip_run_skipper bl) w j1 J2)).
      pose proof (proj1 (skipped (skip_run bl) (skip_run_skipper bl) w j2 J4)).
      exists j3. split; [eapply Peg_enclose; eauto|]. repeat split; auto; lia.
    - destruct C as (C1 & C2 & C3 & C4 & C5). destruct Cp as (X1 & X2 & X3).
      edestruct (seq3_done_sk p m q s t u) as (j1 & j2 & j3 & P1 & J1 & J2 & P2 & J3 & J4 & P3 & J5 & J6 & J7); eauto.
      pose proof (proj1 (skipped (skip_run bl) (skip_run_skipper bl) w j1 J2)).
      pose proof (proj1 (skipped (skip_run bl) (skip_run_skipper bl) w j2 J4)).
      exists j3. split; [eapply Peg_seponce; eauto|]. repeat split; auto; lia.
    - destruct C as (_ & C1 & C2 & C3). destruct Cp as (X1 & X2).
      apply ahead_or in N. destruct N as [A1 N]. apply ahead_or in N. destruct N as [A2 N].
      apply ahead_or in N. destruct N as [A3 A4].
      edestruct (sep_done_sk p d) with (lim := @None nat) as (j & P & J); eauto; [discriminate|].
      exists j. split; [eapply Peg_sep; eauto|exact J].
    - destruct C as (_ & C1 & C2 & C3). destruct Cp as (X1 & X2).
      apply ahead_or in N. destruct N as [A1 N]. apply ahead_or in N. destruct N as [A2 N].
      apply ahead_or in N. destruct N as [A3 A4].
      edestruct (sep_done_sk p d) with (lim := @None nat) as (j & P & J); eauto; [discriminate|].
      exists j. split; [eapply Peg_sepcollect; eauto|exact J].
    - destruct C as (_ & C1 & C2 & C3). destruct Cp as (X1 & X2).
      apply ahead_or in N. destruct N as [A1 N]. apply ahead_or in N. destruct N as [A2 N].
      apply ahead_or in N. destruct N as [A3 A4].
      edestruct (sep_done_sk p d) with (lim := Some (S l)) as (j & P & J); eauto; [now intros ? [= <-]|].
      exists j. split; [eapply Peg_sep2; eauto|exact J].
    - destruct C as (C1 & C2). apply ahead_or in N. destruct N as [A1 A2].
      edestruct (loop_done_sk p) with (lim := limit_of r) as (j & P & J); eauto; [intros l'; now apply (cap_le G K rk L KE WE)|].
      exists j. split; [|exact J]. eapply (Peg_repeat k G sk w p r a n); [exact P|apply contains_in; assumption].
    - destruct C as (C1 & C2). apply ahead_or in N. destruct N as [A1 A2].
      edestruct (loop_done_sk p) with (lim := Some (S l)) as (j & P & J); eauto; [intros ? [= <-]; lia|].
      exists j. split; [eapply Peg_repeat2; eauto|exact J].
    - destruct C as (C1 & C2). apply ahead_or in N. destruct N as [A1 A2].
      edestruct (loop_done_sk p) with (lim := @None nat) as (j & P & J); eauto; [discriminate|].
      exists j. split; [eapply Peg_collect; eauto|exact J].
    - apply ahead_or in N. destruct N as [A1 A2].
      edestruct H0 as (j & P & J); eauto. exists j. split; [now apply Peg_option|exact J].
    - apply ahead_or in N. destruct N as [A1 A2].
      assert (str = []) as -> by (eapply spread_nothing; eauto).
      exists a. cbn [length]. rewrite Nat.add_0_r. split; [|auto].
      assert (Peg w p a (OK a a) /\ nl (II p) = true \/ exists e, Peg w p a (KO e)) as [[P _]|[e P]] by (eapply idle_sk; eauto; rewrite E; exact A2).
      + now apply Peg_option.
      + eapply Peg_option_none; eauto.
    - edestruct H0 as (j & P & J); eauto. exists j. split; [now apply Peg_map|exact J].
    - destruct (choice_all _ _ _ _ _ C0) as [-> F].
      edestruct choice_done_sk as (j & P & J); eauto. exists j. split; [now apply Peg_choice|exact J].
    - edestruct H0 as (j & P & J); eauto. exists j. split; [now apply Peg_wrap|exact J].
    - destruct (RE i) as [_ Q]. destruct (Q p ltac:(assumption)) as (C1 & _ & _ & C2).
      edestruct H1 as (j & P & J); eauto.
      { intros X. apply N. destruct rest; [exact X|]. cbn in *. now apply C2. }
      exists j. split; [eapply Peg_ref; eauto|exact J].
  Qed.
End Proofs.

Lemma tokens_peg bl k G R p w ts : one_ahead k G R p -> crisp_env bl G -> crisp bl p ->
  Toks G p ts -> Spread (blank bl) ts w ->
  exists j, Peg k G (skip_run bl) w p (skip_run bl w 0) (OK (skip_run bl w 0) j) /\ j <= length w /\ skip_run bl w j = length w.
Proof.
  intros (RE & C & K & rk & L & m & KE & WE & W) XE X H S.
  destruct (spread_trim bl ts w S (toks_solid bl k G R RE XE p ts H C X)) as (b & s & -> & Hb & Hs & CL).
  assert (E0 : skip_run bl (b ++ s) 0 = length b) by (now apply (skip_over bl (b ++ s) 0 b s)).
  assert (E1 : skipn (length b) (b ++ s) = s) by (rewrite skipn_app, skipn_all, Nat.sub_diag; reflexivity).
  rewrite E0.
  destruct (complete_sk bl k G R RE XE K rk L KE WE p ts H m C X W (b ++ s) (length b) s []) as (j & P & J1 & J2 & J3);
    auto; try (intros []; fail).
  - rewrite app_length. lia.
  - eapply skip_none; eauto.
  - now rewrite app_nil_r.
  - exists j. split; [exact P|]. split; [exact J2|]. now rewrite J3, app_length.
Qed.
Lemma tokens_answers bl k G R p w : one_ahead k G R p -> exists o, Peg k G (skip_run bl) w p (skip_run bl w 0) o.
Proof.
  intros (RE & C & K & rk & L & m & KE & WE & W).
  destruct (skipped (skip_run bl) (skip_run_skipper bl) w 0 (Nat.le_0_l _)) as (H1 & H2 & H3).
  exact (answers_sk bl k G R RE K rk L KE WE m p w _ C W H2 H3).
Qed.
Lemma tokens_core bl k G R p : one_ahead k G R p -> core_env k G (skip_run bl) /\ core k G (skip_run bl) p.
Proof. intros (RE & C & _). split; [eapply ll1_core_env_sk; eauto|eapply ll1_core_sk; eauto]. Qed.
