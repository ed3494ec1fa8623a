(** Building on a context that skips blanks, and the value of a list of tokens: what is built is the
    value of the tokens that were read; and where one item of lookahead decides and no token begins
    with a blank, the value of every list of tokens is built, however it is laid out. *)

From Coq Require Import List Arith NArith Bool Lia.
From Verif Require Import Base Text Context Neu Syntax Regex Ctor Api TextProofs Spec Core Sound Complete Obs Laws
  ApiLaws Consumes Term TermLaws PolicyLaws UnitProps CtorShape CtorSpec CtorLaws ConSpec ConSound ConComplete ConTerm
  Lang Ll1 Meaning MeanLaws Tokens TokensLl1 TokMean.
Import ListNotations.

Section TokMeanLaws.
  Variable bl : neu.
  Variable k : kind.
  Variable G : env.
  Variable R : nat -> info.
  Variable lv : text -> val.
  Context {ST : Type}.
  Hypothesis RE : ll1_env R k G.
  Hypothesis FE : tfed_env G lv R.
  Notation sk := (skip_run bl).
  Notation II := (info_of R).
  Notation LL := (ll1 R k).
  Notation Cr := (crisp bl).
  Notation Spr := (Spread (blank bl)).
  Notation FD := (tfed G lv R).
  Notation MM := (TMean G lv).
  Notation TT := (Toks G).
  Notation tell := (@tells lv ST).
  Notation Con := (Con k G sk tell).
  Notation Peg := (Peg k G sk).
  Let SK : skipper sk := skip_run_skipper bl.
  Let CEn : core_env k G sk := ll1_core_env_sk bl k G R RE.
  Let SE : static_env G := ll1_static_env k G R RE.
  Let LC := ll1_core_sk bl k G R.

  Fixpoint tfed_con_ok p : LL p -> FD p -> con_ok k G sk p.
  Proof.
    destruct p; intros C F; try (destruct F; fail); pose proof (LC _ C) as CO; cbn [ll1 tfed] in C, F;
      try (apply ok_leaf; [exact I|exact CO]);
      repeat match goal with H : _ /\ _ |- _ => destruct H end; subst;
      try (constructor; auto; try (now apply LC); fail).
    apply ok_choice; [|discriminate]. clear CO.
    induction ps as [|q r IH]; [intros ? []|]. intros x [<-|I]; [apply tfed_con_ok; tauto|apply IH; tauto].
  Qed.
  Lemma tfed_ok_env : con_ok_env k G sk.
  Proof. intros i p E. apply tfed_con_ok; [now apply (proj2 (RE i))|now apply (FE i)]. Qed.

  (** ** What is built is the value of the tokens that were read *)
  Lemma run_back w i u lim m r : Run k G sk w i u CEmpty lim m r -> Run k G no_skip w i u CEmpty lim m r.
  Proof.
    assert (A : forall w i u m r, Acc k G sk w i u CEmpty m r -> Acc k G no_skip w i u CEmpty m r).
    { intros w' i' u' m' r' H. inversion H; subst; try (econstructor; eauto; fail).
      match goal with Z : Chk _ _ _ _ _ _ _ _ _ |- _ => inversion Z; subst end. eapply Acc_yes; eauto. constructor. }
    intros H. remember CEmpty as c eqn:Ec. induction H; subst; try (econstructor; eauto; fail).
  Qed.
  Lemma token_back p w i o : token p = true -> LL p -> Peg w p i o -> Spec.Peg k G no_skip w p i o.
  Proof.
    assert (A : forall w i u m r, Acc k G sk w i u CEmpty m r -> Acc k G no_skip w i u CEmpty m r).
    { intros w' i' u' m' r' H. inversion H; subst; try (econstructor; eauto; fail).
      match goal with Z : Chk _ _ _ _ _ _ _ _ _ |- _ => inversion Z; subst end. eapply Acc_yes; eauto. constructor. }
    intros K0 C H. destruct p; try discriminate K0; try (destruct C; fail); cbn [ll1] in C;
      repeat match goal with Z : _ /\ _ |- _ => destruct Z end; subst; inversion H; subst;
      try (econstructor; eauto using run_back; fail).
  Qed.
  Lemma token_word p w i b j : token p = true -> LL p -> i <= length w -> Peg w p i (OK b j) ->
    b = i /\ i <= j /\ j <= length w /\ TT p [slice w i j].
  Proof.
    intros T C Hi P. apply token_back in P; auto.
    destruct (proj1 (lang_all k G (ll1_core_env k G R RE) SE) w p i _ P (ll1_core k G R p C) (ll1_static k R p C) Hi) as (-> & H1 & H2 & H3).
    repeat split; auto. now apply T_token.
  Qed.
  Lemma sk_at w i : i <= length w -> i <= sk w i /\ sk w i <= length w /\ sk w (sk w i) = sk w i.
  Proof. apply (skipped sk SK). Qed.
  Lemma mat_toks w p i b j : Peg w p (sk w i) (OK b j) -> LL p -> i <= length w ->
    i <= j /\ j <= length w /\ exists ts, TT p ts /\ Spr ts (slice w i j).
  Proof.
    intros P C Hi. destruct (sk_at w i Hi) as (H1 & H2 & H3).
    destruct (sound_sk bl k G R RE p w _ b j C H2 H3 P) as (-> & H4 & H5 & ts & T & S).
    repeat split; auto; [lia|]. exists ts. split; [exact T|].
    apply (spread_lead (blank bl) (blank_app bl) sk SK (skip_run_blank bl)); auto.
  Qed.
  Lemma spread_join w i j j' ts ts' : i <= j -> j <= j' -> j' <= length w ->
    Spr ts (slice w i j) -> Spr ts' (slice w j j') -> Spr (ts ++ ts') (slice w i j').
  Proof. intros. rewrite <- (slice_app w i j j') by lia. apply spread_app; auto. apply blank_app. Qed.
  Lemma spread_token w i j : i <= length w -> sk w i <= j -> Spr [slice w (sk w i) j] (slice w i j).
  Proof.
    intros Hi H. apply (spread_lead (blank bl) (blank_app bl) sk SK (skip_run_blank bl)); auto.
    apply spread_one. apply blank_nil.
  Qed.

  Definition tmeant (w : text) (p : pat) (i : nat) (st : ST) (o : cout ST) : Prop :=
    match o with
    | CV v j st' => i <= j /\ j <= length w /\ (exists ts, MM p ts v /\ Spr ts (slice w i j)) /\ st' = st
    | CE _ j st' => j = i /\ st' = st
    | CP => False
    end.

  Lemma leaf_meant w p i b j st : leafy p -> LL p -> FD p -> i <= length w -> Peg w p (sk w i) (OK b j) ->
    tmeant w p i st (settle j (tell w b j st)).
  Proof.
    intros LF C F Hi P. destruct (sk_at w i Hi) as (H1 & H2 & H3). cbn.
    assert (X : grain p = true /\ b = sk w i /\ sk w i <= j /\ j <= length w /\ TT p [slice w (sk w i) j]).
    { destruct p; try (destruct LF; fail); try (destruct F; fail).
      all: try (split; [reflexivity|]; apply token_word; auto; reflexivity).
      cbn [tfed grain ll1] in *. inversion P; subst. destruct (token_word p w (sk w i) b j F C H2 ltac:(assumption)) as (? & ? & ? & ?).
      repeat split; auto. now apply T_leaf. }
    destruct X as (GR & -> & X1 & X2 & X3). split; [lia|]. split; [auto|]. split; [|reflexivity].
    eexists. split; [now apply TM_leaf|]. now apply spread_token.
  Qed.

  Ltac fwd := repeat match goal with
    | H : _ /\ _ |- _ => destruct H
    | H : exists _, _ |- _ => destruct H
    | H : False |- _ => destruct H
    | H : ?x = ?y :> nat |- _ => first [is_var x; subst x | is_var y; subst y]
    | H : ?x = ?y :> ST |- _ => first [is_var x; subst x | is_var y; subst y]
    | H : ?x = ?x -> _ |- _ => specialize (H eq_refl)
    | IH : ll1 R k ?p -> tfed G lv R ?p -> ?i <= length ?w -> _, A : ll1 R k ?p, B : tfed G lv R ?p, D : ?i <= length ?w |- _ =>
        specialize (IH A B D)
    | IH : ll1 R k ?p -> ll1 R k ?d -> tfed G lv R ?p -> ?i <= length ?w -> _, A : ll1 R k ?p, A' : ll1 R k ?d, B : tfed G lv R ?p, D : ?i <= length ?w |- _ =>
        specialize (IH A A' B D)
    | H : Spec.Peg _ _ _ ?w ?p (skip_run _ ?w ?i) (OK _ _), A : ll1 R k ?p, D : ?i <= length ?w |- _ =>
        apply mat_toks in H; [|exact A|exact D]
    end.
  Ltac fin := split; [lia|]; split; [lia|]; split; [|reflexivity].

  Lemma con_tmean :
    (forall w p i st o, Con w p i st o -> LL p -> FD p -> i <= length w -> tmeant w p i st o) /\
    (forall w p lim i st l, Creps k G sk tell w p lim i st l -> LL p -> FD p -> i <= length w ->
       match l with
       | LV vs j st' => i <= j /\ j <= length w /\ (exists ts, TVals (MM p) vs ts /\ Spr ts (slice w i j)) /\ st' = st
       | LP => False
       end) /\
    (forall w p d (skip : bool) lim i st l, Cseps k G sk tell w p d skip lim i st l -> skip = true -> LL p -> LL d -> FD p -> i <= length w ->
       match l with
       | LV vs j st' => i <= j /\ j <= length w /\ (exists ts, TSepVals (MM p) (TT d) vs ts /\ Spr ts (slice w i j)) /\ st' = st
       | LP => False
       end) /\
    (forall w p q skip en i st l, Cpolls k G sk tell w p q skip en i st l -> True) /\
    (forall w e ps i st o, Cfirst k G sk tell w e ps i st o -> forall qs, ps = plain qs -> Forall LL qs -> Forall FD qs -> i <= length w ->
       match o with
       | CV v j st' => i <= j /\ j <= length w /\ (exists p ts, In p qs /\ MM p ts v /\ Spr ts (slice w i j)) /\ st' = st
       | CE _ j st' => j = i /\ st' = st
       | CP => False
       end) /\
    (forall w e ps i best en cur st o, Clongest k G sk tell w e ps i best en cur st o -> True).
  Proof.
    apply Con_mutind; unfold tmeant; intros; auto.
    { (* leaf *) now apply leaf_meant. }
    { (* pat *) cbn [ll1 tfed] in *. cbn. destruct (sk_at w i ltac:(assumption)) as (? & ? & ?).
      destruct (token_word p w (sk w i) b j ltac:(assumption) ltac:(assumption) ltac:(assumption) ltac:(assumption)) as (-> & ? & ? & ?).
      fin. eexists. split; [now apply TM_pat|]. now apply spread_token. }
    all: cbn [ll1 tfed] in *; repeat match goal with H : _ /\ _ |- _ => destruct H end.
    all: try contradiction.
    all: subst; fwd; cbn [settle tells undo stops lcons] in *.
    all: repeat match goal with
      | |- context [undo _ ?o] => is_var o; destruct o
      | H : stops ?o |- _ => is_var o; destruct o
      | l : lout ST |- _ => destruct l
      end; cbn [undo stops lcons count_ok settle] in *; fwd; try contradiction; auto.
    all: try solve [fin; eexists; split; [first [apply TM_or_r; eassumption|econstructor; eauto; fail]|]; first
      [ eassumption
      | rewrite slice_nil; apply spread_nil; apply blank_nil
      | eapply spread_join; [| | |eassumption|eassumption]; lia
      | eapply spread_join; [| | |eassumption|eapply spread_join; [| | |eassumption|eassumption]]; lia ]].
    - (* sep *) destruct (_ <=? _) eqn:E; [|now split]. apply Nat.leb_le in E. fin. eexists. split; [now apply TM_sep; eauto|eassumption].
    - destruct (crange_contains _ _) eqn:E; [|now split]. apply contains_in in E. fin. eexists. split; [now apply TM_repeat; eauto|eassumption].
    - destruct (_ <=? _) eqn:E; [|now split]. apply Nat.leb_le in E. fin. eexists. split; [now apply TM_collect; eauto|eassumption].
    - (* map *) match goal with T : forall s v, MM p s v -> _, X : MM p _ v |- _ => destruct (T _ _ X) as [u E] end.
      rewrite E. fin. eexists. split; [eapply TM_map; eauto|eassumption].
    - (* choice *) assert (A : Forall LL ps) by (apply (choice_all k R e false); split; assumption).
      assert (B : Forall FD ps) by (apply (tfed_choice G lv R e false); assumption).
      match goal with IH : forall qs, plain ps = plain qs -> _ |- _ => specialize (IH ps eq_refl A B ltac:(assumption)) end.
      destruct o; auto. fwd. fin. eexists. split; [eapply TM_choice; eauto|eassumption].
    - discriminate.
    - destruct o; auto. fwd. fin. eexists. split; [eapply TM_wrap; eauto|eassumption].
    - (* handle *) match goal with E : env_get G x = Some p |- _ => pose proof (proj1 (proj2 (RE x) p E)); pose proof (FE x p E) end.
      fwd. destruct o; auto. fwd. fin. eexists. split; [eapply TM_ref; eauto|eassumption].
    - (* alternatives *) destruct qs as [|q qs]; [discriminate|]. cbn in *. injection H1 as -> -> ->.
      inversion H2; inversion H3; subst. fwd. fin. exists q. eexists. eauto.
    - destruct qs as [|q qs]; [discriminate|]. cbn in *. injection H1 as -> -> ->.
      inversion H2; inversion H3; subst. now fwd.
    - destruct qs as [|q qs]; [discriminate|]. cbn in *. injection H3 as -> -> ->.
      inversion H4; inversion H5; subst. fwd. specialize (H2 qs eq_refl ltac:(assumption) ltac:(assumption) ltac:(assumption)).
      destruct o; auto. fwd. fin. eauto 10.
  Qed.

  Hypothesis XE : crisp_env bl G.
  Variable K KC : nat -> bool.
  Variable rk : nat -> nat.
  Variable L : nat.
  Variable h : handler ST.
  Hypothesis HA : ConSpec.answers k sk tell h.
  Hypothesis KE : forall x p, env_get G x = Some p -> K x = true -> consumes K p = true.
  Hypothesis KCE : forall x p, env_get G x = Some p -> KC x = true -> cconsumes K KC p = true.
  Hypothesis WE : forall x q, env_get G x = Some q -> wfb K rk L (rk x) q = true /\ cwfb K KC rk L (rk x) q = true.
  Let WE1 : forall x q, env_get G x = Some q -> wfb K rk L (rk x) q = true := fun x q E => proj1 (WE x q E).
  Notation wfB := (wfb K rk L).
  Notation cwfB := (cwfb K KC rk L).

  Let rest_at := rest_at G K rk L KE WE1.
  Let toks_sol := toks_solid bl k G R RE XE.

  Lemma tcon_answers m p w i st : LL p -> FD p -> cwfB m p = true -> i <= length w -> exists o, Con w p i st o.
  Proof.
    intros C F W Hi.
    apply (con_checked k G sk [PMany0 bl CEmpty] tell K KC rk L h SK CEn (many0_implements k G bl []) tfed_ok_env HA KE KCE m p w i st WE); auto.
    now apply tfed_con_ok.
  Qed.
  Lemma tcon_fails m p w i st : LL p -> FD p -> Cr p -> cwfB m p = true -> i <= length w ->
    nl (II p) = false -> ~ ahead (skipn (sk w i) w) (fs (II p)) -> exists e, Con w p i st (CE e i st).
  Proof.
    intros C F X W Hi N A. destruct (tcon_answers m p w i st C F W Hi) as [o P].
    pose proof (proj1 con_tmean w p i st o P C F Hi) as M. destruct o as [v j st'|e j st'|]; cbn in M; [|destruct M as [-> ->]; eauto|destruct M].
    exfalso. destruct M as (H1 & H2 & (ts & M & S) & _). apply tmean_toks in M.
    destruct (spread_trim bl ts _ S (toks_sol p ts M C X)) as (b & s & E & Hb & S' & CL).
    pose proof (toks_begins bl k G R RE p ts s M C S' CL) as B.
    destruct s as [|x s]; [cbn in B; congruence|].
    assert (E2 : skipn i w = b ++ (x :: s) ++ skipn j w).
    { rewrite app_assoc, <- E. unfold slice. rewrite <- (firstn_skipn (j - i) (skipn i w)) at 1. f_equal.
      rewrite skipn_skipn_add. f_equal. lia. }
    rewrite (skip_over bl w i b ((x :: s) ++ skipn j w) E2 Hb) in A; [|exact CL].
    destruct (rest_at w b _ i Hi E2) as [_ E3]. rewrite E3 in A. apply A. exact B.
  Qed.

  (** ** The value of every list of tokens is built *)
  Definition DoneTV (p : pat) (ts : list text) (v : val) : Prop := forall m, LL p -> FD p -> Cr p -> cwfB m p = true ->
    forall w i0 i s t st, i0 <= length w -> sk w i0 = i -> skipn i w = s ++ t -> Spr ts s -> clear bl t -> ~ ahead t (ex (II p)) ->
    exists j, Con w p i0 st (CV v j st) /\ j <= length w /\ sk w j = i + length s.
  Lemma mat_done p ts m w i0 i s t : TT p ts -> LL p -> Cr p -> wfB m p = true -> i0 <= length w -> sk w i0 = i ->
    skipn i w = s ++ t -> Spr ts s -> clear bl t -> ~ ahead t (ex (II p)) ->
    exists b j, Peg w p (sk w i0) (OK b j) /\ j <= length w /\ sk w j = i + length s.
  Proof.
    intros H C X W Hi E0 E S CT N. destruct (sk_at w i0 Hi) as (H1 & H2 & H3). rewrite E0 in *.
    destruct (complete_sk bl k G R RE XE K rk L KE WE1 p ts H m C X W w i s t H2 H3 E S CT N) as (j & P & J1 & J2 & J3). eauto.
  Qed.
  Lemma mat_fails p m w i0 : LL p -> wfB m p = true -> i0 <= length w -> nl (II p) = false ->
    ~ ahead (skipn (sk w i0) w) (fs (II p)) -> exists e, Peg w p (sk w i0) (KO e).
  Proof.
    intros C W Hi N A. destruct (sk_at w i0 Hi) as (H1 & H2 & H3).
    eapply (fails_sk bl k G R RE K rk L KE WE1); eauto.
  Qed.

  Lemma tseq_ready p q ts1 ts2 w i s t : TT q ts2 -> LL q -> Cr q -> seq_ok (II p) (II q) -> i <= length w ->
    skipn i w = s ++ t -> Spr (ts1 ++ ts2) s -> clear bl t -> ~ ahead t (ex (iseq (II p) (II q))) ->
    exists s1 s2, s = s1 ++ s2 /\ Spr ts1 s1 /\ Spr ts2 s2 /\ skipn i w = s1 ++ s2 ++ t /\ clear bl (s2 ++ t) /\
      ~ ahead (s2 ++ t) (ex (II p)) /\ ~ ahead t (ex (II q)) /\ skipn (i + length s1) w = s2 ++ t.
  Proof.
    intros TQ C2 X2 O Hi E S CT N.
    destruct (spread_split bl ts1 ts2 s S (toks_sol q ts2 TQ C2 X2)) as (s1 & s2 & -> & S1 & S2 & CS).
    rewrite <- app_assoc in E. destruct (rest_at w s1 (s2 ++ t) i Hi E) as [H1 H2].
    destruct (ahead_seq _ _ s2 t O (toks_begins bl k G R RE q ts2 s2 TQ C2 S2 CS) N) as [A1 A2].
    exists s1, s2. repeat (split; [assumption||reflexivity|]). split; [now apply clear_app|]. auto.
  Qed.
  Lemma tseq3_ready p q r ts1 ts2 ts3 w i s t : TT q ts2 -> TT r ts3 -> LL q -> LL r -> Cr q -> Cr r ->
    seq_ok (II p) (iseq (II q) (II r)) -> seq_ok (II q) (II r) -> i <= length w ->
    skipn i w = s ++ t -> Spr (ts1 ++ ts2 ++ ts3) s -> clear bl t -> ~ ahead t (ex (iseq (II p) (iseq (II q) (II r)))) ->
    exists s1 s2 s3, s = s1 ++ s2 ++ s3 /\ Spr ts1 s1 /\ Spr ts2 s2 /\ Spr ts3 s3 /\
      skipn i w = s1 ++ s2 ++ s3 ++ t /\ clear bl (s2 ++ s3 ++ t) /\ clear bl (s3 ++ t) /\
      ~ ahead (s2 ++ s3 ++ t) (ex (II p)) /\ ~ ahead (s3 ++ t) (ex (II q)) /\ ~ ahead t (ex (II r)) /\
      skipn (i + length s1) w = s2 ++ s3 ++ t /\ skipn (i + length s1 + length s2) w = s3 ++ t.
  Proof.
    intros TQ TR C2 C3 X2 X3 O O' Hi E S CT N.
    pose proof (solid_app bl _ _ (toks_sol q ts2 TQ C2 X2) (toks_sol r ts3 TR C3 X3)) as SO.
    destruct (spread_split bl ts1 (ts2 ++ ts3) s S SO) as (s1 & s23 & -> & S1 & S23 & CS).
    assert (B : begins (iseq (II q) (II r)) s23).
    { eapply spread_begins; eauto. rewrite concat_app. apply begins_seq; apply (first_sound k G R RE); auto; now apply toks_lang. }
    rewrite <- app_assoc in E. destruct (rest_at w s1 (s23 ++ t) i Hi E) as [H1 H2].
    destruct (ahead_seq _ _ s23 t O B N) as [A1 A2].
    destruct (tseq_ready q r ts2 ts3 w _ s23 t TR C3 X3 O' H1 H2 S23 CT A2) as (s2 & s3 & -> & S2 & S3 & E2 & CL & A3 & A4 & E3).
    rewrite <- app_assoc in *. exists s1, s2, s3. repeat (split; [assumption||reflexivity|]).
    split; [|repeat (split; [assumption|]); assumption].
    destruct s2 as [|x s2]; [exact CL|exact CS].
  Qed.

  Lemma tvals_solid p vs ts : LL p -> Cr p -> TVals (fun s v => DoneTV p s v /\ TT p s) vs ts -> solid bl ts.
  Proof. intros C X H. induction H as [|v vs s t [_ T] H IH]; [constructor|]. apply solid_app; auto. eapply toks_sol; eauto. Qed.
  Lemma tvals_begins p vs ts s : LL p -> nl (II p) = false -> TVals (fun s v => DoneTV p s v /\ TT p s) vs ts ->
    Spr ts s -> clear bl s -> s = [] \/ begins (II p) s /\ s <> [].
  Proof.
    intros C N H S CS. destruct H as [|v vs ts1 ts2 [_ A] _]; [left; eapply spread_nothing; eauto|right].
    apply toks_lang in A. apply (first_sound k G R RE) in A; [|exact C].
    assert (B : begins (II p) (concat (ts1 ++ ts2))).
    { rewrite concat_app. destruct (concat ts1); cbn in *; [congruence|exact A]. }
    pose proof (spread_begins bl _ _ _ S CS B) as B'. split; [exact B'|]. intros ->. cbn in B'. congruence.
  Qed.
  Lemma clear_from w i0 i s t : i0 <= length w -> sk w i0 = i -> skipn i w = s ++ t -> clear bl s.
  Proof.
    intros Hi E0 E. destruct (sk_at w i0 Hi) as (H1 & H2 & H3). rewrite E0 in *.
    pose proof (skipped_clear bl w i H2 H3) as Z. rewrite E in Z. destruct s; [intros []|exact Z].
  Qed.

  Lemma tloop_built p m : LL p -> FD p -> Cr p -> cwfB m p = true -> loop_ok (II p) ->
    forall vs ts, TVals (fun s v => DoneTV p s v /\ TT p s) vs ts ->
    forall w i0 i s t lim st, i0 <= length w -> sk w i0 = i -> skipn i w = s ++ t -> Spr ts s -> clear bl t ->
    ~ ahead t (ex (II p)) -> ~ ahead t (fs (II p)) -> (forall l, lim = Some l -> length vs <= l) ->
    exists j, Creps k G sk tell w p lim i0 st (LV vs j st) /\ j <= length w /\ sk w j = i + length s.
  Proof.
    intros C F X W [N O] vs ts H. induction H as [|v vs ts1 ts2 [D LA] H IH]; intros w i0 i s t lim st Hi E0 E S CT A1 A2 LM.
    - assert (s = []) as -> by (eapply spread_nothing; eauto; eapply clear_from; eauto).
      cbn [length app] in *. rewrite Nat.add_0_r. exists i0. split; [|auto]. destruct lim as [[|l]|]; [apply Creps_lim| |].
      all: destruct (tcon_fails m p w i0 st C F X W Hi N) as [e P]; [rewrite E0, E; exact A2|];
        apply Creps_stop with (e := e); [discriminate|exact P].
    - destruct (sk_at w i0 Hi) as (G1 & G2 & G3). rewrite E0 in *. cbn [length] in LM.
      destruct (spread_split bl ts1 ts2 s S (tvals_solid p vs ts2 C X H)) as (s1 & s2 & -> & S1 & S2 & CS).
      rewrite <- app_assoc in E. destruct (rest_at w s1 (s2 ++ t) i G2 E) as [H1 H2].
      assert (LZ : lim <> Some 0) by (intros ->; specialize (LM 0 eq_refl); lia).
      destruct (D m C F X W w i0 i s1 (s2 ++ t) st Hi E0 E S1 (clear_app bl s2 t CS CT)) as (j & P & J1 & J2).
      { destruct (tvals_begins p vs ts2 s2 C N H S2 CS) as [->|[B Z]]; [exact A1|].
        destruct s2 as [|x s2]; [easy|]. cbn in *. intros Y. exact (O x Y B). }
      destruct (IH w j (i + length s1) s2 t (limit_pred lim) st J1 J2 H2 S2 CT A1 A2) as (j' & Q & J3 & J4).
      { intros l EL. destruct lim as [l'|]; [|discriminate EL]. cbn in EL. injection EL as <-. specialize (LM l' eq_refl). lia. }
      exists j'. rewrite app_length. split; [|split; [exact J3|lia]].
      change (LV (v :: vs) j' st) with (lcons v (LV vs j' st)). eapply Creps_step; eauto.
  Qed.

  Lemma tsep_solidv p d vs ts : LL p -> LL d -> Cr p -> Cr d -> TSepVals (fun s v => DoneTV p s v /\ TT p s) (TT d) vs ts -> solid bl ts.
  Proof.
    intros C C' X X' H. induction H as [|s v [_ T]|v vs s d' t [_ T] TD H IH]; [constructor|eapply toks_sol; eauto|].
    apply solid_app; [eapply toks_sol; eauto|]. apply solid_app; auto. eapply toks_sol; eauto.
  Qed.
  Lemma tsepvals_begins p d vs ts s : LL p -> nl (II p) = false -> TSepVals (fun s v => DoneTV p s v /\ TT p s) (TT d) vs ts ->
    Spr ts s -> clear bl s -> s = [] \/ begins (II p) s /\ s <> [].
  Proof.
    intros C N H S CS.
    assert (ts = [] \/ begins (II p) (concat ts)) as [->|B].
    { destruct H as [|ts1 v [_ A]|v vs ts1 ts2 ts3 [_ A] _ _]; [now left|right|right].
      all: apply toks_lang in A; apply (first_sound k G R RE) in A; [|exact C]; [exact A||idtac].
      rewrite concat_app. destruct (concat ts1); cbn in *; [congruence|exact A]. }
    - left. eapply spread_nothing; eauto.
    - right. pose proof (spread_begins bl _ _ _ S CS B) as B'. split; [exact B'|]. intros ->. cbn in B'. congruence.
  Qed.
  Lemma tsep_built p d m m' : LL p -> FD p -> Cr p -> LL d -> Cr d -> cwfB m p = true -> wfB m' d = true -> sep_ok (II p) (II d) ->
    forall vs ts, TSepVals (fun s v => DoneTV p s v /\ TT p s) (TT d) vs ts ->
    forall w i0 i s t lim st, i0 <= length w -> sk w i0 = i -> skipn i w = s ++ t -> Spr ts s -> clear bl t ->
    ~ ahead t (ex (II p)) -> ~ ahead t (fs (II p)) -> ~ ahead t (ex (II d)) -> ~ ahead t (fs (II d)) ->
    (forall l, lim = Some l -> length vs <= l) ->
    exists j, Cseps k G sk tell w p d true lim i0 st (LV vs j st) /\ j <= length w /\ sk w j = i + length s.
  Proof.
    intros C F X C' X' W W' (N & N' & O & O') vs ts H.
    induction H as [|ts1 v [D LA]|v vs ts1 ts2 ts3 [D LA] LB H IH]; intros w i0 i s t lim st Hi E0 E S CT A1 A2 A3 A4 LM.
    all: destruct (sk_at w i0 Hi) as (G1 & G2 & G3); rewrite E0 in *; cbn [length] in LM.
    - assert (s = []) as -> by (eapply spread_nothing; eauto; eapply clear_from; eauto).
      cbn [length app] in *. rewrite Nat.add_0_r. exists i0. split; [|auto]. destruct lim as [[|l]|]; [apply Cseps_lim| |].
      all: destruct (tcon_fails m p w i0 st C F X W Hi N) as [e P]; [rewrite E0, E; exact A2|];
        apply Cseps_stop with (e := e); [discriminate|exact P].
    - destruct (rest_at w s t i G2 E) as [H1 H2].
      destruct (D m C F X W w i0 i s t st Hi E0 E S CT A1) as (j & P & J1 & J2).
      destruct (mat_fails d m' w j C' W' J1 N') as [e Q]; [rewrite J2, H2; exact A4|].
      exists j. split; [|auto].
      apply (Cseps_last k G sk tell w p d true lim i0 st v j st e); [intros ->; specialize (LM 0 eq_refl); lia|exact P|exact Q].
    - pose proof (toks_sol d ts2 LB C' X') as SD. pose proof (tsep_solidv p d vs ts3 C C' X X' H) as SP.
      destruct (spread_split bl ts1 (ts2 ++ ts3) s S (solid_app bl _ _ SD SP)) as (s1 & s23 & -> & S1 & S23 & CS23).
      destruct (spread_split bl ts2 ts3 s23 S23 SP) as (s2 & s3 & -> & S2 & S3 & CS3).
      assert (CS2 : clear bl s2) by (destruct s2; [intros []|exact CS23]).
      rewrite <- !app_assoc in E.
      destruct (rest_at w s1 (s2 ++ s3 ++ t) i G2 E) as [H1 H2].
      destruct (rest_at w s2 (s3 ++ t) _ H1 H2) as [H3 H4].
      pose proof (clear_app bl s3 t CS3 CT) as CT3. pose proof (clear_app bl s2 (s3 ++ t) CS2 CT3) as CT2.
      assert (LZ : lim <> Some 0) by (intros ->; specialize (LM 0 eq_refl); lia).
      pose proof (toks_begins bl k G R RE d ts2 s2 LB C' S2 CS2) as BU.
      destruct (D m C F X W w i0 i s1 (s2 ++ s3 ++ t) st Hi E0 E S1 CT2) as (j & P & J1 & J2).
      { destruct s2 as [|x s2]; cbn in *; [congruence|]. intros Y. exact (O x Y BU). }
      destruct (mat_done d ts2 m' w j (i + length s1) s2 (s3 ++ t) LB C' X' W' J1 J2 H2 S2 CT3) as (b & j' & Q & J3 & J4).
      { destruct (tsepvals_begins p d vs ts3 s3 C N H S3 CS3) as [->|[B Z]]; [exact A3|].
        destruct s3 as [|x s3]; [easy|]. cbn in *. intros Y. exact (O' x Y B). }
      destruct (IH w j' (i + length s1 + length s2) s3 t (limit_pred lim) st J3 J4 H4 S3 CT A1 A2 A3 A4) as (j2 & Q2 & J5 & J6).
      { intros l EL. destruct lim as [l'|]; [|discriminate EL]. cbn in EL. injection EL as <-. specialize (LM l' eq_refl). lia. }
      exists j2. rewrite !app_length. split; [|split; [exact J5|lia]].
      change (LV (v :: vs) j2 st) with (lcons v (LV vs j2 st)). eapply Cseps_step; eauto.
  Qed.

  Lemma tchoice_built e ps p ts v m : LL (PChoice e false ps) -> Forall FD ps -> Cr (PChoice e false ps) -> forallb (cwfB m) ps = true -> In p ps ->
    TT p ts -> DoneTV p ts v ->
    forall w i0 i s t st, i0 <= length w -> sk w i0 = i -> skipn i w = s ++ t -> Spr ts s -> clear bl t ->
    ~ ahead t (ex (II (PChoice e false ps))) ->
    exists j, Cfirst k G sk tell w e (plain ps) i0 st (CV v j st) /\ j <= length w /\ sk w j = i + length s.
  Proof.
    intros C F X W J LA D w i0 i s t st Hi E0 E S CT N. induction ps as [|q r IH]; [destruct J|].
    rewrite choice_cons in N. cbn [forallb] in W. apply andb_prop in W. destruct W as [W1 W2].
    destruct C as (_ & C1 & C2 & C3). destruct X as [X1 X2]. inversion F as [|? ? F1 F2]; subst.
    change (plain (q :: r)) with ((q, fun v : val => v) :: plain r).
    destruct J as [->|J].
    - destruct (D m C1 F1 X1 W1 w i0 _ s t st Hi eq_refl E S CT) as (j & P & J1); [now apply ahead_alt_l in N|].
      exists j. split; [|exact J1]. now apply (Cfirst_hit k G sk tell w e p (fun v => v)).
    - assert (CR : LL (PChoice e false r)) by exact (conj eq_refl C3).
      destruct (choice_all _ _ _ _ _ CR) as [_ FR]. rewrite Forall_forall in FR.
      assert (CL : clear bl s) by (eapply clear_from; eauto).
      assert (B : begins (II (PChoice EFail false r)) s) by (eapply begins_choice; eauto; eapply (toks_begins bl k G R RE); eauto).
      destruct (ahead_alt_r _ _ s t C2 B N) as [A1 A2].
      destruct (tcon_fails m q w i0 st C1 F1 X1 W1 Hi (proj1 C2)) as [e' P]; [rewrite E; exact A1|].
      destruct (IH CR F2 X2 W2 J A2) as (j & Q & J1). exists j. split; [|exact J1].
      apply Cfirst_next with (e' := e') (x := i0) (s1 := st); [exact P|exact Q].
  Qed.

  Lemma token_spread w i0 i tok s t : i0 <= length w -> sk w i0 = i -> skipn i w = s ++ t -> Spr [tok] s -> clear bl t ->
    exists b, s = tok ++ b /\ blank bl b /\ skipn i w = tok ++ b ++ t /\ i + length tok <= length w /\
      sk w (i + length tok) = i + length s.
  Proof.
    intros Hi E0 E S CT. pose proof (clear_from w i0 i s t Hi E0 E) as CL. destruct (sk_at w i0 Hi) as (H1 & H2 & H3). rewrite E0 in *.
    inversion S as [|b tk ts b' Hb S']; subst. inversion S'; subst.
    assert (b = []) as -> by (eapply blank_clear; eauto). cbn [app] in *. rewrite <- app_assoc in E.
    destruct (rest_at w tok (b' ++ t) _ H2 E) as [H4 H5].
    exists b'. repeat (split; [assumption||reflexivity|]). rewrite app_length, Nat.add_assoc. now apply (skip_over bl w _ b' t).
  Qed.
  (** A leaf or a [pattern] that is one token. *)
  Lemma token_match p tok m w i0 i s t : token p = true -> TT p [tok] -> LL p -> Cr p -> wfB m p = true ->
    i0 <= length w -> sk w i0 = i -> skipn i w = s ++ t -> Spr [tok] s -> clear bl t -> ~ ahead t (ex (II p)) ->
    Peg w p (sk w i0) (OK (sk w i0) (i + length tok)) /\ i + length tok <= length w /\ sk w (i + length tok) = i + length s /\
    slice w (sk w i0) (i + length tok) = tok.
  Proof.
    intros T H C X W Hi E0 E S CT N. destruct (token_spread w i0 i tok s t Hi E0 E S CT) as (b & -> & Hb & E2 & H4 & H5).
    destruct (sk_at w i0 Hi) as (H1 & H2 & H3). rewrite E0 in *.
    assert (LA : Lang G p tok) by (apply toks_lang in H; cbn in H; now rewrite app_nil_r in H).
    split; [|split; [exact H4|split; [exact H5|eapply word_at; eauto]]].
    apply token_transfer with (R := R); auto.
    apply (complete k G R RE K rk L KE WE1 p tok LA m C W w i (b ++ t)); auto.
    destruct b as [|x b]; [exact N|]. cbn. intros A. apply (token_ex bl k R p T C X x A). apply Hb. now left.
  Qed.

  Ltac bt := match goal with D : DoneTV ?p _ _ |- exists j, ConSpec.Con _ _ _ _ _ ?p _ _ _ /\ _ => eapply D; eauto end.
  Lemma tbuilt : forall p ts v, MM p ts v -> DoneTV p ts v.
  Proof.
    fix F 4. intros p ts v H. destruct H.
    all: repeat match goal with X : TMean G lv ?p ?s ?v |- _ =>
      lazymatch goal with D : DoneTV p s v |- _ => fail | _ => pose proof (F p s v X); pose proof (tmean_toks G lv p s v X) end end.
    all: try match goal with X : TVals (TMean G lv ?p) ?vs ?s |- _ =>
      pose proof (tvals_map (TMean G lv p) (fun s v => DoneTV p s v /\ TT p s) (fun s v a => conj (F p s v a) (tmean_toks G lv p s v a)) vs s X) end.
    all: try match goal with X : TSepVals (TMean G lv ?p) ?D ?vs ?s |- _ =>
      pose proof (tsepvals_map (TMean G lv p) (fun s v => DoneTV p s v /\ TT p s) (fun s v a => conj (F p s v a) (tmean_toks G lv p s v a)) D vs s X) end.
    all: clear F; intros m' C FF Cp W w i0 i1 str rest st Hi E0 E Sp CT N.
    all: try (destruct C; fail).
    all: destruct (sk_at w i0 Hi) as (G1 & G2 & G3); rewrite E0 in *.
    { (* leaf *)
      assert (X : Peg w p (sk w i0) (OK (sk w i0) (i1 + length s)) /\ i1 + length s <= length w /\
        sk w (i1 + length s) = i1 + length str /\ slice w (sk w i0) (i1 + length s) = s).
      { destruct p; try (destruct H; fail); try (destruct FF; fail); cbn [cwfb] in W.
        all: try (eapply token_match; eauto; fail).
        cbn [tfed ll1 crisp wfb info_of] in *. inversion H1; subst; [discriminate|].
        match goal with T : TT p [s] |- _ => destruct (token_match p s m' w i0 (sk w i0) str rest ltac:(assumption) T C Cp W Hi eq_refl E Sp CT N) as (P & X) end.
        split; [now apply Peg_leaf|exact X]. }
      destruct X as (P & J1 & J2 & J3). exists (i1 + length s). split; [|auto].
      replace (lv s) with (lv (slice w (sk w i0) (i1 + length s))) by now rewrite J3.
      now apply (Con_leaf k G sk tell w p i0 st (sk w i0) (i1 + length s)). }
    { (* pat *)
      cbn [tfed ll1 crisp cwfb info_of] in *.
      destruct (token_match p s m' w i0 i1 str rest) as (P & J1 & J2 & J3); auto.
      exists (i1 + length s). split; [|auto].
      replace (lv s) with (lv (slice w (sk w i0) (i1 + length s))) by now rewrite J3.
      now apply (Con_pat k G sk tell w p i0 st (sk w i0) (i1 + length s)). }
    all: pose proof C as C0; pose proof FF as F0; pose proof Cp as Cp0; cbn [ll1 tfed info_of cwfb crisp] in C, FF, N, W, Cp.
    all: repeat match goal with X : _ && _ = true |- _ => apply andb_prop in X; destruct X end.
    - destruct C as (C1 & C2 & C3), FF as (F1 & F2), Cp as (X1 & X2).
      destruct (tseq_ready p q s t w i1 str rest) as (s1 & s2 & -> & S1 & S2 & E2 & CL & A1 & A2 & E3); auto.
      edestruct (H3 _ C1 F1 X1 ltac:(eassumption) w i0 i1 s1 (s2 ++ rest) st Hi E0 E2 S1 CL A1) as (j1 & P1 & J1 & J2).
      edestruct (H1 _ C2 F2 X2 ltac:(eassumption) w j1 _ s2 rest st J1 J2 E3 S2 CT A2) as (j2 & P2 & J3 & J4).
      exists j2. rewrite app_length. split; [eapply Con_then; eauto|]. split; [exact J3|lia].
    - destruct C as (C1 & C2 & C3 & C4 & C5 & C6), FF as (F1 & F2), Cp as (X1 & X2 & X3).
      assert (A1 : ~ ahead rest (ex (II p))) by (intros X; apply N; destruct rest; [exact X|]; cbn in *; auto).
      assert (A2 : ~ ahead rest (fs (II t))) by (intros X; apply N; destruct rest; [exact X|]; cbn in *; auto).
      destruct (H0 m' C1 F1 X1 ltac:(assumption) w i0 i1 str rest st Hi E0 E Sp CT A1) as (j1 & P1 & J1 & J2).
      destruct (rest_at w str rest i1 G2 E) as [G4 G5].
      assert (exists e, Peg w t (sk w j1) (KO e)) as [e P2] by (eapply mat_fails; eauto; rewrite J2, G5; exact A2).
      exists j1. split; [eapply Con_ifthen_no; eauto|auto].
    - destruct C as (C1 & C2 & C3 & C4 & C5 & C6), FF as (F1 & F2), Cp as (X1 & X2 & X3).
      assert (A1 : ~ ahead rest (ex (iseq (II p) (iseq (II t) (II q))))).
      { intros X. apply N. destruct rest; [exact X|]. cbn in *. rewrite C4 in X. cbn in X. intuition discriminate. }
      assert (A2 : seq_ok (II p) (iseq (II t) (II q))).
      { intros x X [Y|[Y _]]; [exact (C5 x X Y)|congruence]. }
      destruct (tseq3_ready p t q s s' s'' w i1 str rest) as (s1 & s2 & s3 & -> & S1 & S2 & S3 & E2 & CL & CL' & B1 & B2 & B3 & E3 & E4); auto.
      edestruct (H4 _ C1 F1 X1 ltac:(eassumption) w i0 i1 s1 _ st Hi E0 E2 S1 CL B1) as (j1 & P1 & J1 & J2).
      edestruct (mat_done t s' _ w j1 _ s2 (s3 ++ rest) ltac:(assumption) C2 X2 ltac:(eassumption) J1 J2 E3 S2 CL' B2) as (b2 & j2 & P2 & J3 & J4).
      edestruct (H2 _ C3 F2 X3 ltac:(eassumption) w j2 _ s3 rest st J3 J4 E4 S3 CT B3) as (j3 & P3 & J5 & J6).
      exists j3. rewrite !app_length. split; [eapply Con_ifthen; eauto|]. split; [exact J5|lia].
    - destruct C as (C1 & C2 & C3), FF as (F1 & F2), Cp as (X1 & X2).
      destruct (H0 m' C1 F1 X1 ltac:(assumption) w i0 i1 str rest st Hi E0 E Sp CT (ahead_alt_l _ _ _ N)) as (j1 & P1 & J1). exists j1. split; [now apply Con_or1|exact J1].
    - destruct C as (C1 & C2 & C3), FF as (F1 & F2), Cp as (X1 & X2).
      destruct (ahead_alt_r _ _ str rest C3 ltac:(eapply (toks_begins bl k G R RE); eauto; eapply clear_from; eauto) N) as [A1 A2].
      destruct (tcon_fails m' p w i0 st C1 F1 X1 ltac:(assumption) Hi (proj1 C3)) as [e P]; [rewrite E0, E; exact A1|].
      destruct (H0 m' C2 F2 X2 ltac:(assumption) w i0 i1 str rest st Hi E0 E Sp CT A2) as (j1 & P1 & J1). exists j1. split; [|exact J1].
      change (CV v j1 st) with (undo i0 (CV v j1 st)). eapply Con_or2; eauto.
    - destruct C as (C1 & C2 & C3), Cp as (X1 & X2).
      destruct (tseq_ready pre p s t w i1 str rest) as (s1 & s2 & -> & S1 & S2 & E2 & CL & A1 & A2 & E3); auto.
      edestruct (mat_done pre s _ w i0 i1 s1 (s2 ++ rest) ltac:(assumption) C1 X2 ltac:(eassumption) Hi E0 E2 S1 CL A1) as (b1 & j1 & P1 & J1 & J2).
      edestruct (H1 _ C2 FF X1 ltac:(eassumption) w j1 _ s2 rest st J1 J2 E3 S2 CT A2) as (j2 & P2 & J3 & J4).
      exists j2. rewrite app_length. split; [|split; [exact J3|lia]].
      change (CV v j2 st) with (undo i0 (CV v j2 st)). eapply Con_prefix; eauto.
    - destruct C as (C1 & C2 & C3), Cp as (X1 & X2).
      destruct (tseq_ready p suf s t w i1 str rest) as (s1 & s2 & -> & S1 & S2 & E2 & CL & A1 & A2 & E3); auto.
      edestruct (H1 _ C1 FF X1 ltac:(eassumption) w i0 i1 s1 (s2 ++ rest) st Hi E0 E2 S1 CL A1) as (j1 & P1 & J1 & J2).
      edestruct (mat_done suf t _ w j1 _ s2 rest ltac:(assumption) C2 X2 ltac:(eassumption) J1 J2 E3 S2 CT A2) as (b2 & j2 & P2 & J3 & J4).
      exists j2. rewrite app_length. split; [eapply Con_suffix; eauto|]. split; [exact J3|lia].
    - destruct C as (C1 & C2 & C3 & C4 & C5), Cp as (X1 & X2 & X3).
      destruct (tseq3_ready o p c s t u w i1 str rest) as (s1 & s2 & s3 & -> & S1 & S2 & S3 & E2 & CL & CL' & B1 & B2 & B3 & E3 & E4); auto.
      edestruct (mat_done o s _ w i0 i1 s1 (s2 ++ s3 ++ rest) ltac:(assumption) C1 X2 ltac:(eassumption) Hi E0 E2 S1 CL B1) as (b1 & j1 & P1 & J1 & J2).
      edestruct (H2 _ C2 FF X1 ltac:(eassumption) w j1 _ s2 _ st J1 J2 E3 S2 CL' B2) as (j2 & P2 & J3 & J4).
      edestruct (mat_done c u _ w j2 _ s3 rest ltac:(assumption) C3 X3 ltac:(eassumption) J3 J4 E4 S3 CT B3) as (b3 & j3 & P3 & J5 & J6).
      exists j3. rewrite !app_length. split; [eapply Con_enclose; eauto|]. split; [exact J5|lia].
    - destruct C as (C1 & C2 & C3 & C4 & C5), FF as (F1 & F2), Cp as (X1 & X2 & X3).
      destruct (tseq3_ready p m q s t u w i1 str rest) as (s1 & s2 & s3 & -> & S1 & S2 & S3 & E2 & CL & CL' & B1 & B2 & B3 & E3 & E4); auto.
      edestruct (H4 _ C1 F1 X1 ltac:(eassumption) w i0 i1 s1 _ st Hi E0 E2 S1 CL B1) as (j1 & P1 & J1 & J2).
      edestruct (mat_done m t _ w j1 _ s2 (s3 ++ rest) ltac:(assumption) C2 X2 ltac:(eassumption) J1 J2 E3 S2 CL' B2) as (b2 & j2 & P2 & J3 & J4).
      edestruct (H2 _ C3 F2 X3 ltac:(eassumption) w j2 _ s3 rest st J3 J4 E4 S3 CT B3) as (j3 & P3 & J5 & J6).
      exists j3. rewrite !app_length. split; [eapply Con_seponce; eauto|]. split; [exact J5|lia].
    - destruct C as (_ & C1 & C2 & C3), Cp as (X1 & X2). apply ahead_or in N. destruct N as [A1 N]. apply ahead_or in N. destruct N as [A2 N].
      apply ahead_or in N. destruct N as [A3 A4].
      edestruct (tsep_built p d _ _ C1 FF X1 C2 X2 ltac:(eassumption) ltac:(eassumption) C3 vs s ltac:(eassumption) w i0 i1 str rest None st Hi E0 E Sp CT A1 A2 A3 A4) as (j & Q & J); [discriminate|].
      exists j. split; [|exact J]. apply Con_sep with (mn := mn) in Q. cbn [count_ok] in Q.
      match goal with H : mn <= _ |- _ => now rewrite (proj2 (Nat.leb_le _ _) H) in Q end.
    - destruct C as (C1 & C2). apply ahead_or in N. destruct N as [A1 A2].
      edestruct (tloop_built p _ C1 FF Cp ltac:(eassumption) C2 vs s ltac:(eassumption) w i0 i1 str rest (limit_of r) st Hi E0 E Sp CT A1 A2) as (j & Q & J); [intros l'; now apply (cap_le G K rk L KE WE1)|].
      exists j. split; [|exact J]. apply Con_repeat in Q. cbn [count_ok] in Q.
      match goal with H : InRange _ _ |- _ => now rewrite (proj2 (contains_in _ _) H) in Q end.
    - destruct C as (C1 & C2). apply ahead_or in N. destruct N as [A1 A2].
      edestruct (tloop_built p _ C1 FF Cp ltac:(eassumption) C2 vs s ltac:(eassumption) w i0 i1 str rest None st Hi E0 E Sp CT A1 A2) as (j & Q & J); [discriminate|].
      exists j. split; [|exact J]. apply Con_collect with (mn := mn) in Q. cbn [count_ok] in Q.
      match goal with H : mn <= _ |- _ => now rewrite (proj2 (Nat.leb_le _ _) H) in Q end.
    - destruct FF as [F1 F2]. apply ahead_or in N. destruct N as [A1 A2].
      destruct (H0 m' C F1 Cp W w i0 i1 str rest st Hi E0 E Sp CT A1) as (j & P & J). exists j. split; [now apply Con_some|exact J].
    - destruct FF as [F1 F2]. apply ahead_or in N. destruct N as [A1 A2].
      assert (str = []) as -> by (eapply spread_nothing; eauto; eapply clear_from; eauto).
      destruct (tcon_fails m' p w i0 st C F1 Cp W Hi F2) as [e P]; [rewrite E0, E; exact A2|].
      exists i0. cbn [length]. rewrite Nat.add_0_r. split; [eapply Con_none; eauto|auto].
    - destruct FF as (F1 & _ & _). destruct (H1 m' C F1 Cp W w i0 i1 str rest st Hi E0 E Sp CT N) as (j & P & J). exists j. split; [|exact J].
      apply Con_map with (f := f) in P. now rewrite H0 in P.
    - destruct (choice_all _ _ _ _ _ C0) as [-> FL].
      destruct (tchoice_built e ps p s v m' C0 (proj1 (tfed_choice G lv R e false ps) F0) Cp0 W ltac:(assumption) ltac:(assumption) ltac:(assumption) w i0 i1 str rest st Hi E0 E Sp CT N) as (j & P & J).
      exists j. split; [now apply Con_choice|exact J].
    - destruct (H0 m' C FF Cp W w i0 i1 str rest st Hi E0 E Sp CT N) as (j & P & J). exists j. split; [now apply Con_wrap|exact J].
    - destruct (RE i) as [_ Q]. destruct (Q p ltac:(assumption)) as (C1 & _ & _ & C2).
      destruct (H1 (rk i) C1 (FE i p ltac:(assumption)) (XE i p ltac:(assumption)) (proj2 (WE i p ltac:(assumption))) w i0 i1 str rest st Hi E0 E Sp CT) as (j & P & J).
      { intros X. apply N. destruct rest; [exact X|]. cbn in *. now apply C2. }
      exists j. split; [eapply Con_ref; eauto|exact J].
  Qed.
End TokMeanLaws.
