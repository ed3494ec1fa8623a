(** Termination: on well-formed parsers the specification always has an outcome. *)

From Coq Require Import List Arith NArith Bool Lia.
From Verif Require Import Base Text Context Neu Syntax Regex TextProofs Spec Units Core Sound Complete.
Import ListNotations.

Section Term.
  Variable k : kind.
  Variable G : env.
  Variable sk : text -> nat -> nat.
  (** A rank for every recursive parser. *)
  Variable rk : nat -> nat.
  Notation Peg := (Peg k G sk).
  Notation core := (core k G sk).
  Notation core_cond := (core_cond k G sk).

  (** Every match of [p] consumes something. *)
  Definition advances (p : pat) : Prop :=
    forall w i b j, i <= length w -> sk w i = i -> Peg w p i (OK b j) -> i < j.

  (** After [p], a parser of well-formedness level [m'] may follow: the same level as [p], or any
      level if [p] always consumes. *)
  Definition next_level (m : nat) (p : pat) (m' : nat) : Prop := m' = m \/ advances p.

  (** [wf m p]: unbounded loop bodies consume, and a recursive parser reached from [p] without
      consuming anything has rank below [m]. *)
  Inductive wf : nat -> pat -> Prop :=
  | wf_leaf m p :
      match p with
      | PEmpty | PFail | PStart | PEnd | PConsume _ | PConsumeAll | PLit _ | PFn _ | PNoneP => True
      | _ => False
      end -> wf m p
  | wf_assert m p v : wf m p -> wf m (PAssert p v)
  | wf_builder m p f :
      wf m p -> (forall c s q c', f c s = (Ok q, c') -> wf m q) -> wf m (PBuilder p f)
  | wf_pleaf m p : wf m p -> wf m (PLeaf p)
  | wf_once m u c : wf_cond m c -> wf m (POnce u c)
  | wf_many1 m u c : wf_cond m c -> wf m (PMany1 u c)
  | wf_opt m u c : wf_cond m c -> wf m (POpt u c)
  | wf_many0 m u c : wf_cond m c -> wf m (PMany0 u c)
  | wf_between m a b u c : wf_cond m c -> wf m (PBetween a b u c)
  | wf_times m r u c : wf_cond m c -> wf m (PTimes r u c)
  | wf_neuthen m u v c : wf_cond m c -> wf m (PNeuThen u v c)
  | wf_then m p q m' : wf m p -> next_level m p m' -> wf m' q -> wf m (PThen p q)
  | wf_ifthen m p t q m' m'' :
      wf m p -> next_level m p m' -> wf m' t -> next_level m' t m'' -> wf m'' q ->
      wf m (PIfThen p t q)
  | wf_or m p q : wf m p -> wf m q -> wf m (POr p q)
  | wf_longest m p q : wf m p -> wf m q -> wf m (PLongest p q)
  | wf_pat m p : wf m p -> wf m (PPat p)
  | wf_prefix m p q m' : wf m q -> next_level m q m' -> wf m' p -> wf m (PPrefix p q)
  | wf_suffix m p q m' : wf m p -> next_level m p m' -> wf m' q -> wf m (PSuffix p q)
  | wf_enclose m p o c m' m'' :
      wf m o -> next_level m o m' -> wf m' p -> next_level m' p m'' -> wf m'' c ->
      wf m (PEnclose p o c)
  | wf_seponce m p s q m' m'' :
      wf m p -> next_level m p m' -> wf m' s -> next_level m' s m'' -> wf m'' q ->
      wf m (PSepOnce p s q)
  | wf_sep m p s mn b m' :
      wf m p -> next_level m p m' -> wf m' s -> advances p \/ advances s -> wf m (PSep p s mn b)
  | wf_sep2 m p s a l b m' :
      wf m p -> next_level m p m' -> wf m' s -> wf m (PSep2 p s a l b)
  | wf_sepcollect m p s mn b m' :
      wf m p -> next_level m p m' -> wf m' s -> advances p \/ advances s ->
      wf m (PSepCollect p s mn b)
  | wf_repeat m p r : wf m p -> limit_of r <> None \/ advances p -> wf m (PRepeat p r)
  | wf_repeat2 m p a l : wf m p -> wf m (PRepeat2 p a l)
  | wf_collect m p mn : wf m p -> advances p -> wf m (PCollect p mn)
  | wf_option m p : wf m p -> wf m (POption p)
  | wf_branch m t p q : wf m p -> wf m q -> wf m (PBranch t p q)
  | wf_map m p f : wf m p -> wf m (PMap p f)
  | wf_choice m e b ps : (forall p, In p ps -> wf m p) -> wf m (PChoice e b ps)
  | wf_pairchoice m e b ps : (forall p, In p (map fst ps) -> wf m p) -> wf m (PPairChoice e b ps)
  | wf_wrap m p : wf m p -> wf m (PWrap p)
  | wf_ref m x : (env_get G x <> None -> rk x < m) -> wf m (PRef x)
  with wf_cond : nat -> cond -> Prop :=
  | wf_cempty m : wf_cond m CEmpty
  | wf_cfn m f : wf_cond m (CFn f)
  | wf_cregex m p : wf m p -> wf_cond m (CRegex p).

  Scheme wf_ind2 := Minimality for wf Sort Prop
    with wf_cond_ind2 := Minimality for wf_cond Sort Prop.
  Combined Scheme wf_mutind from wf_ind2, wf_cond_ind2.

  Definition wf_env : Prop := forall x p, env_get G x = Some p -> wf (rk x) p.

  Hypothesis SK : skipper sk.
  Hypothesis CE : core_env k G sk.
  Hypothesis WE : wf_env.
  (** Matches stay in the text (from soundness/completeness, any policies implementing [sk]). *)
  Variable pols : list pat.
  Hypothesis IM : implements k G sk pols.

  Lemma ok_in p w i b j : core p -> i <= length w -> sk w i = i -> Peg w p i (OK b j) ->
    i <= b /\ b <= j /\ j <= length w.
  Proof.
    intros C Hi E P.
    now destruct (peg_complete k G sk pols SK CE IM w p i _ P C Hi E) as [B _].
  Qed.
  Lemma sk_at w j : j <= length w -> j <= sk w j /\ sk w j <= length w /\ sk w (sk w j) = sk w j.
  Proof.
    intros Hj. destruct SK as [S1 S2]. destruct (S1 w j Hj). split; [lia|]. split; [lia|].
    apply S2; lia.
  Qed.

  Definition outcome (w : text) (p : pat) (i : nat) : Prop := exists o, Peg w p i o.

  Lemma reps_total w p lim : core p -> lim <> None \/ advances p -> forall i, i <= length w ->
    (forall i', i <= i' -> i' <= length w -> sk w i' = i' -> outcome w p i') ->
    exists n j, Reps k G sk w p lim i n j.
  Proof.
    intros C [L|A].
    - destruct lim as [c|]; [clear L|congruence]. induction c as [|c IH]; intros i Hi H.
      + exists 0, i. constructor.
      + destruct (sk_at w i Hi) as (S1 & S2 & S3).
        destruct (H (sk w i) S1 S2 S3) as [[b j|e] P].
        * destruct (ok_in _ _ _ _ _ C S2 S3 P) as (? & ? & ?).
          destruct (IH j ltac:(lia)) as (n & j' & R); [intros; apply H; lia|].
          exists (S n), j'. eapply Reps_step; eauto. congruence.
        * exists 0, i. eapply Reps_stop; eauto. congruence.
    - intros i Hi. remember (length w - i) as d eqn:Ed. revert i lim Hi Ed.
      induction d as [d IH] using lt_wf_ind; intros i lim Hi Ed H.
      destruct lim as [[|c]|].
      + exists 0, i. constructor.
      + destruct (sk_at w i Hi) as (S1 & S2 & S3).
        destruct (H (sk w i) S1 S2 S3) as [[b j|e] P].
        * destruct (ok_in _ _ _ _ _ C S2 S3 P) as (? & ? & ?). pose proof (A _ _ _ _ S2 S3 P).
          destruct (IH (length w - j) ltac:(lia) j (Some c) ltac:(lia) eq_refl) as (n & j' & R); [intros; apply H; lia|].
          exists (S n), j'. eapply Reps_step; eauto. congruence.
        * exists 0, i. eapply Reps_stop; eauto. congruence.
      + destruct (sk_at w i Hi) as (S1 & S2 & S3).
        destruct (H (sk w i) S1 S2 S3) as [[b j|e] P].
        * destruct (ok_in _ _ _ _ _ C S2 S3 P) as (? & ? & ?). pose proof (A _ _ _ _ S2 S3 P).
          destruct (IH (length w - j) ltac:(lia) j None ltac:(lia) eq_refl) as (n & j' & R); [intros; apply H; lia|].
          exists (S n), j'. eapply Reps_step; eauto. congruence.
        * exists 0, i. eapply Reps_stop; eauto. congruence.
  Qed.

  Lemma seps_total w p s lim : core p -> core s -> lim <> None \/ advances p \/ advances s ->
    forall i, i <= length w ->
    (forall i', i <= i' -> i' <= length w -> sk w i' = i' -> outcome w p i') ->
    (forall i' b j, i <= i' -> i' <= length w -> sk w i' = i' -> Peg w p i' (OK b j) -> outcome w s (sk w j)) ->
    exists n j, Seps k G sk w p s lim i n j.
  Proof.
    intros C Cs L.
    (* one round *)
    assert (Step : forall i lim', i <= length w -> lim' <> Some 0 ->
      (forall i', i <= i' -> i' <= length w -> sk w i' = i' -> outcome w p i') ->
      (forall i' b j, i <= i' -> i' <= length w -> sk w i' = i' -> Peg w p i' (OK b j) -> outcome w s (sk w j)) ->
      (forall j, i <= j -> j <= length w -> (advances p \/ advances s -> i < j) -> exists n j', Seps k G sk w p s (limit_pred lim') j n j') ->
      exists n j, Seps k G sk w p s lim' i n j).
    { intros i lim' Hi Hl H H' K. destruct (sk_at w i Hi) as (S1 & S2 & S3).
      destruct (H (sk w i) S1 S2 S3) as [[b j|e] P].
      2:{ exists 0, i. eapply Seps_stop; eauto. }
      destruct (ok_in _ _ _ _ _ C S2 S3 P) as (? & ? & Hj).
      destruct (sk_at w j Hj) as (T1 & T2 & T3).
      destruct (H' _ _ _ S1 S2 S3 P) as [[b' j'|e] Q].
      2:{ exists 1, j. eapply Seps_last; eauto. }
      destruct (ok_in _ _ _ _ _ Cs T2 T3 Q) as (? & ? & ?).
      destruct (K j' ltac:(lia) ltac:(lia)) as (n & j'' & R).
      { intros [A|A].
        - pose proof (A _ _ _ _ S2 S3 P). lia.
        - pose proof (A _ _ _ _ T2 T3 Q). lia. }
      exists (S n), j''. eapply Seps_step; eauto. }
    destruct lim as [c|].
    - clear L. induction c as [|c IH]; intros i Hi H H'; [exists 0, i; constructor|].
      apply Step; auto; [congruence|]. intros j Hj1 Hj2 _. cbn. apply IH; auto.
      + intros; apply H; lia.
      + intros i' b j' ? ? ? ?. apply (H' i' b j'); auto; lia.
    - intros i Hi. remember (length w - i) as d eqn:Ed. revert i Hi Ed.
      induction d as [d IH] using lt_wf_ind; intros i Hi Ed H H'.
      apply Step; auto; [congruence|]. intros j Hj1 Hj2 Hlt. assert (AA : advances p \/ advances s) by (destruct L as [L|L]; [congruence|auto]). specialize (Hlt AA). cbn.
      apply (IH (length w - j)); auto; [lia| |].
      + intros; apply H; lia.
      + intros i' b j' ? ? ? ?. apply (H' i' b j'); auto; lia.
  Qed.

  Lemma acc_total w i u c m : (forall x, nth_error w (i + m) = Some x -> exists r, Chk k G sk w i c m x r) ->
    exists r, Acc k G sk w i u c m r.
  Proof.
    intros H. destruct (nth_error w (i + m)) as [x|] eqn:E.
    - destruct (is_match u x) eqn:Mx.
      + destruct (H x eq_refl) as [r R]. exists r. eapply Acc_yes; eauto.
      + exists (inl false). eapply Acc_no; eauto.
    - exists (inl false). apply Acc_end. now apply nth_error_None.
  Qed.
  Lemma run_total w i u c lim : (forall m x, nth_error w (i + m) = Some x -> exists r, Chk k G sk w i c m x r) ->
    forall m, exists r, Run k G sk w i u c lim m r.
  Proof.
    intros H m. remember (length w - (i + m)) as d eqn:Ed. revert m lim Ed.
    induction d as [d IH] using lt_wf_ind; intros m lim Ed.
    assert (D : lim = Some 0 \/ lim <> Some 0) by (destruct lim as [[|]|]; auto; right; congruence).
    destruct D as [->|L]; [exists (inl 0); constructor|].
    destruct (acc_total w i u c m (H m)) as [[[|]|e] A].
    - assert (i + m < length w).
      { inversion A; subst. apply nth_error_Some. congruence. }
      destruct (IH (length w - (i + S m)) ltac:(lia) (S m) (limit_pred lim) eq_refl) as [[n|e] R].
      + exists (inl (S n)). now apply Run_step.
      + exists (inr e). now apply Run_step_err.
    - exists (inl 0). now apply Run_stop.
    - exists (inr e). now apply Run_err.
  Qed.

  (** All parsers of level [m], wherever at most [d] items remain. *)
  Definition all_total (d m : nat) : Prop :=
    forall p, wf m p -> core p -> forall w i, i <= length w -> length w - i <= d -> sk w i = i ->
      outcome w p i.
  Definition all_total_cond (d m : nat) (c : cond) : Prop :=
    forall w i, i <= length w -> length w - i <= d ->
      forall t x, nth_error w (i + t) = Some x -> exists r, Chk k G sk w i c t x r.

  Section Level.
    Variable d : nat.
    Hypothesis IHd : forall d', d' < d -> forall m, all_total d' m.

    Lemma follow m p m' q : core p -> core q -> next_level m p m' -> wf m' q ->
      (m' = m -> forall w i, i <= length w -> length w - i <= d -> sk w i = i -> outcome w q i) ->
      forall w i b j, i <= length w -> length w - i <= d -> sk w i = i -> Peg w p i (OK b j) ->
      outcome w q (sk w j).
    Proof.
      intros Cp Cq N Wq H w i b j Hi Hd E P. destruct (ok_in _ _ _ _ _ Cp Hi E P) as (? & ? & Hj).
      destruct (sk_at w j Hj) as (T1 & T2 & T3).
      destruct N as [->|A].
      - apply H; auto. lia.
      - pose proof (A _ _ _ _ Hi E P). apply (IHd (length w - sk w j) ltac:(lia) m'); auto.
    Qed.

    Lemma follow3 m p m' t m'' q : core p -> core t -> core q -> next_level m p m' -> next_level m' t m'' ->
      wf m'' q ->
      (m'' = m -> forall w i, i <= length w -> length w - i <= d -> sk w i = i -> outcome w q i) ->
      forall w i b j b' j', i <= length w -> length w - i <= d -> sk w i = i -> Peg w p i (OK b j) ->
      Peg w t (sk w j) (OK b' j') -> outcome w q (sk w j').
    Proof.
      intros Cp Ct Cq N N' Wq H w i b j b' j' Hi Hd E P Q.
      destruct (ok_in _ _ _ _ _ Cp Hi E P) as (? & ? & Hj). destruct (sk_at w j Hj) as (T1 & T2 & T3).
      destruct (ok_in _ _ _ _ _ Ct T2 T3 Q) as (? & ? & Hj'). destruct (sk_at w j' Hj') as (U1 & U2 & U3).
      destruct N as [->|A]; [destruct N' as [->|A]|].
      - apply H; auto. lia.
      - pose proof (A _ _ _ _ T2 T3 Q). apply (IHd (length w - sk w j') ltac:(lia) m''); auto.
      - pose proof (A _ _ _ _ Hi E P). apply (IHd (length w - sk w j') ltac:(lia) m''); auto.
    Qed.

    Lemma units_total m c : (core_cond c -> all_total_cond d m c) -> core_cond c ->
      forall w i, i <= length w -> length w - i <= d ->
      (forall u t, exists r, Acc k G sk w i u c t r) /\ (forall u lim, exists r, Run k G sk w i u c lim 0 r).
    Proof.
      intros H C w i Hi Hd. split.
      - intros u t. apply acc_total. intros x E. eapply (H C w i Hi Hd); eauto.
      - intros u lim. apply run_total. intros t x E. eapply (H C w i Hi Hd); eauto.
    Qed.

    Lemma first_total w i e ps : (forall p, In p ps -> outcome w p i) -> exists o, First k G sk w ps i e o.
    Proof.
      induction ps as [|p ps IH]; intros H; [eexists; constructor|].
      destruct (H p (or_introl eq_refl)) as [[b j|e'] P].
      - eexists. eapply First_hit; eauto.
      - destruct IH as [o F]; [intros; apply H; now right|]. eexists. eapply First_next; eauto.
    Qed.

    Definition good_pat (m : nat) (p : pat) : Prop :=
      core p -> forall w i, i <= length w -> length w - i <= d -> sk w i = i -> outcome w p i.

    Lemma level m : (forall m', m' < m -> all_total d m') -> all_total d m.
    Proof.
      intros IHm p W. revert IHm.
      assert (K : (forall m p, wf m p -> (forall m', m' < m -> all_total d m') -> good_pat m p) /\
                  (forall m c, wf_cond m c -> (forall m', m' < m -> all_total d m') -> core_cond c -> all_total_cond d m c)).
      2:{ intros IHm. exact (proj1 K m p W IHm). }
      clear m p W.
      apply wf_mutind; unfold good_pat.
      - (* leaves *) intros m p L IHm C w i Hi Hd E. destruct p; try contradiction.
        + eexists; apply Peg_empty.
        + eexists; apply Peg_fail.
        + destruct i; eexists; [apply Peg_start|apply Peg_start_ko; lia].
        + destruct (Nat.eq_dec i (length w)); eexists; [now apply Peg_end|apply Peg_end_ko; lia].
        + assert (Ek : k = KBytes) by (inversion C; auto).
          destruct (le_lt_dec (bo k w i + n) (tlen k w)) as [Le|Lt].
          * assert (T : i + n <= length w).
            { rewrite Ek in Le. rewrite bo_bytes, tlen_bytes in Le by auto. lia. }
            eexists. apply (Peg_consume k G sk w i (i + n) n); auto.
            rewrite Ek. rewrite !bo_bytes by lia. reflexivity.
          * eexists. now apply Peg_consume_ko.
        + eexists; apply Peg_consume_all.
        + destruct (list_eq_dec N.eq_dec (firstn (length l) (skipn i w)) l); eexists;
            [now apply Peg_lit|now apply Peg_lit_ko].
        + assert (F : lawful_fn k f) by (inversion C; auto).
          destruct (F w i Hi) as [(b & j & F' & ? & ? & ?)|(e & F')]; eexists;
            [eapply Peg_fn; eauto|eapply Peg_fn_ko; eauto].
        + eexists; apply Peg_nonep.
      - (* assert *) intros m p v W IH IHm C w i Hi Hd E. inversion C; subst.
        destruct (IH IHm ltac:(assumption) w i Hi Hd E) as [[b j|e] P]; destruct v; eexists;
          [eapply Peg_peek|eapply Peg_not_ko|eapply Peg_peek_ko|eapply Peg_not]; eauto.
      - (* builder *) intros m p f W IH Wf IHf IHm C w i Hi Hd E.
        assert (Cp : core p) by (inversion C; auto). assert (Lf : lawful_builder k sk f) by (inversion C; auto).
        assert (Cf : forall c s q c', f c s = (Ok q, c') -> core q) by (inversion C; auto).
        destruct (IH IHm Cp w i Hi Hd E) as [[b j|e] P]; [|eexists; eapply Peg_builder_ko; eauto].
        destruct (ok_in _ _ _ _ _ Cp Hi E P) as (? & ? & Hj). destruct (sk_at w j Hj) as (T1 & T2 & T3).
        destruct (Lf w b j j ltac:(lia) Hj ltac:(lia) T1) as (q & a & a' & F1 & F2 & B1 & B2 & _).
        destruct (sk_at w a B2) as (U1 & U2 & U3).
        destruct (IHf _ _ _ _ F1 IHm (Cf _ _ _ _ F1) w (sk w a) U2 ltac:(lia) U3) as [o Q].
        exists o. exact (Peg_builder k G sk w p f i b j q a o P F1 B1 B2 Q).
      - (* leaf wrapper *) intros m p W IH IHm C w i Hi Hd E. inversion C; subst.
        destruct (IH IHm ltac:(assumption) w i Hi Hd E) as [o P]. exists o. now constructor.
      - intros m u c W IH IHm C w i Hi Hd E. inversion C; subst.
        destruct (units_total m c (IH IHm) ltac:(assumption) w i Hi Hd) as [A R].
        destruct (A u 0) as [[[|]|e] P]; eexists; [apply Peg_once|apply Peg_once_ko|eapply Peg_once_err]; eauto.
      - intros m u c W IH IHm C w i Hi Hd E. inversion C; subst.
        destruct (units_total m c (IH IHm) ltac:(assumption) w i Hi Hd) as [A R].
        destruct (R u None) as [[[|n]|e] P]; eexists; [apply Peg_many1_ko|apply Peg_many1|eapply Peg_many1_err]; eauto.
      - intros m u c W IH IHm C w i Hi Hd E. inversion C; subst.
        destruct (units_total m c (IH IHm) ltac:(assumption) w i Hi Hd) as [A R].
        destruct (A u 0) as [[[|]|e] P]; eexists; [apply Peg_opt|apply Peg_opt_none|eapply Peg_opt_err]; eauto.
      - intros m u c W IH IHm C w i Hi Hd E. inversion C; subst.
        destruct (units_total m c (IH IHm) ltac:(assumption) w i Hi Hd) as [A R].
        destruct (R u None) as [[n|e] P]; eexists; [apply Peg_many0|eapply Peg_many0_err]; eauto.
      - intros m a b u c W IH IHm C w i Hi Hd E. inversion C; subst.
        destruct (units_total m c (IH IHm) ltac:(assumption) w i Hi Hd) as [A R].
        destruct (lt_dec (tlen k w - bo k w i) (a * min_length k u)) as [S|S]; [eexists; now apply Peg_between_short|].
        destruct (R u b) as [[n|e] P]; [|eexists; eapply Peg_between_err; eauto].
        destruct (le_lt_dec a n); eexists; [eapply Peg_between|eapply Peg_between_ko]; eauto.
      - intros m r u c W IH IHm C w i Hi Hd E. inversion C; subst.
        destruct (units_total m c (IH IHm) ltac:(assumption) w i Hi Hd) as [A R].
        destruct (lt_dec (tlen k w - bo k w i) (match r_lo r with Incl m => m | Excl m => m - 1 | Unb => 0 end * min_length k u)) as [S|S];
          [eexists; now apply Peg_times_short|].
        destruct (R u (limit_of r)) as [[n|e] P]; [|eexists; eapply Peg_times_err; eauto].
        destruct (crange_contains r n) eqn:I; eexists; [eapply Peg_times|eapply Peg_times_ko]; eauto.
      - intros m u v c W IH IHm C w i Hi Hd E. inversion C; subst.
        destruct (units_total m c (IH IHm) ltac:(assumption) w i Hi Hd) as [A R].
        destruct (lt_dec (tlen k w - bo k w i) (min_length k u + min_length k v)) as [S|S];
          [eexists; apply Peg_neuthen_short; now left|].
        destruct (le_lt_dec (i + 2) (length w)) as [L|L]; [|eexists; apply Peg_neuthen_short; now right].
        destruct (A u 0) as [[[|]|e] P].
        + destruct (A v 1) as [[[|]|e] Q]; eexists;
            [eapply Peg_neuthen|eapply Peg_neuthen_ko2|eapply Peg_neuthen_err2]; eauto.
        + eexists. eapply Peg_neuthen_ko1; eauto.
        + eexists. eapply Peg_neuthen_err1; eauto.
      - (* then *) intros m p q m' W IH N W' IH' IHm C w i Hi Hd E. inversion C; subst.
        destruct (IH IHm ltac:(assumption) w i Hi Hd E) as [[b j|e] P]; [|eexists; eapply Peg_then_ko1; eauto].
        destruct (follow m p m' q ltac:(assumption) ltac:(assumption) N W') with (w := w) (i := i) (b := b) (j := j) as [[b' j'|e] Q]; auto.
        { intros ->. now apply IH'. }
        + eexists. eapply Peg_then; eauto.
        + eexists. eapply Peg_then_ko2; eauto.
      - (* if_then *) intros m p t q m' m'' W IH N W' IH' N' W'' IH'' IHm C w i Hi Hd E. inversion C; subst.
        destruct (IH IHm ltac:(assumption) w i Hi Hd E) as [[b j|e] P]; [|eexists; eapply Peg_ifthen_ko1; eauto].
        destruct (follow m p m' t ltac:(assumption) ltac:(assumption) N W') with (w := w) (i := i) (b := b) (j := j) as [[b' j'|e] Q]; auto.
        { intros ->. now apply IH'. }
        2:{ eexists. eapply Peg_ifthen_no; eauto. }
        destruct (follow3 m p m' t m'' q ltac:(assumption) ltac:(assumption) ltac:(assumption) N N' W'')
          with (w := w) (i := i) (b := b) (j := j) (b' := b') (j' := j') as [[b2 j2|e] Z]; auto.
        { intros ->. now apply IH''. }
        + eexists. eapply Peg_ifthen_yes; eauto.
        + eexists. eapply Peg_ifthen_ko2; eauto.
      - intros m p q W IH W' IH' IHm C w i Hi Hd E. inversion C; subst.
        destruct (IH IHm ltac:(assumption) w i Hi Hd E) as [[b j|e] P]; [eexists; eapply Peg_or1; eauto|].
        destruct (IH' IHm ltac:(assumption) w i Hi Hd E) as [o Q]. exists o. eapply Peg_or2; eauto.
      - intros m p q W IH W' IH' IHm C w i Hi Hd E. inversion C; subst.
        match goal with H : starts_here _ _ _ p, H' : starts_here _ _ _ q |- _ => rename H into Sp; rename H' into Sq end.
        destruct (IH IHm ltac:(assumption) w i Hi Hd E) as [[b j|e] P];
        destruct (IH' IHm ltac:(assumption) w i Hi Hd E) as [[b' j'|e'] Q];
          try (pose proof (Sp _ _ _ _ P); subst b); try (pose proof (Sq _ _ _ _ Q); subst b').
        + destruct (le_lt_dec j' j); eexists; [eapply Peg_longest_l|eapply Peg_longest_r]; eauto.
        + eexists. eapply Peg_longest_l1; eauto.
        + eexists. eapply Peg_longest_r1; eauto.
        + eexists. eapply Peg_longest_ko; eauto.
      - intros m p W IH IHm C w i Hi Hd E. inversion C; subst.
        destruct (IH IHm ltac:(assumption) w i Hi Hd E) as [o P]. exists o. now constructor.
      - (* prefix *) intros m p q m' W IH N W' IH' IHm C w i Hi Hd E. inversion C; subst.
        destruct (IH IHm ltac:(assumption) w i Hi Hd E) as [[b j|e] P]; [|eexists; eapply Peg_prefix_ko1; eauto].
        destruct (follow m q m' p ltac:(assumption) ltac:(assumption) N W') with (w := w) (i := i) (b := b) (j := j) as [[b' j'|e] Q]; auto.
        { intros ->. now apply IH'. }
        + eexists. eapply Peg_prefix; eauto.
        + eexists. eapply Peg_prefix_ko2; eauto.
      - (* suffix *) intros m p q m' W IH N W' IH' IHm C w i Hi Hd E. inversion C; subst.
        destruct (IH IHm ltac:(assumption) w i Hi Hd E) as [[b j|e] P]; [|eexists; eapply Peg_suffix_ko1; eauto].
        destruct (follow m p m' q ltac:(assumption) ltac:(assumption) N W') with (w := w) (i := i) (b := b) (j := j) as [[b' j'|e] Q]; auto.
        { intros ->. now apply IH'. }
        + eexists. eapply Peg_suffix; eauto.
        + eexists. eapply Peg_suffix_ko2; eauto.
      - (* enclose *) intros m p o c m' m'' W IH N W' IH' N' W'' IH'' IHm C w i Hi Hd E. inversion C; subst.
        destruct (IH IHm ltac:(assumption) w i Hi Hd E) as [[b j|e] P]; [|eexists; eapply Peg_enclose_ko1; eauto].
        destruct (follow m o m' p ltac:(assumption) ltac:(assumption) N W') with (w := w) (i := i) (b := b) (j := j) as [[b' j'|e] Q]; auto.
        { intros ->. now apply IH'. }
        2:{ eexists. eapply Peg_enclose_ko2; eauto. }
        destruct (follow3 m o m' p m'' c ltac:(assumption) ltac:(assumption) ltac:(assumption) N N' W'')
          with (w := w) (i := i) (b := b) (j := j) (b' := b') (j' := j') as [[b2 j2|e] Z]; auto.
        { intros ->. now apply IH''. }
        + eexists. eapply Peg_enclose; eauto.
        + eexists. eapply Peg_enclose_ko3; eauto.
      - (* sep_once *) intros m p s q m' m'' W IH N W' IH' N' W'' IH'' IHm C w i Hi Hd E. inversion C; subst.
        destruct (IH IHm ltac:(assumption) w i Hi Hd E) as [[b j|e] P]; [|eexists; eapply Peg_seponce_ko1; eauto].
        destruct (follow m p m' s ltac:(assumption) ltac:(assumption) N W') with (w := w) (i := i) (b := b) (j := j) as [[b' j'|e] Q]; auto.
        { intros ->. now apply IH'. }
        2:{ eexists. eapply Peg_seponce_ko2; eauto. }
        destruct (follow3 m p m' s m'' q ltac:(assumption) ltac:(assumption) ltac:(assumption) N N' W'')
          with (w := w) (i := i) (b := b) (j := j) (b' := b') (j' := j') as [[b2 j2|e] Z]; auto.
        { intros ->. now apply IH''. }
        + eexists. eapply Peg_seponce; eauto.
        + eexists. eapply Peg_seponce_ko3; eauto.
      - (* sep *) intros m p s mn bb m' W IH N W' IH' A IHm C w i Hi Hd E. inversion C; subst.
        destruct (seps_total w p s None ltac:(assumption) ltac:(assumption) ltac:(right; exact A) i Hi) as (n & j & R).
        { intros i' ? ? ?. apply IH; auto. lia. }
        { intros i' b j ? ? ? P. apply (follow m p m' s) with (i := i') (b := b); auto; [|lia].
          intros ->. now apply IH'. }
        destruct (le_lt_dec mn n); eexists; [eapply Peg_sep|eapply Peg_sep_ko]; eauto.
      - (* sep2 *) intros m p s a l bb m' W IH N W' IH' IHm C w i Hi Hd E. inversion C; subst.
        destruct (seps_total w p s (Some (S l)) ltac:(assumption) ltac:(assumption) ltac:(left; discriminate) i Hi) as (n & j & R).
        { intros i' ? ? ?. apply IH; auto. lia. }
        { intros i' b j ? ? ? P. apply (follow m p m' s) with (i := i') (b := b); auto; [|lia].
          intros ->. now apply IH'. }
        destruct (le_lt_dec a n); eexists; [eapply Peg_sep2|eapply Peg_sep2_ko]; eauto.
      - (* sep_collect *) intros m p s mn bb m' W IH N W' IH' A IHm C w i Hi Hd E. inversion C; subst.
        destruct (seps_total w p s None ltac:(assumption) ltac:(assumption) ltac:(right; exact A) i Hi) as (n & j & R).
        { intros i' ? ? ?. apply IH; auto. lia. }
        { intros i' b j ? ? ? P. apply (follow m p m' s) with (i := i') (b := b); auto; [|lia].
          intros ->. now apply IH'. }
        destruct (le_lt_dec mn n); eexists; [eapply Peg_sepcollect|eapply Peg_sepcollect_ko]; eauto.
      - (* repeat *) intros m p r W IH A IHm C w i Hi Hd E. inversion C; subst.
        destruct (reps_total w p (limit_of r) ltac:(assumption) A i Hi) as (n & j & R).
        { intros i' ? ? ?. apply IH; auto. lia. }
        destruct (crange_contains r n) eqn:I; eexists; [eapply Peg_repeat|eapply Peg_repeat_ko]; eauto.
      - (* repeat2 *) intros m p a l W IH IHm C w i Hi Hd E. inversion C; subst.
        destruct (reps_total w p (Some (S l)) ltac:(assumption) ltac:(left; discriminate) i Hi) as (n & j & R).
        { intros i' ? ? ?. apply IH; auto. lia. }
        destruct (le_lt_dec a n); [destruct (le_lt_dec n l)|]; eexists;
          [eapply Peg_repeat2|eapply Peg_repeat2_ko|eapply Peg_repeat2_ko]; eauto.
      - (* collect *) intros m p mn W IH A IHm C w i Hi Hd E. inversion C; subst.
        destruct (reps_total w p None ltac:(assumption) ltac:(right; exact A) i Hi) as (n & j & R).
        { intros i' ? ? ?. apply IH; auto. lia. }
        destruct (le_lt_dec mn n); eexists; [eapply Peg_collect|eapply Peg_collect_ko]; eauto.
      - intros m p W IH IHm C w i Hi Hd E. inversion C; subst.
        destruct (IH IHm ltac:(assumption) w i Hi Hd E) as [[b j|e] P]; eexists;
          [eapply Peg_option|eapply Peg_option_none]; eauto.
      - (* branch *) intros m t p q W IH W' IH' IHm C w i Hi Hd E. inversion C; subst.
        match goal with H : forall c, decides (t c) |- _ => pose proof (H (cx k w i)) as D end.
        destruct (t (cx k w i)) as [[|]|e| |] eqn:T; try contradiction.
        + destruct (IH IHm ltac:(assumption) w i Hi Hd E) as [o P]. exists o. now apply Peg_branch_t.
        + destruct (IH' IHm ltac:(assumption) w i Hi Hd E) as [o P]. exists o. now apply Peg_branch_f.
        + eexists. eapply Peg_branch_e; eauto.
      - intros m p f W IH IHm C w i Hi Hd E. inversion C; subst.
        destruct (IH IHm ltac:(assumption) w i Hi Hd E) as [o P]. exists o. now constructor.
      - (* choice *) intros m e b ps W IH IHm C w i Hi Hd E. inversion C; subst.
        match goal with H : Forall _ _ |- _ => rewrite Forall_forall in H; rename H into F end.
        destruct (first_total w i e ps) as [o Fo]; [|exists o; now constructor].
        intros p I. apply (IH p I); auto.
      - (* pair choice *) intros m e b ps W IH IHm C w i Hi Hd E. inversion C; subst.
        match goal with H : Forall _ _ |- _ => rewrite Forall_forall in H; rename H into F end.
        destruct (first_total w i e (map fst ps)) as [o Fo]; [|exists o; now constructor].
        intros p I. apply (IH p I); auto.
      - intros m p W IH IHm C w i Hi Hd E. inversion C; subst.
        destruct (IH IHm ltac:(assumption) w i Hi Hd E) as [o P]. exists o. now constructor.
      - (* recursive reference *) intros m x R IHm C w i Hi Hd E.
        destruct (env_get G x) as [p|] eqn:X; [|eexists; now apply Peg_ref_none].
        destruct (IHm (rk x) ltac:(apply R; discriminate) p (WE x p X) (CE x p X) w i Hi Hd E) as [o P].
        exists o. now apply (Peg_ref k G sk w x p).
      - intros m IHm C w i Hi Hd t x E. eexists. constructor.
      - intros m f IHm C w i Hi Hd t x E. inversion C; subst.
        match goal with H : forall c x, decides (f c x) |- _ => pose proof (H (cx k w i) (bo k w (i + t) - bo k w i, x)) as D end.
        destruct (f (cx k w i) (bo k w (i + t) - bo k w i, x)) as [b|e| |] eqn:F; try contradiction;
          eexists; [apply Chk_fn|apply Chk_fn_err]; eauto.
      - intros m p W IH IHm C w i Hi Hd t x E. inversion C; subst.
        assert (L : length (skipn (i + t) w) = length w - (i + t)) by apply skipn_length.
        destruct (sk_at (skipn (i + t) w) 0 ltac:(lia)) as (S1 & S2 & S3).
        destruct (IH IHm ltac:(assumption) (skipn (i + t) w) (sk (skipn (i + t) w) 0) S2 ltac:(lia) S3) as [[b j|e] P];
          eexists; [eapply Chk_regex|eapply Chk_regex_no]; eauto.
    Qed.
  End Level.

  Theorem peg_total : forall m p, wf m p -> core p -> forall w i, i <= length w -> sk w i = i ->
    exists o, Peg w p i o.
  Proof.
    assert (A : forall d m, all_total d m).
    { induction d as [d IHd] using lt_wf_ind. induction m as [m IHm] using lt_wf_ind. now apply level. }
    intros m p W C w i Hi E. now apply (A (length w - i) m p W C w i).
  Qed.
End Term.
