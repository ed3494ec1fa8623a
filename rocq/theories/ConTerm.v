(** Termination of constructing mode when mappers and handlers may fail. *)

From Coq Require Import List Arith NArith Bool Lia.
From Verif Require Import Base Text Context Neu Syntax Regex Ctor TextProofs Spec Units Core Sound Complete Laws CtorSpec ConSpec ConSound ConComplete Term Consumes TermLaws.
Import ListNotations.

Section ConTerm.
  Variable k : kind.
  Variable G : env.
  Variable sk : text -> nat -> nat.
  Variable pols : list pat.
  Context {ST : Type}.
  Variable hv : text -> nat -> nat -> ST -> res val * ST.
  Variable rk : nat -> nat.
  Notation Peg := (Peg k G sk).
  Notation Con := (Con k G sk hv).
  Notation core := (core k G sk).
  Notation con_ok := (con_ok k G sk).
  Notation wf := (wf k G sk rk).
  Notation advances := (advances k G sk).
  Notation next_level := (next_level k G sk).

  (** Whenever [p] builds a value, it consumes something beyond what the context skips. *)
  Definition cadvances (p : pat) : Prop :=
    forall w i s v j s', i <= length w -> Con w p i s (CV v j s') -> sk w i < sk w j.
  Definition cnext (m : nat) (p : pat) (m' : nat) : Prop := m' = m \/ cadvances p.
  Definition pwf (p : pat) : Prop := exists m, wf m p.

  (** As [wf] of Term.v, for constructing. *)
  Inductive cwf : nat -> pat -> Prop :=
  | cwf_leaf m p : leafy p -> pwf p -> cwf m p
  | cwf_pat m p : pwf p -> cwf m (PPat p)
  | cwf_then m p q m' : cwf m p -> cnext m p m' -> cwf m' q -> cwf m (PThen p q)
  | cwf_ifthen m p t q m' m'' :
      cwf m p -> cnext m p m' -> pwf t -> next_level m' t m'' -> cwf m'' q -> cwf m (PIfThen p t q)
  | cwf_or m p q : cwf m p -> cwf m q -> cwf m (POr p q)
  | cwf_longest m p q : cwf m p -> cwf m q -> cwf m (PLongest p q)
  | cwf_prefix m p q m' : pwf q -> next_level m q m' -> cwf m' p -> cwf m (PPrefix p q)
  | cwf_suffix m p q : cwf m p -> pwf q -> cwf m (PSuffix p q)
  | cwf_enclose m p o c m' : pwf o -> next_level m o m' -> cwf m' p -> pwf c -> cwf m (PEnclose p o c)
  | cwf_seponce m p s q m' m'' :
      cwf m p -> cnext m p m' -> pwf s -> next_level m' s m'' -> cwf m'' q -> cwf m (PSepOnce p s q)
  | cwf_sep m p s mn b : cwf m p -> pwf s -> cadvances p \/ advances s -> cwf m (PSep p s mn b)
  | cwf_sep2 m p s a l b : cwf m p -> pwf s -> cwf m (PSep2 p s a l b)
  | cwf_sepcollect m p s mn b : cwf m p -> pwf s -> cadvances p \/ advances s -> cwf m (PSepCollect p s mn b)
  | cwf_repeat m p r : cwf m p -> limit_of r <> None \/ cadvances p -> cwf m (PRepeat p r)
  | cwf_repeat2 m p a l : cwf m p -> cwf m (PRepeat2 p a l)
  | cwf_collect m p mn : cwf m p -> cadvances p -> cwf m (PCollect p mn)
  | cwf_option m p : cwf m p -> cwf m (POption p)
  | cwf_branch m t p q : cwf m p -> cwf m q -> cwf m (PBranch t p q)
  | cwf_map m p f : cwf m p -> cwf m (PMap p f)
  | cwf_dyn m p f : cwf m p -> (forall c a q c', f c a = (Ok q, c') -> cwf m q) -> cwf m (PDynThen p f)
  | cwf_fn m f : cwf m (PCtorFn f)
  | cwf_choice m e b ps : (forall p, In p ps -> cwf m p) -> cwf m (PChoice e b ps)
  | cwf_pairchoice m e b ps : (forall p, In p ps -> cwf m (fst p)) -> cwf m (PPairChoice e b ps)
  | cwf_wrap m p : cwf m p -> cwf m (PWrap p)
  | cwf_nonep m : cwf m PNoneP
  | cwf_ref m x : (env_get G x <> None -> rk x < m) -> cwf m (PRef x).

  Definition cwf_env : Prop := forall x p, env_get G x = Some p -> cwf (rk x) p.

  Variable h : handler ST.
  Hypothesis SK : skipper sk.
  Hypothesis CEnv : core_env k G sk.
  Hypothesis IM : implements k G sk pols.
  Hypothesis OE : con_ok_env k G sk.
  Hypothesis HA : answers k sk hv h.
  Hypothesis WE : wf_env k G sk rk.
  Hypothesis CWE : cwf_env.

  Lemma con_in w p i s o : Con w p i s o -> con_ok p -> i <= length w -> cbounds sk w i o.
  Proof. intros H C Hi. now apply (con_complete k G sk pols hv h SK CEnv IM OE HA w p i s o). Qed.
  Lemma peg_in w p i b j : Peg w p (sk w i) (OK b j) -> core p -> i <= length w -> sk w i <= sk w j /\ j <= length w.
  Proof.
    intros P C Hi. pose proof (sk_up sk SK w i Hi) as [_ H].
    pose proof (ok_in k G sk SK CEnv pols IM p w (sk w i) b j C H (sk_idem sk SK w i Hi) P) as (? & ? & ?).
    split; [apply (sk_below sk SK); lia|auto].
  Qed.
  Lemma peg_adv w p i b j : advances p -> Peg w p (sk w i) (OK b j) -> core p -> i <= length w -> sk w i < sk w j.
  Proof.
    intros A P C Hi. pose proof (sk_up sk SK w i Hi) as [_ H]. pose proof (peg_in w p i b j P C Hi) as [_ J].
    pose proof (A w (sk w i) b j H (sk_idem sk SK w i Hi) P). pose proof (sk_up sk SK w j J). lia.
  Qed.
  Lemma peg_out w p i : pwf p -> core p -> i <= length w -> exists o, Peg w p (sk w i) o.
  Proof.
    intros [m W] C Hi. pose proof (sk_up sk SK w i Hi) as [_ H].
    exact (peg_total k G sk rk SK CEnv WE pols IM m p W C w (sk w i) H (sk_idem sk SK w i Hi)).
  Qed.

  Definition coutcome (w : text) (p : pat) (i : nat) : Prop := forall s, exists o, Con w p i s o.

  Lemma creps_total w p lim : con_ok p -> lim <> None \/ cadvances p -> forall i, i <= length w ->
    (forall i', sk w i <= sk w i' -> i' <= length w -> coutcome w p i') -> forall s, exists l, Creps k G sk hv w p lim i s l.
  Proof.
    intros C L.
    assert (Step : forall i lim' s, i <= length w -> lim' <> Some 0 -> coutcome w p i ->
      (forall j s', sk w i <= sk w j -> j <= length w -> (cadvances p -> sk w i < sk w j) -> exists l, Creps k G sk hv w p (limit_pred lim') j s' l) ->
      exists l, Creps k G sk hv w p lim' i s l).
    { intros i lim' s Hi Hl O K. destruct (O s) as [[v j s1|e x s1|] P].
      - destruct (con_in _ _ _ _ _ P C Hi) as [H1 H2]. destruct (K j s1 H1 H2) as [l R]; [intros A; now apply (A w i s v j s1)|]. eexists. eapply Creps_step; eauto.
      - eexists. eapply Creps_stop; eauto.
      - eexists. eapply Creps_panic; eauto. }
    destruct lim as [c|].
    - clear L. induction c as [|c IH]; intros i Hi H s; [eexists; constructor|].
      apply Step; auto; [congruence|]. intros j s' Hj1 Hj2 _. cbn. apply IH; auto. intros; apply H; auto; lia.
    - destruct L as [L|A]; [congruence|]. intros i Hi. remember (length w - sk w i) as d eqn:Ed. revert i Hi Ed.
      induction d as [d IH] using lt_wf_ind; intros i Hi Ed H s.
      apply Step; auto; [congruence|]. intros j s' Hj1 Hj2 Hlt. specialize (Hlt A). cbn. pose proof (sk_up sk SK w j Hj2).
      apply (IH (length w - sk w j)); auto; [lia|]. intros; apply H; auto; lia.
  Qed.

  Lemma cseps_total w p q skip lim : con_ok p -> core q -> pwf q -> lim <> None \/ cadvances p \/ advances q -> forall i, i <= length w ->
    (forall i', sk w i <= sk w i' -> i' <= length w -> coutcome w p i') -> forall s, exists l, Cseps k G sk hv w p q skip lim i s l.
  Proof.
    intros C Cs Ws L.
    assert (Step : forall i lim' s, i <= length w -> lim' <> Some 0 -> coutcome w p i ->
      (forall j s', sk w i <= sk w j -> j <= length w -> (cadvances p \/ advances q -> sk w i < sk w j) -> exists l, Cseps k G sk hv w p q skip (limit_pred lim') j s' l) ->
      exists l, Cseps k G sk hv w p q skip lim' i s l).
    { intros i lim' s Hi Hl O K. destruct (O s) as [[v j s1|e x s1|] P].
      - destruct (con_in _ _ _ _ _ P C Hi) as [H1 H2]. destruct (peg_out w q j Ws Cs H2) as [[b j'|e] Q].
        + destruct (peg_in _ _ _ _ _ Q Cs H2) as (? & ?). destruct (K j' s1) as [l R]; [lia|lia| |eexists; eapply Cseps_step; eauto].
          intros [A|A]; [pose proof (A _ _ _ _ _ _ Hi P); lia|pose proof (peg_adv _ _ _ _ _ A Q Cs H2); lia].
        + eexists. eapply Cseps_last; eauto.
      - eexists. eapply Cseps_stop; eauto.
      - eexists. eapply Cseps_panic; eauto. }
    destruct lim as [c|].
    - clear L. induction c as [|c IH]; intros i Hi H s; [eexists; constructor|].
      apply Step; auto; [congruence|]. intros j s' Hj1 Hj2 _. cbn. apply IH; auto. intros; apply H; auto; lia.
    - destruct L as [L|A]; [congruence|]. intros i Hi. remember (length w - sk w i) as d eqn:Ed. revert i Hi Ed.
      induction d as [d IH] using lt_wf_ind; intros i Hi Ed H s.
      apply Step; auto; [congruence|]. intros j s' Hj1 Hj2 Hlt. specialize (Hlt A). cbn. pose proof (sk_up sk SK w j Hj2).
      apply (IH (length w - sk w j)); auto; [lia|]. intros; apply H; auto; lia.
  Qed.

  Lemma cpolls_true w p q skip : con_ok p -> core q -> pwf q -> forall i, i <= length w -> coutcome w p i ->
    forall s, exists l, Cpolls k G sk hv w p q skip true i s l.
  Proof.
    intros C Cs Ws i Hi O s. destruct (O s) as [[v j s1|e x s1|] P].
    - destruct (con_in _ _ _ _ _ P C Hi) as [H1 H2]. destruct (peg_out w q j Ws Cs H2) as [[b j'|e] Q];
        eexists; [eapply Cpolls_over; eauto|eapply Cpolls_over_ko; eauto].
    - eexists. eapply Cpolls_stop; eauto.
    - eexists. eapply Cpolls_panic; eauto.
  Qed.
  Lemma cpolls_total w p q skip : con_ok p -> core q -> pwf q -> cadvances p \/ advances q -> forall i, i <= length w ->
    (forall i', sk w i <= sk w i' -> i' <= length w -> coutcome w p i') -> forall s, exists l, Cpolls k G sk hv w p q skip false i s l.
  Proof.
    intros C Cs Ws A i Hi. remember (length w - sk w i) as d eqn:Ed. revert i Hi Ed.
    induction d as [d IH] using lt_wf_ind; intros i Hi Ed H s.
    destruct (H i (le_n _) Hi s) as [[v j s1|e x s1|] P].
    - destruct (con_in _ _ _ _ _ P C Hi) as [H1 H2]. destruct (peg_out w q j Ws Cs H2) as [[b j'|e] Q].
      + destruct (peg_in _ _ _ _ _ Q Cs H2) as (? & J). pose proof (sk_up sk SK w j' J).
        assert (sk w i < sk w j'). { destruct A as [A|A]; [pose proof (A _ _ _ _ _ _ Hi P); lia|pose proof (peg_adv _ _ _ _ _ A Q Cs H2); lia]. }
        destruct (IH (length w - sk w j') ltac:(lia) j' ltac:(lia) eq_refl) with (s := s1) as [l R]; [intros; apply H; auto; lia|]. eexists. eapply Cpolls_step; eauto.
      + destruct skip; [|eexists; eapply Cpolls_drop; eauto].
        destruct (cpolls_true w p q true C Cs Ws j H2 (H j H1 H2) s1) as [l R]. eexists. eapply Cpolls_last; eauto.
    - eexists. eapply Cpolls_stop; eauto.
    - eexists. eapply Cpolls_panic; eauto.
  Qed.

  Lemma cfirst_total w e ps i : (forall p, In p ps -> coutcome w (fst p) i) -> forall s, exists o, Cfirst k G sk hv w e ps i s o.
  Proof.
    induction ps as [|[p g] ps IH]; intros H s; [eexists; constructor|].
    destruct (H (p, g) (or_introl eq_refl) s) as [[v j s1|e' x s1|] P]; cbn [fst] in P.
    - eexists. eapply Cfirst_hit; eauto.
    - destruct IH with (s := s1) as [o F]; [intros; apply H; now right|]. eexists. eapply Cfirst_next; eauto.
    - eexists. eapply Cfirst_panic; eauto.
  Qed.
  Lemma clongest_total w e ps i : (forall p, In p ps -> coutcome w (fst p) i) -> forall best en cur s, exists o, Clongest k G sk hv w e ps i best en cur s o.
  Proof.
    induction ps as [|[p g] ps IH]; intros H best en cur s; [destruct best; eexists; constructor|].
    assert (H' : forall q, In q ps -> coutcome w (fst q) i) by (intros; apply H; now right).
    destruct (H (p, g) (or_introl eq_refl) s) as [[v j s1|e' x s1|] P]; cbn [fst] in P.
    - destruct (le_lt_dec j en).
      + destruct (IH H' best en j s1) as [o F]. eexists. eapply Clongest_less; eauto.
      + destruct (IH H' (Some (g v)) j j s1) as [o F]. eexists. eapply Clongest_more; eauto.
    - destruct (IH H' best en x s1) as [o F]. eexists. eapply Clongest_ko; eauto.
    - eexists. eapply Clongest_panic; eauto.
  Qed.

  Definition call_total (d m : nat) : Prop :=
    forall p, cwf m p -> con_ok p -> forall w i, i <= length w -> length w - sk w i <= d -> coutcome w p i.

  Section Level.
    Variable d : nat.
    Hypothesis IHd : forall d', d' < d -> forall m, call_total d' m.

    (** [q] after a step from [i] to [j] that keeps the level or consumes. *)
    Lemma cfollow m m' q (w : text) i j : cwf m' q -> con_ok q -> j <= length w -> length w - sk w i <= d -> sk w i <= sk w j ->
      m' = m \/ sk w i < sk w j -> (m' = m -> forall w i, i <= length w -> length w - sk w i <= d -> coutcome w q i) ->
      coutcome w q j.
    Proof.
      intros W C Hj Hd Hij [E|A] H; [apply H; auto; lia|]. pose proof (sk_up sk SK w j Hj). apply (IHd (length w - sk w j) ltac:(lia) m'); auto.
    Qed.

    Lemma clevel m : (forall m', m' < m -> call_total d m') -> call_total d m.
    Proof.
      intros IHm p W. revert IHm.
      induction W; intros IHm C w i Hi Hd st; inversion C; subst; try (match goal with L : leafy _ |- _ => elim L end).
      all: try (match goal with L : leafy ?p, P : pwf ?p |- _ => destruct (peg_out w p i P ltac:(assumption) Hi) as [[b j|e] Q]; eexists; [eapply Con_leaf; eauto|eapply Con_leaf_ko; eauto] end).
      - (* pat *) destruct (peg_out w p i) as [[b j|e] Q]; auto; eexists; [eapply Con_pat; eauto|eapply Con_pat_ko; eauto].
      - (* then *) destruct (IHW1 IHm ltac:(assumption) w i Hi Hd st) as [[a j s1|e x s1|] P]; [|eexists; eapply Con_then1; [eauto|exact I]..].
        destruct (con_in _ _ _ _ _ P ltac:(assumption) Hi) as [B1 B2].
        destruct (cfollow m m' q w i j W2) with (s := s1) as [[b j' s2|e x s2|] Q]; auto.
        { destruct H as [E|A]; [now left|right; now apply (A w i st a j s1)]. }
        { intros -> ? ? ? ?. apply IHW2; auto. }
        + eexists. eapply Con_then; eauto.
        + eexists. eapply Con_then2; [eauto|eauto|exact I].
        + eexists. eapply Con_then2; [eauto|eauto|exact I].
      - (* if_then *) destruct (IHW1 IHm ltac:(assumption) w i Hi Hd st) as [[a j s1|e x s1|] P]; [|eexists; eapply Con_ifthen1; [eauto|exact I]..].
        destruct (con_in _ _ _ _ _ P ltac:(assumption) Hi) as [B1 B2].
        destruct (peg_out w t j) as [[b1 j1|e1] Q]; auto; [|eexists; eapply Con_ifthen_no; eauto].
        destruct (peg_in _ _ _ _ _ Q ltac:(assumption) B2) as (? & ?).
        destruct (cfollow m m'' q w i j1 W2) with (s := s1) as [[b j' s2|e x s2|] R]; auto; [lia| | | | |].
        { destruct H1 as [->|A]; [|right; pose proof (peg_adv w t j b1 j1 A Q ltac:(assumption) B2); lia]. destruct H as [E|A]; [now left|right; pose proof (A w i st a j s1 Hi P); lia]. }
        { intros -> ? ? ? ?. apply IHW2; auto. }
        + eexists. eapply Con_ifthen; eauto.
        + eexists. eapply Con_ifthen2; [eauto|eauto|eauto|exact I].
        + eexists. eapply Con_ifthen2; [eauto|eauto|eauto|exact I].
      - (* or *) destruct (IHW1 IHm ltac:(assumption) w i Hi Hd st) as [[a j s1|e x s1|] P].
        + eexists. eapply Con_or1; eauto.
        + destruct (IHW2 IHm ltac:(assumption) w i Hi Hd s1) as [o Q]. eexists. eapply Con_or2; eauto.
        + eexists. eapply Con_or1_panic; eauto.
      - (* longest *) destruct (IHW1 IHm ltac:(assumption) w i Hi Hd st) as [[a j s1|e x s1|] P].
        + destruct (IHW2 IHm ltac:(assumption) w i Hi Hd s1) as [o Q]. eexists. eapply Con_longest_v; eauto.
        + destruct (IHW2 IHm ltac:(assumption) w i Hi Hd s1) as [o Q]. eexists. eapply Con_longest_e; eauto.
        + eexists. eapply Con_longest_panic; eauto.
      - (* prefix *) destruct (peg_out w q i) as [[b1 j1|e1] Q]; auto; [|eexists; eapply Con_prefix_ko; eauto].
        destruct (peg_in _ _ _ _ _ Q ltac:(assumption) Hi) as (? & ?).
        destruct (cfollow m m' p w i j1 W) with (s := st) as [o R]; auto.
        { destruct H0 as [->|A]; [now left|right; exact (peg_adv w q i b1 j1 A Q ltac:(assumption) Hi)]. }
        { intros -> ? ? ? ?. apply IHW; auto. }
        eexists. eapply Con_prefix; eauto.
      - (* suffix *) destruct (IHW IHm ltac:(assumption) w i Hi Hd st) as [[a j s1|e x s1|] P]; [|eexists; eapply Con_suffix1; [eauto|exact I]..].
        destruct (con_in _ _ _ _ _ P ltac:(assumption) Hi) as [B1 B2].
        destruct (peg_out w q j) as [[b1 j1|e1] Q]; auto; eexists; [eapply Con_suffix; eauto|eapply Con_suffix_ko; eauto].
      - (* enclose *) destruct (peg_out w o i) as [[b1 j1|e1] Q]; auto; [|eexists; eapply Con_enclose_ko1; eauto].
        destruct (peg_in _ _ _ _ _ Q ltac:(assumption) Hi) as (? & ?).
        destruct (cfollow m m' p w i j1 W) with (s := st) as [[a j s1|e x s1|] R]; auto.
        { destruct H0 as [->|A]; [now left|right; exact (peg_adv w o i b1 j1 A Q ltac:(assumption) Hi)]. }
        { intros -> ? ? ? ?. apply IHW; auto. }
        2,3: eexists; eapply Con_enclose2; [eauto|eauto|exact I].
        destruct (con_in _ _ _ _ _ R ltac:(assumption) ltac:(assumption)).
        destruct (peg_out w c j) as [[b2 j2|e2] Q2]; auto; eexists; [eapply Con_enclose; eauto|eapply Con_enclose_ko3; eauto].
      - (* sep_once *) destruct (IHW1 IHm ltac:(assumption) w i Hi Hd st) as [[a j s1|e x s1|] P]; [|eexists; eapply Con_seponce1; [eauto|exact I]..].
        destruct (con_in _ _ _ _ _ P ltac:(assumption) Hi) as [B1 B2].
        destruct (peg_out w s j) as [[b1 j1|e1] Q]; auto; [|eexists; eapply Con_seponce_ko; eauto].
        destruct (peg_in _ _ _ _ _ Q ltac:(assumption) B2) as (? & ?).
        destruct (cfollow m m'' q w i j1 W2) with (s := s1) as [[b j' s2|e x s2|] R]; auto; [lia| | | | |].
        { destruct H1 as [->|A]; [|right; pose proof (peg_adv w s j b1 j1 A Q ltac:(assumption) B2); lia]. destruct H as [E|A]; [now left|right; pose proof (A w i st a j s1 Hi P); lia]. }
        { intros -> ? ? ? ?. apply IHW2; auto. }
        + eexists. eapply Con_seponce; eauto.
        + eexists. eapply Con_seponce2; [eauto|eauto|eauto|exact I].
        + eexists. eapply Con_seponce2; [eauto|eauto|eauto|exact I].
      - (* sep *) destruct (cseps_total w p s b None ltac:(assumption) ltac:(assumption) H ltac:(auto) i Hi) with (s := st) as [l R]; [intros; apply IHW; auto; lia|].
        eexists. eapply Con_sep; eauto.
      - destruct (cseps_total w p s b (Some (Datatypes.S l)) ltac:(assumption) ltac:(assumption) H ltac:(left; discriminate) i Hi) with (s := st) as [l' R]; [intros; apply IHW; auto; lia|].
        eexists. eapply Con_sep2; eauto.
      - destruct (cpolls_total w p s b ltac:(assumption) ltac:(assumption) H ltac:(auto) i Hi) with (s := st) as [l R]; [intros; apply IHW; auto; lia|].
        eexists. eapply Con_sepcollect; eauto.
      - destruct (creps_total w p (limit_of r) ltac:(assumption) H i Hi) with (s := st) as [l R]; [intros; apply IHW; auto; lia|].
        eexists. eapply Con_repeat; eauto.
      - destruct (creps_total w p (Some (Datatypes.S l)) ltac:(assumption) ltac:(left; discriminate) i Hi) with (s := st) as [l' R]; [intros; apply IHW; auto; lia|].
        eexists. eapply Con_repeat2; eauto.
      - destruct (creps_total w p None ltac:(assumption) ltac:(right; assumption) i Hi) with (s := st) as [l R]; [intros; apply IHW; auto; lia|].
        eexists. eapply Con_collect; eauto.
      - (* option *) destruct (IHW IHm ltac:(assumption) w i Hi Hd st) as [[a j s1|e x s1|] P]; eexists; [eapply Con_some; eauto|eapply Con_none; eauto|eapply Con_option_panic; eauto].
      - (* branch *) match goal with D : forall c, t c <> OOF |- _ => specialize (D (cx k w i)) end.
        destruct (t (cx k w i)) as [b|e| |] eqn:Et; [| | |congruence].
        + destruct b.
          * destruct (IHW1 IHm ltac:(assumption) w i Hi Hd st) as [o P]. eexists. eapply Con_branch; eauto.
          * destruct (IHW2 IHm ltac:(assumption) w i Hi Hd st) as [o P]. eexists. eapply (Con_branch k G sk hv w t p q i st false); eauto.
        + eexists. eapply Con_branch_e; eauto.
        + eexists. eapply Con_branch_panic; eauto.
      - (* map *) destruct (IHW IHm ltac:(assumption) w i Hi Hd st) as [[a j s1|e x s1|] P]; eexists; [eapply Con_map; eauto|eapply Con_map_stops; [eauto|exact I]..].
      - (* dynamic *) destruct (IHW IHm ltac:(assumption) w i Hi Hd st) as [[a j s1|e x s1|] P]; [|eexists; eapply Con_dyn1; [eauto|exact I]..].
        destruct (con_in _ _ _ _ _ P ltac:(assumption) Hi) as [B1 B2].
        match goal with D : forall a, steady k sk _ |- _ => destruct (proj1 (D a) w j B2) as [N F] end.
        destruct (f (cx k w j) a) as [[q|e| |] c] eqn:Ef; cbn [fst snd] in N, F; [| | |congruence].
        + destruct F as [F|(j' & -> & F1 & F2)]; [discriminate|]. pose proof (sk_mono sk SK w j j' F1 F2).
          assert (Cq : con_ok q) by (match goal with D : forall w i a q, _ -> _ = Ok q -> con_ok q |- _ => apply (D w j a q); [auto|now rewrite Ef] end).
          destruct (H0 _ _ _ _ Ef IHm Cq w j' F2 ltac:(lia) s1) as [[b j2 s2|e x s2|] R].
          * eexists. eapply Con_dyn; eauto.
          * eexists. eapply Con_dyn2; [eauto|eauto|auto|eauto|exact I].
          * eexists. eapply Con_dyn2; [eauto|eauto|auto|eauto|exact I].
        + destruct F as [F|(j' & -> & F1 & F2)]; [discriminate|]. eexists. eapply Con_dyn_e; eauto.
        + eexists. eapply Con_dyn_panic; eauto.
      - (* closure *) match goal with D : steady k sk f |- _ => destruct (proj1 D w i Hi) as [N F] end.
        destruct (f (cx k w i)) as [r c] eqn:Ef. cbn [fst snd] in N, F. destruct F as [->|(j & -> & F1 & F2)].
        + eexists. eapply Con_fn_panic; eauto.
        + destruct r as [v|e| |]; [| | |congruence].
          * eexists. eapply Con_fn; [eauto|auto|discriminate].
          * eexists. eapply Con_fn; [eauto|auto|discriminate].
          * eexists. eapply Con_fn_panic; eauto.
      - (* choices *) assert (A : forall p, In p (plain ps) -> coutcome w (fst p) i).
        { intros p Ip. unfold plain in Ip. apply in_map_iff in Ip. destruct Ip as (q & <- & Iq). cbn [fst]. apply (H0 q Iq); auto. }
        destruct b; [destruct (clongest_total w e (plain ps) i A None i i st) as [o R]|destruct (cfirst_total w e (plain ps) i A st) as [o R]];
          eexists; [eapply Con_choice_ltm; eauto|eapply Con_choice; eauto].
      - assert (A : forall p, In p (keyed ps) -> coutcome w (fst p) i).
        { intros p Ip. unfold keyed in Ip. apply in_map_iff in Ip. destruct Ip as (q & <- & Iq). cbn [fst]. apply (H0 q Iq); auto. }
        destruct b; [destruct (clongest_total w e (keyed ps) i A None i i st) as [o R]|destruct (cfirst_total w e (keyed ps) i A st) as [o R]];
          eexists; [eapply Con_pairchoice_ltm; eauto|eapply Con_pairchoice; eauto].
      - destruct (IHW IHm ltac:(assumption) w i Hi Hd st) as [o P]. eexists. eapply Con_wrap; eauto.
      - eexists. apply Con_nonep.
      - (* ref *) destruct (env_get G x) as [q|] eqn:X; [|eexists; now apply Con_ref_none].
        destruct (IHm (rk x) ltac:(apply H; congruence) q (CWE x q X) (OE x q X) w i Hi Hd st) as [o P]. eexists. eapply Con_ref; eauto.
    Qed.
  End Level.

  Theorem con_total m p w i s : cwf m p -> con_ok p -> i <= length w -> exists o, Con w p i s o.
  Proof.
    assert (A : forall d m, call_total d m).
    { induction d as [d IHd] using lt_wf_ind. induction m0 as [m0 IHm] using lt_wf_ind. now apply clevel. }
    intros W C Hi. now apply (A (length w - sk w i) m p W C w i).
  Qed.
End ConTerm.

(** A syntactic criterion, as in TermLaws.v.  [K] and [KC] say which recursive parsers consume when
    they match and when they build.  A longest-match choice does not count: it leaves the cursor
    where its last alternative left it. *)
Section Check.
  Variable K KC : nat -> bool.
  Variable rk : nat -> nat.
  Variable L : nat.

  Fixpoint cconsumes (p : pat) : bool :=
    match p with
    | PPat p => consumes K p
    | PThen p q => cconsumes p || cconsumes q
    | PIfThen p _ _ => cconsumes p
    | POr p q | PLongest p q | PBranch _ p q => cconsumes p && cconsumes q
    | PPrefix p q | PSuffix p q => cconsumes p || consumes K q
    | PWrap p | PMap p _ | PDynThen p _ => cconsumes p
    | PEnclose p o c => cconsumes p || consumes K o || consumes K c
    | PSepOnce p s q => cconsumes p || consumes K s || cconsumes q
    | PSep p _ m _ | PSep2 p _ m _ _ | PSepCollect p _ m _ | PRepeat2 p m _ | PCollect p m =>
        (0 <? m) && cconsumes p
    | PRepeat p r => at_least_one r && cconsumes p
    | PChoice _ b ps => negb b && forallb cconsumes ps
    | PPairChoice _ b ps => negb b && forallb (fun x => cconsumes (fst x)) ps
    | PRef x => KC x
    | _ => consumes K p
    end.

  Definition cnextb (m : nat) (p : pat) : nat := if cconsumes p then L else m.
  Notation next := (next K L).

  Fixpoint cwfb (m : nat) (p : pat) {struct p} : bool :=
    match p with
    | PPat p => wfb K rk L m p
    | PThen p q => cwfb m p && cwfb (cnextb m p) q
    | PSuffix p q => cwfb m p && wfb K rk L (cnextb m p) q
    | PPrefix p q => wfb K rk L m q && cwfb (next m q) p
    | PIfThen p t q | PSepOnce p t q =>
        cwfb m p && wfb K rk L (cnextb m p) t && cwfb (next (cnextb m p) t) q
    | PEnclose p o c => wfb K rk L m o && cwfb (next m o) p && wfb K rk L L c
    | POr p q | PLongest p q | PBranch _ p q => cwfb m p && cwfb m q
    | PSep p s _ _ | PSepCollect p s _ _ => cwfb m p && wfb K rk L L s && (cconsumes p || consumes K s)
    | PSep2 p s _ _ _ => cwfb m p && wfb K rk L L s
    | PRepeat p r => cwfb m p && (bounded r || cconsumes p)
    | PCollect p _ => cwfb m p && cconsumes p
    | PRepeat2 p _ _ | POption p | PMap p _ | PWrap p => cwfb m p
    | PChoice _ _ ps => forallb (cwfb m) ps
    | PPairChoice _ _ ps => forallb (fun x => cwfb m (fst x)) ps
    | PRef x => rk x <? m
    | PCtorFn _ | PNoneP => true
    | PBuilder _ _ | PDynThen _ _ | PLock _ => false
    | _ => wfb K rk L m p
    end.
End Check.

Section Checked.
  Variable k : kind.
  Variable G : env.
  Variable sk : text -> nat -> nat.
  Variable pols : list pat.
  Context {ST : Type}.
  Variable hv : text -> nat -> nat -> ST -> res val * ST.
  Variable K KC : nat -> bool.
  Variable rk : nat -> nat.
  Variable L : nat.
  Variable h : handler ST.
  Hypothesis SK : skipper sk.
  Hypothesis CEnv : core_env k G sk.
  Hypothesis IM : implements k G sk pols.
  Hypothesis OE : con_ok_env k G sk.
  Hypothesis HA : answers k sk hv h.
  Hypothesis KE : forall x p, env_get G x = Some p -> K x = true -> consumes K p = true.
  Hypothesis KCE : forall x p, env_get G x = Some p -> KC x = true -> cconsumes K KC p = true.
  Notation Peg := (Peg k G sk).
  Notation Con := (Con k G sk hv).
  Notation core := (core k G sk).
  Notation con_ok := (con_ok k G sk).
  Notation cc := (cconsumes K KC).

  Local Definition cin w p i s o := con_in k G sk pols hv h SK CEnv IM OE HA w p i s o.
  Local Definition pin w p i b j := peg_in k G sk pols SK CEnv IM w p i b j.
  Local Lemma padv w p i b j : Peg w p (sk w i) (OK b j) -> core p -> i <= length w -> consumes K p = true -> sk w i < sk w j.
  Proof.
    intros P C Hi D. apply (peg_adv k G sk pols SK CEnv IM w p i b j); auto.
    exact (consumes_advances k G sk pols SK CEnv IM K KE p C D).
  Qed.

  Definition up (w : text) (i : nat) (o : cout ST) : Prop := match o with CV _ j _ => sk w i < sk w j | _ => True end.
  Definition lup (w : text) (i : nat) (l : lout ST) : Prop := match l with LV (_ :: _) j _ => sk w i < sk w j | _ => True end.

  Lemma reps_in w p lim i s l : Creps k G sk hv w p lim i s l -> con_ok p -> i <= length w -> lbounds sk w i l.
  Proof. intros H C Hi. now apply (proj1 (proj2 (complete_con k G sk pols hv h SK CEnv IM OE HA)) w p lim i s l H). Qed.
  Lemma seps_in w p q skip lim i s l : Cseps k G sk hv w p q skip lim i s l -> con_ok p -> core q -> i <= length w -> lbounds sk w i l.
  Proof. intros H C Cs Hi. now apply (proj1 (proj2 (proj2 (complete_con k G sk pols hv h SK CEnv IM OE HA))) w p q skip lim i s l H). Qed.
  Lemma polls_in w p q skip en i s l : Cpolls k G sk hv w p q skip en i s l -> con_ok p -> core q -> i <= length w -> lbounds sk w i l.
  Proof. intros H C Cs Hi. now apply (proj1 (proj2 (proj2 (proj2 (complete_con k G sk pols hv h SK CEnv IM OE HA)))) w p q skip en i s l H). Qed.

  Lemma up_settle w i j r : sk w i < sk w j -> up w i (settle j r).
  Proof. destruct r as [[]]; cbn; auto. Qed.
  Lemma up_undo w i j o : sk w i <= sk w j -> up w j o -> up w i (undo i o).
  Proof. destruct o; cbn; auto. lia. Qed.
  Lemma up_stops w i o : stops o -> up w i (undo i o).
  Proof. destruct o; cbn; auto. intros []. Qed.
  Lemma up_count w i good e f l : (forall vs, good vs = true -> vs <> []) -> lup w i l -> up w i (count_ok good e i f l).
  Proof. intros N H. destruct l as [vs j s|]; cbn; auto. destruct (good vs) eqn:E; cbn; auto. specialize (N vs E). destruct vs; [congruence|exact H]. Qed.
  Lemma up_cap w i n l : lup w i l -> lup w i (capacity n l).
  Proof. destruct l as [vs j s|]; cbn; auto. now destruct (length vs <=? n). Qed.
  Lemma lup_cons w i j v l : sk w i < sk w j -> lbounds sk w j l -> lup w i (lcons v l).
  Proof. destruct l as [vs x s|]; cbn; auto. lia. Qed.
  Lemma len_pos m (vs : list val) : 0 < m -> (m <=? length vs) = true -> vs <> [].
  Proof. intros H E ->. apply Nat.leb_le in E. cbn in E. lia. Qed.
  Lemma forallb_In {A} (f : A -> bool) l x : forallb f l = true -> In x l -> f x = true.
  Proof. intros H. now apply (proj1 (forallb_forall f l) H). Qed.

  Ltac fwd :=
    repeat match goal with
    | H : Spec.Peg k G sk ?w ?p (sk ?w ?i) (OK ?b ?j), C : Core.core k G sk ?p, Hi : ?i <= length ?w |- _ =>
        pose proof (pin w p i b j H C Hi) as (? & ?); pose proof (padv w p i b j H C Hi); clear H
    | H : ConSpec.Con k G sk hv ?w ?p ?i ?s (CV ?v ?j ?s'), C : ConSpec.con_ok k G sk ?p, Hi : ?i <= length ?w |- _ =>
        pose proof (cin w p i s _ H C Hi) as (? & ?); clear H
    | H : Creps k G sk hv ?w ?p ?lim ?i ?s ?l, C : ConSpec.con_ok k G sk ?p, Hi : ?i <= length ?w |- _ =>
        pose proof (reps_in w p lim i s l H C Hi); clear H
    | H : Cseps k G sk hv ?w ?p ?q ?b ?lim ?i ?s ?l, C : ConSpec.con_ok k G sk ?p, Cs : Core.core k G sk ?q, Hi : ?i <= length ?w |- _ =>
        pose proof (seps_in w p q b lim i s l H C Cs Hi); clear H
    | H : Cpolls k G sk hv ?w ?p ?q ?b ?lim ?i ?s ?l, C : ConSpec.con_ok k G sk ?p, Cs : Core.core k G sk ?q, Hi : ?i <= length ?w |- _ =>
        pose proof (polls_in w p q b lim i s l H C Cs Hi); clear H
    end;
    repeat match goal with
    | IH : ConSpec.con_ok k G sk ?p -> _, C : ConSpec.con_ok k G sk ?p |- _ => specialize (IH C)
    | IH : Core.core k G sk ?p -> _, C : Core.core k G sk ?p |- _ => specialize (IH C)
    | IH : ?i <= length ?w -> _, C : ?i <= length ?w |- _ => specialize (IH C)
    end;
    cbn [cconsumes forallb] in *;
    repeat match goal with
    | H : _ || _ = true |- _ => apply orb_prop in H; destruct H
    | H : _ && _ = true |- _ => apply andb_prop in H; destruct H
    | H : (_ <? _) = true |- _ => apply Nat.ltb_lt in H
    end;
    repeat match goal with
    | IH : cconsumes K KC ?p = true -> _, C : cconsumes K KC ?p = true |- _ => specialize (IH C)
    | IH : consumes K ?p = true -> _, C : consumes K ?p = true |- _ => specialize (IH C)
    end;
    cbn [up lup] in *.

  Lemma cadv_all :
    (forall w p i s o, Con w p i s o -> con_ok p -> i <= length w -> cc p = true -> up w i o) /\
    (forall w p lim i s l, Creps k G sk hv w p lim i s l -> con_ok p -> i <= length w -> cc p = true -> lup w i l) /\
    (forall w p q skip lim i s l, Cseps k G sk hv w p q skip lim i s l -> con_ok p -> core q -> i <= length w -> cc p = true -> lup w i l) /\
    (forall w p q skip en i s l, Cpolls k G sk hv w p q skip en i s l -> con_ok p -> core q -> i <= length w -> cc p = true -> lup w i l) /\
    (forall w e ps i s o, Cfirst k G sk hv w e ps i s o -> (forall p, In p ps -> con_ok (fst p)) -> i <= length w ->
       (forall p, In p ps -> cc (fst p) = true) -> up w i o) /\
    (forall w e ps i best en cur s o, Clongest k G sk hv w e ps i best en cur s o -> True).
  Proof.
    apply Con_mutind; auto; intros; try exact I;
      try (match goal with C : ConSpec.con_ok _ _ _ _ |- _ => inversion C; subst; try contradiction end; fwd;
        solve [ exact I | discriminate | lia | now apply up_settle | apply up_settle; lia | now apply up_stops
              | eapply up_undo; [|eassumption]; lia
              | match goal with |- up ?w ?i (undo ?i ?o) => destruct o; cbn [undo up] in *; auto; lia end ]).
    - (* leaf *) assert (D : consumes K p = true) by (destruct p; try contradiction; exact H3).
      inversion H1; subst; try contradiction. apply up_settle. now apply (padv w p i b j).
    - (* longest *) inversion H3; subst; try contradiction. fwd. destruct o as [v' j' s2|e' j' s2|]; cbn [longer up] in *; auto. now destruct (_ <=? _).
    - inversion H3; subst; try contradiction. fwd. destruct o as [v' j' s2|e' j' s2|]; cbn [longer up] in *; auto.
    - (* prefix *) inversion H2; subst; try contradiction. pose proof (pin _ _ _ _ _ H ltac:(assumption) H3) as (? & ?).
      pose proof (cin _ _ _ _ _ H0 ltac:(assumption) ltac:(assumption)). fwd; destruct o; cbn [undo up cbounds] in *; auto; lia.
    - inversion H1; subst; try contradiction. fwd. apply up_count; [intros; now apply (len_pos mn)|assumption].
    - inversion H1; subst; try contradiction. fwd. apply up_count; [intros; now apply (len_pos m)|now apply up_cap].
    - inversion H1; subst; try contradiction. fwd. apply up_count; [intros; now apply (len_pos mn)|assumption].
    - inversion H1; subst; try contradiction. fwd. apply up_count; [|assumption].
      intros vs E ->. match goal with A : at_least_one r = true |- _ => pose proof (contains_one G K KE _ _ A E) as B end. cbn in B. lia.
    - inversion H1; subst; try contradiction. fwd. apply up_count; [intros; now apply (len_pos m)|now apply up_cap].
    - inversion H1; subst; try contradiction. fwd. apply up_count; [intros; now apply (len_pos mn)|assumption].
    - (* branch *) inversion H2; subst; try contradiction. cbn [cconsumes] in H4. apply andb_prop in H4 as [A B].
      eapply up_undo; [apply le_n|]. apply H1; destruct b; auto.
    - (* map *) inversion H2; subst; try contradiction. fwd. assumption.
    - (* dynamic *) inversion H5; subst; try contradiction. pose proof (cin _ _ _ _ _ H ltac:(assumption) H6) as [B1 B2].
      match goal with D : forall a, steady k sk _ |- _ => destruct (proj1 (D a) w j B2) as [_ F] end.
      rewrite H1 in F. cbn [fst snd] in F. destruct F as [F|(j1 & E & F1 & F2)]; [discriminate|].
      injection E as E. apply (bo_inj k w) in E; auto. subst j1. pose proof (sk_mono sk SK w j j' F1 F2).
      assert (Cq : con_ok q) by (match goal with D : forall w i a q, _ -> _ = Ok q -> con_ok q |- _ => apply (D w j a q); [auto|now rewrite H1] end).
      pose proof (cin _ _ _ _ _ H3 Cq F2) as [B3 B4]. specialize (H0 ltac:(assumption) H6 H7). cbn [up] in *. lia.
    - inversion H1; subst; try contradiction. cbn [cconsumes negb andb] in H3. apply H0; auto; [now apply plain_ok|].
      intros p Ip. unfold plain in Ip. apply in_map_iff in Ip. destruct Ip as (q & <- & Iq). cbn [fst]. now apply (forallb_In _ ps q H3).
    - inversion H1; subst; try contradiction. cbn [cconsumes negb andb] in H3. apply H0; auto; [now apply keyed_ok|].
      intros p Ip. unfold keyed in Ip. apply in_map_iff in Ip. destruct Ip as (q & <- & Iq). cbn [fst]. now apply (forallb_In _ ps q H3).
    - inversion H1; subst; try contradiction. fwd. assumption.
    - (* ref *) apply H1; eauto.
    - pose proof (cin _ _ _ _ _ H0 H4 H5) as [? ?]. pose proof (reps_in _ _ _ _ _ _ H2 H4 ltac:(assumption)). specialize (H1 H4 H5 H6). eapply lup_cons; eauto.
    - specialize (H1 H3 H5 H6). destruct skip; cbn [lup up] in *; auto.
    - pose proof (cin _ _ _ _ _ H0 H5 H7) as [? ?]. pose proof (pin _ _ _ _ _ H2 H6 ltac:(assumption)) as (? & ?).
      pose proof (seps_in _ _ _ _ _ _ _ _ H3 H5 H6 ltac:(assumption)). specialize (H1 H5 H7 H8). cbn [up] in H1. eapply (lup_cons w i j'); [lia|eauto].
    - pose proof (cin _ _ _ _ _ H H4 H6) as [? ?].
      pose proof (polls_in _ _ _ _ _ _ _ _ H2 H4 H5 ltac:(assumption)). specialize (H0 H4 H6 H7). cbn [up] in H0. eapply (lup_cons w i j); [lia|eauto].
    - pose proof (cin _ _ _ _ _ H H4 H6) as [? ?]. pose proof (pin _ _ _ _ _ H1 H5 ltac:(assumption)) as (? & ?).
      pose proof (polls_in _ _ _ _ _ _ _ _ H2 H4 H5 ltac:(assumption)). specialize (H0 H4 H6 H7). cbn [up] in H0. eapply (lup_cons w i j'); [lia|eauto].
    - apply H0; auto; [apply (H1 (p, g)); now left|apply (H3 (p, g)); now left].
    - apply H2; auto; intros; [apply H3; now right|apply H5; now right].
  Qed.

  Lemma cc_advances p : con_ok p -> cc p = true -> cadvances k G sk hv p.
  Proof. intros C D w i s v j s' Hi P. exact (proj1 cadv_all w p i s _ P C Hi D). Qed.

  Notation wfb := (wfb K rk L).
  Notation cwfB := (cwfb K KC rk L).
  Notation cwf := (cwf k G sk hv rk).
  Notation pwf := (pwf k G sk rk).

  Lemma cnext_ok m p : con_ok p -> cnext k G sk hv m p (cnextb K KC L m p).
  Proof. intros C. unfold cnextb, cnext. destruct (cc p) eqn:E; [right|now left]. now apply cc_advances. Qed.
  Lemma wfb_pwf m p : core p -> wfb m p = true -> pwf p.
  Proof. intros C W. exists m. exact (wfb_wf k G sk pols SK IM CEnv K rk L KE p m C W). Qed.
  Lemma pnext_ok m p : core p -> next_level k G sk m p (next K L m p).
  Proof. exact (next_ok k G sk pols SK IM CEnv K L KE m p). Qed.
  Lemma sep_adv p : core p -> consumes K p = true -> advances k G sk p.
  Proof. intros C D. exact (consumes_advances k G sk pols SK CEnv IM K KE p C D). Qed.

  Fixpoint cwfb_cwf (p : pat) : forall m, con_ok p -> cwfB m p = true -> cwf m p.
  Proof.
    destruct p; intros lv C H; inversion C; subst; try contradiction; cbn [cwfb] in H; try discriminate H;
      repeat match goal with H : _ && _ = true |- _ => apply andb_true_iff in H; destruct H end;
      try (apply cwf_leaf; [exact I|]; eapply wfb_pwf; [assumption|]; exact H);
      repeat match goal with H : cc _ || _ = true |- _ => apply orb_true_iff in H; destruct H as [H|H] end.
    - eapply cwf_then; [now apply cwfb_cwf|now apply cnext_ok|now apply cwfb_cwf].
    - eapply cwf_ifthen; [now apply cwfb_cwf|now apply cnext_ok|eapply wfb_pwf; eauto|now apply pnext_ok|now apply cwfb_cwf].
    - apply cwf_or; now apply cwfb_cwf.
    - apply cwf_longest; now apply cwfb_cwf.
    - apply cwf_pat. eapply wfb_pwf; eauto.
    - eapply cwf_prefix; [eapply wfb_pwf; eauto|now apply pnext_ok|now apply cwfb_cwf].
    - apply cwf_suffix; [now apply cwfb_cwf|eapply wfb_pwf; eauto].
    - eapply cwf_enclose; [eapply wfb_pwf; eauto|now apply pnext_ok|now apply cwfb_cwf|eapply wfb_pwf; eauto].
    - eapply cwf_seponce; [now apply cwfb_cwf|now apply cnext_ok|eapply wfb_pwf; eauto|now apply pnext_ok|now apply cwfb_cwf].
    - apply cwf_sep; [now apply cwfb_cwf|eapply wfb_pwf; eauto|left; now apply cc_advances].
    - apply cwf_sep; [now apply cwfb_cwf|eapply wfb_pwf; eauto|right; now apply sep_adv].
    - apply cwf_sep2; [now apply cwfb_cwf|eapply wfb_pwf; eauto].
    - apply cwf_sepcollect; [now apply cwfb_cwf|eapply wfb_pwf; eauto|left; now apply cc_advances].
    - apply cwf_sepcollect; [now apply cwfb_cwf|eapply wfb_pwf; eauto|right; now apply sep_adv].
    - apply cwf_repeat; [now apply cwfb_cwf|]. apply orb_true_iff in H0 as [D|D]; [left|right; now apply cc_advances].
      unfold bounded in D. now destruct (limit_of r).
    - apply cwf_repeat2; now apply cwfb_cwf.
    - apply cwf_collect; [now apply cwfb_cwf|now apply cc_advances].
    - apply cwf_option; now apply cwfb_cwf.
    - apply cwf_branch; now apply cwfb_cwf.
    - apply cwf_map; now apply cwfb_cwf.
    - apply cwf_fn.
    - apply cwf_choice. match goal with F : forall p, In p ps -> con_ok p |- _ => revert F end. clear C. revert H.
      induction ps as [|q ps IH]; intros H F p I; [destruct I|]. cbn [forallb] in H. apply andb_true_iff in H as [H1 H2].
      destruct I as [<-|I]; [apply cwfb_cwf; auto; apply F; now left|]. apply IH; auto. intros x Ix. apply F. now right.
    - apply cwf_pairchoice. match goal with F : forall p, In p ps -> con_ok (fst p) |- _ => revert F end. clear C. revert H.
      induction ps as [|[q y] ps IH]; intros H F p I; [destruct I|]. cbn [forallb fst] in H. apply andb_true_iff in H as [H1 H2].
      destruct I as [<-|I]; [apply cwfb_cwf; auto; apply (F (q, y)); now left|]. apply IH; auto. intros x Ix. apply F. now right.
    - apply cwf_wrap; now apply cwfb_cwf.
    - apply cwf_nonep.
    - apply cwf_ref. intros _. now apply Nat.ltb_lt.
  Qed.

  Theorem con_checked m p w i s :
    (forall x q, env_get G x = Some q -> wfb (rk x) q = true /\ cwfB (rk x) q = true) ->
    con_ok p -> cwfB m p = true -> i <= length w -> exists o, Con w p i s o.
  Proof.
    intros WE C W Hi. eapply (con_total k G sk pols hv rk h SK CEnv IM OE HA); eauto.
    - intros x q E. apply (wfb_wf k G sk pols SK IM CEnv K rk L KE); [eapply CEnv; eauto|now apply WE].
    - intros x q E. apply cwfb_cwf; [eapply OE; eauto|now apply WE].
    - apply cwfb_cwf; eauto.
  Qed.
End Checked.
