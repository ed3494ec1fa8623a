(** The value of a list of tokens: the building counterpart of Tokens.v.  No positions, no choice order,
    no greediness, and no layout. *)

From Coq Require Import List Arith NArith Bool Lia.
From Verif Require Import Base Text Context Neu Syntax Regex Ctor Api TextProofs Spec Core Sound Obs Laws
  ApiLaws Consumes Term TermLaws PolicyLaws UnitProps CtorShape CtorSpec CtorLaws ConSpec ConSound ConComplete ConTerm
  Lang Ll1 Meaning Tokens.
Import ListNotations.

(** Lists one after the other, with their values. *)
Inductive TVals (M : list text -> val -> Prop) : list val -> list text -> Prop :=
| tv_nil : TVals M [] []
| tv_cons v vs s t : M s v -> TVals M vs t -> TVals M (v :: vs) (s ++ t).

(** With a list of [D] between neighbours and perhaps one at the end. *)
Inductive TSepVals (M : list text -> val -> Prop) (D : list text -> Prop) : list val -> list text -> Prop :=
| tsv_nil : TSepVals M D [] []
| tsv_one s v : M s v -> TSepVals M D [v] s
| tsv_cons v vs s d t : M s v -> D d -> TSepVals M D vs t -> TSepVals M D (v :: vs) (s ++ d ++ t).

(** A token, perhaps wrapped: what a handler is asked about. *)
Definition grain (p : pat) : bool := match p with PLeaf q => token q | _ => token p end.

Section TokMean.
  Variable G : env.
  (** What the handler makes of a token. *)
  Variable lv : text -> val.

  Inductive TMean : pat -> list text -> val -> Prop :=
  | TM_leaf p s : leafy p -> grain p = true -> Toks G p [s] -> TMean p [s] (lv s)
  | TM_pat p s : token p = true -> Toks G p [s] -> TMean (PPat p) [s] (lv s)
  | TM_then p q s t a b : TMean p s a -> TMean q t b -> TMean (PThen p q) (s ++ t) (VPair a b)
  | TM_ifthen_no p t q s a : TMean p s a -> TMean (PIfThen p t q) s (VPair a VNone)
  | TM_ifthen p t q s s' s'' a b :
      TMean p s a -> Toks G t s' -> TMean q s'' b -> TMean (PIfThen p t q) (s ++ s' ++ s'') (VPair a (VSome b))
  | TM_or_l p q s v : TMean p s v -> TMean (POr p q) s v
  | TM_or_r p q s v : TMean q s v -> TMean (POr p q) s v
  | TM_prefix p pre s t v : Toks G pre s -> TMean p t v -> TMean (PPrefix p pre) (s ++ t) v
  | TM_suffix p suf s t v : TMean p s v -> Toks G suf t -> TMean (PSuffix p suf) (s ++ t) v
  | TM_enclose p o c s t u v : Toks G o s -> TMean p t v -> Toks G c u -> TMean (PEnclose p o c) (s ++ t ++ u) v
  | TM_seponce p m q s t u a b : TMean p s a -> Toks G m t -> TMean q u b -> TMean (PSepOnce p m q) (s ++ t ++ u) (VPair a b)
  | TM_sep p d mn vs s : mn <= length vs -> TSepVals (TMean p) (Toks G d) vs s -> TMean (PSep p d mn true) s (VList vs)
  | TM_repeat p r vs s : InRange r (length vs) -> TVals (TMean p) vs s -> TMean (PRepeat p r) s (VList vs)
  | TM_collect p mn vs s : mn <= length vs -> TVals (TMean p) vs s -> TMean (PCollect p mn) s (VList vs)
  | TM_some p s v : TMean p s v -> TMean (POption p) s (VSome v)
  | TM_none p : TMean (POption p) [] VNone
  | TM_map p f s v u : TMean p s v -> f v = Ok u -> TMean (PMap p f) s u
  | TM_choice e b ps p s v : In p ps -> TMean p s v -> TMean (PChoice e b ps) s v
  | TM_wrap p s v : TMean p s v -> TMean (PWrap p) s v
  | TM_ref i p s v : env_get G i = Some p -> TMean p s v -> TMean (PRef i) s v.

  Variable R : nat -> info.

  (** As [fed] of Meaning.v; and a handler is asked about single tokens only: the text of several has
      their layout in it. *)
  Fixpoint tfed (p : pat) : Prop :=
    match p with
    | PLit _ | POnce _ _ | PMany1 _ _ | POpt _ _ | PMany0 _ _ | PBetween _ _ _ _ | PTimes _ _ _
    | PNeuThen _ _ _ | PRef _ => True
    | PPat q | PLeaf q => token q = true
    | PThen p q | POr p q | PIfThen p _ q | PSepOnce p _ q => tfed p /\ tfed q
    | PPrefix p _ | PSuffix p _ | PEnclose p _ _ | PSep p _ _ _ | PRepeat p _ | PCollect p _ | PWrap p => tfed p
    | POption p => tfed p /\ nl (info_of R p) = false
    | PMap p f => tfed p /\ (forall v, f v <> OOF) /\ forall s v, TMean p s v -> exists u, f v = Ok u
    | PChoice _ _ ps => (fix all ps := match ps with [] => True | p :: r => tfed p /\ all r end) ps
    | _ => False
    end.
  Definition tfed_env : Prop := forall i p, env_get G i = Some p -> tfed p.
End TokMean.

Section TMaps.
  Variable M M' : list text -> val -> Prop.
  Variable f : forall s v, M s v -> M' s v.
  Fixpoint tvals_map vs s (H : TVals M vs s) : TVals M' vs s :=
    match H in TVals _ vs s return TVals M' vs s with
    | tv_nil _ => tv_nil M'
    | tv_cons _ v vs s t a b => tv_cons M' v vs s t (f s v a) (tvals_map vs t b)
    end.
  Variable D : list text -> Prop.
  Fixpoint tsepvals_map vs s (H : TSepVals M D vs s) : TSepVals M' D vs s :=
    match H in TSepVals _ _ vs s return TSepVals M' D vs s with
    | tsv_nil _ _ => tsv_nil M' D
    | tsv_one _ _ s v a => tsv_one M' D s v (f s v a)
    | tsv_cons _ _ v vs s d t a b c => tsv_cons M' D v vs s d t (f s v a) b (tsepvals_map vs t c)
    end.
  Variable L : list text -> Prop.
  Variable g : forall s v, M s v -> L s.
  Fixpoint tvals_toks vs s (H : TVals M vs s) : TIter L (length vs) s :=
    match H in TVals _ vs s return TIter L (length vs) s with
    | tv_nil _ => ti_nil L
    | tv_cons _ v vs s t a b => ti_cons L (length vs) s t (g s v a) (tvals_toks vs t b)
    end.
  Fixpoint tsepvals_toks vs s (H : TSepVals M D vs s) : TSepIter L D (length vs) s :=
    match H in TSepVals _ _ vs s return TSepIter L D (length vs) s with
    | tsv_nil _ _ => ts_nil L D
    | tsv_one _ _ s v a => ts_one L D s (g s v a)
    | tsv_cons _ _ v vs s d t a b c => ts_cons L D (length vs) s d t (g s v a) b (tsepvals_toks vs t c)
    end.
  Variable h : forall s, L s -> exists v, M s v.
  Fixpoint titer_vals n s (H : TIter L n s) : exists vs, length vs = n /\ TVals M vs s :=
    match H in TIter _ n s return exists vs, length vs = n /\ TVals M vs s with
    | ti_nil _ => ex_intro _ [] (conj eq_refl (tv_nil M))
    | ti_cons _ n s t a b =>
        match h s a, titer_vals n t b with
        | ex_intro _ v x, ex_intro _ vs (conj e y) => ex_intro _ (v :: vs) (conj (f_equal S e) (tv_cons M v vs s t x y))
        end
    end.
  Fixpoint tsepiter_vals n s (H : TSepIter L D n s) : exists vs, length vs = n /\ TSepVals M D vs s :=
    match H in TSepIter _ _ n s return exists vs, length vs = n /\ TSepVals M D vs s with
    | ts_nil _ _ => ex_intro _ [] (conj eq_refl (tsv_nil M D))
    | ts_one _ _ s a => match h s a with ex_intro _ v x => ex_intro _ [v] (conj eq_refl (tsv_one M D s v x)) end
    | ts_cons _ _ n s d t a b c =>
        match h s a, tsepiter_vals n t c with
        | ex_intro _ v x, ex_intro _ vs (conj e y) => ex_intro _ (v :: vs) (conj (f_equal S e) (tsv_cons M D v vs s d t x b y))
        end
    end.
End TMaps.

Section TMaps3.
  Variable M : list text -> val -> Prop.
  Variable M' : text -> val -> Prop.
  Variable f : forall s v, M s v -> M' (concat s) v.
  Lemma tvals_concat vs s : TVals M vs s -> Vals M' vs (concat s).
  Proof. induction 1; cbn; [constructor|]. rewrite concat_app. constructor; auto. Qed.
  Variable D : list text -> Prop.
  Variable D' : text -> Prop.
  Variable g : forall s, D s -> D' (concat s).
  Lemma tsepvals_concat vs s : TSepVals M D vs s -> SepVals M' D' vs (concat s).
  Proof. induction 1; cbn; rewrite ?concat_app; constructor; auto. Qed.
End TMaps3.

Section TValues.
  Variable G : env.
  Variable lv : text -> val.
  Notation MM := (TMean G lv).

  (** Only lists the parser may read have values. *)
  Lemma tmean_toks : forall p s v, MM p s v -> Toks G p s.
  Proof.
    fix F 4. intros p s v H. destruct H.
    all: repeat match goal with X : MM ?p ?s ?v |- _ =>
      lazymatch goal with D : Toks G p s |- _ => fail | _ => pose proof (F p s v X) end end.
    all: try match goal with X : TVals (MM ?p) ?vs ?s |- _ => pose proof (tvals_toks _ (Toks G p) (F p) vs s X) end.
    all: try match goal with X : TSepVals (MM ?p) ?D ?vs ?s |- _ => pose proof (tsepvals_toks _ D (Toks G p) (F p) vs s X) end.
    all: clear F; try assumption.
    all: try match goal with |- Toks G (POr _ _) _ => first [apply T_or_l; assumption|apply T_or_r; assumption] end.
    all: try match goal with |- Toks G (POption _) [] => apply T_option_none end.
    all: try (econstructor; eauto; fail).
  Qed.

  (** The value of the tokens is the value of the word they make (C83). *)
  Lemma tmean_mean : forall p ts v, MM p ts v -> Mean G lv p (concat ts) v.
  Proof.
    fix F 4. intros p s v H. destruct H.
    all: repeat match goal with X : MM ?p ?s ?v |- _ =>
      let Y := fresh "Y" in pose proof (F p s v X) as Y; clear X end.
    all: try match goal with X : TVals (MM ?p) ?vs ?s |- _ =>
      pose proof (tvals_map _ (fun s v => Mean G lv p (concat s) v) (F p) vs s X) as Y; clear X end.
    all: try match goal with X : TSepVals (MM ?p) ?D ?vs ?s |- _ =>
      pose proof (tsepvals_map _ (fun s v => Mean G lv p (concat s) v) (F p) D vs s X) as Y; clear X end.
    all: clear F.
    all: repeat match goal with X : Toks G _ _ |- _ => apply toks_lang in X end.
    all: try match goal with Y : TVals _ ?vs ?s |- _ => apply (tvals_concat _ (Mean G lv p) (fun _ _ a => a)) in Y end.
    all: try match goal with Y : TSepVals _ (Toks G ?d) ?vs ?s |- _ =>
      apply (tsepvals_concat _ (Mean G lv p) (fun _ _ a => a) _ (Lang G d) (toks_lang G d)) in Y end.
    all: rewrite ?concat_app; cbn [concat] in *; rewrite ?app_nil_r in *.
    all: try match goal with |- Mean G lv (POr _ _) _ _ => first [apply M_or_l; assumption|apply M_or_r; assumption] end.
    all: try match goal with |- Mean G lv (POption _) _ _ => first [apply M_none|apply M_some; assumption] end.
    all: try (econstructor; eauto; fail).
  Qed.

  (** Every list the parser may read has one, if the mappers accept what their parts build. *)
  Variable k : kind.
  Variable R : nat -> info.
  Hypothesis RE : ll1_env R k G.
  Hypothesis FE : tfed_env G lv R.
  Notation FD := (tfed G lv R).
  Notation LL := (ll1 R k).

  Lemma tfed_choice e b ps : FD (PChoice e b ps) <-> Forall FD ps.
  Proof.
    cbn. induction ps as [|q r IH]; [split; constructor|]. split.
    - intros [H1 H2]. constructor; tauto.
    - intros H. inversion H; subst. tauto.
  Qed.

  Lemma token_one p ts : token p = true -> Toks G p ts -> exists s, ts = [s].
  Proof. intros T H. destruct H; try discriminate T. eauto. Qed.

  Lemma toks_mean : forall p s, Toks G p s -> FD p -> LL p -> exists v, MM p s v.
  Proof.
    fix F 3. intros p s H. destruct H.
    all: try (intros [] ; fail).
    all: intros X C; pose proof C as C0; cbn [ll1] in C.
    { destruct p; try discriminate H; try (destruct X; fail); (eexists; apply TM_leaf; [exact I|reflexivity|now apply T_token]). }
    all: try (destruct X; fail).
    { (* leaf *) cbn in X. destruct (token_one p s X H) as [t ->]. eexists. apply TM_leaf; [exact I|exact X|now apply T_leaf]. }
    all: try (cbn [tfed] in X; repeat match goal with H : _ /\ _ |- _ => destruct H end;
      repeat match goal with Y : Toks G ?p ?s, X : FD ?p, C : ll1 R k ?p |- _ =>
        lazymatch goal with D : MM p s _ |- _ => fail | _ => destruct (F p s Y X C) as [? ?] end end;
      clear F; eexists; econstructor; eauto; fail).
    - (* pat *) cbn in X. destruct (token_one p s X H) as [t ->]. eexists. now apply TM_pat.
    - destruct C as (_ & C1 & C2 & _). cbn in X.
      destruct (tsepiter_vals (MM p) (Toks G d) (Toks G p) (fun s a => F p s a X C1) n s H0) as (vs & <- & V).
      eexists. eapply TM_sep; eauto.
    - destruct C as (C1 & _). cbn in X.
      destruct (titer_vals (MM p) (Toks G p) (fun s a => F p s a X C1) n s H0) as (vs & <- & V).
      eexists. eapply TM_repeat; eauto.
    - destruct C as (C1 & _). cbn in X.
      destruct (titer_vals (MM p) (Toks G p) (fun s a => F p s a X C1) n s H0) as (vs & <- & V).
      eexists. eapply TM_collect; eauto.
    - destruct X as (X & _ & T). destruct (F p s H X C) as [v V]. destruct (T s v V) as [u E].
      exists u. eapply TM_map; eauto.
    - apply tfed_choice in X. rewrite Forall_forall in X. destruct (choice_all k R e b ps C0) as [_ Y]. rewrite Forall_forall in Y.
      destruct (F p s H0 (X p H) (Y p H)) as [v V]. exists v. eapply TM_choice; eauto.
    - destruct (F p s H0) as [v V]; [now apply (FE i)|now apply (proj2 (RE i))|]. exists v. eapply TM_ref; eauto.
  Qed.
End TValues.
