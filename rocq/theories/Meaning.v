(** The value of a word: what the values of its parts and the mappers make of it.  No positions, no
    choice order, no greediness - the building counterpart of Lang.v. *)

From Coq Require Import List Arith NArith Bool Lia.
From Verif Require Import Base Text Context Neu Syntax Regex Ctor Api TextProofs Spec Core Sound Obs Laws
  ApiLaws Consumes Term TermLaws PolicyLaws UnitProps CtorShape CtorSpec CtorLaws ConSpec ConSound ConComplete ConTerm Lang Ll1.
Import ListNotations.

(** Words one after the other, with their values. *)
Inductive Vals (M : text -> val -> Prop) : list val -> text -> Prop :=
| vals_nil : Vals M [] []
| vals_cons v vs s t : M s v -> Vals M vs t -> Vals M (v :: vs) (s ++ t).

(** With a word of [D] between neighbours and perhaps one at the end. *)
Inductive SepVals (M : text -> val -> Prop) (D : text -> Prop) : list val -> text -> Prop :=
| sv_nil : SepVals M D [] []
| sv_one s v : M s v -> SepVals M D [v] s
| sv_cons v vs s d t : M s v -> D d -> SepVals M D vs t -> SepVals M D (v :: vs) (s ++ d ++ t).

Section Meaning.
  Variable G : env.
  (** What the handler makes of the text a leaf matched. *)
  Variable lv : text -> val.

  Inductive Mean : pat -> text -> val -> Prop :=
  | M_leaf p s : leafy p -> Lang G p s -> Mean p s (lv s)
  | M_pat p s : Lang G p s -> Mean (PPat p) s (lv s)
  | M_then p q s t a b : Mean p s a -> Mean q t b -> Mean (PThen p q) (s ++ t) (VPair a b)
  | M_ifthen_no p t q s a : Mean p s a -> Mean (PIfThen p t q) s (VPair a VNone)
  | M_ifthen p t q s s' s'' a b :
      Mean p s a -> Lang G t s' -> Mean q s'' b -> Mean (PIfThen p t q) (s ++ s' ++ s'') (VPair a (VSome b))
  | M_or_l p q s v : Mean p s v -> Mean (POr p q) s v
  | M_or_r p q s v : Mean q s v -> Mean (POr p q) s v
  | M_prefix p pre s t v : Lang G pre s -> Mean p t v -> Mean (PPrefix p pre) (s ++ t) v
  | M_suffix p suf s t v : Mean p s v -> Lang G suf t -> Mean (PSuffix p suf) (s ++ t) v
  | M_enclose p o c s t u v : Lang G o s -> Mean p t v -> Lang G c u -> Mean (PEnclose p o c) (s ++ t ++ u) v
  | M_seponce p m q s t u a b : Mean p s a -> Lang G m t -> Mean q u b -> Mean (PSepOnce p m q) (s ++ t ++ u) (VPair a b)
  | M_sep p d mn vs s : mn <= length vs -> SepVals (Mean p) (Lang G d) vs s -> Mean (PSep p d mn true) s (VList vs)
  | M_repeat p r vs s : InRange r (length vs) -> Vals (Mean p) vs s -> Mean (PRepeat p r) s (VList vs)
  | M_collect p mn vs s : mn <= length vs -> Vals (Mean p) vs s -> Mean (PCollect p mn) s (VList vs)
  | M_some p s v : Mean p s v -> Mean (POption p) s (VSome v)
  | M_none p : Mean (POption p) [] VNone
  | M_map p f s v u : Mean p s v -> f v = Ok u -> Mean (PMap p f) s u
  | M_choice e b ps p s v : In p ps -> Mean p s v -> Mean (PChoice e b ps) s v
  | M_wrap p s v : Mean p s v -> Mean (PWrap p) s v
  | M_ref i p s v : env_get G i = Some p -> Mean p s v -> Mean (PRef i) s v.

  Variable R : nat -> info.

  (** What is asked of the parts that build: mappers return, and accept what their part builds; what an
      [optional] may leave out is not empty.  Arrays of fixed size (they panic when they overflow,
      C17) and [sep_collect] (which may swallow an element, C15) are left out. *)
  Fixpoint fed (p : pat) : Prop :=
    match p with
    | PEmpty | PLit _ | PLeaf _ | POnce _ _ | PMany1 _ _ | POpt _ _ | PMany0 _ _ | PBetween _ _ _ _ | PTimes _ _ _
    | PNeuThen _ _ _ | PPat _ | PRef _ => True
    | PThen p q | POr p q | PIfThen p _ q | PSepOnce p _ q => fed p /\ fed q
    | PPrefix p _ | PSuffix p _ | PEnclose p _ _ | PSep p _ _ _ | PRepeat p _ | PCollect p _ | PWrap p => fed p
    | POption p => fed p /\ nl (info_of R p) = false
    | PMap p f => fed p /\ (forall v, f v <> OOF) /\ forall s v, Mean p s v -> exists u, f v = Ok u
    | PChoice _ _ ps => (fix all ps := match ps with [] => True | p :: r => fed p /\ all r end) ps
    | _ => False
    end.
  Definition fed_env : Prop := forall i p, env_get G i = Some p -> fed p.
End Meaning.

Section Maps.
  Variable M M' : text -> val -> Prop.
  Variable f : forall s v, M s v -> M' s v.
  Fixpoint vals_map vs s (H : Vals M vs s) : Vals M' vs s :=
    match H in Vals _ vs s return Vals M' vs s with
    | vals_nil _ => vals_nil M'
    | vals_cons _ v vs s t a b => vals_cons M' v vs s t (f s v a) (vals_map vs t b)
    end.
  Variable D : text -> Prop.
  Fixpoint sepvals_map vs s (H : SepVals M D vs s) : SepVals M' D vs s :=
    match H in SepVals _ _ vs s return SepVals M' D vs s with
    | sv_nil _ _ => sv_nil M' D
    | sv_one _ _ s v a => sv_one M' D s v (f s v a)
    | sv_cons _ _ v vs s d t a b c => sv_cons M' D v vs s d t (f s v a) b (sepvals_map vs t c)
    end.
  Variable L : text -> Prop.
  Variable g : forall s v, M s v -> L s.
  Fixpoint vals_lang vs s (H : Vals M vs s) : Iter L (length vs) s :=
    match H in Vals _ vs s return Iter L (length vs) s with
    | vals_nil _ => iter_nil L
    | vals_cons _ v vs s t a b => iter_cons L (length vs) s t (g s v a) (vals_lang vs t b)
    end.
  Fixpoint sepvals_lang vs s (H : SepVals M D vs s) : SepIter L D (length vs) s :=
    match H in SepVals _ _ vs s return SepIter L D (length vs) s with
    | sv_nil _ _ => si_nil L D
    | sv_one _ _ s v a => si_one L D s (g s v a)
    | sv_cons _ _ v vs s d t a b c => si_cons L D (length vs) s d t (g s v a) b (sepvals_lang vs t c)
    end.
  Variable h : forall s, L s -> exists v, M s v.
  Fixpoint iter_vals n s (H : Iter L n s) : exists vs, length vs = n /\ Vals M vs s :=
    match H in Iter _ n s return exists vs, length vs = n /\ Vals M vs s with
    | iter_nil _ => ex_intro _ [] (conj eq_refl (vals_nil M))
    | iter_cons _ n s t a b =>
        match h s a, iter_vals n t b with
        | ex_intro _ v x, ex_intro _ vs (conj e y) => ex_intro _ (v :: vs) (conj (f_equal S e) (vals_cons M v vs s t x y))
        end
    end.
  Fixpoint sepiter_vals n s (H : SepIter L D n s) : exists vs, length vs = n /\ SepVals M D vs s :=
    match H in SepIter _ _ n s return exists vs, length vs = n /\ SepVals M D vs s with
    | si_nil _ _ => ex_intro _ [] (conj eq_refl (sv_nil M D))
    | si_one _ _ s a => match h s a with ex_intro _ v x => ex_intro _ [v] (conj eq_refl (sv_one M D s v x)) end
    | si_cons _ _ n s d t a b c =>
        match h s a, sepiter_vals n t c with
        | ex_intro _ v x, ex_intro _ vs (conj e y) => ex_intro _ (v :: vs) (conj (f_equal S e) (sv_cons M D v vs s d t x b y))
        end
    end.
End Maps.

Section Values.
  Variable G : env.
  Variable lv : text -> val.
  Notation MM := (Mean G lv).

  (** Only words have values. *)
  Lemma mean_lang : forall p s v, MM p s v -> Lang G p s.
  Proof.
    fix F 4. intros p s v H. destruct H.
    all: repeat match goal with X : MM ?p ?s ?v |- _ =>
      lazymatch goal with D : Lang G p s |- _ => fail | _ => pose proof (F p s v X) end end.
    all: try match goal with X : Vals (MM ?p) ?vs ?s |- _ => pose proof (vals_lang _ (Lang G p) (F p) vs s X) end.
    all: try match goal with X : SepVals (MM ?p) ?D ?vs ?s |- _ => pose proof (sepvals_lang _ D (Lang G p) (F p) vs s X) end.
    all: clear F; try assumption; try (econstructor; eauto; fail).
  Qed.

  (** Every word has one, if the mappers accept what their parts build. *)
  Variable k : kind.
  Variable R : nat -> info.
  Hypothesis RE : ll1_env R k G.
  Hypothesis FE : fed_env G lv R.
  Notation FD := (fed G lv R).
  Notation LL := (ll1 R k).

  Lemma fed_choice e b ps : FD (PChoice e b ps) <-> Forall FD ps.
  Proof.
    cbn. induction ps as [|q r IH]; [split; constructor|]. split.
    - intros [H1 H2]. constructor; tauto.
    - intros H. inversion H; subst. tauto.
  Qed.

  Lemma lang_mean : forall p s, Lang G p s -> FD p -> LL p -> exists v, MM p s v.
  Proof.
    fix F 3. intros p s H. destruct H.
    all: try (intros [] ; fail).
    all: intros X C; pose proof C as C0; cbn [ll1] in C;
      try (eexists; apply M_leaf; [exact I|now constructor]);
      try (destruct X; fail).
    all: try (cbn [fed] in X; repeat match goal with H : _ /\ _ |- _ => destruct H end;
      repeat match goal with Y : Lang G ?p ?s, X : FD ?p, C : ll1 R k ?p |- _ =>
        lazymatch goal with D : MM p s _ |- _ => fail | _ => destruct (F p s Y X C) as [? ?] end end;
      clear F; eexists; econstructor; eauto; fail).
    - destruct C as (_ & C1 & C2 & _). cbn in X.
      destruct (sepiter_vals (MM p) (Lang G d) (Lang G p) (fun s a => F p s a X C1) n s H0) as (vs & <- & V).
      eexists. eapply M_sep; eauto.
    - destruct C as (C1 & _). cbn in X.
      destruct (iter_vals (MM p) (Lang G p) (fun s a => F p s a X C1) n s H0) as (vs & <- & V).
      eexists. eapply M_repeat; eauto.
    - destruct C as (C1 & _). cbn in X.
      destruct (iter_vals (MM p) (Lang G p) (fun s a => F p s a X C1) n s H0) as (vs & <- & V).
      eexists. eapply M_collect; eauto.
    - destruct X as (X & _ & T). destruct (F p s H X C) as [v V]. destruct (T s v V) as [u E].
      exists u. eapply M_map; eauto.
    - apply fed_choice in X. rewrite Forall_forall in X. destruct (choice_all k R e b ps C0) as [_ Y]. rewrite Forall_forall in Y.
      destruct (F p s H0 (X p H) (Y p H)) as [v V]. exists v. eapply M_choice; eauto.
    - destruct (F p s H0) as [v V]; [now apply (FE i)|now apply (proj2 (RE i))|]. exists v. eapply M_ref; eauto.
  Qed.
End Values.
