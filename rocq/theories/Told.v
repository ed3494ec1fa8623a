(** Which pieces of a word the handler is told about: the leaves of the word, from left to right.  The
    value of the word is kept beside them (as in Meaning.v). *)

From Coq Require Import List Arith NArith Bool Lia.
From Verif Require Import Base Text Context Neu Syntax Regex Ctor Api TextProofs Spec Core Sound Obs Laws
  ApiLaws Consumes Term TermLaws PolicyLaws UnitProps CtorShape CtorSpec CtorLaws ConSpec ConSound ConComplete ConTerm Lang Ll1 Meaning.
Import ListNotations.

(** A piece of the text: where it begins and where it ends. *)
Notation piece := (nat * nat)%type.

(** Words one after the other from position [i] on. *)
Inductive TVals (M : nat -> text -> val -> list piece -> Prop) : nat -> list val -> text -> list piece -> Prop :=
| tvals_nil i : TVals M i [] [] []
| tvals_cons i v vs s t l l' : M i s v l -> TVals M (i + length s) vs t l' -> TVals M i (v :: vs) (s ++ t) (l ++ l').

(** With a word of [D] between neighbours and perhaps one at the end. *)
Inductive TSepVals (M : nat -> text -> val -> list piece -> Prop) (D : text -> Prop) : nat -> list val -> text -> list piece -> Prop :=
| tsv_nil i : TSepVals M D i [] [] []
| tsv_one i s v l : M i s v l -> TSepVals M D i [v] s l
| tsv_cons i v vs s d t l l' : M i s v l -> D d -> TSepVals M D (i + length s + length d) vs t l' ->
    TSepVals M D i (v :: vs) (s ++ d ++ t) (l ++ l').

Section Told.
  Variable G : env.
  Variable lv : text -> val.

  (** [Told p i s v l]: the word [s] of [p], written from position [i] on, has the value [v] and the leaves
      [l].  Separators, delimiters, prefixes, suffixes and tests are only matched: they are no leaves. *)
  Inductive Told : pat -> nat -> text -> val -> list piece -> Prop :=
  | T_leaf p i s : leafy p -> Lang G p s -> Told p i s (lv s) [(i, i + length s)]
  | T_pat p i s : Lang G p s -> Told (PPat p) i s (lv s) [(i, i + length s)]
  | T_then p q i s t a b l l' : Told p i s a l -> Told q (i + length s) t b l' -> Told (PThen p q) i (s ++ t) (VPair a b) (l ++ l')
  | T_ifthen_no p t q i s a l : Told p i s a l -> Told (PIfThen p t q) i s (VPair a VNone) l
  | T_ifthen p t q i s s' s'' a b l l' :
      Told p i s a l -> Lang G t s' -> Told q (i + length s + length s') s'' b l' ->
      Told (PIfThen p t q) i (s ++ s' ++ s'') (VPair a (VSome b)) (l ++ l')
  | T_or_l p q i s v l : Told p i s v l -> Told (POr p q) i s v l
  | T_or_r p q i s v l : Told q i s v l -> Told (POr p q) i s v l
  | T_prefix p pre i s t v l : Lang G pre s -> Told p (i + length s) t v l -> Told (PPrefix p pre) i (s ++ t) v l
  | T_suffix p suf i s t v l : Told p i s v l -> Lang G suf t -> Told (PSuffix p suf) i (s ++ t) v l
  | T_enclose p o c i s t u v l :
      Lang G o s -> Told p (i + length s) t v l -> Lang G c u -> Told (PEnclose p o c) i (s ++ t ++ u) v l
  | T_seponce p m q i s t u a b l l' :
      Told p i s a l -> Lang G m t -> Told q (i + length s + length t) u b l' ->
      Told (PSepOnce p m q) i (s ++ t ++ u) (VPair a b) (l ++ l')
  | T_sep p d mn i vs s l : mn <= length vs -> TSepVals (Told p) (Lang G d) i vs s l -> Told (PSep p d mn true) i s (VList vs) l
  | T_repeat p r i vs s l : InRange r (length vs) -> TVals (Told p) i vs s l -> Told (PRepeat p r) i s (VList vs) l
  | T_collect p mn i vs s l : mn <= length vs -> TVals (Told p) i vs s l -> Told (PCollect p mn) i s (VList vs) l
  | T_some p i s v l : Told p i s v l -> Told (POption p) i s (VSome v) l
  | T_none p i : Told (POption p) i [] VNone []
  | T_map p f i s v u l : Told p i s v l -> f v = Ok u -> Told (PMap p f) i s u l
  | T_choice e b ps p i s v l : In p ps -> Told p i s v l -> Told (PChoice e b ps) i s v l
  | T_wrap p i s v l : Told p i s v l -> Told (PWrap p) i s v l
  | T_ref x p i s v l : env_get G x = Some p -> Told p i s v l -> Told (PRef x) i s v l.

  Variable R : nat -> info.
  (** Whether a handle is quiet (below). *)
  Variable Q : nat -> Prop.

  (** If the next item cannot begin a word of [p], then [p] tells the handler nothing: of what it runs
      before it notices, no leaf matches the empty text. *)
  Fixpoint quiet (p : pat) : Prop :=
    match p with
    | PThen p q => quiet p /\ (nl (info_of R p) = true -> quiet q)
    | PSepOnce p m q => quiet p /\ (nl (info_of R p) = true -> nl (info_of R m) = true -> quiet q)
    | PIfThen p _ _ => quiet p
    | POr p q => quiet p /\ quiet q
    | PPrefix p pre => nl (info_of R pre) = true -> quiet p
    | PEnclose p o _ => nl (info_of R o) = true -> quiet p
    | PSuffix p _ | PSep p _ _ _ | PRepeat p _ | PCollect p _ | POption p | PMap p _ | PWrap p => quiet p
    | PChoice _ _ ps => (fix all ps := match ps with [] => True | p :: r => quiet p /\ all r end) ps
    | PRef x => Q x
    | PPat p => nl (info_of R p) = false
    | p => nl (info_of R p) = false
    end.
  (** What may be tried in vain is quiet: the alternatives but the last one, what is optional, and the
      elements of loops. *)
  Fixpoint tidy (p : pat) : Prop :=
    match p with
    | PThen p q | PIfThen p _ q | PSepOnce p _ q => tidy p /\ tidy q
    | POr p q => quiet p /\ tidy p /\ tidy q
    | PPrefix p _ | PSuffix p _ | PEnclose p _ _ | PMap p _ | PWrap p => tidy p
    | PSep p _ _ _ | PRepeat p _ | PCollect p _ | POption p => quiet p /\ tidy p
    | PChoice _ _ ps =>
        (fix all ps := match ps with [] => True | p :: r => (r <> [] -> quiet p) /\ tidy p /\ all r end) ps
    | _ => True
    end.
  Definition tidy_env : Prop := forall x p, env_get G x = Some p -> tidy p /\ (Q x -> quiet p).
End Told.

Section Maps.
  Variable M M' : nat -> text -> val -> list piece -> Prop.
  Variable f : forall i s v l, M i s v l -> M' i s v l.
  Fixpoint tvals_map i vs s l (H : TVals M i vs s l) : TVals M' i vs s l :=
    match H in TVals _ i vs s l return TVals M' i vs s l with
    | tvals_nil _ i => tvals_nil M' i
    | tvals_cons _ i v vs s t l l' a b => tvals_cons M' i v vs s t l l' (f i s v l a) (tvals_map (i + length s) vs t l' b)
    end.
  Variable D : text -> Prop.
  Fixpoint tsepvals_map i vs s l (H : TSepVals M D i vs s l) : TSepVals M' D i vs s l :=
    match H in TSepVals _ _ i vs s l return TSepVals M' D i vs s l with
    | tsv_nil _ _ i => tsv_nil M' D i
    | tsv_one _ _ i s v l a => tsv_one M' D i s v l (f i s v l a)
    | tsv_cons _ _ i v vs s d t l l' a b c =>
        tsv_cons M' D i v vs s d t l l' (f i s v l a) b (tsepvals_map (i + length s + length d) vs t l' c)
    end.
  Variable N : text -> val -> Prop.
  Variable g : forall i s v l, M i s v l -> N s v.
  Fixpoint tvals_mean i vs s l (H : TVals M i vs s l) : Vals N vs s :=
    match H in TVals _ i vs s l return Vals N vs s with
    | tvals_nil _ i => vals_nil N
    | tvals_cons _ i v vs s t l l' a b => vals_cons N v vs s t (g i s v l a) (tvals_mean (i + length s) vs t l' b)
    end.
  Fixpoint tsepvals_mean i vs s l (H : TSepVals M D i vs s l) : SepVals N D vs s :=
    match H in TSepVals _ _ i vs s l return SepVals N D vs s with
    | tsv_nil _ _ i => sv_nil N D
    | tsv_one _ _ i s v l a => sv_one N D s v (g i s v l a)
    | tsv_cons _ _ i v vs s d t l l' a b c =>
        sv_cons N D v vs s d t (g i s v l a) b (tsepvals_mean (i + length s + length d) vs t l' c)
    end.
  Variable h : forall s v, N s v -> forall i, exists l, M i s v l.
  Fixpoint mean_tvals vs s (H : Vals N vs s) : forall i, exists l, TVals M i vs s l :=
    match H in Vals _ vs s return forall i, exists l, TVals M i vs s l with
    | vals_nil _ => fun i => ex_intro _ [] (tvals_nil M i)
    | vals_cons _ v vs s t a b => fun i =>
        match h s v a i, mean_tvals vs t b (i + length s) with
        | ex_intro _ l x, ex_intro _ l' y => ex_intro _ (l ++ l') (tvals_cons M i v vs s t l l' x y)
        end
    end.
  Fixpoint mean_tsepvals vs s (H : SepVals N D vs s) : forall i, exists l, TSepVals M D i vs s l :=
    match H in SepVals _ _ vs s return forall i, exists l, TSepVals M D i vs s l with
    | sv_nil _ _ => fun i => ex_intro _ [] (tsv_nil M D i)
    | sv_one _ _ s v a => fun i => match h s v a i with ex_intro _ l x => ex_intro _ l (tsv_one M D i s v l x) end
    | sv_cons _ _ v vs s d t a b c => fun i =>
        match h s v a i, mean_tsepvals vs t c (i + length s + length d) with
        | ex_intro _ l x, ex_intro _ l' y => ex_intro _ (l ++ l') (tsv_cons M D i v vs s d t l l' x b y)
        end
    end.
End Maps.

Section Values.
  Variable G : env.
  Variable lv : text -> val.

  (** The values are those of Meaning.v. *)
  Lemma told_mean : forall p i s v l, Told G lv p i s v l -> Mean G lv p s v.
  Proof.
    fix F 6. intros p i s v l H. destruct H.
    all: repeat match goal with X : Told G lv ?p ?i ?s ?v ?l |- _ =>
      lazymatch goal with D : Mean G lv p s v |- _ => fail | _ => pose proof (F p i s v l X) end end.
    all: try match goal with X : TVals (Told G lv ?p) ?i ?vs ?s ?l |- _ => pose proof (tvals_mean _ (Mean G lv p) (F p) i vs s l X) end.
    all: try match goal with X : TSepVals (Told G lv ?p) ?D ?i ?vs ?s ?l |- _ => pose proof (tsepvals_mean _ D (Mean G lv p) (F p) i vs s l X) end.
    all: clear F; try (econstructor; eauto; fail).
  Qed.
  Ltac get p n l X := match goal with H : forall i, exists l, Told G lv p i _ _ l |- _ => destruct (H n) as [l X] end.
  Lemma mean_told : forall p s v, Mean G lv p s v -> forall i, exists l, Told G lv p i s v l.
  Proof.
    fix F 4. intros p s v H. destruct H; intros i0.
    all: repeat match goal with X : Mean G lv ?p ?s ?v |- _ =>
      lazymatch goal with D : forall i, exists l, Told G lv p i s v l |- _ => fail | _ => pose proof (F p s v X) end end.
    all: try match goal with X : Vals (Mean G lv ?p) ?vs ?s |- _ => pose proof (mean_tvals _ (Mean G lv p) (F p) vs s X) end.
    all: try match goal with X : SepVals (Mean G lv ?p) ?D ?vs ?s |- _ => pose proof (mean_tsepvals _ D (Mean G lv p) (F p) vs s X) end.
    all: clear F.
    { eexists. now apply T_leaf. }
    { eexists. now apply T_pat. }
    - get p i0 l X. get q (i0 + length s) l' Y. eexists. eapply T_then; eauto.
    - get p i0 l X. eexists. eapply T_ifthen_no; eauto.
    - get p i0 l X. get q (i0 + length s + length s') l' Y. eexists. eapply T_ifthen; eauto.
    - get p i0 l X. eexists. eapply T_or_l; eauto.
    - get q i0 l X. eexists. eapply T_or_r; eauto.
    - get p (i0 + length s) l X. eexists. eapply T_prefix; eauto.
    - get p i0 l X. eexists. eapply T_suffix; eauto.
    - get p (i0 + length s) l X. eexists. eapply T_enclose; eauto.
    - get p i0 l X. get q (i0 + length s + length t) l' Y. eexists. eapply T_seponce; eauto.
    - destruct (H1 i0) as [l X]. eexists. eapply T_sep; eauto.
    - destruct (H1 i0) as [l X]. eexists. eapply T_repeat; eauto.
    - destruct (H1 i0) as [l X]. eexists. eapply T_collect; eauto.
    - get p i0 l X. eexists. eapply T_some; eauto.
    - eexists. apply T_none.
    - get p i0 l X. eexists. eapply T_map; eauto.
    - get p i0 l X. eexists. eapply T_choice; eauto.
    - get p i0 l X. eexists. eapply T_wrap; eauto.
    - get p i0 l X. eexists. eapply T_ref; eauto.
  Qed.
End Values.
