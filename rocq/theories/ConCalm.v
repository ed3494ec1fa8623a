(** Constructing panics only if a mapper, handler, test or closure does, or an array overflows. *)

From Coq Require Import List Arith NArith Bool Lia.
From Verif Require Import Base Text Context Neu Syntax Ctor TextProofs Spec Core CtorSpec ConSpec.
Import ListNotations.

Section Calm.
  Variable k : kind.
  Variable G : env.
  Variable sk : text -> nat -> nat.
  Context {ST : Type}.
  Variable hv : text -> nat -> nat -> ST -> res val * ST.

  (** No user function in [p] panics or runs for ever, and [p] fills no fixed-size arrays. *)
  Inductive calm : pat -> Prop :=
  | calm_leaf p : leafy p -> calm p
  | calm_pat p : calm (PPat p)
  | calm_then p q : calm p -> calm q -> calm (PThen p q)
  | calm_ifthen p t q : calm p -> calm q -> calm (PIfThen p t q)
  | calm_or p q : calm p -> calm q -> calm (POr p q)
  | calm_longest p q : calm p -> calm q -> calm (PLongest p q)
  | calm_prefix p q : calm p -> calm (PPrefix p q)
  | calm_suffix p q : calm p -> calm (PSuffix p q)
  | calm_enclose p o c : calm p -> calm (PEnclose p o c)
  | calm_seponce p s q : calm p -> calm q -> calm (PSepOnce p s q)
  | calm_sep p s m b : calm p -> calm (PSep p s m b)
  | calm_sepcollect p s m b : calm p -> calm (PSepCollect p s m b)
  | calm_repeat p r : calm p -> calm (PRepeat p r)
  | calm_collect p m : calm p -> calm (PCollect p m)
  | calm_option p : calm p -> calm (POption p)
  | calm_branch t p q : (forall c, t c <> Panic) -> calm p -> calm q -> calm (PBranch t p q)
  | calm_map p f : calm p -> (forall v, f v <> Panic /\ f v <> OOF) -> calm (PMap p f)
  | calm_dyn p f :
      calm p -> (forall c v, fst (f c v) <> Panic) -> (forall c v q, fst (f c v) = Ok q -> calm q) -> calm (PDynThen p f)
  | calm_fn f : (forall c, fst (f c) <> Panic /\ fst (f c) <> OOF) -> calm (PCtorFn f)
  | calm_choice e b ps : (forall p, In p ps -> calm p) -> calm (PChoice e b ps)
  | calm_pairchoice e b ps : (forall p, In p ps -> calm (fst p)) -> calm (PPairChoice e b ps)
  | calm_wrap p : calm p -> calm (PWrap p)
  | calm_nonep : calm PNoneP
  | calm_ref x : calm (PRef x).

  Hypothesis CG : forall x p, env_get G x = Some p -> calm p.
  (** The handler neither panics nor runs for ever. *)
  Hypothesis CH : forall w b j s, fst (hv w b j s) <> Panic /\ fst (hv w b j s) <> OOF.

  Lemma settle_calm j (r : res val * ST) : fst r <> Panic -> fst r <> OOF -> settle j r <> CP.
  Proof. destruct r as [[]]; cbn; congruence. Qed.
  Lemma undo_calm i (o : cout ST) : o <> CP -> undo i o <> CP.
  Proof. destruct o; cbn; congruence. Qed.
  Lemma longer_calm i (a b : cout ST) : a <> CP -> b <> CP -> longer i a b <> CP.
  Proof. destruct a, b; cbn; try congruence. destruct (_ <=? _); congruence. Qed.
  Lemma count_calm good e i f (l : lout ST) : l <> LP -> count_ok good e i f l <> CP.
  Proof. destruct l as [vs j s|]; cbn; [|congruence]. destruct (good vs); congruence. Qed.
  Lemma lcons_calm v (l : lout ST) : l <> LP -> lcons v l <> LP.
  Proof. destruct l; cbn; congruence. Qed.

  Lemma con_calm :
    (forall w p i s o, Con k G sk hv w p i s o -> calm p -> o <> CP) /\
    (forall w p lim i s l, Creps k G sk hv w p lim i s l -> calm p -> l <> LP) /\
    (forall w p q b lim i s l, Cseps k G sk hv w p q b lim i s l -> calm p -> l <> LP) /\
    (forall w p q b en i s l, Cpolls k G sk hv w p q b en i s l -> calm p -> l <> LP) /\
    (forall w e ps i s o, Cfirst k G sk hv w e ps i s o -> (forall p, In p ps -> calm (fst p)) -> o <> CP) /\
    (forall w e ps i best en cur s o, Clongest k G sk hv w e ps i best en cur s o -> (forall p, In p ps -> calm (fst p)) -> o <> CP).
  Proof.
    apply Con_mutind; intros; try discriminate;
      try (match goal with C : calm _ |- _ => inversion C; subst; try contradiction end;
           solve [ exact (H0 ltac:(assumption)) | eauto 3
                 | apply settle_calm; apply CH
                 | apply undo_calm; auto | apply count_calm; auto | apply lcons_calm; auto
                 | exfalso; now auto ]);
      try (match goal with C : calm _ |- _ => solve [apply lcons_calm; auto | apply settle_calm; apply CH] end).
    - inversion H3; subst; try contradiction. apply longer_calm; auto; discriminate.
    - inversion H3; subst; try contradiction. apply longer_calm; auto; discriminate.
    - inversion H2; subst; try contradiction. apply undo_calm. apply H1. destruct b; assumption.
    - inversion H0; subst; try contradiction. now match goal with F : forall c, t c <> Panic |- _ => elim (F _ H) end.
    - inversion H1; subst; try contradiction. match goal with F : forall v, f v <> Panic /\ _ |- _ => destruct (F v) end. now apply settle_calm.
    - inversion H2; subst; try contradiction. match goal with F : forall c v, fst (f c v) <> Panic |- _ => elim (F (cx k w j) a); now rewrite H1 end.
    - inversion H6; subst; try contradiction. apply undo_calm. apply H4.
      match goal with F : forall c v q, fst (f c v) = Ok q -> calm q |- _ => apply (F (cx k w j) a); now rewrite H1 end.
    - inversion H2; subst; try contradiction. match goal with F : forall c, fst (f c) <> Panic /\ _ |- _ => destruct (F (cx k w i)) as [? B]; rewrite H in B end.
      now apply settle_calm.
    - inversion H0; subst; try contradiction. match goal with F : forall c, fst (f c) <> Panic /\ _ |- _ => destruct (F (cx k w i)) as [B ?]; rewrite H in B; now elim B end.
    - inversion H1; subst; try contradiction. apply H0. intros p I. unfold plain in I. apply in_map_iff in I. destruct I as (q & <- & Iq). cbn [fst]. auto.
    - inversion H1; subst; try contradiction. apply H0. intros p I. unfold plain in I. apply in_map_iff in I. destruct I as (q & <- & Iq). cbn [fst]. auto.
    - inversion H1; subst; try contradiction. apply H0. intros p I. unfold keyed in I. apply in_map_iff in I. destruct I as (q & <- & Iq). cbn [fst]. auto.
    - inversion H1; subst; try contradiction. apply H0. intros p I. unfold keyed in I. apply in_map_iff in I. destruct I as (q & <- & Iq). cbn [fst]. auto.
    - now elim (H1 H2).
    - now elim (H1 H2).
    - now elim (H0 H1).
    - elim (H0 (H1 (p, g) (or_introl eq_refl))); reflexivity.
    - apply H2. intros; apply H3; now right.
    - apply H3. intros; apply H4; now right.
    - apply H3. intros; apply H4; now right.
    - apply H2. intros; apply H3; now right.
    - elim (H0 (H1 (p, g) (or_introl eq_refl))); reflexivity.
  Qed.
End Calm.
