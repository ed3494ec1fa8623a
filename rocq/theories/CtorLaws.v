(** Laws of constructing mode in observable terms. *)

From Coq Require Import List Arith NArith Bool Lia.
From Verif Require Import Base Text Context Neu Syntax Regex Ctor Api TextProofs Spec Units Core Sound Complete Mono Obs Laws ApiLaws PolicyLaws PegLaws CursorLaws CtorSpec CtorSound CtorComplete.
Import ListNotations.

(** The value built by the extractor of [ctor]: the matched slice. *)
Definition is_slice (w : text) (b j : nat) (v : val) : Prop := v = VText (slice w b j).

Lemma extract_text_slice k w x b j (st : unit) : x <= length w -> b <= j -> j <= length w ->
  exists v, fst (extract_text (cx k w x) (sp k w b j) st) = Ok v /\ is_slice w b j v.
Proof.
  intros Hx H1 H2. unfold extract_text. rewrite orig_sub_sp by auto. eexists. split; reflexivity.
Qed.

(** The value built by the extractor of [ctor_span]: the matched span. *)
Definition is_span (k : kind) (w : text) (b j : nat) (v : val) : Prop := v = VSpan (sp k w b j).

Lemma extract_span_span k w x b j (st : unit) : x <= length w -> b <= j -> j <= length w ->
  exists v, fst (extract_span (cx k w x) (sp k w b j) st) = Ok v /\ is_span k w b j v.
Proof. intros. eexists. split; reflexivity. Qed.

Section Det.
  Variable k : kind.
  Variable G : env.
  Variable sk : text -> nat -> nat.
  Variable pols : list pat.
  Variable HV : text -> nat -> nat -> val -> Prop.
  Hypothesis SK : skipper sk.
  Hypothesis TE : tcore_env k G sk HV.
  Hypothesis IM : implements k G sk pols.
  Notation Peg := (Peg k G sk).
  Notation Tree := (Tree k G sk HV).
  Notation Trees := (Trees k G sk HV).
  Notation Trees_sep := (Trees_sep k G sk HV).
  Notation tcore := (tcore k G sk HV).
  Notation core := (core k G sk).
  Let CE := tcore_core_env k G sk HV TE.

  Lemma leafy_inv w p i v j : leafy p -> Tree w p i v j -> exists b, Peg w p i (OK b j) /\ HV w b j v.
  Proof. intros L T. destruct p; try contradiction; inversion T; subst; eauto. Qed.

  Lemma pdet w p i o o' : core p -> i <= length w -> sk w i = i -> Peg w p i o -> Peg w p i o' -> o = o'.
  Proof. intros. eapply (peg_det k G sk pols SK CE IM); eauto. Qed.
  Lemma bnd w p i b j : core p -> i <= length w -> sk w i = i -> Peg w p i (OK b j) ->
    j <= length w /\ i <= j /\ sk w j <= length w /\ sk w (sk w j) = sk w j.
  Proof.
    intros C Hi E P. destruct (peg_complete k G sk pols SK CE IM w p i _ P C Hi E) as [B _]. cbn in B.
    destruct B as (B1 & B2 & B3). repeat split; try lia; [now apply sk_le|now apply sk_idem].
  Qed.

  Definition dT (w : text) (p : pat) (i : nat) (v : val) (j : nat) : Prop :=
    tcore p -> i <= length w -> sk w i = i -> forall v' j', Tree w p i v' j' -> v = v' /\ j = j'.
  Definition dTs (w : text) (p : pat) (lim : option nat) (i : nat) (vs : list val) (j : nat) : Prop :=
    tcore p -> i <= length w -> forall vs' j', Trees w p lim i vs' j' -> vs = vs' /\ j = j'.
  Definition dTss (w : text) (p s : pat) (i : nat) (vs : list val) (j : nat) : Prop :=
    tcore p -> core s -> i <= length w -> forall vs' j', Trees_sep w p s i vs' j' -> vs = vs' /\ j = j'.

  Lemma tp w p i v j : Tree w p i v j -> tcore p -> exists b, Peg w p i (OK b j).
  Proof. apply (tree_peg k G sk HV TE). Qed.
  Lemma ttb w p i v j : Tree w p i v j -> tcore p -> i <= length w -> sk w i = i ->
    j <= length w /\ i <= j /\ sk w j <= length w /\ sk w (sk w j) = sk w j.
  Proof. intros T C Hi E. destruct (tp _ _ _ _ _ T C). eapply bnd; eauto. now apply (tcore_core k G sk HV). Qed.

  Lemma tclash w p i v j e : Tree w p i v j -> Peg w p i (KO e) -> tcore p -> i <= length w -> sk w i = i -> False.
  Proof.
    intros T P C Hi E. destruct (tp _ _ _ _ _ T C) as [b Q].
    now pose proof (pdet _ _ _ _ _ (tcore_core k G sk HV p C) Hi E P Q).
  Qed.

  (** Two alternatives [l ++ p :: r] split at the first one that does not fail. *)
  Lemma split_eq {A} (P : A -> Prop) l p r l' p' r' : l ++ p :: r = l' ++ p' :: r' ->
    Forall P l -> ~ P p -> Forall P l' -> ~ P p' -> l = l' /\ p = p' /\ r = r'.
  Proof.
    revert l'. induction l as [|a l IH]; intros [|a' l'] E F N F' N'; simpl in E.
    - injection E as -> ->. auto.
    - injection E as -> ->. inversion F'. contradiction.
    - injection E as -> <-. inversion F. contradiction.
    - injection E as -> E. inversion F; inversion F'; subst. destruct (IH _ E) as (-> & -> & ->); auto.
  Qed.

  Lemma skw w j : j <= length w -> sk w j <= length w /\ sk w (sk w j) = sk w j.
  Proof. intros H. split; [now apply sk_le|now apply sk_idem]. Qed.

  Hypothesis HF : forall w b j v v', HV w b j v -> HV w b j v' -> v = v'.
  Ltac sat := repeat match goal with
    | C : tcore ?p |- _ => lazymatch goal with _ : core p |- _ => fail | _ => pose proof (tcore_core k G sk HV p C) end
    end.
  (** Bounds of the positions reached so far. *)
  Ltac bnds := repeat match goal with
    | T : Tree ?w ?p ?i ?v ?j, C : tcore ?p, Hi : ?i <= length ?w, E : sk ?w ?i = ?i |- _ =>
        lazymatch goal with _ : j <= length w |- _ => fail | _ => destruct (ttb _ _ _ _ _ T C Hi E) as (? & ? & ? & ?) end
    | P : Peg ?w ?p ?i (OK ?b ?j), C : core ?p, Hi : ?i <= length ?w, E : sk ?w ?i = ?i |- _ =>
        lazymatch goal with _ : j <= length w |- _ => fail | _ => destruct (bnd _ _ _ _ _ C Hi E P) as (? & ? & ? & ?) end
    end.
  Ltac uni1 := match goal with
    | P : Peg ?w ?p ?i (OK ?b ?j), Q : Peg ?w ?p ?i (KO ?e), C : core ?p |- _ =>
        exfalso; discriminate (pdet w p i _ _ C ltac:(assumption) ltac:(assumption) P Q)
    | P : Peg ?w ?p ?i (OK ?b ?j), Q : Peg ?w ?p ?i (OK ?b' ?j'), C : core ?p |- _ =>
        lazymatch P with Q => fail | _ => idtac end;
        let E := fresh "E" in pose proof (pdet w p i _ _ C ltac:(assumption) ltac:(assumption) P Q) as E;
        clear Q; injection E; clear E; intros; subst
    | T : Tree ?w ?p ?i ?v ?j, P : Peg ?w ?p ?i (KO ?e), C : tcore ?p |- _ =>
        exfalso; exact (tclash w p i _ _ _ T P C ltac:(assumption) ltac:(assumption))
    | T : Tree ?w ?p ?i ?v ?j, T' : Tree ?w ?p ?i ?v' ?j', IH : dT ?w ?p ?i ?v ?j, C : tcore ?p |- _ =>
        lazymatch T with T' => fail | _ => idtac end;
        let E := fresh "E" in pose proof (IH C ltac:(assumption) ltac:(assumption) _ _ T') as E; clear T';
        destruct E; subst
    end.
  Ltac go := sat; bnds; repeat (uni1; bnds).

  Lemma tree_det_all :
    (forall w p i v j, Tree w p i v j -> dT w p i v j) /\
    (forall w p lim i vs j, Trees w p lim i vs j -> dTs w p lim i vs j) /\
    (forall w p s i vs j, Trees_sep w p s i vs j -> dTss w p s i vs j).
  Proof.
    apply Tree_mutind.
    1: { intros w p i b j v L P H C Hi E v' j' T. destruct (leafy_inv _ _ _ _ _ L T) as (b' & P' & H').
         pose proof (tcore_core k G sk HV p C). pose proof (pdet _ _ _ _ _ H0 Hi E P P') as X. injection X as -> ->. eauto. }
    1: { intros w p i b j v P H C Hi E v' j' T. inversion C; subst; try contradiction. inversion T; subst; try contradiction.
         go. eauto. }
    all: intros; intro; intros.
    all: try match goal with C : tcore ?x |- _ => is_var x; fail 1 | C : tcore _ |- _ => inversion C; subst; try contradiction; clear C end.
    all: try match goal with T : Tree _ ?q _ ?v' ?j' |- ?v = ?v' /\ ?j = ?j' => inversion T; subst; try contradiction; clear T end.
    all: try match goal with T : Trees _ ?q _ _ ?v' ?j' |- ?v = ?v' /\ ?j = ?j' => inversion T; subst; try congruence; clear T end.
    all: try match goal with T : Trees_sep _ ?q _ _ ?v' ?j' |- ?v = ?v' /\ ?j = ?j' => inversion T; subst; try congruence; clear T end.
    all: try (match goal with H : ?i <= length ?w |- _ => lazymatch goal with _ : sk w i = i |- _ => fail | _ => destruct (skw w i H) end end).
    all: go.
    all: try (split; congruence).
    all: try match goal with T : Tree ?w ?p ?i ?v ?j, T' : Tree ?w ?q ?i ?v' ?j', C : tcore ?p, C' : tcore ?q |- _ =>
      lazymatch p with q => fail | _ => idtac end;
      destruct (tp _ _ _ _ _ T C) as [? ?]; destruct (tp _ _ _ _ _ T' C') as [? ?]; go; lia end.
    all: try match goal with IH : dTs _ _ _ _ _ _ |- _ => edestruct IH as [-> ->]; eauto; fail end.
    all: try match goal with IH : dTss _ _ _ _ _ _ |- _ => edestruct IH as [-> ->]; eauto; fail end.
    - destruct (split_eq (fun q => exists e', Peg w q i (KO e')) _ _ _ _ _ _ H6) as (_ & -> & _); auto.
      + intros [e' P]. refine (tclash w _ i _ _ _ _ P _ _ _); eauto. apply H7. rewrite <- H6. apply in_app_iff. right. now left.
      + intros [e' P]. refine (tclash w _ i _ _ _ _ P _ _ _); eauto. apply H7. apply in_app_iff. right. now left.
      + apply H1; auto. apply H7. apply in_app_iff. right. now left.
    - destruct (split_eq (fun q : pat * val => exists e', Peg w (fst q) i (KO e')) _ _ _ _ _ _ H6) as (_ & E & _); auto.
      + intros [e' P]. refine (tclash w _ i _ _ _ _ P _ _ _); eauto. apply (H7 (p0, x0)). rewrite <- H6. apply in_app_iff. right. now left.
      + intros [e' P]. refine (tclash w _ i _ _ _ _ P _ _ _); eauto. apply (H7 (p, x)). apply in_app_iff. right. now left.
      + injection E as -> ->. destruct (H1 (H7 (p, x) ltac:(apply in_app_iff; right; now left)) H3 H4 _ _ H13) as [-> ->]. auto.
    - rewrite H in H6. injection H6 as <-. apply H1; auto. now apply (TE x).
  Qed.

  Lemma tree_det w p i v j v' j' : tcore p -> i <= length w -> sk w i = i ->
    Tree w p i v j -> Tree w p i v' j' -> v = v' /\ j = j'.
  Proof. intros C Hi E T T'. eapply (proj1 tree_det_all); eauto. Qed.
End Det.

(** ** Construction and matching agree; the value is the specified tree *)
Section Agree.
  Variable k : kind.
  Variable G : env.
  Variable sk : text -> nat -> nat.
  Variable pols : list pat.
  Variable HV : text -> nat -> nat -> val -> Prop.
  Context {S : Type}.
  Variable h : handler S.
  Hypothesis SK : skipper sk.
  Hypothesis TE : tcore_env k G sk HV.
  Hypothesis IM : implements k G sk pols.
  Hypothesis HH : forall w x b j st, x <= length w -> b <= j -> j <= length w ->
    exists v, fst (h (cx k w x) (sp k w b j) st) = Ok v /\ HV w b j v.
  Notation Peg := (Peg k G sk).
  Notation Tree := (Tree k G sk HV).
  Notation tcore := (tcore k G sk HV).
  Let CE := tcore_core_env k G sk HV TE.

  Lemma builds_spec p w i st r c' st' : tcore p -> i <= length w -> Builds h G pols p (cx k w i) st r c' st' ->
    (exists v j y, r = Ok v /\ c' = cx k w y /\ Tree w p (sk w i) v j /\
       sk w i <= j /\ j <= length w /\ y <= length w /\ sk w y = sk w j) \/
    (exists e y, r = Err e /\ c' = cx k w y /\ Peg w p (sk w i) (KO e) /\ y <= length w /\ sk w y = sk w i).
  Proof.
    intros C Hi (n & E & N). pose proof (construct_sound k G sk pols HV h SK TE IM HH n [] p w i st C Hi) as V.
    rewrite E in V. inversion V; subst.
    - left. match goal with N : near _ _ _ _ |- _ => destruct N as (? & ? & ?) end. exists v, j, y. auto 10.
    - right. match goal with N : near _ _ _ _ |- _ => destruct N as (? & ? & ?) end. exists e, y. auto 10.
    - now elim N.
  Qed.

  Lemma peg_builds p w i st o : tcore p -> i <= length w -> Peg w p (sk w i) o ->
    exists r c' st', Builds h G pols p (cx k w i) st r c' st' /\
      match o with OK _ _ => exists v, r = Ok v | KO e => r = Err e end.
  Proof.
    intros C Hi P. destruct (construct_complete k G sk pols HV h SK TE IM HH w p (sk w i) o P C (sk_le sk SK w i Hi) (sk_idem sk SK w i Hi)) as [n V].
    specialize (V n (le_n _) [] i st Hi eq_refl). destruct o as [b j|e].
    - destruct V as (v & y & st' & E & _). exists (Ok v), (cx k w y), st'. split; eauto. exists n. split; [exact E|discriminate].
    - destruct V as (y & st' & E & _). exists (Err e), (cx k w y), st'. split; eauto. exists n. split; [exact E|discriminate].
  Qed.

  (** The two modes give the same verdict and end at the same place (up to skipped text). *)
  Lemma builds_agrees p w i st r c' st' : tcore p -> i <= length w -> Builds h G pols p (cx k w i) st r c' st' ->
    exists r1 x y, Returns G pols p (cx k w i) r1 (cx k w x) /\ c' = cx k w y /\ sk w x = sk w y /\
      (forall e, r = Err e <-> r1 = Err e) /\ ((exists v, r = Ok v) <-> exists s, r1 = Ok s).
  Proof.
    intros C Hi B. pose proof (tcore_core k G sk HV p C) as K.
    destruct (builds_spec _ _ _ _ _ _ _ C Hi B) as [(v & j & y & -> & -> & T & H1 & H2 & H3 & H4)|(e & y & -> & -> & P & H1 & H2)].
    - destruct (tree_peg k G sk HV TE _ _ _ _ _ T C) as [b P].
      destruct (policy_complete k G sk pols SK CE IM p w i _ K Hi P) as (r & c & R & -> & x & X1 & X2 & ->).
      exists (Ok (sp k w b j)), x, y. split; [exact R|]. split; auto.
      split; [rewrite (sk_conv sk SK w j x); auto|]. split; [split; discriminate|]. split; eauto.
    - destruct (policy_complete k G sk pols SK CE IM p w i _ K Hi P) as (r & c & R & -> & ->).
      exists (Err e), (sk w i), y. split; [exact R|]. split; auto. split; [rewrite sk_idem; auto|].
      split; [split; congruence|]. split; intros [? ?]; discriminate.
  Qed.

  Lemma returns_agrees p w i st r c' : tcore p -> i <= length w -> Returns G pols p (cx k w i) r c' ->
    exists r1 x y st', Builds h G pols p (cx k w i) st r1 (cx k w y) st' /\ c' = cx k w x /\ sk w x = sk w y /\
      (forall e, r = Err e <-> r1 = Err e) /\ ((exists v, r = Ok v) <-> exists s, r1 = Ok s).
  Proof.
    intros C Hi R. pose proof (tcore_core k G sk HV p C) as K.
    assert (Hs : exists o, Peg w p (sk w i) o).
    { destruct (policy_sound k G sk pols SK CE IM p w i r c' K Hi R) as [(b & j & x & _ & _ & P & _)|(e & _ & _ & P)]; eauto. }
    destruct Hs as [o P]. destruct (peg_builds p w i st o C Hi P) as (r1 & c1 & st1 & B & _).
    destruct (builds_agrees _ _ _ _ _ _ _ C Hi B) as (r2 & x & y & R2 & -> & E & E1 & E2).
    destruct (returns_det _ _ _ _ _ _ _ _ R R2) as [-> ->].
    exists r1, x, y, st1. repeat split; auto; intros; try (apply E1; auto); try (apply E2; auto).
  Qed.

  (** With a handler that is a function of the matched slice, the specified tree is what is built. *)
  Lemma tree_builds p w i st v j : (forall w b j v v', HV w b j v -> HV w b j v' -> v = v') ->
    tcore p -> i <= length w -> Tree w p (sk w i) v j ->
    exists y st', Builds h G pols p (cx k w i) st (Ok v) (cx k w y) st' /\ sk w y = sk w j.
  Proof.
    intros HF C Hi T. destruct (tree_peg k G sk HV TE _ _ _ _ _ T C) as [b P].
    destruct (peg_builds p w i st _ C Hi P) as (r & c' & st' & B & v1 & ->).
    destruct (builds_spec _ _ _ _ _ _ _ C Hi B) as [(v2 & j2 & y & [= <-] & -> & T2 & H1 & H2 & H3 & H4)|(e & y & ? & _)]; [|discriminate].
    destruct (tree_det k G sk pols HV SK TE IM HF w p (sk w i) v j v1 j2) as [-> ->]; auto; [now apply sk_le|now apply sk_idem|].
    eauto.
  Qed.
End Agree.
