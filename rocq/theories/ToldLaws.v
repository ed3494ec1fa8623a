(** Building with handlers that have state: where one item of lookahead decides, and what may be tried in
    vain is quiet, the handler is told the leaves of the word and nothing else. *)

From Coq Require Import List Arith NArith Bool Lia.
From Verif Require Import Base Text Context Neu Syntax Regex Ctor Api TextProofs Spec Core Sound Complete Obs Laws
  ApiLaws Consumes Term TermLaws PolicyLaws UnitProps CtorShape CtorSpec CtorLaws ConSpec ConSound ConComplete ConTerm Lang Ll1 Meaning MeanLaws Told.
Import ListNotations.

Section ToldLaws.
  Variable k : kind.
  Variable G : env.
  Variable R : nat -> info.
  Variable lv : text -> val.
  Context {ST : Type}.
  Hypothesis RE : ll1_env R k G.
  Hypothesis FE : fed_env G lv R.
  Notation II := (info_of R).
  Notation LL := (ll1 R k).
  Notation FD := (fed G lv R).
  Notation MM := (Mean G lv).
  (** The handler's answer: a value for the text; its state takes note of the piece. *)
  Variable up : text -> nat -> nat -> ST -> ST.
  Definition notes (w : text) (b j : nat) (st : ST) : res val * ST := (Ok (lv (slice w b j)), up w b j st).
  Definition told (w : text) (l : list piece) (st : ST) : ST := fold_left (fun st x => up w (fst x) (snd x) st) l st.
  Notation Con := (Con k G no_skip notes).
  Notation Peg := (Peg k G no_skip).
  Let CEn : core_env k G no_skip := ll1_core_env k G R RE.
  Let SE : static_env G := ll1_static_env k G R RE.

  Let OKE : con_ok_env k G no_skip := fed_ok_env k G R lv RE FE.

  (** ** What is built is the value of what was consumed *)
  Definition meant (w : text) (p : pat) (i : nat) (st : ST) (o : cout ST) : Prop :=
    match o with
    | CV v j st' => i <= j /\ j <= length w /\ MM p (slice w i j) v
    | CE _ j _ => j = i
    | CP => False
    end.
  Lemma peg_word w p i b j : Peg w p i (OK b j) -> LL p -> i <= length w -> b = i /\ i <= j /\ j <= length w /\ Lang G p (slice w i j).
  Proof. intros P C Hi. exact (proj1 (lang_all k G CEn SE) w p i _ P (ll1_core k G R p C) (ll1_static k R p C) Hi). Qed.

  Ltac fwd := repeat match goal with
    | H : _ /\ _ |- _ => destruct H
    | H : exists _, _ |- _ => destruct H
    | H : False |- _ => destruct H
    | H : ?x = ?y :> nat |- _ => first [is_var x; subst x | is_var y; subst y]
    | H : ?x = ?x -> _ |- _ => specialize (H eq_refl)
    | IH : ll1 R k ?p -> fed G lv R ?p -> ?i <= length ?w -> _, A : ll1 R k ?p, B : fed G lv R ?p, D : ?i <= length ?w |- _ =>
        specialize (IH A B D)
    | IH : ll1 R k ?p -> ll1 R k ?d -> fed G lv R ?p -> ?i <= length ?w -> _, A : ll1 R k ?p, A' : ll1 R k ?d, B : fed G lv R ?p, D : ?i <= length ?w |- _ =>
        specialize (IH A A' B D)
    | H : Spec.Peg _ _ _ ?w ?p ?i (OK _ _), A : ll1 R k ?p, D : ?i <= length ?w |- _ =>
        apply peg_word in H; [|exact A|exact D]
    end.

  Lemma con_mean :
    (forall w p i st o, Con w p i st o -> LL p -> FD p -> i <= length w -> meant w p i st o) /\
    (forall w p lim i st l, Creps k G no_skip notes w p lim i st l -> LL p -> FD p -> i <= length w ->
       match l with
       | LV vs j st' => i <= j /\ j <= length w /\ Vals (MM p) vs (slice w i j)
       | LP => False
       end) /\
    (forall w p d (skip : bool) lim i st l, Cseps k G no_skip notes w p d skip lim i st l -> skip = true -> LL p -> LL d -> FD p -> i <= length w ->
       match l with
       | LV vs j st' => i <= j /\ j <= length w /\ SepVals (MM p) (Lang G d) vs (slice w i j)
       | LP => False
       end) /\
    (forall w p q skip en i st l, Cpolls k G no_skip notes w p q skip en i st l -> True) /\
    (forall w e ps i st o, Cfirst k G no_skip notes w e ps i st o -> forall qs, ps = plain qs -> Forall LL qs -> Forall FD qs -> i <= length w ->
       match o with
       | CV v j st' => i <= j /\ j <= length w /\ (exists p, In p qs /\ MM p (slice w i j) v)
       | CE _ j st' => j = i
       | CP => False
       end) /\
    (forall w e ps i best en cur st o, Clongest k G no_skip notes w e ps i best en cur st o -> True).
  Proof.
    apply Con_mutind; unfold meant, no_skip; intros; auto.
    all: cbn [ll1 fed] in *; repeat match goal with H : _ /\ _ |- _ => destruct H end.
    all: try contradiction.
    all: subst; fwd; cbn [settle notes undo stops lcons] in *.
    all: repeat match goal with
      | |- context [undo _ ?o] => is_var o; destruct o
      | H : stops ?o |- _ => is_var o; destruct o
      | l : lout ST |- _ => destruct l
      end; cbn [undo stops lcons count_ok settle] in *; fwd; try contradiction; auto.
    all: try solve [split; [lia|]; split; [lia|]; first
      [ rewrite ?slice_nil; constructor; auto; fail
      | apply M_or_r; assumption
      | rewrite <- (slice_app w i j) by lia; econstructor; eauto; fail
      | rewrite <- (slice_app w i j), <- (slice_app w j j1) by lia; econstructor; eauto; fail
      | rewrite <- (slice_app w i j), <- (slice_app w j j') by lia; econstructor; eauto; fail ]].
    - (* sep *) destruct (_ <=? _) eqn:E; [|reflexivity]. apply Nat.leb_le in E. repeat (split; [assumption|]). now apply M_sep.
    - destruct (crange_contains _ _) eqn:E; [|reflexivity]. apply contains_in in E. repeat (split; [assumption|]). now apply M_repeat.
    - destruct (_ <=? _) eqn:E; [|reflexivity]. apply Nat.leb_le in E. repeat (split; [assumption|]). now apply M_collect.
    - (* map *) match goal with T : forall s v, MM p s v -> _, X : MM p _ v |- _ => destruct (T _ _ X) as [u E] end.
      rewrite E. repeat (split; [assumption|]). eapply M_map; eauto.
    - (* choice *) assert (A : Forall LL ps) by (apply (choice_all k R e false); split; assumption).
      assert (B : Forall FD ps) by (apply (fed_choice G lv R e false); assumption).
      match goal with IH : forall qs, plain ps = plain qs -> _ |- _ => specialize (IH ps eq_refl A B ltac:(assumption)) end.
      destruct o; auto. fwd. repeat (split; [assumption|]). eapply M_choice; eauto.
    - discriminate.
    - destruct o; auto. fwd. repeat (split; [assumption|]). now apply M_wrap.
    - (* handle *) match goal with E : env_get G x = Some p |- _ => pose proof (proj1 (proj2 (RE x) p E)); pose proof (FE x p E) end.
      fwd. destruct o; auto. fwd. repeat (split; [assumption|]). eapply M_ref; eauto.
    - (* alternatives *) destruct qs as [|q qs]; [discriminate|]. cbn in *. injection H1 as -> -> ->.
      inversion H2; inversion H3; subst. fwd. repeat (split; [assumption|]). exists q. auto.
    - destruct qs as [|q qs]; [discriminate|]. cbn in *. injection H1 as -> -> ->.
      inversion H2; inversion H3; subst. now fwd.
    - destruct qs as [|q qs]; [discriminate|]. cbn in *. injection H3 as -> -> ->.
      inversion H4; inversion H5; subst. fwd. specialize (H2 qs eq_refl ltac:(assumption) ltac:(assumption) ltac:(assumption)).
      destruct o; auto. fwd. repeat (split; [assumption|]). eauto.
  Qed.

  (** ** What is quiet tells nothing where it cannot begin *)
  Variable Q : nat -> Prop.
  Hypothesis TE : tidy_env G R Q.
  Notation QT := (quiet R Q).
  Notation TD := (tidy R Q).
  Definition calm (st : ST) (o : cout ST) : Prop := match o with CV _ _ st' | CE _ _ st' => st' = st | CP => True end.
  Lemma calm_undo st i o : calm st o -> calm st (undo i o).
  Proof. destruct o; auto. Qed.
  Lemma still_word p i j w : Lang G p (slice w i j) -> LL p -> i <= j -> j <= length w -> ~ ahead (skipn i w) (fs (II p)) -> j = i /\ nl (II p) = true.
  Proof.
    intros M C H1 H2 A. apply (first_sound k G R RE) in M; [|exact C]. unfold slice in M.
    destruct (j - i) eqn:Z; cbn [firstn] in M; [split; [lia|exact M]|exfalso].
    destruct (skipn i w) as [|x r] eqn:E; [|cbn in *; auto].
    apply (f_equal (@length item)) in E. rewrite skipn_length in E. cbn in E. lia.
  Qed.
  Lemma still_con p i w st v j st' : Con w p i st (CV v j st') -> LL p -> FD p -> i <= length w ->
    ~ ahead (skipn i w) (fs (II p)) -> j = i /\ nl (II p) = true.
  Proof.
    intros P C F Hi A. destruct (proj1 con_mean w p i st _ P C F Hi) as (H1 & H2 & M). apply mean_lang in M.
    eapply still_word; eauto.
  Qed.
  Lemma still_peg p i w b j : Peg w p i (OK b j) -> LL p -> i <= length w ->
    ~ ahead (skipn i w) (fs (II p)) -> j = i /\ nl (II p) = true.
  Proof. intros P C Hi A. destruct (peg_word w p i b j P C Hi) as (_ & H1 & H2 & M). eapply still_word; eauto. Qed.
  Lemma ahead_seq_fs a b t : ~ ahead t (fs (iseq a b)) -> ~ ahead t (fs a) /\ (nl a = true -> ~ ahead t (fs b)).
  Proof. destruct t; cbn; intuition. Qed.
  Lemma ahead_alt_fs a b t : ~ ahead t (fs (ialt a b)) -> ~ ahead t (fs a) /\ ~ ahead t (fs b).
  Proof. destruct t; cbn; intuition. Qed.
  Lemma choice_fs e b ps q t : In q ps -> ~ ahead t (fs (II (PChoice e b ps))) -> ~ ahead t (fs (II q)).
  Proof.
    intros I. induction ps as [|p ps IH]; [destruct I|]. rewrite choice_cons. intros A. apply ahead_alt_fs in A. destruct A as [A1 A2].
    destruct I as [->|I]; [exact A1|]. apply IH; [exact I|]. exact A2.
  Qed.
  Lemma quiet_choice e b ps : QT (PChoice e b ps) <-> Forall QT ps.
  Proof.
    cbn. induction ps as [|q r IH]; [split; constructor|]. split.
    - intros [H1 H2]. constructor; tauto.
    - intros H. inversion H; subst. tauto.
  Qed.
  Definition lcalm (st : ST) (l : lout ST) : Prop := match l with LV _ _ st' => st' = st | LP => True end.
  Lemma calm_count good e i f l st : lcalm st l -> calm st (count_ok good e i f l).
  Proof. destruct l; cbn; auto. destruct (good vs); auto. Qed.

  Ltac stl := match goal with
    | H : ConSpec.Con _ _ _ _ _ ?p ?i _ (CV _ ?j _), A : ~ ahead (skipn ?i _) (fs (II ?p)) |- _ =>
        apply still_con in H; [|assumption..]; destruct H as [-> H]
    | H : Spec.Peg _ _ _ ?w ?p ?i (OK _ ?j), A : ~ ahead (skipn ?i _) (fs (II ?p)) |- _ =>
        apply still_peg in H; [|assumption..]; destruct H as [-> H]
    end.
  Ltac go := repeat match goal with
    | H : _ /\ _ |- _ => destruct H
    | A : ~ ahead _ (fs (iseq _ _)) |- _ => apply ahead_seq_fs in A
    | A : ~ ahead _ (fs (ialt _ _)) |- _ => apply ahead_alt_fs in A
    | A : context [fs (iopt ?a)] |- _ => change (fs (iopt a)) with (fs a) in A
    | A : ?x = true -> ~ ahead _ _, B : ?x = true |- _ => specialize (A B)
    | A : ?x = true -> quiet _ _ _, B : ?x = true |- _ => specialize (A B)
    | A : ?x = true -> ?y = true -> quiet _ _ _, B : ?x = true, B' : ?y = true |- _ => specialize (A B B')
    | IH : LL ?p -> FD ?p -> QT ?p -> ?i <= length ?w -> _ -> _, A : LL ?p, B : FD ?p, D : QT ?p, E : ?i <= length ?w, X : ~ ahead (skipn ?i ?w) (fs (II ?p)) |- _ =>
        specialize (IH A B D E X); cbn [calm] in IH; subst
    | IH : ?a -> ?b, H : ?a |- _ => match type of a with Prop => specialize (IH H) end
    | _ => stl
    | A : ?x = true, B : ?x = false |- _ => rewrite A in B; discriminate B
    end.
  Lemma quiet_con :
    (forall w p i st o, Con w p i st o -> LL p -> FD p -> QT p -> i <= length w -> ~ ahead (skipn i w) (fs (II p)) -> calm st o) /\
    (forall w p lim i st l, Creps k G no_skip notes w p lim i st l -> LL p -> FD p -> QT p -> i <= length w -> ~ ahead (skipn i w) (fs (II p)) ->
       nl (II p) = false -> lcalm st l) /\
    (forall w p d (skip : bool) lim i st l, Cseps k G no_skip notes w p d skip lim i st l -> LL p -> FD p -> QT p -> i <= length w -> ~ ahead (skipn i w) (fs (II p)) ->
       nl (II p) = false -> lcalm st l) /\
    (forall w p q skip en i st l, Cpolls k G no_skip notes w p q skip en i st l -> True) /\
    (forall w e ps i st o, Cfirst k G no_skip notes w e ps i st o -> forall qs, ps = plain qs -> Forall LL qs -> Forall FD qs -> Forall QT qs ->
       i <= length w -> (forall q, In q qs -> ~ ahead (skipn i w) (fs (II q))) -> calm st o) /\
    (forall w e ps i best en cur st o, Clongest k G no_skip notes w e ps i best en cur st o -> True).
  Proof.
    apply Con_mutind; unfold no_skip; intros; auto.
    all: cbn [ll1 fed quiet info_of calm lcalm] in *; try contradiction; try (repeat match goal with H : _ /\ _ |- _ => destruct H end; contradiction); try reflexivity.
    all: repeat match goal with
      | A : context [fs (iopt ?a)] |- _ => change (fs (iopt a)) with (fs a) in A
      | A : context [fs (iloop ?a ?z)] |- _ => change (fs (iloop a z)) with (fs a) in A
      | A : context [fs (isep ?a ?d ?z)] |- _ => change (fs (isep a d z)) with (fs a) in A
      end.
    1: { destruct (still_peg p i w b j) as [_ N]; auto. exfalso. destruct p; try contradiction; cbn in *; congruence. }
    all: go; try assumption; try reflexivity; try (apply calm_undo; assumption); try (apply calm_count).
    - match goal with S : sep_ok _ _ |- _ => destruct S; auto end.
    - match goal with S : loop_ok _ |- _ => destruct S; auto end.
    - match goal with S : loop_ok _ |- _ => destruct S; auto end.
    - (* map *) destruct (f v) as [u|e| |]; cbn; auto.
    - (* choice *)
      match goal with IH : forall qs, plain ps = plain qs -> _ |- _ => apply (IH ps eq_refl) end; auto.
      + apply (choice_all k R e false). split; auto.
      + now apply (fed_choice G lv R e false).
      + now apply (quiet_choice e false).
      + intros q I. eapply (choice_fs e false); eauto.
    - discriminate.
    - (* handle *) match goal with E : env_get G x = Some p |- _ => pose proof (proj2 (RE x) p E) as [LP LE]; pose proof (FE x p E); pose proof (proj2 (TE x p E)) end.
      go. match goal with IH : ~ ahead _ _ -> calm s o |- _ => apply IH end. intros X.
      match goal with A : ~ ahead _ (fs (R x)) |- _ => apply A end. destruct (skipn i w); [exact X|]. cbn in *. now apply LE.
    - (* alternatives *) destruct qs as [|q qs]; [discriminate|]. cbn in *.
      match goal with E : _ :: _ = _ :: _ |- _ => injection E as -> -> -> end.
      repeat match goal with F : Forall _ (_ :: _) |- _ => inversion F; clear F; subst end.
      match goal with IH : LL q -> _ |- _ => apply IH; auto end.
    - destruct qs as [|q qs]; [discriminate|]. cbn in *.
      match goal with E : _ :: _ = _ :: _ |- _ => injection E as -> -> -> end.
      repeat match goal with F : Forall _ (_ :: _) |- _ => inversion F; clear F; subst end.
      assert (s1 = s) as -> by (match goal with IH : LL q -> _ |- _ => apply IH; auto end).
      match goal with IH : forall qs', _ -> Forall _ qs' -> _ |- _ => apply (IH qs eq_refl); auto end.
  Qed.
  Variable K KC : nat -> bool.
  Variable rk : nat -> nat.
  Variable L : nat.
  Variable h : handler ST.
  Hypothesis HA : ConSpec.answers k no_skip notes h.
  Hypothesis KE : forall x p, env_get G x = Some p -> K x = true -> consumes K p = true.
  Hypothesis KCE : forall x p, env_get G x = Some p -> KC x = true -> cconsumes K KC p = true.
  Hypothesis WE : forall x q, env_get G x = Some q -> wfb K rk L (rk x) q = true /\ cwfb K KC rk L (rk x) q = true.
  Let WE1 : forall x q, env_get G x = Some q -> wfb K rk L (rk x) q = true := fun x q E => proj1 (WE x q E).
  Notation wfB := (wfb K rk L).
  Notation cwfB := (cwfb K KC rk L).

  Let rest_at := rest_at G K rk L KE WE1.

  Lemma con_answers m p w i st : LL p -> FD p -> cwfB m p = true -> i <= length w -> exists o, Con w p i st o.
  Proof.
    intros C F W Hi.
    apply (con_checked k G no_skip [] notes K KC rk L h no_skip_skipper CEn (no_skip_implements k G) OKE HA KE KCE m p w i st WE); auto.
    now apply (fed_con_ok k G R lv).
  Qed.
  Lemma con_fails m p w i st : LL p -> FD p -> QT p -> cwfB m p = true -> i <= length w ->
    nl (II p) = false -> ~ ahead (skipn i w) (fs (II p)) -> exists e, Con w p i st (CE e i st).
  Proof.
    intros C F QQ W Hi N A. destruct (con_answers m p w i st C F W Hi) as [o P].
    pose proof (proj1 con_mean w p i st o P C F Hi) as M. pose proof (proj1 quiet_con w p i st o P C F QQ Hi A) as X.
    destruct o as [v j st'|e j st'|]; cbn in M, X; [|subst; eauto|destruct M].
    exfalso. clear X. destruct M as (H1 & H2 & M). apply mean_lang in M. apply (first_sound k G R RE) in M; [|exact C]. unfold slice in M.
    destruct (j - i) eqn:Z; cbn [firstn] in M; [cbn in M; congruence|].
    destruct (skipn i w) as [|x r] eqn:E; [|cbn in *; auto].
    apply (f_equal (@length item)) in E. rewrite skipn_length in E. cbn in E. lia.
  Qed.

  (** ** The value of every word is built *)
  Definition DoneT (p : pat) (i : nat) (s : text) (v : val) (l : list piece) : Prop := forall m, LL p -> FD p -> TD p -> cwfB m p = true ->
    forall w t st, i <= length w -> skipn i w = s ++ t -> ~ ahead t (ex (II p)) ->
    Con w p i st (CV v (i + length s) (told w l st)).
  Lemma told_app w l l' st : told w (l ++ l') st = told w l' (told w l st).
  Proof. apply fold_left_app. Qed.
  Lemma match_done p s m w i t : Lang G p s -> LL p -> wfB m p = true -> i <= length w -> skipn i w = s ++ t ->
    ~ ahead t (ex (II p)) -> Peg w p i (OK i (i + length s)).
  Proof. intros H C W Hi E N. exact (complete k G R RE K rk L KE WE1 p s H m C W w i t Hi E N). Qed.
  Lemma match_fails p m w i : LL p -> wfB m p = true -> i <= length w -> nl (II p) = false ->
    ~ ahead (skipn i w) (fs (II p)) -> exists e, Peg w p i (KO e).
  Proof. intros. eapply (fails k G R RE K rk L KE WE1); eauto. Qed.

  Lemma seq_ready p q s1 s2 w i t : Lang G q s2 -> LL q -> seq_ok (II p) (II q) -> i <= length w ->
    skipn i w = s1 ++ s2 ++ t -> ~ ahead t (ex (iseq (II p) (II q))) ->
    ~ ahead (s2 ++ t) (ex (II p)) /\ ~ ahead t (ex (II q)) /\ i + length s1 <= length w /\ skipn (i + length s1) w = s2 ++ t.
  Proof.
    intros LQ C2 O Hi E N. destruct (ahead_seq _ _ s2 t O (first_sound k G R RE q s2 LQ C2) N) as [A1 A2].
    destruct (rest_at w s1 (s2 ++ t) i Hi E) as [H1 H2]. auto.
  Qed.
  Lemma seq3_ready p q r s1 s2 s3 w i t : Lang G q s2 -> Lang G r s3 -> LL q -> LL r ->
    seq_ok (II p) (iseq (II q) (II r)) -> seq_ok (II q) (II r) -> i <= length w ->
    skipn i w = s1 ++ s2 ++ s3 ++ t -> ~ ahead t (ex (iseq (II p) (iseq (II q) (II r)))) ->
    ~ ahead (s2 ++ s3 ++ t) (ex (II p)) /\ ~ ahead (s3 ++ t) (ex (II q)) /\ ~ ahead t (ex (II r)) /\
    i + length s1 <= length w /\ skipn (i + length s1) w = s2 ++ s3 ++ t /\
    i + length s1 + length s2 <= length w /\ skipn (i + length s1 + length s2) w = s3 ++ t.
  Proof.
    intros LQ LR C2 C3 O O' Hi E N.
    pose proof (first_sound k G R RE q s2 LQ C2) as B2. pose proof (first_sound k G R RE r s3 LR C3) as B3.
    destruct (ahead_seq _ _ (s2 ++ s3) t O (begins_seq _ _ _ _ B2 B3) N) as [A1 A2].
    rewrite <- app_assoc in A1. destruct (rest_at w s1 _ i Hi E) as [H1 H2].
    destruct (seq_ready q r s2 s3 w _ t LR C3 O' H1 H2 A2) as (A3 & A4 & H3 & H4). repeat (split; [assumption|]). assumption.
  Qed.

  Lemma loop_built p m : LL p -> FD p -> TD p -> QT p -> cwfB m p = true -> loop_ok (II p) ->
    forall i vs s l, TVals (fun i s v l => DoneT p i s v l /\ Lang G p s) i vs s l ->
    forall w t lim st, i <= length w -> skipn i w = s ++ t -> ~ ahead t (ex (II p)) -> ~ ahead t (fs (II p)) ->
    (forall l, lim = Some l -> length vs <= l) -> Creps k G no_skip notes w p lim i st (LV vs (i + length s) (told w l st)).
  Proof.
    intros C F T QQ W [N O] i vs s l H. induction H as [i|i v vs s s' l l' [D LA] H IH]; intros w t lim st Hi E A1 A2 LM.
    - cbn [length]. rewrite Nat.add_0_r. destruct lim as [[|n]|]; [apply Creps_lim| |].
      all: destruct (con_fails m p w i st C F QQ W Hi N) as [e P]; [rewrite E; exact A2|];
        apply Creps_stop with (e := e); [discriminate|exact P].
    - rewrite <- app_assoc in E. rewrite app_length, Nat.add_assoc, told_app. cbn [length] in LM.
      destruct (rest_at w s (s' ++ t) i Hi E) as [H1 H2].
      assert (LZ : lim <> Some 0) by (intros ->; specialize (LM 0 eq_refl); lia).
      match goal with |- context [LV _ ?j ?x] => change (LV (v :: vs) j x) with (lcons v (LV vs j x)) end.
      apply Creps_step with (j := i + length s) (s1 := told w l st); [exact LZ| |].
      + apply (D m C F T W w (s' ++ t)); auto.
        destruct H as [|i' v' vs s' s'' l1 l2 [_ LB] H]; [exact A1|]. apply (first_sound k G R RE) in LB; [|exact C].
        destruct s' as [|x s']; cbn in *; [congruence|]. intros X. exact (O x X LB).
      + apply (IH w t); auto. intros n EL. destruct lim as [n'|]; [|discriminate EL].
        cbn in EL. injection EL as <-. specialize (LM n' eq_refl). lia.
  Qed.

  Lemma sep_built p d m m' : LL p -> FD p -> TD p -> QT p -> LL d -> cwfB m p = true -> wfB m' d = true -> sep_ok (II p) (II d) ->
    forall i vs s l, TSepVals (fun i s v l => DoneT p i s v l /\ Lang G p s) (Lang G d) i vs s l ->
    forall w t lim st, i <= length w -> skipn i w = s ++ t ->
    ~ ahead t (ex (II p)) -> ~ ahead t (fs (II p)) -> ~ ahead t (ex (II d)) -> ~ ahead t (fs (II d)) ->
    (forall l, lim = Some l -> length vs <= l) -> Cseps k G no_skip notes w p d true lim i st (LV vs (i + length s) (told w l st)).
  Proof.
    intros C F T QQ C' W W' (N & N' & O & O') i vs s l H.
    induction H as [i|i s v l [D LA]|i v vs s u s' l l' [D LA] LB H IH]; intros w t lim st Hi E A1 A2 A3 A4 LM.
    - cbn [length]. rewrite Nat.add_0_r. destruct lim as [[|n]|]; [apply Cseps_lim| |].
      all: destruct (con_fails m p w i st C F QQ W Hi N) as [e P]; [rewrite E; exact A2|];
        apply Cseps_stop with (e := e); [discriminate|exact P].
    - destruct (rest_at w s t i Hi E) as [H1 H2].
      destruct (match_fails d m' w (i + length s) C' W' H1 N') as [e P]; [rewrite H2; exact A4|].
      apply (Cseps_last k G no_skip notes w p d true lim i st v (i + length s) (told w l st) e); [intros ->; specialize (LM 0 eq_refl); cbn in LM; lia| |exact P].
      now apply (D m C F T W w t).
    - rewrite <- !app_assoc in E. rewrite !app_length, !Nat.add_assoc, told_app. cbn [length] in LM.
      destruct (rest_at w s (u ++ s' ++ t) i Hi E) as [H1 H2].
      destruct (rest_at w u (s' ++ t) _ H1 H2) as [H3 H4].
      assert (LZ : lim <> Some 0) by (intros ->; specialize (LM 0 eq_refl); lia).
      pose proof (first_sound k G R RE d u LB C') as BU.
      match goal with |- context [LV _ ?j ?x] => change (LV (v :: vs) j x) with (lcons v (LV vs j x)) end.
      apply Cseps_step with (j := i + length s) (b := i + length s) (j' := i + length s + length u) (s1 := told w l st); [exact LZ| | |].
      + apply (D m C F T W w (u ++ s' ++ t)); auto.
        destruct u as [|x u]; cbn in *; [congruence|]. intros X. exact (O x X BU).
      + apply (match_done d u m' w _ (s' ++ t)); auto.
        assert (s' = [] \/ begins (II p) s' /\ s' <> []) as [->|[B Z]]; [|exact A3|].
        { destruct H as [|i0 s0 v0 l0 [_ LX]|i0 v0 vs0 s0 u0 t0 l0 l1 [_ LX] _ _]; [now left|right|right].
          all: apply (first_sound k G R RE) in LX; [|exact C]; destruct s0 as [|x s0]; cbn in *; [congruence|]; now split. }
        destruct s' as [|x s']; [easy|]. cbn in *. intros X. exact (O' x X B).
      + apply (IH w t); auto. intros n EL. destruct lim as [n'|]; [|discriminate EL].
        cbn in EL. injection EL as <-. specialize (LM n' eq_refl). lia.
  Qed.

  Definition tidy_alts := fix all (ps : list pat) : Prop := match ps with [] => True | p :: r => (r <> [] -> QT p) /\ TD p /\ all r end.
  Lemma choice_built e ps p i s v m l : LL (PChoice e false ps) -> Forall FD ps -> tidy_alts ps -> forallb (cwfB m) ps = true -> In p ps ->
    Lang G p s -> DoneT p i s v l ->
    forall w t st, i <= length w -> skipn i w = s ++ t -> ~ ahead t (ex (II (PChoice e false ps))) ->
    Cfirst k G no_skip notes w e (plain ps) i st (CV v (i + length s) (told w l st)).
  Proof.
    intros C F T W J LA D w t st Hi E N. induction ps as [|q r IH]; [destruct J|].
    rewrite choice_cons in N. cbn [forallb] in W. apply andb_prop in W. destruct W as [W1 W2].
    destruct C as (_ & C1 & C2 & C3). inversion F as [|? ? F1 F2]; subst. destruct T as (T1 & T2 & T3).
    change (plain (q :: r)) with ((q, fun v : val => v) :: plain r).
    destruct J as [->|J].
    - apply (Cfirst_hit k G no_skip notes w e p (fun v => v)). apply (D m C1 F1 T2 W1 w t st Hi E). now apply ahead_alt_l in N.
    - assert (CR : LL (PChoice e false r)) by exact (conj eq_refl C3).
      destruct (choice_all _ _ _ _ _ CR) as [_ FR]. rewrite Forall_forall in FR.
      assert (B : begins (II (PChoice EFail false r)) s) by (eapply begins_choice; eauto; now apply (first_sound k G R RE), FR).
      destruct (ahead_alt_r _ _ s t C2 B N) as [A1 A2].
      assert (RN : r <> []) by (intros ->; destruct J).
      destruct (con_fails m q w i st C1 F1 (T1 RN) W1 Hi (proj1 C2)) as [e' P]; [rewrite E; exact A1|].
      apply Cfirst_next with (e' := e') (x := i) (s1 := st); [exact P|]. apply IH; auto.
  Qed.

  Lemma word_at (w s t : text) i : skipn i w = s ++ t -> slice w i (i + length s) = s.
  Proof. intros E. unfold slice. rewrite E. replace (i + length s - i) with (length s) by lia. apply pre_app. Qed.

  Ltac bt := match goal with D : DoneT ?p _ _ _ _ |- ConSpec.Con _ _ _ _ _ ?p _ _ _ => eapply D; eauto end.
  Lemma built : forall p i s v l, Told G lv p i s v l -> DoneT p i s v l.
  Proof.
    fix F 6. intros p at_ s v l H. destruct H.
    all: repeat match goal with X : Told G lv ?p ?i ?s ?v ?l |- _ =>
      lazymatch goal with D : DoneT p i s v l |- _ => fail | _ => pose proof (F p i s v l X); pose proof (mean_lang G lv p s v (told_mean G lv p i s v l X)) end end.
    all: try match goal with X : TVals (Told G lv ?p) ?i ?vs ?s ?l |- _ =>
      pose proof (tvals_map (Told G lv p) (fun i s v l => DoneT p i s v l /\ Lang G p s) (fun i s v l a => conj (F p i s v l a) (mean_lang G lv p s v (told_mean G lv p i s v l a))) i vs s l X) end.
    all: try match goal with X : TSepVals (Told G lv ?p) ?D ?i ?vs ?s ?l |- _ =>
      pose proof (tsepvals_map (Told G lv p) (fun i s v l => DoneT p i s v l /\ Lang G p s) (fun i s v l a => conj (F p i s v l a) (mean_lang G lv p s v (told_mean G lv p i s v l a))) D i vs s l X) end.
    all: clear F; intros m' C FF TT W w rest st Hi E N; rename i into at_.
    all: try (destruct C; fail).
    all: try (cbn [app length] in *; rewrite ?app_length, ?told_app).
    { (* leaf *) match goal with LA : Lang G p s, LF : leafy p |- _ =>
        replace (lv s) with (lv (slice w at_ (at_ + length s))) by (f_equal; eapply word_at; eauto);
        apply (Con_leaf k G no_skip notes w p at_ st at_ (at_ + length s) LF); eapply match_done; eauto; destruct p; try contradiction; exact W end. }
    { (* pat *) replace (lv s) with (lv (slice w at_ (at_ + length s))) by (f_equal; eapply word_at; eauto).
      apply (Con_pat k G no_skip notes w p at_ st at_ (at_ + length s)). eapply match_done; eauto. }
    all: pose proof C as C0; pose proof FF as F0; cbn [ll1 fed info_of cwfb tidy] in C, FF, N, W, TT.
    all: repeat match goal with X : _ && _ = true |- _ => apply andb_prop in X; destruct X end.
    all: rewrite ?Nat.add_assoc; rename at_ into i0.
    all: repeat match type of TT with _ /\ _ => let X := fresh "TT" in destruct TT as [X TT] end.
    - destruct C as (C1 & C2 & C3), FF as (F1 & F2). rewrite <- app_assoc in E.
      destruct (seq_ready p q s t w i0 rest) as (A1 & A2 & G1 & G2); auto.
      eapply Con_then; bt.
    - destruct C as (C1 & C2 & C3 & C4 & C5 & C6), FF as (F1 & F2).
      destruct (rest_at w s rest i0 Hi E) as [G1 G2].
      assert (A1 : ~ ahead rest (ex (II p))) by (intros X; apply N; destruct rest; [exact X|]; cbn in *; auto).
      assert (A2 : ~ ahead rest (fs (II t))) by (intros X; apply N; destruct rest; [exact X|]; cbn in *; auto).
      assert (exists e, Peg w t (i0 + length s) (KO e)) as [e P] by (eapply match_fails; eauto; rewrite G2; exact A2).
      eapply Con_ifthen_no; [|exact P]. bt.
    - destruct C as (C1 & C2 & C3 & C4 & C5 & C6), FF as (F1 & F2). rewrite <- !app_assoc in E.
      assert (A1 : ~ ahead rest (ex (iseq (II p) (iseq (II t) (II q))))).
      { intros X. apply N. destruct rest; [exact X|]. cbn in *. rewrite C4 in X. cbn in X. intuition discriminate. }
      assert (A2 : seq_ok (II p) (iseq (II t) (II q))).
      { intros x X [Y|[Y _]]; [exact (C5 x X Y)|congruence]. }
      destruct (seq3_ready p t q s s' s'' w i0 rest) as (B1 & B2 & B3 & B4 & B5 & B6 & B7); auto.
      eapply Con_ifthen; [bt|eapply match_done; eauto|bt].
    - destruct C as (C1 & C2 & C3), FF as (F1 & F2). apply Con_or1. bt. eapply ahead_alt_l; eauto.
    - destruct C as (C1 & C2 & C3), FF as (F1 & F2).
      destruct (ahead_alt_r _ _ s rest C3 ltac:(now apply (first_sound k G R RE)) N) as [A1 A2].
      destruct (con_fails m' p w i0 st C1 F1 ltac:(assumption) ltac:(assumption) Hi (proj1 C3)) as [e P]; [rewrite E; exact A1|].
      match goal with |- context [CV v ?j ?x] => change (CV v j x) with (undo i0 (CV v j x)) end.
      eapply Con_or2; [exact P|]. bt.
    - destruct C as (C1 & C2 & C3). rewrite <- app_assoc in E.
      destruct (seq_ready pre p s t w i0 rest) as (A1 & A2 & G1 & G2); auto.
      match goal with |- context [CV v ?j ?x] => change (CV v j x) with (undo i0 (CV v j x)) end.
      eapply Con_prefix; [eapply match_done; eauto|bt].
    - destruct C as (C1 & C2 & C3). rewrite <- app_assoc in E.
      destruct (seq_ready p suf s t w i0 rest) as (A1 & A2 & G1 & G2); auto.
      eapply Con_suffix; [bt|eapply match_done; eauto].
    - destruct C as (C1 & C2 & C3 & C4 & C5). rewrite <- !app_assoc in E.
      destruct (seq3_ready o p c s t u w i0 rest) as (B1 & B2 & B3 & B4 & B5 & B6 & B7); auto.
      eapply Con_enclose; [eapply match_done; eauto|bt|eapply match_done; eauto].
    - destruct C as (C1 & C2 & C3 & C4 & C5), FF as (F1 & F2). rewrite <- !app_assoc in E.
      destruct (seq3_ready p m q s t u w i0 rest) as (B1 & B2 & B3 & B4 & B5 & B6 & B7); auto.
      eapply Con_seponce; [bt|eapply match_done; eauto|bt].
    - destruct C as (_ & C1 & C2 & C3). apply ahead_or in N. destruct N as [A1 N]. apply ahead_or in N. destruct N as [A2 N].
      apply ahead_or in N. destruct N as [A3 A4].
      assert (Z : Cseps k G no_skip notes w p d true None i0 st (LV vs (i0 + length s) (told w l st))) by (eapply sep_built; eauto; discriminate).
      apply Con_sep with (mn := mn) in Z. cbn [count_ok] in Z.
      match goal with H : mn <= _ |- _ => now rewrite (proj2 (Nat.leb_le _ _) H) in Z end.
    - destruct C as (C1 & C2). apply ahead_or in N. destruct N as [A1 A2].
      assert (Z : Creps k G no_skip notes w p (limit_of r) i0 st (LV vs (i0 + length s) (told w l st))).
      { eapply loop_built; eauto. intros l'. now apply (cap_le G K rk L KE WE1). }
      apply Con_repeat in Z. cbn [count_ok] in Z.
      match goal with H : InRange _ _ |- _ => now rewrite (proj2 (contains_in _ _) H) in Z end.
    - destruct C as (C1 & C2). apply ahead_or in N. destruct N as [A1 A2].
      assert (Z : Creps k G no_skip notes w p None i0 st (LV vs (i0 + length s) (told w l st))) by (eapply loop_built; eauto; discriminate).
      apply Con_collect with (mn := mn) in Z. cbn [count_ok] in Z.
      match goal with H : mn <= _ |- _ => now rewrite (proj2 (Nat.leb_le _ _) H) in Z end.
    - destruct FF as [F1 F2]. apply Con_some. bt. now apply ahead_or in N.
    - destruct FF as [F1 F2]. apply ahead_or in N. destruct N as [A1 A2]. rewrite Nat.add_0_r.
      destruct (con_fails m' p w i0 st C F1 ltac:(assumption) W Hi F2) as [e P]; [rewrite E; exact A2|]. eapply Con_none; eauto.
    - destruct FF as (F1 & _ & _).
      assert (Z : Con w p i0 st (CV v (i0 + length s) (told w l st))) by (bt).
      apply Con_map with (f := f) in Z. now rewrite H0 in Z.
    - destruct (choice_all _ _ _ _ _ C0) as [-> FL]. apply Con_choice. eapply choice_built; eauto. now apply (fed_choice G lv R e false).
    - apply Con_wrap. bt.
    - eapply Con_ref; [eassumption|]. destruct (RE x) as [_ Z]. destruct (Z p ltac:(assumption)) as (C1 & _ & _ & C2).
      bt; [now apply (TE x)|now apply (WE x)|]. intros X. apply N. destruct rest; [exact X|]. cbn in *. now apply C2.
  Qed.
End ToldLaws.
