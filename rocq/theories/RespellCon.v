(** The same for constructing: the parts build the same values. *)

From Coq Require Import List Arith NArith Bool Lia.
From Verif Require Import Base Text Context Neu Syntax Regex Ctor TextProofs Spec Sound Core Complete Obs Mono Laws
  PegLaws CtorSpec CtorShape ConSpec ConSound ConComplete Term ConTerm Refactor TermLaws Respell.
Import ListNotations.

Section Con.
  Variable k : kind.
  Variable G : env.
  Variable sk : text -> nat -> nat.
  Variable pols : list pat.
  Context {ST : Type}.
  Variable hv : text -> nat -> nat -> ST -> res val * ST.
  Variable h : handler ST.
  Hypothesis SK : skipper sk.
  Hypothesis CE : core_env k G sk.
  Hypothesis IM : implements k G sk pols.
  Hypothesis OE : con_ok_env k G sk.
  Hypothesis HA : answers k sk hv h.
  Notation Peg := (Peg k G sk).
  Notation core := (core k G sk).
  Notation Con := (Con k G sk hv).
  Notation con_ok := (con_ok k G sk).
  Notation follows := (follows k G sk).
  Notation covers := (covers k G sk).

  (** Outcomes that differ at most in the error. *)
  Definition calike (o o' : cout ST) : Prop :=
    match o, o' with
    | CV v j s, CV v' j' s' => v = v' /\ j = j' /\ s = s'
    | ConSpec.CE _ j s, ConSpec.CE _ j' s' => j = j' /\ s = s'
    | CP, CP => True
    | _, _ => False
    end.
  Lemma calike_refl o : calike o o.
  Proof. destruct o; cbn; auto. Qed.
  Lemma calike_trans a b c : calike a b -> calike b c -> calike a c.
  Proof. destruct a, b, c; cbn; intuition congruence. Qed.
  Lemma calike_stops o o' : calike o o' -> stops o -> stops o'.
  Proof. destruct o, o'; cbn; tauto. Qed.
  Lemma calike_undo i o o' : calike o o' -> calike (undo i o) (undo i o').
  Proof. destruct o, o'; cbn; tauto. Qed.
  Lemma calike_longer i a a' o o' : calike a a' -> calike o o' -> calike (longer i a o) (longer i a' o').
  Proof.
    destruct a, a', o, o'; cbn; try tauto; intros H H'; repeat match goal with H : _ /\ _ |- _ => destruct H end; subst; auto;
      match goal with |- context [if ?b then _ else _] => destruct b end; cbn; auto.
  Qed.

  Definition cfollows (p q : pat) : Prop := forall w i s o, i <= length w -> Con w p i s o -> exists o', calike o o' /\ Con w q i s o'.
  Definition both (p q : pat) : Prop := covers p q /\ (con_ok p -> cfollows p q).

  Lemma con_j w p i s v j s' : Con w p i s (CV v j s') -> con_ok p -> i <= length w -> j <= length w.
  Proof. intros P C Hi. now destruct (con_in k G sk pols hv h SK CE IM OE HA _ _ _ _ _ P C Hi). Qed.
  Lemma con_je w p i s e j s' : Con w p i s (ConSpec.CE e j s') -> con_ok p -> i <= length w -> j <= length w.
  Proof. intros P C Hi. now destruct (con_in k G sk pols hv h SK CE IM OE HA _ _ _ _ _ P C Hi). Qed.
  Lemma mat_j w p i b j : Peg w p (sk w i) (OK b j) -> core p -> i <= length w -> j <= length w.
  Proof. intros P C Hi. now destruct (peg_in k G sk pols SK CE IM _ _ _ _ _ P C Hi). Qed.

  (** Matching, as [try_mat] does it. *)
  Lemma mat_ok p q w i b j : follows p q -> i <= length w -> Peg w p (sk w i) (OK b j) -> Peg w q (sk w i) (OK b j).
  Proof. intros F Hi P. destruct (F _ _ _ (settle_sk sk SK _ _ Hi) P) as ([b' j'|] & A & P'); cbn in A; [destruct A as [<- <-]; auto|easy]. Qed.
  Lemma mat_ko p q w i e : follows p q -> i <= length w -> Peg w p (sk w i) (KO e) -> exists e', Peg w q (sk w i) (KO e').
  Proof. intros F Hi P. destruct (F _ _ _ (settle_sk sk SK _ _ Hi) P) as ([|] & A & P'); cbn in A; [easy|eauto]. Qed.
  Lemma con_v p q w i s v j s' : cfollows p q -> i <= length w -> Con w p i s (CV v j s') -> Con w q i s (CV v j s').
  Proof. intros F Hi P. destruct (F _ _ _ _ Hi P) as ([|  |] & A & P'); cbn in A; try easy. destruct A as (<- & <- & <-). auto. Qed.
  Lemma con_e p q w i s e j s' : cfollows p q -> i <= length w -> Con w p i s (ConSpec.CE e j s') -> exists e', Con w q i s (ConSpec.CE e' j s').
  Proof. intros F Hi P. destruct (F _ _ _ _ Hi P) as ([|  |] & A & P'); cbn in A; try easy. destruct A as (<- & <-). eauto. Qed.
  Lemma con_p p q w i s : cfollows p q -> i <= length w -> Con w p i s CP -> Con w q i s CP.
  Proof. intros F Hi P. destruct (F _ _ _ _ Hi P) as ([|  |] & A & P'); cbn in A; easy. Qed.

  Ltac fwd := repeat match goal with
    | N : both ?p ?q |- _ => destruct N
    | N : covers ?p ?q, C : Core.core _ _ _ ?p |- _ => specialize (N C)
    | N : con_ok ?p -> cfollows ?p ?q, C : ConSpec.con_ok _ _ _ ?p |- _ => specialize (N C)
    | F : Respell.follows _ _ _ ?p ?q, P : Spec.Peg _ _ _ ?w ?p (sk ?w ?i) (OK ?b ?j), L : ?i <= length ?w |- _ =>
        lazymatch goal with _ : Spec.Peg _ _ _ w q (sk w i) (OK b j) |- _ => fail | _ => idtac end;
        pose proof (mat_ok p q w i b j F L P);
        lazymatch goal with C : Core.core _ _ _ p |- _ => pose proof (mat_j w p i b j P C L) end
    | F : Respell.follows _ _ _ ?p ?q, P : Spec.Peg _ _ _ ?w ?p (sk ?w ?i) (KO ?e), L : ?i <= length ?w |- _ =>
        lazymatch goal with _ : Spec.Peg _ _ _ w q (sk w i) (KO _) |- _ => fail | _ => idtac end;
        destruct (mat_ko p q w i e F L P)
    | F : cfollows ?p ?q, P : ConSpec.Con _ _ _ _ ?w ?p ?i ?s (CV ?v ?j ?s'), L : ?i <= length ?w |- _ =>
        lazymatch goal with _ : ConSpec.Con _ _ _ _ w q i s (CV v j s') |- _ => fail | _ => idtac end;
        pose proof (con_v p q w i s v j s' F L P);
        lazymatch goal with C : ConSpec.con_ok _ _ _ p |- _ => pose proof (con_j w p i s v j s' P C L) end
    | F : cfollows ?p ?q, P : ConSpec.Con _ _ _ _ ?w ?p ?i ?s (ConSpec.CE ?e ?j ?s'), L : ?i <= length ?w |- _ =>
        lazymatch goal with _ : ConSpec.Con _ _ _ _ w q i s (ConSpec.CE _ j s') |- _ => fail | _ => idtac end;
        destruct (con_e p q w i s e j s' F L P);
        lazymatch goal with C : ConSpec.con_ok _ _ _ p |- _ => pose proof (con_je w p i s e j s' P C L) end
    | F : cfollows ?p ?q, P : ConSpec.Con _ _ _ _ ?w ?p ?i ?s CP, L : ?i <= length ?w |- _ =>
        lazymatch goal with _ : ConSpec.Con _ _ _ _ w q i s CP |- _ => fail | _ => idtac end;
        pose proof (con_p p q w i s F L P)
    | F : cfollows ?p ?q, P : ConSpec.Con _ _ _ _ ?w ?p ?i ?s ?o, L : ?i <= length ?w |- _ =>
        is_var o;
        lazymatch goal with _ : ConSpec.Con _ _ _ _ w q i s _ |- _ => fail | _ => idtac end;
        let o' := fresh "o" in let A := fresh "A" in let P' := fresh "P" in
        destruct (F w i s o L P) as (o' & A & P')
    | A : calike ?o ?o', S : stops ?o |- _ =>
        lazymatch goal with _ : stops o' |- _ => fail | _ => pose proof (calike_stops o o' A S) end
    end.
  Ltac one := econstructor; eassumption.
  Lemma creps_follows w p q : cfollows p q -> con_ok p -> forall lim i s l, i <= length w ->
    Creps k G sk hv w p lim i s l -> Creps k G sk hv w q lim i s l.
  Proof.
    intros F C lim i s l L H. remember w as w0 eqn:Ew. remember p as p0 eqn:Ep. revert F C L Ew Ep.
    induction H using Creps_ind' with
      (P := fun _ _ _ _ _ => True) (P1 := fun _ _ _ _ _ _ _ _ => True) (P2 := fun _ _ _ _ _ _ _ _ => True)
      (P3 := fun _ _ _ _ _ _ => True) (P4 := fun _ _ _ _ _ _ _ _ _ => True); auto; intros F C L -> ->.
    all: try solve [fwd; one].
    all: fwd; econstructor; eauto.
  Qed.
  Lemma cseps_follows w p q s t skip : cfollows p q -> con_ok p -> follows s t -> core s -> forall lim i st l, i <= length w ->
    Cseps k G sk hv w p s skip lim i st l -> Cseps k G sk hv w q t skip lim i st l.
  Proof.
    intros F C F' C' lim i st l L H. remember w as w0 eqn:Ew. remember p as p0 eqn:Ep. remember s as s0 eqn:Es. revert F C F' C' L Ew Ep Es.
    induction H using Cseps_ind' with
      (P := fun _ _ _ _ _ => True) (P0 := fun _ _ _ _ _ _ => True) (P2 := fun _ _ _ _ _ _ _ _ => True)
      (P3 := fun _ _ _ _ _ _ => True) (P4 := fun _ _ _ _ _ _ _ _ _ => True); auto; intros F C F' C' L -> -> ->.
    all: try solve [fwd; one].
    all: fwd; econstructor; eauto.
  Qed.
  Lemma cpolls_follows w p q s t skip : cfollows p q -> con_ok p -> follows s t -> core s -> forall en i st l, i <= length w ->
    Cpolls k G sk hv w p s skip en i st l -> Cpolls k G sk hv w q t skip en i st l.
  Proof.
    intros F C F' C' en i st l L H. remember w as w0 eqn:Ew. remember p as p0 eqn:Ep. remember s as s0 eqn:Es. revert F C F' C' L Ew Ep Es.
    induction H using Cpolls_ind' with
      (P := fun _ _ _ _ _ => True) (P0 := fun _ _ _ _ _ _ => True) (P1 := fun _ _ _ _ _ _ _ _ => True)
      (P3 := fun _ _ _ _ _ _ => True) (P4 := fun _ _ _ _ _ _ _ _ _ => True); auto; intros F C F' C' L -> -> ->.
    all: try solve [fwd; one].
    all: fwd; econstructor; eauto.
  Qed.
  Lemma cfirst_follows w e ps qs : Forall2 (fun a b => both (fst a) (fst b) /\ snd a = snd b) ps qs ->
    forall i s o, (forall p, In p ps -> con_ok (fst p)) -> i <= length w ->
    Cfirst k G sk hv w e ps i s o -> exists o', calike o o' /\ Cfirst k G sk hv w e qs i s o'.
  Proof.
    intros F. induction F as [|[p g] [q g'] ps qs [F0 Eg] F IH]; intros i s o C L H; cbn in *.
    - inversion H; subst. eexists; split; [|constructor]. cbn; auto.
    - subst g'. pose proof (C _ (or_introl eq_refl)) as C0. cbn in C0. inversion H; subst; fwd.
      + eexists; split; [|eapply Cfirst_hit; eauto]. cbn; auto.
      + eexists; split; [|eapply Cfirst_panic; eauto]. cbn; auto.
      + match goal with X : Cfirst _ _ _ _ _ _ _ _ _ _ |- _ => destruct (IH _ _ _ (fun p I => C p (or_intror I)) L X) as (o' & A & P) end.
        exists o'. split; [exact A|eapply Cfirst_next; eauto].
  Qed.
  Lemma clongest_follows w e ps qs : Forall2 (fun a b => both (fst a) (fst b) /\ snd a = snd b) ps qs ->
    forall i best en cur s o, (forall p, In p ps -> con_ok (fst p)) -> i <= length w ->
    Clongest k G sk hv w e ps i best en cur s o -> exists o', calike o o' /\ Clongest k G sk hv w e qs i best en cur s o'.
  Proof.
    intros F. induction F as [|[p g] [q g'] ps qs [F0 Eg] F IH]; intros i best en cur s o C L H; cbn in *.
    - inversion H; subst; eexists; (split; [|constructor]); cbn; auto.
    - subst g'. pose proof (C _ (or_introl eq_refl)) as C0. cbn in C0. inversion H; subst; fwd;
        try (match goal with X : Clongest _ _ _ _ _ _ _ _ _ _ _ _ _ |- _ => destruct (IH _ _ _ _ _ _ (fun p I => C p (or_intror I)) L X) as (o' & A & P) end).
      + exists o'. split; [exact A|eapply Clongest_more; eauto].
      + exists o'. split; [exact A|eapply Clongest_less; eauto].
      + exists o'. split; [exact A|eapply Clongest_ko; eauto].
      + eexists; split; [|eapply Clongest_panic; eauto]. cbn; auto.
  Qed.

  Lemma leaf_follows p q : follows p q -> leafy p -> leafy q -> forall w i s o, i <= length w -> Con w p i s o -> exists o', calike o o' /\ Con w q i s o'.
  Proof.
    intros F Lp Lq w i s o L H. inversion H; subst; cbn in Lp; try contradiction.
    - exists (settle j (hv w b j s)). split; [apply calike_refl|]. apply Con_leaf; auto. eapply mat_ok; eauto.
    - edestruct mat_ko; eauto. eexists; split; [|eapply Con_leaf_ko; eauto]. cbn; auto.
  Qed.
  Lemma node_leafy (R : pat -> pat -> Prop) p q : Node R p q -> leafy p -> leafy q.
  Proof. intros H. destruct H; cbn; auto. Qed.
  Lemma both_plain ps qs : Forall2 both ps qs -> Forall2 (fun a b => both (fst a) (fst b) /\ snd a = snd b) (plain ps) (plain qs).
  Proof. induction 1; cbn; constructor; auto. Qed.
  Lemma both_keyed ps qs : Forall2 (fun a b : pat * val => both (fst a) (fst b) /\ snd a = snd b) ps qs ->
    Forall2 (fun a b => both (fst a) (fst b) /\ snd a = snd b) (keyed ps) (keyed qs).
  Proof. induction 1 as [|[? ?] [? ?] ? ? [? E]]; cbn in *; subst; constructor; auto. Qed.
  Lemma plain_in ps : (forall p, In p ps -> con_ok p) -> forall p, In p (plain ps) -> con_ok (fst p).
  Proof. intros H p I. unfold plain in I. apply in_map_iff in I as (q & <- & I). cbn. auto. Qed.
  Lemma keyed_in ps : (forall p : pat * val, In p ps -> con_ok (fst p)) -> forall p, In p (keyed ps) -> con_ok (fst p).
  Proof. intros H p I. unfold keyed in I. apply in_map_iff in I as (q & <- & I). cbn. auto. Qed.

  Ltac one1 := first [eassumption|reflexivity|eapply creps_follows; eassumption|eapply cseps_follows; eassumption|eapply cpolls_follows; eassumption].
  Ltac finish := eexists; (split; [|solve [econstructor; one1]]); first [eassumption|apply calike_refl|apply calike_undo; eassumption|apply calike_longer; [apply calike_refl|eassumption]|cbn; auto].
  Lemma node_cfollows p q : Node both p q -> con_ok p -> cfollows p q.
  Proof.
    intros N C w i s o L H.
    assert (NL : leafy p -> exists o', calike o o' /\ Con w q i s o').
    { intros Lp. apply (leaf_follows p q); auto; [|eapply node_leafy; eauto].
      assert (C0 : core p) by (inversion C; subst; cbn in Lp; try contradiction; auto).
      apply (node_follows k G sk pols SK CE IM); auto. eapply node_map; [|exact N]. now intros a b [X _]. }
    destruct N; try (apply NL; exact I); clear NL; inversion C; subst; try (match goal with X : leafy _ |- _ => cbn in X; contradiction end).
    all: try solve [inversion H; subst; try (match goal with X : leafy _ |- _ => cbn in X; contradiction end); fwd; finish].
    - inversion H; subst; try (match goal with X : leafy _ |- _ => cbn in X; contradiction end); fwd.
      + finish.
      + finish.
      + eexists; split; [|eapply Con_longest_e; eassumption]. apply calike_longer; [cbn; auto|assumption].
    - inversion H; subst; try (match goal with X : leafy _ |- _ => cbn in X; contradiction end); fwd.
      + destruct b; fwd; eexists; (split; [|eapply Con_branch; [eassumption|cbn iota; eassumption]]); apply calike_undo; eassumption.
      + finish.
      + finish.
    - inversion H; subst; try (match goal with X : leafy _ |- _ => cbn in X; contradiction end); fwd.
      + match goal with X : forall v, f v = f' v |- context [f ?v] => rewrite (X v) end. finish.
      + finish.
    - inversion H; subst; try (match goal with X : leafy _ |- _ => cbn in X; contradiction end); fwd.
      + finish.
      + match goal with X : forall c v, Given both (f c v) (f' c v), E : f ?c ?a = _ |- _ => pose proof (X c a) as Y; rewrite E in Y; inversion Y; subst end.
        eexists; split; [|eapply Con_dyn_e; eauto]. cbn; auto.
      + match goal with X : forall c v, Given both (f c v) (f' c v), E : f ?c ?a = _ |- _ => pose proof (X c a) as Y; rewrite E in Y; inversion Y; subst end.
        eexists; split; [|eapply Con_dyn_panic; eauto]. cbn; auto.
      + match goal with X : forall c v, Given both (f c v) (f' c v), E : f ?c ?a = (Ok ?q0, _), Z : forall w i a q, _ -> fst (f (cx _ w i) a) = Ok q -> _ |- _ =>
          pose proof (X c a) as Y; rewrite E in Y; assert (con_ok q0) by (eapply Z; [|rewrite E; reflexivity]; eassumption); inversion Y; subst; fwd end.
        * eexists; split; [|eapply Con_dyn2; eauto]. apply calike_undo; assumption.
        * eexists; split; [|eapply Con_dyn2; eauto]. apply calike_refl.
      + match goal with X : forall c v, Given both (f c v) (f' c v), E : f ?c ?a = (Ok ?q0, _), Z : forall w i a q, _ -> fst (f (cx _ w i) a) = Ok q -> _ |- _ =>
          pose proof (X c a) as Y; rewrite E in Y; assert (con_ok q0) by (eapply Z; [|rewrite E; reflexivity]; eassumption); inversion Y; subst; fwd end.
        * eexists; split; [|eapply Con_dyn; eauto]. apply calike_refl.
        * eexists; split; [|eapply Con_dyn; eauto]. apply calike_refl.
    - inversion H; subst; try (match goal with X : leafy _ |- _ => cbn in X; contradiction end).
      + edestruct cfirst_follows as (o' & A & P); [apply both_plain; eassumption|apply plain_in; eassumption|exact L|eassumption|].
        exists o'. split; [exact A|now constructor].
      + edestruct clongest_follows as (o' & A & P); [apply both_plain; eassumption|apply plain_in; eassumption|exact L|eassumption|].
        exists o'. split; [exact A|now constructor].
    - inversion H; subst; try (match goal with X : leafy _ |- _ => cbn in X; contradiction end).
      + edestruct cfirst_follows as (o' & A & P); [apply both_keyed; eassumption|apply keyed_in; eassumption|exact L|eassumption|].
        exists o'. split; [exact A|now constructor].
      + edestruct clongest_follows as (o' & A & P); [apply both_keyed; eassumption|apply keyed_in; eassumption|exact L|eassumption|].
        exists o'. split; [exact A|now constructor].
  Qed.

  Definition both_same p : both p p :=
    conj (fun _ w i o _ P => ex_intro _ o (conj (alike_refl o) P)) (fun _ w i s o _ P => ex_intro _ o (conj (calike_refl o) P)).
  Lemma node_both p q : Node both p q -> both p q.
  Proof.
    intros N. split; [|now apply node_cfollows]. intros C. apply (node_follows k G sk pols SK CE IM); auto.
    eapply node_map; [|exact N]. now intros a b [X _].
  Qed.
  Fixpoint rewritten_both (B : pat -> pat -> Prop) (HB : forall p q, B p q -> both p q) p q (H : Rewritten B p q) : both p q :=
    match H in Rewritten _ p q return both p q with
    | rw_same _ p => both_same p
    | rw_here _ p q b => HB p q b
    | rw_inside _ p q n => node_both p q (node_map _ _ (rewritten_both B HB) p q n)
    end.
End Con.

(** *** The cells of recursive parsers *)
Section Cells.
  Variable k : kind.
  Variables G G' : env.
  Variable sk : text -> nat -> nat.
  Variable pols : list pat.
  Context {ST : Type}.
  Variable hv : text -> nat -> nat -> ST -> res val * ST.
  Variable h : handler ST.
  Hypothesis SK : skipper sk.
  Hypothesis CE : core_env k G sk.
  Hypothesis IM : implements k G sk pols.
  Hypothesis OE : con_ok_env k G sk.
  Hypothesis HA : answers k sk hv h.
  Hypothesis CELLS : forall x, match env_get G x, env_get G' x with
    | Some p, Some p' => follows k G' sk p p' /\ cfollows k G' sk hv p p'
    | None, None => True
    | _, _ => False
    end.
  Notation core := (core k G sk).
  Notation con_ok := (con_ok k G sk).

  Lemma cells_peg w p i o : Peg k G sk w p i o -> core p -> settled sk w i -> exists o', alike o o' /\ Peg k G' sk w p i o'.
  Proof.
    intros H. apply (proj1 (peg_cells k G G' sk pols SK CE IM ltac:(intros x; specialize (CELLS x);
      destruct (env_get G x), (env_get G' x); tauto))). exact H.
  Qed.
  Lemma cells_ok p w i b j : Peg k G sk w p (sk w i) (OK b j) -> core p -> i <= length w -> Peg k G' sk w p (sk w i) (OK b j).
  Proof. intros P C Hi. destruct (cells_peg _ _ _ _ P C (settle_sk sk SK _ _ Hi)) as ([b' j'|] & A & P'); cbn in A; [destruct A as [<- <-]; auto|easy]. Qed.
  Lemma cells_ko p w i e : Peg k G sk w p (sk w i) (KO e) -> core p -> i <= length w -> exists e', Peg k G' sk w p (sk w i) (KO e').
  Proof. intros P C Hi. destruct (cells_peg _ _ _ _ P C (settle_sk sk SK _ _ Hi)) as ([|] & A & P'); cbn in A; [easy|eauto]. Qed.

  Definition cmoves (w : text) (p : pat) (i : nat) (s : ST) (o : cout ST) : Prop :=
    con_ok p -> i <= length w -> exists o', calike o o' /\ Con k G' sk hv w p i s o'.

  Ltac inv C := inversion C; subst; clear C; try (match goal with X : leafy _ |- _ => cbn in X; contradiction end).
  Ltac use := repeat match goal with
    | P : Peg _ G _ ?w ?p (sk ?w ?i) (OK ?b ?j), C : Core.core _ _ _ ?p, L : ?i <= length ?w |- _ =>
        pose proof (cells_ok p w i b j P C L); pose proof (mat_j k G sk pols SK CE IM w p i b j P C L); clear P
    | P : Peg _ G _ ?w ?p (sk ?w ?i) (KO ?e), C : Core.core _ _ _ ?p, L : ?i <= length ?w |- _ =>
        destruct (cells_ko p w i e P C L); clear P
    | IH : cmoves ?w ?p ?i ?s ?o, P : Con _ G _ _ ?w ?p ?i ?s ?o, C : ConSpec.con_ok _ _ _ ?p, L : ?i <= length ?w |- _ =>
        let o' := fresh "o" in let A := fresh "A" in let P' := fresh "P" in
        destruct (IH C L) as (o' & A & P'); clear IH;
        lazymatch o with
        | CV _ _ _ => destruct o' as [| |]; cbn in A; try contradiction; destruct A as (<- & <- & <-);
            pose proof (con_j k G sk pols hv h SK CE IM OE HA _ _ _ _ _ _ _ P C L)
        | ConSpec.CE _ _ _ => destruct o' as [| |]; cbn in A; try contradiction; destruct A as (<- & <-);
            pose proof (con_je k G sk pols hv h SK CE IM OE HA _ _ _ _ _ _ _ P C L)
        | CP => destruct o' as [| |]; cbn in A; try contradiction
        | _ => idtac
        end
    | A : calike ?o ?o', S : stops ?o |- _ =>
        lazymatch goal with _ : stops o' |- _ => fail | _ => pose proof (calike_stops o o' A S) end
    | IH : con_ok ?p -> ?i <= length ?w -> Creps _ _ _ _ _ _ _ _ _ _, C : ConSpec.con_ok _ _ _ ?p, L : ?i <= length ?w |- _ => specialize (IH C L)
    | IH : con_ok ?p -> core ?s -> ?i <= length ?w -> _, C : ConSpec.con_ok _ _ _ ?p, C' : Core.core _ _ _ ?s, L : ?i <= length ?w |- _ => specialize (IH C C' L)
    | IH : (forall p, In p ?ps -> con_ok (fst p)) -> ?i <= length ?w -> _, C : forall p, In p ?ps -> con_ok (fst p), L : ?i <= length ?w |- _ =>
        let o' := fresh "o" in destruct (IH C L) as (o' & ? & ?); clear IH
    end.
  Ltac out := eexists; (split; [|solve [econstructor; first [eassumption|reflexivity]]]);
    first [eassumption|apply calike_refl|apply calike_undo; eassumption|apply calike_longer; first [assumption|cbn; auto]|cbn; auto].

  Lemma con_cells :
    (forall w p i s o, Con k G sk hv w p i s o -> cmoves w p i s o) /\
    (forall w p lim i s l, Creps k G sk hv w p lim i s l -> con_ok p -> i <= length w -> Creps k G' sk hv w p lim i s l) /\
    (forall w p q skip lim i s l, Cseps k G sk hv w p q skip lim i s l -> con_ok p -> core q -> i <= length w ->
       Cseps k G' sk hv w p q skip lim i s l) /\
    (forall w p q skip en i s l, Cpolls k G sk hv w p q skip en i s l -> con_ok p -> core q -> i <= length w ->
       Cpolls k G' sk hv w p q skip en i s l) /\
    (forall w e ps i s o, Cfirst k G sk hv w e ps i s o -> (forall p, In p ps -> con_ok (fst p)) -> i <= length w ->
       exists o', calike o o' /\ Cfirst k G' sk hv w e ps i s o') /\
    (forall w e ps i best en cur s o, Clongest k G sk hv w e ps i best en cur s o -> (forall p, In p ps -> con_ok (fst p)) -> i <= length w ->
       exists o', calike o o' /\ Clongest k G' sk hv w e ps i best en cur s o').
  Proof.
    apply Con_mutind; intros.
    all: try (match goal with |- cmoves _ _ _ _ _ => let C := fresh "C" in let T := fresh "T" in intros C T; inv C end).
    all: try solve [use; out].
    all: try solve [use; econstructor; eassumption].
    all: try solve [match goal with X : forall q, In q ((?p, ?g) :: ?ps) -> _ |- _ =>
        let C := fresh "C" in let D := fresh "D" in
        pose proof (X (p, g) (or_introl eq_refl)) as C; cbn [fst] in C; pose proof (fun q I => X q (or_intror I)) as D; clear X; use; out end].
    all: try (match goal with X : forall q, In q ((?p, ?g) :: ?ps) -> con_ok (fst q), IH : _ -> _ <= length _ -> exists o', calike _ o' /\ _, L : _ <= length _ |- _ =>
        let C := fresh "C" in pose proof (X (p, g) (or_introl eq_refl)) as C; cbn [fst] in C;
        let o' := fresh "o" in let A := fresh "A" in let P := fresh "P" in destruct (IH (fun q I => X q (or_intror I)) L) as (o' & A & P); clear IH X; use;
        exists o'; split; [exact A|econstructor; eassumption] end).
    - destruct b; use; eexists; (split; [|eapply Con_branch; [eassumption|cbn iota; eassumption]]); apply calike_undo; eassumption.
    - use. match goal with E : f (cx _ _ ?j0) ?a0 = (Ok q, _), Z : forall w i a q, _ -> fst (f (cx _ w i) a) = Ok q -> _ |- _ =>
        assert (con_ok q) by (apply (Z w j0 a0 q); [assumption|rewrite E; reflexivity]) end. use.
      eexists; split; [|eapply Con_dyn2; eauto]. apply calike_undo; assumption.
    - use. match goal with E : f (cx _ _ ?j0) ?a0 = (Ok q, _), Z : forall w i a q, _ -> fst (f (cx _ w i) a) = Ok q -> _ |- _ =>
        assert (con_ok q) by (apply (Z w j0 a0 q); [assumption|rewrite E; reflexivity]) end. use.
      eexists; split; [|eapply Con_dyn; eauto]. apply calike_refl.
    - match goal with IH : (forall p, In p (plain ps) -> _) -> _ |- _ => destruct (IH (plain_in k G sk ps ltac:(assumption)) T) as (o' & A & P) end.
      exists o'. split; [exact A|now constructor].
    - match goal with IH : (forall p, In p (plain ps) -> _) -> _ |- _ => destruct (IH (plain_in k G sk ps ltac:(assumption)) T) as (o' & A & P) end.
      exists o'. split; [exact A|now constructor].
    - match goal with IH : (forall p, In p (keyed ps) -> _) -> _ |- _ => destruct (IH (keyed_in k G sk ps ltac:(assumption)) T) as (o' & A & P) end.
      exists o'. split; [exact A|now constructor].
    - match goal with IH : (forall p, In p (keyed ps) -> _) -> _ |- _ => destruct (IH (keyed_in k G sk ps ltac:(assumption)) T) as (o' & A & P) end.
      exists o'. split; [exact A|now constructor].
    - specialize (CELLS x). match goal with E : env_get G x = Some p |- _ => rewrite E in CELLS; pose proof (OE _ _ E) end.
      destruct (env_get G' x) as [p'|] eqn:E'; [|contradiction]. destruct CELLS as [_ F]. use.
      match goal with A : calike o ?o1, P : Con _ G' _ _ w p i s ?o1 |- _ => destruct (F _ _ _ _ T P) as (o2 & A2 & P2); exists o2; split;
        [exact (calike_trans _ _ _ A A2)|] end.
      eapply Con_ref; eauto.
    - specialize (CELLS x). match goal with E : env_get G x = None |- _ => rewrite E in CELLS end.
      destruct (env_get G' x) as [p'|] eqn:E'; [contradiction|]. eexists. split; [|now constructor]. cbn; auto.
  Qed.
End Cells.
