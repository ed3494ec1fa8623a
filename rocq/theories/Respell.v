(** Exchanging parts of a parser by parts that match the same pieces of every text. *)

From Coq Require Import List Arith NArith Bool Lia.
From Verif Require Import Base Text Context Neu Syntax Regex Ctor TextProofs Spec Sound Core Complete Obs Mono Laws
  PegLaws CtorSpec CtorShape ConSpec ConSound ConComplete Term ConTerm Refactor TermLaws.
Import ListNotations.

(** Two outcomes that differ at most in the error. *)
Definition alike (o o' : out) : Prop :=
  match o, o' with OK b j, OK b' j' => b = b' /\ j = j' | KO _, KO _ => True | _, _ => False end.

Lemma alike_sym o o' : alike o o' -> alike o' o.
Proof. destruct o, o'; cbn; intuition. Qed.
Lemma alike_refl o : alike o o.
Proof. destruct o; cbn; auto. Qed.

Lemma forall2_flip {A} (R : A -> A -> Prop) l l' : Forall2 R l l' -> Forall2 (fun a b => R b a) l' l.
Proof. induction 1; auto. Qed.

(** *** Relations through the nodes of a parser *)
Section Map.
  Context {A : Type} (R S : A -> A -> Prop) (f : forall p q, R p q -> S p q).
  Fixpoint forall2_map l l' (H : Forall2 R l l') : Forall2 S l l' :=
    match H in Forall2 _ l l' return Forall2 S l l' with
    | Forall2_nil _ => Forall2_nil _
    | Forall2_cons a b h t => Forall2_cons a b (f _ _ h) (forall2_map _ _ t)
    end.
End Map.
Definition cond_map (R S : pat -> pat -> Prop) (f : forall p q, R p q -> S p q) c c' (H : CondNode R c c') : CondNode S c c' :=
  match H in CondNode _ c c' return CondNode S c c' with
  | cn_same _ c => cn_same S c
  | cn_regex _ p q h => cn_regex S p q (f p q h)
  end.
Definition given_map (R S : pat -> pat -> Prop) (f : forall p q, R p q -> S p q) a b (H : Given R a b) : Given S a b :=
  match H in Given _ a b return Given S a b with
  | given_ok _ p q c h => given_ok S p q c (f p q h)
  | given_other _ r => given_other S r
  end.
Definition node_map (R S : pat -> pat -> Prop) (f : forall p q, R p q -> S p q) p q (H : Node R p q) : Node S p q.
Proof.
  destruct H; constructor;
    try (match goal with
         | H : R ?a ?b |- S ?a ?b => exact (f _ _ H)
         | H : CondNode R ?a ?b |- CondNode S ?a ?b => exact (cond_map R S f _ _ H)
         | H : forall c s, Given R _ _ |- forall c s, Given S _ _ => exact (fun a b => given_map R S f _ _ (H a b))
         | H : Forall2 R _ _ |- Forall2 S _ _ => exact (forall2_map R S f _ _ H)
         end); try assumption.
  revert ps ps' H. fix IH 3. intros ps ps' H.
  destruct H as [|a b r r' [h1 h2] t]; constructor; [split; [exact (f _ _ h1)|exact h2]|exact (IH _ _ t)].
Defined.

Section Respell.
  Variable k : kind.
  Variable G : env.
  Variable sk : text -> nat -> nat.
  Variable pols : list pat.
  Hypothesis SK : skipper sk.
  Hypothesis CE : core_env k G sk.
  Hypothesis IM : implements k G sk pols.
  Notation Peg := (Peg k G sk).
  Notation core := (core k G sk).

  (** A position of the text at which there is nothing to skip. *)
  Definition settled (w : text) (i : nat) : Prop := i <= length w /\ sk w i = i.
  Lemma settle_sk w i : i <= length w -> settled w (sk w i).
  Proof. intros H. split; [now apply (sk_up sk SK)|now apply (sk_idem sk SK)]. Qed.

  (** What [p] matches, [q] matches; where [p] fails, [q] fails. *)
  Definition follows (p q : pat) : Prop := forall w i o, settled w i -> Peg w p i o -> exists o', alike o o' /\ Peg w q i o'.
  Definition covers (p q : pat) : Prop := core p -> follows p q.

  Lemma peg_j w p i b j : Peg w p i (OK b j) -> core p -> settled w i -> i <= b /\ b <= j /\ j <= length w.
  Proof. intros P C [Hi E]. exact (ok_in k G sk SK CE pols IM p w i b j C Hi E P). Qed.

  Lemma chk_follows w i c c' m x r : CondNode covers c c' -> core_cond k G sk c -> i + m <= length w ->
    Chk k G sk w i c m x r -> Chk k G sk w i c' m x r.
  Proof.
    intros N C L H. destruct N as [c|p q N]; [exact H|]. inversion C as [| |p0 C0]; subst.
    assert (T : settled (skipn (i + m) w) (sk (skipn (i + m) w) 0)) by (apply settle_sk; lia).
    inversion H as [| | |? ? ? ? ? b j P|? ? ? ? ? e P]; subst; destruct (N C0 _ _ _ T P) as ([b' j'|e'] & A & P'); cbn in A; try contradiction.
    - econstructor; eauto.
    - eapply Chk_regex_no; eauto.
  Qed.
  Lemma acc_follows w i u c c' m r : CondNode covers c c' -> core_cond k G sk c ->
    Acc k G sk w i u c m r -> Acc k G sk w i u c' m r.
  Proof.
    intros N C H. inversion H as [|? ? ? ? ? ? X Y|? ? ? ? ? x ? X Y Z]; subst; [now constructor|eapply Acc_no; eauto|].
    assert (i + m < length w) by (apply nth_error_Some; congruence).
    eapply Acc_yes; eauto. eapply chk_follows; eauto. lia.
  Qed.
  Lemma run_follows w i u c c' lim m r : CondNode covers c c' -> core_cond k G sk c ->
    Run k G sk w i u c lim m r -> Run k G sk w i u c' lim m r.
  Proof.
    intros N C H. revert N C.
    induction H using Run_ind' with
      (P := fun _ _ _ _ => True) (P0 := fun _ _ _ _ _ _ => True) (P1 := fun _ _ _ _ _ _ => True)
      (P3 := fun _ _ _ _ _ _ => True) (P4 := fun _ _ _ _ _ _ _ => True) (P5 := fun _ _ _ _ _ => True); auto; intros N C;
      [constructor|eapply Run_stop|eapply Run_err|eapply Run_step|eapply Run_step_err]; eauto using acc_follows.
  Qed.

  Lemma reps_follows w p q lim i n j : follows p q -> core p -> i <= length w -> Reps k G sk w p lim i n j -> Reps k G sk w q lim i n j.
  Proof.
    intros F C Hi H. revert F C Hi.
    induction H using Reps_ind' with
      (P := fun _ _ _ _ => True) (P0 := fun _ _ _ _ _ _ => True) (P1 := fun _ _ _ _ _ _ => True) (P2 := fun _ _ _ _ _ _ _ => True)
      (P4 := fun _ _ _ _ _ _ _ => True) (P5 := fun _ _ _ _ _ => True); auto; intros F C Hi.
    - constructor.
    - match goal with P : Spec.Peg _ _ _ _ _ _ _ |- _ => destruct (F _ _ _ (settle_sk _ _ Hi) P) as ([|] & A & P') end; cbn in A; [easy|].
      eapply Reps_stop; eauto.
    - match goal with P : Spec.Peg _ _ _ _ _ _ _ |- _ =>
        destruct (F _ _ _ (settle_sk _ _ Hi) P) as ([|] & A & P'); cbn in A; [destruct A; subst|easy];
        destruct (peg_j _ _ _ _ _ P C (settle_sk _ _ Hi)) as (? & ? & ?) end.
      eapply Reps_step; eauto.
  Qed.
  Lemma seps_follows w p q s t lim i n j : follows p q -> core p -> follows s t -> core s -> i <= length w ->
    Seps k G sk w p s lim i n j -> Seps k G sk w q t lim i n j.
  Proof.
    intros F C F' C' Hi H. revert F C F' C' Hi.
    induction H using Seps_ind' with
      (P := fun _ _ _ _ => True) (P0 := fun _ _ _ _ _ _ => True) (P1 := fun _ _ _ _ _ _ => True) (P2 := fun _ _ _ _ _ _ _ => True)
      (P3 := fun _ _ _ _ _ _ => True) (P5 := fun _ _ _ _ _ => True); auto; intros F C F' C' Hi.
    - constructor.
    - match goal with P : Spec.Peg _ _ _ _ _ _ _ |- _ => destruct (F _ _ _ (settle_sk _ _ Hi) P) as ([|] & A & P') end; cbn in A; [easy|].
      eapply Seps_stop; eauto.
    - match goal with P : Spec.Peg _ _ _ _ p _ _, P2 : Spec.Peg _ _ _ _ s _ _ |- _ =>
        destruct (F _ _ _ (settle_sk _ _ Hi) P) as ([|] & A & P'); cbn in A; [destruct A; subst|easy];
        destruct (peg_j _ _ _ _ _ P C (settle_sk _ _ Hi)) as (? & ? & J);
        destruct (F' _ _ _ (settle_sk _ _ J) P2) as ([|] & A & P2'); cbn in A; [easy|] end.
      eapply Seps_last; eauto.
    - match goal with P : Spec.Peg _ _ _ _ p _ _, P2 : Spec.Peg _ _ _ _ s _ _ |- _ =>
        destruct (F _ _ _ (settle_sk _ _ Hi) P) as ([|] & A & P'); cbn in A; [destruct A; subst|easy];
        destruct (peg_j _ _ _ _ _ P C (settle_sk _ _ Hi)) as (? & ? & J);
        destruct (F' _ _ _ (settle_sk _ _ J) P2) as ([|] & A & P2'); cbn in A; [destruct A; subst|easy];
        destruct (peg_j _ _ _ _ _ P2 C' (settle_sk _ _ J)) as (? & ? & ?) end.
      eapply Seps_step; eauto.
  Qed.
  Lemma first_follows w ps qs i e o : Forall2 covers ps qs -> Forall core ps -> settled w i ->
    First k G sk w ps i e o -> exists o', alike o o' /\ First k G sk w qs i e o'.
  Proof.
    intros F. revert e o. induction F as [|p q ps qs F0 F IH]; intros e o C T H; inversion H; subst; inversion C; subst.
    - eexists; split; [|constructor]. exact I.
    - match goal with P : Spec.Peg _ _ _ _ _ _ _ |- _ => destruct (F0 ltac:(assumption) _ _ _ T P) as ([|] & A & P') end; cbn in A; [destruct A; subst|easy].
      eexists; split; [|eapply First_hit; eauto]. cbn; auto.
    - match goal with P : Spec.Peg _ _ _ _ _ _ _ |- _ => destruct (F0 ltac:(assumption) _ _ _ T P) as ([|] & A & P') end; cbn in A; [easy|].
      destruct (IH e o) as (o' & A' & P''); auto. eexists; split; [exact A'|eapply First_next; eauto].
  Qed.

  Lemma forall2_core ps qs : Forall2 (fun a b : pat * val => covers (fst a) (fst b) /\ snd a = snd b) ps qs ->
    Forall2 covers (map fst ps) (map fst qs).
  Proof. induction 1 as [|? ? ? ? [? ?]]; cbn; auto. Qed.

  Ltac fwd := repeat match goal with
    | N : covers ?p ?q, C : Core.core _ _ _ ?p |- _ => specialize (N C)
    | F : follows ?p ?q, P : Spec.Peg _ _ _ ?w ?p ?i ?o, T : settled ?w ?i |- _ =>
        lazymatch goal with _ : Spec.Peg _ _ _ w q i _ |- _ => fail | _ => idtac end;
        let o' := fresh "o" in let A := fresh "A" in let P' := fresh "P" in
        destruct (F w i o T P) as (o' & A & P');
        lazymatch o with
        | OK _ _ => destruct o' as [|]; cbn in A; [destruct A; subst|contradiction];
          lazymatch goal with C : Core.core _ _ _ p |- _ => 
            let J := fresh "J" in destruct (peg_j _ _ _ _ _ P C T) as (? & ? & J); pose proof (settle_sk _ _ J) end
        | KO _ => destruct o' as [|]; cbn in A; [contradiction|]
        | _ => idtac
        end
    end.
  Ltac close := first [eassumption|eapply acc_follows; eassumption|eapply run_follows; eassumption
    |eapply reps_follows; eassumption|eapply seps_follows; eassumption|reflexivity].
  Ltac finish := eexists; (split; [|solve [econstructor; close]]); first [eassumption|cbn; auto].
  Lemma node_follows p q : Node covers p q -> core p -> follows p q.
  Proof.
    intros N C w i o T P. pose proof T as [Hi _].
    destruct N; inversion C; subst.
    all: try solve [ inversion P; subst; fwd; finish ].
    - inversion P; subst; fwd; [finish|].
      match goal with F : f (cx _ _ ?j') (sp _ _ ?b' ?j') = (Ok ?q0, cx _ _ ?m'), L : ?m' <= length _, Q : Spec.Peg _ _ _ _ ?q0 _ _ |- _ =>
        rename F into F1, L into M1, Q into P2, j' into jj, b' into bb end.
      assert (N : Given covers (f (cx k w jj) (sp k w bb jj)) (f' (cx k w jj) (sp k w bb jj))) by auto.
      rewrite F1 in N. pose proof (settle_sk _ _ M1) as T2.
      inversion N as [? q' ? Q X Y|r X Y]; subst.
      + destruct (Q (H5 _ _ _ _ F1) _ _ _ T2 P2) as (o' & A' & P'). exists o'. split; [exact A'|]. eapply Peg_builder; eauto.
      + exists o. split; [apply alike_refl|]. eapply Peg_builder; eauto.
    - inversion P; subst. match goal with F : First _ _ _ _ _ _ _ _ |- _ => destruct (first_follows _ _ _ _ _ _ H ltac:(assumption) T F) as (o' & A & F') end.
      exists o'. split; [exact A|now constructor].
    - inversion P; subst. apply forall2_core in H.
      match goal with F : First _ _ _ _ _ _ _ _ |- _ => destruct (first_follows _ _ _ _ _ _ H ltac:(assumption) T F) as (o' & A & F') end.
      exists o'. split; [exact A|now constructor].
  Qed.

  (** Any number of parts, at any depth. *)
  Fixpoint rewritten_covers (B : pat -> pat -> Prop) (HB : forall p q, B p q -> covers p q) p q (H : Rewritten B p q) : covers p q :=
    match H in Rewritten _ p q return covers p q with
    | rw_same _ p => fun _ w i o _ P => ex_intro _ o (conj (alike_refl o) P)
    | rw_here _ p q b => HB p q b
    | rw_inside _ p q n => node_follows p q (node_map _ _ (rewritten_covers B HB) p q n)
    end.
End Respell.

(** *** The cells of recursive parsers *)
Section Cells.
  Variable k : kind.
  Variables G G' : env.
  Variable sk : text -> nat -> nat.
  Variable pols : list pat.
  Hypothesis SK : skipper sk.
  Hypothesis CE : core_env k G sk.
  Hypothesis IM : implements k G sk pols.
  Notation Peg := (Peg k G sk).
  Notation core := (core k G sk).
  Notation settled := (settled sk).
  (** Every cell is followed, in the new environment, by the cell that replaces it. *)
  Hypothesis CELLS : forall x, match env_get G x, env_get G' x with
    | Some p, Some p' => follows k G' sk p p'
    | None, None => True
    | _, _ => False
    end.

  Definition moves (w : text) (p : pat) (i : nat) (o : out) : Prop :=
    core p -> settled w i -> exists o', alike o o' /\ Spec.Peg k G' sk w p i o'.

  Ltac inv C := inversion C; subst; clear C.
  Ltac use := repeat match goal with
    | IH : moves ?w ?p ?i ?o, C : Core.core _ _ _ ?p, T : Respell.settled _ ?w ?i |- _ =>
        let o' := fresh "o" in let A := fresh "A" in let P' := fresh "P" in
        destruct (IH C T) as (o' & A & P'); clear IH;
        lazymatch o with
        | OK _ _ => destruct o' as [|]; cbn in A; [destruct A as [<- <-]|contradiction];
          lazymatch goal with P : Spec.Peg _ G _ w p i o |- _ =>
            let J := fresh "J" in destruct (peg_j k G sk pols SK CE IM _ _ _ _ _ P C T) as (? & ? & J); pose proof (settle_sk sk SK _ _ J) end
        | KO _ => destruct o' as [|]; cbn in A; [contradiction|]
        | _ => idtac
        end
    | IH : core_cond _ _ _ ?c -> _, C : core_cond _ _ _ ?c |- _ => specialize (IH C)
    | IH : core ?p -> ?i <= length ?w -> _, C : Core.core _ _ _ ?p, L : ?i <= length ?w |- _ => specialize (IH C L)
    | IH : core ?p -> core ?s -> ?i <= length ?w -> _, C : Core.core _ _ _ ?p, C' : Core.core _ _ _ ?s, L : ?i <= length ?w |- _ => specialize (IH C C' L)
    | IH : Forall core ?ps -> settled ?w ?i -> _, C : Forall _ ?ps, T : Respell.settled _ ?w ?i |- _ => destruct (IH C T) as (? & ? & ?); clear IH
    end.
  Ltac out := eexists; (split; [|solve [econstructor; first [eassumption|reflexivity]]]); first [eassumption|cbn; auto].

  Lemma peg_cells :
    (forall w p i o, Peg w p i o -> moves w p i o) /\
    (forall w i u c m r, Acc k G sk w i u c m r -> core_cond k G sk c -> Acc k G' sk w i u c m r) /\
    (forall w i c m x r, Chk k G sk w i c m x r -> core_cond k G sk c -> i + m <= length w -> Chk k G' sk w i c m x r) /\
    (forall w i u c lim m r, Run k G sk w i u c lim m r -> core_cond k G sk c -> Run k G' sk w i u c lim m r) /\
    (forall w p lim i n j, Reps k G sk w p lim i n j -> core p -> i <= length w -> Reps k G' sk w p lim i n j) /\
    (forall w p s lim i n j, Seps k G sk w p s lim i n j -> core p -> core s -> i <= length w -> Seps k G' sk w p s lim i n j) /\
    (forall w ps i e o, First k G sk w ps i e o -> Forall core ps -> settled w i ->
       exists o', alike o o' /\ First k G' sk w ps i e o').
  Proof.
    apply Peg_mutind; intros.
    all: try (match goal with |- moves _ _ _ _ => let C := fresh "C" in let T := fresh "T" in intros C T; pose proof T as [? _]; inv C end).
    all: try solve [use; out].
    all: try solve [use; econstructor; eassumption].
    all: try solve [match goal with C : Forall _ (_ :: _) |- _ => inv C end; use; out].
    all: try solve [match goal with L : _ <= length _ |- _ => pose proof (settle_sk sk SK _ _ L) end; use; econstructor; eassumption].
    - exists (OK i j). split; [cbn; auto|]. now apply Peg_consume.
    - match goal with F : f _ _ = (Ok q, _), H5 : forall c s q c', f c s = _ -> Core.core _ _ _ q |- _ => pose proof (H5 _ _ _ _ F) end.
      match goal with L : m <= length _ |- _ => pose proof (settle_sk sk SK _ _ L) end. use.
      eexists; split; [eassumption|]. eapply Peg_builder; eassumption.
    - specialize (CELLS x). match goal with E : env_get G x = Some p |- _ => rewrite E in CELLS; pose proof (CE _ _ E) end.
      destruct (env_get G' x) as [p'|] eqn:E'; [|contradiction]. use.
      match goal with A : alike o ?o1, P : Spec.Peg _ G' _ w p i ?o1 |- _ => destruct (CELLS _ _ _ T P) as (o2 & A2 & P2); exists o2; split;
        [destruct o, o1, o2; cbn in *; intuition congruence|] end.
      eapply Peg_ref; eauto.
    - specialize (CELLS x). match goal with E : env_get G x = None |- _ => rewrite E in CELLS end.
      destruct (env_get G' x) as [p'|] eqn:E'; [contradiction|]. exists (KO EOption). split; [exact I|now constructor].
    - match goal with E : nth_error w (i + m) = Some x |- _ => assert (i + m < length w) by (apply nth_error_Some; congruence) end.
      eapply Acc_yes; eauto. match goal with IH : core_cond _ _ _ c -> _ |- _ => apply IH; auto; lia end.
    - match goal with C : core_cond _ _ _ _ |- _ => inv C end.
      assert (T : settled (skipn (i + m) w) (sk (skipn (i + m) w) 0)) by (apply settle_sk; auto; lia). use. eapply Chk_regex; eauto.
    - match goal with C : core_cond _ _ _ _ |- _ => inv C end.
      assert (T : settled (skipn (i + m) w) (sk (skipn (i + m) w) 0)) by (apply settle_sk; auto; lia). use. eapply Chk_regex_no; eauto.
  Qed.
End Cells.
