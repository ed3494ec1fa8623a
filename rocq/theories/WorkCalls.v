(** The steps counted in Work.v are no fewer than the calls that are on the stack at any time (Calls.v). *)

From Coq Require Import List Arith NArith Bool Lia.
From Verif Require Import Base Text Context Neu Syntax TextProofs Spec Work Calls.
Import ListNotations.

Section Counted.
  Variable k : kind.
  Variable G : env.
  Variable sk : text -> nat -> nat.
  Notation Stack := (Stack k G sk).
  Notation Calls := (Calls k G sk).

  Definition counted (P : call -> Prop) (n : nat) : Prop := forall c m, P c -> Stack c m -> m <= n.

  Lemma counted_call c (P : call -> Prop) n : counted P n -> (forall c', Calls c c' -> P c') -> counted (eq c) (S n).
  Proof.
    intros B H c' m <- St. inversion St; subst; [lia|]. apply le_n_S. eapply B; [apply H|]; eassumption.
  Qed.
  Lemma counted_none : counted (fun _ => False) 0.
  Proof. now intros c m []. Qed.
  Lemma counted_or (P Q : call -> Prop) m n : counted P m -> counted Q n -> counted (fun c => P c \/ Q c) (m + n).
  Proof. intros B B' c x [H|H] St; [specialize (B c x H St)|specialize (B' c x H St)]; lia. Qed.
  Lemma counted_ext (P Q : call -> Prop) n : (forall c, Q c -> P c) -> counted P n -> counted Q n.
  Proof. intros E B c m H. apply B. now apply E. Qed.

  Ltac facts := repeat match goal with
    | H : Work _ _ _ _ _ _ _ _ |- _ => apply (proj1 (work_peg k G sk)) in H
    | H : AccW _ _ _ _ _ _ _ _ _ _ |- _ => apply (proj1 (proj2 (work_peg k G sk))) in H
    end.
  Ltac det := repeat match goal with
    | P : Peg k G sk ?w ?p ?i ?x, Q : Peg k G sk ?w ?p ?i ?y |- _ =>
        tryif constr_eq x y then fail else
          (let E := fresh in pose proof (proj1 (peg_fun k G sk) _ _ _ _ P _ Q) as E;
           first [discriminate E | injection E; clear E; intros; subst])
    | P : Acc k G sk ?w ?p ?i ?m ?n ?x, Q : Acc k G sk ?w ?p ?i ?m ?n ?y |- _ =>
        tryif constr_eq x y then fail else
          (let E := fresh in pose proof (proj1 (proj2 (peg_fun k G sk)) _ _ _ _ _ _ P _ Q) as E; discriminate E)
    end.

  Lemma work_counted :
    (forall w p i o n, Work k G sk w p i o n -> counted (eq (CPat w p i)) n) /\
    (forall w i u c m r n, AccW k G sk w i u c m r n -> counted (eq (CTest w i u c m)) n) /\
    (forall w i c m x r n, ChkW k G sk w i c m x r n ->
       counted (fun d => exists p, c = CRegex p /\ d = CPat (skipn (i + m) w) p (sk (skipn (i + m) w) 0)) n) /\
    (forall w i u c l m r n, RunW k G sk w i u c l m r n ->
       counted (fun d => exists y, Tested k G sk w i u c l m y /\ d = CTest w i u c y) n) /\
    (forall w p l i a j n, RepsW k G sk w p l i a j n ->
       counted (fun d => exists y, Turn k G sk w p l i y /\ d = CPat w p (sk w y)) n) /\
    (forall w p s l i a j n, SepsW k G sk w p s l i a j n ->
       counted (fun d => exists q y, STurn k G sk w p s l i q y /\ d = CPat w q (sk w y)) n) /\
    (forall w ps i e o n, FirstW k G sk w ps i e o n ->
       counted (fun d => exists q, Tried k G sk w i q ps /\ d = CPat w q i) n).
  Proof.
    apply Work_mutind; intros; facts.
    all: try solve [eapply counted_call; [exact counted_none|]; intros d C; inversion C; subst; try congruence; tauto].
    all: try solve [eapply counted_call; [eassumption|]; intros d C; inversion C; subst; det; eauto; try congruence; tauto].
    all: try solve [eapply counted_call; [eapply counted_or; eassumption|]; intros d C; inversion C; subst; det; eauto; tauto].
    all: try solve [eapply counted_call; [eapply counted_or; [eassumption|eapply counted_or; eassumption]|]; intros d C;
      inversion C; subst; det; eauto; tauto].
    all: try solve [eapply counted_call; [eapply counted_or; [eapply counted_or|]; eassumption|]; intros d C;
      inversion C; subst; det; eauto; tauto].
    all: try solve [eapply counted_ext; [|exact counted_none]; intros d;
      try (intros (q & y & H' & _); inversion H'; congruence); intros (y & H' & _); inversion H'; congruence].
    all: try solve [eapply counted_ext; [|eassumption]; intros d;
      first [intros (? & ? & X & ->) | intros (? & X & ->)]; inversion X; subst; det; first [reflexivity | congruence]].
    - eapply counted_call; [eapply counted_or; eassumption|]. intros d C. inversion C; subst; det; [now left|right].
      match goal with A : f _ _ = _, B : f _ _ = _ |- _ => rewrite A in B; injection B; intros; subst end.
      match goal with E : bo k w ?x = bo k w ?y |- _ => apply bo_inj in E; [subst; reflexivity|assumption|assumption] end.
    - eapply counted_call; [exact counted_none|]. intros d C.
      inversion C; subst; match goal with O : _ \/ _ |- _ => destruct O; [tauto|lia] end.
    - eapply counted_call; [exact counted_none|]. intros d C. inversion C; subst.
      match goal with L : length ?w <= ?x, E : nth_error ?w ?x = Some _ |- _ => apply nth_error_None in L; congruence end.
    - eapply counted_ext; [|eapply counted_or; eassumption]. intros d (y & T & ->). inversion T; subst; [now left|eauto].
    - eapply counted_ext; [|eapply counted_or; eassumption]. intros d (y & T & ->). inversion T; subst; [now left|eauto].
    - eapply counted_ext; [|eapply counted_or; eassumption]. intros d (y & T & ->). inversion T; subst; det; [now left|eauto].
    - eapply counted_ext; [|eapply counted_or; eassumption]. intros d (q & y & T & ->). inversion T; subst; det; auto.
    - eapply counted_ext; [|eapply counted_or; [eapply counted_or; eassumption|eassumption]]. intros d (q & y & T & ->).
      inversion T; subst; det; eauto 8.
    - eapply counted_ext; [|eapply counted_or; eassumption]. intros d (q & T & ->). inversion T; subst; det; [now left|eauto].
  Qed.
End Counted.
