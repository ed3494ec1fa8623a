(** A syntactic test for "every match consumes something". *)

From Coq Require Import List Arith NArith Bool Lia.
From Verif Require Import Base Text Context Neu Syntax Regex TextProofs Spec Units Core Sound Complete Term.
Import ListNotations.

(** The least number a range allows is positive. *)
Definition at_least_one (r : crange) : bool :=
  match r_lo r with Incl a => 0 <? a | Excl _ => true | Unb => false end.

(** [consumes K p]: read off the syntax of [p] that it cannot match the empty text; [K] says which
    recursive parsers may be assumed to consume. *)
Fixpoint consumes (K : nat -> bool) (p : pat) : bool :=
  match p with
  | PFail | PNoneP | POnce _ _ | PMany1 _ _ | PNeuThen _ _ _ => true
  | PConsume n => 0 <? n
  | PLit l => negb (length l =? 0)
  | PBetween m _ _ _ => 0 <? m
  | PTimes r _ _ => at_least_one r
  | PThen p q | PPrefix p q | PSuffix p q => consumes K p || consumes K q
  | PIfThen p _ _ => consumes K p
  | POr p q | PLongest p q | PBranch _ p q => consumes K p && consumes K q
  | PPat p | PWrap p | PMap p _ | PLeaf p => consumes K p
  | PEnclose p o c => consumes K p || consumes K o || consumes K c
  | PSepOnce p s q => consumes K p || consumes K s || consumes K q
  | PSep p _ m _ | PSep2 p _ m _ _ | PSepCollect p _ m _ | PRepeat2 p m _ | PCollect p m =>
      (0 <? m) && consumes K p
  | PRepeat p r => at_least_one r && consumes K p
  | PChoice _ _ ps => forallb (consumes K) ps
  | PPairChoice _ _ ps => forallb (fun x => consumes K (fst x)) ps
  | PRef x => K x
  | _ => false
  end.

Section Consumes.
  Variable k : kind.
  Variable G : env.
  Variable sk : text -> nat -> nat.
  Variable pols : list pat.
  Hypothesis SK : skipper sk.
  Hypothesis CE : core_env k G sk.
  Hypothesis IM : implements k G sk pols.
  Variable K : nat -> bool.
  Hypothesis KE : forall x p, env_get G x = Some p -> K x = true -> consumes K p = true.
  Notation Peg := (Peg k G sk).
  Notation core := (core k G sk).

  Local Definition ins p w i b j := ok_in k G sk SK CE pols IM p w i b j.
  Local Definition ska w j := sk_at sk SK w j.

  Definition adv (w : text) (p : pat) (i : nat) (o : out) : Prop :=
    core p -> i <= length w -> sk w i = i -> consumes K p = true ->
    match o with OK b j => i < j | KO _ => True end.

  (** Use the bounds of every match at hand, then the induction hypotheses. *)
  Ltac fwd :=
    repeat match goal with
    | H : Spec.Peg k G sk ?w ?p ?i (OK ?b ?j), C : Core.core k G sk ?p, Hi : ?i <= length ?w, E : sk ?w ?i = ?i |- _ =>
        pose proof (ins p w i b j C Hi E H) as (? & ? & ?);
        pose proof (ska w j ltac:(assumption)) as (? & ? & ?); clear H
    end;
    repeat match goal with
    | IH : Core.core k G sk ?p -> _, C : Core.core k G sk ?p |- _ => specialize (IH C)
    | IH : Forall _ ?p -> _, C : Forall _ ?p |- _ => specialize (IH C)
    | IH : ?i <= length ?w -> _, C : ?i <= length ?w |- _ => specialize (IH C)
    | IH : sk ?w ?i = ?i -> _, C : sk ?w ?i = ?i |- _ => specialize (IH C)
    end;
    cbn [consumes forallb] in *;
    repeat match goal with
    | H : _ || _ = true |- _ => apply orb_prop in H; destruct H
    | H : _ && _ = true |- _ => apply andb_prop in H; destruct H
    | H : (_ <? _) = true |- _ => apply Nat.ltb_lt in H
    end;
    repeat match goal with
    | IH : consumes K ?p = true -> _, C : consumes K ?p = true |- _ => specialize (IH C)
    | IH : forallb (consumes K) ?p = true -> _, C : forallb (consumes K) ?p = true |- _ => specialize (IH C)
    | H : _ /\ _ |- _ => destruct H
    end.
  Ltac solve1 := try exact I; try assumption; try lia;
    try (match goal with H : 0 < ?n -> _ |- _ => specialize (H ltac:(lia)) end; lia).

  Lemma contains_one r n : at_least_one r = true -> crange_contains r n = true -> 0 < n.
  Proof.
    unfold at_least_one, crange_contains. destruct (r_lo r) as [a|a|]; [| |discriminate]; intros A B;
      apply andb_prop in B; destruct B as [B _].
    - apply Nat.ltb_lt in A. apply Nat.leb_le in B. lia.
    - apply Nat.ltb_lt in B. lia.
  Qed.

  Lemma adv_all :
    (forall w p i o, Peg w p i o -> adv w p i o) /\
    (forall w i u c m r, Acc k G sk w i u c m r -> True) /\
    (forall w i c m x r, Chk k G sk w i c m x r -> True) /\
    (forall w i u c lim m r, Run k G sk w i u c lim m r -> True) /\
    (forall w p lim i n j, Reps k G sk w p lim i n j ->
       core p -> i <= length w -> i <= j /\ j <= length w /\ (consumes K p = true -> 0 < n -> i < j)) /\
    (forall w p s lim i n j, Seps k G sk w p s lim i n j ->
       core p -> core s -> i <= length w -> i <= j /\ j <= length w /\ (consumes K p = true -> 0 < n -> i < j)) /\
    (forall w ps i e o, First k G sk w ps i e o ->
       Forall core ps -> i <= length w -> sk w i = i -> forallb (consumes K) ps = true ->
       match o with OK b j => i < j | KO _ => True end).
  Proof.
    apply Peg_mutind; unfold adv; auto;
      try (intros; cbn in *; discriminate);
      try (intros; match goal with |- True => exact I | |- match KO _ with _ => _ end => exact I end);
      intros; try match goal with C : Core.core _ _ _ _ |- _ => solve [inversion C; clear C; subst; fwd; solve1] end;
      try solve [fwd; solve1].
    - inversion H1. subst n0. cbn [consumes] in H4. apply Nat.ltb_lt in H4.
      assert (bo k w i < bo k w j) by lia.
      destruct (le_lt_dec j i) as [L|L]; [|auto]. pose proof (bo_mono k w j i L). lia.
    - cbn [consumes] in *. enough (0 < t) by lia. eapply contains_one; eauto.
    - inversion H1; subst. cbn [consumes] in *. apply H0; auto. clear - H4.
      induction ps as [|x ps IH]; auto. cbn [forallb map] in *. apply andb_prop in H4. destruct H4.
      apply andb_true_intro. auto.
    - inversion H2; subst. destruct (H0 ltac:(assumption) H3) as (? & ? & L). cbn [consumes] in *.
      apply andb_prop in H5. destruct H5 as [A B]. apply L; auto. eapply contains_one; eauto.
    - apply H1; eauto.
    - destruct (ska w i H5) as (? & ? & ?). fwd. split; [lia|]. split; [lia|]. intros A _. specialize (H1 A). lia.
    - destruct (ska w i H6) as (? & ? & ?). fwd. split; [lia|]. split; [lia|]. intros A _. specialize (H1 A). lia.
    - destruct (ska w i H8) as (? & ? & ?). fwd. split; [lia|]. split; [lia|]. intros A _. specialize (H1 A). lia.
    - match goal with F : Forall _ (_ :: _) |- _ => inversion F; clear F; subst end. fwd. solve1.
    - match goal with F : Forall _ (_ :: _) |- _ => inversion F; clear F; subst end. fwd. solve1.
  Qed.

  Theorem consumes_advances p : core p -> consumes K p = true -> advances k G sk p.
  Proof. intros C D w i b j Hi E P. exact (proj1 adv_all w p i _ P C Hi E D). Qed.
End Consumes.
