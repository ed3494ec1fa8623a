(** How far ahead a parser may look at most, told from its text alone. *)

From Coq Require Import List Arith NArith Bool Lia.
From Verif Require Import Base Text Context Neu Syntax TextProofs Spec Core Look LookLaws.
Import ListNotations.

Section Reach.
  Variable k : kind.
  Variable G : env.

  (** [Reach p n]: what [p] answers at a position is told by the [n] items from there on.  There is no rule for
      closures of the user, [consume_all], and loops without an upper limit; a recursive parser has no finite
      derivation.  The lines in /repo are those cited for the constructors in Syntax.v. *)
  Inductive Reach : pat -> nat -> Prop :=
  | R_more p m n : Reach p m -> m <= n -> Reach p n
  | R_empty : Reach PEmpty 0
  | R_fail : Reach PFail 0
  | R_start : Reach PStart 0
  | R_end : Reach PEnd 1
  | R_consume n : Reach (PConsume n) n
  | R_lit l : Reach (PLit l) (length l)
  | R_assert p v n : Reach p n -> Reach (PAssert p v) n
  | R_leaf p n : Reach p n -> Reach (PLeaf p) n
  | R_once u c n : CReach c n -> Reach (POnce u c) n
  | R_opt u c n : CReach c n -> Reach (POpt u c) n
  | R_between m l u c a n : CReach c a -> m * min_length k u <= n -> l + a <= S n -> Reach (PBetween m (Some l) u c) n
  | R_times r l u c a n : CReach c a -> limit_of r = Some l ->
      match r_lo r with Incl m => m | Excl m => m - 1 | Unb => 0 end * min_length k u <= n -> l + a <= S n ->
      Reach (PTimes r u c) n
  | R_neuthen u v c a n : CReach c a -> min_length k u + min_length k v <= n -> 2 <= n -> S a <= n -> Reach (PNeuThen u v c) n
  | R_then p q a b : Reach p a -> Reach q b -> Reach (PThen p q) (a + b)
  | R_ifthen p t q a b c : Reach p a -> Reach t b -> Reach q c -> Reach (PIfThen p t q) (a + b + c)
  | R_prefix p q a b : Reach p a -> Reach q b -> Reach (PPrefix p q) (a + b)
  | R_suffix p q a b : Reach p a -> Reach q b -> Reach (PSuffix p q) (a + b)
  | R_enclose p op cl a b c : Reach p a -> Reach op b -> Reach cl c -> Reach (PEnclose p op cl) (a + b + c)
  | R_seponce p s q a b c : Reach p a -> Reach s b -> Reach q c -> Reach (PSepOnce p s q) (a + b + c)
  | R_or p q n : Reach p n -> Reach q n -> Reach (POr p q) n
  | R_longest p q n : Reach p n -> Reach q n -> Reach (PLongest p q) n
  | R_choice e ps n : (forall p, In p ps -> Reach p n) -> Reach (PChoice e false ps) n
  | R_pairchoice e ps n : (forall p, In p (map fst ps) -> Reach p n) -> Reach (PPairChoice e false ps) n
  | R_option p n : Reach p n -> Reach (POption p) n
  | R_sep2 p s m l a b : Reach p a -> Reach s b -> Reach (PSep2 p s m l true) (S l * (a + b))
  | R_repeat p r l a : Reach p a -> limit_of r = Some l -> Reach (PRepeat p r) (l * a)
  | R_repeat2 p m l a : Reach p a -> Reach (PRepeat2 p m l) (S l * a)
  | R_pat p n : Reach p n -> Reach (PPat p) n
  | R_map p f n : Reach p n -> Reach (PMap p f) n
  | R_wrap p n : Reach p n -> Reach (PWrap p) n
  | R_nonep : Reach PNoneP 0
  | R_ref x p n : env_get G x = Some p -> Reach p n -> Reach (PRef x) n
  (** The condition at an item: that item and what the condition looks at from there on. *)
  with CReach : cond -> nat -> Prop :=
  | R_cempty : CReach CEmpty 1
  | R_cregex p n : Reach p n -> 1 <= n -> CReach (CRegex p) n.
End Reach.

Scheme Reach_ind' := Minimality for Reach Sort Prop
  with CReach_ind' := Minimality for CReach Sort Prop.
Combined Scheme Reach_mutind from Reach_ind', CReach_ind'.

Section Laws.
  Variable k : kind.
  Variable G : env.
  Notation Peg := (Peg k G no_skip).
  Notation Look := (Look k G no_skip no_look).
  Notation AccL := (AccL k G no_skip no_look).

  Definition near (p : pat) (n : nat) : Prop := forall w i o, i <= length w -> Peg w p i o ->
    Look w (i + n) p i o /\ match o with OK b j => i <= j /\ j <= i + n /\ j <= length w | KO _ => True end.

  (** The test of the item [m] places behind [i]. *)
  Definition cnear (c : cond) (a : nat) : Prop := 1 <= a /\ forall w i u m r, Acc k G no_skip w i u c m r ->
    AccL w (i + m + a) i u c m r /\ (r = inl true -> i + m < length w).

  Lemma more w z y p i o : Look w z p i o -> z <= y -> Look w y p i o.
  Proof. intros L H. exact (proj1 (look_more k G no_skip no_look) _ _ _ _ _ L _ H). Qed.

  Lemma amore w z y i u c m r : AccL w z i u c m r -> z <= y -> AccL w y i u c m r.
  Proof. intros L H. exact (proj1 (proj2 (look_more k G no_skip no_look)) _ _ _ _ _ _ _ L _ H). Qed.

  Ltac stay := repeat match goal with H : context [no_skip ?w ?i] |- _ => change (no_skip w i) with i in H end.

  (** Loops of items with a limit. *)
  Lemma run_near w i u c a : cnear c a -> forall l m r, Run k G no_skip w i u c (Some l) m r ->
    i + m <= length w -> forall z, i + m + l + a <= S z ->
    RunL k G no_skip no_look w z i u c (Some l) m r /\
    match r with inl t => t <= l /\ i + m + t <= length w | inr _ => True end.
  Proof.
    intros [A1 A] l. induction l as [|l IH]; intros m r R Hi z Hz.
    - inversion R; subst; try congruence. split; [constructor|]. lia.
    - inversion R; subst; cbn [limit_pred option_map] in *.
      all: repeat match goal with H : Acc _ _ _ _ _ _ _ _ _ |- _ => destruct (A _ _ _ _ _ H) as [? ?]; clear H end.
      + split; [|lia]. constructor; auto. eapply amore; eauto. lia.
      + split; [|exact I]. constructor; auto. eapply amore; eauto. lia.
      + match goal with H : Run _ _ _ _ _ _ _ _ _ _, B : inl true = inl true -> _ |- _ =>
          specialize (B eq_refl); destruct (IH _ _ H) with (z := z) as [? [? ?]]; [lia|lia|] end.
        split; [|lia]. apply RunL_step; auto. eapply amore; eauto. lia.
      + match goal with H : Run _ _ _ _ _ _ _ _ _ _, B : inl true = inl true -> _ |- _ =>
          specialize (B eq_refl); destruct (IH _ _ H) with (z := z) as [? _]; [lia|lia|] end.
        split; [|exact I]. apply RunL_step_err; auto. eapply amore; eauto. lia.
  Qed.

  (** Loops of parsers with a limit. *)
  Lemma reps_near w p a : near p a -> forall l i t j, Reps k G no_skip w p (Some l) i t j -> i <= length w ->
    RepsL k G no_skip no_look w (i + l * a) p (Some l) i t j /\ i <= j /\ j <= i + l * a /\ j <= length w.
  Proof.
    intros A. induction l as [|l IH]; intros i t j R Hi; cbn [Nat.mul].
    - inversion R; subst; try congruence. split; [constructor|]. lia.
    - inversion R; subst; cbn [limit_pred option_map] in *; stay.
      + match goal with H : Peg _ _ _ _ |- _ => destruct (A _ _ _ Hi H) as [L _] end.
        split; [|lia]. eapply RepsL_stop; [congruence| |apply Nat.le_0_l]. eapply more; [exact L|]. lia.
      + match goal with H : Peg _ _ _ _ |- _ => destruct (A _ _ _ Hi H) as [L (? & ? & B)] end.
        match goal with H : Reps _ _ _ _ _ _ _ _ _ |- _ => destruct (IH _ _ _ H B) as (L' & ? & ? & ?) end.
        split; [|lia]. eapply RepsL_step; [congruence|eapply more; [exact L|lia]| |apply Nat.le_0_l].
        refine (proj1 (proj2 (proj2 (proj2 (proj2 (look_more k G no_skip no_look))))) _ _ _ _ _ _ _ L' _ _). lia.
  Qed.

  Lemma seps_near w p s a b : near p a -> near s b -> forall l i t j, Seps k G no_skip w p s (Some l) i t j ->
    i <= length w ->
    SepsL k G no_skip no_look w (i + l * (a + b)) p s (Some l) i t j /\ i <= j /\ j <= i + l * (a + b) /\ j <= length w.
  Proof.
    intros A S. induction l as [|l IH]; intros i t j R Hi; cbn [Nat.mul].
    - inversion R; subst; try congruence. split; [constructor|]. lia.
    - inversion R; subst; cbn [limit_pred option_map] in *; stay.
      + match goal with H : Peg _ _ _ _ |- _ => destruct (A _ _ _ Hi H) as [L _] end.
        split; [|lia]. eapply SepsL_stop; [congruence| |apply Nat.le_0_l]. eapply more; [exact L|]. lia.
      + match goal with H : Peg _ p _ _ |- _ => destruct (A _ _ _ Hi H) as [L (? & ? & B)] end.
        match goal with H : Peg _ s _ _ |- _ => destruct (S _ _ _ B H) as [L' _] end.
        split; [|lia]. eapply SepsL_last; [congruence|eapply more; [exact L|lia]|eapply more; [exact L'|]| |].
        all: unfold no_look; lia.
      + match goal with H : Peg _ p _ _ |- _ => destruct (A _ _ _ Hi H) as [L (? & ? & B)] end.
        match goal with H : Peg _ s _ _ |- _ => destruct (S _ _ _ B H) as [L' (? & ? & B')] end.
        match goal with H : Seps _ _ _ _ _ _ _ _ _ _ |- _ => destruct (IH _ _ _ H B') as (L'' & ? & ? & ?) end.
        split; [|lia]. eapply SepsL_step; [congruence|eapply more; [exact L|lia]|eapply more; [exact L'|lia]| | |].
        * refine (proj1 (proj2 (proj2 (proj2 (proj2 (proj2 (look_more k G no_skip no_look)))))) _ _ _ _ _ _ _ _ L'' _ _). lia.
        * unfold no_look; lia.
        * unfold no_look; lia.
  Qed.

  (** Items have at least one byte. *)
  Lemma bytes_ahead w i n : i + n <= length w -> n <= bo k w (i + n) - bo k w i.
  Proof.
    intros H. rewrite bo_add. pose proof (tlen_length_le k (firstn n (skipn i w))) as L.
    rewrite firstn_length, skipn_length in L. unfold bo in *. lia.
  Qed.

  Lemma short_near w i n : too_short k w i n -> length w < i + n.
  Proof.
    unfold too_short. intros H. destruct (le_lt_dec (i + n) (length w)) as [L|L]; [|assumption].
    pose proof (bytes_ahead w i n L). pose proof (bo_le_len k w (i + n)). lia.
  Qed.

  Lemma fits_near w i n z : i + n <= z -> ~ too_short k w i n -> fits k w z i n.
  Proof.
    intros H N. split; [assumption|]. destruct (le_lt_dec z (length w)) as [L|L]; [|now left].
    right. split; [lia|]. exists (i + n). split; [lia|]. split; [assumption|]. apply bytes_ahead. lia.
  Qed.

  (** Alternatives. *)
  Lemma first_near w ps i e o n : First k G no_skip w ps i e o -> (forall p, In p ps -> near p n) -> i <= length w ->
    FirstL k G no_skip no_look w (i + n) ps i e o /\
    match o with OK b j => i <= j /\ j <= i + n /\ j <= length w | KO _ => True end.
  Proof.
    intros F. induction F; cbn [In]; intros N Hi.
    - split; [constructor|exact I].
    - destruct (N p (or_introl eq_refl) _ _ _ Hi H) as [A B]. split; [now apply FirstL_hit|exact B].
    - destruct (N p (or_introl eq_refl) _ _ _ Hi H) as [A _]. destruct IHF as [A' B]; [auto|assumption|].
      split; [eapply FirstL_next; eauto|exact B].
  Qed.

  Lemma reach_look : (forall p n, Reach k G p n -> near p n) /\ (forall c a, CReach k G c a -> cnear c a).
  Proof.
    apply Reach_mutind.
    { intros p m n _ H L w i o Hi P. destruct (H w i o Hi P) as [A B]. split; [eapply more; [exact A|lia]|].
      destruct o; [lia|exact I]. }
    all: intros; try (intros w i o Hi P; inversion P; subst; clear P).
    all: stay.
    all: repeat match goal with
      | N : near ?q ?a, P : Peg ?w ?q ?i (OK ?b ?j), B : ?i <= length ?w |- _ => destruct (N w i _ B P) as (? & ? & ? & ?); clear P
      | N : near ?q ?a, P : Peg ?w ?q ?i ?o, B : ?i <= length ?w |- _ => destruct (N w i _ B P) as [? ?]; clear P
      | N : cnear ?c ?a, P : Acc _ _ _ ?w ?i ?u ?c ?m (inl true) |- _ => destruct (proj2 N w i u m _ P) as [? Q]; specialize (Q eq_refl); clear P
      | N : cnear ?c ?a, P : Acc _ _ _ ?w ?i ?u ?c ?m ?r |- _ => destruct (proj2 N w i u m _ P) as [? _]; clear P
      end.
    all: try match goal with N : cnear ?c ?a |- _ => pose proof (proj1 N) end.
    all: try match goal with H : too_short _ _ _ _ |- _ => pose proof (short_near _ _ _ H) end.
    all: try solve [split; [econstructor; eauto; unfold no_look; lia|auto; lia]].
    all: try solve [split; [econstructor; repeat match goal with H : Look _ _ _ _ _ |- _ => eapply more; [exact H|lia] end; eauto; unfold no_look; lia|auto; lia]].
    all: repeat match goal with H : limit_of _ = Some _, R : _ |- _ => rewrite H in R end.
    all: try match goal with N : cnear ?c ?a, R : Run _ _ _ ?w ?i ?u ?c (Some ?l) 0 ?r |- Look _ ?y _ _ _ /\ _ =>
      destruct (run_near w i u c a N l 0 r R) with (z := y) as [? ?]; [lia|lia|]; clear R end.
    all: try match goal with N : near ?p ?a, R : Reps _ _ _ ?w ?p (Some ?l) ?i ?t ?j |- _ =>
      destruct (reps_near w p a N l i t j R) as (? & ? & ? & ?); [assumption|]; clear R end.
    all: try match goal with N : near ?p ?a, M : near ?s ?b, R : Seps _ _ _ ?w ?p ?s (Some ?l) ?i ?t ?j |- _ =>
      destruct (seps_near w p s a b N M l i t j R) as (? & ? & ? & ?); [assumption|]; clear R end.
    all: repeat match goal with
      | H : AccL ?w ?y ?i ?u ?c ?m ?r |- Look ?w ?z _ _ _ /\ _ =>
        tryif constr_eq y z then fail else (apply (amore w y z) in H; [|lia]) end.
    all: try match goal with H : ~ too_short _ _ _ _ |- Look _ ?z _ _ _ /\ _ => apply (fits_near _ _ _ z) in H; [|lia] end.
    all: try solve [split; [econstructor; eauto; unfold no_look; lia|auto; lia]].
    all: repeat match goal with
      | H : limit_of ?r = Some ?l, R : RunL _ _ _ _ _ _ _ _ _ (Some ?l) _ _ |- _ => rewrite <- H in R
      | H : limit_of ?r = Some ?l, R : RepsL _ _ _ _ _ _ _ (Some ?l) _ _ _ |- _ => rewrite <- H in R end.
    all: try match goal with F : First _ _ _ ?w ?ps ?i ?e ?o, N : forall p, In p ?ps -> near p ?n |- _ =>
      destruct (first_near w ps i e o n F N) as [? ?]; [assumption|]; split; [constructor; assumption|assumption] end.
    all: try solve [split; [econstructor; eauto; unfold no_look; lia|auto; lia]].
    all: try solve [split; [econstructor; eauto; rewrite ?Nat.mul_succ_l; eassumption|auto; lia]].
    - (* consume *)
      assert (i <= j) by (apply (bo_le_iff k w); lia). assert (j <= i + n).
      { pose proof (bytes_ahead w i (j - i)) as B. replace (i + (j - i)) with j in B by lia. lia. }
      split; [|lia]. apply L_consume; auto. lia.
    - split; [|exact I]. apply L_consume_ko; auto. apply short_near. unfold too_short. pose proof (bo_le_len k w i). lia.
    - assert (i + length l <= length w).
      { match goal with H : firstn _ _ = _ |- _ => apply (f_equal (@length _)) in H; rewrite firstn_length, skipn_length in H end. lia. }
      split; [|lia]. apply L_lit; auto.
    - split; [|exact I]. destruct (le_lt_dec (i + length l) (length w)) as [Z|Z]; [|now apply L_lit_ko_end].
      apply L_lit_ko with (length l); auto. now rewrite firstn_all.
    - split; [|exact I]. apply L_neuthen_short; [|assumption].
      match goal with H : _ \/ _ |- _ => destruct H as [T|T]; [apply short_near in T|] end; lia.
    - match goal with H : env_get G _ = Some p, H' : env_get G _ = Some ?q, N : near p _, P : Peg _ ?q _ _ |- _ =>
        rewrite H in H'; injection H' as <-; destruct (N _ _ _ Hi P) as [? ?] end.
      split; [eapply L_ref; eauto|assumption].
    - (* conditions *)
      split; [lia|]. intros w i u m r A. inversion A; subst; clear A.
      + split; [apply AccL_end; auto; lia|discriminate].
      + split; [eapply AccL_no; eauto; lia|discriminate].
      + match goal with C : Chk _ _ _ _ _ _ _ _ _ |- _ => inversion C; subst; clear C end.
        split; [eapply AccL_yes; eauto; [lia|constructor]|]. intros _. apply nth_error_Some; congruence.
    - split; [assumption|]. intros w i u m r A. inversion A; subst; clear A.
      + split; [apply AccL_end; auto; lia|discriminate].
      + split; [eapply AccL_no; eauto; lia|discriminate].
      + assert (i + m < length w) by (apply nth_error_Some; congruence).
        match goal with N : near p n |- _ => pose proof (N (skipn (i + m) w) 0) as N' end.
        match goal with C : Chk _ _ _ _ _ _ _ _ _ |- _ => inversion C; subst; clear C end; stay.
        all: match goal with P : Peg _ _ _ _ |- _ => destruct (N' _ (Nat.le_0_l _) P) as [L _] end.
        * split; [|auto]. eapply AccL_yes; eauto; [lia|]. eapply ChkL_regex; [apply Nat.le_0_l|lia|].
          replace (i + m + n - (i + m)) with (0 + n) by lia. exact L.
        * split; [|discriminate]. eapply AccL_yes; eauto; [lia|]. eapply ChkL_regex_no; [apply Nat.le_0_l|lia|].
          replace (i + m + n - (i + m)) with (0 + n) by lia. exact L.
  Qed.
End Laws.
