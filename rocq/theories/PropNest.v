(** Threads that share parsers which lock several mutexes at once do not wait for each other for ever
    (C85). *)

From Coq Require Import List Arith NArith Bool Lia.
From Verif Require Import Base Text Context Neu Syntax Regex Ctor Api TextProofs Spec Core Obs Laws ApiLaws Unlock MutexNest PropRec Samples.
Import ListNotations.

Lemma upd_same {A} (f : nat -> A) i v : upd f i v i = v.
Proof. unfold upd. now rewrite Nat.eqb_refl. Qed.
Lemma upd_other {A} (f : nat -> A) i v x : x <> i -> upd f i v x = f x.
Proof. unfold upd. intros H. apply Nat.eqb_neq in H. now rewrite H. Qed.

(** ** The order of the mutexes *)
Section Ranks.
  Variable G : env.
  Variable rank : nat -> nat.
  Hypothesis RE : ranked_env G rank.

  Lemma takes_below p m : Takes G p m -> forall r, ranked rank r p -> rank m < r.
  Proof.
    induction 1 as [p m W|p i q m W E T IH]; intros r R.
    - exact (R _ W).
    - pose proof (R _ W) as L. cbn in L. specialize (IH (rank i) (RE i q E)). lia.
  Qed.

  (** Balanced, and what is locked inside a mutex ranks below it. *)
  Inductive Low : nat -> list lev -> Prop :=
  | low_nil r : Low r []
  | low_take r m l l' : rank m < r -> Low (rank m) l -> Low r l' -> Low r (Acq m :: l ++ Rel m :: l').
  Lemma locking_low p l : Locking G p l -> forall r, ranked rank r p -> Low r l.
  Proof.
    induction 1 as [p|p m q l l' T E L IH L' IH'|p m l' T E L IH]; intros r R.
    - constructor.
    - constructor; [eapply takes_below; eauto|apply IH; now apply RE|now apply IH'].
    - apply (low_take r m [] l'); [eapply takes_below; eauto|constructor|now apply IH].
  Qed.
  Lemma low_acq r m l : Low r (Acq m :: l) -> rank m < r /\ exists a b, l = a ++ Rel m :: b /\ Low (rank m) a /\ Low r b.
  Proof. intros H. inversion H; subst. eauto 7. Qed.

  (** A call that holds the mutexes [hs], the latest first, and has [l] to go. *)
  Inductive Going : list nat -> list lev -> Prop :=
  | going_top r l : Low r l -> Going [] l
  | going_in m hs l l' : Low (rank m) l -> Forall (fun x => rank m < rank x) hs -> Going hs l' -> Going (m :: hs) (l ++ Rel m :: l').

  Lemma going_acq hs m l : Going hs (Acq m :: l) -> Forall (fun x => rank m < rank x) hs /\ Going (m :: hs) l.
  Proof.
    intros H. inversion H as [r l0 L|x hs' a b L F H' E]; subst.
    - apply low_acq in L. destruct L as (Lm & a & b & -> & La & Lb). split; [constructor|].
      apply going_in; auto. now apply (going_top r).
    - destruct a as [|e a]; [discriminate|]. cbn [app] in *.
      match goal with E : _ :: _ = _ :: _ |- _ => injection E as -> <- end.
      apply low_acq in L. destruct L as (Lm & a1 & b1 & -> & La & Lb).
      assert (FF : Forall (fun y => rank m < rank y) (x :: hs')).
      { constructor; [exact Lm|]. eapply Forall_impl; [|exact F]. cbn. intros; lia. }
      split; [exact FF|]. rewrite <- app_assoc. cbn [app]. apply going_in; auto. now apply going_in.
  Qed.
  Lemma going_rel hs m l : Going hs (Rel m :: l) -> exists hs', hs = m :: hs' /\ Going hs' l.
  Proof.
    intros H. inversion H as [r l0 L|x hs' a b L F H' E]; subst; [inversion L|].
    destruct a as [|e a]; cbn [app] in *; [|match goal with E : _ :: _ = _ :: _ |- _ => injection E as -> <- end; inversion L].
    match goal with E : _ :: _ = _ :: _ |- _ => injection E as -> <- end. eauto.
  Qed.
  Lemma going_nil hs : Going hs [] -> hs = [].
  Proof. intros H. inversion H as [|x hs' a b L F H' E]; [reflexivity|]. destruct a; discriminate. Qed.
  Lemma going_nodup hs l : Going hs l -> NoDup hs.
  Proof.
    induction 1 as [|m hs l l' L F H IH]; constructor; [|exact IH]. intros I. rewrite Forall_forall in F. specialize (F m I). lia.
  Qed.
End Ranks.

Section Proofs.
  Variable S : Type.
  Variable h : handler S.
  Variable G : env.
  Variable rank : nat -> nat.
  Hypothesis RE : ranked_env G rank.
  Variable c0 : nat -> ctx.
  Variable s0 : nat -> S.
  Variable work : nat -> list job.
  (** Every parser asked for has a place in the order. *)
  Hypothesis RW : forall i j, In j (work i) -> exists r, ranked rank r (parser j).
  Notation Call := (Call h G).
  Notation step := (step h G).
  Notation Reachable := (Reachable h G c0 s0 work).
  Notation Alone := (Alone h G).
  Notation world := (world S).
  Notation event := (event S).

  Definition going_on (g : world) (i : nat) : Prop :=
    (forall j, In j (t_jobs (th g i)) -> exists r, ranked rank r (parser j)) /\
    match t_rest (th g i) with
    | None => forall m, owner g m <> Some i
    | Some l => t_jobs (th g i) <> [] /\ exists hs, Going rank hs l /\ forall m, In m hs <-> owner g m = Some i
    end.

  Lemma good_reach g : Reachable g -> forall i, going_on g i.
  Proof.
    induction 1 as [|g g' R IH T]; intros x.
    - split; [apply RW|]. cbn. discriminate.
    - destruct T as [g i c s j js l E L|g i c s js m l E O|g i c s js m l E O|g i c s j js a c' s' E K Z].
      all: pose proof (IH x) as [J X]; pose proof (IH i) as [Ji Xi]; unfold going_on in *; rewrite E in Ji, Xi; cbn [t_rest t_jobs th owner] in *.
      all: destruct (Nat.eq_dec x i) as [->|N]; [rewrite upd_same; cbn [t_rest t_jobs]|rewrite upd_other by exact N].
      + split; [exact Ji|]. split; [discriminate|]. exists []. destruct (Ji j (or_introl eq_refl)) as [r Hr].
        split; [apply (going_top rank r); eapply locking_low; eauto|]. intros m. split; [intros []|intros Q; now apply Xi in Q].
      + auto.
      + split; [exact Ji|]. destruct Xi as (NE & hs & Go & Ho). split; [exact NE|]. destruct (going_acq rank hs m l Go) as [F Go'].
        exists (m :: hs). split; [exact Go'|]. intros m'. cbn [In]. destruct (Nat.eq_dec m' m) as [->|NM].
        * rewrite upd_same. tauto.
        * rewrite upd_other by exact NM. rewrite <- Ho. split; [intros [->|?]; tauto|auto].
      + split; [exact J|]. destruct (t_rest (th g x)) as [lx|].
        * destruct X as (NE & hs & Go & Ho). split; [exact NE|]. exists hs. split; [exact Go|]. intros m'. rewrite Ho.
          destruct (Nat.eq_dec m' m) as [->|NM]; [rewrite upd_same, O; split; congruence|now rewrite upd_other].
        * intros m'. destruct (Nat.eq_dec m' m) as [->|NM]; [rewrite upd_same; congruence|rewrite upd_other by exact NM; auto].
      + split; [exact Ji|]. destruct Xi as (NE & hs & Go & Ho). split; [exact NE|]. pose proof (going_nodup rank hs _ Go) as ND.
        destruct (going_rel rank hs m l Go) as (hs' & -> & Go'). inversion ND; subst.
        exists hs'. split; [exact Go'|]. intros m'. destruct (Nat.eq_dec m' m) as [->|NM].
        * rewrite upd_same. split; [tauto|discriminate].
        * rewrite upd_other by exact NM. rewrite <- Ho. cbn [In]. split; [auto|intros [->|?]; tauto].
      + split; [exact J|]. destruct (t_rest (th g x)) as [lx|].
        * destruct X as (NE & hs & Go & Ho). split; [exact NE|]. exists hs. split; [exact Go|]. intros m'. rewrite Ho.
          destruct (Nat.eq_dec m' m) as [->|NM]; [rewrite upd_same, O; split; congruence|now rewrite upd_other].
        * intros m'. destruct (Nat.eq_dec m' m) as [->|NM]; [rewrite upd_same; congruence|rewrite upd_other by exact NM; auto].
      + split; [intros j' I; apply Ji; now right|]. destruct Xi as (_ & hs & Go & Ho). apply going_nil in Go. subst hs.
        intros m Q. now apply Ho in Q.
      + auto.
  Qed.

  (** Somebody who waits for a mutex waits for a thread that can go on, or waits for a mutex of lower rank. *)
  Lemma wait_ends g : (forall i, going_on g i) -> forall n i m l, rank m < n -> t_rest (th g i) = Some (Acq m :: l) ->
    exists g', step g g'.
  Proof.
    intros GG. induction n as [|n IH]; intros i m l Hn Hi; [lia|].
    destruct (owner g m) as [x|] eqn:O.
    - destruct (GG x) as [_ X]. destruct (th g x) as [c s js rs] eqn:E. cbn [t_rest t_jobs] in X. destruct rs as [rs|]; [|now destruct (X m)].
      destruct X as (_ & hs & Go & Ho). destruct rs as [|[m'|m'] rs].
      + apply going_nil in Go. subst hs. now apply Ho in O.
      + destruct (going_acq rank hs m' rs Go) as [F _]. rewrite Forall_forall in F. apply Ho in O. specialize (F m O).
        apply (IH x m' rs); [lia|now rewrite E].
      + destruct (going_rel rank hs m' rs Go) as (hs' & -> & _). eexists. eapply step_unlock; [exact E|]. apply Ho. now left.
    - destruct (th g i) as [c s js rs] eqn:E. cbn [t_rest] in Hi. subst rs. eexists. eapply step_lock; eassumption.
  Qed.

  Lemma progress : forall g, Reachable g -> (exists i, t_jobs (th g i) <> []) ->
    (forall i j js, t_rest (th g i) = Some [] -> t_jobs (th g i) = j :: js ->
       exists a c' s', Call j (t_ctx (th g i)) (t_st (th g i)) a c' s' /\ panicked a = false) ->
    exists g', step g g'.
  Proof.
    intros g R [i NE] K. pose proof (good_reach g R) as GG. destruct (GG i) as [_ X].
    destruct (th g i) as [c s js rs] eqn:E. cbn [t_rest t_jobs] in *. destruct js as [|j js]; [easy|].
    destruct rs as [[|[m|m] rs]|].
    - destruct (K i j js) as (a & c' & s' & Q & Z); [now rewrite E|now rewrite E|]. rewrite E in Q. cbn in Q.
      eexists. eapply step_finish; eassumption.
    - apply (wait_ends g GG (Datatypes.S (rank m)) i m rs); [lia|now rewrite E].
    - destruct X as (_ & hs & Go & Ho). destruct (going_rel rank hs m rs Go) as (hs' & -> & _).
      eexists. eapply step_unlock; [exact E|]. apply Ho. now left.
    - eexists. eapply step_begin; [exact E|constructor].
  Qed.
End Proofs.

Section More.
  Variable S : Type.
  Variable h : handler S.
  Variable G : env.
  Variable c0 : nat -> ctx.
  Variable s0 : nat -> S.
  Variable work : nat -> list job.
  Notation Call := (Call h G).
  Notation step := (step h G).
  Notation Reachable := (Reachable h G c0 s0 work).
  Notation Alone := (Alone h G).
  Notation world := (world S).
  Notation event := (event S).

  Lemma call_det j c s a c' s' a1 c1 s1 : Call j c s a c' s' -> Call j c s a1 c1 s1 -> a = a1 /\ c' = c1 /\ s' = s1.
  Proof.
    destruct j as [p|p]; cbn.
    - intros (r & -> & A & ->) (r1 & -> & B & ->). destruct (returns_det _ _ _ _ _ _ _ _ A B) as [-> ->]. auto.
    - intros (r & -> & A) (r1 & -> & B). destruct (builds_det _ _ _ _ _ _ _ _ _ _ _ _ A B) as (-> & -> & ->). auto.
  Qed.

  Definition of_thread (i : nat) (l : list event) : list event := filter (fun e => e_who e =? i) l.

  Lemma alone_hist : forall (l : nat -> list event) c s,
    (forall i, Alone i (work i) (c0 i) (s0 i) (l i) (c i) (s i)) ->
    forall g, Reachable g -> forall i,
    exists rest, l i = of_thread i (rev (hist g)) ++ rest /\ Alone i (t_jobs (th g i)) (t_ctx (th g i)) (t_st (th g i)) rest (c i) (s i).
  Proof.
    intros l c s A g R. induction R as [|g g' R IH T]; intros x.
    - exists (l x). split; [reflexivity|]. apply A.
    - destruct (IH x) as (rest & E & AL).
      destruct T as [g i cc ss j js lv Ei L|g i cc ss js m lv Ei O|g i cc ss js m lv Ei O|g i cc ss j js a c' s' Ei K Z]; cbn [th hist].
      1-3: exists rest; split; [exact E|]; destruct (Nat.eq_dec x i) as [->|N]; [rewrite upd_same; rewrite Ei in AL; exact AL|rewrite upd_other by exact N; exact AL].
      cbn [rev]. unfold of_thread. rewrite filter_app. fold (of_thread x (rev (hist g))). cbn [filter e_who].
      destruct (Nat.eq_dec x i) as [->|N].
      + rewrite Nat.eqb_refl, upd_same. rewrite Ei in AL. cbn [t_ctx t_st t_jobs] in AL. inversion AL; subst.
        match goal with H : MutexNest.Call h G j _ _ ?a0 _ _, H0 : l i = _ ++ Ev _ _ _ _ ?a0 _ _ :: _ |- _ => destruct (call_det _ _ _ _ _ _ _ _ _ K H) as (<- & <- & <-) end.
        eexists. split; [rewrite <- app_assoc; cbn [app]; exact E|]. assumption.
      + rewrite upd_other by exact N. rewrite (proj2 (Nat.eqb_neq i x)) by auto. rewrite app_nil_r. eauto.
  Qed.

  (** *** Every execution ends *)
  Fixpoint total (f : nat -> nat) (n : nat) : nat := match n with 0 => 0 | Datatypes.S n => f n + total f n end.
  Lemma total_same f f' n : (forall x, f' x = f x) -> total f' n = total f n.
  Proof. intros E. induction n; cbn; [reflexivity|]. now rewrite E, IHn. Qed.
  Lemma total_one f f' n i : i < n -> (forall x, x <> i -> f' x = f x) -> f' i < f i -> total f' n < total f n.
  Proof.
    induction n as [|n IH]; intros Hi E L; [lia|]. cbn.
    destruct (Nat.eq_dec i n) as [->|N].
    - assert (total f' n = total f n); [|lia]. clear - E. assert (forall x, x < n -> f' x = f x) as E' by (intros; apply E; lia).
      clear E. induction n; cbn; [reflexivity|]. rewrite E', IHn; auto.
    - rewrite (E n) by lia. specialize (IH ltac:(lia) E L). lia.
  Qed.
  Definition calls_left (g : world) (i : nat) : nat := 2 * length (t_jobs (th g i)) - match t_rest (th g i) with Some _ => 1 | None => 0 end.
  Definition locks_left (g : world) (i : nat) : nat := match t_rest (th g i) with Some l => length l | None => 0 end.
  Definition idle (n : nat) (g : world) : Prop := forall i, n <= i -> t_jobs (th g i) = [] /\ t_rest (th g i) = None.

  Lemma step_less n g g' : idle n g -> step g g' -> idle n g' /\
    (total (calls_left g') n < total (calls_left g) n \/
     total (calls_left g') n = total (calls_left g) n /\ total (locks_left g') n < total (locks_left g) n).
  Proof.
    intros ID T.
    assert (D : exists i, i < n /\ (forall x, x <> i -> th g' x = th g x) /\
      (calls_left g' i < calls_left g i \/ calls_left g' i = calls_left g i /\ locks_left g' i < locks_left g i)).
    { destruct T as [g i cc ss j js lv Ei L|g i cc ss js m lv Ei O|g i cc ss js m lv Ei O|g i cc ss j js a c' s' Ei K Z].
      all: exists i; assert (IN : i < n) by (destruct (Nat.lt_ge_cases i n) as [Q|Q]; [exact Q|]; destruct (ID i Q) as [Q1 Q2]; rewrite Ei in Q1, Q2; discriminate).
      all: split; [exact IN|]; split; [intros x N; cbn; now rewrite upd_other|].
      all: unfold calls_left, locks_left; cbn [th]; rewrite upd_same; rewrite Ei; cbn; lia. }
    destruct D as (i & Hi & E & D). split.
    - intros x Hx. rewrite E by lia. auto.
    - assert (EC : forall x, x <> i -> calls_left g' x = calls_left g x) by (intros x N; unfold calls_left; now rewrite E).
      assert (EL : forall x, x <> i -> locks_left g' x = locks_left g x) by (intros x N; unfold locks_left; now rewrite E).
      destruct D as [D|[D1 D2]]; [left; now apply (total_one _ _ n i)|right]. split; [|now apply (total_one _ _ n i)].
      apply total_same. intros x. destruct (Nat.eq_dec x i) as [->|N]; auto.
  Qed.
  Lemma finite : forall n, (forall i, n <= i -> work i = []) ->
    ~ exists f : nat -> world, f 0 = start c0 s0 work /\ forall t, step (f t) (f (Datatypes.S t)).
  Proof.
    intros n W (f & F0 & F).
    assert (ID : forall t, idle n (f t)).
    { induction t as [|t IH]; [rewrite F0; intros i Hi; cbn; split; [now apply W|reflexivity]|]. now apply (step_less n (f t)). }
    assert (X : forall a b t, total (calls_left (f t)) n <= a -> total (locks_left (f t)) n <= b -> False).
    { induction a as [a IHa] using lt_wf_ind. induction b as [b IHb] using lt_wf_ind. intros t La Lb.
      destruct (step_less n _ _ (ID t) (F t)) as [_ [D|[D1 D2]]].
      - eapply (IHa (total (calls_left (f (Datatypes.S t))) n)); [lia|apply le_n|apply le_n].
      - apply (IHb (total (locks_left (f (Datatypes.S t))) n) ltac:(lia) (Datatypes.S t)); [lia|apply le_n]. }
    exact (X _ _ 0 (le_n _) (le_n _)).
  Qed.
End More.

(** ** What [Locking] leaves out, a call does not lock *)
Section Covers.
  Variable G : env.
  Variable rank : nat -> nat.
  Hypothesis RE : ranked_env G rank.
  Variable m : nat.
  Definition spares (p : pat) : Prop := forall l, Locking G p l -> ~ In (Acq m) l.
  Lemma locking_mono p q l : Locking G p l -> (forall m, Takes G p m -> Takes G q m) -> Locking G q l.
  Proof.
    intros H T. induction H as [p|p m' q' l l' X E L IH L' IH'|p m' l' X E L IH].
    - constructor.
    - eapply lk_take; eauto.
    - eapply lk_unset; eauto.
  Qed.
  Lemma spares_sub p q : spares p -> sub p q -> spares q.
  Proof.
    intros H S l L. apply H. apply (locking_mono q); [exact L|]. intros m' T.
    inversion T; subst; [apply takes_lock|eapply takes_ref; eauto]; eapply within_sub; eauto.
  Qed.
  Lemma spares_ref i q : spares (PRef i) -> env_get G i = Some q -> spares q.
  Proof.
    intros H E l L. apply H. apply (locking_mono q); [exact L|]. intros m' T. eapply takes_ref; eauto. constructor.
  Qed.
  Lemma spares_locked i q : spares (PLock i) -> env_get G i = Some q -> spares q.
  Proof.
    intros H E l L I. apply (H (Acq i :: l ++ Rel i :: [])).
    - eapply lk_take; eauto; [apply takes_lock; constructor|constructor].
    - right. apply in_or_app. now left.
  Qed.
  Lemma spares_self : ~ spares (PLock m).
  Proof.
    intros H. destruct (env_get G m) as [q|] eqn:E.
    - apply (H (Acq m :: [] ++ Rel m :: [])); [|now left]. eapply lk_take; eauto; [apply takes_lock; constructor|constructor|constructor].
    - apply (H (Acq m :: Rel m :: [])); [|now left]. eapply lk_unset; eauto; [apply takes_lock; constructor|constructor].
  Qed.

  Definition fine (held : list nat) (p : pat) : Prop :=
    exists r, ranked rank r p /\ Forall (fun i => r <= rank i \/ i = m) held /\ (In m held -> spares p).
  Lemma fine_all n held held' p : fine held p ->
    ple false (parse n G held [] p) (parse n (unlock_env G) held' [] (unlock p)) /\
    forall S (h : handler S), ple false (construct h n G held [] p) (construct h n (unlock_env G) held' [] (unlock p)).
  Proof.
    intros HP.
    assert (A1 : forall held p q, fine held p -> sub p q -> fine held q).
    { intros hd a b (r & R & L & I) S. exists r. split; [eapply ranked_sub; eauto|]. split; [exact L|]. intros X. eapply spares_sub; eauto. }
    assert (A2 : forall held i q, fine held (PRef i) -> env_get G i = Some q -> fine held q).
    { intros hd i q (r & R & L & I) E. exists (rank i). split; [now apply RE|].
      specialize (R _ (within_refl _)). cbn in R. split; [eapply Forall_impl; [|exact L]; cbn; intros; lia|].
      intros X. eapply spares_ref; eauto. }
    assert (A3 : forall held i, fine held (PLock i) -> existsb (Nat.eqb i) held = true -> false = true).
    { intros hd i (r & R & L & I) X. specialize (R _ (within_refl _)). cbn in R.
      apply existsb_exists in X. destruct X as (j & J & X). apply Nat.eqb_eq in X. subst j.
      rewrite Forall_forall in L. destruct (L _ J) as [Q| ->]; [lia|]. destruct (spares_self (I J)). }
    assert (A4 : forall held i q, fine held (PLock i) -> existsb (Nat.eqb i) held = false -> env_get G i = Some q -> fine (i :: held) q).
    { intros hd i q (r & R & L & I) X E. exists (rank i). split; [now apply RE|].
      specialize (R _ (within_refl _)). cbn in R. split.
      - constructor; [left; apply le_n|]. eapply Forall_impl; [|exact L]. cbn. intros; lia.
      - intros [->|J]; [|eapply spares_locked; eauto].
        intros l L' J. apply (f_equal negb) in X. pose proof (locking_low G rank RE _ _ L' _ (RE _ _ E)) as LO.
        clear - LO J. remember (rank m) as r eqn:Er. assert (r <= rank m) by lia. clear Er. induction LO as [|r m' a b Lt La IHa Lb IHb]; [destruct J|].
        destruct J as [J|J]; [injection J as ->; lia|]. apply in_app_or in J. destruct J as [J|[J|J]]; [apply IHa; [exact J|lia]|discriminate|auto]. }
    split; [|intros S h]; [apply (parse_unlock false PRef G fine)|apply (construct_unlock false PRef G fine)]; auto; constructor.
  Qed.
End Covers.

(** ** C85 *)

(** [rank] orders the mutexes: what is inside a mutex locks only mutexes of lower rank.  Then no
    execution gets stuck: as long as some thread has calls to make, some thread can go on. *)
Theorem C85_no_deadlock : forall S (h : handler S) G rank c0 s0 work l c s g,
  ranked_env G rank -> (forall i j, In j (work i) -> exists r, ranked rank r (parser j)) ->
  (forall i, Alone h G i (work i) (c0 i) (s0 i) (l i) (c i) (s i)) ->
  Reachable h G c0 s0 work g -> (exists i, t_jobs (th g i) <> []) -> exists g', step h G g g'.
Proof.
  intros S h G rank c0 s0 work l c s g RE RW A R NE. apply (progress S h G rank RE c0 s0 work RW g R NE).
  intros i j js E J. destruct (alone_hist S h G c0 s0 work l c s A g R i) as (rest & _ & AL). rewrite J in AL.
  inversion AL; subst. eauto 6.
Qed.
(** None runs for ever either, whatever the order of the mutexes. *)
Theorem C85_finite : forall S (h : handler S) G c0 s0 work n, (forall i, n <= i -> work i = []) ->
  ~ exists f : nat -> world S, f 0 = start c0 s0 work /\ forall t, step h G (f t) (f (Datatypes.S t)).
Proof. exact finite. Qed.
(** At any time, the finished calls of a thread are the first calls of the same thread working alone, with
    the same answers, contexts and handler states; and its context and handler state are those the thread
    alone would have then. *)
Theorem C85_alone : forall S (h : handler S) G c0 s0 work (l : nat -> list (event S)) c s g i,
  (forall i, Alone h G i (work i) (c0 i) (s0 i) (l i) (c i) (s i)) -> Reachable h G c0 s0 work g ->
  exists rest, l i = filter (fun e => e_who e =? i) (rev (hist g)) ++ rest /\
    Alone h G i (t_jobs (th g i)) (t_ctx (th g i)) (t_st (th g i)) rest (c i) (s i).
Proof. intros S h G c0 s0 work l c s g i A R. exact (alone_hist S h G c0 s0 work l c s A g R i). Qed.
(** So when nothing more happens, every thread has got all the answers it gets alone. *)
Theorem C85_answers : forall S (h : handler S) G rank c0 s0 work (l : nat -> list (event S)) c s g,
  ranked_env G rank -> (forall i j, In j (work i) -> exists r, ranked rank r (parser j)) ->
  (forall i, Alone h G i (work i) (c0 i) (s0 i) (l i) (c i) (s i)) ->
  Reachable h G c0 s0 work g -> (forall g', ~ step h G g g') ->
  forall i, filter (fun e => e_who e =? i) (rev (hist g)) = l i /\ th g i = Th (c i) (s i) [] None.
Proof.
  intros S h G rank c0 s0 work l c s g RE RW A R Z i.
  assert (D : forall i, t_jobs (th g i) = []).
  { intros x. destruct (t_jobs (th g x)) as [|j js] eqn:J; [reflexivity|exfalso].
    destruct (C85_no_deadlock S h G rank c0 s0 work l c s g RE RW A R) as [g' T]; [exists x; rewrite J; discriminate|exact (Z g' T)]. }
  destruct (C85_alone S h G c0 s0 work l c s g i A R) as (rest & E & AL). rewrite D in AL. inversion AL; subst.
  rewrite app_nil_r in E. split; [auto|].
  pose proof (good_reach S h G rank RE c0 s0 work RW g R i) as [_ X]. pose proof (D i) as Di.
  destruct (th g i) as [ct st js rs]. cbn [t_ctx t_st t_jobs t_rest] in *. subst js. destruct rs; [destruct X; easy|congruence].
Qed.
(** A mutex is never held by two threads (it has one owner); a thread that is between two calls holds
    none. *)
Theorem C85_released : forall S (h : handler S) G rank c0 s0 work g i m,
  ranked_env G rank -> (forall i j, In j (work i) -> exists r, ranked rank r (parser j)) ->
  Reachable h G c0 s0 work g -> t_rest (th g i) = None -> owner g m <> Some i.
Proof.
  intros S h G rank c0 s0 work g i m RE RW R E. pose proof (good_reach S h G rank RE c0 s0 work RW g R i) as [_ X].
  rewrite E in X. apply X.
Qed.
(** [Locking] lists every mutex a call locks: if none of the behaviours it allows locks [m], the call
    answers the same to somebody who holds [m] already (and would not get past a second [lock()]). *)
Theorem C85_locks : forall G rank r p m, ranked_env G rank -> ranked rank r p ->
  (forall l, Locking G p l -> ~ In (Acq m) l) ->
  (forall n c, parse n G [m] [] p c = parse n G [] [] p c) /\
  (forall S (h : handler S) n c s, construct h n G [m] [] p (c, s) = construct h n G [] [] p (c, s)).
Proof.
  intros G rank r p m RE R SP.
  assert (F0 : fine G rank m [] p) by (exists r; split; [exact R|]; split; [constructor|intros []]).
  assert (F1 : fine G rank m [m] p) by (exists r; split; [exact R|]; split; [repeat constructor|intros _; exact SP]).
  split.
  - intros n c. destruct (fine_all G rank RE m n [m] [] p F1) as [H1 _]. destruct (fine_all G rank RE m n [] [] p F0) as [H0 _].
    rewrite (ple_false _ _ c H1), (ple_false _ _ c H0). reflexivity.
  - intros S h n c s. destruct (fine_all G rank RE m n [m] [] p F1) as [_ H1]. destruct (fine_all G rank RE m n [] [] p F0) as [_ H0].
    rewrite (ple_false _ _ (c, s) (H1 S h)), (ple_false _ _ (c, s) (H0 S h)). reflexivity.
Qed.

Section Runs.
  Variable G : env.
  Variable c0 : nat -> ctx.
  Variable s0 : nat -> unit.
  Variable work : nat -> list job.
  Variable h : handler unit.
  Notation R := (Reachable h G c0 s0 work).
  Lemma r_begin g i c s j js l : R g -> th g i = Th c s (j :: js) None -> Locking G (parser j) l ->
    R (World (upd (th g) i (Th c s (j :: js) (Some l))) (owner g) (hist g)).
  Proof. intros H E L. eapply reach_step; [exact H|]. now apply step_begin. Qed.
  Lemma r_lock g i c s js m l : R g -> th g i = Th c s js (Some (Acq m :: l)) -> owner g m = None ->
    R (World (upd (th g) i (Th c s js (Some l))) (upd (owner g) m (Some i)) (hist g)).
  Proof. intros H E O. eapply reach_step; [exact H|]. now apply step_lock. Qed.
End Runs.

(** *** Two threads that ask for the two synchronized handles of [sync_env] (PropRec.v): the second
    handle locks the first inside. *)
Definition asks (i : nat) : list job := match i with 0 => [JMat (PLock 1)] | 1 => [JMat (PLock 0)] | _ => [] end.
Definition texts (i : nat) : ctx := match i with 1 => cx KStr [49; 50]%N 0 | _ => cx KStr sample 0 end.
Definition no_st (i : nat) : unit := tt.
Definition idle_handler : handler unit := fun _ s u => (Ok (VSpan s), u).
Definition got (i : nat) : list (event unit) :=
  match i with
  | 0 => [Ev 0 (JMat (PLock 1)) (cx KStr sample 0) tt (AMat (Ok (sp KStr sample 0 6))) (cx KStr sample 6) tt]
  | 1 => [Ev 1 (JMat (PLock 0)) (cx KStr [49; 50]%N 0) tt (AMat (Ok (sp KStr [49; 50]%N 0 2))) (cx KStr [49; 50]%N 2) tt]
  | _ => []
  end.
Definition ends (i : nat) : ctx := match i with 0 => cx KStr sample 6 | 1 => cx KStr [49; 50]%N 2 | _ => texts i end.
Example C85_case_ranked : ranked_env sync_env (fun i => i) /\ forall i j, In j (asks i) -> exists r, ranked (fun i => i) r (parser j).
Proof.
  split; [exact (proj1 C51_no_reentry_case)|].
  intros [|[|i]] j H; cbn in H; destruct H as [<-|[]] || destruct H; exists 2; intros q W; inversion W; subst; cbn; lia || contradiction.
Qed.
Example C85_case_alone i : Alone idle_handler sync_env i (asks i) (texts i) (no_st i) (got i) (ends i) (no_st i).
Proof.
  destruct i as [|[|i]]; [| |constructor].
  - eapply al_cons; [|reflexivity|constructor]. eexists. split; [reflexivity|]. split; [|reflexivity]. returns 40.
  - eapply al_cons; [|reflexivity|constructor]. eexists. split; [reflexivity|]. split; [|reflexivity]. returns 40.
Qed.
(** The world in which the first thread is inside both mutexes and the second one waits for it. *)
Example C85_case : exists g, Reachable idle_handler sync_env texts no_st asks g /\
  owner g 0 = Some 0 /\ owner g 1 = Some 0 /\ t_rest (th g 1) = Some [Acq 0; Rel 0] /\
  (exists i, t_jobs (th g i) <> []) /\ (forall i, 2 <= i -> asks i = []).
Proof.
  assert (T0 : Takes sync_env (PEnclose (PSep (PLock 0) comma 0 true) lbrack rbrack) 0).
  { apply takes_lock. eapply within_sub; [left; reflexivity|]. eapply within_sub; [left; reflexivity|]. constructor. }
  assert (L0 : Locking sync_env (PLock 1) [Acq 1; Acq 0; Rel 0; Rel 1]).
  { apply (lk_take sync_env _ 1 (PEnclose (PSep (PLock 0) comma 0 true) lbrack rbrack) [Acq 0; Rel 0] []); [apply takes_lock; constructor|reflexivity| |constructor].
    apply (lk_take sync_env _ 0 number [] []); [exact T0|reflexivity|constructor|constructor]. }
  assert (L1 : Locking sync_env (PLock 0) [Acq 0; Rel 0]).
  { apply (lk_take sync_env _ 0 number [] []); [apply takes_lock; constructor|reflexivity|constructor|constructor]. }
  pose proof (reach_start unit idle_handler sync_env texts no_st asks) as R0.
  pose proof (r_begin _ _ _ _ _ _ 0 (texts 0) tt (JMat (PLock 1)) [] _ R0 eq_refl L0) as R1.
  pose proof (r_lock _ _ _ _ _ _ 0 (texts 0) tt [JMat (PLock 1)] 1 [Acq 0; Rel 0; Rel 1] R1 eq_refl eq_refl) as R2.
  pose proof (r_lock _ _ _ _ _ _ 0 (texts 0) tt [JMat (PLock 1)] 0 [Rel 0; Rel 1] R2 eq_refl eq_refl) as R3.
  pose proof (r_begin _ _ _ _ _ _ 1 (texts 1) tt (JMat (PLock 0)) [] _ R3 eq_refl L1) as R4.
  eexists. split; [exact R4|].
  repeat split; try reflexivity; [exists 0; discriminate|]. intros [|[|i]] Hi; [lia|lia|reflexivity].
Qed.
Example C85_locks_case : (forall l, Locking sync_env (PLock 0) l -> ~ In (Acq 1) l) /\
  exists l, Locking sync_env (PLock 1) l /\ In (Acq 0) l.
Proof.
  assert (N : forall m, Takes sync_env number m -> False).
  { intros m T. inversion T; subst;
    match goal with W : within _ _ |- _ => inversion W; subst; contradiction end. }
  assert (N0 : forall l, Locking sync_env number l -> l = []).
  { intros l L. inversion L; subst; [reflexivity|destruct (N _ H)|destruct (N _ H)]. }
  split.
  - intros l L. remember (PLock 0) as p eqn:Ep. induction L as [|p m q l l' T E L IH L' IH'|p m l' T E L IH]; subst p; [intros []| |].
    all: assert (m = 0) as -> by (inversion T; subst; match goal with W : within _ _ |- _ => inversion W; subst; congruence || contradiction end).
    + injection E as <-. rewrite (N0 l L). intros [X|[X|X]]; try discriminate. now apply IH'.
    + discriminate.
  - exists [Acq 1; Acq 0; Rel 0; Rel 1]. split; [|right; left; reflexivity].
    apply (lk_take sync_env _ 1 (PEnclose (PSep (PLock 0) comma 0 true) lbrack rbrack) [Acq 0; Rel 0] []); [apply takes_lock; constructor|reflexivity| |constructor].
    apply (lk_take sync_env _ 0 number [] []); [|reflexivity|constructor|constructor].
    apply takes_lock. eapply within_sub; [left; reflexivity|]. eapply within_sub; [left; reflexivity|]. constructor.
Qed.

(** *** Without an order *)
(** Two handles that may use each other: [a b?] and [b a?].  On the texts "ac" and "bc", each thread alone
    gets an answer. *)
Definition ring : env := [Some (PThen (PLit [97]%N) (POption (PLock 1))); Some (PThen (PLit [98]%N) (POption (PLock 0)))].
Definition ring_asks (i : nat) : list job := match i with 0 => [JMat (PLock 0)] | 1 => [JMat (PLock 1)] | _ => [] end.
Definition ring_text (i : nat) : text := match i with 0 => [97; 99]%N | _ => [98; 99]%N end.
Definition ring_reads (i : nat) : ctx := cx KStr (ring_text i) 0.

(** Together they may wait for each other for ever: what Rust's mutexes do, and the crate does not
    prevent. *)
Theorem C85_cycle_refuted : exists G c0 s0 work (l : nat -> list (event unit)) c s g,
  (forall i, Alone idle_handler G i (work i) (c0 i) (s0 i) (l i) (c i) (s i)) /\
  Reachable idle_handler G c0 s0 work g /\ (forall i, i < 2 -> t_jobs (th g i) <> []) /\
  forall g', ~ step idle_handler G g g'.
Proof.
  exists ring, ring_reads, no_st, ring_asks,
    (fun i => match i with
     | 0 => [Ev 0 (JMat (PLock 0)) (ring_reads 0) tt (AMat (Ok (sp KStr (ring_text 0) 0 1))) (cx KStr (ring_text 0) 1) tt]
     | 1 => [Ev 1 (JMat (PLock 1)) (ring_reads 1) tt (AMat (Ok (sp KStr (ring_text 1) 0 1))) (cx KStr (ring_text 1) 1) tt]
     | _ => [] end),
    (fun i => match i with 0 | 1 => cx KStr (ring_text i) 1 | _ => ring_reads i end), no_st.
  assert (T0 : Takes ring (PThen (PLit [97]%N) (POption (PLock 1))) 1).
  { apply takes_lock. eapply within_sub; [right; reflexivity|]. eapply within_sub; [reflexivity|]. constructor. }
  assert (T1 : Takes ring (PThen (PLit [98]%N) (POption (PLock 0))) 0).
  { apply takes_lock. eapply within_sub; [right; reflexivity|]. eapply within_sub; [reflexivity|]. constructor. }
  exists (World (upd (upd (upd (upd (fun i => Th (ring_reads i) (no_st i) (ring_asks i) None)
        0 (Th (ring_reads 0) tt [JMat (PLock 0)] (Some [Acq 0; Acq 1; Rel 1; Rel 0])))
        0 (Th (ring_reads 0) tt [JMat (PLock 0)] (Some [Acq 1; Rel 1; Rel 0])))
        1 (Th (ring_reads 1) tt [JMat (PLock 1)] (Some [Acq 1; Acq 0; Rel 0; Rel 1])))
        1 (Th (ring_reads 1) tt [JMat (PLock 1)] (Some [Acq 0; Rel 0; Rel 1])))
      (upd (upd (fun _ => None) 0 (Some 0)) 1 (Some 1)) []).
  split; [|split; [|split]].
  - intros [|[|i]]; [| |constructor].
    + eapply al_cons; [|reflexivity|constructor]. eexists. split; [reflexivity|]. split; [|reflexivity]. returns 40.
    + eapply al_cons; [|reflexivity|constructor]. eexists. split; [reflexivity|]. split; [|reflexivity]. returns 40.
  - eapply reach_step; [|apply (step_lock unit idle_handler ring (World _ _ _) 1 (ring_reads 1) tt [JMat (PLock 1)] 1 [Acq 0; Rel 0; Rel 1]); reflexivity].
    eapply reach_step; [|apply (step_begin unit idle_handler ring (World _ _ _) 1 (ring_reads 1) tt (JMat (PLock 1)) [] [Acq 1; Acq 0; Rel 0; Rel 1]); [reflexivity|]].
    2: { apply (lk_take ring _ 1 (PThen (PLit [98]%N) (POption (PLock 0))) [Acq 0; Rel 0] []); [apply takes_lock; constructor|reflexivity| |constructor].
         eapply (lk_take ring _ 0 _ [] []); [exact T1|reflexivity|constructor|constructor]. }
    eapply reach_step; [|apply (step_lock unit idle_handler ring (World _ _ _) 0 (ring_reads 0) tt [JMat (PLock 0)] 0 [Acq 1; Rel 1; Rel 0]); reflexivity].
    eapply reach_step; [apply reach_start|]. apply (step_begin unit idle_handler ring (start ring_reads no_st ring_asks) 0 (ring_reads 0) tt (JMat (PLock 0)) [] [Acq 0; Acq 1; Rel 1; Rel 0]); [reflexivity|].
    apply (lk_take ring _ 0 (PThen (PLit [97]%N) (POption (PLock 1))) [Acq 1; Rel 1] []); [apply takes_lock; constructor|reflexivity| |constructor].
    eapply (lk_take ring _ 1 _ [] []); [exact T0|reflexivity|constructor|constructor].
  - intros [|[|i]] Hi; [discriminate|discriminate|lia].
  - intros g' T. inversion T; subst; clear T; cbn [th owner] in *.
    all: match goal with E : _ ?i = Th _ _ _ _ |- _ => destruct i as [|[|i]] end; cbn in *; try discriminate.
    all: match goal with E : _ = Th _ _ _ _ |- _ => inversion E; subst; clear E end; cbn in *; discriminate.
Qed.

Print Assumptions C85_no_deadlock.
Print Assumptions C85_finite.
Print Assumptions C85_alone.
Print Assumptions C85_answers.
Print Assumptions C85_released.
Print Assumptions C85_locks.
Print Assumptions C85_cycle_refuted.
