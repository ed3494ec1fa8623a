(** Threads that share parsers behind mutexes get what they would get one after the other (C80). *)

From Coq Require Import List Arith NArith Bool Lia.
From Verif Require Import Base Text Context Neu Syntax Regex Ctor Api TextProofs Spec Core Obs Laws ApiLaws MutexPar Samples.
Import ListNotations.

Lemma upd_same {A} (f : nat -> A) i v : upd f i v i = v.
Proof. unfold upd. now rewrite Nat.eqb_refl. Qed.
Lemma upd_other {A} (f : nat -> A) i v x : x <> i -> upd f i v x = f x.
Proof. unfold upd. intros H. apply Nat.eqb_neq in H. now rewrite H. Qed.

Section Proofs.
  Variable S : Type.
  Variable h : handler S.
  Variable G : env.
  Variable cell : nat -> pat.
  Variable c0 : nat -> ctx.
  Variable s0 : nat -> S.
  Variable work : nat -> list job.
  Notation Call := (Call h G cell).
  Notation Refused := (Refused h G).
  Notation step := (step h G cell).
  Notation Reachable := (Reachable h G cell c0 s0 work).
  Notation OneByOne := (OneByOne h G cell c0 s0 work).
  Notation Alone := (Alone h G cell).
  Notation world := (world S).
  Notation event := (event S).

  (** Thread [i] holds the mutex [m]. *)
  Definition inside (g : world) (i m : nat) : Prop :=
    t_in (th g i) = true /\ exists j js, t_jobs (th g i) = j :: js /\ target j = m.

  Record good (g : world) : Prop := {
    g_lock : forall i m, inside g i m -> locked g m = true;
    g_one : forall i i' m, inside g i m -> inside g i' m -> i = i';
    g_held : forall m, locked g m = true -> exists i, inside g i m;
    g_bad : forall i m, inside g i m -> poisoned g m = false;
    g_job : forall i, t_in (th g i) = true -> t_jobs (th g i) <> [] }.

  Lemma inside_out ths lk po hi i c s js x m : inside (World (upd ths i (Th c s js false)) lk po hi) x m ->
    x <> i /\ inside (World ths lk po hi) x m.
  Proof.
    unfold inside. cbn. destruct (Nat.eq_dec x i) as [->|N].
    - rewrite upd_same. cbn. intros [H _]. discriminate H.
    - rewrite upd_other by exact N. auto.
  Qed.
  Lemma inside_th ths lk po hi lk' po' hi' i m :
    inside (World ths lk po hi) i m -> inside (World ths lk' po' hi') i m.
  Proof. exact (fun H => H). Qed.

  Lemma good_step g g' : good g -> step g g' -> good g'.
  Proof.
    intros [GL GO GH GB GJ] H. destruct H as [g i t j js Et I J L P|g i t j js a c' s' Et I J L P R|g i t j js a c' s' Et I J R Z|g i t j js a c' s' Et I J R Z].
    - assert (X : forall x m, inside (World (upd (th g) i (Th (t_ctx t) (t_st t) (j :: js) true)) (upd (locked g) (target j) true) (poisoned g) (hist g)) x m ->
        (x = i /\ m = target j) \/ (x <> i /\ inside g x m)).
      { intros x m [H1 (j' & js' & H2 & H3)]. cbn in H1, H2. destruct (Nat.eq_dec x i) as [->|N].
        - left. rewrite upd_same in H2. cbn in H2. injection H2 as <- <-. auto.
        - right. rewrite upd_other in H1, H2 by exact N. split; [exact N|]. split; [exact H1|eauto]. }
      split; cbn.
      + intros x m H. destruct (X x m H) as [[-> ->]|[N H']]; [apply upd_same|].
        unfold upd. destruct (m =? target j); [reflexivity|]. eauto.
      + intros x x' m H H'. destruct (X x m H) as [[-> ->]|[N K]]; destruct (X x' _ H') as [[-> M]|[N' K']].
        * reflexivity.
        * apply GL in K'. congruence.
        * subst m. apply GL in K. congruence.
        * eauto.
      + intros m H. destruct (Nat.eq_dec m (target j)) as [->|N].
        * exists i. split; cbn; rewrite upd_same; cbn; eauto.
        * rewrite upd_other in H by exact N. destruct (GH m H) as [x [K1 K2]].
          assert (x <> i) by (intros ->; congruence).
          exists x. split; cbn; rewrite upd_other by assumption; auto.
      + intros x m H. destruct (X x m H) as [[-> ->]|[N H']]; eauto.
      + intros x. destruct (Nat.eq_dec x i) as [->|N]; [rewrite upd_same; cbn; discriminate|].
        rewrite upd_other by exact N. apply GJ.
    - split; cbn.
      + intros x m H. apply inside_out in H. destruct H as [_ H]. eapply GL; exact H.
      + intros x x' m H H'. apply inside_out in H, H'. destruct H as [_ H], H' as [_ H']. eapply GO; [exact H|exact H'].
      + intros m H. destruct (GH m H) as [x [K1 K2]]. assert (x <> i) by (intros ->; congruence).
        exists x. split; cbn; rewrite upd_other by assumption; auto.
      + intros x m H. apply inside_out in H. destruct H as [_ H]. eapply GB; exact H.
      + intros x. destruct (Nat.eq_dec x i) as [->|N]; [rewrite upd_same; cbn; discriminate|].
        rewrite upd_other by exact N. apply GJ.
    - assert (IJ : inside g i (target j)) by (split; [congruence|]; rewrite Et; eauto).
      split; cbn.
      + intros x m H. apply inside_out in H. destruct H as [N H].
        rewrite upd_other; [eapply GL; exact H|]. intros ->. apply N. eapply GO; [exact H|exact IJ].
      + intros x x' m H H'. apply inside_out in H, H'. destruct H as [_ H], H' as [_ H']. eapply GO; [exact H|exact H'].
      + intros m H. destruct (Nat.eq_dec m (target j)) as [->|N]; [rewrite upd_same in H; discriminate H|].
        rewrite upd_other in H by exact N. destruct (GH m H) as [x [K1 K2]].
        assert (x <> i). { intros ->. destruct K2 as (j' & js' & K2 & K3). rewrite Et in K2. congruence. }
        exists x. split; cbn; rewrite upd_other by assumption; auto.
      + intros x m H. apply inside_out in H. destruct H as [_ H]. eapply GB; exact H.
      + intros x. destruct (Nat.eq_dec x i) as [->|N]; [rewrite upd_same; cbn; discriminate|].
        rewrite upd_other by exact N. apply GJ.
    - assert (IJ : inside g i (target j)) by (split; [congruence|]; rewrite Et; eauto).
      split; cbn.
      + intros x m H. apply inside_out in H. destruct H as [N H].
        rewrite upd_other; [eapply GL; exact H|]. intros ->. apply N. eapply GO; [exact H|exact IJ].
      + intros x x' m H H'. apply inside_out in H, H'. destruct H as [_ H], H' as [_ H']. eapply GO; [exact H|exact H'].
      + intros m H. destruct (Nat.eq_dec m (target j)) as [->|N]; [rewrite upd_same in H; discriminate H|].
        rewrite upd_other in H by exact N. destruct (GH m H) as [x [K1 K2]].
        assert (x <> i). { intros ->. destruct K2 as (j' & js' & K2 & K3). rewrite Et in K2. congruence. }
        exists x. split; cbn; rewrite upd_other by assumption; auto.
      + intros x m H. apply inside_out in H. destruct H as [N H].
        rewrite upd_other; [eapply GB; exact H|]. intros ->. apply N. eapply GO; [exact H|exact IJ].
      + intros x. destruct (Nat.eq_dec x i) as [->|N]; [rewrite upd_same; cbn; discriminate|].
        rewrite upd_other by exact N. apply GJ.
  Qed.

  Lemma reach_good g : Reachable g -> good g.
  Proof.
    induction 1; [|eapply good_step; eauto].
    split; cbn; try discriminate; intros; match goal with H : inside _ _ _ |- _ => destruct H as [H _]; discriminate H end.
  Qed.


  (** The finished calls, in the order in which they finished, are calls made one after the other:
      each gets the answer the parser inside gives to this thread's context when nobody else is there,
      or the answer of a mutex that an earlier call has left by a panic. *)
  Lemma c80_serial : forall g, Reachable g -> exists q, OneByOne (rev (hist g)) q /\
    (forall i, q_ctx q i = t_ctx (th g i) /\ q_st q i = t_st (th g i) /\ q_jobs q i = t_jobs (th g i)) /\
    (forall m, q_bad q m <-> poisoned g m = true).
  Proof.
    intros g H. induction H as [|g g' R IH T].
    - exists (Seq c0 s0 work (fun _ => False)). split; [constructor|]. split; [cbn; auto|].
      cbn. intros m. split; [contradiction|discriminate].
    - pose proof (reach_good g R) as GG. destruct IH as (q & Q & F & B).
      destruct T as [g i t j js Et I J L P|g i t j js a c' s' Et I J L P K|g i t j js a c' s' Et I J K Z|g i t j js a c' s' Et I J K Z];
        cbn [hist rev]; destruct (F i) as (F1 & F2 & F3); rewrite Et in F1, F2, F3.
      + exists q. split; [exact Q|]. split; [|exact B]. intros x. cbn. destruct (Nat.eq_dec x i) as [->|N].
        * rewrite upd_same. cbn. rewrite <- J. auto.
        * rewrite upd_other by exact N. apply F.
      + eexists. split; [rewrite <- F1, <- F2; eapply (obo_refused S h G cell c0 s0 work _ q i j js); eauto|].
        * congruence.
        * now apply B.
        * now rewrite F1, F2.
        * split; [|exact B]. intros x. cbn. destruct (Nat.eq_dec x i) as [->|N]; [rewrite !upd_same|rewrite !upd_other by exact N]; cbn; auto.
      + assert (NB : ~ q_bad q (target j)).
        { intros X. apply B in X. assert (inside g i (target j)) as IJ by (split; [congruence|]; rewrite Et; eauto).
          apply (g_bad g GG) in IJ. congruence. }
        eexists. split; [rewrite <- F1, <- F2; eapply (obo_call S h G cell c0 s0 work _ q i j js); eauto|].
        * congruence.
        * now rewrite F1, F2.
        * split; [|exact B]. intros x. cbn. destruct (Nat.eq_dec x i) as [->|N]; [rewrite !upd_same|rewrite !upd_other by exact N]; cbn; auto.
      + assert (NB : ~ q_bad q (target j)).
        { intros X. apply B in X. assert (inside g i (target j)) as IJ by (split; [congruence|]; rewrite Et; eauto).
          apply (g_bad g GG) in IJ. congruence. }
        eexists. split; [rewrite <- F1, <- F2; eapply (obo_panic S h G cell c0 s0 work _ q i j js); eauto|].
        * congruence.
        * now rewrite F1, F2.
        * split.
          -- intros x. cbn. destruct (Nat.eq_dec x i) as [->|N]; [rewrite !upd_same|rewrite !upd_other by exact N]; cbn; auto.
          -- intros m. cbn. rewrite B. destruct (Nat.eq_dec m (target j)) as [->|N]; [rewrite upd_same; intuition|].
             rewrite upd_other by exact N. intuition.
  Qed.

  (** At most one thread is inside a parser. *)
  Lemma c80_exclusive : forall g i i' m, Reachable g -> inside g i m -> inside g i' m -> i = i'.
  Proof. intros g i i' m R. exact (g_one g (reach_good g R) i i' m). Qed.

  Definition panicked_on (m : nat) (e : event) : Prop := panicked (e_ans e) = true /\ target (e_job e) = m.

  Lemma refused_calm j c s a c' s' : Refused j c s a c' s' ->
    a = match j with JMat _ => AMat (Err EMutex) | JCtor _ => ACtor (Err EMutex) end /\ c' = c /\ s' = s.
  Proof.
    destruct j as [m|m]; intros (r & -> & H).
    - destruct H as [(n & E & NF) ->]. destruct n as [|n]; cbn in E; injection E as <- <-; [easy|auto].
    - destruct H as (n & E & NF). destruct n as [|n]; cbn in E; injection E as <- <- <-; [easy|auto].
  Qed.
  Lemma refused_on j c s : exists a c' s', Refused j c s a c' s'.
  Proof.
    destruct j as [m|m].
    - exists (AMat (Err EMutex)), c, s, (Err EMutex). split; [reflexivity|]. split; [|reflexivity].
      exists 1. split; [reflexivity|discriminate].
    - exists (ACtor (Err EMutex)), c, s, (Err EMutex). split; [reflexivity|].
      exists 1. split; [reflexivity|discriminate].
  Qed.

  Lemma bad_events l q m : OneByOne l q -> (q_bad q m <-> exists e, In e l /\ panicked_on m e).
  Proof.
    induction 1 as [|l q i j js a c' s' O IH J B K Z|l q i j js a c' s' O IH J B K Z|l q i j js a c' s' O IH J B K]; cbn [q_bad].
    - split; [contradiction|]. intros (e & [] & _).
    - rewrite IH. split; intros (e & I & P); exists e; (split; [|exact P]); [apply in_or_app; auto|].
      apply in_app_or in I. destruct I as [I|[<-|[]]]; [exact I|]. destruct P as [P _]. cbn in P. congruence.
    - rewrite IH. split.
      + intros [->|(e & I & P)].
        * eexists. split; [apply in_or_app; right; left; reflexivity|]. split; [exact Z|reflexivity].
        * exists e. split; [apply in_or_app; auto|exact P].
      + intros (e & I & P). apply in_app_or in I. destruct I as [I|[<-|[]]]; [right; eauto|left].
        destruct P as [_ P]. now cbn in P.
    - rewrite IH. split; intros (e & I & P); exists e; (split; [|exact P]); [apply in_or_app; auto|].
      apply in_app_or in I. destruct I as [I|[<-|[]]]; [exact I|]. destruct P as [P _]. cbn in P.
      destruct (refused_calm _ _ _ _ _ _ K) as [-> _]. now destruct j.
  Qed.

  (** The [n]-th finished call is refused if and only if an earlier one of the same mutex panicked; a
      refused call returns [Error::Mutex], and context and handler are untouched; every other call
      gets the answer of the parser inside. *)
  Definition answered (before : list event) (e : event) : Prop :=
    let (i, j, c, s, a, c', s') := e in
    ((exists b, In b before /\ panicked_on (target j) b) /\
      a = match j with JMat _ => AMat (Err EMutex) | JCtor _ => ACtor (Err EMutex) end /\ c' = c /\ s' = s) \/
    (~ (exists b, In b before /\ panicked_on (target j) b) /\ Call j c s a c' s').

  Lemma answered_all l q : OneByOne l q -> forall l1 e l2, l = l1 ++ e :: l2 -> answered l1 e.
  Proof.
    induction 1 as [|l q i j js a c' s' O IH J B K Z|l q i j js a c' s' O IH J B K Z|l q i j js a c' s' O IH J B K]; intros l1 e l2 E.
    - destruct l1; discriminate E.
    - assert (C : l2 = [] \/ exists l3 x, l2 = l3 ++ [x]) by (induction l2 using rev_ind; eauto).
      destruct C as [->|(l3 & x & ->)].
      + apply app_inj_tail in E. destruct E as [<- <-]. right. now rewrite <- (bad_events _ _ _ O).
      + rewrite app_comm_cons, app_assoc in E. apply app_inj_tail in E. destruct E as [E _]. eauto.
    - assert (C : l2 = [] \/ exists l3 x, l2 = l3 ++ [x]) by (induction l2 using rev_ind; eauto).
      destruct C as [->|(l3 & x & ->)].
      + apply app_inj_tail in E. destruct E as [<- <-]. right. now rewrite <- (bad_events _ _ _ O).
      + rewrite app_comm_cons, app_assoc in E. apply app_inj_tail in E. destruct E as [E _]. eauto.
    - assert (C : l2 = [] \/ exists l3 x, l2 = l3 ++ [x]) by (induction l2 using rev_ind; eauto).
      destruct C as [->|(l3 & x & ->)].
      + apply app_inj_tail in E. destruct E as [<- <-]. left. rewrite <- (bad_events _ _ _ O).
        split; [exact B|]. now apply refused_calm.
      + rewrite app_comm_cons, app_assoc in E. apply app_inj_tail in E. destruct E as [E _]. eauto.
  Qed.

  Lemma c80_poison : forall g l1 e l2, Reachable g -> rev (hist g) = l1 ++ e :: l2 -> answered l1 e.
  Proof. intros g l1 e l2 R E. destruct (c80_serial g R) as (q & Q & _). eapply answered_all; eauto. Qed.

  (** So a parser behind a mutex panics at most once. *)
  Lemma c80_one_panic : forall g l1 e l2 e' l3 m, Reachable g ->
    rev (hist g) = l1 ++ e :: l2 ++ e' :: l3 -> panicked_on m e -> panicked_on m e' -> False.
  Proof.
    intros g l1 e l2 e' l3 m R E P P'.
    assert (A : answered (l1 ++ e :: l2) e') by (eapply (c80_poison g _ e' l3 R); rewrite E, <- app_assoc; reflexivity).
    destruct e' as [i j c s a c' s']. destruct P' as [P1 P2]. cbn in P1, P2, A.
    destruct A as [(_ & -> & _)|[N _]]; [destruct j; discriminate P1|].
    apply N. exists e. split; [apply in_or_app; right; left; reflexivity|]. now rewrite P2.
  Qed.

  (** ** Nobody waits for ever *)

  (** If some call is not finished and every parser that a thread is inside of answers, a thread can
      go on. *)
  Lemma c80_progress : forall g, Reachable g -> (exists i, t_jobs (th g i) <> []) ->
    (forall i j js, t_in (th g i) = true -> t_jobs (th g i) = j :: js ->
       exists a c' s', Call j (t_ctx (th g i)) (t_st (th g i)) a c' s') ->
    exists g', step g g'.
  Proof.
    intros g R [i J] T. pose proof (reach_good g R) as GG.
    assert (L : forall i, t_in (th g i) = true -> exists g', step g g').
    { intros x I. pose proof (g_job g GG x I) as NE. destruct (t_jobs (th g x)) as [|j js] eqn:E; [easy|].
      destruct (T x j js I E) as (a & c' & s' & K). destruct (panicked a) eqn:Z.
      - eexists. eapply step_crash; eauto.
      - eexists. eapply step_leave; eauto. }
    destruct (t_in (th g i)) eqn:I; [eauto|].
    destruct (t_jobs (th g i)) as [|j js] eqn:E; [easy|].
    destruct (locked g (target j)) eqn:K.
    - destruct (g_held g GG _ K) as [x [X _]]. eauto.
    - destruct (poisoned g (target j)) eqn:P.
      + destruct (refused_on j (t_ctx (th g i)) (t_st (th g i))) as (a & c' & s' & Q).
        eexists. eapply step_refuse; eauto.
      + eexists. eapply step_enter; eauto.
  Qed.

  (** With [n] threads the threads stop after at most two steps per call. *)
  Inductive Steps : nat -> world -> Prop :=
  | steps_0 : Steps 0 (start c0 s0 work)
  | steps_S n g g' : Steps n g -> step g g' -> Steps (Datatypes.S n) g'.
  Fixpoint total (f : nat -> nat) (n : nat) : nat := match n with 0 => 0 | Datatypes.S n => f n + total f n end.
  Definition left (g : world) (i : nat) : nat := 2 * length (t_jobs (th g i)) - if t_in (th g i) then 1 else 0.

  Lemma total_one f f' n i : i < n -> (forall x, x <> i -> f' x = f x) -> f' i < f i -> total f' n < total f n.
  Proof.
    induction n as [|n IH]; intros Hi E L; [lia|]. cbn.
    destruct (Nat.eq_dec i n) as [->|N].
    - assert (total f' n = total f n); [|lia]. clear - E. assert (forall x, x < n -> f' x = f x) as E' by (intros; apply E; lia).
      clear E. induction n; cbn; [reflexivity|]. rewrite E', IHn; auto.
    - rewrite (E n) by lia. specialize (IH ltac:(lia) E L). lia.
  Qed.

  Lemma steps_reach n g : Steps n g -> Reachable g.
  Proof. induction 1; [constructor|eapply reach_step; eauto]. Qed.

  Lemma c80_bounded : forall n k g, (forall i, n <= i -> work i = []) -> Steps k g ->
    k <= 2 * total (fun i => length (work i)) n.
  Proof.
    intros n k g W H.
    assert (A : k + total (left g) n <= 2 * total (fun i => length (work i)) n /\ forall i, n <= i -> t_jobs (th g i) = []).
    { induction H as [|k g g' H IH T].
      - split; [|exact W]. unfold left. cbn. clear. induction n; cbn; [lia|]. lia.
      - destruct IH as [IH1 IH2].
        assert (D : exists i, i < n /\ (forall x, x <> i -> th g' x = th g x) /\ left g' i < left g i /\ (forall x, n <= x -> x <> i)).
        { destruct T as [g i t j js Et I J L P|g i t j js a c' s' Et I J L P K|g i t j js a c' s' Et I J K Z|g i t j js a c' s' Et I J K Z].
          all: exists i; assert (IN : i < n) by (destruct (Nat.lt_ge_cases i n) as [Q|Q]; [exact Q|]; specialize (IH2 i Q); congruence).
          all: split; [exact IN|]; split; [intros x N; cbn; now rewrite upd_other|]; split; [|intros x Hx ->; lia].
          all: unfold left; cbn; rewrite upd_same; rewrite Et; cbn; rewrite I, J; cbn; lia. }
        destruct D as (i & D1 & D2 & D3 & D4). split.
        + assert (total (left g') n < total (left g) n); [|lia]. apply (total_one _ _ n i); auto.
          intros x N. unfold left. now rewrite D2.
        + intros x Hx. rewrite D2 by auto. auto. }
    lia.
  Qed.

  (** ** Sharing is invisible *)

  Lemma call_det j c s a c' s' a1 c1 s1 : Call j c s a c' s' -> Call j c s a1 c1 s1 -> a = a1 /\ c' = c1 /\ s' = s1.
  Proof.
    destruct j as [m|m]; cbn.
    - intros (r & -> & A & ->) (r1 & -> & B & ->). destruct (returns_det _ _ _ _ _ _ _ _ A B) as [-> ->]. auto.
    - intros (r & -> & A) (r1 & -> & B). destruct (builds_det _ _ _ _ _ _ _ _ _ _ _ _ A B) as (-> & -> & ->). auto.
  Qed.

  Definition of_thread (i : nat) (l : list event) : list event := filter (fun e => e_who e =? i) l.

  (** If no thread would panic on its own, then however the threads are scheduled, each sees the answers
      it would get alone, in its own order, and ends with the same context and handler. *)
  Lemma c80_alone : forall (l : nat -> list event) c s,
    (forall i, Alone i (work i) (c0 i) (s0 i) (l i) (c i) (s i)) ->
    forall g, Reachable g -> forall i,
    (exists rest, l i = of_thread i (rev (hist g)) ++ rest) /\
    (t_jobs (th g i) = [] -> l i = of_thread i (rev (hist g)) /\ t_ctx (th g i) = c i /\ t_st (th g i) = s i).
  Proof.
    intros l c s A g R. destruct (c80_serial g R) as (q & Q & F & _).
    assert (I : (forall m, ~ q_bad q m) /\ forall i, exists rest,
      l i = of_thread i (rev (hist g)) ++ rest /\ Alone i (q_jobs q i) (q_ctx q i) (q_st q i) rest (c i) (s i)).
    { clear F R. remember (rev (hist g)) as hs eqn:E. clear E g.
      induction Q as [|hs q i j js a c' s' O IH J B K Z|hs q i j js a c' s' O IH J B K Z|hs q i j js a c' s' O IH J B K].
      - split; [auto|]. intros i. exists (l i). split; [reflexivity|]. apply A.
      - destruct IH as [IB IH]. split; [exact IB|]. intros x. destruct (IH x) as (rest & E & AL).
        unfold of_thread. rewrite filter_app. fold (of_thread x hs). cbn [filter e_who]. cbn [q_jobs q_ctx q_st].
        destruct (Nat.eq_dec x i) as [->|N].
        + rewrite Nat.eqb_refl, !upd_same. rewrite J in AL. inversion AL; subst.
          match goal with H : Call j _ _ _ _ _ |- _ => destruct (call_det _ _ _ _ _ _ _ _ _ K H) as (<- & <- & <-) end.
          eexists. split; [rewrite <- app_assoc; cbn [app]; exact E|]. assumption.
        + rewrite !upd_other by exact N. rewrite (proj2 (Nat.eqb_neq i x)) by auto. rewrite app_nil_r. eauto.
      - destruct IH as [IB IH]. destruct (IH i) as (rest & _ & AL). rewrite J in AL. inversion AL; subst.
        match goal with H : Call j _ _ _ _ _ |- _ => destruct (call_det _ _ _ _ _ _ _ _ _ K H) as (<- & <- & <-) end. congruence.
      - destruct IH as [IB IH]. now destruct (IB (target j)). }
    destruct I as [_ I]. intros i. destruct (I i) as (rest & E & AL). destruct (F i) as (F1 & F2 & F3).
    split; [eauto|]. intros J. rewrite F1, F2, F3, J in AL. inversion AL; subst. rewrite app_nil_r in E. auto.
  Qed.
End Proofs.

(** ** C80 *)

(** The finished calls, in the order in which they finished, are calls made one after the other:
    each gets the answer the parser inside gives to this thread's context when nobody else is there,
    or the answer of a mutex that an earlier call has left by a panic. *)
Theorem C80_serial : forall S (h : handler S) G cell c0 s0 work g, Reachable h G cell c0 s0 work g ->
  exists q, OneByOne h G cell c0 s0 work (rev (hist g)) q /\
    (forall i, q_ctx q i = t_ctx (th g i) /\ q_st q i = t_st (th g i) /\ q_jobs q i = t_jobs (th g i)) /\
    (forall m, q_bad q m <-> poisoned g m = true).
Proof. exact c80_serial. Qed.

(** At most one thread is inside a parser. *)
Theorem C80_exclusive : forall S (h : handler S) G cell c0 s0 work g i i' m, Reachable h G cell c0 s0 work g ->
  inside S g i m -> inside S g i' m -> i = i'.
Proof. exact c80_exclusive. Qed.

(** A finished call was refused if and only if an earlier one of the same mutex panicked; a refused
    call returns [Error::Mutex], context and handler untouched; every other call gets the answer of
    the parser inside. *)
Theorem C80_poison : forall S (h : handler S) G cell c0 s0 work g l1 e l2, Reachable h G cell c0 s0 work g ->
  rev (hist g) = l1 ++ e :: l2 -> answered S h G cell l1 e.
Proof. exact c80_poison. Qed.

(** So a parser behind a mutex panics at most once. *)
Theorem C80_one_panic : forall S (h : handler S) G cell c0 s0 work g l1 e l2 e' l3 m, Reachable h G cell c0 s0 work g ->
  rev (hist g) = l1 ++ e :: l2 ++ e' :: l3 -> panicked_on S m e -> panicked_on S m e' -> False.
Proof. exact c80_one_panic. Qed.

(** If some call is not finished and every parser that a thread is inside of answers, a thread can go
    on. *)
Theorem C80_progress : forall S (h : handler S) G cell c0 s0 work g, Reachable h G cell c0 s0 work g ->
  (exists i, t_jobs (th g i) <> []) ->
  (forall i j js, t_in (th g i) = true -> t_jobs (th g i) = j :: js ->
     exists a c' s', Call h G cell j (t_ctx (th g i)) (t_st (th g i)) a c' s') ->
  exists g', step h G cell g g'.
Proof. exact c80_progress. Qed.

(** [n] threads have stopped after at most two steps per call. *)
Theorem C80_bounded : forall S (h : handler S) G cell c0 s0 work n k g, (forall i, n <= i -> work i = []) ->
  Steps S h G cell c0 s0 work k g -> k <= 2 * total (fun i => length (work i)) n.
Proof. exact c80_bounded. Qed.

(** If no thread would panic on its own, then however the threads are scheduled, each sees the answers
    it would get alone, in its own order, and ends with the same context and handler. *)
Theorem C80_alone : forall S (h : handler S) G cell c0 s0 work (l : nat -> list (event S)) c s,
  (forall i, Alone h G cell i (work i) (c0 i) (s0 i) (l i) (c i) (s i)) ->
  forall g, Reachable h G cell c0 s0 work g -> forall i,
  (exists rest, l i = of_thread S i (rev (hist g)) ++ rest) /\
  (t_jobs (th g i) = [] -> l i = of_thread S i (rev (hist g)) /\ t_ctx (th g i) = c i /\ t_st (th g i) = s i).
Proof. exact c80_alone. Qed.

(** Three threads share a parser of digits; the handler of the second panics while it is inside.  The
    first call is answered, the third refused. *)
Definition panicky : handler bool := fun _ s b => (if b then Panic else Ok (VSpan s), b).
Definition shared (m : nat) : pat := number.
Definition texts (i : nat) : ctx := cx KStr [49; 50]%N 0.
Definition tempers (i : nat) : bool := i =? 1.
Definition asks (i : nat) : list job :=
  match i with 0 => [JMat 0] | 1 => [JCtor 0] | 2 => [JMat 0; JMat 1] | _ => [] end.
Notation three := (Reachable panicky [] shared texts tempers asks).

Lemma number_call m : Call panicky [] shared (JMat m) (texts 0) false (AMat (Ok (sp KStr [49; 50]%N 0 2))) (cx KStr [49; 50]%N 2) false.
Proof. eexists. split; [reflexivity|]. split; [|reflexivity]. returns 9. Qed.
Lemma panic_call m : Call panicky [] shared (JCtor m) (texts 1) true (ACtor Panic) (cx KStr [49; 50]%N 2) true.
Proof. eexists. split; [reflexivity|]. exists 9. split; [vm_compute; reflexivity|discriminate]. Qed.
Lemma number_refused m c : Refused panicky [] (JMat m) c false (AMat (Err EMutex)) c false.
Proof. eexists. split; [reflexivity|]. split; [|reflexivity]. exists 1. split; [reflexivity|discriminate]. Qed.

(** The worlds after a step, written out. *)
Section Runs.
  Variable work : nat -> list job.
  Notation R := (Reachable panicky [] shared texts tempers work).
  Definition do_enter (g : world bool) i j js c s : world bool :=
    World (upd (th g) i (Th c s (j :: js) true)) (upd (locked g) (target j) true) (poisoned g) (hist g).
  Definition do_refuse (g : world bool) i j js c s a : world bool :=
    World (upd (th g) i (Th c s js false)) (locked g) (poisoned g) (Ev i j c s a c s :: hist g).
  Definition do_leave (g : world bool) i j js c s a c' s' : world bool :=
    World (upd (th g) i (Th c' s' js false)) (upd (locked g) (target j) false) (poisoned g)
      (Ev i j c s a c' s' :: hist g).
  Definition do_crash (g : world bool) i j c s a c' s' : world bool :=
    World (upd (th g) i (Th c' s' [] false)) (upd (locked g) (target j) false)
      (upd (poisoned g) (target j) true) (Ev i j c s a c' s' :: hist g).
  Lemma r_enter g i j js c s : R g -> th g i = Th c s (j :: js) false ->
    locked g (target j) = false -> poisoned g (target j) = false -> R (do_enter g i j js c s).
  Proof. intros H E L P. eapply reach_step; [exact H|]. exact (step_enter bool panicky [] shared g i _ j js E eq_refl eq_refl L P). Qed.
  Lemma r_refuse g i j js c s a : R g -> th g i = Th c s (j :: js) false ->
    locked g (target j) = false -> poisoned g (target j) = true ->
    Refused panicky [] j c s a c s -> R (do_refuse g i j js c s a).
  Proof. intros H E L P K. eapply reach_step; [exact H|]. exact (step_refuse bool panicky [] shared g i _ j js a c s E eq_refl eq_refl L P K). Qed.
  Lemma r_leave g i j js c s a c' s' : R g -> th g i = Th c s (j :: js) true ->
    Call panicky [] shared j c s a c' s' -> panicked a = false -> R (do_leave g i j js c s a c' s').
  Proof. intros H E K Z. eapply reach_step; [exact H|]. exact (step_leave bool panicky [] shared g i _ j js a c' s' E eq_refl eq_refl K Z). Qed.
  Lemma r_crash g i j js c s a c' s' : R g -> th g i = Th c s (j :: js) true ->
    Call panicky [] shared j c s a c' s' -> panicked a = true -> R (do_crash g i j c s a c' s').
  Proof. intros H E K Z. eapply reach_step; [exact H|]. exact (step_crash bool panicky [] shared g i _ j js a c' s' E eq_refl eq_refl K Z). Qed.
End Runs.
Definition two : answer := AMat (Ok (sp KStr [49; 50]%N 0 2)).
Definition done : ctx := cx KStr [49; 50]%N 2.

Example C80_case : exists g, three g /\
  map e_ans (rev (hist g)) = [two; ACtor Panic; AMat (Err EMutex); two] /\
  (forall i, t_jobs (th g i) = []).
Proof.
  exists (do_leave (do_enter (do_refuse (do_crash (do_enter (do_leave (do_enter (start texts tempers asks)
    0 (JMat 0) [] (texts 0) false) 0 (JMat 0) [] (texts 0) false two done false)
    1 (JCtor 0) [] (texts 1) true) 1 (JCtor 0) (texts 1) true (ACtor Panic) done true)
    2 (JMat 0) [JMat 1] (texts 2) false (AMat (Err EMutex)))
    2 (JMat 1) [] (texts 2) false) 2 (JMat 1) [] (texts 2) false two done false).
  split; [|split; [reflexivity|intros [|[|[|i]]]; reflexivity]].
  apply r_leave; [|reflexivity|apply number_call|reflexivity].
  apply r_enter; [|reflexivity..].
  apply r_refuse; [|reflexivity|reflexivity|reflexivity|apply number_refused].
  apply r_crash with (js := []); [|reflexivity|apply panic_call|reflexivity].
  apply r_enter; [|reflexivity..].
  apply r_leave; [|reflexivity|apply number_call|reflexivity].
  apply r_enter; [|reflexivity..].
  apply reach_start.
Qed.

(** Two threads that would not panic alone. *)
Definition asks2 (i : nat) : list job := match i with 0 => [JMat 0] | 2 => [JMat 0] | _ => [] end.
Definition seen2 (i : nat) : list (event bool) :=
  match i with
  | 0 | 2 => [Ev i (JMat 0) (texts 0) false two done false]
  | _ => []
  end.
Definition end2 (i : nat) : ctx := match i with 0 | 2 => done | _ => texts i end.
Example C80_alone_case :
  (forall i, Alone panicky [] shared i (asks2 i) (texts i) (tempers i) (seen2 i) (end2 i) (tempers i)) /\
  exists g, Reachable panicky [] shared texts tempers asks2 g /\ map e_who (rev (hist g)) = [2; 0].
Proof.
  split.
  - intros [|[|[|i]]]; [eapply al_cons; [apply number_call|reflexivity|constructor]|constructor| |constructor].
    eapply al_cons; [apply number_call|reflexivity|constructor].
  - exists (do_leave (do_enter (do_leave (do_enter (start texts tempers asks2)
      2 (JMat 0) [] (texts 2) false) 2 (JMat 0) [] (texts 2) false two done false)
      0 (JMat 0) [] (texts 0) false) 0 (JMat 0) [] (texts 0) false two done false).
    split; [|reflexivity].
    apply r_leave; [|reflexivity|apply number_call|reflexivity].
    apply r_enter; [|reflexivity..].
    apply r_leave; [|reflexivity|apply number_call|reflexivity].
    apply r_enter; [|reflexivity..].
    apply reach_start.
Qed.

Print Assumptions C80_serial.
Print Assumptions C80_exclusive.
Print Assumptions C80_poison.
Print Assumptions C80_one_panic.
Print Assumptions C80_progress.
Print Assumptions C80_bounded.
Print Assumptions C80_alone.
