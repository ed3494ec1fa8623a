(** Threads that share units behind mutexes (C92).  [Reachable] (SharedUnit.v): every interleaving of the threads' steps;
    [Says], [Upto], [mlen], [mcells] there say what one question amounts to without threads and locks. *)

From Coq Require Import List Arith NArith Bool Lia.
From Verif Require Import Base Text Context Neu SharedUnit.
Import ListNotations.

(** The event is a closure's panic inside the mutex [m]. *)
Definition breaks (m : nat) (e : event) : Prop := e_end e = Broke m true.
(** The questions that had ended when [s] had. *)
Definition first_events (s : nat) (h : list event) : list event := skipn (length h - s) h.

Section Proofs.
  Variable w : kind.
  Variable cell : nat -> inner.
  Variable work : nat -> list job.
  Notation after := (after w cell).
  Notation Says := (Says cell).
  Notation Upto := (Upto cell).
  Notation Answers := (Answers w cell).
  Notation Asks := (Asks cell).
  Notation compile := (compile w).
  Notation step := (step w cell).

  Inductive Run : prog -> list nat -> prog -> Prop :=
  | run_here p : Run p [] p
  | run_step p m p1 l p2 : wants p = Some m -> after p = Some p1 -> Run p1 l p2 -> Run p (m :: l) p2.
  Lemma run_snoc p l p1 m p2 : Run p l p1 -> wants p1 = Some m -> after p1 = Some p2 -> Run p (l ++ [m]) p2.
  Proof.
    induction 1; intros W A; cbn [app].
    - eapply run_step; eauto. constructor.
    - eapply run_step; eauto.
  Qed.
  Lemma run_done a l p : Run (Done a) l p -> l = [] /\ p = Done a.
  Proof. intros R. inversion R; subst; [auto|discriminate]. Qed.

  Lemma run_matching t x : forall k l p, Run (matching t x k) l p ->
    (exists l1 l2 b, Says t x l1 b /\ l = l1 ++ l2 /\ Run (k b) l2 p) \/ (exists m k', p = AskMatch m x k' /\ Upto t x l m).
  Proof.
    induction t as [u|m|a IH|a IHa b IHb|a IHa b IHb]; intros k l p R; cbn [matching] in R.
    - left. exists [], l, (is_match u x). split; [constructor|auto].
    - inversion R as [|? ? ? ? ? W A R']; subst.
      + right. exists m, k. split; [reflexivity|constructor].
      + cbn in W, A. injection W as <-. destruct (inner_match (cell m) x) as [b|] eqn:E; [|discriminate]. injection A as <-.
        left. exists [m], l0, b. split; [now constructor|auto].
    - destruct (IH _ _ _ R) as [(l1 & l2 & r & S & -> & R')|(m & k' & -> & U)].
      + left. exists l1, l2, (negb r). split; [now constructor|auto].
      + right. exists m, k'. split; [reflexivity|now constructor].
    - destruct (IHa _ _ _ R) as [(l1 & l2 & r & S & -> & R')|(m & k' & -> & U)]; [|right; exists m, k'; split; [reflexivity|now constructor]].
      destruct r.
      + left. exists l1, l2, true. split; [now constructor|auto].
      + destruct (IHb _ _ _ R') as [(l3 & l4 & r & S' & -> & R'')|(m & k' & -> & U)].
        * left. exists (l1 ++ l3), l4, r. split; [now constructor|]. split; [apply app_assoc|exact R''].
        * right. exists m, k'. split; [reflexivity|now apply up_or_r].
    - destruct (IHa _ _ _ R) as [(l1 & l2 & r & S & -> & R')|(m & k' & -> & U)]; [|right; exists m, k'; split; [reflexivity|now constructor]].
      destruct r.
      + destruct (IHb _ _ _ R') as [(l3 & l4 & r & S' & -> & R'')|(m & k' & -> & U)].
        * left. exists (l1 ++ l3), l4, r. split; [now constructor|]. split; [apply app_assoc|exact R''].
        * right. exists m, k'. split; [reflexivity|now apply up_and_r].
      + left. exists l1, l2, false. split; [now constructor|auto].
  Qed.
  Lemma run_sizing t : forall k l p, Run (sizing w t k) l p ->
    (exists l2, l = mcells t ++ l2 /\ Run (k (mlen w cell t)) l2 p) \/ (exists m k' l', p = AskLen m k' /\ mcells t = l ++ m :: l').
  Proof.
    induction t as [u|m|a IH|a IHa b IHb|a IHa b IHb]; intros k l p R; cbn [sizing] in R; cbn [mlen mcells].
    - left. exists l. auto.
    - inversion R as [|? ? ? ? ? W A R']; subst.
      + right. exists m, k, []. auto.
      + cbn in W, A. injection W as <-. injection A as <-. left. exists l0. auto.
    - destruct (IH _ _ _ R) as [(l2 & -> & R')|(m & k' & l' & -> & E)]; [left; eauto|right; eauto 6].
    - destruct (IHa _ _ _ R) as [(l2 & -> & R')|(m & k' & l' & -> & E)].
      + destruct (IHb _ _ _ R') as [(l3 & -> & R'')|(m & k' & l' & -> & E)].
        * left. exists l3. split; [apply app_assoc|exact R''].
        * right. exists m, k', l'. split; [reflexivity|]. rewrite E. apply app_assoc.
      + right. exists m, k', (l' ++ mcells b). split; [reflexivity|]. rewrite E, <- app_assoc. reflexivity.
    - destruct (IHa _ _ _ R) as [(l2 & -> & R')|(m & k' & l' & -> & E)].
      + destruct (IHb _ _ _ R') as [(l3 & -> & R'')|(m & k' & l' & -> & E)].
        * left. exists l3. split; [apply app_assoc|exact R''].
        * right. exists m, k', l'. split; [reflexivity|]. rewrite E. apply app_assoc.
      + right. exists m, k', (l' ++ mcells b). split; [reflexivity|]. rewrite E, <- app_assoc. reflexivity.
  Qed.

  Lemma run_answer j l a : Run (compile j) l (Done a) -> Answers j l a.
  Proof.
    destruct j as [t [x|]]; unfold SharedUnit.compile, SharedUnit.Answers; cbn [fst snd]; intros R.
    - apply run_matching in R as [(l1 & l2 & b & S & -> & R)|(m & k' & E & _)]; [|discriminate].
      apply run_done in R as [-> E]. injection E as ->. rewrite app_nil_r. eauto.
    - apply run_sizing in R as [(l2 & -> & R)|(m & k' & l' & E & _)]; [|discriminate].
      apply run_done in R as [-> E]. injection E as ->. rewrite app_nil_r. auto.
  Qed.
  Lemma run_asks j l p m : Run (compile j) l p -> wants p = Some m ->
    Asks j l m /\ (after p = None -> Panics cell j m).
  Proof.
    destruct j as [t [x|]]; unfold SharedUnit.compile, SharedUnit.Asks, Panics; cbn [fst snd]; intros R W.
    - apply run_matching in R as [(l1 & l2 & b & S & -> & R)|(m' & k' & -> & U)].
      + apply run_done in R as [_ ->]. discriminate.
      + cbn in W. injection W as ->. split; [exact U|]. cbn. destruct (inner_match (cell m) x); [discriminate|auto].
    - apply run_sizing in R as [(l2 & -> & R)|(m' & k' & l' & -> & E)].
      + apply run_done in R as [_ ->]. discriminate.
      + cbn in W. injection W as ->. split; [eauto|discriminate].
  Qed.

  Lemma says_det t x l b : Says t x l b -> forall l' b', Says t x l' b' -> l' = l /\ b' = b.
  Proof.
    induction 1; intros l2 b2 S; inversion S; subst.
    all: repeat match goal with IH : forall l b, SharedUnit.Says _ ?t ?x l b -> _, Q : SharedUnit.Says _ ?t ?x _ _ |- _ =>
      destruct (IH _ _ Q); clear Q end; split; congruence.
  Qed.
  Lemma answers_det j l a l' a' : Answers j l a -> Answers j l' a' -> l' = l /\ a' = a.
  Proof.
    destruct j as [t [x|]]; unfold SharedUnit.Answers; cbn [fst snd].
    - intros (b & -> & S) (b' & -> & S'). destruct (says_det _ _ _ _ S _ _ S') as [-> ->]. auto.
    - intros [-> ->] [-> ->]. auto.
  Qed.

  Definition fine (e : event) (h : list event) : Prop :=
    e_since e <= length h /\
    match e_end e with
    | Said a => exists l, Answers (e_job e) l a /\ forall m b, In m l -> In b (first_events (e_since e) h) -> ~ breaks m b
    | Broke m own => exists l, Asks (e_job e) l m /\ if own then Panics cell (e_job e) m else exists b, In b h /\ breaks m b
    end.
  Fixpoint all_fine (h : list event) : Prop := match h with [] => True | e :: h' => fine e h' /\ all_fine h' end.

  Record Inv (g : world) : Prop := {
    i_run : forall i j s l p b js, th g i = Busy j s l p b js ->
      Run (compile j) l p /\ s <= length (hist g) /\
      (forall m e, In m l -> In e (first_events s (hist g)) -> ~ breaks m e) /\
      (b = true -> exists m, wants p = Some m /\ locked g m = true /\ forall e, In e (first_events s (hist g)) -> ~ breaks m e);
    i_held : forall m, locked g m = true -> exists i j s l p js, th g i = Busy j s l p true js /\ wants p = Some m;
    i_one : forall i i' j j' s s' l l' p p' js js' m, th g i = Busy j s l p true js -> th g i' = Busy j' s' l' p' true js' ->
      wants p = Some m -> wants p' = Some m -> i = i';
    i_bad : forall m, poisoned g m = true <-> exists e, In e (hist g) /\ breaks m e;
    i_fine : all_fine (hist g) }.

  Lemma upd_same {A} (f : nat -> A) i v : upd f i v i = v.
  Proof. unfold upd. now rewrite Nat.eqb_refl. Qed.
  Lemma upd_other {A} (f : nat -> A) i v i' : i' <> i -> upd f i v i' = f i'.
  Proof. unfold upd. intros H. apply Nat.eqb_neq in H. now rewrite H. Qed.
  Lemma first_more s e h : s <= length h -> first_events s (e :: h) = first_events s h.
  Proof. intros H. unfold first_events. cbn [length]. replace (S (length h) - s) with (S (length h - s)) by lia. reflexivity. Qed.
  Lemma first_all h : first_events (length h) h = h.
  Proof. unfold first_events. now rewrite Nat.sub_diag. Qed.
  Lemma first_in s h e : In e (first_events s h) -> In e h.
  Proof. unfold first_events. intros I. rewrite <- (firstn_skipn (length h - s) h). apply in_or_app. now right. Qed.

  Ltac at_thread i' i := destruct (Nat.eq_dec i' i) as [->|?]; [rewrite upd_same in *|rewrite upd_other in * by assumption].

  Lemma inv_start : Inv (start work).
  Proof. constructor; cbn; try discriminate; auto. intros m. split; [discriminate|intros (e & [] & _)]. Qed.

  Lemma inv_step g g' : Inv g -> step g g' -> Inv g'.
  Proof.
    intros V ST. destruct ST as [g i j js T|g i j s l p js m T W L P|g i j s l p js m p' T W A|g i j s l p js m T W A|g i j s l p js m T W L P|g i j s l a js T].
    - destruct V as [V1 V2 V3 V4 V5]. constructor; cbn [th locked poisoned hist]; auto.
      + intros i' j' s' l' p' b' js' E. at_thread i' i; [|eauto]. injection E as <- <- <- <- <- <-.
        split; [constructor|]. split; [lia|]. split; [intros m e []|discriminate].
      + intros m H. destruct (V2 m H) as (i' & j' & s' & l' & p' & js' & E & W). exists i', j', s', l', p', js'. at_thread i' i; [congruence|auto].
      + intros i1 i2 j1 j2 s1 s2 l1 l2 p1 p2 js1 js2 m E1 E2. at_thread i1 i; [discriminate|]. at_thread i2 i; [discriminate|]. eapply V3; eauto.
    - pose proof (i_run _ V _ _ _ _ _ _ _ T) as (R & Hs & Hl & _). destruct V as [V1 V2 V3 V4 V5]. constructor; cbn [th locked poisoned hist]; auto.
      + intros i' j' s' l' p' b' js' E. at_thread i' i.
        * injection E as <- <- <- <- <- <-. split; [exact R|]. split; [exact Hs|]. split; [exact Hl|]. intros _. exists m. rewrite upd_same.
          split; [exact W|]. split; [reflexivity|]. intros e I B. apply first_in in I.
          assert (poisoned g m = true) by (apply V4; eauto). congruence.
        * destruct (V1 _ _ _ _ _ _ _ E) as (R' & Hs' & Hl' & Hb). split; [exact R'|]. split; [exact Hs'|]. split; [exact Hl'|].
          intros Eb. destruct (Hb Eb) as (m' & W' & L' & B'). exists m'. split; [exact W'|]. split; [|exact B'].
          unfold upd. destruct (m' =? m); auto.
      + intros m' H. destruct (Nat.eq_dec m' m) as [->|N].
        * exists i, j, s, l, p, js. rewrite upd_same. auto.
        * rewrite upd_other in H by assumption. destruct (V2 m' H) as (i' & j' & s' & l' & p' & js' & E & W'). exists i', j', s', l', p', js'.
          at_thread i' i; [congruence|auto].
      + assert (F : forall i' j' s' l' p' js', th g i' = Busy j' s' l' p' true js' -> wants p' = Some m -> False).
        { intros i' j' s' l' p' js' E W'. destruct (V1 _ _ _ _ _ _ _ E) as (_ & _ & _ & Hb). destruct (Hb eq_refl) as (m' & W2 & L' & _).
          congruence. }
        intros i1 i2 j1 j2 s1 s2 l1 l2 p1 p2 js1 js2 m' E1 E2 W1 W2. at_thread i1 i; at_thread i2 i; auto.
        * injection E1 as <- <- <- <- <-. exfalso. eapply F; [exact E2|congruence].
        * injection E2 as <- <- <- <- <-. exfalso. eapply F; [exact E1|congruence].
        * eapply V3; eauto.
    - pose proof (i_run _ V _ _ _ _ _ _ _ T) as (R & Hs & Hl & Hb). destruct (Hb eq_refl) as (m0 & W0 & L0 & B0).
      assert (m0 = m) by congruence. subst m0. destruct V as [V1 V2 V3 V4 V5]. constructor; cbn [th locked poisoned hist]; auto.
      + intros i' j' s' l' q' b' js' E. at_thread i' i.
        * injection E as <- <- <- <- <- <-. split; [eapply run_snoc; eauto|]. split; [exact Hs|]. split; [|discriminate].
          intros m' e I. apply in_app_or in I as [I|[<-|[]]]; eauto.
        * destruct (V1 _ _ _ _ _ _ _ E) as (R' & Hs' & Hl' & Hb'). split; [exact R'|]. split; [exact Hs'|]. split; [exact Hl'|].
          intros ->. destruct (Hb' eq_refl) as (m' & W' & L' & B'). exists m'. split; [exact W'|]. split; [|exact B'].
          destruct (Nat.eq_dec m' m) as [->|N]; [|now rewrite upd_other]. exfalso. apply n. eapply V3; eauto.
      + intros m' H. destruct (Nat.eq_dec m' m) as [->|N]; [rewrite upd_same in H; discriminate|]. rewrite upd_other in H by assumption.
        destruct (V2 m' H) as (i' & j' & s' & l' & q' & js' & E & W'). exists i', j', s', l', q', js'. at_thread i' i; [congruence|auto].
      + intros i1 i2 j1 j2 s1 s2 l1 l2 p1 p2 js1 js2 m' E1 E2. at_thread i1 i; [discriminate|]. at_thread i2 i; [discriminate|]. eapply V3; eauto.
    - pose proof (i_run _ V _ _ _ _ _ _ _ T) as (R & Hs & Hl & Hb).
      destruct V as [V1 V2 V3 V4 V5]. constructor; cbn [th locked poisoned hist].
      + intros i' j' s' l' q' b' js' E. at_thread i' i; [discriminate|].
        destruct (V1 _ _ _ _ _ _ _ E) as (R' & Hs' & Hl' & Hb'). rewrite first_more by assumption. cbn [length].
        split; [exact R'|]. split; [lia|]. split; [exact Hl'|].
        intros ->. destruct (Hb' eq_refl) as (m' & W' & L' & B'). exists m'. split; [exact W'|]. split; [|exact B'].
        destruct (Nat.eq_dec m' m) as [->|N]; [|now rewrite upd_other]. exfalso. apply n. eapply V3; eauto.
      + intros m' H. destruct (Nat.eq_dec m' m) as [->|N]; [rewrite upd_same in H; discriminate|]. rewrite upd_other in H by assumption.
        destruct (V2 m' H) as (i' & j' & s' & l' & q' & js' & E & W'). exists i', j', s', l', q', js'. at_thread i' i; [congruence|auto].
      + intros i1 i2 j1 j2 s1 s2 l1 l2 p1 p2 js1 js2 m' E1 E2. at_thread i1 i; [discriminate|]. at_thread i2 i; [discriminate|]. eapply V3; eauto.
      + intros m'. destruct (Nat.eq_dec m' m) as [->|N].
        * rewrite upd_same. split; [|auto]. intros _. eexists. split; [now left|reflexivity].
        * rewrite upd_other by assumption. rewrite V4. split; intros (e & I & B).
          -- exists e. split; [now right|exact B].
          -- destruct I as [<-|I]; [injection B as ->; congruence|eauto].
      + split; [|exact V5]. split; [exact Hs|]. cbn [e_end e_job]. destruct (run_asks _ _ _ _ R W) as [Q1 Q2]. exists l. auto.
    - pose proof (i_run _ V _ _ _ _ _ _ _ T) as (R & Hs & Hl & _).
      destruct V as [V1 V2 V3 V4 V5]. constructor; cbn [th locked poisoned hist].
      + intros i' j' s' l' q' b' js' E. at_thread i' i; [discriminate|].
        destruct (V1 _ _ _ _ _ _ _ E) as (R' & Hs' & Hl' & Hb'). rewrite first_more by assumption. cbn [length]. repeat split; auto.
      + intros m' H. destruct (V2 m' H) as (i' & j' & s' & l' & q' & js' & E & W'). exists i', j', s', l', q', js'. at_thread i' i; [congruence|auto].
      + intros i1 i2 j1 j2 s1 s2 l1 l2 p1 p2 js1 js2 m' E1 E2. at_thread i1 i; [discriminate|]. at_thread i2 i; [discriminate|]. eapply V3; eauto.
      + intros m'. rewrite V4. split; intros (e & I & B); [exists e; split; [now right|exact B]|].
        destruct I as [<-|I]; [discriminate B|eauto].
      + split; [|exact V5]. split; [exact Hs|]. cbn [e_end e_job]. destruct (run_asks _ _ _ _ R W) as [Q1 _]. exists l. split; [exact Q1|].
        now apply V4.
    - pose proof (i_run _ V _ _ _ _ _ _ _ T) as (R & Hs & Hl & _).
      destruct V as [V1 V2 V3 V4 V5]. constructor; cbn [th locked poisoned hist].
      + intros i' j' s' l' q' b' js' E. at_thread i' i; [discriminate|].
        destruct (V1 _ _ _ _ _ _ _ E) as (R' & Hs' & Hl' & Hb'). rewrite first_more by assumption. cbn [length]. repeat split; auto.
      + intros m' H. destruct (V2 m' H) as (i' & j' & s' & l' & q' & js' & E & W'). exists i', j', s', l', q', js'. at_thread i' i; [congruence|auto].
      + intros i1 i2 j1 j2 s1 s2 l1 l2 p1 p2 js1 js2 m' E1 E2. at_thread i1 i; [discriminate|]. at_thread i2 i; [discriminate|]. eapply V3; eauto.
      + intros m'. rewrite V4. split; intros (e & I & B); [exists e; split; [now right|exact B]|].
        destruct I as [<-|I]; [discriminate B|eauto].
      + split; [|exact V5]. split; [exact Hs|]. cbn [e_end e_job e_since]. exists l. split; [now apply run_answer|exact Hl].
  Qed.

  Lemma inv_reach g : Reachable w cell work g -> Inv g.
  Proof. induction 1; [apply inv_start|eapply inv_step; eauto]. Qed.
  Lemma fine_at l2 e l1 : all_fine (l2 ++ e :: l1) -> fine e l1.
  Proof. induction l2; cbn; intros [A B]; auto. Qed.
End Proofs.

(** ** C92 *)

(** An answer is the one the unit gives without threads and locks, whatever the other threads do and whether or not a mutex
    is poisoned. *)
Theorem C92_answers : forall w cell work g e a, Reachable w cell work g -> In e (hist g) -> e_end e = Said a ->
  exists l, Answers w cell (e_job e) l a.
Proof.
  intros w cell work g e a R I E. apply in_split in I as (l2 & l1 & H). destruct (inv_reach _ _ _ _ R) as [_ _ _ _ F]. rewrite H in F.
  apply fine_at in F as [_ F]. rewrite E in F. destruct F as (l & A & _). eauto.
Qed.

(** A question that panics had gone through the mutexes ahead of [m] and asked [m]: either the closure inside panics on this
    item, or it did in a question that ended before. *)
Theorem C92_panics : forall w cell work g l2 e l1 m own, Reachable w cell work g -> hist g = l2 ++ e :: l1 -> e_end e = Broke m own ->
  exists l, Asks cell (e_job e) l m /\ if own then Panics cell (e_job e) m else exists e', In e' l1 /\ e_end e' = Broke m true.
Proof.
  intros w cell work g l2 e l1 m own R H E. destruct (inv_reach _ _ _ _ R) as [_ _ _ _ F]. rewrite H in F.
  apply fine_at in F as [_ F]. now rewrite E in F.
Qed.

(** After a panic inside the mutex [m], no question that begins later and has to go through [m] is answered: it panics. *)
Theorem C92_poison : forall w cell work g l2 e l1 m e' l a, Reachable w cell work g -> hist g = l2 ++ e :: l1 -> e_end e = Broke m true ->
  In e' l2 -> length l1 < e_since e' -> Answers w cell (e_job e') l a -> In m l -> exists m' own, e_end e' = Broke m' own.
Proof.
  intros w cell work g l2 e l1 m e' l a R H E I Hs A Im. apply in_split in I as (l4 & l3 & ->).
  destruct (inv_reach _ _ _ _ R) as [_ _ _ _ F]. rewrite H, <- app_assoc in F. cbn [app] in F. apply fine_at in F as [B F].
  destruct (e_end e') as [a'|m' own]; [|eauto]. exfalso. destruct F as (l' & A' & N).
  destruct (answers_det _ _ _ _ _ _ _ A A') as [-> ->]. apply (N m e Im); [|exact E].
  unfold first_events. rewrite skipn_app. apply in_or_app. right. rewrite app_length in *. cbn [length] in *.
  replace (length l3 + S (length l1) - e_since e' - length l3) with 0 by lia. now left.
Qed.

(** At most one thread is inside a mutex. *)
Theorem C92_exclusive : forall w cell work g i i' j j' s s' l l' p p' js js' m, Reachable w cell work g ->
  th g i = Busy j s l p true js -> th g i' = Busy j' s' l' p' true js' -> wants p = Some m -> wants p' = Some m -> i = i'.
Proof. intros w cell work g i i' j j' s s' l l' p p' js js' m R. destruct (inv_reach _ _ _ _ R) as [_ _ V _ _]. apply V. Qed.

(** As long as a thread has a question to go, some thread can take a step: nothing deadlocks. *)
Theorem C92_progress : forall w cell work g i, Reachable w cell work g -> th g i <> Idle [] -> th g i <> Dead ->
  exists g', step w cell g g'.
Proof.
  intros w cell work g i R N1 N2. destruct (inv_reach _ _ _ _ R) as [V1 V2 _ _ _].
  assert (IN : forall i j s l p js, th g i = Busy j s l p true js -> exists g', step w cell g g').
  { intros i' j s l p js T. destruct (V1 _ _ _ _ _ _ _ T) as (_ & _ & _ & Hb). destruct (Hb eq_refl) as (m & W & _).
    destruct (after w cell p) as [p'|] eqn:A; eexists; [eapply s_leave|eapply s_crash]; eauto. }
  destruct (th g i) as [[|j js]|j s l p [] js|] eqn:T; [congruence| | | |congruence].
  - eexists. eapply s_begin; exact T.
  - eauto.
  - destruct (wants p) as [m|] eqn:W.
    + destruct (locked g m) eqn:L.
      * destruct (V2 m L) as (i' & j' & s' & l' & p' & js' & T' & _). eauto.
      * destruct (poisoned g m) eqn:P; eexists; [eapply s_refuse|eapply s_lock]; eauto.
    + destruct p; try discriminate. eexists. eapply s_answer; eauto.
Qed.

(** Every schedule ends: a question takes at most two steps for each mutex in the unit, one to begin and one to answer. *)
Fixpoint total (f : nat -> nat) (n : nat) : nat := match n with 0 => 0 | S n' => total f n' + f n' end.
Definition cost (j : job) : nat := 2 * length (mcells (fst j)) + 2.
Inductive Steps (w : kind) (cell : nat -> inner) (work : nat -> list job) : nat -> world -> Prop :=
| steps_0 : Steps w cell work 0 (start work)
| steps_S n g g' : Steps w cell work n g -> step w cell g g' -> Steps w cell work (S n) g'.
Definition togo (t : thread) : nat :=
  match t with
  | Idle js => list_sum (map cost js)
  | Busy j _ l _ b js => 2 * (length (mcells (fst j)) - length l) + (if b then 0 else 1) + list_sum (map cost js)
  | Dead => 0
  end.
Lemma says_short cell t x l b : Says cell t x l b -> length l <= length (mcells t).
Proof. induction 1; cbn [mcells length]; rewrite ?app_length; lia. Qed.
Lemma upto_short cell t x l m : Upto cell t x l m -> length l < length (mcells t).
Proof.
  induction 1; cbn [mcells length]; rewrite ?app_length; try lia.
  all: match goal with H : Says _ _ _ _ _ |- _ => apply says_short in H end; lia.
Qed.
Lemma asks_short cell j l m : Asks cell j l m -> length l < length (mcells (fst j)).
Proof.
  unfold Asks. destruct (snd j); [apply upto_short|]. intros (l' & ->). rewrite app_length. cbn. lia.
Qed.
Lemma total_less f f' i n : i < n -> f' i < f i -> (forall x, x <> i -> f' x = f x) -> total f' n < total f n.
Proof.
  intros Hi L E. induction n as [|n IH]; [lia|]. cbn [total]. destruct (Nat.eq_dec i n) as [->|N].
  - enough (total f' n = total f n) by lia. clear IH Hi. assert (G : forall m, m <= n -> total f' m = total f m).
    { induction m as [|m IH]; intros Hm; [reflexivity|]. cbn [total]. rewrite IH, E by lia. reflexivity. }
    now apply G.
  - rewrite (E n) by lia. specialize (IH ltac:(lia)). lia.
Qed.
Theorem C92_bounded : forall w cell work n k g, (forall i, n <= i -> work i = []) -> Steps w cell work k g ->
  k <= total (fun i => list_sum (map cost (work i))) n.
Proof.
  intros w cell work n k g Z ST.
  enough (H : Reachable w cell work g /\ (forall i, n <= i -> th g i = Idle []) /\
    k + total (fun i => togo (th g i)) n <= total (fun i => list_sum (map cost (work i))) n) by (destruct H as (_ & _ & H); lia).
  induction ST as [|k g g' ST (R & Out & B) T].
  - split; [constructor|]. split; [intros i Hi; cbn; now rewrite Z|]. cbn. lia.
  - split; [econstructor; eauto|]. destruct (inv_reach _ _ _ _ R) as [V1 _ _ _ _].
    assert (K : exists i t, th g' = upd (th g) i t /\ i < n /\ togo t < togo (th g i)).
    { assert (IN : forall i, th g i <> Idle [] -> i < n).
      { intros i N. destruct (le_lt_dec n i) as [L|L]; [|exact L]. now rewrite Out in N. }
      destruct T as [g i j js E|g i j s l p js m E W L P|g i j s l p js m p' E W A|g i j s l p js m E W A|g i j s l p js m E W L P|g i j s l a js E].
      all: eexists i, _; split; [reflexivity|]; (split; [apply IN; congruence|]); rewrite E; cbn [togo map list_sum fold_right].
      all: try (pose proof (V1 _ _ _ _ _ _ _ E) as (Q & _); apply (run_asks w cell _ _ _ m) in Q as [Q _]; [apply asks_short in Q|exact W]).
      all: rewrite ?app_length; cbn [length]; unfold list_sum; try lia.
      unfold cost at 2. lia. }
    destruct K as (i & t & E & Hi & L). split.
    + intros i' Hi'. rewrite E, upd_other by lia. auto.
    + enough (total (fun i => togo (th g' i)) n < total (fun i => togo (th g i)) n) by lia.
      apply (total_less _ _ i); [exact Hi| |].
      * rewrite E, upd_same. exact L.
      * intros x N. now rewrite E, upd_other.
Qed.

(** With units and closures in the mutexes that do not panic, the mutexes do not show: every question is answered, as by the
    units without them. *)
Definition Holds (c : inner) (u : neu) : Prop :=
  match c with IUnit v => u = v | IFn f => exists f', u = NFn f' /\ forall x, f x = Some (f' x) end.
Theorem C92_plain : forall w cell held work g e, (forall m, Holds (cell m) (held m)) -> Reachable w cell work g -> In e (hist g) ->
  e_end e = Said (match snd (e_job e) with
                  | QMatch x => ABool (is_match (strip held (fst (e_job e))) x)
                  | QLen => ALen (min_length w (strip held (fst (e_job e))))
                  end).
Proof.
  intros w cell held work g e HC R I.
  assert (IM : forall m x, inner_match (cell m) x = Some (is_match (held m) x)).
  { intros m x. specialize (HC m). destruct (cell m) as [u|f]; cbn in *; [now rewrite HC|]. destruct HC as (f' & -> & E). apply E. }
  assert (IL : forall m, inner_len w (cell m) = min_length w (held m)).
  { intros m. specialize (HC m). destruct (cell m) as [u|f]; cbn in *; [now rewrite HC|]. now destruct HC as (f' & -> & _). }
  assert (SY : forall t x l b, Says cell t x l b -> b = is_match (strip held t) x).
  { induction 1; cbn [strip is_match]; try congruence; try now rewrite <- ?IHSays1, <- ?IHSays2, <- ?IHSays. }
  assert (LN : forall t, mlen w cell t = min_length w (strip held t)).
  { induction t; cbn [mlen strip min_length]; auto; congruence. }
  assert (NB : forall e m, In e (hist g) -> e_end e <> Broke m true).
  { clear e I. intros e m I E. apply in_split in I as (l2 & l1 & H). destruct (C92_panics _ _ _ _ _ _ _ _ _ R H E) as (l & _ & P).
    unfold Panics in P. destruct (snd (e_job e)); [rewrite IM in P; discriminate P|exact P]. }
  destruct (e_end e) as [a|m own] eqn:E.
  - destruct (C92_answers _ _ _ _ _ _ R I E) as (l & A). unfold Answers in A. destruct (snd (e_job e)) as [x|].
    + destruct A as (b & -> & S). now rewrite (SY _ _ _ _ S).
    + destruct A as [-> _]. now rewrite LN.
  - exfalso. destruct own; [exact (NB _ _ I E)|]. apply in_split in I as (l2 & l1 & H).
    destruct (C92_panics _ _ _ _ _ _ _ _ _ R H E) as (l & _ & e' & I' & E'). apply (NB e' m); [|exact E']. rewrite H. apply in_or_app. right. now right.
Qed.

(** The questions of a thread end in the order in which it has them; none is lost unless the thread panicked. *)
Definition asked (i : nat) (h : list event) : list job := rev (map e_job (filter (fun e => e_who e =? i) h)).
Lemma asked_own i j s o h : asked i (Ev i j s o :: h) = asked i h ++ [j].
Proof. unfold asked. cbn [filter e_who]. rewrite Nat.eqb_refl. reflexivity. Qed.
Lemma asked_other i i' j s o h : i' <> i -> asked i' (Ev i j s o :: h) = asked i' h.
Proof. intros N. unfold asked. cbn [filter e_who]. destruct (Nat.eqb_spec i i'); [congruence|reflexivity]. Qed.
Theorem C92_order : forall w cell work g i, Reachable w cell work g ->
  match th g i with
  | Idle js => work i = asked i (hist g) ++ js
  | Busy j _ _ _ _ js => work i = asked i (hist g) ++ j :: js
  | Dead => exists e m own rest, In e (hist g) /\ e_who e = i /\ e_end e = Broke m own /\ work i = asked i (hist g) ++ rest
  end.
Proof.
  intros w cell work g i R. induction R as [|g g' R IH ST]; [reflexivity|].
  destruct ST as [g i' j js T|g i' j s l p js m T W L P|g i' j s l p js m p' T W A|g i' j s l p js m T W A|g i' j s l p js m T W L P|g i' j s l a js T].
  all: cbn [th hist]; destruct (Nat.eq_dec i i') as [<-|N]; [rewrite T in IH; rewrite upd_same|rewrite upd_other by assumption].
  all: try exact IH; rewrite ?asked_own; rewrite ?asked_other by assumption.
  all: try (rewrite IH, <- app_assoc; reflexivity).
  all: first [ eexists; do 3 eexists; split; [now left|]; split; [reflexivity|]; split; [reflexivity|];
                 rewrite IH, <- app_assoc; reflexivity
             | destruct (th g i); try exact IH; destruct IH as (e & m' & own & rest & I & X); exists e, m', own, rest; split; [now right|exact X] ].
Qed.
(** So, when nothing panics, a schedule that cannot go on has answered every question of every thread, in order. *)
Theorem C92_complete : forall w cell held work g, (forall m, Holds (cell m) (held m)) -> Reachable w cell work g ->
  (forall g', ~ step w cell g g') -> forall i, asked i (hist g) = work i.
Proof.
  intros w cell held work g HC R ST i. pose proof (C92_order _ _ _ _ i R) as O.
  destruct (th g i) as [js|j s l p b js|] eqn:T.
  - destruct js as [|j js]; [now rewrite O, app_nil_r|]. exfalso.
    destruct (C92_progress w cell work g i R) as (g' & S); [congruence..|]. exact (ST g' S).
  - exfalso. destruct (C92_progress w cell work g i R) as (g' & S); [congruence..|]. exact (ST g' S).
  - exfalso. destruct O as (e & m & own & rest & I & _ & E & _). rewrite (C92_plain _ _ _ _ _ _ HC R I) in E. discriminate E.
Qed.

(** The step of a thread as a function, to run a schedule. *)
Definition act w cell (g : world) (i : nat) : option world :=
  match th g i with
  | Idle (j :: js) => Some (World (upd (th g) i (Busy j (length (hist g)) [] (compile w j) false js)) (locked g) (poisoned g) (hist g))
  | Busy j s l (Done a) false js => Some (World (upd (th g) i (Idle js)) (locked g) (poisoned g) (Ev i j s (Said a) :: hist g))
  | Busy j s l p false js =>
      match wants p with
      | Some m =>
          if locked g m then None
          else if poisoned g m then Some (World (upd (th g) i Dead) (locked g) (poisoned g) (Ev i j s (Broke m false) :: hist g))
          else Some (World (upd (th g) i (Busy j s l p true js)) (upd (locked g) m true) (poisoned g) (hist g))
      | None => None
      end
  | Busy j s l p true js =>
      match wants p with
      | Some m =>
          match after w cell p with
          | Some p' => Some (World (upd (th g) i (Busy j s (l ++ [m]) p' false js)) (upd (locked g) m false) (poisoned g) (hist g))
          | None => Some (World (upd (th g) i Dead) (upd (locked g) m false) (upd (poisoned g) m true) (Ev i j s (Broke m true) :: hist g))
          end
      | None => None
      end
  | _ => None
  end.
Fixpoint schedule w cell (g : world) (is : list nat) : option world :=
  match is with [] => Some g | i :: is => match act w cell g i with Some g' => schedule w cell g' is | None => None end end.
Lemma act_step w cell g i g' : act w cell g i = Some g' -> step w cell g g'.
Proof.
  unfold act. destruct (th g i) as [[|j js]|j s l p [] js|] eqn:T; intros E; try discriminate.
  - injection E as <-. eapply s_begin; exact T.
  - destruct p as [a|m x k|m k]; [discriminate| |]; cbn [wants] in E;
      match type of E with match ?a with _ => _ end = _ => destruct a as [p'|] eqn:A end;
      injection E as <-; [eapply s_leave|eapply s_crash|eapply s_leave|eapply s_crash]; eauto.
  - destruct p as [a|m x k|m k]; [injection E as <-; eapply s_answer; eauto| |]; cbn [wants] in E.
    all: destruct (locked g m) eqn:L; [discriminate|]; destruct (poisoned g m) eqn:P; injection E as <-; [eapply s_refuse|eapply s_lock]; eauto.
Qed.
Lemma schedule_reach w cell work is : forall g g', Reachable w cell work g -> schedule w cell g is = Some g' -> Reachable w cell work g'.
Proof.
  induction is as [|i is IH]; intros g g' R E; cbn [schedule] in E; [injection E as <-; exact R|].
  destruct (act w cell g i) as [g1|] eqn:A; [|discriminate]. apply (IH g1); [|exact E]. eapply reach_step; [exact R|]. now apply act_step in A.
Qed.
Lemma schedule_hist w cell work is h : option_map hist (schedule w cell (start work) is) = Some h ->
  exists g, Reachable w cell work g /\ hist g = h.
Proof.
  destruct (schedule w cell (start work) is) as [g|] eqn:E; [|discriminate]. intros H. injection H as <-. exists g. split; [|reflexivity].
  exact (schedule_reach _ _ _ _ _ _ (reach_start _ _ _) E).
Qed.

(** Mutex 0 holds a closure that panics on [!] and accepts [a], mutex 1 the unit of digits.  Thread 0 asks [0 or 1] about [7],
    then about [!]; thread 1 waits and asks the same unit about [a], and panics. *)
Definition touchy (m : nat) : inner :=
  match m with
  | 0 => IFn (fun x => if (x =? 33)%N then None else Some (x =? 97)%N)
  | _ => IUnit NAsciiDigit
  end.
Definition touchy_work (i : nat) : list job :=
  let t := MOr (MCell 0) (MCell 1) in
  match i with 0 => [(t, QMatch 55%N); (t, QMatch 33%N)] | 1 => [(t, QMatch 97%N)] | _ => [] end.
Example C92_case : exists g e1 e2 e3, Reachable KStr touchy touchy_work g /\ hist g = [e1; e2; e3] /\
  e_end e3 = Said (ABool true) /\ e_end e2 = Broke 0 true /\ e_end e1 = Broke 0 false /\ length [e3] < e_since e1 /\
  Answers KStr touchy (e_job e1) [0] (ABool true).
Proof.
  set (t := MOr (MCell 0) (MCell 1)).
  destruct (schedule_hist KStr touchy touchy_work [0; 0; 0; 0; 0; 0; 0; 0; 0; 1; 1]
    [Ev 1 (t, QMatch 97%N) 2 (Broke 0 false); Ev 0 (t, QMatch 33%N) 1 (Broke 0 true); Ev 0 (t, QMatch 55%N) 0 (Said (ABool true))]) as (g & R & H);
    [vm_compute; reflexivity|].
  exists g. do 3 eexists. split; [exact R|]. split; [exact H|]. cbn. repeat split; try lia.
  eexists. split; [reflexivity|]. apply sa_or_l. now constructor.
Qed.
Example C92_bounded_case : (forall i, 2 <= i -> touchy_work i = []) /\ total (fun i => list_sum (map cost (touchy_work i))) 2 = 18.
Proof. split; [|reflexivity]. intros [|[|i]] H; try lia. reflexivity. Qed.
(** A calm closure and the digits, asked by two threads in turn. *)
Definition calm (m : nat) : inner := match m with 0 => IFn (fun x => Some (x =? 97)%N) | _ => IUnit NAsciiDigit end.
Definition calm_held (m : nat) : neu := match m with 0 => NFn (fun x => (x =? 97)%N) | _ => NAsciiDigit end.
Definition calm_work (i : nat) : list job :=
  match i with 0 => [(MAnd (MNot (MCell 0)) (MCell 1), QMatch 55%N)] | 1 => [(MOr (MCell 0) (MCell 1), QLen)] | _ => [] end.
Example C92_plain_case : (forall m, Holds (calm m) (calm_held m)) /\ exists g, Reachable KStr calm calm_work g /\
  hist g = [Ev 1 (MOr (MCell 0) (MCell 1), QLen) 0 (Said (ALen 1)); Ev 0 (MAnd (MNot (MCell 0)) (MCell 1), QMatch 55%N) 0 (Said (ABool true))].
Proof.
  split.
  - intros [|m]; cbn; eauto.
  - apply (schedule_hist KStr calm calm_work [0; 0; 1; 0; 1; 0; 1; 0; 1; 0; 1; 1]). vm_compute. reflexivity.
Qed.
Example C92_complete_case : exists g, Reachable KStr calm calm_work g /\ (forall g', ~ step KStr calm g g') /\ asked 1 (hist g) = calm_work 1.
Proof.
  destruct (schedule KStr calm (start calm_work) [0; 0; 1; 0; 1; 0; 1; 0; 1; 0; 1; 1]) as [g|] eqn:E; [|vm_compute in E; discriminate E].
  exists g. split; [exact (schedule_reach _ _ _ _ _ _ (reach_start _ _ _) E)|].
  assert (Q : forall i, th g i = Idle []).
  { vm_compute in E. injection E as <-. intros [|[|i]]; reflexivity. }
  split; [intros g' S; inversion S; subst; rewrite Q in *; discriminate|].
  vm_compute in E. injection E as <-. reflexivity.
Qed.
(** A question that has passed the mutex before the panic is still answered: the restriction of C92_poison to questions
    that begin later is needed.  Thread 1 asks [0 and 1] about [a], goes through 0, and then thread 0 panics in 0. *)
Definition late_work (i : nat) : list job :=
  match i with 0 => [(MCell 0, QMatch 33%N)] | 1 => [(MAnd (MCell 0) (MCell 1), QMatch 97%N)] | _ => [] end.
Theorem C92_poison_refuted : exists g e e' l a, Reachable KStr touchy late_work g /\ hist g = [e'; e] /\ e_end e = Broke 0 true /\
  Answers KStr touchy (e_job e') l a /\ In 0 l /\ e_end e' = Said a.
Proof.
  destruct (schedule_hist KStr touchy late_work [1; 1; 1; 0; 0; 0; 1; 1; 1]
    [Ev 1 (MAnd (MCell 0) (MCell 1), QMatch 97%N) 0 (Said (ABool false)); Ev 0 (MCell 0, QMatch 33%N) 0 (Broke 0 true)]) as (g & R & H);
    [vm_compute; reflexivity|].
  exists g. do 2 eexists. exists ([0] ++ [1]), (ABool false). split; [exact R|]. split; [exact H|]. split; [reflexivity|].
  split; [|split; [now left|reflexivity]]. eexists. split; [reflexivity|]. apply sa_and_r; now constructor.
Qed.

Print Assumptions C92_answers.
Print Assumptions C92_panics.
Print Assumptions C92_poison.
Print Assumptions C92_poison_refuted.
Print Assumptions C92_exclusive.
Print Assumptions C92_progress.
Print Assumptions C92_plain.
Print Assumptions C92_bounded.
Print Assumptions C92_order.
Print Assumptions C92_complete.
