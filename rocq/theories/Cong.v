(** Replacing parts of a parser: what the whole returns depends only on what the parts return. *)

From Coq Require Import List Arith NArith Bool Lia.
From Verif Require Import Base Text Context Neu Syntax Regex Ctor Api Obs Mono Refactor.
Import ListNotations.

Section Eventually.
  (** How far two errors may differ. *)
  Variable RE : error -> error -> Prop.
  Hypothesis RE_refl : forall e, RE e e.

  Inductive rcl {A B} (RA : A -> B -> Prop) : res A -> res B -> Prop :=
  | rc_ok a b : RA a b -> rcl RA (Ok a) (Ok b)
  | rc_err e e' : RE e e' -> rcl RA (Err e) (Err e')
  | rc_panic : rcl RA Panic Panic.

  Inductive sumcl {A B} (RA : A -> B -> Prop) : A + error -> B + error -> Prop :=
  | sc_l a b : RA a b -> sumcl RA (inl a) (inl b)
  | sc_r e e' : RE e e' -> sumcl RA (inr e) (inr e').

  (** Whatever [m] answers, all sufficiently late [g n] answer too. *)
  Definition sle {X A B} (RA : A -> B -> Prop) (m : M X A) (g : nat -> M X B) : Prop :=
    forall x, fst (m x) = OOF \/
      exists k r', rcl RA (fst (m x)) r' /\ forall n, k <= n -> g n x = (r', snd (m x)).

  (** The same for pure results. *)
  Definition ple {A B} (RA : A -> B -> Prop) (r : res A) (g : nat -> res B) : Prop :=
    r = OOF \/ exists k r', rcl RA r r' /\ forall n, k <= n -> g n = r'.

  Definition grows (h : nat -> nat) : Prop := forall b, exists k, forall n, k <= n -> b <= h n.

  Lemma grows_id : grows (fun n => n).
  Proof. intros b. exists b. auto. Qed.
  Lemma grows_pred h : grows h -> grows (fun n => h n - 1).
  Proof. intros H b. destruct (H (S b)) as (k & Hk). exists k. intros n Hn. specialize (Hk n Hn). lia. Qed.

  Lemma rcl_refl {A} (RA : A -> A -> Prop) r : (forall a, RA a a) -> r <> OOF -> rcl RA r r.
  Proof. intros H N. destruct r; try constructor; auto. congruence. Qed.

  Section X.
    Context {X : Type}.

    Lemma sle_ev {A B} (RA : A -> B -> Prop) (m : M X A) g g' :
      sle RA m g -> (exists k, forall n, k <= n -> g n = g' n) -> sle RA m g'.
    Proof.
      intros H (k & Hk) x. destruct (H x) as [E|(k' & r' & H1 & H2)]; [now left|right].
      exists (Nat.max k k'), r'. split; [exact H1|]. intros n Hn. rewrite <- (Hk n) by lia. apply H2. lia.
    Qed.
    Lemma sle_shift {A B} (RA : A -> B -> Prop) (m : M X A) g : sle RA m (fun n => g (S n)) -> sle RA m g.
    Proof.
      intros H x. destruct (H x) as [E|(k & r' & H1 & H2)]; [now left|right].
      exists (S k), r'. split; [exact H1|]. intros [|n] Hn; [lia|]. apply H2. lia.
    Qed.
    Lemma sle_oof {A B} (RA : A -> B -> Prop) (g : nat -> M X B) : sle RA oof g.
    Proof. intros x. now left. Qed.
    Lemma sle_ret {A B} (RA : A -> B -> Prop) a b : RA a b -> @sle X A B RA (ret a) (fun _ => ret b).
    Proof. intros H x. right. exists 0, (Ok b). split; [now constructor|reflexivity]. Qed.
    Lemma sle_fail {A B} (RA : A -> B -> Prop) e e' : RE e e' -> @sle X A B RA (fail e) (fun _ => fail e').
    Proof. intros H x. right. exists 0, (Err e'). split; [now constructor|reflexivity]. Qed.
    Lemma sle_panic {A B} (RA : A -> B -> Prop) : @sle X A B RA panic (fun _ => panic).
    Proof. intros x. right. exists 0, Panic. split; [constructor|reflexivity]. Qed.
    Lemma sle_refl {A} (m : M X A) : sle eq m (fun _ => m).
    Proof.
      intros x. destruct (m x) as [r x'] eqn:E. cbn [fst snd].
      destruct r; [right|right|right|now left]; exists 0; eexists; (split; [|intros; reflexivity]); now constructor.
    Qed.
    Lemma sle_mono {A} (m : M X A) (g : nat -> M X A) :
      (exists k, forall n, k <= n -> mle m (g n)) -> sle eq m g.
    Proof.
      intros (k & H) x. destruct (m x) as [r x'] eqn:E. cbn [fst snd].
      assert (Q : r <> OOF -> forall n, k <= n -> g n x = (r, x')).
      { intros N n Hn. now apply (mle_eq m (g n)); [apply H| |]. }
      destruct r; [right|right|right|now left]; exists k; eexists; (split; [|apply Q; discriminate]); now constructor.
    Qed.
    Lemma sle_lift {A B} (RA : A -> B -> Prop) r g : ple RA r g -> @sle X A B RA (lift r) (fun n => lift (g n)).
    Proof.
      intros [->|(k & r' & H1 & H2)] x; [now left|right]. exists k, r'. split; [exact H1|].
      intros n Hn. unfold lift. now rewrite H2.
    Qed.
    Lemma sle_reads {A B} (RA : A -> B -> Prop) (f : X -> res A) (g : nat -> X -> res B) :
      (forall x, ple RA (f x) (fun n => g n x)) -> sle RA (reads f) (fun n => reads (g n)).
    Proof.
      intros H x. unfold reads. cbn [fst snd]. destruct (H x) as [E|(k & r' & H1 & H2)]; [now left|right].
      exists k, r'. split; [exact H1|]. intros n Hn. now rewrite H2.
    Qed.
    Lemma sle_bind {A B C D} (RA : A -> B -> Prop) (RC : C -> D -> Prop) (m : M X A) (g : nat -> M X B) k kk :
      sle RA m g -> (forall a b, RA a b -> sle RC (k a) (fun n => kk n b)) -> sle RC (bind m k) (fun n => bind (g n) (kk n)).
    Proof.
      intros H1 H2 x. unfold bind. destruct (H1 x) as [E|(k1 & r1 & R1 & Q1)].
      { left. destruct (m x) as [r x1]. cbn in E. subst r. reflexivity. }
      destruct (m x) as [r x1] eqn:E. cbn [fst snd] in R1, Q1.
      destruct R1 as [a b Hab|e e' He|].
      - destruct (H2 a b Hab x1) as [E2|(k2 & r2 & R2 & Q2)]; [now left|right].
        exists (Nat.max k1 k2), r2. split; [exact R2|]. intros n Hn. rewrite Q1 by lia. apply Q2. lia.
      - right. exists k1, (Err e'). split; [now constructor|]. intros n Hn. now rewrite Q1.
      - right. exists k1, Panic. split; [now constructor|]. intros n Hn. now rewrite Q1.
    Qed.
    Lemma sle_catch {A B} (RA : A -> B -> Prop) (m : M X A) (g : nat -> M X B) :
      sle RA m g -> sle (sumcl RA) (catch m) (fun n => catch (g n)).
    Proof.
      intros H1 x. unfold catch. destruct (H1 x) as [E|(k1 & r1 & R1 & Q1)].
      { left. destruct (m x) as [r x1]. cbn in E. subst r. reflexivity. }
      destruct (m x) as [r x1] eqn:E. cbn [fst snd] in R1, Q1. right. exists k1.
      destruct R1 as [a b Hab|e e' He|]; eexists; (split; [|intros n Hn; rewrite Q1 by exact Hn; reflexivity]).
      - constructor. now constructor.
      - constructor. now constructor.
      - constructor.
    Qed.
    Context `{HX : HasOffset X}.
    Lemma sle_g_try {A B} (RA : A -> B -> Prop) (m : M X A) (g : nat -> M X B) :
      sle RA m g -> sle RA (g_try m) (fun n => g_try (g n)).
    Proof.
      intros H1 y. unfold g_try. destruct (H1 (g_ctx y)) as [E|(k1 & r1 & R1 & Q1)].
      { left. destruct (m (g_ctx y)) as [r x1]. cbn in E. subst r. reflexivity. }
      destruct (m (g_ctx y)) as [r x1] eqn:E. cbn [fst snd] in R1, Q1. right. exists k1.
      destruct R1 as [a b Hab|e e' He|]; eexists; (split; [|intros n Hn; rewrite Q1 by exact Hn; reflexivity]); now constructor.
    Qed.
    Lemma sle_g_on {A B} (RA : A -> B -> Prop) (m : M X A) (g : nat -> M X B) :
      sle RA m g -> sle RA (g_on m) (fun n => g_on (g n)).
    Proof.
      intros H1 y. unfold g_on. destruct (H1 (g_ctx y)) as [E|(k1 & r1 & R1 & Q1)].
      { left. destruct (m (g_ctx y)) as [r x1]. cbn in E. subst r. reflexivity. }
      destruct (m (g_ctx y)) as [r x1] eqn:E. cbn [fst snd] in R1, Q1. right. exists k1.
      destruct R1 as [a b Hab|e e' He|]; eexists; (split; [|intros n Hn; rewrite Q1 by exact Hn; reflexivity]); now constructor.
    Qed.
    Lemma sle_guard {A B} (RA : A -> B -> Prop) (m : M (guard X) A) (g : nat -> M (guard X) B) :
      sle RA m g -> sle RA (with_guard m) (fun n => with_guard (g n)).
    Proof.
      intros H1 y. unfold with_guard. destruct (H1 (g_new y)) as [E|(k1 & r1 & R1 & Q1)].
      { left. destruct (m (g_new y)) as [r x1]. cbn in E. subst r. reflexivity. }
      destruct (m (g_new y)) as [r x1] eqn:E. cbn [fst snd] in R1, Q1. right. exists k1.
      destruct R1 as [a b Hab|e e' He|]; eexists; (split; [|intros n Hn; rewrite Q1 by exact Hn; reflexivity]); now constructor.
    Qed.
    Lemma sle_reset {A B} (RA : A -> B -> Prop) o (m : M X A) (g : nat -> M X B) :
      sle RA m g -> sle RA (on_err_reset o m) (fun n => on_err_reset o (g n)).
    Proof.
      intros H1 y. unfold on_err_reset. destruct (H1 y) as [E|(k1 & r1 & R1 & Q1)].
      { left. destruct (m y) as [r x1]. cbn in E. subst r. reflexivity. }
      destruct (m y) as [r x1] eqn:E. cbn [fst snd] in R1, Q1. right. exists k1.
      destruct R1 as [a b Hab|e e' He|]; eexists; (split; [|intros n Hn; rewrite Q1 by exact Hn; reflexivity]); now constructor.
    Qed.
  End X.
  Lemma sle_on_ctx {S A B} (RA : A -> B -> Prop) (m : M ctx A) (g : nat -> M ctx B) :
    sle RA m g -> sle RA (@on_ctx S A m) (fun n => on_ctx (g n)).
  Proof.
    intros H1 y. unfold on_ctx. destruct (H1 (fst y)) as [E|(k1 & r1 & R1 & Q1)].
    { left. destruct (m (fst y)) as [r x1]. cbn in E. subst r. reflexivity. }
    destruct (m (fst y)) as [r x1] eqn:E. cbn [fst snd] in R1, Q1. right. exists k1.
    destruct R1 as [a b Hab|e e' He|]; eexists; (split; [|intros n Hn; rewrite Q1 by exact Hn; reflexivity]); now constructor.
  Qed.

  (** Structural steps: split a computation into its parts; equal parts are related by [sle_refl]. *)
  Ltac hook := fail.
  Ltac cong :=
    cbv beta; try match goal with
    | H : sle ?RA ?m _ |- sle _ ?m _ => exact H
    | |- sle _ (bind _ _) _ =>
        eapply sle_bind;
        [ cong
        | let a := fresh in let b := fresh in let Q := fresh in
          intros a b Q; first [subst b | destruct Q as [? ? Q|? ? Q]; [first [subst | idtac]|] | idtac]; cong ]
    | |- sle _ (catch _) _ => apply sle_catch; cong
    | |- sle _ (g_try _) _ => apply sle_g_try; cong
    | |- sle _ (g_on _) _ => apply sle_g_on; cong
    | |- sle _ (with_guard _) _ => apply sle_guard; cong
    | |- sle _ (on_err_reset _ _) _ => apply sle_reset; cong
    | |- sle _ (fail _) _ => apply sle_fail; now auto
    | |- sle _ (match ?b with _ => _ end) _ => destruct b; cong
    | |- sle _ oof _ => apply sle_oof
    | |- sle _ _ (fun _ => _) => first [apply sle_refl | solve [auto] | solve [hook]]
    end.

  Section Loops.
    Context {X : Type} `{HX : HasOffset X}.

    Lemma step_fuel {A} (RA : A -> A -> Prop) (m : M X A) h (F : nat -> nat -> M X A) :
      grows h -> (forall h', grows h' -> sle RA m (fun i => F i (S (h' i)))) -> sle RA m (fun i => F i (h i)).
    Proof.
      intros Gh H. eapply sle_ev; [apply (H _ (grows_pred h Gh))|]. destruct (Gh 1) as (k & Hk). exists k.
      intros n Hn. cbn beta. specialize (Hk n Hn). now replace (S (h n - 1)) with (h n) by lia.
    Qed.

    Lemma sle_repeat (t : M X span) gt : sle eq t gt -> forall n h more cnt tot, grows h ->
      sle eq (repeat_loop t n more cnt tot) (fun i => repeat_loop (gt i) (h i) more cnt tot).
    Proof.
      intros H1; induction n as [|n IH]; intros h more cnt tot Gh; cbn [repeat_loop]; [apply sle_oof|].
      apply (step_fuel eq _ h (fun i f => repeat_loop (gt i) f more cnt tot) Gh). intros h' Gh'. cbn [repeat_loop].
      cong; now apply IH.
    Qed.
    Lemma sle_sep (t s : M X span) gt gs : sle eq t gt -> sle eq s gs -> forall n h more sk cnt tot, grows h ->
      sle eq (sep_loop t s n more sk cnt tot) (fun i => sep_loop (gt i) (gs i) (h i) more sk cnt tot).
    Proof.
      intros H1 H2; induction n as [|n IH]; intros h more sk cnt tot Gh; cbn [sep_loop]; [apply sle_oof|].
      apply (step_fuel eq _ h (fun i f => sep_loop (gt i) (gs i) f more sk cnt tot) Gh). intros h' Gh'. cbn [sep_loop].
      cong; now apply IH.
    Qed.
    Lemma sle_repeat_vals (v : M X val) gv : sle eq v gv -> forall n h more acc, grows h ->
      sle eq (repeat_vals v n more acc) (fun i => repeat_vals (gv i) (h i) more acc).
    Proof.
      intros H1; induction n as [|n IH]; intros h more acc Gh; cbn [repeat_vals]; [apply sle_oof|].
      apply (step_fuel eq _ h (fun i f => repeat_vals (gv i) f more acc) Gh). intros h' Gh'. cbn [repeat_vals].
      cong; now apply IH.
    Qed.
    Lemma sle_repeat2_vals (v : M X val) gv : sle eq v gv -> forall n h l acc, grows h ->
      sle eq (repeat2_vals v n l acc) (fun i => repeat2_vals (gv i) (h i) l acc).
    Proof.
      intros H1; induction n as [|n IH]; intros h l acc Gh; cbn [repeat2_vals]; [apply sle_oof|].
      apply (step_fuel eq _ h (fun i f => repeat2_vals (gv i) f l acc) Gh). intros h' Gh'. cbn [repeat2_vals].
      cong; now apply IH.
    Qed.
    Lemma sle_sep_vals (v : M X val) (s : M X span) gv gs : sle eq v gv -> sle eq s gs -> forall n h sk acc, grows h ->
      sle eq (sep_vals v s n sk acc) (fun i => sep_vals (gv i) (gs i) (h i) sk acc).
    Proof.
      intros H1 H2; induction n as [|n IH]; intros h sk acc Gh; cbn [sep_vals]; [apply sle_oof|].
      apply (step_fuel eq _ h (fun i f => sep_vals (gv i) (gs i) f sk acc) Gh). intros h' Gh'. cbn [sep_vals].
      cong; now apply IH.
    Qed.
    Lemma sle_sep2_vals (v : M X val) (s : M X span) gv gs : sle eq v gv -> sle eq s gs -> forall n h l sk acc, grows h ->
      sle eq (sep2_vals v s n l sk acc) (fun i => sep2_vals (gv i) (gs i) (h i) l sk acc).
    Proof.
      intros H1 H2; induction n as [|n IH]; intros h l sk acc Gh; cbn [sep2_vals]; [apply sle_oof|].
      apply (step_fuel eq _ h (fun i f => sep2_vals (gv i) (gs i) f l sk acc) Gh). intros h' Gh'. cbn [sep2_vals].
      cong; now apply IH.
    Qed.
    Lemma sle_sepcollect_vals (v : M X val) (s : M X span) gv gs : sle eq v gv -> sle eq s gs -> forall n h sk en acc, grows h ->
      sle eq (sepcollect_vals v s n sk en acc) (fun i => sepcollect_vals (gv i) (gs i) (h i) sk en acc).
    Proof.
      intros H1 H2; induction n as [|n IH]; intros h sk en acc Gh; cbn [sepcollect_vals]; [apply sle_oof|].
      apply (step_fuel eq _ h (fun i f => sepcollect_vals (gv i) (gs i) f sk en acc) Gh). intros h' Gh'. cbn [sepcollect_vals].
      cong; now apply IH.
    Qed.
  End Loops.

  (** ** Pure loops *)

  Lemma ple_refl {A} (r : res A) : ple eq r (fun _ => r).
  Proof. destruct r; [right|right|right|now left]; exists 0; eexists; (split; [|reflexivity]); now constructor. Qed.

  Lemma ple_match {A B} (r : res A) (g : nat -> res A) (k : A -> res B) (kk : nat -> A -> res B) :
    ple eq r g -> (forall a, ple eq (k a) (fun i => kk i a)) ->
    ple eq (match r with Ok a => k a | Err e => Err e | Panic => Panic | OOF => OOF end)
           (fun i => match g i with Ok a => kk i a | Err e => Err e | Panic => Panic | OOF => OOF end).
  Proof.
    intros [->|(k1 & r1 & R1 & Q1)] H; [now left|]. destruct R1 as [a b <-|e e' He|].
    - destruct (H a) as [E|(k2 & r2 & R2 & Q2)]; [now left|right]. exists (Nat.max k1 k2), r2. split; [exact R2|].
      intros n Hn. rewrite Q1 by lia. apply Q2. lia.
    - right. exists k1, (Err e'). split; [now constructor|]. intros n Hn. now rewrite Q1.
    - right. exists k1, Panic. split; [now constructor|]. intros n Hn. now rewrite Q1.
  Qed.

  Section Scans.
    Variables (chk : nat * item -> res bool) (gk : nat -> nat * item -> res bool).
    Hypothesis HC : forall x, ple eq (chk x) (fun i => gk i x).

    Lemma ple_scan u : forall l beg, ple eq (scan u chk beg l) (fun i => scan u (gk i) beg l).
    Proof.
      induction l as [|x l IH]; intros beg; cbn [scan]; [apply ple_refl|].
      destruct (negb (u (snd x))); [apply ple_refl|].
      destruct (HC x) as [E|(k1 & r1 & R1 & Q1)]; [rewrite E; now left|].
      destruct R1 as [a b <-|e e' He|].
      - destruct a.
        + destruct (IH (match beg with None => Some (fst x) | b => b end)) as [E|(k2 & r2 & R2 & Q2)]; [now left|right].
          exists (Nat.max k1 k2), r2. split; [exact R2|]. intros n Hn. rewrite Q1 by lia. apply Q2. lia.
        + right. exists k1. eexists. split; [|intros n Hn; rewrite Q1 by exact Hn; reflexivity]. now constructor.
      - right. exists k1. eexists. split; [|intros n Hn; rewrite Q1 by exact Hn; reflexivity]. now constructor.
      - right. exists k1. eexists. split; [|intros n Hn; rewrite Q1 by exact Hn; reflexivity]. now constructor.
    Qed.
    Lemma ple_scan_n u more : forall l cnt beg, ple eq (scan_n u chk more cnt beg l) (fun i => scan_n u (gk i) more cnt beg l).
    Proof.
      induction l as [|x l IH]; intros cnt beg; cbn [scan_n]; [apply ple_refl|].
      destruct (more cnt); [|apply ple_refl]. destruct (u (snd x)); [|apply ple_refl].
      destruct (HC x) as [E|(k1 & r1 & R1 & Q1)]; [rewrite E; now left|].
      destruct R1 as [a b <-|e e' He|].
      - destruct a.
        + destruct (IH (S cnt) (match beg with None => Some (fst x) | b => b end)) as [E|(k2 & r2 & R2 & Q2)]; [now left|right].
          exists (Nat.max k1 k2), r2. split; [exact R2|]. intros n Hn. rewrite Q1 by lia. apply Q2. lia.
        + right. exists k1. eexists. split; [|intros n Hn; rewrite Q1 by exact Hn; reflexivity]. now constructor.
      - right. exists k1. eexists. split; [|intros n Hn; rewrite Q1 by exact Hn; reflexivity]. now constructor.
      - right. exists k1. eexists. split; [|intros n Hn; rewrite Q1 by exact Hn; reflexivity]. now constructor.
    Qed.
  End Scans.

  (** ** Choices *)

  Section Choices.
    Context {X : Type} `{HX : HasOffset X}.
    Variable R : pat -> pat -> Prop.

    Lemma sle_con_choice (c : pat -> M X val) (g : nat -> pat -> M X val) o e :
      (forall p q, R p q -> sle eq (c p) (fun i => g i q)) ->
      forall ps qs, Forall2 (fun a b => R (fst a) (fst b) /\ forall v, snd a v = snd b v) ps qs ->
      sle eq (con_choice c o e ps) (fun i => con_choice (g i) o e qs).
    Proof.
      intros H ps qs F. induction F as [|a b ps qs [Hab Hv] F IH]; cbn [con_choice]; [apply sle_refl|].
      pose proof (H _ _ Hab). cong. rewrite Hv. apply sle_refl.
    Qed.
    Lemma sle_con_choice_ltm (c : pat -> M X val) (g : nat -> pat -> M X val) o e :
      (forall p q, R p q -> sle eq (c p) (fun i => g i q)) ->
      forall ps qs, Forall2 (fun a b => R (fst a) (fst b) /\ forall v, snd a v = snd b v) ps qs -> forall best en,
      sle eq (con_choice_ltm c o e best en ps) (fun i => con_choice_ltm (g i) o e best en qs).
    Proof.
      intros H ps qs F. induction F as [|a b ps qs [Hab Hv] F IH]; intros best en; cbn [con_choice_ltm]; [destruct best; apply sle_refl|].
      pose proof (H _ _ Hab). cong. rewrite Hv. apply IH.
    Qed.
  End Choices.
  Lemma sle_choice (R : pat -> pat -> Prop) (c : pat -> M ctx span) (g : nat -> pat -> M ctx span) o e :
    (forall p q, R p q -> sle eq (c p) (fun i => g i q)) ->
    forall ps qs, Forall2 R ps qs -> sle eq (choice c o e ps) (fun i => choice (g i) o e qs).
  Proof.
    intros H ps qs F. induction F as [|a b ps qs Hab F IH]; cbn [choice]; [apply sle_refl|].
    pose proof (H _ _ Hab). cong.
  Qed.
  Lemma sle_choice_ltm (R : pat -> pat -> Prop) (c : pat -> M ctx span) (g : nat -> pat -> M ctx span) o e :
    (forall p q, R p q -> sle eq (c p) (fun i => g i q)) ->
    forall ps qs, Forall2 R ps qs -> forall best, sle eq (choice_ltm c o e best ps) (fun i => choice_ltm (g i) o e best qs).
  Proof.
    intros H ps qs F. induction F as [|a b ps qs Hab F IH]; intros best; cbn [choice_ltm]; [destruct best; apply sle_refl|].
    pose proof (H _ _ Hab). cong.
  Qed.

  (** ** One combinator *)

  Section Step.
    Variables (G G' : env).
    Variable pr : list nat -> list pat -> pat -> M ctx span.
    Variable gp : nat -> list nat -> list pat -> pat -> M ctx span.
    Variable R : pat -> pat -> Prop.
    Variables (held : list nat) (pols : list pat).
    Hypothesis HR : forall p q, R p q -> sle eq (pr held pols p) (fun i => gp i held pols q).
    Hypothesis HP : match pols with [] => True | r :: rest => sle eq (pr held rest r) (fun i => gp i held rest r) end.
    Variables (n : nat) (h : nat -> nat).
    Hypothesis Gh : grows h.

    Lemma sle_tm p q : R p q -> sle eq (tm pr held pols p) (fun i => tm (gp i) held pols q).
    Proof. intros H. unfold tm, try_mat. specialize (HR _ _ H). destruct pols as [|r rest]; [exact HR|]. cong. Qed.

    Lemma ple_check c c' x y : CondNode R c c' -> (forall p, c = CRegex p -> c' = CRegex p -> R p p) ->
      ple eq (check pr held pols c x y) (fun i => check (gp i) held pols c' x y).
    Proof.
      intros H Hs.
      assert (Q : forall p q, R p q -> ple eq (check pr held pols (CRegex p) x y) (fun i => check (gp i) held pols (CRegex q) x y)).
      { intros p q Hpq. cbn [check]. destruct (clone_at x (c_off x + fst y)) as [d|e| |]; try apply (ple_refl (A := bool)).
        destruct (sle_tm p q Hpq d) as [E|(k & r' & R1 & Q1)]; [rewrite E; now left|right].
        exists k. destruct R1 as [a b _|e e' _|]; eexists; (split; [|intros m Hm; rewrite Q1 by exact Hm; reflexivity]); now constructor. }
      destruct H as [c|p q Hpq]; [|now apply Q].
      destruct c as [|f|p]; [apply (ple_refl (Ok true))|apply (ple_refl (f x y))|]. apply Q. now apply Hs.
    Qed.

    Lemma Forall2_fst (ps qs : list (pat * val)) :
      Forall2 (fun a b => R (fst a) (fst b) /\ snd a = snd b) ps qs -> Forall2 R (map fst ps) (map fst qs).
    Proof. intros F. induction F as [|a b ps qs [H1 H2] F IH]; cbn; constructor; auto. Qed.

    Hypothesis HS : forall p, R p p.

    Ltac hook ::=
      match goal with
      | C : forall c c' x y, CondNode R c c' -> _ |- _ =>
          apply sle_reads; intros; cbv beta;
          first [now apply C | apply ple_scan; intros; now apply C | apply ple_scan_n; intros; now apply C]
      | |- _ => eapply sle_repeat; eassumption
      | |- _ => eapply sle_sep; eassumption
      end.

    Lemma sle_step p q : Node R p q ->
      sle eq (parse_step G pr n held pols p) (fun i => parse_step G' (gp i) (h i) held pols q).
    Proof.
      intros H.
      assert (T := sle_tm).
      assert (C : forall c c' x y, CondNode R c c' -> ple eq (check pr held pols c x y) (fun i => check (gp i) held pols c' x y))
        by (intros; apply ple_check; auto).
      destruct H; cbn [parse_step];
        repeat match goal with H : R ?p ?q |- _ => pose proof (T p q H); pose proof (HR p q H); clear H end;
        try solve [cong];
        try solve [unfold once_parse, many1_parse, opt_parse, many0_parse, between_parse, times_parse, neuthen_parse; cong]; try solve [unfold collect_loop; cong].
      - apply sle_guard. eapply sle_bind; [cong|intros s s' ->]. eapply sle_bind; [|intros q q' Q; apply sle_g_try, T, Q].
        apply sle_g_on. intros c. destruct (f c s') as [r d] eqn:E1. specialize (H0 c s'). rewrite E1 in H0. cbn [fst snd].
        inversion H0 as [a b d' Hab E2 E3|r' E2 E3]; subst.
        + right. exists 0, (Ok b). split; [now constructor|intros; congruence].
        + destruct r as [a|e| |]; [right|right|right|now left]; exists 0; eexists; (split; [|intros; first [reflexivity | symmetry; exact E3]]); constructor; auto.
      - eapply sle_bind; [apply sle_refl|intros o o' ->]. destruct l; [eapply sle_choice_ltm|eapply sle_choice]; eassumption.
      - eapply sle_bind; [apply sle_refl|intros o o' ->]. apply Forall2_fst in H.
        destruct l; [eapply sle_choice_ltm|eapply sle_choice]; eassumption.
    Qed.

    Context {S : Type}.
    Variable hd : handler S.
    Variable con : list nat -> pat -> M (ctx * S) val.
    Variable gcon : nat -> list nat -> pat -> M (ctx * S) val.
    Hypothesis HCon : forall p q, R p q -> sle eq (con held p) (fun i => gcon i held q).

    Lemma sle_cstep p q : Node R p q -> R p q ->
      sle eq (construct_step hd G pr con n held pols p) (fun i => construct_step hd G' (gp i) (gcon i) (h i) held pols q).
    Proof.
      intros H Hpq.
      assert (T : forall p q, R p q -> sle eq (@ctm S pr held pols p) (fun i => ctm (gp i) held pols q))
        by (intros; now apply sle_on_ctx, sle_tm).
      assert (L := T p q Hpq). clear Hpq.
      destruct H; cbn [construct_step];
        repeat match goal with H : R ?p ?q |- _ => pose proof (T p q H); pose proof (HCon p q H); clear H end;
        unfold leaf; try solve [cong];
        try solve [eapply sle_bind; [apply sle_refl|intros o o' ->];
          eapply sle_bind; [first [apply sle_sep_vals | apply sle_sep2_vals | apply sle_sepcollect_vals | apply sle_repeat_vals | apply sle_repeat2_vals]; eassumption|intros a b ->; apply sle_refl]].
      - eapply sle_bind; [cong|intros v v' ->]. rewrite H0. apply sle_refl.
      - apply sle_guard. eapply sle_bind; [cong|intros s s' ->]. eapply sle_bind; [|intros q q' Q; apply (sle_bind eq); [apply sle_g_try, HCon, Q|intros a b ->; apply sle_refl]].
        apply sle_g_on, sle_on_ctx. intros c. destruct (f c s') as [r d] eqn:E1. specialize (H0 c s'). rewrite E1 in H0. cbn [fst snd].
        inversion H0 as [a b d' Hab E2 E3|r' E2 E3]; subst.
        + right. exists 0, (Ok b). split; [now constructor|intros; congruence].
        + destruct r as [a|e| |]; [right|right|right|now left]; exists 0; eexists; (split; [|intros; first [reflexivity | symmetry; exact E3]]); constructor; auto.
      - eapply sle_bind; [apply sle_refl|intros o o' ->].
        assert (F : Forall2 (fun a b : pat * (val -> val) => R (fst a) (fst b) /\ (forall v, snd a v = snd b v)) (plain ps) (plain ps')).
        { clear L. induction H as [|a b ps ps' Hab F IH]; cbn; constructor; auto. }
        destruct l; [eapply sle_con_choice_ltm|eapply sle_con_choice]; eassumption.
      - eapply sle_bind; [apply sle_refl|intros o o' ->].
        assert (F : Forall2 (fun a b : pat * (val -> val) => R (fst a) (fst b) /\ (forall v, snd a v = snd b v)) (keyed ps) (keyed ps')).
        { clear L. induction H as [|a b ps ps' [Hab Hs] F IH]; cbn; constructor; auto. cbn. split; [exact Hab|]. intros v. now rewrite Hs. }
        destruct l; [eapply sle_con_choice_ltm|eapply sle_con_choice]; eassumption.
    Qed.
  End Step.
End Eventually.

(** ** Whole parsers *)

Lemma answers_sle E G held pols p q :
  (forall c r c', Answers G held pols p c r c' -> exists r', Alike E r r' /\ Answers G held pols q c r' c') ->
  forall n, sle E eq (parse n G held pols p) (fun i => parse i G held pols q).
Proof.
  intros H n c. destruct (parse n G held pols p c) as [r c'] eqn:E1. cbn [fst snd].
  assert (D : r = OOF \/ r <> OOF) by (destruct r; [right|right|right|left]; congruence).
  destruct D as [D|D]; [now left|right]. destruct (H c r c') as (r' & A & m & E2 & D').
  { exists n. auto. }
  exists m, r'. split; [destruct A; now constructor|]. intros i Hi. eapply mle_eq; [apply parse_mono; exact Hi|exact E2|exact D'].
Qed.
Lemma constructs_sle {S} E (h : handler S) G held pols p q :
  (forall c s r c' s', Constructs h G held pols p c s r c' s' -> exists r', Alike E r r' /\ Constructs h G held pols q c s r' c' s') ->
  forall n, sle E eq (construct h n G held pols p) (fun i => construct h i G held pols q).
Proof.
  intros H n [c s]. destruct (construct h n G held pols p (c, s)) as [r [c' s']] eqn:E1. cbn [fst snd].
  assert (D : r = OOF \/ r <> OOF) by (destruct r; [right|right|right|left]; congruence).
  destruct D as [D|D]; [now left|right]. destruct (H c s r c' s') as (r' & A & m & E2 & D').
  { exists n. auto. }
  exists m, r'. split; [destruct A; now constructor|]. intros i Hi. eapply mle_eq; [apply construct_mono; exact Hi|exact E2|exact D'].
Qed.
Lemma rcl_alike E {A} (r r' : res A) : rcl E eq r r' -> Alike E r r'.
Proof. intros [a b <-|e e' H|]; now constructor. Qed.

Lemma sle_self (E : error -> error -> Prop) (RE : forall e, E e e) n G held pols p : sle E eq (parse n G held pols p) (fun i => parse i G held pols p).
Proof. apply sle_mono; [exact RE|]. exists n. intros i Hi. now apply parse_mono. Qed.
Lemma sle_cself {S} (E : error -> error -> Prop) (RE : forall e, E e e) (h : handler S) n G held pols p : sle E eq (construct h n G held pols p) (fun i => construct h i G held pols p).
Proof. apply sle_mono; [exact RE|]. exists n. intros i Hi. now apply construct_mono. Qed.

Section Replace.
  Variable E : error -> error -> Prop.
  Hypothesis RE : forall e, E e e.
  Variables (G : env) (held : list nat) (pols : list pat).
  Variable B : pat -> pat -> Prop.
  Hypothesis HB : forall p q, B p q -> forall n, sle E eq (parse n G held pols p) (fun i => parse i G held pols q).

  Lemma replace_parse n : forall p q, Rewritten B p q -> sle E eq (parse n G held pols p) (fun i => parse i G held pols q).
  Proof.
    induction n as [|n IH]; intros p q H; [apply sle_oof|].
    destruct H as [p|p q H|p q H]; [now apply sle_self|now apply HB|].
    apply sle_shift. cbn [parse]. apply (sle_step E RE G G (parse n G) (fun i => parse i G) (Rewritten B) held pols); auto.
    - destruct pols as [|r rest]; [exact I|]. now apply sle_self.
    - apply grows_id.
    - intros r. apply rw_same.
  Qed.
  Context {S : Type}.
  Variable h : handler S.
  Hypothesis HC : forall p q, B p q -> forall n, sle E eq (construct h n G held pols p) (fun i => construct h i G held pols q).
  Lemma replace_construct n : forall p q, Rewritten B p q -> sle E eq (construct h n G held pols p) (fun i => construct h i G held pols q).
  Proof.
    induction n as [|n IH]; intros p q H; [apply sle_oof|].
    destruct H as [p|p q H|p q H]; [now apply sle_cself|now apply HC|].
    apply sle_shift. cbn [construct].
    apply (sle_cstep E RE G G (parse n G) (fun i => parse i G) (Rewritten B) held pols) with
      (con := fun hl => construct h n G hl pols) (gcon := fun i hl => construct h i G hl pols); auto.
    - intros. now apply replace_parse.
    - destruct pols as [|r rest]; [exact I|]. now apply sle_self.
    - apply grows_id.
    - intros r. apply rw_same.
    - now apply rw_inside.
  Qed.
End Replace.

Lemma rewritten_flip (B C : pat -> pat -> Prop) : (forall p q, B p q -> C q p) ->
  forall p q, Rewritten B p q -> Rewritten C q p.
Proof.
  intros H.
  fix IH 3. intros p q [r|r s K|r s K]; [apply rw_same|apply rw_here; auto|]. apply rw_inside.
  assert (CN : forall c c', CondNode (Rewritten B) c c' -> CondNode (Rewritten C) c' c)
    by (intros ? ? [|]; constructor; auto).
  assert (GV : forall x y, Given (Rewritten B) x y -> Given (Rewritten C) y x)
    by (intros ? ? [|]; constructor; auto).
  destruct K; try (constructor; auto; fail).
  - constructor. revert H0. generalize ps ps'. fix IL 3. intros ? ? [|]; constructor; auto.
  - constructor. revert H0. generalize ps ps'. fix IL 3. intros ? ? [|x y xs ys [H1 H2] F]; constructor; auto.
Qed.

(** ** Recursive parsers *)

Lemma sle_trans (E : error -> error -> Prop) (TE : forall a b c, E a b -> E b c -> E a c) {X A} (m : M X A) g g' :
  sle E eq m g -> (forall n, sle E eq (g n) g') -> sle E eq m g'.
Proof.
  intros H1 H2 x. destruct (H1 x) as [D|(k & r & R & Q)]; [now left|right].
  destruct (H2 k x) as [D|(k' & r' & R' & Q')].
  - rewrite Q in D by lia. cbn in D. subst r. inversion R.
  - rewrite Q in R', Q' by lia. cbn [fst snd] in R', Q'. exists k', r'. split; [|exact Q'].
    destruct R as [a b <-|e e' He|]; inversion R'; subst; constructor; eauto.
Qed.

(** Every parser that is neither a leaf nor a handle is the same combinator over equal parts. *)
Definition leafy (p : pat) : bool :=
  match p with
  | PEmpty | PFail | PStart | PEnd | PConsume _ | PConsumeAll | PLit _ | PFn _ | PNoneP | PCtorFn _ => true
  | _ => false
  end.
Lemma node_eq p : leafy p = true \/ (exists i, p = PRef i) \/ (exists i, p = PLock i) \/ Node eq p p.
Proof.
  assert (GV : forall x, Given (@eq pat) x x) by (intros; constructor).
  assert (CN : forall x, CondNode (@eq pat) x x) by (intros; constructor).
  destruct p; try (left; reflexivity); right; try solve [left; eauto]; right; try solve [left; eauto]; right;
    constructor; auto.
  - induction ps; constructor; auto.
  - induction ps; constructor; auto.
Qed.

Section Cells.
  Variable E : error -> error -> Prop.
  Hypothesis RE : forall e, E e e.
  Hypothesis TE : forall a b c, E a b -> E b c -> E a c.
  Variables G G' : env.

  Lemma cells_parse pols :
    (forall i p', env_get G' i = Some p' -> exists p, env_get G i = Some p /\
       forall pre pols', pols = pre ++ pols' -> forall held n, sle E eq (parse n G' held pols' p) (fun j => parse j G' held pols' p')) ->
    (forall i, env_get G' i = None -> env_get G i = None) ->
    forall n pre pols', pols = pre ++ pols' -> forall held p,
    sle E eq (parse n G held pols' p) (fun j => parse j G' held pols' p).
  Proof.
    intros H1 H2 n. induction n as [|n IH]; intros pre pols' HP held p; [apply sle_oof|].
    apply sle_shift. cbn [parse]. destruct (node_eq p) as [L|[(i & ->)|[(i & ->)|N]]].
    - destruct p; try discriminate; cbn [parse_step]; apply sle_refl; exact RE.
    - cbn [parse_step]. destruct (env_get G' i) as [p'|] eqn:D.
      + destruct (H1 i p' D) as (p & -> & K). eapply sle_trans; [exact TE|apply (IH _ _ HP)|]. intros m. eapply K; exact HP.
      + rewrite (H2 i D). apply sle_refl; exact RE.
    - cbn [parse_step]. destruct (existsb (Nat.eqb i) held); [apply sle_refl; exact RE|].
      destruct (env_get G' i) as [p'|] eqn:D.
      + destruct (H1 i p' D) as (p & -> & K). eapply sle_trans; [exact TE|apply (IH _ _ HP)|]. intros m. eapply K; exact HP.
      + rewrite (H2 i D). apply sle_refl; exact RE.
    - apply (sle_step E RE G G' (parse n G) (fun i => parse i G') eq held pols'); auto.
      + intros q ? <-. apply (IH _ _ HP).
      + destruct pols' as [|r rest]; [exact I|]. apply (IH (pre ++ [r])). now rewrite <- app_assoc.
      + apply grows_id.
  Qed.

  Context {S : Type}.
  Variable h : handler S.
  Lemma cells_construct pols :
    (forall i p', env_get G' i = Some p' -> exists p, env_get G i = Some p /\
       forall pre pols', pols = pre ++ pols' -> forall held n, sle E eq (parse n G' held pols' p) (fun j => parse j G' held pols' p')) ->
    (forall i p p', env_get G i = Some p -> env_get G' i = Some p' ->
       forall held n, sle E eq (construct h n G' held pols p) (fun j => construct h j G' held pols p')) ->
    (forall i, env_get G' i = None -> env_get G i = None) ->
    forall n held p,
    sle E eq (construct h n G held pols p) (fun j => construct h j G' held pols p).
  Proof.
    intros H1 HC H2 n. induction n as [|n IH]; intros held p; [apply sle_oof|].
    apply sle_shift. cbn [construct].
    assert (PA : forall pre pols', pols = pre ++ pols' -> forall held p, sle E eq (parse n G held pols' p) (fun j => parse j G' held pols' p))
      by (intros; eapply cells_parse; eassumption).
    assert (T : forall q, sle E eq (@ctm S (parse n G) held pols q) (fun i => ctm (parse i G') held pols q)).
    { intros q. apply sle_on_ctx. apply (sle_tm E (parse n G) (fun i => parse i G') eq held pols); auto.
      - intros q' ? <-. now apply (PA []).
      - destruct pols as [|r rest]; [exact I|]. now apply (PA [r]). }
    destruct (node_eq p) as [L|[(i & ->)|[(i & ->)|N]]].
    - destruct p; try discriminate; cbn [construct_step]; unfold leaf;
        try (apply sle_refl; exact RE); (eapply sle_bind; [apply T|intros a b ->; apply sle_refl; exact RE]).
    - cbn [construct_step]. destruct (env_get G' i) as [p'|] eqn:D.
      + destruct (H1 i p' D) as (p & D' & _). rewrite D'. eapply sle_trans; [exact TE|apply IH|]. intros m. eapply HC; eassumption.
      + rewrite (H2 i D). apply sle_refl; exact RE.
    - cbn [construct_step]. destruct (existsb (Nat.eqb i) held); [apply sle_refl; exact RE|].
      destruct (env_get G' i) as [p'|] eqn:D.
      + destruct (H1 i p' D) as (p & D' & _). rewrite D'. eapply sle_trans; [exact TE|apply IH|]. intros m. eapply HC; eassumption.
      + rewrite (H2 i D). apply sle_refl; exact RE.
    - apply (sle_cstep E RE G G' (parse n G) (fun i => parse i G') eq held pols) with
        (con := fun hl => construct h n G hl pols) (gcon := fun i hl => construct h i G' hl pols); auto.
      + intros q ? <-. now apply (PA []).
      + destruct pols as [|r rest]; [exact I|]. now apply (PA [r]).
      + apply grows_id.
      + intros q ? <-. apply IH.
  Qed.
End Cells.
