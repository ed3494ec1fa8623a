(** Handlers are only called with spans that cover whole items of the input. *)

From Coq Require Import List Arith NArith Bool Lia.
From Verif Require Import Base Text Context Neu Syntax Regex Ctor TextProofs Spec Units Leaf Sound Boundary.
Import ListNotations.

Section CtorBoundary.
  Variable k : kind.
  Variable G : env.
  Variable te : bool.
  Context {S : Type}.
  Variable h : handler S.
  (** A property of the handler state that valid calls preserve. *)
  Variable I : text -> S -> Prop.
  Notation cx := (cx k).
  Notation sp := (sp k).
  Notation bo := (bo k).
  Hypothesis HI : forall w x b j st, x <= length w -> b <= j -> j <= length w -> I w st ->
    I w (snd (h (cx w x) (sp w b j) st)).
  Notation bd := (bd k te).
  Notation bd_pols := (bd_pols k G te).

  Definition vres {A} (w : text) (r : res A * (ctx * S)) : Prop :=
    I w (snd (snd r)) /\
    match fst r with
    | Ok _ | Err _ => exists x, x <= length w /\ fst (snd r) = cx w x
    | Panic | OOF => True
    end.

  (** A computation started on a boundary with a good handler state. *)
  Definition safe {A} (w : text) (m : M (ctx * S) A) : Prop :=
    forall x st, x <= length w -> I w st -> vres w (m (cx w x, st)).

  Lemma safe_ret {A} w (a : A) : safe w (ret a).
  Proof. intros x st Hx Hst. split; [exact Hst|]. exists x; auto. Qed.
  Lemma safe_fail {A} w e : safe w (@fail _ A e).
  Proof. intros x st Hx Hst. split; [exact Hst|]. exists x; auto. Qed.
  Lemma safe_panic {A} w : safe w (@panic _ A).
  Proof. intros x st Hx Hst. split; [exact Hst|exact Logic.I]. Qed.
  Lemma safe_oof {A} w : safe w (@oof _ A).
  Proof. intros x st Hx Hst. split; [exact Hst|exact Logic.I]. Qed.
  Lemma safe_lift {A} w (r : res A) : safe w (lift r).
  Proof. intros x st Hx Hst. split; [exact Hst|]. destruct r; try exact Logic.I; exists x; auto. Qed.
  Lemma safe_reads {A} w (f : ctx * S -> res A) : safe w (reads f).
  Proof.
    intros x st Hx Hst. split; [exact Hst|]. unfold reads. simpl. destruct (f _); try exact Logic.I; exists x; auto.
  Qed.
  Lemma safe_bind {A B} w (m : M (ctx * S) A) (f : A -> M (ctx * S) B) :
    safe w m -> (forall a, safe w (f a)) -> safe w (bind m f).
  Proof.
    intros Hm Hf x st Hx Hst. unfold bind. destruct (Hm x st Hx Hst) as [H1 H2].
    destruct (m (cx w x, st)) as [[a|e| |] [c s]]; simpl in *; try (split; auto; fail).
    destruct H2 as (y & Hy & ->). now apply Hf.
  Qed.
  Lemma safe_catch {A} w (m : M (ctx * S) A) : safe w m -> safe w (catch m).
  Proof.
    intros Hm x st Hx Hst. unfold catch. destruct (Hm x st Hx Hst) as [H1 H2].
    destruct (m (cx w x, st)) as [[a|e| |] [c s]]; split; auto.
  Qed.
  Lemma safe_offset {A} w (f : nat -> M (ctx * S) A) :
    (forall i, i <= length w -> safe w (f (bo w i))) -> safe w (o <- offset ;; f o).
  Proof. intros Hf x st Hx Hst. now apply Hf. Qed.
  Lemma safe_set w i : i <= length w -> safe w (set_offset (bo w i)).
  Proof. intros Hi x st Hx Hst. split; [exact Hst|]. exists i. auto. Qed.
  Lemma safe_reset {A} w i (m : M (ctx * S) A) : i <= length w -> safe w m -> safe w (on_err_reset (bo w i) m).
  Proof.
    intros Hi Hm x st Hx Hst. unfold on_err_reset. destruct (Hm x st Hx Hst) as [H1 H2].
    destruct (m (cx w x, st)) as [[a|e| |] [c s]]; simpl in *; split; auto.
    destruct H2 as (y & Hy & ->). exists i. auto.
  Qed.
  Lemma safe_accept {A} w i ok e (a : A) : i <= length w -> safe w (accept ok e (bo w i) a).
  Proof.
    intros Hi. unfold accept. destruct ok; [apply safe_ret|].
    apply safe_bind; [now apply safe_set|intros; apply safe_fail].
  Qed.

  (** Guards. *)
  Definition gvres {A} (w : text) (o : nat) (r : res A * guard (ctx * S)) : Prop :=
    I w (snd (g_ctx (snd r))) /\ g_offset (snd r) = o /\
    match fst r with
    | Ok _ | Err _ => exists x, x <= length w /\ fst (g_ctx (snd r)) = cx w x
    | Panic | OOF => True
    end.
  Definition gsafe {A} (w : text) (m : M (guard (ctx * S)) A) : Prop :=
    forall x st i b, x <= length w -> i <= length w -> I w st ->
      gvres w (bo w i) (m (Guard (cx w x, st) (bo w i) b)).
  Lemma gs_try {A} w (m : M (ctx * S) A) : safe w m -> gsafe w (g_try m).
  Proof.
    intros Hm x st i b Hx Hi Hst. unfold g_try. simpl. destruct (Hm x st Hx Hst) as [H1 H2].
    destruct (m (cx w x, st)) as [[a|e| |] [c s]]; simpl in *; repeat split; auto.
  Qed.
  Lemma gs_on {A} w (m : M (ctx * S) A) : safe w m -> gsafe w (g_on m).
  Proof.
    intros Hm x st i b Hx Hi Hst. unfold g_on. simpl. destruct (Hm x st Hx Hst) as [H1 H2].
    destruct (m (cx w x, st)) as [[a|e| |] [c s]]; simpl in *; repeat split; auto.
  Qed.
  Lemma gs_bind {A B} w (m : M (guard (ctx * S)) A) (f : A -> M (guard (ctx * S)) B) :
    gsafe w m -> (forall a, gsafe w (f a)) -> gsafe w (bind m f).
  Proof.
    intros Hm Hf x st i b Hx Hi Hst. unfold bind. destruct (Hm x st i b Hx Hi Hst) as (H1 & H2 & H3).
    destruct (m _) as [[a|e| |] [[c s] o b']]; simpl in *; try (repeat split; auto; fail).
    destruct H3 as (y & Hy & ->). subst o. now apply Hf.
  Qed.
  Lemma gs_catch {A} w (m : M (guard (ctx * S)) A) : gsafe w m -> gsafe w (catch m).
  Proof.
    intros Hm x st i b Hx Hi Hst. unfold catch. destruct (Hm x st i b Hx Hi Hst) as (H1 & H2 & H3).
    destruct (m _) as [[a|e| |] [[c s] o b']]; simpl in *; repeat split; auto.
  Qed.
  Lemma gs_ret {A} w (a : A) : gsafe w (ret a).
  Proof. intros x st i b Hx Hi Hst. repeat split; auto. exists x; auto. Qed.
  Lemma safe_guard {A} w (m : M (guard (ctx * S)) A) : gsafe w m -> safe w (with_guard m).
  Proof.
    intros Hm x st Hx Hst. unfold with_guard, g_new.
    change (get_off (cx w x, st)) with (bo w x). destruct (Hm x st x false Hx Hx Hst) as (H1 & H2 & H3).
    destruct (m _) as [r [[c s] o b']]; simpl in *. unfold vres, g_drop. simpl. subst o.
    destruct b'; simpl; split; auto; destruct r; auto; destruct H3 as (y & Hy & ->); exists x; auto.
  Qed.

  Section Loops.
    Variable w : text.
    Variable con : M (ctx * S) val.
    Variable tms : M (ctx * S) span.
    Hypothesis HC : safe w con.
    Hypothesis HT : safe w tms.

    Lemma s_repeat n more acc : safe w (repeat_vals con n more acc).
    Proof.
      revert acc. induction n as [|n IH]; intros acc; cbn [repeat_vals]; [apply safe_oof|].
      destruct (more _); [|apply safe_ret]. apply safe_bind; [now apply safe_catch|].
      intros [v|e]; [apply IH|apply safe_ret].
    Qed.
    Lemma s_repeat2 n l acc : safe w (repeat2_vals con n l acc).
    Proof.
      revert acc. induction n as [|n IH]; intros acc; cbn [repeat2_vals]; [apply safe_oof|].
      destruct (_ <=? _); [|apply safe_ret]. apply safe_bind; [now apply safe_catch|].
      intros [v|e]; [destruct (_ <? _); [apply IH|apply safe_panic]|apply safe_ret].
    Qed.
    Lemma s_sep n skip acc : safe w (sep_vals con tms n skip acc).
    Proof.
      revert acc. induction n as [|n IH]; intros acc; cbn [sep_vals]; [apply safe_oof|].
      apply safe_bind; [now apply safe_catch|]. intros [v|e]; [|apply safe_ret].
      apply safe_bind; [now apply safe_catch|]. intros [s|e]; [apply IH|apply safe_ret].
    Qed.
    Lemma s_sep2 n l skip acc : safe w (sep2_vals con tms n l skip acc).
    Proof.
      revert acc. induction n as [|n IH]; intros acc; cbn [sep2_vals]; [apply safe_oof|].
      destruct (_ <=? _); [|apply safe_ret].
      apply safe_bind; [now apply safe_catch|]. intros [v|e]; [|apply safe_ret].
      apply safe_bind; [now apply safe_catch|]. intros [s|e].
      - destruct (_ <? _); [apply IH|apply safe_panic].
      - destruct skip; [|apply safe_ret]. destruct (_ <? _); [apply safe_ret|apply safe_panic].
    Qed.
    Lemma s_sepcollect n skip en acc : safe w (sepcollect_vals con tms n skip en acc).
    Proof.
      revert en acc. induction n as [|n IH]; intros en acc; cbn [sepcollect_vals]; [apply safe_oof|].
      apply safe_bind; [now apply safe_catch|]. intros [v|e]; [|apply safe_ret].
      apply safe_bind; [now apply safe_catch|]. intros s.
      destruct en; [apply safe_ret|]. destruct (_ || _); [apply IH|apply safe_ret].
    Qed.
  End Loops.

  Lemma s_choice w con i e ps : i <= length w -> (forall p, In p ps -> safe w (con (fst p))) ->
    safe w (con_choice con (bo w i) e ps).
  Proof.
    intros Hi Hc. induction ps as [|p ps IH]; cbn [con_choice]; [apply safe_fail|].
    apply safe_bind; [apply safe_catch, safe_reset; auto; apply Hc; now left|].
    intros [v|e']; [apply safe_ret|apply IH]. intros q Hq. apply Hc. now right.
  Qed.
  Lemma s_choice_ltm w con i e ps best en : i <= length w -> (forall p, In p ps -> safe w (con (fst p))) ->
    safe w (con_choice_ltm con (bo w i) e best en ps).
  Proof.
    intros Hi. revert best en. induction ps as [|p ps IH]; intros best en Hc; cbn [con_choice_ltm].
    - destruct best; [apply safe_ret|apply safe_fail].
    - apply safe_bind; [now apply safe_set|intros _].
      apply safe_bind; [apply safe_catch, Hc; now left|]. intros r. apply safe_offset. intros j Hj.
      assert (Hc' : forall q, In q ps -> safe w (con (fst q))) by (intros q Hq; apply Hc; now right).
      destruct r; [destruct (_ <? _)|]; now apply IH.
  Qed.

  Section Step.
    Variable n : nat.
    Variable pols : list pat.
    Hypothesis PO : bd_pols pols.
    Notation pl := (is_plain pols).
    Variable con : list nat -> pat -> M (ctx * S) val.
    Hypothesis CON : forall held t p w, bd pl t p -> safe w (con held p).
    Variable fuel : nat.
    Variable held : list nat.

    Lemma s_ctm t p w : bd pl t p -> safe w (ctm (parse n G) held pols p).
    Proof.
      intros Hp x st Hx Hst. unfold ctm, on_ctx. cbn [fst snd].
      change (tm (parse n G) held pols p (cx w x)) with (try_mat (parse n G held) pols p (cx w x)).
      pose proof (try_mat_d k G te n held pols t p w x PO Hp Hx) as D.
      destruct D as [b j y H1 H2 H3 H4|e y H| |]; split; simpl; auto; exists y; auto.
    Qed.

    Lemma s_leaf t p w : bd pl t p -> safe w (leaf h (parse n G) held pols p).
    Proof.
      intros Hp x st Hx Hst. unfold leaf, bind, ctm, on_ctx. cbn [fst snd].
      change (tm (parse n G) held pols p (cx w x)) with (try_mat (parse n G held) pols p (cx w x)).
      pose proof (try_mat_d k G te n held pols t p w x PO Hp Hx) as D.
      destruct D as [b j y H1 H2 H3 H4|e y H| |]; try (split; simpl; auto; exists y; auto; fail).
      unfold invoke. cbn [fst snd]. pose proof (HI w y b j st H3 H1 H2 Hst) as Q.
      destruct (h (cx w y) (sp w b j) st) as [r st']. split; [exact Q|].
      destruct r; simpl; auto; exists y; auto.
    Qed.

    Lemma step_s t p w : bd pl t p -> safe w (construct_step h G (parse n G) con fuel held pols p).
    Proof.
      intros Hp. assert (Hp' := Hp).
      destruct Hp; cbn [construct_step]; try (now apply s_leaf with (t := t)); try (now apply s_leaf with (t := false)).
      - destruct p; try discriminate H; now apply s_leaf with (t := t).
      - apply safe_guard, gs_try. repeat (apply safe_bind; [eauto|intros]). apply safe_ret.
      - apply safe_guard. apply gs_bind; [now apply gs_try; eauto|intros a].
        apply gs_bind; [apply gs_catch, gs_on, safe_guard, gs_try; eauto using s_ctm|].
        intros [s|e]; [|apply gs_ret]. apply gs_bind; [apply gs_try; eauto|intros; apply gs_ret].
      - apply safe_offset. intros i Hi. apply safe_reset; auto.
        apply safe_bind; [apply safe_catch; eauto|]. intros [v|e]; [apply safe_ret|].
        apply safe_bind; [now apply safe_set|intros; eauto].
      - apply safe_offset. intros i Hi. apply safe_bind; [apply safe_catch; eauto|]. intros a.
        apply safe_offset. intros il Hil. apply safe_bind; [now apply safe_set|intros _].
        apply safe_bind; [apply safe_catch; eauto|]. intros b. apply safe_offset. intros ir Hir.
        destruct a, b; try (destruct (_ <=? _)); (apply safe_bind; [now apply safe_set|intros]);
          try apply safe_ret; apply safe_fail.
      - apply safe_guard. apply gs_bind; [apply gs_try; eauto using s_ctm|intros]. apply gs_try; eauto.
      - apply safe_guard. apply gs_bind; [apply gs_try; eauto|intros].
        apply gs_bind; [apply gs_try; eauto using s_ctm|intros; apply gs_ret].
      - apply safe_guard. apply gs_bind; [apply gs_try; eauto using s_ctm|intros].
        apply gs_bind; [apply gs_try; eauto|intros].
        apply gs_bind; [apply gs_try; eauto using s_ctm|intros; apply gs_ret].
      - apply safe_guard. apply gs_bind; [apply gs_try; eauto|intros].
        apply gs_bind; [apply gs_try; eauto using s_ctm|intros].
        apply gs_bind; [apply gs_try; eauto|intros; apply gs_ret].
      - apply safe_offset. intros i Hi. apply safe_bind; [apply s_sep; eauto using s_ctm|intros].
        now apply safe_accept.
      - apply safe_offset. intros i Hi. apply safe_bind; [apply s_sep2; eauto using s_ctm|intros].
        now apply safe_accept.
      - apply safe_offset. intros i Hi. apply safe_bind; [apply s_sepcollect; eauto using s_ctm|intros].
        now apply safe_accept.
      - apply safe_offset. intros i Hi. apply safe_bind; [apply s_repeat; eauto|intros].
        now apply safe_accept.
      - apply safe_offset. intros i Hi. apply safe_bind; [apply s_repeat2; eauto|intros].
        now apply safe_accept.
      - apply safe_offset. intros i Hi. apply safe_bind; [apply s_repeat; eauto|intros].
        now apply safe_accept.
      - apply safe_offset. intros i Hi. apply safe_bind; [apply safe_catch, safe_reset; eauto|].
        intros [v|e]; apply safe_ret.
      - apply safe_offset. intros i Hi. apply safe_bind; [apply safe_reads|].
        intros [|]; apply safe_reset; eauto.
      - apply safe_bind; [eauto|intros; apply safe_lift].
      - apply safe_guard. apply gs_bind; [apply gs_try; eauto|intros v].
        assert (forall x st i b, x <= length w -> i <= length w -> I w st ->
          exists r c, (g_on (on_ctx (fun c => f c v))) (Guard (cx w x, st) (bo w i) b) = (r, Guard (c, st) (bo w i) b)
            /\ match r with Ok q => bd pl false q | _ => True end /\
               match r with Ok _ | Err _ => exists x, x <= length w /\ c = cx w x | _ => True end).
        { intros x st i b Hx Hi Hst. unfold g_on, on_ctx. cbn [g_ctx fst snd g_offset g_reset].
          specialize (H w x v Hx). specialize (H0 (cx w x) v).
          destruct (f (cx w x) v) as [r c]. exists r, c. split; [reflexivity|].
          split; [destruct r; auto; eapply H0; eauto|]. destruct r; auto. }
        intros x st i b Hx Hi Hst. unfold bind at 1.
        destruct (H1 x st i b Hx Hi Hst) as (r & c & E & A1 & A2). rewrite E.
        destruct r as [q|e| |]; try (repeat split; auto; fail).
        destruct A2 as (y & Hy & ->).
        assert (GS : gsafe w (b0 <- g_try (con held q);; ret (VPair v b0))).
        { apply gs_bind; [apply gs_try; eauto|intros; apply gs_ret]. }
        now apply GS.
      - intros x st Hx Hst. unfold on_ctx. cbn [fst snd]. specialize (H w x Hx).
        destruct (f (cx w x)) as [r c]. split; auto.
      - apply safe_offset. intros i Hi.
        assert (Q : forall q, In q (plain ps) -> safe w (con held (fst q))).
        { intros q Hq. unfold plain in Hq. apply in_map_iff in Hq. destruct Hq as (q' & <- & Hq). simpl. eauto. }
        destruct ltm; [now apply s_choice_ltm|now apply s_choice].
      - apply safe_offset. intros i Hi.
        assert (Q : forall q, In q (keyed ps) -> safe w (con held (fst q))).
        { intros q Hq. unfold keyed in Hq. apply in_map_iff in Hq. destruct Hq as (q' & <- & Hq). simpl.
          eapply CON, H. apply in_map_iff. eauto. }
        destruct ltm; [now apply s_choice_ltm|now apply s_choice].
      - eauto.
      - apply safe_fail.
      - destruct (env_get G i) as [q|] eqn:E; [|apply safe_fail].
        apply (bd_pols_env k G te pols PO) in E. eauto.
      - destruct (existsb _ held); [apply safe_panic|].
        destruct (env_get G i) as [q|] eqn:E; [|apply safe_fail].
        apply (bd_pols_env k G te pols PO) in E. eauto.
    Qed.
  End Step.

  Theorem construct_s n pols : bd_pols pols -> forall held t p w, bd (is_plain pols) t p ->
    safe w (construct h n G held pols p).
  Proof.
    intros PO. induction n as [|n IH]; intros held t p w Hp; [apply safe_oof|].
    cbn [construct]. eapply step_s; eauto.
  Qed.
End CtorBoundary.
