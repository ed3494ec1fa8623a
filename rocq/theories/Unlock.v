(** Replacing synchronized recursive parsers by plain ones. *)

From Coq Require Import List Arith NArith Bool Lia.
From Verif Require Import Base Text Context Neu Syntax Regex Ctor Api Obs.
Import ListNotations.

Definition rmap {A B} (f : A -> B) (r : res A) : res B :=
  match r with Ok a => Ok (f a) | Err e => Err e | Panic => Panic | OOF => OOF end.

(** [lk i] in place of the synchronized handle [i], everywhere in a parser. *)
Section Relock.
Variable lk : nat -> pat.
Fixpoint relock (p : pat) : pat :=
  match p with
  | PLock i => lk i
  | PAssert p v => PAssert (relock p) v
  | PBuilder p f => PBuilder (relock p) (fun c s => (rmap relock (fst (f c s)), snd (f c s)))
  | PLeaf p => PLeaf (relock p)
  | POnce u c => POnce u (relock_cond c)
  | PMany1 u c => PMany1 u (relock_cond c)
  | POpt u c => POpt u (relock_cond c)
  | PMany0 u c => PMany0 u (relock_cond c)
  | PBetween m n u c => PBetween m n u (relock_cond c)
  | PTimes r u c => PTimes r u (relock_cond c)
  | PNeuThen u v c => PNeuThen u v (relock_cond c)
  | PThen p q => PThen (relock p) (relock q)
  | PIfThen p t q => PIfThen (relock p) (relock t) (relock q)
  | POr p q => POr (relock p) (relock q)
  | PLongest p q => PLongest (relock p) (relock q)
  | PPat p => PPat (relock p)
  | PPrefix p q => PPrefix (relock p) (relock q)
  | PSuffix p q => PSuffix (relock p) (relock q)
  | PEnclose p o c => PEnclose (relock p) (relock o) (relock c)
  | PSepOnce p s q => PSepOnce (relock p) (relock s) (relock q)
  | PSep p s m b => PSep (relock p) (relock s) m b
  | PSep2 p s m n b => PSep2 (relock p) (relock s) m n b
  | PSepCollect p s m b => PSepCollect (relock p) (relock s) m b
  | PRepeat p r => PRepeat (relock p) r
  | PRepeat2 p m n => PRepeat2 (relock p) m n
  | PCollect p m => PCollect (relock p) m
  | POption p => POption (relock p)
  | PBranch t p q => PBranch t (relock p) (relock q)
  | PMap p f => PMap (relock p) f
  | PDynThen p f => PDynThen (relock p) (fun c v => (rmap relock (fst (f c v)), snd (f c v)))
  | PChoice e b ps => PChoice e b (map relock ps)
  | PPairChoice e b ps => PPairChoice e b (map (fun x => (relock (fst x), snd x)) ps)
  | PWrap p => PWrap (relock p)
  | PEmpty | PFail | PStart | PEnd | PConsume _ | PConsumeAll | PLit _ | PFn _ | PCtorFn _ | PNoneP | PRef _ => p
  end
with relock_cond (c : cond) : cond :=
  match c with CRegex p => CRegex (relock p) | c => c end.
End Relock.

(** [rec_parser] in place of [rec_parser_sync], everywhere in a parser. *)
Definition unlock (p : pat) : pat := relock PRef p.
Definition unlock_env (G : env) : env := map (option_map unlock) G.

(** Parsers that a parser runs directly. *)
Definition cond_sub (c : cond) (q : pat) : Prop := match c with CRegex p => q = p | _ => False end.
Definition sub (p q : pat) : Prop :=
  match p with
  | PAssert p _ | PLeaf p | PPat p | PRepeat p _ | PRepeat2 p _ _ | PCollect p _ | POption p | PMap p _ | PWrap p => q = p
  | PBuilder p f => q = p \/ exists c s c', f c s = (Ok q, c')
  | POnce _ c | PMany1 _ c | POpt _ c | PMany0 _ c | PBetween _ _ _ c | PTimes _ _ c | PNeuThen _ _ c => cond_sub c q
  | PThen p p' | POr p p' | PLongest p p' | PPrefix p p' | PSuffix p p' | PSep p p' _ _ | PSep2 p p' _ _ _
  | PSepCollect p p' _ _ | PBranch _ p p' => q = p \/ q = p'
  | PIfThen p p' p'' | PEnclose p p' p'' | PSepOnce p p' p'' => q = p \/ q = p' \/ q = p''
  | PDynThen p f => q = p \/ exists c v c', f c v = (Ok q, c')
  | PChoice _ _ ps => In q ps
  | PPairChoice _ _ ps => In q (map fst ps)
  | PEmpty | PFail | PStart | PEnd | PConsume _ | PConsumeAll | PLit _ | PFn _ | PCtorFn _ | PNoneP | PRef _ | PLock _ => False
  end.
(** Parsers that occur in a parser. *)
Inductive within : pat -> pat -> Prop :=
| within_refl p : within p p
| within_sub p q r : sub p q -> within q r -> within p r.

Section T.
Variable t : bool.
Variable lk : nat -> pat.
Notation reenv G := (map (option_map (relock lk)) G).

(** [m] does the same as [m'] or, if [t], panics (a handle is locked while it is in use: deadlock). *)
Definition rpl {A} (r r' : res A) : Prop := (t = true /\ r = Panic) \/ r = r'.
Definition ple {X A} (m m' : M X A) : Prop := forall x, (t = true /\ fst (m x) = Panic) \/ m x = m' x.

Lemma rpl_refl {A} (r : res A) : rpl r r.
Proof. now right. Qed.
Lemma ple_refl {X A} (m : M X A) : ple m m.
Proof. intros x. now right. Qed.
Lemma ple_bind {X A B} (m m' : M X A) (k k' : A -> M X B) :
  ple m m' -> (forall a, ple (k a) (k' a)) -> ple (bind m k) (bind m' k').
Proof.
  intros H1 H2 x. unfold bind. destruct (H1 x) as [[ET E]|E].
  - destruct (m x) as [r x'] eqn:Em. simpl in E. subst r. left. auto.
  - rewrite <- E. destruct (m x) as [[a|e| |] x']; try now right. apply H2.
Qed.

Lemma ple_catch {X A} (m m' : M X A) : ple m m' -> ple (catch m) (catch m').
Proof.
  intros H x. unfold catch. destruct (H x) as [[ET E]|E].
  - destruct (m x) as [r x'] eqn:Em. simpl in E. subst r. left. auto.
  - rewrite <- E. now right.
Qed.

Lemma ple_gtry {X A} (m m' : M X A) : ple m m' -> ple (g_try m) (g_try m').
Proof.
  intros H g. unfold g_try. destruct (H (g_ctx g)) as [[ET E]|E].
  - destruct (m (g_ctx g)) as [r x'] eqn:Em. simpl in E. subst r. left. auto.
  - rewrite <- E. now right.
Qed.

Lemma ple_gon {X A} (m m' : M X A) : ple m m' -> ple (g_on m) (g_on m').
Proof.
  intros H g. unfold g_on. destruct (H (g_ctx g)) as [[ET E]|E].
  - destruct (m (g_ctx g)) as [r x'] eqn:Em. simpl in E. subst r. left. auto.
  - rewrite <- E. now right.
Qed.

Lemma ple_guard {X A} `{HasOffset X} (m m' : M (guard X) A) :
  ple m m' -> ple (with_guard m) (with_guard m').
Proof.
  intros Hm x. unfold with_guard. destruct (Hm (g_new x)) as [[ET E]|E].
  - destruct (m (g_new x)) as [r x'] eqn:Em. simpl in E. subst r. left. auto.
  - rewrite <- E. now right.
Qed.

Lemma ple_reset {X A} `{HasOffset X} o (m m' : M X A) :
  ple m m' -> ple (on_err_reset o m) (on_err_reset o m').
Proof.
  intros Hm x. unfold on_err_reset. destruct (Hm x) as [[ET E]|E].
  - destruct (m x) as [r x'] eqn:Em. simpl in E. subst r. left. auto.
  - rewrite <- E. now right.
Qed.

Lemma ple_reads {X A} (f f' : X -> res A) : (forall x, rpl (f x) (f' x)) -> ple (reads f) (reads f').
Proof. intros H x. unfold reads. destruct (H x) as [[ET E]|E]; rewrite E; [left; auto|now right]. Qed.

Lemma ple_on_ctx {S A} (m m' : M ctx A) : ple m m' -> ple (@on_ctx S A m) (on_ctx m').
Proof.
  intros H x. unfold on_ctx. destruct (H (fst x)) as [[ET E]|E].
  - destruct (m (fst x)) as [r x'] eqn:Em. simpl in E. subst r. left. auto.
  - rewrite <- E. now right.
Qed.

Create HintDb poised.
Hint Resolve ple_refl rpl_refl ple_catch ple_gtry ple_gon ple_guard ple_reset
  ple_on_ctx : poised.

Ltac poised := repeat first
  [ solve [auto with poised]
  | apply ple_guard | apply ple_bind; [|intros]
  | match goal with
    | [ |- ple (match ?a with _ => _ end) _ ] => destruct a
    | [ |- ple (if ?a then _ else _) _ ] => destruct a
    | [ |- ple (let (_, _) := ?a in _) _ ] => destruct a
    end
  | apply ple_gtry | apply ple_gon | apply ple_catch | apply ple_reset | apply ple_on_ctx
  | apply ple_reads; intros ].

Section Loops.
  Context {X : Type} `{HasOffset X}.

  Lemma poised_repeat (m m' : M X span) : ple m m' -> forall n more cnt tot,
    ple (repeat_loop m n more cnt tot) (repeat_loop m' n more cnt tot).
  Proof.
    intros Ht n. induction n as [|n IH]; intros more cnt tot; [apply ple_refl|].
    cbn [repeat_loop]. destruct (more cnt); poised.
  Qed.

  Lemma poised_sep (m m' s s' : M X span) : ple m m' -> ple s s' -> forall n more sk cnt tot,
    ple (sep_loop m s n more sk cnt tot) (sep_loop m' s' n more sk cnt tot).
  Proof.
    intros Ht Hs n. induction n as [|n IH]; intros more sk cnt tot; [apply ple_refl|].
    cbn [sep_loop]. destruct (more cnt); poised.
  Qed.

  Lemma poised_repeat_vals (m m' : M X val) : ple m m' -> forall n more acc,
    ple (repeat_vals m n more acc) (repeat_vals m' n more acc).
  Proof.
    intros Ht n. induction n as [|n IH]; intros more acc; [apply ple_refl|].
    cbn [repeat_vals]. destruct (more (length acc)); poised.
  Qed.

  Lemma poised_repeat2_vals (m m' : M X val) : ple m m' -> forall n l acc,
    ple (repeat2_vals m n l acc) (repeat2_vals m' n l acc).
  Proof.
    intros Ht n. induction n as [|n IH]; intros l acc; [apply ple_refl|].
    cbn [repeat2_vals]. destruct (length acc <=? l); poised.
  Qed.

  Lemma poised_sep_vals (m m' : M X val) (s s' : M X span) : ple m m' -> ple s s' ->
    forall n sk acc, ple (sep_vals m s n sk acc) (sep_vals m' s' n sk acc).
  Proof.
    intros Ht Hs n. induction n as [|n IH]; intros sk acc; [apply ple_refl|].
    cbn [sep_vals]. poised.
  Qed.

  Lemma poised_sep2_vals (m m' : M X val) (s s' : M X span) : ple m m' -> ple s s' ->
    forall n l sk acc, ple (sep2_vals m s n l sk acc) (sep2_vals m' s' n l sk acc).
  Proof.
    intros Ht Hs n. induction n as [|n IH]; intros l sk acc; [apply ple_refl|].
    cbn [sep2_vals]. destruct (length acc <=? l); poised.
  Qed.

  Lemma poised_sepcollect_vals (m m' : M X val) (s s' : M X span) : ple m m' -> ple s s' ->
    forall n sk en acc,
    ple (sepcollect_vals m s n sk en acc) (sepcollect_vals m' s' n sk en acc).
  Proof.
    intros Ht Hs n. induction n as [|n IH]; intros sk en acc; [apply ple_refl|].
    cbn [sepcollect_vals]. poised.
  Qed.

  Lemma poised_con_choice (c c' : pat -> M X val) o e : forall ps, (forall p, In p (map fst ps) -> ple (c p) (c' (relock lk p))) ->
    ple (con_choice c o e ps) (con_choice c' o e (map (fun x => (relock lk (fst x), snd x)) ps)).
  Proof.
    induction ps as [|p ps IH]; intros Hc; cbn [con_choice map fst snd]; [poised|].
    pose proof (Hc (fst p) (or_introl eq_refl)). pose proof (IH (fun q I => Hc q (or_intror I))). poised.
  Qed.

  Lemma poised_con_choice_ltm (c c' : pat -> M X val) o e : forall ps, (forall p, In p (map fst ps) -> ple (c p) (c' (relock lk p))) ->
    forall b en, ple (con_choice_ltm c o e b en ps)
      (con_choice_ltm c' o e b en (map (fun x => (relock lk (fst x), snd x)) ps)).
  Proof.
    induction ps as [|p ps IH]; intros Hc b en; cbn [con_choice_ltm map fst snd]; [poised|].
    pose proof (Hc (fst p) (or_introl eq_refl)). pose proof (IH (fun q I => Hc q (or_intror I))). poised.
  Qed.
End Loops.

Lemma poised_choice (c c' : pat -> M ctx span) o e : forall ps, (forall p, In p ps -> ple (c p) (c' (relock lk p))) ->
  ple (choice c o e ps) (choice c' o e (map (relock lk) ps)).
Proof.
  induction ps as [|p ps IH]; intros Hc; cbn [choice map]; [poised|].
  pose proof (Hc p (or_introl eq_refl)). pose proof (IH (fun q I => Hc q (or_intror I))). poised.
Qed.

Lemma poised_choice_ltm (c c' : pat -> M ctx span) o e : forall ps, (forall p, In p ps -> ple (c p) (c' (relock lk p))) ->
  forall b, ple (choice_ltm c o e b ps) (choice_ltm c' o e b (map (relock lk) ps)).
Proof.
  induction ps as [|p ps IH]; intros Hc b; cbn [choice_ltm map]; [poised|].
  pose proof (Hc p (or_introl eq_refl)). pose proof (IH (fun q I => Hc q (or_intror I))). poised.
Qed.

Lemma poised_scan u chk chk' l beg : (forall x, rpl (chk x) (chk' x)) ->
  rpl (scan u chk beg l) (scan u chk' beg l).
Proof.
  intros H. revert beg. induction l as [|x l IH]; intros beg; cbn [scan]; [apply rpl_refl|].
  destruct (negb (u (snd x))); [apply rpl_refl|].
  destruct (H x) as [[ET E]|E]; rewrite E; [left; auto|]. destruct (chk' x) as [[|]| | |]; auto with poised.
Qed.

Lemma poised_scan_n u chk chk' more l cnt beg : (forall x, rpl (chk x) (chk' x)) ->
  rpl (scan_n u chk more cnt beg l) (scan_n u chk' more cnt beg l).
Proof.
  intros H. revert cnt beg. induction l as [|x l IH]; intros cnt beg; cbn [scan_n]; [apply rpl_refl|].
  destruct (more cnt); [|apply rpl_refl]. destruct (u (snd x)); [|apply rpl_refl].
  destruct (H x) as [[ET E]|E]; rewrite E; [left; auto|]. destruct (chk' x) as [[|]| | |]; auto with poised.
Qed.

Hint Resolve poised_scan poised_scan_n : poised.

Lemma env_get_unlock G i : env_get (reenv G) i = option_map (relock lk) (env_get G i).
Proof. unfold env_get, unlock_env. now rewrite <- (map_nth (option_map (relock lk))). Qed.
Lemma map_fst_unlock (ps : list (pat * val)) :
  map fst (map (fun x => (relock lk (fst x), snd x)) ps) = map (relock lk) (map fst ps).
Proof. rewrite !map_map. reflexivity. Qed.
Lemma plain_unlock ps : plain (map (relock lk) ps) = map (fun x => (relock lk (fst x), snd x)) (plain ps).
Proof. unfold plain. rewrite !map_map. reflexivity. Qed.
Lemma keyed_unlock ps : keyed (map (fun x => (relock lk (fst x), snd x)) ps) = map (fun x => (relock lk (fst x), snd x)) (keyed ps).
Proof. unfold keyed. rewrite !map_map. reflexivity. Qed.
Lemma fst_plain ps : map fst (plain ps) = ps.
Proof. unfold plain. rewrite map_map. apply map_id. Qed.
Lemma fst_keyed ps : map fst (keyed ps) = map fst ps.
Proof. unfold keyed. rewrite map_map. reflexivity. Qed.

(** A closure that returns a parser, followed by that parser. *)
Lemma ple_dyn {X B} (f : X -> res pat * X) (k k' : pat -> M X B) :
  (forall x q x', f x = (Ok q, x') -> ple (k q) (k' (relock lk q))) ->
  ple (bind f k) (bind (fun x => (rmap (relock lk) (fst (f x)), snd (f x))) k').
Proof.
  intros H x. unfold bind. specialize (H x). destruct (f x) as [[q|e| |] x']; cbn [fst snd rmap]; try now right.
  eapply H. reflexivity.
Qed.

(** Which parsers may run while the handles [held] are locked. *)
Variable G : env.
Variable P : list nat -> pat -> Prop.
Hypothesis P_sub : forall held p q, P held p -> sub p q -> P held q.
Hypothesis P_ref : forall held i q, P held (PRef i) -> env_get G i = Some q -> P held q.
Hypothesis P_lock : forall held i, P held (PLock i) -> existsb (Nat.eqb i) held = true -> t = true.
Hypothesis P_plain : forall held i, P held (PLock i) -> existsb (Nat.eqb i) held = false -> lk i = PRef i.
Hypothesis P_locked : forall held i q, P held (PLock i) -> existsb (Nat.eqb i) held = false ->
  env_get G i = Some q -> P (i :: held) q.

(** Policies may run at any time. *)
Definition free (pols : list pat) : Prop := Forall (fun r => forall held, P held r) pols.

Section Step.
  Variable n : nat.
  Variable pr pr' : list nat -> list pat -> pat -> M ctx span.
  Hypothesis PR : forall held held' pols p, free pols -> P held p ->
    ple (pr held pols p) (pr' held' (map (relock lk) pols) (relock lk p)).

  Lemma poised_tm held held' pols p : free pols -> P held p ->
    ple (tm pr held pols p) (tm pr' held' (map (relock lk) pols) (relock lk p)).
  Proof.
    intros F Hp. unfold tm, try_mat. destruct F as [|r pols Hr F]; cbn [map].
    - apply (PR held held' []); [constructor|exact Hp].
    - apply ple_bind; [|intros]; [apply PR; [exact F|apply Hr]|].
      apply (PR held held' (r :: pols)); [constructor; assumption|exact Hp].
  Qed.

  Lemma poised_check held held' pols c x y : free pols -> (forall q, cond_sub c q -> P held q) ->
    rpl (check pr held pols c x y) (check pr' held' (map (relock lk) pols) (relock_cond lk c) x y).
  Proof.
    intros F H. destruct c as [|f|p]; cbn [check relock_cond]; auto with poised.
    destruct (clone_at x (c_off x + fst y)) as [c'|e| |]; auto with poised.
    destruct (poised_tm held held' pols p F (H p eq_refl) c') as [[T E]|E]; rewrite E; [left; auto|apply rpl_refl].
  Qed.

  Hint Resolve poised_tm poised_check : poised.

  Lemma poised_step held held' pols p : free pols -> P held p ->
    ple (parse_step G pr n held pols p) (parse_step (reenv G) pr' n held' (map (relock lk) pols) (relock lk p)).
  Proof.
    intros F HP. pose proof (fun q => P_sub held p q HP) as S.
    destruct p; cbn [parse_step relock]; cbn [sub] in S; 
      try pose proof (S _ eq_refl); try pose proof (S _ (or_introl eq_refl)); try pose proof (S _ (or_intror eq_refl));
      try pose proof (S _ (or_intror (or_introl eq_refl))); try pose proof (S _ (or_intror (or_intror eq_refl)));
      try solve [auto with poised | poised];
      try solve [unfold once_parse, many1_parse, opt_parse, many0_parse, between_parse, times_parse,
                   neuthen_parse; poised].
    - (* builder *) apply ple_guard. apply ple_bind; [poised|intros s].
      intros g. pose proof (ple_dyn (g_on (fun c => f c s)) (fun q => g_try (tm pr held pols q)) (fun q => g_try (tm pr' held' (map (relock lk) pols) q))) as D.
      assert (D' : forall x q x', g_on (fun c => f c s) x = (Ok q, x') -> ple (g_try (tm pr held pols q)) (g_try (tm pr' held' (map (relock lk) pols) (relock lk q)))).
      { intros x q x' E. unfold g_on in E. destruct (f (g_ctx x) s) as [r c] eqn:Ef. injection E as -> _.
        apply ple_gtry. apply poised_tm; auto. apply S. right. eauto. }
      destruct (D D' g) as [D1|D1]; [now left|right]. rewrite D1. clear.
      unfold bind, g_on. cbn. destruct (f (g_ctx g) s) as [r c]. reflexivity.
    - apply ple_bind; [poised|intros o]. apply ple_bind; [now apply poised_sep; auto with poised|intros]. poised.
    - apply ple_bind; [poised|intros o]. apply ple_bind; [now apply poised_sep; auto with poised|intros]. poised.
    - apply ple_bind; [poised|intros o]. apply ple_bind; [now apply poised_sep; auto with poised|intros]. poised.
    - apply ple_bind; [poised|intros o]. apply ple_bind; [now apply poised_repeat; auto with poised|intros]. poised.
    - apply ple_bind; [poised|intros o]. apply ple_bind; [now apply poised_repeat; auto with poised|intros]. poised.
    - apply ple_bind; [poised|intros o]. unfold collect_loop.
      apply ple_bind; [now apply poised_repeat; auto with poised|intros]. poised.
    - apply ple_bind; [poised|intros o]. destruct ltm; [apply poised_choice_ltm|apply poised_choice]; auto with poised.
    - apply ple_bind; [poised|intros o]. rewrite map_fst_unlock.
      destruct ltm; [apply poised_choice_ltm|apply poised_choice]; auto with poised.
    - rewrite env_get_unlock. destruct (env_get G i) eqn:E; cbn [option_map]; eauto with poised.
    - destruct (existsb (Nat.eqb i) held) eqn:X.
      + intros x. left. split; [eapply P_lock; eauto|reflexivity].
      + rewrite (P_plain held i HP X). cbn [parse_step construct_step]. rewrite env_get_unlock. destruct (env_get G i) eqn:E; cbn [option_map]; eauto with poised.
  Qed.
End Step.

Theorem parse_unlock n : forall held held' pols p, free pols -> P held p ->
  ple (parse n G held pols p) (parse n (reenv G) held' (map (relock lk) pols) (relock lk p)).
Proof.
  induction n as [|n IH]; intros held held' pols p F HP; [apply ple_refl|]. cbn [parse]. now apply poised_step.
Qed.

Section CStep.
  Context {S : Type}.
  Variable h : handler S.
  Variable n : nat.
  Variable pr pr' : list nat -> list pat -> pat -> M ctx span.
  Hypothesis PR : forall held held' pols p, free pols -> P held p ->
    ple (pr held pols p) (pr' held' (map (relock lk) pols) (relock lk p)).
  Variable pols : list pat.
  Hypothesis F : free pols.
  Variable con con' : list nat -> pat -> M (ctx * S) val.
  Hypothesis CON : forall held held' p, P held p -> ple (con held p) (con' held' (relock lk p)).

  Lemma poised_ctm held held' p : P held p -> ple (@ctm S pr held pols p) (ctm pr' held' (map (relock lk) pols) (relock lk p)).
  Proof. intros HP. unfold ctm. apply ple_on_ctx. now apply poised_tm. Qed.

  Hint Resolve poised_ctm : poised.

  Lemma poised_leaf held held' p : P held p ->
    ple (leaf h pr held pols p) (leaf h pr' held' (map (relock lk) pols) (relock lk p)).
  Proof. intros HP. unfold leaf. poised. Qed.

  Lemma poised_cstep held held' p : P held p ->
    ple (construct_step h G pr con n held pols p)
        (construct_step h (reenv G) pr' con' n held' (map (relock lk) pols) (relock lk p)).
  Proof.
    intros HP. pose proof (fun q => P_sub held p q HP) as S0.
    destruct p; cbn [construct_step relock];
    try solve [match goal with |- ple (leaf _ _ _ _ ?p) _ => exact (poised_leaf held held' p HP) end];
    cbn [sub] in S0;
    try pose proof (S0 _ eq_refl); try pose proof (S0 _ (or_introl eq_refl)); try pose proof (S0 _ (or_intror eq_refl));
    try pose proof (S0 _ (or_intror (or_introl eq_refl))); try pose proof (S0 _ (or_intror (or_intror eq_refl)));
    try solve [auto with poised | poised];
    try solve [apply ple_bind; [poised|intros ob]; 
        apply ple_bind; [|intros; solve [poised]];
        first [ apply poised_sep_vals | apply poised_sep2_vals | apply poised_sepcollect_vals
              | apply poised_repeat_vals | apply poised_repeat2_vals ]; auto with poised].
    - (* dynamic continuation *) apply ple_guard. apply ple_bind; [poised|intros a].
      intros g. pose proof (ple_dyn (g_on (on_ctx (fun c => f c a))) (fun q => b <- g_try (con held q) ;; ret (VPair a b))
                              (fun q => b <- g_try (con' held' q) ;; ret (VPair a b))) as D.
      assert (D' : forall (x : guard (ctx * S)) q x', g_on (on_ctx (fun c => f c a)) x = (Ok q, x') ->
        ple (b <- g_try (con held q) ;; ret (VPair a b)) (b <- g_try (con' held' (relock lk q)) ;; ret (VPair a b))).
      { intros x q x' E. unfold g_on, on_ctx in E. destruct (f (fst (g_ctx x)) a) as [r c] eqn:Ef. injection E as -> _.
        assert (P held q) by (apply S0; right; eauto). poised. }
      destruct (D D' g) as [D1|D1]; [now left|right]. rewrite D1. clear.
      unfold bind, g_on, on_ctx. cbn. destruct (f (fst (g_ctx g)) a) as [r c]. reflexivity.
    - apply ple_bind; [poised|intros o]. rewrite plain_unlock.
      destruct ltm; [apply poised_con_choice_ltm|apply poised_con_choice]; rewrite fst_plain; auto with poised.
    - apply ple_bind; [poised|intros o]. rewrite keyed_unlock.
      destruct ltm; [apply poised_con_choice_ltm|apply poised_con_choice]; rewrite fst_keyed; auto with poised.
    - rewrite env_get_unlock. destruct (env_get G i) eqn:E; cbn [option_map]; eauto with poised.
    - destruct (existsb (Nat.eqb i) held) eqn:X.
      + intros x. left. split; [eapply P_lock; eauto|reflexivity].
      + rewrite (P_plain held i HP X). cbn [parse_step construct_step]. rewrite env_get_unlock. destruct (env_get G i) eqn:E; cbn [option_map]; eauto with poised.
  Qed.
End CStep.

Theorem construct_unlock {S} (h : handler S) n : forall held held' pols p, free pols -> P held p ->
  ple (construct h n G held pols p) (construct h n (reenv G) held' (map (relock lk) pols) (relock lk p)).
Proof.
  induction n as [|n IH]; intros held held' pols p F HP; [apply ple_refl|]. cbn [construct].
  apply poised_cstep; auto. apply parse_unlock.
Qed.
End T.

(** Synchronized handles give the same answer as plain ones or none at all. *)
Section Or.
  Variable G : env.
  Notation any := (fun (_ : list nat) (_ : pat) => True).
  Lemma any_free pols : free any pols.
  Proof. unfold free. induction pols; constructor; auto. Qed.

  Lemma parse_or n held pols p : ple true (parse n G held pols p) (parse n (unlock_env G) [] (map unlock pols) (unlock p)).
  Proof. apply (parse_unlock true PRef G any); auto using any_free. Qed.
  Lemma construct_or {S} (h : handler S) n held pols p :
    ple true (construct h n G held pols p) (construct h n (unlock_env G) [] (map unlock pols) (unlock p)).
  Proof. apply (construct_unlock true PRef G any); auto using any_free. Qed.

  Lemma returns_or pols p c r c' : Returns G pols p c r c' -> r <> Panic ->
    Returns (unlock_env G) (map unlock pols) (unlock p) c r c'.
  Proof.
    intros (n & E & N) NP. exists n. split; [|exact N]. unfold try_mat_top, try_mat in *.
    assert (H : ple true (match pols with [] => parse n G [] [] p | r :: rest => (parse n G [] rest r ;; parse n G [] pols p) end)
      (match map unlock pols with [] => parse n (unlock_env G) [] [] (unlock p) | r :: rest => (parse n (unlock_env G) [] rest r ;; parse n (unlock_env G) [] (map unlock pols) (unlock p)) end)).
    { destruct pols as [|q pols]; cbn [map]; [apply (parse_or n [] [])|].
      apply ple_bind; [apply parse_or|intros _; apply (parse_or n [] (q :: pols))]. }
    destruct (H c) as [[_ F]|F]; rewrite E in F; [cbn in F; congruence|now rewrite <- F].
  Qed.
  Lemma builds_or {S} (h : handler S) pols p c s r c' s' : Builds h G pols p c s r c' s' -> r <> Panic ->
    Builds h (unlock_env G) (map unlock pols) (unlock p) c s r c' s'.
  Proof.
    intros (n & E & N) NP. exists n. split; [|exact N].
    destruct (construct_or h n [] pols p (c, s)) as [[_ F]|F]; rewrite E in F; [cbn in F; congruence|congruence].
  Qed.
End Or.

(** Synchronized handles that are never reached again while they are locked: the definition of cell [i]
    mentions only synchronized handles of lower rank, and plain handles of at most its rank. *)
Section Ranked.
  Variable G : env.
  Variable rank : nat -> nat.
  Definition ranked (m : nat) (p : pat) : Prop :=
    forall q, within p q -> match q with PLock i => rank i < m | PRef i => rank i <= m | _ => True end.
  Definition ranked_env : Prop := forall i q, env_get G i = Some q -> ranked (rank i) q.
  Hypothesis RE : ranked_env.

  Definition may (held : list nat) (p : pat) : Prop := exists m, ranked m p /\ Forall (fun i => m <= rank i) held.

  Lemma ranked_sub m p q : ranked m p -> sub p q -> ranked m q.
  Proof. intros H S r W. apply H. eapply within_sub; eauto. Qed.

  Lemma may_all n held held' pols p : free may pols -> may held p ->
    ple false (parse n G held pols p) (parse n (unlock_env G) held' (map unlock pols) (unlock p)) /\
    forall S (h : handler S), ple false (construct h n G held pols p) (construct h n (unlock_env G) held' (map unlock pols) (unlock p)).
  Proof.
    intros F HP.
    assert (A1 : forall held p q, may held p -> sub p q -> may held q).
    { intros hd a b (m & R & L) S. exists m. split; [eapply ranked_sub; eauto|auto]. }
    assert (A2 : forall held i q, may held (PRef i) -> env_get G i = Some q -> may held q).
    { intros hd i q (m & R & L) E. exists (rank i). split; [now apply RE|].
      specialize (R _ (within_refl _)). cbn in R. eapply Forall_impl; [|exact L]. cbn. intros; lia. }
    assert (A3 : forall held i, may held (PLock i) -> existsb (Nat.eqb i) held = true -> false = true).
    { intros hd i (m & R & L) X. specialize (R _ (within_refl _)). cbn in R.
      apply existsb_exists in X. destruct X as (j & I & X). apply Nat.eqb_eq in X. subst j.
      rewrite Forall_forall in L. specialize (L _ I). cbn in L. lia. }
    assert (A4 : forall held i q, may held (PLock i) -> existsb (Nat.eqb i) held = false -> env_get G i = Some q -> may (i :: held) q).
    { intros hd i q (m & R & L) _ E. exists (rank i). split; [now apply RE|].
      specialize (R _ (within_refl _)). cbn in R. constructor; [apply le_n|].
      eapply Forall_impl; [|exact L]. cbn. intros; lia. }
    split; [|intros S h]; [apply (parse_unlock false PRef G may)|apply (construct_unlock false PRef G may)]; auto.
  Qed.

  Lemma ple_false {X A} (m m' : M X A) x : ple false m m' -> m x = m' x.
  Proof. intros H. destruct (H x) as [[E _]|E]; [discriminate|exact E]. Qed.
End Ranked.

(** A synchronized handle that is in use is not reached again in a run that answers: its definition,
    with any parser [q] in place of its own handle, gives the same answer. *)
Section Detour.
  Variable x : nat.
  Variable q : pat.
  Definition detour (i : nat) : pat := if i =? x then q else PRef i.
  Definition detour_env (G : env) : env := map (option_map (relock detour)) G.
  Variable G : env.
  Definition in_use (held : list nat) (_ : pat) : Prop := existsb (Nat.eqb x) held = true.

  Lemma detour_all n held held' p : in_use held p ->
    ple true (parse n G held [] p) (parse n (detour_env G) held' [] (relock detour p)) /\
    forall S (h : handler S), ple true (construct h n G held [] p) (construct h n (detour_env G) held' [] (relock detour p)).
  Proof.
    intros U.
    assert (A : forall held i, in_use held (PLock i) -> existsb (Nat.eqb i) held = false -> detour i = PRef i).
    { intros hd i H N. unfold detour, in_use in *. destruct (Nat.eqb_spec i x) as [->|]; [congruence|reflexivity]. }
    assert (B : forall held i r, in_use held (PLock i) -> existsb (Nat.eqb i) held = false -> env_get G i = Some r -> in_use (i :: held) r).
    { intros hd i r H _ _. unfold in_use in *. cbn. rewrite H. apply orb_true_r. }
    split; [|intros S h]; [apply (parse_unlock true detour G in_use)|apply (construct_unlock true detour G in_use)];
      auto; constructor.
  Qed.

  Lemma returns_detour p c r c' : env_get G x = Some p -> Returns G [] (PLock x) c r c' -> r <> Panic ->
    Returns (detour_env G) [] (relock detour p) c r c'.
  Proof.
    intros E (n & H & N) NP. unfold try_mat_top, try_mat in H. destruct n as [|n]; [injection H as <- _; contradiction|].
    cbn [parse parse_step] in H. cbn [existsb] in H. rewrite E in H. exists n. split; [|exact N].
    unfold try_mat_top, try_mat. destruct (detour_all n [x] [] p) as [D _].
    { unfold in_use. cbn. now rewrite Nat.eqb_refl. }
    destruct (D c) as [[_ F]|F]; [rewrite H in F; cbn in F; congruence|now rewrite <- F].
  Qed.
  Lemma builds_detour {S} (h : handler S) p c s r c' s' : env_get G x = Some p -> Builds h G [] (PLock x) c s r c' s' -> r <> Panic ->
    Builds h (detour_env G) [] (relock detour p) c s r c' s'.
  Proof.
    intros E (n & H & N) NP. destruct n as [|n]; [injection H as <- _ _; contradiction|].
    cbn [construct construct_step] in H. cbn [existsb] in H. rewrite E in H. exists n. split; [|exact N].
    destruct (detour_all n [x] [] p) as [_ D].
    { unfold in_use. cbn. now rewrite Nat.eqb_refl. }
    destruct (D S h (c, s)) as [[_ F]|F]; [rewrite H in F; cbn in F; congruence|now rewrite <- F].
  Qed.
End Detour.
