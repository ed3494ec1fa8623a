(** More fuel never changes an answer. *)

From Coq Require Import List Arith NArith Bool Lia.
From Verif Require Import Base Text Context Neu Syntax Regex Ctor Api.
Import ListNotations.

Definition rle {A} (r r' : res A) : Prop := r = OOF \/ r = r'.
Definition mle {X A} (m m' : M X A) : Prop := forall x, fst (m x) = OOF \/ m x = m' x.

Lemma rle_refl {A} (r : res A) : rle r r.
Proof. now right. Qed.
Lemma mle_refl {X A} (m : M X A) : mle m m.
Proof. intros x. now right. Qed.
Lemma mle_trans {X A} (a b c : M X A) : mle a b -> mle b c -> mle a c.
Proof.
  intros H1 H2 x. destruct (H1 x) as [E|E]; [now left|]. rewrite E. destruct (H2 x); auto.
Qed.

Lemma mle_oof {X A} (m : M X A) : mle oof m.
Proof. intros x. now left. Qed.

Lemma mle_bind {X A B} (m m' : M X A) (k k' : A -> M X B) :
  mle m m' -> (forall a, mle (k a) (k' a)) -> mle (bind m k) (bind m' k').
Proof.
  intros H1 H2 x. unfold bind. destruct (H1 x) as [E|E].
  - destruct (m x) as [r x'] eqn:Em. simpl in E. subst r. now left.
  - rewrite <- E. destruct (m x) as [[a|e| |] x']; try now right. apply H2.
Qed.

Lemma mle_catch {X A} (m m' : M X A) : mle m m' -> mle (catch m) (catch m').
Proof.
  intros H x. unfold catch. destruct (H x) as [E|E].
  - destruct (m x) as [r x'] eqn:Em. simpl in E. subst r. now left.
  - rewrite <- E. now right.
Qed.

Lemma mle_gtry {X A} (m m' : M X A) : mle m m' -> mle (g_try m) (g_try m').
Proof.
  intros H g. unfold g_try. destruct (H (g_ctx g)) as [E|E].
  - destruct (m (g_ctx g)) as [r x'] eqn:Em. simpl in E. subst r. now left.
  - rewrite <- E. now right.
Qed.

Lemma mle_gon {X A} (m m' : M X A) : mle m m' -> mle (g_on m) (g_on m').
Proof.
  intros H g. unfold g_on. destruct (H (g_ctx g)) as [E|E].
  - destruct (m (g_ctx g)) as [r x'] eqn:Em. simpl in E. subst r. now left.
  - rewrite <- E. now right.
Qed.

Lemma mle_guard {X A} `{HasOffset X} (m m' : M (guard X) A) :
  mle m m' -> mle (with_guard m) (with_guard m').
Proof.
  intros Hm x. unfold with_guard. destruct (Hm (g_new x)) as [E|E].
  - destruct (m (g_new x)) as [r x'] eqn:Em. simpl in E. subst r. now left.
  - rewrite <- E. now right.
Qed.

Lemma mle_reset {X A} `{HasOffset X} o (m m' : M X A) :
  mle m m' -> mle (on_err_reset o m) (on_err_reset o m').
Proof.
  intros Hm x. unfold on_err_reset. destruct (Hm x) as [E|E].
  - destruct (m x) as [r x'] eqn:Em. simpl in E. subst r. now left.
  - rewrite <- E. now right.
Qed.

Lemma mle_reads {X A} (f f' : X -> res A) : (forall x, rle (f x) (f' x)) -> mle (reads f) (reads f').
Proof. intros H x. unfold reads. destruct (H x) as [E|E]; rewrite E; [now left|now right]. Qed.

Lemma mle_on_ctx {S A} (m m' : M ctx A) : mle m m' -> mle (@on_ctx S A m) (on_ctx m').
Proof.
  intros H x. unfold on_ctx. destruct (H (fst x)) as [E|E].
  - destruct (m (fst x)) as [r x'] eqn:Em. simpl in E. subst r. now left.
  - rewrite <- E. now right.
Qed.

Create HintDb mono.
#[global] Hint Resolve mle_refl rle_refl mle_oof mle_catch mle_gtry mle_gon mle_guard mle_reset
  mle_on_ctx : mono.

Ltac mono := repeat first
  [ solve [auto with mono]
  | apply mle_guard | apply mle_bind; [|intros]
  | match goal with
    | [ |- mle (match ?a with _ => _ end) _ ] => destruct a
    | [ |- mle (if ?a then _ else _) _ ] => destruct a
    | [ |- mle (let (_, _) := ?a in _) _ ] => destruct a
    end
  | apply mle_gtry | apply mle_gon | apply mle_catch | apply mle_reset | apply mle_on_ctx
  | apply mle_reads; intros ].

Section Loops.
  Context {X : Type} `{HasOffset X}.

  Lemma mono_repeat (t t' : M X span) : mle t t' -> forall n n' more cnt tot, n <= n' ->
    mle (repeat_loop t n more cnt tot) (repeat_loop t' n' more cnt tot).
  Proof.
    intros Ht n. induction n as [|n IH]; intros [|n'] more cnt tot Hn; try lia; try apply mle_oof.
    cbn [repeat_loop]. destruct (more cnt); mono. apply IH. lia.
  Qed.

  Lemma mono_sep (t t' s s' : M X span) : mle t t' -> mle s s' -> forall n n' more sk cnt tot, n <= n' ->
    mle (sep_loop t s n more sk cnt tot) (sep_loop t' s' n' more sk cnt tot).
  Proof.
    intros Ht Hs n. induction n as [|n IH]; intros [|n'] more sk cnt tot Hn; try lia; try apply mle_oof.
    cbn [sep_loop]. destruct (more cnt); mono. apply IH. lia.
  Qed.

  Lemma mono_repeat_vals (t t' : M X val) : mle t t' -> forall n n' more acc, n <= n' ->
    mle (repeat_vals t n more acc) (repeat_vals t' n' more acc).
  Proof.
    intros Ht n. induction n as [|n IH]; intros [|n'] more acc Hn; try lia; try apply mle_oof.
    cbn [repeat_vals]. destruct (more (length acc)); mono. apply IH. lia.
  Qed.

  Lemma mono_repeat2_vals (t t' : M X val) : mle t t' -> forall n n' l acc, n <= n' ->
    mle (repeat2_vals t n l acc) (repeat2_vals t' n' l acc).
  Proof.
    intros Ht n. induction n as [|n IH]; intros [|n'] l acc Hn; try lia; try apply mle_oof.
    cbn [repeat2_vals]. destruct (length acc <=? l); mono. apply IH. lia.
  Qed.

  Lemma mono_sep_vals (t t' : M X val) (s s' : M X span) : mle t t' -> mle s s' ->
    forall n n' sk acc, n <= n' -> mle (sep_vals t s n sk acc) (sep_vals t' s' n' sk acc).
  Proof.
    intros Ht Hs n. induction n as [|n IH]; intros [|n'] sk acc Hn; try lia; try apply mle_oof.
    cbn [sep_vals]. mono. apply IH. lia.
  Qed.

  Lemma mono_sep2_vals (t t' : M X val) (s s' : M X span) : mle t t' -> mle s s' ->
    forall n n' l sk acc, n <= n' -> mle (sep2_vals t s n l sk acc) (sep2_vals t' s' n' l sk acc).
  Proof.
    intros Ht Hs n. induction n as [|n IH]; intros [|n'] l sk acc Hn; try lia; try apply mle_oof.
    cbn [sep2_vals]. destruct (length acc <=? l); mono. apply IH. lia.
  Qed.

  Lemma mono_sepcollect_vals (t t' : M X val) (s s' : M X span) : mle t t' -> mle s s' ->
    forall n n' sk en acc, n <= n' ->
    mle (sepcollect_vals t s n sk en acc) (sepcollect_vals t' s' n' sk en acc).
  Proof.
    intros Ht Hs n. induction n as [|n IH]; intros [|n'] sk en acc Hn; try lia; try apply mle_oof.
    cbn [sepcollect_vals]. mono; apply IH; lia.
  Qed.

  Lemma mono_con_choice (c c' : pat -> M X val) : (forall p, mle (c p) (c' p)) ->
    forall ps o e, mle (con_choice c o e ps) (con_choice c' o e ps).
  Proof. intros Hc ps. induction ps as [|p ps IH]; intros o e; cbn [con_choice]; mono. Qed.

  Lemma mono_con_choice_ltm (c c' : pat -> M X val) : (forall p, mle (c p) (c' p)) ->
    forall ps o e b en, mle (con_choice_ltm c o e b en ps) (con_choice_ltm c' o e b en ps).
  Proof.
    intros Hc ps. induction ps as [|p ps IH]; intros o e b en; cbn [con_choice_ltm]; mono.
  Qed.
End Loops.

Lemma mono_choice (c c' : pat -> M ctx span) : (forall p, mle (c p) (c' p)) ->
  forall ps o e, mle (choice c o e ps) (choice c' o e ps).
Proof. intros Hc ps. induction ps as [|p ps IH]; intros o e; cbn [choice]; mono. Qed.

Lemma mono_choice_ltm (c c' : pat -> M ctx span) : (forall p, mle (c p) (c' p)) ->
  forall ps o e b, mle (choice_ltm c o e b ps) (choice_ltm c' o e b ps).
Proof.
  intros Hc ps. induction ps as [|p ps IH]; intros o e b; cbn [choice_ltm]; mono.
Qed.

Lemma mono_scan u chk chk' l beg : (forall x, rle (chk x) (chk' x)) ->
  rle (scan u chk beg l) (scan u chk' beg l).
Proof.
  intros H. revert beg. induction l as [|x l IH]; intros beg; cbn [scan]; [apply rle_refl|].
  destruct (negb (u (snd x))); [apply rle_refl|].
  destruct (H x) as [E|E]; rewrite E; [now left|]. destruct (chk' x) as [[|]| | |]; auto with mono.
Qed.

Lemma mono_scan_n u chk chk' more l cnt beg : (forall x, rle (chk x) (chk' x)) ->
  rle (scan_n u chk more cnt beg l) (scan_n u chk' more cnt beg l).
Proof.
  intros H. revert cnt beg. induction l as [|x l IH]; intros cnt beg; cbn [scan_n]; [apply rle_refl|].
  destruct (more cnt); [|apply rle_refl]. destruct (u (snd x)); [|apply rle_refl].
  destruct (H x) as [E|E]; rewrite E; [now left|]. destruct (chk' x) as [[|]| | |]; auto with mono.
Qed.

#[global] Hint Resolve mono_scan mono_scan_n : mono.

Section Step.
  Variable G : env.
  Variable pr pr' : list nat -> list pat -> pat -> M ctx span.
  Hypothesis PR : forall held pols p, mle (pr held pols p) (pr' held pols p).
  Variable n n' : nat.
  Hypothesis Hn : n <= n'.

  Lemma mono_tm held pols p : mle (tm pr held pols p) (tm pr' held pols p).
  Proof. unfold tm, try_mat. destruct pols; mono. Qed.

  Lemma mono_check held pols c x y : rle (check pr held pols c x y) (check pr' held pols c x y).
  Proof.
    destruct c as [|f|p]; cbn [check]; auto with mono.
    destruct (clone_at x (c_off x + fst y)) as [c'|e| |]; auto with mono.
    destruct (mono_tm held pols p c') as [E|E]; rewrite E; [now left|apply rle_refl].
  Qed.

  Hint Resolve mono_tm mono_check : mono.

  Lemma mono_step held pols p :
    mle (parse_step G pr n held pols p) (parse_step G pr' n' held pols p).
  Proof.
    destruct p; cbn [parse_step]; try solve [auto with mono | mono];
      try solve [unfold once_parse, many1_parse, opt_parse, many0_parse, between_parse, times_parse,
                   neuthen_parse; mono].
    - apply mle_bind; [mono|intros o]. apply mle_bind; [now apply mono_sep; auto with mono|intros]. mono.
    - apply mle_bind; [mono|intros o]. apply mle_bind; [now apply mono_sep; auto with mono|intros]. mono.
    - apply mle_bind; [mono|intros o]. apply mle_bind; [now apply mono_sep; auto with mono|intros]. mono.
    - apply mle_bind; [mono|intros o]. apply mle_bind; [now apply mono_repeat; auto with mono|intros]. mono.
    - apply mle_bind; [mono|intros o]. apply mle_bind; [now apply mono_repeat; auto with mono|intros]. mono.
    - apply mle_bind; [mono|intros o]. unfold collect_loop.
      apply mle_bind; [now apply mono_repeat; auto with mono|intros]. mono.
    - apply mle_bind; [mono|intros o]. destruct ltm; [apply mono_choice_ltm|apply mono_choice]; auto with mono.
    - apply mle_bind; [mono|intros o]. destruct ltm; [apply mono_choice_ltm|apply mono_choice]; auto with mono.
  Qed.
End Step.

Theorem parse_mono n n' G held pols p : n <= n' ->
  mle (parse n G held pols p) (parse n' G held pols p).
Proof.
  revert n' held pols p. induction n as [|n IH]; intros n' held pols p Hn; [apply mle_oof|].
  destruct n' as [|n']; [lia|]. cbn [parse]. apply mono_step; [|lia]. intros. apply IH. lia.
Qed.

Theorem try_mat_mono n n' G pols p : n <= n' ->
  mle (try_mat_top n G pols p) (try_mat_top n' G pols p).
Proof.
  intros H. apply (mono_tm (parse n G) (parse n' G)). intros. now apply parse_mono.
Qed.

Section CStep.
  Context {S : Type}.
  Variable h : handler S.
  Variable G : env.
  Variable pr pr' : list nat -> list pat -> pat -> M ctx span.
  Hypothesis PR : forall held pols p, mle (pr held pols p) (pr' held pols p).
  Variable con con' : list nat -> pat -> M (ctx * S) val.
  Hypothesis CON : forall held p, mle (con held p) (con' held p).
  Variable n n' : nat.
  Hypothesis Hn : n <= n'.

  Lemma mono_ctm held pols p : mle (@ctm S pr held pols p) (ctm pr' held pols p).
  Proof. unfold ctm. apply mle_on_ctx. now apply mono_tm. Qed.

  Hint Resolve mono_ctm : mono.

  Lemma mono_cstep held pols p :
    mle (construct_step h G pr con n held pols p) (construct_step h G pr' con' n' held pols p).
  Proof.
    destruct p; cbn [construct_step]; unfold leaf; try solve [auto with mono | mono];
    (apply mle_bind; [mono|intros ob]; first
      [ apply mle_bind; [|intros; solve [mono]];
        first [ apply mono_sep_vals | apply mono_sep2_vals | apply mono_sepcollect_vals
              | apply mono_repeat_vals | apply mono_repeat2_vals ]; auto with mono
      | destruct ltm; [apply mono_con_choice_ltm|apply mono_con_choice]; auto with mono ]).
  Qed.
End CStep.

Theorem construct_mono {S} (h : handler S) n n' G held pols p : n <= n' ->
  mle (construct h n G held pols p) (construct h n' G held pols p).
Proof.
  revert n' held p. induction n as [|n IH]; intros n' held p Hn; [apply mle_oof|].
  destruct n' as [|n']; [lia|]. cbn [construct]. apply mono_cstep; [|intros; apply IH; lia|lia].
  intros. apply parse_mono. lia.
Qed.

Lemma mle_eq {X A} (m m' : M X A) x r x' : mle m m' -> m x = (r, x') -> r <> OOF -> m' x = (r, x').
Proof.
  intros H E N. destruct (H x) as [F|F]; rewrite E in F; [simpl in F; congruence|auto].
Qed.
