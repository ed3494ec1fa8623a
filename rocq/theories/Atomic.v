(** Which computations restore the cursor when they fail. *)

From Coq Require Import List Arith NArith Bool Lia.
From Verif Require Import Base Text Context Neu Syntax Regex Ctor Api.
Import ListNotations.

Class OffsetLaw (X : Type) `{HasOffset X} := get_put : forall o (x : X), get_off (put_off o x) = o.
#[global] Instance ctx_law : OffsetLaw ctx.
Proof. intros o x. reflexivity. Qed.
#[global] Instance pair_law {X S} `{OffsetLaw X} : OffsetLaw (X * S).
Proof. intros o x. apply (get_put (X := X)). Qed.

Section Rules.
  Context {X : Type} `{OffsetLaw X}.

  (** [noerr m]: never returns an error.  [ends o m]: when it fails the cursor is at [o].
      [keeps m]: when it fails the cursor is where it was. *)
  Definition noerr {A} (m : M X A) : Prop := forall x e x', m x <> (Err e, x').
  Definition ends {A} (o : nat) (m : M X A) : Prop :=
    forall x e x', m x = (Err e, x') -> get_off x' = o.
  Definition keeps {A} (m : M X A) : Prop :=
    forall x e x', m x = (Err e, x') -> get_off x' = get_off x.
  (** [gsafe m]: under a guard, every failure asks for rollback. *)
  Definition gkeep {A} (m : M (guard X) A) : Prop :=
    forall g r g', m g = (r, g') -> g_offset g' = g_offset g.
  Definition gsafe {A} (m : M (guard X) A) : Prop :=
    gkeep m /\ forall g e g', m g = (Err e, g') -> g_reset g' = true.

  Lemma noerr_ends {A} o (m : M X A) : noerr m -> ends o m.
  Proof. intros Hm x e x' E. now apply Hm in E. Qed.
  Lemma noerr_keeps {A} (m : M X A) : noerr m -> keeps m.
  Proof. intros Hm x e x' E. now apply Hm in E. Qed.
  Lemma noerr_ret {A} (a : A) : noerr (ret a).
  Proof. intros x e x' E. discriminate E. Qed.
  Lemma noerr_panic {A} : noerr (A := A) panic.
  Proof. intros x e x' E. discriminate E. Qed.
  Lemma noerr_oof {A} : noerr (A := A) oof.
  Proof. intros x e x' E. discriminate E. Qed.
  Lemma noerr_offset : noerr offset.
  Proof. intros x e x' E. discriminate E. Qed.
  Lemma noerr_set o : noerr (set_offset o).
  Proof. intros x e x' E. discriminate E. Qed.
  Lemma noerr_catch {A} (m : M X A) : noerr (catch m).
  Proof. intros x e x' E. unfold catch in E. destruct (m x) as [[a|e0| |] y]; discriminate E. Qed.
  Lemma noerr_bind {A B} (m : M X A) (k : A -> M X B) :
    noerr m -> (forall a, noerr (k a)) -> noerr (bind m k).
  Proof.
    intros Hm Hk x e x' E. unfold bind in E. destruct (m x) as [[a|e0| |] y] eqn:Em; try discriminate E.
    - now apply Hk in E.
    - now apply Hm in Em.
  Qed.
  Lemma add_assign_noerr a b e : add_assign a b <> Err e.
  Proof.
    unfold add_assign, csub. destruct (sbeg a <=? sbeg b); [|discriminate].
    now destruct (sbeg a + slen a <=? slen b + sbeg b).
  Qed.
  Lemma noerr_join a b : noerr (join a b).
  Proof. intros x e x' E. injection E as E _. now apply add_assign_noerr in E. Qed.

  Lemma keeps_fail {A} e : keeps (A := A) (fail e).
  Proof. intros x e' x' E. now injection E as _ <-. Qed.
  Lemma keeps_reads {A} (f : X -> res A) : keeps (reads f).
  Proof. intros x e x' E. now injection E as _ <-. Qed.
  Lemma keeps_lift {A} (r : res A) : keeps (lift r).
  Proof. intros x e x' E. now injection E as _ <-. Qed.
  Lemma keeps_offset {A} (k : nat -> M X A) :
    (forall o, keeps (k o)) -> keeps (o <- offset ;; k o).
  Proof. intros Hk x e x' E. now apply Hk in E. Qed.
  Lemma keeps_ends {A} (k : nat -> M X A) : (forall o, ends o (k o)) -> keeps (o <- offset ;; k o).
  Proof. intros Hk x e x' E. now apply Hk in E. Qed.
  Lemma keeps_read_bind {A B} (f : X -> res A) (k : A -> M X B) :
    (forall a, keeps (k a)) -> keeps (bind (reads f) k).
  Proof.
    intros Hk x e x' E. unfold bind, reads in E. destruct (f x); try discriminate E.
    - now apply Hk in E.
    - now injection E as _ <-.
  Qed.
  Lemma keeps_lift_bind {A B} (r : res A) (k : A -> M X B) :
    (forall a, keeps (k a)) -> keeps (bind (lift r) k).
  Proof. apply keeps_read_bind. Qed.
  Lemma keeps_catch_read_bind {A B} (f : X -> res A) (k : A + error -> M X B) :
    (forall a, keeps (k a)) -> keeps (bind (catch (reads f)) k).
  Proof.
    intros Hk x e x' E. unfold bind, catch, reads in E. destruct (f x); try discriminate E;
      now apply Hk in E.
  Qed.

  Lemma ends_bind {A B} o (m : M X A) (k : A -> M X B) :
    noerr m -> (forall a, ends o (k a)) -> ends o (bind m k).
  Proof.
    intros Hm Hk x e x' E. unfold bind in E. destruct (m x) as [[a|e0| |] y] eqn:Em; try discriminate E.
    - now apply Hk in E.
    - now apply Hm in Em.
  Qed.
  Lemma ends_set {A} o (m : M X A) : keeps m -> ends o (set_offset o ;; m).
  Proof. intros Hm x e x' E. apply Hm in E. now rewrite get_put in E. Qed.
  Lemma ends_reset {A} o (m : M X A) : ends o (on_err_reset o m).
  Proof.
    intros x e x' E. unfold on_err_reset in E. destruct (m x) as [[a|e0| |] y]; try discriminate E.
    injection E as _ <-. apply get_put.
  Qed.
  Lemma ends_accept {A} ok e o (a : A) : ends o (accept ok e o a).
  Proof.
    unfold accept. destruct ok; [apply noerr_ends, noerr_ret|]. apply ends_set, keeps_fail.
  Qed.

  Lemma keeps_guard {A} (m : M (guard X) A) : gsafe m -> keeps (with_guard m).
  Proof.
    intros [Hk Hs] x e x' E. unfold with_guard in E. destruct (m (g_new x)) as [r g] eqn:Em.
    injection E as -> <-. apply Hs in Em as R. apply Hk in Em. unfold g_drop. rewrite R.
    rewrite get_put, Em. reflexivity.
  Qed.
  Lemma gkeep_try {A} (m : M X A) : gkeep (g_try m).
  Proof. intros g r g' E. unfold g_try in E. destruct (m (g_ctx g)) as [[a|e| |] y]; now injection E as <- <-. Qed.
  Lemma gsafe_try {A} (m : M X A) : gsafe (g_try m).
  Proof.
    split; [apply gkeep_try|]. intros g e g' E. unfold g_try in E.
    destruct (m (g_ctx g)) as [[a|e0| |] y]; try discriminate E. now injection E as _ <-.
  Qed.
  Lemma gkeep_on {A} (m : M X A) : gkeep (g_on m).
  Proof. intros g r g' E. unfold g_on in E. destruct (m (g_ctx g)) as [r0 y]; now injection E as <- <-. Qed.
  Lemma gsafe_on {A} (m : M X A) : noerr m -> gsafe (g_on m).
  Proof.
    intros Hm. split; [apply gkeep_on|]. intros g e g' E. unfold g_on in E.
    destruct (m (g_ctx g)) as [r0 y] eqn:Em. injection E as -> _. now apply Hm in Em.
  Qed.
  Lemma gkeep_bind {A B} (m : M (guard X) A) (k : A -> M (guard X) B) :
    gkeep m -> (forall a, gkeep (k a)) -> gkeep (bind m k).
  Proof.
    intros Hm Hk g r g' E. unfold bind in E. destruct (m g) as [[a|e0| |] y] eqn:Em; apply Hm in Em;
      try (injection E as <- <-; exact Em). apply Hk in E. congruence.
  Qed.
  Lemma gsafe_bind {A B} (m : M (guard X) A) (k : A -> M (guard X) B) :
    gsafe m -> (forall a, gsafe (k a)) -> gsafe (bind m k).
  Proof.
    intros [Hm Hm'] Hk. split; [apply gkeep_bind; auto; intros; apply Hk|].
    intros g e g' E. unfold bind in E. destruct (m g) as [[a|e0| |] y] eqn:Em; try discriminate E.
    - now apply Hk in E.
    - injection E as -> <-. now apply Hm' in Em.
  Qed.
  Lemma gsafe_catch {A} (m : M (guard X) A) : gkeep m -> gsafe (catch m).
  Proof.
    intros Hm. split.
    - intros g r g' E. unfold catch in E. destruct (m g) as [[a|e0| |] y] eqn:Em; apply Hm in Em;
        injection E as <- <-; exact Em.
    - intros g e g' E. unfold catch in E. destruct (m g) as [[a|e0| |] y]; discriminate E.
  Qed.
  Lemma gsafe_ret {A} (a : A) : gsafe (ret a).
  Proof. split; [intros g r g' E|intros g e g' E]; [now injection E as _ <-|discriminate E]. Qed.
  Lemma gsafe_beg : gsafe g_beg.
  Proof. split; [intros g r g' E|intros g e g' E]; [now injection E as _ <-|discriminate E]. Qed.
  Lemma gsafe_join a b : gsafe (join a b).
  Proof.
    split; [intros g r g' E; now injection E as _ <-|]. intros g e g' E.
    injection E as E _. now apply add_assign_noerr in E.
  Qed.

  Lemma noerr_repeat t n more cnt tot : noerr (repeat_loop (X := X) t n more cnt tot).
  Proof.
    revert cnt tot. induction n as [|n IH]; intros cnt tot; cbn [repeat_loop]; [apply noerr_oof|].
    destruct (more cnt); [|apply noerr_ret]. apply noerr_bind; [apply noerr_catch|].
    intros [s|e]; [|apply noerr_ret]. apply noerr_bind; [apply noerr_join|intros a; apply IH].
  Qed.
  Lemma noerr_sep t s n more skip cnt tot : noerr (sep_loop (X := X) t s n more skip cnt tot).
  Proof.
    revert cnt tot. induction n as [|n IH]; intros cnt tot; cbn [sep_loop]; [apply noerr_oof|].
    destruct (more cnt); [|apply noerr_ret]. apply noerr_bind; [apply noerr_catch|].
    intros [a|e]; [|apply noerr_ret]. apply noerr_bind; [apply noerr_catch|].
    intros [b|e].
    - apply noerr_bind; [apply noerr_join|intros c]. apply noerr_bind; [apply noerr_join|intros d; apply IH].
    - destruct skip; [|apply noerr_ret]. apply noerr_bind; [apply noerr_join|intros; apply noerr_ret].
  Qed.

  Ltac vloop IH := cbn; try apply noerr_oof;
    repeat first
      [ apply IH | apply noerr_ret | apply noerr_panic | apply noerr_catch
      | apply noerr_bind; [apply noerr_catch|intros [?|?]]
      | match goal with
        | [ |- noerr (if ?b then _ else _) ] => destruct b
        end ].
  Lemma noerr_repeat_vals t n more acc : noerr (repeat_vals (X := X) t n more acc).
  Proof. revert acc. induction n as [|n IH]; intros acc; vloop IH. Qed.
  Lemma noerr_repeat2_vals t n l acc : noerr (repeat2_vals (X := X) t n l acc).
  Proof. revert acc. induction n as [|n IH]; intros acc; vloop IH. Qed.
  Lemma noerr_sep_vals t s n skip acc : noerr (sep_vals (X := X) t s n skip acc).
  Proof. revert acc. induction n as [|n IH]; intros acc; vloop IH. Qed.
  Lemma noerr_sep2_vals t s n l skip acc : noerr (sep2_vals (X := X) t s n l skip acc).
  Proof. revert acc. induction n as [|n IH]; intros acc; vloop IH. Qed.
  Lemma noerr_sepcollect_vals t s n skip en acc : noerr (sepcollect_vals (X := X) t s n skip en acc).
  Proof. revert en acc. induction n as [|n IH]; intros en acc; vloop IH. Qed.

  Lemma ends_con_choice con o e ps : ps <> [] -> ends o (con_choice (X := X) con o e ps).
  Proof.
    induction ps as [|p ps IH]; [easy|]. intros _. cbn [con_choice]. intros x e0 x' E.
    unfold bind, catch in E. destruct (on_err_reset o (con (fst p)) x) as [[a|e1| |] y] eqn:Em; try discriminate E.
    apply ends_reset in Em. destruct ps as [|q ps]; [|now apply IH in E].
    injection E as _ <-. exact Em.
  Qed.
  Lemma keeps_con_choice con e ps : keeps (o <- offset ;; con_choice (X := X) con o e ps).
  Proof.
    destruct ps as [|p ps]; [apply keeps_offset; intros; apply keeps_fail|].
    apply keeps_ends. intros o. now apply ends_con_choice.
  Qed.

  Lemma ends_choice tmf o e ps : ps <> [] -> forall x e0 x',
    choice tmf o e ps x = (Err e0, x') -> c_off x' = o.
  Proof.
    induction ps as [|p ps IH]; [easy|]. intros _ x e0 x' E. cbn [choice] in E.
    unfold bind, catch, on_err_reset in E. destruct (tmf p x) as [[a|e1| |] y] eqn:Em; try discriminate E.
    destruct ps as [|q ps]; [|now apply IH in E].
    now injection E as _ <-.
  Qed.
End Rules.

Lemma keeps_choice tmf e ps : keeps (o <- offset ;; choice tmf o e ps).
Proof.
  destruct ps as [|p ps]; [apply keeps_offset; intros; apply keeps_fail|].
  apply keeps_ends. intros o x e0 x' E. now apply (ends_choice tmf o e (p :: ps)) in E.
Qed.

(** Once an alternative has matched, the longest-match loop cannot fail. *)
Lemma choice_ltm_some tmf o e ps b : forall x e0 x',
  choice_ltm tmf o e (Some b) ps x <> (Err e0, x').
Proof.
  revert b. induction ps as [|p ps IH]; intros b x e0 x' E; cbn [choice_ltm] in E; [discriminate E|].
  unfold bind, catch, set_offset in E.
  destruct (tmf p (put_off o x)) as [[a|e1| |] y] eqn:Em; try discriminate E.
  - destruct (slen b <? slen a); now apply IH in E.
  - now apply IH in E.
Qed.

Lemma ends_choice_ltm tmf o e ps best : (forall p, In p ps -> keeps (tmf p)) ->
  forall x e0 x', choice_ltm tmf o e best ps x = (Err e0, x') -> c_off x = o -> c_off x' = o.
Proof.
  revert best. induction ps as [|p ps IH]; intros best Hc x e0 x' E Hx; cbn [choice_ltm] in E.
  - destruct best; [discriminate E|]. now injection E as _ <-.
  - unfold bind, catch, set_offset in E.
    destruct (tmf p (put_off o x)) as [[a|e1| |] y] eqn:Em; try discriminate E.
    + exfalso. destruct best as [b|]; [destruct (slen b <? slen a)|];
        now apply choice_ltm_some in E.
    + apply IH in E; auto.
      * intros q Hq. apply Hc. now right.
      * apply Hc in Em; [exact Em|now left].
Qed.

Lemma keeps_choice_ltm tmf e ps : (forall p, In p ps -> keeps (tmf p)) ->
  keeps (o <- offset ;; choice_ltm tmf o e None ps).
Proof. intros Hc x e0 x' E. now apply (ends_choice_ltm tmf _ e ps None) in E. Qed.

Ltac keeps := repeat first
  [ assumption
  | apply noerr_ret | apply noerr_panic | apply noerr_oof | apply noerr_offset | apply noerr_catch
  | apply noerr_set | apply noerr_join | apply noerr_repeat | apply noerr_sep
  | apply noerr_repeat_vals | apply noerr_repeat2_vals | apply noerr_sep_vals
  | apply noerr_sep2_vals | apply noerr_sepcollect_vals
  | apply keeps_fail | apply keeps_reads | apply keeps_lift | apply ends_reset | apply ends_accept
  | apply gsafe_try | apply gsafe_ret | apply gsafe_beg | apply gsafe_join | apply gkeep_on
  | apply keeps_con_choice | apply keeps_choice
  | match goal with
    | [ |- keeps (with_guard _) ] => apply keeps_guard
    | [ |- gsafe (bind _ _) ] => apply gsafe_bind; [|intros]
    | [ |- gsafe (catch _) ] => apply gsafe_catch
    | [ |- gsafe (match ?a with _ => _ end) ] => destruct a
    | [ |- keeps (bind (reads _) _) ] => apply keeps_read_bind; intros
    | [ |- keeps (bind (lift _) _) ] => apply keeps_lift_bind; intros
    | [ |- keeps (bind (catch (reads _)) _) ] => apply keeps_catch_read_bind; intros
    | [ |- keeps (bind remaining _) ] => apply (keeps_read_bind (fun c => csub (ctx_len c) (c_off c))); intros
    | [ |- keeps (new_span_inc _) ] => apply noerr_keeps; intros ? ? ? E; discriminate E
    | [ |- keeps (match ?a with _ => _ end) ] => destruct a
    | [ |- ends ?o (bind (set_offset ?o) (fun _ => fail _)) ] => apply ends_set
    | [ |- ends ?o (bind (set_offset (?o + 0)) _) ] => rewrite Nat.add_0_r
    | [ |- ends ?o (bind (set_offset ?o) (fun _ => match _ with _ => _ end)) ] => apply ends_set
    | [ |- ends _ (bind _ _) ] => apply ends_bind; [|intros]
    | [ |- ends _ (match ?a with _ => _ end) ] => destruct a
    | [ |- keeps (ret _) ] => apply noerr_keeps, noerr_ret
    | [ |- keeps panic ] => apply noerr_keeps, noerr_panic
    | [ |- keeps oof ] => apply noerr_keeps, noerr_oof
    | [ |- ends _ (ret _) ] => apply noerr_ends, noerr_ret
    end ].

(** Combinators that restore the cursor themselves, whatever their parts do. *)
Definition self_restoring (p : pat) : bool :=
  match p with
  | PEmpty | PFail | PStart | PEnd | PConsume _ | PConsumeAll | PLit _ | PAssert _ _
  | POnce _ _ | PMany1 _ _ | POpt _ _ | PMany0 _ _ | PBetween _ _ _ _ | PTimes _ _ _
  | PNeuThen _ _ _ | PThen _ _ | PIfThen _ _ _ | POr _ _ | PLongest _ _ | PPrefix _ _
  | PSuffix _ _ | PEnclose _ _ _ | PSepOnce _ _ _ | PSep _ _ _ _ | PSep2 _ _ _ _ _
  | PSepCollect _ _ _ _ | PRepeat _ _ | PRepeat2 _ _ _ | PCollect _ _ | POption _
  | PBranch _ _ _ | PChoice _ false _ | PPairChoice _ false _ | PNoneP => true
  | _ => false
  end.

Lemma step_restores G pr fuel held pols p :
  self_restoring p = true -> keeps (parse_step G pr fuel held pols p).
Proof.
  destruct p; intros Hs; try discriminate Hs; cbn [parse_step];
    unfold start_parse, end_parse, consume_parse, consume_all_parse, literal_parse, once_parse,
      many1_parse, opt_parse, many0_parse, between_parse, times_parse, neuthen_parse, collect_loop;
    try solve [keeps];
    try solve [apply keeps_offset; intros; keeps];
    try solve [apply keeps_ends; intros; keeps].
  - intros x e x' E. unfold bind, offset, reads, on_err_reset in E.
    destruct (t x) as [b|e0| |]; try discriminate E; [|now injection E as _ <-].
    destruct ((if b then tm pr held pols p1 else tm pr held pols p2) x) as [[a|e1| |] y];
      try discriminate E. now injection E as _ <-.
  - destruct ltm; [discriminate Hs|]. apply keeps_choice.
  - destruct ltm; [discriminate Hs|]. apply keeps_choice.
Qed.

Theorem parse_restores n G held pols p c e c' :
  self_restoring p = true -> parse n G held pols p c = (Err e, c') -> c_off c' = c_off c.
Proof.
  intros Hs E. destruct n as [|n]; [discriminate E|]. now apply step_restores in E.
Qed.

(** Everything else is transparent or runs user code: [atomic G p] says that user code restores the
    cursor when it fails, and that builder closures do not fail. *)
Inductive atomic (G : env) : pat -> Prop :=
| at_self p : self_restoring p = true -> atomic G p
| at_fn f : keeps f -> atomic G (PFn f)
| at_builder p f : (forall c s e c', f c s <> (Err e, c')) -> atomic G (PBuilder p f)
| at_leaf p : atomic G p -> atomic G (PLeaf p)
| at_pat p : atomic G p -> atomic G (PPat p)
| at_map p f : atomic G p -> atomic G (PMap p f)
| at_wrap p : atomic G p -> atomic G (PWrap p)
| at_choice e ltm ps : (forall p, In p ps -> atomic G p) -> atomic G (PChoice e ltm ps)
| at_pairchoice e ltm ps :
    (forall p, In p (map fst ps) -> atomic G p) -> atomic G (PPairChoice e ltm ps)
| at_dyn p f : atomic G (PDynThen p f)
| at_ctorfn f : atomic G (PCtorFn f)
| at_ref i : atomic G (PRef i)
| at_lock i : atomic G (PLock i).

Definition atomic_env (G : env) : Prop := forall i p, env_get G i = Some p -> atomic G p.

Theorem parse_atomic G : atomic_env G -> forall n held p, atomic G p ->
  keeps (parse n G held [] p).
Proof.
  intros HG n. induction n as [|n IH]; intros held p Hp; [apply noerr_keeps, noerr_oof|].
  assert (T : forall q, atomic G q -> keeps (tm (parse n G) held [] q)) by (intros; now apply IH).
  destruct Hp; cbn [parse].
  - now apply step_restores.
  - assumption.
  - cbn [parse_step]. apply keeps_guard. repeat (apply gsafe_bind; [|intros]); try apply gsafe_try.
    apply gsafe_on. intros x e x' E. now apply H in E.
  - now apply IH.
  - now apply T.
  - now apply T.
  - now apply IH.
  - cbn [parse_step]. destruct ltm; [apply keeps_choice_ltm; auto|apply keeps_choice].
  - cbn [parse_step]. destruct ltm; [apply keeps_choice_ltm; auto|apply keeps_choice].
  - apply noerr_keeps, noerr_panic.
  - apply noerr_keeps, noerr_panic.
  - cbn [parse_step]. destruct (env_get G i) as [q|] eqn:E; [|apply keeps_fail].
    apply IH. now apply HG in E.
  - cbn [parse_step]. destruct (existsb (Nat.eqb i) held); [apply noerr_keeps, noerr_panic|].
    destruct (env_get G i) as [q|] eqn:E; [|apply keeps_fail]. apply IH. now apply HG in E.
Qed.

(** The same for the constructing mode. *)
Definition self_restoring_ctor (p : pat) : bool :=
  match p with
  | PThen _ _ | PIfThen _ _ _ | POr _ _ | PLongest _ _ | PPrefix _ _
  | PSuffix _ _ | PEnclose _ _ _ | PSepOnce _ _ _ | PSep _ _ _ _ | PSep2 _ _ _ _ _
  | PSepCollect _ _ _ _ | PRepeat _ _ | PRepeat2 _ _ _ | PCollect _ _ | POption _
  | PBranch _ _ _ | PChoice _ false _ | PPairChoice _ false _ | PNoneP => true
  | _ => false
  end.

Lemma cstep_restores {S} (h : handler S) G pr con fuel held pols p :
  self_restoring_ctor p = true -> keeps (construct_step h G pr con fuel held pols p).
Proof.
  destruct p; intros Hs; try discriminate Hs; cbn [construct_step];
    try solve [keeps];
    try solve [apply keeps_offset; intros; keeps];
    try solve [apply keeps_ends; intros; keeps].
  - intros x e x' E. unfold bind, offset, reads, on_err_reset in E.
    destruct (t (fst x)) as [b|e0| |]; try discriminate E; [|now injection E as _ <-].
    destruct ((if b then con held p1 else con held p2) x) as [[a|e1| |] y];
      try discriminate E. now injection E as _ <-.
  - destruct ltm; [discriminate Hs|]. apply keeps_con_choice.
  - destruct ltm; [discriminate Hs|]. apply keeps_con_choice.
Qed.

Theorem construct_restores {S} (h : handler S) n G held pols p x e x' :
  self_restoring_ctor p = true -> construct h n G held pols p x = (Err e, x') ->
  get_off x' = get_off x.
Proof.
  intros Hs E. destruct n as [|n]; [discriminate E|]. now apply cstep_restores in E.
Qed.

(** A handler that never fails. *)
Definition infallible {S} (h : handler S) : Prop := forall c s st e st', h c s st <> (Err e, st').

Inductive catomic (G : env) : pat -> Prop :=
| cat_self p : self_restoring_ctor p = true -> catomic G p
| cat_leaf p :
    match p with
    | PEmpty | PFail | PStart | PEnd | PConsume _ | PConsumeAll | PLit _ | PAssert _ _ | PFn _
    | PBuilder _ _ | PLeaf _ | POnce _ _ | PMany1 _ _ | POpt _ _ | PMany0 _ _
    | PBetween _ _ _ _ | PTimes _ _ _ | PNeuThen _ _ _ => atomic G p
    | _ => False
    end -> catomic G p
| cat_pat p : atomic G p -> catomic G (PPat p)
| cat_map p f : catomic G p -> (forall v e, f v <> Err e) -> catomic G (PMap p f)
| cat_wrap p : catomic G p -> catomic G (PWrap p)
| cat_dyn p f : (forall c v e c', f c v <> (Err e, c')) -> catomic G (PDynThen p f)
| cat_ctorfn f : keeps f -> catomic G (PCtorFn f)
| cat_ref i : catomic G (PRef i)
| cat_lock i : catomic G (PLock i).

Definition catomic_env (G : env) : Prop := forall i p, env_get G i = Some p -> catomic G p.

Lemma keeps_on_ctx {S A} (m : M ctx A) : keeps m -> keeps (@on_ctx S A m).
Proof.
  intros Hm x e x' E. unfold on_ctx in E. destruct (m (fst x)) as [r c] eqn:Em.
  injection E as -> <-. now apply Hm in Em.
Qed.

Theorem construct_atomic {S} (h : handler S) G :
  infallible h -> atomic_env G -> catomic_env G -> forall n held p, catomic G p ->
  keeps (construct h n G held [] p).
Proof.
  intros Hh HG HC n. induction n as [|n IH]; intros held p Hp; [apply noerr_keeps, noerr_oof|].
  assert (T : forall q, atomic G q -> keeps (@ctm S (parse n G) held [] q))
    by (intros; apply keeps_on_ctx, parse_atomic; auto).
  assert (L : forall q, atomic G q -> keeps (leaf h (parse n G) held [] q)).
  { intros q Hq x e x' E. unfold leaf, bind in E.
    destruct (ctm (parse n G) held [] q x) as [[a|e0| |] y] eqn:Em; try discriminate E.
    - unfold invoke in E. destruct (h (fst y) a (snd y)) as [r st] eqn:Eh. injection E as -> <-.
      now apply Hh in Eh.
    - injection E as -> <-. now apply T in Em. }
  destruct Hp; cbn [construct].
  - now apply cstep_restores.
  - destruct p; try contradiction; now apply L.
  - now apply L.
  - cbn [construct_step]. intros x e x' E. unfold bind, lift in E.
    destruct (construct h n G held [] p x) as [[a|e0| |] y] eqn:Em; try discriminate E.
    + injection E as E _. now apply H in E.
    + injection E as -> <-. now apply IH in Em.
  - now apply IH.
  - cbn [construct_step]. apply keeps_guard.
    repeat (apply gsafe_bind; [|intros]); try apply gsafe_try; try apply gsafe_ret.
    apply gsafe_on. intros x e x' E. unfold on_ctx in E. destruct (f (fst x) a) as [r c] eqn:Em.
    injection E as -> _. now apply H in Em.
  - cbn [construct_step]. now apply keeps_on_ctx.
  - cbn [construct_step]. destruct (env_get G i) as [q|] eqn:E; [|apply keeps_fail].
    apply IH. now apply HC in E.
  - cbn [construct_step]. destruct (existsb (Nat.eqb i) held); [apply noerr_keeps, noerr_panic|].
    destruct (env_get G i) as [q|] eqn:E; [|apply keeps_fail]. apply IH. now apply HC in E.
Qed.
