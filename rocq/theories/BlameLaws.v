(** Proofs about Blame.v: which errors a computation may return. *)

From Coq Require Import List Arith NArith Bool.
From Verif Require Import Base Text Context Neu Syntax Regex Ctor TextProofs Spec CtorSpec ConSpec Blame.
Import ListNotations.

(** Every error the computation returns satisfies [P]. *)
Definition errs {X A} (P : error -> Prop) (m : M X A) : Prop :=
  forall x e x', m x = (Err e, x') -> P e.

Section Rules.
  Context {X : Type}.
  Variable P : error -> Prop.

  Lemma errs_ret {A} (a : A) : errs (X := X) P (ret a).
  Proof. intros x e x' E. discriminate. Qed.
  Lemma errs_fail {A} e : P e -> errs (X := X) (A := A) P (fail e).
  Proof. intros H x e' x' E. now injection E as <- _. Qed.
  Lemma errs_panic {A} : errs (X := X) (A := A) P panic.
  Proof. intros x e x' E. discriminate. Qed.
  Lemma errs_oof {A} : errs (X := X) (A := A) P oof.
  Proof. intros x e x' E. discriminate. Qed.
  Lemma errs_bind {A B} (m : M X A) (f : A -> M X B) : errs P m -> (forall a, errs P (f a)) -> errs P (bind m f).
  Proof.
    intros Hm Hf x e x' E. unfold bind in E. destruct (m x) as [[a|e0| |] x0] eqn:Em; try discriminate.
    - now apply (Hf a) in E.
    - injection E as -> <-. now apply Hm in Em.
  Qed.
  Lemma errs_bind_ok {A B} (m : M X A) (f : A -> M X B) :
    errs P m -> (forall a x x', m x = (Ok a, x') -> errs P (f a)) -> errs P (bind m f).
  Proof.
    intros Hm Hf x e x' E. unfold bind in E. destruct (m x) as [[a|e0| |] x0] eqn:Em; try discriminate.
    - now apply (Hf a _ _ Em) in E.
    - injection E as -> <-. now apply Hm in Em.
  Qed.
  Lemma g_on_ok {A} (m : M X A) a g g' : g_on m g = (Ok a, g') -> exists x x', m x = (Ok a, x').
  Proof.
    unfold g_on. intros E. destruct (m (g_ctx g)) as [r x0] eqn:Em. injection E as -> _. eauto.
  Qed.
  (** After [catch] the caught error is one of the errors of the computation. *)
  Lemma errs_bind_catch {A B} (m : M X A) (f : A + error -> M X B) (Q : error -> Prop) :
    errs Q m -> (forall a, errs P (f (inl a))) -> (forall e, Q e -> errs P (f (inr e))) -> errs P (bind (catch m) f).
  Proof.
    intros Hm Ha He x e x' E. unfold bind, catch in E. destruct (m x) as [[a|e0| |] x0] eqn:Em; try discriminate.
    - now apply Ha in E.
    - apply (He e0) in E; [exact E|]. now apply Hm in Em.
  Qed.
  Lemma errs_catch {A} (m : M X A) : errs P (catch m).
  Proof. intros x e x' E. unfold catch in E. destruct (m x) as [[a|e0| |] x0]; discriminate. Qed.
  Lemma errs_lift {A} (r : res A) : (forall e, r = Err e -> P e) -> errs (X := X) P (lift r).
  Proof. intros H x e x' E. injection E as E _. now apply H. Qed.
  Lemma errs_reads {A} (f : X -> res A) : (forall x e, f x = Err e -> P e) -> errs P (reads f).
  Proof. intros H x e x' E. injection E as E _. now apply H in E. Qed.
  Lemma errs_g_try {A} (m : M X A) : errs P m -> errs P (g_try m).
  Proof.
    intros H g e g' E. unfold g_try in E. destruct (m (g_ctx g)) as [[a|e0| |] x0] eqn:Em; try discriminate.
    injection E as -> _. now apply H in Em.
  Qed.
  Lemma errs_g_on {A} (m : M X A) : errs P m -> errs P (g_on m).
  Proof.
    intros H g e g' E. unfold g_on in E. destruct (m (g_ctx g)) as [r x0] eqn:Em. injection E as -> _. now apply H in Em.
  Qed.
  Lemma errs_g_beg : errs (X := guard X) P g_beg.
  Proof. intros x e x' E. discriminate. Qed.
  Lemma errs_join a b : errs (X := X) P (join a b).
  Proof.
    apply errs_lift. intros e E. unfold add_assign, csub in E.
    destruct (sbeg a <=? sbeg b); [|discriminate]. destruct (_ <=? _); discriminate.
  Qed.

  Context `{HasOffset X}.
  Lemma errs_offset : errs P offset.
  Proof. intros x e x' E. discriminate. Qed.
  Lemma errs_set_offset o : errs P (set_offset o).
  Proof. intros x e x' E. discriminate. Qed.
  Lemma errs_with_guard {A} (m : M (guard X) A) : errs P m -> errs P (with_guard m).
  Proof.
    intros Hm x e x' E. unfold with_guard in E. destruct (m (g_new x)) as [r g] eqn:Em. injection E as -> _. now apply Hm in Em.
  Qed.
  Lemma errs_on_err_reset {A} o (m : M X A) : errs P m -> errs P (on_err_reset o m).
  Proof.
    intros Hm x e x' E. unfold on_err_reset in E. destruct (m x) as [[a|e0| |] x0] eqn:Em; try discriminate.
    injection E as -> _. now apply Hm in Em.
  Qed.
  Lemma errs_accept {A} ok e o (a : A) : P e -> errs P (accept ok e o a).
  Proof.
    intros Pe. unfold accept. destruct ok; [apply errs_ret|]. apply errs_bind; [apply errs_set_offset|]. intros _. now apply errs_fail.
  Qed.
  Lemma errs_repeat_loop tmp fuel more cnt total : errs P (repeat_loop (X := X) tmp fuel more cnt total).
  Proof.
    revert cnt total. induction fuel as [|fuel IH]; intros cnt total; cbn [repeat_loop]; [apply errs_oof|].
    destruct (more cnt); [|apply errs_ret]. apply errs_bind; [apply errs_catch|]. intros [s|e]; [|apply errs_ret].
    apply errs_bind; [apply errs_join|]. intros t. apply IH.
  Qed.
  Lemma errs_sep_loop tmp tms fuel more skip cnt total : errs P (sep_loop (X := X) tmp tms fuel more skip cnt total).
  Proof.
    revert cnt total. induction fuel as [|fuel IH]; intros cnt total; cbn [sep_loop]; [apply errs_oof|].
    destruct (more cnt); [|apply errs_ret]. apply errs_bind; [apply errs_catch|]. intros [s|e]; [|apply errs_ret].
    apply errs_bind; [apply errs_catch|]. intros [s'|e].
    - apply errs_bind; [apply errs_join|]. intros t. apply errs_bind; [apply errs_join|]. intros t'. apply IH.
    - destruct skip; [|apply errs_ret]. apply errs_bind; [apply errs_join|]. intros t. apply errs_ret.
  Qed.
  Lemma errs_repeat_vals con fuel more acc : errs P (repeat_vals (X := X) con fuel more acc).
  Proof.
    revert acc. induction fuel as [|fuel IH]; intros acc; cbn [repeat_vals]; [apply errs_oof|].
    destruct (more _); [|apply errs_ret]. apply errs_bind; [apply errs_catch|]. intros [s|e]; [|apply errs_ret]. apply IH.
  Qed.
  Lemma errs_repeat2_vals con fuel n acc : errs P (repeat2_vals (X := X) con fuel n acc).
  Proof.
    revert acc. induction fuel as [|fuel IH]; intros acc; cbn [repeat2_vals]; [apply errs_oof|].
    destruct (_ <=? _); [|apply errs_ret]. apply errs_bind; [apply errs_catch|]. intros [s|e]; [|apply errs_ret].
    destruct (_ <? _); [apply IH|apply errs_panic].
  Qed.
  Lemma errs_sep_vals con tms fuel skip acc : errs P (sep_vals (X := X) con tms fuel skip acc).
  Proof.
    revert acc. induction fuel as [|fuel IH]; intros acc; cbn [sep_vals]; [apply errs_oof|].
    apply errs_bind; [apply errs_catch|]. intros [s|e]; [|apply errs_ret].
    apply errs_bind; [apply errs_catch|]. intros [s'|e]; [apply IH|apply errs_ret].
  Qed.
  Lemma errs_sep2_vals con tms fuel n skip acc : errs P (sep2_vals (X := X) con tms fuel n skip acc).
  Proof.
    revert acc. induction fuel as [|fuel IH]; intros acc; cbn [sep2_vals]; [apply errs_oof|].
    destruct (_ <=? _); [|apply errs_ret]. apply errs_bind; [apply errs_catch|]. intros [s|e]; [|apply errs_ret].
    apply errs_bind; [apply errs_catch|]. intros [s'|e].
    - destruct (_ <? _); [apply IH|apply errs_panic].
    - destruct skip; [|apply errs_ret]. destruct (_ <? _); [apply errs_ret|apply errs_panic].
  Qed.
  Lemma errs_sepcollect_vals con tms fuel skip en acc : errs P (sepcollect_vals (X := X) con tms fuel skip en acc).
  Proof.
    revert en acc. induction fuel as [|fuel IH]; intros en acc; cbn [sepcollect_vals]; [apply errs_oof|].
    apply errs_bind; [apply errs_catch|]. intros [s|e]; [|apply errs_ret].
    apply errs_bind; [apply errs_catch|]. intros s'. destruct en; [apply errs_ret|]. cbv zeta.
    destruct (_ || _); [apply IH|apply errs_ret].
  Qed.
  Lemma errs_con_choice (con : pat -> M X val) o e ps : P e -> errs P (con_choice con o e ps).
  Proof.
    intros Pe. induction ps as [|p ps IH]; cbn [con_choice]; [now apply errs_fail|].
    apply errs_bind; [apply errs_catch|]. intros [v|e']; [apply errs_ret|exact IH].
  Qed.
  Lemma errs_con_choice_ltm (con : pat -> M X val) o e best en ps : P e -> errs P (con_choice_ltm con o e best en ps).
  Proof.
    intros Pe. revert best en. induction ps as [|p ps IH]; intros best en; cbn [con_choice_ltm].
    - destruct best; [apply errs_ret|now apply errs_fail].
    - apply errs_bind; [apply errs_set_offset|]. intros _. apply errs_bind; [apply errs_catch|]. intros r.
      apply errs_bind; [apply errs_offset|]. intros o'. destruct r as [v|e']; [|apply IH]. destruct (_ <? _); apply IH.
  Qed.
End Rules.

Lemma errs_choice (P : error -> Prop) (tm : pat -> M ctx span) o e ps : P e -> errs P (choice tm o e ps).
Proof.
  intros Pe. induction ps as [|p ps IH]; cbn [choice]; [now apply errs_fail|].
  apply errs_bind; [apply errs_catch|]. intros [v|e']; [apply errs_ret|exact IH].
Qed.
Lemma errs_choice_ltm (P : error -> Prop) (tm : pat -> M ctx span) o e best ps : P e -> errs P (choice_ltm tm o e best ps).
Proof.
  intros Pe. revert best. induction ps as [|p ps IH]; intros best; cbn [choice_ltm].
  - destruct best; [apply errs_ret|now apply errs_fail].
  - apply errs_bind; [apply errs_set_offset|]. intros _. apply errs_bind; [apply errs_catch|]. intros [s|e']; apply IH.
Qed.

Lemma errs_imp {X A} (P Q : error -> Prop) (m : M X A) : (forall e, P e -> Q e) -> errs P m -> errs Q m.
Proof. intros I H x e x' E. apply I. now apply H in E. Qed.

Lemma errs_inc P n : errs P (inc n).
Proof. intros x e x' E. unfold inc in E. discriminate. Qed.
Lemma errs_new_span_inc P n : errs P (new_span_inc n).
Proof.
  apply errs_bind; [apply errs_offset|]. intros o. apply errs_bind; [apply errs_inc|]. intros _. apply errs_ret.
Qed.
Lemma errs_remaining P : errs P remaining.
Proof. intros x e x' E. unfold remaining, csub in E. destruct (_ <=? _); discriminate. Qed.
Lemma errs_calc P a b n : errs P (lift (X := ctx) (calc_length a b n)).
Proof.
  apply errs_lift. intros e E. unfold calc_length, csub in E. destruct a; [|discriminate].
  destruct b; destruct (_ <=? _); discriminate.
Qed.
Lemma orig_at_err c o e : orig_at c o = Err e -> e = EOutOfBound.
Proof.
  unfold orig_at, orig_sub, csub. intros E.
  repeat match type of E with context [match ?x with _ => _ end] => destruct x end; congruence.
Qed.
Lemma peek_err c e : peek c = Err e -> e = EOutOfBound.
Proof.
  unfold peek, peek_at. intros E. destruct (orig_at c (c_off c)) eqn:E0; try discriminate.
  injection E as <-. now apply orig_at_err in E0.
Qed.
Lemma orig_err c e : orig c = Err e -> e = EOutOfBound.
Proof. apply orig_at_err. Qed.
Lemma clone_err c o e : clone_at c o = Err e -> e = EOutOfBound.
Proof.
  unfold clone_at. intros E. destruct (orig_at c o) eqn:E0; try discriminate. injection E as <-. now apply orig_at_err in E0.
Qed.

(** Errors of a unit regex: of its condition, of looking outside the text, or its own. *)
Section UnitErrs.
  Variable P : error -> Prop.
  Variable u : neu.
  Variable chk : check_t.
  Hypothesis Chk : forall c x e, chk c x = Err e -> P e.

  Lemma scan_err c beg l e : scan (is_match u) (chk c) beg l = Err e -> P e.
  Proof.
    revert beg. induction l as [|x l IH]; intros beg E; cbn [scan] in E; [discriminate|].
    destruct (is_match u (snd x)); [|discriminate]. destruct (chk c x) as [[]|e0| |] eqn:C; try discriminate; [now apply IH in E|].
    injection E as ->. now apply Chk in C.
  Qed.
  Lemma scan_n_err c more cnt beg l e : scan_n (is_match u) (chk c) more cnt beg l = Err e -> P e.
  Proof.
    revert cnt beg. induction l as [|x l IH]; intros cnt beg E; cbn [scan_n] in E; [discriminate|].
    destruct (more cnt); [|discriminate].
    destruct (is_match u (snd x)); [|discriminate]. destruct (chk c x) as [[]|e0| |] eqn:C; try discriminate; [now apply IH in E|].
    injection E as ->. now apply Chk in C.
  Qed.

  Ltac unit_step :=
    match goal with
    | |- errs _ (bind _ _) => apply errs_bind; [|intros ?]
    | |- errs _ (if ?b then _ else _) => destruct b
    | |- errs _ (match ?b with [] => _ | _ => _ end) => destruct b
    | |- errs _ (match ?b with Some _ => _ | None => _ end) => destruct b
    | |- errs _ (match ?b with inl _ => _ | inr _ => _ end) => destruct b
    | |- errs _ (let '(_, _) := ?b in _) => destruct b
    | |- errs _ (ret _) => apply errs_ret
    | |- errs _ (fail _) => apply errs_fail; auto
    | |- errs _ remaining => apply errs_remaining
    | |- errs _ offset => apply errs_offset
    | |- errs _ (catch _) => apply errs_catch
    | |- errs _ (lift (calc_length _ _ _)) => apply errs_calc
    | |- errs _ (new_span_inc _) => apply errs_new_span_inc
    | |- errs _ (reads peek) => apply errs_reads; intros ? ? ?E; apply peek_err in E; subst; auto
    | |- errs _ (reads orig) => apply errs_reads; intros ? ? ?E; apply orig_err in E; subst; auto
    | |- errs _ (reads (fun c => chk c _)) => apply errs_reads; intros ? ? ?E; now apply Chk in E
    | |- errs _ (reads (fun c => Ok _)) => apply errs_reads; intros ? ? ?E; discriminate
    | |- errs _ (reads (fun c => scan _ _ _ _)) => apply errs_reads; intros ? ? ?E; now apply scan_err in E
    | |- errs _ (reads (fun c => scan_n _ _ _ _ _ _)) => apply errs_reads; intros ? ? ?E; now apply scan_n_err in E
    end.

  Lemma errs_opt : errs P (opt_parse u chk).
  Proof. unfold opt_parse. repeat unit_step. Qed.
  Lemma errs_many0 : errs P (many0_parse u chk).
  Proof. unfold many0_parse. repeat unit_step. Qed.
  Hypothesis Lost : P EOutOfBound.
  Lemma errs_once : P EOnce -> errs P (once_parse u chk).
  Proof. intros O. unfold once_parse. repeat unit_step. Qed.
  Lemma errs_many1 : P EMany1 -> errs P (many1_parse u chk).
  Proof. intros O. unfold many1_parse. repeat unit_step. Qed.
  Lemma errs_between m n : P EBetween -> errs P (between_parse m n u chk).
  Proof. intros O. unfold between_parse. repeat unit_step. Qed.
  Lemma errs_times r : P ETimes -> errs P (times_parse r u chk).
  Proof. intros O. unfold times_parse. repeat unit_step. Qed.
  Lemma errs_neuthen v : P ENeureThen -> errs P (neuthen_parse u v chk).
  Proof. intros O. unfold neuthen_parse. repeat unit_step. Qed.
  Lemma errs_literal l : P ELiteral -> errs P (literal_parse l).
  Proof. intros O. unfold literal_parse. repeat unit_step. Qed.
End UnitErrs.

Section Calls.
  Context {S : Type}.
  Variable h : handler S.
  Variable G : env.

  (** Errors the handler may return. *)
  Definition handler_errs (e : error) : Prop := exists c s st st', h c s st = (Err e, st').
  Notation Bl := (Blame G handler_errs true).

  (** Blame a part of the parser, or a policy of the context: policies run in front of every match. *)
  Definition blames (pols : list pat) (m : mode) (p : pat) (e : error) : Prop :=
    Bl m p e \/ exists r, In r pols /\ Bl Matching r e.

  Lemma blames_here pols m p e : Reports G handler_errs true m p e -> blames pols m p e.
  Proof. intros R. left. now apply blame_here. Qed.
  Lemma blames_part pols m p m' q e : Passes G m p m' q -> blames pols m' q e -> blames pols m p e.
  Proof. intros R [B|B]; [left; eapply blame_part; eauto|now right]. Qed.

  Section Step.
    Variable n : nat.
    Hypothesis IH : forall held pols p, errs (blames pols Matching p) (parse n G held pols p).

    Lemma tm_errs held pols p : errs (blames pols Matching p) (tm (parse n G) held pols p).
    Proof.
      unfold tm, try_mat. destruct pols as [|r rest]; [apply IH|]. apply errs_bind; [|intros _; apply IH].
      eapply errs_imp; [|apply IH]. intros e [B|(r' & I & B)]; right; [exists r|exists r']; cbn [In]; auto.
    Qed.
    Lemma check_err held pols c x y e : check (parse n G) held pols c x y = Err e -> cond_reports true c e.
    Proof.
      destruct c as [|f|q]; cbn [check cond_reports]; [discriminate|eauto|]. intros E.
      destruct (clone_at x (c_off x + fst y)) as [c'|e'| |] eqn:C; try discriminate.
      - destruct (fst (tm (parse n G) held pols q c')); discriminate.
      - injection E as ->. apply clone_err in C. auto.
    Qed.

    Ltac here := apply blames_here; solve [constructor; solve [unfold lost_reports; auto]].
    Ltac sub := eapply errs_imp; [intros ? ?; eapply blames_part; [econstructor; eauto|eassumption]|apply tm_errs || apply IH].
    Ltac step :=
      match goal with
      | |- errs _ (bind _ _) => apply errs_bind; [|intros ?]
      | |- errs _ (if ?b then _ else _) => destruct b
      | |- errs _ (match ?b with inl _ => _ | inr _ => _ end) => destruct b
      | |- errs _ (ret _) => apply errs_ret
      | |- errs _ panic => apply errs_panic
      | |- errs _ (fail _) => apply errs_fail
      | |- errs _ offset => apply errs_offset
      | |- errs _ (set_offset _) => apply errs_set_offset
      | |- errs _ g_beg => apply errs_g_beg
      | |- errs _ (catch _) => apply errs_catch
      | |- errs _ (join _ _) => apply errs_join
      | |- errs _ (with_guard _) => apply errs_with_guard
      | |- errs _ (g_try _) => apply errs_g_try
      | |- errs _ (on_err_reset _ _) => apply errs_on_err_reset
      | |- errs _ (accept _ _ _ _) => apply errs_accept
      | |- errs _ (sep_loop _ _ _ _ _ _ _) => apply errs_sep_loop
      | |- errs _ (repeat_loop _ _ _ _ _) => apply errs_repeat_loop
      | |- errs _ (collect_loop _ _ _ _) => apply errs_repeat_loop
      end.
    Ltac unit L := apply L; [intros ? ? ? E; apply check_err in E| |]; here.

    Lemma parse_step_errs held pols p : errs (blames pols Matching p) (parse_step G (parse n G) n held pols p).
    Proof.
      destruct p; cbn [parse_step]; try (repeat step; (now here) || sub).
      - unfold start_parse. repeat step; here.
      - unfold end_parse. repeat step; [|here]. apply errs_reads. discriminate.
      - unfold consume_parse. repeat step; [apply errs_remaining|apply errs_new_span_inc|here].
      - unfold consume_all_parse. repeat step; [|apply errs_new_span_inc]. apply errs_reads. discriminate.
      - apply errs_literal; here.
      - intros c e c' E. apply blames_here. econstructor. eassumption.
      - step. step; [step; sub|]. apply errs_bind_ok.
        + apply errs_g_on. intros c e c' E. apply blames_here. econstructor. eassumption.
        + intros q g g' E. apply g_on_ok in E. destruct E as (c & c' & E). step. eapply errs_imp; [|apply tm_errs].
          intros e B. eapply blames_part; [eapply P_built; eassumption|exact B].
      - unit (errs_once (blames pols Matching (POnce u c))).
      - unit (errs_many1 (blames pols Matching (PMany1 u c))).
      - apply errs_opt. intros x y e E. apply check_err in E. here.
      - apply errs_many0. intros x y e E. apply check_err in E. here.
      - unit (errs_between (blames pols Matching (PBetween m n0 u c))).
      - unit (errs_times (blames pols Matching (PTimes r u c))).
      - unit (errs_neuthen (blames pols Matching (PNeuThen u v c))).
      - step; [step|]. step; [step|]. step; [step|]. eapply errs_bind_catch; [apply tm_errs| |].
        + intros t. destruct a0; repeat step.
        + intros e B. destruct a0; repeat step. eapply blames_part; [apply P_longest|exact B].
      - repeat step; [|sub|sub]. apply errs_reads. intros c e E. apply blames_here. econstructor. eassumption.
      - repeat step; [apply errs_choice_ltm|apply errs_choice]; here.
      - repeat step; [apply errs_choice_ltm|apply errs_choice]; here.
      - destruct (env_get G i) eqn:E; [sub|]. step. here.
      - destruct (existsb _ _); [step|]. destruct (env_get G i) eqn:E; [sub|]. step. here.
    Qed.
  End Step.

  Lemma parse_errs n held pols p : errs (blames pols Matching p) (parse n G held pols p).
  Proof.
    revert held pols p. induction n as [|n IH]; intros held pols p; cbn [parse]; [apply errs_oof|]. now apply parse_step_errs.
  Qed.
  Lemma match_errs n held pols p : errs (blames pols Matching p) (tm (parse n G) held pols p).
  Proof. apply tm_errs. apply parse_errs. Qed.

  Lemma errs_on_ctx {A} P (m : M ctx A) : errs P m -> errs P (on_ctx (S := S) m).
  Proof.
    intros H x e x' E. unfold on_ctx in E. destruct (m (fst x)) as [r c] eqn:Em. injection E as -> _. now apply H in Em.
  Qed.
  Lemma ctm_errs n held pols p : errs (blames pols Matching p) (ctm (S := S) (parse n G) held pols p).
  Proof. apply errs_on_ctx, match_errs. Qed.
  Lemma invoke_errs s : errs handler_errs (invoke h s).
  Proof.
    intros x e x' E. unfold invoke in E. destruct (h (fst x) s (snd x)) as [r st] eqn:Eh. injection E as -> _.
    now exists (fst x), s, (snd x), st.
  Qed.

  Section CtorStep.
    Variable n : nat.
    Variable pols : list pat.
    Hypothesis IH : forall held p, errs (blames pols Constructing p) (construct h n G held pols p).

    Ltac here := apply blames_here; solve [constructor; solve [auto]].
    Ltac sub := eapply errs_imp; [intros ? ?; eapply blames_part; [econstructor; eauto|eassumption]|apply ctm_errs || apply IH].
    Ltac step :=
      match goal with
      | |- errs _ (bind _ _) => apply errs_bind; [|intros ?]
      | |- errs _ (if ?b then _ else _) => destruct b
      | |- errs _ (match ?b with inl _ => _ | inr _ => _ end) => destruct b
      | |- errs _ (ret _) => apply errs_ret
      | |- errs _ panic => apply errs_panic
      | |- errs _ (fail _) => apply errs_fail
      | |- errs _ offset => apply errs_offset
      | |- errs _ (set_offset _) => apply errs_set_offset
      | |- errs _ (catch _) => apply errs_catch
      | |- errs _ (with_guard _) => apply errs_with_guard
      | |- errs _ (g_try _) => apply errs_g_try
      | |- errs _ (on_err_reset _ _) => apply errs_on_err_reset
      | |- errs _ (accept _ _ _ _) => apply errs_accept
      | |- errs _ (sep_vals _ _ _ _ _) => apply errs_sep_vals
      | |- errs _ (sep2_vals _ _ _ _ _ _) => apply errs_sep2_vals
      | |- errs _ (sepcollect_vals _ _ _ _ _ _) => apply errs_sepcollect_vals
      | |- errs _ (repeat_vals _ _ _ _) => apply errs_repeat_vals
      | |- errs _ (repeat2_vals _ _ _ _) => apply errs_repeat2_vals
      end.

    Lemma leaf_errs held p : leafy p -> errs (blames pols Constructing p) (leaf h (parse n G) held pols p).
    Proof.
      intros L. unfold leaf. apply errs_bind; [|intros s].
      - eapply errs_imp; [|apply ctm_errs]. intros e B. eapply blames_part; [now apply P_construct|exact B].
      - eapply errs_imp; [|apply invoke_errs]. intros e B. apply blames_here. now apply R_handler.
    Qed.

    Lemma construct_step_errs held p :
      errs (blames pols Constructing p)
        (construct_step h G (parse n G) (fun hl => construct h n G hl pols) n held pols p).
    Proof.
      destruct p; cbn [construct_step]; try (apply leaf_errs; exact I); try (repeat step; (now here) || sub).
      - step; [step|]. step; [step|]. step; [step|]. step; [step|]. eapply errs_bind_catch; [apply IH| |].
        + intros v. destruct a0; repeat step.
        + intros e B. destruct a0; repeat step. eapply blames_part; [apply P_longest|exact B].
      - step; [sub|]. eapply errs_imp; [|apply invoke_errs]. intros e B. apply blames_here. now apply R_pat_handler.
      - repeat step; [|sub|sub]. apply errs_reads. intros c e E. apply blames_here. eapply R_branch. exact E.
      - step; [sub|]. apply errs_lift. intros e E. apply blames_here. eapply R_map. exact E.
      - step. step; [step; sub|]. apply errs_bind_ok.
        + apply errs_g_on, errs_on_ctx. intros c e c' E. apply blames_here. eapply R_dynthen. exact E.
        + intros q g g' E. apply g_on_ok in E. destruct E as (c & c' & E). unfold on_ctx in E.
          destruct (f (fst c) a) as [r c0] eqn:Ef. injection E as -> _. step; [step|step]. eapply errs_imp; [|apply IH].
          intros e B. eapply blames_part; [eapply P_dynbuilt; eassumption|exact B].
      - apply errs_on_ctx. intros c e c' E. apply blames_here. eapply R_ctorfn. exact E.
      - repeat step; [apply errs_con_choice_ltm|apply errs_con_choice]; here.
      - repeat step; [apply errs_con_choice_ltm|apply errs_con_choice]; here.
      - destruct (env_get G i) eqn:E; [sub|]. step. here.
      - destruct (existsb _ _); [step|]. destruct (env_get G i) eqn:E; [sub|]. step. here.
    Qed.
  End CtorStep.

  Lemma construct_errs n held pols p : errs (blames pols Constructing p) (construct h n G held pols p).
  Proof.
    revert held p. induction n as [|n IH]; intros held p; cbn [construct]; [apply errs_oof|]. now apply construct_step_errs.
  Qed.
End Calls.

(** With the cursor in the text there is nobody to report [EOutOfBound]: read off the specifications. *)
Section Specified.
  Variable k : kind.
  Variable G : env.
  Variable sk : text -> nat -> nat.

  Lemma peg_blame H :
    (forall w p i o, Peg k G sk w p i o -> forall e, o = KO e -> Blame G H false Matching p e) /\
    (forall w i u c m r, Acc k G sk w i u c m r -> forall e, r = inr e -> cond_reports false c e) /\
    (forall w i c m x r, Chk k G sk w i c m x r -> forall e, r = inr e -> cond_reports false c e) /\
    (forall w i u c lim m r, Run k G sk w i u c lim m r -> forall e, r = inr e -> cond_reports false c e) /\
    (forall w p lim i n j, Reps k G sk w p lim i n j -> True) /\
    (forall w p s lim i n j, Seps k G sk w p s lim i n j -> True) /\
    (forall w ps i e o, First k G sk w ps i e o -> forall e', o = KO e' -> e' = e).
  Proof.
    apply Peg_mutind; intros; try exact I; try congruence; eauto;
      try (match goal with E : KO _ = KO _ |- _ => injection E as <- end);
      try (solve [apply blame_here; constructor; solve [eauto]]);
      try (solve [apply blame_here; econstructor; eassumption]);
      try (solve [eapply blame_part; [constructor|eauto]]);
      try (solve [eapply blame_part; [constructor; eassumption|eauto]]);
      try (solve [eapply blame_part; [econstructor; eassumption|eauto]]);
      try (solve [eapply blame_part; [apply P_then2|eauto]]);
      try (solve [eapply blame_part; [apply P_ifthen2|eauto]]);
      try (solve [eapply blame_part; [apply P_prefix2|eauto]]);
      try (solve [eapply blame_part; [apply P_suffix2|eauto]]);
      try (solve [eapply blame_part; [apply P_enclose2|eauto]]);
      try (solve [eapply blame_part; [apply P_enclose3|eauto]]);
      try (solve [eapply blame_part; [apply P_seponce2|eauto]]);
      try (solve [eapply blame_part; [apply P_seponce3|eauto]]);
      try (solve [eapply blame_part; [apply P_branch2|eauto]]).
    - rewrite (H1 _ H2). apply blame_here. constructor.
    - rewrite (H1 _ H2). apply blame_here. constructor.
    - injection H1 as <-. cbn [cond_reports]. eauto.
    - injection H3 as <-. eauto.
  Qed.

  Context {ST : Type}.
  Variable hv : text -> nat -> nat -> ST -> res val * ST.
  (** Errors the handler answers. *)
  Definition answer_errs (e : error) : Prop := exists w b j s s', hv w b j s = (Err e, s').

  Lemma peg_blame_matching w p i e : Peg k G sk w p i (KO e) -> Blame G answer_errs false Matching p e.
  Proof. intros P. exact (proj1 (peg_blame answer_errs) w p i (KO e) P e eq_refl). Qed.

  Notation Bl := (Blame G answer_errs false).

  Lemma undo_ce i (o : cout ST) e j s : undo i o = CE e j s -> exists j', o = CE e j' s.
  Proof. destruct o; cbn [undo]; intros E; try discriminate. injection E as <- <- <-. eauto. Qed.
  Lemma settle_ce j (r : res val * ST) e x s : settle j r = CE e x s -> r = (Err e, s).
  Proof. destruct r as [[v|e0| |] s0]; cbn [settle]; intros E; try discriminate. injection E as <- <- <-. reflexivity. Qed.
  Lemma count_ce good e0 i f (l : lout ST) e j s : count_ok good e0 i f l = CE e j s -> e = e0.
  Proof. destruct l; cbn [count_ok]; intros E; [|discriminate]. destruct (good vs); congruence. Qed.

  Lemma con_blame :
    (forall w p i s o, Con k G sk hv w p i s o -> forall e j s', o = CE e j s' -> Bl Constructing p e) /\
    (forall w p lim i s l, Creps k G sk hv w p lim i s l -> True) /\
    (forall w p q skip lim i s l, Cseps k G sk hv w p q skip lim i s l -> True) /\
    (forall w p q skip en i s l, Cpolls k G sk hv w p q skip en i s l -> True) /\
    (forall w e ps i s o, Cfirst k G sk hv w e ps i s o -> forall e' j s', o = CE e' j s' -> e' = e) /\
    (forall w e ps i best en cur s o, Clongest k G sk hv w e ps i best en cur s o -> forall e' j s', o = CE e' j s' -> e' = e).
  Proof.
    apply Con_mutind; intros; try exact I; try congruence; eauto;
      try (match goal with E : undo _ _ = CE _ _ _ |- _ => apply undo_ce in E; destruct E as [? E] end);
      try (match goal with E : settle _ _ = CE _ _ _ |- _ => apply settle_ce in E end);
      try (match goal with E : count_ok _ _ _ _ _ = CE _ _ _ |- _ => apply count_ce in E end);
      try (match goal with E : CE _ _ _ = CE _ _ _ |- _ => injection E; intros; clear E end); subst;
      try (match goal with P : Peg _ _ _ _ _ _ (KO _) |- _ => apply peg_blame_matching in P end);
      try (solve [apply blame_here; constructor; solve [eauto]]);
      try (solve [eapply blame_part; [constructor; solve [eauto]|eauto]]);
      try (solve [eapply blame_part; [apply P_then2|eauto]]);
      try (solve [eapply blame_part; [apply P_ifthen2|eauto]]);
      try (solve [eapply blame_part; [apply P_prefix2|eauto]]);
      try (solve [eapply blame_part; [apply P_suffix2|eauto]]);
      try (solve [eapply blame_part; [apply P_enclose2|eauto]]);
      try (solve [eapply blame_part; [apply P_enclose3|eauto]]);
      try (solve [eapply blame_part; [apply P_seponce2|eauto]]);
      try (solve [eapply blame_part; [apply P_seponce3|eauto]]).
    - apply blame_here. apply R_handler; [assumption|]. unfold answer_errs. eauto 10.
    - apply blame_here. apply R_pat_handler. unfold answer_errs. eauto 10.
    - exfalso. destruct o as [v' j' s2|e' j' s2|]; cbn [longer] in *; try discriminate. destruct (_ <=? _); discriminate.
    - destruct o as [v' j' s2|e' j' s2|]; cbn [longer] in *; try discriminate.
      match goal with E : CE _ _ _ = CE _ _ _ |- _ => injection E as <- <- <- end. eapply blame_part; [apply P_longest|eauto].
    - destruct b; [eapply blame_part; [apply P_branch1|eauto]|eapply blame_part; [apply P_branch2|eauto]].
    - apply blame_here. eapply R_branch. eassumption.
    - match goal with E : (_, _) = (_, _) |- _ => injection E as E <- end. apply blame_here. eapply R_map. eassumption.
    - apply blame_here. eapply R_dynthen. eassumption.
    - eapply blame_part; [eapply P_dynbuilt; eassumption|eauto].
    - match goal with E : (_, _) = (_, _) |- _ => injection E as -> <- end. apply blame_here. eapply R_ctorfn. eassumption.
    - match goal with F : forall _ _ _, _ -> _ = _ |- _ => rewrite (F _ _ _ eq_refl) end. apply blame_here. constructor.
    - match goal with F : forall _ _ _, _ -> _ = _ |- _ => rewrite (F _ _ _ eq_refl) end. apply blame_here. constructor.
    - match goal with F : forall _ _ _, _ -> _ = _ |- _ => rewrite (F _ _ _ eq_refl) end. apply blame_here. constructor.
    - match goal with F : forall _ _ _, _ -> _ = _ |- _ => rewrite (F _ _ _ eq_refl) end. apply blame_here. constructor.
  Qed.
End Specified.
