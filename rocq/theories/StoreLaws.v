(** Lemmas about the span storers and the span iterators. *)

From Coq Require Import List Arith NArith Bool Lia.
From Verif Require Import Base Text Context Neu Syntax Regex Ctor Api TextProofs Spec Core Obs Mono ApiLaws Laws Store.
Import ListNotations.

(** ** Lists *)

Lemma update_length {A} (l : list A) i f : length (update l i f) = length l.
Proof. revert i. induction l as [|x l IH]; intros [|i]; cbn; auto. Qed.

Lemma nth_error_update {A} (l : list A) i f j :
  nth_error (update l i f) j = if i =? j then option_map f (nth_error l j) else nth_error l j.
Proof.
  revert i j. induction l as [|x l IH]; intros i j.
  - cbn. destruct j, (i =? _); reflexivity.
  - destruct i, j; cbn [update nth_error Nat.eqb]; auto.
Qed.

Lemma nth_error_repeat_some {A} (x y : A) n i : nth_error (repeat x n) i = Some y -> y = x.
Proof. intros H. apply nth_error_In in H. now apply repeat_spec in H. Qed.

Lemma nth_error_map_some {A B} (f : A -> B) l i : nth_error (map f l) i = option_map f (nth_error l i).
Proof. revert i. induction l; intros [|i]; cbn; auto. Qed.

(** ** Capturing *)

Lemma vs_try_cap_spec n G pols id p c st r c' st' : vs_try_cap n G pols id p (c, st) = (r, (c', st')) ->
  match r with
  | Ok s => try_mat_top n G pols p c = (Ok s, c') /\ id < length st /\ st' = update st id (fun v => v ++ [s])
  | Err e => try_mat_top n G pols p c = (Err e, c') /\ st' = st
  | Panic => st' = st /\ (try_mat_top n G pols p c = (Panic, c') \/
                         exists s, try_mat_top n G pols p c = (Ok s, c') /\ length st <= id)
  | OOF => st' = st /\ try_mat_top n G pols p c = (OOF, c')
  end.
Proof.
  unfold vs_try_cap, bind, on_ctx, on_store, vs_add_span, ret. cbn [fst snd].
  destruct (try_mat_top n G pols p c) as [[s|e| |] c1] eqn:E; cbn [fst snd].
  - destruct (id <? length st) eqn:L; cbn [fst snd]; intros H; inversion H; subst; clear H.
    + apply Nat.ltb_lt in L. auto.
    + apply Nat.ltb_ge in L. split; [reflexivity|right; eauto].
  - intros H; inversion H; subst; auto.
  - intros H; inversion H; subst; auto.
  - intros H; inversion H; subst; auto.
Qed.

Lemma as_set_span_spec id ix s st r st' : as_set_span id ix s st = (r, st') ->
  (r = Ok tt /\ (exists v, nth_error st id = Some v /\ ix < length v) /\
   st' = update st id (fun v => update v ix (fun _ => Some s))) \/
  (r = Panic /\ st' = st /\ forall v, nth_error st id = Some v -> length v <= ix).
Proof.
  unfold as_set_span. destruct (nth_error st id) as [v|] eqn:E.
  - destruct (ix <? length v) eqn:L; intros H; inversion H; subst; clear H.
    + apply Nat.ltb_lt in L. left. eauto 6.
    + apply Nat.ltb_ge in L. right. repeat split; auto. intros v' Hv. inversion Hv; subst; auto.
  - intros H; inversion H; subst. right. repeat split; auto. discriminate.
Qed.

Lemma as_try_cap_spec n G pols id ix p c st r c' st' : as_try_cap n G pols id ix p (c, st) = (r, (c', st')) ->
  match r with
  | Ok s => try_mat_top n G pols p c = (Ok s, c') /\ as_set_span id ix s st = (Ok tt, st')
  | Err e => try_mat_top n G pols p c = (Err e, c') /\ st' = st
  | Panic => st' = st /\ (try_mat_top n G pols p c = (Panic, c') \/
                         exists s, try_mat_top n G pols p c = (Ok s, c') /\ as_set_span id ix s st = (Panic, st))
  | OOF => st' = st /\ try_mat_top n G pols p c = (OOF, c')
  end.
Proof.
  unfold as_try_cap, bind, on_ctx, on_store, ret. cbn [fst snd].
  destruct (try_mat_top n G pols p c) as [[s|e| |] c1] eqn:E; cbn [fst snd].
  - destruct (as_set_span id ix s st) as [r1 st1] eqn:E1. cbn [fst snd].
    destruct (as_set_span_spec _ _ _ _ _ _ E1) as [(-> & _ & _)|(-> & -> & _)];
      intros H; inversion H; subst; clear H; eauto 6.
  - intros H; inversion H; subst; auto.
  - intros H; inversion H; subst; auto.
  - intros H; inversion H; subst; auto.
Qed.

(** ** Iterators *)

(** What a [for] loop over an iterator sees: the items up to the first [None]. *)
Inductive Yields {A} (next : nat -> option A * nat) : nat -> list A -> Prop :=
| y_end pos pos' : next pos = (None, pos') -> Yields next pos []
| y_item pos a pos' l : next pos = (Some a, pos') -> Yields next pos' l -> Yields next pos (a :: l).

Lemma yields_det {A} (next : nat -> option A * nat) pos l l' :
  Yields next pos l -> Yields next pos l' -> l = l'.
Proof.
  intros H. revert l'. induction H as [pos pos' E|pos a pos' l E H IH]; intros l' H'.
  - inversion H' as [? ? E'|? ? ? ? E']; subst; auto. rewrite E in E'. discriminate.
  - inversion H' as [? ? E'|? ? ? ? E' H'']; subst; rewrite E in E'; inversion E'; subst.
    f_equal. auto.
Qed.

(** An iterator that looks at one element per step: the position after [m] steps is [pos + m]. *)
Lemma yields_steps {A B} (l : list A) (f : A -> option B) (next : nat -> option B * nat) :
  (forall i x, nth_error l i = Some x -> next i = (f x, i + 1)) ->
  (forall i, nth_error l i = None -> fst (next i) = None) ->
  forall i, i <= length l ->
  exists m out, i + m <= length l /\ map f (firstn m (skipn i l)) = map Some out /\
    (i + m = length l \/ exists x, nth_error l (i + m) = Some x /\ f x = None) /\ Yields next i out.
Proof.
  intros S0 E0. intros i Hi. remember (length l - i) as d eqn:Hd. revert i Hi Hd.
  induction d as [|d IH]; intros i Hi Hd.
  - exists 0, []. assert (i = length l) as -> by lia. split; [lia|]. split; [reflexivity|].
    split; [left; lia|]. specialize (E0 (length l)). destruct (next (length l)) as [o q] eqn:E.
    apply (y_end _ _ q). rewrite E. f_equal. apply E0. now apply nth_error_None.
  - destruct (nth_error l i) as [x|] eqn:Ex; [|apply nth_error_None in Ex; lia].
    destruct (f x) as [y|] eqn:Ey.
    + destruct (IH (i + 1)) as (m & out & H1 & H2 & H3 & H4); [lia|lia|].
      exists (S m), (y :: out). split; [lia|]. split; [|split].
      * assert (skipn i l = x :: skipn (i + 1) l) as ->.
        { clear -Ex. rewrite Nat.add_1_r. revert i Ex. induction l as [|a l IH]; intros [|i] Ex; cbn in *; try discriminate.
          - inversion Ex; auto.
          - now apply IH. }
        cbn. rewrite Ey. now f_equal.
      * replace (i + S m) with (i + 1 + m) by lia. exact H3.
      * eapply y_item; [|exact H4]. rewrite (S0 _ _ Ex), Ey. reflexivity.
    + exists 0, []. rewrite Nat.add_0_r. split; [lia|]. split; [reflexivity|]. split; [right; eauto|].
      eapply y_end. rewrite (S0 _ _ Ex), Ey. reflexivity.
Qed.

Lemma yields_all {A B} (l : list A) (f : A -> option B) next out :
  (forall i x, nth_error l i = Some x -> next i = (f x, i + 1)) ->
  (forall i, nth_error l i = None -> fst (next i) = None) ->
  map f l = map Some out -> Yields next 0 out.
Proof.
  intros S0 E0 H. destruct (yields_steps l f next S0 E0 0) as (m & o & H1 & H2 & H3 & H4); [lia|].
  cbn in H1, H2, H3. enough (out = o) as -> by exact H4.
  assert (m = length l) as ->.
  { destruct H3 as [H3|(x & Hx & Fx)]; [exact H3|]. exfalso.
    assert (nth_error (map f l) m = Some None) as A1 by (rewrite nth_error_map_some, Hx; cbn; now f_equal).
    rewrite H, nth_error_map_some in A1. destruct (nth_error out m); discriminate A1. }
  rewrite firstn_all in H2. rewrite H in H2. clear -H2. revert o H2.
  induction out as [|x out IH]; intros [|y o] H; cbn in H; try discriminate; auto.
  inversion H; subst. f_equal. auto.
Qed.

Lemma by_span_step get l i s : nth_error l i = Some s -> by_span_next get l i = (get s, i + 1).
Proof. intros H. unfold by_span_next. now rewrite H. Qed.
Lemma by_span_end get l i : nth_error l i = None -> fst (by_span_next get l i) = None.
Proof. intros H. unfold by_span_next. now rewrite H. Qed.
Lemma span_iter_step l i s : nth_error l i = Some s -> span_iter_next l i = (Some s, i + 1).
Proof.
  intros H. unfold span_iter_next. rewrite H.
  assert (i < length l) as L by (apply nth_error_Some; rewrite H; discriminate). apply Nat.ltb_lt in L. now rewrite L.
Qed.
Lemma span_iter_end l i : nth_error l i = None -> fst (span_iter_next l i) = None.
Proof. intros H. unfold span_iter_next. destruct (i <? length l); auto. Qed.
Lemma by_ospan_step get l i o : nth_error l i = Some o ->
  by_ospan_next get l i = (match o with Some s => get s | None => None end, i + 1).
Proof. intros H. unfold by_ospan_next. rewrite H. now destruct o. Qed.
Lemma by_ospan_end get l i : nth_error l i = None -> fst (by_ospan_next get l i) = None.
Proof. intros H. unfold by_ospan_next. now rewrite H. Qed.
Lemma ospan_iter_step l i o : nth_error l i = Some o -> ospan_iter_next l i = (o, i + 1).
Proof.
  intros H. unfold ospan_iter_next. rewrite H.
  assert (i < length l) as L by (apply nth_error_Some; rewrite H; discriminate). apply Nat.ltb_lt in L. now rewrite L.
Qed.
Lemma ospan_iter_end l i : nth_error l i = None -> fst (ospan_iter_next l i) = None.
Proof. intros H. unfold ospan_iter_next. rewrite H. now destruct (i <? length l). Qed.
Lemma bytes_step l i x : nth_error l i = Some x -> bytes_next l i = (Some (i, x), i + 1).
Proof. intros H. unfold bytes_next. now rewrite H. Qed.

(** The positions an iterator can be in: after any number of calls of [next]. *)
Inductive Reached {A} (next : nat -> option A * nat) : nat -> nat -> Prop :=
| re_start : Reached next 0 0
| re_next m pos : Reached next m pos -> Reached next (S m) (snd (next pos)).

Lemma reached_by_span get l m pos : Reached (by_span_next get l) m pos -> pos = m.
Proof. intros H. induction H as [|m pos H IH]; auto. subst. cbn. lia. Qed.
Lemma reached_by_ospan get l m pos : Reached (by_ospan_next get l) m pos -> pos = m.
Proof. intros H. induction H as [|m pos H IH]; auto. subst. cbn. lia. Qed.
Lemma reached_bytes l m pos : Reached (bytes_next l) m pos -> pos = Nat.min m (length l).
Proof.
  intros H. induction H as [|m pos H IH]; [reflexivity|]. subst. unfold bytes_next.
  destruct (nth_error l (Nat.min m (length l))) eqn:E; cbn [snd].
  - assert (Nat.min m (length l) < length l) by (apply nth_error_Some; rewrite E; discriminate). lia.
  - apply nth_error_None in E. lia.
Qed.

Lemma indices_bytes l : forall i j, nth_error (indices KBytes i l) j =
  option_map (fun x => (i + j, x)) (nth_error l j).
Proof.
  induction l as [|x l IH]; intros i [|j]; cbn; auto.
  - now rewrite Nat.add_0_r.
  - rewrite IH. replace (i + 1 + j) with (i + S j) by lia. reflexivity.
Qed.

(** ** Slicing *)

Lemma get_by_span_sp k w b j : b <= j -> j <= length w ->
  get_by_span k w (sp k w b j) = Some (firstn (j - b) (skipn b w)).
Proof.
  intros Hb Hj. unfold get_by_span, sp. cbn [sbeg slen].
  rewrite drop_at_bo by lia.
  replace (bo k w j - bo k w b) with (bo k (skipn b w) (j - b)).
  - apply take_at_bo. rewrite skipn_length. lia.
  - replace j with (b + (j - b)) at 2 by lia. rewrite bo_add. lia.
Qed.

Lemma ctx_get_by_span_eq c s : ctx_get_by_span c s = get_by_span (c_kind c) (c_dat c) s.
Proof.
  unfold ctx_get_by_span, span_orig, orig_sub, get_by_span.
  destruct (drop_at _ _ _) as [l|]; auto. now destruct (take_at _ _ _).
Qed.

Lemma get_by_span_some k w s t : get_by_span k w s = Some t ->
  exists b j, b <= j /\ j <= length w /\ s = sp k w b j /\ t = firstn (j - b) (skipn b w).
Proof.
  unfold get_by_span. destruct (drop_at k w (sbeg s)) as [l|] eqn:E; [|discriminate].
  intros H. apply drop_at_some in E. destruct E as (b & Hb & Eb & ->).
  apply take_at_some in H. destruct H as (m & Hm & Em & ->). rewrite skipn_length in Hm.
  exists b, (b + m). split; [lia|]. split; [lia|]. split.
  - destruct s as [sb sl]. unfold sp. cbn in *. rewrite bo_add. f_equal; lia.
  - f_equal. lia.
Qed.

(** In bytes. *)
Lemma firstn_raw k w i : i <= length w -> firstn (bo k w i) (raw k w) = raw k (firstn i w).
Proof.
  intros Hi. rewrite <- (firstn_skipn i w) at 2. rewrite raw_app.
  unfold bo. rewrite <- raw_length. rewrite firstn_app, firstn_all, Nat.sub_diag. cbn. apply app_nil_r.
Qed.
Lemma skipn_raw k w i : i <= length w -> skipn (bo k w i) (raw k w) = raw k (skipn i w).
Proof.
  intros Hi. rewrite <- (firstn_skipn i w) at 2. rewrite raw_app.
  unfold bo. rewrite <- raw_length. rewrite skipn_app, skipn_all, Nat.sub_diag. reflexivity.
Qed.
