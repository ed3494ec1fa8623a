(** C78: searching for a unit or a literal is what the standard library's string searches do. *)

From Coq Require Import List Arith NArith Bool Lia.
From Verif Require Import Base Text Context Neu Syntax Regex Ctor Api TextProofs Spec Core Obs ByteInv
  Inside CtorSpec CtorLaws FindLaws FindItems UnitProps Samples Search.
Import ListNotations.

(** [position], [split_on], [find_text] and [match_indices] (Search.v) are [Iterator::position],
    [str::split], [str::find] and [str::match_indices] on lists of items.  The text is searched from
    item [i] on; [tlen k s] is the number of bytes of [s]. *)

(** bench/find.rs: [find(u.once())] returns the span of the first item that [u] accepts, and the
    cursor is behind it. *)
Theorem C78_find_unit : forall k u w i n x, i <= length w ->
  position (is_match u) (skipn i w) = Some n -> nth_error w (i + n) = Some x ->
  Finds extract_span [] [] (POnce u CEmpty) (cx k w i) tt
    (Some (VSpan (Span (tlen k (firstn (i + n) w)) (tlen k [x])))) (cx k w (i + n + 1)) tt.
Proof.
  intros k u w i n x Hi E X. rewrite <- first_once in E.
  destruct (unit_find k (POnce u CEmpty) w _ (once_hit k u w) (once_miss k u w)
    (lk_unit (POnce u CEmpty) CEmpty eq_refl) eq_refl i n Hi E) as (m & H1 & H2 & H3 & F).
  unfold hit_once in H1. destruct (skipn (i + n) w) as [|y r] eqn:S1; [discriminate H1|].
  destruct (is_match u y); [|discriminate H1]. injection H1 as <-.
  rewrite <- nth_skipn0, S1 in X. injection X as ->.
  rewrite (sp_slice k w (i + n) 1 [x]) in F; [exact F|now rewrite S1|reflexivity].
Qed.
(** The item exists and [position] is the first place: *)
Theorem C78_position : forall f s, match position f s with
  | Some n => (exists x, nth_error s n = Some x /\ f x = true) /\
              forall m y, m < n -> nth_error s m = Some y -> f y = false
  | None => forall y, In y s -> f y = false
  end.
Proof.
  intros f s. induction s as [|x s IH]; [easy|]. cbn [position]. destruct (f x) eqn:F.
  - split; [now exists x|]. lia.
  - destruct (position f s) as [n|]; cbn [option_map].
    + destruct IH as [IH1 IH2]. split; [exact IH1|]. intros [|m] y M Y; [now injection Y as <-|].
      apply (IH2 m); [lia|exact Y].
    + intros y [<-|I]; auto.
Qed.

(** No item is accepted: [None], and the cursor is at the end. *)
Theorem C78_find_unit_none : forall k u w i, i <= length w ->
  position (is_match u) (skipn i w) = None ->
  Finds extract_span [] [] (POnce u CEmpty) (cx k w i) tt None (cx k w (length w)) tt.
Proof.
  intros k u w i Hi E. rewrite <- first_once in E.
  exact (unit_find_none k (POnce u CEmpty) w _ (once_miss k u w) (lk_unit (POnce u CEmpty) CEmpty eq_refl) eq_refl i Hi E).
Qed.

(** [find(u.many1())]: the first maximal run of accepted items. *)
Theorem C78_find_run : forall k u w i n, i <= length w ->
  position (is_match u) (skipn i w) = Some n ->
  exists m, 0 < m /\ MaxRun (is_match u) w (i + n) None m /\
    Finds extract_span [] [] (PMany1 u CEmpty) (cx k w i) tt
      (Some (VSpan (sp k w (i + n) (i + n + m)))) (cx k w (i + n + m)) tt.
Proof.
  intros k u w i n Hi E. rewrite <- first_run in E.
  destruct (unit_find k (PMany1 u CEmpty) w _ (run_hit k u w) (run_miss k u w)
    (lk_unit (PMany1 u CEmpty) CEmpty eq_refl) eq_refl i n Hi E) as (m & H1 & H2 & H3 & F).
  exists m. split; [exact H2|]. split; [|exact F].
  pose proof (run_len_max (is_match u) w (i + n)) as M. unfold hit_run in H1.
  destruct (run_len (is_match u) (skipn (i + n) w)) as [|m']; [discriminate H1|]. now injection H1 as <-.
Qed.

(** [find_all(u.once())] yields the accepted items, one by one. *)
Theorem C78_all_units : forall k u w i, i <= length w ->
  FindsAll extract_text [] [] (POnce u CEmpty) (cx k w i) tt
    (map (fun x => VText [x]) (filter (is_match u) (skipn i w))) (cx k w (length w)) tt.
Proof.
  intros k u w i Hi.
  pose proof (unit_find_all k (POnce u CEmpty) w _ (once_hit k u w) (once_miss k u w)
    (lk_unit (POnce u CEmpty) CEmpty eq_refl) eq_refl i Hi) as F.
  now rewrite once_texts, map_map in F.
Qed.

(** [find_all(u.many1())] yields the non-empty pieces that remain when the text is split at the items
    that [u] does not accept: with [u] alphabetic, the words of a text. *)
Theorem C78_all_runs : forall k u w i, i <= length w ->
  FindsAll extract_text [] [] (PMany1 u CEmpty) (cx k w i) tt
    (map VText (filter nonempty (split_on (fun x => negb (is_match u x)) (skipn i w))))
    (cx k w (length w)) tt.
Proof.
  intros k u w i Hi.
  pose proof (unit_find_all k (PMany1 u CEmpty) w _ (run_hit k u w) (run_miss k u w)
    (lk_unit (PMany1 u CEmpty) CEmpty eq_refl) eq_refl i Hi) as F.
  now rewrite (proj1 (run_texts_both _ _)) in F.
Qed.

(** [find(l)] for a string [l] is [str::find(l)]. *)
Theorem C78_find_text : forall k l w i n, l <> [] -> i <= length w ->
  find_text l (skipn i w) = Some n ->
  Finds extract_span [] [] (PLit l) (cx k w i) tt
    (Some (VSpan (Span (tlen k (firstn (i + n) w)) (tlen k l)))) (cx k w (i + n + length l)) tt.
Proof.
  intros k l w i n N Hi E. rewrite <- first_lit in E.
  destruct (unit_find k (PLit l) w _ (fun i n => lit_hit k l w i n N) (lit_miss k l w)
    (lk_lit l) eq_refl i n Hi E) as (m & H1 & H2 & H3 & F).
  unfold hit_lit in H1. destruct (starts_with l (skipn (i + n) w)) eqn:S1; [|discriminate H1].
  injection H1 as <-. rewrite (sp_slice k w (i + n) (length l) l) in F; [exact F| |reflexivity].
  now apply starts_with_firstn.
Qed.
Theorem C78_find_text_none : forall k l w i, i <= length w -> find_text l (skipn i w) = None ->
  Finds extract_span [] [] (PLit l) (cx k w i) tt None (cx k w (length w)) tt.
Proof.
  intros k l w i Hi E. rewrite <- first_lit in E.
  exact (unit_find_none k (PLit l) w _ (lit_miss k l w) (lk_lit l) eq_refl i Hi E).
Qed.
(** The first occurrence, or none anywhere: *)
Theorem C78_occurrence : forall l s, l <> [] -> match find_text l s with
  | Some n => (exists t, skipn n s = l ++ t) /\ forall m t, m < n -> skipn m s <> l ++ t
  | None => forall m t, skipn m s <> l ++ t
  end.
Proof.
  intros l s N.
  assert (SW : forall s, starts_with l s = true <-> exists t, s = l ++ t).
  { intros s0. rewrite starts_with_firstn. split.
    - intros E. exists (skipn (length l) s0). rewrite <- E at 1. now rewrite firstn_skipn.
    - intros (t & ->). now rewrite firstn_app, Nat.sub_diag, firstn_all, firstn_O, app_nil_r. }
  induction s as [|x s IH]; cbn [find_text].
  - intros m t E. rewrite skipn_nil in E. destruct l; [easy|discriminate E].
  - destruct (starts_with l (x :: s)) eqn:F.
    + split; [now apply SW|lia].
    + assert (F0 : forall t, x :: s <> l ++ t).
      { intros t E. assert (starts_with l (x :: s) = true) by (apply SW; now exists t). congruence. }
      destruct (find_text l s) as [n|]; cbn [option_map].
      * destruct IH as [IH1 IH2]. split; [exact IH1|]. intros [|m] t M; [apply F0|]. apply IH2. lia.
      * intros [|m] t; [apply F0|apply IH].
Qed.

(** [find_all(l)] is [str::match_indices(l)]. *)
Theorem C78_match_indices : forall k l w i, l <> [] -> i <= length w ->
  FindsAll extract_span [] [] (PLit l) (cx k w i) tt
    (map (fun a => VSpan (Span (tlen k (firstn a w)) (tlen k l))) (match_indices l 0 i (skipn i w)))
    (cx k w (length w)) tt.
Proof.
  intros k l w i N Hi.
  pose proof (unit_find_all_spans k (PLit l) w _ (fun i n => lit_hit k l w i n N) (lit_miss k l w)
    (lk_lit l) eq_refl i Hi) as F.
  rewrite (lit_indices l N), map_map in F. cbn [fst snd] in F.
  rewrite (map_ext_in _ (fun a => VSpan (Span (tlen k (firstn a w)) (tlen k l)))) in F; [exact F|].
  intros a I. apply (match_indices_at l w _ _ _ _ eq_refl) in I. f_equal.
  apply sp_slice; [now apply starts_with_firstn|reflexivity].
Qed.

(** One difference: matches of length zero are never reported, so the empty string is found nowhere,
    while [str::find("")] is [Some(0)]. *)
Theorem C78_empty_text : forall k w i, i <= length w ->
  Finds extract_span [] [] (PLit []) (cx k w i) tt None (cx k w (length w)) tt.
Proof.
  intros k w i Hi.
  apply (unit_find_none k (PLit []) w (fun _ => None)); [|apply lk_lit|reflexivity|exact Hi|].
  - intros j Hj _. right. apply (lit_ok k [] (core_nil k)); [lia|]. cbn [length firstn]. split; [reflexivity|]. split; [lia|reflexivity].
  - generalize (skipn i w) as s. intros s. induction s as [|x s IH]; [reflexivity|]. cbn. now rewrite IH.
Qed.

(** In "é1€23" the digits are found at byte 2; "1" and "23" are its numbers; "aa" occurs twice in
    "éaaaaa". *)
Example C78_case :
  position (is_match (NAsciiDigit)) [233; 49; 8364; 50; 51]%N = Some 1 /\
  tlen KStr (firstn 1 [233; 49; 8364; 50; 51]%N) = 2 /\
  filter nonempty (split_on (fun x => negb (is_match (NAsciiDigit) x)) [233; 49; 8364; 50; 51]%N)
    = [[49]; [50; 51]]%N /\
  match_indices [97; 97]%N 0 0 [233; 97; 97; 97; 97; 97]%N = [1; 3].
Proof. repeat split. Qed.

Print Assumptions C78_find_unit.
Print Assumptions C78_position.
Print Assumptions C78_find_unit_none.
Print Assumptions C78_find_run.
Print Assumptions C78_all_units.
Print Assumptions C78_all_runs.
Print Assumptions C78_find_text.
Print Assumptions C78_find_text_none.
Print Assumptions C78_occurrence.
Print Assumptions C78_match_indices.
Print Assumptions C78_empty_text.
