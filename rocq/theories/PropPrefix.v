(** C40: the stateful prefix unit.  C41: its synchronized version under concurrency. *)

From Coq Require Import List Arith NArith Bool Lia.
From Verif Require Import Base Text Context Neu Syntax Regex TextProofs Spec Obs Units PrefixUnit.
Import ListNotations.

(** * C40: specification *)

(** The test that item number [m] (counted from 0) has to pass: the first [n] items are tested with
    the prefix [p], the others with the unit [u]. *)
Definition wanted (p u : item -> bool) (n m : nat) : item -> bool := if m <? n then p else u.

(** [len] items starting with item [i] of [w] pass, and the next item, if there is one, does not. *)
Definition PrefixRun (p u : item -> bool) (n : nat) (w : text) (i len : nat) : Prop :=
  (forall m, m < len -> exists x, nth_error w (i + m) = Some x /\ wanted p u n m x = true) /\
  (forall x, nth_error w (i + len) = Some x -> wanted p u n len x = false).

(** No condition attached. *)
Definition no_cond : check_t := fun _ _ => Ok true.

(** What is left in the cells after a run of [len] items: everything was tested, or the text ended
    first, or an item failed its prefix test. *)
Definition after_run (n : nat) (w : text) (i len : nat) : pstate :=
  if n <=? len then PS 0 true
  else match nth_error w (i + len) with
       | None => PS (n - len) true
       | Some _ => PS (n - len - 1) false
       end.

(** * Scanning with a stateful unit *)

Fixpoint runlen_st {S} (m : sunit S) (l : list item) (s : S) : nat * S :=
  match l with
  | [] => (0, s)
  | x :: l => let (b, s) := m x s in
              if b : bool then let (n, s) := runlen_st m l s in (Datatypes.S n, s) else (0, s)
  end.

Lemma scan_st_run {S} (m : sunit S) beg l s :
  scan_st m (fun _ => Ok true) beg l s =
  let (n, s') := runlen_st m (map snd l) s in
  (Ok (first_off n beg l, next_off (skipn n l)), s').
Proof.
  revert beg s. induction l as [|x l IH]; intros beg s; [reflexivity|].
  cbn [scan_st map runlen_st]. destruct (m (snd x) s) as [b s1].
  destruct b; cbn [negb]; [|reflexivity]. rewrite IH.
  destruct (runlen_st m (map snd l) s1) as [n s2]. f_equal. f_equal. f_equal.
  destruct beg, n; reflexivity.
Qed.

Lemma runlen_st_le {S} (m : sunit S) l s : fst (runlen_st m l s) <= length l.
Proof.
  revert s. induction l as [|x l IH]; intros s; [simpl; lia|]. cbn [runlen_st].
  destruct (m x s) as [b s1]. destruct b; [|simpl; lia].
  specialize (IH s1). destruct (runlen_st m l s1). simpl in *. lia.
Qed.

Lemma indices_snd k o l : map snd (indices k o l) = l.
Proof. revert o. induction l as [|x l IH]; intros o; simpl; [reflexivity|]. now rewrite IH. Qed.

Lemma items_snd k w i : map snd (items k w i 0) = skipn i w.
Proof. unfold items. simpl. apply indices_snd. Qed.

Section St.
  Context {S : Type}.
  Variable k : kind.
  Variable m : sunit S.

  Lemma many1_st_nf w i s : i <= length w ->
    many1_st m no_cond (cx k w i, s) =
    let (n, s') := runlen_st m (skipn i w) s in
    if n =? 0 then (Err EMany1, (cx k w i, s'))
    else (Ok (sp k w i (i + n)), (cx k w (i + n), s')).
  Proof.
    intros Hi. unfold many1_st, bind, onc, reads. cbn [fst snd].
    rewrite peek_cx by auto. cbn [fst snd]. rewrite remaining_cx.
    cbn [fst snd]. unfold no_cond. rewrite scan_st_run, items_snd.
    pose proof (runlen_st_le m (skipn i w) s) as Hn. rewrite skipn_length in Hn.
    destruct (runlen_st m (skipn i w) s) as [n s']. cbn [fst] in Hn.
    assert (B : i + n <= length w) by lia.
    pose proof (run_len k w i n B) as L. cbn [fst snd].
    destruct n as [|n]; [reflexivity|].
    rewrite first_off_some in * by auto. unfold lift. rewrite L. cbn [fst snd].
    rewrite new_span_cx by lia. reflexivity.
  Qed.

  Lemma many0_st_nf w i s : i <= length w ->
    many0_st m no_cond (cx k w i, s) =
    let (n, s') := runlen_st m (skipn i w) s in
    (Ok (sp k w i (i + n)), (cx k w (i + n), s')).
  Proof.
    intros Hi. unfold many0_st, bind, onc, reads, catch, offset. cbn [fst snd].
    change (c_off (cx k w i)) with (bo k w i). rewrite remaining_cx. cbn [fst snd].
    rewrite peek_cx by auto. cbn [fst snd]. unfold no_cond. rewrite scan_st_run, items_snd.
    pose proof (runlen_st_le m (skipn i w) s) as Hn. rewrite skipn_length in Hn.
    destruct (runlen_st m (skipn i w) s) as [n s']. cbn [fst] in Hn.
    assert (B : i + n <= length w) by lia.
    pose proof (run_len k w i n B) as L. cbn [fst snd].
    destruct n as [|n].
    - cbn. unfold ret. rewrite sp_empty, Nat.add_0_r. reflexivity.
    - rewrite first_off_some in * by auto. unfold lift. rewrite L. cbn [fst snd].
      rewrite new_span_cx by lia. reflexivity.
  Qed.
End St.

(** Without state the loops are those of Regex.v. *)
Lemma scan_pure {S} (u : item -> bool) chk beg l (s : S) :
  scan_st (pure_unit u) chk beg l s = (scan u chk beg l, s).
Proof.
  revert beg. induction l as [|x l IH]; intros beg; [reflexivity|]. cbn [scan_st scan pure_unit].
  destruct (u (snd x)); cbn [negb]; [|reflexivity]. destruct (chk x) as [[|]| | |]; auto.
Qed.

(** * C40: histories *)

Lemma feed_false p u c l :
  feed (prefix_match p u) (PS c false) l = (repeat false (length l), PS c false).
Proof. induction l as [|x l IH]; [reflexivity|]. cbn. now rewrite IH. Qed.

Lemma feed_zero p u l :
  feed (prefix_match p u) (PS 0 true) l = (map u l, PS 0 true).
Proof. induction l as [|x l IH]; [reflexivity|]. cbn. now rewrite IH, andb_true_r. Qed.

Lemma feed_length {S} (m : sunit S) s l : length (fst (feed m s l)) = length l.
Proof.
  revert s. induction l as [|x l IH]; intros s; [reflexivity|]. cbn [feed].
  destruct (m x s) as [b s1]. specialize (IH s1). destruct (feed m s1 l). simpl in *. lia.
Qed.

Lemma nth_repeat_false l i b : nth_error (repeat false l) i = Some b -> b = false.
Proof. intros H. apply nth_error_In in H. now apply repeat_spec in H. Qed.

(** The answer to the [i]-th item a fresh [prefix_cnt(p, n, u)] is asked about: it is accepted iff
    all of the first [n] items up to it pass [p] and, if it comes after them, it passes [u]. *)
Theorem C40_history : forall p u n l i x,
  nth_error l i = Some x ->
  nth_error (fst (feed (prefix_match p u) (prefix_new n) l)) i = Some true <->
  (forall m y, m < n -> m <= i -> nth_error l m = Some y -> p y = true) /\
  (n <= i -> u x = true).
Proof.
  intros p u n. induction n as [|n IH]; intros l i x Hx.
  - unfold prefix_new. rewrite feed_zero. cbn [fst]. rewrite nth_error_map, Hx. cbn.
    split; [intros E; injection E as E|].
    + split; [intros; lia|]. now intros _.
    + intros [_ H]. rewrite H by lia. reflexivity.
  - destruct l as [|y l]; [destruct i; discriminate|].
    unfold prefix_new. cbn [feed prefix_match p_value p_count Nat.eqb].
    rewrite andb_true_r. replace (S n - 1) with n by lia.
    destruct (p y) eqn:Ey.
    + destruct i as [|i].
      * cbn in Hx. injection Hx as ->.
        destruct (feed _ _ l) as [bs s2]. cbn [fst nth_error].
        split; [intros _|auto]. split; [|lia].
        intros m z _ Hm Hz. replace m with 0 in Hz by lia. cbn in Hz. congruence.
      * cbn in Hx. specialize (IH l i x Hx). unfold prefix_new in IH.
        destruct (feed _ _ l) as [bs s2]. cbn [fst nth_error] in *. rewrite IH. clear IH.
        split; intros [H1 H2].
        -- split; [|intros; apply H2; lia]. intros [|m] z Hm Hi Hz.
           ++ cbn in Hz. congruence.
           ++ apply (H1 m z); try lia. exact Hz.
        -- split; [|intros; apply H2; lia]. intros m z Hm Hi Hz.
           apply (H1 (S m) z); try lia. exact Hz.
    + rewrite feed_false. cbn [fst]. split.
      * intros H. change (false :: repeat false (length l)) with (repeat false (S (length l))) in H.
        apply nth_repeat_false in H. discriminate.
      * intros [H _]. specialize (H 0 y ltac:(lia) ltac:(lia) eq_refl). congruence.
Qed.

(** [Digit after one letter 'a']: the answers to "a1b2". *)
Example C40_history_ex :
  fst (feed (prefix_match (N.eqb 97) (fun x => (48 <=? x)%N && (x <=? 57)%N)) (prefix_new 1)
         [97; 49; 98; 50]%N) = [true; true; false; true].
Proof. reflexivity. Qed.

(** A history is accepted throughout iff its first [n] items pass [p] and the others pass [u]. *)
Theorem C40_accepts : forall p u n l,
  (forall b, In b (fst (feed (prefix_match p u) (prefix_new n) l)) -> b = true) <->
  (forall x, In x (firstn n l) -> p x = true) /\ (forall x, In x (skipn n l) -> u x = true).
Proof.
  intros p u n. induction n as [|n IH]; intros l.
  - unfold prefix_new. rewrite feed_zero. cbn [fst firstn skipn]. split.
    + intros H. split; [intros x []|]. intros x Hx. apply H. now apply in_map.
    + intros [_ H] b Hb. apply in_map_iff in Hb. destruct Hb as (x & <- & Hx). auto.
  - destruct l as [|y l]; [cbn; split; [split|]; intros; intuition|].
    unfold prefix_new. cbn [feed prefix_match p_value p_count Nat.eqb firstn skipn].
    rewrite andb_true_r. replace (S n - 1) with n by lia.
    destruct (p y) eqn:Ey.
    + specialize (IH l). unfold prefix_new in IH.
      destruct (feed _ _ l) as [bs s2]. cbn [fst] in *. split.
      * intros H. destruct (proj1 IH) as [H1 H2]; [intros; apply H; now right|].
        split; [|exact H2]. intros x [<-|Hx]; auto.
      * intros [H1 H2] b [<-|Hb]; [reflexivity|]. apply (proj2 IH); [|exact Hb].
        split; [|exact H2]. intros x Hx. apply H1. now right.
    + rewrite feed_false. cbn [fst]. split.
      * intros H. specialize (H false (or_introl eq_refl)). discriminate.
      * intros [H _]. specialize (H y (or_introl eq_refl)). congruence.
Qed.

Example C40_accepts_ex :
  fst (feed (prefix_match (N.eqb 97) (N.eqb 98)) (prefix_new 2) [97; 97; 98; 98; 98]%N)
  = [true; true; true; true; true].
Proof. reflexivity. Qed.

(** Once an item fails its prefix test, everything is rejected for ever. *)
Theorem C40_poisoned : forall p u n l i j x,
  i < n -> nth_error l i = Some x -> p x = false -> i <= j -> j < length l ->
  nth_error (fst (feed (prefix_match p u) (prefix_new n) l)) j = Some false.
Proof.
  intros p u n l i j x Hi Hx Hp Hj Hl.
  destruct (nth_error l j) as [y|] eqn:Ey; [|apply nth_error_None in Ey; lia].
  pose proof (C40_history p u n l j y Ey) as H.
  destruct (nth_error (fst (feed (prefix_match p u) (prefix_new n) l)) j) as [[|]|] eqn:E.
  - destruct (proj1 H eq_refl) as [H1 _]. rewrite (H1 i x) in Hp by (auto; lia). discriminate.
  - reflexivity.
  - apply nth_error_None in E. rewrite feed_length in E. lia.
Qed.

Example C40_poisoned_ex :
  fst (feed (prefix_match (N.eqb 97) (N.eqb 98)) (prefix_new 2) [97; 98; 97; 98]%N)
  = [true; false; false; false].
Proof. reflexivity. Qed.

(** State carries over: a history is answered as its two halves one after the other. *)
Theorem C40_carries : forall p u s l1 l2,
  feed (prefix_match p u) s (l1 ++ l2) =
  (fst (feed (prefix_match p u) s l1)
     ++ fst (feed (prefix_match p u) (snd (feed (prefix_match p u) s l1)) l2),
   snd (feed (prefix_match p u) (snd (feed (prefix_match p u) s l1)) l2)).
Proof.
  intros p u s l1 l2. revert s. induction l1 as [|x l1 IH]; intros s.
  - cbn. now destruct (feed _ s l2).
  - cbn [app feed]. destruct (prefix_match p u x s) as [b s1]. rewrite IH.
    destruct (feed _ s1 l1) as [bs s2]. reflexivity.
Qed.

(** [Prefix::default()] accepts nothing, whatever it is asked. *)
Theorem C40_default_rejects : forall p u l b,
  In b (fst (feed (prefix_match p u) prefix_default l)) -> b = false.
Proof.
  intros p u l b H. unfold prefix_default in H. rewrite feed_false in H.
  cbn in H. now apply repeat_spec in H.
Qed.

Example C40_default_ex :
  fst (feed (prefix_match (fun _ => true) (fun _ => true)) prefix_default [97; 98]%N) = [false; false].
Proof. reflexivity. Qed.

(** A clone continues where the original stands; it does not start afresh. *)
Theorem C40_clone_continues : forall p u s l l',
  let s' := snd (feed (prefix_match p u) s l) in
  feed (prefix_match p u) (prefix_clone s') l' = feed (prefix_match p u) s' l'.
Proof. intros. unfold prefix_clone. subst s'. now destruct (snd _). Qed.

Theorem C40_clone_fresh_refuted : exists p u n l l',
  let s' := snd (feed (prefix_match p u) (prefix_new n) l) in
  feed (prefix_match p u) (prefix_clone s') l' <> feed (prefix_match p u) (prefix_new n) l'.
Proof.
  exists (N.eqb 97), (N.eqb 98), 1, [97%N], [98%N]. cbn. discriminate.
Qed.

(** * C40: matching *)

Lemma run_false p u c l : runlen_st (prefix_match p u) l (PS c false) = (0, PS c false).
Proof. destruct l; reflexivity. Qed.

Lemma prefix_run_shift p u n w i x len :
  nth_error w i = Some x -> wanted p u n 0 x = true ->
  PrefixRun p u (n - 1) w (S i) len -> PrefixRun p u n w i (S len).
Proof.
  intros Hx Hw [H1 H2].
  assert (E : forall m, wanted p u (n - 1) m = wanted p u n (S m)).
  { intros m. unfold wanted. destruct (Nat.ltb_spec m (n - 1)), (Nat.ltb_spec (S m) n);
      try reflexivity; lia. }
  split.
  - intros [|m] Hm.
    + rewrite Nat.add_0_r. eauto.
    + destruct (H1 m) as (y & Hy & W); [lia|]. exists y. rewrite E in W.
      replace (i + S m) with (S i + m) by lia. auto.
  - intros y Hy. rewrite <- E. apply H2. now replace (S i + len) with (i + S len) by lia.
Qed.

Lemma prefix_runlen p u n w i :
  exists len, PrefixRun p u n w i len /\
              runlen_st (prefix_match p u) (skipn i w) (PS n true) = (len, after_run n w i len).
Proof.
  remember (length w - i) as d eqn:Ed. revert i n Ed.
  induction d as [|d IH]; intros i n Ed.
  - exists 0. split.
    + split; [intros; lia|]. intros x Hx. rewrite Nat.add_0_r in Hx.
      assert (i < length w) by (apply nth_error_Some; congruence). lia.
    + rewrite skipn_all2 by lia. cbn [runlen_st]. unfold after_run. rewrite Nat.add_0_r.
      replace (nth_error w i) with (@None item) by (symmetry; apply nth_error_None; lia).
      rewrite Nat.sub_0_r. destruct n; reflexivity.
  - destruct (nth_error w i) as [x|] eqn:Ex.
    2:{ apply nth_error_None in Ex. lia. }
    change (@skipn N i w) with (@skipn item i w).
    rewrite (skipn_cons w i), Ex. cbn [runlen_st]. unfold prefix_match at 1. cbn [p_value p_count].
    rewrite !andb_true_r.
    destruct (IH (S i) (n - 1) ltac:(lia)) as (len & R & E).
    destruct n as [|n]; cbn [Nat.eqb].
    + cbn [Nat.sub] in R, E. destruct (u x) eqn:Eu.
      * exists (S len). split.
        -- apply (prefix_run_shift p u 0 w i x); auto.
        -- change (skipn (S i) w) with (skipn (S i) w) in E. rewrite E. reflexivity.
      * exists 0. split; [|reflexivity]. split; [intros; lia|]. intros y Hy.
        rewrite Nat.add_0_r, Ex in Hy. injection Hy as <-. exact Eu.
    + replace (S n - 1) with n in * by lia. destruct (p x) eqn:Ep.
      * exists (S len). split.
        -- apply (prefix_run_shift p u (S n) w i x); auto. now replace (S n - 1) with n by lia.
        -- rewrite E. f_equal. unfold after_run. cbn [Nat.leb].
           replace (i + S len) with (S i + len) by lia. reflexivity.
      * exists 0. split.
        -- split; [intros; lia|]. intros y Hy. rewrite Nat.add_0_r, Ex in Hy.
           injection Hy as <-. exact Ep.
        -- unfold after_run. cbn [Nat.leb]. rewrite Nat.add_0_r, Ex.
           f_equal. f_equal. lia.
Qed.

Lemma prefix_run_det p u n w i a b : PrefixRun p u n w i a -> PrefixRun p u n w i b -> a = b.
Proof.
  intros [A1 A2] [B1 B2]. destruct (Nat.lt_trichotomy a b) as [H|[H|H]]; auto.
  - destruct (B1 a H) as (x & Hx & W). rewrite (A2 x Hx) in W. discriminate.
  - destruct (A1 b H) as (x & Hx & W). rewrite (B2 x Hx) in W. discriminate.
Qed.

(** [prefix_cnt(p, n, u).many1()] on a unit with [n] prefix tests to go takes exactly the longest
    run whose first [n] items pass [p] and whose other items pass [u]; it fails iff that run is
    empty; and it leaves the unit with the tests that remain, or dead if a prefix test failed. *)
Theorem C40_many1 : forall k p u n w i, i <= length w ->
  exists len, PrefixRun p u n w i len /\
  many1_st (prefix_match p u) no_cond (cx k w i, PS n true) =
    (if len =? 0 then (Err EMany1, (cx k w i, after_run n w i len))
     else (Ok (sp k w i (i + len)), (cx k w (i + len), after_run n w i len))).
Proof.
  intros k p u n w i Hi. destruct (prefix_runlen p u n w i) as (len & R & E).
  exists len. split; [exact R|]. rewrite many1_st_nf by auto.
  change (skipn i w) with (skipn i w) in E. rewrite E. reflexivity.
Qed.

(** The same for [.many0()], which never fails. *)
Theorem C40_many0 : forall k p u n w i, i <= length w ->
  exists len, PrefixRun p u n w i len /\
  many0_st (prefix_match p u) no_cond (cx k w i, PS n true) =
    (Ok (sp k w i (i + len)), (cx k w (i + len), after_run n w i len)).
Proof.
  intros k p u n w i Hi. destruct (prefix_runlen p u n w i) as (len & R & E).
  exists len. split; [exact R|]. rewrite many0_st_nf by auto.
  rewrite E. reflexivity.
Qed.

(** The run is unique, so the two theorems above determine the result. *)
Theorem C40_run_unique : forall p u n w i a b,
  PrefixRun p u n w i a -> PrefixRun p u n w i b -> a = b.
Proof. exact prefix_run_det. Qed.

(** "aa1" with two 'a's required, then "7": the second match needs no prefix. *)
Example C40_many1_ex :
  let d := fun x => (48 <=? x)%N && (x <=? 57)%N in
  many1_st (prefix_match (N.eqb 97) d) no_cond (cx KStr [97; 97; 49; 98]%N 0, prefix_new 2)
  = (Ok (Span 0 3), (cx KStr [97; 97; 49; 98]%N 3, PS 0 true)).
Proof. reflexivity. Qed.

(** A match on a dead unit fails wherever it is tried and the unit stays dead. *)
Theorem C40_dead : forall k p u c w i, i <= length w ->
  many1_st (prefix_match p u) no_cond (cx k w i, PS c false)
  = (Err EMany1, (cx k w i, PS c false)) /\
  many0_st (prefix_match p u) no_cond (cx k w i, PS c false)
  = (Ok (sp k w i i), (cx k w i, PS c false)).
Proof.
  intros k p u c w i Hi. rewrite many1_st_nf, many0_st_nf by auto. rewrite run_false.
  cbn [Nat.eqb]. rewrite Nat.add_0_r. auto.
Qed.

(** [.once()]: one test, with [p] while prefix tests remain and with [u] afterwards. *)
Theorem C40_once : forall k p u n w i, i <= length w ->
  once_st (prefix_match p u) no_cond (cx k w i, PS n true) =
  match nth_error w i with
  | Some x =>
      if wanted p u n 0 x then (Ok (sp k w i (S i)), (cx k w (S i), PS (n - 1) true))
      else (Err EOnce, (cx k w i, PS (n - 1) (n =? 0)))
  | None => (Err EOnce, (cx k w i, PS n true))
  end.
Proof.
  intros k p u n w i Hi. unfold once_st, bind, onc, reads, ask. cbn [fst snd].
  rewrite peek_cx by auto. cbn [fst snd]. rewrite remaining_cx. cbn [fst snd].
  destruct (items k w i 0) as [|x l] eqn:E.
  - pose proof (items_snd k w i) as Hs. rewrite E in Hs. cbn in Hs.
    assert (length w <= i).
    { assert (length (skipn i w) = 0) by (rewrite <- Hs; reflexivity).
      rewrite skipn_length in *. lia. }
    replace (nth_error w i) with (@None N) by (symmetry; now apply nth_error_None).
    reflexivity.
  - destruct (one_len k w i x l Hi E) as (Hn & L).
    pose proof (items_snd k w i) as Hs. rewrite E in Hs. cbn [map] in Hs.
    assert (Hx : nth_error w i = Some (snd x)).
    { pose proof (skipn_cons w i) as Hc. unfold item in *. rewrite <- Hs in Hc.
      destruct (nth_error w i); [|discriminate]. injection Hc as -> _. reflexivity. }
    rewrite Hx. unfold wanted, prefix_match. cbn [p_value p_count]. rewrite !andb_true_r.
    destruct n as [|n]; cbn [Nat.eqb Nat.ltb Nat.leb p_value p_count].
    + destruct (u (snd x)); cbn [fst snd no_cond].
      * unfold lift. rewrite L. cbn [p_value p_count Nat.eqb fst snd].
        rewrite new_span_cx by lia. replace (i + 1) with (S i) by lia. reflexivity.
      * reflexivity.
    + destruct (p (snd x)); cbn [fst snd no_cond].
      * unfold lift. rewrite L. cbn [p_value p_count Nat.eqb fst snd].
        rewrite new_span_cx by lia. replace (i + 1) with (S i) by lia. reflexivity.
      * reflexivity.
Qed.

Example C40_once_ex :
  once_st (prefix_match (N.eqb 97) (N.eqb 98)) no_cond (cx KStr [97; 98]%N 0, prefix_new 1)
  = (Ok (Span 0 1), (cx KStr [97; 98]%N 1, PS 0 true)).
Proof. reflexivity. Qed.

(** "Every match needs the prefix" is false: the state is not reset between matches. *)
Theorem C40_each_match_refuted : exists k p u n w i s,
  s = snd (snd (many1_st (prefix_match p u) no_cond (cx k w i, prefix_new n))) /\
  exists w2 r c s2,
    many1_st (prefix_match p u) no_cond (cx k w2 0, s) = (Ok r, (c, s2)) /\
    many1_st (prefix_match p u) no_cond (cx k w2 0, prefix_new n) = (Err EMany1, (cx k w2 0, PS 0 false)).
Proof.
  exists KStr, (N.eqb 97), (N.eqb 98), 1, [97; 98]%N, 0, (PS 0 true). split; [reflexivity|].
  exists [98; 98]%N, (Span 0 2), (cx KStr [98; 98]%N 2), (PS 0 true). split; reflexivity.
Qed.

(** "A failed match leaves the unit usable" is false: after one failed prefix test, a text that a
    fresh unit accepts is rejected. *)
Theorem C40_failure_kills_refuted : exists k p u n w s,
  many1_st (prefix_match p u) no_cond (cx k w 0, prefix_new n) = (Err EMany1, (cx k w 0, s)) /\
  exists w2 r x,
    many1_st (prefix_match p u) no_cond (cx k w2 0, prefix_new n) = (Ok r, x) /\
    many1_st (prefix_match p u) no_cond (cx k w2 0, s) = (Err EMany1, (cx k w2 0, s)).
Proof.
  exists KStr, (N.eqb 97), (N.eqb 98), 1, [98]%N, (PS 0 false). split; [reflexivity|].
  exists [97; 98]%N, (Span 0 2), (cx KStr [97; 98]%N 2, PS 0 true). split; reflexivity.
Qed.

(** A unit without state behaves under these loops as in the rest of the model. *)
Theorem C40_stateless : forall S u chk c (s : S),
  many1_st (pure_unit (is_match u)) chk (c, s)
    = (let (r, c') := many1_parse u chk c in (r, (c', s))) /\
  many0_st (pure_unit (is_match u)) chk (c, s)
    = (let (r, c') := many0_parse u chk c in (r, (c', s))) /\
  once_st (pure_unit (is_match u)) chk (c, s)
    = (let (r, c') := once_parse u chk c in (r, (c', s))).
Proof.
  intros S u chk c s. split; [|split].
  - unfold many1_st, many1_parse, bind, onc, reads. cbn [fst snd].
    destruct (peek c) as [l| | |]; try reflexivity. cbn [fst snd].
    destruct (remaining c) as [[rem| | |] c1]; try reflexivity. cbn [fst snd].
    rewrite scan_pure. destruct (scan _ _ _ l) as [[b e]| | |]; try reflexivity. cbn [fst snd].
    destruct b; [|reflexivity]. unfold lift.
    destruct (calc_length _ _ _); reflexivity.
  - unfold many0_st, many0_parse, bind, onc, reads, offset, catch. cbn [fst snd].
    destruct (remaining c) as [[rem| | |] c1]; try reflexivity. cbn [fst snd].
    destruct (peek c1) as [l| | |]; try reflexivity. cbn [fst snd].
    rewrite scan_pure. destruct (scan _ _ _ l) as [[b e]| | |]; try reflexivity. cbn [fst snd].
    destruct b; [|reflexivity]. unfold lift.
    destruct (calc_length _ _ _); reflexivity.
  - unfold once_st, once_parse, bind, onc, reads, ask. cbn [fst snd].
    destruct (peek c) as [l| | |]; try reflexivity. cbn [fst snd].
    destruct (remaining c) as [[rem| | |] c1]; try reflexivity. cbn [fst snd].
    destruct l as [|x l]; [reflexivity|]. unfold pure_unit. cbn [fst snd].
    destruct (is_match u (snd x)); [|reflexivity]. cbn [fst snd].
    destruct (chk c1 x) as [[|]| | |]; try reflexivity. unfold lift.
    destruct (calc_length _ _ _); reflexivity.
Qed.

(** * C41: specification *)

(** [g] can come about when threads with the given work share a fresh [prefix_sync_cnt(p, n, u)]. *)
Definition Reachable (p u : item -> bool) (n : nat) (work : list (list item)) (g : config) : Prop :=
  exists sched, g = run p u sched (start n work).

(** The answers given so far, in order. *)
Definition answers (g : config) : list answer := map snd (done_ g).
Definition by_prefix (a : answer) : bool :=
  match a with (_, ByPrefix, _) => true | _ => false end.
(** How many answers came from a prefix test. *)
Definition prefix_tests (l : list answer) : nat := length (filter by_prefix l).

(** The items that are looked at when the threads [who] make one complete call each, in that order. *)
Fixpoint served (who : list nat) (work : list (list item)) : option (list item) :=
  match who with
  | [] => Some []
  | i :: who => match nth_error work i with
                | Some (x :: l) => option_map (cons x) (served who (set_nth i l work))
                | _ => None
                end
  end.

(** The schedule in which thread [fst b] makes [snd b] accesses in a row, for each block [b]. *)
Definition blocks (l : list (nat * nat)) : list nat :=
  concat (map (fun b => repeat (fst b) (snd b)) l).

(** * C41: proofs *)

Section Set_nth.
  Context {A : Type}.
  Lemma set_nth_length i (a : A) l : i < length l -> length (set_nth i a l) = length l.
  Proof.
    intros H. unfold set_nth. rewrite app_length. cbn [length].
    rewrite firstn_length, skipn_length. lia.
  Qed.
  Lemma nth_set_same i (a : A) l : i < length l -> nth_error (set_nth i a l) i = Some a.
  Proof.
    intros H. unfold set_nth. rewrite nth_error_app2; rewrite firstn_length_le by lia; [|lia].
    now rewrite Nat.sub_diag.
  Qed.
  Lemma nth_set_other i j (a : A) l : i < length l -> i <> j ->
    nth_error (set_nth i a l) j = nth_error l j.
  Proof.
    intros H N. unfold set_nth. rewrite <- (firstn_skipn i l) at 3.
    destruct (Nat.lt_ge_cases j i) as [L|L].
    - rewrite !nth_error_app1; auto; rewrite firstn_length_le by lia; lia.
    - rewrite !nth_error_app2; rewrite firstn_length_le by lia; try lia.
      destruct (j - i) as [|d] eqn:E; [lia|].
      change (nth_error (a :: skipn (S i) l) (S d)) with (nth_error (skipn (S i) l) d).
      rewrite !nth_error_skipn. f_equal. lia.
  Qed.
  Lemma set_set i (a b : A) l : i < length l -> set_nth i a (set_nth i b l) = set_nth i a l.
  Proof.
    intros H. unfold set_nth. f_equal.
    - rewrite firstn_app, firstn_firstn, firstn_length_le by lia.
      rewrite Nat.min_id, Nat.sub_diag. cbn. now rewrite app_nil_r.
    - f_equal. rewrite skipn_app, firstn_length_le by lia.
      rewrite (skipn_all2 (firstn i l)) by (rewrite firstn_length_le by lia; lia).
      replace (S i - i) with 1 by lia. reflexivity.
  Qed.
  Lemma in_set i (a b : A) l : In b (set_nth i a l) -> b = a \/ In b l.
  Proof.
    unfold set_nth. intros H. apply in_app_iff in H. destruct H as [H|[<-|H]]; auto.
    - right. rewrite <- (firstn_skipn i l). apply in_app_iff. auto.
    - right. rewrite <- (firstn_skipn (S i) l). apply in_app_iff. auto.
  Qed.
End Set_nth.

Lemma map_set {A B} (f : A -> B) i a l : map f (set_nth i a l) = set_nth i (f a) (map f l).
Proof. unfold set_nth. rewrite map_app. cbn [map]. now rewrite firstn_map, skipn_map. Qed.

Lemma prefix_tests_app l l' : prefix_tests (l ++ l') = prefix_tests l + prefix_tests l'.
Proof. unfold prefix_tests. now rewrite filter_app, app_length. Qed.

Section Inv.
  Variable p u : item -> bool.

  (** Induction over all schedules. *)
  Lemma run_ind (I : config -> Prop) n work :
    I (start n work) ->
    (forall g i t m t' a, I g -> nth_error (threads g) i = Some t ->
       access p u (mem g) t = Some (m, t', a) ->
       I (Config m (set_nth i t' (threads g))
            (match a with Some a => done_ g ++ [(i, a)] | None => done_ g end))) ->
    forall g, Reachable p u n work g -> I g.
  Proof.
    intros H0 HS g (sched & ->).
    assert (H : forall sched g, I g -> I (run p u sched g)).
    { clear - HS. induction sched as [|i sched IH]; intros g Hg; [exact Hg|].
      cbn [run fold_left]. apply IH. unfold step.
      destruct (nth_error (threads g) i) as [t|] eqn:Et; [|exact Hg].
      destruct (access p u (mem g) t) as [[[m t'] a]|] eqn:Ea; [|exact Hg].
      eapply HS; eauto. }
    now apply H.
  Qed.

  (** The counter a thread has loaded. *)
  Definition loaded (t : thread) : option nat :=
    match at_ t with AtValue _ c | AtStore _ c => Some c | _ => None end.
  (** The item a thread is busy with. *)
  Definition busy (t : thread) : list item :=
    match at_ t with AtCount x | AtValue x _ | AtStore x _ => [x] | _ => [] end.

  Definition inv (n : nat) (g : config) : Prop :=
    count (mem g) <= n /\
    n - count (mem g) <= prefix_tests (answers g) /\
    (forall t c, In t (threads g) -> loaded t = Some c ->
       1 <= c <= n /\ n - c <= prefix_tests (answers g)) /\
    (forall l1 x b l2, answers g = l1 ++ (x, ByUnit, b) :: l2 -> n <= prefix_tests l1).

  Lemma inv_ok n work g : Reachable p u n work g -> inv n g.
  Proof.
    apply run_ind.
    - unfold inv, start, answers. cbn. split; [lia|]. split; [lia|]. split.
      + intros t c Ht. apply in_map_iff in Ht. destruct Ht as (l & <- & _). discriminate.
      + intros [|] ? ? ?; discriminate.
    - clear g. intros g i t m t' a (I1 & I2 & I3 & I4) Ht Ha.
      pose proof (nth_error_In _ _ Ht) as Hin.
      destruct t as [l q]. unfold access in Ha. cbn [at_ todo] in Ha.
      assert (U : forall a' l1 x b l2, answers g ++ [a'] = l1 ++ (x, ByUnit, b) :: l2 ->
                (forall y b', a' = (y, ByUnit, b') -> n <= prefix_tests (answers g)) ->
                n <= prefix_tests l1).
      { intros a' l1 x b l2 E Hy. destruct l2 as [|a2 l2 _] using rev_ind.
        - apply app_inj_tail in E. destruct E as [<- ->]. eapply Hy. reflexivity.
        - rewrite app_comm_cons, app_assoc in E. apply app_inj_tail in E. destruct E as [E _].
          eapply I4. exact E. }
      assert (T : forall t' N, (forall c, loaded t' = Some c -> 1 <= c <= n /\ n - c <= N) ->
                  prefix_tests (answers g) <= N ->
                  forall t c, In t (set_nth i t' (threads g)) -> loaded t = Some c ->
                  1 <= c <= n /\ n - c <= N).
      { intros t0 N H1 H2 t c Hc E. destruct (in_set _ _ _ _ Hc) as [->|Hc']; [auto|].
        destruct (I3 _ _ Hc' E). lia. }
      destruct q as [|x|x c|x c].
      + destruct l as [|x l]; [discriminate|]. destruct (value (mem g)) eqn:Ev;
          injection Ha as <- <- <-; unfold inv, answers in *; cbn [mem threads done_].
        * split; [|split; [|split]]; auto. apply T; [discriminate|lia].
        * rewrite map_app. cbn [map]. rewrite prefix_tests_app.
          split; [|split; [|split]]; auto; [lia| |].
          -- apply T; [discriminate|lia].
          -- intros l1 y b l2 E. eapply U; [exact E|]. cbn [snd]. intros ? ? E'. discriminate.
      + destruct (Nat.eqb_spec (count (mem g)) 0) as [E0|E0];
          injection Ha as <- <- <-; unfold inv, answers in *; cbn [mem threads done_].
        * rewrite map_app. cbn [map]. rewrite prefix_tests_app.
          split; [|split; [|split]]; auto; [lia| |].
          -- apply T; [discriminate|lia].
          -- intros l1 y b l2 E. eapply U; [exact E|]. intros. lia.
        * split; [|split; [|split]]; auto. apply T; [|lia]. cbn. intros c E. injection E as <-. lia.
      + injection Ha as <- <- <-; unfold inv, answers in *; cbn [mem threads done_ count].
        destruct (I3 _ c Hin eq_refl) as [L1 L2].
        split; [|split; [|split]]; auto. apply T; [|lia]. cbn. intros c' E. injection E as <-. lia.
      + injection Ha as <- <- <-; unfold inv, answers in *; cbn [mem threads done_ count].
        destruct (I3 _ c Hin eq_refl) as [L1 L2].
        rewrite map_app. cbn [map]. rewrite prefix_tests_app.
        change (prefix_tests [snd (i, (x, ByPrefix, p x))]) with 1.
        split; [|split; [|split]]; [lia|lia| |].
        * apply T; [discriminate|lia].
        * intros l1 y b l2 E. eapply U; [exact E|]. intros ? ? E'. discriminate.
  Qed.

  (** Where the items come from. *)
  Definition inv2 (work : list (list item)) (g : config) : Prop :=
    (forall t x, In t (threads g) -> In x (busy t ++ todo t) -> In x (concat work)) /\
    (forall x t b, In (x, t, b) (answers g) -> In x (concat work) /\
       b = match t with ByFlag => false | ByUnit => u x | ByPrefix => p x end) /\
    (value (mem g) = false -> exists x, In x (concat work) /\ p x = false).

  Lemma inv2_ok n work g : Reachable p u n work g ->
    inv2 work g /\ (forall x b, In (x, ByFlag, b) (answers g) ->
                    exists y, In y (concat work) /\ p y = false).
  Proof.
    revert g. apply (run_ind (fun g => inv2 work g /\ (forall x b, In (x, ByFlag, b) (answers g) ->
                    exists y, In y (concat work) /\ p y = false))).
    - unfold inv2, start, answers. cbn. repeat split; try discriminate; try contradiction.
      intros t x Ht Hx. apply in_map_iff in Ht. destruct Ht as (l & <- & Hl). cbn in Hx.
      apply in_concat. eauto.
    - intros g i t m t' a ((I1 & I2 & I3) & I4) Ht Ha.
      pose proof (nth_error_In _ _ Ht) as Hin.
      destruct t as [l q]. unfold access in Ha. cbn [at_ todo] in Ha.
      assert (W : forall x, In x (busy (Thread l q) ++ l) -> In x (concat work)).
      { intros x Hx. exact (I1 _ _ Hin Hx). }
      assert (T : (forall x, In x (busy t' ++ todo t') -> In x (busy (Thread l q) ++ l)) ->
                  forall t x, In t (set_nth i t' (threads g)) -> In x (busy t ++ todo t) ->
                  In x (concat work)).
      { intros Hs t x Ht' Hx. destruct (in_set _ _ _ _ Ht') as [->|Ht'']; [auto|eauto]. }
      destruct q as [|x|x c|x c].
      + destruct l as [|x l]; [discriminate|]. destruct (value (mem g)) eqn:Ev;
          injection Ha as <- <- <-; unfold inv2, answers in *; cbn [mem threads done_].
        * split; [split; [|split]|]; [apply T; cbn; intuition|exact I2|congruence|exact I4].
        * rewrite map_app. cbn [map snd].
          split; [split; [|split]|]; [apply T; cbn; intuition| |exact (fun _ => I3 eq_refl)|].
          -- intros y ty b Hy. apply in_app_iff in Hy. destruct Hy as [Hy|[E|[]]]; [eauto|].
             injection E as <- <- <-. split; [|reflexivity]. apply W. cbn. auto.
          -- intros y b Hy. apply in_app_iff in Hy. destruct Hy as [Hy|[E|[]]]; [eauto|auto].
      + destruct (Nat.eqb_spec (count (mem g)) 0) as [E0|E0];
          injection Ha as <- <- <-; unfold inv2, answers in *; cbn [mem threads done_].
        * rewrite map_app. cbn [map snd].
          split; [split; [|split]|]; [apply T; cbn; intuition| |exact I3|].
          -- intros y ty b Hy. apply in_app_iff in Hy. destruct Hy as [Hy|[E|[]]]; [eauto|].
             injection E as <- <- <-. split; [|reflexivity]. apply W. cbn. auto.
          -- intros y b Hy. apply in_app_iff in Hy. destruct Hy as [Hy|[E|[]]]; [eauto|discriminate].
        * split; [split; [|split]|]; [apply T; cbn; intuition|exact I2|exact I3|exact I4].
      + injection Ha as <- <- <-; unfold inv2, answers in *; cbn [mem threads done_ value].
        split; [split; [|split]|]; [apply T; cbn; intuition|exact I2| |exact I4].
        intros E. exists x. split; [|exact E]. apply W. cbn. auto.
      + injection Ha as <- <- <-; unfold inv2, answers in *; cbn [mem threads done_ value].
        rewrite map_app. cbn [map snd].
        split; [split; [|split]|]; [apply T; cbn; intuition| |exact I3|].
        * intros y ty b Hy. apply in_app_iff in Hy. destruct Hy as [Hy|[E|[]]]; [eauto|].
          injection E as <- <- <-. split; [|reflexivity]. apply W. cbn. auto.
        * intros y b Hy. apply in_app_iff in Hy. destruct Hy as [Hy|[E|[]]]; [eauto|discriminate].
  Qed.
End Inv.

Lemma run_step p u i s g t m t' a :
  nth_error (threads g) i = Some t -> access p u (mem g) t = Some (m, t', a) ->
  run p u (i :: s) g =
  run p u s (Config m (set_nth i t' (threads g))
               (match a with Some a => done_ g ++ [(i, a)] | None => done_ g end)).
Proof. intros H1 H2. cbn [run fold_left]. unfold step. now rewrite H1, H2. Qed.

Lemma run_app p u s1 s2 g : run p u (s1 ++ s2) g = run p u s2 (run p u s1 g).
Proof. unfold run. apply fold_left_app. Qed.

(** * C41: theorems *)

(** One complete call without interference does what [Prefix] does. *)
Theorem C41_call : forall p u i g x l,
  nth_error (threads g) i = Some (Thread (x :: l) AtStart) ->
  exists m t v c, 1 <= m <= 4 /\
    run p u (repeat i m) g =
      Config (Shared v c) (set_nth i (Thread l AtStart) (threads g))
             (done_ g ++ [(i, (x, t, fst (prefix_match p u x (PS (count (mem g)) (value (mem g))))))]) /\
    PS c v = snd (prefix_match p u x (PS (count (mem g)) (value (mem g)))).
Proof.
  intros p u i g x l Ht.
  assert (Hi : i < length (threads g)) by (apply nth_error_Some; congruence).
  unfold prefix_match. cbn [p_value p_count].
  destruct g as [[v c] ts d]. cbn [mem threads done_ value count] in *.
  destruct v.
  - destruct (Nat.eqb_spec c 0) as [->|Hc].
    + exists 2, ByUnit, true, 0. split; [lia|]. cbn [fst snd]. split; [|reflexivity].
      cbn [repeat]. erewrite run_step; [|exact Ht|reflexivity].
      cbn [mem threads done_]. erewrite run_step; [|now apply nth_set_same|reflexivity].
      cbn [mem threads done_]. rewrite set_set by auto. now rewrite andb_true_r.
    + exists 4, ByPrefix, (p x), (c - 1). split; [lia|]. cbn [fst snd]. rewrite andb_true_r.
      split; [|reflexivity].
      cbn [repeat]. erewrite run_step; [|exact Ht|reflexivity].
      cbn [mem threads done_ count]. erewrite run_step; [|now apply nth_set_same|].
      2:{ unfold access. cbn [at_ todo mem count]. rewrite (proj2 (Nat.eqb_neq c 0)) by auto. reflexivity. }
      cbn [mem threads done_ count]. rewrite set_set by auto.
      erewrite run_step; [|now apply nth_set_same|reflexivity].
      cbn [mem threads done_ count]. rewrite set_set by auto.
      erewrite run_step; [|now apply nth_set_same|reflexivity].
      cbn [mem threads done_ count value]. rewrite set_set by auto. reflexivity.
  - exists 1, ByFlag, false, c. split; [lia|]. cbn [fst snd]. split; [|reflexivity].
    cbn [repeat]. erewrite run_step; [|exact Ht|reflexivity]. reflexivity.
Qed.

Example C41_call_ex :
  let d := fun x => (48 <=? x)%N && (x <=? 57)%N in
  let g := start 1 [[97; 49]; [50]]%N in
  nth_error (threads g) 0 = Some (Thread [97; 49]%N AtStart) /\
  run (N.eqb 97) d (repeat 0 4) g =
  Config (Shared true 0) [Thread [49]%N AtStart; Thread [50]%N AtStart] [(0, (97%N, ByPrefix, true))].
Proof. split; reflexivity. Qed.

(** Called by one thread at a time, in whatever order the threads take turns, the shared unit gives
    exactly the answers of the single-threaded one, and ends in the same state. *)
Lemma serial_from p u who : forall ts v c work xs,
  ts = map (fun l => Thread l AtStart) work ->
  served who work = Some xs ->
  exists ks, length ks = length who /\ (forall m, In m ks -> 1 <= m <= 4) /\
    forall d, exists tst ts',
      run p u (blocks (combine who ks)) (Config (Shared v c) ts d) =
      Config (Shared (p_value (snd (feed (prefix_match p u) (PS c v) xs)))
                     (p_count (snd (feed (prefix_match p u) (PS c v) xs)))) ts'
        (d ++ combine who (combine (combine xs tst) (fst (feed (prefix_match p u) (PS c v) xs)))) /\
      length tst = length xs.
Proof.
  induction who as [|i who IH]; intros ts v c work xs Hts Hs.
  - cbn in Hs. injection Hs as <-. exists []. split; [reflexivity|]. split; [intros ? []|].
    intros d. exists [], ts. split; [|reflexivity]. cbn. now rewrite app_nil_r.
  - cbn [served] in Hs. destruct (nth_error work i) as [[|x l]|] eqn:Ei; try discriminate.
    destruct (served who (set_nth i l work)) as [xs'|] eqn:Es; [|discriminate].
    injection Hs as <-.
    assert (Ht : nth_error ts i = Some (Thread (x :: l) AtStart)).
    { subst ts. rewrite nth_error_map, Ei. reflexivity. }
    assert (Hi : i < length work) by (apply nth_error_Some; congruence).
    assert (C : exists m t v' c', 1 <= m <= 4 /\
      (forall d, run p u (repeat i m) (Config (Shared v c) ts d) =
         Config (Shared v' c') (set_nth i (Thread l AtStart) ts)
           (d ++ [(i, (x, t, fst (prefix_match p u x (PS c v))))])) /\
      PS c' v' = snd (prefix_match p u x (PS c v))).
    { unfold prefix_match. cbn [p_value p_count].
      assert (Hi' : i < length ts) by (apply nth_error_Some; congruence).
      destruct v; [destruct (Nat.eqb_spec c 0) as [->|Hc]|].
      - exists 2, ByUnit, true, 0. split; [lia|]. split; [|reflexivity]. intros d.
        cbn [repeat]. erewrite run_step; [|exact Ht|reflexivity].
        cbn [mem threads done_]. erewrite run_step; [|now apply nth_set_same|reflexivity].
        cbn [mem threads done_ fst]. rewrite set_set by auto. now rewrite andb_true_r.
      - exists 4, ByPrefix, (p x), (c - 1). split; [lia|].
        rewrite andb_true_r. split; [|reflexivity]. intros d. cbn [repeat].
        erewrite run_step; [|exact Ht|reflexivity].
        cbn [mem threads done_ count]. erewrite run_step; [|now apply nth_set_same|].
        2:{ unfold access. cbn [at_ todo mem count].
            rewrite (proj2 (Nat.eqb_neq c 0)) by auto. reflexivity. }
        cbn [mem threads done_ count]. rewrite set_set by auto.
        erewrite run_step; [|now apply nth_set_same|reflexivity].
        cbn [mem threads done_ count]. rewrite set_set by auto.
        erewrite run_step; [|now apply nth_set_same|reflexivity].
        cbn [mem threads done_ count value fst]. rewrite set_set by auto. reflexivity.
      - exists 1, ByFlag, false, c. split; [lia|]. split; [|reflexivity]. intros d.
        cbn [repeat]. erewrite run_step; [|exact Ht|reflexivity]. reflexivity. }
    destruct C as (m & t & v' & c' & Hm & Hrun & Hst).
    destruct (IH (set_nth i (Thread l AtStart) ts) v' c' (set_nth i l work) xs')
      as (ks & Hl & Hk & Hd); auto.
    { subst ts. now rewrite <- map_set with (f := fun l => Thread l AtStart). }
    exists (m :: ks). split; [cbn; lia|]. split; [intros y [<-|Hy]; auto|].
    intros d. unfold blocks. cbn [combine map concat fst snd]. rewrite run_app, Hrun.
    destruct (Hd (d ++ [(i, (x, t, fst (prefix_match p u x (PS c v))))])) as (tst & ts' & E & Hlen).
    exists (t :: tst), ts'. split; [|cbn; lia].
    unfold blocks in E. rewrite E. cbn [feed].
    destruct (prefix_match p u x (PS c v)) as [b s1]. cbn [snd fst] in *. subst s1.
    destruct (feed (prefix_match p u) (PS c' v') xs') as [bs s2]. cbn [fst snd combine].
    now rewrite <- app_assoc.
Qed.

Theorem C41_serial : forall p u n work who xs,
  served who work = Some xs ->
  exists ks, length ks = length who /\ (forall m, In m ks -> 1 <= m <= 4) /\
    let g := run p u (blocks (combine who ks)) (start n work) in
    let s := feed (prefix_match p u) (prefix_new n) xs in
    map fst (done_ g) = who /\
    map (fun a => fst (fst a)) (answers g) = xs /\
    map snd (answers g) = fst s /\
    PS (count (mem g)) (value (mem g)) = snd s.
Proof.
  intros p u n work who xs Hs.
  assert (Hl : forall who work xs, served who work = Some xs -> length xs = length who).
  { clear. induction who as [|i who IH]; intros work xs H; cbn in H.
    - injection H as <-. reflexivity.
    - destruct (nth_error work i) as [[|x l]|]; try discriminate.
      destruct (served who _) eqn:E; [|discriminate]. injection H as <-. cbn.
      f_equal. eapply IH. eauto. }
  apply Hl in Hs as Hlen.
  destruct (serial_from p u who (map (fun l => Thread l AtStart) work)
              true n work xs) as (ks & H1 & H2 & H3); auto.
  exists ks. split; [auto|]. split; [auto|]. cbv zeta.
  destruct (H3 []) as (tst & ts' & E & Ht).
  change (start n work) with (Config (Shared true n) (map (fun l => Thread l AtStart) work) []).
  rewrite E. unfold answers, answer, prefix_new. cbn [done_ app mem count value].
  pose proof (feed_length (prefix_match p u) (PS n true) xs) as Hf.
  set (s := feed (prefix_match p u) (PS n true) xs) in *.
  assert (F : forall A B (l : list A) (l' : list B), length l = length l' ->
                map fst (combine l l') = l /\ map snd (combine l l') = l').
  { clear. induction l as [|a l IH]; intros [|b l'] H; try discriminate; [auto|].
    cbn in *. destruct (IH l') as [I1 I2]; [lia|]. split; f_equal; auto. }
  assert (L1 : length (combine xs tst) = length xs) by (rewrite combine_length; lia).
  assert (L2 : length (combine (combine xs tst) (fst s)) = length xs)
    by (rewrite combine_length; lia).
  destruct (F _ _ who (combine (combine xs tst) (fst s))) as [F1 F2]; [lia|].
  split; [exact F1|]. unfold item in *. rewrite F2.
  destruct (F _ _ (combine xs tst) (fst s)) as [F3 F4]; [lia|].
  split; [|split; [exact F4|now destruct (snd s)]].
  rewrite <- map_map, F3. now apply F.
Qed.

(** Two threads taking turns: thread 1, thread 0, thread 1. *)
Example C41_serial_ex : served [1; 0; 1] [[49]; [97; 50]]%N = Some [97; 49; 50]%N.
Proof. reflexivity. Qed.

(** Whatever the interleaving, the counter stays between 0 and [n] ... *)
Theorem C41_bounded : forall p u n work g, Reachable p u n work g -> count (mem g) <= n.
Proof. intros p u n work g H. now apply inv_ok in H as (H & _). Qed.

(** ... and is never decremented below 0. *)
Theorem C41_no_underflow : forall p u n work g i l x c, Reachable p u n work g ->
  nth_error (threads g) i = Some (Thread l (AtStore x c)) -> 1 <= c.
Proof.
  intros p u n work g i l x c H Ht. apply inv_ok in H as (_ & _ & H & _).
  apply nth_error_In in Ht. apply (H _ c) in Ht; [lia|reflexivity].
Qed.

(** Every interleaving answers from the prefix at least [n] times before it answers from the unit. *)
Theorem C41_prefix_first : forall p u n work g l1 x b l2, Reachable p u n work g ->
  answers g = l1 ++ (x, ByUnit, b) :: l2 -> n <= prefix_tests l1.
Proof. intros p u n work g l1 x b l2 H. apply inv_ok in H as (_ & _ & _ & H). apply H. Qed.

Example C41_prefix_first_ex :
  answers (run (N.eqb 97) (N.eqb 98) [0;0;1;1;0;0;1;1;0;0] (start 1 [[97; 98]; [97]]%N))
  = [(97, ByPrefix, true); (97, ByPrefix, true); (98, ByUnit, true)]%N.
Proof. reflexivity. Qed.

(** Every answer is about an item some thread asked about, and an accepted item passed the prefix
    or the unit. *)
Theorem C41_accepted : forall p u n work g x t b, Reachable p u n work g ->
  In (x, t, b) (answers g) ->
  In x (concat work) /\ (b = true -> p x = true \/ u x = true).
Proof.
  intros p u n work g x t b H Ha. apply inv2_ok in H as ((_ & H & _) & _).
  apply H in Ha as [Ha Hb]. split; [exact Ha|]. intros ->. destruct t; auto. discriminate.
Qed.

(** If every item passes the prefix, no interleaving rejects by the flag, and the flag stays up. *)
Theorem C41_alive : forall p u n work g, Reachable p u n work g ->
  (forall x, In x (concat work) -> p x = true) ->
  value (mem g) = true /\ forall x b, ~ In (x, ByFlag, b) (answers g).
Proof.
  intros p u n work g H Hp. apply inv2_ok in H as ((_ & _ & H1) & H2). split.
  - destruct (value (mem g)) eqn:E; [reflexivity|]. destruct (H1 eq_refl) as (x & Hx & F).
    rewrite Hp in F by auto. discriminate.
  - intros x b Ha. destruct (H2 _ _ Ha) as (y & Hy & F). rewrite Hp in F by auto. discriminate.
Qed.

(** No thread waits for another: from wherever it stands, a thread that has something to do answers
    within four accesses of its own, whatever the others did before. *)
Theorem C41_wait_free : forall p u g i t,
  nth_error (threads g) i = Some t -> (at_ t <> AtStart \/ todo t <> []) ->
  exists m a, 1 <= m <= 4 /\
    done_ (run p u (repeat i m) g) = done_ g ++ [(i, a)].
Proof.
  intros p u g i [l q] Ht Hw. cbn [at_ todo] in Hw.
  assert (Hi : i < length (threads g)) by (apply nth_error_Some; congruence).
  assert (S3 : forall g l x c, nth_error (threads g) i = Some (Thread l (AtStore x c)) ->
             exists a, done_ (run p u [i] g) = done_ g ++ [(i, a)]).
  { intros. eexists. erewrite run_step; [|eassumption|reflexivity]. reflexivity. }
  assert (S2 : forall g l x c, i < length (threads g) ->
             nth_error (threads g) i = Some (Thread l (AtValue x c)) ->
             exists a, done_ (run p u [i; i] g) = done_ g ++ [(i, a)]).
  { intros g' l' x c Hi' H. erewrite run_step; [|eassumption|reflexivity].
    edestruct S3 as (a & E); [|exists a; rewrite E; reflexivity].
    cbn [threads]. now apply nth_set_same. }
  assert (S1 : forall g l x, i < length (threads g) ->
             nth_error (threads g) i = Some (Thread l (AtCount x)) ->
             exists m a, 1 <= m <= 3 /\ done_ (run p u (repeat i m) g) = done_ g ++ [(i, a)]).
  { intros g' l' x Hi' H. destruct (Nat.eqb_spec (count (mem g')) 0) as [E0|E0].
    - exists 1. eexists. split; [lia|]. cbn [repeat]. erewrite run_step; [|eassumption|].
      2:{ unfold access. cbn [at_ todo]. rewrite E0. reflexivity. }
      reflexivity.
    - exists 3. cbn [repeat]. erewrite run_step; [|eassumption|].
      2:{ unfold access. cbn [at_ todo]. rewrite (proj2 (Nat.eqb_neq _ _)) by eauto. reflexivity. }
      edestruct S2 as (a & E); [| |exists a; split; [lia|]; rewrite E; reflexivity].
      + cbn [threads]. now rewrite set_nth_length.
      + cbn [threads]. now apply nth_set_same. }
  destruct q as [|x|x c|x c].
  - destruct l as [|x l]; [destruct Hw as [[]|[]]; reflexivity|].
    destruct (value (mem g)) eqn:Ev.
    + set (g1 := Config (mem g) (set_nth i (Thread l (AtCount x)) (threads g)) (done_ g)).
      destruct (S1 g1 l x) as (m & a & Hm & E).
      { cbn [g1 threads]. now rewrite set_nth_length. }
      { cbn [g1 threads]. now apply nth_set_same. }
      exists (S m), a. split; [lia|]. cbn [repeat]. erewrite run_step; [|eassumption|].
      2:{ unfold access. cbn [at_ todo]. rewrite Ev. reflexivity. }
      exact E.
    + exists 1. eexists. split; [lia|]. cbn [repeat]. erewrite run_step; [|eassumption|].
      2:{ unfold access. cbn [at_ todo]. rewrite Ev. reflexivity. }
      reflexivity.
  - destruct (S1 g l x Hi Ht) as (m & a & Hm & E). exists m, a. split; [lia|exact E].
  - destruct (S2 g l x c Hi Ht) as (a & E). exists 2, a. split; [lia|exact E].
  - destruct (S3 g l x c Ht) as (a & E). exists 1, a. split; [lia|exact E].
Qed.

(** "A prefix of [n] items is tested [n] times" is false: two threads can use up one prefix slot
    twice (a lost update), so that an item the unit would reject is accepted as a second prefix. *)
Theorem C41_lost_update_refuted : exists p u n work g, Reachable p u n work g /\
  n < prefix_tests (answers g) /\
  (exists x, In (x, ByPrefix, true) (answers g) /\ u x = false).
Proof.
  exists (N.eqb 97), (N.eqb 98), 1, [[97]; [97]]%N.
  eexists. split; [exists [0; 0; 1; 1; 0; 0; 1; 1]; reflexivity|].
  split; [vm_compute; auto|]. exists 97%N. split; [vm_compute; auto|reflexivity].
Qed.

(** "Once the unit is in use the prefix is over" is false: a late store brings the counter back up. *)
Theorem C41_counter_up_refuted : exists p u n work g l1 x b l2 y b' l3, Reachable p u n work g /\
  answers g = l1 ++ (x, ByUnit, b) :: l2 ++ (y, ByPrefix, b') :: l3 /\ 1 < count (mem g).
Proof.
  exists (N.eqb 97), (N.eqb 98), 3, [[97]; [97; 97; 97; 98]]%N.
  eexists. exists [(97, ByPrefix, true); (97, ByPrefix, true); (97, ByPrefix, true)]%N, 98%N, true, [],
    97%N, true, [].
  split; [exists [0; 0; 1;1;1;1; 1;1;1;1; 1;1;1;1; 1;1; 0; 0]; reflexivity|].
  split; [vm_compute; reflexivity|]. vm_compute. auto.
Qed.

(** "Once a prefix check fails everything is rejected for ever" is false: another thread's store can
    revive the unit. *)
Theorem C41_revived_refuted : exists p u n work g l1 x l2 y t l3, Reachable p u n work g /\
  answers g = l1 ++ (x, ByPrefix, false) :: l2 ++ (y, t, true) :: l3 /\
  value (mem g) = true /\ t = ByUnit.
Proof.
  exists (N.eqb 97), (N.eqb 98), 1, [[99]; [97; 98]]%N.
  eexists. exists [], 99%N, [(97, ByPrefix, true)]%N, 98%N, ByUnit, [].
  split; [exists [0; 0; 1; 1; 0; 0; 1; 1; 1; 1]; reflexivity|].
  split; [vm_compute; reflexivity|]. split; reflexivity.
Qed.

Print Assumptions C40_history.
Print Assumptions C40_accepts.
Print Assumptions C40_poisoned.
Print Assumptions C40_carries.
Print Assumptions C40_default_rejects.
Print Assumptions C40_clone_continues.
Print Assumptions C40_clone_fresh_refuted.
Print Assumptions C40_many1.
Print Assumptions C40_many0.
Print Assumptions C40_run_unique.
Print Assumptions C40_dead.
Print Assumptions C40_once.
Print Assumptions C40_each_match_refuted.
Print Assumptions C40_failure_kills_refuted.
Print Assumptions C40_stateless.
Print Assumptions C41_call.
Print Assumptions C41_serial.
Print Assumptions C41_bounded.
Print Assumptions C41_no_underflow.
Print Assumptions C41_prefix_first.
Print Assumptions C41_accepted.
Print Assumptions C41_alive.
Print Assumptions C41_wait_free.
Print Assumptions C41_lost_update_refuted.
Print Assumptions C41_counter_up_refuted.
Print Assumptions C41_revived_refuted.
