(** C62: units built from stateful units, and the unit regexes over any stateful unit. *)

From Coq Require Import List Arith NArith Bool Lia.
From Verif Require Import Base Text Context Neu Syntax Regex TextProofs Spec Obs Units UnitProps PrefixUnit PropPrefix Stateful.
Import ListNotations.

(** * Specification *)

(** Of the items [l], those answered with [v]. *)
Fixpoint answered (v : bool) (l : list item) (bs : list bool) : list item :=
  match l, bs with
  | x :: l, b :: bs => if Bool.eqb b v then x :: answered v l bs else answered v l bs
  | _, _ => []
  end.

(** The answers [bs] with those equal to [v] replaced, in order, by [cs]. *)
Fixpoint refine (v : bool) (bs cs : list bool) : list bool :=
  match bs, cs with
  | b :: bs, cs =>
      if Bool.eqb b v then match cs with c :: cs => c :: refine v bs cs | [] => [] end
      else b :: refine v bs cs
  | [], _ => []
  end.

(** [Answers d l bs]: the unit written [d], asked about the items [l] one after the other, answers
    [bs].  The second operand of [or] is asked about the items the first one rejected, that of [and]
    about those it accepted; each keeps its own history.  A prefix is asked about the first [n] items
    until it rejects one; after that the answer is always no; the unit is asked about the items after
    the first [n]. *)
Inductive Answers : udesc -> list item -> list bool -> Prop :=
| A_pure u l : Answers (UPure u) l (map (is_match u) l)
| A_not a l bs : Answers a l bs -> Answers (UNot a) l (map negb bs)
| A_or a b l bs cs : Answers a l bs -> Answers b (answered false l bs) cs -> Answers (UOr a b) l (refine false bs cs)
| A_and a b l bs cs : Answers a l bs -> Answers b (answered true l bs) cs -> Answers (UAnd a b) l (refine true bs cs)
| A_short p n u l : length l < n -> Answers p l (repeat true (length l)) -> Answers (UPrefix p n u) l (repeat true (length l))
| A_pass p n u l l' cs : length l = n -> Answers p l (repeat true n) -> Answers u l' cs ->
    Answers (UPrefix p n u) (l ++ l') (repeat true n ++ cs)
| A_dead p n u l x l' : length l < n -> Answers p (l ++ [x]) (repeat true (length l) ++ [false]) ->
    Answers (UPrefix p n u) (l ++ x :: l') (repeat true (length l) ++ repeat false (S (length l'))).

(** [n] is the number of answers before the first no, cut off at [lim]. *)
Definition Lead (lim : option nat) (bs : list bool) (n : nat) : Prop :=
  (forall i, i < n -> nth_error bs i = Some true) /\
  match lim with Some c => n <= c | None => True end /\
  (lim = Some n \/ nth_error bs n <> Some true).

(** How many items the unit was asked about: up to the one it rejected. *)
Definition asked (lim : option nat) (n : nat) : nat :=
  match lim with Some c => if c =? n then n else S n | None => S n end.

(** * Proofs *)

Notation feed_u := (feed smatch).

Lemma feed_cons {S} (m : sunit S) s x l :
  feed m s (x :: l) = (fst (m x s) :: fst (feed m (snd (m x s)) l), snd (feed m (snd (m x s)) l)).
Proof. cbn [feed]. destruct (m x s) as [b s1]. cbn [fst snd]. now destruct (feed m s1 l). Qed.

Lemma feed_app {S} (m : sunit S) s l1 l2 :
  feed m s (l1 ++ l2) = (fst (feed m s l1) ++ fst (feed m (snd (feed m s l1)) l2), snd (feed m (snd (feed m s l1)) l2)).
Proof.
  revert s. induction l1 as [|x l1 IH]; intros s; [cbn; now destruct (feed m s l2)|].
  cbn [app]. rewrite !feed_cons. cbn [fst snd]. rewrite IH. reflexivity.
Qed.

Lemma feed_pure u l : feed_u (SPure u) l = (map (is_match u) l, SPure u).
Proof. induction l as [|x l IH]; [reflexivity|]. rewrite feed_cons. cbn [smatch fst snd]. now rewrite IH. Qed.

Lemma feed_not a l : feed_u (SNot a) l = (map negb (fst (feed_u a l)), SNot (snd (feed_u a l))).
Proof.
  revert a. induction l as [|x l IH]; intros a; [reflexivity|]. rewrite !feed_cons. cbn [smatch].
  destruct (smatch x a) as [b a1]. cbn [fst snd]. rewrite IH. reflexivity.
Qed.

Lemma feed_or a b l :
  let fa := feed_u a l in let fb := feed_u b (answered false l (fst fa)) in
  feed_u (SOr a b) l = (refine false (fst fa) (fst fb), SOr (snd fa) (snd fb)).
Proof.
  cbv zeta. revert a b. induction l as [|x l IH]; intros a b; [reflexivity|]. rewrite !feed_cons. cbn [smatch].
  destruct (smatch x a) as [r a1]. cbn [fst snd answered]. destruct r; cbn [Bool.eqb refine].
  - cbn [fst snd]. rewrite IH. reflexivity.
  - rewrite feed_cons. cbn [fst snd]. destruct (smatch x b) as [r b1]. cbn [fst snd]. rewrite IH. reflexivity.
Qed.

Lemma feed_and a b l :
  let fa := feed_u a l in let fb := feed_u b (answered true l (fst fa)) in
  feed_u (SAnd a b) l = (refine true (fst fa) (fst fb), SAnd (snd fa) (snd fb)).
Proof.
  cbv zeta. revert a b. induction l as [|x l IH]; intros a b; [reflexivity|]. rewrite !feed_cons. cbn [smatch].
  destruct (smatch x a) as [r a1]. cbn [fst snd answered]. destruct r; cbn [Bool.eqb refine].
  - rewrite feed_cons. cbn [fst snd]. destruct (smatch x b) as [r b1]. cbn [fst snd]. rewrite IH. reflexivity.
  - cbn [fst snd]. rewrite IH. reflexivity.
Qed.

Lemma feed_dead p u c l : feed_u (SPrefix p u (PS c false)) l = (repeat false (length l), SPrefix p u (PS c false)).
Proof. induction l as [|x l IH]; [reflexivity|]. rewrite feed_cons. cbn [smatch p_value fst snd]. now rewrite IH. Qed.

Lemma feed_unit p u l : feed_u (SPrefix p u (PS 0 true)) l = (fst (feed_u u l), SPrefix p (snd (feed_u u l)) (PS 0 true)).
Proof.
  revert u. induction l as [|x l IH]; intros u; [reflexivity|]. rewrite !feed_cons. cbn [smatch p_value p_count Nat.eqb].
  destruct (smatch x u) as [b u1]. cbn [fst snd]. rewrite andb_true_r, IH. reflexivity.
Qed.

(** While the prefix accepts. *)
Lemma feed_prefix p n u l : length l <= n -> fst (feed_u p l) = repeat true (length l) ->
  feed_u (SPrefix p u (PS n true)) l = (repeat true (length l), SPrefix (snd (feed_u p l)) u (PS (n - length l) true)).
Proof.
  revert p n. induction l as [|x l IH]; intros p n L E; [cbn; now rewrite Nat.sub_0_r|].
  destruct n as [|n]; [cbn in L; lia|]. rewrite feed_cons in E. rewrite !feed_cons. cbn [smatch p_value p_count Nat.eqb].
  destruct (smatch x p) as [b p1]. cbn [fst snd length repeat] in *. injection E as -> E. cbn [andb].
  replace (S n - 1) with n by lia. rewrite IH by (auto; lia). reflexivity.
Qed.

(** The rest of the items behind the first [n]. *)
Lemma all_true l : (exists i, nth_error l i = Some false) \/ l = repeat true (length l).
Proof.
  induction l as [|b l [[i H]|H]]; [now right|left; now exists (S i)|]. destruct b; [right; cbn; now f_equal|left; now exists 0].
Qed.

Lemma first_false l : In false l -> exists n r, l = repeat true n ++ false :: r.
Proof.
  induction l as [|b l IH]; [easy|]. destruct b.
  - intros [H|H]; [discriminate|]. destruct (IH H) as (n & r & ->). now exists (S n), r.
  - intros _. now exists 0, l.
Qed.

Lemma answers_exist d l : Answers d l (fst (feed_u (fresh d) l)).
Proof.
  revert l. induction d as [u|p IHp n u IHu|a IHa|a IHa b IHb|a IHa b IHb]; intros l; cbn [fresh]; unfold prefix_new.
  - rewrite feed_pure. constructor.
  - destruct (in_dec Bool.bool_dec false (fst (feed_u (fresh p) (firstn n l)))) as [F|F].
    + destruct (first_false _ F) as (m & r & E).
      assert (Lm : length (firstn n l) = m + 1 + length r).
      { rewrite <- (feed_length smatch (fresh p)), E, app_length, repeat_length. cbn. lia. }
      rewrite firstn_length in Lm.
      assert (Sp : exists x l', l = firstn m l ++ x :: l').
      { exists (nth m l 0%N), (skipn (S m) l). rewrite <- (firstn_skipn m l) at 1. f_equal.
        rewrite (skipn_cons l m). rewrite (nth_error_nth' l 0%N) by lia. reflexivity. }
      destruct Sp as (x & l' & Sp).
      assert (Lf : length (firstn m l) = m) by (rewrite firstn_length; lia).
      set (l1 := firstn m l) in *. clearbody l1. subst l.
      assert (En : firstn n (l1 ++ x :: l') = (l1 ++ [x]) ++ firstn (n - S m) l').
      { rewrite firstn_app. rewrite firstn_all2 by lia. rewrite Lf. replace (n - m) with (S (n - S m)) by lia. cbn [firstn].
        now rewrite <- app_assoc. }
      rewrite En, feed_app in E. cbn [fst] in E.
      assert (E1 : fst (feed_u (fresh p) (l1 ++ [x])) = repeat true m ++ [false]).
      { apply (f_equal (firstn (m + 1))) in E.
        rewrite firstn_app, feed_length, app_length, Lf in E. cbn [length] in E. rewrite Nat.sub_diag, firstn_O, app_nil_r in E.
        rewrite firstn_all2 in E by (rewrite feed_length, app_length; cbn; lia). rewrite E.
        rewrite firstn_app, repeat_length. rewrite firstn_all2 by (rewrite repeat_length; lia).
        replace (m + 1 - m) with 1 by lia. reflexivity. }
      assert (P1 : fst (feed_u (fresh p) l1) = repeat true (length l1)).
      { rewrite feed_app in E1. cbn [fst] in E1. apply (f_equal (firstn m)) in E1.
        rewrite firstn_app, feed_length, Lf, Nat.sub_diag, firstn_O, app_nil_r in E1.
        rewrite firstn_all2 in E1 by (rewrite feed_length; lia).
        rewrite firstn_app, repeat_length, Nat.sub_diag, firstn_O, app_nil_r, firstn_all2 in E1 by (rewrite repeat_length; lia).
        now rewrite Lf. }
      rewrite feed_app. rewrite feed_prefix by (auto; lia). cbn [fst snd]. rewrite feed_cons. cbn [smatch p_value p_count].
      destruct (n - length l1) as [|q] eqn:Q; [lia|]. cbn [Nat.eqb].
      assert (X : fst (smatch x (snd (feed_u (fresh p) l1))) = false).
      { rewrite feed_app in E1. cbn [fst] in E1. rewrite P1, Lf in E1. apply app_inv_head in E1.
        rewrite feed_cons in E1. cbn [fst] in E1. now injection E1. }
      destruct (smatch x (snd (feed_u (fresh p) l1))) as [b p1]. cbn [fst snd] in *. subst b. cbn [andb].
      rewrite feed_dead. cbn [fst]. change (false :: repeat false (length l')) with (repeat false (S (length l'))).
      apply A_dead; [lia|]. rewrite Lf. rewrite <- E1. apply IHp.
    + destruct (all_true (fst (feed_u (fresh p) (firstn n l)))) as [[i H]|H]; [elim F; now apply nth_error_In in H|].
      rewrite feed_length in H.
      destruct (Nat.lt_ge_cases (length l) n) as [L|L].
      * rewrite firstn_all2 in H by lia. rewrite feed_prefix by (auto; lia). cbn [fst]. apply A_short; auto. rewrite <- H. apply IHp.
      * assert (Lf : length (firstn n l) = n) by (rewrite firstn_length; lia). rewrite Lf in H.
        rewrite <- (firstn_skipn n l), feed_app. rewrite feed_prefix by (rewrite Lf; auto). cbn [fst snd]. rewrite Lf, Nat.sub_diag.
        rewrite feed_unit. cbn [fst]. apply A_pass; auto. rewrite <- H. apply IHp.
  - rewrite feed_not. cbn [fst]. constructor. apply IHa.
  - rewrite feed_or. cbn [fst]. constructor; [apply IHa|apply IHb].
  - rewrite feed_and. cbn [fst]. constructor; [apply IHa|apply IHb].
Qed.

Lemma answers_det d l bs : Answers d l bs -> bs = fst (feed_u (fresh d) l).
Proof.
  induction 1 as [u l|a l bs A IH|a b l bs cs A IHa B IHb|a b l bs cs A IHa B IHb|p n u l L A IH|p n u l l' cs L A IHa B IHb|p n u l x l' L A IH]; cbn [fresh]; unfold prefix_new.
  - now rewrite feed_pure.
  - rewrite feed_not. cbn [fst]. now subst.
  - rewrite feed_or. cbn [fst]. now subst.
  - rewrite feed_and. cbn [fst]. now subst.
  - now rewrite feed_prefix by (auto; lia).
  - rewrite feed_app. rewrite feed_prefix by (rewrite ?L; auto). cbn [fst snd]. rewrite L, Nat.sub_diag, feed_unit. cbn [fst]. now subst.
  - rewrite feed_app in IH. cbn [fst] in IH.
    assert (P1 : fst (feed_u (fresh p) l) = repeat true (length l)).
    { apply (f_equal (firstn (length l))) in IH.
      rewrite firstn_app, repeat_length, Nat.sub_diag, firstn_O, app_nil_r, firstn_all2 in IH by (rewrite repeat_length; lia).
      rewrite firstn_app, feed_length, Nat.sub_diag, firstn_O, app_nil_r, firstn_all2 in IH by (rewrite feed_length; lia). now symmetry. }
    rewrite P1 in IH. apply app_inv_head in IH. rewrite feed_cons in IH. cbn [fst] in IH. injection IH as X.
    rewrite feed_app, feed_prefix by (auto; lia). cbn [fst snd]. f_equal. rewrite feed_cons. cbn [smatch p_value p_count].
    destruct (n - length l) as [|q] eqn:Q; [lia|]. cbn [Nat.eqb].
    destruct (smatch x (snd (feed_u (fresh p) l))) as [b p1]. cbn [fst snd] in *. subst b. cbn [andb]. now rewrite feed_dead.
Qed.

(** Leading answers, with the state left behind. *)
Fixpoint lead {S} (more : nat -> bool) (cnt : nat) (m : sunit S) (l : list item) (s : S) : nat * S :=
  match l with
  | [] => (0, s)
  | x :: l =>
      if more cnt then
        let (b, s) := m x s in
        if b : bool then let (n, s) := lead more (Datatypes.S cnt) m l s in (Datatypes.S n, s) else (0, s)
      else (0, s)
  end.

Lemma scan_n_lead {S} (m : sunit S) more cnt beg l s :
  scan_n_st m (fun _ => Ok true) more cnt beg l s =
  let (n, s') := lead more cnt m (map snd l) s in (Ok (cnt + n, first_off n beg l, next_off (skipn n l)), s').
Proof.
  revert cnt beg s. induction l as [|x l IH]; intros cnt beg s; [cbn; now rewrite Nat.add_0_r|].
  cbn [scan_n_st map lead]. destruct (more cnt); [|cbn; now rewrite Nat.add_0_r].
  destruct (m (snd x) s) as [b s1]. destruct b; [|cbn; now rewrite Nat.add_0_r].
  rewrite IH. destruct (lead more (Datatypes.S cnt) m (map snd l) s1) as [n s2]. replace (cnt + Datatypes.S n) with (Datatypes.S cnt + n) by lia. destruct beg, n; reflexivity.
Qed.

Lemma lead_le {S} more cnt (m : sunit S) l s : fst (lead more cnt m l s) <= length l.
Proof.
  revert cnt s. induction l as [|x l IH]; intros cnt s; [cbn; lia|]. cbn [lead]. destruct (more cnt); [|cbn; lia].
  destruct (m x s) as [b s1]. destruct b; [|cbn; lia]. specialize (IH (Datatypes.S cnt) s1).
  destruct (lead more (Datatypes.S cnt) m l s1). cbn in *. lia.
Qed.

Lemma lead_feed {S} more (m : sunit S) l : forall cnt s,
  let n := fst (lead more cnt m l s) in
  (forall i, i < n -> nth_error (fst (feed m s l)) i = Some true) /\
  (forall i, i < n -> more (cnt + i) = true) /\
  (more (cnt + n) = false \/ nth_error (fst (feed m s l)) n <> Some true) /\
  snd (lead more cnt m l s) = snd (feed m s (firstn (if more (cnt + n) then Datatypes.S n else n) l)).
Proof.
  induction l as [|x l IH]; intros cnt s; cbv zeta.
  - cbn [lead fst snd]. split; [intros; lia|]. split; [intros; lia|]. split; [right; discriminate|]. now rewrite firstn_nil.
  - cbn [lead]. destruct (more cnt) eqn:Mc.
    + rewrite feed_cons. destruct (m x s) as [b s1] eqn:Em. cbn [fst snd]. destruct b.
      * specialize (IH (Datatypes.S cnt) s1). cbv zeta in IH. destruct (lead more (Datatypes.S cnt) m l s1) as [n s2]. cbn [fst snd] in *.
        destruct IH as (A & B & C & D). replace (cnt + Datatypes.S n) with (Datatypes.S cnt + n) by lia. split; [|split; [|split]].
        -- intros [|i] Hi; [reflexivity|]. apply A. lia.
        -- intros [|i] Hi; [now rewrite Nat.add_0_r|]. replace (cnt + Datatypes.S i) with (Datatypes.S cnt + i) by lia. apply B. lia.
        -- exact C.
        -- rewrite D. destruct (more (Datatypes.S cnt + n)); cbn [firstn]; rewrite feed_cons, Em; reflexivity.
      * cbn [fst snd]. rewrite Nat.add_0_r, Mc. split; [intros; lia|]. split; [intros; lia|]. split; [right; discriminate|].
        cbn [firstn]. rewrite feed_cons, Em. reflexivity.
    + cbn [fst snd]. rewrite Nat.add_0_r, Mc. split; [intros; lia|]. split; [intros; lia|]. split; auto.
Qed.

(** The two forms of a cap. *)
Definition capped (lim : option nat) (cnt : nat) : bool := match lim with Some n => cnt <? n | None => true end.

Lemma lead_lead {S} lim (m : sunit S) l s :
  Lead lim (fst (feed m s l)) (fst (lead (capped lim) 0 m l s)) /\
  snd (lead (capped lim) 0 m l s) = snd (feed m s (firstn (asked lim (fst (lead (capped lim) 0 m l s))) l)).
Proof.
  destruct (lead_feed (capped lim) m l 0 s) as (A & B & C & D). cbn [Nat.add] in *.
  set (n := fst (lead (capped lim) 0 m l s)) in *.
  assert (Le : match lim with Some c => n <= c | None => True end).
  { destruct lim as [c|]; auto. destruct n as [|n']; [lia|]. specialize (B n' ltac:(lia)). cbn in B. apply Nat.ltb_lt in B. lia. }
  split; [split; [exact A|split; [exact Le|]]|].
  - destruct C as [C|C]; auto. destruct lim as [c|]; [|discriminate]. cbn in C. apply Nat.ltb_ge in C. left. f_equal. lia.
  - rewrite D. f_equal. f_equal. f_equal. unfold asked, capped. destruct lim as [c|]; auto.
    destruct (Nat.ltb_spec n c), (Nat.eqb_spec c n); auto; lia.
Qed.

Lemma lead_ext {S} f g cnt (m : sunit S) l s : (forall c, f c = g c) -> lead f cnt m l s = lead g cnt m l s.
Proof.
  intros E. revert cnt s. induction l as [|x l IH]; intros cnt s; [reflexivity|]. cbn [lead]. rewrite <- E.
  destruct (f cnt); auto. destruct (m x s) as [[] s1]; auto. now rewrite IH.
Qed.

Lemma runlen_lead {S} (m : sunit S) l s cnt : runlen_st m l s = lead (capped None) cnt m l s.
Proof.
  revert s cnt. induction l as [|x l IH]; intros s cnt; [reflexivity|]. cbn [runlen_st lead capped].
  destruct (m x s) as [[] s1]; auto. now rewrite (IH s1 (Datatypes.S cnt)).
Qed.

Lemma times_capped r c : times_more r c = capped (cap r) c.
Proof. unfold times_more, cap, capped. now destruct (r_hi r). Qed.

Lemma in_range r n : crange_contains r n = true <-> InRange r n.
Proof.
  unfold crange_contains, InRange. rewrite andb_true_iff.
  destruct (r_lo r), (r_hi r); rewrite ?Nat.leb_le, ?Nat.ltb_lt; tauto.
Qed.

(** * C62 *)

(** Every unit built from [prefix_cnt], [or], [and], [not] and plain units answers every sequence of
    questions as specified, and the specification leaves no choice. *)
Theorem C62_answers : forall d l bs, Answers d l bs <-> bs = fst (feed_u (fresh d) l).
Proof. intros d l bs. split; [apply answers_det|intros ->; apply answers_exist]. Qed.

(** The unit regexes over any stateful unit whatsoever: they ask it about the items from the cursor on,
    in order, until it says no, the cap is reached or the text ends, and about nothing else; the span
    is the accepted run.  [feed m s l] lists the answers to [l] and the state afterwards. *)
Section Any.
Context {S : Type}.
Variable k : kind.
Variable m : sunit S.
Variable ml : kind -> S -> nat.

Lemma spanned w i n (s : S) : i + n <= length w ->
  (len <- lift (calc_length (first_off n None (items k w i 0)) (next_off (skipn n (items k w i 0))) (tlen k w - bo k w i)) ;;
   onc (new_span_inc len)) (cx k w i, s) = (Ok (sp k w i (i + n)), (cx k w (i + n), s)).
Proof.
  intros B. unfold bind, lift. rewrite run_len by auto. unfold onc. cbn [fst snd]. rewrite new_span_cx by lia. reflexivity.
Qed.

Lemma times_st_nf r w i s : i <= length w ->
  match r_lo r with Incl a => a * ml k s | Excl a => (a - 1) * ml k s | Unb => 0 end <= tlen k w - bo k w i ->
  times_st m ml no_cond r (cx k w i, s) =
  let (n, s') := lead (capped (cap r)) 0 m (skipn i w) s in
  if crange_contains r n then (Ok (sp k w i (i + n)), (cx k w (i + n), s')) else (Err ETimes, (cx k w i, s')).
Proof.
  intros Hi Hm. unfold times_st, bind at 1, onc at 1, reads. cbn [fst snd]. rewrite peek_cx by auto.
  unfold bind at 1, onc at 1. cbn [fst snd]. rewrite remaining_cx. unfold bind at 1. cbn [fst snd].
  change (c_kind (cx k w i)) with k. apply Nat.leb_le in Hm. rewrite Hm.
  unfold bind at 1. cbn [fst snd]. unfold no_cond. rewrite scan_n_lead, items_snd.
  rewrite (lead_ext (times_more r) (capped (cap r))) by apply times_capped.
  pose proof (lead_le (capped (cap r)) 0 m (skipn i w) s) as Le. rewrite skipn_length in Le.
  destruct (lead (capped (cap r)) 0 m (skipn i w) s) as [n s']. cbn [fst snd Nat.add] in *.
  destruct (crange_contains r n); [|reflexivity]. apply spanned. lia.
Qed.
Lemma between_st_nf lo hi w i s : i <= length w -> lo * ml k s <= tlen k w - bo k w i ->
  between_st m ml no_cond lo hi (cx k w i, s) =
  let (n, s') := lead (capped hi) 0 m (skipn i w) s in
  if lo <=? n then (Ok (sp k w i (i + n)), (cx k w (i + n), s')) else (Err EBetween, (cx k w i, s')).
Proof.
  intros Hi Hm. unfold between_st, bind at 1, onc at 1, reads. cbn [fst snd]. rewrite peek_cx by auto.
  unfold bind at 1, onc at 1. cbn [fst snd]. rewrite remaining_cx. unfold bind at 1. cbn [fst snd].
  change (c_kind (cx k w i)) with k. apply Nat.leb_le in Hm. rewrite Hm.
  unfold bind at 1. cbn [fst snd]. unfold no_cond. rewrite scan_n_lead, items_snd.
  change (fun cnt => match hi with Some n => cnt <? n | None => true end) with (capped hi).
  pose proof (lead_le (capped hi) 0 m (skipn i w) s) as Le. rewrite skipn_length in Le.
  destruct (lead (capped hi) 0 m (skipn i w) s) as [n s']. cbn [fst snd Nat.add] in *.
  destruct (lo <=? n); [|reflexivity]. apply spanned. lia.
Qed.

Theorem C62_times : forall r w i s, i <= length w ->
  match r_lo r with Incl a => a * ml k s | Excl a => (a - 1) * ml k s | Unb => 0 end <= tlen k w - bo k w i ->
  exists n, Lead (cap r) (fst (feed m s (skipn i w))) n /\
  let s' := snd (feed m s (firstn (asked (cap r) n) (skipn i w))) in
  (InRange r n /\ times_st m ml no_cond r (cx k w i, s) = (Ok (sp k w i (i + n)), (cx k w (i + n), s')) \/
   ~ InRange r n /\ times_st m ml no_cond r (cx k w i, s) = (Err ETimes, (cx k w i, s'))).
Proof.
  intros r w i s Hi Hm. exists (fst (lead (capped (cap r)) 0 m (skipn i w) s)).
  destruct (lead_lead (cap r) m (skipn i w) s) as (L & E). split; [exact L|]. cbv zeta. rewrite <- E.
  rewrite times_st_nf by auto. destruct (lead (capped (cap r)) 0 m (skipn i w) s) as [n s']. cbn [fst snd] in *.
  rewrite <- in_range. destruct (crange_contains r n); [now left|right]. split; [discriminate|reflexivity].
Qed.

Theorem C62_between : forall lo hi w i s, i <= length w -> lo * ml k s <= tlen k w - bo k w i ->
  exists n, Lead hi (fst (feed m s (skipn i w))) n /\
  let s' := snd (feed m s (firstn (asked hi n) (skipn i w))) in
  (lo <= n /\ between_st m ml no_cond lo hi (cx k w i, s) = (Ok (sp k w i (i + n)), (cx k w (i + n), s')) \/
   n < lo /\ between_st m ml no_cond lo hi (cx k w i, s) = (Err EBetween, (cx k w i, s'))).
Proof.
  intros lo hi w i s Hi Hm. exists (fst (lead (capped hi) 0 m (skipn i w) s)).
  destruct (lead_lead hi m (skipn i w) s) as (L & E). split; [exact L|]. cbv zeta. rewrite <- E.
  rewrite between_st_nf by auto. destruct (lead (capped hi) 0 m (skipn i w) s) as [n s']. cbn [fst snd] in *.
  destruct (Nat.leb_spec lo n); [now left|now right].
Qed.

(** Too little text left for the minimum: an error, and the unit is not asked at all. *)
Theorem C62_precheck : forall w i s, i <= length w ->
  (forall r, tlen k w - bo k w i < match r_lo r with Incl a => a * ml k s | Excl a => (a - 1) * ml k s | Unb => 0 end ->
     times_st m ml no_cond r (cx k w i, s) = (Err ETimes, (cx k w i, s))) /\
  (forall lo hi, tlen k w - bo k w i < lo * ml k s ->
     between_st m ml no_cond lo hi (cx k w i, s) = (Err EBetween, (cx k w i, s))).
Proof.
  intros w i s Hi. split; intros; unfold times_st, between_st, bind, onc, reads; cbn [fst snd]; rewrite peek_cx by auto;
    cbn [fst snd]; rewrite remaining_cx; cbn [fst snd]; change (c_kind (cx k w i)) with k.
  - apply Nat.leb_gt in H. now rewrite H.
  - apply Nat.leb_gt in H. now rewrite H.
Qed.

Theorem C62_many : forall w i s, i <= length w ->
  exists n, Lead None (fst (feed m s (skipn i w))) n /\
  let s' := snd (feed m s (firstn (Datatypes.S n) (skipn i w))) in
  many0_st m no_cond (cx k w i, s) = (Ok (sp k w i (i + n)), (cx k w (i + n), s')) /\
  many1_st m no_cond (cx k w i, s) =
    (if n =? 0 then (Err EMany1, (cx k w i, s')) else (Ok (sp k w i (i + n)), (cx k w (i + n), s'))).
Proof.
  intros w i s Hi. exists (fst (lead (capped None) 0 m (skipn i w) s)).
  destruct (lead_lead None m (skipn i w) s) as (L & E). split; [exact L|]. cbv zeta.
  rewrite many0_st_nf, many1_st_nf by auto. rewrite (runlen_lead m (skipn i w) s 0). cbn [asked] in E.
  destruct (lead (capped None) 0 m (skipn i w) s) as [n s']. cbn [fst snd] in *. now rewrite <- E.
Qed.

Theorem C62_one : forall w i s, i <= length w ->
  exists n, Lead (Some 1) (fst (feed m s (skipn i w))) n /\
  let s' := snd (feed m s (firstn 1 (skipn i w))) in
  opt_st m no_cond (cx k w i, s) = (Ok (sp k w i (i + n)), (cx k w (i + n), s')) /\
  once_st m no_cond (cx k w i, s) =
    (if n =? 0 then (Err EOnce, (cx k w i, s')) else (Ok (sp k w i (i + n)), (cx k w (i + n), s'))).
Proof.
  clear ml. intros w i s Hi.
  unfold opt_st, once_st, bind, onc, reads, catch, offset, ask. cbn [fst snd]. rewrite peek_cx by auto.
  cbn [fst snd]. rewrite remaining_cx. cbn [fst snd]. rewrite peek_cx by auto. cbn [fst snd].
  change (c_off (cx k w i)) with (bo k w i).
  pose proof (items_snd k w i) as I. destruct (items k w i 0) as [|x l'] eqn:Ei.
  - cbn [map] in I. rewrite <- I. exists 0. split; [split; [intros; lia|split; [lia|right; discriminate]]|].
    cbn [firstn feed snd]. unfold ret. rewrite Nat.add_0_r, <- sp_empty. split; reflexivity.
  - cbn [map] in I. rewrite <- I. cbn [firstn]. rewrite !feed_cons. cbn [feed snd fst].
    assert (B : i + 1 <= length w). { apply (f_equal (@length item)) in I. rewrite skipn_length in I. cbn in I. lia. }
    pose proof (run_len k w i 1 B) as RL. rewrite Ei in RL. cbn [first_off skipn next_off] in RL.
    destruct (m (snd x) s) as [b s'] eqn:Em. cbn [fst snd]. exists (if b then 1 else 0). split.
    { split; [|split; [destruct b; lia|destruct b; [now left|right; cbn; discriminate]]]. intros [|j] Hj; destruct b; try lia. reflexivity. }
    destruct b; unfold no_cond; cbn [Nat.eqb].
    + unfold lift. rewrite RL. cbn [fst snd]. rewrite new_span_cx by lia. auto.
    + unfold ret. rewrite Nat.add_0_r, <- sp_empty. split; reflexivity.
Qed.
End Any.

(** ** The units of the documentation (src/neu/prefix.rs:152-190) *)

Definition lit (c : N) : udesc := UPure (NChar c).
Definition radix_unit (c r : N) : udesc := UPrefix (lit c) 1 (UPure (NDigit r)).
Definition oct_unit := radix_unit 111 8.
Definition hex_unit := radix_unit 120 16.
Definition bin_unit := radix_unit 98 2.
(** [neu::prefix('0', oct.or(hex).or(bin))] *)
Definition num_unit : udesc := UPrefix (lit 48) 1 (UOr (UOr oct_unit hex_unit) bin_unit).

Lemma answers_nil d : Answers d [] [].
Proof. apply (answers_exist d []). Qed.
Lemma answered_none v l : answered v l (repeat (negb v) (length l)) = [].
Proof. induction l as [|x l IH]; [reflexivity|]. cbn. destruct v; exact IH. Qed.
Lemma answered_all v l : answered v l (repeat v (length l)) = l.
Proof. induction l as [|x l IH]; [reflexivity|]. cbn. destruct v; cbn; now f_equal. Qed.
Lemma refine_none v n cs : refine v (repeat (negb v) n) cs = repeat (negb v) n.
Proof. induction n as [|n IH]; [reflexivity|]. cbn. destruct v; cbn; now f_equal. Qed.
Lemma refine_all v cs : refine v (repeat v (length cs)) cs = cs.
Proof. induction cs as [|c cs IH]; [reflexivity|]. cbn. destruct v; cbn; now f_equal. Qed.

Lemma or_left a b l : Answers a l (repeat true (length l)) -> Answers (UOr a b) l (repeat true (length l)).
Proof.
  intros A. pose proof (A_or a b l _ [] A) as H. change true with (negb false) in H.
  rewrite answered_none, refine_none in H. apply H. apply answers_nil.
Qed.
Lemma or_right a b l : Answers a l (repeat false (length l)) -> forall cs, Answers b l cs -> Answers (UOr a b) l cs.
Proof.
  intros A cs B. assert (L : length cs = length l) by (rewrite (answers_det _ _ _ B); apply feed_length).
  pose proof (A_or a b l _ cs A) as H. rewrite answered_all in H. rewrite <- L, refine_all in H. now apply H.
Qed.

Lemma radix_yes c r ds : (forall x, In x ds -> is_digit r x = true) ->
  Answers (radix_unit c r) (c :: ds) (repeat true (length (c :: ds))).
Proof.
  intros D. change (c :: ds) with ([c] ++ ds). rewrite app_length. change (length [c]) with 1. rewrite repeat_app.
  apply A_pass; [reflexivity| |].
  - pose proof (A_pure (NChar c) [c]) as H. cbn [map is_match] in H. rewrite N.eqb_refl in H. exact H.
  - replace (repeat true (length ds)) with (map (is_match (NDigit r)) ds); [constructor|].
    clear c. induction ds as [|x ds IH]; [reflexivity|]. cbn [map length repeat]. f_equal; [apply D; now left|].
    apply IH. intros y Y. apply D. now right.
Qed.
Lemma radix_no c r x ds : x <> c -> Answers (radix_unit c r) (x :: ds) (repeat false (length (x :: ds))).
Proof.
  intros D. apply (A_dead (lit c) 1 (UPure (NDigit r)) [] x ds); [cbn; lia|]. cbn [app length repeat].
  assert (E : is_match (NChar c) x = false) by (cbn; apply N.eqb_neq; congruence). rewrite <- E. apply (A_pure (NChar c) [x]).
Qed.

(** It accepts the whole of every number in the three notations. *)
Theorem C62_number : forall c r ds, In (c, r) [(111, 8); (120, 16); (98, 2)]%N -> (forall x, In x ds -> UnitSet (NDigit r) x) ->
  Answers num_unit (48%N :: c :: ds) (repeat true (2 + length ds)).
Proof.
  intros c r ds I D. assert (D' : forall x, In x ds -> is_digit r x = true) by (intros; apply (unit_set (NDigit r)); auto).
  change (48%N :: c :: ds) with ([48%N] ++ c :: ds). rewrite repeat_app.
  change (repeat true 2 ++ repeat true (length ds)) with (repeat true 1 ++ repeat true (length (c :: ds))).
  apply A_pass; [reflexivity| |].
  - apply (A_pure (NChar 48%N) [48%N]).
  - destruct I as [I|[I|[I|[]]]]; injection I as <- <-.
    + apply or_left, or_left, radix_yes, D'.
    + apply or_left, or_right; [now apply radix_no|apply radix_yes, D'].
    + apply or_right; [apply or_right; now apply radix_no|apply radix_yes, D'].
Qed.

(** But also more: an operand of [or] that was never asked is still waiting for its prefix, so a second
    notation may start inside the first: 0o7x1F is taken whole. *)
Theorem C62_number_refuted : exists l, fst (feed_u (fresh num_unit) l) = repeat true (length l) /\
  ~ exists c r ds, l = 48%N :: c :: ds /\ In (c, r) [(111, 8); (120, 16); (98, 2)]%N /\ (forall x, In x ds -> UnitSet (NDigit r) x).
Proof.
  exists [48; 111; 55; 120; 49; 70]%N. split; [reflexivity|].
  intros (c & r & ds & E & I & D). injection E as <- <-. destruct I as [I|[I|[I|[]]]]; try discriminate I. injection I as <-.
  assert (X : is_digit 8 120%N = true) by (apply (unit_set (NDigit 8)), D; cbn; auto). discriminate.
Qed.

(** The table of the documentation: 99EF, 0x99EF, 0o7389EF, 9899, 0b01102, x99EF; a failing number
    falls back to [dec.many1()]. *)
Example C62_doc :
  let run w := fst (many1_st (fun x t => smatch x t) no_cond (cx KStr w 0, fresh num_unit)) in
  run [57; 57; 69; 70]%N = Err EMany1 /\
  run [48; 120; 57; 57; 69; 70]%N = Ok (Span 0 6) /\
  run [48; 111; 55; 51; 56; 57; 69; 70]%N = Ok (Span 0 4) /\
  run [57; 56; 57; 57]%N = Err EMany1 /\
  run [48; 98; 48; 49; 49; 48; 50]%N = Ok (Span 0 6) /\
  run [120; 57; 57; 69; 70]%N = Err EMany1.
Proof. vm_compute. repeat split. Qed.

(** AAAA with a space: [prefix_cnt('A', n, never).times(n..=n)] for n = 5, 4 (src/neu/prefix.rs:209-245). *)
Example C62_doc_times :
  let u n := fresh (UPrefix (lit 65) n (UPure NNever)) in
  let run n w := fst (times_st smatch smin no_cond (CRange (Incl n) (Incl n)) (cx KStr w 0, u n)) in
  run 5 [65; 65; 65; 65; 32; 87]%N = Err ETimes /\ run 4 [65; 65; 65; 65; 32; 87]%N = Ok (Span 0 4) /\
  run 5 [65; 65; 65; 65; 65; 32]%N = Ok (Span 0 5) /\ run 2 [84; 101]%N = Err ETimes.
Proof. vm_compute. repeat split. Qed.

(** The hypotheses: a unit with two histories; a text long enough and one too short. *)
Example C62_case :
  Answers (UOr (UPrefix (lit 97) 1 (lit 98)) (lit 99)) [97; 99; 98; 97]%N [true; true; true; false] /\
  Lead (Some 2) [true; true; true; false] 2 /\ Lead None [true; true; true; false] 3 /\ asked (Some 2) 2 = 2 /\
  2 * smin KStr (fresh (lit 97)) <= tlen KStr [97; 98]%N - bo KStr [97; 98]%N 0 /\
  tlen KStr [97; 98]%N - bo KStr [97; 98]%N 1 < 2 * smin KStr (fresh (lit 97)) /\
  In (120, 16)%N [(111, 8); (120, 16); (98, 2)]%N /\ UnitSet (NDigit 16) 70%N.
Proof.
  split; [apply C62_answers; reflexivity|]. split; [|split; [|split; [reflexivity|]]].
  - split; [|split; [lia|now left]]. intros [|[|i]] H; try reflexivity. lia.
  - split; [|split; [auto|right; cbn; discriminate]]. intros [|[|[|i]]] H; try reflexivity. lia.
  - split; [vm_compute; lia|]. split; [vm_compute; lia|]. split; [cbn; auto|]. apply (unit_set (NDigit 16)). reflexivity.
Qed.

Print Assumptions C62_answers.
Print Assumptions C62_times.
Print Assumptions C62_between.
Print Assumptions C62_precheck.
Print Assumptions C62_many.
Print Assumptions C62_one.
Print Assumptions C62_number.
Print Assumptions C62_number_refuted.
