(** The method surface (C61): what the fluent calls of [CtorOps], [NeuIntoRegexOps], the projections and
    the operator [!] mean. *)

From Coq Require Import List Arith NArith Bool Lia.
From Verif Require Import Base Text Context Neu Syntax Regex Ctor Api TextProofs Spec Core Obs Laws UnitLaws Units UnitProps
  ApiLaws SeqLaws Samples CtorSpec CursorLaws CtorLaws Maps Methods.
Import ListNotations.

Local Ltac builds n := exists n; split; [vm_compute; reflexivity|discriminate].

(** The longest run of items of the set [P] that starts at item [i] ends at item [j]. *)
Definition RunOf (P : item -> Prop) (w : text) (i j : nat) : Prop :=
  i <= j /\ (forall m, i <= m -> m < j -> exists x, nth_error w m = Some x /\ P x) /\
  (forall x, nth_error w j = Some x -> ~ P x).

Lemma runof_max u w i j : RunOf (UnitSet u) w i j <-> exists n, j = i + n /\ MaxRun (is_match u) w i None n.
Proof.
  split.
  - intros (L & A & B). exists (j - i). split; [lia|]. split; [|split; [auto|right]].
    + intros m Hm. destruct (A (i + m)) as (x & E & P); [lia|lia|]. exists x. split; auto. now apply unit_set.
    + intros x. replace (i + (j - i)) with j by lia. intros E. specialize (B x E). rewrite <- unit_set in B. now apply not_true_is_false.
  - intros (n & -> & A & _ & [B|B]); [discriminate|]. split; [lia|]. split.
    + intros m H1 H2. destruct (A (m - i)) as (x & E & P); [lia|]. replace (i + (m - i)) with m in E by lia.
      exists x. split; auto. now apply unit_set.
    + intros x E. rewrite <- unit_set. rewrite (B x E). discriminate.
Qed.

Section Ws.
  Variable k : kind.
  Variable G : env.
  Hypothesis CE : core_env k G no_skip.
  Variable u : neu.
  Let ws_core : core k G no_skip (PMany0 u CEmpty).
  Proof. repeat constructor. Qed.

  Lemma ws_matches w i b j : i <= length w -> (Matches k G (PMany0 u CEmpty) w i b j <-> b = i /\ RunOf (UnitSet u) w i j).
  Proof. intros H. rewrite many0_run by auto. rewrite runof_max. firstorder. Qed.
  Lemma ws_exists w i : i <= length w -> exists j, j <= length w /\ Matches k G (PMany0 u CEmpty) w i i j.
  Proof.
    intros H. destruct (maxrun_exists (is_match u) w i None) as [n M].
    assert (Q : Matches k G (PMany0 u CEmpty) w i i (i + n)) by (apply many0_run; eauto).
    exists (i + n). split; [apply Q|exact Q].
  Qed.

  (** Behind a pattern. *)
  Lemma skip_after p w i b j : core k G no_skip p -> i <= length w ->
    (Matches k G (PSuffix p (PMany0 u CEmpty)) w i b j <-> exists m, Matches k G p w i b m /\ RunOf (UnitSet u) w m j).
  Proof.
    intros C H. rewrite suffix_ok; auto. split.
    - intros (m & b' & A & B). exists m. split; auto. apply ws_matches in B; [apply B|]. now apply matches_in in A.
    - intros (m & A & B). exists m, m. split; auto. apply ws_matches; [|auto]. now apply matches_in in A.
  Qed.
  Lemma skip_after_err p w i e : core k G no_skip p -> i <= length w ->
    (Fails k G (PSuffix p (PMany0 u CEmpty)) w i e <-> Fails k G p w i e).
  Proof.
    intros C H. rewrite suffix_err; auto. split; auto.
    intros [F|(b & m & A & B)]; auto. apply many0_total in B; [easy|auto|]. now apply matches_in in A.
  Qed.
  Lemma skip_before p w i b j : core k G no_skip p -> i <= length w ->
    (Matches k G (PPrefix p (PMany0 u CEmpty)) w i b j <->
     b = i /\ exists m b', RunOf (UnitSet u) w i m /\ Matches k G p w m b' j).
  Proof.
    intros C H. rewrite prefix_ok; auto. split.
    - intros (m & b' & A & B). apply ws_matches in A as [-> A]; auto. split; auto. exists m, b'. auto.
    - intros (-> & m & b' & A & B). exists m, b'. split; auto. now apply ws_matches.
  Qed.
  Lemma skip_before_err p w i e : core k G no_skip p -> i <= length w ->
    (Fails k G (PPrefix p (PMany0 u CEmpty)) w i e <-> exists m, RunOf (UnitSet u) w i m /\ Fails k G p w m e).
  Proof.
    intros C H. rewrite prefix_err; auto. split.
    - intros [F|(b & m & A & B)]; [now apply many0_total in F|]. apply ws_matches in A as [-> A]; eauto.
    - intros (m & A & B). right. exists i, m. split; auto. now apply ws_matches.
  Qed.
  Lemma skip_builds {S} (h : handler S) p w i st v m st' j : m <= length w ->
    Builds h G [] p (cx k w i) st (Ok v) (cx k w m) st' -> RunOf (UnitSet u) w m j ->
    Builds h G [] (PSuffix p (PMany0 u CEmpty)) (cx k w i) st (Ok v) (cx k w j) st'.
  Proof.
    intros H B R. assert (M : Matches k G (PMany0 u CEmpty) w m m j) by now apply ws_matches.
    destruct M as (_ & _ & n & M).
    apply (suffix_builds h G [] p (PMany0 u CEmpty) (cx k w i) st (Ok [v]) (cx k w j) st').
    change (Ok [v]) with (cons_res v (Ok [])). eapply parts_build; eauto. eapply parts_match; [|constructor].
    exists n. split; eauto. discriminate.
  Qed.
  Lemma skip_builds_err {S} (h : handler S) p w i st e c' st' :
    Builds h G [] p (cx k w i) st (Err e) c' st' ->
    Builds h G [] (PSuffix p (PMany0 u CEmpty)) (cx k w i) st (Err e) (at_off (bo k w i) c') st'.
  Proof.
    intros B. apply (suffix_builds h G [] p (PMany0 u CEmpty) (cx k w i) st (Err e) c' st'). now apply parts_build_err.
  Qed.
  Lemma lead_builds {S} (h : handler S) p w i m st r c' st' : i <= length w -> RunOf (UnitSet u) w i m -> r <> OOF ->
    Builds h G [] p (cx k w m) st r c' st' ->
    Builds h G [] (PPrefix p (PMany0 u CEmpty)) (cx k w i) st r (match r with Err _ => at_off (bo k w i) c' | _ => c' end) st'.
  Proof.
    intros H R O B. assert (M : Matches k G (PMany0 u CEmpty) w i i m) by now apply ws_matches.
    destruct M as (_ & _ & n & M). assert (M' : Returns G [] (PMany0 u CEmpty) (cx k w i) (Ok (sp k w i m)) (cx k w m)) by (exists n; split; auto; discriminate).
    destruct r as [v|e| |]; [| | |congruence].
    - apply (prefix_builds h G [] p (PMany0 u CEmpty) (cx k w i) st (Ok [v]) c' st').
      eapply parts_match; eauto. change (Ok [v]) with (cons_res v (Ok [])). eapply parts_build; eauto. constructor.
    - apply (prefix_builds h G [] p (PMany0 u CEmpty) (cx k w i) st (Err e) c' st').
      eapply parts_match; eauto. now apply parts_build_err.
    - apply (prefix_builds h G [] p (PMany0 u CEmpty) (cx k w i) st Panic c' st').
      eapply parts_match; eauto. now apply parts_build_panic.
  Qed.
End Ws.

(** ** C61 *)

(** [p.skip_ws()], [p.skip_ascii_ws()]: [p], then the whole run of white space behind it.  It fails
    exactly where [p] fails. *)
Theorem C61_skip_ws : forall k G, core_env k G no_skip -> forall p, core k G no_skip p -> forall w i b j, i <= length w ->
  (Matches k G (m_skip_ws p) w i b j <-> exists m, Matches k G p w i b m /\ RunOf (UnitSet NWhitespace) w m j) /\
  (Matches k G (m_skip_ascii_ws p) w i b j <-> exists m, Matches k G p w i b m /\ RunOf (UnitSet NAsciiWhitespace) w m j).
Proof. intros. split; now apply skip_after. Qed.
Theorem C61_skip_ws_err : forall k G, core_env k G no_skip -> forall p, core k G no_skip p -> forall w i e, i <= length w ->
  (Fails k G (m_skip_ws p) w i e <-> Fails k G p w i e) /\ (Fails k G (m_skip_ascii_ws p) w i e <-> Fails k G p w i e).
Proof. intros. split; now apply skip_after_err. Qed.

(** [p.skip_ws_leading()], [p.skip_ascii_ws_leading()]: the whole run of white space at the cursor,
    then [p]; the span starts with the white space.  On failure the cursor is back in front of it. *)
Theorem C61_leading : forall k G, core_env k G no_skip -> forall p, core k G no_skip p -> forall w i b j, i <= length w ->
  (Matches k G (m_skip_ws_leading p) w i b j <->
   b = i /\ exists m b', RunOf (UnitSet NWhitespace) w i m /\ Matches k G p w m b' j) /\
  (Matches k G (m_skip_ascii_ws_leading p) w i b j <->
   b = i /\ exists m b', RunOf (UnitSet NAsciiWhitespace) w i m /\ Matches k G p w m b' j).
Proof. intros. split; now apply skip_before. Qed.
Theorem C61_leading_err : forall k G, core_env k G no_skip -> forall p, core k G no_skip p -> forall w i e, i <= length w ->
  (Fails k G (m_skip_ws_leading p) w i e <-> exists m, RunOf (UnitSet NWhitespace) w i m /\ Fails k G p w m e) /\
  (Fails k G (m_skip_ascii_ws_leading p) w i e <-> exists m, RunOf (UnitSet NAsciiWhitespace) w i m /\ Fails k G p w m e).
Proof. intros. split; now apply skip_before_err. Qed.

(** The run is there for every text and is unique: these calls cut the text in one way only. *)
Theorem C61_run : forall u w i, i <= length w ->
  exists j, j <= length w /\ RunOf (UnitSet u) w i j /\ forall j', RunOf (UnitSet u) w i j' -> j' = j.
Proof.
  intros u w i H. assert (CE : core_env KBytes [] no_skip) by apply sample_env_core.
  destruct (ws_exists KBytes [] CE u w i H) as (j & L & M). apply ws_matches in M as [_ M]; auto. exists j. split; auto. split; auto.
  intros j' M'. apply runof_max in M as (n & -> & M), M' as (n' & -> & M'). f_equal. eapply maxrun_det; eauto.
Qed.

(** Building: the value of [p], untouched by the white space, whatever [p] is. *)
Theorem C61_skip_ws_value : forall k G, core_env k G no_skip -> forall S (h : handler S) p w i st v m st' j, m <= length w ->
  Builds h G [] p (cx k w i) st (Ok v) (cx k w m) st' ->
  (RunOf (UnitSet NWhitespace) w m j -> Builds h G [] (m_skip_ws p) (cx k w i) st (Ok v) (cx k w j) st') /\
  (RunOf (UnitSet NAsciiWhitespace) w m j -> Builds h G [] (m_skip_ascii_ws p) (cx k w i) st (Ok v) (cx k w j) st').
Proof. intros. split; intros; eapply skip_builds; eauto. Qed.
Theorem C61_leading_value : forall k G, core_env k G no_skip -> forall S (h : handler S) p w i m st r c' st', i <= length w ->
  Builds h G [] p (cx k w m) st r c' st' ->
  let back := match r with Err _ => at_off (bo k w i) c' | _ => c' end in
  (RunOf (UnitSet NWhitespace) w i m -> Builds h G [] (m_skip_ws_leading p) (cx k w i) st r back st') /\
  (RunOf (UnitSet NAsciiWhitespace) w i m -> Builds h G [] (m_skip_ascii_ws_leading p) (cx k w i) st r back st').
Proof. intros k G CE S h p w i m st r c' st' H B back. split; intros; apply (lead_builds k G CE) with (m := m); auto; now destruct B as (? & _ & ?). Qed.

(** [_0], [_1], [_eq] of [then], [sep_once], [if_then] and the dynamic [then]: all parts run; then one
    component is kept, or the pair if its components are equal.  A rejected pair leaves the cursor
    behind it. *)
Theorem C61_projections : forall S (h : handler S) G pols q c s a b c' s' eqb, Builds h G pols q c s (Ok (VPair a b)) c' s' ->
  Builds h G pols (m_0 q) c s (Ok a) c' s' /\ Builds h G pols (m_1 q) c s (Ok b) c' s' /\
  Builds h G pols (m_eq eqb q) c s (if eqb a b then Ok (VPair a b) else Err ESelectEq) c' s'.
Proof.
  intros S h G pols q c s a b c' s' eqb B. split; [|split].
  - now apply (map_builds_ok h G pols q (try_map (select0 0)) c s (VPair a b)).
  - now apply (map_builds_ok h G pols q (try_map (select1 0)) c s (VPair a b)).
  - change (if eqb a b then Ok (VPair a b) else Err ESelectEq) with (try_map (select_eq eqb 0) (VPair a b)).
    apply map_builds_ok; auto. cbn. now destruct (eqb a b).
Qed.
Theorem C61_then : forall S (h : handler S) G pols p q c s a c1 s1 b c' s',
  Builds h G pols p c s (Ok a) c1 s1 -> Builds h G pols q c1 s1 (Ok b) c' s' ->
  Builds h G pols (m_0 (PThen p q)) c s (Ok a) c' s' /\ Builds h G pols (m_1 (PThen p q)) c s (Ok b) c' s'.
Proof.
  intros S h G pols p q c s a c1 s1 b c' s' A B.
  assert (T : Builds h G pols (PThen p q) c s (Ok (VPair a b)) c' s').
  { apply (then_builds h G pols p q c s (Ok [a; b]) c' s').
    change (Ok [a; b]) with (cons_res a (cons_res b (Ok []))). eapply parts_build; eauto. eapply parts_build; eauto. constructor. }
  destruct (C61_projections _ _ _ _ _ _ _ _ _ _ _ (fun _ _ => true) T) as (H1 & H2 & _). auto.
Qed.

(** [map_to] puts a mapper in the place of the old one: the old one is not applied.  Two [map]s do
    compose. *)
Theorem C61_map_to : forall S (h : handler S) G pols p old new c s v c' s', try_map new v <> OOF ->
  Builds h G pols p c s (Ok v) c' s' -> Builds h G pols (m_map_to p old new) c s (try_map new v) c' s'.
Proof. intros. now apply map_builds_ok. Qed.
Theorem C61_map_map : forall S (h : handler S) G pols p f g c s v c' s', Builds h G pols p c s (Ok v) c' s' ->
  Builds h G pols (m_map (m_map p f) g) c s (Ok (g (f v))) c' s'.
Proof.
  intros S h G pols p f g c s v c' s' B.
  apply (map_builds_ok h G pols (m_map p f) (try_map (func_mapper 0 g)) c s (f v)); [discriminate|].
  apply (map_builds_ok h G pols p (try_map (func_mapper 0 f)) c s v); [discriminate|auto].
Qed.

(** [p.if_else(test, q)] is [p] where the test holds and [q] where it does not. *)
Theorem C61_if_else : forall S (h : handler S) G pols test p q c s b r c1 s1, test c = Ok b ->
  Builds h G pols (if b : bool then p else q) c s r c1 s1 ->
  Builds h G pols (m_if_else p test q) c s r (match r with Err _ => at_off (c_off c) c1 | _ => c1 end) s1.
Proof. intros. now apply branch_builds with (b := b). Qed.

(** [!p] on a pattern looks ahead: it matches the empty text exactly where [p] fails. *)
Theorem C61_not : forall k G, core_env k G no_skip -> forall p, core k G no_skip p -> forall w i b j, i <= length w ->
  (Matches k G (m_not p) w i b j <-> b = i /\ j = i /\ exists e, Fails k G p w i e) /\
  (Matches k G (m_not (m_not p)) w i b j <-> b = i /\ j = i /\ exists b' j', Matches k G p w i b' j').
Proof.
  intros k G CE p C w i b j H. assert (C' : core k G no_skip (m_not p)) by now constructor. split.
  - now apply (peek_ok k G CE p false).
  - unfold m_not. rewrite (peek_ok k G CE (PAssert p false) false) by auto. split.
    + intros (-> & -> & e & F). apply peek_err in F; auto. tauto.
    + intros (-> & -> & b' & j' & M). repeat split. exists EAssertFalse. apply peek_err; eauto.
Qed.
(** [u.or(v)] takes an item of [u] or of [v], [u.and(v)] one of both. *)
Theorem C61_or_and : forall k G, core_env k G no_skip -> forall u v w i b j, i <= length w ->
  (Matches k G (POnce (u_or u v) CEmpty) w i b j <->
   b = i /\ j = i + 1 /\ exists x, nth_error w i = Some x /\ (UnitSet u x \/ UnitSet v x)) /\
  (Matches k G (POnce (u_and u v) CEmpty) w i b j <->
   b = i /\ j = i + 1 /\ exists x, nth_error w i = Some x /\ UnitSet u x /\ UnitSet v x).
Proof.
  intros k G CE u v w i b j H. split; rewrite once_run by auto.
  all: split; intros (-> & -> & x & E & X); repeat split; exists x; split; auto; cbn [u_or u_and is_match] in *;
    rewrite <- ?unit_set in *; rewrite ?orb_true_iff, ?andb_true_iff in *; exact X.
Qed.
Example C61_or_and_case :
  Matches KStr [] (POnce (u_or NAsciiDigit (NChar 46%N)) CEmpty) [46]%N 0 0 1 /\
  Matches KStr [] (POnce (u_and NAsciiAlphanumeric NAsciiDigit) CEmpty) [55]%N 0 0 1 /\
  Fails KStr [] (POnce (u_and NAsciiAlphanumeric NAsciiDigit) CEmpty) [97]%N 0 EOnce.
Proof. split; [matches 3|]. split; [matches 3|fails 3]. Qed.
(** [!u] on a unit is the complement.  So [(!u).once()] takes an item outside of [u], whereas
    [!(u.once())] takes nothing, and holds at the end of the text too. *)
Theorem C61_not_unit : forall k G, core_env k G no_skip -> forall u w i b j, i <= length w ->
  (Matches k G (POnce (u_not u) CEmpty) w i b j <-> b = i /\ j = i + 1 /\ exists x, nth_error w i = Some x /\ ~ UnitSet u x) /\
  (Matches k G (m_not (POnce u CEmpty)) w i b j <-> b = i /\ j = i /\ forall x, nth_error w i = Some x -> ~ UnitSet u x).
Proof.
  intros k G CE u w i b j H. split.
  - rewrite once_run by auto. split; intros (-> & -> & x & E & X); repeat split; exists x; split; auto; cbn [u_not is_match] in *.
    + rewrite <- unit_set. destruct (is_match u x); [discriminate|easy].
    + rewrite <- unit_set in X. destruct (is_match u x); [now elim X|reflexivity].
  - unfold m_not. rewrite (peek_ok k G CE (POnce u CEmpty) false) by (auto; constructor; constructor). split.
    + intros (-> & -> & e & F). repeat split. intros x E. apply once_fails in F as [_ F]; auto. rewrite <- unit_set, (F x E). discriminate.
    + intros (-> & -> & F). repeat split. exists EOnce. apply once_fails; auto. split; auto. intros x E. specialize (F x E).
      rewrite <- unit_set in F. now apply not_true_is_false.
Qed.

(** [count], [at_least], [at_most]: exactly that many items, with no look at the next one; the whole
    run if it is long enough; the run cut off. *)
Theorem C61_count : forall k G, core_env k G no_skip -> forall u, honest k u -> forall n w i b j, i <= length w ->
  (Matches k G (q_count n u) w i b j <->
   b = i /\ j = i + n /\ forall m, i <= m -> m < j -> exists x, nth_error w m = Some x /\ UnitSet u x) /\
  (Matches k G (q_at_least n u) w i b j <-> b = i /\ i + n <= j /\ RunOf (UnitSet u) w i j) /\
  (Matches k G (q_at_most n u) w i b j <->
   b = i /\ exists m, RunOf (UnitSet u) w i m /\ j = Nat.min m (i + n)).
Proof.
  intros k G CE u Hu n w i b j H. unfold q_count, q_at_least, q_at_most, q_between. rewrite !between_run by auto. split; [|split].
  - split.
    + intros (-> & t & -> & (A & B & _) & L). assert (t = n) by lia. subst t. repeat split. intros m H1 H2.
      destruct (A (m - i)) as (x & E & X); [lia|]. replace (i + (m - i)) with m in E by lia. exists x. now rewrite <- unit_set.
    + intros (-> & -> & A). split; auto. exists n. split; auto. split; [|auto]. split; [|split; [auto|now left]].
      intros m Hm. destruct (A (i + m)) as (x & E & X); [lia|lia|]. exists x. now rewrite unit_set.
  - rewrite runof_max. split.
    + intros (-> & t & -> & M & L). repeat split; [lia|eauto].
    + intros (-> & L & t & -> & M). split; auto. exists t. repeat split; try apply M. lia.
  - assert (U : forall m, MaxRun (is_match u) w i None m -> MaxRun (is_match u) w i (Some n) (Nat.min m n)).
    { intros m (A & _ & [B|B]); [discriminate|]. split; [|split; [lia|]].
      - intros x Hx. apply A. lia.
      - destruct (Nat.le_gt_cases n m) as [L|L]; [left; f_equal; lia|]. right. replace (Nat.min m n) with m by lia. exact B. }
    split.
    + intros (-> & t & -> & M & _). split; auto. destruct (maxrun_exists (is_match u) w i None) as [m M'].
      exists (i + m). split; [apply runof_max; eauto|]. rewrite (maxrun_det _ _ _ _ _ _ M (U m M')). lia.
    + intros (-> & m & M & ->). split; auto. apply runof_max in M as (t & -> & M). exists (Nat.min t n). split; [lia|]. split; [auto|lia].
Qed.

(** [times(range)] accepts every range that contains a number, and what it refuses (with debug
    assertions) contains none. *)
Theorem C61_times : forall r u,
  ((exists n, InRange r n) -> q_times r u = Ok (PTimes r u CEmpty)) /\
  (q_times r u = Panic -> forall n, ~ InRange r n).
Proof.
  assert (E : forall r, crange_is_empty r = true -> forall n, ~ InRange r n).
  { intros [[a|a|] [b|b|]] E n (A & B); cbn in *; try discriminate; apply negb_true_iff in E.
    - apply Nat.leb_gt in E. lia.
    - apply Nat.ltb_ge in E. lia.
    - apply Nat.ltb_ge in E. lia.
    - apply Nat.ltb_ge in E. lia. }
  intros r u. unfold q_times. split.
  - intros [n N]. destruct (crange_is_empty r) eqn:X; auto. elim (E r X n N).
  - destruct (crange_is_empty r) eqn:X; [|discriminate]. intros _. now apply E.
Qed.
(** The only empty range it lets through is [..0]. *)
Theorem C61_times_empty : forall r u, (forall n, ~ InRange r n) -> q_times r u = Panic \/ r = CRange Unb (Excl 0).
Proof.
  intros [lo hi] u E. unfold q_times, crange_is_empty. cbn [r_lo r_hi].
  destruct lo as [a|a|], hi as [b|b|].
  - destruct (Nat.leb_spec a b); cbn; auto. elim (E a). split; cbn; auto; lia.
  - destruct (Nat.ltb_spec a b); cbn; auto. elim (E a). split; cbn; auto; lia.
  - elim (E a). split; cbn; auto; lia.
  - destruct (Nat.ltb_spec a b); cbn; auto. elim (E (a + 1)). split; cbn; auto; lia.
  - destruct (Nat.ltb_spec (a + 1) b); cbn; auto. elim (E (a + 1)). split; cbn; auto; lia.
  - elim (E (a + 1)). split; cbn; auto; lia.
  - elim (E b). split; cbn; auto; lia.
  - destruct b as [|b]; auto. elim (E b). split; cbn; auto; lia.
  - elim (E 0). split; cbn; auto; lia.
Qed.
Theorem C61_times_refuted : exists r, (forall n, ~ InRange r n) /\ forall u, q_times r u = Ok (PTimes r u CEmpty).
Proof. exists (CRange Unb (Excl 0)). split; [intros n [_ H]; cbn in H; lia|reflexivity]. Qed.
(** A pattern with an empty range never matches; it fails. *)
Theorem C61_times_never : forall k G, core_env k G no_skip -> forall r u, honest k u -> (forall n, ~ InRange r n) ->
  forall w i, i <= length w -> Fails k G (PTimes r u CEmpty) w i ETimes.
Proof.
  intros k G CE r u Hu E w i H. apply times_fails; auto. split; auto.
  destruct (maxrun_exists (is_match u) w i (cap r)) as [t M]. exists t. auto.
Qed.

(** [ab  c] (two spaces), from the start and from the first space; a pair; the units. *)
Definition t_ws : text := [97; 98; 32; 32; 99]%N.
Example C61_case :
  core_env KStr [] no_skip /\ core KStr [] no_skip word /\
  Matches KStr [] word t_ws 0 0 2 /\ RunOf (UnitSet NWhitespace) t_ws 2 4 /\
  Matches KStr [] (m_skip_ws word) t_ws 0 0 4 /\ Matches KStr [] (m_skip_ws_leading word) t_ws 2 2 5 /\
  Builds extract_text [] [] (m_skip_ws_leading (PPat word)) (cx KStr t_ws 2) tt (Ok (VText [99]%N)) (cx KStr t_ws 5) tt /\
  Builds extract_text [] [] (m_1 (PThen (m_skip_ws (PPat word)) (PPat word))) (cx KStr t_ws 0) tt (Ok (VText [99]%N)) (cx KStr t_ws 5) tt /\
  Fails KStr [] (m_skip_ws_leading comma) t_ws 2 ELiteral /\
  Matches KStr [] (m_not comma) t_ws 0 0 0 /\ honest KStr NWord /\ Matches KStr [] (q_count 1 NWord) t_ws 0 0 1 /\
  InRange (CRange (Excl 0) (Excl 2)) 1 /\ q_times (CRange (Excl 1) (Excl 2)) NWord = Panic.
Proof.
  split; [apply sample_env_core|]. split; [shape|]. split; [matches 9|]. split.
  { apply runof_max. exists 2. split; auto. split; [|split; [auto|right]].
    - intros [|[|m]] Hm; [exists 32%N; split; reflexivity|exists 32%N; split; reflexivity|lia].
    - intros x E. cbn in E. injection E as <-. reflexivity. }
  split; [matches 9|]. split; [matches 9|]. split; [builds 9|]. split; [builds 9|]. split; [fails 9|]. split; [matches 9|].
  split; [now apply plain_honest|]. split; [matches 9|]. split; [split; cbn; lia|reflexivity].
Qed.

Print Assumptions C61_skip_ws.
Print Assumptions C61_skip_ws_err.
Print Assumptions C61_leading.
Print Assumptions C61_leading_err.
Print Assumptions C61_run.
Print Assumptions C61_skip_ws_value.
Print Assumptions C61_leading_value.
Print Assumptions C61_projections.
Print Assumptions C61_then.
Print Assumptions C61_map_to.
Print Assumptions C61_map_map.
Print Assumptions C61_if_else.
Print Assumptions C61_not.
Print Assumptions C61_or_and.
Print Assumptions C61_not_unit.
Print Assumptions C61_count.
Print Assumptions C61_times.
Print Assumptions C61_times_empty.
Print Assumptions C61_times_refuted.
Print Assumptions C61_times_never.
