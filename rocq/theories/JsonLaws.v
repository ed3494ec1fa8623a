(** The grammar of examples/json.rs accepts exactly the spellings of Json.v and builds their values. *)

From Coq Require Import List Arith NArith ZArith Bool Lia.
From Verif Require Import Base Text Context Neu Syntax Regex Ctor Api TextProofs Spec Core Sound Obs Laws PegLaws
  Consumes Term TermLaws CtorShape CtorSpec CtorLaws Lang PolicyLaws UnitProps CtorSound Samples RecLaws Json.
Import ListNotations.

(** The aliases of [N] and [list N] get in the way of [lia]. *)
Ltac nia' := unfold item, text in *; lia.
Tactic Notation "rw" constr(E) := unfold item, text in *; rewrite E.

(** ** Pieces of text *)

Lemma skipn_cons_inv (w : text) i x r : skipn i w = x :: r -> nth_error w i = Some x /\ skipn (S i) w = r /\ i < length w.
Proof.
  intros E. pose proof (nth_at w [] r i x E) as N1. pose proof (skipn_at w [x] r i E) as S1.
  cbn [length] in *. rewrite Nat.add_0_r in N1. rewrite Nat.add_1_r in S1. split; [exact N1|]. split; [exact S1|].
  eapply nth_some; eauto.
Qed.
Lemma skipn_nil_inv (w : text) i : skipn i w = [] -> length w <= i.
Proof. intros E. pose proof (f_equal (@length item) E) as L. rewrite skipn_length in L. cbn in L. lia. Qed.
Lemma skipn_app_len (w : text) i s t : skipn i w = s ++ t -> i <= length w -> i + length s <= length w.
Proof. intros E Hi. pose proof (f_equal (@length item) E) as L. rewrite skipn_length, app_length in L. lia. Qed.
Lemma slice_at (w : text) i s t : skipn i w = s ++ t -> slice w i (i + length s) = s.
Proof.
  intros E. unfold slice. rewrite E. replace (i + length s - i) with (length s) by lia.
  rewrite firstn_app, firstn_all, Nat.sub_diag. cbn. apply app_nil_r.
Qed.
Lemma skipn_slice (w : text) i j : i <= j -> j <= length w -> skipn i w = slice w i j ++ skipn j w.
Proof.
  intros H1 H2. unfold slice. replace (skipn j w) with (skipn (j - i) (skipn i w)); [symmetry; apply firstn_skipn|].
  rewrite <- skipn_add. f_equal. lia.
Qed.

Fixpoint runlen (f : item -> bool) (r : text) : nat :=
  match r with [] => 0 | x :: r => if f x then S (runlen f r) else 0 end.
(** The first item, if any, fails [f]. *)
Definition stops (f : item -> bool) (r : text) : Prop := match r with [] => True | x :: _ => f x = false end.
Lemma runlen_app f s t : all f s -> stops f t -> runlen f (s ++ t) = length s.
Proof.
  induction s as [|x s IH]; intros A S.
  - destruct t as [|y t]; [reflexivity|]. cbn in *. now rewrite S.
  - cbn. rewrite (A x); [|now left]. f_equal. apply IH; [|exact S]. intros y I. apply A. now right.
Qed.
Lemma runlen_0 f r : stops f r -> runlen f r = 0.
Proof. destruct r as [|x r]; intros S; [reflexivity|]. cbn in *. now rewrite S. Qed.
Lemma all_app f s t : all f (s ++ t) <-> all f s /\ all f t.
Proof.
  unfold all. split.
  - intros H. split; intros x I; apply H, in_or_app; auto.
  - intros [H1 H2] x I. apply in_app_or in I as [I|I]; auto.
Qed.
Lemma all_ext f g s : (forall x, f x = g x) -> all f s -> all g s.
Proof. intros E A x I. rewrite <- E. auto. Qed.

(** ** The length of a string body *)
Fixpoint bodylen (r : text) : nat :=
  match r with
  | [] => 0
  | c :: r1 =>
      if N.eqb c 34 then 0
      else if N.eqb c 92 then
        match r1 with
        | e :: r2 => if escaped e then S (S (bodylen r2)) else S (bodylen r1)
        | [] => 1
        end
      else S (bodylen r1)
  end.
Lemma bodylen_le r : bodylen r <= length r.
Proof.
  assert (H : forall n r, length r <= n -> bodylen r <= length r); [|eauto].
  clear. induction n as [|n IH]; intros [|c r] L; cbn [bodylen length] in *; try lia.
  destruct (N.eqb c 34); [lia|]. destruct (N.eqb c 92).
  - destruct r as [|e r]; [cbn; lia|]. cbn [length] in *. destruct (escaped e); [|]; cbn [length];
    [pose proof (IH r ltac:(lia))|pose proof (IH (e :: r) ltac:(cbn; lia)) as X; cbn [length] in X]; lia.
  - pose proof (IH r ltac:(lia)). lia.
Qed.
Lemma body_len s t : Body s -> bodylen (s ++ 34%N :: t) = length s.
Proof.
  induction 1 as [|e s E B IH|c s N1 N2 B IH|e s E B IH]; cbn [app].
  - reflexivity.
  - cbn [bodylen length]. change (N.eqb 92 34) with false. change (N.eqb 92 92) with true. cbn iota. rewrite E. now rewrite IH.
  - cbn [bodylen length]. apply N.eqb_neq in N1, N2. rewrite N1, N2. now rewrite IH.
  - cbn [app] in IH. remember (e :: s ++ 34%N :: t) as r eqn:Er. cbn [bodylen]. change (N.eqb 92 34) with false. change (N.eqb 92 92) with true. cbn iota.
    rewrite Er at 1. rewrite E, IH. reflexivity.
Qed.
Lemma len_body r n : bodylen r = n -> nth_error r n = Some 34%N -> Body (firstn n r).
Proof.
  assert (H : forall m r n, length r <= m -> bodylen r = n -> nth_error r n = Some 34%N -> Body (firstn n r)); [|eauto].
  clear. induction m as [|m IH]; intros [|c r] n L E Q.
  - destruct n; discriminate.
  - cbn in L. lia.
  - destruct n; discriminate.
  - cbn [length] in L. cbn [bodylen] in E. destruct (N.eqb_spec c 34) as [->|C1].
    + subst n. constructor.
    + destruct (N.eqb_spec c 92) as [->|C2].
      * destruct r as [|e r]; [subst n; discriminate|]. destruct (escaped e) eqn:Ee.
        -- subst n. cbn [firstn]. apply body_escape; [exact Ee|]. apply IH; [cbn in L; lia|reflexivity|exact Q].
        -- destruct n as [|n]; [discriminate|]. injection E as E. cbn [nth_error] in Q. cbn [firstn].
           destruct n as [|n].
           ++ cbn in Q. injection Q as ->. discriminate Ee.
           ++ cbn [firstn]. apply body_backslash; [exact Ee|]. apply (IH (e :: r) (S n)); [lia|exact E|exact Q].
      * destruct n as [|n]; [discriminate|]. injection E as E. cbn [firstn]. apply body_char; auto. apply IH; [lia|exact E|exact Q].
Qed.
(** The bytes a chunk of the body takes: up to a quote or an escape. *)
Fixpoint chunklen (r : text) : nat :=
  match r with
  | [] => 0
  | c :: r1 =>
      if N.eqb c 34 then 0
      else if N.eqb c 92 then match r1 with e :: _ => if escaped e then 0 else S (chunklen r1) | [] => 1 end
      else S (chunklen r1)
  end.
Lemma chunk_body r : bodylen r = chunklen r + bodylen (skipn (chunklen r) r).
Proof.
  induction r as [|c r IH]; [reflexivity|]. cbn [bodylen chunklen].
  destruct (N.eqb_spec c 34) as [->|C1]; [reflexivity|].
  assert (X : S (bodylen r) = S (chunklen r) + bodylen (skipn (S (chunklen r)) (c :: r))) by (cbn [skipn]; rewrite IH at 1; reflexivity).
  destruct (N.eqb_spec c 92) as [->|C2]; [|exact X].
  destruct r as [|e r]; [reflexivity|]. destruct (escaped e) eqn:Ee; [|exact X].
  cbn [skipn Nat.add bodylen]. change (N.eqb 92 34) with false. change (N.eqb 92 92) with true. cbn iota. now rewrite Ee.
Qed.
Lemma chunk_le r : chunklen r <= length r.
Proof.
  induction r as [|c r IH]; [apply le_n|]. cbn [chunklen length]. destruct (N.eqb c 34); [lia|]. destruct (N.eqb c 92); [|lia].
  destruct r as [|e r]; [cbn; lia|]. destruct (escaped e); lia.
Qed.

(** ** The character classes *)
Lemma bool_iff (a b : bool) : (a = true <-> b = true) -> a = b.
Proof. destruct a, b; intros [H1 H2]; auto. symmetry. auto. Qed.
Definition is_space : item -> bool := fun x => existsb (N.eqb x) [32; 9; 10; 12; 13]%N.
Lemma space_class x : is_match NAsciiWhitespace x = is_space x.
Proof. apply bool_iff. rewrite unit_set. unfold is_space. rewrite existsb_In. reflexivity. Qed.
Lemma digit_class x : is_match (NRange (Incl 48%N) (Incl 57%N)) x = dec_digit x.
Proof. reflexivity. Qed.
Lemma escaped_class x : is_match j_escaped x = escaped x.
Proof.
  apply bool_iff. rewrite unit_set. unfold escaped. rewrite existsb_In. cbn [j_escaped UnitSet In].
  split; intros H; repeat destruct H as [H|H]; auto 8; contradiction.
Qed.
Lemma quote_class x : is_match (NNot (NChar 34%N)) x = negb (N.eqb x 34).
Proof. cbn [is_match]. now rewrite N.eqb_sym. Qed.
Lemma key_class x : is_match j_keychars x = key_char x.
Proof.
  cbn [is_match j_keychars]. unfold key_char, dec_digit, is_ascii_alpha, is_ascii_digit, is_ascii_lower, is_ascii_upper, between_N.
  apply bool_iff. rewrite (N.eqb_sym 95). rewrite !orb_true_iff, !andb_true_iff. intuition discriminate.
Qed.

(** ** The leaves, over any environment and any spelling of the two unit classes that the JSON grammars
    of the project write differently. *)
Definition is_sign (x : item) : bool := N.eqb x 43 || N.eqb x 45.
Definition l_escape_ (esc : neu) : pat := PNeuThen (NChar 92%N) esc CEmpty.
Definition l_chunk_ (esc : neu) : pat := PMany1 (NNot (NChar 34%N)) (CRegex (PAssert (l_escape_ esc) false)).
Definition l_body_ (esc : neu) : pat := PRepeat (POr (l_chunk_ esc) (l_escape_ esc)) (CRange (Incl 0%nat) Unb).
Definition l_sign_ (sgn : neu) : pat := POpt sgn CEmpty.
Definition l_numeral_ (sgn : neu) : pat := PThen (PThen (l_sign_ sgn) j_digits) (POr j_dec PEmpty).

Section Leaves.
  Variable G : env.
  Notation Peg := (Peg KBytes G no_skip).
  Notation Acc := (Acc KBytes G no_skip).
  Notation Chk := (Chk KBytes G no_skip).
  Notation Run := (Run KBytes G no_skip).
  Notation Reps := (Reps KBytes G no_skip).

  Lemma acc_at u w i m x r : skipn (i + m) w = x :: r -> Acc w i u CEmpty m (inl (is_match u x)).
  Proof.
    intros E. apply skipn_cons_inv in E as (N1 & _ & _). destruct (is_match u x) eqn:M.
    - eapply Acc_yes; eauto. constructor.
    - eapply Acc_no; eauto.
  Qed.
  Lemma run_at u w i : forall r m, skipn (i + m) w = r -> Run w i u CEmpty None m (inl (runlen (is_match u) r)).
  Proof.
    induction r as [|x r IH]; intros m E; cbn [runlen].
    - apply Run_stop; [discriminate|]. apply Acc_end. now apply skipn_nil_inv.
    - pose proof (acc_at u w i m x r E) as A. destruct (is_match u x) eqn:M.
      + apply Run_step; [discriminate|exact A|]. apply IH. apply skipn_cons_inv in E as (_ & E & _). now rewrite Nat.add_succ_r.
      + apply Run_stop; [discriminate|exact A].
  Qed.
  Lemma leaf_many0_at u w i : Peg w (PMany0 u CEmpty) i (OK i (i + runlen (is_match u) (skipn i w))).
  Proof. apply Peg_many0. apply run_at. now rewrite Nat.add_0_r. Qed.
  Lemma leaf_many1_at u w i n : runlen (is_match u) (skipn i w) = S n -> Peg w (PMany1 u CEmpty) i (OK i (i + S n)).
  Proof. intros E. apply Peg_many1. rewrite <- E. apply run_at. now rewrite Nat.add_0_r. Qed.
  Lemma leaf_many1_ko u w i : runlen (is_match u) (skipn i w) = 0 -> Peg w (PMany1 u CEmpty) i (KO EMany1).
  Proof. intros E. apply Peg_many1_ko. pose proof (run_at u w i (skipn i w) 0 ltac:(now rewrite Nat.add_0_r)) as R. rewrite E in R. exact R. Qed.
  Lemma leaf_lit_at l w i t : skipn i w = l ++ t -> Peg w (PLit l) i (OK i (i + length l)).
  Proof. intros E. apply Peg_lit. rewrite E, firstn_app, firstn_all, Nat.sub_diag. cbn. apply app_nil_r. Qed.
  Lemma leaf_lit_not a l w i : hd_error (skipn i w) <> Some a -> Peg w (PLit (a :: l)) i (KO ELiteral).
  Proof.
    intros E. apply Peg_lit_ko. intros X. apply E. destruct (skipn i w) as [|x r]; [discriminate|]. cbn in X. now injection X as -> _.
  Qed.
  (** White space in front of something else. *)
  Lemma leaf_ws_at w i a t : skipn i w = a ++ t -> spaces a -> stops is_space t -> Peg w j_ws i (OK i (i + length a)).
  Proof.
    intros E A S. pose proof (leaf_many0_at NAsciiWhitespace w i) as H. rewrite E in H.
    rewrite runlen_app in H; [exact H| |].
    - eapply all_ext; [|exact A]. intros x. symmetry. apply space_class.
    - destruct t as [|y t]; [exact I|]. cbn. rewrite space_class. exact S.
  Qed.

  (** *** String bodies *)
  Section Strings.
  Variable esc : neu.
  Hypothesis Hesc : forall x, is_match esc x = escaped x.
  Notation l_escape := (l_escape_ esc).
  Notation l_chunk := (l_chunk_ esc).
  Notation l_body := (l_body_ esc).
  Lemma short_bytes w i n : i <= length w -> too_short KBytes w i n <-> length w < i + n.
  Proof. intros Hi. unfold too_short. rewrite tlen_bytes, bo_bytes by assumption. nia'. Qed.
  Lemma min_bytes u : min_length KBytes u = 1.
  Proof. induction u; cbn; auto; try now rewrite IHu1, IHu2. Qed.
  Lemma escape_at w i e r : skipn i w = 92%N :: e :: r -> Peg w l_escape i (if escaped e then OK i (i + 2) else KO ENeureThen).
  Proof.
    intros E. pose proof (skipn_cons_inv _ _ _ _ E) as (N1 & E1 & L1). pose proof (skipn_cons_inv _ _ _ _ E1) as (N2 & E2 & L2).
    assert (T : ~ too_short KBytes w i (min_length KBytes (NChar 92%N) + min_length KBytes esc)) by (rewrite short_bytes by nia'; rewrite ?min_bytes; cbn; nia').
    assert (A0 : Acc w i (NChar 92%N) CEmpty 0 (inl true)) by (apply (acc_at (NChar 92%N) w i 0 92%N (e :: r)); now rewrite Nat.add_0_r).
    assert (A1 : Acc w i esc CEmpty 1 (inl (escaped e))) by (rewrite <- Hesc; apply (acc_at esc w i 1 e r); now rewrite Nat.add_1_r).
    destruct (escaped e).
    - apply Peg_neuthen; auto; nia'.
    - apply Peg_neuthen_ko2; auto; nia'.
  Qed.
  Lemma escape_not w i : i <= length w -> (hd_error (skipn i w) <> Some 92%N \/ length w < i + 2) -> Peg w l_escape i (KO ENeureThen).
  Proof.
    intros Hi H. destruct (le_lt_dec (i + 2) (length w)) as [L|L].
    - destruct H as [H|H]; [|nia']. apply Peg_neuthen_ko1; [rewrite short_bytes by exact Hi; rewrite ?min_bytes; cbn; nia'|exact L|].
      destruct (skipn i w) as [|x r] eqn:E; [apply skipn_nil_inv in E; nia'|].
      replace false with (is_match (NChar 92%N) x).
      + apply (acc_at _ _ _ _ x r). now rewrite Nat.add_0_r.
      + change ((92 =? x)%N = false). apply N.eqb_neq. intros <-. apply H. reflexivity.
    - apply Peg_neuthen_short. right. exact L.
  Qed.
  Lemma esc_case w i : i <= length w ->
    match skipn i w with
    | c :: e :: _ => Peg w l_escape i (if N.eqb c 92 && escaped e then OK i (i + 2) else KO ENeureThen)
    | _ => Peg w l_escape i (KO ENeureThen)
    end.
  Proof.
    intros Hi. pose proof (f_equal (@length item) (eq_refl (skipn i w))) as L. rewrite skipn_length in L at 1.
    destruct (skipn i w) as [|c [|e r]] eqn:E; cbn [length] in L.
    - apply escape_not; [exact Hi|right; nia'].
    - apply escape_not; [exact Hi|right; nia'].
    - destruct (N.eqb_spec c 92) as [->|C]; cbn [andb].
      + eapply escape_at; eauto.
      + apply escape_not; [exact Hi|left]. unfold item, text in *. rewrite E. cbn. intros [= ->]. auto.
  Qed.
  Lemma chunk_run w i : forall r m, skipn (i + m) w = r -> i + m <= length w ->
    Run w i (NNot (NChar 34%N)) (CRegex (PAssert l_escape false)) None m (inl (chunklen r)).
  Proof.
    induction r as [|c r IH]; intros m E Hm.
    - apply Run_stop; [discriminate|]. apply Acc_end. now apply skipn_nil_inv.
    - pose proof (skipn_cons_inv _ _ _ _ E) as (N1 & E1 & L1). cbn [chunklen].
      destruct (N.eqb_spec c 34) as [->|C1].
      { apply Run_stop; [discriminate|]. eapply Acc_no; eauto. }
      assert (M : is_match (NNot (NChar 34%N)) c = true) by (rewrite quote_class; apply N.eqb_neq in C1; now rewrite C1).
      assert (ES : match r with e :: _ => Peg (c :: r) l_escape 0 (if N.eqb c 92 && escaped e then OK 0 2 else KO ENeureThen)
                   | [] => Peg (c :: r) l_escape 0 (KO ENeureThen) end).
      { pose proof (esc_case (c :: r) 0 ltac:(rewrite ?min_bytes; cbn; nia')) as X. cbn [skipn] in X. destruct r; exact X. }
      assert (YES : forall e', Peg (c :: r) l_escape 0 (KO e') -> Run w i (NNot (NChar 34%N)) (CRegex (PAssert l_escape false)) None m (inl (S (chunklen r)))).
      { intros e' X. apply Run_step; [discriminate| |].
        - eapply Acc_yes; eauto. eapply Chk_regex. rewrite E. unfold no_skip. eapply Peg_not. exact X.
        - apply IH; [now rewrite Nat.add_succ_r|nia']. }
      assert (NO : forall b j, Peg (c :: r) l_escape 0 (OK b j) -> Run w i (NNot (NChar 34%N)) (CRegex (PAssert l_escape false)) None m (inl 0)).
      { intros b j X. apply Run_stop; [discriminate|]. eapply Acc_yes; eauto. eapply Chk_regex_no. rewrite E. unfold no_skip. eapply Peg_not_ko. exact X. }
      destruct (N.eqb c 92) eqn:C2; cbn [andb] in ES.
      + destruct r as [|e r]; [eapply YES; eauto|]. destruct (escaped e); [eapply NO; eauto|eapply YES; eauto].
      + destruct r as [|e r]; eapply YES; eauto.
  Qed.
  Lemma body_reps : forall n w i, length w - i <= n -> i <= length w ->
    exists m, Reps w (POr l_chunk l_escape) None i m (i + bodylen (skipn i w)).
  Proof.
    induction n as [n IH] using lt_wf_ind. intros w i Hn Hi.
    pose proof (chunk_run w i (skipn i w) 0 ltac:(now rewrite Nat.add_0_r) ltac:(nia')) as R.
    rewrite chunk_body. pose proof (chunk_le (skipn i w)) as CL. rewrite skipn_length in CL.
    destruct (chunklen (skipn i w)) as [|c] eqn:C.
    - assert (K : Peg w l_chunk i (KO EMany1)) by (apply Peg_many1_ko; exact R).
      cbn [skipn]. rewrite Nat.add_0_l.
      pose proof (esc_case w i Hi) as ES.
      assert (STOP : forall e, Peg w l_escape i (KO e) -> bodylen (skipn i w) = 0 ->
                exists m, Reps w (POr l_chunk l_escape) None i m (i + bodylen (skipn i w))).
      { intros e X ->. exists 0. rewrite Nat.add_0_r. eapply Reps_stop; [discriminate|]. eapply Peg_or2; eauto. }
      destruct (skipn i w) as [|x [|e r]] eqn:E.
      + eapply STOP; [exact ES|reflexivity].
      + eapply STOP; [exact ES|]. cbn [chunklen bodylen] in *. destruct (N.eqb x 34); [reflexivity|]. destruct (N.eqb x 92); discriminate.
      + cbn [chunklen] in C. destruct (N.eqb_spec x 34) as [->|X1]; [eapply STOP; [exact ES|reflexivity]|].
        destruct (N.eqb_spec x 92) as [->|X2]; [|discriminate]. destruct (escaped e) eqn:Ee; [|discriminate].
        cbn [andb] in ES. pose proof (skipn_cons_inv _ _ _ _ E) as (N1 & E1 & L1). pose proof (skipn_cons_inv _ _ _ _ E1) as (N2 & E2 & L2).
        destruct (IH (length w - (i + 2)) ltac:(nia') w (i + 2) ltac:(nia') ltac:(nia')) as [m R'].
        replace (S (S i)) with (i + 2) in E2 by nia'. rewrite E2 in R'.
        exists (S m). eapply Reps_step; [discriminate| |].
        * eapply Peg_or2; [exact K|exact ES].
        * cbn [bodylen]. change (N.eqb 92 34) with false. change (N.eqb 92 92) with true. cbn iota. rewrite Ee.
          replace (i + S (S (bodylen r))) with (i + 2 + bodylen r) by nia'. exact R'.
    - assert (K : Peg w l_chunk i (OK i (i + S c))) by (apply Peg_many1; exact R).
      destruct (IH (length w - (i + S c)) ltac:(nia') w (i + S c) ltac:(nia') ltac:(nia')) as [m R'].
      rewrite skipn_add in R'. exists (S m). eapply Reps_step; [discriminate|apply Peg_or1; exact K|].
      rewrite Nat.add_assoc. exact R'.
  Qed.
  Lemma leaf_body_at w i : i <= length w -> Peg w l_body i (OK i (i + bodylen (skipn i w))).
  Proof. intros Hi. destruct (body_reps _ w i (le_n _) Hi) as [m R]. eapply Peg_repeat; [exact R|]. reflexivity. Qed.

  End Strings.

  (** *** Numerals *)
  Section Numerals.
  Variable sgn : neu.
  Hypothesis Hsgn : forall x, is_match sgn x = is_sign x.
  Notation l_sign := (l_sign_ sgn).
  Notation l_numeral := (l_numeral_ sgn).
  Definition not_digit (t : text) : Prop := stops dec_digit t.
  Lemma digits_at w i ds t : skipn i w = ds ++ t -> all dec_digit ds -> ds <> [] -> stops dec_digit t ->
    Peg w j_digits i (OK i (i + length ds)).
  Proof.
    intros E A N S. destruct ds as [|d ds]; [congruence|]. cbn [length]. apply leaf_many1_at. rewrite E.
    apply (runlen_app dec_digit (d :: ds) t A S).
  Qed.
  Lemma digits_not w i : stops dec_digit (skipn i w) -> Peg w j_digits i (KO EMany1).
  Proof. intros S. apply leaf_many1_ko. apply (runlen_0 dec_digit _ S). Qed.
  Lemma sign_at w i x t : skipn i w = x :: t -> is_sign x = true -> Peg w l_sign i (OK i (i + 1)).
  Proof.
    intros E S. rewrite Nat.add_1_r. apply Peg_opt. rewrite <- S, <- Hsgn. apply (acc_at _ w i 0 x t). now rewrite Nat.add_0_r.
  Qed.
  Lemma sign_not w i : stops is_sign (skipn i w) -> Peg w l_sign i (OK i i).
  Proof.
    intros S. apply Peg_opt_none. destruct (skipn i w) as [|x t] eqn:E.
    - apply Acc_end. rewrite Nat.add_0_r. now apply skipn_nil_inv.
    - cbn in S. rewrite <- S, <- Hsgn. apply (acc_at _ w i 0 x t). now rewrite Nat.add_0_r.
  Qed.
  Lemma leaf_numeral_at w i s t : skipn i w = s ++ t -> Numeral s -> stops (fun x => dec_digit x || N.eqb x 46) t ->
    Peg w l_numeral i (OK i (i + length s)).
  Proof.
    intros E N S.
    destruct N as [sg ds fr SG DN D FR]. rewrite <- !app_assoc in E.
    assert (T1 : stops dec_digit t) by (destruct t; [exact I|]; cbn in *; now apply orb_false_iff in S).
    assert (T2 : hd_error t <> Some 46%N).
    { destruct t as [|y t]; [discriminate|]. cbn in *. apply orb_false_iff in S as [_ S]. intros [= ->]. discriminate. }
    assert (SS : Peg w l_sign i (OK i (i + length sg))).
    { destruct SG as [->|[->| ->]]; cbn [app length] in *.
      - rewrite Nat.add_0_r. apply sign_not. rewrite E. destruct ds as [|d ds]; [congruence|]. cbn [app stops].
        pose proof (D d (or_introl eq_refl)) as X. unfold dec_digit in X. apply andb_true_iff in X as [X1 X2]. apply N.leb_le in X1, X2.
        unfold is_sign. apply orb_false_iff. split; apply N.eqb_neq; nia'.
      - eapply sign_at; [exact E|reflexivity].
      - eapply sign_at; [exact E|reflexivity]. }
    pose proof (skipn_at _ _ _ _ E) as E1. pose proof (skipn_at _ _ _ _ E1) as E2.
    rewrite !app_length.
    destruct FR as [->|(f & -> & FN & FD)].
    - cbn [app length] in *. 
      eapply Peg_then; [eapply Peg_then; [exact SS|unfold no_skip; eapply digits_at; eauto]|]. unfold no_skip.
      replace (i + (length sg + (length ds + 0))) with (i + length sg + length ds) by nia'.
      eapply Peg_or2.
      + apply Peg_pat. apply Peg_then_ko1. apply leaf_lit_not. unfold item, text in *; rewrite E2. exact T2.
      + apply Peg_empty.
    - eapply Peg_then; [eapply Peg_then; [exact SS|unfold no_skip; eapply digits_at; eauto; reflexivity]|]. unfold no_skip.
      cbn [app] in E2. apply Peg_or1. apply Peg_pat.
      pose proof (skipn_at _ [46%N] _ _ E2) as E3.
      pose proof (digits_at _ _ _ _ E3 FD FN T1) as DD.
      match goal with |- Spec.Peg _ _ _ _ _ _ (OK _ ?j) => replace j with (i + length sg + length ds + length [46%N] + length f) by (cbn [length]; nia') end.
      eapply Peg_then; [eapply (leaf_lit_at [46%N]); exact E2|exact DD].
  Qed.
  (** No sign and no digit: no numeral. *)
  Lemma leaf_numeral_not w i : stops (fun x => is_sign x || dec_digit x) (skipn i w) -> exists e, Peg w l_numeral i (KO e).
  Proof.
    intros S. eexists. eapply Peg_then_ko1. eapply Peg_then_ko2.
    - apply sign_not. destruct (skipn i w); [exact I|]. cbn in *. now apply orb_false_iff in S.
    - unfold no_skip. apply digits_not. destruct (skipn i w); [exact I|]. cbn in *. now apply orb_false_iff in S.
  Qed.

  End Numerals.
End Leaves.

(** ** What the leaves accept *)
Section LeafSound.
  Variable G : env.
  Hypothesis CE : core_env KBytes G no_skip.
  Hypothesis SE : static_env G.
  Notation Peg := (Peg KBytes G no_skip).
  Lemma leaf_peg_piece w p i b j : core KBytes G no_skip p -> static p -> i <= length w -> Peg w p i (OK b j) ->
    b = i /\ i <= j /\ j <= length w /\ Lang G p (slice w i j).
  Proof. intros C S Hi P. exact (proj1 (lang_all KBytes G CE SE) _ _ _ _ P C S Hi). Qed.
  Lemma leaf_ws_sound w i b j : i <= length w -> Peg w j_ws i (OK b j) -> b = i /\ i <= j /\ j <= length w /\ spaces (slice w i j).
  Proof.
    intros Hi P. destruct (leaf_peg_piece w j_ws i b j ltac:(shape) (st_many0 _ _) Hi P) as (-> & H1 & H2 & L). repeat split; auto.
    inversion L; subst. eapply all_ext; [|eassumption]. intros x. apply space_class.
  Qed.
  Lemma leaf_lit_sound l w i b j : i <= length w -> Peg w (PLit l) i (OK b j) -> b = i /\ j = i + length l /\ j <= length w /\ slice w i j = l.
  Proof.
    intros Hi P. destruct (leaf_peg_piece w _ i b j (core_lit _ _ _ l) (st_lit _) Hi P) as (-> & H1 & H2 & L).
    inversion P; subst. split; [reflexivity|]. split; [reflexivity|]. split; [exact H2|]. inversion L; subst. congruence.
  Qed.
  Lemma leaf_numeral_sound sgn (Hsgn : forall x, is_match sgn x = is_sign x) w i b j : i <= length w -> Peg w (l_numeral_ sgn) i (OK b j) -> b = i /\ i <= j /\ j <= length w /\ Numeral (slice w i j).
  Proof.
    intros Hi P. destruct (leaf_peg_piece w (l_numeral_ sgn) i b j ltac:(shape) ltac:(shape) Hi P) as (-> & H1 & H2 & L). repeat split; auto.
    remember (slice w i j) as s eqn:E. clear E P. inversion L; subst.
    match goal with X : Lang _ (PThen (l_sign_ sgn) j_digits) _ |- _ => inversion X; subst end.
    match goal with X : Lang _ (l_sign_ sgn) ?a, Y : Lang _ j_digits ?b |- _ => inversion X; subst; inversion Y; subst end.
    rewrite <- app_assoc. constructor.
    - match goal with X : length ?s <= 1, Y : all_of _ ?s |- _ => destruct s as [|x [|y s]]; [now left| |cbn in X; lia];
        right; specialize (Y x (or_introl eq_refl)); rewrite Hsgn in Y; unfold is_sign in Y; apply orb_true_iff in Y; rewrite !N.eqb_eq in Y; destruct Y; subst; auto end.
    - assumption.
    - intros x I. rewrite <- digit_class. auto.
    - match goal with X : Lang _ (POr _ _) _ |- _ => inversion X; subst end.
      + right. match goal with X : Lang _ j_dec _ |- _ => inversion X; subst end.
        match goal with X : Lang _ (PThen _ _) _ |- _ => inversion X; subst end.
        match goal with X : Lang _ (PLit _) _, Y : Lang _ j_digits _ |- _ => inversion X; subst; inversion Y; subst end.
        eexists. split; [reflexivity|]. split; [assumption|]. intros x I. rewrite <- digit_class. auto.
      + left. match goal with X : Lang _ PEmpty _ |- _ => inversion X; subst end. reflexivity.
  Qed.

  Lemma leaf_body_sound esc (Hesc : forall x, is_match esc x = escaped x) w i b j : i <= length w ->
    Peg w (l_body_ esc) i (OK b j) -> nth_error w j = Some 34%N -> b = i /\ Body (slice w i j).
  Proof.
    intros Hi P Q. pose proof (leaf_body_at G esc Hesc w i Hi) as P0.
    pose proof (spec_det KBytes G no_skip [] w (l_body_ esc) i _ _ no_skip_skipper CE (no_skip_implements KBytes G) ltac:(shape) ltac:(nia') eq_refl P P0) as E.
    injection E as -> ->. split; [reflexivity|]. unfold slice. replace (i + bodylen (skipn i w) - i) with (bodylen (skipn i w)) by lia.
    apply len_body; [reflexivity|].
    assert (NS : forall (l : text) a b, nth_error (skipn a l) b = nth_error l (a + b)).
    { clear. induction l as [|x l IH]; intros [|a] b; cbn; auto. destruct b; reflexivity. }
    unfold item, text in *. now rewrite NS.
  Qed.
End LeafSound.

Section Grammar.
  Variable f64 : text -> val.
  Let G := j_env f64.
  Notation Peg := (Peg KBytes G no_skip).
  Notation Acc := (Acc KBytes G no_skip).
  Notation Chk := (Chk KBytes G no_skip).
  Notation Run := (Run KBytes G no_skip).
  Notation Reps := (Reps KBytes G no_skip).
  Notation Tree := (Tree KBytes G no_skip is_slice).
  Notation Trees_sep := (Trees_sep KBytes G no_skip is_slice).
  Notation core := (core KBytes G no_skip).
  Notation tcore := (tcore KBytes G no_skip is_slice).
  Notation num := (j_num f64).
  Notation scalar := (j_scalar f64).
  Notation ele := (j_ele f64).
  Notation mem := (j_member f64).

  Lemma sign_class x : is_match (NOr (NOr NNever (NChar 43%N)) (NChar 45%N)) x = is_sign x.
  Proof. cbn [is_match]. unfold is_sign. now rewrite (N.eqb_sym 43), (N.eqb_sym 45). Qed.
  Let lit_at := leaf_lit_at G.
  Let lit_not := leaf_lit_not G.
  Let ws_at := leaf_ws_at G.
  Let many1_at := leaf_many1_at G.
  Lemma body_at w i : i <= length w -> Peg w j_body i (OK i (i + bodylen (skipn i w))).
  Proof. apply (leaf_body_at G j_escaped escaped_class). Qed.
  Lemma numeral_at w i s t : skipn i w = s ++ t -> Numeral s -> stops (fun x => dec_digit x || N.eqb x 46) t ->
    Peg w j_numeral i (OK i (i + length s)).
  Proof. apply (leaf_numeral_at G _ sign_class). Qed.
  Lemma numeral_not w i : stops (fun x => is_sign x || dec_digit x) (skipn i w) -> exists e, Peg w j_numeral i (KO e).
  Proof. apply (leaf_numeral_not G _ sign_class). Qed.
  (** *** The shape of the grammar *)
  Lemma scalar_map_total p (f : val -> res val) : (forall v, exists v', f v = Ok v') -> forall w i v j, Tree w p i v j -> exists v', f v = Ok v'.
  Proof. intros H w i v j _. apply H. Qed.
  Lemma num_tcore : tcore num.
  Proof.
    apply tc_wrap, tc_map; [apply tc_pat; shape|]. intros w i v j T. inversion T; subst; [contradiction|].
    match goal with X : is_slice _ _ _ _ |- _ => rewrite X end. eexists; reflexivity.
  Qed.
  Lemma ws_core : core j_ws. Proof. shape. Qed.
  Lemma tag_tcore p tag : tcore p -> tcore (PMap p (tagged tag)).
  Proof. intros T. apply tc_map; [exact T|]. apply scalar_map_total. intros v. eexists; reflexivity. Qed.
  Lemma lit_tcore l x : tcore (PMap (PLit l) (fun _ => Ok x)).
  Proof. apply tc_map; [apply tc_leaf; [exact I|shape]|]. apply scalar_map_total. intros v. eexists; reflexivity. Qed.
  Lemma str_tcore : tcore j_str.
  Proof. apply tag_tcore, tc_wrap, tc_enclose; [apply tc_pat; shape|shape|shape]. Qed.
  Lemma scalar_tcore : tcore scalar.
  Proof.
    apply tc_or; [exact num_tcore|]. apply tc_or; [exact str_tcore|].
    apply tc_or; [apply lit_tcore|]. apply tc_or; [apply lit_tcore|]. apply tc_or; [apply lit_tcore|apply tc_ref].
  Qed.
  Lemma ele_tcore : tcore ele.
  Proof. apply tc_wrap, tc_prefix; [apply tc_suffix; [exact scalar_tcore|exact ws_core]|exact ws_core]. Qed.
  Lemma keychars_tcore : tcore (PMany1 j_keychars CEmpty).
  Proof. apply tc_leaf; [exact I|shape]. Qed.
  Lemma quoted_tcore : tcore (PEnclose (PMany1 j_keychars CEmpty) j_quote j_quote).
  Proof. apply tc_enclose; [exact keychars_tcore|shape|shape]. Qed.
  Lemma key_tcore : tcore j_key.
  Proof. apply tc_prefix; [apply tc_suffix; [apply tc_enclose; [apply tc_leaf; [exact I|shape]|shape|shape]|exact ws_core]|exact ws_core]. Qed.
  Lemma mem_tcore : tcore mem.
  Proof. apply tc_seponce; [exact key_tcore|shape|exact ele_tcore]. Qed.
  Lemma obj_tcore : tcore (j_obj f64).
  Proof. apply tag_tcore, tc_wrap, tc_enclose; [apply tc_sep; [exact mem_tcore|shape]|shape|shape]. Qed.
  Lemma array_tcore : tcore (j_array f64).
  Proof. apply tag_tcore, tc_enclose; [apply tc_sep; [exact ele_tcore|shape]|shape|shape]. Qed.
  Lemma json_tenv : tcore_env KBytes G no_skip is_slice.
  Proof.
    intros [|x] p E; [injection E as <-|destruct x; discriminate]. apply tc_wrap, tc_or; [exact obj_tcore|exact array_tcore].
  Qed.
  Lemma json_core : core_env KBytes G no_skip.
  Proof. apply (tcore_core_env KBytes G no_skip is_slice). exact json_tenv. Qed.

  (** *** Completeness *)
  Lemma num_not w i : stops (fun x => is_sign x || dec_digit x) (skipn i w) -> exists e, Peg w num i (KO e).
  Proof. intros S. destruct (numeral_not w i S) as [e P]. exists e. apply Peg_wrap, Peg_map, Peg_pat. exact P. Qed.
  Lemma str_not w i : hd_error (skipn i w) <> Some 34%N -> exists e, Peg w j_str i (KO e).
  Proof. intros N. eexists. apply Peg_map, Peg_wrap, Peg_enclose_ko1. apply lit_not. exact N. Qed.
  Lemma word_not w i a l f : hd_error (skipn i w) <> Some a -> exists e, Peg w (PMap (PLit (a :: l)) f) i (KO e).
  Proof. intros N. eexists. apply Peg_map. apply lit_not. exact N. Qed.
  Lemma obj_not w i : hd_error (skipn i w) <> Some 123%N -> exists e, Peg w (j_obj f64) i (KO e).
  Proof. intros N. eexists. apply Peg_map, Peg_wrap, Peg_enclose_ko1, lit_not. exact N. Qed.
  Lemma array_not w i : hd_error (skipn i w) <> Some 91%N -> exists e, Peg w (j_array f64) i (KO e).
  Proof. intros N. eexists. apply Peg_map, Peg_enclose_ko1, lit_not. exact N. Qed.
  Lemma ref_not w i : hd_error (skipn i w) <> Some 123%N -> hd_error (skipn i w) <> Some 91%N -> exists e, Peg w (PRef 0) i (KO e).
  Proof.
    intros N1 N2. destruct (obj_not w i N1) as [e1 P1]. destruct (array_not w i N2) as [e2 P2].
    exists e2. eapply Peg_ref; [reflexivity|]. apply Peg_wrap. eapply Peg_or2; eauto.
  Qed.
  Lemma scalar_not w i x r : skipn i w = x :: r -> x = 93%N \/ x = 125%N -> exists e, Peg w scalar i (KO e).
  Proof.
    intros E X.
    destruct (num_not w i) as [e1 P1]. { rw E. destruct X as [->| ->]; reflexivity. }
    assert (N : forall a, a <> 93%N -> a <> 125%N -> hd_error (skipn i w) <> Some a).
    { intros a A1 A2. rw E. cbn. intros [= ->]. destruct X; congruence. }
    destruct (str_not w i) as [e2 P2]; [apply N; discriminate|].
    destruct (word_not w i 116%N [114; 117; 101]%N (fun _ => tagged 1 (VNum 1))) as [e3 P3]; [apply N; discriminate|].
    destruct (word_not w i 102%N [97; 108; 115; 101]%N (fun _ => tagged 1 (VNum 0))) as [e4 P4]; [apply N; discriminate|].
    destruct (word_not w i 101%N [109; 112; 116; 121]%N (fun _ => tagged 0 VUnit)) as [e5 P5]; [apply N; discriminate|].
    destruct (ref_not w i) as [e6 P6]; [apply N; discriminate|apply N; discriminate|].
    exists e6. eapply Peg_or2; [exact P1|]. eapply Peg_or2; [exact P2|]. eapply Peg_or2; [exact P3|].
    eapply Peg_or2; [exact P4|]. eapply Peg_or2; [exact P5|exact P6].
  Qed.
  Lemma ele_not w i x r : skipn i w = x :: r -> x = 93%N \/ x = 125%N -> exists e, Peg w ele i (KO e).
  Proof.
    intros E X. destruct (scalar_not w i x r E X) as [e P]. exists e. apply Peg_wrap. eapply Peg_prefix_ko2.
    - eapply (ws_at w i [] (x :: r)); [exact E|intros y []|]. destruct X as [->| ->]; reflexivity.
    - unfold no_skip. cbn [length]. rewrite Nat.add_0_r. apply Peg_suffix_ko1. exact P.
  Qed.
  Lemma mem_not w i x r : skipn i w = x :: r -> x = 93%N \/ x = 125%N -> exists e, Peg w mem i (KO e).
  Proof.
    intros E X. eexists. apply Peg_seponce_ko1. eapply Peg_prefix_ko2.
    - eapply (ws_at w i [] (x :: r)); [exact E|intros y []|]. destruct X as [->| ->]; reflexivity.
    - unfold no_skip. cbn [length]. rewrite Nat.add_0_r. apply Peg_suffix_ko1, Peg_enclose_ko1, lit_not. rw E. cbn.
      destruct X as [->| ->]; discriminate.
  Qed.

  Definition container (v : json) : Prop := match v with JArr _ | JObj _ => True | _ => False end.
  Definition numchar (x : item) : bool := dec_digit x || N.eqb x 46.
  Definition closes (x : item) : Prop := x = 44%N \/ x = 93%N \/ x = 125%N.

  Lemma numeral_head s : Numeral s -> exists x r, s = x :: r /\ (is_sign x || dec_digit x) = true.
  Proof.
    intros [sg ds fr SG DN D FR]. destruct SG as [->|[->| ->]]; cbn [app]; [|eexists; eexists; split; reflexivity..].
    destruct ds as [|d ds]; [congruence|]. cbn [app]. eexists; eexists; split; [reflexivity|].
    rewrite (D d (or_introl eq_refl)). apply orb_true_r.
  Qed.
  Lemma spell_head v s : Spell v s -> exists x r, s = x :: r /\ is_space x = false.
  Proof.
    destruct 1; try (eexists; eexists; split; reflexivity).
    match goal with X : Numeral _ |- _ => apply numeral_head in X as (x & r & -> & X) end.
    exists x, r. split; [reflexivity|]. unfold is_sign, dec_digit in H. rewrite !orb_true_iff, andb_true_iff, !N.eqb_eq, !N.leb_le in H.
    unfold is_space. cbn [existsb]. rewrite !orb_false_iff, !N.eqb_neq. repeat split; lia.
  Qed.

  Definition Cspell (v : json) (s : text) : Prop := forall w i t, skipn i w = s ++ t -> i <= length w ->
    (container v -> Tree w (PRef 0) i (as_val f64 v) (i + length s)) /\
    (stops numchar t -> Tree w scalar i (as_val f64 v) (i + length s)).
  Definition Celems (l : list json) (s : text) : Prop := forall w i t, skipn i w = s ++ 93%N :: t -> i <= length w ->
    Trees_sep w ele (PLit [44]%N) i (map (as_val f64) l) (i + length s).
  Definition Cmembers (l : list (text * json)) (s : text) : Prop := forall w i t, skipn i w = s ++ 125%N :: t -> i <= length w ->
    Trees_sep w mem (PLit [44]%N) i (map (fun m => VPair (VText (fst m)) (as_val f64 (snd m))) l) (i + length s).
  Definition Cmember (key : text) (v : json) (m : text) : Prop := forall w i t x, skipn i w = m ++ x :: t -> closes x -> i <= length w ->
    Tree w mem i (VPair (VText key) (as_val f64 v)) (i + length m).

  Lemma closes_stops x : closes x -> is_space x = false /\ numchar x = false.
  Proof. intros [->|[->| ->]]; split; reflexivity. Qed.
  Lemma spaces_stop b x t : spaces b -> closes x -> stops numchar (b ++ x :: t).
  Proof.
    intros B X. destruct b as [|y b]; cbn [app stops]; [now apply closes_stops|].
    specialize (B y (or_introl eq_refl)). cbn [existsb] in B. unfold numchar, dec_digit.
    rewrite !orb_true_iff, !N.eqb_eq in B. rewrite orb_false_iff, andb_false_iff, N.eqb_neq, !N.leb_gt.
    destruct B as [->|[->|[->|[->|[->|]]]]]; try discriminate; split; [left; reflexivity|discriminate|left; reflexivity|discriminate|left; reflexivity|discriminate|left; reflexivity|discriminate|left; reflexivity|discriminate].
  Qed.
  Lemma ele_at v a s b w i t x : spaces a -> Spell v s -> Cspell v s -> spaces b -> closes x ->
    skipn i w = (a ++ s ++ b) ++ x :: t -> i <= length w -> Tree w ele i (as_val f64 v) (i + length (a ++ s ++ b)).
  Proof.
    intros A S C B X E Hi. rewrite <- !app_assoc in E.
    destruct (spell_head v s S) as (y & r & -> & Y).
    pose proof (skipn_at _ _ _ _ E) as E1. pose proof (skipn_at _ _ _ _ E1) as E2.
    pose proof (skipn_app_len _ _ _ _ E Hi) as L1. pose proof (skipn_app_len _ _ _ _ E1 L1) as L2.
    rewrite !app_length. rewrite !Nat.add_assoc. apply Tree_wrap. eapply Tree_prefix.
    - eapply ws_at; [exact E|exact A|]. exact Y.
    - unfold no_skip. eapply Tree_suffix.
      + apply (C w _ _ E1 L1). now apply spaces_stop.
      + unfold no_skip. eapply ws_at; [exact E2|exact B|]. now apply closes_stops.
  Qed.

  Lemma lit_tree l v w i t : skipn i w = l ++ t -> Tree w (PMap (PLit l) (fun _ => Ok v)) i v (i + length l).
  Proof.
    intros E. eapply Tree_map; [|reflexivity]. eapply Tree_leaf; [exact I|eapply lit_at; exact E|reflexivity].
  Qed.
  Lemma not_num w i x r : skipn i w = x :: r -> (is_sign x || dec_digit x) = false -> exists e, Peg w num i (KO e).
  Proof. intros E X. apply num_not. rw E. exact X. Qed.
  Lemma hd_not w i (x a : item) (r : text) : skipn i w = x :: r -> x <> a -> hd_error (skipn i w) <> Some a.
  Proof. intros E N. rw E. cbn. congruence. Qed.

  Lemma key_at key w i t : skipn i w = 34%N :: key ++ 34%N :: t -> key <> [] -> all key_char key ->
    Tree w (PEnclose (PMany1 j_keychars CEmpty) j_quote j_quote) i (VText key) (i + S (length key + 1)).
  Proof.
    intros E N A.
    pose proof (skipn_at w [34%N] _ _ E) as E1. pose proof (skipn_at _ _ _ _ E1) as E2. cbn [length] in *.
    replace (i + S (length key + 1)) with (i + 1 + length key + 1) by nia'.
    assert (P : Peg w (PMany1 j_keychars CEmpty) (i + 1) (OK (i + 1) (i + 1 + length key))).
    { assert (R : runlen (is_match j_keychars) (skipn (i + 1) w) = length key).
      { rw E1. apply (runlen_app (is_match j_keychars) key); [|reflexivity].
        eapply all_ext; [|exact A]. intros y. symmetry. apply key_class. }
      destruct key as [|x key]; [congruence|]. apply many1_at. exact R. }
    eapply Tree_enclose.
    - eapply (lit_at [34%N]). exact E.
    - unfold no_skip. cbn [length]. eapply Tree_leaf; [exact I|exact P|].
      unfold is_slice. f_equal. symmetry. eapply slice_at. exact E1.
    - eapply (lit_at [34%N]). exact E2.
  Qed.

  Lemma complete_all :
    (forall v s, Spell v s -> Cspell v s) /\ (forall l s, Elems l s -> Celems l s) /\
    (forall l s, Members l s -> Cmembers l s) /\ (forall key v m, Member key v m -> Cmember key v m).
  Proof.
    assert (WORDS : forall w i x r, skipn i w = x :: r -> (is_sign x || dec_digit x) = false -> x <> 34%N ->
       forall v j, Tree w (POr j_true (POr j_false (POr j_empty (PRef 0)))) i v j -> Tree w scalar i v j).
    { intros w i x r E X1 X2 v j T. destruct (not_num w i x r E X1) as [e1 P1]. destruct (str_not w i (hd_not _ _ _ _ _ E X2)) as [e2 P2].
      eapply Tree_or2; [exact P1|]. eapply Tree_or2; [exact P2|exact T]. }
    assert (REF : forall w i x r, skipn i w = x :: r -> x = 91%N \/ x = 123%N -> forall v j, Tree w (PRef 0) i v j -> Tree w scalar i v j).
    { intros w i x r E X v j T.
      destruct (word_not w i 116%N [114; 117; 101]%N (fun _ => tagged 1 (VNum 1))) as [e3 P3]; [eapply hd_not; [exact E|destruct X; subst; discriminate]|].
      destruct (word_not w i 102%N [97; 108; 115; 101]%N (fun _ => tagged 1 (VNum 0))) as [e4 P4]; [eapply hd_not; [exact E|destruct X; subst; discriminate]|].
      destruct (word_not w i 101%N [109; 112; 116; 121]%N (fun _ => tagged 0 VUnit)) as [e5 P5]; [eapply hd_not; [exact E|destruct X; subst; discriminate]|].
      eapply (WORDS w i x r E); [destruct X; subst; reflexivity|destruct X; subst; discriminate|].
      eapply Tree_or2; [exact P3|]. eapply Tree_or2; [exact P4|]. eapply Tree_or2; [exact P5|exact T]. }
    apply Spell_mutind.
    - (* null *) intros w i t E Hi. split; [intros []|]. intros _.
      destruct (word_not w i 116%N [114; 117; 101]%N (fun _ => tagged 1 (VNum 1))) as [e3 P3]; [eapply hd_not; [exact E|discriminate]|].
      destruct (word_not w i 102%N [97; 108; 115; 101]%N (fun _ => tagged 1 (VNum 0))) as [e4 P4]; [eapply hd_not; [exact E|discriminate]|].
      eapply (WORDS w i _ _ E); [reflexivity|discriminate|]. eapply Tree_or2; [exact P3|]. eapply Tree_or2; [exact P4|]. apply Tree_or1.
      eapply lit_tree. exact E.
    - (* true *) intros w i t E Hi. split; [intros []|]. intros _.
      eapply (WORDS w i _ _ E); [reflexivity|discriminate|]. apply Tree_or1. eapply lit_tree. exact E.
    - (* false *) intros w i t E Hi. split; [intros []|]. intros _.
      destruct (word_not w i 116%N [114; 117; 101]%N (fun _ => tagged 1 (VNum 1))) as [e3 P3]; [eapply hd_not; [exact E|discriminate]|].
      eapply (WORDS w i _ _ E); [reflexivity|discriminate|]. eapply Tree_or2; [exact P3|]. apply Tree_or1. eapply lit_tree. exact E.
    - (* number *) intros s N w i t E Hi. split; [intros []|]. intros S. apply Tree_or1, Tree_wrap.
      eapply Tree_map; [eapply Tree_pat; [eapply numeral_at; eauto|reflexivity]|].
      erewrite slice_at by exact E. reflexivity.
    - (* string *) intros s B w i t E Hi. split; [intros []|]. intros _.
      cbn [app] in E. rewrite <- app_assoc in E. cbn [app] in E.
      destruct (not_num w i _ _ E eq_refl) as [e1 P1]. eapply Tree_or2; [exact P1|]. apply Tree_or1.
      pose proof (skipn_at w [34%N] _ _ E) as E1. pose proof (skipn_at _ _ _ _ E1) as E2.
      pose proof (skipn_app_len w i [34%N] _ E Hi) as L1.
      eapply Tree_map; [|reflexivity]. apply Tree_wrap. cbn [length] in *. rewrite app_length. cbn [length].
      replace (i + S (length s + 1)) with (i + 1 + length s + 1) by nia'.
      eapply Tree_enclose; [eapply (lit_at [34%N]); exact E| |].
      + unfold no_skip. cbn [length]. pose proof (body_at w (i + 1) L1) as P.
        unfold item, text in *. rewrite E1 in P. rewrite body_len in P by assumption.
        eapply Tree_pat; [exact P|]. unfold is_slice. f_equal. symmetry. eapply slice_at. exact E1.
      + eapply (lit_at [34%N]). exact E2.
    - (* array *) intros l s El IH w i t E Hi. cbn [app] in E. rewrite <- app_assoc in E. cbn [app] in E.
      assert (T : Tree w (PRef 0) i (as_val f64 (JArr l)) (i + length (91%N :: s ++ [93%N]))).
      { pose proof (skipn_at w [91%N] _ _ E) as E1. pose proof (skipn_at _ _ _ _ E1) as E2.
        pose proof (skipn_app_len w i [91%N] _ E Hi) as L1. cbn [length] in *.
        destruct (obj_not w i) as [e P]; [eapply hd_not; [exact E|discriminate]|].
        eapply Tree_ref; [reflexivity|]. apply Tree_wrap. eapply Tree_or2; [exact P|]. cbn [as_val].
        eapply Tree_map; [|reflexivity]. rewrite app_length. cbn [length].
        replace (i + S (length s + 1)) with (i + 1 + length s + 1) by nia'.
        eapply Tree_enclose; [eapply (lit_at [91%N]); exact E| |].
        - unfold no_skip. cbn [length]. apply Tree_sep; [eapply IH; eauto|]. rewrite map_length. destruct El; cbn; lia.
        - eapply (lit_at [93%N]). exact E2. }
      split; intros _; [exact T|]. eapply REF; [exact E|now left|exact T].
    - (* object *) intros l s El IH w i t E Hi. cbn [app] in E. rewrite <- app_assoc in E. cbn [app] in E.
      assert (T : Tree w (PRef 0) i (as_val f64 (JObj l)) (i + length (123%N :: s ++ [125%N]))).
      { pose proof (skipn_at w [123%N] _ _ E) as E1. pose proof (skipn_at _ _ _ _ E1) as E2.
        pose proof (skipn_app_len w i [123%N] _ E Hi) as L1. cbn [length] in *.
        eapply Tree_ref; [reflexivity|]. apply Tree_wrap, Tree_or1. cbn [as_val].
        eapply Tree_map; [|reflexivity]. apply Tree_wrap. rewrite app_length. cbn [length].
        replace (i + S (length s + 1)) with (i + 1 + length s + 1) by nia'.
        eapply Tree_enclose; [eapply (lit_at [123%N]); exact E| |].
        - unfold no_skip. cbn [length]. apply Tree_sep; [eapply IH; eauto|]. rewrite map_length. destruct El; cbn; lia.
        - eapply (lit_at [125%N]). exact E2. }
      split; intros _; [exact T|]. eapply REF; [exact E|now right|exact T].
    - (* last element *) intros v a s b c A S C B Hc w i t E Hi. cbn [map].
      replace (a ++ s ++ b ++ c) with ((a ++ s ++ b) ++ c) in * by now rewrite <- !app_assoc.
      rewrite <- app_assoc in E. pose proof (skipn_at _ _ _ _ E) as E1. pose proof (skipn_app_len _ _ _ _ E Hi) as L1.
      destruct Hc as [->| ->]; cbn [app] in *.
      + rewrite app_nil_r. eapply Trees_sep_last; unfold no_skip.
        * eapply ele_at; [exact A|exact S|exact C|exact B| |exact E|exact Hi]. right; now left.
        * apply lit_not. eapply hd_not; [exact E1|discriminate].
      + rewrite app_length. cbn [length]. rewrite Nat.add_assoc. eapply Trees_sep_step; unfold no_skip.
        * eapply ele_at; [exact A|exact S|exact C|exact B| |exact E|exact Hi]. now left.
        * eapply (lit_at [44%N]). exact E1.
        * pose proof (skipn_at w [44%N] _ _ E1) as E2. destruct (ele_not w _ _ _ E2 (or_introl eq_refl)) as [e P].
          cbn [length] in *. eapply Trees_sep_stop. exact P.
    - (* more elements *) intros v a s b l r A S C B El IH w i t E Hi. cbn [map].
      replace (a ++ s ++ b ++ 44%N :: r) with ((a ++ s ++ b) ++ 44%N :: r) in * by now rewrite <- !app_assoc.
      rewrite <- app_assoc in E. cbn [app] in E. pose proof (skipn_at _ _ _ _ E) as E1. pose proof (skipn_app_len _ _ _ _ E Hi) as L1.
      pose proof (skipn_at w [44%N] _ _ E1) as E2. pose proof (skipn_app_len w _ [44%N] _ E1 L1) as L2.
      rewrite app_length. cbn [length] in *.
      replace (i + (length (a ++ s ++ b) + Datatypes.S (length r))) with (i + length (a ++ s ++ b) + 1 + length r) by nia'.
      eapply Trees_sep_step; unfold no_skip.
      + eapply ele_at; [exact A|exact S|exact C|exact B| |exact E|exact Hi]. now left.
      + eapply (lit_at [44%N]). exact E1.
      + cbn [length]. eapply IH; eauto.
    - (* last member *) intros key v m c M C Hc w i t E Hi. cbn [map fst snd].
      rewrite <- app_assoc in E. pose proof (skipn_at _ _ _ _ E) as E1. pose proof (skipn_app_len _ _ _ _ E Hi) as L1.
      destruct Hc as [->| ->]; cbn [app] in *.
      + rewrite app_nil_r. eapply Trees_sep_last; unfold no_skip.
        * eapply C; [exact E| |exact Hi]. right; now right.
        * apply lit_not. eapply hd_not; [exact E1|discriminate].
      + rewrite app_length. cbn [length]. rewrite Nat.add_assoc. eapply Trees_sep_step; unfold no_skip.
        * eapply C; [exact E| |exact Hi]. now left.
        * eapply (lit_at [44%N]). exact E1.
        * pose proof (skipn_at w [44%N] _ _ E1) as E2. destruct (mem_not w _ _ _ E2 (or_intror eq_refl)) as [e P].
          cbn [length] in *. eapply Trees_sep_stop. exact P.
    - (* more members *) intros key v m l r M C El IH w i t E Hi. cbn [map fst snd].
      rewrite <- app_assoc in E. cbn [app] in E. pose proof (skipn_at _ _ _ _ E) as E1. pose proof (skipn_app_len _ _ _ _ E Hi) as L1.
      pose proof (skipn_at w [44%N] _ _ E1) as E2. pose proof (skipn_app_len w _ [44%N] _ E1 L1) as L2.
      rewrite app_length. cbn [length] in *.
      replace (i + (length m + S (length r))) with (i + length m + 1 + length r) by nia'.
      eapply Trees_sep_step; unfold no_skip.
      + eapply C; [exact E| |exact Hi]. now left.
      + eapply (lit_at [44%N]). exact E1.
      + cbn [length]. eapply IH; eauto.
    - (* one member *) intros key v a b c s d KN KA A B Cs S C D w i t x E X Hi.
      replace (a ++ 34%N :: key ++ 34%N :: b ++ 58%N :: c ++ s ++ d) with
        (a ++ (34%N :: key ++ [34%N]) ++ b ++ [58%N] ++ (c ++ s ++ d)) in * by (cbn [app]; now rewrite <- !app_assoc).
      rewrite <- !app_assoc in E. 
      pose proof (skipn_at _ _ _ _ E) as E1. pose proof (skipn_at _ _ _ _ E1) as E2.
      pose proof (skipn_at _ _ _ _ E2) as E3. pose proof (skipn_at _ _ _ _ E3) as E4.
      pose proof (skipn_app_len _ _ _ _ E Hi) as L1. pose proof (skipn_app_len _ _ _ _ E1 L1) as L2.
      pose proof (skipn_app_len _ _ _ _ E2 L2) as L3. pose proof (skipn_app_len _ _ _ _ E3 L3) as L4.
      assert (KT : Tree w (PEnclose (PMany1 j_keychars CEmpty) j_quote j_quote) (i + length a) (VText key) (i + length a + length (34%N :: key ++ [34%N]))).
      { cbn [length]. rewrite app_length. cbn [length]. eapply key_at; [rw E1; cbn [app]; now rewrite <- app_assoc|exact KN|exact KA]. }
      rewrite (app_length a), (app_length (34%N :: key ++ [34%N])), (app_length b), (app_length [58%N]), !Nat.add_assoc.
      eapply Tree_seponce; unfold no_skip.
      + eapply Tree_prefix; [eapply ws_at; [exact E|exact A|reflexivity]|]. unfold no_skip. eapply Tree_suffix.
        * exact KT.
        * unfold no_skip. eapply ws_at; [exact E2|exact B|reflexivity].
      + eapply (lit_at [58%N]). exact E3.
      + eapply ele_at; [exact Cs|exact S|exact C|exact D|exact X| |exact L4]. rw E4. now rewrite <- !app_assoc.
  Qed.

  (** *** Soundness *)
  Lemma json_static : static_env G.
  Proof. closed_env. shape. Qed.
  Let ws_sound := leaf_ws_sound G json_core json_static.
  Let lit_sound := leaf_lit_sound G json_core json_static.
  Let peg_piece := leaf_peg_piece G json_core json_static.
  Let numeral_sound := leaf_numeral_sound G json_core json_static _ sign_class.
  Ltac nosk := repeat match goal with H : context [no_skip ?a ?b] |- _ => change (no_skip a b) with b in H end.
  Ltac tinv T := inversion T; subst; try contradiction; nosk.
  Lemma wrap_inv w p i v j : Tree w (PWrap p) i v j -> Tree w p i v j.
  Proof. intros T. tinv T. assumption. Qed.
  Lemma map_inv w p f i v j : Tree w (PMap p f) i v j -> exists v0, Tree w p i v0 j /\ f v0 = Ok v.
  Proof. intros T. tinv T. eauto. Qed.
  Lemma or_inv w p q i v j : Tree w (POr p q) i v j -> Tree w p i v j \/ Tree w q i v j.
  Proof. intros T. tinv T; auto. Qed.
  Lemma enclose_inv w p a c i v j : i <= length w -> Tree w (PEnclose p (PLit [a]) (PLit [c])) i v j ->
    (forall m, Tree w p (S i) v m -> S i <= length w -> S i <= m /\ m <= length w) ->
    exists m, Tree w p (S i) v m /\ S i <= m /\ j = S m /\ j <= length w /\ slice w i j = a :: slice w (S i) m ++ [c].
  Proof.
    intros Hi T B. tinv T.
    match goal with X : Peg w (PLit [a]) _ _ |- _ => destruct (lit_sound _ _ _ _ _ Hi X) as (-> & -> & L1 & S1) end.
    cbn [length] in *. rewrite Nat.add_1_r in *.
    match goal with X : Peg w (PLit [c]) ?m _, Y : Tree _ p _ _ ?m |- _ =>
      destruct (B m Y L1) as [B1 B2]; destruct (lit_sound _ _ _ _ _ B2 X) as (-> & -> & L2 & S2); exists m; split; [exact Y|]; split; [exact B1|] end.
    cbn [length] in *. rewrite Nat.add_1_r in *. split; [reflexivity|]. split; [exact L2|].
    rewrite <- (slice_app w i (S i)) by lia. rewrite S1. rewrite <- (slice_app w (S i) j1) by lia. now rewrite S2.
  Qed.
  Lemma ws_around w p i v j : i <= length w -> Tree w (PPrefix (PSuffix p j_ws) j_ws) i v j ->
    (forall a m, Tree w p a v m -> a <= length w -> a <= m /\ m <= length w) ->
    exists a m, Tree w p a v m /\ i <= a /\ a <= m /\ m <= j /\ j <= length w /\ spaces (slice w i a) /\ spaces (slice w m j).
  Proof.
    intros Hi T B. tinv T.
    match goal with X : Peg w j_ws i _ |- _ => destruct (ws_sound _ _ _ _ Hi X) as (-> & L1 & L2 & S1) end.
    match goal with X : Tree w (PSuffix _ _) _ _ _ |- _ => tinv X end.
    match goal with X : Tree w p ?a v ?m, Y : Peg w j_ws ?m _ |- _ =>
      destruct (B a m X L2) as [B1 B2]; destruct (ws_sound _ _ _ _ B2 Y) as (-> & L3 & L4 & S2); exists a, m end.
    repeat (split; [assumption|]). assumption.
  Qed.
  Lemma tree_bounds w p i v j : tcore p -> Tree w p i v j -> i <= length w -> i <= j /\ j <= length w.
  Proof.
    intros C T Hi. destruct (ttb KBytes G no_skip [] is_slice no_skip_skipper json_tenv (no_skip_implements KBytes G) w p i v j T C Hi eq_refl) as (H1 & H2 & _).
    auto.
  Qed.

  Definition Sound (w : text) (i : nat) (v : val) (j : nat) : Prop :=
    exists J, v = as_val f64 J /\ Spell J (slice w i j).
  Lemma lit_value w l x i v j : i <= length w -> Tree w (PMap (PLit l) (fun _ => Ok x)) i v j -> v = x /\ slice w i j = l.
  Proof.
    intros Hi T. apply map_inv in T as (v0 & T & E). injection E as ->. split; [reflexivity|].
    inversion T; subst. match goal with X : Spec.Peg _ _ _ _ _ _ _ |- _ => apply lit_sound in X; [tauto|exact Hi] end.
  Qed.
  Lemma str_sound w i v j : i <= length w -> Tree w j_str i v j -> Sound w i v j.
  Proof.
    intros Hi T. apply map_inv in T as (v0 & T & E). injection E as <-. apply wrap_inv in T.
    apply enclose_inv in T as (m & T & L1 & -> & L2 & S1); [|exact Hi|].
    2:{ intros m X Y. eapply tree_bounds; [|exact X|exact Y]. apply tc_pat; shape. }
    tinv T.
    pose proof (body_at w (S i) ltac:(nia')) as P0. remember (bodylen (skipn (S i) w)) as n eqn:En.
    match goal with X : is_slice _ _ ?m _, Y : Peg w j_body _ _ |- _ => rewrite X; clear T;
      pose proof (spec_det KBytes G no_skip [] w j_body (S i) _ _ no_skip_skipper json_core (no_skip_implements KBytes G) ltac:(shape) ltac:(nia') eq_refl Y P0) as E;
      assert (m = S i + n) by congruence; subst m; assert (b = S i) by congruence; subst b end.
    eexists (JStr _). split; [reflexivity|]. rewrite S1. apply spell_str.
    unfold slice. replace (S i + n - S i) with n by lia.
    apply len_body; [now symmetry|].
    (* the closing quote *)
    assert (LS : length (slice w (S i) (S i + n)) = n) by (apply slice_length; nia').
    assert (Q : nth_error (slice w i (S (S i + n))) (S n) = Some 34%N).
    { rewrite S1. change (nth_error (slice w (S i) (S i + n) ++ [34%N]) n = Some 34%N).
      rewrite nth_error_app2, LS, Nat.sub_diag by (rewrite LS; apply le_n). reflexivity. }
    unfold slice in Q.
    assert (NF : forall (l : text) a b, b < a -> nth_error (firstn a l) b = nth_error l b).
    { clear. induction l as [|x l IH]; intros [|a] [|b] H; cbn; auto; try lia. apply IH. lia. }
    unfold item, text in *. rewrite NF in Q by lia.
    assert (NS : forall (l : text) a b, nth_error (skipn a l) b = nth_error l (a + b)).
    { clear. induction l as [|x l IH]; intros [|a] b; cbn; auto. destruct b; reflexivity. }
    unfold item, text in *. rewrite NS in *. replace (S i + n) with (i + S n) by lia. exact Q.
  Qed.

  Section Step.
    Variable w : text.
    Variable n : nat.
    Hypothesis IH : forall i v j, j - i < n -> i <= length w -> Tree w (PRef 0) i v j -> Sound w i v j.

    Lemma scalar_sound i v j : j - i < n -> i <= length w -> Tree w scalar i v j -> Sound w i v j.
    Proof.
      intros Hn Hi T.
      apply or_inv in T as [T|T].
      { apply wrap_inv, map_inv in T as (v0 & T & E). tinv T.
        match goal with X : is_slice _ _ _ _, Y : Peg w j_numeral _ _ |- _ => destruct (numeral_sound _ _ _ _ Hi Y) as (-> & _ & _ & N); rewrite X in E end.
        injection E as <-. exists (JNum (slice w i j)). split; [reflexivity|]. now constructor. }
      apply or_inv in T as [T|T]; [now apply str_sound|].
      apply or_inv in T as [T|T].
      { apply lit_value in T as [-> E]; [|exact Hi]. exists (JBool true). split; [reflexivity|rewrite E; constructor]. }
      apply or_inv in T as [T|T].
      { apply lit_value in T as [-> E]; [|exact Hi]. exists (JBool false). split; [reflexivity|rewrite E; constructor]. }
      apply or_inv in T as [T|T].
      { apply lit_value in T as [-> E]; [|exact Hi]. exists JNull. split; [reflexivity|rewrite E; constructor]. }
      now apply IH.
    Qed.
    Lemma ele_sound i v j : j - i < n -> i <= length w -> Tree w ele i v j ->
      exists J a s b, v = as_val f64 J /\ Spell J s /\ spaces a /\ spaces b /\ slice w i j = a ++ s ++ b.
    Proof.
      intros Hn Hi T. apply wrap_inv in T.
      apply ws_around in T as (a & m & T & L1 & L2 & L3 & L4 & S1 & S2); [|exact Hi|].
      2:{ intros a m X Y. eapply tree_bounds; [apply scalar_tcore|exact X|exact Y]. }
      destruct (scalar_sound a v m ltac:(lia) ltac:(lia) T) as (J & -> & SJ).
      exists J, (slice w i a), (slice w a m), (slice w m j). rewrite !slice_app by lia. auto.
    Qed.
    Lemma member_sound i v j : j - i < n -> i <= length w -> Tree w mem i v j ->
      exists key J, v = VPair (VText key) (as_val f64 J) /\ Member key J (slice w i j).
    Proof.
      intros Hn Hi T. tinv T.
      lazymatch goal with X : Tree w j_key i ?kv ?j1, Y : Peg w (PLit _) ?j1 _, Z : Tree w ele _ _ _ |- _ =>
        pose proof (tree_bounds _ _ _ _ _ key_tcore X Hi) as [L1 L2];
        destruct (lit_sound _ _ _ _ _ L2 Y) as (-> & -> & L3 & S1);
        pose proof (tree_bounds _ _ _ _ _ ele_tcore Z L3) as [L4 L5];
        apply ws_around in X as (p & m & X & M1 & M2 & M3 & M4 & S2 & S3); [|exact Hi|];
        [|intros p m U V; exact (tree_bounds _ _ _ _ _ quoted_tcore U V)];
        apply enclose_inv in X as (q & X & Q1 & -> & Q2 & S4); [|lia|intros m0 U V; exact (tree_bounds _ _ _ _ _ keychars_tcore U V)];
        rename X into TK; rename Z into TE; rename j1 into c
      end.
      cbn [length] in *.
      destruct (fun H => ele_sound _ _ _ H L3 TE) as (J & e1 & s & e2 & -> & SJ & SE1 & SE2 & S5); [lia|].
      inversion TK; subst.
      match goal with X : is_slice _ _ _ _, Y : Peg w (PMany1 _ _) _ _ |- _ => rewrite X; apply peg_piece in Y as (-> & _ & _ & LK); [|shape|constructor|lia] end.
      exists (slice w (S p) q), J. split; [reflexivity|].
      rewrite <- (slice_app w i c), <- (slice_app w c (c + 1)) by lia. rewrite S1, S5.
      rewrite <- (slice_app w i p), <- (slice_app w p (S q) c) by lia. rewrite S4.
      cbn [app]. rewrite <- !app_assoc. cbn [app]. rewrite <- !app_assoc. cbn [app].
      inversion LK; subst. apply member; auto. eapply all_ext; [|eassumption]. intros x. apply key_class.
    Qed.

    Lemma seps_bounds p vs : tcore p -> forall i j, i <= length w -> Trees_sep w p (PLit [44]%N) i vs j -> i <= j /\ j <= length w.
    Proof.
      intros C. induction vs as [|v vs IHv]; intros i j Hi T; inversion T; subst; nosk; [auto| |].
      - match goal with X : Tree w p _ _ _ |- _ => exact (tree_bounds _ _ _ _ _ C X Hi) end.
      - match goal with X : Tree w p _ _ ?m, Y : Peg w (PLit _) ?m _, Z : Trees_sep _ _ _ _ _ _ |- _ =>
          pose proof (tree_bounds _ _ _ _ _ C X Hi) as [L1 L2]; destruct (lit_sound _ _ _ _ _ L2 Y) as (-> & -> & L3 & S1);
          apply IHv in Z; [|exact L3]; cbn [length] in *; lia end.
    Qed.
    Lemma elems_sound vs : forall i j, j - i < n -> i <= length w -> Trees_sep w ele (PLit [44]%N) i vs j -> vs <> [] ->
      exists l, vs = map (as_val f64) l /\ Elems l (slice w i j).
    Proof.
      induction vs as [|v vs IHv]; intros i j Hn Hi T NE; [congruence|]. inversion T; subst; nosk.
      - match goal with X : Tree w ele _ _ _ |- _ => destruct (ele_sound _ _ _ Hn Hi X) as (J & a & s & b & -> & SJ & A & B & E) end.
        exists [J]. split; [reflexivity|]. rewrite E. rewrite <- (app_nil_r b). apply elems_last; auto.
      - match goal with X : Tree w ele _ _ ?m, Y : Peg w (PLit _) ?m _, Z : Trees_sep _ _ _ ?m' _ _ |- _ =>
          pose proof (tree_bounds _ _ _ _ _ ele_tcore X Hi) as [L1 L2]; destruct (lit_sound _ _ _ _ _ L2 Y) as (-> & -> & L3 & S1);
          pose proof (seps_bounds ele vs ele_tcore _ _ L3 Z) as [L4 L5];
          destruct (fun H => ele_sound _ _ _ H Hi X) as (J & a & s & b & -> & SJ & A & B & E); [cbn [length] in *; lia|];
          rename m into c; rename Z into TS end.
        cbn [length] in *. rewrite <- (slice_app w i c), <- (slice_app w c (c + 1)) by lia. rewrite E, S1. rewrite <- !app_assoc. cbn [app].
        destruct vs as [|v' vs].
        + inversion TS; subst. exists [J]. split; [reflexivity|]. rewrite slice_nil2 by lia. apply elems_last; auto.
        + destruct (IHv (c + 1) j ltac:(lia) L3 TS ltac:(discriminate)) as (l & EL & SL).
          exists (J :: l). split; [cbn [map]; now rewrite EL|]. now apply elems_more.
    Qed.
    Lemma members_sound vs : forall i j, j - i < n -> i <= length w -> Trees_sep w mem (PLit [44]%N) i vs j -> vs <> [] ->
      exists l, vs = map (fun m => VPair (VText (fst m)) (as_val f64 (snd m))) l /\ Members l (slice w i j).
    Proof.
      induction vs as [|v vs IHv]; intros i j Hn Hi T NE; [congruence|]. inversion T; subst; nosk.
      - match goal with X : Tree w mem _ _ _ |- _ => destruct (member_sound _ _ _ Hn Hi X) as (key & J & -> & M) end.
        exists [(key, J)]. split; [reflexivity|]. rewrite <- (app_nil_r (slice w i j)). apply members_last; auto.
      - match goal with X : Tree w mem _ _ ?m, Y : Peg w (PLit _) ?m _, Z : Trees_sep _ _ _ ?m' _ _ |- _ =>
          pose proof (tree_bounds _ _ _ _ _ mem_tcore X Hi) as [L1 L2]; destruct (lit_sound _ _ _ _ _ L2 Y) as (-> & -> & L3 & S1);
          pose proof (seps_bounds mem vs mem_tcore _ _ L3 Z) as [L4 L5];
          destruct (fun H => member_sound _ _ _ H Hi X) as (key & J & -> & M); [cbn [length] in *; lia|];
          rename m into c; rename Z into TS end.
        cbn [length] in *. rewrite <- (slice_app w i c), <- (slice_app w c (c + 1)) by lia. rewrite S1. cbn [app].
        destruct vs as [|v' vs].
        + inversion TS; subst. exists [(key, J)]. split; [reflexivity|]. rewrite (slice_nil2 w (c + 1)) by lia. apply members_last; auto.
        + destruct (IHv (c + 1) j ltac:(lia) L3 TS ltac:(discriminate)) as (l & EL & SL).
          exists ((key, J) :: l). split; [cbn [map fst snd]; now rewrite EL|]. now apply members_more.
    Qed.
  End Step.

  Lemma ref_sound : forall n w i v j, j - i <= n -> i <= length w -> Tree w (PRef 0) i v j ->
    exists J, container J /\ v = as_val f64 J /\ Spell J (slice w i j).
  Proof.
    induction n as [n IH] using lt_wf_ind. intros w i v j Hn Hi T.
    assert (IH' : forall i' v j', j' - i' < n -> i' <= length w -> Tree w (PRef 0) i' v j' -> Sound w i' v j').
    { intros i' v' j' H1 H2 T'. destruct (IH (j' - i') H1 w i' v' j' (le_n _) H2 T') as (J & _ & E & S1). now exists J. }
    inversion T; subst; [contradiction|]. match goal with X : env_get _ _ = _ |- _ => injection X as <- end.
    match goal with X : Tree w (PWrap _) _ _ _ |- _ => apply wrap_inv, or_inv in X as [X|X]; rename X into TT end; clear T.
    - apply map_inv in TT as (v0 & TT & E). injection E as <-. apply wrap_inv in TT.
      apply enclose_inv in TT as (m & TT & L1 & -> & L2 & S1); [|exact Hi|].
      2:{ intros m X Y. eapply tree_bounds; [|exact X|exact Y]. apply tc_sep; [exact mem_tcore|shape]. }
      inversion TT; subst; [contradiction|].
      match goal with X : Trees_sep w _ _ _ ?vs _ |- _ =>
        destruct (members_sound w n IH' vs (S i) m ltac:(lia) ltac:(lia) X) as (l & -> & SL); [destruct vs; [cbn in *; lia|discriminate]|] end.
      exists (JObj l). split; [exact I|]. split; [reflexivity|]. rewrite S1. now constructor.
    - apply map_inv in TT as (v0 & TT & E). injection E as <-.
      apply enclose_inv in TT as (m & TT & L1 & -> & L2 & S1); [|exact Hi|].
      2:{ intros m X Y. eapply tree_bounds; [|exact X|exact Y]. apply tc_sep; [exact ele_tcore|shape]. }
      inversion TT; subst; [contradiction|].
      match goal with X : Trees_sep w _ _ _ ?vs _ |- _ =>
        destruct (elems_sound w n IH' vs (S i) m ltac:(lia) ltac:(lia) X) as (l & -> & SL); [destruct vs; [cbn in *; lia|discriminate]|] end.
      exists (JArr l). split; [exact I|]. split; [reflexivity|]. rewrite S1. now constructor.
  Qed.
End Grammar.
