(** C65: the e-mail address parser of README.md and bench/regex_{no,}cap.rs accepts exactly the texts
    [name@dom.tld] described by [Email] below, the constructing version returns the three pieces, and
    the language differs from that of the regular expression it is compared with. *)

From Coq Require Import List Arith NArith Bool Lia String Ascii ZifyBool.
From Verif Require Import Base Text Context Neu Syntax Regex Ctor Api TextProofs Spec Core Sound Obs Laws UnitLaws
  PegLaws Consumes Term TermLaws CtorSpec CtorSound CtorLaws AgreeLaws UnitProps Samples Macros MacroLaws Methods Pieces Readme.
Import ListNotations.
Local Open Scope list_scope.
Local Open Scope nat_scope.

(** ** Specification *)

Definition lower (x : item) : Prop := (97 <= x <= 122)%N.
Definition digit (x : item) : Prop := (48 <= x <= 57)%N.
Definition dot : item := 46%N.
Definition dash : item := 45%N.
Definition plus : item := 43%N.
Definition underscore : item := 95%N.
Definition at_sign : item := 64%N.

Definition name_char (x : item) : Prop := lower x \/ digit x \/ In x [underscore; dot; plus; dash].
Definition dom_char (x : item) : Prop := lower x \/ digit x \/ In x [dot; dash].
Definition tld_char (x : item) : Prop := lower x \/ x = dot.

(** The addresses the parser accepts.  The name is not empty.  The domain has at most 256 characters
    and may be empty.  The last piece has two to six characters; they are letters, except that after a
    domain of exactly 256 characters dots are allowed, too. *)
Definition Email (w name dom tld : text) : Prop :=
  w = name ++ [at_sign] ++ dom ++ [dot] ++ tld /\
  name <> [] /\ Forall name_char name /\
  Forall dom_char dom /\ List.length dom <= 256 /\
  2 <= List.length tld <= 6 /\ (Forall lower tld \/ (List.length dom = 256 /\ Forall tld_char tld)).

(** The regular expression [^([a-z0-9_\.\+-]+)@([\da-z\.-]+)\.([a-z\.]{2,6})$] (README.md:102); the
    difference between [\d] and the ASCII digits is left out. *)
Definition EmailRegex (w name dom tld : text) : Prop :=
  w = name ++ [at_sign] ++ dom ++ [dot] ++ tld /\
  name <> [] /\ Forall name_char name /\ dom <> [] /\ Forall dom_char dom /\
  2 <= List.length tld <= 6 /\ Forall tld_char tld.

(** ** The character classes *)

Lemma digit10 x : is_digit 10 x = true <-> digit x.
Proof.
  unfold is_digit, digit_value, digit, is_ascii_digit, is_ascii_lower, is_ascii_upper, between_N.
  destruct ((0x30 <=? x) && (x <=? 0x39))%N eqn:E1; [split; intros; lia|].
  destruct ((0x61 <=? x) && (x <=? 0x7A))%N eqn:E2; [split; intros; lia|].
  destruct ((0x41 <=? x) && (x <=? 0x5A))%N eqn:E3; [split; intros; lia|]. split; intros; [discriminate|lia].
Qed.
Ltac cls := cbn [is_match class_macro alts fold_left e_letter e_number u_or u_not bounds_contain In];
  unfold bounds_contain, dot, dash, plus, underscore, lower in *; rewrite ?orb_true_iff, ?orb_false_l, ?andb_true_iff, ?digit10, ?N.eqb_eq, ?N.leb_le; intuition (try discriminate; try lia).
Lemma name_class x : is_match (class_macro (MUnits [e_letter; e_number; NChar 95%N; NChar 46%N; NChar 43%N; NChar 45%N])) x = true <-> name_char x.
Proof. unfold name_char. cls. Qed.
Definition dom_unit1 : neu := u_or (u_or (u_or e_letter e_number) (NChar 46%N)) (NChar 45%N).
Definition dom_unit2 : neu := class_macro (MUnits [e_letter; e_number; NChar 46%N; NChar 45%N]).
Lemma dom_class1 x : is_match dom_unit1 x = true <-> dom_char x.
Proof. unfold dom_char, dom_unit1. cls. Qed.
Lemma dom_class2 x : is_match dom_unit2 x = true <-> dom_char x.
Proof. unfold dom_char, dom_unit2. cls. Qed.
Lemma tld_class x : is_match (class_macro (MUnits [e_letter; NChar 46%N])) x = true <-> tld_char x.
Proof. unfold tld_char. cls. Qed.
Lemma not_dot x : is_match (u_not (NChar 46%N)) x = true <-> x <> dot.
Proof. cbn [is_match u_not]. rewrite negb_true_iff, N.eqb_neq. unfold dot. intuition. Qed.

Lemma no_env k : core_env k [] no_skip.
Proof. intros x p E. destruct x; discriminate. Qed.

(** ** The condition on the domain *)

(** The text starts with its last dot. *)
Definition lastdot (r : text) : bool :=
  match r with x :: r' => (x =? 46)%N && negb (existsb (N.eqb 46) r') | [] => false end.
Lemma lastdot_in (x : item) r : In dot r -> lastdot (x :: r) = false.
Proof.
  intros I. cbn. apply andb_false_iff. right. apply negb_false_iff. apply existsb_exists. exists dot. split; [exact I|reflexivity].
Qed.

Section Cond.
  Variable k : kind.
  Let CE := no_env k.
  Notation Matches := (Matches k []).
  Notation Fails := (Fails k []).
  Definition tail : pat := PThen (PThen (PLit [46%N]) (PMany0 (u_not (NChar 46%N)) CEmpty)) PEnd.
  Notation head := (PThen (PLit [46%N]) (PMany0 (u_not (NChar 46%N)) CEmpty)).

  Lemma core_empty_cond : core_cond k [] no_skip CEmpty.
  Proof. constructor. Qed.
  Lemma core_head : core k [] no_skip head.
  Proof. repeat constructor. Qed.
  Lemma core_tail : core k [] no_skip tail.
  Proof. repeat constructor. Qed.
  Lemma core_econd : core_cond k [] no_skip e_cond.
  Proof. constructor. constructor. exact core_tail. Qed.
  Notation nodot := (passes (u_not (NChar 46%N)) (fun _ => true)).

  Lemma head_match (r : text) : exists s t, r = s ++ t /\ Forall (fun x => x <> dot) s /\ (t = [] \/ exists t', t = dot :: t') /\
    Matches head (46%N :: r) 0 0 (S (List.length s)).
  Proof.
    destruct (run_cut (u_not (NChar 46%N)) (fun _ => true) None r) as (s & t & E & T & [D|[_ D]]); [discriminate|].
    exists s, t. split; [exact E|]. split; [|split].
    - apply took_plain in T. eapply Forall_impl; [|exact T]. intros x. apply not_dot.
    - destruct t as [|x t]; [now left|right]. exists t. unfold halted, passes in D. rewrite andb_true_r in D.
      destruct (N.eq_dec x dot) as [->|N]; [reflexivity|]. apply not_dot in N. congruence.
    - apply (then_ok k [] CE); [constructor|repeat constructor|cbn; lia|]. exists 1, 1. split.
      + apply (lit_piece k [] CE); [cbn; lia|]. repeat split. cbn. eauto.
      + apply (many0_piece k [] CE _ CEmpty (fun _ => true) core_empty_cond (tests_empty k [])); [cbn; lia|].
        split; [reflexivity|]. exists s, t. split; [exact E|]. split; [reflexivity|]. split; [exact T|]. right. split; [exact I|exact D].
  Qed.

  Lemma tail_matches r : lastdot r = true -> exists b j, Matches tail r 0 b j.
  Proof.
    destruct r as [|x r]; [discriminate|]. intros H. cbn in H. apply andb_true_iff in H as [H1 H2]. apply N.eqb_eq in H1. subst x.
    apply negb_true_iff in H2. destruct (head_match r) as (s & t & -> & F & [->|(t' & ->)] & M).
    - exists 0, (S (List.length s)). apply (then_ok k [] CE); [exact core_head|constructor|cbn; lia|].
      exists (S (List.length s)), (S (List.length s)). split; [exact M|].
      apply (end_piece k [] CE); [cbn; rewrite app_length; cbn; lia|]. repeat split. cbn [skipn]. rewrite app_nil_r. apply skipn_all.
    - exfalso. cut (existsb (N.eqb 46) (s ++ dot :: t') = true); [congruence|].
      apply existsb_exists. exists dot. split; [apply in_or_app; right; now left|reflexivity].
  Qed.
  Lemma tail_fails r : lastdot r = false -> exists e, Fails tail r 0 e.
  Proof.
    intros H. destruct r as [|x r].
    - exists ELiteral. apply (then_err k [] CE); [exact core_head|constructor|cbn; lia|]. left.
      apply (then_err k [] CE); [constructor|repeat constructor|cbn; lia|]. left.
      apply (lit_err k [] CE); [cbn; lia|]. split; [reflexivity|discriminate].
    - cbn in H. destruct (N.eqb_spec x 46) as [->|N].
      + cbn in H. apply negb_false_iff in H. apply existsb_exists in H as (y & I & E). apply N.eqb_eq in E. subst y.
        destruct (head_match r) as (s & t & -> & F & [->|(t' & ->)] & M).
        * exfalso. rewrite app_nil_r in I. rewrite Forall_forall in F. now apply (F dot).
        * exists EAnchorEnd. apply (then_err k [] CE); [exact core_head|constructor|cbn; lia|]. right.
          exists 0, (S (List.length s)). split; [exact M|]. apply (end_fails k [] CE); [cbn; rewrite app_length; cbn; lia|].
          split; [reflexivity|]. cbn [skipn]. rewrite skipn_app, skipn_all, Nat.sub_diag. discriminate.
      + exists ELiteral. apply (then_err k [] CE); [exact core_head|constructor|cbn; lia|]. left.
        apply (then_err k [] CE); [constructor|repeat constructor|cbn; lia|]. left.
        apply (lit_err k [] CE); [cbn; lia|]. split; [reflexivity|]. cbn. congruence.
  Qed.
  Lemma econd_tests : tests k [] e_cond (fun r => negb (lastdot r)).
  Proof.
    intros w i t x r E. destruct (lastdot (x :: r)) eqn:L; cbn [negb CondTrue CondFalse e_cond]; rewrite E.
    - exists EAssertFalse. apply (peek_err k [] CE); [exact core_tail|cbn; lia|]. split; [reflexivity|]. now apply tail_matches.
    - exists 0, 0. apply (peek_ok k [] CE); [exact core_tail|cbn; lia|]. repeat split. now apply tail_fails.
  Qed.
End Cond.

(** ** The pieces *)

Section Pieces.
  Variable k : kind.
  Let CE := no_env k.
  Notation Matches := (Matches k []).
  Notation all_true := (fun _ : text => true).

  Lemma halted_plain u t : halted (passes u all_true) t <-> t = [] \/ exists x t', t = x :: t' /\ is_match u x = false.
  Proof.
    destruct t as [|x t]; cbn [halted passes]; [split; [now left|auto]|]. rewrite andb_true_r. split.
    - intros H. right. eauto.
    - intros [H|(y & t' & [= <- <-] & H)]; [discriminate|exact H].
  Qed.
  Lemma name_ok w i b j : i <= List.length w ->
    (Matches e_name w i b j <-> b = i /\ exists s t, skipn i w = s ++ t /\ j = i + List.length s /\ s <> [] /\ Forall name_char s /\
       (t = [] \/ exists x t', t = x :: t' /\ ~ name_char x)).
  Proof.
    intros Hi. unfold e_name. cbn [regex_macro].
    rewrite (many1_piece k [] CE _ CEmpty all_true (core_empty_cond k) (tests_empty k [])) by exact Hi. split.
    - intros (-> & L & s & t & E & -> & T & [D|[_ D]]); [discriminate|]. split; [reflexivity|]. exists s, t.
      split; [exact E|]. split; [reflexivity|]. split; [intros ->; cbn in L; lia|]. split.
      + apply took_plain in T. eapply Forall_impl; [|exact T]. intros x. apply name_class.
      + apply halted_plain in D as [D|(x & t' & -> & D)]; [now left|right]. exists x, t'. split; [reflexivity|].
        intros H. apply name_class in H. congruence.
    - intros (-> & s & t & E & -> & N & F & D). split; [reflexivity|]. split; [destruct s; [congruence|cbn; lia]|].
      exists s, t. split; [exact E|]. split; [reflexivity|]. split.
      + apply took_plain. eapply Forall_impl; [|exact F]. intros x. apply name_class.
      + right. split; [exact I|]. apply halted_plain. destruct D as [D|(x & t' & -> & D)]; [now left|right]. exists x, t'. split; [reflexivity|].
        apply not_true_iff_false. intros H. now apply D, name_class.
  Qed.
  Lemma post_ok w i b j : i <= List.length w ->
    (Matches e_post w i b j <-> b = i /\ exists s t, skipn i w = s ++ t /\ j = i + List.length s /\ 2 <= List.length s <= 6 /\ Forall tld_char s /\
       (List.length s = 6 \/ t = [] \/ exists x t', t = x :: t' /\ ~ tld_char x)).
  Proof.
    intros Hi. unfold e_post, q_between.
    rewrite (between_piece k [] CE _ CEmpty all_true (core_empty_cond k) (tests_empty k [])) by (auto; apply class_honest). split.
    - intros (-> & L & s & t & E & -> & T & D). split; [reflexivity|]. exists s, t.
      split; [exact E|]. split; [reflexivity|]. split; [destruct D as [D|[D _]]; [injection D as D; lia|cbn in D; lia]|]. split.
      + apply took_plain in T. eapply Forall_impl; [|exact T]. intros x. apply tld_class.
      + destruct D as [D|[_ D]]; [injection D as D; left; lia|right]. apply halted_plain in D as [D|(x & t' & -> & D)]; [now left|right]. exists x, t'. split; [reflexivity|].
        intros H. apply tld_class in H. congruence.
    - intros (-> & s & t & E & -> & N & F & D). split; [reflexivity|]. split; [lia|].
      exists s, t. split; [exact E|]. split; [reflexivity|]. split.
      + apply took_plain. eapply Forall_impl; [|exact F]. intros x. apply tld_class.
      + destruct (Nat.eq_dec (List.length s) 6) as [L|L]; [left; now rewrite L|right]. split; [cbn; lia|]. apply halted_plain.
        destruct D as [D|[D|(x & t' & -> & D)]]; [lia|now left|right]. exists x, t'. split; [reflexivity|].
        apply not_true_iff_false. intros H. now apply D, tld_class.
  Qed.

  Section Domain.
    Variable u : neu.
    Hypothesis HU : honest k u.
    Hypothesis CU : forall x, is_match u x = true <-> dom_char x.
    Notation domain := (PBetween 0 (Some 256) u e_cond).
    Notation f := (passes u (fun r => negb (lastdot r))).

    Lemma took_dom s t : In dot t -> (took f s t <-> Forall dom_char s).
    Proof.
      intros I. induction s as [|x s IH]; cbn [took]; [split; auto|]. rewrite IH. unfold passes.
      rewrite lastdot_in by (apply in_or_app; now right). cbn [negb]. rewrite andb_true_r, CU. split.
      - intros [A B]. now constructor.
      - intros H. inversion H; auto.
    Qed.

    (** Domain, dot and last piece, up to the end of the text. *)
    Lemma rest_ok w i : i <= List.length w ->
      forall m j,
      (Matches domain w i i m /\ (exists b m', Matches (PLit [46%N]) w m b m' /\ Matches e_post w m' m' j) /\ skipn j w = []) <->
      exists dom tld, skipn i w = dom ++ [dot] ++ tld /\ m = i + List.length dom /\ j = List.length w /\
        Forall dom_char dom /\ List.length dom <= 256 /\ 2 <= List.length tld <= 6 /\
        (Forall lower tld \/ (List.length dom = 256 /\ Forall tld_char tld)).
    Proof.
      intros Hi m j. split.
      - intros (M & (b & m' & L & P) & E).
        apply (between_piece k [] CE u e_cond _ (core_econd k) (econd_tests k)) in M as (_ & _ & s & t & E1 & -> & T & D); auto.
        pose proof (skip_len _ _ _ _ E1 Hi) as H1. pose proof (skip_app _ _ _ _ E1) as S1.
        apply (lit_piece k [] CE) in L as (-> & -> & t1 & E2); auto. rewrite S1 in E2. cbn [List.app] in E2. subst t.
        pose proof (skip_len _ _ [46%N] t1 S1 H1) as H2. pose proof (skip_app _ _ [46%N] t1 S1) as S2.
        apply post_ok in P as (_ & tl & t2 & E3 & -> & N & F & _); auto.
        rewrite (skip_app _ _ _ _ E3) in E. subst t2. rewrite S2, app_nil_r in E3. subst t1.
        exists s, tl. apply took_dom in T; [|now left].
        repeat match goal with |- _ /\ _ => split end; auto; try lia.
        + pose proof (f_equal (@List.length item) S2) as Q. rewrite skipn_length in Q. cbn [List.length] in *. unfold item, text in *. lia.
        + destruct D as [D|[D _]]; [injection D as D; lia|cbn in D; lia].
        + destruct D as [D|[_ D]]; [right; injection D as D; auto|left]. cbn [halted] in D. unfold passes in D.
          assert (C : is_match u 46%N = true) by (apply CU; right; right; now left). rewrite C in D. cbn in D.
          apply negb_false_iff in D. apply negb_true_iff in D. rewrite Forall_forall in F |- *. intros x I. destruct (F x I) as [Lx| ->]; [exact Lx|].
          exfalso. rewrite <- not_true_iff_false in D. apply D. apply existsb_exists. exists dot. split; [exact I|reflexivity].
      - intros (dom & tld & E1 & -> & -> & F1 & N1 & N2 & D).
        pose proof (skip_len _ _ _ _ E1 Hi) as H1. pose proof (skip_app _ _ _ _ E1) as S1. cbn [List.app] in S1.
        pose proof (skip_len _ _ [46%N] tld S1 H1) as H2. pose proof (skip_app _ _ [46%N] tld S1) as S2.
        assert (W : List.length w = i + List.length dom + 1 + List.length tld).
        { rewrite <- (firstn_skipn i w) at 1. rewrite E1, app_length, !app_length, firstn_length. cbn [List.length]. lia. }
        split; [|split].
        + apply (between_piece k [] CE u e_cond _ (core_econd k) (econd_tests k)); auto. split; [reflexivity|]. split; [lia|].
          exists dom, ([dot] ++ tld). split; [exact E1|]. split; [reflexivity|]. split; [apply took_dom; [now left|exact F1]|].
          destruct (Nat.eq_dec (List.length dom) 256) as [L|L]; [left; now rewrite L|right]. split; [cbn; lia|].
          destruct D as [D|[D _]]; [|lia]. cbn [List.app halted passes].
          apply andb_false_iff. right. apply negb_false_iff. cbn [lastdot]. apply andb_true_iff. split; [reflexivity|].
          apply negb_true_iff, not_true_iff_false. intros X. apply existsb_exists in X as (y & I & X). apply N.eqb_eq in X. subst y.
          rewrite Forall_forall in D. specialize (D _ I). unfold lower in D. lia.
        + exists (i + List.length dom), (i + List.length dom + 1). split.
          * apply (lit_piece k [] CE); [exact H1|]. repeat split. exists tld. exact S1.
          * apply post_ok; [exact H2|]. split; [reflexivity|]. exists tld, []. split; [rewrite app_nil_r; exact S2|]. split; [lia|]. split; [exact N2|].
            split; [|right; now left]. destruct D as [D|[_ D]]; [|exact D]. eapply Forall_impl; [|exact D]. intros x. now left.
        + apply skipn_all.
    Qed.
  End Domain.
End Pieces.

Lemma name_at (name rest : text) : Forall name_char name -> forall s t,
  name ++ at_sign :: rest = s ++ t -> Forall name_char s -> (t = [] \/ exists x t', t = x :: t' /\ ~ name_char x) -> s = name.
Proof.
  assert (NA : ~ name_char at_sign) by (unfold name_char, lower, digit, at_sign; cbn; unfold underscore, dot, plus, dash; intros H; intuition (try discriminate; lia)).
  induction 1 as [|x name Hx F IH]; intros s t E Fs D.
  - destruct s as [|y s]; [reflexivity|]. injection E as <- _. inversion Fs; contradiction.
  - destruct s as [|y s].
    + cbn in E. subst t. destruct D as [D|(z & t' & [= <- _] & D)]; [discriminate|contradiction].
    + injection E as <- E. f_equal. inversion Fs; subst. eapply IH; eauto.
Qed.

(** The pieces of an address are determined by the address. *)
Theorem C65_unique : forall w n d t n' d' t', Email w n d t -> Email w n' d' t' -> n = n' /\ d = d' /\ t = t'.
Proof.
  intros w n d t n' d' t' (E & _ & Fn & Fd & Ld & Lt & D) (E' & _ & Fn' & Fd' & Ld' & Lt' & D').
  assert (N : n' = n).
  { eapply (name_at n (d ++ [dot] ++ t) Fn n' ([at_sign] ++ d' ++ [dot] ++ t')); [rewrite E in E'; exact E'|exact Fn'|].
    right. eexists _, _. split; [reflexivity|]. unfold name_char, lower, digit, at_sign. cbn. unfold underscore, dot, plus, dash. intros H. intuition (try discriminate; lia). }
  subst n'. rewrite E in E'. apply app_inv_head in E'. injection E' as E'. split; [reflexivity|]. clear E Fn Fn' w n.
  (* two splittings of one text at a dot: the longer domain contains the dot of the shorter one, so the text
     behind that dot has a dot *)
  assert (W : forall a b (p q : text), a ++ [dot] ++ p = b ++ [dot] ++ q -> List.length a < List.length b -> In dot p /\ List.length q < List.length p).
  { clear. intros a. induction a as [|x a IH]; intros [|y b] p q E L; cbn in L; try lia.
    - injection E as _ E. subst p. split; [apply in_or_app; right; now left|]. rewrite app_length. cbn. lia.
    - injection E as _ E. apply (IH b); [exact E|lia]. }
  assert (ND : forall s, Forall lower s -> ~ In dot s).
  { intros s F I. rewrite Forall_forall in F. specialize (F _ I). unfold lower, dot in F. lia. }
  assert (L : List.length d = List.length d').
  { destruct (lt_eq_lt_dec (List.length d) (List.length d')) as [[L|L]|L]; [|exact L|].
    - destruct (W _ _ _ _ E' L) as [I _]. destruct D as [D|[D _]]; [now apply ND in I|lia].
    - symmetry in E'. destruct (W _ _ _ _ E' L) as [I _]. destruct D' as [D'|[D' _]]; [now apply ND in I|lia]. }
  clear - E' L. revert d' L E'. induction d as [|x d IH]; intros [|y d'] L E; try discriminate.
  - injection E as E. auto.
  - injection E as -> E. injection L as L. destruct (IH d' L E) as [-> ->]. auto.
Qed.

Lemma dom_honest k : honest k dom_unit1.
Proof. apply plain_honest. destruct k; reflexivity. Qed.

(** README.md: [ctx.try_mat(&email)] succeeds exactly on the addresses, and then the match is the whole text. *)
Theorem C65_email : forall w b j,
  Matches KStr [] email_match w 0 b j <-> b = 0 /\ j = List.length w /\ exists name dom tld, Email w name dom tld.
Proof.
  intros w b j. pose proof (no_env KStr) as CE. unfold email_match.
  change e_domain with (PBetween 0 (Some 256) dom_unit1 e_cond).
  assert (C0 : core KStr [] no_skip (PThen PStart e_name)) by (repeat constructor).
  assert (CD : core KStr [] no_skip (PBetween 0 (Some 256) dom_unit1 e_cond)) by (constructor; apply core_econd).
  assert (C1 : core KStr [] no_skip (PSepOnce (PBetween 0 (Some 256) dom_unit1 e_cond) (PLit [46%N]) e_post)) by (constructor; [exact CD|constructor|repeat constructor]).
  assert (C2 : core KStr [] no_skip (PSepOnce (PThen PStart e_name) (PLit [64%N]) (PSepOnce (PBetween 0 (Some 256) dom_unit1 e_cond) (PLit [46%N]) e_post)))
    by (constructor; [exact C0|constructor|exact C1]).
  rewrite (then_ok KStr [] CE) by (auto; try constructor; lia). split.
  - intros (m & b' & M & E).
    apply (seponce_ok KStr [] CE) in M as (-> & b0 & m1 & b1 & m2 & b2 & N & A & R); [|exact C0|constructor|exact C1|lia].
    apply (then_ok KStr [] CE) in N as (m0 & b3 & S0 & N); [|constructor|repeat constructor|lia].
    apply (start_piece KStr [] CE) in S0 as (-> & -> & _); [|lia].
    apply name_ok in N as (-> & s & t & E1 & -> & NE & F & _); [|lia]. cbn [skipn Nat.add] in *.
    pose proof (skip_len w 0 s t E1 ltac:(lia)) as H1. pose proof (skip_app w 0 s t E1) as S1. cbn [Nat.add] in *.
    apply (lit_piece KStr [] CE) in A as (-> & -> & t1 & E2); [|exact H1]. rewrite S1 in E2. subst t.
    pose proof (skip_len _ _ [64%N] t1 S1 H1) as H2. pose proof (skip_app _ _ [64%N] t1 S1) as S2.
    apply (seponce_ok KStr [] CE) in R as (-> & b4 & m3 & b5 & m4 & b6 & D & L & P); [|exact CD|constructor|repeat constructor|exact H2].
    pose proof (matches_in KStr [] CE _ _ _ _ _ CD H2 D) as (_ & _ & H3).
    pose proof (matches_in KStr [] CE _ _ _ _ _ (core_lit _ _ _ _) H3 L) as (_ & _ & H4).
    assert (Bd : b4 = List.length s + List.length [64%N]).
    { apply (between_piece KStr [] CE _ e_cond _ (core_econd KStr) (econd_tests KStr)) in D as (-> & _); [reflexivity|exact H2|apply dom_honest]. }
    assert (Bp : b6 = m4) by (apply post_ok in P as (-> & _); [reflexivity|exact H4]). subst b4 b6.
    pose proof (matches_in KStr [] CE e_post _ _ _ _ ltac:(repeat constructor) H4 P) as (_ & _ & H5).
    apply (end_piece KStr [] CE) in E as (-> & -> & E); [|exact H5].
    destruct (proj1 (rest_ok KStr dom_unit1 (dom_honest KStr) dom_class1 w _ H2 m3 m)) as (dom & tld & E3 & _ & -> & F1 & N1 & N2 & DD); [eauto 8|].
    split; [reflexivity|]. split; [reflexivity|]. exists s, dom, tld.
    rewrite S2 in E3. rewrite E3 in E1. unfold Email. repeat match goal with |- _ /\ _ => split end; auto; try lia; exact E1.
  - intros (-> & -> & name & dom & tld & E & NE & F & F1 & N1 & N2 & D).
    pose proof (skip_len w 0 name _ E ltac:(lia)) as H1. pose proof (skip_app w 0 name _ E) as S1. cbn [Nat.add] in *.
    pose proof (skip_len _ _ [64%N] _ S1 H1) as H2. pose proof (skip_app _ _ [64%N] _ S1) as S2.
    destruct (proj2 (rest_ok KStr dom_unit1 (dom_honest KStr) dom_class1 w _ H2 (List.length name + List.length [64%N] + List.length dom) (List.length w))) as (D1 & (b & m' & L & P) & _).
    { exists dom, tld. repeat match goal with |- _ /\ _ => split end; auto; try lia. }
    exists (List.length w), (List.length w). split; [|apply (end_piece KStr [] CE); [lia|]; repeat split; apply skipn_all].
    apply (seponce_ok KStr [] CE); [exact C0|constructor|exact C1|lia|]. split; [reflexivity|].
    exists 0, (List.length name), (List.length name), (List.length name + 1), (List.length name + 1).
    split; [|split].
    + apply (then_ok KStr [] CE); [constructor|repeat constructor|lia|]. exists 0, 0. split; [apply (start_piece KStr [] CE); [lia|auto]|].
      apply name_ok; [lia|]. split; [reflexivity|]. exists name, ([at_sign] ++ dom ++ [dot] ++ tld). split; [exact E|]. split; [reflexivity|].
      split; [exact NE|]. split; [exact F|]. right. eexists _, _. split; [reflexivity|].
      unfold name_char, lower, digit, at_sign. cbn. unfold underscore, dot, plus, dash. intros H. intuition (try discriminate; lia).
    + apply (lit_piece KStr [] CE); [exact H1|]. repeat split. eexists. exact S1.
    + apply (seponce_ok KStr [] CE); [exact CD|constructor|repeat constructor|exact H2|]. split; [reflexivity|].
      eauto 10.
Qed.

(** It fails on every other text. *)
Theorem C65_refuses : forall w,
  (exists e, Fails KStr [] email_match w 0 e) <-> ~ exists name dom tld, Email w name dom tld.
Proof.
  intros w. pose proof (no_env KStr) as CE.
  assert (C : core KStr [] no_skip email_match) by (repeat constructor).
  split.
  - intros (e & F) X. assert (M : Matches KStr [] email_match w 0 0 (List.length w)) by (apply C65_email; auto).
    exact (matches_fails KStr [] CE _ _ _ _ _ _ C (Nat.le_0_l _) M F).
  - intros N. destruct (checked_total KStr [] no_skip [] no_skip_skipper (no_skip_implements _ _) CE (fun _ => false) (fun _ => 0) 0
      ltac:(intros x p E; destruct x; discriminate) 0 email_match w 0 ltac:(intros x p E; destruct x; discriminate) C eq_refl ltac:(lia)) as (r & c' & R).
    destruct (plain_sound KStr [] email_match w 0 r c' CE C ltac:(lia) R) as [(b & j & -> & -> & _ & _ & _ & P)|(e & -> & -> & P)].
    + exfalso. apply N. apply (matches_peg KStr [] CE) in P; [|exact C|lia]. apply C65_email in P. tauto.
    + exists e. apply (fails_peg KStr [] CE); auto. lia.
Qed.

(** bench/regex_cap.rs: [ctx.ctor(&email)] returns the three pieces. *)
Lemma triple_ok w i v j : Tree KStr [] no_skip is_slice w (PSepOnce e_name (PLit [64%N]) (PSepOnce e_domain_cap (PLit [46%N]) e_post)) i v j ->
  exists v', triple v = Ok v'.
Proof.
  intros T. inversion T; subst; try contradiction.
  match goal with X : Tree _ _ _ _ _ (PSepOnce e_domain_cap _ _) _ _ _ |- _ => inversion X; subst; try contradiction end.
  eexists. reflexivity.
Qed.
Lemma cap_tcore : tcore KStr [] no_skip is_slice email_ctor.
Proof.
  constructor; [|constructor|constructor]. constructor; [|exact triple_ok].
  constructor; [constructor; [exact I|repeat constructor]|constructor|].
  constructor; [constructor; [exact I|constructor; apply core_econd]|constructor|constructor; [exact I|repeat constructor]].
Qed.
Lemma no_tenv : tcore_env KStr [] no_skip is_slice.
Proof. intros x p E. destruct x; discriminate. Qed.

Definition EmailParses (w : text) (r : res val) (c : ctx) : Prop :=
  Builds extract_text [] [] email_ctor (cx KStr w 0) tt r c tt.

Section Inv.
  Variables (k : kind) (G : env).
  Notation Tree := (Tree k G no_skip is_slice).
  Notation Peg := (Peg k G no_skip).
  Lemma seponce_tree w p s q i v j : Tree w (PSepOnce p s q) i v j <->
    exists a b j1 b1 j2, v = VPair a b /\ Tree w p i a j1 /\ Peg w s j1 (OK b1 j2) /\ Tree w q j2 b j.
  Proof.
    split.
    - intros T. inversion T; subst; try contradiction. eauto 10.
    - intros (a & b & j1 & b1 & j2 & -> & T1 & P & T2). eapply (Tree_seponce k G no_skip); eassumption.
  Qed.
  Lemma enclose_tree w p o c i v j : Tree w (PEnclose p o c) i v j <->
    exists b j1 j2 b2, Peg w o i (OK b j1) /\ Tree w p j1 v j2 /\ Peg w c j2 (OK b2 j).
  Proof.
    split.
    - intros T. inversion T; subst; try contradiction. eauto 10.
    - intros (b & j1 & j2 & b2 & T1 & P & T2). eapply (Tree_enclose k G no_skip); eassumption.
  Qed.
  Lemma map_tree w p f i v j : Tree w (PMap p f) i v j <-> exists v0, Tree w p i v0 j /\ f v0 = Ok v.
  Proof.
    split.
    - intros T. inversion T; subst; try contradiction. eauto.
    - intros (v0 & T & E). eapply Tree_map; eassumption.
  Qed.
  Hypothesis CE : core_env k G no_skip.
  Lemma leaf_tree w p i v j : leafy p -> core k G no_skip p -> i <= List.length w ->
    (Tree w p i v j <-> exists b, Matches k G p w i b j /\ v = VText (slice w b j)).
  Proof.
    intros L C Hi. split.
    - intros T. apply leafy_inv in T as (b & P & E); [|exact L]. exists b. split; [|exact E]. now apply (matches_peg k G CE).
    - intros (b & P & ->). apply (matches_peg k G CE) in P; auto. eapply Tree_leaf; eauto. reflexivity.
  Qed.
End Inv.

Theorem C65_capture : forall w v c,
  EmailParses w (Ok v) c <->
  c = cx KStr w (List.length w) /\
  exists name dom tld, Email w name dom tld /\ v = VList [VText name; VText dom; VText tld].
Proof.
  intros w v c. pose proof (no_env KStr) as CE. unfold EmailParses.
  assert (HD : honest KStr dom_unit2) by apply class_honest.
  change email_ctor with (PEnclose (PMap (PSepOnce e_name (PLit [64%N]) (PSepOnce (PBetween 0 (Some 256) dom_unit2 e_cond) (PLit [46%N]) e_post)) triple) PStart PEnd).
  assert (CD : core KStr [] no_skip (PBetween 0 (Some 256) dom_unit2 e_cond)) by (constructor; apply core_econd).
  rewrite (ctor_tree KStr [] _ w 0 v c no_tenv cap_tcore (Nat.le_0_l _)). split.
  - intros (j & -> & T).
    apply enclose_tree in T as (b & j1 & j2 & b2 & S0 & T & PE). inversion S0; subst. clear S0.
    apply map_tree in T as (v0 & T & TV).
    apply seponce_tree in T as (a & v1 & m1 & b1 & m2 & -> & TN & A & R).
    apply (leaf_tree KStr [] CE) in TN as (b0 & N & ->); [|exact I|repeat constructor|lia].
    apply name_ok in N as (-> & s & t & E1 & -> & NE & F & _); [|lia]. cbn [skipn Nat.add] in *.
    pose proof (skip_len w 0 s t E1 ltac:(lia)) as H1. pose proof (skip_app w 0 s t E1) as S1. cbn [Nat.add] in *.
    apply (matches_peg KStr [] CE) in A; [|constructor|exact H1].
    apply (lit_piece KStr [] CE) in A as (-> & -> & t1 & E2); [|exact H1]. rewrite S1 in E2. subst t.
    pose proof (skip_len _ _ [64%N] t1 S1 H1) as H2. pose proof (skip_app _ _ [64%N] t1 S1) as S2.
    apply seponce_tree in R as (a & v2 & m3 & b5 & m4 & -> & TD & L & TP).
    apply (leaf_tree KStr [] CE) in TD as (b4 & D & ->); [|exact I|exact CD|exact H2].
    pose proof (matches_in KStr [] CE _ _ _ _ _ CD H2 D) as (_ & _ & H3).
    apply (matches_peg KStr [] CE) in L; [|constructor|exact H3].
    pose proof (matches_in KStr [] CE _ _ _ _ _ (core_lit _ _ _ _) H3 L) as (_ & _ & H4).
    apply (leaf_tree KStr [] CE) in TP as (b6 & P & ->); [|exact I|repeat constructor|exact H4].
    assert (Bd : b4 = List.length s + List.length [64%N]).
    { apply (between_piece KStr [] CE _ e_cond _ (core_econd KStr) (econd_tests KStr)) in D as (-> & _); [reflexivity|exact H2|exact HD]. }
    assert (Bp : b6 = m4) by (apply post_ok in P as (-> & _); [reflexivity|exact H4]). subst b4 b6.
    pose proof (matches_in KStr [] CE e_post _ _ _ _ ltac:(repeat constructor) H4 P) as (_ & _ & H5).
    apply (matches_peg KStr [] CE) in PE; [|constructor|exact H5].
    apply (end_piece KStr [] CE) in PE as (-> & -> & E); [|exact H5].
    destruct (proj1 (rest_ok KStr dom_unit2 HD dom_class2 w _ H2 m3 j2)) as (dom & tld & E3 & -> & -> & F1 & N1 & N2 & DD); [eauto 8|].
    split; [reflexivity|]. exists s, dom, tld. cbn [triple] in TV. injection TV as <-.
    apply (lit_piece KStr [] CE) in L as (_ & -> & _); [|exact H3].
    pose proof (skip_app _ _ _ _ E3) as S4. pose proof (skip_app _ _ [dot] _ S4) as S5.
    split.
    + rewrite S2 in E3. rewrite E3 in E1. unfold Email. repeat match goal with |- _ /\ _ => split end; auto; try lia; exact E1.
    + repeat f_equal.
      * apply (skip_slice w 0 s _ E1).
      * apply (skip_slice w _ dom _ E3).
      * rewrite <- (app_nil_r tld) in S5.
        replace (List.length w) with (List.length s + List.length [64%N] + List.length dom + List.length [dot] + List.length tld).
        -- exact (skip_slice w _ tld _ S5).
        -- pose proof (f_equal (@List.length item) S5) as Q. rewrite skipn_length, app_nil_r in Q. unfold item, text in *. cbn [List.length] in *. lia.
  - intros (-> & name & dom & tld & (E & NE & F & F1 & N1 & N2 & D) & ->). exists (List.length w). split; [reflexivity|].
    pose proof (skip_len w 0 name _ E ltac:(lia)) as H1. pose proof (skip_app w 0 name _ E) as S1. cbn [Nat.add] in *.
    pose proof (skip_len _ _ [64%N] _ S1 H1) as H2. pose proof (skip_app _ _ [64%N] _ S1) as S2.
    pose proof (skip_app _ _ _ _ S2) as S4. pose proof (skip_app _ _ [dot] _ S4) as S5.
    destruct (proj2 (rest_ok KStr dom_unit2 HD dom_class2 w _ H2 (List.length name + List.length [64%N] + List.length dom) (List.length w))) as (D1 & (b & m' & L & P) & _).
    { exists dom, tld. repeat match goal with |- _ /\ _ => split end; auto; try lia. }
    pose proof (matches_in KStr [] CE _ _ _ _ _ CD H2 D1) as (_ & _ & H3).
    pose proof (matches_in KStr [] CE _ _ _ _ _ (core_lit _ _ _ _) H3 L) as (_ & _ & H4).
    apply enclose_tree. exists 0, 0, (List.length w), (List.length w). split; [constructor|]. split; [|now constructor].
    apply map_tree. exists (VPair (VText name) (VPair (VText dom) (VText tld))). split; [|reflexivity].
    apply seponce_tree. exists (VText name), (VPair (VText dom) (VText tld)), (List.length name), (List.length name), (List.length name + 1).
    split; [reflexivity|]. split; [|split].
    + apply (leaf_tree KStr [] CE); [exact I|repeat constructor|lia|]. exists 0. split.
      * apply name_ok; [lia|]. split; [reflexivity|]. exists name, ([at_sign] ++ dom ++ [dot] ++ tld). split; [exact E|]. split; [reflexivity|].
        split; [exact NE|]. split; [exact F|]. right. eexists _, _. split; [reflexivity|].
        unfold name_char, lower, digit, at_sign. cbn. unfold underscore, dot, plus, dash. intros H. intuition (try discriminate; lia).
      * f_equal. symmetry. apply (skip_slice w 0 name _ E).
    + apply (matches_peg KStr [] CE); [constructor|exact H1|]. apply (lit_piece KStr [] CE); [exact H1|]. repeat split. eexists. exact S1.
    + apply seponce_tree. eexists _, _, _, b, m'. split; [reflexivity|]. split; [|split].
      * apply (leaf_tree KStr [] CE); [exact I|exact CD|exact H2|]. eexists. split; [exact D1|]. f_equal. symmetry. apply (skip_slice w _ dom _ S2).
      * apply (matches_peg KStr [] CE); [constructor|exact H3|exact L].
      * apply (leaf_tree KStr [] CE); [exact I|repeat constructor|exact H4|]. eexists. split; [exact P|]. f_equal. symmetry.
        apply (lit_piece KStr [] CE) in L as (_ & -> & _); [|exact H3].
        rewrite <- (app_nil_r tld) in S5.
        replace (List.length w) with (List.length name + List.length [64%N] + List.length dom + List.length [46%N] + List.length tld).
        -- exact (skip_slice w _ tld _ S5).
        -- pose proof (f_equal (@List.length item) S5) as Q. rewrite skipn_length, app_nil_r in Q. unfold item, text in *. cbn [List.length] in *. lia.
Qed.

(** Otherwise it returns an error, with the cursor at the start; it always returns. *)
Theorem C65_capture_refuses : forall w,
  (exists e, EmailParses w (Err e) (cx KStr w 0)) <-> ~ exists name dom tld, Email w name dom tld.
Proof.
  intros w. pose proof (no_env KStr) as CE.
  assert (X : forall r c, EmailParses w r c -> (exists v, r = Ok v) \/ (exists e, r = Err e /\ c = cx KStr w 0)).
  { intros r c B. destruct (builds_spec KStr [] no_skip [] is_slice extract_text no_skip_skipper no_tenv (no_skip_implements _ _) (extract_text_slice KStr)
      email_ctor w 0 tt r c tt cap_tcore (Nat.le_0_l _) B) as [(v & j & y & -> & _)|(e & y & -> & -> & _ & _ & Y)]; [left; eauto|right].
    unfold no_skip in Y. subst y. eauto. }
  split.
  - intros (e & (n1 & B1 & _)) (name & dom & tld & E).
    assert (B2 : EmailParses w (Ok (VList [VText name; VText dom; VText tld])) (cx KStr w (List.length w))) by (apply C65_capture; eauto 8).
    assert (B1' : EmailParses w (Err e) (cx KStr w 0)) by (exists n1; split; [exact B1|discriminate]).
    destruct (builds_spec KStr [] no_skip [] is_slice extract_text no_skip_skipper no_tenv (no_skip_implements _ _) (extract_text_slice KStr)
      email_ctor w 0 tt _ _ tt cap_tcore (Nat.le_0_l _) B1') as [(v & j & y & E1 & _)|(e' & y & _ & _ & P & _)]; [discriminate|].
    destruct (builds_spec KStr [] no_skip [] is_slice extract_text no_skip_skipper no_tenv (no_skip_implements _ _) (extract_text_slice KStr)
      email_ctor w 0 tt _ _ tt cap_tcore (Nat.le_0_l _) B2) as [(v & j & y' & _ & _ & T & _)|(e'' & y' & E1 & _)]; [|discriminate].
    exact (tclash KStr [] no_skip [] is_slice no_skip_skipper no_tenv (no_skip_implements _ _) w _ _ _ _ _ T P cap_tcore (Nat.le_0_l _) eq_refl).
  - intros N. destruct (build_total KStr [] no_skip [] no_skip_skipper (no_skip_implements _ _) is_slice unit extract_text (fun _ => 0) 0 email_ctor w 0 tt
      no_tenv cap_tcore) as (r & c & [] & B).
    + intros. now apply extract_text_slice.
    + intros x p E. destruct x; discriminate.
    + apply (wfb_wf KStr [] no_skip [] no_skip_skipper (no_skip_implements _ _) CE (fun _ => false) (fun _ => 0) 0 ltac:(intros x p E; destruct x; discriminate));
        [exact (tcore_core _ _ _ _ _ cap_tcore)|reflexivity].
    + lia.
    + destruct (X r c B) as [(v & ->)|(e & -> & ->)]; [|eauto]. exfalso. apply N. apply C65_capture in B as (_ & n & d & t & E & _). eauto.
Qed.

(** Both programs accept the same texts. *)
Theorem C65_modes : forall w,
  (exists b j, Matches KStr [] email_match w 0 b j) <-> (exists v c, EmailParses w (Ok v) c).
Proof.
  intros w. split.
  - intros (b & j & M). apply C65_email in M as (_ & _ & n & d & t & E). eexists _, _. apply C65_capture. eauto 8.
  - intros (v & c & B). apply C65_capture in B as (_ & n & d & t & E & _). exists 0, (List.length w). apply C65_email. eauto 6.
Qed.

(** ** Comparison with the regular expression *)

Theorem C65_in_regex : forall w n d t, Email w n d t -> d <> [] -> EmailRegex w n d t.
Proof.
  intros w n d t (E & N & F & Fd & L & Lt & D) H. unfold EmailRegex. repeat match goal with |- _ /\ _ => split end; auto; try lia.
  destruct D as [D|[_ D]]; [|exact D]. eapply Forall_impl; [|exact D]. intros x. now left.
Qed.
Theorem C65_from_regex : forall w n d t, EmailRegex w n d t -> List.length d <= 256 -> ~ In dot t -> Email w n d t.
Proof.
  intros w n d t (E & N & F & H & Fd & Lt & D) L I. unfold Email. repeat match goal with |- _ /\ _ => split end; auto; try lia.
  left. rewrite Forall_forall in *. intros x Ix. destruct (D x Ix) as [Lx| ->]; [exact Lx|contradiction].
Qed.

Ltac chars := repeat (constructor; [unfold name_char, dom_char, tld_char, lower, digit, dot, dash, plus, underscore; cbn [In]; lia|]); constructor.

(** The two languages differ in both directions: the parser refuses [a@b.c.d], which the regular
    expression accepts (with a dot in the last piece), and accepts [a@.com], which it refuses. *)
Definition t1 : text := [97; 64; 98; 46; 99; 46; 100]%N.
Definition t2 : text := [97; 64; 46; 99; 111; 109]%N.
Theorem C65_regex_refuted :
  (exists w n d t, EmailRegex w n d t /\ exists e, Fails KStr [] email_match w 0 e) /\
  (exists w, (exists j, Matches KStr [] email_match w 0 0 j) /\ ~ exists n d t, EmailRegex w n d t).
Proof.
  split.
  - exists t1, [97%N], [98%N], [99; 46; 100]%N. split.
    + unfold Email, EmailRegex; repeat match goal with |- _ /\ _ => split end; try discriminate; try reflexivity; cbn [List.length]; try lia; chars.
    + eexists. exists 60. vm_compute. reflexivity.
  - exists t2. split.
    + exists 6. apply C65_email. split; [reflexivity|]. split; [reflexivity|]. exists [97%N], [], [99; 111; 109]%N.
      unfold Email, EmailRegex; repeat match goal with |- _ /\ _ => split end; try discriminate; try reflexivity; cbn [List.length]; try lia; try chars. chars.
    + intros (n & d & t & E & N & F & H & Fd & Lt & D).
      assert (X : n = [97%N]).
      { eapply (name_at [97%N] [46; 99; 111; 109]%N); [chars|exact E|exact F|]. right. eexists _, _. split; [reflexivity|].
        unfold name_char, lower, digit, at_sign. cbn. unfold underscore, dot, plus, dash. intros Z. intuition (try discriminate; lia). }
      subst n. injection E as E. destruct d as [|x d]; [congruence|]. injection E as <- E.
      assert (In dot [99; 111; 109]%N) by (rewrite E; apply in_or_app; right; now left).
      cbn in *. unfold dot in *. intuition discriminate.
Qed.

(** The addresses of README.md:86-97. *)
Definition chars_of (s : string) : text := map N_of_ascii (list_ascii_of_string s).
Definition accepts (w : text) : bool := match fst (try_mat_top 200 [] [] email_match (cx KStr w 0)) with Ok _ => true | _ => false end.
Definition captures (w : text) : res val := fst (construct extract_text 200 [] [] [] email_ctor (cx KStr w 0, tt)).
Example C65_case :
  map accepts (map chars_of ["plainaddress"; "#@%^%#$@#$@#.com"; "@example.com"; "joe smith <email@example.com>"; "email@example.com";
    "firstname.lastname@example.com"; "email@subdomain.example.com"]%string) = [false; false; false; false; true; true; true] /\
  captures (chars_of "email@subdomain.example.com"%string) =
    Ok (VList [VText (chars_of "email"%string); VText (chars_of "subdomain.example"%string); VText (chars_of "com"%string)]) /\
  Email (chars_of "email@subdomain.example.com"%string) (chars_of "email"%string) (chars_of "subdomain.example"%string) (chars_of "com"%string).
Proof.
  split; [vm_compute; reflexivity|]. split; [vm_compute; reflexivity|].
  unfold Email, EmailRegex; repeat match goal with |- _ /\ _ => split end; try discriminate; try reflexivity; cbn [List.length chars_of]; try (vm_compute; lia).
  1, 2: vm_compute chars_of; chars. left. vm_compute chars_of. chars.
Qed.

Print Assumptions C65_unique.
Print Assumptions C65_email.
Print Assumptions C65_refuses.
Print Assumptions C65_capture.
Print Assumptions C65_capture_refuses.
Print Assumptions C65_modes.
Print Assumptions C65_in_regex.
Print Assumptions C65_from_regex.
Print Assumptions C65_regex_refuted.
