(** Corollaries about units without conditions, literals, unit classes and quantifier spellings. *)

From Coq Require Import List Arith NArith Bool Lia String Ascii.
From Verif Require Import Base Text Context Neu Syntax Regex Ctor Api TextProofs Spec Core Obs Laws UnitLaws.
Import ListNotations.
Local Open Scope nat_scope.

Section Runs.
  Variable k : kind.
  Variable G : env.
  Hypothesis CE : core_env k G no_skip.
  Notation Matches := (Matches k G).
  Notation Fails := (Fails k G).

  Lemma runs u w i lim j :
    RunTo (Takes k G u CEmpty w i) (Leaves k G u CEmpty w i) lim i j <->
    exists n, j = i + n /\ MaxRun (is_match u) w i lim n.
  Proof.
    split.
    - intros H. assert (exists n, j = i + n) as [n ->] by (destruct H; exists (j - i); lia).
      exists n. split; auto. now apply (runto_maxrun k G).
    - intros (n & -> & H). now apply (runto_maxrun k G).
  Qed.

  Lemma no_raise u w i lim e : ~ RunRaises (Takes k G u CEmpty w i) (fun t => Raises k u CEmpty w i t e) lim i.
  Proof. intros (t & _ & _ & _ & H). eapply raises_empty; eauto. Qed.

  Lemma maxrun_det f w i lim n m : MaxRun f w i lim n -> MaxRun f w i lim m -> n = m.
  Proof.
    assert (L : forall n m, MaxRun f w i lim n -> MaxRun f w i lim m -> n < m -> False).
    { intros a b (A1 & A2 & A3) (B1 & B2 & B3) H. destruct (B1 a H) as (x & E & F). destruct A3 as [->|A3].
      - simpl in *. lia.
      - rewrite (A3 x E) in F. discriminate. }
    intros H1 H2. destruct (Nat.lt_trichotomy n m) as [H|[H|H]]; auto; exfalso; eauto.
  Qed.

  Lemma maxrun_0 f w i lim : lim <> Some 0 ->
    (MaxRun f w i lim 0 <-> forall x, nth_error w i = Some x -> f x = false).
  Proof.
    intros L. split.
    - intros (_ & _ & [->|H]); [easy|]. now rewrite Nat.add_0_r in H.
    - intros H. split; [lia|]. split; [destruct lim; auto with arith|]. right. now rewrite Nat.add_0_r.
  Qed.

  Lemma leaves_run u w i lim : lim <> Some 0 -> (Leaves k G u CEmpty w i i <-> MaxRun (is_match u) w i lim 0).
  Proof. intros L. rewrite (leaves_empty k G), maxrun_0; tauto. Qed.

  Lemma many0_run u w i b j : i <= List.length w ->
    (Matches (PMany0 u CEmpty) w i b j <-> b = i /\ exists n, j = i + n /\ MaxRun (is_match u) w i None n).
  Proof. intros Hi. rewrite (many0_ok k G CE u CEmpty); [|constructor|auto]. now rewrite runs. Qed.
  Lemma many0_total u w i e : i <= List.length w -> ~ Fails (PMany0 u CEmpty) w i e.
  Proof. intros Hi. rewrite (many0_err k G CE u CEmpty); [|constructor|auto]. apply no_raise. Qed.

  Lemma many1_run u w i b j : i <= List.length w ->
    (Matches (PMany1 u CEmpty) w i b j <-> b = i /\ exists n, 0 < n /\ j = i + n /\ MaxRun (is_match u) w i None n).
  Proof.
    intros Hi. rewrite (many1_ok k G CE u CEmpty); [|constructor|auto]. rewrite runs. split.
    - intros (-> & H & n & -> & M). split; auto. exists n. repeat split; try apply M. lia.
    - intros (-> & n & H & -> & M). repeat split; [lia|eauto].
  Qed.
  Lemma many1_fails u w i e : i <= List.length w ->
    (Fails (PMany1 u CEmpty) w i e <-> e = EMany1 /\ MaxRun (is_match u) w i None 0).
  Proof.
    intros Hi. rewrite (many1_err k G CE u CEmpty); [|constructor|auto]. rewrite (leaves_run u w i None) by discriminate.
    pose proof (no_raise u w i None e). tauto.
  Qed.

  Lemma takes_one u w i : Takes k G u CEmpty w i i <-> MaxRun (is_match u) w i (Some 1) 1.
  Proof.
    rewrite (takes_empty k G). split.
    - intros (x & E & M). split; [|split; auto]. intros [|m] H; [|lia]. rewrite Nat.add_0_r. eauto.
    - intros (H & _). destruct (H 0) as (x & E); [lia|]. rewrite Nat.add_0_r in E. eauto.
  Qed.

  Lemma once_run u w i b j : i <= List.length w ->
    (Matches (POnce u CEmpty) w i b j <-> b = i /\ j = i + 1 /\ exists x, nth_error w i = Some x /\ is_match u x = true).
  Proof.
    intros Hi. rewrite (once_ok k G CE u CEmpty); [|constructor|auto]. rewrite (takes_empty k G).
    replace (i + 1) with (S i) by lia. tauto.
  Qed.
  Lemma once_fails u w i e : i <= List.length w ->
    (Fails (POnce u CEmpty) w i e <-> e = EOnce /\ forall x, nth_error w i = Some x -> is_match u x = false).
  Proof.
    intros Hi. rewrite (once_err k G CE u CEmpty); [|constructor|auto]. rewrite (leaves_empty k G).
    pose proof (raises_empty k u w i i e). tauto.
  Qed.
  Lemma opt_run u w i b j : i <= List.length w ->
    (Matches (POpt u CEmpty) w i b j <-> b = i /\ exists n, j = i + n /\ MaxRun (is_match u) w i (Some 1) n).
  Proof.
    intros Hi. rewrite (opt_ok k G CE u CEmpty); [|constructor|auto]. rewrite takes_one, (leaves_run u w i (Some 1)) by discriminate.
    split.
    - intros (-> & [(-> & M)|(-> & M)]); split; auto; [exists 1|exists 0]; split; auto; lia.
    - intros (-> & n & -> & M). split; auto. assert (n <= 1) by (destruct M as (_ & H & _); auto).
      destruct n as [|[|n]]; [right|left|lia]; split; auto; lia.
  Qed.
  Lemma opt_total u w i e : i <= List.length w -> ~ Fails (POpt u CEmpty) w i e.
  Proof. intros Hi. rewrite (opt_err k G CE u CEmpty); [|constructor|auto]. apply raises_empty. Qed.

  Lemma between_run u m n w i b j : i <= List.length w -> honest k u ->
    (Matches (PBetween m n u CEmpty) w i b j <-> b = i /\ exists t, j = i + t /\ MaxRun (is_match u) w i n t /\ m <= t).
  Proof.
    intros Hi H. rewrite (between_ok k G CE u CEmpty); [|constructor|auto|auto]. rewrite runs. split.
    - intros (-> & L & t & -> & M). split; auto. exists t. repeat split; try apply M. lia.
    - intros (-> & t & -> & M & L). repeat split; [lia|eauto].
  Qed.
  Lemma between_fails u m n w i e : i <= List.length w -> honest k u ->
    (Fails (PBetween m n u CEmpty) w i e <-> e = EBetween /\ exists t, MaxRun (is_match u) w i n t /\ t < m).
  Proof.
    intros Hi H. split.
    - intros F. destruct (between_err k G CE u CEmpty ltac:(constructor) w i Hi m n e H F) as [(-> & N)|R]; [|now apply no_raise in R].
      split; auto. destruct (maxrun_exists (is_match u) w i n) as [t M]. exists t. split; auto.
      destruct (Nat.lt_ge_cases t m) as [L|L]; auto. exfalso. apply N. exists i, (i + t). apply between_run; eauto.
    - intros (-> & t & M & L). apply (between_ko k G CE u CEmpty ltac:(constructor) w i Hi m n (i + t) H); [|lia].
      apply runs. eauto.
  Qed.

  Lemma times_run u r w i b j : i <= List.length w -> honest k u ->
    (Matches (PTimes r u CEmpty) w i b j <-> b = i /\ exists t, j = i + t /\ MaxRun (is_match u) w i (cap r) t /\ InRange r t).
  Proof.
    intros Hi H. rewrite (times_ok k G CE u CEmpty); [|constructor|auto|auto]. rewrite runs. split.
    - intros (-> & (t & -> & M) & L). split; auto. exists t. replace (i + t - i) with t in L by lia. auto.
    - intros (-> & t & -> & M & L). replace (i + t - i) with t by lia. repeat split; eauto; apply L.
  Qed.
  Lemma times_fails u r w i e : i <= List.length w -> honest k u ->
    (Fails (PTimes r u CEmpty) w i e <-> e = ETimes /\ exists t, MaxRun (is_match u) w i (cap r) t /\ ~ InRange r t).
  Proof.
    intros Hi H. split.
    - intros F. destruct (times_err k G CE u CEmpty ltac:(constructor) w i Hi r e H F) as [(-> & N)|R]; [|now apply no_raise in R].
      split; auto. destruct (maxrun_exists (is_match u) w i (cap r)) as [t M]. exists t. split; auto.
      intros L. apply N. exists i, (i + t). apply times_run; eauto.
    - intros (-> & t & M & L). apply (times_ko k G CE u CEmpty ltac:(constructor) w i Hi r (i + t) H).
      + apply runs. eauto.
      + now replace (i + t - i) with t by lia.
  Qed.

  Lemma neuthen_run u v w i b j : i <= List.length w -> honest k u -> honest k v ->
    (Matches (PNeuThen u v CEmpty) w i b j <-> b = i /\ j = i + 2 /\
      (exists x y, nth_error w i = Some x /\ is_match u x = true /\ nth_error w (i + 1) = Some y /\ is_match v y = true)).
  Proof.
    intros Hi H1 H2. rewrite (neuthen_ok k G CE u CEmpty); [|constructor|auto|auto|auto].
    rewrite !(takes_empty k G). replace (i + 1) with (S i) by lia. split.
    - intros (-> & -> & (x & ? & ?) & y & ? & ?). eauto 10.
    - intros (-> & -> & x & y & ? & ? & ? & ?). eauto 10.
  Qed.

  (** *** Quantifier spellings *)

  Section Spelling.
    Variable u : neu.
    Hypothesis H : honest k u.
    Variable c : cond.
    Hypothesis CC : core_cond k G no_skip c.
    Variable w : text.
    Variable i : nat.
    Hypothesis Hi : i <= List.length w.

    Lemma once_count b j : Matches (POnce u c) w i b j <-> Matches (PBetween 1 (Some 1) u c) w i b j.
    Proof.
      rewrite (once_ok k G CE u c CC w i Hi), (between_ok k G CE u c CC w i Hi 1 (Some 1) b j H). split.
      - intros (-> & -> & T). split; auto. split; [lia|]. split; [lia|]. split.
        + intros m A B. now replace m with i by lia.
        + left. f_equal. lia.
      - intros (-> & L & A & B & D). assert (j - i = 1) by (destruct D as [[= E]|[L' _]]; simpl in *; lia).
        split; auto. split; [lia|]. apply B; lia.
    Qed.
    Lemma many0_atleast b j : Matches (PMany0 u c) w i b j <-> Matches (PBetween 0 None u c) w i b j.
    Proof.
      rewrite (many0_ok k G CE u c CC w i Hi), (between_ok k G CE u c CC w i Hi 0 None b j H). split.
      - intros (-> & R). split; auto. split; auto. destruct R; lia.
      - tauto.
    Qed.
    Lemma many1_atleast b j : Matches (PMany1 u c) w i b j <-> Matches (PBetween 1 None u c) w i b j.
    Proof.
      rewrite (many1_ok k G CE u c CC w i Hi), (between_ok k G CE u c CC w i Hi 1 None b j H).
      replace (i + 1) with (S i) by lia. unfold lt. tauto.
    Qed.
    Lemma opt_atmost b j : Matches (POpt u c) w i b j <-> Matches (PBetween 0 (Some 1) u c) w i b j.
    Proof.
      rewrite (opt_ok k G CE u c CC w i Hi), (between_ok k G CE u c CC w i Hi 0 (Some 1) b j H). split.
      - intros (-> & [(-> & T)|(-> & L)]); split; auto; (split; [lia|]); (split; [lia|]); split.
        + intros m A B. now replace m with i by lia.
        + left. f_equal. lia.
        + lia.
        + right. split; auto. simpl. lia.
      - intros (-> & _ & A & B & D). split; auto. destruct D as [[= E]|[L' D]]; simpl in *.
        + left. split; [lia|]. apply B; lia.
        + right. assert (j = i) as -> by lia. auto.
    Qed.
    Lemma between_times m n b j :
      Matches (PBetween m (Some n) u c) w i b j <-> Matches (PTimes (CRange (Incl m) (Incl n)) u c) w i b j.
    Proof.
      rewrite (between_ok k G CE u c CC w i Hi m (Some n) b j H), (times_ok k G CE u c CC w i Hi _ b j H).
      unfold cap, InRange. cbn [r_lo r_hi]. split.
      - intros (-> & L & R). split; auto. split; auto. destruct R as (A & _ & [[= E]|[E _]]); simpl in *; lia.
      - intros (-> & R & A & B). split; auto. split; auto. destruct R. lia.
    Qed.
    Lemma atleast_times m b j :
      Matches (PBetween m None u c) w i b j <-> Matches (PTimes (CRange (Incl m) Unb) u c) w i b j.
    Proof.
      rewrite (between_ok k G CE u c CC w i Hi m None b j H), (times_ok k G CE u c CC w i Hi _ b j H).
      unfold cap, InRange. cbn [r_lo r_hi]. split.
      - intros (-> & L & R). split; auto. split; auto. split; auto. destruct R; lia.
      - intros (-> & R & A & B). split; auto. split; auto. destruct R. lia.
    Qed.
  End Spelling.

  (** *** Literals *)

  Lemma lit_ok l w i b j : i <= List.length w ->
    (Matches (PLit l) w i b j <-> b = i /\ j = i + List.length l /\ firstn (List.length l) (skipn i w) = l).
  Proof.
    intros Hi. rewrite (matches_peg k G CE); [|constructor|auto]. split.
    - intros P. inversion P; subst. auto.
    - intros (-> & -> & E). now constructor.
  Qed.
  Lemma lit_err l w i e : i <= List.length w ->
    (Fails (PLit l) w i e <-> e = ELiteral /\ firstn (List.length l) (skipn i w) <> l).
  Proof.
    intros Hi. rewrite (fails_peg k G CE); [|constructor|auto]. split.
    - intros P. inversion P; subst. auto.
    - intros (-> & E). now constructor.
  Qed.
End Runs.

(** Literals in bytes: the bytes after the offset begin with the bytes of the literal iff the items
    after the offset begin with its items (UTF-8 is self-synchronising). *)
Lemma raw_skipn k w i : i <= List.length w -> skipn (bo k w i) (raw k w) = raw k (skipn i w).
Proof.
  intros Hi. rewrite <- (firstn_skipn i w) at 2. rewrite raw_app, skipn_app, raw_length.
  change (tlen k (firstn i w)) with (bo k w i). rewrite Nat.sub_diag. simpl.
  rewrite skipn_all2; auto. rewrite raw_length. auto.
Qed.
Lemma lit_bytes k l w i : i <= List.length w ->
  ((exists rest, skipn (bo k w i) (raw k w) = raw k l ++ rest) <-> firstn (List.length l) (skipn i w) = l).
Proof. intros Hi. rewrite raw_skipn by auto. rewrite <- starts_with_raw. symmetry. apply starts_with_spec. Qed.
Lemma lit_width k l w i : i <= List.length w -> firstn (List.length l) (skipn i w) = l ->
  sp k w i (i + List.length l) = Span (bo k w i) (List.length (raw k l)).
Proof.
  intros Hi E. unfold sp. f_equal. rewrite bo_add. rewrite raw_length. unfold bo at 2. rewrite E. lia.
Qed.

(** *** The length pre-check *)

(** Units in which no complement is taken of something that claims to be wider than one byte. *)
Fixpoint plain_unit (k : kind) (u : neu) : bool :=
  match u with
  | NNot v => min_length k v <=? 1
  | NOr v w | NAnd v w => plain_unit k v && plain_unit k w
  | _ => true
  end.
Lemma plain_honest k u : plain_unit k u = true -> honest k u.
Proof.
  induction u; intros P x M; simpl in *; try (apply width_pos);
    repeat match goal with
    | H : _ && _ = true |- _ => apply andb_true_iff in H; destruct H
    | H : (_ =? _)%N = true |- _ => apply N.eqb_eq in H; subst
    end; auto.
  - apply Nat.leb_le in P. pose proof (width_pos k x). lia.
  - apply orb_true_iff in M as [M|M]; [specialize (IHu1 ltac:(assumption) x M)|specialize (IHu2 ltac:(assumption) x M)]; lia.
  - specialize (IHu1 ltac:(assumption) x ltac:(assumption)). specialize (IHu2 ltac:(assumption) x ltac:(assumption)). lia.
Qed.
Lemma bytes_honest u : honest KBytes u.
Proof. intros x _. simpl. induction u; simpl; lia. Qed.

Lemma not_dishonest : exists u m w,
  MaxRun (is_match u) w 0 (Some m) m /\ Fails KStr [] (PBetween m (Some m) u CEmpty) w 0 EBetween.
Proof.
  exists (NNot (NChar 8364%N)), 1, [65%N]. split.
  - split; [|split; auto]. intros [|n] H; [|lia]. exists 65%N. auto.
  - exists 3. reflexivity.
Qed.
Lemma not_dishonest_once : exists u w,
  Matches KStr [] (POnce u CEmpty) w 0 0 1 /\ Fails KStr [] (PBetween 1 (Some 1) u CEmpty) w 0 EBetween.
Proof.
  exists (NNot (NChar 8364%N)), [65%N]. split; [|exists 3; reflexivity].
  repeat split; simpl; auto. exists 3. reflexivity.
Qed.

(** *** Unit classes *)

(** The code points of the characters of a string. *)
Definition chars (s : string) : list N := map N_of_ascii (list_ascii_of_string s).
Definition dquote : N := 34.

(** What each unit is documented to match. *)
Fixpoint UnitSet (u : neu) (c : N) : Prop :=
  match u with
  | NChar x | NEqual x => c = x
  | NAlways => True
  | NNever => False
  | NSet l => In c l
  | NRange lo hi =>
      (match lo with Incl a => (a <= c)%N | Excl a => (a < c)%N | Unb => True end) /\
      (match hi with Incl b => (c <= b)%N | Excl b => (c < b)%N | Unb => True end)
  | NFn f => f c = true
  | NDigit r =>
      exists d, d < N.to_nat r /\ d < 36 /\
        (nth_error (chars "0123456789abcdefghijklmnopqrstuvwxyz") d = Some c \/
         nth_error (chars "0123456789ABCDEFGHIJKLMNOPQRSTUVWXYZ") d = Some c)
  | NWild => c <> 10%N
  | NWord => In c (chars "abcdefghijklmnopqrstuvwxyzABCDEFGHIJKLMNOPQRSTUVWXYZ0123456789_")
  | NAscii => (c <= 127)%N
  | NAsciiAlphabetic => In c (chars "abcdefghijklmnopqrstuvwxyzABCDEFGHIJKLMNOPQRSTUVWXYZ")
  | NAsciiAlphanumeric => In c (chars "abcdefghijklmnopqrstuvwxyzABCDEFGHIJKLMNOPQRSTUVWXYZ0123456789")
  | NAsciiControl => (c <= 31)%N \/ c = 127%N
  | NAsciiDigit => In c (chars "0123456789")
  | NAsciiGraphic =>
      In c (chars "abcdefghijklmnopqrstuvwxyzABCDEFGHIJKLMNOPQRSTUVWXYZ0123456789!#$%&'()*+,-./:;<=>?@[\]^_`{|}~") \/ c = dquote
  | NAsciiHexDigit => In c (chars "0123456789abcdefABCDEF")
  | NAsciiLowercase => In c (chars "abcdefghijklmnopqrstuvwxyz")
  | NAsciiPunctuation => In c (chars "!#$%&'()*+,-./:;<=>?@[\]^_`{|}~") \/ c = dquote
  | NAsciiUppercase => In c (chars "ABCDEFGHIJKLMNOPQRSTUVWXYZ")
  (* space, tab, line feed, form feed, carriage return *)
  | NAsciiWhitespace => In c [32; 9; 10; 12; 13]%N
  (* the general category Cc *)
  | NControl => (c <= 31)%N \/ (127 <= c <= 159)%N
  (* the property White_Space *)
  | NWhitespace =>
      In c [9; 10; 11; 12; 13; 32; 133; 160; 5760; 8192; 8193; 8194; 8195; 8196; 8197; 8198; 8199; 8200;
            8201; 8202; 8232; 8233; 8239; 8287; 12288]%N
  | NNot v => ~ UnitSet v c
  | NOr v w => UnitSet v c \/ UnitSet w c
  | NAnd v w => UnitSet v c /\ UnitSet w c
  end.

(** A class and a finite list agree everywhere if they agree below a bound and both are empty above. *)
Definition upto (n : nat) : list N := map N.of_nat (seq 0 n).
Lemma in_upto n c : (c < N.of_nat n)%N -> In c (upto n).
Proof. intros H. apply in_map_iff. exists (N.to_nat c). split; [apply N2Nat.id|]. apply in_seq. lia. Qed.
Lemma existsb_In c l : existsb (N.eqb c) l = true <-> In c l.
Proof.
  rewrite existsb_exists. split.
  - intros (x & H & E). apply N.eqb_eq in E. now subst.
  - intros H. exists c. split; auto. apply N.eqb_refl.
Qed.
Lemma agree_below (f : N -> bool) l n :
  forallb (fun c => Bool.eqb (f c) (existsb (N.eqb c) l)) (upto n) = true ->
  forallb (fun c => (c <? N.of_nat n)%N) l = true ->
  (forall c, (N.of_nat n <= c)%N -> f c = false) -> forall c, f c = true <-> In c l.
Proof.
  intros A B C c. destruct (N.lt_ge_cases c (N.of_nat n)) as [H|H].
  - rewrite forallb_forall in A. specialize (A c (in_upto n c H)). apply eqb_prop in A. rewrite A. apply existsb_In.
  - rewrite (C c H). split; [discriminate|]. intros I. rewrite forallb_forall in B. specialize (B c I).
    apply N.ltb_lt in B. lia.
Qed.

Ltac below n := apply (agree_below _ _ n); [vm_compute; reflexivity|vm_compute; reflexivity|];
  let c := fresh "c" in let H := fresh "H" in intros c H; simpl in H;
  unfold is_ascii_alnum, is_ascii_alpha, is_ascii_lower, is_ascii_upper, is_ascii_digit, is_ascii_ws, is_ws, between_N;
  repeat match goal with |- _ || _ = false => apply orb_false_intro end;
  try (apply andb_false_intro2; apply N.leb_gt; lia); try (apply N.eqb_neq; lia); try (apply N.ltb_ge; lia).

Lemma digit_set r c : is_digit r c = true <-> UnitSet (NDigit r) c.
Proof.
  cbn [UnitSet].
  assert (D : forall c d, digit_value c = Some d <-> (d < 36)%N /\
     (nth_error (chars "0123456789abcdefghijklmnopqrstuvwxyz") (N.to_nat d) = Some c \/
      nth_error (chars "0123456789ABCDEFGHIJKLMNOPQRSTUVWXYZ") (N.to_nat d) = Some c)).
  { intros x d. destruct (N.lt_ge_cases d 36) as [L|L].
    - assert (E : In d (upto 36)) by (apply in_upto; simpl; lia). clear L.
      assert (K : forall x, (128 <= x)%N -> digit_value x = None).
      { intros y Hy. unfold digit_value, is_ascii_digit, is_ascii_lower, is_ascii_upper, between_N.
        repeat match goal with |- context [((?a <=? y) && (y <=? ?b))%N] =>
          replace ((a <=? y) && (y <=? b))%N with false by (symmetry; apply andb_false_iff; right; apply N.leb_gt; lia) end.
        reflexivity. }
      destruct (N.lt_ge_cases x 128) as [Lx|Lx].
      + assert (Ex : In x (upto 128)) by (apply in_upto; simpl; lia). clear Lx K.
        assert (T : forallb (fun d => forallb (fun x =>
             Bool.eqb (match digit_value x with Some d' => (d' =? d)%N | None => false end)
               (orb (match nth_error (chars "0123456789abcdefghijklmnopqrstuvwxyz") (N.to_nat d) with Some y => (y =? x)%N | None => false end)
                    (match nth_error (chars "0123456789ABCDEFGHIJKLMNOPQRSTUVWXYZ") (N.to_nat d) with Some y => (y =? x)%N | None => false end)))
            (upto 128)) (upto 36) = true) by (vm_compute; reflexivity).
        rewrite forallb_forall in T. specialize (T d E). rewrite forallb_forall in T. specialize (T x Ex). apply eqb_prop in T.
        assert (d < 36)%N by (apply in_map_iff in E as (m & <- & E); apply in_seq in E; lia).
        split.
        * intros Hd. rewrite Hd, N.eqb_refl in T. split; auto. symmetry in T. apply orb_true_iff in T as [T|T]; [left|right];
            destruct (nth_error _ (N.to_nat d)); try discriminate; apply N.eqb_eq in T; now subst.
        * intros (_ & Hd).
          assert (O : match digit_value x with Some d' => (d' =? d)%N | None => false end = true).
          { rewrite T. destruct Hd as [Hd|Hd]; rewrite Hd, N.eqb_refl; [reflexivity|apply orb_true_r]. }
          destruct (digit_value x) as [d'|]; [|discriminate]. apply N.eqb_eq in O. now subst.
      + rewrite (K x Lx). split; [discriminate|]. intros (_ & H). exfalso.
        assert (B : forall l, forallb (fun c => (c <? 128)%N) l = true -> nth_error l (N.to_nat d) = Some x -> False).
        { intros l Hl N. apply nth_error_In in N. rewrite forallb_forall in Hl. specialize (Hl x N). apply N.ltb_lt in Hl. lia. }
        destruct H as [H|H]; revert H; apply B; vm_compute; reflexivity.
    - split; [|lia]. unfold digit_value, is_ascii_digit, is_ascii_lower, is_ascii_upper, between_N. intros H. exfalso.
      repeat match type of H with context [((?a <=? x) && (x <=? ?b))%N] =>
        destruct (N.leb_spec a x); destruct (N.leb_spec x b); cbn [andb] in H end; try discriminate; injection H; lia. }
  unfold is_digit. destruct (digit_value c) as [d|] eqn:E.
  - apply D in E as [L E]. rewrite N.ltb_lt. split.
    + intros H. exists (N.to_nat d). repeat split; auto; lia.
    + intros (d' & H1 & H2 & H3).
      assert (digit_value c = Some (N.of_nat d')) by (apply D; rewrite Nat2N.id; split; [lia|auto]).
      assert (digit_value c = Some d) by (apply D; auto). rewrite H in H0. injection H0 as <-. lia.
  - split; [discriminate|]. intros (d' & H1 & H2 & H3).
    assert (digit_value c = Some (N.of_nat d')) by (apply D; rewrite Nat2N.id; split; [lia|auto]). congruence.
Qed.

Lemma ws_set c : is_ws c = true <-> UnitSet NWhitespace c.
Proof.
  cbn [UnitSet]. split.
  - unfold is_ws, between_N. rewrite !orb_true_iff, !andb_true_iff, !N.leb_le, !N.eqb_eq. intros H.
    repeat (destruct H as [H|H]); try (subst c; apply existsb_In; reflexivity).
    + assert (c = 9 \/ c = 10 \/ c = 11 \/ c = 12 \/ c = 13)%N as D by lia.
      repeat (destruct D as [->|D]; [apply existsb_In; reflexivity|]). subst. apply existsb_In. reflexivity.
    + assert (c = 8192 \/ c = 8193 \/ c = 8194 \/ c = 8195 \/ c = 8196 \/ c = 8197 \/ c = 8198 \/ c = 8199 \/ c = 8200 \/ c = 8201 \/ c = 8202)%N as D by lia.
      repeat (destruct D as [->|D]; [apply existsb_In; reflexivity|]). subst. apply existsb_In. reflexivity.
  - intros H. repeat (destruct H as [<-|H]; [reflexivity|]). destruct H.
Qed.

Lemma unit_set u c : is_match u c = true <-> UnitSet u c.
Proof.
  induction u; cbn [is_match UnitSet].
  - rewrite N.eqb_eq. intuition.
  - rewrite N.eqb_eq. intuition.
  - tauto.
  - intuition discriminate.
  - apply existsb_In.
  - unfold bounds_contain. rewrite andb_true_iff. destruct lo, hi; rewrite ?N.leb_le, ?N.ltb_lt; tauto.
  - tauto.
  - apply digit_set.
  - rewrite negb_true_iff, N.eqb_neq. tauto.
  - revert c. below 128.
  - rewrite N.ltb_lt. lia.
  - revert c. below 128.
  - revert c. below 128.
  - rewrite orb_true_iff, N.ltb_lt, N.eqb_eq. lia.
  - revert c. below 128.
  - assert (H : forall c, between_N 33 126 c = true <-> In c (dquote :: chars "abcdefghijklmnopqrstuvwxyzABCDEFGHIJKLMNOPQRSTUVWXYZ0123456789!#$%&'()*+,-./:;<=>?@[\]^_`{|}~")) by (below 128).
    rewrite H. cbn [In]. split; intros [E|E]; auto.
  - revert c. below 128.
  - revert c. below 128.
  - assert (H : forall c, (between_N 33 47 c || between_N 58 64 c || between_N 91 96 c || between_N 123 126 c) = true <-> In c (dquote :: chars "!#$%&'()*+,-./:;<=>?@[\]^_`{|}~")) by (below 128).
    rewrite H. cbn [In]. split; intros [E|E]; auto.
  - revert c. below 128.
  - revert c. below 128.
  - rewrite orb_true_iff, N.ltb_lt. unfold between_N. rewrite andb_true_iff, !N.leb_le. lia.
  - apply ws_set.
  - rewrite negb_true_iff. destruct (is_match u c); intuition; discriminate.
  - rewrite orb_true_iff. tauto.
  - rewrite andb_true_iff. tauto.
Qed.
