(** Decoding integers and UTF-8. *)

From Coq Require Import List Arith NArith ZArith Bool Lia.
From Verif Require Import Base Text Context Neu Syntax Regex Ctor Api TextProofs Maps.
Import ListNotations.
Local Ltac Zify.zify_post_hook ::= Z.div_mod_to_equations.

(** ** Bytes *)

(** Byte [i] of the (two's complement) representation of [v], counted from the least significant. *)
Definition byte_of (v : Z) (i : nat) : item := Z.to_N ((v / 256 ^ Z.of_nat i) mod 256).
Definition is_byte (b : item) : Prop := (b < 256)%N.

Lemma p256 n : (0 < 256 ^ Z.of_nat n)%Z.
Proof. apply Z.pow_pos_nonneg; lia. Qed.
Lemma p256_S n : (256 ^ Z.of_nat (S n) = 256 * 256 ^ Z.of_nat n)%Z.
Proof. rewrite Nat2Z.inj_succ, Z.pow_succ_r by lia. reflexivity. Qed.
Lemma p256_2 n : (2 ^ (8 * Z.of_nat n) = 256 ^ Z.of_nat n)%Z.
Proof. rewrite Z.pow_mul_r by lia. reflexivity. Qed.
Lemma p256_half n : 1 <= n -> (256 ^ Z.of_nat n = 2 * 2 ^ (8 * Z.of_nat n - 1))%Z.
Proof. intros H. rewrite <- p256_2, <- Z.pow_succ_r by lia. f_equal. lia. Qed.

Lemma le_value_range l : Forall is_byte l -> (0 <= le_value l < 256 ^ Z.of_nat (length l))%Z.
Proof.
  induction 1 as [|b l H F IH]; cbn [le_value length]; [lia|]. rewrite p256_S. unfold is_byte in H. lia.
Qed.
Lemma byte_of_0 v : byte_of v 0 = Z.to_N (v mod 256).
Proof. unfold byte_of. cbn [Z.of_nat]. now rewrite Z.pow_0_r, Z.div_1_r. Qed.
Lemma byte_of_S v i : byte_of v (S i) = byte_of (v / 256) i.
Proof. unfold byte_of. rewrite p256_S, Z.div_div by (try apply p256; lia). reflexivity. Qed.
Lemma le_value_byte l : Forall is_byte l -> forall i, i < length l -> nth_error l i = Some (byte_of (le_value l) i).
Proof.
  induction 1 as [|b l H F IH]; intros i Hi; cbn [length] in Hi; [lia|].
  unfold is_byte in H. destruct i as [|i]; cbn [nth_error le_value].
  - rewrite byte_of_0. f_equal. lia.
  - rewrite byte_of_S, IH by lia. do 2 f_equal. lia.
Qed.
Lemma byte_of_add v n q i : i < n -> byte_of (v + q * 256 ^ Z.of_nat n) i = byte_of v i.
Proof.
  revert v n. induction i as [|i IH]; intros v n H; (destruct n as [|n]; [lia|]).
  - rewrite !byte_of_0, p256_S. f_equal.
    replace (v + q * (256 * 256 ^ Z.of_nat n))%Z with (v + (q * 256 ^ Z.of_nat n) * 256)%Z by ring. apply Z.mod_add. lia.
  - rewrite !byte_of_S, p256_S. replace (v + q * (256 * 256 ^ Z.of_nat n))%Z with (v + (q * 256 ^ Z.of_nat n) * 256)%Z by ring.
    rewrite Z.div_add by lia. apply IH. lia.
Qed.
Lemma bytes_mod n : forall v w, (forall i, i < n -> byte_of v i = byte_of w i) ->
  (v mod 256 ^ Z.of_nat n = w mod 256 ^ Z.of_nat n)%Z.
Proof.
  induction n as [|n IH]; intros v w H; [cbn; now rewrite !Z.mod_1_r|].
  pose proof (H 0 ltac:(lia)) as H0. rewrite !byte_of_0 in H0.
  assert (v / 256 mod 256 ^ Z.of_nat n = w / 256 mod 256 ^ Z.of_nat n)%Z as H1.
  { apply IH. intros i Hi. rewrite <- !byte_of_S. apply H. lia. }
  rewrite p256_S. pose proof (p256 n).
  rewrite !Z.rem_mul_r by lia. rewrite H1. f_equal. lia.
Qed.
Lemma byte_of_byte v i : is_byte (byte_of v i).
Proof. unfold is_byte, byte_of. lia. Qed.

Lemma in_type_spec t z : in_type t z = true <-> (i_min t <= z <= i_max t)%Z.
Proof. unfold in_type. rewrite andb_true_iff, !Z.leb_le. tauto. Qed.
Lemma type_width t : 1 <= i_size t -> (i_max t - i_min t + 1 = 256 ^ Z.of_nat (i_size t))%Z /\
  (i_min t <= 0)%Z /\ (0 <= i_max t)%Z /\ (i_max t < 256 ^ Z.of_nat (i_size t))%Z.
Proof.
  intros H. unfold i_max, i_min. rewrite p256_2. pose proof (p256_half _ H) as E.
  assert (0 < 2 ^ (8 * Z.of_nat (i_size t) - 1))%Z by (apply Z.pow_pos_nonneg; lia).
  destruct (i_signed t); lia.
Qed.
Lemma reinterpret_spec t z : 1 <= i_size t -> (0 <= z < 256 ^ Z.of_nat (i_size t))%Z ->
  (i_min t <= reinterpret t z <= i_max t)%Z /\ (reinterpret t z mod 256 ^ Z.of_nat (i_size t) = z)%Z /\
  forall i, i < i_size t -> byte_of (reinterpret t z) i = byte_of z i.
Proof.
  intros H R. destruct (type_width t H) as (W1 & W2 & W3 & W4). unfold reinterpret. rewrite p256_2.
  destruct (in_type t z) eqn:E.
  - apply in_type_spec in E. repeat split; auto; try tauto. now apply Z.mod_small.
  - assert (~ (i_min t <= z <= i_max t)%Z) as NE by (rewrite <- in_type_spec; congruence).
    split; [lia|]. assert (z - 256 ^ Z.of_nat (i_size t) = z + (-1) * 256 ^ Z.of_nat (i_size t))%Z as -> by ring. split.
    + rewrite Z.mod_add by lia. now apply Z.mod_small.
    + intros i Hi. now apply byte_of_add.
Qed.
Lemma type_unique t v w : 1 <= i_size t -> (i_min t <= v <= i_max t)%Z -> (i_min t <= w <= i_max t)%Z ->
  (forall i, i < i_size t -> byte_of v i = byte_of w i) -> v = w.
Proof.
  intros H V W B. apply bytes_mod in B. destruct (type_width t H) as (W1 & W2 & W3 & W4).
  pose proof (Z.div_mod v (256 ^ Z.of_nat (i_size t)) ltac:(lia)) as D1.
  pose proof (Z.div_mod w (256 ^ Z.of_nat (i_size t)) ltac:(lia)) as D2.
  set (m := (256 ^ Z.of_nat (i_size t))%Z) in *.
  assert (v / m = w / m)%Z; [|lia].
  assert (Z.abs (v - w) < m)%Z by lia. rewrite B in D1. assert (v - w = m * (v / m - w / m))%Z by lia. nia.
Qed.

(** ** Numerals *)

(** [Numeral r l n]: [l] is a sequence of digits in base [r] and denotes [n]. *)
Inductive Numeral (radix : N) : text -> Z -> Prop :=
| num_nil : Numeral radix [] 0
| num_snoc l c d n : Numeral radix l n -> digit_value c = Some d -> (d < radix)%N ->
    Numeral radix (l ++ [c]) (n * Z.of_N radix + Z.of_N d).

Lemma numeral_nonneg r l n : Numeral r l n -> (0 <= n)%Z.
Proof. induction 1; lia. Qed.
(** Reading on from an accumulated value. *)
Inductive NumFrom (radix : N) : Z -> text -> Z -> Prop :=
| nf_nil n : NumFrom radix n [] n
| nf_cons n c d l m : digit_value c = Some d -> (d < radix)%N -> NumFrom radix (n * Z.of_N radix + Z.of_N d) l m ->
    NumFrom radix n (c :: l) m.
Lemma numfrom_snoc r n l m c d : NumFrom r n l m -> digit_value c = Some d -> (d < r)%N ->
  NumFrom r n (l ++ [c]) (m * Z.of_N r + Z.of_N d).
Proof. induction 1; intros; cbn [app]; econstructor; eauto. constructor. Qed.
Lemma numeral_numfrom r l n : Numeral r l n <-> NumFrom r 0 l n.
Proof.
  split.
  - induction 1; [constructor|]. now apply numfrom_snoc.
  - intros H. assert (forall n l m, NumFrom r n l m -> forall pre, Numeral r pre n -> Numeral r (pre ++ l) m) as HH.
    { clear. intros n l m H. induction H as [|n c d l m D L F IH]; intros pre H0; [now rewrite app_nil_r|].
      replace (pre ++ c :: l) with ((pre ++ [c]) ++ l) by now rewrite <- app_assoc. apply IH. now constructor. }
    exact (HH _ _ _ H [] (num_nil r)).
Qed.
Lemma numfrom_det r n l m : NumFrom r n l m -> forall m', NumFrom r n l m' -> m = m'.
Proof. induction 1; intros m' H'; inversion H'; subst; auto. apply IHNumFrom. congruence. Qed.
Lemma numfrom_le r n l m : (1 <= r)%N -> (0 <= n)%Z -> NumFrom r n l m -> (n <= m)%Z.
Proof.
  intros R P H. induction H; [lia|]. assert (n * 1 <= n * Z.of_N r)%Z by (apply Z.mul_le_mono_nonneg_l; lia).
  specialize (IHNumFrom ltac:(lia)). lia.
Qed.

Definition signed_by (neg : bool) (n : Z) : Z := if neg then (- n)%Z else n.
Lemma read_digits_spec t r neg : 1 <= i_size t -> (1 <= r)%N -> forall l acc z, (0 <= acc)%Z -> in_type t (signed_by neg acc) = true ->
  read_digits t r neg (signed_by neg acc) l = Some z <->
  exists n, NumFrom r acc l n /\ z = signed_by neg n /\ in_type t z = true.
Proof.
  intros HT HR. destruct (type_width t HT) as (_ & T1 & T2 & _).
  induction l as [|c l IH]; intros acc z P I; cbn [read_digits].
  - split.
    + intros [= <-]. exists acc. repeat split; auto. constructor.
    + intros (n & H & -> & _). inversion H; subst. reflexivity.
  - destruct (digit_value c) as [d|] eqn:D.
    2:{ split; [discriminate|]. intros (n & H & _). inversion H; subst. congruence. }
    destruct (N.ltb_spec d r) as [Hd|Hd].
    2:{ split; [discriminate|]. intros (n & H & _). inversion H as [|? ? d' ? ? E1 E2 E3]; subst. rewrite D in E1. injection E1 as <-. lia. }
    cbv zeta.
    assert ((if neg then signed_by neg acc * Z.of_N r - Z.of_N d else signed_by neg acc * Z.of_N r + Z.of_N d)%Z
            = signed_by neg (acc * Z.of_N r + Z.of_N d)) as -> by (unfold signed_by; destruct neg; ring).
    assert (signed_by neg acc * Z.of_N r = signed_by neg (acc * Z.of_N r))%Z as -> by (unfold signed_by; destruct neg; ring).
    assert (0 <= acc * Z.of_N r)%Z as HM by (apply Z.mul_nonneg_nonneg; lia).
    destruct (in_type t (signed_by neg (acc * Z.of_N r + Z.of_N d))) eqn:I2.
    + assert (in_type t (signed_by neg (acc * Z.of_N r)) = true) as ->.
      { apply in_type_spec in I2. apply in_type_spec. unfold signed_by in *. destruct neg; lia. }
      cbn [andb]. rewrite IH; [|lia|assumption]. split; intros (n & H & Hz & Hi); exists n; repeat split; auto.
      * econstructor; eauto.
      * inversion H as [|? ? d' ? ? E1 E2 E3]; subst. rewrite D in E1. now injection E1 as <-.
    + rewrite andb_false_r. split; [discriminate|]. intros (n & H & -> & Hi). exfalso.
      inversion H as [|? ? d' ? ? E1 E2 E3]; subst. rewrite D in E1. injection E1 as <-.
      assert (acc * Z.of_N r + Z.of_N d <= n)%Z by (eapply numfrom_le; eauto; lia).
      assert (~ (i_min t <= signed_by neg (acc * Z.of_N r + Z.of_N d) <= i_max t)%Z) as NI by (rewrite <- in_type_spec; congruence).
      apply in_type_spec in Hi. unfold signed_by in *. destruct neg; lia.
Qed.

(** ** UTF-8 *)

Lemma cont_spec b : cont b = true <-> (0x80 <= b <= 0xBF)%N.
Proof. unfold cont. rewrite andb_true_iff, !N.leb_le. tauto. Qed.

Ltac tst := repeat match goal with
  | |- context[N.ltb ?a ?b] => let E := fresh in destruct (N.ltb_spec a b) as [E|E]; try (exfalso; lia)
  | |- context[N.leb ?a ?b] => let E := fresh in destruct (N.leb_spec a b) as [E|E]; try (exfalso; lia)
  | |- context[N.eqb ?a ?b] => let E := fresh in destruct (N.eqb_spec a b) as [E|E]; try (exfalso; lia)
  end; cbn [andb orb negb].

Lemma split64 c : exists q r, (c / 0x40 = q /\ c mod 0x40 = r /\ c = 0x40 * q + r /\ r < 0x40)%N.
Proof.
  exists (c / 0x40)%N, (c mod 0x40)%N. repeat split; [apply N.div_mod|apply N.mod_upper_bound]; discriminate.
Qed.
Local Ltac Zify.zify_post_hook ::= idtac.
Lemma decode_utf8 c r : valid_item KStr c = true -> decode (utf8 c ++ r) = option_map (cons c) (decode r).
Proof.
  intros V. assert ((c < 0xD800 \/ 0xE000 <= c < 0x110000)%N) as W by (unfold valid_item in V; lia). clear V.
  unfold utf8. destruct (N.ltb_spec c 0x80) as [H|H].
  { cbn [app decode]. tst. reflexivity. }
  destruct (split64 c) as (q & d & Eq & Er & Ec & Ld).
  destruct (N.ltb_spec c 0x800) as [H2|H2].
  { rewrite Eq, Er. clear Eq Er. cbn [app decode]. unfold cont. tst; do 2 f_equal; lia. }
  destruct (split64 q) as (q' & d' & Eq' & Er' & Ec' & Ld').
  destruct (N.ltb_spec c 0x10000) as [H3|H3].
  { rewrite div_1000, Eq, Eq', Er, Er'. clear Eq Er Eq' Er'. cbn [app decode]. unfold cont. tst; do 2 f_equal; lia. }
  destruct (split64 q') as (q'' & d'' & Eq'' & Er'' & Ec'' & Ld'').
  rewrite div_1000, div_40000, Eq, Eq', Eq'', Er, Er', Er''. clear Eq Er Eq' Er' Eq'' Er''. cbn [app decode]. unfold cont.
  tst; do 2 f_equal; lia.
Qed.

Lemma divmod64 q r : (r < 0x40 -> (q * 0x40 + r) / 0x40 = q /\ (q * 0x40 + r) mod 0x40 = r)%N.
Proof.
  intros H. split; symmetry; [apply (N.div_unique _ _ q r)|apply (N.mod_unique _ _ q r)]; try exact H; lia.
Qed.
Lemma utf8_2 a b : (0xC2 <= a <= 0xDF -> 0x80 <= b <= 0xBF ->
  utf8 ((a - 0xC0) * 0x40 + (b - 0x80)) = [a; b] /\ valid_item KStr ((a - 0xC0) * 0x40 + (b - 0x80)) = true)%N.
Proof.
  intros A B. destruct (divmod64 (a - 0xC0) (b - 0x80) ltac:(lia)) as [D M].
  set (x := ((a - 0xC0) * 0x40 + (b - 0x80))%N) in *. assert (0x80 <= x < 0x800)%N by (subst x; lia). unfold utf8, valid_item. rewrite D, M. clearbody x. tst.
  split; [|reflexivity]. repeat f_equal; lia.
Qed.
Lemma utf8_3 a b c : (0xE0 <= a <= 0xEF -> 0x80 <= b <= 0xBF -> 0x80 <= c <= 0xBF ->
  (a <> 0xE0 \/ 0xA0 <= b) -> (a <> 0xED \/ b <= 0x9F) ->
  utf8 (((a - 0xE0) * 0x40 + (b - 0x80)) * 0x40 + (c - 0x80)) = [a; b; c] /\
  valid_item KStr (((a - 0xE0) * 0x40 + (b - 0x80)) * 0x40 + (c - 0x80)) = true)%N.
Proof.
  intros A B C E1 E2. destruct (divmod64 (a - 0xE0) (b - 0x80) ltac:(lia)) as [D M].
  destruct (divmod64 ((a - 0xE0) * 0x40 + (b - 0x80)) (c - 0x80) ltac:(lia)) as [D2 M2].
  assert (0x800 <= ((a - 0xE0) * 0x40 + (b - 0x80)) * 0x40 + (c - 0x80) < 0x10000)%N as R by lia.
  assert (((a - 0xE0) * 0x40 + (b - 0x80)) * 0x40 + (c - 0x80) < 0xD800 \/ 0xE000 <= ((a - 0xE0) * 0x40 + (b - 0x80)) * 0x40 + (c - 0x80))%N as R2 by lia.
  set (x := (((a - 0xE0) * 0x40 + (b - 0x80)) * 0x40 + (c - 0x80))%N) in *. unfold utf8, valid_item. rewrite div_1000, D2, D, M, M2. clearbody x.
  split; tst; try reflexivity. repeat f_equal; lia.
Qed.
Lemma utf8_4 a b c d : (0xF0 <= a <= 0xF4 -> 0x80 <= b <= 0xBF -> 0x80 <= c <= 0xBF -> 0x80 <= d <= 0xBF ->
  (a <> 0xF0 \/ 0x90 <= b) -> (a <> 0xF4 \/ b <= 0x8F) ->
  utf8 ((((a - 0xF0) * 0x40 + (b - 0x80)) * 0x40 + (c - 0x80)) * 0x40 + (d - 0x80)) = [a; b; c; d] /\
  valid_item KStr ((((a - 0xF0) * 0x40 + (b - 0x80)) * 0x40 + (c - 0x80)) * 0x40 + (d - 0x80)) = true)%N.
Proof.
  intros A B C D0 E1 E2. destruct (divmod64 (a - 0xF0) (b - 0x80) ltac:(lia)) as [D M].
  destruct (divmod64 ((a - 0xF0) * 0x40 + (b - 0x80)) (c - 0x80) ltac:(lia)) as [D2 M2].
  destruct (divmod64 (((a - 0xF0) * 0x40 + (b - 0x80)) * 0x40 + (c - 0x80)) (d - 0x80) ltac:(lia)) as [D3 M3].
  assert (0x10000 <= (((a - 0xF0) * 0x40 + (b - 0x80)) * 0x40 + (c - 0x80)) * 0x40 + (d - 0x80) < 0x110000)%N as R by lia.
  set (x := ((((a - 0xF0) * 0x40 + (b - 0x80)) * 0x40 + (c - 0x80)) * 0x40 + (d - 0x80))%N) in *. unfold utf8, valid_item.
  rewrite div_1000, div_40000, D3, D2, D, M3, M2, M. clearbody x.
  split; tst; try reflexivity. repeat f_equal; lia.
Qed.

Lemma raw_decode t : valid_text KStr t = true -> decode (raw KStr t) = Some t.
Proof.
  induction t as [|c t IH]; intros V; [reflexivity|]. cbn [valid_text forallb] in V. apply andb_true_iff in V. destruct V as [V1 V2].
  cbn [raw flat_map enc]. rewrite decode_utf8 by assumption. unfold raw in IH. now rewrite IH.
Qed.
Lemma decode_raw : forall n l t, length l <= n -> decode l = Some t -> valid_text KStr t = true /\ raw KStr t = l.
Proof.
  assert (forall (x : N) (o : option text) t, option_map (cons x) o = Some t -> exists t', o = Some t' /\ t = x :: t') as OM.
  { intros x [t'|] t; [intros [= <-]; eauto|discriminate]. }
  assert (forall x t r, valid_item KStr x = true -> valid_text KStr t = true /\ raw KStr t = r ->
    valid_text KStr (x :: t) = true /\ raw KStr (x :: t) = utf8 x ++ r) as CO.
  { intros x t r V [H1 H2]. cbn [valid_text forallb raw flat_map enc]. rewrite V. unfold raw in H2. rewrite H2. auto. }
  induction n as [|n IH]; intros l t L H.
  - destruct l; [|cbn in L; lia]. injection H as <-. auto.
  - destruct l as [|a r]; [injection H as <-; auto|]. cbn [decode] in H. cbn [length] in L.
    destruct (N.ltb_spec a 0x80).
    { apply OM in H. destruct H as (t' & H & ->). replace (a :: r) with (utf8 a ++ r).
      - apply CO; [unfold valid_item; tst; reflexivity|]. apply IH; [lia|assumption].
      - unfold utf8. destruct (N.ltb_spec a 0x80); [reflexivity|lia]. }
    destruct r as [|b r1]; [discriminate|]. cbn [length] in L.
    destruct ((0xC2 <=? a) && (a <=? 0xDF))%N eqn:E2.
    { apply andb_true_iff in E2. rewrite !N.leb_le in E2. destruct (cont b) eqn:Cb; [|discriminate]. apply cont_spec in Cb.
      apply OM in H. destruct H as (t' & H & ->). destruct (utf8_2 a b E2 Cb) as [U V].
      change (a :: b :: r1) with ([a; b] ++ r1). rewrite <- U. apply CO; [exact V|]. apply IH; [lia|assumption]. }
    destruct r1 as [|c r2]; [discriminate|]. cbn [length] in L.
    destruct ((0xE0 <=? a) && (a <=? 0xEF))%N eqn:E3.
    { apply andb_true_iff in E3. rewrite !N.leb_le in E3.
      destruct (cont b && cont c && (negb (a =? 0xE0) || (0xA0 <=? b)) && (negb (a =? 0xED) || (b <=? 0x9F)))%N eqn:Cb; [|discriminate].
      rewrite !andb_true_iff, !orb_true_iff, !negb_true_iff, !N.eqb_neq, !N.leb_le, !cont_spec in Cb. destruct Cb as (((Cb & Cc) & C1) & C2).
      apply OM in H. destruct H as (t' & H & ->). destruct (utf8_3 a b c E3 Cb Cc C1 C2) as [U V].
      change (a :: b :: c :: r2) with ([a; b; c] ++ r2). rewrite <- U. apply CO; [exact V|]. apply IH; [lia|assumption]. }
    destruct r2 as [|d r3]; [discriminate|]. cbn [length] in L.
    destruct ((0xF0 <=? a) && (a <=? 0xF4))%N eqn:E4; [|discriminate].
    apply andb_true_iff in E4. rewrite !N.leb_le in E4.
    destruct (cont b && cont c && cont d && (negb (a =? 0xF0) || (0x90 <=? b)) && (negb (a =? 0xF4) || (b <=? 0x8F)))%N eqn:Cb; [|discriminate].
    rewrite !andb_true_iff, !orb_true_iff, !negb_true_iff, !N.eqb_neq, !N.leb_le, !cont_spec in Cb. destruct Cb as ((((Cb & Cc) & Cd) & C1) & C2).
    apply OM in H. destruct H as (t' & H & ->). destruct (utf8_4 a b c d E4 Cb Cc Cd C1 C2) as [U V].
    change (a :: b :: c :: d :: r3) with ([a; b; c; d] ++ r3). rewrite <- U. apply CO; [exact V|]. apply IH; [lia|assumption].
Qed.
