(** C54: lossy decoding. *)

From Coq Require Import List Arith NArith Bool Lia.
From Verif Require Import Base Text Context Neu Syntax Regex TextProofs Spec Obs Maps MapLaws Lossy.
Import ListNotations.

(** * Specification *)

Definition Scalar (c : N) : Prop := valid_item KStr c = true.
(** [b] is how the encoding of some character begins. *)
Definition Begun (b : list N) : Prop := exists c t, Scalar c /\ utf8 c = b ++ t.
(** [b], in front of [r], is a broken piece: no character is encoded here; [b] is the longest beginning
    of an encoding, or a single byte if there is none. *)
Definition Broken (b r : list N) : Prop :=
  (forall c t, Scalar c -> b ++ r <> utf8 c ++ t) /\
  b <> [] /\ (Begun b \/ length b = 1) /\
  match r with [] => True | x :: _ => ~ Begun (b ++ [x]) end.

(** Replacement of broken pieces: Unicode chapter 3, substitution of maximal subparts. *)
Inductive Replaced : list N -> text -> Prop :=
| L_end : Replaced [] []
| L_char c r t : Scalar c -> Replaced r t -> Replaced (utf8 c ++ r) (c :: t)
| L_bad b r t : Broken b r -> Replaced r t -> Replaced (b ++ r) (0xFFFD%N :: t).

(** * Proofs *)

Definition Shape (l : list N) : Prop :=
  match l with
  | [a] => (a < 0x80)%N
  | [a; b] => (0xC2 <= a <= 0xDF /\ 0x80 <= b <= 0xBF)%N
  | [a; b; c] => (0xE0 <= a <= 0xEF /\ 0x80 <= b <= 0xBF /\ 0x80 <= c <= 0xBF /\ (a <> 0xE0 \/ 0xA0 <= b) /\ (a <> 0xED \/ b <= 0x9F))%N
  | [a; b; c; d] => (0xF0 <= a <= 0xF4 /\ 0x80 <= b <= 0xBF /\ 0x80 <= c <= 0xBF /\ 0x80 <= d <= 0xBF /\ (a <> 0xF0 \/ 0x90 <= b) /\ (a <> 0xF4 \/ b <= 0x8F))%N
  | _ => False
  end.

Lemma utf8_shape c : Scalar c -> Shape (utf8 c).
Proof.
  intros V. unfold Scalar, valid_item in V. assert ((c < 0xD800 \/ 0xE000 <= c < 0x110000)%N) as W by lia. clear V.
  unfold utf8. destruct (N.ltb_spec c 0x80) as [H|H]; [exact H|].
  destruct (split64 c) as (q & d & Eq & Er & Ec & Ld).
  destruct (N.ltb_spec c 0x800) as [H2|H2]; [rewrite Eq, Er; cbn [Shape]; lia|].
  destruct (split64 q) as (q' & d' & Eq' & Er' & Ec' & Ld').
  destruct (N.ltb_spec c 0x10000) as [H3|H3]; [rewrite div_1000, Eq, Eq', Er, Er'; cbn [Shape]; lia|].
  destruct (split64 q') as (q'' & d'' & Eq'' & Er'' & Ec'' & Ld'').
  rewrite div_1000, div_40000, Eq, Eq', Eq'', Er, Er', Er''. cbn [Shape]. lia.
Qed.
Lemma shape_utf8 l : Shape l -> exists c, Scalar c /\ utf8 c = l.
Proof.
  destruct l as [|a [|b [|c [|d [|]]]]]; cbn [Shape]; try contradiction.
  - intros A. exists a. unfold Scalar, valid_item, utf8. destruct (N.ltb_spec a 0x80); [|lia]. split; [lia|reflexivity].
  - intros (A & B). eexists. apply and_comm. now apply utf8_2.
  - intros (A & B & C & D & E). eexists. apply and_comm. now apply utf8_3.
  - intros (A & B & C & D & E & F). eexists. apply and_comm. now apply utf8_4.
Qed.
Lemma begun_shape b : Begun b <-> exists t, Shape (b ++ t).
Proof.
  split.
  - intros (c & t & V & E). exists t. rewrite <- E. now apply utf8_shape.
  - intros (t & V). destruct (shape_utf8 _ V) as (c & V' & E). now exists c, t.
Qed.
Lemma second3_spec a b : second3 a b = true <-> (0xE0 <= a <= 0xEF /\ 0x80 <= b <= 0xBF /\ (a <> 0xE0 \/ 0xA0 <= b) /\ (a <> 0xED \/ b <= 0x9F))%N.
Proof. unfold second3, cont. lia. Qed.
Lemma second4_spec a b : second4 a b = true <-> (0xF0 <= a <= 0xF4 /\ 0x80 <= b <= 0xBF /\ (a <> 0xF0 \/ 0x90 <= b) /\ (a <> 0xF4 \/ b <= 0x8F))%N.
Proof. unfold second4, cont. lia. Qed.

Lemma bite_char a r n c : bite a r = (n, Some c) -> Scalar c /\ n = length (utf8 c) /\ a :: r = utf8 c ++ skipn n (a :: r).
Proof.
  unfold bite. destruct (N.ltb_spec a 0x80) as [A|A].
  { intros [= <- <-]. unfold Scalar, valid_item, utf8. destruct (N.ltb_spec a 0x80); [|lia]. repeat split. lia. }
  destruct ((0xC2 <=? a) && (a <=? 0xDF))%N eqn:E2.
  { destruct r as [|b r]; [discriminate|]. destruct (cont b) eqn:Cb; [|discriminate]. intros [= <- <-].
    apply cont_spec in Cb. destruct (utf8_2 a b ltac:(lia) Cb) as [U V]. rewrite U. repeat split. exact V. }
  destruct ((0xE0 <=? a) && (a <=? 0xEF))%N eqn:E3.
  { destruct r as [|b [|c' r]]; [discriminate|destruct (second3 a b); discriminate|].
    destruct (second3 a b) eqn:S; [|discriminate]. destruct (cont c') eqn:Cc; [|discriminate]. intros [= <- <-].
    apply cont_spec in Cc. apply second3_spec in S. destruct (utf8_3 a b c' ltac:(lia) ltac:(lia) Cc ltac:(lia) ltac:(lia)) as [U V].
    rewrite U. repeat split. exact V. }
  destruct ((0xF0 <=? a) && (a <=? 0xF4))%N eqn:E4; [|discriminate].
  destruct r as [|b r]; [discriminate|]. destruct (second4 a b) eqn:S; [|discriminate].
  destruct r as [|c' r]; [discriminate|]. destruct (cont c') eqn:Cc; [|discriminate].
  destruct r as [|d r]; [discriminate|]. destruct (cont d) eqn:Cd; [|discriminate]. intros [= <- <-].
  apply cont_spec in Cc, Cd. apply second4_spec in S.
  destruct (utf8_4 a b c' d ltac:(lia) ltac:(lia) Cc Cd ltac:(lia) ltac:(lia)) as [U V]. rewrite U. repeat split. exact V.
Qed.

(** A shape and its continuation, taken apart. *)
Ltac shape_cases H :=
  let t := fresh "t" in let S := fresh "S" in apply begun_shape in H; destruct H as (t & S); cbn [app] in S;
  destruct t as [|? [|? [|? [|? ?]]]]; cbn [Shape app] in S; try contradiction; try lia.
Ltac char_cases c V E :=
  let S := fresh "S" in pose proof (utf8_shape c V) as S; destruct (utf8 c) as [|? [|? [|? [|? [|? ?]]]]];
  cbn [Shape app] in S; try contradiction; cbn [app] in E; try discriminate; injection E; intros; subst; try lia.

Lemma bite_bad a r n : bite a r = (n, None) -> Broken (firstn n (a :: r)) (skipn n (a :: r)).
Proof.
  assert (BG : forall b, (exists t, Shape (b ++ t)) -> Begun b) by (intros; now apply begun_shape).
  unfold bite, Broken. rewrite firstn_skipn. destruct (N.ltb_spec a 0x80) as [A|A]; [discriminate|].
  destruct ((0xC2 <=? a) && (a <=? 0xDF))%N eqn:E2.
  { destruct r as [|b r].
    - intros [= <-]. cbn. split; [intros c t V E; char_cases c V E|]. split; [discriminate|]. auto.
    - destruct (cont b) eqn:Cb; [discriminate|]. intros [= <-]. cbn [firstn skipn app length].
      assert (~ (0x80 <= b <= 0xBF)%N) as Nb by (unfold cont in Cb; lia).
      split; [intros c t V E; char_cases c V E|]. split; [discriminate|]. split; [auto|]. intros G. shape_cases G. }
  destruct ((0xE0 <=? a) && (a <=? 0xEF))%N eqn:E3.
  { destruct r as [|b r].
    - intros [= <-]. cbn. split; [intros c t V E; char_cases c V E|]. split; [discriminate|]. auto.
    - destruct (second3 a b) eqn:S.
      + apply second3_spec in S. assert (G2 : Begun [a; b]) by (apply BG; exists [0x80%N]; cbn [Shape app]; lia).
        destruct r as [|c' r].
        * intros [= <-]. cbn [firstn skipn app length]. split; [intros c t V E; char_cases c V E|]. split; [discriminate|]. auto.
        * destruct (cont c') eqn:Cc; [discriminate|]. intros [= <-]. cbn [firstn skipn app length].
          assert (~ (0x80 <= c' <= 0xBF)%N) as Nc by (unfold cont in Cc; lia).
          split; [intros c t V E; char_cases c V E|]. split; [discriminate|]. split; [auto|]. intros G. shape_cases G.
      + intros [= <-]. cbn [firstn skipn app length].
        assert (~ (0x80 <= b <= 0xBF /\ (a <> 0xE0 \/ 0xA0 <= b) /\ (a <> 0xED \/ b <= 0x9F))%N) as Nb.
        { intros H. assert (second3 a b = true) by (apply second3_spec; lia). congruence. }
        split; [intros c t V E; char_cases c V E|]. split; [discriminate|]. split; [auto|]. intros G. shape_cases G. }
  destruct ((0xF0 <=? a) && (a <=? 0xF4))%N eqn:E4.
  { destruct r as [|b r].
    - intros [= <-]. cbn. split; [intros c t V E; char_cases c V E|]. split; [discriminate|]. auto.
    - destruct (second4 a b) eqn:S.
      + apply second4_spec in S. assert (G2 : Begun [a; b]) by (apply BG; exists [0x80%N; 0x80%N]; cbn [Shape app]; lia).
        destruct r as [|c' r].
        * intros [= <-]. cbn [firstn skipn app length]. split; [intros c t V E; char_cases c V E|]. split; [discriminate|]. auto.
        * destruct (cont c') eqn:Cc.
          -- apply cont_spec in Cc. assert (G3 : Begun [a; b; c']) by (apply BG; exists [0x80%N]; cbn [Shape app]; lia).
             destruct r as [|d r].
             ++ intros [= <-]. cbn [firstn skipn app length]. split; [intros c t V E; char_cases c V E|]. split; [discriminate|]. auto.
             ++ destruct (cont d) eqn:Cd; [discriminate|]. intros [= <-]. cbn [firstn skipn app length].
                assert (~ (0x80 <= d <= 0xBF)%N) as Nd by (unfold cont in Cd; lia).
                split; [intros c t V E; char_cases c V E|]. split; [discriminate|]. split; [auto|]. intros G. shape_cases G.
          -- intros [= <-]. cbn [firstn skipn app length].
             assert (~ (0x80 <= c' <= 0xBF)%N) as Nc by (unfold cont in Cc; lia).
             split; [intros c t V E; char_cases c V E|]. split; [discriminate|]. split; [auto|]. intros G. shape_cases G.
      + intros [= <-]. cbn [firstn skipn app length].
        assert (~ (0x80 <= b <= 0xBF /\ (a <> 0xF0 \/ 0x90 <= b) /\ (a <> 0xF4 \/ b <= 0x8F))%N) as Nb.
        { intros H. assert (second4 a b = true) by (apply second4_spec; lia). congruence. }
        split; [intros c t V E; char_cases c V E|]. split; [discriminate|]. split; [auto|]. intros G. shape_cases G. }
  intros [= <-]. cbn [firstn skipn app length]. split; [intros c t V E; char_cases c V E|]. split; [discriminate|]. split; [auto|].
  destruct r; [exact I|]. intros G. shape_cases G.
Qed.

Lemma begun_front b c : Begun (b ++ c) -> Begun b.
Proof. intros (x & t & V & E). exists x, (c ++ t). split; auto. now rewrite app_assoc. Qed.
Lemma app_cut {A} (b1 b2 r1 r2 : list A) : b1 ++ r1 = b2 ++ r2 -> length b1 < length b2 ->
  exists x y z, b2 = b1 ++ x :: y /\ r1 = x :: z.
Proof.
  revert b2. induction b1 as [|h b1 IH]; intros b2 E L.
  - destruct b2 as [|x y]; [cbn in L; lia|]. exists x, y, (y ++ r2). cbn in E. auto.
  - destruct b2 as [|h' b2]; [cbn in L; lia|]. cbn in E, L. injection E as <- E.
    destruct (IH b2 E ltac:(lia)) as (x & y & z & -> & ->). now exists x, y, z.
Qed.
Lemma broken_det b1 r1 b2 r2 : b1 ++ r1 = b2 ++ r2 -> Broken b1 r1 -> Broken b2 r2 -> b1 = b2 /\ r1 = r2.
Proof.
  assert (W : forall b1 r1 b2 r2, b1 ++ r1 = b2 ++ r2 -> Broken b1 r1 -> Broken b2 r2 -> length b1 < length b2 -> False).
  { clear. intros b1 r1 b2 r2 E (_ & N1 & _ & M1) (_ & _ & G2 & _) L. destruct (app_cut _ _ _ _ E L) as (x & y & z & -> & ->).
    apply M1. destruct G2 as [G2|G2].
    - apply (begun_front _ y). now rewrite <- app_assoc.
    - destruct b1; [easy|]. cbn in G2. rewrite app_length in G2. cbn in G2. lia. }
  intros E B1 B2. destruct (Nat.lt_trichotomy (length b1) (length b2)) as [L|[L|L]].
  - exfalso. eapply W; [exact E| | |]; eauto.
  - clear B1 B2 W. revert b2 L E. induction b1 as [|h b1 IH]; intros [|h' b2] L E; cbn in L; try lia; [auto|].
    cbn in E. injection E as <- E. destruct (IH b2 ltac:(lia) E) as [-> ->]. auto.
  - exfalso. symmetry in E. eapply W; [exact E| | |]; eauto.
Qed.
Lemma replaced_det l t : Replaced l t -> forall l' t', l = l' -> Replaced l' t' -> t = t'.
Proof.
  induction 1 as [|c r t V R IH|b r t B R IH]; intros l' t' El R'.
  - destruct R' as [|c' r' t' V' R'|b' r' t' B' R']; [reflexivity| |].
    + destruct (utf8_head c') as (x & y & E). rewrite E in El. discriminate.
    + destruct B' as (_ & N' & _). destruct b'; [easy|discriminate].
  - destruct R' as [|c' r' t' V' R'|b' r' t' B' R'].
    + destruct (utf8_head c) as (x & y & E). rewrite E in El. discriminate.
    + assert (c = c') by (eapply utf8_prefix; exact El). subst c'. apply app_inv_head in El. f_equal. now apply (IH r').
    + exfalso. destruct B' as (X & _). now apply (X c r V).
  - destruct R' as [|c' r' t' V' R'|b' r' t' B' R'].
    + destruct B as (_ & X & _). destruct b; [easy|discriminate].
    + exfalso. destruct B as (X & _). now apply (X c' r' V').
    + destruct (broken_det _ _ _ _ El B B') as [-> ->]. f_equal. now apply (IH r').
Qed.
Lemma lossy_replaced : forall f l, length l <= f -> Replaced l (lossy f l).
Proof.
  induction f as [|f IH]; intros l L; [destruct l; [constructor|cbn in L; lia]|].
  destruct l as [|a r]; [constructor|]. cbn [lossy]. destruct (bite a r) as [n [c|]] eqn:B.
  - destruct (bite_char _ _ _ _ B) as (V & N & E). rewrite E at 1. constructor; [exact V|]. apply IH.
    rewrite skipn_length. destruct (utf8_head c) as (x & y & U). rewrite U in N. cbn [length] in *. lia.
  - apply bite_bad in B. rewrite <- (firstn_skipn n (a :: r)) at 1. constructor; [exact B|]. apply IH.
    destruct B as (_ & N & _). destruct n; [easy|]. rewrite skipn_length. cbn [length] in *. lia.
Qed.

(** * C54, lossy decoding *)

(** It never fails, and the result is the input with every broken piece replaced. *)
Theorem C54_lossy : forall s l t, try_map (from_utf8_lossy s) (VText l) = Ok (VText t) <-> Replaced l t.
Proof.
  intros s l t. cbn. pose proof (lossy_replaced (length l) l (le_n _)) as R. split.
  - intros [= <-]. exact R.
  - intros H. do 2 f_equal. eapply replaced_det; [exact R|reflexivity|exact H].
Qed.
Theorem C54_lossy_total : forall s l, exists t, try_map (from_utf8_lossy s) (VText l) = Ok (VText t) /\ valid_text KStr t = true.
Proof.
  intros s l. exists (lossy (length l) l). split; [reflexivity|].
  pose proof (lossy_replaced (length l) l (le_n _)) as R. revert R. generalize (lossy (length l) l). intros t R.
  induction R as [|c r t V R IH|b r t B R IH]; [reflexivity| |]; cbn [valid_text forallb]; unfold valid_text in IH; rewrite IH.
  - now rewrite V.
  - reflexivity.
Qed.
(** On a well-formed input it agrees with [from_utf8]; on any other it introduces a U+FFFD where
    [from_utf8] fails. *)
Theorem C54_lossy_exact : forall s s' l t, try_map (from_utf8 s) (VText l) = Ok (VText t) ->
  try_map (from_utf8_lossy s') (VText l) = Ok (VText t).
Proof.
  intros s s' l t H. apply C54_lossy. cbn in H. destruct (decode l) as [t'|] eqn:D; [|discriminate]. injection H as <-.
  apply (decode_raw (length l)) in D; [|apply le_n]. destruct D as [V <-].
  induction t' as [|c t IH]; [constructor|]. cbn [valid_text forallb] in V. apply andb_true_iff in V. destruct V as [V1 V2].
  cbn [raw flat_map enc]. constructor; auto.
Qed.
Theorem C54_lossy_marks : forall s s' l t, try_map (from_utf8 s) (VText l) = Err EUtf8Error ->
  try_map (from_utf8_lossy s') (VText l) = Ok (VText t) -> In 0xFFFD%N t.
Proof.
  intros s s' l t H R. apply C54_lossy in R. cbn in H. destruct (decode l) as [t'|] eqn:D; [discriminate|]. clear H.
  induction R as [|c r t V R IH|b r t B R IH]; [discriminate| |now left].
  right. apply IH. destruct (decode r) eqn:Dr; [|reflexivity]. rewrite decode_utf8, Dr in D by exact V. discriminate.
Qed.

(** Euro sign cut after two bytes, a stray byte, a surrogate (three pieces), a cut emoji at the end. *)
Example C54_lossy_case :
  try_map (from_utf8_lossy 24) (VText [65; 226; 130; 66; 255; 237; 160; 128; 195; 169; 240; 159; 152]%N) =
    Ok (VText [65; 65533; 66; 65533; 65533; 65533; 65533; 233; 65533]%N) /\
  try_map (from_utf8 24) (VText [65; 226; 130]%N) = Err EUtf8Error /\
  try_map (from_utf8 24) (VText [226; 130; 172]%N) = Ok (VText [8364]%N) /\
  Broken [226; 130]%N [66%N].
Proof.
  split; [reflexivity|]. split; [reflexivity|]. split; [reflexivity|]. apply (bite_bad 226 [130; 66]%N 2). reflexivity.
Qed.

Print Assumptions C54_lossy.
Print Assumptions C54_lossy_total.
Print Assumptions C54_lossy_exact.
Print Assumptions C54_lossy_marks.
