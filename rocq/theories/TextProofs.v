(** Facts about texts, byte offsets and slicing. *)

From Coq Require Import List Arith NArith ZArith Bool Lia.
From Coq Require Import ZifyBool ZifyNat ZifyN.
From Verif Require Import Base Text.
Import ListNotations.

Lemma width_pos k c : 1 <= width k c.
Proof. destruct k; simpl; repeat destruct (_ <? _)%N; lia. Qed.

Lemma enc_length k c : length (enc k c) = width k c.
Proof. destruct k; simpl; [reflexivity|]. unfold utf8. repeat destruct (_ <? _)%N; reflexivity. Qed.

Lemma raw_length k l : length (raw k l) = tlen k l.
Proof.
  induction l as [|c l IH]; [reflexivity|].
  cbn [raw flat_map tlen]. rewrite app_length, enc_length. f_equal. exact IH.
Qed.

Lemma tlen_app k a b : tlen k (a ++ b) = tlen k a + tlen k b.
Proof. induction a as [|c a IH]; simpl; [reflexivity|]. rewrite IH. lia. Qed.

Lemma raw_app k a b : raw k (a ++ b) = raw k a ++ raw k b.
Proof. unfold raw. apply flat_map_app. Qed.

Lemma tlen_length_le k l : length l <= tlen k l.
Proof. induction l as [|c l IH]; simpl; [lia|]. pose proof (width_pos k c). lia. Qed.

Lemma tlen_zero k l : tlen k l = 0 -> l = [].
Proof. destruct l as [|c l]; simpl; [reflexivity|]. pose proof (width_pos k c). lia. Qed.

Lemma tlen_bytes l : tlen KBytes l = length l.
Proof. induction l as [|c l IH]; simpl; [reflexivity|]. now rewrite IH. Qed.

(** Byte offset of item number [i]. *)
Definition bo (k : kind) (w : text) (i : nat) : nat := tlen k (firstn i w).

Lemma bo_0 k w : bo k w 0 = 0.
Proof. reflexivity. Qed.

Lemma bo_all k w i : length w <= i -> bo k w i = tlen k w.
Proof. intros H. unfold bo. now rewrite firstn_all2. Qed.

Lemma bo_len k w : bo k w (length w) = tlen k w.
Proof. apply bo_all. lia. Qed.

Lemma firstn_add {A} (l : list A) i n : firstn (i + n) l = firstn i l ++ firstn n (skipn i l).
Proof.
  revert l. induction i as [|i IH]; intros [|x l]; simpl; try reflexivity.
  - now rewrite firstn_nil.
  - now rewrite IH.
Qed.

Lemma skipn_add {A} (l : list A) i n : skipn (i + n) l = skipn n (skipn i l).
Proof.
  revert l. induction i as [|i IH]; intros [|x l]; simpl; try reflexivity.
  - now rewrite skipn_nil.
  - apply IH.
Qed.

Lemma bo_add k w i n : bo k w (i + n) = bo k w i + bo k (skipn i w) n.
Proof. unfold bo. rewrite firstn_add, tlen_app. reflexivity. Qed.

Lemma bo_mono k w i j : i <= j -> bo k w i <= bo k w j.
Proof. intros H. replace j with (i + (j - i)) by lia. rewrite bo_add. lia. Qed.

Lemma bo_le_len k w i : bo k w i <= tlen k w.
Proof.
  destruct (le_lt_dec i (length w)) as [H|H].
  - rewrite <- (bo_len k w). now apply bo_mono.
  - rewrite bo_all by lia. lia.
Qed.

Lemma bo_pos k w n : 0 < n -> w <> [] -> 0 < bo k w n.
Proof.
  intros Hn Hw. destruct n as [|n]; [lia|]. destruct w as [|c w]; [congruence|].
  unfold bo. simpl. pose proof (width_pos k c). lia.
Qed.

Lemma bo_lt k w i j : i < j -> i < length w -> bo k w i < bo k w j.
Proof.
  intros Hij Hi. replace j with (i + (j - i)) by lia. rewrite bo_add.
  assert (0 < bo k (skipn i w) (j - i)); [|lia].
  apply bo_pos; [lia|]. intros E. pose proof (skipn_length i w) as L. rewrite E in L. simpl in L. lia.
Qed.

Lemma bo_inj k w i j : i <= length w -> j <= length w -> bo k w i = bo k w j -> i = j.
Proof.
  intros Hi Hj E. destruct (lt_eq_lt_dec i j) as [[H|H]|H]; auto.
  - pose proof (bo_lt k w i j H). lia.
  - pose proof (bo_lt k w j i H). lia.
Qed.

Lemma bo_le_iff k w i j : i <= length w -> j <= length w -> (bo k w i <= bo k w j <-> i <= j).
Proof.
  intros Hi Hj. split; [|apply bo_mono]. intros H.
  destruct (le_lt_dec i j) as [|L]; auto. pose proof (bo_lt k w j i L). lia.
Qed.

Lemma bo_eq_len k w i : i <= length w -> (bo k w i = tlen k w <-> i = length w).
Proof.
  intros Hi. rewrite <- (bo_len k w). split; [|now intros ->].
  intros E. eapply bo_inj; eauto.
Qed.

Lemma bo_bytes w i : i <= length w -> bo KBytes w i = i.
Proof. intros H. unfold bo. rewrite tlen_bytes, firstn_length. lia. Qed.

Lemma drop_at_bo k w i : i <= length w -> drop_at k w (bo k w i) = Some (skipn i w).
Proof.
  revert i. induction w as [|c w IH]; intros i Hi; simpl in Hi.
  - assert (i = 0) by lia. subst. reflexivity.
  - destruct i as [|i]; [reflexivity|].
    unfold bo. cbn [firstn tlen skipn]. pose proof (width_pos k c).
    destruct (width k c + tlen k (firstn i w)) as [|m] eqn:E; [lia|].
    cbn [drop_at]. rewrite <- E.
    destruct (Nat.leb_spec (width k c) (width k c + tlen k (firstn i w))); [|lia].
    replace (width k c + tlen k (firstn i w) - width k c) with (bo k w i) by (unfold bo; lia).
    apply IH. lia.
Qed.

Lemma drop_at_some k w o l :
  drop_at k w o = Some l -> exists i, i <= length w /\ o = bo k w i /\ l = skipn i w.
Proof.
  revert o l. induction w as [|c w IH]; intros o l H.
  - destruct o; simpl in H; [|discriminate]. injection H as <-. exists 0. auto.
  - destruct o as [|o].
    + injection H as <-. exists 0. simpl. split; [lia|]. auto.
    + cbn [drop_at] in H. destruct (Nat.leb_spec (width k c) (S o)) as [Hle|]; [|discriminate].
      destruct (IH _ _ H) as (i & Hi & Ho & Hl). exists (S i). simpl. split; [lia|].
      split; [|exact Hl]. unfold bo in *. simpl. lia.
Qed.

Lemma take_at_bo k w i : i <= length w -> take_at k w (bo k w i) = Some (firstn i w).
Proof.
  revert i. induction w as [|c w IH]; intros i Hi; simpl in Hi.
  - assert (i = 0) by lia. subst. reflexivity.
  - destruct i as [|i]; [reflexivity|].
    unfold bo. cbn [firstn tlen]. pose proof (width_pos k c).
    destruct (width k c + tlen k (firstn i w)) as [|m] eqn:E; [lia|].
    cbn [take_at]. rewrite <- E.
    destruct (Nat.leb_spec (width k c) (width k c + tlen k (firstn i w))); [|lia].
    replace (width k c + tlen k (firstn i w) - width k c) with (bo k w i) by (unfold bo; lia).
    rewrite IH by lia. reflexivity.
Qed.

Lemma take_at_some k w o l :
  take_at k w o = Some l -> exists i, i <= length w /\ o = bo k w i /\ l = firstn i w.
Proof.
  revert o l. induction w as [|c w IH]; intros o l H.
  - destruct o; simpl in H; [|discriminate]. injection H as <-. exists 0. auto.
  - destruct o as [|o].
    + injection H as <-. exists 0. simpl. split; [lia|]. auto.
    + cbn [take_at] in H. destruct (Nat.leb_spec (width k c) (S o)) as [Hle|]; [|discriminate].
      destruct (take_at k w (S o - width k c)) as [l'|] eqn:E; [|discriminate].
      simpl in H. injection H as <-.
      destruct (IH _ _ E) as (i & Hi & Ho & Hl). exists (S i). simpl. split; [lia|].
      split; [|now rewrite Hl]. unfold bo in *. simpl. lia.
Qed.

(** UTF-8 is prefix free: a byte prefix is an item prefix. *)
Lemma utf8_head c : exists b t, utf8 c = b :: t.
Proof. unfold utf8. repeat destruct (_ <? _)%N; eauto. Qed.

Local Ltac Zify.zify_post_hook ::= Z.div_mod_to_equations.

Lemma divmod_inj (a b m : N) : (m <> 0 -> a / m = b / m -> a mod m = b mod m -> a = b)%N.
Proof.
  intros Hm E1 E2. rewrite (N.div_mod a m Hm), (N.div_mod b m Hm), E1, E2. reflexivity.
Qed.

Lemma div_1000 a : (a / 0x1000 = a / 0x40 / 0x40)%N.
Proof. now rewrite N.div_div. Qed.
Lemma div_40000 a : (a / 0x40000 = a / 0x40 / 0x40 / 0x40)%N.
Proof. now rewrite !N.div_div. Qed.

Lemma cons_inj {A} (x y : A) l m : x :: l = y :: m -> x = y /\ l = m.
Proof. intros E. injection E. auto. Qed.

Local Ltac cons_split :=
  repeat match goal with
         | H : (_ :: _) = (_ :: _) |- _ => apply cons_inj in H; destruct H
         end.

Lemma utf8_prefix a b x y : utf8 a ++ x = utf8 b ++ y -> a = b.
Proof.
  unfold utf8. rewrite !div_1000, !div_40000.
  assert (P : forall u v : N, (0x80 + u = 0x80 + v -> u = v)%N) by (intros; lia).
  destruct (N.ltb_spec a 0x80), (N.ltb_spec b 0x80);
    try destruct (N.ltb_spec a 0x800); try destruct (N.ltb_spec b 0x800);
    try destruct (N.ltb_spec a 0x10000); try destruct (N.ltb_spec b 0x10000);
    try (exfalso; lia);
    cbn [app]; intros E; cons_split; try (exfalso; lia); try assumption.
  - apply (divmod_inj _ _ 0x40); [lia| lia| lia].
  - apply (divmod_inj _ _ 0x40); [lia| |lia].
    apply (divmod_inj _ _ 0x40); [lia|lia|lia].
  - apply (divmod_inj _ _ 0x40); [lia| |lia].
    apply (divmod_inj _ _ 0x40); [lia| |lia].
    apply (divmod_inj _ _ 0x40); [lia|lia|lia].
Qed.

Lemma enc_prefix k a b x y : enc k a ++ x = enc k b ++ y -> a = b.
Proof.
  destruct k; simpl; [intros E; injection E; auto | apply utf8_prefix].
Qed.

Lemma starts_with_spec l p : starts_with l p = true <-> exists r, l = p ++ r.
Proof.
  revert l. induction p as [|x p IH]; intros [|y l]; simpl.
  - split; [exists []; reflexivity|reflexivity].
  - split; [intros _; exists (y :: l); reflexivity|reflexivity].
  - split; [discriminate|]. intros (r & E). discriminate.
  - rewrite andb_true_iff, N.eqb_eq, IH. split.
    + intros [-> (r & ->)]. exists r. reflexivity.
    + intros (r & E). injection E as -> ->. split; [reflexivity|]. exists r. reflexivity.
Qed.

Lemma raw_prefix k w lit r : raw k w = raw k lit ++ r -> exists v, w = lit ++ v /\ r = raw k v.
Proof.
  revert w r. induction lit as [|c lit IH]; intros w r E.
  - exists w. split; [reflexivity|]. symmetry. exact E.
  - destruct w as [|d w].
    + exfalso. apply (f_equal (@length _)) in E. simpl in E. rewrite app_length in E.
      cbn [raw flat_map] in E. rewrite app_length, enc_length in E. pose proof (width_pos k c). lia.
    + cbn [raw flat_map] in E. rewrite <- app_assoc in E.
      pose proof (enc_prefix _ _ _ _ _ E). subst d. apply app_inv_head in E.
      destruct (IH w r E) as (v & -> & ->). exists v. auto.
Qed.

Lemma starts_with_raw k w lit :
  starts_with (raw k w) (raw k lit) = true <-> firstn (length lit) w = lit.
Proof.
  rewrite starts_with_spec. split.
  - intros (r & E). destruct (raw_prefix _ _ _ _ E) as (v & -> & _).
    rewrite firstn_app, firstn_all, Nat.sub_diag. simpl. apply app_nil_r.
  - intros E. exists (raw k (skipn (length lit) w)).
    rewrite <- (firstn_skipn (length lit) w) at 1. rewrite raw_app, E. reflexivity.
Qed.

(** Items seen by an iterator. *)
Lemma indices_nth k w i d m :
  m < length w -> nth m (indices k i w) d = (i + bo k w m, nth m w (snd d)).
Proof.
  revert i m. induction w as [|c w IH]; intros i m Hm; simpl in Hm; [lia|].
  destruct m as [|m].
  - simpl. unfold bo. simpl. f_equal. lia.
  - cbn [indices nth]. rewrite IH by lia. unfold bo. simpl. f_equal. lia.
Qed.

Lemma indices_length k i w : length (indices k i w) = length w.
Proof. revert i. induction w as [|c w IH]; intros i; simpl; auto. Qed.

Lemma indices_skipn k i w m : m <= length w ->
  skipn m (indices k i w) = indices k (i + bo k w m) (skipn m w).
Proof.
  revert i m. induction w as [|c w IH]; intros i m Hm; simpl in Hm.
  - assert (m = 0) by lia. subst. simpl. f_equal.
  - destruct m as [|m]; simpl; [unfold bo; simpl; now rewrite Nat.add_0_r|].
    rewrite IH by lia. unfold bo. simpl. f_equal. lia.
Qed.

(** Byte-level definition of a character boundary, as in std's [str::is_char_boundary]: the end of
    the string or a byte that is not a UTF-8 continuation byte (0x80..0xBF). *)
Definition is_cont (b : N) : bool := ((0x80 <=? b) && (b <? 0xC0))%N.
Definition is_char_boundary (bytes : list N) (o : nat) : bool :=
  (o =? length bytes) ||
  match nth_error bytes o with Some b => negb (is_cont b) | None => false end.

Lemma utf8_lead c b t : valid_item KStr c = true -> utf8 c = b :: t ->
  is_cont b = false /\ forall x, In x t -> is_cont x = true.
Proof.
  intros V. unfold valid_item in V. unfold utf8, is_cont.
  destruct (N.ltb_spec c 0x80); [|destruct (N.ltb_spec c 0x800); [|destruct (N.ltb_spec c 0x10000)]];
    intros E; apply cons_inj in E; destruct E as [<- <-]; (split; [lia|]); intros x Hx;
    cbn [In] in Hx;
    repeat match goal with H : _ \/ _ |- _ => destruct H | H : False |- _ => destruct H end; subst; lia.
Qed.

(** Slicing at a byte offset succeeds exactly at character boundaries (std's [str::get(o..)]). *)
Lemma drop_at_boundary w o : valid_text KStr w = true ->
  (is_char_boundary (raw KStr w) o = true <-> exists l, drop_at KStr w o = Some l).
Proof.
  revert o. induction w as [|c w IH]; intros o V.
  - unfold is_char_boundary. simpl. destruct o as [|o]; simpl; [split; [eauto|reflexivity]|].
    split; [discriminate|]. intros (l & E). discriminate.
  - cbn [valid_text forallb] in V. apply andb_true_iff in V. destruct V as [Vc Vw].
    destruct o as [|o].
    + split; [intros _; simpl; eauto|]. intros _. unfold is_char_boundary. simpl.
      destruct (utf8_head c) as (b & t & E). destruct (utf8_lead c b t Vc E) as [Hb _].
      rewrite E. simpl. now rewrite Hb.
    + cbn [raw flat_map enc drop_at]. unfold is_char_boundary. rewrite app_length.
      pose proof (enc_length KStr c) as L. cbn [enc] in L.
      destruct (Nat.leb_spec (width KStr c) (S o)) as [Hle|Hlt].
      * rewrite <- (IH (S o - width KStr c) Vw). unfold is_char_boundary.
        rewrite nth_error_app2 by lia. rewrite L.
        replace (S o =? width KStr c + length (flat_map (enc KStr) w))
          with (S o - width KStr c =? length (raw KStr w)); [reflexivity|].
        unfold raw. lia.
      * rewrite nth_error_app1 by lia.
        destruct (S o =? length (utf8 c) + length (flat_map (enc KStr) w)) eqn:E1; [lia|].
        destruct (utf8_head c) as (b & t & E). destruct (utf8_lead c b t Vc E) as [_ Ht].
        rewrite E. simpl. split.
        -- destruct (nth_error t o) as [x|] eqn:Ex; [|discriminate].
           rewrite (Ht x); [discriminate|]. eapply nth_error_In; eauto.
        -- intros (l & Hl). discriminate.
Qed.
