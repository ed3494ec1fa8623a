(** The table-driven checksum of examples/png2.rs is the remainder of a polynomial division. *)

From Coq Require Import List Arith NArith ZArith Bool Lia.
From Verif Require Import Base Text Context Neu Syntax Regex Ctor Api Maps Png.
Import ListNotations.

(** ** The register *)

Definition reg (c : N) : Prop := (c < 2 ^ 32)%N.
Definition poly : N := 0xedb88320.
Lemma reg_bit c i : reg c -> (32 <= i)%N -> N.testbit c i = false.
Proof.
  intros H Hi. destruct (N.eq_dec c 0) as [->|N0]; [apply N.bits_0|].
  apply N.bits_above_log2. apply N.log2_lt_pow2 in H; lia.
Qed.
Lemma bits_reg c : (forall i, (32 <= i)%N -> N.testbit c i = false) -> reg c.
Proof.
  intros H. unfold reg. destruct (N.eq_dec c 0) as [->|N0]; [reflexivity|].
  apply N.log2_lt_pow2; [lia|]. destruct (N.lt_ge_cases (N.log2 c) 32) as [L|L]; [exact L|].
  specialize (H _ L). rewrite N.bit_log2 in H by lia. discriminate.
Qed.
Lemma reg_lxor a b : reg a -> reg b -> reg (N.lxor a b).
Proof. intros A B. apply bits_reg. intros i Hi. rewrite N.lxor_spec, (reg_bit a), (reg_bit b); auto. Qed.
Lemma reg_shiftr c n : reg c -> reg (N.shiftr c n).
Proof. intros A. apply bits_reg. intros i Hi. rewrite N.shiftr_spec, reg_bit; auto; lia. Qed.
Lemma reg_byte b : (b < 256)%N -> reg b.
Proof. unfold reg. intros. change (2 ^ 32)%N with 4294967296%N. lia. Qed.
Lemma reg_bool (b : bool) : reg (N.b2n b).
Proof. destruct b; reflexivity. Qed.

(** One round as an exclusive or. *)
Lemma round_xor c : crc_round c = N.lxor (if N.testbit c 0 then poly else 0%N) (N.shiftr c 1).
Proof.
  unfold crc_round. assert ((N.land c 1 =? 1)%N = N.testbit c 0) as ->.
  { change 1%N with (N.ones 1). rewrite N.land_ones. change (2 ^ 1)%N with 2%N.
    change (N.ones 1) with 1%N. rewrite <- N.bit0_mod. destruct (N.testbit c 0); reflexivity. }
  destruct (N.testbit c 0); [reflexivity|]. now rewrite N.lxor_0_l.
Qed.
Lemma round_lin a b : crc_round (N.lxor a b) = N.lxor (crc_round a) (crc_round b).
Proof.
  rewrite !round_xor, N.lxor_spec, N.shiftr_lxor. apply N.bits_inj. intros i. rewrite !N.lxor_spec.
  destruct (N.testbit a 0), (N.testbit b 0), (N.testbit (N.shiftr a 1) i), (N.testbit (N.shiftr b 1) i); cbn [xorb];
    rewrite ?N.bits_0; destruct (N.testbit poly i); reflexivity.
Qed.
Lemma reg_poly : reg poly. Proof. reflexivity. Qed.
Lemma reg_round c : reg c -> reg (crc_round c).
Proof.
  intros H. rewrite round_xor. apply reg_lxor; [|now apply reg_shiftr].
  destruct (N.testbit c 0); [exact reg_poly|reflexivity].
Qed.
Lemma reg_rounds n : forall c, reg c -> reg (crc_rounds n c).
Proof. induction n as [|n IH]; intros c H; cbn; auto using reg_round. Qed.
Lemma rounds_lin n : forall a b, crc_rounds n (N.lxor a b) = N.lxor (crc_rounds n a) (crc_rounds n b).
Proof. induction n as [|n IH]; intros a b; cbn; [reflexivity|]. now rewrite round_lin, IH. Qed.
(** A round forgets nothing: the top bit of the generator records the bit shifted out. *)
Lemma round_inj a b : reg a -> reg b -> crc_round a = crc_round b -> a = b.
Proof.
  intros A B E. rewrite !round_xor in E.
  assert (N.testbit a 0 = N.testbit b 0) as E0.
  { assert (N.testbit (N.lxor (if N.testbit a 0 then poly else 0%N) (N.shiftr a 1)) 31 =
            N.testbit (N.lxor (if N.testbit b 0 then poly else 0%N) (N.shiftr b 1)) 31) as T by now rewrite E.
    rewrite !N.lxor_spec, !N.shiftr_spec, (reg_bit a (31 + 1)), (reg_bit b (31 + 1)) in T by (auto; lia).
    destruct (N.testbit a 0), (N.testbit b 0); (reflexivity || (vm_compute in T; discriminate T)). }
  rewrite E0 in E. apply N.bits_inj. intros i. destruct (N.eq_dec i 0) as [->|Hi]; [exact E0|].
  assert (N.testbit (N.shiftr a 1) (i - 1) = N.testbit (N.shiftr b 1) (i - 1)) as T.
  { f_equal. set (k := if N.testbit b 0 then poly else 0%N) in *.
    assert (N.lxor k (N.lxor k (N.shiftr a 1)) = N.lxor k (N.lxor k (N.shiftr b 1))) as X by now rewrite E.
    now rewrite <- !N.lxor_assoc, !N.lxor_nilpotent, !N.lxor_0_l in X. }
  rewrite !N.shiftr_spec in T by lia. now replace (i - 1 + 1)%N with i in T by lia.
Qed.
Lemma rounds_inj n : forall a b, reg a -> reg b -> crc_rounds n a = crc_rounds n b -> a = b.
Proof. induction n as [|n IH]; intros a b A B E; cbn in E; [exact E|]. apply round_inj; auto. apply IH; auto using reg_round. Qed.

(** ** Bit by bit *)

(** Feed one bit. *)
Definition feed (c : N) (b : bool) : N := crc_round (N.lxor c (N.b2n b)).
Lemma reg_feed c b : reg c -> reg (feed c b).
Proof. intros. apply reg_round, reg_lxor; [assumption|apply reg_bool]. Qed.
Lemma reg_feeds l : forall c, reg c -> reg (fold_left feed l c).
Proof. induction l as [|b l IH]; intros c H; cbn; auto using reg_feed. Qed.
Lemma feed_inj a b x : reg a -> reg b -> feed a x = feed b x -> a = b.
Proof.
  intros A B E. apply round_inj in E; [|apply reg_lxor; auto using reg_bool..].
  apply N.bits_inj. intros i. assert (N.testbit (N.lxor a (N.b2n x)) i = N.testbit (N.lxor b (N.b2n x)) i) as T by now rewrite E.
  rewrite !N.lxor_spec in T. destruct (N.testbit a i), (N.testbit b i), (N.testbit (N.b2n x) i); (reflexivity || (cbn [xorb] in T; congruence)).
Qed.
Lemma feeds_inj l : forall a b, reg a -> reg b -> fold_left feed l a = fold_left feed l b -> a = b.
Proof. induction l as [|x l IH]; intros a b A B E; cbn in E; [exact E|]. apply feed_inj with x; auto. apply IH; auto using reg_feed. Qed.

Lemma number_cons b l : number (b :: l) = N.lxor (N.b2n b) (N.shiftl (number l) 1).
Proof.
  assert (number (b :: l) = 2 * number l + N.b2n b)%N as -> by (cbn [number]; destruct b; unfold N.b2n; lia).
  apply N.bits_inj. intros i. rewrite N.lxor_spec. destruct (N.eq_dec i 0) as [->|Hi].
  - rewrite N.testbit_0_r, N.shiftl_spec_low by lia. now destruct b.
  - rewrite N.shiftl_spec_high' by lia. replace i with (N.succ (i - 1)) at 1 2 by lia. rewrite N.testbit_succ_r.
    replace (N.testbit (N.b2n b) (N.succ (i - 1))) with false; [now destruct (N.testbit (number l) _)|].
    destruct b; [|now rewrite N.bits_0]. symmetry. apply N.bits_above_log2. unfold N.b2n, N.log2. lia.
Qed.
Lemma shift_round x : crc_round (N.shiftl x 1) = x.
Proof.
  rewrite round_xor. rewrite N.shiftl_spec_low by lia. rewrite N.lxor_0_l. now rewrite N.shiftr_shiftl_l, N.sub_diag, N.shiftl_0_r by lia.
Qed.
(** Feeding some bits is adding them to the register and turning it. *)
Lemma feeds_rounds l : forall c, fold_left feed l c = crc_rounds (length l) (N.lxor c (number l)).
Proof.
  induction l as [|b l IH]; intros c; cbn [fold_left length crc_rounds].
  - now rewrite N.lxor_0_r.
  - rewrite IH. f_equal. unfold feed. rewrite number_cons, <- N.lxor_assoc, (round_lin _ (N.shiftl _ _)), shift_round. reflexivity.
Qed.

Lemma number_testbit l : forall i, N.testbit (number l) (N.of_nat i) = nth i l false.
Proof.
  induction l as [|b l IH]; intros i; [cbn [number]; rewrite N.bits_0; now destruct i|].
  rewrite number_cons, N.lxor_spec. destruct i as [|i].
  - rewrite N.shiftl_spec_low by lia. cbn. now destruct b.
  - rewrite N.shiftl_spec_high' by lia. replace (N.of_nat (S i) - 1)%N with (N.of_nat i) by lia. rewrite IH. cbn [nth].
    replace (N.testbit (N.b2n b) (N.of_nat (S i))) with false; [now destruct (nth _ _ _)|].
    destruct b; [|now rewrite N.bits_0]. symmetry. apply N.bits_above_log2. unfold N.b2n, N.log2. lia.
Qed.
Lemma number_inj l : forall l', length l = length l' -> number l = number l' -> l = l'.
Proof.
  intros l' L E. apply nth_ext with false false; [exact L|]. intros i _. now rewrite <- !number_testbit, E.
Qed.
Lemma number_reg l : length l <= 32 -> reg (number l).
Proof.
  intros H. apply bits_reg. intros i Hi. rewrite <- (N2Nat.id i), number_testbit. apply nth_overflow. lia.
Qed.

(** The bits of a number, and back. *)
Definition low_bits (n : nat) (c : N) : list bool := map (fun i => N.testbit c (N.of_nat i)) (seq 0 n).
Lemma low_bits_length n c : length (low_bits n c) = n.
Proof. unfold low_bits. now rewrite map_length, seq_length. Qed.
Lemma low_bits_nth n c i : nth i (low_bits n c) false = (i <? n) && N.testbit c (N.of_nat i).
Proof.
  unfold low_bits. destruct (Nat.ltb_spec i n).
  - rewrite (nth_indep _ false (N.testbit c (N.of_nat 0))) by (rewrite map_length, seq_length; lia).
    rewrite (map_nth (fun i => N.testbit c (N.of_nat i))). now rewrite seq_nth.
  - apply nth_overflow. rewrite map_length, seq_length. lia.
Qed.
Lemma number_low_bits n c : (forall i, (N.of_nat n <= i)%N -> N.testbit c i = false) -> number (low_bits n c) = c.
Proof.
  intros H. apply N.bits_inj. intros i. rewrite <- (N2Nat.id i), number_testbit, low_bits_nth.
  destruct (Nat.ltb_spec (N.to_nat i) n); [reflexivity|]. symmetry. apply H. lia.
Qed.
Lemma byte_bits_number b : (b < 256)%N -> number (byte_bits b) = b.
Proof.
  intros H. apply (number_low_bits 8). intros i Hi. destruct (N.eq_dec b 0) as [->|B]; [apply N.bits_0|].
  apply N.bits_above_log2. assert (N.log2 b < 8)%N; [|lia]. apply N.log2_lt_pow2; [lia|exact H].
Qed.

(** ** The table *)

Lemma shiftr_rounds n : forall c, (forall i, (i < N.of_nat n)%N -> N.testbit c i = false) -> crc_rounds n c = N.shiftr c (N.of_nat n).
Proof.
  induction n as [|n IH]; intros c H; cbn [crc_rounds]; [now rewrite N.shiftr_0_r|].
  rewrite round_xor, H, N.lxor_0_l by lia. rewrite IH.
  - rewrite N.shiftr_shiftr. f_equal. lia.
  - intros i Hi. rewrite N.shiftr_spec by lia. apply H. lia.
Qed.
Lemma table_entry i : i < 256 -> nth_error crc_table i = Some (crc_rounds 8 (N.of_nat i)).
Proof.
  intros H. unfold crc_table. erewrite map_nth_error; [reflexivity|].
  rewrite (nth_error_nth' _ 0) by (rewrite seq_length; lia). now rewrite seq_nth.
Qed.
Lemma update_rounds c b : (b < 256)%N -> crc_update c b = Ok (crc_rounds 8 (N.lxor c b)).
Proof.
  intros B. unfold crc_update. set (x := N.lxor c b).
  assert (N.land x 255 < 256)%N as L by (change 255%N with (N.ones 8); rewrite N.land_ones; apply N.mod_lt; discriminate).
  rewrite table_entry by lia. rewrite N2Nat.id. f_equal.
  assert (x = N.lxor (N.land x 255) (N.shiftl (N.shiftr x 8) 8)) as E.
  { apply N.bits_inj. intros i. rewrite N.lxor_spec, N.land_spec. change 255%N with (N.ones 8).
    destruct (N.lt_ge_cases i 8) as [I|I].
    - rewrite N.ones_spec_low, N.shiftl_spec_low by lia. now rewrite andb_true_r, xorb_false_r.
    - rewrite N.ones_spec_high, N.shiftl_spec_high' by lia. rewrite andb_false_r, xorb_false_l, N.shiftr_spec by lia. f_equal. lia. }
  rewrite E at 2. rewrite rounds_lin. f_equal. rewrite (shiftr_rounds 8 (N.shiftl _ _)).
  - change (N.of_nat 8) with 8%N. rewrite N.shiftr_shiftl_l, N.sub_diag, N.shiftl_0_r by lia.
    unfold x. rewrite N.shiftr_lxor. replace (N.shiftr b 8) with 0%N; [now rewrite N.lxor_0_r|].
    rewrite N.shiftr_div_pow2. symmetry. apply N.div_small. exact B.
  - intros i Hi. apply N.shiftl_spec_low. lia.
Qed.
Lemma loop_feeds l : Forall (fun b => (b < 256)%N) l -> forall c, crc_loop c l = Ok (fold_left feed (bits l) c).
Proof.
  induction 1 as [|b l B F IH]; intros c; [reflexivity|]. cbn [crc_loop]. rewrite update_rounds, IH by exact B.
  unfold bits. cbn [map concat]. rewrite fold_left_app. f_equal. f_equal.
  rewrite feeds_rounds, byte_bits_number by exact B. reflexivity.
Qed.

(** ** Division *)

Lemma add_lead_length p : forall l, length (add_lead p l) = length l.
Proof. induction p as [|a p IH]; intros [|b l]; cbn; auto. Qed.
Lemma add_lead_false n : forall l, add_lead (repeat false n) l = l.
Proof. induction n as [|n IH]; intros [|b l]; cbn; [reflexivity..|]. rewrite IH; now destruct b. Qed.
Lemma add_lead_pad t : forall l, add_lead (t ++ [false]) l = add_lead t l.
Proof. induction t as [|a t IH]; intros [|b l]; cbn; [reflexivity| |reflexivity|now rewrite IH]. destruct b, l; reflexivity. Qed.
Lemma add_lead_assoc p : forall q l, length p <= length q -> add_lead (add_lead p q) l = add_lead p (add_lead q l).
Proof.
  induction p as [|a p IH]; intros [|b q] [|c l] H; cbn in *; try reflexivity; try lia. rewrite IH by lia. now rewrite xorb_assoc.
Qed.
Lemma add_lead_zeros p : add_lead p (zeros (length p)) = p.
Proof. unfold zeros. induction p as [|a p IH]; cbn [length repeat add_lead]; [reflexivity|]. now rewrite xorb_false_r, IH. Qed.
Lemma generator_poly : generator = low_bits 32 poly.
Proof. reflexivity. Qed.
Lemma low_bits_S n c : low_bits (S n) c = N.testbit c 0 :: low_bits n (N.shiftr c 1).
Proof.
  unfold low_bits. cbn [seq map]. f_equal. rewrite <- seq_shift, map_map. apply map_ext. intros i.
  rewrite N.shiftr_spec by lia. f_equal. lia.
Qed.
Lemma low_bits_top n c : (forall i, (N.of_nat n <= i)%N -> N.testbit c i = false) -> low_bits (S n) c = low_bits n c ++ [false].
Proof.
  intros H. unfold low_bits. replace (S n) with (n + 1) by lia. rewrite seq_app, map_app. cbn. now rewrite H by lia.
Qed.
Lemma low_bits_lxor n a b : low_bits n (N.lxor a b) = add_lead (low_bits n a) (low_bits n b).
Proof.
  revert a b. induction n as [|n IH]; intros a b; [reflexivity|]. rewrite !low_bits_S. cbn [add_lead].
  rewrite N.lxor_spec, N.shiftr_lxor, IH. reflexivity.
Qed.
(** The register during the division. *)
Lemma divide_feed m : forall c, reg c -> divide (length m) (add_lead (low_bits 32 c) (m ++ zeros 32)) = low_bits 32 (fold_left feed m c).
Proof.
  induction m as [|b m IH]; intros c C; cbn [length fold_left app].
  - cbn [divide]. replace (zeros 32) with (zeros (length (low_bits 32 c))) by now rewrite low_bits_length. apply add_lead_zeros.
  - rewrite <- IH by now apply reg_feed.
    rewrite low_bits_S. cbn [add_lead divide]. unfold feed. rewrite round_xor, N.lxor_spec, N.shiftr_lxor.
    replace (N.testbit (N.b2n b) 0) with b by now destruct b. replace (N.shiftr (N.b2n b) 1) with 0%N by now destruct b.
    rewrite N.lxor_0_r, low_bits_lxor.
    assert (low_bits 32 (N.shiftr c 1) = low_bits 31 (N.shiftr c 1) ++ [false]) as T.
    { apply low_bits_top. intros i Hi. rewrite N.shiftr_spec by lia. apply reg_bit; [exact C|lia]. }
    destruct (xorb (N.testbit c 0) b).
    + rewrite <- generator_poly, T, add_lead_assoc, add_lead_pad; [reflexivity|]. rewrite app_length, low_bits_length. cbn. lia.
    + rewrite T. change (low_bits 32 0) with (repeat false 32). now rewrite add_lead_false, add_lead_pad.
Qed.
Lemma negb_low_bits c : map negb (low_bits 32 c) = low_bits 32 (N.lxor c 0xffffffff).
Proof.
  unfold low_bits. rewrite map_map. apply map_ext_in. intros i Hi. apply in_seq in Hi. rewrite N.lxor_spec.
  change 4294967295%N with (N.ones 32). rewrite N.ones_spec_low by lia. now destruct (N.testbit c _).
Qed.

Definition bytes (l : text) : Prop := Forall (fun b => (b < 256)%N) l.
Lemma crc32_feeds l : bytes l -> crc32 l = N.lxor (fold_left feed (bits l) 0xffffffff%N) 0xffffffff.
Proof.
  intros B. unfold crc32, crc_bits. change (ones 32) with (low_bits 32 0xffffffff). rewrite divide_feed by reflexivity.
  rewrite negb_low_bits. apply (number_low_bits 32). intros i Hi. apply reg_bit; [|exact Hi]. apply reg_lxor; [|reflexivity]. now apply reg_feeds.
Qed.
Lemma calc_crc_spec l : bytes l -> calc_crc l = Ok (crc32 l).
Proof. intros B. unfold calc_crc. rewrite loop_feeds by exact B. now rewrite crc32_feeds. Qed.
Lemma crc32_reg l : bytes l -> (crc32 l < 2 ^ 32)%N.
Proof. intros B. rewrite crc32_feeds by exact B. apply reg_lxor; [|reflexivity]. now apply reg_feeds. Qed.

(** ** Errors *)

Lemma feeds_burst c d d' : reg c -> length d = length d' -> length d <= 32 ->
  fold_left feed d c = fold_left feed d' c -> d = d'.
Proof.
  intros C L D E. rewrite !feeds_rounds, <- L in E. apply rounds_inj in E; [|apply reg_lxor; auto; apply number_reg; lia..].
  apply number_inj; [exact L|]. apply N.bits_inj. intros i.
  assert (N.testbit (N.lxor c (number d)) i = N.testbit (N.lxor c (number d')) i) as T by now rewrite E.
  rewrite !N.lxor_spec in T. destruct (N.testbit c i), (N.testbit (number d) i), (N.testbit (number d') i); (reflexivity || (cbn [xorb] in T; congruence)).
Qed.
Lemma crc32_burst a b p d d' s : bytes a -> bytes b -> bits a = p ++ d ++ s -> bits b = p ++ d' ++ s ->
  length d = length d' -> length d <= 32 -> crc32 a = crc32 b -> d = d'.
Proof.
  intros A B Ea Eb L D E. rewrite !crc32_feeds, Ea, Eb in E by assumption.
  assert (fold_left feed (p ++ d ++ s) 0xffffffff%N = fold_left feed (p ++ d' ++ s) 0xffffffff%N) as X.
  { apply N.bits_inj. intros i. assert (forall x y, N.lxor x 4294967295 = N.lxor y 4294967295 -> N.testbit x i = N.testbit y i) as I.
    { intros x y H. assert (N.testbit (N.lxor x 4294967295) i = N.testbit (N.lxor y 4294967295) i) as T by now rewrite H.
      rewrite !N.lxor_spec in T. destruct (N.testbit x i), (N.testbit y i), (N.testbit 4294967295 i); (reflexivity || (cbn [xorb] in T; congruence)). }
    now apply I. }
  rewrite !fold_left_app in X. apply feeds_inj in X; [|repeat apply reg_feeds; reflexivity..].
  apply feeds_burst in X; auto. apply reg_feeds. reflexivity.
Qed.
