(** The reader of examples/png2.rs against the file format of Png.v. *)

From Coq Require Import List Arith NArith ZArith Bool Lia.
From Verif Require Import Base Text Context Neu Syntax Regex Ctor Api TextProofs Spec Core Obs Laws ApiLaws CursorLaws CtorSpec SeqLaws Maps MapLaws
  PropMaps Png CrcLaws.
Import ListNotations.

(** Byte contexts. *)
Notation bc w i := (Ctx KBytes w i).
Definition cut (w : text) (i n : nat) : text := firstn n (skipn i w).

Lemma cut_length w i n : i + n <= length w -> length (cut w i n) = n.
Proof. intros. unfold cut. rewrite firstn_length_le; [reflexivity|]. rewrite skipn_length. lia. Qed.
Lemma cut_app (a b c : text) i n : i = length a -> n = length b -> cut (a ++ b ++ c) i n = b.
Proof.
  intros -> ->. unfold cut. rewrite skipn_app, skipn_all, Nat.sub_diag. cbn [app skipn].
  rewrite firstn_app, firstn_all, Nat.sub_diag. cbn. apply app_nil_r.
Qed.

Lemma orig_sub_bytes w i n o : i + n <= length w -> orig_sub (bc w o) i n = Ok (cut w i n).
Proof.
  intros H. pose proof (orig_sub_sp KBytes w 0 i (i + n) ltac:(lia) H) as E.
  cbn [sp sbeg slen] in E. rewrite !bo_bytes in E by lia. replace (i + n - i) with n in E by lia. exact E.
Qed.
Lemma png_parse_ok m w i : i + out_size m <= length w ->
  png_parse m (bc w i) = (try_map m (VText (cut w i (out_size m))), bc w (i + out_size m)).
Proof.
  intros H.
  assert (parse_step [] (parse 2 []) 2 [] [] (PConsume (out_size m)) (bc w i) = (Ok (Span i (out_size m)), bc w (i + out_size m))) as E.
  { cbn. unfold consume_parse, bind, remaining, csub, ctx_len. cbn [c_kind c_dat c_off]. rewrite tlen_bytes.
    destruct (Nat.leb_spec i (length w)); [|lia]. destruct (Nat.leb_spec (out_size m) (length w - i)); [reflexivity|lia]. }
  unfold png_parse, run_ctor, mapped. cbn. unfold bind, leaf, ctm, on_ctx, tm, bind. cbn in *. rewrite E. cbn.
  rewrite orig_sub_bytes by exact H. reflexivity.
Qed.
Lemma png_parse_short m w i : i <= length w -> length w < i + out_size m ->
  png_parse m (bc w i) = (Err EConsume, bc w i).
Proof.
  intros H L.
  assert (parse_step [] (parse 2 []) 2 [] [] (PConsume (out_size m)) (bc w i) = (Err EConsume, bc w i)) as E.
  { cbn. unfold consume_parse, bind, remaining, csub, ctx_len. cbn [c_kind c_dat c_off]. rewrite tlen_bytes.
    destruct (Nat.leb_spec i (length w)); [|lia]. destruct (Nat.leb_spec (out_size m) (length w - i)); [lia|reflexivity]. }
  unfold png_parse, run_ctor, mapped. cbn. unfold bind, leaf, ctm, on_ctx, tm, bind. cbn in *. rewrite E. reflexivity.
Qed.

(** Numbers. *)
Lemma be32_length z : length (be32 z) = 4. Proof. reflexivity. Qed.
Lemma be32_bytes z : bytes (be32 z).
Proof. unfold be32. repeat constructor; lia. Qed.
Lemma be32_encoded z : be32 z = rev (encoded_le u32 z).
Proof.
  unfold be32, encoded_le, byte_of. cbn [i_size u32 seq map rev app]. change (256 ^ Z.of_nat 0)%Z with 1%Z. now rewrite Z.div_1_r.
Qed.
Lemma read_u32 z : (0 <= z < 2 ^ 32)%Z -> try_map (from_be_bytes u32) (VText (be32 z)) = Ok (VNum z).
Proof.
  intros H. pose proof (C38_be_encode u32 z [] ltac:(cbn; lia)) as E. rewrite app_nil_r, <- be32_encoded in E. apply E; [|constructor].
  unfold i_min, i_max, u32. cbn [i_signed i_size]. change (8 * Z.of_nat 4)%Z with 32%Z. lia.
Qed.
Lemma write_u32 l : bytes l -> length l = 4 -> exists z, (0 <= z < 2 ^ 32)%Z /\ l = be32 z.
Proof.
  intros B L. destruct (C38_be u32 l) as (z & _ & R & E); [cbn; lia|exact B|cbn; lia|].
  unfold i_min, i_max, u32 in R. cbn [i_signed i_size] in R. change (8 * Z.of_nat 4)%Z with 32%Z in R.
  exists z. split; [lia|]. do 5 (destruct l as [|? l]; [discriminate L || cbn in L; try lia|]); [|cbn in L; lia].
  unfold be32. cbn [i_size u32] in E. 
  pose proof (E 0 ltac:(lia)) as E0. pose proof (E 1 ltac:(lia)) as E1. pose proof (E 2 ltac:(lia)) as E2. pose proof (E 3 ltac:(lia)) as E3.
  cbn [nth_error Nat.sub] in E0, E1, E2, E3. unfold byte_of in *. change (256 ^ Z.of_nat 0)%Z with 1%Z in E0. rewrite Z.div_1_r in E0.
  change (256 ^ Z.of_nat 1)%Z with (2 ^ 8)%Z in E1. change (256 ^ Z.of_nat 2)%Z with (2 ^ 16)%Z in E2. change (256 ^ Z.of_nat 3)%Z with (2 ^ 24)%Z in E3.
  injection E0 as ->. injection E1 as ->. injection E2 as ->. injection E3 as ->. reflexivity.
Qed.
Lemma be32_inj a b : (0 <= a < 2 ^ 32)%Z -> (0 <= b < 2 ^ 32)%Z -> be32 a = be32 b -> a = b.
Proof. intros A B E. apply read_u32 in A. apply read_u32 in B. congruence. Qed.
Lemma read_u8 b : (b < 256)%N -> try_map (from_be_bytes u8) (VText [b]) = Ok (VNum (Z.of_N b)).
Proof.
  intros H. cbn. unfold from_bytes, std_from_be, reinterpret, in_type, i_min, i_max. cbn.
  destruct (Z.leb_spec 0 (Z.of_N b + 0)), (Z.leb_spec (Z.of_N b + 0) 255); try lia. cbn. do 3 f_equal. lia.
Qed.

(** Reading one trunk. *)
Lemma bytes_app a b : bytes (a ++ b) <-> bytes a /\ bytes b.
Proof. apply Forall_app. Qed.
Ltac norm := rewrite ?app_length, ?be32_length, ?firstn_length, ?skipn_length in *; cbn [length] in *; unfold item, text in *.
Lemma cut_bytes w i n : bytes w -> bytes (cut w i n).
Proof.
  intros H. apply Forall_forall. intros x X. unfold cut in X. unfold bytes in H. rewrite Forall_forall in H. apply H.
  rewrite <- (firstn_skipn i w). apply in_or_app. right. rewrite <- (firstn_skipn n (skipn i w)). apply in_or_app. now left.
Qed.
Lemma cut_one w i x : nth_error w i = Some x -> cut w i 1 = [x].
Proof.
  intros H. unfold cut. assert (skipn i w = x :: skipn (S i) w) as ->; [|reflexivity].
  revert w H. induction i as [|i IH]; intros [|y w] H; cbn in *; try discriminate; [congruence|now apply IH].
Qed.
(** The trunk at [i], if there are enough bytes: whether the checksum is right decides. *)
Lemma trunk_new_spec pre ty data v rest : bytes ty -> bytes data -> length ty = 4 -> (0 <= v < 2 ^ 32)%Z ->
  let w := pre ++ ty ++ data ++ be32 v ++ rest in
  trunk_new (length data) (bc w (length pre)) =
  (if (v =? Z.of_N (crc32 (ty ++ data)))%Z
   then Ok (Trunk (Z.of_N (nth 0 ty 0%N)) (Z.of_N (nth 1 ty 0%N)) (Z.of_N (nth 2 ty 0%N)) (Z.of_N (nth 3 ty 0%N)) v data) else Panic,
   bc w (length pre + 8 + length data)).
Proof.
  intros T D L V w. do 4 (destruct ty as [|? ty]; [discriminate L|]). destruct ty as [|? ty]; [|discriminate L].
  rename i into a, i0 into b, i1 into c, i2 into d. clear L.
  assert (length w = length pre + 8 + length data + length rest) as W by (unfold w; norm; lia).
  unfold bytes in T. rewrite !Forall_cons_iff in T. destruct T as (Ta & Tb & Tc & Td & _).
  assert (forall k x, nth_error [a; b; c; d] k = Some x -> (x < 256)%N -> png_parse (from_be_bytes u8) (bc w (length pre + k)) = (Ok (VNum (Z.of_N x)), bc w (length pre + k + 1))) as P.
  { intros k x K X. assert (k < 4) by (apply (nth_error_Some [a;b;c;d]); congruence). rewrite png_parse_ok by (cbn [out_size from_be_bytes bytes_mapper u8 i_size]; lia).
    cbn [out_size from_be_bytes bytes_mapper u8 i_size]. rewrite cut_one with (x := x).
    - rewrite read_u8 by exact X. reflexivity.
    - unfold w. rewrite nth_error_app2 by lia. replace (length pre + k - length pre) with k by lia. rewrite nth_error_app1 by (cbn; lia). exact K. }
  unfold trunk_new, bind, offset. cbn [get_off ctx_offset c_off].
  pose proof (P 0 a eq_refl Ta) as P0. rewrite Nat.add_0_r in P0. rewrite P0. cbn [as_num ret].
  rewrite (P 1 b eq_refl Tb). cbn [as_num ret]. replace (length pre + 1 + 1) with (length pre + 2) by lia.
  rewrite (P 2 c eq_refl Tc). cbn [as_num ret]. replace (length pre + 2 + 1) with (length pre + 3) by lia.
  rewrite (P 3 d eq_refl Td). cbn [as_num ret]. replace (length pre + 3 + 1) with (length pre + 4) by lia.
  rewrite png_parse_ok by (cbn [out_size fixed_size]; lia). cbn [out_size fixed_size try_map].
  assert (w = (pre ++ [a; b; c; d]) ++ data ++ (be32 v ++ rest)) as E1 by (unfold w; now rewrite <- app_assoc).
  assert (cut w (length pre + 4) (length data) = data) as -> by (rewrite E1; apply cut_app; [rewrite app_length; reflexivity|reflexivity]).
  cbn [as_slice ret].
  unfold lift, csub. cbn [c_off]. destruct (Nat.leb_spec (length pre) (length pre + 4 + length data)); [|lia].
  unfold reads. cbn beta iota. rewrite orig_sub_bytes by lia.
  assert (w = pre ++ ([a; b; c; d] ++ data) ++ (be32 v ++ rest)) as E2 by (unfold w; now rewrite <- !app_assoc).
  assert (cut w (length pre) (length pre + 4 + length data - length pre) = [a; b; c; d] ++ data) as ->
    by (rewrite E2; apply cut_app; [reflexivity|rewrite app_length; cbn [length]; lia]).
  rewrite png_parse_ok by (cbn [out_size from_be_bytes bytes_mapper u32 i_size]; lia).
  cbn [out_size from_be_bytes bytes_mapper u32 i_size].
  assert (w = (pre ++ [a; b; c; d] ++ data) ++ be32 v ++ rest) as E3 by (unfold w; now rewrite <- !app_assoc).
  assert (cut w (length pre + 4 + length data) 4 = be32 v) as -> by (rewrite E3; apply cut_app; [rewrite !app_length; cbn [length]; lia|reflexivity]).
  change (Mapper 4 _) with (from_be_bytes u32). rewrite read_u32 by exact V. cbn [as_num ret].
  assert (bytes ([a; b; c; d] ++ data)) as BD by (apply bytes_app; split; [repeat constructor; assumption|exact D]).
  rewrite calc_crc_spec by exact BD.
  replace (length pre + 4 + length data + 4) with (length pre + 8 + length data) by lia.
  destruct (v =? _)%Z; reflexivity.
Qed.

(** With fewer bytes the trunk cannot be read. *)
Lemma trunk_new_short pre rest len : bytes rest -> length rest < len + 8 ->
  exists c, trunk_new len (bc (pre ++ rest) (length pre)) = (Err EConsume, c).
Proof.
  intros B L. set (w := pre ++ rest). assert (length w = length pre + length rest) as W by (unfold w; norm; lia).
  assert (forall k, k + 1 <= length rest -> exists z, png_parse (from_be_bytes u8) (bc w (length pre + k)) = (Ok (VNum z), bc w (length pre + k + 1))) as P.
  { intros k K. rewrite png_parse_ok by (cbn [out_size from_be_bytes bytes_mapper u8 i_size]; lia). cbn [out_size from_be_bytes bytes_mapper u8 i_size].
    destruct (nth_error rest k) as [x|] eqn:E; [|apply nth_error_None in E; lia].
    rewrite cut_one with (x := x) by (unfold w; rewrite nth_error_app2 by lia; now replace (length pre + k - length pre) with k by lia).
    rewrite read_u8; [eauto|]. unfold bytes in B. rewrite Forall_forall in B. apply B. now apply nth_error_In in E. }
  assert (forall k, length rest < k + 1 -> k <= length rest -> png_parse (from_be_bytes u8) (bc w (length pre + k)) = (Err EConsume, bc w (length pre + k))) as Q.
  { intros k K K'. apply png_parse_short; cbn [out_size from_be_bytes bytes_mapper u8 i_size]; lia. }
  unfold trunk_new, bind, offset. cbn [get_off ctx_offset c_off].
  assert (forall k (f : val -> ctx -> res trunk * ctx), k <= length rest ->
    (forall z, k + 1 <= length rest -> exists c, f (VNum z) (bc w (length pre + (k + 1))) = (Err EConsume, c)) ->
    exists c : ctx, (let (r, x') := png_parse (from_be_bytes u8) (bc w (length pre + k)) in
      match r with Ok a => f a x' | Err e => (Err e, x') | Panic => (Panic, x') | OOF => (OOF, x') end) = (Err EConsume, c : ctx)) as St.
  { intros k f K H. destruct (Nat.lt_ge_cases (length rest) (k + 1)) as [O|O].
    - rewrite Q by assumption. eauto.
    - destruct (P k O) as (z & ->). replace (length pre + k + 1) with (length pre + (k + 1)) by lia. apply H. exact O. }
  pose proof (St 0) as St0. rewrite Nat.add_0_r in St0. apply St0; [lia|]. intros z1 L1. cbn [as_num ret Nat.add].
  apply (St 1); [lia|]. intros z2 L2. cbn [as_num ret Nat.add].
  apply (St 2); [lia|]. intros z3 L3. cbn [as_num ret Nat.add].
  apply (St 3); [lia|]. intros z4 L4. cbn [as_num ret Nat.add].
  destruct (Nat.lt_ge_cases (length rest) (4 + len)) as [O|O].
  { rewrite png_parse_short by (cbn [out_size fixed_size]; lia). eauto. }
  rewrite png_parse_ok by (cbn [out_size fixed_size]; lia). cbn [out_size fixed_size try_map as_slice ret].
  unfold lift, csub. cbn [c_off]. destruct (Nat.leb_spec (length pre) (length pre + 4 + len)); [|lia].
  unfold reads. cbn beta iota. rewrite orig_sub_bytes by lia.
  rewrite png_parse_short by (cbn [out_size from_be_bytes bytes_mapper u32 i_size]; lia). eauto.
Qed.

(** ** The loop *)

(** What [Png::new] does, started at the end of [pre]. *)
Definition Reads (pre file : text) (r : res (list trunk)) (stop : nat) : Prop :=
  exists n, png_new n (bc (pre ++ file) (length pre)) = (r, bc (pre ++ file) stop) /\ r <> OOF.
Lemma png_new_S n : png_new (S n) =
  (r <- catch (png_parse (from_be_bytes u32)) ;;
   match r with
   | inr _ => ret []
   | inl v => len <- as_num v ;; t <- trunk_new (Z.to_nat len) ;; ts <- png_new n ;; ret (t :: ts)
   end).
Proof. reflexivity. Qed.
Lemma read_length pre z rest : (0 <= z < 2 ^ 32)%Z ->
  png_parse (from_be_bytes u32) (bc (pre ++ be32 z ++ rest) (length pre)) = (Ok (VNum z), bc (pre ++ be32 z ++ rest) (length pre + 4)).
Proof.
  intros Z. rewrite png_parse_ok by (cbn [out_size from_be_bytes bytes_mapper u32 i_size]; norm; lia).
  cbn [out_size from_be_bytes bytes_mapper u32 i_size]. rewrite cut_app by reflexivity.
  change (Mapper 4 _) with (from_be_bytes u32). now rewrite read_u32.
Qed.
Lemma new_end n pre rest : length rest < 4 -> png_new (S n) (bc (pre ++ rest) (length pre)) = (Ok [], bc (pre ++ rest) (length pre)).
Proof.
  intros L. rewrite png_new_S. unfold bind, catch. rewrite png_parse_short; [reflexivity|norm; lia|].
  cbn [out_size from_be_bytes bytes_mapper u32 i_size]. norm. lia.
Qed.
Lemma new_chunk n pre k rest : chunk_ok k ->
  let w := pre ++ chunk_bytes k ++ rest in
  png_new (S n) (bc w (length pre)) =
  match png_new n (bc w (length pre + length (chunk_bytes k))) with
  | (Ok ts, c) => (Ok (trunk_of k :: ts), c)
  | x => x
  end.
Proof.
  intros (T & B & L) w. rewrite png_new_S. unfold bind, catch.
  set (d := k_data k) in *. set (t := k_type k) in *.
  assert (w = pre ++ be32 (Z.of_nat (length d)) ++ (t ++ d ++ be32 (Z.of_N (crc32 (t ++ d))) ++ rest)) as E
    by (unfold w, chunk_bytes; fold d t; now rewrite <- !app_assoc).
  rewrite E at 1. rewrite read_length by lia. cbn [as_num ret]. rewrite <- E. rewrite Nat2Z.id.
  assert (bytes t /\ bytes d) as [Bt Bd] by now apply bytes_app.
  assert (0 <= Z.of_N (crc32 (t ++ d)) < 2 ^ 32)%Z as C by (pose proof (crc32_reg (t ++ d) B); lia).
  pose proof (trunk_new_spec (pre ++ be32 (Z.of_nat (length d))) t d _ rest Bt Bd T C) as X. cbn zeta in X.
  rewrite <- app_assoc, <- E, app_length, be32_length, Z.eqb_refl in X. rewrite X.
  assert (length pre + 4 + 8 + length d = length pre + length (chunk_bytes k)) as ->
    by (unfold chunk_bytes; fold d t; rewrite !app_length, !be32_length, T; lia).
  destruct (png_new n _) as [[ts| | |] c]; reflexivity.
Qed.
Lemma new_truncated n pre z rest : (0 <= z < 2 ^ 32)%Z -> bytes rest -> length rest < Z.to_nat z + 8 ->
  exists c, png_new (S n) (bc (pre ++ be32 z ++ rest) (length pre)) = (Err EConsume, c).
Proof.
  intros Z B L. rewrite png_new_S. unfold bind, catch. rewrite read_length by exact Z. cbn [as_num ret].
  destruct (trunk_new_short (pre ++ be32 z) rest _ B L) as (c & X). rewrite <- app_assoc, app_length, be32_length in X. rewrite X. eauto.
Qed.
Lemma new_damaged n pre t d v rest : length t = 4 -> bytes (t ++ d) -> (Z.of_nat (length d) < 2 ^ 32)%Z -> (0 <= v < 2 ^ 32)%Z ->
  v <> Z.of_N (crc32 (t ++ d)) ->
  exists c, png_new (S n) (bc (pre ++ be32 (Z.of_nat (length d)) ++ t ++ d ++ be32 v ++ rest) (length pre)) = (Panic, c).
Proof.
  intros T B L V N. rewrite png_new_S. unfold bind, catch. rewrite read_length by lia. cbn [as_num ret]. rewrite Nat2Z.id.
  assert (bytes t /\ bytes d) as [Bt Bd] by now apply bytes_app.
  pose proof (trunk_new_spec (pre ++ be32 (Z.of_nat (length d))) t d v rest Bt Bd T V) as X. cbn zeta in X.
  rewrite <- app_assoc, app_length, be32_length in X. rewrite X. destruct (Z.eqb_spec v (Z.of_N (crc32 (t ++ d)))); [contradiction|]. eauto.
Qed.
Lemma new_more n : forall m c r c', png_new n c = (r, c') -> r <> OOF -> n <= m -> png_new m c = (r, c').
Proof.
  induction n as [|n IH]; intros m c r c' H N L; [injection H as <- <-; congruence|]. destruct m as [|m]; [lia|].
  rewrite png_new_S in *. unfold bind in *. destruct (catch _ c) as [[[v|e]| | |] c1]; auto.
  destruct (as_num v c1) as [[z| | |] c2]; auto. destruct (trunk_new _ c2) as [[t| | |] c3]; auto.
  destruct (png_new n c3) as [r4 c4] eqn:E4. destruct r4 as [ts|e| |];
    [rewrite (IH m _ _ _ E4)|rewrite (IH m _ _ _ E4)|rewrite (IH m _ _ _ E4)|injection H as <- <-; congruence]; auto; try discriminate; lia.
Qed.
(** Any number of good chunks, then whatever happens behind them. *)
Lemma new_chunks n ks : Forall chunk_ok ks -> forall pre rest,
  let w := pre ++ concat (map chunk_bytes ks) ++ rest in
  png_new (length ks + n) (bc w (length pre)) =
  match png_new n (bc w (length pre + length (concat (map chunk_bytes ks)))) with
  | (Ok ts, c) => (Ok (map trunk_of ks ++ ts), c)
  | x => x
  end.
Proof.
  induction 1 as [|k ks K F IH]; intros pre rest w.
  - cbn [length map concat app Nat.add]. rewrite Nat.add_0_r. destruct (png_new n _) as [[ts| | |] c]; reflexivity.
  - cbn [length Nat.add]. unfold w. cbn [map concat]. rewrite <- app_assoc. pose proof (new_chunk (length ks + n) pre k (concat (map chunk_bytes ks) ++ rest) K) as X.
    cbn zeta in X. rewrite X. clear X. pose proof (IH (pre ++ chunk_bytes k) rest) as Y. cbn zeta in Y.
    rewrite <- app_assoc, app_length in Y. rewrite Y. rewrite !app_length, Nat.add_assoc. destruct (png_new n _) as [[ts| | |] c]; reflexivity.
Qed.
(** Every byte string is one of three kinds. *)
Lemma classify m : forall s, length s <= m -> bytes s ->
  exists ks rest, Forall chunk_ok ks /\ s = concat (map chunk_bytes ks) ++ rest /\
    (length rest < 4 \/
     (exists z r, (0 <= z < 2 ^ 32)%Z /\ rest = be32 z ++ r /\ length r < Z.to_nat z + 8) \/
     (exists t d v r, length t = 4 /\ (Z.of_nat (length d) < 2 ^ 32)%Z /\ (0 <= v < 2 ^ 32)%Z /\ v <> Z.of_N (crc32 (t ++ d)) /\
        rest = be32 (Z.of_nat (length d)) ++ t ++ d ++ be32 v ++ r)).
Proof.
  induction m as [|m IH]; intros s L B.
  { exists [], s. split; [constructor|]. split; [reflexivity|]. left. lia. }
  destruct (Nat.lt_ge_cases (length s) 4) as [S4|S4].
  { exists [], s. split; [constructor|]. split; [reflexivity|]. now left. }
  assert (s = firstn 4 s ++ skipn 4 s) as E by now rewrite firstn_skipn.
  assert (bytes (firstn 4 s) /\ bytes (skipn 4 s)) as [B1 B2] by (apply bytes_app; now rewrite <- E).
  destruct (write_u32 _ B1) as (z & Z & Ez); [rewrite firstn_length_le; lia|]. rewrite Ez in E. set (r := skipn 4 s) in *.
  destruct (Nat.lt_ge_cases (length r) (Z.to_nat z + 8)) as [S8|S8].
  { exists [], s. split; [constructor|]. split; [reflexivity|]. right. left. eauto. }
  set (len := Z.to_nat z) in *.
  assert (r = firstn 4 r ++ firstn len (skipn 4 r) ++ firstn 4 (skipn len (skipn 4 r)) ++ skipn 4 (skipn len (skipn 4 r))) as Er by now rewrite !firstn_skipn.
  set (t := firstn 4 r) in *. set (d := firstn len (skipn 4 r)) in *. set (cb := firstn 4 (skipn len (skipn 4 r))) in *. set (r' := skipn 4 (skipn len (skipn 4 r))) in *.
  assert (length t = 4) as Lt by (apply firstn_length_le; lia).
  assert (length d = len) as Ld by (apply firstn_length_le; rewrite skipn_length; lia).
  assert (length cb = 4) as Lc by (apply firstn_length_le; rewrite !skipn_length; lia).
  rewrite Er in B2. apply bytes_app in B2. destruct B2 as [Bt B2]. apply bytes_app in B2. destruct B2 as [Bd B2]. apply bytes_app in B2. destruct B2 as [Bc Br].
  destruct (write_u32 _ Bc Lc) as (v & V & Ev). rewrite Ev in Er.
  assert (z = Z.of_nat (length d)) as Ezd by (rewrite Ld; unfold len; lia).
  destruct (Z.eq_dec v (Z.of_N (crc32 (t ++ d)))) as [EC|NC].
  - destruct (IH r') as (ks & rest & F & Es & C); [|exact Br|].
    { rewrite E, Er in L. rewrite !app_length, !be32_length in L. lia. }
    exists (Chunk t d :: ks), rest. split; [|split; [|exact C]].
    + constructor; [|exact F]. split; [exact Lt|]. split; [now apply bytes_app|cbn; lia].
    + cbn [map concat]. unfold chunk_bytes at 1. cbn [k_data k_type]. rewrite <- Ezd, <- EC, E, Er, Es. now rewrite <- !app_assoc.
  - exists [], s. split; [constructor|]. split; [reflexivity|]. right. right. exists t, d, v, r'. rewrite <- Ezd. repeat split; try assumption; try lia.
    cbn [map concat app]. rewrite E, Er. reflexivity.
Qed.
