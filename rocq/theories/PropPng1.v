(** C67: the report of examples/png.rs, on every file. *)

From Coq Require Import List Arith NArith ZArith Bool Lia ZifyBool.
From Verif Require Import Base Text Context Neu Syntax Regex Ctor Api TextProofs Spec Core Units Obs Maps Png CrcLaws PngLaws Png1 PropPng.
Import ListNotations.

(** ** Specification *)

(** A chunk with whatever checksum the file has for it. *)
Record raw : Type := Raw { r_type : text; r_data : text; r_sum : Z }.
Definition raw_bytes (r : raw) : text := be32 (Z.of_nat (length (r_data r))) ++ r_type r ++ r_data r ++ be32 (r_sum r).
Definition raw_ok (r : raw) : Prop :=
  length (r_type r) = 4 /\ bytes (r_type r ++ r_data r) /\ (Z.of_nat (length (r_data r)) < 2 ^ 32)%Z /\ (0 <= r_sum r < 2 ^ 32)%Z.
(** An upper-case letter of ISO 8859-1. *)
Definition upper (c : N) : bool := ((65 <=? c) && (c <=? 90) || (192 <=? c) && (c <=? 222) && negb (c =? 215))%N.
Definition zero_if (b : bool) : nat := if b then 0 else 1.
(** The four lines about the type of a chunk. *)
Definition letters (idx : nat) (ty : text) : list line :=
  match ty with
  | [a; p; r; s] => [LAncillary idx a (zero_if (upper a)) (upper a); LPrivate idx p (zero_if (upper p)) (upper p);
                     LReserved idx r (zero_if (upper r)); LSafeCopy idx s (zero_if (upper s)) (upper s)]
  | _ => []
  end.
(** The report on one chunk and on a list of them. *)
Definition report (idx : nat) (r : raw) : list line :=
  letters idx (r_type r) ++ [LLength idx (length (r_data r)); LSkipped (length (r_data r)); LCrc (r_sum r =? Z.of_N (crc32 (r_type r ++ r_data r)))%Z].
Fixpoint reports (idx : nat) (rs : list raw) : list line :=
  match rs with [] => [] | r :: rs' => report idx r ++ reports (S idx) rs' end.
(** The report on a chunk announced with [len] bytes of data of which only [t] is left. *)
Definition partly (idx len : nat) (t : text) : list line :=
  if length t <? 4 then [] else
  letters idx (firstn 4 t) ++ [LLength idx len] ++ if length t <? 4 + len then [] else [LSkipped len].

(** The program run on a file ends with [r] and has printed [out]. *)
Definition Prints (file : text) (r : res unit) (out : list line) : Prop :=
  exists n c, report_file n (Ctx KBytes file 0, []) = (r, (c, out)) /\ r <> OOF.

(** ** The parsers *)

Lemma upper_uppercase c : is_uppercase c = upper c.
Proof. unfold is_uppercase, upper, between_N. lia. Qed.
Lemma bit5_zero c : bit5_of c = zero_if (upper c).
Proof. unfold bit5_of. now rewrite upper_uppercase. Qed.

Lemma u32_parser_png : run_ctor u32_parser = png_parse (from_be_bytes u32).
Proof. reflexivity. Qed.
Lemma consume_ok n w i : i + n <= length w -> run_ctor (PConsume n) (bc w i) = (Ok (VText (cut w i n)), bc w (i + n)).
Proof.
  intros H. assert (parse_step [] (parse 2 []) 2 [] [] (PConsume n) (bc w i) = (Ok (Span i n), bc w (i + n))) as E.
  { cbn. unfold consume_parse, bind, remaining, csub, ctx_len. cbn [c_kind c_dat c_off]. rewrite tlen_bytes.
    destruct (Nat.leb_spec i (length w)); [|lia]. destruct (Nat.leb_spec n (length w - i)); [reflexivity|lia]. }
  unfold run_ctor. cbn. unfold bind, leaf, ctm, on_ctx, tm, bind. cbn in *. rewrite E. cbn.
  rewrite orig_sub_bytes by exact H. reflexivity.
Qed.
Lemma consume_short n w i : i <= length w -> length w < i + n -> run_ctor (PConsume n) (bc w i) = (Err EConsume, bc w i).
Proof.
  intros H L. assert (parse_step [] (parse 2 []) 2 [] [] (PConsume n) (bc w i) = (Err EConsume, bc w i)) as E.
  { cbn. unfold consume_parse, bind, remaining, csub, ctx_len. cbn [c_kind c_dat c_off]. rewrite tlen_bytes.
    destruct (Nat.leb_spec i (length w)); [|lia]. destruct (Nat.leb_spec n (length w - i)); [lia|reflexivity]. }
  unfold run_ctor. cbn. unfold bind, leaf, ctm, on_ctx, tm, bind. cbn in *. rewrite E. reflexivity.
Qed.
Lemma consume_nf n w i : i + n <= length w -> consume_parse n (bc w i) = (Ok (Span i n), bc w (i + n)).
Proof.
  intros H. unfold consume_parse, bind, remaining, csub, ctx_len. cbn [c_kind c_dat c_off]. rewrite tlen_bytes.
  destruct (Nat.leb_spec i (length w)); [|lia]. destruct (Nat.leb_spec n (length w - i)); [reflexivity|lia].
Qed.
Lemma uint8_ok w i x : nth_error w i = Some x -> (x < 256)%N -> run_ctor uint8 (bc w i) = (Ok (VNum (Z.of_N x)), bc w (i + 1)).
Proof.
  intros N X. assert (i + 1 <= length w) as H by (assert (i < length w) by (apply nth_error_Some; congruence); lia).
  assert (Y : run_ctor uint8 (bc w i) =
    match try_map (from_be_bytes u8) (VText (cut w i 1)) with
    | Ok v => (to_char v, bc w (i + 1)) | Err e => (Err e, bc w (i + 1)) | Panic => (Panic, bc w (i + 1)) | OOF => (OOF, bc w (i + 1)) end).
  { unfold run_ctor, uint8, mapped. cbn [construct construct_step]. unfold bind, leaf, ctm, on_ctx, tm, bind. cbn [try_mat fst snd parse]. unfold bind.
    cbn [parse_step fst snd]. rewrite (consume_nf 1 w i H). cbn. rewrite orig_sub_bytes by exact H. unfold lift.
    destruct (from_bytes _ _ _ _); reflexivity. }
  rewrite Y, (cut_one w i x N), read_u8 by exact X. unfold to_char.
  replace ((0 <=? Z.of_N x) && (Z.of_N x <? 55296))%Z with true by lia. reflexivity.
Qed.
Lemma consume_short_nf n w i : i <= length w -> length w < i + n -> consume_parse n (bc w i) = (Err EConsume, bc w i).
Proof.
  intros H L. unfold consume_parse, bind, remaining, csub, ctx_len. cbn [c_kind c_dat c_off]. rewrite tlen_bytes.
  destruct (Nat.leb_spec i (length w)); [|lia]. destruct (Nat.leb_spec n (length w - i)); [lia|reflexivity].
Qed.
Lemma uint8_short w i : i = length w -> run_ctor uint8 (bc w i) = (Err EConsume, bc w i).
Proof.
  intros H. unfold run_ctor, uint8, mapped. cbn [construct construct_step]. unfold bind, leaf, ctm, on_ctx, tm, bind.
  cbn [try_mat fst snd parse]. unfold bind. cbn [parse_step fst snd]. rewrite (consume_short_nf 1 w i); [reflexivity|lia|lia].
Qed.
Lemma read_char_ok w i x out : nth_error w i = Some x -> (x < 256)%N -> read_char (bc w i, out) = (Ok x, (bc w (i + 1), out)).
Proof.
  intros N X. unfold read_char, on_ctx, bind. cbn [fst snd]. rewrite (uint8_ok w i x N X). cbn. now rewrite N2Z.id.
Qed.
Lemma read_char_short w i out : i = length w -> read_char (bc w i, out) = (Err EConsume, (bc w i, out)).
Proof. intros H. unfold read_char, on_ctx, bind. cbn [fst snd]. now rewrite uint8_short. Qed.

(** ** One chunk *)

(** The part up to the line with the length. *)
Lemma chunk_letters (pre : text) a b c d rest out (Q : nat -> N -> N -> N -> N -> M io unit) :
  bytes [a; b; c; d] -> let w := pre ++ [a; b; c; d] ++ rest in
  (bind (on_ctx offset) (fun crc_beg => bind read_char (fun x => bind read_char (fun y => bind read_char (fun z => bind read_char (fun t =>
     Q crc_beg x y z t)))))) (bc w (length pre), out) = Q (length pre) a b c d (bc w (length pre + 4), out).
Proof.
  intros B w. unfold bytes in B. rewrite !Forall_cons_iff in B. destruct B as (Ba & Bb & Bc & Bd & _).
  assert (P : forall k x, nth_error [a; b; c; d] k = Some x -> nth_error w (length pre + k) = Some x).
  { intros k x K. assert (k < 4) by (apply (nth_error_Some [a; b; c; d]); congruence).
    unfold w. rewrite nth_error_app2 by lia. replace (length pre + k - length pre) with k by lia. rewrite nth_error_app1 by (cbn; lia). exact K. }
  pose proof (P 0 a eq_refl) as P0. rewrite Nat.add_0_r in P0.
  unfold bind at 1. unfold on_ctx at 1. cbn [fst snd offset get_off ctx_offset c_off].
  unfold bind at 1. rewrite (read_char_ok _ _ _ _ P0 Ba).
  unfold bind at 1. rewrite (read_char_ok _ _ _ _ (P 1 b eq_refl) Bb).
  unfold bind at 1. replace (length pre + 1 + 1) with (length pre + 2) by lia. rewrite (read_char_ok _ _ _ _ (P 2 c eq_refl) Bc).
  unfold bind at 1. replace (length pre + 2 + 1) with (length pre + 3) by lia. rewrite (read_char_ok _ _ _ _ (P 3 d eq_refl) Bd).
  now replace (length pre + 3 + 1) with (length pre + 4) by lia.
Qed.
Lemma chunk_few idx len pre rest out : bytes rest -> length rest < 4 ->
  exists c, report_chunk idx len (bc (pre ++ rest) (length pre), out) = (Err EConsume, (c, out)).
Proof.
  intros B L. set (w := pre ++ rest). assert (W : length w = length pre + length rest) by (unfold w; now rewrite app_length).
  assert (P : forall k x, nth_error rest k = Some x -> nth_error w (length pre + k) = Some x).
  { intros k x K. unfold w. rewrite nth_error_app2 by lia. now replace (length pre + k - length pre) with k by lia. }
  unfold report_chunk. unfold bind at 1. unfold on_ctx at 1. cbn [fst snd offset get_off ctx_offset c_off].
  assert (S1 : forall k, k < length rest -> exists x, read_char (bc w (length pre + k), out) = (Ok x, (bc w (length pre + k + 1), out))).
  { intros k K. destruct (nth_error rest k) as [x|] eqn:E; [|apply nth_error_None in E; lia]. exists x. apply read_char_ok; [now apply P|].
    unfold bytes in B. rewrite Forall_forall in B. apply B. now apply (nth_error_In _ k). }
  assert (S2 : read_char (bc w (length pre + length rest), out) = (Err EConsume, (bc w (length pre + length rest), out))) by (apply read_char_short; lia).
  assert (ST : forall k (Q : N -> M io unit), k <= length rest ->
    (k < length rest -> forall x, exists c, Q x (bc w (length pre + k + 1), out) = (Err EConsume, (c, out))) ->
    exists c, (bind read_char Q) (bc w (length pre + k), out) = (Err EConsume, (c, out))).
  { intros k Q K H. unfold bind. destruct (Nat.eq_dec k (length rest)) as [->|N]; [rewrite S2; eauto|].
    destruct (S1 k ltac:(lia)) as (x & ->). apply H. lia. }
  pose proof (ST 0) as ST0. rewrite Nat.add_0_r in ST0. apply ST0; [lia|]. intros K0 x. replace (length pre + 0 + 1) with (length pre + 1) by lia.
  apply ST; [lia|]. intros K1 y. replace (length pre + 1 + 1) with (length pre + 2) by lia.
  apply ST; [lia|]. intros K2 z. replace (length pre + 2 + 1) with (length pre + 3) by lia.
  apply ST; [lia|]. intros K t. lia.
Qed.
Lemma say_run {A} l (Q : unit -> M io A) c out : (bind (say l) Q) (c, out) = Q tt (c, out ++ [l]).
Proof. reflexivity. Qed.
Lemma chunk_start idx len pre ty rest out : length ty = 4 -> bytes ty -> let w := pre ++ ty ++ rest in
  report_chunk idx len (bc w (length pre), out) =
  (data <- on_ctx (v <- run_ctor (PConsume len) ;; as_slice v) ;;
   say (LSkipped (List.length data)) ;;
   off <- on_ctx offset ;;
   n <- lift (csub off (length pre)) ;;
   crc_data <- on_ctx (reads (fun c => orig_sub c (length pre) n)) ;;
   crc_value <- on_ctx (v <- run_ctor u32_parser ;; as_num v) ;;
   calc_value <- lift (calc_crc crc_data) ;;
   say (LCrc (crc_value =? Z.of_N calc_value)%Z))%m (bc w (length pre + 4), out ++ letters idx ty ++ [LLength idx len]).
Proof.
  intros L B w. do 4 (destruct ty as [|? ty]; [discriminate L|]). destruct ty as [|? ty]; [|discriminate L].
  unfold report_chunk, w. rewrite chunk_letters by exact B. rewrite !say_run.
  rewrite <- !app_assoc. unfold letters. now rewrite !bit5_zero, !upper_uppercase.
Qed.
Lemma chunk_whole idx pre ty data v rest out : length ty = 4 -> bytes (ty ++ data) -> (0 <= v < 2 ^ 32)%Z ->
  let w := pre ++ ty ++ data ++ be32 v ++ rest in
  report_chunk idx (length data) (bc w (length pre), out) =
  (Ok tt, (bc w (length pre + 8 + length data),
     out ++ letters idx ty ++ [LLength idx (length data); LSkipped (length data); LCrc (v =? Z.of_N (crc32 (ty ++ data)))%Z])).
Proof.
  intros L B V w. pose proof B as B'. apply bytes_app in B' as [BT BD].
  assert (W : length w = length pre + 8 + length data + length rest) by (unfold w; norm; lia).
  unfold w at 1. rewrite chunk_start by auto. fold w.
  assert (w = (pre ++ ty) ++ data ++ (be32 v ++ rest)) as E1 by (unfold w; now rewrite <- app_assoc).
  assert (cut w (length pre + 4) (length data) = data) as C1 by (rewrite E1; apply cut_app; [rewrite app_length; lia|reflexivity]).
  unfold bind at 1. unfold on_ctx at 1. unfold bind at 1. cbn [fst snd]. rewrite consume_ok by lia. rewrite C1. cbn [as_slice ret].
  rewrite say_run. unfold bind at 1. unfold on_ctx at 1. cbn [fst snd offset get_off ctx_offset c_off].
  unfold bind at 1. unfold lift at 1, csub. destruct (Nat.leb_spec (length pre) (length pre + 4 + length data)); [|lia].
  unfold bind at 1. unfold on_ctx at 1, reads at 1. cbn [fst snd]. rewrite orig_sub_bytes by lia.
  assert (w = pre ++ (ty ++ data) ++ (be32 v ++ rest)) as E2 by (unfold w; now rewrite <- !app_assoc).
  assert (cut w (length pre) (length pre + 4 + length data - length pre) = ty ++ data) as ->
    by (rewrite E2; apply cut_app; [reflexivity|rewrite app_length; lia]).
  unfold bind at 1. unfold on_ctx at 1. unfold bind at 1. cbn [fst snd]. rewrite u32_parser_png.
  rewrite png_parse_ok by (cbn [out_size from_be_bytes bytes_mapper u32 i_size]; lia).
  cbn [out_size from_be_bytes bytes_mapper u32 i_size].
  assert (w = (pre ++ ty ++ data) ++ be32 v ++ rest) as E3 by (unfold w; now rewrite <- !app_assoc).
  assert (cut w (length pre + 4 + length data) 4 = be32 v) as -> by (rewrite E3; apply cut_app; [rewrite !app_length; lia|reflexivity]).
  change (Mapper 4 _) with (from_be_bytes u32). rewrite read_u32 by exact V. cbn [as_num ret].
  unfold bind at 1. unfold lift. rewrite calc_crc_spec by exact B. unfold say. cbn [fst snd]. rewrite <- !app_assoc. cbn [app].
  now replace (length pre + 4 + length data + 4) with (length pre + 8 + length data) by lia.
Qed.
Lemma chunk_short idx len pre rest out : bytes rest -> length rest < len + 8 ->
  exists c, report_chunk idx len (bc (pre ++ rest) (length pre), out) = (Err EConsume, (c, out ++ partly idx len rest)).
Proof.
  intros B L. unfold partly. destruct (Nat.ltb_spec (length rest) 4) as [F|F].
  { destruct (chunk_few idx len pre rest out B F) as (c & E). exists c. now rewrite E, app_nil_r. }
  replace (pre ++ rest) with (pre ++ firstn 4 rest ++ skipn 4 rest) by (now rewrite firstn_skipn). set (ty := firstn 4 rest). set (r := skipn 4 rest).
  assert (LT : length ty = 4) by (unfold ty; rewrite firstn_length; lia).
  assert (LR : length r = length rest - 4) by (unfold r; now rewrite skipn_length).
  rewrite <- (firstn_skipn 4 rest) in B. apply bytes_app in B as [BT BR]. fold ty r in BT, BR.
  rewrite chunk_start by auto. set (w := pre ++ ty ++ r). assert (W : length w = length pre + 4 + length r) by (unfold w; rewrite !app_length; lia).
  destruct (Nat.ltb_spec (length rest) (4 + len)) as [S4|S4].
  - exists (bc w (length pre + 4)). unfold bind at 1. unfold on_ctx at 1. unfold bind at 1. cbn [fst snd]. rewrite consume_short by lia.
    now rewrite app_nil_r.
  - exists (bc w (length pre + 4 + len)). unfold bind at 1. unfold on_ctx at 1. unfold bind at 1. cbn [fst snd]. rewrite consume_ok by lia. cbn [as_slice ret].
    rewrite cut_length by lia.
    rewrite say_run. unfold bind at 1. unfold on_ctx at 1. cbn [fst snd offset get_off ctx_offset c_off].
    unfold bind at 1. unfold lift at 1, csub. destruct (Nat.leb_spec (length pre) (length pre + 4 + len)); [|lia].
    unfold bind at 1. unfold on_ctx at 1, reads at 1. cbn [fst snd]. rewrite orig_sub_bytes by lia.
    unfold bind at 1. unfold on_ctx at 1. unfold bind at 1. cbn [fst snd]. rewrite u32_parser_png.
    rewrite png_parse_short by (cbn [out_size from_be_bytes bytes_mapper u32 i_size]; lia). now rewrite <- !app_assoc.
Qed.

(** ** The loop *)

Lemma loop_end n idx pre rest out : length rest < 4 ->
  report_loop (S n) idx (bc (pre ++ rest) (length pre), out) = (Ok tt, (bc (pre ++ rest) (length pre), out)).
Proof.
  intros L. cbn [report_loop]. unfold bind at 1. unfold on_ctx at 1, catch. cbn [fst snd]. rewrite u32_parser_png.
  rewrite png_parse_short; [reflexivity| |]; rewrite app_length; [lia|]. cbn [out_size from_be_bytes bytes_mapper u32 i_size]. lia.
Qed.
Lemma loop_step n idx pre z rest out : (0 <= z < 2 ^ 32)%Z ->
  report_loop (S n) idx (bc (pre ++ be32 z ++ rest) (length pre), out) =
  bind (report_chunk idx (Z.to_nat z)) (fun _ => report_loop n (S idx)) (bc ((pre ++ be32 z) ++ rest) (length (pre ++ be32 z)), out).
Proof.
  intros Z. cbn [report_loop]. unfold bind at 1. unfold on_ctx at 1, catch. cbn [fst snd]. rewrite u32_parser_png, read_length by exact Z.
  rewrite <- app_assoc, app_length. reflexivity.
Qed.
Lemma loop_raws n rs : Forall raw_ok rs -> forall idx pre rest out,
  let w := pre ++ concat (map raw_bytes rs) ++ rest in
  report_loop (length rs + n) idx (bc w (length pre), out) =
  report_loop n (idx + length rs) (bc w (length (pre ++ concat (map raw_bytes rs))), out ++ reports idx rs).
Proof.
  induction 1 as [|r rs (T & B & L & V) _ IH]; intros idx pre rest out w.
  - unfold w. cbn. now rewrite !app_nil_r, Nat.add_0_r.
  - unfold w. cbn [length Nat.add map concat reports].
    assert (E : pre ++ (raw_bytes r ++ concat (map raw_bytes rs)) ++ rest =
      pre ++ be32 (Z.of_nat (length (r_data r))) ++ (r_type r ++ r_data r ++ be32 (r_sum r) ++ concat (map raw_bytes rs) ++ rest))
      by (unfold raw_bytes; now rewrite <- !app_assoc).
    rewrite E, loop_step by lia. unfold bind at 1. rewrite Nat2Z.id, chunk_whole by auto.
    assert (E2 : (pre ++ be32 (Z.of_nat (length (r_data r)))) ++ r_type r ++ r_data r ++ be32 (r_sum r) ++ concat (map raw_bytes rs) ++ rest =
      (pre ++ raw_bytes r) ++ concat (map raw_bytes rs) ++ rest) by (unfold raw_bytes; now rewrite <- !app_assoc).
    rewrite E2. replace (length (pre ++ be32 (Z.of_nat (length (r_data r)))) + 8 + length (r_data r)) with (length (pre ++ raw_bytes r))
      by (unfold raw_bytes; norm; lia).
    rewrite IH, <- !app_assoc. replace (S idx + length rs) with (idx + S (length rs)) by lia. unfold report. rewrite <- !app_assoc.
    rewrite <- E, <- !app_assoc. reflexivity.
Qed.
Lemma loop_more n : forall idx m x r x', report_loop n idx x = (r, x') -> r <> OOF -> n <= m -> report_loop m idx x = (r, x').
Proof.
  induction n as [|n IH]; intros idx m x r x' E N L; [unfold report_loop, oof in E; injection E as <- _; now destruct N|]. destruct m as [|m]; [lia|]. cbn [report_loop] in *.
  unfold bind in *. destruct (on_ctx (catch _) x) as [[[v|e]| | |] x1]; try exact E.
  destruct (on_ctx (as_num v) x1) as [[len| | |] x2]; try exact E. destruct (report_chunk idx (Z.to_nat len) x2) as [[[]| | |] x3]; try exact E.
  apply (IH _ m); auto. lia.
Qed.
Lemma prints_det file r out r' out' : Prints file r out -> Prints file r' out' -> r = r' /\ out = out'.
Proof.
  unfold Prints, report_file, bind. intros (n & c & E & N) (n' & c' & E' & N').
  destruct (on_ctx _ _) as [[[v|e]| | |] x1]; unfold say, fail in *; cbn [fst snd] in *; try (split; congruence).
  pose proof (loop_more n 0 (n + n') _ _ _ E N ltac:(lia)) as X. pose proof (loop_more n' 0 (n + n') _ _ _ E' N' ltac:(lia)) as X'.
  rewrite X in X'. injection X'. auto.
Qed.
Lemma prints_header rest r c out : r <> OOF ->
  (exists n, report_loop n 0 (bc (signature ++ rest) (length signature), [LHead]) = (r, (c, out))) -> Prints (signature ++ rest) r out.
Proof.
  intros N (n & E). exists n, c. split; [|exact N]. unfold report_file. unfold bind at 1, on_ctx at 1, catch. cbn [fst snd].
  change [137; 80; 78; 71; 13; 10; 26; 10]%N with png_header. change signature with png_header. rewrite header_ok. rewrite say_run. exact E.
Qed.

(** ** The theorems *)

(** A file of whole chunks: one report for each, in order, whether the checksums are right or not. *)
Theorem C67_report : forall rs rest, Forall raw_ok rs -> length rest < 4 ->
  Prints (signature ++ concat (map raw_bytes rs) ++ rest) (Ok tt) (LHead :: reports 0 rs).
Proof.
  intros rs rest R L. eapply prints_header; [discriminate|]. exists (length rs + 1).
  rewrite (loop_raws 1 rs R 0 signature rest). rewrite app_assoc. apply (loop_end 0). exact L.
Qed.
(** A file that ends inside a chunk: the reports on the chunks before it, the part of the report on the last one that
    can be given, and an error. *)
Theorem C67_truncated : forall rs (len : Z) rest, Forall raw_ok rs -> (0 <= len < 2 ^ 32)%Z -> bytes rest -> length rest < 4 + Z.to_nat len + 4 ->
  Prints (signature ++ concat (map raw_bytes rs) ++ be32 len ++ rest) (Err EConsume)
    (LHead :: reports 0 rs ++ partly (length rs) (Z.to_nat len) rest).
Proof.
  intros rs len rest R Z B L.
  destruct (chunk_short (length rs) (Z.to_nat len) ((signature ++ concat (map raw_bytes rs)) ++ be32 len) rest (LHead :: reports 0 rs) B ltac:(lia)) as (c & E).
  apply (prints_header _ _ c); [discriminate|]. exists (length rs + 1).
  rewrite (loop_raws 1 rs R 0 signature (be32 len ++ rest)). rewrite app_assoc, loop_step by exact Z. unfold bind at 1.
  change ([LHead] ++ reports 0 rs) with (LHead :: reports 0 rs). change (0 + length rs) with (length rs). rewrite E. reflexivity.
Qed.
Theorem C67_not_png : forall file, (forall rest, file <> signature ++ rest) -> Prints file (Err EFail) [LNotPng].
Proof.
  intros file H. destruct (header_run file) as (c & E). destruct (list_eq_dec _ _ _) as [X|X].
  - exfalso. apply (H (skipn 8 file)). change signature with png_header. rewrite <- X. now rewrite firstn_skipn.
  - exists 0, c. unfold report_file. unfold bind at 1, on_ctx at 1, catch. cbn [fst snd].
    change [137; 80; 78; 71; 13; 10; 26; 10]%N with png_header. rewrite E. split; [reflexivity|discriminate].
Qed.
(** These are all the files. *)
Lemma raws m : forall s, length s <= m -> bytes s -> exists rs rest, Forall raw_ok rs /\ s = concat (map raw_bytes rs) ++ rest /\
  (length rest < 4 \/ exists z r, (0 <= z < 2 ^ 32)%Z /\ rest = be32 z ++ r /\ bytes r /\ length r < 4 + Z.to_nat z + 4).
Proof.
  induction m as [|m IH]; intros s Hm B; [exists [], s; repeat split; auto; left; lia|].
  destruct (Nat.lt_ge_cases (length s) 4) as [L|L]; [exists [], s; repeat split; auto|].
  pose proof B as B0. rewrite <- (firstn_skipn 4 s) in B0. apply bytes_app in B0 as [B1 B2].
  destruct (write_u32 (firstn 4 s) B1) as (z & Hz & Ez); [rewrite firstn_length; lia|].
  assert (E : s = be32 z ++ skipn 4 s) by (rewrite <- Ez; now rewrite firstn_skipn). set (r := skipn 4 s) in *.
  destruct (Nat.lt_ge_cases (length r) (4 + Z.to_nat z + 4)) as [S1|S1].
  { exists [], s. repeat split; auto. right. exists z, r. auto. }
  set (ty := firstn 4 r). set (d := firstn (Z.to_nat z) (skipn 4 r)). set (q := skipn (Z.to_nat z) (skipn 4 r)).
  assert (Er : r = ty ++ d ++ firstn 4 q ++ skipn 4 q) by (unfold ty, d, q; now rewrite !firstn_skipn).
  assert (LD : length d = Z.to_nat z) by (unfold d; rewrite firstn_length, skipn_length; lia).
  assert (LQ : length q = length r - 4 - Z.to_nat z) by (unfold q; now rewrite !skipn_length).
  pose proof B2 as B3. rewrite Er in B3. rewrite !bytes_app in B3. destruct B3 as (BT & BD & BS & BR).
  destruct (write_u32 (firstn 4 q) BS) as (v & Hv & Ev); [rewrite firstn_length; lia|].
  destruct (IH (skipn 4 q)) as (rs & rest & R & Es & C); [|exact BR|].
  { rewrite skipn_length. apply (f_equal (@length item)) in E. rewrite app_length, be32_length in E. unfold item, text in *. lia. }
  exists (Raw ty d v :: rs), rest. split; [constructor; [|exact R]|split; [|exact C]].
  - unfold raw_ok. cbn [r_type r_data r_sum]. split; [unfold ty; rewrite firstn_length; lia|]. split; [apply bytes_app; auto|]. lia.
  - cbn [map concat]. unfold raw_bytes at 1. cbn [r_type r_data r_sum]. rewrite LD, Z2Nat.id, <- Ev by lia. rewrite <- !app_assoc, <- Es, <- Er. exact E.
Qed.
Theorem C67_all : forall file, bytes file ->
  (forall rest, file <> signature ++ rest) \/
  (exists rs rest, Forall raw_ok rs /\ length rest < 4 /\ file = signature ++ concat (map raw_bytes rs) ++ rest) \/
  (exists rs len rest, Forall raw_ok rs /\ (0 <= len < 2 ^ 32)%Z /\ bytes rest /\ length rest < 4 + Z.to_nat len + 4 /\
     file = signature ++ concat (map raw_bytes rs) ++ be32 len ++ rest).
Proof.
  intros file B. destruct (list_eq_dec N.eq_dec (firstn 8 file) signature) as [X|X].
  2: { left. intros rest ->. apply X. reflexivity. }
  right. assert (E : file = signature ++ skipn 8 file) by (rewrite <- X; now rewrite firstn_skipn). rewrite E in B. apply bytes_app in B as [_ B].
  destruct (raws _ _ (Nat.le_refl _) B) as (rs & rest & R & Es & [C|(z & r & Hz & -> & Br & L)]); rewrite Es in E.
  - left. eauto 6.
  - right. exists rs, z, r. auto.
Qed.
(** The program gives exactly one answer on every file, and never panics. *)
Theorem C67_total : forall file, bytes file ->
  exists r out, Prints file r out /\ r <> Panic /\ forall r' out', Prints file r' out' -> r' = r /\ out' = out.
Proof.
  intros file B. assert (exists r out, Prints file r out /\ r <> Panic) as (r & out & P & N).
  { destruct (C67_all file B) as [H|[(rs & rest & R & L & ->)|(rs & z & rest & R & Z & Br & L & ->)]].
    - eexists _, _. split; [now apply C67_not_png|discriminate].
    - eexists _, _. split; [now apply C67_report|discriminate].
    - eexists _, _. split; [now apply C67_truncated|discriminate]. }
  exists r, out. split; [exact P|]. split; [exact N|]. intros r' out' P'. destruct (prints_det _ _ _ _ _ P P'). auto.
Qed.
(** The newer reader accepts a file exactly when the older one ends normally and finds no wrong checksum. *)
Definition raw_of (k : chunk) : raw := Raw (k_type k) (k_data k) (Z.of_N (crc32 (k_type k ++ k_data k))).
Lemma letters_crc idx ty b : ~ In (LCrc b) (letters idx ty).
Proof. unfold letters. destruct ty as [|? [|? [|? [|? [|]]]]]; cbn; intuition discriminate. Qed.
Lemma wrong_crc rs : forall idx, In (LCrc false) (reports idx rs) <-> Exists (fun r => r_sum r <> Z.of_N (crc32 (r_type r ++ r_data r))) rs.
Proof.
  induction rs as [|r rs IH]; intros idx; cbn [reports].
  - rewrite Exists_nil. reflexivity.
  - rewrite in_app_iff, Exists_cons, IH. unfold report. rewrite in_app_iff. cbn [In].
    pose proof (letters_crc idx (r_type r) false) as NL.
    destruct (Z.eqb_spec (r_sum r) (Z.of_N (crc32 (r_type r ++ r_data r)))) as [E|E]; intuition discriminate.
Qed.
Theorem C67_agrees : forall file, bytes file ->
  ((exists ts, Read file (Ok ts)) <-> exists out, Prints file (Ok tt) out /\ ~ In (LCrc false) out).
Proof.
  intros file B. split.
  - intros (ts & R). destruct (C56_sound file ts B R) as (ks & rest & K & L & -> & ->).
    assert (E : chunks ks = concat (map raw_bytes (map raw_of ks))) by (unfold chunks; now rewrite map_map).
    rewrite E. exists (LHead :: reports 0 (map raw_of ks)). split.
    + apply C67_report; [|exact L]. apply Forall_map. eapply Forall_impl; [|exact K]. intros k (T & Bk & Lk).
      unfold raw_ok, raw_of. cbn [r_type r_data r_sum]. repeat split; auto; [lia|]. pose proof (crc32_reg (k_type k ++ k_data k) Bk). lia.
    + intros [X|X]; [discriminate|]. apply wrong_crc in X. apply Exists_exists in X as (r & I & N). apply in_map_iff in I as (k & <- & _). now apply N.
  - intros (out & P & N). destruct (C67_all file B) as [H|[(rs & rest & R & L & ->)|(rs & z & rest & R & Z & Br & L & ->)]].
    + destruct (prints_det _ _ _ _ _ P (C67_not_png file H)). discriminate.
    + destruct (prints_det _ _ _ _ _ P (C67_report rs rest R L)) as [_ ->].
      assert (F : Forall (fun r => r_sum r = Z.of_N (crc32 (r_type r ++ r_data r))) rs).
      { apply Forall_forall. intros r I. destruct (Z.eq_dec (r_sum r) (Z.of_N (crc32 (r_type r ++ r_data r)))) as [E|E]; [exact E|].
        exfalso. apply N. right. apply wrong_crc. apply Exists_exists. eauto. }
      assert (E : concat (map raw_bytes rs) = chunks (map (fun r => Chunk (r_type r) (r_data r)) rs)).
      { unfold chunks. rewrite map_map. f_equal. apply map_ext_Forall. eapply Forall_impl; [|exact F]. intros r Er.
        unfold raw_bytes, chunk_bytes. cbn [k_type k_data]. now rewrite Er. }
      rewrite E. eexists. apply C56_round_trip; [|exact L]. apply Forall_map. eapply Forall_impl; [|exact R]. intros r (T & Bk & Lk & _).
      unfold chunk_ok. auto.
    + destruct (prints_det _ _ _ _ _ P (C67_truncated rs z rest R Z Br L)). discriminate.
Qed.
(** The line about a letter gives its bit 5, as the format asks for; about other bytes it can be wrong. *)
Theorem C67_bit5 : forall c, (65 <= c <= 90 \/ 97 <= c <= 122)%N -> zero_if (upper c) = (if N.testbit c 5 then 1 else 0).
Proof.
  intros c H. assert (E : forallb (fun n => let c := N.of_nat n in negb ((65 <=? c) && (c <=? 90) || (97 <=? c) && (c <=? 122))%N ||
      Nat.eqb (zero_if (upper c)) (if N.testbit c 5 then 1 else 0)) (seq 0 128) = true) by (vm_compute; reflexivity).
  rewrite forallb_forall in E. specialize (E (N.to_nat c)). rewrite N2Nat.id in E. rewrite in_seq in E. specialize (E ltac:(lia)). cbv beta zeta in E.
  apply orb_true_iff in E as [E|E]; [|now apply Nat.eqb_eq]. exfalso. lia.
Qed.
Theorem C67_bit5_refuted : exists c, (c < 256)%N /\ zero_if (upper c) <> (if N.testbit c 5 then 1 else 0).
Proof. exists 64%N. split; [lia|discriminate]. Qed.

Example C67_case :
  let r := Raw [116; 69; 88; 116]%N [72; 105]%N 7 in
  raw_ok r /\ report 0 r =
    [LAncillary 0 116 1 false; LPrivate 0 69 0 true; LReserved 0 88 0; LSafeCopy 0 116 1 false; LLength 0 2; LSkipped 2; LCrc false] /\
  Prints (signature ++ concat (map raw_bytes [r; r])) (Ok tt) (LHead :: report 0 r ++ report 1 r) /\
  Prints (signature ++ firstn 12 (raw_bytes r)) (Err EConsume)
    [LHead; LAncillary 0 116 1 false; LPrivate 0 69 0 true; LReserved 0 88 0; LSafeCopy 0 116 1 false; LLength 0 2; LSkipped 2].
Proof.
  cbv zeta. split; [|split; [|split]].
  - split; [reflexivity|]. split; [|split; vm_compute; intuition congruence].
    cbn [r_type r_data app]. repeat (constructor; [vm_compute; reflexivity|]). constructor.
  - vm_compute. reflexivity.
  - eexists 5, _. split; [vm_compute; reflexivity|discriminate].
  - eexists 5, _. split; [vm_compute; reflexivity|discriminate].
Qed.

Print Assumptions C67_report.
Print Assumptions C67_truncated.
Print Assumptions C67_not_png.
Print Assumptions C67_all.
Print Assumptions C67_total.
Print Assumptions C67_agrees.
Print Assumptions C67_bit5.
Print Assumptions C67_bit5_refuted.
