(** C56: the PNG reader of examples/png2.rs returns the chunks of the file.
    C57: its checksum is the remainder of a polynomial division and detects burst errors. *)

From Coq Require Import List Arith NArith ZArith Bool Lia.
From Verif Require Import Base Text Context Neu Syntax Regex Ctor Api TextProofs Spec Core Units Obs Maps Png CrcLaws PngLaws.
Import ListNotations.

(** PNG section 3.1: a file starts with the byte 0x89, the letters PNG, CR, LF, ctrl-Z and LF. *)
Definition signature : text := [137; 80; 78; 71; 13; 10; 26; 10]%N.
(** Section 3.3: a lower-case first letter of the type means ancillary. *)
Definition lower_case (b : item) : Prop := (97 <= b /\ b <= 122)%N.

(** Running the example on a file: the header, then [Png::new]. *)
Definition Read (file : text) (r : res (list trunk)) : Prop :=
  exists n c, png_file n (Ctx KBytes file 0) = (r, c) /\ r <> OOF.
Definition chunks (ks : list chunk) : text := concat (map chunk_bytes ks).

Lemma run_lit l c : run_ctor (PLit l) c =
  match literal_parse l c with
  | (Ok s, c') => (fst (extract_text c' s tt), c')
  | (Err e, c') => (Err e, c')
  | (Panic, c') => (Panic, c')
  | (OOF, c') => (OOF, c')
  end.
Proof.
  change (literal_parse l c) with (parse_step [] (parse 2 []) 2 [] [] (PLit l) c).
  unfold run_ctor. cbn [construct construct_step]. unfold leaf, ctm, on_ctx, tm, bind. cbn [try_mat fst snd].
  unfold bind. cbn [parse]. destruct (parse_step _ _ _ _ _ _ _) as [[s| | |] c']; try reflexivity.
Qed.
Lemma header_run file : exists c, run_ctor (PLit png_header) (Ctx KBytes file 0) =
  if list_eq_dec N.eq_dec (firstn 8 file) png_header then (Ok (VText png_header), Ctx KBytes file 8) else (Err ELiteral, c).
Proof.
  exists (Ctx KBytes file 0). rewrite run_lit. change (Ctx KBytes file 0) with (cx KBytes file 0).
  rewrite literal_nf by lia. change (length png_header) with 8. change (skipn 0 file) with file.
  destruct (list_eq_dec N.eq_dec (firstn 8 file) png_header) as [H|H]; [|reflexivity].
  assert (8 <= length file) as L by (apply (f_equal (@length N)) in H; rewrite firstn_length in H; change (length png_header) with 8 in H; unfold item, text in *; lia).
  unfold extract_text. rewrite CursorLaws.orig_sub_sp by (cbn; lia). change (0 + 8 - 0) with 8. change (skipn 0 file) with file. rewrite H.
  unfold cx. change (0 + 8) with 8. now rewrite bo_bytes by exact L.
Qed.
Lemma header_ok rest : run_ctor (PLit png_header) (Ctx KBytes (png_header ++ rest) 0) = (Ok (VText png_header), Ctx KBytes (png_header ++ rest) 8).
Proof.
  destruct (header_run (png_header ++ rest)) as (c & ->). destruct (list_eq_dec _ _ _) as [E|E]; [reflexivity|]. exfalso. apply E. reflexivity.
Qed.
Lemma read_after_header rest r : Read (png_header ++ rest) r <->
  exists n c, png_new n (Ctx KBytes (png_header ++ rest) 8) = (r, c) /\ r <> OOF.
Proof. unfold Read, png_file, bind. setoid_rewrite header_ok. reflexivity. Qed.
Lemma read_det file r r' : Read file r -> Read file r' -> r = r'.
Proof.
  unfold Read, png_file, bind. intros (n & c & E & N) (n' & c' & E' & N').
  destruct (run_ctor _ _) as [[v| | |] c1]; try congruence.
  assert (png_new (n + n') c1 = (r, c)) as X by (apply (new_more n); auto; lia).
  assert (png_new (n + n') c1 = (r', c')) as X' by (apply (new_more n'); auto; lia). congruence.
Qed.
(** What happens behind some good chunks decides. *)
Lemma read_chunks ks rest r c : Forall chunk_ok ks ->
  (exists n, png_new n (Ctx KBytes ((png_header ++ chunks ks) ++ rest) (length (png_header ++ chunks ks))) = (r, c)) -> r <> OOF ->
  Read (png_header ++ chunks ks ++ rest) (match r with Ok ts => Ok (map trunk_of ks ++ ts) | x => x end).
Proof.
  intros K (n & E) N. apply read_after_header. exists (length ks + n).
  pose proof (new_chunks n ks K png_header rest) as X. cbn zeta in X. fold (chunks ks) in X. rewrite <- app_assoc, app_length in E. rewrite E in X.
  change (length png_header) with 8 in X. exists c. destruct r; (split; [rewrite X; reflexivity|congruence]).
Qed.

(** Every list of chunks is read back: type, data and checksum, in order; up to three stray bytes at the
    end do no harm. *)
Theorem C56_round_trip : forall ks rest, Forall chunk_ok ks -> length rest < 4 ->
  Read (signature ++ chunks ks ++ rest) (Ok (map trunk_of ks)).
Proof. change signature with png_header.
  intros ks rest K L.
  assert (forall X, Read X (Ok (map trunk_of ks ++ [])) -> Read X (Ok (map trunk_of ks))) as Z by (intros X; now rewrite app_nil_r). apply Z.
  apply (read_chunks ks rest (Ok []) (Ctx KBytes ((png_header ++ chunks ks) ++ rest) (length (png_header ++ chunks ks)))); [exact K| |discriminate].
  exists 1. now apply new_end.
Qed.
(** A chunk that is cut short is an error, whatever came before it. *)
Theorem C56_truncated : forall ks (len : Z) rest, Forall chunk_ok ks -> (0 <= len < 2 ^ 32)%Z -> bytes rest ->
  length rest < 4 + Z.to_nat len + 4 -> Read (signature ++ chunks ks ++ be32 len ++ rest) (Err EConsume).
Proof. change signature with png_header.
  intros ks len rest K Z B L. destruct (new_truncated 0 (png_header ++ chunks ks) len rest Z B ltac:(lia)) as (c & E).
  apply (read_chunks ks (be32 len ++ rest) (Err EConsume) c); [exact K| |discriminate]. eauto.
Qed.
(** A chunk with another checksum than that of its type and data panics. *)
Theorem C56_damaged : forall ks ty data sum rest, Forall chunk_ok ks -> length ty = 4 -> bytes (ty ++ data) ->
  (Z.of_nat (length data) < 2 ^ 32)%Z -> (0 <= sum < 2 ^ 32)%Z -> sum <> Z.of_N (crc32 (ty ++ data)) ->
  Read (signature ++ chunks ks ++ be32 (Z.of_nat (length data)) ++ ty ++ data ++ be32 sum ++ rest) Panic.
Proof. change signature with png_header.
  intros ks t d v rest K T B L V N. destruct (new_damaged 0 (png_header ++ chunks ks) t d v rest T B L V N) as (c & E).
  apply (read_chunks ks _ Panic c); [exact K| |discriminate]. eauto.
Qed.
(** A file that does not start with the eight header bytes is refused. *)
Theorem C56_not_png : forall file, (forall rest, file <> signature ++ rest) -> Read file (Err ELiteral).
Proof. change signature with png_header.
  intros file H. destruct (header_run file) as (c & E). destruct (list_eq_dec _ _ _) as [X|X].
  - exfalso. apply (H (skipn 8 file)). rewrite <- X. now rewrite firstn_skipn.
  - exists 0, c. unfold png_file, bind. rewrite E. split; [reflexivity|discriminate].
Qed.
(** Nothing else can happen: every byte string is a file with chunks up to its end, is truncated inside a
    chunk, contains a damaged chunk, or is not a PNG file; and the reader gives the one answer for it. *)
Theorem C56_total : forall file, bytes file -> exists r, Read file r /\ forall r', Read file r' -> r' = r.
Proof.
  intros file B. assert (exists r, Read file r) as (r & R); [|exists r; split; [exact R|intros r' R'; now apply (read_det file)]].
  destruct (list_eq_dec N.eq_dec (firstn 8 file) png_header) as [X|X].
  2: { exists (Err ELiteral). apply C56_not_png. intros rest ->. apply X. reflexivity. }
  assert (exists body, file = png_header ++ body) as (body & ->) by (exists (skipn 8 file); rewrite <- X; now rewrite firstn_skipn).
  apply bytes_app in B. destruct B as [_ B].
  destruct (classify _ _ (Nat.le_refl _) B) as (ks & rest & K & E & [C|[(z & r & Z & -> & L)|(t & d & v & r & T & D & V & N & ->)]]); rewrite E in *; fold (chunks ks) in *.
  - eexists. now apply C56_round_trip.
  - exists (Err EConsume). apply C56_truncated; auto; [|lia]. apply bytes_app in B. destruct B as [_ B]. apply bytes_app in B. tauto.
  - exists Panic. apply C56_damaged; auto. apply bytes_app in B. destruct B as [_ B]. apply bytes_app in B. destruct B as [_ B].
    apply bytes_app. apply bytes_app in B. destruct B as [? B]. apply bytes_app in B. tauto.
Qed.
(** So whatever the reader returns are the chunks of the file. *)
Theorem C56_sound : forall file ts, bytes file -> Read file (Ok ts) ->
  exists ks rest, Forall chunk_ok ks /\ length rest < 4 /\ file = signature ++ chunks ks ++ rest /\ ts = map trunk_of ks.
Proof. change signature with png_header.
  intros file ts B R.
  destruct (list_eq_dec N.eq_dec (firstn 8 file) png_header) as [X|X].
  2: { assert (Read file (Err ELiteral)) as R' by (apply C56_not_png; intros rest ->; apply X; reflexivity). pose proof (read_det _ _ _ R R'). discriminate. }
  assert (exists body, file = png_header ++ body) as (body & ->) by (exists (skipn 8 file); rewrite <- X; now rewrite firstn_skipn).
  apply bytes_app in B. destruct B as [_ B].
  destruct (classify _ _ (Nat.le_refl _) B) as (ks & rest & K & E & [C|[(z & r & Z & -> & L)|(t & d & v & r & T & D & V & N & ->)]]); rewrite E in *; fold (chunks ks) in *.
  - exists ks, rest. repeat split; auto. pose proof (read_det _ _ _ R (C56_round_trip ks rest K C)). congruence.
  - assert (Read (png_header ++ chunks ks ++ be32 z ++ r) (Err EConsume)) as R'.
    { apply C56_truncated; auto; [|lia]. apply bytes_app in B. destruct B as [_ B]. apply bytes_app in B. tauto. }
    pose proof (read_det _ _ _ R R'). discriminate.
  - assert (Read (png_header ++ chunks ks ++ be32 (Z.of_nat (length d)) ++ t ++ d ++ be32 v ++ r) Panic) as R'.
    { apply C56_damaged; auto. apply bytes_app in B. destruct B as [_ B]. apply bytes_app in B. destruct B as [_ B].
      apply bytes_app. apply bytes_app in B. destruct B as [? B]. apply bytes_app in B. tauto. }
    pose proof (read_det _ _ _ R R'). discriminate.
Qed.
(** PNG section 3.3: a lower-case first type letter means ancillary.  The labels printed by the example
    are the wrong way round. *)
Theorem C56_label_refuted : forall k, chunk_ok k ->
  exists b ty, k_type k = b :: ty /\ (printed (trunk_of k) = Critical <-> lower_case b).
Proof.
  intros k (T & _). destruct (k_type k) as [|b ty] eqn:E; [discriminate|]. exists b, ty. split; [reflexivity|].
  unfold printed, is_ancillary, trunk_of, lower_case. rewrite E. cbn [t_ancillary nth].
  destruct (Z.leb_spec 97 (Z.of_N b)), (Z.leb_spec (Z.of_N b) 122); cbn [andb]; split; intros X; try reflexivity; try discriminate; lia.
Qed.
Example C56_label_case : lower_case 97%N /\ lower_case 122%N /\ ~ lower_case 96%N /\ ~ lower_case 123%N.
Proof. unfold lower_case. lia. Qed.

(** A header chunk, a text chunk and the end chunk (PNG section 4.1). *)
Definition small : list chunk :=
  [Chunk [73; 72; 68; 82]%N [0; 0; 0; 1; 0; 0; 0; 1; 8; 0; 0; 0; 0]%N; Chunk [116; 69; 88; 116]%N [72; 105]%N; Chunk [73; 69; 78; 68]%N []].
Lemma small_ok : Forall chunk_ok small.
Proof. repeat (constructor; [repeat split; repeat constructor|]). constructor. Qed.
Example C56_case :
  Forall chunk_ok small /\ Read (signature ++ chunks small ++ [10]%N) (Ok (map trunk_of small)) /\
  map printed (map trunk_of small) = [Ancillary; Critical; Ancillary] /\
  skipn 4 (chunk_bytes (Chunk [73; 69; 78; 68]%N [])) = [73; 69; 78; 68; 174; 66; 96; 130]%N.
Proof. split; [exact small_ok|]. split; [exists 5; eexists; split; [vm_compute; reflexivity|discriminate]|]. vm_compute. auto. Qed.
Example C56_case_errors :
  Read (signature ++ chunks small ++ be32 3 ++ [73; 69; 78; 68; 1; 2]%N) (Err EConsume) /\
  Read (signature ++ be32 1 ++ [73; 69; 78; 68; 1]%N ++ be32 7) Panic /\
  Read [137; 80; 78]%N (Err ELiteral).
Proof. repeat split; (exists 5; eexists; split; [vm_compute; reflexivity|discriminate]). Qed.

(** ** C57: the checksum *)

(** [calc_crc] never panics and returns the remainder of the long division of Png.v, complemented. *)
Theorem C57_division : forall l, bytes l -> calc_crc l = Ok (crc32 l).
Proof. exact calc_crc_spec. Qed.
(** It fits into 32 bits, and its bits, least significant first, are the coefficients. *)
Theorem C57_bits : forall l, bytes l -> (crc32 l < 2 ^ 32)%N /\ length (crc_bits l) = 32 /\
  forall i, i < 32 -> N.testbit (crc32 l) (N.of_nat i) = nth i (crc_bits l) false.
Proof.
  intros l B. split; [now apply crc32_reg|]. split.
  - unfold crc_bits. rewrite map_length. change (ones 32) with (low_bits 32 0xffffffff). rewrite divide_feed by reflexivity. apply low_bits_length.
  - intros i Hi. apply number_testbit.
Qed.
(** The table has the right size for every index that occurs. *)
Theorem C57_table : forall c b, (b < 256)%N -> exists c', crc_update c b = Ok c'.
Proof. intros c b B. rewrite update_rounds by exact B. eauto. Qed.
(** Two texts that differ only inside a window of 32 bits have different checksums. *)
Theorem C57_burst : forall a b before after d d', bytes a -> bytes b ->
  bits a = before ++ d ++ after -> bits b = before ++ d' ++ after -> length d = length d' -> length d <= 32 ->
  d <> d' -> calc_crc a <> calc_crc b.
Proof.
  intros a b p s d d' A B Ea Eb L D N E. rewrite !calc_crc_spec in E by assumption. injection E as E.
  apply N. exact (crc32_burst a b p d d' s A B Ea Eb L D E).
Qed.
(** In particular when they differ in up to four consecutive bytes. *)
Theorem C57_four_bytes : forall before after d d', bytes before -> bytes after -> bytes d -> bytes d' ->
  length d = length d' -> length d <= 4 -> d <> d' -> calc_crc (before ++ d ++ after) <> calc_crc (before ++ d' ++ after).
Proof.
  assert (forall a b, bits (a ++ b) = bits a ++ bits b) as BA by (intros a b; unfold bits; now rewrite map_app, concat_app).
  assert (forall a, length (bits a) = 8 * length a) as BL.
  { intros a. unfold bits. induction a as [|x a IH]; [reflexivity|]. cbn [map concat length]. rewrite app_length, IH. unfold byte_bits. rewrite map_length, seq_length. lia. }
  assert (forall a b, bytes a -> bytes b -> bits a = bits b -> a = b) as BI.
  { induction a as [|x a IH]; intros [|y b] A B E.
    - reflexivity.
    - apply (f_equal (@length bool)) in E. rewrite !BL in E. discriminate.
    - apply (f_equal (@length bool)) in E. rewrite !BL in E. discriminate.
    - unfold bytes in A, B. rewrite Forall_cons_iff in A, B. destruct A as [A1 A2], B as [B1 B2].
      unfold bits in E. cbn [map concat] in E. fold (bits a) (bits b) in E.
      assert (byte_bits x = byte_bits y) as E1 by (apply (f_equal (firstn 8)) in E; rewrite !firstn_app in E; exact E || (cbn in E; congruence)).
      rewrite E1 in E. apply app_inv_head in E. f_equal; [|now apply IH].
      apply (f_equal number) in E1. now rewrite !byte_bits_number in E1. }
  intros p s d d' P S D D' L L4 N.
  apply (C57_burst _ _ (bits p) (bits s) (bits d) (bits d')); rewrite ?BA, ?BL; try (apply bytes_app; split; [|apply bytes_app; split]); try assumption; try reflexivity; try (unfold item, text in *; lia).
  intros E. apply N. now apply BI.
Qed.
(** So a file in which up to four consecutive bytes of a chunk's type and data were altered is not read as
    if it were intact, whatever comes before and after the chunk. *)
Theorem C57_detected : forall ks k ty data before d d' after rest, Forall chunk_ok ks -> chunk_ok k -> length ty = 4 ->
  length data = length (k_data k) ->
  k_type k ++ k_data k = before ++ d ++ after -> ty ++ data = before ++ d' ++ after -> length d = length d' -> length d <= 4 -> d <> d' ->
  bytes d' ->
  Read (signature ++ chunks ks ++ be32 (Z.of_nat (length data)) ++ ty ++ data ++ be32 (Z.of_N (crc32 (k_type k ++ k_data k))) ++ rest) Panic.
Proof. change signature with png_header.
  intros ks k t dt p d d' s rest K (T & B & L) T' L' E E' Ld L4 N Bd. rewrite E in B. assert (bytes (p ++ d ++ s)) as B0 by exact B.
  apply bytes_app in B. destruct B as [Bp B]. apply bytes_app in B. destruct B as [Bd0 Bs].
  assert (bytes (p ++ d' ++ s)) as B1 by (apply bytes_app; split; [|apply bytes_app; split]; assumption).
  apply C56_damaged; auto.
  - now rewrite E'.
  - lia.
  - rewrite E. pose proof (crc32_reg _ B0). lia.
  - rewrite E, E'. intros X. apply (C57_four_bytes p s d d'); auto. rewrite !calc_crc_spec by assumption. f_equal. lia.
Qed.
(** The check value of the CRC catalogue: the checksum of the digits 1 to 9. *)
Example C57_case :
  bytes [49; 50; 51; 52; 53; 54; 55; 56; 57]%N /\ calc_crc [49; 50; 51; 52; 53; 54; 55; 56; 57]%N = Ok 0xcbf43926%N /\
  crc32 [] = 0%N /\ calc_crc ([1] ++ [2; 3] ++ [4])%N <> calc_crc ([1] ++ [2; 5] ++ [4])%N.
Proof. split; [repeat constructor|]. vm_compute. repeat split; discriminate. Qed.
Example C57_case_detected :
  Read (signature ++ chunks small ++ be32 2 ++ [116; 69; 88; 116]%N ++ [72; 106]%N ++ be32 (Z.of_N (crc32 ([116; 69; 88; 116] ++ [72; 105])%N)) ++ [])  Panic.
Proof.
  apply (C57_detected small (Chunk [116; 69; 88; 116]%N [72; 105]%N) [116; 69; 88; 116]%N [72; 106]%N [116; 69; 88; 116; 72]%N [105]%N [106]%N []);
    try reflexivity; try exact small_ok; try (cbn; lia); try discriminate; [|repeat constructor].
  repeat split; repeat constructor.
Qed.

Print Assumptions C56_round_trip.
Print Assumptions C56_truncated.
Print Assumptions C56_damaged.
Print Assumptions C56_not_png.
Print Assumptions C56_total.
Print Assumptions C56_sound.
Print Assumptions C56_label_refuted.
Print Assumptions C57_division.
Print Assumptions C57_bits.
Print Assumptions C57_table.
Print Assumptions C57_burst.
Print Assumptions C57_four_bytes.
Print Assumptions C57_detected.
