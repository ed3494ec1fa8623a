(** The PNG reader of examples/png2.rs, its checksum, and what they should compute. *)

From Coq Require Import List Arith NArith ZArith Bool.
From Verif Require Import Base Text Context Neu Syntax Regex Ctor Api Maps.
Import ListNotations.
Local Open Scope m_scope.

(** ** The checksum

    A [u32] is an [N] below [2^32]; [^], [>>] and [&] cannot leave that range. *)

(** examples/png2.rs:166-172: one round of the inner loop of [initialize_crc_table]. *)
Definition crc_round (c : N) : N :=
  if (N.land c 1 =? 1)%N then N.lxor 0xedb88320 (N.shiftr c 1) else N.shiftr c 1.
(** examples/png2.rs:164-172: [for _ in 0..8]. *)
Fixpoint crc_rounds (n : nat) (c : N) : N := match n with 0 => c | S n' => crc_rounds n' (crc_round c) end.
(** examples/png2.rs:153-181 [initialize_crc_table].  The thread-local cell is always filled before it is
    read; the model uses the table itself. *)
Definition crc_table : list N := map (fun n => crc_rounds 8 (N.of_nat n)) (seq 0 256).
(** examples/png2.rs:193: one step of the loop of [calc_crc]; an index outside the table panics. *)
Definition crc_update (c : N) (b : item) : res N :=
  match nth_error crc_table (N.to_nat (N.land (N.lxor c b) 0xff)) with
  | Some t => Ok (N.lxor t (N.shiftr c 8))
  | None => Panic
  end.
(** examples/png2.rs:192-194: the loop over the buffer. *)
Fixpoint crc_loop (c : N) (buff : text) : res N :=
  match buff with
  | [] => Ok c
  | b :: l => match crc_update c b with Ok c' => crc_loop c' l | Err e => Err e | Panic => Panic | OOF => OOF end
  end.
(** examples/png2.rs:184-200 [calc_crc]. *)
Definition calc_crc (buff : text) : res N :=
  match crc_loop 0xffffffff buff with
  | Ok c => Ok (N.lxor c 0xffffffff)
  | Err e => Err e | Panic => Panic | OOF => OOF
  end.

(** ** The reader *)

(** Modelling device: [ctx.ctor(&p)] with a fixed amount of fuel; the patterns below need two steps. *)
Definition run_ctor (p : pat) : M ctx val :=
  fun c => let '(r, (c', _)) := construct extract_text 4 [] [] [] p (c, tt) in (r, c').
(** examples/png2.rs:7-14 [parse]. *)
Definition png_parse (m : mapper) : M ctx val := run_ctor (mapped (PConsume (out_size m)) m).
(** Modelling device: the integer in a value ([parse::<_, u32>]). *)
Definition as_num (v : val) : M ctx Z := match v with VNum z => ret z | _ => panic end.
(** Modelling device: the slice in a value. *)
Definition as_slice (v : val) : M ctx text := match v with VText l => ret l | _ => panic end.

(** [u8] and [u32]. *)
Definition u8 : ity := ITy 1 false.
(** std: the type u32. *)
Definition u32 : ity := ITy 4 false.

(** examples/png2.rs:16-24 [struct Trunk]. *)
Record trunk : Type := Trunk
  { t_ancillary : Z; t_private : Z; t_reserved : Z; t_safe_copy : Z; t_crc : Z; t_data : text }.

(** examples/png2.rs:27-50 [Trunk::new]. *)
Definition trunk_new (len : nat) : M ctx trunk :=
  start <- offset ;;
  v1 <- png_parse (from_be_bytes u8) ;; ancillary <- as_num v1 ;;
  v2 <- png_parse (from_be_bytes u8) ;; private <- as_num v2 ;;
  v3 <- png_parse (from_be_bytes u8) ;; reserved <- as_num v3 ;;
  v4 <- png_parse (from_be_bytes u8) ;; safe_copy <- as_num v4 ;;
  v5 <- png_parse (fixed_size len) ;; data <- as_slice v5 ;;
  off <- offset ;;
  n <- lift (csub off start) ;;
  crc_data <- reads (fun c => orig_sub c start n) ;;
  v6 <- png_parse (from_be_bytes u32) ;; crc_value <- as_num v6 ;;
  calc_value <- lift (calc_crc crc_data) ;;
  if (crc_value =? Z.of_N calc_value)%Z
  then ret (Trunk ancillary private reserved safe_copy crc_value data)
  else panic.

(** examples/png2.rs:85-93 [Png::new]; [n] bounds the number of rounds of the [while let] loop. *)
Fixpoint png_new (n : nat) : M ctx (list trunk) :=
  match n with
  | 0 => oof
  | S n' =>
      r <- catch (png_parse (from_be_bytes u32)) ;;
      match r with
      | inr _ => ret []
      | inl v => len <- as_num v ;; t <- trunk_new (Z.to_nat len) ;; ts <- png_new n' ;; ret (t :: ts)
      end
  end.

(** examples/png2.rs:53-55 [Trunk::is_ancillary]: [u8::is_ascii_lowercase]. *)
Definition is_ancillary (t : trunk) : bool := ((97 <=? t_ancillary t) && (t_ancillary t <=? 122))%Z.
(** examples/png2.rs:120-127: what [main] prints about it. *)
Inductive label : Type := Critical | Ancillary.
(** examples/png2.rs:120-127: the label printed for a chunk. *)
Definition printed (t : trunk) : label := if is_ancillary t then Critical else Ancillary.

(** examples/png2.rs:110-117: the header, then [Png::new]; [Err ELiteral] stands for "Not a png file". *)
Definition png_header : text := [137; 80; 78; 71; 13; 10; 26; 10]%N.
(** examples/png2.rs:110-117. *)
Definition png_file (n : nat) : M ctx (list trunk) :=
  run_ctor (PLit png_header) ;; png_new n.

(** ** Specification of the file format

    A file is the header followed by chunks.  A chunk is the length of its data, four type bytes, the data
    and the checksum of type and data; numbers are written most significant byte first. *)

Record chunk : Type := Chunk { k_type : text; k_data : text }.

(** The four bytes of a number. *)
Definition be32 (z : Z) : text :=
  [Z.to_N (z / 2 ^ 24 mod 256); Z.to_N (z / 2 ^ 16 mod 256); Z.to_N (z / 2 ^ 8 mod 256); Z.to_N (z mod 256)].

(** ** Specification of the checksum: long division of polynomials over the field of two elements

    A polynomial is the list of its coefficients, highest degree first. *)

(** The CRC-32 generator without its leading term [x^32]. *)
Definition generator : list bool :=
  map (fun d => existsb (Nat.eqb d) [26; 23; 22; 16; 12; 11; 10; 8; 7; 5; 4; 2; 1; 0]) (rev (seq 0 32)).
(** Add a polynomial to the leading part of another one. *)
Fixpoint add_lead (p l : list bool) : list bool :=
  match p, l with
  | a :: p', b :: l' => xorb a b :: add_lead p' l'
  | _, _ => l
  end.
(** Long division: [n] times, remove the leading term, subtracting the generator if its coefficient is 1. *)
Fixpoint divide (n : nat) (l : list bool) : list bool :=
  match n, l with
  | S n', b :: l' => divide n' (if b then add_lead generator l' else l')
  | _, _ => l
  end.
(** The bits of a byte, least significant first. *)
Definition byte_bits (b : item) : list bool := map (fun i => N.testbit b (N.of_nat i)) (seq 0 8).
(** The bits of a message, byte by byte. *)
Definition bits (l : text) : list bool := concat (map byte_bits l).
(** A run of ones. *)
Definition ones (n : nat) : list bool := repeat true n.
(** A run of zeros. *)
Definition zeros (n : nat) : list bool := repeat false n.
(** ISO 3309, PNG section 3.4: the message followed by 32 zeros, its first 32 bits complemented, is
    divided by the generator; the remainder is complemented. *)
Definition crc_bits (l : text) : list bool :=
  map negb (divide (length (bits l)) (add_lead (ones 32) (bits l ++ zeros 32))).
(** The number whose bits, least significant first, are given. *)
Fixpoint number (l : list bool) : N :=
  match l with [] => 0 | b :: l' => (if b then 1 else 0) + 2 * number l' end%N.
(** The checksum as a number. *)
Definition crc32 (l : text) : N := number (crc_bits l).

(** The bytes of a chunk. *)
Definition chunk_bytes (k : chunk) : text :=
  be32 (Z.of_nat (length (k_data k))) ++ k_type k ++ k_data k ++ be32 (Z.of_N (crc32 (k_type k ++ k_data k))).
(** A chunk of the format: all bytes, four type bytes, a length that fits into 32 bits. *)
Definition chunk_ok (k : chunk) : Prop :=
  length (k_type k) = 4 /\ Forall (fun b => (b < 256)%N) (k_type k ++ k_data k) /\
  (Z.of_nat (length (k_data k)) < 2 ^ 32)%Z.
(** What the reader should return for a chunk. *)
Definition trunk_of (k : chunk) : trunk :=
  let byte i := Z.of_N (nth i (k_type k) 0%N) in
  Trunk (byte 0) (byte 1) (byte 2) (byte 3) (Z.of_N (crc32 (k_type k ++ k_data k))) (k_data k).
