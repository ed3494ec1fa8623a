(** The older PNG reader, examples/png.rs: it prints a report on every chunk instead of collecting them.
    Its checksum functions (examples/png.rs:89-133) are the same text as those of examples/png2.rs and
    use the model of Png.v. *)

From Coq Require Import List Arith NArith ZArith Bool.
From Verif Require Import Base Text Context Neu Syntax Regex Ctor Api Maps Png.
Import ListNotations.
Local Open Scope m_scope.

(** The lines the program prints, with the values put into them. *)
Inductive line : Type :=
| LHead  (* examples/png.rs:22 *)
| LNotPng  (* examples/png.rs:24 *)
| LAncillary (idx : nat) (ch : N) (bit5 : nat) (critical : bool)  (* examples/png.rs:35-44 *)
| LPrivate (idx : nat) (ch : N) (bit5 : nat) (public : bool)  (* examples/png.rs:45-54 *)
| LReserved (idx : nat) (ch : N) (bit5 : nat)  (* examples/png.rs:55-59 *)
| LSafeCopy (idx : nat) (ch : N) (bit5 : nat) (unsafe_to_copy : bool)  (* examples/png.rs:60-69 *)
| LLength (idx : nat) (len : nat)  (* examples/png.rs:72 *)
| LSkipped (len : nat)  (* examples/png.rs:73 *)
| LCrc (right : bool).  (* examples/png.rs:78-81 *)

(** The context and the lines printed so far. *)
Definition io : Type := ctx * list line.
(** [println!]; the standard output is the list of lines. *)
Definition say (l : line) : M io unit := fun x => (Ok tt, (fst x, snd x ++ [l])).

(** std [char::is_uppercase] on the code points below 256, the only ones that occur here. *)
Definition is_uppercase (c : N) : bool :=
  (between_N 0x41 0x5A c || between_N 0xC0 0xD6 c || between_N 0xD8 0xDE c).
(** examples/png.rs:38 and the like: [if c.is_uppercase() { 0 } else { 1 }]. *)
Definition bit5_of (c : N) : nat := if is_uppercase c then 0 else 1.

(** examples/png.rs:14: [consume(4).try_map(from_be_bytes::<u32>())]. *)
Definition u32_parser : pat := mapped (PConsume 4) (from_be_bytes u32).
(** examples/png.rs:17: [|v| char::from_u32(v as u32).unwrap()]. *)
Definition to_char (v : val) : res val :=
  match v with VNum z => if ((0 <=? z) && (z <? 0xD800))%Z then Ok v else Panic | _ => Panic end.
(** examples/png.rs:15-17. *)
Definition uint8 : pat := PMap (mapped (PConsume 1) (from_be_bytes u8)) to_char.
(** Modelling device: the character in a value. *)
Definition as_char (v : val) : M ctx N := match v with VNum z => ret (Z.to_N z) | _ => panic end.
(** [ctx.ctor(&uint8)?]. *)
Definition read_char : M io N := on_ctx (v <- run_ctor uint8 ;; as_char v).

(** examples/png.rs:30-81: one round of the loop, after the length has been read. *)
Definition report_chunk (idx : nat) (length : nat) : M io unit :=
  crc_beg <- on_ctx offset ;;
  ancillary <- read_char ;;
  private <- read_char ;;
  reserved <- read_char ;;
  safe_copy <- read_char ;;
  say (LAncillary idx ancillary (bit5_of ancillary) (is_uppercase ancillary)) ;;
  say (LPrivate idx private (bit5_of private) (is_uppercase private)) ;;
  say (LReserved idx reserved (bit5_of reserved)) ;;
  say (LSafeCopy idx safe_copy (bit5_of safe_copy) (is_uppercase safe_copy)) ;;
  say (LLength idx length) ;;
  data <- on_ctx (v <- run_ctor (PConsume length) ;; as_slice v) ;;
  say (LSkipped (List.length data)) ;;
  off <- on_ctx offset ;;
  n <- lift (csub off crc_beg) ;;
  crc_data <- on_ctx (reads (fun c => orig_sub c crc_beg n)) ;;
  crc_value <- on_ctx (v <- run_ctor u32_parser ;; as_num v) ;;
  calc_value <- lift (calc_crc crc_data) ;;
  say (LCrc (crc_value =? Z.of_N calc_value)%Z).
(** examples/png.rs:27-85: the loop; [n] bounds the number of rounds.  The counter of the code is an [i32];
    the model leaves out its overflow after two thousand million chunks. *)
Fixpoint report_loop (n idx : nat) : M io unit :=
  match n with
  | 0 => oof
  | S n' =>
      r <- on_ctx (catch (run_ctor u32_parser)) ;;
      match r with
      | inr _ => ret tt
      | inl v => len <- on_ctx (as_num v) ;; report_chunk idx (Z.to_nat len) ;; report_loop n' (S idx)
      end
  end.
(** examples/png.rs:18-86: the program on the bytes of a file; leaving with [exit(1)] is [Err EFail]. *)
Definition report_file (n : nat) : M io unit :=
  r <- on_ctx (catch (run_ctor (PLit [137; 80; 78; 71; 13; 10; 26; 10]%N))) ;;
  match r with
  | inl _ => say LHead ;; report_loop n 0
  | inr _ => say LNotPng ;; fail EFail
  end.
