(** [FromUtf8Lossy]: decoding bytes that may be broken UTF-8. *)

From Coq Require Import List Arith NArith Bool.
From Verif Require Import Base Text Context Neu Syntax Regex Maps.
Import ListNotations.

(** The second byte of a sequence of three and of four (std: core::str::lossy, the two inner matches). *)
Definition second3 (a b : N) : bool :=
  (((a =? 0xE0) && (0xA0 <=? b) && (b <=? 0xBF)) || ((0xE1 <=? a) && (a <=? 0xEC) && cont b) ||
   ((a =? 0xED) && (0x80 <=? b) && (b <=? 0x9F)) || ((0xEE <=? a) && (a <=? 0xEF) && cont b))%N.
(** std: the second byte of a four-byte sequence, by the first ([Utf8Chunks]). *)
Definition second4 (a b : N) : bool :=
  (((a =? 0xF0) && (0x90 <=? b) && (b <=? 0xBF)) || ((0xF1 <=? a) && (a <=? 0xF3) && cont b) ||
   ((a =? 0xF4) && (0x80 <=? b) && (b <=? 0x8F)))%N.

(** std: one round of [core::str::Utf8Chunks::next] over the rest [a :: r]: how many bytes are taken and the
    character they encode, [None] for a broken piece.  The end of the input counts as a byte that fits
    nowhere ([safe_get] returns 0). *)
Definition bite (a : N) (r : list N) : nat * option N :=
  if (a <? 0x80)%N then (1, Some a)
  else if ((0xC2 <=? a) && (a <=? 0xDF))%N then
    match r with
    | b :: _ => if cont b then (2, Some ((a - 0xC0) * 0x40 + (b - 0x80))%N) else (1, None)
    | [] => (1, None)
    end
  else if ((0xE0 <=? a) && (a <=? 0xEF))%N then
    match r with
    | b :: r =>
        if second3 a b then
          match r with
          | c :: _ => if cont c then (3, Some (((a - 0xE0) * 0x40 + (b - 0x80)) * 0x40 + (c - 0x80))%N) else (2, None)
          | [] => (2, None)
          end
        else (1, None)
    | [] => (1, None)
    end
  else if ((0xF0 <=? a) && (a <=? 0xF4))%N then
    match r with
    | b :: r =>
        if second4 a b then
          match r with
          | c :: r =>
              if cont c then
                match r with
                | d :: _ =>
                    if cont d then (4, Some ((((a - 0xF0) * 0x40 + (b - 0x80)) * 0x40 + (c - 0x80)) * 0x40 + (d - 0x80))%N)
                    else (3, None)
                | [] => (3, None)
                end
              else (2, None)
          | [] => (2, None)
          end
        else (1, None)
    | [] => (1, None)
    end
  else (1, None).

(** std: [String::from_utf8_lossy]: every broken piece becomes one U+FFFD.  Every round takes at least one
    byte, so [fuel = length l] rounds are enough. *)
Fixpoint lossy (fuel : nat) (l : list N) : text :=
  match fuel, l with
  | S f, a :: r => let (n, c) := bite a r in (match c with Some c => c | None => 0xFFFD%N end) :: lossy f (skipn n l)
  | _, _ => []
  end.

(** src/map.rs:413-421 [FromUtf8Lossy]; the [Cow] is its text; [size] is the size of the output type. *)
Definition from_utf8_lossy (size : nat) : mapper :=
  Mapper size (fun v => match v with VText l => Ok (VText (lossy (length l) l)) | _ => Panic end).
