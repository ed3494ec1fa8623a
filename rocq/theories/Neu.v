(** Units ([Neu]): one-item matchers and their [min_length]. *)

From Coq Require Import List Arith NArith Bool.
From Verif Require Import Base Text.
Import ListNotations.

(** The unit types of src/neu.  [NFn] covers the blanket [impl Neu for Fn(&T) -> bool]
    (src/neu.rs:110-121) and the classes that need Unicode tables (src/neu/units.rs:90, 115, 494,
    519, 544: alphabetic, alphanumeric, lowercase, numeric, uppercase), which are therefore
    arbitrary predicates here.  Unit closures are modelled as pure functions; the stateful units
    [Prefix]/[PrefixSync] (src/neu/prefix.rs) are modelled in PrefixUnit.v. *)
Inductive neu : Type :=
| NChar (c : item)                       (* src/neu.rs:123-147: a [char] or [u8] literal *)
| NEqual (c : item)                      (* src/neu/equal.rs:24-32 *)
| NAlways                                (* src/neu/bool.rs:44-49 *)
| NNever                                 (* src/neu/bool.rs:104-109 *)
| NSet (l : list item)                   (* src/neu.rs:272-331: arrays, slices, vectors *)
| NRange (lo hi : bound item)            (* src/neu.rs:353-659, src/neu/range.rs:106-113 *)
| NFn (f : item -> bool)                 (* src/neu.rs:110-121 *)
| NDigit (radix : N)                     (* src/neu/units.rs:464-469 *)
| NWild                                  (* src/neu/units.rs:613-618 *)
| NWord                                  (* src/neu/units.rs:676-705 *)
| NAscii                                 (* src/neu/units.rs:141 *)
| NAsciiAlphabetic                       (* src/neu/units.rs:166 *)
| NAsciiAlphanumeric                     (* src/neu/units.rs:191 *)
| NAsciiControl                          (* src/neu/units.rs:220 *)
| NAsciiDigit                            (* src/neu/units.rs:245 *)
| NAsciiGraphic                          (* src/neu/units.rs:270 *)
| NAsciiHexDigit                         (* src/neu/units.rs:295 *)
| NAsciiLowercase                        (* src/neu/units.rs:320 *)
| NAsciiPunctuation                      (* src/neu/units.rs:345 *)
| NAsciiUppercase                        (* src/neu/units.rs:370 *)
| NAsciiWhitespace                       (* src/neu/units.rs:395 *)
| NControl                               (* src/neu/units.rs:422 *)
| NWhitespace                            (* src/neu/units.rs:569 *)
| NNot (u : neu)                         (* src/neu/op_not.rs:100-114 *)
| NOr (u v : neu)                        (* src/neu/op_or.rs:142-157 *)
| NAnd (u v : neu).                      (* src/neu/op_and.rs:143-158 *)

(** std: inclusive range test used by the ASCII classes. *)
Definition between_N (a b c : N) : bool := (a <=? c)%N && (c <=? b)%N.

(** std: [RangeBounds::contains] on items. *)
Definition bounds_contain (lo hi : bound item) (c : item) : bool :=
  (match lo with Incl a => (a <=? c)%N | Excl a => (a <? c)%N | Unb => true end) &&
  (match hi with Incl b => (c <=? b)%N | Excl b => (c <? b)%N | Unb => true end).

(** std: [char::is_ascii_*] / [u8::is_ascii_*]. *)
Definition is_ascii_lower (c : N) : bool := between_N 0x61 0x7A c.
(** std: [is_ascii_uppercase]. *)
Definition is_ascii_upper (c : N) : bool := between_N 0x41 0x5A c.
(** std: [is_ascii_digit]. *)
Definition is_ascii_digit (c : N) : bool := between_N 0x30 0x39 c.
(** std: [is_ascii_alphabetic]. *)
Definition is_ascii_alpha (c : N) : bool := is_ascii_lower c || is_ascii_upper c.
(** std: [is_ascii_alphanumeric]. *)
Definition is_ascii_alnum (c : N) : bool := is_ascii_alpha c || is_ascii_digit c.
(** std: [is_ascii_whitespace]: space, tab, line feed, form feed, carriage return. *)
Definition is_ascii_ws (c : N) : bool :=
  (c =? 0x20)%N || (c =? 0x09)%N || (c =? 0x0A)%N || (c =? 0x0C)%N || (c =? 0x0D)%N.
(** std: [char::is_whitespace] (the White_Space property). *)
Definition is_ws (c : N) : bool :=
  between_N 0x09 0x0D c || (c =? 0x20)%N || (c =? 0x85)%N || (c =? 0xA0)%N || (c =? 0x1680)%N
  || between_N 0x2000 0x200A c || (c =? 0x2028)%N || (c =? 0x2029)%N || (c =? 0x202F)%N
  || (c =? 0x205F)%N || (c =? 0x3000)%N.
(** std: [char::to_digit]; [is_digit] panics when the radix exceeds 36, which is not modelled
    ([is_digit] is total here). *)
Definition digit_value (c : N) : option N :=
  if is_ascii_digit c then Some (c - 0x30)%N
  else if is_ascii_lower c then Some (c - 0x61 + 10)%N
  else if is_ascii_upper c then Some (c - 0x41 + 10)%N
  else None.
(** std: [char::is_digit]: [to_digit(radix).is_some()]. *)
Definition is_digit (radix c : N) : bool :=
  match digit_value c with Some d => (d <? radix)%N | None => false end.

(** [Neu::is_match], cited per constructor above. *)
Fixpoint is_match (u : neu) (c : item) : bool :=
  match u with
  | NChar x => (x =? c)%N
  | NEqual x => (x =? c)%N
  | NAlways => true
  | NNever => false
  | NSet l => existsb (N.eqb c) l
  | NRange lo hi => bounds_contain lo hi c
  | NFn f => f c
  | NDigit r => is_digit r c
  | NWild => negb (c =? 0x0A)%N
  | NWord => is_ascii_lower c || is_ascii_upper c || is_ascii_digit c || (c =? 0x5F)%N
  | NAscii => (c <? 0x80)%N
  | NAsciiAlphabetic => is_ascii_alpha c
  | NAsciiAlphanumeric => is_ascii_alnum c
  | NAsciiControl => (c <? 0x20)%N || (c =? 0x7F)%N
  | NAsciiDigit => is_ascii_digit c
  | NAsciiGraphic => between_N 0x21 0x7E c
  | NAsciiHexDigit => is_ascii_digit c || between_N 0x61 0x66 c || between_N 0x41 0x46 c
  | NAsciiLowercase => is_ascii_lower c
  | NAsciiPunctuation => between_N 0x21 0x2F c || between_N 0x3A 0x40 c
                         || between_N 0x5B 0x60 c || between_N 0x7B 0x7E c
  | NAsciiUppercase => is_ascii_upper c
  | NAsciiWhitespace => is_ascii_ws c
  | NControl => (c <? 0x20)%N || between_N 0x7F 0x9F c
  | NWhitespace => is_ws c
  | NNot v => negb (is_match v c)
  | NOr v w => is_match v c || is_match w c
  | NAnd v w => is_match v c && is_match w c
  end.

(** [Neu::min_length]: src/neu.rs:105-107 (default 1), 133-135 ([char]: [len_utf8]),
    src/neu/op_not.rs:111-113, op_or.rs:154-156, op_and.rs:155-157.  The kind tells whether
    [NChar] is a [char] or a [u8]. *)
Fixpoint min_length (k : kind) (u : neu) : nat :=
  match u with
  | NChar c => width k c
  | NNot v => min_length k v
  | NOr v w => Nat.min (min_length k v) (min_length k w)
  | NAnd v w => Nat.max (min_length k v) (min_length k w)
  | _ => 1
  end.
