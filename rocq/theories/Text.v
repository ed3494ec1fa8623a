(** Texts: the data a [RegexCtx] borrows, seen as a list of items with byte widths. *)

From Coq Require Import List Arith NArith Bool.
From Verif Require Import Base.
Import ListNotations.

(** src/ctx/regex.rs:338 [RegexCtx<[u8]>] and 386 [RegexCtx<str>]: the two instances of
    [Context]. *)
Inductive kind : Type := KBytes | KStr.

(** An item of the iteration: a [u8] (KBytes) or the scalar value of a [char] (KStr). *)
Definition item := N.
(** Texts: lists of items. *)
Definition text := list item.

(** std: UTF-8 encoding of a scalar value ([char::encode_utf8]). *)
Definition utf8 (c : N) : list N :=
  if (c <? 0x80)%N then [c]
  else if (c <? 0x800)%N then [0xC0 + c / 0x40; 0x80 + c mod 0x40]%N
  else if (c <? 0x10000)%N then
    [0xE0 + c / 0x1000; 0x80 + (c / 0x40) mod 0x40; 0x80 + c mod 0x40]%N
  else
    [0xF0 + c / 0x40000; 0x80 + (c / 0x1000) mod 0x40; 0x80 + (c / 0x40) mod 0x40;
     0x80 + c mod 0x40]%N.

(** Bytes of one item in memory. *)
Definition enc (k : kind) (c : item) : list N :=
  match k with KBytes => [c] | KStr => utf8 c end.

(** Bytes of a text in memory ([str::as_bytes] / the slice itself). *)
Definition raw (k : kind) (l : text) : list N := flat_map (enc k) l.

(** std: [char::len_utf8]; 1 for bytes. *)
Definition width (k : kind) (c : item) : nat :=
  match k with
  | KBytes => 1
  | KStr => if (c <? 0x80)%N then 1 else if (c <? 0x800)%N then 2
            else if (c <? 0x10000)%N then 3 else 4
  end.

(** Length in bytes ([str::len] / [<[u8]>::len]). *)
Fixpoint tlen (k : kind) (l : text) : nat :=
  match l with [] => 0 | c :: l' => width k c + tlen k l' end.

(** Which numbers are items: bytes below 256, Unicode scalar values (no surrogates). *)
Definition valid_item (k : kind) (c : item) : bool :=
  match k with
  | KBytes => (c <? 256)%N
  | KStr => (c <? 0xD800)%N || ((0xE000 <=? c)%N && (c <? 0x110000)%N)
  end.
(** A text of valid items. *)
Definition valid_text (k : kind) (l : text) : bool := forallb (valid_item k) l.

(** std: [str::get(off..)] / [<[u8]>::get(off..)]: [None] when [off] is past the end or (str) inside a
    character.  Modelled by walking the items; TextProofs.v proves the agreement with the
    byte-level definition via [is_char_boundary]. *)
Fixpoint drop_at (k : kind) (l : text) (off : nat) : option text :=
  match off with
  | 0 => Some l
  | _ => match l with
         | [] => None
         | c :: l' => if width k c <=? off then drop_at k l' (off - width k c) else None
         end
  end.

(** std: [get(..n)]: the prefix of [n] bytes. *)
Fixpoint take_at (k : kind) (l : text) (n : nat) : option text :=
  match n with
  | 0 => Some []
  | _ => match l with
         | [] => None
         | c :: l' => if width k c <=? n then option_map (cons c) (take_at k l' (n - width k c))
                      else None
         end
  end.

(** std: [CharIndices] (str) and src/iter/byte.rs:22-46 [BytesIndices] ([u8]): items paired with
    their byte offset from the start of the slice. *)
Fixpoint indices (k : kind) (i : nat) (l : text) : list (nat * item) :=
  match l with [] => [] | c :: l' => (i, c) :: indices k (i + width k c) l' end.

(** std: byte-slice [starts_with]. *)
Fixpoint starts_with (l p : list N) : bool :=
  match p, l with
  | [], _ => true
  | x :: p', y :: l' => (x =? y)%N && starts_with l' p'
  | _ :: _, [] => false
  end.
