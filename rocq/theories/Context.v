(** The [Context] trait for [RegexCtx]. *)

From Coq Require Import List Arith NArith Bool.
From Verif Require Import Base Text.
Import ListNotations.

(** src/ctx/regex.rs:20-26 [struct RegexCtx]: the borrowed data and the cursor. *)
Record ctx : Type := Ctx { c_kind : kind; c_dat : text; c_off : nat }.

#[global] Instance ctx_offset : HasOffset ctx :=
  { get_off := c_off; put_off := fun o c => Ctx (c_kind c) (c_dat c) o }.

(** src/ctx/regex.rs:44-46 [RegexCtx::new]. *)
Definition ctx_new (k : kind) (d : text) : ctx := Ctx k d 0.

(** src/ctx/regex.rs:345-347, 393-395 [Context::len]. *)
Definition ctx_len (c : ctx) : nat := tlen (c_kind c) (c_dat c).

(** src/ctx/regex.rs:359-363, 407-411 [Context::inc]. *)
Definition inc (n : nat) : M ctx unit :=
  fun c => (Ok tt, Ctx (c_kind c) (c_dat c) (c_off c + n)).

(** src/ctx/regex.rs:365-369, 413-417 [Context::dec] (checked subtraction). *)
Definition dec (n : nat) : M ctx unit :=
  fun c => match csub (c_off c) n with
           | Ok o => (Ok tt, Ctx (c_kind c) (c_dat c) o)
           | _ => (Panic, c)
           end.

(** src/ctx/regex.rs:375-379, 427-431 [Context::orig_sub]: [dat.get(o..o+n)]. *)
Definition orig_sub (c : ctx) (o n : nat) : res text :=
  match drop_at (c_kind c) (c_dat c) o with
  | Some l => match take_at (c_kind c) l n with
              | Some r => Ok r
              | None => Err EOutOfBound
              end
  | None => Err EOutOfBound
  end.

(** [Context::orig_at]: for [str] src/ctx/regex.rs:419-421 ([dat.get(o..)]); for [[u8]] the trait
    default src/ctx.rs:74-76, [orig_sub(o, len - o)] with a checked subtraction. *)
Definition orig_at (c : ctx) (o : nat) : res text :=
  match c_kind c with
  | KStr => match drop_at KStr (c_dat c) o with Some l => Ok l | None => Err EOutOfBound end
  | KBytes => match csub (ctx_len c) o with
              | Ok n => orig_sub c o n
              | _ => Panic
              end
  end.

(** src/ctx.rs:69-71 [Context::orig]. *)
Definition orig (c : ctx) : res text := orig_at c (c_off c).

(** src/ctx/regex.rs:371-373, 423-425 [Context::peek_at]. *)
Definition peek_at (c : ctx) (o : nat) : res (list (nat * item)) :=
  match orig_at c o with
  | Ok l => Ok (indices (c_kind c) 0 l)
  | Err e => Err e
  | Panic => Panic
  | OOF => OOF
  end.

(** src/ctx.rs:61-63 [Context::peek]. *)
Definition peek (c : ctx) : res (list (nat * item)) := peek_at c (c_off c).

(** src/ctx/regex.rs:381-383, 433-435 [Context::clone_at]: a new context over the suffix. *)
Definition clone_at (c : ctx) (o : nat) : res ctx :=
  match orig_at c o with
  | Ok l => Ok (ctx_new (c_kind c) l)
  | Err e => Err e
  | Panic => Panic
  | OOF => OOF
  end.

(** src/ctx/regex.rs:59-62 [with_dat] (keeps the offset). *)
Definition with_dat (c : ctx) (d : text) : ctx := Ctx (c_kind c) d (c_off c).
(** src/ctx/regex.rs:65-68 [with_offset]. *)
Definition with_offset (c : ctx) (o : nat) : ctx := Ctx (c_kind c) (c_dat c) o.
(** src/ctx/regex.rs:71-75 [reset_with]. *)
Definition reset_with (c : ctx) (d : text) : ctx := Ctx (c_kind c) d 0.
(** src/ctx/regex.rs:78-81 [reset]. *)
Definition reset (c : ctx) : ctx := Ctx (c_kind c) (c_dat c) 0.

(** The expression [ctx.len() - ctx.offset()] used by the unit regexes, [Literal] and [Consume]
    (checked subtraction). *)
Definition remaining : M ctx nat := fun c => (csub (ctx_len c) (c_off c), c).

(** src/ctx.rs:679-684 [new_span_inc]. *)
Definition new_span_inc (n : nat) : M ctx span :=
  o <- offset ;; inc n ;; ret (Span o n).

(** src/span.rs:61-66 [Span::orig]; src/ctx/regex.rs:470-485 [get_by_span] is its [.ok()]. *)
Definition span_orig (s : span) (c : ctx) : res text := orig_sub c (sbeg s) (slen s).
