(** The entry points of src/ctx.rs and the extracting handlers. *)

From Coq Require Import List Arith NArith Bool.
From Verif Require Import Base Text Context Neu Syntax Regex Ctor.
Import ListNotations.

(** src/ctx.rs:97-102 [Match::is_mat]. *)
Definition is_mat (fuel : nat) (G : env) (pols : list pat) (p : pat) : M ctx bool :=
  r <- catch (try_mat_top fuel G pols p) ;;
  ret (match r with inl _ => true | inr _ => false end).

(** src/ctx.rs:167, 181: the closure [|_| Ok(Span::default())]. *)
Definition noop : M ctx span := ret span_default.

(** src/ctx/regex.rs:456-467 and src/ctx/policy.rs:173-184 [try_mat_policy]. *)
Definition try_mat_policy (before pat after : M ctx span) : M ctx span :=
  before ;; s <- pat ;; after ;; ret s.

(** src/ctx.rs:162-168 [try_mat_before]. *)
Definition try_mat_before (pat before : M ctx span) : M ctx span := try_mat_policy before pat noop.
(** src/ctx.rs:176-182 [try_mat_after]. *)
Definition try_mat_after (pat after : M ctx span) : M ctx span := try_mat_policy noop pat after.

(** src/ctx.rs:263-277 [Assert::try_assert]. *)
Definition try_assert (fuel : nat) (G : env) (pols : list pat) (p : pat) : M ctx bool :=
  o <- offset ;;
  r <- catch (try_mat_top fuel G pols p) ;;
  set_offset o ;;
  ret (match r with inl _ => true | inr _ => false end).

(** src/ctor/extract.rs:41-63: [Extract<&str>], [Extract<&[u8]>], [Extract<String>]. *)
Definition extract_text : handler unit :=
  fun c s u => (match orig_sub c (sbeg s) (slen s) with
                | Ok t => Ok (VText t)
                | Err e => Err e
                | Panic => Panic
                | OOF => OOF
                end, u).
(** src/ctor/extract.rs:74-82: [Extract<Span>]. *)
Definition extract_span : handler unit := fun _ s u => (Ok (VSpan s), u).
(** src/ctor/extract.rs:84-92: [Extract<()>]. *)
Definition extract_unit : handler unit := fun _ _ u => (Ok VUnit, u).

(** src/ctx.rs:294-300 [MatchExt::ctor_handler] (the final handler state is returned too). *)
Definition ctor_handler {S} (h : handler S) (s0 : S) (fuel : nat) (G : env) (pols : list pat)
    (p : pat) (c : ctx) : res val * (ctx * S) :=
  construct h fuel G [] pols p (c, s0).

(** src/ctx.rs:321-326 [ctor_span], 349-355 [ctor]. *)
Definition ctor_span (fuel : nat) (G : env) (pols : list pat) (p : pat) (c : ctx)
  : res val * (ctx * unit) := ctor_handler extract_span tt fuel G pols p c.
(** src/ctx.rs:349-355 [Match::ctor]. *)
Definition ctor (fuel : nat) (G : env) (pols : list pat) (p : pat) (c : ctx)
  : res val * (ctx * unit) := ctor_handler extract_text tt fuel G pols p c.

(** src/ctx.rs:437-445 [map_handler]. *)
Definition map_handler {S} (h : handler S) (fuel : nat) (G : env) (pols : list pat) (p : pat)
  : M (ctx * S) val :=
  s <- on_ctx (try_mat_top fuel G pols p) ;; invoke h s.

(** src/ctx.rs:388-394 [map_span]. *)
Definition map_span (fuel : nat) (G : env) (pols : list pat) (p : pat) (f : val -> res val)
  : M (ctx * unit) val :=
  v <- map_handler extract_span fuel G pols p ;; lift (f v).

(** src/ctx.rs:422-430 [map]. *)
Definition map_text (fuel : nat) (G : env) (pols : list pat) (p : pat) (f : val -> res val)
  : M (ctx * unit) val :=
  v <- map_handler extract_text fuel G pols p ;; lift (f v).

(** src/ctx.rs:513-534 [find_with]: [func] may move the cursor; returns the first mapped value. *)
Fixpoint find_with {S} (fuel : nat) (tmp : M ctx span)
    (func : (span + error) -> M ctx (option span)) (h : handler S) : M (ctx * S) (option val) :=
  match fuel with
  | 0 => oof
  | Datatypes.S fuel' =>
      b <- reads (fun x : ctx * S => Ok (c_off (fst x) <? ctx_len (fst x))) ;;
      if b : bool then
        r <- on_ctx (catch tmp) ;;
        o <- on_ctx (func r) ;;
        match o with
        | Some s =>
            v <- catch (invoke h s) ;;
            match v with
            | inl v => ret (Some v)
            | inr _ => find_with fuel' tmp func h
            end
        | None => find_with fuel' tmp func h
        end
      else ret None
  end.

(** src/ctx.rs:501-507, 581-587: the [func] of [find] and [find_all]. *)
Definition find_func (r : span + error) : M ctx (option span) :=
  match r with
  | inl s => if span_is_empty s then inc 1 ;; ret None else ret (Some s)
  | inr _ => inc 1 ;; ret None
  end.

(** src/ctx.rs:633-639: the [func] of [match_seq]. *)
Definition seq_func (r : span + error) : M ctx (option span) :=
  let stop := n <- reads (fun c => Ok (ctx_len c)) ;; set_offset n ;; ret None in
  match r with
  | inl s => if span_is_empty s then stop else ret (Some s)
  | inr _ => stop
  end.

(** src/ctx.rs:497-510 [find]. *)
Definition find {S} (h : handler S) (fuel : nat) (G : env) (pols : list pat) (p : pat)
  : M (ctx * S) (option val) :=
  find_with fuel (try_mat_top fuel G pols p) find_func h.

(** src/ctx.rs:645-673 [find_all_with], consumed to the end: the [from_fn] iterator polled until it
    returns [None].  One poll is [find_with]. *)
Fixpoint drain {X} (fuel : nat) (next : M X (option val)) : M X (list val) :=
  match fuel with
  | 0 => oof
  | S fuel' =>
      o <- next ;;
      match o with
      | Some v => l <- drain fuel' next ;; ret (v :: l)
      | None => ret []
      end
  end.

(** src/ctx.rs:577-590 [find_all], drained. *)
Definition find_all {S} (h : handler S) (fuel : nat) (G : env) (pols : list pat) (p : pat)
  : M (ctx * S) (list val) :=
  drain fuel (find h fuel G pols p).

(** src/ctx.rs:629-642 [match_seq], drained. *)
Definition match_seq {S} (h : handler S) (fuel : nat) (G : env) (pols : list pat) (p : pat)
  : M (ctx * S) (list val) :=
  drain fuel (find_with fuel (try_mat_top fuel G pols p) seq_func h).

(** src/ctx/regex.rs:201-209, 318-325 [skip_ascii_whitespace] and 329-335 [skip_whitespace]: the
    policy stacks they create. *)
Definition skip_ascii_whitespace : list pat := [PMany0 NAsciiWhitespace CEmpty].
(** src/ctx/regex.rs:327-335 [skip_whitespace] (str contexts). *)
Definition skip_whitespace : list pat := [PMany0 NWhitespace CEmpty].
