(** Errors, results, the state-and-result monad, spans and the rollback guard. *)

From Coq Require Import List Arith Bool.
Import ListNotations.

(** src/err.rs: [enum Error], one constructor per variant.  [Uid(usize)] keeps its payload. *)
Inductive error : Type :=
| EFail | EAssertFalse | EAssertTrue | EConsume | ESlice | ELiteral | EAnchorEnd | EAnchorStart
| EMutex | EOption | EFromStr | ETryInto | ESelectEq | ESelectNeq | EBounded | ESepCollect
| ECollect | ESeparate | ESeparate2 | ERepeat | ERepeat2 | ETimes | EBetween | EMany1 | EOnce
| ENeureThen | EOutOfBound | EArray | EVector | EPairArray | EPairVector | EPairSlice
| EUtf8Error | EFromLeBytes | EFromBeBytes | EFromNeBytes | EUid (n : nat).

(** Outcome of running Rust code: [Result<A, Error>] plus the two explicit abnormal outcomes.
    [Panic]: the code panics (debug profile: arithmetic underflow, failed [debug_assert!], slice or
    array index out of range, [unimplemented!]).  [OOF]: the model ran out of fuel (no Rust
    counterpart: the Rust call is still running). *)
Inductive res (A : Type) : Type :=
| Ok (a : A)
| Err (e : error)
| Panic
| OOF.
Arguments Ok {A} a.
Arguments Err {A} e.
Arguments Panic {A}.
Arguments OOF {A}.

(** A Rust function that mutates a state [X] (through [&mut]) and returns a result.
    Modelling device, no single source location. *)
Definition M (X A : Type) : Type := X -> res A * X.

(** Modelling device: [Ok(a)]. *)
Definition ret {X A} (a : A) : M X A := fun x => (Ok a, x).
(** Modelling device: [return Err(e)]. *)
Definition fail {X A} (e : error) : M X A := fun x => (Err e, x).
(** Modelling device: a panic. *)
Definition panic {X A} : M X A := fun x => (Panic, x).
(** Modelling device: fuel exhausted. *)
Definition oof {X A} : M X A := fun x => (OOF, x).
(** Modelling device: sequencing with the [?] operator. *)
Definition bind {X A B} (m : M X A) (k : A -> M X B) : M X B :=
  fun x => match m x with
           | (Ok a, x') => k a x'
           | (Err e, x') => (Err e, x')
           | (Panic, x') => (Panic, x')
           | (OOF, x') => (OOF, x')
           end.
(** Modelling device: inspect a [Result] instead of propagating it ([if let Ok(..) = ..],
    [.is_ok()], [match]).  Panics and fuel exhaustion still propagate. *)
Definition catch {X A} (m : M X A) : M X (A + error) :=
  fun x => match m x with
           | (Ok a, x') => (Ok (inl a), x')
           | (Err e, x') => (Ok (inr e), x')
           | (Panic, x') => (Panic, x')
           | (OOF, x') => (OOF, x')
           end.
(** Modelling device: a [Result] value as a computation that does not touch the state. *)
Definition lift {X A} (r : res A) : M X A := fun x => (r, x).
(** Modelling device: a function that only reads the state ([&self]). *)
Definition reads {X A} (f : X -> res A) : M X A := fun x => (f x, x).

Declare Scope m_scope.
Delimit Scope m_scope with m.
Notation "x <- m ;; k" := (bind m (fun x => k)) (at level 100, m at next level, right associativity) : m_scope.
Notation "m ;; k" := (bind m (fun _ => k)) (at level 100, right associativity) : m_scope.
Open Scope m_scope.

(** src/span.rs:17-22 [struct Span]. *)
Record span : Type := Span { sbeg : nat; slen : nat }.

(** src/span.rs:17 [#[derive(Default)]]. *)
Definition span_default : span := Span 0 0.

(** src/span.rs:41-43 [Span::is_empty]. *)
Definition span_is_empty (s : span) : bool := slen s =? 0.

(** Checked [usize] subtraction: Rust's [-] panics on underflow in the debug profile. *)
Definition csub (a b : nat) : res nat := if b <=? a then Ok (a - b) else Panic.

(** src/span.rs:50-54 [Span::add_assign]:
    [debug_assert!(other.beg >= self.beg)];
    [self.len += other.len + other.beg - (self.beg + self.len)] (checked subtraction). *)
Definition add_assign (self other : span) : res span :=
  if sbeg self <=? sbeg other then
    match csub (slen other + sbeg other) (sbeg self + slen self) with
    | Ok d => Ok (Span (sbeg self) (slen self + d))
    | Err e => Err e
    | Panic => Panic
    | OOF => OOF
    end
  else Panic.

(** The part of the [Context] trait (src/ctx.rs:49-52) the combinators use to save and restore the
    cursor, for any state that contains a context: [offset()] and [set_offset()]. *)
Class HasOffset (X : Type) := { get_off : X -> nat; put_off : nat -> X -> X }.

(** src/ctx.rs:49 [Context::offset]. *)
Definition offset {X} `{HasOffset X} : M X nat := fun x => (Ok (get_off x), x).
(** src/ctx.rs:52 [Context::set_offset]. *)
Definition set_offset {X} `{HasOffset X} (o : nat) : M X unit := fun x => (Ok tt, put_off o x).

(** src/ctx/guard.rs:12-23 [struct CtxGuard]: the borrowed context, the offset recorded at
    creation, and the rollback flag. *)
Record guard (X : Type) : Type := Guard { g_ctx : X; g_offset : nat; g_reset : bool }.
Arguments Guard {X} g_ctx g_offset g_reset.
Arguments g_ctx {X} g.
Arguments g_offset {X} g.
Arguments g_reset {X} g.

(** src/ctx/guard.rs:29-38 [CtxGuard::new]. *)
Definition g_new {X} `{HasOffset X} (x : X) : guard X := Guard x (get_off x) false.
(** src/ctx/guard.rs:41-43 [CtxGuard::beg]. *)
Definition g_beg {X} : M (guard X) nat := fun g => (Ok (g_offset g), g).
(** src/ctx/guard.rs:59-61 [CtxGuard::ctx]: run something on the borrowed context; the result is
    not inspected by the guard. *)
Definition g_on {X A} (m : M X A) : M (guard X) A :=
  fun g => let (r, x) := m (g_ctx g) in (r, Guard x (g_offset g) (g_reset g)).
(** src/ctx/guard.rs:88-93 [CtxGuard::process_ret] and 103-107 [CtxGuard::try_mat]: run on the
    context and, if the result is an [Err], mark the guard for rollback. *)
Definition g_try {X A} (m : M X A) : M (guard X) A :=
  fun g => match m (g_ctx g) with
           | (Err e, x) => (Err e, Guard x (g_offset g) true)
           | (r, x) => (r, Guard x (g_offset g) (g_reset g))
           end.
(** src/ctx/guard.rs:116-120 [Drop for CtxGuard]. *)
Definition g_drop {X} `{HasOffset X} (g : guard X) : X :=
  if g_reset g then put_off (g_offset g) (g_ctx g) else g_ctx g.
(** A function body that starts with [let mut ctx = CtxGuard::new(ctx)]: the guard is dropped on
    every return path. *)
Definition with_guard {X A} `{HasOffset X} (body : M (guard X) A) : M X A :=
  fun x => let (r, g) := body (g_new x) in (r, g_drop g).

(** std: [core::ops::Bound]. *)
Inductive bound (A : Type) : Type := Incl (a : A) | Excl (a : A) | Unb.
Arguments Incl {A} a.
Arguments Excl {A} a.
Arguments Unb {A}.

(** src/neu/range.rs:10-13 [CRange<usize>]. *)
Record crange : Type := CRange { r_lo : bound nat; r_hi : bound nat }.

(** std [RangeBounds::contains] on [CRange<usize>] (src/neu/range.rs:96-104). *)
Definition crange_contains (r : crange) (n : nat) : bool :=
  (match r_lo r with Incl a => a <=? n | Excl a => a <? n | Unb => true end) &&
  (match r_hi r with Incl b => n <=? b | Excl b => n <? b | Unb => true end).

(** src/neu/range.rs:74-86 [CRange<usize>::is_empty].  [usize::MAX] does not exist on [nat]; the
    guard [start < usize::MAX - 1] is dropped. *)
Definition crange_is_empty (r : crange) : bool :=
  negb match r_lo r, r_hi r with
       | Unb, _ | _, Unb => true
       | Incl a, Excl b | Excl a, Incl b => a <? b
       | Incl a, Incl b => a <=? b
       | Excl a, Excl b => a + 1 <? b
       end.
