(** Stateful units: src/neu/prefix.rs.  [Prefix] keeps a counter and a flag in [Cell]s; [PrefixSync]
    keeps them in atomics.  The unit regexes ask their unit once per item, in order. *)

From Coq Require Import List Arith NArith Bool.
From Verif Require Import Base Text Context Neu Syntax Regex.
Import ListNotations.

(** src/neu/prefix.rs:13-22: the two cells of a [Prefix]. *)
Record pstate : Type := PS { p_count : nat; p_value : bool }.

(** src/neu/prefix.rs:76-84 [Prefix::new], 150-157 [prefix_cnt]. *)
Definition prefix_new (n : nat) : pstate := PS n true.
(** src/neu/prefix.rs:38-53 [Default]: [usize::default()] and [bool::default()]. *)
Definition prefix_default : pstate := PS 0 false.
(** src/neu/prefix.rs:55-68 [Clone]: the cells are copied with their current contents. *)
Definition prefix_clone (s : pstate) : pstate := PS (p_count s) (p_value s).

(** A unit with state [S]: the answer of [is_match] and the state afterwards. *)
Definition sunit (S : Type) : Type := item -> S -> bool * S.

(** src/neu/prefix.rs:119-140 [Prefix::is_match]. *)
Definition prefix_match (p u : item -> bool) : sunit pstate := fun x s =>
  if p_value s then
    if p_count s =? 0 then (u x && p_value s, s)
    else let v := p x && p_value s in (v, PS (p_count s - 1) v)
  else (false, s).

(** A unit without state. *)
Definition pure_unit {S} (u : item -> bool) : sunit S := fun x s => (u x, s).

(** [is_match] called on one item after the other. *)
Fixpoint feed {S} (m : sunit S) (s : S) (l : list item) : list bool * S :=
  match l with
  | [] => ([], s)
  | x :: l => let (b, s1) := m x s in let (bs, s2) := feed m s1 l in (b :: bs, s2)
  end.

(** The loops of Regex.v with a stateful unit (same lines as there). *)
Fixpoint scan_st {S} (m : sunit S) (chk : nat * item -> res bool) (beg : option nat)
    (l : list (nat * item)) (s : S) : res (option nat * option nat) * S :=
  match l with
  | [] => (Ok (beg, None), s)
  | x :: l' =>
      let (b, s) := m (snd x) s in
      if negb b then (Ok (beg, Some (fst x)), s)
      else match chk x with
           | Ok true => scan_st m chk (match beg with None => Some (fst x) | b => b end) l' s
           | Ok false => (Ok (beg, Some (fst x)), s)
           | Err e => (Err e, s)
           | Panic => (Panic, s)
           | OOF => (OOF, s)
           end
  end.

Section Parsers.
  Context {S : Type}.
  Variable m : sunit S.
  Variable chk : check_t.

  (** Run a computation on the context part of the state. *)
  Definition onc {A} (f : M ctx A) : M (ctx * S) A :=
    fun x => let (r, c) := f (fst x) in (r, (c, snd x)).
  (** Ask the unit. *)
  Definition ask (x : item) : M (ctx * S) bool :=
    fun y => let (b, s) := m x (snd y) in (Ok b, (fst y, s)).

  (** src/neu/once.rs:185-200 [Once::try_parse]. *)
  Definition once_st : M (ctx * S) span :=
    l <- onc (reads peek) ;;
    rem <- onc remaining ;;
    match l with
    | [] => fail EOnce
    | x :: l' =>
        b <- ask (snd x) ;;
        if b : bool then
          b <- onc (reads (fun c => chk c x)) ;;
          if b : bool then
            n <- lift (calc_length (Some (fst x)) (next_off l') rem) ;;
            onc (new_span_inc n)
          else fail EOnce
        else fail EOnce
    end.

  (** src/neu/once.rs:379-403 [Many1::try_parse]. *)
  Definition many1_st : M (ctx * S) span :=
    l <- onc (reads peek) ;;
    rem <- onc remaining ;;
    be <- (fun x => let (r, s) := scan_st m (chk (fst x)) None l (snd x) in (r, (fst x, s))) ;;
    match fst be with
    | Some b => n <- lift (calc_length (Some b) (snd be) rem) ;; onc (new_span_inc n)
    | None => fail EMany1
    end.

  (** src/neu/opt.rs:392-416 [Many0::try_parse]. *)
  Definition many0_st : M (ctx * S) span :=
    o <- onc offset ;;
    rem <- onc remaining ;;
    ml <- catch (onc (reads peek)) ;;
    match ml with
    | inl l =>
        be <- (fun x => let (r, s) := scan_st m (chk (fst x)) None l (snd x) in (r, (fst x, s))) ;;
        match fst be with
        | Some b => n <- lift (calc_length (Some b) (snd be) rem) ;; onc (new_span_inc n)
        | None => ret (Span o 0)
        end
    | inr _ => ret (Span o 0)
    end.
End Parsers.

(** [PrefixSync]: src/neu/prefix.rs:370-390.  [value] and [count] are atomics accessed with [Relaxed]
    ordering.  One call makes up to four accesses, and other threads may run between any two of them.
    Simplification: the accesses of all threads happen in one global order (sequential consistency);
    real relaxed accesses allow further reorderings between the two variables. *)
Inductive pc : Type :=
| AtStart                         (* between calls *)
| AtCount (x : item)              (* [value] was loaded as true *)
| AtValue (x : item) (c : nat)    (* [count] was loaded as [c > 0] *)
| AtStore (x : item) (c : nat).   (* [value] was stored *)

(** Which test answered a call. *)
Inductive test : Type := ByFlag | ByUnit | ByPrefix.
(** One answered call: its argument, the test that answered it, and the answer. *)
Definition answer : Type := item * test * bool.

(** A thread: the calls it has still to make, and where it stands in the current one. *)
Record thread : Type := Thread { todo : list item; at_ : pc }.
(** src/neu.rs: the two atomic fields [value] and [count] of the unit. *)
Record shared : Type := Shared { value : bool; count : nat }.
(** The shared memory, the threads, and the answers given so far with the thread that gave them. *)
Record config : Type := Config { mem : shared; threads : list thread; done_ : list (nat * answer) }.

(** Replacing one element of a list. *)
Definition set_nth {A} (i : nat) (a : A) (l : list A) : list A := firstn i l ++ a :: skipn (S i) l.

Section Sync.
  Variable p u : item -> bool.

  (** The next access of a thread: memory, thread and answer afterwards; [None]: it has nothing to do. *)
  Definition access (m : shared) (t : thread) : option (shared * thread * option answer) :=
    match at_ t, todo t with
    | AtStart, [] => None
    | AtStart, x :: l =>
        (* self.value.load(Relaxed) *)
        if value m then Some (m, Thread l (AtCount x), None)
        else Some (m, Thread l AtStart, Some (x, ByFlag, false))
    | AtCount x, l =>
        (* self.count.load(Relaxed) *)
        if count m =? 0 then Some (m, Thread l AtStart, Some (x, ByUnit, u x))
        else Some (m, Thread l (AtValue x (count m)), None)
    | AtValue x c, l =>
        (* self.value.store(value, Relaxed) *)
        Some (Shared (p x) (count m), Thread l (AtStore x c), None)
    | AtStore x c, l =>
        (* self.count.store(count - 1, Relaxed) *)
        Some (Shared (value m) (c - 1), Thread l AtStart, Some (x, ByPrefix, p x))
    end.

  (** Thread [i] makes one access (nothing happens if it has finished or does not exist). *)
  Definition step (i : nat) (g : config) : config :=
    match nth_error (threads g) i with
    | Some t =>
        match access (mem g) t with
        | Some (m, t', a) =>
            Config m (set_nth i t' (threads g))
              (match a with Some a => done_ g ++ [(i, a)] | None => done_ g end)
        | None => g
        end
    | None => g
    end.

  (** A schedule: which thread makes the next access. *)
  Definition run (sched : list nat) (g : config) : config := fold_left (fun g i => step i g) sched g.

  (** Several threads about to call [is_match] on a shared [prefix_sync_cnt(p, n, u)]. *)
  Definition start (n : nat) (work : list (list item)) : config :=
    Config (Shared true n) (map (fun l => Thread l AtStart) work) [].
End Sync.
