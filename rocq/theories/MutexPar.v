(** Parsers behind a mutex, shared by threads: [Mutex<P>] as [Regex] and [Ctor] (src/regex.rs:230-235,
    src/ctor.rs:277-282), as made by [into_mutex], [into_mutex_regex] and [rec_parser_sync]. *)

From Coq Require Import List Arith NArith Bool.
From Verif Require Import Base Text Context Neu Syntax Regex Ctor Api Spec Obs.
Import ListNotations.

Section Threads.
  Variable S : Type.
  (** One handler type for all threads; each thread has its own handler state and its
      own context, without policies. *)
  Variable h : handler S.
  Variable G : env.
  (** The parser inside the mutex number [m].  It takes no further lock of the threads below. *)
  Variable cell : nat -> pat.

  (** What a thread asks for: [ctx.try_mat(&m)] or [ctx.ctor_handler(&m, &mut h)]. *)
  Inductive job : Type := JMat (m : nat) | JCtor (m : nat).
  Definition target (j : job) : nat := match j with JMat m | JCtor m => m end.

  Inductive answer : Type := AMat (r : res span) | ACtor (r : res val).
  Definition panicked (a : answer) : bool :=
    match a with AMat Panic | ACtor Panic => true | _ => false end.

  (** src/regex.rs:116-117, src/ctor.rs:162: once locked, the call is forwarded to the parser inside. *)
  Definition Call (j : job) (c : ctx) (s : S) (a : answer) (c' : ctx) (s' : S) : Prop :=
    match j with
    | JMat m => exists r, a = AMat r /\ Returns G [] (PWrap (cell m)) c r c' /\ s' = s
    | JCtor m => exists r, a = ACtor r /\ Builds h G [] (PWrap (cell m)) c s r c' s'
    end.

  (** src/regex.rs:233, src/ctor.rs:280: [lock()] of a poisoned mutex is an error; its guard is
      dropped at once and [try_parse]/[construct] return [Error::Mutex] without touching the context. *)
  Definition refuse {A} (c : ctx) : res A * ctx := (Err EMutex, c).
  Definition Refused (j : job) (c : ctx) (s : S) (a : answer) (c' : ctx) (s' : S) : Prop :=
    match j with
    | JMat m => exists r, a = AMat r /\ Returns G [] (PFn refuse) c r c' /\ s' = s
    | JCtor m => exists r, a = ACtor r /\ Builds h G [] (PCtorFn refuse) c s r c' s'
    end.

  Record thread : Type := Th { t_ctx : ctx; t_st : S; t_jobs : list job; t_in : bool }.
  (** A finished call: who, what, the thread's context and handler state before, the answer, and both
      after. *)
  Record event : Type := Ev { e_who : nat; e_job : job; e_ctx : ctx; e_st : S; e_ans : answer; e_ctx' : ctx; e_st' : S }.

  (** std::sync::Mutex: a lock word and a poison flag per mutex.  [hist]: finished calls, latest first. *)
  Record world : Type := World {
    th : nat -> thread; locked : nat -> bool; poisoned : nat -> bool; hist : list event }.

  Definition upd {A} (f : nat -> A) (i : nat) (v : A) : nat -> A := fun x => if x =? i then v else f x.

  (** One step of one thread.  A panic unwinds through the guard, which poisons the mutex, and ends the thread. *)
  Inductive step : world -> world -> Prop :=
  | step_enter g i t j js :
      th g i = t -> t_in t = false -> t_jobs t = j :: js ->
      locked g (target j) = false -> poisoned g (target j) = false ->
      step g (World (upd (th g) i (Th (t_ctx t) (t_st t) (j :: js) true))
                    (upd (locked g) (target j) true) (poisoned g) (hist g))
  | step_refuse g i t j js a c' s' :
      th g i = t -> t_in t = false -> t_jobs t = j :: js ->
      locked g (target j) = false -> poisoned g (target j) = true ->
      Refused j (t_ctx t) (t_st t) a c' s' ->
      step g (World (upd (th g) i (Th c' s' js false)) (locked g) (poisoned g)
                    (Ev i j (t_ctx t) (t_st t) a c' s' :: hist g))
  | step_leave g i t j js a c' s' :
      th g i = t -> t_in t = true -> t_jobs t = j :: js ->
      Call j (t_ctx t) (t_st t) a c' s' -> panicked a = false ->
      step g (World (upd (th g) i (Th c' s' js false)) (upd (locked g) (target j) false) (poisoned g)
                    (Ev i j (t_ctx t) (t_st t) a c' s' :: hist g))
  | step_crash g i t j js a c' s' :
      th g i = t -> t_in t = true -> t_jobs t = j :: js ->
      Call j (t_ctx t) (t_st t) a c' s' -> panicked a = true ->
      step g (World (upd (th g) i (Th c' s' [] false)) (upd (locked g) (target j) false)
                    (upd (poisoned g) (target j) true)
                    (Ev i j (t_ctx t) (t_st t) a c' s' :: hist g)).

  Variable c0 : nat -> ctx.
  Variable s0 : nat -> S.
  Variable work : nat -> list job.
  Definition start : world :=
    World (fun i => Th (c0 i) (s0 i) (work i) false) (fun _ => false) (fun _ => false) [].

  Inductive Reachable : world -> Prop :=
  | reach_start : Reachable start
  | reach_step g g' : Reachable g -> step g g' -> Reachable g'.

  (** ** Specification: the same calls made one after the other, by no threads at all *)

  (** Who has which context, handler state and calls to go, and which mutexes were left by a panic. *)
  Record seq : Type := Seq { q_ctx : nat -> ctx; q_st : nat -> S; q_jobs : nat -> list job; q_bad : nat -> Prop }.

  Inductive OneByOne : list event -> seq -> Prop :=
  | obo_nil : OneByOne [] (Seq c0 s0 work (fun _ => False))
  | obo_call l q i j js a c' s' :
      OneByOne l q -> q_jobs q i = j :: js -> ~ q_bad q (target j) ->
      Call j (q_ctx q i) (q_st q i) a c' s' -> panicked a = false ->
      OneByOne (l ++ [Ev i j (q_ctx q i) (q_st q i) a c' s'])
        (Seq (upd (q_ctx q) i c') (upd (q_st q) i s') (upd (q_jobs q) i js) (q_bad q))
  | obo_panic l q i j js a c' s' :
      OneByOne l q -> q_jobs q i = j :: js -> ~ q_bad q (target j) ->
      Call j (q_ctx q i) (q_st q i) a c' s' -> panicked a = true ->
      OneByOne (l ++ [Ev i j (q_ctx q i) (q_st q i) a c' s'])
        (Seq (upd (q_ctx q) i c') (upd (q_st q) i s') (upd (q_jobs q) i [])
             (fun m => m = target j \/ q_bad q m))
  | obo_refused l q i j js a c' s' :
      OneByOne l q -> q_jobs q i = j :: js -> q_bad q (target j) ->
      Refused j (q_ctx q i) (q_st q i) a c' s' ->
      OneByOne (l ++ [Ev i j (q_ctx q i) (q_st q i) a c' s'])
        (Seq (upd (q_ctx q) i c') (upd (q_st q) i s') (upd (q_jobs q) i js) (q_bad q)).

  (** A thread that has the parsers to itself, none of which panics: the events of its calls. *)
  Inductive Alone (i : nat) : list job -> ctx -> S -> list event -> ctx -> S -> Prop :=
  | al_nil c s : Alone i [] c s [] c s
  | al_cons j js c s a c1 s1 l c2 s2 :
      Call j c s a c1 s1 -> panicked a = false -> Alone i js c1 s1 l c2 s2 ->
      Alone i (j :: js) c s (Ev i j c s a c1 s1 :: l) c2 s2.
End Threads.

Arguments Th {S}.
Arguments t_ctx {S}.
Arguments t_st {S}.
Arguments t_jobs {S}.
Arguments t_in {S}.
Arguments Ev {S}.
Arguments e_who {S}.
Arguments e_job {S}.
Arguments e_ctx {S}.
Arguments e_st {S}.
Arguments e_ans {S}.
Arguments e_ctx' {S}.
Arguments e_st' {S}.
Arguments World {S}.
Arguments th {S}.
Arguments locked {S}.
Arguments poisoned {S}.
Arguments hist {S}.
Arguments Seq {S}.
Arguments q_ctx {S}.
Arguments q_st {S}.
Arguments q_jobs {S}.
Arguments q_bad {S}.
Arguments Call {S}.
Arguments Refused {S}.
Arguments step {S}.
Arguments start {S}.
Arguments Reachable {S}.
Arguments OneByOne {S}.
Arguments Alone {S}.
