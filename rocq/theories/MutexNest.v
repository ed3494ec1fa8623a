(** Parsers that take several mutexes at once, shared by threads: a [Mutex<P>] inside a [Mutex<Q>]
    (src/regex.rs:230-235, src/ctor.rs:277-282), as with handles of [rec_parser_sync]
    (src/regex/rec.rs:44-59) that mention other handles.  The guard returned by [lock()] lives until the
    call of the parser inside has returned, so what the parser inside locks is locked in between. *)

From Coq Require Import List Arith NArith Bool.
From Verif Require Import Base Text Context Neu Syntax Regex Ctor Api Spec Obs Unlock.
Import ListNotations.

(** The parser inside the mutex number [m] is the cell [m] of [G]; [PLock m] is a handle of it. *)
Section Locks.
  Variable G : env.

  (** The mutexes that running [p] may lock while it holds none of its own. *)
  Inductive Takes : pat -> nat -> Prop :=
  | takes_lock p m : within p (PLock m) -> Takes p m
  | takes_ref p i q m : within p (PRef i) -> env_get G i = Some q -> Takes q m -> Takes p m.

  (** What a call does to the mutexes, in order. *)
  Inductive lev : Type := Acq (m : nat) | Rel (m : nat).

  (** The behaviours that the structure of a parser allows.  Simplification: which of them a call shows
      depends on the text; here it shows any of them. *)
  Inductive Locking : pat -> list lev -> Prop :=
  | lk_none p : Locking p []
  | lk_take p m q l l' : Takes p m -> env_get G m = Some q -> Locking q l -> Locking p l' ->
      Locking p (Acq m :: l ++ Rel m :: l')
  | lk_unset p m l' : Takes p m -> env_get G m = None -> Locking p l' -> Locking p (Acq m :: Rel m :: l').
End Locks.

Section Threads.
  Variable S : Type.
  (** One handler type for all threads; each thread has its own handler state and its own context,
      without policies. *)
  Variable h : handler S.
  Variable G : env.

  (** What a thread asks for: [ctx.try_mat(&p)] or [ctx.ctor_handler(&p, &mut h)]. *)
  Inductive job : Type := JMat (p : pat) | JCtor (p : pat).
  Definition parser (j : job) : pat := match j with JMat p | JCtor p => p end.
  Inductive answer : Type := AMat (r : res span) | ACtor (r : res val).
  Definition panicked (a : answer) : bool := match a with AMat Panic | ACtor Panic => true | _ => false end.

  (** The answer of the parser to a thread that has the mutexes to itself. *)
  Definition Call (j : job) (c : ctx) (s : S) (a : answer) (c' : ctx) (s' : S) : Prop :=
    match j with
    | JMat p => exists r, a = AMat r /\ Returns G [] p c r c' /\ s' = s
    | JCtor p => exists r, a = ACtor r /\ Builds h G [] p c s r c' s'
    end.

  (** [t_rest]: what the call in progress still does to the mutexes. *)
  Record thread : Type := Th { t_ctx : ctx; t_st : S; t_jobs : list job; t_rest : option (list lev) }.
  Record event : Type := Ev { e_who : nat; e_job : job; e_ctx : ctx; e_st : S; e_ans : answer; e_ctx' : ctx; e_st' : S }.
  (** std::sync::Mutex: who has locked it.  Simplification: no poisoning, calls that panic are left out
      (see MutexPar.v for those).  [hist]: finished calls, latest first. *)
  Record world : Type := World { th : nat -> thread; owner : nat -> option nat; hist : list event }.

  Definition upd {A} (f : nat -> A) (i : nat) (v : A) : nat -> A := fun x => if x =? i then v else f x.

  (** One step of one thread.  [lock()] of a mutex somebody holds, the thread itself included, waits. *)
  Inductive step : world -> world -> Prop :=
  | step_begin g i c s j js l :
      th g i = Th c s (j :: js) None -> Locking G (parser j) l ->
      step g (World (upd (th g) i (Th c s (j :: js) (Some l))) (owner g) (hist g))
  | step_lock g i c s js m l :
      th g i = Th c s js (Some (Acq m :: l)) -> owner g m = None ->
      step g (World (upd (th g) i (Th c s js (Some l))) (upd (owner g) m (Some i)) (hist g))
  | step_unlock g i c s js m l :
      th g i = Th c s js (Some (Rel m :: l)) -> owner g m = Some i ->
      step g (World (upd (th g) i (Th c s js (Some l))) (upd (owner g) m None) (hist g))
  | step_finish g i c s j js a c' s' :
      th g i = Th c s (j :: js) (Some []) -> Call j c s a c' s' -> panicked a = false ->
      step g (World (upd (th g) i (Th c' s' js None)) (owner g) (Ev i j c s a c' s' :: hist g)).

  Variable c0 : nat -> ctx.
  Variable s0 : nat -> S.
  Variable work : nat -> list job.
  Definition start : world := World (fun i => Th (c0 i) (s0 i) (work i) None) (fun _ => None) [].
  Inductive Reachable : world -> Prop :=
  | reach_start : Reachable start
  | reach_step g g' : Reachable g -> step g g' -> Reachable g'.

  (** A thread that has the parsers to itself, none of which panics: the events of its calls. *)
  Inductive Alone (i : nat) : list job -> ctx -> S -> list event -> ctx -> S -> Prop :=
  | al_nil c s : Alone i [] c s [] c s
  | al_cons j js c s a c1 s1 l c2 s2 :
      Call j c s a c1 s1 -> panicked a = false -> Alone i js c1 s1 l c2 s2 ->
      Alone i (j :: js) c s (Ev i j c s a c1 s1 :: l) c2 s2.
End Threads.

Arguments Th {S}.
Arguments t_ctx {S}.
Arguments t_st {S}.
Arguments t_jobs {S}.
Arguments t_rest {S}.
Arguments Ev {S}.
Arguments e_who {S}.
Arguments World {S}.
Arguments th {S}.
Arguments owner {S}.
Arguments hist {S}.
Arguments Call {S}.
Arguments step {S}.
Arguments start {S}.
Arguments Reachable {S}.
Arguments Alone {S}.
