(** Units behind a mutex, shared by threads: [Mutex<U>] as [Neu] (src/neu.rs:187-204).  What is inside is [Copy], so a
    mutex holds no further mutex; units outside combine mutexes by [!], [or] and [and]. *)

From Coq Require Import List Arith NArith Bool.
From Verif Require Import Base Text Context Neu.
Import ListNotations.

(** What a mutex holds: a unit, or a closure that may panic ([None]).  src/neu.rs:110-121. *)
Inductive inner : Type := IUnit (u : neu) | IFn (f : item -> option bool).
Definition inner_match (c : inner) (x : item) : option bool := match c with IUnit u => Some (is_match u x) | IFn f => f x end.
(** [min_length]: the default of src/neu.rs:105-107 for a closure. *)
Definition inner_len (k : kind) (c : inner) : nat := match c with IUnit u => min_length k u | IFn _ => 1 end.

(** A unit over shared mutexes, by number: src/neu/op_not.rs:100-114, op_or.rs:142-157, op_and.rs:143-158. *)
Inductive mnode : Type := MOwn (u : neu) | MCell (m : nat) | MNot (a : mnode) | MOr (a b : mnode) | MAnd (a b : mnode).

(** What a unit can be asked: [is_match] or [min_length]. *)
Inductive quest : Type := QMatch (x : item) | QLen.
Inductive ans : Type := ABool (b : bool) | ALen (n : nat).
Definition job : Type := mnode * quest.

(** A question under way: answered, or about to lock a mutex and go on with what the unit inside says. *)
Inductive prog : Type :=
| Done (a : ans)
| AskMatch (m : nat) (x : item) (k : bool -> prog)
| AskLen (m : nat) (k : nat -> prog).

(** [is_match]: src/neu.rs:191-197, op_not.rs:105-109, op_or.rs:148-152, op_and.rs:149-153 ([||] and [&&]). *)
Fixpoint matching (t : mnode) (x : item) (k : bool -> prog) : prog :=
  match t with
  | MOwn u => k (is_match u x)
  | MCell m => AskMatch m x k
  | MNot a => matching a x (fun r => k (negb r))
  | MOr a b => matching a x (fun r => if r then k true else matching b x k)
  | MAnd a b => matching a x (fun r => if r then matching b x k else k false)
  end.
(** [min_length]: src/neu.rs:199-203, op_not.rs:111-113, op_or.rs:154-156, op_and.rs:155-157. *)
Fixpoint sizing (w : kind) (t : mnode) (k : nat -> prog) : prog :=
  match t with
  | MOwn u => k (min_length w u)
  | MCell m => AskLen m k
  | MNot a => sizing w a k
  | MOr a b => sizing w a (fun n => sizing w b (fun n' => k (Nat.min n n')))
  | MAnd a b => sizing w a (fun n => sizing w b (fun n' => k (Nat.max n n')))
  end.
Definition compile (w : kind) (j : job) : prog :=
  match snd j with QMatch x => matching (fst j) x (fun b => Done (ABool b)) | QLen => sizing w (fst j) (fun n => Done (ALen n)) end.

(** How a question ended: with an answer, or with a panic at mutex [m], where [own] says that the closure inside panicked, and
    not [lock().expect(..)] on a poisoned mutex. *)
Inductive ending : Type := Said (a : ans) | Broke (m : nat) (own : bool).
(** A question that ended: who asked, what, how many questions had ended when it began, and its ending. *)
Record event : Type := Ev { e_who : nat; e_job : job; e_since : nat; e_end : ending }.

(** A thread: the questions to go; the one under way, with the mutexes gone through so far and whether the thread holds the
    one it asks.  [since] and [seen] are not in the code; they serve to state the properties. *)
Inductive thread : Type :=
| Idle (js : list job)
| Busy (j : job) (since : nat) (seen : list nat) (p : prog) (inside : bool) (js : list job)
| Dead.

(** std::sync::Mutex: a lock word and a poison flag each.  [hist]: the questions that ended, latest first. *)
Record world : Type := World { th : nat -> thread; locked : nat -> bool; poisoned : nat -> bool; hist : list event }.
Definition upd {A} (f : nat -> A) (i : nat) (v : A) : nat -> A := fun x => if x =? i then v else f x.

Definition wants (p : prog) : option nat := match p with Done _ => None | AskMatch m _ _ => Some m | AskLen m _ => Some m end.

Section Threads.
  Variable w : kind.
  Variable cell : nat -> inner.

  (** The unit inside answers, or panics. *)
  Definition after (p : prog) : option prog :=
    match p with
    | Done a => Some (Done a)
    | AskMatch m x k => match inner_match (cell m) x with Some b => Some (k b) | None => None end
    | AskLen m k => Some (k (inner_len w (cell m)))
    end.

  (** One step of one thread.  src/neu.rs:191-203: the guard lives until the call ends; a panic unwinds through it, which
      poisons the mutex, and ends the thread; [lock] of a poisoned mutex is an error, and [expect] panics. *)
  Inductive step : world -> world -> Prop :=
  | s_begin g i j js :
      th g i = Idle (j :: js) ->
      step g (World (upd (th g) i (Busy j (length (hist g)) [] (compile w j) false js)) (locked g) (poisoned g) (hist g))
  | s_lock g i j s l p js m :
      th g i = Busy j s l p false js -> wants p = Some m -> locked g m = false -> poisoned g m = false ->
      step g (World (upd (th g) i (Busy j s l p true js)) (upd (locked g) m true) (poisoned g) (hist g))
  | s_leave g i j s l p js m p' :
      th g i = Busy j s l p true js -> wants p = Some m -> after p = Some p' ->
      step g (World (upd (th g) i (Busy j s (l ++ [m]) p' false js)) (upd (locked g) m false) (poisoned g) (hist g))
  | s_crash g i j s l p js m :
      th g i = Busy j s l p true js -> wants p = Some m -> after p = None ->
      step g (World (upd (th g) i Dead) (upd (locked g) m false) (upd (poisoned g) m true) (Ev i j s (Broke m true) :: hist g))
  | s_refuse g i j s l p js m :
      th g i = Busy j s l p false js -> wants p = Some m -> locked g m = false -> poisoned g m = true ->
      step g (World (upd (th g) i Dead) (locked g) (poisoned g) (Ev i j s (Broke m false) :: hist g))
  | s_answer g i j s l a js :
      th g i = Busy j s l (Done a) false js ->
      step g (World (upd (th g) i (Idle js)) (locked g) (poisoned g) (Ev i j s (Said a) :: hist g)).

  Variable work : nat -> list job.
  Definition start : world := World (fun i => Idle (work i)) (fun _ => false) (fun _ => false) [].
  Inductive Reachable : world -> Prop :=
  | reach_start : Reachable start
  | reach_step g g' : Reachable g -> step g g' -> Reachable g'.

  (** ** Specification: one question, without threads and locks *)

  (** [Says t x l b]: the answer about [x] is [b], and the mutexes [l] are gone through in turn. *)
  Inductive Says : mnode -> item -> list nat -> bool -> Prop :=
  | sa_own u x : Says (MOwn u) x [] (is_match u x)
  | sa_cell m x b : inner_match (cell m) x = Some b -> Says (MCell m) x [m] b
  | sa_not a x l b : Says a x l b -> Says (MNot a) x l (negb b)
  | sa_or_l a b x l : Says a x l true -> Says (MOr a b) x l true
  | sa_or_r a b x l l' r : Says a x l false -> Says b x l' r -> Says (MOr a b) x (l ++ l') r
  | sa_and_l a b x l : Says a x l false -> Says (MAnd a b) x l false
  | sa_and_r a b x l l' r : Says a x l true -> Says b x l' r -> Says (MAnd a b) x (l ++ l') r.
  (** [Upto t x l m]: the mutexes [l] are gone through, and then the one inside [m] is asked about [x]. *)
  Inductive Upto : mnode -> item -> list nat -> nat -> Prop :=
  | up_cell m x : Upto (MCell m) x [] m
  | up_not a x l m : Upto a x l m -> Upto (MNot a) x l m
  | up_or_l a b x l m : Upto a x l m -> Upto (MOr a b) x l m
  | up_or_r a b x l l' m : Says a x l false -> Upto b x l' m -> Upto (MOr a b) x (l ++ l') m
  | up_and_l a b x l m : Upto a x l m -> Upto (MAnd a b) x l m
  | up_and_r a b x l l' m : Says a x l true -> Upto b x l' m -> Upto (MAnd a b) x (l ++ l') m.
  (** The length a unit claims, and the mutexes gone through for it. *)
  Fixpoint mlen (t : mnode) : nat :=
    match t with
    | MOwn u => min_length w u
    | MCell m => inner_len w (cell m)
    | MNot a => mlen a
    | MOr a b => Nat.min (mlen a) (mlen b)
    | MAnd a b => Nat.max (mlen a) (mlen b)
    end.
  Fixpoint mcells (t : mnode) : list nat :=
    match t with MOwn _ => [] | MCell m => [m] | MNot a => mcells a | MOr a b | MAnd a b => mcells a ++ mcells b end.

  Definition Answers (j : job) (l : list nat) (a : ans) : Prop :=
    match snd j with
    | QMatch x => exists b, a = ABool b /\ Says (fst j) x l b
    | QLen => a = ALen (mlen (fst j)) /\ l = mcells (fst j)
    end.
  Definition Asks (j : job) (l : list nat) (m : nat) : Prop :=
    match snd j with QMatch x => Upto (fst j) x l m | QLen => exists l', mcells (fst j) = l ++ m :: l' end.
  (** The closure in [m] panics on the item that [j] asks about. *)
  Definition Panics (j : job) (m : nat) : Prop :=
    match snd j with QMatch x => inner_match (cell m) x = None | QLen => False end.
End Threads.

(** The unit with the mutexes taken off, where each holds a unit. *)
Fixpoint strip (held : nat -> neu) (t : mnode) : neu :=
  match t with
  | MOwn u => u
  | MCell m => held m
  | MNot a => NNot (strip held a)
  | MOr a b => NOr (strip held a) (strip held b)
  | MAnd a b => NAnd (strip held a) (strip held b)
  end.
