(** The synchronized prefix unit (src/neu/prefix.rs) under relaxed memory: executions as calls whose loads
    read from stores, without a global order of the accesses. *)

From Coq Require Import List Arith NArith Bool.
From Verif Require Import Base Text Context Neu Syntax Regex PrefixUnit.
Import ListNotations.

(** One call of [is_match]: its argument, what it loaded from [value] and from [count], and the call whose
    store each of the two loads reads ([None]: the value the unit was created with).  The load of [count]
    only happens if [value] was loaded as true. *)
Record wcall : Type := WCall { w_item : item; w_value : bool; w_count : nat; w_vfrom : option nat; w_cfrom : option nat }.

Section Weak.
  Variable p u : item -> bool.

  (** src/neu/prefix.rs:370-390 [PrefixSync::is_match] as a function of what is loaded: which test answers,
      the answer, and what is stored to [value] and [count]. *)
  Definition weak_match (x : item) (v : bool) (c : nat) : test * bool * option (bool * nat) :=
    if v then
      if c =? 0 then (ByUnit, u x && v, None)
      else let v' := p x && v in (ByPrefix, v', Some (v', c - 1))
    else (ByFlag, v, None).

  (** The test and the answer of a call. *)
  Definition w_answer (k : wcall) : answer :=
    (w_item k, fst (fst (weak_match (w_item k) (w_value k) (w_count k))), snd (fst (weak_match (w_item k) (w_value k) (w_count k)))).
  (** What a call stores, if anything. *)
  Definition w_store (k : wcall) : option (bool * nat) := snd (weak_match (w_item k) (w_value k) (w_count k)).
  (** The test that answered a call. *)
  Definition w_test (k : wcall) : test := snd (fst (w_answer k)).

  (** What the memory model of Rust (that of C++20, [memory_order_relaxed]) leaves of the calls [e] on a
      unit created with count [n].  [hb a b]: call [a] happens before call [b] (same thread, or
      synchronized by other means).  The calls are listed in any order.
      - a load reads what the store it reads from stored;
      - no value comes out of thin air: both stores of a call depend on its loads, so following loads to
        the stores they read from ends at the initial values;
      - coherence: a load does not read from a call that happens after it, nor a store overwritten by
        another one that happens before it. *)
  Record Execution (n : nat) (e : list wcall) (hb : nat -> nat -> Prop) (rank : nat -> nat) : Prop := {
    ex_value : forall i k, nth_error e i = Some k ->
      match w_vfrom k with
      | None => w_value k = true
      | Some j => exists k' c, nth_error e j = Some k' /\ w_store k' = Some (w_value k, c) end;
    ex_count : forall i k, nth_error e i = Some k -> w_value k = true ->
      match w_cfrom k with
      | None => w_count k = n
      | Some j => exists k' v, nth_error e j = Some k' /\ w_store k' = Some (v, w_count k) end;
    ex_no_thin_air : forall i k j, nth_error e i = Some k ->
      w_vfrom k = Some j \/ (w_value k = true /\ w_cfrom k = Some j) -> rank j < rank i;
    ex_no_future : forall i k j, nth_error e i = Some k ->
      w_vfrom k = Some j \/ (w_value k = true /\ w_cfrom k = Some j) -> ~ hb i j;
    ex_value_fresh : forall i k m km, nth_error e i = Some k -> nth_error e m = Some km -> w_store km <> None -> hb m i ->
      match w_vfrom k with None => False | Some j => ~ hb j m end;
    ex_count_fresh : forall i k m km, nth_error e i = Some k -> w_value k = true -> nth_error e m = Some km -> w_store km <> None -> hb m i ->
      match w_cfrom k with None => False | Some j => ~ hb j m end
  }.
End Weak.
