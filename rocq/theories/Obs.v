(** What a caller of the API observes: the vocabulary in which the properties are stated.

    The fuel of the interpreters is hidden behind [exists n]: by C06 more fuel never changes an
    answer, so "some amount of fuel gives this outcome" is "the call returns with this outcome". *)

From Coq Require Import List Arith NArith Bool.
From Verif Require Import Base Text Context Neu Syntax Regex Ctor Api TextProofs Spec.
Import ListNotations.

Section Obs.
  Variable k : kind.
  Variable G : env.

  (** On a plain context over [w] whose cursor is in front of item [i], [ctx.try_mat(&p)] returns
      [Ok(span)], the span covers exactly the items [b .. j-1], and the cursor ends in front of
      item [j]. *)
  Definition Matches (p : pat) (w : text) (i b j : nat) : Prop :=
    b <= j /\ j <= length w /\
    exists n, try_mat_top n G [] p (cx k w i) = (Ok (sp k w b j), cx k w j).

  (** [ctx.try_mat(&p)] returns [Err(e)] and the cursor is where it was. *)
  Definition Fails (p : pat) (w : text) (i : nat) (e : error) : Prop :=
    exists n, try_mat_top n G [] p (cx k w i) = (Err e, cx k w i).
End Obs.

(** [ctx.try_mat(&p)], started in state [c] of a context with policies [pols], returns [r] (a
    result or a panic) and leaves the context in state [c']. *)
Definition Returns (G : env) (pols : list pat) (p : pat) (c : ctx) (r : res span) (c' : ctx)
  : Prop := exists n, try_mat_top n G pols p c = (r, c') /\ r <> OOF.

(** The call never returns. *)
Definition Diverges (G : env) (pols : list pat) (p : pat) (c : ctx) : Prop :=
  forall n, fst (try_mat_top n G pols p c) = OOF.

(** The same for [ctx.ctor_handler(&p, &mut h)] with handler state [s]. *)
Definition Builds {S} (h : handler S) (G : env) (pols : list pat) (p : pat) (c : ctx) (s : S)
    (r : res val) (c' : ctx) (s' : S) : Prop :=
  exists n, construct h n G [] pols p (c, s) = (r, (c', s')) /\ r <> OOF.

Definition BuildDiverges {S} (h : handler S) (G : env) (pols : list pat) (p : pat) (c : ctx) (s : S)
  : Prop := forall n, fst (construct h n G [] pols p (c, s)) = OOF.

(** Move the cursor of a context. *)
Definition at_off (o : nat) (c : ctx) : ctx := Ctx (c_kind c) (c_dat c) o.

(** [n] is the length of the longest run of items satisfying [f] that starts at item [i] of [w], cut
    off at the cap [lim]. *)
Definition MaxRun (f : item -> bool) (w : text) (i : nat) (lim : option nat) (n : nat) : Prop :=
  (forall m, m < n -> exists x, nth_error w (i + m) = Some x /\ f x = true) /\
  match lim with Some c => n <= c | None => True end /\
  (lim = Some n \/ forall x, nth_error w (i + n) = Some x -> f x = false).

(** [n] lies in the range [r]. *)
Definition InRange (r : crange) (n : nat) : Prop :=
  match r_lo r with Incl a => a <= n | Excl a => a < n | Unb => True end /\
  match r_hi r with Incl b => n <= b | Excl b => n < b | Unb => True end.

(** The largest number a range allows, if there is one ([lo .. 0] allows none; the cap is then 0). *)
Definition cap (r : crange) : option nat :=
  match r_hi r with Incl m => Some m | Excl m => Some (m - 1) | Unb => None end.

(** Do something as often as possible, at most [lim] times: [Greedy step stop lim i n j] says that
    starting at [i] it succeeds [n] times, the last time ending at [j], and then the cap is reached
    or the next attempt fails. *)
Inductive Greedy (step : nat -> nat -> Prop) (stop : nat -> Prop)
  : option nat -> nat -> nat -> nat -> Prop :=
| greedy_cap i : Greedy step stop (Some 0) i 0 i
| greedy_stop lim i : lim <> Some 0 -> stop i -> Greedy step stop lim i 0 i
| greedy_step lim i j n j' :
    lim <> Some 0 -> step i j -> Greedy step stop (option_map pred lim) j n j' ->
    Greedy step stop lim i (S n) j'.

(** [elem sep elem sep ...], as many elements as possible but at most [lim]; the separator after the
    last element is optional.  [n] elements, ending at [j]. *)
Inductive Alternation (elem sep : nat -> nat -> Prop) (no_elem no_sep : nat -> Prop)
  : option nat -> nat -> nat -> nat -> Prop :=
| alt_cap i : Alternation elem sep no_elem no_sep (Some 0) i 0 i
| alt_none lim i : lim <> Some 0 -> no_elem i -> Alternation elem sep no_elem no_sep lim i 0 i
| alt_last lim i j :
    lim <> Some 0 -> elem i j -> no_sep j -> Alternation elem sep no_elem no_sep lim i 1 j
| alt_more lim i j j' n j'' :
    lim <> Some 0 -> elem i j -> sep j j' ->
    Alternation elem sep no_elem no_sep (option_map pred lim) j' n j'' ->
    Alternation elem sep no_elem no_sep lim i (S n) j''.

(** Conditions attached to a unit ([set_cond]).  For a unit regex standing at item [i] of [w], what
    does the condition [c] say about item [t] (whose value is [x])?  A regex condition is a match of
    the regex on the text that starts at [t], seen as a fresh context. *)
Section CondObs.
  Variable k : kind.
  Variable G : env.

  Definition CondTrue (c : cond) (w : text) (i t : nat) (x : item) : Prop :=
    match c with
    | CEmpty => True
    | CFn f => f (cx k w i) (bo k w t - bo k w i, x) = Ok true
    | CRegex p => exists b j, Matches k G p (skipn t w) 0 b j
    end.
  Definition CondFalse (c : cond) (w : text) (i t : nat) (x : item) : Prop :=
    match c with
    | CEmpty => False
    | CFn f => f (cx k w i) (bo k w t - bo k w i, x) = Ok false
    | CRegex p => exists e, Fails k G p (skipn t w) 0 e
    end.
  Definition CondErr (c : cond) (w : text) (i t : nat) (x : item) (e : error) : Prop :=
    match c with
    | CEmpty => False
    | CFn f => f (cx k w i) (bo k w t - bo k w i, x) = Err e
    | CRegex _ => False
    end.

  (** Item [t] is taken / not taken / its condition raises an error. *)
  Definition Takes (u : neu) (c : cond) (w : text) (i t : nat) : Prop :=
    exists x, nth_error w t = Some x /\ is_match u x = true /\ CondTrue c w i t x.
  Definition Leaves (u : neu) (c : cond) (w : text) (i t : nat) : Prop :=
    length w <= t \/
    exists x, nth_error w t = Some x /\ (is_match u x = false \/ (is_match u x = true /\ CondFalse c w i t x)).
  Definition Raises (u : neu) (c : cond) (w : text) (i t : nat) (e : error) : Prop :=
    exists x, nth_error w t = Some x /\ is_match u x = true /\ CondErr c w i t x e.
End CondObs.

Definition below (lim : option nat) (n : nat) : Prop :=
  match lim with Some c => n < c | None => True end.

(** The items [i .. j-1] are taken and then the cap is reached or item [j] is not taken. *)
Definition RunTo (takes leaves : nat -> Prop) (lim : option nat) (i j : nat) : Prop :=
  i <= j /\ (forall m, i <= m -> m < j -> takes m) /\
  (lim = Some (j - i) \/ (below lim (j - i) /\ leaves j)).

(** The items [i .. t-1] are taken, the cap is not reached, and item [t] raises. *)
Definition RunRaises (takes raises : nat -> Prop) (lim : option nat) (i : nat) : Prop :=
  exists t, i <= t /\ (forall m, i <= m -> m < t -> takes m) /\ below lim (t - i) /\ raises t.

(** [min_length] of the unit is a lower bound for the width of the items it accepts. *)
Definition honest (k : kind) (u : neu) : Prop :=
  forall x, is_match u x = true -> min_length k u <= width k x.
