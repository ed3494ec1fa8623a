(** Units built from stateful units: [Prefix] inside [Or], [And], [Not] and inside another [Prefix].
    The state of such a unit is the tree with the current contents of all cells. *)

From Coq Require Import List Arith NArith Bool.
From Verif Require Import Base Text Context Neu Syntax Regex PrefixUnit.
Import ListNotations.

(** A unit as the program writes it. *)
Inductive udesc : Type :=
| UPure (u : neu)                        (* a unit without state *)
| UPrefix (p : udesc) (n : nat) (u : udesc)  (* src/neu/prefix.rs:254-260 [prefix_cnt(p, n, u)] *)
| UNot (a : udesc)                       (* src/neu/op_not.rs:134-136 [not] *)
| UOr (a b : udesc)                      (* src/neu/op_or.rs [or] *)
| UAnd (a b : udesc).                    (* src/neu/op_and.rs [and] *)

(** The unit at run time: as above, with the two cells of every [Prefix] (src/neu/prefix.rs:13-22). *)
Inductive snode : Type :=
| SPure (u : neu)
| SPrefix (p u : snode) (cells : pstate)
| SNot (a : snode)
| SOr (a b : snode)
| SAnd (a b : snode).

(** Construction: src/neu/prefix.rs:76-84 [Prefix::new]. *)
Fixpoint fresh (d : udesc) : snode :=
  match d with
  | UPure u => SPure u
  | UPrefix p n u => SPrefix (fresh p) (fresh u) (prefix_new n)
  | UNot a => SNot (fresh a)
  | UOr a b => SOr (fresh a) (fresh b)
  | UAnd a b => SAnd (fresh a) (fresh b)
  end.

(** [is_match]: src/neu/prefix.rs:119-140, op_not.rs:105-109, op_or.rs:148-152, op_and.rs:149-153.
    The operands of [||] and [&&] are evaluated from the left and only if needed. *)
Fixpoint smatch (x : item) (t : snode) : bool * snode :=
  match t with
  | SPure u => (is_match u x, t)
  | SPrefix p u c =>
      if p_value c then
        if p_count c =? 0 then let (b, u) := smatch x u in (b && p_value c, SPrefix p u c)
        else let (b, p) := smatch x p in
             let v := b && p_value c in (v, SPrefix p u (PS (p_count c - 1) v))
      else (false, t)
  | SNot a => let (b, a) := smatch x a in (negb b, SNot a)
  | SOr a b =>
      let (r, a) := smatch x a in
      if r then (true, SOr a b) else let (r, b) := smatch x b in (r, SOr a b)
  | SAnd a b =>
      let (r, a) := smatch x a in
      if r then let (r, b) := smatch x b in (r, SAnd a b) else (false, SAnd a b)
  end.

(** [min_length]: src/neu/prefix.rs:142-144 (0), op_not.rs:111-113, op_or.rs:154-156, op_and.rs:155-157. *)
Fixpoint smin (k : kind) (t : snode) : nat :=
  match t with
  | SPure u => min_length k u
  | SPrefix _ _ _ => 0
  | SNot a => smin k a
  | SOr a b => Nat.min (smin k a) (smin k b)
  | SAnd a b => Nat.max (smin k a) (smin k b)
  end.

(** [scan_n] of Regex.v (src/neu/times.rs:235-248, 457-470) with a stateful unit. *)
Fixpoint scan_n_st {S} (m : sunit S) (chk : nat * item -> res bool) (more : nat -> bool)
    (cnt : nat) (beg : option nat) (l : list (nat * item)) (s : S) : res (nat * option nat * option nat) * S :=
  match l with
  | [] => (Ok (cnt, beg, None), s)
  | x :: l' =>
      if more cnt then
        let (b, s) := m (snd x) s in
        if b then
          match chk x with
          | Ok true => scan_n_st m chk more (Datatypes.S cnt) (match beg with None => Some (fst x) | b => b end) l' s
          | Ok false => (Ok (cnt, beg, Some (fst x)), s)
          | Err e => (Err e, s)
          | Panic => (Panic, s)
          | OOF => (OOF, s)
          end
        else (Ok (cnt, beg, Some (fst x)), s)
      else (Ok (cnt, beg, Some (fst x)), s)
  end.

Section Counted.
  Context {S : Type}.
  Variable m : sunit S.
  (** [min_length] of the unit in its current state. *)
  Variable ml : kind -> S -> nat.
  Variable chk : check_t.

  (** src/neu/times.rs:224-257 [Between::try_parse]. *)
  Definition between_st (lo : nat) (hi : option nat) : M (ctx * S) span :=
    l <- onc (reads peek) ;;
    rem <- onc remaining ;;
    q <- (fun x => (Ok (ml (c_kind (fst x)) (snd x)), x)) ;;
    if lo * q <=? rem then
      r <- (fun x => let (r, s) := scan_n_st m (chk (fst x))
                       (fun cnt => match hi with Some n => cnt <? n | None => true end) 0 None l (snd x)
                     in (r, (fst x, s))) ;;
      let '(cnt, beg, en) := r in
      if lo <=? cnt then
        len <- lift (calc_length beg en rem) ;; onc (new_span_inc len)
      else fail EBetween
    else fail EBetween.

  (** src/neu/times.rs:430-479 [Times::try_parse]. *)
  Definition times_st (r : crange) : M (ctx * S) span :=
    l <- onc (reads peek) ;;
    rem <- onc remaining ;;
    q <- (fun x => (Ok (ml (c_kind (fst x)) (snd x)), x)) ;;
    if match r_lo r with Incl a => a * q | Excl a => (a - 1) * q | Unb => 0 end <=? rem then
      t <- (fun x => let (t, s) := scan_n_st m (chk (fst x)) (times_more r) 0 None l (snd x) in (t, (fst x, s))) ;;
      let '(cnt, beg, en) := t in
      if crange_contains r cnt then
        len <- lift (calc_length beg en rem) ;; onc (new_span_inc len)
      else fail ETimes
    else fail ETimes.

  (** src/neu/opt.rs:196-211 [Opt::try_parse]. *)
  Definition opt_st : M (ctx * S) span :=
    o <- onc offset ;;
    rem <- onc remaining ;;
    ml <- catch (onc (reads peek)) ;;
    match ml with
    | inl (x :: l') =>
        b <- ask m (snd x) ;;
        if b : bool then
          b <- onc (reads (fun c => chk c x)) ;;
          if b : bool then
            n <- lift (calc_length (Some (fst x)) (next_off l') rem) ;;
            onc (new_span_inc n)
          else ret (Span o 0)
        else ret (Span o 0)
    | _ => ret (Span o 0)
    end.
End Counted.
