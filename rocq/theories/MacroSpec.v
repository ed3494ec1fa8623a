(** What the macros are documented to mean (src/macro.rs:1-95, 268-285). *)

From Coq Require Import List Arith NArith Bool.
From Verif Require Import Base Text Neu Syntax Macros UnitProps.
Import ListNotations.

(** The set of items a class denotes; [UnitSet] (UnitProps.v) is the set of a unit. *)
Definition ClassSet (c : cls) (x : item) : Prop :=
  match c with
  | MNonSpace => ~ UnitSet NWhitespace x
  | MSpace => UnitSet NWhitespace x
  | MAny => x <> 10%N
  | MRanges _ false l => exists a b, In (a, b) l /\ (a <= x <= b)%N
  | MRanges _ true l => forall a b, In (a, b) l -> ~ (a <= x <= b)%N
  | MChars false l => In x l
  | MChars true l => ~ In x l
  | MUnits l => exists u, In u l /\ UnitSet u x
  | MChar c => x = c
  end.

(** The least and the largest number of items of a quantifier. *)
Definition quant_lo (q : quant) : nat :=
  match q with QStar | QOpt => 0 | QPlus | QNone => 1 | QExact m | QAtLeast m | QBetween m _ => m end.
Definition quant_hi (q : quant) : option nat :=
  match q with QStar | QPlus | QAtLeast _ => None | QOpt | QNone => Some 1 | QExact m => Some m | QBetween _ n => Some n end.
Definition quant_error (q : quant) : error :=
  match q with QPlus => EMany1 | QNone => EOnce | _ => EBetween end.

(** A string body: [Body l r] says that [l] is the body at the start of [l ++ r], up to the first
    quote that is not part of an escape, or to the end of the text.  An escape is the prefix
    followed by an item of the escape set; a prefix followed by anything else is an ordinary item. *)
Section Body.
  Variables (quote prefix : item) (escapable : item -> Prop).

  Definition StartsEscape (t : text) : Prop :=
    exists x r, t = prefix :: x :: r /\ escapable x.

  Inductive Body : text -> text -> Prop :=
  | Body_end : Body [] []
  | Body_quote r : ~ StartsEscape (quote :: r) -> Body [] (quote :: r)
  | Body_escape x l r : escapable x -> Body l r -> Body (prefix :: x :: l) r
  | Body_item c l r : c <> quote -> ~ StartsEscape (c :: l ++ r) -> Body l r -> Body (c :: l) r.
End Body.
