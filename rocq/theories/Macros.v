(** The class macros [neu!], [regex!] and the string-body macro [escape_strval!]: what they expand to.

    A macro call is represented by its parsed tokens; [charize!] (an external crate turning a
    one-letter identifier into a [char] literal) is the identity here. *)

From Coq Require Import List Arith NArith Bool.
From Verif Require Import Base Text Neu Syntax.
Import ListNotations.

(** The class part of a call.  The flag [neg] is the leading [^] inside the brackets, [lit] tells
    literals (['a' - 'z']) from identifiers ([a - z]). *)
Inductive cls : Type :=
| MNonSpace                                        (* src/macro.rs:153-155: [^] *)
| MAny                                             (* src/macro.rs:156-158: [.] *)
| MRanges (lit neg : bool) (l : list (item * item)) (* src/macro.rs:159-208: [[a-z A-Z]] *)
| MChars (neg : bool) (l : list item)              (* src/macro.rs:211-246: [[a b c]] *)
| MUnits (l : list neu)                            (* src/macro.rs:134-142, 247-255: [(x, y, z)] *)
| MChar (c : item)                                 (* src/macro.rs:128-133, 257-262: a single character *)
| MSpace.                                          (* src/macro.rs:143-145: nothing, [regex!] only ([neu!()] names a function that does not exist) *)

(** src/macro.rs:136-139 and the other blocks of this form: [never().or(x).or(y) ...]. *)
Definition alts (us : list neu) : neu := fold_left NOr us NNever.

(** src/macro.rs:180-186, 196-202: [range(l..=r)]. *)
Definition closed_range (lr : item * item) : neu := NRange (Incl (fst lr)) (Incl (snd lr)).

(** src/macro.rs:165-167, 171-173: a single range of identifiers is [range(l..succ r)], with
    [char::from_u32(r as u32 + 1).unwrap()] (it cannot panic on the last letter of a range that is
    an identifier: U+D7FF and U+10FFFF are not identifier characters). *)
Definition succ_range (lr : item * item) : neu := NRange (Incl (fst lr)) (Excl (snd lr + 1)%N).

(** src/macro.rs: the forms with a leading [^], which negate the set. *)
Definition negate (neg : bool) (u : neu) : neu := if neg then NNot u else u.

(** src/macro.rs:151-266 ([neu!]), 119-145 ([regex!(@r ..)]). *)
Definition class_macro (c : cls) : neu :=
  match c with
  | MNonSpace => NNot NWhitespace
  | MAny => NWild
  | MRanges lit neg [lr] => negate neg (if lit then closed_range lr else succ_range lr)
  | MRanges _ neg l => negate neg (alts (map closed_range l))
  | MChars neg l => negate neg (alts (map NEqual l))
  | MUnits l => alts l
  | MChar c => NEqual c
  | MSpace => NWhitespace
  end.

(** The repetition part of a [regex!] call, src/macro.rs:98-117. *)
Inductive quant : Type :=
| QStar | QOpt | QPlus | QExact (m : nat) | QAtLeast (m : nat) | QBetween (m n : nat) | QNone.

(** src/macro.rs:98-117; [usize::MAX] as an upper bound is "no bound". *)
Definition regex_macro (c : cls) (q : quant) : pat :=
  match q with
  | QStar => PMany0 (class_macro c) CEmpty
  | QOpt => POpt (class_macro c) CEmpty
  | QPlus => PMany1 (class_macro c) CEmpty
  | QExact m => PBetween m (Some m) (class_macro c) CEmpty
  | QAtLeast m => PBetween m None (class_macro c) CEmpty
  | QBetween m n => PBetween m (Some n) (class_macro c) CEmpty
  | QNone => POnce (class_macro c) CEmpty
  end.

(** src/macro.rs:286-301: [escape_strval!(quote, prefix, escape)]. *)
Definition escape_strval (quote prefix : item) (escape : neu) : pat :=
  PPat (PRepeat (POr (PMany1 (NNot (NChar quote)) (CRegex (PAssert (PNeuThen (NChar prefix) escape CEmpty) false)))
                     (PNeuThen (NChar prefix) escape CEmpty)) (CRange (Incl 0) Unb)).
