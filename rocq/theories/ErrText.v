(** The text of errors. *)

From Coq Require Import String Ascii Nat Decimal DecimalString.
From Verif Require Import Base.
Open Scope string_scope.

(** std: [usize] printed with [{}]: its decimal digits without leading zeros. *)
Definition show_usize (n : nat) : string := NilZero.string_of_uint (Nat.to_uint n).

(** src/err.rs:83-155 [Display for Error]. *)
Definition message (e : error) : string :=
  match e with
  | EFail => "Fail: always failed"
  | EAssertFalse => "AssertFalse: internal pattern match succeeded"
  | EAssertTrue => "AssertTrue: internal pattern match failed"
  | EConsume => "Consume: remaining data length is insufficient"
  | ESlice => "Slice: all slices failed to match"
  | ELiteral => "Literal: slice failed to match"
  | EAnchorEnd => "AnchorEnd: offset is not at the end"
  | EAnchorStart => "AnchorStart: offset is not at the beginning"
  | EMutex => "Mutex: mutex lock operation failed"
  | EOption => "Option: pattern is `None`, failed to match"
  | EFromStr => "FromStr: call `core::str::parse` failed"
  | ETryInto => "TryInto: call `TryInto::try_into` failed"
  | ESelectEq => "SelectEq: elements in the tuple are not equal"
  | ESelectNeq => "SelectNeq: elements in the tuple are equal"
  | EBounded => "Bounded: value out of bound"
  | ESepCollect => "SepCollect: number of matched patterns does not meet the requirement"
  | ECollect => "Collect: number of matched patterns does not meet the requirement"
  | ESeparate => "Separate: number of matched patterns does not meet the requirement"
  | ESeparate2 => "Separate2: number of matched patterns does not meet the requirement"
  | ERepeat => "Repeat: number of matched patterns does not meet the requirement"
  | ERepeat2 => "Repeat2: number of matched patterns does not meet the requirement"
  | ETimes => "Times: number of matched units does not meet the requirement"
  | EBetween => "Between: number of matched units does not meet the requirement"
  | EMany1 => "Many1: number of matched units does not meet the requirement"
  | EOnce => "Once: number of matched units does not meet the requirement"
  | ENeureThen => "NeureThen: unit failed to match"
  | EArray => "Array: all patterns failed to match"
  | EVector => "Vector: all patterns failed to match"
  | EPairArray => "PairArray: all patterns failed to match"
  | EPairVector => "PairVector: all patterns failed to match"
  | EPairSlice => "PairSlice: all patterns failed to match"
  | EOutOfBound => "offset out of bound"
  | EUtf8Error => "FromUtf8: call `core::str::from_utf8` failed"
  | EFromLeBytes => "FromLeBytes: need more bytes for given type"
  | EFromBeBytes => "FromBeBytes: need more bytes for given type"
  | EFromNeBytes => "FromNeBytes: need more bytes for given type"
  | EUid n => "Got error(id = " ++ show_usize n ++ ")"
  end.
