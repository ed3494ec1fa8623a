(** The mappers of src/map.rs, on the erased values of Syntax.v.

    A mapper has a size ([out_size]) and a function on values.  Rust's types make a mapper inapplicable to
    values of another shape; the model answers [Panic] for those. *)

From Coq Require Import List Arith NArith ZArith Bool.
From Verif Require Import Base Text Context Neu Syntax Regex Ctor Api.
Import ListNotations.

(** src/map.rs:5-12 [trait FallibleMap]. *)
Record mapper : Type := Mapper { out_size : nat; try_map : val -> res val }.

(** src/map.rs:14-21: a function returning a [Result] is a mapper; [size] is [size_of] its output. *)
Definition fn_mapper (size : nat) (f : val -> res val) : mapper := Mapper size f.
(** src/map.rs:34-46 [FuncMapper], [mapper]. *)
Definition func_mapper (size : nat) (f : val -> val) : mapper := Mapper size (fun v => Ok (f v)).

(** src/map.rs:57-66 [Select0]. *)
Definition select0 (size : nat) : mapper :=
  Mapper size (fun v => match v with VPair a _ => Ok a | _ => Panic end).
(** src/map.rs:77-86 [Select1]. *)
Definition select1 (size : nat) : mapper :=
  Mapper size (fun v => match v with VPair _ b => Ok b | _ => Panic end).
(** src/map.rs:97-113 [SelectEq]; [eqb] is the [PartialEq] of the components. *)
Definition select_eq (eqb : val -> val -> bool) (size : nat) : mapper :=
  Mapper size (fun v => match v with VPair a b => if eqb a b then Ok v else Err ESelectEq | _ => Panic end).
(** src/map.rs:124-140 [SelectNeq]; [!=] is the negation of [==] (the default method of [PartialEq]). *)
Definition select_neq (eqb : val -> val -> bool) (size : nat) : mapper :=
  Mapper size (fun v => match v with VPair a b => if negb (eqb a b) then Ok v else Err ESelectNeq | _ => Panic end).

(** src/map.rs:665-704 [Bounded]; [leb] and [ltb] are the [<=] and [<] of a [PartialOrd]. *)
Definition bounded (leb ltb : val -> val -> bool) (lo hi : val) (size : nat) : mapper :=
  Mapper size (fun v => if leb lo v && ltb v hi then Ok v else Err ESelectEq).

(** src/map.rs:748-814 [WithDefault]. *)
Definition with_default (f : val) (m : mapper) : mapper :=
  Mapper (out_size m)
    (fun v => match try_map m v with Ok x => Ok x | Err _ => Ok f | Panic => Panic | OOF => OOF end).

(** src/map.rs:816-870 [FixedSize]. *)
Definition fixed_size (n : nat) : mapper := Mapper n (fun v => Ok v).

(** ** Integers *)

(** A primitive integer type: its size in bytes and whether it is signed. *)
Record ity : Type := ITy { i_size : nat; i_signed : bool }.
(** The types of the instances at src/map.rs:558-599 (i8 u8 i16 u16 i32 u32 i64 u64 i128 u128 and, on a
    64-bit target, isize usize).  f32 and f64 are not modelled as numbers: their decoders are those of u32
    and u64 applied to the bit pattern ([from_le_bytes] is [from_bits] of the integer's). *)
Definition int_types : list ity :=
  [ITy 1 true; ITy 1 false; ITy 2 true; ITy 2 false; ITy 4 true; ITy 4 false; ITy 8 true; ITy 8 false;
   ITy 16 true; ITy 16 false].

(** The range of a type. *)
Definition i_min (t : ity) : Z := if i_signed t then (- 2 ^ (8 * Z.of_nat (i_size t) - 1))%Z else 0%Z.
(** std: [MAX] of an integer type. *)
Definition i_max (t : ity) : Z :=
  if i_signed t then (2 ^ (8 * Z.of_nat (i_size t) - 1) - 1)%Z else (2 ^ (8 * Z.of_nat (i_size t)) - 1)%Z.
(** The numbers of a type. *)
Definition in_type (t : ity) (z : Z) : bool := ((i_min t <=? z) && (z <=? i_max t))%Z.

(** std: [from_le_bytes]: read the bytes as an unsigned number and reinterpret it in the type. *)
Fixpoint le_value (l : text) : Z :=
  match l with [] => 0%Z | b :: l' => (Z.of_N b + 256 * le_value l')%Z end.
(** std: an unsigned number read in two's complement. *)
Definition reinterpret (t : ity) (z : Z) : Z :=
  if in_type t z then z else (z - 2 ^ (8 * Z.of_nat (i_size t)))%Z.
(** std: [from_le_bytes] (called at src/map.rs:522). *)
Definition std_from_le (t : ity) (l : text) : Z := reinterpret t (le_value l).
(** std: [from_be_bytes]. *)
Definition std_from_be (t : ity) (l : text) : Z := reinterpret t (le_value (rev l)).

(** src/map.rs:510-556 [impl_from_bytes!]: the first element of [chunks_exact(size)], decoded.  [e] is
    the decoder's error. *)
Definition from_bytes (dec : ity -> text -> Z) (e : error) (t : ity) (l : text) : res Z :=
  if i_size t <=? length l then Ok (dec t (firstn (i_size t) l)) else Err e.
(** src/map.rs:512-525 (and 526-555): the decoder as a mapper on byte strings. *)
Definition bytes_mapper (dec : ity -> text -> Z) (e : error) (t : ity) : mapper :=
  Mapper (i_size t)
    (fun v => match v with
              | VText l => match from_bytes dec e t l with
                           | Ok z => Ok (VNum z) | Err e => Err e | Panic => Panic | OOF => OOF
                           end
              | _ => Panic
              end).
(** src/map.rs:511-525, 619-621 [from_le_bytes]. *)
Definition from_le_bytes : ity -> mapper := bytes_mapper std_from_le EFromLeBytes.
(** src/map.rs:526-540, 641-643 [from_be_bytes]. *)
Definition from_be_bytes : ity -> mapper := bytes_mapper std_from_be EFromBeBytes.
(** src/map.rs:541-555, 649-651 [from_ne_bytes]; [big] is the endianness of the target. *)
Definition from_ne_bytes (big : bool) : ity -> mapper :=
  bytes_mapper (if big then std_from_be else std_from_le) EFromNeBytes.

(** std: [<int>::from_str_radix]: the digits, most significant first, with a checked multiplication and
    a checked addition (subtraction for negative numbers). *)
Fixpoint read_digits (t : ity) (radix : N) (neg : bool) (acc : Z) (l : text) : option Z :=
  match l with
  | [] => Some acc
  | c :: l' =>
      match digit_value c with
      | Some d =>
          if (d <? radix)%N then
            let m := (acc * Z.of_N radix)%Z in
            let a := if neg then (m - Z.of_N d)%Z else (m + Z.of_N d)%Z in
            if in_type t m && in_type t a then read_digits t radix neg a l' else None
          else None
      | None => None
      end
  end.
(** The sign: ['+'] is accepted everywhere, ['-'] only for signed types; a lone sign is an error. *)
Definition parse_int (t : ity) (radix : N) (l : text) : option Z :=
  match l with
  | [] => None
  | c :: l' =>
      if (c =? 43)%N then match l' with [] => None | _ => read_digits t radix false 0 l' end
      else if (c =? 45)%N && i_signed t then match l' with [] => None | _ => read_digits t radix true 0 l' end
      else read_digits t radix false 0 l
  end.
(** src/map.rs:260-346 [FromStrRadix]; std panics for a radix outside [2..36]. *)
Definition from_str_radix (t : ity) (radix : N) : mapper :=
  Mapper (i_size t)
    (fun v => match v with
              | VText l => if ((2 <=? radix) && (radix <=? 36))%N
                           then match parse_int t radix l with Some z => Ok (VNum z) | None => Err EFromStr end
                           else Panic
              | _ => Panic
              end).
(** src/map.rs:165-184 [FromStr] at an integer type: std's [parse] is [from_str_radix] at 10. *)
Definition from_str (t : ity) : mapper :=
  Mapper (i_size t)
    (fun v => match v with
              | VText l => match parse_int t 10 l with Some z => Ok (VNum z) | None => Err EFromStr end
              | _ => Panic
              end).
(** src/map.rs:246-258 [TryIntoMapper] between integer types. *)
Definition try_into (t : ity) : mapper :=
  Mapper (i_size t)
    (fun v => match v with VNum z => if in_type t z then Ok (VNum z) else Err ETryInto | _ => Panic end).
(** src/map.rs:209-221 [IntoMapper] between integer types (only defined where it cannot fail). *)
Definition into (t : ity) : mapper := Mapper (i_size t) (fun v => Ok v).

(** ** UTF-8 *)

Definition cont (b : N) : bool := ((0x80 <=? b) && (b <=? 0xBF))%N.
(** std: [core::str::from_utf8]: the decoder of well-formed UTF-8 (Unicode table 3-7). *)
Fixpoint decode (l : list N) : option text :=
  match l with
  | [] => Some []
  | a :: r =>
      if (a <? 0x80)%N then option_map (cons a) (decode r)
      else match r with
      | [] => None
      | b :: r1 =>
          if ((0xC2 <=? a) && (a <=? 0xDF))%N then
            if cont b then option_map (cons ((a - 0xC0) * 0x40 + (b - 0x80))%N) (decode r1) else None
          else match r1 with
          | [] => None
          | c :: r2 =>
              if ((0xE0 <=? a) && (a <=? 0xEF))%N then
                if (cont b && cont c && (negb (a =? 0xE0) || (0xA0 <=? b)) && (negb (a =? 0xED) || (b <=? 0x9F)))%N
                then option_map (cons (((a - 0xE0) * 0x40 + (b - 0x80)) * 0x40 + (c - 0x80))%N) (decode r2)
                else None
              else match r2 with
              | [] => None
              | d :: r3 =>
                  if ((0xF0 <=? a) && (a <=? 0xF4))%N then
                    if (cont b && cont c && cont d && (negb (a =? 0xF0) || (0x90 <=? b)) && (negb (a =? 0xF4) || (b <=? 0x8F)))%N
                    then option_map (cons ((((a - 0xF0) * 0x40 + (b - 0x80)) * 0x40 + (c - 0x80)) * 0x40 + (d - 0x80))%N) (decode r3)
                    else None
                  else None
              end
          end
      end
  end.
(** src/map.rs:371-389 [FromUtf8], for [&str] and [String]; [size] is the size of the output type. *)
Definition from_utf8 (size : nat) : mapper :=
  Mapper size
    (fun v => match v with
              | VText l => match decode l with Some t => Ok (VText t) | None => Err EUtf8Error end
              | _ => Panic
              end).

(** src/ctor.rs:370 [p.try_map(m)]. *)
Definition mapped (p : pat) (m : mapper) : pat := PMap p (try_map m).
