(** The programs of README.md and bench/: the e-mail address parser (README.md:41-64 and
    bench/regex_nocap.rs:55-78 in matching mode, bench/regex_cap.rs:70-87 in constructing mode), the
    colour parser (bench/nom_cap.rs:87-100) and the first example of README.md (21-31). *)

From Coq Require Import List Arith NArith Bool.
From Verif Require Import Base Text Context Neu Syntax Maps Macros Methods.
Import ListNotations.

(** README.md:43, bench/regex_cap.rs:71: [neu::range('a'..='z')]. *)
Definition e_letter : neu := NRange (Incl 97%N) (Incl 122%N).
(** README.md:44, bench/regex_cap.rs:72: [neu::digit(10)]. *)
Definition e_number : neu := NDigit 10.
(** README.md:45, bench/regex_cap.rs:73: [regex!((alpha, num, '_', '.', '+', '-')+)]. *)
Definition e_name : pat :=
  regex_macro (MUnits [e_letter; e_number; NChar 95%N; NChar 46%N; NChar 43%N; NChar 45%N]) QPlus.
(** README.md:46-47, bench/regex_cap.rs:74-75: [regex_cond(not(".".then('.'.not().many0()).then(end())))]. *)
Definition e_cond : cond :=
  CRegex (PAssert (PThen (PThen (PLit [46%N]) (PMany0 (u_not (NChar 46%N)) CEmpty)) PEnd) false).
(** src/neu/cond.rs:19-25, src/neu/times.rs:191-203: [set_cond] on a [between] regex. *)
Definition with_cond (p : pat) (c : cond) : pat :=
  match p with PBetween m n u _ => PBetween m n u c | _ => p end.
(** README.md:48-53: [alpha.or(num).or('.').or('-').at_most::<256>().set_cond(cond)]. *)
Definition e_domain : pat :=
  with_cond (q_at_most 256 (u_or (u_or (u_or e_letter e_number) (NChar 46%N)) (NChar 45%N))) e_cond.
(** README.md:58, bench/regex_cap.rs:79: [neu!((alpha, '.')).between::<2, 6>()]. *)
Definition e_post : pat := q_between 2 (Some 6) (class_macro (MUnits [e_letter; NChar 46%N])).
(** README.md:54-60: [start().then(name).sep_once("@", domain.sep_once(".", post)).then(end())]. *)
Definition email_match : pat :=
  PThen (PSepOnce (PThen PStart e_name) (PLit [64%N]) (PSepOnce e_domain (PLit [46%N]) e_post)) PEnd.

(** bench/regex_cap.rs:76-78: [neu!((letter, number, '.', '-')).at_most::<256>().set_cond(cond)]. *)
Definition e_domain_cap : pat :=
  with_cond (q_at_most 256 (class_macro (MUnits [e_letter; e_number; NChar 46%N; NChar 45%N]))) e_cond.
(** bench/regex_cap.rs:82: [|(v1, (v2, v3))| Ok((v1, v2, v3))]; a tuple of three is a list of three. *)
Definition triple (v : val) : res val :=
  match v with VPair v1 (VPair v2 v3) => Ok (VList [v1; v2; v3]) | _ => Panic end.
(** bench/regex_cap.rs:80-83: [name.sep_once("@", domain.sep_once(".", post)).try_map(..)
    .enclose(start(), end())]. *)
Definition email_ctor : pat :=
  PEnclose (PMap (PSepOnce e_name (PLit [64%N]) (PSepOnce e_domain_cap (PLit [46%N]) e_post)) triple) PStart PEnd.

(** bench/nom_cap.rs:87-89: [('0'..':').contains(c) || ('A'..'G').contains(c)], a closure used as a unit. *)
Definition is_hex_digit (c : item) : bool :=
  bounds_contain (Incl 48%N) (Excl 58%N) c || bounds_contain (Incl 65%N) (Excl 71%N) c.
(** bench/nom_cap.rs:92-93: [is_hex_digit.count::<2>().try_map(from_str_radix::<u8>(16))]. *)
Definition c_hex : pat := mapped (q_count 2 (NFn is_hex_digit)) (from_str_radix (ITy 1 false) 16).
(** bench/nom_cap.rs:96: [|(red, (green, blue))| Color { red, green, blue }]; the struct is the list of
    its fields.  The other shapes do not occur. *)
Definition to_color (v : val) : val :=
  match v with VPair r (VPair g b) => VList [r; g; b] | _ => v end.
(** bench/nom_cap.rs:94-97. *)
Definition color : pat := PPrefix (m_map (PThen c_hex (PThen c_hex c_hex)) to_color) (PLit [35%N]).

(** README.md:23-30: [regex!(['0' - '9']+).try_map(from_str::<i32>()).then(ascii_alphabetic().many1())]. *)
Definition year : pat := mapped (regex_macro (MRanges true false [(48, 57)]%N) QPlus) (from_str (ITy 4 true)).
(** README.md:23-30: the year, then the name. *)
Definition year_name : pat := PThen year (PMany1 NAsciiAlphabetic CEmpty).
