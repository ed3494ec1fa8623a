(** The zero-copy JSON parser of the benchmark bench/json.rs, as a grammar of the library.

    It is the parser of examples/json.rs (Json.v) spelled differently in three places: the sign, the
    place of a box in the number, and a box around the array.  The parts it shares word for word are
    those of Json.v. *)

From Coq Require Import List Arith NArith ZArith Bool.
From Verif Require Import Base Text Context Neu Syntax Macros Json.
Import ListNotations.
Local Open Scope N_scope.

(** bench/json.rs:132: [regex!((b'+', b'-'){0,1})]. *)
Definition z_sign : pat := regex_macro (MUnits [NChar 43; NChar 45]) (QBetween 0 1).
(** bench/json.rs:133-135: [sign.then(digit).then(dec.or(regex::empty()))]. *)
Definition z_numeral : pat := PThen (PThen z_sign j_digits) (POr j_dec PEmpty).

Section Grammar.
  (** bench/json.rs:175-181 [to_digit], as in Json.v: any function of the digits. *)
  Variable f64 : text -> val.

  (** bench/json.rs:136: [ctor::Adapter::dyn_box(num.pat()).try_map(&Self::to_digit)]. *)
  Definition z_num : pat :=
    PMap (PWrap (PPat z_numeral)) (fun v => match v with VText t => tagged 3 (f64 t) | _ => Err EFromStr end).
  (** bench/json.rs:155: [num.or(str.or(bool_t.or(bool_f.or(empty.or(ctor.clone())))))]; the other
      alternatives are those of examples/json.rs ([try_map(|v| Ok(..))] instead of [map(..)]). *)
  Definition z_scalar : pat := POr z_num (POr j_str (POr j_true (POr j_false (POr j_empty (PRef 0))))).
  (** bench/json.rs:156: [ctor::Adapter::rc(ele.suffix(ws).prefix(ws))]. *)
  Definition z_ele : pat := PWrap (PPrefix (PSuffix z_scalar j_ws) j_ws).
  (** bench/json.rs:158: [regex!((u8::is_ascii_alphabetic.or(u8::is_ascii_digit), b'_')+)]. *)
  Definition z_keychars : pat := regex_macro (MUnits [NOr NAsciiAlphabetic NAsciiDigit; NChar 95]) QPlus.
  (** bench/json.rs:159-160. *)
  Definition z_key : pat := PPrefix (PSuffix (PEnclose z_keychars j_quote j_quote) j_ws) j_ws.
  (** bench/json.rs:161: [key.sep_once(b":", ele.clone())]. *)
  Definition z_member : pat := PSepOnce z_key (PLit [58]) z_ele.
  (** bench/json.rs:162-163. *)
  Definition z_obj : pat :=
    PMap (PWrap (PEnclose (PSep z_member (PLit [44]) 1 true) (PLit [123]) (PLit [125]))) (tagged 5).
  (** bench/json.rs:165-166: boxed, unlike in examples/json.rs. *)
  Definition z_array : pat :=
    PMap (PWrap (PEnclose (PSep z_ele (PLit [44]) 1 true) (PLit [91]) (PLit [93]))) (tagged 4).
  (** bench/json.rs:130, 168: the cell of [rec_parser]. *)
  Definition z_env : env := [Some (PWrap (POr z_obj z_array))].
End Grammar.
