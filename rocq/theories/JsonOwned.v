(** The JSON parser of bench/json.rs that owns its strings, as a grammar of the library. *)

From Coq Require Import List Arith NArith ZArith Bool.
From Verif Require Import Base Text Context Neu Syntax Maps Json.
Import ListNotations.
Local Open Scope N_scope.

(** bench/json.rs:54-56 [to_str]: [std::str::from_utf8] on the matched bytes.  The handler of [ctor] only
    gives texts; other values are an error here. *)
Definition o_to_str (v : val) : res val :=
  match v with VText l => match decode l with Some t => Ok (VText t) | None => Err EUtf8Error end | _ => Err EUtf8Error end.
(** bench/json.rs:86, 100: [map::from_str::<String>()]; [String::from_str] copies and never fails. *)
Definition o_string (v : val) : res val := Ok v.

(** bench/json.rs:62: [b'+'.or(b'-').opt()]. *)
Definition o_sign : pat := POpt (NOr (NChar 43) (NChar 45)) CEmpty.
(** bench/json.rs:65: [sign.then(digit).then(dec.or(regex::empty()))]. *)
Definition o_numeral : pat := PThen (PThen o_sign j_digits) (POr j_dec PEmpty).
(** bench/json.rs:73: the five characters, without the [never()] that [neu!] starts with. *)
Definition o_escaped : neu := NOr (NOr (NOr (NOr (NChar 13) (NChar 9)) (NChar 10)) (NChar 92)) (NChar 34).
(** bench/json.rs:74. *)
Definition o_escape : pat := PNeuThen (NChar 92) o_escaped CEmpty.
(** bench/json.rs:75-82: the first alternative of the body. *)
Definition o_chunk : pat := PMany1 (NNot (NChar 34)) (CRegex (PAssert o_escape false)).
(** bench/json.rs:76-82: [repeat(0..)] of a chunk or an escape. *)
Definition o_body : pat := PRepeat (POr o_chunk o_escape) (CRange (Incl 0%nat) Unb).
(** bench/json.rs:83-89: the three mappers stand between the quotes. *)
Definition o_str : pat :=
  PWrap (PEnclose (PMap (PMap (PMap (PPat o_body) o_to_str) o_string) (tagged 2)) j_quote j_quote).
(** bench/json.rs:98-102. *)
Definition o_key : pat :=
  PPrefix (PSuffix (PEnclose (PMap (PMap (PMany1 j_keychars CEmpty) o_to_str) o_string) j_quote j_quote) j_ws) j_ws.

Section Grammar.
  (** std: [parse::<f64>] on a numeral of the grammar, which it accepts; any function, as in Json.v. *)
  Variable f64 : text -> val.

  (** bench/json.rs:69 [map::from_str::<f64>()]. *)
  Definition o_f64 (v : val) : res val := match v with VText t => Ok (f64 t) | _ => Err EFromStr end.
  (** bench/json.rs:66-71. *)
  Definition o_num : pat := PWrap (PMap (PMap (PMap (PPat o_numeral) o_to_str) o_f64) (tagged 3)).
  (** bench/json.rs:95; the words are those of examples/json.rs:43-45, lines 91-93 here. *)
  Definition o_scalar : pat := POr o_num (POr o_str (POr j_true (POr j_false (POr j_empty (PRef 0))))).
  (** bench/json.rs:96. *)
  Definition o_ele : pat := PWrap (PPrefix (PSuffix o_scalar j_ws) j_ws).
  (** bench/json.rs:103. *)
  Definition o_member : pat := PSepOnce o_key (PLit [58]) o_ele.
  (** bench/json.rs:104-105. *)
  Definition o_obj : pat :=
    PWrap (PMap (PEnclose (PSep o_member (PLit [44]) 1 true) (PLit [123]) (PLit [125])) (tagged 5)).
  (** bench/json.rs:107-108. *)
  Definition o_array : pat := PMap (PEnclose (PSep o_ele (PLit [44]) 1 true) (PLit [91]) (PLit [93])) (tagged 4).
  (** bench/json.rs:60, 110, src/regex/rec.rs:168-182: the cell holds the boxed parser. *)
  Definition o_env : env := [Some (PWrap (POr o_obj o_array))].
End Grammar.

(** ** The values: those of Json.v with strings of characters *)

(** The same value with every string written in UTF-8. *)
Fixpoint in_utf8 (v : json) : json :=
  match v with
  | JStr t => JStr (flat_map utf8 t)
  | JArr l => JArr (map in_utf8 l)
  | JObj l => JObj (map (fun m => (fst m, in_utf8 (snd m))) l)
  | _ => v
  end.
(** The strings in a value. *)
Fixpoint strings (v : json) : list text :=
  match v with
  | JStr t => [t]
  | JArr l => flat_map strings l
  | JObj l => flat_map (fun m => strings (snd m)) l
  | _ => []
  end.
(** All strings consist of Unicode scalar values. *)
Definition unicode_strings (v : json) : Prop := forall t, In t (strings v) -> valid_text KStr t = true.
