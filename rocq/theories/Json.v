(** The JSON parser of examples/json.rs, as a grammar of the library, and what it should accept. *)

From Coq Require Import List Arith NArith ZArith Bool.
From Verif Require Import Base Text Context Neu Syntax.
Import ListNotations.
Local Open Scope N_scope.

(** ** The grammar: examples/json.rs:21-64.  The closure of [rec_parser] receives the handle [PRef 0]. *)

(** examples/json.rs:1-9 [enum JsonZero]: each constructor is a tag paired with its content. *)
Definition tagged (tag : Z) (v : val) : res val := Ok (VPair (VNum tag) v).

(** examples/json.rs:23: [u8::is_ascii_whitespace.many0()]. *)
Definition j_ws : pat := PMany0 NAsciiWhitespace CEmpty.
(** examples/json.rs:24-25: [neu!((b'+', b'-')).opt()] and [range(b'0'..=b'9').many1()]; [neu!((a, b))]
    is [never().or(a).or(b)] (src/macro.rs). *)
Definition j_sign : pat := POpt (NOr (NOr NNever (NChar 43)) (NChar 45)) CEmpty.
(** examples/json.rs:25: [range(b'0'..=b'9').many1()]. *)
Definition j_digits : pat := PMany1 (NRange (Incl 48) (Incl 57)) CEmpty.
(** examples/json.rs:26-27. *)
Definition j_dec : pat := PPat (PThen (PLit [46]) j_digits).
(** examples/json.rs:27: [sign.then(digit).then(dec.or(regex::empty()))]. *)
Definition j_numeral : pat := PThen (PThen j_sign j_digits) (POr j_dec PEmpty).

(** examples/json.rs:30-32: a backslash [then] one of carriage return, tab, newline, backslash, quote. *)
Definition j_escaped : neu := NOr (NOr (NOr (NOr (NOr NNever (NChar 13)) (NChar 9)) (NChar 10)) (NChar 92)) (NChar 34).
(** examples/json.rs:31: [b'\\'.then(escape)]. *)
Definition j_escape : pat := PNeuThen (NChar 92) j_escaped CEmpty.
(** examples/json.rs:33-39. *)
Definition j_chunk : pat := PMany1 (NNot (NChar 34)) (CRegex (PAssert j_escape false)).
(** examples/json.rs:33-39: [repeat(0..).pat()] of a chunk or an escape. *)
Definition j_body : pat := PRepeat (POr j_chunk j_escape) (CRange (Incl 0%nat) Unb).
(** examples/json.rs:40-41. *)
Definition j_quote : pat := PLit [34].
(** examples/json.rs:40-41: [str_val.enclose(..)], boxed, mapped to [JsonZero::Str]. *)
Definition j_str : pat := PMap (PWrap (PEnclose (PPat j_body) j_quote j_quote)) (tagged 2).

(** examples/json.rs:43-45. *)
Definition j_true : pat := PMap (PLit [116; 114; 117; 101]) (fun _ => tagged 1 (VNum 1)).
(** examples/json.rs:44. *)
Definition j_false : pat := PMap (PLit [102; 97; 108; 115; 101]) (fun _ => tagged 1 (VNum 0)).
(** examples/json.rs:45. *)
Definition j_empty : pat := PMap (PLit [101; 109; 112; 116; 121]) (fun _ => tagged 0 VUnit).

(** examples/json.rs:50-52. *)
Definition j_keychars : neu := NOr (NOr NNever (NOr NAsciiAlphabetic NAsciiDigit)) (NChar 95).
(** examples/json.rs:51-52: the key between quotes, with white space around. *)
Definition j_key : pat :=
  PPrefix (PSuffix (PEnclose (PMany1 j_keychars CEmpty) j_quote j_quote) j_ws) j_ws.

Section Grammar.
  (** examples/json.rs:67-73 [to_digit]: UTF-8 decoding and [parse::<f64>], which both accept every
      numeral of the grammar.  Floating-point values are not modelled: the decoding is any function. *)
  Variable f64 : text -> val.

  (** examples/json.rs:28: [num.pat().try_map(&Self::to_digit)], boxed. *)
  Definition j_num : pat :=
    PWrap (PMap (PPat j_numeral) (fun v => match v with VText t => tagged 3 (f64 t) | _ => Err EFromStr end)).
  (** examples/json.rs:47-48. *)
  Definition j_scalar : pat := POr j_num (POr j_str (POr j_true (POr j_false (POr j_empty (PRef 0))))).
  (** examples/json.rs:48: [ele.suffix(ws).prefix(ws)] behind an [Rc]. *)
  Definition j_ele : pat := PWrap (PPrefix (PSuffix j_scalar j_ws) j_ws).
  (** examples/json.rs:53-58. *)
  Definition j_member : pat := PSepOnce j_key (PLit [58]) j_ele.
  (** examples/json.rs:54-55. *)
  Definition j_obj : pat :=
    PMap (PWrap (PEnclose (PSep j_member (PLit [44]) 1 true) (PLit [123]) (PLit [125]))) (tagged 5).
  (** examples/json.rs:57-58. *)
  Definition j_array : pat := PMap (PEnclose (PSep j_ele (PLit [44]) 1 true) (PLit [91]) (PLit [93])) (tagged 4).
  (** examples/json.rs:60, src/regex/rec.rs:168-182: the cell holds the boxed parser. *)
  Definition j_env : env := [Some (PWrap (POr j_obj j_array))].
End Grammar.

(** ** The values and their spellings, independent of the grammar *)

Inductive json : Type :=
| JNull
| JBool (b : bool)
| JStr (s : text)
| JNum (s : text)
| JArr (l : list json)
| JObj (l : list (text * json)).

(** Runs of bytes of one class. *)
Definition all (f : item -> bool) (s : text) : Prop := forall x, In x s -> f x = true.
(** ASCII white space. *)
Definition spaces : text -> Prop := all (fun x => existsb (N.eqb x) [32; 9; 10; 12; 13]).
(** The decimal digits. *)
Definition dec_digit (x : item) : bool := (48 <=? x) && (x <=? 57).
(** The characters of a key: letters, digits and the underscore. *)
Definition key_char (x : item) : bool :=
  dec_digit x || ((97 <=? x) && (x <=? 122)) || ((65 <=? x) && (x <=? 90)) || (x =? 95).

(** An optional sign, digits, and optionally a point and digits. *)
Inductive Numeral : text -> Prop :=
| numeral sg ds fr :
    sg = [] \/ sg = [43] \/ sg = [45] ->
    ds <> [] -> all dec_digit ds ->
    fr = [] \/ (exists f, fr = 46 :: f /\ f <> [] /\ all dec_digit f) ->
    Numeral (sg ++ ds ++ fr).

(** What may stand between the quotes: any bytes but a bare quote, where a backslash together with a
    following carriage return, tab, newline, backslash or quote counts as one unit. *)
Definition escaped (x : item) : bool := existsb (N.eqb x) [13; 9; 10; 92; 34].
(** The text between the quotes. *)
Inductive Body : text -> Prop :=
| body_nil : Body []
| body_escape e s : escaped e = true -> Body s -> Body (92 :: e :: s)
| body_char c s : c <> 34 -> c <> 92 -> Body s -> Body (c :: s)
| body_backslash e s : escaped e = false -> Body (e :: s) -> Body (92 :: e :: s).

(** [Spell v s]: the bytes [s] are a spelling of the value [v].  White space may surround every key
    and every element; a comma may follow the last one. *)
Inductive Spell : json -> text -> Prop :=
| spell_null : Spell JNull [101; 109; 112; 116; 121]
| spell_true : Spell (JBool true) [116; 114; 117; 101]
| spell_false : Spell (JBool false) [102; 97; 108; 115; 101]
| spell_num s : Numeral s -> Spell (JNum s) s
| spell_str s : Body s -> Spell (JStr s) (34 :: s ++ [34])
| spell_arr l s : Elems l s -> Spell (JArr l) (91 :: s ++ [93])
| spell_obj l s : Members l s -> Spell (JObj l) (123 :: s ++ [125])
with Elems : list json -> text -> Prop :=
| elems_last v a s b c :
    spaces a -> Spell v s -> spaces b -> c = [] \/ c = [44] -> Elems [v] (a ++ s ++ b ++ c)
| elems_more v a s b l r :
    spaces a -> Spell v s -> spaces b -> Elems l r -> Elems (v :: l) (a ++ s ++ b ++ 44 :: r)
with Members : list (text * json) -> text -> Prop :=
| members_last key v m c : Member key v m -> c = [] \/ c = [44] -> Members [(key, v)] (m ++ c)
| members_more key v m l r : Member key v m -> Members l r -> Members ((key, v) :: l) (m ++ 44 :: r)
with Member : text -> json -> text -> Prop :=
| member key v a b c s d :
    key <> [] -> all key_char key -> spaces a -> spaces b -> spaces c -> Spell v s -> spaces d ->
    Member key v (a ++ 34 :: key ++ 34 :: b ++ 58 :: c ++ s ++ d).

(** The value the parser returns for a JSON value, given the decoding of numerals. *)
Fixpoint as_val (f64 : text -> val) (v : json) : val :=
  match v with
  | JNull => VPair (VNum 0) VUnit
  | JBool b => VPair (VNum 1) (VNum (if b then 1 else 0))
  | JStr s => VPair (VNum 2) (VText s)
  | JNum s => VPair (VNum 3) (f64 s)
  | JArr l => VPair (VNum 4) (VList (map (as_val f64) l))
  | JObj l => VPair (VNum 5) (VList (map (fun m => VPair (VText (fst m)) (as_val f64 (snd m))) l))
  end.

Scheme Spell_ind' := Minimality for Spell Sort Prop
  with Elems_ind' := Minimality for Elems Sort Prop
  with Members_ind' := Minimality for Members Sort Prop
  with Member_ind' := Minimality for Member Sort Prop.
Combined Scheme Spell_mutind from Spell_ind', Elems_ind', Members_ind', Member_ind'.
