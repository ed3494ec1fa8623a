(** The two recursive parsers of the documentation of [rec_parser] (src/regex/rec.rs), and their notations. *)

From Coq Require Import List Arith NArith ZArith Bool.
From Verif Require Import Base Text Context Neu Syntax.
Import ListNotations.
Local Open Scope N_scope.

(** ** Nested brackets around a letter: src/regex/rec.rs:17-43 *)

(** src/regex/rec.rs:28: [u8::is_ascii_lowercase.once()]. *)
Definition br_letter : pat := POnce NAsciiLowercase CEmpty.
(** src/regex/rec.rs:30-31: [ctor.clone().or(re)]. *)
Definition br_inner : pat := POr (PRef 0) br_letter.
(** src/regex/rec.rs:27-34, 168-182: the cell holds the boxed parser. *)
Definition br_env : env :=
  [Some (PWrap (POr (PEnclose br_inner (PLit [123]) (PLit [125])) (PEnclose br_inner (PLit [91]) (PLit [93]))))].

(** A lower-case letter inside one or more pairs of brackets. *)
Inductive Nested : text -> item -> Prop :=
| nested_curly x : 97 <= x <= 122 -> Nested [123; x; 125] x
| nested_square x : 97 <= x <= 122 -> Nested [91; x; 93] x
| nested_in_curly s x : Nested s x -> Nested (123 :: s ++ [125]) x
| nested_in_square s x : Nested s x -> Nested (91 :: s ++ [93]) x.

(** ** Elements: src/regex/rec.rs:116-165 *)

Section Xml.
  (** [neu::alphabetic()]: [char::is_alphabetic], an arbitrary predicate here. *)
  Variable letter : item -> bool.

  (** src/regex/rec.rs:130-132: [neu::alphabetic().many0().map(|v: &str| v.to_string())]. *)
  Definition x_name : pat := PMap (PMany0 (NFn letter) CEmpty) (fun v => Ok v).
  (** src/regex/rec.rs:133: [alpha.enclose("<", ">")]. *)
  Definition x_open : pat := PEnclose x_name (PLit [60]) (PLit [62]).
  (** src/regex/rec.rs:134: [alpha.enclose("</", ">")]. *)
  Definition x_close : pat := PEnclose x_name (PLit [60; 47]) (PLit [62]).
  (** src/regex/rec.rs:135: [alpha.enclose("<", "/>").map(Xml::Enclose)]; the enum is a tag with its content. *)
  Definition x_single : pat := PMap (PEnclose x_name (PLit [60]) (PLit [47; 62])) (fun v => Ok (VPair (VNum 1) v)).
  (** std: equality of strings. *)
  Definition same_text (a b : text) : bool := if list_eq_dec N.eq_dec a b then true else false.
  (** src/regex/rec.rs:136-142: the names must agree. *)
  Definition x_element (v : val) : res val :=
    match v with
    | VPair (VPair (VText l) c) (VText r) => if same_text l r then Ok (VPair (VNum 0) (VPair (VText l) c)) else Err (EUid 0)
    | _ => Err (EUid 0)
    end.
  (** src/regex/rec.rs:144: [s.then(ctor.clone()).then(e).try_map(m).or(c)]. *)
  Definition x_item : pat := POr (PMap (PThen (PThen x_open (PRef 0)) x_close) x_element) x_single.
  (** src/regex/rec.rs:144, 168-182: [.repeat(1..)], boxed in the cell. *)
  Definition x_env : env := [Some (PWrap (PRepeat x_item (CRange (Incl 1%nat) Unb)))].
End Xml.

(** The values: src/regex/rec.rs:124-127 [enum Xml]. *)
Inductive xml : Type :=
| Element (name : text) (child : list xml)
| Single (name : text).
(** Their notation. *)
Fixpoint written (x : xml) : text :=
  match x with
  | Element n c => 60 :: n ++ 62 :: flat_map written c ++ 60 :: 47 :: n ++ [62]
  | Single n => 60 :: n ++ [47; 62]
  end.
(** The elements the parser can return: names of letters; a name with children is not empty and has some. *)
Fixpoint proper (letter : item -> bool) (x : xml) : bool :=
  match x with
  | Element n c =>
      forallb letter n && negb (match n with [] => true | _ => false end) &&
      negb (match c with [] => true | _ => false end) && forallb (proper letter) c
  | Single n => forallb letter n
  end.
(** The value returned for an element. *)
Fixpoint xml_val (x : xml) : val :=
  match x with
  | Element n c => VPair (VNum 0) (VPair (VText n) (VList (map xml_val c)))
  | Single n => VPair (VNum 1) (VText n)
  end.
