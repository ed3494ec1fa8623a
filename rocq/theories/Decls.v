(** The programs of tests/11_policy.rs ([use] declarations) and tests/10_wrap.rs (fields of a struct);
    both run on a context that skips white space. *)

From Coq Require Import List Arith NArith ZArith Bool.
From Verif Require Import Base Text Context Neu Syntax Maps Macros Methods.
Import ListNotations.

(** tests/11_policy.rs:41-45: [char::is_ascii_alphabetic.or('_').once().then(char::is_ascii_alphanumeric.or('_').many0()).pat()]. *)
Definition d_first : neu := u_or (NFn is_ascii_alpha) (NChar 95%N).
(** tests/11_policy.rs:41-45: [char::is_ascii_alphanumeric.or('_')]. *)
Definition d_rest : neu := u_or (NFn is_ascii_alnum) (NChar 95%N).
(** tests/11_policy.rs:41-45: the identifier. *)
Definition d_ident : pat := PPat (PThen (POnce d_first CEmpty) (PMany0 d_rest CEmpty)).
(** tests/11_policy.rs:46: [ident.sep("::").with_skip(true)]; [sep] asks for at least one
    (src/ctor/sep.rs:423). *)
Definition d_path : pat := PSep d_ident (PLit [58; 58]%N) 1 true.
(** tests/11_policy.rs:47: [path.then("*".opt()).prefix("use").suffix(";")]. *)
Definition d_use : pat := PSuffix (PPrefix (PThen d_path (POption (PLit [42]%N))) (PLit [117; 115; 101]%N)) (PLit [59]%N).
(** tests/11_policy.rs:52: [use_parser.collect::<_, Vec<_>>()]; [collect] asks for at least one
    (src/ctor/collect.rs:125). *)
Definition d_uses : pat := PCollect d_use 1.
(** tests/11_policy.rs:50, tests/10_wrap.rs:75-77: [skip_before(neu::whitespace().many0())]. *)
Definition d_policy : list pat := [PMany0 NWhitespace CEmpty].

(** tests/10_wrap.rs:53-56: the letters of a name; [ident = unit.many1()]. *)
Definition f_unit : neu := u_or (u_or NAsciiAlphabetic NAsciiAlphanumeric) (NChar 95%N).
(** tests/10_wrap.rs:56: [unit.many1()]. *)
Definition f_ident : pat := PMany1 f_unit CEmpty.
(** tests/10_wrap.rs:57: [ascii_alphabetic().or('_').once().then(ident).pat()]. *)
Definition f_ty : pat := PPat (PThen (POnce (u_or NAsciiAlphabetic (NChar 95%N)) CEmpty) f_ident).
(** tests/10_wrap.rs:58-67: the three layers.  The enumeration [Ty] is a list of one to three names;
    [into_dyn_rc] only boxes the parser (src/ctor/into.rs, src/ctor/adapter.rs:582-600). *)
Definition f_layer0 : pat := PMap f_ty (fun v => Ok (VList [v])).
(** tests/10_wrap.rs:59-63. *)
Definition f_layer1 : pat :=
  PMap (PWrap (PThen f_ty (PEnclose f_ty (PLit [60]%N) (PLit [62]%N))))
    (fun v => match v with VPair a b => Ok (VList [a; b]) | _ => Panic end).
(** tests/10_wrap.rs:64-67. *)
Definition f_layer2 : pat :=
  PMap (PWrap (PThen f_ty (PEnclose (PThen f_ty (PEnclose f_ty (PLit [60]%N) (PLit [62]%N))) (PLit [60]%N) (PLit [62]%N))))
    (fun v => match v with VPair a (VPair b c) => Ok (VList [a; b; c]) | _ => Panic end).
(** tests/10_wrap.rs:68: [ident.sep_once(":", layer2.or(layer1.or(layer0)))]. *)
Definition f_field : pat := PSepOnce f_ident (PLit [58]%N) (POr f_layer2 (POr f_layer1 f_layer0)).
(** tests/10_wrap.rs:69-73: a public and a private field; the struct [Field] is the list of its name,
    its type and the flag (as a number). *)
Definition f_make (public : bool) (v : val) : res val :=
  match v with VPair n t => Ok (VList [n; t; VNum (if public then 1%Z else 0%Z)]) | _ => Panic end.
(** tests/10_wrap.rs:69-72. *)
Definition f_public : pat := PMap (PPrefix f_field (PLit [112; 117; 98]%N)) (f_make true).
(** tests/10_wrap.rs:73. *)
Definition f_private : pat := PMap f_field (f_make false).
(** tests/10_wrap.rs:74: [public.or(private).sep(",")]; trailing separators are skipped by default
    (src/ctor/sep.rs:417-426). *)
Definition f_fields : pat := PSep (POr f_public f_private) (PLit [44]%N) 1 true.
