(** Syntax of parsers: one constructor per type that implements [Regex]/[Ctor]. *)

From Coq Require Import List Arith NArith ZArith Bool.
From Verif Require Import Base Text Context Neu.
Import ListNotations.

(** Values produced by the constructing mode.  Rust types are erased: spans, extracted text,
    pairs, [Vec]/arrays, [Option], numbers. *)
Inductive val : Type :=
| VUnit
| VNum (z : Z)
| VSpan (s : span)
| VText (t : text)
| VPair (a b : val)
| VList (l : list val)
| VNone
| VSome (a : val).

(** Parsers.  User closures are functions on the model context; they may move the cursor
    arbitrarily ([PFn], [PBuilder], [PDynThen]) or only look at it ([PBranch], [CFn]). *)
Inductive pat : Type :=
(* leaves: src/regex *)
| PEmpty                                            (* src/regex/empty.rs *)
| PFail                                             (* src/regex/fail.rs *)
| PStart                                            (* src/regex/anchor.rs:75-85 *)
| PEnd                                              (* src/regex/anchor.rs:176-186 *)
| PConsume (n : nat)                                (* src/regex/consume.rs:76-87 *)
| PConsumeAll                                       (* src/regex/consume.rs:173-180 *)
| PLit (l : text)                                   (* src/regex/literal.rs:104-114 *)
| PAssert (p : pat) (v : bool)                      (* src/regex/assert.rs:92-106 *)
| PFn (f : ctx -> res span * ctx)                   (* src/regex.rs:68-76 *)
| PBuilder (p : pat) (f : ctx -> span -> res pat * ctx)   (* src/regex/builder.rs:37-61 *)
| PLeaf (p : pat)                                   (* src/regex/adapter.rs: as_ctor/into_ctor adapters *)
(* unit regexes: src/neu *)
| POnce (u : neu) (c : cond)                        (* src/neu/once.rs:178-200 *)
| PMany1 (u : neu) (c : cond)                       (* src/neu/once.rs:372-403 *)
| POpt (u : neu) (c : cond)                         (* src/neu/opt.rs:188-211 *)
| PMany0 (u : neu) (c : cond)                       (* src/neu/opt.rs:384-416 *)
| PBetween (m : nat) (n : option nat) (u : neu) (c : cond)   (* src/neu/times.rs:216-257; None = usize::MAX *)
| PTimes (r : crange) (u : neu) (c : cond)          (* src/neu/times.rs:423-479 *)
| PNeuThen (u v : neu) (c : cond)                   (* src/neu/then.rs:196-223 *)
(* combinators: src/ctor *)
| PThen (p q : pat)                                 (* src/ctor/then.rs:211-252 *)
| PIfThen (p t q : pat)                             (* src/ctor/then.rs:445-512 *)
| POr (p q : pat)                                   (* src/ctor/or.rs *)
| PLongest (p q : pat)                              (* src/ctor/longest.rs *)
| PPat (p : pat)                                    (* src/ctor/pat.rs *)
| PPrefix (p pre : pat)                             (* src/ctor/affix.rs:396-437 *)
| PSuffix (p suf : pat)                             (* src/ctor/affix.rs:187-229 *)
| PEnclose (p op cl : pat)                          (* src/ctor/enclose.rs *)
| PSepOnce (p s q : pat)                            (* src/ctor/sep.rs:212-255 *)
| PSep (p s : pat) (min : nat) (skip : bool)        (* src/ctor/sep.rs:496-574 *)
| PSep2 (p s : pat) (m n : nat) (skip : bool)       (* src/ctor/sep.rs:776-864 *)
| PSepCollect (p s : pat) (min : nat) (skip : bool) (* src/ctor/sep.rs:1084-1174 *)
| PRepeat (p : pat) (r : crange)                    (* src/ctor/repeat.rs *)
| PRepeat2 (p : pat) (m n : nat)                    (* src/ctor/repeat2.rs *)
| PCollect (p : pat) (min : nat)                    (* src/ctor/collect.rs *)
| POption (p : pat)                                 (* src/ctor/opt.rs *)
| PBranch (t : ctx -> res bool) (p q : pat)         (* src/ctor/branch.rs *)
| PMap (p : pat) (f : val -> res val)               (* src/ctor/map.rs *)
| PDynThen (p : pat) (f : ctx -> val -> res pat * ctx)    (* src/ctor/dthen.rs *)
| PCtorFn (f : ctx -> res val * ctx)                (* src/ctor/adapter.rs:138-160 *)
| PChoice (e : error) (ltm : bool) (ps : list pat)  (* src/ctor/array.rs, vec.rs, slice.rs *)
| PPairChoice (e : error) (ltm : bool) (ps : list (pat * val))  (* same files, Pair* types *)
| PWrap (p : pat)                                   (* src/ctor.rs:139-291, src/ctor/adapter.rs:582-600: Rc, Arc, Box, Cell, Adapter *)
| PNoneP                                            (* src/regex.rs:226, src/ctor.rs: an [Option] parser holding None *)
| PRef (i : nat)                                    (* src/regex/rec.rs:168-182: handle of a recursive parser *)
| PLock (i : nat)                                   (* src/regex/rec.rs:45-59: handle of a sync recursive parser *)
(* conditions of unit regexes: src/neu/cond.rs *)
with cond : Type :=
| CEmpty                                            (* src/neu/cond.rs:67-74 *)
| CFn (f : ctx -> nat * item -> res bool)           (* src/neu/cond.rs:51-62 *)
| CRegex (p : pat).                                 (* src/neu/cond.rs:116-129 *)

(** The recursive parsers that handles refer to: src/regex/rec.rs:45-59, 168-182.  Entry [i] is the
    content of cell [i]: [None] before the cell is filled. *)
Definition env := list (option pat).

(** Dereference of a handle. *)
Definition env_get (G : env) (i : nat) : option pat := nth i G None.
