(** The method surface: the fluent calls of [NeuOp], [NeuIntoRegexOps], [CtorOps], the projections of
    the pair combinators and the operator [!], as the nodes they build. *)

From Coq Require Import List Arith NArith Bool.
From Verif Require Import Base Text Context Neu Syntax Regex Ctor Maps.
Import ListNotations.

(** ** Units: src/neu.rs:661-703 [NeuOp] *)

(** src/neu.rs:681-687 [or]. *)
Definition u_or (u v : neu) : neu := NOr u v.
(** src/neu.rs:689-695 [and]. *)
Definition u_and (u v : neu) : neu := NAnd u v.
(** src/neu.rs:697-702 [not]; the operator [!] on units (src/neu/units.rs:8-46, src/neu/op_or.rs:41,
    op_and.rs:42, equal.rs:10, range.rs:23, bool.rs:10 and 70) builds the same node. *)
Definition u_not (u : neu) : neu := NNot u.

(** ** Quantifiers: src/neu.rs:716-789 [NeuIntoRegexOps] *)

(** src/neu.rs:725, 762-764 [between]; [COUNT_MAX] (714) is [None]. *)
Definition q_between (m : nat) (n : option nat) (u : neu) : pat := PBetween m n u CEmpty.
(** src/neu.rs:727-729 [count]. *)
Definition q_count (m : nat) (u : neu) : pat := q_between m (Some m) u.
(** src/neu.rs:731-733 [at_least]. *)
Definition q_at_least (m : nat) (u : neu) : pat := q_between m None u.
(** src/neu.rs:735-737 [at_most]. *)
Definition q_at_most (n : nat) (u : neu) : pat := q_between 0 (Some n) u.
(** src/neu.rs:782-788 [times]: [debug_assert!(!range.is_empty())], then the node.  This is a build
    with debug assertions; without them there is no check. *)
Definition q_times (r : crange) (u : neu) : res pat :=
  if crange_is_empty r then Panic else Ok (PTimes r u CEmpty).

(** ** Patterns: src/ctor.rs:293-893 [CtorOps] *)

(** src/ctor.rs:843-849 [skip_ws], 852-858 [skip_ascii_ws]. *)
Definition m_skip_ws (p : pat) : pat := PSuffix p (PMany0 NWhitespace CEmpty).
(** src/ctor.rs:852-858 [skip_ascii_ws]. *)
Definition m_skip_ascii_ws (p : pat) : pat := PSuffix p (PMany0 NAsciiWhitespace CEmpty).
(** src/ctor.rs:878-884 [skip_ws_leading], 887-893 [skip_ascii_ws_leading]. *)
Definition m_skip_ws_leading (p : pat) : pat := PPrefix p (PMany0 NWhitespace CEmpty).
(** src/ctor.rs:887-893. *)
Definition m_skip_ascii_ws_leading (p : pat) : pat := PPrefix p (PMany0 NAsciiWhitespace CEmpty).
(** src/ctor.rs:752-757 [if_else]: the pattern is the branch taken when the test holds. *)
Definition m_if_else (p : pat) (test : ctx -> res bool) (other : pat) : pat := PBranch test p other.
(** src/ctor.rs:299-301 [map]. *)
Definition m_map (p : pat) (f : val -> val) : pat := mapped p (func_mapper 0 f).
(** src/ctor/map.rs:210-219 [map_to]: a new mapper in the place of the old one.  The receiver is a
    [Map], so it is given by its two fields. *)
Definition m_map_to (p : pat) (old new : mapper) : pat := mapped p new.

(** src/ctor/then.rs:197-209 (431-443 for [IfThen], sep.rs:199-211 for [SepOnce], dthen.rs:185-197):
    [_0], [_1], [_eq] wrap the pair combinator. *)
Definition m_0 (p : pat) : pat := mapped p (select0 0).
(** src/ctor/then.rs:201-204 [_1]. *)
Definition m_1 (p : pat) : pat := mapped p (select1 0).
(** src/ctor/then.rs:205-209 [_eq]. *)
Definition m_eq (eqb : val -> val -> bool) (p : pat) : pat := mapped p (select_eq eqb 0).

(** src/regex.rs:860-888 [impl_not_for_regex!]: [!p] on a pattern is [regex::not(p)]
    (src/regex/assert.rs:145-147), a negative assertion. *)
Definition m_not (p : pat) : pat := PAssert p false.
