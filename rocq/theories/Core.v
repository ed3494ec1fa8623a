(** Which parsers, contexts and closures the refinement theorems range over.

    [core p]: [p] is built from the combinators of the library with well-behaved user closures.
    What is left out, each time because the code itself misbehaves there (see the [_refuted]
    theorems): [PConsume] on [str] (may stop inside a character), the longest-match containers
    (wrong cursor), separators with [skip = false] (cursor past the span), sync recursive handles
    (self-deadlock); and [PDynThen]/[PCtorFn], which have no matching mode ([unimplemented!]). *)

From Coq Require Import List Arith NArith Bool.
From Verif Require Import Base Text Context Neu Syntax Regex TextProofs Spec.
Import ListNotations.

Section Core.
  Variable k : kind.
  Variable G : env.
  Variable sk : text -> nat -> nat.
  Notation cx := (cx k).
  Notation sp := (sp k).

  (** Skippers move forward, stay in the text, and skip everything skippable at once. *)
  Definition skipper : Prop :=
    (forall w i, i <= length w -> i <= sk w i /\ sk w i <= length w) /\
    (forall w i x, i <= length w -> i <= x -> x <= sk w i -> sk w x = sk w i).

  (** A closure used as a parser succeeds on a piece of text at or after the cursor and moves the
      cursor to its end, or fails and leaves the cursor alone. *)
  Definition lawful_fn (f : ctx -> res span * ctx) : Prop :=
    forall w i, i <= length w ->
      (exists b j, f (cx w i) = (Ok (sp w b j), cx w j) /\ i <= b /\ b <= j /\ j <= length w) \/
      (exists e, f (cx w i) = (Err e, cx w i)).

  (** A closure that builds the next parser always returns one, does not move the cursor before
      the match it was given, and does not look at how much skippable text follows that match. *)
  Definition lawful_builder (f : ctx -> span -> res pat * ctx) : Prop :=
    forall w b j x, b <= j -> j <= length w -> j <= x -> x <= sk w j ->
      exists q m m',
        f (cx w j) (sp w b j) = (Ok q, cx w m) /\ f (cx w x) (sp w b j) = (Ok q, cx w m') /\
        b <= m /\ m <= length w /\ b <= m' /\ m' <= length w /\ sk w m' = sk w m.

  (** A closure that only decides returns [Ok] or [Err]. *)
  Definition decides {A} (r : res A) : Prop :=
    match r with Ok _ | Err _ => True | Panic | OOF => False end.

  (** Every match of [p] starts where [p] was started. *)
  Definition starts_here (p : pat) : Prop :=
    forall w i b j, Peg k G sk w p i (OK b j) -> b = i.

  Inductive core : pat -> Prop :=
  | core_empty : core PEmpty
  | core_fail : core PFail
  | core_start : core PStart
  | core_end : core PEnd
  | core_consume n : k = KBytes -> core (PConsume n)
  | core_consume_all : core PConsumeAll
  | core_lit l : core (PLit l)
  | core_assert p v : core p -> core (PAssert p v)
  | core_fn f : lawful_fn f -> core (PFn f)
  | core_builder p f :
      core p -> lawful_builder f -> (forall c s q c', f c s = (Ok q, c') -> core q) ->
      core (PBuilder p f)
  | core_leaf p : core p -> core (PLeaf p)
  | core_once u c : core_cond c -> core (POnce u c)
  | core_many1 u c : core_cond c -> core (PMany1 u c)
  | core_opt u c : core_cond c -> core (POpt u c)
  | core_many0 u c : core_cond c -> core (PMany0 u c)
  | core_between m n u c : core_cond c -> core (PBetween m n u c)
  | core_times r u c : core_cond c -> core (PTimes r u c)
  | core_neuthen u v c : core_cond c -> core (PNeuThen u v c)
  | core_then p q : core p -> core q -> core (PThen p q)
  | core_ifthen p t q : core p -> core t -> core q -> core (PIfThen p t q)
  | core_or p q : core p -> core q -> core (POr p q)
  | core_longest p q :
      core p -> core q -> starts_here p -> starts_here q -> core (PLongest p q)
  | core_pat p : core p -> core (PPat p)
  | core_prefix p q : core p -> core q -> core (PPrefix p q)
  | core_suffix p q : core p -> core q -> core (PSuffix p q)
  | core_enclose p o c : core p -> core o -> core c -> core (PEnclose p o c)
  | core_seponce p s q : core p -> core s -> core q -> core (PSepOnce p s q)
  | core_sep p s mn : core p -> core s -> core (PSep p s mn true)
  | core_sep2 p s m n : core p -> core s -> core (PSep2 p s m n true)
  | core_sepcollect p s mn : core p -> core s -> core (PSepCollect p s mn true)
  | core_repeat p r : core p -> core (PRepeat p r)
  | core_repeat2 p m n : core p -> core (PRepeat2 p m n)
  | core_collect p mn : core p -> core (PCollect p mn)
  | core_option p : core p -> core (POption p)
  | core_branch t p q : (forall c, decides (t c)) -> core p -> core q -> core (PBranch t p q)
  | core_map p f : core p -> core (PMap p f)
  | core_choice e ps : Forall core ps -> core (PChoice e false ps)
  | core_pairchoice e ps : Forall core (map fst ps) -> core (PPairChoice e false ps)
  | core_wrap p : core p -> core (PWrap p)
  | core_nonep : core PNoneP
  | core_ref i : core (PRef i)
  with core_cond : cond -> Prop :=
  | core_cempty : core_cond CEmpty
  | core_cfn f : (forall c x, decides (f c x)) -> core_cond (CFn f)
  | core_cregex p : core p -> core_cond (CRegex p).

  (** Every recursive parser that a handle can reach is [core]. *)
  Definition core_env : Prop := forall i p, env_get G i = Some p -> core p.

  (** The policies of the context implement the skipper: a plain context skips nothing; a policy
      context runs its policy before each match, and that policy always succeeds and moves the
      cursor to the skipped position. *)
  Definition implements (pols : list pat) : Prop :=
    match pols with
    | [] => forall w i, sk w i = i
    | r :: rest =>
        (forall n held w i, i <= length w ->
           (exists c, parse n G held rest r (cx w i) = (OOF, c)) \/
           (exists s, parse n G held rest r (cx w i) = (Ok s, cx w (sk w i)))) /\
        (forall w i, i <= length w -> exists n, forall m held, n <= m ->
           exists s, parse m G held rest r (cx w i) = (Ok s, cx w (sk w i)))
    end.
End Core.

(** The identity skipper of a plain context. *)
Definition no_skip : text -> nat -> nat := fun _ i => i.
