(** Where the error of a failing call comes from.

    [Reports m p e]: [p] itself produces the error [e] (as opposed to handing on the error of one of
    its parts).  [Passes m p m' q]: [p] hands on the errors of its part [q].  [Blame m p e]: some part
    of [p] reached by handing on reports [e].  Two modes: matching ([try_mat]) and constructing
    ([ctor_handler] and the methods built on it); a constructing parser only matches some of its
    parts (separators, delimiters, leaves).

    Errors of the parts that are not listed under [Passes] never reach the caller: the first
    alternative, the elements and separators of the repetitions, the parser under an optional or an
    assertion, the test of [if_then], the alternatives of the containers, the condition of a unit. *)

From Coq Require Import List Arith NArith Bool.
From Verif Require Import Base Text Context Neu Syntax Ctor CtorSpec.
Import ListNotations.

Inductive mode : Type := Matching | Constructing.

Section Blame.
  Variable G : env.
  (** Errors the handler may return. *)
  Variable H : error -> Prop.
  (** May the cursor be outside the text or inside a character? *)
  Variable lost : bool.

  (** The condition of a unit regex, if it has a closure or may be started outside the text. *)
  Definition cond_reports (c : cond) (e : error) : Prop :=
    match c with
    | CEmpty => False
    | CFn f => exists x y, f x y = Err e
    | CRegex _ => lost = true /\ e = EOutOfBound
    end.
  (** Units and literals look at the text at the cursor. *)
  Definition lost_reports (e : error) : Prop := lost = true /\ e = EOutOfBound.

  Inductive Reports : mode -> pat -> error -> Prop :=
  (* leaves and units *)
  | R_fail : Reports Matching PFail EFail
  | R_start : Reports Matching PStart EAnchorStart
  | R_end : Reports Matching PEnd EAnchorEnd
  | R_consume n : Reports Matching (PConsume n) EConsume
  | R_lit l : Reports Matching (PLit l) ELiteral
  | R_lit_lost l e : lost_reports e -> Reports Matching (PLit l) e
  | R_peek p : Reports Matching (PAssert p true) EAssertTrue
  | R_not p : Reports Matching (PAssert p false) EAssertFalse
  | R_fn f e c c' : f c = (Err e, c') -> Reports Matching (PFn f) e
  | R_builder p f e c s c' : f c s = (Err e, c') -> Reports Matching (PBuilder p f) e
  | R_once u c : Reports Matching (POnce u c) EOnce
  | R_once_lost u c e : lost_reports e -> Reports Matching (POnce u c) e
  | R_once_cond u c e : cond_reports c e -> Reports Matching (POnce u c) e
  | R_many1 u c : Reports Matching (PMany1 u c) EMany1
  | R_many1_lost u c e : lost_reports e -> Reports Matching (PMany1 u c) e
  | R_many1_cond u c e : cond_reports c e -> Reports Matching (PMany1 u c) e
  | R_opt_cond u c e : cond_reports c e -> Reports Matching (POpt u c) e
  | R_many0_cond u c e : cond_reports c e -> Reports Matching (PMany0 u c) e
  | R_between m n u c : Reports Matching (PBetween m n u c) EBetween
  | R_between_lost m n u c e : lost_reports e -> Reports Matching (PBetween m n u c) e
  | R_between_cond m n u c e : cond_reports c e -> Reports Matching (PBetween m n u c) e
  | R_times r u c : Reports Matching (PTimes r u c) ETimes
  | R_times_lost r u c e : lost_reports e -> Reports Matching (PTimes r u c) e
  | R_times_cond r u c e : cond_reports c e -> Reports Matching (PTimes r u c) e
  | R_neuthen u v c : Reports Matching (PNeuThen u v c) ENeureThen
  | R_neuthen_lost u v c e : lost_reports e -> Reports Matching (PNeuThen u v c) e
  | R_neuthen_cond u v c e : cond_reports c e -> Reports Matching (PNeuThen u v c) e
  (* the counting combinators, the branching closure, the containers and empty cells, in both modes *)
  | R_sep m p s mn skip : Reports m (PSep p s mn skip) ESeparate
  | R_sep2 m p s a b skip : Reports m (PSep2 p s a b skip) ESeparate2
  | R_sepcollect m p s mn skip : Reports m (PSepCollect p s mn skip) ESepCollect
  | R_repeat m p r : Reports m (PRepeat p r) ERepeat
  | R_repeat2 m p a b : Reports m (PRepeat2 p a b) ERepeat2
  | R_collect m p mn : Reports m (PCollect p mn) ECollect
  | R_branch m t p q e c : t c = Err e -> Reports m (PBranch t p q) e
  | R_choice m e ltm ps : Reports m (PChoice e ltm ps) e
  | R_pairchoice m e ltm ps : Reports m (PPairChoice e ltm ps) e
  | R_nonep m : Reports m PNoneP EOption
  | R_ref m i : env_get G i = None -> Reports m (PRef i) EOption
  | R_lock m i : env_get G i = None -> Reports m (PLock i) EOption
  (* closures that are only called when constructing *)
  | R_handler p e : leafy p -> H e -> Reports Constructing p e
  | R_pat_handler p e : H e -> Reports Constructing (PPat p) e
  | R_map p f e v : f v = Err e -> Reports Constructing (PMap p f) e
  | R_dynthen p f e c v c' : f c v = (Err e, c') -> Reports Constructing (PDynThen p f) e
  | R_ctorfn f e c c' : f c = (Err e, c') -> Reports Constructing (PCtorFn f) e.

  Inductive Passes : mode -> pat -> mode -> pat -> Prop :=
  | P_builder p f : Passes Matching (PBuilder p f) Matching p
  | P_built p f c s q c' : f c s = (Ok q, c') -> Passes Matching (PBuilder p f) Matching q
  | P_leaf p : Passes Matching (PLeaf p) Matching p
  | P_then1 m p q : Passes m (PThen p q) m p
  | P_then2 m p q : Passes m (PThen p q) m q
  | P_ifthen1 m p t q : Passes m (PIfThen p t q) m p
  | P_ifthen2 m p t q : Passes m (PIfThen p t q) m q
  | P_or m p q : Passes m (POr p q) m q
  | P_longest m p q : Passes m (PLongest p q) m q
  | P_pat m p : Passes m (PPat p) Matching p
  | P_prefix1 m p pre : Passes m (PPrefix p pre) Matching pre
  | P_prefix2 m p pre : Passes m (PPrefix p pre) m p
  | P_suffix1 m p suf : Passes m (PSuffix p suf) m p
  | P_suffix2 m p suf : Passes m (PSuffix p suf) Matching suf
  | P_enclose1 m p op cl : Passes m (PEnclose p op cl) Matching op
  | P_enclose2 m p op cl : Passes m (PEnclose p op cl) m p
  | P_enclose3 m p op cl : Passes m (PEnclose p op cl) Matching cl
  | P_seponce1 m p s q : Passes m (PSepOnce p s q) m p
  | P_seponce2 m p s q : Passes m (PSepOnce p s q) Matching s
  | P_seponce3 m p s q : Passes m (PSepOnce p s q) m q
  | P_branch1 m t p q : Passes m (PBranch t p q) m p
  | P_branch2 m t p q : Passes m (PBranch t p q) m q
  | P_map m p f : Passes m (PMap p f) m p
  | P_dynthen p f : Passes Constructing (PDynThen p f) Constructing p
  | P_dynbuilt p f c v q c' : f c v = (Ok q, c') -> Passes Constructing (PDynThen p f) Constructing q
  | P_wrap m p : Passes m (PWrap p) m p
  | P_ref m i p : env_get G i = Some p -> Passes m (PRef i) m p
  | P_lock m i p : env_get G i = Some p -> Passes m (PLock i) m p
  (* a leaf is matched, and the handler called with the match *)
  | P_construct p : leafy p -> Passes Constructing p Matching p.

  Inductive Blame : mode -> pat -> error -> Prop :=
  | blame_here m p e : Reports m p e -> Blame m p e
  | blame_part m p m' q e : Passes m p m' q -> Blame m' q e -> Blame m p e.
End Blame.
