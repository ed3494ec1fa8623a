(** Vocabulary for replacing parts of a parser by equivalent ones. *)

From Coq Require Import List Arith NArith Bool.
From Verif Require Import Base Text Context Neu Syntax Regex Ctor Api Obs.
Import ListNotations.

(** [p.try_parse(&mut ctx)] called directly, without the policies of the context running first.  [held]
    are the synchronized recursive parsers that are running already. *)
Definition Answers (G : env) (held : list nat) (pols : list pat) (p : pat) (c : ctx) (r : res span) (c' : ctx) : Prop :=
  exists n, parse n G held pols p c = (r, c') /\ r <> OOF.
(** The same for [p.construct(&mut ctx, &mut h)]. *)
Definition Constructs {S} (h : handler S) (G : env) (held : list nat) (pols : list pat) (p : pat) (c : ctx) (s : S)
    (r : res val) (c' : ctx) (s' : S) : Prop :=
  exists n, construct h n G held pols p (c, s) = (r, (c', s')) /\ r <> OOF.

(** Two results that agree up to the error. *)
Inductive Alike (E : error -> error -> Prop) {A} : res A -> res A -> Prop :=
| alike_ok a : Alike E (Ok a) (Ok a)
| alike_err e e' : E e e' -> Alike E (Err e) (Err e')
| alike_panic : Alike E Panic Panic.
(** No difference in the error; any difference. *)
Definition same_error (e e' : error) : Prop := e = e'.
Definition any_error (e e' : error) : Prop := True.

(** Equivalent when matching: whatever one answers in some context, the other answers, up to the error,
    leaving the cursor at the same place.  (Hence one diverges where the other does.) *)
Definition SameMatch (E : error -> error -> Prop) (G : env) (pols : list pat) (p q : pat) : Prop :=
  forall held c c',
  (forall r, Answers G held pols p c r c' -> exists r', Alike E r r' /\ Answers G held pols q c r' c') /\
  (forall r', Answers G held pols q c r' c' -> exists r, Alike E r r' /\ Answers G held pols p c r c').

(** Equivalent when constructing, for a given handler: the same values, cursors and handler states. *)
Definition SameBuild {S} (E : error -> error -> Prop) (h : handler S) (G : env) (pols : list pat) (p q : pat) : Prop :=
  forall held c s c' s',
  (forall r, Constructs h G held pols p c s r c' s' -> exists r', Alike E r r' /\ Constructs h G held pols q c s r' c' s') /\
  (forall r', Constructs h G held pols q c s r' c' s' -> exists r, Alike E r r' /\ Constructs h G held pols p c s r c' s').

(** The parsers a closure returns. *)
Inductive Given (R : pat -> pat -> Prop) : res pat * ctx -> res pat * ctx -> Prop :=
| given_ok p q c : R p q -> Given R (Ok p, c) (Ok q, c)
| given_other r : Given R r r.
(** The conditions of unit regexes. *)
Inductive CondNode (R : pat -> pat -> Prop) : cond -> cond -> Prop :=
| cn_same c : CondNode R c c
| cn_regex p q : R p q -> CondNode R (CRegex p) (CRegex q).

(** The same combinator over corresponding parts. *)
Inductive Node (R : pat -> pat -> Prop) : pat -> pat -> Prop :=
| nd_assert p p' v : R p p' -> Node R (PAssert p v) (PAssert p' v)
| nd_builder p p' f f' : R p p' -> (forall c s, Given R (f c s) (f' c s)) -> Node R (PBuilder p f) (PBuilder p' f')
| nd_leaf p p' : R p p' -> Node R (PLeaf p) (PLeaf p')
| nd_once u c c' : CondNode R c c' -> Node R (POnce u c) (POnce u c')
| nd_many1 u c c' : CondNode R c c' -> Node R (PMany1 u c) (PMany1 u c')
| nd_opt u c c' : CondNode R c c' -> Node R (POpt u c) (POpt u c')
| nd_many0 u c c' : CondNode R c c' -> Node R (PMany0 u c) (PMany0 u c')
| nd_between m n u c c' : CondNode R c c' -> Node R (PBetween m n u c) (PBetween m n u c')
| nd_times r u c c' : CondNode R c c' -> Node R (PTimes r u c) (PTimes r u c')
| nd_neuthen u v c c' : CondNode R c c' -> Node R (PNeuThen u v c) (PNeuThen u v c')
| nd_then p p' q q' : R p p' -> R q q' -> Node R (PThen p q) (PThen p' q')
| nd_ifthen p p' t t' q q' : R p p' -> R t t' -> R q q' -> Node R (PIfThen p t q) (PIfThen p' t' q')
| nd_or p p' q q' : R p p' -> R q q' -> Node R (POr p q) (POr p' q')
| nd_longest p p' q q' : R p p' -> R q q' -> Node R (PLongest p q) (PLongest p' q')
| nd_pat p p' : R p p' -> Node R (PPat p) (PPat p')
| nd_prefix p p' q q' : R p p' -> R q q' -> Node R (PPrefix p q) (PPrefix p' q')
| nd_suffix p p' q q' : R p p' -> R q q' -> Node R (PSuffix p q) (PSuffix p' q')
| nd_enclose p p' o o' c c' : R p p' -> R o o' -> R c c' -> Node R (PEnclose p o c) (PEnclose p' o' c')
| nd_seponce p p' s s' q q' : R p p' -> R s s' -> R q q' -> Node R (PSepOnce p s q) (PSepOnce p' s' q')
| nd_sep p p' s s' m k : R p p' -> R s s' -> Node R (PSep p s m k) (PSep p' s' m k)
| nd_sep2 p p' s s' m n k : R p p' -> R s s' -> Node R (PSep2 p s m n k) (PSep2 p' s' m n k)
| nd_sepcollect p p' s s' m k : R p p' -> R s s' -> Node R (PSepCollect p s m k) (PSepCollect p' s' m k)
| nd_repeat p p' r : R p p' -> Node R (PRepeat p r) (PRepeat p' r)
| nd_repeat2 p p' m n : R p p' -> Node R (PRepeat2 p m n) (PRepeat2 p' m n)
| nd_collect p p' m : R p p' -> Node R (PCollect p m) (PCollect p' m)
| nd_option p p' : R p p' -> Node R (POption p) (POption p')
| nd_branch t p p' q q' : R p p' -> R q q' -> Node R (PBranch t p q) (PBranch t p' q')
| nd_map p p' f f' : R p p' -> (forall v, f v = f' v) -> Node R (PMap p f) (PMap p' f')
| nd_dynthen p p' f f' : R p p' -> (forall c v, Given R (f c v) (f' c v)) -> Node R (PDynThen p f) (PDynThen p' f')
| nd_choice e l ps ps' : Forall2 R ps ps' -> Node R (PChoice e l ps) (PChoice e l ps')
| nd_pairchoice e l ps ps' : Forall2 (fun a b => R (fst a) (fst b) /\ snd a = snd b) ps ps' ->
    Node R (PPairChoice e l ps) (PPairChoice e l ps')
| nd_wrap p p' : R p p' -> Node R (PWrap p) (PWrap p').

(** [Rewritten B p q]: [q] is [p] with any number of parts, at any depth, replaced according to [B];
    parts include conditions of unit regexes and the parsers that user closures return. *)
Inductive Rewritten (B : pat -> pat -> Prop) : pat -> pat -> Prop :=
| rw_same p : Rewritten B p p
| rw_here p q : B p q -> Rewritten B p q
| rw_inside p q : Node (Rewritten B) p q -> Rewritten B p q.

(** Two environments whose recursive parsers are pairwise equivalent: [Same q p p'] is read in the
    environment [q]. *)
Definition SameCells (Same : env -> pat -> pat -> Prop) (G G' : env) : Prop :=
  forall i, match env_get G i, env_get G' i with
            | Some p, Some p' => Same G p p' /\ Same G' p p'
            | None, None => True
            | _, _ => False
            end.

(** A parser that consumes one piece of text starting at the cursor, and does not move when it fails. *)
Definition Steady (G : env) (p : pat) : Prop :=
  forall held c r c', Answers G held [] p c r c' ->
  match r with
  | Ok s => sbeg s = c_off c /\ c' = at_off (c_off c + slen s) c
  | Err _ => c' = c
  | _ => True
  end.

(** The parsers that are steady by construction: no longest-match containers, no lists with
    [skip = false], no dynamic parsers; a user closure used as a parser must be steady itself.
    [whole] says so of every cell of an environment. *)
Inductive solid : pat -> Prop :=
| so_empty : solid PEmpty
| so_fail : solid PFail
| so_start : solid PStart
| so_end : solid PEnd
| so_consume n : solid (PConsume n)
| so_consume_all : solid PConsumeAll
| so_lit l : solid (PLit l)
| so_assert p v : solid p -> solid (PAssert p v)
| so_fn f : (forall c, match f c with
                       | (Ok s, c') => sbeg s = c_off c /\ c' = at_off (c_off c + slen s) c
                       | (Err _, c') => c' = c
                       | _ => True
                       end) -> solid (PFn f)
| so_leaf p : solid p -> solid (PLeaf p)
| so_once u c : solid (POnce u c)
| so_many1 u c : solid (PMany1 u c)
| so_opt u c : solid (POpt u c)
| so_many0 u c : solid (PMany0 u c)
| so_between m n u c : solid (PBetween m n u c)
| so_times r u c : solid (PTimes r u c)
| so_neuthen u v c : solid (PNeuThen u v c)
| so_then p q : solid p -> solid q -> solid (PThen p q)
| so_ifthen p t q : solid p -> solid t -> solid q -> solid (PIfThen p t q)
| so_or p q : solid p -> solid q -> solid (POr p q)
| so_longest p q : solid p -> solid q -> solid (PLongest p q)
| so_pat p : solid p -> solid (PPat p)
| so_prefix p q : solid p -> solid q -> solid (PPrefix p q)
| so_suffix p q : solid p -> solid q -> solid (PSuffix p q)
| so_enclose p o c : solid p -> solid o -> solid c -> solid (PEnclose p o c)
| so_seponce p s q : solid p -> solid s -> solid q -> solid (PSepOnce p s q)
| so_sep p s m : solid p -> solid s -> solid (PSep p s m true)
| so_sep2 p s m n : solid p -> solid s -> solid (PSep2 p s m n true)
| so_sepcollect p s m : solid p -> solid s -> solid (PSepCollect p s m true)
| so_repeat p r : solid p -> solid (PRepeat p r)
| so_repeat2 p m n : solid p -> solid (PRepeat2 p m n)
| so_collect p m : solid p -> solid (PCollect p m)
| so_option p : solid p -> solid (POption p)
| so_branch t p q : solid p -> solid q -> solid (PBranch t p q)
| so_map p f : solid p -> solid (PMap p f)
| so_choice e ps : (forall p, In p ps -> solid p) -> solid (PChoice e false ps)
| so_pairchoice e ps : (forall p, In p (map fst ps) -> solid p) -> solid (PPairChoice e false ps)
| so_wrap p : solid p -> solid (PWrap p)
| so_nonep : solid PNoneP
| so_ref i : solid (PRef i)
| so_lock i : solid (PLock i).
Definition whole (G : env) : Prop := forall i p, env_get G i = Some p -> solid p.
