(** Specification of constructing mode: the value a parser builds, over item positions.

    [Tree w p i v j]: started at item [i] of [w], [p] builds the value [v] and the text it used ends
    at item [j].  Decisions (which alternative, how many repetitions) are those of the PEG
    specification [Peg] of Spec.v; leaves are values [v] with [HV w b j v], where [b .. j-1] are the
    items the leaf matched.  For the extractor of [ctor], [HV w b j v] says that [v] is the slice
    [b .. j-1] of the text. *)

From Coq Require Import List Arith NArith Bool.
From Verif Require Import Base Text Context Neu Syntax TextProofs Spec Core.
Import ListNotations.

(** The parsers that hand their span to the handler. *)
Definition leafy (p : pat) : Prop :=
  match p with
  | PEmpty | PFail | PStart | PEnd | PConsume _ | PConsumeAll | PLit _ | PAssert _ _ | PFn _
  | PBuilder _ _ | PLeaf _ | POnce _ _ | PMany1 _ _ | POpt _ _ | PMany0 _ _
  | PBetween _ _ _ _ | PTimes _ _ _ | PNeuThen _ _ _ => True
  | _ => False
  end.

Section CtorSpec.
  Variable k : kind.
  Variable G : env.
  Variable sk : text -> nat -> nat.
  Variable HV : text -> nat -> nat -> val -> Prop.
  Notation Peg := (Peg k G sk).
  Notation core := (core k G sk).

  Inductive Tree : text -> pat -> nat -> val -> nat -> Prop :=
  | Tree_leaf w p i b j v : leafy p -> Peg w p i (OK b j) -> HV w b j v -> Tree w p i v j
  | Tree_pat w p i b j v : Peg w p i (OK b j) -> HV w b j v -> Tree w (PPat p) i v j
  | Tree_then w p q i a j b j' :
      Tree w p i a j -> Tree w q (sk w j) b j' -> Tree w (PThen p q) i (VPair a b) j'
  | Tree_ifthen_yes w p t q i a j b1 j1 b j2 :
      Tree w p i a j -> Peg w t (sk w j) (OK b1 j1) -> Tree w q (sk w j1) b j2 ->
      Tree w (PIfThen p t q) i (VPair a (VSome b)) j2
  | Tree_ifthen_no w p t q i a j e :
      Tree w p i a j -> Peg w t (sk w j) (KO e) -> Tree w (PIfThen p t q) i (VPair a VNone) j
  | Tree_or1 w p q i v j : Tree w p i v j -> Tree w (POr p q) i v j
  | Tree_or2 w p q i e v j : Peg w p i (KO e) -> Tree w q i v j -> Tree w (POr p q) i v j
  | Tree_longest_l w p q i v j b' j' :
      Tree w p i v j -> Peg w q i (OK b' j') -> j' <= j -> Tree w (PLongest p q) i v j
  | Tree_longest_r w p q i b j v j' :
      Peg w p i (OK b j) -> Tree w q i v j' -> j < j' -> Tree w (PLongest p q) i v j'
  | Tree_longest_l1 w p q i v j e :
      Tree w p i v j -> Peg w q i (KO e) -> Tree w (PLongest p q) i v j
  | Tree_longest_r1 w p q i e v j :
      Peg w p i (KO e) -> Tree w q i v j -> Tree w (PLongest p q) i v j
  | Tree_prefix w p pre i b j v j' :
      Peg w pre i (OK b j) -> Tree w p (sk w j) v j' -> Tree w (PPrefix p pre) i v j'
  | Tree_suffix w p suf i v j b j' :
      Tree w p i v j -> Peg w suf (sk w j) (OK b j') -> Tree w (PSuffix p suf) i v j'
  | Tree_enclose w p op cl i b j v j1 b2 j2 :
      Peg w op i (OK b j) -> Tree w p (sk w j) v j1 -> Peg w cl (sk w j1) (OK b2 j2) ->
      Tree w (PEnclose p op cl) i v j2
  | Tree_seponce w p s q i a j b1 j1 b j2 :
      Tree w p i a j -> Peg w s (sk w j) (OK b1 j1) -> Tree w q (sk w j1) b j2 ->
      Tree w (PSepOnce p s q) i (VPair a b) j2
  | Tree_sep w p s mn i vs j :
      Trees_sep w p s i vs j -> mn <= length vs -> Tree w (PSep p s mn true) i (VList vs) j
  | Tree_repeat w p r i vs j :
      Trees w p (limit_of r) i vs j -> crange_contains r (length vs) = true ->
      Tree w (PRepeat p r) i (VList vs) j
  | Tree_collect w p mn i vs j :
      Trees w p None i vs j -> mn <= length vs -> Tree w (PCollect p mn) i (VList vs) j
  | Tree_some w p i v j : Tree w p i v j -> Tree w (POption p) i (VSome v) j
  | Tree_none w p i e : Peg w p i (KO e) -> Tree w (POption p) i VNone i
  | Tree_branch_t w t p q i v j :
      t (cx k w i) = Ok true -> Tree w p i v j -> Tree w (PBranch t p q) i v j
  | Tree_branch_f w t p q i v j :
      t (cx k w i) = Ok false -> Tree w q i v j -> Tree w (PBranch t p q) i v j
  | Tree_map w p f i v j v' : Tree w p i v j -> f v = Ok v' -> Tree w (PMap p f) i v' j
  | Tree_choice w e l p r i v j :
      Forall (fun q => exists e', Peg w q i (KO e')) l -> Tree w p i v j ->
      Tree w (PChoice e false (l ++ p :: r)) i v j
  | Tree_pairchoice w e l p x r i v j :
      Forall (fun q => exists e', Peg w (fst q) i (KO e')) l -> Tree w p i v j ->
      Tree w (PPairChoice e false (l ++ (p, x) :: r)) i (VPair v x) j
  | Tree_wrap w p i v j : Tree w p i v j -> Tree w (PWrap p) i v j
  | Tree_ref w x p i v j : env_get G x = Some p -> Tree w p i v j -> Tree w (PRef x) i v j

  (** The values of a greedy repetition, in order. *)
  with Trees : text -> pat -> option nat -> nat -> list val -> nat -> Prop :=
  | Trees_lim w p i : Trees w p (Some 0) i [] i
  | Trees_stop w p lim i e : lim <> Some 0 -> Peg w p (sk w i) (KO e) -> Trees w p lim i [] i
  | Trees_step w p lim i v j vs j' :
      lim <> Some 0 -> Tree w p (sk w i) v j -> Trees w p (limit_pred lim) j vs j' ->
      Trees w p lim i (v :: vs) j'

  (** The values of a separated list, in order. *)
  with Trees_sep : text -> pat -> pat -> nat -> list val -> nat -> Prop :=
  | Trees_sep_stop w p s i e : Peg w p (sk w i) (KO e) -> Trees_sep w p s i [] i
  | Trees_sep_last w p s i v j e :
      Tree w p (sk w i) v j -> Peg w s (sk w j) (KO e) -> Trees_sep w p s i [v] j
  | Trees_sep_step w p s i v j b' j' vs j'' :
      Tree w p (sk w i) v j -> Peg w s (sk w j) (OK b' j') -> Trees_sep w p s j' vs j'' ->
      Trees_sep w p s i (v :: vs) j''.

  (** The parsers for which construction agrees with matching: as [core], without the
      fixed-capacity repetitions, the longest-match containers and [sep_collect] (where the two
      modes of the code differ), with mappers that accept every value their parser builds. *)
  Inductive tcore : pat -> Prop :=
  | tc_leaf p : leafy p -> core p -> tcore p
  | tc_pat p : core p -> tcore (PPat p)
  | tc_then p q : tcore p -> tcore q -> tcore (PThen p q)
  | tc_ifthen p t q : tcore p -> core t -> tcore q -> tcore (PIfThen p t q)
  | tc_or p q : tcore p -> tcore q -> tcore (POr p q)
  | tc_longest p q :
      tcore p -> tcore q -> starts_here k G sk p -> starts_here k G sk q ->
      (forall w i, sk w i = i) -> tcore (PLongest p q)
  | tc_prefix p q : tcore p -> core q -> tcore (PPrefix p q)
  | tc_suffix p q : tcore p -> core q -> tcore (PSuffix p q)
  | tc_enclose p o c : tcore p -> core o -> core c -> tcore (PEnclose p o c)
  | tc_seponce p s q : tcore p -> core s -> tcore q -> tcore (PSepOnce p s q)
  | tc_sep p s mn : tcore p -> core s -> tcore (PSep p s mn true)
  | tc_repeat p r : tcore p -> tcore (PRepeat p r)
  | tc_collect p mn : tcore p -> tcore (PCollect p mn)
  | tc_option p : tcore p -> tcore (POption p)
  | tc_branch t p q :
      (forall c, decides (t c)) ->
      (forall w x, x <= length w -> t (cx k w x) = t (cx k w (sk w x))) ->
      tcore p -> tcore q -> tcore (PBranch t p q)
  | tc_map p f :
      tcore p -> (forall w i v j, Tree w p i v j -> exists v', f v = Ok v') -> tcore (PMap p f)
  | tc_choice e ps : (forall p, In p ps -> tcore p) -> tcore (PChoice e false ps)
  | tc_pairchoice e ps : (forall p, In p ps -> tcore (fst p)) -> tcore (PPairChoice e false ps)
  | tc_wrap p : tcore p -> tcore (PWrap p)
  | tc_nonep : tcore PNoneP
  | tc_ref i : tcore (PRef i).

  Definition tcore_env : Prop := forall i p, env_get G i = Some p -> tcore p.
End CtorSpec.

Scheme Tree_ind' := Minimality for Tree Sort Prop
  with Trees_ind' := Minimality for Trees Sort Prop
  with Trees_sep_ind' := Minimality for Trees_sep Sort Prop.
Combined Scheme Tree_mutind from Tree_ind', Trees_ind', Trees_sep_ind'.

(** The slice of the text covering the items [b .. j-1]. *)
Definition slice (w : text) (b j : nat) : text := firstn (j - b) (skipn b w).
