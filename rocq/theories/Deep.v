(** How deep the calls of a match nest: the rules of Spec.v, with the height of the call stack beside them.

    Each call of a parser ([try_parse], src/regex.rs:60-67) is one frame above its caller, and so is the test of an
    item by a unit (src/neu.rs [Neu::is_match]).  Loops are loops in the code (src/ctor/repeat.rs, src/ctor/sep.rs,
    src/neu.rs), so that their turns stand beside each other, as do the parts of a sequence and the alternatives
    of a choice.  What a policy does before a match is not counted. *)

From Coq Require Import List Arith NArith Bool Lia.
From Verif Require Import Base Text Context Neu Syntax TextProofs Spec.
Import ListNotations.

Section Deep.
  Variable k : kind.
  Variable G : env.
  Variable sk : text -> nat -> nat.
  Notation cx := (cx k).
  Notation sp := (sp k).
  Notation too_short := (too_short k).

  (** [Deep w p i o n]: during the run of [p] at [i] with outcome [o] (Spec.v) up to [n] calls are nested. *)
  Inductive Deep : text -> pat -> nat -> out -> nat -> Prop :=
  | D_empty w i :
      Deep w PEmpty i (OK i i) 1
  | D_fail w i :
      Deep w PFail i (KO EFail) 1
  | D_start w :
      Deep w PStart 0 (OK 0 0) 1
  | D_start_ko w i :
      0 < i -> Deep w PStart i (KO EAnchorStart) 1
  | D_end w i :
      i = length w -> Deep w PEnd i (OK i i) 1
  | D_end_ko w i :
      i < length w -> Deep w PEnd i (KO EAnchorEnd) 1
  | D_consume w i j n :
      j <= length w -> bo k w j = bo k w i + n -> Deep w (PConsume n) i (OK i j) 1
  | D_consume_ko w i n :
      tlen k w < bo k w i + n -> Deep w (PConsume n) i (KO EConsume) 1
  | D_consume_all w i :
      Deep w PConsumeAll i (OK i (length w)) 1
  | D_lit w i l :
      firstn (length l) (skipn i w) = l -> Deep w (PLit l) i (OK i (i + length l)) 1
  | D_lit_ko w i l :
      firstn (length l) (skipn i w) <> l -> Deep w (PLit l) i (KO ELiteral) 1
  | D_peek w p i b j z1 :
      Deep w p i (OK b j) z1 -> Deep w (PAssert p true) i (OK i i) (S z1)
  | D_peek_ko w p i e z1 :
      Deep w p i (KO e) z1 -> Deep w (PAssert p true) i (KO EAssertTrue) (S z1)
  | D_not w p i e z1 :
      Deep w p i (KO e) z1 -> Deep w (PAssert p false) i (OK i i) (S z1)
  | D_not_ko w p i b j z1 :
      Deep w p i (OK b j) z1 -> Deep w (PAssert p false) i (KO EAssertFalse) (S z1)
  | D_fn w f i b j :
      f (cx w i) = (Ok (sp w b j), cx w j) -> i <= b -> b <= j -> j <= length w -> Deep w (PFn f) i (OK b j) 1
  | D_fn_ko w f i e :
      f (cx w i) = (Err e, cx w i) -> Deep w (PFn f) i (KO e) 1
  | D_builder_ko w p f i e z1 :
      Deep w p i (KO e) z1 -> Deep w (PBuilder p f) i (KO e) (S z1)
  | D_builder w p f i b j q m o z1 z2 :
      Deep w p i (OK b j) z1 -> f (cx w j) (sp w b j) = (Ok q, cx w m) -> b <= m -> m <= length w -> Deep w q (sk w m) o z2 -> Deep w (PBuilder p f) i o (S (Nat.max z1 z2))
  | D_leaf w p i o z1 :
      Deep w p i o z1 -> Deep w (PLeaf p) i o (S z1)
  | D_once w u c i z1 :
      AccD w i u c 0 (inl true) z1 -> Deep w (POnce u c) i (OK i (S i)) (S z1)
  | D_once_ko w u c i z1 :
      AccD w i u c 0 (inl false) z1 -> Deep w (POnce u c) i (KO EOnce) (S z1)
  | D_once_err w u c i e z1 :
      AccD w i u c 0 (inr e) z1 -> Deep w (POnce u c) i (KO e) (S z1)
  | D_opt w u c i z1 :
      AccD w i u c 0 (inl true) z1 -> Deep w (POpt u c) i (OK i (S i)) (S z1)
  | D_opt_none w u c i z1 :
      AccD w i u c 0 (inl false) z1 -> Deep w (POpt u c) i (OK i i) (S z1)
  | D_opt_err w u c i e z1 :
      AccD w i u c 0 (inr e) z1 -> Deep w (POpt u c) i (KO e) (S z1)
  | D_many0 w u c i n z1 :
      RunD w i u c None 0 (inl n) z1 -> Deep w (PMany0 u c) i (OK i (i + n)) (S z1)
  | D_many0_err w u c i e z1 :
      RunD w i u c None 0 (inr e) z1 -> Deep w (PMany0 u c) i (KO e) (S z1)
  | D_many1 w u c i n z1 :
      RunD w i u c None 0 (inl (S n)) z1 -> Deep w (PMany1 u c) i (OK i (i + S n)) (S z1)
  | D_many1_ko w u c i z1 :
      RunD w i u c None 0 (inl 0) z1 -> Deep w (PMany1 u c) i (KO EMany1) (S z1)
  | D_many1_err w u c i e z1 :
      RunD w i u c None 0 (inr e) z1 -> Deep w (PMany1 u c) i (KO e) (S z1)
  | D_between_short w m n u c i :
      too_short w i (m * min_length k u) -> Deep w (PBetween m n u c) i (KO EBetween) 1
  | D_between w m n u c i t z1 :
      ~ too_short w i (m * min_length k u) -> RunD w i u c n 0 (inl t) z1 -> m <= t -> Deep w (PBetween m n u c) i (OK i (i + t)) (S z1)
  | D_between_ko w m n u c i t z1 :
      ~ too_short w i (m * min_length k u) -> RunD w i u c n 0 (inl t) z1 -> t < m -> Deep w (PBetween m n u c) i (KO EBetween) (S z1)
  | D_between_err w m n u c i e z1 :
      ~ too_short w i (m * min_length k u) -> RunD w i u c n 0 (inr e) z1 -> Deep w (PBetween m n u c) i (KO e) (S z1)
  | D_times_short w r u c i :
      too_short w i (match r_lo r with Incl m => m | Excl m => m - 1 | Unb => 0 end * min_length k u) -> Deep w (PTimes r u c) i (KO ETimes) 1
  | D_times w r u c i t z1 :
      ~ too_short w i (match r_lo r with Incl m => m | Excl m => m - 1 | Unb => 0 end * min_length k u) -> RunD w i u c (limit_of r) 0 (inl t) z1 -> crange_contains r t = true -> Deep w (PTimes r u c) i (OK i (i + t)) (S z1)
  | D_times_ko w r u c i t z1 :
      ~ too_short w i (match r_lo r with Incl m => m | Excl m => m - 1 | Unb => 0 end * min_length k u) -> RunD w i u c (limit_of r) 0 (inl t) z1 -> crange_contains r t = false -> Deep w (PTimes r u c) i (KO ETimes) (S z1)
  | D_times_err w r u c i e z1 :
      ~ too_short w i (match r_lo r with Incl m => m | Excl m => m - 1 | Unb => 0 end * min_length k u) -> RunD w i u c (limit_of r) 0 (inr e) z1 -> Deep w (PTimes r u c) i (KO e) (S z1)
  | D_neuthen_short w u v c i :
      too_short w i (min_length k u + min_length k v) \/ length w < i + 2 -> Deep w (PNeuThen u v c) i (KO ENeureThen) 1
  | D_neuthen w u v c i z1 z2 :
      ~ too_short w i (min_length k u + min_length k v) -> i + 2 <= length w -> AccD w i u c 0 (inl true) z1 -> AccD w i v c 1 (inl true) z2 -> Deep w (PNeuThen u v c) i (OK i (i + 2)) (S (Nat.max z1 z2))
  | D_neuthen_ko1 w u v c i z1 :
      ~ too_short w i (min_length k u + min_length k v) -> i + 2 <= length w -> AccD w i u c 0 (inl false) z1 -> Deep w (PNeuThen u v c) i (KO ENeureThen) (S z1)
  | D_neuthen_err1 w u v c i e z1 :
      ~ too_short w i (min_length k u + min_length k v) -> i + 2 <= length w -> AccD w i u c 0 (inr e) z1 -> Deep w (PNeuThen u v c) i (KO e) (S z1)
  | D_neuthen_ko2 w u v c i z1 z2 :
      ~ too_short w i (min_length k u + min_length k v) -> i + 2 <= length w -> AccD w i u c 0 (inl true) z1 -> AccD w i v c 1 (inl false) z2 -> Deep w (PNeuThen u v c) i (KO ENeureThen) (S (Nat.max z1 z2))
  | D_neuthen_err2 w u v c i e z1 z2 :
      ~ too_short w i (min_length k u + min_length k v) -> i + 2 <= length w -> AccD w i u c 0 (inl true) z1 -> AccD w i v c 1 (inr e) z2 -> Deep w (PNeuThen u v c) i (KO e) (S (Nat.max z1 z2))
  | D_then w p q i b j b' j' z1 z2 :
      Deep w p i (OK b j) z1 -> Deep w q (sk w j) (OK b' j') z2 -> Deep w (PThen p q) i (OK b j') (S (Nat.max z1 z2))
  | D_then_ko1 w p q i e z1 :
      Deep w p i (KO e) z1 -> Deep w (PThen p q) i (KO e) (S z1)
  | D_then_ko2 w p q i b j e z1 z2 :
      Deep w p i (OK b j) z1 -> Deep w q (sk w j) (KO e) z2 -> Deep w (PThen p q) i (KO e) (S (Nat.max z1 z2))
  | D_ifthen_ko1 w p t q i e z1 :
      Deep w p i (KO e) z1 -> Deep w (PIfThen p t q) i (KO e) (S z1)
  | D_ifthen_no w p t q i b j e z1 z2 :
      Deep w p i (OK b j) z1 -> Deep w t (sk w j) (KO e) z2 -> Deep w (PIfThen p t q) i (OK b j) (S (Nat.max z1 z2))
  | D_ifthen_yes w p t q i b j b1 j1 b2 j2 z1 z2 z3 :
      Deep w p i (OK b j) z1 -> Deep w t (sk w j) (OK b1 j1) z2 -> Deep w q (sk w j1) (OK b2 j2) z3 -> Deep w (PIfThen p t q) i (OK b j2) (S (Nat.max z1 (Nat.max z2 z3)))
  | D_ifthen_ko2 w p t q i b j b1 j1 e z1 z2 z3 :
      Deep w p i (OK b j) z1 -> Deep w t (sk w j) (OK b1 j1) z2 -> Deep w q (sk w j1) (KO e) z3 -> Deep w (PIfThen p t q) i (KO e) (S (Nat.max z1 (Nat.max z2 z3)))
  | D_prefix w p pre i b j b' j' z1 z2 :
      Deep w pre i (OK b j) z1 -> Deep w p (sk w j) (OK b' j') z2 -> Deep w (PPrefix p pre) i (OK b j') (S (Nat.max z1 z2))
  | D_prefix_ko1 w p pre i e z1 :
      Deep w pre i (KO e) z1 -> Deep w (PPrefix p pre) i (KO e) (S z1)
  | D_prefix_ko2 w p pre i b j e z1 z2 :
      Deep w pre i (OK b j) z1 -> Deep w p (sk w j) (KO e) z2 -> Deep w (PPrefix p pre) i (KO e) (S (Nat.max z1 z2))
  | D_suffix w p suf i b j b' j' z1 z2 :
      Deep w p i (OK b j) z1 -> Deep w suf (sk w j) (OK b' j') z2 -> Deep w (PSuffix p suf) i (OK b j') (S (Nat.max z1 z2))
  | D_suffix_ko1 w p suf i e z1 :
      Deep w p i (KO e) z1 -> Deep w (PSuffix p suf) i (KO e) (S z1)
  | D_suffix_ko2 w p suf i b j e z1 z2 :
      Deep w p i (OK b j) z1 -> Deep w suf (sk w j) (KO e) z2 -> Deep w (PSuffix p suf) i (KO e) (S (Nat.max z1 z2))
  | D_enclose w p op cl i b j b1 j1 b2 j2 z1 z2 z3 :
      Deep w op i (OK b j) z1 -> Deep w p (sk w j) (OK b1 j1) z2 -> Deep w cl (sk w j1) (OK b2 j2) z3 -> Deep w (PEnclose p op cl) i (OK b j2) (S (Nat.max z1 (Nat.max z2 z3)))
  | D_enclose_ko1 w p op cl i e z1 :
      Deep w op i (KO e) z1 -> Deep w (PEnclose p op cl) i (KO e) (S z1)
  | D_enclose_ko2 w p op cl i b j e z1 z2 :
      Deep w op i (OK b j) z1 -> Deep w p (sk w j) (KO e) z2 -> Deep w (PEnclose p op cl) i (KO e) (S (Nat.max z1 z2))
  | D_enclose_ko3 w p op cl i b j b1 j1 e z1 z2 z3 :
      Deep w op i (OK b j) z1 -> Deep w p (sk w j) (OK b1 j1) z2 -> Deep w cl (sk w j1) (KO e) z3 -> Deep w (PEnclose p op cl) i (KO e) (S (Nat.max z1 (Nat.max z2 z3)))
  | D_seponce w p s q i b j b1 j1 b2 j2 z1 z2 z3 :
      Deep w p i (OK b j) z1 -> Deep w s (sk w j) (OK b1 j1) z2 -> Deep w q (sk w j1) (OK b2 j2) z3 -> Deep w (PSepOnce p s q) i (OK i j2) (S (Nat.max z1 (Nat.max z2 z3)))
  | D_seponce_ko1 w p s q i e z1 :
      Deep w p i (KO e) z1 -> Deep w (PSepOnce p s q) i (KO e) (S z1)
  | D_seponce_ko2 w p s q i b j e z1 z2 :
      Deep w p i (OK b j) z1 -> Deep w s (sk w j) (KO e) z2 -> Deep w (PSepOnce p s q) i (KO e) (S (Nat.max z1 z2))
  | D_seponce_ko3 w p s q i b j b1 j1 e z1 z2 z3 :
      Deep w p i (OK b j) z1 -> Deep w s (sk w j) (OK b1 j1) z2 -> Deep w q (sk w j1) (KO e) z3 -> Deep w (PSepOnce p s q) i (KO e) (S (Nat.max z1 (Nat.max z2 z3)))
  | D_or1 w p q i b j z1 :
      Deep w p i (OK b j) z1 -> Deep w (POr p q) i (OK b j) (S z1)
  | D_or2 w p q i e o z1 z2 :
      Deep w p i (KO e) z1 -> Deep w q i o z2 -> Deep w (POr p q) i o (S (Nat.max z1 z2))
  | D_longest_l w p q i j j' z1 z2 :
      Deep w p i (OK i j) z1 -> Deep w q i (OK i j') z2 -> j' <= j -> Deep w (PLongest p q) i (OK i j) (S (Nat.max z1 z2))
  | D_longest_r w p q i j j' z1 z2 :
      Deep w p i (OK i j) z1 -> Deep w q i (OK i j') z2 -> j < j' -> Deep w (PLongest p q) i (OK i j') (S (Nat.max z1 z2))
  | D_longest_l1 w p q i j e z1 z2 :
      Deep w p i (OK i j) z1 -> Deep w q i (KO e) z2 -> Deep w (PLongest p q) i (OK i j) (S (Nat.max z1 z2))
  | D_longest_r1 w p q i j e z1 z2 :
      Deep w p i (KO e) z1 -> Deep w q i (OK i j) z2 -> Deep w (PLongest p q) i (OK i j) (S (Nat.max z1 z2))
  | D_longest_ko w p q i e e' z1 z2 :
      Deep w p i (KO e) z1 -> Deep w q i (KO e') z2 -> Deep w (PLongest p q) i (KO e') (S (Nat.max z1 z2))
  | D_choice w e ps i o z1 :
      FirstD w ps i e o z1 -> Deep w (PChoice e false ps) i o (S z1)
  | D_pairchoice w e ps i o z1 :
      FirstD w (map fst ps) i e o z1 -> Deep w (PPairChoice e false ps) i o (S z1)
  | D_option w p i b j z1 :
      Deep w p i (OK b j) z1 -> Deep w (POption p) i (OK b j) (S z1)
  | D_option_none w p i e z1 :
      Deep w p i (KO e) z1 -> Deep w (POption p) i (OK i i) (S z1)
  | D_branch_t w t p q i o z1 :
      t (cx w i) = Ok true -> Deep w p i o z1 -> Deep w (PBranch t p q) i o (S z1)
  | D_branch_f w t p q i o z1 :
      t (cx w i) = Ok false -> Deep w q i o z1 -> Deep w (PBranch t p q) i o (S z1)
  | D_branch_e w t p q i e :
      t (cx w i) = Err e -> Deep w (PBranch t p q) i (KO e) 1
  | D_sep w p s mn i n j z1 :
      SepsD w p s None i n j z1 -> mn <= n -> Deep w (PSep p s mn true) i (OK i j) (S z1)
  | D_sep_ko w p s mn i n j z1 :
      SepsD w p s None i n j z1 -> n < mn -> Deep w (PSep p s mn true) i (KO ESeparate) (S z1)
  | D_sepcollect w p s mn i n j z1 :
      SepsD w p s None i n j z1 -> mn <= n -> Deep w (PSepCollect p s mn true) i (OK i j) (S z1)
  | D_sepcollect_ko w p s mn i n j z1 :
      SepsD w p s None i n j z1 -> n < mn -> Deep w (PSepCollect p s mn true) i (KO ESepCollect) (S z1)
  | D_sep2 w p s m l i n j z1 :
      SepsD w p s (Some (S l)) i n j z1 -> m <= n -> Deep w (PSep2 p s m l true) i (OK i j) (S z1)
  | D_sep2_ko w p s m l i n j z1 :
      SepsD w p s (Some (S l)) i n j z1 -> n < m -> Deep w (PSep2 p s m l true) i (KO ESeparate2) (S z1)
  | D_repeat w p r i n j z1 :
      RepsD w p (limit_of r) i n j z1 -> crange_contains r n = true -> Deep w (PRepeat p r) i (OK i j) (S z1)
  | D_repeat_ko w p r i n j z1 :
      RepsD w p (limit_of r) i n j z1 -> crange_contains r n = false -> Deep w (PRepeat p r) i (KO ERepeat) (S z1)
  | D_repeat2 w p m l i n j z1 :
      RepsD w p (Some (S l)) i n j z1 -> m <= n -> n <= l -> Deep w (PRepeat2 p m l) i (OK i j) (S z1)
  | D_repeat2_ko w p m l i n j z1 :
      RepsD w p (Some (S l)) i n j z1 -> n < m \/ l < n -> Deep w (PRepeat2 p m l) i (KO ERepeat2) (S z1)
  | D_collect w p mn i n j z1 :
      RepsD w p None i n j z1 -> mn <= n -> Deep w (PCollect p mn) i (OK i j) (S z1)
  | D_collect_ko w p mn i n j z1 :
      RepsD w p None i n j z1 -> n < mn -> Deep w (PCollect p mn) i (KO ECollect) (S z1)
  | D_pat w p i o z1 :
      Deep w p i o z1 -> Deep w (PPat p) i o (S z1)
  | D_map w p f i o z1 :
      Deep w p i o z1 -> Deep w (PMap p f) i o (S z1)
  | D_wrap w p i o z1 :
      Deep w p i o z1 -> Deep w (PWrap p) i o (S z1)
  | D_nonep w i :
      Deep w PNoneP i (KO EOption) 1
  | D_ref w x p i o z1 :
      env_get G x = Some p -> Deep w p i o z1 -> Deep w (PRef x) i o (S z1)
  | D_ref_none w x i :
      env_get G x = None -> Deep w (PRef x) i (KO EOption) 1

  (** The test of one item, *)
  with AccD : text -> nat -> neu -> cond -> nat -> bool + error -> nat -> Prop :=
  | AccD_end w i u c m :
      length w <= i + m -> AccD w i u c m (inl false) 1
  | AccD_no w i u c m x :
      nth_error w (i + m) = Some x -> is_match u x = false -> AccD w i u c m (inl false) 1
  | AccD_yes w i u c m x r z1 :
      nth_error w (i + m) = Some x -> is_match u x = true -> ChkD w i c m x r z1 -> AccD w i u c m r (S z1)

  (** the condition at it, *)
  with ChkD : text -> nat -> cond -> nat -> item -> bool + error -> nat -> Prop :=
  | ChkD_empty w i m x :
      ChkD w i CEmpty m x (inl true) 0
  | ChkD_fn w i f m x b :
      f (cx w i) (bo k w (i + m) - bo k w i, x) = Ok b -> ChkD w i (CFn f) m x (inl b) 0
  | ChkD_fn_err w i f m x e :
      f (cx w i) (bo k w (i + m) - bo k w i, x) = Err e -> ChkD w i (CFn f) m x (inr e) 0
  | ChkD_regex w i p m x b j z1 :
      Deep (skipn (i + m) w) p (sk (skipn (i + m) w) 0) (OK b j) z1 -> ChkD w i (CRegex p) m x (inl true) z1
  | ChkD_regex_no w i p m x e z1 :
      Deep (skipn (i + m) w) p (sk (skipn (i + m) w) 0) (KO e) z1 -> ChkD w i (CRegex p) m x (inl false) z1

  (** a run of items, *)
  with RunD : text -> nat -> neu -> cond -> option nat -> nat -> nat + error -> nat -> Prop :=
  | RunD_lim w i u c m :
      RunD w i u c (Some 0) m (inl 0) 0
  | RunD_stop w i u c lim m z1 :
      lim <> Some 0 -> AccD w i u c m (inl false) z1 -> RunD w i u c lim m (inl 0) z1
  | RunD_err w i u c lim m e z1 :
      lim <> Some 0 -> AccD w i u c m (inr e) z1 -> RunD w i u c lim m (inr e) z1
  | RunD_step w i u c lim m n z1 z2 :
      lim <> Some 0 -> AccD w i u c m (inl true) z1 -> RunD w i u c (limit_pred lim) (S m) (inl n) z2 -> RunD w i u c lim m (inl (S n)) (Nat.max z1 z2)
  | RunD_step_err w i u c lim m e z1 z2 :
      lim <> Some 0 -> AccD w i u c m (inl true) z1 -> RunD w i u c (limit_pred lim) (S m) (inr e) z2 -> RunD w i u c lim m (inr e) (Nat.max z1 z2)

  (** the repetitions of a loop, *)
  with RepsD : text -> pat -> option nat -> nat -> nat -> nat -> nat -> Prop :=
  | RepsD_lim w p i :
      RepsD w p (Some 0) i 0 i 0
  | RepsD_stop w p lim i e z1 :
      lim <> Some 0 -> Deep w p (sk w i) (KO e) z1 -> RepsD w p lim i 0 i z1
  | RepsD_step w p lim i b j n j' z1 z2 :
      lim <> Some 0 -> Deep w p (sk w i) (OK b j) z1 -> RepsD w p (limit_pred lim) j n j' z2 -> RepsD w p lim i (S n) j' (Nat.max z1 z2)

  (** those of a separated loop, *)
  with SepsD : text -> pat -> pat -> option nat -> nat -> nat -> nat -> nat -> Prop :=
  | SepsD_lim w p s i :
      SepsD w p s (Some 0) i 0 i 0
  | SepsD_stop w p s lim i e z1 :
      lim <> Some 0 -> Deep w p (sk w i) (KO e) z1 -> SepsD w p s lim i 0 i z1
  | SepsD_last w p s lim i b j e z1 z2 :
      lim <> Some 0 -> Deep w p (sk w i) (OK b j) z1 -> Deep w s (sk w j) (KO e) z2 -> SepsD w p s lim i 1 j (Nat.max z1 z2)
  | SepsD_step w p s lim i b j b' j' n j'' z1 z2 z3 :
      lim <> Some 0 -> Deep w p (sk w i) (OK b j) z1 -> Deep w s (sk w j) (OK b' j') z2 -> SepsD w p s (limit_pred lim) j' n j'' z3 -> SepsD w p s lim i (S n) j'' (Nat.max z1 (Nat.max z2 z3))

  (** and the alternatives of a choice. *)
  with FirstD : text -> list pat -> nat -> error -> out -> nat -> Prop :=
  | FirstD_nil w i e :
      FirstD w [] i e (KO e) 0
  | FirstD_hit w p ps i e b j z1 :
      Deep w p i (OK b j) z1 -> FirstD w (p :: ps) i e (OK b j) z1
  | FirstD_next w p ps i e e' o z1 z2 :
      Deep w p i (KO e') z1 -> FirstD w ps i e o z2 -> FirstD w (p :: ps) i e o (Nat.max z1 z2).
End Deep.

Scheme Deep_ind' := Minimality for Deep Sort Prop
  with AccD_ind' := Minimality for AccD Sort Prop
  with ChkD_ind' := Minimality for ChkD Sort Prop
  with RunD_ind' := Minimality for RunD Sort Prop
  with RepsD_ind' := Minimality for RepsD Sort Prop
  with SepsD_ind' := Minimality for SepsD Sort Prop
  with FirstD_ind' := Minimality for FirstD Sort Prop.
Combined Scheme Deep_mutind from Deep_ind', AccD_ind', ChkD_ind', RunD_ind', RepsD_ind', SepsD_ind', FirstD_ind'.

(** The height changes nothing: runs are those of Spec.v, and each of these has some height. *)
Lemma deep_peg k G sk :
  (forall w p i o n, Deep k G sk w p i o n -> Peg k G sk w p i o) /\
  (forall w i u c m r n, AccD k G sk w i u c m r n -> Acc k G sk w i u c m r) /\
  (forall w i c m x r n, ChkD k G sk w i c m x r n -> Chk k G sk w i c m x r) /\
  (forall w i u c l m r n, RunD k G sk w i u c l m r n -> Run k G sk w i u c l m r) /\
  (forall w p l i a j n, RepsD k G sk w p l i a j n -> Reps k G sk w p l i a j) /\
  (forall w p s l i a j n, SepsD k G sk w p s l i a j n -> Seps k G sk w p s l i a j) /\
  (forall w ps i e o n, FirstD k G sk w ps i e o n -> First k G sk w ps i e o).
Proof. apply Deep_mutind; intros; try solve [econstructor; eauto]. Qed.

Lemma peg_deep k G sk :
  (forall w p i o, Peg k G sk w p i o -> exists n, Deep k G sk w p i o n) /\
  (forall w i u c m r, Acc k G sk w i u c m r -> exists n, AccD k G sk w i u c m r n) /\
  (forall w i c m x r, Chk k G sk w i c m x r -> exists n, ChkD k G sk w i c m x r n) /\
  (forall w i u c l m r, Run k G sk w i u c l m r -> exists n, RunD k G sk w i u c l m r n) /\
  (forall w p l i a j, Reps k G sk w p l i a j -> exists n, RepsD k G sk w p l i a j n) /\
  (forall w p s l i a j, Seps k G sk w p s l i a j -> exists n, SepsD k G sk w p s l i a j n) /\
  (forall w ps i e o, First k G sk w ps i e o -> exists n, FirstD k G sk w ps i e o n).
Proof.
  apply Peg_mutind; intros; repeat match goal with H : exists _, _ |- _ => destruct H end; try solve [eexists; econstructor; eauto].
Qed.
