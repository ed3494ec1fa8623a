(** How much work a match is: the rules of Spec.v, with a counter beside them.

    Counted are the calls of parsers (each call of [try_parse], src/regex.rs:60-67) and the tests of
    single items by units (src/neu.rs [Neu::is_match]).  Not counted is what a policy does before a match: under a
    skipper [sk] the skipping is free.  Comparing a literal counts as one step. *)

From Coq Require Import List Arith NArith Bool Lia.
From Verif Require Import Base Text Context Neu Syntax TextProofs Spec.
Import ListNotations.

Section Work.
  Variable k : kind.
  Variable G : env.
  Variable sk : text -> nat -> nat.
  Notation cx := (cx k).
  Notation sp := (sp k).
  Notation too_short := (too_short k).

  (** [Work w p i o n]: the run of [p] at [i] with outcome [o] (Spec.v) takes [n] steps. *)
  Inductive Work : text -> pat -> nat -> out -> nat -> Prop :=
  | W_empty w i :
      Work w PEmpty i (OK i i) 1
  | W_fail w i :
      Work w PFail i (KO EFail) 1
  | W_start w :
      Work w PStart 0 (OK 0 0) 1
  | W_start_ko w i :
      0 < i -> Work w PStart i (KO EAnchorStart) 1
  | W_end w i :
      i = length w -> Work w PEnd i (OK i i) 1
  | W_end_ko w i :
      i < length w -> Work w PEnd i (KO EAnchorEnd) 1
  | W_consume w i j n :
      j <= length w -> bo k w j = bo k w i + n -> Work w (PConsume n) i (OK i j) 1
  | W_consume_ko w i n :
      tlen k w < bo k w i + n -> Work w (PConsume n) i (KO EConsume) 1
  | W_consume_all w i :
      Work w PConsumeAll i (OK i (length w)) 1
  | W_lit w i l :
      firstn (length l) (skipn i w) = l -> Work w (PLit l) i (OK i (i + length l)) 1
  | W_lit_ko w i l :
      firstn (length l) (skipn i w) <> l -> Work w (PLit l) i (KO ELiteral) 1
  | W_peek w p i b j z1 :
      Work w p i (OK b j) z1 -> Work w (PAssert p true) i (OK i i) (S z1)
  | W_peek_ko w p i e z1 :
      Work w p i (KO e) z1 -> Work w (PAssert p true) i (KO EAssertTrue) (S z1)
  | W_not w p i e z1 :
      Work w p i (KO e) z1 -> Work w (PAssert p false) i (OK i i) (S z1)
  | W_not_ko w p i b j z1 :
      Work w p i (OK b j) z1 -> Work w (PAssert p false) i (KO EAssertFalse) (S z1)
  | W_fn w f i b j :
      f (cx w i) = (Ok (sp w b j), cx w j) -> i <= b -> b <= j -> j <= length w -> Work w (PFn f) i (OK b j) 1
  | W_fn_ko w f i e :
      f (cx w i) = (Err e, cx w i) -> Work w (PFn f) i (KO e) 1
  | W_builder_ko w p f i e z1 :
      Work w p i (KO e) z1 -> Work w (PBuilder p f) i (KO e) (S z1)
  | W_builder w p f i b j q m o z1 z2 :
      Work w p i (OK b j) z1 -> f (cx w j) (sp w b j) = (Ok q, cx w m) -> b <= m -> m <= length w -> Work w q (sk w m) o z2 -> Work w (PBuilder p f) i o (S (z1 + z2))
  | W_leaf w p i o z1 :
      Work w p i o z1 -> Work w (PLeaf p) i o (S z1)
  | W_once w u c i z1 :
      AccW w i u c 0 (inl true) z1 -> Work w (POnce u c) i (OK i (S i)) (S z1)
  | W_once_ko w u c i z1 :
      AccW w i u c 0 (inl false) z1 -> Work w (POnce u c) i (KO EOnce) (S z1)
  | W_once_err w u c i e z1 :
      AccW w i u c 0 (inr e) z1 -> Work w (POnce u c) i (KO e) (S z1)
  | W_opt w u c i z1 :
      AccW w i u c 0 (inl true) z1 -> Work w (POpt u c) i (OK i (S i)) (S z1)
  | W_opt_none w u c i z1 :
      AccW w i u c 0 (inl false) z1 -> Work w (POpt u c) i (OK i i) (S z1)
  | W_opt_err w u c i e z1 :
      AccW w i u c 0 (inr e) z1 -> Work w (POpt u c) i (KO e) (S z1)
  | W_many0 w u c i n z1 :
      RunW w i u c None 0 (inl n) z1 -> Work w (PMany0 u c) i (OK i (i + n)) (S z1)
  | W_many0_err w u c i e z1 :
      RunW w i u c None 0 (inr e) z1 -> Work w (PMany0 u c) i (KO e) (S z1)
  | W_many1 w u c i n z1 :
      RunW w i u c None 0 (inl (S n)) z1 -> Work w (PMany1 u c) i (OK i (i + S n)) (S z1)
  | W_many1_ko w u c i z1 :
      RunW w i u c None 0 (inl 0) z1 -> Work w (PMany1 u c) i (KO EMany1) (S z1)
  | W_many1_err w u c i e z1 :
      RunW w i u c None 0 (inr e) z1 -> Work w (PMany1 u c) i (KO e) (S z1)
  | W_between_short w m n u c i :
      too_short w i (m * min_length k u) -> Work w (PBetween m n u c) i (KO EBetween) 1
  | W_between w m n u c i t z1 :
      ~ too_short w i (m * min_length k u) -> RunW w i u c n 0 (inl t) z1 -> m <= t -> Work w (PBetween m n u c) i (OK i (i + t)) (S z1)
  | W_between_ko w m n u c i t z1 :
      ~ too_short w i (m * min_length k u) -> RunW w i u c n 0 (inl t) z1 -> t < m -> Work w (PBetween m n u c) i (KO EBetween) (S z1)
  | W_between_err w m n u c i e z1 :
      ~ too_short w i (m * min_length k u) -> RunW w i u c n 0 (inr e) z1 -> Work w (PBetween m n u c) i (KO e) (S z1)
  | W_times_short w r u c i :
      too_short w i (match r_lo r with Incl m => m | Excl m => m - 1 | Unb => 0 end * min_length k u) -> Work w (PTimes r u c) i (KO ETimes) 1
  | W_times w r u c i t z1 :
      ~ too_short w i (match r_lo r with Incl m => m | Excl m => m - 1 | Unb => 0 end * min_length k u) -> RunW w i u c (limit_of r) 0 (inl t) z1 -> crange_contains r t = true -> Work w (PTimes r u c) i (OK i (i + t)) (S z1)
  | W_times_ko w r u c i t z1 :
      ~ too_short w i (match r_lo r with Incl m => m | Excl m => m - 1 | Unb => 0 end * min_length k u) -> RunW w i u c (limit_of r) 0 (inl t) z1 -> crange_contains r t = false -> Work w (PTimes r u c) i (KO ETimes) (S z1)
  | W_times_err w r u c i e z1 :
      ~ too_short w i (match r_lo r with Incl m => m | Excl m => m - 1 | Unb => 0 end * min_length k u) -> RunW w i u c (limit_of r) 0 (inr e) z1 -> Work w (PTimes r u c) i (KO e) (S z1)
  | W_neuthen_short w u v c i :
      too_short w i (min_length k u + min_length k v) \/ length w < i + 2 -> Work w (PNeuThen u v c) i (KO ENeureThen) 1
  | W_neuthen w u v c i z1 z2 :
      ~ too_short w i (min_length k u + min_length k v) -> i + 2 <= length w -> AccW w i u c 0 (inl true) z1 -> AccW w i v c 1 (inl true) z2 -> Work w (PNeuThen u v c) i (OK i (i + 2)) (S (z1 + z2))
  | W_neuthen_ko1 w u v c i z1 :
      ~ too_short w i (min_length k u + min_length k v) -> i + 2 <= length w -> AccW w i u c 0 (inl false) z1 -> Work w (PNeuThen u v c) i (KO ENeureThen) (S z1)
  | W_neuthen_err1 w u v c i e z1 :
      ~ too_short w i (min_length k u + min_length k v) -> i + 2 <= length w -> AccW w i u c 0 (inr e) z1 -> Work w (PNeuThen u v c) i (KO e) (S z1)
  | W_neuthen_ko2 w u v c i z1 z2 :
      ~ too_short w i (min_length k u + min_length k v) -> i + 2 <= length w -> AccW w i u c 0 (inl true) z1 -> AccW w i v c 1 (inl false) z2 -> Work w (PNeuThen u v c) i (KO ENeureThen) (S (z1 + z2))
  | W_neuthen_err2 w u v c i e z1 z2 :
      ~ too_short w i (min_length k u + min_length k v) -> i + 2 <= length w -> AccW w i u c 0 (inl true) z1 -> AccW w i v c 1 (inr e) z2 -> Work w (PNeuThen u v c) i (KO e) (S (z1 + z2))
  | W_then w p q i b j b' j' z1 z2 :
      Work w p i (OK b j) z1 -> Work w q (sk w j) (OK b' j') z2 -> Work w (PThen p q) i (OK b j') (S (z1 + z2))
  | W_then_ko1 w p q i e z1 :
      Work w p i (KO e) z1 -> Work w (PThen p q) i (KO e) (S z1)
  | W_then_ko2 w p q i b j e z1 z2 :
      Work w p i (OK b j) z1 -> Work w q (sk w j) (KO e) z2 -> Work w (PThen p q) i (KO e) (S (z1 + z2))
  | W_ifthen_ko1 w p t q i e z1 :
      Work w p i (KO e) z1 -> Work w (PIfThen p t q) i (KO e) (S z1)
  | W_ifthen_no w p t q i b j e z1 z2 :
      Work w p i (OK b j) z1 -> Work w t (sk w j) (KO e) z2 -> Work w (PIfThen p t q) i (OK b j) (S (z1 + z2))
  | W_ifthen_yes w p t q i b j b1 j1 b2 j2 z1 z2 z3 :
      Work w p i (OK b j) z1 -> Work w t (sk w j) (OK b1 j1) z2 -> Work w q (sk w j1) (OK b2 j2) z3 -> Work w (PIfThen p t q) i (OK b j2) (S (z1 + z2 + z3))
  | W_ifthen_ko2 w p t q i b j b1 j1 e z1 z2 z3 :
      Work w p i (OK b j) z1 -> Work w t (sk w j) (OK b1 j1) z2 -> Work w q (sk w j1) (KO e) z3 -> Work w (PIfThen p t q) i (KO e) (S (z1 + z2 + z3))
  | W_prefix w p pre i b j b' j' z1 z2 :
      Work w pre i (OK b j) z1 -> Work w p (sk w j) (OK b' j') z2 -> Work w (PPrefix p pre) i (OK b j') (S (z1 + z2))
  | W_prefix_ko1 w p pre i e z1 :
      Work w pre i (KO e) z1 -> Work w (PPrefix p pre) i (KO e) (S z1)
  | W_prefix_ko2 w p pre i b j e z1 z2 :
      Work w pre i (OK b j) z1 -> Work w p (sk w j) (KO e) z2 -> Work w (PPrefix p pre) i (KO e) (S (z1 + z2))
  | W_suffix w p suf i b j b' j' z1 z2 :
      Work w p i (OK b j) z1 -> Work w suf (sk w j) (OK b' j') z2 -> Work w (PSuffix p suf) i (OK b j') (S (z1 + z2))
  | W_suffix_ko1 w p suf i e z1 :
      Work w p i (KO e) z1 -> Work w (PSuffix p suf) i (KO e) (S z1)
  | W_suffix_ko2 w p suf i b j e z1 z2 :
      Work w p i (OK b j) z1 -> Work w suf (sk w j) (KO e) z2 -> Work w (PSuffix p suf) i (KO e) (S (z1 + z2))
  | W_enclose w p op cl i b j b1 j1 b2 j2 z1 z2 z3 :
      Work w op i (OK b j) z1 -> Work w p (sk w j) (OK b1 j1) z2 -> Work w cl (sk w j1) (OK b2 j2) z3 -> Work w (PEnclose p op cl) i (OK b j2) (S (z1 + z2 + z3))
  | W_enclose_ko1 w p op cl i e z1 :
      Work w op i (KO e) z1 -> Work w (PEnclose p op cl) i (KO e) (S z1)
  | W_enclose_ko2 w p op cl i b j e z1 z2 :
      Work w op i (OK b j) z1 -> Work w p (sk w j) (KO e) z2 -> Work w (PEnclose p op cl) i (KO e) (S (z1 + z2))
  | W_enclose_ko3 w p op cl i b j b1 j1 e z1 z2 z3 :
      Work w op i (OK b j) z1 -> Work w p (sk w j) (OK b1 j1) z2 -> Work w cl (sk w j1) (KO e) z3 -> Work w (PEnclose p op cl) i (KO e) (S (z1 + z2 + z3))
  | W_seponce w p s q i b j b1 j1 b2 j2 z1 z2 z3 :
      Work w p i (OK b j) z1 -> Work w s (sk w j) (OK b1 j1) z2 -> Work w q (sk w j1) (OK b2 j2) z3 -> Work w (PSepOnce p s q) i (OK i j2) (S (z1 + z2 + z3))
  | W_seponce_ko1 w p s q i e z1 :
      Work w p i (KO e) z1 -> Work w (PSepOnce p s q) i (KO e) (S z1)
  | W_seponce_ko2 w p s q i b j e z1 z2 :
      Work w p i (OK b j) z1 -> Work w s (sk w j) (KO e) z2 -> Work w (PSepOnce p s q) i (KO e) (S (z1 + z2))
  | W_seponce_ko3 w p s q i b j b1 j1 e z1 z2 z3 :
      Work w p i (OK b j) z1 -> Work w s (sk w j) (OK b1 j1) z2 -> Work w q (sk w j1) (KO e) z3 -> Work w (PSepOnce p s q) i (KO e) (S (z1 + z2 + z3))
  | W_or1 w p q i b j z1 :
      Work w p i (OK b j) z1 -> Work w (POr p q) i (OK b j) (S z1)
  | W_or2 w p q i e o z1 z2 :
      Work w p i (KO e) z1 -> Work w q i o z2 -> Work w (POr p q) i o (S (z1 + z2))
  | W_longest_l w p q i j j' z1 z2 :
      Work w p i (OK i j) z1 -> Work w q i (OK i j') z2 -> j' <= j -> Work w (PLongest p q) i (OK i j) (S (z1 + z2))
  | W_longest_r w p q i j j' z1 z2 :
      Work w p i (OK i j) z1 -> Work w q i (OK i j') z2 -> j < j' -> Work w (PLongest p q) i (OK i j') (S (z1 + z2))
  | W_longest_l1 w p q i j e z1 z2 :
      Work w p i (OK i j) z1 -> Work w q i (KO e) z2 -> Work w (PLongest p q) i (OK i j) (S (z1 + z2))
  | W_longest_r1 w p q i j e z1 z2 :
      Work w p i (KO e) z1 -> Work w q i (OK i j) z2 -> Work w (PLongest p q) i (OK i j) (S (z1 + z2))
  | W_longest_ko w p q i e e' z1 z2 :
      Work w p i (KO e) z1 -> Work w q i (KO e') z2 -> Work w (PLongest p q) i (KO e') (S (z1 + z2))
  | W_choice w e ps i o z1 :
      FirstW w ps i e o z1 -> Work w (PChoice e false ps) i o (S z1)
  | W_pairchoice w e ps i o z1 :
      FirstW w (map fst ps) i e o z1 -> Work w (PPairChoice e false ps) i o (S z1)
  | W_option w p i b j z1 :
      Work w p i (OK b j) z1 -> Work w (POption p) i (OK b j) (S z1)
  | W_option_none w p i e z1 :
      Work w p i (KO e) z1 -> Work w (POption p) i (OK i i) (S z1)
  | W_branch_t w t p q i o z1 :
      t (cx w i) = Ok true -> Work w p i o z1 -> Work w (PBranch t p q) i o (S z1)
  | W_branch_f w t p q i o z1 :
      t (cx w i) = Ok false -> Work w q i o z1 -> Work w (PBranch t p q) i o (S z1)
  | W_branch_e w t p q i e :
      t (cx w i) = Err e -> Work w (PBranch t p q) i (KO e) 1
  | W_sep w p s mn i n j z1 :
      SepsW w p s None i n j z1 -> mn <= n -> Work w (PSep p s mn true) i (OK i j) (S z1)
  | W_sep_ko w p s mn i n j z1 :
      SepsW w p s None i n j z1 -> n < mn -> Work w (PSep p s mn true) i (KO ESeparate) (S z1)
  | W_sepcollect w p s mn i n j z1 :
      SepsW w p s None i n j z1 -> mn <= n -> Work w (PSepCollect p s mn true) i (OK i j) (S z1)
  | W_sepcollect_ko w p s mn i n j z1 :
      SepsW w p s None i n j z1 -> n < mn -> Work w (PSepCollect p s mn true) i (KO ESepCollect) (S z1)
  | W_sep2 w p s m l i n j z1 :
      SepsW w p s (Some (S l)) i n j z1 -> m <= n -> Work w (PSep2 p s m l true) i (OK i j) (S z1)
  | W_sep2_ko w p s m l i n j z1 :
      SepsW w p s (Some (S l)) i n j z1 -> n < m -> Work w (PSep2 p s m l true) i (KO ESeparate2) (S z1)
  | W_repeat w p r i n j z1 :
      RepsW w p (limit_of r) i n j z1 -> crange_contains r n = true -> Work w (PRepeat p r) i (OK i j) (S z1)
  | W_repeat_ko w p r i n j z1 :
      RepsW w p (limit_of r) i n j z1 -> crange_contains r n = false -> Work w (PRepeat p r) i (KO ERepeat) (S z1)
  | W_repeat2 w p m l i n j z1 :
      RepsW w p (Some (S l)) i n j z1 -> m <= n -> n <= l -> Work w (PRepeat2 p m l) i (OK i j) (S z1)
  | W_repeat2_ko w p m l i n j z1 :
      RepsW w p (Some (S l)) i n j z1 -> n < m \/ l < n -> Work w (PRepeat2 p m l) i (KO ERepeat2) (S z1)
  | W_collect w p mn i n j z1 :
      RepsW w p None i n j z1 -> mn <= n -> Work w (PCollect p mn) i (OK i j) (S z1)
  | W_collect_ko w p mn i n j z1 :
      RepsW w p None i n j z1 -> n < mn -> Work w (PCollect p mn) i (KO ECollect) (S z1)
  | W_pat w p i o z1 :
      Work w p i o z1 -> Work w (PPat p) i o (S z1)
  | W_map w p f i o z1 :
      Work w p i o z1 -> Work w (PMap p f) i o (S z1)
  | W_wrap w p i o z1 :
      Work w p i o z1 -> Work w (PWrap p) i o (S z1)
  | W_nonep w i :
      Work w PNoneP i (KO EOption) 1
  | W_ref w x p i o z1 :
      env_get G x = Some p -> Work w p i o z1 -> Work w (PRef x) i o (S z1)
  | W_ref_none w x i :
      env_get G x = None -> Work w (PRef x) i (KO EOption) 1

  (** The test of one item, *)
  with AccW : text -> nat -> neu -> cond -> nat -> bool + error -> nat -> Prop :=
  | AccW_end w i u c m :
      length w <= i + m -> AccW w i u c m (inl false) 1
  | AccW_no w i u c m x :
      nth_error w (i + m) = Some x -> is_match u x = false -> AccW w i u c m (inl false) 1
  | AccW_yes w i u c m x r z1 :
      nth_error w (i + m) = Some x -> is_match u x = true -> ChkW w i c m x r z1 -> AccW w i u c m r (S z1)

  (** the condition at it, *)
  with ChkW : text -> nat -> cond -> nat -> item -> bool + error -> nat -> Prop :=
  | ChkW_empty w i m x :
      ChkW w i CEmpty m x (inl true) 0
  | ChkW_fn w i f m x b :
      f (cx w i) (bo k w (i + m) - bo k w i, x) = Ok b -> ChkW w i (CFn f) m x (inl b) 0
  | ChkW_fn_err w i f m x e :
      f (cx w i) (bo k w (i + m) - bo k w i, x) = Err e -> ChkW w i (CFn f) m x (inr e) 0
  | ChkW_regex w i p m x b j z1 :
      Work (skipn (i + m) w) p (sk (skipn (i + m) w) 0) (OK b j) z1 -> ChkW w i (CRegex p) m x (inl true) z1
  | ChkW_regex_no w i p m x e z1 :
      Work (skipn (i + m) w) p (sk (skipn (i + m) w) 0) (KO e) z1 -> ChkW w i (CRegex p) m x (inl false) z1

  (** a run of items, *)
  with RunW : text -> nat -> neu -> cond -> option nat -> nat -> nat + error -> nat -> Prop :=
  | RunW_lim w i u c m :
      RunW w i u c (Some 0) m (inl 0) 0
  | RunW_stop w i u c lim m z1 :
      lim <> Some 0 -> AccW w i u c m (inl false) z1 -> RunW w i u c lim m (inl 0) z1
  | RunW_err w i u c lim m e z1 :
      lim <> Some 0 -> AccW w i u c m (inr e) z1 -> RunW w i u c lim m (inr e) z1
  | RunW_step w i u c lim m n z1 z2 :
      lim <> Some 0 -> AccW w i u c m (inl true) z1 -> RunW w i u c (limit_pred lim) (S m) (inl n) z2 -> RunW w i u c lim m (inl (S n)) (z1 + z2)
  | RunW_step_err w i u c lim m e z1 z2 :
      lim <> Some 0 -> AccW w i u c m (inl true) z1 -> RunW w i u c (limit_pred lim) (S m) (inr e) z2 -> RunW w i u c lim m (inr e) (z1 + z2)

  (** the repetitions of a loop, *)
  with RepsW : text -> pat -> option nat -> nat -> nat -> nat -> nat -> Prop :=
  | RepsW_lim w p i :
      RepsW w p (Some 0) i 0 i 0
  | RepsW_stop w p lim i e z1 :
      lim <> Some 0 -> Work w p (sk w i) (KO e) z1 -> RepsW w p lim i 0 i z1
  | RepsW_step w p lim i b j n j' z1 z2 :
      lim <> Some 0 -> Work w p (sk w i) (OK b j) z1 -> RepsW w p (limit_pred lim) j n j' z2 -> RepsW w p lim i (S n) j' (z1 + z2)

  (** those of a separated loop, *)
  with SepsW : text -> pat -> pat -> option nat -> nat -> nat -> nat -> nat -> Prop :=
  | SepsW_lim w p s i :
      SepsW w p s (Some 0) i 0 i 0
  | SepsW_stop w p s lim i e z1 :
      lim <> Some 0 -> Work w p (sk w i) (KO e) z1 -> SepsW w p s lim i 0 i z1
  | SepsW_last w p s lim i b j e z1 z2 :
      lim <> Some 0 -> Work w p (sk w i) (OK b j) z1 -> Work w s (sk w j) (KO e) z2 -> SepsW w p s lim i 1 j (z1 + z2)
  | SepsW_step w p s lim i b j b' j' n j'' z1 z2 z3 :
      lim <> Some 0 -> Work w p (sk w i) (OK b j) z1 -> Work w s (sk w j) (OK b' j') z2 -> SepsW w p s (limit_pred lim) j' n j'' z3 -> SepsW w p s lim i (S n) j'' (z1 + z2 + z3)

  (** and the alternatives of a choice. *)
  with FirstW : text -> list pat -> nat -> error -> out -> nat -> Prop :=
  | FirstW_nil w i e :
      FirstW w [] i e (KO e) 0
  | FirstW_hit w p ps i e b j z1 :
      Work w p i (OK b j) z1 -> FirstW w (p :: ps) i e (OK b j) z1
  | FirstW_next w p ps i e e' o z1 z2 :
      Work w p i (KO e') z1 -> FirstW w ps i e o z2 -> FirstW w (p :: ps) i e o (z1 + z2).
End Work.

Scheme Work_ind' := Minimality for Work Sort Prop
  with AccW_ind' := Minimality for AccW Sort Prop
  with ChkW_ind' := Minimality for ChkW Sort Prop
  with RunW_ind' := Minimality for RunW Sort Prop
  with RepsW_ind' := Minimality for RepsW Sort Prop
  with SepsW_ind' := Minimality for SepsW Sort Prop
  with FirstW_ind' := Minimality for FirstW Sort Prop.
Combined Scheme Work_mutind from Work_ind', AccW_ind', ChkW_ind', RunW_ind', RepsW_ind', SepsW_ind', FirstW_ind'.

(** The counter changes nothing: runs are those of Spec.v, and each of these takes some number of steps. *)
Lemma work_peg k G sk :
  (forall w p i o n, Work k G sk w p i o n -> Peg k G sk w p i o) /\
  (forall w i u c m r n, AccW k G sk w i u c m r n -> Acc k G sk w i u c m r) /\
  (forall w i c m x r n, ChkW k G sk w i c m x r n -> Chk k G sk w i c m x r) /\
  (forall w i u c l m r n, RunW k G sk w i u c l m r n -> Run k G sk w i u c l m r) /\
  (forall w p l i a j n, RepsW k G sk w p l i a j n -> Reps k G sk w p l i a j) /\
  (forall w p s l i a j n, SepsW k G sk w p s l i a j n -> Seps k G sk w p s l i a j) /\
  (forall w ps i e o n, FirstW k G sk w ps i e o n -> First k G sk w ps i e o).
Proof. apply Work_mutind; intros; try solve [econstructor; eauto]. Qed.

Lemma peg_work k G sk :
  (forall w p i o, Peg k G sk w p i o -> exists n, Work k G sk w p i o n) /\
  (forall w i u c m r, Acc k G sk w i u c m r -> exists n, AccW k G sk w i u c m r n) /\
  (forall w i c m x r, Chk k G sk w i c m x r -> exists n, ChkW k G sk w i c m x r n) /\
  (forall w i u c l m r, Run k G sk w i u c l m r -> exists n, RunW k G sk w i u c l m r n) /\
  (forall w p l i a j, Reps k G sk w p l i a j -> exists n, RepsW k G sk w p l i a j n) /\
  (forall w p s l i a j, Seps k G sk w p s l i a j -> exists n, SepsW k G sk w p s l i a j n) /\
  (forall w ps i e o, First k G sk w ps i e o -> exists n, FirstW k G sk w ps i e o n).
Proof.
  apply Peg_mutind; intros; repeat match goal with H : exists _, _ |- _ => destruct H end; try solve [eexists; econstructor; eauto].
Qed.
