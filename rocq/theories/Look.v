(** What a run looks at: the rules of Spec.v, with a number of items beside them.

    [Look w z p i o] is a run of [p] at [i] on the text [w] with outcome [o], whose answer rests on the first [z]
    items of [w] alone.  That the text ends is something to be seen as well: who has seen the end has seen more
    items than there are, [length w < z].  Closures of the user are handed the context (src/ctx.rs [Context]) and
    may look anywhere, so that their rules ask for the whole text.

    Each rule is the rule of Spec.v of the same name; the lines in /repo are those cited in Spec.v. *)

From Coq Require Import List Arith NArith Bool Lia.
From Verif Require Import Base Text Context Neu Syntax TextProofs Spec.
Import ListNotations.

Section Look.
  Variable k : kind.
  Variable G : env.
  Variable sk : text -> nat -> nat.

  (** How many items of [w] decide what is skipped from position [i] on ([sk w i], src/ctx/policy.rs). *)
  Variable sx : text -> nat -> nat.
  Notation cx := (cx k).
  Notation sp := (sp k).
  Notation too_short := (too_short k).

  (** The check ahead of a bounded loop (src/neu/times.rs:230, [remaining_len]) lets the text pass, and the first [z]
      items tell: they hold that many bytes behind [i], or they are the whole text. *)
  Definition fits (w : text) (z i need : nat) : Prop :=
    ~ too_short w i need /\
    (length w < z \/ (i <= z /\ exists j, j <= length w /\ j <= z /\ need <= bo k w j - bo k w i)).

  (** The runs, *)
  Inductive Look : text -> nat -> pat -> nat -> out -> Prop :=
  | L_empty w z i :
      Look w z PEmpty i (OK i i)
  | L_fail w z i :
      Look w z PFail i (KO EFail)
  | L_start w z :
      Look w z PStart 0 (OK 0 0)
  | L_start_ko w z i :
      0 < i -> Look w z PStart i (KO EAnchorStart)
  | L_end w z i :
      length w < z -> i = length w -> Look w z PEnd i (OK i i)
  | L_end_ko w z i :
      i < z -> i < length w -> Look w z PEnd i (KO EAnchorEnd)
  | L_consume w z i j n :
      (i <= z /\ j <= z) \/ length w < z -> j <= length w -> bo k w j = bo k w i + n ->
      Look w z (PConsume n) i (OK i j)
  | L_consume_ko w z i n :
      length w < z -> tlen k w < bo k w i + n -> Look w z (PConsume n) i (KO EConsume)
  | L_consume_all w z i :
      length w < z -> Look w z PConsumeAll i (OK i (length w))
  | L_lit w z i l :
      i + length l <= z \/ length w < z -> firstn (length l) (skipn i w) = l ->
      Look w z (PLit l) i (OK i (i + length l))
  | L_lit_ko w z i l m :
      m <= length l -> i + m <= length w -> i + m <= z -> firstn m (skipn i w) <> firstn m l -> Look w z (PLit l) i (KO ELiteral)
  | L_lit_ko_end w z i l :
      length w < z -> firstn (length l) (skipn i w) <> l -> Look w z (PLit l) i (KO ELiteral)
  | L_peek w z p i b j :
      Look w z p i (OK b j) -> Look w z (PAssert p true) i (OK i i)
  | L_peek_ko w z p i e :
      Look w z p i (KO e) -> Look w z (PAssert p true) i (KO EAssertTrue)
  | L_not w z p i e :
      Look w z p i (KO e) -> Look w z (PAssert p false) i (OK i i)
  | L_not_ko w z p i b j :
      Look w z p i (OK b j) -> Look w z (PAssert p false) i (KO EAssertFalse)
  | L_fn w z f i b j :
      length w < z -> f (cx w i) = (Ok (sp w b j), cx w j) -> i <= b -> b <= j -> j <= length w ->
      Look w z (PFn f) i (OK b j)
  | L_fn_ko w z f i e :
      length w < z -> f (cx w i) = (Err e, cx w i) -> Look w z (PFn f) i (KO e)
  | L_builder_ko w z p f i e :
      Look w z p i (KO e) -> Look w z (PBuilder p f) i (KO e)
  | L_builder w z p f i b j q m o :
      length w < z -> Look w z p i (OK b j) -> f (cx w j) (sp w b j) = (Ok q, cx w m) -> b <= m ->
      m <= length w -> Look w z q (sk w m) o -> sx w m <= z -> Look w z (PBuilder p f) i o
  | L_leaf w z p i o :
      Look w z p i o -> Look w z (PLeaf p) i o
  | L_once w z u c i :
      AccL w z i u c 0 (inl true) -> Look w z (POnce u c) i (OK i (S i))
  | L_once_ko w z u c i :
      AccL w z i u c 0 (inl false) -> Look w z (POnce u c) i (KO EOnce)
  | L_once_err w z u c i e :
      AccL w z i u c 0 (inr e) -> Look w z (POnce u c) i (KO e)
  | L_opt w z u c i :
      AccL w z i u c 0 (inl true) -> Look w z (POpt u c) i (OK i (S i))
  | L_opt_none w z u c i :
      AccL w z i u c 0 (inl false) -> Look w z (POpt u c) i (OK i i)
  | L_opt_err w z u c i e :
      AccL w z i u c 0 (inr e) -> Look w z (POpt u c) i (KO e)
  | L_many0 w z u c i n :
      RunL w z i u c None 0 (inl n) -> Look w z (PMany0 u c) i (OK i (i + n))
  | L_many0_err w z u c i e :
      RunL w z i u c None 0 (inr e) -> Look w z (PMany0 u c) i (KO e)
  | L_many1 w z u c i n :
      RunL w z i u c None 0 (inl (S n)) -> Look w z (PMany1 u c) i (OK i (i + S n))
  | L_many1_ko w z u c i :
      RunL w z i u c None 0 (inl 0) -> Look w z (PMany1 u c) i (KO EMany1)
  | L_many1_err w z u c i e :
      RunL w z i u c None 0 (inr e) -> Look w z (PMany1 u c) i (KO e)
  | L_between_short w z m n u c i :
      length w < z -> too_short w i (m * min_length k u) -> Look w z (PBetween m n u c) i (KO EBetween)
  | L_between w z m n u c i t :
      fits w z i (m * min_length k u) -> RunL w z i u c n 0 (inl t) -> m <= t ->
      Look w z (PBetween m n u c) i (OK i (i + t))
  | L_between_ko w z m n u c i t :
      fits w z i (m * min_length k u) -> RunL w z i u c n 0 (inl t) -> t < m ->
      Look w z (PBetween m n u c) i (KO EBetween)
  | L_between_err w z m n u c i e :
      fits w z i (m * min_length k u) -> RunL w z i u c n 0 (inr e) -> Look w z (PBetween m n u c) i (KO e)
  | L_times_short w z r u c i :
      length w < z ->
      too_short w i (match r_lo r with Incl m => m | Excl m => m - 1 | Unb => 0 end * min_length k u) ->
      Look w z (PTimes r u c) i (KO ETimes)
  | L_times w z r u c i t :
      fits w z i (match r_lo r with Incl m => m | Excl m => m - 1 | Unb => 0 end * min_length k u) ->
      RunL w z i u c (limit_of r) 0 (inl t) -> crange_contains r t = true ->
      Look w z (PTimes r u c) i (OK i (i + t))
  | L_times_ko w z r u c i t :
      fits w z i (match r_lo r with Incl m => m | Excl m => m - 1 | Unb => 0 end * min_length k u) ->
      RunL w z i u c (limit_of r) 0 (inl t) -> crange_contains r t = false ->
      Look w z (PTimes r u c) i (KO ETimes)
  | L_times_err w z r u c i e :
      fits w z i (match r_lo r with Incl m => m | Excl m => m - 1 | Unb => 0 end * min_length k u) ->
      RunL w z i u c (limit_of r) 0 (inr e) -> Look w z (PTimes r u c) i (KO e)
  | L_neuthen_short w z u v c i :
      length w < z -> too_short w i (min_length k u + min_length k v) \/ length w < i + 2 ->
      Look w z (PNeuThen u v c) i (KO ENeureThen)
  | L_neuthen w z u v c i :
      fits w z i (min_length k u + min_length k v) -> i + 2 <= length w -> i + 2 <= z ->
      AccL w z i u c 0 (inl true) -> AccL w z i v c 1 (inl true) -> Look w z (PNeuThen u v c) i (OK i (i + 2))
  | L_neuthen_ko1 w z u v c i :
      fits w z i (min_length k u + min_length k v) -> i + 2 <= length w -> i + 2 <= z ->
      AccL w z i u c 0 (inl false) -> Look w z (PNeuThen u v c) i (KO ENeureThen)
  | L_neuthen_err1 w z u v c i e :
      fits w z i (min_length k u + min_length k v) -> i + 2 <= length w -> i + 2 <= z ->
      AccL w z i u c 0 (inr e) -> Look w z (PNeuThen u v c) i (KO e)
  | L_neuthen_ko2 w z u v c i :
      fits w z i (min_length k u + min_length k v) -> i + 2 <= length w -> i + 2 <= z ->
      AccL w z i u c 0 (inl true) -> AccL w z i v c 1 (inl false) -> Look w z (PNeuThen u v c) i (KO ENeureThen)
  | L_neuthen_err2 w z u v c i e :
      fits w z i (min_length k u + min_length k v) -> i + 2 <= length w -> i + 2 <= z ->
      AccL w z i u c 0 (inl true) -> AccL w z i v c 1 (inr e) -> Look w z (PNeuThen u v c) i (KO e)
  | L_then w z p q i b j b' j' :
      Look w z p i (OK b j) -> Look w z q (sk w j) (OK b' j') -> sx w j <= z -> Look w z (PThen p q) i (OK b j')
  | L_then_ko1 w z p q i e :
      Look w z p i (KO e) -> Look w z (PThen p q) i (KO e)
  | L_then_ko2 w z p q i b j e :
      Look w z p i (OK b j) -> Look w z q (sk w j) (KO e) -> sx w j <= z -> Look w z (PThen p q) i (KO e)
  | L_ifthen_ko1 w z p t q i e :
      Look w z p i (KO e) -> Look w z (PIfThen p t q) i (KO e)
  | L_ifthen_no w z p t q i b j e :
      Look w z p i (OK b j) -> Look w z t (sk w j) (KO e) -> sx w j <= z -> Look w z (PIfThen p t q) i (OK b j)
  | L_ifthen_yes w z p t q i b j b1 j1 b2 j2 :
      Look w z p i (OK b j) -> Look w z t (sk w j) (OK b1 j1) -> Look w z q (sk w j1) (OK b2 j2) ->
      sx w j <= z -> sx w j1 <= z -> Look w z (PIfThen p t q) i (OK b j2)
  | L_ifthen_ko2 w z p t q i b j b1 j1 e :
      Look w z p i (OK b j) -> Look w z t (sk w j) (OK b1 j1) -> Look w z q (sk w j1) (KO e) -> sx w j <= z ->
      sx w j1 <= z -> Look w z (PIfThen p t q) i (KO e)
  | L_prefix w z p pre i b j b' j' :
      Look w z pre i (OK b j) -> Look w z p (sk w j) (OK b' j') -> sx w j <= z ->
      Look w z (PPrefix p pre) i (OK b j')
  | L_prefix_ko1 w z p pre i e :
      Look w z pre i (KO e) -> Look w z (PPrefix p pre) i (KO e)
  | L_prefix_ko2 w z p pre i b j e :
      Look w z pre i (OK b j) -> Look w z p (sk w j) (KO e) -> sx w j <= z -> Look w z (PPrefix p pre) i (KO e)
  | L_suffix w z p suf i b j b' j' :
      Look w z p i (OK b j) -> Look w z suf (sk w j) (OK b' j') -> sx w j <= z ->
      Look w z (PSuffix p suf) i (OK b j')
  | L_suffix_ko1 w z p suf i e :
      Look w z p i (KO e) -> Look w z (PSuffix p suf) i (KO e)
  | L_suffix_ko2 w z p suf i b j e :
      Look w z p i (OK b j) -> Look w z suf (sk w j) (KO e) -> sx w j <= z -> Look w z (PSuffix p suf) i (KO e)
  | L_enclose w z p op cl i b j b1 j1 b2 j2 :
      Look w z op i (OK b j) -> Look w z p (sk w j) (OK b1 j1) -> Look w z cl (sk w j1) (OK b2 j2) ->
      sx w j <= z -> sx w j1 <= z -> Look w z (PEnclose p op cl) i (OK b j2)
  | L_enclose_ko1 w z p op cl i e :
      Look w z op i (KO e) -> Look w z (PEnclose p op cl) i (KO e)
  | L_enclose_ko2 w z p op cl i b j e :
      Look w z op i (OK b j) -> Look w z p (sk w j) (KO e) -> sx w j <= z ->
      Look w z (PEnclose p op cl) i (KO e)
  | L_enclose_ko3 w z p op cl i b j b1 j1 e :
      Look w z op i (OK b j) -> Look w z p (sk w j) (OK b1 j1) -> Look w z cl (sk w j1) (KO e) -> sx w j <= z ->
      sx w j1 <= z -> Look w z (PEnclose p op cl) i (KO e)
  | L_seponce w z p s q i b j b1 j1 b2 j2 :
      Look w z p i (OK b j) -> Look w z s (sk w j) (OK b1 j1) -> Look w z q (sk w j1) (OK b2 j2) ->
      sx w j <= z -> sx w j1 <= z -> Look w z (PSepOnce p s q) i (OK i j2)
  | L_seponce_ko1 w z p s q i e :
      Look w z p i (KO e) -> Look w z (PSepOnce p s q) i (KO e)
  | L_seponce_ko2 w z p s q i b j e :
      Look w z p i (OK b j) -> Look w z s (sk w j) (KO e) -> sx w j <= z -> Look w z (PSepOnce p s q) i (KO e)
  | L_seponce_ko3 w z p s q i b j b1 j1 e :
      Look w z p i (OK b j) -> Look w z s (sk w j) (OK b1 j1) -> Look w z q (sk w j1) (KO e) -> sx w j <= z ->
      sx w j1 <= z -> Look w z (PSepOnce p s q) i (KO e)
  | L_or1 w z p q i b j :
      Look w z p i (OK b j) -> Look w z (POr p q) i (OK b j)
  | L_or2 w z p q i e o :
      Look w z p i (KO e) -> Look w z q i o -> Look w z (POr p q) i o
  | L_longest_l w z p q i j j' :
      Look w z p i (OK i j) -> Look w z q i (OK i j') -> j' <= j -> Look w z (PLongest p q) i (OK i j)
  | L_longest_r w z p q i j j' :
      Look w z p i (OK i j) -> Look w z q i (OK i j') -> j < j' -> Look w z (PLongest p q) i (OK i j')
  | L_longest_l1 w z p q i j e :
      Look w z p i (OK i j) -> Look w z q i (KO e) -> Look w z (PLongest p q) i (OK i j)
  | L_longest_r1 w z p q i j e :
      Look w z p i (KO e) -> Look w z q i (OK i j) -> Look w z (PLongest p q) i (OK i j)
  | L_longest_ko w z p q i e e' :
      Look w z p i (KO e) -> Look w z q i (KO e') -> Look w z (PLongest p q) i (KO e')
  | L_choice w z e ps i o :
      FirstL w z ps i e o -> Look w z (PChoice e false ps) i o
  | L_pairchoice w z e ps i o :
      FirstL w z (map fst ps) i e o -> Look w z (PPairChoice e false ps) i o
  | L_option w z p i b j :
      Look w z p i (OK b j) -> Look w z (POption p) i (OK b j)
  | L_option_none w z p i e :
      Look w z p i (KO e) -> Look w z (POption p) i (OK i i)
  | L_branch_t w z t p q i o :
      length w < z -> t (cx w i) = Ok true -> Look w z p i o -> Look w z (PBranch t p q) i o
  | L_branch_f w z t p q i o :
      length w < z -> t (cx w i) = Ok false -> Look w z q i o -> Look w z (PBranch t p q) i o
  | L_branch_e w z t p q i e :
      length w < z -> t (cx w i) = Err e -> Look w z (PBranch t p q) i (KO e)
  | L_sep w z p s mn i n j :
      SepsL w z p s None i n j -> mn <= n -> Look w z (PSep p s mn true) i (OK i j)
  | L_sep_ko w z p s mn i n j :
      SepsL w z p s None i n j -> n < mn -> Look w z (PSep p s mn true) i (KO ESeparate)
  | L_sepcollect w z p s mn i n j :
      SepsL w z p s None i n j -> mn <= n -> Look w z (PSepCollect p s mn true) i (OK i j)
  | L_sepcollect_ko w z p s mn i n j :
      SepsL w z p s None i n j -> n < mn -> Look w z (PSepCollect p s mn true) i (KO ESepCollect)
  | L_sep2 w z p s m l i n j :
      SepsL w z p s (Some (S l)) i n j -> m <= n -> Look w z (PSep2 p s m l true) i (OK i j)
  | L_sep2_ko w z p s m l i n j :
      SepsL w z p s (Some (S l)) i n j -> n < m -> Look w z (PSep2 p s m l true) i (KO ESeparate2)
  | L_repeat w z p r i n j :
      RepsL w z p (limit_of r) i n j -> crange_contains r n = true -> Look w z (PRepeat p r) i (OK i j)
  | L_repeat_ko w z p r i n j :
      RepsL w z p (limit_of r) i n j -> crange_contains r n = false -> Look w z (PRepeat p r) i (KO ERepeat)
  | L_repeat2 w z p m l i n j :
      RepsL w z p (Some (S l)) i n j -> m <= n -> n <= l -> Look w z (PRepeat2 p m l) i (OK i j)
  | L_repeat2_ko w z p m l i n j :
      RepsL w z p (Some (S l)) i n j -> n < m \/ l < n -> Look w z (PRepeat2 p m l) i (KO ERepeat2)
  | L_collect w z p mn i n j :
      RepsL w z p None i n j -> mn <= n -> Look w z (PCollect p mn) i (OK i j)
  | L_collect_ko w z p mn i n j :
      RepsL w z p None i n j -> n < mn -> Look w z (PCollect p mn) i (KO ECollect)
  | L_pat w z p i o :
      Look w z p i o -> Look w z (PPat p) i o
  | L_map w z p f i o :
      Look w z p i o -> Look w z (PMap p f) i o
  | L_wrap w z p i o :
      Look w z p i o -> Look w z (PWrap p) i o
  | L_nonep w z i :
      Look w z PNoneP i (KO EOption)
  | L_ref w z x p i o :
      env_get G x = Some p -> Look w z p i o -> Look w z (PRef x) i o
  | L_ref_none w z x i :
      env_get G x = None -> Look w z (PRef x) i (KO EOption)

  (** The test of one item, *)
  with AccL : text -> nat -> nat -> neu -> cond -> nat -> bool + error -> Prop :=
  | AccL_end w z i u c m :
      length w < z -> length w <= i + m -> AccL w z i u c m (inl false)
  | AccL_no w z i u c m x :
      i + m < z -> nth_error w (i + m) = Some x -> is_match u x = false -> AccL w z i u c m (inl false)
  | AccL_yes w z i u c m x r :
      i + m < z -> nth_error w (i + m) = Some x -> is_match u x = true -> ChkL w z i c m x r ->
      AccL w z i u c m r

  (** the condition at it, *)
  with ChkL : text -> nat -> nat -> cond -> nat -> item -> bool + error -> Prop :=
  | ChkL_empty w z i m x :
      ChkL w z i CEmpty m x (inl true)
  | ChkL_fn w z i f m x b :
      length w < z -> f (cx w i) (bo k w (i + m) - bo k w i, x) = Ok b -> ChkL w z i (CFn f) m x (inl b)
  | ChkL_fn_err w z i f m x e :
      length w < z -> f (cx w i) (bo k w (i + m) - bo k w i, x) = Err e -> ChkL w z i (CFn f) m x (inr e)
  | ChkL_regex w z i p m x b j :
      sx (skipn (i + m) w) 0 <= z - (i + m) -> i + m <= z ->
      Look (skipn (i + m) w) (z - (i + m)) p (sk (skipn (i + m) w) 0) (OK b j) ->
      ChkL w z i (CRegex p) m x (inl true)
  | ChkL_regex_no w z i p m x e :
      sx (skipn (i + m) w) 0 <= z - (i + m) -> i + m <= z ->
      Look (skipn (i + m) w) (z - (i + m)) p (sk (skipn (i + m) w) 0) (KO e) ->
      ChkL w z i (CRegex p) m x (inl false)

  (** a run of items, *)
  with RunL : text -> nat -> nat -> neu -> cond -> option nat -> nat -> nat + error -> Prop :=
  | RunL_lim w z i u c m :
      RunL w z i u c (Some 0) m (inl 0)
  | RunL_stop w z i u c lim m :
      lim <> Some 0 -> AccL w z i u c m (inl false) -> RunL w z i u c lim m (inl 0)
  | RunL_err w z i u c lim m e :
      lim <> Some 0 -> AccL w z i u c m (inr e) -> RunL w z i u c lim m (inr e)
  | RunL_step w z i u c lim m n :
      lim <> Some 0 -> AccL w z i u c m (inl true) -> RunL w z i u c (limit_pred lim) (S m) (inl n) ->
      RunL w z i u c lim m (inl (S n))
  | RunL_step_err w z i u c lim m e :
      lim <> Some 0 -> AccL w z i u c m (inl true) -> RunL w z i u c (limit_pred lim) (S m) (inr e) ->
      RunL w z i u c lim m (inr e)

  (** the repetitions of a loop, *)
  with RepsL : text -> nat -> pat -> option nat -> nat -> nat -> nat -> Prop :=
  | RepsL_lim w z p i :
      RepsL w z p (Some 0) i 0 i
  | RepsL_stop w z p lim i e :
      lim <> Some 0 -> Look w z p (sk w i) (KO e) -> sx w i <= z -> RepsL w z p lim i 0 i
  | RepsL_step w z p lim i b j n j' :
      lim <> Some 0 -> Look w z p (sk w i) (OK b j) -> RepsL w z p (limit_pred lim) j n j' -> sx w i <= z ->
      RepsL w z p lim i (S n) j'

  (** those of a separated loop, *)
  with SepsL : text -> nat -> pat -> pat -> option nat -> nat -> nat -> nat -> Prop :=
  | SepsL_lim w z p s i :
      SepsL w z p s (Some 0) i 0 i
  | SepsL_stop w z p s lim i e :
      lim <> Some 0 -> Look w z p (sk w i) (KO e) -> sx w i <= z -> SepsL w z p s lim i 0 i
  | SepsL_last w z p s lim i b j e :
      lim <> Some 0 -> Look w z p (sk w i) (OK b j) -> Look w z s (sk w j) (KO e) -> sx w i <= z ->
      sx w j <= z -> SepsL w z p s lim i 1 j
  | SepsL_step w z p s lim i b j b' j' n j'' :
      lim <> Some 0 -> Look w z p (sk w i) (OK b j) -> Look w z s (sk w j) (OK b' j') ->
      SepsL w z p s (limit_pred lim) j' n j'' -> sx w i <= z -> sx w j <= z -> SepsL w z p s lim i (S n) j''

  (** and the alternatives of a choice. *)
  with FirstL : text -> nat -> list pat -> nat -> error -> out -> Prop :=
  | FirstL_nil w z i e :
      FirstL w z [] i e (KO e)
  | FirstL_hit w z p ps i e b j :
      Look w z p i (OK b j) -> FirstL w z (p :: ps) i e (OK b j)
  | FirstL_next w z p ps i e e' o :
      Look w z p i (KO e') -> FirstL w z ps i e o -> FirstL w z (p :: ps) i e o.
End Look.

Scheme Look_ind' := Minimality for Look Sort Prop
  with AccL_ind' := Minimality for AccL Sort Prop
  with ChkL_ind' := Minimality for ChkL Sort Prop
  with RunL_ind' := Minimality for RunL Sort Prop
  with RepsL_ind' := Minimality for RepsL Sort Prop
  with SepsL_ind' := Minimality for SepsL Sort Prop
  with FirstL_ind' := Minimality for FirstL Sort Prop.
Combined Scheme Look_mutind from Look_ind', AccL_ind', ChkL_ind', RunL_ind', RepsL_ind', SepsL_ind', FirstL_ind'.
