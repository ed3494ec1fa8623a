(** Specification of matching: a parsing-expression grammar over item positions.

    No cursor, no fuel, no guard, no byte arithmetic: a text is a list of items, a position is an
    index into it, and a parser relates a start position to [OK b j] (it matched the items
    [b .. j-1]) or [KO e] (it failed with [e]).

    [sk] is the lexical skipper: it maps a position to the position reached after skipping whatever
    the context skips before each match ([skip_before], [skip_ascii_whitespace], ...).  For a plain
    context it is the identity, and the rules below are those of ordinary PEGs. *)

From Coq Require Import List Arith NArith Bool.
From Verif Require Import Base Text Context Neu Syntax TextProofs.
Import ListNotations.

Inductive out : Type := OK (b j : nat) | KO (e : error).

Section Spec.
  Variable k : kind.
  Variable G : env.
  Variable sk : text -> nat -> nat.

  (** The context with data [w] whose cursor is in front of item [i]. *)
  Definition cx (w : text) (i : nat) : ctx := Ctx k w (bo k w i).
  (** The byte span covering items [b .. j-1]. *)
  Definition sp (w : text) (b j : nat) : span := Span (bo k w b) (bo k w j - bo k w b).

  (** How many iterations a repetition may make at most. *)
  Definition limit_of (r : crange) : option nat :=
    match r_hi r with Incl m => Some m | Excl m => Some (m - 1) | Unb => None end.
  Definition limit_pred (lim : option nat) : option nat := option_map pred lim.

  (** Fewer bytes left than the minimum the code asks for before it looks at the text. *)
  Definition too_short (w : text) (i need : nat) : Prop := tlen k w - bo k w i < need.

  Inductive Peg : text -> pat -> nat -> out -> Prop :=
  | Peg_empty w i : Peg w PEmpty i (OK i i)
  | Peg_fail w i : Peg w PFail i (KO EFail)
  | Peg_start w : Peg w PStart 0 (OK 0 0)
  | Peg_start_ko w i : 0 < i -> Peg w PStart i (KO EAnchorStart)
  | Peg_end w i : i = length w -> Peg w PEnd i (OK i i)
  | Peg_end_ko w i : i < length w -> Peg w PEnd i (KO EAnchorEnd)
  | Peg_consume w i j n :
      j <= length w -> bo k w j = bo k w i + n -> Peg w (PConsume n) i (OK i j)
  | Peg_consume_ko w i n : tlen k w < bo k w i + n -> Peg w (PConsume n) i (KO EConsume)
  | Peg_consume_all w i : Peg w PConsumeAll i (OK i (length w))
  | Peg_lit w i l :
      firstn (length l) (skipn i w) = l -> Peg w (PLit l) i (OK i (i + length l))
  | Peg_lit_ko w i l :
      firstn (length l) (skipn i w) <> l -> Peg w (PLit l) i (KO ELiteral)
  | Peg_peek w p i b j : Peg w p i (OK b j) -> Peg w (PAssert p true) i (OK i i)
  | Peg_peek_ko w p i e : Peg w p i (KO e) -> Peg w (PAssert p true) i (KO EAssertTrue)
  | Peg_not w p i e : Peg w p i (KO e) -> Peg w (PAssert p false) i (OK i i)
  | Peg_not_ko w p i b j : Peg w p i (OK b j) -> Peg w (PAssert p false) i (KO EAssertFalse)
  | Peg_fn w f i b j :
      f (cx w i) = (Ok (sp w b j), cx w j) -> i <= b -> b <= j -> j <= length w ->
      Peg w (PFn f) i (OK b j)
  | Peg_fn_ko w f i e : f (cx w i) = (Err e, cx w i) -> Peg w (PFn f) i (KO e)
  | Peg_builder_ko w p f i e : Peg w p i (KO e) -> Peg w (PBuilder p f) i (KO e)
  | Peg_builder w p f i b j q m o :
      Peg w p i (OK b j) -> f (cx w j) (sp w b j) = (Ok q, cx w m) -> b <= m -> m <= length w ->
      Peg w q (sk w m) o -> Peg w (PBuilder p f) i o
  | Peg_leaf w p i o : Peg w p i o -> Peg w (PLeaf p) i o
  (* one item / runs of items *)
  | Peg_once w u c i : Acc w i u c 0 (inl true) -> Peg w (POnce u c) i (OK i (S i))
  | Peg_once_ko w u c i : Acc w i u c 0 (inl false) -> Peg w (POnce u c) i (KO EOnce)
  | Peg_once_err w u c i e : Acc w i u c 0 (inr e) -> Peg w (POnce u c) i (KO e)
  | Peg_opt w u c i : Acc w i u c 0 (inl true) -> Peg w (POpt u c) i (OK i (S i))
  | Peg_opt_none w u c i : Acc w i u c 0 (inl false) -> Peg w (POpt u c) i (OK i i)
  | Peg_opt_err w u c i e : Acc w i u c 0 (inr e) -> Peg w (POpt u c) i (KO e)
  | Peg_many0 w u c i n : Run w i u c None 0 (inl n) -> Peg w (PMany0 u c) i (OK i (i + n))
  | Peg_many0_err w u c i e : Run w i u c None 0 (inr e) -> Peg w (PMany0 u c) i (KO e)
  | Peg_many1 w u c i n : Run w i u c None 0 (inl (S n)) -> Peg w (PMany1 u c) i (OK i (i + S n))
  | Peg_many1_ko w u c i : Run w i u c None 0 (inl 0) -> Peg w (PMany1 u c) i (KO EMany1)
  | Peg_many1_err w u c i e : Run w i u c None 0 (inr e) -> Peg w (PMany1 u c) i (KO e)
  | Peg_between_short w m n u c i :
      too_short w i (m * min_length k u) -> Peg w (PBetween m n u c) i (KO EBetween)
  | Peg_between w m n u c i t :
      ~ too_short w i (m * min_length k u) -> Run w i u c n 0 (inl t) -> m <= t ->
      Peg w (PBetween m n u c) i (OK i (i + t))
  | Peg_between_ko w m n u c i t :
      ~ too_short w i (m * min_length k u) -> Run w i u c n 0 (inl t) -> t < m ->
      Peg w (PBetween m n u c) i (KO EBetween)
  | Peg_between_err w m n u c i e :
      ~ too_short w i (m * min_length k u) -> Run w i u c n 0 (inr e) ->
      Peg w (PBetween m n u c) i (KO e)
  | Peg_times_short w r u c i :
      too_short w i (match r_lo r with Incl m => m | Excl m => m - 1 | Unb => 0 end * min_length k u) ->
      Peg w (PTimes r u c) i (KO ETimes)
  | Peg_times w r u c i t :
      ~ too_short w i (match r_lo r with Incl m => m | Excl m => m - 1 | Unb => 0 end * min_length k u) ->
      Run w i u c (limit_of r) 0 (inl t) -> crange_contains r t = true ->
      Peg w (PTimes r u c) i (OK i (i + t))
  | Peg_times_ko w r u c i t :
      ~ too_short w i (match r_lo r with Incl m => m | Excl m => m - 1 | Unb => 0 end * min_length k u) ->
      Run w i u c (limit_of r) 0 (inl t) -> crange_contains r t = false ->
      Peg w (PTimes r u c) i (KO ETimes)
  | Peg_times_err w r u c i e :
      ~ too_short w i (match r_lo r with Incl m => m | Excl m => m - 1 | Unb => 0 end * min_length k u) ->
      Run w i u c (limit_of r) 0 (inr e) -> Peg w (PTimes r u c) i (KO e)
  | Peg_neuthen_short w u v c i :
      too_short w i (min_length k u + min_length k v) \/ length w < i + 2 ->
      Peg w (PNeuThen u v c) i (KO ENeureThen)
  | Peg_neuthen w u v c i :
      ~ too_short w i (min_length k u + min_length k v) -> i + 2 <= length w ->
      Acc w i u c 0 (inl true) -> Acc w i v c 1 (inl true) ->
      Peg w (PNeuThen u v c) i (OK i (i + 2))
  | Peg_neuthen_ko1 w u v c i :
      ~ too_short w i (min_length k u + min_length k v) -> i + 2 <= length w ->
      Acc w i u c 0 (inl false) -> Peg w (PNeuThen u v c) i (KO ENeureThen)
  | Peg_neuthen_err1 w u v c i e :
      ~ too_short w i (min_length k u + min_length k v) -> i + 2 <= length w ->
      Acc w i u c 0 (inr e) -> Peg w (PNeuThen u v c) i (KO e)
  | Peg_neuthen_ko2 w u v c i :
      ~ too_short w i (min_length k u + min_length k v) -> i + 2 <= length w ->
      Acc w i u c 0 (inl true) -> Acc w i v c 1 (inl false) ->
      Peg w (PNeuThen u v c) i (KO ENeureThen)
  | Peg_neuthen_err2 w u v c i e :
      ~ too_short w i (min_length k u + min_length k v) -> i + 2 <= length w ->
      Acc w i u c 0 (inl true) -> Acc w i v c 1 (inr e) ->
      Peg w (PNeuThen u v c) i (KO e)
  (* sequences *)
  | Peg_then w p q i b j b' j' :
      Peg w p i (OK b j) -> Peg w q (sk w j) (OK b' j') -> Peg w (PThen p q) i (OK b j')
  | Peg_then_ko1 w p q i e : Peg w p i (KO e) -> Peg w (PThen p q) i (KO e)
  | Peg_then_ko2 w p q i b j e :
      Peg w p i (OK b j) -> Peg w q (sk w j) (KO e) -> Peg w (PThen p q) i (KO e)
  | Peg_ifthen_ko1 w p t q i e : Peg w p i (KO e) -> Peg w (PIfThen p t q) i (KO e)
  | Peg_ifthen_no w p t q i b j e :
      Peg w p i (OK b j) -> Peg w t (sk w j) (KO e) -> Peg w (PIfThen p t q) i (OK b j)
  | Peg_ifthen_yes w p t q i b j b1 j1 b2 j2 :
      Peg w p i (OK b j) -> Peg w t (sk w j) (OK b1 j1) -> Peg w q (sk w j1) (OK b2 j2) ->
      Peg w (PIfThen p t q) i (OK b j2)
  | Peg_ifthen_ko2 w p t q i b j b1 j1 e :
      Peg w p i (OK b j) -> Peg w t (sk w j) (OK b1 j1) -> Peg w q (sk w j1) (KO e) ->
      Peg w (PIfThen p t q) i (KO e)
  | Peg_prefix w p pre i b j b' j' :
      Peg w pre i (OK b j) -> Peg w p (sk w j) (OK b' j') -> Peg w (PPrefix p pre) i (OK b j')
  | Peg_prefix_ko1 w p pre i e : Peg w pre i (KO e) -> Peg w (PPrefix p pre) i (KO e)
  | Peg_prefix_ko2 w p pre i b j e :
      Peg w pre i (OK b j) -> Peg w p (sk w j) (KO e) -> Peg w (PPrefix p pre) i (KO e)
  | Peg_suffix w p suf i b j b' j' :
      Peg w p i (OK b j) -> Peg w suf (sk w j) (OK b' j') -> Peg w (PSuffix p suf) i (OK b j')
  | Peg_suffix_ko1 w p suf i e : Peg w p i (KO e) -> Peg w (PSuffix p suf) i (KO e)
  | Peg_suffix_ko2 w p suf i b j e :
      Peg w p i (OK b j) -> Peg w suf (sk w j) (KO e) -> Peg w (PSuffix p suf) i (KO e)
  | Peg_enclose w p op cl i b j b1 j1 b2 j2 :
      Peg w op i (OK b j) -> Peg w p (sk w j) (OK b1 j1) -> Peg w cl (sk w j1) (OK b2 j2) ->
      Peg w (PEnclose p op cl) i (OK b j2)
  | Peg_enclose_ko1 w p op cl i e : Peg w op i (KO e) -> Peg w (PEnclose p op cl) i (KO e)
  | Peg_enclose_ko2 w p op cl i b j e :
      Peg w op i (OK b j) -> Peg w p (sk w j) (KO e) -> Peg w (PEnclose p op cl) i (KO e)
  | Peg_enclose_ko3 w p op cl i b j b1 j1 e :
      Peg w op i (OK b j) -> Peg w p (sk w j) (OK b1 j1) -> Peg w cl (sk w j1) (KO e) ->
      Peg w (PEnclose p op cl) i (KO e)
  | Peg_seponce w p s q i b j b1 j1 b2 j2 :
      Peg w p i (OK b j) -> Peg w s (sk w j) (OK b1 j1) -> Peg w q (sk w j1) (OK b2 j2) ->
      Peg w (PSepOnce p s q) i (OK i j2)
  | Peg_seponce_ko1 w p s q i e : Peg w p i (KO e) -> Peg w (PSepOnce p s q) i (KO e)
  | Peg_seponce_ko2 w p s q i b j e :
      Peg w p i (OK b j) -> Peg w s (sk w j) (KO e) -> Peg w (PSepOnce p s q) i (KO e)
  | Peg_seponce_ko3 w p s q i b j b1 j1 e :
      Peg w p i (OK b j) -> Peg w s (sk w j) (OK b1 j1) -> Peg w q (sk w j1) (KO e) ->
      Peg w (PSepOnce p s q) i (KO e)
  (* choice *)
  | Peg_or1 w p q i b j : Peg w p i (OK b j) -> Peg w (POr p q) i (OK b j)
  | Peg_or2 w p q i e o : Peg w p i (KO e) -> Peg w q i o -> Peg w (POr p q) i o
  | Peg_longest_l w p q i j j' :
      Peg w p i (OK i j) -> Peg w q i (OK i j') -> j' <= j -> Peg w (PLongest p q) i (OK i j)
  | Peg_longest_r w p q i j j' :
      Peg w p i (OK i j) -> Peg w q i (OK i j') -> j < j' -> Peg w (PLongest p q) i (OK i j')
  | Peg_longest_l1 w p q i j e :
      Peg w p i (OK i j) -> Peg w q i (KO e) -> Peg w (PLongest p q) i (OK i j)
  | Peg_longest_r1 w p q i j e :
      Peg w p i (KO e) -> Peg w q i (OK i j) -> Peg w (PLongest p q) i (OK i j)
  | Peg_longest_ko w p q i e e' :
      Peg w p i (KO e) -> Peg w q i (KO e') -> Peg w (PLongest p q) i (KO e')
  | Peg_choice w e ps i o : First w ps i e o -> Peg w (PChoice e false ps) i o
  | Peg_pairchoice w e ps i o : First w (map fst ps) i e o -> Peg w (PPairChoice e false ps) i o
  | Peg_option w p i b j : Peg w p i (OK b j) -> Peg w (POption p) i (OK b j)
  | Peg_option_none w p i e : Peg w p i (KO e) -> Peg w (POption p) i (OK i i)
  | Peg_branch_t w t p q i o : t (cx w i) = Ok true -> Peg w p i o -> Peg w (PBranch t p q) i o
  | Peg_branch_f w t p q i o : t (cx w i) = Ok false -> Peg w q i o -> Peg w (PBranch t p q) i o
  | Peg_branch_e w t p q i e : t (cx w i) = Err e -> Peg w (PBranch t p q) i (KO e)
  (* repetition *)
  | Peg_sep w p s mn i n j :
      Seps w p s None i n j -> mn <= n -> Peg w (PSep p s mn true) i (OK i j)
  | Peg_sep_ko w p s mn i n j :
      Seps w p s None i n j -> n < mn -> Peg w (PSep p s mn true) i (KO ESeparate)
  | Peg_sepcollect w p s mn i n j :
      Seps w p s None i n j -> mn <= n -> Peg w (PSepCollect p s mn true) i (OK i j)
  | Peg_sepcollect_ko w p s mn i n j :
      Seps w p s None i n j -> n < mn -> Peg w (PSepCollect p s mn true) i (KO ESepCollect)
  | Peg_sep2 w p s m l i n j :
      Seps w p s (Some (S l)) i n j -> m <= n -> Peg w (PSep2 p s m l true) i (OK i j)
  | Peg_sep2_ko w p s m l i n j :
      Seps w p s (Some (S l)) i n j -> n < m -> Peg w (PSep2 p s m l true) i (KO ESeparate2)
  | Peg_repeat w p r i n j :
      Reps w p (limit_of r) i n j -> crange_contains r n = true -> Peg w (PRepeat p r) i (OK i j)
  | Peg_repeat_ko w p r i n j :
      Reps w p (limit_of r) i n j -> crange_contains r n = false ->
      Peg w (PRepeat p r) i (KO ERepeat)
  | Peg_repeat2 w p m l i n j :
      Reps w p (Some (S l)) i n j -> m <= n -> n <= l -> Peg w (PRepeat2 p m l) i (OK i j)
  | Peg_repeat2_ko w p m l i n j :
      Reps w p (Some (S l)) i n j -> n < m \/ l < n -> Peg w (PRepeat2 p m l) i (KO ERepeat2)
  | Peg_collect w p mn i n j :
      Reps w p None i n j -> mn <= n -> Peg w (PCollect p mn) i (OK i j)
  | Peg_collect_ko w p mn i n j :
      Reps w p None i n j -> n < mn -> Peg w (PCollect p mn) i (KO ECollect)
  (* wrappers and references *)
  | Peg_pat w p i o : Peg w p i o -> Peg w (PPat p) i o
  | Peg_map w p f i o : Peg w p i o -> Peg w (PMap p f) i o
  | Peg_wrap w p i o : Peg w p i o -> Peg w (PWrap p) i o
  | Peg_nonep w i : Peg w PNoneP i (KO EOption)
  | Peg_ref w x p i o : env_get G x = Some p -> Peg w p i o -> Peg w (PRef x) i o
  | Peg_ref_none w x i : env_get G x = None -> Peg w (PRef x) i (KO EOption)

  (** [Acc w i u c m r]: does a unit regex standing at [i] accept the [m]-th item after [i]? *)
  with Acc : text -> nat -> neu -> cond -> nat -> bool + error -> Prop :=
  | Acc_end w i u c m : length w <= i + m -> Acc w i u c m (inl false)
  | Acc_no w i u c m x :
      nth_error w (i + m) = Some x -> is_match u x = false -> Acc w i u c m (inl false)
  | Acc_yes w i u c m x r :
      nth_error w (i + m) = Some x -> is_match u x = true -> Chk w i c m x r -> Acc w i u c m r

  (** Conditions: a closure looks at the context and the item; a regex condition must match at the
      item, in the text that starts there. *)
  with Chk : text -> nat -> cond -> nat -> item -> bool + error -> Prop :=
  | Chk_empty w i m x : Chk w i CEmpty m x (inl true)
  | Chk_fn w i f m x b :
      f (cx w i) (bo k w (i + m) - bo k w i, x) = Ok b -> Chk w i (CFn f) m x (inl b)
  | Chk_fn_err w i f m x e :
      f (cx w i) (bo k w (i + m) - bo k w i, x) = Err e -> Chk w i (CFn f) m x (inr e)
  | Chk_regex w i p m x b j :
      Peg (skipn (i + m) w) p (sk (skipn (i + m) w) 0) (OK b j) ->
      Chk w i (CRegex p) m x (inl true)
  | Chk_regex_no w i p m x e :
      Peg (skipn (i + m) w) p (sk (skipn (i + m) w) 0) (KO e) ->
      Chk w i (CRegex p) m x (inl false)

  (** [Run w i u c lim m r]: starting at the [m]-th item after [i], the maximal run of accepted
      items of length at most [lim] has length [r] (or a condition failed with an error). *)
  with Run : text -> nat -> neu -> cond -> option nat -> nat -> nat + error -> Prop :=
  | Run_lim w i u c m : Run w i u c (Some 0) m (inl 0)
  | Run_stop w i u c lim m : lim <> Some 0 -> Acc w i u c m (inl false) -> Run w i u c lim m (inl 0)
  | Run_err w i u c lim m e : lim <> Some 0 -> Acc w i u c m (inr e) -> Run w i u c lim m (inr e)
  | Run_step w i u c lim m n :
      lim <> Some 0 -> Acc w i u c m (inl true) -> Run w i u c (limit_pred lim) (S m) (inl n) ->
      Run w i u c lim m (inl (S n))
  | Run_step_err w i u c lim m e :
      lim <> Some 0 -> Acc w i u c m (inl true) -> Run w i u c (limit_pred lim) (S m) (inr e) ->
      Run w i u c lim m (inr e)

  (** [Reps w p lim i n j]: greedy repetition of [p] from [i], at most [lim] times: [n] matches,
      the last one ending at [j]. *)
  with Reps : text -> pat -> option nat -> nat -> nat -> nat -> Prop :=
  | Reps_lim w p i : Reps w p (Some 0) i 0 i
  | Reps_stop w p lim i e : lim <> Some 0 -> Peg w p (sk w i) (KO e) -> Reps w p lim i 0 i
  | Reps_step w p lim i b j n j' :
      lim <> Some 0 -> Peg w p (sk w i) (OK b j) -> Reps w p (limit_pred lim) j n j' ->
      Reps w p lim i (S n) j'

  (** [Seps w p s lim i n j]: greedy repetition of [p] separated (and optionally followed) by [s]:
      [n] elements, the last element or separator ending at [j]. *)
  with Seps : text -> pat -> pat -> option nat -> nat -> nat -> nat -> Prop :=
  | Seps_lim w p s i : Seps w p s (Some 0) i 0 i
  | Seps_stop w p s lim i e : lim <> Some 0 -> Peg w p (sk w i) (KO e) -> Seps w p s lim i 0 i
  | Seps_last w p s lim i b j e :
      lim <> Some 0 -> Peg w p (sk w i) (OK b j) -> Peg w s (sk w j) (KO e) -> Seps w p s lim i 1 j
  | Seps_step w p s lim i b j b' j' n j'' :
      lim <> Some 0 -> Peg w p (sk w i) (OK b j) -> Peg w s (sk w j) (OK b' j') ->
      Seps w p s (limit_pred lim) j' n j'' -> Seps w p s lim i (S n) j''

  (** First alternative that matches. *)
  with First : text -> list pat -> nat -> error -> out -> Prop :=
  | First_nil w i e : First w [] i e (KO e)
  | First_hit w p ps i e b j : Peg w p i (OK b j) -> First w (p :: ps) i e (OK b j)
  | First_next w p ps i e e' o : Peg w p i (KO e') -> First w ps i e o -> First w (p :: ps) i e o.

End Spec.

Scheme Peg_ind' := Minimality for Peg Sort Prop
  with Acc_ind' := Minimality for Acc Sort Prop
  with Chk_ind' := Minimality for Chk Sort Prop
  with Run_ind' := Minimality for Run Sort Prop
  with Reps_ind' := Minimality for Reps Sort Prop
  with Seps_ind' := Minimality for Seps Sort Prop
  with First_ind' := Minimality for First Sort Prop.
Combined Scheme Peg_mutind from Peg_ind', Acc_ind', Chk_ind', Run_ind', Reps_ind', Seps_ind',
  First_ind'.
