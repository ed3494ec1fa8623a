(** Matching mode: [Regex::try_parse] and [Match::try_mat]. *)

From Coq Require Import List Arith NArith Bool.
From Verif Require Import Base Text Context Neu Syntax.
Import ListNotations.

(** src/neu.rs:707-711 [calc_length] (checked subtraction). *)
Definition calc_length (beg endo : option nat) (rem : nat) : res nat :=
  match beg with
  | None => Ok 0
  | Some b => csub (match endo with Some e => e | None => rem end) b
  end.

(** The [for pair in iter.by_ref()] loop shared by [Many0] (src/neu/opt.rs:398-407) and [Many1]
    (src/neu/once.rs:386-394): returns [beg] and [end]. *)
Fixpoint scan (u : item -> bool) (chk : nat * item -> res bool) (beg : option nat)
    (l : list (nat * item)) : res (option nat * option nat) :=
  match l with
  | [] => Ok (beg, None)
  | x :: l' =>
      if negb (u (snd x)) then Ok (beg, Some (fst x))
      else match chk x with
           | Ok true => scan u chk (match beg with None => Some (fst x) | b => b end) l'
           | Ok false => Ok (beg, Some (fst x))
           | Err e => Err e
           | Panic => Panic
           | OOF => OOF
           end
  end.

(** The [while cond(cnt)] loop shared by [Between] (src/neu/times.rs:235-248) and [Times]
    (457-470) together with [end.or_else(|| iter.next())]: returns [cnt], [beg] and [end]. *)
Fixpoint scan_n (u : item -> bool) (chk : nat * item -> res bool) (more : nat -> bool)
    (cnt : nat) (beg : option nat) (l : list (nat * item)) : res (nat * option nat * option nat) :=
  match l with
  | [] => Ok (cnt, beg, None)
  | x :: l' =>
      if more cnt then
        if u (snd x) then
          match chk x with
          | Ok true => scan_n u chk more (S cnt) (match beg with None => Some (fst x) | b => b end) l'
          | Ok false => Ok (cnt, beg, Some (fst x))
          | Err e => Err e
          | Panic => Panic
          | OOF => OOF
          end
        else Ok (cnt, beg, Some (fst x))
      else Ok (cnt, beg, Some (fst x))
  end.

(** Offset of the item an iterator yields next. *)
Definition next_off (l : list (nat * item)) : option nat :=
  match l with [] => None | x :: _ => Some (fst x) end.

(** Condition type of a unit regex after resolution: [NeuCond::check]. *)
Definition check_t : Type := ctx -> nat * item -> res bool.

(** src/neu/once.rs:185-200 [Once::try_parse]. *)
Definition once_parse (u : neu) (chk : check_t) : M ctx span :=
  l <- reads peek ;;
  rem <- remaining ;;
  match l with
  | [] => fail EOnce
  | x :: l' =>
      if is_match u (snd x) then
        b <- reads (fun c => chk c x) ;;
        if b : bool then
          n <- lift (calc_length (Some (fst x)) (next_off l') rem) ;;
          new_span_inc n
        else fail EOnce
      else fail EOnce
  end.

(** src/neu/once.rs:379-403 [Many1::try_parse]. *)
Definition many1_parse (u : neu) (chk : check_t) : M ctx span :=
  l <- reads peek ;;
  rem <- remaining ;;
  be <- reads (fun c => scan (is_match u) (chk c) None l) ;;
  match fst be with
  | Some b => n <- lift (calc_length (Some b) (snd be) rem) ;; new_span_inc n
  | None => fail EMany1
  end.

(** src/neu/opt.rs:196-211 [Opt::try_parse] (a failing [peek] gives the empty match). *)
Definition opt_parse (u : neu) (chk : check_t) : M ctx span :=
  o <- offset ;;
  rem <- remaining ;;
  ml <- catch (reads peek) ;;
  match ml with
  | inl (x :: l') =>
      if is_match u (snd x) then
        b <- reads (fun c => chk c x) ;;
        if b : bool then
          n <- lift (calc_length (Some (fst x)) (next_off l') rem) ;;
          new_span_inc n
        else ret (Span o 0)
      else ret (Span o 0)
  | _ => ret (Span o 0)
  end.

(** src/neu/opt.rs:392-416 [Many0::try_parse]. *)
Definition many0_parse (u : neu) (chk : check_t) : M ctx span :=
  o <- offset ;;
  rem <- remaining ;;
  ml <- catch (reads peek) ;;
  match ml with
  | inl l =>
      be <- reads (fun c => scan (is_match u) (chk c) None l) ;;
      match fst be with
      | Some b => n <- lift (calc_length (Some b) (snd be) rem) ;; new_span_inc n
      | None => ret (Span o 0)
      end
  | inr _ => ret (Span o 0)
  end.

(** src/neu/times.rs:224-257 [Between::try_parse]; [None] stands for [N = usize::MAX]
    (src/neu.rs:714, 730). *)
Definition between_parse (m : nat) (n : option nat) (u : neu) (chk : check_t) : M ctx span :=
  l <- reads peek ;;
  rem <- remaining ;;
  k <- reads (fun c => Ok (c_kind c)) ;;
  if m * min_length k u <=? rem then
    r <- reads (fun c => scan_n (is_match u) (chk c)
                           (fun cnt => match n with Some n => cnt <? n | None => true end)
                           0 None l) ;;
    let '(cnt, beg, en) := r in
    if m <=? cnt then
      len <- lift (calc_length beg en rem) ;; new_span_inc len
    else fail EBetween
  else fail EBetween.

(** src/neu/times.rs:441-446: the end-bound check of [Times]. *)
Definition times_more (r : crange) (cnt : nat) : bool :=
  match r_hi r with
  | Incl mx => cnt <? mx
  | Excl mx => cnt <? mx - 1
  | Unb => true
  end.

(** src/neu/times.rs:449-453: the length pre-check of [Times]. *)
Definition times_min (k : kind) (r : crange) (u : neu) : nat :=
  match r_lo r with
  | Incl m => m * min_length k u
  | Excl m => (m - 1) * min_length k u
  | Unb => 0
  end.

(** src/neu/times.rs:430-479 [Times::try_parse]. *)
Definition times_parse (r : crange) (u : neu) (chk : check_t) : M ctx span :=
  l <- reads peek ;;
  rem <- remaining ;;
  k <- reads (fun c => Ok (c_kind c)) ;;
  if times_min k r u <=? rem then
    q <- reads (fun c => scan_n (is_match u) (chk c) (times_more r) 0 None l) ;;
    let '(cnt, beg, en) := q in
    if crange_contains r cnt then
      len <- lift (calc_length beg en rem) ;; new_span_inc len
    else fail ETimes
  else fail ETimes.

(** src/neu/then.rs:204-223 [NeureThen::try_parse]. *)
Definition neuthen_parse (u v : neu) (chk : check_t) : M ctx span :=
  l <- reads peek ;;
  rem <- remaining ;;
  k <- reads (fun c => Ok (c_kind c)) ;;
  if min_length k u + min_length k v <=? rem then
    match l with
    | x :: y :: l' =>
        if is_match u (snd x) then
          b <- reads (fun c => chk c x) ;;
          if b : bool then
            if is_match v (snd y) then
              b' <- reads (fun c => chk c y) ;;
              if b' : bool then
                n <- lift (calc_length (Some (fst x)) (next_off l') rem) ;;
                new_span_inc n
              else fail ENeureThen
            else fail ENeureThen
          else fail ENeureThen
        else fail ENeureThen
    | _ => fail ENeureThen
    end
  else fail ENeureThen.

(** src/regex/literal.rs:104-114 [Literal::try_parse]; [prefix_of] (125-172) compares bytes. *)
Definition literal_parse (lit : text) : M ctx span :=
  rem <- remaining ;;
  k <- reads (fun c => Ok (c_kind c)) ;;
  if tlen k lit <=? rem then
    l <- reads orig ;;
    if starts_with (raw k l) (raw k lit) then new_span_inc (tlen k lit) else fail ELiteral
  else fail ELiteral.

(** src/regex/consume.rs:76-87 [Consume::try_parse]. *)
Definition consume_parse (n : nat) : M ctx span :=
  rem <- remaining ;;
  if n <=? rem then new_span_inc n else fail EConsume.

(** src/regex/consume.rs:173-180 [ConsumeAll::try_parse] (saturating subtraction). *)
Definition consume_all_parse : M ctx span :=
  n <- reads (fun c => Ok (ctx_len c - c_off c)) ;;
  new_span_inc n.

(** src/regex/anchor.rs:75-85 [AnchorStart::try_parse]. *)
Definition start_parse : M ctx span :=
  o <- offset ;; if o =? 0 then ret (Span o 0) else fail EAnchorStart.

(** src/regex/anchor.rs:176-186 [AnchorEnd::try_parse]. *)
Definition end_parse : M ctx span :=
  o <- offset ;;
  n <- reads (fun c => Ok (ctx_len c)) ;;
  if o =? n then ret (Span o 0) else fail EAnchorEnd.

(** [Match::try_mat] for a stack of policies, innermost context last.
    [[]]: src/ctx/regex.rs:443-448 + 456-467 ([RegexCtx]: [pat.try_parse(self)], the no-op before and
    after regexes of src/ctx.rs:106-115 match nothing).
    [r :: rest]: src/ctx/policy.rs:154-160 ([self.regex.try_parse(&mut self.inner)?;
    pat.try_parse(self)]). *)
Definition try_mat (pr : list pat -> pat -> M ctx span) (pols : list pat) (p : pat) : M ctx span :=
  match pols with
  | [] => pr [] p
  | r :: rest => (pr rest r ;; pr pols p)
  end.

(** [span.add_assign(other)] as a statement. *)
Definition join {X} (a b : span) : M X span := lift (add_assign a b).

(** [if let Err(_) = .. { ctx.set_offset(offset) }] after a result ([inspect_err]). *)
Definition on_err_reset {X A} `{HasOffset X} (o : nat) (m : M X A) : M X A :=
  fun x => match m x with
           | (Err e, x') => (Err e, put_off o x')
           | r => r
           end.

Section Loops.
  Context {X : Type} `{HasOffset X}.
  Variable tmp tms : M X span.

  (** src/ctor/repeat.rs:254-261 and repeat2.rs:203-210: [while is_contain(cnt)]. *)
  Fixpoint repeat_loop (fuel : nat) (more : nat -> bool) (cnt : nat) (total : span)
    : M X (nat * span) :=
    match fuel with
    | 0 => oof
    | S fuel' =>
        if more cnt then
          r <- catch tmp ;;
          match r with
          | inl s => t <- join total s ;; repeat_loop fuel' more (S cnt) t
          | inr _ => ret (cnt, total)
          end
        else ret (cnt, total)
    end.

  (** src/ctor/collect.rs:204-207 (increments before joining; same effect). *)
  Definition collect_loop (fuel : nat) : nat -> span -> M X (nat * span) :=
    repeat_loop fuel (fun _ => true).

  (** src/ctor/sep.rs:548-562 (Separate), 835-851 (Separate2, guarded by [while cnt <= N]),
      1148-1162 (SepCollect). *)
  Fixpoint sep_loop (fuel : nat) (more : nat -> bool) (skip : bool) (cnt : nat) (total : span)
    : M X (nat * span) :=
    match fuel with
    | 0 => oof
    | S fuel' =>
        if more cnt then
          r <- catch tmp ;;
          match r with
          | inl ps =>
              s <- catch tms ;;
              match s with
              | inl ss =>
                  t <- join total ps ;;
                  t' <- join t ss ;;
                  sep_loop fuel' more skip (S cnt) t'
              | inr _ =>
                  if skip then t <- join total ps ;; ret (S cnt, t) else ret (cnt, total)
              end
          | inr _ => ret (cnt, total)
          end
        else ret (cnt, total)
    end.
End Loops.

(** The tail of the counting combinators: accept the count or restore the cursor and fail. *)
Definition accept {X A} `{HasOffset X} (ok : bool) (e : error) (o : nat) (a : A) : M X A :=
  if ok then ret a else (set_offset o ;; fail e).

(** src/ctor/repeat.rs:198-204 [Repeat::is_contain]. *)
Definition repeat_more (r : crange) (cnt : nat) : bool :=
  match r_hi r with
  | Incl mx => cnt <? mx
  | Excl mx => cnt <? mx - 1
  | Unb => true
  end.

(** src/regex.rs:773-798 [handler]: first alternative that matches. *)
Fixpoint choice (tm : pat -> M ctx span) (o : nat) (e : error) (ps : list pat) : M ctx span :=
  match ps with
  | [] => fail e
  | p :: ps' =>
      r <- catch (on_err_reset o (tm p)) ;;
      match r with
      | inl s => ret s
      | inr _ => choice tm o e ps'
      end
  end.

(** src/regex.rs:800-826 [handler_ltm]: every alternative from the same offset, keep the first of
    the strictly longest; the cursor stays where the last attempt left it. *)
Fixpoint choice_ltm (tm : pat -> M ctx span) (o : nat) (e : error) (best : option span)
    (ps : list pat) : M ctx span :=
  match ps with
  | [] => match best with Some s => ret s | None => fail e end
  | p :: ps' =>
      set_offset o ;;
      r <- catch (tm p) ;;
      match r with
      | inl s =>
          choice_ltm tm o e
            (match best with
             | None => Some s
             | Some b => if slen b <? slen s then Some s else best
             end) ps'
      | inr _ => choice_ltm tm o e best ps'
      end
  end.

Section Step.
  (** Parsing of sub-parsers with the remaining fuel: recursive parsers whose lock is held by the
      current thread, policies of the context, parser. *)
  Variable G : env.
  Variable pr : list nat -> list pat -> pat -> M ctx span.
  Variable fuel : nat.
  Variable held : list nat.
  Variable pols : list pat.

  (** [ctx.try_mat(&p)] in the current context. *)
  Definition tm (p : pat) : M ctx span := try_mat (pr held) pols p.

  (** [NeuCond::check]: src/neu/cond.rs:51-62, 67-74, 116-129. *)
  Definition check (cd : cond) : check_t :=
    match cd with
    | CEmpty => fun _ _ => Ok true
    | CFn f => f
    | CRegex p => fun c x =>
        match clone_at c (c_off c + fst x) with
        | Ok c' => match fst (tm p c') with
                   | Ok _ => Ok true
                   | Err _ => Ok false
                   | Panic => Panic
                   | OOF => OOF
                   end
        | Err e => Err e
        | Panic => Panic
        | OOF => OOF
        end
    end.

  (** [Regex::try_parse], cited per constructor in Syntax.v. *)
  Definition parse_step (p : pat) : M ctx span :=
    match p with
    | PEmpty => o <- offset ;; ret (Span o 0)
    | PFail => fail EFail
    | PStart => start_parse
    | PEnd => end_parse
    | PConsume n => consume_parse n
    | PConsumeAll => consume_all_parse
    | PLit l => literal_parse l
    | PAssert q v =>
        o <- offset ;;
        r <- catch (tm q) ;;
        set_offset o ;;
        (if Bool.eqb (match r with inl _ => true | inr _ => false end) v then ret (Span o 0)
         else if v then fail EAssertTrue else fail EAssertFalse)
    | PFn f => f
    | PBuilder q f =>
        with_guard
          (s <- g_try (tm q) ;;
           q' <- g_on (fun c => f c s) ;;
           g_try (tm q'))
    | PLeaf q => pr held pols q
    | POnce u c => once_parse u (check c)
    | PMany1 u c => many1_parse u (check c)
    | POpt u c => opt_parse u (check c)
    | PMany0 u c => many0_parse u (check c)
    | PBetween m n u c => between_parse m n u (check c)
    | PTimes r u c => times_parse r u (check c)
    | PNeuThen u v c => neuthen_parse u v (check c)
    | PThen q r =>
        with_guard (a <- g_try (tm q) ;; b <- g_try (tm r) ;; join a b)
    | PIfThen q t r =>
        with_guard
          (a <- g_try (tm q) ;;
           s <- catch (g_on (with_guard (g_try (tm t)))) ;;
           match s with
           | inl b =>
               a' <- join a b ;;
               d <- g_try (tm r) ;;
               join a' d
           | inr _ => ret a
           end)
    | POr q r =>
        o <- offset ;;
        on_err_reset o
          (a <- catch (tm q) ;;
           match a with
           | inl s => ret s
           | inr _ => set_offset o ;; tm r
           end)
    | PLongest q r =>
        o <- offset ;;
        a <- catch (tm q) ;;
        set_offset o ;;
        b <- catch (tm r) ;;
        match a, b with
        | inl s, inl t =>
            let w := if slen t <=? slen s then s else t in
            (set_offset (o + slen w) ;; ret w)
        | inl s, inr _ => set_offset (o + slen s) ;; ret s
        | inr _, inl t => set_offset (o + slen t) ;; ret t
        | inr _, inr e => set_offset (o + 0) ;; fail e
        end
    | PPat q => tm q
    | PPrefix q pre =>
        with_guard (a <- g_try (tm pre) ;; b <- g_try (tm q) ;; join a b)
    | PSuffix q suf =>
        with_guard (a <- g_try (tm q) ;; b <- g_try (tm suf) ;; join a b)
    | PEnclose q op cl =>
        with_guard
          (a <- g_try (tm op) ;;
           b <- g_try (tm q) ;;
           a' <- join a b ;;
           d <- g_try (tm cl) ;;
           join a' d)
    | PSepOnce q s r =>
        with_guard
          (o <- g_beg ;;
           a <- g_try (tm q) ;;
           t1 <- join (Span o 0) a ;;
           b <- g_try (tm s) ;;
           t2 <- join t1 b ;;
           d <- g_try (tm r) ;;
           join t2 d)
    | PSep q s mn skip =>
        o <- offset ;;
        r <- sep_loop (tm q) (tm s) fuel (fun _ => true) skip 0 (Span o 0) ;;
        accept (mn <=? fst r) ESeparate o (snd r)
    | PSep2 q s m n skip =>
        o <- offset ;;
        r <- sep_loop (tm q) (tm s) fuel (fun cnt => cnt <=? n) skip 0 (Span o 0) ;;
        accept (m <=? fst r) ESeparate2 o (snd r)
    | PSepCollect q s mn skip =>
        o <- offset ;;
        r <- sep_loop (tm q) (tm s) fuel (fun _ => true) skip 0 (Span o 0) ;;
        accept (mn <=? fst r) ESepCollect o (snd r)
    | PRepeat q r =>
        o <- offset ;;
        a <- repeat_loop (tm q) fuel (repeat_more r) 0 (Span o 0) ;;
        accept (crange_contains r (fst a)) ERepeat o (snd a)
    | PRepeat2 q m n =>
        o <- offset ;;
        a <- repeat_loop (tm q) fuel (fun cnt => cnt <=? n) 0 (Span o 0) ;;
        accept ((m <=? fst a) && (fst a <=? n)) ERepeat2 o (snd a)
    | PCollect q mn =>
        o <- offset ;;
        a <- collect_loop (tm q) fuel 0 (Span o 0) ;;
        accept (mn <=? fst a) ECollect o (snd a)
    | POption q =>
        o <- offset ;;
        a <- catch (on_err_reset o (tm q)) ;;
        match a with
        | inl s => ret s
        | inr _ => ret (Span o 0)
        end
    | PBranch t q r =>
        o <- offset ;;
        b <- reads t ;;
        on_err_reset o (if b : bool then tm q else tm r)
    | PMap q _ => tm q
    | PDynThen _ _ => panic
    | PCtorFn _ => panic
    | PChoice e ltm ps =>
        o <- offset ;;
        if ltm then choice_ltm tm o e None ps else choice tm o e ps
    | PPairChoice e ltm ps =>
        o <- offset ;;
        if ltm then choice_ltm tm o e None (map fst ps) else choice tm o e (map fst ps)
    | PWrap q => pr held pols q
    | PNoneP => fail EOption
    | PRef i =>
        match env_get G i with
        | Some q => pr held pols q
        | None => fail EOption
        end
    | PLock i =>
        (* [&*self.lock()?] keeps the guard for the whole call; locking a [std::sync::Mutex] that
           the current thread already holds deadlocks or panics, and never returns. *)
        if existsb (Nat.eqb i) held then panic
        else match env_get G i with
             | Some q => pr (i :: held) pols q
             | None => fail EOption
             end
    end.
End Step.

(** [Regex::try_parse] in a context wrapped in the policies [pols] (outermost first). *)
Fixpoint parse (fuel : nat) (G : env) (held : list nat) (pols : list pat) (p : pat)
  : M ctx span :=
  match fuel with
  | 0 => oof
  | S fuel' => parse_step G (parse fuel' G) fuel' held pols p
  end.

(** [ctx.try_mat(&p)] at top level. *)
Definition try_mat_top (fuel : nat) (G : env) (pols : list pat) (p : pat) : M ctx span :=
  try_mat (parse fuel G []) pols p.
