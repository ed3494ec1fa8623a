(** Specification of constructing mode for parsers whose mappers and handlers may fail or panic, and
    whose handlers may have state.

    [Con w p i s o]: started at item [i] of [w] with the handler in state [s], constructing with [p]
    has the outcome [o]: the value, the position behind it and the state of the handler; the error,
    the position at which the cursor was left and the state; or a panic.  Parts the code only matches
    (separators, delimiters, tests, leaves) are described by [Peg] of Spec.v, started behind whatever
    the context skips. *)

From Coq Require Import List Arith NArith Bool.
From Verif Require Import Base Text Context Neu Syntax Ctor TextProofs Spec Core CtorSpec.
Import ListNotations.

Section Outcomes.
  Context {ST : Type}.

  Inductive cout : Type :=
  | CV (v : val) (j : nat) (s : ST)     (** a value; the cursor is at item [j], the handler in state [s] *)
  | CE (e : error) (j : nat) (s : ST)   (** an error; likewise *)
  | CP.                                 (** a panic *)

  (** The outcome is not a value. *)
  Definition stops (o : cout) : Prop := match o with CV _ _ _ => False | _ => True end.
  (** A failure puts the cursor back to [i]; what the handler did stays done. *)
  Definition undo (i : nat) (o : cout) : cout := match o with CE e _ s => CE e i s | _ => o end.
  (** A mapper or handler called with the cursor at [j]. *)
  Definition settle (j : nat) (r : res val * ST) : cout :=
    match r with (Ok v, s) => CV v j s | (Err e, s) => CE e j s | _ => CP end.
  (** The longer of two outcomes from [i], the first one on a tie; the second was computed last. *)
  Definition longer (i : nat) (a b : cout) : cout :=
    match a, b with
    | CV v j _, CV v' j' s => if j' <=? j then CV v j s else CV v' j' s
    | CV v j _, CE _ _ s => CV v j s
    | CE _ _ _, CV v' j' s => CV v' j' s
    | CE _ _ _, CE e _ s => CE e i s
    | _, _ => CP
    end.

  (** The outcome of a loop: it never fails, its elements do. *)
  Inductive lout : Type :=
  | LV (vs : list val) (j : nat) (s : ST)
  | LP.
  Definition lcons (v : val) (l : lout) : lout := match l with LV vs j s => LV (v :: vs) j s | LP => LP end.
  (** The list [f vs] if the number of values is good, the error otherwise. *)
  Definition count_ok (good : list val -> bool) (e : error) (i : nat) (f : list val -> val) (l : lout) : cout :=
    match l with LV vs j s => if good vs then CV (f vs) j s else CE e i s | LP => CP end.
  (** An array of [n] cells panics on the value that does not fit. *)
  Definition capacity (n : nat) (l : lout) : lout :=
    match l with LV vs j s => if length vs <=? n then LV vs j s else LP | LP => LP end.
End Outcomes.
Arguments cout : clear implicits.
Arguments lout : clear implicits.

Section ConSpec.
  Variable k : kind.
  Variable G : env.
  (** What the context skips before each match. *)
  Variable sk : text -> nat -> nat.
  Context {ST : Type}.
  (** The handler's answer for the items [b .. j-1], and its next state. *)
  Variable hv : text -> nat -> nat -> ST -> res val * ST.
  (** [try_mat]: skip, then match. *)
  Notation Mat w p i := (Peg k G sk w p (sk w i)).

  Inductive Con : text -> pat -> nat -> ST -> cout ST -> Prop :=
  | Con_leaf w p i s b j : leafy p -> Mat w p i (OK b j) -> Con w p i s (settle j (hv w b j s))
  | Con_leaf_ko w p i s e : leafy p -> Mat w p i (KO e) -> Con w p i s (CE e i s)
  | Con_pat w p i s b j : Mat w p i (OK b j) -> Con w (PPat p) i s (settle j (hv w b j s))
  | Con_pat_ko w p i s e : Mat w p i (KO e) -> Con w (PPat p) i s (CE e i s)
  | Con_then1 w p q i s o : Con w p i s o -> stops o -> Con w (PThen p q) i s (undo i o)
  | Con_then2 w p q i s a j s1 o :
      Con w p i s (CV a j s1) -> Con w q j s1 o -> stops o -> Con w (PThen p q) i s (undo i o)
  | Con_then w p q i s a j s1 b j' s2 :
      Con w p i s (CV a j s1) -> Con w q j s1 (CV b j' s2) -> Con w (PThen p q) i s (CV (VPair a b) j' s2)
  | Con_ifthen1 w p t q i s o : Con w p i s o -> stops o -> Con w (PIfThen p t q) i s (undo i o)
  | Con_ifthen_no w p t q i s a j s1 e :
      Con w p i s (CV a j s1) -> Mat w t j (KO e) -> Con w (PIfThen p t q) i s (CV (VPair a VNone) j s1)
  | Con_ifthen2 w p t q i s a j s1 b1 j1 o :
      Con w p i s (CV a j s1) -> Mat w t j (OK b1 j1) -> Con w q j1 s1 o -> stops o ->
      Con w (PIfThen p t q) i s (undo i o)
  | Con_ifthen w p t q i s a j s1 b1 j1 b j2 s2 :
      Con w p i s (CV a j s1) -> Mat w t j (OK b1 j1) -> Con w q j1 s1 (CV b j2 s2) ->
      Con w (PIfThen p t q) i s (CV (VPair a (VSome b)) j2 s2)
  | Con_or1 w p q i s v j s1 : Con w p i s (CV v j s1) -> Con w (POr p q) i s (CV v j s1)
  | Con_or1_panic w p q i s : Con w p i s CP -> Con w (POr p q) i s CP
  | Con_or2 w p q i s e x s1 o : Con w p i s (CE e x s1) -> Con w q i s1 o -> Con w (POr p q) i s (undo i o)
  | Con_longest_panic w p q i s : Con w p i s CP -> Con w (PLongest p q) i s CP
  | Con_longest_v w p q i s v j s1 o :
      Con w p i s (CV v j s1) -> Con w q i s1 o -> Con w (PLongest p q) i s (longer i (CV v j s1) o)
  | Con_longest_e w p q i s e j s1 o :
      Con w p i s (CE e j s1) -> Con w q i s1 o -> Con w (PLongest p q) i s (longer i (CE e j s1) o)
  | Con_prefix_ko w p pre i s e : Mat w pre i (KO e) -> Con w (PPrefix p pre) i s (CE e i s)
  | Con_prefix w p pre i s b j o : Mat w pre i (OK b j) -> Con w p j s o -> Con w (PPrefix p pre) i s (undo i o)
  | Con_suffix1 w p suf i s o : Con w p i s o -> stops o -> Con w (PSuffix p suf) i s (undo i o)
  | Con_suffix_ko w p suf i s v j s1 e :
      Con w p i s (CV v j s1) -> Mat w suf j (KO e) -> Con w (PSuffix p suf) i s (CE e i s1)
  | Con_suffix w p suf i s v j s1 b j' :
      Con w p i s (CV v j s1) -> Mat w suf j (OK b j') -> Con w (PSuffix p suf) i s (CV v j' s1)
  | Con_enclose_ko1 w p op cl i s e : Mat w op i (KO e) -> Con w (PEnclose p op cl) i s (CE e i s)
  | Con_enclose2 w p op cl i s b j o :
      Mat w op i (OK b j) -> Con w p j s o -> stops o -> Con w (PEnclose p op cl) i s (undo i o)
  | Con_enclose_ko3 w p op cl i s b j v j1 s1 e :
      Mat w op i (OK b j) -> Con w p j s (CV v j1 s1) -> Mat w cl j1 (KO e) ->
      Con w (PEnclose p op cl) i s (CE e i s1)
  | Con_enclose w p op cl i s b j v j1 s1 b2 j2 :
      Mat w op i (OK b j) -> Con w p j s (CV v j1 s1) -> Mat w cl j1 (OK b2 j2) ->
      Con w (PEnclose p op cl) i s (CV v j2 s1)
  | Con_seponce1 w p q r i s o : Con w p i s o -> stops o -> Con w (PSepOnce p q r) i s (undo i o)
  | Con_seponce_ko w p q r i s a j s1 e :
      Con w p i s (CV a j s1) -> Mat w q j (KO e) -> Con w (PSepOnce p q r) i s (CE e i s1)
  | Con_seponce2 w p q r i s a j s1 b1 j1 o :
      Con w p i s (CV a j s1) -> Mat w q j (OK b1 j1) -> Con w r j1 s1 o -> stops o ->
      Con w (PSepOnce p q r) i s (undo i o)
  | Con_seponce w p q r i s a j s1 b1 j1 b j2 s2 :
      Con w p i s (CV a j s1) -> Mat w q j (OK b1 j1) -> Con w r j1 s1 (CV b j2 s2) ->
      Con w (PSepOnce p q r) i s (CV (VPair a b) j2 s2)
  | Con_sep w p q mn skip i s l :
      Cseps w p q skip None i s l ->
      Con w (PSep p q mn skip) i s (count_ok (fun vs => mn <=? length vs) ESeparate i VList l)
  | Con_sep2 w p q m n skip i s l :
      Cseps w p q skip (Some (S n)) i s l ->
      Con w (PSep2 p q m n skip) i s (count_ok (fun vs => m <=? length vs) ESeparate2 i (cells n) (capacity n l))
  | Con_sepcollect w p q mn skip i s l :
      Cpolls w p q skip false i s l ->
      Con w (PSepCollect p q mn skip) i s (count_ok (fun vs => mn <=? length vs) ESepCollect i VList l)
  | Con_repeat w p r i s l :
      Creps w p (limit_of r) i s l ->
      Con w (PRepeat p r) i s (count_ok (fun vs => crange_contains r (length vs)) ERepeat i VList l)
  | Con_repeat2 w p m n i s l :
      Creps w p (Some (S n)) i s l ->
      Con w (PRepeat2 p m n) i s (count_ok (fun vs => m <=? length vs) ERepeat2 i (cells n) (capacity n l))
  | Con_collect w p mn i s l :
      Creps w p None i s l ->
      Con w (PCollect p mn) i s (count_ok (fun vs => mn <=? length vs) ECollect i VList l)
  | Con_some w p i s v j s1 : Con w p i s (CV v j s1) -> Con w (POption p) i s (CV (VSome v) j s1)
  | Con_none w p i s e x s1 : Con w p i s (CE e x s1) -> Con w (POption p) i s (CV VNone i s1)
  | Con_option_panic w p i s : Con w p i s CP -> Con w (POption p) i s CP
  | Con_branch w t p q i s b o :
      t (cx k w i) = Ok b -> Con w (if b : bool then p else q) i s o -> Con w (PBranch t p q) i s (undo i o)
  | Con_branch_e w t p q i s e : t (cx k w i) = Err e -> Con w (PBranch t p q) i s (CE e i s)
  | Con_branch_panic w t p q i s : t (cx k w i) = Panic -> Con w (PBranch t p q) i s CP
  | Con_map w p f i s v j s1 : Con w p i s (CV v j s1) -> Con w (PMap p f) i s (settle j (f v, s1))
  | Con_map_stops w p f i s o : Con w p i s o -> stops o -> Con w (PMap p f) i s o
  | Con_dyn1 w p f i s o : Con w p i s o -> stops o -> Con w (PDynThen p f) i s (undo i o)
  | Con_dyn_e w p f i s a j s1 e j' :
      Con w p i s (CV a j s1) -> f (cx k w j) a = (Err e, cx k w j') -> j' <= length w ->
      Con w (PDynThen p f) i s (CE e j' s1)
  | Con_dyn_panic w p f i s a j s1 c :
      Con w p i s (CV a j s1) -> f (cx k w j) a = (Panic, c) -> Con w (PDynThen p f) i s CP
  | Con_dyn2 w p f i s a j s1 q j' o :
      Con w p i s (CV a j s1) -> f (cx k w j) a = (Ok q, cx k w j') -> j' <= length w -> Con w q j' s1 o -> stops o ->
      Con w (PDynThen p f) i s (undo i o)
  | Con_dyn w p f i s a j s1 q j' b j2 s2 :
      Con w p i s (CV a j s1) -> f (cx k w j) a = (Ok q, cx k w j') -> j' <= length w -> Con w q j' s1 (CV b j2 s2) ->
      Con w (PDynThen p f) i s (CV (VPair a b) j2 s2)
  | Con_fn w f i s r j :
      f (cx k w i) = (r, cx k w j) -> j <= length w -> r <> Panic -> Con w (PCtorFn f) i s (settle j (r, s))
  | Con_fn_panic w f i s c : f (cx k w i) = (Panic, c) -> Con w (PCtorFn f) i s CP
  | Con_choice w e ps i s o : Cfirst w e (plain ps) i s o -> Con w (PChoice e false ps) i s o
  | Con_choice_ltm w e ps i s o : Clongest w e (plain ps) i None i i s o -> Con w (PChoice e true ps) i s o
  | Con_pairchoice w e ps i s o : Cfirst w e (keyed ps) i s o -> Con w (PPairChoice e false ps) i s o
  | Con_pairchoice_ltm w e ps i s o : Clongest w e (keyed ps) i None i i s o -> Con w (PPairChoice e true ps) i s o
  | Con_wrap w p i s o : Con w p i s o -> Con w (PWrap p) i s o
  | Con_nonep w i s : Con w PNoneP i s (CE EOption i s)
  | Con_ref w x p i s o : env_get G x = Some p -> Con w p i s o -> Con w (PRef x) i s o
  | Con_ref_none w x i s : env_get G x = None -> Con w (PRef x) i s (CE EOption i s)

  (** The values of a repetition.  An element that fails ends it, and leaves the cursor where the
      element left it. *)
  with Creps : text -> pat -> option nat -> nat -> ST -> lout ST -> Prop :=
  | Creps_lim w p i s : Creps w p (Some 0) i s (LV [] i s)
  | Creps_stop w p lim i s e x s1 : lim <> Some 0 -> Con w p i s (CE e x s1) -> Creps w p lim i s (LV [] x s1)
  | Creps_panic w p lim i s : lim <> Some 0 -> Con w p i s CP -> Creps w p lim i s LP
  | Creps_step w p lim i s v j s1 l :
      lim <> Some 0 -> Con w p i s (CV v j s1) -> Creps w p (limit_pred lim) j s1 l -> Creps w p lim i s (lcons v l)

  (** The values of a separated list; a last element without separator counts if [skip]. *)
  with Cseps : text -> pat -> pat -> bool -> option nat -> nat -> ST -> lout ST -> Prop :=
  | Cseps_lim w p q skip i s : Cseps w p q skip (Some 0) i s (LV [] i s)
  | Cseps_stop w p q skip lim i s e x s1 :
      lim <> Some 0 -> Con w p i s (CE e x s1) -> Cseps w p q skip lim i s (LV [] x s1)
  | Cseps_panic w p q skip lim i s : lim <> Some 0 -> Con w p i s CP -> Cseps w p q skip lim i s LP
  | Cseps_last w p q (skip : bool) lim i s v j s1 e :
      lim <> Some 0 -> Con w p i s (CV v j s1) -> Mat w q j (KO e) ->
      Cseps w p q skip lim i s (LV (if skip then [v] else []) j s1)
  | Cseps_step w p q skip lim i s v j s1 b j' l :
      lim <> Some 0 -> Con w p i s (CV v j s1) -> Mat w q j (OK b j') -> Cseps w p q skip (limit_pred lim) j' s1 l ->
      Cseps w p q skip lim i s (lcons v l)

  (** The same for [sep_collect], which after the last element tries once more and forgets the result. *)
  with Cpolls : text -> pat -> pat -> bool -> bool -> nat -> ST -> lout ST -> Prop :=
  | Cpolls_stop w p q skip en i s e x s1 : Con w p i s (CE e x s1) -> Cpolls w p q skip en i s (LV [] x s1)
  | Cpolls_panic w p q skip en i s : Con w p i s CP -> Cpolls w p q skip en i s LP
  | Cpolls_over_ko w p q skip i s v j s1 e :
      Con w p i s (CV v j s1) -> Mat w q j (KO e) -> Cpolls w p q skip true i s (LV [] j s1)
  | Cpolls_over w p q skip i s v j s1 b j' :
      Con w p i s (CV v j s1) -> Mat w q j (OK b j') -> Cpolls w p q skip true i s (LV [] j' s1)
  | Cpolls_last w p q i s v j s1 e l :
      Con w p i s (CV v j s1) -> Mat w q j (KO e) -> Cpolls w p q true true j s1 l -> Cpolls w p q true false i s (lcons v l)
  | Cpolls_drop w p q i s v j s1 e :
      Con w p i s (CV v j s1) -> Mat w q j (KO e) -> Cpolls w p q false false i s (LV [] j s1)
  | Cpolls_step w p q skip i s v j s1 b j' l :
      Con w p i s (CV v j s1) -> Mat w q j (OK b j') -> Cpolls w p q skip false j' s1 l ->
      Cpolls w p q skip false i s (lcons v l)

  (** The first alternative that builds. *)
  with Cfirst : text -> error -> list (pat * (val -> val)) -> nat -> ST -> cout ST -> Prop :=
  | Cfirst_nil w e i s : Cfirst w e [] i s (CE e i s)
  | Cfirst_hit w e p g ps i s v j s1 : Con w p i s (CV v j s1) -> Cfirst w e ((p, g) :: ps) i s (CV (g v) j s1)
  | Cfirst_panic w e p g ps i s : Con w p i s CP -> Cfirst w e ((p, g) :: ps) i s CP
  | Cfirst_next w e p g ps i s e' x s1 o :
      Con w p i s (CE e' x s1) -> Cfirst w e ps i s1 o -> Cfirst w e ((p, g) :: ps) i s o

  (** [Clongest w e ps i best en cur s o]: the best value so far ended at [en] (the start, if there is
      none), the cursor is at [cur]. *)
  with Clongest : text -> error -> list (pat * (val -> val)) -> nat -> option val -> nat -> nat -> ST -> cout ST -> Prop :=
  | Clongest_best w e i v en cur s : Clongest w e [] i (Some v) en cur s (CV v cur s)
  | Clongest_none w e i en cur s : Clongest w e [] i None en cur s (CE e cur s)
  | Clongest_more w e p g ps i best en cur s v j s1 o :
      Con w p i s (CV v j s1) -> en < j -> Clongest w e ps i (Some (g v)) j j s1 o ->
      Clongest w e ((p, g) :: ps) i best en cur s o
  | Clongest_less w e p g ps i best en cur s v j s1 o :
      Con w p i s (CV v j s1) -> j <= en -> Clongest w e ps i best en j s1 o ->
      Clongest w e ((p, g) :: ps) i best en cur s o
  | Clongest_ko w e p g ps i best en cur s e' x s1 o :
      Con w p i s (CE e' x s1) -> Clongest w e ps i best en x s1 o -> Clongest w e ((p, g) :: ps) i best en cur s o
  | Clongest_panic w e p g ps i best en cur s : Con w p i s CP -> Clongest w e ((p, g) :: ps) i best en cur s CP.

  (** Two positions are the same up to what the context skips. *)
  Definition same (w : text) (i j : nat) : Prop := sk w i = sk w j /\ i <= length w /\ j <= length w.

  (** Code given by the user returns, keeps the text, moves the cursor forward only, and does not
      notice whether what the context would skip has been skipped already. *)
  Definition forward (i : nat) (w : text) (c : ctx) : Prop := exists j, c = cx k w j /\ i <= j /\ j <= length w.
  Definition steady {A} (g : ctx -> res A * ctx) : Prop :=
    (forall w i, i <= length w -> fst (g (cx k w i)) <> OOF /\ (fst (g (cx k w i)) = Panic \/ forward i w (snd (g (cx k w i))))) /\
    (forall w i x, same w i x -> fst (g (cx k w i)) = fst (g (cx k w x)) /\
       forall j j', snd (g (cx k w i)) = cx k w j -> snd (g (cx k w x)) = cx k w j' -> j <= length w -> j' <= length w -> same w j j').
  (** The context skips nothing. *)
  Definition skips_nothing : Prop := forall w i, i <= length w -> sk w i = i.

  (** The parsers in scope: everything but [into_regex_lock]-style parsers. *)
  Inductive con_ok : pat -> Prop :=
  | ok_leaf p : leafy p -> core k G sk p -> con_ok p
  | ok_pat p : core k G sk p -> con_ok (PPat p)
  | ok_then p q : con_ok p -> con_ok q -> con_ok (PThen p q)
  | ok_ifthen p t q : con_ok p -> core k G sk t -> con_ok q -> con_ok (PIfThen p t q)
  | ok_or p q : con_ok p -> con_ok q -> con_ok (POr p q)
  | ok_longest p q : con_ok p -> con_ok q -> skips_nothing -> con_ok (PLongest p q)
  | ok_prefix p q : con_ok p -> core k G sk q -> con_ok (PPrefix p q)
  | ok_suffix p q : con_ok p -> core k G sk q -> con_ok (PSuffix p q)
  | ok_enclose p o c : con_ok p -> core k G sk o -> core k G sk c -> con_ok (PEnclose p o c)
  | ok_seponce p s q : con_ok p -> core k G sk s -> con_ok q -> con_ok (PSepOnce p s q)
  | ok_sep p s mn skip : con_ok p -> core k G sk s -> con_ok (PSep p s mn skip)
  | ok_sep2 p s m n skip : con_ok p -> core k G sk s -> con_ok (PSep2 p s m n skip)
  | ok_sepcollect p s mn skip : con_ok p -> core k G sk s -> con_ok (PSepCollect p s mn skip)
  | ok_repeat p r : con_ok p -> con_ok (PRepeat p r)
  | ok_repeat2 p m n : con_ok p -> con_ok (PRepeat2 p m n)
  | ok_collect p mn : con_ok p -> con_ok (PCollect p mn)
  | ok_option p : con_ok p -> con_ok (POption p)
  | ok_branch t p q :
      (forall c, t c <> OOF) -> (forall w i x, same w i x -> t (cx k w i) = t (cx k w x)) ->
      con_ok p -> con_ok q -> con_ok (PBranch t p q)
  | ok_map p f : con_ok p -> (forall v, f v <> OOF) -> con_ok (PMap p f)
  | ok_dyn p f :
      con_ok p -> (forall a, steady (fun c => f c a)) ->
      (forall w i a q, i <= length w -> fst (f (cx k w i) a) = Ok q -> con_ok q) ->
      con_ok (PDynThen p f)
  | ok_fn f : steady f -> con_ok (PCtorFn f)
  | ok_choice e b ps : (forall p, In p ps -> con_ok p) -> (b = true -> skips_nothing) -> con_ok (PChoice e b ps)
  | ok_pairchoice e b ps : (forall p, In p ps -> con_ok (fst p)) -> (b = true -> skips_nothing) -> con_ok (PPairChoice e b ps)
  | ok_wrap p : con_ok p -> con_ok (PWrap p)
  | ok_nonep : con_ok PNoneP
  | ok_ref i : con_ok (PRef i).

  Definition con_ok_env : Prop := forall i p, env_get G i = Some p -> con_ok p.

  (** The handler, called with the match [b .. j-1] and the cursor behind it (up to what the context
      skips), answers [hv]. *)
  Definition answers (h : handler ST) : Prop := forall w x b j s, same w j x -> b <= j ->
    h (cx k w x) (sp k w b j) s = hv w b j s /\ fst (hv w b j s) <> OOF.
End ConSpec.

Scheme Con_ind' := Minimality for Con Sort Prop
  with Creps_ind' := Minimality for Creps Sort Prop
  with Cseps_ind' := Minimality for Cseps Sort Prop
  with Cpolls_ind' := Minimality for Cpolls Sort Prop
  with Cfirst_ind' := Minimality for Cfirst Sort Prop
  with Clongest_ind' := Minimality for Clongest Sort Prop.
Combined Scheme Con_mutind from Con_ind', Creps_ind', Cseps_ind', Cpolls_ind', Cfirst_ind', Clongest_ind'.
