(** The rules of ConSpec.v (constructing: src/ctor.rs Ctor::construct, src/ctor/, src/regex/) with the number of calls that are on the stack at the same time, for C90: a parser that builds or matches is one
    call; calls of handlers, mappers, other closures and skipping policies are not counted.  Parts that are only matched are counted by Deep.v. *)

From Coq Require Import List Arith NArith Bool Lia.
From Verif Require Import Base Text Context Neu Syntax Ctor TextProofs Spec Core CtorSpec ConSpec Deep.
Import ListNotations.

Section ConDeep.
  Variable k : kind.
  Variable G : env.
  Variable sk : text -> nat -> nat.
  Context {ST : Type}.
  Variable hv : text -> nat -> nat -> ST -> res val * ST.

  Inductive ConD : text -> pat -> nat -> ST -> cout ST -> nat -> Prop :=
  | ConD_leaf w p i s b j z1 :
      leafy p -> Deep k G sk w p (sk w i) (OK b j) z1 -> ConD w p i s (settle j (hv w b j s)) (S z1)
  | ConD_leaf_ko w p i s e z1 :
      leafy p -> Deep k G sk w p (sk w i) (KO e) z1 -> ConD w p i s (CE e i s) (S z1)
  | ConD_pat w p i s b j z1 :
      Deep k G sk w p (sk w i) (OK b j) z1 -> ConD w (PPat p) i s (settle j (hv w b j s)) (S z1)
  | ConD_pat_ko w p i s e z1 :
      Deep k G sk w p (sk w i) (KO e) z1 -> ConD w (PPat p) i s (CE e i s) (S z1)
  | ConD_then1 w p q i s o z1 :
      ConD w p i s o z1 -> stops o -> ConD w (PThen p q) i s (undo i o) (S z1)
  | ConD_then2 w p q i s a j s1 o z1 z2 :
      ConD w p i s (CV a j s1) z1 -> ConD w q j s1 o z2 -> stops o -> ConD w (PThen p q) i s (undo i o) (S (Nat.max z1 z2))
  | ConD_then w p q i s a j s1 b j' s2 z1 z2 :
      ConD w p i s (CV a j s1) z1 -> ConD w q j s1 (CV b j' s2) z2 -> ConD w (PThen p q) i s (CV (VPair a b) j' s2) (S (Nat.max z1 z2))
  | ConD_ifthen1 w p t q i s o z1 :
      ConD w p i s o z1 -> stops o -> ConD w (PIfThen p t q) i s (undo i o) (S z1)
  | ConD_ifthen_no w p t q i s a j s1 e z1 z2 :
      ConD w p i s (CV a j s1) z1 -> Deep k G sk w t (sk w j) (KO e) z2 -> ConD w (PIfThen p t q) i s (CV (VPair a VNone) j s1) (S (Nat.max z1 z2))
  | ConD_ifthen2 w p t q i s a j s1 b1 j1 o z1 z2 z3 :
      ConD w p i s (CV a j s1) z1 -> Deep k G sk w t (sk w j) (OK b1 j1) z2 -> ConD w q j1 s1 o z3 -> stops o -> ConD w (PIfThen p t q) i s (undo i o) (S (Nat.max z1 (Nat.max z2 z3)))
  | ConD_ifthen w p t q i s a j s1 b1 j1 b j2 s2 z1 z2 z3 :
      ConD w p i s (CV a j s1) z1 -> Deep k G sk w t (sk w j) (OK b1 j1) z2 -> ConD w q j1 s1 (CV b j2 s2) z3 -> ConD w (PIfThen p t q) i s (CV (VPair a (VSome b)) j2 s2) (S (Nat.max z1 (Nat.max z2 z3)))
  | ConD_or1 w p q i s v j s1 z1 :
      ConD w p i s (CV v j s1) z1 -> ConD w (POr p q) i s (CV v j s1) (S z1)
  | ConD_or1_panic w p q i s z1 :
      ConD w p i s CP z1 -> ConD w (POr p q) i s CP (S z1)
  | ConD_or2 w p q i s e x s1 o z1 z2 :
      ConD w p i s (CE e x s1) z1 -> ConD w q i s1 o z2 -> ConD w (POr p q) i s (undo i o) (S (Nat.max z1 z2))
  | ConD_longest_panic w p q i s z1 :
      ConD w p i s CP z1 -> ConD w (PLongest p q) i s CP (S z1)
  | ConD_longest_v w p q i s v j s1 o z1 z2 :
      ConD w p i s (CV v j s1) z1 -> ConD w q i s1 o z2 -> ConD w (PLongest p q) i s (longer i (CV v j s1) o) (S (Nat.max z1 z2))
  | ConD_longest_e w p q i s e j s1 o z1 z2 :
      ConD w p i s (CE e j s1) z1 -> ConD w q i s1 o z2 -> ConD w (PLongest p q) i s (longer i (CE e j s1) o) (S (Nat.max z1 z2))
  | ConD_prefix_ko w p pre i s e z1 :
      Deep k G sk w pre (sk w i) (KO e) z1 -> ConD w (PPrefix p pre) i s (CE e i s) (S z1)
  | ConD_prefix w p pre i s b j o z1 z2 :
      Deep k G sk w pre (sk w i) (OK b j) z1 -> ConD w p j s o z2 -> ConD w (PPrefix p pre) i s (undo i o) (S (Nat.max z1 z2))
  | ConD_suffix1 w p suf i s o z1 :
      ConD w p i s o z1 -> stops o -> ConD w (PSuffix p suf) i s (undo i o) (S z1)
  | ConD_suffix_ko w p suf i s v j s1 e z1 z2 :
      ConD w p i s (CV v j s1) z1 -> Deep k G sk w suf (sk w j) (KO e) z2 -> ConD w (PSuffix p suf) i s (CE e i s1) (S (Nat.max z1 z2))
  | ConD_suffix w p suf i s v j s1 b j' z1 z2 :
      ConD w p i s (CV v j s1) z1 -> Deep k G sk w suf (sk w j) (OK b j') z2 -> ConD w (PSuffix p suf) i s (CV v j' s1) (S (Nat.max z1 z2))
  | ConD_enclose_ko1 w p op cl i s e z1 :
      Deep k G sk w op (sk w i) (KO e) z1 -> ConD w (PEnclose p op cl) i s (CE e i s) (S z1)
  | ConD_enclose2 w p op cl i s b j o z1 z2 :
      Deep k G sk w op (sk w i) (OK b j) z1 -> ConD w p j s o z2 -> stops o -> ConD w (PEnclose p op cl) i s (undo i o) (S (Nat.max z1 z2))
  | ConD_enclose_ko3 w p op cl i s b j v j1 s1 e z1 z2 z3 :
      Deep k G sk w op (sk w i) (OK b j) z1 -> ConD w p j s (CV v j1 s1) z2 -> Deep k G sk w cl (sk w j1) (KO e) z3 -> ConD w (PEnclose p op cl) i s (CE e i s1) (S (Nat.max z1 (Nat.max z2 z3)))
  | ConD_enclose w p op cl i s b j v j1 s1 b2 j2 z1 z2 z3 :
      Deep k G sk w op (sk w i) (OK b j) z1 -> ConD w p j s (CV v j1 s1) z2 -> Deep k G sk w cl (sk w j1) (OK b2 j2) z3 -> ConD w (PEnclose p op cl) i s (CV v j2 s1) (S (Nat.max z1 (Nat.max z2 z3)))
  | ConD_seponce1 w p q r i s o z1 :
      ConD w p i s o z1 -> stops o -> ConD w (PSepOnce p q r) i s (undo i o) (S z1)
  | ConD_seponce_ko w p q r i s a j s1 e z1 z2 :
      ConD w p i s (CV a j s1) z1 -> Deep k G sk w q (sk w j) (KO e) z2 -> ConD w (PSepOnce p q r) i s (CE e i s1) (S (Nat.max z1 z2))
  | ConD_seponce2 w p q r i s a j s1 b1 j1 o z1 z2 z3 :
      ConD w p i s (CV a j s1) z1 -> Deep k G sk w q (sk w j) (OK b1 j1) z2 -> ConD w r j1 s1 o z3 -> stops o -> ConD w (PSepOnce p q r) i s (undo i o) (S (Nat.max z1 (Nat.max z2 z3)))
  | ConD_seponce w p q r i s a j s1 b1 j1 b j2 s2 z1 z2 z3 :
      ConD w p i s (CV a j s1) z1 -> Deep k G sk w q (sk w j) (OK b1 j1) z2 -> ConD w r j1 s1 (CV b j2 s2) z3 -> ConD w (PSepOnce p q r) i s (CV (VPair a b) j2 s2) (S (Nat.max z1 (Nat.max z2 z3)))
  | ConD_sep w p q mn skip i s l z1 :
      CsepsD w p q skip None i s l z1 -> ConD w (PSep p q mn skip) i s (count_ok (fun vs => mn <=? length vs) ESeparate i VList l) (S z1)
  | ConD_sep2 w p q m n skip i s l z1 :
      CsepsD w p q skip (Some (S n)) i s l z1 -> ConD w (PSep2 p q m n skip) i s (count_ok (fun vs => m <=? length vs) ESeparate2 i (cells n) (capacity n l)) (S z1)
  | ConD_sepcollect w p q mn skip i s l z1 :
      CpollsD w p q skip false i s l z1 -> ConD w (PSepCollect p q mn skip) i s (count_ok (fun vs => mn <=? length vs) ESepCollect i VList l) (S z1)
  | ConD_repeat w p r i s l z1 :
      CrepsD w p (limit_of r) i s l z1 -> ConD w (PRepeat p r) i s (count_ok (fun vs => crange_contains r (length vs)) ERepeat i VList l) (S z1)
  | ConD_repeat2 w p m n i s l z1 :
      CrepsD w p (Some (S n)) i s l z1 -> ConD w (PRepeat2 p m n) i s (count_ok (fun vs => m <=? length vs) ERepeat2 i (cells n) (capacity n l)) (S z1)
  | ConD_collect w p mn i s l z1 :
      CrepsD w p None i s l z1 -> ConD w (PCollect p mn) i s (count_ok (fun vs => mn <=? length vs) ECollect i VList l) (S z1)
  | ConD_some w p i s v j s1 z1 :
      ConD w p i s (CV v j s1) z1 -> ConD w (POption p) i s (CV (VSome v) j s1) (S z1)
  | ConD_none w p i s e x s1 z1 :
      ConD w p i s (CE e x s1) z1 -> ConD w (POption p) i s (CV VNone i s1) (S z1)
  | ConD_option_panic w p i s z1 :
      ConD w p i s CP z1 -> ConD w (POption p) i s CP (S z1)
  | ConD_branch w t p q i s b o z1 :
      t (cx k w i) = Ok b -> ConD w (if b : bool then p else q) i s o z1 -> ConD w (PBranch t p q) i s (undo i o) (S z1)
  | ConD_branch_e w t p q i s e :
      t (cx k w i) = Err e -> ConD w (PBranch t p q) i s (CE e i s) 1
  | ConD_branch_panic w t p q i s :
      t (cx k w i) = Panic -> ConD w (PBranch t p q) i s CP 1
  | ConD_map w p f i s v j s1 z1 :
      ConD w p i s (CV v j s1) z1 -> ConD w (PMap p f) i s (settle j (f v, s1)) (S z1)
  | ConD_map_stops w p f i s o z1 :
      ConD w p i s o z1 -> stops o -> ConD w (PMap p f) i s o (S z1)
  | ConD_dyn1 w p f i s o z1 :
      ConD w p i s o z1 -> stops o -> ConD w (PDynThen p f) i s (undo i o) (S z1)
  | ConD_dyn_e w p f i s a j s1 e j' z1 :
      ConD w p i s (CV a j s1) z1 -> f (cx k w j) a = (Err e, cx k w j') -> j' <= length w -> ConD w (PDynThen p f) i s (CE e j' s1) (S z1)
  | ConD_dyn_panic w p f i s a j s1 c z1 :
      ConD w p i s (CV a j s1) z1 -> f (cx k w j) a = (Panic, c) -> ConD w (PDynThen p f) i s CP (S z1)
  | ConD_dyn2 w p f i s a j s1 q j' o z1 z2 :
      ConD w p i s (CV a j s1) z1 -> f (cx k w j) a = (Ok q, cx k w j') -> j' <= length w -> ConD w q j' s1 o z2 -> stops o -> ConD w (PDynThen p f) i s (undo i o) (S (Nat.max z1 z2))
  | ConD_dyn w p f i s a j s1 q j' b j2 s2 z1 z2 :
      ConD w p i s (CV a j s1) z1 -> f (cx k w j) a = (Ok q, cx k w j') -> j' <= length w -> ConD w q j' s1 (CV b j2 s2) z2 -> ConD w (PDynThen p f) i s (CV (VPair a b) j2 s2) (S (Nat.max z1 z2))
  | ConD_fn w f i s r j :
      f (cx k w i) = (r, cx k w j) -> j <= length w -> r <> Panic -> ConD w (PCtorFn f) i s (settle j (r, s)) 1
  | ConD_fn_panic w f i s c :
      f (cx k w i) = (Panic, c) -> ConD w (PCtorFn f) i s CP 1
  | ConD_choice w e ps i s o z1 :
      CfirstD w e (plain ps) i s o z1 -> ConD w (PChoice e false ps) i s o (S z1)
  | ConD_choice_ltm w e ps i s o z1 :
      ClongestD w e (plain ps) i None i i s o z1 -> ConD w (PChoice e true ps) i s o (S z1)
  | ConD_pairchoice w e ps i s o z1 :
      CfirstD w e (keyed ps) i s o z1 -> ConD w (PPairChoice e false ps) i s o (S z1)
  | ConD_pairchoice_ltm w e ps i s o z1 :
      ClongestD w e (keyed ps) i None i i s o z1 -> ConD w (PPairChoice e true ps) i s o (S z1)
  | ConD_wrap w p i s o z1 :
      ConD w p i s o z1 -> ConD w (PWrap p) i s o (S z1)
  | ConD_nonep w i s :
      ConD w PNoneP i s (CE EOption i s) 1
  | ConD_ref w x p i s o z1 :
      env_get G x = Some p -> ConD w p i s o z1 -> ConD w (PRef x) i s o (S z1)
  | ConD_ref_none w x i s :
      env_get G x = None -> ConD w (PRef x) i s (CE EOption i s) 1
  with CrepsD : text -> pat -> option nat -> nat -> ST -> lout ST -> nat -> Prop :=
  | CrepsD_lim w p i s :
      CrepsD w p (Some 0) i s (LV [] i s) 0
  | CrepsD_stop w p lim i s e x s1 z1 :
      lim <> Some 0 -> ConD w p i s (CE e x s1) z1 -> CrepsD w p lim i s (LV [] x s1) z1
  | CrepsD_panic w p lim i s z1 :
      lim <> Some 0 -> ConD w p i s CP z1 -> CrepsD w p lim i s LP z1
  | CrepsD_step w p lim i s v j s1 l z1 z2 :
      lim <> Some 0 -> ConD w p i s (CV v j s1) z1 -> CrepsD w p (limit_pred lim) j s1 l z2 -> CrepsD w p lim i s (lcons v l) (Nat.max z1 z2)
  with CsepsD : text -> pat -> pat -> bool -> option nat -> nat -> ST -> lout ST -> nat -> Prop :=
  | CsepsD_lim w p q skip i s :
      CsepsD w p q skip (Some 0) i s (LV [] i s) 0
  | CsepsD_stop w p q skip lim i s e x s1 z1 :
      lim <> Some 0 -> ConD w p i s (CE e x s1) z1 -> CsepsD w p q skip lim i s (LV [] x s1) z1
  | CsepsD_panic w p q skip lim i s z1 :
      lim <> Some 0 -> ConD w p i s CP z1 -> CsepsD w p q skip lim i s LP z1
  | CsepsD_last w p q (skip : bool) lim i s v j s1 e z1 z2 :
      lim <> Some 0 -> ConD w p i s (CV v j s1) z1 -> Deep k G sk w q (sk w j) (KO e) z2 -> CsepsD w p q skip lim i s (LV (if skip then [v] else []) j s1) (Nat.max z1 z2)
  | CsepsD_step w p q skip lim i s v j s1 b j' l z1 z2 z3 :
      lim <> Some 0 -> ConD w p i s (CV v j s1) z1 -> Deep k G sk w q (sk w j) (OK b j') z2 -> CsepsD w p q skip (limit_pred lim) j' s1 l z3 -> CsepsD w p q skip lim i s (lcons v l) (Nat.max z1 (Nat.max z2 z3))
  with CpollsD : text -> pat -> pat -> bool -> bool -> nat -> ST -> lout ST -> nat -> Prop :=
  | CpollsD_stop w p q skip en i s e x s1 z1 :
      ConD w p i s (CE e x s1) z1 -> CpollsD w p q skip en i s (LV [] x s1) z1
  | CpollsD_panic w p q skip en i s z1 :
      ConD w p i s CP z1 -> CpollsD w p q skip en i s LP z1
  | CpollsD_over_ko w p q skip i s v j s1 e z1 z2 :
      ConD w p i s (CV v j s1) z1 -> Deep k G sk w q (sk w j) (KO e) z2 -> CpollsD w p q skip true i s (LV [] j s1) (Nat.max z1 z2)
  | CpollsD_over w p q skip i s v j s1 b j' z1 z2 :
      ConD w p i s (CV v j s1) z1 -> Deep k G sk w q (sk w j) (OK b j') z2 -> CpollsD w p q skip true i s (LV [] j' s1) (Nat.max z1 z2)
  | CpollsD_last w p q i s v j s1 e l z1 z2 z3 :
      ConD w p i s (CV v j s1) z1 -> Deep k G sk w q (sk w j) (KO e) z2 -> CpollsD w p q true true j s1 l z3 -> CpollsD w p q true false i s (lcons v l) (Nat.max z1 (Nat.max z2 z3))
  | CpollsD_drop w p q i s v j s1 e z1 z2 :
      ConD w p i s (CV v j s1) z1 -> Deep k G sk w q (sk w j) (KO e) z2 -> CpollsD w p q false false i s (LV [] j s1) (Nat.max z1 z2)
  | CpollsD_step w p q skip i s v j s1 b j' l z1 z2 z3 :
      ConD w p i s (CV v j s1) z1 -> Deep k G sk w q (sk w j) (OK b j') z2 -> CpollsD w p q skip false j' s1 l z3 -> CpollsD w p q skip false i s (lcons v l) (Nat.max z1 (Nat.max z2 z3))
  with CfirstD : text -> error -> list (pat * (val -> val)) -> nat -> ST -> cout ST -> nat -> Prop :=
  | CfirstD_nil w e i s :
      CfirstD w e [] i s (CE e i s) 0
  | CfirstD_hit w e p g ps i s v j s1 z1 :
      ConD w p i s (CV v j s1) z1 -> CfirstD w e ((p, g) :: ps) i s (CV (g v) j s1) z1
  | CfirstD_panic w e p g ps i s z1 :
      ConD w p i s CP z1 -> CfirstD w e ((p, g) :: ps) i s CP z1
  | CfirstD_next w e p g ps i s e' x s1 o z1 z2 :
      ConD w p i s (CE e' x s1) z1 -> CfirstD w e ps i s1 o z2 -> CfirstD w e ((p, g) :: ps) i s o (Nat.max z1 z2)
  with ClongestD : text -> error -> list (pat * (val -> val)) -> nat -> option val -> nat -> nat -> ST -> cout ST -> nat -> Prop :=
  | ClongestD_best w e i v en cur s :
      ClongestD w e [] i (Some v) en cur s (CV v cur s) 0
  | ClongestD_none w e i en cur s :
      ClongestD w e [] i None en cur s (CE e cur s) 0
  | ClongestD_more w e p g ps i best en cur s v j s1 o z1 z2 :
      ConD w p i s (CV v j s1) z1 -> en < j -> ClongestD w e ps i (Some (g v)) j j s1 o z2 -> ClongestD w e ((p, g) :: ps) i best en cur s o (Nat.max z1 z2)
  | ClongestD_less w e p g ps i best en cur s v j s1 o z1 z2 :
      ConD w p i s (CV v j s1) z1 -> j <= en -> ClongestD w e ps i best en j s1 o z2 -> ClongestD w e ((p, g) :: ps) i best en cur s o (Nat.max z1 z2)
  | ClongestD_ko w e p g ps i best en cur s e' x s1 o z1 z2 :
      ConD w p i s (CE e' x s1) z1 -> ClongestD w e ps i best en x s1 o z2 -> ClongestD w e ((p, g) :: ps) i best en cur s o (Nat.max z1 z2)
  | ClongestD_panic w e p g ps i best en cur s z1 :
      ConD w p i s CP z1 -> ClongestD w e ((p, g) :: ps) i best en cur s CP z1.
End ConDeep.

Scheme ConD_ind' := Minimality for ConD Sort Prop
  with CrepsD_ind' := Minimality for CrepsD Sort Prop
  with CsepsD_ind' := Minimality for CsepsD Sort Prop
  with CpollsD_ind' := Minimality for CpollsD Sort Prop
  with CfirstD_ind' := Minimality for CfirstD Sort Prop
  with ClongestD_ind' := Minimality for ClongestD Sort Prop.
Combined Scheme ConD_mutind from ConD_ind', CrepsD_ind', CsepsD_ind', CpollsD_ind', CfirstD_ind', ClongestD_ind'.

(** Each run of the one is a run of the other. *)
Lemma condeep_con k G sk {ST} (hv : text -> nat -> nat -> ST -> res val * ST) :
  (forall w p i s o n, ConD k G sk hv w p i s o n -> Con k G sk hv w p i s o) /\
  (forall w p l i s o n, CrepsD k G sk hv w p l i s o n -> Creps k G sk hv w p l i s o) /\
  (forall w p q b l i s o n, CsepsD k G sk hv w p q b l i s o n -> Cseps k G sk hv w p q b l i s o) /\
  (forall w p q b e i s o n, CpollsD k G sk hv w p q b e i s o n -> Cpolls k G sk hv w p q b e i s o) /\
  (forall w e ps i s o n, CfirstD k G sk hv w e ps i s o n -> Cfirst k G sk hv w e ps i s o) /\
  (forall w e ps i b en cur s o n, ClongestD k G sk hv w e ps i b en cur s o n -> Clongest k G sk hv w e ps i b en cur s o).
Proof.
  apply ConD_mutind; intros; repeat match goal with X : Deep _ _ _ _ _ _ _ _ |- _ => apply (proj1 (deep_peg k G sk)) in X end;
    try solve [econstructor; eauto].
Qed.
Lemma con_condeep k G sk {ST} (hv : text -> nat -> nat -> ST -> res val * ST) :
  (forall w p i s o, Con k G sk hv w p i s o -> exists n, ConD k G sk hv w p i s o n) /\
  (forall w p l i s o, Creps k G sk hv w p l i s o -> exists n, CrepsD k G sk hv w p l i s o n) /\
  (forall w p q b l i s o, Cseps k G sk hv w p q b l i s o -> exists n, CsepsD k G sk hv w p q b l i s o n) /\
  (forall w p q b e i s o, Cpolls k G sk hv w p q b e i s o -> exists n, CpollsD k G sk hv w p q b e i s o n) /\
  (forall w e ps i s o, Cfirst k G sk hv w e ps i s o -> exists n, CfirstD k G sk hv w e ps i s o n) /\
  (forall w e ps i b en cur s o, Clongest k G sk hv w e ps i b en cur s o -> exists n, ClongestD k G sk hv w e ps i b en cur s o n).
Proof.
  apply Con_mutind; intros; repeat match goal with X : exists _, _ |- _ => destruct X end;
    repeat match goal with X : Peg _ _ _ _ _ _ _ |- _ => apply (proj1 (peg_deep k G sk)) in X; destruct X end;
    try solve [eexists; econstructor; eauto].
Qed.
