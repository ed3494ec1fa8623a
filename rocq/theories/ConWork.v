(** The rules of ConSpec.v (constructing: src/ctor.rs Ctor::construct, src/ctor/, src/regex/) with the number of steps, for C90: each call of a parser that builds is one; parts that are only matched are counted by
    Work.v; handlers, mappers, other closures and skipping policies are not counted. *)

From Coq Require Import List Arith NArith Bool Lia.
From Verif Require Import Base Text Context Neu Syntax Ctor TextProofs Spec Core CtorSpec ConSpec Work.
Import ListNotations.

Section ConWork.
  Variable k : kind.
  Variable G : env.
  Variable sk : text -> nat -> nat.
  Context {ST : Type}.
  Variable hv : text -> nat -> nat -> ST -> res val * ST.

  Inductive ConW : text -> pat -> nat -> ST -> cout ST -> nat -> Prop :=
  | ConW_leaf w p i s b j z1 :
      leafy p -> Work k G sk w p (sk w i) (OK b j) z1 -> ConW w p i s (settle j (hv w b j s)) (S z1)
  | ConW_leaf_ko w p i s e z1 :
      leafy p -> Work k G sk w p (sk w i) (KO e) z1 -> ConW w p i s (CE e i s) (S z1)
  | ConW_pat w p i s b j z1 :
      Work k G sk w p (sk w i) (OK b j) z1 -> ConW w (PPat p) i s (settle j (hv w b j s)) (S z1)
  | ConW_pat_ko w p i s e z1 :
      Work k G sk w p (sk w i) (KO e) z1 -> ConW w (PPat p) i s (CE e i s) (S z1)
  | ConW_then1 w p q i s o z1 :
      ConW w p i s o z1 -> stops o -> ConW w (PThen p q) i s (undo i o) (S z1)
  | ConW_then2 w p q i s a j s1 o z1 z2 :
      ConW w p i s (CV a j s1) z1 -> ConW w q j s1 o z2 -> stops o -> ConW w (PThen p q) i s (undo i o) (S (z1 + z2))
  | ConW_then w p q i s a j s1 b j' s2 z1 z2 :
      ConW w p i s (CV a j s1) z1 -> ConW w q j s1 (CV b j' s2) z2 -> ConW w (PThen p q) i s (CV (VPair a b) j' s2) (S (z1 + z2))
  | ConW_ifthen1 w p t q i s o z1 :
      ConW w p i s o z1 -> stops o -> ConW w (PIfThen p t q) i s (undo i o) (S z1)
  | ConW_ifthen_no w p t q i s a j s1 e z1 z2 :
      ConW w p i s (CV a j s1) z1 -> Work k G sk w t (sk w j) (KO e) z2 -> ConW w (PIfThen p t q) i s (CV (VPair a VNone) j s1) (S (z1 + z2))
  | ConW_ifthen2 w p t q i s a j s1 b1 j1 o z1 z2 z3 :
      ConW w p i s (CV a j s1) z1 -> Work k G sk w t (sk w j) (OK b1 j1) z2 -> ConW w q j1 s1 o z3 -> stops o -> ConW w (PIfThen p t q) i s (undo i o) (S (z1 + z2 + z3))
  | ConW_ifthen w p t q i s a j s1 b1 j1 b j2 s2 z1 z2 z3 :
      ConW w p i s (CV a j s1) z1 -> Work k G sk w t (sk w j) (OK b1 j1) z2 -> ConW w q j1 s1 (CV b j2 s2) z3 -> ConW w (PIfThen p t q) i s (CV (VPair a (VSome b)) j2 s2) (S (z1 + z2 + z3))
  | ConW_or1 w p q i s v j s1 z1 :
      ConW w p i s (CV v j s1) z1 -> ConW w (POr p q) i s (CV v j s1) (S z1)
  | ConW_or1_panic w p q i s z1 :
      ConW w p i s CP z1 -> ConW w (POr p q) i s CP (S z1)
  | ConW_or2 w p q i s e x s1 o z1 z2 :
      ConW w p i s (CE e x s1) z1 -> ConW w q i s1 o z2 -> ConW w (POr p q) i s (undo i o) (S (z1 + z2))
  | ConW_longest_panic w p q i s z1 :
      ConW w p i s CP z1 -> ConW w (PLongest p q) i s CP (S z1)
  | ConW_longest_v w p q i s v j s1 o z1 z2 :
      ConW w p i s (CV v j s1) z1 -> ConW w q i s1 o z2 -> ConW w (PLongest p q) i s (longer i (CV v j s1) o) (S (z1 + z2))
  | ConW_longest_e w p q i s e j s1 o z1 z2 :
      ConW w p i s (CE e j s1) z1 -> ConW w q i s1 o z2 -> ConW w (PLongest p q) i s (longer i (CE e j s1) o) (S (z1 + z2))
  | ConW_prefix_ko w p pre i s e z1 :
      Work k G sk w pre (sk w i) (KO e) z1 -> ConW w (PPrefix p pre) i s (CE e i s) (S z1)
  | ConW_prefix w p pre i s b j o z1 z2 :
      Work k G sk w pre (sk w i) (OK b j) z1 -> ConW w p j s o z2 -> ConW w (PPrefix p pre) i s (undo i o) (S (z1 + z2))
  | ConW_suffix1 w p suf i s o z1 :
      ConW w p i s o z1 -> stops o -> ConW w (PSuffix p suf) i s (undo i o) (S z1)
  | ConW_suffix_ko w p suf i s v j s1 e z1 z2 :
      ConW w p i s (CV v j s1) z1 -> Work k G sk w suf (sk w j) (KO e) z2 -> ConW w (PSuffix p suf) i s (CE e i s1) (S (z1 + z2))
  | ConW_suffix w p suf i s v j s1 b j' z1 z2 :
      ConW w p i s (CV v j s1) z1 -> Work k G sk w suf (sk w j) (OK b j') z2 -> ConW w (PSuffix p suf) i s (CV v j' s1) (S (z1 + z2))
  | ConW_enclose_ko1 w p op cl i s e z1 :
      Work k G sk w op (sk w i) (KO e) z1 -> ConW w (PEnclose p op cl) i s (CE e i s) (S z1)
  | ConW_enclose2 w p op cl i s b j o z1 z2 :
      Work k G sk w op (sk w i) (OK b j) z1 -> ConW w p j s o z2 -> stops o -> ConW w (PEnclose p op cl) i s (undo i o) (S (z1 + z2))
  | ConW_enclose_ko3 w p op cl i s b j v j1 s1 e z1 z2 z3 :
      Work k G sk w op (sk w i) (OK b j) z1 -> ConW w p j s (CV v j1 s1) z2 -> Work k G sk w cl (sk w j1) (KO e) z3 -> ConW w (PEnclose p op cl) i s (CE e i s1) (S (z1 + z2 + z3))
  | ConW_enclose w p op cl i s b j v j1 s1 b2 j2 z1 z2 z3 :
      Work k G sk w op (sk w i) (OK b j) z1 -> ConW w p j s (CV v j1 s1) z2 -> Work k G sk w cl (sk w j1) (OK b2 j2) z3 -> ConW w (PEnclose p op cl) i s (CV v j2 s1) (S (z1 + z2 + z3))
  | ConW_seponce1 w p q r i s o z1 :
      ConW w p i s o z1 -> stops o -> ConW w (PSepOnce p q r) i s (undo i o) (S z1)
  | ConW_seponce_ko w p q r i s a j s1 e z1 z2 :
      ConW w p i s (CV a j s1) z1 -> Work k G sk w q (sk w j) (KO e) z2 -> ConW w (PSepOnce p q r) i s (CE e i s1) (S (z1 + z2))
  | ConW_seponce2 w p q r i s a j s1 b1 j1 o z1 z2 z3 :
      ConW w p i s (CV a j s1) z1 -> Work k G sk w q (sk w j) (OK b1 j1) z2 -> ConW w r j1 s1 o z3 -> stops o -> ConW w (PSepOnce p q r) i s (undo i o) (S (z1 + z2 + z3))
  | ConW_seponce w p q r i s a j s1 b1 j1 b j2 s2 z1 z2 z3 :
      ConW w p i s (CV a j s1) z1 -> Work k G sk w q (sk w j) (OK b1 j1) z2 -> ConW w r j1 s1 (CV b j2 s2) z3 -> ConW w (PSepOnce p q r) i s (CV (VPair a b) j2 s2) (S (z1 + z2 + z3))
  | ConW_sep w p q mn skip i s l z1 :
      CsepsW w p q skip None i s l z1 -> ConW w (PSep p q mn skip) i s (count_ok (fun vs => mn <=? length vs) ESeparate i VList l) (S z1)
  | ConW_sep2 w p q m n skip i s l z1 :
      CsepsW w p q skip (Some (S n)) i s l z1 -> ConW w (PSep2 p q m n skip) i s (count_ok (fun vs => m <=? length vs) ESeparate2 i (cells n) (capacity n l)) (S z1)
  | ConW_sepcollect w p q mn skip i s l z1 :
      CpollsW w p q skip false i s l z1 -> ConW w (PSepCollect p q mn skip) i s (count_ok (fun vs => mn <=? length vs) ESepCollect i VList l) (S z1)
  | ConW_repeat w p r i s l z1 :
      CrepsW w p (limit_of r) i s l z1 -> ConW w (PRepeat p r) i s (count_ok (fun vs => crange_contains r (length vs)) ERepeat i VList l) (S z1)
  | ConW_repeat2 w p m n i s l z1 :
      CrepsW w p (Some (S n)) i s l z1 -> ConW w (PRepeat2 p m n) i s (count_ok (fun vs => m <=? length vs) ERepeat2 i (cells n) (capacity n l)) (S z1)
  | ConW_collect w p mn i s l z1 :
      CrepsW w p None i s l z1 -> ConW w (PCollect p mn) i s (count_ok (fun vs => mn <=? length vs) ECollect i VList l) (S z1)
  | ConW_some w p i s v j s1 z1 :
      ConW w p i s (CV v j s1) z1 -> ConW w (POption p) i s (CV (VSome v) j s1) (S z1)
  | ConW_none w p i s e x s1 z1 :
      ConW w p i s (CE e x s1) z1 -> ConW w (POption p) i s (CV VNone i s1) (S z1)
  | ConW_option_panic w p i s z1 :
      ConW w p i s CP z1 -> ConW w (POption p) i s CP (S z1)
  | ConW_branch w t p q i s b o z1 :
      t (cx k w i) = Ok b -> ConW w (if b : bool then p else q) i s o z1 -> ConW w (PBranch t p q) i s (undo i o) (S z1)
  | ConW_branch_e w t p q i s e :
      t (cx k w i) = Err e -> ConW w (PBranch t p q) i s (CE e i s) 1
  | ConW_branch_panic w t p q i s :
      t (cx k w i) = Panic -> ConW w (PBranch t p q) i s CP 1
  | ConW_map w p f i s v j s1 z1 :
      ConW w p i s (CV v j s1) z1 -> ConW w (PMap p f) i s (settle j (f v, s1)) (S z1)
  | ConW_map_stops w p f i s o z1 :
      ConW w p i s o z1 -> stops o -> ConW w (PMap p f) i s o (S z1)
  | ConW_dyn1 w p f i s o z1 :
      ConW w p i s o z1 -> stops o -> ConW w (PDynThen p f) i s (undo i o) (S z1)
  | ConW_dyn_e w p f i s a j s1 e j' z1 :
      ConW w p i s (CV a j s1) z1 -> f (cx k w j) a = (Err e, cx k w j') -> j' <= length w -> ConW w (PDynThen p f) i s (CE e j' s1) (S z1)
  | ConW_dyn_panic w p f i s a j s1 c z1 :
      ConW w p i s (CV a j s1) z1 -> f (cx k w j) a = (Panic, c) -> ConW w (PDynThen p f) i s CP (S z1)
  | ConW_dyn2 w p f i s a j s1 q j' o z1 z2 :
      ConW w p i s (CV a j s1) z1 -> f (cx k w j) a = (Ok q, cx k w j') -> j' <= length w -> ConW w q j' s1 o z2 -> stops o -> ConW w (PDynThen p f) i s (undo i o) (S (z1 + z2))
  | ConW_dyn w p f i s a j s1 q j' b j2 s2 z1 z2 :
      ConW w p i s (CV a j s1) z1 -> f (cx k w j) a = (Ok q, cx k w j') -> j' <= length w -> ConW w q j' s1 (CV b j2 s2) z2 -> ConW w (PDynThen p f) i s (CV (VPair a b) j2 s2) (S (z1 + z2))
  | ConW_fn w f i s r j :
      f (cx k w i) = (r, cx k w j) -> j <= length w -> r <> Panic -> ConW w (PCtorFn f) i s (settle j (r, s)) 1
  | ConW_fn_panic w f i s c :
      f (cx k w i) = (Panic, c) -> ConW w (PCtorFn f) i s CP 1
  | ConW_choice w e ps i s o z1 :
      CfirstW w e (plain ps) i s o z1 -> ConW w (PChoice e false ps) i s o (S z1)
  | ConW_choice_ltm w e ps i s o z1 :
      ClongestW w e (plain ps) i None i i s o z1 -> ConW w (PChoice e true ps) i s o (S z1)
  | ConW_pairchoice w e ps i s o z1 :
      CfirstW w e (keyed ps) i s o z1 -> ConW w (PPairChoice e false ps) i s o (S z1)
  | ConW_pairchoice_ltm w e ps i s o z1 :
      ClongestW w e (keyed ps) i None i i s o z1 -> ConW w (PPairChoice e true ps) i s o (S z1)
  | ConW_wrap w p i s o z1 :
      ConW w p i s o z1 -> ConW w (PWrap p) i s o (S z1)
  | ConW_nonep w i s :
      ConW w PNoneP i s (CE EOption i s) 1
  | ConW_ref w x p i s o z1 :
      env_get G x = Some p -> ConW w p i s o z1 -> ConW w (PRef x) i s o (S z1)
  | ConW_ref_none w x i s :
      env_get G x = None -> ConW w (PRef x) i s (CE EOption i s) 1
  with CrepsW : text -> pat -> option nat -> nat -> ST -> lout ST -> nat -> Prop :=
  | CrepsW_lim w p i s :
      CrepsW w p (Some 0) i s (LV [] i s) 0
  | CrepsW_stop w p lim i s e x s1 z1 :
      lim <> Some 0 -> ConW w p i s (CE e x s1) z1 -> CrepsW w p lim i s (LV [] x s1) z1
  | CrepsW_panic w p lim i s z1 :
      lim <> Some 0 -> ConW w p i s CP z1 -> CrepsW w p lim i s LP z1
  | CrepsW_step w p lim i s v j s1 l z1 z2 :
      lim <> Some 0 -> ConW w p i s (CV v j s1) z1 -> CrepsW w p (limit_pred lim) j s1 l z2 -> CrepsW w p lim i s (lcons v l) (z1 + z2)
  with CsepsW : text -> pat -> pat -> bool -> option nat -> nat -> ST -> lout ST -> nat -> Prop :=
  | CsepsW_lim w p q skip i s :
      CsepsW w p q skip (Some 0) i s (LV [] i s) 0
  | CsepsW_stop w p q skip lim i s e x s1 z1 :
      lim <> Some 0 -> ConW w p i s (CE e x s1) z1 -> CsepsW w p q skip lim i s (LV [] x s1) z1
  | CsepsW_panic w p q skip lim i s z1 :
      lim <> Some 0 -> ConW w p i s CP z1 -> CsepsW w p q skip lim i s LP z1
  | CsepsW_last w p q (skip : bool) lim i s v j s1 e z1 z2 :
      lim <> Some 0 -> ConW w p i s (CV v j s1) z1 -> Work k G sk w q (sk w j) (KO e) z2 -> CsepsW w p q skip lim i s (LV (if skip then [v] else []) j s1) (z1 + z2)
  | CsepsW_step w p q skip lim i s v j s1 b j' l z1 z2 z3 :
      lim <> Some 0 -> ConW w p i s (CV v j s1) z1 -> Work k G sk w q (sk w j) (OK b j') z2 -> CsepsW w p q skip (limit_pred lim) j' s1 l z3 -> CsepsW w p q skip lim i s (lcons v l) (z1 + z2 + z3)
  with CpollsW : text -> pat -> pat -> bool -> bool -> nat -> ST -> lout ST -> nat -> Prop :=
  | CpollsW_stop w p q skip en i s e x s1 z1 :
      ConW w p i s (CE e x s1) z1 -> CpollsW w p q skip en i s (LV [] x s1) z1
  | CpollsW_panic w p q skip en i s z1 :
      ConW w p i s CP z1 -> CpollsW w p q skip en i s LP z1
  | CpollsW_over_ko w p q skip i s v j s1 e z1 z2 :
      ConW w p i s (CV v j s1) z1 -> Work k G sk w q (sk w j) (KO e) z2 -> CpollsW w p q skip true i s (LV [] j s1) (z1 + z2)
  | CpollsW_over w p q skip i s v j s1 b j' z1 z2 :
      ConW w p i s (CV v j s1) z1 -> Work k G sk w q (sk w j) (OK b j') z2 -> CpollsW w p q skip true i s (LV [] j' s1) (z1 + z2)
  | CpollsW_last w p q i s v j s1 e l z1 z2 z3 :
      ConW w p i s (CV v j s1) z1 -> Work k G sk w q (sk w j) (KO e) z2 -> CpollsW w p q true true j s1 l z3 -> CpollsW w p q true false i s (lcons v l) (z1 + z2 + z3)
  | CpollsW_drop w p q i s v j s1 e z1 z2 :
      ConW w p i s (CV v j s1) z1 -> Work k G sk w q (sk w j) (KO e) z2 -> CpollsW w p q false false i s (LV [] j s1) (z1 + z2)
  | CpollsW_step w p q skip i s v j s1 b j' l z1 z2 z3 :
      ConW w p i s (CV v j s1) z1 -> Work k G sk w q (sk w j) (OK b j') z2 -> CpollsW w p q skip false j' s1 l z3 -> CpollsW w p q skip false i s (lcons v l) (z1 + z2 + z3)
  with CfirstW : text -> error -> list (pat * (val -> val)) -> nat -> ST -> cout ST -> nat -> Prop :=
  | CfirstW_nil w e i s :
      CfirstW w e [] i s (CE e i s) 0
  | CfirstW_hit w e p g ps i s v j s1 z1 :
      ConW w p i s (CV v j s1) z1 -> CfirstW w e ((p, g) :: ps) i s (CV (g v) j s1) z1
  | CfirstW_panic w e p g ps i s z1 :
      ConW w p i s CP z1 -> CfirstW w e ((p, g) :: ps) i s CP z1
  | CfirstW_next w e p g ps i s e' x s1 o z1 z2 :
      ConW w p i s (CE e' x s1) z1 -> CfirstW w e ps i s1 o z2 -> CfirstW w e ((p, g) :: ps) i s o (z1 + z2)
  with ClongestW : text -> error -> list (pat * (val -> val)) -> nat -> option val -> nat -> nat -> ST -> cout ST -> nat -> Prop :=
  | ClongestW_best w e i v en cur s :
      ClongestW w e [] i (Some v) en cur s (CV v cur s) 0
  | ClongestW_none w e i en cur s :
      ClongestW w e [] i None en cur s (CE e cur s) 0
  | ClongestW_more w e p g ps i best en cur s v j s1 o z1 z2 :
      ConW w p i s (CV v j s1) z1 -> en < j -> ClongestW w e ps i (Some (g v)) j j s1 o z2 -> ClongestW w e ((p, g) :: ps) i best en cur s o (z1 + z2)
  | ClongestW_less w e p g ps i best en cur s v j s1 o z1 z2 :
      ConW w p i s (CV v j s1) z1 -> j <= en -> ClongestW w e ps i best en j s1 o z2 -> ClongestW w e ((p, g) :: ps) i best en cur s o (z1 + z2)
  | ClongestW_ko w e p g ps i best en cur s e' x s1 o z1 z2 :
      ConW w p i s (CE e' x s1) z1 -> ClongestW w e ps i best en x s1 o z2 -> ClongestW w e ((p, g) :: ps) i best en cur s o (z1 + z2)
  | ClongestW_panic w e p g ps i best en cur s z1 :
      ConW w p i s CP z1 -> ClongestW w e ((p, g) :: ps) i best en cur s CP z1.
End ConWork.

Scheme ConW_ind' := Minimality for ConW Sort Prop
  with CrepsW_ind' := Minimality for CrepsW Sort Prop
  with CsepsW_ind' := Minimality for CsepsW Sort Prop
  with CpollsW_ind' := Minimality for CpollsW Sort Prop
  with CfirstW_ind' := Minimality for CfirstW Sort Prop
  with ClongestW_ind' := Minimality for ClongestW Sort Prop.
Combined Scheme ConW_mutind from ConW_ind', CrepsW_ind', CsepsW_ind', CpollsW_ind', CfirstW_ind', ClongestW_ind'.

(** Each run of the one is a run of the other. *)
Lemma conwork_con k G sk {ST} (hv : text -> nat -> nat -> ST -> res val * ST) :
  (forall w p i s o n, ConW k G sk hv w p i s o n -> Con k G sk hv w p i s o) /\
  (forall w p l i s o n, CrepsW k G sk hv w p l i s o n -> Creps k G sk hv w p l i s o) /\
  (forall w p q b l i s o n, CsepsW k G sk hv w p q b l i s o n -> Cseps k G sk hv w p q b l i s o) /\
  (forall w p q b e i s o n, CpollsW k G sk hv w p q b e i s o n -> Cpolls k G sk hv w p q b e i s o) /\
  (forall w e ps i s o n, CfirstW k G sk hv w e ps i s o n -> Cfirst k G sk hv w e ps i s o) /\
  (forall w e ps i b en cur s o n, ClongestW k G sk hv w e ps i b en cur s o n -> Clongest k G sk hv w e ps i b en cur s o).
Proof.
  apply ConW_mutind; intros; repeat match goal with X : Work _ _ _ _ _ _ _ _ |- _ => apply (proj1 (work_peg k G sk)) in X end;
    try solve [econstructor; eauto].
Qed.
Lemma con_conwork k G sk {ST} (hv : text -> nat -> nat -> ST -> res val * ST) :
  (forall w p i s o, Con k G sk hv w p i s o -> exists n, ConW k G sk hv w p i s o n) /\
  (forall w p l i s o, Creps k G sk hv w p l i s o -> exists n, CrepsW k G sk hv w p l i s o n) /\
  (forall w p q b l i s o, Cseps k G sk hv w p q b l i s o -> exists n, CsepsW k G sk hv w p q b l i s o n) /\
  (forall w p q b e i s o, Cpolls k G sk hv w p q b e i s o -> exists n, CpollsW k G sk hv w p q b e i s o n) /\
  (forall w e ps i s o, Cfirst k G sk hv w e ps i s o -> exists n, CfirstW k G sk hv w e ps i s o n) /\
  (forall w e ps i b en cur s o, Clongest k G sk hv w e ps i b en cur s o -> exists n, ClongestW k G sk hv w e ps i b en cur s o n).
Proof.
  apply Con_mutind; intros; repeat match goal with X : exists _, _ |- _ => destruct X end;
    repeat match goal with X : Peg _ _ _ _ _ _ _ |- _ => apply (proj1 (peg_work k G sk)) in X; destruct X end;
    try solve [eexists; econstructor; eauto].
Qed.
