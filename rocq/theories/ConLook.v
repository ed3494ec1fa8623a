(** What building looks at: the rules of ConSpec.v (constructing: src/ctor.rs Ctor::construct, src/ctor/, src/regex/), with a number
    of items beside them.

    [ConL w z p i s o] builds with [p] at [i] on the text [w], the handler in state [s], with outcome [o], whose answer rests
    on the first [z] items of [w] alone.  That the text ends counts as an item behind its last one.  Parts that are matched
    look as in Look.v; the handler looks at what was matched; closures that are handed the context (src/ctx.rs [Context])
    may look anywhere, so that their rules ask for the whole text.  Each rule is the rule of ConSpec.v of the same name. *)

From Coq Require Import List Arith NArith Bool Lia.
From Verif Require Import Base Text Context Neu Syntax Ctor TextProofs Spec Core CtorSpec ConSpec Look LookLaws.
Import ListNotations.

Section ConLook.
  Variable k : kind.
  Variable G : env.
  Variable sk : text -> nat -> nat.
  (** How many items decide what is skipped (Look.v). *)
  Variable sx : text -> nat -> nat.
  Context {ST : Type}.
  Variable hv : text -> nat -> nat -> ST -> res val * ST.

  Inductive ConL : text -> nat -> pat -> nat -> ST -> cout ST -> Prop :=
  | ConL_leaf w z p i s b j :
      leafy p -> sx w i <= z -> Look k G sk sx w z p (sk w i) (OK b j) -> j <= z \/ length w < z -> ConL w z p i s (settle j (hv w b j s))
  | ConL_leaf_ko w z p i s e :
      leafy p -> sx w i <= z -> Look k G sk sx w z p (sk w i) (KO e) -> ConL w z p i s (CE e i s)
  | ConL_pat w z p i s b j :
      sx w i <= z -> Look k G sk sx w z p (sk w i) (OK b j) -> j <= z \/ length w < z -> ConL w z (PPat p) i s (settle j (hv w b j s))
  | ConL_pat_ko w z p i s e :
      sx w i <= z -> Look k G sk sx w z p (sk w i) (KO e) -> ConL w z (PPat p) i s (CE e i s)
  | ConL_then1 w z p q i s o :
      ConL w z p i s o -> stops o -> ConL w z (PThen p q) i s (undo i o)
  | ConL_then2 w z p q i s a j s1 o :
      ConL w z p i s (CV a j s1) -> ConL w z q j s1 o -> stops o -> ConL w z (PThen p q) i s (undo i o)
  | ConL_then w z p q i s a j s1 b j' s2 :
      ConL w z p i s (CV a j s1) -> ConL w z q j s1 (CV b j' s2) -> ConL w z (PThen p q) i s (CV (VPair a b) j' s2)
  | ConL_ifthen1 w z p t q i s o :
      ConL w z p i s o -> stops o -> ConL w z (PIfThen p t q) i s (undo i o)
  | ConL_ifthen_no w z p t q i s a j s1 e :
      ConL w z p i s (CV a j s1) -> sx w j <= z -> Look k G sk sx w z t (sk w j) (KO e) -> ConL w z (PIfThen p t q) i s (CV (VPair a VNone) j s1)
  | ConL_ifthen2 w z p t q i s a j s1 b1 j1 o :
      ConL w z p i s (CV a j s1) -> sx w j <= z -> Look k G sk sx w z t (sk w j) (OK b1 j1) -> ConL w z q j1 s1 o -> stops o -> ConL w z (PIfThen p t q) i s (undo i o)
  | ConL_ifthen w z p t q i s a j s1 b1 j1 b j2 s2 :
      ConL w z p i s (CV a j s1) -> sx w j <= z -> Look k G sk sx w z t (sk w j) (OK b1 j1) -> ConL w z q j1 s1 (CV b j2 s2) -> ConL w z (PIfThen p t q) i s (CV (VPair a (VSome b)) j2 s2)
  | ConL_or1 w z p q i s v j s1 :
      ConL w z p i s (CV v j s1) -> ConL w z (POr p q) i s (CV v j s1)
  | ConL_or1_panic w z p q i s :
      ConL w z p i s CP -> ConL w z (POr p q) i s CP
  | ConL_or2 w z p q i s e x s1 o :
      ConL w z p i s (CE e x s1) -> ConL w z q i s1 o -> ConL w z (POr p q) i s (undo i o)
  | ConL_longest_panic w z p q i s :
      ConL w z p i s CP -> ConL w z (PLongest p q) i s CP
  | ConL_longest_v w z p q i s v j s1 o :
      ConL w z p i s (CV v j s1) -> ConL w z q i s1 o -> ConL w z (PLongest p q) i s (longer i (CV v j s1) o)
  | ConL_longest_e w z p q i s e j s1 o :
      ConL w z p i s (CE e j s1) -> ConL w z q i s1 o -> ConL w z (PLongest p q) i s (longer i (CE e j s1) o)
  | ConL_prefix_ko w z p pre i s e :
      sx w i <= z -> Look k G sk sx w z pre (sk w i) (KO e) -> ConL w z (PPrefix p pre) i s (CE e i s)
  | ConL_prefix w z p pre i s b j o :
      sx w i <= z -> Look k G sk sx w z pre (sk w i) (OK b j) -> ConL w z p j s o -> ConL w z (PPrefix p pre) i s (undo i o)
  | ConL_suffix1 w z p suf i s o :
      ConL w z p i s o -> stops o -> ConL w z (PSuffix p suf) i s (undo i o)
  | ConL_suffix_ko w z p suf i s v j s1 e :
      ConL w z p i s (CV v j s1) -> sx w j <= z -> Look k G sk sx w z suf (sk w j) (KO e) -> ConL w z (PSuffix p suf) i s (CE e i s1)
  | ConL_suffix w z p suf i s v j s1 b j' :
      ConL w z p i s (CV v j s1) -> sx w j <= z -> Look k G sk sx w z suf (sk w j) (OK b j') -> ConL w z (PSuffix p suf) i s (CV v j' s1)
  | ConL_enclose_ko1 w z p op cl i s e :
      sx w i <= z -> Look k G sk sx w z op (sk w i) (KO e) -> ConL w z (PEnclose p op cl) i s (CE e i s)
  | ConL_enclose2 w z p op cl i s b j o :
      sx w i <= z -> Look k G sk sx w z op (sk w i) (OK b j) -> ConL w z p j s o -> stops o -> ConL w z (PEnclose p op cl) i s (undo i o)
  | ConL_enclose_ko3 w z p op cl i s b j v j1 s1 e :
      sx w i <= z -> Look k G sk sx w z op (sk w i) (OK b j) -> ConL w z p j s (CV v j1 s1) -> sx w j1 <= z -> Look k G sk sx w z cl (sk w j1) (KO e) -> ConL w z (PEnclose p op cl) i s (CE e i s1)
  | ConL_enclose w z p op cl i s b j v j1 s1 b2 j2 :
      sx w i <= z -> Look k G sk sx w z op (sk w i) (OK b j) -> ConL w z p j s (CV v j1 s1) -> sx w j1 <= z -> Look k G sk sx w z cl (sk w j1) (OK b2 j2) -> ConL w z (PEnclose p op cl) i s (CV v j2 s1)
  | ConL_seponce1 w z p q r i s o :
      ConL w z p i s o -> stops o -> ConL w z (PSepOnce p q r) i s (undo i o)
  | ConL_seponce_ko w z p q r i s a j s1 e :
      ConL w z p i s (CV a j s1) -> sx w j <= z -> Look k G sk sx w z q (sk w j) (KO e) -> ConL w z (PSepOnce p q r) i s (CE e i s1)
  | ConL_seponce2 w z p q r i s a j s1 b1 j1 o :
      ConL w z p i s (CV a j s1) -> sx w j <= z -> Look k G sk sx w z q (sk w j) (OK b1 j1) -> ConL w z r j1 s1 o -> stops o -> ConL w z (PSepOnce p q r) i s (undo i o)
  | ConL_seponce w z p q r i s a j s1 b1 j1 b j2 s2 :
      ConL w z p i s (CV a j s1) -> sx w j <= z -> Look k G sk sx w z q (sk w j) (OK b1 j1) -> ConL w z r j1 s1 (CV b j2 s2) -> ConL w z (PSepOnce p q r) i s (CV (VPair a b) j2 s2)
  | ConL_sep w z p q mn skip i s l :
      CsepsL w z p q skip None i s l -> ConL w z (PSep p q mn skip) i s (count_ok (fun vs => mn <=? length vs) ESeparate i VList l)
  | ConL_sep2 w z p q m n skip i s l :
      CsepsL w z p q skip (Some (S n)) i s l -> ConL w z (PSep2 p q m n skip) i s (count_ok (fun vs => m <=? length vs) ESeparate2 i (cells n) (capacity n l))
  | ConL_sepcollect w z p q mn skip i s l :
      CpollsL w z p q skip false i s l -> ConL w z (PSepCollect p q mn skip) i s (count_ok (fun vs => mn <=? length vs) ESepCollect i VList l)
  | ConL_repeat w z p r i s l :
      CrepsL w z p (limit_of r) i s l -> ConL w z (PRepeat p r) i s (count_ok (fun vs => crange_contains r (length vs)) ERepeat i VList l)
  | ConL_repeat2 w z p m n i s l :
      CrepsL w z p (Some (S n)) i s l -> ConL w z (PRepeat2 p m n) i s (count_ok (fun vs => m <=? length vs) ERepeat2 i (cells n) (capacity n l))
  | ConL_collect w z p mn i s l :
      CrepsL w z p None i s l -> ConL w z (PCollect p mn) i s (count_ok (fun vs => mn <=? length vs) ECollect i VList l)
  | ConL_some w z p i s v j s1 :
      ConL w z p i s (CV v j s1) -> ConL w z (POption p) i s (CV (VSome v) j s1)
  | ConL_none w z p i s e x s1 :
      ConL w z p i s (CE e x s1) -> ConL w z (POption p) i s (CV VNone i s1)
  | ConL_option_panic w z p i s :
      ConL w z p i s CP -> ConL w z (POption p) i s CP
  | ConL_branch w z t p q i s b o :
      length w < z -> t (cx k w i) = Ok b -> ConL w z (if b : bool then p else q) i s o -> ConL w z (PBranch t p q) i s (undo i o)
  | ConL_branch_e w z t p q i s e :
      length w < z -> t (cx k w i) = Err e -> ConL w z (PBranch t p q) i s (CE e i s)
  | ConL_branch_panic w z t p q i s :
      length w < z -> t (cx k w i) = Panic -> ConL w z (PBranch t p q) i s CP
  | ConL_map w z p f i s v j s1 :
      ConL w z p i s (CV v j s1) -> ConL w z (PMap p f) i s (settle j (f v, s1))
  | ConL_map_stops w z p f i s o :
      ConL w z p i s o -> stops o -> ConL w z (PMap p f) i s o
  | ConL_dyn1 w z p f i s o :
      ConL w z p i s o -> stops o -> ConL w z (PDynThen p f) i s (undo i o)
  | ConL_dyn_e w z p f i s a j s1 e j' :
      length w < z -> ConL w z p i s (CV a j s1) -> f (cx k w j) a = (Err e, cx k w j') -> j' <= length w -> ConL w z (PDynThen p f) i s (CE e j' s1)
  | ConL_dyn_panic w z p f i s a j s1 c :
      length w < z -> ConL w z p i s (CV a j s1) -> f (cx k w j) a = (Panic, c) -> ConL w z (PDynThen p f) i s CP
  | ConL_dyn2 w z p f i s a j s1 q j' o :
      length w < z -> ConL w z p i s (CV a j s1) -> f (cx k w j) a = (Ok q, cx k w j') -> j' <= length w -> ConL w z q j' s1 o -> stops o -> ConL w z (PDynThen p f) i s (undo i o)
  | ConL_dyn w z p f i s a j s1 q j' b j2 s2 :
      length w < z -> ConL w z p i s (CV a j s1) -> f (cx k w j) a = (Ok q, cx k w j') -> j' <= length w -> ConL w z q j' s1 (CV b j2 s2) -> ConL w z (PDynThen p f) i s (CV (VPair a b) j2 s2)
  | ConL_fn w z f i s r j :
      length w < z -> f (cx k w i) = (r, cx k w j) -> j <= length w -> r <> Panic -> ConL w z (PCtorFn f) i s (settle j (r, s))
  | ConL_fn_panic w z f i s c :
      length w < z -> f (cx k w i) = (Panic, c) -> ConL w z (PCtorFn f) i s CP
  | ConL_choice w z e ps i s o :
      CfirstL w z e (plain ps) i s o -> ConL w z (PChoice e false ps) i s o
  | ConL_choice_ltm w z e ps i s o :
      ClongestL w z e (plain ps) i None i i s o -> ConL w z (PChoice e true ps) i s o
  | ConL_pairchoice w z e ps i s o :
      CfirstL w z e (keyed ps) i s o -> ConL w z (PPairChoice e false ps) i s o
  | ConL_pairchoice_ltm w z e ps i s o :
      ClongestL w z e (keyed ps) i None i i s o -> ConL w z (PPairChoice e true ps) i s o
  | ConL_wrap w z p i s o :
      ConL w z p i s o -> ConL w z (PWrap p) i s o
  | ConL_nonep w z i s :
      ConL w z PNoneP i s (CE EOption i s)
  | ConL_ref w z x p i s o :
      env_get G x = Some p -> ConL w z p i s o -> ConL w z (PRef x) i s o
  | ConL_ref_none w z x i s :
      env_get G x = None -> ConL w z (PRef x) i s (CE EOption i s)
  with CrepsL : text -> nat -> pat -> option nat -> nat -> ST -> lout ST -> Prop :=
  | CrepsL_lim w z p i s :
      CrepsL w z p (Some 0) i s (LV [] i s)
  | CrepsL_stop w z p lim i s e x s1 :
      lim <> Some 0 -> ConL w z p i s (CE e x s1) -> CrepsL w z p lim i s (LV [] x s1)
  | CrepsL_panic w z p lim i s :
      lim <> Some 0 -> ConL w z p i s CP -> CrepsL w z p lim i s LP
  | CrepsL_step w z p lim i s v j s1 l :
      lim <> Some 0 -> ConL w z p i s (CV v j s1) -> CrepsL w z p (limit_pred lim) j s1 l -> CrepsL w z p lim i s (lcons v l)
  with CsepsL : text -> nat -> pat -> pat -> bool -> option nat -> nat -> ST -> lout ST -> Prop :=
  | CsepsL_lim w z p q skip i s :
      CsepsL w z p q skip (Some 0) i s (LV [] i s)
  | CsepsL_stop w z p q skip lim i s e x s1 :
      lim <> Some 0 -> ConL w z p i s (CE e x s1) -> CsepsL w z p q skip lim i s (LV [] x s1)
  | CsepsL_panic w z p q skip lim i s :
      lim <> Some 0 -> ConL w z p i s CP -> CsepsL w z p q skip lim i s LP
  | CsepsL_last w z p q (skip : bool) lim i s v j s1 e :
      lim <> Some 0 -> ConL w z p i s (CV v j s1) -> sx w j <= z -> Look k G sk sx w z q (sk w j) (KO e) -> CsepsL w z p q skip lim i s (LV (if skip then [v] else []) j s1)
  | CsepsL_step w z p q skip lim i s v j s1 b j' l :
      lim <> Some 0 -> ConL w z p i s (CV v j s1) -> sx w j <= z -> Look k G sk sx w z q (sk w j) (OK b j') -> CsepsL w z p q skip (limit_pred lim) j' s1 l -> CsepsL w z p q skip lim i s (lcons v l)
  with CpollsL : text -> nat -> pat -> pat -> bool -> bool -> nat -> ST -> lout ST -> Prop :=
  | CpollsL_stop w z p q skip en i s e x s1 :
      ConL w z p i s (CE e x s1) -> CpollsL w z p q skip en i s (LV [] x s1)
  | CpollsL_panic w z p q skip en i s :
      ConL w z p i s CP -> CpollsL w z p q skip en i s LP
  | CpollsL_over_ko w z p q skip i s v j s1 e :
      ConL w z p i s (CV v j s1) -> sx w j <= z -> Look k G sk sx w z q (sk w j) (KO e) -> CpollsL w z p q skip true i s (LV [] j s1)
  | CpollsL_over w z p q skip i s v j s1 b j' :
      ConL w z p i s (CV v j s1) -> sx w j <= z -> Look k G sk sx w z q (sk w j) (OK b j') -> CpollsL w z p q skip true i s (LV [] j' s1)
  | CpollsL_last w z p q i s v j s1 e l :
      ConL w z p i s (CV v j s1) -> sx w j <= z -> Look k G sk sx w z q (sk w j) (KO e) -> CpollsL w z p q true true j s1 l -> CpollsL w z p q true false i s (lcons v l)
  | CpollsL_drop w z p q i s v j s1 e :
      ConL w z p i s (CV v j s1) -> sx w j <= z -> Look k G sk sx w z q (sk w j) (KO e) -> CpollsL w z p q false false i s (LV [] j s1)
  | CpollsL_step w z p q skip i s v j s1 b j' l :
      ConL w z p i s (CV v j s1) -> sx w j <= z -> Look k G sk sx w z q (sk w j) (OK b j') -> CpollsL w z p q skip false j' s1 l -> CpollsL w z p q skip false i s (lcons v l)
  with CfirstL : text -> nat -> error -> list (pat * (val -> val)) -> nat -> ST -> cout ST -> Prop :=
  | CfirstL_nil w z e i s :
      CfirstL w z e [] i s (CE e i s)
  | CfirstL_hit w z e p g ps i s v j s1 :
      ConL w z p i s (CV v j s1) -> CfirstL w z e ((p, g) :: ps) i s (CV (g v) j s1)
  | CfirstL_panic w z e p g ps i s :
      ConL w z p i s CP -> CfirstL w z e ((p, g) :: ps) i s CP
  | CfirstL_next w z e p g ps i s e' x s1 o :
      ConL w z p i s (CE e' x s1) -> CfirstL w z e ps i s1 o -> CfirstL w z e ((p, g) :: ps) i s o
  with ClongestL : text -> nat -> error -> list (pat * (val -> val)) -> nat -> option val -> nat -> nat -> ST -> cout ST -> Prop :=
  | ClongestL_best w z e i v en cur s :
      ClongestL w z e [] i (Some v) en cur s (CV v cur s)
  | ClongestL_none w z e i en cur s :
      ClongestL w z e [] i None en cur s (CE e cur s)
  | ClongestL_more w z e p g ps i best en cur s v j s1 o :
      ConL w z p i s (CV v j s1) -> en < j -> ClongestL w z e ps i (Some (g v)) j j s1 o -> ClongestL w z e ((p, g) :: ps) i best en cur s o
  | ClongestL_less w z e p g ps i best en cur s v j s1 o :
      ConL w z p i s (CV v j s1) -> j <= en -> ClongestL w z e ps i best en j s1 o -> ClongestL w z e ((p, g) :: ps) i best en cur s o
  | ClongestL_ko w z e p g ps i best en cur s e' x s1 o :
      ConL w z p i s (CE e' x s1) -> ClongestL w z e ps i best en x s1 o -> ClongestL w z e ((p, g) :: ps) i best en cur s o
  | ClongestL_panic w z e p g ps i best en cur s :
      ConL w z p i s CP -> ClongestL w z e ((p, g) :: ps) i best en cur s CP.
End ConLook.

Scheme ConL_ind' := Minimality for ConL Sort Prop
  with CrepsL_ind' := Minimality for CrepsL Sort Prop
  with CsepsL_ind' := Minimality for CsepsL Sort Prop
  with CpollsL_ind' := Minimality for CpollsL Sort Prop
  with CfirstL_ind' := Minimality for CfirstL Sort Prop
  with ClongestL_ind' := Minimality for ClongestL Sort Prop.
Combined Scheme ConL_mutind from ConL_ind', CrepsL_ind', CsepsL_ind', CpollsL_ind', CfirstL_ind', ClongestL_ind'.

(** Each run of the one is a run of the other; to see more items than there are is to see the text and its end. *)
Lemma conlook_con k G sk sx {ST} (hv : text -> nat -> nat -> ST -> res val * ST) :
  (forall w z p i s o, ConL k G sk sx hv w z p i s o -> Con k G sk hv w p i s o) /\
  (forall w z p l i s o, CrepsL k G sk sx hv w z p l i s o -> Creps k G sk hv w p l i s o) /\
  (forall w z p q b l i s o, CsepsL k G sk sx hv w z p q b l i s o -> Cseps k G sk hv w p q b l i s o) /\
  (forall w z p q b e i s o, CpollsL k G sk sx hv w z p q b e i s o -> Cpolls k G sk hv w p q b e i s o) /\
  (forall w z e ps i s o, CfirstL k G sk sx hv w z e ps i s o -> Cfirst k G sk hv w e ps i s o) /\
  (forall w z e ps i b en cur s o, ClongestL k G sk sx hv w z e ps i b en cur s o -> Clongest k G sk hv w e ps i b en cur s o).
Proof.
  apply ConL_mutind; intros; repeat match goal with X : Look _ _ _ _ _ _ _ _ _ |- _ => apply (proj1 (look_peg k G sk sx)) in X end;
    try solve [econstructor; eauto].
Qed.
Lemma con_conlook k G sk sx {ST} (hv : text -> nat -> nat -> ST -> res val * ST) : (forall w i, sx w i <= S (length w)) ->
  (forall w p i s o, Con k G sk hv w p i s o -> forall z, length w < z -> ConL k G sk sx hv w z p i s o) /\
  (forall w p l i s o, Creps k G sk hv w p l i s o -> forall z, length w < z -> CrepsL k G sk sx hv w z p l i s o) /\
  (forall w p q b l i s o, Cseps k G sk hv w p q b l i s o -> forall z, length w < z -> CsepsL k G sk sx hv w z p q b l i s o) /\
  (forall w p q b e i s o, Cpolls k G sk hv w p q b e i s o -> forall z, length w < z -> CpollsL k G sk sx hv w z p q b e i s o) /\
  (forall w e ps i s o, Cfirst k G sk hv w e ps i s o -> forall z, length w < z -> CfirstL k G sk sx hv w z e ps i s o) /\
  (forall w e ps i b en cur s o, Clongest k G sk hv w e ps i b en cur s o -> forall z, length w < z -> ClongestL k G sk sx hv w z e ps i b en cur s o).
Proof.
  intros SX. apply Con_mutind; intros;
    repeat match goal with X : Peg _ _ _ _ _ _ _ |- _ => eapply (proj1 (peg_look k G sk sx SX)) in X; [|eassumption] end;
    try solve [econstructor; eauto; first [now right | match goal with |- sx ?w ?i <= _ => specialize (SX w i); lia end]].
Qed.

(** The handler's answer rests on the text up to the end of the match. *)
Definition sees_match {ST} (hv : text -> nat -> nat -> ST -> res val * ST) : Prop :=
  forall w w' b j s, firstn j w' = firstn j w -> hv w' b j s = hv w b j s.

Lemma conlook_agree k G sk sx {ST} (hv : text -> nat -> nat -> ST -> res val * ST) : decided sk sx -> sees_match hv ->
  (forall w z p i s o, ConL k G sk sx hv w z p i s o -> forall w', agree z w w' -> ConL k G sk sx hv w' z p i s o) /\
  (forall w z p l i s o, CrepsL k G sk sx hv w z p l i s o -> forall w', agree z w w' -> CrepsL k G sk sx hv w' z p l i s o) /\
  (forall w z p q b l i s o, CsepsL k G sk sx hv w z p q b l i s o -> forall w', agree z w w' -> CsepsL k G sk sx hv w' z p q b l i s o) /\
  (forall w z p q b e i s o, CpollsL k G sk sx hv w z p q b e i s o -> forall w', agree z w w' -> CpollsL k G sk sx hv w' z p q b e i s o) /\
  (forall w z e ps i s o, CfirstL k G sk sx hv w z e ps i s o -> forall w', agree z w w' -> CfirstL k G sk sx hv w' z e ps i s o) /\
  (forall w z e ps i b en cur s o, ClongestL k G sk sx hv w z e ps i b en cur s o -> forall w', agree z w w' -> ClongestL k G sk sx hv w' z e ps i b en cur s o).
Proof.
  intros DE LO. apply ConL_mutind; intros.
  all: try match goal with H : length ?w < ?z, A : agree ?z ?w ?w' |- _ => pose proof (agree_all _ _ _ H A); subst w' end.
  all: repeat match goal with
    | D : decided ?sk ?sx, X : Look ?k ?G ?sk ?sx ?w ?z ?p (?sk ?w ?i) ?o, A : agree ?z ?w ?w', S : ?sx ?w ?i <= ?z |- _ =>
        let E := fresh "E" in let S' := fresh "S'" in let X' := fresh "X" in destruct (D w w' z i S A) as [E S'];
        pose proof (proj1 (look_agree k G sk sx D) _ _ _ _ _ X w' A) as X'; rewrite <- E in X'; clear X S E
    end.
  all: try solve [econstructor; eauto].
  all: match goal with O : _ \/ length ?w < _, A : agree _ ?w ?w' |- _ => destruct O as [O|O];
    [|pose proof (agree_all _ _ _ O A); subst w'; first [eapply ConL_pat; eauto; fail | eapply ConL_leaf; eauto; fail]] end.
  all: match goal with L : sees_match ?hv, A : agree ?z ?w ?w', O : ?j <= ?z |- context [?hv ?w ?b ?j ?s] =>
    rewrite <- (L w w' b j s (agree_less z j w w' O A)) end; first [eapply ConL_pat; eauto; fail | eapply ConL_leaf; eauto; fail].
Qed.

(** Who may look further may. *)
Lemma conlook_more k G sk sx {ST} (hv : text -> nat -> nat -> ST -> res val * ST) :
  (forall w z p i s o, ConL k G sk sx hv w z p i s o -> forall y, z <= y -> ConL k G sk sx hv w y p i s o) /\
  (forall w z p l i s o, CrepsL k G sk sx hv w z p l i s o -> forall y, z <= y -> CrepsL k G sk sx hv w y p l i s o) /\
  (forall w z p q b l i s o, CsepsL k G sk sx hv w z p q b l i s o -> forall y, z <= y -> CsepsL k G sk sx hv w y p q b l i s o) /\
  (forall w z p q b e i s o, CpollsL k G sk sx hv w z p q b e i s o -> forall y, z <= y -> CpollsL k G sk sx hv w y p q b e i s o) /\
  (forall w z e ps i s o, CfirstL k G sk sx hv w z e ps i s o -> forall y, z <= y -> CfirstL k G sk sx hv w y e ps i s o) /\
  (forall w z e ps i b en cur s o, ClongestL k G sk sx hv w z e ps i b en cur s o -> forall y, z <= y -> ClongestL k G sk sx hv w y e ps i b en cur s o).
Proof.
  apply ConL_mutind; intros.
  all: repeat match goal with X : Look ?k ?G ?sk ?sx ?w ?z ?p ?i ?o, L : ?z <= ?y |- _ =>
    pose proof (proj1 (look_more k G sk sx) _ _ _ _ _ X y L); clear X end.
  all: try solve [econstructor; eauto; lia].
  all: first [eapply ConL_pat; eauto; lia | eapply ConL_leaf; eauto; lia].
Qed.
