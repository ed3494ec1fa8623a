(** Who calls whom while a value is built: the calls [construct] makes, read off the code function by function, and the
    stacks they form.  A second account of the costs of C90: ConDeep.v and ConWork.v compute them along a run, here
    the stack is a chain of calls of which each makes the next.  Calls that match are those of Calls.v. *)

From Coq Require Import List Arith NArith Bool Lia.
From Verif Require Import Base Text Context Neu Syntax Ctor TextProofs Spec Core CtorSpec ConSpec Deep Work Calls WorkCalls ConDeep ConDeepLaws ConWork.
Import ListNotations.

Section ConCalls.
  Variable k : kind.
  Variable G : env.
  Variable sk : text -> nat -> nat.
  Context {ST : Type}.
  Variable hv : text -> nat -> nat -> ST -> res val * ST.
  Notation cx := (cx k).
  Notation Peg := (Peg k G sk).
  Notation Con := (Con k G sk hv).

  (** A call of [construct] (src/ctor.rs Ctor::construct) on [w] at [i] with the handler in state [s], and one of
      [try_parse]. *)
  Inductive bcall := BBuild (w : text) (p : pat) (i : nat) (s : ST) | BMatch (c : call).
  (** A part that is matched at [i], behind what is skipped. *)
  Definition BM w p i := BMatch (CPat w p (sk w i)).

  (** A loop at [i] in state [s] begins a turn at [x] in state [t] (src/ctor/repeat.rs, repeat2.rs, collect.rs). *)
  Inductive BTurn (w : text) (p : pat) : option nat -> nat -> ST -> nat -> ST -> Prop :=
  | bu_here lim i s : lim <> Some 0 -> BTurn w p lim i s i s
  | bu_next lim i s v j s1 x t : lim <> Some 0 -> Con w p i s (CV v j s1) -> BTurn w p (limit_pred lim) j s1 x t -> BTurn w p lim i s x t.
  (** A separated loop makes the call [c] (src/ctor/sep.rs). *)
  Inductive BSTurn (w : text) (p q : pat) : option nat -> nat -> ST -> bcall -> Prop :=
  | bv_body lim i s : lim <> Some 0 -> BSTurn w p q lim i s (BBuild w p i s)
  | bv_sep lim i s v j s1 : lim <> Some 0 -> Con w p i s (CV v j s1) -> BSTurn w p q lim i s (BM w q j)
  | bv_next lim i s v j s1 b j' c : lim <> Some 0 -> Con w p i s (CV v j s1) -> Peg w q (sk w j) (OK b j') ->
      BSTurn w p q (limit_pred lim) j' s1 c -> BSTurn w p q lim i s c.
  (** A separated collection makes the call [c]; [en]: the separator has been missed (src/ctor/sep.rs SepCollect, src/iter.rs). *)
  Inductive BPoll (w : text) (p q : pat) (skip : bool) : bool -> nat -> ST -> bcall -> Prop :=
  | bp_body en i s : BPoll w p q skip en i s (BBuild w p i s)
  | bp_sep en i s v j s1 : Con w p i s (CV v j s1) -> BPoll w p q skip en i s (BM w q j)
  | bp_last i s v j s1 e c : skip = true -> Con w p i s (CV v j s1) -> Peg w q (sk w j) (KO e) ->
      BPoll w p q skip true j s1 c -> BPoll w p q skip false i s c
  | bp_next i s v j s1 b j' c : Con w p i s (CV v j s1) -> Peg w q (sk w j) (OK b j') ->
      BPoll w p q skip false j' s1 c -> BPoll w p q skip false i s c.
  (** A choice at [i] in state [s] tries [q] in state [t] (src/ctor/vec.rs, array.rs, slice.rs). *)
  Inductive BTried (w : text) (i : nat) : list pat -> ST -> pat -> ST -> Prop :=
  | ba_here q ps s : BTried w i (q :: ps) s q s
  | ba_next p ps s e x s1 q t : Con w p i s (CE e x s1) -> BTried w i ps s1 q t -> BTried w i (p :: ps) s q t.
  (** A choice of the longest tries them all, unless one panics. *)
  Inductive BTriedAll (w : text) (i : nat) : list pat -> ST -> pat -> ST -> Prop :=
  | bl_here q ps s : BTriedAll w i (q :: ps) s q s
  | bl_ok p ps s v x s1 q t : Con w p i s (CV v x s1) -> BTriedAll w i ps s1 q t -> BTriedAll w i (p :: ps) s q t
  | bl_ko p ps s e x s1 q t : Con w p i s (CE e x s1) -> BTriedAll w i ps s1 q t -> BTriedAll w i (p :: ps) s q t.

  (** The calls a call makes. *)
  Inductive BCalls : bcall -> bcall -> Prop :=
  | b_match c c' : Calls k G sk c c' -> BCalls (BMatch c) (BMatch c')
  | b_leaf w p i s : leafy p -> BCalls (BBuild w p i s) (BM w p i)
  | b_pat w p i s : BCalls (BBuild w (PPat p) i s) (BM w p i)
  | b_then1 w p q i s : BCalls (BBuild w (PThen p q) i s) (BBuild w p i s)
  | b_then2 w p q i s a j s1 : Con w p i s (CV a j s1) -> BCalls (BBuild w (PThen p q) i s) (BBuild w q j s1)
  | b_ifthen1 w p t q i s : BCalls (BBuild w (PIfThen p t q) i s) (BBuild w p i s)
  | b_ifthen2 w p t q i s a j s1 : Con w p i s (CV a j s1) -> BCalls (BBuild w (PIfThen p t q) i s) (BM w t j)
  | b_ifthen3 w p t q i s a j s1 b j1 : Con w p i s (CV a j s1) -> Peg w t (sk w j) (OK b j1) ->
      BCalls (BBuild w (PIfThen p t q) i s) (BBuild w q j1 s1)
  | b_or1 w p q i s : BCalls (BBuild w (POr p q) i s) (BBuild w p i s)
  | b_or2 w p q i s e x s1 : Con w p i s (CE e x s1) -> BCalls (BBuild w (POr p q) i s) (BBuild w q i s1)
  | b_longest1 w p q i s : BCalls (BBuild w (PLongest p q) i s) (BBuild w p i s)
  | b_longest2 w p q i s v j s1 : Con w p i s (CV v j s1) -> BCalls (BBuild w (PLongest p q) i s) (BBuild w q i s1)
  | b_longest3 w p q i s e j s1 : Con w p i s (CE e j s1) -> BCalls (BBuild w (PLongest p q) i s) (BBuild w q i s1)
  | b_prefix1 w p pre i s : BCalls (BBuild w (PPrefix p pre) i s) (BM w pre i)
  | b_prefix2 w p pre i s b j : Peg w pre (sk w i) (OK b j) -> BCalls (BBuild w (PPrefix p pre) i s) (BBuild w p j s)
  | b_suffix1 w p suf i s : BCalls (BBuild w (PSuffix p suf) i s) (BBuild w p i s)
  | b_suffix2 w p suf i s v j s1 : Con w p i s (CV v j s1) -> BCalls (BBuild w (PSuffix p suf) i s) (BM w suf j)
  | b_enclose1 w p op cl i s : BCalls (BBuild w (PEnclose p op cl) i s) (BM w op i)
  | b_enclose2 w p op cl i s b j : Peg w op (sk w i) (OK b j) -> BCalls (BBuild w (PEnclose p op cl) i s) (BBuild w p j s)
  | b_enclose3 w p op cl i s b j v j1 s1 : Peg w op (sk w i) (OK b j) -> Con w p j s (CV v j1 s1) ->
      BCalls (BBuild w (PEnclose p op cl) i s) (BM w cl j1)
  | b_seponce1 w p q r i s : BCalls (BBuild w (PSepOnce p q r) i s) (BBuild w p i s)
  | b_seponce2 w p q r i s a j s1 : Con w p i s (CV a j s1) -> BCalls (BBuild w (PSepOnce p q r) i s) (BM w q j)
  | b_seponce3 w p q r i s a j s1 b j1 : Con w p i s (CV a j s1) -> Peg w q (sk w j) (OK b j1) ->
      BCalls (BBuild w (PSepOnce p q r) i s) (BBuild w r j1 s1)
  | b_sep w p q mn skip i s c : BSTurn w p q None i s c -> BCalls (BBuild w (PSep p q mn skip) i s) c
  | b_sep2 w p q m n skip i s c : BSTurn w p q (Some (S n)) i s c -> BCalls (BBuild w (PSep2 p q m n skip) i s) c
  | b_sepcollect w p q mn skip i s c : BPoll w p q skip false i s c -> BCalls (BBuild w (PSepCollect p q mn skip) i s) c
  | b_repeat w p r i s x t : BTurn w p (limit_of r) i s x t -> BCalls (BBuild w (PRepeat p r) i s) (BBuild w p x t)
  | b_repeat2 w p m n i s x t : BTurn w p (Some (S n)) i s x t -> BCalls (BBuild w (PRepeat2 p m n) i s) (BBuild w p x t)
  | b_collect w p mn i s x t : BTurn w p None i s x t -> BCalls (BBuild w (PCollect p mn) i s) (BBuild w p x t)
  | b_option w p i s : BCalls (BBuild w (POption p) i s) (BBuild w p i s)
  | b_branch w t p q i s b : t (cx w i) = Ok b -> BCalls (BBuild w (PBranch t p q) i s) (BBuild w (if b : bool then p else q) i s)
  | b_map w p f i s : BCalls (BBuild w (PMap p f) i s) (BBuild w p i s)
  | b_dyn1 w p f i s : BCalls (BBuild w (PDynThen p f) i s) (BBuild w p i s)
  | b_dyn2 w p f i s a j s1 q j' : Con w p i s (CV a j s1) -> f (cx w j) a = (Ok q, cx w j') -> j' <= length w ->
      BCalls (BBuild w (PDynThen p f) i s) (BBuild w q j' s1)
  | b_choice w e ps i s q t : BTried w i ps s q t -> BCalls (BBuild w (PChoice e false ps) i s) (BBuild w q i t)
  | b_choice_ltm w e ps i s q t : BTriedAll w i ps s q t -> BCalls (BBuild w (PChoice e true ps) i s) (BBuild w q i t)
  | b_pairchoice w e ps i s q t : BTried w i (map fst ps) s q t -> BCalls (BBuild w (PPairChoice e false ps) i s) (BBuild w q i t)
  | b_pairchoice_ltm w e ps i s q t : BTriedAll w i (map fst ps) s q t -> BCalls (BBuild w (PPairChoice e true ps) i s) (BBuild w q i t)
  | b_wrap w p i s : BCalls (BBuild w (PWrap p) i s) (BBuild w p i s)
  | b_ref w x p i s : env_get G x = Some p -> BCalls (BBuild w (PRef x) i s) (BBuild w p i s).

  (** [n] calls on the stack, the first of them [c]. *)
  Inductive BStack : bcall -> nat -> Prop :=
  | bs_one c : BStack c 1
  | bs_more c c' n : BCalls c c' -> BStack c' n -> BStack c (S n).
End ConCalls.
Arguments BBuild {ST}.
Arguments BMatch {ST}.

Ltac pegdet k G sk := match goal with
  | P : Peg k G sk ?w ?p ?i ?x, Q : Peg k G sk ?w ?p ?i ?y |- _ =>
      tryif constr_eq x y then fail else
        (let E := fresh in pose proof (proj1 (peg_fun k G sk) _ _ _ _ P _ Q) as E;
         first [discriminate E | injection E; clear E; intros; subst])
  end.
Ltac useih P IH := apply IH in P; first [discriminate P | injection P; intros; subst; clear P | subst].
Ltac con1 := match goal with
  | IH : forall o', Con _ _ _ _ ?w ?p ?i ?s o' -> o' = ?o, P : Con _ _ _ _ ?w ?p ?i ?s ?x |- _ => tryif constr_eq x o then fail else useih P IH
  | IH : forall o', Creps _ _ _ _ ?w ?p ?i ?s ?m o' -> o' = ?o, P : Creps _ _ _ _ ?w ?p ?i ?s ?m ?x |- _ => tryif constr_eq x o then fail else useih P IH
  | IH : forall o', Cseps _ _ _ _ ?w ?p ?q ?b ?i ?s ?m o' -> o' = ?o, P : Cseps _ _ _ _ ?w ?p ?q ?b ?i ?s ?m ?x |- _ => tryif constr_eq x o then fail else useih P IH
  | IH : forall o', Cpolls _ _ _ _ ?w ?p ?q ?b ?i ?s ?m o' -> o' = ?o, P : Cpolls _ _ _ _ ?w ?p ?q ?b ?i ?s ?m ?x |- _ => tryif constr_eq x o then fail else useih P IH
  | IH : forall o', Cfirst _ _ _ _ ?w ?p ?i ?s ?m o' -> o' = ?o, P : Cfirst _ _ _ _ ?w ?p ?i ?s ?m ?x |- _ => tryif constr_eq x o then fail else useih P IH
  | IH : forall o', Clongest _ _ _ _ ?w ?p ?q ?b ?i ?s ?m ?n o' -> o' = ?o, P : Clongest _ _ _ _ ?w ?p ?q ?b ?i ?s ?m ?n ?x |- _ => tryif constr_eq x o then fail else useih P IH
  end.
Ltac close k w := repeat match goal with
  | A : ?f ?x = _, B : ?f ?x = _ |- _ => rewrite A in B; first [discriminate B | injection B; clear B; intros; subst]
  | A : ?f ?x ?y = _, B : ?f ?x ?y = _ |- _ => rewrite A in B; first [discriminate B | injection B; clear B; intros; subst]
  | E : bo k w ?x = bo k w ?y |- _ => apply bo_inj in E; [subst|assumption|assumption]
  end.
(** Runs have one outcome. *)
Lemma con_fun k G sk {ST} (hv : text -> nat -> nat -> ST -> res val * ST) :
  (forall w p i s o, Con k G sk hv w p i s o -> forall o', Con k G sk hv w p i s o' -> o' = o) /\
  (forall w p l i s o, Creps k G sk hv w p l i s o -> forall o', Creps k G sk hv w p l i s o' -> o' = o) /\
  (forall w p q b l i s o, Cseps k G sk hv w p q b l i s o -> forall o', Cseps k G sk hv w p q b l i s o' -> o' = o) /\
  (forall w p q b e i s o, Cpolls k G sk hv w p q b e i s o -> forall o', Cpolls k G sk hv w p q b e i s o' -> o' = o) /\
  (forall w e ps i s o, Cfirst k G sk hv w e ps i s o -> forall o', Cfirst k G sk hv w e ps i s o' -> o' = o) /\
  (forall w e ps i b en cur s o, Clongest k G sk hv w e ps i b en cur s o -> forall o', Clongest k G sk hv w e ps i b en cur s o' -> o' = o).
Proof.
  apply Con_mutind; intros.
  all: match goal with |- ?x = _ => match goal with H : context [x] |- _ => inversion H; subst; clear H end end; try contradiction.
  all: repeat first [pegdet k G sk | con1 | progress close k w | match goal with H : stops (CV _ _ _) |- _ => destruct H end].
  all: try reflexivity; try congruence; try lia.
  all: try solve [cbn in *; contradiction].
Qed.

(** The height of ConDeep.v is the height of the highest stack; the steps of ConWork.v are no fewer. *)
Section Height.
  Variable k : kind.
  Variable G : env.
  Variable sk : text -> nat -> nat.
  Context {ST : Type}.
  Variable hv : text -> nat -> nat -> ST -> res val * ST.
  Notation BStack := (BStack k G sk hv).
  Notation BCalls := (BCalls k G sk hv).
  Notation bcall := (@bcall ST).
  Notation BM := (@BM sk ST).

  Definition bcounted (P : bcall -> Prop) (n : nat) : Prop := forall c m, P c -> BStack c m -> m <= n.
  Definition bhighest (P : bcall -> Prop) (n : nat) : Prop := (n = 0 \/ exists c, P c /\ BStack c n) /\ bcounted P n.

  Lemma bhighest_call c (P : bcall -> Prop) n : bhighest P n -> (forall c', BCalls c c' <-> P c') -> bhighest (eq c) (S n).
  Proof.
    intros [A B] H. split.
    - right. exists c. split; [reflexivity|]. destruct A as [->|(c' & A1 & A2)]; [constructor|].
      apply bs_more with c'; [now apply H|exact A2].
    - intros c' m <- St. inversion St; subst; [lia|]. apply le_n_S. eapply B; [apply H|]; eassumption.
  Qed.
  Lemma bcounted_call c (P : bcall -> Prop) n : bcounted P n -> (forall c', BCalls c c' -> P c') -> bcounted (eq c) (S n).
  Proof. intros B H c' m <- St. inversion St; subst; [lia|]. apply le_n_S. eapply B; [apply H|]; eassumption. Qed.
  Lemma bcounted_none : bcounted (fun _ => False) 0.
  Proof. now intros c m []. Qed.
  Lemma bhighest_none : bhighest (fun _ => False) 0.
  Proof. split; [now left|exact bcounted_none]. Qed.
  Lemma bcounted_or (P Q : bcall -> Prop) m n : bcounted P m -> bcounted Q n -> bcounted (fun c => P c \/ Q c) (m + n).
  Proof. intros B B' c x [H|H] St; [specialize (B c x H St)|specialize (B' c x H St)]; lia. Qed.
  Lemma bhighest_or (P Q : bcall -> Prop) m n : bhighest P m -> bhighest Q n -> bhighest (fun c => P c \/ Q c) (Nat.max m n).
  Proof.
    intros [A B] [A' B']. split.
    - destruct (Nat.max_spec m n) as [[L ->]|[L ->]].
      + destruct A' as [->|(c & ? & ?)]; [now left|]. right. exists c. tauto.
      + destruct A as [->|(c & ? & ?)]; [now left|]. right. exists c. tauto.
    - intros c x [H|H] St; [specialize (B c x H St)|specialize (B' c x H St)]; lia.
  Qed.
  Lemma bcounted_ext (P Q : bcall -> Prop) n : (forall c, Q c -> P c) -> bcounted P n -> bcounted Q n.
  Proof. intros E B c m H. apply B. now apply E. Qed.
  Lemma bhighest_ext (P Q : bcall -> Prop) n : (forall c, P c <-> Q c) -> bhighest P n -> bhighest Q n.
  Proof.
    intros E [A B]. split.
    - destruct A as [->|(c & H & St)]; [now left|]. right. exists c. rewrite <- E. auto.
    - eapply bcounted_ext; [|exact B]. intros c. apply E.
  Qed.

  (** A call that matches stacks what it stacks in Calls.v. *)
  Lemma bstack_match c n : BStack (BMatch c) n <-> Stack k G sk c n.
  Proof.
    split; [|induction 1; [constructor|econstructor; [constructor; eassumption|assumption]]].
    intros H. remember (BMatch c) as b eqn:E. revert c E. induction H as [c0|c0 c1 n C S IH]; intros c E; [subst; constructor|subst].
    inversion C; subst. econstructor; [eassumption|now apply IH].
  Qed.
  Lemma bhighest_match w p i o n : Deep k G sk w p (sk w i) o n -> bhighest (eq (BM w p i)) n.
  Proof.
    intros D. apply (proj1 (deep_highest k G sk)) in D as [A B]. split.
    - destruct A as [->|(c & <- & A)]; [now left|right]. eexists. split; [reflexivity|]. now apply bstack_match.
    - intros c m <- St. apply bstack_match in St. eauto.
  Qed.
  Lemma bcounted_match w p i o n : Work k G sk w p (sk w i) o n -> bcounted (eq (BM w p i)) n.
  Proof.
    intros D. pose proof (proj1 (work_counted k G sk) _ _ _ _ _ D) as B. intros c m <- St. apply bstack_match in St. exact (B _ m eq_refl St).
  Qed.

  Ltac cons := repeat match goal with
    | P : Con k G sk hv ?w ?p ?i ?s ?x, Q : Con k G sk hv ?w ?p ?i ?s ?y |- _ =>
        tryif constr_eq x y then fail else
          (let E := fresh in pose proof (proj1 (con_fun k G sk hv) _ _ _ _ _ P _ Q) as E;
           first [discriminate E | injection E; clear E; intros; subst | subst])
    | _ => pegdet k G sk
    | H : stops (CV _ _ _) |- _ => destruct H
    end.
  Ltac facts := repeat match goal with
    | H : Deep _ _ _ _ _ _ _ _ |- _ => pose proof (bhighest_match _ _ _ _ _ H); apply (proj1 (deep_peg k G sk)) in H
    | H : ConD _ _ _ _ _ _ _ _ _ _ |- _ => apply (proj1 (condeep_con k G sk hv)) in H
    end.

  Ltac bgo := first [intros (? & ? & X & ->) | intros X]; inversion X; subst; cons; try congruence; eauto 8.

  Lemma condeep_highest :
    (forall w p i s o n, ConD k G sk hv w p i s o n -> bhighest (eq (BBuild w p i s)) n) /\
    (forall w p l i s o n, CrepsD k G sk hv w p l i s o n ->
       bhighest (fun c => exists x t, BTurn k G sk hv w p l i s x t /\ c = BBuild w p x t) n) /\
    (forall w p q b l i s o n, CsepsD k G sk hv w p q b l i s o n -> bhighest (BSTurn k G sk hv w p q l i s) n) /\
    (forall w p q b e i s o n, CpollsD k G sk hv w p q b e i s o n -> bhighest (BPoll k G sk hv w p q b e i s) n) /\
    (forall w e ps i s o n, CfirstD k G sk hv w e ps i s o n ->
       bhighest (fun c => exists q t, BTried k G sk hv w i (map fst ps) s q t /\ c = BBuild w q i t) n) /\
    (forall w e ps i b en cur s o n, ClongestD k G sk hv w e ps i b en cur s o n ->
       bhighest (fun c => exists q t, BTriedAll k G sk hv w i (map fst ps) s q t /\ c = BBuild w q i t) n).
  Proof.
    apply ConD_mutind; intros; facts; rewrite ?plain_fst, ?keyed_fst in *; cbn [map fst] in *.
    all: try solve [eapply bhighest_call; [exact bhighest_none|]; intros d; split; [|easy]; intros C; inversion C; subst; cbn [leafy] in *; try congruence; tauto].
    all: try solve [eapply bhighest_call; [eassumption|]; intros d; split;
      [intros C; inversion C; subst; cbn [leafy] in *; cons; close k w; eauto; try congruence; tauto|];
      first [intros <- | intros (? & ? & ? & ->) | intros ?]; solve [econstructor; eauto]].
    all: try solve [eapply bhighest_call; [eapply bhighest_or; eassumption|]; intros d; split;
      [intros C; inversion C; subst; cbn [leafy] in *; cons; close k w; eauto; tauto|]; intros [<-|<-]; solve [econstructor; eauto]].
    all: try solve [eapply bhighest_call; [eapply bhighest_or; [eassumption|eapply bhighest_or; eassumption]|]; intros d; split;
      [intros C; inversion C; subst; cbn [leafy] in *; cons; eauto; tauto|]; intros [<-|[<-|<-]]; solve [econstructor; eauto]].
    all: try solve [apply bhighest_ext with (fun _ => False); [|exact bhighest_none]; intros d; split; [easy|];
      first [intros (q' & y & H' & _) | intros H']; inversion H'; congruence].
    all: try solve [eapply bhighest_ext; [|eassumption]; intros d; split;
      [intros <-; first [constructor; auto; fail | do 2 eexists; split; [constructor; auto|reflexivity]]
      |first [intros (? & ? & X & ->) | intros X]; inversion X; subst; cons; first [reflexivity | congruence]]].
    all: try solve [eapply bhighest_ext; [|eapply bhighest_or; eassumption]; intros d; split; [|bgo];
      intros [<-|X]; [first [constructor; auto; fail | do 2 eexists; split; [constructor; auto|reflexivity]]|];
      try subst d;
      first [destruct X as (? & ? & ? & ->); do 2 eexists; split; [econstructor; eauto; fail|reflexivity] | econstructor; eauto; fail]].
    all: try solve [eapply bhighest_ext; [|eapply bhighest_or; [eassumption|eapply bhighest_or; eassumption]]; intros d; split; [|bgo];
      intros [<-|[<-|X]]; [constructor; auto; fail|econstructor; eauto; fail|]; first [eapply bv_next; eauto; fail | eapply bp_last; eauto; fail | eapply bp_next; eauto; fail]].
  Qed.

  Ltac wfacts := repeat match goal with
    | H : Work _ _ _ _ _ _ _ _ |- _ => pose proof (bcounted_match _ _ _ _ _ H); apply (proj1 (work_peg k G sk)) in H
    | H : ConW _ _ _ _ _ _ _ _ _ _ |- _ => apply (proj1 (conwork_con k G sk hv)) in H
    end.
  Ltac cgo := first [intros (? & ? & X & ->) | intros X]; inversion X; subst; cons; try congruence; eauto 8.
  Lemma conwork_counted :
    (forall w p i s o n, ConW k G sk hv w p i s o n -> bcounted (eq (BBuild w p i s)) n) /\
    (forall w p l i s o n, CrepsW k G sk hv w p l i s o n ->
       bcounted (fun c => exists x t, BTurn k G sk hv w p l i s x t /\ c = BBuild w p x t) n) /\
    (forall w p q b l i s o n, CsepsW k G sk hv w p q b l i s o n -> bcounted (BSTurn k G sk hv w p q l i s) n) /\
    (forall w p q b e i s o n, CpollsW k G sk hv w p q b e i s o n -> bcounted (BPoll k G sk hv w p q b e i s) n) /\
    (forall w e ps i s o n, CfirstW k G sk hv w e ps i s o n ->
       bcounted (fun c => exists q t, BTried k G sk hv w i (map fst ps) s q t /\ c = BBuild w q i t) n) /\
    (forall w e ps i b en cur s o n, ClongestW k G sk hv w e ps i b en cur s o n ->
       bcounted (fun c => exists q t, BTriedAll k G sk hv w i (map fst ps) s q t /\ c = BBuild w q i t) n).
  Proof.
    apply ConW_mutind; intros; wfacts; rewrite ?plain_fst, ?keyed_fst in *; cbn [map fst] in *.
    all: try solve [eapply bcounted_call; [exact bcounted_none|]; intros d C; inversion C; subst; cbn [leafy] in *; try congruence; tauto].
    all: try solve [eapply bcounted_call; [eassumption|]; intros d C; inversion C; subst; cbn [leafy] in *; cons; close k w; eauto; try congruence; tauto].
    all: try solve [eapply bcounted_call; [eapply bcounted_or; eassumption|]; intros d C; inversion C; subst; cbn [leafy] in *; cons; close k w; eauto; tauto].
    all: try solve [eapply bcounted_call; [eapply bcounted_or; [eapply bcounted_or|]; eassumption|]; intros d C; inversion C; subst; cbn [leafy] in *; cons; eauto; tauto].
    all: try solve [apply bcounted_ext with (fun _ => False); [|exact bcounted_none]; intros d;
      first [intros (q' & y & H' & _) | intros H']; inversion H'; congruence].
    all: try solve [eapply bcounted_ext; [|eassumption]; intros d;
      first [intros (? & ? & X & ->) | intros X]; inversion X; subst; cons; first [reflexivity | congruence]].
    all: try solve [eapply bcounted_ext; [|eapply bcounted_or; eassumption]; intros d; cgo].
    all: try solve [eapply bcounted_ext; [|eapply bcounted_or; [eapply bcounted_or|]; eassumption]; intros d; cgo].
  Qed.
End Height.
