(** Who calls whom: the calls a match makes, read off the code function by function, and the stacks they form.  A second
    account of the height of the stack, for C88: file Deep.v computes it along a run, here it is the number of calls in
    a chain of which each makes the next. *)

From Coq Require Import List Arith NArith Bool Lia.
From Verif Require Import Base Text Context Neu Syntax TextProofs Spec Deep.
Import ListNotations.

Section Calls.
  Variable k : kind.
  Variable G : env.
  Variable sk : text -> nat -> nat.
  Notation cx := (cx k).
  Notation sp := (sp k).
  Notation too_short := (too_short k).
  Notation Peg := (Peg k G sk).
  Notation Acc := (Acc k G sk).

  (** A call of a parser ([try_parse], src/regex.rs:60-67) on [w] at [i]; the test of item [m] from [i] on with its
      condition (src/neu.rs [Neu::is_match], [NeuCond::check]). *)
  Inductive call := CPat (w : text) (p : pat) (i : nat) | CTest (w : text) (i : nat) (u : neu) (c : cond) (m : nat).

  (** A run of items from item [m] on tests item [x]. *)
  Inductive Tested (w : text) (i : nat) (u : neu) (c : cond) : option nat -> nat -> nat -> Prop :=
  | T_here lim m : lim <> Some 0 -> Tested w i u c lim m m
  | T_next lim m x : lim <> Some 0 -> Acc w i u c m (inl true) -> Tested w i u c (limit_pred lim) (S m) x ->
      Tested w i u c lim m x.
  (** A loop at [i] begins a turn at [x]. *)
  Inductive Turn (w : text) (p : pat) : option nat -> nat -> nat -> Prop :=
  | U_here lim i : lim <> Some 0 -> Turn w p lim i i
  | U_next lim i b j x : lim <> Some 0 -> Peg w p (sk w i) (OK b j) -> Turn w p (limit_pred lim) j x -> Turn w p lim i x.
  (** A separated loop at [i] calls [q], its body or its separator, at [x]. *)
  Inductive STurn (w : text) (p s : pat) : option nat -> nat -> pat -> nat -> Prop :=
  | V_body lim i : lim <> Some 0 -> STurn w p s lim i p i
  | V_sep lim i b j : lim <> Some 0 -> Peg w p (sk w i) (OK b j) -> STurn w p s lim i s j
  | V_next lim i b j b' j' q x : lim <> Some 0 -> Peg w p (sk w i) (OK b j) -> Peg w s (sk w j) (OK b' j') ->
      STurn w p s (limit_pred lim) j' q x -> STurn w p s lim i q x.
  (** A choice at [i] tries [q]. *)
  Inductive Tried (w : text) (i : nat) (q : pat) : list pat -> Prop :=
  | A_here ps : Tried w i q (q :: ps)
  | A_next p ps e : Peg w p i (KO e) -> Tried w i q ps -> Tried w i q (p :: ps).

  (** The calls a call makes. *)
  Inductive Calls : call -> call -> Prop :=
  | c_assert w p v i : Calls (CPat w (PAssert p v) i) (CPat w p i)
  | c_leaf w p i : Calls (CPat w (PLeaf p) i) (CPat w p i)
  | c_pat w p i : Calls (CPat w (PPat p) i) (CPat w p i)
  | c_map w p f i : Calls (CPat w (PMap p f) i) (CPat w p i)
  | c_wrap w p i : Calls (CPat w (PWrap p) i) (CPat w p i)
  | c_option w p i : Calls (CPat w (POption p) i) (CPat w p i)
  | c_ref w x p i : env_get G x = Some p -> Calls (CPat w (PRef x) i) (CPat w p i)
  | c_builder1 w p f i : Calls (CPat w (PBuilder p f) i) (CPat w p i)
  | c_builder2 w p f i b j q m : Peg w p i (OK b j) -> f (cx w j) (sp w b j) = (Ok q, cx w m) -> b <= m -> m <= length w ->
      Calls (CPat w (PBuilder p f) i) (CPat w q (sk w m))
  | c_once w u c i : Calls (CPat w (POnce u c) i) (CTest w i u c 0)
  | c_opt w u c i : Calls (CPat w (POpt u c) i) (CTest w i u c 0)
  | c_many0 w u c i m : Tested w i u c None 0 m -> Calls (CPat w (PMany0 u c) i) (CTest w i u c m)
  | c_many1 w u c i m : Tested w i u c None 0 m -> Calls (CPat w (PMany1 u c) i) (CTest w i u c m)
  | c_between w a n u c i m : ~ too_short w i (a * min_length k u) -> Tested w i u c n 0 m ->
      Calls (CPat w (PBetween a n u c) i) (CTest w i u c m)
  | c_times w r u c i m :
      ~ too_short w i (match r_lo r with Incl a => a | Excl a => a - 1 | Unb => 0 end * min_length k u) ->
      Tested w i u c (limit_of r) 0 m -> Calls (CPat w (PTimes r u c) i) (CTest w i u c m)
  | c_neuthen1 w u v c i : ~ too_short w i (min_length k u + min_length k v) -> i + 2 <= length w ->
      Calls (CPat w (PNeuThen u v c) i) (CTest w i u c 0)
  | c_neuthen2 w u v c i : ~ too_short w i (min_length k u + min_length k v) -> i + 2 <= length w ->
      Acc w i u c 0 (inl true) -> Calls (CPat w (PNeuThen u v c) i) (CTest w i v c 1)
  | c_then1 w p q i : Calls (CPat w (PThen p q) i) (CPat w p i)
  | c_then2 w p q i b j : Peg w p i (OK b j) -> Calls (CPat w (PThen p q) i) (CPat w q (sk w j))
  | c_ifthen1 w p t q i : Calls (CPat w (PIfThen p t q) i) (CPat w p i)
  | c_ifthen2 w p t q i b j : Peg w p i (OK b j) -> Calls (CPat w (PIfThen p t q) i) (CPat w t (sk w j))
  | c_ifthen3 w p t q i b j b1 j1 : Peg w p i (OK b j) -> Peg w t (sk w j) (OK b1 j1) ->
      Calls (CPat w (PIfThen p t q) i) (CPat w q (sk w j1))
  | c_prefix1 w p a i : Calls (CPat w (PPrefix p a) i) (CPat w a i)
  | c_prefix2 w p a i b j : Peg w a i (OK b j) -> Calls (CPat w (PPrefix p a) i) (CPat w p (sk w j))
  | c_suffix1 w p a i : Calls (CPat w (PSuffix p a) i) (CPat w p i)
  | c_suffix2 w p a i b j : Peg w p i (OK b j) -> Calls (CPat w (PSuffix p a) i) (CPat w a (sk w j))
  | c_enclose1 w p op cl i : Calls (CPat w (PEnclose p op cl) i) (CPat w op i)
  | c_enclose2 w p op cl i b j : Peg w op i (OK b j) -> Calls (CPat w (PEnclose p op cl) i) (CPat w p (sk w j))
  | c_enclose3 w p op cl i b j b1 j1 : Peg w op i (OK b j) -> Peg w p (sk w j) (OK b1 j1) ->
      Calls (CPat w (PEnclose p op cl) i) (CPat w cl (sk w j1))
  | c_seponce1 w p s q i : Calls (CPat w (PSepOnce p s q) i) (CPat w p i)
  | c_seponce2 w p s q i b j : Peg w p i (OK b j) -> Calls (CPat w (PSepOnce p s q) i) (CPat w s (sk w j))
  | c_seponce3 w p s q i b j b1 j1 : Peg w p i (OK b j) -> Peg w s (sk w j) (OK b1 j1) ->
      Calls (CPat w (PSepOnce p s q) i) (CPat w q (sk w j1))
  | c_or1 w p q i : Calls (CPat w (POr p q) i) (CPat w p i)
  | c_or2 w p q i e : Peg w p i (KO e) -> Calls (CPat w (POr p q) i) (CPat w q i)
  | c_longest1 w p q i : Calls (CPat w (PLongest p q) i) (CPat w p i)
  | c_longest2 w p q i : Calls (CPat w (PLongest p q) i) (CPat w q i)
  | c_choice w e ps i q : Tried w i q ps -> Calls (CPat w (PChoice e false ps) i) (CPat w q i)
  | c_pairchoice w e ps i q : Tried w i q (map fst ps) -> Calls (CPat w (PPairChoice e false ps) i) (CPat w q i)
  | c_branch_t w t p q i : t (cx w i) = Ok true -> Calls (CPat w (PBranch t p q) i) (CPat w p i)
  | c_branch_f w t p q i : t (cx w i) = Ok false -> Calls (CPat w (PBranch t p q) i) (CPat w q i)
  | c_sep w p s mn i q x : STurn w p s None i q x -> Calls (CPat w (PSep p s mn true) i) (CPat w q (sk w x))
  | c_sepcollect w p s mn i q x : STurn w p s None i q x -> Calls (CPat w (PSepCollect p s mn true) i) (CPat w q (sk w x))
  | c_sep2 w p s m l i q x : STurn w p s (Some (S l)) i q x -> Calls (CPat w (PSep2 p s m l true) i) (CPat w q (sk w x))
  | c_repeat w p r i x : Turn w p (limit_of r) i x -> Calls (CPat w (PRepeat p r) i) (CPat w p (sk w x))
  | c_repeat2 w p m l i x : Turn w p (Some (S l)) i x -> Calls (CPat w (PRepeat2 p m l) i) (CPat w p (sk w x))
  | c_collect w p mn i x : Turn w p None i x -> Calls (CPat w (PCollect p mn) i) (CPat w p (sk w x))
  | c_cond w i u p m x : nth_error w (i + m) = Some x -> is_match u x = true ->
      Calls (CTest w i u (CRegex p) m) (CPat (skipn (i + m) w) p (sk (skipn (i + m) w) 0)).

  (** [n] calls on the stack, the first of them [c]. *)
  Inductive Stack : call -> nat -> Prop :=
  | s_one c : Stack c 1
  | s_more c c' n : Calls c c' -> Stack c' n -> Stack c (S n).
End Calls.

(** Runs have one outcome: the rules of Spec.v are deterministic. *)
Lemma peg_fun k G sk :
  (forall w p i o, Peg k G sk w p i o -> forall o', Peg k G sk w p i o' -> o' = o) /\
  (forall w i u c m r, Acc k G sk w i u c m r -> forall r', Acc k G sk w i u c m r' -> r' = r) /\
  (forall w i c m x r, Chk k G sk w i c m x r -> forall r', Chk k G sk w i c m x r' -> r' = r) /\
  (forall w i u c l m r, Run k G sk w i u c l m r -> forall r', Run k G sk w i u c l m r' -> r' = r) /\
  (forall w p l i a j, Reps k G sk w p l i a j -> forall a' j', Reps k G sk w p l i a' j' -> a' = a /\ j' = j) /\
  (forall w p s l i a j, Seps k G sk w p s l i a j -> forall a' j', Seps k G sk w p s l i a' j' -> a' = a /\ j' = j) /\
  (forall w ps i e o, First k G sk w ps i e o -> forall o', First k G sk w ps i e o' -> o' = o).
Proof.
  apply Peg_mutind; intros.
  all: match goal with |- ?x = _ => match goal with H : context [x] |- _ => inversion H; subst; clear H end
       | |- ?x = _ /\ _ => match goal with H : context [x] |- _ => inversion H; subst; clear H end end.
  all: repeat match goal with
    | IH : forall o', Peg _ _ _ ?w ?p ?i o' -> o' = ?o, P : Peg _ _ _ ?w ?p ?i ?x |- _ =>
        tryif constr_eq x o then fail else (apply IH in P; first [discriminate P | injection P; intros; subst; clear P | subst])
    | IH : forall o', Acc _ _ _ ?w ?p ?i ?m ?y o' -> o' = ?o, P : Acc _ _ _ ?w ?p ?i ?m ?y ?x |- _ =>
        tryif constr_eq x o then fail else (apply IH in P; first [discriminate P | injection P; intros; subst; clear P | subst])
    | IH : forall o', Chk _ _ _ ?w ?p ?i ?m ?y o' -> o' = ?o, P : Chk _ _ _ ?w ?p ?i ?m ?y ?x |- _ =>
        tryif constr_eq x o then fail else (apply IH in P; first [discriminate P | injection P; intros; subst; clear P | subst])
    | IH : forall o', Run _ _ _ ?w ?p ?i ?m ?y ?z o' -> o' = ?o, P : Run _ _ _ ?w ?p ?i ?m ?y ?z ?x |- _ =>
        tryif constr_eq x o then fail else (apply IH in P; first [discriminate P | injection P; intros; subst; clear P | subst])
    | IH : forall o', First _ _ _ ?w ?p ?i ?m o' -> o' = ?o, P : First _ _ _ ?w ?p ?i ?m ?x |- _ =>
        tryif constr_eq x o then fail else (apply IH in P; first [discriminate P | injection P; intros; subst; clear P | subst])
    | IH : forall a' j', Reps _ _ _ ?w ?p ?i ?m a' j' -> _, P : Reps _ _ _ ?w ?p ?i ?m ?x ?y, Q : Reps _ _ _ ?w ?p ?i ?m ?x' ?y' |- _ =>
        tryif (constr_eq x x'; constr_eq y y') then fail else (destruct (IH _ _ P); destruct (IH _ _ Q); subst)
    | IH : forall a' j', Seps _ _ _ ?w ?p ?s ?i ?m a' j' -> _, P : Seps _ _ _ ?w ?p ?s ?i ?m ?x ?y, Q : Seps _ _ _ ?w ?p ?s ?i ?m ?x' ?y' |- _ =>
        tryif (constr_eq x x'; constr_eq y y') then fail else (destruct (IH _ _ P); destruct (IH _ _ Q); subst)
    end.
  all: try congruence; try lia.
  all: try solve [exfalso; match goal with H : _ \/ _ |- _ => destruct H; [tauto|lia] end].
  all: try solve [exfalso; match goal with H : tlen ?k ?w < bo ?k ?w ?i + ?n, E : bo ?k ?w ?j = _ |- _ => pose proof (bo_le_len k w j); lia end].
  all: try match goal with H : nth_error ?w ?m = Some ?x, H' : nth_error ?w ?m = Some ?y |- _ =>
    rewrite H in H'; injection H' as <- end.
  all: try match goal with H : env_get ?G ?m = Some ?x, H' : env_get ?G ?m = Some ?y |- _ =>
    rewrite H in H'; injection H' as <- end.
  all: try solve [auto]; try congruence.
  all: try solve [exfalso; match goal with H : length ?w <= ?m, E : nth_error ?w ?m = Some _ |- _ =>
    apply nth_error_None in H; congruence end].
  - f_equal. apply (bo_inj k w); congruence.
  - match goal with H : f _ = _, H' : f _ = _ |- _ => rewrite H in H'; injection H'; intros end.
    f_equal; symmetry; apply (bo_inj k w); auto; lia.
  - match goal with H : f _ _ = _, H' : f _ _ = _ |- _ => rewrite H in H'; injection H'; intros end; subst.
    match goal with E : bo k w ?x = bo k w ?y |- _ => apply bo_inj in E; [subst|assumption|assumption] end. auto.
Qed.

(** The height of Deep.v is the height of the highest stack. *)
Section Height.
  Variable k : kind.
  Variable G : env.
  Variable sk : text -> nat -> nat.
  Notation Stack := (Stack k G sk).
  Notation Calls := (Calls k G sk).

  (** [n] is reached by one of the calls, and exceeded by none. *)
  Definition highest (P : call -> Prop) (n : nat) : Prop :=
    (n = 0 \/ exists c, P c /\ Stack c n) /\ forall c m, P c -> Stack c m -> m <= n.

  Lemma highest_one c n : highest (eq c) (S n) <-> Stack c (S n) /\ forall m, Stack c m -> m <= S n.
  Proof.
    unfold highest. split.
    - intros [[A|(c' & <- & A)] B]; [discriminate|]. split; [exact A|]. intros m H. exact (B c m eq_refl H).
    - intros [A B]. split; [eauto|]. intros c' m <-. apply B.
  Qed.

  (** A call whose calls reach [n] at most reaches one more. *)
  Lemma highest_call c (P : call -> Prop) n : highest P n -> (forall c', Calls c c' <-> P c') -> highest (eq c) (S n).
  Proof.
    intros [A B] H. split.
    - right. exists c. split; [reflexivity|]. destruct A as [->|(c' & A1 & A2)]; [constructor|].
      apply s_more with c'; [now apply H|exact A2].
    - intros c' m <- St. inversion St; subst; [lia|]. apply le_n_S. eapply B; [apply H|]; eassumption.
  Qed.

  Lemma highest_none : highest (fun _ => False) 0.
  Proof. split; [now left|]. now intros c m []. Qed.

  Lemma highest_or (P Q : call -> Prop) m n : highest P m -> highest Q n -> highest (fun c => P c \/ Q c) (Nat.max m n).
  Proof.
    intros [A B] [A' B']. split.
    - destruct (Nat.max_spec m n) as [[L ->]|[L ->]].
      + destruct A' as [->|(c & ? & ?)]; [now left|]. right. exists c. tauto.
      + destruct A as [->|(c & ? & ?)]; [now left|]. right. exists c. tauto.
    - intros c x [H|H] St; [specialize (B c x H St)|specialize (B' c x H St)]; lia.
  Qed.

  Lemma highest_ext (P Q : call -> Prop) n : (forall c, P c <-> Q c) -> highest P n -> highest Q n.
  Proof.
    intros E [A B]. split.
    - destruct A as [->|(c & H & St)]; [now left|]. right. exists c. rewrite <- E. auto.
    - intros c m H. apply B. now apply E.
  Qed.

  Ltac facts := repeat match goal with
    | H : Deep _ _ _ _ _ _ _ _ |- _ => apply (proj1 (deep_peg k G sk)) in H
    | H : AccD _ _ _ _ _ _ _ _ _ _ |- _ => apply (proj1 (proj2 (deep_peg k G sk))) in H
    end.
  Ltac det := repeat match goal with
    | P : Peg k G sk ?w ?p ?i ?x, Q : Peg k G sk ?w ?p ?i ?y |- _ =>
        tryif constr_eq x y then fail else
          (let E := fresh in pose proof (proj1 (peg_fun k G sk) _ _ _ _ P _ Q) as E;
           first [discriminate E | injection E; clear E; intros; subst])
    | P : Acc k G sk ?w ?p ?i ?m ?n ?x, Q : Acc k G sk ?w ?p ?i ?m ?n ?y |- _ =>
        tryif constr_eq x y then fail else
          (let E := fresh in pose proof (proj1 (proj2 (peg_fun k G sk)) _ _ _ _ _ _ P _ Q) as E; discriminate E)
    end.

  Lemma deep_highest :
    (forall w p i o n, Deep k G sk w p i o n -> highest (eq (CPat w p i)) n) /\
    (forall w i u c m r n, AccD k G sk w i u c m r n -> highest (eq (CTest w i u c m)) n) /\
    (forall w i c m x r n, ChkD k G sk w i c m x r n ->
       highest (fun d => exists p, c = CRegex p /\ d = CPat (skipn (i + m) w) p (sk (skipn (i + m) w) 0)) n) /\
    (forall w i u c l m r n, RunD k G sk w i u c l m r n ->
       highest (fun d => exists y, Tested k G sk w i u c l m y /\ d = CTest w i u c y) n) /\
    (forall w p l i a j n, RepsD k G sk w p l i a j n ->
       highest (fun d => exists y, Turn k G sk w p l i y /\ d = CPat w p (sk w y)) n) /\
    (forall w p s l i a j n, SepsD k G sk w p s l i a j n ->
       highest (fun d => exists q y, STurn k G sk w p s l i q y /\ d = CPat w q (sk w y)) n) /\
    (forall w ps i e o n, FirstD k G sk w ps i e o n ->
       highest (fun d => exists q, Tried k G sk w i q ps /\ d = CPat w q i) n).
  Proof.
    apply Deep_mutind; intros; facts.
    all: try solve [eapply highest_call; [exact highest_none|]; intros d; split; [|easy]; intros C; inversion C; subst; try congruence; tauto].
    all: try solve [eapply highest_call; [eassumption|]; intros d; split;
      [intros C; inversion C; subst; det; eauto; try congruence; tauto|];
      first [intros <- | intros (? & ? & ->) | intros (? & ? & ? & ->)]; econstructor; eauto].
    all: try solve [eapply highest_call; [eapply highest_or; eassumption|]; intros d; split;
      [intros C; inversion C; subst; det; eauto; tauto|]; intros [<-|<-]; solve [econstructor; eauto]].
    all: try solve [eapply highest_call; [eapply highest_or; [eassumption|eapply highest_or; eassumption]|]; intros d; split;
      [intros C; inversion C; subst; det; eauto; tauto|]; intros [<-|[<-|<-]]; solve [econstructor; eauto]].
    all: try solve [apply highest_ext with (fun _ => False); [|exact highest_none]; intros d; split; [easy|];
      try (intros (q & y & H' & _); inversion H'; congruence); intros (y & H' & _); inversion H'; congruence].
    all: try solve [eapply highest_ext; [|eassumption]; intros d; split;
      [intros <-; repeat eexists; constructor; assumption
      |first [intros (? & ? & X & ->) | intros (? & X & ->)]; inversion X; subst; det; first [reflexivity | congruence]]].
    - eapply highest_call; [eapply highest_or; eassumption|]. intros d. split; [|intros [<-|<-]; econstructor; eauto].
      intros C. inversion C; subst; det; [now left|right].
      match goal with A : f _ _ = _, B : f _ _ = _ |- _ => rewrite A in B; injection B; intros; subst end.
      match goal with E : bo k w ?x = bo k w ?y |- _ => apply bo_inj in E; [subst; reflexivity|assumption|assumption] end.
    - eapply highest_call; [exact highest_none|]. intros d. split; [|easy].
      intros C. inversion C; subst; match goal with O : _ \/ _ |- _ => destruct O; [tauto|lia] end.
    - eapply highest_call; [exact highest_none|]. intros d. split; [|easy]. intros C. inversion C; subst.
      match goal with L : length ?w <= ?x, E : nth_error ?w ?x = Some _ |- _ => apply nth_error_None in L; congruence end.
    - eapply highest_call; [eassumption|]. intros d. split.
      + intros C. inversion C; subst. eauto.
      + intros (p & -> & ->). econstructor; eauto.
    - eapply highest_ext; [|eapply highest_or; eassumption]. intros d. split.
      + intros [<-|(y & T & ->)]; [eexists; split; [apply T_here; auto|reflexivity]|].
        exists y. split; [eapply T_next; eauto|reflexivity].
      + intros (y & T & ->). inversion T; subst; [now left|eauto].
    - eapply highest_ext; [|eapply highest_or; eassumption]. intros d. split.
      + intros [<-|(y & T & ->)]; [eexists; split; [apply T_here; auto|reflexivity]|].
        exists y. split; [eapply T_next; eauto|reflexivity].
      + intros (y & T & ->). inversion T; subst; [now left|eauto].
    - eapply highest_ext; [|eapply highest_or; eassumption]. intros d. split.
      + intros [<-|(y & T & ->)]; [eexists; split; [apply U_here; auto|reflexivity]|].
        exists y. split; [eapply U_next; eauto|reflexivity].
      + intros (y & T & ->). inversion T; subst; det; [now left|eauto].
    - eapply highest_ext; [|eapply highest_or; eassumption]. intros d. split.
      + intros [<-|<-]; do 2 eexists; split; try reflexivity; [apply V_body; auto|eapply V_sep; eauto].
      + intros (q & y & T & ->). inversion T; subst; det; auto.
    - eapply highest_ext; [|eapply highest_or; [eassumption|eapply highest_or; eassumption]]. intros d. split.
      + intros [<-|[<-|(q & y & T & ->)]]; do 2 eexists; split; try reflexivity;
          [apply V_body; auto|eapply V_sep; eauto|eapply V_next; eauto].
      + intros (q & y & T & ->). inversion T; subst; det; eauto 8.
    - eapply highest_ext; [|eapply highest_or; eassumption]. intros d. split.
      + intros [<-|(q & T & ->)]; [eexists; split; [apply A_here|reflexivity]|].
        exists q. split; [eapply A_next; eauto|reflexivity].
      + intros (q & T & ->). inversion T; subst; det; [now left|eauto].
  Qed.
End Height.
