(** The formal language of a parser: what text it may consume, read off the combinators as
    concatenation, union and iteration.  No positions, no choice order, no greediness. *)

From Coq Require Import List Arith NArith Bool Lia.
From Verif Require Import Base Text Context Neu Syntax Regex Ctor Api TextProofs Spec Core Sound Obs Laws
  Consumes CtorShape CtorSpec CtorLaws.
Import ListNotations.

(** [n] words of [L] one after the other. *)
Inductive Iter (L : text -> Prop) : nat -> text -> Prop :=
| iter_nil : Iter L 0 []
| iter_cons n s t : L s -> Iter L n t -> Iter L (S n) (s ++ t).

(** [n] words of [L], a word of [D] between neighbours and perhaps one at the end. *)
Inductive SepIter (L D : text -> Prop) : nat -> text -> Prop :=
| si_nil : SepIter L D 0 []
| si_one s : L s -> SepIter L D 1 s
| si_cons n s d t : L s -> D d -> SepIter L D n t -> SepIter L D (S n) (s ++ d ++ t).

(** All items satisfy the unit. *)
Definition all_of (u : neu) (s : text) : Prop := forall x, In x s -> is_match u x = true.

(** The language of a parser.  A recursive handle stands for the language of its definition, so with
    an environment this is a context-free grammar; assertions and anchors consume nothing. *)
Inductive Lang (G : env) : pat -> text -> Prop :=
| L_empty : Lang G PEmpty []
| L_start : Lang G PStart []
| L_end : Lang G PEnd []
| L_consume n s : length s = n -> Lang G (PConsume n) s
| L_consume_all s : Lang G PConsumeAll s
| L_lit l : Lang G (PLit l) l
| L_assert p v : Lang G (PAssert p v) []
| L_leaf p s : Lang G p s -> Lang G (PLeaf p) s
| L_once u c x : is_match u x = true -> Lang G (POnce u c) [x]
| L_many1 u c s : s <> [] -> all_of u s -> Lang G (PMany1 u c) s
| L_opt u c s : length s <= 1 -> all_of u s -> Lang G (POpt u c) s
| L_many0 u c s : all_of u s -> Lang G (PMany0 u c) s
| L_between m n u c s :
    m <= length s -> (forall l, n = Some l -> length s <= l) -> all_of u s -> Lang G (PBetween m n u c) s
| L_times r u c s : InRange r (length s) -> all_of u s -> Lang G (PTimes r u c) s
| L_neuthen u v c x y : is_match u x = true -> is_match v y = true -> Lang G (PNeuThen u v c) [x; y]
| L_then p q s t : Lang G p s -> Lang G q t -> Lang G (PThen p q) (s ++ t)
| L_ifthen_no p t q s : Lang G p s -> Lang G (PIfThen p t q) s
| L_ifthen p t q s s' s'' : Lang G p s -> Lang G t s' -> Lang G q s'' -> Lang G (PIfThen p t q) (s ++ s' ++ s'')
| L_or_l p q s : Lang G p s -> Lang G (POr p q) s
| L_or_r p q s : Lang G q s -> Lang G (POr p q) s
| L_longest_l p q s : Lang G p s -> Lang G (PLongest p q) s
| L_longest_r p q s : Lang G q s -> Lang G (PLongest p q) s
| L_pat p s : Lang G p s -> Lang G (PPat p) s
| L_prefix p pre s t : Lang G pre s -> Lang G p t -> Lang G (PPrefix p pre) (s ++ t)
| L_suffix p suf s t : Lang G p s -> Lang G suf t -> Lang G (PSuffix p suf) (s ++ t)
| L_enclose p o c s t u : Lang G o s -> Lang G p t -> Lang G c u -> Lang G (PEnclose p o c) (s ++ t ++ u)
| L_seponce p m q s t u : Lang G p s -> Lang G m t -> Lang G q u -> Lang G (PSepOnce p m q) (s ++ t ++ u)
| L_sep p d mn n s : mn <= n -> SepIter (Lang G p) (Lang G d) n s -> Lang G (PSep p d mn true) s
| L_sepcollect p d mn n s : mn <= n -> SepIter (Lang G p) (Lang G d) n s -> Lang G (PSepCollect p d mn true) s
  (* [sep2::<M, N>] stops after N + 1 elements, not N: see C17 *)
| L_sep2 p d m l n s : m <= n -> n <= S l -> SepIter (Lang G p) (Lang G d) n s -> Lang G (PSep2 p d m l true) s
| L_repeat p r n s : InRange r n -> Iter (Lang G p) n s -> Lang G (PRepeat p r) s
| L_repeat2 p m l n s : m <= n -> n <= l -> Iter (Lang G p) n s -> Lang G (PRepeat2 p m l) s
| L_collect p mn n s : mn <= n -> Iter (Lang G p) n s -> Lang G (PCollect p mn) s
| L_option p s : Lang G p s -> Lang G (POption p) s
| L_option_none p : Lang G (POption p) []
| L_branch_t t p q s : Lang G p s -> Lang G (PBranch t p q) s
| L_branch_f t p q s : Lang G q s -> Lang G (PBranch t p q) s
| L_map p f s : Lang G p s -> Lang G (PMap p f) s
| L_choice e b ps p s : In p ps -> Lang G p s -> Lang G (PChoice e b ps) s
| L_pairchoice e b ps p s : In p (map fst ps) -> Lang G p s -> Lang G (PPairChoice e b ps) s
| L_wrap p s : Lang G p s -> Lang G (PWrap p) s
| L_ref i p s : env_get G i = Some p -> Lang G p s -> Lang G (PRef i) s.

(** Parsers without user closures that move the cursor. *)
Inductive static : pat -> Prop :=
| st_empty : static PEmpty
| st_fail : static PFail
| st_start : static PStart
| st_end : static PEnd
| st_consume n : static (PConsume n)
| st_consume_all : static PConsumeAll
| st_lit l : static (PLit l)
| st_assert p v : static (PAssert p v)
| st_leaf p : static p -> static (PLeaf p)
| st_once u c : static (POnce u c)
| st_many1 u c : static (PMany1 u c)
| st_opt u c : static (POpt u c)
| st_many0 u c : static (PMany0 u c)
| st_between m n u c : static (PBetween m n u c)
| st_times r u c : static (PTimes r u c)
| st_neuthen u v c : static (PNeuThen u v c)
| st_then p q : static p -> static q -> static (PThen p q)
| st_ifthen p t q : static p -> static t -> static q -> static (PIfThen p t q)
| st_or p q : static p -> static q -> static (POr p q)
| st_longest p q : static p -> static q -> static (PLongest p q)
| st_pat p : static p -> static (PPat p)
| st_prefix p q : static p -> static q -> static (PPrefix p q)
| st_suffix p q : static p -> static q -> static (PSuffix p q)
| st_enclose p o c : static p -> static o -> static c -> static (PEnclose p o c)
| st_seponce p s q : static p -> static s -> static q -> static (PSepOnce p s q)
| st_sep p s mn b : static p -> static s -> static (PSep p s mn b)
| st_sep2 p s m n b : static p -> static s -> static (PSep2 p s m n b)
| st_sepcollect p s mn b : static p -> static s -> static (PSepCollect p s mn b)
| st_repeat p r : static p -> static (PRepeat p r)
| st_repeat2 p m n : static p -> static (PRepeat2 p m n)
| st_collect p mn : static p -> static (PCollect p mn)
| st_option p : static p -> static (POption p)
| st_branch t p q : static p -> static q -> static (PBranch t p q)
| st_map p f : static p -> static (PMap p f)
| st_choice e b ps : Forall static ps -> static (PChoice e b ps)
| st_pairchoice e b ps : Forall static (map fst ps) -> static (PPairChoice e b ps)
| st_wrap p : static p -> static (PWrap p)
| st_nonep : static PNoneP
| st_ref i : static (PRef i).

Definition static_env (G : env) : Prop := forall i p, env_get G i = Some p -> static p.

Section Lang.
  Variable k : kind.
  Variable G : env.
  Hypothesis CE : core_env k G no_skip.
  Hypothesis SE : static_env G.
  Notation core := (core k G no_skip).
  Notation Peg := (Peg k G no_skip).
  Notation L := (Lang G).

  Lemma in_range r n : crange_contains r n = true -> InRange r n.
  Proof. apply contains_in. Qed.

  Lemma slice_length w i n : i + n <= length w -> length (slice w i (i + n)) = n.
  Proof. intros H. unfold slice. rewrite firstn_length, skipn_length. lia. Qed.

  Lemma slice_one w i x : nth_error w i = Some x -> slice w i (S i) = [x].
  Proof.
    intros H. unfold slice. replace (S i - i) with 1 by lia.
    revert i H. induction w as [|y w IH]; intros [|i] H; cbn in *; try discriminate.
    - now injection H as ->.
    - now apply IH.
  Qed.

  Lemma slice_nil2 w i j : j <= i -> slice w i j = [].
  Proof. intros H. unfold slice. now replace (j - i) with 0 by lia. Qed.

  Lemma nth_some (w : text) i x : nth_error w i = Some x -> i < length w.
  Proof. intros H. apply nth_error_Some. congruence. Qed.

  Lemma slice_cons w i m n x : nth_error w (i + m) = Some x -> 
    slice w (i + m) (i + (m + S n)) = x :: slice w (i + S m) (i + (S m + n)).
  Proof.
    intros H. rewrite <- (slice_app w (i + m) (S (i + m))) by lia. rewrite (slice_one _ _ _ H). cbn.
    f_equal. f_equal; lia.
  Qed.

  Lemma acc_true w i u c m : Acc k G no_skip w i u c m (inl true) ->
    exists x, nth_error w (i + m) = Some x /\ is_match u x = true.
  Proof. intros H. inversion H; subst; eauto. Qed.

  Definition lang_out (w : text) (p : pat) (i : nat) (o : out) : Prop :=
    core p -> static p -> i <= length w ->
    match o with
    | OK b j => b = i /\ i <= j /\ j <= length w /\ L p (slice w i j)
    | KO _ => True
    end.

  Ltac inv1 := match goal with
    | H : Core.core _ _ _ ?p |- _ => lazymatch p with _ _ => inversion H; clear H; subst end
    | H : static ?p |- _ => lazymatch p with _ _ => inversion H; clear H; subst end
    | H : Forall _ (_ :: _) |- _ => inversion H; clear H; subst
    end.
  Ltac fwd1 := match goal with
    | IH : Core.core _ _ _ ?p -> static ?p -> _, A : Core.core _ _ _ ?p, B : static ?p |- _ => specialize (IH A B)
    | IH : Core.core _ _ _ ?p -> static ?p -> _, A : Core.core _ _ _ ?p, B : static ?p |- _ => specialize (IH A B)
    | IH : Forall _ ?ps -> Forall _ ?ps -> _ -> _, A : Forall (Core.core _ _ _) ?ps, B : Forall static ?ps |- _ => specialize (IH A B)
    | IH : ?i <= length ?w -> _, A : ?i <= length ?w |- _ => specialize (IH A)
    | IH : _ /\ _ |- _ => destruct IH
    | IH : exists _, _ |- _ => destruct IH
    | IH : ?x = ?x -> _ |- _ => specialize (IH eq_refl)
    | IH : forall n, inl ?m = inl n -> _ |- _ => specialize (IH m eq_refl)
    | IH : forall n, @inr _ _ ?m = inl n -> _ |- _ => clear IH
    | E : ?x = ?y :> nat |- _ => first [is_var x; subst x | is_var y; subst y]
    end.
  Ltac done := split; [reflexivity|]; split; [lia|]; split; [lia|].

  Lemma lang_all :
    (forall w p i o, Peg w p i o -> lang_out w p i o) /\
    (forall w i u c m r, Acc k G no_skip w i u c m r -> r = inl true ->
       exists x, nth_error w (i + m) = Some x /\ is_match u x = true) /\
    (forall w i c m x r, Chk k G no_skip w i c m x r -> True) /\
    (forall w i u c lim m r, Run k G no_skip w i u c lim m r -> forall n, r = inl n -> i + m <= length w ->
       i + m + n <= length w /\ all_of u (slice w (i + m) (i + (m + n))) /\ (forall l, lim = Some l -> n <= l)) /\
    (forall w p lim i n j, Reps k G no_skip w p lim i n j -> core p -> static p -> i <= length w ->
       i <= j /\ j <= length w /\ Iter (L p) n (slice w i j) /\ (forall l, lim = Some l -> n <= l)) /\
    (forall w p s lim i n j, Seps k G no_skip w p s lim i n j -> core p -> static p -> core s -> static s -> i <= length w ->
       i <= j /\ j <= length w /\ SepIter (L p) (L s) n (slice w i j) /\ (forall l, lim = Some l -> n <= l)) /\
    (forall w ps i e o, First k G no_skip w ps i e o -> Forall core ps -> Forall static ps -> i <= length w ->
       match o with
       | OK b j => b = i /\ i <= j /\ j <= length w /\ exists p, In p ps /\ L p (slice w i j)
       | KO _ => True
       end).
  Proof.
    apply Peg_mutind; unfold lang_out, no_skip; intros; try exact I; try discriminate.
    all: repeat inv1; repeat fwd1; auto.
    all: try solve [done; rewrite ?slice_nil; first [constructor; auto; fail | apply L_or_l; auto; fail | apply L_longest_l; auto; fail | apply L_longest_r; auto; fail]].
    all: try solve [destruct o; auto; repeat fwd1; done; first [constructor; auto; fail | apply L_or_r; auto; fail | apply L_branch_f; auto; fail | eapply L_ref; eauto; fail | eapply L_choice; eauto; fail | eapply L_pairchoice; eauto; fail]].
    all: try solve [done; first
      [ rewrite <- (slice_app w i j) by lia; econstructor; eauto; fail
      | rewrite <- (slice_app w i j), <- (slice_app w j j1) by lia; econstructor; eauto; fail ]].
    all: try solve [done; econstructor; eauto using in_range].
    all: try solve [eexists; split; [left; reflexivity | assumption]].
    all: rewrite ?Nat.add_0_r, ?Nat.add_0_l in *; repeat fwd1.
    - (* consume *) rewrite !bo_bytes in H0 by lia. subst j. done. constructor. apply slice_length. lia.
    - (* literal *) assert (i + length l <= length w).
      { apply (f_equal (@length item)) in H. rewrite firstn_length, skipn_length in H. lia. }
      done. replace (slice w i (i + length l)) with l; [constructor|].
      unfold slice. now replace (i + length l - i) with (length l) by lia.
    - pose proof (nth_some _ _ _ H0). done. rewrite (slice_one _ _ _ H0). now constructor.
    - pose proof (nth_some _ _ _ H0). done. rewrite (slice_one _ _ _ H0). constructor; [apply le_n|].
      intros y [<-|[]]. assumption.
    - done. rewrite slice_nil. constructor; [cbn; lia|]. intros y [].
    - done. now constructor.
    - done. constructor; [|assumption]. intros E. apply (f_equal (@length item)) in E.
      rewrite slice_length in E by lia. discriminate.
    - done. constructor; [| |assumption]; rewrite slice_length by lia; auto.
    - done. constructor; [|assumption]. rewrite slice_length by lia. now apply in_range.
    - done. match goal with X : nth_error w i = Some ?x, Y : nth_error w (i + 1) = Some ?y |- _ =>
        replace (slice w i (i + 2)) with [x; y]; [now constructor|];
        rewrite <- (slice_app w i (S i)), (slice_one _ _ _ X) by lia; rewrite Nat.add_1_r in Y;
        replace (i + 2) with (S (S i)) by lia; now rewrite (slice_one _ _ _ Y) end.
    - apply SE in H as Hs. apply CE in H as Hc. specialize (H1 Hc Hs H4). destruct o; auto. repeat fwd1. done.
      eapply L_ref; eauto.
    - eauto.
    - injection H as <-. rewrite slice_nil2 by lia. split; [lia|]. split; [intros y []|]. intros; lia.
    - injection H2 as <-. rewrite slice_nil2 by lia. split; [lia|]. split; [intros y []|]. intros; lia.
    - injection H4 as <-. assert (i + m < length w) by (eapply nth_some; eauto).
      destruct H3 as (B & A & Lm); [lia|]. split; [lia|]. split.
      + rewrite (slice_cons w i m n x) by assumption. intros y [<-|Y]; auto.
      + intros l E. subst lim. cbn in Lm. specialize (Lm (pred l) eq_refl). destruct l; [congruence|lia].
    - rewrite slice_nil. repeat split; try lia; try constructor.
    - rewrite slice_nil. repeat split; try lia; try constructor.
    - split; [lia|]. split; [lia|]. split.
      + rewrite <- (slice_app w i j) by lia. now constructor.
      + intros l E. subst lim. match goal with X : forall l, _ -> _ <= l |- _ => cbn in X; specialize (X (pred l) eq_refl) end. destruct l; [congruence|lia].
    - rewrite slice_nil. repeat split; try lia; try constructor.
    - rewrite slice_nil. repeat split; try lia; try constructor.
    - repeat split; try lia; try now constructor. intros [|l] ->; [congruence|lia].
    - split; [lia|]. split; [lia|]. split.
      + rewrite <- (slice_app w i j), <- (slice_app w j j') by lia. now constructor.
      + intros l E. subst lim. match goal with X : forall l, _ -> _ <= l |- _ => cbn in X; specialize (X (pred l) eq_refl) end. destruct l; [congruence|lia].
    - done. eexists. split; [now left|assumption].
    - destruct o; auto. repeat fwd1. done. eexists. split; [right|]; eassumption.
  Qed.

  Theorem peg_lang w p i b j : core p -> static p -> i <= length w -> Peg w p i (OK b j) -> L p (slice w b j).
  Proof. intros C S Hi P. destruct (proj1 lang_all w p i _ P C S Hi) as (-> & _ & _ & H). exact H. Qed.
End Lang.
