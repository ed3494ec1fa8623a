(** The language of a parser whose context skips something between the parts: not words but lists of
    tokens, which may be laid out with skipped text around them.  No positions, no choice order, no
    greediness. *)

From Coq Require Import List Arith NArith Bool Lia.
From Verif Require Import Base Text Context Neu Syntax Regex Ctor Api TextProofs Spec Core Sound Obs Laws
  ApiLaws Consumes Term TermLaws PolicyLaws UnitProps CtorShape CtorSpec CtorLaws Lang Ll1.
Import ListNotations.

(** [n] lists of [L] one after the other. *)
Inductive TIter (L : list text -> Prop) : nat -> list text -> Prop :=
| ti_nil : TIter L 0 []
| ti_cons n s t : L s -> TIter L n t -> TIter L (S n) (s ++ t).

(** [n] lists of [L], one of [D] between neighbours and perhaps one at the end. *)
Inductive TSepIter (L D : list text -> Prop) : nat -> list text -> Prop :=
| ts_nil : TSepIter L D 0 []
| ts_one s : L s -> TSepIter L D 1 s
| ts_cons n s d t : L s -> D d -> TSepIter L D n t -> TSepIter L D (S n) (s ++ d ++ t).

(** These are not interrupted by skipping: what they read is one token. *)
Definition token (p : pat) : bool :=
  match p with
  | PConsume _ | PConsumeAll | PLit _ | POnce _ _ | PMany1 _ _ | POpt _ _ | PMany0 _ _
  | PBetween _ _ _ _ | PTimes _ _ _ | PNeuThen _ _ _ => true
  | _ => false
  end.

(** The lists of tokens a parser may read. *)
Inductive Toks (G : env) : pat -> list text -> Prop :=
| T_token p s : token p = true -> Lang G p s -> Toks G p [s]
| T_empty : Toks G PEmpty []
| T_start : Toks G PStart []
| T_end : Toks G PEnd []
| T_assert p v : Toks G (PAssert p v) []
| T_leaf p s : Toks G p s -> Toks G (PLeaf p) s
| T_then p q s t : Toks G p s -> Toks G q t -> Toks G (PThen p q) (s ++ t)
| T_ifthen_no p t q s : Toks G p s -> Toks G (PIfThen p t q) s
| T_ifthen p t q s s' s'' : Toks G p s -> Toks G t s' -> Toks G q s'' -> Toks G (PIfThen p t q) (s ++ s' ++ s'')
| T_or_l p q s : Toks G p s -> Toks G (POr p q) s
| T_or_r p q s : Toks G q s -> Toks G (POr p q) s
| T_longest_l p q s : Toks G p s -> Toks G (PLongest p q) s
| T_longest_r p q s : Toks G q s -> Toks G (PLongest p q) s
| T_pat p s : Toks G p s -> Toks G (PPat p) s
| T_prefix p pre s t : Toks G pre s -> Toks G p t -> Toks G (PPrefix p pre) (s ++ t)
| T_suffix p suf s t : Toks G p s -> Toks G suf t -> Toks G (PSuffix p suf) (s ++ t)
| T_enclose p o c s t u : Toks G o s -> Toks G p t -> Toks G c u -> Toks G (PEnclose p o c) (s ++ t ++ u)
| T_seponce p m q s t u : Toks G p s -> Toks G m t -> Toks G q u -> Toks G (PSepOnce p m q) (s ++ t ++ u)
| T_sep p d mn n s : mn <= n -> TSepIter (Toks G p) (Toks G d) n s -> Toks G (PSep p d mn true) s
| T_sepcollect p d mn n s : mn <= n -> TSepIter (Toks G p) (Toks G d) n s -> Toks G (PSepCollect p d mn true) s
  (* [sep2::<M, N>] stops after N + 1 elements, not N: see C17 *)
| T_sep2 p d m l n s : m <= n -> n <= S l -> TSepIter (Toks G p) (Toks G d) n s -> Toks G (PSep2 p d m l true) s
| T_repeat p r n s : InRange r n -> TIter (Toks G p) n s -> Toks G (PRepeat p r) s
| T_repeat2 p m l n s : m <= n -> n <= l -> TIter (Toks G p) n s -> Toks G (PRepeat2 p m l) s
| T_collect p mn n s : mn <= n -> TIter (Toks G p) n s -> Toks G (PCollect p mn) s
| T_option p s : Toks G p s -> Toks G (POption p) s
| T_option_none p : Toks G (POption p) []
| T_branch_t t p q s : Toks G p s -> Toks G (PBranch t p q) s
| T_branch_f t p q s : Toks G q s -> Toks G (PBranch t p q) s
| T_map p f s : Toks G p s -> Toks G (PMap p f) s
| T_choice e b ps p s : In p ps -> Toks G p s -> Toks G (PChoice e b ps) s
| T_pairchoice e b ps p s : In p (map fst ps) -> Toks G p s -> Toks G (PPairChoice e b ps) s
| T_wrap p s : Toks G p s -> Toks G (PWrap p) s
| T_ref i p s : env_get G i = Some p -> Toks G p s -> Toks G (PRef i) s.

(** The tokens laid out as a text, with a piece of [B] before, between and after them. *)
Inductive Spread (B : text -> Prop) : list text -> text -> Prop :=
| spread_end b : B b -> Spread B [] b
| spread_cons b t ts s : B b -> Spread B ts s -> Spread B (t :: ts) (b ++ t ++ s).

Section TMaps.
  Variable L P : list text -> Prop.
  Variable f : forall s, L s -> P s.
  Fixpoint titer_map n s (H : TIter L n s) : TIter P n s :=
    match H in TIter _ n s return TIter P n s with
    | ti_nil _ => ti_nil P
    | ti_cons _ n s t a b => ti_cons P n s t (f s a) (titer_map n t b)
    end.
  Variable D Q : list text -> Prop.
  Variable g : forall s, D s -> Q s.
  Fixpoint tsepiter_map n s (H : TSepIter L D n s) : TSepIter P Q n s :=
    match H in TSepIter _ _ n s return TSepIter P Q n s with
    | ts_nil _ _ => ts_nil P Q
    | ts_one _ _ s a => ts_one P Q s (f s a)
    | ts_cons _ _ n s d t a b c => ts_cons P Q n s d t (f s a) (g d b) (tsepiter_map n t c)
    end.
End TMaps.

Section TMaps2.
  Variable L : list text -> Prop.
  Variable P : text -> Prop.
  Variable f : forall s, L s -> P (concat s).
  Lemma titer_concat n s : TIter L n s -> Iter P n (concat s).
  Proof. induction 1; cbn; [constructor|]. rewrite concat_app. constructor; auto. Qed.
  Variable D : list text -> Prop.
  Variable Q : text -> Prop.
  Variable g : forall s, D s -> Q (concat s).
  Lemma tsepiter_concat n s : TSepIter L D n s -> SepIter P Q n (concat s).
  Proof. induction 1; cbn; rewrite ?concat_app; constructor; auto. Qed.
End TMaps2.

(** The tokens one after the other are a word of the language of Lang.v. *)
Section ToksLang.
Variable G : env.
Lemma toks_lang : forall p ts, Toks G p ts -> Lang G p (concat ts).
Proof.
  fix F 3. intros p ts H. destruct H.
  all: repeat match goal with X : Toks G ?p ?s |- _ =>
    let Y := fresh "B" in pose proof (F p s X) as Y; clear X end.
  all: try match goal with X : TIter (Toks G ?p) ?n ?s |- _ =>
    let Y := fresh "B" in pose proof (titer_map _ (fun s => Lang G p (concat s)) (F p) n s X) as Y; clear X end.
  all: try match goal with X : TSepIter (Toks G ?p) (Toks G ?d) ?n ?s |- _ =>
    let Y := fresh "B" in pose proof (tsepiter_map _ (fun s => Lang G p (concat s)) (F p) _ (fun s => Lang G d (concat s)) (F d) n s X) as Y; clear X end.
  all: clear F.
  all: try match goal with X : TIter (fun x => Lang G ?p (concat x)) ?n ?v |- _ =>
    apply (titer_concat _ (Lang G p) (fun s a => a)) in X end.
  all: try match goal with X : TSepIter (fun x => Lang G ?p (concat x)) (fun y => Lang G ?d (concat y)) ?n ?v |- _ =>
    apply (tsepiter_concat _ (Lang G p) (fun s a => a) _ (Lang G d) (fun s a => a)) in X end.
  all: rewrite ?concat_app; cbn [concat]; rewrite ?app_nil_r.
  all: try assumption.
  all: try (econstructor; eauto; fail).
  all: first [apply L_or_r; assumption | apply L_longest_r; assumption | apply L_branch_f; assumption].
Qed.
End ToksLang.

Section Spread.
  Variable B : text -> Prop.
  Hypothesis B_nil : B [].
  Hypothesis B_app : forall s t, B s -> B t -> B (s ++ t).

  Lemma spread_blank b ts s : B b -> Spread B ts s -> Spread B ts (b ++ s).
  Proof.
    intros Hb H. destruct H; [constructor; auto|]. rewrite app_assoc. constructor; auto.
  Qed.
  Lemma spread_app ts1 s1 ts2 s2 : Spread B ts1 s1 -> Spread B ts2 s2 -> Spread B (ts1 ++ ts2) (s1 ++ s2).
  Proof.
    intros H H2. induction H as [b Hb|b t ts s Hb H IH]; cbn [app]; [now apply spread_blank|].
    rewrite <- !app_assoc. now constructor.
  Qed.
  Lemma spread_one s : Spread B [s] s.
  Proof. replace s with ([] ++ s ++ []) at 2 by now rewrite app_nil_r. constructor; [exact B_nil|]. now constructor. Qed.
  Lemma spread_nil : Spread B [] [].
  Proof. now constructor. Qed.

  (** ** What is matched is a layout of the tokens *)
  Variable k : kind.
  Variable G : env.
  Variable sk : text -> nat -> nat.
  Hypothesis SK : skipper sk.
  Hypothesis CE : core_env k G sk.
  Hypothesis SE : static_env G.
  Hypothesis B_sk : forall w i, i <= length w -> B (slice w i (sk w i)).
  Notation core := (core k G sk).
  Notation Peg := (Peg k G sk).
  Notation T := (Toks G).

  Definition toks_out (w : text) (p : pat) (i : nat) (o : out) : Prop :=
    core p -> static p -> i <= length w -> sk w i = i ->
    match o with
    | OK b j => b = i /\ i <= j /\ j <= length w /\ exists ts, T p ts /\ Spread B ts (slice w i j)
    | KO _ => True
    end.

  Lemma skipped w i : i <= length w -> i <= sk w i /\ sk w i <= length w /\ sk w (sk w i) = sk w i.
  Proof.
    intros H. pose proof (sk_ge sk SK w i H). pose proof (sk_le sk SK w i H). pose proof (sk_idem sk SK w i H). auto.
  Qed.
  Lemma spread_slices w i j j' ts ts' : i <= j -> j <= length w -> sk w j <= j' ->
    Spread B ts (slice w i j) -> Spread B ts' (slice w (sk w j) j') -> Spread B (ts ++ ts') (slice w i j').
  Proof.
    intros H1 H2 H3 A C. destruct (skipped w j H2) as (S1 & S2 & _).
    rewrite <- (slice_app w i j j'), <- (slice_app w j (sk w j) j') by lia.
    apply spread_app; [exact A|]. apply spread_blank; [now apply B_sk|exact C].
  Qed.
  Lemma spread_lead w i j ts : i <= length w -> sk w i <= j ->
    Spread B ts (slice w (sk w i) j) -> Spread B ts (slice w i j).
  Proof.
    intros H1 H2 A. destruct (skipped w i H1) as (S1 & S2 & _).
    rewrite <- (slice_app w i (sk w i) j) by lia. apply spread_blank; [now apply B_sk|exact A].
  Qed.
  Lemma token_out p w i j : token p = true -> i <= j -> j <= length w -> Lang G p (slice w i j) ->
    i = i /\ i <= j /\ j <= length w /\ exists ts, T p ts /\ Spread B ts (slice w i j).
  Proof.
    intros K H1 H2 H. repeat split; auto. exists [slice w i j]. split; [now constructor|apply spread_one].
  Qed.
  Lemma empty_out p w i : i <= length w -> T p [] -> i = i /\ i <= i /\ i <= length w /\ exists ts, T p ts /\ Spread B ts (slice w i i).
  Proof. intros H K. repeat split; auto. exists []. split; [exact K|]. rewrite slice_nil. apply spread_nil. Qed.
  Ltac inv1 := match goal with
    | H : Core.core _ _ _ ?p |- _ => lazymatch p with _ _ => inversion H; clear H; subst end
    | H : static ?p |- _ => lazymatch p with _ _ => inversion H; clear H; subst end
    | H : Forall _ (_ :: _) |- _ => inversion H; clear H; subst
    end.
  Ltac see w j := lazymatch goal with
    | _ : sk w (sk w j) = sk w j |- _ => fail
    | H : j <= length w |- _ => destruct (skipped w j H) as (? & ? & ?)
    end.
  Ltac fwd1 := match goal with
    | IH : Core.core _ _ _ ?p -> static ?p -> _, A : Core.core _ _ _ ?p, B : static ?p |- _ => specialize (IH A B)
    | IH : Forall _ ?ps -> Forall _ ?ps -> _ -> _, A : Forall (Core.core _ _ _) ?ps, B : Forall static ?ps |- _ => specialize (IH A B)
    | IH : ?i <= length ?w -> _, A : ?i <= length ?w |- _ => specialize (IH A)
    | IH : sk ?w ?i = ?i -> _, A : sk ?w ?i = ?i |- _ => specialize (IH A)
    | IH : sk ?w ?j <= length ?w -> _ |- _ => see w j
    | IH : _ /\ _ |- _ => destruct IH
    | IH : exists _, _ |- _ => destruct IH
    | IH : ?x = ?x -> _ |- _ => specialize (IH eq_refl)
    | IH : forall n, inl ?m = inl n -> _ |- _ => specialize (IH m eq_refl)
    | IH : forall n, @inr _ _ ?m = inl n -> _ |- _ => clear IH
    | E : ?x = ?y :> nat |- _ => first [is_var x; subst x | is_var y; subst y]
    end.
  Ltac done := split; [reflexivity|]; split; [lia|]; split; [lia|].

  Lemma toks_all :
    (forall w p i o, Peg w p i o -> toks_out w p i o) /\
    (forall w i u c m r, Acc k G sk w i u c m r -> r = inl true ->
       exists x, nth_error w (i + m) = Some x /\ is_match u x = true) /\
    (forall w i c m x r, Chk k G sk w i c m x r -> True) /\
    (forall w i u c lim m r, Run k G sk w i u c lim m r -> forall n, r = inl n -> i + m <= length w ->
       i + m + n <= length w /\ all_of u (slice w (i + m) (i + (m + n))) /\ (forall l, lim = Some l -> n <= l)) /\
    (forall w p lim i n j, Reps k G sk w p lim i n j -> core p -> static p -> i <= length w ->
       i <= j /\ j <= length w /\ (exists ts, TIter (T p) n ts /\ Spread B ts (slice w i j)) /\
       (forall l, lim = Some l -> n <= l)) /\
    (forall w p s lim i n j, Seps k G sk w p s lim i n j -> core p -> static p -> core s -> static s -> i <= length w ->
       i <= j /\ j <= length w /\ (exists ts, TSepIter (T p) (T s) n ts /\ Spread B ts (slice w i j)) /\
       (forall l, lim = Some l -> n <= l)) /\
    (forall w ps i e o, First k G sk w ps i e o -> Forall core ps -> Forall static ps -> i <= length w -> sk w i = i ->
       match o with
       | OK b j => b = i /\ i <= j /\ j <= length w /\ exists p ts, In p ps /\ T p ts /\ Spread B ts (slice w i j)
       | KO _ => True
       end).
  Proof.
    apply Peg_mutind; unfold toks_out; intros; try exact I; try discriminate.
    all: repeat inv1; repeat fwd1; auto.
    all: try solve [apply empty_out; auto; constructor].
    all: try solve [done; eexists; split; [econstructor; eauto; fail|assumption]].
    all: try solve [destruct o; auto; repeat fwd1; done; eexists; split; [econstructor; eauto; fail|assumption]].
    all: try solve [done; eexists; split; [econstructor; eauto; fail|];
      first [eapply spread_slices; [| | |eassumption|eassumption]; lia
            |eapply spread_slices; [| | |eassumption|eapply spread_slices; [| | |eassumption|eassumption]]; lia]].
    all: try solve [done; eexists; split; [first [eapply T_or_r; eassumption | eapply T_longest_r; eassumption]|assumption]].
    all: try solve [destruct o; auto; repeat fwd1; done; eexists; split; [first [eapply T_or_r; eassumption | eapply T_branch_f; eassumption]|assumption]].
    all: rewrite ?Nat.add_0_r, ?Nat.add_0_l in *; repeat fwd1.
    - rewrite !bo_bytes in H0 by lia. subst j. apply token_out; auto; [lia|]. constructor. apply slice_length. lia.
    - apply token_out; auto. constructor.
    - assert (i + length l <= length w).
      { apply (f_equal (@length item)) in H. rewrite firstn_length, skipn_length in H. lia. }
      apply token_out; auto; [lia|]. replace (slice w i (i + length l)) with l; [constructor|].
      unfold slice. now replace (i + length l - i) with (length l) by lia.
    - pose proof (nth_some _ _ _ H0). apply token_out; auto. rewrite (slice_one _ _ _ H0). now constructor.
    - pose proof (nth_some _ _ _ H0). apply token_out; auto. rewrite (slice_one _ _ _ H0). constructor; [apply le_n|].
      intros y [<-|[]]. assumption.
    - apply token_out; auto. rewrite slice_nil. constructor; [cbn; lia|]. intros y [].
    - apply token_out; auto; [lia|]. now constructor.
    - apply token_out; auto; [lia|]. constructor; [|assumption]. intros E. apply (f_equal (@length item)) in E.
      rewrite slice_length in E by lia. discriminate.
    - apply token_out; auto; [lia|]. constructor; [| |assumption]; rewrite slice_length by lia; auto.
    - apply token_out; auto; [lia|]. constructor; [|assumption]. rewrite slice_length by lia. now apply in_range.
    - apply token_out; auto; [lia|]. match goal with X : nth_error w i = Some ?x, Y : nth_error w (i + 1) = Some ?y |- _ =>
        replace (slice w i (i + 2)) with [x; y]; [now constructor|];
        rewrite <- (slice_app w i (S i)), (slice_one _ _ _ X) by lia; rewrite Nat.add_1_r in Y;
        replace (i + 2) with (S (S i)) by lia; now rewrite (slice_one _ _ _ Y) end.
    - done. eexists. split; [|eassumption]. econstructor; [|eassumption]. now apply in_range.
    - apply SE in H as Hs. apply CE in H as Hc. specialize (H1 Hc Hs ltac:(assumption) ltac:(assumption)). destruct o; auto.
      repeat fwd1. done. eexists. split; [eapply T_ref; eauto|assumption].
    - eauto.
    - injection H as <-. rewrite slice_nil2 by lia. split; [lia|]. split; [intros y []|]. intros; lia.
    - injection H2 as <-. rewrite slice_nil2 by lia. split; [lia|]. split; [intros y []|]. intros; lia.
    - injection H4 as <-. assert (i + m < length w) by (eapply nth_some; eauto).
      destruct H3 as (Q & A & Lm); [lia|]. split; [lia|]. split.
      + rewrite (slice_cons w i m n x) by assumption. intros y [<-|Y]; auto.
      + intros l E. subst lim. cbn in Lm. specialize (Lm (pred l) eq_refl). destruct l; [congruence|lia].
    - rewrite slice_nil. split; [lia|]. split; [lia|]. split; [|intros; lia]. exists []. split; [constructor|now apply spread_nil].
    - rewrite slice_nil. split; [lia|]. split; [lia|]. split; [|intros; lia]. exists []. split; [constructor|now apply spread_nil].
    - split; [lia|]. split; [lia|]. split.
      + eexists. split; [econstructor; eassumption|]. rewrite <- (slice_app w i j) by lia.
        apply spread_app; [apply spread_lead; [lia..|]|]; assumption.
      + intros l E. subst lim. match goal with X : forall l, _ -> _ <= l |- _ => cbn in X; specialize (X (pred l) eq_refl) end. destruct l; [congruence|lia].
    - rewrite slice_nil. split; [lia|]. split; [lia|]. split; [|intros; lia]. exists []. split; [constructor|now apply spread_nil].
    - rewrite slice_nil. split; [lia|]. split; [lia|]. split; [|intros; lia]. exists []. split; [constructor|now apply spread_nil].
    - split; [lia|]. split; [lia|]. split.
      + eexists. split; [eapply ts_one; eassumption|]. apply spread_lead; [lia..|assumption].
      + intros [|l] ->; [congruence|lia].
    - split; [lia|]. split; [lia|]. split.
      + eexists. split; [eapply ts_cons; eassumption|]. rewrite <- (slice_app w i j), <- (slice_app w j j') by lia.
        apply spread_app; [apply spread_lead; [lia..|assumption]|]. apply spread_app; [apply spread_lead; [lia..|assumption]|assumption].
      + intros l E. subst lim. match goal with X : forall l, _ -> _ <= l |- _ => cbn in X; specialize (X (pred l) eq_refl) end. destruct l; [congruence|lia].
    - done. do 2 eexists. split; [now left|]. split; eassumption.
    - destruct o; auto. repeat fwd1. done. do 2 eexists. split; [right; eassumption|]. split; eassumption.
  Qed.

  Theorem peg_toks w p i b j : core p -> static p -> i <= length w -> sk w i = i -> Peg w p i (OK b j) ->
    b = i /\ i <= j /\ j <= length w /\ exists ts, T p ts /\ Spread B ts (slice w i j).
  Proof. intros C S Hi E P. exact (proj1 toks_all w p i _ P C S Hi E). Qed.
End Spread.

(** Every word is made of tokens. *)
Section Words.
  Variable L : text -> Prop.
  Variable P : list text -> Prop.
  Definition tokenized (s : text) : Prop := exists ts, P ts /\ concat ts = s.
  Lemma iter_tokens n s : Iter tokenized n s -> exists ts, TIter P n ts /\ concat ts = s.
  Proof.
    induction 1 as [|n s t (ts & A & <-) H (ts' & B & <-)]; [exists []; split; [constructor|reflexivity]|].
    exists (ts ++ ts'). split; [now constructor|apply concat_app].
  Qed.
  Variable Q : list text -> Prop.
  Lemma sepiter_tokens n s : SepIter tokenized (fun s => exists ts, Q ts /\ concat ts = s) n s ->
    exists ts, TSepIter P Q n ts /\ concat ts = s.
  Proof.
    induction 1 as [|s (ts & A & <-)|n s d t (ts & A & <-) (us & B & <-) H (vs & D & <-)].
    - exists []. split; [constructor|reflexivity].
    - exists ts. split; [now constructor|reflexivity].
    - exists (ts ++ us ++ vs). split; [now constructor|now rewrite !concat_app].
  Qed.
End Words.
Section LangToks.
  Variable G : env.
  Lemma lang_toks : forall p s, Lang G p s -> exists ts, Toks G p ts /\ concat ts = s.
  Proof.
    fix F 3. intros p s H. destruct H.
    all: repeat match goal with X : Lang G ?p ?s |- _ =>
      let Y := fresh "B" in pose proof (F p s X) as Y; clear X end.
    all: try match goal with X : Iter (Lang G ?p) ?n ?s |- _ =>
      let Y := fresh "B" in pose proof (iter_map _ (tokenized (Toks G p)) (F p) n s X) as Y; clear X end.
    all: try match goal with X : SepIter (Lang G ?p) (Lang G ?d) ?n ?s |- _ =>
      let Y := fresh "B" in pose proof (sepiter_map _ (tokenized (Toks G p)) (F p) _ (tokenized (Toks G d)) (F d) n s X) as Y; clear X end.
    all: clear F.
    all: try match goal with X : Iter _ _ _ |- _ => apply iter_tokens in X end.
    all: try match goal with X : SepIter _ _ _ _ |- _ => apply sepiter_tokens in X end.
    all: repeat match goal with X : exists _, _ |- _ => destruct X as (? & ? & <-) end.
    all: try solve [eexists; split; [econstructor; eauto; fail|now rewrite ?concat_app]].
    all: try solve [eexists; split; [first [apply T_or_r; eassumption|apply T_longest_r; eassumption|apply T_branch_f; eassumption]|reflexivity]].
    all: match goal with |- exists ts, _ /\ concat ts = ?s => exists [s]; split; [apply T_token; [reflexivity|constructor; auto]|cbn; now rewrite ?app_nil_r] end.
  Qed.
End LangToks.
