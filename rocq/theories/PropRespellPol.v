(** C82 on contexts that skip text in front of every match (skip policies). *)

From Coq Require Import List Arith NArith ZArith Bool Lia.
From Verif Require Import Base Text Context Neu Syntax Regex Ctor Api TextProofs Spec Core Sound Complete Obs Laws PolicyLaws ApiLaws
  UnitLaws Refactor Cong Respell Samples PropRespell.
Import ListNotations.

(** On every text, from every position, with the skip policies [pols]: the two parsers report the same
    spans, and one fails where the other fails.  (The cursor may stop before or behind text that is
    skipped anyway, C05.) *)
Definition MatchAlikeOn (pols : list pat) (k : kind) (G : env) (p : pat) (H : env) (q : pat) : Prop :=
  forall w i, i <= length w ->
  (forall s, (exists c, Returns G pols p (cx k w i) (Ok s) c) <-> (exists c, Returns H pols q (cx k w i) (Ok s) c)) /\
  ((exists e c, Returns G pols p (cx k w i) (Err e) c) <-> (exists e c, Returns H pols q (cx k w i) (Err e) c)).

(** Parsers in scope of C05 with what the policies skip, whichever of the two environments is in use. *)
Definition core2_on (sk : text -> nat -> nat) k G H p : Prop := core k G sk p /\ core k H sk p.

Section Skip.
  Variable k : kind.
  Variable sk : text -> nat -> nat.
  Variable pols : list pat.
  Hypothesis SK : skipper sk.

  Lemma sk_matches G p w i s : core_env k G sk -> implements k G sk pols -> core k G sk p -> i <= length w ->
    (exists c, Returns G pols p (cx k w i) (Ok s) c) <-> (exists b j, s = sp k w b j /\ b <= j /\ j <= length w /\ Peg k G sk w p (sk w i) (OK b j)).
  Proof.
    intros CE IM C Hi. split.
    - intros [c R]. destruct (policy_sound k G sk pols SK CE IM p w i _ _ C Hi R) as [(b & j & x & E & _ & P & H1 & H2 & H3 & H4 & H5)|(e & E & _)]; [|discriminate].
      injection E as ->. exists b, j. auto.
    - intros (b & j & -> & H1 & H2 & P). destruct (policy_complete k G sk pols SK CE IM p w i _ C Hi P) as (r & c & R & -> & _). eauto.
  Qed.
  Lemma sk_fails G p w i : core_env k G sk -> implements k G sk pols -> core k G sk p -> i <= length w ->
    (exists e c, Returns G pols p (cx k w i) (Err e) c) <-> (exists e, Peg k G sk w p (sk w i) (KO e)).
  Proof.
    intros CE IM C Hi. split.
    - intros (e & c & R). destruct (policy_sound k G sk pols SK CE IM p w i _ _ C Hi R) as [(b & j & x & E & _)|(e' & E & _ & P)]; [discriminate|eauto].
    - intros (e & P). destruct (policy_complete k G sk pols SK CE IM p w i _ C Hi P) as (r & c & R & -> & _). eauto.
  Qed.
  Lemma sp_inj w b j b' j' : b <= j -> j <= length w -> b' <= j' -> j' <= length w -> sp k w b j = sp k w b' j' -> b = b' /\ j = j'.
  Proof.
    intros H1 H2 H3 H4 E. unfold sp in E. injection E as E1 E2.
    assert (b = b') by (apply (bo_inj k w); auto; lia). subst. split; [reflexivity|].
    apply (bo_inj k w); auto. pose proof (bo_mono k w b' j H1). pose proof (bo_mono k w b' j' H3). lia.
  Qed.

  Lemma sk_follows G p q : core_env k G sk -> implements k G sk pols -> core k G sk p -> core k G sk q ->
    MatchAlikeOn pols k G p G q -> follows k G sk p q.
  Proof.
    intros CE IM Cp Cq M w i o [Hi T] P. destruct (M w i Hi) as [M1 M2]. rewrite <- T in P.
    destruct o as [b j|e].
    - destruct (peg_j k G sk pols SK CE IM w p _ b j P Cp (settle_sk sk SK w i Hi)) as (H1 & H2 & H3).
      assert (X : exists c, Returns G pols q (cx k w i) (Ok (sp k w b j)) c) by (apply M1; apply (sk_matches G p); eauto 8).
      apply (sk_matches G q) in X; auto. destruct X as (b' & j' & E & H4 & H5 & P').
      apply sp_inj in E; auto. destruct E as [<- <-]. exists (OK b j). rewrite T in P'. split; [cbn; auto|exact P'].
    - assert (X : exists e c, Returns G pols q (cx k w i) (Err e) c) by (apply M2; apply (sk_fails G p); eauto).
      apply (sk_fails G q) in X; auto. destruct X as (e' & P'). exists (KO e'). rewrite T in P'. split; [exact I|exact P'].
  Qed.
  Lemma sk_alike G H p q : core_env k G sk -> implements k G sk pols -> core k G sk p ->
    core_env k H sk -> implements k H sk pols -> core k H sk q ->
    (forall w i o, settled sk w i -> Peg k G sk w p i o -> exists o', alike o o' /\ Peg k H sk w q i o') ->
    (forall w i o, settled sk w i -> Peg k H sk w q i o -> exists o', alike o o' /\ Peg k G sk w p i o') ->
    MatchAlikeOn pols k G p H q.
  Proof.
    intros CG IG Cp CH IH Cq F F' w i Hi. pose proof (settle_sk sk SK w i Hi) as T. split.
    - intros s. rewrite (sk_matches G p) by auto. rewrite (sk_matches H q) by auto.
      split; intros (b & j & -> & H1 & H2 & P); exists b, j; (split; [reflexivity|split; [exact H1|split; [exact H2|]]]);
        [destruct (F _ _ _ T P) as ([b' j'|] & A & Q)|destruct (F' _ _ _ T P) as ([b' j'|] & A & Q)]; cbn in A; try easy; destruct A; subst; exact Q.
    - rewrite (sk_fails G p) by auto. rewrite (sk_fails H q) by auto.
      split; intros (e & P); [destruct (F _ _ _ T P) as ([b' j'|e'] & A & Q)|destruct (F' _ _ _ T P) as ([b' j'|e'] & A & Q)]; cbn in A; try easy; eauto.
  Qed.

  Lemma sk_half G H (B : pat -> pat -> Prop) p q : implements k G sk pols -> implements k H sk pols ->
    cells2 (core2_on sk k G H) G H -> core2_on sk k G H p ->
    (forall a b, B a b -> core k H sk a -> core k H sk b /\ MatchAlikeOn pols k H a H b) ->
    CellsRewritten B G H -> Rewritten B p q ->
    forall w i o, settled sk w i -> Peg k G sk w p i o -> exists o', alike o o' /\ Peg k H sk w q i o'.
  Proof.
    intros IG IH CC Cp HB RC R w i o T P.
    assert (CG : core_env k G sk) by (intros x y E; apply (CC x y); auto).
    assert (CH : core_env k H sk) by (intros x y E; apply (CC x y); auto).
    assert (RW : forall a b, Rewritten B a b -> covers k H sk a b).
    { apply (rewritten_covers k H sk pols SK CH IH B). intros a b X C. destruct (HB a b X C). now apply sk_follows. }
    destruct (proj1 (peg_cells k G H sk pols SK CG IG
      ltac:(intros x; specialize (RC x); destruct (env_get G x) eqn:E, (env_get H x) eqn:E'; auto; apply RW; auto; apply (CC x _ (or_introl E)))) w p i o P)
      as (o1 & A1 & P1); [apply Cp|exact T|].
    destruct (RW p q R (proj2 Cp) w i o1 T P1) as (o2 & A2 & P2).
    exists o2. split; [|exact P2]. destruct o, o1, o2; cbn in *; intuition congruence.
  Qed.
End Skip.
Lemma on_sym pols k G p H q : MatchAlikeOn pols k G p H q -> MatchAlikeOn pols k H q G p.
Proof. intros M w i Hi. destruct (M w i Hi) as [M1 M2]. split; [intros; now rewrite M1|now rewrite M2]. Qed.

(** Exchanging parts, however many and at whatever depth, on a context that skips: if the parts of each
    pair report the same spans and fail at the same places there, so does the whole. *)
Theorem C82_policies : forall k sk pols G H (B : pat -> pat -> Prop) p q,
  skipper sk -> implements k G sk pols -> implements k H sk pols ->
  cells2 (core2_on sk k G H) G H -> core2_on sk k G H p -> core2_on sk k G H q ->
  (forall E a b, E = G \/ E = H -> B a b -> (core k E sk a <-> core k E sk b) /\ (core k E sk a -> MatchAlikeOn pols k E a E b)) ->
  CellsRewritten B G H -> Rewritten B p q -> MatchAlikeOn pols k G p H q.
Proof.
  intros k sk pols G H B p q SK IG IH CC Cp Cq HB RC R.
  apply (sk_alike k sk pols SK); auto; [intros x y E; apply (CC x y); auto|apply Cp|intros x y E; apply (CC x y); auto|apply Cq| |].
  - apply (sk_half k sk pols SK G H B p q IG IH CC Cp); auto.
    intros a b X C. destruct (HB H a b (or_intror eq_refl) X) as [W1 W2]. split; [now apply W1|now apply W2].
  - apply (sk_half k sk pols SK H G (fun a b => B b a) q p IH IG).
    + intros x y E. assert (core2_on sk k G H y) as [] by (apply (CC x y); tauto). now split.
    + now destruct Cq; split.
    + intros a b X C. destruct (HB G b a (or_introl eq_refl) X) as [W1 W2]. split; [now apply W1|apply on_sym, W2; now apply W1].
    + now apply cells_flip.
    + now apply (rewritten_flip B).
Qed.

(** *** Spellings of the same loop *)

Lemma sk_acc_wide k G (sk : text -> nat -> nat) w i u c r : honest k u -> Acc k G sk w i u c 0 r -> r = inl false \/ ~ too_short k w i (1 * min_length k u).
Proof.
  intros Ho A. inversion A; subst; auto. right. rewrite Nat.add_0_r in *.
  pose proof (Ho _ H0) as L. unfold too_short.
  assert (bo k w (S i) = bo k w i + width k x).
  { unfold bo. assert (exists l, skipn i w = x :: l /\ firstn (S i) w = firstn i w ++ [x]) as (l & _ & ->).
    { clear - H. revert i H. induction w as [|y w IH]; intros [|i] E; cbn in *; try discriminate.
      - injection E as ->. eauto.
      - destruct (IH i E) as (l & -> & ->). eauto. }
    rewrite tlen_app. cbn. lia. }
  pose proof (bo_le_len k w (S i)). lia.
Qed.

Lemma sk_opt_follow k G (sk : text -> nat -> nat) u c w i o : Peg k G sk w (POpt u c) i o -> exists o', alike o o' /\ Peg k G sk w (PBetween 0 (Some 1) u c) i o'.
Proof.
  assert (T : ~ too_short k w i (0 * min_length k u)) by (unfold too_short; lia).
  intros P. inversion P; subst.
  - exists (OK i (i + 1)). split; [cbn; lia|]. apply Peg_between; auto. apply Run_step; [easy|auto|constructor].
  - exists (OK i (i + 0)). split; [cbn; lia|]. apply Peg_between; auto. now constructor.
  - exists (KO e). split; [exact I|]. apply Peg_between_err; auto. now constructor.
Qed.
Lemma sk_opt_follow' k G (sk : text -> nat -> nat) u c w i o : Peg k G sk w (PBetween 0 (Some 1) u c) i o -> exists o', alike o o' /\ Peg k G sk w (POpt u c) i o'.
Proof.
  intros P. inversion P; subst; try lia.
  - unfold too_short in *; lia.
  - match goal with R : Run _ _ _ _ _ _ _ _ _ _ |- _ => inversion R; subst end.
    + exists (OK i i). split; [cbn; lia|]. now constructor.
    + match goal with R : Run _ _ _ _ _ _ _ (limit_pred _) _ _ |- _ => inversion R; subst; try easy end.
      exists (OK i (S i)). split; [cbn; lia|]. now constructor.
  - match goal with R : Run _ _ _ _ _ _ _ _ _ _ |- _ => inversion R; subst end.
    + exists (KO e). split; [exact I|]. now apply Peg_opt_err.
    + match goal with R : Run _ _ _ _ _ _ _ (limit_pred _) _ _ |- _ => inversion R; subst; easy end.
Qed.
Lemma sk_many0_follow k G (sk : text -> nat -> nat) u c w i o : Peg k G sk w (PMany0 u c) i o -> exists o', alike o o' /\ Peg k G sk w (PBetween 0 None u c) i o'.
Proof.
  assert (T : ~ too_short k w i (0 * min_length k u)) by (unfold too_short; lia).
  intros P. inversion P; subst.
  - exists (OK i (i + n)). split; [cbn; auto|]. apply Peg_between; auto. lia.
  - exists (KO e). split; [exact I|]. now apply Peg_between_err.
Qed.
Lemma sk_many0_follow' k G (sk : text -> nat -> nat) u c w i o : Peg k G sk w (PBetween 0 None u c) i o -> exists o', alike o o' /\ Peg k G sk w (PMany0 u c) i o'.
Proof.
  intros P. inversion P; subst; try lia; [unfold too_short in *; lia| |].
  - exists (OK i (i + t)). split; [cbn; auto|]. now constructor.
  - exists (KO e). split; [exact I|]. now apply Peg_many0_err.
Qed.
Lemma sk_many1_follow k G (sk : text -> nat -> nat) u c w i o : honest k u -> Peg k G sk w (PMany1 u c) i o -> exists o', alike o o' /\ Peg k G sk w (PBetween 1 None u c) i o'.
Proof.
  intros Ho P. destruct (UnitLaws.too_short_dec k w i (1 * min_length k u)) as [T|T].
  - exists (KO EBetween). split; [|now constructor].
    inversion P; subst; cbn; auto; exfalso;
      match goal with R : Run _ _ _ _ _ _ _ _ _ _ |- _ => inversion R; subst end;
      match goal with A : Acc _ _ _ _ _ _ _ _ _ |- _ => destruct (sk_acc_wide _ _ _ _ _ _ _ _ Ho A); try discriminate; contradiction end.
  - inversion P; subst.
    + eexists. split; [|eapply Peg_between; eauto; lia]. cbn; auto.
    + eexists. split; [|eapply Peg_between_ko; eauto; lia]. cbn; auto.
    + eexists. split; [|eapply Peg_between_err; eauto]. cbn; auto.
Qed.
Lemma sk_short_acc k G (sk : text -> nat -> nat) w i u c : honest k u -> too_short k w i (1 * min_length k u) -> Acc k G sk w i u c 0 (inl false).
Proof.
  intros Ho T. destruct (nth_error w (i + 0)) as [x|] eqn:E; [|apply Acc_end; now apply nth_error_None].
  destruct (is_match u x) eqn:M; [|eapply Acc_no; eassumption]. exfalso.
  assert (A : Acc k G sk w i u CEmpty 0 (inl true)) by (eapply Acc_yes; [exact E|exact M|constructor]).
  destruct (sk_acc_wide _ _ _ _ _ _ _ _ Ho A); [discriminate|contradiction].
Qed.
Lemma sk_many1_follow' k G (sk : text -> nat -> nat) u c w i o : honest k u -> Peg k G sk w (PBetween 1 None u c) i o -> exists o', alike o o' /\ Peg k G sk w (PMany1 u c) i o'.
Proof.
  intros Ho P. inversion P; subst.
  - exists (KO EMany1). split; [exact I|]. apply Peg_many1_ko, Run_stop; [easy|]. now apply sk_short_acc.
  - destruct t; [lia|]. eexists. split; [|eapply Peg_many1; eauto]. cbn; auto.
  - assert (t = 0) by lia. subst t. exists (KO EMany1). split; [exact I|]. now apply Peg_many1_ko.
  - exists (KO e). split; [exact I|]. now apply Peg_many1_err.
Qed.
Lemma sk_once_follow k G (sk : text -> nat -> nat) u c w i o : honest k u -> Peg k G sk w (POnce u c) i o -> exists o', alike o o' /\ Peg k G sk w (PBetween 1 (Some 1) u c) i o'.
Proof.
  intros Ho P. destruct (UnitLaws.too_short_dec k w i (1 * min_length k u)) as [T|T].
  - exists (KO EBetween). split; [|now constructor].
    inversion P; subst; cbn; auto; exfalso;
      match goal with A : Acc _ _ _ _ _ _ _ _ _ |- _ => destruct (sk_acc_wide _ _ _ _ _ _ _ _ Ho A); try discriminate; contradiction end.
  - inversion P; subst.
    + exists (OK i (i + 1)). split; [cbn; lia|]. apply Peg_between; auto. apply Run_step; [easy|auto|constructor].
    + exists (KO EBetween). split; [exact I|]. apply Peg_between_ko with (t := 0); auto. now apply Run_stop.
    + exists (KO e). split; [exact I|]. apply Peg_between_err; auto. now apply Run_err.
Qed.
Lemma sk_once_follow' k G (sk : text -> nat -> nat) u c w i o : honest k u -> Peg k G sk w (PBetween 1 (Some 1) u c) i o -> exists o', alike o o' /\ Peg k G sk w (POnce u c) i o'.
Proof.
  intros Ho P. inversion P; subst.
  - exists (KO EOnce). split; [exact I|]. apply Peg_once_ko. now apply sk_short_acc.
  - match goal with R : Run _ _ _ _ _ _ _ _ _ _ |- _ => inversion R; subst; [lia|] end.
    match goal with R : Run _ _ _ _ _ _ _ (limit_pred _) _ _ |- _ => inversion R; subst; try easy end.
    exists (OK i (S i)). split; [cbn; lia|]. now constructor.
  - match goal with R : Run _ _ _ _ _ _ _ _ _ _ |- _ => inversion R; subst; [|lia] end.
    exists (KO EOnce). split; [exact I|]. now apply Peg_once_ko.
  - match goal with R : Run _ _ _ _ _ _ _ _ _ _ |- _ => inversion R; subst end.
    + exists (KO e). split; [exact I|]. now apply Peg_once_err.
    + match goal with R : Run _ _ _ _ _ _ _ (limit_pred _) _ _ |- _ => inversion R; subst; easy end.
Qed.

(** The spellings of C82_counts mean the same on every context that skips. *)
Theorem C82_policies_counts : forall k sk pols G u c, skipper sk -> implements k G sk pols -> core_env k G sk -> core_cond k G sk c ->
  MatchAlikeOn pols k G (POpt u c) G (PBetween 0 (Some 1) u c) /\
  MatchAlikeOn pols k G (PMany0 u c) G (PBetween 0 None u c) /\
  (honest k u -> MatchAlikeOn pols k G (PMany1 u c) G (PBetween 1 None u c)) /\
  (honest k u -> MatchAlikeOn pols k G (POnce u c) G (PBetween 1 (Some 1) u c)).
Proof.
  intros k sk pols G u c SK IM CE CC.
  split; [|split; [|split; intros Ho]]; (apply (sk_alike k sk pols SK); auto; try (now constructor)); intros.
  - now apply sk_opt_follow.
  - now apply sk_opt_follow'.
  - now apply sk_many0_follow.
  - now apply sk_many0_follow'.
  - now apply sk_many1_follow.
  - now apply sk_many1_follow'.
  - now apply sk_once_follow.
  - now apply sk_once_follow'.
Qed.

(** A list of words in brackets, white space skipped, with the loop over the letters of a word spelled in
    two ways; the exchanged parts sit inside the recursive parser. *)
Definition brackets (word : pat) : env :=
  [Some (POr (PThen (PThen (PLit [91]%N) (PRepeat (PRef 0) (CRange Unb Unb))) (PLit [93]%N)) word)].
Definition word1 : pat := PMany1 NAsciiAlphabetic CEmpty.
Definition word2 : pat := PBetween 1 None NAsciiAlphabetic CEmpty.
Example C82_policies_case :
  MatchAlikeOn skip_ascii_whitespace KStr (brackets word1) (PRef 0) (brackets word2) (PRef 0) /\
  exists s c, Returns (brackets word2) skip_ascii_whitespace (PRef 0) (cx KStr [91; 32; 97; 98; 32; 91; 93; 93]%N 0) (Ok s) c.
Proof.
  split; [|eexists _, _; returns 60].
  assert (C : forall E a, a = word1 \/ a = word2 -> core2_on (skip_run NAsciiWhitespace) KStr E E a).
  { intros E a [-> | ->]; split; repeat constructor. }
  assert (CB : forall E x p, env_get (brackets word1) x = Some p \/ env_get (brackets word2) x = Some p -> core KStr E (skip_run NAsciiWhitespace) p).
  { intros E [|x] p [X|X]; try (destruct x; discriminate X); injection X as <-; repeat constructor. }
  apply (C82_policies KStr (skip_run NAsciiWhitespace) skip_ascii_whitespace (brackets word1) (brackets word2)
    (fun a b => a = word1 /\ b = word2) (PRef 0) (PRef 0)).
  - apply skip_run_skipper.
  - apply skip_ascii_implements.
  - apply skip_ascii_implements.
  - intros x p X. split; eapply CB; eauto.
  - split; constructor.
  - split; constructor.
  - intros E a b HE [-> ->]. split; [split; intros _; apply (C E); auto|]. intros _.
    assert (CE : core_env KStr E (skip_run NAsciiWhitespace)) by (intros x p X; apply (CB E x p); destruct HE; subst; auto).
    destruct (C82_policies_counts KStr (skip_run NAsciiWhitespace) skip_ascii_whitespace E NAsciiAlphabetic CEmpty) as (_ & _ & X & _);
      [apply skip_run_skipper|apply skip_ascii_implements|exact CE|apply core_cempty|apply X].
    intros x _. apply width_pos.
  - intros [|x]; [|destruct x; exact I]. cbn [brackets env_get nth_error]. apply rw_inside. constructor; [apply rw_same|]. now apply rw_here.
  - apply rw_same.
Qed.

Print Assumptions C82_policies.
Print Assumptions C82_policies_counts.
