(** Laws of the combinators in terms of what the caller observes of the parts. *)

From Coq Require Import List Arith NArith Bool Lia.
From Verif Require Import Base Text Context Neu Syntax Regex Ctor Api TextProofs Spec Units Core Sound
  Complete Mono Atomic Obs.
Import ListNotations.

Lemma returns_det G pols p c r c1 r' c2 :
  Returns G pols p c r c1 -> Returns G pols p c r' c2 -> r = r' /\ c1 = c2.
Proof.
  intros [n [E N]] [m [E' N']].
  destruct (Nat.le_ge_cases n m) as [L|L].
  - pose proof (try_mat_mono n m G pols p L c) as M. rewrite E in M. cbn in M.
    destruct M as [M|M]; [congruence|]. rewrite M in *. rewrite E' in *. split; congruence.
  - pose proof (try_mat_mono m n G pols p L c) as M. rewrite E' in M. cbn in M.
    destruct M as [M|M]; [congruence|]. rewrite E in M. split; congruence.
Qed.

Section Laws.
  Variable k : kind.
  Variable G : env.
  Notation cx := (cx k).
  Notation sp := (sp k).
  Notation Peg := (Peg k G no_skip).
  Notation core := (core k G no_skip).
  Notation Matches := (Matches k G).
  Notation Fails := (Fails k G).

  Hypothesis CE : core_env k G no_skip.

  Lemma no_skip_skipper : skipper no_skip.
  Proof. split; unfold no_skip; intros; lia. Qed.
  Lemma no_skip_implements : implements k G no_skip [].
  Proof. intros w i. reflexivity. Qed.

  Lemma matches_peg p w i b j : core p -> i <= length w -> (Matches p w i b j <-> Peg w p i (OK b j)).
  Proof.
    intros C Hi. split.
    - intros (H1 & H2 & n & E).
      pose proof (try_mat_sound k G no_skip [] no_skip_skipper CE no_skip_implements n [] p w i C Hi) as S.
      unfold try_mat_top in E. unfold tm in S. rewrite E in S. inversion S; subst; auto.
      unfold no_skip in *.
      assert (x = j0) by lia. subst x.
      assert (j0 = j) by (apply (bo_inj k w); auto). subst j0.
      match goal with H : bo k w _ = bo k w b |- _ => apply (bo_inj k w) in H; [subst|lia|lia] end. auto.
    - intros P. destruct (peg_complete k G no_skip [] no_skip_skipper CE no_skip_implements w p i _ P C Hi eq_refl)
        as [B [n V]].
      destruct B as (B1 & B2 & B3). split; [lia|split; [lia|]].
      destruct (V n (le_n _)) as [_ T]. specialize (T [] i Hi eq_refl). cbn in T.
      destruct T as (x & Hx1 & Hx2 & T). unfold no_skip in Hx2. assert (x = j) by lia. subst x.
      exists n. exact T.
  Qed.

  Lemma fails_peg p w i e : core p -> i <= length w -> (Fails p w i e <-> Peg w p i (KO e)).
  Proof.
    intros C Hi. split.
    - intros (n & E).
      pose proof (try_mat_sound k G no_skip [] no_skip_skipper CE no_skip_implements n [] p w i C Hi) as S.
      unfold try_mat_top in E. unfold tm in S. rewrite E in S. inversion S; subst; auto.
    - intros P. destruct (peg_complete k G no_skip [] no_skip_skipper CE no_skip_implements w p i _ P C Hi eq_refl)
        as [B [n V]].
      destruct (V n (le_n _)) as [_ T]. specialize (T [] i Hi eq_refl). cbn in T.
      exists n. exact T.
  Qed.

  Lemma peg_in p w i b j : core p -> i <= length w -> Peg w p i (OK b j) ->
    i <= b /\ b <= j /\ j <= length w.
  Proof.
    intros C Hi P.
    now destruct (peg_complete k G no_skip [] no_skip_skipper CE no_skip_implements w p i _ P C Hi eq_refl) as [B _].
  Qed.

  Lemma matches_in p w i b j : core p -> i <= length w -> Matches p w i b j ->
    i <= b /\ b <= j /\ j <= length w.
  Proof. intros C Hi M. apply matches_peg in M; auto. now apply peg_in in M. Qed.

  Lemma matches_det p w i b j b' j' : core p -> i <= length w -> Matches p w i b j -> Matches p w i b' j' ->
    b = b' /\ j = j'.
  Proof.
    intros C Hi M M'. apply matches_peg in M; auto. apply matches_peg in M'; auto.
    pose proof (peg_det k G no_skip [] no_skip_skipper CE no_skip_implements w p i _ _ C Hi eq_refl M M') as E.
    now injection E.
  Qed.

  Lemma matches_fails p w i b j e : core p -> i <= length w -> Matches p w i b j -> Fails p w i e -> False.
  Proof.
    intros C Hi M M'. apply matches_peg in M; auto. apply fails_peg in M'; auto.
    pose proof (peg_det k G no_skip [] no_skip_skipper CE no_skip_implements w p i _ _ C Hi eq_refl M M') as E.
    discriminate.
  Qed.

  (** Turn observations into derivations and back. *)
  Ltac down := repeat match goal with
    | H : exists _, _ |- _ => destruct H
    | H : _ /\ _ |- _ => destruct H
    | H : Matches ?p ?w ?i _ _ |- _ =>
        apply (proj1 (matches_peg p w i _ _ ltac:(first [assumption | constructor; assumption]) ltac:(lia))) in H
    | H : Fails ?p ?w ?i _ |- _ =>
        apply (proj1 (fails_peg p w i _ ltac:(first [assumption | constructor; assumption]) ltac:(lia))) in H
    | H : Peg ?w ?p ?i (OK ?b ?j), C : core ?p |- _ =>
        lazymatch goal with
        | _ : b <= j /\ j <= length w |- _ => fail
        | _ : b <= j |- _ => fail
        | _ => let B := fresh "B" in pose proof (peg_in p w i b j C ltac:(lia) H) as B; destruct B as (? & ? & ?)
        end
    end.
  Ltac ns := repeat match goal with
    | H : context [no_skip ?w ?j] |- _ => change (no_skip w j) with j in H
    | |- context [no_skip ?w ?j] => change (no_skip w j) with j
    end.
  Ltac up := repeat match goal with
    | |- Matches _ _ _ _ _ => apply matches_peg; [first [assumption | constructor; assumption]|lia|]
    | |- Fails _ _ _ _ => apply fails_peg; [first [assumption | constructor; assumption]|lia|]
    end.

  Ltac back := repeat match goal with
    | H : Peg ?w ?p ?i (OK ?b ?j) |- _ =>
        apply (proj2 (matches_peg p w i b j ltac:(assumption) ltac:(lia))) in H
    | H : Peg ?w ?p ?i (KO ?e) |- _ =>
        apply (proj2 (fails_peg p w i e ltac:(assumption) ltac:(lia))) in H
    end.
  (** [law C]: prove an equivalence whose left side is an observation of the combinator and whose
      right side describes the parts. *)
  Ltac left_to_right := intros H; down;
    match goal with H : Peg _ _ _ _ |- _ => inversion H; subst; clear H end; ns; down; back; eauto 12.

  (* sequencing *)
  Lemma then_ok p q w i b j : core p -> core q -> i <= length w ->
    (Matches (PThen p q) w i b j <-> exists m b', Matches p w i b m /\ Matches q w m b' j).
  Proof.
    intros Cp Cq Hi. split; [left_to_right|]. intros H; down; up. eapply Peg_then; eauto.
  Qed.
  Lemma then_err p q w i e : core p -> core q -> i <= length w ->
    (Fails (PThen p q) w i e <->
     Fails p w i e \/ exists b m, Matches p w i b m /\ Fails q w m e).
  Proof.
    intros Cp Cq Hi. split; [left_to_right|]. intros [H|H]; down; up;
      [apply Peg_then_ko1|eapply Peg_then_ko2]; eauto.
  Qed.
  Lemma prefix_ok p q w i b j : core p -> core q -> i <= length w ->
    (Matches (PPrefix p q) w i b j <-> exists m b', Matches q w i b m /\ Matches p w m b' j).
  Proof.
    intros Cp Cq Hi. split; [left_to_right|]. intros H; down; up. eapply Peg_prefix; eauto.
  Qed.
  Lemma prefix_err p q w i e : core p -> core q -> i <= length w ->
    (Fails (PPrefix p q) w i e <->
     Fails q w i e \/ exists b m, Matches q w i b m /\ Fails p w m e).
  Proof.
    intros Cp Cq Hi. split; [left_to_right|]. intros [H|H]; down; up;
      [apply Peg_prefix_ko1|eapply Peg_prefix_ko2]; eauto.
  Qed.
  Lemma suffix_ok p q w i b j : core p -> core q -> i <= length w ->
    (Matches (PSuffix p q) w i b j <-> exists m b', Matches p w i b m /\ Matches q w m b' j).
  Proof.
    intros Cp Cq Hi. split; [left_to_right|]. intros H; down; up. eapply Peg_suffix; eauto.
  Qed.
  Lemma suffix_err p q w i e : core p -> core q -> i <= length w ->
    (Fails (PSuffix p q) w i e <->
     Fails p w i e \/ exists b m, Matches p w i b m /\ Fails q w m e).
  Proof.
    intros Cp Cq Hi. split; [left_to_right|]. intros [H|H]; down; up;
      [apply Peg_suffix_ko1|eapply Peg_suffix_ko2]; eauto.
  Qed.
  Lemma enclose_ok p o c w i b j : core p -> core o -> core c -> i <= length w ->
    (Matches (PEnclose p o c) w i b j <->
     exists m b1 m' b2, Matches o w i b m /\ Matches p w m b1 m' /\ Matches c w m' b2 j).
  Proof.
    intros Cp Co Cc Hi. split; [left_to_right|]. intros H; down; up. eapply Peg_enclose; eauto.
  Qed.
  Lemma enclose_err p o c w i e : core p -> core o -> core c -> i <= length w ->
    (Fails (PEnclose p o c) w i e <->
     Fails o w i e \/
     (exists b m, Matches o w i b m /\ Fails p w m e) \/
     (exists b m b1 m', Matches o w i b m /\ Matches p w m b1 m' /\ Fails c w m' e)).
  Proof.
    intros Cp Co Cc Hi. split; [left_to_right|]. intros [H|[H|H]]; down; up;
      [apply Peg_enclose_ko1|eapply Peg_enclose_ko2|eapply Peg_enclose_ko3]; eauto.
  Qed.
  Lemma seponce_ok p s q w i b j : core p -> core s -> core q -> i <= length w ->
    (Matches (PSepOnce p s q) w i b j <->
     b = i /\ exists b0 m b1 m' b2, Matches p w i b0 m /\ Matches s w m b1 m' /\ Matches q w m' b2 j).
  Proof.
    intros Cp Cs Cq Hi. split; [left_to_right|]. intros H; down; subst; up. eapply Peg_seponce; eauto.
  Qed.
  Lemma seponce_err p s q w i e : core p -> core s -> core q -> i <= length w ->
    (Fails (PSepOnce p s q) w i e <->
     Fails p w i e \/
     (exists b m, Matches p w i b m /\ Fails s w m e) \/
     (exists b m b1 m', Matches p w i b m /\ Matches s w m b1 m' /\ Fails q w m' e)).
  Proof.
    intros Cp Cs Cq Hi. split; [left_to_right|]. intros [H|[H|H]]; down; up;
      [apply Peg_seponce_ko1|eapply Peg_seponce_ko2|eapply Peg_seponce_ko3]; eauto.
  Qed.
  Lemma ifthen_ok p t q w i b j : core p -> core t -> core q -> i <= length w ->
    (Matches (PIfThen p t q) w i b j <->
     (exists e, Matches p w i b j /\ Fails t w j e) \/
     (exists m b1 m' b2, Matches p w i b m /\ Matches t w m b1 m' /\ Matches q w m' b2 j)).
  Proof.
    intros Cp Ct Cq Hi. split; [left_to_right|]. intros [H|H]; down; up;
      [eapply Peg_ifthen_no|eapply Peg_ifthen_yes]; eauto.
  Qed.
  Lemma ifthen_err p t q w i e : core p -> core t -> core q -> i <= length w ->
    (Fails (PIfThen p t q) w i e <->
     Fails p w i e \/
     (exists b m b1 m', Matches p w i b m /\ Matches t w m b1 m' /\ Fails q w m' e)).
  Proof.
    intros Cp Ct Cq Hi. split; [left_to_right|]. intros [H|H]; down; up;
      [eapply Peg_ifthen_ko1|eapply Peg_ifthen_ko2]; eauto.
  Qed.

  (* choice *)
  Lemma or_ok p q w i b j : core p -> core q -> i <= length w ->
    (Matches (POr p q) w i b j <->
     Matches p w i b j \/ exists e, Fails p w i e /\ Matches q w i b j).
  Proof.
    intros Cp Cq Hi. split; [left_to_right|]. intros [H|H]; down; up;
      [eapply Peg_or1|eapply Peg_or2]; eauto.
  Qed.
  Lemma or_err p q w i e : core p -> core q -> i <= length w ->
    (Fails (POr p q) w i e <-> exists e', Fails p w i e' /\ Fails q w i e).
  Proof.
    intros Cp Cq Hi. split; [left_to_right|]. intros H; down; up; eapply Peg_or2; eauto.
  Qed.
  Lemma first_ok e ps w i o : Forall core ps -> i <= length w -> First k G no_skip w ps i e o ->
    match o with
    | OK b j => exists pre p post, ps = pre ++ p :: post /\
        (forall q, In q pre -> exists e', Fails q w i e') /\ Matches p w i b j
    | KO e' => e' = e /\ forall q, In q ps -> exists e', Fails q w i e'
    end.
  Proof.
    intros F Hi H. induction H; inversion F; subst; down; back.
    - split; [reflexivity|]. intros q [].
    - exists [], p, ps. split; [reflexivity|]. split; [intros q []|assumption].
    - specialize (IHFirst ltac:(assumption) Hi). destruct o as [b j|].
      + destruct IHFirst as (pre & p0 & post & -> & A & B). exists (p :: pre), p0, post.
        split; [reflexivity|]. split; auto. intros q [<-|I]; eauto.
      + destruct IHFirst as [-> A]. split; [reflexivity|]. intros q [<-|I]; eauto.
  Qed.
  Lemma first_intro e pre p post w i b j : Forall core (pre ++ p :: post) -> i <= length w ->
    (forall q, In q pre -> exists e', Fails q w i e') -> Matches p w i b j ->
    First k G no_skip w (pre ++ p :: post) i e (OK b j).
  Proof.
    intros F Hi A B. induction pre as [|q pre IH]; cbn in *; inversion F; subst.
    - apply First_hit. now apply matches_peg in B.
    - destruct (A q (or_introl eq_refl)) as [e' E]. eapply First_next.
      + apply fails_peg in E; eauto.
      + apply IH; auto.
  Qed.
  Lemma first_none e ps w i : Forall core ps -> i <= length w ->
    (forall q, In q ps -> exists e', Fails q w i e') -> First k G no_skip w ps i e (KO e).
  Proof.
    intros F Hi A. induction F as [|q ps C F IH]; [constructor|].
    destruct (A q (or_introl eq_refl)) as [e' E]. eapply First_next.
    - apply fails_peg in E; eauto.
    - apply IH. intros. apply A. now right.
  Qed.
  Lemma choice_ok e ps w i b j : Forall core ps -> i <= length w ->
    (Matches (PChoice e false ps) w i b j <->
     exists pre p post, ps = pre ++ p :: post /\
       (forall q, In q pre -> exists e', Fails q w i e') /\ Matches p w i b j).
  Proof.
    intros F Hi. assert (C : core (PChoice e false ps)) by now constructor. split.
    - intros H. apply matches_peg in H; auto. inversion H; subst. match goal with H : First _ _ _ _ _ _ _ _ |- _ => now apply first_ok in H end.
    - intros (pre & p & post & -> & A & B). apply matches_peg; auto. constructor. now apply first_intro.
  Qed.
  Lemma choice_err e ps w i e' : Forall core ps -> i <= length w ->
    (Fails (PChoice e false ps) w i e' <->
     e' = e /\ forall q, In q ps -> exists e', Fails q w i e').
  Proof.
    intros F Hi. assert (C : core (PChoice e false ps)) by now constructor. split.
    - intros H. apply fails_peg in H; auto. inversion H; subst. match goal with H : First _ _ _ _ _ _ _ _ |- _ => now apply first_ok in H end.
    - intros (-> & A). apply fails_peg; auto. constructor. now apply first_none.
  Qed.
  Lemma pairchoice_same e ps w i : Forall core (map fst ps) -> i <= length w ->
    (forall b j, Matches (PPairChoice e false ps) w i b j <-> Matches (PChoice e false (map fst ps)) w i b j) /\
    (forall e', Fails (PPairChoice e false ps) w i e' <-> Fails (PChoice e false (map fst ps)) w i e').
  Proof.
    intros F Hi. assert (C : core (PPairChoice e false ps)) by now constructor.
    assert (C' : core (PChoice e false (map fst ps))) by now constructor.
    split; intros; rewrite ?matches_peg, ?fails_peg by auto; split; intros H; inversion H; subst;
      constructor; auto.
  Qed.
  Lemma option_ok p w i b j : core p -> i <= length w ->
    (Matches (POption p) w i b j <->
     Matches p w i b j \/ (b = i /\ j = i /\ exists e, Fails p w i e)).
  Proof.
    intros Cp Hi. split; [left_to_right|]. intros [H|H]; down; subst; up;
      [eapply Peg_option|eapply Peg_option_none]; eauto.
  Qed.
  Lemma option_err p w i e : core p -> i <= length w -> ~ Fails (POption p) w i e.
  Proof. intros Cp Hi H. down. inversion H. Qed.
  Lemma branch_ok t p q w i b j : (forall c, decides (t c)) -> core p -> core q -> i <= length w ->
    (Matches (PBranch t p q) w i b j <->
     (t (cx w i) = Ok true /\ Matches p w i b j) \/ (t (cx w i) = Ok false /\ Matches q w i b j)).
  Proof.
    intros D Cp Cq Hi. assert (C : core (PBranch t p q)) by now constructor.
    rewrite !matches_peg by auto. split.
    - intros H; inversion H; subst; auto.
    - intros [[A H]|[A H]]; [apply Peg_branch_t|apply Peg_branch_f]; auto.
  Qed.
  Lemma branch_err t p q w i e : (forall c, decides (t c)) -> core p -> core q -> i <= length w ->
    (Fails (PBranch t p q) w i e <->
     (t (cx w i) = Ok true /\ Fails p w i e) \/ (t (cx w i) = Ok false /\ Fails q w i e) \/
     t (cx w i) = Err e).
  Proof.
    intros D Cp Cq Hi. assert (C : core (PBranch t p q)) by now constructor.
    rewrite !fails_peg by auto. split.
    - intros H; inversion H; subst; auto.
    - intros [[A H]|[[A H]|A]]; [apply Peg_branch_t|apply Peg_branch_f|apply Peg_branch_e]; auto.
  Qed.

  (* longest of two *)
  Lemma longest_ok p q w i b j : core p -> core q -> starts_here k G no_skip p -> starts_here k G no_skip q ->
    i <= length w ->
    (Matches (PLongest p q) w i b j <->
     b = i /\
     ((exists j', Matches p w i i j /\ Matches q w i i j' /\ j' <= j) \/
      (exists j', Matches p w i i j' /\ Matches q w i i j /\ j' < j) \/
      (exists e, Matches p w i i j /\ Fails q w i e) \/
      (exists e, Fails p w i e /\ Matches q w i i j))).
  Proof.
    intros Cp Cq Sp Sq Hi. assert (C : core (PLongest p q)) by now constructor. split.
    - intros H. apply matches_peg in H; auto. inversion H; subst; down; back; split; eauto 10.
    - intros [-> H]. apply matches_peg; auto. destruct H as [H|[H|[H|H]]]; down.
      + eapply Peg_longest_l; eauto.
      + eapply Peg_longest_r; eauto.
      + eapply Peg_longest_l1; eauto.
      + eapply Peg_longest_r1; eauto.
  Qed.
  Lemma longest_err p q w i e : core p -> core q -> starts_here k G no_skip p -> starts_here k G no_skip q ->
    i <= length w ->
    (Fails (PLongest p q) w i e <-> exists e', Fails p w i e' /\ Fails q w i e).
  Proof.
    intros Cp Cq Sp Sq Hi. assert (C : core (PLongest p q)) by now constructor. split.
    - intros H. apply fails_peg in H; auto. inversion H; subst; down; back; eauto 10.
    - intros H; down. apply fails_peg; auto. eapply Peg_longest_ko; eauto.
  Qed.

  (* lookahead *)
  Lemma peek_ok p v w i b j : core p -> i <= length w ->
    (Matches (PAssert p v) w i b j <->
     b = i /\ j = i /\ if v then exists b' j', Matches p w i b' j' else exists e, Fails p w i e).
  Proof.
    intros Cp Hi. assert (C : core (PAssert p v)) by now constructor. split.
    - intros H. apply matches_peg in H; auto. inversion H; subst; down; back; eauto 10.
    - intros (-> & -> & H). apply matches_peg; auto. destruct v; down.
      + eapply Peg_peek; eauto.
      + eapply Peg_not; eauto.
  Qed.
  Lemma peek_err p v w i e : core p -> i <= length w ->
    (Fails (PAssert p v) w i e <->
     if v then e = EAssertTrue /\ exists e', Fails p w i e'
     else e = EAssertFalse /\ exists b' j', Matches p w i b' j').
  Proof.
    intros Cp Hi. assert (C : core (PAssert p v)) by now constructor. split.
    - intros H. apply fails_peg in H; auto. inversion H; subst; down; back; eauto 10.
    - intros H. apply fails_peg; auto. destruct v; down; subst.
      + eapply Peg_peek_ko; eauto.
      + eapply Peg_not_ko; eauto.
  Qed.

  (* repetition *)
  Definition step_of p w i j := exists b, Matches p w i b j.
  Definition stop_of p w i := exists e, Fails p w i e.

  Lemma limit_is_cap r : limit_of r = cap r. Proof. reflexivity. Qed.
  Lemma contains_in r n : crange_contains r n = true <-> InRange r n.
  Proof.
    destruct r as [lo hi]. unfold crange_contains, InRange; cbn [r_lo r_hi].
    rewrite andb_true_iff. destruct lo, hi; rewrite ?Nat.leb_le, ?Nat.ltb_lt; intuition lia.
  Qed.
  Lemma contains_not r n : crange_contains r n = false <-> ~ InRange r n.
  Proof. rewrite <- contains_in. destruct (crange_contains r n); intuition congruence. Qed.

  Lemma reps_in p w lim i n j : core p -> Reps k G no_skip w p lim i n j -> i <= length w ->
    i <= j /\ j <= length w.
  Proof.
    intros C H. induction H; intros Hi; ns; auto.
    destruct (peg_in _ _ _ _ _ C Hi H0) as (? & ? & ?). specialize (IHReps C ltac:(lia)). lia.
  Qed.
  Lemma reps_greedy p w lim i n j : core p -> i <= length w ->
    (Reps k G no_skip w p lim i n j <-> Greedy (step_of p w) (stop_of p w) lim i n j).
  Proof.
    intros C Hi. split.
    - intros H. revert Hi. induction H; intros Hi; ns.
      + constructor.
      + apply greedy_stop; auto. exists e. now apply fails_peg.
      + pose proof (peg_in _ _ _ _ _ C Hi H0). apply (greedy_step _ _ _ _ j); auto.
        * exists b. now apply matches_peg.
        * apply IHReps; auto. lia.
    - intros H. revert Hi. induction H; intros Hi.
      + constructor.
      + destruct H0 as [e E]. apply fails_peg in E; auto. eapply Reps_stop; eauto.
      + destruct H0 as [b E]. pose proof (matches_in _ _ _ _ _ C Hi E). apply matches_peg in E; auto. eapply Reps_step; eauto.
        apply IHGreedy. lia.
  Qed.
  Lemma seps_alt p s w lim i n j : core p -> core s -> i <= length w ->
    (Seps k G no_skip w p s lim i n j <->
     Alternation (step_of p w) (step_of s w) (stop_of p w) (stop_of s w) lim i n j).
  Proof.
    intros C Cs Hi. split.
    - intros H. revert Hi. induction H; intros Hi; ns.
      + constructor.
      + apply alt_none; auto. exists e. now apply fails_peg.
      + pose proof (peg_in _ _ _ _ _ C Hi H0). apply alt_last; auto.
        * exists b. now apply matches_peg.
        * exists e. apply fails_peg; auto. lia.
      + pose proof (peg_in _ _ _ _ _ C Hi H0). pose proof (peg_in s w j b' j' Cs ltac:(lia) H1).
        apply (alt_more _ _ _ _ _ _ j j'); auto.
        * exists b. now apply matches_peg.
        * exists b'. apply matches_peg; auto. lia.
        * apply IHSeps; auto. lia.
    - intros H. revert Hi. induction H; intros Hi.
      + constructor.
      + destruct H0 as [e E]. apply fails_peg in E; auto. eapply Seps_stop; eauto.
      + destruct H0 as [b E]. destruct H1 as [e E']. pose proof (matches_in _ _ _ _ _ C Hi E).
        apply matches_peg in E; auto. apply fails_peg in E'; auto; [|lia]. eapply Seps_last; eauto.
      + destruct H0 as [b E]. destruct H1 as [b' E']. pose proof (matches_in _ _ _ _ _ C Hi E).
        assert (Hj : j <= length w) by lia. pose proof (matches_in _ _ _ _ _ Cs Hj E').
        apply matches_peg in E; auto. apply matches_peg in E'; auto. eapply Seps_step; eauto.
        apply IHAlternation. lia.
  Qed.

  Lemma repeat_ok p r w i b j : core p -> i <= length w ->
    (Matches (PRepeat p r) w i b j <->
     b = i /\ exists n, Greedy (step_of p w) (stop_of p w) (cap r) i n j /\ InRange r n).
  Proof.
    intros Cp Hi. assert (C : core (PRepeat p r)) by now constructor. rewrite matches_peg by auto. split.
    - intros H. inversion H; subst. split; auto. exists n. rewrite <- contains_in. split; auto.
      now apply reps_greedy.
    - intros (-> & n & H & I). rewrite <- contains_in in I. apply (proj2 (reps_greedy _ _ _ _ _ _ Cp Hi)) in H. eapply Peg_repeat; eauto.
  Qed.
  Lemma repeat_err p r w i e : core p -> i <= length w ->
    (Fails (PRepeat p r) w i e <->
     e = ERepeat /\ exists n j, Greedy (step_of p w) (stop_of p w) (cap r) i n j /\ ~ InRange r n).
  Proof.
    intros Cp Hi. assert (C : core (PRepeat p r)) by now constructor. rewrite fails_peg by auto. split.
    - intros H. inversion H; subst. split; auto. exists n, j. rewrite <- contains_not. split; auto.
      now apply reps_greedy.
    - intros (-> & n & j & H & I). rewrite <- contains_not in I. apply (proj2 (reps_greedy _ _ _ _ _ _ Cp Hi)) in H. eapply Peg_repeat_ko; eauto.
  Qed.
  Lemma repeat2_ok p m l w i b j : core p -> i <= length w ->
    (Matches (PRepeat2 p m l) w i b j <->
     b = i /\ exists n, Greedy (step_of p w) (stop_of p w) (Some (S l)) i n j /\ m <= n /\ n <= l).
  Proof.
    intros Cp Hi. assert (C : core (PRepeat2 p m l)) by now constructor. rewrite matches_peg by auto. split.
    - intros H. inversion H; subst. split; auto. exists n. split; auto. now apply reps_greedy.
    - intros (-> & n & H & I & I'). apply (proj2 (reps_greedy _ _ _ _ _ _ Cp Hi)) in H. eapply Peg_repeat2; eauto.
  Qed.
  Lemma repeat2_err p m l w i e : core p -> i <= length w ->
    (Fails (PRepeat2 p m l) w i e <->
     e = ERepeat2 /\ exists n j, Greedy (step_of p w) (stop_of p w) (Some (S l)) i n j /\ (n < m \/ l < n)).
  Proof.
    intros Cp Hi. assert (C : core (PRepeat2 p m l)) by now constructor. rewrite fails_peg by auto. split.
    - intros H. inversion H; subst. split; auto. exists n, j. split; auto. now apply reps_greedy.
    - intros (-> & n & j & H & I). apply (proj2 (reps_greedy _ _ _ _ _ _ Cp Hi)) in H. eapply Peg_repeat2_ko; eauto.
  Qed.
  Lemma collect_ok p mn w i b j : core p -> i <= length w ->
    (Matches (PCollect p mn) w i b j <->
     b = i /\ exists n, Greedy (step_of p w) (stop_of p w) None i n j /\ mn <= n).
  Proof.
    intros Cp Hi. assert (C : core (PCollect p mn)) by now constructor. rewrite matches_peg by auto. split.
    - intros H. inversion H; subst. split; auto. exists n. split; auto. now apply reps_greedy.
    - intros (-> & n & H & I). apply (proj2 (reps_greedy _ _ _ _ _ _ Cp Hi)) in H. eapply Peg_collect; eauto.
  Qed.
  Lemma collect_err p mn w i e : core p -> i <= length w ->
    (Fails (PCollect p mn) w i e <->
     e = ECollect /\ exists n j, Greedy (step_of p w) (stop_of p w) None i n j /\ n < mn).
  Proof.
    intros Cp Hi. assert (C : core (PCollect p mn)) by now constructor. rewrite fails_peg by auto. split.
    - intros H. inversion H; subst. split; auto. exists n, j. split; auto. now apply reps_greedy.
    - intros (-> & n & j & H & I). apply (proj2 (reps_greedy _ _ _ _ _ _ Cp Hi)) in H. eapply Peg_collect_ko; eauto.
  Qed.
  Notation Alt p s w := (Alternation (step_of p w) (step_of s w) (stop_of p w) (stop_of s w)).
  Lemma sep_ok p s mn w i b j : core p -> core s -> i <= length w ->
    (Matches (PSep p s mn true) w i b j <-> b = i /\ exists n, Alt p s w None i n j /\ mn <= n).
  Proof.
    intros Cp Cs Hi. assert (C : core (PSep p s mn true)) by now constructor. rewrite matches_peg by auto. split.
    - intros H. inversion H; subst. split; auto. exists n. split; auto. now apply seps_alt.
    - intros (-> & n & H & I). apply (proj2 (seps_alt _ _ _ _ _ _ _ Cp Cs Hi)) in H. eapply Peg_sep; eauto.
  Qed.
  Lemma sep_err p s mn w i e : core p -> core s -> i <= length w ->
    (Fails (PSep p s mn true) w i e <-> e = ESeparate /\ exists n j, Alt p s w None i n j /\ n < mn).
  Proof.
    intros Cp Cs Hi. assert (C : core (PSep p s mn true)) by now constructor. rewrite fails_peg by auto. split.
    - intros H. inversion H; subst. split; auto. exists n, j. split; auto. now apply seps_alt.
    - intros (-> & n & j & H & I). apply (proj2 (seps_alt _ _ _ _ _ _ _ Cp Cs Hi)) in H. eapply Peg_sep_ko; eauto.
  Qed.
  Lemma sepcollect_ok p s mn w i b j : core p -> core s -> i <= length w ->
    (Matches (PSepCollect p s mn true) w i b j <-> b = i /\ exists n, Alt p s w None i n j /\ mn <= n).
  Proof.
    intros Cp Cs Hi. assert (C : core (PSepCollect p s mn true)) by now constructor.
    rewrite matches_peg by auto. split.
    - intros H. inversion H; subst. split; auto. exists n. split; auto. now apply seps_alt.
    - intros (-> & n & H & I). apply (proj2 (seps_alt _ _ _ _ _ _ _ Cp Cs Hi)) in H. eapply Peg_sepcollect; eauto.
  Qed.
  Lemma sepcollect_err p s mn w i e : core p -> core s -> i <= length w ->
    (Fails (PSepCollect p s mn true) w i e <->
     e = ESepCollect /\ exists n j, Alt p s w None i n j /\ n < mn).
  Proof.
    intros Cp Cs Hi. assert (C : core (PSepCollect p s mn true)) by now constructor.
    rewrite fails_peg by auto. split.
    - intros H. inversion H; subst. split; auto. exists n, j. split; auto. now apply seps_alt.
    - intros (-> & n & j & H & I). apply (proj2 (seps_alt _ _ _ _ _ _ _ Cp Cs Hi)) in H. eapply Peg_sepcollect_ko; eauto.
  Qed.
  Lemma sep2_ok p s m l w i b j : core p -> core s -> i <= length w ->
    (Matches (PSep2 p s m l true) w i b j <->
     b = i /\ exists n, Alt p s w (Some (S l)) i n j /\ m <= n).
  Proof.
    intros Cp Cs Hi. assert (C : core (PSep2 p s m l true)) by now constructor.
    rewrite matches_peg by auto. split.
    - intros H. inversion H; subst. split; auto. exists n. split; auto. now apply seps_alt.
    - intros (-> & n & H & I). apply (proj2 (seps_alt _ _ _ _ _ _ _ Cp Cs Hi)) in H. eapply Peg_sep2; eauto.
  Qed.
  Lemma sep2_err p s m l w i e : core p -> core s -> i <= length w ->
    (Fails (PSep2 p s m l true) w i e <->
     e = ESeparate2 /\ exists n j, Alt p s w (Some (S l)) i n j /\ n < m).
  Proof.
    intros Cp Cs Hi. assert (C : core (PSep2 p s m l true)) by now constructor.
    rewrite fails_peg by auto. split.
    - intros H. inversion H; subst. split; auto. exists n, j. split; auto. now apply seps_alt.
    - intros (-> & n & j & H & I). apply (proj2 (seps_alt _ _ _ _ _ _ _ Cp Cs Hi)) in H. eapply Peg_sep2_ko; eauto.
  Qed.
End Laws.
