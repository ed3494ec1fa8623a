(** Parsers on a string context that skips runs of a unit, described as relations between the text in
    front of the cursor before and after. *)

From Coq Require Import List Arith NArith Bool Lia.
From Verif Require Import Base Text Context Neu Syntax Regex Ctor Api TextProofs Spec Units Core Sound
  Complete Mono Atomic Obs Laws UnitLaws UnitProps CtorSpec CtorSound CtorLaws CtorShape PolicyLaws TermLaws Term Pieces SkipPieces.
Import ListNotations.

Section Skipped.
  Variable u : neu.
  Notation f := (is_match u).
  Notation sk := (skip_run u).
  Notation pols := [PMany0 u CEmpty].
  Notation Peg := (Peg KStr [] sk).
  Notation Tree := (Tree KStr [] sk is_slice).
  Notation tcore := (tcore KStr [] sk is_slice).
  Notation core := (core KStr [] sk).
  Notation tr := (trim f).
  Let SK := skip_run_skipper u.
  Let IM := many0_implements KStr [] u [].

  Lemma s_tenv : tcore_env KStr [] sk is_slice.
  Proof. intros x p E. destruct x; discriminate. Qed.
  Lemma s_env : core_env KStr [] sk.
  Proof. intros x p E. destruct x; discriminate. Qed.

  (** What a parser consumes and what it builds. *)
  Definition Eats (p : pat) (E : text -> text -> Prop) : Prop :=
    forall w i t, i <= length w -> sk w i = i -> ((exists b j, Peg w p i (OK b j) /\ skipn j w = t) <-> E (skipn i w) t).
  Definition Makes (p : pat) (R : text -> val -> text -> Prop) : Prop :=
    forall w i v t, i <= length w -> sk w i = i -> ((exists j, Tree w p i v j /\ skipn j w = t) <-> R (skipn i w) v t).
  Definition fine (p : pat) : Prop := core p /\ wfb (fun _ => false) (fun _ => 0) 0 0 p = true.
  Definition tfine (p : pat) : Prop := tcore p /\ wfb (fun _ => false) (fun _ => 0) 0 0 p = true.

  Lemma tfine_fine p : tfine p -> fine p.
  Proof. intros [A B]. split; [exact (tcore_core _ _ _ _ _ A)|exact B]. Qed.
  Lemma sk_tr w i : skipn (sk w i) w = tr (skipn i w).
  Proof. apply skip_trim. Qed.
  Lemma s_le w i : i <= length w -> sk w i <= length w.
  Proof. apply (sk_le sk SK). Qed.
  Lemma s_idem w i : i <= length w -> sk w (sk w i) = sk w i.
  Proof. apply (sk_idem sk SK). Qed.
  Lemma s_bnd w p i b j : core p -> i <= length w -> sk w i = i -> Peg w p i (OK b j) -> i <= j <= length w.
  Proof. intros A B C D. destruct (bnd KStr [] sk pols is_slice SK s_tenv IM w p i b j A B C D) as (X & Y & _). lia. Qed.
  Lemma s_tbnd w p i v j : tcore p -> i <= length w -> sk w i = i -> Tree w p i v j -> i <= j <= length w.
  Proof. intros A B C D. destruct (ttb KStr [] sk pols is_slice SK s_tenv IM w p i v j D A B C) as (X & Y & _). lia. Qed.

  Lemma ko_iff p w i : fine p -> i <= length w -> sk w i = i ->
    ((exists e, Peg w p i (KO e)) <-> ~ exists b j, Peg w p i (OK b j)).
  Proof.
    intros [C W] Hi E. split.
    - intros (e & K) (b & j & O). pose proof (pdet KStr [] sk pols is_slice SK s_tenv IM w p i _ _ C Hi E K O). discriminate.
    - intros N. destruct (peg_total KStr [] sk (fun _ => 0) SK s_env ltac:(intros x q X; destruct x; discriminate) pols IM 0 p) with (w := w) (i := i) as [[b j|e] P]; auto.
      + apply (wfb_wf KStr [] sk pols SK IM s_env (fun _ => false) (fun _ => 0) 0); auto. intros x q X; destruct x; discriminate.
      + exfalso. eauto.
      + eauto.
  Qed.
  Lemma eats_ko p E w i : fine p -> Eats p E -> i <= length w -> sk w i = i ->
    ((exists e, Peg w p i (KO e)) <-> ~ exists t, E (skipn i w) t).
  Proof.
    intros F H Hi Hs. rewrite (ko_iff p w i F Hi Hs). split.
    - intros N (t & X). apply (H w i t Hi Hs) in X as (b & j & P & _). eauto.
    - intros N (b & j & P). apply N. exists (skipn j w). apply (H w i _ Hi Hs). eauto.
  Qed.
  Lemma peg_tree p w i b j : tcore p -> i <= length w -> sk w i = i -> Peg w p i (OK b j) -> exists v, Tree w p i v j.
  Proof.
    intros C Hi Hs P. rewrite <- Hs in P.
    destruct (peg_builds KStr [] sk pols is_slice extract_text SK s_tenv IM (extract_text_slice KStr) p w i tt _ C Hi P) as (r & c' & st & B & v & ->).
    destruct (builds_spec KStr [] sk pols is_slice extract_text SK s_tenv IM (extract_text_slice KStr) p w i tt _ _ _ C Hi B)
      as [(v' & j' & y & X & _ & T & _)|(e & y & X & _)]; [|discriminate].
    injection X as <-. rewrite Hs in *. destruct (tree_peg _ _ _ _ s_tenv _ _ _ _ _ T C) as (b' & P').
    pose proof (pdet KStr [] sk pols is_slice SK s_tenv IM w p i _ _ (tcore_core _ _ _ _ _ C) Hi Hs P P') as X. injection X as -> ->. eauto.
  Qed.
  Lemma makes_eats p R : tcore p -> Makes p R -> Eats p (fun r t => exists v, R r v t).
  Proof.
    intros C H w i t Hi Hs. split.
    - intros (b & j & P & <-). destruct (peg_tree p w i b j C Hi Hs P) as (v & T). exists v. apply (H w i v _ Hi Hs). eauto.
    - intros (v & X). apply (H w i v t Hi Hs) in X as (j & T & <-). destruct (tree_peg _ _ _ _ s_tenv _ _ _ _ _ T C) as (b & P). eauto.
  Qed.
  Lemma makes_ko p R w i : tfine p -> Makes p R -> i <= length w -> sk w i = i ->
    ((exists e, Peg w p i (KO e)) <-> ~ exists v t, R (skipn i w) v t).
  Proof.
    intros F H Hi Hs. rewrite (eats_ko p _ w i (tfine_fine p F) (makes_eats p R (proj1 F) H) Hi Hs).
    split; intros N; [intros (v & t & X)|intros (t & v & X)]; apply N; eauto.
  Qed.
  Lemma makes_ext p R R' : (forall r v t, R r v t <-> R' r v t) -> Makes p R -> Makes p R'.
  Proof. intros X H w i v t Hi Hs. rewrite <- X. now apply H. Qed.
  Lemma makes_ext' p R R' : (forall r v t, tr r = r -> (R r v t <-> R' r v t)) -> Makes p R -> Makes p R'.
  Proof. intros X H w i v t Hi Hs. rewrite <- X; [now apply H|]. rewrite <- sk_tr. now rewrite Hs. Qed.
  Lemma eats_ext p E E' : (forall r t, E r t <-> E' r t) -> Eats p E -> Eats p E'.
  Proof. intros X H w i t Hi Hs. rewrite <- X. now apply H. Qed.

  (** Leaves. *)
  Lemma lit_eats l : Eats (PLit l) (fun r t => r = l ++ t).
  Proof.
    intros w i t Hi _. split.
    - intros (b & j & P & <-). apply peg_lit in P as (-> & -> & t & E). rewrite skipn_add, E, skipn_app, skipn_all, Nat.sub_diag. reflexivity.
    - intros E. exists i, (i + length l). split; [apply peg_lit; eauto|]. now rewrite skipn_add, E, skipn_app, skipn_all, Nat.sub_diag.
  Qed.
  Lemma lit_fine l : fine (PLit l).
  Proof. split; [constructor|reflexivity]. Qed.
  Lemma slice_pre w i j : i <= j -> skipn i w = slice w i j ++ skipn j w.
  Proof.
    intros L. unfold slice. replace (skipn j w) with (skipn (j - i) (skipn i w)); [now rewrite firstn_skipn|].
    rewrite <- skipn_add. f_equal. lia.
  Qed.
  Lemma slice_is w i s t : skipn i w = s ++ t -> slice w i (i + length s) = s.
  Proof. intros E. unfold slice. replace (i + length s - i) with (length s) by lia. rewrite E, firstn_app, firstn_all, Nat.sub_diag. apply app_nil_r. Qed.
  (** A leaf whose span starts at the cursor. *)
  Lemma leaf_makes p E : leafy p -> core p -> (forall w i b j, Peg w p i (OK b j) -> b = i) -> Eats p E ->
    Makes p (fun r v t => exists s, r = s ++ t /\ E r t /\ v = VText s).
  Proof.
    intros L C B H w i v t Hi Hs. split.
    - intros (j & T & <-). apply tr_leaf in T as (b & P & ->); [|exact L]. pose proof (s_bnd w p i b j C Hi Hs P) as X.
      pose proof (B _ _ _ _ P) as ->. exists (slice w i j). split; [now apply slice_pre|]. split; [|reflexivity]. apply (H w i _ Hi Hs). eauto.
    - intros (s & E1 & X & ->). apply (H w i t Hi Hs) in X as (b & j & P & <-). exists j. split; [|reflexivity].
      apply tr_leaf; [exact L|]. exists b. split; [exact P|]. pose proof (B _ _ _ _ P) as ->.
      pose proof (s_bnd w p i i j C Hi Hs P) as X. rewrite (slice_pre w i j ltac:(lia)) in E1. apply app_inv_tail in E1. now subst s.
  Qed.
  Lemma lit_makes l : Makes (PLit l) (fun r v t => r = l ++ t /\ v = VText l).
  Proof.
    eapply makes_ext; [|apply (leaf_makes (PLit l) (fun r t => r = l ++ t) I); [constructor| |apply lit_eats]].
    - intros r v t; cbn. split.
      + intros (s & -> & E & ->). apply app_inv_tail in E as ->. auto.
      + intros (-> & ->). eauto.
    - intros w i b j P. now apply peg_lit in P as (-> & _).
  Qed.

  (** A run of a unit: it takes everything it can. *)
  Definition Run_of (n : neu) (r s t : text) : Prop :=
    r = s ++ t /\ Forall (fun x => is_match n x = true) s /\ trim (is_match n) t = t.
  Lemma run_of n r s t : Run_of n r s t <-> s = firstn (prefix_len (is_match n) r) r /\ t = skipn (prefix_len (is_match n) r) r.
  Proof.
    split.
    - intros (-> & F & T). assert (L : prefix_len (is_match n) (s ++ t) = length s).
      { clear - F T. induction F as [|x s M _ IH]; cbn.
        - destruct t as [|y t]; [reflexivity|]. cbn in *. destruct (is_match n y) eqn:E; [|reflexivity].
          exfalso. destruct (trim_split (is_match n) t) as (g & G1 & _). apply (f_equal (@length item)) in G1, T.
          rewrite app_length in G1. cbn in T. lia.
        - now rewrite M, IH. }
      rewrite L, firstn_app, firstn_all, Nat.sub_diag, skipn_app, skipn_all, Nat.sub_diag. cbn. now rewrite app_nil_r.
    - intros (-> & ->). split; [now rewrite firstn_skipn|]. split.
      + clear. induction r as [|x r IH]; cbn; [constructor|]. destruct (is_match n x) eqn:E; cbn; constructor; auto.
      + rewrite <- !trim_skip. apply trim_idem.
  Qed.
  Lemma many1_eats n : Eats (PMany1 n CEmpty) (fun r t => exists s, Run_of n r s t /\ s <> []).
  Proof.
    intros w i t Hi _. split.
    - intros (b & j & P & <-). apply peg_many1 in P as (-> & -> & L). rewrite skipn_add.
      exists (firstn (prefix_len (is_match n) (skipn i w)) (skipn i w)). split; [now apply run_of|].
      intros X. apply (f_equal (@length item)) in X. rewrite firstn_length in X. cbn in X. pose proof (prefix_len_le (is_match n) (skipn i w)). lia.
    - intros (s & R & N). apply run_of in R as (Es & Et). eexists i, _. split; [apply peg_many1; repeat split|].
      + destruct (prefix_len (is_match n) (skipn i w)); [cbn in Es; now elim N|lia].
      + now rewrite skipn_add, Et.
  Qed.
  Lemma many1_makes n : Makes (PMany1 n CEmpty) (fun r v t => exists s, Run_of n r s t /\ s <> [] /\ v = VText s).
  Proof.
    eapply makes_ext; [|apply (leaf_makes (PMany1 n CEmpty) (fun r t => exists s, Run_of n r s t /\ s <> []) I); [repeat constructor| |apply many1_eats]].
    - intros r v t; cbn. split.
      + intros (s & E & (s' & R & N) & ->). pose proof R as (E' & _). rewrite E in E'. apply app_inv_tail in E' as <-. eauto.
      + intros (s & R & N & ->). exists s. split; [exact (proj1 R)|]. eauto.
    - intros w i b j P. now apply peg_many1 in P as (-> & _).
  Qed.

  (** Combinators. *)
  Lemma then_makes p q R S : tcore p -> Makes p R -> Makes q S ->
    Makes (PThen p q) (fun r v t => exists a m b, R r a m /\ S (tr m) b t /\ v = VPair a b).
  Proof.
    intros C P Q w i v t Hi Hs. split.
    - intros (j & T & <-). apply tr_then in T as (a & m & b & A & B & ->). pose proof (s_tbnd _ _ _ _ _ C Hi Hs A) as L.
      exists a, (skipn m w), b. split; [apply (P w i a _ Hi Hs); eauto|]. split; [|reflexivity].
      rewrite <- sk_tr. apply Q; [apply s_le; lia|apply s_idem; lia|]. eauto.
    - intros (a & m & b & A & B & ->). apply (P w i a m Hi Hs) in A as (x & A & <-). pose proof (s_tbnd _ _ _ _ _ C Hi Hs A) as L.
      rewrite <- sk_tr in B. apply Q in B as (j & B & <-); [|apply s_le; lia|apply s_idem; lia].
      exists j. split; [|reflexivity]. apply tr_then. eauto 7.
  Qed.
  Lemma prefix_makes p q R E : core q -> Makes p R -> Eats q E ->
    Makes (PPrefix p q) (fun r v t => exists m, E r m /\ R (tr m) v t).
  Proof.
    intros C P Q w i v t Hi Hs. split.
    - intros (j & T & <-). apply tr_prefix in T as (b & m & A & B). pose proof (s_bnd _ _ _ _ _ C Hi Hs A) as L.
      exists (skipn m w). split; [apply (Q w i _ Hi Hs); eauto|]. rewrite <- sk_tr. apply P; [apply s_le; lia|apply s_idem; lia|]. eauto.
    - intros (m & A & B). apply (Q w i m Hi Hs) in A as (b & x & A & <-). pose proof (s_bnd _ _ _ _ _ C Hi Hs A) as L.
      rewrite <- sk_tr in B. apply P in B as (j & B & <-); [|apply s_le; lia|apply s_idem; lia].
      exists j. split; [|reflexivity]. apply tr_prefix. eauto 7.
  Qed.
  Lemma suffix_makes p q R E : tcore p -> Makes p R -> Eats q E ->
    Makes (PSuffix p q) (fun r v t => exists m, R r v m /\ E (tr m) t).
  Proof.
    intros C P Q w i v t Hi Hs. split.
    - intros (j & T & <-). apply tr_suffix in T as (m & b & A & B). pose proof (s_tbnd _ _ _ _ _ C Hi Hs A) as L.
      exists (skipn m w). split; [apply (P w i v _ Hi Hs); eauto|]. rewrite <- sk_tr. apply Q; [apply s_le; lia|apply s_idem; lia|]. eauto.
    - intros (m & A & B). apply (P w i v m Hi Hs) in A as (x & A & <-). pose proof (s_tbnd _ _ _ _ _ C Hi Hs A) as L.
      rewrite <- sk_tr in B. apply Q in B as (b & j & B & <-); [|apply s_le; lia|apply s_idem; lia].
      exists j. split; [|reflexivity]. apply tr_suffix. eauto 7.
  Qed.
  Lemma enclose_makes p o c R E F : tcore p -> core o -> Makes p R -> Eats o E -> Eats c F ->
    Makes (PEnclose p o c) (fun r v t => exists m m', E r m /\ R (tr m) v m' /\ F (tr m') t).
  Proof.
    intros C CO P O Q w i v t Hi Hs. split.
    - intros (j & T & <-). apply tr_enclose in T as (b & m & m' & b' & A & B & D). pose proof (s_bnd _ _ _ _ _ CO Hi Hs A) as L.
      pose proof (s_tbnd _ _ _ _ _ C (s_le w m ltac:(lia)) (s_idem w m ltac:(lia)) B) as L'.
      exists (skipn m w), (skipn m' w). split; [apply (O w i _ Hi Hs); eauto|].
      split; rewrite <- sk_tr; [apply P|apply Q]; try (apply s_le; lia); try (apply s_idem; lia); eauto.
    - intros (m & m' & A & B & D). apply (O w i m Hi Hs) in A as (b & x & A & <-). pose proof (s_bnd _ _ _ _ _ CO Hi Hs A) as L.
      rewrite <- sk_tr in B. apply P in B as (y & B & <-); [|apply s_le; lia|apply s_idem; lia].
      pose proof (s_tbnd _ _ _ _ _ C (s_le w x ltac:(lia)) (s_idem w x ltac:(lia)) B) as L'.
      rewrite <- sk_tr in D. apply Q in D as (b' & j & D & <-); [|apply s_le; lia|apply s_idem; lia].
      exists j. split; [|reflexivity]. apply tr_enclose. eauto 9.
  Qed.
  Lemma seponce_makes p s q R E S : tcore p -> core s -> Makes p R -> Eats s E -> Makes q S ->
    Makes (PSepOnce p s q) (fun r v t => exists a m m' b, R r a m /\ E (tr m) m' /\ S (tr m') b t /\ v = VPair a b).
  Proof.
    intros C CS P O Q w i v t Hi Hs. split.
    - intros (j & T & <-). apply tr_seponce in T as (a & m & b & m' & c & A & B & D & ->). pose proof (s_tbnd _ _ _ _ _ C Hi Hs A) as L.
      pose proof (s_bnd _ _ _ _ _ CS (s_le w m ltac:(lia)) (s_idem w m ltac:(lia)) B) as L'.
      exists a, (skipn m w), (skipn m' w), c. split; [apply (P w i _ _ Hi Hs); eauto|].
      split; [|split; [|reflexivity]]; rewrite <- sk_tr; [apply O|apply Q]; try (apply s_le; lia); try (apply s_idem; lia); eauto.
    - intros (a & m & m' & c & A & B & D & ->). apply (P w i a m Hi Hs) in A as (x & A & <-). pose proof (s_tbnd _ _ _ _ _ C Hi Hs A) as L.
      rewrite <- sk_tr in B. apply O in B as (b & y & B & <-); [|apply s_le; lia|apply s_idem; lia].
      pose proof (s_bnd _ _ _ _ _ CS (s_le w x ltac:(lia)) (s_idem w x ltac:(lia)) B) as L'.
      rewrite <- sk_tr in D. apply Q in D as (j & D & <-); [|apply s_le; lia|apply s_idem; lia].
      exists j. split; [|reflexivity]. apply tr_seponce. eauto 12.
  Qed.
  Lemma map_makes p g R : Makes p R -> Makes (PMap p g) (fun r v t => exists a, R r a t /\ g a = Ok v).
  Proof.
    intros P w i v t Hi Hs. split.
    - intros (j & T & <-). apply tr_map in T as (a & A & E). exists a. split; [apply (P w i a _ Hi Hs); eauto|exact E].
    - intros (a & A & E). apply (P w i a t Hi Hs) in A as (j & A & <-). exists j. split; [|reflexivity]. apply tr_map. eauto.
  Qed.
  Lemma wrap_makes p R : Makes p R -> Makes (PWrap p) R.
  Proof. intros P w i v t Hi Hs. rewrite <- (P w i v t Hi Hs). split; intros (j & T & E); exists j; split; auto; now apply (tr_wrap KStr [] sk is_slice p). Qed.
  Lemma or_makes p q R S : tfine p -> Makes p R -> Makes q S ->
    Makes (POr p q) (fun r v t => R r v t \/ (~ (exists v t, R r v t) /\ S r v t)).
  Proof.
    intros C P Q w i v t Hi Hs. rewrite <- (P w i v t Hi Hs), <- (Q w i v t Hi Hs), <- (makes_ko p R w i C P Hi Hs). split.
    - intros (j & T & E). apply tr_or in T as [A|(e & K & B)]; eauto 7.
    - intros [(j & A & E)|((e & K) & j & B & E)]; exists j; split; auto; apply tr_or; eauto.
  Qed.
  Lemma option_makes p R : tfine p -> Makes p R ->
    Makes (POption p) (fun r v t => (exists a, R r a t /\ v = VSome a) \/ (~ (exists v t, R r v t) /\ v = VNone /\ t = r)).
  Proof.
    intros C P w i v t Hi Hs. rewrite <- (makes_ko p R w i C P Hi Hs). split.
    - intros (j & T & E). apply tr_option in T as [(a & A & ->)|(e & K & -> & ->)].
      + left. exists a. split; [|reflexivity]. apply (P w i a t Hi Hs). eauto.
      + right. eauto.
    - intros [(a & A & ->)|((e & K) & -> & ->)].
      + apply (P w i a t Hi Hs) in A as (j & A & E). exists j. split; [|exact E]. apply tr_option. eauto.
      + exists i. split; [|reflexivity]. apply tr_option. eauto.
  Qed.

  (** Repetitions. *)
  Inductive Each (R : text -> val -> text -> Prop) : text -> list val -> text -> Prop :=
  | Each_stop r : (~ exists v t, R (tr r) v t) -> Each R r [] r
  | Each_step r v m vs t : R (tr r) v m -> Each R m vs t -> Each R r (v :: vs) t.
  Inductive Between (R : text -> val -> text -> Prop) (E : text -> text -> Prop) : text -> list val -> text -> Prop :=
  | Between_stop r : (~ exists v t, R (tr r) v t) -> Between R E r [] r
  | Between_last r v t : R (tr r) v t -> (~ exists t', E (tr t) t') -> Between R E r [v] t
  | Between_step r v m m' vs t : R (tr r) v m -> E (tr m) m' -> Between R E m' vs t -> Between R E r (v :: vs) t.

  Lemma trees_each p R : tfine p -> Makes p R -> forall vs w i t, i <= length w ->
    ((exists j, Trees KStr [] sk is_slice w p None i vs j /\ skipn j w = t) <-> Each R (skipn i w) vs t).
  Proof.
    intros C P. induction vs as [|v vs IH]; intros w i t Hi; pose proof (s_le w i Hi) as Hl; pose proof (s_idem w i Hi) as He.
    - split.
      + intros (j & T & <-). inversion T; subst. constructor. rewrite <- sk_tr. apply (makes_ko p R _ _ C P Hl He). eauto.
      + intros H; inversion H; subst. exists i. split; [|reflexivity]. rewrite <- sk_tr in H0. apply (makes_ko p R _ _ C P Hl He) in H0 as (e & K).
        eapply Trees_stop; eauto. discriminate.
    - split.
      + intros (j & T & <-). inversion T; subst. match goal with A : CtorSpec.Tree _ _ _ _ _ _ _ _ ?x |- _ => pose proof (s_tbnd _ _ _ _ _ (proj1 C) Hl He A) as L; apply Each_step with (m := skipn x w) end.
        * rewrite <- sk_tr. apply P; eauto.
        * apply IH; [lia|]. eauto.
      + intros H; inversion H; subst. match goal with A : R _ _ _ |- _ => rewrite <- sk_tr in A; apply P in A as (x & A & <-); auto; pose proof (s_tbnd _ _ _ _ _ (proj1 C) Hl He A) as L end.
        match goal with B : Each _ _ _ _ |- _ => apply IH in B as (j & B & <-); [|lia] end. exists j. split; [|reflexivity]. eapply Trees_step; eauto. discriminate.
  Qed.
  Lemma collect_makes p mn R : tfine p -> Makes p R ->
    Makes (PCollect p mn) (fun r v t => exists vs, Each R r vs t /\ mn <= length vs /\ v = VList vs).
  Proof.
    intros C P w i v t Hi Hs. split.
    - intros (j & T & <-). apply tr_collect in T as (vs & T & L & ->). exists vs. split; [|auto]. apply (trees_each p R C P _ _ _ _ Hi). eauto.
    - intros (vs & T & L & ->). apply (trees_each p R C P _ _ _ _ Hi) in T as (j & T & <-). exists j. split; [|reflexivity]. apply tr_collect. eauto.
  Qed.
  Lemma trees_between p s R E : tfine p -> fine s -> Makes p R -> Eats s E -> forall vs w i t, i <= length w ->
    ((exists j, Trees_sep KStr [] sk is_slice w p s i vs j /\ skipn j w = t) <-> Between R E (skipn i w) vs t).
  Proof.
    intros C CS P Q. induction vs as [|v vs IH]; intros w i t Hi; pose proof (s_le w i Hi) as Hl; pose proof (s_idem w i Hi) as He.
    - split.
      + intros (j & T & <-). inversion T; subst. constructor. rewrite <- sk_tr. apply (makes_ko p R _ _ C P Hl He). eauto.
      + intros H; inversion H; subst. exists i. split; [|reflexivity]. rewrite <- sk_tr in H0. apply (makes_ko p R _ _ C P Hl He) in H0 as (e & K).
        eapply Trees_sep_stop; eauto.
    - split.
      + intros (j & T & <-). inversion T; subst.
        * match goal with A : CtorSpec.Tree _ _ _ _ _ _ _ _ ?x |- _ => pose proof (s_tbnd _ _ _ _ _ (proj1 C) Hl He A) as L end.
          apply Between_last; [rewrite <- sk_tr; apply P; eauto|]. rewrite <- sk_tr. apply (eats_ko s E _ _ CS Q); [apply s_le; lia|apply s_idem; lia|]. eauto.
        * match goal with A : CtorSpec.Tree _ _ _ _ _ _ _ _ ?x, B : Spec.Peg _ _ _ _ s _ (OK _ ?y) |- _ =>
            pose proof (s_tbnd _ _ _ _ _ (proj1 C) Hl He A) as L;
            pose proof (s_bnd _ _ _ _ _ (proj1 CS) (s_le w x ltac:(lia)) (s_idem w x ltac:(lia)) B) as L';
            apply Between_step with (m := skipn x w) (m' := skipn y w) end.
          -- rewrite <- sk_tr. apply P; eauto.
          -- rewrite <- sk_tr. apply Q; [apply s_le; lia|apply s_idem; lia|]. eauto.
          -- apply IH; [lia|]. eauto.
      + intros H; inversion H; subst.
        * match goal with A : R _ _ _ |- _ => rewrite <- sk_tr in A; apply P in A as (x & A & <-); auto; pose proof (s_tbnd _ _ _ _ _ (proj1 C) Hl He A) as L end.
          match goal with N : ~ _ |- _ => rewrite <- sk_tr in N; apply (eats_ko s E _ _ CS Q) in N as (e & K); [|apply s_le; lia|apply s_idem; lia] end.
          exists x. split; [|reflexivity]. eapply Trees_sep_last; eauto.
        * match goal with A : R _ _ _ |- _ => rewrite <- sk_tr in A; apply P in A as (x & A & <-); auto; pose proof (s_tbnd _ _ _ _ _ (proj1 C) Hl He A) as L end.
          match goal with A : E _ _ |- _ => rewrite <- sk_tr in A; apply Q in A as (b & y & B & <-); [|apply s_le; lia|apply s_idem; lia] end.
          pose proof (s_bnd _ _ _ _ _ (proj1 CS) (s_le w x ltac:(lia)) (s_idem w x ltac:(lia)) B) as L'.
          match goal with D : Between _ _ _ _ _ |- _ => apply IH in D as (j & D & <-); [|lia] end. exists j. split; [|reflexivity]. eapply Trees_sep_step; eauto.
  Qed.
  Lemma sep_makes p s mn R E : tfine p -> fine s -> Makes p R -> Eats s E ->
    Makes (PSep p s mn true) (fun r v t => exists vs, Between R E r vs t /\ mn <= length vs /\ v = VList vs).
  Proof.
    intros C CS P Q w i v t Hi Hs. split.
    - intros (j & T & <-). apply tr_sep in T as (vs & T & L & ->). exists vs. split; [|auto]. apply (trees_between p s R E C CS P Q _ _ _ _ Hi). eauto.
    - intros (vs & T & L & ->). apply (trees_between p s R E C CS P Q _ _ _ _ Hi) in T as (j & T & <-). exists j. split; [|reflexivity]. apply tr_sep. eauto.
  Qed.

  (** Whether a parser accepts is decided. *)
  Lemma makes_dec p R w : tfine p -> Makes p R -> (exists v t, R (tr w) v t) \/ ~ (exists v t, R (tr w) v t).
  Proof.
    intros [C W] P. pose proof (s_le w 0 (Nat.le_0_l _)) as Hl. pose proof (s_idem w 0 (Nat.le_0_l _)) as He.
    assert (T0 : skipn (sk w 0) w = tr w) by (rewrite sk_tr; reflexivity).
    destruct (peg_total KStr [] sk (fun _ => 0) SK s_env ltac:(intros x q X; destruct x; discriminate) pols IM 0 p) with (w := w) (i := sk w 0) as [[b j|e] Q]; auto.
    - apply (wfb_wf KStr [] sk pols SK IM s_env (fun _ => false) (fun _ => 0) 0); [intros x q X; destruct x; discriminate|exact (tcore_core _ _ _ _ _ C)|exact W].
    - exact (tcore_core _ _ _ _ _ C).
    - left. destruct (peg_tree p w _ b j C Hl He Q) as (v & T). exists v, (skipn j w). rewrite <- T0. apply P; eauto.
    - right. rewrite <- T0. apply (makes_ko p R w _ (conj C W) P Hl He). eauto.
  Qed.

  (** The whole parser run from the start of a text. *)
  Theorem skip_builds p R w : tfine p -> Makes p R ->
    (forall v c, (exists st, Builds extract_text [] pols p (cx KStr w 0) tt (Ok v) c st) ->
       exists t, R (tr w) v t /\ exists y, c = cx KStr w y /\ y <= length w /\ tr (skipn y w) = tr t) /\
    (forall v t, R (tr w) v t -> exists y, Builds extract_text [] pols p (cx KStr w 0) tt (Ok v) (cx KStr w y) tt /\ y <= length w /\ tr (skipn y w) = tr t) /\
    ((exists e c, Builds extract_text [] pols p (cx KStr w 0) tt (Err e) c tt) <-> ~ exists v t, R (tr w) v t).
  Proof.
    intros [C W] P. assert (T0 : skipn (sk w 0) w = tr w) by (rewrite sk_tr; reflexivity).
    pose proof (s_le w 0 (Nat.le_0_l _)) as Hl. pose proof (s_idem w 0 (Nat.le_0_l _)) as He. split; [|split].
    - intros v c (st & B). destruct (builds_spec KStr [] sk pols is_slice extract_text SK s_tenv IM (extract_text_slice KStr) p w 0 tt _ _ _ C (Nat.le_0_l _) B)
        as [(v' & j & y & X & -> & T & _ & Lj & Ly & Y)|(e & y & X & _)]; [|discriminate]. injection X as <-.
      exists (skipn j w). split; [rewrite <- T0; apply P; eauto|]. exists y. split; [reflexivity|]. split; [exact Ly|]. rewrite <- !sk_tr. now rewrite Y.
    - intros v t X. rewrite <- T0 in X. apply P in X as (j & T & <-); auto.
      destruct (tree_builds KStr [] sk pols is_slice extract_text SK s_tenv IM (extract_text_slice KStr) p w 0 tt v j) as (y & [] & B & Y); auto; [unfold is_slice; congruence|lia|].
      destruct (builds_spec KStr [] sk pols is_slice extract_text SK s_tenv IM (extract_text_slice KStr) p w 0 tt _ _ _ C (Nat.le_0_l _) B)
        as [(v' & j' & y' & E0 & E & T' & _ & _ & Ly & Y')|(e & y' & E & _)]; [|discriminate]. injection E0 as <-.
      destruct (tree_det KStr [] sk pols is_slice SK s_tenv IM ltac:(unfold is_slice; congruence) w p (sk w 0) v j v j') as [_ <-]; auto.
      rewrite E in B. exists y'. split; [exact B|]. split; [exact Ly|]. rewrite <- !sk_tr. now rewrite Y'.
    - rewrite <- T0, <- (makes_ko p R w _ (conj C W) P Hl He). split.
      + intros (e & c & B). destruct (builds_spec KStr [] sk pols is_slice extract_text SK s_tenv IM (extract_text_slice KStr) p w 0 tt _ _ _ C (Nat.le_0_l _) B)
        as [(v' & j & y & X & _)|(e' & y & X & _ & K & _)]; [discriminate|]. eauto.
      + intros (e & K). destruct (peg_builds KStr [] sk pols is_slice extract_text SK s_tenv IM (extract_text_slice KStr) p w 0 tt _ C (Nat.le_0_l _) K) as (r & c & [] & B & ->). eauto.
  Qed.
End Skipped.
