(** Laws of the leaves: unit regexes, anchors, literals, consume; and of the wrappers. *)

From Coq Require Import List Arith NArith Bool Lia.
From Verif Require Import Base Text Context Neu Syntax Regex Ctor Api TextProofs Spec Units Core Sound
  Complete Mono Atomic Obs Laws.
Import ListNotations.

Lemma skipn_two {A} (l : list A) i x y : nth_error l i = Some x -> nth_error l (S i) = Some y ->
  skipn i l = x :: y :: skipn (i + 2) l.
Proof.
  revert l. induction i as [|n IH]; intros [|a l] Ex Ey; cbn in *; try discriminate.
  - injection Ex as ->. destruct l as [|b l]; [discriminate|]. cbn in Ey. injection Ey as ->. reflexivity.
  - now apply IH.
Qed.

Section UnitLaws.
  Variable k : kind.
  Variable G : env.
  Notation cx := (cx k).
  Notation sp := (sp k).
  Notation Peg := (Peg k G no_skip).
  Notation Acc := (Acc k G no_skip).
  Notation Chk := (Chk k G no_skip).
  Notation Run := (Run k G no_skip).
  Notation core := (core k G no_skip).
  Notation core_cond := (core_cond k G no_skip).
  Notation Matches := (Matches k G).
  Notation Fails := (Fails k G).
  Notation Takes := (Takes k G).
  Notation Leaves := (Leaves k G).
  Notation Raises := (Raises k G).

  Hypothesis CE : core_env k G no_skip.
  Notation matches_peg := (matches_peg k G CE).
  Notation fails_peg := (fails_peg k G CE).

  Section Cond.
    Variable c : cond.
    Hypothesis CC : core_cond c.

    Lemma chk_true w i m x : Chk w i c m x (inl true) <-> CondTrue k G c w i (i + m) x.
    Proof.
      destruct c as [|f|p]; cbn.
      - split; [trivial|intros; constructor].
      - split; [intros H; inversion H; auto|intros; now constructor].
      - inversion CC; subst. split.
        + intros H; inversion H; subst. exists b, j. apply matches_peg; auto. lia.
        + intros (b & j & H). eapply Chk_regex. apply matches_peg in H; eauto. lia.
    Qed.
    Lemma chk_false w i m x : Chk w i c m x (inl false) <-> CondFalse k G c w i (i + m) x.
    Proof.
      destruct c as [|f|p]; cbn.
      - split; [intros H; inversion H|intros []].
      - split; [intros H; inversion H; auto|intros; now constructor].
      - inversion CC; subst. split.
        + intros H; inversion H; subst. exists e. apply fails_peg; auto. lia.
        + intros (e & H). eapply Chk_regex_no. apply fails_peg in H; eauto. lia.
    Qed.
    Lemma chk_err w i m x e : Chk w i c m x (inr e) <-> CondErr k c w i (i + m) x e.
    Proof.
      destruct c as [|f|p]; cbn.
      - split; [intros H; inversion H|intros []].
      - split; [intros H; inversion H; auto|intros; now constructor].
      - split; [intros H; inversion H|intros []].
    Qed.

    Lemma acc_takes u w i m : Acc w i u c m (inl true) <-> Takes u c w i (i + m).
    Proof.
      split.
      - intros H; inversion H; subst. exists x. split; auto. split; auto. now apply chk_true.
      - intros (x & A & B & C). eapply Acc_yes; eauto. now apply chk_true.
    Qed.
    Lemma acc_leaves u w i m : Acc w i u c m (inl false) <-> Leaves u c w i (i + m).
    Proof.
      split.
      - intros H; inversion H; subst; [now left|right; eauto|right; eexists; split; [eauto|]].
        right. split; auto. now apply chk_false.
      - intros [H|(x & A & [B|[B C]])].
        + now apply Acc_end.
        + eapply Acc_no; eauto.
        + eapply Acc_yes; eauto. now apply chk_false.
    Qed.
    Lemma acc_raises u w i m e : Acc w i u c m (inr e) <-> Obs.Raises k u c w i (i + m) e.
    Proof.
      split.
      - intros H; inversion H; subst. exists x. split; auto. split; auto. now apply chk_err.
      - intros (x & A & B & C). eapply Acc_yes; eauto. now apply chk_err.
    Qed.

    Lemma run_ok u w i lim m n :
      Run w i u c lim m (inl n) <-> RunTo (Takes u c w i) (Leaves u c w i) lim (i + m) (i + m + n).
    Proof.
      unfold RunTo. revert lim m. induction n as [|n IH]; intros lim m.
      - rewrite Nat.add_0_r, Nat.sub_diag. split.
        + intros H; inversion H; subst; (split; [lia|]); (split; [intros; lia|]); [now left|right].
          split; [destruct lim as [[|]|]; cbn; lia || congruence|]. now apply acc_leaves.
        + intros (_ & _ & [->|[B L]]); [constructor|]. apply Run_stop.
          * intros ->. cbn in B. lia.
          * now apply acc_leaves.
      - split.
        + intros H; inversion H; subst; clear H. match goal with H : Run _ _ _ _ _ _ _ |- _ => apply IH in H; destruct H as (L1 & T & D) end.
          split; [lia|]. split.
          * intros t ? ?. destruct (Nat.eq_dec t (i + m)) as [->|]; [now apply acc_takes|apply T; lia].
          * replace (i + m + S n - (i + m)) with (S n) by lia.
            replace (i + S m + n - (i + S m)) with n in D by lia.
            replace (i + m + S n) with (i + S m + n) by lia.
            destruct lim as [[|l]|]; cbn in *; [congruence| |].
            -- destruct D as [D|[D D']]; [left; congruence|right; split; [lia|auto]].
            -- destruct D as [D|[D D']]; [discriminate|auto].
        + intros (L1 & T & D).
          assert (LL : lim <> Some 0).
          { intros ->. destruct D as [D|[D _]]; [injection D; lia|cbn in D; lia]. }
          apply Run_step; auto; [apply acc_takes; apply T; lia|]. apply IH.
          split; [lia|]. split; [intros; apply T; lia|].
          replace (i + m + S n - (i + m)) with (S n) in D by lia.
          replace (i + S m + n - (i + S m)) with n by lia.
          replace (i + m + S n) with (i + S m + n) in D by lia.
          destruct lim as [[|l]|]; cbn in *; [congruence| |].
          * destruct D as [D|[D D']]; [left; congruence|right; split; [lia|auto]].
          * destruct D as [D|[D D']]; [discriminate|auto].
    Qed.

  End Cond.

    Lemma run_err c (CC : core_cond c) u w i lim m e :
      Run w i u c lim m (inr e) <->
      RunRaises (Takes u c w i) (fun t => Obs.Raises k u c w i t e) lim (i + m).
    Proof.
      split.
      - intros H. remember (inr e) as r eqn:Er. revert CC Er. induction H; intros CC' Er; try discriminate; injection Er as ->.
        + exists (i + m). split; [lia|]. split; [intros; lia|]. rewrite Nat.sub_diag.
          split; [destruct lim as [[|]|]; cbn; lia || congruence|]. now apply acc_raises.
        + destruct (IHRun CC' eq_refl) as (t & L & T & B & R). exists t. split; [lia|]. split.
          * intros t' H2 H3. destruct (Nat.eq_dec t' (i + m)) as [->|]; [now apply acc_takes|apply T; lia].
          * split; auto. destruct lim as [[|l]|]; cbn in *; [congruence|lia|auto].
      - intros (t & L & T & B & R). remember (t - (i + m)) as d eqn:Ed. revert lim m L T B Ed.
        induction d as [|d IH]; intros lim m L T B Ed.
        + assert (t = i + m) by lia. subst t. apply Run_err; [destruct lim as [[|]|]; cbn in *; lia || congruence|].
          now apply acc_raises.
        + assert (LL : lim <> Some 0) by (intros ->; cbn in B; lia).
          apply Run_step_err; auto; [apply acc_takes; [auto|apply T; lia]|].
          apply IH; [lia|intros; apply T; lia| |lia].
          destruct lim as [[|l]|]; cbn in *; [congruence|lia|auto].
    Qed.

  Section Units.
    Variable u : neu.
    Variable c : cond.
    Hypothesis CC : core_cond c.
    Variable w : text.
    Variable i : nat.
    Hypothesis Hi : i <= length w.
    Ltac sb := repeat match goal with
      | E : ?a = w |- _ => subst a
      | E : ?a = i |- _ => subst a
      | E : ?a = u |- _ => subst a
      | E : ?a = c |- _ => subst a
      | E : _ = ?x |- _ => is_var x; lazymatch x with w => fail | i => fail | u => fail | c => fail | _ => subst x end
      | E : ?x = _ |- _ => is_var x; lazymatch x with w => fail | i => fail | u => fail | c => fail | _ => subst x end
      end.
    Notation T := (Takes u c w i).
    Notation L := (Leaves u c w i).
    Notation R e := (fun t => Obs.Raises k u c w i t e).

    Lemma acc0 r : Acc w i u c 0 r -> match r with inl true => T i | inl false => L i | inr e => Obs.Raises k u c w i i e end.
    Proof.
      intros H. destruct r as [[|]|e].
      - apply acc_takes in H; auto. now rewrite Nat.add_0_r in H.
      - apply acc_leaves in H; auto. now rewrite Nat.add_0_r in H.
      - apply acc_raises in H; auto. now rewrite Nat.add_0_r in H.
    Qed.
    Lemma acc0' r : match r with inl true => T i | inl false => L i | inr e => Obs.Raises k u c w i i e end -> Acc w i u c 0 r.
    Proof.
      intros H. destruct r as [[|]|e]; [apply acc_takes|apply acc_leaves|apply acc_raises];
        auto; now rewrite Nat.add_0_r.
    Qed.
    Lemma run0 lim n : Run w i u c lim 0 (inl n) <-> RunTo T L lim i (i + n).
    Proof. rewrite run_ok by auto. now rewrite Nat.add_0_r. Qed.
    Lemma run0_err lim e : Run w i u c lim 0 (inr e) <-> RunRaises T (R e) lim i.
    Proof. rewrite run_err by auto. now rewrite Nat.add_0_r. Qed.

    Lemma once_ok b j : Matches (POnce u c) w i b j <-> b = i /\ j = S i /\ T i.
    Proof.
      rewrite matches_peg by (auto; now constructor). split.
      - intros H; inversion H; sb. do 2 (split; auto). now apply (acc0 (inl true)).
      - intros (-> & -> & H). constructor. now apply (acc0' (inl true)).
    Qed.
    Lemma once_err e : Fails (POnce u c) w i e <-> (e = EOnce /\ L i) \/ Obs.Raises k u c w i i e.
    Proof.
      rewrite fails_peg by (auto; now constructor). split.
      - intros H; inversion H; sb; [left; split; auto; now apply (acc0 (inl false))|right; now apply (acc0 (inr _))].
      - intros [[-> H]|H]; [apply Peg_once_ko; now apply (acc0' (inl false))|apply Peg_once_err; now apply (acc0' (inr e))].
    Qed.
    Lemma opt_ok b j : Matches (POpt u c) w i b j <-> b = i /\ ((j = S i /\ T i) \/ (j = i /\ L i)).
    Proof.
      rewrite matches_peg by (auto; now constructor). split.
      - intros H; inversion H; sb; split; auto; [left; split; auto; now apply (acc0 (inl true))|right; split; auto; now apply (acc0 (inl false))].
      - intros (-> & [[-> H]|[-> H]]); [apply Peg_opt; now apply (acc0' (inl true))|apply Peg_opt_none; now apply (acc0' (inl false))].
    Qed.
    Lemma opt_err e : Fails (POpt u c) w i e <-> Obs.Raises k u c w i i e.
    Proof.
      rewrite fails_peg by (auto; now constructor). split.
      - intros H; inversion H; sb. now apply (acc0 (inr _)).
      - intros H. apply Peg_opt_err. now apply (acc0' (inr e)).
    Qed.
    Lemma runto_ge lim j : RunTo T L lim i j -> exists n, j = i + n.
    Proof. intros (H & _). exists (j - i). lia. Qed.

    Lemma many0_ok b j : Matches (PMany0 u c) w i b j <-> b = i /\ RunTo T L None i j.
    Proof.
      rewrite matches_peg by (auto; now constructor). split.
      - intros H; inversion H; sb. split; auto. now apply run0.
      - intros (-> & H). destruct (runto_ge _ _ H) as [n ->]. constructor. now apply run0.
    Qed.
    Lemma many0_err e : Fails (PMany0 u c) w i e <-> RunRaises T (R e) None i.
    Proof.
      rewrite fails_peg by (auto; now constructor). split.
      - intros H; inversion H; sb. now apply run0_err.
      - intros H. constructor. now apply run0_err.
    Qed.
    Lemma many1_ok b j : Matches (PMany1 u c) w i b j <-> b = i /\ i < j /\ RunTo T L None i j.
    Proof.
      rewrite matches_peg by (auto; now constructor). split.
      - intros H; inversion H; sb. split; auto. split; [lia|]. now apply run0.
      - intros (-> & Lt & H). destruct (runto_ge _ _ H) as [[|n] ->]; [lia|]. apply Peg_many1. now apply run0.
    Qed.
    Lemma many1_err e : Fails (PMany1 u c) w i e <-> (e = EMany1 /\ L i) \/ RunRaises T (R e) None i.
    Proof.
      rewrite fails_peg by (auto; now constructor). split.
      - intros H; inversion H; sb; [left|right; now apply run0_err]. split; auto.
        match goal with H : Run _ _ _ _ _ _ _ |- _ => apply run0 in H; rewrite Nat.add_0_r in H; destruct H as (_ & _ & [E|[_ E]]); [discriminate|auto] end.
      - intros [[-> H]|H]; [apply Peg_many1_ko|apply Peg_many1_err; now apply run0_err].
        apply run0. rewrite Nat.add_0_r. split; [lia|]. split; [intros; lia|]. right. now split.
    Qed.

    (** The length pre-check never rejects a run that is long enough. *)
    Lemma run_bytes n : honest k u -> i + n <= length w -> (forall m, i <= m -> m < i + n -> T m) ->
      n * min_length k u <= tlen k w - bo k w i.
    Proof.
      intros Ho Hn Ht. assert (n * min_length k u <= bo k w (i + n) - bo k w i).
      { induction n as [|n IH]; [lia|].
        assert (IH' : n * min_length k u <= bo k w (i + n) - bo k w i)
          by (apply IH; [lia|intros; apply Ht; lia]).
        destruct (Ht (i + n) ltac:(lia) ltac:(lia)) as (x & Ex & Mx & _).
        assert (bo k w (i + S n) = bo k w (i + n) + width k x).
        { replace (i + S n) with ((i + n) + 1) by lia. rewrite bo_add.
          assert (exists t, skipn (i + n) w = x :: t) as [t ->].
          { clear - Ex. revert Ex. generalize (i + n). intros a. revert w.
            induction a; destruct w; cbn; intros E; try discriminate; [injection E as ->; eauto|eauto]. }
          unfold bo. cbn. lia. }
        pose proof (Ho x Mx). pose proof (bo_mono k w i (i + n)). lia. }
      pose proof (bo_le_len k w (i + n)). lia.
    Qed.
    Lemma runto_len lim j : RunTo T L lim i j -> j <= length w.
    Proof.
      intros (A & B & _). destruct (Nat.eq_dec i j); [lia|].
      destruct (B (j - 1) ltac:(lia) ltac:(lia)) as (x & E & _).
      assert (j - 1 < length w) by (apply nth_error_Some; congruence). lia.
    Qed.
    Lemma not_short m lim n : honest k u -> RunTo T L lim i (i + n) -> m <= n -> ~ too_short k w i (m * min_length k u).
    Proof.
      intros Ho H Hm S. unfold too_short in S.
      assert (m * min_length k u <= tlen k w - bo k w i); [|lia].
      apply run_bytes; auto.
      - apply runto_len in H. lia.
      - intros t A B. destruct H as (_ & H & _). apply H; lia.
    Qed.

    Lemma too_short_dec n : {too_short k w i n} + {~ too_short k w i n}.
    Proof. unfold too_short. apply lt_dec. Qed.

    Lemma between_ok m n b j : honest k u ->
      (Matches (PBetween m n u c) w i b j <-> b = i /\ i + m <= j /\ RunTo T L n i j).
    Proof.
      intros Ho. rewrite matches_peg by (auto; now constructor). split.
      - intros H; inversion H; sb. split; auto. split; [lia|]. now apply run0.
      - intros (-> & Lt & H). destruct (runto_ge _ _ H) as [t ->].
        apply Peg_between; [|now apply run0|lia]. eapply not_short; eauto. lia.
    Qed.
    (** Which errors: too few items, or a condition raised.  (If a condition raises, the text may
        also have been rejected early because of its length.) *)
    Lemma between_err m n e : honest k u -> Fails (PBetween m n u c) w i e ->
      (e = EBetween /\ ~ exists b j, Matches (PBetween m n u c) w i b j) \/ RunRaises T (R e) n i.
    Proof.
      intros Ho F. pose proof F as F'.
      rewrite fails_peg in F by (auto; now constructor). inversion F; sb.
      - left. split; auto. intros (b & j & M). eapply (matches_fails k G CE); eauto. now constructor.
      - left. split; auto. intros (b & j & M). eapply (matches_fails k G CE); eauto. now constructor.
      - right. now apply run0_err.
    Qed.
    Lemma between_ko m n j : honest k u -> RunTo T L n i j -> j < i + m -> Fails (PBetween m n u c) w i EBetween.
    Proof.
      intros Ho H Lt. rewrite fails_peg by (auto; now constructor).
      destruct (too_short_dec (m * min_length k u)); [now constructor|].
      destruct (runto_ge _ _ H) as [t ->]. apply run0 in H. eapply Peg_between_ko; eauto. lia.
    Qed.
    Lemma times_lo r n : InRange r n -> match r_lo r with Incl m => m | Excl m => m - 1 | Unb => 0 end <= n.
    Proof. intros [H _]. destruct (r_lo r); lia. Qed.
    Lemma times_ok r b j : honest k u ->
      (Matches (PTimes r u c) w i b j <-> b = i /\ RunTo T L (cap r) i j /\ InRange r (j - i)).
    Proof.
      intros Ho. rewrite matches_peg by (auto; now constructor). split.
      - intros H; inversion H; sb. split; auto. split; [now apply run0|]. apply contains_in.
        now replace (i + t - i) with t by lia.
      - intros (-> & H & I). destruct (runto_ge _ _ H) as [t ->]. replace (i + t - i) with t in I by lia.
        apply Peg_times; [|now apply run0|now apply contains_in].
        eapply not_short; eauto. now apply times_lo.
    Qed.
    Lemma times_err r e : honest k u -> Fails (PTimes r u c) w i e ->
      (e = ETimes /\ ~ exists b j, Matches (PTimes r u c) w i b j) \/ RunRaises T (R e) (cap r) i.
    Proof.
      intros Ho F. pose proof F as F'.
      rewrite fails_peg in F by (auto; now constructor). inversion F; sb.
      - left. split; auto. intros (b & j & M). eapply (matches_fails k G CE); eauto. now constructor.
      - left. split; auto. intros (b & j & M). eapply (matches_fails k G CE); eauto. now constructor.
      - right. now apply run0_err.
    Qed.
    Lemma times_ko r j : honest k u -> RunTo T L (cap r) i j -> ~ InRange r (j - i) -> Fails (PTimes r u c) w i ETimes.
    Proof.
      intros Ho H Lt. rewrite fails_peg by (auto; now constructor).
      destruct (too_short_dec (match r_lo r with Incl m => m | Excl m => m - 1 | Unb => 0 end * min_length k u)); [now constructor|].
      destruct (runto_ge _ _ H) as [t ->]. replace (i + t - i) with t in Lt by lia.
      apply contains_not in Lt. apply run0 in H. eapply Peg_times_ko; eauto.
    Qed.

    Lemma neuthen_ok v b j : honest k u -> honest k v ->
      (Matches (PNeuThen u v c) w i b j <-> b = i /\ j = i + 2 /\ T i /\ Takes v c w i (S i)).
    Proof.
      intros Hu Hv. rewrite matches_peg by (auto; now constructor). split.
      - intros H; inversion H; sb. do 2 (split; auto). split; [now apply (acc0 (inl true))|].
        match goal with H : Acc _ _ _ _ 1 _ |- _ => apply acc_takes in H; auto; now rewrite Nat.add_1_r in H end.
      - intros (-> & -> & A & B). destruct A as (x & Ex & Mx & Cx). destruct B as (y & Ey & My & Cy).
        assert (Len : i + 2 <= length w) by (assert (S i < length w) by (apply nth_error_Some; congruence); lia).
        apply Peg_neuthen; auto.
        + unfold too_short. intros S.
          assert (E : skipn i w = x :: y :: skipn (i + 2) w).
          { now apply skipn_two. }
          assert (bo k w (i + 2) = bo k w i + (width k x + width k y)).
          { rewrite bo_add, E. unfold bo. cbn. lia. }
          pose proof (bo_le_len k w (i + 2)). pose proof (Hu x Mx). pose proof (Hv y My). lia.
        + apply (acc0' (inl true)). exists x. auto.
        + apply acc_takes; auto. rewrite Nat.add_1_r. exists y. auto.
    Qed.
    Lemma neuthen_err v e : honest k u -> honest k v -> Fails (PNeuThen u v c) w i e ->
      (e = ENeureThen /\ ~ exists b j, Matches (PNeuThen u v c) w i b j) \/
      Obs.Raises k u c w i i e \/ (T i /\ Obs.Raises k v c w i (S i) e).
    Proof.
      intros Hu Hv F. pose proof F as F'.
      assert (N : ~ exists b j, Matches (PNeuThen u v c) w i b j).
      { intros (b & j & M). eapply (matches_fails k G CE); eauto. now constructor. }
      rewrite fails_peg in F by (auto; now constructor). inversion F; sb; auto.
      - right. left. now apply (acc0 (inr _)).
      - right. right. split; [now apply (acc0 (inl true))|].
        match goal with H : Acc _ _ _ _ 1 _ |- _ => apply acc_raises in H; auto; now rewrite Nat.add_1_r in H end.
    Qed.
  End Units.

  (** Without a condition: the longest run. *)
  Lemma takes_empty u w i t : Takes u CEmpty w i t <-> exists x, nth_error w t = Some x /\ is_match u x = true.
  Proof. unfold Obs.Takes; cbn. split; intros (x & ?); exists x; tauto. Qed.
  Lemma leaves_empty u w i t : Leaves u CEmpty w i t <-> forall x, nth_error w t = Some x -> is_match u x = false.
  Proof.
    unfold Obs.Leaves; cbn. split.
    - intros [H|(x & E & [H|[_ []]])] y E'; [|congruence].
      assert (t < length w) by (apply nth_error_Some; congruence). lia.
    - intros H. destruct (nth_error w t) as [x|] eqn:E.
      + right. exists x. auto.
      + left. now apply nth_error_None.
  Qed.
  Lemma raises_empty u w i t e : ~ Obs.Raises k u CEmpty w i t e.
  Proof. intros (x & _ & _ & []). Qed.
  Lemma runto_maxrun u w i lim n :
    RunTo (Takes u CEmpty w i) (Leaves u CEmpty w i) lim i (i + n) <-> MaxRun (is_match u) w i lim n.
  Proof.
    unfold RunTo, MaxRun. replace (i + n - i) with n by lia. rewrite leaves_empty. split.
    - intros (_ & A & B). split; [intros m Hm; apply (takes_empty u w i); apply A; lia|].
      destruct B as [->|[B C]]; [split; auto|split; [destruct lim; cbn in B; auto; lia|auto]].
    - intros (A & B & C). split; [lia|]. split.
      + intros m H1 H2. apply takes_empty. replace m with (i + (m - i)) by lia. apply A. lia.
      + destruct C as [->|C]; [auto|]. destruct lim as [l|]; [|right; cbn; auto].
        destruct (Nat.eq_dec l n) as [->|]; [auto|right; split; [cbn; lia|auto]].
  Qed.
  Lemma maxrun_exists f w i lim : exists n, MaxRun f w i lim n.
  Proof.
    assert (H : forall d i lim, length w - i <= d -> exists n, MaxRun f w i lim n).
    { induction d as [|d IH]; intros a l Hd.
      - exists 0. split; [intros; lia|]. split; [destruct l; lia || auto|].
        right. intros x E. assert (a + 0 < length w) by (apply nth_error_Some; congruence). lia.
      - destruct (nth_error w a) as [x|] eqn:E.
        2:{ exists 0. split; [intros; lia|]. split; [destruct l; lia || auto|].
            right. rewrite Nat.add_0_r. intros y E'. congruence. }
        destruct (f x) eqn:F.
        2:{ exists 0. split; [intros; lia|]. split; [destruct l; lia || auto|].
            right. rewrite Nat.add_0_r. intros y E'. congruence. }
        destruct l as [[|l]|].
        + exists 0. split; [intros; lia|]. split; auto.
        + assert (a < length w) by (apply nth_error_Some; congruence).
          destruct (IH (S a) (Some l) ltac:(lia)) as (n & A & B & C). exists (S n). split.
          * intros [|m] Hm; [exists x; now rewrite Nat.add_0_r|]. destruct (A m ltac:(lia)) as (y & ?).
            exists y. now replace (a + S m) with (S a + m) by lia.
          * split; [lia|]. replace (a + S n) with (S a + n) by lia. destruct C as [C|C]; [left; congruence|auto].
        + assert (a < length w) by (apply nth_error_Some; congruence).
          destruct (IH (S a) None ltac:(lia)) as (n & A & B & C). exists (S n). split.
          * intros [|m] Hm; [exists x; now rewrite Nat.add_0_r|]. destruct (A m ltac:(lia)) as (y & ?).
            exists y. now replace (a + S m) with (S a + m) by lia.
          * split; [auto|]. replace (a + S n) with (S a + n) by lia. destruct C as [C|C]; [left; congruence|auto]. }
    apply (H (length w - i)). lia.
  Qed.
End UnitLaws.
