(** Constructing mode follows the specification of CtorSpec.v. *)

From Coq Require Import List Arith NArith Bool Lia.
From Verif Require Import Base Text Context Neu Syntax Regex Ctor TextProofs Spec Units Core Sound Complete CtorSpec.
Import ListNotations.

Section CtorSound.
  Variable k : kind.
  Variable G : env.
  Variable sk : text -> nat -> nat.
  Variable pols : list pat.
  Variable HV : text -> nat -> nat -> val -> Prop.
  Context {S : Type}.
  Variable h : handler S.
  Hypothesis SK : skipper sk.
  Hypothesis TE : tcore_env k G sk HV.
  Hypothesis IM : implements k G sk pols.
  Notation cx := (cx k).
  Notation sp := (sp k).
  Notation bo := (bo k).
  Notation Peg := (Peg k G sk).
  Notation Reps := (Reps k G sk).
  Notation Seps := (Seps k G sk).
  Notation core := (core k G sk).
  Notation Tree := (Tree k G sk HV).
  Notation Trees := (Trees k G sk HV).
  Notation Trees_sep := (Trees_sep k G sk HV).
  Notation tcore := (tcore k G sk HV).

  (** The handler never fails, and returns a value described by [HV]. *)
  Hypothesis HH : forall w x b j st, x <= length w -> b <= j -> j <= length w ->
    exists v, fst (h (cx w x) (sp w b j) st) = Ok v /\ HV w b j v.

  Lemma tcore_core p : tcore p -> core p.
  Proof.
    induction 1; try (constructor; auto; fail); auto.
    - constructor. rewrite Forall_forall. auto.
    - constructor. rewrite Forall_forall. intros q Hq. apply in_map_iff in Hq. destruct Hq as (x & <- & I). auto.
  Qed.

  Lemma tcore_core_env : core_env k G sk.
  Proof. intros i p E. apply tcore_core. eapply TE; eauto. Qed.
  Let CE := tcore_core_env.

  Lemma first_skip w i e l p r o : Forall (fun q => exists e', Peg w q i (KO e')) l ->
    First k G sk w (p :: r) i e o -> First k G sk w (l ++ p :: r) i e o.
  Proof.
    induction 1 as [|q l [e' Q] _ IH]; intros F; auto. cbn. eapply First_next; eauto.
  Qed.

  (** A tree is a match. *)
  Lemma tree_peg_all :
    (forall w p i v j, Tree w p i v j -> tcore p -> exists b, Peg w p i (OK b j)) /\
    (forall w p lim i vs j, Trees w p lim i vs j -> tcore p -> Reps w p lim i (length vs) j) /\
    (forall w p s i vs j, Trees_sep w p s i vs j -> tcore p -> Seps w p s None i (length vs) j).
  Proof.
    apply Tree_mutind; intros.
    - eauto.
    - eexists. constructor. eauto.
    - inversion H3; subst; [easy|]. destruct H0 as [b0 P0], H2 as [b1 P1]; auto. eexists. eapply Peg_then; eauto.
    - inversion H4; subst; [easy|]. destruct H0 as [b0 P0], H3 as [b2 P2]; auto. eexists. eapply Peg_ifthen_yes; eauto.
    - inversion H2; subst; [easy|]. destruct H0 as [b0 P0]; auto. eexists. eapply Peg_ifthen_no; eauto.
    - inversion H1; subst; [easy|]. destruct H0 as [b0 P0]; auto. eexists. eapply Peg_or1; eauto.
    - inversion H2; subst; [easy|]. destruct H1 as [b0 P0]; auto. eexists. eapply Peg_or2; eauto.
    - inversion H3; subst; [easy|]. destruct H0 as [b0 P0]; auto.
      match goal with A : starts_here _ _ _ p, B : starts_here _ _ _ q |- _ => pose proof (A _ _ _ _ P0); pose proof (B _ _ _ _ H1) end.
      subst. eexists. eapply Peg_longest_l; eauto.
    - inversion H3; subst; [easy|]. destruct H1 as [b0 P0]; auto.
      match goal with A : starts_here _ _ _ p, B : starts_here _ _ _ q |- _ => pose proof (A _ _ _ _ H); pose proof (B _ _ _ _ P0) end.
      subst. eexists. eapply Peg_longest_r; eauto.
    - inversion H2; subst; [easy|]. destruct H0 as [b0 P0]; auto.
      match goal with A : starts_here _ _ _ p |- _ => pose proof (A _ _ _ _ P0) end.
      subst. eexists. eapply Peg_longest_l1; eauto.
    - inversion H2; subst; [easy|]. destruct H1 as [b0 P0]; auto.
      match goal with A : starts_here _ _ _ q |- _ => pose proof (A _ _ _ _ P0) end.
      subst. eexists. eapply Peg_longest_r1; eauto.
    - inversion H2; subst; [easy|]. destruct H1 as [b0 P0]; auto. eexists. eapply Peg_prefix; eauto.
    - inversion H2; subst; [easy|]. destruct H0 as [b0 P0]; auto. eexists. eapply Peg_suffix; eauto.
    - inversion H3; subst; [easy|]. destruct H1 as [b0 P0]; auto. eexists. eapply Peg_enclose; eauto.
    - inversion H4; subst; [easy|]. destruct H0 as [b0 P0], H3 as [b3 P3]; auto. eexists. eapply Peg_seponce; eauto.
    - inversion H2; subst; [easy|]. eexists. eapply Peg_sep; eauto.
    - inversion H2; subst; [easy|]. eexists. eapply Peg_repeat; eauto.
    - inversion H2; subst; [easy|]. eexists. eapply Peg_collect; eauto.
    - inversion H1; subst; [easy|]. destruct H0 as [b0 P0]; auto. eexists. eapply Peg_option; eauto.
    - eexists. eapply Peg_option_none; eauto.
    - inversion H2; subst; [easy|]. destruct H1 as [b0 P0]; auto. eexists. eapply Peg_branch_t; eauto.
    - inversion H2; subst; [easy|]. destruct H1 as [b0 P0]; auto. eexists. eapply Peg_branch_f; eauto.
    - inversion H2; subst; [easy|]. destruct H0 as [b0 P0]; auto. eexists. eapply Peg_map; eauto.
    - inversion H2; subst; [easy|]. destruct H1 as [b0 P0]; [match goal with F : forall p, In p _ -> _ |- _ => apply F end; apply in_elt|].
      eexists. constructor. apply first_skip; eauto. eapply First_hit; eauto.
    - inversion H2; subst; [easy|]. destruct H1 as [b0 P0].
      { match goal with F : forall p, In p _ -> _ |- _ => apply (F (p, x)) end; apply in_elt. }
      eexists. constructor. rewrite map_app. cbn. apply first_skip; [|eapply First_hit; eauto].
      rewrite Forall_map. auto.
    - inversion H1; subst; [easy|]. destruct H0 as [b0 P0]; auto. eexists. eapply Peg_wrap; eauto.
    - destruct H1 as [b0 P0]; [eapply TE; eauto|]. eexists. eapply Peg_ref; eauto.
    - constructor.
    - eapply Reps_stop; eauto.
    - destruct H1 as [b0 P0]; auto. eapply Reps_step; eauto.
    - eapply Seps_stop; eauto. discriminate.
    - destruct H0 as [b0 P0]; auto. eapply Seps_last; eauto. discriminate.
    - destruct H0 as [b0 P0]; auto. eapply Seps_step; eauto. discriminate.
  Qed.
  Lemma tree_peg w p i v j : Tree w p i v j -> tcore p -> exists b, Peg w p i (OK b j).
  Proof. apply tree_peg_all. Qed.

  Lemma ok_in' w p x b j : tcore p -> x <= length w -> Peg w p (sk w x) (OK b j) ->
    sk w x <= b /\ b <= j /\ j <= length w.
  Proof.
    intros C Hx P. apply tcore_core in C.
    now destruct (peg_complete k G sk pols SK CE IM w p (sk w x) _ P C (sk_le sk SK w x Hx) (sk_idem sk SK w x Hx)) as [B _].
  Qed.

  (** Positions that differ by skippable text only. *)
  Definition near (w : text) (x y : nat) : Prop := x <= length w /\ y <= length w /\ sk w x = sk w y.

  Lemma near_refl w x : x <= length w -> near w x x.
  Proof. split; auto. Qed.

  Inductive vres (w : text) (p : pat) (x : nat) : res val * (ctx * S) -> Prop :=
  | VOk v j y st : Tree w p (sk w x) v j -> near w y j -> sk w x <= j ->
      vres w p x (Ok v, (cx w y, st))
  | VErr e y st : Peg w p (sk w x) (KO e) -> near w y x -> vres w p x (Err e, (cx w y, st))
  | VOof z : vres w p x (OOF, z).

  Inductive mres (w : text) (p : pat) (x : nat) (st : S) : res span * (ctx * S) -> Prop :=
  | MOk b j y : Peg w p (sk w x) (OK b j) -> sk w x <= b -> b <= j -> near w y j ->
      mres w p x st (Ok (sp w b j), (cx w y, st))
  | MErr e y : Peg w p (sk w x) (KO e) -> near w y x -> mres w p x st (Err e, (cx w y, st))
  | MOof z : mres w p x st (OOF, z).

  Lemma ctm_v n held p w x st : core p -> x <= length w ->
    mres w p x st (ctm (parse n G) held pols p (cx w x, st)).
  Proof.
    intros C Hx. unfold ctm, on_ctx. cbn [fst snd].
    destruct (try_mat_sound k G sk pols SK CE IM n held p w x C Hx) as [b j y P ? ? ? ? ?|e P|c].
    - pose proof (sk_le sk SK w j). econstructor; eauto. split; [lia|]. split; [auto|]. apply (sk_conv sk SK w j y); auto.
    - constructor; auto. split; [now apply sk_le|]. split; auto. now apply sk_idem.
    - constructor.
  Qed.

  Lemma invoke_v w x b j st : x <= length w -> b <= j -> j <= length w ->
    exists v st', invoke h (sp w b j) (cx w x, st) = (Ok v, (cx w x, st')) /\ HV w b j v.
  Proof.
    intros Hx Hb Hj. unfold invoke. cbn [fst snd]. destruct (HH w x b j st Hx Hb Hj) as (v & E & V).
    destruct (h (cx w x) (sp w b j) st) as [r st']. cbn in E. subst r. eauto.
  Qed.

  Ltac cstep := cbv beta iota zeta delta
    [bind catch ret fail panic oof lift reads offset set_offset get_off put_off ctx_offset pair_offset
     with_guard g_new g_beg g_on g_try g_drop g_ctx g_offset g_reset on_err_reset accept fst snd].

  Section Step.
    Variable n : nat.
    Variable con : list nat -> pat -> M (ctx * S) val.
    Hypothesis CON : forall held p w x st, tcore p -> x <= length w -> vres w p x (con held p (cx w x, st)).
    Variable fuel : nat.
    Variable held : list nat.
    Notation ctm := (ctm (parse n G) held pols).

    Lemma leaf_v p q w x st : core p ->
      (forall b j v, Peg w p (sk w x) (OK b j) -> HV w b j v -> Tree w q (sk w x) v j) ->
      (forall e, Peg w p (sk w x) (KO e) -> Peg w q (sk w x) (KO e)) ->
      x <= length w -> vres w q x ((s <- ctm p ;; invoke h s) (cx w x, st)).
    Proof.
      intros C T T' Hx. unfold bind. destruct (ctm_v n held p w x st C Hx) as [b j y P H1 H2 (Y1 & Y2 & Y3)|e y P N|z].
      - destruct (invoke_v w y b j st Y1 H2 Y2) as (v & st' & E & V). rewrite E. econstructor; eauto; [split; auto|lia].
      - constructor; auto.
      - constructor.
    Qed.

    Lemma repeat_v p w lim more : tcore p -> (forall c, more c = lim_more lim c) ->
      forall f acc i x st, near w x i ->
      match repeat_vals (con held p) f more acc (cx w x, st) with
      | (Ok l, (c, st')) => exists vs j y, l = acc ++ vs /\ Trees w p (lim_sub lim (length acc)) i vs j /\
                              c = cx w y /\ near w y j /\ (i <= j \/ sk w i <= j)
      | (OOF, _) => True
      | _ => False
      end.
    Proof.
      intros C ML f. induction f as [|f IH]; intros acc i x st N; [exact I|].
      cbn [repeat_vals]. rewrite ML. destruct N as (N1 & N2 & N3). destruct (lim_more lim (length acc)) eqn:Em.
      - assert (NZ : lim_sub lim (length acc) <> Some 0).
        { destruct lim as [m|]; simpl in *; [|easy]. apply Nat.ltb_lt in Em. intros E. injection E. lia. }
        assert (EP : lim_sub lim (Datatypes.S (length acc)) = limit_pred (lim_sub lim (length acc))).
        { destruct lim as [m|]; simpl; [|easy]. f_equal. lia. }
        unfold bind, catch. destruct (CON held p w x st C N1) as [v j y st' T N L|e y st' P N|z].
        + rewrite N3 in T. assert (Ny := N). destruct N as (Y1 & Y2 & Y3). specialize (IH (acc ++ [v]) j y st' Ny).
          destruct (repeat_vals (con held p) f more (acc ++ [v]) (cx w y, st')) as [[l|e| |] [c st2]]; auto.
          destruct IH as (vs & j' & y' & -> & R & -> & N & L'). exists (v :: vs), j', y'.
          rewrite <- app_assoc. split; [reflexivity|]. split.
          * rewrite app_length in R. cbn in R. rewrite Nat.add_1_r, EP in R. eapply Trees_step; eauto.
          * split; auto. split; auto. pose proof (sk_ge sk SK w j Y2). lia.
        + exists [], i, y. rewrite app_nil_r. split; auto. split; [|split; auto; split; [|left; lia]].
          * eapply Trees_stop; [auto|rewrite <- N3; eauto].
          * destruct N as (Y1 & Y2 & Y3). split; auto. split; auto. congruence.
        + trivial.
      - exists [], i, x. rewrite app_nil_r. split; auto. split; [|split; auto; split; [split; auto|left; lia]].
        destruct lim as [m|]; [|discriminate]. simpl in *. apply Nat.ltb_ge in Em.
        replace (m - length acc) with 0 by lia. constructor.
    Qed.

    Lemma sep_v p s w : tcore p -> core s ->
      forall f acc i x st, near w x i ->
      match sep_vals (con held p) (ctm s) f true acc (cx w x, st) with
      | (Ok l, (c, st')) => exists vs j y, l = acc ++ vs /\ Trees_sep w p s i vs j /\
                              c = cx w y /\ near w y j /\ (i <= j \/ sk w i <= j)
      | (OOF, _) => True
      | _ => False
      end.
    Proof.
      intros C Cs f. induction f as [|f IH]; intros acc i x st N; [exact I|].
      cbn [sep_vals]. destruct N as (N1 & N2 & N3).
      unfold bind at 1, catch at 1. destruct (CON held p w x st C N1) as [v j y st' T N L|e y st' P N|z].
      - rewrite N3 in T, L. destruct N as (Y1 & Y2 & Y3).
        unfold bind, catch. destruct (ctm_v n held s w y st' Cs Y1) as [b' j' y' P' H1 H2 N'|e' y' P' N'|z].
        + rewrite Y3 in P', H1. specialize (IH (acc ++ [v]) j' y' st' N').
          destruct (sep_vals (con held p) (ctm s) f true (acc ++ [v]) (cx w y', st')) as [[l|e| |] [c st2]]; auto.
          destruct IH as (vs & j2 & y2 & -> & R & -> & N & L'). exists (v :: vs), j2, y2.
          rewrite <- app_assoc. split; [reflexivity|]. split; [eapply Trees_sep_step; eauto|].
          split; auto. split; auto. pose proof (sk_ge sk SK w j Y2).
          pose proof (sk_ge sk SK w j'). destruct N' as (? & ? & ?). lia.
        + exists [v], j, y'. split; auto. rewrite Y3 in P'. split; [eapply Trees_sep_last; eauto|].
          split; auto. split; [|now right]. destruct N' as (? & ? & ?). split; auto. split; auto. congruence.
        + trivial.
      - exists [], i, y. rewrite app_nil_r. split; auto. split; [eapply Trees_sep_stop; rewrite <- N3; eauto|].
        split; auto. split; [|now left]. destruct N as (? & ? & ?). split; auto. split; auto. congruence.
      - trivial.
    Qed.

    (** What the ordered choice of containers returns. *)
    Lemma choice_v w x e (ps : list (pat * (val -> val))) : x <= length w -> (forall p, In p ps -> tcore (fst p)) ->
      forall st,
      match con_choice (con held) (bo w x) e ps (cx w x, st) with
      | (Ok v, (c, st')) => exists l p g r v' j y, ps = l ++ (p, g) :: r /\ v = g v' /\
                              Forall (fun q => exists e', Peg w (fst q) (sk w x) (KO e')) l /\
                              Tree w p (sk w x) v' j /\ c = cx w y /\ near w y j /\ sk w x <= j
      | (Err e', (c, st')) => e' = e /\ Forall (fun q => exists e', Peg w (fst q) (sk w x) (KO e')) ps /\ c = cx w x
      | (OOF, _) => True
      | (Panic, _) => False
      end.
    Proof.
      intros Hx. induction ps as [|[p g] ps IH]; intros C st.
      - cbn. repeat split; auto.
      - cbn [con_choice]. unfold bind, catch, on_err_reset. cbn [fst snd].
        destruct (CON held p w x st) as [v j y st' T N L|e0 y st' P N|z]; auto.
        + apply (C (p, g)). now left.
        + cbn. exists [], p, g, ps, v, j, y. repeat split; auto; apply N.
        + cbn [put_off pair_offset fst snd ctx_offset]. change (Ctx (c_kind (cx w y)) (c_dat (cx w y)) (bo w x)) with (cx w x).
          specialize (IH (fun p I => C p (or_intror I)) st').
          destruct (con_choice (con held) (bo w x) e ps (cx w x, st')) as [[v|e1| |] [c st2]]; auto.
          * destruct IH as (l & p' & g' & r & v' & j & y' & -> & -> & F & T & -> & N' & L).
            exists ((p, g) :: l), p', g', r, v', j, y'. repeat split; auto; [|apply N'|apply N'|apply N'].
            constructor; eauto.
          * destruct IH as (-> & F & ->). repeat split; auto. constructor; eauto.
    Qed.

    Lemma off_pair w x (st : S) : c_off (fst (cx w x, st)) = bo w x. Proof. reflexivity. Qed.
    Lemma put_cx' w i x : {| c_kind := c_kind (cx w x); c_dat := c_dat (cx w x); c_off := bo w i |}
      = cx w i. Proof. reflexivity. Qed.
    Lemma put_cx2 w i x : {| c_kind := c_kind (cx w x); c_dat := c_dat (cx w x); c_off := c_off (cx w i) |}
      = cx w i. Proof. reflexivity. Qed.
    Lemma plain_in (ps : list pat) : (forall p, In p ps -> tcore p) -> forall p, In p (plain ps) -> tcore (fst p).
    Proof. intros H p I. unfold plain in I. apply in_map_iff in I. destruct I as (q & <- & I). now apply H. Qed.
    Lemma keyed_in ps : (forall p, In p ps -> tcore (fst p)) -> forall p, In p (keyed ps) -> tcore (fst p).
    Proof. intros H p I. unfold keyed in I. apply in_map_iff in I. destruct I as (q & <- & I). now apply H. Qed.
    Lemma plain_split (ps : list pat) l p g r : plain ps = l ++ (p, g) :: r ->
      exists l' r', ps = l' ++ p :: r' /\ l = plain l' /\ g = (fun v => v).
    Proof.
      revert l. induction ps as [|q ps IH]; intros [|x l] E; try discriminate; cbn in E.
      - injection E as -> <- <-. exists [], ps. auto.
      - injection E as <- E. destruct (IH l E) as (l' & r' & -> & -> & ->). exists (q :: l'), r'. auto.
    Qed.
    Lemma keyed_split ps l p g r : keyed ps = l ++ (p, g) :: r ->
      exists l' a r', ps = l' ++ (p, a) :: r' /\ l = keyed l' /\ g = (fun v => VPair v a).
    Proof.
      revert l. induction ps as [|[q b] ps IH]; intros [|x l] E; try discriminate; cbn in E.
      - injection E as -> <- <-. exists [], b, ps. auto.
      - injection E as <- E. destruct (IH l E) as (l' & a & r' & -> & -> & ->). exists ((q, b) :: l'), a, r'. auto.
    Qed.
    Lemma first_all_ko w i e ps : Forall (fun q => exists e', Peg w q i (KO e')) ps -> First k G sk w ps i e (KO e).
    Proof. induction 1 as [|q ps [e' Q] _ IH]; [constructor|eapply First_next; eauto]. Qed.

    Ltac nn := match goal with
      | H : near _ _ _ |- _ => unfold near in *
      | |- near _ _ _ => unfold near in *
      end.
    Ltac nr := unfold near in *; intuition congruence.

    (** Run a sub-parser in constructing or in matching mode and name what is known. *)
    Ltac useC p x st C v j y st' :=
      let T := fresh "T" in let N := fresh "N" in let L := fresh "L" in let e := fresh "e" in
      let P := fresh "P" in let N1 := fresh "N" in let N2 := fresh "N" in let N3 := fresh "N" in let b := fresh "b" in
      let Pb := fresh "Pb" in
      match goal with |- vres ?w _ _ _ =>
        destruct (CON held p w x st C ltac:(assumption)) as [v j y st' T N L|e y st' P N|z]; [| |constructor];
        destruct N as (N1 & N2 & N3);
        [destruct (tree_peg _ _ _ _ _ T C) as [b Pb]|]
      end.
    Ltac useM p x st b j y :=
      let N := fresh "N" in let e := fresh "e" in
      let P := fresh "P" in let N1 := fresh "N" in let N2 := fresh "N" in let N3 := fresh "N" in
      let L1 := fresh "L" in let L2 := fresh "L" in
      match goal with |- vres ?w _ _ _ =>
        destruct (ctm_v n held p w x st ltac:(assumption) ltac:(assumption)) as [b j y P L1 L2 N|e y P N|z]; [| |constructor];
        destruct N as (N1 & N2 & N3)
      end.
    (** Rewrite along nearness, then close with a rule. *)
    Ltac norm := repeat match goal with
      | N : sk ?w ?y = sk ?w ?j, P : context [sk ?w ?y] |- _ =>
          match P with N => fail 1 | _ => idtac end; match j with ?y' => is_var y; rewrite N in P end
      end.
    Ltac bnd := repeat match goal with
      | H : ?j <= length ?w, G' : forall j, j <= length ?w -> j <= sk ?w j |- _ =>
          lazymatch goal with _ : j <= sk w j |- _ => fail | _ => pose proof (G' j H) end end; lia.
    Ltac okT R := norm; rewrite ?put_cx', ?put_cx2; eapply VOk; [eapply R; eauto|split; [|split]; auto; congruence|bnd].
    Ltac koT R := norm; rewrite ?put_cx', ?put_cx2; apply VErr; [eapply R; eauto|split; [|split]; auto; congruence].
    Ltac koP R := norm; rewrite ?put_cx', ?put_cx2; apply VErr; [eapply R; eauto|split; [|split]; auto; congruence].

    Lemma cstep_v p w x st : tcore p -> x <= length w -> vres w p x (construct_step h G (parse n G) con fuel held pols p (cx w x, st)).
    Proof.
      intros C Hx.
      assert (SG : forall j, j <= length w -> j <= sk w j) by (intros; now apply sk_ge).
      assert (SI : forall j, j <= length w -> sk w (sk w j) = sk w j) by (intros; now apply sk_idem).
      destruct C.
      - (* leaves *)
        assert (E : construct_step h G (parse n G) con fuel held pols p (cx w x, st) = (s <- ctm p ;; invoke h s) (cx w x, st))
          by (destruct p; try contradiction; reflexivity).
        rewrite E. apply leaf_v; auto. intros. eapply Tree_leaf; eauto.
      - cbn [construct_step]. apply leaf_v; auto; intros; [eapply Tree_pat; eauto|now constructor].
      - (* then *) cbn [construct_step]. cstep.
        useC p x st C1 v j y st1.
        useC q y st1 C2 v' j' y' st2.
        + okT Tree_then.
        + koT Peg_then_ko2.
        + koP Peg_then_ko1.
      - (* if_then *) cbn [construct_step]. cstep.
        useC p x st C1 v j y st1.
        useM t y st1 b1 j1 y1.
        + useC q y1 st1 C2 v' j' y' st2.
          * okT Tree_ifthen_yes.
          * koT Peg_ifthen_ko2.
        + okT Tree_ifthen_no.
        + koP Peg_ifthen_ko1.
      - (* or *) cbn [construct_step]. cstep.
        useC p x st C1 v j y st1.
        + okT Tree_or1.
        + rewrite put_cx2. useC q x st1 C2 v j y' st2.
          * okT Tree_or2.
          * koP Peg_or2.
      - (* longest *) rename H into Sp, H0 into Sq, H1 into Id. cbn [construct_step]. cstep.
        assert (NE : forall y j, near w y j -> y = j) by (intros ? ? (? & ? & E); rewrite !Id in E; auto).
        assert (BL : forall i j, i <= length w -> j <= length w -> (bo w i <=? bo w j) = (i <=? j)).
        { intros i j Hi Hj. pose proof (bo_le_iff k w i j Hi Hj).
          destruct (Nat.leb_spec (bo w i) (bo w j)); destruct (Nat.leb_spec i j); auto; lia. }
        destruct (CON held p w x st C1 Hx) as [v j y st1 T N L|e y st1 P N|z]; [| |constructor];
          rewrite (NE _ _ N) in *; clear N y.
        + destruct (tree_peg _ _ _ _ _ T C1) as [b Pb]. rewrite put_cx2.
          pose proof (ok_in' _ _ _ _ _ C1 Hx Pb) as (B1 & B2 & B3).
          destruct (CON held q w x st1 C2 Hx) as [v' j' y' st2 T' N' L'|e y' st2 P N'|z]; [| |constructor];
            rewrite (NE _ _ N') in *; clear N' y'; rewrite ?(off_cx k).
          * destruct (tree_peg _ _ _ _ _ T' C2) as [b' Pb'].
            pose proof (ok_in' _ _ _ _ _ C2 Hx Pb') as (B1' & B2' & B3').
            rewrite BL by auto. destruct (Nat.leb_spec j' j).
            -- rewrite put_cx'. eapply VOk; [eapply Tree_longest_l; eauto|now apply near_refl|auto].
            -- rewrite put_cx'. eapply VOk; [eapply Tree_longest_r; eauto|now apply near_refl|auto].
          * rewrite put_cx'. eapply VOk; [eapply Tree_longest_l1; eauto|now apply near_refl|auto].
        + rewrite put_cx2.
          destruct (CON held q w x st1 C2 Hx) as [v' j' y' st2 T' N' L'|e' y' st2 P' N'|z]; [| |constructor];
            rewrite (NE _ _ N') in *; clear N' y'; rewrite ?(off_cx k).
          * destruct (tree_peg _ _ _ _ _ T' C2) as [b' Pb'].
            pose proof (ok_in' _ _ _ _ _ C2 Hx Pb') as (B1' & B2' & B3').
            rewrite put_cx'. eapply VOk; [eapply Tree_longest_r1; eauto|now apply near_refl|auto].
          * rewrite put_cx'. apply VErr; [eapply Peg_longest_ko; eauto|now apply near_refl].
      - (* prefix *) cbn [construct_step]. cstep.
        useM q x st b1 j1 y1.
        + useC p y1 st C v' j' y' st2.
          * okT Tree_prefix.
          * koT Peg_prefix_ko2.
        + koP Peg_prefix_ko1.
      - (* suffix *) cbn [construct_step]. cstep.
        useC p x st C v' j' y' st2.
        + useM q y' st2 b1 j1 y1.
          * okT Tree_suffix.
          * koT Peg_suffix_ko2.
        + koP Peg_suffix_ko1.
      - (* enclose *) cbn [construct_step]. cstep.
        useM o x st b1 j1 y1.
        + useC p y1 st C v' j' y' st2.
          * useM c y' st2 b2 j2 y2.
            -- okT Tree_enclose.
            -- koT Peg_enclose_ko3.
          * koT Peg_enclose_ko2.
        + koP Peg_enclose_ko1.
      - (* sep_once *) cbn [construct_step]. cstep.
        useC p x st C1 v j y st1.
        + useM s y st1 b1 j1 y1.
          * useC q y1 st1 C2 v' j' y' st2.
            -- okT Tree_seponce.
            -- koT Peg_seponce_ko3.
          * koT Peg_seponce_ko2.
        + koP Peg_seponce_ko1.
      - (* sep *) cbn [construct_step]. unfold bind at 1, offset. cbn [get_off pair_offset fst ctx_offset].
        pose proof (sep_v p s w C H fuel [] (sk w x) x st ltac:(split; [|split]; auto; [now apply sk_le|symmetry; now apply sk_idem])) as V.
        unfold bind. destruct (sep_vals (con held p) (ctm s) fuel true [] (cx w x, st)) as [[l|e| |] [c st']]; try contradiction; [|constructor].
        destruct V as (vs & j & y & -> & T & -> & (N1 & N2 & N3) & L). cbn [app].
        unfold accept, bind, set_offset, ret, fail. destruct (Nat.leb_spec mn (length vs)).
        + eapply VOk; [eapply Tree_sep; eauto|split; auto|]. rewrite sk_idem in L by auto. lia.
        + cbn [put_off pair_offset ctx_offset fst snd]. rewrite put_cx2. apply VErr; [|now apply near_refl].
          eapply Peg_sep_ko; [apply tree_peg_all|]; eauto.
      - (* repeat *) cbn [construct_step]. unfold bind at 1, offset. cbn [get_off pair_offset fst ctx_offset].
        assert (ML : forall c, repeat_more r c = lim_more (limit_of r) c)
          by (intros; unfold repeat_more, limit_of; destruct (r_hi r); reflexivity).
        pose proof (repeat_v p w _ _ C ML fuel [] (sk w x) x st ltac:(split; [|split]; auto; [now apply sk_le|symmetry; now apply sk_idem])) as V.
        unfold bind. destruct (repeat_vals (con held p) fuel (repeat_more r) [] (cx w x, st)) as [[l|e| |] [c st']]; try contradiction; [|constructor].
        destruct V as (vs & j & y & -> & T & -> & (N1 & N2 & N3) & L). cbn [app length] in *. rewrite lim_sub_0 in T.
        unfold accept, bind, set_offset, ret, fail. destruct (crange_contains r (length vs)) eqn:I.
        + eapply VOk; [eapply Tree_repeat; eauto|split; auto|]. rewrite sk_idem in L by auto. lia.
        + cbn [put_off pair_offset ctx_offset fst snd]. rewrite put_cx2. apply VErr; [|now apply near_refl].
          eapply Peg_repeat_ko; [apply tree_peg_all|]; eauto.
      - (* collect *) cbn [construct_step]. unfold bind at 1, offset. cbn [get_off pair_offset fst ctx_offset].
        pose proof (repeat_v p w None (fun _ => true) C (fun _ => eq_refl) fuel [] (sk w x) x st ltac:(split; [|split]; auto; [now apply sk_le|symmetry; now apply sk_idem])) as V.
        unfold bind. destruct (repeat_vals (con held p) fuel (fun _ => true) [] (cx w x, st)) as [[l|e| |] [c st']]; try contradiction; [|constructor].
        destruct V as (vs & j & y & -> & T & -> & (N1 & N2 & N3) & L). cbn [app length] in *. rewrite lim_sub_0 in T.
        unfold accept, bind, set_offset, ret, fail. destruct (Nat.leb_spec mn (length vs)).
        + eapply VOk; [eapply Tree_collect; eauto|split; auto|]. rewrite sk_idem in L by auto. lia.
        + cbn [put_off pair_offset ctx_offset fst snd]. rewrite put_cx2. apply VErr; [|now apply near_refl].
          eapply Peg_collect_ko; [apply tree_peg_all|]; eauto.
      - (* option *) cbn [construct_step]. cstep.
        useC p x st C v j y st1.
        + okT Tree_some.
        + rewrite put_cx2. eapply VOk; [eapply Tree_none; eauto| |auto].
          split; auto. split; [now apply sk_le|]. symmetry. now apply sk_idem.
      - (* branch *) rename H into D, H0 into I. cbn [construct_step]. cstep. specialize (D (cx w x)).
        pose proof (I w x Hx) as Ew. rewrite Ew in D |- *.
        destruct (t (cx w (sk w x))) as [[|]|e| |] eqn:Et; try contradiction.
        + useC p x st C1 v j y st1; [okT Tree_branch_t|rewrite ?put_cx2; apply VErr; [eapply Peg_branch_t; eauto|now apply near_refl]].
        + useC q x st C2 v j y st1; [okT Tree_branch_f|rewrite ?put_cx2; apply VErr; [eapply Peg_branch_f; eauto|now apply near_refl]].
        + apply VErr; [eapply Peg_branch_e; eauto|now apply near_refl].
      - (* map *) rename H into F. cbn [construct_step]. cstep.
        useC p x st C v j y st1.
        + destruct (F _ _ _ _ T) as [v' Ev]. rewrite Ev. okT Tree_map.
        + koP Peg_map.
      - (* choice *) rename H into F. cbn [construct_step]. unfold bind, offset. cbn [get_off pair_offset fst ctx_offset].
        pose proof (choice_v w x e (plain ps) Hx (plain_in ps F) st) as V. change (c_off (cx w x)) with (bo w x).
        destruct (con_choice (con held) (bo w x) e (plain ps) (cx w x, st)) as [[v|e'| |] [c st']]; try contradiction; [| |constructor].
        + destruct V as (l & p & g & r & v' & j & y & E & -> & Fl & T & -> & N & L).
          destruct (plain_split _ _ _ _ _ E) as (l' & r' & -> & -> & ->).
          eapply VOk; [eapply Tree_choice; eauto|auto|auto]. unfold plain in Fl. now rewrite Forall_map in Fl.
        + destruct V as (-> & Fl & ->). apply VErr; [|now apply near_refl]. constructor. apply first_all_ko.
          unfold plain in Fl. now rewrite Forall_map in Fl.
      - (* keyed choice *) rename H into F. cbn [construct_step]. unfold bind, offset. cbn [get_off pair_offset fst ctx_offset].
        pose proof (choice_v w x e (keyed ps) Hx (keyed_in ps F) st) as V. change (c_off (cx w x)) with (bo w x).
        destruct (con_choice (con held) (bo w x) e (keyed ps) (cx w x, st)) as [[v|e'| |] [c st']]; try contradiction; [| |constructor].
        + destruct V as (l & p & g & r & v' & j & y & E & -> & Fl & T & -> & N & L).
          destruct (keyed_split _ _ _ _ _ E) as (l' & a & r' & -> & -> & ->).
          eapply VOk; [eapply Tree_pairchoice; eauto|auto|auto]. unfold keyed in Fl. now rewrite Forall_map in Fl.
        + destruct V as (-> & Fl & ->). apply VErr; [|now apply near_refl]. constructor. apply first_all_ko.
          unfold keyed in Fl. rewrite Forall_map in Fl. now rewrite Forall_map.
      - (* wrap *) cbn [construct_step]. useC p x st C v j y st1; [okT Tree_wrap|koP Peg_wrap].
      - cbn. apply VErr; [constructor|now apply near_refl].
      - (* ref *) cbn [construct_step]. destruct (env_get G i) as [p|] eqn:E.
        + pose proof (TE i p E) as C. useC p x st C v j y st1; [okT Tree_ref|koP Peg_ref].
        + cbn. apply VErr; [now constructor|now apply near_refl].
    Qed.
  End Step.

  Theorem construct_sound n : forall held p w x st, tcore p -> x <= length w ->
    vres w p x (construct h n G held pols p (cx w x, st)).
  Proof.
    induction n as [|n IH]; intros held p w x st C Hx; [constructor|]. cbn [construct].
    apply cstep_v; auto.
  Qed.
End CtorSound.
