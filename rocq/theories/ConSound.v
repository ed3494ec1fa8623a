(** Constructing mode follows the specification of ConSpec.v, failures and panics included. *)

From Coq Require Import List Arith NArith Bool Lia.
From Verif Require Import Base Text Context Neu Syntax Regex Ctor TextProofs Spec Units Core Sound Complete CtorSpec CtorSound ConSpec Laws.
Import ListNotations.

Lemma count_LV {ST} good e i f vs j (s : ST) : count_ok good e i f (LV vs j s) = if good vs then CV (f vs) j s else CE e i s.
Proof. reflexivity. Qed.

Section ConSound.
  Variable k : kind.
  Variable G : env.
  Variable sk : text -> nat -> nat.
  Variable pols : list pat.
  Context {ST : Type}.
  Variable hv : text -> nat -> nat -> ST -> res val * ST.
  Variable h : handler ST.
  Hypothesis SK : skipper sk.
  Hypothesis CEnv : core_env k G sk.
  Hypothesis IM : implements k G sk pols.
  Hypothesis OE : con_ok_env k G sk.
  Hypothesis HA : answers k sk hv h.
  Notation cx := (cx k).
  Notation sp := (sp k).
  Notation bo := (bo k).
  Notation Mat w p i := (Peg k G sk w p (sk w i)).
  Notation Con := (Con k G sk hv).
  Notation core := (core k G sk).
  Notation con_ok := (con_ok k G sk).
  Notation same := (same sk).

  Lemma same_refl w i : i <= length w -> same w i i.
  Proof. now repeat split. Qed.
  Lemma same_sym w i j : same w i j -> same w j i.
  Proof. intros (E & H1 & H2). now repeat split. Qed.
  Lemma same_le w i j : same w i j -> sk w i <= sk w j.
  Proof. intros (E & _). lia. Qed.
  Lemma same_l w i j : same w i j -> i <= length w.
  Proof. intros (_ & H & _). exact H. Qed.
  Lemma same_r w i j : same w i j -> j <= length w.
  Proof. intros (_ & _ & H). exact H. Qed.
  Lemma sk_up w i : i <= length w -> i <= sk w i /\ sk w i <= length w.
  Proof. intros H. now apply (proj1 SK). Qed.
  Lemma sk_idem w i : i <= length w -> sk w (sk w i) = sk w i.
  Proof. intros H. pose proof (sk_up w i H). apply (proj2 SK); lia. Qed.
  Lemma same_sk w i x : same w i x -> same w i (sk w x).
  Proof. intros (E & H1 & H2). pose proof (sk_up w x H2). repeat split; auto; [|lia]. now rewrite sk_idem. Qed.
  Lemma sk_mono w i j : i <= j -> j <= length w -> sk w i <= sk w j.
  Proof.
    intros H1 H2. destruct (Nat.le_gt_cases j (sk w i)) as [H|H].
    - rewrite (proj2 SK w i j); auto. lia.
    - pose proof (sk_up w j H2). lia.
  Qed.
  Lemma sk_below w i j : sk w i <= j -> j <= length w -> sk w i <= sk w j.
  Proof. intros H1 H2. pose proof (sk_up w j H2). lia. Qed.

  (** The result of a construction and the specified outcome. *)
  Inductive cres (w : text) (p : pat) (i : nat) (s : ST) : res val * (ctx * ST) -> Prop :=
  | RV v j y s' : Con w p i s (CV v j s') -> same w j y -> sk w i <= sk w j -> cres w p i s (Ok v, (cx w y, s'))
  | RE e j y s' : Con w p i s (CE e j s') -> same w j y -> sk w i <= sk w j -> cres w p i s (Err e, (cx w y, s'))
  | RP z : Con w p i s CP -> cres w p i s (Panic, z)
  | RO z : cres w p i s (OOF, z).

  Inductive mres (w : text) (p : pat) (i : nat) (s : ST) : res span * (ctx * ST) -> Prop :=
  | MOk b j y : Mat w p i (OK b j) -> b <= j -> same w j y -> sk w i <= sk w j -> mres w p i s (Ok (sp w b j), (cx w y, s))
  | MErr e y : Mat w p i (KO e) -> same w i y -> mres w p i s (Err e, (cx w y, s))
  | MOof z : mres w p i s (OOF, z).

  Lemma ctm_c n held p w i x s : core p -> same w i x ->
    mres w p i s (ctm (parse n G) held pols p (cx w x, s)).
  Proof.
    intros C E. unfold ctm, on_ctx. cbn [fst snd]. pose proof (proj1 E) as E1.
    destruct (try_mat_sound k G sk pols SK CEnv IM n held p w x C (same_r _ _ _ E)) as [b j y P ? ? ? ? ?|e P|c].
    - rewrite <- E1 in P. constructor; auto.
      + repeat split; auto; [|pose proof (sk_up w j); lia]. symmetry. apply (proj2 SK); lia.
      + apply sk_below; lia.
    - rewrite <- E1 in P. constructor; auto. now apply same_sk.
    - constructor.
  Qed.

  Lemma invoke_c w y b j s : b <= j -> same w j y ->
    invoke h (sp w b j) (cx w y, s) = (fst (hv w b j s), (cx w y, snd (hv w b j s))) /\ fst (hv w b j s) <> OOF.
  Proof.
    intros Hb Hy. unfold invoke. cbn [fst snd]. destruct (HA w y b j s Hy Hb) as [E N]. rewrite E.
    destruct (hv w b j s) as [r s']. auto.
  Qed.

  Lemma cres_settle w p i j y s r s' z : Con w p i s (settle j (r, s')) -> same w j y -> sk w i <= sk w j -> r <> OOF -> z = (cx w y, s') ->
    cres w p i s (r, z).
  Proof. intros C H1 H2 N ->. destruct r; cbn in C; [eapply RV; eauto|eapply RE; eauto|now apply RP|congruence]. Qed.

  Ltac cstep := cbv beta iota zeta delta
    [bind catch ret fail panic oof lift reads offset set_offset get_off put_off ctx_offset pair_offset
     with_guard g_new g_beg g_on g_try g_drop g_ctx g_offset g_reset on_err_reset accept fst snd].
  Lemma put_a w i x : {| c_kind := c_kind (cx w x); c_dat := c_dat (cx w x); c_off := bo w i |} = cx w i.
  Proof. reflexivity. Qed.
  Lemma put_b w i x : {| c_kind := c_kind (cx w x); c_dat := c_dat (cx w x); c_off := c_off (cx w i) |} = cx w i.
  Proof. reflexivity. Qed.
  Lemma bo_leb w i j : i <= length w -> j <= length w -> (bo w i <=? bo w j) = (i <=? j).
  Proof.
    intros Hi Hj. pose proof (bo_le_iff k w i j Hi Hj).
    destruct (Nat.leb_spec (bo w i) (bo w j)); destruct (Nat.leb_spec i j); auto; lia.
  Qed.
  Lemma bo_ltb w i j : i <= length w -> j <= length w -> (bo w i <? bo w j) = (i <? j).
  Proof. intros Hi Hj. rewrite !Nat.ltb_antisym, bo_leb by auto. reflexivity. Qed.

  Section Step.
    Variable n : nat.
    Variable con : list nat -> pat -> M (ctx * ST) val.
    Hypothesis CON : forall held p w i x st, con_ok p -> same w i x -> cres w p i st (con held p (cx w x, st)).
    Variable fuel : nat.
    Variable held : list nat.
    Notation ctm := (ctm (parse n G) held pols).

    (** What a loop returns: the accumulated values followed by those of the specification. *)
    Definition loop_res (w : text) (i : nat) (acc : list val) (R : lout ST -> Prop) (r : res (list val) * (ctx * ST)) : Prop :=
      match r with
      | (Ok l, (c, s')) => exists vs j y, l = acc ++ vs /\ R (LV vs j s') /\ c = cx w y /\ same w j y /\ sk w i <= sk w j
      | (Panic, _) => R LP
      | (OOF, _) => True
      | (Err _, _) => False
      end.

    Lemma lr_step w i j acc v (R R' : lout ST -> Prop) r :
      loop_res w j (acc ++ [v]) R r -> sk w i <= sk w j -> (forall l, R l -> R' (lcons v l)) -> loop_res w i acc R' r.
    Proof.
      intros L H F. destruct r as [[l|e| |] [c s']]; cbn in *; auto.
      - destruct L as (vs & j' & y & -> & Q & -> & L1 & L2). exists (v :: vs), j', y. rewrite <- app_assoc.
        split; [reflexivity|]. split; [exact (F _ Q)|]. split; [reflexivity|]. split; [exact L1|lia].
      - exact (F _ L).
    Qed.
    Lemma lr_done w i acc j y s (R : lout ST -> Prop) : R (LV [] j s) -> same w j y -> sk w i <= sk w j -> loop_res w i acc R (Ok acc, (cx w y, s)).
    Proof. intros Q L1 L2. exists [], j, y. rewrite app_nil_r. auto. Qed.
    Lemma lr_last w i acc v j y s (R : lout ST -> Prop) : R (LV [v] j s) -> same w j y -> sk w i <= sk w j -> loop_res w i acc R (Ok (acc ++ [v]), (cx w y, s)).
    Proof. intros Q L1 L2. exists [v], j, y. auto. Qed.

    Lemma repeat_c p w lim more : con_ok p -> (forall c, more c = lim_more lim c) ->
      forall f acc i x st, same w i x ->
      loop_res w i acc (Creps k G sk hv w p (lim_sub lim (length acc)) i st) (repeat_vals (con held p) f more acc (cx w x, st)).
    Proof.
      intros C ML f. induction f as [|f IH]; intros acc i x st Hi; [exact I|].
      cbn [repeat_vals]. rewrite ML. destruct (lim_more lim (length acc)) eqn:Em.
      - assert (NZ : lim_sub lim (length acc) <> Some 0).
        { destruct lim as [m|]; simpl in *; [|easy]. apply Nat.ltb_lt in Em. intros E. injection E. lia. }
        assert (EP : lim_sub lim (Datatypes.S (length acc)) = limit_pred (lim_sub lim (length acc))).
        { destruct lim as [m|]; simpl; [|easy]. f_equal. lia. }
        unfold bind, catch. destruct (CON held p w i x st C Hi) as [v j y st' T L1 L2|e j y st' T L1 L2|z T|z].
        + specialize (IH (acc ++ [v]) j y st' L1). rewrite app_length in IH. cbn [length] in IH. rewrite Nat.add_1_r, EP in IH.
          eapply lr_step; [exact IH|exact L2|]. intros l Q. eapply Creps_step; eauto.
        + eapply lr_done; eauto. eapply Creps_stop; eauto.
        + eapply Creps_panic; eauto.
        + exact I.
      - eapply lr_done; [|exact Hi|apply le_n].
        destruct lim as [m|]; [|discriminate]. simpl in *. apply Nat.ltb_ge in Em.
        replace (m - length acc) with 0 by lia. constructor.
    Qed.

    Lemma repeat2_c p w m : con_ok p ->
      forall f acc i x st, same w i x -> length acc <= m ->
      loop_res w i acc (fun l => exists l', Creps k G sk hv w p (Some (Datatypes.S m - length acc)) i st l' /\ capacity (m - length acc) l' = l)
        (repeat2_vals (con held p) f m acc (cx w x, st)).
    Proof.
      intros C f. induction f as [|f IH]; intros acc i x st Hi Ha; [exact I|].
      cbn [repeat2_vals]. destruct (Nat.leb_spec (length acc) m) as [_|]; [|lia].
      assert (NZ : Some (Datatypes.S m - length acc) <> Some 0) by (intros E; assert (Datatypes.S m - length acc = 0) by congruence; lia).
      unfold bind, catch. destruct (CON held p w i x st C Hi) as [v j y st' T L1 L2|e j y st' T L1 L2|z T|z].
      - destruct (Nat.ltb_spec (length acc) m) as [Hm|Hm].
        + specialize (IH (acc ++ [v]) j y st' L1). rewrite app_length in IH. cbn [length] in IH. specialize (IH ltac:(lia)).
          assert (EP : Some (Datatypes.S m - (length acc + 1)) = limit_pred (Some (Datatypes.S m - length acc))) by (cbv [limit_pred option_map]; f_equal; lia).
          rewrite EP in IH.
          assert (CC : forall l : lout ST, capacity (m - length acc) (lcons v l) = lcons v (capacity (m - (length acc + 1)) l)).
          { intros [vs z z'|]; [|reflexivity]. cbn [lcons capacity length].
            destruct (Nat.leb_spec (Datatypes.S (length vs)) (m - length acc)); destruct (Nat.leb_spec (length vs) (m - (length acc + 1))); auto; lia. }
          eapply lr_step; [exact IH|exact L2|]. intros l (l' & Q & E). exists (lcons v l').
          split; [eapply Creps_step; eauto|]. now rewrite CC, E.
        + exists (lcons v (LV [] j st')). assert (m = length acc) by lia. subst m. split.
          * eapply Creps_step; eauto. replace (limit_pred (Some (Datatypes.S (length acc) - length acc))) with (Some 0); [constructor|]. cbv [limit_pred option_map]. f_equal. lia.
          * rewrite Nat.sub_diag. reflexivity.
      - eapply lr_done; eauto. exists (LV [] j st'). split; [eapply Creps_stop; eauto|]. reflexivity.
      - exists LP. split; [eapply Creps_panic; eauto|reflexivity].
      - exact I.
    Qed.

    Lemma sep_c p s w skip : con_ok p -> core s ->
      forall f acc i x st, same w i x ->
      loop_res w i acc (Cseps k G sk hv w p s skip None i st) (sep_vals (con held p) (ctm s) f skip acc (cx w x, st)).
    Proof.
      intros C Cs f. induction f as [|f IH]; intros acc i x st Hi; [exact I|].
      assert (NZ : None <> Some 0) by discriminate.
      cbn [sep_vals]. unfold bind at 1, catch at 1. destruct (CON held p w i x st C Hi) as [v j y st' T L1 L2|e j y st' T L1 L2|z T|z].
      - unfold bind, catch. destruct (ctm_c n held s w j y st' Cs L1) as [b' j' y' P' H1 H2 H3|e' y' P' H2|z].
        + specialize (IH (acc ++ [v]) j' y' st' H2). eapply lr_step; [exact IH|lia|]. intros l Q. eapply Cseps_step; eauto.
        + pose proof (Cseps_last k G sk hv w p s skip None i st v j st' e' NZ T P') as Q.
          destruct skip; [eapply lr_last; eauto|eapply lr_done; eauto].
        + exact I.
      - eapply lr_done; eauto. eapply Cseps_stop; eauto.
      - eapply Cseps_panic; eauto.
      - exact I.
    Qed.

    Lemma sep2_c p s w m skip : con_ok p -> core s ->
      forall f acc i x st, same w i x -> length acc <= m ->
      loop_res w i acc (fun l => exists l', Cseps k G sk hv w p s skip (Some (Datatypes.S m - length acc)) i st l' /\ capacity (m - length acc) l' = l)
        (sep2_vals (con held p) (ctm s) f m skip acc (cx w x, st)).
    Proof.
      intros C Cs f. induction f as [|f IH]; intros acc i x st Hi Ha; [exact I|].
      cbn [sep2_vals]. destruct (Nat.leb_spec (length acc) m) as [_|]; [|lia].
      assert (NZ : Some (Datatypes.S m - length acc) <> Some 0) by (intros E; assert (Datatypes.S m - length acc = 0) by congruence; lia).
      unfold bind at 1, catch at 1. destruct (CON held p w i x st C Hi) as [v j y st' T L1 L2|e j y st' T L1 L2|z T|z].
      - unfold bind, catch. destruct (ctm_c n held s w j y st' Cs L1) as [b' j' y' P' H1 H2 H3|e' y' P' H2|z].
        + destruct (Nat.ltb_spec (length acc) m) as [Hm|Hm].
          * specialize (IH (acc ++ [v]) j' y' st' H2). rewrite app_length in IH. cbn [length] in IH. specialize (IH ltac:(lia)).
            assert (EP : Some (Datatypes.S m - (length acc + 1)) = limit_pred (Some (Datatypes.S m - length acc))) by (cbv [limit_pred option_map]; f_equal; lia).
            rewrite EP in IH.
            assert (CC : forall l : lout ST, capacity (m - length acc) (lcons v l) = lcons v (capacity (m - (length acc + 1)) l)).
            { intros [vs z z'|]; [|reflexivity]. cbn [lcons capacity length].
              destruct (Nat.leb_spec (Datatypes.S (length vs)) (m - length acc)); destruct (Nat.leb_spec (length vs) (m - (length acc + 1))); auto; lia. }
            eapply lr_step; [exact IH|lia|]. intros l (l' & Q & E). exists (lcons v l').
            split; [eapply Cseps_step; eauto|]. now rewrite CC, E.
          * exists (lcons v (LV [] j' st')). assert (m = length acc) by lia. subst m. split.
            -- eapply Cseps_step; eauto. replace (limit_pred (Some (Datatypes.S (length acc) - length acc))) with (Some 0); [constructor|]. cbv [limit_pred option_map]. f_equal. lia.
            -- rewrite Nat.sub_diag. reflexivity.
        + pose proof (Cseps_last k G sk hv w p s skip _ i st v j st' e' NZ T P') as Q. destruct skip.
          * destruct (Nat.ltb_spec (length acc) m) as [Hm|Hm].
            -- eapply lr_last; eauto. exists (LV [v] j st'). split; [exact Q|].
               cbn [capacity length]. destruct (Nat.leb_spec 1 (m - length acc)); [reflexivity|lia].
            -- cbn. exists (LV [v] j st'). split; [exact Q|]. cbn [capacity length]. destruct (Nat.leb_spec 1 (m - length acc)); [lia|reflexivity].
          * eapply lr_done; eauto. exists (LV [] j st'). split; [exact Q|reflexivity].
        + exact I.
      - eapply lr_done; eauto. exists (LV [] j st'). split; [eapply Cseps_stop; eauto|]. reflexivity.
      - exists LP. split; [eapply Cseps_panic; eauto|reflexivity].
      - exact I.
    Qed.

    Lemma polls_c p s w skip : con_ok p -> core s ->
      forall f en acc i x st, same w i x ->
      loop_res w i acc (Cpolls k G sk hv w p s skip en i st) (sepcollect_vals (con held p) (ctm s) f skip en acc (cx w x, st)).
    Proof.
      intros C Cs f. induction f as [|f IH]; intros en acc i x st Hi; [exact I|].
      cbn [sepcollect_vals]. unfold bind at 1, catch at 1. destruct (CON held p w i x st C Hi) as [v j y st' T L1 L2|e j y st' T L1 L2|z T|z].
      - unfold bind, catch. destruct (ctm_c n held s w j y st' Cs L1) as [b' j' y' P' H1 H2 H3|e' y' P' H2|z].
        + destruct en.
          * eapply lr_done; [eapply Cpolls_over; eauto|auto|lia].
          * cbn [negb orb]. specialize (IH false (acc ++ [v]) j' y' st' H2).
            eapply lr_step; [exact IH|lia|]. intros l Q. eapply Cpolls_step; eauto.
        + destruct en.
          * eapply lr_done; [eapply Cpolls_over_ko; eauto|auto|lia].
          * cbn [negb orb]. destruct skip.
            -- specialize (IH true (acc ++ [v]) j y' st' H2). eapply lr_step; [exact IH|lia|]. intros l Q. eapply Cpolls_last; eauto.
            -- eapply lr_done; [eapply Cpolls_drop; eauto|auto|lia].
        + exact I.
      - eapply lr_done; eauto. eapply Cpolls_stop; eauto.
      - eapply Cpolls_panic; eauto.
      - exact I.
    Qed.

    (** A result and an outcome agree. *)
    Definition shows (w : text) (i : nat) (R : cout ST -> Prop) (r : res val * (ctx * ST)) : Prop :=
      match r with
      | (Ok v, (c, s')) => exists j y, R (CV v j s') /\ c = cx w y /\ same w j y /\ sk w i <= sk w j
      | (Err e, (c, s')) => exists j y, R (CE e j s') /\ c = cx w y /\ same w j y /\ sk w i <= sk w j
      | (Panic, _) => R CP
      | (OOF, _) => True
      end.
    Lemma shows_imp w i (R R' : cout ST -> Prop) r : shows w i R r -> (forall o, R o -> R' o) -> shows w i R' r.
    Proof.
      intros L F. destruct r as [[v|e| |] [c s']]; cbn in *; auto;
        destruct L as (j & y & Q & ? & ? & ?); exists j, y; auto.
    Qed.

    Lemma first_c w i x e (ps : list (pat * (val -> val))) : same w i x -> (forall p, In p ps -> con_ok (fst p)) ->
      forall st, shows w i (Cfirst k G sk hv w e ps i st) (con_choice (con held) (bo w x) e ps (cx w x, st)).
    Proof.
      intros Hi. induction ps as [|[p g] ps IH]; intros C st.
      - exists i, x. repeat split; auto; try apply Hi. constructor.
      - cbn [con_choice]. unfold bind, catch, on_err_reset. cbn [fst snd].
        destruct (CON held p w i x st (C (p, g) (or_introl eq_refl)) Hi) as [v j y st' T L1 L2|e' j y st' T L1 L2|z T|z].
        + exists j, y. split; [now constructor|auto].
        + cbn [put_off pair_offset fst snd ctx_offset]. change (Ctx (c_kind (cx w y)) (c_dat (cx w y)) (bo w x)) with (cx w x).
          specialize (IH (fun p I => C p (or_intror I)) st'). eapply shows_imp; [exact IH|]. intros o. now apply Cfirst_next with e' j.
        + now constructor.
        + exact I.
    Qed.

    Lemma plain_pos w i x : skips_nothing sk -> same w i x -> x = i.
    Proof. intros N (E & H1 & H2). rewrite !N in E by auto. auto. Qed.

    Lemma longest_c w i e (ps : list (pat * (val -> val))) : skips_nothing sk -> i <= length w -> (forall p, In p ps -> con_ok (fst p)) ->
      forall best en cur st, i <= en -> en <= length w -> i <= cur -> cur <= length w ->
      shows w i (Clongest k G sk hv w e ps i best en cur st) (con_choice_ltm (con held) (bo w i) e best (bo w en) ps (cx w cur, st)).
    Proof.
      intros N Hi. induction ps as [|[p g] ps IH]; intros C best en cur st E1 E2 K1 K2.
      - cbn. destruct best as [v|]; exists cur, cur; repeat split; auto; try (constructor; fail); now apply sk_mono.
      - cbn [con_choice_ltm]. unfold bind, catch, set_offset, offset. cbn [put_off pair_offset fst snd ctx_offset get_off].
        change (Ctx (c_kind (cx w cur)) (c_dat (cx w cur)) (bo w i)) with (cx w i).
        destruct (CON held p w i i st (C (p, g) (or_introl eq_refl)) (same_refl w i Hi)) as [v j y st' T L1 L2|e' j y st' T L1 L2|z T|z].
        + pose proof (plain_pos w j y N L1). subst y. pose proof (same_l _ _ _ L1) as L3. rewrite !N in L2 by auto.
          cbn [fst snd]. change (c_off (cx w j)) with (bo w j). rewrite bo_ltb by auto. destruct (Nat.ltb_spec en j) as [Hj|Hj].
          * specialize (IH (fun p I => C p (or_intror I)) (Some (g v)) j j st' L2 L3 L2 L3). eapply shows_imp; [exact IH|].
            intros o Q. eapply Clongest_more; eauto.
          * specialize (IH (fun p I => C p (or_intror I)) best en j st' E1 E2 L2 L3). eapply shows_imp; [exact IH|].
            intros o Q. eapply Clongest_less; eauto.
        + pose proof (plain_pos w j y N L1). subst y. pose proof (same_l _ _ _ L1) as L3. rewrite !N in L2 by auto.
          cbn [fst snd]. specialize (IH (fun p I => C p (or_intror I)) best en j st' E1 E2 L2 L3). eapply shows_imp; [exact IH|].
          intros o Q. eapply Clongest_ko; eauto.
        + eapply Clongest_panic; eauto.
        + exact I.
    Qed.

    Lemma shows_cres w p i st (R : cout ST -> Prop) r : (forall o, R o -> Con w p i st o) -> shows w i R r -> cres w p i st r.
    Proof.
      intros H. destruct r as [[v|e| |] [c s']]; cbn.
      - intros (j & y & T & -> & ? & ?). eapply RV; eauto.
      - intros (j & y & T & -> & ? & ?). eapply RE; eauto.
      - intros T. apply RP; auto.
      - intros. constructor.
    Qed.
    Lemma plain_ok (ps : list pat) : (forall p, In p ps -> con_ok p) -> forall p, In p (plain ps) -> con_ok (fst p).
    Proof. intros H p I. unfold plain in I. apply in_map_iff in I. destruct I as (q & <- & I). now apply H. Qed.
    Lemma keyed_ok ps : (forall p, In p ps -> con_ok (fst p)) -> forall p, In p (keyed ps) -> con_ok (fst p).
    Proof. intros H p I. unfold keyed in I. apply in_map_iff in I. destruct I as (q & <- & I). now apply H. Qed.

    (** A loop followed by the check of its length. *)
    Lemma loop_accept w p i x st acc (R : lout ST -> Prop) good e f r :
      loop_res w i acc R r -> acc = [] -> same w i x -> (forall l, R l -> Con w p i st (count_ok good e i f l)) ->
      cres w p i st (match r with
                  | (Ok l, x') => accept (good l) e (bo w x) (f l) x'
                  | (Err e, x) => (Err e, x)
                  | (Panic, x) => (Panic, x)
                  | (OOF, x) => (OOF, x)
                  end).
    Proof.
      intros L -> Hi H. destruct r as [[l|e'| |] [c s']]; cbn in L.
      - destruct L as (vs & j & y & -> & T & -> & L1 & L2). apply H in T. rewrite count_LV in T. cbn [app].
        unfold accept. destruct (good vs).
        + eapply RV; eauto.
        + unfold bind, set_offset, fail. cbn [put_off pair_offset fst snd ctx_offset].
          change (Ctx (c_kind (cx w y)) (c_dat (cx w y)) (bo w x)) with (cx w x). eapply RE; eauto.
      - contradiction.
      - apply H in L. apply RP. exact L.
      - constructor.
    Qed.

    Ltac useC p i x st C v j y st' :=
      let T := fresh "T" in let L1 := fresh "L" in let L2 := fresh "L" in let e := fresh "e" in let z := fresh "z" in
      match goal with |- cres ?w _ _ _ _ =>
        destruct (CON held p w i x st C ltac:(assumption)) as [v j y st' T L1 L2|e j y st' T L1 L2|z T|z]; [| | |constructor]
      end.
    Ltac useM p i x st b j y :=
      let e := fresh "e" in
      let P := fresh "P" in let L1 := fresh "L" in let L2 := fresh "L" in let L3 := fresh "L" in
      match goal with |- cres ?w _ _ _ _ =>
        destruct (ctm_c n held p w i x st ltac:(assumption) ltac:(assumption)) as [b j y P L1 L2 L3|e y P L2|z]; [| |constructor]
      end.
    Ltac fin R := rewrite ?put_a, ?put_b; first
      [ eapply RV; [eapply R; eauto|eassumption|lia]
      | match goal with
        | |- cres ?w ?p ?i ?st (Err ?e, (_, ?s')) =>
            apply (RE w p i st e i);
            [first [ eapply R; solve [eauto]
                   | match goal with T : Con _ _ _ _ (CE ?e' ?j ?s1) |- _ =>
                       change (CE e i s') with (undo i (CE e j s')); eapply R; solve [eauto | exact Logic.I] end ]|assumption|lia]
        | |- cres _ _ ?i _ (Panic, _) => apply RP; first [eapply R; solve [eauto] | change CP with (undo i (@CP ST)); eapply R; solve [eauto | exact Logic.I]]
        end ].

    Lemma cstep_c p w i x st : con_ok p -> same w i x -> cres w p i st (construct_step h G (parse n G) con fuel held pols p (cx w x, st)).
    Proof.
      intros C Hi. pose proof (same_l _ _ _ Hi) as Hl. pose proof (same_r _ _ _ Hi) as Hr. destruct C.
      - (* leaves *)
        assert (E : construct_step h G (parse n G) con fuel held pols p (cx w x, st) = (s <- ctm p ;; invoke h s) (cx w x, st))
          by (destruct p; try contradiction; reflexivity).
        rewrite E. unfold bind. destruct (ctm_c n held p w i x st) as [b j y P L1 L2 L3|e y P L2|z]; auto; [| |constructor].
        + destruct (invoke_c w y b j st L1 L2) as (-> & N).
          eapply (cres_settle w _ i j y); eauto. rewrite <- surjective_pairing. now apply Con_leaf.
        + eapply RE; [now apply Con_leaf_ko|auto|lia].
      - cbn [construct_step]. unfold bind. destruct (ctm_c n held p w i x st) as [b j y P L1 L2 L3|e y P L2|z]; auto; [| |constructor].
        + destruct (invoke_c w y b j st L1 L2) as (-> & N).
          eapply (cres_settle w _ i j y); eauto. rewrite <- surjective_pairing. now apply Con_pat.
        + eapply RE; [now apply Con_pat_ko|auto|lia].
      - (* then *) cbn [construct_step]. cstep.
        useC p i x st C1 v j y st1.
        + useC q j y st1 C2 v' j' y' st2; [fin Con_then|fin Con_then2|fin Con_then2].
        + fin Con_then1.
        + fin Con_then1.
      - (* if_then *) cbn [construct_step]. cstep.
        useC p i x st C1 v j y st1.
        + useM t j y st1 b1 j1 y1.
          * useC q j1 y1 st1 C2 v' j' y' st2; [fin Con_ifthen|fin Con_ifthen2|fin Con_ifthen2].
          * fin Con_ifthen_no.
        + fin Con_ifthen1.
        + fin Con_ifthen1.
      - (* or *) cbn [construct_step]. cstep.
        useC p i x st C1 v j y st1.
        + fin Con_or1.
        + rewrite put_b. useC q i x st1 C2 v' j' y' st2; pose proof (Con_or2 k G sk hv w p q i st _ _ _ _ T T0) as R; rewrite ?put_b.
          * eapply RV; eauto.
          * eapply RE; [exact R|auto|lia].
          * apply RP. exact R.
        + fin Con_or1_panic.
      - (* longest *) rename H into N. pose proof (plain_pos w i x N Hi). subst x. cbn [construct_step]. cstep.
        useC p i i st C1 v j y st1; [| |fin Con_longest_panic]; pose proof (plain_pos w j y N L); subst y; rewrite put_b;
          (useC q i i st1 C2 v' j' y' st2; [pose proof (plain_pos w j' y' N L1); subst y'|pose proof (plain_pos w j' y' N L1); subst y'|]);
          first [pose proof (Con_longest_v k G sk hv w p q i _ _ _ _ _ T T0) as R|pose proof (Con_longest_e k G sk hv w p q i _ _ _ _ _ T T0) as R]; cbn [longer] in R.
        + pose proof (same_l _ _ _ L) as B1. pose proof (same_l _ _ _ L1) as B2.
          rewrite !(off_cx k), bo_leb by auto. destruct (j' <=? j); rewrite put_a; eapply RV; eauto.
        + rewrite put_b. eapply RV; eauto.
        + apply RP; auto.
        + rewrite ?put_b. eapply RV; eauto.
        + rewrite ?put_b. eapply RE; [exact R|auto|lia].
        + apply RP; auto.
      - (* prefix *) cbn [construct_step]. cstep.
        useM q i x st b1 j1 y1.
        + useC p j1 y1 st C v' j' y' st2; pose proof (Con_prefix k G sk hv w p q i _ _ _ _ P T) as R; rewrite ?put_b.
          * eapply RV; [exact R|auto|lia].
          * eapply RE; [exact R|auto|lia].
          * apply RP; auto.
        + fin Con_prefix_ko.
      - (* suffix *) cbn [construct_step]. cstep.
        useC p i x st C v j y st1.
        + useM q j y st1 b1 j1 y1; [fin Con_suffix|fin Con_suffix_ko].
        + fin Con_suffix1.
        + fin Con_suffix1.
      - (* enclose *) cbn [construct_step]. cstep.
        useM o i x st b1 j1 y1.
        + useC p j1 y1 st C v' j' y' st2.
          * useM c j' y' st2 b2 j2 y2; [fin Con_enclose|fin Con_enclose_ko3].
          * fin Con_enclose2.
          * fin Con_enclose2.
        + fin Con_enclose_ko1.
      - (* sep_once *) cbn [construct_step]. cstep.
        useC p i x st C1 v j y st1.
        + useM s j y st1 b1 j1 y1.
          * useC q j1 y1 st1 C2 v' j' y' st2; [fin Con_seponce|fin Con_seponce2|fin Con_seponce2].
          * fin Con_seponce_ko.
        + fin Con_seponce1.
        + fin Con_seponce1.
      - (* sep *) cbn [construct_step]. unfold bind at 1, offset. cbn [get_off pair_offset fst ctx_offset].
        pose proof (sep_c p s w skip C H fuel [] i x st Hi) as V. unfold bind.
        eapply (loop_accept w _ i x st [] _ (fun vs => mn <=? length vs)) in V; [exact V|auto|auto|]. intros l. apply Con_sep.
      - (* sep2 *) cbn [construct_step]. unfold bind at 1, offset. cbn [get_off pair_offset fst ctx_offset].
        pose proof (sep2_c p s w n0 skip C H fuel [] i x st Hi (Nat.le_0_l _)) as V. unfold bind.
        eapply (loop_accept w _ i x st [] _ (fun vs => m <=? length vs)) in V; [exact V|auto|auto|]. cbn [length]. rewrite !Nat.sub_0_r. intros l (l' & R & <-). now apply Con_sep2.
      - (* sep_collect *) cbn [construct_step]. unfold bind at 1, offset. cbn [get_off pair_offset fst ctx_offset].
        pose proof (polls_c p s w skip C H fuel false [] i x st Hi) as V. unfold bind.
        eapply (loop_accept w _ i x st [] _ (fun vs => mn <=? length vs)) in V; [exact V|auto|auto|]. intros l. apply Con_sepcollect.
      - (* repeat *) cbn [construct_step]. unfold bind at 1, offset. cbn [get_off pair_offset fst ctx_offset].
        assert (ML : forall c, repeat_more r c = lim_more (limit_of r) c)
          by (intros; unfold repeat_more, limit_of; destruct (r_hi r); reflexivity).
        pose proof (repeat_c p w _ _ C ML fuel [] i x st Hi) as V. unfold bind. cbn [length] in V. rewrite lim_sub_0 in V.
        eapply (loop_accept w _ i x st [] _ (fun vs => crange_contains r (length vs))) in V; [exact V|auto|auto|]. intros l. apply Con_repeat.
      - (* repeat2 *) cbn [construct_step]. unfold bind at 1, offset. cbn [get_off pair_offset fst ctx_offset].
        pose proof (repeat2_c p w n0 C fuel [] i x st Hi (Nat.le_0_l _)) as V. unfold bind.
        eapply (loop_accept w _ i x st [] _ (fun vs => (m <=? length vs) && (length vs <=? n0))) in V; [exact V|auto|auto|].
        cbn [length]. rewrite !Nat.sub_0_r. intros l (l' & R & <-). apply Con_repeat2 with (m := m) in R.
        destruct l' as [vs j s'|]; [|exact R]. cbn [capacity] in *. destruct (length vs <=? n0) eqn:E; [|exact R]. cbn [count_ok] in *. now rewrite E, andb_true_r.
      - (* collect *) cbn [construct_step]. unfold bind at 1, offset. cbn [get_off pair_offset fst ctx_offset].
        pose proof (repeat_c p w None (fun _ => true) C (fun _ => eq_refl) fuel [] i x st Hi) as V. unfold bind. cbn [length] in V. rewrite lim_sub_0 in V.
        eapply (loop_accept w _ i x st [] _ (fun vs => mn <=? length vs)) in V; [exact V|auto|auto|]. intros l. apply Con_collect.
      - (* option *) cbn [construct_step]. cstep.
        useC p i x st C v j y st1; rewrite ?put_b; [fin Con_some|fin Con_none|fin Con_option_panic].
      - (* branch *) rename H into D, H0 into I'. cbn [construct_step]. cstep. rewrite <- (I' w i x Hi). specialize (D (cx w i)).
        destruct (t (cx w i)) as [b|e| |] eqn:Et; [| | |congruence].
        + assert (Cb : con_ok (if b then p else q)) by (destruct b; auto).
          replace ((if b then con held p else con held q) (cx w x, st)) with (con held (if b then p else q) (cx w x, st)) by (destruct b; reflexivity).
          useC (if b then p else q) i x st Cb v j y st1; pose proof (Con_branch k G sk hv w t p q i _ _ _ Et T) as R; rewrite ?put_b.
          * eapply RV; eauto.
          * eapply RE; [exact R|auto|lia].
          * apply RP; auto.
        + eapply RE; [now apply Con_branch_e|auto|lia].
        + apply RP; auto. now apply Con_branch_panic.
      - (* map *) rename H into F. cbn [construct_step]. cstep.
        useC p i x st C v j y st1.
        + eapply (cres_settle w _ i j y); eauto. now apply Con_map.
        + eapply RE; [apply Con_map_stops; [eauto|exact Logic.I]|auto|lia].
        + apply RP; auto. apply Con_map_stops; [auto|exact Logic.I].
      - (* dynamic *) rename H into F, H0 into Q. cbn [construct_step]. unfold on_ctx. cstep.
        useC p i x st C v j y st1.
        + destruct (F v) as [F1 F2]. destruct (F1 w j (same_l _ _ _ L)) as [N F3]. destruct (F1 w y (same_r _ _ _ L)) as [_ F3'].
          destruct (F2 w j y L) as [F4 F5]. specialize (Q w j v).
          destruct (f (cx w j) v) as [r c] eqn:Ef, (f (cx w y) v) as [r' c'] eqn:Ef'. cbn [fst snd] in *. subst r'.
          destruct r as [q|e| |]; [| | |congruence].
          * destruct F3 as [F3|(j1 & -> & B1 & B2)]; [discriminate|]. destruct F3' as [F3'|(j1' & -> & B1' & B2')]; [discriminate|].
            specialize (F5 j1 j1' eq_refl eq_refl B2 B2'). specialize (Q q (same_l _ _ _ L) eq_refl).
            pose proof (sk_mono w j j1 B1 B2).
            useC q j1 j1' st1 Q v' j2 y2 st2; [fin Con_dyn|fin Con_dyn2|fin Con_dyn2].
          * destruct F3 as [F3|(j1 & -> & B1 & B2)]; [discriminate|]. destruct F3' as [F3'|(j1' & -> & B1' & B2')]; [discriminate|].
            specialize (F5 j1 j1' eq_refl eq_refl B2 B2'). pose proof (sk_mono w j j1 B1 B2).
            eapply RE; [eapply Con_dyn_e; eauto|auto|lia].
          * apply RP. eapply Con_dyn_panic; eauto.
        + fin Con_dyn1.
        + fin Con_dyn1.
      - (* closure *) destruct H as [F1 F2]. cbn [construct_step]. unfold on_ctx. cbn [fst snd].
        destruct (F1 w i Hl) as [N F3]. destruct (F1 w x Hr) as [_ F3']. destruct (F2 w i x Hi) as [F4 F5].
        destruct (f (cx w i)) as [r c] eqn:Ef, (f (cx w x)) as [r' c'] eqn:Ef'. cbn [fst snd] in *. subst r'.
        destruct F3 as [->|(j1 & -> & B1 & B2)].
        + apply RP. eapply Con_fn_panic; eauto.
        + destruct F3' as [->|(j1' & -> & B1' & B2')].
          * apply RP. eapply Con_fn_panic; eauto.
          * specialize (F5 j1 j1' eq_refl eq_refl B2 B2'). pose proof (sk_mono w i j1 B1 B2).
            destruct r as [v|e| |]; [| | |congruence].
            -- eapply RV; [apply (Con_fn k G sk hv w f i st (Ok v) j1 Ef B2); discriminate|auto|auto].
            -- eapply RE; [apply (Con_fn k G sk hv w f i st (Err e) j1 Ef B2); discriminate|auto|auto].
            -- apply RP. eapply Con_fn_panic; eauto.
      - (* choice *) rename H into F, H0 into N. cbn [construct_step]. unfold bind, offset. cbn [get_off pair_offset fst ctx_offset].
        change (c_off (cx w x)) with (bo w x). destruct b.
        + specialize (N eq_refl). pose proof (plain_pos w i x N Hi). subst x.
          eapply shows_cres; [apply Con_choice_ltm|]. apply longest_c; auto. now apply plain_ok.
        + eapply shows_cres; [apply Con_choice|]. apply first_c; auto. now apply plain_ok.
      - (* keyed choice *) rename H into F, H0 into N. cbn [construct_step]. unfold bind, offset. cbn [get_off pair_offset fst ctx_offset].
        change (c_off (cx w x)) with (bo w x). destruct b.
        + specialize (N eq_refl). pose proof (plain_pos w i x N Hi). subst x.
          eapply shows_cres; [apply Con_pairchoice_ltm|]. apply longest_c; auto. now apply keyed_ok.
        + eapply shows_cres; [apply Con_pairchoice|]. apply first_c; auto. now apply keyed_ok.
      - (* wrap *) cbn [construct_step]. useC p i x st C v j y st1; [eapply RV|eapply RE|apply RP]; eauto; now apply Con_wrap.
      - cbn. eapply RE; [apply Con_nonep|auto|lia].
      - (* ref *) cbn [construct_step]. destruct (env_get G i0) as [p|] eqn:E.
        + pose proof (OE i0 p E) as C. useC p i x st C v j y st1; [eapply RV|eapply RE|apply RP]; eauto; eapply Con_ref; eauto.
        + cbn. eapply RE; [now apply Con_ref_none|auto|lia].
    Qed.
  End Step.

  Theorem con_sound n : forall held p w i x st, con_ok p -> same w i x ->
    cres w p i st (construct h n G held pols p (cx w x, st)).
  Proof.
    induction n as [|n IH]; intros held p w i x st C Hi; [constructor|]. cbn [construct].
    apply cstep_c; auto.
  Qed.
End ConSound.
