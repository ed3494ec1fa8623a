(** Soundness: every run of the model that ends, ends as the specification says. *)

From Coq Require Import List Arith NArith Bool Lia.
From Verif Require Import Base Text Context Neu Syntax Regex TextProofs Spec Units Core.
Import ListNotations.

Ltac mstep := cbv beta iota zeta delta
  [bind catch ret fail panic oof lift reads offset set_offset get_off put_off ctx_offset
   with_guard g_new g_beg g_on g_try g_drop g_ctx g_offset g_reset join on_err_reset accept fst snd].

Section Sound.
  Variable k : kind.
  Variable G : env.
  Variable sk : text -> nat -> nat.
  Variable pols : list pat.
  Hypothesis SK : skipper sk.
  Hypothesis GC : core_env k G sk.
  Hypothesis IM : implements k G sk pols.
  Notation cx := (cx k).
  Notation sp := (sp k).
  Notation bo := (bo k).
  Notation Peg := (Peg k G sk).
  Notation Acc := (Acc k G sk).
  Notation Chk := (Chk k G sk).
  Notation Run := (Run k G sk).
  Notation Reps := (Reps k G sk).
  Notation Seps := (Seps k G sk).
  Notation First := (First k G sk).
  Notation core := (core k G sk).
  Notation core_cond := (core_cond k G sk).

  Lemma sk_ge w i : i <= length w -> i <= sk w i.
  Proof. intros H. apply SK, H. Qed.
  Lemma sk_le w i : i <= length w -> sk w i <= length w.
  Proof. intros H. apply SK, H. Qed.
  Lemma sk_conv w i x : i <= length w -> i <= x -> x <= sk w i -> sk w x = sk w i.
  Proof. apply SK. Qed.
  Lemma sk_idem w i : i <= length w -> sk w (sk w i) = sk w i.
  Proof. intros H. apply sk_conv; auto. now apply sk_ge. Qed.

  (** What a call may return when the parser was started at (skipped) position [i]. *)
  Inductive sres (w : text) (p : pat) (i : nat) : res span * ctx -> Prop :=
  | SOk b j x : Peg w p i (OK b j) -> i <= b -> b <= j -> j <= x -> x <= sk w j -> j <= length w ->
      sres w p i (Ok (sp w b j), cx w x)
  | SErr e : Peg w p i (KO e) -> sres w p i (Err e, cx w i)
  | SOof c : sres w p i (OOF, c).

  Definition sound_pr (pr : list nat -> list pat -> pat -> M ctx span) : Prop :=
    (forall held p w i, core p -> i <= length w -> sk w i = i -> sres w p i (pr held pols p (cx w i))) /\
    match pols with
    | [] => True
    | r :: rest => forall held w i, i <= length w ->
           (exists c, pr held rest r (cx w i) = (OOF, c)) \/
           (exists s, pr held rest r (cx w i) = (Ok s, cx w (sk w i)))
    end.

  Section Step.
    Variable pr : list nat -> list pat -> pat -> M ctx span.
    Hypothesis PR : sound_pr pr.
    Variable held : list nat.
    Notation tm := (tm pr held pols).

    Lemma tm_sound p w i x : core p -> i <= length w -> i <= x -> x <= sk w i ->
      sres w p (sk w i) (tm p (cx w x)).
    Proof.
      intros C Hi H1 H2. destruct PR as [P Q]. pose proof (sk_le w i Hi). unfold Regex.tm, try_mat.
      assert (Hx : x <= length w) by lia. assert (E : sk w x = sk w i) by now apply sk_conv.
      destruct pols as [|r rest] eqn:Ep.
      - simpl in IM. specialize (P held p w x C Hx (IM _ _)). rewrite IM in E. rewrite <- E. exact P.
      - unfold bind. destruct (Q held w x Hx) as [(c & ->)|(s & ->)]; [constructor|].
        rewrite E. apply P; auto. now apply sk_idem.
    Qed.

    Lemma tm_sound0 p w i : core p -> i <= length w -> sk w i = i ->
      sres w p i (tm p (cx w i)).
    Proof. intros C Hi E. rewrite <- E at 1. apply tm_sound; auto; lia. Qed.

    Lemma join_sp w b j b' j' : b <= j -> j <= b' -> b' <= j' ->
      add_assign (sp w b j) (sp w b' j') = Ok (sp w b j').
    Proof.
      intros H1 H2 H3. pose proof (bo_mono k w b j). pose proof (bo_mono k w j b').
      pose proof (bo_mono k w b' j'). unfold add_assign, csub, Spec.sp. cbn [sbeg slen].
      rewrite (proj2 (Nat.leb_le (bo w b) (bo w b'))) by lia.
      rewrite (proj2 (Nat.leb_le _ (_ - _ + _))) by lia. f_equal. f_equal. lia.
    Qed.

    (** Conditions. *)
    Lemma check_sound c w i m x : core_cond c -> nth_error w (i + m) = Some x ->
      match check pr held pols c (cx w i) (bo w (i + m) - bo w i, x) with
      | Ok b => Chk w i c m x (inl b)
      | Err e => Chk w i c m x (inr e)
      | Panic => False
      | OOF => True
      end.
    Proof.
      intros C E. assert (L : i + m < length w) by (apply nth_error_Some; congruence).
      destruct c as [|f|p]; simpl.
      - constructor.
      - inversion C as [|f' D|]; subst. specialize (D (cx w i) (bo w (i + m) - bo w i, x)).
        destruct (f (cx w i) (bo w (i + m) - bo w i, x)) as [b|e| |] eqn:F; simpl in D; try easy.
        + now constructor.
        + now constructor.
      - inversion C as [| |p' D]; subst. rewrite clone_cx by lia.
        pose proof (tm_sound p (skipn (i + m) w) 0 0 D) as S.
        assert (S' : sres (skipn (i + m) w) p (sk (skipn (i + m) w) 0) (tm p (cx (skipn (i + m) w) 0))).
        { apply S; try lia. }
        destruct S' as [b j y P| e P|]; simpl; [econstructor; eauto|econstructor; eauto|trivial].
    Qed.

    Lemma acc_sound c u w i m : core_cond c ->
      match acc1 u (check pr held pols c (cx w i)) (item_at k w i m) with
      | Ok b => Acc w i u c m (inl b)
      | Err e => Acc w i u c m (inr e)
      | Panic => False
      | OOF => True
      end.
    Proof.
      intros C. pose proof (item_at_inv k w i m) as I.
      destruct (item_at k w i m) as [[o x]|]; simpl; [|now constructor].
      destruct I as (_ & Eo & En). simpl in *. subst o.
      destruct (is_match u x) eqn:M.
      - pose proof (check_sound c w i m x C En) as S.
        destruct (check pr held pols c (cx w i) (bo w (i + m) - bo w i, x)); auto;
          eapply Acc_yes; eauto.
      - eapply Acc_no; eauto.
    Qed.

    Lemma run_sound c u lim w i m : core_cond c ->
      match runlen u (check pr held pols c (cx w i)) lim (items k w i m) with
      | Ok n => Run w i u c lim m (inl n)
      | Err e => Run w i u c lim m (inr e)
      | Panic => False
      | OOF => True
      end.
    Proof.
      intros C. remember (items k w i m) as l eqn:El. revert lim m El.
      induction l as [|x l IH]; intros lim m El.
      - assert (L : length w <= i + m).
        { pose proof (items_length k w i m) as L. rewrite <- El in L. simpl in L. lia. }
        simpl. destruct lim as [[|n]|]; [constructor| |]; (constructor; [easy|now constructor]).
      - rewrite items_cons in El. pose proof (acc_sound c u w i m C) as A.
        destruct (item_at k w i m) as [y|] eqn:Ei; [|discriminate]. injection El as -> El.
        assert (R : lim <> Some 0 ->
          match match acc1 u (check pr held pols c (cx w i)) (Some y) with
                | Ok true => match runlen u (check pr held pols c (cx w i)) (limit_pred lim) l with
                             | Ok n => Ok (S n) | r => r end
                | Ok false => Ok 0 | Err e => Err e | Panic => Panic | OOF => OOF end with
          | Ok n => Run w i u c lim m (inl n)
          | Err e => Run w i u c lim m (inr e)
          | Panic => False | OOF => True end).
        { intros NZ. specialize (IH (limit_pred lim) (S m) El).
          destruct (acc1 u (check pr held pols c (cx w i)) (Some y)) as [[|]| | |]; auto.
          - destruct (runlen u (check pr held pols c (cx w i)) (limit_pred lim) l); auto.
            + now apply Run_step.
            + now apply Run_step_err.
          - now apply Run_stop.
          - now apply Run_err. }
        cbn [runlen]. destruct lim as [[|n]|]; [constructor| |]; apply R; easy.
    Qed.

    (** Loops. *)
    Lemma repeat_sound p w i0 lim more : core p -> (forall c, more c = lim_more lim c) ->
      forall fuel cnt i x, i0 <= i -> i <= length w -> i <= x -> x <= sk w i ->
      match repeat_loop (tm p) fuel more cnt (sp w i0 i) (cx w x) with
      | (Ok (n, t), c) => exists j y, cnt <= n /\ Reps w p (lim_sub lim cnt) i (n - cnt) j /\
                            t = sp w i0 j /\ c = cx w y /\ i <= j /\ j <= y /\ y <= sk w j /\ j <= length w
      | (OOF, _) => True
      | _ => False
      end.
    Proof.
      intros C ML fuel. induction fuel as [|fuel IH]; intros cnt i x H0 Hi H1 H2; [exact I|].
      cbn [repeat_loop]. rewrite ML. destruct (lim_more lim cnt) eqn:Em.
      - assert (NZ : lim_sub lim cnt <> Some 0).
        { destruct lim as [n|]; simpl in *; [|easy]. apply Nat.ltb_lt in Em. intros E.
          injection E. lia. }
        assert (EP : lim_sub lim (S cnt) = limit_pred (lim_sub lim cnt)).
        { destruct lim as [n|]; simpl; [|easy]. f_equal. lia. }
        mstep. pose proof (sk_ge w i Hi). pose proof (sk_le w i Hi).
        destruct (tm_sound p w i x C Hi H1 H2) as [b j y P Hb Hj Hy1 Hy2 Hl|e P|c].
        + rewrite join_sp by lia. specialize (IH (S cnt) j y).
          destruct (repeat_loop (tm p) fuel more (S cnt) (sp w i0 j) (cx w y)) as [[[n t]|e| |] c];
            try (apply IH; lia).
          destruct IH as (j' & y' & Hn & R & -> & -> & B); try lia.
          exists j', y'. split; [lia|]. split; [|repeat split; lia].
          replace (n - cnt) with (S (n - S cnt)) by lia.
          eapply Reps_step; eauto. now rewrite <- EP.
        + exists i, (sk w i). split; [lia|]. rewrite Nat.sub_diag. split; [|repeat split; lia].
          eapply Reps_stop; eauto.
        + trivial.
      - mstep. exists i, x. split; [lia|]. rewrite Nat.sub_diag. split; [|repeat split; lia].
        destruct lim as [n|]; [|discriminate]. simpl in *. apply Nat.ltb_ge in Em.
        replace (n - cnt) with 0 by lia. constructor.
    Qed.

    Lemma sep_sound p s w i0 lim more : core p -> core s -> (forall c, more c = lim_more lim c) ->
      forall fuel cnt i x, i0 <= i -> i <= length w -> i <= x -> x <= sk w i ->
      match sep_loop (tm p) (tm s) fuel more true cnt (sp w i0 i) (cx w x) with
      | (Ok (n, t), c) => exists j y, cnt <= n /\ Seps w p s (lim_sub lim cnt) i (n - cnt) j /\
                            t = sp w i0 j /\ c = cx w y /\ i <= j /\ j <= y /\ y <= sk w j /\ j <= length w
      | (OOF, _) => True
      | _ => False
      end.
    Proof.
      intros C CS ML fuel. induction fuel as [|fuel IH]; intros cnt i x H0 Hi H1 H2; [exact I|].
      cbn [sep_loop]. rewrite ML. destruct (lim_more lim cnt) eqn:Em.
      - assert (NZ : lim_sub lim cnt <> Some 0).
        { destruct lim as [n|]; simpl in *; [|easy]. apply Nat.ltb_lt in Em. intros E.
          injection E. lia. }
        assert (EP : lim_sub lim (S cnt) = limit_pred (lim_sub lim cnt)).
        { destruct lim as [n|]; simpl; [|easy]. f_equal. lia. }
        mstep. pose proof (sk_ge w i Hi). pose proof (sk_le w i Hi).
        destruct (tm_sound p w i x C Hi H1 H2) as [b j y P Hb Hj Hy1 Hy2 Hl|e P|c].
        + pose proof (sk_ge w j Hl). pose proof (sk_le w j Hl).
          destruct (tm_sound s w j y CS Hl Hy1 Hy2) as [b' j' y' P' Hb' Hj' Hy1' Hy2' Hl'|e P'|c].
          * rewrite join_sp by lia. rewrite join_sp by lia. specialize (IH (S cnt) j' y').
            destruct (sep_loop (tm p) (tm s) fuel more true (S cnt) (sp w i0 j') (cx w y'))
              as [[[n t]|e| |] c]; try (apply IH; lia).
            destruct IH as (j'' & y'' & Hn & R & -> & -> & B); try lia.
            exists j'', y''. split; [lia|]. split; [|repeat split; lia].
            replace (n - cnt) with (S (n - S cnt)) by lia.
            eapply Seps_step; eauto. now rewrite <- EP.
          * rewrite join_sp by lia. exists j, (sk w j). split; [lia|].
            replace (S cnt - cnt) with 1 by lia. split; [|repeat split; lia].
            eapply Seps_last; eauto.
          * trivial.
        + exists i, (sk w i). split; [lia|]. rewrite Nat.sub_diag. split; [|repeat split; lia].
          eapply Seps_stop; eauto.
        + trivial.
      - mstep. exists i, x. split; [lia|]. rewrite Nat.sub_diag. split; [|repeat split; lia].
        destruct lim as [n|]; [|discriminate]. simpl in *. apply Nat.ltb_ge in Em.
        replace (n - cnt) with 0 by lia. constructor.
    Qed.

    Lemma choice_sound ps w i e : Forall core ps -> i <= length w -> sk w i = i ->
      match choice tm (bo w i) e ps (cx w i) with
      | (Ok s, c) => exists b j x, First w ps i e (OK b j) /\ i <= b /\ b <= j /\ j <= x /\
                       x <= sk w j /\ j <= length w /\ s = sp w b j /\ c = cx w x
      | (Err e', c) => First w ps i e (KO e') /\ c = cx w i
      | (OOF, _) => True
      | (Panic, _) => False
      end.
    Proof.
      intros F Hi E. induction ps as [|p ps IH]; cbn [choice]; mstep.
      - split; [constructor|reflexivity].
      - inversion F as [|p' ps' C F']; subst. specialize (IH F').
        destruct (tm_sound0 p w i C Hi E) as [b j y P Hb Hj Hy1 Hy2 Hl|e' P|c].
        + exists b, j, y. repeat split; try lia. now constructor.
        + change (choice tm (bo w i) e ps {| c_kind := c_kind (cx w i); c_dat := c_dat (cx w i);
                                             c_off := bo w i |})
            with (choice tm (bo w i) e ps (cx w i)).
          destruct (choice tm (bo w i) e ps (cx w i)) as [[s|e2| |] c]; auto.
          * destruct IH as (b & j & x & Fi & R). exists b, j, x. split; [|exact R].
            eapply First_next; eauto.
          * destruct IH as [Fi ->]. split; [|reflexivity]. eapply First_next; eauto.
        + trivial.
    Qed.

    Ltac use p w i x :=
      let b := fresh "b" in let j := fresh "j" in let y := fresh "y" in
      let P := fresh "P" in let e := fresh "e" in let c := fresh "c" in
      destruct (tm_sound p w i x) as [b j y P|e P|c];
      [solve [auto] | solve [auto; lia] | solve [auto; lia] | solve [auto; lia] | | | ];
      try (pose proof (sk_ge w j); pose proof (sk_le w j)).

    Lemma off_cx w i : c_off (cx w i) = bo w i. Proof. reflexivity. Qed.
    Lemma len_cx w i : ctx_len (cx w i) = tlen k w. Proof. reflexivity. Qed.
    Lemma put_cx w i x : {| c_kind := c_kind (cx w x); c_dat := c_dat (cx w x); c_off := bo w i |}
      = cx w i. Proof. reflexivity. Qed.

    Ltac fin := rewrite ?put_cx; (constructor; [econstructor; eauto|..]; try lia).
    Ltac jn := rewrite join_sp by lia.

    Variable fuel : nat.

    Lemma step_sound p w i : core p -> i <= length w -> sk w i = i ->
      sres w p i (parse_step G pr fuel held pols p (cx w i)).
    Proof.
      intros C Hi E.
      assert (T : forall q, core q -> sres w q i (tm q (cx w i))) by (intros; now apply tm_sound0).
      assert (TT : forall q j x, core q -> j <= length w -> j <= x -> x <= sk w j ->
                     sres w q (sk w j) (tm q (cx w x))) by (intros; now apply tm_sound).
      assert (SG : forall j, j <= length w -> j <= sk w j) by (intros; now apply sk_ge).
      assert (SL : forall j, j <= length w -> sk w j <= length w) by (intros; now apply sk_le).
      destruct C; cbn [parse_step].
      - (* PEmpty *) mstep. rewrite off_cx, sp_empty. fin.
      - mstep. fin.
      - (* PStart *) unfold start_parse. mstep. rewrite off_cx. destruct (bo w i =? 0) eqn:Z.
        + apply Nat.eqb_eq in Z. rewrite sp_empty.
          assert (i = 0).
          { destruct i; auto. destruct w; [simpl in Hi; lia|]. unfold TextProofs.bo in Z. simpl in Z.
            pose proof (width_pos k i0). lia. }
          subst i. fin.
        + apply Nat.eqb_neq in Z. assert (0 < i) by (destruct i; [now rewrite bo_0 in Z|lia]). fin.
      - (* PEnd *) unfold end_parse. mstep. rewrite off_cx, len_cx.
        destruct (bo w i =? tlen k w) eqn:Z.
        + apply Nat.eqb_eq, bo_eq_len in Z; auto. rewrite sp_empty. fin.
        + apply Nat.eqb_neq in Z. rewrite bo_eq_len in Z by auto. fin.
      - (* PConsume *) unfold consume_parse, bind. rewrite remaining_cx.
        pose proof (bo_le_len k w i).
        assert (BB : forall j, j <= length w -> bo w j = j) by (intros; rewrite H; now apply bo_bytes).
        assert (BL : tlen k w = length w) by (rewrite H; apply tlen_bytes).
        destruct (n <=? tlen k w - bo w i) eqn:Z.
        + apply Nat.leb_le in Z. rewrite BL, BB in Z by auto.
          pose proof (new_span_cx k w i (i + n)) as NS. rewrite !BB in NS by lia.
          replace (i + n - i) with n in NS by lia. rewrite NS by lia. constructor; auto; try lia; [|apply SG; lia].
          constructor; [lia|]. rewrite !BB by lia. lia.
        + apply Nat.leb_gt in Z. fin.
      - (* PConsumeAll *) unfold consume_all_parse. mstep. rewrite off_cx, len_cx, <- (bo_len k w).
        rewrite new_span_cx by lia. fin. auto.
      - (* PLit *) rewrite literal_nf by auto.
        destruct (list_eq_dec N.eq_dec (firstn (length l) (skipn i w)) l) as [Q|Q]; [|fin].
        assert (i + length l <= length w).
        { rewrite <- Q. rewrite firstn_length, skipn_length. lia. }
        fin. auto.
      - (* PAssert *) mstep. destruct (T p C) as [b j y P|e P|c]; [| |constructor]; rewrite ?off_cx, sp_empty, put_cx.
        + destruct v; simpl; fin.
        + destruct v; simpl; fin.
      - (* PFn *) destruct (H w i Hi) as [(b & j & F & B)|(e & F)]; rewrite F.
        + constructor; try lia; [|apply SG; lia]. constructor; auto; lia.
        + now constructor; constructor.
      - (* PBuilder *) mstep. destruct (T p C) as [b j y P|e P|c].
        + destruct (H w b j y) as (q & m & m' & F1 & F2 & B1 & B2 & B3 & B4 & ES); auto; try lia.
          rewrite F2. assert (Cq : core q) by (eapply H0; eauto).
          pose proof (SG m B2). pose proof (SL m B2). pose proof (SG m' B4).
          pose proof (TT q m' m' Cq B4) as S. rewrite ES in S.
          destruct S as [b2 j2 y2 P2|e2 P2|c2]; try lia.
          * constructor; try lia. eapply Peg_builder; eauto.
          * rewrite off_cx, put_cx. constructor. eapply Peg_builder; eauto.
          * constructor.
        + rewrite off_cx, put_cx. constructor. now constructor.
        + constructor.
      - (* PLeaf *) destruct PR as [Q _]. destruct (Q held p w i C Hi E); constructor; auto.
        now constructor. now constructor.
      - (* POnce *) rewrite once_nf by auto. pose proof (run_sound c u (Some 1) w i 0 H) as R.
        pose proof (run_bound k u (check pr held pols c) (Some 1) w i) as B.
        destruct (runlen u (check pr held pols c (cx w i)) (Some 1) (items k w i 0)) as [n|e| |] eqn:RL;
          cbn [run_result]; try easy; [|constructor|constructor].
        + specialize (B n Hi eq_refl). apply runlen_le in RL as [_ L1].
          destruct n as [|n]; simpl.
          * constructor. inversion R; subst; now constructor.
          * replace n with 0 in * by lia. constructor; try lia; [|apply SG; lia].
            rewrite Nat.add_1_r. constructor. inversion R; subst; auto.
        + inversion R; subst; [now constructor|].
          match goal with X : Run _ _ _ _ (limit_pred _) _ _ |- _ => inversion X; subst; easy end.
      - (* PMany1 *) rewrite many1_nf by auto. pose proof (run_sound c u None w i 0 H) as R.
        pose proof (run_bound k u (check pr held pols c) None w i) as B.
        destruct (runlen u (check pr held pols c (cx w i)) None (items k w i 0)) as [n|e| |] eqn:RL;
          cbn [run_result]; try easy; [|constructor; now constructor|constructor].
        specialize (B n Hi eq_refl). destruct n as [|n]; simpl Nat.eqb; cbv iota.
        + constructor. now constructor.
        + constructor; try lia; [|apply SG; lia]. now constructor.
      - (* POpt *) rewrite opt_nf by auto. pose proof (run_sound c u (Some 1) w i 0 H) as R.
        pose proof (run_bound k u (check pr held pols c) (Some 1) w i) as B.
        destruct (runlen u (check pr held pols c (cx w i)) (Some 1) (items k w i 0)) as [n|e| |] eqn:RL;
          cbn [run_result]; try easy; [|constructor|constructor].
        + specialize (B n Hi eq_refl). apply runlen_le in RL as [_ L1].
          constructor; try lia; [|apply SG; lia].
          destruct n as [|n].
          * rewrite Nat.add_0_r. inversion R; subst; now constructor.
          * replace n with 0 in * by lia. rewrite Nat.add_1_r. constructor. inversion R; subst; auto.
        + inversion R; subst; [now constructor|].
          match goal with X : Run _ _ _ _ (limit_pred _) _ _ |- _ => inversion X; subst; easy end.
      - (* PMany0 *) rewrite many0_nf by auto. pose proof (run_sound c u None w i 0 H) as R.
        pose proof (run_bound k u (check pr held pols c) None w i) as B.
        destruct (runlen u (check pr held pols c (cx w i)) None (items k w i 0)) as [n|e| |] eqn:RL;
          cbn [run_result]; try easy; [|constructor; now constructor|constructor].
        specialize (B n Hi eq_refl).
        constructor; try lia; [|apply SG; lia]. now constructor.
      - (* PBetween *) rewrite between_nf by auto. pose proof (run_sound c u n w i 0 H) as R.
        pose proof (run_bound k u (check pr held pols c) n w i) as B.
        destruct (m * min_length k u <=? tlen k w - bo w i) eqn:Z.
        + apply Nat.leb_le in Z.
          destruct (runlen u (check pr held pols c (cx w i)) n (items k w i 0)) as [t|e| |] eqn:RL;
          cbn [run_result]; try easy; [|constructor; eapply Peg_between_err; eauto; unfold too_short; lia|constructor].
          specialize (B t Hi eq_refl). destruct (m <=? t) eqn:Y.
          * apply Nat.leb_le in Y. constructor; try lia; [|apply SG; lia].
            eapply Peg_between; eauto. unfold too_short; lia.
          * apply Nat.leb_gt in Y. constructor. eapply Peg_between_ko; eauto. unfold too_short; lia.
        + apply Nat.leb_gt in Z. constructor. now apply Peg_between_short.
      - (* PTimes *) rewrite times_nf by auto. pose proof (run_sound c u (limit_of r) w i 0 H) as R.
        pose proof (run_bound k u (check pr held pols c) (limit_of r) w i) as B.
        assert (EM : times_min k r u =
          match r_lo r with Incl m => m | Excl m => m - 1 | Unb => 0 end * min_length k u).
        { unfold times_min. destruct (r_lo r); reflexivity. }
        destruct (times_min k r u <=? tlen k w - bo w i) eqn:Z.
        + apply Nat.leb_le in Z. rewrite EM in Z.
          destruct (runlen u (check pr held pols c (cx w i)) (limit_of r) (items k w i 0)) as [t|e| |] eqn:RL;
          cbn [run_result]; try easy; [|constructor; eapply Peg_times_err; eauto; unfold too_short; lia|constructor].
          specialize (B t Hi eq_refl). destruct (crange_contains r t) eqn:Y.
          * constructor; try lia; [|apply SG; lia].
            eapply Peg_times; eauto. unfold too_short; lia.
          * constructor. eapply Peg_times_ko; eauto. unfold too_short; lia.
        + apply Nat.leb_gt in Z. rewrite EM in Z. constructor. now apply Peg_times_short.
      - (* PNeuThen *) rewrite neuthen_nf by auto.
        destruct (min_length k u + min_length k v <=? tlen k w - bo w i) eqn:Z; simpl.
        + apply Nat.leb_le in Z. destruct (i + 2 <=? length w) eqn:Y.
          * apply Nat.leb_le in Y.
            assert (NS : ~ too_short k w i (min_length k u + min_length k v)) by (unfold too_short; lia).
            pose proof (acc_sound c u w i 0 H) as A1. pose proof (acc_sound c v w i 1 H) as A2.
            destruct (acc1 u _ _) as [[|]|e| |]; try easy; [|constructor; now constructor|constructor; now constructor|constructor].
            destruct (acc1 v _ _) as [[|]|e| |]; try easy.
            -- constructor; try lia; [|apply SG; lia]. now constructor.
            -- constructor. now apply Peg_neuthen_ko2.
            -- constructor. now apply Peg_neuthen_err2.
            -- constructor.
          * apply Nat.leb_gt in Y. constructor. apply Peg_neuthen_short. lia.
        + apply Nat.leb_gt in Z. constructor. apply Peg_neuthen_short. left. exact Z.
      - (* PThen *) mstep. destruct (T p C1) as [b j y P|e P|c]; [| |constructor].
        + pose proof (SG j). pose proof (SL j).
          destruct (TT q j y C2) as [b2 j2 y2 P2|e2 P2|c2]; auto; try lia; [| |constructor].
          * jn. constructor; try lia. econstructor; eauto.
          * rewrite off_cx, put_cx. constructor. eapply Peg_then_ko2; eauto.
        + rewrite off_cx, put_cx. constructor. now apply Peg_then_ko1.
      - (* PIfThen *) mstep. destruct (T p C1) as [b j y P|e P|c]; [| |constructor].
        + pose proof (SG j). pose proof (SL j).
          destruct (TT t j y C2) as [b2 j2 y2 P2|e2 P2|c2]; auto; try lia; [| |constructor].
          * pose proof (SG j2). pose proof (SL j2). jn.
            destruct (TT q j2 y2 C3) as [b3 j3 y3 P3|e3 P3|c3]; auto; try lia; [| |constructor].
            -- jn. constructor; try lia. eapply Peg_ifthen_yes; eauto.
            -- rewrite off_cx, put_cx. constructor. eapply Peg_ifthen_ko2; eauto.
          * rewrite off_cx, put_cx. constructor; try lia. eapply Peg_ifthen_no; eauto.
        + rewrite off_cx, put_cx. constructor. now apply Peg_ifthen_ko1.
      - (* POr *) mstep. destruct (T p C1) as [b j y P|e P|c]; [| |constructor].
        + constructor; try lia. now apply Peg_or1.
        + rewrite ?off_cx, put_cx. destruct (T q C2) as [b2 j2 y2 P2|e2 P2|c2]; [| |constructor].
          * constructor; try lia. eapply Peg_or2; eauto.
          * rewrite ?off_cx, put_cx. constructor. eapply Peg_or2; eauto.
      - (* PLongest *) mstep.
        destruct (T p C1) as [b j y P|e P|c]; [| |constructor];
        (rewrite ?off_cx, put_cx; destruct (T q C2) as [b2 j2 y2 P2|e2 P2|c2]; [| |constructor]);
        try (pose proof (H _ _ _ _ P); subst b); try (pose proof (H0 _ _ _ _ P2); subst b2);
        cbn [slen Spec.sp].
        + destruct (bo w j2 - bo w i <=? bo w j - bo w i) eqn:Z; cbn [slen Spec.sp].
          * apply Nat.leb_le in Z. pose proof (bo_mono k w i j). pose proof (bo_mono k w i j2).
            assert (j2 <= j) by (apply (bo_le_iff k w); lia).
            replace (bo w i + (bo w j - bo w i)) with (bo w j) by lia. rewrite put_cx.
            constructor; try lia; [eapply Peg_longest_l; eauto|..]; auto.
          * apply Nat.leb_gt in Z. pose proof (bo_mono k w i j). pose proof (bo_mono k w i j2).
            assert (j < j2). { apply Nat.nle_gt. intros L. apply (bo_mono k w) in L. lia. }
            replace (bo w i + (bo w j2 - bo w i)) with (bo w j2) by lia. rewrite put_cx.
            constructor; try lia; [eapply Peg_longest_r; eauto|..]; auto.
        + pose proof (bo_mono k w i j).
          replace (bo w i + (bo w j - bo w i)) with (bo w j) by lia. rewrite put_cx.
          constructor; try lia; [eapply Peg_longest_l1; eauto|..]; auto.
        + pose proof (bo_mono k w i j2).
          replace (bo w i + (bo w j2 - bo w i)) with (bo w j2) by lia. rewrite put_cx.
          constructor; try lia; [eapply Peg_longest_r1; eauto|..]; auto.
        + rewrite Nat.add_0_r, put_cx. constructor. eapply Peg_longest_ko; eauto.
      - (* PPat *) destruct (T p C); constructor; auto; now constructor.
      - (* PPrefix *) mstep. destruct (T q C2) as [b j y P|e P|c]; [| |constructor].
        + pose proof (SG j). pose proof (SL j).
          destruct (TT p j y C1) as [b2 j2 y2 P2|e2 P2|c2]; auto; try lia; [| |constructor].
          * jn. constructor; try lia. econstructor; eauto.
          * rewrite off_cx, put_cx. constructor. eapply Peg_prefix_ko2; eauto.
        + rewrite off_cx, put_cx. constructor. now apply Peg_prefix_ko1.
      - (* PSuffix *) mstep. destruct (T p C1) as [b j y P|e P|c]; [| |constructor].
        + pose proof (SG j). pose proof (SL j).
          destruct (TT q j y C2) as [b2 j2 y2 P2|e2 P2|c2]; auto; try lia; [| |constructor].
          * jn. constructor; try lia. econstructor; eauto.
          * rewrite off_cx, put_cx. constructor. eapply Peg_suffix_ko2; eauto.
        + rewrite off_cx, put_cx. constructor. now apply Peg_suffix_ko1.
      - (* PEnclose *) mstep. destruct (T o C2) as [b j y P|e P|c']; [| |constructor].
        + pose proof (SG j). pose proof (SL j).
          destruct (TT p j y C1) as [b2 j2 y2 P2|e2 P2|c2]; auto; try lia; [| |constructor].
          * pose proof (SG j2). pose proof (SL j2). jn.
            destruct (TT c j2 y2 C3) as [b3 j3 y3 P3|e3 P3|c3]; auto; try lia; [| |constructor].
            -- jn. constructor; try lia. eapply Peg_enclose; eauto.
            -- rewrite off_cx, put_cx. constructor. eapply Peg_enclose_ko3; eauto.
          * rewrite off_cx, put_cx. constructor; try lia. eapply Peg_enclose_ko2; eauto.
        + rewrite off_cx, put_cx. constructor. now apply Peg_enclose_ko1.
      - (* PSepOnce *) mstep. rewrite !off_cx, sp_empty. destruct (T p C1) as [b j y P|e P|c]; [| |constructor].
        + pose proof (SG j). pose proof (SL j). jn.
          destruct (TT s j y C2) as [b2 j2 y2 P2|e2 P2|c2]; auto; try lia; [| |constructor].
          * pose proof (SG j2). pose proof (SL j2). jn.
            destruct (TT q j2 y2 C3) as [b3 j3 y3 P3|e3 P3|c3]; auto; try lia; [| |constructor].
            -- jn. constructor; try lia. eapply Peg_seponce; eauto.
            -- rewrite put_cx. constructor. eapply Peg_seponce_ko3; eauto.
          * rewrite put_cx. constructor; try lia. eapply Peg_seponce_ko2; eauto.
        + rewrite put_cx. constructor. now apply Peg_seponce_ko1.
      - (* PSep *) mstep. rewrite !off_cx, sp_empty.
        pose proof (sep_sound p s w i None (fun _ => true) C1 C2 (fun _ => eq_refl) fuel 0 i i) as S.
        destruct (sep_loop (tm p) (tm s) fuel (fun _ => true) true 0 (sp w i i) (cx w i))
          as [[[n t]|e| |] c]; try (exfalso; apply S; lia); [|constructor].
        destruct S as (j & y & _ & R & -> & -> & B); try lia.
        rewrite Nat.sub_0_r in R. cbn [lim_sub option_map] in R.
        destruct (mn <=? n) eqn:Z.
        + apply Nat.leb_le in Z. constructor; try lia. econstructor; eauto.
        + apply Nat.leb_gt in Z. rewrite put_cx. constructor. econstructor; eauto.
      - (* PSep2 *) mstep. rewrite !off_cx, sp_empty.
        pose proof (sep_sound p s w i (Some (S n)) (fun cnt => cnt <=? n) C1 C2 (fun _ => eq_refl) fuel 0 i i) as S.
        destruct (sep_loop (tm p) (tm s) fuel (fun cnt => cnt <=? n) true 0 (sp w i i) (cx w i))
          as [[[t' t]|e| |] c]; try (exfalso; apply S; lia); [|constructor].
        destruct S as (j & y & _ & R & -> & -> & B); try lia.
        rewrite Nat.sub_0_r in R. rewrite lim_sub_0 in R.
        destruct (m <=? t') eqn:Z.
        + apply Nat.leb_le in Z. constructor; try lia. econstructor; eauto.
        + apply Nat.leb_gt in Z. rewrite put_cx. constructor. econstructor; eauto.
      - (* PSepCollect *) mstep. rewrite !off_cx, sp_empty.
        pose proof (sep_sound p s w i None (fun _ => true) C1 C2 (fun _ => eq_refl) fuel 0 i i) as S.
        destruct (sep_loop (tm p) (tm s) fuel (fun _ => true) true 0 (sp w i i) (cx w i))
          as [[[n t]|e| |] c]; try (exfalso; apply S; lia); [|constructor].
        destruct S as (j & y & _ & R & -> & -> & B); try lia.
        rewrite Nat.sub_0_r in R. cbn [lim_sub option_map] in R.
        destruct (mn <=? n) eqn:Z.
        + apply Nat.leb_le in Z. constructor; try lia. econstructor; eauto.
        + apply Nat.leb_gt in Z. rewrite put_cx. constructor. econstructor; eauto.
      - (* PRepeat *) mstep. rewrite !off_cx, sp_empty.
        assert (ML : forall c, repeat_more r c = lim_more (limit_of r) c)
          by (intros; unfold repeat_more, limit_of; destruct (r_hi r); reflexivity).
        pose proof (repeat_sound p w i (limit_of r) (repeat_more r) C ML fuel 0 i i) as S.
        destruct (repeat_loop (tm p) fuel (repeat_more r) 0 (sp w i i) (cx w i))
          as [[[t' t]|e| |] c]; try (exfalso; apply S; lia); [|constructor].
        destruct S as (j & y & _ & R & -> & -> & B); try lia.
        rewrite Nat.sub_0_r in R. rewrite lim_sub_0 in R.
        destruct (crange_contains r t') eqn:Z.
        + constructor; try lia. econstructor; eauto.
        + rewrite put_cx. constructor. econstructor; eauto.
      - (* PRepeat2 *) mstep. rewrite !off_cx, sp_empty.
        pose proof (repeat_sound p w i (Some (S n)) (fun cnt => cnt <=? n) C (fun _ => eq_refl) fuel 0 i i) as S.
        destruct (repeat_loop (tm p) fuel (fun cnt => cnt <=? n) 0 (sp w i i) (cx w i))
          as [[[t' t]|e| |] c]; try (exfalso; apply S; lia); [|constructor].
        destruct S as (j & y & _ & R & -> & -> & B); try lia.
        rewrite Nat.sub_0_r in R. rewrite lim_sub_0 in R.
        destruct ((m <=? t') && (t' <=? n)) eqn:Z.
        + apply andb_true_iff in Z as [Z1 Z2]. apply Nat.leb_le in Z1. apply Nat.leb_le in Z2.
          constructor; try lia. econstructor; eauto.
        + apply andb_false_iff in Z. rewrite put_cx. constructor. eapply Peg_repeat2_ko; eauto.
          rewrite !Nat.leb_gt in Z. lia.
      - (* PCollect *) mstep. rewrite !off_cx, sp_empty. unfold collect_loop.
        pose proof (repeat_sound p w i None (fun _ => true) C (fun _ => eq_refl) fuel 0 i i) as S.
        destruct (repeat_loop (tm p) fuel (fun _ => true) 0 (sp w i i) (cx w i))
          as [[[t' t]|e| |] c]; try (exfalso; apply S; lia); [|constructor].
        destruct S as (j & y & _ & R & -> & -> & B); try lia.
        rewrite Nat.sub_0_r in R. cbn [lim_sub option_map] in R.
        destruct (mn <=? t') eqn:Z.
        + apply Nat.leb_le in Z. constructor; try lia. econstructor; eauto.
        + apply Nat.leb_gt in Z. rewrite put_cx. constructor. econstructor; eauto.
      - (* POption *) mstep. destruct (T p C) as [b j y P|e P|c]; [| |constructor].
        + constructor; try lia. now constructor.
        + rewrite ?off_cx, put_cx, sp_empty. constructor; try lia. eapply Peg_option_none; eauto.
      - (* PBranch *) mstep. specialize (H (cx w i)).
        destruct (t (cx w i)) as [[|]|e| |] eqn:Et; simpl in H; try easy.
        + destruct (T p C1) as [b j y P|e P|c]; [| |constructor].
          * constructor; try lia. now apply Peg_branch_t.
          * rewrite ?off_cx, put_cx. constructor. now apply Peg_branch_t.
        + destruct (T q C2) as [b j y P|e P|c]; [| |constructor].
          * constructor; try lia. now apply Peg_branch_f.
          * rewrite ?off_cx, put_cx. constructor. now apply Peg_branch_f.
        + constructor. now apply Peg_branch_e.
      - (* PMap *) destruct (T p C); constructor; auto; now constructor.
      - (* PChoice *) mstep. rewrite off_cx.
        pose proof (choice_sound ps w i e H Hi E) as S.
        destruct (choice tm (bo w i) e ps (cx w i)) as [[s|e'| |] c]; try easy; [| |constructor].
        + destruct S as (b & j & x & F & B1 & B2 & B3 & B4 & B5 & -> & ->).
          constructor; auto. now constructor.
        + destruct S as [F ->]. constructor. now constructor.
      - (* PPairChoice *)
        change (sres w (PPairChoice e false ps) i (choice tm (bo w i) e (map fst ps) (cx w i))).
        pose proof (choice_sound (map fst ps) w i e H Hi E) as S.
        destruct (choice tm (bo w i) e (map fst ps) (cx w i)) as [[s|e'| |] c]; try easy; [| |constructor].
        + destruct S as (b & j & x & F & B1 & B2 & B3 & B4 & B5 & -> & ->).
          constructor; auto. now constructor.
        + destruct S as [F ->]. constructor. now constructor.
      - (* PWrap *) destruct PR as [Q _]. destruct (Q held p w i C Hi E); constructor; auto; now constructor.
      - mstep. constructor. constructor.
      - (* PRef *) destruct (env_get G i0) as [q|] eqn:Eg.
        + destruct PR as [Q _]. destruct (Q held q w i (GC _ _ Eg) Hi E); constructor; auto;
            eapply Peg_ref; eauto.
        + mstep. constructor. now apply Peg_ref_none.
    Qed.
  End Step.

  Lemma parse_sound_pr n : sound_pr (parse n G).
  Proof.
    induction n as [|n IH]; split.
    - intros. constructor.
    - destruct pols; [trivial|]. intros. left. eexists. reflexivity.
    - intros held p w i C Hi E. cbn [parse]. now apply step_sound.
    - destruct pols as [|r rest]; [trivial|]. destruct IM as [I _]. intros. now apply I.
  Qed.

  Theorem parse_sound n held p w i : core p -> i <= length w -> sk w i = i ->
    sres w p i (parse n G held pols p (cx w i)).
  Proof. apply parse_sound_pr. Qed.

  Theorem try_mat_sound n held p w i : core p -> i <= length w ->
    sres w p (sk w i) (tm (parse n G) held pols p (cx w i)).
  Proof. intros C Hi. apply tm_sound; auto; [apply parse_sound_pr|now apply sk_ge]. Qed.
End Sound.
