(** Starting on a character boundary, cursors and spans stay on character boundaries, in matching
    and in constructing mode, whatever the outcome and whatever the policies. *)

From Coq Require Import List Arith NArith Bool Lia.
From Verif Require Import Base Text Context Neu Syntax Regex Ctor TextProofs Spec Units Leaf Sound.
Import ListNotations.

Section Boundary.
  Variable k : kind.
  Variable G : env.
  Variable te : bool.
  Notation cx := (cx k).
  Notation sp := (sp k).
  Notation bo := (bo k).

  (** Outcome of a call on text [w]: unless it panicked or is still running, the cursor is in front
      of an item and a successful span covers whole items; with [t] the span starts at [i]. *)
  Inductive dres (t : bool) (w : text) (i : nat) : res span * ctx -> Prop :=
  | DOk b j x : b <= j -> j <= length w -> x <= length w -> (t = true -> b = i) ->
      dres t w i (Ok (sp w b j), cx w x)
  | DErr e x : x <= length w -> dres t w i (Err e, cx w x)
  | DPanic c : dres t w i (Panic, c)
  | DOof c : dres t w i (OOF, c).

  Definition bd_fn (t : bool) (f : ctx -> res span * ctx) : Prop :=
    forall w i, i <= length w -> dres t w i (f (cx w i)).

  (** Closures that return something else than a span: they leave the cursor on a boundary. *)
  Definition bd_clo {A} (w : text) (r : res A * ctx) : Prop :=
    match r with
    | (Ok _, c) | (Err _, c) => exists x, x <= length w /\ c = cx w x
    | _ => True
    end.

  (** [bd pl t p]: parsers that respect boundaries in plain ([pl = true]) or policy contexts.  Left
      out: [consume(n)] on [str], and [longest] unless the context is plain and the matches of both
      branches start where they were tried. *)
  Inductive bd (pl : bool) : bool -> pat -> Prop :=
  | bd_empty t : bd pl t PEmpty
  | bd_fail t : bd pl t PFail
  | bd_start t : bd pl t PStart
  | bd_end t : bd pl t PEnd
  | bd_consume t n : k = KBytes -> bd pl t (PConsume n)
  | bd_consume_all t : bd pl t PConsumeAll
  | bd_lit t l : bd pl t (PLit l)
  | bd_assert t t' p v : bd pl t' p -> bd pl t (PAssert p v)
  | bd_pfn t f : bd_fn t f -> bd pl t (PFn f)
  | bd_builder t p f : bd pl t p ->
      (forall w x b j, x <= length w -> b <= j -> j <= length w ->
         bd_clo w (f (cx w x) (sp w b j))) ->
      (forall c s q c', f c s = (Ok q, c') -> bd pl false q) ->
      bd pl false (PBuilder p f)
  | bd_leaf t p : bd pl t p -> bd pl t (PLeaf p)
  | bd_unit t p c : unit_cond p = Some c -> bd_cond pl c -> bd pl t p
  | bd_then t t' p q : bd pl t p -> bd pl t' q -> bd pl t (PThen p q)
  | bd_ifthen t t1 t2 p r q : bd pl t p -> bd pl t1 r -> bd pl t2 q -> bd pl t (PIfThen p r q)
  | bd_or t p q : bd pl t p -> bd pl t q -> bd pl t (POr p q)
  | bd_longest t p q : pl = true -> bd pl true p -> bd pl true q -> bd pl t (PLongest p q)
  | bd_pat t p : bd pl t p -> bd pl t (PPat p)
  | bd_prefix t t' p q : bd pl t' p -> bd pl t q -> bd pl t (PPrefix p q)
  | bd_suffix t t' p q : bd pl t p -> bd pl t' q -> bd pl t (PSuffix p q)
  | bd_enclose t t1 t2 p o c : bd pl t1 p -> bd pl t o -> bd pl t2 c -> bd pl t (PEnclose p o c)
  | bd_seponce t t1 t2 t3 p s q : bd pl t1 p -> bd pl t2 s -> bd pl t3 q -> bd pl t (PSepOnce p s q)
  | bd_sep t t1 t2 p s mn skip : bd pl t1 p -> bd pl t2 s -> bd pl t (PSep p s mn skip)
  | bd_sep2 t t1 t2 p s m n skip : bd pl t1 p -> bd pl t2 s -> bd pl t (PSep2 p s m n skip)
  | bd_sepcollect t t1 t2 p s mn skip : bd pl t1 p -> bd pl t2 s -> bd pl t (PSepCollect p s mn skip)
  | bd_repeat t t' p r : bd pl t' p -> bd pl t (PRepeat p r)
  | bd_repeat2 t t' p m n : bd pl t' p -> bd pl t (PRepeat2 p m n)
  | bd_collect t t' p mn : bd pl t' p -> bd pl t (PCollect p mn)
  | bd_option t p : bd pl t p -> bd pl t (POption p)
  | bd_branch t b p q : bd pl t p -> bd pl t q -> bd pl t (PBranch b p q)
  | bd_map t p f : bd pl t p -> bd pl t (PMap p f)
  | bd_dyn t p f : bd pl t p ->
      (forall w x v, x <= length w -> bd_clo w (f (cx w x) v)) ->
      (forall c v q c', f c v = (Ok q, c') -> bd pl false q) ->
      bd pl false (PDynThen p f)
  | bd_ctorfn t f :
      (forall w x, x <= length w -> bd_clo w (f (cx w x))) -> bd pl t (PCtorFn f)
  | bd_choice t e ltm ps : (forall p, In p ps -> bd pl t p) -> bd pl t (PChoice e ltm ps)
  | bd_pairchoice t e ltm ps :
      (forall p, In p (map fst ps) -> bd pl t p) -> bd pl t (PPairChoice e ltm ps)
  | bd_wrap t p : bd pl t p -> bd pl t (PWrap p)
  | bd_nonep t : bd pl t PNoneP
  | bd_ref t i : (t = true -> te = true) -> bd pl t (PRef i)
  | bd_lock t i : (t = true -> te = true) -> bd pl t (PLock i)
  with bd_cond (pl : bool) : cond -> Prop :=
  | bdc_empty : bd_cond pl CEmpty
  | bdc_fn f : bd_cond pl (CFn f)
  | bdc_regex t p : bd pl t p -> bd_cond pl (CRegex p).

  Definition bd_env (pl : bool) : Prop := forall i p, env_get G i = Some p -> bd pl te p.

  Definition is_plain (pols : list pat) : bool := match pols with [] => true | _ => false end.

  (** The policies of a context are themselves boundary-respecting. *)
  Fixpoint bd_pols (pols : list pat) : Prop :=
    match pols with
    | [] => bd_env true
    | r :: rest => bd_env false /\ bd (is_plain rest) false r /\ bd_pols rest
    end.

  Lemma bd_pols_env pols : bd_pols pols -> bd_env (is_plain pols).
  Proof. destruct pols; simpl; tauto. Qed.

  Lemma dres_weak t w i i' r : dres t w i r -> dres false w i' r.
  Proof. intros [b j x| | |]; constructor; auto. discriminate. Qed.

  Lemma join_at {X} w b j b' j' (x : X) : b <= j -> b' <= j' -> j <= length w -> j' <= length w ->
    (join (sp w b j) (sp w b' j') x = (Ok (sp w b j'), x) /\ b <= j') \/
    join (sp w b j) (sp w b' j') x = (Panic, x).
  Proof.
    intros H1 H2 H0 H3. unfold join, lift, add_assign, csub, Spec.sp. simpl.
    pose proof (bo_mono k w b j H1). pose proof (bo_mono k w b' j' H2).
    destruct (Nat.leb_spec (bo w b) (bo w b')) as [L|L]; [|now right].
    destruct (Nat.leb_spec (bo w b + (bo w j - bo w b)) (bo w j' - bo w b' + bo w b')) as [L'|L']; [|now right].
    left. split; [do 3 f_equal; lia|]. apply (bo_le_iff k w); lia.
  Qed.

  Section Step.
    Variable pr : list nat -> list pat -> pat -> M ctx span.
    Variable fuel : nat.
    Variable held : list nat.
    Variable pols : list pat.
    Hypothesis PR : forall held pols t p w i, bd_pols pols -> bd (is_plain pols) t p -> i <= length w ->
      dres (t && is_plain pols) w i (pr held pols p (cx w i)).
    Hypothesis PO : bd_pols pols.
    Notation tm := (tm pr held pols).
    Notation pl := (is_plain pols).

    Lemma tm_d t p w i : bd pl t p -> i <= length w -> dres (t && pl) w i (tm p (cx w i)).
    Proof.
      intros Hp Hi. unfold Regex.tm, try_mat. destruct pols as [|r rest] eqn:E; [now apply PR|].
      destruct PO as (_ & Hr & Hrest). unfold bind.
      destruct (PR held rest false r w i Hrest Hr Hi) as [b j x H1 H2 H3 H4|e x H| |]; try (constructor; auto; fail).
      cbn [is_plain]. rewrite andb_false_r. eapply dres_weak. apply (PR held (r :: rest) t); auto.
    Qed.

    (** Conditions are pure: whatever they answer, the text stays. *)
    Lemma run_d u chk lim w i ok : i <= length w -> forall t,
      dres t w i (run_result k w i (runlen u chk lim (items k w i 0)) ok (fun n => sp w i (i + n))).
    Proof.
      intros Hi t. unfold run_result. destruct (runlen u chk lim (items k w i 0)) as [n| | |] eqn:R;
        try (constructor; auto; fail).
      apply runlen_le in R. destruct R as [R _]. rewrite items_length in R.
      destruct (ok n); constructor; auto; lia.
    Qed.

    Lemma unit_d t p c w i : unit_cond p = Some c -> i <= length w ->
      dres t w i (parse_step G pr fuel held pols p (cx w i)).
    Proof.
      intros U Hi. destruct p; try discriminate U; injection U as ->; cbn [parse_step].
      - rewrite once_nf by auto. now apply run_d.
      - rewrite many1_nf by auto. now apply run_d.
      - rewrite opt_nf by auto. now apply run_d.
      - rewrite many0_nf by auto. now apply run_d.
      - rewrite between_nf by auto. destruct (_ <=? _); [now apply run_d|now constructor].
      - rewrite times_nf by auto. destruct (_ <=? _); [now apply run_d|now constructor].
      - rewrite neuthen_nf by auto. destruct (_ && _) eqn:E; [|now constructor].
        apply andb_true_iff in E. destruct E as [_ E]. apply Nat.leb_le in E.
        destruct (acc1 u _ _) as [[|]| | |]; try (now constructor).
        destruct (acc1 v _ _) as [[|]| | |]; constructor; auto; lia.
    Qed.

    Lemma repeat_d t p w more o : bd pl t p -> forall n cnt j x,
      o <= j -> j <= length w -> x <= length w ->
      match repeat_loop (tm p) n more cnt (sp w o j) (cx w x) with
      | (Ok (_, s), c) => exists j' y, s = sp w o j' /\ o <= j' /\ j' <= length w /\ c = cx w y /\ y <= length w
      | (Err _, c) => False
      | _ => True
      end.
    Proof.
      intros Hp n. induction n as [|n IH]; intros cnt j x Ho Hj Hx; cbn [repeat_loop]; [exact I|].
      destruct (more cnt); [|exists j, x; repeat split; auto].
      unfold bind, catch. destruct (tm_d t p w x Hp Hx) as [b' j' x' H1 H2 H3 H4|e x' H| |]; try exact I.
      - destruct (join_at w o j b' j' (cx w x') Ho H1 Hj H2) as [[E L]|E]; rewrite E; [|exact I].
        apply IH; auto.
      - exists j, x'. repeat split; auto.
    Qed.

    Lemma sep_d t t' p s w more skip o : bd pl t p -> bd pl t' s -> forall n cnt j x,
      o <= j -> j <= length w -> x <= length w ->
      match sep_loop (tm p) (tm s) n more skip cnt (sp w o j) (cx w x) with
      | (Ok (_, s), c) => exists j' y, s = sp w o j' /\ o <= j' /\ j' <= length w /\ c = cx w y /\ y <= length w
      | (Err _, c) => False
      | _ => True
      end.
    Proof.
      intros Hp Hs n. induction n as [|n IH]; intros cnt j x Ho Hj Hx; cbn [sep_loop]; [exact I|].
      destruct (more cnt); [|exists j, x; repeat split; auto].
      unfold bind, catch. destruct (tm_d t p w x Hp Hx) as [b' j' x' H1 H2 H3 H4|e x' H| |]; try exact I.
      - destruct (tm_d t' s w x' Hs H3) as [b2 j2 x2 A1 A2 A3 A4|e x2 A| |]; try exact I.
        + destruct (join_at w o j b' j' (cx w x2) Ho H1 Hj H2) as [[E L]|E]; rewrite E; [|exact I].
          destruct (join_at w o j' b2 j2 (cx w x2) L A1 H2 A2) as [[E' L']|E']; rewrite E'; [|exact I].
          apply IH; auto.
        + destruct skip.
          * destruct (join_at w o j b' j' (cx w x2) Ho H1 Hj H2) as [[E L]|E]; rewrite E; [|exact I].
            exists j', x2. repeat split; auto.
          * exists j, x2. repeat split; auto.
      - exists j, x'. repeat split; auto.
    Qed.

    Lemma choice_d t w i e ps : (forall p, In p ps -> bd pl t p) -> i <= length w ->
      dres (t && pl) w i (choice tm (bo w i) e ps (cx w i)).
    Proof.
      intros Hp Hi. induction ps as [|p ps IH]; cbn [choice]; [now constructor|].
      unfold bind, catch, on_err_reset.
      destruct (tm_d t p w i (Hp p (or_introl eq_refl)) Hi) as [b j x H1 H2 H3 H4|e' x H| |];
        try (constructor; auto; fail).
      apply IH. intros q Hq. apply Hp. now right.
    Qed.

    Lemma ltm_d t w i e ps best x : (forall p, In p ps -> bd pl t p) -> i <= length w -> x <= length w ->
      match best with
      | Some s => exists b j, s = sp w b j /\ b <= j /\ j <= length w /\ (t && pl = true -> b = i)
      | None => True
      end ->
      dres (t && pl) w i (choice_ltm tm (bo w i) e best ps (cx w x)).
    Proof.
      revert best x. induction ps as [|p ps IH]; intros best x Hp Hi Hx Hb; cbn [choice_ltm].
      - destruct best as [s|]; [|now constructor]. destruct Hb as (b & j & -> & A1 & A2 & A3). now constructor.
      - unfold bind, catch, set_offset. change (put_off (bo w i) (cx w x)) with (cx w i).
        destruct (tm_d t p w i (Hp p (or_introl eq_refl)) Hi) as [b j y H1 H2 H3 H4|e' y H| |];
          try (constructor; auto; fail).
        + apply IH; auto. intros q Hq. apply Hp. now right.
          destruct best as [s|]; [|eauto 10]. destruct (_ <? _); eauto 10.
        + apply IH; auto. intros q Hq. apply Hp. now right.
    Qed.

    Lemma accept_d t w i j x ok e : i <= j -> j <= length w -> x <= length w ->
      dres t w i (accept ok e (bo w i) (sp w i j) (cx w x)).
    Proof.
      intros H1 H2 H3. unfold accept. destruct ok; [now constructor|].
      cbv [bind set_offset fail]. change (put_off (bo w i) (cx w x)) with (cx w i).
      constructor. lia.
    Qed.

Ltac joinat0 JN b j b' j' :=
        let E := fresh "E" in let L := fresh "L" in
        destruct (JN b j b' j') as [[E L]|E]; auto; rewrite E; [|constructor].
Ltac loopd0 OFF L :=
        let R := fresh "R" in let y := fresh "y" in let j' := fresh "j'" in
        cbn [parse_step]; unfold bind at 1, offset; cbn [get_off ctx_offset]; rewrite OFF; unfold bind;
        unfold collect_loop; rewrite sp_empty; pose proof L as R;
        match type of R with
        | _ -> _ -> _ -> match ?e with _ => _ end => destruct e as [[[? ?]|?| |] ?]
        end; try (constructor; auto; fail);
        [destruct R as (j' & y & -> & ? & ? & -> & ?); auto; now apply accept_d
        |destruct R; auto].

    Lemma step_d t p w i : bd pl t p -> i <= length w ->
      dres (t && pl) w i (parse_step G pr fuel held pols p (cx w i)).
    Proof.
      intros Hp Hi.
      assert (PUT : forall a x, Ctx (c_kind (cx w x)) (c_dat (cx w x)) (bo w a) = cx w a) by reflexivity.
      assert (OFF : forall a, c_off (cx w a) = bo w a) by reflexivity.
      assert (JN : forall b j b' j', b <= j -> b' <= j' -> j <= length w -> j' <= length w ->
                 (add_assign (sp w b j) (sp w b' j') = Ok (sp w b j') /\ b <= j') \/
                 add_assign (sp w b j) (sp w b' j') = Panic).
      { intros b j b' j' A1 A2 A3 A4. pose proof (join_at w b j b' j' tt A1 A2 A3 A4) as J.
        unfold join, lift in J. destruct J as [[E L]|E]; injection E as E; auto. }
      destruct Hp.
      - cbn [parse_step]. mstep. rewrite OFF, sp_empty. now constructor.
      - now constructor.
      - cbn [parse_step]. unfold start_parse. mstep. rewrite OFF, sp_empty. destruct (_ =? _); now constructor.
      - cbn [parse_step]. unfold end_parse. mstep. rewrite OFF, sp_empty. destruct (_ =? _); now constructor.
      - cbn [parse_step]. unfold consume_parse, bind. rewrite remaining_cx.
        destruct (Nat.leb_spec n (tlen k w - bo w i)) as [L|L]; [|now constructor].
        rewrite H, tlen_bytes, bo_bytes in L by auto.
        assert (E : n = bo w (i + n) - bo w i) by (rewrite H, !bo_bytes; lia).
        rewrite E at 1. rewrite new_span_cx by lia. constructor; auto; lia.
      - cbn [parse_step]. unfold consume_all_parse. cbv [bind reads].
        change (ctx_len (cx w i)) with (tlen k w). rewrite OFF, <- bo_len.
        rewrite new_span_cx by lia. constructor; auto.
      - cbn [parse_step]. rewrite literal_nf by auto. destruct (list_eq_dec _ _ _) as [E|E]; [|now constructor].
        assert (i + length l <= length w).
        { rewrite <- E. rewrite firstn_length, skipn_length. lia. }
        constructor; auto; lia.
      - cbn [parse_step]. mstep. rewrite OFF.
        destruct (tm_d t' p w i Hp Hi) as [b j y H1 H2 H3 H4|e' y H| |]; try (constructor; auto; fail);
          rewrite PUT, sp_empty; destruct v; cbn [Bool.eqb]; now constructor.
      - cbn [parse_step]. specialize (H w i Hi). destruct pl; rewrite ?andb_true_r, ?andb_false_r; [auto|].
        eapply dres_weak; eauto.
      - cbn [parse_step]. mstep. rewrite OFF.
        destruct (tm_d t p w i Hp Hi) as [b j y H1 H2 H3 H4|e' y H5| |]; try (constructor; auto; fail).
        specialize (H w y b j H3 H1 H2). destruct (f (cx w y) (sp w b j)) as [[q|e| |] c] eqn:F;
          try (constructor; auto; fail).
        + destruct H as (z & Hz & ->). apply H0 in F.
          destruct (tm_d false q w z F Hz) as [b2 j2 y2 A1 A2 A3 A4|e2 y2 A5| |]; try (constructor; auto; fail).
          constructor; auto. discriminate.
        + destruct H as (z & Hz & ->). now constructor.
      - cbn [parse_step]. now apply PR.
      - now apply unit_d with (c := c).
      - cbn [parse_step]. mstep. rewrite OFF.
        destruct (tm_d t p w i Hp1 Hi) as [b j y H1 H2 H3 H4|e' y H5| |]; try (constructor; auto; fail).
        destruct (tm_d t' q w y Hp2 H3) as [b1 j1 y1 A1 A2 A3 A4|e1 y1 A5| |]; try (constructor; auto; fail).
        joinat0 JN b j b1 j1. constructor; auto.
      - cbn [parse_step]. mstep. rewrite OFF.
        destruct (tm_d t p w i Hp1 Hi) as [b j y H1 H2 H3 H4|e' y H5| |]; try (constructor; auto; fail).
        destruct (tm_d t1 r w y Hp2 H3) as [b1 j1 y1 A1 A2 A3 A4|e1 y1 A5| |]; try (constructor; auto; fail).
        + joinat0 JN b j b1 j1.
          destruct (tm_d t2 q w y1 Hp3 A3) as [b2 j2 y2 B1 B2 B3 B4|e2 y2 B5| |]; try (constructor; auto; fail).
          joinat0 JN b j1 b2 j2. constructor; auto.
      - cbn [parse_step]. mstep. rewrite OFF.
        destruct (tm_d t p w i Hp1 Hi) as [b j y H1 H2 H3 H4|e' y H5| |]; try (constructor; auto; fail).
        rewrite PUT.
        destruct (tm_d t q w i Hp2 Hi) as [b2 j2 y2 B1 B2 B3 B4|e2 y2 B5| |]; try (constructor; auto; fail).
      - cbn [parse_step]. mstep. rewrite OFF. rewrite H in *.
        assert (SL : forall x j, i <= j -> Ctx (c_kind (cx w x)) (c_dat (cx w x)) (bo w i + slen (sp w i j)) = cx w j).
        { intros x j L. unfold Spec.cx, Spec.sp. cbn [slen c_kind c_dat]. f_equal.
          pose proof (bo_mono k w i j L). lia. }
        destruct (tm_d true p w i) as [b j y H1 H2 H3 H4|e' y H5| |]; try (constructor; auto; fail); rewrite ?H; auto.
        + rewrite PUT. rewrite H in H4.
          destruct (tm_d true q w i) as [b2 j2 y2 B1 B2 B3 B4|e2 y2 B5| |]; try (constructor; auto; fail); rewrite ?H; auto.
          * rewrite H in B4. rewrite (H4 eq_refl) in *. rewrite (B4 eq_refl) in *.
            destruct (_ <=? _); rewrite SL by auto; constructor; auto.
          * rewrite (H4 eq_refl) in *. rewrite SL by auto; constructor; auto.
        + rewrite PUT.
          destruct (tm_d true q w i) as [b2 j2 y2 B1 B2 B3 B4|e2 y2 B5| |]; try (constructor; auto; fail); rewrite ?H; auto.
          * rewrite H in B4. rewrite (B4 eq_refl) in *. rewrite SL by auto; constructor; auto.
          * rewrite Nat.add_0_r, PUT. now constructor.
      - cbn [parse_step]. now apply tm_d.
      - cbn [parse_step]. mstep. rewrite OFF.
        destruct (tm_d t q w i Hp2 Hi) as [b j y H1 H2 H3 H4|e' y H5| |]; try (constructor; auto; fail).
        destruct (tm_d t' p w y Hp1 H3) as [b1 j1 y1 A1 A2 A3 A4|e1 y1 A5| |]; try (constructor; auto; fail).
        joinat0 JN b j b1 j1. constructor; auto.
      - cbn [parse_step]. mstep. rewrite OFF.
        destruct (tm_d t p w i Hp1 Hi) as [b j y H1 H2 H3 H4|e' y H5| |]; try (constructor; auto; fail).
        destruct (tm_d t' q w y Hp2 H3) as [b1 j1 y1 A1 A2 A3 A4|e1 y1 A5| |]; try (constructor; auto; fail).
        joinat0 JN b j b1 j1. constructor; auto.
      - cbn [parse_step]. mstep. rewrite OFF.
        destruct (tm_d t o w i Hp2 Hi) as [b j y H1 H2 H3 H4|e' y H5| |]; try (constructor; auto; fail).
        destruct (tm_d t1 p w y Hp1 H3) as [b1 j1 y1 A1 A2 A3 A4|e1 y1 A5| |]; try (constructor; auto; fail).
        joinat0 JN b j b1 j1.
        destruct (tm_d t2 c w y1 Hp3 A3) as [b2 j2 y2 B1 B2 B3 B4|e2 y2 B5| |]; try (constructor; auto; fail).
        joinat0 JN b j1 b2 j2. constructor; auto.
      - cbn [parse_step]. mstep. rewrite OFF, sp_empty.
        destruct (tm_d t1 p w i Hp1 Hi) as [b j y H1 H2 H3 H4|e' y H5| |]; try (constructor; auto; fail).
        joinat0 JN i i b j.
        destruct (tm_d t2 s w y Hp2 H3) as [b1 j1 y1 A1 A2 A3 A4|e1 y1 A5| |]; try (constructor; auto; fail).
        joinat0 JN i j b1 j1.
        destruct (tm_d t3 q w y1 Hp3 A3) as [b2 j2 y2 B1 B2 B3 B4|e2 y2 B5| |]; try (constructor; auto; fail).
        joinat0 JN i j1 b2 j2. constructor; auto.
      - loopd0 OFF (sep_d t1 t2 p s w (fun _ => true) skip i Hp1 Hp2 fuel 0 i i).
      - loopd0 OFF (sep_d t1 t2 p s w (fun cnt => cnt <=? n) skip i Hp1 Hp2 fuel 0 i i).
      - loopd0 OFF (sep_d t1 t2 p s w (fun _ => true) skip i Hp1 Hp2 fuel 0 i i).
      - loopd0 OFF (repeat_d t' p w (repeat_more r) i Hp fuel 0 i i).
      - loopd0 OFF (repeat_d t' p w (fun cnt => cnt <=? n) i Hp fuel 0 i i).
      - loopd0 OFF (repeat_d t' p w (fun _ => true) i Hp fuel 0 i i).
      - cbn [parse_step]. mstep. rewrite OFF.
        destruct (tm_d t p w i Hp Hi) as [b j y H1 H2 H3 H4|e' y H5| |]; try (constructor; auto; fail).
        rewrite PUT, sp_empty. now constructor.
      - cbn [parse_step]. mstep. rewrite OFF. destruct (b (cx w i)) as [[|]|e| |]; try (now constructor).
        + destruct (tm_d t p w i Hp1 Hi) as [b1 j y H1 H2 H3 H4|e' y H5| |]; try (constructor; auto; fail).
        + destruct (tm_d t q w i Hp2 Hi) as [b1 j y H1 H2 H3 H4|e' y H5| |]; try (constructor; auto; fail).
      - cbn [parse_step]. now apply tm_d.
      - constructor.
      - constructor.
      - cbn [parse_step]. unfold bind, offset. change (get_off (cx w i)) with (bo w i).
        destruct ltm; [now apply ltm_d|now apply choice_d].
      - cbn [parse_step]. unfold bind, offset. change (get_off (cx w i)) with (bo w i).
        destruct ltm; [now apply ltm_d|now apply choice_d].
      - cbn [parse_step]. now apply PR.
      - now constructor.
      - cbn [parse_step]. destruct (env_get G i0) as [q|] eqn:E; [|now constructor].
        apply (bd_pols_env pols PO) in E. pose proof (PR held pols te q w i PO E Hi) as B.
        destruct B as [b1 j y H1 H2 H3 H4|e' y H5| |]; constructor; auto.
        intros Ht. apply H4. destruct t; [|discriminate Ht]. now rewrite H.
      - cbn [parse_step]. destruct (existsb _ held); [constructor|].
        destruct (env_get G i0) as [q|] eqn:E; [|now constructor].
        apply (bd_pols_env pols PO) in E. pose proof (PR (i0 :: held) pols te q w i PO E Hi) as B.
        destruct B as [b1 j y H1 H2 H3 H4|e' y H5| |]; constructor; auto.
        intros Ht. apply H4. destruct t; [|discriminate Ht]. now rewrite H.
    Qed.
  End Step.

  Theorem parse_d n : forall held pols t p w i, bd_pols pols -> bd (is_plain pols) t p -> i <= length w ->
    dres (t && is_plain pols) w i (parse n G held pols p (cx w i)).
  Proof.
    induction n as [|n IH]; intros held pols t p w i PO Hp Hi; [constructor|].
    cbn [parse]. now apply step_d.
  Qed.

  Theorem try_mat_d n held pols t p w i : bd_pols pols -> bd (is_plain pols) t p -> i <= length w ->
    dres (t && is_plain pols) w i (try_mat (parse n G held) pols p (cx w i)).
  Proof. intros PO Hp Hi. apply (tm_d (parse n G)); auto. apply parse_d. Qed.
End Boundary.
