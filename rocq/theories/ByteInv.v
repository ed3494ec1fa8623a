(** Plain contexts, any byte offset: no panic, spans are what was consumed, failures do not move. *)

From Coq Require Import List Arith NArith Bool Lia.
From Verif Require Import Base Text Context Neu Syntax Regex TextProofs Spec Units Leaf Sound.
Import ListNotations.

(** What a well-behaved call may return when started with context [c]; [t] asks for spans that
    start exactly at the old offset. *)
Inductive bres (t : bool) (c : ctx) : res span * ctx -> Prop :=
| BOk b n : c_off c <= b -> (t = true -> b = c_off c) -> b + n <= ctx_len c ->
    bres t c (Ok (Span b n), Ctx (c_kind c) (c_dat c) (b + n))
| BErr e : bres t c (Err e, c)
| BOof c' : bres t c (OOF, c').

(** A user closure used as a parser. *)
Definition tame_fn (t : bool) (f : ctx -> res span * ctx) : Prop :=
  forall c, c_off c <= ctx_len c -> bres t c (f c).

Section Byte.
  Variable G : env.
  (** Whether the matches of recursive parsers start at the old offset. *)
  Variable te : bool.

  (** [tame t p]: parsers whose closures behave; if [t] is true every match starts at the offset at
      which [p] was started.  Left out: the longest-match containers, separators with
      [skip = false], sync recursive handles, and the parsers without a matching mode. *)
  Inductive tame : bool -> pat -> Prop :=
  | tm_empty t : tame t PEmpty
  | tm_fail t : tame t PFail
  | tm_start t : tame t PStart
  | tm_end t : tame t PEnd
  | tm_consume t n : tame t (PConsume n)
  | tm_consume_all t : tame t PConsumeAll
  | tm_lit t l : tame t (PLit l)
  | tm_assert t t' p v : tame t' p -> tame t (PAssert p v)
  | tm_fn t f : tame_fn t f -> tame t (PFn f)
  | tm_builder t p f : tame t p ->
      (forall c s, c_off c <= ctx_len c -> sbeg s + slen s = c_off c -> exists q o,
         f c s = (Ok q, Ctx (c_kind c) (c_dat c) o) /\ sbeg s <= o /\ o <= ctx_len c /\ tame false q) ->
      tame false (PBuilder p f)
  | tm_leaf t p : tame t p -> tame t (PLeaf p)
  | tm_unit t p c : unit_cond p = Some c -> tame_cond c -> tame t p
  | tm_then t t' p q : tame t p -> tame t' q -> tame t (PThen p q)
  | tm_ifthen t t1 t2 p r q : tame t p -> tame t1 r -> tame t2 q -> tame t (PIfThen p r q)
  | tm_or t p q : tame t p -> tame t q -> tame t (POr p q)
  | tm_longest t p q : tame true p -> tame true q -> tame t (PLongest p q)
  | tm_pat t p : tame t p -> tame t (PPat p)
  | tm_prefix t t' p q : tame t' p -> tame t q -> tame t (PPrefix p q)
  | tm_suffix t t' p q : tame t p -> tame t' q -> tame t (PSuffix p q)
  | tm_enclose t t1 t2 p o c : tame t1 p -> tame t o -> tame t2 c -> tame t (PEnclose p o c)
  | tm_seponce t t1 t2 t3 p s q : tame t1 p -> tame t2 s -> tame t3 q -> tame t (PSepOnce p s q)
  | tm_sep t t1 t2 p s mn : tame t1 p -> tame t2 s -> tame t (PSep p s mn true)
  | tm_sep2 t t1 t2 p s m n : tame t1 p -> tame t2 s -> tame t (PSep2 p s m n true)
  | tm_sepcollect t t1 t2 p s mn : tame t1 p -> tame t2 s -> tame t (PSepCollect p s mn true)
  | tm_repeat t t' p r : tame t' p -> tame t (PRepeat p r)
  | tm_repeat2 t t' p m n : tame t' p -> tame t (PRepeat2 p m n)
  | tm_collect t t' p mn : tame t' p -> tame t (PCollect p mn)
  | tm_option t p : tame t p -> tame t (POption p)
  | tm_branch t b p q :
      (forall c, b c <> Panic) -> tame t p -> tame t q -> tame t (PBranch b p q)
  | tm_map t p f : tame t p -> tame t (PMap p f)
  | tm_choice t e ps : (forall p, In p ps -> tame t p) -> tame t (PChoice e false ps)
  | tm_pairchoice t e ps : (forall p, In p (map fst ps) -> tame t p) -> tame t (PPairChoice e false ps)
  | tm_wrap t p : tame t p -> tame t (PWrap p)
  | tm_nonep t : tame t PNoneP
  | tm_ref t i : (t = true -> te = true) -> tame t (PRef i)
  with tame_cond : cond -> Prop :=
  | tmc_empty : tame_cond CEmpty
  | tmc_fn f : (forall c x, f c x <> Panic) -> tame_cond (CFn f)
  | tmc_regex t p : tame t p -> tame_cond (CRegex p).

  Definition tame_env : Prop := forall i p, env_get G i = Some p -> tame te p.

  Definition mv (c : ctx) (o : nat) : ctx := Ctx (c_kind c) (c_dat c) o.

  Lemma mv_mv c o o' : mv (mv c o) o' = mv c o'. Proof. reflexivity. Qed.
  Lemma mv_len c o : ctx_len (mv c o) = ctx_len c. Proof. reflexivity. Qed.
  Lemma mv_self c : mv c (c_off c) = c. Proof. now destruct c. Qed.

  Lemma bres_weak t c r : bres t c r -> bres false c r.
  Proof. intros [b n H1 H2 H3|e|c']; constructor; auto. discriminate. Qed.

  Lemma add_assign_b o n b m : o + n <= b ->
    add_assign (Span o n) (Span b m) = Ok (Span o (b + m - o)).
  Proof.
    intros H. unfold add_assign, csub. simpl.
    destruct (Nat.leb_spec o b); [|lia]. destruct (Nat.leb_spec (o + n) (m + b)); [|lia].
    replace (n + (m + b - (o + n))) with (b + m - o) by lia. reflexivity.
  Qed.
  Lemma join_bytes {X} o n b m (x : X) : o + n <= b ->
    join (Span o n) (Span b m) x = (Ok (Span o (b + m - o)), x).
  Proof. intros H. unfold join, lift. now rewrite add_assign_b. Qed.

  Section Step.
    Variable pr : list nat -> list pat -> pat -> M ctx span.
    Hypothesis PR : forall held t p c, tame t p -> c_off c <= ctx_len c -> bres t c (pr held [] p c).
    Variable fuel : nat.
    Variable held : list nat.
    Notation tm := (tm pr held []).

    Lemma tm_b t p c : tame t p -> c_off c <= ctx_len c -> bres t c (tm p c).
    Proof. intros. now apply PR. Qed.

    Lemma chk_b cd w i k : tame_cond cd -> chk_safe k (check pr held [] cd) w i.
    Proof.
      intros C m x E. assert (L : i + m < length w) by (apply nth_error_Some; congruence).
      destruct C as [|f Hf|t p Hp]; simpl; [discriminate|apply Hf|].
      rewrite clone_cx by lia.
      assert (B : bres t (cx k (skipn (i + m) w) 0) (pr held [] p (cx k (skipn (i + m) w) 0))).
      { apply PR; auto. unfold cx. cbn [c_off]. rewrite bo_0. lia. }
      change (tm p (cx k (skipn (i + m) w) 0)) with (pr held [] p (cx k (skipn (i + m) w) 0)).
      destruct B; simpl; discriminate.
    Qed.

    (** Loops: after [total] has been matched, the cursor is at its end. *)
    Lemma repeat_b t p c more o : tame t p -> forall n cnt x,
      o <= x -> x <= ctx_len c ->
      (exists cnt' y, repeat_loop (tm p) n more cnt (Span o (x - o)) (mv c x)
          = (Ok (cnt', Span o (y - o)), mv c y) /\ x <= y /\ y <= ctx_len c) \/
      (exists c', repeat_loop (tm p) n more cnt (Span o (x - o)) (mv c x) = (OOF, c')).
    Proof.
      intros Hp n. induction n as [|n IH]; intros cnt x Hx Hl; cbn [repeat_loop]; [right; eexists; reflexivity|].
      destruct (more cnt); [|left; exists cnt, x; split; [reflexivity|lia]].
      unfold bind, catch. destruct (tm_b t p (mv c x) Hp Hl) as [b m H1 H2 H3|e|c'].
      - cbn [c_off mv] in *. rewrite join_bytes by lia. cbn [c_kind c_dat mv].
        destruct (IH (S cnt) (b + m)) as [(cnt' & y & E & A1 & A2)|(c' & E)]; auto; try lia.
        + left. exists cnt', y. split; [exact E|lia].
        + right. eexists. exact E.
      - left. exists cnt, x. split; [reflexivity|lia].
      - right. eexists. reflexivity.
    Qed.

    Lemma sep_b t t' p s c more o : tame t p -> tame t' s -> forall n cnt x,
      o <= x -> x <= ctx_len c ->
      (exists cnt' y, sep_loop (tm p) (tm s) n more true cnt (Span o (x - o)) (mv c x)
          = (Ok (cnt', Span o (y - o)), mv c y) /\ x <= y /\ y <= ctx_len c) \/
      (exists c', sep_loop (tm p) (tm s) n more true cnt (Span o (x - o)) (mv c x) = (OOF, c')).
    Proof.
      intros Hp Hs n. induction n as [|n IH]; intros cnt x Hx Hl; cbn [sep_loop]; [right; eexists; reflexivity|].
      destruct (more cnt); [|left; exists cnt, x; split; [reflexivity|lia]].
      unfold bind, catch. destruct (tm_b t p (mv c x) Hp Hl) as [b m H1 H2 H3|e|c'].
      - cbn [c_off mv c_kind c_dat] in *. fold (mv c (b + m)).
        destruct (tm_b t' s (mv c (b + m)) Hs H3) as [b' m' H1' H2' H3'|e|c'].
        + cbn [c_off mv c_kind c_dat] in *. rewrite !join_bytes by lia.
          destruct (IH (S cnt) (b' + m')) as [(cnt' & y & E & A1 & A2)|(c' & E)]; auto; try lia.
          * left. exists cnt', y. split; [exact E|lia].
          * right. eexists. exact E.
        + rewrite join_bytes by lia. left. exists (S cnt), (b + m). split; [reflexivity|].
          change (ctx_len (mv c x)) with (ctx_len c) in H3. lia.
        + right. eexists. reflexivity.
      - left. exists cnt, x. split; [reflexivity|lia].
      - right. eexists. reflexivity.
    Qed.

    Lemma choice_b t c e ps : (forall p, In p ps -> tame t p) -> c_off c <= ctx_len c ->
      bres t c (choice tm (c_off c) e ps c).
    Proof.
      intros Hp Hl. induction ps as [|p ps IH]; cbn [choice]; [constructor|].
      unfold bind, catch, on_err_reset.
      destruct (tm_b t p c (Hp p (or_introl eq_refl)) Hl) as [b m H1 H2 H3|e'|c'].
      - constructor; auto.
      - change (put_off (c_off c) c) with (mv c (c_off c)). rewrite mv_self. apply IH.
        intros q Hq. apply Hp. now right.
      - constructor.
    Qed.

    (** An accepted or rejected loop result. *)
    Lemma accept_b t c y (ok : bool) e : c_off c <= y -> y <= ctx_len c ->
      bres t c (accept ok e (c_off c) (Span (c_off c) (y - c_off c)) (mv c y)).
    Proof.
      intros H1 H2. unfold accept. destruct ok.
      - unfold ret. replace (mv c y) with (mv c (c_off c + (y - c_off c))) by (f_equal; lia).
        constructor; auto; lia.
      - cbv [bind set_offset fail put_off ctx_offset]. fold (mv (mv c y) (c_off c)).
        rewrite mv_mv, mv_self. constructor.
    Qed.

    Lemma span_0 o : Span o 0 = Span o (o - o).
    Proof. now rewrite Nat.sub_diag. Qed.

    Lemma empty_b t c : c_off c <= ctx_len c -> bres t c (Ok (Span (c_off c) 0), c).
    Proof.
      intros H. pose proof (BOk t c (c_off c) 0) as B. rewrite Nat.add_0_r in B.
      fold (mv c (c_off c)) in B. rewrite mv_self in B. apply B; auto.
    Qed.

    Lemma step_b t p c : tame t p -> c_off c <= ctx_len c -> tame_env ->
      bres t c (parse_step G pr fuel held [] p c).
    Proof.
      intros Hp Hl HE.
      assert (R : remaining c = (Ok (ctx_len c - c_off c), c)).
      { unfold remaining, csub. destruct (Nat.leb_spec (c_off c) (ctx_len c)); [reflexivity|lia]. }
      assert (N : forall n, n <= ctx_len c - c_off c -> bres t c (new_span_inc n c)).
      { intros n Hn. cbv [new_span_inc bind offset inc ret get_off ctx_offset].
        constructor; auto; lia. }
      assert (BJ : forall b y, c_off c <= b -> (t = true -> b = c_off c) -> b <= y -> y <= ctx_len c ->
                 bres t c (Ok (Span b (y - b)), mv c y)).
      { intros b y A1 A2 A3 A4. replace (mv c y) with (mv c (b + (y - b))) by (f_equal; lia).
        constructor; auto; lia. }
      assert (Z : forall o c0, Ctx (c_kind c0) (c_dat c0) o = mv c0 o) by reflexivity.
      destruct Hp.
      - cbn [parse_step]. now apply empty_b.
      - constructor.
      - cbn [parse_step]. unfold start_parse. mstep. destruct (_ =? _); [now apply empty_b|constructor].
      - cbn [parse_step]. unfold end_parse. mstep. destruct (_ =? _); [now apply empty_b|constructor].
      - cbn [parse_step]. unfold consume_parse, bind. rewrite R.
        destruct (Nat.leb_spec n (ctx_len c - c_off c)); [now apply N|constructor].
      - cbn [parse_step]. unfold consume_all_parse. cbv [bind reads]. now apply N.
      - cbn [parse_step]. unfold literal_parse, bind. rewrite R. cbv [reads].
        destruct (Nat.leb_spec (tlen (c_kind c) l) (ctx_len c - c_off c)); [|constructor].
        unfold orig, orig_at, orig_sub. destruct (c_kind c) eqn:K.
        + unfold csub. destruct (Nat.leb_spec (c_off c) (ctx_len c)); [|lia].
          destruct (drop_at KBytes (c_dat c) (c_off c)); [|constructor].
          destruct (take_at _ _ _); [|constructor].
          destruct (starts_with _ _); [now apply N|constructor].
        + destruct (drop_at KStr (c_dat c) (c_off c)); [|constructor].
          destruct (starts_with _ _); [now apply N|constructor].
      - cbn [parse_step]. mstep. destruct (tm_b t' p c Hp Hl) as [b m H1 H2 H3|e'|c']; try constructor.
        + cbn [c_kind c_dat]. rewrite Z, mv_self. destruct v; cbn [Bool.eqb]; [now apply empty_b|constructor].
        + rewrite Z, mv_self. destruct v; cbn [Bool.eqb]; [constructor|now apply empty_b].
      - cbn [parse_step]. now apply H.
      - cbn [parse_step]. mstep. destruct (tm_b t p c Hp Hl) as [b m H1 H2 H3|e'|c']; try constructor.
        + destruct (H (mv c (b + m)) (Span b m)) as (q & o & E & A1 & A2 & Tq); auto.
          change (f (mv c (b + m)) (Span b m) = (Ok q, mv c o)) in E.
          rewrite Z, E. cbn [sbeg] in A1. rewrite mv_len in A2.
          destruct (tm_b false q (mv c o) Tq A2) as [b' m' H1' H2' H3'|e'|c']; cbn [c_kind c_dat c_off mv] in *.
          * constructor; auto; [|discriminate]. lia.
          * rewrite Z, mv_self. constructor.
          * constructor.
        + rewrite Z, mv_self. constructor.
      - cbn [parse_step]. now apply PR.
      - destruct (boundary_cases (c_kind c) c Hl eq_refl) as [(i & Hi & E)|(K & D)].
        + rewrite E at 2. pose proof (unit_leaf (c_kind c) G pr fuel held [] p c0 (c_dat c) i H Hi
                                        (chk_b c0 (c_dat c) i (c_kind c) H0)) as L.
          assert (Eo : c_off c = bo (c_kind c) (c_dat c) i) by (rewrite E at 1; reflexivity).
          destruct L as [j Hij Hj|e|].
          * pose proof (bo_mono (c_kind c) (c_dat c) i j Hij). pose proof (bo_le_len (c_kind c) (c_dat c) j).
            unfold cx, sp. pose proof (BOk t c (bo (c_kind c) (c_dat c) i)
                (bo (c_kind c) (c_dat c) j - bo (c_kind c) (c_dat c) i)) as B.
            replace (bo (c_kind c) (c_dat c) i + (bo (c_kind c) (c_dat c) j - bo (c_kind c) (c_dat c) i))
              with (bo (c_kind c) (c_dat c) j) in B by lia.
            apply B; unfold ctx_len; lia.
          * rewrite <- E. constructor.
          * constructor.
        + rewrite K in D. destruct (unit_inside G pr fuel held [] p c0 c H Hl K D) as [E|E]; rewrite E.
          * now apply empty_b.
          * constructor.
      - cbn [parse_step]. mstep. destruct (tm_b t p c Hp1 Hl) as [b m H1 H2 H3|e'|c']; try constructor.
        + rewrite Z. destruct (tm_b t' q (mv c (b + m)) Hp2 H3) as [b' m' H1' H2' H3'|e'|c']; cbn [c_kind c_dat c_off mv] in *.
          * rewrite add_assign_b by auto. apply BJ; auto; lia.
          * rewrite Z, mv_self. constructor.
          * constructor.
        + rewrite Z, mv_self. constructor.
      - cbn [parse_step]. mstep. destruct (tm_b t p c Hp1 Hl) as [b m H1 H2 H3|e'|c']; try constructor.
        + rewrite Z. destruct (tm_b t1 r (mv c (b + m)) Hp2 H3) as [b' m' H1' H2' H3'|e'|c'];
            cbn [c_kind c_dat c_off mv] in *.
          * rewrite add_assign_b by auto. rewrite Z. rewrite mv_len in *.
            destruct (tm_b t2 q (mv c (b' + m')) Hp3 H3') as [b2 m2 H4 H5 H6|e'|c'];
              cbn [c_kind c_dat c_off mv] in *.
            -- rewrite add_assign_b by lia. apply BJ; auto; lia.
            -- rewrite Z, mv_self. constructor.
            -- constructor.
          * rewrite Z. constructor; auto.
          * constructor.
        + rewrite Z, mv_self. constructor.
      - cbn [parse_step]. mstep. destruct (tm_b t p c Hp1 Hl) as [b m H1 H2 H3|e'|c']; try constructor; auto.
        rewrite Z, mv_self. destruct (tm_b t q c Hp2 Hl) as [b' m' H1' H2' H3'|e''|c']; try constructor; auto.
        rewrite Z, mv_self. constructor.
      - cbn [parse_step]. mstep. destruct (tm_b true p c Hp1 Hl) as [b m H1 H2 H3|e'|c']; try constructor.
        + cbn [c_kind c_dat]. rewrite Z, mv_self.
          destruct (tm_b true q c Hp2 Hl) as [b' m' H1' H2' H3'|e''|c']; try constructor; cbn [slen c_kind c_dat mv].
          * rewrite (H2 eq_refl) in *. rewrite (H2' eq_refl) in *. destruct (m' <=? m); cbn [slen]; constructor; auto.
          * rewrite (H2 eq_refl) in *. constructor; auto.
        + rewrite Z, mv_self.
          destruct (tm_b true q c Hp2 Hl) as [b' m' H1' H2' H3'|e''|c']; try constructor; cbn [slen c_kind c_dat mv].
          * rewrite (H2' eq_refl) in *. constructor; auto.
          * rewrite Nat.add_0_r, Z, mv_self. constructor.
      - cbn [parse_step]. now apply tm_b.
      - cbn [parse_step]. mstep. destruct (tm_b t q c Hp2 Hl) as [b m H1 H2 H3|e'|c']; try constructor.
        + rewrite Z. destruct (tm_b t' p (mv c (b + m)) Hp1 H3) as [b' m' H1' H2' H3'|e'|c']; cbn [c_kind c_dat c_off mv] in *.
          * rewrite add_assign_b by auto. apply BJ; auto; lia.
          * rewrite Z, mv_self. constructor.
          * constructor.
        + rewrite Z, mv_self. constructor.
      - cbn [parse_step]. mstep. destruct (tm_b t p c Hp1 Hl) as [b m H1 H2 H3|e'|c']; try constructor.
        + rewrite Z. destruct (tm_b t' q (mv c (b + m)) Hp2 H3) as [b' m' H1' H2' H3'|e'|c']; cbn [c_kind c_dat c_off mv] in *.
          * rewrite add_assign_b by auto. apply BJ; auto; lia.
          * rewrite Z, mv_self. constructor.
          * constructor.
        + rewrite Z, mv_self. constructor.
      - cbn [parse_step]. mstep.
        destruct (tm_b t o c Hp2 Hl) as [b m H1 H2 H3|e'|c']; try constructor.
        + rewrite Z. destruct (tm_b t1 p (mv c (b + m)) Hp1 H3) as [b' m' H1' H2' H3'|e'|c'];
            cbn [c_kind c_dat c_off mv] in *.
          * rewrite add_assign_b by auto. rewrite Z. rewrite mv_len in *.
            destruct (tm_b t2 c0 (mv c (b' + m')) Hp3 H3') as [b2 m2 H4 H5 H6|e'|c'];
              cbn [c_kind c_dat c_off mv] in *.
            -- rewrite add_assign_b by lia. apply BJ; auto; lia.
            -- rewrite Z, mv_self. constructor.
            -- constructor.
          * rewrite Z, mv_self. constructor.
          * constructor.
        + rewrite Z, mv_self. constructor.
      - cbn [parse_step]. mstep.
        destruct (tm_b t1 p c Hp1 Hl) as [b m H1 H2 H3|e'|c']; try constructor.
        + rewrite add_assign_b by lia. rewrite Z.
          destruct (tm_b t2 s (mv c (b + m)) Hp2 H3) as [b' m' H1' H2' H3'|e'|c'];
            cbn [c_kind c_dat c_off mv] in *.
          * rewrite add_assign_b by lia. rewrite Z. rewrite mv_len in *.
            destruct (tm_b t3 q (mv c (b' + m')) Hp3 H3') as [b2 m2 H4 H5 H6|e'|c'];
              cbn [c_kind c_dat c_off mv] in *.
            -- rewrite add_assign_b by lia. apply BJ; auto; lia.
            -- rewrite Z, mv_self. constructor.
            -- constructor.
          * rewrite Z, mv_self. constructor.
          * constructor.
        + rewrite Z, mv_self. constructor.
      - cbn [parse_step]. unfold bind at 1, offset. cbn [get_off ctx_offset].
        unfold bind.
        destruct (sep_b t1 t2 p s c (fun _ => true) (c_off c) Hp1 Hp2 fuel 0 (c_off c))
          as [(cnt & y & E & A1 & A2)|(c' & E)]; auto; rewrite Nat.sub_diag, mv_self in E.
        + rewrite E. cbn [fst snd]. now apply accept_b.
        + rewrite E. constructor.
      - cbn [parse_step]. unfold bind at 1, offset. cbn [get_off ctx_offset].
        unfold bind.
        destruct (sep_b t1 t2 p s c (fun cnt => cnt <=? n) (c_off c) Hp1 Hp2 fuel 0 (c_off c))
          as [(cnt & y & E & A1 & A2)|(c' & E)]; auto; rewrite Nat.sub_diag, mv_self in E.
        + rewrite E. cbn [fst snd]. now apply accept_b.
        + rewrite E. constructor.
      - cbn [parse_step]. unfold bind at 1, offset. cbn [get_off ctx_offset].
        unfold bind.
        destruct (sep_b t1 t2 p s c (fun _ => true) (c_off c) Hp1 Hp2 fuel 0 (c_off c))
          as [(cnt & y & E & A1 & A2)|(c' & E)]; auto; rewrite Nat.sub_diag, mv_self in E.
        + rewrite E. cbn [fst snd]. now apply accept_b.
        + rewrite E. constructor.
      - cbn [parse_step]. unfold bind at 1, offset. cbn [get_off ctx_offset].
        unfold bind.
        destruct (repeat_b t' p c (repeat_more r) (c_off c) Hp fuel 0 (c_off c))
          as [(cnt & y & E & A1 & A2)|(c' & E)]; auto; rewrite Nat.sub_diag, mv_self in E.
        + rewrite E. cbn [fst snd]. now apply accept_b.
        + rewrite E. constructor.
      - cbn [parse_step]. unfold bind at 1, offset. cbn [get_off ctx_offset].
        unfold bind.
        destruct (repeat_b t' p c (fun cnt => cnt <=? n) (c_off c) Hp fuel 0 (c_off c))
          as [(cnt & y & E & A1 & A2)|(c' & E)]; auto; rewrite Nat.sub_diag, mv_self in E.
        + rewrite E. cbn [fst snd]. now apply accept_b.
        + rewrite E. constructor.
      - cbn [parse_step]. unfold bind at 1, offset. cbn [get_off ctx_offset].
        unfold bind, collect_loop.
        destruct (repeat_b t' p c (fun _ => true) (c_off c) Hp fuel 0 (c_off c))
          as [(cnt & y & E & A1 & A2)|(c' & E)]; auto; rewrite Nat.sub_diag, mv_self in E.
        + rewrite E. cbn [fst snd]. now apply accept_b.
        + rewrite E. constructor.
      - cbn [parse_step]. mstep. destruct (tm_b t p c Hp Hl) as [b m H1 H2 H3|e'|c']; try constructor; auto.
        rewrite Z, mv_self. now apply empty_b.
      - cbn [parse_step]. mstep. specialize (H c). destruct (b c) as [[|]|e| |]; try constructor; try easy.
        + destruct (tm_b t p c Hp1 Hl) as [b0 m H1 H2 H3|e'|c']; try constructor; auto.
          rewrite Z, mv_self. constructor.
        + destruct (tm_b t q c Hp2 Hl) as [b0 m H1 H2 H3|e'|c']; try constructor; auto.
          rewrite Z, mv_self. constructor.
      - cbn [parse_step]. now apply tm_b.
      - cbn [parse_step]. now apply choice_b.
      - cbn [parse_step]. now apply choice_b.
      - cbn [parse_step]. now apply PR.
      - constructor.
      - cbn [parse_step]. destruct (env_get G i) as [q|] eqn:E; [|constructor].
        apply HE in E. pose proof (PR held te q c E Hl) as B.
        destruct B; constructor; auto.
    Qed.
  End Step.

  Theorem parse_b : tame_env -> forall n held t p c, tame t p -> c_off c <= ctx_len c ->
    bres t c (parse n G held [] p c).
  Proof.
    intros HE n. induction n as [|n IH]; intros held t p c Hp Hl; [constructor|].
    cbn [parse]. apply step_b; auto.
  Qed.
End Byte.
