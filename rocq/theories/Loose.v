(** Any context, any policies, any byte offset: no panic, and every span lies between the old and the
    new cursor.  A weaker invariant than that of ByteInv.v for more parsers: separators with
    [skip = false], and combinators on policy contexts, whose span may end before the cursor. *)

From Coq Require Import List Arith NArith Bool Lia.
From Verif Require Import Base Text Context Neu Syntax Regex TextProofs Spec Units Leaf Sound ByteInv Boundary.
Import ListNotations.

(** What a well-behaved call may return when started with context [c]; [t] asks for spans that
    start exactly at the old offset. *)
Inductive lres (t : bool) (c : ctx) : res span * ctx -> Prop :=
| LOk b n x : c_off c <= b -> (t = true -> b = c_off c) -> b + n <= x -> x <= ctx_len c ->
    lres t c (Ok (Span b n), Ctx (c_kind c) (c_dat c) x)
| LErr e x : c_off c <= x -> x <= ctx_len c -> lres t c (Err e, Ctx (c_kind c) (c_dat c) x)
| LOof c' : lres t c (OOF, c').

(** A user closure used as a parser. *)
Definition loose_fn (t : bool) (f : ctx -> res span * ctx) : Prop :=
  forall c, c_off c <= ctx_len c -> lres t c (f c).

Section Loose.
  Variable G : env.
  (** Whether the context is a plain one. *)
  Variable pl : bool.
  (** Whether the matches of recursive parsers start at the old offset. *)
  Variable te : bool.

  (** [loose t p]: parsers whose closures behave; if [t] is true every match on a plain context
      starts at the offset at which [p] was started.  Left out: the longest-match containers, [longest]
      on policy contexts or over parsers whose span starts later, sync recursive handles, and the
      parsers without a matching mode. *)
  Inductive loose : bool -> pat -> Prop :=
  | ls_empty t : loose t PEmpty
  | ls_fail t : loose t PFail
  | ls_start t : loose t PStart
  | ls_end t : loose t PEnd
  | ls_consume t n : loose t (PConsume n)
  | ls_consume_all t : loose t PConsumeAll
  | ls_lit t l : loose t (PLit l)
  | ls_assert t t' p v : loose t' p -> loose t (PAssert p v)
  | ls_fn t f : loose_fn t f -> loose t (PFn f)
  | ls_builder t p f : loose t p ->
      (forall c s, c_off c <= ctx_len c -> sbeg s + slen s <= c_off c -> exists q o,
         f c s = (Ok q, Ctx (c_kind c) (c_dat c) o) /\ sbeg s <= o /\ o <= ctx_len c /\ loose false q) ->
      loose false (PBuilder p f)
  | ls_leaf t p : loose t p -> loose t (PLeaf p)
  | ls_unit t p c : unit_cond p = Some c -> loose_cond c -> loose t p
  | ls_then t t' p q : loose t p -> loose t' q -> loose t (PThen p q)
  | ls_ifthen t t1 t2 p r q : loose t p -> loose t1 r -> loose t2 q -> loose t (PIfThen p r q)
  | ls_or t p q : loose t p -> loose t q -> loose t (POr p q)
  | ls_longest t p q : pl = true -> loose true p -> loose true q -> loose t (PLongest p q)
  | ls_pat t p : loose t p -> loose t (PPat p)
  | ls_prefix t t' p q : loose t' p -> loose t q -> loose t (PPrefix p q)
  | ls_suffix t t' p q : loose t p -> loose t' q -> loose t (PSuffix p q)
  | ls_enclose t t1 t2 p o c : loose t1 p -> loose t o -> loose t2 c -> loose t (PEnclose p o c)
  | ls_seponce t t1 t2 t3 p s q : loose t1 p -> loose t2 s -> loose t3 q -> loose t (PSepOnce p s q)
  | ls_sep t t1 t2 p s mn sk : loose t1 p -> loose t2 s -> loose t (PSep p s mn sk)
  | ls_sep2 t t1 t2 p s m n sk : loose t1 p -> loose t2 s -> loose t (PSep2 p s m n sk)
  | ls_sepcollect t t1 t2 p s mn sk : loose t1 p -> loose t2 s -> loose t (PSepCollect p s mn sk)
  | ls_repeat t t' p r : loose t' p -> loose t (PRepeat p r)
  | ls_repeat2 t t' p m n : loose t' p -> loose t (PRepeat2 p m n)
  | ls_collect t t' p mn : loose t' p -> loose t (PCollect p mn)
  | ls_option t p : loose t p -> loose t (POption p)
  | ls_branch t b p q :
      (forall c, b c <> Panic) -> loose t p -> loose t q -> loose t (PBranch b p q)
  | ls_map t p f : loose t p -> loose t (PMap p f)
  | ls_choice t e ps : (forall p, In p ps -> loose t p) -> loose t (PChoice e false ps)
  | ls_pairchoice t e ps : (forall p, In p (map fst ps) -> loose t p) -> loose t (PPairChoice e false ps)
  | ls_wrap t p : loose t p -> loose t (PWrap p)
  | ls_nonep t : loose t PNoneP
  | ls_ref t i : (t = true -> te = true) -> loose t (PRef i)
  with loose_cond : cond -> Prop :=
  | lsc_empty : loose_cond CEmpty
  | lsc_fn f : (forall c x, f c x <> Panic) -> loose_cond (CFn f)
  | lsc_regex t p : loose t p -> loose_cond (CRegex p).

  Definition loose_env : Prop := forall i p, env_get G i = Some p -> loose te p.

  Definition all_loose (pols : list pat) : Prop := forall r, In r pols -> loose false r.

  Lemma Z o c0 : Ctx (c_kind c0) (c_dat c0) o = mv c0 o. Proof. reflexivity. Qed.

  Lemma lres_weak t c r : lres t c r -> lres false c r.
  Proof. intros [b n x H1 H2 H3 H4|e x H1 H2|c']; constructor; auto. discriminate. Qed.

  Section Step.
    Variable pr : list nat -> list pat -> pat -> M ctx span.
    Hypothesis PR : forall held pols t p c, (pl = true -> pols = []) -> all_loose pols -> loose t p -> c_off c <= ctx_len c ->
      lres (t && pl) c (pr held pols p c).
    Variable fuel : nat.
    Variable held : list nat.
    Variable pols : list pat.
    Hypothesis PL : pl = true -> pols = [].
    Hypothesis AL : all_loose pols.
    Notation tm := (tm pr held pols).

    Lemma tm_l t p c : loose t p -> c_off c <= ctx_len c -> lres (t && pl) c (tm p c).
    Proof.
      intros Hp Hl. unfold Regex.tm, try_mat. destruct pols as [|r rest] eqn:E; [apply PR; auto|].
      assert (Fl : pl = false) by (destruct pl; auto; discriminate (PL eq_refl)).
      unfold bind. rewrite Fl, andb_false_r.
      assert (B : lres (false && pl) c (pr held rest r c)).
      { apply PR; [intros X; congruence| | |exact Hl]; [intros q Hq; apply AL; now right|apply AL; now left]. }
      cbn [andb] in B. destruct B as [b n x H1 H2 H3 H4|e x H1 H2|c']; try constructor; auto.
      pose proof (PR held (r :: rest) t p (mv c x) PL AL Hp H4) as B.
      rewrite Fl, andb_false_r in B. fold (mv c x).
      destruct B as [b' n' x' H1' H2' H3' H4'|e x' H1' H2'|c']; cbn [c_off mv c_kind c_dat] in *; constructor; auto; try discriminate; lia.
    Qed.

    Lemma chk_l cd w i k : loose_cond cd -> chk_safe k (check pr held pols cd) w i.
    Proof.
      intros C m x E. assert (L : i + m < length w) by (apply nth_error_Some; congruence).
      destruct C as [|f Hf|t p Hp]; simpl; [discriminate|apply Hf|].
      rewrite clone_cx by lia.
      assert (B : lres (t && pl) (cx k (skipn (i + m) w) 0) (tm p (cx k (skipn (i + m) w) 0))).
      { apply tm_l; auto. unfold cx. cbn [c_off]. rewrite bo_0. lia. }
      destruct B; simpl; discriminate.
    Qed.

    Lemma repeat_l t p c more o : loose t p -> forall n cnt z x,
      o <= z -> z <= x -> x <= ctx_len c ->
      (exists cnt' z' y, repeat_loop (tm p) n more cnt (Span o (z - o)) (mv c x)
          = (Ok (cnt', Span o (z' - o)), mv c y) /\ o <= z' /\ z' <= y /\ y <= ctx_len c) \/
      (exists c', repeat_loop (tm p) n more cnt (Span o (z - o)) (mv c x) = (OOF, c')).
    Proof.
      intros Hp n. induction n as [|n IH]; intros cnt z x Hz Hx Hl; cbn [repeat_loop]; [right; eexists; reflexivity|].
      destruct (more cnt); [|left; exists cnt, z, x; split; [reflexivity|lia]].
      unfold bind, catch. destruct (tm_l t p (mv c x) Hp Hl) as [b m y H1 H2 H3 H4|e y H1 H2|c'].
      - cbn [c_off mv c_kind c_dat] in *. rewrite join_bytes by lia. fold (mv c y).
        apply (IH (S cnt) (b + m) y); auto; lia.
      - left. exists cnt, z, y. cbn [c_off mv c_kind c_dat] in *. split; [reflexivity|].
        change (ctx_len (mv c x)) with (ctx_len c) in H2. lia.
      - right. eexists. reflexivity.
    Qed.

    Lemma sep_l t t' p s c more sk o : loose t p -> loose t' s -> forall n cnt z x,
      o <= z -> z <= x -> x <= ctx_len c ->
      (exists cnt' z' y, sep_loop (tm p) (tm s) n more sk cnt (Span o (z - o)) (mv c x)
          = (Ok (cnt', Span o (z' - o)), mv c y) /\ o <= z' /\ z' <= y /\ y <= ctx_len c) \/
      (exists c', sep_loop (tm p) (tm s) n more sk cnt (Span o (z - o)) (mv c x) = (OOF, c')).
    Proof.
      intros Hp Hs n. induction n as [|n IH]; intros cnt z x Hz Hx Hl; cbn [sep_loop]; [right; eexists; reflexivity|].
      destruct (more cnt); [|left; exists cnt, z, x; split; [reflexivity|lia]].
      unfold bind, catch. destruct (tm_l t p (mv c x) Hp Hl) as [b m y H1 H2 H3 H4|e y H1 H2|c'].
      - cbn [c_off mv c_kind c_dat] in *. fold (mv c y). change (ctx_len (mv c x)) with (ctx_len c) in H4.
        destruct (tm_l t' s (mv c y) Hs H4) as [b' m' y' H1' H2' H3' H4'|e y' H1' H2'|c']; cbn [c_off mv c_kind c_dat] in *.
        + rewrite !join_bytes by lia. fold (mv c y'). apply (IH (S cnt) (b' + m') y'); auto; lia.
        + change (ctx_len (mv c y)) with (ctx_len c) in H2'. destruct sk.
          * rewrite join_bytes by lia. left. exists (S cnt), (b + m), y'. split; [reflexivity|lia].
          * left. exists cnt, z, y'. split; [reflexivity|lia].
        + right. eexists. reflexivity.
      - left. exists cnt, z, y. cbn [c_off mv c_kind c_dat] in *. split; [reflexivity|].
        change (ctx_len (mv c x)) with (ctx_len c) in H2. lia.
      - right. eexists. reflexivity.
    Qed.

    Lemma self_l t c r : c_off c <= ctx_len c -> lres t c (Err r, c).
    Proof. intros H. pose proof (LErr t c r (c_off c) (le_n _) H) as B. fold (mv c (c_off c)) in B. now rewrite mv_self in B. Qed.

    Lemma choice_l t c e ps : (forall p, In p ps -> loose t p) -> c_off c <= ctx_len c ->
      lres (t && pl) c (choice tm (c_off c) e ps c).
    Proof.
      intros Hp Hl. induction ps as [|p ps IH]; cbn [choice]; [now apply self_l|].
      unfold bind, catch, on_err_reset.
      destruct (tm_l t p c (Hp p (or_introl eq_refl)) Hl) as [b m x H1 H2 H3 H4|e' x H1 H2|c'].
      - constructor; auto.
      - fold (mv c x). change (put_off (c_off c) (mv c x)) with (mv c (c_off c)). rewrite mv_self. apply IH.
        intros q Hq. apply Hp. now right.
      - constructor.
    Qed.

    (** An accepted or rejected loop result. *)
    Lemma accept_l t c z y (ok : bool) e : c_off c <= z -> z <= y -> y <= ctx_len c ->
      lres t c (accept ok e (c_off c) (Span (c_off c) (z - c_off c)) (mv c y)).
    Proof.
      intros H1 H2 H3. unfold accept. destruct ok.
      - unfold ret. constructor; auto; lia.
      - cbv [bind set_offset fail put_off ctx_offset]. fold (mv (mv c y) (c_off c)).
        rewrite mv_mv, mv_self. apply self_l. lia.
    Qed.

    Lemma empty_l t c : c_off c <= ctx_len c -> lres t c (Ok (Span (c_off c) 0), c).
    Proof.
      intros H. pose proof (LOk t c (c_off c) 0 (c_off c)) as B.
      fold (mv c (c_off c)) in B. rewrite mv_self in B. apply B; auto; lia.
    Qed.

    Local Ltac one Hp Hl := 
      let b := fresh "b" in let m := fresh "m" in let x := fresh "x" in
      let H1 := fresh "A" in let H2 := fresh "A" in let H3 := fresh "A" in let H4 := fresh "A" in
      match type of Hp with loose ?t ?p =>
        match type of Hl with c_off ?c <= _ =>
          destruct (tm_l t p c Hp Hl) as [b m x H1 H2 H3 H4|?e x H1 H2|?] end end;
      cbn [c_kind c_dat c_off mv] in *; rewrite ?mv_len in *.

    Local Ltac fin := try solve [constructor; auto; lia].

    Lemma step_l t p c : loose t p -> c_off c <= ctx_len c -> loose_env ->
      lres (t && pl) c (parse_step G pr fuel held pols p c).
    Proof.
      intros Hp Hl HE.
      assert (R : remaining c = (Ok (ctx_len c - c_off c), c)).
      { unfold remaining, csub. destruct (Nat.leb_spec (c_off c) (ctx_len c)); [reflexivity|lia]. }
      assert (SE : forall e, lres (t && pl) c (Err e, c)) by (intros; now apply self_l).
      assert (N : forall n, n <= ctx_len c - c_off c -> lres (t && pl) c (new_span_inc n c)).
      { intros n Hn. cbv [new_span_inc bind offset inc ret get_off ctx_offset].
        constructor; auto; lia. }
      assert (EM : lres (t && pl) c (Ok (Span (c_off c) 0), c)) by now apply empty_l.
      destruct Hp.
      - cbn [parse_step]. exact EM.
      - apply SE.
      - cbn [parse_step]. unfold start_parse. mstep. destruct (_ =? _); auto.
      - cbn [parse_step]. unfold end_parse. mstep. destruct (_ =? _); auto.
      - cbn [parse_step]. unfold consume_parse, bind. rewrite R.
        destruct (Nat.leb_spec n (ctx_len c - c_off c)); [now apply N|apply SE].
      - cbn [parse_step]. unfold consume_all_parse. cbv [bind reads]. now apply N.
      - cbn [parse_step]. unfold literal_parse, bind. rewrite R. cbv [reads].
        destruct (Nat.leb_spec (tlen (c_kind c) l) (ctx_len c - c_off c)); [|apply SE].
        unfold orig, orig_at, orig_sub. destruct (c_kind c) eqn:K.
        + unfold csub. destruct (Nat.leb_spec (c_off c) (ctx_len c)); [|lia].
          destruct (drop_at KBytes (c_dat c) (c_off c)); [|apply SE].
          destruct (take_at _ _ _); [|apply SE].
          destruct (starts_with _ _); [now apply N|apply SE].
        + destruct (drop_at KStr (c_dat c) (c_off c)); [|apply SE].
          destruct (starts_with _ _); [now apply N|apply SE].
      - cbn [parse_step]. mstep. one Hp Hl; try constructor.
        + rewrite Z, mv_self. destruct v; cbn [Bool.eqb]; auto.
        + rewrite Z, mv_self. destruct v; cbn [Bool.eqb]; auto.
      - cbn [parse_step]. specialize (H c Hl). destruct H as [b n x H1 H2 H3 H4|e x H1 H2|c']; constructor; auto.
        intros X. apply H2. now destruct t.
      - cbn [parse_step andb]. mstep. destruct (tm_l t p c Hp Hl) as [b m x H1 H2 H3 H4|e' x H1 H2|c']; try constructor.
        + destruct (H (mv c x) (Span b m)) as (q & o & E & A1 & A2 & Tq); auto.
          change (f (mv c x) (Span b m) = (Ok q, mv c o)) in E.
          rewrite Z, E. cbn [sbeg] in A1. rewrite mv_len in A2.
          destruct (tm_l false q (mv c o) Tq A2) as [b' m' x' H1' H2' H3' H4'|e' x' H1' H2'|c']; cbn [c_kind c_dat c_off mv] in *.
          * constructor; auto; try discriminate. lia.
          * rewrite Z, mv_self. apply SE.
          * constructor.
        + cbn [c_kind c_dat]. rewrite Z, mv_self. apply SE.
      - cbn [parse_step]. now apply PR.
      - destruct (boundary_cases (c_kind c) c Hl eq_refl) as [(i & Hi & E)|(K & D)].
        + rewrite E at 2. pose proof (unit_leaf (c_kind c) G pr fuel held pols p c0 (c_dat c) i H Hi
                                        (chk_l c0 (c_dat c) i (c_kind c) H0)) as L.
          assert (Eo : c_off c = bo (c_kind c) (c_dat c) i) by (rewrite E at 1; reflexivity).
          destruct L as [j Hij Hj|e|].
          * pose proof (bo_mono (c_kind c) (c_dat c) i j Hij). pose proof (bo_le_len (c_kind c) (c_dat c) j).
            unfold cx, sp. apply LOk; unfold ctx_len; lia.
          * rewrite <- E. apply SE.
          * constructor.
        + rewrite K in D. destruct (unit_inside G pr fuel held pols p c0 c H Hl K D) as [E|E]; rewrite E; auto.
      - cbn [parse_step]. mstep. one Hp1 Hl; fin.
        rewrite Z. pose proof (A2 : c_off (mv c x) <= ctx_len (mv c x)) as Lx. one Hp2 Lx; fin.
        rewrite add_assign_b by lia. fin.
      - cbn [parse_step]. mstep. one Hp1 Hl; fin.
        rewrite Z. pose proof (A2 : c_off (mv c x) <= ctx_len (mv c x)) as Lx. one Hp2 Lx; fin.
        rewrite add_assign_b by lia. rewrite Z. pose proof (A6 : c_off (mv c x0) <= ctx_len (mv c x0)) as Lx0. one Hp3 Lx0; fin.
        rewrite add_assign_b by lia. fin.
      - cbn [parse_step]. mstep. one Hp1 Hl; fin.
        rewrite Z, mv_self. one Hp2 Hl; fin.
      - cbn [parse_step]. mstep. assert (TP : true && pl = true) by now rewrite H. one Hp1 Hl; fin.
        + rewrite Z, mv_self. one Hp2 Hl; cbn [slen]; fin.
          all: rewrite (A0 TP) in *; try (rewrite (A4 TP) in *; destruct (m0 <=? m); cbn [slen]); fin.
        + rewrite Z, mv_self. one Hp2 Hl; cbn [slen]; fin.
          all: rewrite (A2 TP) in *; fin.
      - cbn [parse_step]. now apply tm_l.
      - cbn [parse_step]. mstep. one Hp2 Hl; fin.
        rewrite Z. pose proof (A2 : c_off (mv c x) <= ctx_len (mv c x)) as Lx. one Hp1 Lx; fin.
        rewrite add_assign_b by lia. fin.
      - cbn [parse_step]. mstep. one Hp1 Hl; fin.
        rewrite Z. pose proof (A2 : c_off (mv c x) <= ctx_len (mv c x)) as Lx. one Hp2 Lx; fin.
        rewrite add_assign_b by lia. fin.
      - cbn [parse_step]. mstep. one Hp2 Hl; fin.
        rewrite Z. pose proof (A2 : c_off (mv c x) <= ctx_len (mv c x)) as Lx. one Hp1 Lx; fin.
        rewrite add_assign_b by lia. rewrite Z. pose proof (A6 : c_off (mv c x0) <= ctx_len (mv c x0)) as Lx0. one Hp3 Lx0; fin.
        rewrite add_assign_b by lia. fin.
      - cbn [parse_step]. mstep. one Hp1 Hl; fin.
        rewrite add_assign_b by lia. rewrite Z. pose proof (A2 : c_off (mv c x) <= ctx_len (mv c x)) as Lx. one Hp2 Lx; fin.
        rewrite add_assign_b by lia. rewrite Z. pose proof (A6 : c_off (mv c x0) <= ctx_len (mv c x0)) as Lx0. one Hp3 Lx0; fin.
        rewrite add_assign_b by lia. fin.
      - cbn [parse_step]. unfold bind at 1, offset. cbn [get_off ctx_offset]. unfold bind.
        destruct (sep_l t1 t2 p s c (fun _ => true) sk (c_off c) Hp1 Hp2 fuel 0 (c_off c) (c_off c))
          as [(cnt & z & y & E & A1 & A2 & A3)|(c' & E)]; auto; rewrite Nat.sub_diag, mv_self in E; rewrite E; [now apply accept_l|constructor].
      - cbn [parse_step]. unfold bind at 1, offset. cbn [get_off ctx_offset]. unfold bind.
        destruct (sep_l t1 t2 p s c (fun cnt => cnt <=? n) sk (c_off c) Hp1 Hp2 fuel 0 (c_off c) (c_off c))
          as [(cnt & z & y & E & A1 & A2 & A3)|(c' & E)]; auto; rewrite Nat.sub_diag, mv_self in E; rewrite E; [now apply accept_l|constructor].
      - cbn [parse_step]. unfold bind at 1, offset. cbn [get_off ctx_offset]. unfold bind.
        destruct (sep_l t1 t2 p s c (fun _ => true) sk (c_off c) Hp1 Hp2 fuel 0 (c_off c) (c_off c))
          as [(cnt & z & y & E & A1 & A2 & A3)|(c' & E)]; auto; rewrite Nat.sub_diag, mv_self in E; rewrite E; [now apply accept_l|constructor].
      - cbn [parse_step]. unfold bind at 1, offset. cbn [get_off ctx_offset]. unfold bind.
        destruct (repeat_l t' p c (repeat_more r) (c_off c) Hp fuel 0 (c_off c) (c_off c))
          as [(cnt & z & y & E & A1 & A2 & A3)|(c' & E)]; auto; rewrite Nat.sub_diag, mv_self in E; rewrite E; [now apply accept_l|constructor].
      - cbn [parse_step]. unfold bind at 1, offset. cbn [get_off ctx_offset]. unfold bind.
        destruct (repeat_l t' p c (fun cnt => cnt <=? n) (c_off c) Hp fuel 0 (c_off c) (c_off c))
          as [(cnt & z & y & E & A1 & A2 & A3)|(c' & E)]; auto; rewrite Nat.sub_diag, mv_self in E; rewrite E; [now apply accept_l|constructor].
      - cbn [parse_step]. unfold bind at 1, offset. cbn [get_off ctx_offset]. unfold bind, collect_loop.
        destruct (repeat_l t' p c (fun _ => true) (c_off c) Hp fuel 0 (c_off c) (c_off c))
          as [(cnt & z & y & E & A1 & A2 & A3)|(c' & E)]; auto; rewrite Nat.sub_diag, mv_self in E; rewrite E; [now apply accept_l|constructor].
      - cbn [parse_step]. mstep. one Hp Hl; fin.
      - cbn [parse_step]. mstep. specialize (H c). destruct (b c) as [[|]|e| |]; try constructor; try easy.
        + one Hp1 Hl; fin.
        + one Hp2 Hl; fin.
      - cbn [parse_step]. now apply tm_l.
      - cbn [parse_step]. now apply choice_l.
      - cbn [parse_step]. now apply choice_l.
      - cbn [parse_step]. now apply PR.
      - apply SE.
      - cbn [parse_step]. destruct (env_get G i) as [q|] eqn:E; [|apply SE].
        apply HE in E. pose proof (PR held pols te q c PL AL E Hl) as B.
        destruct B as [b n x H1 H2 H3 H4|e x H1 H2|c']; constructor; auto.
        intros X. apply H2. destruct t, pl; try discriminate X. now rewrite H.
    Qed.
  End Step.

  Theorem parse_l : loose_env -> forall n held pols t p c, (pl = true -> pols = []) -> all_loose pols -> loose t p -> c_off c <= ctx_len c ->
    lres (t && pl) c (parse n G held pols p c).
  Proof.
    intros HE n. induction n as [|n IH]; intros held pols t p c PL AL Hp Hl; [constructor|].
    cbn [parse]. apply step_l; auto.
  Qed.
End Loose.

(** At top level, with the skipping in front. *)
Lemma try_mat_l G te pols t p n c : loose_env G (is_plain pols) te -> all_loose (is_plain pols) te pols -> loose (is_plain pols) te t p ->
  c_off c <= ctx_len c -> lres (t && is_plain pols) c (try_mat_top n G pols p c).
Proof.
  intros HE AL Hp Hl. unfold try_mat_top. change (try_mat (parse n G []) pols p) with (tm (parse n G) [] pols p).
  assert (PL : forall ps, (is_plain ps = true -> ps = [])) by (intros [|]; [auto|discriminate]).
  eapply tm_l; eauto. intros. eapply parse_l; eauto.
Qed.
