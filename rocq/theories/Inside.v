(** Parsers started inside a character of a [str].

    [find] and [find_all] advance byte by byte (src/ctx.rs:503, 583: [ctx.inc(1)]), so on a [str]
    they also try the parser at offsets inside characters.  A parser that looks at the text before
    it moves never matches anything there. *)

From Coq Require Import List Arith NArith Bool Lia.
From Verif Require Import Base Text Context Neu Syntax Regex TextProofs Spec Units Leaf Core Sound
  Mono Obs ApiLaws Consumes TermLaws.
Import ListNotations.

(** [looks p]: [p] has no part that moves the cursor without looking at the text: no [consume],
    [consume_all], no user closures that act as parsers, no sync handles. *)
Inductive looks : pat -> Prop :=
| lk_empty : looks PEmpty
| lk_fail : looks PFail
| lk_start : looks PStart
| lk_end : looks PEnd
| lk_lit l : looks (PLit l)
| lk_assert p v : looks p -> looks (PAssert p v)
| lk_leaf p : looks p -> looks (PLeaf p)
| lk_unit p c : unit_cond p = Some c -> looks p
| lk_then p q : looks p -> looks q -> looks (PThen p q)
| lk_ifthen p t q : looks p -> looks t -> looks q -> looks (PIfThen p t q)
| lk_or p q : looks p -> looks q -> looks (POr p q)
| lk_longest p q : looks p -> looks q -> looks (PLongest p q)
| lk_pat p : looks p -> looks (PPat p)
| lk_prefix p q : looks p -> looks q -> looks (PPrefix p q)
| lk_suffix p q : looks p -> looks q -> looks (PSuffix p q)
| lk_enclose p o c : looks p -> looks o -> looks c -> looks (PEnclose p o c)
| lk_seponce p s q : looks p -> looks s -> looks q -> looks (PSepOnce p s q)
| lk_sep p s mn b : looks p -> looks s -> looks (PSep p s mn b)
| lk_sep2 p s m n b : looks p -> looks s -> looks (PSep2 p s m n b)
| lk_sepcollect p s mn b : looks p -> looks s -> looks (PSepCollect p s mn b)
| lk_repeat p r : looks p -> looks (PRepeat p r)
| lk_repeat2 p m n : looks p -> looks (PRepeat2 p m n)
| lk_collect p mn : looks p -> looks (PCollect p mn)
| lk_option p : looks p -> looks (POption p)
| lk_branch b p q : (forall c, decides (b c)) -> looks p -> looks q -> looks (PBranch b p q)
| lk_map p f : looks p -> looks (PMap p f)
| lk_choice e b ps : (forall p, In p ps -> looks p) -> looks (PChoice e b ps)
| lk_pairchoice e b ps : (forall p, In p (map fst ps) -> looks p) -> looks (PPairChoice e b ps)
| lk_wrap p : looks p -> looks (PWrap p)
| lk_nonep : looks PNoneP
| lk_ref i : looks (PRef i).

Section Inside.
  Variable G : env.
  Definition looks_env : Prop := forall i p, env_get G i = Some p -> looks p.

  Variable w : text.
  Variable o : nat.
  Hypothesis In1 : o <= tlen KStr w.
  Hypothesis In2 : drop_at KStr w o = None.
  Notation c0 := (Ctx KStr w o).

  (** Nothing is matched and the cursor stays; with [t], a failure. *)
  Inductive ires (t : bool) : res span * ctx -> Prop :=
  | IOk : t = false -> ires t (Ok (Span o 0), c0)
  | IErr e : ires t (Err e, c0)
  | IOof c : ires t (OOF, c).

  Lemma ires_weak t r : ires t r -> ires false r.
  Proof. intros [E|e|c]; now constructor. Qed.

  Lemma o_pos : o <> 0.
  Proof. intros E. pose proof In2 as D. rewrite E in D. destruct w; discriminate D. Qed.
  Lemma o_not_end : o <> tlen KStr w.
  Proof. intros E. pose proof In2 as D. rewrite E, <- bo_len, drop_at_bo in D by lia. discriminate D. Qed.

  Variable K : nat -> bool.
  Hypothesis KE : forall x p, env_get G x = Some p -> K x = true -> consumes K p = true.
  Hypothesis LE : looks_env.

  Lemma add0 : add_assign (Span o 0) (Span o 0) = Ok (Span o 0).
  Proof.
    unfold add_assign, csub. cbn [sbeg slen]. rewrite Nat.leb_refl, Nat.add_0_l, Nat.add_0_r, Nat.leb_refl.
    now rewrite Nat.sub_diag.
  Qed.

  Section Step.
    Variable pr : list nat -> list pat -> pat -> M ctx span.
    Hypothesis PR : forall held p, looks p -> ires (consumes K p) (pr held [] p c0).
    Variable fuel : nat.
    Variable held : list nat.
    Notation tm := (tm pr held []).

    Lemma tm_i p : looks p -> ires (consumes K p) (tm p c0).
    Proof. apply PR. Qed.

    Definition lres (t : bool) (cnt : nat) (r : res (nat * span) * ctx) : Prop :=
      (exists n, r = (Ok (n, Span o 0), c0) /\ cnt <= n /\ (t = true -> n = cnt)) \/
      (exists c, r = (OOF, c)).

    Lemma repeat_i p more : looks p -> forall n cnt,
      lres (consumes K p) cnt (repeat_loop (tm p) n more cnt (Span o 0) c0).
    Proof.
      intros Hp n. induction n as [|n IH]; intros cnt; cbn [repeat_loop]; [right; eexists; reflexivity|].
      destruct (more cnt); [|left; exists cnt; auto].
      mstep. destruct (tm_i p Hp) as [E|e|c].
      - rewrite add0. destruct (IH (S cnt)) as [(m & Em & L & F)|(c & Ec)].
        + left. exists m. repeat split; [exact Em|lia|]. rewrite E. discriminate.
        + right. exists c. exact Ec.
      - left. exists cnt. auto.
      - right. eexists. reflexivity.
    Qed.

    Lemma sep_i p s more skip : looks p -> looks s -> forall n cnt,
      lres (consumes K p) cnt (sep_loop (tm p) (tm s) n more skip cnt (Span o 0) c0).
    Proof.
      intros Hp Hs n. induction n as [|n IH]; intros cnt; cbn [sep_loop]; [right; eexists; reflexivity|].
      destruct (more cnt); [|left; exists cnt; auto].
      mstep. destruct (tm_i p Hp) as [E|e|c].
      - destruct (tm_i s Hs) as [E'|e|c].
        + rewrite !add0. destruct (IH (S cnt)) as [(m & Em & L & F)|(c & Ec)].
          * left. exists m. repeat split; [exact Em|lia|]. rewrite E. discriminate.
          * right. exists c. exact Ec.
        + destruct skip; rewrite ?add0; left; eexists; repeat split; try lia. rewrite E. discriminate.
        + right. eexists. reflexivity.
      - left. exists cnt. auto.
      - right. eexists. reflexivity.
    Qed.

    Lemma choice_i e ps : (forall p, In p ps -> looks p) ->
      ires (forallb (consumes K) ps) (choice tm o e ps c0).
    Proof.
      intros Hp. induction ps as [|p ps IH]; cbn [choice forallb]; [constructor|].
      mstep. destruct (tm_i p (Hp p (or_introl eq_refl))) as [E|e'|c].
      - constructor. now rewrite E.
      - cbn [put_off ctx_offset c_kind c_dat]. destruct (IH (fun q H => Hp q (or_intror H))) as [F|e2|c2];
          constructor; auto. rewrite F. apply andb_false_r.
      - constructor.
    Qed.

    Lemma ltm_i e ps best t :
      (forall p, In p ps -> looks p) ->
      (best = None \/ (best = Some (Span o 0) /\ t = false)) ->
      ires (t && forallb (consumes K) ps) (choice_ltm tm o e best ps c0).
    Proof.
      intros Hp. revert best t. induction ps as [|p ps IH]; intros best t Hb; cbn [choice_ltm forallb].
      - destruct Hb as [->|[-> ->]]; constructor. reflexivity.
      - mstep. cbn [put_off ctx_offset c_kind c_dat].
        destruct (tm_i p (Hp p (or_introl eq_refl))) as [E|e'|c].
        + rewrite E, andb_false_r. cbn [andb].
          assert (B : match best with
                      | None => Some (Span o 0)
                      | Some b => if slen b <? slen (Span o 0) then Some (Span o 0) else best
                      end = Some (Span o 0)).
          { destruct Hb as [->|[-> _]]; [reflexivity|]. cbn [slen]. now rewrite Nat.ltb_irrefl. }
          rewrite B. exact (ires_weak _ _ (IH (fun q H => Hp q (or_intror H)) _ false (or_intror (conj eq_refl eq_refl)))).
        + destruct (consumes K p).
          * cbn [andb]. apply IH; auto. intros; apply Hp; now right.
          * cbn [andb]. rewrite andb_false_r.
            exact (ires_weak _ _ (IH (fun q H => Hp q (or_intror H)) best t Hb)).
        + constructor.
    Qed.

    Lemma unit_i p cd : unit_cond p = Some cd ->
      ires (consumes K p) (parse_step G pr fuel held [] p c0).
    Proof.
      intros U.
      assert (P : peek c0 = Err EOutOfBound) by (unfold peek, peek_at, orig_at; cbn [c_kind c_dat c_off]; now rewrite In2).
      assert (R : remaining c0 = (Ok (tlen KStr w - o), c0)).
      { unfold remaining, csub. unfold ctx_len; cbn [c_kind c_dat c_off].
        destruct (Nat.leb_spec o (tlen KStr w)); [reflexivity|lia]. }
      destruct p; try discriminate U; cbn [parse_step consumes];
        unfold once_parse, many1_parse, opt_parse, many0_parse, between_parse, times_parse,
          neuthen_parse, bind, reads, catch, offset;
        try rewrite R; rewrite P; try rewrite R; now constructor.
    Qed.

    Lemma contains0 r n : at_least_one r = true -> crange_contains r n = true -> n <> 0.
    Proof.
      intros A B ->. unfold at_least_one, crange_contains in *. destruct (r_lo r) as [a|a|]; try discriminate.
      destruct a; discriminate.
    Qed.

    Lemma step_i p : looks p -> ires (consumes K p) (parse_step G pr fuel held [] p c0).
    Proof.
      intros H. pose proof o_pos as OP. pose proof o_not_end as OE.
      assert (ACC : forall (ok : bool) e t m, (ok = true -> t = true -> 0 < m) -> (t = true -> m = 0) ->
                ires t (accept ok e o (Span o 0) c0)).
      { intros ok e t m A B. unfold accept. destruct ok; [|constructor]. constructor.
        destruct t; [|reflexivity]. specialize (A eq_refl eq_refl). specialize (B eq_refl). lia. }
      destruct H; try (eapply unit_i; eassumption).
      - cbn [parse_step]. now constructor.
      - cbn [parse_step]. now constructor.
      - cbn [parse_step]. unfold start_parse. mstep. cbn [c_off].
        destruct (Nat.eqb_spec o 0); [contradiction|constructor].
      - cbn [parse_step]. unfold end_parse. mstep. cbn [c_off]. unfold ctx_len; cbn [c_kind c_dat].
        destruct (Nat.eqb_spec o (tlen KStr w)); [contradiction|constructor].
      - cbn [parse_step]. unfold literal_parse, remaining, csub. mstep. unfold ctx_len; cbn [c_kind c_dat c_off].
        destruct (Nat.leb_spec o (tlen KStr w)); [|lia].
        destruct (_ <=? _); [|constructor]. unfold orig, orig_at. cbn [c_kind c_dat c_off]. rewrite In2.
        constructor.
      - cbn [parse_step consumes]. mstep. cbn [c_off].
        destruct (tm_i p H) as [E|e|c]; try constructor; cbn [put_off ctx_offset c_kind c_dat];
          destruct v; cbn [Bool.eqb]; now constructor.
      - cbn [parse_step consumes]. now apply PR.
      - cbn [parse_step consumes]. mstep.
        destruct (tm_i p H) as [E|e|c]; try constructor.
        destruct (tm_i q H0) as [E'|e|c]; try constructor. rewrite add0. constructor. now rewrite E, E'.
      - cbn [parse_step consumes]. mstep.
        destruct (tm_i p H) as [E|e|c]; try constructor.
        destruct (tm_i t H0) as [E'|e|c]; try now constructor.
        rewrite add0. destruct (tm_i q H1) as [E''|e|c]; try constructor. rewrite add0. now constructor.
      - cbn [parse_step consumes]. mstep. cbn [c_off].
        destruct (tm_i p H) as [E|e|c]; try constructor; [now rewrite E|].
        cbn [put_off ctx_offset c_kind c_dat].
        destruct (tm_i q H0) as [E'|e'|c]; constructor. rewrite E'. apply andb_false_r.
      - cbn [parse_step consumes]. mstep. cbn [c_off].
        destruct (tm_i p H) as [E|e|c]; try constructor; cbn [put_off ctx_offset c_kind c_dat];
          destruct (tm_i q H0) as [E'|e'|c]; try constructor; cbn [put_off ctx_offset c_kind c_dat slen];
          rewrite Nat.add_0_r; constructor; rewrite ?E, ?E', ?andb_false_r; reflexivity.
      - cbn [parse_step consumes]. now apply tm_i.
      - cbn [parse_step consumes]. mstep.
        destruct (tm_i q H0) as [E|e|c]; try constructor.
        destruct (tm_i p H) as [E'|e|c]; try constructor. rewrite add0. constructor. now rewrite E, E'.
      - cbn [parse_step consumes]. mstep.
        destruct (tm_i p H) as [E|e|c]; try constructor.
        destruct (tm_i q H0) as [E'|e|c]; try constructor. rewrite add0. constructor. now rewrite E, E'.
      - cbn [parse_step consumes]. mstep.
        destruct (tm_i o0 H0) as [E|e|c1]; try constructor.
        destruct (tm_i p H) as [E'|e|c1]; try constructor. rewrite add0.
        destruct (tm_i c H1) as [E''|e|c1]; try constructor. rewrite add0. constructor. now rewrite E, E', E''.
      - cbn [parse_step consumes]. mstep. cbn [c_off].
        destruct (tm_i p H) as [E|e|c1]; try constructor. rewrite add0.
        destruct (tm_i s H0) as [E'|e|c1]; try constructor. rewrite add0.
        destruct (tm_i q H1) as [E''|e|c1]; try constructor. rewrite add0. constructor. now rewrite E, E', E''.
      - cbn [parse_step consumes]. change (o1 <- offset;; _) with (fun x : ctx => bind (sep_loop (tm p) (tm s) fuel (fun _ => true) b 0 (Span (c_off x) 0)) (fun r => accept (mn <=? fst r) ESeparate (c_off x) (snd r)) x).
        cbv beta. cbn [c_off]. unfold bind.
        destruct (sep_i p s (fun _ => true) b H H0 fuel 0) as [(m & E & L & F)|(c & E)]; rewrite E; [|constructor].
        cbn [fst snd]. apply ACC with m.
        + intros A B. apply Nat.leb_le in A. apply andb_true_iff in B. destruct B as [B _].
          apply Nat.ltb_lt in B. lia.
        + intros B. apply andb_true_iff in B. now apply F.
      - cbn [parse_step consumes]. change (o1 <- offset;; _) with (fun x : ctx => bind (sep_loop (tm p) (tm s) fuel (fun cnt => cnt <=? n) b 0 (Span (c_off x) 0)) (fun r => accept (m <=? fst r) ESeparate2 (c_off x) (snd r)) x).
        cbv beta. cbn [c_off]. unfold bind.
        destruct (sep_i p s (fun cnt => cnt <=? n) b H H0 fuel 0) as [(m' & E & L & F)|(c & E)]; rewrite E; [|constructor].
        cbn [fst snd]. apply ACC with m'.
        + intros A B. apply Nat.leb_le in A. apply andb_true_iff in B. destruct B as [B _].
          apply Nat.ltb_lt in B. lia.
        + intros B. apply andb_true_iff in B. now apply F.
      - cbn [parse_step consumes]. change (o1 <- offset;; _) with (fun x : ctx => bind (sep_loop (tm p) (tm s) fuel (fun _ => true) b 0 (Span (c_off x) 0)) (fun r => accept (mn <=? fst r) ESepCollect (c_off x) (snd r)) x).
        cbv beta. cbn [c_off]. unfold bind.
        destruct (sep_i p s (fun _ => true) b H H0 fuel 0) as [(m & E & L & F)|(c & E)]; rewrite E; [|constructor].
        cbn [fst snd]. apply ACC with m.
        + intros A B. apply Nat.leb_le in A. apply andb_true_iff in B. destruct B as [B _].
          apply Nat.ltb_lt in B. lia.
        + intros B. apply andb_true_iff in B. now apply F.
      - cbn [parse_step consumes]. change (o1 <- offset;; _) with (fun x : ctx => bind (repeat_loop (tm p) fuel (repeat_more r) 0 (Span (c_off x) 0)) (fun a => accept (crange_contains r (fst a)) ERepeat (c_off x) (snd a)) x).
        cbv beta. cbn [c_off]. unfold bind.
        destruct (repeat_i p (repeat_more r) H fuel 0) as [(m & E & L & F)|(c & E)]; rewrite E; [|constructor].
        cbn [fst snd]. apply ACC with m.
        + intros A B. apply andb_true_iff in B. destruct B as [B _].
          pose proof (contains0 r m B A). lia.
        + intros B. apply andb_true_iff in B. now apply F.
      - cbn [parse_step consumes]. change (o1 <- offset;; _) with (fun x : ctx => bind (repeat_loop (tm p) fuel (fun cnt => cnt <=? n) 0 (Span (c_off x) 0)) (fun a => accept ((m <=? fst a) && (fst a <=? n)) ERepeat2 (c_off x) (snd a)) x).
        cbv beta. cbn [c_off]. unfold bind.
        destruct (repeat_i p (fun cnt => cnt <=? n) H fuel 0) as [(m' & E & L & F)|(c & E)]; rewrite E; [|constructor].
        cbn [fst snd]. apply ACC with m'.
        + intros A B. apply andb_true_iff in A. destruct A as [A _]. apply Nat.leb_le in A.
          apply andb_true_iff in B. destruct B as [B _]. apply Nat.ltb_lt in B. lia.
        + intros B. apply andb_true_iff in B. now apply F.
      - cbn [parse_step consumes]. change (o1 <- offset;; _) with (fun x : ctx => bind (repeat_loop (tm p) fuel (fun _ => true) 0 (Span (c_off x) 0)) (fun a => accept (mn <=? fst a) ECollect (c_off x) (snd a)) x).
        cbv beta. cbn [c_off]. unfold bind.
        destruct (repeat_i p (fun _ => true) H fuel 0) as [(m & E & L & F)|(c & E)]; rewrite E; [|constructor].
        cbn [fst snd]. apply ACC with m.
        + intros A B. apply Nat.leb_le in A. apply andb_true_iff in B. destruct B as [B _].
          apply Nat.ltb_lt in B. lia.
        + intros B. apply andb_true_iff in B. now apply F.
      - cbn [parse_step consumes]. mstep. cbn [c_off].
        destruct (tm_i p H) as [E|e|c1]; try now constructor.
      - cbn [parse_step consumes]. mstep. cbn [c_off]. specialize (H c0).
        destruct (b c0) as [[|]|e| |]; try easy; try constructor.
        + destruct (tm_i p H0) as [E|e|c1]; try constructor. now rewrite E.
        + destruct (tm_i q H1) as [E|e|c1]; try constructor. rewrite E. apply andb_false_r.
      - cbn [parse_step consumes]. now apply tm_i.
      - cbn [parse_step consumes]. mstep. cbn [c_off]. destruct b.
        + apply (ltm_i e ps None true); auto.
        + now apply choice_i.
      - cbn [parse_step consumes].
        assert (X : forallb (fun x => consumes K (fst x)) ps = forallb (consumes K) (map fst ps)).
        { clear. induction ps as [|x ps IH]; cbn [map forallb]; congruence. }
        rewrite X. mstep. cbn [c_off]. destruct b.
        + apply (ltm_i e (map fst ps) None true); auto.
        + now apply choice_i.
      - cbn [parse_step consumes]. now apply PR.
      - constructor.
      - cbn [parse_step consumes]. destruct (env_get G i) as [q|] eqn:E; [|constructor].
        pose proof (PR held q (LE _ _ E)) as B. destruct (K i) eqn:Ki.
        + now rewrite (KE _ _ E Ki) in B.
        + now apply ires_weak in B.
    Qed.
  End Step.

  Theorem inside n held p : looks p -> ires (consumes K p) (parse n G held [] p c0).
  Proof.
    revert held p. induction n as [|n IH]; intros held p H; [constructor|].
    cbn [parse]. now apply step_i.
  Qed.

  (** Well-formed parsers return. *)
  Variable rk : nat -> nat.
  Variable L : nat.
  Hypothesis WE : forall x q, env_get G x = Some q -> wfb K rk L (rk x) q = true.

  Definition settled (p : pat) : Prop :=
    exists N r, (forall n, N <= n -> parse n G [] [] p c0 = (r, c0)) /\
      ((r = Ok (Span o 0) /\ consumes K p = false) \/ exists e, r = Err e).

  Lemma parse_S n held pols p : parse (S n) G held pols p = parse_step G (parse n G) n held pols p.
  Proof. reflexivity. Qed.

  Lemma settle N p : looks p -> fst (parse N G [] [] p c0) <> OOF -> settled p.
  Proof.
    intros H E. pose proof (inside N [] p H) as I.
    destruct (parse N G [] [] p c0) as [r c] eqn:Ep. cbn [fst] in E. exists N, r.
    inversion I; subst; try congruence; (split; [|eauto]); intros n Hn;
      (eapply parse_at; [exact Ep|discriminate|exact Hn]).
  Qed.

  Lemma repeat_ends (t : M ctx span) more M : (forall x, M <= x -> more x = false) ->
    (t c0 = (Ok (Span o 0), c0) \/ exists e, t c0 = (Err e, c0)) ->
    forall n cnt, M < n + cnt -> 0 < n -> fst (repeat_loop t n more cnt (Span o 0) c0) <> OOF.
  Proof.
    intros HM Ht n. induction n as [|n IH]; intros cnt Hn Hp; [lia|]. cbn [repeat_loop].
    destruct (more cnt) eqn:E; [|discriminate].
    assert (cnt < M) by (destruct (Nat.lt_ge_cases cnt M) as [C|C]; [exact C|apply HM in C; congruence]).
    mstep. destruct Ht as [Ht|(e & Ht)]; rewrite Ht; [|discriminate]. rewrite add0.
    apply IH; lia.
  Qed.

  Lemma repeat_stops (t : M ctx span) more e n cnt : t c0 = (Err e, c0) ->
    fst (repeat_loop t (S n) more cnt (Span o 0) c0) <> OOF.
  Proof.
    intros Ht. cbn [repeat_loop]. destruct (more cnt); [|discriminate]. mstep. now rewrite Ht.
  Qed.

  Lemma sep_ends (t s : M ctx span) more skip M : (forall x, M <= x -> more x = false) ->
    (t c0 = (Ok (Span o 0), c0) \/ exists e, t c0 = (Err e, c0)) ->
    (s c0 = (Ok (Span o 0), c0) \/ exists e, s c0 = (Err e, c0)) ->
    forall n cnt, M < n + cnt -> 0 < n -> fst (sep_loop t s n more skip cnt (Span o 0) c0) <> OOF.
  Proof.
    intros HM Ht Hs n. induction n as [|n IH]; intros cnt Hn Hp; [lia|]. cbn [sep_loop].
    destruct (more cnt) eqn:E; [|discriminate].
    assert (cnt < M) by (destruct (Nat.lt_ge_cases cnt M) as [C|C]; [exact C|apply HM in C; congruence]).
    mstep. destruct Ht as [Ht|(e & Ht)]; rewrite Ht; [|discriminate].
    destruct Hs as [Hs|(e & Hs)]; rewrite Hs; rewrite ?add0.
    - apply IH; lia.
    - destruct skip; rewrite ?add0; discriminate.
  Qed.

  Lemma sep_stops (t s : M ctx span) more skip n cnt :
    (exists e, t c0 = (Err e, c0)) \/
    (t c0 = (Ok (Span o 0), c0) /\ exists e, s c0 = (Err e, c0)) ->
    fst (sep_loop t s (S n) more skip cnt (Span o 0) c0) <> OOF.
  Proof.
    intros H. cbn [sep_loop]. destruct (more cnt); [|discriminate]. mstep.
    destruct H as [(e & Ht)|(Ht & e & Hs)]; rewrite Ht; [discriminate|]. rewrite Hs.
    destruct skip; rewrite ?add0; discriminate.
  Qed.

  Lemma accept_ends {A} (m : M ctx (nat * span)) (f : nat * span -> M ctx A) :
    fst (m c0) <> OOF -> (forall a c, fst (f a c) <> OOF) -> fst (bind m f c0) <> OOF.
  Proof.
    intros H F. unfold bind. destruct (m c0) as [[a|e| |] c]; cbn [fst] in *; try congruence; try discriminate.
  Qed.
  Lemma loop_ends {A} (m : nat -> M ctx (nat * span)) (f : nat -> nat * span -> M ctx A) :
    fst (m o c0) <> OOF -> (forall x a c, fst (f x a c) <> OOF) ->
    fst ((o' <- offset ;; r <- m o' ;; f o' r) c0) <> OOF.
  Proof. intros H F. apply (accept_ends (m o) (f o)); auto. Qed.
  Lemma accept_not_oof {A} ok e x (a : A) (c : ctx) : fst (accept ok e x a c) <> OOF.
  Proof. unfold accept. destruct ok; mstep; discriminate. Qed.

  Lemma choice_ends N e ps : (forall p, In p ps -> fst (parse N G [] [] p c0) <> OOF /\ looks p) ->
    fst (choice (tm (parse N G) [] []) o e ps c0) <> OOF.
  Proof.
    induction ps as [|p ps IH]; intros H; cbn [choice]; [discriminate|].
    destruct (H p (or_introl eq_refl)) as [Hp Lp]. pose proof (inside N [] p Lp) as I.
    unfold tm at 1. cbn [try_mat]. mstep.
    destruct I; cbn [fst] in Hp; try congruence; try discriminate.
    cbn [put_off ctx_offset c_kind c_dat]. apply IH. intros q Hq. apply H. now right.
  Qed.
  Lemma ltm_ends N e ps best : (forall p, In p ps -> fst (parse N G [] [] p c0) <> OOF /\ looks p) ->
    fst (choice_ltm (tm (parse N G) [] []) o e best ps c0) <> OOF.
  Proof.
    revert best. induction ps as [|p ps IH]; intros best H; cbn [choice_ltm]; [destruct best; discriminate|].
    destruct (H p (or_introl eq_refl)) as [Hp Lp]. pose proof (inside N [] p Lp) as I.
    mstep. cbn [put_off ctx_offset c_kind c_dat]. unfold tm at 1. cbn [try_mat].
    destruct I; cbn [fst] in Hp; try congruence; apply IH; intros q Hq; apply H; now right.
  Qed.

  (** A common fuel for the alternatives of a choice. *)
  Lemma settle_all ps : (forall p, In p ps -> settled p) ->
    exists N, forall p, In p ps -> forall n, N <= n -> fst (parse n G [] [] p c0) <> OOF.
  Proof.
    induction ps as [|p ps IH]; intros H; [exists 0; easy|].
    destruct IH as (N & HN); [intros; apply H; now right|].
    destruct (H p (or_introl eq_refl)) as (N' & r & E & C). exists (N + N').
    intros q [->|I] n Hn; [|apply HN; auto; lia]. rewrite E by lia. destruct C as [[-> _]|(e & ->)]; discriminate.
  Qed.

  Ltac use H := let N := fresh "N" in let r := fresh "r" in let E := fresh "E" in
    destruct H as (N & r & E & [[-> ?]|(? & ->)]).

  Ltac at_fuel M := exists M; cbn [parse parse_step]; unfold tm; cbn [try_mat].

  Lemma level_settled m : (forall m', m' < m -> forall p, looks p -> wfb K rk L m' p = true -> settled p) ->
    forall p, looks p -> wfb K rk L m p = true -> settled p.
  Proof.
    intros LV p H.
    assert (NX : forall q, consumes K q = false -> TermLaws.next K L m q = m).
    { intros q E. unfold TermLaws.next. now rewrite E. }
    assert (SH : forall q q', looks q' -> (forall n, parse (S n) G [] [] q' c0 = parse n G [] [] q c0) ->
              settled q -> settled q').
    { intros q q' Hq' E (N & r & Er & C). apply (settle (S N)); [auto|]. rewrite E, Er by lia.
      destruct C as [[-> _]|(e & ->)]; discriminate. }
    induction H; cbn [wfb]; intros W; repeat rewrite andb_true_iff in W;
      repeat match goal with H : _ /\ _ |- _ => destruct H end;
      repeat match goal with IH : ?a = true -> settled _, H : ?a = true |- _ => specialize (IH H) end;
      try discriminate W.
    - apply (settle 1); [constructor|]. discriminate.
    - apply (settle 1); [constructor|]. discriminate.
    - apply (settle 1); [constructor|]. cbn [parse parse_step]. unfold start_parse. mstep. destruct (_ =? _); discriminate.
    - apply (settle 1); [constructor|]. cbn [parse parse_step]. unfold end_parse. mstep. destruct (_ =? _); discriminate.
    - apply (settle 1); [constructor|]. cbn [parse parse_step]. unfold literal_parse, remaining, csub. mstep.
      unfold ctx_len; cbn [c_kind c_dat c_off].
      destruct (Nat.leb_spec o (tlen KStr w)); [|lia].
      destruct (_ <=? _); [|discriminate]. unfold orig, orig_at. cbn [c_kind c_dat c_off]. rewrite In2. discriminate.
    - use IHlooks; apply (settle (S N)); try (now constructor); cbn [parse parse_step]; unfold tm; cbn [try_mat];
        mstep; rewrite E by lia; cbn [put_off ctx_offset c_kind c_dat]; destruct v; discriminate.
    - apply (SH p); [now constructor|reflexivity|assumption].
    - assert (P : peek c0 = Err EOutOfBound) by (unfold peek, peek_at, orig_at; cbn [c_kind c_dat c_off]; now rewrite In2).
      assert (R : remaining c0 = (Ok (tlen KStr w - o), c0)).
      { unfold remaining, csub. unfold ctx_len; cbn [c_kind c_dat c_off].
        destruct (Nat.leb_spec o (tlen KStr w)); [reflexivity|lia]. }
      apply (settle 1); [econstructor; eassumption|].
      destruct p; try discriminate H; cbn [parse parse_step];
        unfold once_parse, many1_parse, opt_parse, many0_parse, between_parse, times_parse,
          neuthen_parse, bind, reads, catch, offset;
        try rewrite R; rewrite P; try rewrite R; discriminate.
    - (* then *) use IHlooks1.
      + rewrite NX in * by auto. match goal with H : _ = true |- _ => specialize (IHlooks2 H) end.
        use IHlooks2; apply (settle (S (N + N0))); try (now constructor); cbn [parse parse_step]; unfold tm;
          cbn [try_mat]; mstep; rewrite E by lia; rewrite E0 by lia; rewrite ?add0; discriminate.
      + apply (settle (S N)); [now constructor|]. cbn [parse parse_step]; unfold tm; cbn [try_mat]; mstep.
        rewrite E by lia. discriminate.
    - (* if-then *) use IHlooks1.
      + rewrite NX in * by auto.
        repeat match goal with IH : ?a = true -> settled _, H : ?a = true |- _ => specialize (IH H) end.
        use IHlooks2.
        * rewrite NX in * by auto.
          repeat match goal with IH : ?a = true -> settled _, H : ?a = true |- _ => specialize (IH H) end.
          use IHlooks3; apply (settle (S (N + N0 + N1))); try (now constructor); cbn [parse parse_step]; unfold tm;
            cbn [try_mat]; mstep; rewrite E by lia; rewrite E0 by lia; rewrite ?add0; rewrite E1 by lia;
            rewrite ?add0; discriminate.
        * apply (settle (S (N + N0))); [now constructor|]. cbn [parse parse_step]; unfold tm; cbn [try_mat]; mstep.
          rewrite E by lia. rewrite E0 by lia. discriminate.
      + apply (settle (S N)); [now constructor|]. cbn [parse parse_step]; unfold tm; cbn [try_mat]; mstep.
        rewrite E by lia. discriminate.
    - (* or *) use IHlooks1; use IHlooks2; apply (settle (S (N + N0))); try (now constructor);
        cbn [parse parse_step]; unfold tm; cbn [try_mat]; mstep; rewrite E by lia;
        cbn [put_off ctx_offset c_kind c_dat c_off]; rewrite ?E0 by lia; discriminate.
    - (* longest *) use IHlooks1; use IHlooks2; apply (settle (S (N + N0))); try (now constructor);
        cbn [parse parse_step]; unfold tm; cbn [try_mat]; mstep; rewrite E by lia;
        cbn [put_off ctx_offset c_kind c_dat c_off]; rewrite ?E0 by lia; discriminate.
    - apply (SH p); [now constructor|reflexivity|assumption].
    - (* prefix *) use IHlooks2.
      + rewrite NX in * by auto. match goal with H : _ = true |- _ => specialize (IHlooks1 H) end.
        use IHlooks1; apply (settle (S (N + N0))); try (now constructor); cbn [parse parse_step]; unfold tm;
          cbn [try_mat]; mstep; rewrite E by lia; rewrite E0 by lia; rewrite ?add0; discriminate.
      + apply (settle (S N)); [now constructor|]. cbn [parse parse_step]; unfold tm; cbn [try_mat]; mstep.
        rewrite E by lia. discriminate.
    - (* suffix *) use IHlooks1.
      + rewrite NX in * by auto. match goal with H : _ = true |- _ => specialize (IHlooks2 H) end.
        use IHlooks2; apply (settle (S (N + N0))); try (now constructor); cbn [parse parse_step]; unfold tm;
          cbn [try_mat]; mstep; rewrite E by lia; rewrite E0 by lia; rewrite ?add0; discriminate.
      + apply (settle (S N)); [now constructor|]. cbn [parse parse_step]; unfold tm; cbn [try_mat]; mstep.
        rewrite E by lia. discriminate.
    - (* enclose *) use IHlooks2.
      + rewrite NX in * by auto.
        repeat match goal with IH : ?a = true -> settled _, H : ?a = true |- _ => specialize (IH H) end.
        use IHlooks1.
        * rewrite NX in * by auto.
          repeat match goal with IH : ?a = true -> settled _, H : ?a = true |- _ => specialize (IH H) end.
          use IHlooks3; apply (settle (S (N + N0 + N1))); try (now constructor); cbn [parse parse_step]; unfold tm;
            cbn [try_mat]; mstep; rewrite E by lia; rewrite E0 by lia; rewrite ?add0; rewrite E1 by lia;
            rewrite ?add0; discriminate.
        * apply (settle (S (N + N0))); [now constructor|]. cbn [parse parse_step]; unfold tm; cbn [try_mat]; mstep.
          rewrite E by lia. rewrite E0 by lia. discriminate.
      + apply (settle (S N)); [now constructor|]. cbn [parse parse_step]; unfold tm; cbn [try_mat]; mstep.
        rewrite E by lia. discriminate.
    - (* sep_once *) use IHlooks1.
      + rewrite NX in * by auto.
        repeat match goal with IH : ?a = true -> settled _, H : ?a = true |- _ => specialize (IH H) end.
        use IHlooks2.
        * rewrite NX in * by auto.
          repeat match goal with IH : ?a = true -> settled _, H : ?a = true |- _ => specialize (IH H) end.
          use IHlooks3; apply (settle (S (N + N0 + N1))); try (now constructor); cbn [parse parse_step]; unfold tm;
            cbn [try_mat]; mstep; rewrite E by lia; cbn [c_off]; rewrite ?add0; rewrite E0 by lia; rewrite ?add0;
            rewrite E1 by lia; rewrite ?add0; discriminate.
        * apply (settle (S (N + N0))); [now constructor|]. cbn [parse parse_step]; unfold tm; cbn [try_mat]; mstep.
          rewrite E by lia. cbn [c_off]. rewrite ?add0. rewrite E0 by lia. discriminate.
      + apply (settle (S N)); [now constructor|]. cbn [parse parse_step]; unfold tm; cbn [try_mat]; mstep.
        rewrite E by lia. discriminate.
    - (* sep *) use IHlooks1.
      + rewrite NX in * by auto.
        repeat match goal with IH : ?a = true -> settled _, H : ?a = true |- _ => specialize (IH H) end.
        use IHlooks2; [rewrite orb_true_iff in *; exfalso; intuition congruence|].
        apply (settle (S (S (N + N0)))); [now constructor|]. rewrite parse_S. cbn [parse_step].
        apply loop_ends; [|intros; apply accept_not_oof]. apply sep_stops. right.
        split; [apply E; lia|eexists; apply E0; lia].
      + apply (settle (S (S N))); [now constructor|]. rewrite parse_S. cbn [parse_step].
        apply loop_ends; [|intros; apply accept_not_oof]. apply sep_stops. left. eexists; apply E; lia.
    - (* sep2 *) assert (BND : forall x, S n <= x -> (x <=? n) = false) by (intros; apply Nat.leb_gt; lia).
      use IHlooks1.
      + rewrite NX in * by auto.
        repeat match goal with IH : ?a = true -> settled _, H : ?a = true |- _ => specialize (IH H) end.
        destruct IHlooks2 as (N0 & r0 & E0 & C0).
        apply (settle (S (S (S (N + N0 + n))))); [now constructor|]. rewrite parse_S. cbn [parse_step].
        apply loop_ends; [|intros; apply accept_not_oof].
        apply sep_ends with (S n); auto; try lia.
        * left. apply E. lia.
        * destruct C0 as [[-> _]|(e & ->)]; [left|right; exists e]; apply E0; lia.
      + apply (settle (S (S N))); [now constructor|]. rewrite parse_S. cbn [parse_step].
        apply loop_ends; [|intros; apply accept_not_oof]. apply sep_stops. left. eexists; apply E; lia.
    - (* sepcollect *) use IHlooks1.
      + rewrite NX in * by auto.
        repeat match goal with IH : ?a = true -> settled _, H : ?a = true |- _ => specialize (IH H) end.
        use IHlooks2; [rewrite orb_true_iff in *; exfalso; intuition congruence|].
        apply (settle (S (S (N + N0)))); [now constructor|]. rewrite parse_S. cbn [parse_step].
        apply loop_ends; [|intros; apply accept_not_oof]. apply sep_stops. right.
        split; [apply E; lia|eexists; apply E0; lia].
      + apply (settle (S (S N))); [now constructor|]. rewrite parse_S. cbn [parse_step].
        apply loop_ends; [|intros; apply accept_not_oof]. apply sep_stops. left. eexists; apply E; lia.
    - (* repeat *) use IHlooks.
      + assert (B : bounded r = true) by (rewrite orb_true_iff in *; intuition congruence).
        unfold bounded, limit_of in B.
        assert (HM : exists M, forall x, M <= x -> repeat_more r x = false).
        { unfold repeat_more. destruct (r_hi r) as [mx|mx|]; try discriminate B.
          - exists mx. intros. apply Nat.ltb_ge. lia.
          - exists mx. intros. apply Nat.ltb_ge. lia. }
        destruct HM as (M & HM).
        apply (settle (S (S (N + M)))); [now constructor|]. rewrite parse_S. cbn [parse_step].
        apply loop_ends; [|intros; apply accept_not_oof]. apply repeat_ends with M; auto; try lia.
        left. apply E. lia.
      + apply (settle (S (S N))); [now constructor|]. rewrite parse_S. cbn [parse_step].
        apply loop_ends; [|intros; apply accept_not_oof]. eapply repeat_stops. apply E; lia.
    - (* repeat2 *) assert (BND : forall x, S n <= x -> (x <=? n) = false) by (intros; apply Nat.leb_gt; lia).
      destruct IHlooks as (N & r & E & C).
      apply (settle (S (S (S (N + n))))); [now constructor|]. rewrite parse_S. cbn [parse_step].
      apply loop_ends; [|intros; apply accept_not_oof]. apply repeat_ends with (S n); auto; try lia.
      destruct C as [[-> _]|(e & ->)]; [left|right; exists e]; apply E; lia.
    - (* collect *) use IHlooks; [congruence|].
      apply (settle (S (S N))); [now constructor|]. rewrite parse_S. cbn [parse_step].
      apply loop_ends; [|intros; apply accept_not_oof]. eapply repeat_stops. apply E; lia.
    - (* option *) use IHlooks; apply (settle (S N)); try (now constructor); cbn [parse parse_step]; unfold tm;
        cbn [try_mat]; mstep; rewrite E by lia; discriminate.
    - (* branch *) use IHlooks1; use IHlooks2; apply (settle (S (N + N0))); try (now constructor);
        cbn [parse parse_step]; unfold tm; cbn [try_mat]; mstep; specialize (H c0);
        destruct (b c0) as [[|]|e'| |]; try easy; rewrite ?E, ?E0 by lia; discriminate.
    - apply (SH p); [now constructor|reflexivity|assumption].
    - (* choice *) rewrite forallb_forall in W.
      destruct (settle_all ps) as (N & HN); [intros; auto|].
      apply (settle (S N)); [now constructor|]. rewrite parse_S. cbn [parse_step]. mstep. cbn [c_off].
      destruct b; [apply ltm_ends|apply choice_ends]; auto.
    - (* pair choice *) rewrite forallb_forall in W.
      destruct (settle_all (map fst ps)) as (N & HN).
      { intros p I. apply H0; auto. apply in_map_iff in I. destruct I as (x & <- & I). now apply W. }
      apply (settle (S N)); [now constructor|]. rewrite parse_S. cbn [parse_step]. mstep. cbn [c_off].
      destruct b; [apply ltm_ends|apply choice_ends]; auto.
    - apply (SH p); [now constructor|reflexivity|assumption].
    - apply (settle 1); [constructor|]. discriminate.
    - destruct (env_get G i) as [q|] eqn:E.
      + apply Nat.ltb_lt in W. apply (SH q); [constructor| |apply (LV _ W); eauto].
        intros n. cbn [parse parse_step]. now rewrite E.
      + apply (settle 1); [constructor|]. cbn [parse parse_step]. now rewrite E.
  Qed.

  Theorem inside_settled m p : looks p -> wfb K rk L m p = true -> settled p.
  Proof.
    revert p. induction m as [m IH] using (well_founded_induction lt_wf). intros p H W.
    now apply (level_settled m).
  Qed.
End Inside.
