(** Parsers do not look behind the cursor.

    The same parser run on two contexts, one of which has additional text before the cursor: the results
    are the same up to the shift of the offsets. *)

From Coq Require Import List Arith NArith Bool Lia.
From Verif Require Import Base Text Context Neu Syntax Regex Ctor Api TextProofs Leaf Obs Mono Rel.
Import ListNotations.

(** The first context has the text [u] in front of the text of the second one, and its cursor is at the
    same place of the common text. *)
Definition behind (k : kind) (u : text) (c c' : ctx) : Prop :=
  c_kind c = k /\ c_kind c' = k /\ c_dat c = u ++ c_dat c' /\ c_off c = tlen k u + c_off c'.
(** The first span is the second one moved over [u]. *)
Definition moved (k : kind) (u : text) (s s' : span) : Prop :=
  sbeg s = tlen k u + sbeg s' /\ slen s = slen s'.

(** [local p]: [p] has no start anchor, and its user closures do not depend on the text before the
    cursor. *)
Inductive local : pat -> Prop :=
| lo_empty : local PEmpty
| lo_fail : local PFail
| lo_end : local PEnd
| lo_consume n : local (PConsume n)
| lo_consume_all : local PConsumeAll
| lo_lit l : local (PLit l)
| lo_assert p v : local p -> local (PAssert p v)
| lo_fn f : (forall k u, msim (behind k u) (moved k u) f f) -> local (PFn f)
| lo_builder p f : local p ->
    (forall k u s s', moved k u s s' ->
       msim (behind k u) (fun q q' => q = q' /\ local q) (fun c => f c s) (fun c => f c s')) ->
    local (PBuilder p f)
| lo_leaf p : local p -> local (PLeaf p)
| lo_once u c : local_cond c -> local (POnce u c)
| lo_many1 u c : local_cond c -> local (PMany1 u c)
| lo_opt u c : local_cond c -> local (POpt u c)
| lo_many0 u c : local_cond c -> local (PMany0 u c)
| lo_between m n u c : local_cond c -> local (PBetween m n u c)
| lo_times r u c : local_cond c -> local (PTimes r u c)
| lo_neuthen u v c : local_cond c -> local (PNeuThen u v c)
| lo_then p q : local p -> local q -> local (PThen p q)
| lo_ifthen p t q : local p -> local t -> local q -> local (PIfThen p t q)
| lo_or p q : local p -> local q -> local (POr p q)
| lo_longest p q : local p -> local q -> local (PLongest p q)
| lo_pat p : local p -> local (PPat p)
| lo_prefix p q : local p -> local q -> local (PPrefix p q)
| lo_suffix p q : local p -> local q -> local (PSuffix p q)
| lo_enclose p o c : local p -> local o -> local c -> local (PEnclose p o c)
| lo_seponce p s q : local p -> local s -> local q -> local (PSepOnce p s q)
| lo_sep p s mn b : local p -> local s -> local (PSep p s mn b)
| lo_sep2 p s m n b : local p -> local s -> local (PSep2 p s m n b)
| lo_sepcollect p s mn b : local p -> local s -> local (PSepCollect p s mn b)
| lo_repeat p r : local p -> local (PRepeat p r)
| lo_repeat2 p m n : local p -> local (PRepeat2 p m n)
| lo_collect p mn : local p -> local (PCollect p mn)
| lo_option p : local p -> local (POption p)
| lo_branch t p q : (forall k u c c', behind k u c c' -> t c = t c') -> local p -> local q -> local (PBranch t p q)
| lo_map p f : local p -> local (PMap p f)
| lo_dynthen p f : local p ->
    (forall k u v, msim (behind k u) (fun q q' => q = q' /\ local q) (fun c => f c v) (fun c => f c v)) ->
    local (PDynThen p f)
| lo_ctorfn f : (forall k u, msim (behind k u) eq f f) -> local (PCtorFn f)
| lo_choice e b ps : (forall p, In p ps -> local p) -> local (PChoice e b ps)
| lo_pairchoice e b ps : (forall p, In p (map fst ps) -> local p) -> local (PPairChoice e b ps)
| lo_wrap p : local p -> local (PWrap p)
| lo_nonep : local PNoneP
| lo_ref i : local (PRef i)
| lo_lock i : local (PLock i)
with local_cond : cond -> Prop :=
| loc_empty : local_cond CEmpty
| loc_fn f : (forall k u c c' x, behind k u c c' -> f c x = f c' x) -> local_cond (CFn f)
| loc_regex p : local_cond (CRegex p).

Definition local_env (G : env) : Prop := forall i p, env_get G i = Some p -> local p.

Lemma drop_at_app k u w o : drop_at k (u ++ w) (tlen k u + o) = drop_at k w o.
Proof.
  revert o. induction u as [|x u IH]; intros o; [reflexivity|].
  pose proof (width_pos k x). cbn [tlen app]. destruct (width k x + tlen k u + o) as [|n] eqn:E; [lia|].
  cbn [drop_at]. rewrite <- E. assert (width k x <=? width k x + tlen k u + o = true) as -> by (apply Nat.leb_le; lia).
  replace (width k x + tlen k u + o - width k x) with (tlen k u + o) by lia. apply IH.
Qed.

Section Shift.
  Variable k : kind.
  Variable u : text.
  Notation d := (tlen k u).
  Notation RX := (behind k u).
  Notation RS := (moved k u).
  Definition RO (o o' : nat) : Prop := o = d + o'.

  Lemma b_get x y : RX x y -> RO (get_off x) (get_off y).
  Proof. intros (_ & _ & _ & H). exact H. Qed.
  Lemma b_put x y o o' : RX x y -> RO o o' -> RX (put_off o x) (put_off o' y).
  Proof. intros (A & B & C & D) H. repeat split; auto. Qed.
  Lemma b_join a a' b b' : RS a a' -> RS b b' -> rsim RS (add_assign a b) (add_assign a' b').
  Proof.
    intros (A & B) (C & D). unfold add_assign, csub. rewrite A, B, C, D.
    destruct (Nat.leb_spec (sbeg a') (sbeg b')); destruct (Nat.leb_spec (d + sbeg a') (d + sbeg b')); try lia; [|constructor].
    destruct (Nat.leb_spec (sbeg a' + slen a') (slen b' + sbeg b'));
      destruct (Nat.leb_spec (d + sbeg a' + slen a') (slen b' + (d + sbeg b'))); try lia; [|constructor].
    constructor. split; cbn; lia.
  Qed.
  Lemma b_ltb o o' p p' : RO o o' -> RO p p' -> (o <? p) = (o' <? p').
  Proof. unfold RO. intros -> ->. destruct (Nat.ltb_spec o' p'); [apply Nat.ltb_lt|apply Nat.ltb_ge]; lia. Qed.
  Lemma b_leb o o' p p' : RO o o' -> RO p p' -> (o <=? p) = (o' <=? p').
  Proof. unfold RO. intros -> ->. destruct (Nat.leb_spec o' p'); [apply Nat.leb_le|apply Nat.leb_gt]; lia. Qed.
  Lemma b_len x y : RX x y -> ctx_len x = d + ctx_len y.
  Proof. intros (A & B & C & D). unfold ctx_len. rewrite A, B, C, tlen_app. reflexivity. Qed.
  Lemma rsim_eq {A} (r : res A) : rsim eq r r.
  Proof. destruct r; now constructor. Qed.

  Lemma b_sub x y o n : RX x y -> orig_sub x (d + o) n = orig_sub y o n.
  Proof. intros (A & B & C & D). unfold orig_sub. rewrite A, B, C. now rewrite drop_at_app. Qed.
  Lemma b_orig_at x y o : RX x y -> orig_at x (d + o) = orig_at y o.
  Proof.
    intros H. unfold orig_at. rewrite (b_len _ _ H). pose proof (b_sub x y o) as SB. destruct H as (A & B & C & D). rewrite A, B, C.
    destruct k.
    - unfold csub. destruct (Nat.leb_spec o (ctx_len y)); destruct (Nat.leb_spec (tlen KBytes u + o) (tlen KBytes u + ctx_len y)); try lia; auto.
      replace (tlen KBytes u + ctx_len y - (tlen KBytes u + o)) with (ctx_len y - o) by lia. apply SB. repeat split; auto.
    - now rewrite drop_at_app.
  Qed.
  Lemma b_peek x y : RX x y -> peek x = peek y.
  Proof.
    intros H. unfold peek, peek_at. pose proof (b_get _ _ H) as E. unfold RO in E. cbn in E. rewrite E, (b_orig_at _ _ _ H).
    destruct H as (A & B & _). now rewrite A, B.
  Qed.
  Lemma b_orig x y : RX x y -> orig x = orig y.
  Proof. intros H. unfold orig. pose proof (b_get _ _ H) as E. unfold RO in E. cbn in E. rewrite E. now apply b_orig_at. Qed.
  Lemma b_clone x y n : RX x y -> clone_at x (c_off x + n) = clone_at y (c_off y + n).
  Proof.
    intros H. unfold clone_at. pose proof (b_get _ _ H) as E. unfold RO in E. cbn in E. rewrite E, <- Nat.add_assoc, (b_orig_at _ _ _ H).
    destruct H as (A & B & _). now rewrite A, B.
  Qed.

  Lemma s_peek : msim RX eq (reads peek) (reads peek).
  Proof. apply msim_reads. intros x y H. rewrite (b_peek _ _ H). apply rsim_eq. Qed.
  Lemma s_orig : msim RX eq (reads orig) (reads orig).
  Proof. apply msim_reads. intros x y H. rewrite (b_orig _ _ H). apply rsim_eq. Qed.
  Lemma s_remaining : msim RX eq remaining remaining.
  Proof.
    intros x y H. unfold remaining. cbn [fst snd]. split; [|exact H].
    rewrite (b_len _ _ H). pose proof (b_get _ _ H) as E. unfold RO in E. cbn in E. rewrite E. unfold csub.
    destruct (Nat.leb_spec (c_off y) (ctx_len y)); destruct (Nat.leb_spec (d + c_off y) (d + ctx_len y)); try lia; [|constructor].
    constructor. lia.
  Qed.
  Lemma s_kind : msim RX eq (reads (fun c => Ok (c_kind c))) (reads (fun c => Ok (c_kind c))).
  Proof. apply msim_reads. intros x y (A & B & _). rewrite A, B. now constructor. Qed.
  Lemma s_new_span n : msim RX RS (new_span_inc n) (new_span_inc n).
  Proof.
    intros x y H. unfold new_span_inc, offset, inc, bind, ret. cbn [fst snd get_off ctx_offset].
    destruct H as (A & B & C & D). split.
    - constructor. split; cbn; auto.
    - repeat split; cbn; auto. lia.
  Qed.

  Section Units.
    Variable chk chk' : check_t.
    Hypothesis CH : forall x y p, RX x y -> chk x p = chk' y p.

    Lemma s_chk p : msim RX eq (reads (fun c => chk c p)) (reads (fun c => chk' c p)).
    Proof. apply msim_reads. intros x y H. rewrite (CH _ _ p H). apply rsim_eq. Qed.
    Lemma scan_ext w (f g : nat * item -> res bool) l : (forall p, f p = g p) -> forall b, scan w f b l = scan w g b l.
    Proof.
      intros H. induction l as [|p l IH]; intros b; cbn [scan]; [reflexivity|]. rewrite H.
      destruct (negb _); auto. destruct (g p) as [[|]| | |]; auto.
    Qed.
    Lemma scan_n_ext w (f g : nat * item -> res bool) more l : (forall p, f p = g p) -> forall c b,
      scan_n w f more c b l = scan_n w g more c b l.
    Proof.
      intros H. induction l as [|p l IH]; intros c b; cbn [scan_n]; [reflexivity|]. rewrite H.
      destruct (more c); auto. destruct (w (snd p)); auto. destruct (g p) as [[|]| | |]; auto.
    Qed.
    Lemma s_scan w b l : msim RX eq (reads (fun c => scan w (chk c) b l)) (reads (fun c => scan w (chk' c) b l)).
    Proof. apply msim_reads. intros x y H. rewrite (scan_ext w (chk x) (chk' y)); [apply rsim_eq|]. intros p. now apply CH. Qed.
    Lemma s_scan_n w more n b l : msim RX eq (reads (fun c => scan_n w (chk c) more n b l)) (reads (fun c => scan_n w (chk' c) more n b l)).
    Proof. apply msim_reads. intros x y H. rewrite (scan_n_ext w (chk x) (chk' y)); [apply rsim_eq|]. intros p. now apply CH. Qed.
    Lemma s_calc b e r : msim RX eq (lift (calc_length b e r)) (lift (calc_length b e r)).
    Proof. apply msim_lift, rsim_eq. Qed.
    Lemma s_catch_peek : msim RX eq (catch (reads peek)) (catch (reads peek)).
    Proof.
      intros x y H. destruct (msim_catch _ _ _ _ s_peek x y H) as [A B]. split; [|exact B].
      destruct A as [a b [q q' ->|e]|e| |]; now constructor.
    Qed.
    Lemma s_offset : msim RX RO offset offset.
    Proof. apply msim_offset. apply b_get. Qed.
    Lemma s_empty o o' : RO o o' -> msim RX RS (ret (Span o 0)) (ret (Span o' 0)).
    Proof. intros H. apply msim_ret. split; auto. Qed.

    Ltac go := repeat first
      [ apply s_new_span | apply msim_fail | apply s_empty; assumption
      | apply s_calc | apply s_chk
      | match goal with
        | |- msim _ _ (bind (lift _) _) _ => eapply msim_bind; [apply s_calc|intros ? ? <-]
        | |- msim _ _ (bind (reads peek) _) _ => eapply msim_bind; [apply s_peek|intros ? ? <-]
        | |- msim _ _ (bind (catch (reads peek)) _) _ => eapply msim_bind; [apply s_catch_peek|intros ? ? <-]
        | |- msim _ _ (bind remaining _) _ => eapply msim_bind; [apply s_remaining|intros ? ? <-]
        | |- msim _ _ (bind offset _) _ => eapply msim_bind; [apply s_offset|intros ? ? ?]
        | |- msim _ _ (bind (reads (fun c => Ok (c_kind c))) _) _ => eapply msim_bind; [apply s_kind|intros ? ? <-]
        | |- msim _ _ (bind (reads (fun c => scan _ _ _ _)) _) _ => eapply msim_bind; [apply s_scan|intros ? ? <-]
        | |- msim _ _ (bind (reads (fun c => scan_n _ _ _ _ _ _)) _) _ => eapply msim_bind; [apply s_scan_n|intros ? ? <-]
        | |- msim _ _ (bind (reads (fun c => chk c _)) _) _ => eapply msim_bind; [apply s_chk|intros ? ? <-]
        | |- msim _ _ (match ?a with _ => _ end) _ => destruct a
        end ].

    Lemma s_once v : msim RX RS (once_parse v chk) (once_parse v chk').
    Proof. unfold once_parse. go. Qed.
    Lemma s_many1 v : msim RX RS (many1_parse v chk) (many1_parse v chk').
    Proof. unfold many1_parse. go. Qed.
    Lemma s_opt v : msim RX RS (opt_parse v chk) (opt_parse v chk').
    Proof. unfold opt_parse. go. Qed.
    Lemma s_many0 v : msim RX RS (many0_parse v chk) (many0_parse v chk').
    Proof. unfold many0_parse. go. Qed.
    Lemma s_between m n v : msim RX RS (between_parse m n v chk) (between_parse m n v chk').
    Proof. unfold between_parse. go. Qed.
    Lemma s_times r v : msim RX RS (times_parse r v chk) (times_parse r v chk').
    Proof. unfold times_parse. go. Qed.
    Lemma s_neuthen v v' : msim RX RS (neuthen_parse v v' chk) (neuthen_parse v v' chk').
    Proof. unfold neuthen_parse. go. Qed.
  End Units.

  Lemma s_literal l : msim RX RS (literal_parse l) (literal_parse l).
  Proof.
    unfold literal_parse. eapply msim_bind; [apply s_remaining|intros ? ? <-]. eapply msim_bind; [apply s_kind|intros ? ? <-].
    destruct (_ <=? _); [|apply msim_fail]. eapply msim_bind; [apply s_orig|intros ? ? <-].
    destruct (starts_with _ _); [apply s_new_span|apply msim_fail].
  Qed.
  Lemma s_consume n : msim RX RS (consume_parse n) (consume_parse n).
  Proof.
    unfold consume_parse. eapply msim_bind; [apply s_remaining|intros ? ? <-]. destruct (_ <=? _); [apply s_new_span|apply msim_fail].
  Qed.
  Lemma s_consume_all : msim RX RS consume_all_parse consume_all_parse.
  Proof.
    unfold consume_all_parse. eapply (msim_bind _ eq).
    - apply msim_reads. intros x y H. rewrite (b_len _ _ H). pose proof (b_get _ _ H) as E. unfold RO in E. cbn in E. rewrite E.
      constructor. lia.
    - intros ? ? <-. apply s_new_span.
  Qed.
  Lemma s_end : msim RX RS end_parse end_parse.
  Proof.
    unfold end_parse. eapply msim_bind; [apply s_offset|intros o o' HO].
    eapply (msim_bind _ RO).
    - apply msim_reads. intros x y H. constructor. apply (b_len _ _ H).
    - intros n n' HN. unfold RO in *. subst. destruct (Nat.eqb_spec o' n'); destruct (Nat.eqb_spec (d + o') (d + n')); try lia.
      + now apply s_empty.
      + apply msim_fail.
  Qed.

  Section Step.
    Variable G : env.
    Hypothesis LE : local_env G.
    Variable pr : list nat -> list pat -> pat -> M ctx span.
    Hypothesis PR : forall held pols p, Forall local pols -> local p -> msim RX RS (pr held pols p) (pr held pols p).
    Variable fuel : nat.
    Variable held : list nat.
    Variable pols : list pat.
    Hypothesis LP : Forall local pols.
    Notation tm := (tm pr held pols).

    Lemma s_tm p : local p -> msim RX RS (tm p) (tm p).
    Proof.
      intros H. unfold Regex.tm, try_mat. destruct pols as [|r rest]; [now apply PR|].
      inversion LP; subst. eapply msim_bind; [now apply PR|]. intros _ _ _. now apply PR.
    Qed.
    Lemma s_chk_eq cd : local_cond cd -> forall x y p, RX x y -> check pr held pols cd x p = check pr held pols cd y p.
    Proof.
      intros C x y p H. destruct C as [|f HF|q]; cbn [check]; auto.
      - exact (HF _ _ _ _ _ H).
      - now rewrite (b_clone _ _ _ H).
    Qed.

    Notation gs := (gsim RX RO).
    Lemma s_gtry p : local p -> msim gs RS (g_try (tm p)) (g_try (tm p)).
    Proof. intros. apply msim_g_try. now apply s_tm. Qed.
    Lemma s_guard {A B} (RA : A -> B -> Prop) m m' : msim gs RA m m' -> msim RX RA (with_guard m) (with_guard m').
    Proof. apply msim_guard; [apply b_get|apply b_put]. Qed.
    Lemma s_join {X Y} (R : X -> Y -> Prop) a a' b b' : RS a a' -> RS b b' -> msim R RS (join a b) (join a' b').
    Proof. apply msim_join. apply b_join. Qed.
    Lemma s_set o o' : RO o o' -> msim RX eq (set_offset o) (set_offset o').
    Proof. apply msim_set_offset. apply b_put. Qed.
    Lemma moved_empty o o' : RO o o' -> RS (Span o 0) (Span o' 0).
    Proof. intros H. split; auto. Qed.
    Lemma ro_add o o' n : RO o o' -> RO (o + n) (o' + n).
    Proof. unfold RO. lia. Qed.

    Ltac sub := first
      [ apply s_gtry; assumption | apply s_tm; assumption | apply s_join; assumption | apply msim_catch; apply s_tm; assumption
      | apply s_offset | apply s_set; assumption | apply msim_g_beg ].

    Lemma s_step p : local p -> msim RX RS (parse_step G pr fuel held pols p) (parse_step G pr fuel held pols p).
    Proof.
      intros H. inversion H; subst; cbn [parse_step].
      - eapply msim_bind; [sub|intros o o' HO]. now apply s_empty.
      - apply msim_fail.
      - apply s_end.
      - apply s_consume.
      - apply s_consume_all.
      - apply s_literal.
      - eapply msim_bind; [sub|intros o o' HO]. eapply msim_bind; [sub|intros r r' HR].
        eapply msim_bind; [sub|intros _ _ _].
        destruct HR as [a b ?|e]; (destruct (Bool.eqb _ v); [now apply s_empty|destruct v; apply msim_fail]).
      - auto.
      - apply s_guard. eapply msim_bind; [sub|intros s s' HS].
        eapply msim_bind; [apply msim_g_on; now apply H1|]. cbn. intros q ? (<- & HQ). sub.
      - now apply PR.
      - apply s_once. now apply s_chk_eq.
      - apply s_many1. now apply s_chk_eq.
      - apply s_opt. now apply s_chk_eq.
      - apply s_many0. now apply s_chk_eq.
      - apply s_between. now apply s_chk_eq.
      - apply s_times. now apply s_chk_eq.
      - apply s_neuthen. now apply s_chk_eq.
      - apply s_guard. eapply msim_bind; [sub|intros]. eapply msim_bind; [sub|intros]. sub.
      - apply s_guard. eapply msim_bind; [sub|intros a a' HA].
        eapply msim_bind; [apply msim_catch, msim_g_on, s_guard; sub|]. intros s s' [b b' HB|e]; [|now apply msim_ret].
        eapply msim_bind; [sub|intros]. eapply msim_bind; [sub|intros]. sub.
      - eapply msim_bind; [sub|intros o o' HO]. eapply (msim_reset _ _ b_put); [exact HO|].
        eapply msim_bind; [sub|]. intros r r' [a b HA|e]; [now apply msim_ret|].
        eapply msim_bind; [sub|intros _ _ _]. sub.
      - eapply msim_bind; [sub|intros o o' HO]. eapply msim_bind; [sub|intros a a' HA].
        eapply msim_bind; [sub|intros _ _ _]. eapply msim_bind; [sub|intros b b' HB].
        destruct HA as [s s' HS|e], HB as [t t' HT|e'].
        + destruct HS as (S1 & S2), HT as (T1 & T2). rewrite S2, T2.
          assert (RS (if slen t' <=? slen s' then s else t) (if slen t' <=? slen s' then s' else t')) as HW
            by (destruct (_ <=? _); split; auto).
          cbv zeta. eapply msim_bind; [|intros _ _ _; apply msim_ret; exact HW].
          apply s_set. destruct HW as (_ & ->). now apply ro_add.
        + eapply msim_bind; [|intros _ _ _; apply msim_ret; exact HS]. apply s_set. destruct HS as (_ & ->). now apply ro_add.
        + eapply msim_bind; [|intros _ _ _; apply msim_ret; exact HT]. apply s_set. destruct HT as (_ & ->). now apply ro_add.
        + eapply msim_bind; [|intros _ _ _; apply msim_fail]. apply s_set. now apply ro_add.
      - sub.
      - apply s_guard. eapply msim_bind; [sub|intros]. eapply msim_bind; [sub|intros]. sub.
      - apply s_guard. eapply msim_bind; [sub|intros]. eapply msim_bind; [sub|intros]. sub.
      - apply s_guard. eapply msim_bind; [sub|intros]. eapply msim_bind; [sub|intros].
        eapply msim_bind; [sub|intros]. eapply msim_bind; [sub|intros]. sub.
      - apply s_guard. eapply msim_bind; [sub|intros o o' HO]. eapply msim_bind; [sub|intros].
        eapply msim_bind; [apply s_join; [now apply moved_empty|eassumption]|intros].
        eapply msim_bind; [sub|intros]. eapply msim_bind; [sub|intros]. eapply msim_bind; [sub|intros]. sub.
      - eapply msim_bind; [sub|intros o o' HO].
        eapply msim_bind; [apply (msim_sep_loop RX RS b_join); [now apply s_tm|now apply s_tm|now apply moved_empty]|].
        intros r r' (R1 & R2). rewrite R1. now apply (msim_accept _ _ b_put).
      - eapply msim_bind; [sub|intros o o' HO].
        eapply msim_bind; [apply (msim_sep_loop RX RS b_join); [now apply s_tm|now apply s_tm|now apply moved_empty]|].
        intros r r' (R1 & R2). rewrite R1. now apply (msim_accept _ _ b_put).
      - eapply msim_bind; [sub|intros o o' HO].
        eapply msim_bind; [apply (msim_sep_loop RX RS b_join); [now apply s_tm|now apply s_tm|now apply moved_empty]|].
        intros r r' (R1 & R2). rewrite R1. now apply (msim_accept _ _ b_put).
      - eapply msim_bind; [sub|intros o o' HO].
        eapply msim_bind; [apply (msim_repeat_loop RX RS b_join); [now apply s_tm|now apply moved_empty]|].
        intros a a' (R1 & R2). rewrite R1. now apply (msim_accept _ _ b_put).
      - eapply msim_bind; [sub|intros o o' HO].
        eapply msim_bind; [apply (msim_repeat_loop RX RS b_join); [now apply s_tm|now apply moved_empty]|].
        intros a a' (R1 & R2). rewrite R1. now apply (msim_accept _ _ b_put).
      - eapply msim_bind; [sub|intros o o' HO]. unfold collect_loop.
        eapply msim_bind; [apply (msim_repeat_loop RX RS b_join); [now apply s_tm|now apply moved_empty]|].
        intros a a' (R1 & R2). rewrite R1. now apply (msim_accept _ _ b_put).
      - eapply msim_bind; [sub|intros o o' HO].
        eapply msim_bind; [apply msim_catch, (msim_reset _ _ b_put); [exact HO|now apply s_tm]|].
        intros r r' [a b HA|e]; [now apply msim_ret|now apply s_empty].
      - eapply msim_bind; [sub|intros o o' HO].
        eapply (msim_bind _ eq); [apply msim_reads; intros x y HXY; rewrite (H0 _ _ _ _ HXY); apply rsim_eq|].
        intros b ? <-. eapply (msim_reset _ _ b_put); [exact HO|]. destruct b; sub.
      - sub.
      - apply msim_panic.
      - apply msim_panic.
      - eapply msim_bind; [sub|intros o o' HO]. destruct b.
        + apply (msim_choice_ltm _ RO _ b_put); [now intros s s' (_ & ?)|exact HO|intros q Hq; apply s_tm; auto|constructor].
        + apply (msim_choice _ RO _ b_put); [exact HO|intros q Hq; apply s_tm; auto].
      - eapply msim_bind; [sub|intros o o' HO]. destruct b.
        + apply (msim_choice_ltm _ RO _ b_put); [now intros s s' (_ & ?)|exact HO|intros q Hq; apply s_tm; auto|constructor].
        + apply (msim_choice _ RO _ b_put); [exact HO|intros q Hq; apply s_tm; auto].
      - now apply PR.
      - apply msim_fail.
      - destruct (env_get G i) as [q|] eqn:E; [|apply msim_fail]. apply PR; auto. now apply (LE i).
      - destruct (existsb _ _); [apply msim_panic|].
        destruct (env_get G i) as [q|] eqn:E; [|apply msim_fail]. apply PR; auto. now apply (LE i).
    Qed.
  End Step.

  Lemma parse_shift G (LE : local_env G) n : forall held pols p, Forall local pols -> local p ->
    msim RX RS (parse n G held pols p) (parse n G held pols p).
  Proof.
    induction n as [|n IH]; intros held pols p LP L; cbn [parse]; [apply msim_oof|].
    apply s_step; auto.
  Qed.
  Lemma try_mat_shift G (LE : local_env G) n pols p : Forall local pols -> local p ->
    msim RX RS (try_mat_top n G pols p) (try_mat_top n G pols p).
  Proof. intros LP L. apply (s_tm (parse n G)); auto. intros. now apply parse_shift. Qed.

  (** Construction, with a handler that only sees the text of the span. *)
  Section CStep.
    Context {S : Type}.
    Variable h : handler S.
    Hypothesis HH : forall x y s s' st, RX x y -> RS s s' -> h x s st = h y s' st.
    Inductive pbehind : ctx * S -> ctx * S -> Prop :=
    | pb x y st : RX x y -> pbehind (x, st) (y, st).
    Notation RP := pbehind.
    Lemma p_get x y : RP x y -> RO (get_off x) (get_off y).
    Proof. intros [? ? ? H]. exact (b_get _ _ H). Qed.
    Lemma p_put x y o o' : RP x y -> RO o o' -> RP (put_off o x) (put_off o' y).
    Proof. intros [a b st H] HO. constructor. now apply b_put. Qed.
    Lemma p_on_ctx {A B} (RA : A -> B -> Prop) m m' : msim RX RA m m' -> msim RP RA (on_ctx m) (on_ctx m').
    Proof.
      intros H x y [a b st R]. unfold on_ctx. cbn [fst snd]. destruct (H _ _ R) as [H1 H2].
      destruct (m a), (m' b). cbn in *. split; [exact H1|now constructor].
    Qed.
    Lemma p_invoke s s' : RS s s' -> msim RP eq (invoke h s) (invoke h s').
    Proof.
      intros HS x y [a b st R]. unfold invoke. cbn [fst snd]. rewrite (HH _ _ _ _ st R HS).
      destruct (h b s' st). cbn. split; [apply rsim_eq|now constructor].
    Qed.

    Variable G : env.
    Hypothesis LE : local_env G.
    Variable pr : list nat -> list pat -> pat -> M ctx span.
    Hypothesis PR : forall held pols p, Forall local pols -> local p -> msim RX RS (pr held pols p) (pr held pols p).
    Variable con : list nat -> pat -> M (ctx * S) val.
    Hypothesis CON : forall held p, local p -> msim RP eq (con held p) (con held p).
    Variable fuel : nat.
    Variable held : list nat.
    Variable pols : list pat.
    Hypothesis LP : Forall local pols.

    Lemma s_ctm p : local p -> msim RP RS (@ctm S pr held pols p) (ctm pr held pols p).
    Proof. intros. apply p_on_ctx. now apply s_tm. Qed.
    Lemma s_leaf p : local p -> msim RP eq (leaf h pr held pols p) (leaf h pr held pols p).
    Proof. intros. unfold leaf. eapply msim_bind; [now apply s_ctm|]. intros. now apply p_invoke. Qed.
    Lemma p_guard {A B} (RA : A -> B -> Prop) m m' : msim (gsim RP RO) RA m m' -> msim RP RA (with_guard m) (with_guard m').
    Proof. apply msim_guard; [apply p_get|apply p_put]. Qed.
    Lemma p_set o o' : RO o o' -> msim RP eq (set_offset o) (set_offset o').
    Proof. apply msim_set_offset. apply p_put. Qed.
    Lemma p_offset : msim RP RO offset offset.
    Proof. apply msim_offset. apply p_get. Qed.

    Ltac sub := first
      [ apply msim_g_try; apply CON; assumption | apply CON; assumption
      | apply msim_g_try; apply s_ctm; assumption | apply s_ctm; assumption
      | apply msim_catch; apply CON; assumption
      | apply p_offset | apply p_set; assumption ].

    Lemma in_plain ps p : In p (map fst (plain ps)) -> In p ps.
    Proof. unfold plain. rewrite map_map. cbn. now rewrite map_id. Qed.
    Lemma in_keyed ps p : In p (map fst (keyed ps)) -> In p (map fst ps).
    Proof. unfold keyed. rewrite map_map. cbn. auto. Qed.

    Lemma s_cstep p : local p ->
      msim RP eq (construct_step h G pr con fuel held pols p) (construct_step h G pr con fuel held pols p).
    Proof.
      intros H. inversion H; subst; cbn [construct_step]; try (now apply s_leaf).
      - apply p_guard, msim_g_try. eapply msim_bind; [sub|intros a ? <-]. eapply msim_bind; [sub|intros b ? <-]. now apply msim_ret.
      - apply p_guard. eapply msim_bind; [sub|intros a ? <-].
        eapply msim_bind; [apply msim_catch, msim_g_on, p_guard; sub|]. intros s s' [b b' HB|e]; [|now apply msim_ret].
        eapply msim_bind; [sub|intros c ? <-]. now apply msim_ret.
      - eapply msim_bind; [sub|intros o o' HO]. eapply (msim_reset _ _ p_put); [exact HO|].
        eapply msim_bind; [sub|]. intros r r' [a b HA|e]; [now apply msim_ret|].
        eapply msim_bind; [sub|intros _ _ _]. sub.
      - eapply msim_bind; [sub|intros o o' HO]. eapply msim_bind; [sub|intros a a' HA].
        eapply msim_bind; [sub|intros ol ol' HL].
        eapply msim_bind; [sub|intros _ _ _]. eapply msim_bind; [sub|intros b b' HB].
        eapply msim_bind; [sub|intros orr orr' HR].
        destruct HA as [v v' <-|e], HB as [t t' <-|e'].
        + rewrite (b_leb _ _ _ _ HR HL). destruct (_ <=? _); (eapply msim_bind; [sub|intros _ _ _; now apply msim_ret]).
        + eapply msim_bind; [sub|intros _ _ _; now apply msim_ret].
        + eapply msim_bind; [sub|intros _ _ _; now apply msim_ret].
        + eapply msim_bind; [sub|intros _ _ _; now apply msim_fail].
      - apply p_guard. eapply msim_bind; [sub|intros]. sub.
      - apply p_guard. eapply msim_bind; [sub|intros v ? <-]. eapply msim_bind; [sub|intros]. now apply msim_ret.
      - apply p_guard. eapply msim_bind; [sub|intros]. eapply msim_bind; [sub|intros v ? <-].
        eapply msim_bind; [sub|intros]. now apply msim_ret.
      - apply p_guard. eapply msim_bind; [sub|intros a ? <-]. eapply msim_bind; [sub|intros].
        eapply msim_bind; [sub|intros b' ? <-]. now apply msim_ret.
      - eapply msim_bind; [sub|intros o o' HO].
        eapply msim_bind; [eapply (msim_sep_vals RP RS); sub|intros vs ? <-]. now apply (msim_accept _ _ p_put).
      - eapply msim_bind; [sub|intros o o' HO].
        eapply msim_bind; [eapply (msim_sep2_vals RP RS); sub|intros vs ? <-]. now apply (msim_accept _ _ p_put).
      - eapply msim_bind; [sub|intros o o' HO].
        eapply msim_bind; [eapply (msim_sepcollect_vals RP RS); sub|intros vs ? <-]. now apply (msim_accept _ _ p_put).
      - eapply msim_bind; [sub|intros o o' HO].
        eapply msim_bind; [apply (msim_repeat_vals RP); sub|intros vs ? <-]. now apply (msim_accept _ _ p_put).
      - eapply msim_bind; [sub|intros o o' HO].
        eapply msim_bind; [apply (msim_repeat2_vals RP); sub|intros vs ? <-]. now apply (msim_accept _ _ p_put).
      - eapply msim_bind; [sub|intros o o' HO].
        eapply msim_bind; [apply (msim_repeat_vals RP); sub|intros vs ? <-]. now apply (msim_accept _ _ p_put).
      - eapply msim_bind; [sub|intros o o' HO].
        eapply msim_bind; [apply msim_catch, (msim_reset _ _ p_put); [exact HO|sub]|].
        intros r r' [a b <-|e]; now apply msim_ret.
      - eapply msim_bind; [sub|intros o o' HO].
        eapply (msim_bind _ eq).
        { apply msim_reads. intros x y [a b st HXY]. cbn [fst]. rewrite (H0 _ _ _ _ HXY). apply rsim_eq. }
        intros b ? <-. eapply (msim_reset _ _ p_put); [exact HO|]. destruct b; sub.
      - eapply msim_bind; [sub|intros v ? <-]. apply msim_lift, rsim_eq.
      - apply p_guard. eapply msim_bind; [sub|intros a ? <-].
        eapply msim_bind; [apply msim_g_on, p_on_ctx; now apply H1|]. cbn. intros q ? (<- & HQ).
        eapply msim_bind; [sub|intros b ? <-]. now apply msim_ret.
      - apply p_on_ctx. auto.
      - eapply msim_bind; [sub|intros o o' HO]. destruct b.
        + apply (msim_con_choice_ltm RP RO p_get p_put b_ltb); auto. intros q Hq. apply CON. apply H0. now apply in_plain.
        + apply (msim_con_choice RP RO p_put); auto. intros q Hq. apply CON. apply H0. now apply in_plain.
      - eapply msim_bind; [sub|intros o o' HO]. destruct b.
        + apply (msim_con_choice_ltm RP RO p_get p_put b_ltb); auto. intros q Hq. apply CON. apply H0. now apply in_keyed.
        + apply (msim_con_choice RP RO p_put); auto. intros q Hq. apply CON. apply H0. now apply in_keyed.
      - sub.
      - apply msim_fail.
      - destruct (env_get G i) as [q|] eqn:E; [|apply msim_fail]. apply CON; auto. now apply (LE i).
      - destruct (existsb _ _); [apply msim_panic|].
        destruct (env_get G i) as [q|] eqn:E; [|apply msim_fail]. apply CON; auto. now apply (LE i).
    Qed.
  End CStep.

  Lemma construct_shift {S} (h : handler S) (HH : forall x y s s' st, RX x y -> RS s s' -> h x s st = h y s' st)
      G (LE : local_env G) n : forall held pols p, Forall local pols -> local p ->
    msim pbehind eq (construct h n G held pols p) (construct h n G held pols p).
  Proof.
    induction n as [|n IH]; intros held pols p LP L; cbn [construct]; [apply msim_oof|].
    apply s_cstep; auto. intros. now apply parse_shift.
  Qed.
End Shift.

(** A handler that sees the match alone, wherever it stands. *)
Definition anywhere {S} (h : handler S) : Prop :=
  forall k u x y s s' st, behind k u x y -> moved k u s s' -> h x s st = h y s' st.
