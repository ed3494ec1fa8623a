(** Exchanging equivalent parts (C63) and the equivalences everyone uses (C64). *)

From Coq Require Import List Arith NArith Bool Lia.
From Verif Require Import Base Text Context Neu Syntax Regex Ctor Api TextProofs Spec Units ByteInv Sound Core Obs Mono Laws
  Refactor Solid Cong RefLaws RefLoops Samples.
Import ListNotations.

Lemma sle_answers (E : error -> error -> Prop) G G' held pols p q c r c' :
  (forall n, sle E eq (parse n G held pols p) (fun i => parse i G' held pols q)) ->
  Answers G held pols p c r c' -> exists r', Alike E r r' /\ Answers G' held pols q c r' c'.
Proof.
  intros H (n & A & B). destruct (H n c) as [F|(m & r' & C & F)]; rewrite A in *; cbn [fst snd] in *; [easy|].
  exists r'. split; [now apply rcl_alike|]. exists m. split; [apply F; lia|]. intros ->. inversion C.
Qed.
Lemma sle_constructs {S} (E : error -> error -> Prop) (h : handler S) G G' held pols p q c s r c' s' :
  (forall n, sle E eq (construct h n G held pols p) (fun i => construct h i G' held pols q)) ->
  Constructs h G held pols p c s r c' s' -> exists r', Alike E r r' /\ Constructs h G' held pols q c s r' c' s'.
Proof.
  intros H (n & A & B). destruct (H n (c, s)) as [F|(m & r' & C & F)]; rewrite A in *; cbn [fst snd] in *; [easy|].
  exists r'. split; [now apply rcl_alike|]. exists m. split; [apply F; lia|]. intros ->. inversion C.
Qed.
Lemma alike_flip (E : error -> error -> Prop) {A} (r r' : res A) : Alike (fun a b => E b a) r r' -> Alike E r' r.
Proof. intros H. inversion H; constructor; auto. Qed.
Lemma alike_flop (E : error -> error -> Prop) {A} (r r' : res A) : Alike E r' r -> Alike (fun a b => E b a) r r'.
Proof. intros H. inversion H; constructor; auto. Qed.

(** ** C63 *)

(** Whatever is done to however many parts, at whatever depth, of a parser, of conditions of unit
    regexes, and of parsers returned by closures: if each exchanged pair is equivalent, so is the whole.
    [E] is how much errors may differ ([same_error], [any_error], or any reflexive relation). *)
Theorem C63_exchange : forall (E : error -> error -> Prop) G pols (B : pat -> pat -> Prop) p q,
  (forall e, E e e) -> (forall a b, B a b -> SameMatch E G pols a b) ->
  Rewritten B p q -> SameMatch E G pols p q.
Proof.
  intros E G pols B p q RE HB HR held c c'. split; intros r H.
  - apply (sle_answers E G G held pols p q c r c'); [|exact H]. intros n.
    apply (replace_parse E RE G held pols B); [|exact HR].
    intros a b Hab. apply answers_sle. intros c0 r0 c0' H0. exact (proj1 (HB a b Hab held c0 c0') r0 H0).
  - destruct (sle_answers (fun x y => E y x) G G held pols q p c r c') as (r' & A & W); [|exact H|].
    + intros n. apply (replace_parse (fun x y => E y x) RE G held pols (fun a b => B b a)).
      * intros a b Hab. apply answers_sle. intros c0 r0 c0' H0. destruct (proj2 (HB b a Hab held c0 c0') r0 H0) as (r1 & A1 & W1).
        exists r1. split; [now apply alike_flop|exact W1].
      * apply (rewritten_flip B); auto.
    + exists r'. split; [now apply alike_flip|exact W].
Qed.

(** Constructing: the same values, the same handler states. *)
Theorem C63_exchange_building : forall S (E : error -> error -> Prop) (h : handler S) G pols (B : pat -> pat -> Prop) p q,
  (forall e, E e e) -> (forall a b, B a b -> SameMatch E G pols a b /\ SameBuild E h G pols a b) ->
  Rewritten B p q -> SameBuild E h G pols p q.
Proof.
  intros S E h G pols B p q RE HB HR held c s c' s'. split; intros r H.
  - apply (sle_constructs E h G G held pols p q c s r c' s'); [|exact H]. intros n.
    apply (replace_construct E RE G held pols B); [| |exact HR].
    + intros a b Hab. apply answers_sle. intros c0 r0 c0' H0. exact (proj1 (proj1 (HB a b Hab) held c0 c0') r0 H0).
    + intros a b Hab. apply constructs_sle. intros c0 s0 r0 c0' s0' H0. exact (proj1 (proj2 (HB a b Hab) held c0 s0 c0' s0') r0 H0).
  - destruct (sle_constructs (fun x y => E y x) h G G held pols q p c s r c' s') as (r' & A & W); [|exact H|].
    + intros n. apply (replace_construct (fun x y => E y x) RE G held pols (fun a b => B b a)).
      * intros a b Hab. apply answers_sle. intros c0 r0 c0' H0. destruct (proj2 (proj1 (HB b a Hab) held c0 c0') r0 H0) as (r1 & A1 & W1).
        exists r1. split; [now apply alike_flop|exact W1].
      * intros a b Hab. apply constructs_sle. intros c0 s0 r0 c0' s0' H0.
        destruct (proj2 (proj2 (HB b a Hab) held c0 s0 c0' s0') r0 H0) as (r1 & A1 & W1).
        exists r1. split; [now apply alike_flop|exact W1].
      * apply (rewritten_flip B); auto.
    + exists r'. split; [now apply alike_flip|exact W].
Qed.

(** Seen from [ctx.try_mat]: the same answer and the same cursor, and one call never returns exactly
    when the other never does. *)
Theorem C63_try_mat : forall (E : error -> error -> Prop) G pols p q, SameMatch E G pols p q ->
  forall c,
  (forall r c', Returns G pols p c r c' -> exists r', (r = r' \/ exists e e', r = Err e /\ r' = Err e' /\ E e e') /\ Returns G pols q c r' c') /\
  (forall r' c', Returns G pols q c r' c' -> exists r, (r = r' \/ exists e e', r = Err e /\ r' = Err e' /\ E e e') /\ Returns G pols p c r c') /\
  (Diverges G pols p c <-> Diverges G pols q c).
Proof.
  intros E G pols p q H c.
  assert (F : forall a b, (forall held c c' r, Answers G held pols a c r c' -> exists r', Answers G held pols b c r' c') ->
              Diverges G pols b c -> Diverges G pols a c).
  { intros a b HB D n. destruct (try_mat_top n G pols a c) as [r c1] eqn:E1. cbn [fst].
    assert (C : r = OOF \/ r <> OOF) by (destruct r; [right|right|right|left]; congruence).
    destruct C as [C|C]; [exact C|exfalso].
    unfold try_mat_top, try_mat in E1. destruct pols as [|pl rest].
    - destruct (HB [] c c1 r) as (r' & m & A & N); [exists n; auto|].
      specialize (D m). unfold try_mat_top, try_mat in D. rewrite A in D. auto.
    - unfold bind in E1. destruct (parse n G [] rest pl c) as [[s|e| |] c2] eqn:E2;
        try (injection E1 as <- <-; specialize (D n); unfold try_mat_top, try_mat, bind in D; rewrite E2 in D; cbn in D; easy).
      destruct (HB [] c2 c1 r) as (r' & m & A & N); [exists n; auto|].
      specialize (D (n + m)). unfold try_mat_top, try_mat, bind in D.
      rewrite (mle_eq _ _ _ _ _ (parse_mono n (n + m) G [] rest pl ltac:(lia)) E2) in D by discriminate.
      rewrite (mle_eq _ _ _ _ _ (parse_mono m (n + m) G [] (pl :: rest) b ltac:(lia)) A N) in D. auto. }
  assert (R : forall (E' : error -> error -> Prop) a b, (forall held c c' r, Answers G held pols a c r c' ->
                exists r', Alike E' r r' /\ Answers G held pols b c r' c') ->
              forall r c', Returns G pols a c r c' ->
              exists r', (r = r' \/ exists e e', r = Err e /\ r' = Err e' /\ E' e e') /\ Returns G pols b c r' c').
  { intros E' a b HB r c' (n & E1 & C). unfold try_mat_top, try_mat in E1. destruct pols as [|pl rest].
    - destruct (HB [] c c' r) as (r' & A1 & m & A & N); [exists n; auto|]. exists r'. split.
      + inversion A1; subst; eauto 9.
      + exists m. auto.
    - unfold bind in E1. destruct (parse n G [] rest pl c) as [[s|e| |] c2] eqn:E2;
        try (injection E1 as <- <-; eexists; split; [left; reflexivity|]; exists n; unfold try_mat_top, try_mat, bind; rewrite E2; auto).
      destruct (HB [] c2 c' r) as (r' & A1 & m & A & N); [exists n; auto|]. exists r'. split.
      + inversion A1; subst; eauto 9.
      + exists (n + m). unfold try_mat_top, try_mat, bind.
        rewrite (mle_eq _ _ _ _ _ (parse_mono n (n + m) G [] rest pl ltac:(lia)) E2) by discriminate.
        rewrite (mle_eq _ _ _ _ _ (parse_mono m (n + m) G [] (pl :: rest) b ltac:(lia)) A N). auto. }
  split; [|split; [|split]].
  - apply (R E p q). intros held c0 c0' r H0. exact (proj1 (H held c0 c0') r H0).
  - intros r' c' H0. destruct (R (fun x y => E y x) q p) with (r := r') (c' := c') as (r & A & W); [|exact H0|].
    + intros held c0 c0' r H1. destruct (proj2 (H held c0 c0') r H1) as (r1 & A1 & W1). exists r1. split; [now apply alike_flop|exact W1].
    + exists r. split; [|exact W]. destruct A as [->|(e & e' & -> & -> & A)]; [now left|]. right. exists e', e. auto.
  - apply F. intros held c0 c0' r H0. destruct (proj2 (H held c0 c0') r H0) as (r' & _ & W). eauto.
  - apply F. intros held c0 c0' r H0. destruct (proj1 (H held c0 c0') r H0) as (r' & _ & W). eauto.
Qed.

(** Recursive parsers: exchanging the parsers in the cells of an environment by equivalent ones.  Each
    pair must be equivalent under every stack of policies that the given one ends with, because a policy
    is matched in the context below it. *)
Theorem C63_exchange_cells : forall (E : error -> error -> Prop) G G' pols,
  (forall e, E e e) -> (forall a b c, E a b -> E b c -> E a c) ->
  SameCells (fun H p p' => forall pre pols', pols = pre ++ pols' -> SameMatch E H pols' p p') G G' ->
  forall held p c c',
  (forall r, Answers G held pols p c r c' -> exists r', Alike E r r' /\ Answers G' held pols p c r' c') /\
  (forall r', Answers G' held pols p c r' c' -> exists r, Alike E r r' /\ Answers G held pols p c r c').
Proof.
  intros E G G' pols RE TE HS held p c c'. split; intros r H.
  - apply (sle_answers E G G' held pols p p c r c'); [|exact H]. intros n.
    apply (cells_parse E RE TE G G' pols) with (pre := []); [| |reflexivity].
    + intros i p' Hi. specialize (HS i). rewrite Hi in HS. destruct (env_get G i) as [p0|]; [|easy].
      exists p0. split; [reflexivity|]. intros pre pols' Hp hl m. apply answers_sle. intros c0 r0 c0' H0.
      exact (proj1 (proj2 HS pre pols' Hp hl c0 c0') r0 H0).
    + intros i Hi. specialize (HS i). rewrite Hi in HS. destruct (env_get G i); easy.
  - destruct (sle_answers (fun x y => E y x) G' G held pols p p c r c') as (r' & A & W); [|exact H|].
    + intros n. apply (cells_parse (fun x y => E y x) RE (fun a b c H1 H2 => TE c b a H2 H1) G' G pols) with (pre := []); [| |reflexivity].
      * intros i p' Hi. specialize (HS i). rewrite Hi in HS. destruct (env_get G' i) as [p0|]; [|easy].
        exists p0. split; [reflexivity|]. intros pre pols' Hp hl m. apply answers_sle. intros c0 r0 c0' H0.
        destruct (proj2 (proj1 HS pre pols' Hp hl c0 c0') r0 H0) as (r1 & A1 & W1). exists r1. split; [now apply alike_flop|exact W1].
      * intros i Hi. specialize (HS i). rewrite Hi in HS. destruct (env_get G' i); easy.
    + exists r'. split; [now apply alike_flip|exact W].
Qed.
Theorem C63_exchange_cells_building : forall S (E : error -> error -> Prop) (h : handler S) G G' pols,
  (forall e, E e e) -> (forall a b c, E a b -> E b c -> E a c) ->
  SameCells (fun H p p' => SameBuild E h H pols p p' /\ forall pre pols', pols = pre ++ pols' -> SameMatch E H pols' p p') G G' ->
  forall held p c s c' s',
  (forall r, Constructs h G held pols p c s r c' s' -> exists r', Alike E r r' /\ Constructs h G' held pols p c s r' c' s') /\
  (forall r', Constructs h G' held pols p c s r' c' s' -> exists r, Alike E r r' /\ Constructs h G held pols p c s r c' s').
Proof.
  intros S E h G G' pols RE TE HS held p c s c' s'. split; intros r H.
  - apply (sle_constructs E h G G' held pols p p c s r c' s'); [|exact H]. intros n.
    apply (cells_construct E RE TE G G' h pols).
    + intros i p' Hi. specialize (HS i). rewrite Hi in HS. destruct (env_get G i) as [p0|]; [|easy].
      exists p0. split; [reflexivity|]. intros pre pols' Hp hl m. apply answers_sle. intros c0 r0 c0' H0.
      exact (proj1 (proj2 (proj2 HS) pre pols' Hp hl c0 c0') r0 H0).
    + intros i p0 p' Hi Hi' hl m. specialize (HS i). rewrite Hi, Hi' in HS. apply constructs_sle. intros c0 s0 r0 c0' s0' H0.
      exact (proj1 (proj1 (proj2 HS) hl c0 s0 c0' s0') r0 H0).
    + intros i Hi. specialize (HS i). rewrite Hi in HS. destruct (env_get G i); easy.
  - destruct (sle_constructs (fun x y => E y x) h G' G held pols p p c s r c' s') as (r' & A & W); [|exact H|].
    + intros n. apply (cells_construct (fun x y => E y x) RE (fun a b c H1 H2 => TE c b a H2 H1) G' G h pols).
      * intros i p' Hi. specialize (HS i). rewrite Hi in HS. destruct (env_get G' i) as [p0|]; [|easy].
        exists p0. split; [reflexivity|]. intros pre pols' Hp hl m. apply answers_sle. intros c0 r0 c0' H0.
        destruct (proj2 (proj2 (proj1 HS) pre pols' Hp hl c0 c0') r0 H0) as (r1 & A1 & W1). exists r1. split; [now apply alike_flop|exact W1].
      * intros i p0 p' Hi Hi' hl m. specialize (HS i). rewrite Hi, Hi' in HS. apply constructs_sle. intros c0 s0 r0 c0' s0' H0.
        destruct (proj2 (proj1 (proj1 HS) hl c0 s0 c0' s0') r0 H0) as (r1 & A1 & W1). exists r1. split; [now apply alike_flop|exact W1].
      * intros i Hi. specialize (HS i). rewrite Hi in HS. destruct (env_get G' i); easy.
    + exists r'. split; [now apply alike_flip|exact W].
Qed.

(** ** C64 *)

(** Equivalence is an equivalence. *)
Theorem C64_equivalence : forall (E : error -> error -> Prop) G pols,
  (forall e, E e e) -> (forall a b, E a b -> E b a) -> (forall a b c, E a b -> E b c -> E a c) ->
  (forall p, SameMatch E G pols p p) /\
  (forall p q, SameMatch E G pols p q -> SameMatch E G pols q p) /\
  (forall p q r, SameMatch E G pols p q -> SameMatch E G pols q r -> SameMatch E G pols p r).
Proof.
  intros E G pols RE SE TE.
  assert (AR : forall A (r : res A), r <> OOF -> Alike E r r) by (intros A [| | |] N; try constructor; easy).
  assert (AS : forall A (r r' : res A), Alike E r r' -> Alike E r' r) by (intros A r r' H; inversion H; constructor; auto).
  assert (AT : forall A (r r' r'' : res A), Alike E r r' -> Alike E r' r'' -> Alike E r r'')
    by (intros A r r' r'' H1 H2; inversion H1; subst; inversion H2; subst; constructor; eauto).
  split; [|split].
  - intros p held c c'. split; intros r H; exists r; split; auto; destruct H as (n & _ & N); auto.
  - intros p q H held c c'. destruct (H held c c') as [H1 H2]. split; intros r W.
    + destruct (H2 r W) as (r' & A & W'). exists r'. auto.
    + destruct (H1 r W) as (r' & A & W'). exists r'. auto.
  - intros p q r H1 H2 held c c'. destruct (H1 held c c') as [A1 B1]. destruct (H2 held c c') as [A2 B2]. split; intros x W.
    + destruct (A1 x W) as (y & Y & W'). destruct (A2 y W') as (z & Z & W''). eauto.
    + destruct (B2 x W) as (y & Y & W'). destruct (B1 y W') as (z & Z & W''). eauto.
Qed.

(** Parsers built without dynamic parts consume one piece of text at the cursor. *)
Theorem C64_steady : forall G p, whole G -> solid p -> Steady G p.
Proof. exact solid_steady. Qed.

(** *** Alternatives *)
Theorem C64_or_assoc : forall G p q r,
  SameMatch same_error G [] (POr (POr p q) r) (POr p (POr q r)) /\
  forall S (h : handler S), SameBuild same_error h G [] (POr (POr p q) r) (POr p (POr q r)).
Proof. intros G p q r. split; [apply or_assoc|intros; apply or_assoc_c]. Qed.
Theorem C64_or_idem : forall G p, Steady G p -> SameMatch same_error G [] (POr p p) p.
Proof. exact or_idem. Qed.
Theorem C64_or_fail : forall G p, Steady G p ->
  SameMatch same_error G [] (POr PFail p) p /\ SameMatch any_error G [] (POr p PFail) p.
Proof. intros G p P. split; [now apply or_fail_l|now apply or_fail_r]. Qed.
(** A list of alternatives is the first one or the list of the others. *)
Theorem C64_choice_or : forall G e p ps,
  SameMatch same_error G [] (PChoice e false (p :: ps)) (POr p (PChoice e false ps)) /\
  forall S (h : handler S), SameBuild same_error h G [] (PChoice e false (p :: ps)) (POr p (PChoice e false ps)).
Proof. intros G e p ps. split; [apply choice_cons|intros; apply choice_cons_c]. Qed.
Theorem C64_longest_assoc : forall G p q r, Steady G p -> Steady G q -> Steady G r ->
  SameMatch same_error G [] (PLongest (PLongest p q) r) (PLongest p (PLongest q r)).
Proof. exact longest_assoc. Qed.
Theorem C64_longest_idem : forall G p, Steady G p -> SameMatch same_error G [] (PLongest p p) p.
Proof. exact longest_idem. Qed.

(** *** Sequences *)
Theorem C64_then_assoc : forall G p q r, Steady G p -> Steady G q -> Steady G r ->
  SameMatch same_error G [] (PThen (PThen p q) r) (PThen p (PThen q r)).
Proof. exact then_assoc. Qed.
(** Constructing, the tuples nest differently: [((a, b), c)] against [(a, (b, c))]. *)
Theorem C64_then_assoc_building : forall S (h : handler S) G p q r f,
  (forall a b c, f (VPair (VPair a b) c) = Ok (VPair a (VPair b c))) ->
  SameBuild same_error h G [] (PMap (PThen (PThen p q) r) f) (PThen p (PThen q r)).
Proof. intros S h G p q r f F. now apply then_assoc_c. Qed.
Theorem C64_then_empty : forall G p, Steady G p ->
  SameMatch same_error G [] (PThen PEmpty p) p /\ SameMatch same_error G [] (PThen p PEmpty) p.
Proof. intros G p P. split; [now apply then_empty_l|now apply then_empty_r]. Qed.
Theorem C64_then_fail : forall G p, SameMatch same_error G [] (PThen PFail p) PFail.
Proof. exact then_fail_l. Qed.
Theorem C64_sequences : forall G p s q, Steady G p -> Steady G s -> Steady G q ->
  SameMatch same_error G [] (PSepOnce p s q) (PThen (PThen p s) q) /\
  SameMatch same_error G [] (PEnclose s p q) (PThen (PThen p s) q).
Proof. intros G p s q P Q R. split; [now apply seponce|now apply enclose]. Qed.
Theorem C64_prefix_suffix : forall G p q,
  SameMatch same_error G [] (PPrefix p q) (PThen q p) /\ SameMatch same_error G [] (PSuffix p q) (PThen p q).
Proof. intros G p q. split; [apply prefix_then|apply suffix_then]. Qed.
(** [p.if_then(t, q)]: after [p], either [t] and [q], or [t] does not match. *)
Theorem C64_if_then : forall G p t q, Steady G p -> Steady G t -> Steady G q ->
  SameMatch any_error G [] (PIfThen p t q) (PThen p (POr (PThen t q) (PAssert t false))).
Proof. exact ifthen. Qed.
Theorem C64_literal : forall G a b, SameMatch any_error G [] (PLit (a ++ b)) (PThen (PLit a) (PLit b)).
Proof. exact lit_app. Qed.

(** *** Left factoring *)
Theorem C64_factor : forall G p q r, Steady G p -> Steady G q -> Steady G r ->
  SameMatch same_error G [] (POr (PThen p q) (PThen p r)) (PThen p (POr q r)).
Proof. exact factor. Qed.

(** *** Options, look-ahead *)
Theorem C64_option : forall G p,
  SameMatch same_error G [] (POption p) (POr p PEmpty) /\ SameMatch same_error G [] (POption (POption p)) (POption p).
Proof. intros G p. split; [apply option_or|apply option_option]. Qed.
Theorem C64_lookahead : forall G p,
  SameMatch any_error G [] (PAssert (PAssert p false) false) (PAssert p true) /\
  (forall v, SameMatch any_error G [] (PAssert (PAssert p v) true) (PAssert p v)) /\
  (Steady G p -> SameMatch any_error G [] (PThen (PAssert p true) p) p).
Proof. intros G p. split; [apply not_not|split; [apply assert_assert|apply ahead]]. Qed.

(** *** Repetition *)
Theorem C64_collect_repeat : forall G p m,
  SameMatch any_error G [] (PCollect p m) (PRepeat p (CRange (Incl m) Unb)) /\
  forall S (h : handler S), SameBuild any_error h G [] (PCollect p m) (PRepeat p (CRange (Incl m) Unb)).
Proof. intros G p m. split; [apply collect_repeat|intros; apply collect_repeat_c]. Qed.
(** [p.repeat(a+1 ..)] is [p.then(p.repeat(a ..))], and [p.repeat(a+1 ..= b+1)] is [p.then(p.repeat(a ..= b))]. *)
Theorem C64_repeat_unroll : forall G p a, Steady G p ->
  SameMatch any_error G [] (PRepeat p (CRange (Incl (S a)) Unb)) (PThen p (PRepeat p (CRange (Incl a) Unb))) /\
  forall b, SameMatch any_error G [] (PRepeat p (CRange (Incl (S a)) (Incl (S b)))) (PThen p (PRepeat p (CRange (Incl a) (Incl b)))).
Proof. intros G p a P. split; [exact (repeat_unroll G p a None P)|intros b; exact (repeat_unroll G p a (Some b) P)]. Qed.

(** *** Mappers *)
Theorem C64_map_map : forall S (h : handler S) G p f g,
  SameBuild same_error h G [] (PMap (PMap p f) g)
    (PMap p (fun v => match f v with Ok w => g w | Err e => Err e | Panic => Panic | OOF => OOF end)).
Proof. intros. apply map_map. Qed.

(** *** Cases *)

(** A number, a comma and the nested arrays of cell 0 are steady. *)
Lemma nested_whole : whole nested_env.
Proof. closed_env. repeat constructor. Qed.
Lemma number_solid : solid number. Proof. constructor. Qed.
Lemma comma_solid : solid comma. Proof. constructor. Qed.
Example C64_steady_case : Steady nested_env number /\ Steady nested_env comma /\ Steady nested_env (PRef 0) /\
  Matches KStr nested_env (PRef 0) nested 0 0 7 /\ Fails KStr nested_env number nested 3 EMany1.
Proof.
  repeat (split; [apply C64_steady; [apply nested_whole|constructor]|]). split; [matches 20|fails 20].
Qed.

(** 12] and 12, read by two alternatives that begin alike, and by the factored parser. *)
Definition t12b : text := [49; 50; 93]%N.
Definition t12c : text := [49; 50; 44]%N.
Example C64_factor_case :
  SameMatch same_error nested_env [] (POr (PThen number comma) (PThen number rbrack)) (PThen number (POr comma rbrack)) /\
  Matches KBytes nested_env (POr (PThen number comma) (PThen number rbrack)) t12b 0 0 3 /\
  Matches KBytes nested_env (PThen number (POr comma rbrack)) t12b 0 0 3 /\
  Matches KBytes nested_env (PThen number (POr comma rbrack)) t12c 0 0 3.
Proof.
  split; [apply C64_factor; apply C64_steady; try apply nested_whole; constructor|].
  split; [matches 20|split; matches 20].
Qed.
Example C64_repeat_case : let digit := POnce NAsciiDigit CEmpty in
  SameMatch any_error [] [] (PRepeat digit (CRange (Incl 2) (Incl 3))) (PThen digit (PRepeat digit (CRange (Incl 1) (Incl 2)))) /\
  Matches KStr [] (PRepeat digit (CRange (Incl 2) (Incl 3))) t12c 0 0 2 /\
  Matches KStr [] (PThen digit (PRepeat digit (CRange (Incl 1) (Incl 2)))) t12c 0 0 2 /\
  Fails KStr [] (PRepeat digit (CRange (Incl 2) (Incl 3))) t12c 1 ERepeat.
Proof.
  split; [apply C64_repeat_unroll; apply C64_steady; [no_env|constructor]|].
  split; [matches 20|split; [matches 20|fails 20]].
Qed.
(** A user closure that advances by one is steady too; one that moves without saying so is not. *)
Example C64_closure_case :
  solid (PFn (fun c => (Ok (Span (c_off c) 1), at_off (c_off c + 1) c))) /\
  ~ Steady [] (PFn (fun c => (Ok (Span (c_off c) 1), c))).
Proof.
  split; [constructor; intros c; split; reflexivity|]. intros H.
  destruct (H [] (cx KStr t12b 0) (Ok (Span 0 1)) (cx KStr t12b 0)) as [_ H1]; [|discriminate H1].
  exists 1. split; [reflexivity|discriminate].
Qed.
(** The mapper that turns [((a, b), c)] into [(a, (b, c))]. *)
Example C64_then_assoc_building_case :
  let f := fun v => match v with VPair (VPair a b) c => Ok (VPair a (VPair b c)) | _ => Panic end in
  (forall a b c, f (VPair (VPair a b) c) = Ok (VPair a (VPair b c))) /\
  Builds (fun c s (u : unit) => (Ok (VSpan s), u)) [] [] (PMap (PThen (PThen (PPat number) (PPat comma)) (PPat PEmpty)) f)
    (cx KStr t12c 0) tt (Ok (VPair (VSpan (Span 0 2)) (VPair (VSpan (Span 2 1)) (VSpan (Span 3 0))))) (cx KStr t12c 3) tt.
Proof. split; [reflexivity|]. exists 9. split; [vm_compute; reflexivity|discriminate]. Qed.

(** Re-nesting alternatives three levels down, under a repetition and brackets. *)
Definition alt_l : pat := POr (POr number comma) rbrack.
Definition alt_r : pat := POr number (POr comma rbrack).
Definition bigger (p : pat) : pat := PEnclose (PRepeat (PThen p (POption p)) (CRange (Incl 1) Unb)) (POption lbrack) PEnd.
Example C63_case :
  Rewritten (fun a b => a = alt_l /\ b = alt_r) (bigger alt_l) (bigger alt_r) /\
  SameMatch same_error [] [] (bigger alt_l) (bigger alt_r) /\
  Matches KStr [] (bigger alt_l) t12c 0 0 3 /\ Matches KStr [] (bigger alt_r) t12c 0 0 3 /\
  Fails KStr [] (bigger alt_r) (t12c ++ [97%N]) 0 EAnchorEnd.
Proof.
  assert (R : Rewritten (fun a b => a = alt_l /\ b = alt_r) (bigger alt_l) (bigger alt_r)).
  { unfold bigger. apply rw_inside, nd_enclose; try apply rw_same. apply rw_inside, nd_repeat, rw_inside, nd_then.
    - now apply rw_here.
    - apply rw_inside, nd_option. now apply rw_here. }
  split; [exact R|]. split.
  { apply (C63_exchange same_error [] [] (fun a b => a = alt_l /\ b = alt_r)); [reflexivity| |exact R].
    intros a b [-> ->]. apply C64_or_assoc. }
  split; [matches 20|split; [matches 20|fails 20]].
Qed.

(** Nested arrays written with [enclose], and written as a sequence. *)
Definition nested_env' : env := [Some (POr number (PThen (PThen lbrack (PSep (PRef 0) comma 0 true)) rbrack))].
Example C63_cells_case :
  SameCells (fun H p p' => forall pre pols', [] = pre ++ pols' -> SameMatch same_error H pols' p p') nested_env nested_env' /\
  Matches KStr nested_env (PRef 0) nested 0 0 7 /\ Matches KStr nested_env' (PRef 0) nested 0 0 7.
Proof.
  split; [|split; matches 20].
  assert (W : forall H, whole H -> SameMatch same_error H []
     (POr number (PEnclose (PSep (PRef 0) comma 0 true) lbrack rbrack))
     (POr number (PThen (PThen lbrack (PSep (PRef 0) comma 0 true)) rbrack))).
  { intros H HW. apply (C63_exchange same_error H []
      (fun a b => a = PEnclose (PSep (PRef 0) comma 0 true) lbrack rbrack /\ b = PThen (PThen lbrack (PSep (PRef 0) comma 0 true)) rbrack)).
    - reflexivity.
    - intros a b [-> ->]. apply C64_sequences; apply C64_steady; auto; repeat constructor.
    - apply rw_inside, nd_or; [apply rw_same|now apply rw_here]. }
  assert (W' : whole nested_env') by (closed_env; repeat constructor).
  intros [|[|i]]; [|exact I|exact I]. cbn [nested_env nested_env' env_get nth_error].
  split; intros pre pols' Hp; destruct pre; try discriminate; cbn in Hp; subst pols'; apply W; [apply nested_whole|exact W'].
Qed.

(** Under policies even [or] is not associative: the policy runs once more in front of a nested parser.
    With a policy that skips one byte, the c of abc is two skips away on one side and one on the other. *)
Theorem C64_or_assoc_refuted : exists pols p q r w, let G := [] in
  Returns G pols (POr (POr p q) r) (cx KBytes w 0) (Ok (Span 3 1)) (cx KBytes w 4) /\
  Returns G pols (POr p (POr q r)) (cx KBytes w 0) (Err EFail) (cx KBytes w 1).
Proof.
  exists [PConsume 1], (PLit [99]%N), PFail, PFail, [97; 97; 97; 99]%N. split; exists 9; (split; [vm_compute; reflexivity|discriminate]).
Qed.

Print Assumptions C63_exchange.
Print Assumptions C63_exchange_building.
Print Assumptions C63_try_mat.
Print Assumptions C63_exchange_cells.
Print Assumptions C63_exchange_cells_building.
Print Assumptions C64_equivalence.
Print Assumptions C64_steady.
Print Assumptions C64_or_assoc.
Print Assumptions C64_or_idem.
Print Assumptions C64_or_fail.
Print Assumptions C64_choice_or.
Print Assumptions C64_longest_assoc.
Print Assumptions C64_longest_idem.
Print Assumptions C64_then_assoc.
Print Assumptions C64_then_assoc_building.
Print Assumptions C64_then_empty.
Print Assumptions C64_then_fail.
Print Assumptions C64_sequences.
Print Assumptions C64_prefix_suffix.
Print Assumptions C64_if_then.
Print Assumptions C64_literal.
Print Assumptions C64_factor.
Print Assumptions C64_option.
Print Assumptions C64_lookahead.
Print Assumptions C64_collect_repeat.
Print Assumptions C64_repeat_unroll.
Print Assumptions C64_map_map.
Print Assumptions C64_or_assoc_refuted.
