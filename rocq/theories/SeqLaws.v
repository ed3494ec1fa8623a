(** Sequencing, choice and mapping in constructing mode, for arbitrary parts, handlers and policies. *)

From Coq Require Import List Arith NArith Bool Lia.
From Verif Require Import Base Text Context Neu Syntax Regex Ctor Api TextProofs Spec Core Obs Laws ApiLaws.
Import ListNotations.

(** A part of a sequence: build a value with it, or only match it. *)
Inductive part : Type := Build (p : pat) | Match (p : pat).

Lemma merge (P Q : nat -> Prop) : (exists N, forall n, N <= n -> P n) -> (exists N, forall n, N <= n -> Q n) ->
  exists N, forall n, N <= n -> P n /\ Q n.
Proof. intros [a A] [b B]. exists (a + b). intros n H. split; [apply A|apply B]; lia. Qed.

Section Seq.
  Context {S : Type}.
  Variable h : handler S.
  Variable G : env.
  Variable pols : list pat.

  Definition cons_res (v : val) (r : res (list val)) : res (list val) :=
    match r with Ok vs => Ok (v :: vs) | Err e => Err e | Panic => Panic | OOF => OOF end.
  Definition stop_res (r : res val) : option (res (list val)) :=
    match r with Ok _ => None | Err e => Some (Err e) | Panic => Some Panic | OOF => Some OOF end.

  (** Run the parts one after the other, each from where the one before ended, until one does not
      succeed: the values built, or the error (or panic) of that part. *)
  Inductive Parts : list part -> ctx -> S -> res (list val) -> ctx -> S -> Prop :=
  | parts_nil c s : Parts [] c s (Ok []) c s
  | parts_build p ps c s v c1 s1 r c' s' :
      Builds h G pols p c s (Ok v) c1 s1 -> Parts ps c1 s1 r c' s' -> Parts (Build p :: ps) c s (cons_res v r) c' s'
  | parts_build_err p ps c s e c1 s1 : Builds h G pols p c s (Err e) c1 s1 -> Parts (Build p :: ps) c s (Err e) c1 s1
  | parts_build_panic p ps c s c1 s1 : Builds h G pols p c s Panic c1 s1 -> Parts (Build p :: ps) c s Panic c1 s1
  | parts_match p ps c s sp0 c1 r c' s' :
      Returns G pols p c (Ok sp0) c1 -> Parts ps c1 s r c' s' -> Parts (Match p :: ps) c s r c' s'
  | parts_match_err p ps c s e c1 : Returns G pols p c (Err e) c1 -> Parts (Match p :: ps) c s (Err e) c1 s
  | parts_match_panic p ps c s c1 : Returns G pols p c Panic c1 -> Parts (Match p :: ps) c s Panic c1 s.

  (** The result of a sequence from the values of its parts; an error puts the cursor back. *)
  Definition outcome (f : list val -> val) (r : res (list val)) : res val :=
    match r with Ok vs => Ok (f vs) | Err e => Err e | Panic => Panic | OOF => OOF end.
  Definition rewound {A} (r : res A) (c c' : ctx) : ctx := match r with Err _ => at_off (c_off c) c' | _ => c' end.

  Definition the_one (vs : list val) : val := match vs with [v] => v | _ => VUnit end.
  Definition the_pair (vs : list val) : val := match vs with [a; b] => VPair a b | _ => VUnit end.

  Lemma ctm_run p c r c' : Returns G pols p c r c' -> exists N, forall n, N <= n -> forall s : S,
    ctm (parse n G) [] pols p (c, s) = (r, (c', s)).
  Proof.
    intros R. destruct (returns_at _ _ _ _ _ _ R) as [N H]. exists N. intros n Hn s. unfold ctm, on_ctx. cbn [fst snd].
    change (tm (parse n G) [] pols p c) with (try_mat_top n G pols p c). now rewrite H by lia.
  Qed.

  Ltac inv H := inversion H; subst; clear H.
  (** All facts at one common fuel. *)
  Ltac facts :=
    repeat match goal with
    | H : Builds _ _ _ _ _ _ _ _ _ |- _ => apply builds_at in H
    | H : Returns _ _ _ _ _ _ |- _ => apply ctm_run in H
    end;
    repeat match goal with
    | A : (exists N, forall n, N <= n -> _), B : (exists N, forall n, N <= n -> _) |- _ => pose proof (merge _ _ A B); clear A B
    end;
    match goal with A : (exists N, forall n, N <= n -> _) |- _ => let N := fresh "N" in destruct A as [N A]; specialize (A N (le_n _));
      exists (Datatypes.S N) end;
    repeat match goal with H : _ /\ _ |- _ => destruct H end.
  Ltac norm := cbn [g_ctx g_offset g_reset fst snd get_off put_off pair_offset ctx_offset c_off c_kind c_dat].
  Ltac crunch := unfold at_off, rewound in *; split; [|try discriminate];
    cbn [construct construct_step];
    unfold with_guard, g_try, g_on, g_drop, g_new, bind, ret, catch, on_err_reset, offset, set_offset, fail, lift; norm;
    repeat (match goal with
    | H : construct _ _ _ _ _ ?p (?c, ?s) = _ |- context [construct h ?m _ _ _ ?p (?c, ?s)] => rewrite H
    | H : forall s : S, _ |- context [ctm (parse ?m G) [] pols ?p (?c, ?s)] => rewrite H
    end; norm); try reflexivity.
  Ltac parts := repeat match goal with
    | H : Parts (_ :: _) _ _ _ _ _ |- _ => inv H
    | H : Parts [] _ _ _ _ _ |- _ => inv H
    end; cbn [outcome cons_res rewound the_one the_pair]; facts; crunch.

  Lemma then_builds p q c s r c' s' : Parts [Build p; Build q] c s r c' s' ->
    Builds h G pols (PThen p q) c s (outcome the_pair r) (rewound r c c') s'.
  Proof. intros H. parts. Qed.
  Lemma prefix_builds p pre c s r c' s' : Parts [Match pre; Build p] c s r c' s' ->
    Builds h G pols (PPrefix p pre) c s (outcome the_one r) (rewound r c c') s'.
  Proof. intros H. parts. Qed.
  Lemma suffix_builds p suf c s r c' s' : Parts [Build p; Match suf] c s r c' s' ->
    Builds h G pols (PSuffix p suf) c s (outcome the_one r) (rewound r c c') s'.
  Proof. intros H. parts. Qed.
  Lemma enclose_builds p op cl c s r c' s' : Parts [Match op; Build p; Match cl] c s r c' s' ->
    Builds h G pols (PEnclose p op cl) c s (outcome the_one r) (rewound r c c') s'.
  Proof. intros H. parts. Qed.
  Lemma seponce_builds p t q c s r c' s' : Parts [Build p; Match t; Build q] c s r c' s' ->
    Builds h G pols (PSepOnce p t q) c s (outcome the_pair r) (rewound r c c') s'.
  Proof. intros H. parts. Qed.

  (** [if_then]: the test decides; after a successful test the continuation must succeed. *)
  Lemma ifthen_builds_no p t q c s v c1 s1 e c2 : Builds h G pols p c s (Ok v) c1 s1 -> Returns G pols t c1 (Err e) c2 ->
    Builds h G pols (PIfThen p t q) c s (Ok (VPair v VNone)) (at_off (c_off c1) c2) s1.
  Proof. intros A B. facts. crunch. Qed.
  Lemma ifthen_builds_yes p t q c s v c1 s1 sp0 c2 r c' s' : Builds h G pols p c s (Ok v) c1 s1 ->
    Returns G pols t c1 (Ok sp0) c2 -> Builds h G pols q c2 s1 r c' s' ->
    Builds h G pols (PIfThen p t q) c s
      (match r with Ok b => Ok (VPair v (VSome b)) | Err e => Err e | Panic => Panic | OOF => OOF end) (rewound r c c') s'.
  Proof.
    intros A B D. assert (N : r <> OOF) by (destruct D as (? & ? & ?); auto). destruct r; try congruence; facts; crunch.
  Qed.
  Lemma ifthen_builds_err p t q c s e c1 s1 : Builds h G pols p c s (Err e) c1 s1 ->
    Builds h G pols (PIfThen p t q) c s (Err e) (at_off (c_off c) c1) s1.
  Proof. intros A. facts. crunch. Qed.

  (** [or]. *)
  Lemma or_builds_first p q c s v c' s' : Builds h G pols p c s (Ok v) c' s' -> Builds h G pols (POr p q) c s (Ok v) c' s'.
  Proof. intros A. facts. crunch. Qed.
  Lemma or_builds_second p q c s e c1 s1 r c' s' : Builds h G pols p c s (Err e) c1 s1 ->
    Builds h G pols q (at_off (c_off c) c1) s1 r c' s' -> Builds h G pols (POr p q) c s r (rewound r c c') s'.
  Proof.
    intros A B. assert (N : r <> OOF) by (destruct B as (? & ? & ?); auto).
    destruct r; try congruence; facts; crunch; auto.
  Qed.

  (** [longest]: both are built from the same offset; the one that went further counts, the left one
      on ties.  With one success that one counts; with none, the right error, cursor put back. *)
  Lemma longest_builds p q c s r1 c1 s1 r2 c2 s2 : Builds h G pols p c s r1 c1 s1 -> r1 <> Panic ->
    Builds h G pols q (at_off (c_off c) c1) s1 r2 c2 s2 ->
    Builds h G pols (PLongest p q) c s
      (match r1, r2 with
       | Ok v, Ok u => if c_off c2 <=? c_off c1 then Ok v else Ok u
       | Ok v, Err _ => Ok v
       | _, r2 => r2
       end)
      (match r1, r2 with
       | _, Panic => c2
       | Ok v, Ok u => if c_off c2 <=? c_off c1 then at_off (c_off c1) c2 else c2
       | Ok v, _ => at_off (c_off c1) c2
       | _, Ok u => c2
       | _, _ => at_off (c_off c) c2
       end) s2.
  Proof.
    intros A NP B. assert (N1 : r1 <> OOF) by (destruct A as (? & ? & ?); auto).
    assert (N2 : r2 <> OOF) by (destruct B as (? & ? & ?); auto).
    destruct r1 as [v|e| |], r2 as [u|e'| |]; try congruence; facts; crunch.
    all: destruct (c_off c2 <=? c_off c1); cbn; try reflexivity; try discriminate.
    all: try (destruct c2; reflexivity).
  Qed.

  (** [map]: the mapper's answer is the answer; the cursor stays where the parser left it. *)
  Lemma map_builds_ok p f c s v c' s' : f v <> OOF -> Builds h G pols p c s (Ok v) c' s' ->
    Builds h G pols (PMap p f) c s (f v) c' s'.
  Proof. intros N A. facts. crunch; auto. Qed.
  Lemma map_builds_err p f c s e c' s' : Builds h G pols p c s (Err e) c' s' -> Builds h G pols (PMap p f) c s (Err e) c' s'.
  Proof. intros A. facts. crunch. Qed.

  (** [into_ctor_then_builder]: the closure sees the context after the first parser and its value; the
      parser it returns runs from there. *)
  Lemma dthen_builds p f c s v c1 s1 q c2 r c' s' : Builds h G pols p c s (Ok v) c1 s1 -> f c1 v = (Ok q, c2) ->
    Builds h G pols q c2 s1 r c' s' ->
    Builds h G pols (PDynThen p f) c s
      (match r with Ok b => Ok (VPair v b) | Err e => Err e | Panic => Panic | OOF => OOF end) (rewound r c c') s'.
  Proof.
    intros A E D. assert (N : r <> OOF) by (destruct D as (? & ? & ?); auto).
    destruct r; try congruence; facts; crunch; unfold on_ctx; norm; rewrite E; norm;
      match goal with H : construct _ _ _ _ _ _ (c2, _) = _ |- _ => rewrite H end; reflexivity.
  Qed.
  Lemma dthen_builds_first p f c s e c1 s1 : Builds h G pols p c s (Err e) c1 s1 ->
    Builds h G pols (PDynThen p f) c s (Err e) (at_off (c_off c) c1) s1.
  Proof. intros A. facts. crunch. Qed.
  (** The closure fails: the error surfaces and the cursor stays where the closure left it. *)
  Lemma dthen_builds_closure p f c s v c1 s1 e c2 : Builds h G pols p c s (Ok v) c1 s1 -> f c1 v = (Err e, c2) ->
    Builds h G pols (PDynThen p f) c s (Err e) c2 s1.
  Proof. intros A E. facts. crunch. unfold on_ctx; norm. rewrite E. reflexivity. Qed.
End Seq.

(** Containers of alternatives: the first that succeeds; each starts where the container started. *)
Section First.
  Context {S : Type}.
  Variable h : handler S.
  Variable G : env.
  Variable pols : list pat.

  Inductive BuildFirst (o : nat) (e : error) : ctx -> S -> list (pat * (val -> val)) -> res val -> ctx -> S -> Prop :=
  | bfirst_none c s : BuildFirst o e c s [] (Err e) c s
  | bfirst_hit c s p f ps v c' s' : Builds h G pols p c s (Ok v) c' s' -> BuildFirst o e c s ((p, f) :: ps) (Ok (f v)) c' s'
  | bfirst_panic c s p f ps c' s' : Builds h G pols p c s Panic c' s' -> BuildFirst o e c s ((p, f) :: ps) Panic c' s'
  | bfirst_miss c s p f ps e' c1 s1 r c' s' : Builds h G pols p c s (Err e') c1 s1 ->
      BuildFirst o e (at_off o c1) s1 ps r c' s' -> BuildFirst o e c s ((p, f) :: ps) r c' s'.

  Lemma bfirst_run o e c s ps r c' s' : BuildFirst o e c s ps r c' s' ->
    r <> OOF /\ exists N, forall n, N <= n -> con_choice (construct h n G [] pols) o e ps (c, s) = (r, (c', s')).
  Proof.
    induction 1 as [c s|c s p f ps v c' s' B|c s p f ps c' s' B|c s p f ps e' c1 s1 r c' s' B _ [NR [N IH]]].
    - split; [discriminate|]. exists 0. reflexivity.
    - split; [discriminate|]. apply builds_at in B. destruct B as [N B]. exists N. intros n Hn. cbn [con_choice fst snd].
      unfold bind, catch, on_err_reset. now rewrite B by lia.
    - split; [discriminate|]. apply builds_at in B. destruct B as [N B]. exists N. intros n Hn. cbn [con_choice fst snd].
      unfold bind, catch, on_err_reset. now rewrite B by lia.
    - split; auto. apply builds_at in B. destruct B as [N' B]. exists (N + N'). intros n Hn. cbn [con_choice fst snd].
      unfold bind, catch, on_err_reset. rewrite B by lia. cbn [put_off pair_offset fst snd].
      change (put_off o c1) with (at_off o c1). now apply IH; lia.
  Qed.
  Lemma choice_builds e ps c s r c' s' : BuildFirst (c_off c) e c s (plain ps) r c' s' ->
    Builds h G pols (PChoice e false ps) c s r c' s'.
  Proof.
    intros B. destruct (bfirst_run _ _ _ _ _ _ _ _ B) as [NR [N H]]. exists (Datatypes.S N). split; auto.
    cbn [construct construct_step]. unfold bind at 1, offset. cbn [get_off pair_offset fst snd]. now apply H.
  Qed.
  Lemma pairchoice_builds e ps c s r c' s' : BuildFirst (c_off c) e c s (keyed ps) r c' s' ->
    Builds h G pols (PPairChoice e false ps) c s r c' s'.
  Proof.
    intros B. destruct (bfirst_run _ _ _ _ _ _ _ _ B) as [NR [N H]]. exists (Datatypes.S N). split; auto.
    cbn [construct construct_step]. unfold bind at 1, offset. cbn [get_off pair_offset fst snd]. now apply H.
  Qed.
End First.

(** [into_regex_builder], matching mode. *)
Section Builder.
  Variable G : env.
  Lemma pm_run pols p c r c' : Returns G pols p c r c' -> exists N, forall n, N <= n -> tm (parse n G) [] pols p c = (r, c').
  Proof. intros R. destruct (returns_at _ _ _ _ _ _ R) as [N H]. exists N. exact H. Qed.

  Ltac facts :=
    repeat match goal with H : Returns _ _ _ _ _ _ |- _ => apply pm_run in H end;
    repeat match goal with
    | A : (exists N, forall n, N <= n -> _), B : (exists N, forall n, N <= n -> _) |- _ => pose proof (merge _ _ A B); clear A B
    end;
    match goal with A : (exists N, forall n, N <= n -> _) |- _ => let N := fresh "N" in destruct A as [N A]; specialize (A N (le_n _));
      exists (Datatypes.S N) end;
    repeat match goal with H : _ /\ _ |- _ => destruct H end.
  Ltac norm := cbn [g_ctx g_offset g_reset fst snd get_off put_off ctx_offset c_off c_kind c_dat].
  Ltac crunch := unfold at_off, rewound in *; split; [|try discriminate]; rewrite tm_plain;
    cbn [parse parse_step];
    unfold with_guard, g_try, g_on, g_drop, g_new, bind, ret, catch, on_err_reset, offset, set_offset, fail, lift; norm;
    repeat (match goal with
    | H : tm _ _ _ ?p ?c = _ |- context [tm _ _ _ ?p ?c] => rewrite H
    end; norm); try reflexivity.

  Lemma builder_match p f c s c1 q c2 r c' : Returns G [] p c (Ok s) c1 -> f c1 s = (Ok q, c2) -> Returns G [] q c2 r c' ->
    Returns G [] (PBuilder p f) c r (rewound r c c').
  Proof.
    intros A E D. assert (N : r <> OOF) by (destruct D as (? & ? & ?); auto).
    destruct r; try congruence; facts; crunch; rewrite E; norm;
      match goal with H : tm _ _ _ _ c2 = _ |- _ => rewrite H end; reflexivity.
  Qed.
  Lemma builder_first p f c e c1 : Returns G [] p c (Err e) c1 -> Returns G [] (PBuilder p f) c (Err e) (at_off (c_off c) c1).
  Proof. intros A. facts. crunch. Qed.
  Lemma builder_closure p f c s c1 e c2 : Returns G [] p c (Ok s) c1 -> f c1 s = (Err e, c2) ->
    Returns G [] (PBuilder p f) c (Err e) c2.
  Proof. intros A E. facts. crunch. rewrite E. reflexivity. Qed.
End Builder.
