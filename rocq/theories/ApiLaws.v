(** Laws that hold for arbitrary sub-parsers and arbitrary states of the context, whether or not the
    sub-parsers are well behaved. *)

From Coq Require Import List Arith NArith Bool Lia.
From Verif Require Import Base Text Context Neu Syntax Regex Ctor Api TextProofs Spec Units Core Mono
  Atomic Obs Laws.
Import ListNotations.

Lemma returns_at G pols p c r c' : Returns G pols p c r c' ->
  exists n0, forall n, n0 <= n -> try_mat_top n G pols p c = (r, c').
Proof.
  intros (n & E & N). exists n. intros m Hm. exact (mle_eq _ _ _ _ _ (try_mat_mono n m G pols p Hm) E N).
Qed.
Lemma parse_at n m G held pols p c r c' : parse n G held pols p c = (r, c') -> r <> OOF -> n <= m ->
  parse m G held pols p c = (r, c').
Proof. intros E N L. exact (mle_eq _ _ _ _ _ (parse_mono n m G held pols p L) E N). Qed.
Lemma construct_at {S} (h : handler S) n m G held pols p x r x' : construct h n G held pols p x = (r, x') ->
  r <> OOF -> n <= m -> construct h m G held pols p x = (r, x').
Proof. intros E N L. exact (mle_eq _ _ _ _ _ (construct_mono h n m G held pols p L) E N). Qed.

Lemma builds_at {S} (h : handler S) G pols p c s r c' s' : Builds h G pols p c s r c' s' ->
  exists n0, forall n, n0 <= n -> construct h n G [] pols p (c, s) = (r, (c', s')).
Proof. intros (n & E & N). exists n. intros m Hm. now apply (construct_at h n m). Qed.

Lemma builds_det {S} (h : handler S) G pols p c s r c1 s1 r' c2 s2 :
  Builds h G pols p c s r c1 s1 -> Builds h G pols p c s r' c2 s2 -> r = r' /\ c1 = c2 /\ s1 = s2.
Proof.
  intros A B. destruct (builds_at _ _ _ _ _ _ _ _ _ A) as [n1 H1].
  destruct (builds_at _ _ _ _ _ _ _ _ _ B) as [n2 H2].
  specialize (H1 (n1 + n2) ltac:(lia)). specialize (H2 (n1 + n2) ltac:(lia)).
  rewrite H1 in H2. injection H2 as <- <- <-. auto.
Qed.

(** A plain context: [try_mat] is [try_parse]. *)
Lemma tm_plain n G p c : try_mat_top n G [] p c = parse n G [] [] p c.
Proof. reflexivity. Qed.

Ltac useE := match goal with E : _ ?x = (_, _) |- context [_ ?x] => rewrite E end.

(** If two parsers have the same [try_parse] with one unit of fuel more or less, they are
    interchangeable. *)
Lemma parse_shift_returns G pols p q c r c' :
  (forall n, parse (S n) G [] pols p = parse n G [] pols q) ->
  (Returns G pols p c r c' <-> Returns G pols q c r c').
Proof.
  intros H. unfold Returns, try_mat_top, try_mat. split; intros (n & E & N).
  - destruct pols as [|x rest].
    + destruct n as [|n]; [cbv in E; congruence|]. rewrite H in E. eauto.
    + destruct n as [|n]; [cbv in E; congruence|]. exists (S n). split; auto. revert E. unfold bind.
      destruct (parse (S n) G [] rest x c) as [[s|e| |] c1] eqn:Er; auto. rewrite H.
      intros E. apply (parse_at n (S n)); auto.
  - exists (S n). split; auto. revert E. destruct pols as [|x rest].
    + intros E. now rewrite H.
    + unfold bind. destruct (parse n G [] rest x c) as [[s|e| |] c1] eqn:Er; intros E.
      * rewrite (parse_at n (S n) _ _ _ _ _ _ _ Er ltac:(discriminate) ltac:(lia)). now rewrite H.
      * rewrite (parse_at n (S n) _ _ _ _ _ _ _ Er ltac:(discriminate) ltac:(lia)). auto.
      * rewrite (parse_at n (S n) _ _ _ _ _ _ _ Er ltac:(discriminate) ltac:(lia)). auto.
      * congruence.
Qed.
Lemma con_shift_builds {S} (h : handler S) G pols p q c s r c' s' :
  (forall n, construct h (Datatypes.S n) G [] pols p = construct h n G [] pols q) ->
  (Builds h G pols p c s r c' s' <-> Builds h G pols q c s r c' s').
Proof.
  intros H. split; intros (n & E & N).
  - destruct n as [|n]; [cbv in E; congruence|]. rewrite H in E. exists n. auto.
  - exists (Datatypes.S n). rewrite H. auto.
Qed.

Lemma wrap_returns G pols p c r c' : Returns G pols (PWrap p) c r c' <-> Returns G pols p c r c'.
Proof. apply parse_shift_returns. reflexivity. Qed.
Lemma leaf_returns G pols p c r c' : Returns G pols (PLeaf p) c r c' <-> Returns G pols p c r c'.
Proof. apply parse_shift_returns. reflexivity. Qed.
Lemma ref_returns G pols x p c r c' : env_get G x = Some p ->
  (Returns G pols (PRef x) c r c' <-> Returns G pols p c r c').
Proof. intros E. apply parse_shift_returns. intros n. cbn. now rewrite E. Qed.
Lemma pat_returns G p c r c' : Returns G [] (PPat p) c r c' <-> Returns G [] p c r c'.
Proof. apply parse_shift_returns. reflexivity. Qed.
Lemma map_returns G p f c r c' : Returns G [] (PMap p f) c r c' <-> Returns G [] p c r c'.
Proof. apply parse_shift_returns. reflexivity. Qed.
Lemma wrap_builds {S} (h : handler S) G pols p c s r c' s' :
  Builds h G pols (PWrap p) c s r c' s' <-> Builds h G pols p c s r c' s'.
Proof. apply con_shift_builds. reflexivity. Qed.
Lemma ref_builds {S} (h : handler S) G pols x p c s r c' s' : env_get G x = Some p ->
  (Builds h G pols (PRef x) c s r c' s' <-> Builds h G pols p c s r c' s').
Proof. intros E. apply con_shift_builds. intros n. cbn. now rewrite E. Qed.
Lemma nonep_returns G c : Returns G [] PNoneP c (Err EOption) c.
Proof. exists 1. split; [reflexivity|discriminate]. Qed.
Lemma nonep_builds {S} (h : handler S) G pols c s : Builds h G pols PNoneP c s (Err EOption) c s.
Proof. exists 1. split; [reflexivity|discriminate]. Qed.
Lemma ref_none_returns G x c : env_get G x = None -> Returns G [] (PRef x) c (Err EOption) c.
Proof. intros E. exists 1. split; [|discriminate]. cbn. now rewrite E. Qed.

(** [p.pat()] in constructing mode calls the handler once, on the whole span of [p]. *)
Lemma pat_builds {S} (h : handler S) G pols p c s span c' :
  Returns G pols p c (Ok span) c' ->
  fst (h c' span s) <> OOF ->
  Builds h G pols (PPat p) c s (fst (h c' span s)) c' (snd (h c' span s)).
Proof.
  intros (n & E & _) N. exists (Datatypes.S n). split; auto. cbn. unfold bind, ctm, on_ctx, tm; cbn.
  unfold try_mat_top in E. rewrite E. unfold invoke; cbn. now destruct (h c' span s).
Qed.
Lemma pat_builds_err {S} (h : handler S) G pols p c s e c' :
  Returns G pols p c (Err e) c' -> Builds h G pols (PPat p) c s (Err e) c' s.
Proof.
  intros (n & E & _). exists (Datatypes.S n). split; [|discriminate]. cbn. unfold bind, ctm, on_ctx, tm; cbn.
  unfold try_mat_top in E. now rewrite E.
Qed.

(** Ordered choice of two, whatever the parts do. *)
Lemma or_first G p q c s c' : Returns G [] p c (Ok s) c' -> Returns G [] (POr p q) c (Ok s) c'.
Proof.
  intros H. destruct (returns_at _ _ _ _ _ _ H) as [n E]. exists (S n). split; [|discriminate].
  specialize (E n (le_n _)). rewrite tm_plain in *. cbn. unfold on_err_reset, bind, catch, tm; cbn.
  now rewrite E.
Qed.
Lemma or_second G p q c e c1 r c2 :
  Returns G [] p c (Err e) c1 -> Returns G [] q (at_off (c_off c) c1) r c2 ->
  Returns G [] (POr p q) c r (match r with Err _ => at_off (c_off c) c2 | _ => c2 end).
Proof.
  intros H K. destruct (returns_at _ _ _ _ _ _ H) as [n1 E1]. destruct (returns_at _ _ _ _ _ _ K) as [n2 E2].
  assert (N : r <> OOF) by (destruct K as (? & ? & ?); auto).
  exists (S (n1 + n2)). split; auto. specialize (E1 (n1 + n2) ltac:(lia)). specialize (E2 (n1 + n2) ltac:(lia)).
  rewrite tm_plain in *. cbn. unfold on_err_reset, bind, catch, tm; cbn. rewrite E1. cbn.
  change (Ctx (c_kind c1) (c_dat c1) (c_off c)) with (at_off (c_off c) c1). rewrite E2.
  destruct r; reflexivity.
Qed.

(** Lookahead, whatever the part does. *)
Lemma assert_any G p v c r c1 : Returns G [] p c r c1 ->
  Returns G [] (PAssert p v) c
    (match r with
     | Ok _ => if v then Ok (Span (c_off c) 0) else Err EAssertFalse
     | Err _ => if v then Err EAssertTrue else Ok (Span (c_off c) 0)
     | Panic => Panic
     | OOF => OOF
     end)
    (match r with Ok _ | Err _ => at_off (c_off c) c1 | _ => c1 end).
Proof.
  intros H. destruct (returns_at _ _ _ _ _ _ H) as [n E]. specialize (E n (le_n _)).
  assert (N : r <> OOF) by (destruct H as (? & ? & ?); auto).
  exists (S n). rewrite tm_plain in *. split; [|destruct r, v; congruence].
  cbn. unfold bind, catch, tm; cbn. rewrite E. destruct r, v; reflexivity || congruence.
Qed.

Lemma try_assert_any G pols p c r c1 : Returns G pols p c r c1 ->
  exists n, forall m, n <= m ->
  try_assert m G pols p c =
  match r with
  | Ok _ => (Ok true, at_off (c_off c) c1)
  | Err _ => (Ok false, at_off (c_off c) c1)
  | Panic => (Panic, c1)
  | OOF => (OOF, c1)
  end.
Proof.
  intros H. destruct (returns_at _ _ _ _ _ _ H) as [n E]. exists n. intros m Hm. specialize (E m Hm).
  unfold try_assert, bind, catch, offset, set_offset, ret; cbn. rewrite E. destruct r; reflexivity.
Qed.

Lemma is_mat_any G pols p c r c1 : Returns G pols p c r c1 ->
  exists n, forall m, n <= m ->
  is_mat m G pols p c =
  match r with Ok _ => (Ok true, c1) | Err _ => (Ok false, c1) | Panic => (Panic, c1) | OOF => (OOF, c1) end.
Proof.
  intros H. destruct (returns_at _ _ _ _ _ _ H) as [n E]. exists n. intros m Hm. specialize (E m Hm).
  unfold is_mat, bind, catch, ret; cbn. rewrite E. destruct r; reflexivity.
Qed.

(** [opt]: never an error. *)
Lemma option_any G p c r c1 : Returns G [] p c r c1 ->
  Returns G [] (POption p) c
    (match r with Err _ => Ok (Span (c_off c) 0) | r => r end)
    (match r with Err _ => at_off (c_off c) c1 | _ => c1 end).
Proof.
  intros H. destruct (returns_at _ _ _ _ _ _ H) as [n E]. specialize (E n (le_n _)).
  assert (N : r <> OOF) by (destruct H as (? & ? & ?); auto).
  exists (S n). rewrite tm_plain in *. split; [|destruct r; congruence].
  cbn. unfold bind, catch, on_err_reset, tm; cbn. rewrite E. destruct r; reflexivity || congruence.
Qed.
Lemma option_never_fails G p c e c' : ~ Returns G [] (POption p) c (Err e) c'.
Proof.
  intros (n & E & _). destruct n as [|n]; [discriminate|]. rewrite tm_plain in E. cbn in E.
  unfold bind, catch, on_err_reset, tm in E; cbn in E.
  destruct (parse n G [] [] p c) as [[s|e0| |] c1]; discriminate.
Qed.
Lemma option_builds_any {S} (h : handler S) G pols p c s r c1 s1 : Builds h G pols p c s r c1 s1 ->
  Builds h G pols (POption p) c s
    (match r with Ok v => Ok (VSome v) | Err _ => Ok VNone | r => r end)
    (match r with Err _ => at_off (c_off c) c1 | _ => c1 end) s1.
Proof.
  intros H. destruct (builds_at _ _ _ _ _ _ _ _ _ H) as [n E]. specialize (E n (le_n _)).
  assert (N : r <> OOF) by (destruct H as (? & ? & ?); auto).
  exists (Datatypes.S n). split; [|destruct r; congruence].
  cbn. unfold bind, catch, on_err_reset; cbn. rewrite E. destruct r; reflexivity || congruence.
Qed.
Lemma option_never_fails_ctor {S} (h : handler S) G pols p c s e c' s' :
  ~ Builds h G pols (POption p) c s (Err e) c' s'.
Proof.
  intros (n & E & _). destruct n as [|n]; [discriminate|]. cbn in E.
  unfold bind, catch, on_err_reset in E; cbn in E.
  destruct (construct h n G [] pols p (c, s)) as [[v|e0| |] c1]; discriminate.
Qed.

(** [branch]. *)
Lemma branch_any G t p q c b r c1 : t c = Ok b ->
  Returns G [] (if b : bool then p else q) c r c1 ->
  Returns G [] (PBranch t p q) c r (match r with Err _ => at_off (c_off c) c1 | _ => c1 end).
Proof.
  intros T H. destruct (returns_at _ _ _ _ _ _ H) as [n E]. specialize (E n (le_n _)).
  assert (N : r <> OOF) by (destruct H as (? & ? & ?); auto).
  exists (S n). rewrite tm_plain in *. split; auto.
  cbn. unfold bind, reads, on_err_reset, tm; cbn. rewrite T. destruct b; rewrite E; destruct r; reflexivity.
Qed.
Lemma branch_test_err G t p q c e : t c = Err e -> Returns G [] (PBranch t p q) c (Err e) c.
Proof.
  intros T. exists 1. split; [|discriminate]. cbn. unfold bind, reads; cbn. now rewrite T.
Qed.
Lemma branch_builds {S} (h : handler S) G pols t p q c s b r c1 s1 : t c = Ok b ->
  Builds h G pols (if b : bool then p else q) c s r c1 s1 ->
  Builds h G pols (PBranch t p q) c s r (match r with Err _ => at_off (c_off c) c1 | _ => c1 end) s1.
Proof.
  intros T H. destruct (builds_at _ _ _ _ _ _ _ _ _ H) as [n E]. specialize (E n (le_n _)).
  assert (N : r <> OOF) by (destruct H as (? & ? & ?); auto).
  exists (Datatypes.S n). split; auto.
  cbn. unfold bind, reads, on_err_reset; cbn. rewrite T. destruct b; rewrite E; destruct r; reflexivity.
Qed.
Lemma branch_builds_err {S} (h : handler S) G pols t p q c s e : t c = Err e ->
  Builds h G pols (PBranch t p q) c s (Err e) c s.
Proof.
  intros T. exists 1. split; [|discriminate]. cbn. unfold bind, reads; cbn. now rewrite T.
Qed.

(** Anchors, empty, fail, consume, consume_all: any offset inside the text. *)
Lemma empty_any G c : Returns G [] PEmpty c (Ok (Span (c_off c) 0)) c.
Proof. exists 1. split; [reflexivity|discriminate]. Qed.
Lemma fail_any G c : Returns G [] PFail c (Err EFail) c.
Proof. exists 1. split; [reflexivity|discriminate]. Qed.
Lemma start_any G c :
  Returns G [] PStart c (if c_off c =? 0 then Ok (Span 0 0) else Err EAnchorStart) c.
Proof.
  exists 1. cbn. unfold start_parse, bind; cbn. destruct (Nat.eqb_spec (c_off c) 0) as [->|]; split; reflexivity || discriminate.
Qed.
Lemma end_any G c :
  Returns G [] PEnd c (if c_off c =? ctx_len c then Ok (Span (c_off c) 0) else Err EAnchorEnd) c.
Proof.
  exists 1. cbn. unfold end_parse, bind, reads; cbn. destruct (Nat.eqb_spec (c_off c) (ctx_len c)) as [|]; split; reflexivity || discriminate.
Qed.
Lemma consume_any_ok G n c : c_off c + n <= ctx_len c ->
  Returns G [] (PConsume n) c (Ok (Span (c_off c) n)) (at_off (c_off c + n) c).
Proof.
  intros H. exists 1. split; [|discriminate]. cbn. unfold consume_parse, bind, remaining, csub.
  destruct (Nat.leb_spec (c_off c) (ctx_len c)); [|lia]. destruct (Nat.leb_spec n (ctx_len c - c_off c)); [|lia].
  reflexivity.
Qed.
Lemma consume_any_err G n c : c_off c <= ctx_len c -> ctx_len c < c_off c + n ->
  Returns G [] (PConsume n) c (Err EConsume) c.
Proof.
  intros H H'. exists 1. split; [|discriminate]. cbn. unfold consume_parse, bind, remaining, csub.
  destruct (Nat.leb_spec (c_off c) (ctx_len c)); [|lia]. destruct (Nat.leb_spec n (ctx_len c - c_off c)); [lia|].
  reflexivity.
Qed.
Lemma consume_all_any G c : c_off c <= ctx_len c ->
  Returns G [] PConsumeAll c (Ok (Span (c_off c) (ctx_len c - c_off c))) (at_off (ctx_len c) c).
Proof.
  intros H. exists 1. split; [|discriminate]. cbn. unfold consume_all_parse, bind, reads; cbn.
  unfold at_off. now replace (c_off c + (ctx_len c - c_off c)) with (ctx_len c) by lia.
Qed.
