(** C73: parsing the UTF-8 bytes of a text is parsing the text.

    [Twin p p'] and [TwinEnv G G'] (Utf8Sim.v) say that [p'] is the byte parser a user writes for [p]:
    literals are given as their UTF-8 bytes, units accept the same ASCII characters (and, in runs, either
    both all or both none of what is outside ASCII), and everything else is the same. *)

From Coq Require Import List Arith NArith Bool Lia.
From Verif Require Import Base Text Context Neu Syntax Regex Ctor Api TextProofs Spec Leaf Units Core Obs Sound Mono Rel ConSpec
  Utf8Sim PolicyLaws MapLaws Maps Laws.
Import ListNotations.

(** The UTF-8 encoding of a text, as a list of bytes. *)
Definition encoded (w : text) : text := flat_map utf8 w.
(** The two contexts, with the cursor at byte [o]. *)
Definition on_text (w : text) (o : nat) : ctx := Ctx KStr w o.
Definition on_bytes (w : text) (o : nat) : ctx := Ctx KBytes (encoded w) o.
(** Byte [o] is the first byte of a character, or the end. *)
Definition boundary (w : text) (o : nat) : Prop := exists i, i <= length w /\ o = bo KStr w i.

(** The two calls return the same and leave the cursor at the same byte, again a boundary. *)
Definition Agree (G G' : env) (pols pols' : list pat) (p p' : pat) (w : text) (o : nat) : Prop :=
  (forall r c, Returns G pols p (on_text w o) r c -> exists q, c = on_text w q /\ boundary w q /\ Returns G' pols' p' (on_bytes w o) r (on_bytes w q)) /\
  (forall r c, Returns G' pols' p' (on_bytes w o) r c -> exists q, c = on_bytes w q /\ boundary w q /\ Returns G pols p (on_text w o) r (on_text w q)) /\
  (Diverges G pols p (on_text w o) <-> Diverges G' pols' p' (on_bytes w o)).

Lemma agree_tm G G' pols pols' p p' w o :
  (forall n, msim (at_same w) eq (tm (parse n G) [] pols p) (tm (parse n G') [] pols' p')) ->
  boundary w o -> Agree G G' pols pols' p p' w o.
Proof.
  intros H (i & Hi & ->). assert (at_same w (on_text w (bo KStr w i)) (on_bytes w (bo KStr w i))) as R by (exists i; auto).
  assert (forall n, fst (try_mat_top n G pols p (on_text w (bo KStr w i))) = fst (try_mat_top n G' pols' p' (on_bytes w (bo KStr w i))) /\
    exists q, boundary w q /\ snd (try_mat_top n G pols p (on_text w (bo KStr w i))) = on_text w q /\
              snd (try_mat_top n G' pols' p' (on_bytes w (bo KStr w i))) = on_bytes w q) as N.
  { intros n. destruct (H n _ _ R) as [A (j & Hj & B & C)]. split.
    - unfold try_mat_top. change (try_mat (parse n G []) pols p) with (tm (parse n G) [] pols p).
      change (try_mat (parse n G' []) pols' p') with (tm (parse n G') [] pols' p'). destruct A; congruence.
    - exists (bo KStr w j). split; [now exists j|]. split; [exact B|exact C]. }
  split; [|split].
  - intros r c (n & E & NO). destruct (N n) as (A & q & B & C & D). rewrite E in A, C. cbn [fst snd] in A, C. subst c.
    exists q. repeat split; auto. exists n. split; [|exact NO]. destruct (try_mat_top n G' pols' p' _). cbn in A, D. now subst.
  - intros r c (n & E & NO). destruct (N n) as (A & q & B & C & D). rewrite E in A, D. cbn [fst snd] in A, D. subst c.
    exists q. repeat split; auto. exists n. split; [|exact NO]. destruct (try_mat_top n G pols p _). cbn in A, C. now subst.
  - split; intros DV n; specialize (DV n); destruct (N n) as (A & _); congruence.
Qed.

(** [try_mat] on plain contexts. *)
Theorem C73_matching : forall G G' p p' w o,
  core_env KStr G no_skip -> core KStr G no_skip p -> TwinEnv G G' -> Twin p p' -> boundary w o ->
  Agree G G' [] [] p p' w o.
Proof.
  intros G G' p p' w o CE C TE T B. apply agree_tm; [|exact B]. intros n.
  apply (tm_twin G G' no_skip); auto; [apply no_skip_skipper|apply no_skip_implements|exact I].
Qed.

Lemma ascii_ws_twin : ascii_twin NAsciiWhitespace NAsciiWhitespace.
Proof.
  split; [reflexivity|]. split; [|reflexivity]. intros x H.
  assert (is_match NAsciiWhitespace x = false) as E.
  { cbn [is_match]. unfold is_ascii_ws. repeat (rewrite (proj2 (N.eqb_neq _ _)) by lia). reflexivity. }
  auto.
Qed.

(** [try_mat] on contexts made by [skip_ascii_whitespace]. *)
Lemma ascii_pols_twin G G' : pols_twin G G' (skip_run NAsciiWhitespace) skip_ascii_whitespace skip_ascii_whitespace.
Proof.
  intros n held w i Hi. destruct n as [|n]; [cbn; split; [constructor|now exists i]|]. cbn [parse].
  apply (follows_leaf w i (parse_step G (parse n G) n held [] (PMany0 NAsciiWhitespace CEmpty))
    (parse_step G' (parse n G') n held [] (PMany0 NAsciiWhitespace CEmpty)) Hi).
  - apply (unit_leaf KStr G (parse n G) n held [] _ CEmpty); [reflexivity|exact Hi|]. intros m x _. discriminate.
  - cbn [parse_step check]. apply many0_twin; [exact Hi|apply ascii_ws_twin|]. intros a x t _ _. reflexivity.
Qed.
Theorem C73_skipping : forall G G' p p' w o,
  core_env KStr G (skip_run NAsciiWhitespace) -> core KStr G (skip_run NAsciiWhitespace) p ->
  TwinEnv G G' -> Twin p p' -> boundary w o ->
  Agree G G' skip_ascii_whitespace skip_ascii_whitespace p p' w o.
Proof.
  intros G G' p p' w o CE C TE T B. apply agree_tm; [|exact B]. intros n.
  apply (tm_twin G G' (skip_run NAsciiWhitespace)); auto;
    [apply skip_run_skipper|apply skip_ascii_implements|apply ascii_pols_twin].
Qed.

(** What a span covers in the bytes is the encoding of what it covers in the text. *)
Theorem C73_pieces : forall w o n t, span_orig (Span o n) (on_text w 0) = Ok t -> span_orig (Span o n) (on_bytes w 0) = Ok (encoded t).
Proof.
  intros w o n t E. unfold span_orig, orig_sub in *. cbn [c_kind c_dat on_text on_bytes sbeg slen] in *.
  destruct (drop_at KStr w o) as [l|] eqn:D; [|discriminate]. destruct (take_at KStr l n) as [r|] eqn:K; [|discriminate]. injection E as <-.
  apply drop_at_some in D. destruct D as (i & Hi & -> & ->). apply take_at_some in K. destruct K as (m & Hm & -> & ->).
  change (encoded w) with (raw KStr w). rewrite <- (bo_byte w i). rewrite drop_at_bo by (rewrite raw_length; apply bo_le_len).
  rewrite skipn_raw by exact Hi. set (l := skipn i w) in *. rewrite <- (bo_byte l m).
  rewrite take_at_bo by (rewrite raw_length; apply bo_le_len). f_equal. unfold encoded. change (flat_map utf8) with (raw KStr).
  rewrite <- (firstn_skipn m l) at 2. rewrite raw_app. unfold bo. rewrite <- (raw_length KStr). now rewrite firstn_app, firstn_all, Nat.sub_diag, app_nil_r.
Qed.

(** [ctor_handler] with handlers that do the same with the same piece of the text. *)
Definition SameHandler {S} (h h' : handler S) (w : text) : Prop :=
  forall x b j st, x <= length w -> b <= j -> j <= length w ->
    h (on_text w (bo KStr w x)) (Span (bo KStr w b) (bo KStr w j - bo KStr w b)) st =
    h' (on_bytes w (bo KStr w x)) (Span (bo KStr w b) (bo KStr w j - bo KStr w b)) st.
Definition AgreeBuild {S} (h h' : handler S) (G G' : env) (pols pols' : list pat) (p p' : pat) (w : text) (o : nat) (st : S) : Prop :=
  (forall r c st', Builds h G pols p (on_text w o) st r c st' ->
     exists q, c = on_text w q /\ boundary w q /\ Builds h' G' pols' p' (on_bytes w o) st r (on_bytes w q) st') /\
  (forall r c st', Builds h' G' pols' p' (on_bytes w o) st r c st' ->
     exists q, c = on_bytes w q /\ boundary w q /\ Builds h G pols p (on_text w o) st r (on_text w q) st') /\
  (BuildDiverges h G pols p (on_text w o) st <-> BuildDiverges h' G' pols' p' (on_bytes w o) st).

Lemma agree_con S (h h' : handler S) G G' pols pols' p p' w o st :
  (forall n, msim (both_at w) eq (construct h n G [] pols p) (construct h' n G' [] pols' p')) ->
  boundary w o -> AgreeBuild h h' G G' pols pols' p p' w o st.
Proof.
  intros H (i & Hi & ->).
  assert (forall n, fst (construct h n G [] pols p (on_text w (bo KStr w i), st)) = fst (construct h' n G' [] pols' p' (on_bytes w (bo KStr w i), st)) /\
    exists q st', boundary w q /\ snd (construct h n G [] pols p (on_text w (bo KStr w i), st)) = (on_text w q, st') /\
              snd (construct h' n G' [] pols' p' (on_bytes w (bo KStr w i), st)) = (on_bytes w q, st')) as N.
  { intros n. destruct (H n (on_text w (bo KStr w i), st) (on_bytes w (bo KStr w i), st)) as [A B].
    { constructor. exists i. auto. }
    split.
    - destruct A; congruence.
    - destruct B as [x y st' (j & Hj & -> & ->)]. exists (bo KStr w j), st'. split; [now exists j|]. auto. }
  split; [|split].
  - intros r c st' (n & E & NO). destruct (N n) as (A & q & st1 & B & C & D). rewrite E in A, C. cbn [fst snd] in A, C. injection C as -> ->.
    exists q. repeat split; auto. exists n. split; [|exact NO]. destruct (construct h' n G' [] pols' p' _). cbn in A, D. now subst.
  - intros r c st' (n & E & NO). destruct (N n) as (A & q & st1 & B & C & D). rewrite E in A, D. cbn [fst snd] in A, D. injection D as -> ->.
    exists q. repeat split; auto. exists n. split; [|exact NO]. destruct (construct h n G [] pols p _). cbn in A, C. now subst.
  - split; intros DV n; specialize (DV n); destruct (N n) as (A & _); congruence.
Qed.

Theorem C73_constructing : forall S (h h' : handler S) G G' p p' w o st,
  SameHandler h h' w -> core_env KStr G no_skip -> con_ok_env KStr G no_skip -> con_ok KStr G no_skip p ->
  TwinEnv G G' -> Twin p p' -> boundary w o ->
  AgreeBuild h h' G G' [] [] p p' w o st.
Proof.
  intros S h h' G G' p p' w o st HH CE CO C TE T B. apply agree_con; [|exact B]. intros n.
  apply (construct_twin G G' no_skip); auto; [apply no_skip_skipper|apply no_skip_implements|exact I].
Qed.
Theorem C73_constructing_skipping : forall S (h h' : handler S) G G' p p' w o st,
  SameHandler h h' w -> core_env KStr G (skip_run NAsciiWhitespace) -> con_ok_env KStr G (skip_run NAsciiWhitespace) ->
  con_ok KStr G (skip_run NAsciiWhitespace) p -> TwinEnv G G' -> Twin p p' -> boundary w o ->
  AgreeBuild h h' G G' skip_ascii_whitespace skip_ascii_whitespace p p' w o st.
Proof.
  intros S h h' G G' p p' w o st HH CE CO C TE T B. apply agree_con; [|exact B]. intros n.
  apply (construct_twin G G' (skip_run NAsciiWhitespace)); auto;
    [apply skip_run_skipper|apply skip_ascii_implements|apply ascii_pols_twin].
Qed.

(** Two such handlers: the text of the match, and the decoded bytes of the match. *)
Definition take_text : handler unit := fun c s st =>
  (match span_orig s c with Ok t => Ok (VText t) | Err e => Err e | Panic => Panic | OOF => OOF end, st).
Definition take_decoded : handler unit := fun c s st =>
  (match span_orig s c with
   | Ok b => match decode b with Some t => Ok (VText t) | None => Err EUtf8Error end
   | Err e => Err e | Panic => Panic | OOF => OOF end, st).
Theorem C73_decoding_handler : forall w, valid_text KStr w = true -> SameHandler take_text take_decoded w.
Proof.
  intros w V x b j st Hx L1 L2. unfold take_text, take_decoded. f_equal.
  assert (span_orig (sp KStr w b j) (on_text w 0) = Ok (firstn (j - b) (skipn b w))) as E.
  { unfold span_orig, orig_sub. cbn [c_kind c_dat on_text sbeg slen sp]. rewrite drop_at_bo by lia.
    replace j with (b + (j - b)) at 1 by lia. rewrite bo_add.
    replace (bo KStr w b + bo KStr (skipn b w) (j - b) - bo KStr w b) with (bo KStr (skipn b w) (j - b)) by lia.
    rewrite take_at_bo by (rewrite skipn_length; lia). reflexivity. }
  change (span_orig (Span (bo KStr w b) (bo KStr w j - bo KStr w b)) (on_text w (bo KStr w x))) with (span_orig (sp KStr w b j) (on_text w 0)).
  change (span_orig (Span (bo KStr w b) (bo KStr w j - bo KStr w b)) (on_bytes w (bo KStr w x))) with (span_orig (sp KStr w b j) (on_bytes w 0)).
  rewrite E. unfold sp in E. rewrite (C73_pieces w _ _ _ E : span_orig (sp KStr w b j) _ = _). change (encoded ?l) with (raw KStr l).
  rewrite raw_decode; [reflexivity|]. unfold valid_text in *. rewrite forallb_forall in *. intros y Hy. apply V.
  assert (In y (skipn b w)) as I1 by (rewrite <- (firstn_skipn (j - b) (skipn b w)); apply in_or_app; now left).
  rewrite <- (firstn_skipn b w). apply in_or_app. now right.
Qed.

(** The restriction on single units is needed: one unit takes a character of the text but only a byte
    of its encoding. *)
Theorem C73_single_wide_unit_differs : ~ Agree [] [] [] [] (POnce NWild CEmpty) (POnce NWild CEmpty) [0xE9%N] 0.
Proof.
  intros (A & _). destruct (A (Ok (Span 0 2)) (on_text [0xE9%N] 2)) as (q & E & _ & (n & R & _)).
  - exists 1. split; [reflexivity|discriminate].
  - destruct n as [|n]; [discriminate R|]. vm_compute in R. discriminate R.
Qed.

(** Not idle: a recursive parser of nested lists of quoted strings, over a text with characters of one,
    two, three and four bytes. *)
Definition ex_quote : item := 0x22%N.
Definition ex_str_p : pat := PEnclose (PMany0 (NNot (NChar ex_quote)) CEmpty) (PLit [0xE9%N; ex_quote]) (PLit [ex_quote]).
Definition ex_str_b : pat := PEnclose (PMany0 (NNot (NChar ex_quote)) CEmpty) (PLit [0xC3%N; 0xA9%N; ex_quote]) (PLit [ex_quote]).
Definition ex_list_p (s : pat) : pat :=
  POr s (PEnclose (PSep (PRef 0) (POnce (NChar 0x2C%N) CEmpty) 0 true) (POnce (NChar 0x5B%N) CEmpty) (POnce (NChar 0x5D%N) CEmpty)).
Definition ex_G : env := [Some (ex_list_p ex_str_p)].
Definition ex_H : env := [Some (ex_list_p ex_str_b)].
(* [é"aéb",[é"\u{20AC}\u{1F600}"]] *)
Definition ex_w : text :=
  [0x5B; 0xE9; 0x22; 0x61; 0xE9; 0x62; 0x22; 0x2C; 0x5B; 0xE9; 0x22; 0x20AC; 0x1F600; 0x22; 0x5D; 0x5D]%N.

Lemma ex_char_twin c : (c < 0x80)%N -> ascii_twin (NChar c) (NChar c).
Proof.
  intros H. split; [reflexivity|]. split.
  - intros x X. assert (is_match (NChar c) x = false) as E by (cbn; apply N.eqb_neq; lia). auto.
  - cbn. now rewrite (proj2 (N.ltb_lt _ _) H).
Qed.
Lemma ex_not_twin c : (c < 0x80)%N -> wide_twin (NNot (NChar c)) (NNot (NChar c)).
Proof.
  intros H. split; [reflexivity|]. intros x X.
  assert (is_match (NNot (NChar c)) x = true) as E by (cbn; apply negb_true_iff, N.eqb_neq; lia). auto.
Qed.
Lemma ex_str_twin : Twin ex_str_p ex_str_b.
Proof.
  apply tw_enclose; [apply tw_many0_wide, ex_not_twin; reflexivity|exact (tw_lit [0xE9%N; ex_quote])|exact (tw_lit [ex_quote])].
Qed.
Lemma ex_twin : Twin (ex_list_p ex_str_p) (ex_list_p ex_str_b).
Proof.
  apply tw_or; [exact ex_str_twin|]. apply tw_enclose; [apply tw_sep; [apply tw_ref|]| |];
    (apply tw_once; [apply ex_char_twin; reflexivity|constructor]).
Qed.
Lemma ex_twins : TwinEnv ex_G ex_H.
Proof. intros [|[|i]]; cbn; [exact ex_twin|exact I|exact I]. Qed.
Lemma ex_in_core sk : core KStr ex_G sk (ex_list_p ex_str_p).
Proof. repeat constructor. Qed.
Lemma ex_env_core sk : core_env KStr ex_G sk.
Proof. intros [|[|i]] p E; cbn in E; try discriminate. injection E as <-. apply ex_in_core. Qed.
Lemma ex_in_ok sk : con_ok KStr ex_G sk (ex_list_p ex_str_p).
Proof.
  apply ok_or; (apply ok_enclose; [|repeat constructor..]).
  - apply ok_leaf; repeat constructor.
  - apply ok_sep; [apply ok_ref|repeat constructor].
Qed.
Lemma ex_env_ok sk : con_ok_env KStr ex_G sk.
Proof. intros [|[|i]] p E; cbn in E; try discriminate. injection E as <-. apply ex_in_ok. Qed.

Example same_on_bytes : Agree ex_G ex_H [] [] (PRef 0) (PRef 0) ex_w 0.
Proof. apply C73_matching; [apply ex_env_core|constructor|exact ex_twins|constructor|]. exists 0. split; [cbn; lia|reflexivity]. Qed.
Example skipping_bytes : Agree ex_G ex_H skip_ascii_whitespace skip_ascii_whitespace (PRef 0) (PRef 0) ex_w 0.
Proof. apply C73_skipping; [apply ex_env_core|constructor|exact ex_twins|constructor|]. exists 0. split; [cbn; lia|reflexivity]. Qed.
Example text_matches : Returns ex_G [] (PRef 0) (on_text ex_w 0) (Ok (Span 0 24)) (on_text ex_w 24).
Proof. exists 30. split; [vm_compute; reflexivity|discriminate]. Qed.
Example bytes_match : Returns ex_H [] (PRef 0) (on_bytes ex_w 0) (Ok (Span 0 24)) (on_bytes ex_w 24).
Proof. exists 30. split; [vm_compute; reflexivity|discriminate]. Qed.
Example same_values : AgreeBuild take_text take_decoded ex_G ex_H [] [] (PRef 0) (PRef 0) ex_w 0 tt.
Proof.
  apply C73_constructing; [apply C73_decoding_handler; reflexivity|apply ex_env_core|apply ex_env_ok|apply ok_ref|exact ex_twins|constructor|].
  exists 0. split; [cbn; lia|reflexivity].
Qed.
Definition ex_value : val :=
  VList [VText [0x61; 0xE9; 0x62]%N; VList [VText [0x20AC; 0x1F600]%N]].
Example text_value : Builds take_text ex_G [] (PRef 0) (on_text ex_w 0) tt (Ok ex_value) (on_text ex_w 24) tt.
Proof. exists 30. split; [vm_compute; reflexivity|discriminate]. Qed.
Example bytes_value : Builds take_decoded ex_H [] (PRef 0) (on_bytes ex_w 0) tt (Ok ex_value) (on_bytes ex_w 24) tt.
Proof. exists 30. split; [vm_compute; reflexivity|discriminate]. Qed.
Example a_piece : span_orig (Span 1 3) (on_text ex_w 0) = Ok [0xE9%N; 0x22%N] /\
  span_orig (Span 1 3) (on_bytes ex_w 0) = Ok [0xC3%N; 0xA9%N; 0x22%N].
Proof. split; vm_compute; reflexivity. Qed.

Print Assumptions C73_matching.
Print Assumptions C73_skipping.
Print Assumptions C73_pieces.
Print Assumptions C73_constructing.
Print Assumptions C73_constructing_skipping.
Print Assumptions C73_decoding_handler.
Print Assumptions C73_single_wide_unit_differs.
