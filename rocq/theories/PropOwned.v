(** Property C75: the JSON parser with owned strings (bench/json.rs). *)

From Coq Require Import List Arith NArith ZArith Bool Lia.
From Verif Require Import Base Text Context Neu Syntax Regex Ctor Api TextProofs Spec Core Sound Obs Term TermLaws CtorSpec CtorLaws
  PolicyLaws MapLaws Maps Utf8Sim ConSpec ConCalm ConTerm PropCon ApiLaws Samples RecLaws Lang Json JsonLaws JsonOwned OwnedLaws PropJson.
Import ListNotations.

(** The parser run from the start of the bytes [w]. *)
Definition OwnedParses (f64 : text -> val) (w : text) (r : res val) (c : ctx) : Prop :=
  Builds extract_text (o_env f64) [] (PRef 0) (Ctx KBytes w 0) tt r c tt.

Lemma ref_scope f64 : InPlainScope KBytes (o_env f64) slice_answer extract_text (PRef 0).
Proof. apply owned_scope. apply ok_ref. Qed.
Lemma owned_calm f64 : forall x q, env_get (o_env f64) x = Some q -> calm q.
Proof.
  assert (M : forall p f, calm p -> (forall v, exists x, f v = Ok x) -> calm (PMap p f)).
  { intros p f C H. apply calm_map; [exact C|]. intros v. destruct (H v) as [x ->]. split; discriminate. }
  assert (T : forall p, calm p -> calm (PMap p o_to_str)) by (intros p C; apply calm_map; [exact C|apply to_str_fine]).
  assert (TG : forall p n, calm p -> calm (PMap p (tagged n))) by (intros p n C; apply M; [exact C|intros v; eexists; reflexivity]).
  assert (ST : forall p, calm p -> calm (PMap p o_string)) by (intros p C; apply M; [exact C|intros v; eexists; reflexivity]).
  assert (W : forall l v, calm (PMap (PLit l) (fun _ => Ok v))) by (intros l v; apply M; [apply calm_leaf; exact I|intros; eexists; reflexivity]).
  assert (E : calm (o_ele f64)).
  { apply calm_wrap, calm_prefix, calm_suffix. repeat apply calm_or; try apply W; [| |apply calm_ref].
    - apply calm_wrap, TG, calm_map; [apply T, calm_pat|intros v; apply f64_fine].
    - apply calm_wrap, calm_enclose, TG, ST, T, calm_pat. }
  intros [|x] q H; [injection H as <-|destruct x; discriminate H]. apply calm_wrap, calm_or.
  - apply calm_wrap, TG, calm_enclose, calm_sep, calm_seponce; [|exact E]. apply calm_prefix, calm_suffix, calm_enclose, ST, T, calm_leaf. exact I.
  - apply TG, calm_enclose, calm_sep. exact E.
Qed.

(** It always returns, never panics, and its answer is determined by the bytes. *)
Theorem C75_total : forall f64 w, exists r c, OwnedParses f64 w r c /\ r <> Panic /\ r <> OOF /\
  forall r' c', OwnedParses f64 w r' c' -> r' = r /\ c' = c.
Proof.
  intros f64 w.
  destruct (C70_returns unit KBytes (o_env f64) no_skip [] slice_answer extract_text (fun _ => true) (fun _ => true) (fun _ => 0) 1 1 (PRef 0) w 0 tt (ref_scope f64) ltac:(lia))
    as (r & c & [] & B).
  - intros [|x] q E _; [injection E as <-; reflexivity|destruct x; discriminate E].
  - intros [|x] q E _; [injection E as <-; reflexivity|destruct x; discriminate E].
  - intros [|x] q E; [injection E as <-; split; reflexivity|destruct x; discriminate E].
  - reflexivity.
  - exists r, c. rewrite cx_bytes in B by lia. split; [exact B|]. split; [|split].
    + intros ->. revert B. rewrite <- (cx_bytes w 0) by lia. apply (C70_no_panic unit KBytes (o_env f64) no_skip [] slice_answer extract_text (PRef 0) w 0 tt c tt (ref_scope f64)).
      * lia.
      * apply calm_ref.
      * apply owned_calm.
      * intros. split; discriminate.
    + destruct B as (n & _ & H). exact H.
    + intros r' c' B'. destruct (builds_det _ _ _ _ _ _ _ _ _ _ _ _ B B') as (-> & -> & _). auto.
Qed.

(** What it accepts: the text begins with the spelling of an array or object all of whose strings are
    UTF-8, followed by anything; the value has the strings as characters; the cursor is behind it. *)
Theorem C75_accepts : forall f64 w x c, OwnedParses f64 w (Ok x) c <->
  exists v s t, w = s ++ t /\ Spell (in_utf8 v) s /\ unicode_strings v /\ is_container v = true /\
    x = as_val f64 v /\ c = Ctx KBytes w (length s).
Proof.
  intros f64 w x c. split.
  - intros B. unfold OwnedParses in B. rewrite <- (cx_bytes w 0) in B by lia.
    destruct (C70_outcomes unit KBytes (o_env f64) no_skip [] slice_answer extract_text (PRef 0) w 0 tt _ _ _ (ref_scope f64) ltac:(lia) B)
      as [X|(y & j & -> & (E & L1 & L2) & _ & [(v & [= <-] & T)|(e & X & _)])]; [discriminate| |discriminate].
    cbn in E. unfold no_skip in E. subst y.
    destruct (owned_sound f64 (j - 0) w 0 x j (le_n _) ltac:(lia) T) as (u & C & -> & V & S).
    exists u, (slice w 0 j), (skipn j w). rewrite cx_bytes by assumption.
    pose proof (skipn_slice w 0 j ltac:(lia) L1) as E. cbn [skipn] in E.
    assert (LS : List.length (slice w 0 j) = j) by (apply (Lang.slice_length w 0 j); lia). rewrite LS. apply is_container_ok in C. auto 8.
  - intros (v & s & t & -> & S & V & C & -> & ->).
    assert (C' : container (in_utf8 v)) by (destruct v; try discriminate C; exact I).
    pose proof (proj1 (proj1 (owned_complete f64) _ s S v (s ++ t) 0 t eq_refl V eq_refl ltac:(lia)) C') as T.
    cbn [Nat.add] in T. unfold OwnedParses. rewrite <- (cx_bytes (s ++ t) 0), <- (cx_bytes (s ++ t) (length s)) by (rewrite ?app_length; lia).
    apply (C70_built unit KBytes (o_env f64) slice_answer extract_text (PRef 0) (s ++ t) 0 tt _ _ tt (ref_scope f64)); [lia|rewrite app_length; lia|exact T].
Qed.

(** Everything else is an error with the cursor at the start. *)
Theorem C75_rejects : forall f64 w, (exists e, OwnedParses f64 w (Err e) (Ctx KBytes w 0)) <->
  forall v s t, w = s ++ t -> Spell (in_utf8 v) s -> unicode_strings v -> is_container v = false.
Proof.
  intros f64 w. destruct (C75_total f64 w) as (r & c & B & NP & NO & U). split.
  - intros (e & B') v s t -> S V. destruct (is_container v) eqn:C; [|reflexivity]. exfalso.
    destruct (U _ _ B') as [<- <-].
    assert (B2 : OwnedParses f64 (s ++ t) (Ok (as_val f64 v)) (Ctx KBytes (s ++ t) (length s))) by (apply C75_accepts; eauto 10).
    destruct (U _ _ B2) as [X _]. discriminate.
  - intros H. destruct r as [x|e| |]; try congruence.
    + exfalso. apply C75_accepts in B as (v & s & t & E & S & V & C & _). rewrite (H v s t E S V) in C. discriminate.
    + exists e. enough (c = Ctx KBytes w 0) by (subst; exact B).
      pose proof B as B'. unfold OwnedParses in B'. rewrite <- (cx_bytes w 0) in B' by lia.
      destruct (C70_outcomes unit KBytes (o_env f64) no_skip [] slice_answer extract_text (PRef 0) w 0 tt _ _ _ (ref_scope f64) ltac:(lia) B')
        as [X|(y & j & -> & (E & L1 & L2) & _ & [(v & X & T)|(e' & [= <-] & T)])]; [discriminate|discriminate|].
      cbn in E. unfold no_skip in E. subst y. apply ref_undo in T. subst j. now rewrite cx_bytes by lia.
Qed.

(** ** Against the parser that borrows (C55) *)
Definition utf8_strings (v : json) : Prop := forall s, In s (strings v) -> exists t, valid_text KStr t = true /\ s = flat_map utf8 t.
Lemma utf8_of v : utf8_strings v -> exists u, in_utf8 u = v /\ unicode_strings u.
Proof.
  induction v as [|b|s|s|l IH|l IH] using json_induct; intros H.
  - exists JNull. split; [reflexivity|intros t []].
  - exists (JBool b). split; [reflexivity|intros t []].
  - destruct (H s (or_introl eq_refl)) as (t & V & ->). exists (JStr t). split; [reflexivity|]. intros y [<-|[]]. exact V.
  - exists (JNum s). split; [reflexivity|intros t []].
  - assert (X : exists us, map in_utf8 us = l /\ Forall unicode_strings us).
    { induction l as [|x l IHl]; [exists []; auto|].
      destruct (IH x (or_introl eq_refl)) as (u & <- & U1). { intros s I. apply H. cbn. apply in_or_app. now left. }
      destruct IHl as (us & <- & U2). { intros y I. apply IH. now right. } { intros s I. apply H. cbn. apply in_or_app. now right. }
      exists (u :: us). auto. }
    destruct X as (us & <- & U). exists (JArr us). split; [reflexivity|]. now apply arr_strings.
  - assert (X : exists us, map (fun m => (fst m, in_utf8 (snd m))) us = l /\ Forall (fun m : text * json => unicode_strings (snd m)) us).
    { induction l as [|[key x] l IHl]; [exists []; auto|].
      destruct (IH (key, x) (or_introl eq_refl)) as (u & E & U1). { intros s I. apply H. cbn. apply in_or_app. now left. }
      cbn in E. subst x.
      destruct IHl as (us & <- & U2). { intros y I. apply IH. now right. } { intros s I. apply H. cbn. apply in_or_app. now right. }
      exists ((key, u) :: us). auto. }
    destruct X as (us & <- & U). exists (JObj us). split; [reflexivity|]. now apply obj_strings.
Qed.
Lemma of_utf8 u : unicode_strings u -> utf8_strings (in_utf8 u).
Proof.
  induction u as [|b|s|s|l IH|l IH] using json_induct; intros H t I; try (now destruct I).
  - destruct I as [<-|[]]. exists s. split; [apply H; now left|reflexivity].
  - cbn in I. apply in_flat_map in I as (x & I1 & I2). apply in_map_iff in I1 as (u & <- & I1).
    apply (IH u I1); [|exact I2]. intros y Iy. apply H. cbn. apply in_flat_map. eauto.
  - cbn in I. apply in_flat_map in I as (x & I1 & I2). apply in_map_iff in I1 as (u & <- & I1).
    apply (IH u I1); [|exact I2]. intros y Iy. apply H. cbn. apply in_flat_map. eauto.
Qed.
Lemma container_utf8 v : is_container (in_utf8 v) = is_container v.
Proof. now destruct v. Qed.

(** What one accepts with this cursor, the other accepts with the same cursor if and only if every
    string is UTF-8. *)
Theorem C75_borrowed : forall f64 w v c, JsonParses VText w (Ok (as_val VText v)) c ->
  ((exists x, OwnedParses f64 w (Ok x) c) <-> utf8_strings v) /\
  ((exists x c', OwnedParses f64 w (Ok x) c') -> utf8_strings v).
Proof.
  intros f64 w v c B. destruct (C55_sound _ _ _ _ B) as [(v' & s & t & -> & S & C & E & ->)|(e & E & _)]; [|discriminate].
  injection E as E. apply as_val_inj in E. subst v'.
  assert (H : (exists x c', OwnedParses f64 (s ++ t) (Ok x) c') -> utf8_strings v).
  { intros (x & c' & B'). apply C75_accepts in B' as (u & s' & t' & E & S' & V & C' & _).
    rewrite <- container_utf8 in C'. destruct (C55_prefix_free _ _ _ _ _ _ C C' S S' E) as [-> _]. now apply of_utf8. }
  split; [|exact H]. split; [intros [x B']; eauto|].
  intros U. destruct (utf8_of v U) as (u & <- & V). exists (as_val f64 u). apply C75_accepts. exists u, s, t.
  rewrite container_utf8 in C. auto 8.
Qed.
Theorem C75_not_more : forall f64 w x c, OwnedParses f64 w (Ok x) c -> exists v, JsonParses VText w (Ok (as_val VText v)) c /\ utf8_strings v.
Proof.
  intros f64 w x c B. apply C75_accepts in B as (v & s & t & -> & S & V & C & _ & ->). exists (in_utf8 v). split; [|now apply of_utf8].
  apply C55_complete; [exact S|]. now rewrite container_utf8.
Qed.

(** ** Strings of any characters *)
Lemma body_cons c s : c <> 34%N -> c <> 92%N -> Body s -> Body (c :: s).
Proof. apply body_char. Qed.
Lemma body_wide l s : (forall b, In b l -> 0x80 <= b)%N -> Body s -> Body (l ++ s).
Proof.
  intros H B. induction l as [|b l IH]; [exact B|]. cbn. specialize (H b (or_introl eq_refl)) as Hb. apply body_char; [lia..|].
  apply IH. intros y I. apply H. now right.
Qed.
Lemma escaped_ascii e : escaped e = true -> (e < 0x80)%N.
Proof. unfold escaped. rewrite existsb_exists. intros (x & I & E). apply N.eqb_eq in E. subst. cbn in I. lia. Qed.
Lemma body_head s : Body s -> forall c r, s = c :: r -> c <> 34%N.
Proof. intros B c r E. destruct B; inversion E; subst; auto; discriminate. Qed.
Lemma body_utf8 t : Body t -> Body (flat_map utf8 t).
Proof.
  induction 1 as [|e s E B IH|c s N1 N2 B IH|e s E B IH]; [constructor| | |].
  - cbn [flat_map]. rewrite (utf8_ascii 92), (utf8_ascii e) by (try lia; now apply escaped_ascii). cbn. now apply body_escape.
  - cbn [flat_map]. destruct (N.lt_ge_cases c 0x80) as [L|L].
    + rewrite utf8_ascii by exact L. now apply body_char.
    + apply body_wide; [|exact IH]. now apply utf8_wide.
  - cbn [flat_map] in *. rewrite (utf8_ascii 92) by lia. cbn [app]. destruct (N.lt_ge_cases e 0x80) as [L|L].
    + rewrite utf8_ascii in * by exact L. cbn [app] in *. now apply body_backslash.
    + destruct (utf8_wide e L) as [NE W]. destruct (utf8 e) as [|b l]; [congruence|]. cbn [app] in *. apply body_backslash; [|exact IH].
      destruct (escaped b) eqn:X; [|reflexivity]. apply escaped_ascii in X. specialize (W b (or_introl eq_refl)). lia.
Qed.
(** A string written in UTF-8 between quotes is returned character by character. *)
Theorem C75_string : forall f64 t rest, Body t -> valid_text KStr t = true ->
  OwnedParses f64 (91%N :: 34%N :: flat_map utf8 t ++ 34%N :: 93%N :: rest) (Ok (VPair (VNum 4) (VList [VPair (VNum 2) (VText t)])))
    (Ctx KBytes (91%N :: 34%N :: flat_map utf8 t ++ 34%N :: 93%N :: rest) (length (flat_map utf8 t) + 4)).
Proof.
  intros f64 t rest B V. apply C75_accepts. exists (JArr [JStr t]), (91%N :: (34%N :: flat_map utf8 t ++ [34%N]) ++ [93%N]), rest.
  split; [cbn [app]; now rewrite <- !app_assoc|]. split.
  - cbn [in_utf8 map]. apply spell_arr. pose proof (elems_last (JStr (flat_map utf8 t)) [] (34%N :: flat_map utf8 t ++ [34%N]) [] []) as X.
    cbn [app] in X. rewrite app_nil_r in X. apply X; [intros y []|apply spell_str; now apply body_utf8|intros y []|now left].
  - split; [intros y I; cbn in I; destruct I as [<-|[]]; exact V|]. split; [reflexivity|]. split; [reflexivity|].
    f_equal. cbn [app length]. rewrite !app_length. cbn. lia.
Qed.

(** The value of examples with a two-byte character; the same bytes cut off inside it are refused by this
    parser only. *)
Example C75_case :
  let good := [123; 34; 107; 34; 58; 91; 49; 44; 34; 0xC3; 0xA9; 34; 93; 125]%N in
  let bad := [91; 49; 44; 34; 0xC3; 34; 93]%N in
  OwnedParses VText good (Ok (as_val VText (JObj [([107]%N, JArr [JNum [49]%N; JStr [0xE9]%N])]))) (Ctx KBytes good 14) /\
  (exists e, OwnedParses VText bad (Err e) (Ctx KBytes bad 0)) /\
  JsonParses VText bad (Ok (as_val VText (JArr [JNum [49]%N; JStr [0xC3]%N]))) (Ctx KBytes bad 7) /\
  Body [233; 92; 34; 0x1F600]%N.
Proof.
  split; [|split; [|split]].
  - exists 60. split; [vm_compute; reflexivity|discriminate].
  - eexists. exists 60. split; [vm_compute; reflexivity|discriminate].
  - exists 60. split; [vm_compute; reflexivity|discriminate].
  - apply body_char; [discriminate..|]. apply body_escape; [reflexivity|]. apply body_char; [discriminate..|constructor].
Qed.

Print Assumptions C75_total.
Print Assumptions C75_accepts.
Print Assumptions C75_rejects.
Print Assumptions C75_borrowed.
Print Assumptions C75_not_more.
Print Assumptions C75_string.
