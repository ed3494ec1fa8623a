(** The grammar of JsonOwned.v against the spellings of Json.v. *)

From Coq Require Import List Arith NArith ZArith Bool Lia.
From Verif Require Import Base Text Context Neu Syntax Regex Ctor Api TextProofs Spec Core Sound Obs Laws PegLaws
  Term TermLaws CtorShape CtorSpec CtorLaws Lang PolicyLaws UnitProps MapLaws Maps ConSpec ConComplete ConCalm PropCon Samples RecLaws Json JsonLaws JsonOwned.
Import ListNotations.

Definition slice_answer (w : text) (b j : nat) (s : unit) : res val * unit := (Ok (VText (slice w b j)), s).
Lemma slice_answers k sk : answers k sk slice_answer extract_text.
Proof.
  intros w x b j st (_ & H2 & Hx) H1. destruct (extract_text_slice k w x b j st Hx H1 H2) as (v & E & V). split; [|discriminate].
  rewrite (surjective_pairing (extract_text _ _ _)), E. unfold slice_answer. unfold is_slice in V. rewrite V. now destruct st, (snd _).
Qed.

(** ** ASCII decodes to itself *)
Lemma decode_ascii s : all (fun x => x <? 128)%N s -> decode s = Some s.
Proof.
  induction s as [|x s IH]; intros A; [reflexivity|]. cbn [decode].
  rewrite (A x (or_introl eq_refl)). rewrite IH; [reflexivity|]. intros y I. apply A. now right.
Qed.
Lemma all_weaken (f g : item -> bool) s : (forall x, f x = true -> g x = true) -> all f s -> all g s.
Proof. intros H A x I. auto. Qed.
Lemma digit_ascii x : dec_digit x = true -> (x <? 128)%N = true.
Proof. unfold dec_digit. rewrite andb_true_iff, !N.leb_le, N.ltb_lt. lia. Qed.
Lemma key_ascii x : key_char x = true -> (x <? 128)%N = true.
Proof.
  unfold key_char, dec_digit. rewrite !orb_true_iff, !andb_true_iff, !N.leb_le, N.eqb_eq, N.ltb_lt. lia.
Qed.
Lemma decode_key s : all key_char s -> decode s = Some s.
Proof. intros A. apply decode_ascii. eapply all_weaken; [exact key_ascii|exact A]. Qed.
Lemma decode_numeral s : Numeral s -> decode s = Some s.
Proof.
  intros [sg ds fr SG _ D FR]. apply decode_ascii. rewrite !all_app. split; [|split].
  - destruct SG as [->|[->| ->]]; intros x I; cbn in I; [destruct I|destruct I as [<-|[]]; reflexivity..].
  - eapply all_weaken; [exact digit_ascii|exact D].
  - destruct FR as [->|(f & -> & _ & F)]; intros x I; [destruct I|]. destruct I as [<-|I]; [reflexivity|]. apply digit_ascii. auto.
Qed.

Lemma osign_class x : is_match (NOr (NChar 43%N) (NChar 45%N)) x = is_sign x.
Proof. cbn [is_match]. unfold is_sign. now rewrite (N.eqb_sym 43), (N.eqb_sym 45). Qed.
Lemma oescaped_class x : is_match o_escaped x = escaped x.
Proof.
  apply bool_iff. rewrite unit_set. unfold escaped. rewrite existsb_In. cbn [o_escaped UnitSet In].
  split; intros H; repeat destruct H as [H|H]; auto 8; contradiction.
Qed.

Section Grammar.
  Variable f64 : text -> val.
  Let G := o_env f64.
  Notation Peg := (Peg KBytes G no_skip).
  Notation Con := (Con KBytes G no_skip slice_answer).
  Notation Cseps := (Cseps KBytes G no_skip slice_answer).
  Notation con_ok := (con_ok KBytes G no_skip).
  Notation num := (o_num f64).
  Notation scalar := (o_scalar f64).
  Notation ele := (o_ele f64).
  Notation mem := (o_member f64).
  Let lit_at := leaf_lit_at G.
  Let lit_not := leaf_lit_not G.
  Let ws_at := leaf_ws_at G.
  Let many1_at := leaf_many1_at G.

  (** *** The shape of the grammar *)
  Lemma to_str_fine v : o_to_str v <> Panic /\ o_to_str v <> OOF.
  Proof. destruct v; cbn; try (split; discriminate). destruct (decode _); split; discriminate. Qed.
  Lemma f64_fine v : o_f64 f64 v <> Panic /\ o_f64 f64 v <> OOF.
  Proof. destruct v; cbn; split; discriminate. Qed.
  Ltac okt := first [apply to_str_fine | apply f64_fine | intros []; split; discriminate | discriminate].
  Lemma num_ok : con_ok num.
  Proof.
    apply ok_wrap, ok_map; [apply ok_map; [apply ok_map; [apply ok_pat; shape|intros v; apply to_str_fine]|intros v; apply f64_fine]|discriminate].
  Qed.
  Lemma body_ok : con_ok (PMap (PMap (PMap (PPat o_body) o_to_str) o_string) (tagged 2)).
  Proof. apply ok_map; [apply ok_map; [apply ok_map; [apply ok_pat; shape|intros v; apply to_str_fine]|discriminate]|discriminate]. Qed.
  Lemma str_ok : con_ok o_str.
  Proof. apply ok_wrap, ok_enclose; [exact body_ok|shape..]. Qed.
  Lemma lit_ok l v : con_ok (PMap (PLit l) (fun _ => Ok v)).
  Proof. apply ok_map; [|discriminate]. apply ok_leaf; [exact I|shape]. Qed.
  Lemma scalar_ok : con_ok scalar.
  Proof.
    apply ok_or; [exact num_ok|]. apply ok_or; [exact str_ok|]. apply ok_or; [apply lit_ok|]. apply ok_or; [apply lit_ok|].
    apply ok_or; [apply lit_ok|apply ok_ref].
  Qed.
  Lemma ele_ok : con_ok ele.
  Proof. apply ok_wrap, ok_prefix; [apply ok_suffix; [exact scalar_ok|shape]|shape]. Qed.
  Lemma keychars_ok : con_ok (PMap (PMap (PMany1 j_keychars CEmpty) o_to_str) o_string).
  Proof. apply ok_map; [apply ok_map; [apply ok_leaf; [exact I|shape]|intros v; apply to_str_fine]|discriminate]. Qed.
  Lemma quoted_ok : con_ok (PEnclose (PMap (PMap (PMany1 j_keychars CEmpty) o_to_str) o_string) j_quote j_quote).
  Proof. apply ok_enclose; [exact keychars_ok|shape..]. Qed.
  Lemma key_ok : con_ok o_key.
  Proof. apply ok_prefix; [apply ok_suffix; [exact quoted_ok|shape]|shape]. Qed.
  Lemma mem_ok : con_ok mem.
  Proof. apply ok_seponce; [exact key_ok|shape|exact ele_ok]. Qed.
  Lemma obj_ok : con_ok (o_obj f64).
  Proof. apply ok_wrap, ok_map; [apply ok_enclose; [apply ok_sep; [exact mem_ok|shape]|shape..]|discriminate]. Qed.
  Lemma array_ok : con_ok (o_array f64).
  Proof. apply ok_map; [apply ok_enclose; [apply ok_sep; [exact ele_ok|shape]|shape..]|discriminate]. Qed.
  Lemma owned_ok : con_ok_env KBytes G no_skip.
  Proof. intros [|x] p E; [injection E as <-|destruct x; discriminate]. apply ok_wrap, ok_or; [exact obj_ok|exact array_ok]. Qed.
  Lemma owned_core : core_env KBytes G no_skip.
  Proof. closed_env. shape. Qed.
  Lemma owned_static : static_env G.
  Proof. closed_env. shape. Qed.
  Lemma owned_scope p : con_ok p -> InPlainScope KBytes G slice_answer extract_text p.
  Proof.
    intros H. constructor; [apply no_skip_skipper|apply no_skip_implements|exact owned_core|exact owned_ok|exact H|apply slice_answers].
  Qed.

  (** *** Derived rules *)
  Lemma or2v w p q i e x v j : Con w p i tt (CE e x tt) -> Con w q i tt (CV v j tt) -> Con w (POr p q) i tt (CV v j tt).
  Proof. intros A B. exact (Con_or2 _ _ _ _ _ _ _ _ _ _ _ _ _ A B). Qed.
  Lemma or2e w p q i e x e' y : Con w p i tt (CE e x tt) -> Con w q i tt (CE e' y tt) -> Con w (POr p q) i tt (CE e' i tt).
  Proof. intros A B. exact (Con_or2 _ _ _ _ _ _ _ _ _ _ _ _ _ A B). Qed.
  Lemma mapv w p f i v v' j : Con w p i tt (CV v j tt) -> f v = Ok v' -> Con w (PMap p f) i tt (CV v' j tt).
  Proof. intros A B. pose proof (Con_map KBytes G no_skip slice_answer w p f i tt v j tt A) as H. rewrite B in H. exact H. Qed.
  Lemma mape w p f i e x : Con w p i tt (CE e x tt) -> Con w (PMap p f) i tt (CE e x tt).
  Proof. intros A. apply Con_map_stops; [exact A|exact I]. Qed.
  Lemma prefixv w p q i b j v j' : Peg w q i (OK b j) -> Con w p j tt (CV v j' tt) -> Con w (PPrefix p q) i tt (CV v j' tt).
  Proof. intros A B. exact (Con_prefix _ _ _ _ _ _ _ _ _ _ _ _ A B). Qed.
  Lemma prefixe w p q i b j e x : Peg w q i (OK b j) -> Con w p j tt (CE e x tt) -> Con w (PPrefix p q) i tt (CE e i tt).
  Proof. intros A B. exact (Con_prefix _ _ _ _ _ _ _ _ _ _ _ _ A B). Qed.
  Lemma suffixe w p q i e x : Con w p i tt (CE e x tt) -> Con w (PSuffix p q) i tt (CE e i tt).
  Proof. intros A. exact (Con_suffix1 _ _ _ _ _ _ _ _ _ _ A I). Qed.
  Lemma seponcee w p q r i e x : Con w p i tt (CE e x tt) -> Con w (PSepOnce p q r) i tt (CE e i tt).
  Proof. intros A. exact (Con_seponce1 _ _ _ _ _ _ _ _ _ _ _ A I). Qed.
  Lemma patv w p i j : Peg w p i (OK i j) -> Con w (PPat p) i tt (CV (VText (slice w i j)) j tt).
  Proof. intros A. exact (Con_pat _ _ _ _ _ _ _ _ _ _ A). Qed.
  Lemma leafv w p i j : leafy p -> Peg w p i (OK i j) -> Con w p i tt (CV (VText (slice w i j)) j tt).
  Proof. intros L A. exact (Con_leaf _ _ _ _ _ _ _ _ _ _ L A). Qed.
  Lemma sepv w p q i vs j : Cseps w p q true None i tt (LV vs j tt) -> vs <> [] -> Con w (PSep p q 1 true) i tt (CV (VList vs) j tt).
  Proof.
    intros A N. pose proof (Con_sep KBytes G no_skip slice_answer w p q 1 true i tt _ A) as H. cbn [count_ok] in H.
    destruct vs; [congruence|]. exact H.
  Qed.
  Lemma stepv w p q i v j b j' vs y : Con w p i tt (CV v j tt) -> Peg w q j (OK b j') -> Cseps w p q true None j' tt (LV vs y tt) ->
    Cseps w p q true None i tt (LV (v :: vs) y tt).
  Proof. intros A B C. refine (Cseps_step _ _ _ _ w p q true None i tt v j tt b j' _ _ A B C). discriminate. Qed.
  Lemma lastv w p q i v j e : Con w p i tt (CV v j tt) -> Peg w q j (KO e) -> Cseps w p q true None i tt (LV [v] j tt).
  Proof. intros A B. refine (Cseps_last _ _ _ _ w p q true None i tt v j tt e _ A B). discriminate. Qed.
  Lemma stopv w p q i e x : Con w p i tt (CE e x tt) -> Cseps w p q true None i tt (LV [] x tt).
  Proof. intros A. refine (Cseps_stop _ _ _ _ w p q true None i tt e x tt _ A). discriminate. Qed.

  (** *** What does not start *)
  Definition Not (w : text) (p : pat) (i : nat) : Prop := exists e, Con w p i tt (CE e i tt).
  Lemma num_not w i : stops (fun x => is_sign x || dec_digit x) (skipn i w) -> Not w num i.
  Proof.
    intros S. destruct (leaf_numeral_not G _ osign_class w i S) as [e P]. exists e. apply Con_wrap, mape, mape, mape. now apply Con_pat_ko.
  Qed.
  Lemma str_not w i : hd_error (skipn i w) <> Some 34%N -> Not w o_str i.
  Proof. intros N. eexists. apply Con_wrap, Con_enclose_ko1. apply lit_not. exact N. Qed.
  Lemma word_not w i a l f : hd_error (skipn i w) <> Some a -> Not w (PMap (PLit (a :: l)) f) i.
  Proof. intros N. eexists. apply mape. apply Con_leaf_ko; [exact I|]. apply lit_not. exact N. Qed.
  Lemma obj_not w i : hd_error (skipn i w) <> Some 123%N -> Not w (o_obj f64) i.
  Proof. intros N. eexists. apply Con_wrap, mape, Con_enclose_ko1, lit_not. exact N. Qed.
  Lemma array_not w i : hd_error (skipn i w) <> Some 91%N -> Not w (o_array f64) i.
  Proof. intros N. eexists. apply mape, Con_enclose_ko1, lit_not. exact N. Qed.
  Lemma or_not w p q i : Not w p i -> Not w q i -> Not w (POr p q) i.
  Proof. intros [e A] [e' B]. exists e'. eapply or2e; eauto. Qed.
  Lemma or_skip w p q i v j : Not w p i -> Con w q i tt (CV v j tt) -> Con w (POr p q) i tt (CV v j tt).
  Proof. intros [e A] B. eapply or2v; eauto. Qed.
  Lemma ref_not w i : hd_error (skipn i w) <> Some 123%N -> hd_error (skipn i w) <> Some 91%N -> Not w (PRef 0) i.
  Proof.
    intros N1 N2. destruct (or_not w _ _ i (obj_not w i N1) (array_not w i N2)) as [e P].
    exists e. eapply Con_ref; [reflexivity|]. apply Con_wrap. exact P.
  Qed.
  Lemma scalar_not w i x r : skipn i w = x :: r -> x = 93%N \/ x = 125%N -> Not w scalar i.
  Proof.
    intros E X.
    assert (N : forall a, a <> 93%N -> a <> 125%N -> hd_error (skipn i w) <> Some a).
    { intros a A1 A2. rw E. cbn. intros [= ->]. destruct X; congruence. }
    repeat apply or_not; [|apply str_not|apply word_not..|apply ref_not]; try (apply N; discriminate).
    apply num_not. rw E. destruct X as [->| ->]; reflexivity.
  Qed.
  Lemma ele_not w i x r : skipn i w = x :: r -> x = 93%N \/ x = 125%N -> Not w ele i.
  Proof.
    intros E X. destruct (scalar_not w i x r E X) as [e P]. exists e. apply Con_wrap. eapply prefixe.
    - eapply (ws_at w i [] (x :: r)); [exact E|intros y []|]. destruct X as [->| ->]; reflexivity.
    - cbn [length]. rewrite Nat.add_0_r. eapply suffixe. exact P.
  Qed.
  Lemma mem_not w i x r : skipn i w = x :: r -> x = 93%N \/ x = 125%N -> Not w mem i.
  Proof.
    intros E X. eexists. eapply seponcee. eapply prefixe.
    - eapply (ws_at w i [] (x :: r)); [exact E|intros y []|]. destruct X as [->| ->]; reflexivity.
    - cbn [length]. rewrite Nat.add_0_r. eapply suffixe. apply Con_enclose_ko1, lit_not. unfold no_skip. rw E. cbn.
      destruct X as [->| ->]; discriminate.
  Qed.

  (** *** Completeness *)
  Definition Ospell (v : json) (s : text) : Prop := forall u w i t, in_utf8 u = v -> unicode_strings u -> skipn i w = s ++ t -> i <= length w ->
    (container v -> Con w (PRef 0) i tt (CV (as_val f64 u) (i + length s) tt)) /\
    (stops numchar t -> Con w scalar i tt (CV (as_val f64 u) (i + length s) tt)).
  Definition Oelems (l : list json) (s : text) : Prop := forall us w i t, map in_utf8 us = l -> Forall unicode_strings us ->
    skipn i w = s ++ 93%N :: t -> i <= length w ->
    Cseps w ele (PLit [44]%N) true None i tt (LV (map (as_val f64) us) (i + length s) tt).
  Definition Omembers (l : list (text * json)) (s : text) : Prop := forall us w i t, map (fun m => (fst m, in_utf8 (snd m))) us = l ->
    Forall (fun m => unicode_strings (snd m)) us -> skipn i w = s ++ 125%N :: t -> i <= length w ->
    Cseps w mem (PLit [44]%N) true None i tt (LV (map (fun m => VPair (VText (fst m)) (as_val f64 (snd m))) us) (i + length s) tt).
  Definition Omember (key : text) (v : json) (m : text) : Prop := forall u w i t x, in_utf8 u = v -> unicode_strings u ->
    skipn i w = m ++ x :: t -> closes x -> i <= length w ->
    Con w mem i tt (CV (VPair (VText key) (as_val f64 u)) (i + length m) tt).

  Lemma ele_at v a s b u w i t x : spaces a -> Spell v s -> Ospell v s -> spaces b -> closes x -> in_utf8 u = v -> unicode_strings u ->
    skipn i w = (a ++ s ++ b) ++ x :: t -> i <= length w -> Con w ele i tt (CV (as_val f64 u) (i + length (a ++ s ++ b)) tt).
  Proof.
    intros A S C B X U V E Hi. rewrite <- !app_assoc in E.
    destruct (spell_head f64 v s S) as (y & r & -> & Y).
    pose proof (skipn_at _ _ _ _ E) as E1. pose proof (skipn_at _ _ _ _ E1) as E2.
    pose proof (skipn_app_len _ _ _ _ E Hi) as L1. pose proof (skipn_app_len _ _ _ _ E1 L1) as L2.
    rewrite !app_length. rewrite !Nat.add_assoc. apply Con_wrap. eapply prefixv.
    - eapply ws_at; [exact E|exact A|]. exact Y.
    - eapply Con_suffix.
      + apply (C u w _ _ U V E1 L1). now apply spaces_stop.
      + unfold no_skip. eapply ws_at; [exact E2|exact B|]. now apply closes_stops.
  Qed.
  Lemma lit_value_at l v w i t : skipn i w = l ++ t -> Con w (PMap (PLit l) (fun _ => Ok v)) i tt (CV v (i + length l) tt).
  Proof. intros E. eapply mapv; [|reflexivity]. apply leafv; [exact I|eapply lit_at; exact E]. Qed.
  Lemma okey_at key w i t : skipn i w = 34%N :: key ++ 34%N :: t -> key <> [] -> all key_char key ->
    Con w (PEnclose (PMap (PMap (PMany1 j_keychars CEmpty) o_to_str) o_string) j_quote j_quote) i tt (CV (VText key) (i + S (length key + 1)) tt).
  Proof.
    intros E N A.
    pose proof (skipn_at w [34%N] _ _ E) as E1. pose proof (skipn_at _ _ _ _ E1) as E2. cbn [length] in *.
    replace (i + S (length key + 1)) with (i + 1 + length key + 1) by nia'.
    assert (P : Peg w (PMany1 j_keychars CEmpty) (i + 1) (OK (i + 1) (i + 1 + length key))).
    { assert (R : runlen (is_match j_keychars) (skipn (i + 1) w) = length key).
      { rw E1. apply (runlen_app (is_match j_keychars) key); [|reflexivity].
        eapply all_ext; [|exact A]. intros y. symmetry. apply key_class. }
      destruct key as [|x key]; [congruence|]. apply many1_at. exact R. }
    eapply Con_enclose.
    - eapply (lit_at [34%N]). exact E.
    - cbn [length]. eapply mapv; [|reflexivity]. eapply mapv; [apply leafv; [exact I|exact P]|].
      erewrite slice_at by exact E1. cbn. now rewrite (decode_key key A).
    - eapply (lit_at [34%N]). exact E2.
  Qed.
  Lemma body_value s t : valid_text KStr t = true -> s = flat_map utf8 t -> o_to_str (VText s) = Ok (VText t).
  Proof. intros V ->. cbn. change (flat_map utf8 t) with (raw KStr t). now rewrite raw_decode. Qed.

  Lemma owned_complete :
    (forall v s, Spell v s -> Ospell v s) /\ (forall l s, Elems l s -> Oelems l s) /\
    (forall l s, Members l s -> Omembers l s) /\ (forall key v m, Member key v m -> Omember key v m).
  Proof.
    assert (WORDS : forall w i x r, skipn i w = x :: r -> (is_sign x || dec_digit x) = false -> x <> 34%N ->
       forall v j, Con w (POr j_true (POr j_false (POr j_empty (PRef 0)))) i tt (CV v j tt) -> Con w scalar i tt (CV v j tt)).
    { intros w i x r E X1 X2 v j T. apply or_skip; [apply num_not; rw E; exact X1|].
      apply or_skip; [apply str_not; eapply hd_not; [exact E|exact X2]|exact T]. }
    assert (REF : forall w i x r, skipn i w = x :: r -> x = 91%N \/ x = 123%N -> forall v j, Con w (PRef 0) i tt (CV v j tt) -> Con w scalar i tt (CV v j tt)).
    { intros w i x r E X v j T. eapply (WORDS w i x r E); [destruct X; subst; reflexivity|destruct X; subst; discriminate|].
      repeat (apply or_skip; [apply word_not; eapply hd_not; [exact E|destruct X; subst; discriminate]|]). exact T. }
    apply Spell_mutind.
    - (* null *) intros u w i t U V E Hi. destruct u; try discriminate U. split; [intros []|]. intros _.
      eapply (WORDS w i _ _ E); [reflexivity|discriminate|].
      apply or_skip; [apply word_not; eapply hd_not; [exact E|discriminate]|]. apply or_skip; [apply word_not; eapply hd_not; [exact E|discriminate]|].
      apply Con_or1. eapply lit_value_at. exact E.
    - (* true *) intros u w i t U V E Hi. destruct u; try discriminate U. injection U as ->. split; [intros []|]. intros _.
      eapply (WORDS w i _ _ E); [reflexivity|discriminate|]. apply Con_or1. eapply lit_value_at. exact E.
    - (* false *) intros u w i t U V E Hi. destruct u; try discriminate U. injection U as ->. split; [intros []|]. intros _.
      eapply (WORDS w i _ _ E); [reflexivity|discriminate|]. apply or_skip; [apply word_not; eapply hd_not; [exact E|discriminate]|].
      apply Con_or1. eapply lit_value_at. exact E.
    - (* number *) intros s N u w i t U V E Hi. destruct u; try discriminate U. injection U as ->. split; [intros []|]. intros S. apply Con_or1, Con_wrap.
      eapply mapv; [|reflexivity]. eapply mapv.
      + eapply mapv; [apply patv; exact (leaf_numeral_at G _ osign_class w i s t E N S)|]. erewrite slice_at by exact E.
        cbn. rewrite (decode_numeral s N). reflexivity.
      + reflexivity.
    - (* string *) intros s B u w i t U V E Hi. destruct u as [| |x| | |]; try discriminate U. injection U as U. split; [intros []|]. intros _.
      cbn [app] in E. rewrite <- app_assoc in E. cbn [app] in E.
      apply or_skip; [apply num_not; rw E; reflexivity|]. apply Con_or1.
      pose proof (skipn_at w [34%N] _ _ E) as E1. pose proof (skipn_at _ _ _ _ E1) as E2.
      pose proof (skipn_app_len w i [34%N] _ E Hi) as L1.
      apply Con_wrap. cbn [length] in *. rewrite app_length. cbn [length].
      replace (i + S (length s + 1)) with (i + 1 + length s + 1) by nia'.
      eapply Con_enclose; [eapply (lit_at [34%N]); exact E| |].
      + cbn [length]. pose proof (leaf_body_at G _ oescaped_class w (i + 1) L1) as P.
        unfold item, text in *. rewrite E1 in P. rewrite body_len in P by assumption.
        eapply mapv; [|reflexivity]. eapply mapv; [|reflexivity]. eapply mapv; [apply patv; exact P|]. erewrite slice_at by exact E1.
        apply body_value; [apply V; now left|now symmetry].
      + eapply (lit_at [34%N]). exact E2.
    - (* array *) intros l s El IH u w i t U V E Hi. destruct u as [| | | |us|]; try discriminate U. injection U as U. cbn [app] in E. rewrite <- app_assoc in E. cbn [app] in E.
      assert (T : Con w (PRef 0) i tt (CV (as_val f64 (JArr us)) (i + length (91%N :: s ++ [93%N])) tt)).
      { pose proof (skipn_at w [91%N] _ _ E) as E1. pose proof (skipn_at _ _ _ _ E1) as E2.
        pose proof (skipn_app_len w i [91%N] _ E Hi) as L1. cbn [length] in *.
        eapply Con_ref; [reflexivity|]. apply Con_wrap. apply or_skip; [apply obj_not; eapply hd_not; [exact E|discriminate]|]. cbn [as_val].
        eapply mapv; [|reflexivity]. rewrite app_length. cbn [length].
        replace (i + S (length s + 1)) with (i + 1 + length s + 1) by nia'.
        eapply Con_enclose; [eapply (lit_at [91%N]); exact E| |].
        - cbn [length]. apply sepv; [eapply IH; [exact U| |exact E1|exact L1]|].
          + apply Forall_forall. intros x Ix y Iy. apply V. apply in_flat_map. eauto.
          + destruct us; [destruct El; discriminate|discriminate].
        - eapply (lit_at [93%N]). exact E2. }
      split; intros _; [exact T|]. eapply REF; [exact E|now left|exact T].
    - (* object *) intros l s El IH u w i t U V E Hi. destruct u as [| | | | |us]; try discriminate U. injection U as U. cbn [app] in E. rewrite <- app_assoc in E. cbn [app] in E.
      assert (T : Con w (PRef 0) i tt (CV (as_val f64 (JObj us)) (i + length (123%N :: s ++ [125%N])) tt)).
      { pose proof (skipn_at w [123%N] _ _ E) as E1. pose proof (skipn_at _ _ _ _ E1) as E2.
        pose proof (skipn_app_len w i [123%N] _ E Hi) as L1. cbn [length] in *.
        eapply Con_ref; [reflexivity|]. apply Con_wrap, Con_or1. cbn [as_val].
        apply Con_wrap. eapply mapv; [|reflexivity]. rewrite app_length. cbn [length].
        replace (i + S (length s + 1)) with (i + 1 + length s + 1) by nia'.
        eapply Con_enclose; [eapply (lit_at [123%N]); exact E| |].
        - cbn [length]. apply sepv; [eapply IH; [exact U| |exact E1|exact L1]|].
          + apply Forall_forall. intros x Ix y Iy. apply V. apply in_flat_map. exists x. auto.
          + destruct us; [destruct El; discriminate|discriminate].
        - eapply (lit_at [125%N]). exact E2. }
      split; intros _; [exact T|]. eapply REF; [exact E|now right|exact T].
    - (* last element *) intros v a s b c A S C B Hc us w i t U V E Hi. destruct us as [|u us]; [discriminate|]. injection U as U U'.
      destruct us; [|discriminate]. inversion V; subst. cbn [map].
      replace (a ++ s ++ b ++ c) with ((a ++ s ++ b) ++ c) in * by now rewrite <- !app_assoc.
      rewrite <- app_assoc in E. pose proof (skipn_at _ _ _ _ E) as E1. pose proof (skipn_app_len _ _ _ _ E Hi) as L1.
      destruct Hc as [->| ->]; cbn [app] in *.
      + rewrite app_nil_r. eapply lastv.
        * eapply ele_at; [exact A|exact S|exact C|exact B| |reflexivity|assumption|exact E|exact Hi]. right; now left.
        * apply lit_not. eapply hd_not; [exact E1|discriminate].
      + rewrite app_length. cbn [length]. rewrite Nat.add_assoc. eapply stepv.
        * eapply ele_at; [exact A|exact S|exact C|exact B| |reflexivity|assumption|exact E|exact Hi]. now left.
        * eapply (lit_at [44%N]). exact E1.
        * pose proof (skipn_at w [44%N] _ _ E1) as E2. destruct (ele_not w _ _ _ E2 (or_introl eq_refl)) as [e P].
          cbn [length] in *. eapply stopv. exact P.
    - (* more elements *) intros v a s b l r A S C B El IH us w i t U V E Hi. destruct us as [|u us]; [discriminate|]. injection U as U U'.
      inversion V; subst. cbn [map].
      replace (a ++ s ++ b ++ 44%N :: r) with ((a ++ s ++ b) ++ 44%N :: r) in * by now rewrite <- !app_assoc.
      rewrite <- app_assoc in E. cbn [app] in E. pose proof (skipn_at _ _ _ _ E) as E1. pose proof (skipn_app_len _ _ _ _ E Hi) as L1.
      pose proof (skipn_at w [44%N] _ _ E1) as E2. pose proof (skipn_app_len w _ [44%N] _ E1 L1) as L2.
      rewrite app_length. cbn [length] in *.
      replace (i + (length (a ++ s ++ b) + Datatypes.S (length r))) with (i + length (a ++ s ++ b) + 1 + length r) by nia'.
      eapply stepv.
      + eapply ele_at; [exact A|exact S|exact C|exact B| |reflexivity|assumption|exact E|exact Hi]. now left.
      + eapply (lit_at [44%N]). exact E1.
      + cbn [length]. eapply IH; eauto.
    - (* last member *) intros key v m c M C Hc us w i t U V E Hi. destruct us as [|u us]; [discriminate|]. injection U as U0 U U'.
      destruct us; [|discriminate]. inversion V; subst. cbn [map].
      rewrite <- app_assoc in E. pose proof (skipn_at _ _ _ _ E) as E1. pose proof (skipn_app_len _ _ _ _ E Hi) as L1.
      destruct Hc as [->| ->]; cbn [app] in *.
      + rewrite app_nil_r. eapply lastv.
        * eapply C; [reflexivity|assumption|exact E| |exact Hi]. right; now right.
        * apply lit_not. eapply hd_not; [exact E1|discriminate].
      + rewrite app_length. cbn [length]. rewrite Nat.add_assoc. eapply stepv.
        * eapply C; [reflexivity|assumption|exact E| |exact Hi]. now left.
        * eapply (lit_at [44%N]). exact E1.
        * pose proof (skipn_at w [44%N] _ _ E1) as E2. destruct (mem_not w _ _ _ E2 (or_intror eq_refl)) as [e P].
          cbn [length] in *. eapply stopv. exact P.
    - (* more members *) intros key v m l r M C El IH us w i t U V E Hi. destruct us as [|u us]; [discriminate|]. injection U as U0 U U'.
      inversion V; subst. cbn [map].
      rewrite <- app_assoc in E. cbn [app] in E. pose proof (skipn_at _ _ _ _ E) as E1. pose proof (skipn_app_len _ _ _ _ E Hi) as L1.
      pose proof (skipn_at w [44%N] _ _ E1) as E2. pose proof (skipn_app_len w _ [44%N] _ E1 L1) as L2.
      rewrite app_length. cbn [length] in *.
      replace (i + (length m + S (length r))) with (i + length m + 1 + length r) by nia'.
      eapply stepv.
      + eapply C; [reflexivity|assumption|exact E| |exact Hi]. now left.
      + eapply (lit_at [44%N]). exact E1.
      + cbn [length]. eapply IH; eauto.
    - (* one member *) intros key v a b c s d KN KA A B Cs S C D u w i t x U V E X Hi.
      replace (a ++ 34%N :: key ++ 34%N :: b ++ 58%N :: c ++ s ++ d) with
        (a ++ (34%N :: key ++ [34%N]) ++ b ++ [58%N] ++ (c ++ s ++ d)) in * by (cbn [app]; now rewrite <- !app_assoc).
      rewrite <- !app_assoc in E. 
      pose proof (skipn_at _ _ _ _ E) as E1. pose proof (skipn_at _ _ _ _ E1) as E2.
      pose proof (skipn_at _ _ _ _ E2) as E3. pose proof (skipn_at _ _ _ _ E3) as E4.
      pose proof (skipn_app_len _ _ _ _ E Hi) as L1. pose proof (skipn_app_len _ _ _ _ E1 L1) as L2.
      pose proof (skipn_app_len _ _ _ _ E2 L2) as L3. pose proof (skipn_app_len _ _ _ _ E3 L3) as L4.
      assert (KT : Con w (PEnclose (PMap (PMap (PMany1 j_keychars CEmpty) o_to_str) o_string) j_quote j_quote) (i + length a) tt
                     (CV (VText key) (i + length a + length (34%N :: key ++ [34%N])) tt)).
      { cbn [length]. rewrite app_length. cbn [length]. eapply okey_at; [rw E1; cbn [app]; now rewrite <- app_assoc|exact KN|exact KA]. }
      rewrite (app_length a), (app_length (34%N :: key ++ [34%N])), (app_length b), (app_length [58%N]), !Nat.add_assoc.
      eapply Con_seponce.
      + eapply prefixv; [eapply ws_at; [exact E|exact A|reflexivity]|]. eapply Con_suffix.
        * exact KT.
        * unfold no_skip. eapply ws_at; [exact E2|exact B|reflexivity].
      + unfold no_skip. eapply (lit_at [58%N]). exact E3.
      + eapply ele_at; [exact Cs|exact S|exact C|exact D|exact X|exact U|exact V| |exact L4]. rw E4. now rewrite <- !app_assoc.
  Qed.

  (** *** Soundness *)
  Let ws_sound := leaf_ws_sound G owned_core owned_static.
  Let lit_sound := leaf_lit_sound G owned_core owned_static.
  Let peg_piece := leaf_peg_piece G owned_core owned_static.
  Let numeral_sound := leaf_numeral_sound G owned_core owned_static _ osign_class.
  Ltac nosk := repeat match goal with H : context [no_skip ?a ?b] |- _ => change (no_skip a b) with b in H end.
  Ltac units := repeat match goal with s : unit |- _ => destruct s end.
  Ltac cinv T := inversion T; subst; try contradiction; nosk; units;
    repeat match goal with
    | H : undo _ ?o = CV _ _ _ |- _ => destruct o; cbn in H; try discriminate H; try injection H as ? ?; subst; units
    | H : CV _ _ _ = undo _ ?o |- _ => destruct o; cbn in H; try discriminate H; try injection H as ? ?; subst; units
    | H : ConSpec.stops (CV _ _ _) |- _ => destruct H
    end.
  Notation Val w p i v j := (Con w p i tt (CV v j tt)).
  Lemma wrap_inv w p i v j : Val w (PWrap p) i v j -> Val w p i v j.
  Proof. intros T. cinv T. assumption. Qed.
  Lemma map_inv w p f i v j : Val w (PMap p f) i v j -> exists v0, Val w p i v0 j /\ f v0 = Ok v.
  Proof.
    intros T. cinv T. match goal with H : match f ?x with _ => _ end = _ |- _ => destruct (f x) eqn:E; cbn in H; try discriminate H; injection H as ? ?; subst; eauto end.
  Qed.
  Lemma or_inv w p q i v j : Val w (POr p q) i v j -> Val w p i v j \/ Val w q i v j.
  Proof. intros T. cinv T; auto. Qed.
  Lemma pat_inv w p i v j : Val w (PPat p) i v j -> exists b, Peg w p i (OK b j) /\ v = VText (slice w b j).
  Proof. intros T. cinv T. eauto. Qed.
  Lemma leaf_inv w p i v j : leafy p -> Val w p i v j -> exists b, Peg w p i (OK b j) /\ v = VText (slice w b j).
  Proof.
    intros L T. destruct p; try contradiction; inversion T; subst; nosk; units; eauto.
  Qed.
  Lemma val_bounds w p i v j : con_ok p -> Val w p i v j -> i <= length w -> i <= j /\ j <= length w.
  Proof.
    intros C T Hi. destruct (con_run KBytes G no_skip [] slice_answer extract_text p w i i tt _ (owned_scope p C) (conj eq_refl (conj Hi Hi)) T) as [B _].
    exact B.
  Qed.
  Lemma enclose_inv w p a c i v j : con_ok p -> i <= length w -> Val w (PEnclose p (PLit [a]) (PLit [c])) i v j ->
    exists m, Val w p (S i) v m /\ S i <= m /\ j = S m /\ j <= length w /\ nth_error w m = Some c /\ slice w i j = a :: slice w (S i) m ++ [c].
  Proof.
    intros C Hi T. cinv T.
    match goal with X : Peg w (PLit [a]) _ _ |- _ => destruct (lit_sound _ _ _ _ _ Hi X) as (-> & -> & L1 & S1) end.
    cbn [length] in *. rewrite Nat.add_1_r in *.
    match goal with X : Peg w (PLit [c]) ?m _, Y : Val w p _ _ ?m |- _ =>
      destruct (val_bounds _ _ _ _ _ C Y L1) as [B1 B2]; destruct (lit_sound _ _ _ _ _ B2 X) as (-> & -> & L2 & S2); exists m; split; [exact Y|]; split; [exact B1|];
      rename m into q end.
    cbn [length] in *. rewrite Nat.add_1_r in *. split; [reflexivity|]. split; [exact L2|]. split.
    - pose proof (skipn_slice w q (S q) ltac:(lia) L2) as E. rewrite S2 in E. now apply skipn_cons_inv in E.
    - rewrite <- (slice_app w i (S i)) by lia. rewrite S1. rewrite <- (slice_app w (S i) q) by lia. now rewrite S2.
  Qed.
  Lemma ws_around w p i v j : con_ok p -> i <= length w -> Val w (PPrefix (PSuffix p j_ws) j_ws) i v j ->
    exists a m, Val w p a v m /\ i <= a /\ a <= m /\ m <= j /\ j <= length w /\ spaces (slice w i a) /\ spaces (slice w m j).
  Proof.
    intros C Hi T. cinv T.
    match goal with X : Peg w j_ws i _ |- _ => destruct (ws_sound _ _ _ _ Hi X) as (-> & L1 & L2 & S1) end.
    match goal with X : Con w (PSuffix _ _) _ _ _ |- _ => cinv X end.
    match goal with X : Val w p ?a ?v ?m, Y : Peg w j_ws ?m _ |- _ =>
      destruct (val_bounds _ _ _ _ _ C X L2) as [B1 B2]; destruct (ws_sound _ _ _ _ B2 Y) as (-> & L3 & L4 & S2); exists a, m end.
    repeat (split; [assumption|]). assumption.
  Qed.
  Lemma sep_inv w p q i v j : Val w (PSep p q 1 true) i v j -> exists vs, Cseps w p q true None i tt (LV vs j tt) /\ v = VList vs /\ vs <> [].
  Proof.
    intros T. cinv T. match goal with H : count_ok _ _ _ _ ?l = _ |- _ => destruct l as [vs y []|]; cbn [count_ok] in H; [|discriminate] end.
    match goal with H : (if ?b then _ else _) = _ |- _ => destruct b eqn:E; [|discriminate]; injection H as ? ?; subst end.
    exists vs. repeat split; auto. intros ->. discriminate.
  Qed.
  Lemma seps_inv w p q i vs j : Cseps w p q true None i tt (LV vs j tt) ->
    vs = [] \/ (exists v, vs = [v] /\ Val w p i v j) \/
    (exists v m b m' vs', vs = v :: vs' /\ Val w p i v m /\ Peg w q m (OK b m') /\ Cseps w p q true None m' tt (LV vs' j tt)).
  Proof.
    intros T. inversion T; subst; nosk; units; auto.
    - right; left. eauto.
    - match goal with H : lcons _ ?l = _ |- _ => destruct l as [vs' y []|]; cbn [lcons] in H; [|discriminate]; injection H as ? ?; subst end.
      right; right. eauto 10.
  Qed.
  Lemma stop_end w p q i j : (forall e x, Con w p i tt (CE e x tt) -> x = i) -> Cseps w p q true None i tt (LV [] j tt) -> j = i.
  Proof.
    intros H T. inversion T; subst; nosk; units.
    - eapply H; eauto.
    - match goal with X : lcons _ ?l = _ |- _ => destruct l; discriminate X end.
  Qed.

  Definition Sound (w : text) (i : nat) (v : val) (j : nat) : Prop :=
    exists u, v = as_val f64 u /\ unicode_strings u /\ Spell (in_utf8 u) (slice w i j).
  Lemma lit_value w l x i v j : i <= length w -> Val w (PMap (PLit l) (fun _ => Ok x)) i v j -> v = x /\ slice w i j = l.
  Proof.
    intros Hi T. apply map_inv in T as (v0 & T & E). injection E as ->. split; [reflexivity|].
    apply leaf_inv in T as (b & P & _); [|exact I]. apply lit_sound in P; [tauto|exact Hi].
  Qed.
  Lemma to_str_inv v x : o_to_str v = Ok x -> exists l t, v = VText l /\ x = VText t /\ valid_text KStr t = true /\ flat_map utf8 t = l.
  Proof.
    destruct v as [| | |l| | | |]; cbn; try discriminate. destruct (decode l) as [t|] eqn:D; [|discriminate]. intros [= <-].
    exists l, t. split; [reflexivity|]. split; [reflexivity|]. now apply (decode_raw (length l)).
  Qed.
  Lemma no_strings v : strings v = [] -> unicode_strings v.
  Proof. intros E t I. rewrite E in I. destruct I. Qed.
  Lemma str_sound w i v j : i <= length w -> Val w o_str i v j -> Sound w i v j.
  Proof.
    intros Hi T. apply wrap_inv in T.
    apply enclose_inv in T as (m & T & L1 & -> & L2 & Q & S1); [|exact body_ok|exact Hi].
    apply map_inv in T as (v1 & T & E1). injection E1 as <-. apply map_inv in T as (v2 & T & E2). injection E2 as ->.
    apply map_inv in T as (v3 & T & E3). apply pat_inv in T as (b & P & ->).
    apply to_str_inv in E3 as (l & t & [= <-] & -> & V & E).
    destruct (leaf_body_sound G owned_core o_escaped oescaped_class w (S i) b m ltac:(lia) P Q) as (-> & B).
    exists (JStr t). split; [reflexivity|]. split; [intros x [<-|[]]; exact V|].
    cbn [in_utf8]. rewrite S1, E. now apply spell_str.
  Qed.

  Section Step.
    Variable w : text.
    Variable n : nat.
    Hypothesis IH : forall i v j, j - i < n -> i <= length w -> Val w (PRef 0) i v j -> Sound w i v j.

    Lemma scalar_sound i v j : j - i < n -> i <= length w -> Val w scalar i v j -> Sound w i v j.
    Proof.
      intros Hn Hi T.
      apply or_inv in T as [T|T].
      { apply wrap_inv, map_inv in T as (v1 & T & E1). injection E1 as <-. apply map_inv in T as (v2 & T & E2).
        apply map_inv in T as (v3 & T & E3). apply pat_inv in T as (b & P & ->).
        destruct (numeral_sound _ _ _ _ Hi P) as (-> & _ & _ & N). cbn in E3. rewrite (decode_numeral _ N) in E3. injection E3 as <-.
        injection E2 as <-. exists (JNum (slice w i j)). split; [reflexivity|]. split; [now apply no_strings|]. now constructor. }
      apply or_inv in T as [T|T]; [now apply str_sound|].
      apply or_inv in T as [T|T].
      { apply lit_value in T as [-> E]; [|exact Hi]. exists (JBool true). split; [reflexivity|]. split; [now apply no_strings|rewrite E; constructor]. }
      apply or_inv in T as [T|T].
      { apply lit_value in T as [-> E]; [|exact Hi]. exists (JBool false). split; [reflexivity|]. split; [now apply no_strings|rewrite E; constructor]. }
      apply or_inv in T as [T|T].
      { apply lit_value in T as [-> E]; [|exact Hi]. exists JNull. split; [reflexivity|]. split; [now apply no_strings|rewrite E; constructor]. }
      now apply IH.
    Qed.
    Lemma ele_sound i v j : j - i < n -> i <= length w -> Val w ele i v j ->
      exists u a s b, v = as_val f64 u /\ unicode_strings u /\ Spell (in_utf8 u) s /\ spaces a /\ spaces b /\ slice w i j = a ++ s ++ b.
    Proof.
      intros Hn Hi T. apply wrap_inv in T.
      apply ws_around in T as (a & m & T & L1 & L2 & L3 & L4 & S1 & S2); [|exact scalar_ok|exact Hi].
      destruct (scalar_sound a v m ltac:(lia) ltac:(lia) T) as (u & -> & V & SJ).
      exists u, (slice w i a), (slice w a m), (slice w m j). rewrite !slice_app by lia. repeat split; auto.
    Qed.
    Lemma member_sound i v j : j - i < n -> i <= length w -> Val w mem i v j ->
      exists key u, v = VPair (VText key) (as_val f64 u) /\ unicode_strings u /\ Member key (in_utf8 u) (slice w i j).
    Proof.
      intros Hn Hi T. cinv T.
      lazymatch goal with X : Con w o_key i _ (CV ?kv ?j1 _), Y : Peg w (PLit _) ?j1 _, Z : Con w ele _ _ _ |- _ =>
        pose proof (val_bounds _ _ _ _ _ key_ok X Hi) as [L1 L2];
        destruct (lit_sound _ _ _ _ _ L2 Y) as (-> & -> & L3 & S1);
        pose proof (val_bounds _ _ _ _ _ ele_ok Z L3) as [L4 L5];
        apply ws_around in X as (p & m & X & M1 & M2 & M3 & M4 & S2 & S3); [|exact quoted_ok|exact Hi];
        apply enclose_inv in X as (q & X & Q1 & -> & Q2 & _ & S4); [|exact keychars_ok|lia];
        rename X into TK; rename Z into TE; rename j1 into c
      end.
      cbn [length] in *.
      destruct (fun H => ele_sound _ _ _ H L3 TE) as (u & e1 & s & e2 & -> & V & SJ & SE1 & SE2 & S5); [lia|].
      apply map_inv in TK as (v1 & TK & K1). injection K1 as ->. apply map_inv in TK as (v2 & TK & K2).
      apply leaf_inv in TK as (b & P & ->); [|exact I]. apply peg_piece in P as (-> & _ & _ & LK); [|shape|constructor|lia].
      inversion LK; subst. assert (AK : all key_char (slice w (S p) q)) by (eapply all_ext; [|eassumption]; intros x; apply key_class).
      cbn in K2. rewrite (decode_key _ AK) in K2. injection K2 as <-.
      exists (slice w (S p) q), u. split; [reflexivity|]. split; [exact V|].
      rewrite <- (slice_app w i c), <- (slice_app w c (c + 1)) by lia. rewrite S1, S5.
      rewrite <- (slice_app w i p), <- (slice_app w p (S q) c) by lia. rewrite S4.
      cbn [app]. rewrite <- !app_assoc. cbn [app]. rewrite <- !app_assoc. cbn [app].
      apply member; auto.
    Qed.

    Lemma ele_undo i e x : Con w ele i tt (CE e x tt) -> x = i.
    Proof.
      intros T. inversion T; subst; try contradiction. match goal with X : Con w (PPrefix _ _) _ _ _ |- _ => inversion X; subst; try contradiction; auto end.
      match goal with X : undo _ ?o = CE _ _ _ |- _ => destruct o; cbn in X; try discriminate; injection X; auto end.
    Qed.
    Lemma mem_undo i e x : Con w mem i tt (CE e x tt) -> x = i.
    Proof.
      intros T. inversion T; subst; try contradiction; auto;
      match goal with X : undo _ ?o = CE _ _ _ |- _ => destruct o; cbn in X; try discriminate; injection X; auto end.
    Qed.
    Lemma seps_bounds p vs : con_ok p -> (forall i e x, Con w p i tt (CE e x tt) -> x = i) ->
      forall i j, i <= length w -> Cseps w p (PLit [44]%N) true None i tt (LV vs j tt) -> i <= j /\ j <= length w.
    Proof.
      intros C UN. induction vs as [|v vs IHv]; intros i j Hi T.
      - apply stop_end in T; [subst; auto|apply UN].
      - apply seps_inv in T as [T|[(v' & [= <- ->] & T)|(v' & m & b & m' & vs' & [= <- ->] & T1 & T2 & T3)]]; [discriminate| |].
        + exact (val_bounds _ _ _ _ _ C T Hi).
        + pose proof (val_bounds _ _ _ _ _ C T1 Hi) as [L1 L2]. destruct (lit_sound _ _ _ _ _ L2 T2) as (-> & -> & L3 & S1).
          apply IHv in T3; [|exact L3]. cbn [length] in *. lia.
    Qed.
    Lemma elems_sound vs : forall i j, j - i < n -> i <= length w -> Cseps w ele (PLit [44]%N) true None i tt (LV vs j tt) -> vs <> [] ->
      exists us, vs = map (as_val f64) us /\ Forall unicode_strings us /\ Elems (map in_utf8 us) (slice w i j).
    Proof.
      induction vs as [|v vs IHv]; intros i j Hn Hi T NE; [congruence|].
      apply seps_inv in T as [T|[(v' & [= <- ->] & T)|(v' & m & b & m' & vs' & [= <- ->] & T1 & T2 & TS)]]; [discriminate| |].
      - destruct (ele_sound _ _ _ Hn Hi T) as (u & a & s & b & -> & V & SJ & A & B & E).
        exists [u]. split; [reflexivity|]. split; [auto|]. rewrite E. rewrite <- (app_nil_r b). apply elems_last; auto.
      - pose proof (val_bounds _ _ _ _ _ ele_ok T1 Hi) as [L1 L2]. destruct (lit_sound _ _ _ _ _ L2 T2) as (-> & -> & L3 & S1).
        pose proof (seps_bounds ele _ ele_ok ele_undo _ _ L3 TS) as [L4 L5].
        destruct (fun H => ele_sound _ _ _ H Hi T1) as (u & a & s & b & -> & V & SJ & A & B & E); [cbn [length] in *; lia|].
        cbn [length] in *. rewrite <- (slice_app w i m), <- (slice_app w m (m + 1)) by lia. rewrite E, S1. rewrite <- !app_assoc. cbn [app].
        destruct vs' as [|v' vs].
        + apply stop_end in TS; [|apply ele_undo]. subst j. exists [u]. split; [reflexivity|]. split; [auto|]. rewrite slice_nil2 by lia. apply elems_last; auto.
        + destruct (IHv (m + 1) j ltac:(lia) L3 TS ltac:(discriminate)) as (l & EL & VL & SL).
          exists (u :: l). split; [cbn [map]; now rewrite EL|]. split; [auto|]. now apply elems_more.
    Qed.
    Lemma members_sound vs : forall i j, j - i < n -> i <= length w -> Cseps w mem (PLit [44]%N) true None i tt (LV vs j tt) -> vs <> [] ->
      exists us, vs = map (fun m => VPair (VText (fst m)) (as_val f64 (snd m))) us /\ Forall (fun m => unicode_strings (snd m)) us /\
        Members (map (fun m => (fst m, in_utf8 (snd m))) us) (slice w i j).
    Proof.
      induction vs as [|v vs IHv]; intros i j Hn Hi T NE; [congruence|].
      apply seps_inv in T as [T|[(v' & [= <- ->] & T)|(v' & m & b & m' & vs' & [= <- ->] & T1 & T2 & TS)]]; [discriminate| |].
      - destruct (member_sound _ _ _ Hn Hi T) as (key & u & -> & V & M).
        exists [(key, u)]. split; [reflexivity|]. split; [auto|]. rewrite <- (app_nil_r (slice w i j)). apply members_last; auto.
      - pose proof (val_bounds _ _ _ _ _ mem_ok T1 Hi) as [L1 L2]. destruct (lit_sound _ _ _ _ _ L2 T2) as (-> & -> & L3 & S1).
        pose proof (seps_bounds mem _ mem_ok mem_undo _ _ L3 TS) as [L4 L5].
        destruct (fun H => member_sound _ _ _ H Hi T1) as (key & u & -> & V & M); [cbn [length] in *; lia|].
        cbn [length] in *. rewrite <- (slice_app w i m), <- (slice_app w m (m + 1)) by lia. rewrite S1. cbn [app].
        destruct vs' as [|v' vs].
        + apply stop_end in TS; [|apply mem_undo]. subst j. exists [(key, u)]. split; [reflexivity|]. split; [auto|].
          rewrite (slice_nil2 w (m + 1)) by lia. apply members_last; auto.
        + destruct (IHv (m + 1) j ltac:(lia) L3 TS ltac:(discriminate)) as (l & EL & VL & SL).
          exists ((key, u) :: l). split; [cbn [map fst snd]; now rewrite EL|]. split; [auto|]. now apply members_more.
    Qed.
  End Step.

  Lemma arr_strings us : Forall unicode_strings us -> unicode_strings (JArr us).
  Proof. intros F t I. cbn in I. apply in_flat_map in I as (u & I1 & I2). rewrite Forall_forall in F. now apply (F u). Qed.
  Lemma obj_strings us : Forall (fun m : text * json => unicode_strings (snd m)) us -> unicode_strings (JObj us).
  Proof. intros F t I. cbn in I. apply in_flat_map in I as (u & I1 & I2). rewrite Forall_forall in F. now apply (F u). Qed.
  Lemma owned_sound : forall n w i v j, j - i <= n -> i <= length w -> Val w (PRef 0) i v j ->
    exists u, container u /\ v = as_val f64 u /\ unicode_strings u /\ Spell (in_utf8 u) (slice w i j).
  Proof.
    induction n as [n IH] using lt_wf_ind. intros w i v j Hn Hi T.
    assert (IH' : forall i' v j', j' - i' < n -> i' <= length w -> Val w (PRef 0) i' v j' -> Sound w i' v j').
    { intros i' v' j' H1 H2 T'. destruct (IH (j' - i') H1 w i' v' j' (le_n _) H2 T') as (u & _ & E & V & S1). now exists u. }
    inversion T; subst; try contradiction. match goal with X : env_get _ _ = Some _ |- _ => injection X as <- end.
    match goal with X : Con w (PWrap _) _ _ _ |- _ => apply wrap_inv, or_inv in X as [X|X]; rename X into TT end; clear T.
    - apply wrap_inv, map_inv in TT as (v0 & TT & E). injection E as <-.
      apply enclose_inv in TT as (m & TT & L1 & -> & L2 & _ & S1); [|apply ok_sep; [exact mem_ok|shape]|exact Hi].
      apply sep_inv in TT as (vs & TT & -> & NE).
      destruct (members_sound w n IH' vs (S i) m ltac:(lia) ltac:(lia) TT NE) as (us & -> & V & SL).
      exists (JObj us). split; [exact I|]. split; [reflexivity|]. split; [now apply obj_strings|]. rewrite S1. cbn [in_utf8]. now constructor.
    - apply map_inv in TT as (v0 & TT & E). injection E as <-.
      apply enclose_inv in TT as (m & TT & L1 & -> & L2 & _ & S1); [|apply ok_sep; [exact ele_ok|shape]|exact Hi].
      apply sep_inv in TT as (vs & TT & -> & NE).
      destruct (elems_sound w n IH' vs (S i) m ltac:(lia) ltac:(lia) TT NE) as (us & -> & V & SL).
      exists (JArr us). split; [exact I|]. split; [reflexivity|]. split; [now apply arr_strings|]. rewrite S1. cbn [in_utf8]. now constructor.
  Qed.
  Lemma ref_undo w i e x : Con w (PRef 0) i tt (CE e x tt) -> x = i.
  Proof.
    intros T. inversion T; subst; try contradiction; [|discriminate]. match goal with X : env_get _ _ = Some _ |- _ => injection X as <- end.
    match goal with X : Con w (PWrap _) _ _ _ |- _ => inversion X; subst; try contradiction end.
    match goal with X : Con w (POr _ _) _ _ _ |- _ => inversion X; subst; try contradiction end.
    match goal with X : undo _ ?o = CE _ _ _ |- _ => destruct o; cbn in X; try discriminate; injection X; auto end.
  Qed.
End Grammar.
