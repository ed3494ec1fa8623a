(** The struct fields of tests/10_wrap.rs, on a context that skips white space. *)

From Coq Require Import List Arith NArith ZArith Bool Lia.
From Verif Require Import Base Text Context Neu Syntax Regex Ctor Api TextProofs Spec Core Obs UnitProps CtorSpec CtorLaws PolicyLaws
  ApiLaws Pieces SkipPieces SkipText Decls PropDecls.
Import ListNotations.

(** ** Specification *)

Definition langle : text := [60]%N.
Definition rangle : text := [62]%N.
Definition colon : text := [58]%N.
Definition comma : text := [44]%N.
Definition pub_word : text := [112; 117; 98]%N.
(** The name of a field: the longest run of letters and digits, not empty. *)
Definition FName (r n t : text) : Prop := Longest Part r n t /\ n <> [].
(** The name of a type: behind white space a letter, then the longest run of letters and digits, not
    empty; white space between the two becomes part of the name. *)
Definition TName (r n t : text) : Prop :=
  exists x g s m, Gap r (x :: g ++ m) /\ Letter x /\ Longest Blank (g ++ m) g m /\ Longest Part m s t /\ s <> [] /\ n = x :: g ++ s.
(** A type: [a], [a<b>] or [a<b<c>>], the longest of these that fits. *)
Definition Type1 (r : text) (l : list text) (t : text) : Prop := exists a, TName r a t /\ l = [a].
Definition Type2 (r : text) (l : list text) (t : text) : Prop :=
  exists a b m n o, TName r a m /\ Token langle m n /\ TName n b o /\ Token rangle o t /\ l = [a; b].
Definition Type3 (r : text) (l : list text) (t : text) : Prop :=
  exists a b c m n o p q s, TName r a m /\ Token langle m n /\ TName n b o /\ Token langle o p /\ TName p c q /\ Token rangle q s /\ Token rangle s t /\
    l = [a; b; c].
Definition FType (r : text) (l : list text) (t : text) : Prop :=
  Type3 r l t \/ (forall l' t', ~ Type3 r l' t') /\ (Type2 r l t \/ (forall l' t', ~ Type2 r l' t') /\ Type1 r l t).
Definition Field (r n : text) (ty : list text) (t : text) : Prop :=
  exists r' m o, Gap r r' /\ FName r' n m /\ Token colon m o /\ FType o ty t.
Definition PubField (r n : text) (ty : list text) (t : text) : Prop := exists m, Token pub_word r m /\ Field m n ty t.
(** A field: public if it can be read so, otherwise private. *)
Definition field : Type := text * list text * bool.
Definition Entry (r : text) (f : field) (t : text) : Prop :=
  let '(n, ty, public) := f in
  if public then PubField r n ty t else (forall n' ty' t', ~ PubField r n' ty' t') /\ Field r n ty t.
(** Fields separated by commas; a comma at the end is taken, too. *)
Inductive Fields : text -> list field -> text -> Prop :=
| Fields_stop r : (forall f t, ~ Entry r f t) -> Fields r [] r
| Fields_last r f t : Entry r f t -> (forall m, ~ Token comma t m) -> Fields r [f] t
| Fields_more r f t m l e : Entry r f t -> Token comma t m -> Fields m l e -> Fields r (f :: l) e.
Definition field_val (f : field) : val :=
  let '(n, ty, public) := f in VList [VText n; VList (map VText ty); VNum (if public then 1%Z else 0%Z)].

(** ** The parsers *)

Lemma f_part x : is_match f_unit x = true <-> Part x.
Proof.
  cbn [f_unit Methods.u_or is_match]. unfold is_ascii_alnum, is_ascii_alpha, is_ascii_lower, is_ascii_upper, is_ascii_digit, between_N, Part, Letter.
  rewrite !orb_true_iff, !andb_true_iff, !N.leb_le, N.eqb_eq. intuition lia.
Qed.
Lemma f_letter x : is_match (Methods.u_or NAsciiAlphabetic (NChar 95%N)) x = true <-> Letter x.
Proof.
  cbn [Methods.u_or is_match]. unfold is_ascii_alpha, is_ascii_lower, is_ascii_upper, between_N, Letter.
  rewrite !orb_true_iff, !andb_true_iff, !N.leb_le, N.eqb_eq. intuition lia.
Qed.
Lemma gap_self r : tr r = r -> Gap r r.
Proof. intros E. apply gap_trim. now symmetry. Qed.
Lemma tname_idem r n t : TName (tr r) n t <-> TName r n t.
Proof. unfold TName. split; intros (x & g & s & m & A & B); exists x, g, s, m; (split; [now apply gap_idem|exact B]). Qed.
Lemma ty_makes : Makes f_ty (fun r v t => exists n, TName r n t /\ v = VText n).
Proof.
  eapply makes_ext'; [|apply (pat_ident _ f_ident Letter Part (fun s => s <> []) f_letter); [repeat constructor|]].
  - intros r v t Hr. cbn beta. split.
    + intros (x & g & s & m & -> & B & C & D & F & ->). exists (x :: g ++ s). split; [|reflexivity]. exists x, g, s, m. split; [now apply gap_self|auto 6].
    + intros (n & (x & g & s & m & A & B & C & D & F & ->) & ->). apply gap_trim in A. rewrite Hr in A. exists x, g, s, m. auto 7.
  - intros w i j _. apply (many1_at f_unit Part). apply f_part.
Qed.
Lemma ty_tfine : tfine f_ty.
Proof. split; [|reflexivity]. apply tc_pat. repeat constructor. Qed.
Lemma ident_makes1 : Makes f_ident (fun r v t => exists n, FName r n t /\ v = VText n).
Proof.
  eapply makes_ext; [|apply many1_makes]. intros r v t. cbn beta. unfold FName. split.
  - intros (s & R & N & ->). exists s. split; [|reflexivity]. split; [|exact N]. now apply (longest_run f_unit Part _ _ _ f_part).
  - intros (n & (R & N) & ->). exists n. split; [|auto]. now apply (longest_run f_unit Part _ _ _ f_part).
Qed.
Lemma enc_tcore p : tcore KStr [] skw is_slice p -> tcore KStr [] skw is_slice (PEnclose p (PLit [60]%N) (PLit [62]%N)).
Proof. intros C. apply tc_enclose; [exact C|constructor|constructor]. Qed.
Lemma enc_makes p R : tcore KStr [] skw is_slice p -> Makes p R -> Makes (PEnclose p (PLit [60]%N) (PLit [62]%N))
  (fun r v t => exists m m', r = langle ++ m /\ R (tr m) v m' /\ tr m' = rangle ++ t).
Proof. intros C P. apply enclose_makes with (E := fun r m => r = langle ++ m) (F := fun r t => r = rangle ++ t); [exact C|constructor|exact P|apply lit_eats|apply lit_eats]. Qed.

Definition pair_of (R : text -> list text -> text -> Prop) (val_of : list text -> val) (r : text) (v : val) (t : text) : Prop :=
  exists l, R r l t /\ v = val_of l.
Definition two (l : list text) : val := match l with [a; b] => VPair (VText a) (VText b) | _ => VNone end.
Definition three (l : list text) : val := match l with [a; b; c] => VPair (VText a) (VPair (VText b) (VText c)) | _ => VNone end.
Lemma two_tcore : tcore KStr [] skw is_slice (PThen f_ty (PEnclose f_ty (PLit [60]%N) (PLit [62]%N))).
Proof. apply tc_then; [apply ty_tfine|apply enc_tcore, ty_tfine]. Qed.
Lemma two_makes : Makes (PThen f_ty (PEnclose f_ty (PLit [60]%N) (PLit [62]%N))) (pair_of Type2 two).
Proof.
  eapply makes_ext; [|apply then_makes; [apply ty_tfine|apply ty_makes|apply enc_makes; [apply ty_tfine|apply ty_makes]]].
  intros r v t. cbn beta. unfold pair_of, Type2. split.
  - intros (a & m & b & (na & A & ->) & (n & o & E & (nb & B & ->) & F) & ->).
    exists [na; nb]. split; [|reflexivity]. exists na, nb, m, n, o. split; [exact A|]. split; [now apply token_trim|]. split; [now apply tname_idem|]. split; [now apply token_trim|reflexivity].
  - intros (l & (na & nb & m & n & o & A & E & B & F & ->) & ->).
    eexists _, m, _. split; [eauto|]. split; [|reflexivity]. exists n, o. split; [now apply token_trim|]. split; [exists nb; split; [now apply tname_idem|reflexivity]|now apply token_trim].
Qed.
Lemma three_makes : Makes (PThen f_ty (PEnclose (PThen f_ty (PEnclose f_ty (PLit [60]%N) (PLit [62]%N))) (PLit [60]%N) (PLit [62]%N))) (pair_of Type3 three).
Proof.
  eapply makes_ext; [|apply then_makes; [apply ty_tfine|apply ty_makes|apply enc_makes; [apply two_tcore|apply two_makes]]].
  intros r v t. cbn beta. unfold pair_of, Type2, Type3. split.
  - intros (a & m & b & (na & A & ->) & (n & s & E & (l & (nb & nc & o & p & q & B & F & C & K & ->) & ->) & L) & ->).
    exists [na; nb; nc]. split; [|reflexivity]. exists na, nb, nc, m, n, o, p, q, s. split; [exact A|]. split; [now apply token_trim|].
    split; [now apply tname_idem|]. split; [exact F|]. split; [exact C|]. split; [exact K|]. split; [now apply token_trim|reflexivity].
  - intros (l & (na & nb & nc & m & n & o & p & q & s & A & E & B & F & C & K & L & ->) & ->).
    eexists _, m, _. split; [eauto|]. split; [|reflexivity]. exists n, s. split; [now apply token_trim|].
    split; [|now apply token_trim]. exists [nb; nc]. split; [|reflexivity]. exists nb, nc, o, p, q. split; [now apply tname_idem|auto 6].
Qed.
Definition ty_val (l : list text) : val := VList (map VText l).
Lemma layer0_makes : Makes f_layer0 (pair_of Type1 ty_val).
Proof.
  eapply makes_ext; [|apply map_makes, ty_makes]. intros r v t. cbn beta. unfold pair_of, Type1. split.
  - intros (a & (n & T & ->) & E). injection E as <-. exists [n]. split; [eauto|reflexivity].
  - intros (l & (a & T & ->) & ->). exists (VText a). eauto.
Qed.
Lemma layer1_makes : Makes f_layer1 (pair_of Type2 ty_val).
Proof.
  eapply makes_ext; [|apply map_makes, wrap_makes, two_makes]. intros r v t. cbn beta. unfold pair_of. split.
  - intros (a & (l & T & ->) & E). exists l. split; [exact T|]. destruct T as (na & nb & m & n & o & _ & _ & _ & _ & ->). now injection E as <-.
  - intros (l & T & ->). exists (two l). split; [eauto|]. destruct T as (na & nb & m & n & o & _ & _ & _ & _ & ->). reflexivity.
Qed.
Lemma layer2_makes : Makes f_layer2 (pair_of Type3 ty_val).
Proof.
  eapply makes_ext; [|apply map_makes, wrap_makes, three_makes]. intros r v t. cbn beta. unfold pair_of. split.
  - intros (a & (l & T & ->) & E). exists l. split; [exact T|]. destruct T as (na & nb & nc & m & n & o & p & q & s & _ & _ & _ & _ & _ & _ & _ & ->). now injection E as <-.
  - intros (l & T & ->). exists (three l). split; [eauto|]. destruct T as (na & nb & nc & m & n & o & p & q & s & _ & _ & _ & _ & _ & _ & _ & ->). reflexivity.
Qed.
Lemma two_pair w i v j : Tree KStr [] skw is_slice w (PThen f_ty (PEnclose f_ty (PLit [60]%N) (PLit [62]%N))) i v j -> exists a b, v = VPair a b.
Proof. intros T. apply tr_then in T as (a & m & b & _ & _ & ->). eauto. Qed.
Lemma layer0_tfine : tfine f_layer0.
Proof. split; [|reflexivity]. apply tc_map; [apply ty_tfine|eauto]. Qed.
Lemma layer1_tfine : tfine f_layer1.
Proof.
  split; [|reflexivity]. apply tc_map; [apply tc_wrap, two_tcore|]. intros w i v j T. apply (proj1 (tr_wrap _ _ _ _ _ _ _ _ _)) in T. apply two_pair in T as (a & b & ->). eauto.
Qed.
Lemma layer2_tfine : tfine f_layer2.
Proof.
  split; [|reflexivity]. apply tc_map; [apply tc_wrap, tc_then; [apply ty_tfine|apply enc_tcore, two_tcore]|].
  intros w i v j T. apply (proj1 (tr_wrap _ _ _ _ _ _ _ _ _)) in T. apply tr_then in T as (a & m & b & _ & T & ->). apply tr_enclose in T as (? & ? & ? & ? & _ & T & _).
  apply two_pair in T as (c & d & ->). eauto.
Qed.
Lemma type_makes : Makes (POr f_layer2 (POr f_layer1 f_layer0)) (pair_of FType ty_val).
Proof.
  eapply makes_ext; [|apply or_makes; [apply layer2_tfine|apply layer2_makes|apply or_makes; [apply layer1_tfine|apply layer1_makes|apply layer0_makes]]].
  intros r v t. cbn beta. unfold pair_of, FType.
  assert (X : forall R : text -> list text -> text -> Prop, (~ exists (v0 : val) t0 l, R r l t0 /\ v0 = ty_val l) <-> forall l t, ~ R r l t).
  { intros R. split; [intros N l t0 H; apply N; eauto|]. intros N (v0 & t0 & l & H & _). now apply (N l t0). }
  rewrite !X. split.
  - intros [(l & H & ->)|(N & [(l & H & ->)|(N' & l & H & ->)])]; exists l; auto 7.
  - intros (l & [H|(N & [H|(N' & H)])] & ->); eauto 7.
Qed.
Lemma type_tfine : tfine (POr f_layer2 (POr f_layer1 f_layer0)).
Proof. split; [|reflexivity]. apply tc_or; [apply layer2_tfine|]. apply tc_or; [apply layer1_tfine|apply layer0_tfine]. Qed.
Lemma ident_tcore : tcore KStr [] skw is_slice f_ident.
Proof. apply tc_leaf; [exact I|repeat constructor]. Qed.
Lemma field_tfine : tfine f_field.
Proof. split; [|reflexivity]. apply tc_seponce; [apply ident_tcore|constructor|apply type_tfine]. Qed.
Lemma type_idem r l t : FType (tr r) l t <-> FType r l t.
Proof.
  assert (T1 : forall l t, Type1 (tr r) l t <-> Type1 r l t).
  { intros l0 t0. unfold Type1. split; intros (a & X & Y); exists a; (split; [now apply tname_idem|exact Y]). }
  assert (T2 : forall l t, Type2 (tr r) l t <-> Type2 r l t).
  { intros l0 t0. unfold Type2. split; intros (a & b & m & n & o & X & Y); exists a, b, m, n, o; (split; [now apply tname_idem|exact Y]). }
  assert (T3 : forall l t, Type3 (tr r) l t <-> Type3 r l t).
  { intros l0 t0. unfold Type3. split; intros (a & b & c & m & n & o & p & q & s & X & Y); exists a, b, c, m, n, o, p, q, s; (split; [now apply tname_idem|exact Y]). }
  unfold FType. setoid_rewrite T1. setoid_rewrite T2. setoid_rewrite T3. reflexivity.
Qed.
Definition fval (n : text) (ty : list text) : val := VPair (VText n) (ty_val ty).
Lemma field_makes : Makes f_field (fun r v t => exists n ty, Field r n ty t /\ v = fval n ty).
Proof.
  eapply makes_ext'; [|apply seponce_makes with (E := fun r t => r = colon ++ t); [apply ident_tcore|constructor|apply ident_makes1|apply lit_eats|apply type_makes]].
  intros r v t Hr. cbn beta. split.
  - intros (a & m & o & b & (n & F & ->) & E & (ty & T & ->) & ->). exists n, ty. split; [|reflexivity]. exists r, m, o.
    split; [now apply gap_self|]. split; [exact F|]. split; [now apply token_trim|now apply type_idem].
  - intros (n & ty & (r' & m & o & Gp & F & E & T) & ->). apply gap_trim in Gp. rewrite Hr in Gp. subst r'.
    eexists _, m, o, _. split; [eauto|]. split; [now apply token_trim|]. split; [|reflexivity]. exists ty. split; [now apply type_idem|reflexivity].
Qed.
Lemma field_idem r n ty t : Field (tr r) n ty t <-> Field r n ty t.
Proof. unfold Field. split; intros (r' & m & o & X & Y); exists r', m, o; (split; [now apply gap_idem|exact Y]). Qed.
Lemma field_pair w i v j : Tree KStr [] skw is_slice w f_field i v j -> exists a b, v = VPair a b.
Proof. intros T. apply tr_seponce in T as (a & m & b & m' & c & _ & _ & _ & ->). eauto. Qed.
Lemma public_tfine : tfine f_public.
Proof.
  split; [|reflexivity]. apply tc_map; [apply tc_prefix; [apply field_tfine|constructor]|]. intros w i v j T. apply tr_prefix in T as (b & m & _ & T).
  apply field_pair in T as (a & c & ->). cbn. eauto.
Qed.
Lemma private_tfine : tfine f_private.
Proof. split; [|reflexivity]. apply tc_map; [apply field_tfine|]. intros w i v j T. apply field_pair in T as (a & c & ->). cbn. eauto. Qed.
Lemma public_makes : Makes f_public (fun r v t => exists n ty, PubField r n ty t /\ v = field_val (n, ty, true)).
Proof.
  eapply makes_ext'; [|apply map_makes; apply prefix_makes with (E := fun r t => r = pub_word ++ t); [constructor|apply field_makes|apply lit_eats]].
  intros r v t Hr. cbn beta. split.
  - intros (a & (m & E & n & ty & F & ->) & X). injection X as <-. exists n, ty. split; [|reflexivity]. exists m. split; [apply token_trim; now rewrite Hr|now apply field_idem].
  - intros (n & ty & (m & E & F) & ->). exists (fval n ty). split; [|reflexivity]. exists m. split; [apply token_trim in E; now rewrite Hr in E|]. exists n, ty. split; [now apply field_idem|reflexivity].
Qed.
Lemma private_makes : Makes f_private (fun r v t => exists n ty, Field r n ty t /\ v = field_val (n, ty, false)).
Proof.
  eapply makes_ext; [|apply map_makes, field_makes]. intros r v t. cbn beta. split.
  - intros (a & (n & ty & F & ->) & X). injection X as <-. eauto.
  - intros (n & ty & F & ->). exists (fval n ty). split; [eauto|reflexivity].
Qed.
Lemma pub_idem r n ty t : PubField (tr r) n ty t <-> PubField r n ty t.
Proof. unfold PubField. split; intros (m & X & Y); exists m; (split; [now apply token_idem|exact Y]). Qed.
Lemma entry_makes : Makes (POr f_public f_private) (fun r v t => exists f, Entry r f t /\ v = field_val f).
Proof.
  eapply makes_ext; [|apply or_makes; [apply public_tfine|apply public_makes|apply private_makes]]. intros r v t. cbn beta.
  assert (X : (~ exists (v0 : val) t0 n ty, PubField r n ty t0 /\ v0 = field_val (n, ty, true)) <-> forall n ty t, ~ PubField r n ty t).
  { split; [intros N n ty t0 H; apply N; eauto 6|]. intros N (v0 & t0 & n & ty & H & _). now apply (N n ty t0). }
  rewrite X. split.
  - intros [(n & ty & F & ->)|(N & n & ty & F & ->)]; eexists (_, _, _); (split; [|reflexivity]); cbn; auto.
  - intros (((n & ty) & [|]) & F & ->); [left; eauto|right]. destruct F as (N & F). eauto.
Qed.
Lemma entry_tfine : tfine (POr f_public f_private).
Proof. split; [|reflexivity]. apply tc_or; [apply public_tfine|apply private_tfine]. Qed.
Lemma entry_idem r f t : Entry (tr r) f t <-> Entry r f t.
Proof.
  destruct f as ((n & ty) & [|]); cbn; [apply pub_idem|]. setoid_rewrite pub_idem. now rewrite field_idem.
Qed.
Lemma fields_tfine : tfine f_fields.
Proof. split; [|reflexivity]. apply tc_sep; [apply entry_tfine|constructor]. Qed.
Lemma fields_makes : Makes f_fields (fun r v t => exists l, Fields r l t /\ l <> [] /\ v = VList (map field_val l)).
Proof.
  eapply makes_ext; [|apply (sep_makes NWhitespace (POr f_public f_private) (PLit [44]%N) 1 _ (fun r t => r = comma ++ t) entry_tfine (lit_fine _ _) entry_makes (lit_eats _ _))].
  intros r v t. cbn beta. split.
  - intros (vs & B & L & ->). assert (X : exists l, Fields r l t /\ vs = map field_val l).
    { clear L. induction B as [r N|r v t (f & F & ->) N|r v m m' vs t (f & F & ->) E B (l & IH & ->)].
      - exists []. split; [|reflexivity]. apply Fields_stop. intros f t F. apply N. exists (field_val f), t, f. split; [now apply entry_idem|reflexivity].
      - exists [f]. split; [|reflexivity]. apply Fields_last; [now apply entry_idem|]. intros m X. apply token_trim in X. apply N. eauto.
      - exists (f :: l). split; [|reflexivity]. eapply Fields_more; [apply entry_idem; exact F|apply token_trim; exact E|exact IH]. }
    destruct X as (l & X & ->). exists l. split; [exact X|]. split; [|reflexivity]. intros ->. cbn in L. lia.
  - intros (l & P & N & ->). exists (map field_val l). split; [|split; [|reflexivity]].
    + clear N. induction P as [r N|r f t F N|r f t m l e F T P IH].
      * apply Between_stop. intros (v & t & f & F & _). apply (N f t). now apply entry_idem.
      * cbn [map]. apply Between_last; [exists f; split; [now apply entry_idem|reflexivity]|]. intros (t' & E). apply (N t'). now apply token_trim.
      * cbn [map]. eapply Between_step; [exists f; split; [apply entry_idem; exact F|reflexivity]|apply token_trim; exact T|exact IH].
    + rewrite map_length. destruct l; [now elim N|cbn; lia].
Qed.
Lemma fields_idem r l t : l <> [] -> (Fields (tr r) l t <-> Fields r l t).
Proof.
  intros N. split; intros U; inversion U; subst; try (now elim N).
  - apply Fields_last; [now apply entry_idem|assumption].
  - eapply Fields_more; [apply entry_idem; eassumption|eassumption|assumption].
  - apply Fields_last; [now apply entry_idem|assumption].
  - eapply Fields_more; [apply entry_idem; eassumption|eassumption|assumption].
Qed.

(** ** C69 *)

Theorem C69_fields w v :
  (exists c, Reads f_fields w (Ok v) c) <-> exists l t, Fields w l t /\ l <> [] /\ v = VList (map field_val l).
Proof.
  destruct (skip_builds NWhitespace f_fields _ w fields_tfine fields_makes) as (A & B & _). split.
  - intros (c & R). destruct (A v c (ex_intro _ tt R)) as (t & (l & U & N & ->) & _). exists l, t. split; [now apply fields_idem|auto].
  - intros (l & t & U & N & ->). destruct (B _ t (ex_intro _ l (conj (proj2 (fields_idem w l t N) U) (conj N eq_refl)))) as (y & R & _). eauto.
Qed.
Theorem C69_cursor w v c : Reads f_fields w (Ok v) c ->
  exists l t y, Fields w l t /\ v = VList (map field_val l) /\ c = cx KStr w y /\ exists r, Gap (skipn y w) r /\ Gap t r.
Proof.
  intros R. destruct (skip_builds NWhitespace f_fields _ w fields_tfine fields_makes) as (A & _ & _).
  destruct (A v c (ex_intro _ tt R)) as (t & (l & U & N & ->) & y & -> & _ & Y). exists l, t, y. split; [now apply fields_idem|].
  split; [reflexivity|]. split; [reflexivity|]. exists (tr t). rewrite !gap_trim. auto.
Qed.

Lemma longest_len P r s t : Longest P r s t -> length t + length s = length r.
Proof. intros (-> & _). rewrite app_length. lia. Qed.
Lemma tname_len r n t : TName r n t -> length t < length r.
Proof. intros (x & g & s & m & A & _ & L & L' & _). apply gap_len in A. apply longest_len in L, L'. cbn in A. rewrite app_length in A. lia. Qed.
Lemma type_len r l t : FType r l t -> length t < length r.
Proof.
  intros [(a & b & c & m & n & o & p & q & s & H)|(_ & [(a & b & m & n & o & H)|(_ & a & H & _)])];
  repeat match goal with H : _ /\ _ |- _ => destruct H end;
  repeat match goal with H : TName _ _ _ |- _ => apply tname_len in H | H : Token _ _ _ |- _ => apply token_len in H end; lia.
Qed.
Lemma field_len r n ty t : Field r n ty t -> length t < length r.
Proof. intros (r' & m & o & A & (B & _) & C & D). apply gap_len in A. apply longest_len in B. apply token_len in C. apply type_len in D. lia. Qed.
Lemma entry_len r f t : Entry r f t -> length t < length r.
Proof.
  destruct f as ((n & ty) & [|]); cbn.
  - intros (m & T & F). apply token_len in T. apply field_len in F. lia.
  - intros (_ & F). now apply field_len in F.
Qed.
Lemma entry_dec r : (exists f t, Entry r f t) \/ forall f t, ~ Entry r f t.
Proof.
  destruct (makes_dec NWhitespace _ _ r entry_tfine entry_makes) as [(v & t & f & F & _)|N].
  - left. exists f, t. now apply entry_idem.
  - right. intros f t F. apply N. exists (field_val f), t, f. split; [now apply entry_idem|reflexivity].
Qed.
Lemma text_eq_dec (a b : text) : {a = b} + {a <> b}.
Proof. apply list_eq_dec, N.eq_dec. Qed.
Lemma token_dec l r : (exists t, Token l r t) \/ forall t, ~ Token l r t.
Proof.
  destruct (text_eq_dec (firstn (length l) (tr r)) l) as [E|E].
  - left. exists (skipn (length l) (tr r)). apply token_trim.
    transitivity (firstn (length l) (tr r) ++ skipn (length l) (tr r)); [now rewrite firstn_skipn|now rewrite E].
  - right. intros t T. apply token_trim in T. apply E. rewrite T, firstn_app, firstn_all, Nat.sub_diag. apply app_nil_r.
Qed.
Lemma fields_exist : forall n r, length r <= n -> exists l t, Fields r l t.
Proof.
  induction n as [|n IH]; intros r L; (destruct (entry_dec r) as [(f & t & F)|N]; [|eexists [], r; now constructor]);
  pose proof (entry_len _ _ _ F); [lia|]. destruct (token_dec comma t) as [(m & T)|T].
  - pose proof (token_len _ _ _ T). destruct (IH m ltac:(lia)) as (l & e & X). exists (f :: l), e. eapply Fields_more; eauto.
  - exists [f], t. now apply Fields_last.
Qed.
(** Refused exactly if there is no field at the front; never a panic. *)
Theorem C69_err w : (exists e c, Reads f_fields w (Err e) c) <-> forall f t, ~ Entry w f t.
Proof.
  destruct (skip_builds NWhitespace f_fields _ w fields_tfine fields_makes) as (_ & _ & C). unfold Reads. rewrite C. split.
  - intros N f t F. apply N. destruct (token_dec comma t) as [(m & T)|T].
    + destruct (fields_exist _ m (le_n _)) as (l & e & X). exists (VList (map field_val (f :: l))), e, (f :: l). split; [|split; [discriminate|reflexivity]].
      apply fields_idem; [discriminate|]. eapply Fields_more; eauto.
    + exists (VList (map field_val [f])), t, [f]. split; [|split; [discriminate|reflexivity]]. apply fields_idem; [discriminate|]. now apply Fields_last.
  - intros N (v & t & l & U & NE & _). apply (proj1 (fields_idem w l t NE)) in U. inversion U; subst; [now elim NE| |]; eapply N; eauto.
Qed.
Theorem C69_total w : (exists v c, Reads f_fields w (Ok v) c) \/ (exists e c, Reads f_fields w (Err e) c).
Proof.
  destruct (entry_dec w) as [(f & t & F)|N]; [left|right; now apply C69_err]. destruct (fields_exist _ w (le_n _)) as (l & e & X).
  exists (VList (map field_val l)). apply C69_fields. exists l, e. split; [exact X|]. split; [|reflexivity]. intros ->. inversion X; subst. now apply (H f t).
Qed.

(** Written fields.  White space can stand between any two tokens; the names of types have at least two
    letters. *)
Definition FieldName (n : text) : Prop := Forall Part n /\ n <> [].
Definition TypeName (n : text) : Prop := exists x s, n = x :: s /\ Letter x /\ Forall Part s /\ s <> [].
Inductive WType : list text -> text -> Prop :=
| WT1 a : TypeName a -> WType [a] a
| WT2 a b g1 g2 g3 : TypeName a -> TypeName b -> Forall Blank g1 -> Forall Blank g2 -> Forall Blank g3 ->
    WType [a; b] (a ++ g1 ++ langle ++ g2 ++ b ++ g3 ++ rangle)
| WT3 a b c g1 g2 g3 g4 g5 g6 : TypeName a -> TypeName b -> TypeName c -> Forall Blank g1 -> Forall Blank g2 -> Forall Blank g3 -> Forall Blank g4 -> Forall Blank g5 -> Forall Blank g6 ->
    WType [a; b; c] (a ++ g1 ++ langle ++ g2 ++ b ++ g3 ++ langle ++ g4 ++ c ++ g5 ++ rangle ++ g6 ++ rangle).
(** A private field is written without the word; its name must not be those letters followed by more. *)
Definition WField (f : field) (w : text) : Prop :=
  let '(n, ty, public) := f in
  exists g g' s, FieldName n /\ Forall Blank g /\ Forall Blank g' /\ WType ty s /\
    if public then exists g0, Forall Blank g0 /\ w = pub_word ++ g0 ++ n ++ g ++ colon ++ g' ++ s
    else (forall m, m <> [] -> n <> pub_word ++ m) /\ w = n ++ g ++ colon ++ g' ++ s.
(** The list: fields with commas between them; a comma at the end is allowed. *)
Inductive WFields : list field -> text -> Prop :=
| WF_one f w : WField f w -> WFields [f] w
| WF_comma f w g : WField f w -> Forall Blank g -> WFields [f] (w ++ g ++ comma)
| WF_more f w g g' l w' : WField f w -> Forall Blank g -> Forall Blank g' -> WFields l w' -> WFields (f :: l) (w ++ g ++ comma ++ g' ++ w').
(** A text that does not go on with a letter or digit, an angle bracket, a comma or a field. *)
Definition Ends (t : text) : Prop :=
  (forall y t', t = y :: t' -> ~ Part y) /\ (forall m, ~ Token langle t m) /\ (forall m, ~ Token comma t m) /\ forall f m, ~ Entry t f m.

Lemma longest_det P r s t s' t' : (forall x, P x \/ ~ P x) -> Longest P r s t -> Longest P r s' t' -> s = s' /\ t = t'.
Proof.
  intros D (E & F & N) (E' & F' & N'). subst r. revert s' E' F'. induction F as [|x s Px F IH]; intros s' E' F'.
  - destruct s' as [|y s']; [cbn in E'; auto|]. inversion F'; subst. exfalso. cbn in E'. eapply N; eauto.
  - destruct s' as [|y s']; cbn in E'.
    + exfalso. symmetry in E'. eapply N'; eauto.
    + injection E' as -> E'. inversion F'; subst. destruct (IH _ E') as [-> ->]; auto.
Qed.
Lemma gap_det r a b : Gap r a -> Gap r b -> a = b.
Proof. rewrite !gap_trim. congruence. Qed.
Lemma token_det l r a b : Token l r a -> Token l r b -> a = b.
Proof. rewrite !token_trim. intros A B. rewrite A in B. now apply app_inv_head in B. Qed.
Lemma part_dec x : Part x \/ ~ Part x.
Proof. destruct (is_match f_unit x) eqn:E; [left; now apply f_part|right; intros H; apply f_part in H; congruence]. Qed.
Lemma blank_dec x : Blank x \/ ~ Blank x.
Proof. destruct (is_match NWhitespace x) eqn:E; [left; now apply blank_ws|right; intros H; apply blank_ws in H; congruence]. Qed.
Lemma tname_det r n t n' t' : TName r n t -> TName r n' t' -> n = n' /\ t = t'.
Proof.
  intros (x & g & s & m & A & _ & L & K & _ & ->) (x' & g' & s' & m' & A' & _ & L' & K' & _ & ->).
  pose proof (gap_det _ _ _ A A') as E. injection E as <- E. rewrite <- E in L'. destruct (longest_det _ _ _ _ _ _ blank_dec L L') as [-> ->].
  destruct (longest_det _ _ _ _ _ _ part_dec K K') as [-> ->]. auto.
Qed.
Definition stops (t : text) : Prop := forall y t', t = y :: t' -> ~ Part y.
Lemma stops_blank g t : Forall Blank g -> stops t -> stops (g ++ t).
Proof. intros [|c g' B F] S y t' E; [eapply S; eauto|]. injection E as <- _. now apply blank_not_part. Qed.
Lemma stops_item y t : ~ Part y -> stops (y :: t).
Proof. intros N a b E. now injection E as <- _. Qed.
Lemma tname_written g a t : Forall Blank g -> TypeName a -> stops t -> TName (g ++ a ++ t) a t.
Proof.
  intros F (x & s & -> & L & P & N) S. exists x, [], s, (s ++ t). split; [apply gap_blanks; [exact F|apply part_not_blank; now left]|].
  split; [exact L|]. split; [|split; [|auto]]; (split; [reflexivity|]; split; [constructor || exact P|]); [|exact S].
  destruct P as [|z s Pz P]; [now elim N|]. intros y t' E. injection E as <- _. now apply part_not_blank.
Qed.
Lemma token_written g y t : Forall Blank g -> ~ Blank y -> Token [y] (g ++ [y] ++ t) t.
Proof. intros. now apply gap_blanks. Qed.
Lemma type_written ty s g t : Forall Blank g -> WType ty s -> stops t -> (forall m, ~ Token langle t m) -> FType (g ++ s ++ t) ty t.
Proof.
  intros Fg W S NL.
  assert (SL : forall g t, Forall Blank g -> stops (g ++ langle ++ t)) by (intros; apply stops_blank; auto; apply stops_item; nope).
  assert (SR : forall g t, Forall Blank g -> stops (g ++ rangle ++ t)) by (intros; apply stops_blank; auto; apply stops_item; nope).
  assert (TL : forall g t, Forall Blank g -> Token langle (g ++ langle ++ t) t) by (intros; apply token_written; auto; nope).
  assert (TR : forall g t, Forall Blank g -> Token rangle (g ++ rangle ++ t) t) by (intros; apply token_written; auto; nope).
  destruct W as [a Ta|a b g1 g2 g3 Ta Tb F1 F2 F3|a b c g1 g2 g3 g4 g5 g6 Ta Tb Tc F1 F2 F3 F4 F5 F6].
  - pose proof (tname_written g a t Fg Ta S) as H. right. split; [|right; split; [|exists a; auto]].
    + intros l t' (a' & b & c & m & n & o & p & q & s & A & B & _). destruct (tname_det _ _ _ _ _ H A) as [_ <-]. now apply (NL n).
    + intros l t' (a' & b & m & n & o & A & B & _). destruct (tname_det _ _ _ _ _ H A) as [_ <-]. now apply (NL n).
  - rewrite <- !app_assoc.
    pose proof (tname_written g a (g1 ++ langle ++ g2 ++ b ++ g3 ++ rangle ++ t) Fg Ta ltac:(auto)) as H.
    pose proof (tname_written g2 b (g3 ++ rangle ++ t) F2 Tb ltac:(auto)) as H2.
    right. split; [|left].
    + intros l t' (a' & b' & c & m & n & o & p & q & s & A & B & C & D & _). destruct (tname_det _ _ _ _ _ H A) as [_ <-].
      pose proof (token_det _ _ _ _ (TL g1 _ F1) B) as <-. destruct (tname_det _ _ _ _ _ H2 C) as [_ <-].
      specialize (TR g3 t F3). apply token_trim in D, TR. rewrite TR in D. discriminate.
    + exists a, b. eexists _, _, _. split; [exact H|]. split; [auto|]. split; [exact H2|]. split; auto.
  - rewrite <- !app_assoc. left. exists a, b, c. eexists _, _, _, _, _, _.
    split; [apply tname_written; auto|]. split; [apply TL; auto|]. split; [apply tname_written; auto|]. split; [apply TL; auto|].
    split; [apply tname_written; auto|]. split; [apply TR; auto|]. split; [apply TR; auto|reflexivity].
Qed.
Lemma fname_gap g n t : Forall Blank g -> FieldName n -> stops t -> exists r', Gap (g ++ n ++ t) r' /\ FName r' n t.
Proof.
  intros F (P & N) S. exists (n ++ t). split.
  - destruct P as [|x n' Px P]; [now elim N|]. apply gap_blanks; [exact F|now apply part_not_blank].
  - split; [|exact N]. split; [reflexivity|]. split; [exact P|exact S].
Qed.
Lemma field_written g0 n g g' ty s t : Forall Blank g0 -> FieldName n -> Forall Blank g -> Forall Blank g' -> WType ty s -> stops t -> (forall m, ~ Token langle t m) ->
  Field (g0 ++ n ++ g ++ colon ++ g' ++ s ++ t) n ty t.
Proof.
  intros F0 N F F' W S NL. destruct (fname_gap g0 n (g ++ colon ++ g' ++ s ++ t) F0 N) as (r' & A & B); [apply stops_blank; auto; apply stops_item; nope|].
  exists r'. eexists _, _. split; [exact A|]. split; [exact B|]. split; [apply token_written; [exact F|nope]|now apply type_written].
Qed.
Lemma not_public n g r : FieldName n -> Forall Blank g -> (forall m, m <> [] -> n <> pub_word ++ m) ->
  forall n' ty' t', ~ PubField (n ++ g ++ colon ++ r) n' ty' t'.
Proof.
  intros (P & N) F H n' ty' t' (m & T & r' & m' & o & Gp & (L & Ne) & _).
  assert (S : stops (g ++ colon ++ r)) by (apply stops_blank; auto; apply stops_item; nope).
  assert (E : n ++ g ++ colon ++ r = pub_word ++ m).
  { apply token_trim in T. rewrite <- T. destruct P as [|x n0 Px P]; [now elim N|]. symmetry. apply solid_trim. now apply part_not_blank. }
  assert (Pw : Forall Part pub_word) by (repeat constructor; nope).
  assert (X : exists k, n = pub_word ++ k /\ m = k ++ g ++ colon ++ r).
  { clear - E S Pw. revert n E. generalize pub_word Pw. clear Pw. intros q Q. induction Q as [|a q Qa Q IH]; intros n E.
    - exists n. auto.
    - destruct n as [|b n]; cbn in E.
      + exfalso. eapply S; eauto.
      + injection E as -> E. destruct (IH n E) as (k & -> & K). exists k. auto. }
  destruct X as ([|z k] & En & ->); [|now apply (H (z :: k))].
  apply gap_trim in Gp. cbn [app] in Gp. rewrite blanks_trim in Gp by exact F. cbn in Gp. subst r'.
  destruct L as (E' & Fn & _). destruct Fn as [|y n1 Py Fn]; [now elim Ne|]. injection E' as <- _. revert Py. nope.
Qed.
Lemma entry_written g f w t : Forall Blank g -> WField f w -> stops t -> (forall m, ~ Token langle t m) -> Entry (g ++ w ++ t) f t.
Proof.
  intros Fg W S NL. apply entry_idem. destruct f as ((n & ty) & [|]); destruct W as (g1 & g2 & s & N & F1 & F2 & WT & X).
  - destruct X as (g0 & F0 & ->). exists (g0 ++ n ++ g1 ++ colon ++ g2 ++ s ++ t). rewrite <- !app_assoc. split.
    + apply token_idem. apply gap_blanks; [exact Fg|nope].
    + now apply field_written.
  - destruct X as (H & ->). rewrite <- !app_assoc. rewrite blanks_trim by exact Fg. apply entry_idem. split.
    + now apply not_public.
    + now apply (field_written []).
Qed.
Lemma fields_written l w g tail : Forall Blank g -> WFields l w -> Ends tail -> exists t, Fields (g ++ w ++ tail) l t /\ Gap t (tr tail).
Proof.
  intros Fg W (E1 & E2 & E3 & E4). revert g Fg. induction W as [f w W|f w g1 W F1|f w g1 g2 l w' W F1 F2 WS IH]; intros g Fg.
  - exists tail. split; [|now apply gap_trim]. apply Fields_last; [now apply entry_written|exact E3].
  - exists tail. split; [|now apply gap_trim]. rewrite <- !app_assoc.
    apply Fields_more with (t := g1 ++ comma ++ tail) (m := tail); [|apply token_written; [exact F1|nope]|now apply Fields_stop].
    apply entry_written; auto; [apply stops_blank; auto; apply stops_item; nope|].
    intros m T. apply token_trim in T. rewrite blanks_trim in T by exact F1. discriminate.
  - destruct (IH g2 F2) as (t & X & Y). exists t. split; [|exact Y]. rewrite <- !app_assoc.
    apply Fields_more with (t := g1 ++ comma ++ g2 ++ w' ++ tail) (m := g2 ++ w' ++ tail); [|apply token_written; [exact F1|nope]|exact X].
    apply entry_written; auto; [apply stops_blank; auto; apply stops_item; nope|].
    intros m T. apply token_trim in T. rewrite blanks_trim in T by exact F1. discriminate.
Qed.
(** Reading written fields gives them back, whatever the white space. *)
Theorem C69_written l w g tail : Forall Blank g -> WFields l w -> Ends tail ->
  forall v, (exists c, Reads f_fields (g ++ w ++ tail) (Ok v) c) <-> v = VList (map field_val l).
Proof.
  intros Fg W E v. destruct (fields_written l w g tail Fg W E) as (t & X & _).
  assert (R : exists c, Reads f_fields (g ++ w ++ tail) (Ok (VList (map field_val l))) c) by (apply C69_fields; exists l, t; split; [exact X|split; [now destruct W|reflexivity]]).
  split; [|intros ->; exact R]. intros (c & R1). destruct R as (c' & R'). destruct (builds_det _ _ _ _ _ _ _ _ _ _ _ _ R1 R') as (Y & _). now injection Y as ->.
Qed.

Lemma ends_nil : Ends [].
Proof.
  split; [discriminate|]. split; [intros m T; apply token_len in T; cbn in T; lia|]. split; [intros m T; apply token_len in T; cbn in T; lia|].
  intros f m E. apply entry_len in E. cbn in E. lia.
Qed.
(** A private field whose name starts with the letters of the word is taken for a public one with a
    shorter name. *)
Theorem C69_pub_prefix_refuted n ty s : FieldName n -> WType ty s -> exists c,
  Reads f_fields ((pub_word ++ n) ++ colon ++ s) (Ok (VList [field_val (n, ty, true)])) c.
Proof.
  intros N W. pose proof (C69_written [(n, ty, true)] (pub_word ++ [] ++ n ++ [] ++ colon ++ [] ++ s) [] []) as X. cbn [app] in X. rewrite app_nil_r in X.
  apply X; [constructor| |apply ends_nil|reflexivity]. constructor. exists [], [], s. split; [exact N|]. split; [constructor|]. split; [constructor|]. split; [exact W|].
  exists []. split; [constructor|reflexivity].
Qed.
(** A type with a name of one letter is refused. *)
Theorem C69_short_type_refuted n x : FieldName n -> Letter x -> exists e c, Reads f_fields (n ++ colon ++ [x]) (Err e) c.
Proof.
  intros N L. apply C69_err. intros f t E.
  assert (NF : forall k n' ty t, Forall Part k -> ~ Field (k ++ colon ++ [x]) n' ty t).
  { intros k n' ty t' Pk (r' & m & o & Gp & (Ln & Ne) & T & FT).
    assert (r' = k ++ colon ++ [x]) as ->.
    { apply gap_trim in Gp as ->. destruct Pk as [|y k Py Pk]; [reflexivity|]. apply solid_trim. now apply part_not_blank. }
    assert (Lk : Longest Part (k ++ colon ++ [x]) k (colon ++ [x])).
    { split; [reflexivity|]. split; [exact Pk|]. intros y u Eu. injection Eu as <- _. nope. }
    destruct (longest_det _ _ _ _ _ _ part_dec Ln Lk) as [_ ->]. clear Ln Lk.
    pose proof (token_det _ _ _ _ (token_written [] 58%N [x] ltac:(constructor) ltac:(nope)) T) as <-.
    assert (NT : forall a u, ~ TName [x] a u).
    { intros a u (y & g & s & m & A & _ & B & C & D & _). apply gap_trim in A. rewrite solid_trim in A by (apply part_not_blank; now left).
      injection A as -> A. apply app_eq_nil in A as [-> ->]. destruct C as (C & _). symmetry in C. now apply app_eq_nil in C as [-> _]. }
    destruct FT as [(a & b & c & m & p & o & q & q' & s & A & _)|(_ & [(a & b & m & p & o & A & _)|(_ & a & A & _)])]; now apply NT in A. }
  destruct N as (P & Ne). destruct f as ((n' & ty) & [|]).
  - destruct E as (m & T & F).
    assert (Pw : Forall Part pub_word) by (repeat constructor; nope).
    assert (E : n ++ colon ++ [x] = pub_word ++ m).
    { apply token_trim in T. rewrite <- T. destruct P as [|y n0 Py P]; [now elim Ne|]. symmetry. apply solid_trim. now apply part_not_blank. }
    assert (X : exists k, n = pub_word ++ k /\ m = k ++ colon ++ [x]).
    { clear - E Pw. revert n E. generalize pub_word Pw. clear Pw. intros q Q. induction Q as [|a q Qa Q IH]; intros n E.
      - exists n. auto.
      - destruct n as [|b n]; cbn in E.
        + exfalso. injection E as <- _. revert Qa. nope.
        + injection E as -> E. destruct (IH n E) as (k & -> & K). exists k. auto. }
    destruct X as (k & -> & ->). apply Forall_app in P as [_ P]. now apply NF in F.
  - destruct E as (_ & F). now apply NF in F.
Qed.
(** [a: i64, b: Option<String>, pub c: bool]. *)
Example C69_case :
  let w := [97; 58; 32; 105; 54; 52; 44; 32; 98; 58; 32; 79; 112; 60; 83; 116; 62; 44; 32; 112; 117; 98; 32; 99; 58; 32; 98; 111; 111; 108]%N in
  exists c, Reads f_fields w (Ok (VList [field_val ([97]%N, [[105; 54; 52]]%N, false); field_val ([98]%N, [[79; 112]; [83; 116]]%N, false);
    field_val ([99]%N, [[98; 111; 111; 108]]%N, true)])) c.
Proof. eexists. exists 30. split; [vm_compute; reflexivity|discriminate]. Qed.

Print Assumptions C69_fields.
Print Assumptions C69_cursor.
Print Assumptions C69_err.
Print Assumptions C69_total.
Print Assumptions C69_written.
Print Assumptions C69_pub_prefix_refuted.
Print Assumptions C69_short_type_refuted.
