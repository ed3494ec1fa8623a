(** C74: what a parser builds has the type its parts say, and a parser whose functions fit together does
    not panic.

    [typed p A] (Types.v) has one rule per [impl Ctor]; [inh A v] are the values of the type [A]. *)

From Coq Require Import List Arith NArith ZArith Bool Lia.
From Verif Require Import Base Text Context Neu Syntax Regex Ctor Api Maps TextProofs Spec Core Obs CtorSpec ConSpec MapLaws PropMaps PropCon
  Json JsonLaws PropJson Types TypeLaws Samples.
Import ListNotations.

(** Whatever the context, the policies and the position: a value that is returned has the type of the
    parser, provided what the handler returns has the type [H::Out]. *)
Theorem C74_value : forall S (h : handler S) (Out : val -> Prop) b T G pols p A c st v c' st',
  (forall c s st v, fst (h c s st) = Ok v -> Out v) ->
  typed_env Out b T G -> typed Out b T p A ->
  Builds h G pols p c st (Ok v) c' st' -> inh Out A v.
Proof.
  intros S h Out b T G pols p A c st v c' st' HO HG Tp (n & E & _).
  exact (construct_typed h Out b T G HO HG pols n [] p A Tp _ _ _ E).
Qed.

(** If moreover no function given by the user panics on arguments of its type, nothing panics. *)
Theorem C74_no_panic : forall S k G sk pols hv (h : handler S) (Out : val -> Prop) T p A w i st c' st',
  InScope k G sk pols hv h p -> i <= length w ->
  (forall w b j s, gives Out true TOut (fst (hv w b j s))) ->
  typed_env Out true T G -> typed Out true T p A ->
  ~ Builds h G pols p (cx k w i) st Panic c' st'.
Proof.
  intros S k G sk pols hv h Out T p A w i st c' st' C Hi HH HG Tp B.
  assert (P : Con k G sk hv w p i st CP) by (apply (C70_panicked S k G sk pols hv h p w i st C Hi); eauto).
  exact (proj1 (con_typed k G sk hv Out T HG HH) w p i st CP P A Tp).
Qed.

(** So a call that returns gives back a value of the type or an error. *)
Theorem C74_returned : forall S k G sk pols hv (h : handler S) (Out : val -> Prop) T p A w i st r c' st',
  InScope k G sk pols hv h p -> i <= length w ->
  (forall w b j s, gives Out true TOut (fst (hv w b j s))) ->
  (forall c s st v, fst (h c s st) = Ok v -> Out v) ->
  typed_env Out true T G -> typed Out true T p A ->
  Builds h G pols p (cx k w i) st r c' st' ->
  (exists v, r = Ok v /\ inh Out A v) \/ (exists e, r = Err e).
Proof.
  intros S k G sk pols hv h Out T p A w i st r c' st' C Hi HH HO HG Tp B. destruct r as [v|e| |].
  - left. exists v. split; [reflexivity|]. eapply C74_value; eassumption.
  - right. now exists e.
  - exfalso. eapply C74_no_panic; eassumption.
  - destruct B as (n & E & N). now elim N.
Qed.

(** ** The types of the extractors *)

Definition is_text (v : val) : Prop := exists t, v = VText t.
Definition is_span (v : val) : Prop := exists s, v = VSpan s.
(** [ctor::<&str>] and [ctor::<&[u8]>] build texts, [ctor_span] spans; neither ever panics. *)
Theorem C74_extractors : forall c s st,
  gives is_text true TOut (fst (extract_text c s st)) /\ gives is_span true TOut (fst (extract_span c s st)).
Proof.
  intros c s st. split; [|cbn; now exists s]. cbn. unfold orig_sub. destruct (drop_at _ _ _) as [l|]; [|exact I].
  destruct (take_at _ _ _) as [t|]; [|exact I]. now exists t.
Qed.

(** ** The types of the mappers *)

(** The mapper takes values of type [A] to values of type [B] or to errors, and does not panic. *)
Definition maps (Out : val -> Prop) (m : mapper) (A B : ty) : Prop :=
  forall v, inh Out A v -> gives Out true B (try_map m v).

(** Bytes; numbers of an integer type; texts of Unicode scalar values. *)
Definition byte_string (v : val) : Prop := exists l, v = VText l /\ Forall is_byte l.
Definition number (t : ity) (v : val) : Prop := exists z, v = VNum z /\ (i_min t <= z <= i_max t)%Z.
Definition unicode (v : val) : Prop := exists l, v = VText l /\ valid_text KStr l = true.

Theorem C74_select : forall Out A B n,
  maps Out (select0 n) (TPair A B) A /\ maps Out (select1 n) (TPair A B) B /\
  forall eqb, maps Out (select_eq eqb n) (TPair A B) (TPair A B) /\ maps Out (select_neq eqb n) (TPair A B) (TPair A B).
Proof.
  intros Out A B n. split; [|split; [|intros eqb; split]]; intros [] H; cbn in *; try contradiction; try apply H;
    destruct (eqb _ _); cbn; auto.
Qed.
Theorem C74_same_type : forall Out A n leb ltb lo hi,
  maps Out (bounded leb ltb lo hi n) A A /\ maps Out (fixed_size n) A A.
Proof.
  intros Out A n leb ltb lo hi. repeat split; intros v H; cbn; auto. destruct (_ && _); cbn; auto.
Qed.
Theorem C74_with_default : forall Out A B m f, maps Out m A B -> inh Out B f -> maps Out (with_default f m) A B.
Proof.
  intros Out A B m f M F v H. specialize (M v H). cbn. destruct (try_map m v); cbn in *; auto.
Qed.
(** A default also makes the mapper total: there are no more errors. *)
Theorem C74_with_default_ok : forall Out A B m f, maps Out m A B -> inh Out B f ->
  forall v, inh Out A v -> exists x, try_map (with_default f m) v = Ok x /\ inh Out B x.
Proof.
  intros Out A B m f M F v H. specialize (M v H). cbn. destruct (try_map m v); cbn in *; eauto; discriminate.
Qed.
Theorem C74_decoders : forall Out t, 1 <= i_size t ->
  maps Out (from_le_bytes t) (TIs byte_string) (TIs (number t)) /\
  maps Out (from_be_bytes t) (TIs byte_string) (TIs (number t)) /\
  forall big, maps Out (from_ne_bytes big t) (TIs byte_string) (TIs (number t)).
Proof.
  intros Out t H.
  assert (LE : maps Out (from_le_bytes t) (TIs byte_string) (TIs (number t))).
  { intros v (l & -> & F). destruct (Nat.le_gt_cases (i_size t) (length l)) as [L|L].
    - destruct (C38_le t l H F L) as (z & E & R & _). rewrite E. cbn. now exists z.
    - now rewrite (proj1 (C38_short t l L)). }
  assert (BE : maps Out (from_be_bytes t) (TIs byte_string) (TIs (number t))).
  { intros v (l & -> & F). destruct (Nat.le_gt_cases (i_size t) (length l)) as [L|L].
    - destruct (C38_be t l H F L) as (z & E & R & _). rewrite E. cbn. now exists z.
    - now rewrite (proj1 (proj2 (C38_short t l L))). }
  split; [exact LE|split; [exact BE|]]. intros big v (l & -> & F). rewrite C38_ne. destruct (_ <=? _); [|exact I].
  destruct big; [apply BE|apply LE]; now exists l.
Qed.
Theorem C74_numbers : forall Out t radix, 1 <= i_size t -> (2 <= radix <= 36)%N ->
  maps Out (from_str t) (TIs is_text) (TIs (number t)) /\
  maps Out (from_str_radix t radix) (TIs is_text) (TIs (number t)) /\
  (forall t', maps Out (try_into t) (TIs (number t')) (TIs (number t))) /\
  (forall t', (i_min t <= i_min t' /\ i_max t' <= i_max t)%Z -> maps Out (into t) (TIs (number t')) (TIs (number t))).
Proof.
  assert (D : forall t r l z, Denotes t r l z -> (i_min t <= z <= i_max t)%Z) by (intros t r l z (ds & n & _ & _ & _ & B); exact B).
  intros Out t radix H R. split; [|split; [|split]].
  - intros v (l & ->). cbn. destruct (parse_int t 10 l) as [z|] eqn:E; [|exact I]. exists z. split; [reflexivity|].
    apply (D t 10%N l). apply (C53_from_str t l z H). cbn. now rewrite E.
  - intros v (l & ->). destruct (C53_from_str_radix t radix l (try_map (from_str_radix t radix) (VText l)) H R) as [S1 S2].
    destruct (S2 eq_refl) as [(z & E)|E]; rewrite E; [|exact I]. exists z. split; [reflexivity|]. now apply (D t radix l), S1.
  - intros t' v (z & -> & _). cbn. destruct (in_type t z) eqn:E; [|exact I]. exists z. split; [reflexivity|]. now apply in_type_spec.
  - intros t' L v (z & -> & B). exists z. split; [reflexivity|lia].
Qed.
Theorem C74_from_utf8 : forall Out n, maps Out (from_utf8 n) (TIs is_text) (TIs unicode).
Proof.
  intros Out n v (l & ->). cbn. destruct (decode l) as [t|] eqn:E; [|exact I].
  exists t. split; [reflexivity|]. now apply (decode_raw (length l) l t).
Qed.
(** A mapped parser has the mapper's result type. *)
Theorem C74_mapped : forall Out b T p m A B, typed Out b T p A -> maps Out m A B -> typed Out b T (mapped p m) B.
Proof.
  intros Out b T p m A B Tp M. eapply t_map; [exact Tp|]. intros v H. specialize (M v H). destruct (try_map m v); cbn in *; auto; discriminate.
Qed.

(** ** A typed grammar: the parser of examples/json.rs builds values of its [enum] *)

Definition is_json (f64 : text -> val) (v : val) : Prop := exists j, v = as_val f64 j.
Lemma json_values f64 l : Forall (is_json f64) l -> exists js, l = map (as_val f64) js.
Proof. induction 1 as [|v l (j & ->) _ (js & ->)]; [now exists []|now exists (j :: js)]. Qed.
Lemma json_members f64 l : Forall (inh is_text (TPair TOut (TIs (is_json f64)))) l ->
  exists ms, l = map (fun m => VPair (VText (fst m)) (as_val f64 (snd m))) ms.
Proof.
  induction 1 as [|v l H _ (ms & ->)]; [now exists []|]. destruct v; try contradiction. destruct H as [(t & ->) (j & ->)].
  now exists ((t, j) :: ms).
Qed.
Lemma json_typed f64 b : typed_env is_text b (fun _ => TIs (is_json f64)) (j_env f64).
Proof.
  assert (E : typed is_text b (fun _ => TIs (is_json f64)) (j_ele f64) (TIs (is_json f64))).
  { apply t_wrap, t_prefix, t_suffix. repeat apply t_or.
    - apply t_wrap. apply (t_map _ _ _ _ _ TOut); [apply t_pat|]. intros v (t & ->). now exists (JNum t).
    - apply (t_map _ _ _ _ _ TOut); [apply t_wrap, t_enclose, t_pat|]. intros v (t & ->). now exists (JStr t).
    - apply (t_map _ _ _ _ _ TOut); [apply t_leaf; constructor|]. intros v _. now exists (JBool true).
    - apply (t_map _ _ _ _ _ TOut); [apply t_leaf; constructor|]. intros v _. now exists (JBool false).
    - apply (t_map _ _ _ _ _ TOut); [apply t_leaf; constructor|]. intros v _. now exists JNull.
    - apply (t_ref is_text b (fun _ => TIs (is_json f64)) 0). }
  intros [|i] p G; [injection G as <-|destruct i; discriminate]. apply t_wrap, t_or.
  - apply (t_map _ _ _ _ _ (TVec (TPair TOut (TIs (is_json f64))))).
    + apply t_wrap, t_enclose, t_sep, t_seponce; [apply t_prefix, t_suffix, t_enclose, t_leaf; constructor|exact E].
    + intros v H. destruct v; try contradiction. destruct (json_members f64 l H) as (ms & ->). now exists (JObj ms).
  - apply (t_map _ _ _ _ _ (TVec (TIs (is_json f64)))); [apply t_enclose, t_sep, E|].
    intros v H. destruct v; try contradiction. destruct (json_values f64 l H) as (js & ->). now exists (JArr js).
Qed.
Lemma json_con_ok f64 : con_ok_env KBytes (j_env f64) no_skip.
Proof.
  assert (M : forall p f, con_ok KBytes (j_env f64) no_skip p -> (forall v, f v <> OOF) -> con_ok KBytes (j_env f64) no_skip (PMap p f)) by (intros; now apply ok_map).
  assert (E : con_ok KBytes (j_env f64) no_skip (j_ele f64)).
  { apply ok_wrap, ok_prefix; [apply ok_suffix|]; [|repeat constructor..]. repeat apply ok_or.
    - apply ok_wrap, M; [apply ok_pat; repeat constructor|intros []; discriminate].
    - apply M; [apply ok_wrap, ok_enclose; [apply ok_pat; repeat constructor|repeat constructor..]|discriminate].
    - apply M; [apply ok_leaf; repeat constructor|discriminate].
    - apply M; [apply ok_leaf; repeat constructor|discriminate].
    - apply M; [apply ok_leaf; repeat constructor|discriminate].
    - apply ok_ref. }
  intros [|i] p G; [injection G as <-|destruct i; discriminate]. apply ok_wrap, ok_or.
  - apply M; [|discriminate]. apply ok_wrap, ok_enclose; [|repeat constructor..]. apply ok_sep; [|repeat constructor].
    apply ok_seponce; [|repeat constructor|exact E].
    apply ok_prefix; [apply ok_suffix; [apply ok_enclose; [apply ok_leaf|..]|]|]; repeat constructor.
  - apply M; [|discriminate]. apply ok_enclose; [apply ok_sep; [exact E|]|..]; repeat constructor.
Qed.
Example C74_case : forall f64 w r c, JsonParses f64 w r c -> (exists j, r = Ok (as_val f64 j)) \/ (exists e, r = Err e).
Proof.
  intros f64 w r c B. unfold JsonParses in B. rewrite <- (cx_bytes w 0) in B by lia.
  assert (C : InPlainScope KBytes (j_env f64) (asked KBytes extract_text) extract_text (PRef 0)).
  { apply C70_every_handler; [|apply json_core|apply json_con_ok|apply ok_ref].
    intros c0 s st. destruct (C74_extractors c0 s st) as [X _]. intros Y. rewrite Y in X. discriminate X. }
  destruct (C74_returned unit KBytes (j_env f64) no_skip [] _ extract_text is_text (fun _ => TIs (is_json f64)) (PRef 0) (TIs (is_json f64)) w 0 tt r c tt C) as [(v & -> & j & ->)|H]; auto.
  - lia.
  - intros w0 b j s. apply C74_extractors.
  - intros c0 s st v Y. destruct (C74_extractors c0 s st) as [X _]. rewrite Y in X. exact X.
  - apply json_typed.
  - apply (t_ref is_text true (fun _ => TIs (is_json f64)) 0).
  - left. now exists j.
Qed.
(** [C55_case_run] is a call of this parser that returns a value. *)

(** The types matter: selecting the first component of what is not a pair - a program rustc rejects - is
    a panic in the model, and this parser has no type with [calm = true]. *)
Example C74_ill_typed :
  let p := mapped (PLit [97]%N) (select0 0) in
  Builds extract_text [] [] p (cx KStr [97]%N 0) tt Panic (cx KStr [97]%N 1) tt /\
  forall T A, ~ typed is_text true T p A.
Proof.
  cbn zeta. assert (B : Builds extract_text [] [] (mapped (PLit [97]%N) (select0 0)) (cx KStr [97]%N 0) tt Panic (cx KStr [97]%N 1) tt).
  { exists 9. split; [reflexivity|discriminate]. }
  split; [exact B|]. intros T A Tp.
  assert (C : InPlainScope KStr [] (asked KStr extract_text) extract_text (mapped (PLit [97]%N) (select0 0))).
  { apply C70_every_handler.
    - intros c0 s st. destruct (C74_extractors c0 s st) as [X _]. intros Y. rewrite Y in X. discriminate X.
    - intros x q E. destruct x; discriminate E.
    - intros x q E. destruct x; discriminate E.
    - apply ok_map; [apply ok_leaf; repeat constructor|intros []; discriminate]. }
  refine (C74_no_panic unit KStr [] no_skip [] _ extract_text is_text T _ A [97]%N 0 tt _ tt C _ _ _ Tp B); [cbn; lia| |intros x q E; destruct x; discriminate E].
  intros w0 b j s. apply C74_extractors.
Qed.

(** Pairs, options, vectors: the optional part of [if_then] is [VNone] or [VSome] of its type. *)
Definition ex_typed : pat := PRepeat (PIfThen (PThen (PLit [97]%N) (POption (PLit [98]%N))) (PLit [99]%N) (PLit [100]%N)) (CRange (Incl 0) Unb).
Example C74_value_case : forall T b,
  typed is_text b T ex_typed (TVec (TPair (TPair TOut (TOpt TOut)) (TOpt TOut))) /\
  Builds extract_text [] [] ex_typed (cx KStr [97; 98; 97; 99; 100]%N 0) tt
    (Ok (VList [VPair (VPair (VText [97]) (VSome (VText [98]))) VNone;
                VPair (VPair (VText [97]) VNone) (VSome (VText [100]))]%N)) (cx KStr [97; 98; 97; 99; 100]%N 5) tt.
Proof.
  intros T b. split; [|exists 40; split; [reflexivity|discriminate]].
  apply t_repeat, t_ifthen; [apply t_then; [|apply t_option]|]; apply t_leaf; repeat constructor.
Qed.
(** Arrays of fixed size: two cells, the second empty. *)
Example C74_array_case : forall T,
  typed is_text false T (PRepeat2 (PLit [97]%N) 1 2) (TArray 2 TOut) /\
  Builds extract_text [] [] (PRepeat2 (PLit [97]%N) 1 2) (cx KStr [97; 98]%N 0) tt
    (Ok (VList [VSome (VText [97]%N); VNone])) (cx KStr [97; 98]%N 1) tt.
Proof.
  intros T. split; [|exists 40; split; [reflexivity|discriminate]].
  apply t_repeat2; [reflexivity|]. apply t_leaf; repeat constructor.
Qed.
(** The mappers: u16 from bytes, and a number read from digits. *)
Example C74_mappers_case :
  byte_string (VText [1; 2; 3]%N) /\ try_map (from_le_bytes (ITy 2 false)) (VText [1; 2; 3]%N) = Ok (VNum 513) /\
  is_text (VText [50; 53; 54]%N) /\ try_map (from_str (ITy 1 false)) (VText [50; 53; 54]%N) = Err EFromStr /\
  try_map (with_default (VNum 0) (from_str (ITy 1 false))) (VText [50; 53; 54]%N) = Ok (VNum 0).
Proof. repeat split; try (eexists; repeat split; repeat constructor). Qed.

Print Assumptions C74_value.
Print Assumptions C74_no_panic.
Print Assumptions C74_returned.
Print Assumptions C74_extractors.
Print Assumptions C74_select.
Print Assumptions C74_same_type.
Print Assumptions C74_with_default.
Print Assumptions C74_with_default_ok.
Print Assumptions C74_decoders.
Print Assumptions C74_numbers.
Print Assumptions C74_from_utf8.
Print Assumptions C74_mapped.
