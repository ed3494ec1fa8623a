(** The same parser on a text and on the UTF-8 bytes of that text.

    [Twin p q] relates a parser of [str] to the parser of [[u8]] a user would write for the encoded
    text.  A lock-step simulation shows that they do the same: Rel.v has the rules for the combinators,
    the leaves and the cursor positions are treated here. *)

From Coq Require Import List Arith NArith Bool Lia.
From Verif Require Import Base Text Context Neu Syntax Regex Ctor Api TextProofs Spec Units Leaf Core Obs Sound Mono Rel ConSpec.
Import ListNotations.

(** The bytes of a text. *)
Notation bytes_of := (raw KStr).

(** [u] on characters and [v] on bytes accept the same ASCII characters and nothing else, and announce
    the same minimal length. *)
Definition ascii_twin (u v : neu) : Prop :=
  (forall x, (x < 0x80)%N -> is_match v x = is_match u x) /\
  (forall x, (0x80 <= x)%N -> is_match u x = false /\ is_match v x = false) /\
  min_length KStr u = min_length KBytes v.
(** [u] on characters and [v] on bytes accept the same ASCII characters, and everything else. *)
Definition wide_twin (u v : neu) : Prop :=
  (forall x, (x < 0x80)%N -> is_match v x = is_match u x) /\
  (forall x, (0x80 <= x)%N -> is_match u x = true /\ is_match v x = true).

(** The parser of the bytes: the literals are encoded, one-character units are restricted to ASCII, runs
    of units may also take everything outside ASCII; everything else is the same. *)
Inductive Twin : pat -> pat -> Prop :=
| tw_empty : Twin PEmpty PEmpty
| tw_fail : Twin PFail PFail
| tw_start : Twin PStart PStart
| tw_end : Twin PEnd PEnd
| tw_consume_all : Twin PConsumeAll PConsumeAll
| tw_lit l : Twin (PLit l) (PLit (bytes_of l))
| tw_assert p p' v : Twin p p' -> Twin (PAssert p v) (PAssert p' v)
| tw_leaf p p' : Twin p p' -> Twin (PLeaf p) (PLeaf p')
| tw_once u v c c' : ascii_twin u v -> CondTwin c c' -> Twin (POnce u c) (POnce v c')
| tw_opt u v c c' : ascii_twin u v -> CondTwin c c' -> Twin (POpt u c) (POpt v c')
| tw_many1 u v c c' : ascii_twin u v -> CondTwin c c' -> Twin (PMany1 u c) (PMany1 v c')
| tw_many0 u v c c' : ascii_twin u v -> CondTwin c c' -> Twin (PMany0 u c) (PMany0 v c')
| tw_many1_wide u v : wide_twin u v -> Twin (PMany1 u CEmpty) (PMany1 v CEmpty)
| tw_many0_wide u v : wide_twin u v -> Twin (PMany0 u CEmpty) (PMany0 v CEmpty)
| tw_between m n u v c c' : ascii_twin u v -> CondTwin c c' -> Twin (PBetween m n u c) (PBetween m n v c')
| tw_times r u v c c' : ascii_twin u v -> CondTwin c c' -> Twin (PTimes r u c) (PTimes r v c')
| tw_neuthen u v u' v' c c' : ascii_twin u u' -> ascii_twin v v' -> CondTwin c c' ->
    Twin (PNeuThen u v c) (PNeuThen u' v' c')
| tw_then p p' q q' : Twin p p' -> Twin q q' -> Twin (PThen p q) (PThen p' q')
| tw_ifthen p p' t t' q q' : Twin p p' -> Twin t t' -> Twin q q' -> Twin (PIfThen p t q) (PIfThen p' t' q')
| tw_or p p' q q' : Twin p p' -> Twin q q' -> Twin (POr p q) (POr p' q')
| tw_longest p p' q q' : Twin p p' -> Twin q q' -> Twin (PLongest p q) (PLongest p' q')
| tw_pat p p' : Twin p p' -> Twin (PPat p) (PPat p')
| tw_prefix p p' q q' : Twin p p' -> Twin q q' -> Twin (PPrefix p q) (PPrefix p' q')
| tw_suffix p p' q q' : Twin p p' -> Twin q q' -> Twin (PSuffix p q) (PSuffix p' q')
| tw_enclose p p' o o' c c' : Twin p p' -> Twin o o' -> Twin c c' -> Twin (PEnclose p o c) (PEnclose p' o' c')
| tw_seponce p p' s s' q q' : Twin p p' -> Twin s s' -> Twin q q' -> Twin (PSepOnce p s q) (PSepOnce p' s' q')
| tw_sep p p' s s' mn b : Twin p p' -> Twin s s' -> Twin (PSep p s mn b) (PSep p' s' mn b)
| tw_sep2 p p' s s' m n b : Twin p p' -> Twin s s' -> Twin (PSep2 p s m n b) (PSep2 p' s' m n b)
| tw_sepcollect p p' s s' mn b : Twin p p' -> Twin s s' -> Twin (PSepCollect p s mn b) (PSepCollect p' s' mn b)
| tw_repeat p p' r : Twin p p' -> Twin (PRepeat p r) (PRepeat p' r)
| tw_repeat2 p p' m n : Twin p p' -> Twin (PRepeat2 p m n) (PRepeat2 p' m n)
| tw_collect p p' mn : Twin p p' -> Twin (PCollect p mn) (PCollect p' mn)
| tw_option p p' : Twin p p' -> Twin (POption p) (POption p')
| tw_map p p' f : Twin p p' -> Twin (PMap p f) (PMap p' f)
| tw_choice e b ps ps' : Twins ps ps' -> Twin (PChoice e b ps) (PChoice e b ps')
| tw_pairchoice e b ps ps' : KeyTwins ps ps' -> Twin (PPairChoice e b ps) (PPairChoice e b ps')
| tw_wrap p p' : Twin p p' -> Twin (PWrap p) (PWrap p')
| tw_nonep : Twin PNoneP PNoneP
| tw_ref i : Twin (PRef i) (PRef i)
with CondTwin : cond -> cond -> Prop :=
| ct_empty : CondTwin CEmpty CEmpty
| ct_regex p p' : Twin p p' -> CondTwin (CRegex p) (CRegex p')
with Twins : list pat -> list pat -> Prop :=
| tws_nil : Twins [] []
| tws_cons p p' ps ps' : Twin p p' -> Twins ps ps' -> Twins (p :: ps) (p' :: ps')
with KeyTwins : list (pat * val) -> list (pat * val) -> Prop :=
| kts_nil : KeyTwins [] []
| kts_cons p p' v ps ps' : Twin p p' -> KeyTwins ps ps' -> KeyTwins ((p, v) :: ps) ((p', v) :: ps').

(** The parsers behind the recursive handles are twins as well. *)
Definition TwinEnv (G G' : env) : Prop :=
  forall i, match env_get G i, env_get G' i with
            | Some p, Some p' => Twin p p'
            | None, None => True
            | _, _ => False
            end.

(** The cursor in front of character [i], in the text and in its bytes. *)
Definition bx (w : text) (i : nat) : ctx := Ctx KBytes (bytes_of w) (bo KStr w i).

(** * The bytes of characters *)

Lemma utf8_ascii x : (x < 0x80)%N -> utf8 x = [x].
Proof. intros H. unfold utf8. now rewrite (proj2 (N.ltb_lt _ _) H). Qed.
Lemma utf8_wide x : (0x80 <= x)%N -> utf8 x <> [] /\ forall b, In b (utf8 x) -> (0x80 <= b)%N.
Proof.
  intros H. unfold utf8. rewrite (proj2 (N.ltb_ge _ _) H).
  destruct (x <? 0x800)%N; [|destruct (x <? 0x10000)%N]; (split; [discriminate|]); cbn [In];
    intros b Hb; repeat destruct Hb as [<-|Hb]; try contradiction;
    match goal with |- (_ <= ?a + ?r)%N => pose proof (N.le_0_l r); lia end.
Qed.
Lemma width_utf8 x : width KStr x = length (utf8 x).
Proof. symmetry. apply (enc_length KStr). Qed.
Lemma raw_bytes l : raw KBytes l = l.
Proof. induction l as [|x l IH]; [reflexivity|]. cbn. f_equal. exact IH. Qed.
Lemma tlen_bytes_of l : tlen KBytes (bytes_of l) = tlen KStr l.
Proof. now rewrite tlen_bytes, raw_length. Qed.
Lemma bytes_of_nil l : bytes_of l = [] -> l = [].
Proof. destruct l as [|x l]; [reflexivity|]. cbn. destruct (utf8_head x) as (b & t & ->). discriminate. Qed.
Lemma skipn_raw w i : i <= length w -> skipn (bo KStr w i) (bytes_of w) = bytes_of (skipn i w).
Proof.
  intros _. rewrite <- (firstn_skipn i w) at 2. rewrite raw_app. unfold bo. rewrite <- (raw_length KStr).
  rewrite skipn_app, skipn_all, Nat.sub_diag. reflexivity.
Qed.

Section Bytes.
  Variable w : text.
  Variable i : nat.
  Hypothesis Hi : i <= length w.

  Lemma bo_byte : bo KBytes (bytes_of w) (bo KStr w i) = bo KStr w i.
  Proof. apply bo_bytes. rewrite raw_length. apply bo_le_len. Qed.
  Lemma bx_cx : bx w i = cx KBytes (bytes_of w) (bo KStr w i).
  Proof. unfold bx, cx. now rewrite bo_byte. Qed.
  Lemma orig_cx k v j : j <= length v -> orig (cx k v j) = Ok (skipn j v).
  Proof.
    intros H. unfold orig, orig_at, orig_sub, ctx_len, cx. cbn [c_kind c_dat c_off].
    destruct k; rewrite drop_at_bo by exact H; [|reflexivity].
    rewrite bo_bytes by exact H. unfold csub. rewrite tlen_bytes, (proj2 (Nat.leb_le _ _) H).
    replace (length v - j) with (bo KBytes (skipn j v) (length (skipn j v))).
    - rewrite take_at_bo by lia. now rewrite firstn_all.
    - rewrite bo_len, tlen_bytes, skipn_length. reflexivity.
  Qed.
  Lemma orig_str : orig (cx KStr w i) = Ok (skipn i w).
  Proof. now apply orig_cx. Qed.
  Lemma orig_byte : orig (bx w i) = Ok (bytes_of (skipn i w)).
  Proof.
    rewrite bx_cx, orig_cx; [|rewrite raw_length; apply bo_le_len]. now rewrite skipn_raw.
  Qed.
  Lemma peek_str : peek (cx KStr w i) = Ok (indices KStr 0 (skipn i w)).
  Proof. unfold peek, peek_at. change (orig_at _ _) with (orig (cx KStr w i)). now rewrite orig_str. Qed.
  Lemma peek_byte : peek (bx w i) = Ok (indices KBytes 0 (bytes_of (skipn i w))).
  Proof. unfold peek, peek_at. change (orig_at _ _) with (orig (bx w i)). now rewrite orig_byte. Qed.
  Lemma len_byte : ctx_len (bx w i) = ctx_len (cx KStr w i).
  Proof. unfold ctx_len. cbn. apply tlen_bytes_of. Qed.
End Bytes.

Lemma next_off_bytes o l : next_off (indices KBytes o (bytes_of l)) = next_off (indices KStr o l).
Proof.
  destruct l as [|x l]; [reflexivity|]. cbn [raw flat_map enc]. destruct (utf8_head x) as (b & t & ->). reflexivity.
Qed.

(** * Units *)

(** The two conditions agree on the ASCII characters of the rest of the text. *)
Definition chk_twin (f g : nat * item -> res bool) (l : text) : Prop :=
  forall a x t, l = a ++ x :: t -> (x < 0x80)%N -> f (tlen KStr a, x) = g (tlen KStr a, x).

Lemma chk_twin_at f g l a x t : chk_twin f g l -> l = a ++ x :: t -> (x < 0x80)%N -> forall o, o = tlen KStr a -> g (o, x) = f (o, x).
Proof. intros H E X o ->. symmetry. now apply (H a x t). Qed.

Lemma split_next {A} (a : list A) x t : a ++ x :: t = (a ++ [x]) ++ t.
Proof. now rewrite <- app_assoc. Qed.
Lemma tlen_snoc a (x : item) : (x < 0x80)%N -> tlen KStr (a ++ [x]) = tlen KStr a + 1.
Proof. intros H. rewrite tlen_app. cbn. rewrite (proj2 (N.ltb_lt _ _) H). lia. Qed.
Lemma indices_ascii o (x : item) t : (x < 0x80)%N -> indices KStr o (x :: t) = (o, x) :: indices KStr (o + 1) t.
Proof. intros H. cbn. now rewrite (proj2 (N.ltb_lt _ _) H). Qed.
Lemma indices_ascii_bytes o (x : item) t : (x < 0x80)%N ->
  indices KBytes o (bytes_of (x :: t)) = (o, x) :: indices KBytes (o + 1) (bytes_of t).
Proof. intros H. unfold raw. cbn [flat_map enc]. now rewrite (utf8_ascii _ H). Qed.
Lemma indices_wide_bytes o (x : item) t : (0x80 <= x)%N -> exists (b : item) r,
  indices KBytes o (bytes_of (x :: t)) = (o, b) :: r /\ (0x80 <= b)%N.
Proof.
  intros H. destruct (utf8_wide x H) as [_ U]. cbn [raw flat_map enc]. destruct (utf8_head x) as (b & t' & E). rewrite E in *.
  eexists b, _. split; [reflexivity|]. apply U. now left.
Qed.
Lemma indices_wide o (x : item) t : indices KStr o (x :: t) = (o, x) :: indices KStr (o + width KStr x) t.
Proof. reflexivity. Qed.

Section UnitTwin.
  Variable u v : neu.
  Hypothesis T : ascii_twin u v.

  Lemma scan_twin f g l : chk_twin f g l -> forall t a beg, l = a ++ t ->
    scan (is_match v) g beg (indices KBytes (tlen KStr a) (bytes_of t)) =
    scan (is_match u) f beg (indices KStr (tlen KStr a) t).
  Proof.
    intros C t. destruct T as (T1 & T2 & T3). induction t as [|x t IH]; intros a beg E; [reflexivity|].
    destruct (N.lt_ge_cases x 0x80) as [X|X].
    - rewrite indices_ascii, indices_ascii_bytes by exact X. cbn [scan fst snd]. rewrite (T1 _ X).
      destruct (is_match u x); [|reflexivity]. cbn [negb].
      rewrite (chk_twin_at _ _ _ _ _ _ C E X _ eq_refl). destruct (f (tlen KStr a, x)) as [[|]| | |]; try reflexivity.
      rewrite split_next in E. specialize (IH _ (match beg with None => Some (tlen KStr a) | Some _ => beg end) E).
      rewrite (tlen_snoc _ _ X) in IH. exact IH.
    - destruct (indices_wide_bytes (tlen KStr a) x t X) as (b & r & -> & B). rewrite indices_wide. cbn [scan fst snd].
      now rewrite (proj1 (T2 _ X)), (proj2 (T2 _ B)).
  Qed.
  Lemma scan_n_twin f g more l : chk_twin f g l -> forall t a cnt beg, l = a ++ t ->
    scan_n (is_match v) g more cnt beg (indices KBytes (tlen KStr a) (bytes_of t)) =
    scan_n (is_match u) f more cnt beg (indices KStr (tlen KStr a) t).
  Proof.
    intros C t. destruct T as (T1 & T2 & T3). induction t as [|x t IH]; intros a cnt beg E; [reflexivity|].
    destruct (N.lt_ge_cases x 0x80) as [X|X].
    - rewrite indices_ascii, indices_ascii_bytes by exact X. cbn [scan_n fst snd]. rewrite (T1 _ X).
      destruct (more cnt); [|reflexivity]. destruct (is_match u x); [|reflexivity].
      rewrite (chk_twin_at _ _ _ _ _ _ C E X _ eq_refl). destruct (f (tlen KStr a, x)) as [[|]| | |]; try reflexivity.
      rewrite split_next in E. specialize (IH _ (S cnt) (match beg with None => Some (tlen KStr a) | Some _ => beg end) E).
      rewrite (tlen_snoc _ _ X) in IH. exact IH.
    - destruct (indices_wide_bytes (tlen KStr a) x t X) as (b & r & -> & B). rewrite indices_wide. cbn [scan_n fst snd].
      now rewrite (proj1 (T2 _ X)), (proj2 (T2 _ B)).
  Qed.
End UnitTwin.

Lemma scan_bytes (m : item -> bool) bs r : (forall b, In b bs -> m b = true) -> bs <> [] -> forall o beg,
  scan m (fun _ => Ok true) beg (indices KBytes o (bs ++ r)) =
  scan m (fun _ => Ok true) (match beg with None => Some o | b => b end) (indices KBytes (o + length bs) r).
Proof.
  intros H N o beg. destruct bs as [|b bs]; [congruence|]. cbn [app indices scan snd fst width].
  rewrite (H b) by (now left). cbn [negb]. assert (forall b', In b' bs -> m b' = true) as H' by (intros; apply H; now right).
  clear H N. remember (match beg with None => Some o | Some _ => beg end) as beg' eqn:E.
  assert (beg' <> None) as NB by (destruct beg; subst; discriminate). clear E beg.
  cbn [length]. replace (o + S (length bs)) with (o + 1 + length bs) by lia. generalize (o + 1). clear o b.
  induction bs as [|b bs IH]; intros o; [now rewrite Nat.add_0_r|].
  cbn [app indices scan snd fst width length]. rewrite (H' b) by (now left). cbn [negb].
  destruct beg' as [z|]; [|congruence]. rewrite IH; [|intros; apply H'; now right].
  now rewrite <- Nat.add_assoc.
Qed.
Lemma scan_wide u v : wide_twin u v -> forall t o beg,
  scan (is_match v) (fun _ => Ok true) beg (indices KBytes o (bytes_of t)) =
  scan (is_match u) (fun _ => Ok true) beg (indices KStr o t).
Proof.
  intros (T1 & T2) t. induction t as [|x t IH]; intros o beg; [reflexivity|].
  destruct (N.lt_ge_cases x 0x80) as [X|X].
  - rewrite indices_ascii, indices_ascii_bytes by exact X. cbn [scan fst snd]. rewrite (T1 _ X).
    destruct (is_match u x); [|reflexivity]. cbn [negb]. apply IH.
  - destruct (utf8_wide x X) as [N U]. change (bytes_of (x :: t)) with (utf8 x ++ bytes_of t).
    rewrite scan_bytes; [|intros b Hb; apply T2; now apply U|exact N]. rewrite IH, <- width_utf8, indices_wide.
    cbn [scan fst snd]. rewrite (proj1 (T2 _ X)). reflexivity.
Qed.

(** * Leaves: the byte parser does what the character parser does *)

(** Same answer, same cursor. *)
Definition follows (w : text) (i : nat) (m m' : M ctx span) : Prop :=
  m' (bx w i) = (fst (m (cx KStr w i)), Ctx KBytes (bytes_of w) (c_off (snd (m (cx KStr w i))))).

Section Leaves.
  Variable w : text.
  Variable i : nat.
  Hypothesis Hi : i <= length w.
  Notation c := (cx KStr w i).
  Notation c' := (bx w i).
  Notation l := (skipn i w).
  Notation rem := (csub (tlen KStr w) (bo KStr w i)).

  Lemma new_span_twin n :
    new_span_inc n c' = (fst (new_span_inc n c), Ctx KBytes (bytes_of w) (c_off (snd (new_span_inc n c)))).
  Proof. reflexivity. Qed.
  Lemma rem_str : csub (ctx_len c) (c_off c) = Ok (tlen KStr w - bo KStr w i).
  Proof. unfold csub, ctx_len. cbn. now rewrite (proj2 (Nat.leb_le _ _) (bo_le_len KStr w i)). Qed.
  Lemma rem_byte : csub (ctx_len c') (c_off c') = Ok (tlen KStr w - bo KStr w i).
  Proof. rewrite (len_byte w i). apply rem_str. Qed.

  Ltac open := unfold follows, bind, catch, reads, remaining, lift, offset, ret, fail; cbn [get_off ctx_offset];
    rewrite ?(peek_str w i Hi), ?(peek_byte w i Hi), rem_str, rem_byte; cbn [fst snd].
  Ltac done := first [reflexivity | apply new_span_twin].

  Section Chk.
    Variable u v : neu.
    Hypothesis T : ascii_twin u v.
    Variable f g : check_t.
    Hypothesis C : chk_twin (f c) (g c') l.

    (** The first item. *)
    Lemma head_twin : l = [] \/ (exists (x : item) t, l = x :: t /\ (x < 0x80)%N /\ is_match v x = is_match u x /\ g c' (0, x) = f c (0, x)) \/
      (exists (x : item) t (b : item) r, l = x :: t /\ is_match u x = false /\ indices KBytes 0 (bytes_of l) = (0, b) :: r /\ is_match v b = false).
    Proof.
      destruct T as (T1 & T2 & _). pose proof C as C'. destruct l as [|x t]; [now left|]. right.
      destruct (N.lt_ge_cases x 0x80) as [X|X].
      - left. exists x, t. repeat split; auto. symmetry. exact (C' [] x t eq_refl X).
      - right. destruct (indices_wide_bytes 0 x t X) as (b & r & E & B). exists x, t, b, r. rewrite E.
        repeat split; auto; now apply T2.
    Qed.

    Lemma once_twin : follows w i (once_parse u f) (once_parse v g).
    Proof.
      unfold once_parse. open. destruct head_twin as [->|[(x & t & -> & X & M & K)|(x & t & b & r & E & M & I & M')]]; [reflexivity| |].
      - rewrite indices_ascii, indices_ascii_bytes by exact X. cbn [fst snd]. rewrite M.
        destruct (is_match u x); [|done]. rewrite K, next_off_bytes. destruct (f c (0, x)) as [[|]| | |]; try done.
        all: destruct (calc_length _ _ _); done.
      - rewrite I, E. rewrite indices_wide. cbn [fst snd]. rewrite M, M'. done.
    Qed.
    Lemma opt_twin : follows w i (opt_parse u f) (opt_parse v g).
    Proof.
      unfold opt_parse. open. destruct head_twin as [->|[(x & t & -> & X & M & K)|(x & t & b & r & E & M & I & M')]]; [reflexivity| |].
      - rewrite indices_ascii, indices_ascii_bytes by exact X. cbn [fst snd]. rewrite M.
        destruct (is_match u x); [|done]. rewrite K, next_off_bytes. destruct (f c (0, x)) as [[|]| | |]; try done.
        all: destruct (calc_length _ _ _); done.
      - rewrite I, E. rewrite indices_wide. cbn [fst snd]. rewrite M, M'. done.
    Qed.
    Lemma many1_twin : follows w i (many1_parse u f) (many1_parse v g).
    Proof.
      unfold many1_parse. open. rewrite (scan_twin u v T (f c) (g c') l C l [] None eq_refl : scan _ _ _ (indices _ 0 _) = scan _ _ _ (indices _ 0 _)).
      destruct (scan _ _ _ _) as [[[b|] e]| | |]; cbn [fst snd]; try done; destruct (calc_length _ _ _); done.
    Qed.
    Lemma many0_twin : follows w i (many0_parse u f) (many0_parse v g).
    Proof.
      unfold many0_parse. open. rewrite (scan_twin u v T (f c) (g c') l C l [] None eq_refl : scan _ _ _ (indices _ 0 _) = scan _ _ _ (indices _ 0 _)).
      destruct (scan _ _ _ _) as [[[b|] e]| | |]; cbn [fst snd]; try done; destruct (calc_length _ _ _); done.
    Qed.
    Lemma between_twin m n : follows w i (between_parse m n u f) (between_parse m n v g).
    Proof.
      unfold between_parse. open. cbn [c_kind cx bx]. rewrite <- (proj2 (proj2 T)). destruct (_ <=? _); [|done].
      rewrite (scan_n_twin u v T (f c) (g c') _ l C l [] 0 None eq_refl : scan_n _ _ _ _ _ (indices _ 0 _) = scan_n _ _ _ _ _ (indices _ 0 _)).
      destruct (scan_n _ _ _ _ _ _) as [[[cnt b] e]| | |]; cbn [fst snd]; try done.
      destruct (m <=? cnt); [|done]; destruct (calc_length _ _ _); done.
    Qed.
    Lemma times_twin r : follows w i (times_parse r u f) (times_parse r v g).
    Proof.
      unfold times_parse. open. cbn [c_kind cx bx].
      assert (times_min KBytes r v = times_min KStr r u) as -> by (unfold times_min; now rewrite <- (proj2 (proj2 T))).
      destruct (_ <=? _); [|done].
      rewrite (scan_n_twin u v T (f c) (g c') _ l C l [] 0 None eq_refl : scan_n _ _ _ _ _ (indices _ 0 _) = scan_n _ _ _ _ _ (indices _ 0 _)).
      destruct (scan_n _ _ _ _ _ _) as [[[cnt b] e]| | |]; cbn [fst snd]; try done.
      destruct (crange_contains r cnt); [|done]; destruct (calc_length _ _ _); done.
    Qed.
    Variable u2 v2 : neu.
    Hypothesis T2 : ascii_twin u2 v2.
    Lemma neuthen_twin : follows w i (neuthen_parse u u2 f) (neuthen_parse v v2 g).
    Proof.
      unfold neuthen_parse. open. cbn [c_kind cx bx]. rewrite <- (proj2 (proj2 T)), <- (proj2 (proj2 T2)).
      destruct (_ <=? _); [|done].
      destruct head_twin as [->|[(x & t & E & X & M & K)|(x & t & b & r & E & M & I & M')]]; [reflexivity| |].
      - rewrite E in *. rewrite indices_ascii, indices_ascii_bytes by exact X. cbn [Nat.add].
        destruct t as [|y t]; [reflexivity|]. destruct (N.lt_ge_cases y 0x80) as [Y|Y].
        + rewrite indices_ascii, indices_ascii_bytes by exact Y. cbn [fst snd]. rewrite M.
          assert (g c' (1, y) = f c (1, y)) as K2.
          { pose proof (C [x] y t eq_refl Y) as K1. cbn [tlen] in K1. replace (width KStr x + 0) with 1 in K1; [now symmetry|].
            cbn. now rewrite (proj2 (N.ltb_lt _ _) X). }
          destruct (is_match u x); [|done]. rewrite K. destruct (f c (0, x)) as [[|]| | |]; try done.
          rewrite (proj1 T2 _ Y). destruct (is_match u2 y); [|done]. rewrite K2, next_off_bytes. destruct (f c (1, y)) as [[|]| | |]; try done.
          all: destruct (calc_length _ _ _); done.
        + destruct (indices_wide_bytes 1 y t Y) as (b & r & -> & B). rewrite indices_wide. cbn [fst snd].
          rewrite M. destruct (is_match u x); [|done]. rewrite K. destruct (f c (0, x)) as [[|]| | |]; try done.
          rewrite (proj1 (proj1 (proj2 T2) _ Y)), (proj2 (proj1 (proj2 T2) _ B)). done.
      - rewrite I, E. rewrite indices_wide. destruct r as [|y r].
        + destruct (indices KStr _ t) as [|? ?]; [done|]. cbn [fst snd]. rewrite M. done.
        + cbn [fst snd]. rewrite M'. destruct (indices KStr _ t) as [|? ?]; [done|]. cbn [fst snd]. rewrite M. done.
    Qed.
  End Chk.

  Lemma many1_wide u v : wide_twin u v -> follows w i (many1_parse u (fun _ _ => Ok true)) (many1_parse v (fun _ _ => Ok true)).
  Proof.
    intros T. unfold many1_parse. open. rewrite (scan_wide u v T).
    destruct (scan _ _ _ _) as [[[b|] e]| | |]; cbn [fst snd]; try done; destruct (calc_length _ _ _); done.
  Qed.
  Lemma many0_wide u v : wide_twin u v -> follows w i (many0_parse u (fun _ _ => Ok true)) (many0_parse v (fun _ _ => Ok true)).
  Proof.
    intros T. unfold many0_parse. open. rewrite (scan_wide u v T).
    destruct (scan _ _ _ _) as [[[b|] e]| | |]; cbn [fst snd]; try done; destruct (calc_length _ _ _); done.
  Qed.
  Lemma literal_twin lit : follows w i (literal_parse lit) (literal_parse (bytes_of lit)).
  Proof.
    unfold literal_parse. open. cbn [c_kind cx bx]. rewrite tlen_bytes_of. destruct (_ <=? _); [|done].
    rewrite (orig_str w i Hi), (orig_byte w i Hi). rewrite !raw_bytes. destruct (starts_with _ _); done.
  Qed.
End Leaves.

(** * The simulation *)

(** The two contexts are at the same place of the same text. *)
Definition at_same (w : text) (c c' : ctx) : Prop := exists i, i <= length w /\ c = cx KStr w i /\ c' = bx w i.
Definition same_off (w : text) (o o' : nat) : Prop := o = o' /\ exists i, i <= length w /\ o = bo KStr w i.

Lemma at_get w x y : at_same w x y -> same_off w (get_off x) (get_off y).
Proof. intros (i & Hi & -> & ->). split; [reflexivity|]. now exists i. Qed.
Lemma at_put w x y o o' : at_same w x y -> same_off w o o' -> at_same w (put_off o x) (put_off o' y).
Proof. intros (i & Hi & -> & ->) (<- & j & Hj & ->). exists j. repeat split; auto. Qed.
Lemma eq_join a a' b b' : a = a' -> b = b' -> rsim (@eq span) (add_assign a b) (add_assign a' b').
Proof. intros -> ->. destruct (add_assign a' b'); now constructor. Qed.
Lemma rsim_refl {A} (r : res A) : rsim eq r r.
Proof. destruct r; now constructor. Qed.
Lemma same_ltb w o o' p p' : same_off w o o' -> same_off w p p' -> (o <? p) = (o' <? p').
Proof. intros (<- & _) (<- & _). reflexivity. Qed.

(** Restricted to the places where the context has nothing to skip. *)
Definition psim (sk : text -> nat -> nat) (w : text) (m m' : M ctx span) : Prop :=
  forall i, i <= length w -> sk w i = i ->
    rsim eq (fst (m (cx KStr w i))) (fst (m' (bx w i))) /\ at_same w (snd (m (cx KStr w i))) (snd (m' (bx w i))).
Lemma msim_psim sk w m m' : msim (at_same w) eq m m' -> psim sk w m m'.
Proof. intros H i Hi _. apply H. now exists i. Qed.

Lemma follows_leaf w i m m' : i <= length w -> leafres KStr w i (m (cx KStr w i)) -> follows w i m m' ->
  rsim eq (fst (m (cx KStr w i))) (fst (m' (bx w i))) /\ at_same w (snd (m (cx KStr w i))) (snd (m' (bx w i))).
Proof.
  intros Hi L ->. cbn [fst snd]. split; [apply rsim_refl|].
  inversion L as [j A B E|e E|E]; rewrite <- E in *; cbn [snd c_off cx].
  - exists j. auto.
  - exists i. auto.
  - exists i. auto.
Qed.

Section Step.
  Variable G G' : env.
  Variable sk : text -> nat -> nat.
  Notation core := (core KStr G sk).
  Hypothesis CEnv : core_env KStr G sk.
  Hypothesis TE : TwinEnv G G'.
  Variable pr pr' : list nat -> list pat -> pat -> M ctx span.
  Variable fuel : nat.
  Variable held : list nat.
  Variable pols pols' : list pat.
  Hypothesis PR : forall held p p' w, Twin p p' -> core p -> psim sk w (pr held pols p) (pr' held pols' p').
  Hypothesis SK : skipper sk.
  (** Both contexts skip the same text, or both skip nothing. *)
  Hypothesis POL : match pols, pols' with
                   | [], [] => forall w i, sk w i = i
                   | r :: rest, r' :: rest' => forall w i, i <= length w ->
                       (fst (pr held rest r (cx KStr w i)) = OOF /\ fst (pr' held rest' r' (bx w i)) = OOF /\
                        at_same w (snd (pr held rest r (cx KStr w i))) (snd (pr' held rest' r' (bx w i)))) \/
                       (exists s s', pr held rest r (cx KStr w i) = (Ok s, cx KStr w (sk w i)) /\
                                     pr' held rest' r' (bx w i) = (Ok s', bx w (sk w i)))
                   | _, _ => False
                   end.
  Hypothesis SND : forall p w i, core p -> i <= length w -> sres KStr G sk w p (sk w i) (tm pr held pols p (cx KStr w i)).
  Notation tm := (tm pr held pols).
  Notation tm' := (Regex.tm pr' held pols').

  Lemma u_tm w p p' : Twin p p' -> core p -> msim (at_same w) eq (tm p) (tm' p').
  Proof.
    intros T C x y (i & Hi & -> & ->). unfold Regex.tm, try_mat. pose proof SK as (K1 & K2).
    destruct pols as [|r rest], pols' as [|r' rest']; try contradiction.
    - now apply PR.
    - unfold bind. destruct (POL w i Hi) as [(A & B & D)|(s & s' & A & B)].
      + destruct (pr held rest r (cx KStr w i)), (pr' held rest' r' (bx w i)). cbn in A, B, D. subst. cbn. split; [constructor|exact D].
      + rewrite A, B. destruct (K1 w i Hi). apply PR; auto.
  Qed.

  Lemma u_chk w i c c' : i <= length w -> CondTwin c c' -> core_cond KStr G sk c ->
    chk_twin (check pr held pols c (cx KStr w i)) (check pr' held pols' c' (bx w i)) (skipn i w).
  Proof.
    intros Hi T C a x t E X. destruct T as [|p p' T]; [reflexivity|]. cbn [check fst]. inversion C; subst.
    assert (skipn i w = skipn (i + length a) w ++ [] -> True) by trivial.
    assert (i + length a <= length w) as HL.
    { pose proof (f_equal (@length item) E) as EL. rewrite skipn_length, app_length in EL. cbn in EL. lia. }
    assert (c_off (cx KStr w i) + tlen KStr a = bo KStr w (i + length a)) as EO.
    { cbn. rewrite bo_add, E. unfold bo at 3. now rewrite firstn_app, firstn_all, Nat.sub_diag, firstn_O, app_nil_r. }
    assert (clone_at (cx KStr w i) (c_off (cx KStr w i) + tlen KStr a) = Ok (cx KStr (skipn (i + length a) w) 0)) as ->.
    { rewrite EO. unfold clone_at. change (orig_at _ _) with (orig (cx KStr w (i + length a))). now rewrite orig_str. }
    assert (clone_at (bx w i) (c_off (bx w i) + tlen KStr a) = Ok (bx (skipn (i + length a) w) 0)) as ->.
    { change (c_off (bx w i)) with (c_off (cx KStr w i)). rewrite EO. unfold clone_at.
      change (orig_at _ _) with (orig (bx w (i + length a))). now rewrite orig_byte. }
    destruct (u_tm (skipn (i + length a) w) p p' T) with (x := cx KStr (skipn (i + length a) w) 0) (y := bx (skipn (i + length a) w) 0) as [A _]; auto.
    { exists 0. repeat split. lia. }
    inversion A; reflexivity.
  Qed.
  Lemma u_safe w i c : i <= length w -> core_cond KStr G sk c -> chk_safe KStr (check pr held pols c) w i.
  Proof.
    intros Hi C m x E. inversion C as [|f D|p D]; subst; cbn [check].
    - discriminate.
    - specialize (D (cx KStr w i) (bo KStr w (i + m) - bo KStr w i, x)). intros H. rewrite H in D. exact D.
    - assert (i + m < length w) as L by (apply nth_error_Some; congruence).
      unfold clone_at. cbn [fst]. replace (c_off (cx KStr w i) + (bo KStr w (i + m) - bo KStr w i)) with (bo KStr w (i + m))
        by (cbn; pose proof (bo_mono KStr w i (i + m) ltac:(lia)); lia).
      change (orig_at _ _) with (orig (cx KStr w (i + m))). rewrite orig_str by lia.
      change (ctx_new _ _) with (cx KStr (skipn (i + m) w) 0).
      pose proof (SND p (skipn (i + m) w) 0 D ltac:(lia)) as Q. inversion Q; discriminate.
  Qed.
  Lemma u_unit w p p' cd : unit_cond p = Some cd -> core_cond KStr G sk cd ->
    (forall i, i <= length w -> follows w i (parse_step G pr fuel held pols p) (parse_step G' pr' fuel held pols' p')) ->
    msim (at_same w) eq (parse_step G pr fuel held pols p) (parse_step G' pr' fuel held pols' p').
  Proof.
    intros U C F x y (i & Hi & -> & ->). apply follows_leaf; auto.
    apply (unit_leaf KStr G pr fuel held pols p cd); auto. now apply u_safe.
  Qed.

  Lemma u_offset w : msim (at_same w) (same_off w) offset offset.
  Proof. apply msim_offset. apply at_get. Qed.
  Lemma u_set w o o' : same_off w o o' -> msim (at_same w) eq (set_offset o) (set_offset o').
  Proof. apply msim_set_offset. apply at_put. Qed.
  Lemma u_empty w o o' : same_off w o o' -> msim (at_same w) (@eq span) (ret (Span o 0)) (ret (Span o' 0)).
  Proof. intros (<- & _). now apply msim_ret. Qed.
  Lemma u_guard {A B} w (RA : A -> B -> Prop) m m' : msim (gsim (at_same w) (same_off w)) RA m m' -> msim (at_same w) RA (with_guard m) (with_guard m').
  Proof. apply msim_guard; [apply at_get|apply at_put]. Qed.
  Lemma u_gtry w p p' : Twin p p' -> core p -> msim (gsim (at_same w) (same_off w)) eq (g_try (tm p)) (g_try (tm' p')).
  Proof. intros. apply msim_g_try. now apply u_tm. Qed.
  Lemma u_join {X Y} (R : X -> Y -> Prop) a a' b b' : a = a' -> b = b' -> msim R eq (join a b) (join a' b').
  Proof. intros. now apply msim_join; [apply eq_join| |]. Qed.
  Lemma u_accept w ok e o o' (a b : span) : same_off w o o' -> a = b -> msim (at_same w) eq (accept ok e o a) (accept ok e o' b).
  Proof. apply msim_accept. apply at_put. Qed.
  Lemma u_reset {A B} w (RA : A -> B -> Prop) o o' m m' : same_off w o o' -> msim (at_same w) RA m m' ->
    msim (at_same w) RA (on_err_reset o m) (on_err_reset o' m').
  Proof. apply msim_reset. apply at_put. Qed.
  Lemma span_same w o o' : same_off w o o' -> Span o 0 = Span o' 0.
  Proof. intros (-> & _). reflexivity. Qed.

  Lemma u_choice w o o' e ps ps' : same_off w o o' -> Twins ps ps' -> Forall core ps ->
    msim (at_same w) eq (choice tm o e ps) (choice tm' o' e ps').
  Proof.
    intros HO T. induction T as [|p p' ps ps' T _ IH]; intros F; cbn [choice]; [apply msim_fail|]. inversion F; subst.
    eapply msim_bind; [apply msim_catch; apply u_reset; [exact HO|now apply u_tm]|].
    intros r r' [a b H|er]; [now apply msim_ret|now apply IH].
  Qed.
  Lemma key_twins ps ps' : KeyTwins ps ps' -> Twins (map fst ps) (map fst ps').
  Proof. induction 1; cbn; constructor; auto. Qed.

  Lemma longest_eq G0 pr0 n h ps p q c : parse_step G0 pr0 n h ps (PLongest p q) c =
    match Regex.tm pr0 h ps p c with
    | (Panic, c1) => (Panic, c1)
    | (OOF, c1) => (OOF, c1)
    | (ra, c1) =>
        match Regex.tm pr0 h ps q (at_off (c_off c) c1) with
        | (Panic, c2) => (Panic, c2)
        | (OOF, c2) => (OOF, c2)
        | (rb, c2) =>
            match ra, rb with
            | Ok s, Ok t => (Ok (if slen t <=? slen s then s else t), at_off (c_off c + slen (if slen t <=? slen s then s else t)) c2)
            | Ok s, _ => (Ok s, at_off (c_off c + slen s) c2)
            | _, Ok t => (Ok t, at_off (c_off c + slen t) c2)
            | _, Err e => (Err e, at_off (c_off c + 0) c2)
            | _, _ => (Panic, c2)
            end
        end
    end.
  Proof.
    cbn [parse_step]. unfold bind, catch, set_offset, offset, ret, fail, at_off. cbn [get_off put_off ctx_offset].
    destruct (Regex.tm pr0 h ps p c) as [[s|e| |] c1]; try reflexivity;
      destruct (Regex.tm pr0 h ps q _) as [[t|e'| |] c2]; try reflexivity.
    all: cbv zeta; destruct (_ <=? _); reflexivity.
  Qed.

  (** The cursor of [longest] is computed from the length of the match. *)
  Lemma u_longest w p p' q q' : Twin p p' -> Twin q q' -> core (PLongest p q) ->
    psim sk w (parse_step G pr fuel held pols (PLongest p q)) (parse_step G' pr' fuel held pols' (PLongest p' q')).
  Proof.
    intros T1 T2 C i Hi HS. inversion C as [| | | | | | | | | | | | | | | | | | | | |p0 q0 C1 C2 S1 S2| | | | | | | | | | | | | | | | | | |]; subst.
    assert (at_same w (cx KStr w i) (bx w i)) as R0 by (exists i; auto).
    destruct (u_tm w p p' T1 C1 _ _ R0) as [A1 A2]. pose proof (SND p w i C1 Hi) as A3. rewrite HS in A3.
    destruct (u_tm w q q' T2 C2 _ _ R0) as [B1 B2]. pose proof (SND q w i C2 Hi) as B3. rewrite HS in B3.
    rewrite !longest_eq. destruct (tm p (cx KStr w i)) as [r c], (tm' p' (bx w i)) as [r' c']. cbn [fst snd] in A1, A2.
    assert (forall z z', at_same w z z' -> at_off (bo KStr w i) z = cx KStr w i /\ at_off (bo KStr w i) z' = bx w i) as PB.
    { intros z z' (j & Hj & -> & ->). auto. }
    change (c_off (cx KStr w i)) with (bo KStr w i). change (c_off (bx w i)) with (bo KStr w i).
    destruct (PB _ _ A2) as [-> ->].
    destruct (tm q (cx KStr w i)) as [t d], (tm' q' (bx w i)) as [t' d']. cbn [fst snd] in B1, B2.
    assert (forall n j, j <= length w -> bo KStr w i + n = bo KStr w j ->
      at_same w (at_off (bo KStr w i + n) d) (at_off (bo KStr w i + n) d')) as FIN.
    { intros n j Hj ->. destruct B2 as (k & Hk & -> & ->). exists j. auto. }
    assert (forall j, i <= j -> j <= length w -> at_same w (at_off (bo KStr w i + slen (sp KStr w i j)) d) (at_off (bo KStr w i + slen (sp KStr w i j)) d')) as FIN'.
    { intros j L Hj. apply (FIN _ j Hj). cbn. pose proof (bo_mono KStr w i j L). lia. }
    destruct A1 as [s s' <-|e| |]; [| |cbn [fst snd]; split; [constructor|exact A2]..].
    - inversion A3 as [b j x P L1 L2 L3 L4 L5| |]; subst. pose proof (S1 _ _ _ _ P). subst b.
      destruct B1 as [s s' <-|e| |]; [| |cbn [fst snd]; split; [constructor|exact B2]..]; cbn [fst snd].
      + inversion B3 as [b j' x' P' L1' L2' L3' L4' L5'| |]; subst. pose proof (S2 _ _ _ _ P'). subst b.
        split; [apply rsim_refl|]. destruct (_ <=? _); now apply FIN'.
      + split; [apply rsim_refl|now apply FIN'].
    - destruct B1 as [s s' <-|e'| |]; [| |cbn [fst snd]; split; [constructor|exact B2]..]; cbn [fst snd].
      + inversion B3 as [b j' x' P' L1' L2' L3' L4' L5'| |]; subst. pose proof (S2 _ _ _ _ P'). subst b.
        split; [apply rsim_refl|now apply FIN'].
      + split; [apply rsim_refl|]. apply (FIN 0 i); auto.
  Qed.

  Ltac sub := first
    [ apply u_gtry; assumption | apply u_tm; assumption | apply u_join; assumption | apply msim_catch; apply u_tm; assumption
    | apply u_offset | apply u_set; assumption | apply msim_g_beg ].

  Lemma u_step w p p' : Twin p p' -> core p -> psim sk w (parse_step G pr fuel held pols p) (parse_step G' pr' fuel held pols' p').
  Proof.
    intros T C. destruct T; inversion C; subst;
      try (now apply u_longest); try (cbn [parse_step]; now apply PR);
      try (match goal with |- context [PRef ?r] =>
        cbn [parse_step]; pose proof (TE r) as E; pose proof (CEnv r) as CE0; destruct (env_get G r), (env_get G' r); try contradiction;
        [apply PR; auto|apply msim_psim, msim_fail] end);
      apply msim_psim;
      try (match goal with CT : CondTwin ?c _ |- _ =>
        apply (u_unit w _ _ c); [reflexivity|assumption|]; intros i Hi; pose proof (u_chk w i _ _ Hi CT ltac:(assumption)) as K;
        cbn [parse_step]; solve [now apply once_twin | now apply opt_twin | now apply many1_twin | now apply many0_twin
          | now apply between_twin | now apply times_twin | now apply neuthen_twin] end);
      try (apply (u_unit w _ _ CEmpty); [reflexivity|constructor|]; intros i Hi; cbn [parse_step check]; solve [now apply many1_wide | now apply many0_wide]);
      cbn [parse_step].
    - eapply msim_bind; [sub|intros o o' HO]. now apply u_empty with (w := w).
    - apply msim_fail.
    - eapply msim_bind; [sub|intros o o' HO]. destruct HO as (<- & HO). destruct (o =? 0); [now apply msim_ret|apply msim_fail].
    - eapply msim_bind; [sub|intros o o' HO]. destruct HO as (<- & HO).
      eapply (msim_bind _ eq); [apply msim_reads; intros x y (i & Hi & -> & ->); rewrite len_byte; now constructor|].
      intros n ? <-. destruct (o =? n); [now apply msim_ret|apply msim_fail].
    - intros x y (i & Hi & -> & ->). unfold consume_all_parse, bind, reads. rewrite len_byte. cbn [fst snd].
      change (c_off (bx w i)) with (c_off (cx KStr w i)). split; [now constructor|]. exists (length w). split; [lia|].
      unfold cx, bx. cbn. pose proof (bo_le_len KStr w i). rewrite bo_len. unfold ctx_len. cbn.
      replace (bo KStr w i + (tlen KStr w - bo KStr w i)) with (tlen KStr w) by lia. auto.
    - intros x y (i & Hi & -> & ->). apply follows_leaf; auto; [|now apply literal_twin].
      rewrite (literal_nf KStr l w i Hi). destruct (list_eq_dec _ _ _) as [E|E]; [|constructor].
      pose proof (f_equal (@length item) E) as EL. rewrite firstn_length, skipn_length in EL. constructor; lia.
    - eapply msim_bind; [sub|intros o o' HO]. eapply msim_bind; [sub|intros r r' HR].
      eapply msim_bind; [sub|intros _ _ _].
      destruct HR as [a b ?|e]; (destruct (Bool.eqb _ v); [now apply u_empty|destruct v; apply msim_fail]).
    - apply u_guard. eapply msim_bind; [sub|intros]. eapply msim_bind; [sub|intros]. sub.
    - apply u_guard. eapply msim_bind; [sub|intros a a' HA].
      eapply msim_bind; [apply msim_catch, msim_g_on, u_guard; sub|]. intros s s' [b b' HB|e]; [|now apply msim_ret].
      eapply msim_bind; [sub|intros]. eapply msim_bind; [sub|intros]. sub.
    - eapply msim_bind; [sub|intros o o' HO]. apply u_reset; [exact HO|].
      eapply msim_bind; [sub|]. intros r r' [a b HA|e]; [now apply msim_ret|].
      eapply msim_bind; [sub|intros _ _ _]. sub.
    - sub.
    - apply u_guard. eapply msim_bind; [sub|intros]. eapply msim_bind; [sub|intros]. sub.
    - apply u_guard. eapply msim_bind; [sub|intros]. eapply msim_bind; [sub|intros]. sub.
    - apply u_guard. eapply msim_bind; [sub|intros]. eapply msim_bind; [sub|intros].
      eapply msim_bind; [sub|intros]. eapply msim_bind; [sub|intros]. sub.
    - apply u_guard. eapply msim_bind; [sub|intros o o' HO]. eapply msim_bind; [sub|intros].
      eapply msim_bind; [apply u_join; [now apply span_same with (w := w)|eassumption]|intros].
      eapply msim_bind; [sub|intros]. eapply msim_bind; [sub|intros]. eapply msim_bind; [sub|intros]. sub.
    - eapply msim_bind; [sub|intros o o' HO].
      eapply msim_bind; [apply (msim_sep_loop _ _ eq_join); [now apply u_tm|now apply u_tm|now apply span_same with (w := w)]|].
      intros r r' (R1 & R2). rewrite R1. now apply u_accept.
    - eapply msim_bind; [sub|intros o o' HO].
      eapply msim_bind; [apply (msim_sep_loop _ _ eq_join); [now apply u_tm|now apply u_tm|now apply span_same with (w := w)]|].
      intros r r' (R1 & R2). rewrite R1. now apply u_accept.
    - eapply msim_bind; [sub|intros o o' HO].
      eapply msim_bind; [apply (msim_sep_loop _ _ eq_join); [now apply u_tm|now apply u_tm|now apply span_same with (w := w)]|].
      intros r r' (R1 & R2). rewrite R1. now apply u_accept.
    - eapply msim_bind; [sub|intros o o' HO].
      eapply msim_bind; [apply (msim_repeat_loop _ _ eq_join); [now apply u_tm|now apply span_same with (w := w)]|].
      intros a a' (R1 & R2). rewrite R1. now apply u_accept.
    - eapply msim_bind; [sub|intros o o' HO].
      eapply msim_bind; [apply (msim_repeat_loop _ _ eq_join); [now apply u_tm|now apply span_same with (w := w)]|].
      intros a a' (R1 & R2). rewrite R1. now apply u_accept.
    - eapply msim_bind; [sub|intros o o' HO]. unfold collect_loop.
      eapply msim_bind; [apply (msim_repeat_loop _ _ eq_join); [now apply u_tm|now apply span_same with (w := w)]|].
      intros a a' (R1 & R2). rewrite R1. now apply u_accept.
    - eapply msim_bind; [sub|intros o o' HO].
      eapply msim_bind; [apply msim_catch, u_reset; [exact HO|now apply u_tm]|].
      intros r r' [a b HA|e]; [now apply msim_ret|now apply u_empty].
    - sub.
    - eapply msim_bind; [sub|intros o o' HO]. now apply u_choice.
    - eapply msim_bind; [sub|intros o o' HO]. apply u_choice; auto. now apply key_twins.
    - apply msim_fail.
  Qed.
End Step.

(** Both contexts skip the same text before every match. *)
Definition pols_twin (G G' : env) (sk : text -> nat -> nat) (pols pols' : list pat) : Prop :=
  match pols, pols' with
  | [], [] => True
  | r :: rest, r' :: rest' => forall n held w i, i <= length w ->
      rsim eq (fst (parse n G held rest r (cx KStr w i))) (fst (parse n G' held rest' r' (bx w i))) /\
      at_same w (snd (parse n G held rest r (cx KStr w i))) (snd (parse n G' held rest' r' (bx w i)))
  | _, _ => False
  end.

Section Parse.
  Variable G G' : env.
  Variable sk : text -> nat -> nat.
  Variable pols pols' : list pat.
  Hypothesis SK : skipper sk.
  Hypothesis IM : implements KStr G sk pols.
  Hypothesis CEnv : core_env KStr G sk.
  Hypothesis TE : TwinEnv G G'.
  Hypothesis PT : pols_twin G G' sk pols pols'.

  Lemma at_same_r w i c : i <= length w -> at_same w (cx KStr w i) c -> c = bx w i.
  Proof. intros Hi (j & Hj & E & ->). pose proof (f_equal c_off E) as EO. apply (bo_inj KStr w) in EO; [now subst|exact Hi|exact Hj]. Qed.

  Lemma pol_step n held : match pols, pols' with
     | [], [] => forall w i, sk w i = i
     | r :: rest, r' :: rest' => forall w i, i <= length w ->
         (fst (parse n G held rest r (cx KStr w i)) = OOF /\ fst (parse n G' held rest' r' (bx w i)) = OOF /\
          at_same w (snd (parse n G held rest r (cx KStr w i))) (snd (parse n G' held rest' r' (bx w i)))) \/
         (exists s s', parse n G held rest r (cx KStr w i) = (Ok s, cx KStr w (sk w i)) /\
                       parse n G' held rest' r' (bx w i) = (Ok s', bx w (sk w i)))
     | _, _ => False
     end.
  Proof.
    unfold implements in IM. unfold pols_twin in PT. destruct pols as [|r rest], pols' as [|r' rest']; try contradiction; [exact IM|].
    intros w i Hi. destruct (PT n held w i Hi) as [A B]. destruct (proj1 IM n held w i Hi) as [(c & E)|(s & E)].
    - left. rewrite E in *. cbn [fst snd] in *. inversion A. repeat split; auto.
    - right. rewrite E in *. cbn [fst snd] in *. inversion A as [a b <- E2 E3| | |]. subst a.
      exists s, s. split; [reflexivity|]. destruct (parse n G' held rest' r' (bx w i)) as [q c']. cbn in E3, B. subst q. f_equal.
      apply at_same_r; [|exact B]. now apply (proj1 SK).
  Qed.

  Lemma parse_twin n : forall held p p' w, Twin p p' -> core KStr G sk p -> psim sk w (parse n G held pols p) (parse n G' held pols' p').
  Proof.
    induction n as [|n IH]; intros held p p' w T C; cbn [parse]; [apply msim_psim, msim_oof|].
    apply u_step; auto; [apply pol_step|]. intros. now apply try_mat_sound.
  Qed.
  Lemma tm_twin n held p p' w : Twin p p' -> core KStr G sk p ->
    msim (at_same w) eq (tm (parse n G) held pols p) (tm (parse n G') held pols' p').
  Proof. intros T C. apply (u_tm G sk); auto; [|apply pol_step|]; intros; [now apply parse_twin|now apply try_mat_sound]. Qed.

  (** Matches cover whole characters. *)
  Definition same_span (w : text) (s s' : span) : Prop :=
    s = s' /\ exists b j, b <= j /\ j <= length w /\ s = sp KStr w b j.
  Lemma tm_span n held p p' w : Twin p p' -> core KStr G sk p ->
    msim (at_same w) (same_span w) (tm (parse n G) held pols p) (tm (parse n G') held pols' p').
  Proof.
    intros T C x y R. destruct (tm_twin n held p p' w T C x y R) as [A B]. split; [|exact B].
    destruct R as (i & Hi & -> & ->). pose proof (try_mat_sound KStr G sk pols SK CEnv IM n held p w i C Hi) as S.
    inversion S as [b j z P L1 L2 L3 L4 L5 E|e P E|c E]; rewrite <- E in *; cbn [fst] in *; inversion A; subst; constructor.
    split; [reflexivity|]. exists b, j. auto.
  Qed.

  (** The handlers do the same with the same piece of the text. *)
  Section Con.
    Context {S : Type}.
    Variable h h' : handler S.
    Variable w : text.
    Hypothesis HH : forall x b j st, x <= length w -> b <= j -> j <= length w ->
      h (cx KStr w x) (sp KStr w b j) st = h' (bx w x) (sp KStr w b j) st.
    Hypothesis COE : con_ok_env KStr G sk.
    Inductive both_at : ctx * S -> ctx * S -> Prop :=
    | ba x y st : at_same w x y -> both_at (x, st) (y, st).
    Notation RO := (same_off w).
    Lemma c_get x y : both_at x y -> RO (get_off x) (get_off y).
    Proof. intros [? ? ? H]. exact (at_get _ _ _ H). Qed.
    Lemma c_put x y o o' : both_at x y -> RO o o' -> both_at (put_off o x) (put_off o' y).
    Proof. intros [a b st H] HO. constructor. now apply at_put. Qed.
    Lemma c_on_ctx {A B} (RA : A -> B -> Prop) m m' : msim (at_same w) RA m m' -> msim both_at RA (on_ctx m) (on_ctx m').
    Proof.
      intros H x y [a b st R]. unfold on_ctx. cbn [fst snd]. destruct (H _ _ R) as [H1 H2].
      destruct (m a), (m' b). cbn in *. split; [exact H1|now constructor].
    Qed.
    Lemma c_invoke s s' : same_span w s s' -> msim both_at eq (invoke h s) (invoke h' s').
    Proof.
      intros (<- & b & j & L1 & L2 & ->) x y [a c st R]. destruct R as (i & Hi & -> & ->). unfold invoke. cbn [fst snd].
      rewrite (HH i b j st Hi L1 L2). destruct (h' _ _ _). cbn. split; [apply rsim_refl|]. constructor. now exists i.
    Qed.
    Variable n : nat.
    Variable con con' : list nat -> pat -> M (ctx * S) val.
    Hypothesis CON : forall held p p', Twin p p' -> con_ok KStr G sk p -> msim both_at eq (con held p) (con' held p').
    Variable fuel : nat.
    Variable held : list nat.
    Notation core := (core KStr G sk).
    Notation con_ok := (con_ok KStr G sk).

    Lemma c_ctm p p' : Twin p p' -> core p -> msim both_at (same_span w) (@ctm S (parse n G) held pols p) (ctm (parse n G') held pols' p').
    Proof. intros. apply c_on_ctx. now apply tm_span. Qed.
    Lemma c_leaf p p' : Twin p p' -> core p -> msim both_at eq (leaf h (parse n G) held pols p) (leaf h' (parse n G') held pols' p').
    Proof. intros. unfold leaf. eapply msim_bind; [now apply c_ctm|]. intros. now apply c_invoke. Qed.
    Lemma c_guard {A B} (RA : A -> B -> Prop) m m' : msim (gsim both_at RO) RA m m' -> msim both_at RA (with_guard m) (with_guard m').
    Proof. apply msim_guard; [apply c_get|apply c_put]. Qed.
    Lemma c_set o o' : RO o o' -> msim both_at eq (set_offset o) (set_offset o').
    Proof. apply msim_set_offset. apply c_put. Qed.
    Lemma c_offset : msim both_at RO offset offset.
    Proof. apply msim_offset. apply c_get. Qed.
    Lemma c_choice o o' e ps ps' : RO o o' -> Forall2 (fun p p' => Twin (fst p) (fst p') /\ con_ok (fst p) /\ snd p = snd p') ps ps' ->
      msim both_at eq (con_choice (con held) o e ps) (con_choice (con' held) o' e ps').
    Proof.
      intros HO F. induction F as [|p p' ps ps' (T & C & E) _ IH]; cbn [con_choice]; [apply msim_fail|].
      eapply msim_bind; [apply msim_catch; apply (msim_reset _ _ c_put); [exact HO|now apply CON]|].
      intros r r' [a b <-|er]; [rewrite E; now apply msim_ret|exact IH].
    Qed.
    Lemma c_choice_ltm o o' e ps ps' : RO o o' -> Forall2 (fun p p' => Twin (fst p) (fst p') /\ con_ok (fst p) /\ snd p = snd p') ps ps' ->
      forall best en en', RO en en' ->
      msim both_at eq (con_choice_ltm (con held) o e best en ps) (con_choice_ltm (con' held) o' e best en' ps').
    Proof.
      intros HO F. induction F as [|p p' ps ps' (T & C & E) _ IH]; intros best en en' HE; cbn [con_choice_ltm].
      - destruct best; [now apply msim_ret|apply msim_fail].
      - eapply msim_bind; [now apply c_set|]. intros _ _ _.
        eapply msim_bind; [apply msim_catch; now apply CON|]. intros r r' HR.
        eapply msim_bind; [apply c_offset|]. intros q q' HQ.
        destruct HR as [a b <-|er]; [|now apply IH]. rewrite (same_ltb w _ _ _ _ HE HQ), E.
        destruct (en' <? q'); now apply IH.
    Qed.
    Lemma plain_twins ps ps' : Twins ps ps' -> (forall p, In p ps -> con_ok p) ->
      Forall2 (fun p p' => Twin (fst p) (fst p') /\ con_ok (fst p) /\ snd p = snd p') (plain ps) (plain ps').
    Proof. induction 1; intros F; cbn; constructor; cbn in *; auto. Qed.
    Lemma keyed_twins ps ps' : KeyTwins ps ps' -> (forall p, In p ps -> con_ok (fst p)) ->
      Forall2 (fun p p' => Twin (fst p) (fst p') /\ con_ok (fst p) /\ snd p = snd p') (keyed ps) (keyed ps').
    Proof. induction 1; intros F; cbn; constructor; cbn in *; auto. apply conj; [auto|]. split; [|reflexivity]. exact (F _ (or_introl eq_refl)). Qed.

    Ltac sub := first
      [ apply msim_g_try; apply CON; assumption | apply CON; assumption
      | apply msim_g_try; apply c_ctm; assumption | apply c_ctm; assumption
      | apply msim_catch; apply CON; assumption
      | apply c_offset | apply c_set; assumption ].

    Lemma c_step p p' : Twin p p' -> con_ok p ->
      msim both_at eq (construct_step h G (parse n G) con fuel held pols p) (construct_step h' G' (parse n G') con' fuel held pols' p').
    Proof.
      intros T C. destruct T; inversion C; subst; cbn [construct_step];
        try contradiction;
        try (apply c_leaf; [now constructor|assumption]).
      - apply c_guard, msim_g_try. eapply msim_bind; [sub|intros a ? <-]. eapply msim_bind; [sub|intros b ? <-]. now apply msim_ret.
      - apply c_guard. eapply msim_bind; [sub|intros a ? <-].
        eapply msim_bind; [apply msim_catch, msim_g_on, c_guard; sub|]. intros s s' [b b' HB|e]; [|now apply msim_ret].
        eapply msim_bind; [sub|intros c ? <-]. now apply msim_ret.
      - eapply msim_bind; [sub|intros o o' HO]. apply (msim_reset _ _ c_put); [exact HO|].
        eapply msim_bind; [sub|]. intros r r' [a b HA|e]; [now apply msim_ret|].
        eapply msim_bind; [sub|intros _ _ _]. sub.
      - eapply msim_bind; [sub|intros o o' HO]. eapply msim_bind; [sub|intros a a' HA].
        eapply msim_bind; [sub|intros ol ol' HL].
        eapply msim_bind; [sub|intros _ _ _]. eapply msim_bind; [sub|intros b b' HB].
        eapply msim_bind; [sub|intros orr orr' HR].
        destruct HA as [v v' <-|e], HB as [t t' <-|e'].
        + replace (orr <=? ol) with (orr' <=? ol') by (destruct HR, HL; congruence). destruct (_ <=? _); (eapply msim_bind; [sub|intros _ _ _; now apply msim_ret]).
        + eapply msim_bind; [sub|intros _ _ _; now apply msim_ret].
        + eapply msim_bind; [sub|intros _ _ _; now apply msim_ret].
        + eapply msim_bind; [sub|intros _ _ _; now apply msim_fail].
      - eapply msim_bind; [sub|intros]. now apply c_invoke.
      - apply c_guard. eapply msim_bind; [sub|intros]. sub.
      - apply c_guard. eapply msim_bind; [sub|intros v ? <-]. eapply msim_bind; [sub|intros]. now apply msim_ret.
      - apply c_guard. eapply msim_bind; [sub|intros]. eapply msim_bind; [sub|intros v ? <-].
        eapply msim_bind; [sub|intros]. now apply msim_ret.
      - apply c_guard. eapply msim_bind; [sub|intros a ? <-]. eapply msim_bind; [sub|intros].
        eapply msim_bind; [sub|intros b' ? <-]. now apply msim_ret.
      - eapply msim_bind; [sub|intros o o' HO].
        eapply msim_bind; [eapply (msim_sep_vals both_at (same_span w)); sub|intros vs ? <-]. now apply (msim_accept _ _ c_put).
      - eapply msim_bind; [sub|intros o o' HO].
        eapply msim_bind; [eapply (msim_sep2_vals both_at (same_span w)); sub|intros vs ? <-]. now apply (msim_accept _ _ c_put).
      - eapply msim_bind; [sub|intros o o' HO].
        eapply msim_bind; [eapply (msim_sepcollect_vals both_at (same_span w)); sub|intros vs ? <-]. now apply (msim_accept _ _ c_put).
      - eapply msim_bind; [sub|intros o o' HO].
        eapply msim_bind; [apply (msim_repeat_vals both_at); sub|intros vs ? <-]. now apply (msim_accept _ _ c_put).
      - eapply msim_bind; [sub|intros o o' HO].
        eapply msim_bind; [apply (msim_repeat2_vals both_at); sub|intros vs ? <-]. now apply (msim_accept _ _ c_put).
      - eapply msim_bind; [sub|intros o o' HO].
        eapply msim_bind; [apply (msim_repeat_vals both_at); sub|intros vs ? <-]. now apply (msim_accept _ _ c_put).
      - eapply msim_bind; [sub|intros o o' HO].
        eapply msim_bind; [apply msim_catch, (msim_reset _ _ c_put); [exact HO|sub]|].
        intros r r' [a b <-|e]; now apply msim_ret.
      - eapply msim_bind; [sub|intros v ? <-]. apply msim_lift, rsim_refl.
      - eapply msim_bind; [sub|intros o o' HO]. destruct b; [apply c_choice_ltm|apply c_choice]; auto; now apply plain_twins.
      - eapply msim_bind; [sub|intros o o' HO]. destruct b; [apply c_choice_ltm|apply c_choice]; auto; now apply keyed_twins.
      - sub.
      - apply msim_fail.
      - pose proof (TE i) as E. pose proof (COE i) as CO. destruct (env_get G i), (env_get G' i); try contradiction; [|apply msim_fail].
        apply CON; auto.
    Qed.
  End Con.

  Lemma construct_twin {S} (h h' : handler S) w :
    (forall x b j st, x <= length w -> b <= j -> j <= length w ->
      h (cx KStr w x) (sp KStr w b j) st = h' (bx w x) (sp KStr w b j) st) ->
    con_ok_env KStr G sk -> forall n held p p', Twin p p' -> con_ok KStr G sk p ->
    msim (both_at w) eq (construct h n G held pols p) (construct h' n G' held pols' p').
  Proof.
    intros HH CO n. induction n as [|n IH]; intros held p p' T C; cbn [construct]; [apply msim_oof|].
    apply c_step; auto.
  Qed.
End Parse.
