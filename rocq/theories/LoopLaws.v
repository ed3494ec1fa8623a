(** Counting combinators in constructing mode, for arbitrary elements, handlers and policies; the
    longest-match containers; [sep] without the optional trailing element. *)

From Coq Require Import List Arith NArith Bool Lia.
From Verif Require Import Base Text Context Neu Syntax Regex Ctor Api TextProofs Spec Units Core Sound Complete Mono Obs Laws ApiLaws.
Import ListNotations.

Section Runs.
  Context {S : Type}.
  Variable h : handler S.
  Variable G : env.
  Variable pols : list pat.

  (** Build with [p] again and again, at most [lim] times, until it fails: the values, in order, and
      the state in which the last attempt left the context and the handler. *)
  Inductive Repeats (p : pat) : option nat -> ctx -> S -> list val -> ctx -> S -> Prop :=
  | rep_cap c s : Repeats p (Some 0) c s [] c s
  | rep_stop lim c s e c' s' : lim <> Some 0 ->
      Builds h G pols p c s (Err e) c' s' -> Repeats p lim c s [] c' s'
  | rep_more lim c s v c1 s1 vs c' s' : lim <> Some 0 ->
      Builds h G pols p c s (Ok v) c1 s1 -> Repeats p (option_map pred lim) c1 s1 vs c' s' ->
      Repeats p lim c s (v :: vs) c' s'.

  (** Build with [p] and match the separator [q], alternately, at most [lim] times.  When the
      separator is missing the list ends; [skip] says whether the element before it counts.  The
      boolean says whether the list ended with such an element that counted. *)
  Inductive SepRepeats (p q : pat) (skip : bool) : option nat -> ctx -> S -> list val -> bool -> ctx -> S -> Prop :=
  | srep_cap c s : SepRepeats p q skip (Some 0) c s [] false c s
  | srep_stop lim c s e c' s' : lim <> Some 0 ->
      Builds h G pols p c s (Err e) c' s' -> SepRepeats p q skip lim c s [] false c' s'
  | srep_last lim c s v c1 s1 e c' : lim <> Some 0 ->
      Builds h G pols p c s (Ok v) c1 s1 -> Returns G pols q c1 (Err e) c' ->
      SepRepeats p q skip lim c s (if skip then [v] else []) skip c' s1
  | srep_more lim c s v c1 s1 sp c2 vs en c' s' : lim <> Some 0 ->
      Builds h G pols p c s (Ok v) c1 s1 -> Returns G pols q c1 (Ok sp) c2 ->
      SepRepeats p q skip (option_map pred lim) c2 s1 vs en c' s' ->
      SepRepeats p q skip lim c s (v :: vs) en c' s'.

  Lemma ctm_at q c r c' : Returns G pols q c r c' ->
    exists n0, forall n (s : S), n0 <= n -> ctm (parse n G) [] pols q (c, s) = (r, (c', s)).
  Proof.
    intros R. destruct (returns_at _ _ _ _ _ _ R) as [n0 H]. exists n0. intros n s Hn. unfold ctm, on_ctx. cbn [fst snd].
    specialize (H n Hn). unfold try_mat_top in H. unfold tm. now rewrite H.
  Qed.

  Definition left (lim : option nat) (n : nat) : option nat := option_map (fun l => l - n) lim.
  Definition may (lim : option nat) (n : nat) : bool := match lim with Some l => n <? l | None => true end.
  Lemma may_left lim n : may lim n = true <-> left lim n <> Some 0.
  Proof.
    destruct lim as [l|]; simpl; [|split; [discriminate|reflexivity]]. rewrite Nat.ltb_lt. split.
    - intros H E. injection E as E. lia.
    - intros H. destruct (Nat.lt_ge_cases n l); auto. exfalso. apply H. f_equal. lia.
  Qed.
  Lemma left_pred lim n : option_map pred (left lim n) = left lim (Datatypes.S n).
  Proof. destruct lim as [l|]; simpl; [|reflexivity]. f_equal. lia. Qed.

  Lemma repeats_run p lim c s vs c' s' : Repeats p lim c s vs c' s' ->
    exists N, forall f fuel more lim0 acc, N <= f -> N <= fuel -> (forall n, more n = may lim0 n) ->
      lim = left lim0 (length acc) ->
      repeat_vals (construct h f G [] pols p) fuel more acc (c, s) = (Ok (acc ++ vs), (c', s')).
  Proof.
    induction 1 as [c s|lim c s e c' s' NZ B|lim c s v c1 s1 vs c' s' NZ B R [N IH]].
    - exists 1. intros f fuel more lim0 acc Hf Hfu Hm El. destruct fuel as [|fuel]; [lia|]. cbn [repeat_vals].
      assert (may lim0 (length acc) = false) as E.
      { apply not_true_is_false. rewrite may_left. rewrite <- El. intros X. now apply X. }
      rewrite Hm, E, app_nil_r. reflexivity.
    - destruct (builds_at _ _ _ _ _ _ _ _ _ B) as [N HN]. exists (Datatypes.S N). intros f fuel more lim0 acc Hf Hfu Hm El.
      destruct fuel as [|fuel]; [lia|]. cbn [repeat_vals].
      assert (may lim0 (length acc) = true) as E by (apply may_left; congruence).
      rewrite Hm, E. unfold bind, catch. rewrite HN by lia. now rewrite app_nil_r.
    - destruct (builds_at _ _ _ _ _ _ _ _ _ B) as [N1 HN]. exists (Datatypes.S (N + N1)). intros f fuel more lim0 acc Hf Hfu Hm El.
      destruct fuel as [|fuel]; [lia|]. cbn [repeat_vals].
      assert (may lim0 (length acc) = true) as E by (apply may_left; congruence).
      rewrite Hm, E. unfold bind, catch. rewrite HN by lia. rewrite (IH f fuel more lim0 (acc ++ [v])); auto; try lia.
      + now rewrite <- app_assoc.
      + rewrite app_length, Nat.add_1_r, El. apply left_pred.
  Qed.

  Lemma repeats2_run p lim c s vs c' s' : Repeats p lim c s vs c' s' ->
    exists N, forall f fuel n acc, N <= f -> N <= fuel -> lim = Some (Datatypes.S n - length acc) ->
      length acc <= n ->
      repeat2_vals (construct h f G [] pols p) fuel n acc (c, s) =
        (if length acc + length vs <=? n then Ok (acc ++ vs) else Panic, (c', s')).
  Proof.
    induction 1 as [c s|lim c s e c' s' NZ B|lim c s v c1 s1 vs c' s' NZ B R [N IH]].
    - exists 0. intros f fuel n acc _ _ E L. assert (0 = Datatypes.S n - length acc) by congruence. lia.
    - destruct (builds_at _ _ _ _ _ _ _ _ _ B) as [N HN]. exists (Datatypes.S N). intros f fuel n acc Hf Hfu El L.
      destruct fuel as [|fuel]; [lia|]. cbn [repeat2_vals]. rewrite (proj2 (Nat.leb_le _ _) L).
      unfold bind, catch. rewrite HN by lia. cbn [length]. rewrite Nat.add_0_r, (proj2 (Nat.leb_le _ _) L), app_nil_r. reflexivity.
    - destruct (builds_at _ _ _ _ _ _ _ _ _ B) as [N1 HN]. exists (Datatypes.S (N + N1)). intros f fuel n acc Hf Hfu El L.
      destruct fuel as [|fuel]; [lia|]. cbn [repeat2_vals]. rewrite (proj2 (Nat.leb_le _ _) L).
      unfold bind, catch. rewrite HN by lia. cbn [length]. destruct (Nat.ltb_spec (length acc) n) as [L'|L'].
      + rewrite (IH f fuel n (acc ++ [v])); try lia.
        * rewrite app_length, <- app_assoc. cbn [length]. replace (length acc + 1 + length vs) with (length acc + Datatypes.S (length vs)) by lia. reflexivity.
        * rewrite El, app_length. cbn [length option_map]. f_equal. lia.
        * rewrite app_length. cbn [length]. lia.
      + assert (length acc = n) by lia. subst n. replace (Datatypes.S (length acc) - length acc) with 1 in El by lia. subst lim. cbn in R.
        inversion R; subst; try congruence.
        cbn [length]. destruct (Nat.leb_spec (length acc + 1) (length acc)); [lia|reflexivity].
  Qed.

  Lemma sep_run p q skip lim c s vs en c' s' : SepRepeats p q skip lim c s vs en c' s' -> lim = None ->
    exists N, forall f fuel acc, N <= f -> N <= fuel ->
      sep_vals (construct h f G [] pols p) (ctm (parse f G) [] pols q) fuel skip acc (c, s) = (Ok (acc ++ vs), (c', s')).
  Proof.
    induction 1 as [c s|lim c s e c' s' NZ B|lim c s v c1 s1 e c' NZ B R|lim c s v c1 s1 sp0 c2 vs en c' s' NZ B R RR IH]; intros El; try discriminate.
    - destruct (builds_at _ _ _ _ _ _ _ _ _ B) as [N HN]. exists (Datatypes.S N). intros f fuel acc Hf Hfu.
      destruct fuel as [|fuel]; [lia|]. cbn [sep_vals]. unfold bind, catch. rewrite HN by lia. now rewrite app_nil_r.
    - destruct (builds_at _ _ _ _ _ _ _ _ _ B) as [N HN]. destruct (ctm_at _ _ _ _ R) as [N1 HN1].
      exists (Datatypes.S (N + N1)). intros f fuel acc Hf Hfu.
      destruct fuel as [|fuel]; [lia|]. cbn [sep_vals]. unfold bind, catch. rewrite HN by lia. rewrite HN1 by lia.
      destruct skip; [reflexivity|now rewrite app_nil_r].
    - destruct (IH ltac:(now subst lim)) as [N2 IH']. clear IH.
      destruct (builds_at _ _ _ _ _ _ _ _ _ B) as [N HN]. destruct (ctm_at _ _ _ _ R) as [N1 HN1].
      exists (Datatypes.S (N + N1 + N2)). intros f fuel acc Hf Hfu.
      destruct fuel as [|fuel]; [lia|]. cbn [sep_vals]. unfold bind, catch. rewrite HN by lia. rewrite HN1 by lia.
      rewrite IH' by lia. now rewrite <- app_assoc.
  Qed.

  Lemma sep2_run p q skip lim c s vs en c' s' : SepRepeats p q skip lim c s vs en c' s' ->
    exists N, forall f fuel n acc, N <= f -> N <= fuel -> lim = Some (Datatypes.S n - length acc) -> length acc <= n ->
      sep2_vals (construct h f G [] pols p) (ctm (parse f G) [] pols q) fuel n skip acc (c, s) =
        (if length acc + length vs <=? n then Ok (acc ++ vs) else Panic, (c', s')).
  Proof.
    induction 1 as [c s|lim c s e c' s' NZ B|lim c s v c1 s1 e c' NZ B R|lim c s v c1 s1 sp0 c2 vs en c' s' NZ B R RR [N2 IH]].
    - exists 0. intros f fuel n acc _ _ E L. assert (0 = Datatypes.S n - length acc) by congruence. lia.
    - destruct (builds_at _ _ _ _ _ _ _ _ _ B) as [N HN]. exists (Datatypes.S N). intros f fuel n acc Hf Hfu El L.
      destruct fuel as [|fuel]; [lia|]. cbn [sep2_vals]. rewrite (proj2 (Nat.leb_le _ _) L).
      unfold bind, catch. rewrite HN by lia. cbn [length]. now rewrite Nat.add_0_r, (proj2 (Nat.leb_le _ _) L), app_nil_r.
    - destruct (builds_at _ _ _ _ _ _ _ _ _ B) as [N HN]. destruct (ctm_at _ _ _ _ R) as [N1 HN1].
      exists (Datatypes.S (N + N1)). intros f fuel n acc Hf Hfu El L.
      destruct fuel as [|fuel]; [lia|]. cbn [sep2_vals]. rewrite (proj2 (Nat.leb_le _ _) L).
      unfold bind, catch. rewrite HN by lia. rewrite HN1 by lia. destruct skip; cbn [length].
      + destruct (Nat.ltb_spec (length acc) n), (Nat.leb_spec (length acc + 1) n); try lia; reflexivity.
      + now rewrite Nat.add_0_r, (proj2 (Nat.leb_le _ _) L), app_nil_r.
    - destruct (builds_at _ _ _ _ _ _ _ _ _ B) as [N HN]. destruct (ctm_at _ _ _ _ R) as [N1 HN1].
      exists (Datatypes.S (N + N1 + N2)). intros f fuel n acc Hf Hfu El L.
      destruct fuel as [|fuel]; [lia|]. cbn [sep2_vals]. rewrite (proj2 (Nat.leb_le _ _) L).
      unfold bind, catch. rewrite HN by lia. rewrite HN1 by lia. cbn [length]. destruct (Nat.ltb_spec (length acc) n) as [L'|L'].
      + rewrite (IH f fuel n (acc ++ [v])); try lia.
        * rewrite app_length, <- app_assoc. cbn [length]. replace (length acc + 1 + length vs) with (length acc + Datatypes.S (length vs)) by lia. reflexivity.
        * rewrite El, app_length. cbn [length option_map]. f_equal. lia.
        * rewrite app_length. cbn [length]. lia.
      + assert (length acc = n) by lia. subst n. replace (Datatypes.S (length acc) - length acc) with 1 in El by lia. subst lim. cbn in RR.
        inversion RR; subst; try congruence.
        cbn [length]. destruct (Nat.leb_spec (length acc + 1) (length acc)); [lia|reflexivity].
  Qed.

  (** One more attempt to build an element (and to match a separator after it), whose result is
      thrown away. *)
  Inductive Discards (p q : pat) : ctx -> S -> ctx -> S -> Prop :=
  | disc_none c s e c' s' : Builds h G pols p c s (Err e) c' s' -> Discards p q c s c' s'
  | disc_one c s v c1 s1 r c2 : Builds h G pols p c s (Ok v) c1 s1 -> Returns G pols q c1 r c2 ->
      r <> Panic -> Discards p q c s c2 s1.

  Lemma sepcollect_run p q skip lim c s vs en c' s' c2 s2 : SepRepeats p q skip lim c s vs en c' s' -> lim = None ->
    (if en then Discards p q c' s' c2 s2 else c2 = c' /\ s2 = s') ->
    exists N, forall f fuel acc, N <= f -> N <= fuel ->
      sepcollect_vals (construct h f G [] pols p) (ctm (parse f G) [] pols q) fuel skip false acc (c, s) = (Ok (acc ++ vs), (c2, s2)).
  Proof.
    induction 1 as [c s|lim c s e c' s' NZ B|lim c s v c1 s1 e c' NZ B R|lim c s v c1 s1 sp0 c3 vs en c' s' NZ B R RR IH]; intros El X; try discriminate.
    - destruct X as [-> ->]. destruct (builds_at _ _ _ _ _ _ _ _ _ B) as [N HN]. exists (Datatypes.S N). intros f fuel acc Hf Hfu.
      destruct fuel as [|fuel]; [lia|]. cbn [sepcollect_vals]. unfold bind, catch. rewrite HN by lia. now rewrite app_nil_r.
    - destruct (builds_at _ _ _ _ _ _ _ _ _ B) as [N HN]. destruct (ctm_at _ _ _ _ R) as [N1 HN1]. destruct skip.
      + inversion X as [? ? e' ? ? B' | ? ? v' c1' s1' r ? B' R' NP]; subst.
        * destruct (builds_at _ _ _ _ _ _ _ _ _ B') as [N' HN'].
          exists (Datatypes.S (Datatypes.S (N + N1 + N'))). intros f fuel acc Hf Hfu.
          destruct fuel as [|[|fuel]]; try lia. cbn [sepcollect_vals]. unfold bind, catch. rewrite HN by lia. rewrite HN1 by lia.
          cbn [negb orb]. rewrite HN' by lia. reflexivity.
        * destruct (builds_at _ _ _ _ _ _ _ _ _ B') as [N' HN']. destruct (ctm_at _ _ _ _ R') as [N1' HN1'].
          exists (Datatypes.S (Datatypes.S (N + N1 + N' + N1'))). intros f fuel acc Hf Hfu.
          destruct fuel as [|[|fuel]]; try lia. cbn [sepcollect_vals]. unfold bind, catch. rewrite HN by lia. rewrite HN1 by lia.
          cbn [negb orb]. rewrite HN' by lia. rewrite HN1' by lia. destruct R' as (? & _ & NO).
          destruct r; try congruence; reflexivity.
      + destruct X as [-> ->]. exists (Datatypes.S (N + N1)). intros f fuel acc Hf Hfu.
        destruct fuel as [|fuel]; [lia|]. cbn [sepcollect_vals]. unfold bind, catch. rewrite HN by lia. rewrite HN1 by lia.
        cbn [negb orb]. now rewrite app_nil_r.
    - destruct (IH ltac:(now subst lim) X) as [N2 IH']. clear IH.
      destruct (builds_at _ _ _ _ _ _ _ _ _ B) as [N HN]. destruct (ctm_at _ _ _ _ R) as [N1 HN1].
      exists (Datatypes.S (N + N1 + N2)). intros f fuel acc Hf Hfu.
      destruct fuel as [|fuel]; [lia|]. cbn [sepcollect_vals]. unfold bind, catch. rewrite HN by lia. rewrite HN1 by lia.
      cbn [negb orb]. rewrite IH' by lia. now rewrite <- app_assoc.
  Qed.

  (** The verdict of a counting combinator: the value when the count is accepted, else the error with
      the cursor put back. *)
  Definition verdict (ok : bool) (e : error) (v : val) (c c' : ctx) : res val * ctx :=
    if ok then (Ok v, c') else (Err e, at_off (c_off c) c').

  Lemma accept_verdict ok e v c (c' : ctx) (s' : S) :
    accept ok e (c_off c) v (c', s') = (fst (verdict ok e v c c'), (snd (verdict ok e v c c'), s')).
  Proof. unfold accept, verdict. now destruct ok. Qed.
  Lemma verdict_noof ok e v c c' : fst (verdict ok e v c c') <> OOF.
  Proof. unfold verdict. destruct ok; discriminate. Qed.

  Lemma repeat_law p r c s vs c' s' : Repeats p (cap r) c s vs c' s' ->
    let o := verdict (crange_contains r (length vs)) ERepeat (VList vs) c c' in
    Builds h G pols (PRepeat p r) c s (fst o) (snd o) s'.
  Proof.
    intros R. destruct (repeats_run _ _ _ _ _ _ _ R) as [N HN]. cbv zeta. exists (Datatypes.S N). split; [|apply verdict_noof].
    cbn [construct construct_step]. unfold bind, offset. cbn [get_off pair_offset fst snd].
    rewrite (HN N N (repeat_more r) (cap r) []); auto.
    - apply accept_verdict.
    - intros n. unfold repeat_more, may, cap. destruct (r_hi r); reflexivity.
    - destruct (cap r) as [l|]; cbn; [|reflexivity]. f_equal. lia.
  Qed.
  Lemma collect_law p mn c s vs c' s' : Repeats p None c s vs c' s' ->
    let o := verdict (mn <=? length vs) ECollect (VList vs) c c' in
    Builds h G pols (PCollect p mn) c s (fst o) (snd o) s'.
  Proof.
    intros R. destruct (repeats_run _ _ _ _ _ _ _ R) as [N HN]. cbv zeta. exists (Datatypes.S N). split; [|apply verdict_noof].
    cbn [construct construct_step]. unfold bind, offset. cbn [get_off pair_offset fst snd].
    rewrite (HN N N (fun _ => true) None []); auto. apply accept_verdict.
  Qed.
  Lemma repeat2_law p m n c s vs c' s' : Repeats p (Some (Datatypes.S n)) c s vs c' s' -> length vs <= n ->
    let o := verdict (m <=? length vs) ERepeat2 (cells n vs) c c' in
    Builds h G pols (PRepeat2 p m n) c s (fst o) (snd o) s'.
  Proof.
    intros R L. destruct (repeats2_run _ _ _ _ _ _ _ R) as [N HN]. cbv zeta. exists (Datatypes.S N). split; [|apply verdict_noof].
    cbn [construct construct_step]. unfold bind, offset. cbn [get_off pair_offset fst snd].
    rewrite (HN N N n []); cbn [length]; auto; try lia. cbn [Nat.add app]. rewrite (proj2 (Nat.leb_le _ _) L).
    replace (length vs <=? n) with true by (symmetry; now apply Nat.leb_le). rewrite andb_true_r. apply accept_verdict.
  Qed.
  Lemma repeat2_panics p m n c s vs c' s' : Repeats p (Some (Datatypes.S n)) c s vs c' s' -> length vs = Datatypes.S n ->
    Builds h G pols (PRepeat2 p m n) c s Panic c' s'.
  Proof.
    intros R L. destruct (repeats2_run _ _ _ _ _ _ _ R) as [N HN]. exists (Datatypes.S N). split; [|discriminate].
    cbn [construct construct_step]. unfold bind, offset. cbn [get_off pair_offset fst snd].
    rewrite (HN N N n []); cbn [length]; auto; try lia. rewrite L. destruct (Nat.leb_spec (0 + Datatypes.S n) n); [lia|reflexivity].
  Qed.
  Lemma sep_law p q mn skip c s vs en c' s' : SepRepeats p q skip None c s vs en c' s' ->
    let o := verdict (mn <=? length vs) ESeparate (VList vs) c c' in
    Builds h G pols (PSep p q mn skip) c s (fst o) (snd o) s'.
  Proof.
    intros R. destruct (sep_run _ _ _ _ _ _ _ _ _ _ R eq_refl) as [N HN]. cbv zeta. exists (Datatypes.S N). split; [|apply verdict_noof].
    cbn [construct construct_step]. unfold bind, offset. cbn [get_off pair_offset fst snd].
    rewrite (HN N N []); auto. apply accept_verdict.
  Qed.
  Lemma sep2_law p q m n skip c s vs en c' s' : SepRepeats p q skip (Some (Datatypes.S n)) c s vs en c' s' -> length vs <= n ->
    let o := verdict (m <=? length vs) ESeparate2 (cells n vs) c c' in
    Builds h G pols (PSep2 p q m n skip) c s (fst o) (snd o) s'.
  Proof.
    intros R L. destruct (sep2_run _ _ _ _ _ _ _ _ _ _ R) as [N HN]. cbv zeta. exists (Datatypes.S N). split; [|apply verdict_noof].
    cbn [construct construct_step]. unfold bind, offset. cbn [get_off pair_offset fst snd].
    rewrite (HN N N n []); cbn [length]; auto; try lia. cbn [Nat.add app]. rewrite (proj2 (Nat.leb_le _ _) L). apply accept_verdict.
  Qed.
  Lemma sep2_panics p q m n skip c s vs en c' s' : SepRepeats p q skip (Some (Datatypes.S n)) c s vs en c' s' ->
    length vs = Datatypes.S n -> Builds h G pols (PSep2 p q m n skip) c s Panic c' s'.
  Proof.
    intros R L. destruct (sep2_run _ _ _ _ _ _ _ _ _ _ R) as [N HN]. exists (Datatypes.S N). split; [|discriminate].
    cbn [construct construct_step]. unfold bind, offset. cbn [get_off pair_offset fst snd].
    rewrite (HN N N n []); cbn [length]; auto; try lia. rewrite L. destruct (Nat.leb_spec (0 + Datatypes.S n) n); [lia|reflexivity].
  Qed.
  Lemma sepcollect_law p q mn skip c s vs en c' s' c2 s2 : SepRepeats p q skip None c s vs en c' s' ->
    (if en then Discards p q c' s' c2 s2 else c2 = c' /\ s2 = s') ->
    let o := verdict (mn <=? length vs) ESepCollect (VList vs) c c2 in
    Builds h G pols (PSepCollect p q mn skip) c s (fst o) (snd o) s2.
  Proof.
    intros R X. destruct (sepcollect_run _ _ _ _ _ _ _ _ _ _ _ _ R eq_refl X) as [N HN]. cbv zeta. exists (Datatypes.S N). split; [|apply verdict_noof].
    cbn [construct construct_step]. unfold bind, offset. cbn [get_off pair_offset fst snd].
    rewrite (HN N N []); auto. apply accept_verdict.
  Qed.
End Runs.

(** ** Longest-match containers *)

(** All alternatives are tried from the byte offset [o]; their results, and the state the last one
    left. *)
Inductive Tries (G : env) (pols : list pat) (o : nat) : ctx -> list pat -> list (span + error) -> ctx -> Prop :=
| tries_none c : Tries G pols o c [] [] c
| tries_ok c p s c1 ps rs c' : Returns G pols p (at_off o c) (Ok s) c1 -> Tries G pols o c1 ps rs c' ->
    Tries G pols o c (p :: ps) (inl s :: rs) c'
| tries_err c p e c1 ps rs c' : Returns G pols p (at_off o c) (Err e) c1 -> Tries G pols o c1 ps rs c' ->
    Tries G pols o c (p :: ps) (inr e :: rs) c'.

(** [s] is the first longest span among the results. *)
Definition FirstLongest (rs : list (span + error)) (s : span) : Prop :=
  exists pre post, rs = pre ++ inl s :: post /\
    (forall s', In (inl s') pre -> slen s' < slen s) /\ (forall s', In (inl s') post -> slen s' <= slen s).
Definition NoSpan (rs : list (span + error)) : Prop := forall s, ~ In (inl s) rs.

Fixpoint pick (best : option span) (rs : list (span + error)) : option span :=
  match rs with
  | [] => best
  | inl s :: rs => pick (match best with None => Some s | Some b => if slen b <? slen s then Some s else best end) rs
  | inr _ :: rs => pick best rs
  end.

Lemma pick_first rs b : (forall s', In (inl s') rs -> slen s' <= slen b) -> pick (Some b) rs = Some b.
Proof.
  induction rs as [|[s|e] rs IH]; intros H; cbn [pick]; auto.
  - destruct (Nat.ltb_spec (slen b) (slen s)) as [L|L].
    + pose proof (H s (or_introl eq_refl)). lia.
    + apply IH. intros s' I. apply H. now right.
  - apply IH. intros s' I. apply H. now right.
Qed.
Lemma pick_longest pre post s best : (forall s', In (inl s') pre -> slen s' < slen s) ->
  (forall s', In (inl s') post -> slen s' <= slen s) ->
  match best with Some b => slen b < slen s | None => True end ->
  pick best (pre ++ inl s :: post) = Some s.
Proof.
  revert best. induction pre as [|[s0|e] pre IH]; intros best H1 H2 B; cbn [app pick].
  - replace (match best with Some b => if slen b <? slen s then Some s else best | None => Some s end) with (Some s).
    + now apply pick_first.
    + destruct best as [b|]; auto. destruct (Nat.ltb_spec (slen b) (slen s)); [reflexivity|lia].
  - apply IH; auto.
    + intros s' I. apply H1. now right.
    + pose proof (H1 s0 (or_introl eq_refl)). destruct best as [b|]; auto. now destruct (slen b <? slen s0).
  - apply IH; auto. intros s' I. apply H1. now right.
Qed.
Lemma pick_none rs : NoSpan rs -> forall best, pick best rs = best.
Proof.
  induction rs as [|[s|e] rs IH]; intros H best; cbn [pick]; auto.
  - exfalso. apply (H s). now left.
  - apply IH. intros s I. apply (H s). now right.
Qed.
(** Among results that are not all errors there is a first longest one. *)
Lemma first_longest_exists rs : NoSpan rs \/ exists s, FirstLongest rs s.
Proof.
  induction rs as [|[s|e] rs IH].
  - left. intros s [].
  - right. destruct IH as [N|(t & pre & post & -> & H1 & H2)].
    + exists s, [], rs. split; [reflexivity|]. split; [intros ? []|intros s' I; elim (N s' I)].
    + destruct (Nat.lt_ge_cases (slen s) (slen t)) as [L|L].
      * exists t, (inl s :: pre), post. split; [reflexivity|]. split; auto.
        intros s' [E|I]; [injection E as <-; auto|auto].
      * exists s, [], (pre ++ inl t :: post). split; [reflexivity|]. split; [intros ? []|].
        intros s' I. apply in_app_iff in I. destruct I as [I|[E|I]].
        -- specialize (H1 _ I). lia.
        -- injection E as <-. lia.
        -- specialize (H2 _ I). lia.
  - destruct IH as [N|(t & pre & post & -> & H1 & H2)].
    + left. intros s [E|I]; [discriminate|now apply (N s)].
    + right. exists t, (inr e :: pre), post. split; [reflexivity|]. split; auto.
      intros s' [E|I]; [discriminate|auto].
Qed.

Lemma tries_run G pols o c ps rs c' : Tries G pols o c ps rs c' ->
  exists N, forall n e best, N <= n ->
    choice_ltm (tm (parse n G) [] pols) o e best ps c =
      (match pick best rs with Some s => Ok s | None => Err e end, c').
Proof.
  induction 1 as [c|c p s c1 ps rs c' R T [N IH]|c p e0 c1 ps rs c' R T [N IH]].
  - exists 0. intros n e [b|] _; reflexivity.
  - destruct (returns_at _ _ _ _ _ _ R) as [N1 H1]. exists (N + N1). intros n e best Hn. cbn [choice_ltm].
    unfold bind, set_offset, catch. change (put_off o c) with (at_off o c).
    change (tm (parse n G) [] pols p (at_off o c)) with (try_mat_top n G pols p (at_off o c)).
    rewrite H1 by lia. now rewrite IH by lia.
  - destruct (returns_at _ _ _ _ _ _ R) as [N1 H1]. exists (N + N1). intros n e best Hn. cbn [choice_ltm].
    unfold bind, set_offset, catch. change (put_off o c) with (at_off o c).
    change (tm (parse n G) [] pols p (at_off o c)) with (try_mat_top n G pols p (at_off o c)).
    rewrite H1 by lia. now rewrite IH by lia.
Qed.

Lemma ltm_parse G e ps c rs c' : Tries G [] (c_off c) c ps rs c' ->
  Returns G [] (PChoice e true ps) c (match pick None rs with Some s => Ok s | None => Err e end) c'.
Proof.
  intros T. destruct (tries_run _ _ _ _ _ _ _ T) as [N H]. exists (S N). split; [|destruct (pick None rs); discriminate].
  rewrite tm_plain. cbn [parse parse_step]. unfold bind at 1, offset. cbn [get_off]. now apply H.
Qed.
Lemma ltm_longest G e ps c rs c' s : Tries G [] (c_off c) c ps rs c' -> FirstLongest rs s ->
  Returns G [] (PChoice e true ps) c (Ok s) c'.
Proof.
  intros T (pre & post & -> & H1 & H2). pose proof (ltm_parse G e ps c _ c' T) as R.
  now rewrite (pick_longest pre post s None) in R.
Qed.
Lemma ltm_none G e ps c rs c' : Tries G [] (c_off c) c ps rs c' -> NoSpan rs ->
  Returns G [] (PChoice e true ps) c (Err e) c'.
Proof. intros T H. pose proof (ltm_parse G e ps c _ c' T) as R. now rewrite (pick_none rs H) in R. Qed.


(** ** [sep] where an element without separator does not count *)

(** Elements each followed by a separator, at most [lim]: [n] of them, the last separator ending at
    [j]; then possibly one more element with no separator after it, which moves the cursor to [x]. *)
Inductive Terminated (elem sep : nat -> nat -> Prop) (no_elem no_sep : nat -> Prop) : option nat -> nat -> nat -> nat -> nat -> Prop :=
| term_cap i : Terminated elem sep no_elem no_sep (Some 0) i 0 i i
| term_none lim i : lim <> Some 0 -> no_elem i -> Terminated elem sep no_elem no_sep lim i 0 i i
| term_open lim i x : lim <> Some 0 -> elem i x -> no_sep x -> Terminated elem sep no_elem no_sep lim i 0 i x
| term_more lim i j j' n j'' x : lim <> Some 0 -> elem i j -> sep j j' ->
    Terminated elem sep no_elem no_sep (option_map pred lim) j' n j'' x ->
    Terminated elem sep no_elem no_sep lim i (S n) j'' x.

Section Noskip.
  Variable k : kind.
  Variable G : env.
  Hypothesis CE : core_env k G no_skip.
  Notation core := (core k G no_skip).
  Notation Matches := (Matches k G).
  Notation Fails := (Fails k G).
  Notation Returns := (Returns G []).
  Notation cx := (cx k).
  Notation sp := (sp k).

  Lemma matches_at p w i b j : Matches p w i b j -> exists N, forall n, N <= n -> try_mat_top n G [] p (cx w i) = (Ok (sp w b j), cx w j).
  Proof. intros (_ & _ & n & E). apply returns_at. exists n. split; [exact E|discriminate]. Qed.
  Lemma fails_at p w i e : Fails p w i e -> exists N, forall n, N <= n -> try_mat_top n G [] p (cx w i) = (Err e, cx w i).
  Proof. intros (n & E). apply returns_at. exists n. split; [exact E|discriminate]. Qed.

  Definition terminated p s w := Terminated (step_of k G p w) (step_of k G s w) (stop_of k G p w) (stop_of k G s w).

  Lemma terminated_run p s w lim i n j x : core p -> core s -> i <= length w -> terminated p s w lim i n j x ->
    (i <= j <= x /\ x <= length w) /\
    exists N, forall f fuel more lim0 cnt o, N <= f -> N <= fuel -> o <= i -> (forall n, more n = may lim0 n) -> lim = left lim0 cnt ->
      sep_loop (tm (parse f G) [] [] p) (tm (parse f G) [] [] s) fuel more false cnt (sp w o i) (cx w i) =
        (Ok (cnt + n, sp w o j), cx w x).
  Proof.
    intros Cp Cs Hi H. revert Hi. induction H as [i|lim i NZ [e E]|lim i x NZ [b E] [e E']|lim i j j' n j'' x NZ [b E] [b' E'] T IH]; intros Hi.
    - split; [lia|]. exists 1. intros f fuel more lim0 cnt o Hf Hfu Ho Hm El. destruct fuel as [|fuel]; [lia|]. cbn [sep_loop].
      assert (may lim0 cnt = false) as Y by (apply not_true_is_false; rewrite may_left, <- El; intros X; now apply X).
      rewrite Hm, Y, Nat.add_0_r. reflexivity.
    - split; [lia|]. destruct (fails_at _ _ _ _ E) as [N HN]. exists (S N). intros f fuel more lim0 cnt o Hf Hfu Ho Hm El.
      destruct fuel as [|fuel]; [lia|]. cbn [sep_loop]. unfold bind, catch.
      assert (may lim0 cnt = true) as Y by (apply may_left; congruence). rewrite Hm, Y.
      change (tm (parse f G) [] [] p (cx w i)) with (try_mat_top f G [] p (cx w i)). rewrite HN by lia. now rewrite Nat.add_0_r.
    - pose proof (matches_in _ _ CE _ _ _ _ _ Cp Hi E). split; [lia|].
      destruct (matches_at _ _ _ _ _ E) as [N HN]. destruct (fails_at _ _ _ _ E') as [N' HN'].
      exists (S (N + N')). intros f fuel more lim0 cnt o Hf Hfu Ho Hm El. destruct fuel as [|fuel]; [lia|]. cbn [sep_loop]. unfold bind, catch.
      assert (may lim0 cnt = true) as Y by (apply may_left; congruence). rewrite Hm, Y.
      change (tm (parse f G) [] [] p (cx w i)) with (try_mat_top f G [] p (cx w i)). rewrite HN by lia.
      change (tm (parse f G) [] [] s (cx w x)) with (try_mat_top f G [] s (cx w x)). rewrite HN' by lia. now rewrite Nat.add_0_r.
    - pose proof (matches_in _ _ CE _ _ _ _ _ Cp Hi E).
      assert (Hj : j <= length w) by lia. pose proof (matches_in _ _ CE _ _ _ _ _ Cs Hj E'). destruct (IH ltac:(lia)) as [B [N2 HN2]]. split; [lia|].
      destruct (matches_at _ _ _ _ _ E) as [N HN]. destruct (matches_at _ _ _ _ _ E') as [N' HN'].
      exists (S (N + N' + N2)). intros f fuel more lim0 cnt o Hf Hfu Ho Hm El. destruct fuel as [|fuel]; [lia|]. cbn [sep_loop]. unfold bind, catch.
      assert (may lim0 cnt = true) as Y by (apply may_left; congruence). rewrite Hm, Y.
      change (tm (parse f G) [] [] p (cx w i)) with (try_mat_top f G [] p (cx w i)). rewrite HN by lia.
      change (tm (parse f G) [] [] s (cx w j)) with (try_mat_top f G [] s (cx w j)). rewrite HN' by lia.
      unfold join, lift. rewrite join_sp by lia. rewrite join_sp by lia. rewrite (HN2 _ _ more lim0); auto; try lia.
      + do 3 f_equal. lia.
      + rewrite El. apply left_pred.
  Qed.

  Ltac noskip Cp Cs Hi T L lim0 := destruct (terminated_run _ _ _ _ _ _ _ _ Cp Cs Hi T) as [B [N HN]];
    exists (S N); split; [|discriminate]; rewrite tm_plain; cbn [parse parse_step]; unfold bind, offset; rewrite off_cx;
    rewrite sp_empty, (HN N N _ lim0); auto; try lia;
    [cbn [fst snd Nat.add]; first [rewrite (proj2 (Nat.leb_le _ _) L)|rewrite (proj2 (Nat.leb_gt _ _) L)]; reflexivity|..];
    try (cbn; f_equal; lia).

  Lemma sep_noskip_ok p s mn w i n j x : core p -> core s -> i <= length w -> terminated p s w None i n j x -> mn <= n ->
    Returns (PSep p s mn false) (cx w i) (Ok (sp w i j)) (cx w x).
  Proof. intros Cp Cs Hi T L. noskip Cp Cs Hi T L (@None nat). Qed.
  Lemma sep_noskip_err p s mn w i n j x : core p -> core s -> i <= length w -> terminated p s w None i n j x -> n < mn ->
    Returns (PSep p s mn false) (cx w i) (Err ESeparate) (cx w i).
  Proof. intros Cp Cs Hi T L. noskip Cp Cs Hi T L (@None nat). Qed.
  Lemma sepcollect_noskip_ok p s mn w i n j x : core p -> core s -> i <= length w -> terminated p s w None i n j x -> mn <= n ->
    Returns (PSepCollect p s mn false) (cx w i) (Ok (sp w i j)) (cx w x).
  Proof. intros Cp Cs Hi T L. noskip Cp Cs Hi T L (@None nat). Qed.
  Lemma sepcollect_noskip_err p s mn w i n j x : core p -> core s -> i <= length w -> terminated p s w None i n j x -> n < mn ->
    Returns (PSepCollect p s mn false) (cx w i) (Err ESepCollect) (cx w i).
  Proof. intros Cp Cs Hi T L. noskip Cp Cs Hi T L (@None nat). Qed.
  Lemma sep2_noskip_ok p s m l w i n j x : core p -> core s -> i <= length w -> terminated p s w (Some (S l)) i n j x -> m <= n ->
    Returns (PSep2 p s m l false) (cx w i) (Ok (sp w i j)) (cx w x).
  Proof. intros Cp Cs Hi T L. noskip Cp Cs Hi T L (Some (S l)). Qed.
  Lemma sep2_noskip_err p s m l w i n j x : core p -> core s -> i <= length w -> terminated p s w (Some (S l)) i n j x -> n < m ->
    Returns (PSep2 p s m l false) (cx w i) (Err ESeparate2) (cx w i).
  Proof. intros Cp Cs Hi T L. noskip Cp Cs Hi T L (Some (S l)). Qed.
End Noskip.

(** ** Longest-match containers in constructing mode *)

Section Furthest.
  Context {S : Type}.
  Variable h : handler S.
  Variable G : env.
  Variable pols : list pat.

  (** All alternatives are tried from the byte offset [o]; for each the value it built and the offset
      it ended at, if it succeeded; the state the last one left. *)
  Inductive BuildTries (o : nat) : ctx -> S -> list (pat * (val -> val)) -> list (option (val * nat)) -> ctx -> S -> Prop :=
  | btries_none c s : BuildTries o c s [] [] c s
  | btries_ok c s p f v c1 s1 ps rs c' s' : Builds h G pols p (at_off o c) s (Ok v) c1 s1 ->
      BuildTries o c1 s1 ps rs c' s' -> BuildTries o c s ((p, f) :: ps) (Some (f v, c_off c1) :: rs) c' s'
  | btries_err c s p f e c1 s1 ps rs c' s' : Builds h G pols p (at_off o c) s (Err e) c1 s1 ->
      BuildTries o c1 s1 ps rs c' s' -> BuildTries o c s ((p, f) :: ps) (None :: rs) c' s'.

  (** [v] is the value of the first alternative that went furthest, beyond [o]. *)
  Definition FirstFurthest (o : nat) (rs : list (option (val * nat))) (v : val) : Prop :=
    exists pre n post, rs = pre ++ Some (v, n) :: post /\ o < n /\
      (forall v' n', In (Some (v', n')) pre -> n' < n) /\ (forall v' n', In (Some (v', n')) post -> n' <= n).
  Definition NoProgress (o : nat) (rs : list (option (val * nat))) : Prop := forall v n, In (Some (v, n)) rs -> n <= o.

  Fixpoint further (best : option val) (en : nat) (rs : list (option (val * nat))) : option val :=
    match rs with
    | [] => best
    | Some (v, n) :: rs => if en <? n then further (Some v) n rs else further best en rs
    | None :: rs => further best en rs
    end.
  Lemma further_none rs : forall best en, NoProgress en rs -> further best en rs = best.
  Proof.
    induction rs as [|[[v n]|] rs IH]; intros best en H; cbn [further]; auto.
    - destruct (Nat.ltb_spec en n) as [L|L]; [pose proof (H v n (or_introl eq_refl)); lia|].
      apply IH. intros v' n' I. apply (H v' n'). now right.
    - apply IH. intros v' n' I. apply (H v' n'). now right.
  Qed.
  Lemma further_first rs v : forall best en, FirstFurthest en rs v -> further best en rs = Some v.
  Proof.
    intros best en (pre & n & post & -> & L & H1 & H2). revert best en L.
    induction pre as [|[[v0 n0]|] pre IH]; intros best en L; cbn [app further].
    - rewrite (proj2 (Nat.ltb_lt _ _) L). apply further_none. exact H2.
    - assert (forall v' n', In (Some (v', n')) pre -> n' < n) by (intros v' n' I; apply (H1 v' n'); now right).
      pose proof (H1 v0 n0 (or_introl eq_refl)). destruct (en <? n0); now apply IH.
    - apply IH; auto. intros v' n' I. apply (H1 v' n'). now right.
  Qed.

  Lemma btries_run o c s ps rs c' s' : BuildTries o c s ps rs c' s' ->
    exists N, forall n e best en, N <= n ->
      con_choice_ltm (construct h n G [] pols) o e best en ps (c, s) =
        (match further best en rs with Some v => Ok v | None => Err e end, (c', s')).
  Proof.
    induction 1 as [c s|c s p f v c1 s1 ps rs c' s' B T [N IH]|c s p f e0 c1 s1 ps rs c' s' B T [N IH]].
    - exists 0. intros n e [b|] en _; reflexivity.
    - destruct (builds_at _ _ _ _ _ _ _ _ _ B) as [N1 H1]. exists (N + N1). intros n e best en Hn.
      cbn [con_choice_ltm fst snd]. unfold bind at 1, set_offset. cbn [put_off pair_offset fst snd].
      change (put_off o c) with (at_off o c). unfold bind, catch. rewrite H1 by lia.
      unfold offset. cbn [get_off pair_offset fst snd further]. change (get_off c1) with (c_off c1).
      destruct (en <? c_off c1); now rewrite IH by lia.
    - destruct (builds_at _ _ _ _ _ _ _ _ _ B) as [N1 H1]. exists (N + N1). intros n e best en Hn.
      cbn [con_choice_ltm fst snd]. unfold bind at 1, set_offset. cbn [put_off pair_offset fst snd].
      change (put_off o c) with (at_off o c). unfold bind, catch. rewrite H1 by lia.
      unfold offset. cbn [get_off pair_offset fst snd further]. now rewrite IH by lia.
  Qed.

  Lemma ctor_ltm_furthest e ps c s rs c' s' v : BuildTries (c_off c) c s (plain ps) rs c' s' ->
    FirstFurthest (c_off c) rs v -> Builds h G pols (PChoice e true ps) c s (Ok v) c' s'.
  Proof.
    intros T F. destruct (btries_run _ _ _ _ _ _ _ T) as [N H]. exists (Datatypes.S N). split; [|discriminate].
    cbn [construct construct_step]. unfold bind at 1, offset. cbn [get_off pair_offset fst snd].
    rewrite H by lia. now rewrite (further_first _ _ _ _ F).
  Qed.
  Lemma ctor_ltm_none e ps c s rs c' s' : BuildTries (c_off c) c s (plain ps) rs c' s' ->
    NoProgress (c_off c) rs -> Builds h G pols (PChoice e true ps) c s (Err e) c' s'.
  Proof.
    intros T F. destruct (btries_run _ _ _ _ _ _ _ T) as [N H]. exists (Datatypes.S N). split; [|discriminate].
    cbn [construct construct_step]. unfold bind at 1, offset. cbn [get_off pair_offset fst snd].
    rewrite H by lia. now rewrite (further_none _ _ _ F).
  Qed.
  Lemma ctor_pair_ltm_furthest e ps c s rs c' s' v : BuildTries (c_off c) c s (keyed ps) rs c' s' ->
    FirstFurthest (c_off c) rs v -> Builds h G pols (PPairChoice e true ps) c s (Ok v) c' s'.
  Proof.
    intros T F. destruct (btries_run _ _ _ _ _ _ _ T) as [N H]. exists (Datatypes.S N). split; [|discriminate].
    cbn [construct construct_step]. unfold bind at 1, offset. cbn [get_off pair_offset fst snd].
    rewrite H by lia. now rewrite (further_first _ _ _ _ F).
  Qed.
  Lemma ctor_pair_ltm_none e ps c s rs c' s' : BuildTries (c_off c) c s (keyed ps) rs c' s' ->
    NoProgress (c_off c) rs -> Builds h G pols (PPairChoice e true ps) c s (Err e) c' s'.
  Proof.
    intros T F. destruct (btries_run _ _ _ _ _ _ _ T) as [N H]. exists (Datatypes.S N). split; [|discriminate].
    cbn [construct construct_step]. unfold bind at 1, offset. cbn [get_off pair_offset fst snd].
    rewrite H by lia. now rewrite (further_none _ _ _ F).
  Qed.
End Furthest.

(** For well-behaved alternatives, the cursor ends where the last alternative put it. *)
Section LtmCore.
  Variable k : kind.
  Variable G : env.

  Lemma ltm_all_fail e ps w i : (forall p, In p ps -> exists e', Fails k G p w i e') ->
    Fails k G (PChoice e true ps) w i e.
  Proof.
    intros H. assert (T : exists rs, Tries G [] (c_off (cx k w i)) (cx k w i) ps rs (cx k w i) /\ NoSpan rs).
    { induction ps as [|p ps IH].
      - exists []. split; [constructor|intros s []].
      - destruct IH as (rs & T & N); [intros q Q; apply H; now right|]. destruct (H p (or_introl eq_refl)) as [e' [n E]].
        exists (inr e' :: rs). split.
        + eapply tries_err; [|exact T]. exists n. split; [exact E|discriminate].
        + intros s [X|I]; [discriminate|now apply (N s)]. }
    destruct T as (rs & T & N). destruct (ltm_none G e ps _ _ _ T N) as (n & E & _). now exists n.
  Qed.
  (** The last alternative matches, and no other matches anything longer: the container matches the same. *)
  Lemma ltm_last e ps p w i b j : Matches k G p w i b j ->
    (forall q, In q ps -> (exists e', Fails k G q w i e') \/ exists b' j', Matches k G q w i b' j' /\ slen (sp k w b' j') < slen (sp k w b j)) ->
    Matches k G (PChoice e true (ps ++ [p])) w i b j.
  Proof.
    intros M H. destruct M as (B1 & B2 & n & E). split; [auto|split; [auto|]].
    assert (T : forall c, c_kind c = k -> c_dat c = w -> exists rs,
      Tries G [] (c_off (cx k w i)) c (ps ++ [p]) (rs ++ [inl (sp k w b j)]) (cx k w j) /\
      forall s', In (inl s') rs -> slen s' < slen (sp k w b j)).
    { induction ps as [|q ps IH]; intros c K D.
      - exists []. split; [|intros s []]. cbn [app]. eapply tries_ok; [|constructor]. exists n. split; [|discriminate].
        replace (at_off (c_off (cx k w i)) c) with (cx k w i); auto. unfold at_off. now rewrite K, D.
      - assert (EC : at_off (c_off (cx k w i)) c = cx k w i) by (unfold at_off; now rewrite K, D).
        destruct (H q (or_introl eq_refl)) as [[e' [m F]]|(b' & j' & (_ & _ & m & F) & L)].
        + destruct (IH (fun q' I => H q' (or_intror I)) (cx k w i) eq_refl eq_refl) as (rs & T & A).
          exists (inr e' :: rs). split.
          * cbn [app]. eapply tries_err; [|exact T]. rewrite EC. exists m. split; [exact F|discriminate].
          * intros s' [X|I]; [discriminate|auto].
        + destruct (IH (fun q' I => H q' (or_intror I)) (cx k w j') eq_refl eq_refl) as (rs & T & A).
          exists (inl (sp k w b' j') :: rs). split.
          * cbn [app]. eapply tries_ok; [|exact T]. rewrite EC. exists m. split; [exact F|discriminate].
          * intros s' [X|I]; [injection X as <-; auto|auto]. }
    destruct (T (cx k w i) eq_refl eq_refl) as (rs & T' & A).
    destruct (ltm_longest G e _ _ _ _ (sp k w b j) T') as (m & F & _).
    - exists rs, []. split; [reflexivity|]. split; [exact A|intros ? []].
    - now exists m.
  Qed.
End LtmCore.
