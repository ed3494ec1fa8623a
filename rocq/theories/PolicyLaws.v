(** Contexts with skip policies: [skip_before], [skip_ascii_whitespace], [skip_whitespace]. *)

From Coq Require Import List Arith NArith Bool Lia.
From Verif Require Import Base Text Context Neu Syntax Regex Ctor Api TextProofs Spec Units Core Sound Complete Mono Atomic Obs ApiLaws.
Import ListNotations.

(** The length of the longest prefix of [l] whose items all satisfy [f]. *)
Fixpoint prefix_len (f : item -> bool) (l : text) : nat :=
  match l with
  | x :: l' => if f x then S (prefix_len f l') else 0
  | [] => 0
  end.

(** Skip all items satisfying the unit [u]. *)
Definition skip_run (u : neu) (w : text) (i : nat) : nat := i + prefix_len (is_match u) (skipn i w).

Lemma prefix_len_le f l : prefix_len f l <= length l.
Proof. induction l as [|x l IH]; simpl; [lia|]. destruct (f x); simpl; lia. Qed.

Lemma prefix_len_skip f n l : n <= prefix_len f l -> prefix_len f (skipn n l) = prefix_len f l - n.
Proof.
  revert n. induction l as [|x l IH]; intros n H; simpl in *.
  - destruct n; reflexivity.
  - destruct n as [|n]; simpl; [lia|]. destruct (f x); [|lia]. rewrite IH; lia.
Qed.

Lemma skip_run_skipper u : skipper (skip_run u).
Proof.
  split.
  - intros w i Hi. unfold skip_run. pose proof (prefix_len_le (is_match u) (skipn i w)).
    rewrite skipn_length in H. lia.
  - intros w i x Hi H1 H2. unfold skip_run in *. replace x with (i + (x - i)) at 2 by lia.
    rewrite skipn_add. rewrite prefix_len_skip by lia. lia.
Qed.

Lemma skip_run_spec u w i : i <= length w ->
  i <= skip_run u w i /\
  (forall m x, i <= m -> m < skip_run u w i -> nth_error w m = Some x -> is_match u x = true) /\
  (forall x, nth_error w (skip_run u w i) = Some x -> is_match u x = false).
Proof.
  intros Hi. split; [unfold skip_run; lia|].
  assert (A : forall l m, m < prefix_len (is_match u) l -> forall x, nth_error l m = Some x -> is_match u x = true).
  { induction l as [|y l IH]; intros m H x E; simpl in *; [lia|]. destruct (is_match u y) eqn:Ey; [|lia].
    destruct m; simpl in *; [congruence|]. apply (IH m); auto. lia. }
  assert (B : forall l x, nth_error l (prefix_len (is_match u) l) = Some x -> is_match u x = false).
  { induction l as [|y l IH]; intros x E; simpl in *; [discriminate|]. destruct (is_match u y) eqn:Ey; simpl in *; auto.
    congruence. }
  assert (N : forall m, nth_error (skipn i w) m = nth_error w (i + m)).
  { intros m. revert i Hi. clear. induction w as [|y w IH]; intros i Hi; simpl in *.
    - destruct i, m; reflexivity.
    - destruct i as [|i]; [reflexivity|]. simpl. apply IH. lia. }
  split.
  - intros m x H1 H2 E. apply (A (skipn i w) (m - i)); [unfold skip_run in H2; lia|].
    rewrite N. now replace (i + (m - i)) with m by lia.
  - intros x E. apply (B (skipn i w)). rewrite N. exact E.
Qed.

Section Many0.
  Variable k : kind.

  Lemma runlen_prefix u chk l o : (forall x, chk x = Ok true) ->
    runlen u chk None (indices k o l) = Ok (prefix_len (is_match u) l).
  Proof.
    intros H. revert o. induction l as [|x l IH]; intros o; [reflexivity|]. cbn [indices runlen acc1 snd prefix_len].
    rewrite H. destruct (is_match u x); [|reflexivity]. cbn [limit_pred option_map]. now rewrite IH.
  Qed.

  Lemma many0_skips n G held pols u w i : i <= length w ->
    parse (S n) G held pols (PMany0 u CEmpty) (cx k w i) = (Ok (sp k w i (skip_run u w i)), cx k w (skip_run u w i)).
  Proof.
    intros Hi. cbn [parse parse_step]. rewrite many0_nf by auto. unfold items. cbn [skipn].
    rewrite runlen_prefix; [reflexivity|]. now intros.
  Qed.

  Lemma many0_implements G u rest : implements k G (skip_run u) (PMany0 u CEmpty :: rest).
  Proof.
    split.
    - intros [|n] held w i Hi; [left; now eexists|]. right. rewrite many0_skips by auto. eauto.
    - intros w i Hi. exists 1. intros [|m] held Hm; [lia|]. rewrite many0_skips by auto. eauto.
  Qed.

  (** On policy contexts [try_mat] is the PEG semantics of the pattern from the skipped position. *)
  Section Any.
    Variable G : env.
    Variable sk : text -> nat -> nat.
    Variable pols : list pat.
    Hypothesis SK : skipper sk.
    Hypothesis CE : core_env k G sk.
    Hypothesis IM : implements k G sk pols.

    Lemma policy_sound p w i r c' : core k G sk p -> i <= length w -> Returns G pols p (cx k w i) r c' ->
      (exists b j x, r = Ok (sp k w b j) /\ c' = cx k w x /\ Peg k G sk w p (sk w i) (OK b j) /\
         sk w i <= b /\ b <= j /\ j <= x /\ x <= sk w j /\ j <= length w) \/
      (exists e, r = Err e /\ c' = cx k w (sk w i) /\ Peg k G sk w p (sk w i) (KO e)).
    Proof.
      intros C Hi (n & E & N). pose proof (try_mat_sound k G sk pols SK CE IM n [] p w i C Hi) as T.
      unfold try_mat_top in E. unfold tm in T. rewrite E in T. inversion T; subst.
      - left. exists b, j, x. repeat split; auto.
      - right. eauto.
      - now elim N.
    Qed.

    Lemma policy_complete p w i o : core k G sk p -> i <= length w -> Peg k G sk w p (sk w i) o ->
      exists r c', Returns G pols p (cx k w i) r c' /\
      match o with
      | OK b j => r = Ok (sp k w b j) /\ exists x, j <= x /\ x <= sk w j /\ c' = cx k w x
      | KO e => r = Err e /\ c' = cx k w (sk w i)
      end.
    Proof.
      intros C Hi P. destruct (peg_complete k G sk pols SK CE IM w p (sk w i) o P C) as [B [n V]].
      - now apply sk_le.
      - now apply sk_idem.
      - destruct (V n (le_n _)) as [_ T]. specialize (T [] i Hi eq_refl). destruct o as [b j|e].
        + destruct T as (x & X1 & X2 & E). exists (Ok (sp k w b j)), (cx k w x). split; [|split; eauto].
          exists n. split; [exact E|discriminate].
        + exists (Err e), (cx k w (sk w i)). split; [|auto]. exists n. split; [exact T|discriminate].
    Qed.
  End Any.

  (** Leaves that do not look at the context's policies. *)
  Definition policy_free (p : pat) : bool :=
    match p with
    | PEmpty | PFail | PStart | PEnd | PConsume _ | PConsumeAll | PLit _ | PFn _ => true
    | POnce _ c | PMany1 _ c | POpt _ c | PMany0 _ c | PBetween _ _ _ c | PTimes _ _ c | PNeuThen _ _ c =>
        match c with CRegex _ => false | _ => true end
    | _ => false
    end.

  Lemma policy_free_parse n G held pols pols' p : policy_free p = true ->
    parse n G held pols p = parse n G held pols' p.
  Proof.
    destruct n as [|n]; [reflexivity|]. intros H. destruct p; try discriminate H; try reflexivity;
      destruct c; try discriminate H; reflexivity.
  Qed.

  Lemma leaf_after_skip G u p w i r c' : policy_free p = true -> i <= length w ->
    (Returns G [PMany0 u CEmpty] p (cx k w i) r c' <-> Returns G [] p (cx k w (skip_run u w i)) r c').
  Proof.
    intros F Hi. unfold Returns, try_mat_top, try_mat. split; intros ([|n] & E & N); try (exfalso; apply N; injection E; intros; congruence).
    - exists (S n). split; auto. unfold bind in E. rewrite many0_skips in E by auto.
      now rewrite (policy_free_parse (S n) G [] [] [PMany0 u CEmpty]).
    - exists (S n). split; auto. unfold bind. rewrite many0_skips by auto.
      now rewrite (policy_free_parse (S n) G [] [PMany0 u CEmpty] []).
  Qed.
End Many0.

Lemma policy_not_atomic : exists w p e c',
  Returns [] skip_ascii_whitespace p (cx KStr w 0) (Err e) c' /\ c_off c' <> 0.
Proof. exists [32; 65]%N, (PLit [66%N]), ELiteral, (cx KStr [32; 65]%N 1). split; [exists 3; split; [reflexivity|discriminate]|discriminate]. Qed.

Lemma policy_loop_cursor : exists w p s c',
  Returns [] skip_ascii_whitespace p (cx KStr w 0) (Ok s) c' /\ sbeg s + slen s < c_off c'.
Proof.
  exists [65; 32; 66]%N, (PRepeat (PLit [65%N]) (CRange (Incl 0) Unb)), (Span 0 1), (cx KStr [65; 32; 66]%N 2).
  split; [exists 5; split; [reflexivity|discriminate]|vm_compute; lia].
Qed.

(** [try_mat_policy(pat, before, after)] and its specialisations. *)
Lemma tmp_all (before pat after : M ctx span) c r1 c1 :
  before c = (r1, c1) ->
  try_mat_policy before pat after c =
  match r1 with
  | Ok _ => match pat c1 with
            | (Ok s, c2) => match after c2 with
                            | (Ok _, c3) => (Ok s, c3)
                            | (Err e, c3) => (Err e, c3)
                            | (Panic, c3) => (Panic, c3)
                            | (OOF, c3) => (OOF, c3)
                            end
            | r => r
            end
  | Err e => (Err e, c1)
  | Panic => (Panic, c1)
  | OOF => (OOF, c1)
  end.
Proof.
  intros E. unfold try_mat_policy, bind, ret. rewrite E. destruct r1; try reflexivity.
Qed.

Lemma try_mat_policy_not_atomic : exists (before pat : M ctx span) c e c',
  (forall x e' x', before x = (Err e', x') -> c_off x' = c_off x) /\
  (forall x e' x', pat x = (Err e', x') -> c_off x' = c_off x) /\
  try_mat_policy before pat noop c = (Err e, c') /\ c_off c' <> c_off c.
Proof.
  exists (parse 1 [] [] [] (PMany0 NAsciiWhitespace CEmpty)), (parse 1 [] [] [] PFail), (cx KStr [32; 65]%N 0), EFail, (cx KStr [32; 65]%N 1).
  repeat split; try discriminate; intros x e' x'; now apply parse_restores.
Qed.

(** ** One shape of policy parser: a zero-or-more scan of one unit *)

Lemma skip_ascii_implements k G : implements k G (skip_run NAsciiWhitespace) skip_ascii_whitespace.
Proof. apply many0_implements. Qed.
Lemma skip_ws_implements k G : implements k G (skip_run NWhitespace) skip_whitespace.
Proof. apply many0_implements. Qed.
