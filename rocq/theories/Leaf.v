(** What the leaves can return, at character boundaries and elsewhere. *)

From Coq Require Import List Arith NArith Bool Lia.
From Verif Require Import Base Text Context Neu Syntax Regex TextProofs Spec Units.
Import ListNotations.

(** The unit regexes with their condition. *)
Definition unit_cond (p : pat) : option cond :=
  match p with
  | POnce _ c | PMany1 _ c | POpt _ c | PMany0 _ c | PBetween _ _ _ c | PTimes _ _ c
  | PNeuThen _ _ c => Some c
  | _ => None
  end.

Section Leaf.
  Variable k : kind.
  Notation cx := (cx k).
  Notation sp := (sp k).
  Notation bo := (bo k).

  (** A leaf started in front of item [i] matches items [i .. j-1] or fails on the spot. *)
  Inductive leafres (w : text) (i : nat) : res span * ctx -> Prop :=
  | LR_ok j : i <= j -> j <= length w -> leafres w i (Ok (sp w i j), cx w j)
  | LR_err e : leafres w i (Err e, cx w i)
  | LR_oof : leafres w i (OOF, cx w i).

  Definition chk_safe (chk : check_t) (w : text) (i : nat) : Prop :=
    forall m x, nth_error w (i + m) = Some x -> chk (cx w i) (bo w (i + m) - bo w i, x) <> Panic.

  Lemma acc1_safe u chk w i m : chk_safe chk w i ->
    acc1 u (chk (cx w i)) (item_at k w i m) <> Panic.
  Proof.
    intros H. pose proof (item_at_inv k w i m) as I.
    destruct (item_at k w i m) as [[o x]|]; simpl; [|discriminate].
    destruct I as (_ & Eo & En). simpl in *. subst o.
    destruct (is_match u x); [|discriminate]. now apply H.
  Qed.

  Lemma runlen_safe u chk lim w i m : chk_safe chk w i ->
    runlen u (chk (cx w i)) lim (items k w i m) <> Panic.
  Proof.
    intros H. remember (length w - (i + m)) as n eqn:En. revert lim m En.
    induction n as [|n IH]; intros lim m En; rewrite items_cons;
      pose proof (item_at_inv k w i m) as I; pose proof (acc1_safe u chk w i m H) as A;
      destruct (item_at k w i m) as [x|]; try discriminate; try (destruct I as (I & _); lia).
    cbn [runlen]. destruct (acc1 u (chk (cx w i)) (Some x)) as [[|]| | |]; try discriminate; try congruence.
    - specialize (IH (limit_pred lim) (S m) ltac:(lia)).
      destruct lim as [[|]|]; try discriminate;
        match goal with |- match ?r with _ => _ end <> _ => destruct r; try discriminate; congruence end.
    - destruct lim as [[|]|]; discriminate.
    - destruct lim as [[|]|]; discriminate.
    - destruct lim as [[|]|]; discriminate.
  Qed.

  Lemma run_result_leaf u chk lim w i ok : i <= length w -> chk_safe chk w i ->
    leafres w i (run_result k w i (runlen u (chk (cx w i)) lim (items k w i 0)) ok
                   (fun n => sp w i (i + n))).
  Proof.
    intros Hi H. unfold run_result. pose proof (runlen_safe u chk lim w i 0 H) as S.
    destruct (runlen u (chk (cx w i)) lim (items k w i 0)) as [n| | |] eqn:R; try easy.
    - assert (B := run_bound _ _ _ _ _ _ _ Hi R). destruct (ok n); constructor; lia.
    - constructor.
    - constructor.
  Qed.

  Lemma unit_leaf G pr fuel held pols p c w i :
    unit_cond p = Some c -> i <= length w -> chk_safe (check pr held pols c) w i ->
    leafres w i (parse_step G pr fuel held pols p (cx w i)).
  Proof.
    intros U Hi H. destruct p; try discriminate U; injection U as ->; cbn [parse_step].
    - rewrite once_nf by auto. now apply run_result_leaf.
    - rewrite many1_nf by auto. now apply run_result_leaf.
    - rewrite opt_nf by auto. now apply run_result_leaf.
    - rewrite many0_nf by auto. now apply run_result_leaf.
    - rewrite between_nf by auto. destruct (_ <=? _); [now apply run_result_leaf|constructor].
    - rewrite times_nf by auto. destruct (_ <=? _); [now apply run_result_leaf|constructor].
    - rewrite neuthen_nf by auto. destruct (_ && _) eqn:E; [|constructor].
      apply andb_true_iff in E. destruct E as [_ E]. apply Nat.leb_le in E.
      pose proof (acc1_safe u (check pr held pols c) w i 0 H).
      pose proof (acc1_safe v (check pr held pols c) w i 1 H).
      destruct (acc1 u _ _) as [[|]| | |]; try easy; try constructor.
      destruct (acc1 v _ _) as [[|]| | |]; try easy; constructor; lia.
  Qed.

  (** Any offset inside the text is in front of an item or not a character boundary. *)
  Lemma boundary_cases c : c_off c <= ctx_len c -> c_kind c = k ->
    (exists i, i <= length (c_dat c) /\ c = cx (c_dat c) i) \/
    (k = KStr /\ drop_at k (c_dat c) (c_off c) = None).
  Proof.
    intros H K. destruct (drop_at k (c_dat c) (c_off c)) as [l|] eqn:E.
    - left. apply drop_at_some in E. destruct E as (i & Hi & Eo & _). exists i. split; [auto|].
      destruct c as [k' d o]. simpl in *. subst. reflexivity.
    - right. split; [|reflexivity]. destruct k eqn:Ek; [|reflexivity]. exfalso.
      unfold ctx_len in H. rewrite K, tlen_bytes in H.
      rewrite <- (bo_bytes (c_dat c) (c_off c) H), drop_at_bo in E by auto. discriminate E.
  Qed.

  (** Inside a character the unit regexes fail on the spot or (the optional ones) match nothing. *)
  Lemma unit_inside G pr fuel held pols p cd c :
    unit_cond p = Some cd -> c_off c <= ctx_len c -> c_kind c = KStr ->
    drop_at KStr (c_dat c) (c_off c) = None ->
    parse_step G pr fuel held pols p c = (Ok (Span (c_off c) 0), c) \/
    parse_step G pr fuel held pols p c = (Err EOutOfBound, c).
  Proof.
    intros U H K D.
    assert (P : peek c = Err EOutOfBound).
    { unfold peek, peek_at, orig_at. now rewrite K, D. }
    assert (R : remaining c = (Ok (ctx_len c - c_off c), c)).
    { unfold remaining, csub. destruct (Nat.leb_spec (c_off c) (ctx_len c)); [reflexivity|lia]. }
    destruct p; try discriminate U; injection U as ->; cbn [parse_step];
      unfold once_parse, many1_parse, opt_parse, many0_parse, between_parse, times_parse,
        neuthen_parse, bind, reads, catch, offset;
      try rewrite R; rewrite P; try rewrite R; auto.
  Qed.
End Leaf.
