(** Unit regexes in normal form: each of them is determined by the length of a run of accepted
    items. *)

From Coq Require Import List Arith NArith Bool Lia.
From Verif Require Import Base Text Context Neu Syntax Regex TextProofs Spec.
Import ListNotations.

(** Does the unit together with its condition accept the next item of an iterator? *)
Definition acc1 (u : neu) (chk : nat * item -> res bool) (x : option (nat * item)) : res bool :=
  match x with
  | None => Ok false
  | Some x => if is_match u (snd x) then chk x else Ok false
  end.

(** Length of the longest accepted prefix, at most [lim]. *)
Fixpoint runlen (u : neu) (chk : nat * item -> res bool) (lim : option nat)
    (l : list (nat * item)) : res nat :=
  match l with
  | [] => Ok 0
  | x :: l' =>
      match lim with
      | Some 0 => Ok 0
      | _ => match acc1 u chk (Some x) with
             | Ok true => match runlen u chk (limit_pred lim) l' with
                          | Ok n => Ok (S n)
                          | r => r
                          end
             | Ok false => Ok 0
             | Err e => Err e
             | Panic => Panic
             | OOF => OOF
             end
      end
  end.

Definition lim_more (lim : option nat) (cnt : nat) : bool :=
  match lim with Some n => cnt <? n | None => true end.

Definition lim_sub (lim : option nat) (cnt : nat) : option nat :=
  option_map (fun n => n - cnt) lim.

Lemma scan_n_ext u chk more more' cnt beg l :
  (forall c, more c = more' c) -> scan_n u chk more cnt beg l = scan_n u chk more' cnt beg l.
Proof.
  intros E. revert cnt beg. induction l as [|x l IH]; intros cnt beg; simpl; [reflexivity|].
  rewrite E. destruct (more' cnt); [|reflexivity]. destruct (u (snd x)); [|reflexivity].
  destruct (chk x) as [[|]| | |]; auto.
Qed.

Lemma scan_scan_n u chk beg cnt l :
  scan u chk beg l =
  match scan_n u chk (fun _ => true) cnt beg l with
  | Ok (_, b, e) => Ok (b, e)
  | Err e => Err e
  | Panic => Panic
  | OOF => OOF
  end.
Proof.
  revert beg cnt. induction l as [|x l IH]; intros beg cnt; simpl; [reflexivity|].
  destruct (u (snd x)); simpl; [|reflexivity].
  destruct (chk x) as [[|]| | |]; auto.
Qed.

Definition first_off (n : nat) (beg : option nat) (l : list (nat * item)) : option nat :=
  match n with
  | 0 => beg
  | S _ => match beg with None => next_off l | b => b end
  end.

Lemma scan_n_runlen u chk lim cnt beg l :
  scan_n (is_match u) chk (lim_more lim) cnt beg l =
  match runlen u chk (lim_sub lim cnt) l with
  | Ok n => Ok (cnt + n, first_off n beg l, next_off (skipn n l))
  | Err e => Err e
  | Panic => Panic
  | OOF => OOF
  end.
Proof.
  revert cnt beg. induction l as [|x l IH]; intros cnt beg.
  - simpl. now rewrite Nat.add_0_r.
  - cbn [scan_n runlen acc1].
    destruct (lim_more lim cnt) eqn:Em.
    + assert (El : match lim_sub lim cnt with Some 0 => False | _ => True end).
      { destruct lim as [n|]; simpl in *; [|trivial]. apply Nat.ltb_lt in Em.
        destruct (n - cnt) eqn:E; [lia|trivial]. }
      assert (Ep : limit_pred (lim_sub lim cnt) = lim_sub lim (S cnt)).
      { destruct lim as [n|]; simpl; [|reflexivity]. f_equal. lia. }
      destruct (lim_sub lim cnt) as [[|n0]|] eqn:Es; [destruct El| |];
        (destruct (is_match u (snd x)); [|simpl; now rewrite Nat.add_0_r];
         destruct (chk x) as [[|]| | |]; try reflexivity;
         [|simpl; now rewrite Nat.add_0_r];
         rewrite IH, <- Ep; destruct (runlen u chk _ l) as [n| | |]; try reflexivity;
         replace (S cnt + n) with (cnt + S n) by lia; f_equal; f_equal; f_equal;
         destruct beg, n; reflexivity).
    + destruct lim as [n|]; [|discriminate]. simpl in Em. apply Nat.ltb_ge in Em.
      simpl. replace (n - cnt) with 0 by lia. rewrite Nat.add_0_r. reflexivity.
Qed.

Lemma runlen_le u chk lim l n : runlen u chk lim l = Ok n ->
  n <= length l /\ match lim with Some m => n <= m | None => True end.
Proof.
  revert lim n. induction l as [|x l IH]; intros lim n; cbn [runlen].
  - intros E. injection E as <-. simpl. split; [lia|]. destruct lim; [lia|trivial].
  - destruct lim as [[|m]|];
      [intros E; injection E as <-; simpl; lia| |];
      (destruct (acc1 u chk (Some x)) as [[|]| | |];
       try (intros E; congruence);
       [|intros E; injection E as <-; simpl; split; [lia|trivial; lia]];
       destruct (runlen u chk _ l) as [n'| | |] eqn:R; try (intros E; congruence);
       intros E; injection E as <-; apply IH in R; simpl in *; split; [lia|trivial; lia]).
Qed.

Section At.
  Variable k : kind.
  Notation cx := (cx k).
  Notation sp := (sp k).
  Notation bo := (bo k).

  Definition item_at (w : text) (i m : nat) : option (nat * item) :=
    option_map (fun x => (bo w (i + m) - bo w i, x)) (nth_error w (i + m)).

  Definition items (w : text) (i m : nat) : list (nat * item) :=
    skipn m (indices k 0 (skipn i w)).

  Lemma nth_error_indices l o m :
    nth_error (indices k o l) m = option_map (fun x => (o + bo l m, x)) (nth_error l m).
  Proof.
    revert o m. induction l as [|c l IH]; intros o m; [now destruct m|].
    destruct m as [|m]; simpl.
    - unfold TextProofs.bo. simpl. now rewrite Nat.add_0_r.
    - rewrite IH. unfold TextProofs.bo. simpl. destruct (nth_error l m); simpl; [|reflexivity].
      f_equal. f_equal. lia.
  Qed.

  Lemma nth_error_skipn {A} (l : list A) i m : nth_error (skipn i l) m = nth_error l (i + m).
  Proof.
    revert l. induction i as [|i IH]; intros [|x l]; simpl; auto. now destruct m.
  Qed.

  Lemma skipn_cons {A} (l : list A) m :
    skipn m l = match nth_error l m with Some x => x :: skipn (S m) l | None => [] end.
  Proof.
    revert m. induction l as [|x l IH]; intros [|m]; simpl; auto.
    rewrite IH. destruct (nth_error l m); reflexivity.
  Qed.

  Lemma items_cons w i m :
    items w i m = match item_at w i m with Some x => x :: items w i (S m) | None => [] end.
  Proof.
    unfold items, item_at. rewrite skipn_cons, nth_error_indices, nth_error_skipn.
    rewrite bo_add. replace (bo w i + bo (skipn i w) m - bo w i) with (bo (skipn i w) m) by lia.
    destruct (nth_error w (i + m)); reflexivity.
  Qed.

  Lemma item_at_none w i m : length w <= i + m -> item_at w i m = None.
  Proof. intros H. unfold item_at. now rewrite (proj2 (nth_error_None w (i + m)) H). Qed.

  Lemma item_at_some w i m x : nth_error w (i + m) = Some x ->
    item_at w i m = Some (bo w (i + m) - bo w i, x).
  Proof. intros H. unfold item_at. now rewrite H. Qed.

  Lemma item_at_inv w i m : match item_at w i m with
    | None => length w <= i + m
    | Some y => i + m < length w /\ fst y = bo w (i + m) - bo w i
                /\ nth_error w (i + m) = Some (snd y)
    end.
  Proof.
    unfold item_at. destruct (nth_error w (i + m)) as [x|] eqn:E; simpl.
    - split; [|split; reflexivity]. apply nth_error_Some. congruence.
    - now apply nth_error_None.
  Qed.

  Lemma items_length w i m : length (items w i m) = length w - (i + m).
  Proof. unfold items. rewrite skipn_length, indices_length, skipn_length. lia. Qed.

  Lemma orig_cx w i : i <= length w -> orig (cx w i) = Ok (skipn i w).
  Proof.
    intros H. unfold orig, orig_at, orig_sub, csub, ctx_len, Spec.cx. cbn [c_kind c_dat c_off].
    pose proof (bo_le_len k w i). destruct k.
    - rewrite drop_at_bo by auto. rewrite (proj2 (Nat.leb_le (TextProofs.bo KBytes w i) _)) by lia.
      replace (tlen KBytes w - TextProofs.bo KBytes w i)
        with (TextProofs.bo KBytes (skipn i w) (length (skipn i w))).
      + rewrite take_at_bo by lia. now rewrite firstn_all.
      + rewrite bo_len. rewrite <- (firstn_skipn i w) at 2. rewrite tlen_app.
        unfold TextProofs.bo. lia.
    - rewrite drop_at_bo by auto. reflexivity.
  Qed.

  Lemma peek_cx w i : i <= length w -> peek (cx w i) = Ok (items w i 0).
  Proof.
    intros H. unfold peek, peek_at. pose proof (orig_cx w i H) as E. unfold orig in E.
    rewrite E. reflexivity.
  Qed.

  Lemma clone_cx w i m : i + m <= length w ->
    clone_at (cx w i) (bo w i + (bo w (i + m) - bo w i)) = Ok (cx (skipn (i + m) w) 0).
  Proof.
    intros H. replace (bo w i + (bo w (i + m) - bo w i)) with (bo w (i + m)).
    - unfold clone_at. pose proof (orig_cx w (i + m) H) as E.
      change (orig_at (cx w i) (bo w (i + m)) = Ok (skipn (i + m) w)) in E.
      rewrite E. reflexivity.
    - pose proof (bo_mono k w i (i + m)). lia.
  Qed.

  Lemma remaining_cx w i : remaining (cx w i) = (Ok (tlen k w - bo w i), cx w i).
  Proof.
    unfold remaining, csub, ctx_len, Spec.cx. simpl. pose proof (bo_le_len k w i).
    now rewrite (proj2 (Nat.leb_le _ _)) by lia.
  Qed.

  Lemma new_span_cx w i j : i <= j -> new_span_inc (bo w j - bo w i) (cx w i) = (Ok (sp w i j), cx w j).
  Proof.
    intros H. unfold new_span_inc, bind, offset, inc, ret, Spec.cx, Spec.sp. simpl.
    pose proof (bo_mono k w i j H). f_equal. f_equal. lia.
  Qed.

  (** Length arithmetic of the accepted run. *)
  Lemma run_len w i n : i + n <= length w ->
    calc_length (first_off n None (items w i 0)) (next_off (skipn n (items w i 0)))
      (tlen k w - bo w i) = Ok (bo w (i + n) - bo w i).
  Proof.
    intros H. destruct n as [|n].
    - simpl. rewrite Nat.add_0_r, Nat.sub_diag. reflexivity.
    - unfold first_off. rewrite (items_cons w i 0). pose proof (item_at_inv w i 0) as I.
      destruct (item_at w i 0) as [[o x]|]; [|lia]. destruct I as (_ & Eo & _). simpl in Eo.
      rewrite Nat.add_0_r, Nat.sub_diag in Eo. subst o. unfold next_off at 1. cbn [fst calc_length].
      assert (S n <= length (items w i 0)) by (rewrite items_length; lia).
      replace (skipn (S n) ((0, x) :: items w i 1)) with (items w i (S n)).
      + rewrite (items_cons w i (S n)). pose proof (item_at_inv w i (S n)) as J.
        unfold csub. destruct (item_at w i (S n)) as [[o y]|]; simpl.
        * destruct J as (_ & Eo & _). simpl in Eo. now rewrite Eo, Nat.sub_0_r.
        * rewrite (bo_all k w (i + S n)) by lia. now rewrite Nat.sub_0_r.
      + unfold items. rewrite skipn_add with (i := 1) (n := n).
        change (skipn 0 (indices k 0 (skipn i w))) with (indices k 0 (skipn i w)). reflexivity.
  Qed.

  Definition run_result {A} (w : text) (i : nat) (r : res nat) (ok : nat -> option error)
      (mk : nat -> A) : res A * ctx :=
    match r with
    | Ok n => match ok n with Some e => (Err e, cx w i) | None => (Ok (mk n), cx w (i + n)) end
    | Err e => (Err e, cx w i)
    | Panic => (Panic, cx w i)
    | OOF => (OOF, cx w i)
    end.

  Notation RUN u chk lim w i := (runlen u (chk (cx w i)) lim (items w i 0)).

  Lemma run_bound u chk lim w i n : i <= length w -> RUN u chk lim w i = Ok n -> i + n <= length w.
  Proof.
    intros Hi H. apply runlen_le in H. destruct H as [H _]. rewrite items_length in H. lia.
  Qed.

  Lemma runlen_1 u chk l : runlen u chk (Some 1) l =
    match acc1 u chk (hd_error l) with
    | Ok true => Ok 1 | Ok false => Ok 0 | Err e => Err e | Panic => Panic | OOF => OOF
    end.
  Proof.
    destruct l as [|x l]; [reflexivity|]. cbn [runlen hd_error].
    destruct (acc1 u chk (Some x)) as [[|]| | |]; auto.
    simpl. destruct l; reflexivity.
  Qed.

  Lemma one_len w i x l : i <= length w -> items w i 0 = x :: l ->
    fst x = 0 /\ calc_length (Some (fst x)) (next_off l) (tlen k w - bo w i)
    = Ok (bo w (i + 1) - bo w i).
  Proof.
    intros Hi E. pose proof (run_len w i 1) as R. rewrite E in R. cbn [first_off next_off skipn] in R.
    assert (length (items w i 0) = S (length l)) by now rewrite E. rewrite items_length in H.
    split; [|apply R; lia].
    rewrite items_cons in E. pose proof (item_at_inv w i 0) as I.
    destruct (item_at w i 0) as [y|]; [|discriminate]. injection E as -> _.
    destruct I as (_ & -> & _). rewrite Nat.add_0_r. lia.
  Qed.

  Lemma once_nf u chk w i : i <= length w ->
    once_parse u chk (cx w i) =
    run_result w i (RUN u chk (Some 1) w i) (fun n => if n =? 0 then Some EOnce else None)
      (fun n => sp w i (i + n)).
  Proof.
    intros Hi. rewrite runlen_1. unfold once_parse, bind, reads.
    rewrite peek_cx by auto. rewrite remaining_cx.
    destruct (items w i 0) as [|x l] eqn:E; [reflexivity|]. cbn [hd_error acc1].
    destruct (is_match u (snd x)); [|reflexivity].
    destruct (chk (cx w i) x) as [[|]| | |]; try reflexivity.
    destruct (one_len w i x l Hi E) as (_ & L). unfold lift. rewrite L.
    rewrite new_span_cx by lia. reflexivity.
  Qed.

  Lemma sp_empty w i : Span (bo w i) 0 = sp w i i.
  Proof. unfold Spec.sp. now rewrite Nat.sub_diag. Qed.

  Lemma opt_nf u chk w i : i <= length w ->
    opt_parse u chk (cx w i) =
    run_result w i (RUN u chk (Some 1) w i) (fun n => None) (fun n => sp w i (i + n)).
  Proof.
    intros Hi. rewrite runlen_1. unfold opt_parse, bind, reads, catch, offset.
    cbn [get_off ctx_offset]. change (c_off (cx w i)) with (bo w i). rewrite remaining_cx.
    rewrite peek_cx by auto. rewrite sp_empty.
    destruct (items w i 0) as [|x l] eqn:E; [simpl; now rewrite Nat.add_0_r|]. cbn [hd_error acc1].
    destruct (is_match u (snd x)); [|simpl; now rewrite Nat.add_0_r].
    destruct (chk (cx w i) x) as [[|]| | |]; try reflexivity; [|simpl; now rewrite Nat.add_0_r].
    destruct (one_len w i x l Hi E) as (_ & L). unfold lift. rewrite L.
    rewrite new_span_cx by lia. reflexivity.
  Qed.

  Lemma scan_nf u chk w i : i <= length w ->
    scan (is_match u) chk None (items w i 0) =
    match runlen u chk None (items w i 0) with
    | Ok n => Ok (first_off n None (items w i 0), next_off (skipn n (items w i 0)))
    | Err e => Err e
    | Panic => Panic
    | OOF => OOF
    end.
  Proof.
    intros Hi. rewrite (scan_scan_n _ _ _ 0).
    rewrite (scan_n_ext _ _ _ (lim_more None)) by reflexivity.
    rewrite scan_n_runlen. simpl. destruct (runlen u chk None (items w i 0)); reflexivity.
  Qed.

  Lemma first_off_some w i n : i + S n <= length w -> first_off (S n) None (items w i 0) = Some 0.
  Proof.
    intros H. unfold first_off. rewrite items_cons. pose proof (item_at_inv w i 0) as I.
    destruct (item_at w i 0) as [[o x]|]; [|lia]. destruct I as (_ & Eo & _). simpl in *.
    rewrite Eo, Nat.add_0_r. f_equal. lia.
  Qed.

  Lemma many0_nf u chk w i : i <= length w ->
    many0_parse u chk (cx w i) =
    run_result w i (RUN u chk None w i) (fun n => None) (fun n => sp w i (i + n)).
  Proof.
    intros Hi. unfold many0_parse, bind, reads, catch, offset.
    cbn [get_off ctx_offset]. change (c_off (cx w i)) with (bo w i). rewrite remaining_cx.
    rewrite peek_cx by auto. rewrite sp_empty. rewrite scan_nf by auto.
    destruct (runlen u (chk (cx w i)) None (items w i 0)) as [n| | |] eqn:R; try reflexivity.
    assert (B := run_bound _ _ _ _ _ _ Hi R). pose proof (run_len w i n B) as L.
    cbn [fst snd]. destruct n as [|n]; [simpl; now rewrite Nat.add_0_r|].
    rewrite first_off_some in * by auto. unfold lift. rewrite L.
    rewrite new_span_cx by lia. reflexivity.
  Qed.

  Lemma many1_nf u chk w i : i <= length w ->
    many1_parse u chk (cx w i) =
    run_result w i (RUN u chk None w i) (fun n => if n =? 0 then Some EMany1 else None)
      (fun n => sp w i (i + n)).
  Proof.
    intros Hi. unfold many1_parse, bind, reads.
    rewrite peek_cx by auto. rewrite remaining_cx. rewrite scan_nf by auto.
    destruct (runlen u (chk (cx w i)) None (items w i 0)) as [n| | |] eqn:R; try reflexivity.
    assert (B := run_bound _ _ _ _ _ _ Hi R). pose proof (run_len w i n B) as L.
    cbn [fst snd]. destruct n as [|n]; [reflexivity|].
    rewrite first_off_some in * by auto. unfold lift. rewrite L.
    rewrite new_span_cx by lia. reflexivity.
  Qed.

  Lemma lim_sub_0 lim : lim_sub lim 0 = lim.
  Proof. destruct lim; simpl; [|reflexivity]. now rewrite Nat.sub_0_r. Qed.

  Lemma between_nf m n u chk w i : i <= length w ->
    between_parse m n u chk (cx w i) =
    if m * min_length k u <=? tlen k w - bo w i then
      run_result w i (RUN u chk n w i) (fun t => if m <=? t then None else Some EBetween)
        (fun t => sp w i (i + t))
    else (Err EBetween, cx w i).
  Proof.
    intros Hi. unfold between_parse, bind, reads. rewrite peek_cx by auto. rewrite remaining_cx.
    change (c_kind (cx w i)) with k. destruct (_ <=? _); [|reflexivity].
    rewrite (scan_n_ext _ _ _ (lim_more n)) by reflexivity.
    rewrite scan_n_runlen, lim_sub_0.
    destruct (runlen u (chk (cx w i)) n (items w i 0)) as [t| | |] eqn:R; try reflexivity.
    assert (B := run_bound _ _ _ _ _ _ Hi R). cbn [Nat.add run_result].
    destruct (m <=? t); [|reflexivity]. unfold lift. rewrite run_len by auto.
    rewrite new_span_cx by lia. reflexivity.
  Qed.

  Lemma times_more_lim r c : times_more r c = lim_more (limit_of r) c.
  Proof. unfold times_more, limit_of. destruct (r_hi r); reflexivity. Qed.

  Lemma times_nf r u chk w i : i <= length w ->
    times_parse r u chk (cx w i) =
    if times_min k r u <=? tlen k w - bo w i then
      run_result w i (RUN u chk (limit_of r) w i)
        (fun t => if crange_contains r t then None else Some ETimes) (fun t => sp w i (i + t))
    else (Err ETimes, cx w i).
  Proof.
    intros Hi. unfold times_parse, bind, reads. rewrite peek_cx by auto. rewrite remaining_cx.
    change (c_kind (cx w i)) with k. destruct (_ <=? _); [|reflexivity].
    rewrite (scan_n_ext _ _ _ (lim_more (limit_of r))) by (intros; apply times_more_lim).
    rewrite scan_n_runlen, lim_sub_0.
    destruct (runlen u (chk (cx w i)) (limit_of r) (items w i 0)) as [t| | |] eqn:R; try reflexivity.
    assert (B := run_bound _ _ _ _ _ _ Hi R). cbn [Nat.add run_result].
    destruct (crange_contains r t); [|reflexivity]. unfold lift. rewrite run_len by auto.
    rewrite new_span_cx by lia. reflexivity.
  Qed.

  Lemma neuthen_nf u v chk w i : i <= length w ->
    neuthen_parse u v chk (cx w i) =
    if (min_length k u + min_length k v <=? tlen k w - bo w i) && (i + 2 <=? length w) then
      match acc1 u (chk (cx w i)) (item_at w i 0) with
      | Ok true =>
          match acc1 v (chk (cx w i)) (item_at w i 1) with
          | Ok true => (Ok (sp w i (i + 2)), cx w (i + 2))
          | Ok false => (Err ENeureThen, cx w i)
          | Err e => (Err e, cx w i)
          | Panic => (Panic, cx w i)
          | OOF => (OOF, cx w i)
          end
      | Ok false => (Err ENeureThen, cx w i)
      | Err e => (Err e, cx w i)
      | Panic => (Panic, cx w i)
      | OOF => (OOF, cx w i)
      end
    else (Err ENeureThen, cx w i).
  Proof.
    intros Hi. unfold neuthen_parse, bind, reads. rewrite peek_cx by auto. rewrite remaining_cx.
    change (c_kind (cx w i)) with k.
    destruct (min_length k u + min_length k v <=? tlen k w - bo w i); [|reflexivity].
    cbn [andb]. pose proof (items_length w i 0) as IL.
    pose proof (run_len w i 2) as RL.
    rewrite items_cons in *. destruct (item_at w i 0) as [x|].
    2:{ simpl in IL. rewrite (proj2 (Nat.leb_gt _ _)) by lia. reflexivity. }
    rewrite items_cons in *. destruct (item_at w i 1) as [y|].
    2:{ simpl in IL. rewrite (proj2 (Nat.leb_gt _ _)) by lia. reflexivity. }
    simpl in IL. rewrite items_length in IL. rewrite (proj2 (Nat.leb_le (i + 2) _)) by lia.
    unfold acc1. destruct (is_match u (snd x)); [|reflexivity].
    destruct (chk (cx w i) x) as [[|]| | |]; try reflexivity.
    destruct (is_match v (snd y)); [|reflexivity].
    destruct (chk (cx w i) y) as [[|]| | |]; try reflexivity.
    cbn [first_off next_off skipn fst] in RL. unfold lift. rewrite RL by lia.
    rewrite new_span_cx by lia. reflexivity.
  Qed.

  Lemma literal_nf l w i : i <= length w ->
    literal_parse l (cx w i) =
    if list_eq_dec N.eq_dec (firstn (length l) (skipn i w)) l
    then (Ok (sp w i (i + length l)), cx w (i + length l))
    else (Err ELiteral, cx w i).
  Proof.
    intros Hi. unfold literal_parse, bind, reads. rewrite remaining_cx.
    change (c_kind (cx w i)) with k.
    assert (R : tlen k w - bo w i = tlen k (skipn i w)).
    { rewrite <- (firstn_skipn i w) at 1. rewrite tlen_app. unfold TextProofs.bo. lia. }
    destruct (list_eq_dec N.eq_dec (firstn (length l) (skipn i w)) l) as [E|E].
    - assert (T : bo w (i + length l) - bo w i = tlen k l).
      { rewrite bo_add. unfold TextProofs.bo at 2. rewrite E. lia. }
      rewrite (proj2 (Nat.leb_le _ _)).
      + rewrite orig_cx by auto. rewrite (proj2 (starts_with_raw k (skipn i w) l) E). rewrite <- T.
        now rewrite new_span_cx by lia.
      + rewrite R, <- (firstn_skipn (length l) (skipn i w)), E, tlen_app. lia.
    - destruct (_ <=? _); [|reflexivity]. rewrite orig_cx by auto.
      destruct (starts_with (raw k (skipn i w)) (raw k l)) eqn:S; [|reflexivity].
      apply starts_with_raw in S. contradiction.
  Qed.

End At.
