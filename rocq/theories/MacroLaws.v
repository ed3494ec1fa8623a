(** Proofs about the macros: class denotations, quantifiers, string bodies. *)

From Coq Require Import List Arith NArith Bool Lia.
From Verif Require Import Base Text Context Neu Syntax Regex Ctor Api TextProofs Spec Core Obs Laws UnitLaws UnitProps
  ApiLaws Samples CtorSpec Macros MacroSpec JsonLaws.
Import ListNotations.

(** ** Classes *)

Lemma alts_match us x : forall u, is_match (fold_left NOr us u) x = is_match u x || existsb (fun v => is_match v x) us.
Proof.
  induction us as [|v us IH]; intros u; cbn [fold_left existsb]; [now rewrite orb_false_r|].
  rewrite IH. cbn [is_match]. now rewrite orb_assoc.
Qed.

Lemma alts_set us x : is_match (alts us) x = true <-> exists u, In u us /\ UnitSet u x.
Proof.
  unfold alts. rewrite alts_match. cbn [is_match orb]. rewrite existsb_exists.
  split; intros [u [I H]]; exists u; split; auto; now apply unit_set.
Qed.

Lemma negate_match neg u x : is_match (negate neg u) x = xorb neg (is_match u x).
Proof. destruct neg; cbn [negate is_match]; now destruct (is_match u x). Qed.

Lemma alts_closed l x : is_match (alts (map closed_range l)) x = true <-> exists a b, In (a, b) l /\ (a <= x <= b)%N.
Proof.
  rewrite alts_set. split.
  - intros [u [I H]]. apply in_map_iff in I as [[a b] [<- I]]. exists a, b. split; [auto|exact H].
  - intros [a [b [I H]]]. exists (closed_range (a, b)). split; [now apply in_map|exact H].
Qed.

Lemma single_range (lit : bool) (a b x : item) :
  is_match (if lit then closed_range (a, b) else succ_range (a, b)) x = true <-> (a <= x <= b)%N.
Proof.
  rewrite unit_set. destruct lit; cbn; [tauto|]. unfold item in *. lia.
Qed.

Lemma alts_chars l x : is_match (alts (map NEqual l)) x = true <-> In x l.
Proof.
  rewrite alts_set. split.
  - intros [u [I H]]. apply in_map_iff in I as [a [<- I]]. cbn in H. now subst.
  - intros I. exists (NEqual x). split; [now apply in_map|reflexivity].
Qed.

Lemma neg_set neg u x (P Q : Prop) : (is_match u x = true <-> P) -> (Q <-> ~ P) ->
  (is_match (negate neg u) x = true <-> if neg then Q else P).
Proof.
  intros H HQ. rewrite negate_match. destruct neg; [|now replace (xorb false (is_match u x)) with (is_match u x) by now destruct (is_match u x)].
  rewrite HQ, <- H. destruct (is_match u x); cbn; intuition congruence.
Qed.

Lemma class_set c x : is_match (class_macro c) x = true <-> ClassSet c x.
Proof.
  destruct c as [| |lit neg l|neg l|l|a|].
  - apply (unit_set (NNot NWhitespace)).
  - apply (unit_set NWild).
  - assert (E : exists u, class_macro (MRanges lit neg l) = negate neg u /\
        (is_match u x = true <-> exists a b, In (a, b) l /\ (a <= x <= b)%N)).
    { destruct l as [|[a b] [|p l]]; eexists; (split; [reflexivity|]).
      - apply (alts_closed [] x).
      - rewrite single_range. split; [intros H; exists a, b; cbn; auto|intros [a' [b' [[E|[]] H]]]; congruence].
      - apply alts_closed. }
    destruct E as [u [-> H]].
    rewrite (neg_set neg u x _ (forall a b, In (a, b) l -> ~ (a <= x <= b)%N) H).
    + destruct neg; cbn; tauto.
    + firstorder.
  - cbn [class_macro]. rewrite (neg_set neg _ x (In x l) (~ In x l)); [destruct neg; cbn; tauto|apply alts_chars|tauto].
  - apply alts_set.
  - apply (unit_set (NEqual a)).
  - apply (unit_set NWhitespace).
Qed.

Lemma alts_min k us : forall u, min_length k u <= 1 -> min_length k (fold_left NOr us u) <= 1.
Proof. induction us as [|v us IH]; intros u H; cbn [fold_left]; auto. apply IH. cbn [min_length]. lia. Qed.

Lemma class_min k c : min_length k (class_macro c) <= 1.
Proof.
  assert (N : forall neg u, min_length k u <= 1 -> min_length k (negate neg u) <= 1) by (now intros []).
  assert (A : forall us, min_length k (alts us) <= 1) by (intros; apply alts_min; auto).
  destruct c as [| |lit neg l|neg l|l|a|]; cbn [class_macro]; auto.
  destruct l as [|lr [|p l]]; auto. apply N. destruct lit; cbn; auto.
Qed.

Lemma class_honest k c : honest k (class_macro c).
Proof.
  intros x _. pose proof (class_min k c). assert (1 <= width k x); [|lia].
  apply width_pos.
Qed.

Section Quant.
  Variables (k : kind) (G : env).
  Hypothesis CE : core_env k G no_skip.

  Lemma maxrun_one f w i : (exists x, nth_error w i = Some x /\ f x = true) <-> MaxRun f w i (Some 1) 1.
  Proof.
    split.
    - intros H. split; [|split; [lia|now left]]. intros m Hm. replace (i + m) with i by lia. auto.
    - intros [H _]. destruct (H 0 ltac:(lia)) as [x Hx]. rewrite Nat.add_0_r in Hx. eauto.
  Qed.

  Lemma regex_run c q w i b j : i <= length w ->
    (Matches k G (regex_macro c q) w i b j <->
     b = i /\ exists n, j = i + n /\ MaxRun (is_match (class_macro c)) w i (quant_hi q) n /\ quant_lo q <= n).
  Proof.
    intros Hi. pose proof (class_honest k c) as HH. destruct q; cbn [regex_macro quant_lo quant_hi].
    - rewrite many0_run by auto. split; intros [-> [n H]]; (split; [auto|exists n; intuition lia]).
    - rewrite opt_run by auto. split; intros [-> [n H]]; (split; [auto|exists n; intuition lia]).
    - rewrite many1_run by auto. split; intros [-> [n H]]; (split; [auto|exists n; intuition lia]).
    - now apply between_run.
    - now apply between_run.
    - now apply between_run.
    - rewrite once_run, maxrun_one by auto. split.
      + intros [-> [-> H]]. split; auto. exists 1. auto.
      + intros [-> [n [-> [H L]]]]. assert (n = 1) as -> by (destruct H as [_ [H _]]; lia). auto.
  Qed.

  Lemma regex_run_err c q w i e : i <= length w ->
    (Fails k G (regex_macro c q) w i e <->
     e = quant_error q /\ exists n, MaxRun (is_match (class_macro c)) w i (quant_hi q) n /\ n < quant_lo q).
  Proof.
    intros Hi. pose proof (class_honest k c) as HH. destruct q; cbn [regex_macro quant_lo quant_hi quant_error].
    - split; [intros H; now apply many0_total in H|intros [_ [n [_ H]]]; lia].
    - split; [intros H; now apply opt_total in H|intros [_ [n [_ H]]]; lia].
    - rewrite many1_fails by auto. split; [intros [-> H]|intros [-> [n [H L]]]]; split; auto.
      + exists 0. auto.
      + now replace n with 0 in H by lia.
    - now apply between_fails.
    - now apply between_fails.
    - now apply between_fails.
    - rewrite once_fails, <- (maxrun_0 _ _ _ (Some 1)) by (auto; discriminate).
      split; [intros [-> H]|intros [-> [n [H L]]]]; split; auto.
      + exists 0. auto.
      + now replace n with 0 in H by lia.
  Qed.
End Quant.

(** ** String bodies *)

Section Strval.
  Variables (k : kind) (G : env).
  Hypothesis CE : core_env k G no_skip.
  Variables (q e : item) (v : neu).
  Hypothesis HV : honest k v.

  Definition esc : pat := PNeuThen (NChar e) v CEmpty.
  Definition noesc : cond := CRegex (PAssert esc false).
  Definition plain : pat := PMany1 (NNot (NChar q)) noesc.

  Definition starts (t : text) : bool :=
    match t with a :: x :: _ => (e =? a)%N && is_match v x | _ => false end.

  Lemma starts_spec t : starts t = true <-> StartsEscape e (UnitSet v) t.
  Proof.
    unfold StartsEscape. destruct t as [|a [|x r]]; cbn [starts].
    - split; [discriminate|intros (x & r & H & _); discriminate].
    - split; [discriminate|intros (x & r & H & _); discriminate].
    - rewrite andb_true_iff, N.eqb_eq, unit_set. split.
      + intros [<- H]. exists x, r. auto.
      + intros (x' & r' & H & H'). injection H as -> -> ->. auto.
  Qed.

  Lemma esc_core : core k G no_skip esc.
  Proof. constructor. constructor. Qed.
  Lemma noesc_core : core_cond k G no_skip noesc.
  Proof. constructor. constructor. apply esc_core. Qed.
  Lemma plain_core : core k G no_skip plain.
  Proof. constructor. apply noesc_core. Qed.

  Lemma char_honest c : honest k (NChar c).
  Proof. now apply plain_honest. Qed.

  Lemma starts_nth w i : starts (skipn i w) = true <->
    exists x y, nth_error w i = Some x /\ is_match (NChar e) x = true /\ nth_error w (i + 1) = Some y /\ is_match v y = true.
  Proof.
    destruct (skipn i w) as [|a r] eqn:E.
    - split; [discriminate|]. intros (x & y & H & _). apply skipn_nil_inv in E. apply nth_error_None in E. congruence.
    - apply skipn_cons_inv in E as (N1 & E & _). destruct r as [|x r]; cbn [starts].
      + split; [discriminate|]. intros (x & y & _ & _ & H & _). apply skipn_nil_inv in E. apply nth_error_None in E.
        rewrite Nat.add_1_r in H. congruence.
      + apply skipn_cons_inv in E as (N2 & _ & _). rewrite andb_true_iff. rewrite Nat.add_1_r. split.
        * intros [A B]. exists a, x. auto.
        * intros (a' & x' & H1 & A & H2 & B). rewrite N1 in H1. rewrite N2 in H2. injection H1 as ->. injection H2 as ->. auto.
  Qed.

  Lemma esc_ok w i b j : i <= length w -> (Matches k G esc w i b j <-> b = i /\ j = i + 2 /\ starts (skipn i w) = true).
  Proof. intros Hi. unfold esc. rewrite neuthen_run by (auto using char_honest). now rewrite starts_nth. Qed.

  Lemma esc_ko w i : i <= length w -> starts (skipn i w) = false -> Fails k G esc w i ENeureThen.
  Proof.
    intros Hi S. apply fails_peg; auto; [apply esc_core|]. unfold esc.
    destruct (too_short_dec k w i (min_length k (NChar e) + min_length k v)) as [T|T]; [apply Peg_neuthen_short; now left|].
    destruct (le_lt_dec (i + 2) (length w)) as [L|L]; [|apply Peg_neuthen_short; now right].
    destruct (skipn i w) as [|a r] eqn:E; [apply skipn_nil_inv in E; lia|].
    apply skipn_cons_inv in E as (N1 & E & _). destruct r as [|x r]; [apply skipn_nil_inv in E; lia|].
    apply skipn_cons_inv in E as (N2 & _ & _). cbn [starts] in S.
    assert (A : forall u m y, nth_error w (i + m) = Some y -> Acc k G no_skip w i u CEmpty m (inl (is_match u y))).
    { intros u m y H. destruct (is_match u y) eqn:U.
      - apply Acc_yes with y; auto. constructor.
      - now apply Acc_no with y. }
    pose proof (A (NChar e) 0 a ltac:(now rewrite Nat.add_0_r)) as A0.
    pose proof (A v 1 x ltac:(now rewrite Nat.add_1_r)) as A1.
    change ((e =? a)%N) with (is_match (NChar e) a) in S.
    destruct (is_match (NChar e) a); [|now apply Peg_neuthen_ko1].
    cbn [andb] in S. rewrite S in A1. now apply Peg_neuthen_ko2.
  Qed.

  Lemma cond_true w i t x : CondTrue k G noesc w i t x <-> starts (skipn t w) = false.
  Proof.
    cbn [CondTrue noesc]. split.
    - intros (b & j & H). apply peek_ok in H as (_ & _ & (e' & H)); [|assumption|apply esc_core|lia].
      destruct (starts (skipn t w)) eqn:S; auto. exfalso.
      apply (matches_fails k G CE esc (skipn t w) 0 0 2 e'); auto; [apply esc_core|lia|]. apply esc_ok; [lia|auto].
    - intros S. exists 0, 0. apply peek_ok; [assumption|apply esc_core|lia|]. split; auto. split; auto.
      exists ENeureThen. apply esc_ko; [lia|exact S].
  Qed.
  Lemma cond_false w i t x : CondFalse k G noesc w i t x <-> starts (skipn t w) = true.
  Proof.
    cbn [CondFalse noesc]. split.
    - intros (e' & H). apply peek_err in H as (_ & (b & j & H)); [|assumption|apply esc_core|lia].
      apply esc_ok in H as (_ & _ & S); [exact S|lia].
    - intros S. exists EAssertFalse. apply peek_err; [assumption|apply esc_core|lia|]. split; auto.
      exists 0, 2. apply esc_ok; [lia|auto].
  Qed.

  Lemma not_quote x : is_match (NNot (NChar q)) x = negb (q =? x)%N.
  Proof. reflexivity. Qed.

  Fixpoint pl (t : text) : nat :=
    match t with [] => 0 | c :: r => if (q =? c)%N || starts t then 0 else S (pl r) end.

  Lemma skipn_S (w : text) i x r : skipn i w = x :: r -> skipn (S i) w = r.
  Proof. intros H. now apply skipn_cons_inv in H. Qed.

  Lemma pl_run w i0 : forall i, i <= length w ->
    RunTo (Takes k G (NNot (NChar q)) noesc w i0) (Leaves k G (NNot (NChar q)) noesc w i0) None i (i + pl (skipn i w)).
  Proof.
    intros i Hi. remember (skipn i w) as t eqn:E. symmetry in E. revert i Hi E. induction t as [|c r IH]; intros i Hi E.
    - cbn [pl]. rewrite Nat.add_0_r. split; [lia|]. split; [intros; lia|]. right. split; [exact I|]. left. now apply skipn_nil_inv.
    - pose proof (skipn_cons_inv _ _ _ _ E) as (N1 & E1 & L1). cbn [pl].
      destruct ((q =? c)%N || starts (c :: r)) eqn:B.
      + rewrite Nat.add_0_r. split; [lia|]. split; [intros; lia|]. right. split; [exact I|]. right. exists c. split; [auto|].
        rewrite not_quote. destruct (q =? c)%N; [now left|]. right. split; [reflexivity|]. apply cond_false. now rewrite E.
      + apply orb_false_iff in B as [Q S0]. specialize (IH (S i) L1 E1). destruct IH as (A1 & A2 & A3).
        replace (i + S (pl r)) with (S i + pl r) by lia. split; [lia|]. split.
        * intros m M1 M2. destruct (Nat.eq_dec m i) as [->|]; [|apply A2; lia].
          exists c. split; [auto|]. split; [rewrite not_quote, Q; reflexivity|]. apply cond_true. now rewrite E.
        * right. destruct A3 as [A3|[_ A3]]; [discriminate|]. split; [exact I|exact A3].
  Qed.

  Lemma pl_le t : pl t <= length t.
  Proof. induction t as [|c r IH]; cbn [pl length]; [lia|]. destruct (_ || _); lia. Qed.

  Lemma plain_ok w i : i <= length w -> 0 < pl (skipn i w) -> Matches k G plain w i i (i + pl (skipn i w)).
  Proof. intros Hi H. unfold plain. apply many1_ok; [assumption|apply noesc_core|auto|]. split; [auto|]. split; [lia|]. now apply pl_run. Qed.
  Lemma plain_ko w i : i <= length w -> pl (skipn i w) = 0 -> Fails k G plain w i EMany1.
  Proof.
    intros Hi H. unfold plain. apply many1_err; [assumption|apply noesc_core|auto|]. left. split; auto.
    pose proof (pl_run w i i Hi) as (_ & _ & R). rewrite H, Nat.add_0_r in R. destruct R as [R|[_ R]]; [discriminate|exact R].
  Qed.

  Fixpoint bl (t : text) : nat :=
    match t with
    | [] => 0
    | c :: r =>
        match r with
        | x :: r' => if (e =? c)%N && is_match v x then S (S (bl r')) else if (q =? c)%N then 0 else S (bl r)
        | [] => if (q =? c)%N then 0 else 1
        end
    end.

  Lemma bl_esc t : starts t = true -> bl t = 2 + bl (skipn 2 t).
  Proof. destruct t as [|c [|x r]]; cbn [starts]; try discriminate. intros H. cbn [bl skipn]. rewrite H. reflexivity. Qed.
  Lemma bl_quote r : starts (q :: r) = false -> bl (q :: r) = 0.
  Proof. intros H. destruct r as [|x r]; cbn [bl starts] in *; [|rewrite H]; now rewrite N.eqb_refl. Qed.
  Lemma bl_item c r : c <> q -> starts (c :: r) = false -> bl (c :: r) = S (bl r).
  Proof.
    intros Q H. apply N.eqb_neq in Q. rewrite N.eqb_sym in Q.
    destruct r as [|x r]; cbn [bl starts] in *; [|rewrite H]; now rewrite Q.
  Qed.
  Lemma bl_plain t : bl t = pl t + bl (skipn (pl t) t).
  Proof.
    induction t as [|c r IH]; [reflexivity|]. cbn [pl]. destruct ((q =? c)%N || starts (c :: r)) eqn:B; [reflexivity|].
    apply orb_false_iff in B as [Q S]. apply N.eqb_neq in Q. rewrite bl_item by auto. rewrite IH at 1. reflexivity.
  Qed.

  Lemma bl_case t : t = [] \/ starts t = true \/ (exists r, t = q :: r /\ starts t = false) \/
    (exists c r, t = c :: r /\ c <> q /\ starts t = false).
  Proof.
    destruct t as [|c r]; [now left|]. destruct (starts (c :: r)) eqn:S; [now (right; left)|].
    destruct (N.eq_dec c q) as [->|N]; [right; right; left; eauto|right; right; right; exists c, r; auto].
  Qed.

  Lemma bl_le t : bl t <= length t.
  Proof.
    remember (length t) as n eqn:E. assert (length t <= n) by lia. clear E. revert t H.
    induction n as [n IH] using lt_wf_ind. intros t H.
    destruct (bl_case t) as [->|[S|[(r & -> & S)|(c & r & -> & N & S)]]].
    - cbn. lia.
    - rewrite bl_esc by auto. destruct t as [|a [|x r]]; try discriminate S. cbn [skipn length] in *.
      specialize (IH (length r) ltac:(lia) r (le_n _)). lia.
    - rewrite bl_quote by auto. lia.
    - rewrite bl_item by auto. cbn [length] in H. specialize (IH (length r) ltac:(lia) r (le_n _)). lia.
  Qed.
  Lemma bl_body t : Body q e (UnitSet v) (firstn (bl t) t) (skipn (bl t) t).
  Proof.
    remember (length t) as n eqn:E. assert (length t <= n) by lia. clear E. revert t H.
    induction n as [n IH] using lt_wf_ind. intros t H.
    destruct (bl_case t) as [->|[S|[(r & -> & S)|(c & r & -> & N & S)]]].
    - constructor.
    - rewrite bl_esc by auto. destruct t as [|a [|x r]]; try discriminate S. cbn [skipn length firstn] in *.
      cbn [starts] in S. apply andb_true_iff in S as [A B]. apply N.eqb_eq in A as <-.
      constructor; [now apply unit_set|]. apply (IH (length r)); lia.
    - rewrite bl_quote by auto. cbn. constructor. rewrite <- starts_spec. congruence.
    - rewrite bl_item by auto. cbn [firstn skipn length] in *. apply Body_item; [auto| |apply (IH (length r)); lia].
      rewrite firstn_skipn, <- starts_spec. congruence.
  Qed.
  Lemma body_bl l r : Body q e (UnitSet v) l r -> bl (l ++ r) = length l.
  Proof.
    induction 1 as [|r H|x l r H B IH|c l r N H B IH]; cbn [app length].
    - reflexivity.
    - apply bl_quote. rewrite <- starts_spec in H. now apply not_true_iff_false.
    - rewrite bl_esc; [cbn [skipn]; lia|]. cbn [starts]. rewrite N.eqb_refl. now apply unit_set in H.
    - rewrite bl_item; [lia|auto|]. rewrite <- starts_spec in H. now apply not_true_iff_false.
  Qed.

  Notation elem := (POr plain esc).
  Lemma elem_core : core k G no_skip elem.
  Proof. constructor; [apply plain_core|apply esc_core]. Qed.

  Lemma skipn_plus {A} (l : list A) : forall a b, skipn a (skipn b l) = skipn (b + a) l.
  Proof. induction l as [|x l IH]; intros a [|b]; cbn; auto; now rewrite ?skipn_nil. Qed.

  Lemma body_greedy w i : i <= length w ->
    exists n, Greedy (step_of k G elem w) (stop_of k G elem w) None i n (i + bl (skipn i w)).
  Proof.
    remember (length w - i) as d eqn:E. assert (length w - i <= d) by lia. clear E. revert i H.
    induction d as [d IH] using lt_wf_ind. intros i H Hi.
    assert (St : forall j, i < j -> j <= length w -> bl (skipn i w) = j - i + bl (skipn j w) -> step_of k G elem w i j ->
      exists n, Greedy (step_of k G elem w) (stop_of k G elem w) None i n (i + bl (skipn i w))).
    { intros j J1 J2 B Sj. destruct (IH (length w - j) ltac:(lia) j (le_n _) J2) as [n Gn]. exists (S n).
      apply greedy_step with j; [discriminate|exact Sj|]. rewrite B. now replace (i + (j - i + bl (skipn j w))) with (j + bl (skipn j w)) by lia. }
    assert (L : length (skipn i w) = length w - i) by apply skipn_length.
    destruct (starts (skipn i w)) eqn:S0.
    - assert (L2 : i + 2 <= length w).
      { destruct (skipn i w) as [|a [|x r]]; try discriminate S0. cbn in L. lia. }
      apply (St (i + 2)); [lia|lia| |].
      + rewrite bl_esc by auto. rewrite skipn_plus. lia.
      + exists i. apply or_ok; [assumption|apply plain_core|apply esc_core|auto|]. right. exists EMany1. split.
        * apply plain_ko; auto. destruct (skipn i w) as [|a r]; [reflexivity|]. cbn [pl]. now rewrite S0, orb_true_r.
        * apply esc_ok; auto.
    - destruct (pl (skipn i w)) as [|m] eqn:P.
      + exists 0. assert (bl (skipn i w) = 0) as ->.
        { destruct (bl_case (skipn i w)) as [->|[S'|[(r & E & S')|(c & r & E & N & S')]]]; [reflexivity|congruence| |].
          - rewrite E in *. now apply bl_quote.
          - rewrite E in *. cbn [pl] in P. rewrite S0 in P. apply N.eqb_neq in N. rewrite N.eqb_sym in N. rewrite N in P. discriminate. }
        rewrite Nat.add_0_r. apply greedy_stop; [discriminate|]. exists ENeureThen.
        apply or_err; [assumption|apply plain_core|apply esc_core|auto|]. exists EMany1. split; [now apply plain_ko|now apply esc_ko].
      + pose proof (pl_le (skipn i w)) as PL. pose proof (bl_plain (skipn i w)) as BP. rewrite P in PL, BP.
        rewrite skipn_plus in BP.
        apply (St (i + S m)); [lia|lia|rewrite BP; lia|].
        exists i. apply or_ok; [assumption|apply plain_core|apply esc_core|auto|]. left. rewrite <- P. apply plain_ok; auto. lia.
  Qed.

  Lemma strval_core : core k G no_skip (escape_strval q e v).
  Proof. apply core_pat. apply core_repeat. apply elem_core. Qed.

  Lemma matches_pat p w i b j : Matches k G p w i b j -> Matches k G (PPat p) w i b j.
  Proof.
    intros (A & B & n & H). split; auto. split; auto.
    assert (R : Returns G [] (PPat p) (cx k w i) (Ok (sp k w b j)) (cx k w j)).
    { apply pat_returns. exists n. split; [exact H|discriminate]. }
    destruct R as (m & R & _). now exists m.
  Qed.

  Lemma strval_match w i : i <= length w -> Matches k G (escape_strval q e v) w i i (i + bl (skipn i w)).
  Proof.
    intros Hi. apply matches_pat. apply repeat_ok; [assumption|apply elem_core|auto|]. split; auto.
    destruct (body_greedy w i Hi) as [n Gn]. exists n. split; [exact Gn|]. split; cbn; lia.
  Qed.

  Lemma strval_ok w i b j : i <= length w ->
    (Matches k G (escape_strval q e v) w i b j <->
     b = i /\ i <= j /\ j <= length w /\ Body q e (UnitSet v) (slice w i j) (skipn j w)).
  Proof.
    intros Hi. split.
    - intros H. pose proof (strval_match w i Hi) as H'.
      destruct (matches_det k G CE _ _ _ _ _ _ _ strval_core Hi H H') as [-> ->].
      pose proof (bl_le (skipn i w)) as L. rewrite skipn_length in L. split; auto. split; [lia|]. split; [lia|].
      pose proof (bl_body (skipn i w)) as B. rewrite skipn_plus in B.
      unfold slice. now replace (i + bl (skipn i w) - i) with (bl (skipn i w)) by lia.
    - intros (-> & L1 & L2 & B). apply body_bl in B. rewrite <- skipn_slice in B by auto.
      replace j with (i + bl (skipn i w)); [now apply strval_match|]. rewrite B. unfold slice. rewrite firstn_length, skipn_length. lia.
  Qed.

  Lemma strval_total w i : i <= length w -> exists j, Matches k G (escape_strval q e v) w i i j.
  Proof. intros Hi. eexists. now apply strval_match. Qed.
  Lemma strval_never_fails w i er : i <= length w -> ~ Fails k G (escape_strval q e v) w i er.
  Proof. intros Hi F. destruct (strval_total w i Hi) as [j M]. eapply matches_fails; eauto. apply strval_core. Qed.

  Lemma body_unique l r l' r' : Body q e (UnitSet v) l r -> Body q e (UnitSet v) l' r' -> l ++ r = l' ++ r' -> l = l' /\ r = r'.
  Proof.
    intros A B E. pose proof (body_bl _ _ A) as X. pose proof (body_bl _ _ B) as Y. rewrite E, Y in X.
    clear A B Y. revert l' X E. induction l as [|x l IH]; intros [|y l'] X E; cbn in X, E; try discriminate; auto.
    injection E as -> E. injection X as X. destruct (IH l' X E) as [-> ->]. auto.
  Qed.

  (** After the body: the end of the text or the quote. *)
  Lemma body_stop l r : Body q e (UnitSet v) l r -> r = [] \/ exists r', r = q :: r'.
  Proof. induction 1; eauto. Qed.
End Strval.

(** Between quotes. *)
Lemma strval_enclosed k G (CE : core_env k G no_skip) q e v (HV : honest k v) w i b j : i <= length w ->
  (Matches k G (PEnclose (escape_strval q e v) (PLit [q]) (PLit [q])) w i b j <->
   exists l r, skipn i w = q :: l ++ q :: r /\ Body q e (UnitSet v) l (q :: r) /\ b = i /\ j = i + length l + 2).
Proof.
  intros Hi.
  assert (CL : core k G no_skip (PLit [q])) by constructor.
  pose proof (strval_core k G q e v) as CS. rewrite enclose_ok by auto. split.
  - intros (m & b1 & m' & b2 & O & B & C).
    apply lit_ok in O as (-> & -> & O); auto. cbn [length] in *.
    destruct (skipn i w) as [|x t] eqn:E; [discriminate|]. cbn in O. injection O as ->.
    apply skipn_cons_inv in E as (N1 & E & L1). rewrite Nat.add_1_r in *.
    apply strval_ok in B as (-> & L2 & L3 & B); auto; try lia.
    apply lit_ok in C as (-> & -> & C); auto. cbn [length] in C.
    destruct (skipn m' w) as [|y r] eqn:E2; [discriminate|]. cbn in C. injection C as ->.
    exists (slice w (S i) m'), r. rewrite <- E2, <- skipn_slice, E by lia. split; auto. split; [now rewrite E2|].
    split; auto. unfold slice. rewrite firstn_length, skipn_length. cbn [length]. lia.
  - intros (l & r & E & B & -> & ->).
    pose proof (skipn_cons_inv _ _ _ _ E) as (N1 & E1 & L1).
    pose proof (skipn_app_len _ _ _ _ E1 ltac:(lia)) as L2.
    assert (E2 : skipn (S i + length l) w = q :: r).
    { rewrite <- (skipn_plus w (length l) (S i)), E1, skipn_app, skipn_all, Nat.sub_diag. reflexivity. }
    pose proof (skipn_cons_inv _ _ _ _ E2) as (N2 & _ & L3).
    exists (S i), (S i), (S i + length l), (S i + length l). split; [|split].
    + apply lit_ok; auto. split; auto. cbn [length]. split; [lia|]. rewrite E. reflexivity.
    + apply strval_ok; auto. split; auto. split; [lia|]. split; [lia|]. rewrite E2.
      now rewrite (slice_at w (S i) l (q :: r) E1).
    + apply lit_ok; auto. split; auto. cbn [length]. split; [lia|]. rewrite E2. reflexivity.
Qed.

Section Meaning.
  Variables (k : kind) (G : env).
  Hypothesis CE : core_env k G no_skip.

  Lemma maxrun_ext f g w i lim n : (forall x, f x = g x) -> MaxRun f w i lim n -> MaxRun g w i lim n.
  Proof.
    intros E (A & B & C). split; [|split; auto].
    - intros m Hm. destruct (A m Hm) as (x & N & F). exists x. now rewrite <- E.
    - destruct C as [C|C]; [now left|right]. intros x N. rewrite <- E. auto.
  Qed.

  Lemma meaning_fn c f : (forall x, f x = true <-> ClassSet c x) -> forall x, f x = is_match (class_macro c) x.
  Proof. intros H x. apply bool_iff. now rewrite H, class_set. Qed.

  Lemma regex_meaning c q w i b j : i <= length w ->
    (Matches k G (regex_macro c q) w i b j <->
     b = i /\ exists n f, (forall x, f x = true <-> ClassSet c x) /\
       j = i + n /\ MaxRun f w i (quant_hi q) n /\ quant_lo q <= n).
  Proof.
    intros Hi. rewrite regex_run by auto. split; intros [-> H]; (split; [auto|]).
    - destruct H as (n & H). exists n, (is_match (class_macro c)). split; [apply class_set|exact H].
    - destruct H as (n & f & E & -> & M & L). exists n. split; auto. split; auto.
      apply (maxrun_ext f); auto. now apply meaning_fn.
  Qed.

  Lemma regex_meaning_err c q w i er : i <= length w ->
    (Fails k G (regex_macro c q) w i er <->
     er = quant_error q /\ exists n f, (forall x, f x = true <-> ClassSet c x) /\
       MaxRun f w i (quant_hi q) n /\ n < quant_lo q).
  Proof.
    intros Hi. rewrite regex_run_err by auto. split; intros [-> H]; (split; [auto|]).
    - destruct H as (n & H). exists n, (is_match (class_macro c)). split; [apply class_set|exact H].
    - destruct H as (n & f & E & M & L). exists n. split; auto.
      apply (maxrun_ext f); auto. now apply meaning_fn.
  Qed.
End Meaning.

Lemma spellings neg l r x :
  is_match (class_macro (MRanges false neg [(l, r)])) x = is_match (class_macro (MRanges true neg [(l, r)])) x /\
  is_match (class_macro (MRanges true neg [(l, r)])) x = is_match (class_macro (MRanges true neg [(l, r); (l, r)])) x.
Proof.
  split; apply bool_iff; rewrite !class_set; destruct neg; cbn [ClassSet].
  - tauto.
  - tauto.
  - split; intros H a b I; apply H; cbn in *; tauto.
  - split; intros (a & b & I & H); exists a, b; cbn in *; tauto.
Qed.
