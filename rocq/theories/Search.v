(** The searches of the standard library, as functions on lists of items, and the scan of a text by
    a parser whose matches depend only on the text in front of it. *)

From Coq Require Import List Arith NArith Bool Lia.
From Verif Require Import Base Text Context Neu Syntax Regex Ctor Api TextProofs Spec Core Obs ByteInv
  Laws ApiLaws Consumes TermLaws PolicyLaws CtorSpec CtorLaws UnitProps Inside FindLaws FindItems.
Import ListNotations.

(** [str::find] with a predicate or [Iterator::position]: how many items precede the first one that
    satisfies [f]. *)
Fixpoint position (f : item -> bool) (s : text) : option nat :=
  match s with
  | [] => None
  | x :: r => if f x then Some 0 else option_map S (position f r)
  end.

(** [str::split] with a predicate: the pieces between the items that satisfy [f]. *)
Fixpoint split_on (f : item -> bool) (s : text) : list text :=
  match s with
  | [] => [[]]
  | x :: r => if f x then [] :: split_on f r
              else match split_on f r with h :: t => (x :: h) :: t | [] => [[x]] end
  end.
Definition nonempty (s : text) : bool := match s with [] => false | _ => true end.

(** [str::starts_with]. *)
Fixpoint starts_with (l s : text) : bool :=
  match l, s with
  | [], _ => true
  | x :: l', y :: s' => N.eqb x y && starts_with l' s'
  | _, [] => false
  end.
(** [str::find] with a string: the first place where [l] occurs. *)
Fixpoint find_text (l s : text) : option nat :=
  match s with
  | [] => None
  | _ :: r => if starts_with l s then Some 0 else option_map S (find_text l r)
  end.
(** [str::match_indices]: the places of the occurrences of [l], from left to right, without overlap;
    [at_] counts the items before [s], [skip] those of [s] that belong to the last occurrence. *)
Fixpoint match_indices (l : text) (skip at_ : nat) (s : text) : list nat :=
  match s with
  | [] => []
  | _ :: r => match skip with
              | S n => match_indices l n (S at_) r
              | 0 => if starts_with l s then at_ :: match_indices l (length l - 1) (S at_) r
                     else match_indices l 0 (S at_) r
              end
  end.

(** ** Lemmas *)

Lemma starts_with_firstn l s : starts_with l s = true <-> firstn (length l) s = l.
Proof.
  revert s. induction l as [|x l IH]; intros [|y s]; cbn; split; intros H; try easy.
  - apply andb_prop in H. destruct H as [E H]. apply N.eqb_eq in E. subst. f_equal. now apply IH.
  - injection H as -> H. rewrite N.eqb_refl. now apply IH.
Qed.

Lemma skipn_cons (w : text) i x r : skipn i w = x :: r -> i < length w /\ skipn (S i) w = r.
Proof.
  revert w. induction i as [|i IH]; intros [|y w] E; try discriminate E.
  - cbn in E. injection E as -> ->. cbn. split; [lia|reflexivity].
  - cbn [skipn length] in *. apply IH in E. split; [lia|apply E].
Qed.
Lemma skipn_add (w : text) a b : skipn b (skipn a w) = skipn (a + b) w.
Proof.
  revert w. induction a as [|a IH]; intros w; [reflexivity|].
  destruct w as [|y w]; [now rewrite !skipn_nil|]. apply IH.
Qed.
Lemma skipn_none (w : text) i : i <= length w -> skipn i w = [] -> i = length w.
Proof. intros H E. assert (length (skipn i w) = 0) as L by now rewrite E. rewrite skipn_length in L. lia. Qed.

(** The scan: [hit s] is the length of the match in front of [s]. *)
Fixpoint scan (hit : text -> option nat) (skip at_ : nat) (s : text) : list (nat * nat) :=
  match s with
  | [] => []
  | _ :: r => match skip with
              | S n => scan hit n (S at_) r
              | 0 => match hit s with
                     | Some n => (at_, at_ + n) :: scan hit (n - 1) (S at_) r
                     | None => scan hit 0 (S at_) r
                     end
              end
  end.
Fixpoint first_at (hit : text -> option nat) (s : text) : option nat :=
  match s with
  | [] => None
  | _ :: r => match hit s with Some _ => Some 0 | None => option_map S (first_at hit r) end
  end.

Lemma scan_skip hit n : forall s i, n <= length s -> scan hit n i s = scan hit 0 (i + n) (skipn n s).
Proof.
  induction n as [|n IH]; intros s i H; [now rewrite Nat.add_0_r|].
  destruct s as [|x s]; cbn [length] in H; [lia|]. cbn [scan skipn]. rewrite IH by lia. f_equal. lia.
Qed.

Section Scan.
  Variable k : kind.
  Variable G : env.
  Variable p : pat.
  Variable w : text.
  Variable hit : text -> option nat.
  Hypothesis HS : forall i n, i < length w -> hit (skipn i w) = Some n -> ItemHit k G p w i (i + n).
  Hypothesis HN : forall i, i < length w -> hit (skipn i w) = None -> ItemMiss k G p w i.

  Lemma all_items_miss i l : ItemMiss k G p w i -> AllItems k G p w (S i) l -> AllItems k G p w i l.
  Proof.
    intros M A. inversion A as [? M'|? a b l' (H1 & M' & H) A']; subst.
    - constructor. intros x X1 X2. destruct (Nat.eq_dec x i) as [->|]; [auto|]. apply M'; lia.
    - econstructor; [|exact A']. split; [lia|]. split; [|exact H].
      intros x X1 X2. destruct (Nat.eq_dec x i) as [->|]; [auto|]. apply M'; lia.
  Qed.

  Lemma scan_items : forall d i, length w - i <= d -> i <= length w ->
    AllItems k G p w i (scan hit 0 i (skipn i w)).
  Proof.
    induction d as [|d IH]; intros i D Hi.
    - assert (i = length w) by lia. subst i. rewrite skipn_all. constructor. lia.
    - destruct (skipn i w) as [|x r] eqn:E.
      + apply skipn_none in E; [|auto]. constructor. lia.
      + destruct (skipn_cons w i x r E) as [Lt R].
        cbn [scan]. rewrite <- E. destruct (hit (skipn i w)) as [n|] eqn:F.
        * pose proof (HS i n Lt F) as H. pose proof H as (H2 & _ & Hn & _).
          eapply items_hit; [split; [apply le_n|split; [lia|exact H]]|].
          rewrite <- R, scan_skip by (rewrite skipn_length; lia). rewrite skipn_add.
          replace (S i + (n - 1)) with (i + n) by lia. apply IH; lia.
        * apply all_items_miss; [now apply HN|]. rewrite <- R. apply IH; lia.
  Qed.

  Lemma first_at_some : forall n i, i <= length w -> first_at hit (skipn i w) = Some n ->
    exists m, hit (skipn (i + n) w) = Some m /\ i + n < length w /\ FirstItem k G p w i (i + n) (i + n + m).
  Proof.
    induction n as [|n IH]; intros i Hi E; destruct (skipn i w) as [|x r] eqn:S1; try discriminate E.
    all: destruct (skipn_cons w i x r S1) as [Lt R].
    all: cbn [first_at] in E; rewrite <- S1 in E; destruct (hit (skipn i w)) as [m|] eqn:F.
    - rewrite Nat.add_0_r. exists m. split; [exact F|]. split; [exact Lt|].
      split; [lia|]. split; [lia|]. now apply HS.
    - destruct (first_at hit r); discriminate E.
    - discriminate E.
    - rewrite <- R in E. destruct (first_at hit (skipn (S i) w)) as [n'|] eqn:F2; [|discriminate E].
      injection E as ->. destruct (IH (S i) Lt F2) as (m & H1 & H2 & H3 & M & H).
      replace (i + S n) with (S i + n) by lia. exists m. split; [exact H1|]. split; [exact H2|].
      split; [lia|]. split; [|exact H]. intros y Y1 Y2.
      destruct (Nat.eq_dec y i) as [->|]; [now apply HN|]. apply M; lia.
  Qed.
  Lemma first_at_none : forall d i, length w - i <= d -> i <= length w -> first_at hit (skipn i w) = None ->
    forall x, i <= x -> x < length w -> ItemMiss k G p w x.
  Proof.
    clear HS. induction d as [|d IH]; intros i D Hi E x X1 X2; [lia|].
    destruct (skipn i w) as [|y r] eqn:S1; [apply skipn_none in S1; [lia|auto]|].
    destruct (skipn_cons w i y r S1) as [Lt R].
    cbn [first_at] in E. rewrite <- S1 in E. destruct (hit (skipn i w)) as [m|] eqn:F; [discriminate E|].
    rewrite <- R in E. destruct (first_at hit (skipn (S i) w)) eqn:F2; [discriminate E|].
    destruct (Nat.eq_dec x i) as [->|]; [now apply HN|]. apply (IH (S i)); auto; lia.
  Qed.

  Hypothesis LE : looks_env G.
  Variable K : nat -> bool.
  Variable rk : nat -> nat.
  Variable L m : nat.
  Hypothesis KE : forall x q, env_get G x = Some q -> K x = true -> consumes K q = true.
  Hypothesis WE : forall x q, env_get G x = Some q -> wfb K rk L (rk x) q = true.
  Hypothesis LP : looks p.
  Hypothesis W : wfb K rk L m p = true.

  (** [find_all] as spans. *)
  Lemma find_all_item_spans i l : i <= length w -> AllItems k G p w i l ->
    FindsAll extract_span G [] p (cx k w i) tt
      (map (fun x => VSpan (sp k w (fst x) (snd x))) l) (cx k w (length w)) tt.
  Proof.
    clear HS HN hit. intros Hi A. unfold cx. rewrite bo_len.
    pose proof (all_items_byte k G p w K rk L m LE KE WE LP W i l Hi A) as B.
    apply find_all_law. eapply handled_polls; eauto.
    - apply bo_le_len.
    - intros s I. apply in_map_iff in I. destruct I as (x & <- & I).
      apply (all_items_in k G p w i l A) in I. destruct I as (_ & I1 & I2).
      pose proof (bo_lt k w (fst x) (snd x) I1 ltac:(lia)). pose proof (bo_le_len k w (snd x)).
      unfold to_span, sp. cbn [sbeg slen]. lia.
    - assert (map (fun x => VSpan (sp k w (fst x) (snd x))) l = map VSpan (map (to_span k w) l)) as ->
        by (rewrite map_map; reflexivity). apply handled_spans.
  Qed.
End Scan.

(** ** The scans of single units, of runs and of literals *)

Definition hit_once (f : item -> bool) (s : text) : option nat :=
  match s with x :: _ => if f x then Some 1 else None | [] => None end.
Fixpoint run_len (f : item -> bool) (s : text) : nat :=
  match s with x :: r => if f x then S (run_len f r) else 0 | [] => 0 end.
Definition hit_run (f : item -> bool) (s : text) : option nat :=
  match run_len f s with 0 => None | n => Some n end.
Definition hit_lit (l s : text) : option nat := if starts_with l s then Some (length l) else None.

Lemma first_once f s : first_at (hit_once f) s = position f s.
Proof. induction s as [|x s IH]; [reflexivity|]. cbn. destruct (f x); [reflexivity|]. now rewrite IH. Qed.
Lemma first_run f s : first_at (hit_run f) s = position f s.
Proof.
  induction s as [|x s IH]; [reflexivity|]. cbn [first_at position]. unfold hit_run at 1. cbn [run_len].
  destruct (f x); [reflexivity|]. now rewrite IH.
Qed.
Lemma first_lit l s : first_at (hit_lit l) s = find_text l s.
Proof.
  induction s as [|x s IH]; [reflexivity|]. cbn [first_at find_text]. unfold hit_lit at 1.
  destruct (starts_with l (x :: s)); [reflexivity|]. now rewrite IH.
Qed.

Lemma nth_skipn0 {A} (l : list A) i : nth_error (skipn i l) 0 = nth_error l i.
Proof. revert l. induction i as [|i IH]; intros [|x l]; cbn; auto. apply IH. Qed.

Lemma run_len_max f (w : text) i : MaxRun f w i None (run_len f (skipn i w)).
Proof.
  remember (skipn i w) as s eqn:E. revert i E. induction s as [|x s IH]; intros i E.
  - cbn. split; [lia|]. split; [exact I|]. right. rewrite Nat.add_0_r, <- nth_skipn0, <- E. discriminate.
  - assert (X : nth_error w i = Some x) by now rewrite <- nth_skipn0, <- E.
    destruct (skipn_cons w i x s (eq_sym E)) as [_ R].
    cbn [run_len]. destruct (f x) eqn:F.
    + destruct (IH (S i) (eq_sym R)) as (H1 & _ & H3). split; [|split; [exact I|]].
      * intros [|q] Q; [exists x; now rewrite Nat.add_0_r|].
        destruct (H1 q) as (y & Y); [lia|]. exists y. now replace (i + S q) with (S i + q) by lia.
      * replace (i + S (run_len f s)) with (S i + run_len f s) by lia. right. now destruct H3.
    + split; [lia|]. split; [exact I|]. right. rewrite Nat.add_0_r, X. intros y Y. now injection Y as <-.
Qed.

Lemma core_nil k : core_env k [] no_skip.
Proof. intros i p E. destruct i; discriminate E. Qed.

Lemma once_hit k (u : neu) (w : text) i n : i < length w -> hit_once (is_match u) (skipn i w) = Some n ->
  ItemHit k [] (POnce u CEmpty) w i (i + n).
Proof.
  intros Lt E. destruct (skipn i w) as [|x r] eqn:S1; [discriminate E|]. cbn in E.
  destruct (is_match u x) eqn:F; [|discriminate E]. injection E as <-.
  split; [lia|]. apply (once_run k [] (core_nil k)); [lia|].
  split; [reflexivity|]. split; [reflexivity|]. exists x. now rewrite <- nth_skipn0, S1.
Qed.
Lemma once_miss k (u : neu) (w : text) i : i < length w -> hit_once (is_match u) (skipn i w) = None ->
  ItemMiss k [] (POnce u CEmpty) w i.
Proof.
  intros Lt E. left. exists EOnce. apply (once_fails k [] (core_nil k)); [lia|]. split; [reflexivity|].
  intros x X. rewrite <- nth_skipn0 in X. destruct (skipn i w) as [|y r]; [discriminate X|].
  cbn in X, E. injection X as ->. now destruct (is_match u x).
Qed.
Lemma run_hit k (u : neu) (w : text) i n : i < length w -> hit_run (is_match u) (skipn i w) = Some n ->
  ItemHit k [] (PMany1 u CEmpty) w i (i + n).
Proof.
  intros Lt E. unfold hit_run in E. pose proof (run_len_max (is_match u) w i) as M.
  destruct (run_len (is_match u) (skipn i w)) as [|m]; [discriminate E|]. injection E as <-.
  split; [lia|]. apply (many1_run k [] (core_nil k)); [lia|]. split; [reflexivity|].
  exists (S m). split; [lia|]. split; [reflexivity|exact M].
Qed.
Lemma run_miss k (u : neu) (w : text) i : i < length w -> hit_run (is_match u) (skipn i w) = None ->
  ItemMiss k [] (PMany1 u CEmpty) w i.
Proof.
  intros Lt E. unfold hit_run in E. pose proof (run_len_max (is_match u) w i) as M.
  destruct (run_len (is_match u) (skipn i w)) as [|m]; [|discriminate E].
  left. exists EMany1. apply (many1_fails k [] (core_nil k)); [lia|]. now split.
Qed.
Lemma lit_hit k l (w : text) i n : l <> [] -> i < length w -> hit_lit l (skipn i w) = Some n ->
  ItemHit k [] (PLit l) w i (i + n).
Proof.
  intros N Lt E. unfold hit_lit in E. destruct (starts_with l (skipn i w)) eqn:F; [|discriminate E].
  injection E as <-. split; [destruct l; [easy|cbn [length]; lia]|].
  apply (lit_ok k [] (core_nil k)); [lia|]. split; [reflexivity|]. split; [reflexivity|].
  now apply starts_with_firstn.
Qed.
Lemma lit_miss k l (w : text) i : i < length w -> hit_lit l (skipn i w) = None ->
  ItemMiss k [] (PLit l) w i.
Proof.
  intros Lt E. unfold hit_lit in E. destruct (starts_with l (skipn i w)) eqn:F; [discriminate E|].
  left. exists ELiteral. apply (lit_err k [] (core_nil k)); [lia|]. split; [reflexivity|].
  intros H. apply starts_with_firstn in H. congruence.
Qed.

(** The texts of a scan. *)
Fixpoint scan_texts (hit : text -> option nat) (skip : nat) (s : text) : list text :=
  match s with
  | [] => []
  | _ :: r => match skip with
              | S n => scan_texts hit n r
              | 0 => match hit s with
                     | Some n => firstn n s :: scan_texts hit (n - 1) r
                     | None => scan_texts hit 0 r
                     end
              end
  end.
Lemma scan_slices hit w : forall s n i, skipn i w = s ->
  map (fun x => VText (slice w (fst x) (snd x))) (scan hit n i s) = map VText (scan_texts hit n s).
Proof.
  induction s as [|x s IH]; intros n i E; [reflexivity|].
  destruct (skipn_cons w i x s E) as [_ R]. cbn [scan scan_texts].
  destruct n as [|n]; [|now apply IH]. destruct (hit (x :: s)) as [m|]; [|now apply IH].
  cbn [map fst snd]. rewrite (IH _ _ R). unfold slice. rewrite E. now replace (i + m - i) with m by lia.
Qed.
Lemma once_texts f s : scan_texts (hit_once f) 0 s = map (fun x => [x]) (filter f s).
Proof.
  induction s as [|x s IH]; [reflexivity|]. cbn [scan_texts hit_once filter].
  destruct (f x); [|exact IH]. cbn [map firstn Nat.sub]. now rewrite IH.
Qed.
Lemma run_texts_both f s :
  scan_texts (hit_run f) 0 s = filter nonempty (split_on (fun x => negb (f x)) s) /\
  scan_texts (hit_run f) (run_len f s) s = filter nonempty (tl (split_on (fun x => negb (f x)) s)) /\
  exists t, split_on (fun x => negb (f x)) s = firstn (run_len f s) s :: t.
Proof.
  induction s as [|x s (IA & IB & t & IC)]; [split; [reflexivity|]; split; [reflexivity|]; now exists []|].
  cbn [scan_texts run_len split_on]. unfold hit_run at 1. cbn [run_len].
  destruct (f x) eqn:F; cbn [negb].
  - rewrite IC in *. cbn [tl] in *. split; [|split].
    + cbn [firstn filter nonempty Nat.sub]. rewrite Nat.sub_0_r, IB. reflexivity.
    + exact IB.
    + now exists t.
  - assert (Hh : hit_run f (x :: s) = None) by (unfold hit_run; cbn [run_len]; now rewrite F). rewrite Hh.
    split; [exact IA|]. split; [exact IA|].
    now exists (split_on (fun x => negb (f x)) s).
Qed.
Lemma lit_indices l : l <> [] -> forall s n i,
  scan (hit_lit l) n i s = map (fun a => (a, a + length l)) (match_indices l n i s).
Proof.
  intros N. induction s as [|x s IH]; intros n i; [reflexivity|].
  cbn [scan match_indices]. destruct n as [|n]; [|apply IH]. unfold hit_lit at 1.
  destruct (starts_with l (x :: s)); [|apply IH]. cbn [map]. now rewrite IH.
Qed.
Lemma match_indices_at l (w : text) : forall s n i a, skipn i w = s -> In a (match_indices l n i s) ->
  a < length w /\ starts_with l (skipn a w) = true.
Proof.
  induction s as [|x s IH]; intros n i a E I; [easy|].
  destruct (skipn_cons w i x s E) as [Lt R]. cbn [match_indices] in I.
  destruct n as [|n]; [|now apply (IH _ _ _ R) in I].
  destruct (starts_with l (x :: s)) eqn:F; [|now apply (IH _ _ _ R) in I].
  destruct I as [<-|I]; [|now apply (IH _ _ _ R) in I]. split; [exact Lt|]. now rewrite E.
Qed.

Lemma sp_slice k w a n s : firstn n (skipn a w) = s -> length s = n ->
  sp k w a (a + n) = Span (tlen k (firstn a w)) (tlen k s).
Proof.
  intros E L. unfold sp, bo. f_equal. rewrite <- (firstn_skipn a (firstn (a + n) w)), tlen_app.
  rewrite firstn_firstn, Nat.min_l by lia. rewrite skipn_firstn_comm.
  replace (a + n - a) with n by lia. rewrite E. lia.
Qed.

Section Unit.
  Variable k : kind.
  Variable p : pat.
  Variable w : text.
  Variable hit : text -> option nat.
  Hypothesis HS : forall i n, i < length w -> hit (skipn i w) = Some n -> ItemHit k [] p w i (i + n).
  Hypothesis HN : forall i, i < length w -> hit (skipn i w) = None -> ItemMiss k [] p w i.
  Hypothesis LP : looks p.
  Hypothesis W : wfb (fun _ => false) (fun _ => 0) 0 0 p = true.

  Let LE : looks_env [].
  Proof. intros i q E. destruct i; discriminate E. Qed.
  Let KE : forall x q, env_get [] x = Some q -> (fun _ : nat => false) x = true -> consumes (fun _ => false) q = true.
  Proof. intros i q E. destruct i; discriminate E. Qed.
  Let WE : forall x q, env_get [] x = Some q -> wfb (fun _ => false) (fun _ => 0) 0 ((fun _ => 0) x) q = true.
  Proof. intros i q E. destruct i; discriminate E. Qed.

  Lemma unit_find i n : i <= length w -> first_at hit (skipn i w) = Some n ->
    exists m, hit (skipn (i + n) w) = Some m /\ 0 < m /\ i + n + m <= length w /\
      Finds extract_span [] [] p (cx k w i) tt (Some (VSpan (sp k w (i + n) (i + n + m)))) (cx k w (i + n + m)) tt.
  Proof.
    intros Hi E. destruct (first_at_some k [] p w hit HS HN n i Hi E) as (m & H1 & H2 & F).
    exists m. split; [exact H1|]. pose proof F as (_ & _ & H3 & _ & H4 & _). split; [lia|]. split; [lia|].
    now apply (find_item k [] p w (fun _ => false) (fun _ => 0) 0 0 LE KE WE LP W extract_span i (i + n) (i + n + m)).
  Qed.
  Lemma unit_find_none i : i <= length w -> first_at hit (skipn i w) = None ->
    Finds extract_span [] [] p (cx k w i) tt None (cx k w (length w)) tt.
  Proof.
    clear HS. intros Hi E. apply (find_no_item k [] p w (fun _ => false) (fun _ => 0) 0 0 LE KE WE LP W); [exact Hi|].
    exact (first_at_none k [] p w hit HN _ i (le_n _) Hi E).
  Qed.
  Lemma unit_find_all i : i <= length w ->
    FindsAll extract_text [] [] p (cx k w i) tt (map VText (scan_texts hit 0 (skipn i w))) (cx k w (length w)) tt.
  Proof.
    intros Hi. rewrite <- (scan_slices hit w (skipn i w) 0 i eq_refl).
    apply (find_all_items k [] p w (fun _ => false) (fun _ => 0) 0 0 LE KE WE LP W); [exact Hi|].
    exact (scan_items k [] p w hit HS HN _ i (le_n _) Hi).
  Qed.
  Lemma unit_find_all_spans i : i <= length w ->
    FindsAll extract_span [] [] p (cx k w i) tt
      (map (fun x => VSpan (sp k w (fst x) (snd x))) (scan hit 0 i (skipn i w))) (cx k w (length w)) tt.
  Proof.
    intros Hi.
    apply (find_all_item_spans k [] p w LE (fun _ => false) (fun _ => 0) 0 0 KE WE LP W); [exact Hi|].
    exact (scan_items k [] p w hit HS HN _ i (le_n _) Hi).
  Qed.
End Unit.
