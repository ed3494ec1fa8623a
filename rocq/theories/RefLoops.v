(** Equivalences between parsers: loops, lists of alternatives, literals. *)

From Coq Require Import List Arith NArith Bool Lia.
From Verif Require Import Base Text Context Neu Syntax Regex Ctor Api TextProofs Spec Units ByteInv Sound Obs Mono Refactor Solid Cong RefLaws CtorShape Leaf.
Import ListNotations.


Lemma collect_repeat G p m : SameMatch any_error G [] (PCollect p m) (PRepeat p (CRange (Incl m) Unb)).
Proof.
  apply same_match with (d := 0); intros held [|n] c; cbn [Nat.add]; try (left; reflexivity);
    cbn [parse parse_step]; kstep; unfold collect_loop.
  - change (repeat_more (CRange (Incl m) Unb)) with (fun _ : nat => true).
    destruct (repeat_loop _ n (fun _ => true) 0 (Span (c_off c) 0) c) as [[[k s]|e| |] c']; try stop.
    unfold crange_contains. cbn [r_lo r_hi]. rewrite andb_true_r. destruct (m <=? k); stop.
  - change (repeat_more (CRange (Incl m) Unb)) with (fun _ : nat => true).
    destruct (repeat_loop _ n (fun _ => true) 0 (Span (c_off c) 0) c) as [[[k s]|e| |] c']; try stop.
    unfold crange_contains. cbn [r_lo r_hi]. rewrite andb_true_r. destruct (m <=? k); stop.
Qed.
Lemma collect_repeat_c {S} (h : handler S) G p m :
  SameBuild any_error h G [] (PCollect p m) (PRepeat p (CRange (Incl m) Unb)).
Proof.
  apply same_build with (d := 0); intros held [|n] [c s]; cbn [Nat.add]; try (left; reflexivity);
    cbn [construct construct_step]; kstep.
  - change (repeat_more (CRange (Incl m) Unb)) with (fun _ : nat => true).
    destruct (repeat_vals _ n (fun _ => true) [] (c, s)) as [[vs|e| |] [c' s']]; try stop.
    unfold crange_contains. cbn [r_lo r_hi]. rewrite andb_true_r. destruct (m <=? length vs); stop.
  - change (repeat_more (CRange (Incl m) Unb)) with (fun _ : nat => true).
    destruct (repeat_vals _ n (fun _ => true) [] (c, s)) as [[vs|e| |] [c' s']]; try stop.
    unfold crange_contains. cbn [r_lo r_hi]. rewrite andb_true_r. destruct (m <=? length vs); stop.
Qed.

Lemma choice_err (t : pat -> M ctx span) e ps : forall x e' x', choice t (c_off x) e ps x = (Err e', x') -> c_off x' = c_off x.
Proof.
  induction ps as [|p ps IH]; intros x e' x'; cbn [choice]; kstep.
  - intros H. injection H as _ <-. reflexivity.
  - destruct (t p x) as [[s|e1| |] x1]; try discriminate. intros H.
    change (c_off x) with (c_off (mv x1 (c_off x))) in H at 2. change (Ctx (c_kind x1) (c_dat x1) (c_off x)) with (mv x1 (c_off x)) in H.
    apply (IH (mv x1 (c_off x))) in H. exact H.
Qed.
Lemma choice_cons G e p ps : SameMatch same_error G [] (PChoice e false (p :: ps)) (POr p (PChoice e false ps)).
Proof.
  apply same_match with (d := 3); intros held [|n] c; try (left; reflexivity); cbn [Nat.add].
  - rewrite !parse_S. cbn [parse_step choice]. unfold tm, try_mat. kstep. ctxs.
    destruct (parse n G held [] p c) as [[s|e1| |] c'] eqn:E; try stop; reuse; kstep; ctxs; try stop.
    rewrite parse_S. cbn [parse_step]. unfold tm, try_mat. kstep. ctxs.
    destruct (mono_choice _ _ (fun q => parse_mono n (S (S n)) G held [] q ltac:(lia)) ps (c_off c) e (mv c' (c_off c))) as [M|M].
    + left. exact M.
    + change (fun q : pat => parse (S (S n)) G held [] q) with (parse (S (S n)) G held []).
      change (fun q : pat => parse n G held [] q) with (parse n G held []). rewrite <- M.
      destruct (choice (parse n G held []) (c_off c) e ps (mv c' (c_off c))) as [[s|e2| |] c2] eqn:E2; try stop.
      apply (choice_err _ _ _ (mv c' (c_off c))) in E2. cbn [c_off mv] in E2. ctxs. rewrite <- E2, mv_self. stop.
  - rewrite (parse_S n). cbn [parse_step choice]. unfold tm, try_mat. kstep. ctxs.
    destruct (parse n G held [] p c) as [[s|e1| |] c'] eqn:E; kstep; ctxs; try stop.
    + rewrite parse_S. cbn [parse_step choice]. unfold tm, try_mat. kstep. ctxs. reuse. stop.
    + destruct n as [|n]; [discriminate|].
      rewrite !parse_S. cbn [parse_step choice]. unfold tm, try_mat. kstep. ctxs. reuse. kstep. ctxs.
      destruct (mono_choice _ _ (fun q => parse_mono n (S (S (S (S n)))) G held [] q ltac:(lia)) ps (c_off c) e (mv c' (c_off c))) as [M|M].
      * left. change (fun q : pat => parse n G held [] q) with (parse n G held []).
        destruct (choice (parse n G held []) (c_off c) e ps (mv c' (c_off c))) as [[s|e2| |] c2]; try discriminate; reflexivity.
      * change (fun q : pat => parse (S (S (S (S n)))) G held [] q) with (parse (S (S (S (S n)))) G held []).
        change (fun q : pat => parse n G held [] q) with (parse n G held []). rewrite <- M.
        destruct (choice (parse n G held []) (c_off c) e ps (mv c' (c_off c))) as [[s|e2| |] c2] eqn:E2; try stop.
        apply (choice_err _ _ _ (mv c' (c_off c))) in E2. cbn [c_off mv] in E2. ctxs. rewrite <- E2, mv_self. stop.
    + rewrite parse_S. cbn [parse_step choice]. unfold tm, try_mat. kstep. ctxs. reuse. stop.
Qed.

Lemma con_choice_err {S} (t : pat -> M (ctx * S) val) e ps : forall x e' x',
  con_choice t (c_off (fst x)) e ps x = (Err e', x') -> c_off (fst x') = c_off (fst x).
Proof.
  induction ps as [|[p f] ps IH]; intros [x s] e' [x' s']; cbn [con_choice]; kstep.
  - intros H. injection H as _ <- _. reflexivity.
  - destruct (t p (x, s)) as [[v|e1| |] [x1 s1]]; try discriminate. intros H.
    change (Ctx (c_kind x1) (c_dat x1) (c_off x)) with (mv x1 (c_off x)) in H.
    apply (IH (mv x1 (c_off x), s1)) in H. exact H.
Qed.
Lemma choice_cons_c {S} (h : handler S) G e p ps :
  SameBuild same_error h G [] (PChoice e false (p :: ps)) (POr p (PChoice e false ps)).
Proof.
  apply same_build with (d := 3); intros held [|n] [c s]; try (left; reflexivity); cbn [Nat.add].
  - rewrite !construct_S. cbn [construct_step con_choice plain map]. kstep. ctxs.
    destruct (construct h n G held [] p (c, s)) as [[v|e1| |] [c' s']] eqn:E; try stop; reuse; kstep; ctxs; try stop.
    rewrite construct_S. cbn [construct_step]. kstep. ctxs.
    destruct (mono_con_choice (X := ctx * S) (construct h n G held []) (construct h (Datatypes.S (Datatypes.S n)) G held []) (fun q => construct_mono h n (Datatypes.S (Datatypes.S n)) G held [] q ltac:(lia)) (plain ps) (c_off c) e (mv c' (c_off c), s')) as [M|M].
    + left. exact M.
    + change (map (fun q : pat => (q, fun v : val => v)) ps) with (plain ps).
      match goal with |- into _ ?l (let (_, _) := ?b in _) => replace b with l by exact M end.
      match goal with |- context [@con_choice ?a ?b ?c ?d ?e ?f ?g] => destruct (@con_choice a b c d e f g) as [[v|e2| |] [c2 s2]] eqn:E2 end; try stop.
      apply (con_choice_err _ _ _ (mv c' (c_off c), s')) in E2. cbn [c_off mv fst] in E2. ctxs. rewrite <- E2, mv_self. stop.
  - rewrite (construct_S h n). cbn [construct_step]. kstep. ctxs.
    destruct (construct h n G held [] p (c, s)) as [[v|e1| |] [c' s']] eqn:E; kstep; ctxs; try stop.
    + rewrite construct_S. cbn [construct_step con_choice plain map]. kstep. ctxs. reuse. stop.
    + destruct n as [|n]; [discriminate|].
      rewrite !construct_S. cbn [construct_step con_choice plain map]. kstep. ctxs. reuse. kstep. ctxs.
      change (map (fun q : pat => (q, fun v : val => v)) ps) with (plain ps).
      destruct (mono_con_choice (X := ctx * S) (construct h n G held []) (construct h (Datatypes.S (Datatypes.S (Datatypes.S (Datatypes.S n)))) G held []) (fun q => construct_mono h n (Datatypes.S (Datatypes.S (Datatypes.S (Datatypes.S n)))) G held [] q ltac:(lia)) (plain ps) (c_off c) e (mv c' (c_off c), s')) as [M|M].
      * left.
        match goal with |- context [@con_choice ?a ?b ?c ?d ?e ?f ?g] => destruct (@con_choice a b c d e f g) as [[v|e2| |] [c2 s2]] eqn:E2 end;
          try reflexivity; apply (f_equal fst) in E2; cbn [fst] in E2; exfalso; discriminate (eq_trans (eq_sym E2) M).
      * match goal with |- into _ (let (_, _) := ?l in _) ?b => replace b with l by exact M end.
        match goal with |- context [@con_choice ?a ?b ?c ?d ?e ?f ?g] => destruct (@con_choice a b c d e f g) as [[v|e2| |] [c2 s2]] eqn:E2 end; try stop.
        apply (con_choice_err _ _ _ (mv c' (c_off c), s')) in E2. cbn [c_off mv fst] in E2. ctxs. rewrite <- E2, mv_self. stop.
    + rewrite construct_S. cbn [construct_step con_choice plain map]. kstep. ctxs. reuse. stop.
Qed.

(** [p.repeat(a+1 ..= b+1)] is [p] followed by [p.repeat(a ..= b)]. *)
Definition span_range (a : nat) (b : option nat) : crange :=
  CRange (Incl a) (match b with Some b => Incl b | None => Unb end).

Section Unroll.
  Variables (G : env) (p : pat).
  Hypothesis P : Steady G p.
  Variable held : list nat.
  Lemma loop_shift k more more' c o o' : (forall i, more' (S i) = more i) -> o <= o' -> forall n cnt x, o' <= x ->
    (exists cnt' y, o' <= y /\
       repeat_loop (parse k G held [] p) n more' (S cnt) (Span o (x - o)) (mv c x) = (Ok (S cnt', Span o (y - o)), mv c y) /\
       repeat_loop (parse k G held [] p) n more cnt (Span o' (x - o')) (mv c x) = (Ok (cnt', Span o' (y - o')), mv c y)) \/
    (exists c', repeat_loop (parse k G held [] p) n more' (S cnt) (Span o (x - o)) (mv c x) = (Panic, c') /\
       repeat_loop (parse k G held [] p) n more cnt (Span o' (x - o')) (mv c x) = (Panic, c')) \/
    (exists c', repeat_loop (parse k G held [] p) n more' (S cnt) (Span o (x - o)) (mv c x) = (OOF, c') /\
       repeat_loop (parse k G held [] p) n more cnt (Span o' (x - o')) (mv c x) = (OOF, c')).
  Proof.
    intros HM Ho n. induction n as [|n IH]; intros cnt x Hx.
    - right. right. exists (mv c x). split; reflexivity.
    - cbn [repeat_loop]. rewrite HM. destruct (more cnt).
      + unfold bind, catch. destruct (steady_cres G p held (mv c x) k P) as [m|e|c'|c']; cbn [c_off mv].
        * rewrite !join_bytes by lia. rewrite mv_mv. apply (IH (S cnt) (x + m)). lia.
        * left. exists cnt, x. repeat split. lia.
        * right. left. eexists. split; reflexivity.
        * right. right. eexists. split; reflexivity.
      + left. exists cnt, x. repeat split. lia.
  Qed.
End Unroll.

Lemma loop_first {X} `{HasOffset X} (t : M X span) n more tot x : more 0 = true ->
  repeat_loop t (S n) more 0 tot x =
  bind (catch t) (fun r => match r with
                           | inl s => t' <- join tot s ;; repeat_loop t n more 1 t'
                           | inr _ => ret (0, tot) end) x.
Proof. intros M. cbn [repeat_loop]. now rewrite M. Qed.

Lemma repeat_unroll G p a b : Steady G p ->
  SameMatch any_error G [] (PRepeat p (span_range (S a) (option_map S b))) (PThen p (PRepeat p (span_range a b))).
Proof.
  intros P.
  assert (HM : forall i, repeat_more (span_range (S a) (option_map S b)) (S i) = repeat_more (span_range a b) i)
    by (destruct b; reflexivity).
  assert (H0 : repeat_more (span_range (S a) (option_map S b)) 0 = true) by (destruct b; reflexivity).
  assert (HC : forall i, crange_contains (span_range (S a) (option_map S b)) (S i) = crange_contains (span_range a b) i)
    by (destruct b; reflexivity).
  assert (HC0 : crange_contains (span_range (S a) (option_map S b)) 0 = false) by reflexivity.
  apply same_match with (d := 4); intros held [|n] c; try (left; reflexivity); cbn [Nat.add].
  - rewrite (parse_S n). cbn [parse_step]. unfold tm, try_mat. kstep.
    destruct n as [|n]; [left; reflexivity|]. rewrite loop_first by exact H0. unfold bind, catch.
    unroll.
    pose proof (steady_cres G p held c (S n) P) as K.
    destruct (parse (S n) G held [] p c) as [r c1] eqn:E.
    inversion K; subst r c1; clear K; try (left; reflexivity); reuse; try stop.
    + kstep. rewrite add_assign_b by lia. kstep.
      unroll.
      destruct (loop_shift G p P held (S n) _ _ c (c_off c) (c_off c + n0) HM ltac:(lia) n 0 (c_off c + n0) (le_n _))
        as [(cnt & y & Hy & E1 & E2)|[(c' & E1 & E2)|(c' & E1 & E2)]];
        rewrite Nat.sub_diag in E2; cbn [Nat.add] in *.
      * rewrite E1.
        pose proof (mono_repeat _ _ (parse_mono (S n) (S (S (S (S n)))) G held [] p ltac:(lia)) n (S (S (S (S n))))
                      (repeat_more (span_range a b)) 0 (Span (c_off c + n0) 0) ltac:(lia)) as M.
        apply (mle_eq _ _ _ _ _ M) in E2; [|discriminate]. rewrite E2. rewrite HC.
        destruct (crange_contains (span_range a b) cnt); kstep; ctxs.
        -- rewrite add_assign_b by lia. stop.
        -- stop.
      * rewrite E1.
        pose proof (mono_repeat _ _ (parse_mono (S n) (S (S (S (S n)))) G held [] p ltac:(lia)) n (S (S (S (S n))))
                      (repeat_more (span_range a b)) 0 (Span (c_off c + n0) 0) ltac:(lia)) as M.
        apply (mle_eq _ _ _ _ _ M) in E2; [|discriminate]. rewrite E2. stop.
      * rewrite E1. left. reflexivity.
  - rewrite (parse_S n). cbn [parse_step]. unfold tm, try_mat. kstep.
    unroll.
    rewrite loop_first by exact H0. unfold bind, catch.
    pose proof (steady_cres G p held c n P) as K.
    destruct (parse n G held [] p c) as [r c1] eqn:E.
    inversion K; subst r c1; clear K; try (left; reflexivity); reuse; try stop.
    + destruct n as [|n]; [discriminate|].
      kstep. rewrite add_assign_b by lia. kstep.
      unroll.
      destruct (loop_shift G p P held n _ _ c (c_off c) (c_off c + n0) HM ltac:(lia) n 0 (c_off c + n0) (le_n _))
        as [(cnt & y & Hy & E1 & E2)|[(c' & E1 & E2)|(c' & E1 & E2)]];
        rewrite Nat.sub_diag in E2; cbn [Nat.add] in *.
      * rewrite E2.
        pose proof (mono_repeat _ _ (parse_mono n (S (S (S (S (S n))))) G held [] p ltac:(lia)) n (S (S (S (S n))))
                      (repeat_more (span_range (S a) (option_map S b))) 1 (Span (c_off c) (c_off c + n0 - c_off c)) ltac:(lia)) as M.
        apply (mle_eq _ _ _ _ _ M) in E1; [|discriminate]. rewrite E1. rewrite HC.
        destruct (crange_contains (span_range a b) cnt); kstep; ctxs.
        -- rewrite add_assign_b by lia. stop.
        -- stop.
      * rewrite E2.
        pose proof (mono_repeat _ _ (parse_mono n (S (S (S (S (S n))))) G held [] p ltac:(lia)) n (S (S (S (S n))))
                      (repeat_more (span_range (S a) (option_map S b))) 1 (Span (c_off c) (c_off c + n0 - c_off c)) ltac:(lia)) as M.
        apply (mle_eq _ _ _ _ _ M) in E1; [|discriminate]. rewrite E1. stop.
      * rewrite E2. left. reflexivity.
Qed.

(** A literal in two pieces. *)
Lemma lit_out l c : ctx_len c < c_off c -> literal_parse l c = (Panic, c).
Proof.
  intros H. unfold literal_parse, remaining, bind, reads, lift. unfold csub.
  destruct (Nat.leb_spec (c_off c) (ctx_len c)); [lia|reflexivity].
Qed.
Lemma lit_inside l c : c_kind c = KStr -> c_off c <= ctx_len c -> drop_at KStr (c_dat c) (c_off c) = None ->
  exists e, literal_parse l c = (Err e, c).
Proof.
  intros K L D. unfold literal_parse, remaining, bind, reads, lift, csub.
  destruct (Nat.leb_spec (c_off c) (ctx_len c)); [|lia].
  destruct (tlen _ _ <=? _); [|eexists; reflexivity].
  unfold orig, orig_at. rewrite K, D. eexists. reflexivity.
Qed.
Lemma lit_app G a b : SameMatch any_error G [] (PLit (a ++ b)) (PThen (PLit a) (PLit b)).
Proof.
  assert (W : forall c, exists r r' c', literal_parse (a ++ b) c = (r, c') /\ Alike any_error r r' /\
    forall n held, parse (S (S n)) G held [] (PThen (PLit a) (PLit b)) c = (r', c')).
  { intros c.
    assert (U : forall n held, parse (S (S n)) G held [] (PThen (PLit a) (PLit b)) c
       = with_guard (x <- g_try (literal_parse a) ;; y <- g_try (literal_parse b) ;; join x y) c) by reflexivity.
    setoid_rewrite U. clear U. kstep.
    destruct (Nat.leb_spec (c_off c) (ctx_len c)) as [L|L].
    - destruct (boundary_cases (c_kind c) c L eq_refl) as [(i & Hi & E)|(K & D)].
      + remember (c_kind c) as k eqn:Ek. remember (c_dat c) as w eqn:Ew. clear Ek Ew. subst c.
        rewrite !(literal_nf k) by auto.
        destruct (list_eq_dec N.eq_dec (firstn (length a) (skipn i w)) a) as [Ea|Ea].
        * assert (La : i + length a <= length w).
          { pose proof (f_equal (@length _) Ea) as H. rewrite firstn_length, skipn_length in H. unfold item, text in *. lia. }
          rewrite (literal_nf k) by auto.
          assert (Eb : firstn (length (a ++ b)) (skipn i w) = a ++ firstn (length b) (skipn (i + length a) w)).
          { rewrite app_length. rewrite <- (firstn_skipn (length a) (skipn i w)) at 1. rewrite Ea.
            rewrite firstn_app_2. f_equal. f_equal. rewrite skipn_skipn_add. f_equal. lia. }
          rewrite Eb.
          destruct (list_eq_dec N.eq_dec (firstn (length b) (skipn (i + length a) w)) b) as [Eb'|Eb'].
          -- destruct (list_eq_dec N.eq_dec (a ++ firstn (length b) (skipn (i + length a) w)) (a ++ b)) as [_|F];
               [|exfalso; apply F; now rewrite Eb'].
             do 3 eexists. split; [reflexivity|]. rewrite app_length, Nat.add_assoc.
             assert (J : add_assign (sp k w i (i + length a)) (sp k w (i + length a) (i + length a + length b))
                         = Ok (sp k w i (i + length a + length b))).
             { unfold sp. pose proof (bo_mono k w i (i + length a) ltac:(lia)).
               pose proof (bo_mono k w (i + length a) (i + length a + length b) ltac:(lia)).
               rewrite add_assign_b by lia. f_equal. f_equal. lia. }
             split; [|intros _ _; rewrite J; reflexivity]. constructor.
          -- destruct (list_eq_dec N.eq_dec (a ++ firstn (length b) (skipn (i + length a) w)) (a ++ b)) as [F|_].
             { exfalso. apply app_inv_head in F. auto. }
             do 3 eexists. split; [reflexivity|]. split; [|intros _ _; reflexivity]. now constructor.
        * destruct (list_eq_dec N.eq_dec (firstn (length (a ++ b)) (skipn i w)) (a ++ b)) as [F|_].
          { exfalso. apply Ea. apply (f_equal (firstn (length a))) in F.
            rewrite firstn_firstn, firstn_app, Nat.sub_diag, firstn_O, app_nil_r, firstn_all in F.
            rewrite app_length, Nat.min_l in F by lia. exact F. }
          do 3 eexists. split; [reflexivity|]. split; [|intros _ _; reflexivity]. now constructor.
      + rewrite K in D. destruct (lit_inside (a ++ b) c K L D) as [e E]. destruct (lit_inside a c K L D) as [e' E'].
        rewrite E, E'. do 3 eexists. split; [reflexivity|]. split; [|intros _ _; ctxs; reflexivity]. now constructor.
    - rewrite !lit_out by auto. do 3 eexists. split; [reflexivity|]. split; [|intros _ _; reflexivity]. constructor. }
  apply same_match with (d := 4); intros held n c; destruct (W c) as (r & r' & c' & E1 & HA & E2).
  - destruct n as [|n]; [left; reflexivity|]. cbn [Nat.add].
    rewrite E2. rewrite parse_S. cbn [parse_step]. rewrite E1. right. now split.
  - destruct n as [|n]; [left; reflexivity|]. destruct n as [|n]; [left; reflexivity|]. cbn [Nat.add].
    rewrite E2. rewrite parse_S. cbn [parse_step]. rewrite E1. right. split; [reflexivity|].
    inversion HA; constructor; auto.
Qed.
