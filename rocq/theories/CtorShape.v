(** What a built value says about the text: nothing is lost, spans are in order, and handlers are
    only called on pieces of the input. *)

From Coq Require Import List Arith NArith Bool Lia.
From Verif Require Import Base Text Context Neu Syntax Regex Ctor Api TextProofs Spec Units Core Sound Complete Mono Obs Laws ApiLaws Boundary CtorBoundary PolicyLaws PegLaws CursorLaws CtorSpec CtorSound CtorComplete CtorLaws.
Import ListNotations.

(** All pieces of text in a value, concatenated from left to right. *)
Fixpoint texts_of (v : val) : text :=
  match v with
  | VText t => t
  | VPair a b => texts_of a ++ texts_of b
  | VSome a => texts_of a
  | VList l => flat_map texts_of l
  | _ => []
  end.
(** All spans in a value, from left to right. *)
Fixpoint spans_of (v : val) : list span :=
  match v with
  | VSpan s => [s]
  | VPair a b => spans_of a ++ spans_of b
  | VSome a => spans_of a
  | VList l => flat_map spans_of l
  | _ => []
  end.
(** The spans lie between the byte offsets [o] and [o'], in order and without overlaps. *)
Fixpoint in_order (o : nat) (l : list span) (o' : nat) : Prop :=
  match l with
  | [] => o <= o'
  | s :: l => o <= sbeg s /\ in_order (sbeg s + slen s) l o'
  end.

Lemma in_order_app o l o' l' o'' : in_order o l o' -> in_order o' l' o'' -> in_order o (l ++ l') o''.
Proof.
  revert o. induction l as [|s l IH]; simpl; intros o H H'.
  - destruct l' as [|s l']; simpl in *; [lia|]. destruct H'. split; [lia|auto].
  - destruct H. split; auto.
Qed.
Lemma in_order_weak o1 o l o' o2 : o1 <= o -> in_order o l o' -> o' <= o2 -> in_order o1 l o2.
Proof.
  revert o1 o. induction l as [|s l IH]; simpl; intros o1 o H H' H2; [lia|].
  destruct H'. split; [lia|]. eapply IH; eauto.
Qed.

Lemma skipn_skipn_add {A} (l : list A) a b : skipn a (skipn b l) = skipn (a + b) l.
Proof. revert l. induction b as [|b IH]; intros l; [now rewrite Nat.add_0_r|]. destruct l; [now rewrite !skipn_nil|]. rewrite Nat.add_succ_r. apply IH. Qed.
Lemma slice_app w i j l : i <= j -> j <= l -> slice w i j ++ slice w j l = slice w i l.
Proof.
  intros H1 H2. unfold slice. replace (l - i) with ((j - i) + (l - j)) by lia.
  rewrite <- (firstn_skipn (j - i) (firstn (j - i + (l - j)) (skipn i w))).
  f_equal.
  - rewrite firstn_firstn. f_equal. lia.
  - rewrite skipn_firstn_comm. f_equal; [lia|]. rewrite skipn_skipn_add. f_equal. lia.
Qed.
Lemma slice_nil w i : slice w i i = [].
Proof. unfold slice. now rewrite Nat.sub_diag. Qed.

Lemma bo_le k w i j : i <= j -> bo k w i <= bo k w j.
Proof. intros H. replace j with (i + (j - i)) by lia. rewrite bo_add. lia. Qed.

(** ** Lossless parsers: everything consumed is in the value *)
Section Lossless.
  Variable k : kind.
  Variable G : env.
  Notation HV := is_slice.
  Notation sk := no_skip.
  Hypothesis TE : tcore_env k G sk HV.
  Notation Peg := (Peg k G sk).
  Notation Tree := (Tree k G sk HV).
  Notation Trees := (Trees k G sk HV).
  Notation Trees_sep := (Trees_sep k G sk HV).
  Notation tcore := (tcore k G sk HV).
  Notation core := (core k G sk).
  Let CE := tcore_core_env k G sk HV TE.

  (** Combinators that keep every piece of text they consume (no prefix, suffix, separator,
      enclosing or mapping). *)
  Inductive lossless : pat -> Prop :=
  | ll_leaf p : leafy p -> starts_here k G sk p -> lossless p
  | ll_pat p : starts_here k G sk p -> lossless (PPat p)
  | ll_then p q : lossless p -> lossless q -> lossless (PThen p q)
  | ll_or p q : lossless p -> lossless q -> lossless (POr p q)
  | ll_longest p q : lossless p -> lossless q -> lossless (PLongest p q)
  | ll_repeat p r : lossless p -> lossless (PRepeat p r)
  | ll_collect p mn : lossless p -> lossless (PCollect p mn)
  | ll_option p : lossless p -> lossless (POption p)
  | ll_branch t p q : lossless p -> lossless q -> lossless (PBranch t p q)
  | ll_choice e ps : (forall p, In p ps -> lossless p) -> lossless (PChoice e false ps)
  | ll_wrap p : lossless p -> lossless (PWrap p)
  | ll_ref x : lossless (PRef x).
  Definition lossless_env : Prop := forall x p, env_get G x = Some p -> lossless p.
  Hypothesis LE : lossless_env.

  Lemma lb w p i v j : Tree w p i v j -> tcore p -> i <= length w -> i <= j /\ j <= length w.
  Proof.
    intros T C Hi. destruct (ttb k G sk [] HV no_skip_skipper TE (no_skip_implements k G) _ _ _ _ _ T C Hi eq_refl) as (? & ? & _). auto.
  Qed.

  Ltac inv C := inversion C; subst; try contradiction; clear C.
  Lemma lossless_all :
    (forall w p i v j, Tree w p i v j -> tcore p -> lossless p -> i <= length w ->
       texts_of v = slice w i j /\ i <= j /\ j <= length w) /\
    (forall w p lim i vs j, Trees w p lim i vs j -> tcore p -> lossless p -> i <= length w ->
       flat_map texts_of vs = slice w i j /\ i <= j /\ j <= length w) /\
    (forall w p s i vs j, Trees_sep w p s i vs j -> True).
  Proof.
    apply Tree_mutind; intros; auto.
    all: try match goal with C : tcore ?q, L : lossless ?q |- _ /\ _ /\ _ =>
      tryif is_var q then fail else (inv L; inv C) end.
    all: repeat match goal with H : context [no_skip ?w ?j] |- _ => change (no_skip w j) with j in H end.
    all: repeat match goal with
      | IH : tcore ?p -> lossless ?p -> ?i <= length ?w -> _, C : tcore ?p, L : lossless ?p, H : ?i <= length ?w |- _ =>
          destruct (IH C L H) as (? & ? & ?); clear IH end.
    all: cbn [texts_of flat_map]; rewrite ?slice_nil; auto.
    all: repeat match goal with H : texts_of _ = _ |- _ => rewrite H; clear H end.
    all: repeat match goal with H : flat_map texts_of _ = _ |- _ => rewrite H; clear H end.
    all: rewrite ?slice_app by lia; auto; try (repeat split; auto; lia).
    - (* leaf *)
      assert (b = i) as ->.
      { match goal with L : lossless _ |- _ => destruct L end; try contradiction.
        match goal with H : starts_here _ _ _ _ |- _ => eapply H; eassumption end. }
      match goal with H : is_slice _ _ _ _ |- _ => rewrite H end.
      assert (T : Tree w p i v j) by (eapply Tree_leaf; eauto). destruct (lb _ _ _ _ _ T ltac:(assumption) ltac:(assumption)). auto.
    - match goal with S : starts_here _ _ _ ?p, P : Peg _ ?p _ _ |- _ => pose proof (S _ _ _ _ P) as X end. subst b.
      assert (T : Tree w (PPat p) i v j) by (eapply Tree_pat; eauto).
      destruct (lb _ _ _ _ _ T ltac:(now constructor) ltac:(assumption)).
      match goal with H : is_slice _ _ _ _ |- _ => rewrite H end. auto.
    - match goal with H : tcore p -> _ |- _ => apply H; auto end.
      all: match goal with H : forall p, In p _ -> _ |- _ => apply H; apply in_app_iff; right; now left end.
    - match goal with H : tcore p -> _ |- _ => apply H; auto end. now apply (TE x). now apply (LE x).
  Qed.

  Lemma lossless_text p w i v j : tcore p -> lossless p -> i <= length w -> Tree w p i v j -> texts_of v = slice w i j.
  Proof. intros C L Hi T. now destruct (proj1 lossless_all _ _ _ _ _ T C L Hi). Qed.

  Lemma ctor_lossless p w i v c' : tcore p -> lossless p -> i <= length w ->
    Builds extract_text G [] p (cx k w i) tt (Ok v) c' tt ->
    exists j, c' = cx k w j /\ i <= j /\ j <= length w /\ texts_of v = slice w i j.
  Proof.
    intros C L Hi B.
    destruct (builds_spec k G sk [] HV extract_text no_skip_skipper TE (no_skip_implements k G) (extract_text_slice k) _ _ _ _ _ _ _ C Hi B)
      as [(v' & j & y & [= <-] & -> & T & H1 & H2 & H3 & H4)|(e & y & ? & _)]; [|discriminate].
    unfold no_skip in *. subst y. exists j. repeat split; auto. now apply (lossless_text p).
  Qed.
End Lossless.

(** ** Spans of the built value are in order *)
Section Order.
  Variable k : kind.
  Variable G : env.
  Variable sk : text -> nat -> nat.
  Variable pols : list pat.
  Notation HV := (is_span k).
  Hypothesis SK : skipper sk.
  Hypothesis TE : tcore_env k G sk HV.
  Hypothesis IM : implements k G sk pols.
  Notation Peg := (Peg k G sk).
  Notation Tree := (Tree k G sk HV).
  Notation Trees := (Trees k G sk HV).
  Notation Trees_sep := (Trees_sep k G sk HV).
  Notation tcore := (tcore k G sk HV).
  Notation core := (core k G sk).

  (** No mapper rearranges the values, and the values stored in key-value containers hold no
      spans. *)
  Inductive mapless : pat -> Prop :=
  | ml_leaf p : leafy p -> mapless p
  | ml_pat p : mapless (PPat p)
  | ml_then p q : mapless p -> mapless q -> mapless (PThen p q)
  | ml_ifthen p t q : mapless p -> mapless q -> mapless (PIfThen p t q)
  | ml_or p q : mapless p -> mapless q -> mapless (POr p q)
  | ml_longest p q : mapless p -> mapless q -> mapless (PLongest p q)
  | ml_prefix p q : mapless p -> mapless (PPrefix p q)
  | ml_suffix p q : mapless p -> mapless (PSuffix p q)
  | ml_enclose p o c : mapless p -> mapless (PEnclose p o c)
  | ml_seponce p s q : mapless p -> mapless q -> mapless (PSepOnce p s q)
  | ml_sep p s mn skip : mapless p -> mapless (PSep p s mn skip)
  | ml_repeat p r : mapless p -> mapless (PRepeat p r)
  | ml_collect p mn : mapless p -> mapless (PCollect p mn)
  | ml_option p : mapless p -> mapless (POption p)
  | ml_branch t p q : mapless p -> mapless q -> mapless (PBranch t p q)
  | ml_choice e ps : (forall p, In p ps -> mapless p) -> mapless (PChoice e false ps)
  | ml_pairchoice e ps : (forall p, In p ps -> mapless (fst p) /\ spans_of (snd p) = []) -> mapless (PPairChoice e false ps)
  | ml_wrap p : mapless p -> mapless (PWrap p)
  | ml_nonep : mapless PNoneP
  | ml_ref x : mapless (PRef x).
  Definition mapless_env : Prop := forall x p, env_get G x = Some p -> mapless p.
  Hypothesis LE : mapless_env.
  Notation bo := (bo k).

  Lemma skb w j : j <= length w -> j <= sk w j /\ sk w j <= length w /\ sk w (sk w j) = sk w j.
  Proof. intros H. repeat split; [now apply sk_ge|now apply sk_le|now apply sk_idem]. Qed.
  Lemma pbound w p i b j : core p -> i <= length w -> sk w i = i -> Peg w p i (OK b j) ->
    i <= b /\ b <= j /\ j <= length w.
  Proof.
    intros C Hi E P. now destruct (peg_complete k G sk pols SK (tcore_core_env k G sk HV TE) IM w p i _ P C Hi E) as [B _].
  Qed.

  Ltac inv C := inversion C; subst; try contradiction; clear C.
  Ltac pos := repeat match goal with
    | IH : tcore ?p -> mapless ?p -> ?i <= length ?w -> ?E -> _, C : tcore ?p, L : mapless ?p, H : ?i <= length ?w, X : ?E |- _ =>
        destruct (IH C L H X) as (? & ? & ?); clear IH
    | P : Peg ?w ?p ?i (OK ?b ?j), C : core ?p, H : ?i <= length ?w, E : sk ?w ?i = ?i |- _ =>
        lazymatch goal with _ : b <= j |- _ => fail | _ => destruct (pbound w p i b j C H E P) as (? & ? & ?) end
    | H : ?j <= length ?w |- _ => is_var j;
        lazymatch goal with _ : j <= sk w j |- _ => fail | _ => destruct (skb w j H) as (? & ? & ?) end
    | IH : tcore ?p -> mapless ?p -> ?i <= length ?w -> _ /\ _, C : tcore ?p, L : mapless ?p, H : ?i <= length ?w |- _ =>
        destruct (IH C L H) as (? & ? & ?); clear IH
    | IH : tcore ?p -> core ?s -> mapless ?p -> ?i <= length ?w -> _ /\ _, C : tcore ?p, S : core ?s, L : mapless ?p, H : ?i <= length ?w |- _ =>
        destruct (IH C S L H) as (? & ? & ?); clear IH
    end.

  Lemma in_order_sp w i b j : i <= b -> b <= j -> in_order (bo w i) (spans_of (VSpan (sp k w b j))) (bo w j).
  Proof.
    intros H1 H2. cbn. pose proof (bo_le k w i b H1). pose proof (bo_le k w b j H2). lia.
  Qed.
  Lemma order_all :
    (forall w p i v j, Tree w p i v j -> tcore p -> mapless p -> i <= length w -> sk w i = i ->
       in_order (bo w i) (spans_of v) (bo w j) /\ i <= j /\ j <= length w) /\
    (forall w p lim i vs j, Trees w p lim i vs j -> tcore p -> mapless p -> i <= length w ->
       in_order (bo w i) (flat_map spans_of vs) (bo w j) /\ i <= j /\ j <= length w) /\
    (forall w p s i vs j, Trees_sep w p s i vs j -> tcore p -> core s -> mapless p -> i <= length w ->
       in_order (bo w i) (flat_map spans_of vs) (bo w j) /\ i <= j /\ j <= length w).
  Proof.
    apply Tree_mutind; intros; auto.
    all: try match goal with C : tcore ?q, L : mapless ?q |- _ /\ _ /\ _ =>
      tryif is_var q then fail else (inv L; inv C) end.
    all: pos; cbn [spans_of flat_map].
    all: rewrite ?app_nil_r.
    all: try (split; [|lia]).
    all: cbn [in_order]; auto.
    all: try (repeat match goal with
      | |- in_order _ (_ ++ _) _ => eapply in_order_app
      | H : in_order _ ?l _ |- in_order _ ?l _ => eapply in_order_weak; [|exact H|]; apply bo_le; lia
      end; fail).
    all: try (eapply in_order_app; [eapply in_order_weak; [|eassumption|apply le_n]; apply bo_le; lia|
              eapply in_order_weak; [|eassumption|]; apply bo_le; lia]).
    - pose proof (tcore_core k G sk HV p ltac:(assumption)). pos. split; [|lia].
      match goal with H : is_span _ _ _ _ _ |- _ => rewrite H end. now apply in_order_sp.
    - match goal with H : is_span _ _ _ _ _ |- _ => rewrite H end. now apply in_order_sp.
    - match goal with H : tcore p -> _ |- _ => apply H; auto end.
      all: match goal with H : forall p, In p _ -> _ |- _ => apply H; apply in_app_iff; right; now left end.
    - assert (I : In (p, x) (l ++ (p, x) :: r)) by (apply in_app_iff; right; now left).
      match goal with H : forall p, In p _ -> _ /\ _ |- _ => destruct (H _ I) as [M Sx] end. cbn [fst snd] in *. rewrite Sx, app_nil_r.
      match goal with H : tcore p -> _ |- _ => apply H; auto end.
      match goal with H : forall p, In p _ -> tcore _ |- _ => exact (H _ I) end.
    - match goal with H : tcore p -> _ |- _ => apply H; auto end. now apply (TE x). now apply (LE x).
  Qed.

  Lemma spans_in_order p w i v c' : tcore p -> mapless p -> i <= length w ->
    Builds extract_span G pols p (cx k w i) tt (Ok v) c' tt ->
    exists j y, c' = cx k w y /\ sk w y = sk w j /\ i <= j /\ j <= length w /\ in_order (bo w i) (spans_of v) (bo w j).
  Proof.
    intros C L Hi B.
    destruct (builds_spec k G sk pols HV extract_span SK TE IM (extract_span_span k) _ _ _ _ _ _ _ C Hi B)
      as [(v' & j & y & [= <-] & -> & T & H1 & H2 & H3 & H4)|(e & y & ? & _)]; [|discriminate].
    destruct (skb w i Hi) as (K1 & K2 & K3).
    destruct (proj1 order_all _ _ _ _ _ T C L K2 K3) as (O & O1 & O2). exists j, y.
    repeat split; auto; [lia|]. eapply in_order_weak; [|exact O|apply le_n]. apply bo_le; lia.
  Qed.
End Order.

(** ** What handlers are called with *)

(** A handler that behaves like [h] and also writes down every call it receives. *)
Definition spy {S} (h : handler S) : handler (S * list (ctx * span)) :=
  fun c s st => let (r, s') := h c s (fst st) in (r, (s', snd st ++ [(c, s)])).

(** The context and span of a call: the cursor is on an item boundary of the text, the span covers
    whole items, and extracting it gives them. *)
Definition good_call (k : kind) (w : text) (call : ctx * span) : Prop :=
  exists x b j, x <= length w /\ b <= j /\ j <= length w /\ fst call = cx k w x /\ snd call = sp k w b j /\
    orig_sub (fst call) (sbeg (snd call)) (slen (snd call)) = Ok (slice w b j).

Lemma calls_good k G te {S} (h : handler S) pols t p w i st r c' st' l :
  bd_pols k G te pols -> bd k te (is_plain pols) t p -> i <= length w ->
  Builds (spy h) G pols p (cx k w i) (st, []) r c' (st', l) -> Forall (good_call k w) l.
Proof.
  intros PO B Hi (n & E & N).
  pose proof (construct_s k G te (spy h) (fun w st => Forall (good_call k w) (snd st))) as C.
  assert (HI : forall w x b j (st : S * list (ctx * span)), x <= length w -> b <= j -> j <= length w ->
    Forall (good_call k w) (snd st) -> Forall (good_call k w) (snd (snd (spy h (cx k w x) (sp k w b j) st)))).
  { clear. intros w x b j [s l] Hx H1 H2 F. unfold spy. cbn [fst snd]. destruct (h _ _ s) as [r s']. cbn [snd].
    apply Forall_app. split; [exact F|]. constructor; [|constructor]. exists x, b, j. cbn [fst snd].
    rewrite orig_sub_sp by auto. repeat split; auto. }
  destruct (C HI n pols PO [] t p w B i (st, []) Hi) as [F _]; [constructor|].
  rewrite E in F. exact F.
Qed.

(** [spy h] builds exactly what [h] builds. *)
Section Sim.
  Context {S S' : Type}.
  Variable pi : S' -> S.
  Variable h : handler S.
  Variable h' : handler S'.
  Hypothesis HS : forall c s st, h c s (pi st) = (fst (h' c s st), pi (snd (h' c s st))).

  Definition proj {A} (r : res A * (ctx * S')) : res A * (ctx * S) :=
    (fst r, (fst (snd r), pi (snd (snd r)))).
  Definition sim {A} (m : M (ctx * S) A) (m' : M (ctx * S') A) : Prop :=
    forall c st, m (c, pi st) = proj (m' (c, st)).
  Definition gproj {A} (r : res A * guard (ctx * S')) : res A * guard (ctx * S) :=
    (fst r, Guard (fst (g_ctx (snd r)), pi (snd (g_ctx (snd r)))) (g_offset (snd r)) (g_reset (snd r))).
  Definition gsim {A} (m : M (guard (ctx * S)) A) (m' : M (guard (ctx * S')) A) : Prop :=
    forall c st o b, m (Guard (c, pi st) o b) = gproj (m' (Guard (c, st) o b)).

  Lemma sim_same {A} (r : res A) : sim (lift r) (lift r).
  Proof. intros c st. reflexivity. Qed.
  Lemma sim_ret {A} (a : A) : sim (ret a) (ret a).
  Proof. intros c st. reflexivity. Qed.
  Lemma sim_fail {A} e : sim (@fail _ A e) (fail e).
  Proof. intros c st. reflexivity. Qed.
  Lemma sim_panic {A} : sim (@panic _ A) panic.
  Proof. intros c st. reflexivity. Qed.
  Lemma sim_oof {A} : sim (@oof _ A) oof.
  Proof. intros c st. reflexivity. Qed.
  Lemma sim_offset : sim offset offset.
  Proof. intros c st. reflexivity. Qed.
  Lemma sim_set o : sim (set_offset o) (set_offset o).
  Proof. intros c st. reflexivity. Qed.
  Lemma sim_reads {A} (f : ctx -> res A) : sim (reads (fun x => f (fst x))) (reads (fun x => f (fst x))).
  Proof. intros c st. reflexivity. Qed.
  Lemma sim_on {A} (m : M ctx A) : sim (on_ctx m) (on_ctx m).
  Proof. intros c st. unfold on_ctx. cbn [fst snd]. now destruct (m c) as [r c']. Qed.
  Lemma sim_bind {A B} (m : M (ctx * S) A) m' (f : A -> M (ctx * S) B) f' :
    sim m m' -> (forall a, sim (f a) (f' a)) -> sim (bind m f) (bind m' f').
  Proof.
    intros H1 H2 c st. unfold bind. rewrite H1. destruct (m' (c, st)) as [[a|e| |] [c1 s1]]; cbn; auto. apply H2.
  Qed.
  Lemma sim_catch {A} (m : M (ctx * S) A) m' : sim m m' -> sim (catch m) (catch m').
  Proof. intros H c st. unfold catch. rewrite H. now destruct (m' (c, st)) as [[a|e| |] [c1 s1]]. Qed.
  Lemma sim_reset {A} o (m : M (ctx * S) A) m' : sim m m' -> sim (on_err_reset o m) (on_err_reset o m').
  Proof. intros H c st. unfold on_err_reset. rewrite H. now destruct (m' (c, st)) as [[a|e| |] [c1 s1]]. Qed.
  Lemma sim_accept {A} ok e o (a : A) : sim (accept ok e o a) (accept ok e o a).
  Proof. intros c st. unfold accept. now destruct ok. Qed.
  Lemma sim_invoke s : sim (invoke h s) (invoke h' s).
  Proof. intros c st. unfold invoke. cbn [fst snd]. rewrite HS. now destruct (h' c s st) as [r s1]. Qed.
  Lemma gsim_try {A} (m : M (ctx * S) A) m' : sim m m' -> gsim (g_try m) (g_try m').
  Proof. intros H c st o b. unfold g_try. cbn [g_ctx]. rewrite H. now destruct (m' (c, st)) as [[a|e| |] [c1 s1]]. Qed.
  Lemma gsim_on {A} (m : M (ctx * S) A) m' : sim m m' -> gsim (g_on m) (g_on m').
  Proof. intros H c st o b. unfold g_on. cbn [g_ctx]. rewrite H. now destruct (m' (c, st)) as [[a|e| |] [c1 s1]]. Qed.
  Lemma gsim_bind {A B} (m : M (guard (ctx * S)) A) m' (f : A -> M (guard (ctx * S)) B) f' :
    gsim m m' -> (forall a, gsim (f a) (f' a)) -> gsim (bind m f) (bind m' f').
  Proof.
    intros H1 H2 c st o b. unfold bind. rewrite H1. destruct (m' _) as [[a|e| |] [[c1 s1] o1 b1]]; cbn; auto. apply H2.
  Qed.
  Lemma gsim_catch {A} (m : M (guard (ctx * S)) A) m' : gsim m m' -> gsim (catch m) (catch m').
  Proof. intros H c st o b. unfold catch. rewrite H. now destruct (m' _) as [[a|e| |] [[c1 s1] o1 b1]]. Qed.
  Lemma gsim_ret {A} (a : A) : gsim (ret a) (ret a).
  Proof. intros c st o b. reflexivity. Qed.
  Lemma sim_guard {A} (m : M (guard (ctx * S)) A) m' : gsim m m' -> sim (with_guard m) (with_guard m').
  Proof.
    intros H c st. unfold with_guard, g_new.
    change (get_off (c, pi st)) with (get_off (c, st)). rewrite H.
    destruct (m' _) as [r [[c1 s1] o1 b1]]. unfold gproj, proj, g_drop. cbn. now destruct b1.
  Qed.

  Ltac sims := repeat first
    [ apply sim_same | apply sim_ret | apply sim_fail | apply sim_panic | apply sim_oof | apply sim_offset
    | apply sim_set | apply sim_reads | apply sim_on | apply sim_accept | apply sim_invoke
    | apply sim_catch | apply sim_reset | apply sim_guard | apply gsim_ret | apply gsim_try | apply gsim_on
    | apply gsim_catch | apply sim_bind; [|intros] | apply gsim_bind; [|intros]
    | solve [auto]
    | match goal with |- context [match ?x with _ => _ end] => destruct x end
    | match goal with |- context [if ?x then _ else _] => destruct x end ].

  Section Loops.
    Variable con : M (ctx * S) val.
    Variable con' : M (ctx * S') val.
    Variable tms : M (ctx * S) span.
    Variable tms' : M (ctx * S') span.
    Hypothesis HC : sim con con'.
    Hypothesis HT : sim tms tms'.

    Lemma m_repeat n more acc : sim (repeat_vals con n more acc) (repeat_vals con' n more acc).
    Proof. revert acc. induction n as [|n IH]; intros acc; cbn [repeat_vals]; sims. Qed.
    Lemma m_repeat2 n l acc : sim (repeat2_vals con n l acc) (repeat2_vals con' n l acc).
    Proof. revert acc. induction n as [|n IH]; intros acc; cbn [repeat2_vals]; sims. Qed.
    Lemma m_sep n skip acc : sim (sep_vals con tms n skip acc) (sep_vals con' tms' n skip acc).
    Proof. revert acc. induction n as [|n IH]; intros acc; cbn [sep_vals]; sims. Qed.
    Lemma m_sep2 n l skip acc : sim (sep2_vals con tms n l skip acc) (sep2_vals con' tms' n l skip acc).
    Proof. revert acc. induction n as [|n IH]; intros acc; cbn [sep2_vals]; sims. Qed.
    Lemma m_sepcollect n skip en acc : sim (sepcollect_vals con tms n skip en acc) (sepcollect_vals con' tms' n skip en acc).
    Proof. revert en acc. induction n as [|n IH]; intros en acc; cbn [sepcollect_vals]; sims. Qed.
  End Loops.
  Lemma m_choice con con' o e ps : (forall p, sim (con p) (con' p)) -> sim (con_choice con o e ps) (con_choice con' o e ps).
  Proof. intros H. induction ps as [|p ps IH]; cbn [con_choice]; sims. Qed.
  Lemma m_choice_ltm con con' o e ps best en : (forall p, sim (con p) (con' p)) ->
    sim (con_choice_ltm con o e best en ps) (con_choice_ltm con' o e best en ps).
  Proof. intros H. revert best en. induction ps as [|p ps IH]; intros best en; cbn [con_choice_ltm]; sims. Qed.

  Lemma construct_sim n G pols : forall held p, sim (construct h n G held pols p) (construct h' n G held pols p).
  Proof.
    induction n as [|n IH]; intros held p; [apply sim_oof|]. cbn [construct].
    destruct p; cbn [construct_step]; unfold leaf, ctm; sims;
      try (first [apply m_repeat | apply m_repeat2 | apply m_sep | apply m_sep2 | apply m_sepcollect]; sims);
      try (first [apply m_choice | apply m_choice_ltm]; auto).
  Qed.
End Sim.

Lemma spy_transparent {S} (h : handler S) G pols p c st l r c' st' :
  Builds h G pols p c st r c' st' <-> exists l', Builds (spy h) G pols p c (st, l) r c' (st', l').
Proof.
  assert (HS : forall c s (x : S * list (ctx * span)), h c s (fst x) = (fst (spy h c s x), fst (snd (spy h c s x)))).
  { intros c0 s [st0 l0]. unfold spy. cbn [fst snd]. now destruct (h c0 s st0). }
  split.
  - intros (n & E & N). pose proof (construct_sim fst h (spy h) HS n G pols [] p c (st, l)) as X.
    cbn [fst] in X. rewrite E in X. destruct (construct (spy h) n G [] pols p (c, (st, l))) as [r0 [c0 [s0 l0]]] eqn:Y.
    unfold proj in X. cbn in X. injection X as -> -> ->. exists l0, n. auto.
  - intros (l' & n & E & N). pose proof (construct_sim fst h (spy h) HS n G pols [] p c (st, l)) as X.
    cbn [fst] in X. rewrite E in X. exists n. auto.
Qed.
