(** C33 - C37: spans, span storers and span iterators. *)

From Coq Require Import List Arith NArith Bool Lia.
From Verif Require Import Base Text Context Neu Syntax Regex Ctor Api TextProofs Spec Core Obs Mono ApiLaws Boundary
  Laws CursorLaws Store StoreLaws Samples.
Import ListNotations.

(** ** C33: joining spans *)

Definition ends (s : span) : nat := sbeg s + slen s.
(** [a] covers [b]: every offset of [b], and its two ends, lie in [a]. *)
Definition Covers (a b : span) : Prop := sbeg a <= sbeg b /\ ends b <= ends a.

(** [a.add_assign(b)] succeeds exactly when [b] neither begins nor ends before [a]; otherwise it panics. *)
Theorem C33_defined : forall a b,
  (sbeg a <= sbeg b /\ ends a <= ends b -> exists c, add_assign a b = Ok c) /\
  (sbeg b < sbeg a \/ ends b < ends a -> add_assign a b = Panic).
Proof.
  intros a b. unfold add_assign, csub, ends. split; intros H.
  - destruct H as [H1 H2]. apply Nat.leb_le in H1. rewrite H1.
    assert (sbeg a + slen a <=? slen b + sbeg b = true) as -> by (apply Nat.leb_le; lia). eauto.
  - destruct (sbeg a <=? sbeg b) eqn:E; [|reflexivity]. apply Nat.leb_le in E.
    assert (sbeg a + slen a <=? slen b + sbeg b = false) as -> by (apply Nat.leb_gt; lia). reflexivity.
Qed.
(** The result is the smallest span that covers both. *)
Theorem C33_smallest_cover : forall a b c, add_assign a b = Ok c ->
  Covers c a /\ Covers c b /\ (forall d, Covers d a -> Covers d b -> Covers d c) /\
  sbeg c = sbeg a /\ ends c = ends b.
Proof.
  intros a b c H. unfold add_assign, csub in H. destruct (sbeg a <=? sbeg b) eqn:E1; [|discriminate].
  destruct (sbeg a + slen a <=? slen b + sbeg b) eqn:E2; [|discriminate].
  apply Nat.leb_le in E1, E2. inversion H; subst; clear H. unfold Covers, ends. cbn [sbeg slen].
  repeat split; intros; lia.
Qed.
(** Joining is associative where both sides are defined, ... *)
Theorem C33_associative : forall a b c ab bc r r',
  add_assign a b = Ok ab -> add_assign ab c = Ok r ->
  add_assign b c = Ok bc -> add_assign a bc = Ok r' -> r = r'.
Proof.
  intros a b c ab bc r r' H1 H2 H3 H4.
  apply C33_smallest_cover in H1, H2, H3, H4. unfold ends in *.
  destruct H1 as (_ & _ & _ & A1 & A2), H2 as (_ & _ & _ & B1 & B2), H3 as (_ & _ & _ & D1 & D2),
    H4 as (_ & _ & _ & F1 & F2).
  destruct r, r'. cbn in *. f_equal; lia.
Qed.
(** ... and for spans that follow one another both sides are defined. *)
Theorem C33_in_order : forall a b c, ends a <= sbeg b -> ends b <= sbeg c ->
  exists ab bc r, add_assign a b = Ok ab /\ add_assign ab c = Ok r /\
                  add_assign b c = Ok bc /\ add_assign a bc = Ok r.
Proof.
  intros a b c H1 H2. unfold ends in *.
  destruct (proj1 (C33_defined a b)) as [ab E1]; [unfold ends; lia|].
  destruct (C33_smallest_cover _ _ _ E1) as (_ & _ & _ & A1 & A2).
  destruct (proj1 (C33_defined b c)) as [bc E2]; [unfold ends; lia|].
  destruct (C33_smallest_cover _ _ _ E2) as (_ & _ & _ & B1 & B2). unfold ends in *.
  destruct (proj1 (C33_defined ab c)) as [r E3]; [unfold ends; lia|].
  destruct (proj1 (C33_defined a bc)) as [r' E4]; [unfold ends; lia|].
  exists ab, bc, r. pose proof (C33_associative _ _ _ _ _ _ _ E1 E3 E2 E4). subst. auto.
Qed.
(** Definedness itself is not associative. *)
Theorem C33_associative_refuted : exists a b c ab r,
  add_assign a b = Ok ab /\ add_assign ab c = Ok r /\ add_assign b c = Panic.
Proof. exists (Span 0 0), (Span 5 0), (Span 3 6), (Span 0 5), (Span 0 9). now vm_compute. Qed.
Example C33_case : add_assign (Span 2 3) (Span 7 4) = Ok (Span 2 9) /\ add_assign (Span 2 3) (Span 3 1) = Panic.
Proof. now vm_compute. Qed.

(** ** C34: VecStorer *)

(** A call on the storer that returned, with what it returned.  [VCap] is [try_cap] on any context. *)
Inductive vcall : Type :=
| VAdd (id : nat) (s : span)
| VClear (id : nat)
| VReset
| VResize (capacity : nat)
| VCap (id : nat) (G : env) (pols : list pat) (p : pat) (c c' : ctx) (r : span + error).

Inductive VDoes : vcall -> vstore -> vstore -> Prop :=
| vd_add id s st st' : vs_add_span id s st = (Ok tt, st') -> VDoes (VAdd id s) st st'
| vd_clear id st : VDoes (VClear id) st (vs_clr_span st id)
| vd_reset st : VDoes VReset st (vs_reset st)
| vd_resize n st : VDoes (VResize n) st (vs_with_capacity st n)
| vd_cap_ok id G pols p c c' s n st st' :
    vs_try_cap n G pols id p (c, st) = (Ok s, (c', st')) -> VDoes (VCap id G pols p c c' (inl s)) st st'
| vd_cap_err id G pols p c c' e n st st' :
    vs_try_cap n G pols id p (c, st) = (Err e, (c', st')) -> VDoes (VCap id G pols p c c' (inr e)) st st'.

(** A history of calls. *)
Inductive VRuns : list vcall -> vstore -> vstore -> Prop :=
| vr_nil st : VRuns [] st st
| vr_cons e h st st1 st2 : VDoes e st st1 -> VRuns h st1 st2 -> VRuns (e :: h) st st2.

(** Specification: what a call stores in group [id], and whether it clears it. *)
Definition stored (id : nat) (e : vcall) : list span :=
  match e with
  | VAdd j s | VCap j _ _ _ _ _ (inl s) => if j =? id then [s] else []
  | _ => []
  end.
Definition clears (id : nat) (e : vcall) : Prop :=
  match e with VClear j => j = id | VReset | VResize _ => True | _ => False end.

(** The group as the accessors show it. *)
Definition Group (st : vstore) (id : nat) (l : list span) : Prop :=
  (forall i, vs_span st id i = nth_error l i) /\
  (l = [] -> vs_spans st id = None) /\ (l <> [] -> vs_spans st id = Some l) /\
  (vs_contain st id = true <-> l <> []).

Lemma group_nth st id : Group st id (nth id st []).
Proof.
  unfold Group, vs_span, vs_spans, vs_contain. destruct (nth_error st id) as [v|] eqn:E.
  - rewrite (nth_error_nth _ _ [] E). split; [reflexivity|]. destruct v as [|x v]; cbn.
    + repeat split; auto; congruence.
    + repeat split; auto; congruence.
  - apply nth_error_None in E. rewrite (nth_overflow _ _ E). split; [now intros [|i]|].
    repeat split; auto; try congruence. 
Qed.
Lemma nth_update {A} (st : list (list A)) id f j :
  nth j (update st id f) [] = if (id =? j) && (j <? length st) then f (nth j st []) else nth j st [].
Proof.
  assert (forall (l : list (list A)) i, nth i l [] = match nth_error l i with Some v => v | None => [] end) as N.
  { intros l. induction l as [|x l IH]; intros [|i]; cbn; auto. }
  rewrite !N, nth_error_update. destruct (id =? j); cbn [andb]; [|reflexivity].
  destruct (nth_error st j) as [v|] eqn:E.
  - assert (j < length st) as L by (apply nth_error_Some; rewrite E; discriminate). apply Nat.ltb_lt in L. now rewrite L.
  - apply nth_error_None, Nat.ltb_ge in E. now rewrite E.
Qed.
Lemma vdoes_nth e st st' id : VDoes e st st' ->
  (clears id e -> nth id st' [] = []) /\ (~ clears id e -> nth id st' [] = nth id st [] ++ stored id e).
Proof.
  assert (forall n, nth id (repeat (@nil span) n) [] = []) as R.
  { intros n. revert id. induction n; intros [|i]; cbn; auto. }
  intros H. destruct H as [j s st st' E|j st|st|n st|j G pols p c c' s n st st' E|j G pols p c c' e n st st' E]; cbn [clears stored].
  - split; [tauto|]. intros _. unfold vs_add_span in E. destruct (j <? length st) eqn:L; [|discriminate].
    inversion E; subst. rewrite nth_update. destruct (j =? id) eqn:J; cbn [andb]; [|now rewrite app_nil_r].
    apply Nat.eqb_eq in J. subst. now rewrite L.
  - unfold vs_clr_span. rewrite nth_update. split; intros J.
    + subst. rewrite Nat.eqb_refl. cbn [andb]. destruct (id <? length st) eqn:L; [reflexivity|]. apply Nat.ltb_ge in L. now apply nth_overflow.
    + apply Nat.eqb_neq in J. rewrite J. cbn. now rewrite app_nil_r.
  - split; [|tauto]. intros _. unfold vs_reset. clear. revert id. induction st; intros [|i]; cbn; auto.
  - split; [|tauto]. intros _. apply R.
  - split; [tauto|]. intros _. apply vs_try_cap_spec in E. destruct E as (_ & L & ->). rewrite nth_update.
    destruct (j =? id) eqn:J; cbn [andb]; [|now rewrite app_nil_r].
    apply Nat.eqb_eq in J. subst. apply Nat.ltb_lt in L. now rewrite L.
  - split; [tauto|]. intros _. apply vs_try_cap_spec in E. destruct E as (_ & ->). now rewrite app_nil_r.
Qed.
Lemma vruns_app h1 h2 st st' : VRuns (h1 ++ h2) st st' -> exists st1, VRuns h1 st st1 /\ VRuns h2 st1 st'.
Proof.
  revert st. induction h1 as [|e h1 IH]; intros st H; cbn in H.
  - exists st. split; [constructor|exact H].
  - inversion H as [|? ? ? st1 ? D H']; subst. destruct (IH _ H') as (st2 & A & B).
    exists st2. split; [econstructor; eauto|exact B].
Qed.
Lemma vruns_nth h st st' id : VRuns h st st' -> (forall e, In e h -> ~ clears id e) ->
  nth id st' [] = nth id st [] ++ flat_map (stored id) h.
Proof.
  intros H. induction H as [st|e h st st1 st2 D H IH]; intros C; cbn [flat_map]; [now rewrite app_nil_r|].
  rewrite IH by (intros x Hx; apply C; now right).
  rewrite (proj2 (vdoes_nth _ _ _ id D)) by (apply C; now left). now rewrite app_assoc.
Qed.

(** From a new storer, with no clearing of the group: everything stored, in order. *)
Theorem C34_history : forall capacity h st id, VRuns h (vs_new capacity) st ->
  (forall e, In e h -> ~ clears id e) -> Group st id (flat_map (stored id) h).
Proof.
  intros capacity h st id H C. pose proof (vruns_nth _ _ _ id H C) as E.
  assert (nth id (vs_new capacity) [] = []) as N.
  { unfold vs_new. clear. revert id. induction capacity; intros [|i]; cbn; auto. }
  rewrite N in E. cbn in E. rewrite <- E. apply group_nth.
Qed.
(** After a clearing call, from any storer: everything stored since, in order. *)
Theorem C34_since_clear : forall h1 e h2 st0 st id, VRuns (h1 ++ e :: h2) st0 st ->
  clears id e -> (forall e', In e' h2 -> ~ clears id e') -> Group st id (flat_map (stored id) h2).
Proof.
  intros h1 e h2 st0 st id H C N. apply vruns_app in H. destruct H as (st1 & _ & H).
  inversion H as [|? ? ? st2 ? D H']; subst. pose proof (vruns_nth _ _ _ id H' N) as E.
  rewrite (proj1 (vdoes_nth _ _ _ id D) C) in E. cbn in E. rewrite <- E. apply group_nth.
Qed.
(** Every history is of one of these two forms (with respect to any group). *)
Theorem C34_cases : forall h id, (forall e, In e h -> ~ clears id e) \/
  (exists h1 e h2, h = h1 ++ e :: h2 /\ clears id e /\ forall e', In e' h2 -> ~ clears id e').
Proof.
  intros h id. induction h as [|e h IH]; [left; intros e []|].
  destruct IH as [IH|(h1 & e' & h2 & -> & C & N)].
  - assert (clears id e \/ ~ clears id e) as [C|C].
    { destruct e; cbn; auto. destruct (Nat.eq_dec id0 id); auto. }
    + right. exists [], e, h. auto.
    + left. intros x [<-|Hx]; auto.
  - right. exists (e :: h1), e', h2. auto.
Qed.
(** A storer made from existing groups keeps them, and the calls add to them. *)
Theorem C34_new_with : forall groups h st id l, VRuns h (vs_new_with groups) st ->
  (forall e, In e h -> ~ clears id e) -> nth_error groups id = Some l ->
  Group st id (l ++ flat_map (stored id) h).
Proof.
  intros groups h st id l H C E. pose proof (vruns_nth _ _ _ id H C) as A.
  unfold vs_new_with in A. rewrite (nth_error_nth _ _ [] E) in A. rewrite <- A. apply group_nth.
Qed.
(** The calls exist: [try_cap] and [add_span] return for every group of the storer, the number of groups
    changes only in [with_capacity], and a group that does not exist makes them panic. *)
Theorem C34_capacity : forall e st st', VDoes e st st' ->
  vs_len st' = match e with VResize n => n | _ => vs_len st end.
Proof.
  intros e st st' H. unfold vs_len. destruct H as [j s st st' E|j st|st|n st|j G pols p c c' s n st st' E|j G pols p c c' e n st st' E].
  - unfold vs_add_span in E. destruct (j <? length st); inversion E. now rewrite update_length.
  - apply update_length.
  - apply map_length.
  - apply repeat_length.
  - apply vs_try_cap_spec in E. destruct E as (_ & _ & ->). apply update_length.
  - apply vs_try_cap_spec in E. now destruct E as (_ & ->).
Qed.
Theorem C34_add_span : forall id s st,
  (id < vs_len st -> exists st', vs_add_span id s st = (Ok tt, st')) /\
  (vs_len st <= id -> vs_add_span id s st = (Panic, st)).
Proof.
  intros id s st. unfold vs_add_span, vs_len. split; intros H.
  - apply Nat.ltb_lt in H. rewrite H. eauto.
  - apply Nat.ltb_ge in H. now rewrite H.
Qed.
(** [try_cap] is [try_mat] plus the bookkeeping; a failed [try_cap] changes nothing in the storer. *)
Theorem C34_try_cap : forall G pols id p c st s c', Returns G pols p c (Ok s) c' -> id < vs_len st ->
  exists n st', vs_try_cap n G pols id p (c, st) = (Ok s, (c', st')) /\ VDoes (VCap id G pols p c c' (inl s)) st st'.
Proof.
  intros G pols id p c st s c' (n & E & _) L. unfold vs_len in L. apply Nat.ltb_lt in L. exists n.
  assert (vs_try_cap n G pols id p (c, st) = (Ok s, (c', update st id (fun v => v ++ [s])))) as A.
  { unfold vs_try_cap, bind, on_ctx, on_store, vs_add_span, ret. cbn [fst snd]. rewrite E. cbn [fst snd]. now rewrite L. }
  eexists. split; [exact A|]. econstructor. exact A.
Qed.
Theorem C34_failed_try_cap : forall G pols id p c st e c', Returns G pols p c (Err e) c' ->
  exists n, vs_try_cap n G pols id p (c, st) = (Err e, (c', st)).
Proof.
  intros G pols id p c st e c' (n & E & _). exists n.
  unfold vs_try_cap, bind, on_ctx. cbn [fst snd]. now rewrite E.
Qed.
Theorem C34_try_cap_only : forall n G pols id p c st r c' st',
  vs_try_cap n G pols id p (c, st) = (r, (c', st')) ->
  (forall s, r = Ok s -> Returns G pols p c (Ok s) c' /\ Group st' id (nth id st [] ++ [s])) /\
  (forall e, r = Err e -> Returns G pols p c (Err e) c' /\ st' = st) /\
  (forall j, j <> id -> nth j st' [] = nth j st []).
Proof.
  intros n G pols id p c st r c' st' E. pose proof (vs_try_cap_spec _ _ _ _ _ _ _ _ _ _ E) as A. destruct r as [s|e| |].
  - destruct A as (A & L & ->). split; [|split].
    + intros s' H. inversion H; subst. split; [exists n; split; [exact A|discriminate]|].
      replace (nth id st [] ++ [s']) with (nth id (update st id (fun v => v ++ [s'])) []); [apply group_nth|].
      rewrite nth_update, Nat.eqb_refl. apply Nat.ltb_lt in L. now rewrite L.
    + discriminate.
    + intros j J. rewrite nth_update. apply Nat.neq_sym, Nat.eqb_neq in J. now rewrite J.
  - destruct A as (A & ->). split; [discriminate|]. split; [|auto].
    intros e' H. inversion H; subst. split; [exists n; split; [exact A|discriminate]|reflexivity].
  - destruct A as (-> & _). repeat split; discriminate || auto.
  - destruct A as (-> & _). repeat split; discriminate || auto.
Qed.
(** [slice] is the text of the span at that place of the group. *)
Theorem C34_slice : forall get st id l i, Group st id l ->
  vs_slice get st id i = match nth_error l i with Some s => get s | None => None end.
Proof. intros get st id l i (A & _). unfold vs_slice. now rewrite A. Qed.
(** [is_empty] asks whether there are groups, not whether there are captures: a storer is empty exactly if
    nothing can be added to it. *)
Theorem C34_is_empty : forall st,
  (vs_is_empty st = true <-> vs_len st = 0) /\
  (vs_is_empty st = true <-> forall id s, vs_add_span id s st = (Panic, st)).
Proof.
  intros st. unfold vs_is_empty, vs_len, vs_add_span. rewrite Nat.eqb_eq. split; [tauto|]. destruct st as [|v st]; cbn.
  - split; auto.
  - split; [discriminate|]. intros H. specialize (H 0 (Span 0 0)). discriminate H.
Qed.
(** So clearing and resetting do not make a storer empty. *)
Theorem C34_never_emptied : forall capacity h st, VRuns h (vs_new capacity) st ->
  (forall n, ~ In (VResize n) h) -> (vs_is_empty st = true <-> capacity = 0).
Proof.
  intros capacity h st H N. rewrite (proj1 (C34_is_empty st)).
  assert (E : vs_len st = vs_len (vs_new capacity)).
  { revert H. generalize (vs_new capacity). intros st0 H. induction H as [st|e h st st1 st2 D H IH]; [reflexivity|].
    rewrite IH by (intros n I; apply (N n); now right). rewrite (C34_capacity _ _ _ D). destruct e; try reflexivity.
    elim (N capacity0). now left. }
  rewrite E. unfold vs_len, vs_new. now rewrite repeat_length.
Qed.
(** Two captures for group 0, one for group 1, a failed one, and a clear of group 1. *)
Example C34_case :
  let c := cx KStr sample 0 in
  exists c1 st, VRuns [VAdd 1 (Span 4 4); VCap 0 [] [] (PMany1 NAlways CEmpty) c c1 (inl (Span 0 15));
                       VCap 0 [] [] (PLit [0]%N) c c (inr ELiteral); VClear 1; VAdd 0 (Span 2 1)] (vs_new 2) st /\
    vs_spans st 0 = Some [Span 0 15; Span 2 1] /\ vs_spans st 1 = None.
Proof.
  eexists; eexists. split.
  - econstructor; [constructor; reflexivity|].
    econstructor; [apply (vd_cap_ok 0 [] [] _ _ _ _ 3); vm_compute; reflexivity|].
    econstructor; [apply (vd_cap_err 0 [] [] _ _ _ _ 3); vm_compute; reflexivity|].
    econstructor; [constructor|]. econstructor; [constructor; reflexivity|]. constructor.
  - now vm_compute.
Qed.

(** ** C35: ArrayStorer *)

Inductive acall : Type :=
| ASet (id ix : nat) (s : span)
| AClear (id : nat)
| AReset
| ACap (id ix : nat) (G : env) (pols : list pat) (p : pat) (c c' : ctx) (r : span + error).

Inductive ADoes : acall -> astore -> astore -> Prop :=
| ad_set id ix s st st' : as_set_span id ix s st = (Ok tt, st') -> ADoes (ASet id ix s) st st'
| ad_clear id st : ADoes (AClear id) st (as_clr_span st id)
| ad_reset st : ADoes AReset st (as_reset st)
| ad_cap_ok id ix G pols p c c' s n st st' :
    as_try_cap n G pols id ix p (c, st) = (Ok s, (c', st')) -> ADoes (ACap id ix G pols p c c' (inl s)) st st'
| ad_cap_err id ix G pols p c c' e n st st' :
    as_try_cap n G pols id ix p (c, st) = (Err e, (c', st')) -> ADoes (ACap id ix G pols p c c' (inr e)) st st'.
Inductive ARuns : list acall -> astore -> astore -> Prop :=
| ar_nil st : ARuns [] st st
| ar_cons e h st st1 st2 : ADoes e st st1 -> ARuns h st1 st2 -> ARuns (e :: h) st st2.

(** Specification: [e] writes [s] to slot [(id, ix)]; [e] empties slot [(id, ix)]. *)
Definition Writes (id ix : nat) (e : acall) (s : span) : Prop :=
  match e with
  | ASet j i t | ACap j i _ _ _ _ _ (inl t) => j = id /\ i = ix /\ t = s
  | _ => False
  end.
Definition wipes (id : nat) (e : acall) : Prop :=
  match e with AClear j => j = id | AReset => True | _ => False end.
Definition Leaves (id ix : nat) (e : acall) : Prop := ~ wipes id e /\ forall s, ~ Writes id ix e s.

Lemma as_span_update st id f j ix :
  as_span (update st id f) j ix =
  if id =? j then match nth_error st j with
                  | Some v => match nth_error (f v) ix with Some o => o | None => None end
                  | None => None end
  else as_span st j ix.
Proof. unfold as_span. rewrite nth_error_update. destruct (id =? j); auto. now destruct (nth_error st j). Qed.
Lemma as_set_slot id ix s st st' : as_set_span id ix s st = (Ok tt, st') ->
  forall j i, as_span st' j i = if (id =? j) && (ix =? i) then Some s else as_span st j i.
Proof.
  intros E j i. apply as_set_span_spec in E. destruct E as [(_ & (v & Ev & L) & ->)|(E & _)]; [|discriminate].
  rewrite as_span_update. destruct (id =? j) eqn:J; cbn [andb]; [|reflexivity].
  apply Nat.eqb_eq in J. subst j. rewrite Ev, nth_error_update. unfold as_span. rewrite Ev.
  destruct (ix =? i) eqn:I; [|reflexivity]. apply Nat.eqb_eq in I. subst i.
  destruct (nth_error v ix) eqn:X; [reflexivity|]. apply nth_error_None in X. lia.
Qed.
Lemma adoes_slot e st st' id ix : ADoes e st st' ->
  (wipes id e -> as_span st' id ix = None) /\ (forall s, Writes id ix e s -> as_span st' id ix = Some s) /\
  (Leaves id ix e -> as_span st' id ix = as_span st id ix).
Proof.
  assert (forall v : list (option span), match nth_error (map (fun _ : option span => @None span) v) ix with Some o => o | None => None end = None) as W.
  { intros v. rewrite nth_error_map_some. now destruct (nth_error v ix). }
  intros H. destruct H as [j i s st st' E|j st|st|j i G pols p c c' s n st st' E|j i G pols p c c' e n st st' E];
    unfold Leaves; cbn [wipes Writes].
  - pose proof (as_set_slot _ _ _ _ _ E id ix) as A. rewrite A. split; [tauto|]. split.
    + intros t (-> & -> & ->). now rewrite !Nat.eqb_refl.
    + intros (_ & N). destruct (j =? id) eqn:J, (i =? ix) eqn:I; cbn; auto.
      apply Nat.eqb_eq in J, I. exfalso. apply (N s); auto.
  - unfold as_clr_span. rewrite as_span_update. split; [|split; [intros ? []|]].
    + intros ->. rewrite Nat.eqb_refl. destruct (nth_error st id); auto.
    + intros (N & _). apply Nat.eqb_neq in N. now rewrite N.
  - split; [|split; [intros ? []|tauto]]. intros _. unfold as_span, as_reset. rewrite nth_error_map_some.
    destruct (nth_error st id); cbn; auto.
  - apply as_try_cap_spec in E. destruct E as (_ & E). pose proof (as_set_slot _ _ _ _ _ E id ix) as A. rewrite A.
    split; [tauto|]. split.
    + intros t (-> & -> & ->). now rewrite !Nat.eqb_refl.
    + intros (_ & N). destruct (j =? id) eqn:J, (i =? ix) eqn:I; cbn; auto.
      apply Nat.eqb_eq in J, I. exfalso. apply (N s); auto.
  - apply as_try_cap_spec in E. destruct E as (_ & ->). repeat split; tauto.
Qed.
Lemma aruns_app h1 h2 st st' : ARuns (h1 ++ h2) st st' -> exists st1, ARuns h1 st st1 /\ ARuns h2 st1 st'.
Proof.
  revert st. induction h1 as [|e h1 IH]; intros st H; cbn in H.
  - exists st. split; [constructor|exact H].
  - inversion H as [|? ? ? st1 ? D H']; subst. destruct (IH _ H') as (st2 & A & B).
    exists st2. split; [econstructor; eauto|exact B].
Qed.
Lemma aruns_leaves h st st' id ix : ARuns h st st' -> (forall e, In e h -> Leaves id ix e) ->
  as_span st' id ix = as_span st id ix.
Proof.
  intros H. induction H as [st|e h st st1 st2 D H IH]; intros C; auto.
  rewrite IH by (intros x Hx; apply C; now right). apply (adoes_slot _ _ _ id ix D). apply C. now left.
Qed.

(** A slot holds the last span written to it since it was last emptied. *)
Theorem C35_last_write : forall h1 e h2 st0 st id ix s, ARuns (h1 ++ e :: h2) st0 st ->
  Writes id ix e s -> (forall e', In e' h2 -> Leaves id ix e') -> as_span st id ix = Some s.
Proof.
  intros h1 e h2 st0 st id ix s H W L. apply aruns_app in H. destruct H as (st1 & _ & H).
  inversion H as [|? ? ? st2 ? D H']; subst. rewrite (aruns_leaves _ _ _ _ _ H' L).
  now apply (adoes_slot _ _ _ id ix D).
Qed.
Theorem C35_wiped : forall h1 e h2 st0 st id ix, ARuns (h1 ++ e :: h2) st0 st ->
  wipes id e -> (forall e', In e' h2 -> Leaves id ix e') -> as_span st id ix = None.
Proof.
  intros h1 e h2 st0 st id ix H W L. apply aruns_app in H. destruct H as (st1 & _ & H).
  inversion H as [|? ? ? st2 ? D H']; subst. rewrite (aruns_leaves _ _ _ _ _ H' L).
  now apply (adoes_slot _ _ _ id ix D).
Qed.
Theorem C35_untouched : forall m n h st id ix, ARuns h (as_new m n) st ->
  (forall e', In e' h -> Leaves id ix e') -> as_span st id ix = None.
Proof.
  intros m n h st id ix H L. rewrite (aruns_leaves _ _ _ _ _ H L). unfold as_span, as_new.
  destruct (nth_error (repeat (repeat None n) m) id) as [v|] eqn:E; auto. apply nth_error_repeat_some in E. subst v.
  destruct (nth_error (repeat None n) ix) as [o|] eqn:E; auto. now apply nth_error_repeat_some in E.
Qed.
(** The three cases are all there are. *)
Theorem C35_cases : forall h id ix, (forall e', In e' h -> Leaves id ix e') \/
  exists h1 e h2, h = h1 ++ e :: h2 /\ ((exists s, Writes id ix e s) \/ wipes id e) /\
                  forall e', In e' h2 -> Leaves id ix e'.
Proof.
  intros h id ix. induction h as [|e h IH]; [left; intros e []|].
  destruct IH as [IH|(h1 & e' & h2 & -> & C & N)].
  - assert (((exists s, Writes id ix e s) \/ wipes id e) \/ Leaves id ix e) as [C|C].
    { unfold Leaves. destruct e as [j i s|j| |j i G pols p c c' [s|e]]; cbn; auto.
      - destruct (Nat.eq_dec j id); [destruct (Nat.eq_dec i ix)|]; [left; left; exists s; auto| |];
          right; (split; [auto|intros t (H1 & H2 & _); congruence]).
      - destruct (Nat.eq_dec j id); auto.
      - destruct (Nat.eq_dec j id); [destruct (Nat.eq_dec i ix)|]; [left; left; exists s; auto| |];
          right; (split; [auto|intros t (H1 & H2 & _); congruence]). }
    + right. exists [], e, h. auto.
    + left. intros x [<-|Hx]; auto.
  - right. exists (e :: h1), e', h2. auto.
Qed.
(** [contain] asks whether some slot of the group is filled; [spans] shows the slots. *)
Theorem C35_contain : forall st id, as_contain st id = true <-> exists ix s, as_span st id ix = Some s.
Proof.
  intros st id. unfold as_contain, as_span. destruct (nth_error st id) as [v|].
  - rewrite existsb_exists. split.
    + intros (o & I & H). destruct o as [s|]; [|discriminate]. apply In_nth_error in I. destruct I as (ix & E).
      exists ix, s. now rewrite E.
    + intros (ix & s & E). destruct (nth_error v ix) as [o|] eqn:X; [|discriminate]. subst o.
      exists (Some s). split; [eapply nth_error_In; eauto|reflexivity].
  - split; [discriminate|]. intros (ix & s & H). discriminate.
Qed.
Theorem C35_spans : forall st id v ix, as_spans st id = Some v ->
  as_span st id ix = match nth_error v ix with Some o => o | None => None end.
Proof.
  intros st id v ix. unfold as_spans, as_span. destruct (nth_error st id) as [u|]; [|discriminate].
  destruct (length u =? 0); [discriminate|]. intros H. now inversion H.
Qed.
(** The dimensions never change; writing outside them panics and writing inside them succeeds. *)
Theorem C35_dimensions : forall m n h st id, ARuns h (as_new m n) st ->
  as_len st = m /\ (id < m -> exists v, nth_error st id = Some v /\ length v = n) /\
  (forall ix s, id < m /\ ix < n <-> exists st', as_set_span id ix s st = (Ok tt, st')) /\
  (forall ix s, m <= id \/ n <= ix <-> as_set_span id ix s st = (Panic, st)).
Proof.
  intros m n h st id H.
  assert (length st = m /\ forall v, In v st -> length v = n) as [L V].
  { assert (length (as_new m n) = m /\ forall v, In v (as_new m n) -> length v = n) as B.
    { unfold as_new. split; [apply repeat_length|]. intros v Hv. apply repeat_spec in Hv. subst. apply repeat_length. }
    revert B. generalize (as_new m n) H. clear. intros st0 H B. 
    assert (forall (st : astore) id f, (forall v, length (f v) = length v) -> (forall v, In v st -> length v = n) ->
             forall v, In v (update st id f) -> length v = n) as U.
    { clear. intros st id f F. revert id. induction st as [|x st IH]; intros [|id] A v; cbn; auto.
      - intros [<-|Hv]; [rewrite F; apply A; now left|apply A; now right].
      - intros [<-|Hv]; [apply A; now left|]. apply (IH id); auto. intros u Hu. apply A. now right. }
    assert (forall id ix s st st', as_set_span id ix s st = (Ok tt, st') ->
      length st = m /\ (forall v, In v st -> length v = n) -> length st' = m /\ (forall v, In v st' -> length v = n)) as SS.
    { intros id ix s st1 st1' E (L & V). apply as_set_span_spec in E. destruct E as [(_ & _ & ->)|(E & _)]; [|discriminate].
      split; [now rewrite update_length|]. apply U; auto. intros v. apply update_length. }
    induction H as [st|e h st st1 st2 D H IH]; auto. apply IH.
    destruct D as [j i s st st' E|j st|st|j i G pols p c c' s k st st' E|j i G pols p c c' e k st st' E].
    - eapply SS; eauto.
    - destruct B as (L & V). split; [unfold as_clr_span; now rewrite update_length|]. apply U; auto. intros v. apply map_length.
    - destruct B as (L & V). unfold as_reset. split; [now rewrite map_length|]. intros v Hv. apply in_map_iff in Hv.
      destruct Hv as (u & <- & Hu). rewrite map_length. auto.
    - apply as_try_cap_spec in E. destruct E as (_ & E). eapply SS; eauto.
    - apply as_try_cap_spec in E. now destruct E as (_ & ->). }
  assert (forall v, nth_error st id = Some v -> length v = n) as V' by (intros v Hv; apply V; eapply nth_error_In; eauto).
  split; [exact L|]. split; [|split].
  - intros Hid. destruct (nth_error st id) as [v|] eqn:E; eauto. apply nth_error_None in E. lia.
  - intros ix s. split.
    + intros (A & B). destruct (as_set_span id ix s st) as [r st'] eqn:E.
      destruct (as_set_span_spec _ _ _ _ _ _ E) as [(-> & _)|(-> & _ & C)]; eauto.
      destruct (nth_error st id) as [v|] eqn:X; [|apply nth_error_None in X; lia].
      specialize (C _ eq_refl). rewrite (V' _ eq_refl) in C. lia.
    + intros (st' & E). destruct (as_set_span_spec _ _ _ _ _ _ E) as [(_ & (v & X & Y) & _)|(D & _)]; [|discriminate].
      rewrite (V' _ X) in Y. split; [|exact Y]. rewrite <- L. apply nth_error_Some. rewrite X. discriminate.
  - intros ix s. split.
    + intros A. destruct (as_set_span id ix s st) as [r st'] eqn:E.
      destruct (as_set_span_spec _ _ _ _ _ _ E) as [(_ & (v & X & Y) & _)|(-> & -> & C)]; auto.
      rewrite (V' _ X) in Y. assert (id < length st) by (apply nth_error_Some; rewrite X; discriminate). lia.
    + intros E. destruct (as_set_span_spec _ _ _ _ _ _ E) as [(D & _)|(_ & _ & C)]; [discriminate|].
      destruct (nth_error st id) as [v|] eqn:X.
      * right. specialize (C _ eq_refl). rewrite (V' _ eq_refl) in C. exact C.
      * left. apply nth_error_None in X. lia.
Qed.
Theorem C35_try_cap : forall n G pols id ix p c st r c' st',
  as_try_cap n G pols id ix p (c, st) = (r, (c', st')) ->
  (forall s, r = Ok s -> Returns G pols p c (Ok s) c' /\ as_span st' id ix = Some s) /\
  (forall e, r = Err e -> Returns G pols p c (Err e) c' /\ st' = st) /\
  (forall j i, j <> id \/ i <> ix -> as_span st' j i = as_span st j i).
Proof.
  intros n G pols id ix p c st r c' st' E. pose proof (as_try_cap_spec _ _ _ _ _ _ _ _ _ _ _ E) as A. destruct r as [s|e| |].
  - destruct A as (A & B). pose proof (as_set_slot _ _ _ _ _ B) as C. split; [|split].
    + intros s' H. inversion H; subst. split; [exists n; split; [exact A|discriminate]|]. rewrite C. now rewrite !Nat.eqb_refl.
    + discriminate.
    + intros j i J. rewrite C. destruct (id =? j) eqn:X, (ix =? i) eqn:Y; cbn; auto. apply Nat.eqb_eq in X, Y. lia.
  - destruct A as (A & ->). split; [discriminate|]. split; [|auto].
    intros e' H. inversion H; subst. split; [exists n; split; [exact A|discriminate]|reflexivity].
  - destruct A as (-> & _). repeat split; discriminate || auto.
  - destruct A as (-> & _). repeat split; discriminate || auto.
Qed.
(** A successful match is always stored when the slot exists. *)
Theorem C35_try_cap_runs : forall G pols id ix p c st st' s c', Returns G pols p c (Ok s) c' ->
  as_set_span id ix s st = (Ok tt, st') -> ADoes (ACap id ix G pols p c c' (inl s)) st st'.
Proof.
  intros G pols id ix p c st st' s c' (n & E & _) A. apply (ad_cap_ok id ix G pols p c c' s n).
  unfold as_try_cap, bind, on_ctx, on_store, ret. cbn [fst snd]. rewrite E. cbn [fst snd]. now rewrite A.
Qed.
(** A storer made from given rows starts with their spans. *)
Theorem C35_new_with : forall groups h st id ix, ARuns h (as_new_with groups) st ->
  (forall e', In e' h -> Leaves id ix e') ->
  as_span st id ix = match nth_error groups id with
                     | Some v => match nth_error v ix with Some o => o | None => None end
                     | None => None
                     end.
Proof. intros groups h st id ix H L. now rewrite (aruns_leaves _ _ _ _ _ H L). Qed.
(** [slice] is the text of what was written last to that place. *)
Theorem C35_slice : forall get h1 e h2 st0 st id ix s, ARuns (h1 ++ e :: h2) st0 st ->
  Writes id ix e s -> (forall e', In e' h2 -> Leaves id ix e') -> as_slice get st id ix = get s.
Proof. intros get h1 e h2 st0 st id ix s H W L. unfold as_slice. now rewrite (C35_last_write h1 e h2 st0 st id ix s H W L). Qed.
(** After a capture, [slice] at that place is the captured text. *)
Theorem C35_captured_text : forall n k w G pols id ix p i st s c' st',
  as_try_cap n G pols id ix p (cx k w i, st) = (Ok s, (c', st')) -> i <= length w ->
  bd_pols k G false pols -> bd k false (is_plain pols) false p ->
  exists b j, b <= j /\ j <= length w /\ s = sp k w b j /\
    as_slice (get_by_span k w) st' id ix = Some (firstn (j - b) (skipn b w)).
Proof.
  intros n k w G pols id ix p i st s c' st' E Hi B1 B2. destruct (C35_try_cap _ _ _ _ _ _ _ _ _ _ _ E) as (A & _).
  destruct (A s eq_refl) as [R X]. destruct (returns_boundary _ _ _ _ _ _ _ _ B1 B2 Hi R) as (_ & Y); [discriminate|].
  destruct (Y s eq_refl) as (b & j & Hb & Hj & -> & _). exists b, j. repeat split; auto.
  unfold as_slice. rewrite X. now apply get_by_span_sp.
Qed.
(** [spans] shows the whole row of a group that exists, holes included; a storer whose rows have no cells
    shows nothing. *)
Theorem C35_row : forall m n h st id, ARuns h (as_new m n) st ->
  (id < m -> 1 <= n -> exists v, as_spans st id = Some v /\ length v = n /\ forall ix, as_span st id ix = nth ix v None) /\
  (m <= id \/ n = 0 -> as_spans st id = None).
Proof.
  intros m n h st id H. destruct (C35_dimensions m n h st id H) as (L & V & _). unfold as_spans, as_len in *. split.
  - intros I N. destruct (V I) as (v & E & Lv). exists v. unfold as_span. rewrite E. destruct (Nat.eqb_spec (length v) 0); [lia|].
    repeat split; auto. intros ix. destruct (nth_error v ix) as [o|] eqn:X; [now rewrite (nth_error_nth _ _ None X)|].
    apply nth_error_None in X. now rewrite nth_overflow.
  - intros D. destruct (nth_error st id) as [v|] eqn:E; auto.
    assert (id < m) by (rewrite <- L; apply nth_error_Some; rewrite E; discriminate).
    destruct D as [D|D]; [lia|]. destruct (V H0) as (v' & E' & Lv). injection E' as <-.
    now rewrite Lv, D.
Qed.
(** [len] and [is_empty] count the groups. *)
Theorem C35_is_empty : forall m n h st, ARuns h (as_new m n) st -> (as_is_empty st = true <-> m = 0).
Proof.
  intros m n h st H. destruct (C35_dimensions m n h st 0 H) as (L & _). unfold as_is_empty. now rewrite L, Nat.eqb_eq.
Qed.
Example C35_case : exists st,
  ARuns [ASet 0 1 (Span 4 4); AClear 0; ASet 1 0 (Span 0 1); ASet 1 0 (Span 7 2); ASet 0 2 (Span 1 1)] (as_new 2 3) st /\
  as_span st 1 0 = Some (Span 7 2) /\ as_span st 0 1 = None /\ as_span st 0 2 = Some (Span 1 1) /\ as_contain st 0 = true.
Proof.
  eexists. split.
  - repeat (econstructor; [constructor; reflexivity|]). constructor.
  - now vm_compute.
Qed.

(** Capturing the first character of the sample into a storer of one row and two cells. *)
Example C35_capture_case : exists s c' st',
  as_try_cap 3 [] [] 0 1 (POnce NAlways CEmpty) (cx KStr sample 0, as_new 1 2) = (Ok s, (c', st')) /\
  as_slice (get_by_span KStr sample) st' 0 1 = Some (firstn 1 sample) /\
  as_slice (get_by_span KStr sample) st' 0 0 = None /\ as_spans st' 0 = Some [None; Some s] /\ as_is_empty st' = false /\
  as_span (as_new_with [[None; Some s]]) 0 1 = Some s.
Proof. do 3 eexists. split; [vm_compute; reflexivity|]. repeat split. Qed.

(** ** C36: iterators over the captures *)

(** [spans_iter] of a VecStorer yields the spans of the group. *)
Theorem C36_vec_spans : forall st id v, vs_spans st id = Some v ->
  vs_spans_iter st id = Some (v, 0) /\ Yields (span_iter_next v) 0 v.
Proof.
  intros st id v E. unfold vs_spans_iter. rewrite E. split; [reflexivity|].
  apply (yields_all v Some).
  - intros i x H. now apply span_iter_step.
  - apply span_iter_end.
  - reflexivity.
Qed.
(** [slice_iter] yields the slices of the spans, up to the first span that is not a range of the
    given text. *)
Theorem C36_vec_slices : forall st id v get, vs_spans st id = Some v ->
  vs_slice_iter st id = Some (v, 0) /\
  exists m out, m <= length v /\ map get (firstn m v) = map Some out /\
    (m = length v \/ exists s, nth_error v m = Some s /\ get s = None) /\
    Yields (by_span_next get v) 0 out.
Proof.
  intros st id v get E. unfold vs_slice_iter. rewrite E. split; [reflexivity|].
  destruct (yields_steps v get (by_span_next get v)) with (i := 0) as (m & out & A & B & C & D).
  - intros i x H. now apply by_span_step.
  - apply by_span_end.
  - lia.
  - exists m, out. auto.
Qed.
(** So if all spans are ranges of the text it yields all slices, in order. *)
Theorem C36_vec_all_slices : forall st id v get out, vs_spans st id = Some v ->
  map get v = map Some out -> Yields (by_span_next get v) 0 out.
Proof.
  intros st id v get out E H. apply (yields_all v get); auto.
  - intros i x. apply by_span_step.
  - apply by_span_end.
Qed.
(** This is the case for captures: after any history in which every span stored in the group was
    captured from text [w] by a boundary-respecting parser, started on a boundary, slicing [w] (or a
    context over it) yields the captured texts. *)
Theorem C36_captured_texts : forall k w capacity h st id,
  VRuns h (vs_new capacity) st -> (forall e, In e h -> ~ clears id e) ->
  (forall e, In e h -> stored id e <> [] -> exists G pols p i c' r,
     e = VCap id G pols p (cx k w i) c' r /\ i <= length w /\
     bd_pols k G false pols /\ bd k false (is_plain pols) false p) ->
  flat_map (stored id) h <> [] ->
  exists v out, vs_spans st id = Some v /\ v = flat_map (stored id) h /\
    Forall2 (fun s t => exists b j, b <= j /\ j <= length w /\ s = sp k w b j /\ t = firstn (j - b) (skipn b w)) v out /\
    Yields (by_span_next (get_by_span k w) v) 0 out.
Proof.
  intros k w capacity h st id H C P NE. pose proof (C34_history _ _ _ _ H C) as (_ & _ & G1 & _).
  specialize (G1 NE). exists (flat_map (stored id) h).
  assert (exists out, Forall2 (fun s t => exists b j, b <= j /\ j <= length w /\ s = sp k w b j /\ t = firstn (j - b) (skipn b w))
     (flat_map (stored id) h) out) as (out & F).
  { clear G1 NE C. revert P. generalize (vs_new capacity) H. clear. intros st0 H. induction H as [st|e h st st1 st2 D H IH]; intros P.
    - exists []. constructor.
    - destruct IH as (out & F); [intros x Hx; apply P; now right|]. cbn [flat_map].
      destruct (stored id e) as [|s l] eqn:S; [exists out; exact F|].
      destruct (P e (or_introl eq_refl)) as (G & pols & p & i & c' & r & -> & Hi & B1 & B2); [rewrite S; discriminate|].
      cbn [stored] in S. destruct r as [s'|]; [|discriminate]. rewrite Nat.eqb_refl in S. inversion S; subst. cbn [app].
      inversion D as [| | | |? ? ? ? ? ? ? n ? ? E|]; subst. apply vs_try_cap_spec in E. destruct E as (E & _).
      assert (Returns G pols p (cx k w i) (Ok s) c') as R by (exists n; split; [exact E|discriminate]).
      destruct (returns_boundary _ _ _ _ _ _ _ _ B1 B2 Hi R) as (_ & X); [discriminate|].
      destruct (X s eq_refl) as (b & j & Hb & Hj & -> & _). exists (firstn (j - b) (skipn b w) :: out).
      constructor; [exists b, j; auto|exact F]. }
  exists out. split; [exact G1|]. split; [reflexivity|]. split; [exact F|].
  apply (C36_vec_all_slices st id _ _ out G1). clear -F. induction F as [|s t v out (b & j & Hb & Hj & -> & ->) F IH]; [reflexivity|].
  cbn [map]. rewrite IH. f_equal. now apply get_by_span_sp.
Qed.
(** Slicing a context is slicing its text, and both agree with slicing the bytes. *)
Theorem C36_slicing : forall c s, ctx_get_by_span c s = get_by_span (c_kind c) (c_dat c) s.
Proof. exact ctx_get_by_span_eq. Qed.
Theorem C36_slice_bytes : forall k w s t, get_by_span k w s = Some t ->
  ends s <= length (raw k w) /\ raw k t = firstn (slen s) (skipn (sbeg s) (raw k w)).
Proof.
  intros k w s t H. apply get_by_span_some in H. destruct H as (b & j & Hb & Hj & -> & ->). unfold ends, sp. cbn [sbeg slen].
  pose proof (bo_mono k w b j Hb). split.
  - rewrite raw_length. pose proof (bo_le_len k w j). lia.
  - rewrite skipn_raw by lia. replace (bo k w j - bo k w b) with (bo k (skipn b w) (j - b)).
    + symmetry. apply firstn_raw. rewrite skipn_length. lia.
    + replace j with (b + (j - b)) at 2 by lia. rewrite bo_add. lia.
Qed.
(** On [str] the slice exists exactly when both ends are character boundaries. *)
Theorem C36_slice_defined : forall w s, valid_text KStr w = true ->
  ((exists t, get_by_span KStr w s = Some t) <->
   is_char_boundary (raw KStr w) (sbeg s) = true /\ is_char_boundary (raw KStr w) (ends s) = true).
Proof.
  intros w s V. split.
  - intros (t & H). apply get_by_span_some in H. destruct H as (b & j & Hb & Hj & -> & _). unfold ends, sp. cbn [sbeg slen].
    pose proof (bo_mono KStr w b j Hb). split; apply (bo_is_boundary w); auto.
    + exists b. split; [lia|reflexivity].
    + exists j. split; [lia|lia].
  - intros (A & B). apply (bo_is_boundary w) in A, B; auto. destruct A as (b & Hb & Eb), B as (j & Hj & Ej).
    assert (b <= j). { apply (bo_le_iff KStr w); auto. unfold ends in Ej. lia. }
    exists (firstn (j - b) (skipn b w)). replace s with (sp KStr w b j); [now apply get_by_span_sp|].
    destruct s as [sb sl]. unfold sp, ends in *. cbn [sbeg slen] in *. f_equal; lia.
Qed.
(** ArrayStorer iterators stop at the first empty slot. *)
Theorem C36_array_spans : forall st id v pre rest, as_spans st id = Some v -> v = map Some pre ++ rest ->
  (rest = [] \/ exists r, rest = None :: r) ->
  as_spans_iter st id = Some (v, 0) /\ Yields (ospan_iter_next v) 0 pre.
Proof.
  intros st id v pre rest E -> R. unfold as_spans_iter. rewrite E. split; [reflexivity|].
  destruct (yields_steps (map Some pre ++ rest) (fun o => o) (ospan_iter_next (map Some pre ++ rest))) with (i := 0)
    as (m & out & A & B & C & D); [apply ospan_iter_step|apply ospan_iter_end|lia|].
  rewrite map_id in B. cbn in A, B, C. enough (out = pre) as <- by exact D. clear D E.
  revert out m rest R A B C. induction pre as [|s pre IH]; intros out m rest R A B C.
  - cbn in *. destruct m; [cbn in B; destruct out; [auto|discriminate]|].
    destruct R as [->|(r & ->)]; [cbn in A; lia|]. cbn in B. destruct out; discriminate.
  - cbn in A, B, C. destruct m as [|m].
    + exfalso. destruct C as [C|(x & X & Y)]; [lia|]. cbn in X. congruence.
    + cbn in B. destruct out as [|t out]; [discriminate|]. cbn in B. inversion B; subst. f_equal.
      apply (IH out m rest); auto; [lia|]. cbn in C. destruct C as [C|C]; [left; lia|right; exact C].
Qed.
Theorem C36_array_slices : forall st id v get out pre rest, as_spans st id = Some v -> v = map Some pre ++ rest ->
  (rest = [] \/ exists r, rest = None :: r) -> map get pre = map Some out ->
  as_slice_iter st id = Some (v, 0) /\ Yields (by_ospan_next get v) 0 out.
Proof.
  intros st id v get out pre rest E -> R M. unfold as_slice_iter. rewrite E. split; [reflexivity|].
  destruct (yields_steps (map Some pre ++ rest) (fun o => match o with Some s => get s | None => None end)
     (by_ospan_next get (map Some pre ++ rest))) with (i := 0)
    as (m & o & A & B & C & D); [apply by_ospan_step|apply by_ospan_end|lia|].
  cbn [skipn Nat.add] in A, B, C. enough (o = out) as <- by exact D. clear D E.
  revert o out m rest R M A B C. induction pre as [|s pre IH]; intros o out m rest R M A B C.
  - cbn in *. destruct out; [|discriminate]. destruct m; [cbn in B; destruct o; [auto|discriminate]|].
    destruct R as [->|(r & ->)]; [cbn in A; lia|]. cbn in B. destruct o; discriminate.
  - cbn in A, B, C, M. destruct out as [|t out]; [discriminate|]. cbn in M. inversion M as [[M1 M2]]. destruct m as [|m].
    + exfalso. destruct C as [C|(x & X & Y)]; [lia|]. cbn in X. inversion X; subst. congruence.
    + cbn in B. destruct o as [|t' o]; [discriminate|]. cbn in B. rewrite M1 in B. inversion B; subst. f_equal.
      apply (IH o out m rest); auto; [lia|]. cbn in C. destruct C as [C|C]; [left; lia|right; exact C].
Qed.
(** The iterators are functions of the group: the yielded list is unique. *)
Theorem C36_unique : forall A (next : nat -> option A * nat) pos l l',
  Yields next pos l -> Yields next pos l' -> l = l'.
Proof. exact @yields_det. Qed.
(** Spans stored after a hole are not seen, although [span] returns them; and a span that is not a range
    of the text hides the later ones. *)
Theorem C36_hole_refuted : exists st ix s, as_span st 0 ix = Some s /\
  exists v out, as_spans_iter st 0 = Some (v, 0) /\ Yields (ospan_iter_next v) 0 out /\ ~ In s out.
Proof.
  exists [[None; Some (Span 1 2)]], 1, (Span 1 2). split; [reflexivity|].
  exists [None; Some (Span 1 2)], []. repeat split; auto. apply (y_end _ _ 1). reflexivity.
Qed.
Theorem C36_bad_range_refuted : exists st s, vs_span st 0 1 = Some s /\ (exists t, get_by_span KStr sample s = Some t) /\
  exists v, vs_slice_iter st 0 = Some (v, 0) /\ Yields (by_span_next (get_by_span KStr sample) v) 0 [].
Proof.
  exists [[Span 90 1; Span 0 1]], (Span 0 1). split; [reflexivity|]. split; [eexists; vm_compute; reflexivity|].
  exists [Span 90 1; Span 0 1]. split; [reflexivity|]. apply (y_end _ _ 1). reflexivity.
Qed.
Example C36_case : vs_spans [[Span 0 2; Span 3 2]] 0 = Some [Span 0 2; Span 3 2] /\
  map (get_by_span KStr sample) [Span 0 2; Span 3 2] = map Some [firstn 2 sample; firstn 2 (skipn 3 sample)] /\
  as_spans [[Some (Span 0 2); None; Some (Span 3 2)]] 0 = Some (map Some [Span 0 2] ++ [None; Some (Span 3 2)]).
Proof. now vm_compute. Qed.
Example C36_captured_case : exists st, let c1 := cx KStr sample 5 in
  VRuns [VCap 0 [] [] number (cx KStr sample 3) c1 (inl (Span 3 2))] (vs_new 1) st /\
  bd_pols KStr [] false [] /\ bd KStr false (is_plain []) false number /\
  stored 0 (VCap 0 [] [] number (cx KStr sample 3) c1 (inl (Span 3 2))) <> [].
Proof.
  eexists. cbv zeta. split; [|split; [intros [|]; discriminate|split; [shape|discriminate]]].
  econstructor; [|constructor]. apply (vd_cap_ok 0 [] [] _ _ _ _ 3). vm_compute. reflexivity.
Qed.

(** ** C37: size_hint *)

(** Before the end has been reported, [size_hint] is the number of spans not yet visited. *)
Theorem C37_slices_partial : forall get v m pos, Reached (by_span_next get v) m pos -> m <= length v ->
  by_span_size_hint v pos = Ok (length v - m) /\
  forall out, map get (skipn m v) = map Some out -> Yields (by_span_next get v) pos out /\ length out = length v - m.
Proof.
  intros get v m pos R L. apply reached_by_span in R. subst pos. unfold by_span_size_hint, csub.
  assert (m <=? length v = true) as -> by now apply Nat.leb_le. split; [reflexivity|].
  intros out H. destruct (yields_steps v get (by_span_next get v)) with (i := m) as (j & o & A & B & C & D);
    [apply by_span_step|apply by_span_end|exact L|].
  assert (m + j = length v) as J.
  { destruct C as [C|(x & X & Y)]; [exact C|]. exfalso.
    assert (nth_error (map get (skipn m v)) j = Some None) as Z.
    { rewrite nth_error_map_some. rewrite <- (firstn_skipn m v) in X. rewrite nth_error_app2 in X; rewrite firstn_length_le in * by lia; [|lia].
      replace (m + j - m) with j in X by lia. rewrite X. cbn. now f_equal. }
    rewrite H, nth_error_map_some in Z. destruct (nth_error out j); discriminate. }
  rewrite firstn_all2 in B by (rewrite skipn_length; lia). rewrite H in B.
  assert (out = o) as -> by (clear -B; revert o B; induction out as [|x out IH]; intros [|y o] B; cbn in B; try discriminate; auto; inversion B; f_equal; auto).
  split; [exact D|]. apply (f_equal (@length _)) in H. rewrite !map_length, skipn_length in H. lia.
Qed.
Theorem C37_array_slices_partial : forall get v m pos, Reached (by_ospan_next get v) m pos -> m <= length v ->
  by_ospan_size_hint v pos = Ok (length v - m).
Proof.
  intros get v m pos R L. apply reached_by_ospan in R. subst pos. unfold by_ospan_size_hint, csub.
  assert (m <=? length v = true) as -> by now apply Nat.leb_le. reflexivity.
Qed.
(** One call of [next] after the last span, and [size_hint] panics: always. *)
Theorem C37_exhausted_refuted : forall get v m pos, Reached (by_span_next get v) m pos -> length v < m ->
  by_span_size_hint v pos = Panic.
Proof.
  intros get v m pos R L. apply reached_by_span in R. subst pos. unfold by_span_size_hint, csub.
  assert (m <=? length v = false) as -> by now apply Nat.leb_gt. reflexivity.
Qed.
Theorem C37_array_exhausted_refuted : forall get v m pos, Reached (by_ospan_next get v) m pos -> length v < m ->
  by_ospan_size_hint v pos = Panic.
Proof.
  intros get v m pos R L. apply reached_by_ospan in R. subst pos. unfold by_ospan_size_hint, csub.
  assert (m <=? length v = false) as -> by now apply Nat.leb_gt. reflexivity.
Qed.
(** Such states are reached: every complete [for] loop over the iterator ends in one. *)
Theorem C37_loops_exhaust : forall get v, exists pos, Reached (by_span_next get v) (S (length v)) pos.
Proof.
  intros get v. generalize (S (length v)). intros m. induction m as [|m (pos & R)].
  - exists 0. constructor.
  - eexists. constructor. exact R.
Qed.
(** With empty slots the hint is too large even before the end. *)
Theorem C37_hole_refuted : exists v get, by_ospan_size_hint v 0 = Ok 2 /\ Yields (by_ospan_next get v) 0 [].
Proof.
  exists [None; Some (Span 0 1)], (get_by_span KStr sample). split; [reflexivity|]. apply (y_end _ _ 1). reflexivity.
Qed.
(** The byte iterator of [BytesCtx] is exact and safe in every state, and yields every byte with its
    offset. *)
Theorem C37_bytes : forall l m pos, Reached (bytes_next l) m pos ->
  bytes_size_hint l pos = Ok (length l - m) /\
  exists out, Yields (bytes_next l) pos out /\ length out = length l - m /\ out = skipn (Nat.min m (length l)) (indices KBytes 0 l).
Proof.
  intros l m pos R. apply reached_bytes in R. subst pos. unfold bytes_size_hint, csub.
  assert (Nat.min m (length l) <=? length l = true) as -> by (apply Nat.leb_le; lia).
  split; [f_equal; lia|]. exists (skipn (Nat.min m (length l)) (indices KBytes 0 l)).
  split; [|split; [rewrite skipn_length, indices_length; lia|reflexivity]].
  remember (Nat.min m (length l)) as i eqn:Hi. assert (i <= length l) as L by lia. clear Hi.
  remember (length l - i) as d eqn:Hd. revert i L Hd. induction d as [|d IH]; intros i L Hd.
  - rewrite skipn_all2 by (rewrite indices_length; lia). apply (y_end _ _ i). unfold bytes_next.
    destruct (nth_error l i) eqn:E; auto. assert (i < length l) by (apply nth_error_Some; rewrite E; discriminate). lia.
  - destruct (nth_error l i) as [x|] eqn:E; [|apply nth_error_None in E; lia].
    assert (skipn i (indices KBytes 0 l) = (i, x) :: skipn (i + 1) (indices KBytes 0 l)) as ->.
    { pose proof (indices_bytes l 0 i) as X. rewrite E in X. cbn in X. revert X. generalize (indices KBytes 0 l) (i, x).
      clear. intros u. rewrite Nat.add_1_r. revert i. induction u as [|a u IH]; intros [|i] p H; cbn in *; try discriminate.
      - now inversion H.
      - now apply IH. }
    eapply y_item; [apply (bytes_step _ _ _ E)|]. apply IH; lia.
Qed.
Example C37_case : Reached (by_span_next (get_by_span KStr sample) [Span 0 1; Span 2 1]) 1 1 /\
  by_span_size_hint [Span 0 1; Span 2 1] 1 = Ok 1 /\ by_span_size_hint [Span 0 1; Span 2 1] 3 = Panic.
Proof. split; [|now vm_compute]. exact (re_next _ 0 0 (re_start _)). Qed.

Print Assumptions C33_defined.
Print Assumptions C33_smallest_cover.
Print Assumptions C33_associative.
Print Assumptions C33_in_order.
Print Assumptions C33_associative_refuted.
Print Assumptions C34_history.
Print Assumptions C34_since_clear.
Print Assumptions C34_cases.
Print Assumptions C34_new_with.
Print Assumptions C34_capacity.
Print Assumptions C34_add_span.
Print Assumptions C34_try_cap.
Print Assumptions C34_failed_try_cap.
Print Assumptions C34_try_cap_only.
Print Assumptions C34_slice.
Print Assumptions C34_is_empty.
Print Assumptions C34_never_emptied.
Print Assumptions C35_last_write.
Print Assumptions C35_wiped.
Print Assumptions C35_untouched.
Print Assumptions C35_cases.
Print Assumptions C35_contain.
Print Assumptions C35_spans.
Print Assumptions C35_dimensions.
Print Assumptions C35_try_cap.
Print Assumptions C35_try_cap_runs.
Print Assumptions C35_new_with.
Print Assumptions C35_slice.
Print Assumptions C35_captured_text.
Print Assumptions C35_row.
Print Assumptions C35_is_empty.
Print Assumptions C36_vec_spans.
Print Assumptions C36_vec_slices.
Print Assumptions C36_vec_all_slices.
Print Assumptions C36_captured_texts.
Print Assumptions C36_slicing.
Print Assumptions C36_slice_bytes.
Print Assumptions C36_slice_defined.
Print Assumptions C36_array_spans.
Print Assumptions C36_array_slices.
Print Assumptions C36_unique.
Print Assumptions C36_hole_refuted.
Print Assumptions C36_bad_range_refuted.
Print Assumptions C37_slices_partial.
Print Assumptions C37_array_slices_partial.
Print Assumptions C37_exhausted_refuted.
Print Assumptions C37_array_exhausted_refuted.
Print Assumptions C37_loops_exhaust.
Print Assumptions C37_hole_refuted.
Print Assumptions C37_bytes.
