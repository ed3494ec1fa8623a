(** Whatever the specification of ConSpec.v describes, the code does. *)

From Coq Require Import List Arith NArith Bool Lia.
From Verif Require Import Base Text Context Neu Syntax Regex Ctor TextProofs Spec Units Core Sound Complete CtorSpec CtorSound ConSpec Laws ConSound.
Import ListNotations.

Lemma ev_both (P Q : nat -> Prop) : eventually P -> eventually Q -> eventually (fun m => P m /\ Q m).
Proof. intros [n H] [n' H']. exists (n + n'). intros m Hm. split; [apply H|apply H']; lia. Qed.
Lemma ev_next (P Q : nat -> Prop) : eventually P -> (forall m, P m -> Q (S m)) -> eventually Q.
Proof. intros [n H] I. exists (S n). intros [|m] Hm; [lia|]. apply I, H. lia. Qed.
Lemma ev_true (P : nat -> Prop) : (forall m, P (S m)) -> eventually P.
Proof. intros H. exists 1. intros [|m] Hm; [lia|]. apply H. Qed.

Section ConComplete.
  Variable k : kind.
  Variable G : env.
  Variable sk : text -> nat -> nat.
  Variable pols : list pat.
  Context {ST : Type}.
  Variable hv : text -> nat -> nat -> ST -> res val * ST.
  Variable h : handler ST.
  Hypothesis SK : skipper sk.
  Hypothesis CEnv : core_env k G sk.
  Hypothesis IM : implements k G sk pols.
  Hypothesis OE : con_ok_env k G sk.
  Hypothesis HA : answers k sk hv h.
  Notation cx := (cx k).
  Notation sp := (sp k).
  Notation bo := (bo k).
  Notation Peg := (Peg k G sk).
  Notation Con := (Con k G sk hv).
  Notation core := (core k G sk).
  Notation con_ok := (con_ok k G sk).
  Notation same := (same sk).
  Notation construct := (construct h).
  Notation ctm m held s := (ctm (parse m G) held pols s).

  (** The code's result is the specified outcome; the cursor is the specified one up to what the
      context skips. *)
  Definition agrees (w : text) (r : res val * (ctx * ST)) (o : cout ST) : Prop :=
    match o with
    | CV v j s => exists y, same w j y /\ r = (Ok v, (cx w y, s))
    | CE e j s => exists y, same w j y /\ r = (Err e, (cx w y, s))
    | CP => exists z, r = (Panic, z)
    end.
  Definition cbounds (w : text) (i : nat) (o : cout ST) : Prop :=
    match o with CV _ j _ | CE _ j _ => sk w i <= sk w j /\ j <= length w | CP => True end.
  Definition lagrees (w : text) (acc : list val) (r : res (list val) * (ctx * ST)) (l : lout ST) : Prop :=
    match l with
    | LV vs j s => exists y, same w j y /\ r = (Ok (acc ++ vs), (cx w y, s))
    | LP => exists z, r = (Panic, z)
    end.
  Definition lbounds (w : text) (i : nat) (l : lout ST) : Prop :=
    match l with LV _ j _ => sk w i <= sk w j /\ j <= length w | LP => True end.

  Definition evC (w : text) (p : pat) (i : nat) (s : ST) (o : cout ST) : Prop :=
    con_ok p -> i <= length w ->
    cbounds w i o /\ eventually (fun m => forall held x, same w i x -> agrees w (construct m G held pols p (cx w x, s)) o).
  Definition evReps (w : text) (p : pat) (lim : option nat) (i : nat) (s : ST) (l : lout ST) : Prop :=
    con_ok p -> i <= length w -> lbounds w i l /\
    (exists N, forall m fuel held x more lim0 acc, N <= m -> N <= fuel -> same w i x -> (forall c, more c = lim_more lim0 c) ->
       lim = lim_sub lim0 (length acc) ->
       lagrees w acc (repeat_vals (construct m G held pols p) fuel more acc (cx w x, s)) l) /\
    (exists N, forall m fuel held x n acc, N <= m -> N <= fuel -> same w i x -> length acc <= n -> lim = Some (Datatypes.S n - length acc) ->
       lagrees w acc (repeat2_vals (construct m G held pols p) fuel n acc (cx w x, s)) (capacity (n - length acc) l)).
  Definition evSeps (w : text) (p q : pat) (skip : bool) (lim : option nat) (i : nat) (s : ST) (l : lout ST) : Prop :=
    con_ok p -> core q -> i <= length w -> lbounds w i l /\
    (lim = None -> exists N, forall m fuel held x acc, N <= m -> N <= fuel -> same w i x ->
       lagrees w acc (sep_vals (construct m G held pols p) (ctm m held q) fuel skip acc (cx w x, s)) l) /\
    (exists N, forall m fuel held x n acc, N <= m -> N <= fuel -> same w i x -> length acc <= n -> lim = Some (Datatypes.S n - length acc) ->
       lagrees w acc (sep2_vals (construct m G held pols p) (ctm m held q) fuel n skip acc (cx w x, s)) (capacity (n - length acc) l)).
  Definition evPolls (w : text) (p q : pat) (skip en : bool) (i : nat) (s : ST) (l : lout ST) : Prop :=
    con_ok p -> core q -> i <= length w -> lbounds w i l /\
    (exists N, forall m fuel held x acc, N <= m -> N <= fuel -> same w i x ->
       lagrees w acc (sepcollect_vals (construct m G held pols p) (ctm m held q) fuel skip en acc (cx w x, s)) l).
  Definition evFirst (w : text) (e : error) (ps : list (pat * (val -> val))) (i : nat) (s : ST) (o : cout ST) : Prop :=
    (forall p, In p ps -> con_ok (fst p)) -> i <= length w -> cbounds w i o /\
    eventually (fun m => forall held x, same w i x -> agrees w (con_choice (construct m G held pols) (bo w x) e ps (cx w x, s)) o).
  Definition evLongest (w : text) (e : error) (ps : list (pat * (val -> val))) (i : nat) (best : option val) (en cur : nat) (s : ST) (o : cout ST) : Prop :=
    skips_nothing sk ->
    (forall p, In p ps -> con_ok (fst p)) -> i <= length w -> i <= en -> en <= length w -> i <= cur -> cur <= length w ->
    cbounds w i o /\
    eventually (fun m => forall held, agrees w (con_choice_ltm (construct m G held pols) (bo w i) e best (bo w en) ps (cx w cur, s)) o).

  Definition pgood (w : text) (p : pat) (i : nat) (o : out) (m : nat) : Prop := forall held x (s : ST), same w i x ->
    match o with
    | OK b j => exists y, same w j y /\ ctm m held p (cx w x, s) = (Ok (sp w b j), (cx w y, s))
    | KO e => exists y, same w i y /\ ctm m held p (cx w x, s) = (Err e, (cx w y, s))
    end.

  Lemma peg_ev w p i o : Peg w p (sk w i) o -> core p -> i <= length w ->
    match o with OK b j => b <= j /\ sk w i <= sk w j /\ j <= length w | KO _ => True end /\ eventually (pgood w p i o).
  Proof.
    intros P C Hi. pose proof (sk_up sk SK w i Hi) as [U1 U2].
    destruct (peg_complete k G sk pols SK CEnv IM w p (sk w i) o P C U2 (sk_idem sk SK w i Hi)) as [B [n V]].
    split. { destruct o; [|exact I]. cbn in B. split; [lia|]. split; [apply (sk_below sk SK); lia|lia]. }
    exists n. intros m Hm held x s (E & _ & Hx). destruct (V m Hm) as [_ T].
    specialize (T held x Hx (eq_sym E)). unfold Ctor.ctm, on_ctx. cbn [fst snd]. destruct o as [b j|e].
    - destruct T as (y & X1 & X2 & ->). cbn in B. exists y. split; [|reflexivity].
      pose proof (sk_up sk SK w j ltac:(lia)). repeat split; try lia. symmetry. apply (proj2 SK); lia.
    - rewrite T. exists (sk w i). split; [|reflexivity]. apply (same_sk sk SK). now apply same_refl.
  Qed.

  Lemma agrees_settle w j y r s : r <> OOF -> same w j y -> agrees w (r, (cx w y, s)) (settle j (r, s)).
  Proof. intros N E. destruct r; cbn; eauto. congruence. Qed.
  Lemma cb_settle w i j r : sk w i <= sk w j -> j <= length w -> cbounds w i (settle j r).
  Proof. destruct r as [[]]; cbn; auto. Qed.
  Lemma cb_undo w i o : i <= length w -> cbounds w i o -> cbounds w i (undo i o).
  Proof. destruct o; cbn; auto; lia. Qed.

  Ltac cstep := cbv beta iota zeta delta
    [bind catch ret fail panic oof lift reads offset set_offset get_off put_off ctx_offset pair_offset
     with_guard g_new g_beg g_on g_try g_drop g_ctx g_offset g_reset on_err_reset accept fst snd].

  Lemma via_leaf w p q i s o : core p -> i <= length w -> Peg w p (sk w i) o ->
    (forall m held z, construct (Datatypes.S m) G held pols q z = (s <- ctm m held p ;; invoke h s) z) ->
    cbounds w i (match o with OK b j => settle j (hv w b j s) | KO e => CE e i s end) /\
    eventually (fun m => forall held x, same w i x ->
      agrees w (construct m G held pols q (cx w x, s)) (match o with OK b j => settle j (hv w b j s) | KO e => CE e i s end)).
  Proof.
    intros C Hi P H. destruct (peg_ev w p i o P C Hi) as [B V]. split.
    - destruct o as [b j|e]; [apply cb_settle; lia|cbn; auto].
    - eapply ev_next; [exact V|]. intros m E held x Sx. rewrite H. unfold bind. specialize (E held x s Sx). destruct o as [b j|e].
      + destruct E as (y & Sy & ->). destruct (invoke_c k sk hv h HA w y b j s) as (-> & N); [lia|exact Sy|].
        rewrite (surjective_pairing (hv w b j s)) at 3. now apply agrees_settle.
      + destruct E as (y & Sy & ->). cbn. eauto.
  Qed.

  (** Turn all that is known about the parts into facts at one amount of fuel. *)
  Ltac parts := repeat match goal with
    | H : Peg ?w ?p (sk ?w ?i) ?o |- _ =>
        let B := fresh "B" in let V := fresh "V" in
        destruct (peg_ev w p i o H ltac:(assumption) ltac:(lia)) as [B V]; clear H; cbn iota in B
    | H : evC ?w ?p ?i ?s ?o |- _ =>
        let B := fresh "B" in let V := fresh "V" in
        destruct (H ltac:(assumption) ltac:(lia)) as [B V]; clear H; cbn [cbounds] in B
    end.
  Ltac evs := repeat match goal with
    | H : eventually _, K : eventually _ |- _ => let E := fresh "E" in pose proof (ev_both _ _ H K) as E; clear H K
    end.
  Ltac conj := repeat match goal with H : _ /\ _ |- _ => lazymatch type of H with same _ _ _ => fail | _ => destruct H end end.
  (** Run the parts where they occur. *)
  Ltac run1 m := match goal with
    | V : forall held x, same ?w ?i x -> agrees ?w (construct m G held pols ?p (cx ?w x, ?s)) ?o, Q : same ?w ?i ?x
        |- context [construct m G ?hl pols ?p (cx ?w ?x, ?s)] =>
        let y := fresh "y" in let Y := fresh "Y" in let E := fresh "E" in
        first [destruct (V hl x Q) as (y & Y & E) | destruct (V hl x Q) as (y & E)]; rewrite E; clear E; cstep
    | V : pgood ?w ?p ?i _ m, Q : same ?w ?i ?x |- context [ctm m ?hl ?p (cx ?w ?x, ?s)] =>
        let y := fresh "y" in let Y := fresh "Y" in let E := fresh "E" in
        destruct (V hl x s Q) as (y & Y & E); rewrite E; clear E; cstep
    end.
  Ltac runs m := repeat (rewrite ?put_a, ?put_b; run1 m).
  Ltac done := cbn; rewrite ?put_a, ?put_b; eauto.
  Ltac solve_rule :=
    match goal with |- _ /\ eventually _ => idtac end;
    parts; split; [cbn; lia|]; evs;
    match goal with V : eventually _ |- _ => eapply ev_next; [exact V|]; clear V end;
    let m := fresh "m" in let H := fresh "H" in let Q := fresh "Q" in
    intros m H ? ? Q; cbv beta in H; conj; cbn [Ctor.construct construct_step]; cstep; runs m; done.

  (** [o] is an error or a panic. *)
  Ltac stopper := match goal with K : stops ?o |- _ => destruct o; [elim K| |]; clear K; cbn [undo] end.

  Ltac ok_inv := match goal with C : con_ok _ |- _ => inversion C; subst; clear C; try (match goal with L : leafy _ |- _ => elim L end) end.

  Lemma cap_cons n v (l : lout ST) : capacity (Datatypes.S n) (lcons v l) = lcons v (capacity n l).
  Proof. destruct l as [vs x s|]; [|reflexivity]. cbn [lcons capacity length]. cbn [Nat.leb]. now destruct (length vs <=? n). Qed.
  Lemma lagrees_cons w acc v l r : lagrees w (acc ++ [v]) r l -> lagrees w acc r (lcons v l).
  Proof. destruct l as [vs j s|]; cbn; [|auto]. rewrite <- app_assoc. auto. Qed.
  Lemma lb_cons w i j v l : sk w i <= sk w j -> lbounds w j l -> lbounds w i (lcons v l).
  Proof. destruct l; cbn; auto. lia. Qed.

  Lemma ev_step (P : nat -> Prop) : eventually P -> eventually (fun m => P (Datatypes.S m)).
  Proof. intros [n H]. exists n. intros m Hm. apply H. lia. Qed.
  Lemma more_nz lim0 a : lim_sub lim0 a <> Some 0 -> lim_more lim0 a = true.
  Proof. destruct lim0 as [n|]; [|reflexivity]. cbn. intros H. apply Nat.ltb_lt. destruct (Nat.lt_ge_cases a n); auto. elim H. f_equal. lia. Qed.
  Lemma forward_in w i j : forward k i w (cx w j) -> j <= length w -> i <= j.
  Proof. intros (x & E & H1 & H2) Hj. injection E as E. apply (bo_inj k) in E; auto. lia. Qed.

  (** A closure called at a position that is the same up to skipping. *)
  Lemma steady_run {A} (g : ctx -> res A * ctx) w i x r j : steady k sk g -> same w i x ->
    g (cx w i) = (r, cx w j) -> j <= length w -> r <> Panic ->
    sk w i <= sk w j /\ exists j', same w j j' /\ g (cx w x) = (r, cx w j').
  Proof.
    intros [F1 F2] Q E Hj N. destruct (F1 w i (same_l _ _ _ _ Q)) as [_ F3]. destruct (F1 w x (same_r _ _ _ _ Q)) as [_ F3'].
    destruct (F2 w i x Q) as [F4 F5]. rewrite E in *. destruct (g (cx w x)) as [r' c'] eqn:E'. cbn [fst snd] in *. subst r'.
    destruct F3 as [F3|F3]; [congruence|]. destruct F3' as [F3'|(j' & -> & B1 & B2)]; [congruence|].
    split; [apply (sk_mono sk SK); [now apply (forward_in w)|auto]|]. exists j'. split; [now apply F5|reflexivity].
  Qed.
  Lemma steady_panic {A} (g : ctx -> res A * ctx) w i x c : steady k sk g -> same w i x ->
    g (cx w i) = (Panic, c) -> exists c', g (cx w x) = (Panic, c').
  Proof.
    intros [_ F2] Q E. destruct (F2 w i x Q) as [F4 _]. rewrite E in F4. destruct (g (cx w x)) as [r' c']. cbn in F4. subst r'. eauto.
  Qed.

  Lemma loop_done w i x l good e f (r : res (list val) * (ctx * ST)) : lagrees w [] r l -> same w i x ->
    agrees w (match r with
              | (Ok l, x') => accept (good l) e (bo w x) (f l) x'
              | (Err e, x) => (Err e, x)
              | (Panic, x) => (Panic, x)
              | (OOF, x) => (OOF, x)
              end) (count_ok good e i f l).
  Proof.
    intros A Hi. destruct l as [vs j s|]; cbn in A.
    - destruct A as (y & Y & ->). cbn [app]. rewrite count_LV. unfold accept. destruct (good vs).
      + unfold ret; cbn; eauto.
      + unfold bind, set_offset, fail. cbn [put_off pair_offset fst snd ctx_offset].
        change (Ctx (c_kind (cx w y)) (c_dat (cx w y)) (bo w x)) with (cx w x). cbn. eauto.
    - destruct A as [z ->]. cbn. eauto.
  Qed.
  Lemma lb_cap w i n l : lbounds w i l -> lbounds w i (capacity n l).
  Proof. destruct l as [vs j s|]; [|auto]. cbn [capacity]. destruct (length vs <=? n); cbn; auto. Qed.

  Lemma count_cb w i good e f l : i <= length w -> lbounds w i l -> cbounds w i (count_ok good e i f l).
  Proof. intros Hi B. destruct l as [vs j s|]; cbn; auto. destruct (good vs); cbn; auto. Qed.


  Lemma complete_con :
    (forall w p i s o, Con w p i s o -> evC w p i s o) /\
    (forall w p lim i s l, Creps k G sk hv w p lim i s l -> evReps w p lim i s l) /\
    (forall w p q skip lim i s l, Cseps k G sk hv w p q skip lim i s l -> evSeps w p q skip lim i s l) /\
    (forall w p q skip en i s l, Cpolls k G sk hv w p q skip en i s l -> evPolls w p q skip en i s l) /\
    (forall w e ps i s o, Cfirst k G sk hv w e ps i s o -> evFirst w e ps i s o) /\
    (forall w e ps i best en cur s o, Clongest k G sk hv w e ps i best en cur s o -> evLongest w e ps i best en cur s o).
  Proof.
    apply Con_mutind; intros.
    - (* leaf *) intros C Hi. inversion C; subst; try contradiction.
      apply (via_leaf w p p i s (OK b j)); auto. intros m held z. destruct p; try contradiction; reflexivity.
    - intros C Hi. inversion C; subst; try contradiction.
      apply (via_leaf w p p i s (KO e)); auto. intros m held z. destruct p; try contradiction; reflexivity.
    - intros C Hi. ok_inv. apply (via_leaf w p (PPat p) i s (OK b j)); auto.
    - intros C Hi. ok_inv. apply (via_leaf w p (PPat p) i s (KO e)); auto.
    - intros C Hi. ok_inv. clear H. stopper; solve_rule.
    - intros C Hi. ok_inv. clear H H1. stopper; solve_rule.
    - intros C Hi. ok_inv. clear H H1. solve_rule.
    - (* if_then *) intros C Hi. ok_inv. clear H. stopper; solve_rule.
    - intros C Hi. ok_inv. clear H. solve_rule.
    - intros C Hi. ok_inv. clear H H2. stopper; solve_rule.
    - intros C Hi. ok_inv. clear H H2. solve_rule.
    - (* or *) intros C Hi. ok_inv. clear H. solve_rule.
    - intros C Hi. ok_inv. clear H. solve_rule.
    - intros C Hi. ok_inv. clear H H1. destruct o; cbn [undo]; solve_rule.
    - (* longest *) intros C Hi. ok_inv. clear H. solve_rule.
    - intros C Hi. ok_inv. clear H H1. rename H7 into N. destruct o as [v' j' s2|e' j' s2|]; cbn [longer]; [|solve_rule..].
      parts. split; [destruct (j' <=? j); cbn; lia|]. evs.
      match goal with V : eventually _ |- _ => eapply ev_next; [exact V|]; clear V end.
      intros m H held x Q; cbv beta in H; conj; cbn [Ctor.construct construct_step]; cstep; runs m.
      pose proof (plain_pos sk w j y N Y). subst y. pose proof (plain_pos sk w j' y0 N Y0). subst y0.
      rewrite !(off_cx k), (bo_leb k) by lia. destruct (j' <=? j); rewrite put_a; cbn; eauto.
    - intros C Hi. ok_inv. clear H H1. rename H7 into N. destruct o as [v' j' s2|e' j' s2|]; cbn [longer]; solve_rule.
    - (* prefix *) intros C Hi. ok_inv. solve_rule.
    - intros C Hi. ok_inv. clear H0. destruct o; cbn [undo]; solve_rule.
    - (* suffix *) intros C Hi. ok_inv. clear H. stopper; solve_rule.
    - intros C Hi. ok_inv. clear H. solve_rule.
    - intros C Hi. ok_inv. clear H. solve_rule.
    - (* enclose *) intros C Hi. ok_inv. solve_rule.
    - intros C Hi. ok_inv. clear H0. stopper; solve_rule.
    - intros C Hi. ok_inv. clear H0. solve_rule.
    - intros C Hi. ok_inv. clear H0. solve_rule.
    - (* sep_once *) intros C Hi. ok_inv. clear H. stopper; solve_rule.
    - intros C Hi. ok_inv. clear H. solve_rule.
    - intros C Hi. ok_inv. clear H H2. stopper; solve_rule.
    - intros C Hi. ok_inv. clear H H2. solve_rule.
    - (* sep *) intros C Hi. ok_inv. destruct H0 as (B & L & _); auto. destruct (L eq_refl) as [N V]. split; [now apply count_cb|].
      exists (Datatypes.S N). intros [|m] Hm held x Q; [lia|]. cbn [Ctor.construct construct_step].
      unfold bind at 1, offset. cbn [get_off pair_offset fst ctx_offset]. unfold bind.
      exact (loop_done w i x l (fun vs => mn <=? length vs) ESeparate VList _ (V m m held x [] ltac:(lia) ltac:(lia) Q) Q).
    - (* sep2 *) intros C Hi. ok_inv. destruct H0 as (B & _ & [N V]); auto. split; [apply count_cb; [auto|now apply lb_cap]|].
      exists (Datatypes.S N). intros [|f] Hm held x Q; [lia|]. cbn [Ctor.construct construct_step].
      unfold bind at 1, offset. cbn [get_off pair_offset fst ctx_offset]. unfold bind.
      specialize (V f f held x n [] ltac:(lia) ltac:(lia) Q ltac:(cbn; lia)). cbn [length] in V. rewrite !Nat.sub_0_r in V.
      exact (loop_done w i x (capacity n l) (fun vs => m <=? length vs) ESeparate2 (cells n) _ (V eq_refl) Q).
    - (* sep_collect *) intros C Hi. ok_inv. destruct H0 as (B & [N V]); auto. split; [now apply count_cb|].
      exists (Datatypes.S N). intros [|m] Hm held x Q; [lia|]. cbn [Ctor.construct construct_step].
      unfold bind at 1, offset. cbn [get_off pair_offset fst ctx_offset]. unfold bind.
      exact (loop_done w i x l (fun vs => mn <=? length vs) ESepCollect VList _ (V m m held x [] ltac:(lia) ltac:(lia) Q) Q).
    - (* repeat *) intros C Hi. ok_inv. destruct H0 as (B & [N V] & _); auto. split; [now apply count_cb|].
      exists (Datatypes.S N). intros [|m] Hm held x Q; [lia|]. cbn [Ctor.construct construct_step].
      unfold bind at 1, offset. cbn [get_off pair_offset fst ctx_offset]. unfold bind.
      assert (ML : forall c, repeat_more r c = lim_more (limit_of r) c)
        by (intros; unfold repeat_more, limit_of; destruct (r_hi r); reflexivity).
      specialize (V m m held x _ _ [] ltac:(lia) ltac:(lia) Q ML). cbn [length] in V. rewrite lim_sub_0 in V.
      exact (loop_done w i x l (fun vs => crange_contains r (length vs)) ERepeat VList _ (V eq_refl) Q).
    - (* repeat2 *) intros C Hi. ok_inv. destruct H0 as (B & _ & [N V]); auto. split; [apply count_cb; [auto|now apply lb_cap]|].
      exists (Datatypes.S N). intros [|f] Hm held x Q; [lia|]. cbn [Ctor.construct construct_step].
      unfold bind at 1, offset. cbn [get_off pair_offset fst ctx_offset]. unfold bind.
      specialize (V f f held x n [] ltac:(lia) ltac:(lia) Q ltac:(cbn; lia)). cbn [length] in V. rewrite !Nat.sub_0_r in V.
      pose proof (loop_done w i x (capacity n l) (fun vs => (m <=? length vs) && (length vs <=? n)) ERepeat2 (cells n) _ (V eq_refl) Q) as D.
      replace (count_ok (fun vs => m <=? length vs) ERepeat2 i (cells n) (capacity n l)) with
              (count_ok (fun vs => (m <=? length vs) && (length vs <=? n)) ERepeat2 i (cells n) (capacity n l)); [exact D|].
      destruct l as [vs j s'|]; [|reflexivity]. cbn [capacity]. destruct (length vs <=? n) eqn:E; [|reflexivity]. cbn [count_ok]. now rewrite E, andb_true_r.
    - (* collect *) intros C Hi. ok_inv. destruct H0 as (B & [N V] & _); auto. split; [now apply count_cb|].
      exists (Datatypes.S N). intros [|m] Hm held x Q; [lia|]. cbn [Ctor.construct construct_step].
      unfold bind at 1, offset. cbn [get_off pair_offset fst ctx_offset]. unfold bind.
      specialize (V m m held x (fun _ => true) None [] ltac:(lia) ltac:(lia) Q (fun _ => eq_refl)). cbn [length] in V. rewrite lim_sub_0 in V.
      exact (loop_done w i x l (fun vs => mn <=? length vs) ECollect VList _ (V eq_refl) Q).
    - (* option *) intros C Hi. ok_inv. clear H. solve_rule.
    - intros C Hi. ok_inv. clear H. solve_rule.
    - intros C Hi. ok_inv. clear H. solve_rule.
    - (* branch *) intros C Hi. ok_inv. clear H0. assert (Cb : con_ok (if b then p else q)) by (destruct b; auto).
      destruct (H1 Cb Hi) as [B V]. split; [apply cb_undo; auto|]. eapply ev_next; [exact V|]. intros m E held x Q.
      cbn [Ctor.construct construct_step]. cstep.
      match goal with T : forall w i x, _ -> t _ = t _ |- _ => rewrite <- (T w i x Q) end. rewrite H.
      replace ((if b then construct m G held pols p else construct m G held pols q) (cx w x, s))
        with (construct m G held pols (if b then p else q) (cx w x, s)) by (destruct b; reflexivity).
      specialize (E held x Q). destruct o; [destruct E as (y & Y & E)..|destruct E as (y & E)]; rewrite E; done.
    - intros C Hi. ok_inv. split; [cbn; lia|]. apply ev_true. intros m held x Q. cbn [Ctor.construct construct_step]. cstep.
      match goal with T : forall w i x, _ -> t _ = t _ |- _ => rewrite <- (T w i x Q) end. rewrite H. cbn. eauto.
    - intros C Hi. ok_inv. split; [exact I|]. apply ev_true. intros m held x Q. cbn [Ctor.construct construct_step]. cstep.
      match goal with T : forall w i x, _ -> t _ = t _ |- _ => rewrite <- (T w i x Q) end. rewrite H. cbn. eauto.
    - (* map *) intros C Hi. ok_inv. clear H. parts. split; [apply cb_settle; lia|].
      eapply ev_next; [exact V|]. intros m E held x Q. cbv beta in E. cbn [Ctor.construct construct_step]. cstep. runs m. apply agrees_settle; auto.
    - intros C Hi. ok_inv. clear H. stopper; solve_rule.
    - (* dynamic *) intros C Hi. ok_inv. clear H. stopper; solve_rule.
    - intros C Hi. ok_inv. clear H. parts. rename H1 into Ef.
      match goal with D : forall a, steady k sk _ |- _ => rename D into DS end.
      assert (Hj : j <= length w) by lia; destruct (steady_run _ w j j _ _ (DS a) (same_refl sk w j Hj) Ef ltac:(auto) ltac:(discriminate)) as [J _].
      split; [cbn; lia|]. eapply ev_next; [exact V|]. intros m E held x Q. cbv beta in E. cbn [Ctor.construct construct_step]. unfold on_ctx. cstep. runs m.
      destruct (steady_run _ w j y _ _ (DS a) Y Ef ltac:(auto) ltac:(discriminate)) as [_ (j2 & Y2 & E2)]. cbv beta in E2. rewrite E2. done.
    - intros C Hi. ok_inv. clear H. parts. rename H1 into Ef.
      match goal with D : forall a, steady k sk _ |- _ => rename D into DS end.
      split; [exact I|]. eapply ev_next; [exact V|]. intros m E held x Q. cbv beta in E. cbn [Ctor.construct construct_step]. unfold on_ctx. cstep. runs m.
      destruct (steady_panic _ w j y _ (DS a) Y Ef) as [c' E2]. rewrite E2. done.
    - intros C Hi. ok_inv. clear H H3. rename H1 into Ef.
      match goal with D : forall a, steady k sk _ |- _ => rename D into DS end.
      match goal with K : evC w p i _ _ |- _ => destruct (K ltac:(assumption) Hi) as [B V]; clear K end. cbn [cbounds] in B.
      assert (Hj : j <= length w) by lia; destruct (steady_run _ w j j _ _ (DS a) (same_refl sk w j Hj) Ef ltac:(auto) ltac:(discriminate)) as [J _].
      assert (Cq : con_ok q) by (match goal with Q : forall w i a q, _ |- _ => apply (Q w j a q); [lia|now rewrite Ef] end).
      match goal with K : evC w q j' _ _ |- _ => destruct (K Cq ltac:(auto)) as [B' V']; clear K end.
      stopper; (split; [cbn; auto; lia|]); evs;
      match goal with V : eventually _ |- _ => eapply ev_next; [exact V|]; clear V end;
      intros m H held x Q; cbv beta in H; conj; cbn [Ctor.construct construct_step]; unfold on_ctx; cstep; run1 m;
      (destruct (steady_run _ w j y _ _ (DS a) Y Ef ltac:(auto) ltac:(discriminate)) as [_ (j2 & Y2 & E2)]; cbv beta in E2; rewrite E2; runs m; done).
    - intros C Hi. ok_inv. clear H H3. rename H1 into Ef.
      match goal with D : forall a, steady k sk _ |- _ => rename D into DS end.
      match goal with K : evC w p i _ _ |- _ => destruct (K ltac:(assumption) Hi) as [B V]; clear K end. cbn [cbounds] in B.
      assert (Hj : j <= length w) by lia; destruct (steady_run _ w j j _ _ (DS a) (same_refl sk w j Hj) Ef ltac:(auto) ltac:(discriminate)) as [J _].
      assert (Cq : con_ok q) by (match goal with Q : forall w i a q, _ |- _ => apply (Q w j a q); [lia|now rewrite Ef] end).
      match goal with K : evC w q j' _ _ |- _ => destruct (K Cq ltac:(auto)) as [B' V']; clear K end. cbn [cbounds] in B'.
      split; [cbn; lia|]. evs.
      match goal with V : eventually _ |- _ => eapply ev_next; [exact V|]; clear V end.
      intros m H held x Q; cbv beta in H; conj; cbn [Ctor.construct construct_step]; unfold on_ctx; cstep; run1 m.
      destruct (steady_run _ w j y _ _ (DS a) Y Ef ltac:(auto) ltac:(discriminate)) as [_ (j3 & Y2 & E2)]; cbv beta in E2; rewrite E2; runs m; done.
    - (* closure *) intros C Hi. ok_inv. match goal with D : steady k sk f |- _ => rename D into DS end.
      destruct (steady_run _ w i i _ _ DS (same_refl sk w i Hi) H H0 H1) as [J _]. pose proof (proj1 (proj1 DS w i Hi)) as N. rewrite H in N. cbn in N.
      split; [apply cb_settle; lia|]. apply ev_true. intros m held x Q.
      destruct (steady_run _ w i x _ _ DS Q H H0 H1) as [_ (j2 & Y2 & E2)].
      cbn [Ctor.construct construct_step]. unfold on_ctx. cbn [fst snd]. rewrite E2. now apply agrees_settle.
    - intros C Hi. ok_inv. match goal with D : steady k sk f |- _ => rename D into DS end.
      split; [exact I|]. apply ev_true. intros m held x Q. destruct (steady_panic _ w i x _ DS Q H) as [c' E2].
      cbn [Ctor.construct construct_step]. unfold on_ctx. cbn [fst snd]. rewrite E2. cbn. eauto.
    - (* choices *) intros C Hi. ok_inv. destruct H0 as [B V]; [now apply plain_ok|auto|]. split; [auto|]. eapply ev_next; [exact V|]. intros m E held x Q. exact (E held x Q).
    - intros C Hi. ok_inv. match goal with N : true = true -> _ |- _ => specialize (N eq_refl); rename N into SN end.
      destruct H0 as [B V]; [auto|now apply plain_ok|auto..|]. split; [auto|]. eapply ev_next; [exact V|]. intros m E held x Q.
      pose proof (plain_pos sk w i x SN Q). subst x. exact (E held).
    - intros C Hi. ok_inv. destruct H0 as [B V]; [now apply keyed_ok|auto|]. split; [auto|]. eapply ev_next; [exact V|]. intros m E held x Q. exact (E held x Q).
    - intros C Hi. ok_inv. match goal with N : true = true -> _ |- _ => specialize (N eq_refl); rename N into SN end.
      destruct H0 as [B V]; [auto|now apply keyed_ok|auto..|]. split; [auto|]. eapply ev_next; [exact V|]. intros m E held x Q.
      pose proof (plain_pos sk w i x SN Q). subst x. exact (E held).
    - (* wrap *) intros C Hi. ok_inv. destruct H0 as [B V]; auto. split; [auto|]. eapply ev_next; [exact V|]. intros m E held x Q. exact (E held x Q).
    - intros C Hi. split; [cbn; lia|]. apply ev_true. intros m held x Q. cbn. unfold fail, ret. eauto.
    - (* ref *) intros C Hi. destruct H1 as [B V]; [eapply OE; eauto|auto|]. split; [auto|]. eapply ev_next; [exact V|]. intros m E held y Q.
      cbn [Ctor.construct construct_step]. rewrite H. exact (E held y Q).
    - intros C Hi. split; [cbn; lia|]. apply ev_true. intros m held y Q. cbn [Ctor.construct construct_step]. rewrite H. cbn. unfold fail, ret. eauto.
    - (* repetitions *) intros C Hi. split; [cbn; lia|]. split.
      + exists 1. intros m [|fuel] held x more lim0 acc Hm Hf Q ML El; [lia|]. cbn [repeat_vals]. rewrite ML.
        destruct lim0 as [n|]; [|discriminate]. cbn [lim_sub lim_more] in *. injection El as El. destruct (Nat.ltb_spec (length acc) n); [lia|].
        exists x. now rewrite app_nil_r.
      + exists 1. intros m [|fuel] held x n acc Hm Hf Q Ha El; [lia|]. assert (0 = Datatypes.S n - length acc) by congruence. lia.
    - intros C Hi. clear H0. parts. destruct V as [N V]. split; [cbn; lia|]. split.
      + exists (Datatypes.S N). intros m [|fuel] held y more lim0 acc Hm Hf Q ML El; [lia|]. cbn [repeat_vals]. rewrite ML, (more_nz lim0 (length acc)) by congruence.
        destruct (V m ltac:(lia) held y Q) as (y' & Y & E). unfold bind, catch. rewrite E. exists y'. now rewrite app_nil_r.
      + exists (Datatypes.S N). intros m [|fuel] held y n acc Hm Hf Q Ha El; [lia|]. cbn [repeat2_vals]. destruct (Nat.leb_spec (length acc) n); [|lia].
        destruct (V m ltac:(lia) held y Q) as (y' & Y & E). unfold bind, catch. rewrite E. exists y'. now rewrite app_nil_r.
    - intros C Hi. clear H0. parts. destruct V as [N V]. split; [exact I|]. split.
      + exists (Datatypes.S N). intros m [|fuel] held x more lim0 acc Hm Hf Q ML El; [lia|]. cbn [repeat_vals]. rewrite ML, (more_nz lim0 (length acc)) by congruence.
        destruct (V m ltac:(lia) held x Q) as [z E]. unfold bind, catch. rewrite E. now exists z.
      + exists (Datatypes.S N). intros m [|fuel] held x n acc Hm Hf Q Ha El; [lia|]. cbn [repeat2_vals]. destruct (Nat.leb_spec (length acc) n); [|lia].
        destruct (V m ltac:(lia) held x Q) as [z E]. unfold bind, catch. rewrite E. now exists z.
    - intros C Hi. clear H0. destruct (H1 C Hi) as [B [N V]]. cbn [cbounds] in B. destruct (H3 C ltac:(lia)) as (B' & [N1 V1] & [N2 V2]).
      split; [eapply lb_cons; [|eauto]; lia|]. split.
      + exists (Datatypes.S (N + N1)). intros m [|fuel] held x more lim0 acc Hm Hf Q ML El; [lia|]. cbn [repeat_vals]. rewrite ML, (more_nz lim0 (length acc)) by congruence.
        destruct (V m ltac:(lia) held x Q) as (y & Y & E). unfold bind, catch. rewrite E. apply lagrees_cons. apply (V1 m fuel held y more lim0); [lia|lia|auto|auto|].
        rewrite El, app_length. cbn [length]. destruct lim0 as [n|]; [|reflexivity]. cbv [limit_pred option_map lim_sub]. f_equal. lia.
      + exists (Datatypes.S (N + N2 + 1)). intros m [|fuel] held x n acc Hm Hf Q Ha El; [lia|]. cbn [repeat2_vals]. destruct (Nat.leb_spec (length acc) n); [|lia].
        destruct (V m ltac:(lia) held x Q) as (y & Y & E). unfold bind, catch. rewrite E. destruct (Nat.ltb_spec (length acc) n).
        * replace (n - length acc) with (Datatypes.S (n - length (acc ++ [v]))) by (rewrite app_length; cbn [length]; lia). rewrite cap_cons. apply lagrees_cons.
          apply V2; [lia|lia|auto|rewrite app_length; cbn [length]; lia|]. rewrite El, app_length. cbn [length]. cbv [limit_pred option_map]. f_equal. lia.
        * assert (n = length acc) by lia. subst n. assert (El' : lim = Some 1) by (rewrite El; f_equal; lia). rewrite El' in H2. inversion H2; subst.
          -- rewrite Nat.sub_diag. cbn. eexists. reflexivity.
          -- cbn in *. congruence.
          -- cbn in *. congruence.
          -- cbn in *. congruence.
    - (* separated *) intros C Cs Hi. split; [cbn; lia|]. split; [discriminate|].
      exists 1. intros m [|fuel] held x n acc Hm Hf Q Ha El; [lia|]. assert (0 = Datatypes.S n - length acc) by congruence. lia.
    - intros C Cs Hi. clear H0. parts. destruct V as [N V]. split; [cbn; lia|]. split.
      + intros _. exists (Datatypes.S N). intros m [|fuel] held y acc Hm Hf Q; [lia|]. cbn [sep_vals].
        destruct (V m ltac:(lia) held y Q) as (y' & Y & E). unfold bind, catch. rewrite E. exists y'. now rewrite app_nil_r.
      + exists (Datatypes.S N). intros m [|fuel] held y n acc Hm Hf Q Ha El; [lia|]. cbn [sep2_vals]. destruct (Nat.leb_spec (length acc) n); [|lia].
        destruct (V m ltac:(lia) held y Q) as (y' & Y & E). unfold bind, catch. rewrite E. exists y'. now rewrite app_nil_r.
    - intros C Cs Hi. clear H0. parts. destruct V as [N V]. split; [exact I|]. split.
      + intros _. exists (Datatypes.S N). intros m [|fuel] held x acc Hm Hf Q; [lia|]. cbn [sep_vals].
        destruct (V m ltac:(lia) held x Q) as [z E]. unfold bind, catch. rewrite E. now exists z.
      + exists (Datatypes.S N). intros m [|fuel] held x n acc Hm Hf Q Ha El; [lia|]. cbn [sep2_vals]. destruct (Nat.leb_spec (length acc) n); [|lia].
        destruct (V m ltac:(lia) held x Q) as [z E]. unfold bind, catch. rewrite E. now exists z.
    - intros C Cs Hi. clear H0. destruct (H1 C Hi) as [B [N V]]. cbn [cbounds] in B.
      destruct (peg_ev w q j _ H2 Cs ltac:(lia)) as [_ [N1 V1]]. split; [cbn; lia|]. split.
      + intros _. exists (Datatypes.S (N + N1)). intros m [|fuel] held x acc Hm Hf Q; [lia|]. cbn [sep_vals].
        destruct (V m ltac:(lia) held x Q) as (y & Y & E). destruct (V1 m ltac:(lia) held y s1 Y) as (y1 & Y1 & E1). unfold bind, catch. rewrite E, E1.
        exists y1. split; [exact Y1|]. destruct skip; [reflexivity|now rewrite app_nil_r].
      + exists (Datatypes.S (N + N1)). intros m [|fuel] held x n acc Hm Hf Q Ha El; [lia|]. cbn [sep2_vals]. destruct (Nat.leb_spec (length acc) n); [|lia].
        destruct (V m ltac:(lia) held x Q) as (y & Y & E). destruct (V1 m ltac:(lia) held y s1 Y) as (y1 & Y1 & E1). unfold bind, catch. rewrite E, E1. destruct skip.
        * cbn [capacity length]. destruct (Nat.ltb_spec (length acc) n); destruct (Nat.leb_spec 1 (n - length acc)); try lia; [exists y1; auto|cbn; eexists; reflexivity].
        * cbn [capacity length Nat.leb]. exists y1. now rewrite app_nil_r.
    - intros C Cs Hi. clear H0. destruct (H1 C Hi) as [B [N V]]. cbn [cbounds] in B.
      destruct (peg_ev w q j _ H2 Cs ltac:(lia)) as [B1 [N1 V1]]. destruct (H4 C Cs ltac:(lia)) as (B' & K & [N2 V2]).
      split; [eapply lb_cons; [|eauto]; lia|]. split.
      + intros ->. destruct (K eq_refl) as [N3 V3]. exists (Datatypes.S (N + N1 + N3)). intros m [|fuel] held x acc Hm Hf Q; [lia|]. cbn [sep_vals].
        destruct (V m ltac:(lia) held x Q) as (y & Y & E). destruct (V1 m ltac:(lia) held y s1 Y) as (y1 & Y1 & E1). unfold bind, catch. rewrite E, E1.
        apply lagrees_cons. apply V3; [lia|lia|auto].
      + exists (Datatypes.S (N + N1 + N2)). intros m [|fuel] held x n acc Hm Hf Q Ha El; [lia|]. cbn [sep2_vals]. destruct (Nat.leb_spec (length acc) n); [|lia].
        destruct (V m ltac:(lia) held x Q) as (y & Y & E). destruct (V1 m ltac:(lia) held y s1 Y) as (y1 & Y1 & E1). unfold bind, catch. rewrite E, E1. destruct (Nat.ltb_spec (length acc) n).
        * replace (n - length acc) with (Datatypes.S (n - length (acc ++ [v]))) by (rewrite app_length; cbn [length]; lia). rewrite cap_cons. apply lagrees_cons.
          apply V2; [lia|lia|auto|rewrite app_length; cbn [length]; lia|]. rewrite El, app_length. cbn [length]. cbv [limit_pred option_map]. f_equal. lia.
        * assert (n = length acc) by lia. subst n. assert (El' : lim = Some 1) by (rewrite El; f_equal; lia). rewrite El' in H3. inversion H3; subst.
          -- rewrite Nat.sub_diag. cbn. eexists. reflexivity.
          -- cbn in *. congruence.
          -- cbn in *. congruence.
          -- cbn in *. congruence.
          -- cbn in *. congruence.
    - (* polls *) intros C Cs Hi. clear H. parts. destruct V as [N V]. split; [cbn; lia|].
      exists (Datatypes.S N). intros m [|fuel] held y acc Hm Hf Q; [lia|]. cbn [sepcollect_vals].
      destruct (V m ltac:(lia) held y Q) as (y' & Y & E). unfold bind, catch. rewrite E. exists y'. now rewrite app_nil_r.
    - intros C Cs Hi. clear H. parts. destruct V as [N V]. split; [exact I|].
      exists (Datatypes.S N). intros m [|fuel] held x acc Hm Hf Q; [lia|]. cbn [sepcollect_vals].
      destruct (V m ltac:(lia) held x Q) as [z E]. unfold bind, catch. rewrite E. now exists z.
    - intros C Cs Hi. clear H. destruct (H0 C Hi) as [B [N V]]. cbn [cbounds] in B. destruct (peg_ev w q j _ H1 Cs ltac:(lia)) as [B1 [N1 V1]].
      split; [cbn; lia|]. exists (Datatypes.S (N + N1)). intros m [|fuel] held x acc Hm Hf Q; [lia|]. cbn [sepcollect_vals].
      destruct (V m ltac:(lia) held x Q) as (y & Y & E). destruct (V1 m ltac:(lia) held y s1 Y) as (y1 & Y1 & E1). unfold bind, catch. rewrite E, E1. exists y1. now rewrite app_nil_r.
    - intros C Cs Hi. clear H. destruct (H0 C Hi) as [B [N V]]. cbn [cbounds] in B. destruct (peg_ev w q j _ H1 Cs ltac:(lia)) as [B1 [N1 V1]].
      split; [cbn; lia|]. exists (Datatypes.S (N + N1)). intros m [|fuel] held x acc Hm Hf Q; [lia|]. cbn [sepcollect_vals].
      destruct (V m ltac:(lia) held x Q) as (y & Y & E). destruct (V1 m ltac:(lia) held y s1 Y) as (y1 & Y1 & E1). unfold bind, catch. rewrite E, E1. exists y1. now rewrite app_nil_r.
    - intros C Cs Hi. clear H. destruct (H0 C Hi) as [B [N V]]. cbn [cbounds] in B. destruct (peg_ev w q j _ H1 Cs ltac:(lia)) as [B1 [N1 V1]].
      destruct (H3 C Cs ltac:(lia)) as (B' & [N2 V2]).
      split; [eapply lb_cons; [|eauto]; lia|]. exists (Datatypes.S (N + N1 + N2)). intros m [|fuel] held x acc Hm Hf Q; [lia|]. cbn [sepcollect_vals].
      destruct (V m ltac:(lia) held x Q) as (y & Y & E). destruct (V1 m ltac:(lia) held y s1 Y) as (y1 & Y1 & E1). unfold bind, catch. rewrite E, E1. cbn [negb orb].
      apply lagrees_cons. apply V2; [lia|lia|auto].
    - intros C Cs Hi. clear H. destruct (H0 C Hi) as [B [N V]]. cbn [cbounds] in B. destruct (peg_ev w q j _ H1 Cs ltac:(lia)) as [B1 [N1 V1]].
      split; [cbn; lia|]. exists (Datatypes.S (N + N1)). intros m [|fuel] held x acc Hm Hf Q; [lia|]. cbn [sepcollect_vals].
      destruct (V m ltac:(lia) held x Q) as (y & Y & E). destruct (V1 m ltac:(lia) held y s1 Y) as (y1 & Y1 & E1). unfold bind, catch. rewrite E, E1. exists y1. now rewrite app_nil_r.
    - intros C Cs Hi. clear H. destruct (H0 C Hi) as [B [N V]]. cbn [cbounds] in B. destruct (peg_ev w q j _ H1 Cs ltac:(lia)) as [B1 [N1 V1]].
      destruct (H3 C Cs ltac:(lia)) as (B' & [N2 V2]).
      split; [eapply lb_cons; [|eauto]; lia|]. exists (Datatypes.S (N + N1 + N2)). intros m [|fuel] held x acc Hm Hf Q; [lia|]. cbn [sepcollect_vals].
      destruct (V m ltac:(lia) held x Q) as (y & Y & E). destruct (V1 m ltac:(lia) held y s1 Y) as (y1 & Y1 & E1). unfold bind, catch. rewrite E, E1. cbn [negb orb].
      apply lagrees_cons. apply V2; [lia|lia|auto].
    - (* first *) intros C Hi. split; [cbn; lia|]. apply ev_true. intros m held x Q. cbn. unfold fail, ret. eauto.
    - intros C Hi. destruct (H0 (C (p, g) (or_introl eq_refl)) Hi) as [B V]. split; [auto|]. eapply ev_next; [exact (ev_step _ V)|]. intros m E held x Q.
      destruct (E held x Q) as (y & Y & E'). cbn [con_choice]. unfold bind, catch, on_err_reset. cbn [fst snd]. rewrite E'. exists y. auto.
    - intros C Hi. destruct (H0 (C (p, g) (or_introl eq_refl)) Hi) as [B V]. split; [auto|]. eapply ev_next; [exact (ev_step _ V)|]. intros m E held x Q.
      destruct (E held x Q) as [z E']. cbn [con_choice]. unfold bind, catch, on_err_reset. cbn [fst snd]. rewrite E'. exists z. reflexivity.
    - intros C Hi. destruct (H0 (C (p, g) (or_introl eq_refl)) Hi) as [B V]. destruct (H2 (fun q I => C q (or_intror I)) Hi) as [B' V']. split; [auto|].
      eapply ev_next; [exact (ev_step _ (ev_both _ _ V V'))|]. intros m [E K] held y Q.
      destruct (E held y Q) as (y1 & Y & E'). cbn [con_choice]. unfold bind, catch, on_err_reset. cbn [fst snd]. rewrite E'.
      cbn [put_off pair_offset fst snd ctx_offset]. rewrite put_a. now apply K.
    - (* longest *) intros SN C Hi L1 L2 L3 L4. split; [cbn; split; [now apply (sk_mono sk SK)|auto]|]. apply ev_true. intros m held. cbn. exists cur. split; [now apply same_refl|reflexivity].
    - intros SN C Hi L1 L2 L3 L4. split; [cbn; split; [now apply (sk_mono sk SK)|auto]|]. apply ev_true. intros m held. cbn. exists cur. split; [now apply same_refl|reflexivity].
    - intros SN C Hi L1 L2 L3 L4. destruct (H0 (C (p, g) (or_introl eq_refl)) Hi) as [B V]. cbn [cbounds] in B. rewrite !SN in B by lia.
      destruct (H3 SN (fun q I => C q (or_intror I)) Hi) as [B' V']; try lia. split; [auto|].
      eapply ev_next; [exact (ev_step _ (ev_both _ _ V V'))|]. intros m [E K] held.
      cbn [con_choice_ltm]. unfold bind, catch, set_offset, offset. cbn [put_off pair_offset fst snd ctx_offset get_off]. rewrite put_a.
      destruct (E held i (same_refl _ _ _ Hi)) as (y & Y & E'). pose proof (plain_pos sk w j y SN Y). subst y.
      rewrite E'. cbn [fst snd]. rewrite (off_cx k), (bo_ltb k) by lia. destruct (Nat.ltb_spec en j); [|lia]. apply K.
    - intros SN C Hi L1 L2 L3 L4. destruct (H0 (C (p, g) (or_introl eq_refl)) Hi) as [B V]. cbn [cbounds] in B. rewrite !SN in B by lia.
      destruct (H3 SN (fun q I => C q (or_intror I)) Hi) as [B' V']; try lia. split; [auto|].
      eapply ev_next; [exact (ev_step _ (ev_both _ _ V V'))|]. intros m [E K] held.
      cbn [con_choice_ltm]. unfold bind, catch, set_offset, offset. cbn [put_off pair_offset fst snd ctx_offset get_off]. rewrite put_a.
      destruct (E held i (same_refl _ _ _ Hi)) as (y & Y & E'). pose proof (plain_pos sk w j y SN Y). subst y.
      rewrite E'. cbn [fst snd]. rewrite (off_cx k), (bo_ltb k) by lia. destruct (Nat.ltb_spec en j); [lia|]. apply K.
    - intros SN C Hi L1 L2 L3 L4. destruct (H0 (C (p, g) (or_introl eq_refl)) Hi) as [B V]. cbn [cbounds] in B. rewrite !SN in B by lia.
      destruct (H2 SN (fun q I => C q (or_intror I)) Hi) as [B' V']; try lia. split; [auto|].
      eapply ev_next; [exact (ev_step _ (ev_both _ _ V V'))|]. intros m [E K] held.
      cbn [con_choice_ltm]. unfold bind, catch, set_offset, offset. cbn [put_off pair_offset fst snd ctx_offset get_off]. rewrite put_a.
      destruct (E held i (same_refl _ _ _ Hi)) as (y & Y & E'). pose proof (plain_pos sk w x y SN Y). subst y. rewrite E'. cbn [fst snd]. apply K.
    - intros SN C Hi L1 L2 L3 L4. destruct (H0 (C (p, g) (or_introl eq_refl)) Hi) as [B V]. split; [auto|].
      eapply ev_next; [exact (ev_step _ V)|]. intros m E held.
      cbn [con_choice_ltm]. unfold bind, catch, set_offset, offset. cbn [put_off pair_offset fst snd ctx_offset get_off]. rewrite put_a.
      destruct (E held i (same_refl _ _ _ Hi)) as [z E']. rewrite E'. exists z. reflexivity.
  Qed.

  Theorem con_complete w p i s o : Con w p i s o -> con_ok p -> i <= length w ->
    cbounds w i o /\ eventually (fun m => forall held x, same w i x -> agrees w (construct m G held pols p (cx w x, s)) o).
  Proof. intros H. now apply complete_con. Qed.

  (** Two outcomes are the same up to what the context skips. *)
  Definition same_out (w : text) (o o' : cout ST) : Prop :=
    match o, o' with
    | CV v j s, CV v' j' s' => v = v' /\ same w j j' /\ s = s'
    | CE e j s, CE e' j' s' => e = e' /\ same w j j' /\ s = s'
    | CP, CP => True
    | _, _ => False
    end.

  Theorem con_det w p i i' s o o' : con_ok p -> same w i i' -> Con w p i s o -> Con w p i' s o' -> same_out w o o'.
  Proof.
    intros C Q H H'. destruct (con_complete _ _ _ _ _ H C (same_l _ _ _ _ Q)) as [B [n V]]. destruct (con_complete _ _ _ _ _ H' C (same_r _ _ _ _ Q)) as [B' [n' V']].
    specialize (V (n + n') ltac:(lia) [] i (same_refl _ _ _ (same_l _ _ _ _ Q))). specialize (V' (n + n') ltac:(lia) [] i (same_sym _ _ _ _ Q)).
    destruct o, o'; cbn in *; try exact I; repeat match goal with E : exists y, _ /\ _ |- _ => destruct E as (? & ? & E) | E : exists y, _ |- _ => destruct E as (? & E) end;
      rewrite V in V'; try discriminate;
      injection V' as E1 E2 E3; apply (bo_inj k) in E2;
      try (match goal with K : same _ _ ?x |- ?x <= _ => apply K end); subst; (split; [reflexivity|split; [|reflexivity]]);
      match goal with K : same _ ?a ?x, K' : same _ ?b ?x |- same _ ?a ?b => destruct K as (? & ? & ?), K' as (? & ? & ?); repeat split; auto; congruence end.
  Qed.
End ConComplete.
