(** Completeness: whatever the specification derives, the model computes with enough fuel. *)

From Coq Require Import List Arith NArith Bool Lia.
From Verif Require Import Base Text Context Neu Syntax Regex TextProofs Spec Units Core Sound.
Import ListNotations.

(** True from some fuel on. *)
Definition eventually (P : nat -> Prop) : Prop := exists n, forall m, n <= m -> P m.

Lemma ev_bounded (P : nat -> nat -> Prop) L :
  (forall y, y <= L -> eventually (P y)) -> eventually (fun m => forall y, y <= L -> P y m).
Proof.
  induction L as [|L IH]; intros H.
  - destruct (H 0) as [n Hn]; [lia|]. exists n. intros m Hm y Hy. replace y with 0 by lia. auto.
  - destruct IH as [n1 H1]; [intros; apply H; lia|]. destruct (H (S L)) as [n2 H2]; [lia|].
    exists (n1 + n2). intros m Hm y Hy. destruct (Nat.eq_dec y (S L)) as [->|]; [apply H2|apply H1]; lia.
Qed.

Section Complete.
  Variable k : kind.
  Variable G : env.
  Variable sk : text -> nat -> nat.
  Variable pols : list pat.
  Hypothesis SK : skipper sk.
  Hypothesis GC : core_env k G sk.
  Hypothesis IM : implements k G sk pols.
  Notation cx := (cx k).
  Notation sp := (sp k).
  Notation bo := (bo k).
  Notation Peg := (Peg k G sk).
  Notation core := (core k G sk).
  Notation core_cond := (core_cond k G sk).

  (** [m] is enough fuel for [p] at the skipped position [i]. *)
  Definition good (m : nat) (w : text) (p : pat) (i : nat) (o : out) : Prop :=
    forall held, match o with
    | OK b j => exists x, j <= x /\ x <= sk w j /\
                  parse m G held pols p (cx w i) = (Ok (sp w b j), cx w x)
    | KO e => parse m G held pols p (cx w i) = (Err e, cx w i)
    end.

  Definition bounds (w : text) (i : nat) (o : out) : Prop :=
    match o with OK b j => i <= b /\ b <= j /\ j <= length w | KO _ => True end.

  Definition evP (w : text) (p : pat) (i : nat) (o : out) : Prop :=
    core p -> i <= length w -> sk w i = i ->
    bounds w i o /\ eventually (fun m => good m w p i o).

  Definition toR {A} (r : A + error) : res A := match r with inl b => Ok b | inr e => Err e end.

  Definition evA (w : text) (i : nat) (u : neu) (c : cond) (m : nat) (r : bool + error) : Prop :=
    core_cond c -> i <= length w ->
    eventually (fun f => forall held,
      acc1 u (check (parse f G) held pols c (cx w i)) (item_at k w i m) = toR r).

  Definition evC (w : text) (i : nat) (c : cond) (m : nat) (x : item) (r : bool + error) : Prop :=
    core_cond c -> nth_error w (i + m) = Some x ->
    eventually (fun f => forall held,
      check (parse f G) held pols c (cx w i) (bo w (i + m) - bo w i, x) = toR r).

  Definition evR (w : text) (i : nat) (u : neu) (c : cond) (lim : option nat) (m : nat)
      (r : nat + error) : Prop :=
    core_cond c -> i <= length w ->
    eventually (fun f => forall held,
      runlen u (check (parse f G) held pols c (cx w i)) lim (items k w i m) = toR r).

  Definition evReps (w : text) (p : pat) (lim : option nat) (i n j : nat) : Prop :=
    core p -> i <= length w ->
    (i <= j /\ j <= length w) /\
    eventually (fun N => forall f fuel held i0 x more lim0 cnt,
      N <= f -> N <= fuel -> i0 <= i -> i <= x -> x <= sk w i -> (forall c, more c = lim_more lim0 c) ->
      lim = lim_sub lim0 cnt ->
      exists y, j <= y /\ y <= sk w j /\
        repeat_loop (tm (parse f G) held pols p) fuel more cnt (sp w i0 i) (cx w x)
        = (Ok (cnt + n, sp w i0 j), cx w y)).

  Definition evSeps (w : text) (p s : pat) (lim : option nat) (i n j : nat) : Prop :=
    core p -> core s -> i <= length w ->
    (i <= j /\ j <= length w) /\
    eventually (fun N => forall f fuel held i0 x more lim0 cnt,
      N <= f -> N <= fuel -> i0 <= i -> i <= x -> x <= sk w i -> (forall c, more c = lim_more lim0 c) ->
      lim = lim_sub lim0 cnt ->
      exists y, j <= y /\ y <= sk w j /\
        sep_loop (tm (parse f G) held pols p) (tm (parse f G) held pols s) fuel more true cnt
          (sp w i0 i) (cx w x)
        = (Ok (cnt + n, sp w i0 j), cx w y)).

  Definition evF (w : text) (ps : list pat) (i : nat) (e : error) (o : out) : Prop :=
    Forall core ps -> i <= length w -> sk w i = i ->
    bounds w i o /\
    eventually (fun f => forall held,
      match o with
      | OK b j => exists x, j <= x /\ x <= sk w j /\
                    choice (tm (parse f G) held pols) (bo w i) e ps (cx w i) = (Ok (sp w b j), cx w x)
      | KO e' => choice (tm (parse f G) held pols) (bo w i) e ps (cx w i) = (Err e', cx w i)
      end).

  (** [m] is enough fuel for [try_mat p] anywhere in front of the skipped position [a]. *)
  Definition tgood (m : nat) (w : text) (p : pat) (a : nat) (o : out) : Prop :=
    forall held y, y <= length w -> sk w y = a ->
    match o with
    | OK b j => exists x, j <= x /\ x <= sk w j /\
                  tm (parse m G) held pols p (cx w y) = (Ok (sp w b j), cx w x)
    | KO e => tm (parse m G) held pols p (cx w y) = (Err e, cx w a)
    end.

  Lemma good_tgood w p a o : eventually (fun m => good m w p a o) ->
    eventually (fun m => tgood m w p a o).
  Proof.
    intros [n H]. unfold tgood, tm, try_mat. destruct pols as [|r rest] eqn:Ep.
    - exists n. intros m Hm held y Hy Hs. simpl in IM. rewrite IM in Hs. subst y.
      unfold good in H. rewrite Ep in H. apply H. exact Hm.
    - destruct IM as [_ I].
      destruct (ev_bounded (fun y m => forall held, exists s,
        parse m G held rest r (cx w y) = (Ok s, cx w (sk w y))) (length w)) as [n2 H2].
      { intros y Hy. destruct (I w y Hy) as [n2 H2]. exists n2. intros. apply H2. assumption. }
      exists (n + n2). intros m Hm held y Hy Hs. destruct (H2 m) with (y := y) (held := held) as [s Es]; auto; [lia|].
      unfold bind. rewrite Es, Hs. unfold good in H. rewrite Ep in H. apply H. lia.
  Qed.

  Lemma sk_facts w j x : j <= length w -> j <= x -> x <= sk w j ->
    x <= length w /\ sk w x = sk w j /\ sk w j <= length w /\ sk w (sk w j) = sk w j /\ j <= sk w j.
  Proof.
    intros H1 H2 H3. pose proof (sk_le sk SK w j H1). repeat split; try lia.
    - now apply (sk_conv sk SK).
    - now apply (sk_idem sk SK).
  Qed.

  Lemma ev_S (P : nat -> Prop) : eventually (fun m => P (S m)) -> eventually P.
  Proof. intros [n H]. exists (S n). intros [|m] Hm; [lia|]. apply H. lia. Qed.

  Lemma good_S m w p i o :
    (forall held, match o with
     | OK b j => exists x, j <= x /\ x <= sk w j /\
                   parse_step G (parse m G) m held pols p (cx w i) = (Ok (sp w b j), cx w x)
     | KO e => parse_step G (parse m G) m held pols p (cx w i) = (Err e, cx w i)
     end) -> good (S m) w p i o.
  Proof. intros H held. exact (H held). Qed.

  Lemma sk_at w j : j <= length w -> j <= sk w j /\ sk w j <= length w /\ sk w (sk w j) = sk w j.
  Proof.
    intros H. split; [now apply (sk_ge sk SK)|]. split; [now apply (sk_le sk SK)|now apply (sk_idem sk SK)].
  Qed.


  Lemma ev_and (P Q : nat -> Prop) :
    eventually P -> eventually Q -> eventually (fun m => P m /\ Q m).
  Proof.
    intros [n1 H1] [n2 H2]. exists (n1 + n2). intros m Hm. split; [apply H1|apply H2]; lia.
  Qed.

  Lemma evP_use w p i o : evP w p i o -> core p -> i <= length w -> sk w i = i ->
    bounds w i o /\ eventually (fun m => good m w p i o /\ tgood m w p i o).
  Proof.
    intros H C Hi E. destruct (H C Hi E) as [B V]. split; [exact B|].
    apply ev_and; [exact V|now apply good_tgood].
  Qed.

  Ltac brk := repeat match goal with
    | [ H : _ /\ _ |- _ ] => destruct H
    | [ H : forall held : list nat, _ |- _ ] => fail 1
    end.

  (* facts about skipped positions of every end position in the context *)
  Ltac ends := repeat match goal with
    | [ H : bounds ?w ?i (OK ?b ?j) |- _ ] =>
        cbn [bounds] in H; destruct H as (? & ? & ?);
        pose proof (sk_at w j ltac:(lia)) as (? & ? & ?)
    | [ H : bounds ?w ?i (KO _) |- _ ] => clear H
    end.

  (* turn the induction hypotheses into bounds and eventual facts *)
  Ltac ih := repeat (ends; match goal with
    | [ H : evP ?w ?p ?i ?o |- _ ] =>
        let B := fresh "B" in let V := fresh "V" in
        destruct (evP_use w p i o H) as [B V]; [solve [auto]|solve [auto; lia]|solve [auto]|];
        clear H
    end); ends.

  Ltac merge := repeat match goal with
    | [ H1 : eventually ?P, H2 : eventually ?Q |- _ ] =>
        let H := fresh "V" in
        assert (H := ev_and P Q H1 H2); clear H1 H2; cbv beta in H
    end.

  Ltac fuel := first [
    apply ev_S; match goal with
    | [ H : eventually _ |- _ ] =>
        let n := fresh "n" in let V := fresh "V" in let m := fresh "m" in let Hm := fresh "Hm" in
        destruct H as [n V]; exists n; intros m Hm; specialize (V m Hm); cbv beta in V; brk
    | _ => let m := fresh "m" in exists 0; intros m _
    end; apply good_S; intros held; cbn [parse_step]; mstep;
    rewrite ?off_cx, ?sp_empty ].

  Lemma hd_items w i m : hd_error (items k w i m) = item_at k w i m.
  Proof. rewrite items_cons. destruct (item_at k w i m); reflexivity. Qed.

  Lemma evR_bound w i u c lim n : evR w i u c lim 0 (inl n) -> core_cond c -> i <= length w ->
    i + n <= length w.
  Proof.
    intros H C Hi. destruct (H C Hi) as [f Hf]. specialize (Hf f (le_n _) []). simpl in Hf.
    now apply (run_bound k u (check (parse f G) [] pols c) lim w i n Hi) in Hf.
  Qed.

  Lemma evA_bound w i u c m : evA w i u c m (inl true) -> core_cond c -> i <= length w ->
    i + m < length w.
  Proof.
    intros H C Hi. destruct (H C Hi) as [f Hf]. specialize (Hf f (le_n _) []). simpl in Hf.
    pose proof (item_at_inv k w i m) as I. destruct (item_at k w i m); [tauto|discriminate].
  Qed.

  Ltac use_tm := repeat (match goal with
    | [ H : good ?m ?w ?p ?a ?o |- context [parse ?m _ ?held _ ?p (Spec.cx _ ?w ?a)] ] =>
        let T := fresh "T" in assert (T := H held); cbv beta iota in T;
        lazymatch type of T with
        | exists _, _ =>
            let x := fresh "x" in let B1 := fresh "B" in let B2 := fresh "B" in
            let E := fresh "E" in
            destruct T as (x & B1 & B2 & E); rewrite E; clear E
        | _ => rewrite T; clear T
        end
    | [ H : tgood ?m ?w ?p ?a ?o |- context [tm (parse ?m _) ?held _ ?p (Spec.cx _ ?w ?y)] ] =>
        let T := fresh "T" in
        assert (T : match o with
           | OK b j => exists x, j <= x /\ x <= sk w j /\
                         tm (parse m G) held pols p (cx w y) = (Ok (sp w b j), cx w x)
           | KO e => tm (parse m G) held pols p (cx w y) = (Err e, cx w a)
           end) by (apply H; solve [lia|assumption]);
        cbv beta iota in T;
        lazymatch type of T with
        | exists _, _ =>
            let x := fresh "x" in let B1 := fresh "B" in let B2 := fresh "B" in
            let E := fresh "E" in
            destruct T as (x & B1 & B2 & E); rewrite E; clear E;
            match type of B1 with ?j <= _ =>
              pose proof (sk_facts w j x ltac:(lia) B1 B2) as (? & ? & _)
            end
        | _ => rewrite T; clear T
        end
    end; rewrite ?off_cx, ?put_cx, ?sp_empty, ?join_sp by lia).

  Ltac fin := first
    [ reflexivity
    | eexists; split; [|split; [|reflexivity]]; [lia|first [lia | apply (sk_ge sk SK); lia]] ].

  Ltac start := intros;
    match goal with [ |- evP _ _ _ _ ] => idtac end;
    let C := fresh "C" in let Hi := fresh "Hi" in let E := fresh "E" in
    intros C Hi E; inversion C; subst; clear C.
  Ltac split_o := split; [cbn [bounds]; first [lia|exact I|assumption]|].
  Ltac comb := start; ih; merge; split_o; fuel; use_tm; try fin.
  (* same, for rules whose outcome is that of one child *)
  Ltac pass := intros;
    match goal with [ |- evP _ _ _ ?o ] => is_var o; destruct o end; comb.
  Ltac rfl := intros; repeat split; try lia.

  (* unit regexes *)
  Ltac uih := repeat match goal with
    | [ H : evA ?w ?i ?u ?c ?m (inl true), C : core_cond ?c, Hi : ?i <= length ?w |- _ ] =>
        pose proof (evA_bound w i u c m H C Hi);
        let V := fresh "V" in assert (V := H C Hi); clear H
    | [ H : evA ?w ?i ?u ?c ?m _, C : core_cond ?c, Hi : ?i <= length ?w |- _ ] =>
        let V := fresh "V" in assert (V := H C Hi); clear H
    | [ H : evR ?w ?i ?u ?c ?l 0 (inl ?n), C : core_cond ?c, Hi : ?i <= length ?w |- _ ] =>
        pose proof (evR_bound w i u c l n H C Hi);
        let V := fresh "V" in assert (V := H C Hi); clear H
    | [ H : evR ?w ?i ?u ?c ?l ?m _, C : core_cond ?c, Hi : ?i <= length ?w |- _ ] =>
        let V := fresh "V" in assert (V := H C Hi); clear H
    end.
  Ltac ufuel := first [
    apply ev_S; match goal with
    | [ H : eventually _ |- _ ] =>
        let n := fresh "n" in let V := fresh "V" in let m := fresh "m" in let Hm := fresh "Hm" in
        destruct H as [n V]; exists n; intros m Hm; specialize (V m Hm); cbv beta in V; brk
    | _ => let m := fresh "m" in exists 0; intros m _
    end; apply good_S; intros held; cbn [parse_step] ].
  Ltac unf := rewrite ?once_nf, ?opt_nf, ?many0_nf, ?many1_nf, ?between_nf, ?times_nf, ?neuthen_nf
    by assumption; rewrite ?runlen_1, ?hd_items.
  Ltac urw := repeat match goal with
    | [ H : forall held : list nat, acc1 _ _ _ = _ |- _ ] => rewrite H; clear H
    | [ H : forall held : list nat, runlen _ _ _ _ = _ |- _ ] => rewrite H; clear H
    end; cbn [toR run_result Nat.eqb].
  Ltac unit1 := start; uih; merge; split_o; ufuel; unf; urw; rewrite ?Nat.add_1_r, ?Nat.add_0_r;
    try fin.

  Lemma times_min_eq r u : times_min k r u =
    match r_lo r with Incl m => m | Excl m => m - 1 | Unb => 0 end * min_length k u.
  Proof. unfold times_min. destruct (r_lo r); reflexivity. Qed.

  Lemma run_unfold u chk lim w i m : lim <> Some 0 ->
    runlen u chk lim (items k w i m) =
    match acc1 u chk (item_at k w i m) with
    | Ok true => match runlen u chk (limit_pred lim) (items k w i (S m)) with
                 | Ok n => Ok (S n) | r => r end
    | Ok false => Ok 0
    | Err e => Err e
    | Panic => Panic
    | OOF => OOF
    end.
  Proof.
    intros NZ. rewrite (items_cons k w i m). destruct (item_at k w i m) as [x|]; [|reflexivity].
    cbn [runlen]. destruct lim as [[|n]|]; [congruence| |]; reflexivity.
  Qed.

  Lemma nz_more lim lim0 cnt : lim <> Some 0 -> lim = lim_sub lim0 cnt -> lim_more lim0 cnt = true.
  Proof.
    intros NZ ->. destruct lim0 as [n|]; [|reflexivity]. simpl in *.
    destruct (Nat.ltb_spec cnt n); [reflexivity|]. exfalso. apply NZ. f_equal. lia.
  Qed.

  Ltac dec_leb := match goal with
    | [ |- context [?a <=? ?b] ] => destruct (Nat.leb_spec a b); [|lia]
    | [ |- context [?a <=? ?b] ] => destruct (Nat.leb_spec a b); [lia|]
    end; cbn [andb].

  Ltac loop lim0 :=
    match goal with
    | [ H : forall f fuel held i0 x more lim0 cnt, _ |- _ ] =>
      match goal with
      | [ |- context [repeat_loop _ ?m ?mr 0 (Spec.sp _ ?w ?i ?i) _] ] =>
          let y := fresh "y" in let E := fresh "E" in
          destruct (H m m held i i mr lim0 0) as (y & ? & ? & E);
          [ lia | lia | lia | lia | lia
          | intros; first [ reflexivity
                          | unfold repeat_more, limit_of; destruct (r_hi _); reflexivity ]
          | symmetry; apply lim_sub_0 | rewrite E; cbn [Nat.add] ]
      | [ |- context [sep_loop _ _ ?m ?mr true 0 (Spec.sp _ ?w ?i ?i) _] ] =>
          let y := fresh "y" in let E := fresh "E" in
          destruct (H m m held i i mr lim0 0) as (y & ? & ? & E);
          [ lia | lia | lia | lia | lia
          | intros; first [ reflexivity
                          | unfold repeat_more, limit_of; destruct (r_hi _); reflexivity ]
          | symmetry; apply lim_sub_0 | rewrite E; cbn [Nat.add] ]
      end
    end.

  Ltac reps lim0 :=
    match goal with [ H : evReps ?w ?p ?l ?i ?n ?j |- _ ] =>
      let B := fresh "B" in let V := fresh "V" in
      destruct H as [B V]; [assumption|assumption|]; split_o; fuel; unfold collect_loop; loop lim0
    end.
  Ltac seps lim0 :=
    match goal with [ H : evSeps ?w ?p ?s ?l ?i ?n ?j |- _ ] =>
      let B := fresh "B" in let V := fresh "V" in
      destruct H as [B V]; [assumption|assumption|assumption|]; split_o; fuel; loop lim0
    end.

  Theorem complete_all :
    (forall w p i o, Peg w p i o -> evP w p i o) /\
    (forall w i u c m r, Spec.Acc k G sk w i u c m r -> evA w i u c m r) /\
    (forall w i c m x r, Spec.Chk k G sk w i c m x r -> evC w i c m x r) /\
    (forall w i u c l m r, Spec.Run k G sk w i u c l m r -> evR w i u c l m r) /\
    (forall w p l i n j, Spec.Reps k G sk w p l i n j -> evReps w p l i n j) /\
    (forall w p s l i n j, Spec.Seps k G sk w p s l i n j -> evSeps w p s l i n j) /\
    (forall w ps i e o, Spec.First k G sk w ps i e o -> evF w ps i e o).
  Proof.
    apply (Peg_mutind k G sk evP evA evC evR evReps evSeps evF).
    all: try solve [comb].
    all: try solve [pass].
    all: try solve [unit1].
    - (* PStart *) start. split_o. ufuel. unfold start_parse. mstep. rewrite off_cx.
      pose proof (bo_lt k w 0 i). rewrite bo_0 in H0.
      destruct (Nat.eqb_spec (bo w i) 0); [lia|reflexivity].
    - (* PEnd *) start. split_o. ufuel. unfold end_parse. mstep. rewrite off_cx, len_cx.
      destruct (Nat.eqb_spec (bo w (length w)) (tlen k w)) as [B|B]; [|now rewrite bo_len in B].
      rewrite sp_empty. fin.
    - start. split_o. ufuel. unfold end_parse. mstep. rewrite off_cx, len_cx.
      destruct (Nat.eqb_spec (bo w i) (tlen k w)) as [B|B]; [|reflexivity].
      apply bo_eq_len in B; lia.
    - (* PConsume *) start.
      assert (i <= j) by (apply (bo_le_iff k w); lia). split_o. ufuel.
      unfold consume_parse, bind. rewrite remaining_cx.
      pose proof (bo_le_len k w j).
      destruct (Nat.leb_spec n (tlen k w - bo w i)); [|lia].
      replace n with (bo w j - bo w i) by lia. rewrite new_span_cx by lia. fin.
    - start. split_o. ufuel. unfold consume_parse, bind. rewrite remaining_cx.
      pose proof (bo_le_len k w i).
      destruct (Nat.leb_spec n (tlen k w - bo w i)); [lia|reflexivity].
    - (* PConsumeAll *) start. split_o. ufuel. unfold consume_all_parse. mstep.
      rewrite off_cx, len_cx, <- (bo_len k w), new_span_cx by lia. fin.
    - (* PLit *) start. assert (i + length l <= length w).
      { rewrite <- H. rewrite firstn_length, skipn_length. lia. }
      split_o. ufuel. rewrite literal_nf by auto.
      destruct (list_eq_dec N.eq_dec (firstn (length l) (skipn i w)) l); [|contradiction]. fin.
    - start. split_o. ufuel. rewrite literal_nf by auto.
      destruct (list_eq_dec N.eq_dec (firstn (length l) (skipn i w)) l); [contradiction|]. fin.
    - (* PFn *) start. split_o. ufuel. rewrite H. fin.
    - start. split_o. ufuel. rewrite H. fin.
    - (* PBuilder *) start.
      assert (core q) by eauto. ih.
      pose proof (sk_at w m) as K.
      assert (Hm2 : sk w m <= length w) by (apply K; lia).
      assert (Hm3 : sk w (sk w m) = sk w m) by (apply K; lia).
      assert (Hm4 : m <= sk w m) by (apply K; lia). clear K.
      ih. merge. split.
      { destruct o; simpl in *; [lia|trivial]. }
      apply ev_S. match goal with [ H : eventually _ |- _ ] => destruct H as [n0 W] end.
      exists n0. intros f0 Hf. specialize (W f0 Hf). cbv beta in W. brk.
      apply good_S. intros held. cbn [parse_step]. mstep. rewrite ?off_cx. use_tm.
      match goal with [ L : lawful_builder _ _ _ |- _ ] =>
        destruct (L w b j x) as (q' & m1 & m2 & F1 & F2 & ? & ? & ? & ? & ES); auto; try lia end.
      rewrite F2. rewrite H1 in F1. injection F1 as <- Fm.
      apply (bo_inj k w) in Fm; [subst m1|lia|lia].
      destruct o; ends; use_tm; fin.
    - (* PBetween *) start. split_o. ufuel. unf. unfold too_short in *.
      match goal with [ |- context [?a <=? ?b] ] => destruct (Nat.leb_spec a b); [lia|reflexivity] end.
    - start. uih. split_o. ufuel. unf. unfold too_short in *.
      match goal with [ |- context [if ?a <=? ?b then _ else _] ] => destruct (Nat.leb_spec a b); [|lia] end.
      urw. match goal with [ |- context [?a <=? ?b] ] => destruct (Nat.leb_spec a b); [|lia] end. fin.
    - start. uih. split_o. ufuel. unf. unfold too_short in *.
      match goal with [ |- context [if ?a <=? ?b then _ else _] ] => destruct (Nat.leb_spec a b); [|lia] end.
      urw. match goal with [ |- context [?a <=? ?b] ] => destruct (Nat.leb_spec a b); [lia|] end. fin.
    - start. uih. split_o. ufuel. unf. unfold too_short in *.
      match goal with [ |- context [if ?a <=? ?b then _ else _] ] => destruct (Nat.leb_spec a b); [|lia] end.
      urw. fin.
    - (* PTimes *) start. split_o. ufuel. unf. rewrite times_min_eq. unfold too_short in *.
      match goal with [ |- context [if ?a <=? ?b then _ else _] ] => destruct (Nat.leb_spec a b); [lia|reflexivity] end.
    - start. uih. split_o. ufuel. unf. rewrite times_min_eq. unfold too_short in *.
      match goal with [ |- context [if ?a <=? ?b then _ else _] ] => destruct (Nat.leb_spec a b); [|lia] end.
      urw. match goal with [ H : crange_contains _ _ = _ |- _ ] => rewrite H end. fin.
    - start. uih. split_o. ufuel. unf. rewrite times_min_eq. unfold too_short in *.
      match goal with [ |- context [if ?a <=? ?b then _ else _] ] => destruct (Nat.leb_spec a b); [|lia] end.
      urw. match goal with [ H : crange_contains _ _ = _ |- _ ] => rewrite H end. fin.
    - start. uih. split_o. ufuel. unf. rewrite times_min_eq. unfold too_short in *.
      match goal with [ |- context [if ?a <=? ?b then _ else _] ] => destruct (Nat.leb_spec a b); [|lia] end.
      urw. fin.
    - (* PNeuThen *) start. split_o. ufuel. unf. unfold too_short in *.
      destruct (Nat.leb_spec (min_length k u + min_length k v) (tlen k w - bo w i)); [|reflexivity].
      destruct (Nat.leb_spec (i + 2) (length w)); [lia|reflexivity].
    - start. uih. merge. split_o. ufuel. unf. unfold too_short in *.
      destruct (Nat.leb_spec (min_length k u + min_length k v) (tlen k w - bo w i)); [|lia].
      destruct (Nat.leb_spec (i + 2) (length w)); [|lia]. cbn [andb]. urw. fin.
    - start. uih. merge. split_o. ufuel. unf. unfold too_short in *.
      destruct (Nat.leb_spec (min_length k u + min_length k v) (tlen k w - bo w i)); [|lia].
      destruct (Nat.leb_spec (i + 2) (length w)); [|lia]. cbn [andb]. urw. fin.
    - start. uih. merge. split_o. ufuel. unf. unfold too_short in *.
      destruct (Nat.leb_spec (min_length k u + min_length k v) (tlen k w - bo w i)); [|lia].
      destruct (Nat.leb_spec (i + 2) (length w)); [|lia]. cbn [andb]. urw. fin.
    - start. uih. merge. split_o. ufuel. unf. unfold too_short in *.
      destruct (Nat.leb_spec (min_length k u + min_length k v) (tlen k w - bo w i)); [|lia].
      destruct (Nat.leb_spec (i + 2) (length w)); [|lia]. cbn [andb]. urw. fin.
    - start. uih. merge. split_o. ufuel. unf. unfold too_short in *.
      destruct (Nat.leb_spec (min_length k u + min_length k v) (tlen k w - bo w i)); [|lia].
      destruct (Nat.leb_spec (i + 2) (length w)); [|lia]. cbn [andb]. urw. fin.
    - (* PLongest *) start. ih. merge. split_o. fuel. use_tm. cbn [slen Spec.sp].
      pose proof (bo_mono k w i j). pose proof (bo_mono k w i j'). pose proof (bo_mono k w j' j).
      destruct (Nat.leb_spec (bo w j' - bo w i) (bo w j - bo w i)); [|lia]. cbn [slen Spec.sp].
      replace (bo w i + (bo w j - bo w i)) with (bo w j) by lia. rewrite put_cx. fin.
    - start. ih. merge. split_o. fuel. use_tm. cbn [slen Spec.sp].
      pose proof (bo_mono k w i j). pose proof (bo_mono k w i j'). pose proof (bo_lt k w j j').
      destruct (Nat.leb_spec (bo w j' - bo w i) (bo w j - bo w i)); [lia|]. cbn [slen Spec.sp].
      replace (bo w i + (bo w j' - bo w i)) with (bo w j') by lia. rewrite put_cx. fin.
    - start. ih. merge. split_o. fuel. use_tm. cbn [slen Spec.sp].
      pose proof (bo_mono k w i j).
      replace (bo w i + (bo w j - bo w i)) with (bo w j) by lia. rewrite put_cx. fin.
    - start. ih. merge. split_o. fuel. use_tm. cbn [slen Spec.sp].
      pose proof (bo_mono k w i j).
      replace (bo w i + (bo w j - bo w i)) with (bo w j) by lia. rewrite put_cx. fin.
    - start. ih. merge. split_o. fuel. use_tm. rewrite Nat.add_0_r, put_cx. fin.
    - (* PChoice *) start. match goal with [ H : evF _ _ _ _ _ |- _ ] => destruct H as [B V] end; auto.
      split; [exact B|]. fuel. exact (V0 held).
    - start. match goal with [ H : evF _ _ _ _ _ |- _ ] => destruct H as [B V] end; auto.
      split; [exact B|]. apply ev_S. destruct V as [n V]. exists n. intros m Hm. apply good_S.
      intros held. exact (V m Hm held).
    - (* PBranch *) intros. destruct o; start; ih; merge; split_o; fuel;
        (match goal with [ H : ?t (cx _ _) = _ |- _ ] => rewrite H end); use_tm; fin.
    - intros. destruct o; start; ih; merge; split_o; fuel;
        (match goal with [ H : ?t (cx _ _) = _ |- _ ] => rewrite H end); use_tm; fin.
    - intros. start; split_o; fuel;
        (match goal with [ H : ?t (cx _ _) = _ |- _ ] => rewrite H end); use_tm; fin.
    - (* PSep *) start. seps (@None nat). dec_leb. fin.
    - start. seps (@None nat). dec_leb. rewrite put_cx. fin.
    - start. seps (@None nat). dec_leb. fin.
    - start. seps (@None nat). dec_leb. rewrite put_cx. fin.
    - (* PSep2 *) start. seps (Some (S l)). dec_leb. fin.
    - start. seps (Some (S l)). dec_leb. rewrite put_cx. fin.
    - (* PRepeat *) start. reps (limit_of r). match goal with [ H : crange_contains _ _ = _ |- _ ] => rewrite H end. fin.
    - start. reps (limit_of r). match goal with [ H : crange_contains _ _ = _ |- _ ] => rewrite H end. rewrite put_cx. fin.
    - (* PRepeat2 *) start. reps (Some (S l)). dec_leb. dec_leb. fin.
    - start. reps (Some (S l)).
      destruct (Nat.leb_spec m n); destruct (Nat.leb_spec n l); try lia; cbn [andb]; rewrite put_cx; fin.
    - (* PCollect *) start. unfold collect_loop. reps (@None nat). dec_leb. fin.
    - start. reps (@None nat). dec_leb. rewrite put_cx. fin.
    - (* PRef *) start. assert (core p) by eauto. ih. split; [assumption|]. fuel.
      match goal with [ H : env_get _ _ = _ |- _ ] => rewrite H end. destruct o; use_tm; fin.
    - start. split_o. fuel. match goal with [ H : env_get _ _ = _ |- _ ] => rewrite H end. fin.
    - (* Acc *) intros w i u c m L _ _. exists 0. intros. rewrite item_at_none by auto. reflexivity.
    - intros w i u c m x En Em _ _. exists 0. intros. rewrite (item_at_some _ _ _ _ _ En). simpl. now rewrite Em.
    - intros w i u c m x r En Em _ H C Hi. destruct (H C En) as [n V]. exists n. intros f Hf held.
      rewrite (item_at_some _ _ _ _ _ En). simpl. rewrite Em. now apply V.
    - (* Chk *) intros w i m x _ _. exists 0. reflexivity.
    - intros w i f m x b F _ _. exists 0. intros. exact F.
    - intros w i f m x e F _ _. exists 0. intros. exact F.
    - intros w i p m x b j _ H C En. inversion C; subst.
      assert (L : i + m < length w) by (apply nth_error_Some; congruence).
      pose proof (sk_at (skipn (i + m) w) 0) as K.
      destruct (evP_use _ _ _ _ H) as [_ [n V]]; auto; [apply K; lia|apply K; lia|].
      exists n. intros f Hf held. destruct (V f Hf) as [_ T].
      destruct (T held 0) as (y & _ & _ & E); [lia|reflexivity|].
      cbn [check]. cbn [fst]. rewrite off_cx, clone_cx by lia. rewrite E. reflexivity.
    - intros w i p m x e _ H C En. inversion C; subst.
      assert (L : i + m < length w) by (apply nth_error_Some; congruence).
      pose proof (sk_at (skipn (i + m) w) 0) as K.
      destruct (evP_use _ _ _ _ H) as [_ [n V]]; auto; [apply K; lia|apply K; lia|].
      exists n. intros f Hf held. destruct (V f Hf) as [_ T].
      assert (E := T held 0 ltac:(lia) eq_refl). cbv beta iota in E.
      cbn [check]. cbn [fst]. rewrite off_cx, clone_cx by lia. rewrite E. reflexivity.
    - (* Run *) intros w i u c m _ _. exists 0. intros. destruct (items k w i m); reflexivity.
    - intros w i u c lim m NZ _ H C Hi. destruct (H C Hi) as [n V]. exists n. intros f Hf held.
      rewrite run_unfold by auto. now rewrite V.
    - intros w i u c lim m e NZ _ H C Hi. destruct (H C Hi) as [n V]. exists n. intros f Hf held.
      rewrite run_unfold by auto. now rewrite V.
    - intros w i u c lim m n NZ _ H _ H2 C Hi. destruct (H C Hi) as [n1 V1]. destruct (H2 C Hi) as [n2 V2].
      exists (n1 + n2). intros f Hf held. rewrite run_unfold by auto. rewrite V1 by lia. simpl.
      rewrite V2 by lia. reflexivity.
    - intros w i u c lim m e NZ _ H _ H2 C Hi. destruct (H C Hi) as [n1 V1]. destruct (H2 C Hi) as [n2 V2].
      exists (n1 + n2). intros f Hf held. rewrite run_unfold by auto. rewrite V1 by lia. simpl.
      rewrite V2 by lia. reflexivity.
    - (* Reps *) intros w p i C Hi. split; [lia|]. exists 1.
      intros N HN f fuel held i0 x more lim0 cnt Hf Hfu H0 H1 H2 ML EL. exists x. split; [lia|]. split; [lia|].
      destruct fuel as [|fuel]; [lia|]. cbn [repeat_loop]. rewrite ML.
      destruct lim0 as [n|]; [|discriminate]. injection EL as EL. simpl.
      destruct (Nat.ltb_spec cnt n); [lia|]. now rewrite Nat.add_0_r.
    - intros w p lim i e NZ _ H C Hi. pose proof (sk_at w i Hi) as (K1 & K2 & K3).
      destruct (evP_use _ _ _ _ H C K2 K3) as [_ [n V]]. split; [lia|]. exists (S n).
      intros N HN f fuel held i0 x more lim0 cnt Hf Hfu H0 H1 H2 ML EL. exists (sk w i).
      split; [lia|]. split; [lia|]. destruct (V f ltac:(lia)) as [_ T].
      destruct fuel as [|fuel]; [lia|]. cbn [repeat_loop]. rewrite ML, (nz_more _ _ _ NZ EL). mstep.
      destruct (sk_facts w i x) as (F1 & F2 & _); auto. use_tm. now rewrite Nat.add_0_r.
    - intros w p lim i b j n j' NZ _ H _ H' C Hi. pose proof (sk_at w i Hi) as (K1 & K2 & K3).
      destruct (evP_use _ _ _ _ H C K2 K3) as [(B1 & B2 & B3) [n1 V]].
      destruct (H' C B3) as [(B4 & B5) [n2 V2]]. split; [lia|]. exists (S (n1 + n2)).
      intros N HN f fuel held i0 x more lim0 cnt Hf Hfu H0 H1 H2 ML EL.
      destruct (V f ltac:(lia)) as [_ T]. pose proof (sk_at w j B3) as (J1 & J2 & J3).
      destruct fuel as [|fuel]; [lia|]. cbn [repeat_loop]. rewrite ML, (nz_more _ _ _ NZ EL). mstep.
      destruct (sk_facts w i x) as (F1 & F2 & _); auto. use_tm.
      replace (cnt + S n) with (S cnt + n) by lia.
      apply (V2 n2 (le_n _) f fuel held i0 x0 more lim0 (S cnt)); auto; try lia.
      rewrite EL. destruct lim0; simpl; [|reflexivity]. f_equal. lia.
    - (* Seps *) intros w p s i C CS Hi. split; [lia|]. exists 1.
      intros N HN f fuel held i0 x more lim0 cnt Hf Hfu H0 H1 H2 ML EL. exists x. split; [lia|]. split; [lia|].
      destruct fuel as [|fuel]; [lia|]. cbn [sep_loop]. rewrite ML.
      destruct lim0 as [n|]; [|discriminate]. injection EL as EL. simpl.
      destruct (Nat.ltb_spec cnt n); [lia|]. now rewrite Nat.add_0_r.
    - intros w p s lim i e NZ _ H C CS Hi. pose proof (sk_at w i Hi) as (K1 & K2 & K3).
      destruct (evP_use _ _ _ _ H C K2 K3) as [_ [n V]]. split; [lia|]. exists (S n).
      intros N HN f fuel held i0 x more lim0 cnt Hf Hfu H0 H1 H2 ML EL. exists (sk w i).
      split; [lia|]. split; [lia|]. destruct (V f ltac:(lia)) as [_ T].
      destruct fuel as [|fuel]; [lia|]. cbn [sep_loop]. rewrite ML, (nz_more _ _ _ NZ EL). mstep.
      destruct (sk_facts w i x) as (F1 & F2 & _); auto. use_tm. now rewrite Nat.add_0_r.
    - intros w p s lim i b j e NZ _ H _ H' C CS Hi. pose proof (sk_at w i Hi) as (K1 & K2 & K3).
      destruct (evP_use _ _ _ _ H C K2 K3) as [(B1 & B2 & B3) [n1 V]].
      pose proof (sk_at w j B3) as (J1 & J2 & J3).
      destruct (evP_use _ _ _ _ H' CS J2 J3) as [_ [n2 V2]]. split; [lia|]. exists (S (n1 + n2)).
      intros N HN f fuel held i0 x more lim0 cnt Hf Hfu H0 H1 H2 ML EL.
      destruct (V f ltac:(lia)) as [_ T]. destruct (V2 f ltac:(lia)) as [_ T'].
      destruct fuel as [|fuel]; [lia|]. cbn [sep_loop]. rewrite ML, (nz_more _ _ _ NZ EL). mstep.
      destruct (sk_facts w i x) as (F1 & F2 & _); auto. use_tm. rewrite Nat.add_1_r. fin.
    - intros w p s lim i b j b' j' n j'' NZ _ H _ H' _ H'' C CS Hi. pose proof (sk_at w i Hi) as (K1 & K2 & K3).
      destruct (evP_use _ _ _ _ H C K2 K3) as [(B1 & B2 & B3) [n1 V]].
      pose proof (sk_at w j B3) as (J1 & J2 & J3).
      destruct (evP_use _ _ _ _ H' CS J2 J3) as [(B4 & B5 & B6) [n2 V2]].
      destruct (H'' C CS B6) as [(B7 & B8) [n3 V3]]. split; [lia|]. exists (S (n1 + n2 + n3)).
      intros N HN f fuel held i0 x more lim0 cnt Hf Hfu H0 H1 H2 ML EL.
      destruct (V f ltac:(lia)) as [_ T]. destruct (V2 f ltac:(lia)) as [_ T'].
      pose proof (sk_at w j' B6) as (L1 & L2 & L3).
      destruct fuel as [|fuel]; [lia|]. cbn [sep_loop]. rewrite ML, (nz_more _ _ _ NZ EL). mstep.
      destruct (sk_facts w i x) as (F1 & F2 & _); auto. use_tm.
      replace (cnt + S n) with (S cnt + n) by lia.
      apply (V3 n3 (le_n _) f fuel held i0 x1 more lim0 (S cnt)); auto; try lia.
      rewrite EL. destruct lim0; simpl; [|reflexivity]. f_equal. lia.
    - (* First *) intros w i e _ Hi E. split; [exact I|]. exists 0. intros. reflexivity.
    - intros w p ps i e b j _ H F Hi E. inversion F; subst.
      destruct (evP_use _ _ _ _ H) as [B [n V]]; auto. split; [exact B|]. exists n. intros f Hf held.
      destruct (V f Hf) as [_ T]. cbn [bounds] in B. cbn [choice]. mstep. use_tm. fin.
    - intros w p ps i e e' o _ H _ H' F Hi E. inversion F; subst.
      destruct (evP_use _ _ _ _ H) as [_ [n1 V]]; auto. destruct (H' ltac:(assumption) Hi E) as [B [n2 V2]].
      split; [exact B|]. exists (n1 + n2). intros f Hf held.
      destruct (V f ltac:(lia)) as [_ T]. specialize (V2 f ltac:(lia) held). cbv beta in V2.
      cbn [choice]. mstep. destruct o; use_tm; exact V2.
  Qed.

  Theorem peg_complete w p i o : Peg w p i o -> core p -> i <= length w -> sk w i = i ->
    bounds w i o /\ eventually (fun m => good m w p i o /\ tgood m w p i o).
  Proof. intros H. apply evP_use. now apply complete_all. Qed.

  (** The specification is deterministic on the parsers in scope. *)
  Theorem peg_det w p i o o' : core p -> i <= length w -> sk w i = i ->
    Peg w p i o -> Peg w p i o' -> o = o'.
  Proof.
    intros C Hi E H1 H2. destruct (peg_complete _ _ _ _ H1 C Hi E) as [B1 [n1 V1]].
    destruct (peg_complete _ _ _ _ H2 C Hi E) as [B2 [n2 V2]].
    destruct (V1 (n1 + n2) ltac:(lia)) as [G1 _]. destruct (V2 (n1 + n2) ltac:(lia)) as [G2 _].
    specialize (G1 []). specialize (G2 []). destruct o as [b j|e], o' as [b' j'|e'].
    - destruct G1 as (x & _ & _ & E1). destruct G2 as (x' & _ & _ & E2). rewrite E1 in E2.
      injection E2 as Eb Ej _. destruct B1 as (? & ? & ?), B2 as (? & ? & ?).
      apply (bo_inj k w) in Eb; [|lia|lia]. subst b'.
      pose proof (bo_mono k w b j). pose proof (bo_mono k w b j').
      assert (bo w j = bo w j') by lia. f_equal. apply (bo_inj k w); auto.
    - destruct G1 as (x & _ & _ & E1). rewrite E1 in G2. discriminate.
    - destruct G2 as (x & _ & _ & E1). rewrite E1 in G1. discriminate.
    - rewrite G1 in G2. injection G2 as ->. reflexivity.
  Qed.
End Complete.
