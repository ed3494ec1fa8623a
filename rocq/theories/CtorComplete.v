(** Constructing mode returns whenever the specification has an outcome. *)

From Coq Require Import List Arith NArith Bool Lia.
From Verif Require Import Base Text Context Neu Syntax Regex Ctor TextProofs Spec Units Core Sound Complete Mono CtorSpec CtorSound.
Import ListNotations.

Section CtorComplete.
  Variable k : kind.
  Variable G : env.
  Variable sk : text -> nat -> nat.
  Variable pols : list pat.
  Variable HV : text -> nat -> nat -> val -> Prop.
  Context {S : Type}.
  Variable h : handler S.
  Hypothesis SK : skipper sk.
  Hypothesis TE : tcore_env k G sk HV.
  Hypothesis IM : implements k G sk pols.
  Notation cx := (cx k).
  Notation sp := (sp k).
  Notation bo := (bo k).
  Notation Peg := (Peg k G sk).
  Notation core := (core k G sk).
  Notation tcore := (tcore k G sk HV).
  Hypothesis HH : forall w x b j st, x <= length w -> b <= j -> j <= length w ->
    exists v, fst (h (cx w x) (sp w b j) st) = Ok v /\ HV w b j v.

  Let CE := tcore_core_env k G sk HV TE.
  Local Definition cc p (C : tcore p) : core p := tcore_core k G sk HV p C.

  (** [m] is enough fuel to build with [p] anywhere in front of the skipped position [i]. *)
  Definition cgood (m : nat) (w : text) (p : pat) (i : nat) (o : out) : Prop :=
    forall held x st, x <= length w -> sk w x = i ->
    match o with
    | OK b j => exists v y st', construct h m G held pols p (cx w x, st) = (Ok v, (cx w y, st')) /\
                  y <= length w /\ sk w y = sk w j
    | KO e => exists y st', construct h m G held pols p (cx w x, st) = (Err e, (cx w y, st')) /\
                y <= length w /\ sk w y = i
    end.

  Lemma noof_good m w p i o : tcore p -> Peg w p i o ->
    (forall held x st, x <= length w -> sk w x = i -> fst (construct h m G held pols p (cx w x, st)) <> OOF) ->
    cgood m w p i o.
  Proof.
    intros C P H held x st Hx E. specialize (H held x st Hx E).
    destruct (construct_sound k G sk pols HV h SK TE IM HH m held p w x st C Hx) as [v j y st' T N L|e y st' Q N|z].
    - destruct (tree_peg k G sk HV TE _ _ _ _ _ T C) as [b Q]. rewrite E in Q.
      pose proof (sk_le sk SK w x Hx). pose proof (sk_idem sk SK w x Hx). rewrite E in *.
      pose proof (peg_det k G sk pols SK CE IM w p i _ _ (cc p C) ltac:(auto) ltac:(auto) P Q) as ->.
      destruct N as (? & ? & ?). exists v, y, st'. auto.
    - rewrite E in Q. pose proof (sk_le sk SK w x Hx). pose proof (sk_idem sk SK w x Hx). rewrite E in *.
      pose proof (peg_det k G sk pols SK CE IM w p i _ _ (cc p C) ltac:(auto) ltac:(auto) P Q) as ->.
      destruct N as (? & ? & N). exists y, st'. rewrite E in N. auto.
    - now elim H.
  Qed.

  Lemma ctm_good m w p i o held x (st : S) : tgood k G sk pols m w p i o -> bounds w i o -> x <= length w -> sk w x = i ->
    match o with
    | OK b j => exists y, ctm (parse m G) held pols p (cx w x, st) = (Ok (sp w b j), (cx w y, st)) /\
                  y <= length w /\ sk w y = sk w j
    | KO e => ctm (parse m G) held pols p (cx w x, st) = (Err e, (cx w i, st))
    end.
  Proof.
    intros T B Hx E. specialize (T held x Hx E). unfold ctm, on_ctx. cbn [fst snd]. destruct o as [b j|e].
    - destruct T as (y & Y1 & Y2 & ->). destruct B as (B1 & B2 & B3). exists y. split; auto.
      pose proof (sk_le sk SK w j B3). split; [lia|]. now apply (sk_conv sk SK).
    - now rewrite T.
  Qed.

  Lemma ev_and (P Q : nat -> Prop) : eventually P -> eventually Q -> eventually (fun m => P m /\ Q m).
  Proof. intros [n H] [n' H']. exists (n + n'). intros m Hm. split; [apply H|apply H']; lia. Qed.

  Definition evT (w : text) (p : pat) (i : nat) (o : out) : Prop :=
    tcore p -> i <= length w -> sk w i = i -> eventually (fun m => cgood m w p i o).
  Definition evN (w : text) (p : pat) (i : nat) (o : out) : Prop := Peg w p i o -> ~ leafy p -> evT w p i o.

  Lemma leafy_dec p : leafy p \/ ~ leafy p.
  Proof. destruct p; simpl; auto. Qed.

  Lemma via_tm w p q i o : core p -> i <= length w -> sk w i = i -> Peg w p i o -> tcore q -> Peg w q i o ->
    (forall m held z, construct h (Datatypes.S m) G held pols q z = (s <- ctm (parse m G) held pols p ;; invoke h s) z) ->
    eventually (fun m => cgood m w q i o).
  Proof.
    intros C Hi E P Cq Q H. destruct (peg_complete k G sk pols SK CE IM w p i o P C Hi E) as [B [n V]].
    exists (Datatypes.S n). intros [|m] Hm; [lia|]. apply noof_good; auto. intros held x st Hx Ex. rewrite H.
    destruct (V m ltac:(lia)) as [_ T]. pose proof (ctm_good m w p i o held x st T B Hx Ex) as R.
    unfold bind. destruct o as [b j|e].
    - destruct R as (y & -> & Y1 & Y2). destruct B as (B1 & B2 & B3).
      destruct (invoke_v k HV h HH w y b j st Y1 B2 B3) as (v & st' & -> & _). discriminate.
    - rewrite R. discriminate.
  Qed.

  Lemma ev_of w p i o : Peg w p i o -> evN w p i o -> evT w p i o.
  Proof.
    intros P IH. destruct (leafy_dec p) as [L|L]; [|now apply IH].
    intros C Hi E. apply (via_tm w p p i o); auto; [now apply cc|]. intros m held z.
    destruct p; try contradiction; reflexivity.
  Qed.

  Definition evReps' (w : text) (p : pat) (lim : option nat) (i n j : nat) : Prop :=
    tcore p -> i <= length w ->
    exists N, forall f fuel held x st more lim0 acc,
      N <= f -> N <= fuel -> x <= length w -> sk w x = sk w i -> (forall c, more c = lim_more lim0 c) ->
      lim = lim_sub lim0 (length acc) ->
      fst (repeat_vals (construct h f G held pols p) fuel more acc (cx w x, st)) <> OOF.
  Definition evSeps' (w : text) (p s : pat) (lim : option nat) (i n j : nat) : Prop :=
    lim = None -> tcore p -> core s -> i <= length w ->
    exists N, forall f fuel held x st acc,
      N <= f -> N <= fuel -> x <= length w -> sk w x = sk w i ->
      fst (sep_vals (construct h f G held pols p) (ctm (parse f G) held pols s) fuel true acc (cx w x, st)) <> OOF.
  Definition evF' (w : text) (ps : list pat) (i : nat) (e : error) (o : out) : Prop :=
    forall gs, ps = map fst gs -> (forall p, In p gs -> tcore (fst p)) -> i <= length w -> sk w i = i ->
    eventually (fun f => forall held x st, x <= length w -> sk w x = i ->
      fst (con_choice (construct h f G held pols) (bo w x) e gs (cx w x, st)) <> OOF).

  Ltac cstep := cbv beta iota zeta delta
    [bind catch ret fail panic oof lift reads offset set_offset get_off put_off ctx_offset pair_offset
     with_guard g_new g_beg g_on g_try g_drop g_ctx g_offset g_reset on_err_reset accept fst snd].
  Lemma put1 w i x : {| c_kind := c_kind (cx w x); c_dat := c_dat (cx w x); c_off := bo w i |}
      = cx w i. Proof. reflexivity. Qed.
  Lemma put2 w i x : {| c_kind := c_kind (cx w x); c_dat := c_dat (cx w x); c_off := c_off (cx w i) |}
      = cx w i. Proof. reflexivity. Qed.

  Lemma bnds w p i b j : core p -> i <= length w -> sk w i = i -> Peg w p i (OK b j) ->
    (i <= b /\ b <= j /\ j <= length w) /\ (sk w j <= length w /\ sk w (sk w j) = sk w j /\ j <= sk w j).
  Proof.
    intros C Hi E P. destruct (peg_complete k G sk pols SK CE IM w p i _ P C Hi E) as [B _]. split; auto.
    destruct B as (? & ? & ?). split; [now apply sk_le|split; [now apply sk_idem|now apply sk_ge]].
  Qed.

  Ltac start := intros; intros NL' NL C Hi E; inversion C; clear C; subst; try contradiction.

  (** Collect what is known about the parts, in the order in which their positions become known. *)
  Ltac step1 :=
    match goal with
    | P : Spec.Peg k G sk ?w ?p ?i (OK ?b ?j), IH : evN ?w ?p ?i (OK ?b ?j), T : CtorSpec.tcore k G sk HV ?p,
      Hi : ?i <= length ?w, E : sk ?w ?i = ?i |- _ =>
        pose proof (bnds w p i b j (cc p T) Hi E P) as ((? & ? & ?) & (? & ? & ?));
        pose proof (ev_of _ _ _ _ P IH T Hi E); clear IH
    | P : Spec.Peg k G sk ?w ?p ?i ?o, IH : evN ?w ?p ?i ?o, T : CtorSpec.tcore k G sk HV ?p,
      Hi : ?i <= length ?w, E : sk ?w ?i = ?i |- _ =>
        pose proof (ev_of _ _ _ _ P IH T Hi E); clear IH
    | P : Spec.Peg k G sk ?w ?p ?i (OK ?b ?j), IH : evN ?w ?p ?i (OK ?b ?j), T : Core.core k G sk ?p,
      Hi : ?i <= length ?w, E : sk ?w ?i = ?i |- _ =>
        pose proof (bnds w p i b j T Hi E P) as ((? & ? & ?) & (? & ? & ?));
        let B := fresh "B" in destruct (peg_complete k G sk pols SK CE IM w p i _ P T Hi E) as [B ?]; clear IH
    | P : Spec.Peg k G sk ?w ?p ?i ?o, IH : evN ?w ?p ?i ?o, T : Core.core k G sk ?p,
      Hi : ?i <= length ?w, E : sk ?w ?i = ?i |- _ =>
        let B := fresh "B" in destruct (peg_complete k G sk pols SK CE IM w p i _ P T Hi E) as [B ?]; clear IH
    end.
  Ltac merge :=
    repeat match goal with
    | H1 : eventually ?P, H2 : eventually ?Q |- _ =>
        let H := fresh "V" in pose proof (ev_and P Q H1 H2) as H; clear H1 H2
    end.
  Ltac brk := repeat match goal with H : _ /\ _ |- _ => destruct H end.
  Ltac fuel :=
    merge;
    match goal with H : eventually _ |- _ =>
      let n := fresh "n" in let V := fresh "V" in destruct H as [n V];
      exists (Datatypes.S n); let m := fresh "m" in let Hm := fresh "Hm" in intros [|m] Hm; [lia|]; specialize (V m ltac:(lia)); cbv beta in V; brk
    end;
    (apply noof_good; [econstructor; eauto; fail | assumption | ];
     intros held x st Hx Ex; cbn [construct construct_step]; cstep).
  Ltac ar := rewrite ?put1, ?put2;
    repeat match goal with
    | Cg : cgood ?m ?w ?p ?i (OK ?b ?j) |- context [construct h ?m G ?hl pols ?p (Spec.cx k ?w ?x, ?st)] =>
        let v := fresh "v" in let y := fresh "y" in let st' := fresh "st'" in let Ev := fresh "Ev" in
        destruct (Cg hl x st ltac:(assumption) ltac:(first [assumption|congruence])) as (v & y & st' & Ev & ? & ?); rewrite Ev; clear Ev
    | Cg : cgood ?m ?w ?p ?i (KO ?e) |- context [construct h ?m G ?hl pols ?p (Spec.cx k ?w ?x, ?st)] =>
        let y := fresh "y" in let st' := fresh "st'" in let Ev := fresh "Ev" in
        destruct (Cg hl x st ltac:(assumption) ltac:(first [assumption|congruence])) as (y & st' & Ev & ? & ?); rewrite Ev; clear Ev
    | T : tgood k G sk pols ?m ?w ?p ?i (OK ?b ?j), B : bounds ?w ?i (OK ?b ?j) |- context [ctm (parse ?m G) ?hl pols ?p (Spec.cx k ?w ?x, ?st)] =>
        let y := fresh "y" in let Ev := fresh "Ev" in
        destruct (ctm_good m w p i (OK b j) hl x st T B ltac:(assumption) ltac:(first [assumption|congruence])) as (y & Ev & ? & ?); rewrite Ev; clear Ev
    | T : tgood k G sk pols ?m ?w ?p ?i (KO ?e), B : bounds ?w ?i (KO ?e) |- context [ctm (parse ?m G) ?hl pols ?p (Spec.cx k ?w ?x, ?st)] =>
        let Ev := fresh "Ev" in
        pose proof (ctm_good m w p i (KO e) hl x st T B ltac:(assumption) ltac:(first [assumption|congruence])) as Ev; cbn iota in Ev; rewrite Ev; clear Ev
    | _ => progress rewrite ?put1, ?put2
    end; try discriminate.

  Lemma repeat_more_lim r c : repeat_more r c = lim_more (limit_of r) c.
  Proof. unfold repeat_more, limit_of. destruct (r_hi r); reflexivity. Qed.

  Lemma rep_case w p i n j lim (more : nat -> bool) q o ok e :
    evReps' w p lim i n j -> tcore p -> i <= length w -> sk w i = i -> Peg w q i o -> tcore q ->
    (forall c, more c = lim_more lim c) ->
    (forall m held z, construct h (Datatypes.S m) G held pols q z =
       (o0 <- offset ;; vs <- repeat_vals (construct h m G held pols p) m more [] ;; accept (ok vs) e o0 (VList vs)) z) ->
    eventually (fun m => cgood m w q i o).
  Proof.
    intros V Cp Hi E P Cq Hm H. destruct (V Cp Hi) as [N VN]. exists (Datatypes.S N). intros [|m] L; [lia|].
    apply noof_good; auto. intros held x st Hx Ex. rewrite H. cstep.
    specialize (VN m m held x st more lim [] ltac:(lia) ltac:(lia) Hx ltac:(congruence) Hm). rewrite lim_sub_0 in VN. specialize (VN eq_refl).
    destruct (repeat_vals _ _ _ _ _) as [[vs|e'| |] [c st']]; try discriminate; [|now elim VN].
    destruct (ok vs); discriminate.
  Qed.

  Lemma sep_case w p s mn i n j o :
    evSeps' w p s None i n j -> tcore p -> core s -> i <= length w -> sk w i = i -> Peg w (PSep p s mn true) i o ->
    eventually (fun m => cgood m w (PSep p s mn true) i o).
  Proof.
    intros V Cp Cs Hi E P. destruct (V eq_refl Cp Cs Hi) as [N VN]. exists (Datatypes.S N). intros [|m] L; [lia|].
    apply noof_good; auto; [apply tc_sep; auto|]. intros held x st Hx Ex. cbn [construct construct_step]. cstep.
    specialize (VN m m held x st [] ltac:(lia) ltac:(lia) Hx ltac:(congruence)).
    destruct (sep_vals _ _ _ _ _ _) as [[vs|e'| |] [c st']]; try discriminate; [|now elim VN].
    destruct (mn <=? length vs); discriminate.
  Qed.

  Theorem ccomplete_all :
    (forall w p i o, Peg w p i o -> evN w p i o) /\
    (forall w i u c m r, Spec.Acc k G sk w i u c m r -> True) /\
    (forall w i c m x r, Spec.Chk k G sk w i c m x r -> True) /\
    (forall w i u c l m r, Spec.Run k G sk w i u c l m r -> True) /\
    (forall w p l i n j, Spec.Reps k G sk w p l i n j -> evReps' w p l i n j) /\
    (forall w p s l i n j, Spec.Seps k G sk w p s l i n j -> evSeps' w p s l i n j) /\
    (forall w ps i e o, Spec.First k G sk w ps i e o -> evF' w ps i e o).
  Proof.
    apply (Peg_mutind k G sk evN (fun _ _ _ _ _ _ => True) (fun _ _ _ _ _ _ => True) (fun _ _ _ _ _ _ _ => True) evReps' evSeps' evF').
    all: try (intros; exact I).
    all: try (intros; intros P NL; exfalso; apply NL; exact I).
    all: try solve [start; repeat step1; fuel; ar].
    - (* or, second *) start. repeat step1. fuel. destruct o; ar.
    - (* longest, first *) start. repeat step1. fuel. ar. repeat (match goal with |- context [if ?b then _ else _] => destruct b end); discriminate.
    - start. repeat step1. fuel. ar. repeat (match goal with |- context [if ?b then _ else _] => destruct b end); discriminate.
    - (* choice *) start.
      match goal with IH : evF' _ _ _ _ _, Cp : forall p, In p ps -> _ |- _ => 
        destruct (IH (plain ps)) as [n V] end; auto.
      { unfold plain. now rewrite map_map, map_id. }
      { unfold plain. intros [p g] I. apply in_map_iff in I. destruct I as (p' & E' & I). injection E' as <- <-. auto. }
      exists (Datatypes.S n). intros [|m] Hm; [lia|]. apply noof_good; [econstructor; eauto; fail|assumption|].
      intros held x st Hx Ex. exact (V m ltac:(lia) held x st Hx Ex).
    - (* keyed choice *) start.
      match goal with IH : evF' _ _ _ _ _ |- _ => destruct (IH (keyed ps)) as [n V] end; auto.
      { unfold keyed. rewrite map_map. reflexivity. }
      { unfold keyed. intros [p g] I. apply in_map_iff in I. destruct I as ([p' v'] & E' & I). injection E' as <- <-. cbn [fst].
        match goal with Cp : forall p, In p ps -> _ |- _ => exact (Cp _ I) end. }
      exists (Datatypes.S n). intros [|m] Hm; [lia|]. apply noof_good; [econstructor; eauto; fail|assumption|].
      intros held x st Hx Ex. exact (V m ltac:(lia) held x st Hx Ex).
    - (* branch *) start. repeat step1. fuel. 
      match goal with Ht : forall w x, x <= length w -> t _ = t _, T : t _ = Ok _ |- _ => rewrite (Ht w x Hx), Ex, T end. destruct o; ar.
    - start. repeat step1. fuel. 
      match goal with Ht : forall w x, x <= length w -> t _ = t _, T : t _ = Ok _ |- _ => rewrite (Ht w x Hx), Ex, T end. destruct o; ar.
    - start. exists 1. intros [|m] Hm; [lia|]. apply noof_good; [econstructor; eauto; fail|assumption|].
      intros held x st Hx Ex. cbn [construct construct_step]; cstep.
      match goal with Ht : forall w x, x <= length w -> t _ = t _, T : t _ = Err _ |- _ => rewrite (Ht w x Hx), Ex, T end. discriminate.
    - start. eapply sep_case; eauto.
    - start. eapply sep_case; eauto.
    - start. eapply (rep_case w p i n j _ (repeat_more r)); eauto; intros; [apply tc_repeat; auto|apply repeat_more_lim|].
      change (construct h (Datatypes.S m) G held pols (PRepeat p r) z) with
        ((o0 <- offset ;; vs <- repeat_vals (construct h m G held pols p) m (repeat_more r) [] ;;
          accept ((fun vs => crange_contains r (length vs)) vs) ERepeat o0 (VList vs)) z). reflexivity.
    - start. eapply (rep_case w p i n j _ (repeat_more r)); eauto; intros; [apply tc_repeat; auto|apply repeat_more_lim|].
      change (construct h (Datatypes.S m) G held pols (PRepeat p r) z) with
        ((o0 <- offset ;; vs <- repeat_vals (construct h m G held pols p) m (repeat_more r) [] ;;
          accept ((fun vs => crange_contains r (length vs)) vs) ERepeat o0 (VList vs)) z). reflexivity.
    - start. eapply (rep_case w p i n j _ (fun _ => true)); eauto; intros; [apply tc_collect; auto|].
      change (construct h (Datatypes.S m) G held pols (PCollect p mn) z) with
        ((o0 <- offset ;; vs <- repeat_vals (construct h m G held pols p) m (fun _ => true) [] ;;
          accept ((fun vs => mn <=? length vs) vs) ECollect o0 (VList vs)) z). reflexivity.
    - start. eapply (rep_case w p i n j _ (fun _ => true)); eauto; intros; [apply tc_collect; auto|].
      change (construct h (Datatypes.S m) G held pols (PCollect p mn) z) with
        ((o0 <- offset ;; vs <- repeat_vals (construct h m G held pols p) m (fun _ => true) [] ;;
          accept ((fun vs => mn <=? length vs) vs) ECollect o0 (VList vs)) z). reflexivity.
    - (* pat *) start. eapply (via_tm w p (PPat p)); eauto. apply tc_pat; auto.
    - (* map *) start. repeat step1. fuel.
      match goal with T : CtorSpec.tcore k G sk HV p |- _ =>
        pose proof (construct_sound k G sk pols HV h SK TE IM HH m held p w x st T Hx) as VS end.
      destruct o as [b j|e]; [|ar].
      match goal with V : cgood _ _ _ _ _ |- _ => destruct (V held x st Hx Ex) as (v & y & st' & Ev & _ & _) end.
      rewrite Ev in *. inversion VS; subst.
      match goal with F : forall w i v j, _ -> exists v', f v = Ok v', T : Tree _ _ _ _ w p _ _ _ |- _ =>
        destruct (F _ _ _ _ T) as [v' ->] end. discriminate.
    - (* wrap *) start. repeat step1. fuel. destruct o; ar.
    - start. exists 1. intros [|m] Hm; [lia|]. apply noof_good; [econstructor; eauto; fail|assumption|]. discriminate.
    - (* ref *) start. rename x into r. match goal with H : env_get G r = Some p |- _ => pose proof (TE r p H); rename H into EG end.
      repeat step1. fuel. rewrite EG. destruct o; ar.
    - start. exists 1. intros [|m] Hm; [lia|]. apply noof_good; [econstructor; eauto; fail|assumption|].
      intros held y st Hx Ex. cbn [construct construct_step].
      match goal with H : env_get G x = None |- _ => rewrite H end. discriminate.
    - (* Reps *) intros w p i C Hi. exists 1. intros f [|fuel] held x st more lim0 acc _ F Hx E ML EL; [lia|].
      cbn [repeat_vals]. rewrite ML. destruct lim0 as [l|]; [|discriminate].
      cbn in EL. cbn [lim_more]. destruct (Nat.ltb_spec (length acc) l); [|discriminate]. injection EL; lia.
    - intros w p lim i e NZ P IH C Hi. pose proof (sk_le sk SK w i Hi). pose proof (sk_idem sk SK w i Hi).
      destruct (ev_of _ _ _ _ P IH C ltac:(auto) ltac:(auto)) as [n V]. exists (Datatypes.S n).
      intros f [|fuel] held x st more lim0 acc F1 F2 Hx E ML EL; [lia|]. specialize (V f ltac:(lia)).
      cbn [repeat_vals]. destruct (more (length acc)); [|discriminate]. cstep. ar.
    - intros w p lim i b j n j' NZ P IH R IHR C Hi. pose proof (sk_le sk SK w i Hi). pose proof (sk_idem sk SK w i Hi).
      destruct (bnds w p (sk w i) b j (cc p C) ltac:(auto) ltac:(auto) P) as ((? & ? & Hj) & _).
      destruct (ev_of _ _ _ _ P IH C ltac:(auto) ltac:(auto)) as [m V]. destruct (IHR C Hj) as [m' V'].
      exists (Datatypes.S (m + m')).
      intros f [|fuel] held x st more lim0 acc F1 F2 Hx E ML EL; [lia|]. specialize (V f ltac:(lia)).
      cbn [repeat_vals]. destruct (more (length acc)) eqn:Em; [|discriminate]. cstep. ar.
      eapply V'; eauto; try lia. rewrite EL, app_length, Nat.add_1_r. destruct lim0; simpl; auto. f_equal. lia.
    - (* Seps *) intros w p s i E. discriminate.
    - intros w p s lim i e NZ P IH -> C Cs Hi. pose proof (sk_le sk SK w i Hi). pose proof (sk_idem sk SK w i Hi).
      destruct (ev_of _ _ _ _ P IH C ltac:(auto) ltac:(auto)) as [n V]. exists (Datatypes.S n).
      intros f [|fuel] held x st acc F1 F2 Hx E; [lia|]. specialize (V f ltac:(lia)).
      cbn [sep_vals]. cstep. ar.
    - intros w p s lim i b j e NZ P IH P2 IH2 -> C Cs Hi. pose proof (sk_le sk SK w i Hi). pose proof (sk_idem sk SK w i Hi).
      repeat step1. merge. match goal with H : eventually _ |- _ => destruct H as [n V] end. exists (Datatypes.S n).
      intros f [|fuel] held x st acc F1 F2 Hx E; [lia|]. specialize (V f ltac:(lia)). cbv beta in V. brk.
      cbn [sep_vals]. cstep. ar.
    - intros w p s lim i b j b' j' n j'' NZ P IH P2 IH2 R IHR -> C Cs Hi. pose proof (sk_le sk SK w i Hi). pose proof (sk_idem sk SK w i Hi).
      repeat step1. merge. match goal with H : eventually _ |- _ => destruct H as [m V] end.
      destruct (IHR eq_refl C Cs ltac:(assumption)) as [m' V']. exists (Datatypes.S (m + m')).
      intros f [|fuel] held x st acc F1 F2 Hx E; [lia|]. specialize (V f ltac:(lia)). cbv beta in V. brk.
      cbn [sep_vals]. cstep. ar. eapply V'; eauto; lia.
    - (* First *) intros w i e [|g gs] E C Hi Ei; [|discriminate]. exists 0. intros. discriminate.
    - intros w p ps i e b j P IH [|[p' g] gs] E C Hi Ei; [discriminate|]. cbn in E. injection E as -> E.
      pose proof (C (p', g) (or_introl eq_refl)) as Cp. cbn in Cp. 
      destruct (ev_of _ _ _ _ P IH Cp Hi Ei) as [n V]. exists n. intros m Hm. specialize (V m Hm).
      intros held x st Hx Ex. cbn [con_choice fst snd]. cstep. ar.
    - intros w p ps i e e' o P IH R IHR [|[p' g] gs] E C Hi Ei; [discriminate|]. cbn in E. injection E as -> E.
      pose proof (C (p', g) (or_introl eq_refl)) as Cp. cbn in Cp. 
      destruct (IHR gs E (fun p I => C p (or_intror I)) Hi Ei) as [n' V'].
      destruct (ev_of _ _ _ _ P IH Cp Hi Ei) as [n V]. exists (n + n'). intros m Hm. specialize (V m ltac:(lia)).
      intros held x st Hx Ex. cbn [con_choice fst snd]. cstep. ar. apply V'; auto; lia.
  Qed.

  (** Whatever the specification says about [p] in front of [i], building with [p] eventually says. *)
  Theorem construct_complete w p i o : Peg w p i o -> tcore p -> i <= length w -> sk w i = i ->
    eventually (fun m => cgood m w p i o).
  Proof. intros P. apply (ev_of _ _ _ _ P). exact (proj1 ccomplete_all _ _ _ _ P). Qed.
End CtorComplete.
