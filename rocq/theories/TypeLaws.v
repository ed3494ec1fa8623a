(** Proofs about Types.v. *)

From Coq Require Import List Arith NArith Bool Lia.
From Verif Require Import Base Text Context Neu Syntax Regex Ctor TextProofs Spec CtorSpec ConSpec Types.
Import ListNotations.

(** Every value the computation returns satisfies [P]. *)
Definition oks {X A} (P : A -> Prop) (m : M X A) : Prop := forall x a x', m x = (Ok a, x') -> P a.

Section Rules.
  Context {X : Type}.

  Lemma oks_ret {A} (P : A -> Prop) a : P a -> oks (X := X) P (ret a).
  Proof. intros H x a' x' E. now injection E as <- _. Qed.
  Lemma oks_fail {A} (P : A -> Prop) e : oks (X := X) P (fail e).
  Proof. intros x a x' E. discriminate. Qed.
  Lemma oks_panic {A} (P : A -> Prop) : oks (X := X) P panic.
  Proof. intros x a x' E. discriminate. Qed.
  Lemma oks_oof {A} (P : A -> Prop) : oks (X := X) P oof.
  Proof. intros x a x' E. discriminate. Qed.
  Lemma oks_true {A} (m : M X A) : oks (fun _ => True) m.
  Proof. intros x a x' E. exact I. Qed.
  Lemma oks_bind {A B} (P : A -> Prop) (Q : B -> Prop) (m : M X A) (f : A -> M X B) :
    oks P m -> (forall a, P a -> oks Q (f a)) -> oks Q (bind m f).
  Proof.
    intros Hm Hf x b x' E. unfold bind in E. destruct (m x) as [[a|e| |] x0] eqn:Em; try discriminate.
    exact (Hf a (Hm _ _ _ Em) _ _ _ E).
  Qed.
  Lemma oks_any {A B} (Q : B -> Prop) (m : M X A) (f : A -> M X B) : (forall a, oks Q (f a)) -> oks Q (bind m f).
  Proof. intros H. apply (oks_bind (fun _ => True)); [apply oks_true|auto]. Qed.
  Lemma oks_catch {A} (P : A -> Prop) (m : M X A) :
    oks P m -> oks (fun r : A + error => match r with inl a => P a | inr _ => True end) (catch m).
  Proof.
    intros H x r x' E. unfold catch in E. destruct (m x) as [[a|e| |] x0] eqn:Em; try discriminate;
      injection E as <- _; [now apply H in Em|exact I].
  Qed.
  Lemma oks_lift {A} (P : A -> Prop) (r : res A) : (forall a, r = Ok a -> P a) -> oks (X := X) P (lift r).
  Proof. intros H x a x' E. injection E as E _. now apply H. Qed.
  Lemma oks_g_try {A} (P : A -> Prop) (m : M X A) : oks P m -> oks P (g_try m).
  Proof.
    intros H g a g' E. unfold g_try in E. destruct (m (g_ctx g)) as [[b|e| |] x0] eqn:Em; try discriminate.
    injection E as <- _. now apply H in Em.
  Qed.
  Lemma oks_g_on {A} (P : A -> Prop) (m : M X A) : oks P m -> oks P (g_on m).
  Proof.
    intros H g a g' E. unfold g_on in E. destruct (m (g_ctx g)) as [r x0] eqn:Em. injection E as -> _. now apply H in Em.
  Qed.
  Context `{HasOffset X}.
  Lemma oks_guard {A} (P : A -> Prop) (m : M (guard X) A) : oks P m -> oks P (with_guard m).
  Proof.
    intros Hm x a x' E. unfold with_guard in E. destruct (m (g_new x)) as [r g] eqn:Em. injection E as -> _. now apply Hm in Em.
  Qed.
  Lemma oks_reset {A} (P : A -> Prop) o (m : M X A) : oks P m -> oks P (on_err_reset o m).
  Proof.
    intros Hm x a x' E. unfold on_err_reset in E. destruct (m x) as [[b|e| |] x0] eqn:Em; try discriminate.
    injection E as <- _. now apply Hm in Em.
  Qed.
  Lemma oks_accept {A} (P : A -> Prop) ok e o a : P a -> oks (X := X) P (accept ok e o a).
  Proof.
    intros Ha. unfold accept. destruct ok; [now apply oks_ret|]. apply oks_any. intros []. apply oks_fail.
  Qed.
End Rules.

Section Loops.
  Context {X : Type} `{HasOffset X}.
  Variable P : val -> Prop.
  Variable con : M X val.
  Variable tms : M X span.
  Hypothesis HC : oks P con.

  Ltac catch_con := apply (oks_bind (fun r : val + error => match r with inl a => P a | inr _ => True end));
    [now apply oks_catch|intros [v|e] Hv].
  Lemma snoc_all acc v : Forall P acc -> P v -> Forall P (acc ++ [v]).
  Proof. intros F V. apply Forall_app. split; auto. Qed.

  Lemma oks_repeat_vals more : forall n acc, Forall P acc -> oks (Forall P) (repeat_vals con n more acc).
  Proof.
    induction n as [|n IH]; intros acc F; cbn [repeat_vals]; [apply oks_oof|].
    destruct (more _); [|now apply oks_ret]. catch_con; [|now apply oks_ret]. apply IH. now apply snoc_all.
  Qed.
  Lemma oks_repeat2_vals m : forall n acc, Forall P acc -> length acc <= m ->
    oks (fun l => Forall P l /\ length l <= m) (repeat2_vals con n m acc).
  Proof.
    induction n as [|n IH]; intros acc F L; cbn [repeat2_vals]; [apply oks_oof|].
    destruct (_ <=? _); [|now apply oks_ret]. catch_con; [|now apply oks_ret].
    destruct (Nat.ltb_spec (length acc) m) as [Lt|Ge]; [|apply oks_panic].
    apply IH; [now apply snoc_all|]. rewrite app_length. cbn. lia.
  Qed.
  Lemma oks_sep_vals skip : forall n acc, Forall P acc -> oks (Forall P) (sep_vals con tms n skip acc).
  Proof.
    induction n as [|n IH]; intros acc F; cbn [sep_vals]; [apply oks_oof|].
    catch_con; [|now apply oks_ret]. apply oks_any. intros [s|e].
    - apply IH. now apply snoc_all.
    - apply oks_ret. destruct skip; [now apply snoc_all|assumption].
  Qed.
  Lemma oks_sep2_vals m skip : forall n acc, Forall P acc -> length acc <= m ->
    oks (fun l => Forall P l /\ length l <= m) (sep2_vals con tms n m skip acc).
  Proof.
    induction n as [|n IH]; intros acc F L; cbn [sep2_vals]; [apply oks_oof|].
    destruct (_ <=? _); [|now apply oks_ret]. catch_con; [|now apply oks_ret]. apply oks_any.
    intros [s|e]; [|destruct skip; [|now apply oks_ret]];
      (destruct (Nat.ltb_spec (length acc) m) as [Lt|Ge]; [|apply oks_panic]).
    - apply IH; [now apply snoc_all|]. rewrite app_length. cbn. lia.
    - apply oks_ret. split; [now apply snoc_all|]. rewrite app_length. cbn. lia.
  Qed.
  Lemma oks_sepcollect_vals skip : forall n en acc, Forall P acc -> oks (Forall P) (sepcollect_vals con tms n skip en acc).
  Proof.
    induction n as [|n IH]; intros en acc F; cbn [sepcollect_vals]; [apply oks_oof|].
    catch_con; [|now apply oks_ret]. apply oks_any. intros s. destruct en; [now apply oks_ret|].
    destruct (_ || _); [|now apply oks_ret]. apply IH. now apply snoc_all.
  Qed.
End Loops.

Section Choices.
  Context {X : Type} `{HasOffset X}.
  Variable con : pat -> M X val.
  Variable Q : val -> Prop.

  Lemma oks_con_choice o e ps : (forall p g, In (p, g) ps -> oks (fun v => Q (g v)) (con p)) -> oks Q (con_choice con o e ps).
  Proof.
    induction ps as [|[p g] ps IH]; intros H1; cbn [con_choice]; [apply oks_fail|].
    apply (oks_bind (fun r : val + error => match r with inl a => Q (g a) | inr _ => True end)).
    - apply oks_catch, oks_reset. cbn [fst]. apply (H1 p g). now left.
    - intros [v|e'] Hv; [now apply oks_ret|]. apply IH. intros; apply H1; now right.
  Qed.
  Lemma oks_con_choice_ltm o e ps : (forall p g, In (p, g) ps -> oks (fun v => Q (g v)) (con p)) ->
    forall best en, (forall v, best = Some v -> Q v) -> oks Q (con_choice_ltm con o e best en ps).
  Proof.
    induction ps as [|[p g] ps IH]; intros H1 best en B; cbn [con_choice_ltm].
    - destruct best; [apply oks_ret; now apply B|apply oks_fail].
    - assert (H2 : forall p' g', In (p', g') ps -> oks (fun v => Q (g' v)) (con p')) by (intros; apply H1; now right).
      apply oks_any. intros []. apply (oks_bind (fun r : val + error => match r with inl a => Q (g a) | inr _ => True end)).
      + apply oks_catch. cbn [fst]. apply (H1 p g). now left.
      + intros r Hr. apply oks_any. intros o'. destruct r as [v|e']; [|now apply IH].
        destruct (_ <? _); apply IH; auto. intros v' E. now injection E as <-.
  Qed.
End Choices.

Section Values.
  Context {ST : Type}.
  Variable h : handler ST.
  Variable Out : val -> Prop.
  Variable calm : bool.
  Variable T : nat -> ty.
  Variable G : env.
  Hypothesis HO : forall c s st v, fst (h c s st) = Ok v -> Out v.
  Hypothesis HG : typed_env Out calm T G.

  Notation typed := (typed Out calm T).
  Notation inh := (inh Out).

  Lemma oks_invoke s : oks Out (invoke h s).
  Proof.
    intros x a x' E. unfold invoke in E. destruct (h (fst x) s (snd x)) as [r st] eqn:Eh. injection E as -> _.
    apply (HO (fst x) s (snd x)). now rewrite Eh.
  Qed.
  Lemma gives_ok B r v : gives Out calm B r -> r = Ok v -> inh B v.
  Proof. now intros H ->. Qed.
  Lemma cells_typed n A l : Forall (inh A) l -> length l <= n -> inh (TArray n A) (cells n l).
  Proof.
    intros F L. cbn [Types.inh cells]. split.
    - rewrite app_length, map_length, repeat_length. lia.
    - apply Forall_app. split.
      + apply Forall_map. exact F.
      + apply Forall_forall. intros x Hx. apply repeat_spec in Hx. now subst.
  Qed.

  Section Step.
    Variable pr : list nat -> list pat -> pat -> M ctx span.
    Variable con : list nat -> pat -> M (ctx * ST) val.
    Variable fuel : nat.
    Variable held : list nat.
    Variable pols : list pat.
    Hypothesis IH : forall hl p A, typed p A -> oks (inh A) (con hl p).

    Lemma step_typed p A : typed p A -> oks (inh A) (construct_step h G pr con fuel held pols p).
    Proof.
      intros Tp. destruct Tp; cbn [construct_step].
      - destruct p; try contradiction; (apply oks_any; intros s; apply oks_invoke).
      - apply oks_any. intros s. apply oks_invoke.
      - apply oks_guard, oks_g_try. apply (oks_bind (inh A)); [auto|]. intros a Ha.
        apply (oks_bind (inh B)); [auto|]. intros b Hb. apply oks_ret. cbn. auto.
      - apply oks_guard. apply (oks_bind (inh A)); [apply oks_g_try; auto|]. intros a Ha. apply oks_any. intros [s|e].
        + apply (oks_bind (inh B)); [apply oks_g_try; auto|]. intros b Hb. apply oks_ret. cbn. auto.
        + apply oks_ret. cbn. auto.
      - apply oks_any. intros o. apply oks_reset.
        apply (oks_bind (fun r : val + error => match r with inl a => inh A a | inr _ => True end)); [apply oks_catch; auto|].
        intros [v|e] Hv; [now apply oks_ret|]. apply oks_any. intros _. auto.
      - apply oks_any. intros o.
        apply (oks_bind (fun r : val + error => match r with inl a => inh A a | inr _ => True end)); [apply oks_catch; auto|].
        intros a Ha. apply oks_any. intros ol. apply oks_any. intros [].
        apply (oks_bind (fun r : val + error => match r with inl a => inh A a | inr _ => True end)); [apply oks_catch; auto|].
        intros b Hb. apply oks_any. intros or. destruct a as [v|e], b as [w|e']; [destruct (_ <=? _)| | |];
          apply oks_any; intros []; auto using oks_ret, oks_fail.
      - apply oks_guard. apply oks_any. intros s. apply oks_g_try. auto.
      - apply oks_guard. apply (oks_bind (inh A)); [apply oks_g_try; auto|]. intros v Hv. apply oks_any. intros s. now apply oks_ret.
      - apply oks_guard. apply oks_any. intros s. apply (oks_bind (inh A)); [apply oks_g_try; auto|]. intros v Hv.
        apply oks_any. intros s'. now apply oks_ret.
      - apply oks_guard. apply (oks_bind (inh A)); [apply oks_g_try; auto|]. intros a Ha. apply oks_any. intros _.
        apply (oks_bind (inh B)); [apply oks_g_try; auto|]. intros b Hb. apply oks_ret. cbn. auto.
      - apply oks_any. intros o. apply (oks_bind (Forall (inh A))); [apply oks_sep_vals; auto|]. intros vs F. now apply oks_accept.
      - apply oks_any. intros o. eapply oks_bind; [apply (oks_sep2_vals (inh A)); [auto|constructor|apply Nat.le_0_l]|].
        intros vs [F L]. apply oks_accept. now apply cells_typed.
      - apply oks_any. intros o. apply (oks_bind (Forall (inh A))); [apply oks_sepcollect_vals; auto|]. intros vs F. now apply oks_accept.
      - apply oks_any. intros o. apply (oks_bind (Forall (inh A))); [apply oks_repeat_vals; auto|]. intros vs F. now apply oks_accept.
      - apply oks_any. intros o. eapply oks_bind; [apply (oks_repeat2_vals (inh A)); [auto|constructor|apply Nat.le_0_l]|].
        intros vs [F L]. apply oks_accept. now apply cells_typed.
      - apply oks_any. intros o. apply (oks_bind (Forall (inh A))); [apply oks_repeat_vals; auto|]. intros vs F. now apply oks_accept.
      - apply oks_any. intros o.
        apply (oks_bind (fun r : val + error => match r with inl a => inh A a | inr _ => True end)); [apply oks_catch, oks_reset; auto|].
        intros [v|e] Hv; apply oks_ret; cbn; auto.
      - apply oks_any. intros o. apply oks_any. intros b. apply oks_reset. destruct b; auto.
      - apply (oks_bind (inh A)); [auto|]. intros v Hv. apply oks_lift. intros x E. exact (gives_ok _ _ _ (H v Hv) E).
      - apply oks_guard. apply (oks_bind (inh A)); [apply oks_g_try; auto|]. intros a Ha.
        apply (oks_bind (fun q => typed q B)).
        + apply oks_g_on. intros x q x' E. unfold on_ctx in E. destruct (f (fst x) a) as [r c] eqn:Ef. injection E as -> _.
          apply (H (fst x) a q Ha). now rewrite Ef.
        + intros q Tq. apply (oks_bind (inh B)); [apply oks_g_try; auto|]. intros b Hb. apply oks_ret. cbn. auto.
      - intros x v x' E. unfold on_ctx in E. destruct (f (fst x)) as [r c] eqn:Ef. injection E as -> _.
        apply (gives_ok A (fst (f (fst x)))); [auto|now rewrite Ef].
      - apply oks_any. intros o.
        assert (HP : forall p g, In (p, g) (plain ps) -> oks (fun v => inh A (g v)) (con held p)).
        { intros p g I. unfold plain in I. apply in_map_iff in I. destruct I as (q & E & Iq). injection E as <- <-. auto. }
        destruct b; [apply oks_con_choice_ltm; auto; discriminate|apply oks_con_choice; auto].
      - apply oks_any. intros o.
        assert (HP : forall p g, In (p, g) (keyed ps) -> oks (fun v => inh (TPair A (TIs V)) (g v)) (con held p)).
        { intros p g I. unfold keyed in I. apply in_map_iff in I. destruct I as ([q y] & E & Iq). injection E as <- <-.
          destruct (H q y Iq) as [Tq Vy]. intros x v x' Ev. cbn. split; [now apply (IH held q A Tq) in Ev|exact Vy]. }
        destruct b; [apply oks_con_choice_ltm; auto; discriminate|apply oks_con_choice; auto].
      - auto.
      - apply oks_fail.
      - destruct (env_get G i) as [q|] eqn:Eq; [auto|apply oks_fail].
      - destruct (existsb _ _); [apply oks_panic|]. destruct (env_get G i) as [q|] eqn:Eq; [auto|apply oks_fail].
    Qed.
  End Step.

  Lemma construct_typed pols n : forall held p A, typed p A -> oks (inh A) (construct h n G held pols p).
  Proof.
    induction n as [|n IH]; intros held p A Tp; cbn [construct]; [apply oks_oof|]. apply step_typed; auto.
  Qed.
End Values.

(** Typed parsers do not panic. *)
Section NoPanic.
  Variable k : kind.
  Variable G : env.
  Variable sk : text -> nat -> nat.
  Context {ST : Type}.
  Variable hv : text -> nat -> nat -> ST -> res val * ST.
  Variable Out : val -> Prop.
  Variable T : nat -> ty.
  Hypothesis HG : typed_env Out true T G.
  Hypothesis HH : forall w b j s, gives Out true TOut (fst (hv w b j s)).

  Notation typed := (typed Out true T).
  Notation inh := (inh Out).

  Definition fine (P : val -> Prop) (o : cout ST) : Prop := match o with CV v _ _ => P v | CE _ _ _ => True | CP => False end.
  Definition lfine (P : val -> Prop) (l : lout ST) : Prop := match l with LV vs _ _ => Forall P vs | LP => False end.

  Lemma fine_settle B j (r : res val * ST) : gives Out true B (fst r) -> fine (inh B) (settle j r).
  Proof. destruct r as [[v|e| |] s]; cbn; auto; discriminate. Qed.
  Lemma fine_undo P Q i (o : cout ST) : fine P o -> stops o -> fine Q (undo i o).
  Proof. destruct o; cbn; auto; contradiction. Qed.
  Lemma fine_undo' P i (o : cout ST) : fine P o -> fine P (undo i o).
  Proof. destruct o; cbn; auto. Qed.
  Lemma fine_stops P Q (o : cout ST) : fine P o -> stops o -> fine Q o.
  Proof. destruct o; cbn; auto; contradiction. Qed.
  Lemma fine_longer P i (a b : cout ST) : fine P a -> fine P b -> fine P (longer i a b).
  Proof. destruct a, b; cbn; auto. destruct (_ <=? _); cbn; auto. Qed.
  Lemma fine_count good e i A (l : lout ST) : lfine (inh A) l -> fine (inh (TVec A)) (count_ok good e i VList l).
  Proof. destruct l; cbn; auto. destruct (good vs); cbn; auto. Qed.
  Lemma fine_lcons (P : val -> Prop) v (l : lout ST) : P v -> lfine P l -> lfine P (lcons v l).
  Proof. destruct l; cbn; auto. Qed.

  Definition alts (Q : val -> Prop) (ps : list (pat * (val -> val))) : Prop :=
    forall p g, In (p, g) ps -> exists A, typed p A /\ forall v, inh A v -> Q (g v).
  Lemma alts_plain ps A : (forall p, In p ps -> typed p A) -> alts (inh A) (plain ps).
  Proof.
    intros H p g I. unfold plain in I. apply in_map_iff in I. destruct I as (q & E & Iq). injection E as <- <-. exists A. auto.
  Qed.
  Lemma alts_keyed ps A (V : val -> Prop) :
    (forall p v, In (p, v) ps -> typed p A /\ V v) -> alts (inh (TPair A (TIs V))) (keyed ps).
  Proof.
    intros H p g I. unfold keyed in I. apply in_map_iff in I. destruct I as ([q y] & E & Iq). injection E as <- <-.
    destruct (H q y Iq). exists A. cbn. auto.
  Qed.

  Lemma con_typed :
    (forall w p i s o, Con k G sk hv w p i s o -> forall A, typed p A -> fine (inh A) o) /\
    (forall w p lim i s l, Creps k G sk hv w p lim i s l -> forall A, typed p A -> lfine (inh A) l) /\
    (forall w p q b lim i s l, Cseps k G sk hv w p q b lim i s l -> forall A, typed p A -> lfine (inh A) l) /\
    (forall w p q b en i s l, Cpolls k G sk hv w p q b en i s l -> forall A, typed p A -> lfine (inh A) l) /\
    (forall w e ps i s o, Cfirst k G sk hv w e ps i s o -> forall Q, alts Q ps -> fine Q o) /\
    (forall w e ps i best en cur s o, Clongest k G sk hv w e ps i best en cur s o ->
      forall Q, alts Q ps -> (forall v, best = Some v -> Q v) -> fine Q o).
  Proof.
    apply Con_mutind; intros.
    all: try match goal with
         | Tp : typed ?p _, L : leafy ?p |- _ =>
             destruct p; try contradiction; inversion Tp; subst
         | Tp : typed (_ _) _ |- _ => inversion Tp; subst; try contradiction; try discriminate
         | Tp : typed PNoneP _ |- _ => exact I
         end; try exact I.
    all: try match goal with R : env_get G _ = Some ?p |- _ => pose proof (HG _ _ R) end.
    all: repeat match goal with
         | IH : forall A, typed ?p A -> fine _ _, Tp : typed ?p ?B |- _ => specialize (IH B Tp)
         | IH : forall A, typed ?p A -> lfine _ _, Tp : typed ?p ?B |- _ => specialize (IH B Tp)
         end.
    all: cbn [fine lfine] in *; try contradiction.
    all: try solve [ exact I | constructor | assumption | cbn; auto
                   | apply fine_settle; auto | eapply fine_undo; eauto | apply fine_undo'; auto | eapply fine_stops; eauto
                   | apply fine_longer; auto | apply fine_count; auto | apply fine_lcons; auto ].
    - apply fine_undo'. apply H1. now destruct b.
    - now elim (proj1 (H4 eq_refl (cx k w i))).
    - apply fine_settle. cbn [fst]. auto.
    - elim (proj1 (H8 eq_refl (cx k w j) a H0)). now rewrite H1.
    - eapply fine_undo; [|eassumption]. apply (H4 B). apply (H10 (cx k w j) a); [assumption|now rewrite H1].
    - cbn [Types.inh]. split; [assumption|]. apply H4. apply (H9 (cx k w j) a); [assumption|now rewrite H1].
    - apply fine_settle. specialize (H4 (cx k w i)). now rewrite H in H4.
    - specialize (H2 (cx k w i)). now rewrite H in H2.
    - apply H0. now apply alts_plain.
    - apply H0; [now apply alts_plain|discriminate].
    - apply H0. now apply alts_keyed.
    - apply H0; [now apply alts_keyed|discriminate].
    - destruct skip; auto.
    - destruct (H1 p g (or_introl eq_refl)) as (A & Tp & HQ). apply HQ. now apply H0.
    - destruct (H1 p g (or_introl eq_refl)) as (A & Tp & HQ). exact (H0 A Tp).
    - apply H2. intros p' g' I'. apply H3. now right.
    - apply H3; [intros p' g' I'; apply H4; now right|]. intros v' E. injection E as <-.
      destruct (H4 p g (or_introl eq_refl)) as (A & Tp & HQ). apply HQ. now apply H0.
    - apply H3; [|assumption]. intros p' g' I'; apply H4; now right.
    - apply H2; [|assumption]. intros p' g' I'; apply H3; now right.
    - destruct (H1 p g (or_introl eq_refl)) as (A & Tp & HQ). exact (H0 A Tp).
  Qed.
End NoPanic.
