(** Relating two runs of the combinators: the results and the states correspond step by step. *)

From Coq Require Import List Arith NArith Bool Lia.
From Verif Require Import Base Text Context Neu Syntax Regex Ctor Api TextProofs Obs Mono.
Import ListNotations.

Inductive rsim {A B} (RA : A -> B -> Prop) : res A -> res B -> Prop :=
| rs_ok a b : RA a b -> rsim RA (Ok a) (Ok b)
| rs_err e : rsim RA (Err e) (Err e)
| rs_panic : rsim RA Panic Panic
| rs_oof : rsim RA OOF OOF.

Definition msim {X Y A B} (RX : X -> Y -> Prop) (RA : A -> B -> Prop) (m : M X A) (m' : M Y B) : Prop :=
  forall x y, RX x y -> rsim RA (fst (m x)) (fst (m' y)) /\ RX (snd (m x)) (snd (m' y)).

Inductive sumsim {A B} (RA : A -> B -> Prop) : A + error -> B + error -> Prop :=
| ss_l a b : RA a b -> sumsim RA (inl a) (inl b)
| ss_r e : sumsim RA (inr e) (inr e).

Section Generic.
  Context {X Y : Type} (RX : X -> Y -> Prop).

  Lemma msim_ret {A B} (RA : A -> B -> Prop) a b : RA a b -> msim RX RA (ret a) (ret b).
  Proof. intros H x y R. cbn. split; [now constructor|exact R]. Qed.
  Lemma msim_fail {A B} (RA : A -> B -> Prop) e : msim RX RA (fail e) (fail e).
  Proof. intros x y R. cbn. split; [constructor|exact R]. Qed.
  Lemma msim_panic {A B} (RA : A -> B -> Prop) : msim RX RA panic panic.
  Proof. intros x y R. cbn. split; [constructor|exact R]. Qed.
  Lemma msim_oof {A B} (RA : A -> B -> Prop) : msim RX RA oof oof.
  Proof. intros x y R. cbn. split; [constructor|exact R]. Qed.
  Lemma msim_lift {A B} (RA : A -> B -> Prop) r r' : rsim RA r r' -> msim RX RA (lift r) (lift r').
  Proof. intros H x y R. cbn. split; [exact H|exact R]. Qed.
  Lemma msim_reads {A B} (RA : A -> B -> Prop) f f' :
    (forall x y, RX x y -> rsim RA (f x) (f' y)) -> msim RX RA (reads f) (reads f').
  Proof. intros H x y R. cbn. split; [now apply H|exact R]. Qed.
  Lemma msim_bind {A B C D} (RA : A -> B -> Prop) (RC : C -> D -> Prop) m m' k k' :
    msim RX RA m m' -> (forall a b, RA a b -> msim RX RC (k a) (k' b)) ->
    msim RX RC (bind m k) (bind m' k').
  Proof.
    intros H1 H2 x y R. unfold bind. destruct (H1 x y R) as [H3 H4].
    destruct (m x) as [r x1], (m' y) as [r' y1]. cbn in H3, H4.
    destruct H3 as [a b H|e| |]; try (split; [constructor|exact H4]). now apply H2.
  Qed.
  Lemma msim_catch {A B} (RA : A -> B -> Prop) m m' :
    msim RX RA m m' -> msim RX (sumsim RA) (catch m) (catch m').
  Proof.
    intros H1 x y R. unfold catch. destruct (H1 x y R) as [H3 H4].
    destruct (m x) as [r x1], (m' y) as [r' y1]. cbn in H3, H4.
    destruct H3 as [a b H|e| |]; split; try exact H4; repeat constructor. exact H.
  Qed.

  Context `{HX : HasOffset X} `{HY : HasOffset Y} (RO : nat -> nat -> Prop).
  Hypothesis R_get : forall x y, RX x y -> RO (get_off x) (get_off y).
  Hypothesis R_put : forall x y o o', RX x y -> RO o o' -> RX (put_off o x) (put_off o' y).

  Inductive gsim : guard X -> guard Y -> Prop :=
  | gs x y o o' b : RX x y -> RO o o' -> gsim (Guard x o b) (Guard y o' b).

  Lemma msim_offset : msim RX RO offset offset.
  Proof. intros x y R. cbn. split; [constructor; now apply R_get|exact R]. Qed.
  Lemma msim_set_offset o o' : RO o o' -> msim RX eq (set_offset o) (set_offset o').
  Proof. intros H x y R. cbn. split; [now constructor|now apply R_put]. Qed.
  Lemma msim_guard {A B} (RA : A -> B -> Prop) m m' :
    msim gsim RA m m' -> msim RX RA (with_guard m) (with_guard m').
  Proof.
    intros H x y R. unfold with_guard. destruct (H (g_new x) (g_new y)) as [H1 H2].
    { unfold g_new. constructor; auto. }
    destruct (m (g_new x)) as [r g], (m' (g_new y)) as [r' g']. cbn in H1, H2 |- *.
    split; [exact H1|]. destruct H2 as [x1 y1 o o' b R1 R2]. unfold g_drop. cbn.
    destruct b; auto.
  Qed.
  Lemma msim_g_try {A B} (RA : A -> B -> Prop) m m' : msim RX RA m m' -> msim gsim RA (g_try m) (g_try m').
  Proof.
    intros H g g' [x y o o' b R1 R2]. unfold g_try. cbn. destruct (H x y R1) as [H3 H4].
    destruct (m x) as [r x1], (m' y) as [r' y1]. cbn in H3, H4.
    destruct H3; cbn; split; constructor; auto.
  Qed.
  Lemma msim_g_on {A B} (RA : A -> B -> Prop) m m' : msim RX RA m m' -> msim gsim RA (g_on m) (g_on m').
  Proof.
    intros H g g' [x y o o' b R1 R2]. unfold g_on. cbn. destruct (H x y R1) as [H3 H4].
    destruct (m x) as [r x1], (m' y) as [r' y1]. cbn in H3, H4. cbn. split; [exact H3|now constructor].
  Qed.
  Lemma msim_g_beg : msim gsim RO g_beg g_beg.
  Proof. intros g g' [x y o o' b R1 R2]. cbn. split; [now constructor|now constructor]. Qed.
  Lemma msim_reset {A B} (RA : A -> B -> Prop) o o' m m' : RO o o' -> msim RX RA m m' ->
    msim RX RA (on_err_reset o m) (on_err_reset o' m').
  Proof.
    intros HO H x y R. unfold on_err_reset. destruct (H x y R) as [H3 H4].
    destruct (m x) as [r x1], (m' y) as [r' y1]. cbn in H3, H4.
    destruct H3; cbn; split; auto; constructor; auto.
  Qed.
  Lemma msim_accept {A B} (RA : A -> B -> Prop) ok e o o' a b : RO o o' -> RA a b ->
    msim RX RA (accept ok e o a) (accept ok e o' b).
  Proof.
    intros HO HA. unfold accept. destruct ok; [now apply msim_ret|].
    eapply msim_bind; [now apply msim_set_offset|]. intros _ _ _. apply msim_fail.
  Qed.

  (** Loops. *)
  Context (RS : span -> span -> Prop).
  Hypothesis R_join : forall a a' b b', RS a a' -> RS b b' -> rsim RS (add_assign a b) (add_assign a' b').

  Lemma msim_join a a' b b' : RS a a' -> RS b b' -> msim RX RS (join a b) (join a' b').
  Proof. intros H1 H2. apply msim_lift. now apply R_join. Qed.

  Definition RCS (a b : nat * span) : Prop := fst a = fst b /\ RS (snd a) (snd b).

  Lemma msim_repeat_loop t t' more : msim RX RS t t' -> forall n cnt s s', RS s s' ->
    msim RX RCS (repeat_loop t n more cnt s) (repeat_loop t' n more cnt s').
  Proof.
    intros HT n. induction n as [|n IH]; intros cnt s s' HS; cbn [repeat_loop]; [apply msim_oof|].
    destruct (more cnt); [|now apply msim_ret].
    eapply msim_bind; [apply msim_catch; exact HT|]. intros r r' [a b H|e]; [|now apply msim_ret].
    eapply msim_bind; [apply msim_join; eassumption|]. intros u v HU. now apply IH.
  Qed.
  Lemma msim_sep_loop t t' q q' more skip : msim RX RS t t' -> msim RX RS q q' -> forall n cnt s s', RS s s' ->
    msim RX RCS (sep_loop t q n more skip cnt s) (sep_loop t' q' n more skip cnt s').
  Proof.
    intros HT HQ n. induction n as [|n IH]; intros cnt s s' HS; cbn [sep_loop]; [apply msim_oof|].
    destruct (more cnt); [|now apply msim_ret].
    eapply msim_bind; [apply msim_catch; exact HT|]. intros r r' [a b H|e]; [|now apply msim_ret].
    eapply msim_bind; [apply msim_catch; exact HQ|]. intros r2 r2' [a' b' H'|e'].
    - eapply msim_bind; [apply msim_join; eassumption|]. intros u v HU.
      eapply msim_bind; [apply msim_join; eassumption|]. intros u' v' HU'. now apply IH.
    - destruct skip; [|now apply msim_ret].
      eapply msim_bind; [apply msim_join; eassumption|]. intros u v HU. now apply msim_ret.
  Qed.

  Lemma msim_repeat_vals t t' more : msim RX eq t t' -> forall n acc,
    msim RX eq (repeat_vals t n more acc) (repeat_vals t' n more acc).
  Proof.
    intros HT n. induction n as [|n IH]; intros acc; cbn [repeat_vals]; [apply msim_oof|].
    destruct (more (length acc)); [|now apply msim_ret].
    eapply msim_bind; [apply msim_catch; exact HT|]. intros r r' [a b ->|e]; [|now apply msim_ret]. apply IH.
  Qed.
  Lemma msim_repeat2_vals t t' l : msim RX eq t t' -> forall n acc,
    msim RX eq (repeat2_vals t n l acc) (repeat2_vals t' n l acc).
  Proof.
    intros HT n. induction n as [|n IH]; intros acc; cbn [repeat2_vals]; [apply msim_oof|].
    destruct (length acc <=? l); [|now apply msim_ret].
    eapply msim_bind; [apply msim_catch; exact HT|]. intros r r' [a b ->|e]; [|now apply msim_ret].
    destruct (length acc <? l); [apply IH|apply msim_panic].
  Qed.
  Lemma msim_sep_vals t t' q q' skip : msim RX eq t t' -> msim RX RS q q' -> forall n acc,
    msim RX eq (sep_vals t q n skip acc) (sep_vals t' q' n skip acc).
  Proof.
    intros HT HQ n. induction n as [|n IH]; intros acc; cbn [sep_vals]; [apply msim_oof|].
    eapply msim_bind; [apply msim_catch; exact HT|]. intros r r' [a b ->|e]; [|now apply msim_ret].
    eapply msim_bind; [apply msim_catch; exact HQ|]. intros r2 r2' [a' b' H'|e']; [apply IH|now apply msim_ret].
  Qed.
  Lemma msim_sep2_vals t t' q q' l skip : msim RX eq t t' -> msim RX RS q q' -> forall n acc,
    msim RX eq (sep2_vals t q n l skip acc) (sep2_vals t' q' n l skip acc).
  Proof.
    intros HT HQ n. induction n as [|n IH]; intros acc; cbn [sep2_vals]; [apply msim_oof|].
    destruct (length acc <=? l); [|now apply msim_ret].
    eapply msim_bind; [apply msim_catch; exact HT|]. intros r r' [a b ->|e]; [|now apply msim_ret].
    eapply msim_bind; [apply msim_catch; exact HQ|]. intros r2 r2' [a' b' H'|e'].
    - destruct (length acc <? l); [apply IH|apply msim_panic].
    - destruct skip; [destruct (length acc <? l); [now apply msim_ret|apply msim_panic]|now apply msim_ret].
  Qed.
  Lemma msim_sepcollect_vals t t' q q' skip : msim RX eq t t' -> msim RX RS q q' -> forall n en acc,
    msim RX eq (sepcollect_vals t q n skip en acc) (sepcollect_vals t' q' n skip en acc).
  Proof.
    intros HT HQ n. induction n as [|n IH]; intros en acc; cbn [sepcollect_vals]; [apply msim_oof|].
    eapply msim_bind; [apply msim_catch; exact HT|]. intros r r' [a b ->|e]; [|now apply msim_ret].
    eapply msim_bind; [apply msim_catch; exact HQ|]. intros r2 r2' HR.
    destruct en; [now apply msim_ret|].
    destruct HR as [a' b' H'|e']; cbn [negb orb]; [apply IH|]. destruct skip; [apply IH|now apply msim_ret].
  Qed.
  Lemma msim_con_choice (c : pat -> M X val) (c'' : pat -> M Y val) o o' e : RO o o' -> forall ps,
    (forall p, In p (map fst ps) -> msim RX eq (c p) (c'' p)) ->
    msim RX eq (con_choice c o e ps) (con_choice c'' o' e ps).
  Proof.
    intros HO ps. induction ps as [|p ps IH]; intros HC; cbn [con_choice]; [apply msim_fail|].
    eapply msim_bind; [apply msim_catch; apply msim_reset; [exact HO|apply HC; now left]|].
    intros r r' [a b ->|er]; [now apply msim_ret|]. apply IH. intros q Hq. apply HC. now right.
  Qed.
  Hypothesis R_ltb : forall o o' p p', RO o o' -> RO p p' -> (o <? p) = (o' <? p').
  Lemma msim_con_choice_ltm (c : pat -> M X val) (c'' : pat -> M Y val) o o' e : RO o o' -> forall ps,
    (forall p, In p (map fst ps) -> msim RX eq (c p) (c'' p)) -> forall best en en', RO en en' ->
    msim RX eq (con_choice_ltm c o e best en ps) (con_choice_ltm c'' o' e best en' ps).
  Proof.
    intros HO ps. induction ps as [|p ps IH]; intros HC best en en' HE; cbn [con_choice_ltm].
    - destruct best; [now apply msim_ret|apply msim_fail].
    - eapply msim_bind; [now apply msim_set_offset|]. intros _ _ _.
      eapply msim_bind; [apply msim_catch; apply HC; now left|]. intros r r' HR.
      eapply msim_bind; [apply msim_offset|]. intros q q' HQ.
      assert (forall p, In p (map fst ps) -> msim RX eq (c p) (c'' p)) as HC' by (intros u Hu; apply HC; now right).
      destruct HR as [a b ->|er]; [|now apply IH]. rewrite (R_ltb _ _ _ _ HE HQ).
      destruct (en' <? q'); now apply IH.
  Qed.
End Generic.

Section Choices.
  Context (RX : ctx -> ctx -> Prop) (RO : nat -> nat -> Prop) (RS : span -> span -> Prop).
  Hypothesis R_put : forall x y o o', RX x y -> RO o o' -> RX (put_off o x) (put_off o' y).
  Hypothesis R_len : forall s s', RS s s' -> slen s = slen s'.

  Lemma msim_choice (c c' : pat -> M ctx span) o o' e : RO o o' -> forall ps,
    (forall p, In p ps -> msim RX RS (c p) (c' p)) -> msim RX RS (choice c o e ps) (choice c' o' e ps).
  Proof.
    intros HO ps. induction ps as [|p ps IH]; intros HC; cbn [choice]; [apply msim_fail|].
    eapply msim_bind.
    - apply msim_catch. eapply (msim_reset RX RO R_put); [exact HO|]. apply HC. now left.
    - intros r r' [a b H|er]; [now apply msim_ret|]. apply IH. intros q Hq. apply HC. now right.
  Qed.
  Inductive osim : option span -> option span -> Prop :=
  | os_none : osim None None
  | os_some s s' : RS s s' -> osim (Some s) (Some s').
  Lemma msim_choice_ltm (c c' : pat -> M ctx span) o o' e : RO o o' -> forall ps,
    (forall p, In p ps -> msim RX RS (c p) (c' p)) -> forall b b', osim b b' ->
    msim RX RS (choice_ltm c o e b ps) (choice_ltm c' o' e b' ps).
  Proof.
    intros HO ps. induction ps as [|p ps IH]; intros HC b b' HB; cbn [choice_ltm].
    - destruct HB; [apply msim_fail|now apply msim_ret].
    - eapply msim_bind; [eapply (msim_set_offset RX RO R_put); exact HO|]. intros _ _ _.
      eapply msim_bind; [apply msim_catch; apply HC; now left|].
      assert (forall q, In q ps -> msim RX RS (c q) (c' q)) as HC' by (intros u Hu; apply HC; now right).
      intros r r' [s s' H|er]; [|now apply IH]. apply IH; [exact HC'|].
      destruct HB as [|t t' HT]; [now constructor|]. rewrite (R_len _ _ H), (R_len _ _ HT).
      destruct (slen t' <? slen s'); now constructor.
  Qed.
End Choices.
