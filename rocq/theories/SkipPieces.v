(** Leaves and trees on a context that skips runs of a unit before every part, in terms of the text
    behind the cursor. *)

From Coq Require Import List Arith NArith Bool Lia.
From Verif Require Import Base Text Context Neu Syntax Regex Ctor Api TextProofs Spec Units Core Sound
  Complete Mono Atomic Obs Laws UnitLaws UnitProps CtorSpec CtorLaws CtorShape PolicyLaws Pieces.
Import ListNotations.

(** The text without the leading items that satisfy [f]. *)
Fixpoint trim (f : item -> bool) (l : text) : text :=
  match l with [] => [] | x :: l' => if f x then trim f l' else l end.

Lemma trim_skip f l : trim f l = skipn (prefix_len f l) l.
Proof. induction l as [|x l IH]; cbn; [reflexivity|]. destruct (f x); [exact IH|reflexivity]. Qed.
Lemma trim_idem f l : trim f (trim f l) = trim f l.
Proof. induction l as [|x l IH]; cbn; [reflexivity|]. destruct (f x) eqn:E; [exact IH|]. cbn. now rewrite E. Qed.
Lemma trim_app f g l : Forall (fun x => f x = true) g -> trim f (g ++ l) = trim f l.
Proof. induction 1 as [|x g E _ IH]; cbn; [reflexivity|]. now rewrite E. Qed.
Lemma trim_id f x l : f x = false -> trim f (x :: l) = x :: l.
Proof. cbn. now intros ->. Qed.
Lemma trim_split f l : exists g, l = g ++ trim f l /\ Forall (fun x => f x = true) g.
Proof.
  induction l as [|x l (g & E & F)]; [exists []; auto|]. cbn. destruct (f x) eqn:Ex.
  - exists (x :: g). cbn. rewrite <- E. auto.
  - exists []. auto.
Qed.
Lemma trim_head f l x r : trim f l = x :: r -> f x = false.
Proof. induction l as [|y l IH]; cbn; [discriminate|]. destruct (f y) eqn:E; [exact IH|]. injection 1 as -> ->. exact E. Qed.
Lemma skip_trim u w i : skipn (skip_run u w i) w = trim (is_match u) (skipn i w).
Proof. unfold skip_run. rewrite trim_skip. apply skipn_add. Qed.
Lemma skip_pos (w : text) i j : i <= length w -> j <= length w -> skipn i w = skipn j w -> i = j.
Proof. intros A B E. apply (f_equal (@length item)) in E. rewrite !skipn_length in E. lia. Qed.

Lemma prefix_cut f (l : text) : exists s t, l = s ++ t /\ length s = prefix_len f l /\ Forall (fun x => f x = true) s /\ t = trim f l.
Proof.
  destruct (trim_split f l) as (g & E & F). exists g, (trim f l). split; [exact E|]. split; [|auto].
  rewrite trim_skip in E. rewrite <- (firstn_skipn (prefix_len f l) l) in E at 1. apply app_inv_tail in E. rewrite <- E, firstn_length.
  pose proof (prefix_len_le f l). lia.
Qed.

Section Leaves.
  Variable k : kind.
  Variable G : env.
  Variable sk : text -> nat -> nat.
  Notation Peg := (Peg k G sk).

  Lemma peg_lit w i l b j : Peg w (PLit l) i (OK b j) <-> b = i /\ j = i + length l /\ exists t, skipn i w = l ++ t.
  Proof.
    split.
    - intros H; inversion H; subst. repeat split.
      match goal with E : firstn _ ?r = l |- _ => exists (skipn (length l) r); rewrite <- E at 1; now rewrite firstn_skipn end.
    - intros (-> & -> & t & E). constructor. rewrite E, firstn_app, firstn_all, Nat.sub_diag. cbn. apply app_nil_r.
  Qed.
  Lemma peg_lit_ko w i l e : Peg w (PLit l) i (KO e) <-> e = ELiteral /\ forall t, skipn i w <> l ++ t.
  Proof.
    split.
    - intros H; inversion H; subst. split; [reflexivity|]. intros t E.
      match goal with N : firstn _ _ <> l |- _ => apply N end. rewrite E, firstn_app, firstn_all, Nat.sub_diag. cbn. apply app_nil_r.
    - intros (-> & N). constructor. intros E. apply (N (skipn (length l) (skipn i w))). rewrite <- E at 1. now rewrite firstn_skipn.
  Qed.
  (** A unit without a condition. *)
  Lemma acc_yes w i u m : Acc k G sk w i u CEmpty m (inl true) <-> exists x, nth_error w (i + m) = Some x /\ is_match u x = true.
  Proof.
    split.
    - intros H; inversion H; subst. eauto.
    - intros (x & E & M). eapply Acc_yes; eauto. constructor.
  Qed.
  Lemma acc_no w i u m : Acc k G sk w i u CEmpty m (inl false) <-> forall x, nth_error w (i + m) = Some x -> is_match u x = false.
  Proof.
    split.
    - intros H; inversion H; subst; intros y E.
      + assert (i + m < length w) by (apply nth_error_Some; congruence). lia.
      + congruence.
      + match goal with C : Chk _ _ _ _ _ _ _ _ _ |- _ => inversion C end.
    - intros H. destruct (nth_error w (i + m)) as [x|] eqn:E.
      + eapply Acc_no; eauto.
      + constructor. now apply nth_error_None.
  Qed.
  Lemma acc_err w i u m e : ~ Acc k G sk w i u CEmpty m (inr e).
  Proof. intros H; inversion H; subst. match goal with C : Chk _ _ _ _ _ _ _ _ _ |- _ => inversion C end. Qed.
  Lemma skip_nth (w : text) : forall i m, nth_error (skipn i w) m = nth_error w (i + m).
  Proof.
    induction w as [|y w IH]; intros i m; [destruct i, m; reflexivity|]. destruct i as [|i]; [reflexivity|]. cbn. apply IH.
  Qed.
  Lemma peg_once w i u b j : Peg w (POnce u CEmpty) i (OK b j) <->
    b = i /\ j = S i /\ exists x t, skipn i w = x :: t /\ is_match u x = true.
  Proof.
    split.
    - intros H; inversion H; subst. split; [reflexivity|]. split; [reflexivity|].
      match goal with A : Acc _ _ _ _ _ _ _ _ _ |- _ => apply acc_yes in A as (x & E & M) end. rewrite <- skip_nth in E.
      match goal with |- exists x t, ?r = _ /\ _ => destruct r as [|y t]; [discriminate|] end. injection E as ->. eauto.
    - intros (-> & -> & x & t & E & M). constructor. apply acc_yes. exists x. split; [|exact M]. rewrite <- skip_nth, E. reflexivity.
  Qed.
  Lemma peg_once_ko w i u e : Peg w (POnce u CEmpty) i (KO e) <->
    e = EOnce /\ forall x t, skipn i w = x :: t -> is_match u x = false.
  Proof.
    split.
    - intros H; inversion H; subst.
      + split; [reflexivity|]. match goal with A : Acc _ _ _ _ _ _ _ _ _ |- _ => rename A into A0 end. rewrite acc_no in A0.
        intros x t E. apply A0. rewrite <- skip_nth, E. reflexivity.
      + match goal with A : Acc _ _ _ _ _ _ _ _ _ |- _ => now apply acc_err in A end.
    - intros (-> & N). constructor. apply acc_no. intros x E. rewrite <- skip_nth in E. destruct (skipn i w) as [|y t]; [discriminate|].
      injection E as ->. eauto.
  Qed.
  (** Runs. *)
  Lemma run_len u w i : forall n m r, length w - (i + m) <= n ->
    (Run k G sk w i u CEmpty None m r <-> r = inl (prefix_len (is_match u) (skipn (i + m) w))).
  Proof.
    induction n as [|n IH]; intros m r L.
    - assert (E : skipn (i + m) w = []) by (apply skipn_all2; lia). rewrite E. cbn. split.
      + intros H. inversion H; subst; auto;
        match goal with A : Acc _ _ _ _ _ _ _ _ _ |- _ => (now apply acc_err in A) || (apply acc_yes in A as (x & E' & _)) end;
        (assert (i + m < length w) by (apply nth_error_Some; congruence); lia).
      + intros ->. apply Run_stop; [discriminate|]. constructor. lia.
    - destruct (skipn (i + m) w) as [|x t] eqn:E.
      { cbn. pose proof (skip_nil _ _ E). split.
        - intros H0. inversion H0; subst; auto;
          match goal with A : Acc _ _ _ _ _ _ _ _ _ |- _ => (now apply acc_err in A) || (apply acc_yes in A as (x & E' & _)) end;
          (assert (i + m < length w) by (apply nth_error_Some; congruence); lia).
        - intros ->. apply Run_stop; [discriminate|]. constructor. lia. }
      apply skip_cons in E as (Ex & Et & Lx). specialize (IH (S m)). rewrite Nat.add_succ_r, Et in IH.
      cbn [prefix_len]. destruct (is_match u x) eqn:M.
      + assert (Y : Acc k G sk w i u CEmpty m (inl true)) by (apply acc_yes; eauto).
        split.
        * intros H. inversion H; subst; cbn [limit_pred option_map] in *.
          -- match goal with A : Acc _ _ _ _ _ _ _ _ (inl false) |- _ => apply acc_no with (x := x) in A; [congruence|exact Ex] end.
          -- match goal with A : Acc _ _ _ _ _ _ _ _ _ |- _ => now apply acc_err in A end.
          -- match goal with R : Run _ _ _ _ _ _ _ _ (S m) _ |- _ => apply IH in R; [|lia]; injection R as -> end. reflexivity.
          -- match goal with R : Run _ _ _ _ _ _ _ _ (S m) _ |- _ => apply IH in R; [|lia]; discriminate end.
        * intros ->. apply Run_step; [discriminate|exact Y|]. apply IH; [lia|reflexivity].
      + assert (Y : Acc k G sk w i u CEmpty m (inl false)) by (apply acc_no; congruence).
        split.
        * intros H. inversion H; subst; cbn [limit_pred option_map] in *; auto;
          match goal with A : Acc _ _ _ _ _ _ _ _ _ |- _ => (now apply acc_err in A) || (apply acc_yes in A as (y & E' & M'); congruence) end.
        * intros ->. now apply Run_stop.
  Qed.
  Lemma peg_many0 w i u b j : Peg w (PMany0 u CEmpty) i (OK b j) <-> b = i /\ j = i + prefix_len (is_match u) (skipn i w).
  Proof.
    split.
    - intros H; inversion H; subst.
      match goal with R : Run _ _ _ _ ?x _ _ _ _ _ |- _ => apply (run_len _ _ _ (length w)) in R; [|lia]; rewrite Nat.add_0_r in R; injection R as -> end. auto.
    - intros (-> & ->). constructor. apply (run_len _ _ _ (length w)); [lia|]. now rewrite Nat.add_0_r.
  Qed.
  Lemma peg_many0_ko w i u e : ~ Peg w (PMany0 u CEmpty) i (KO e).
  Proof.
    intros H; inversion H; subst. match goal with R : Run _ _ _ _ ?x _ _ _ _ _ |- _ => apply (run_len _ _ _ (length w)) in R; [|lia]; discriminate end.
  Qed.
  Lemma peg_many1 w i u b j : Peg w (PMany1 u CEmpty) i (OK b j) <->
    b = i /\ j = i + prefix_len (is_match u) (skipn i w) /\ 0 < prefix_len (is_match u) (skipn i w).
  Proof.
    split.
    - intros H; inversion H; subst.
      match goal with R : Run _ _ _ _ ?x _ _ _ _ _ |- _ => apply (run_len _ _ _ (length w)) in R; [|lia]; rewrite Nat.add_0_r in R; injection R as E0 end.
      rewrite <- E0. repeat split; lia.
    - intros (-> & -> & L). destruct (prefix_len (is_match u) (skipn i w)) as [|n] eqn:E; [lia|].
      constructor. apply (run_len _ _ _ (length w)); [lia|]. now rewrite Nat.add_0_r, E.
  Qed.
  Lemma peg_many1_ko w i u e : Peg w (PMany1 u CEmpty) i (KO e) <-> e = EMany1 /\ prefix_len (is_match u) (skipn i w) = 0.
  Proof.
    split.
    - intros H; inversion H; subst.
      + match goal with R : Run _ _ _ _ ?x _ _ _ _ _ |- _ => apply (run_len _ _ _ (length w)) in R; [|lia]; rewrite Nat.add_0_r in R; injection R as E0 end. auto.
      + match goal with R : Run _ _ _ _ ?x _ _ _ _ _ |- _ => apply (run_len _ _ _ (length w)) in R; [|lia]; discriminate end.
    - intros (-> & E). constructor. apply (run_len _ _ _ (length w)); [lia|]. now rewrite Nat.add_0_r, E.
  Qed.

  (** Trees. *)
  Variable HV : text -> nat -> nat -> val -> Prop.
  Notation Tree := (Tree k G sk HV).
  Ltac inv H := inversion H; subst; try match goal with L : leafy _ |- _ => destruct L end.
  Lemma tr_leaf p w i v j : leafy p -> (Tree w p i v j <-> exists b, Peg w p i (OK b j) /\ HV w b j v).
  Proof. intros L. split; [intros H; now apply leafy_inv in H|]. intros (b & P & V). eapply Tree_leaf; eauto. Qed.
  Lemma tr_pat p w i v j : Tree w (PPat p) i v j <-> exists b, Peg w p i (OK b j) /\ HV w b j v.
  Proof. split; [intros H; inv H; eauto|]. intros (b & P & V). eapply Tree_pat; eauto. Qed.
  Lemma tr_then p q w i v j : Tree w (PThen p q) i v j <-> exists a m b, Tree w p i a m /\ Tree w q (sk w m) b j /\ v = VPair a b.
  Proof. split; [intros H; inv H; eauto 7|]. intros (a & m & b & A & B & ->). eapply Tree_then; eauto. Qed.
  Lemma tr_prefix p q w i v j : Tree w (PPrefix p q) i v j <-> exists b m, Peg w q i (OK b m) /\ Tree w p (sk w m) v j.
  Proof. split; [intros H; inv H; eauto 7|]. intros (a & m & A & B). eapply Tree_prefix; eauto. Qed.
  Lemma tr_suffix p q w i v j : Tree w (PSuffix p q) i v j <-> exists m b, Tree w p i v m /\ Peg w q (sk w m) (OK b j).
  Proof. split; [intros H; inv H; eauto 7|]. intros (a & m & A & B). eapply Tree_suffix; eauto. Qed.
  Lemma tr_enclose p o c w i v j : Tree w (PEnclose p o c) i v j <->
    exists b m m' b', Peg w o i (OK b m) /\ Tree w p (sk w m) v m' /\ Peg w c (sk w m') (OK b' j).
  Proof. split; [intros H; inv H; eauto 9|]. intros (a & m & m' & b' & A & B & C). eapply Tree_enclose; eauto. Qed.
  Lemma tr_seponce p s q w i v j : Tree w (PSepOnce p s q) i v j <->
    exists a m b m' c, Tree w p i a m /\ Peg w s (sk w m) (OK b m') /\ Tree w q (sk w m') c j /\ v = VPair a c.
  Proof. split; [intros H; inv H; eauto 12|]. intros (a & m & b & m' & c & A & B & C & ->). eapply Tree_seponce; eauto. Qed.
  Lemma tr_option p w i v j : Tree w (POption p) i v j <->
    (exists a, Tree w p i a j /\ v = VSome a) \/ (exists e, Peg w p i (KO e) /\ v = VNone /\ j = i).
  Proof. split; [intros H; inv H; eauto 7|]. intros [(a & A & ->)|(e & A & -> & ->)]; [now apply Tree_some|eapply Tree_none; eauto]. Qed.
  Lemma tr_map p f w i v j : Tree w (PMap p f) i v j <-> exists a, Tree w p i a j /\ f a = Ok v.
  Proof. split; [intros H; inv H; eauto|]. intros (a & A & E). eapply Tree_map; eauto. Qed.
  Lemma tr_wrap p w i v j : Tree w (PWrap p) i v j <-> Tree w p i v j.
  Proof. split; [intros H; inv H; auto|]. intros A. now apply Tree_wrap. Qed.
  Lemma tr_or p q w i v j : Tree w (POr p q) i v j <-> Tree w p i v j \/ (exists e, Peg w p i (KO e) /\ Tree w q i v j).
  Proof. split; [intros H; inv H; eauto|]. intros [A|(e & A & B)]; [now apply Tree_or1|eapply Tree_or2; eauto]. Qed.
  Lemma tr_sep p s mn w i v j : Tree w (PSep p s mn true) i v j <-> exists vs, Trees_sep k G sk HV w p s i vs j /\ mn <= length vs /\ v = VList vs.
  Proof. split; [intros H; inv H; eauto|]. intros (vs & A & L & ->). now apply Tree_sep. Qed.
  Lemma tr_collect p mn w i v j : Tree w (PCollect p mn) i v j <-> exists vs, Trees k G sk HV w p None i vs j /\ mn <= length vs /\ v = VList vs.
  Proof. split; [intros H; inv H; eauto|]. intros (vs & A & L & ->). now apply Tree_collect. Qed.
End Leaves.
