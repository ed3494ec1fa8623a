(** Facts about what runs look at (Look.v). *)

From Coq Require Import List Arith NArith Bool Lia.
From Verif Require Import Base Text Context Neu Syntax TextProofs Spec Core Look PolicyLaws.
Import ListNotations.

(** Texts which begin alike. *)
Definition agree (z : nat) (w w' : text) : Prop := firstn z w' = firstn z w.

Lemma agree_length z w w' : agree z w w' -> Nat.min z (length w') = Nat.min z (length w).
Proof. intros A. rewrite <- !firstn_length. now rewrite A. Qed.

Lemma agree_all z w w' : length w < z -> agree z w w' -> w' = w.
Proof.
  intros L A. pose proof (agree_length _ _ _ A) as E. unfold agree in A.
  rewrite (firstn_all2 w), (firstn_all2 w') in A by lia. exact A.
Qed.

Lemma agree_less z y w w' : y <= z -> agree z w w' -> agree y w w'.
Proof.
  intros L A. unfold agree in *. replace y with (Nat.min y z) by lia. now rewrite <- !firstn_firstn, A.
Qed.

Lemma agree_nth z w w' i : i < z -> agree z w w' -> nth_error w' i = nth_error w i.
Proof.
  intros L A.
  assert (F : forall (l : text) n m, m < n -> nth_error (firstn n l) m = nth_error l m).
  { induction l as [|x l IH]; intros n m Hm; [now rewrite firstn_nil|].
    destruct n as [|n]; [lia|]. destruct m as [|m]; [reflexivity|]. cbn. apply IH. lia. }
  rewrite <- (F w' z i L), <- (F w z i L). now rewrite A.
Qed.

Lemma agree_skipn z w w' i : agree z w w' -> agree (z - i) (skipn i w) (skipn i w').
Proof. intros A. unfold agree in *. now rewrite <- !skipn_firstn_comm, A. Qed.

Lemma agree_slice z w w' i m : i + m <= z -> agree z w w' -> firstn m (skipn i w') = firstn m (skipn i w).
Proof.
  intros L A. replace m with (i + m - i) by lia. rewrite <- !skipn_firstn_comm. f_equal.
  exact (agree_less _ _ _ _ L A).
Qed.

Lemma agree_bo k z w w' i : i <= z -> agree z w w' -> bo k w' i = bo k w i.
Proof. intros L A. unfold bo. f_equal. exact (agree_less _ _ _ _ L A). Qed.

(** The runs of Look.v are runs of Spec.v; *)
Lemma look_peg k G sk sx :
  (forall w z p i o, Look k G sk sx w z p i o -> Peg k G sk w p i o) /\
  (forall w z i u c m r, AccL k G sk sx w z i u c m r -> Acc k G sk w i u c m r) /\
  (forall w z i c m x r, ChkL k G sk sx w z i c m x r -> Chk k G sk w i c m x r) /\
  (forall w z i u c l m r, RunL k G sk sx w z i u c l m r -> Run k G sk w i u c l m r) /\
  (forall w z p l i a j, RepsL k G sk sx w z p l i a j -> Reps k G sk w p l i a j) /\
  (forall w z p s l i a j, SepsL k G sk sx w z p s l i a j -> Seps k G sk w p s l i a j) /\
  (forall w z ps i e o, FirstL k G sk sx w z ps i e o -> First k G sk w ps i e o).
Proof.
  apply Look_mutind; intros; repeat match goal with H : fits _ _ _ _ _ |- _ => destruct H as [? _] end;
    try solve [econstructor; eauto].
  apply Peg_lit_ko. intros E. match goal with H : _ <> _ |- _ => apply H end.
  rewrite <- E at 1. rewrite firstn_firstn. f_equal. lia.
Qed.

(** each run of Spec.v looks at no more than the text and its end; *)
Lemma peg_look k G sk sx : (forall w i, sx w i <= S (length w)) ->
  (forall w p i o, Peg k G sk w p i o -> forall z, length w < z -> Look k G sk sx w z p i o) /\
  (forall w i u c m r, Acc k G sk w i u c m r -> forall z, length w < z -> AccL k G sk sx w z i u c m r) /\
  (forall w i c m x r, Chk k G sk w i c m x r -> forall z, i + m < length w -> length w < z ->
     ChkL k G sk sx w z i c m x r) /\
  (forall w i u c l m r, Run k G sk w i u c l m r -> forall z, length w < z -> RunL k G sk sx w z i u c l m r) /\
  (forall w p l i a j, Reps k G sk w p l i a j -> forall z, length w < z -> RepsL k G sk sx w z p l i a j) /\
  (forall w p s l i a j, Seps k G sk w p s l i a j -> forall z, length w < z -> SepsL k G sk sx w z p s l i a j) /\
  (forall w ps i e o, First k G sk w ps i e o -> forall z, length w < z -> FirstL k G sk sx w z ps i e o).
Proof.
  intros X.
  assert (X' : forall w i z, length w < z -> sx w i <= z) by (intros w i z L; pose proof (X w i); lia).
  assert (F : forall w z i n, length w < z -> ~ too_short k w i n -> fits k w z i n) by (unfold fits; tauto).
  apply Peg_mutind; intros; try solve [econstructor; eauto; lia].
  - eapply AccL_no; eauto. match goal with H : nth_error ?w ?m = Some _ |- _ => assert (m < length w) by (apply nth_error_Some; congruence) end. lia.
  - eapply AccL_yes; eauto.
    + match goal with H : nth_error ?w ?m = Some _ |- _ => assert (m < length w) by (apply nth_error_Some; congruence) end. lia.
    + match goal with H : forall z, _ -> _ -> ChkL _ _ _ _ _ z _ _ _ _ _ |- _ => apply H end; [|assumption].
      apply nth_error_Some; congruence.
  - eapply ChkL_regex; eauto; [|lia|].
    + apply X'. rewrite skipn_length. lia.
    + match goal with H : forall z, _ -> Look _ _ _ _ _ z _ _ _ |- _ => apply H end. rewrite skipn_length. lia.
  - eapply ChkL_regex_no; eauto; [|lia|].
    + apply X'. rewrite skipn_length. lia.
    + match goal with H : forall z, _ -> Look _ _ _ _ _ z _ _ _ |- _ => apply H end. rewrite skipn_length. lia.
Qed.

(** and texts which agree on what a run looks at have the same run. *)
Section Agree.
  Variable k : kind.
  Variable G : env.
  Variable sk sx : text -> nat -> nat.

  (** What is skipped is decided by the items looked at for it. *)
  Definition decided : Prop := forall w w' z i, sx w i <= z -> agree z w w' -> sk w' i = sk w i /\ sx w' i <= z.
  Hypothesis D : decided.

  Lemma look_agree :
    (forall w z p i o, Look k G sk sx w z p i o -> forall w', agree z w w' -> Look k G sk sx w' z p i o) /\
    (forall w z i u c m r, AccL k G sk sx w z i u c m r -> forall w', agree z w w' -> AccL k G sk sx w' z i u c m r) /\
    (forall w z i c m x r, ChkL k G sk sx w z i c m x r -> forall w', agree z w w' -> ChkL k G sk sx w' z i c m x r) /\
    (forall w z i u c l m r, RunL k G sk sx w z i u c l m r -> forall w', agree z w w' ->
       RunL k G sk sx w' z i u c l m r) /\
    (forall w z p l i a j, RepsL k G sk sx w z p l i a j -> forall w', agree z w w' -> RepsL k G sk sx w' z p l i a j) /\
    (forall w z p s l i a j, SepsL k G sk sx w z p s l i a j -> forall w', agree z w w' ->
       SepsL k G sk sx w' z p s l i a j) /\
    (forall w z ps i e o, FirstL k G sk sx w z ps i e o -> forall w', agree z w w' -> FirstL k G sk sx w' z ps i e o).
  Proof.
    assert (F : forall w w' z i n, fits k w z i n -> agree z w w' -> fits k w' z i n).
    { intros w w' z i n [N H] A. destruct H as [H|(Hi & j & H1 & H2 & H3)].
      - rewrite (agree_all _ _ _ H A). split; auto.
      - pose proof (agree_length _ _ _ A). split.
        + unfold too_short. rewrite (agree_bo k _ _ _ _ Hi A).
          pose proof (bo_le_len k w' j) as B. rewrite (agree_bo k _ _ _ _ H2 A) in B. lia.
        + right. split; [assumption|]. exists j. rewrite !(agree_bo k _ _ _ _ H2 A), (agree_bo k _ _ _ _ Hi A). lia. }
    apply Look_mutind; intros;
      repeat match goal with A : agree ?z ?w ?w', H : forall v, agree ?z ?w v -> _ |- _ => specialize (H w' A) end;
      try match goal with H : length ?w < ?z, A : agree ?z ?w ?w' |- _ =>
        pose proof (agree_all _ _ _ H A); subst w'; clear A end;
      repeat match goal with H : sx ?w ?i <= ?z, A : agree ?z ?w ?w' |- _ =>
        let E := fresh "E" in let B := fresh "B" in
        destruct (D w w' z i H A) as [E B]; clear H end;
      repeat match goal with E : sk ?w' ?i = sk ?w ?i, H : Look _ _ _ _ ?w' _ _ (sk ?w ?i) _ |- _ => rewrite <- E in H end;
      try solve [econstructor; eauto].
    all: try match goal with A : agree ?z ?w ?w' |- _ => pose proof (agree_length z w w' A) end.
    all: try solve [econstructor; eauto; lia].
    - match goal with H : _ \/ length ?w < ?z, A : agree ?z ?w ?w' |- _ => destruct H as [[H H']|H];
        [|rewrite (agree_all _ _ _ H A); apply L_consume; auto] end.
      apply L_consume; [auto|lia|]. match goal with H : ?i <= ?z, H' : ?j <= ?z, A : agree ?z ?w ?w' |- bo _ ?w' ?j = bo _ ?w' ?i + _ =>
        rewrite (agree_bo k _ _ _ _ H A), (agree_bo k _ _ _ _ H' A) end. assumption.
    - match goal with H : _ \/ length ?w < ?z, A : agree ?z ?w ?w' |- _ => destruct H as [H|H];
        [|rewrite (agree_all _ _ _ H A); apply L_lit; auto] end.
      apply L_lit; [auto|]. now erewrite agree_slice by eauto.
    - eapply L_lit_ko; eauto; [lia|]. now erewrite agree_slice by eauto.
    - eapply AccL_no; eauto. erewrite agree_nth; eauto.
    - eapply AccL_yes; eauto. erewrite agree_nth; eauto.
    - match goal with A : agree ?z ?w ?w', H : forall v, agree _ (skipn ?a ?w) v -> _ |- _ =>
        pose proof (agree_skipn z w w' a A) as A'; specialize (H _ A') end.
      match goal with S : sx ?w ?i <= ?z |- _ => destruct (D _ _ _ _ S A') as [E B] end.
      eapply ChkL_regex; eauto. rewrite E. eassumption.
    - match goal with A : agree ?z ?w ?w', H : forall v, agree _ (skipn ?a ?w) v -> _ |- _ =>
        pose proof (agree_skipn z w w' a A) as A'; specialize (H _ A') end.
      match goal with S : sx ?w ?i <= ?z |- _ => destruct (D _ _ _ _ S A') as [E B] end.
      eapply ChkL_regex_no; eauto. rewrite E. eassumption.
  Qed.

  (** Who looks at more may look at less. *)
  Lemma look_more :
    (forall w z p i o, Look k G sk sx w z p i o -> forall y, z <= y -> Look k G sk sx w y p i o) /\
    (forall w z i u c m r, AccL k G sk sx w z i u c m r -> forall y, z <= y -> AccL k G sk sx w y i u c m r) /\
    (forall w z i c m x r, ChkL k G sk sx w z i c m x r -> forall y, z <= y -> ChkL k G sk sx w y i c m x r) /\
    (forall w z i u c l m r, RunL k G sk sx w z i u c l m r -> forall y, z <= y -> RunL k G sk sx w y i u c l m r) /\
    (forall w z p l i a j, RepsL k G sk sx w z p l i a j -> forall y, z <= y -> RepsL k G sk sx w y p l i a j) /\
    (forall w z p s l i a j, SepsL k G sk sx w z p s l i a j -> forall y, z <= y -> SepsL k G sk sx w y p s l i a j) /\
    (forall w z ps i e o, FirstL k G sk sx w z ps i e o -> forall y, z <= y -> FirstL k G sk sx w y ps i e o).
  Proof.
    assert (F : forall w z y i n, fits k w z i n -> z <= y -> fits k w y i n).
    { intros w z y i n [N H] A. split; [assumption|]. destruct H as [H|(Hi & j & H1 & H2 & H3)]; [left; lia|].
      right. split; [lia|]. exists j. lia. }
    assert (L : forall a b c : nat, a <= b -> b <= c -> a <= c) by (intros; lia).
    assert (L' : forall a b c : nat, a < b -> b <= c -> a < c) by (intros; lia).
    apply Look_mutind; intros; try solve [econstructor; eauto].
    all: try solve [econstructor; eauto; lia].
    - eapply ChkL_regex; [| |match goal with H : forall y, _ -> Look _ _ _ _ _ y _ _ _ |- _ => apply H end]; lia.
    - eapply ChkL_regex_no; [| |match goal with H : forall y, _ -> Look _ _ _ _ _ y _ _ _ |- _ => apply H end]; lia.
  Qed.
End Agree.

(** Without skipping nothing is looked at for it; *)
Definition no_look (_ : text) (_ : nat) : nat := 0.

Lemma no_look_decided : decided no_skip no_look.
Proof. intros w w' z i L A. now split. Qed.

(** skipping the items of a unit looks at the first other item. *)
Definition run_look (u : neu) (w : text) (i : nat) : nat := Nat.min (S (skip_run u w i)) (S (length w)).

Lemma run_look_decided u : decided (skip_run u) (run_look u).
Proof.
  intros w w' z i L A. unfold run_look in *.
  destruct (le_lt_dec (S (length w)) z) as [Z|Z].
  { rewrite (agree_all _ _ _ Z A). now split. }
  assert (P : forall (f : item -> bool) y l l', prefix_len f l < y -> agree y l l' -> prefix_len f l' = prefix_len f l).
  { clear. intros f. induction y as [|y IH]; intros l l' L A; [lia|].
    destruct l as [|a l], l' as [|b l']; unfold agree in A; cbn in A; try congruence.
    injection A as <- A. cbn in *. destruct (f b); [|reflexivity]. f_equal. apply IH; [lia|exact A]. }
  assert (E : skip_run u w' i = skip_run u w i).
  { unfold skip_run in *. f_equal. apply P with (z - i); [lia|]. now apply agree_skipn. }
  rewrite E. pose proof (agree_length _ _ _ A). split; [reflexivity|]. lia.
Qed.
