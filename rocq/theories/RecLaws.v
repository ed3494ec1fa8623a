(** Recursive parsers: the balanced-bracket grammar at every nesting depth. *)

From Coq Require Import List Arith NArith Bool Lia.
From Verif Require Import Base Text Context Neu Syntax Regex Ctor Api TextProofs Spec Core Sound Obs Laws PegLaws
  Consumes Term TermLaws CtorShape CtorSpec CtorLaws Lang PolicyLaws Samples.
Import ListNotations.

(** [ '(' ] and [ ')' ]. *)
Definition opening : item := 40%N.
Definition closing : item := 41%N.

(** Specification: read the text from the left, counting the open brackets; [None] as soon as a closing
    bracket has no partner or another character occurs. *)
Fixpoint depth (d : nat) (s : text) : option nat :=
  match s with
  | [] => Some d
  | x :: s =>
      if N.eqb x opening then depth (S d) s
      else if N.eqb x closing then match d with 0 => None | S d => depth d s end
      else None
  end.
Definition balanced (s : text) : Prop := depth 0 s = Some 0.

(** [rec_parser(|s| s.enclose("(", ")").repeat(0..))]: cell 0. *)
Definition bracket_pair : pat := PEnclose (PRef 0) (PLit [opening]) (PLit [closing]).
Definition bracket_env : env := [Some (PRepeat bracket_pair (CRange (Incl 0) Unb))].

Inductive Dyck : text -> Prop :=
| dyck_nil : Dyck []
| dyck_cons s t : Dyck s -> Dyck t -> Dyck (opening :: s ++ closing :: t).

Lemma dyck_depth s : Dyck s -> forall d t, depth d (s ++ t) = depth d t.
Proof.
  induction 1 as [|s t _ IHs _ IHt]; intros d u; [reflexivity|].
  cbn [app depth]. rewrite N.eqb_refl. rewrite <- app_assoc, IHs. cbn [app depth].
  change (N.eqb closing opening) with false. rewrite N.eqb_refl. cbn iota. apply IHt.
Qed.
Lemma dyck_app s t : Dyck s -> Dyck t -> Dyck (s ++ t).
Proof.
  induction 1 as [|s s' Hs _ _ IH]; intros Ht; [exact Ht|].
  cbn. rewrite <- app_assoc. cbn. constructor; auto.
Qed.
Lemma dyck_balanced s : Dyck s -> balanced s.
Proof. intros H. unfold balanced. rewrite <- (app_nil_r s). now rewrite dyck_depth. Qed.
Lemma depth_split n : forall s d, length s <= n -> depth (S d) s = Some 0 ->
  exists s1 s2, s = s1 ++ closing :: s2 /\ Dyck s1 /\ depth d s2 = Some 0.
Proof.
  induction n as [|n IH]; intros [|x s] d Hn H; cbn in Hn, H; try discriminate; try lia.
  destruct (N.eqb_spec x opening) as [->|].
  - destruct (IH s (S d) ltac:(lia) H) as (s1 & s2 & -> & D1 & H2).
    rewrite app_length in Hn. cbn in Hn.
    destruct (IH s2 d ltac:(lia) H2) as (s3 & s4 & -> & D3 & H4).
    exists (opening :: s1 ++ closing :: s3), s4. cbn. rewrite <- app_assoc. repeat split; auto. now constructor.
  - destruct (N.eqb_spec x closing) as [->|]; [|discriminate].
    exists [], s. repeat split; auto. constructor.
Qed.
Lemma balanced_dyck_n n : forall s, length s <= n -> balanced s -> Dyck s.
Proof.
  induction n as [|n IH]; intros [|x s] Hn H; unfold balanced in H; cbn in Hn, H; try lia; try constructor.
  destruct (N.eqb_spec x opening) as [->|].
  - destruct (depth_split _ s 0 (le_n _) H) as (s1 & s2 & -> & D1 & H2). rewrite app_length in Hn. cbn in Hn.
    constructor; auto. apply IH; [lia|exact H2].
  - destruct (N.eqb x closing); discriminate.
Qed.
Lemma balanced_dyck s : balanced s <-> Dyck s.
Proof. split; [apply (balanced_dyck_n _ s (le_n _))|apply dyck_balanced]. Qed.

Section Brackets.
  Variable k : kind.
  Notation Peg := (Peg k bracket_env no_skip).
  Notation Reps := (Reps k bracket_env no_skip).

  Lemma bracket_core : core_env k bracket_env no_skip.
  Proof. closed_env. shape. Qed.
  Lemma bracket_pair_core : core k bracket_env no_skip bracket_pair.
  Proof. shape. Qed.
  Lemma bracket_static : static_env bracket_env.
  Proof. closed_env. shape. Qed.

  Lemma peg_ref0 w i o : Peg w (PRef 0) i o -> exists n j, o = OK i j /\ Reps w bracket_pair None i n j.
  Proof.
    intros H. inversion H; subst; try discriminate. 
    match goal with X : env_get _ _ = _ |- _ => injection X as <- end.
    match goal with X : Spec.Peg _ _ _ _ (PRepeat _ _) _ _ |- _ => inversion X; subst end; eauto.
    match goal with X : crange_contains _ _ = false |- _ => discriminate X end.
  Qed.

  Lemma peg_one w i (a : item) o : Peg w (PLit [a]) i o ->
    match o with OK b j => b = i /\ j = S i /\ nth_error w i = Some a | KO _ => nth_error w i <> Some a end.
  Proof.
    assert (E : forall i (w : text), firstn 1 (skipn i w) = [a] <-> nth_error w i = Some a).
    { clear. intros i. induction i as [|i IH]; intros [|y w]; cbn; try (split; congruence). apply IH. }
    intros H. inversion H; subst; cbn [length] in *.
    - rewrite E in *. repeat split; auto; lia.
    - rewrite E in *. auto.
  Qed.

  Lemma reps_dyck len : forall w i n j, j - i <= len -> i <= length w -> Reps w bracket_pair None i n j -> Dyck (slice w i j).
  Proof.
    induction len as [len IH] using lt_wf_ind. intros w i n j Hl Hi R.
    destruct (proj1 (proj2 (proj2 (proj2 (proj2 (lang_all k bracket_env bracket_core bracket_static))))) _ _ _ _ _ _ R bracket_pair_core) as (B1 & B2 & _); [shape|auto|].
    inversion R as [|? ? ? ? e NL P|? ? ? ? b j1 n' ? NL P R']; subst; [rewrite slice_nil; constructor|].
    unfold no_skip in *. 
    assert (Q : exists m j2, Reps w bracket_pair None (S i) m j2 /\ nth_error w i = Some opening /\ nth_error w j2 = Some closing /\ j1 = S j2).
    { inversion P; subst; unfold no_skip in *.
      repeat match goal with X : Spec.Peg _ _ _ _ (PLit _) _ _ |- _ => apply peg_one in X; destruct X as (? & ? & ?); subst
                        | X : Spec.Peg _ _ _ _ (PRef 0) _ _ |- _ => apply peg_ref0 in X; destruct X as (? & ? & E & ?); injection E as ? ?; subst end.
      eauto 6. }
    destruct Q as (m & j2 & R2 & N1 & N2 & ->).
    pose proof (nth_some _ _ _ N1). pose proof (nth_some _ _ _ N2).
    destruct (proj1 (proj2 (proj2 (proj2 (proj2 (lang_all k bracket_env bracket_core bracket_static))))) _ _ _ _ _ _ R2 bracket_pair_core) as (B3 & B4 & _); [shape|lia|].
    destruct (proj1 (proj2 (proj2 (proj2 (proj2 (lang_all k bracket_env bracket_core bracket_static))))) _ _ _ _ _ _ R' bracket_pair_core) as (B5 & B6 & _); [shape|lia|].
    rewrite <- (slice_app w i (S i)), <- (slice_app w (S i) j2), <- (slice_app w j2 (S j2)) by lia.
    rewrite (slice_one _ _ _ N1), (slice_one _ _ _ N2). cbn [app]. constructor.
    - eapply (IH (j2 - S i)); eauto; lia.
    - eapply (IH (j - S j2)); eauto; lia.
  Qed.

  Lemma nth_at (w s t : text) i x : skipn i w = s ++ x :: t -> nth_error w (i + length s) = Some x.
  Proof.
    revert i. induction w as [|y w IH]; intros [|i] H; cbn in H.
    - destruct s; discriminate.
    - destruct s; discriminate.
    - cbn [Nat.add]. rewrite H. rewrite nth_error_app2, Nat.sub_diag; [reflexivity|apply le_n].
    - apply (IH _ H).
  Qed.
  Lemma skipn_at (w s t : text) i : skipn i w = s ++ t -> skipn (i + length s) w = t.
  Proof.
    revert i. induction w as [|y w IH]; intros [|i] H; cbn [skipn] in H.
    - destruct s; [cbn in *; now subst t|discriminate].
    - destruct s; [cbn in *; now subst t|discriminate].
    - cbn [Nat.add]. rewrite H. rewrite skipn_app, skipn_all, Nat.sub_diag. reflexivity.
    - apply (IH _ H).
  Qed.

  (** The repetition goes at least as far as any balanced prefix. *)
  Lemma reps_max s : Dyck s -> forall w i n j t, i <= length w -> Reps w bracket_pair None i n j -> skipn i w = s ++ t -> i + length s <= j.
  Proof.
    induction 1 as [|s1 s2 D1 IH1 D2 IH2]; intros w i n j t Hi R E.
    - destruct (proj1 (proj2 (proj2 (proj2 (proj2 (lang_all k bracket_env bracket_core bracket_static))))) _ _ _ _ _ _ R bracket_pair_core) as (B1 & B2 & _); [shape|auto|].
      cbn. lia.
    - cbn [app] in E. rewrite <- app_assoc in E. cbn [app] in E.
      pose proof (nth_at w [] _ i _ E) as N1. cbn [length] in N1. rewrite Nat.add_0_r in N1.
      pose proof (skipn_at w [opening] _ i E) as E1. cbn [length] in E1. rewrite Nat.add_1_r in E1.
      pose proof (nth_at w s1 _ _ _ E1) as N2. pose proof (skipn_at w s1 _ _ E1) as E2.
      pose proof (skipn_at w [closing] _ _ E2) as E3. cbn [length] in E3.
      pose proof (nth_some _ _ _ N1). pose proof (nth_some _ _ _ N2).
      (* what the recursive call does *)
      assert (X : forall m j1, Reps w bracket_pair None (S i) m j1 -> j1 = S i + length s1).
      { intros m j1 R1. pose proof (IH1 w (S i) m j1 _ ltac:(lia) R1 E1) as L1.
        pose proof (reps_dyck _ w (S i) m j1 (le_n _) ltac:(lia) R1) as D.
        destruct (proj1 (proj2 (proj2 (proj2 (proj2 (lang_all k bracket_env bracket_core bracket_static))))) _ _ _ _ _ _ R1 bracket_pair_core) as (B3 & B4 & _); [shape|lia|].
        destruct (le_lt_dec j1 (S i + length s1)) as [|L2]; [lia|exfalso].
        apply dyck_balanced in D. unfold balanced in D.
        rewrite <- (slice_app w (S i) (S i + length s1)), <- (slice_app w (S i + length s1) (S (S i + length s1))) in D by lia.
        rewrite (slice_one _ _ _ N2) in D.
        replace (slice w (S i) (S i + length s1)) with s1 in D.
        - rewrite dyck_depth in D by assumption. cbn in D. discriminate.
        - unfold slice. rewrite E1. replace (S i + length s1 - S i) with (length s1) by lia.
          rewrite firstn_app, firstn_all, Nat.sub_diag. cbn. now rewrite app_nil_r. }
      inversion R as [|? ? ? ? e NL P|? ? ? ? b j1 n' ? NL P R']; subst; unfold no_skip in *.
      + exfalso. inversion P; subst; unfold no_skip in *;
        repeat match goal with Y : Spec.Peg _ _ _ _ (PLit _) _ _ |- _ => apply peg_one in Y; try (destruct Y as (? & ? & ?); subst)
                        | Y : Spec.Peg _ _ _ _ (PRef 0) _ _ |- _ => apply peg_ref0 in Y; destruct Y as (? & ? & EE & Y); try discriminate EE; injection EE as ? ?; subst end; try contradiction.
        match goal with Y : Spec.Reps _ _ _ _ _ _ (S _) _ _ |- _ => apply X in Y; subst end. contradiction.
      + inversion P; subst; unfold no_skip in *;
        repeat match goal with Y : Spec.Peg _ _ _ _ (PLit _) _ _ |- _ => apply peg_one in Y; try (destruct Y as (? & ? & ?); subst)
                        | Y : Spec.Peg _ _ _ _ (PRef 0) _ _ |- _ => apply peg_ref0 in Y; destruct Y as (? & ? & EE & Y); try discriminate EE; injection EE as ? ?; subst end; try contradiction.
        match goal with Y : Spec.Reps _ _ _ _ _ _ (S _) _ _ |- _ => apply X in Y; subst end.
        cbn [length]. rewrite app_length. cbn [length].
        rewrite Nat.add_1_r in E3. eapply IH2 in R'; [|lia|exact E3]. lia.
  Qed.

  Lemma bracket_total w i : i <= length w -> exists j, Peg w (PRef 0) i (OK i j).
  Proof.
    intros Hi.
    assert (T : exists r c', Returns bracket_env [] (PRef 0) (cx k w i) r c').
    { apply (checked_total k bracket_env no_skip [] no_skip_skipper (no_skip_implements k bracket_env) bracket_core (fun _ => false) (fun _ => 0) 1) with (m := 1);
        auto; try discriminate; [|shape].
      intros [|x] q E; [injection E as <-; reflexivity|destruct x; discriminate]. }
    destruct T as (r & c' & R).
    destruct (plain_sound k bracket_env (PRef 0) w i r c' bracket_core (core_ref _ _ _ 0) Hi R) as [(b & j & _ & _ & _ & _ & _ & P)|(e & _ & _ & P)].
    - destruct (peg_ref0 _ _ _ P) as (n & j' & E & _). injection E as -> ->. eauto.
    - destruct (peg_ref0 _ _ _ P) as (n & j' & E & _). discriminate.
  Qed.
End Brackets.
