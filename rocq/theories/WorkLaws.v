(** Where one item of lookahead decides (Ll1.v), matching is linear: the steps (Work.v) are bounded by a
    constant of the grammar times the text that is left. *)

From Coq Require Import List Arith NArith Bool Lia.
From Verif Require Import Base Text Context Neu Syntax Regex Ctor Api TextProofs Spec Core Sound Obs Laws
  ApiLaws Consumes Term TermLaws PolicyLaws UnitProps CtorShape CtorSpec CtorLaws Lang Ll1 Work.
Import ListNotations.

(** ** The constants *)
(** Two parts in a row, the second one reached with the cursor unmoved unless [ca]. *)
Definition qs (ca : bool) (qa qb : nat) : nat := qa + if ca then 0 else qb.
Definition fls (ca : bool) (qa fa qb fb : nat) : nat := fa + qa + qb + if ca then 0 else fb.

Section Const.
  Variable K : nat -> bool.
  (** For the handles they are given. *)
  Variable A B : nat -> nat.

  (** The steps of a run that finds nothing of [p] at the cursor. *)
  Fixpoint idle_steps (p : pat) : nat :=
    match p with
    | PThen p q | PSuffix p q => S (qs (consumes K p) (idle_steps p) (idle_steps q))
    | PPrefix p q => S (qs (consumes K q) (idle_steps q) (idle_steps p))
    | PEnclose p o c => S (qs (consumes K o) (idle_steps o) (qs (consumes K p) (idle_steps p) (idle_steps c)))
    | PIfThen p s q | PSepOnce p s q => S (qs (consumes K p) (idle_steps p) (qs (consumes K s) (idle_steps s) (idle_steps q)))
    | POr p q => S (idle_steps p + idle_steps q)
    | PChoice _ _ ps => S ((fix go ps := match ps with [] => 0 | p :: r => idle_steps p + go r end) ps)
    | POption p | PRepeat p _ | PRepeat2 p _ _ | PCollect p _ | PSep p _ _ _ | PSep2 p _ _ _ _ | PSepCollect p _ _ _
    | PPat p | PLeaf p | PMap p _ | PWrap p => S (idle_steps p)
    | PRef x => S (A x)
    | _ => 2
    end.
  (** What a run costs beside the items it reads. *)
  Fixpoint extra (p : pat) : nat :=
    match p with
    | PThen p q | PSuffix p q => S (fls (consumes K p) (idle_steps p) (extra p) (idle_steps q) (extra q))
    | PPrefix p q => S (fls (consumes K q) (idle_steps q) (extra q) (idle_steps p) (extra p))
    | PEnclose p o c => S (fls (consumes K o) (idle_steps o) (extra o) (qs (consumes K p) (idle_steps p) (idle_steps c))
        (fls (consumes K p) (idle_steps p) (extra p) (idle_steps c) (extra c)))
    | PIfThen p s q | PSepOnce p s q => S (fls (consumes K p) (idle_steps p) (extra p) (qs (consumes K s) (idle_steps s) (idle_steps q))
        (fls (consumes K s) (idle_steps s) (extra s) (idle_steps q) (extra q)))
    | POr p q => S (extra p + idle_steps p + (extra q + idle_steps q))
    | PChoice _ _ ps => S ((fix go ps := match ps with [] => 0 | p :: r => extra p + idle_steps p + go r end) ps)
    | PRepeat p _ | PRepeat2 p _ _ | PCollect p _ => S (extra p + idle_steps p)
    | PSep p d _ _ | PSep2 p d _ _ _ | PSepCollect p d _ _ => S (extra p + idle_steps p + idle_steps d)
    | POption p | PPat p | PLeaf p | PMap p _ | PWrap p => S (extra p)
    | PRef x => S (B x)
    | _ => 4
    end.
  (** More than any part of [p] costs. *)
  Fixpoint rate (p : pat) : nat := extra p +
    match p with
    | PThen p q | PSuffix p q | PPrefix p q | POr p q => rate p + rate q
    | PEnclose p o c => rate p + rate o + rate c + fls (consumes K p) (idle_steps p) (extra p) (idle_steps c) (extra c)
    | PIfThen p s q | PSepOnce p s q => rate p + rate s + rate q + fls (consumes K s) (idle_steps s) (extra s) (idle_steps q) (extra q)
    | PChoice _ _ ps => (fix go ps := match ps with [] => 0 | p :: r => rate p + go r end) ps
    | PSep p d _ _ | PSep2 p d _ _ _ | PSepCollect p d _ _ => rate p + rate d
    | POption p | PRepeat p _ | PRepeat2 p _ _ | PCollect p _ | PPat p | PLeaf p | PMap p _ | PWrap p => rate p
    | _ => 0
    end.
  Definition idle_all := fix go (ps : list pat) := match ps with [] => 0 | p :: r => idle_steps p + go r end.
  Definition extra_all := fix go (ps : list pat) := match ps with [] => 0 | p :: r => extra p + idle_steps p + go r end.
  Definition rate_all := fix go (ps : list pat) := match ps with [] => 0 | p :: r => rate p + go r end.
End Const.

Lemma either (P : Prop) a b : (P -> a <= b) -> (~ P -> a <= b) -> a <= b.
Proof.
  intros H1 H2. destruct (le_dec a b) as [|N]; [assumption|]. exfalso.
  assert (NP : ~ P) by (intros X; apply N, H1, X). apply N, H2, NP.
Qed.

(** ** Runs *)
Section Runs.
  Variable c : nat.
  Definition run_ok (a : info) (q f : nat) (w : text) (i : nat) (o : out) (N : nat) : Prop :=
    (~ ahead (skipn i w) (fs a) -> N <= q) /\
    (forall b j, o = OK b j -> i < j -> ~ ahead (skipn j w) (ex a) -> N + c <= f + c * (j - i)) /\
    N <= f + c * (length w - i).
  Definition went (a : info) (w : text) (i : nat) (o : out) : Prop :=
    match o with
    | OK b j => b = i /\ i <= j /\ j <= length w /\ (j = i -> nl a = true) /\ (i < j -> ahead (skipn i w) (fs a))
    | KO _ => True
    end.

  Lemma split_mul i j n : i <= j -> j <= n -> c * (n - i) = c * (j - i) + c * (n - j).
  Proof. intros H1 H2. rewrite <- Nat.mul_add_distr_l. f_equal. lia. Qed.
  Lemma one_mul i j : i < j -> c <= c * (j - i).
  Proof. intros H. rewrite <- (Nat.mul_1_r c) at 1. apply Nat.mul_le_mono_l. lia. Qed.
  Lemma mono_mul i j n : j <= n -> c * (j - i) <= c * (n - i).
  Proof. intros H. apply Nat.mul_le_mono_l. lia. Qed.

  Lemma run_more a q f q' f' w i o N : run_ok a q f w i o N -> q <= q' -> f <= f' -> run_ok a (S q') (S f') w i o (S N).
  Proof.
    intros (R1 & R2 & R3) Q F. split; [|split].
    - intros H. specialize (R1 H). lia.
    - intros b j E H X. specialize (R2 b j E H X). lia.
    - lia.
  Qed.
  Lemma run_wider a a' q f w i o N : run_ok a q f w i o N -> (forall x, fs a x -> fs a' x) -> (forall x, ex a x -> ex a' x) ->
    run_ok a' q f w i o N.
  Proof.
    intros (R1 & R2 & R3) F E. split; [|split]; [|intros b j -> H X|exact R3].
    - intros H. apply R1. intros Y. apply H. destruct (skipn i w); cbn in *; auto.
    - apply (R2 b j); auto. intros Y. apply X. destruct (skipn j w); cbn in *; auto.
  Qed.

  (** A part that found nothing left the cursor where it was, and could have left it out. *)
  Lemma stays a w i b j : closed a -> went a w i (OK b j) -> j = i -> ~ ahead (skipn j w) (ex a) -> ~ ahead (skipn i w) (fs a).
  Proof.
    intros C (_ & _ & _ & Z & _) E X Y. subst j. specialize (Z eq_refl). apply X.
    destruct (skipn i w); cbn in *; auto.
  Qed.

  Lemma seq_fail a b w i e qa fa qb fb ca N : run_ok a qa fa w i (KO e) N ->
    run_ok (iseq a b) (qs ca qa qb) (fls ca qa fa qb fb) w i (KO e) N.
  Proof.
    intros (R1 & _ & R3). unfold qs, fls. split; [|split].
    - intros H. assert (N <= qa); [|lia]. apply R1. intros Y. apply H. destruct (skipn i w); cbn in *; auto.
    - discriminate.
    - lia.
  Qed.
  Lemma seq_run a b w i b1 j1 o qa fa qb fb (ca : bool) Na Nb o' :
    seq_ok a b -> closed a -> closed b -> went a w i (OK b1 j1) -> went b w j1 o -> (ca = true -> i < j1) -> fb <= c ->
    (forall b' j', o' = OK b' j' -> exists b'', o = OK b'' j') ->
    run_ok a qa fa w i (OK b1 j1) Na -> run_ok b qb fb w j1 o Nb ->
    run_ok (iseq a b) (qs ca qa qb) (fls ca qa fa qb fb) w i o' (Na + Nb).
  Proof.
    intros O CA CB W1 W2 CC FB SO (R1 & R2 & R3) (Q1 & Q2 & Q3). pose proof W1 as (_ & H1 & H2 & Z & F).
    assert (NF : forall t, ahead t (ex a) -> ahead t (fs b) -> False) by (intros [|x t]; cbn; [auto|apply O]).
    unfold qs, fls. split; [|split].
    - intros H. assert (H' : ~ ahead (skipn i w) (fs a)) by (intros Y; apply H; destruct (skipn i w); cbn in *; auto).
      assert (j1 = i) as -> by (destruct (Nat.eq_dec j1 i); [auto|]; exfalso; apply H', F; lia).
      specialize (R1 H'). specialize (Z eq_refl).
      assert (Nb <= qb).
      { apply Q1. intros Y. apply H. destruct (skipn i w); cbn in *; auto. }
      destruct ca; [specialize (CC eq_refl); lia|]. lia.
    - intros b' j E H X. destruct (SO b' j E) as [b'' ->]. pose proof W2 as (_ & G1 & G2 & Z2 & F2).
      assert (XB : ~ ahead (skipn j w) (ex b)) by (intros Y; apply X; destruct (skipn j w); cbn in *; auto).
      assert (XA : ~ ahead (skipn j1 w) (ex a)).
      { intros Y. destruct (Nat.eq_dec j j1) as [->|]; [|apply (NF _ Y), F2; lia].
        apply X. specialize (Z2 eq_refl). destruct (skipn j1 w); cbn in *; auto. }
      destruct (Nat.eq_dec j1 i) as [->|D1].
      + specialize (R1 (stays a w i b1 i CA W1 eq_refl XA)). specialize (Q2 b'' j eq_refl H XB).
        destruct ca; [specialize (CC eq_refl); lia|]. lia.
      + specialize (R2 b1 j1 eq_refl ltac:(lia) XA). destruct (Nat.eq_dec j j1) as [->|D2].
        * specialize (Q1 (stays b w j1 b'' j1 CB W2 eq_refl XB)). lia.
        * specialize (Q2 b'' j eq_refl ltac:(lia) XB). rewrite (split_mul i j1 j) by lia. lia.
    - apply (either (ahead (skipn j1 w) (ex a))); intros X.
      + assert (Nb <= qb) by (apply Q1; intros Y; exact (NF _ X Y)). lia.
      + destruct (Nat.eq_dec j1 i) as [->|D1].
        * specialize (R1 (stays a w i b1 i CA W1 eq_refl X)). destruct ca; [specialize (CC eq_refl); lia|]. lia.
        * specialize (R2 b1 j1 eq_refl ltac:(lia) X). rewrite (split_mul i j1 (length w)) by lia. lia.
  Qed.
  Lemma went_seq a b w i b1 j1 b2 j2 : went a w i (OK b1 j1) -> went b w j1 (OK b2 j2) -> went (iseq a b) w i (OK i j2).
  Proof.
    intros (-> & H1 & H2 & Z & F) (-> & G1 & G2 & Y & E). split; [reflexivity|]. split; [lia|]. split; [lia|]. split.
    - intros ->. assert (j1 = i) as -> by lia. cbn. now rewrite Z, Y.
    - intros H. destruct (Nat.eq_dec j1 i) as [->|D].
      + specialize (E H). specialize (Z eq_refl). destruct (skipn i w); cbn in *; auto.
      + specialize (F ltac:(lia)). destruct (skipn i w); cbn in *; auto.
  Qed.
  Lemma opt_run a q f w i o o' N : run_ok a q f w i o N -> o' = o \/ o' = OK i i -> run_ok (iopt a) q f w i o' N.
  Proof.
    intros (R1 & R2 & R3) E. split; [exact R1|split; [|exact R3]].
    intros b j -> H X. destruct E as [<-|E]; [|injection E as -> ->; lia]. apply (R2 b j eq_refl H).
    intros Y. apply X. destruct (skipn j w); cbn in *; auto.
  Qed.
  Lemma alt_left a b w i o qa fa qb f N : fa <= f -> run_ok a qa fa w i o N -> run_ok (ialt a b) (qa + qb) f w i o N.
  Proof.
    intros FF (R1 & R2 & R3). split; [|split].
    - intros H. assert (N <= qa); [|lia]. apply R1. intros Y. apply H. destruct (skipn i w); cbn in *; auto.
    - intros b' j E H X. assert (N + c <= fa + c * (j - i)); [|lia]. apply (R2 b' j E H). intros Y. apply X. destruct (skipn j w); cbn in *; auto.
    - lia.
  Qed.
  Lemma alt_right a b w i e o qa fa qb fb f Na Nb : fa + qb <= f -> qa + fb <= f -> alt_ok a b -> went b w i o ->
    run_ok a qa fa w i (KO e) Na -> run_ok b qb fb w i o Nb -> run_ok (ialt a b) (qa + qb) f w i o (Na + Nb).
  Proof.
    intros F1 F2 [_ O] W (R1 & _ & R3) (Q1 & Q2 & Q3).
    assert (NF : forall t, ahead t (fs a) -> ahead t (fs b) -> False) by (intros [|x t]; cbn; [auto|apply O]).
    split; [|split].
    - intros H. assert (Na <= qa) by (apply R1; intros Y; apply H; destruct (skipn i w); cbn in *; auto).
      assert (Nb <= qb) by (apply Q1; intros Y; apply H; destruct (skipn i w); cbn in *; auto). lia.
    - intros b' j -> H X. destruct W as (_ & _ & _ & _ & F). specialize (F H).
      assert (Na <= qa) by (apply R1; intros Y; exact (NF _ Y F)).
      assert (Nb + c <= fb + c * (j - i)); [|lia]. apply (Q2 b' j eq_refl H). intros Y. apply X. destruct (skipn j w); cbn in *; auto.
    - apply (either (ahead (skipn i w) (fs a))); intros X.
      + assert (Nb <= qb) by (apply Q1; intros Y; exact (NF _ X Y)). lia.
      + specialize (R1 X). lia.
  Qed.
  (** A single unit or a run of them. *)
  Lemma leaf_run a w i o d N : 1 <= c -> N <= 2 + d -> i + d <= length w -> (0 < d -> ahead (skipn i w) (fs a)) ->
    (forall b j, o = OK b j -> j = i + d) -> run_ok a 2 4 w i o N.
  Proof.
    intros C H1 H2 F J. split; [|split].
    - intros H. destruct d; [lia|]. exfalso. apply H, F. lia.
    - intros b j E H _. rewrite (J b j E) in *. replace (i + d - i) with d by lia. destruct d as [|d]; [lia|]. nia.
    - assert (d <= c * (length w - i)) by nia. lia.
  Qed.
End Runs.

Section Main.
  Variable k : kind.
  Variable G : env.
  Variable R : nat -> info.
  Hypothesis RE : ll1_env R k G.
  Variable K : nat -> bool.
  Hypothesis KE : forall x p, env_get G x = Some p -> K x = true -> consumes K p = true.
  Variable A B : nat -> nat.
  Variable c : nat.
  Notation II := (info_of R).
  Notation LL := (ll1 R k).
  Notation Peg := (Peg k G no_skip).
  Notation Q := (idle_steps K A).
  Notation F := (extra K A B).
  Notation C := (rate K A B).
  Hypothesis AE : forall x p, env_get G x = Some p -> Q p <= A x.
  Hypothesis BE : forall x p, env_get G x = Some p -> F p <= B x.
  Hypothesis CE : forall x p, env_get G x = Some p -> C p <= c.
  Hypothesis C4 : 4 <= c.
  Let CO : core_env k G no_skip := ll1_core_env k G R RE.
  Let SE : static_env G := ll1_static_env k G R RE.

  Lemma begins_went a w i b j : b = i -> i <= j -> j <= length w -> begins a (slice w i j) -> went a w i (OK b j).
  Proof.
    intros -> H1 H2 H. split; [reflexivity|]. split; [lia|]. split; [lia|]. unfold slice in H. split.
    - intros ->. rewrite Nat.sub_diag in H. exact H.
    - intros H3. destruct (j - i) as [|n] eqn:E; [lia|]. destruct (skipn i w) as [|x t] eqn:E'; cbn in *; [|exact H].
      apply (f_equal (@length item)) in E'. rewrite skipn_length in E'. cbn in E'. lia.
  Qed.
  Lemma peg_went w p i o : Peg w p i o -> LL p -> i <= length w -> went (II p) w i o.
  Proof.
    intros P H Hi. destruct o as [b j|e]; [|exact I].
    destruct (proj1 (lang_all k G CO SE) w p i _ P (ll1_core k G R p H) (ll1_static k R p H) Hi) as (-> & H1 & H2 & LA).
    apply begins_went; auto. now apply (first_sound k G R RE).
  Qed.
  Lemma work_went w p i o N : Work k G no_skip w p i o N -> LL p -> i <= length w -> went (II p) w i o.
  Proof. intros P. apply peg_went. now apply (proj1 (work_peg k G no_skip)) in P. Qed.
  Lemma adv w p i b j N : Work k G no_skip w p i (OK b j) N -> LL p -> i <= length w -> consumes K p = true -> i < j.
  Proof.
    intros P H Hi D. apply (proj1 (work_peg k G no_skip)) in P.
    exact (consumes_advances k G no_skip [] no_skip_skipper CO (no_skip_implements k G) K KE p (ll1_core k G R p H) D w i b j Hi eq_refl P).
  Qed.
  Lemma closed_ll p : LL p -> closed (II p).
  Proof. apply (ll1_closed k G R RE). Qed.

  Notation ok := (run_ok c).

  Lemma extra_rate p : F p <= C p.
  Proof. destruct p; cbn [rate]; lia. Qed.

  Notation two p q := (qs (consumes K p) (Q p) (Q q)).
  Notation two' p q := (fls (consumes K p) (Q p) (F p) (Q q) (F q)).
  Lemma two_fail p q w i e N : ok (II p) (Q p) (F p) w i (KO e) N ->
    ok (iseq (II p) (II q)) (two p q) (two' p q) w i (KO e) N.
  Proof. apply seq_fail. Qed.
  Lemma two_run p q w i b j o o' z1 z2 : LL p -> LL q -> seq_ok (II p) (II q) -> i <= length w -> C q <= c ->
    Work k G no_skip w p i (OK b j) z1 -> Work k G no_skip w q j o z2 ->
    (forall b' j', o' = OK b' j' -> exists b'', o = OK b'' j') ->
    ok (II p) (Q p) (F p) w i (OK b j) z1 -> ok (II q) (Q q) (F q) w j o z2 ->
    ok (iseq (II p) (II q)) (two p q) (two' p q) w i o' (z1 + z2).
  Proof.
    intros L1 L2 O Hi HC W1 W2 S0 O1 O2. pose proof (work_went _ _ _ _ _ W1 L1 Hi) as X. pose proof X as (_ & _ & Hj & _).
    eapply (seq_run c (II p) (II q) w i b j o); eauto using closed_ll.
    - eapply work_went; eauto.
    - intros D. eapply adv; eauto.
    - pose proof (extra_rate q). lia.
  Qed.
  (** Three parts, the last two of them optional or not. *)
  Lemma three_mid (opt : bool) p q r w i b j e o' z1 z2 : LL p -> LL q -> LL r -> closed (II q) -> closed (II r) ->
    seq_ok (II p) (if opt then iopt (iseq (II q) (II r)) else iseq (II q) (II r)) -> i <= length w -> two' q r <= c ->
    Work k G no_skip w p i (OK b j) z1 -> o' = KO e \/ opt = true /\ (exists b', o' = OK b' j) ->
    ok (II p) (Q p) (F p) w i (OK b j) z1 -> ok (II q) (Q q) (F q) w j (KO e) z2 ->
    ok (iseq (II p) (if opt then iopt (iseq (II q) (II r)) else iseq (II q) (II r)))
      (qs (consumes K p) (Q p) (two q r)) (fls (consumes K p) (Q p) (F p) (two q r) (two' q r)) w i o' (z1 + z2).
  Proof.
    intros L1 L2 L3 K2 K3 O Hi HC W1 S0 O1 O2. pose proof (work_went _ _ _ _ _ W1 L1 Hi) as X. pose proof X as (_ & _ & Hj & _).
    pose proof (seq_fail c (II q) (II r) w j e _ _ (Q r) (F r) (consumes K q) _ O2) as O3.
    destruct opt.
    - eapply (seq_run c _ _ w i b j (match o' with KO _ => KO e | _ => OK j j end)); [exact O|now apply closed_ll|apply closed_opt|exact X| | |exact HC| |exact O1|].
      + destruct o'; cbn; [|exact I]. repeat split; auto; lia.
      + intros D. eapply adv; eauto.
      + intros b' j' ->. destruct S0 as [S0|(_ & b0 & S0)]; [discriminate S0|injection S0 as _ ->]. eauto.
      + eapply opt_run; [exact O3|]. destruct o'; auto.
    - destruct S0 as [->|[S0 _]]; [|discriminate S0].
      eapply (seq_run c _ _ w i b j (KO e)); [exact O|now apply closed_ll|now apply closed_seq|exact X|exact I| |exact HC|discriminate|exact O1|exact O3].
      intros D. eapply adv; eauto.
  Qed.
  Lemma three_run (opt : bool) p q r w i b j b1 j1 o o' z1 z2 z3 : LL p -> LL q -> LL r -> seq_ok (II q) (II r) ->
    seq_ok (II p) (if opt then iopt (iseq (II q) (II r)) else iseq (II q) (II r)) -> i <= length w -> two' q r <= c -> C r <= c ->
    Work k G no_skip w p i (OK b j) z1 -> Work k G no_skip w q j (OK b1 j1) z2 -> Work k G no_skip w r j1 o z3 ->
    (forall b' j', o' = OK b' j' -> exists b'', o = OK b'' j') ->
    ok (II p) (Q p) (F p) w i (OK b j) z1 -> ok (II q) (Q q) (F q) w j (OK b1 j1) z2 -> ok (II r) (Q r) (F r) w j1 o z3 ->
    ok (iseq (II p) (if opt then iopt (iseq (II q) (II r)) else iseq (II q) (II r)))
      (qs (consumes K p) (Q p) (two q r)) (fls (consumes K p) (Q p) (F p) (two q r) (two' q r)) w i o' (z1 + z2 + z3).
  Proof.
    intros L1 L2 L3 O' O Hi HC HR W1 W2 W3 S0 O1 O2 O3. pose proof (work_went _ _ _ _ _ W1 L1 Hi) as X. pose proof X as (_ & _ & Hj & _).
    pose proof (work_went _ _ _ _ _ W2 L2 Hj) as X2. pose proof X2 as (_ & _ & Hj1 & _). pose proof (work_went _ _ _ _ _ W3 L3 Hj1) as X3.
    set (o2 := match o with OK _ j2 => OK j j2 | KO e => KO e end).
    assert (Y : ok (iseq (II q) (II r)) (two q r) (two' q r) w j o2 (z2 + z3)).
    { eapply (two_run q r w j b1 j1 o); eauto. intros b' j'. unfold o2. destruct o; intros E; [|discriminate E]. injection E as _ <-. eauto. }
    assert (X4 : went (iseq (II q) (II r)) w j o2) by (destruct o; [eapply went_seq; eauto|exact I]).
    assert (S1 : forall b' j', o' = OK b' j' -> exists b'', o2 = OK b'' j').
    { intros b' j' E. destruct (S0 b' j' E) as [b'' E']. unfold o2. rewrite E'. eauto. }
    rewrite <- Nat.add_assoc.
    eapply (seq_run c _ _ w i b j o2); [exact O|now apply closed_ll| |exact X| | |exact HC|exact S1|exact O1|].
    - destruct opt; [apply closed_opt|apply closed_seq; now apply closed_ll].
    - destruct opt; [|exact X4]. destruct o2; [|exact I]. destruct X4 as (E1 & E2 & E3 & E4 & E5). repeat split; auto.
    - intros D. eapply adv; eauto.
    - destruct opt; [|exact Y]. eapply opt_run; [exact Y|auto].
  Qed.

  Lemma nth_ahead (w : text) i x (a : item -> Prop) : nth_error w i = Some x -> a x -> ahead (skipn i w) a.
  Proof.
    revert i. induction w as [|y w IH]; intros [|i] E H; cbn in *; try discriminate; [now injection E as ->|eauto].
  Qed.
  Lemma nth_in (w : text) i x : nth_error w i = Some x -> i < length w.
  Proof. intros E. apply nth_error_Some. congruence. Qed.
  Lemma lit_ahead (w l : text) i : firstn (length l) (skipn i w) = l -> 0 < length l -> ahead (skipn i w) (fun x => hd_error l = Some x).
  Proof. destruct l; cbn; [lia|]. destruct (skipn i w); cbn; [discriminate|]. intros [= -> _] _. reflexivity. Qed.
  Lemma lit_in (w l : text) i : firstn (length l) (skipn i w) = l -> i <= length w -> i + length l <= length w.
  Proof. intros E Hi. apply (f_equal (@length item)) in E. rewrite firstn_length, skipn_length in E. unfold item in *. lia. Qed.

  Definition reps (w : text) (p : pat) (i j N : nat) : Prop :=
    i <= j /\ j <= length w /\ (i < j -> ahead (skipn i w) (fs (II p))) /\
    (~ ahead (skipn i w) (fs (II p)) -> N <= Q p) /\
    (i < j -> ~ ahead (skipn j w) (ex (II p)) -> ~ ahead (skipn j w) (fs (II p)) -> N + c <= F p + Q p + c * (j - i)) /\
    N <= F p + Q p + c * (length w - i).
  Definition seps (w : text) (p d : pat) (i j N : nat) : Prop :=
    i <= j /\ j <= length w /\ (i < j -> ahead (skipn i w) (fs (II p))) /\
    (~ ahead (skipn i w) (fs (II p)) -> N <= Q p) /\
    (i < j -> ~ ahead (skipn j w) (ex (II p)) -> ~ ahead (skipn j w) (fs (II p)) ->
      ~ ahead (skipn j w) (ex (II d)) -> ~ ahead (skipn j w) (fs (II d)) -> N + c <= F p + Q p + Q d + c * (j - i)) /\
    N <= F p + Q p + Q d + c * (length w - i).

  Lemma not_both w i (a b : item -> Prop) : disj a b -> ahead (skipn i w) a -> ~ ahead (skipn i w) b.
  Proof. unfold disj. destruct (skipn i w); cbn; [auto|]. intros D X Y. exact (D _ X Y). Qed.
  Lemma forward w p i b j N : Work k G no_skip w p i (OK b j) N -> LL p -> nl (II p) = false -> i <= length w ->
    i < j /\ j <= length w /\ ahead (skipn i w) (fs (II p)).
  Proof.
    intros W L Z Hi. destruct (work_went _ _ _ _ _ W L Hi) as (_ & H1 & H2 & H3 & H4).
    assert (i < j). { destruct (Nat.eq_dec j i) as [E|]; [specialize (H3 E); congruence|lia]. } auto.
  Qed.

  Lemma reps_lim w p i : i <= length w -> reps w p i i 0.
  Proof. intros H. unfold reps. split; [lia|]. split; [lia|]. split; [lia|]. split; [lia|]. split; [intros X; exfalso; lia|apply Nat.le_0_l]. Qed.
  Lemma reps_stop w p i e z : i <= length w -> ok (II p) (Q p) (F p) w i (KO e) z -> reps w p i i z.
  Proof. intros H (R1 & _ & R3). unfold reps. split; [lia|]. split; [lia|]. split; [lia|]. split; [auto|]. split; [intros X; exfalso; lia|lia]. Qed.
  Lemma reps_step w p i b j j' z1 z2 : LL p -> loop_ok (II p) -> i <= length w -> C p <= c ->
    Work k G no_skip w p i (OK b j) z1 -> ok (II p) (Q p) (F p) w i (OK b j) z1 -> reps w p j j' z2 -> reps w p i j' (z1 + z2).
  Proof.
    intros L (Z & D) Hi HC W (_ & R2 & R3) (H1 & H2 & S0 & S1 & S2 & S3).
    destruct (forward _ _ _ _ _ _ W L Z Hi) as (J & Hj & AH). pose proof (extra_rate p).
    unfold reps. split; [lia|]. split; [lia|]. split; [auto|]. split; [intros X; contradiction|]. split.
    - intros _ X Y. rewrite (split_mul c i j j') by lia. destruct (Nat.eq_dec j j') as [<-|E].
      + specialize (R2 b j eq_refl J X). specialize (S1 Y). lia.
      + specialize (S0 ltac:(lia)). assert (NX : ~ ahead (skipn j w) (ex (II p))) by (intros X'; exact (not_both _ _ _ _ D X' S0)).
        specialize (R2 b j eq_refl J NX). specialize (S2 ltac:(lia) X Y). lia.
    - apply (either (ahead (skipn j w) (ex (II p)))); intros X.
      + specialize (S1 (not_both _ _ _ _ D X)). lia.
      + specialize (R2 b j eq_refl J X). rewrite (split_mul c i j (length w)) by lia. lia.
  Qed.
  Lemma seps_lim w p d i : i <= length w -> seps w p d i i 0.
  Proof. intros H. unfold seps. split; [lia|]. split; [lia|]. split; [lia|]. split; [lia|]. split; [intros X; exfalso; lia|apply Nat.le_0_l]. Qed.
  Lemma seps_stop w p d i e z : i <= length w -> ok (II p) (Q p) (F p) w i (KO e) z -> seps w p d i i z.
  Proof. intros H (R1 & _ & R3). unfold seps. split; [lia|]. split; [lia|]. split; [lia|]. split; [auto|]. split; [intros X; exfalso; lia|lia]. Qed.
  Lemma seps_last w p d i b j e z1 z2 : LL p -> LL d -> sep_ok (II p) (II d) -> i <= length w -> C p <= c -> C d <= c ->
    Work k G no_skip w p i (OK b j) z1 -> ok (II p) (Q p) (F p) w i (OK b j) z1 -> ok (II d) (Q d) (F d) w j (KO e) z2 ->
    seps w p d i j (z1 + z2).
  Proof.
    intros L Ld (Z & Zd & D & D') Hi HC HD W (_ & R2 & R3) (S1 & _ & S3).
    destruct (forward _ _ _ _ _ _ W L Z Hi) as (J & Hj & AH). pose proof (extra_rate p). pose proof (extra_rate d).
    unfold seps. split; [lia|]. split; [lia|]. split; [auto|]. split; [intros X; contradiction|]. split.
    - intros _ X Y X' Y'. specialize (R2 b j eq_refl J X). specialize (S1 Y'). lia.
    - apply (either (ahead (skipn j w) (ex (II p)))); intros X.
      + specialize (S1 (not_both _ _ _ _ D X)). lia.
      + specialize (R2 b j eq_refl J X). rewrite (split_mul c i j (length w)) by lia. lia.
  Qed.
  Lemma seps_step w p d i b j b' j' j'' z1 z2 z3 : LL p -> LL d -> sep_ok (II p) (II d) -> i <= length w -> C p <= c -> C d <= c ->
    Work k G no_skip w p i (OK b j) z1 -> ok (II p) (Q p) (F p) w i (OK b j) z1 ->
    Work k G no_skip w d j (OK b' j') z2 -> ok (II d) (Q d) (F d) w j (OK b' j') z2 ->
    seps w p d j' j'' z3 -> seps w p d i j'' (z1 + z2 + z3).
  Proof.
    intros L Ld (Z & Zd & D & D') Hi HC HD W (_ & R2 & R3) Wd (_ & T2 & T3) (H1 & H2 & S0 & S1 & S2 & S3).
    destruct (forward _ _ _ _ _ _ W L Z Hi) as (J & Hj & AH). pose proof (extra_rate p). pose proof (extra_rate d).
    destruct (forward _ _ _ _ _ _ Wd Ld Zd Hj) as (J' & Hj' & AH').
    assert (NX : ~ ahead (skipn j w) (ex (II p))) by (intros X'; exact (not_both _ _ _ _ D X' AH')).
    specialize (R2 b j eq_refl J NX).
    unfold seps. split; [lia|]. split; [lia|]. split; [auto|]. split; [intros X; contradiction|]. split.
    - intros _ X Y X' Y'. rewrite (split_mul c i j j'') by lia. rewrite (split_mul c j j' j'') by lia. destruct (Nat.eq_dec j' j'') as [<-|E].
      + specialize (T2 b' j' eq_refl J' X'). specialize (S1 Y). lia.
      + specialize (S0 ltac:(lia)). assert (NY : ~ ahead (skipn j' w) (ex (II d))) by (intros V; exact (not_both _ _ _ _ D' V S0)).
        specialize (T2 b' j' eq_refl J' NY). specialize (S2 ltac:(lia) X Y X' Y'). lia.
    - rewrite (split_mul c i j (length w)) by lia. apply (either (ahead (skipn j' w) (ex (II d)))); intros X.
      + specialize (S1 (not_both _ _ _ _ D' X)). lia.
      + specialize (T2 b' j' eq_refl J' X). rewrite (split_mul c j j' (length w)) by lia. lia.
  Qed.
  Lemma loop_run w p z i j o N : reps w p i j N -> (forall b' j', o = OK b' j' -> j' = j) ->
    ok (iloop (II p) z) (Q p) (F p + Q p) w i o N.
  Proof.
    intros (H1 & H2 & S0 & S1 & S2 & S3) E. split; [exact S1|split; [|exact S3]].
    intros b' j' -> H X. rewrite (E b' j' eq_refl) in *. apply S2; auto; intros Y; apply X; destruct (skipn j w); cbn in *; auto.
  Qed.
  Lemma sep_run w p d z i j o N : seps w p d i j N -> (forall b' j', o = OK b' j' -> j' = j) ->
    ok (isep (II p) (II d) z) (Q p) (F p + Q p + Q d) w i o N.
  Proof.
    intros (H1 & H2 & S0 & S1 & S2 & S3) E. split; [exact S1|split; [|exact S3]].
    intros b' j' -> H X. rewrite (E b' j' eq_refl) in *. apply S2; auto; intros Y; apply X; destruct (skipn j w); cbn in *; auto.
  Qed.
  Lemma opt_seq p t q : nl (II t) = false -> seq_ok (II p) (II t) -> seq_ok (II p) (iopt (iseq (II t) (II q))).
  Proof. intros Z O x X [Y|[Y _]]; [exact (O x X Y)|congruence]. Qed.

  Lemma unit_run a u w i o n z : i <= length w -> z <= S n ->
    (0 < n -> i + 0 + n <= length w /\ exists x, nth_error w (i + 0) = Some x /\ is_match u x = true) ->
    fs a = of u -> (forall b j, o = OK b j -> j = i + n) -> ok a 2 4 w i o (S z).
  Proof.
    intros Hi Z D E J. apply (leaf_run c a w i o n); [lia|lia| | |exact J].
    - destruct n; [lia|]. specialize (D ltac:(lia)). lia.
    - intros H. destruct (D H) as (_ & x & E1 & E2). rewrite Nat.add_0_r in E1. eapply nth_ahead; [exact E1|]. now rewrite E.
  Qed.
  Lemma still_run a w i o z : i <= length w -> z <= 1 -> (forall b j, o = OK b j -> j = i) -> ok a 2 4 w i o (S z).
  Proof. intros Hi Z J. apply (leaf_run c a w i o 0); try lia. intros b j E. rewrite (J b j E). lia. Qed.

  Lemma idle_extra ps : idle_all K A ps <= extra_all K A B ps.
  Proof. induction ps as [|p r IH]; cbn [idle_all extra_all]; lia. Qed.
  Lemma work_linear :
    (forall w p i o N, Work k G no_skip w p i o N -> LL p -> i <= length w -> C p <= c -> ok (II p) (Q p) (F p) w i o N) /\
    (forall w i u d m r N, AccW k G no_skip w i u d m r N -> d = CEmpty -> N = 1 /\ (forall e, r <> inr e) /\
       (r = inl true -> exists x, nth_error w (i + m) = Some x /\ is_match u x = true)) /\
    (forall w i d m x r N, ChkW k G no_skip w i d m x r N -> d = CEmpty -> N = 0 /\ r = inl true) /\
    (forall w i u d l m r N, RunW k G no_skip w i u d l m r N -> d = CEmpty -> exists n, r = inl n /\ N <= S n /\
       (0 < n -> i + m + n <= length w /\ exists x, nth_error w (i + m) = Some x /\ is_match u x = true)) /\
    (forall w p l i a j N, RepsW k G no_skip w p l i a j N -> LL p -> loop_ok (II p) -> i <= length w -> C p <= c ->
       reps w p i j N) /\
    (forall w p d l i a j N, SepsW k G no_skip w p d l i a j N -> LL p -> LL d -> sep_ok (II p) (II d) -> i <= length w -> C p <= c -> C d <= c ->
       seps w p d i j N) /\
    (forall w ps i e o N, FirstW k G no_skip w ps i e o N -> LL (PChoice EFail false ps) -> i <= length w -> rate_all K A B ps <= c ->
       went (II (PChoice EFail false ps)) w i o /\
       ok (II (PChoice EFail false ps)) (idle_all K A ps) (extra_all K A B ps) w i o N).
  Proof.
    apply Work_mutind; intros.
    all: try match goal with H : LL _ |- _ => solve [destruct H] | H : LL _ |- _ => solve [cbn in H; contradiction] end.
    all: try discriminate.
    all: repeat match goal with H : context [no_skip ?w ?j] |- _ => change (no_skip w j) with j in H end.
    all: repeat match goal with IH : CEmpty = CEmpty -> _ |- _ => specialize (IH eq_refl) end.
    all: match goal with
         | L : LL (PRef _) |- _ => idtac
         | L : LL (PChoice _ _ _) |- _ => idtac
         | L : LL ?p, X : C ?p <= c |- ok _ _ _ _ _ _ _ => cbn [ll1] in L; cbn [rate] in X;
             repeat match goal with X : _ /\ _ |- _ => destruct X end
         | _ => idtac
         end.
    all: subst.
    all: repeat match goal with IH : CEmpty = CEmpty -> _ |- _ => specialize (IH eq_refl) end.
    (* the positions, and the parts *)
    all: repeat match goal with
         | W : Work _ _ _ ?w ?p ?i (OK ?b ?j) ?z, L : LL ?p, J : ?i <= length ?w |- _ =>
             lazymatch goal with V : i <= j /\ j <= length w |- _ => fail | _ => idtac end;
             let V := fresh in assert (V : i <= j /\ j <= length w) by (pose proof (work_went _ _ _ _ _ W L J) as X; destruct X as (_ & ? & ? & _); auto);
             assert (j <= length w) by apply V
         end.
    all: repeat match goal with
         | IH : LL ?p -> ?i <= length ?w -> C ?p <= c -> _, L : LL ?p, J : ?i <= length ?w |- _ => specialize (IH L J ltac:(lia))
         | IH : LL ?p -> loop_ok _ -> ?i <= length ?w -> C ?p <= c -> _, L : LL ?p, J : ?i <= length ?w |- _ =>
             specialize (IH L ltac:(assumption) J ltac:(lia))
         | IH : LL ?p -> LL ?d -> sep_ok _ _ -> ?i <= length ?w -> C ?p <= c -> _, L : LL ?p, J : ?i <= length ?w |- _ =>
             specialize (IH L ltac:(assumption) ltac:(assumption) J ltac:(lia) ltac:(lia))
         end.
    (* loops *)
    all: try solve [eauto using reps_lim, reps_stop, reps_step, seps_lim, seps_stop, seps_last, seps_step].
    all: try match goal with V : reps _ ?p _ _ ?z |- ok _ _ _ _ _ _ (S ?z) =>
           apply (run_more c _ (Q p) (F p + Q p)); auto; eapply loop_run; [exact V|congruence] end.
    all: try match goal with V : seps _ ?p ?d _ _ ?z |- ok _ _ _ _ _ _ (S ?z) =>
           apply (run_more c _ (Q p) (F p + Q p + Q d)); auto; eapply sep_run; [exact V|congruence] end.
    (* units *)
    all: repeat match goal with X : exists _, _ /\ _ /\ _ |- _ => destruct X as (? & ? & ? & ?) end.
    all: try discriminate.
    all: repeat match goal with X : inl _ = inl _ |- _ => injection X as X end; subst.
    all: repeat match goal with X : _ = 1 /\ _ /\ _ |- _ => destruct X as (-> & ? & ?) end.
    all: try match goal with X : forall e, inr _ <> inr e |- _ => exfalso; eapply X; reflexivity end.
    all: repeat match goal with X : inl true = inl true -> _ |- _ => specialize (X eq_refl); destruct X as (? & ? & ?) end.
    all: try solve [eapply still_run; [assumption|lia|congruence]].
    all: try solve [eapply unit_run; [assumption|eassumption|eassumption|reflexivity|congruence]].
    all: try solve [eapply (unit_run _ u _ _ _ 1); [assumption|lia|intros _; split; [pose proof (nth_in _ _ _ ltac:(eassumption)); lia|eauto]|reflexivity|intros ? ? [= <- <-]; lia]].
    (* wrappers *)
    all: try match goal with V : ok (II ?p) _ _ _ _ ?o ?z |- ok _ _ _ _ _ ?o (S ?z) =>
           solve [apply (run_more c (II p) (Q p) (F p)); auto] end.
    (* options *)
    all: try match goal with V : ok (II ?p) _ _ _ _ _ ?z |- ok (II (POption ?p)) _ _ _ _ _ (S ?z) =>
           apply (run_more c (iopt (II p)) (Q p) (F p)); auto; eapply opt_run; [exact V|auto] end.
    (* sequences *)
    all: try match goal with V : ok (II ?p) _ _ _ _ (KO ?e) ?z |- ok _ _ _ _ _ (KO ?e) (S ?z) =>
           cbn [info_of idle_steps extra]; solve [eapply run_more; [eapply seq_fail; exact V|apply le_n|apply le_n]] end.
    all: try match goal with
         | |- ok (II (PThen ?p ?q)) _ _ _ _ _ _ =>
             apply (run_more c (iseq (II p) (II q)) (two p q) (two' p q)); auto; eapply two_run; eauto; try lia; intros ? ? [= <- <-]; eauto
         | |- ok (II (PSuffix ?p ?q)) _ _ _ _ _ _ =>
             apply (run_more c (iseq (II p) (II q)) (two p q) (two' p q)); auto; eapply two_run; eauto; try lia; intros ? ? [= <- <-]; eauto
         | |- ok (II (PPrefix ?q ?p)) _ _ _ _ _ _ =>
             apply (run_more c (iseq (II p) (II q)) (two p q) (two' p q)); auto; eapply two_run; eauto; try lia; intros ? ? [= <- <-]; eauto
         end.
    all: try match goal with
         | |- ok (II (PEnclose ?q ?p ?r)) _ _ _ _ _ (S (?a + ?b + ?d)) =>
             cbn [info_of idle_steps extra]; eapply run_more; [eapply (three_run false p q r); eauto; try lia; intros ? ? [= <- <-]; eauto|apply le_n|apply le_n]
         | |- ok (II (PSepOnce ?p ?q ?r)) _ _ _ _ _ (S (?a + ?b + ?d)) =>
             cbn [info_of idle_steps extra]; eapply run_more; [eapply (three_run false p q r); eauto; try lia; intros ? ? [= <- <-]; eauto|apply le_n|apply le_n]
         | |- ok (II (PIfThen ?p ?q ?r)) _ _ _ _ _ (S (?a + ?b + ?d)) =>
             cbn [info_of idle_steps extra]; eapply run_more; [eapply (three_run true p q r); eauto using opt_seq; try lia; intros ? ? [= <- <-]; eauto|apply le_n|apply le_n]
         end.
    all: try match goal with
         | |- ok (II (PEnclose ?q ?p ?r)) _ _ _ _ _ (S (?a + ?b)) =>
             cbn [info_of idle_steps extra]; eapply run_more; [eapply (three_mid false p q r); eauto using closed_ll; lia|apply le_n|apply le_n]
         | |- ok (II (PSepOnce ?p ?q ?r)) _ _ _ _ _ (S (?a + ?b)) =>
             cbn [info_of idle_steps extra]; eapply run_more; [eapply (three_mid false p q r); eauto using closed_ll; lia|apply le_n|apply le_n]
         | |- ok (II (PIfThen ?p ?q ?r)) _ _ _ _ _ (S (?a + ?b)) =>
             cbn [info_of idle_steps extra]; eapply run_more; [eapply (three_mid true p q r); eauto using closed_ll, opt_seq; lia|apply le_n|apply le_n]
         end.
    (* handles *)
    all: try match goal with E : env_get G ?x = Some ?p |- ok (II (PRef ?x)) _ _ _ _ _ _ =>
           let L := fresh in let M := fresh in destruct (proj2 (RE x) p E) as (L & M);
           apply (run_more c (R x) (Q p) (F p)); [|exact (AE x p E)|exact (BE x p E)];
           apply (run_wider c (II p)); [|apply M|apply M];
           match goal with IH : LL p -> _ |- _ => apply IH; auto; exact (CE x p E) end end.
    all: try match goal with |- ok (II (PRef _)) _ _ _ _ (KO _) 1 =>
           cbn [idle_steps extra]; split; [intros _; lia|split; [discriminate|lia]] end.
    (* alternatives *)
    all: try match goal with V : ok (II ?p) _ _ _ _ _ ?z |- ok (II (POr ?p ?q)) _ _ _ _ _ (S ?z) =>
           cbn [info_of idle_steps extra]; eapply run_more; [eapply (alt_left c _ _ _ _ _ (Q p) (F p) _ (F p + Q p + (F q + Q q))); [lia|exact V]|apply le_n|apply le_n] end.
    all: try match goal with |- ok (II (POr ?p ?q)) _ _ _ _ _ _ =>
           cbn [info_of idle_steps extra]; eapply run_more; [eapply (alt_right c _ _ _ _ _ _ (Q p) (F p) (Q q) (F q) (F p + Q p + (F q + Q q))); eauto using work_went; lia|apply le_n|apply le_n] end.
    (* literals, two units *)
    1: { apply (leaf_run c _ w i _ (length l)); [lia|lia|now apply lit_in| |congruence]. intros X. now apply lit_ahead. }
    1: { apply (leaf_run c _ w i _ 2); [lia|lia|lia| |congruence]. intros _. rewrite Nat.add_0_r in *. eapply nth_ahead; eassumption. }
    all: try solve [split; [reflexivity|split; [discriminate|discriminate]]].
    - (* a choice *) change (F (PChoice e false ps) + rate_all K A B ps <= c) in H3.
      destruct (H0 H1 H2 ltac:(lia)) as (_ & X). exact (run_more c _ _ _ _ _ _ _ _ _ X (le_n _) (le_n _)).
    - cbn [idle_steps extra]. split; [intros _; lia|split; [discriminate|apply le_n_S, Nat.le_0_l]].
    - destruct H2 as (-> & ->). split; [reflexivity|]. split; [discriminate|eauto].
    - exists 0. split; [reflexivity|]. split; [lia|lia].
    - exists 0. split; [reflexivity|]. split; [lia|lia].
    - exists (S x). split; [reflexivity|]. split; [lia|]. intros _. split; [|eauto].
      apply nth_in in H3. destruct x; [lia|specialize (H5 ltac:(lia)); lia].
    - split; [exact I|]. split; [intros _; apply Nat.le_0_l|split; [discriminate|apply Nat.le_0_l]].
    - cbn [ll1] in H1. destruct H1 as (_ & H1 & _). cbn [rate_all] in H3. specialize (H0 H1 H2 ltac:(lia)). split.
      + destruct (work_went _ _ _ _ _ H H1 H2) as (E1 & E2 & E3 & E4 & E5). rewrite choice_cons. repeat split; auto.
        * intros X. cbn. now rewrite (E4 X).
        * intros X. specialize (E5 X). destruct (skipn i w); cbn in *; auto.
      + refine (alt_left c (II p) (II (PChoice EFail false ps)) w i (OK b j) _ _ (idle_all K A ps) _ z1 _ H0).
        cbn [extra_all]. lia.
    - cbn [ll1] in H3. destruct H3 as (E0 & H3 & HA & HR). cbn [rate_all] in H5. specialize (H0 H3 H4 ltac:(lia)).
      destruct (H2 (conj eq_refl HR) H4 ltac:(lia)) as (W & O). split.
      + rewrite choice_cons. destruct o; [|exact I]. destruct W as (E1 & E2 & E3 & E4 & E5). repeat split; auto.
        * intros X. unfold ialt, nl at 1. rewrite (E4 X). apply orb_true_r.
        * intros X. specialize (E5 X). destruct (skipn i w); [exact E5|]. right. exact E5.
      + pose proof (idle_extra ps).
        refine (alt_right c (II p) (II (PChoice EFail false ps)) w i e' o _ _ (idle_all K A ps) (extra_all K A B ps) _ z1 z2 _ _ HA W H0 O);
          cbn [extra_all]; lia.
  Qed.
End Main.

(** ** The constants exist *)
Section Exist.
  Variable G : env.
  Variable K : nat -> bool.
  Variable rk : nat -> nat.
  Variable L : nat.
  Hypothesis WE : forall x q, env_get G x = Some q -> wfb K rk L (rk x) q = true.

  Section Solve.
    Variable H : (nat -> nat) -> pat -> nat.
    Hypothesis ext : forall p m A A', wfb K rk L m p = true -> (forall x, rk x < m -> A x = A' x) -> H A p = H A' p.
    Fixpoint level (n x : nat) : nat :=
      match n with
      | 0 => 0
      | S n => match env_get G x with Some p => H (level n) p | None => 0 end
      end.
    Lemma level_same n : forall x, rk x < n -> level n x = level (S (rk x)) x.
    Proof.
      induction n as [n IH] using lt_wf_ind. intros x Hx. destruct n as [|n]; [lia|]. cbn [level].
      destruct (env_get G x) as [p|] eqn:E; [|reflexivity]. apply (ext p (rk x)); [now apply WE|].
      intros y Hy. rewrite (IH n) by lia. symmetry. apply IH; lia.
    Qed.
    Lemma solved : exists A, forall x p, env_get G x = Some p -> H A p = A x.
    Proof.
      exists (fun x => level (S (rk x)) x). intros x p E. cbn [level]. rewrite E.
      apply (ext p (rk x)); [now apply WE|]. intros y Hy. symmetry. now apply level_same.
    Qed.
  End Solve.

  Lemma qs_ext ca qa qb qa' qb' : qa = qa' -> (ca = false -> qb = qb') -> qs ca qa qb = qs ca qa' qb'.
  Proof. intros -> H. unfold qs. destruct ca; [reflexivity|now rewrite H]. Qed.
  Lemma fls_ext ca qa qb fa fb fa' fb' : fa = fa' -> (ca = false -> fb = fb') -> fls ca qa fa qb fb = fls ca qa fa' qb fb'.
  Proof. intros -> H. unfold fls. destruct ca; [reflexivity|now rewrite H]. Qed.
  Lemma next_same m p : consumes K p = false -> next K L m p = m.
  Proof. unfold next. now intros ->. Qed.

  Fixpoint idle_ext (p : pat) : forall m A A', wfb K rk L m p = true -> (forall x, rk x < m -> A x = A' x) ->
    idle_steps K A p = idle_steps K A' p.
  Proof.
    destruct p; intros lv A A' W E; cbn [wfb] in W; cbn [idle_steps]; try reflexivity; try discriminate W;
      repeat match goal with X : _ && _ = true |- _ => apply andb_true_iff in X; destruct X end;
      try (f_equal; eapply idle_ext; eassumption);
      try (f_equal; repeat (apply qs_ext; [|intros ?]); repeat match goal with X : consumes K _ = false |- _ => rewrite (next_same _ _ X) in *; clear X end;
           eapply idle_ext; eassumption).
    - (* or *) rewrite (idle_ext p1 lv A A'), (idle_ext p2 lv A A'); auto.
    - f_equal. revert W. induction ps as [|q r IH]; cbn [forallb]; intros W; [reflexivity|].
      apply andb_true_iff in W. destruct W as [W1 W2]. rewrite (idle_ext q lv A A' W1 E). f_equal. now apply IH.
    - f_equal. apply E. now apply Nat.ltb_lt.
  Qed.
  Variable A : nat -> nat.
  Fixpoint extra_ext (p : pat) : forall m B B', wfb K rk L m p = true -> (forall x, rk x < m -> B x = B' x) ->
    extra K A B p = extra K A B' p.
  Proof.
    destruct p; intros lv B B' W E; cbn [wfb] in W; cbn [extra]; try reflexivity; try discriminate W;
      repeat match goal with X : _ && _ = true |- _ => apply andb_true_iff in X; destruct X end;
      try (f_equal; eapply extra_ext; eassumption);
      try (f_equal; f_equal; eapply extra_ext; eassumption);
      try (f_equal; f_equal; f_equal; eapply extra_ext; eassumption);
      try (f_equal; repeat (apply fls_ext; [|intros ?]); repeat match goal with X : consumes K _ = false |- _ => rewrite (next_same _ _ X) in *; clear X end;
           eapply extra_ext; eassumption).
    - f_equal. revert W. induction ps as [|q r IH]; cbn [forallb]; intros W; [reflexivity|].
      apply andb_true_iff in W. destruct W as [W1 W2]. rewrite (extra_ext q lv B B' W1 E). f_equal. now apply IH.
    - f_equal. apply E. now apply Nat.ltb_lt.
  Qed.
End Exist.

Definition rate_sum (K : nat -> bool) (A B : nat -> nat) : env -> nat :=
  fix go G := match G with [] => 0 | None :: r => go r | Some p :: r => rate K A B p + go r end.
Lemma rate_in K A B G x p : env_get G x = Some p -> rate K A B p <= rate_sum K A B G.
Proof.
  unfold env_get. revert x. induction G as [|[q|] r IH]; intros [|x] E; cbn in *; try discriminate.
  - injection E as ->. lia.
  - specialize (IH x E). lia.
  - exact (IH x E).
Qed.

(** The steps are linear in the text that is left. *)
Theorem linear_work k G R p : one_ahead k G R p -> exists c, forall w i o N,
  i <= length w -> Work k G no_skip w p i o N -> N <= c * S (length w - i).
Proof.
  intros (RE & LP & K & rk & L & m & KE & WE & _).
  destruct (solved G K rk L WE (idle_steps K)) as [A HA]; [intros; eapply idle_ext; eauto|].
  destruct (solved G K rk L WE (extra K A)) as [B HB]; [intros; eapply extra_ext; eauto|].
  remember (4 + rate_sum K A B G + rate K A B p) as c eqn:Ec. exists c. intros w i o N Hi W.
  assert (C1 : rate_sum K A B G <= c) by lia. assert (C2 : rate K A B p <= c) by lia. assert (C3 : 4 <= c) by lia.
  assert (O : run_ok c (info_of R p) (idle_steps K A p) (extra K A B p) w i o N).
  { eapply (work_linear k G R RE K KE A B c); eauto.
    - intros x q E. now rewrite (HA x q E).
    - intros x q E. now rewrite (HB x q E).
    - intros x q E. exact (Nat.le_trans _ _ _ (rate_in K A B G x q E) C1). }
  destruct O as (_ & _ & O). assert (extra K A B p <= rate K A B p) by (destruct p; cbn [rate]; lia). rewrite Nat.mul_succ_r. lia.
Qed.
