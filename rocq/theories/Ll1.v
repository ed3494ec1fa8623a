(** Grammars that need one item of lookahead: on them the parsers do not only stay inside their
    language (Lang.v), they miss nothing of it. *)

From Coq Require Import List Arith NArith Bool Lia.
From Verif Require Import Base Text Context Neu Syntax Regex Ctor Api TextProofs Spec Core Sound Obs Laws
  ApiLaws Consumes Term TermLaws PolicyLaws UnitProps CtorShape CtorSpec CtorLaws Lang.
Import ListNotations.

(** What is known of a language: may it contain the empty word; the items its words may begin with;
    the items by which a word of it may be extended to a longer one. *)
Record info := Info { nl : bool; fs : item -> Prop; ex : item -> Prop }.

Definition iseq (a b : info) : info :=
  Info (nl a && nl b) (fun x => fs a x \/ (nl a = true /\ fs b x)) (fun x => ex b x \/ (nl b = true /\ ex a x)).
Definition ialt (a b : info) : info :=
  Info (nl a || nl b) (fun x => fs a x \/ fs b x) (fun x => ex a x \/ ex b x \/ (nl b = true /\ fs a x)).
Definition iopt (a : info) : info := Info true (fs a) (fun x => ex a x \/ fs a x).
Definition iloop (a : info) (z : bool) : info := Info z (fs a) (fun x => ex a x \/ fs a x).
Definition isep (a d : info) (z : bool) : info :=
  Info z (fs a) (fun x => ex a x \/ fs a x \/ ex d x \/ fs d x).
Definition none : item -> Prop := fun _ => False.
Definition of (u : neu) : item -> Prop := fun x => is_match u x = true.

Section Info.
  (** For the recursive handles it is given. *)
  Variable R : nat -> info.

  Fixpoint info_of (p : pat) : info :=
    match p with
    | PLit l => Info (match l with [] => true | _ => false end) (fun x => hd_error l = Some x) none
    | POnce u _ => Info false (of u) none
    | PMany1 u _ => Info false (of u) (of u)
    | POpt u _ | PMany0 u _ => Info true (of u) (of u)
    | PBetween m n u _ => Info (m =? 0) (of u) (fun x => of u x /\ (m = 0 \/ n <> Some m))
    | PTimes r u _ => Info (crange_contains r 0) (of u) (of u)
    | PNeuThen u _ _ => Info false (of u) none
    | PThen p q | PSuffix p q => iseq (info_of p) (info_of q)
    | PPrefix p q => iseq (info_of q) (info_of p)
    | PEnclose p o c => iseq (info_of o) (iseq (info_of p) (info_of c))
    | PSepOnce p s q => iseq (info_of p) (iseq (info_of s) (info_of q))
    | PIfThen p t q => iseq (info_of p) (iopt (iseq (info_of t) (info_of q)))
    | POr p q => ialt (info_of p) (info_of q)
    | PChoice _ _ ps => (fix go ps := match ps with [] => Info false none none | q :: r => ialt (info_of q) (go r) end) ps
    | POption p => iopt (info_of p)
    | PRepeat p r => iloop (info_of p) (crange_contains r 0)
    | PRepeat2 p m _ => iloop (info_of p) (m =? 0)
    | PCollect p m => iloop (info_of p) (m =? 0)
    | PSep p d m _ | PSep2 p d m _ _ | PSepCollect p d m _ => isep (info_of p) (info_of d) (m =? 0)
    | PPat p | PLeaf p | PMap p _ | PWrap p => info_of p
    | PRef i => R i
    | _ => Info true none none
    end.

  Definition disj (a b : item -> Prop) : Prop := forall x, a x -> b x -> False.
  (** After a word of [a], the next item tells whether it goes on or [b] begins. *)
  Definition seq_ok (a b : info) : Prop := disj (ex a) (fs b).
  (** The next item tells which of [a] and [b] begins; [a] is tried first, so it must not be empty. *)
  Definition alt_ok (a b : info) : Prop := nl a = false /\ disj (fs a) (fs b).
  Definition loop_ok (a : info) : Prop := nl a = false /\ disj (ex a) (fs a).
  Definition sep_ok (a d : info) : Prop :=
    nl a = false /\ nl d = false /\ disj (ex a) (fs d) /\ disj (ex d) (fs a).

  Variable k : kind.

  (** One item of lookahead decides: units without conditions, literals, sequences, ordered choices,
      options, loops and separated loops, [map], wrappers and recursive handles. *)
  Fixpoint ll1 (p : pat) : Prop :=
    match p with
    | PEmpty | PLit _ => True
    | POnce _ c | PMany1 _ c | POpt _ c | PMany0 _ c => c = CEmpty
    | PBetween _ _ u c | PTimes _ u c => c = CEmpty /\ honest k u
    | PNeuThen u v c => c = CEmpty /\ honest k u /\ honest k v
    | PThen p q | PSuffix p q => ll1 p /\ ll1 q /\ seq_ok (info_of p) (info_of q)
    | PPrefix p q => ll1 q /\ ll1 p /\ seq_ok (info_of q) (info_of p)
    | PEnclose p o c => ll1 o /\ ll1 p /\ ll1 c /\
        seq_ok (info_of o) (iseq (info_of p) (info_of c)) /\ seq_ok (info_of p) (info_of c)
    | PSepOnce p s q => ll1 p /\ ll1 s /\ ll1 q /\
        seq_ok (info_of p) (iseq (info_of s) (info_of q)) /\ seq_ok (info_of s) (info_of q)
    | PIfThen p t q => ll1 p /\ ll1 t /\ ll1 q /\ nl (info_of t) = false /\
        seq_ok (info_of p) (info_of t) /\ seq_ok (info_of t) (info_of q)
    | POr p q => ll1 p /\ ll1 q /\ alt_ok (info_of p) (info_of q)
    | PChoice _ b ps => b = false /\
        (fix go ps := match ps with
                      | [] => True
                      | q :: r => ll1 q /\ alt_ok (info_of q) (info_of (PChoice EFail false r)) /\ go r
                      end) ps
    | POption p => ll1 p
    | PRepeat p _ | PRepeat2 p _ _ | PCollect p _ => ll1 p /\ loop_ok (info_of p)
    | PSep p d _ b | PSep2 p d _ _ b | PSepCollect p d _ b =>
        b = true /\ ll1 p /\ ll1 d /\ sep_ok (info_of p) (info_of d)
    | PPat p | PLeaf p | PMap p _ | PWrap p => ll1 p
    | PRef _ => True
    | _ => False
    end.

  Definition info_le (a b : info) : Prop :=
    (nl a = true -> nl b = true) /\ (forall x, fs a x -> fs b x) /\ (forall x, ex a x -> ex b x).
  (** What is given for the handles covers their definitions, and these need no more lookahead. *)
  Definition ll1_env (G : env) : Prop := forall i,
    (nl (R i) = true -> forall x, fs (R i) x -> ex (R i) x) /\
    forall p, env_get G i = Some p -> ll1 p /\ info_le (info_of p) (R i).
End Info.

(** The items of [s] come first at [t]. *)
Definition ahead (t : text) (a : item -> Prop) : Prop := match t with [] => False | x :: _ => a x end.

Section Maps.
  Variable L P : text -> Prop.
  Variable f : forall s, L s -> P s.
  Fixpoint iter_map n s (H : Iter L n s) : Iter P n s :=
    match H in Iter _ n s return Iter P n s with
    | iter_nil _ => iter_nil P
    | iter_cons _ n s t a b => iter_cons P n s t (f s a) (iter_map n t b)
    end.
  Variable D Q : text -> Prop.
  Variable g : forall s, D s -> Q s.
  Fixpoint sepiter_map n s (H : SepIter L D n s) : SepIter P Q n s :=
    match H in SepIter _ _ n s return SepIter P Q n s with
    | si_nil _ _ => si_nil P Q
    | si_one _ _ s a => si_one P Q s (f s a)
    | si_cons _ _ n s d t a b c => si_cons P Q n s d t (f s a) (g d b) (sepiter_map n t c)
    end.
End Maps.

Section Proofs.
  Variable k : kind.
  Variable G : env.
  Variable R : nat -> info.
  Hypothesis RE : ll1_env R k G.
  Notation II := (info_of R).
  Notation LL := (ll1 R k).

  Lemma choice_all e b ps : LL (PChoice e b ps) -> b = false /\ Forall LL ps.
  Proof.
    cbn. intros (-> & H). split; [reflexivity|]. induction ps as [|q r IH]; [constructor|].
    destruct H as (H1 & _ & H2). constructor; auto.
  Qed.
  Lemma choice_info e b ps : II (PChoice e b ps) = II (PChoice EFail false ps).
  Proof. reflexivity. Qed.
  Lemma choice_cons e b q r : II (PChoice e b (q :: r)) = ialt (II q) (II (PChoice EFail false r)).
  Proof. reflexivity. Qed.

  Fixpoint ll1_core p : LL p -> core k G no_skip p.
  Proof.
    destruct p; intros H; try (destruct H; fail); try (cbn in H; contradiction);
      try (cbn [ll1] in H; repeat match goal with X : _ /\ _ |- _ => destruct X end; subst; constructor; auto; constructor; fail).
    apply choice_all in H. destruct H as [-> F]. constructor.
    induction ps as [|q r IH]; constructor; inversion F; subst; auto.
  Qed.
  Fixpoint ll1_static p : LL p -> static p.
  Proof.
    destruct p; intros H; try (destruct H; fail); try (cbn in H; contradiction);
      try (cbn [ll1] in H; repeat match goal with X : _ /\ _ |- _ => destruct X end; subst; constructor; auto; constructor; fail).
    apply choice_all in H. destruct H as [-> F]. constructor.
    induction ps as [|q r IH]; constructor; inversion F; subst; auto.
  Qed.
  Lemma ll1_core_env : core_env k G no_skip.
  Proof. intros i p E. apply ll1_core. now apply (proj2 (RE i)). Qed.
  Lemma ll1_static_env : static_env G.
  Proof. intros i p E. apply ll1_static. now apply (proj2 (RE i)). Qed.

  (** ** What words begin with *)
  Definition begins (a : info) (s : text) : Prop := match s with [] => nl a = true | x :: _ => fs a x end.

  Lemma begins_seq a b s t : begins a s -> begins b t -> begins (iseq a b) (s ++ t).
  Proof.
    destruct s as [|x s]; cbn; intros A B.
    - destruct t as [|y t]; cbn in *; [now rewrite A, B|]. right. now split.
    - now left.
  Qed.
  Lemma begins_alt_l a b s : begins a s -> begins (ialt a b) s.
  Proof. destruct s; cbn; intros A; [now rewrite A|now left]. Qed.
  Lemma begins_alt_r a b s : begins b s -> begins (ialt a b) s.
  Proof. destruct s; cbn; intros A; [rewrite A; apply orb_true_r|now right]. Qed.
  Lemma begins_opt a s : begins a s -> begins (iopt a) s.
  Proof. now destruct s; cbn. Qed.
  Lemma begins_loop a z n s : nl a = false -> (n = 0 -> z = true) -> Iter (begins a) n s -> begins (iloop a z) s.
  Proof.
    intros N Z H. destruct H as [|n s t A B]; cbn; [now apply Z|].
    destruct s as [|x s]; cbn in *; [congruence|exact A].
  Qed.
  Lemma begins_sep a d z n s : nl a = false -> (n = 0 -> z = true) -> SepIter (begins a) (begins d) n s ->
    begins (isep a d z) s.
  Proof.
    intros N Z H. destruct H as [|s A|n s u t A B C]; cbn; [now apply Z|exact (A : begins (isep a d z) s) || idtac|].
    - destruct s as [|x s]; cbn in *; [congruence|exact A].
    - destruct s as [|x s]; cbn in *; [congruence|exact A].
  Qed.
  Lemma begins_choice e b ps p s : In p ps -> begins (II p) s -> begins (II (PChoice e b ps)) s.
  Proof.
    intros J B. rewrite choice_info. induction ps as [|q r IH]; [destruct J|]. rewrite choice_cons.
    destruct J as [->|J]; [now apply begins_alt_l|]. apply begins_alt_r. now apply IH.
  Qed.
  Lemma begins_le a b s : info_le a b -> begins a s -> begins b s.
  Proof. intros (H1 & H2 & _). destruct s; cbn; auto. Qed.

  Lemma contains_zero r n : InRange r n -> n = 0 -> crange_contains r 0 = true.
  Proof. intros H ->. now apply contains_in. Qed.
  Lemma all_of_begins u s (a : info) : all_of u s -> (s = [] -> nl a = true) -> (forall x, of u x -> fs a x) -> begins a s.
  Proof. intros A Z F. destruct s as [|x s]; cbn; [auto|]. apply F, A. now left. Qed.

  Ltac split_all := repeat match goal with X : _ /\ _ |- _ => destruct X end; subst.

  Lemma first_sound : forall p s, Lang G p s -> LL p -> begins (II p) s.
  Proof.
    fix F 3. intros p s H. destruct H; intros C; try (destruct C; fail); try (cbn in C; contradiction).
    all: repeat match goal with X : Lang G ?p ?s |- _ =>
      let Y := fresh "B" in pose proof (F p s X) as Y; clear X end.
    all: try match goal with X : Iter (Lang G ?p) ?n ?s |- _ =>
      let Y := fresh "B" in pose proof (iter_map _ _ (F p) n s X) as Y; clear X end.
    all: try match goal with X : SepIter (Lang G ?p) (Lang G ?d) ?n ?s |- _ =>
      let Y := fresh "B" in pose proof (sepiter_map _ _ (F p) _ _ (F d) n s X) as Y; clear X end.
    all: clear F.
    all: try match goal with |- begins (II (PChoice _ _ _)) _ =>
      apply choice_all in C; destruct C as [-> C]; rewrite Forall_forall in C; eapply begins_choice; eauto end.
    all: cbn [ll1] in C; split_all; cbn [info_of].
    all: try (auto; fail).
    all: try (apply begins_seq; auto; fail).
    all: try (apply begins_seq; auto; apply begins_seq; auto; fail).
    all: try (apply begins_alt_l; auto; fail); try (apply begins_alt_r; auto; fail); try (apply begins_opt; auto; fail).
    all: try match goal with X : Iter _ ?n ?t, P : LL ?p |- begins (iloop (II ?p) _) _ =>
      pose proof (iter_map (fun s => LL p -> begins (II p) s) (begins (II p)) (fun s f => f P) n t X) as IB; clear X end.
    all: try match goal with X : SepIter _ _ ?n ?t, P : LL ?p, D : LL ?d |- begins (isep (II ?p) (II ?d) _) _ =>
      pose proof (sepiter_map (fun s => LL p -> begins (II p) s) (begins (II p)) (fun s f => f P)
        (fun s => LL d -> begins (II d) s) (begins (II d)) (fun s f => f D) n t X) as IB; clear X end.
    all: cbn beta in *.
    all: repeat match goal with X : loop_ok _ |- _ => destruct X | X : sep_ok _ _ |- _ => destruct X end.
    all: try (apply (begins_loop _ _ n); [assumption| |assumption]; intros ->; first [now apply contains_in | apply Nat.eqb_eq; lia]; fail).
    all: try (apply (begins_sep _ _ _ n); [assumption| |assumption]; intros ->; apply Nat.eqb_eq; lia; fail).
    - reflexivity.
    - now destruct l.
    - eapply all_of_begins; eauto; cbn; congruence.
    - eapply all_of_begins; eauto.
    - eapply all_of_begins; eauto.
    - eapply all_of_begins; eauto. intros ->. cbn in *. apply Nat.eqb_eq. lia.
    - eapply all_of_begins; eauto. intros ->. cbn in *. now apply contains_in.
    - rewrite <- (app_nil_r s). apply begins_seq; [auto|reflexivity].
    - apply begins_seq; [auto|]. apply begins_opt. apply begins_seq; auto.
    - reflexivity.
    - destruct (RE i) as [_ E]. destruct (E p) as [E1 E2]; [assumption|]. eapply begins_le; eauto.
  Qed.

  (** ** Items that may begin an empty-able word may extend it *)
  Definition closed (a : info) : Prop := nl a = true -> forall x, fs a x -> ex a x.
  Lemma closed_seq a b : closed a -> closed b -> closed (iseq a b).
  Proof.
    unfold closed, iseq. cbn. intros A B N x H. apply andb_prop in N. destruct N as [N1 N2].
    destruct H as [H|[_ H]]; [right|left]; auto.
  Qed.
  Lemma closed_alt a b : nl a = false -> closed b -> closed (ialt a b).
  Proof. unfold closed, ialt. cbn. intros -> B N x [H|H]; cbn in N; auto. Qed.
  Lemma closed_opt a : closed (iopt a).
  Proof. unfold closed, iopt. cbn. auto. Qed.
  Lemma closed_loop a z : closed (iloop a z).
  Proof. unfold closed, iloop. cbn. auto. Qed.
  Lemma closed_sep a d z : closed (isep a d z).
  Proof. unfold closed, isep. cbn. auto. Qed.

  Fixpoint ll1_closed p : LL p -> closed (II p).
  Proof.
    destruct p; intros C; try (destruct C; fail); try (cbn in C; contradiction).
    all: try (cbn [info_of]; first [apply closed_opt | apply closed_loop | apply closed_sep]).
    all: try (cbn [ll1 info_of] in *; split_all;
      try match goal with X : alt_ok _ _ |- _ => destruct X end;
      repeat first [apply closed_seq | apply closed_opt | apply closed_alt; [assumption|] | now apply ll1_closed]; fail).
    all: try (cbn [info_of]; unfold closed; cbn; try discriminate; auto; fail).
    - unfold closed. destruct l; cbn; discriminate.
    - unfold closed. cbn. intros N x U. apply Nat.eqb_eq in N. auto.
    - induction ps as [|q r IH]; [unfold closed; cbn; discriminate|].
      rewrite choice_cons. destruct C as (-> & _ & [N _] & C). apply closed_alt; [exact N|].
      apply (IH (conj eq_refl C)).
    - exact (proj1 (RE i)).
  Qed.

  (** ** Failing *)
  Variable K : nat -> bool.
  Variable rk : nat -> nat.
  Variable L : nat.
  Hypothesis KE : forall x p, env_get G x = Some p -> K x = true -> consumes K p = true.
  Hypothesis WE : forall x q, env_get G x = Some q -> wfb K rk L (rk x) q = true.
  Notation Peg := (Peg k G no_skip).

  Lemma answers m p w i : LL p -> wfb K rk L m p = true -> i <= length w -> exists o, Peg w p i o.
  Proof.
    intros C W Hi. apply (peg_total k G no_skip rk no_skip_skipper ll1_core_env) with (pols := []) (m := m).
    - intros x q E. apply (wfb_wf k G no_skip [] no_skip_skipper (no_skip_implements k G) ll1_core_env K rk L KE); [|now apply WE]. apply ll1_core. now apply (proj2 (RE x)).
    - apply no_skip_implements.
    - apply (wfb_wf k G no_skip [] no_skip_skipper (no_skip_implements k G) ll1_core_env K rk L KE); [|exact W]. now apply ll1_core.
    - now apply ll1_core.
    - exact Hi.
    - reflexivity.
  Qed.

  Lemma idle m p w i : LL p -> wfb K rk L m p = true -> i <= length w ->
    ~ ahead (skipn i w) (fs (II p)) -> (Peg w p i (OK i i) /\ nl (II p) = true) \/ exists e, Peg w p i (KO e).
  Proof.
    intros C W Hi A. destruct (answers m p w i C W Hi) as [[b j|e] P]; [left|eauto].
    destruct (proj1 (lang_all k G ll1_core_env ll1_static_env) w p i _ P (ll1_core p C) (ll1_static p C) Hi)
      as (-> & H1 & H2 & H).
    apply first_sound in H; [|exact C]. unfold slice in H.
    assert (j - i = 0 \/ exists x r, skipn i w = x :: r) as [Z|(x & r & E)].
    { destruct (skipn i w) as [|x r] eqn:E; [left|eauto].
      apply (f_equal (@length item)) in E. rewrite skipn_length in E. cbn in E. lia. }
    - rewrite Z in H. cbn in H. assert (j = i) as -> by lia. auto.
    - rewrite E in H, A. destruct (j - i) eqn:Z; cbn in H, A; [|easy]. assert (j = i) as -> by lia. auto.
  Qed.

  Lemma fails m p w i : LL p -> wfb K rk L m p = true -> i <= length w ->
    nl (II p) = false -> ~ ahead (skipn i w) (fs (II p)) -> exists e, Peg w p i (KO e).
  Proof. intros C W Hi N A. destruct (idle m p w i C W Hi A) as [[_ Z]|P]; [congruence|exact P]. Qed.

  (** ** Nothing is missed *)
  Definition Done (p : pat) (s : text) : Prop := forall m, LL p -> wfb K rk L m p = true ->
    forall w i t, i <= length w -> skipn i w = s ++ t -> ~ ahead t (ex (II p)) ->
    Peg w p i (OK i (i + length s)).

  Lemma rest_at (w s t : text) i : i <= length w -> skipn i w = s ++ t ->
    i + length s <= length w /\ skipn (i + length s) w = t.
  Proof.
    intros Hi E. split.
    - apply (f_equal (@length item)) in E. rewrite skipn_length, app_length in E. lia.
    - revert w Hi E. induction i as [|i IH]; intros w Hi E.
      + cbn [skipn] in E. subst w. cbn [Nat.add]. rewrite skipn_app, skipn_all, Nat.sub_diag. reflexivity.
      + destruct w as [|x w]; [cbn in Hi; lia|]. cbn [skipn length Nat.add] in *. apply IH; [lia|exact E].
  Qed.

  Lemma ahead_seq a b s t : seq_ok a b -> begins b s -> ~ ahead t (ex (iseq a b)) ->
    ~ ahead (s ++ t) (ex a) /\ ~ ahead t (ex b).
  Proof.
    intros O B N. split.
    - destruct s as [|x s]; cbn in *; [|intros E; exact (O x E B)].
      intros E. apply N. destruct t as [|y t]; cbn in *; [exact E|]. right. now split.
    - intros E. apply N. destruct t; cbn in *; [exact E|]. now left.
  Qed.
  Lemma ahead_alt_l a b t : ~ ahead t (ex (ialt a b)) -> ~ ahead t (ex a).
  Proof. intros N E. apply N. destruct t; cbn in *; [exact E|]. now left. Qed.
  Lemma ahead_alt_r a b s t : alt_ok a b -> begins b s -> ~ ahead t (ex (ialt a b)) ->
    ~ ahead (s ++ t) (fs a) /\ ~ ahead t (ex b).
  Proof.
    intros [_ O] B N. split.
    - destruct s as [|x s]; cbn in *; [|intros E; exact (O x E B)].
      intros E. apply N. destruct t as [|y t]; cbn in *; [exact E|]. right. right. now split.
    - intros E. apply N. destruct t; cbn in *; [exact E|]. right. now left.
  Qed.
  Lemma ahead_or (a b : item -> Prop) t : ~ ahead t (fun x => a x \/ b x) -> ~ ahead t a /\ ~ ahead t b.
  Proof. intros N. split; intros E; apply N; destruct t; cbn in *; auto. Qed.

  Lemma seq_done p q s1 s2 m1 m2 w i t : Done p s1 -> Done q s2 -> Lang G q s2 -> LL p -> LL q ->
    seq_ok (II p) (II q) -> wfb K rk L m1 p = true -> wfb K rk L m2 q = true ->
    i <= length w -> skipn i w = s1 ++ s2 ++ t -> ~ ahead t (ex (iseq (II p) (II q))) ->
    Peg w p i (OK i (i + length s1)) /\ Peg w q (i + length s1) (OK (i + length s1) (i + length s1 + length s2)).
  Proof.
    intros D1 D2 LQ C1 C2 O W1 W2 Hi E N.
    destruct (ahead_seq _ _ s2 t O (first_sound q s2 LQ C2) N) as [A1 A2].
    destruct (rest_at w s1 (s2 ++ t) i Hi E) as [H1 H2].
    split; [now apply (D1 m1 C1 W1 w i (s2 ++ t))|now apply (D2 m2 C2 W2 w _ t)].
  Qed.

  Lemma seq3_done p q r s1 s2 s3 m1 m2 m3 w i t : Done p s1 -> Done q s2 -> Done r s3 ->
    Lang G q s2 -> Lang G r s3 -> LL p -> LL q -> LL r ->
    seq_ok (II p) (iseq (II q) (II r)) -> seq_ok (II q) (II r) ->
    wfb K rk L m1 p = true -> wfb K rk L m2 q = true -> wfb K rk L m3 r = true ->
    i <= length w -> skipn i w = s1 ++ s2 ++ s3 ++ t -> ~ ahead t (ex (iseq (II p) (iseq (II q) (II r)))) ->
    Peg w p i (OK i (i + length s1)) /\
    Peg w q (i + length s1) (OK (i + length s1) (i + length s1 + length s2)) /\
    Peg w r (i + length s1 + length s2) (OK (i + length s1 + length s2) (i + length s1 + length s2 + length s3)).
  Proof.
    intros D1 D2 D3 LQ LR C1 C2 C3 O O' W1 W2 W3 Hi E N.
    pose proof (first_sound q s2 LQ C2) as B2. pose proof (first_sound r s3 LR C3) as B3.
    destruct (ahead_seq _ _ (s2 ++ s3) t O (begins_seq _ _ _ _ B2 B3) N) as [A1 A2].
    rewrite <- app_assoc in A1. destruct (rest_at w s1 _ i Hi E) as [H1 H2].
    split; [now apply (D1 m1 C1 W1 w i (s2 ++ s3 ++ t))|].
    now apply (seq_done q r s2 s3 m2 m3 w (i + length s1) t).
  Qed.

  Lemma iter_begins p n s : LL p -> nl (II p) = false -> Iter (fun s => Done p s /\ Lang G p s) n s ->
    n = 0 /\ s = [] \/ begins (II p) s /\ s <> [].
  Proof.
    intros C N H. destruct H as [|n s t [_ A] _]; [now left|right].
    apply first_sound in A; [|exact C]. destruct s as [|x s]; cbn in *; [congruence|]. now split.
  Qed.

  Lemma loop_done p m : LL p -> wfb K rk L m p = true -> loop_ok (II p) ->
    forall n s, Iter (fun s => Done p s /\ Lang G p s) n s ->
    forall w i t lim, i <= length w -> skipn i w = s ++ t -> ~ ahead t (ex (II p)) -> ~ ahead t (fs (II p)) ->
    (forall l, lim = Some l -> n <= l) -> Reps k G no_skip w p lim i n (i + length s).
  Proof.
    intros C W [N O] n s H. induction H as [|n s s' [D LA] H IH]; intros w i t lim Hi E A1 A2 LM.
    - cbn [length]. rewrite Nat.add_0_r. destruct lim as [[|l]|]; [apply Reps_lim| |].
      all: destruct (fails m p w i C W Hi N) as [e P]; [rewrite E; exact A2|];
        apply Reps_stop with (e := e); [discriminate|exact P].
    - rewrite <- app_assoc in E. rewrite app_length, Nat.add_assoc.
      destruct (rest_at w s (s' ++ t) i Hi E) as [H1 H2].
      assert (LZ : lim <> Some 0) by (intros ->; specialize (LM 0 eq_refl); lia).
      apply Reps_step with (b := i) (j := i + length s); [exact LZ| |].
      + apply (D m C W w i (s' ++ t)); auto.
        destruct (iter_begins p n s' C N H) as [[_ ->]|[B Z]]; [exact A1|].
        destruct s' as [|x s']; [easy|]. cbn in *. intros X. exact (O x X B).
      + apply (IH w _ t); auto. intros l EL. destruct lim as [l'|]; [|discriminate EL].
        cbn in EL. injection EL as <-. specialize (LM l' eq_refl). lia.
  Qed.

  Lemma sep_begins p d n s : LL p -> nl (II p) = false ->
    SepIter (fun s => Done p s /\ Lang G p s) (fun s => Done d s /\ Lang G d s) n s ->
    n = 0 /\ s = [] \/ begins (II p) s /\ s <> [].
  Proof.
    intros C N H. destruct H as [|s [_ A]|n s u t [_ A] _ _]; [now left|right|right].
    all: apply first_sound in A; [|exact C]; destruct s as [|x s]; cbn in *; [congruence|]; now split.
  Qed.
  Lemma sep_done p d m m' : LL p -> LL d -> wfb K rk L m p = true -> wfb K rk L m' d = true -> sep_ok (II p) (II d) ->
    forall n s, SepIter (fun s => Done p s /\ Lang G p s) (fun s => Done d s /\ Lang G d s) n s ->
    forall w i t lim, i <= length w -> skipn i w = s ++ t ->
    ~ ahead t (ex (II p)) -> ~ ahead t (fs (II p)) -> ~ ahead t (ex (II d)) -> ~ ahead t (fs (II d)) ->
    (forall l, lim = Some l -> n <= l) -> Seps k G no_skip w p d lim i n (i + length s).
  Proof.
    intros C C' W W' (N & N' & O & O') n s H.
    induction H as [|s [D LA]|n s u s' [D LA] [D' LB] H IH]; intros w i t lim Hi E A1 A2 A3 A4 LM.
    - cbn [length]. rewrite Nat.add_0_r. destruct lim as [[|l]|]; [apply Seps_lim| |].
      all: destruct (fails m p w i C W Hi N) as [e P]; [rewrite E; exact A2|];
        apply Seps_stop with (e := e); [discriminate|exact P].
    - destruct (rest_at w s t i Hi E) as [H1 H2].
      destruct (fails m' d w (i + length s) C' W' H1 N') as [e P]; [rewrite H2; exact A4|].
      apply Seps_last with (b := i) (e := e); [intros ->; specialize (LM 0 eq_refl); lia| |exact P].
      now apply (D m C W w i t).
    - rewrite <- !app_assoc in E. rewrite !app_length, !Nat.add_assoc.
      destruct (rest_at w s (u ++ s' ++ t) i Hi E) as [H1 H2].
      destruct (rest_at w u (s' ++ t) _ H1 H2) as [H3 H4].
      assert (LZ : lim <> Some 0) by (intros ->; specialize (LM 0 eq_refl); lia).
      pose proof (first_sound d u LB C') as BU.
      apply Seps_step with (b := i) (j := i + length s) (b' := i + length s) (j' := i + length s + length u); [exact LZ| | |].
      + apply (D m C W w i (u ++ s' ++ t)); auto.
        destruct u as [|x u]; cbn in *; [congruence|]. intros X. exact (O x X BU).
      + apply (D' m' C' W' w _ (s' ++ t)); auto.
        destruct (sep_begins p d n s' C N H) as [[_ ->]|[B Z]]; [exact A3|].
        destruct s' as [|x s']; [easy|]. cbn in *. intros X. exact (O' x X B).
      + apply (IH w _ t); auto. intros l EL. destruct lim as [l'|]; [|discriminate EL].
        cbn in EL. injection EL as <-. specialize (LM l' eq_refl). lia.
  Qed.

  Lemma choice_done e ps p s m : LL (PChoice e false ps) -> forallb (wfb K rk L m) ps = true -> In p ps ->
    Lang G p s -> Done p s ->
    forall w i t, i <= length w -> skipn i w = s ++ t -> ~ ahead t (ex (II (PChoice e false ps))) ->
    First k G no_skip w ps i e (OK i (i + length s)).
  Proof.
    intros C W J LA D w i t Hi E N. induction ps as [|q r IH]; [destruct J|].
    rewrite choice_cons in N. cbn [forallb] in W. apply andb_prop in W. destruct W as [W1 W2].
    destruct C as (_ & C1 & C2 & C3).
    destruct J as [->|J].
    - apply First_hit. apply (D m C1 W1 w i t Hi E). now apply ahead_alt_l in N.
    - assert (CR : LL (PChoice e false r)) by exact (conj eq_refl C3).
      destruct (choice_all _ _ _ CR) as [_ F]. rewrite Forall_forall in F.
      assert (B : begins (II (PChoice EFail false r)) s) by (eapply begins_choice; eauto; now apply first_sound, F).
      destruct (ahead_alt_r _ _ s t C2 B N) as [A1 A2].
      destruct (fails m q w i C1 W1 Hi (proj1 C2)) as [e' P]; [rewrite E; exact A1|].
      apply First_next with (e' := e'); [exact P|]. apply IH; auto.
  Qed.

  Lemma unit_run u s t w i lim : i <= length w -> skipn i w = s ++ t -> all_of u s ->
    (forall l, lim = Some l -> length s <= l) -> lim = Some (length s) \/ ~ ahead t (of u) ->
    MaxRun (is_match u) w i lim (length s).
  Proof.
    intros Hi E A LM N. destruct (rest_at w s t i Hi E) as [H1 H2].
    repeat split.
    - intros m Hm. assert (X : nth_error w (i + m) = nth_error s m).
      { rewrite <- (firstn_skipn i w) at 1. rewrite E, nth_error_app2, firstn_length_le by (rewrite ?firstn_length_le; lia).
        rewrite nth_error_app1 by lia. f_equal. lia. }
      rewrite X. destruct (nth_error s m) as [x|] eqn:Y; [|apply nth_error_None in Y; lia].
      exists x. split; [reflexivity|]. apply A. eapply nth_error_In; eauto.
    - destruct lim; auto.
    - destruct N as [->|N]; [now left|right]. intros x X. destruct (is_match u x) eqn:Z; [|reflexivity].
      exfalso. apply N. rewrite <- (firstn_skipn (i + length s) w), H2, nth_error_app2, firstn_length_le, Nat.sub_diag in X
        by (rewrite ?firstn_length_le; lia).
      destruct t as [|y t]; [discriminate X|]. cbn in *. unfold of. now injection X as ->.
  Qed.

  Lemma pre_app (s t : text) : firstn (length s) (s ++ t) = s.
  Proof. induction s; cbn; [reflexivity|now f_equal]. Qed.
  Lemma cap_le r n l : InRange r n -> cap r = Some l -> n <= l.
  Proof. unfold InRange, cap. destruct (r_hi r); intros [_ H]; intros [= <-]; lia. Qed.

  Lemma unit_peg p w i j : LL p -> i <= length w -> Matches k G p w i i j -> Peg w p i (OK i j).
  Proof. intros C Hi M. apply (matches_peg k G ll1_core_env); auto. now apply ll1_core. Qed.

  Lemma complete : forall p s, Lang G p s -> Done p s.
  Proof.
    fix F 3. intros p s H.
    destruct H.
    all: repeat match goal with X : Lang G ?p ?s |- _ =>
      lazymatch goal with D : Done p s |- _ => fail | _ => pose proof (F p s X) end end.
    all: try match goal with X : Iter (Lang G ?p) ?n ?s |- _ =>
      pose proof (iter_map (Lang G p) (fun s => Done p s /\ Lang G p s) (fun s a => conj (F p s a) a) n s X) end.
    all: try match goal with X : SepIter (Lang G ?p) (Lang G ?d) ?n ?s |- _ =>
      pose proof (sepiter_map (Lang G p) (fun s => Done p s /\ Lang G p s) (fun s a => conj (F p s a) a)
         (Lang G d) (fun s => Done d s /\ Lang G d s) (fun s a => conj (F d s a) a) n s X) end.
    all: clear F; intros m' C W w at_ rest Hi E N.
    all: try (destruct C; fail).
    all: pose proof C as C0; cbn [ll1 info_of wfb] in C, N, W.
    all: try (cbn [app length] in *; rewrite ?app_length).
    all: repeat match goal with X : _ && _ = true |- _ => apply andb_prop in X; destruct X end.
    all: rewrite ?Nat.add_assoc; rename at_ into a.
    - rewrite Nat.add_0_r. apply Peg_empty.
    - apply Peg_lit. rewrite E. apply pre_app.
    - apply Peg_leaf. eauto.
    - subst c. apply unit_peg; auto. apply (once_run k G ll1_core_env); auto. repeat split. exists x. split; [|assumption].
      rewrite <- (firstn_skipn a w), E, nth_error_app2, firstn_length_le, Nat.sub_diag by (rewrite ?firstn_length_le; lia).
      reflexivity.
    - subst c. apply unit_peg; auto. apply (many1_run k G ll1_core_env); auto. split; [reflexivity|]. exists (length s).
      split; [destruct s; [easy|cbn; lia]|]. split; [reflexivity|]. eapply unit_run; eauto. discriminate.
    - subst c. apply unit_peg; auto. apply (opt_run k G ll1_core_env); auto. split; [reflexivity|]. exists (length s).
      split; [reflexivity|]. eapply unit_run; eauto. intros l [= <-]. assumption.
    - subst c. apply unit_peg; auto. apply (many0_run k G ll1_core_env); auto. split; [reflexivity|]. exists (length s).
      split; [reflexivity|]. eapply unit_run; eauto. discriminate.
    - destruct C as [-> HU]. apply unit_peg; auto. apply (between_run k G ll1_core_env); auto. split; [reflexivity|]. exists (length s).
      split; [reflexivity|]. split; [|assumption]. eapply unit_run; eauto.
      destruct n as [n|].
      + destruct (Nat.eq_dec n (length s)) as [->|Z]; [now left|right]. specialize (H0 n eq_refl).
        intros X. apply N. destruct rest; [destruct X|]. cbn in *. split; [exact X|]. right. intros [= ->]. lia.
      + right. intros X. apply N. destruct rest; [destruct X|]. cbn in *. split; [exact X|]. right. discriminate.
    - destruct C as [-> HU]. apply unit_peg; auto. apply (times_run k G ll1_core_env); auto. split; [reflexivity|]. exists (length s).
      split; [reflexivity|]. split; [|assumption]. eapply unit_run; eauto.
      intros l HL. eapply cap_le; eauto.
    - destruct C as (-> & HU & HV). apply unit_peg; auto. apply (neuthen_run k G ll1_core_env); auto. repeat split.
      exists x, y. rewrite <- (firstn_skipn a w), E, !nth_error_app2, firstn_length_le, Nat.sub_diag, Nat.add_comm, Nat.add_sub
        by (rewrite ?firstn_length_le; lia).
      repeat split; assumption.
    - destruct C as (C1 & C2 & C3). rewrite <- app_assoc in E.
      edestruct (seq_done p q s t) as [P1 P2]; eauto. eapply Peg_then; eauto.
    - destruct C as (C1 & C2 & C3 & C4 & C5 & C6).
      destruct (rest_at w s rest a Hi E) as [G1 G2].
      assert (A1 : ~ ahead rest (ex (II p))) by (intros X; apply N; destruct rest; [exact X|]; cbn in *; auto).
      assert (A2 : ~ ahead rest (fs (II t))) by (intros X; apply N; destruct rest; [exact X|]; cbn in *; auto).
      assert (exists e, Peg w t (a + length s) (KO e)) as [e P] by (eapply fails; eauto; rewrite G2; exact A2).
      eapply Peg_ifthen_no; [|exact P]. eapply H0; eauto.
    - destruct C as (C1 & C2 & C3 & C4 & C5 & C6). rewrite <- !app_assoc in E.
      assert (A1 : ~ ahead rest (ex (iseq (II p) (iseq (II t) (II q))))).
      { intros X. apply N. destruct rest; [exact X|]. cbn in *. rewrite C4 in X. cbn in X. intuition discriminate. }
      assert (A2 : seq_ok (II p) (iseq (II t) (II q))).
      { intros x X [Y|[Y _]]; [exact (C5 x X Y)|congruence]. }
      edestruct (seq3_done p t q s s' s'') as (P1 & P2 & P3); eauto. eapply Peg_ifthen_yes; eauto.
    - apply Peg_or1. destruct C as (C1 & C2 & C3). eapply H0; eauto. eapply ahead_alt_l; eauto.
    - destruct C as (C1 & C2 & C3).
      destruct (ahead_alt_r _ _ s rest C3 ltac:(now apply first_sound) N) as [A1 A2].
      destruct (fails m' p w a C1 ltac:(assumption) Hi (proj1 C3)) as [e P]; [rewrite E; exact A1|].
      eapply Peg_or2; eauto.
    - apply Peg_pat; eauto.
    - destruct C as (C1 & C2 & C3). rewrite <- app_assoc in E.
      edestruct (seq_done pre p s t) as [P1 P2]; eauto. eapply Peg_prefix; eauto.
    - destruct C as (C1 & C2 & C3). rewrite <- app_assoc in E.
      edestruct (seq_done p suf s t) as [P1 P2]; eauto. eapply Peg_suffix; eauto.
    - destruct C as (C1 & C2 & C3 & C4 & C5). rewrite <- !app_assoc in E.
      edestruct (seq3_done o p c s t u) as (P1 & P2 & P3); eauto. eapply Peg_enclose; eauto.
    - destruct C as (C1 & C2 & C3 & C4 & C5). rewrite <- !app_assoc in E.
      edestruct (seq3_done p m q s t u) as (P1 & P2 & P3); eauto. eapply Peg_seponce; eauto.
    - destruct C as (_ & C1 & C2 & C3). apply ahead_or in N. destruct N as [A1 N]. apply ahead_or in N. destruct N as [A2 N].
      apply ahead_or in N. destruct N as [A3 A4].
      eapply Peg_sep; [|eassumption]. eapply sep_done; eauto. discriminate.
    - destruct C as (_ & C1 & C2 & C3). apply ahead_or in N. destruct N as [A1 N]. apply ahead_or in N. destruct N as [A2 N].
      apply ahead_or in N. destruct N as [A3 A4].
      eapply Peg_sepcollect; [|eassumption]. eapply sep_done; eauto. discriminate.
    - destruct C as (_ & C1 & C2 & C3). apply ahead_or in N. destruct N as [A1 N]. apply ahead_or in N. destruct N as [A2 N].
      apply ahead_or in N. destruct N as [A3 A4].
      eapply Peg_sep2; [|eassumption]. eapply sep_done; eauto. now intros ? [= <-].
    - destruct C as (C1 & C2). apply ahead_or in N. destruct N as [A1 A2].
      eapply (Peg_repeat k G no_skip w p r a n); [|apply contains_in; assumption]. eapply loop_done; eauto. intros l'. now apply cap_le.
    - destruct C as (C1 & C2). apply ahead_or in N. destruct N as [A1 A2].
      eapply Peg_repeat2; [|eassumption|eassumption]. eapply loop_done; eauto. intros ? [= <-]. lia.
    - destruct C as (C1 & C2). apply ahead_or in N. destruct N as [A1 A2].
      eapply Peg_collect; [|eassumption]. eapply loop_done; eauto. discriminate.
    - apply Peg_option. eapply H0; eauto. now apply ahead_or in N.
    - apply ahead_or in N. destruct N as [A1 A2]. rewrite Nat.add_0_r.
      assert (Peg w p a (OK a a) /\ nl (II p) = true \/ exists e, Peg w p a (KO e)) as [[P _]|[e P]] by (eapply idle; eauto; rewrite E; exact A2).
      + now apply Peg_option.
      + eapply Peg_option_none; eauto.
    - apply Peg_map; eauto.
    - destruct (choice_all _ _ _ C0) as [-> F]. apply Peg_choice. eapply choice_done; eauto.
    - apply Peg_wrap; eauto.
    - eapply Peg_ref; [eassumption|]. destruct (RE i) as [_ Q]. destruct (Q p ltac:(assumption)) as (C1 & _ & _ & C2).
      eapply H1; eauto. intros X. apply N. destruct rest; [exact X|]. cbn in *. now apply C2.
  Qed.
End Proofs.

(** The parser and the grammar it refers to need one item of lookahead, and no handle reaches itself
    before an item was read (the check of C20). *)
Definition one_ahead (k : kind) (G : env) (R : nat -> info) (p : pat) : Prop :=
  ll1_env R k G /\ ll1 R k p /\
  exists K rk L m,
    (forall x q, env_get G x = Some q -> K x = true -> consumes K q = true) /\
    (forall x q, env_get G x = Some q -> wfb K rk L (rk x) q = true) /\
    wfb K rk L m p = true.

Lemma one_ahead_peg k G R p w i s t : one_ahead k G R p -> Lang G p s ->
  i <= length w -> skipn i w = s ++ t -> ~ ahead t (ex (info_of R p)) ->
  Peg k G no_skip w p i (OK i (i + length s)).
Proof. intros (RE & C & K & rk & L & m & KE & WE & W) H Hi E N. exact (complete k G R RE K rk L KE WE p s H m C W w i t Hi E N). Qed.
Lemma one_ahead_answers k G R p w i : one_ahead k G R p -> i <= length w -> exists o, Peg k G no_skip w p i o.
Proof. intros (RE & C & K & rk & L & m & KE & WE & W) Hi. exact (answers k G R RE K rk L KE WE m p w i C W Hi). Qed.
Lemma one_ahead_core k G R p : one_ahead k G R p ->
  core_env k G no_skip /\ static_env G /\ core k G no_skip p /\ static p.
Proof.
  intros (RE & C & _). split; [eapply ll1_core_env; eauto|]. split; [eapply ll1_static_env; eauto|].
  split; [eapply ll1_core; eauto|eapply ll1_static; eauto].
Qed.
