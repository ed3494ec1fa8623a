(** What a handler with state is told while a value is built (C86).  [Told] (file Told.v) gives the
    leaves of a word, from left to right, without choice order, greediness or backtracking. *)

From Coq Require Import List Arith NArith ZArith Bool Lia.
From Verif Require Import Base Text Context Neu Syntax Regex Ctor Api TextProofs Spec Core Sound Complete Obs Laws ApiLaws PegLaws PolicyLaws
  Consumes Term TermLaws CtorSpec CtorLaws ConSpec ConSound ConComplete ConTerm Lang Ll1 Meaning MeanLaws Told OwnedLaws Samples PropCon PropMean.
From Verif Require ToldLaws.
Import ListNotations.

(** The handler makes [lv t] of the text [t] a leaf matched, and its state is changed by [up]. *)
Definition noting {S} (k : kind) (lv : text -> val) (up : text -> nat -> nat -> S -> S) (h : handler S) : Prop :=
  forall w b j st, b <= j -> j <= length w -> h (cx k w j) (sp k w b j) st = (Ok (lv (slice w b j)), up w b j st).
(** The state after one leaf after the other. *)
Notation told := ToldLaws.told.

(** One item of lookahead decides (C83), and what may be tried in vain has no leaf that matches the
    empty text before the decision is made ([tidy], Told.v). *)
Definition tells_leaves (k : kind) (G : env) (R : nat -> info) (lv : text -> val) (p : pat) : Prop :=
  builds_ahead k G R lv p /\ exists Q, tidy_env G R Q /\ tidy R Q p.

Section Scope.
  Context {S : Type}.
  Variable k : kind.
  Variable G : env.
  Variable R : nat -> info.
  Variable lv : text -> val.
  Variable up : text -> nat -> nat -> S -> S.
  Variable h : handler S.
  Hypothesis HS : noting k lv up h.
  Lemma noting_answers : ConSpec.answers k no_skip (ToldLaws.notes lv up) h.
  Proof.
    intros w x b j st Q B. pose proof (plain_same _ _ _ Q) as ->. destruct Q as (_ & Q & _).
    rewrite HS by auto. split; [reflexivity|discriminate].
  Qed.
  Lemma told_scope p : builds_ahead k G R lv p -> InPlainScope k G (ToldLaws.notes lv up) h p.
  Proof.
    intros (RE & FE & C & F & _). constructor; [apply no_skip_skipper|apply no_skip_implements| | | |exact noting_answers].
    - now apply (ll1_core_env k G R).
    - now apply (fed_ok_env k G R lv).
    - now apply (fed_con_ok k G R lv).
  Qed.
  Lemma told_con p s v l w i t (st : S) : tells_leaves k G R lv p -> Told G lv p i s v l -> i <= length w -> skipn i w = s ++ t ->
    ~ ahead t (ex (info_of R p)) -> Con k G no_skip (ToldLaws.notes lv up) w p i st (CV v (i + length s) (told up w l st)).
  Proof.
    intros ((RE & FE & C & F & K & KC & rk & L & m & KE & KCE & WE & W) & Q & TE & TD) M Hi E N.
    exact (ToldLaws.built k G R lv RE FE up Q TE K KC rk L h noting_answers KE KCE WE p i s v l M m C F TD W w t st Hi E N).
  Qed.
End Scope.

(** Logs the spans it is given. *)
Definition logger (lv : text -> val) : handler (list span) := fun c s st =>
  (fst (read lv c s tt), st ++ [s]).
Lemma logger_notes k lv : noting k lv (fun w b j st => st ++ [sp k w b j]) (logger lv).
Proof. intros w b j st B J. unfold logger. now rewrite (read_says k lv w b j tt B J). Qed.
Lemma log_told k w l : forall st, told (fun w b j st => st ++ [sp k w b j]) w l st = st ++ map (fun x => sp k w (fst x) (snd x)) l.
Proof.
  induction l as [|x l IH]; intros st; [symmetry; apply app_nil_r|].
  change (told (fun w b j st => st ++ [sp k w b j]) w (x :: l) st) with (told (fun w b j st => st ++ [sp k w b j]) w l (st ++ [sp k w (fst x) (snd x)])).
  rewrite IH, <- app_assoc. reflexivity.
Qed.

(** ** C86 *)

(** Leaves are pieces of the word, one after the other. *)
Inductive InOrder : nat -> list piece -> nat -> Prop :=
| in_order_nil a b : a <= b -> InOrder a [] b
| in_order_cons a i j l b : a <= i -> i <= j -> InOrder j l b -> InOrder a ((i, j) :: l) b.
Lemma in_order_app a l b : InOrder a l b -> forall l' c, InOrder b l' c -> InOrder a (l ++ l') c.
Proof.
  intros H. induction H as [a b E|a i j l b E1 E2 H IH]; intros l' c H'; cbn; [|constructor; auto].
  destruct H' as [? ? E'|? ? ? ? ? E' E'' X]; constructor; auto; lia.
Qed.
Lemma in_order_le a l b : InOrder a l b -> a <= b.
Proof. intros H. induction H; lia. Qed.
Lemma in_order_wider a l b : InOrder a l b -> forall a' b', a' <= a -> b <= b' -> InOrder a' l b'.
Proof. intros H. induction H as [a b E|a i j l b E1 E2 H IH]; intros a' b' A B; constructor; try lia. now apply IH. Qed.

Lemma tvals_order M i vs s l : TVals (fun i s v l => M i s v l /\ InOrder i l (i + length s)) i vs s l -> InOrder i l (i + length s).
Proof.
  intros H. induction H as [i|i v vs s t l l' [_ A] H IH]; [constructor; lia|].
  rewrite app_length, Nat.add_assoc. eapply in_order_app; eauto.
Qed.
Lemma tsepvals_order M D i vs s l : TSepVals (fun i s v l => M i s v l /\ InOrder i l (i + length s)) D i vs s l -> InOrder i l (i + length s).
Proof.
  intros H. induction H as [i|i s v l [_ A]|i v vs s d t l l' [_ A] _ H IH]; [constructor; lia|exact A|].
  rewrite !app_length, !Nat.add_assoc. eapply in_order_app; [exact A|]. eapply in_order_wider; [exact IH|lia|lia].
Qed.
Section InOrder.
  Variable G : env.
  Variable lv : text -> val.
  Lemma leaves_in_order : forall p i s v l, Told G lv p i s v l -> InOrder i l (i + length s).
  Proof.
    fix F 6. intros p i s v l H. destruct H.
    all: repeat match goal with X : Told G lv ?p ?i ?s ?v ?l |- _ => apply F in X end.
    all: try match goal with X : TVals (Told G lv ?p) ?i ?vs ?s ?l |- _ =>
      exact (tvals_order _ i vs s l (tvals_map (Told G lv p) (fun i s v l => True /\ InOrder i l (i + length s)) (fun i s v l a => conj I (F p i s v l a)) i vs s l X)) end.
    all: try match goal with X : TSepVals (Told G lv ?p) ?D ?i ?vs ?s ?l |- _ =>
      exact (tsepvals_order _ D i vs s l (tsepvals_map (Told G lv p) (fun i s v l => True /\ InOrder i l (i + length s)) (fun i s v l a => conj I (F p i s v l a)) D i vs s l X)) end.
    all: clear F; rewrite ?app_length; try assumption.
    all: try (repeat constructor; lia).
    all: try (eapply in_order_app; [eassumption|]).
    all: eapply in_order_wider; [eassumption|lia|lia].
  Qed.
End InOrder.
Theorem C86_in_order : forall G lv p i s v l, Told G lv p i s v l -> InOrder i l (i + length s).
Proof. exact leaves_in_order. Qed.

(** A word in front of the cursor, followed by nothing that could continue it: the handler is told
    its leaves, from left to right, each one once, and nothing else. *)
Theorem C86_build : forall S k G R lv up (h : handler S) p a s t v l st,
  noting k lv up h -> tells_leaves k G R lv p -> Told G lv p (length a) s v l -> ~ ahead t (ex (info_of R p)) ->
  Builds h G [] p (cx k (a ++ s ++ t) (length a)) st (Ok v) (cx k (a ++ s ++ t) (length a + length s)) (told up (a ++ s ++ t) l st).
Proof.
  intros S k G R lv up h p a s t v l st HS B M N.
  assert (Hi : length a <= length (a ++ s ++ t)) by (rewrite app_length; lia).
  apply (C70_built S k G (ToldLaws.notes lv up) h p (a ++ s ++ t)); [apply (told_scope k G R lv up h HS), B|exact Hi|rewrite !app_length; lia|].
  apply (told_con k G R lv up h HS p s v l _ _ t); auto. rewrite skipn_app, skipn_all, Nat.sub_diag. reflexivity.
Qed.

(** The same said of a handler that writes down the spans it is given. *)
Theorem C86_log : forall k G R lv p a s t v l st,
  tells_leaves k G R lv p -> Told G lv p (length a) s v l -> ~ ahead t (ex (info_of R p)) ->
  Builds (logger lv) G [] p (cx k (a ++ s ++ t) (length a)) st (Ok v) (cx k (a ++ s ++ t) (length a + length s))
    (st ++ map (fun x => sp k (a ++ s ++ t) (fst x) (snd x)) l).
Proof.
  intros k G R lv p a s t v l st B M N. rewrite <- log_told.
  exact (C86_build _ k G R lv _ (logger lv) p a s t v l st (logger_notes k lv) B M N).
Qed.

(** Every word has leaves wherever it is written, and only one list of them. *)
Theorem C86_leaves : forall k G R lv p i s, tells_leaves k G R lv p ->
  (Lang G p s <-> exists v l, Told G lv p i s v l) /\
  forall v l v' l', Told G lv p i s v l -> Told G lv p i s v' l' -> v = v' /\ l = l'.
Proof.
  intros k G R lv p i s B. split; [split|].
  - intros H. apply (proj1 (C83_values k G R lv p s (proj1 B))) in H. destruct H as [v H].
    destruct (mean_told G lv p s v H i) as [l X]. eauto.
  - intros (v & l & H). apply told_mean in H. now apply mean_lang in H.
  - intros v l v' l' H H'. set (w := (repeat 0%N i ++ s : text)). set (up := fun w b j st => st ++ [sp k w b j]).
    assert (LW : @length item w = i + length s) by (unfold w; now rewrite app_length, repeat_length).
    pose proof (told_scope k G R lv up (logger lv) (logger_notes k lv) p (proj1 B)) as SC.
    assert (X : forall v l, Told G lv p i s v l -> Con k G no_skip (ToldLaws.notes lv up) w p i [] (CV v (i + length s) (told up w l []))).
    { intros u m M. apply (told_con k G R lv up (logger lv) (logger_notes k lv) p s u m w i [] [] B M); [rewrite LW; lia| |now intros []].
      rewrite app_nil_r. unfold w. rewrite <- (repeat_length 0%N i) at 1. rewrite skipn_app, skipn_all, Nat.sub_diag. reflexivity. }
    pose proof (C70_deterministic _ k G (ToldLaws.notes lv up) (logger lv) p w i [] _ _ SC ltac:(rewrite LW; lia) (X v l H) (X v' l' H')) as E.
    injection E as -> E. split; [reflexivity|]. unfold up in E. rewrite !log_told in E. cbn [app] in E.
    apply C86_in_order in H, H'. rewrite <- LW in H, H'. clear X up SC. clearbody w. clear LW B. revert H l' H' E. generalize i at 1 2.
    intros a H. remember (length w) as n eqn:En. induction H as [a n Ha|a x y l n H1 H2 H IH]; intros l' H' E; subst n.
    + destruct l'; [reflexivity|discriminate E].
    + inversion H' as [|a' x' y' l2 n' H1' H2' H3']; subst; [discriminate E|]. cbn [map fst snd] in E. injection E as E1 E2 E3.
      pose proof (in_order_le _ _ _ H). pose proof (in_order_le _ _ _ H3').
      apply (bo_inj k w) in E1; [|lia|lia]. subst x'.
      pose proof (bo_mono k w x y H2). pose proof (bo_mono k w x y' H2').
      assert (Y : bo k w y = bo k w y') by lia. apply (bo_inj k w) in Y; [|lia|lia]. subst y'.
      f_equal. apply (IH eq_refl l2 H3' E3).
Qed.

(** Anchored at the end: what is built, and the state, are those of the text and its leaves. *)
Theorem C86_whole : forall S k G R lv up (h : handler S) p w st v st',
  noting k lv up h -> tells_leaves k G R lv p ->
  (Builds h G [] (PSuffix p PEnd) (cx k w 0) st (Ok v) (cx k w (length w)) st' <->
   exists l, Told G lv p 0 w v l /\ st' = told up w l st).
Proof.
  intros S k G R lv up h p w st v st' HS B.
  pose proof (told_scope k G R lv up h HS p (proj1 B)) as SC0. pose proof SC0 as [C1 C2 C3 C4 C5 C6].
  assert (SC : InPlainScope k G (ToldLaws.notes lv up) h (PSuffix p PEnd)) by (constructor; auto; apply ok_suffix; auto; constructor).
  assert (X : forall v l, Told G lv p 0 w v l -> Con k G no_skip (ToldLaws.notes lv up) w p 0 st (CV v (length w) (told up w l st))).
  { intros u l M. apply (told_con k G R lv up h HS p w u l w 0 [] st B M); [lia|cbn; now rewrite app_nil_r|now intros []]. }
  rewrite (C70_built S k G (ToldLaws.notes lv up) h (PSuffix p PEnd) w 0 st v (length w) st' SC) by lia. split.
  - intros Y. inversion Y; subst; try contradiction.
    + destruct o; try contradiction; discriminate.
    + match goal with H : Peg _ _ _ _ PEnd _ _ |- _ => inversion H; subst end.
      unfold no_skip in *. match goal with H : ?x = length w |- _ => is_var x; subst x | _ => idtac end.
      match goal with H : Con _ _ _ _ _ p _ _ _ |- _ => rename H into P end.
      destruct (proj1 B) as (RE & FE & C & F & _).
      destruct (proj1 (ToldLaws.con_mean k G R lv RE FE up) _ _ _ _ _ P C F (Nat.le_0_l _)) as (_ & _ & M).
      unfold slice in M. rewrite Nat.sub_0_r in M. cbn [skipn] in M. rewrite firstn_all in M.
      destruct (mean_told G lv p w v M 0) as [l T]. exists l. split; [exact T|].
      pose proof (C70_deterministic S k G (ToldLaws.notes lv up) h p w 0 st _ _ SC0 (Nat.le_0_l _) P (X v l T)) as E. now injection E.
  - intros (l & T & ->). eapply Con_suffix with (j := length w); [exact (X v l T)|]. unfold no_skip. now apply Peg_end.
Qed.

(** ** The conditions are needed *)

Definition a_ : pat := PLit [97]%N.
Definition b_ : pat := PLit [98]%N.
Definition c_ : pat := PLit [99]%N.

(** [ab | ac] needs two items: on "ac" the handler is told the "a" twice, although it is one leaf. *)
Theorem C86_twice_refuted :
  Told [] VText (POr (PThen a_ b_) (PThen a_ c_)) 0 [97; 99]%N (VPair (VText [97]) (VText [99]))%N [(0, 1); (1, 2)] /\
  Builds (logger VText) [] [] (POr (PThen a_ b_) (PThen a_ c_)) (cx KStr [97; 99]%N 0) [] (Ok (VPair (VText [97]) (VText [99])))%N
    (cx KStr [97; 99]%N 2) [Span 0 1; Span 0 1; Span 1 1].
Proof.
  split; [|exists 30; split; [vm_compute; reflexivity|discriminate]].
  apply T_or_r. apply (T_then _ _ a_ c_ 0 [97]%N [99]%N _ _ [(0, 1)] [(1, 2)]).
  - apply (T_leaf [] VText a_ 0 [97]%N); [exact I|constructor].
  - apply (T_leaf [] VText c_ 1 [99]%N); [exact I|constructor].
Qed.
(** An optional part that is begun and given up was told to the handler: the parser meets the condition,
    but what follows the (empty) word could have continued it. *)
Definition no_info (i : nat) : info := Info false none none.
Theorem C86_given_up_refuted :
  tells_leaves KStr [] no_info VText (POption (PThen a_ b_)) /\ ahead [97; 99]%N (ex (info_of no_info (POption (PThen a_ b_)))) /\
  Told [] VText (POption (PThen a_ b_)) 0 [] VNone [] /\
  Builds (logger VText) [] [] (POption (PThen a_ b_)) (cx KStr [97; 99]%N 0) [] (Ok VNone) (cx KStr [97; 99]%N 0) [Span 0 1].
Proof.
  split; [|split; [cbn; auto|split; [apply T_none|exists 30; split; [vm_compute; reflexivity|discriminate]]]].
  split.
  - split; [|split; [|split; [|split]]].
    + intros i. split; [discriminate|intros p E; destruct i; discriminate E].
    + intros i p E; destruct i; discriminate E.
    + cbn. unfold seq_ok, disj, none. cbn. tauto.
    + cbn. repeat split.
    + exists (fun _ => true), (fun _ => true), (fun _ => 0), 1, 1. repeat split.
      all: intros; destruct x; discriminate.
  - exists (fun _ => False). split; [intros i p E; destruct i; discriminate E|]. cbn. repeat split.
Qed.
(** [digits* "a" | "b"] needs one item only, but on "b" the handler is told of the digits that are not there. *)
Definition absent : pat := POr (PThen (PMany0 NAsciiDigit CEmpty) a_) b_.
Theorem C86_absent_refuted :
  builds_ahead KStr [] no_info VText absent /\ ~ (exists Q, tidy no_info Q absent) /\
  Told [] VText absent 0 [98]%N (VText [98]%N) [(0, 1)] /\
  Builds (logger VText) [] [] absent (cx KStr [98]%N 0) [] (Ok (VText [98]%N)) (cx KStr [98]%N 1) [Span 0 0; Span 0 1].
Proof.
  split; [|split; [|split; [|exists 30; split; [vm_compute; reflexivity|discriminate]]]].
  - split; [|split; [|split; [|split]]].
    + intros i. split; [discriminate|intros p E; destruct i; discriminate E].
    + intros i p E; destruct i; discriminate E.
    + cbn -[is_match]. unfold seq_ok, alt_ok, disj, none, of. cbn -[is_match]. repeat split; auto.
      * intros x H [= <-]. discriminate H.
      * intros x [H|[_ [= <-]]] E; [injection E as <-; discriminate H|discriminate E].
    + cbn. repeat split.
    + exists (fun _ => true), (fun _ => true), (fun _ => 0), 1, 1. repeat split.
      all: intros; destruct x; discriminate.
  - intros (Q & T & _). cbn in T. destruct T. discriminate.
  - apply T_or_r. apply (T_leaf [] VText b_ 0 [98]%N); [exact I|constructor].
Qed.

(** ** The calculator *)

Lemma calc_tells : tells_leaves KStr calc_env calc_info VText (PRef 0).
Proof.
  split; [exact calc_ready|]. exists (fun _ => True). split; [|exact I].
  intros [|i] p E; [|destruct i; discriminate E]. injection E as <-. cbn. repeat split; discriminate.
Qed.
(** On "2*(3+4)-5" the handler is told "2", "*", "3", "+", "4", "-" and "5"; the parentheses are matched only. *)
Example C86_log_case : tells_leaves KStr calc_env calc_info VText (PRef 0) /\
  (exists l, Told calc_env VText (PRef 0) 1 calc_text (VNum 9) l) /\ ~ ahead [59]%N (ex (info_of calc_info (PRef 0))) /\
  Builds (logger VText) calc_env [] (PRef 0) (cx KStr ([32] ++ calc_text ++ [59])%N 1) [] (Ok (VNum 9)) (cx KStr ([32] ++ calc_text ++ [59])%N 10)
    [Span 1 1; Span 2 1; Span 4 1; Span 5 1; Span 6 1; Span 8 1; Span 9 1].
Proof.
  split; [exact calc_tells|]. split; [apply mean_told, calc_means; exists 9%Z; split; [reflexivity|exact calc_word]|].
  split; [cbn -[is_match]; intros [H|[H|H]]; discriminate H|]. exists 90. split; [vm_compute; reflexivity|discriminate].
Qed.
(** "1-2" alone, given to the anchored parser. *)
Example C86_whole_case : noting KStr VText (fun w b j st => st ++ [sp KStr w b j]) (logger VText) /\
  tells_leaves KStr calc_env calc_info VText (PRef 0) /\
  Builds (logger VText) calc_env [] (PSuffix (PRef 0) PEnd) (cx KStr [49; 45; 50]%N 0) [] (Ok (VNum (-1))) (cx KStr [49; 45; 50]%N 3)
    [Span 0 1; Span 1 1; Span 2 1].
Proof.
  split; [apply logger_notes|]. split; [exact calc_tells|]. exists 90. split; [vm_compute; reflexivity|discriminate].
Qed.

Print Assumptions C86_in_order.
Print Assumptions C86_build.
Print Assumptions C86_log.
Print Assumptions C86_leaves.
Print Assumptions C86_whole.
Print Assumptions C86_twice_refuted.
Print Assumptions C86_given_up_refuted.
Print Assumptions C86_absent_refuted.
