(** What lies behind the items that building looks at does not matter (C91).  [ConL k G sk sx hv w z p i st o] (ConLook.v):
    [p] builds at [i] on [w], the handler in state [st], with outcome [o], and looks at the first [z] items at most;
    [agree z w w'] (LookLaws.v): the first [z] items of both texts are the same; [sees_match] (ConLook.v): the handler's
    answer rests on the text up to the end of the match. *)

From Coq Require Import List Arith NArith ZArith Bool Lia.
From Verif Require Import Base Text Context Neu Syntax Regex Ctor Api TextProofs Spec Core Sound Obs Laws ApiLaws PegLaws PolicyLaws
  Consumes Term TermLaws Complete CtorSpec ConSpec ConSound ConComplete ConTerm PropCon Samples Json JsonOwned OwnedLaws Look LookLaws Reach Rel Shift PropLook ConLook ConReach.
Import ListNotations.

Lemma con_end S k G hv (h : handler S) p w i st o : InPlainScope k G hv h p -> i <= length w -> Con k G no_skip hv w p i st o ->
  match o with CV _ j _ | CE _ j _ => j <= length w | CP => True end.
Proof.
  intros [C1 C2 C3 C4 C5 C6] Hi P. pose proof (con_in k G no_skip [] hv h C1 C3 C2 C4 C6 w p i st o P C5 Hi) as B.
  destruct o; cbn in B; lia || exact I.
Qed.

(** ** C91 *)

(** The runs of ConLook.v are those there are. *)
Theorem C91_counted : forall S k G hv (h : handler S) p w i st,
  InPlainScope k G hv h p -> i <= length w ->
  (forall v j st', j <= length w ->
    Builds h G [] p (cx k w i) st (Ok v) (cx k w j) st' <-> exists z, ConL k G no_skip no_look hv w z p i st (CV v j st')) /\
  (forall e j st', j <= length w ->
    Builds h G [] p (cx k w i) st (Err e) (cx k w j) st' <-> exists z, ConL k G no_skip no_look hv w z p i st (CE e j st')) /\
  ((exists c' st', Builds h G [] p (cx k w i) st Panic c' st') <-> exists z, ConL k G no_skip no_look hv w z p i st CP).
Proof.
  intros S k G hv h p w i st C Hi.
  assert (X : forall o, Con k G no_skip hv w p i st o <-> exists z, ConL k G no_skip no_look hv w z p i st o).
  { intros o. split.
    - intros P. exists (1 + length w). apply (proj1 (con_conlook k G no_skip no_look hv (fun _ _ => Nat.le_0_l _))); auto.
    - intros (z & L). exact (proj1 (conlook_con k G no_skip no_look hv) _ _ _ _ _ _ L). }
  split; [|split].
  - intros v j st' Hj. rewrite (C70_built S k G hv h p w i st v j st' C Hi Hj). apply X.
  - intros e j st' Hj. rewrite (C70_failed S k G hv h p w i st e j st' C Hi Hj). apply X.
  - rewrite (C70_panicked S k G no_skip [] hv h p w i st C Hi). apply X.
Qed.

(** Texts which agree on what is looked at give the same value, cursor and handler state, the same error, the same panic. *)
Theorem C91_seen : forall S k G hv (h : handler S) p w w' z i st,
  InPlainScope k G hv h p -> sees_match hv -> i <= length w -> i <= length w' -> agree z w w' ->
  (forall v j st', ConL k G no_skip no_look hv w z p i st (CV v j st') ->
    Builds h G [] p (cx k w i) st (Ok v) (cx k w j) st' /\ Builds h G [] p (cx k w' i) st (Ok v) (cx k w' j) st') /\
  (forall e j st', ConL k G no_skip no_look hv w z p i st (CE e j st') ->
    Builds h G [] p (cx k w i) st (Err e) (cx k w j) st' /\ Builds h G [] p (cx k w' i) st (Err e) (cx k w' j) st') /\
  (ConL k G no_skip no_look hv w z p i st CP ->
    (exists c' st', Builds h G [] p (cx k w i) st Panic c' st') /\ (exists c' st', Builds h G [] p (cx k w' i) st Panic c' st')).
Proof.
  intros S k G hv h p w w' z i st C SM Hi Hi' A.
  assert (B : forall o, ConL k G no_skip no_look hv w z p i st o -> Con k G no_skip hv w p i st o /\ Con k G no_skip hv w' p i st o).
  { intros o L. split; [exact (proj1 (conlook_con k G no_skip no_look hv) _ _ _ _ _ _ L)|].
    pose proof (proj1 (conlook_agree k G no_skip no_look hv no_look_decided SM) _ _ _ _ _ _ L _ A) as L'.
    exact (proj1 (conlook_con k G no_skip no_look hv) _ _ _ _ _ _ L'). }
  split; [|split].
  - intros v j st' L. destruct (B _ L) as [P P'].
    pose proof (con_end _ _ _ _ _ _ _ _ _ _ C Hi P). pose proof (con_end _ _ _ _ _ _ _ _ _ _ C Hi' P').
    split; now apply (C70_built S k G hv h p).
  - intros e j st' L. destruct (B _ L) as [P P'].
    pose proof (con_end _ _ _ _ _ _ _ _ _ _ C Hi P). pose proof (con_end _ _ _ _ _ _ _ _ _ _ C Hi' P').
    split; now apply (C70_failed S k G hv h p).
  - intros L. destruct (B _ L) as [P P']. split; now apply (C70_panicked S k G no_skip [] hv h p).
Qed.

(** So it is when a policy skips the items of a unit between parsers; what is skipped behind the value may differ. *)
Theorem C91_seen_skipping : forall S k G u hv (h : handler S) p w w' z i st,
  InScope k G (skip_run u) [PMany0 u CEmpty] hv h p -> sees_match hv -> i <= length w -> i <= length w' -> agree z w w' ->
  (forall v j st', ConL k G (skip_run u) (run_look u) hv w z p i st (CV v j st') ->
    (exists y, same (skip_run u) w j y /\ Builds h G [PMany0 u CEmpty] p (cx k w i) st (Ok v) (cx k w y) st') /\
    (exists y, same (skip_run u) w' j y /\ Builds h G [PMany0 u CEmpty] p (cx k w' i) st (Ok v) (cx k w' y) st')) /\
  (forall e j st', ConL k G (skip_run u) (run_look u) hv w z p i st (CE e j st') ->
    (exists y, same (skip_run u) w j y /\ Builds h G [PMany0 u CEmpty] p (cx k w i) st (Err e) (cx k w y) st') /\
    (exists y, same (skip_run u) w' j y /\ Builds h G [PMany0 u CEmpty] p (cx k w' i) st (Err e) (cx k w' y) st')).
Proof.
  intros S k G u hv h p w w' z i st C SM Hi Hi' A.
  assert (B : forall o, ConL k G (skip_run u) (run_look u) hv w z p i st o ->
    Con k G (skip_run u) hv w p i st o /\ Con k G (skip_run u) hv w' p i st o).
  { intros o L. split; [exact (proj1 (conlook_con k G _ _ hv) _ _ _ _ _ _ L)|].
    pose proof (proj1 (conlook_agree k G _ _ hv (run_look_decided u) SM) _ _ _ _ _ _ L _ A) as L'.
    exact (proj1 (conlook_con k G _ _ hv) _ _ _ _ _ _ L'). }
  assert (E : forall x o, i <= length x -> Con k G (skip_run u) hv x p i st o ->
    match o with CV _ j _ | CE _ j _ => same (skip_run u) x j j | CP => True end).
  { intros x o Hx P. destruct C as [C1 C2 C3 C4 C5 C6]. pose proof (con_in k G _ _ hv h C1 C3 C2 C4 C6 x p i st o P C5 Hx) as D.
    destruct o; cbn in D; [apply same_refl; lia..|exact I]. }
  split; [intros v j st' L|intros e j st' L]; destruct (B _ L) as [P P']; pose proof (E _ _ Hi P) as Y; pose proof (E _ _ Hi' P') as Y'.
  - split; [apply (C70_policies_built S k G _ _ hv h p w i st v j st' C Hi)|apply (C70_policies_built S k G _ _ hv h p w' i st v j st' C Hi')]; exists j; split; assumption.
  - split; [apply (C70_policies_failed S k G _ _ hv h p w i st e j st' C Hi)|apply (C70_policies_failed S k G _ _ hv h p w' i st e j st' C Hi')]; exists j; split; assumption.
Qed.
(** [12 ,]: the blank is skipped ahead of the comma. *)
Example C91_seen_skipping_case :
  InScope KStr [] (skip_run NAsciiWhitespace) [PMany0 NAsciiWhitespace CEmpty] slice_answer extract_text (PThen (PLit [49]%N) (PLit [44]%N)) /\
  agree 3 [49; 32; 44]%N [49; 32; 44; 56]%N /\
  ConL KStr [] (skip_run NAsciiWhitespace) (run_look NAsciiWhitespace) slice_answer [49; 32; 44]%N 3 (PThen (PLit [49]%N) (PLit [44]%N)) 0 tt
    (CV (VPair (VText [49]%N) (VText [44]%N)) 3 tt).
Proof.
  split; [|split; [reflexivity|]].
  - constructor.
    + apply skip_run_skipper.
    + apply skip_ascii_implements.
    + intros x q E; destruct x; discriminate E.
    + intros x q E. destruct x; discriminate E.
    + apply ok_then; apply ok_leaf; first [exact I|shape].
    + apply slice_answers.
  - eapply ConL_then.
    + apply (ConL_leaf KStr [] (skip_run NAsciiWhitespace) (run_look NAsciiWhitespace) slice_answer [49; 32; 44]%N 3 (PLit [49]%N) 0 tt 0 1 I); [cbn; lia| |left; lia].
      apply (L_lit KStr [] (skip_run NAsciiWhitespace) (run_look NAsciiWhitespace) [49; 32; 44]%N 3 0 [49]%N); [left; cbn; lia|reflexivity].
    + apply (ConL_leaf KStr [] (skip_run NAsciiWhitespace) (run_look NAsciiWhitespace) slice_answer [49; 32; 44]%N 3 (PLit [44]%N) 1 tt 2 3 I); [cbn; lia| |left; lia].
      apply (L_lit KStr [] (skip_run NAsciiWhitespace) (run_look NAsciiWhitespace) [49; 32; 44]%N 3 2 [44]%N); [left; cbn; lia|reflexivity].
Qed.

(** So a value that was built without looking at the end of the text is the value on every longer text. *)
Theorem C91_grows : forall S k G hv (h : handler S) p w t z i st,
  InPlainScope k G hv h p -> sees_match hv -> i <= length w -> z <= length w ->
  (forall v j st', ConL k G no_skip no_look hv w z p i st (CV v j st') ->
    Builds h G [] p (cx k (w ++ t) i) st (Ok v) (cx k (w ++ t) j) st') /\
  (forall e j st', ConL k G no_skip no_look hv w z p i st (CE e j st') ->
    Builds h G [] p (cx k (w ++ t) i) st (Err e) (cx k (w ++ t) j) st').
Proof.
  intros S k G hv h p w t z i st C SM Hi Z.
  assert (A : agree z w (w ++ t)).
  { unfold agree. rewrite firstn_app. replace (z - length w) with 0 by lia. now rewrite firstn_O, app_nil_r. }
  destruct (C91_seen S k G hv h p w (w ++ t) z i st C SM Hi) as (V & E & _); [rewrite app_length; lia|exact A|].
  split; [intros v j st' L; now apply V|intros e j st' L; now apply E].
Qed.

Lemma slice_sees : sees_match slice_answer.
Proof.
  intros w w' b j s E. unfold slice_answer. do 3 f_equal. unfold slice.
  rewrite !firstn_skipn_comm. destruct (le_lt_dec b j) as [L|L].
  - replace (b + (j - b)) with j by lia. now rewrite E.
  - replace (j - b) with 0 by lia. rewrite Nat.add_0_r. rewrite !skipn_all2; [reflexivity|rewrite firstn_length; lia..].
Qed.
(** The number in [12,] is 12, whatever is behind the comma. *)
Example C91_seen_case :
  InPlainScope KStr [] slice_answer extract_text (POption number) /\ sees_match slice_answer /\
  agree 3 [49; 50; 44; 55]%N [49; 50; 44; 56; 57]%N /\
  ConL KStr [] no_skip no_look slice_answer [49; 50; 44; 55]%N 3 (POption number) 0 tt (CV (VSome (VText [49; 50]%N)) 2 tt).
Proof.
  split; [|split; [apply slice_sees|split; [reflexivity|]]].
  - constructor.
    + apply no_skip_skipper.
    + apply no_skip_implements.
    + apply sample_env_core.
    + intros x q E. destruct x; discriminate E.
    + apply ok_option, ok_leaf; [exact I|shape].
    + apply slice_answers.
  - apply ConL_some.
    apply (ConL_leaf KStr [] no_skip no_look slice_answer [49; 50; 44; 55]%N 3 number 0 tt 0 2 I (Nat.le_0_l _) look_number).
    left. lia.
Qed.

(** How far ahead building looks can be told from the parser alone: no further than matching (C89, [Reach] in Reach.v). *)
Theorem C91_window : forall S k G hv (h : handler S) p n w w' i st,
  InPlainScope k G hv h p -> sees_match hv -> Reach k G p n -> i <= length w -> i <= length w' -> agree (i + n) w w' ->
  (forall v j st', j <= length w -> j <= length w' ->
    Builds h G [] p (cx k w i) st (Ok v) (cx k w j) st' <-> Builds h G [] p (cx k w' i) st (Ok v) (cx k w' j) st') /\
  (forall e j st', j <= length w -> j <= length w' ->
    Builds h G [] p (cx k w i) st (Err e) (cx k w j) st' <-> Builds h G [] p (cx k w' i) st (Err e) (cx k w' j) st') /\
  ((exists c' st', Builds h G [] p (cx k w i) st Panic c' st') <-> (exists c' st', Builds h G [] p (cx k w' i) st Panic c' st')).
Proof.
  intros S k G hv h p n w w' i st C SM R Hi Hi' A.
  assert (B : forall u u' o, i <= length u -> agree (i + n) u u' -> Con k G no_skip hv u p i st o -> Con k G no_skip hv u' p i st o).
  { intros u u' o Hu A' P. destruct (proj2 (proj1 (reach_conlook k G hv) p n R) u i st o Hu P) as [L _].
    pose proof (proj1 (conlook_agree k G no_skip no_look hv no_look_decided SM) _ _ _ _ _ _ L _ A') as L'.
    exact (proj1 (conlook_con k G no_skip no_look hv) _ _ _ _ _ _ L'). }
  assert (A' : agree (i + n) w' w) by (symmetry; exact A).
  split; [|split].
  - intros v j st' Hj Hj'. rewrite !(C70_built S k G hv h p _ i st v j st' C) by assumption. split; apply B; assumption.
  - intros e j st' Hj Hj'. rewrite !(C70_failed S k G hv h p _ i st e j st' C) by assumption. split; apply B; assumption.
  - rewrite !(C70_panicked S k G no_skip [] hv h p _ i st C) by assumption. split; apply B; assumption.
Qed.
(** An optional literal of two items looks at two. *)
Example C91_window_case :
  InPlainScope KStr [] slice_answer extract_text (POption (PLit [97; 98]%N)) /\ Reach KStr [] (POption (PLit [97; 98]%N)) 2 /\
  agree (1 + 2) [120; 97; 98; 99]%N [120; 97; 98]%N.
Proof.
  split; [|split; [apply R_option; apply (R_lit KStr [] [97; 98]%N)|reflexivity]].
  constructor.
  - apply no_skip_skipper.
  - apply no_skip_implements.
  - apply sample_env_core.
  - intros x q E. destruct x; discriminate E.
  - apply ok_option, ok_leaf; [exact I|shape].
  - apply slice_answers.
Qed.

(** With C52: a handler that sees the match alone, wherever it stands ([anywhere], Shift.v), and a parser that does not see what is ahead of the
    cursor give the same value, the same final state and the same error for the same next items, wherever those stand. *)
Lemma build_runs S k G (h : handler S) p u v n st : anywhere h -> local_env G -> local p ->
  rsim (@eq val) (fst (construct h n G [] [] p (cx k (u ++ v) (length u), st))) (fst (construct h n G [] [] p (cx k v 0, st))) /\
  pbehind k u (snd (construct h n G [] [] p (cx k (u ++ v) (length u), st))) (snd (construct h n G [] [] p (cx k v 0, st))).
Proof.
  intros AH LE L. apply (construct_shift k u h (AH k u) G LE n [] [] p (Forall_nil _) L). constructor. unfold cx.
  rewrite <- (Nat.add_0_r (length u)) at 1. rewrite bo_behind. repeat split.
Qed.
Lemma build_shift S k G (h : handler S) p u v st r j st' : anywhere h -> local_env G -> local p ->
  (Builds h G [] p (cx k (u ++ v) (length u)) st r (cx k (u ++ v) (length u + j)) st' <-> Builds h G [] p (cx k v 0) st r (cx k v j) st').
Proof.
  intros AH LE L.
  assert (Q : forall a b : res val, rsim (@eq val) a b -> a = b) by (intros a b [x y ->|e| |]; reflexivity).
  unfold Builds. split; intros (n & E & NO); exists n; (split; [|exact NO]).
  all: destruct (build_runs S k G h p u v n st AH LE L) as [S1 S2]; rewrite E in S1, S2; cbn [fst snd] in S1, S2.
  - destruct (construct h n G [] [] p (cx k v 0, st)) as [r' [[k' w' o] s']]. cbn [fst snd] in *. apply Q in S1. subst.
    inversion S2 as [x y t (K1 & K2 & K3 & K4)]; subst. unfold cx in *. cbn [c_kind c_dat c_off] in *.
    rewrite !bo_behind in *. apply app_inv_head in K3. subst. do 3 f_equal. lia.
  - destruct (construct h n G [] [] p (cx k (u ++ v) (length u), st)) as [r' [[k' w' o] s']]. cbn [fst snd] in *. apply Q in S1. subst.
    inversion S2 as [x y t (K1 & K2 & K3 & K4)]; subst. unfold cx in *. cbn [c_kind c_dat c_off] in *.
    rewrite !bo_behind in *. subst. do 3 f_equal.
Qed.
Theorem C91_place : forall S k G hv (h : handler S) p n u v u' v' st,
  InPlainScope k G hv h p -> sees_match hv -> anywhere h -> Reach k G p n -> local_env G -> local p -> firstn n v = firstn n v' ->
  (forall x j st', j <= length v -> j <= length v' ->
    Builds h G [] p (cx k (u ++ v) (length u)) st (Ok x) (cx k (u ++ v) (length u + j)) st' <->
    Builds h G [] p (cx k (u' ++ v') (length u')) st (Ok x) (cx k (u' ++ v') (length u' + j)) st') /\
  (forall e j st', j <= length v -> j <= length v' ->
    Builds h G [] p (cx k (u ++ v) (length u)) st (Err e) (cx k (u ++ v) (length u + j)) st' <->
    Builds h G [] p (cx k (u' ++ v') (length u')) st (Err e) (cx k (u' ++ v') (length u' + j)) st').
Proof.
  intros S k G hv h p n u v u' v' st C SM AH R LE L A.
  destruct (C91_window S k G hv h p n v v' 0 st C SM R (Nat.le_0_l _) (Nat.le_0_l _)) as (V & E & _); [symmetry; exact A|].
  split.
  - intros x j st' Hj Hj'. rewrite !build_shift by auto. now apply V.
  - intros e j st' Hj Hj'. rewrite !build_shift by auto. now apply E.
Qed.
(** The handler of the library that gives the text of the match is such a one. *)
Lemma extract_anywhere : anywhere extract_text.
Proof.
  intros k u x y s s' st H (M1 & M2). unfold extract_text. rewrite M1, M2, (b_sub k u x y _ _ H). reflexivity.
Qed.
(** The optional literal in the middle of two texts. *)
Example C91_place_case :
  InPlainScope KStr [] slice_answer extract_text (POption (PLit [97; 98]%N)) /\ sees_match slice_answer /\ anywhere extract_text /\
  Reach KStr [] (POption (PLit [97; 98]%N)) 2 /\ local_env [] /\ local (POption (PLit [97; 98]%N)) /\
  firstn 2 [97; 98; 99]%N = firstn 2 [97; 98]%N /\
  Builds extract_text [] [] (POption (PLit [97; 98]%N)) (cx KStr ([64; 228] ++ [97; 98; 99])%N 2) tt
    (Ok (VSome (VText [97; 98]%N))) (cx KStr ([64; 228] ++ [97; 98; 99])%N (2 + 2)) tt.
Proof.
  split; [exact (proj1 C91_window_case)|]. split; [apply slice_sees|]. split; [apply extract_anywhere|].
  split; [exact (proj1 (proj2 C91_window_case))|]. split; [intros i p E; destruct i; discriminate E|].
  split; [repeat constructor|]. split; [reflexivity|]. exists 20. split; [reflexivity|discriminate].
Qed.
(** A handler that tells where the match stands is not [anywhere], and its values differ. *)
Theorem C91_place_refuted : exists hv (h : handler unit) p u v x,
  InPlainScope KBytes [] hv h p /\ sees_match hv /\ Reach KBytes [] p 1 /\ local p /\
  Builds h [] [] p (cx KBytes v 0) tt (Ok x) (cx KBytes v 1) tt /\
  ~ Builds h [] [] p (cx KBytes (u ++ v) (length u)) tt (Ok x) (cx KBytes (u ++ v) (length u + 1)) tt.
Proof.
  set (h := (fun c s st => (Ok (VNum (Z.of_nat (sbeg s))), st)) : handler unit).
  set (hv := (fun w b j st => (Ok (VNum (Z.of_nat b)), st)) : text -> nat -> nat -> unit -> res val * unit).
  assert (C : InPlainScope KBytes [] hv h (PLit [97]%N)).
  { constructor.
    - apply no_skip_skipper.
    - apply no_skip_implements.
    - apply sample_env_core.
    - intros x q E. destruct x; discriminate E.
    - apply ok_leaf; [exact I|shape].
    - intros w x b j st B B'. split; [|discriminate]. unfold h, hv, sp. cbn [sbeg]. do 4 f_equal.
      assert (Y : forall w b, b <= length w -> bo KBytes w b = b).
      { clear. intros w b H. unfold bo. rewrite <- (firstn_length_le w H) at 2. generalize (firstn b w). intros l.
        induction l as [|z l IH]; [reflexivity|]. cbn [tlen length]. rewrite IH. reflexivity. }
      apply Y. unfold same in B. lia. }
  exists hv, h, (PLit [97]%N), [98]%N, [97]%N, (VNum 0).
  split; [exact C|]. split; [intros w w' b j st _; reflexivity|]. split; [apply (R_lit KBytes [] [97]%N)|]. split; [constructor|].
  split; [exists 5; split; [reflexivity|discriminate]|].
  intros B. apply (C70_built unit KBytes [] hv h (PLit [97]%N) _ _ tt _ _ tt C) in B; [|cbn; lia..].
  inversion B; subst; unfold settle, hv in *; cbn in *; try discriminate.
  match goal with H : Peg _ _ _ _ _ _ _ |- _ => inversion H; subst; discriminate end.
Qed.

(** A handler that looks beyond the match, here at the length of the text, is not covered. *)
Definition nosy_answer (w : text) (b j : nat) (s : unit) : res val * unit := (Ok (VNum (Z.of_nat (length w))), s).
Theorem C91_seen_refuted : exists hv (h : handler unit) p w w' z v j,
  InPlainScope KBytes [] hv h p /\ agree z w w' /\ ConL KBytes [] no_skip no_look hv w z p 0 tt (CV v j tt) /\
  ~ Builds h [] [] p (cx KBytes w' 0) tt (Ok v) (cx KBytes w' j) tt.
Proof.
  set (h := (fun c _ st => (Ok (VNum (Z.of_nat (length (c_dat c)))), st)) : handler unit).
  assert (C : InPlainScope KBytes [] nosy_answer h (PLit [97]%N)).
  { constructor.
    - apply no_skip_skipper.
    - apply no_skip_implements.
    - apply sample_env_core.
    - intros x q E. destruct x; discriminate E.
    - apply ok_leaf; [exact I|shape].
    - intros w x b j st _ _. split; [|discriminate]. reflexivity. }
  exists nosy_answer, h, (PLit [97]%N), [97]%N, [97; 98]%N, 1, (VNum 1), 1.
  split; [exact C|]. split; [reflexivity|]. split.
  - apply (ConL_leaf KBytes [] no_skip no_look nosy_answer [97]%N 1 (PLit [97]%N) 0 tt 0 1 I (Nat.le_0_l _)); [|left; lia].
    apply (L_lit KBytes [] no_skip no_look [97]%N 1 0 [97]%N); [left; cbn; lia|reflexivity].
  - intros B. apply (C70_built unit KBytes [] nosy_answer h (PLit [97]%N) [97; 98]%N 0 tt _ 1 tt C) in B; [|cbn; lia..].
    inversion B; subst; unfold settle, nosy_answer in *; cbn in *; discriminate.
Qed.

Print Assumptions C91_counted.
Print Assumptions C91_seen.
Print Assumptions C91_seen_skipping.
Print Assumptions C91_grows.
Print Assumptions C91_seen_refuted.
Print Assumptions C91_window.
Print Assumptions C91_place.
Print Assumptions C91_place_refuted.
