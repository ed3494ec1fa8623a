(** What lies behind the items a match looks at does not matter (C89).  [Look k G sk sx w z p i o] (file Look.v): a match of
    [p] at [i] on [w] with outcome [o] that looks at the first [z] items at most; [agree z w w'] (file LookLaws.v): the
    first [z] items of both texts are the same. *)

From Coq Require Import List Arith NArith Bool Lia.
From Verif Require Import Base Text Context Neu Syntax Regex Ctor Api TextProofs Spec Core Obs Laws ApiLaws PegLaws PolicyLaws
  Consumes TermLaws Lang Ll1 Complete CtorSpec CtorShape Samples PropLl1 Rel Shift Look LookLaws Reach.
Import ListNotations.

(** ** C89 *)

(** The runs of Look.v are the matches there are: to have seen more items than there are is to have seen the text and its
    end. *)
Theorem C89_counted : forall k G p w i, core_env k G no_skip -> core k G no_skip p -> i <= length w ->
  (forall b j, Matches k G p w i b j <-> exists z, Look k G no_skip no_look w z p i (OK b j)) /\
  (forall e, Fails k G p w i e <-> exists z, Look k G no_skip no_look w z p i (KO e)).
Proof.
  intros k G p w i CE C Hi.
  assert (A : forall o, Peg k G no_skip w p i o <-> exists z, Look k G no_skip no_look w z p i o).
  { intros o. split.
    - intros P. exists (S (length w)). apply (proj1 (peg_look k G no_skip no_look (fun _ _ => Nat.le_0_l _))); auto.
    - intros [z L]. exact (proj1 (look_peg k G no_skip no_look) _ _ _ _ _ L). }
  split; [intros b j; rewrite (matches_peg k G CE) by auto|intros e; rewrite (fails_peg k G CE) by auto]; apply A.
Qed.

(** Texts which agree on what a match looks at have the same match: same span, same cursor, same error. *)
Theorem C89_seen : forall k G p w w' z i, core_env k G no_skip -> core k G no_skip p -> i <= length w -> i <= length w' ->
  agree z w w' ->
  (forall b j, Look k G no_skip no_look w z p i (OK b j) -> Matches k G p w i b j /\ Matches k G p w' i b j) /\
  (forall e, Look k G no_skip no_look w z p i (KO e) -> Fails k G p w i e /\ Fails k G p w' i e).
Proof.
  intros k G p w w' z i CE C Hi Hi' A.
  assert (B : forall o, Look k G no_skip no_look w z p i o -> Look k G no_skip no_look w' z p i o).
  { intros o L. exact (proj1 (look_agree k G no_skip no_look no_look_decided) _ _ _ _ _ L _ A). }
  split; [intros b j L; rewrite !(matches_peg k G CE) by auto|intros e L; rewrite !(fails_peg k G CE) by auto].
  all: split; eapply (proj1 (look_peg k G no_skip no_look)); eauto.
Qed.

(** The digits of [12,] end at the comma; nothing behind it is looked at. *)
Lemma look_number : Look KStr [] no_skip no_look [49; 50; 44; 55]%N 3 number 0 (OK 0 2).
Proof.
  apply (L_many1 KStr [] no_skip no_look [49; 50; 44; 55]%N 3 NAsciiDigit CEmpty 0 1).
  assert (Y : forall m x, m < 2 -> nth_error [49; 50; 44; 55]%N m = Some x ->
    AccL KStr [] no_skip no_look [49; 50; 44; 55]%N 3 0 NAsciiDigit CEmpty m (inl true)).
  { intros m x L E. eapply AccL_yes; [cbn; lia|exact E| |constructor].
    destruct m as [|[|m]]; [injection E as <-; reflexivity..|lia]. }
  apply RunL_step; [discriminate|eapply Y; [lia|reflexivity]|].
  apply RunL_step; [discriminate|eapply Y; [lia|reflexivity]|].
  apply RunL_stop; [discriminate|]. eapply AccL_no; [cbn; lia|reflexivity|reflexivity].
Qed.
Example C89_counted_case : Matches KStr [] number [49; 50; 44; 55]%N 0 0 2.
Proof. matches 30. Qed.
Example C89_seen_case : core_env KStr [] no_skip /\ core KStr [] no_skip number /\
  agree 3 [49; 50; 44; 55]%N [49; 50; 44; 56; 57]%N /\ Look KStr [] no_skip no_look [49; 50; 44; 55]%N 3 number 0 (OK 0 2).
Proof. split; [apply sample_env_core|]. split; [shape|]. split; [reflexivity|exact look_number]. Qed.

(** So it is when a policy skips the items of a unit between parsers; what is skipped behind the match may differ. *)
Theorem C89_seen_skipping : forall k G u p w w' z i, core_env k G (skip_run u) -> core k G (skip_run u) p ->
  i <= length w -> i <= length w' -> agree z w w' -> run_look u w i <= z ->
  (forall b j, Look k G (skip_run u) (run_look u) w z p (skip_run u w i) (OK b j) ->
     (exists x, Returns G [PMany0 u CEmpty] p (cx k w i) (Ok (sp k w b j)) (cx k w x) /\ j <= x /\ x <= skip_run u w j) /\
     (exists x, Returns G [PMany0 u CEmpty] p (cx k w' i) (Ok (sp k w' b j)) (cx k w' x) /\ j <= x /\ x <= skip_run u w' j)) /\
  (forall e, Look k G (skip_run u) (run_look u) w z p (skip_run u w i) (KO e) ->
     Returns G [PMany0 u CEmpty] p (cx k w i) (Err e) (cx k w (skip_run u w i)) /\
     Returns G [PMany0 u CEmpty] p (cx k w' i) (Err e) (cx k w' (skip_run u w i))).
Proof.
  intros k G u p w w' z i CE C Hi Hi' A R.
  destruct (run_look_decided u w w' z i R A) as [E _].
  assert (B : forall o, Look k G (skip_run u) (run_look u) w z p (skip_run u w i) o ->
    Peg k G (skip_run u) w p (skip_run u w i) o /\ Peg k G (skip_run u) w' p (skip_run u w' i) o).
  { intros o L. rewrite E. split; [exact (proj1 (look_peg k G _ _) _ _ _ _ _ L)|].
    pose proof (proj1 (look_agree k G _ _ (run_look_decided u)) _ _ _ _ _ L _ A) as L'.
    exact (proj1 (look_peg k G _ _) _ _ _ _ _ L'). }
  assert (IM := many0_implements k G u []).
  split; intros; destruct (B _ H) as [P P'].
  - destruct (policy_complete k G _ _ (skip_run_skipper u) CE IM p w i _ C Hi P) as (r & c & X & -> & x & X1 & X2 & ->).
    destruct (policy_complete k G _ _ (skip_run_skipper u) CE IM p w' i _ C Hi' P') as (r' & c' & X' & -> & x' & X1' & X2' & ->).
    split; eexists; eauto.
  - destruct (policy_complete k G _ _ (skip_run_skipper u) CE IM p w i _ C Hi P) as (r & c & X & -> & ->).
    destruct (policy_complete k G _ _ (skip_run_skipper u) CE IM p w' i _ C Hi' P') as (r' & c' & X' & -> & ->).
    rewrite <- E at 2. auto.
Qed.

Example C89_seen_skipping_case : core_env KStr [] (skip_run NAsciiWhitespace) /\
  core KStr [] (skip_run NAsciiWhitespace) (PThen comma comma) /\ agree 4 [32; 44; 32; 44; 55]%N [32; 44; 32; 44]%N /\
  run_look NAsciiWhitespace [32; 44; 32; 44; 55]%N 0 <= 4 /\
  Look KStr [] (skip_run NAsciiWhitespace) (run_look NAsciiWhitespace) [32; 44; 32; 44; 55]%N 4 (PThen comma comma) 1 (OK 1 4).
Proof.
  split; [no_env|]. split; [shape|]. split; [reflexivity|]. split; [vm_compute; lia|].
  eapply L_then with (j := 2) (b' := 3).
  - apply (L_lit _ _ _ _ _ _ 1 [44]%N); [cbn; lia|reflexivity].
  - apply (L_lit _ _ _ _ _ _ 3 [44]%N); [cbn; lia|reflexivity].
  - vm_compute; lia.
Qed.

(** A match which has not looked at the end of the text is the match on each longer text. *)
Theorem C89_grows : forall k G p w t z i, core_env k G no_skip -> core k G no_skip p -> i <= length w -> z <= length w ->
  (forall b j, Look k G no_skip no_look w z p i (OK b j) -> Matches k G p (w ++ t) i b j) /\
  (forall e, Look k G no_skip no_look w z p i (KO e) -> Fails k G p (w ++ t) i e).
Proof.
  intros k G p w t z i CE C Hi Z.
  assert (A : agree z w (w ++ t)).
  { unfold agree. rewrite firstn_app. replace (z - length w) with 0 by lia. now rewrite firstn_O, app_nil_r. }
  destruct (C89_seen k G p w (w ++ t) z i CE C Hi) as [M F]; [rewrite app_length; lia|exact A|].
  split; [intros b j L|intros e L]; [now apply M|now apply F].
Qed.

Example C89_grows_case : core_env KStr [] no_skip /\ core KStr [] no_skip number /\ 3 <= length [49; 50; 44; 55]%N /\
  Look KStr [] no_skip no_look [49; 50; 44; 55]%N 3 number 0 (OK 0 2).
Proof. split; [apply sample_env_core|]. split; [shape|]. split; [cbn; lia|exact look_number]. Qed.

(** A parser without closures, unlimited loops and recursion looks at a window: how far ahead ([Reach], file Reach.v) can
    be told from the parser alone, and texts which agree up to there give the same answer. *)
Theorem C89_window : forall k G p n w w' i, core_env k G no_skip -> core k G no_skip p -> Reach k G p n ->
  i <= length w -> i <= length w' -> agree (i + n) w w' ->
  (forall b j, Matches k G p w i b j <-> Matches k G p w' i b j) /\ (forall e, Fails k G p w i e <-> Fails k G p w' i e).
Proof.
  intros k G p n w w' i CE C R Hi Hi' A.
  assert (B : forall v v' o, i <= length v -> agree (i + n) v v' -> Peg k G no_skip v p i o -> Peg k G no_skip v' p i o).
  { intros v v' o Hv A' P. destruct (proj1 (reach_look k G) p n R v i o Hv P) as [L _].
    pose proof (proj1 (look_agree k G no_skip no_look no_look_decided) _ _ _ _ _ L _ A') as L'.
    exact (proj1 (look_peg k G no_skip no_look) _ _ _ _ _ L'). }
  assert (A' : agree (i + n) w' w) by (symmetry; exact A).
  split; [intros b j; rewrite !(matches_peg k G CE) by auto|intros e; rewrite !(fails_peg k G CE) by auto].
  all: split; apply B; auto.
Qed.

(** Two digits, a colon, two digits: [12:30]. *)
Definition clock : pat :=
  let two := PBetween 2 (Some 2) NAsciiDigit CEmpty in PSepOnce two (PLit [58]%N) two.
Example C89_window_case : core_env KStr [] no_skip /\ core KStr [] no_skip clock /\ Reach KStr [] clock 5 /\
  agree 5 [49; 50; 58; 51; 48; 32]%N [49; 50; 58; 51; 48; 57; 57]%N /\
  Matches KStr [] clock [49; 50; 58; 51; 48; 32]%N 0 0 5.
Proof.
  split; [apply sample_env_core|]. split; [unfold clock; shape|]. split; [|split; [reflexivity|matches 60]].
  apply (R_seponce KStr [] _ _ _ 2 1 2); [|apply (R_lit KStr [] [58]%N)|].
  all: apply (R_between KStr [] 2 2 NAsciiDigit CEmpty 1 2); [constructor|cbn; lia|lia].
Qed.

(** With C52 (a parser does not see what is ahead of the cursor, [local]): the answer depends on the next items alone,
    wherever they stand, so such a parser is a finite table from the next items to an answer. *)
Lemma bo_behind k (u v : text) x : bo k (u ++ v) (length u + x) = tlen k u + bo k v x.
Proof.
  rewrite bo_add. rewrite skipn_app, skipn_all, Nat.sub_diag. cbn [app skipn]. f_equal.
  unfold bo. rewrite firstn_app, firstn_all, Nat.sub_diag, firstn_O, app_nil_r. reflexivity.
Qed.
Lemma shift_runs k G p u v n : local_env G -> local p ->
  rsim (moved k u) (fst (try_mat_top n G [] p (cx k (u ++ v) (length u)))) (fst (try_mat_top n G [] p (cx k v 0))) /\
  behind k u (snd (try_mat_top n G [] p (cx k (u ++ v) (length u)))) (snd (try_mat_top n G [] p (cx k v 0))).
Proof.
  intros LE L. apply (try_mat_shift k u G LE n [] p (Forall_nil _) L). unfold cx.
  rewrite <- (Nat.add_0_r (length u)) at 1. rewrite bo_behind. repeat split.
Qed.
Lemma shift_matches k G p u v b j : local_env G -> local p ->
  (Matches k G p (u ++ v) (length u) (length u + b) (length u + j) <-> Matches k G p v 0 b j).
Proof.
  intros LE L. unfold Matches. rewrite app_length. split; intros (H1 & H2 & n & E); (split; [lia|]); (split; [lia|]); exists n.
  all: destruct (shift_runs k G p u v n LE L) as [S1 S2]; rewrite E in S1, S2; cbn [fst snd] in S1, S2.
  - destruct (try_mat_top n G [] p (cx k v 0)) as [r [k' w' o]]. cbn [fst snd] in S1, S2.
    inversion S1 as [a [s l] [M1 M2]| | |]; subst. destruct S2 as (K1 & K2 & K3 & K4).
    unfold sp, cx in *. cbn [sbeg slen c_kind c_dat c_off] in *. rewrite !bo_behind in *. apply app_inv_head in K3. subst.
    f_equal; [do 2 f_equal; lia|f_equal; lia].
  - destruct (try_mat_top n G [] p (cx k (u ++ v) (length u))) as [r [k' w' o]]. cbn [fst snd] in S1, S2.
    inversion S1 as [[s l] a [M1 M2]| | |]; subst. destruct S2 as (K1 & K2 & K3 & K4).
    unfold sp, cx in *. cbn [sbeg slen c_kind c_dat c_off] in *. rewrite !bo_behind in *. subst.
    do 3 f_equal. lia.
Qed.
Lemma shift_fails k G p u v e : local_env G -> local p ->
  (Fails k G p (u ++ v) (length u) e <-> Fails k G p v 0 e).
Proof.
  intros LE L. assert (B : bo k (u ++ v) (length u) = tlen k u + bo k v 0) by (rewrite <- bo_behind; now rewrite Nat.add_0_r).
  unfold Fails. split; intros (n & E); exists n.
  all: destruct (shift_runs k G p u v n LE L) as [S1 S2]; rewrite E in S1, S2; cbn [fst snd] in S1, S2.
  - destruct (try_mat_top n G [] p (cx k v 0)) as [r [k' w' o]]. cbn [fst snd] in S1, S2.
    inversion S1; subst. destruct S2 as (K1 & K2 & K3 & K4).
    unfold cx in *. cbn [c_kind c_dat c_off] in *. apply app_inv_head in K3. subst. do 2 f_equal; lia.
  - destruct (try_mat_top n G [] p (cx k (u ++ v) (length u))) as [r [k' w' o]]. cbn [fst snd] in S1, S2.
    inversion S1; subst. destruct S2 as (K1 & K2 & K3 & K4).
    unfold cx in *. cbn [c_kind c_dat c_off] in *. subst. do 2 f_equal; lia.
Qed.
Theorem C89_place : forall k G p n u v u' v', core_env k G no_skip -> core k G no_skip p -> Reach k G p n ->
  local_env G -> local p -> firstn n v = firstn n v' ->
  (forall b j, Matches k G p (u ++ v) (length u) (length u + b) (length u + j) <->
               Matches k G p (u' ++ v') (length u') (length u' + b) (length u' + j)) /\
  (forall e, Fails k G p (u ++ v) (length u) e <-> Fails k G p (u' ++ v') (length u') e).
Proof.
  intros k G p n u v u' v' CE C R LE L A.
  destruct (C89_window k G p n v v' 0 CE C R (Nat.le_0_l _) (Nat.le_0_l _)) as [M F]; [symmetry; exact A|].
  split.
  - intros b j. rewrite !shift_matches by auto. apply M.
  - intros e. rewrite !shift_fails by auto. apply F.
Qed.
(** [12:30] in the middle of two texts. *)
Example C89_place_case : local_env [] /\ local clock /\ Reach KStr [] clock 5 /\
  firstn 5 [49; 50; 58; 51; 48; 32]%N = firstn 5 [49; 50; 58; 51; 48; 57; 57]%N /\
  Matches KStr [] clock ([64; 228] ++ [49; 50; 58; 51; 48; 32])%N 2 (2 + 0) (2 + 5).
Proof.
  split; [intros i p E; destruct i; discriminate E|]. split; [unfold clock; repeat constructor|].
  split; [exact (proj1 (proj2 (proj2 C89_window_case)))|]. split; [reflexivity|matches 60].
Qed.
(** The start anchor looks at no item and sees where it stands: without [local] the claim is false. *)
Theorem C89_place_refuted : exists p u v u' v', Reach KStr [] p 0 /\ firstn 0 v = firstn 0 v' /\
  Matches KStr [] p (u ++ v) (length u) (length u) (length u) /\ Fails KStr [] p (u' ++ v') (length u') EAnchorStart.
Proof.
  exists PStart, [], [97]%N, [97]%N, []. split; [constructor|]. split; [reflexivity|]. split; [matches 5|fails 5].
Qed.

(** A parser with one item of lookahead (C79) looks one item behind its match at most: behind a match that the next item
    cannot continue, the text after that item does not matter. *)
Theorem C89_next : forall k G R p w w' i b j, one_ahead k G R p -> i <= length w ->
  Matches k G p w i b j -> ~ ahead (skipn j w) (ex (info_of R p)) -> agree (S j) w w' -> Matches k G p w' i b j.
Proof.
  intros k G R p w w' i b j O Hi M N A. destruct (one_ahead_core k G R p O) as (CE & SE & C & St).
  apply (matches_peg k G CE) in M; auto.
  destruct (proj1 (lang_all k G CE SE) w p i _ M C St Hi) as (-> & I1 & I2 & H).
  pose proof (agree_length _ _ _ A) as E.
  assert (Hi' : i <= length w') by lia. apply (matches_peg k G CE); auto.
  assert (SL : length (slice w i j) = j - i) by (unfold slice; rewrite firstn_length, skipn_length; lia).
  replace j with (i + length (slice w i j)) at 1 by lia.
  apply (one_ahead_peg k G R p w' i _ (skipn j w') O H Hi').
  - unfold slice. rewrite <- (agree_slice (S j) w w' i (j - i)) by (auto; lia).
    rewrite <- (firstn_skipn (j - i) (skipn i w')) at 1. f_equal. rewrite skipn_skipn_add. f_equal. lia.
  - intros X. apply N.
    assert (Q : forall (v : text) P, ahead (skipn j v) P <-> exists x, nth_error v j = Some x /\ P x).
    { clear. intros v. revert v. induction j as [|j IH]; intros [|x v] P; cbn.
      1, 3: split; [easy|now intros (y & ? & _)].
      - split; [eauto|]. intros (y & [= ->] & H). exact H.
      - apply IH. }
    apply Q in X. apply Q. erewrite agree_nth in X; eauto.
Qed.

Example C89_next_case : one_ahead KStr expr_env expr_info (PRef 0) /\
  Matches KStr expr_env (PRef 0) ([32] ++ expr_text ++ [59])%N 1 1 8 /\
  ~ ahead (skipn 8 ([32] ++ expr_text ++ [59])%N) (ex (info_of expr_info (PRef 0))) /\
  agree 9 ([32] ++ expr_text ++ [59])%N ([32] ++ expr_text ++ [59; 43; 43])%N.
Proof.
  split; [exact expr_ready|]. split; [matches 60|]. split; [|reflexivity].
  cbn -[is_match]. intros [H|H]; discriminate H.
Qed.

(** Without "the next item cannot continue it" this is false: the loop looks two items ahead. *)
Theorem C89_next_refuted : exists p w w' j, Matches KStr [] p w 0 0 j /\ agree (S j) w w' /\ ~ Matches KStr [] p w' 0 0 j.
Proof.
  exists (PCollect (PLit [97; 98]%N) 0), [97; 98; 97; 99]%N, [97; 98; 97; 98]%N, 2.
  split; [matches 30|]. split; [reflexivity|].
  assert (M : Matches KStr [] (PCollect (PLit [97; 98]%N) 0) [97; 98; 97; 98]%N 0 0 4) by matches 30.
  intros M'. pose proof (matches_det KStr [] (sample_env_core KStr) (PCollect (PLit [97; 98]%N) 0) _ 0 _ _ _ _ ltac:(shape) ltac:(cbn; lia) M M') as [_ D].
  discriminate D.
Qed.

Print Assumptions C89_counted.
Print Assumptions C89_seen.
Print Assumptions C89_seen_skipping.
Print Assumptions C89_grows.
Print Assumptions C89_window.
Print Assumptions C89_next.
Print Assumptions C89_next_refuted.
Print Assumptions C89_place.
Print Assumptions C89_place_refuted.
