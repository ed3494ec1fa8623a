(** Unbounded loops whose body matches the empty text never return. *)

From Coq Require Import List Arith NArith Bool Lia.
From Verif Require Import Base Text Context Neu Syntax Regex Ctor Api TextProofs Spec Units Core Sound Complete Mono Obs Laws ApiLaws.
Import ListNotations.

(** A call that is known to return has returned already or is still running. *)
Lemma oof_or {X A} (m m' : M X A) x r x' : mle m m' -> m' x = (r, x') -> fst (m x) = OOF \/ m x = (r, x').
Proof. intros H E. destruct (H x) as [F|F]; [now left|right; congruence]. Qed.

Lemma tm_oof_or n G p c r c' : Returns G [] p c r c' ->
  fst (parse n G [] [] p c) = OOF \/ parse n G [] [] p c = (r, c').
Proof.
  intros (m & E & N). apply (oof_or _ (parse (n + m) G [] [] p)); [apply parse_mono; lia|].
  apply (parse_at m); auto. lia.
Qed.
Lemma con_oof_or {S} (h : handler S) n G pols p c s r c' s' : Builds h G pols p c s r c' s' ->
  fst (construct h n G [] pols p (c, s)) = OOF \/ construct h n G [] pols p (c, s) = (r, (c', s')).
Proof.
  intros (m & E & N). apply (oof_or _ (construct h (n + m) G [] pols p)); [apply construct_mono; lia|].
  apply (construct_at h m); auto. lia.
Qed.

Lemma bind_oof {X A B} (m : M X A) (f : A -> M X B) x : fst (m x) = OOF -> fst (bind m f x) = OOF.
Proof. unfold bind. destruct (m x) as [[]]; simpl; congruence. Qed.
Lemma catch_oof {X A} (m : M X A) x : fst (m x) = OOF -> fst (catch m x) = OOF.
Proof. unfold catch. destruct (m x) as [[]]; simpl; congruence. Qed.

Lemma join_empty {X} o (x : X) : join (Span o 0) (Span o 0) x = (Ok (Span o 0), x).
Proof.
  unfold join, lift, add_assign; cbn [sbeg slen]. rewrite Nat.leb_refl. unfold csub.
  replace (o + 0 <=? 0 + o) with true by (symmetry; apply Nat.leb_le; lia). simpl. now replace (o - (o + 0)) with 0 by lia.
Qed.

(** One round of a loop from a state in which the body matches the empty text. *)
Lemma repeat_loop_div n (tmp : M ctx span) c more : (forall cnt, more cnt = true) ->
  (fst (tmp c) = OOF \/ tmp c = (Ok (Span (c_off c) 0), c)) ->
  forall cnt, fst (repeat_loop tmp n more cnt (Span (c_off c) 0) c) = OOF.
Proof.
  intros Hm H. induction n as [|n IH]; intros cnt; [reflexivity|]. cbn [repeat_loop]. rewrite Hm.
  destruct H as [H|H]; [apply bind_oof, catch_oof; auto|]. unfold bind at 1, catch. rewrite H.
  unfold bind. rewrite join_empty. apply IH. 
Qed.
Lemma sep_loop_div n (tmp tms : M ctx span) c skip :
  (fst (tmp c) = OOF \/ tmp c = (Ok (Span (c_off c) 0), c)) ->
  (fst (tms c) = OOF \/ tms c = (Ok (Span (c_off c) 0), c)) ->
  forall cnt, fst (sep_loop tmp tms n (fun _ => true) skip cnt (Span (c_off c) 0) c) = OOF.
Proof.
  intros H K. induction n as [|n IH]; intros cnt; [reflexivity|]. cbn [sep_loop].
  destruct H as [H|H]; [apply bind_oof, catch_oof; auto|]. unfold bind at 1, catch at 1. rewrite H.
  destruct K as [K|K]; [apply bind_oof, catch_oof; auto|]. unfold bind at 1, catch. rewrite K.
  unfold bind. rewrite !join_empty. apply IH.
Qed.

Section Div.
  Variable G : env.
  Variable c : ctx.
  Notation here := (Span (c_off c) 0).

  Lemma repeat_diverges p lo : Returns G [] p c (Ok here) c -> Diverges G [] (PRepeat p (CRange lo Unb)) c.
  Proof.
    intros H n. destruct n as [|n]; [reflexivity|]. rewrite tm_plain. cbn. apply bind_oof.
    apply repeat_loop_div; auto. now apply tm_oof_or.
  Qed.
  Lemma collect_diverges p mn : Returns G [] p c (Ok here) c -> Diverges G [] (PCollect p mn) c.
  Proof.
    intros H n. destruct n as [|n]; [reflexivity|]. rewrite tm_plain. cbn. apply bind_oof.
    apply repeat_loop_div; auto. now apply tm_oof_or.
  Qed.
  Lemma sep_diverges p s mn b : Returns G [] p c (Ok here) c -> Returns G [] s c (Ok here) c ->
    Diverges G [] (PSep p s mn b) c.
  Proof.
    intros H K n. destruct n as [|n]; [reflexivity|]. rewrite tm_plain. cbn. apply bind_oof.
    apply sep_loop_div; now apply tm_oof_or.
  Qed.
  Lemma sepcollect_diverges p s mn b : Returns G [] p c (Ok here) c -> Returns G [] s c (Ok here) c ->
    Diverges G [] (PSepCollect p s mn b) c.
  Proof.
    intros H K n. destruct n as [|n]; [reflexivity|]. rewrite tm_plain. cbn. apply bind_oof.
    apply sep_loop_div; now apply tm_oof_or.
  Qed.
End Div.

(** The same in constructing mode, for any policies and any handler. *)
Section CDiv.
  Context {S : Type}.
  Variable h : handler S.
  Variable G : env.
  Variable pols : list pat.
  Variable c : ctx.
  (** From [c] the element is built again and again without moving, whatever the handler state. *)
  Definition stuck (p : pat) : Prop := forall s, exists v s', Builds h G pols p c s (Ok v) c s'.

  Lemma vals_div p n m more : stuck p -> (forall k, more k = true) -> forall acc s,
    fst (repeat_vals (construct h m G [] pols p) n more acc (c, s)) = OOF.
  Proof.
    intros H Hm. induction n as [|n IH]; intros acc s; [reflexivity|]. cbn [repeat_vals]. rewrite Hm.
    destruct (H s) as (v & s' & B). destruct (con_oof_or h m _ _ _ _ _ _ _ _ B) as [E|E].
    - now apply bind_oof, catch_oof.
    - unfold bind, catch. rewrite E. apply IH.
  Qed.
  Lemma repeat_build_diverges p lo s : stuck p -> BuildDiverges h G pols (PRepeat p (CRange lo Unb)) c s.
  Proof.
    intros H n. destruct n as [|n]; [reflexivity|]. cbn. apply bind_oof. now apply vals_div.
  Qed.
  Lemma collect_build_diverges p mn s : stuck p -> BuildDiverges h G pols (PCollect p mn) c s.
  Proof.
    intros H n. destruct n as [|n]; [reflexivity|]. cbn. apply bind_oof. now apply vals_div.
  Qed.
  (** The same for a separator, which is matched and not built. *)
  Definition idle (p : pat) : Prop := exists sn, Returns G pols p c (Ok sn) c.
  Lemma idle_oof p m (s : S) : idle p -> fst (on_ctx (tm (parse m G) [] pols p) (c, s)) = OOF \/
    exists sn, on_ctx (tm (parse m G) [] pols p) (c, s) = (Ok sn, (c, s)).
  Proof.
    intros (sn & n & E & N). unfold on_ctx, tm. change (try_mat (parse m G []) pols p) with (try_mat_top m G pols p).
    cbn [fst snd]. destruct (oof_or _ _ c _ _ (try_mat_mono m (m + n) G pols p ltac:(lia))
      (mle_eq _ _ _ _ _ (try_mat_mono n (m + n) G pols p ltac:(lia)) E N)) as [F|F].
    - left. destruct (try_mat_top m G pols p c) as [a c']. exact F.
    - right. rewrite F. eauto.
  Qed.
  Lemma sep_vals_div p q n m b : stuck p -> idle q -> forall acc s,
    fst (sep_vals (construct h m G [] pols p) (on_ctx (tm (parse m G) [] pols q)) n b acc (c, s)) = OOF.
  Proof.
    intros H K. induction n as [|n IH]; intros acc s; [reflexivity|]. cbn [sep_vals].
    destruct (H s) as (v & s' & B). destruct (con_oof_or h m _ _ _ _ _ _ _ _ B) as [E|E].
    - now apply bind_oof, catch_oof.
    - unfold bind at 1, catch at 1. rewrite E. destruct (idle_oof q m s' K) as [F|[sn F]].
      + now apply bind_oof, catch_oof.
      + unfold bind at 1, catch. rewrite F. apply IH.
  Qed.
  Lemma sepcollect_vals_div p q n m b : stuck p -> idle q -> forall acc s,
    fst (sepcollect_vals (construct h m G [] pols p) (on_ctx (tm (parse m G) [] pols q)) n b false acc (c, s)) = OOF.
  Proof.
    intros H K. induction n as [|n IH]; intros acc s; [reflexivity|]. cbn [sepcollect_vals].
    destruct (H s) as (v & s' & B). destruct (con_oof_or h m _ _ _ _ _ _ _ _ B) as [E|E].
    - now apply bind_oof, catch_oof.
    - unfold bind at 1, catch at 1. rewrite E. destruct (idle_oof q m s' K) as [F|[sn F]].
      + now apply bind_oof, catch_oof.
      + unfold bind at 1, catch. rewrite F. apply IH.
  Qed.
  Lemma sep_build_diverges p q mn b s : stuck p -> idle q -> BuildDiverges h G pols (PSep p q mn b) c s.
  Proof.
    intros H K n. destruct n as [|n]; [reflexivity|]. cbn. apply bind_oof. now apply sep_vals_div.
  Qed.
  Lemma sepcollect_build_diverges p q mn b s : stuck p -> idle q -> BuildDiverges h G pols (PSepCollect p q mn b) c s.
  Proof.
    intros H K n. destruct n as [|n]; [reflexivity|]. cbn. apply bind_oof. now apply sepcollect_vals_div.
  Qed.
End CDiv.

(** Matching mode in a context with policies: the policies first bring the cursor to [c]. *)
Section PDiv.
  Variable G : env.
  Variables r : pat.
  Variable rest : list pat.
  Variables c0 c : ctx.
  Notation pols := (r :: rest).
  Notation here := (Span (c_off c) 0).
  Hypothesis Skip : exists n s, parse n G [] rest r c0 = (Ok s, c).

  Lemma top_oof_or m p : Returns G pols p c (Ok here) c ->
    fst (tm (parse m G) [] pols p c) = OOF \/ tm (parse m G) [] pols p c = (Ok here, c).
  Proof.
    intros (n & E & N). unfold tm. change (try_mat (parse m G []) pols p) with (try_mat_top m G pols p).
    apply (oof_or _ _ c _ _ (try_mat_mono m (m + n) G pols p ltac:(lia))).
    exact (mle_eq _ _ _ _ _ (try_mat_mono n (m + n) G pols p ltac:(lia)) E N).
  Qed.
  Lemma after_policy p : (forall n, fst (parse n G [] pols p c) = OOF) -> Diverges G pols p c0.
  Proof.
    intros H n. unfold try_mat_top, try_mat. destruct Skip as (m & s & E).
    assert (D : fst (parse n G [] rest r c0) = OOF \/ parse n G [] rest r c0 = (Ok s, c)).
    { apply (oof_or _ (parse (n + m) G [] rest r)); [apply parse_mono; lia|].
      apply (parse_at m); auto; [discriminate|lia]. }
    destruct D as [D|D]; [now apply bind_oof|]. unfold bind. rewrite D. apply H.
  Qed.
  Lemma repeat_diverges_pols p lo : Returns G pols p c (Ok here) c -> Diverges G pols (PRepeat p (CRange lo Unb)) c0.
  Proof.
    intros H. apply after_policy. intros n. destruct n as [|n]; [reflexivity|]. cbn. apply bind_oof.
    apply repeat_loop_div; auto. now apply top_oof_or.
  Qed.
  Lemma collect_diverges_pols p mn : Returns G pols p c (Ok here) c -> Diverges G pols (PCollect p mn) c0.
  Proof.
    intros H. apply after_policy. intros n. destruct n as [|n]; [reflexivity|]. cbn. apply bind_oof.
    apply repeat_loop_div; auto. now apply top_oof_or.
  Qed.
  Lemma sep_diverges_pols p s mn b : Returns G pols p c (Ok here) c -> Returns G pols s c (Ok here) c ->
    Diverges G pols (PSep p s mn b) c0.
  Proof.
    intros H K. apply after_policy. intros n. destruct n as [|n]; [reflexivity|]. cbn. apply bind_oof.
    apply sep_loop_div; now apply top_oof_or.
  Qed.
  Lemma sepcollect_diverges_pols p s mn b : Returns G pols p c (Ok here) c -> Returns G pols s c (Ok here) c ->
    Diverges G pols (PSepCollect p s mn b) c0.
  Proof.
    intros H K. apply after_policy. intros n. destruct n as [|n]; [reflexivity|]. cbn. apply bind_oof.
    apply sep_loop_div; now apply top_oof_or.
  Qed.
End PDiv.

(** The loop may run for a while before it reaches such a position. *)
Inductive Steps (step : nat -> nat -> Prop) : nat -> nat -> Prop :=
| steps_here i : Steps step i i
| steps_more i j j' : step i j -> Steps step j j' -> Steps step i j'.

Section Chain.
  Variable k : kind.
  Variable G : env.
  Hypothesis CE : core_env k G no_skip.
  Variable w : text.

  Lemma matches_returns p i b j : Matches k G p w i b j -> Returns G [] p (cx k w i) (Ok (sp k w b j)) (cx k w j).
  Proof. intros (_ & _ & n & E). exists n. split; [auto|discriminate]. Qed.

  Lemma loop_chain p n m more i j : core k G no_skip p -> (forall c, more c = true) ->
    Steps (fun a a' => exists b, Matches k G p w a b a') i j -> Matches k G p w j j j -> i <= length w ->
    forall a cnt, a <= i -> fst (repeat_loop (tm (parse m G) [] [] p) n more cnt (sp k w a i) (cx k w i)) = OOF.
  Proof.
    intros C Hm St E. revert i St. induction n as [|n IH]; intros i St Hi a cnt Ha; [reflexivity|].
    cbn [repeat_loop]. rewrite Hm.
    assert (N : exists b i', Matches k G p w i b i' /\ Steps (fun a a' => exists b, Matches k G p w a b a') i' j).
    { inversion St as [|? x ? [b Mb] St']; subst; [exists j, j; split; auto; constructor|eauto 6]. }
    destruct N as (b & i' & Mb & St'). pose proof (matches_in k G CE p w i b i' C Hi Mb) as (B1 & B2 & B3).
    destruct (tm_oof_or m _ _ _ _ _ (matches_returns _ _ _ _ Mb)) as [F|F].
    - apply bind_oof, catch_oof. exact F.
    - unfold bind at 1, catch. cbn [tm try_mat] in *. change (tm (parse m G) [] [] p) with (parse m G [] [] p). rewrite F.
      unfold bind at 1, join, lift. rewrite join_sp by (auto; lia). apply IH; auto. lia.
  Qed.

  Theorem repeat_diverges_later p lo i j : core k G no_skip p -> i <= length w ->
    Steps (fun a a' => exists b, Matches k G p w a b a') i j -> Matches k G p w j j j ->
    Diverges G [] (PRepeat p (CRange lo Unb)) (cx k w i).
  Proof.
    intros C Hi St E n. destruct n as [|n]; [reflexivity|]. rewrite tm_plain. cbn. apply bind_oof.
    pose proof (loop_chain p n n (repeat_more (CRange lo Unb)) i j C (fun _ => eq_refl) St E Hi i 0 (le_n _)) as H.
    unfold sp in H. rewrite Nat.sub_diag in H. exact H.
  Qed.
  Theorem collect_diverges_later p mn i j : core k G no_skip p -> i <= length w ->
    Steps (fun a a' => exists b, Matches k G p w a b a') i j -> Matches k G p w j j j ->
    Diverges G [] (PCollect p mn) (cx k w i).
  Proof.
    intros C Hi St E n. destruct n as [|n]; [reflexivity|]. rewrite tm_plain. cbn. apply bind_oof.
    pose proof (loop_chain p n n (fun _ => true) i j C (fun _ => eq_refl) St E Hi i 0 (le_n _)) as H.
    unfold sp in H. rewrite Nat.sub_diag in H. exact H.
  Qed.
End Chain.
