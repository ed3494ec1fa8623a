(** Searching a text item by item. *)

From Coq Require Import List Arith NArith Bool Lia Sorted.
From Verif Require Import Base Text Context Neu Syntax Regex Ctor Api TextProofs Spec Units Leaf
  Core Sound Mono ByteInv Obs Laws ApiLaws Consumes Term TermLaws PolicyLaws Diverge CtorSpec CtorLaws Inside FindLaws.
Import ListNotations.

Section Starts.
  Variable k : kind.
  Variable G : env.
  Hypothesis LE : looks_env G.

  (** In a plain context the matches of such parsers start where the parser was started. *)
  Lemma looks_starts_all :
    (forall w p i o, Peg k G no_skip w p i o -> looks p -> match o with OK b j => b = i | KO _ => True end) /\
    (forall w i u c m r, Acc k G no_skip w i u c m r -> True) /\
    (forall w i c m x r, Chk k G no_skip w i c m x r -> True) /\
    (forall w i u c lim m r, Run k G no_skip w i u c lim m r -> True) /\
    (forall w p lim i n j, Reps k G no_skip w p lim i n j -> True) /\
    (forall w p s lim i n j, Seps k G no_skip w p s lim i n j -> True) /\
    (forall w ps i e o, First k G no_skip w ps i e o -> (forall p, In p ps -> looks p) ->
       match o with OK b j => b = i | KO _ => True end).
  Proof.
    apply Peg_mutind; unfold no_skip; intros; try exact I; try reflexivity;
      try solve [match goal with H : looks _ |- _ => inversion H; subst; try discriminate;
        first [now auto | match goal with IH : looks _ -> _ |- _ => now apply IH end
              | match goal with IH : (forall p, In p _ -> looks p) -> _ |- _ => now apply IH end] end].
    all: try solve [match goal with H : env_get _ _ = Some _ |- _ => apply LE in H end; match goal with IH : looks _ -> _ |- _ => now apply IH end].
    all: try solve [match goal with H : forall p, In p (_ :: _) -> looks p |- _ =>
                      pose proof (H _ (or_introl eq_refl)); pose proof (fun q I => H q (or_intror I)) end;
      match goal with IH : looks _ -> _ |- _ => now apply IH | IH : (forall p, In p _ -> looks p) -> _ |- _ => now apply IH end].
  Qed.

  Lemma looks_starts p : looks p -> starts_here k G no_skip p.
  Proof. intros H w i b j P. exact (proj1 looks_starts_all w p i _ P H). Qed.
End Starts.

Section Items.
  Variable k : kind.
  Variable G : env.
  Variable p : pat.
  Variable w : text.

  (** At item [i] the parser does not match, or matches nothing. *)
  Definition ItemMiss (i : nat) : Prop := (exists e, Fails k G p w i e) \/ Matches k G p w i i i.
  (** At item [i] it matches the items [i .. j-1], at least one. *)
  Definition ItemHit (i j : nat) : Prop := i < j /\ Matches k G p w i i j.
  Definition FirstItem (i a b : nat) : Prop :=
    i <= a /\ (forall m, i <= m -> m < a -> ItemMiss m) /\ ItemHit a b.
  Inductive AllItems : nat -> list (nat * nat) -> Prop :=
  | items_none i : (forall m, i <= m -> m < length w -> ItemMiss m) -> AllItems i []
  | items_hit i a b l : FirstItem i a b -> AllItems b l -> AllItems i ((a, b) :: l).

  Definition to_span (x : nat * nat) : span := sp k w (fst x) (snd x).

  Lemma item_miss_byte i : ItemMiss i -> Misses k G p w (bo k w i).
  Proof.
    intros [(e & n & E)|(_ & _ & n & E)].
    - left. exists e, n. split; [exact E|discriminate].
    - right. exists n. split; [|discriminate]. unfold sp in E. rewrite Nat.sub_diag in E. exact E.
  Qed.
  Lemma item_hit_byte i j : i <= length w -> ItemHit i j -> Hits k G p w (bo k w i) (bo k w j - bo k w i).
  Proof.
    intros Hi (H & _ & Hj & n & E). pose proof (bo_lt k w i j H ltac:(lia)). split; [lia|].
    exists n. split; [|discriminate].
    replace (bo k w i + (bo k w j - bo k w i)) with (bo k w j) by lia. exact E.
  Qed.

  Lemma all_items_in i l : AllItems i l -> forall x, In x l ->
    i <= fst x /\ fst x < snd x /\ snd x <= length w.
  Proof.
    induction 1 as [i M|i a b l H A IH]; intros x I; [easy|].
    destruct H as (H1 & M & H2 & _ & Hb & _).
    destruct I as [<-|I]; cbn [fst snd]; [lia|]. apply IH in I. lia.
  Qed.

  Lemma handled_texts l (st : unit) : (forall x, In x l -> fst x < snd x /\ snd x <= length w) ->
    Handled extract_text k w (map to_span l) st
      (map (fun x => VText (slice w (fst x) (snd x))) l) st.
  Proof.
    induction l as [|x l IH]; intros H; cbn [map]; [constructor|].
    destruct (H x (or_introl eq_refl)) as [H1 H2].
    eapply handled_ok; [|apply IH; intros; apply H; now right].
    pose proof (bo_lt k w (fst x) (snd x) H1 ltac:(lia)) as B.
    unfold to_span. cbn [sbeg slen].
    replace (sbeg (sp k w (fst x) (snd x)) + slen (sp k w (fst x) (snd x))) with (bo k w (snd x))
      by (unfold sp; cbn [sbeg slen]; lia).
    destruct (extract_text_slice k w (snd x) (fst x) (snd x) st H2 ltac:(lia) H2) as (v & E & V).
    unfold is_slice in V. subst v. unfold cx in E.
    destruct st. destruct (extract_text _ _ tt) as [r []]. cbn [fst] in E. now subst r.
  Qed.

  Variable K : nat -> bool.
  Variable rk : nat -> nat.
  Variable L m : nat.
  Hypothesis CE : core_env k G no_skip.
  Hypothesis LE : looks_env G.
  Hypothesis KE : forall x q, env_get G x = Some q -> K x = true -> consumes K q = true.
  Hypothesis WE : forall x q, env_get G x = Some q -> wfb K rk L (rk x) q = true.
  Hypothesis C : core k G no_skip p.
  Hypothesis LP : looks p.
  Hypothesis W : wfb K rk L m p = true.
  Notation len := (tlen k w).

  Lemma item_cases i : i <= length w -> ItemMiss i \/ exists j, ItemHit i j.
  Proof.
    intros Hi.
    destruct (checked_total k G no_skip [] no_skip_skipper (no_skip_implements k G) CE K rk L KE m p w i WE C W Hi)
      as (r & c' & R).
    destruct (policy_sound k G no_skip [] no_skip_skipper CE (no_skip_implements k G) p w i r c' C Hi R)
      as [(b & j & x & -> & -> & P & B)|(e & -> & -> & P)]; unfold no_skip in P.
    - assert (b = i) by (exact (looks_starts k G LE p LP _ _ _ _ P)). subst b.
      apply (proj2 (matches_peg k G CE p w i i j C Hi)) in P. unfold no_skip in B.
      destruct (Nat.eq_dec i j) as [<-|N]; [left; now right|right].
      exists j. split; [lia|assumption].
    - left. left. exists e. now apply (proj2 (fails_peg k G CE p w i e C Hi)).
  Qed.

  Lemma byte_misses i a : i <= a -> a <= length w -> (forall x, i <= x -> x < a -> ItemMiss x) ->
    forall x, bo k w i <= x -> x < bo k w a -> Misses k G p w x.
  Proof.
    intros Hia Ha M x X1 X2. pose proof (bo_le_len k w a) as BL.
    destruct (boundary_cases k (Ctx k w x)) as [(t & Ht & E)|(Ek & D)]; [unfold ctx_len; cbn [c_off c_kind c_dat]; lia|reflexivity| |].
    - cbn [c_dat] in *. injection E as E. rewrite E. apply item_miss_byte. rewrite E in X1, X2.
      apply bo_le_iff in X1; [|lia|lia]. apply M; auto.
      destruct (Nat.lt_ge_cases t a) as [Q|Q]; [auto|]. pose proof (bo_mono k w a t Q). lia.
    - cbn [c_dat c_off] in D. assert (I1 : x <= tlen KStr w) by (rewrite <- Ek; lia).
      rewrite Ek in D. unfold Misses. rewrite Ek.
      destruct (inside_settled G w x I1 D K KE LE rk L WE m p LP W) as (N & r & E & [[-> _]|(e & ->)]).
      + right. exists N. split; [|discriminate]. apply E. lia.
      + left. exists e, N. split; [|discriminate]. apply E. lia.
  Qed.

  Lemma first_item_byte i a b : i <= length w -> FirstItem i a b ->
    FirstHit k G p w (bo k w i) (bo k w a) (bo k w b - bo k w a).
  Proof.
    intros Hi (H1 & M & H). pose proof H as (H2 & _ & Hb & _).
    split; [now apply bo_mono|]. split; [rewrite <- bo_len; apply bo_lt; lia|].
    split; [apply byte_misses; auto; lia|]. apply item_hit_byte; [lia|auto].
  Qed.

  Lemma all_items_byte i l : i <= length w -> AllItems i l -> AllHits k G p w (bo k w i) (map to_span l).
  Proof.
    intros Hi H. revert Hi. induction H as [i M|i a b l H A IH]; intros Hi; cbn [map].
    - constructor. intros x X1 X2. rewrite <- bo_len in X2.
      exact (byte_misses i (length w) Hi (le_n _) M x X1 X2).
    - pose proof H as (H1 & M & H2 & _ & Hb & _). pose proof (bo_lt k w a b H2 ltac:(lia)).
      unfold to_span at 1. cbn [fst snd].
      apply all_hit; [now apply first_item_byte|].
      replace (bo k w a + (bo k w b - bo k w a)) with (bo k w b) by lia. apply IH. lia.
  Qed.

  Lemma first_item_total i : i <= length w ->
    (exists a b, FirstItem i a b) \/ (forall x, i <= x -> x < length w -> ItemMiss x).
  Proof.
    intros Hi. remember (length w - i) as d eqn:Ed. revert i Hi Ed.
    induction d as [|d IH]; intros i Hi Ed; [right; lia|].
    destruct (item_cases i Hi) as [M|(j & H)].
    - destruct (IH (S i)) as [(a & b & H1 & M' & H)|M']; try lia.
      + left. exists a, b. repeat split; try apply H; try lia. intros x X1 X2.
        destruct (Nat.eq_dec x i) as [->|]; [auto|]. apply M'; lia.
      + right. intros x X1 X2. destruct (Nat.eq_dec x i) as [->|]; [auto|]. apply M'; lia.
    - left. exists i, j. split; [lia|]. split; [lia|auto].
  Qed.

  Lemma all_items_total i : i <= length w -> exists l, AllItems i l.
  Proof.
    intros Hi. remember (length w - i) as d eqn:Ed. assert (D : length w - i <= d) by lia. clear Ed.
    revert i Hi D. induction d as [|d IH]; intros i Hi D; [exists []; constructor; lia|].
    destruct (first_item_total i Hi) as [(a & b & H)|M]; [|exists []; now constructor].
    pose proof H as (H1 & _ & H2 & _ & Hb & _). destruct (IH b) as (l & A); try lia.
    exists ((a, b) :: l). econstructor; eauto.
  Qed.

  Lemma find_item {S} (h : handler S) i a b st v st' : i <= length w -> FirstItem i a b ->
    h (cx k w b) (sp k w a b) st = (Ok v, st') ->
    Finds h G [] p (cx k w i) st (Some v) (cx k w b) st'.
  Proof.
    intros Hi H E. pose proof (first_item_byte i a b Hi H) as F.
    pose proof H as (_ & _ & H2 & _ & Hb & _). pose proof (bo_lt k w a b H2 ltac:(lia)).
    pose proof (find_first k G p w S h _ _ _ st v st' F) as R.
    replace (bo k w a + (bo k w b - bo k w a)) with (bo k w b) in R by lia. now apply R.
  Qed.
  Lemma find_no_item {S} (h : handler S) i st : i <= length w ->
    (forall x, i <= x -> x < length w -> ItemMiss x) ->
    Finds h G [] p (cx k w i) st None (cx k w (length w)) st.
  Proof.
    intros Hi M. unfold cx. rewrite bo_len. apply find_none; [apply bo_le_len|].
    intros x X1 X2. rewrite <- bo_len in X2. exact (byte_misses i (length w) Hi (le_n _) M x X1 X2).
  Qed.
  Lemma find_all_items i l : i <= length w -> AllItems i l ->
    FindsAll extract_text G [] p (cx k w i) tt
      (map (fun x => VText (slice w (fst x) (snd x))) l) (cx k w (length w)) tt.
  Proof.
    intros Hi A. unfold cx. rewrite bo_len.
    pose proof (all_items_byte i l Hi A) as B.
    apply find_all_law. eapply handled_polls; eauto.
    - apply bo_le_len.
    - intros s I. apply in_map_iff in I. destruct I as (x & <- & I).
      apply (all_items_in i l A) in I. destruct I as (_ & I1 & I2).
      pose proof (bo_lt k w (fst x) (snd x) I1 ltac:(lia)). pose proof (bo_le_len k w (snd x)).
      unfold to_span, sp. cbn [sbeg slen]. lia.
    - apply handled_texts. intros x I. now apply (all_items_in i l A).
  Qed.
End Items.

(** [match_seq] item by item. *)
Section SeqItems.
  Variable k : kind.
  Variable G : env.
  Variable p : pat.
  Variable w : text.

  Inductive SeqItems : nat -> list (nat * nat) -> Prop :=
  | seq_stop i : (i < length w -> ItemMiss k G p w i) -> SeqItems i []
  | seq_hit i j l : ItemHit k G p w i j -> SeqItems j l -> SeqItems i ((i, j) :: l).

  Lemma seq_items_in i l : SeqItems i l -> forall x, In x l ->
    i <= fst x /\ fst x < snd x /\ snd x <= length w.
  Proof.
    induction 1 as [i M|i j l H A IH]; intros x I; [easy|].
    destruct H as (H2 & _ & Hb & _). destruct I as [<-|I]; cbn [fst snd]; [lia|]. apply IH in I. lia.
  Qed.

  Lemma seq_items_byte i l : i <= length w -> SeqItems i l ->
    Contiguous k G p w (bo k w i) (map (to_span k w) l).
  Proof.
    intros Hi H. revert Hi. induction H as [i M|i j l H A IH]; intros Hi; cbn [map].
    - constructor. intros Lt. apply item_miss_byte. apply M.
      destruct (Nat.eq_dec i (length w)) as [->|]; [rewrite bo_len in Lt; lia|lia].
    - pose proof H as (H2 & _ & Hb & _). pose proof (bo_lt k w i j H2 ltac:(lia)).
      unfold to_span at 1. cbn [fst snd]. apply cont_hit.
      + rewrite <- bo_len. apply bo_lt; lia.
      + apply item_hit_byte; auto.
      + replace (bo k w i + (bo k w j - bo k w i)) with (bo k w j) by lia. apply IH. lia.
  Qed.

  Lemma match_seq_items i l : i <= length w -> SeqItems i l ->
    SeqAll extract_text G [] p (cx k w i) tt
      (map (fun x => VText (slice w (fst x) (snd x))) l) (cx k w (length w)) tt.
  Proof.
    intros Hi A. unfold cx. rewrite bo_len. pose proof (seq_items_byte i l Hi A) as B.
    apply match_seq_law. eapply handled_seq; eauto.
    - apply bo_le_len.
    - intros s I. apply in_map_iff in I. destruct I as (x & <- & I).
      apply (seq_items_in i l A) in I. destruct I as (_ & I1 & I2).
      pose proof (bo_lt k w (fst x) (snd x) I1 ltac:(lia)). pose proof (bo_le_len k w (snd x)).
      unfold to_span, sp. cbn [sbeg slen]. lia.
    - apply handled_texts. intros x I. now apply (seq_items_in i l A).
  Qed.

  Lemma seq_items_total i : core_env k G no_skip -> core k G no_skip p -> starts_here k G no_skip p ->
    i <= length w -> (forall x, i <= x -> x < length w -> exists r c', Returns G [] p (cx k w x) r c') ->
    exists l, SeqItems i l.
  Proof.
    intros CE C ST Hi A. remember (length w - i) as d eqn:Ed. assert (D : length w - i <= d) by lia. clear Ed.
    revert i Hi A D. induction d as [|d IH]; intros i Hi A D; [exists []; constructor; lia|].
    destruct (Nat.eq_dec i (length w)) as [->|N]; [exists []; constructor; lia|].
    destruct (A i ltac:(lia) ltac:(lia)) as (r & c' & R).
    destruct (policy_sound k G no_skip [] no_skip_skipper CE (no_skip_implements k G) p w i r c' C Hi R)
      as [(b & j & x & -> & -> & P & B)|(e & -> & -> & P)]; unfold no_skip in P.
    - pose proof (ST _ _ _ _ P) as E. subst b.
      apply (proj2 (matches_peg k G CE p w i i j C Hi)) in P. unfold no_skip in B.
      destruct (Nat.eq_dec i j) as [<-|Nj]; [exists []; constructor; intros _; now right|].
      destruct (IH j) as (l & Hl); try lia; [intros; apply A; lia|].
      exists ((i, j) :: l). constructor; auto. split; [lia|auto].
    - exists []. constructor. intros _. left. exists e. now apply (proj2 (fails_peg k G CE p w i e C Hi)).
  Qed.
End SeqItems.

(** An attempt that returns the same answer forever is never exhausted. *)
Lemma drain_forever {X} (next : M X (option val)) x v :
  fst (next x) = OOF \/ next x = (Ok (Some v), x) -> forall n, fst (drain n next x) = OOF.
Proof.
  intros H n. induction n as [|n IH]; [reflexivity|]. cbn [drain]. unfold bind.
  destruct H as [H|H].
  - destruct (next x) as [r x']. cbn [fst] in H. now subst r.
  - rewrite H. destruct (drain n next x) as [r x']. cbn [fst] in IH. now subst r.
Qed.

Lemma find_again {S} (h : handler S) G pols p c s v n :
  c_off c < ctx_len c -> 0 < slen s -> Returns G pols p c (Ok s) c ->
  forall st, h c s st = (Ok v, st) ->
  fst (find h n G pols p (c, st)) = OOF \/ find h n G pols p (c, st) = (Ok (Some v), (c, st)).
Proof.
  intros L P R st E. unfold find. destruct n as [|n]; [now left|].
  assert (T : fst (try_mat_top (Datatypes.S n) G pols p c) = OOF \/ try_mat_top (Datatypes.S n) G pols p c = (Ok s, c)).
  { apply returns_at in R. destruct R as (N & R).
    destruct (try_mat_mono (Datatypes.S n) (N + Datatypes.S n) G pols p ltac:(lia) c) as [F|F]; [now left|right].
    rewrite F. apply R. lia. }
  revert T. generalize (try_mat_top (Datatypes.S n) G pols p) as t. intros t T.
  cbn [find_with]. cbv [bind reads fst on_ctx catch].
  destruct (Nat.ltb_spec (c_off c) (ctx_len c)); [|lia].
  destruct T as [T|T].
  - destruct (t c) as [r c']. cbn [fst] in T. subst r. now left.
  - rewrite T. rewrite find_func_hit by auto. cbv [invoke]. cbn [fst snd]. rewrite E. now right.
Qed.
