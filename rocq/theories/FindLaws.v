(** Searching: [find], [find_all] and [match_seq]. *)

From Coq Require Import List Arith NArith Bool Lia Sorted.
From Verif Require Import Base Text Context Neu Syntax Regex Ctor Api TextProofs Spec Units Leaf
  Core Sound Mono ByteInv Obs Laws ApiLaws.
Import ListNotations.

(** [ctx.find(p)] with the extracting handler [h] returns [r]. *)
Definition Finds {S} (h : handler S) (G : env) (pols : list pat) (p : pat) (c : ctx) (s : S)
    (r : option val) (c' : ctx) (s' : S) : Prop :=
  exists N, forall n, N <= n -> find h n G pols p (c, s) = (Ok r, (c', s')).
(** The iterator [ctx.find_all(p)], polled until it is exhausted, yields [vs]. *)
Definition FindsAll {S} (h : handler S) (G : env) (pols : list pat) (p : pat) (c : ctx) (s : S)
    (vs : list val) (c' : ctx) (s' : S) : Prop :=
  exists N, forall n, N <= n -> find_all h n G pols p (c, s) = (Ok vs, (c', s')).
(** The same for [ctx.match_seq(p)]. *)
Definition SeqAll {S} (h : handler S) (G : env) (pols : list pat) (p : pat) (c : ctx) (s : S)
    (vs : list val) (c' : ctx) (s' : S) : Prop :=
  exists N, forall n, N <= n -> match_seq h n G pols p (c, s) = (Ok vs, (c', s')).

Section Find.
  Variable S : Type.
  Variable h : handler S.
  Variable k : kind.
  Variable G : env.
  Variable pols : list pat.
  Variable p : pat.
  Variable w : text.
  Notation at_ o := (Ctx k w o).
  Notation len := (tlen k w).

  (** One attempt at offset [o]: not a non-empty match, the cursor ends at [o']. *)
  Definition Quiet (o o' : nat) : Prop :=
    (exists e, Returns G pols p (at_ o) (Err e) (at_ o')) \/
    (exists b, Returns G pols p (at_ o) (Ok (Span b 0)) (at_ o')).
  (** A non-empty match. *)
  Definition Catch (o : nat) (s : span) (o' : nat) : Prop :=
    0 < slen s /\ Returns G pols p (at_ o) (Ok s) (at_ o').

  (** One poll of [find]/[find_all]; [next] is where the search goes on after a quiet attempt. *)
  Inductive Poll (next : nat -> nat) : nat -> S -> option val -> nat -> S -> Prop :=
  | poll_end o st : len <= o -> Poll next o st None o st
  | poll_hit o s o' st v st' :
      o < len -> Catch o s o' -> h (at_ o') s st = (Ok v, st') -> Poll next o st (Some v) o' st'
  | poll_reject o s o' st e st' r o2 st2 :
      o < len -> Catch o s o' -> h (at_ o') s st = (Err e, st') ->
      Poll next o' st' r o2 st2 -> Poll next o st r o2 st2
  | poll_quiet o o' st r o2 st2 :
      o < len -> Quiet o o' -> Poll next (next o') st r o2 st2 -> Poll next o st r o2 st2.

  Inductive Polls (next : nat -> nat) : nat -> S -> list val -> nat -> S -> Prop :=
  | polls_end o st o' st' : Poll next o st None o' st' -> Polls next o st [] o' st'
  | polls_more o st v o' st' vs o2 st2 :
      Poll next o st (Some v) o' st' -> Polls next o' st' vs o2 st2 ->
      Polls next o st (v :: vs) o2 st2.

  Lemma poll_sound next func :
    (forall s c, 0 < slen s -> func (inl s) c = (Ok (Some s), c)) ->
    (forall e o, func (inr e) (at_ o) = (Ok None, at_ (next o))) ->
    (forall b o, func (inl (Span b 0)) (at_ o) = (Ok None, at_ (next o))) ->
    forall o st r o' st', Poll next o st r o' st' ->
    exists N, forall n m, N <= n -> N <= m ->
      find_with n (try_mat_top m G pols p) func h (at_ o, st) = (Ok r, (at_ o', st')).
  Proof.
    intros F1 F2 F3 o st r o' st' H.
    induction H as [o st L|o s o' st v st' L [P R] E|o s o' st e st' r o2 st2 L [P R] E H (N & IH)
                   |o o' st r o2 st2 L Q H (N & IH)].
    - exists 1. intros [|n] m Hn Hm; [lia|]. cbn [find_with]. cbv [bind reads fst]. cbn [c_off].
      unfold ctx_len; cbn [c_kind c_dat]. destruct (Nat.ltb_spec o len); [lia|reflexivity].
    - apply returns_at in R. destruct R as (N & R). exists (Datatypes.S N).
      intros [|n] m Hn Hm; [lia|]. cbn [find_with]. cbv [bind reads fst on_ctx catch]. cbn [c_off].
      unfold ctx_len; cbn [c_kind c_dat]. destruct (Nat.ltb_spec o len); [|lia].
      rewrite R by lia. rewrite F1 by auto. cbv [invoke]. cbn [fst snd]. now rewrite E.
    - apply returns_at in R. destruct R as (N' & R). exists (Datatypes.S (N + N')).
      intros [|n] m Hn Hm; [lia|]. cbn [find_with]. cbv [bind reads fst on_ctx catch]. cbn [c_off].
      unfold ctx_len; cbn [c_kind c_dat]. destruct (Nat.ltb_spec o len); [|lia].
      rewrite R by lia. rewrite F1 by auto. cbv [invoke]. cbn [fst snd]. rewrite E.
      apply IH; lia.
    - destruct Q as [(e & R)|(b & R)]; apply returns_at in R; destruct R as (N' & R);
        exists (Datatypes.S (N + N'));
        intros [|n] m Hn Hm; try lia; cbn [find_with]; cbv [bind reads fst on_ctx catch]; cbn [c_off];
        unfold ctx_len; cbn [c_kind c_dat]; destruct (Nat.ltb_spec o len); try lia;
        rewrite R by lia; rewrite ?F2, ?F3; cbn [snd]; apply IH; lia.
  Qed.

  Lemma polls_sound next func :
    (forall s c, 0 < slen s -> func (inl s) c = (Ok (Some s), c)) ->
    (forall e o, func (inr e) (at_ o) = (Ok None, at_ (next o))) ->
    (forall b o, func (inl (Span b 0)) (at_ o) = (Ok None, at_ (next o))) ->
    forall o st vs o' st', Polls next o st vs o' st' ->
    exists N, forall n m, N <= n -> N <= m ->
      drain n (find_with m (try_mat_top m G pols p) func h) (at_ o, st) = (Ok vs, (at_ o', st')).
  Proof.
    intros F1 F2 F3 o st vs o' st' H. induction H as [o st o' st' H|o st v o' st' vs o2 st2 H Hs (N & IH)];
      destruct (poll_sound next func F1 F2 F3 _ _ _ _ _ H) as (N' & P).
    - exists (Datatypes.S N'). intros [|n] m Hn Hm; [lia|]. cbn [drain]. unfold bind. now rewrite P by lia.
    - exists (Datatypes.S (N + N')). intros [|n] m Hn Hm; [lia|]. cbn [drain]. unfold bind.
      rewrite P, IH by lia. reflexivity.
  Qed.

  Lemma find_func_hit s (c : ctx) : 0 < slen s -> find_func (inl s) c = (Ok (Some s), c).
  Proof. intros L. unfold find_func, span_is_empty. destruct (Nat.eqb_spec (slen s) 0); [lia|reflexivity]. Qed.
  Lemma seq_func_hit s (c : ctx) : 0 < slen s -> seq_func (inl s) c = (Ok (Some s), c).
  Proof. intros L. unfold seq_func, span_is_empty. destruct (Nat.eqb_spec (slen s) 0); [lia|reflexivity]. Qed.

  Lemma find_law o st r o' st' : Poll (fun x => x + 1) o st r o' st' ->
    Finds h G pols p (at_ o) st r (at_ o') st'.
  Proof.
    intros H. apply (poll_sound (fun x => x + 1) find_func) in H; [|apply find_func_hit|reflexivity..].
    destruct H as (N & H). exists N. intros n Hn. now apply H.
  Qed.
  Lemma find_all_law o st vs o' st' : Polls (fun x => x + 1) o st vs o' st' ->
    FindsAll h G pols p (at_ o) st vs (at_ o') st'.
  Proof.
    intros H. apply (polls_sound (fun x => x + 1) find_func) in H; [|apply find_func_hit|reflexivity..].
    destruct H as (N & H). exists N. intros n Hn. now apply H.
  Qed.
  Lemma match_seq_law o st vs o' st' : Polls (fun _ => len) o st vs o' st' ->
    SeqAll h G pols p (at_ o) st vs (at_ o') st'.
  Proof.
    intros H. apply (polls_sound (fun _ => len) seq_func) in H; [|apply seq_func_hit|reflexivity..].
    destruct H as (N & H). exists N. intros n Hn. now apply H.
  Qed.
End Find.

(** A handler applied to the spans [l] one after the other, each time with the cursor at the end of
    the span; the spans it rejects are dropped. *)
Inductive Handled {S} (h : handler S) (k : kind) (w : text) : list span -> S -> list val -> S -> Prop :=
| handled_nil st : Handled h k w [] st [] st
| handled_ok s l st v st1 vs st2 :
    h (Ctx k w (sbeg s + slen s)) s st = (Ok v, st1) -> Handled h k w l st1 vs st2 ->
    Handled h k w (s :: l) st (v :: vs) st2
| handled_err s l st e st1 vs st2 :
    h (Ctx k w (sbeg s + slen s)) s st = (Err e, st1) -> Handled h k w l st1 vs st2 ->
    Handled h k w (s :: l) st vs st2.

Section Plain.
  Variable k : kind.
  Variable G : env.
  Variable p : pat.
  Variable w : text.
  Notation at_ o := (Ctx k w o).
  Notation len := (tlen k w).

  (** At offset [o] the parser does not match, or matches nothing; the cursor stays. *)
  Definition Misses (o : nat) : Prop :=
    (exists e, Returns G [] p (at_ o) (Err e) (at_ o)) \/
    Returns G [] p (at_ o) (Ok (Span o 0)) (at_ o).
  (** At offset [o] it matches the [n > 0] bytes from [o] on. *)
  Definition Hits (o n : nat) : Prop :=
    0 < n /\ Returns G [] p (at_ o) (Ok (Span o n)) (at_ (o + n)).

  (** [o'] is the first offset from [o] on where it matches something: [n] bytes. *)
  Definition FirstHit (o o' n : nat) : Prop :=
    o <= o' /\ o' < len /\ (forall x, o <= x -> x < o' -> Misses x) /\ Hits o' n.

  (** The spans found by scanning from [o]: the first hit, then on from its end. *)
  Inductive AllHits : nat -> list span -> Prop :=
  | all_none o : (forall x, o <= x -> x < len -> Misses x) -> AllHits o []
  | all_hit o o' n l : FirstHit o o' n -> AllHits (o' + n) l -> AllHits o (Span o' n :: l).

  (** The spans matched back to back from [o] on, until a miss or the end of the text. *)
  Inductive Contiguous : nat -> list span -> Prop :=
  | cont_stop o : (o < len -> Misses o) -> Contiguous o []
  | cont_hit o n l : o < len -> Hits o n -> Contiguous (o + n) l -> Contiguous o (Span o n :: l).

  Section Run.
    Variable S : Type.
    Variable h : handler S.

    Lemma poll_skip next o o' st r o2 st2 : (forall x, next x = x + 1) ->
      o <= o' -> o' <= len -> (forall x, o <= x -> x < o' -> Misses x) ->
      Poll S h k G [] p w next o' st r o2 st2 -> Poll S h k G [] p w next o st r o2 st2.
    Proof.
      intros EN L L2 M H. remember (o' - o) as d eqn:Ed. revert o L M Ed.
      induction d as [|d IH]; intros o L M Ed.
      - now replace o with o' by lia.
      - apply poll_quiet with o; [lia| |].
        + destruct (M o ltac:(lia) ltac:(lia)) as [E|E]; [now left|right; eauto].
        + rewrite EN. apply IH; try lia. intros x A B. apply M; lia.
    Qed.

    Lemma find_first o o' n st v st' : FirstHit o o' n ->
      h (at_ (o' + n)) (Span o' n) st = (Ok v, st') ->
      Finds h G [] p (at_ o) st (Some v) (at_ (o' + n)) st'.
    Proof.
      intros (L & L2 & M & P & R) E. apply find_law. apply poll_skip with o'; auto; [lia|].
      eapply poll_hit; eauto. split; eauto.
    Qed.

    Lemma find_none o st : o <= len -> (forall x, o <= x -> x < len -> Misses x) ->
      Finds h G [] p (at_ o) st None (at_ len) st.
    Proof.
      intros L M. apply find_law. apply poll_skip with len; auto. constructor. lia.
    Qed.

    Lemma handled_polls next o l st vs st' : (forall x, next x = x + 1) ->
      o <= len -> AllHits o l -> (forall s, In s l -> sbeg s + slen s <= len) ->
      Handled h k w l st vs st' -> Polls S h k G [] p w next o st vs len st'.
    Proof.
      intros EN Lo A B H. revert o Lo A B.
      induction H as [st|s l st v st1 vs st2 E H IH|s l st e st1 vs st2 E H IH]; intros o Lo A B;
        inversion A; subst.
      - constructor. apply poll_skip with len; auto. constructor. lia.
      - match goal with H : FirstHit _ _ _ |- _ => destruct H as (L & L2 & M & P & R) end.
        pose proof (B _ (or_introl eq_refl)) as Hs. cbn [sbeg slen] in *.
        eapply polls_more; [|apply IH; eauto; intros; apply B; now right].
        apply poll_skip with o'; auto; [lia|]. eapply poll_hit; eauto. now split.
      - match goal with H : FirstHit _ _ _ |- _ => destruct H as (L & L2 & M & P & R) end.
        pose proof (B _ (or_introl eq_refl)) as Hs. cbn [sbeg slen] in *.
        assert (PS : Polls S h k G [] p w next (o' + n) st1 vs len st2)
          by (apply IH; auto; intros; apply B; now right).
        assert (Q : forall r o2 s2, Poll S h k G [] p w next (o' + n) st1 r o2 s2 ->
                      Poll S h k G [] p w next o st r o2 s2).
        { intros r o2 s2 Hq. apply poll_skip with o'; auto; [lia|]. eapply poll_reject; eauto. now split. }
        inversion PS; subst; [apply polls_end|eapply polls_more]; eauto.
    Qed.

    Lemma handled_seq next o l st vs st' : (forall x, next x = len) ->
      o <= len -> Contiguous o l -> (forall s, In s l -> sbeg s + slen s <= len) ->
      Handled h k w l st vs st' -> Polls S h k G [] p w next o st vs len st'.
    Proof.
      intros EN Lo A B H. revert o Lo A B.
      induction H as [st|s l st v st1 vs st2 E H IH|s l st e st1 vs st2 E H IH]; intros o Lo A B;
        inversion A; subst.
      - constructor. destruct (Nat.eq_dec o len) as [->|N]; [constructor; lia|].
        apply poll_quiet with o; [lia| |].
        + match goal with H : _ -> Misses _ |- _ => destruct (H ltac:(lia)) as [Q|Q] end;
            [now left|right; eauto].
        + rewrite EN. constructor. lia.
      - pose proof (B _ (or_introl eq_refl)) as Hs. cbn [sbeg slen] in *.
        match goal with H : Hits _ _ |- _ => destruct H as (P & R) end.
        eapply polls_more; [|apply IH; eauto; intros; apply B; now right].
        eapply poll_hit; eauto. now split.
      - pose proof (B _ (or_introl eq_refl)) as Hs. cbn [sbeg slen] in *.
        match goal with H : Hits _ _ |- _ => destruct H as (P & R) end.
        assert (PS : Polls S h k G [] p w next (o + n) st1 vs len st2)
          by (apply IH; auto; intros; apply B; now right).
        assert (Q : forall r o2 s2, Poll S h k G [] p w next (o + n) st1 r o2 s2 ->
                      Poll S h k G [] p w next o st r o2 s2).
        { intros r o2 s2 Hq. eapply poll_reject; eauto. now split. }
        inversion PS; subst; [apply polls_end|eapply polls_more]; eauto.
    Qed.
  End Run.

  Section Tame.
    Variable te : bool.
    Hypothesis TE : tame_env G te.
    Hypothesis TP : tame te true p.

    Lemma attempt_cases o r c' : o <= len -> Returns G [] p (at_ o) r c' ->
      Misses o \/ exists n, Hits o n /\ o + n <= len.
    Proof.
      intros L R. destruct R as (N & E & Hr).
      pose proof (parse_b G te TE N [] true p (at_ o) TP L) as B.
      unfold try_mat_top, try_mat in E. rewrite E in B.
      inversion B; subst; try congruence; cbn [c_off c_kind c_dat] in *.
      - match goal with H : true = true -> _ |- _ => specialize (H eq_refl) end. subst.
        destruct n as [|n].
        + left. right. rewrite Nat.add_0_r in E. exists N. split; [exact E|discriminate].
        + right. exists (S n). split; [split; [lia|]|assumption].
          exists N. split; [exact E|discriminate].
      - left. left. exists e. exists N. split; [exact E|discriminate].
    Qed.

    Lemma hits_bound o n : o <= len -> Hits o n -> o + n <= len.
    Proof.
      intros L (P & N & E & Hr).
      pose proof (parse_b G te TE N [] true p (at_ o) TP L) as B.
      unfold try_mat_top, try_mat in E. rewrite E in B. inversion B; subst. assumption.
    Qed.

    Definition Answers (o : nat) : Prop := exists r c', Returns G [] p (at_ o) r c'.

    Lemma first_hit_total o : o <= len -> (forall x, o <= x -> x < len -> Answers x) ->
      (exists o' n, FirstHit o o' n) \/ (forall x, o <= x -> x < len -> Misses x).
    Proof.
      intros L A. remember (len - o) as d eqn:Ed. revert o L A Ed.
      induction d as [|d IH]; intros o L A Ed; [right; lia|].
      destruct (A o ltac:(lia) ltac:(lia)) as (r & c' & R).
      destruct (attempt_cases o r c' L R) as [M|(n & H & Hn)].
      - destruct (IH (S o)) as [(o' & n & L1 & L2 & M' & H)|M']; try lia; [intros; apply A; lia| |].
        + left. exists o', n. repeat split; try apply H; try lia. intros x X1 X2.
          destruct (Nat.eq_dec x o) as [->|]; [auto|]. apply M'; lia.
        + right. intros x X1 X2. destruct (Nat.eq_dec x o) as [->|]; [auto|]. apply M'; lia.
      - left. exists o, n. repeat split; try apply H; try lia.
    Qed.

    Lemma all_hits_total o : o <= len -> (forall x, o <= x -> x < len -> Answers x) ->
      exists l, AllHits o l.
    Proof.
      intros L A. remember (len - o) as d eqn:Ed.
      assert (D : len - o <= d) by lia. clear Ed. revert o L A D.
      induction d as [|d IH]; intros o L A D.
      - exists []. constructor. lia.
      - destruct (first_hit_total o L A) as [(o' & n & H)|M]; [|exists []; now constructor].
        pose proof H as (L1 & L2 & M & Hh). pose proof (hits_bound o' n ltac:(lia) Hh) as B.
        destruct Hh as (P & _).
        destruct (IH (o' + n)) as (l & Hl); try lia; [intros; apply A; lia|].
        exists (Span o' n :: l). econstructor; eauto.
    Qed.

    Lemma contiguous_total o : o <= len -> (forall x, o <= x -> x < len -> Answers x) ->
      exists l, Contiguous o l.
    Proof.
      intros L A. remember (len - o) as d eqn:Ed.
      assert (D : len - o <= d) by lia. clear Ed. revert o L A D.
      induction d as [|d IH]; intros o L A D.
      - exists []. constructor. lia.
      - destruct (Nat.eq_dec o len) as [->|N]; [exists []; constructor; lia|].
        destruct (A o ltac:(lia) ltac:(lia)) as (r & c' & R).
        destruct (attempt_cases o r c' L R) as [M|(n & H & Hn)]; [exists []; now constructor|].
        pose proof H as (P & _).
        destruct (IH (o + n)) as (l & Hl); try lia; [intros; apply A; lia|].
        exists (Span o n :: l). constructor; auto. lia.
    Qed.

    Lemma all_hits_in o l : AllHits o l -> forall s, In s l ->
      o <= sbeg s /\ 0 < slen s /\ sbeg s + slen s <= len.
    Proof.
      induction 1 as [o M|o o' n l H A IH]; intros s I; [easy|].
      destruct H as (L1 & L2 & M & Hh). pose proof (hits_bound o' n ltac:(lia) Hh). destruct Hh as (P & _).
      destruct I as [<-|I]; cbn [sbeg slen]; [lia|]. apply IH in I. lia.
    Qed.

    Lemma all_hits_sorted o l : AllHits o l ->
      StronglySorted (fun a b => sbeg a + slen a <= sbeg b) l.
    Proof.
      induction 1 as [o M|o o' n l H A IH]; constructor; auto.
      apply Forall_forall. intros s I. apply (all_hits_in _ _ A) in I. cbn [sbeg slen]. lia.
    Qed.

    Lemma all_hits_complete o l : AllHits o l -> forall x, o <= x -> x < len ->
      Misses x \/ exists s, In s l /\ sbeg s <= x /\ x < sbeg s + slen s.
    Proof.
      induction 1 as [o M|o o' n l H A IH]; intros x X1 X2; [left; auto|].
      destruct H as (L1 & L2 & M & Hh).
      destruct (Nat.lt_ge_cases x o') as [C|C]; [left; auto|].
      destruct (Nat.lt_ge_cases x (o' + n)) as [C'|C'].
      - right. exists (Span o' n). repeat split; auto. now left.
      - destruct (IH x C' X2) as [M'|(s & I & B)]; [now left|right]. exists s. split; [now right|auto].
    Qed.

    Lemma contiguous_in o l : o <= len -> Contiguous o l -> forall s, In s l ->
      o <= sbeg s /\ 0 < slen s /\ sbeg s + slen s <= len.
    Proof.
      intros L C. revert L. induction C as [o M|o n l L' H C IH]; intros L s I; [easy|].
      pose proof (hits_bound o n L H) as B. destruct H as (P & _).
      destruct I as [<-|I]; cbn [sbeg slen]; [lia|]. apply (IH B) in I. lia.
    Qed.

    Lemma find_all_spans {S} (h : handler S) o l st vs st' :
      o <= len -> AllHits o l -> Handled h k w l st vs st' ->
      FindsAll h G [] p (at_ o) st vs (at_ len) st'.
    Proof.
      intros L A H. apply find_all_law. eapply handled_polls; eauto.
      intros s I. now apply (all_hits_in _ _ A).
    Qed.

    Lemma match_seq_spans {S} (h : handler S) o l st vs st' :
      o <= len -> Contiguous o l -> Handled h k w l st vs st' ->
      SeqAll h G [] p (at_ o) st vs (at_ len) st'.
    Proof.
      intros L A H. apply match_seq_law. eapply handled_seq; eauto.
      intros s I. now apply (contiguous_in _ _ L A).
    Qed.
  End Tame.
End Plain.

(** A handler that accepts every span yields one value per span. *)
Lemma handled_spans k w l st : Handled extract_span k w l st (map VSpan l) st.
Proof. induction l as [|s l IH]; cbn [map]; [constructor|]. eapply handled_ok; [reflexivity|exact IH]. Qed.
