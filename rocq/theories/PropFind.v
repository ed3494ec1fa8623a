(** C25, C26: searching. *)

From Coq Require Import List Arith NArith Bool Lia Sorted.
From Verif Require Import Base Text Context Neu Syntax Regex Ctor Api TextProofs Spec Core Obs ByteInv
  Consumes TermLaws CtorSpec CtorLaws Inside FindLaws FindItems Samples.
Import ListNotations.

(** ** C25: find and find_all

    Offsets are byte offsets.  [Hits o n]: started at [o] the parser matches the [n > 0] bytes from
    [o] on; [Misses o]: it fails or matches nothing, and the cursor stays.  [FirstHit o o' n]: [o'] is
    the first offset from [o] on that hits.  [AllHits o l]: [l] are the hits of a left-to-right scan
    that goes on at the end of each hit (FindLaws.v). *)

(** [find] returns what the handler makes of the first hit and leaves the cursor at its end. *)
Theorem C25_find : forall k G p w S (h : handler S) o o' n st v st',
  FirstHit k G p w o o' n -> h (Ctx k w (o' + n)) (Span o' n) st = (Ok v, st') ->
  Finds h G [] p (Ctx k w o) st (Some v) (Ctx k w (o' + n)) st'.
Proof. exact find_first. Qed.

(** If there is no hit up to the end of the text, it returns [None] and the cursor is at the end. *)
Theorem C25_find_none : forall k G p w S (h : handler S) o st, o <= tlen k w ->
  (forall x, o <= x -> x < tlen k w -> Misses k G p w x) ->
  Finds h G [] p (Ctx k w o) st None (Ctx k w (tlen k w)) st.
Proof. exact find_none. Qed.

(** There are no other cases if the parser itself always returns. *)
Theorem C25_find_cases : forall k G p w te, tame_env G te -> tame te true p ->
  forall o, o <= tlen k w -> (forall x, o <= x -> x < tlen k w -> Answers k G p w x) ->
  (exists o' n, FirstHit k G p w o o' n) \/ (forall x, o <= x -> x < tlen k w -> Misses k G p w x).
Proof. exact first_hit_total. Qed.

(** [find_all] yields, in order, what the handler makes of the hits (spans the handler rejects are
    dropped), and is exhausted with the cursor at the end of the text. *)
Theorem C25_find_all : forall k G p w te, tame_env G te -> tame te true p ->
  forall S (h : handler S) o l st vs st', o <= tlen k w -> AllHits k G p w o l ->
  Handled h k w l st vs st' -> FindsAll h G [] p (Ctx k w o) st vs (Ctx k w (tlen k w)) st'.
Proof. exact @find_all_spans. Qed.
Corollary C25_find_all_spans : forall k G p w te, tame_env G te -> tame te true p ->
  forall o l, o <= tlen k w -> AllHits k G p w o l ->
  FindsAll extract_span G [] p (Ctx k w o) tt (map VSpan l) (Ctx k w (tlen k w)) tt.
Proof. intros. eapply C25_find_all; eauto. apply handled_spans. Qed.

(** The scan ends, for every parser that returns at every offset. *)
Theorem C25_find_all_ends : forall k G p w te, tame_env G te -> tame te true p ->
  forall o, o <= tlen k w -> (forall x, o <= x -> x < tlen k w -> Answers k G p w x) ->
  exists l, AllHits k G p w o l.
Proof. exact all_hits_total. Qed.

(** The spans are non-empty, lie in the text, increase and do not overlap. *)
Theorem C25_find_all_ordered : forall k G p w te, tame_env G te -> tame te true p ->
  forall o l, AllHits k G p w o l ->
  StronglySorted (fun a b => sbeg a + slen a <= sbeg b) l /\
  forall s, In s l -> o <= sbeg s /\ 0 < slen s /\ sbeg s + slen s <= tlen k w.
Proof.
  intros k G p w te TE TP o l A. split; [exact (all_hits_sorted k G p w te TE TP o l A)|].
  exact (all_hits_in k G p w te TE TP o l A).
Qed.

(** No match is skipped: an offset outside the spans is a miss. *)
Theorem C25_find_all_complete : forall k G p w o l, AllHits k G p w o l ->
  forall x, o <= x -> x < tlen k w ->
  Misses k G p w x \/ exists s, In s l /\ sbeg s <= x /\ x < sbeg s + slen s.
Proof. exact all_hits_complete. Qed.

(** An exhausted iterator stays exhausted, in any context. *)
Theorem C25_exhausted : forall k G pols p w S (h : handler S) o st, tlen k w <= o ->
  Finds h G pols p (Ctx k w o) st None (Ctx k w o) st.
Proof. intros. apply find_law. now constructor. Qed.

(** In any context: [find] goes on one byte after where a failed or empty attempt left the cursor,
    and after the end of a match that the handler rejects. *)
Theorem C25_find_any_context : forall S (h : handler S) k G pols p w o st r o' st',
  Poll S h k G pols p w (fun x => x + 1) o st r o' st' ->
  Finds h G pols p (Ctx k w o) st r (Ctx k w o') st'.
Proof. exact find_law. Qed.
Theorem C25_find_all_any_context : forall S (h : handler S) k G pols p w o st vs o' st',
  Polls S h k G pols p w (fun x => x + 1) o st vs o' st' ->
  FindsAll h G pols p (Ctx k w o) st vs (Ctx k w o') st'.
Proof. exact find_all_law. Qed.

(** The same in terms of items, for [str] as well as for bytes: although [find] also tries the byte
    offsets inside characters, parsers that look at the text before they move ([looks]) match nothing
    there.  [FirstItem i a b]: the first item from [i] on where the parser matches something is [a],
    and it matches the items [a .. b-1]. *)
Theorem C25_find_items : forall k G p w K rk L m,
  core_env k G no_skip -> looks_env G ->
  (forall x q, env_get G x = Some q -> K x = true -> consumes K q = true) ->
  (forall x q, env_get G x = Some q -> wfb K rk L (rk x) q = true) ->
  core k G no_skip p -> looks p -> wfb K rk L m p = true ->
  forall S (h : handler S) i a b st v st', i <= length w -> FirstItem k G p w i a b ->
  h (cx k w b) (sp k w a b) st = (Ok v, st') ->
  Finds h G [] p (cx k w i) st (Some v) (cx k w b) st'.
Proof. intros. eapply find_item; eauto. Qed.
Theorem C25_find_items_none : forall k G p w K rk L m,
  core_env k G no_skip -> looks_env G ->
  (forall x q, env_get G x = Some q -> K x = true -> consumes K q = true) ->
  (forall x q, env_get G x = Some q -> wfb K rk L (rk x) q = true) ->
  core k G no_skip p -> looks p -> wfb K rk L m p = true ->
  forall S (h : handler S) i st, i <= length w ->
  (forall x, i <= x -> x < length w -> ItemMiss k G p w x) ->
  Finds h G [] p (cx k w i) st None (cx k w (length w)) st.
Proof. intros. eapply find_no_item; eauto. Qed.
(** [find_all] yields the texts of the matches of the scan by items; the scan always exists. *)
Theorem C25_find_all_items : forall k G p w K rk L m,
  core_env k G no_skip -> looks_env G ->
  (forall x q, env_get G x = Some q -> K x = true -> consumes K q = true) ->
  (forall x q, env_get G x = Some q -> wfb K rk L (rk x) q = true) ->
  core k G no_skip p -> looks p -> wfb K rk L m p = true ->
  forall i, i <= length w ->
  exists l, AllItems k G p w i l /\
    (forall x, In x l -> i <= fst x /\ fst x < snd x /\ snd x <= length w) /\
    FindsAll extract_text G [] p (cx k w i) tt
      (map (fun x => VText (slice w (fst x) (snd x))) l) (cx k w (length w)) tt.
Proof.
  intros k G p w K rk L m CE LE KE WE C LP W i Hi.
  destruct (all_items_total k G p w K rk L m CE LE KE WE C LP W i Hi) as (l & A). exists l.
  split; [exact A|]. split; [exact (all_items_in k G p w i l A)|].
  exact (find_all_items k G p w K rk L m LE KE WE LP W i l Hi A).
Qed.

(** "aé1€23": the numbers. *)
Definition haystack : text := [97; 233; 49; 8364; 50; 51]%N.
Example C25_case : tame_env [] true /\ tame true true number /\
  AllHits KStr [] number haystack 0 [Span 3 1; Span 7 2].
Proof.
  split; [no_env|]. split; [shape|].
  assert (M : forall x, x < 9 -> x <> 3 -> x <> 7 -> x <> 8 -> Misses KStr [] number haystack x).
  { intros x H A B C. left.
    do 9 (destruct x as [|x]; [try lia; first [exists EMany1; now returns 3|exists EOutOfBound; now returns 3]|]).
    lia. }
  apply all_hit.
  - split; [lia|]. split; [vm_compute; lia|]. split; [intros; apply M; lia|].
    split; [lia|]. returns 3.
  - apply all_hit.
    + split; [lia|]. split; [vm_compute; lia|]. split; [intros; apply M; lia|].
      split; [lia|]. returns 3.
    + constructor. intros x A B. vm_compute in B. lia.
Qed.
Example C25_items_case : core_env KStr nested_env no_skip /\ looks_env nested_env /\
  (forall x q, env_get nested_env x = Some q -> true = true -> consumes (fun _ => true) q = true) /\
  (forall x q, env_get nested_env x = Some q -> wfb (fun _ => true) (fun _ => 0) 1 0 q = true) /\
  core KStr nested_env no_skip (PRef 0) /\ looks (PRef 0) /\ wfb (fun _ => true) (fun _ => 0) 1 1 (PRef 0) = true.
Proof.
  split; [closed_env; shape|]. split; [closed_env; shape|]. split; [closed_env; reflexivity|].
  split; [closed_env; reflexivity|]. split; [shape|]. split; [shape|reflexivity].
Qed.
(** The values for "aé1€23" by running the model. *)
Example C25_run : find_all extract_text 20 [] [] number (cx KStr haystack 0, tt)
  = (Ok [VText [49]; VText [50; 51]], (cx KStr haystack 6, tt))%N.
Proof. vm_compute. reflexivity. Qed.

(** What does not hold.

    Inside a character a negative look-ahead is true, so a parser that then consumes blindly is found
    there: on "é" the parser [not("é").then(consume_all())] matches at no character and yet [find]
    returns a span in the middle of the character. *)
Theorem C25_inside_character_refuted : exists p w s c',
  core KStr [] no_skip p /\ (forall i j, i < length w -> ~ ItemHit KStr [] p w i j) /\
  Finds extract_span [] [] p (cx KStr w 0) tt (Some (VSpan s)) c' tt /\
  drop_at KStr w (sbeg s) = None.
Proof.
  exists (PThen (PAssert (PLit [233]%N) false) PConsumeAll), [233]%N, (Span 1 1), (cx KStr [233]%N 1).
  assert (C : core KStr [] no_skip (PThen (PAssert (PLit [233]%N) false) PConsumeAll)) by shape.
  split; [exact C|]. split.
  - intros [|i] j Hi (_ & M); [|cbn in Hi; lia].
    assert (F : Fails KStr [] (PThen (PAssert (PLit [233]%N) false) PConsumeAll) [233]%N 0 EAssertFalse) by fails 5.
    assert (CE : core_env KStr [] no_skip) by no_env.
    exact (Laws.matches_fails KStr [] CE _ _ 0 _ _ _ C (Nat.le_0_l _) M F).
  - split; [|reflexivity]. unfold cx. cbn [bo firstn tlen width]. apply C25_find_any_context.
    apply poll_quiet with 0; [vm_compute; lia|left; exists EAssertFalse; returns 6|].
    eapply poll_hit; [vm_compute; lia| |reflexivity]. split; [cbn; lia|]. returns 6.
Qed.

(** A longest-match container leaves the cursor where its last alternative left it; if that is the
    start, [find_all] yields the same match forever. *)
Theorem C25_longest_container_refuted : exists p w,
  Returns [] [] p (cx KStr w 0) (Ok (Span 0 2)) (cx KStr w 0) /\
  forall n, fst (find_all extract_span n [] [] p (cx KStr w 0, tt)) = OOF.
Proof.
  exists (PChoice EArray true [PLit [97; 98]; PLit [120]])%N, [97; 98]%N.
  assert (R : Returns [] [] (PChoice EArray true [PLit [97; 98]; PLit [120]])%N (cx KStr [97; 98]%N 0)
                (Ok (Span 0 2)) (cx KStr [97; 98]%N 0)) by returns 5.
  split; [exact R|]. intros n. unfold find_all. apply drain_forever with (VSpan (Span 0 2)).
  apply find_again with (Span 0 2); auto; vm_compute; lia.
Qed.

(** Under a skipping policy a failed attempt leaves the cursor after the skipped text, so the step of
    one byte can leave the text: after [find] has returned [None] the cursor is past the end, and
    matching anything that looks at the text panics. *)
Theorem C25_policy_overrun_refuted : exists p w c',
  Finds extract_span [] skip_ascii_whitespace p (cx KStr w 0) tt None c' tt /\
  tlen KStr w < c_off c' /\ exists c'', Returns [] [] p c' Panic c''.
Proof.
  exists (PLit [97])%N, [32]%N, (Ctx KStr [32]%N 2).
  split.
  - unfold cx. cbn [bo firstn tlen width]. apply C25_find_any_context.
    apply poll_quiet with 1; [vm_compute; lia|left; exists ELiteral; returns 6|].
    constructor. vm_compute. lia.
  - split; [vm_compute; lia|]. exists (Ctx KStr [32]%N 2). returns 5.
Qed.

(** ** C26: match_seq

    [Contiguous o l]: the hits starting at [o], then at the end of the first hit, and so on, until a
    miss or the end of the text. *)
Theorem C26_match_seq : forall k G p w te, tame_env G te -> tame te true p ->
  forall S (h : handler S) o l st vs st', o <= tlen k w -> Contiguous k G p w o l ->
  Handled h k w l st vs st' -> SeqAll h G [] p (Ctx k w o) st vs (Ctx k w (tlen k w)) st'.
Proof. exact @match_seq_spans. Qed.
Theorem C26_match_seq_ends : forall k G p w te, tame_env G te -> tame te true p ->
  forall o, o <= tlen k w -> (forall x, o <= x -> x < tlen k w -> Answers k G p w x) ->
  exists l, Contiguous k G p w o l.
Proof. exact contiguous_total. Qed.
(** Each span starts where the previous one ended. *)
Theorem C26_contiguous : forall k G p w o l, Contiguous k G p w o l ->
  forall n s, nth_error l n = Some s ->
  0 < slen s /\
  sbeg s = match n with
           | 0 => o
           | S n' => match nth_error l n' with Some s' => sbeg s' + slen s' | None => 0 end
           end.
Proof.
  induction 1 as [o M|o n l L H C IH]; intros [|m] s E; try discriminate E.
  - injection E as <-. split; [apply H|reflexivity].
  - cbn [nth_error] in E. destruct (IH m s E) as [A B]. split; [auto|]. rewrite B.
    destruct m as [|m]; [reflexivity|]. cbn [nth_error]. reflexivity.
Qed.
(** By items, on [str] as well as on bytes. *)
Theorem C26_match_seq_items : forall k G p w i l, i <= length w -> SeqItems k G p w i l ->
  SeqAll extract_text G [] p (cx k w i) tt
    (map (fun x => VText (slice w (fst x) (snd x))) l) (cx k w (length w)) tt.
Proof. exact match_seq_items. Qed.
Theorem C26_items_end : forall k G p w i,
  core_env k G no_skip -> core k G no_skip p -> starts_here k G no_skip p -> i <= length w ->
  (forall x, i <= x -> x < length w -> exists r c', Returns G [] p (cx k w x) r c') ->
  exists l, SeqItems k G p w i l.
Proof. exact seq_items_total. Qed.
Theorem C26_match_seq_any_context : forall S (h : handler S) k G pols p w o st vs o' st',
  Polls S h k G pols p w (fun _ => tlen k w) o st vs o' st' ->
  SeqAll h G pols p (Ctx k w o) st vs (Ctx k w o') st'.
Proof. exact match_seq_law. Qed.

(** "1,2é3,": two numbers with commas, then a failure. *)
Definition pairs : text := [49; 44; 50; 44; 233; 51; 44]%N.
Example C26_case : SeqItems KStr [] (PThen number comma) pairs 0 [(0, 2); (2, 4)].
Proof.
  apply seq_hit; [split; [lia|matches 5]|]. apply seq_hit; [split; [lia|matches 5]|].
  apply seq_stop. intros _. left. exists EMany1. fails 5.
Qed.
Example C26_bytes_case : tame_env [] true /\ tame true true (PThen number comma) /\
  Contiguous KStr [] (PThen number comma) pairs 0 [Span 0 2; Span 2 2].
Proof.
  split; [no_env|]. split; [shape|].
  apply cont_hit; [vm_compute; lia|split; [lia|returns 5]|].
  apply cont_hit; [vm_compute; lia|split; [lia|returns 5]|].
  apply cont_stop. intros _. left. exists EMany1. returns 5.
Qed.

Print Assumptions C25_find.
Print Assumptions C25_find_none.
Print Assumptions C25_find_cases.
Print Assumptions C25_find_all.
Print Assumptions C25_find_all_spans.
Print Assumptions C25_find_all_ends.
Print Assumptions C25_find_all_ordered.
Print Assumptions C25_find_all_complete.
Print Assumptions C25_exhausted.
Print Assumptions C25_find_any_context.
Print Assumptions C25_find_all_any_context.
Print Assumptions C25_find_items.
Print Assumptions C25_find_items_none.
Print Assumptions C25_find_all_items.
Print Assumptions C25_inside_character_refuted.
Print Assumptions C25_longest_container_refuted.
Print Assumptions C25_policy_overrun_refuted.
Print Assumptions C26_match_seq.
Print Assumptions C26_match_seq_ends.
Print Assumptions C26_contiguous.
Print Assumptions C26_match_seq_items.
Print Assumptions C26_items_end.
Print Assumptions C26_match_seq_any_context.
