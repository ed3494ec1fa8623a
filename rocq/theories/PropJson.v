(** C55: the JSON parser of examples/json.rs accepts exactly the texts that begin with a spelling of an
    array or an object (Json.v), returns the value spelled, and leaves the cursor behind the spelling. *)

From Coq Require Import List Arith NArith ZArith Bool Lia String Ascii.
From Verif Require Import Base Text Context Neu Syntax Regex Ctor Api TextProofs Spec Core Obs Laws
  Term TermLaws CtorSpec CtorLaws PolicyLaws Samples UnitProps Json JsonLaws.
Import ListNotations.
Local Open Scope list_scope.
Local Open Scope nat_scope.

(** [JsonParser::parse(w)] returns [r] and leaves the context in state [c]; [f64] stands for
    [str::parse::<f64>]. *)
Definition JsonParses (f64 : text -> val) (w : text) (r : res val) (c : ctx) : Prop :=
  Builds extract_text (j_env f64) [] (PRef 0) (Ctx KBytes w 0) tt r c tt.
Definition is_container (v : json) : bool := match v with JArr _ | JObj _ => true | _ => false end.

Lemma cx_bytes w i : i <= List.length w -> cx KBytes w i = Ctx KBytes w i.
Proof. intros H. unfold cx. now rewrite bo_bytes. Qed.
Lemma is_slice_fun w b j v v' : is_slice w b j v -> is_slice w b j v' -> v = v'.
Proof. unfold is_slice. congruence. Qed.
Lemma is_container_ok v : is_container v = true <-> container v.
Proof. destruct v; cbn; split; intros H; try discriminate; try contradiction; auto. Qed.
Lemma json_wf f64 : wf_env KBytes (j_env f64) no_skip (fun _ => 0) /\ wf KBytes (j_env f64) no_skip (fun _ => 0) 1 (PRef 0).
Proof.
  assert (KE : forall x p, env_get (j_env f64) x = Some p -> (fun _ => true) x = true -> Consumes.consumes (fun _ => true) p = true).
  { intros [|x] p E _; [injection E as <-; reflexivity|destruct x; discriminate]. }
  split.
  - intros x q E. apply (wfb_wf KBytes (j_env f64) no_skip [] no_skip_skipper (no_skip_implements _ _) (json_core f64) (fun _ => true) (fun _ => 0) 1 KE).
    + eapply json_core; eauto.
    + destruct x as [|x]; [injection E as <-; reflexivity|destruct x; discriminate].
  - apply (wfb_wf KBytes (j_env f64) no_skip [] no_skip_skipper (no_skip_implements _ _) (json_core f64) (fun _ => true) (fun _ => 0) 1 KE); [constructor|reflexivity].
Qed.

(** Every call returns. *)
Theorem C55_total : forall f64 w, exists r c, JsonParses f64 w r c.
Proof.
  intros f64 w. destruct (json_wf f64) as [W1 W2].
  destruct (build_total KBytes (j_env f64) no_skip [] no_skip_skipper (no_skip_implements _ _) is_slice unit extract_text (fun _ => 0) 1 (PRef 0) w 0 tt
    (json_tenv f64) (tc_ref _ _ _ _ 0)) as (r & c & [] & B); auto; try lia.
  - intros. now apply extract_text_slice.
  - exists r, c. rewrite cx_bytes in B by lia. exact B.
Qed.

(** A spelling of an array or an object, followed by anything, is parsed to its value. *)
Theorem C55_complete : forall f64 v s t, Spell v s -> is_container v = true ->
  JsonParses f64 (s ++ t) (Ok (as_val f64 v)) (Ctx KBytes (s ++ t) (List.length s)).
Proof.
  intros f64 v s t S C. apply is_container_ok in C.
  destruct (proj1 (complete_all f64) v s S (s ++ t) 0 t eq_refl ltac:(lia)) as [T _]. specialize (T C).
  destruct (tree_builds KBytes (j_env f64) no_skip [] is_slice extract_text no_skip_skipper (json_tenv f64) (no_skip_implements _ _)
     (fun w x b j st => extract_text_slice KBytes w x b j st) (PRef 0) (s ++ t) 0 tt _ _ is_slice_fun (tc_ref _ _ _ _ 0) ltac:(lia) T) as (y & [] & B & Y).
  unfold no_skip in Y. subst y. cbn [Nat.add] in B. rewrite !cx_bytes in B by (rewrite ?app_length; lia). exact B.
Qed.

(** Whatever it returns is the value of a spelling the text begins with; the cursor ends behind it. *)
Theorem C55_sound : forall f64 w r c, JsonParses f64 w r c ->
  (exists v s t, w = s ++ t /\ Spell v s /\ is_container v = true /\
     r = Ok (as_val f64 v) /\ c = Ctx KBytes w (List.length s)) \/
  (exists e, r = Err e /\ c = Ctx KBytes w 0 /\
     forall v s t, w = s ++ t -> Spell v s -> is_container v = false).
Proof.
  intros f64 w r c B. unfold JsonParses in B. rewrite <- (cx_bytes w 0) in B by lia.
  destruct (builds_spec KBytes (j_env f64) no_skip [] is_slice extract_text no_skip_skipper (json_tenv f64) (no_skip_implements _ _)
     (fun w x b j st => extract_text_slice KBytes w x b j st) (PRef 0) w 0 tt _ _ _ (tc_ref _ _ _ _ 0) ltac:(lia) B)
    as [(v & j & y & -> & -> & T & L1 & L2 & L3 & Y)|(e & y & -> & -> & P & L & Y)]; unfold no_skip in Y; subst y.
  - left. destruct (ref_sound f64 (j - 0) w 0 v j (le_n _) ltac:(lia) T) as (J & C & -> & S).
    exists J, (slice w 0 j), (skipn j w). apply is_container_ok in C. rewrite cx_bytes by assumption.
    pose proof (skipn_slice w 0 j ltac:(lia) L2) as E. cbn [skipn] in E.
    assert (LS : List.length (slice w 0 j) = j) by (apply (Lang.slice_length w 0 j); lia). rewrite LS. auto.
  - right. exists e. rewrite cx_bytes by lia. split; [reflexivity|]. split; [reflexivity|].
    intros v s t -> S. destruct (is_container v) eqn:C; [|reflexivity]. exfalso. apply is_container_ok in C.
    destruct (proj1 (complete_all f64) v s S (s ++ t) 0 t eq_refl ltac:(lia)) as [T _]. specialize (T C).
    exact (tclash KBytes (j_env f64) no_skip [] is_slice no_skip_skipper (json_tenv f64) (no_skip_implements _ _) _ _ _ _ _ _ T P (tc_ref _ _ _ _ 0) ltac:(lia) eq_refl).
Qed.

(** ** The notation is unambiguous *)
Section JsonInd.
  Variable P : json -> Prop.
  Hypothesis HN : P JNull.
  Hypothesis HB : forall b, P (JBool b).
  Hypothesis HS : forall s, P (JStr s).
  Hypothesis HM : forall s, P (JNum s).
  Hypothesis HA : forall l, (forall x, In x l -> P x) -> P (JArr l).
  Hypothesis HO : forall l, (forall x, In x l -> P (snd x)) -> P (JObj l).
  Fixpoint json_induct (v : json) : P v.
  Proof.
    destruct v as [| | | |l|l]; [exact HN|apply HB|apply HS|apply HM| |].
    - apply HA. induction l as [|x l IH]; intros y [].
      + subst y. apply json_induct.
      + now apply IH.
    - apply HO. induction l as [|[key x] l IH]; intros y [].
      + subst y. apply json_induct.
      + now apply IH.
  Qed.
End JsonInd.
Lemma as_val_inj v : forall v', as_val VText v = as_val VText v' -> v = v'.
Proof.
  induction v as [|b|s|s|l IH|l IH] using json_induct; intros [|b'|s'|s'|l'|l'] E; cbn in E; try discriminate; auto.
  - destruct b, b'; congruence.
  - congruence.
  - congruence.
  - injection E as E. f_equal. revert l' E. induction l as [|x l IHl]; intros [|y l'] E; try discriminate; auto.
    cbn in E. injection E as E1 E2. f_equal; [apply IH; [now left|exact E1]|]. apply IHl; [|exact E2]. intros z I. apply IH. now right.
  - injection E as E. f_equal. revert l' E. induction l as [|[kx x] l IHl]; intros [|[ky y] l'] E; try discriminate; auto.
    cbn in E. injection E as E1 E2 E3. f_equal; [f_equal; [exact E1|]|].
    + apply (IH (kx, x)); [now left|exact E2].
    + apply IHl; [|exact E3]. intros z I. apply IH. now right.
Qed.

(** A text has at most one reading. *)
Theorem C55_unique : forall v v' s, Spell v s -> Spell v' s -> v = v'.
Proof.
  intros v v' s S S'. apply as_val_inj.
  destruct (proj1 (complete_all VText) v s S s 0 [] ltac:(now rewrite app_nil_r) ltac:(lia)) as [_ T]. specialize (T I).
  destruct (proj1 (complete_all VText) v' s S' s 0 [] ltac:(now rewrite app_nil_r) ltac:(lia)) as [_ T']. specialize (T' I).
  eapply (tree_det KBytes (j_env VText) no_skip [] is_slice no_skip_skipper (json_tenv VText) (no_skip_implements _ _) is_slice_fun); [apply scalar_tcore| | |exact T|exact T']; auto. lia.
Qed.
(** At most one spelling of an array or an object is at the beginning of a text. *)
Theorem C55_prefix_free : forall v v' s s' t t', is_container v = true -> is_container v' = true ->
  Spell v s -> Spell v' s' -> s ++ t = s' ++ t' -> v = v' /\ s = s'.
Proof.
  intros v v' s s' t t' C C' S S' E. apply is_container_ok in C, C'.
  destruct (proj1 (complete_all VText) v s S (s ++ t) 0 t eq_refl ltac:(lia)) as [T _]. specialize (T C).
  destruct (proj1 (complete_all VText) v' s' S' (s ++ t) 0 t' E ltac:(lia)) as [T' _]. specialize (T' C').
  destruct (tree_det KBytes (j_env VText) no_skip [] is_slice no_skip_skipper (json_tenv VText) (no_skip_implements _ _) is_slice_fun (s ++ t) _ 0 _ _ _ _ (tc_ref _ _ _ _ 0) (Nat.le_0_l _) eq_refl T T') as [E1 E2].
  split; [now apply as_val_inj|]. cbn [Nat.add] in E2.
  apply (f_equal (firstn (List.length s))) in E. rewrite firstn_app, firstn_all, Nat.sub_diag in E.
  rewrite E2 in E. rewrite firstn_app, firstn_all, Nat.sub_diag in E. cbn [firstn] in E. now rewrite !app_nil_r in E.
Qed.

(** ** A case, and where the notation is not JSON *)
Definition bytes (s : string) : text := map N_of_ascii (list_ascii_of_string s).
Definition dq : string := String (ascii_of_nat 34) EmptyString.
Local Open Scope string_scope.
Definition json_text : string :=
  "{ " ++ dq ++ "a" ++ dq ++ " : [1, -2.5 ,true,{" ++ dq ++ "b_1" ++ dq ++ ":" ++ dq ++ "x\" ++ dq ++ "y" ++ dq ++ "},] }".
Definition json_value : json :=
  JObj [(bytes "a", JArr [JNum (bytes "1"); JNum (bytes "-2.5"); JBool true; JObj [(bytes "b_1", JStr (bytes ("x\" ++ dq ++ "y")))]])].

Local Open Scope list_scope.
Ltac known := intros ? I; cbn in I; repeat destruct I as [<-|I]; try reflexivity; destruct I.
Example C55_case : Spell json_value (bytes json_text) /\ is_container json_value = true /\
  JsonParses VText (bytes json_text ++ bytes "rest") (Ok (as_val VText json_value)) (Ctx KBytes (bytes json_text ++ bytes "rest") (List.length (bytes json_text))).
Proof.
  assert (S : Spell json_value (bytes json_text)).
  { apply (spell_obj _ (bytes " " ++ 34%N :: bytes "a" ++ 34%N :: bytes " " ++ 58%N :: bytes " " ++
      (91%N :: (([] ++ bytes "1" ++ [] ++ 44%N :: (bytes " " ++ bytes "-2.5" ++ bytes " " ++ 44%N :: ([] ++ bytes "true" ++ [] ++ 44%N ::
        ([] ++ (123%N :: ((([] ++ 34%N :: bytes "b_1" ++ 34%N :: [] ++ 58%N :: [] ++ (34%N :: bytes ("x\" ++ dq ++ "y")%string ++ [34%N]) ++ []) ++ [])) ++ [125%N]) ++ [] ++ [44%N]))))) ++ [93%N]) ++ bytes " ")%list).
    rewrite <- (app_nil_r (bytes " " ++ _)). apply members_last; [|now left]. apply member; try (known; fail); [discriminate|].
    apply spell_arr. apply elems_more; try (known; fail).
    { apply spell_num. apply (numeral [] (bytes "1") []); [now left|discriminate|known|now left]. }
    apply elems_more; try (known; fail).
    { apply spell_num. apply (numeral [45%N] (bytes "2") (bytes ".5")); [auto|discriminate|known|]. right. exists (bytes "5"). split; [reflexivity|]. split; [discriminate|known]. }
    apply elems_more; try (known; fail); [apply spell_true|].
    apply elems_last; try (known; fail); [|now right].
    apply spell_obj. apply members_last; [|now left]. apply member; try (known; fail); [discriminate|].
    apply spell_str. apply body_char; [discriminate..|]. apply body_escape; [reflexivity|]. apply body_char; [discriminate..|]. constructor. }
  split; [exact S|]. split; [reflexivity|]. now apply C55_complete.
Qed.
(** The same by running the parser. *)
Example C55_case_run : JsonParses VText (bytes json_text) (Ok (as_val VText json_value)) (Ctx KBytes (bytes json_text) (List.length (bytes json_text))).
Proof. exists 60. split; [vm_compute; reflexivity|discriminate]. Qed.

(** Valid JSON that is rejected: empty containers, [null], exponents, surrounding white space. *)
Definition refused (s : string) : Prop := exists e, JsonParses VText (bytes s) (Err e) (Ctx KBytes (bytes s) 0).
Theorem C55_json_refuted : refused "[]" /\ refused "{}" /\ refused "[null]" /\ refused "[1e5]" /\ refused " [1]".
Proof. repeat split; eexists; exists 60; (split; [vm_compute; reflexivity|discriminate]). Qed.
(** Texts that are not JSON and are accepted: trailing commas, leading zeros and plus signs, anything
    after the closing bracket. *)
Theorem C55_lenient_refuted : forall s, In s ["[1,]"; "[007]"; "[+1]"; "[1]]"]%string ->
  exists v c, JsonParses VText (bytes s) (Ok v) c.
Proof.
  intros s [<-|[<-|[<-|[<-|[]]]]]; eexists; eexists; exists 60; (split; [vm_compute; reflexivity|discriminate]).
Qed.

Print Assumptions C55_total.
Print Assumptions C55_complete.
Print Assumptions C55_sound.
Print Assumptions C55_unique.
Print Assumptions C55_prefix_free.
Print Assumptions C55_json_refuted.
Print Assumptions C55_lenient_refuted.
