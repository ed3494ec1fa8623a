(** The macros [neu!], [regex!] (C59) and [escape_strval!] (C58); meanings in MacroSpec.v. *)

From Coq Require Import List Arith NArith Bool Lia.
From Verif Require Import Base Text Context Neu Syntax Regex Ctor Api TextProofs Spec Core Obs Laws UnitLaws UnitProps
  ApiLaws Samples CtorSpec Macros MacroSpec MacroLaws.
Import ListNotations.

(** ** C58 *)

(** [escape_strval!(q, e, v)] matches exactly the string body at the cursor: up to the first quote
    that is not part of an escape, or to the end of the text ([Body] in MacroSpec.v). *)
Theorem C58_body : forall k G, core_env k G no_skip -> forall q e v, honest k v -> forall w i b j, i <= length w ->
  (Matches k G (escape_strval q e v) w i b j <->
   b = i /\ i <= j /\ j <= length w /\ Body q e (UnitSet v) (slice w i j) (skipn j w)).
Proof. exact strval_ok. Qed.

(** It matches everywhere and never fails. *)
Theorem C58_total : forall k G, core_env k G no_skip -> forall q e v, honest k v -> forall w i, i <= length w ->
  exists j, Matches k G (escape_strval q e v) w i i j.
Proof. exact strval_total. Qed.

Theorem C58_never_fails : forall k G, core_env k G no_skip -> forall q e v, honest k v -> forall w i er, i <= length w ->
  ~ Fails k G (escape_strval q e v) w i er.
Proof. exact strval_never_fails. Qed.

(** A text has one body, and it is followed by a quote or by nothing. *)
Theorem C58_unique : forall q e v l r l' r',
  Body q e (UnitSet v) l r -> Body q e (UnitSet v) l' r' -> l ++ r = l' ++ r' -> l = l' /\ r = r'.
Proof. exact body_unique. Qed.

Theorem C58_stop : forall q e v l r, Body q e (UnitSet v) l r -> r = [] \/ exists r', r = q :: r'.
Proof. exact body_stop. Qed.

(** Enclosed in quotes it matches exactly the quoted strings. *)
Theorem C58_quoted : forall k G, core_env k G no_skip -> forall q e v, honest k v -> forall w i b j, i <= length w ->
  (Matches k G (PEnclose (escape_strval q e v) (PLit [q]) (PLit [q])) w i b j <->
   exists l r, skipn i w = q :: l ++ q :: r /\ Body q e (UnitSet v) l (q :: r) /\ b = i /\ j = i + length l + 2).
Proof. exact strval_enclosed. Qed.

(** Quote 34, prefix 92 (a backslash): the escaped quote is inside the body, a backslash before [n]
    (110) is an ordinary item; with an escape set without the quote the body ends there. *)
Example C58_case : let v := NSet [92; 34]%N in
  core_env KStr [] no_skip /\ honest KStr v /\
  Body 34%N 92%N (UnitSet v) [97; 92; 34; 92; 110]%N [34; 122]%N /\
  Matches KStr [] (escape_strval 34%N 92%N v) [97; 92; 34; 92; 110; 34; 122]%N 0 0 5 /\
  Matches KStr [] (escape_strval 34%N 92%N v) [97; 92; 34; 122]%N 0 0 4 /\
  Matches KStr [] (escape_strval 34%N 92%N (NChar 92%N)) [97; 92; 34; 122]%N 0 0 2 /\
  Matches KStr [] (escape_strval 34%N 92%N v) [34; 122]%N 0 0 0 /\
  Matches KStr [] (PEnclose (escape_strval 34%N 92%N v) (PLit [34]%N) (PLit [34]%N)) [34; 92; 34; 34; 122]%N 0 0 4.
Proof.
  cbv zeta. split; [apply sample_env_core|]. split; [now apply plain_honest|]. split.
  { apply Body_item; [discriminate|intros (x & r & H & _); discriminate|].
    apply Body_escape; [cbn; auto|].
    apply Body_item; [discriminate|intros (x & r & H & I); injection H as <- _; cbn in I; intuition discriminate|].
    apply Body_item; [discriminate|intros (x & r & H & _); discriminate|].
    apply Body_quote. intros (x & r & H & _). discriminate. }
  split; [matches 30|]. split; [matches 30|]. split; [matches 30|]. split; [matches 30|]. matches 30.
Qed.

(** ** C59 *)

(** A class accepts exactly the set it denotes ([ClassSet] in MacroSpec.v). *)
Theorem C59_class : forall c x, is_match (class_macro c) x = true <-> ClassSet c x.
Proof. exact class_set. Qed.

(** [regex!(class quantifier)] takes the longest run of items of the class allowed by the quantifier
    and matches iff it is long enough. *)
Theorem C59_regex : forall k G, core_env k G no_skip -> forall c q w i b j, i <= length w ->
  (Matches k G (regex_macro c q) w i b j <->
   b = i /\ exists n f, (forall x, f x = true <-> ClassSet c x) /\
     j = i + n /\ MaxRun f w i (quant_hi q) n /\ quant_lo q <= n).
Proof. exact regex_meaning. Qed.

Theorem C59_regex_err : forall k G, core_env k G no_skip -> forall c q w i er, i <= length w ->
  (Fails k G (regex_macro c q) w i er <->
   er = quant_error q /\ exists n f, (forall x, f x = true <-> ClassSet c x) /\
     MaxRun f w i (quant_hi q) n /\ n < quant_lo q).
Proof. exact regex_meaning_err. Qed.

(** A single range of identifiers, a single range of literals and the general form agree. *)
Theorem C59_spellings : forall neg l r x,
  is_match (class_macro (MRanges false neg [(l, r)])) x = is_match (class_macro (MRanges true neg [(l, r)])) x /\
  is_match (class_macro (MRanges true neg [(l, r)])) x = is_match (class_macro (MRanges true neg [(l, r); (l, r)])) x.
Proof. exact spellings. Qed.

(** No class is longer than the item it matches, on text and on bytes. *)
Theorem C59_honest : forall k c, honest k (class_macro c).
Proof. exact class_honest. Qed.

(** The documentation examples, src/macro.rs:70-94. *)
Example C59_case : core_env KStr [] no_skip /\
  let hello := [104; 101; 108; 108; 111; 32; 87]%N in
  Matches KStr [] (regex_macro (MRanges false false [(97, 122)%N]) QStar) hello 0 0 5 /\
  Matches KStr [] (regex_macro (MRanges false true [(97, 103)%N]) QPlus) hello 0 0 1 /\
  Matches KStr [] (regex_macro (MUnits [NRange (Incl 97%N) (Incl 122%N); NRange (Incl 65%N) (Incl 87%N); NChar 32%N]) QPlus) hello 0 0 7 /\
  Matches KStr [] (regex_macro (MChars false [104; 101; 108; 111]%N) (QBetween 2 4)) hello 0 0 4 /\
  Matches KStr [] (regex_macro MNonSpace (QAtLeast 2)) hello 0 0 5 /\ Matches KStr [] (regex_macro MSpace QNone) hello 5 5 6 /\
  Fails KStr [] (regex_macro MAny (QExact 8)) hello 0 EBetween.
Proof.
  split; [apply sample_env_core|]. cbv zeta. split; [matches 20|]. split; [matches 20|]. split; [matches 20|].
  split; [matches 20|]. split; [matches 20|]. split; [matches 20|]. fails 20.
Qed.

Print Assumptions C58_body.
Print Assumptions C58_total.
Print Assumptions C58_never_fails.
Print Assumptions C58_unique.
Print Assumptions C58_stop.
Print Assumptions C58_quoted.
Print Assumptions C59_class.
Print Assumptions C59_regex.
Print Assumptions C59_regex_err.
Print Assumptions C59_spellings.
Print Assumptions C59_honest.
