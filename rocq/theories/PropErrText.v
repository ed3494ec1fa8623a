(** C72: the text of an error tells which error it is. *)

From Coq Require Import List Arith Nat String Ascii Decimal DecimalString DecimalNat DecimalFacts.
From Verif Require Import Base ErrText.
Open Scope string_scope.

Lemma append_inj a s t : a ++ s = a ++ t -> s = t.
Proof. induction a as [|x a IH]; cbn [append]; intros E; [exact E|]. injection E as E. auto. Qed.
Lemma append_char_inj s t x : s ++ String x "" = t ++ String x "" -> s = t.
Proof.
  revert t. induction s as [|y s IH]; intros [|z t] E; cbn [append] in E; try reflexivity.
  - injection E as -> E. destruct t; discriminate.
  - injection E as -> E. destruct s; discriminate.
  - injection E as -> E. f_equal. auto.
Qed.
Lemma to_uint_nonnil n : Nat.to_uint n <> Nil.
Proof.
  intros E. assert (Z : n = 0) by (rewrite <- (DecimalNat.Unsigned.of_to n), E; reflexivity).
  rewrite Z in E. discriminate.
Qed.
Lemma show_inj n m : show_usize n = show_usize m -> n = m.
Proof.
  unfold show_usize. intros E. rewrite <- (DecimalNat.Unsigned.of_to n), <- (DecimalNat.Unsigned.of_to m). f_equal.
  assert (F : Some (Nat.to_uint n) = Some (Nat.to_uint m)); [|now injection F].
  rewrite <- (NilZero.usu (Nat.to_uint n)) by apply to_uint_nonnil. rewrite E. apply NilZero.usu, to_uint_nonnil.
Qed.

(** Different errors have different messages. *)
Theorem C72_distinct : forall e e', message e = message e' -> e = e'.
Proof.
  intros e e' E. destruct e, e'; try reflexivity; try discriminate E.
  cbn [message] in E. apply append_inj, append_char_inj, show_inj in E. now subst.
Qed.

(** A user-defined error prints its number: reading the digits back gives the number. *)
Theorem C72_user_defined : forall n, exists ds d,
  message (EUid n) = "Got error(id = " ++ ds ++ ")" /\ NilZero.uint_of_string ds = Some d /\ Nat.of_uint d = n.
Proof.
  intros n. exists (show_usize n), (Nat.to_uint n). split; [reflexivity|]. split; [apply NilZero.usu, to_uint_nonnil|].
  apply DecimalNat.Unsigned.of_to.
Qed.

(** Every character of the string satisfies [f]. *)
Fixpoint all_chars (f : ascii -> bool) (s : string) : bool :=
  match s with EmptyString => true | String a s => andb (f a) (all_chars f s) end.
Definition visible (a : ascii) : bool := andb ((32 <=? nat_of_ascii a)%nat) ((nat_of_ascii a <=? 126)%nat).
Lemma all_chars_app f s t : all_chars f (s ++ t) = andb (all_chars f s) (all_chars f t).
Proof. induction s as [|a s IH]; cbn [append all_chars]; [reflexivity|]. rewrite IH. now destruct (f a). Qed.
Lemma digits_visible d : all_chars visible (NilEmpty.string_of_uint d) = true.
Proof. induction d; cbn [NilEmpty.string_of_uint all_chars]; try rewrite IHd; reflexivity. Qed.

(** Messages are non-empty single lines of visible ASCII. *)
Theorem C72_visible : forall e, all_chars visible (message e) = true /\ message e <> "".
Proof.
  intros e. destruct e; try (split; [vm_compute; reflexivity|discriminate]). split; [|discriminate].
  cbn [message]. rewrite !all_chars_app. unfold show_usize, NilZero.string_of_uint.
  destruct (Nat.to_uint n) as [|d|d|d|d|d|d|d|d|d|d]; try reflexivity; rewrite digits_visible; reflexivity.
Qed.

Example C72_case : message (EUid 1207) = "Got error(id = 1207)" /\ message ERepeat <> message ERepeat2 /\ message (EUid 10) <> message (EUid 1).
Proof. split; [vm_compute; reflexivity|]. split; discriminate. Qed.

Print Assumptions C72_distinct.
Print Assumptions C72_user_defined.
Print Assumptions C72_visible.
