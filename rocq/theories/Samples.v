(** Concrete parsers and texts used to show that the hypotheses of the property theorems are met,
    and tactics that run the model on them. *)

From Coq Require Import List Arith NArith Bool Lia.
From Verif Require Import Base Text Context Neu Syntax Regex Ctor Api TextProofs Spec Core Obs Atomic ByteInv Boundary CtorSpec.
Import ListNotations.

Definition number : pat := PMany1 NAsciiDigit CEmpty.
Definition word : pat := PMany1 NWord CEmpty.
Definition comma : pat := PLit [44]%N.
Definition lbrack : pat := PLit [91]%N.
Definition rbrack : pat := PLit [93]%N.
(** [\[1,23\]], possibly with a trailing comma. *)
Definition array : pat := PEnclose (PSep number comma 0 true) lbrack rbrack.

(** Nested arrays: cell 0 holds [number | '\[' cell0 (',' cell0)* '\]']. *)
Definition nested_env : env := [Some (POr number (PEnclose (PSep (PRef 0) comma 0 true) lbrack rbrack))].

(** "[1,23]" followed by an e with an acute accent, a euro sign and an emoji: items of 1, 2, 3 and 4
    bytes. *)
Definition sample : text := [91; 49; 44; 50; 51; 93; 233; 8364; 128512]%N.
(** "[[1],2]". *)
Definition nested : text := [91; 91; 49; 93; 44; 50; 93]%N.

(** Prove [core], [tame], ... of a concrete parser. *)
Ltac shape :=
  repeat (first [reflexivity | discriminate | exact I
                | progress intros
                | match goal with H : In _ [] |- _ => destruct H end
                | match goal with H : In _ (_ :: _) |- _ => destruct H as [<-|H] end
                | unshelve econstructor; try exact false;
                  lazymatch goal with |- Leaf.unit_cond _ = _ => reflexivity | _ => idtac end ]).
Ltac closed_env := intros [|i] p E; [| destruct i]; try discriminate E; injection E as <-.
Ltac no_env := intros [|i] p E; discriminate E.

(** Run the model with the given fuel. *)
Ltac matches n := split; [vm_compute; lia|]; split; [vm_compute; lia|]; exists n; vm_compute; reflexivity.
Ltac fails n := exists n; vm_compute; reflexivity.
Ltac returns n := exists n; split; [vm_compute; reflexivity|discriminate].

Lemma sample_env_core k : core_env k [] no_skip.
Proof. no_env. Qed.
Lemma array_core k G : core k G no_skip array.
Proof. shape. Qed.
Lemma nested_env_core k : core_env k nested_env no_skip.
Proof. closed_env. shape. Qed.

Lemma starts_number k G sk : starts_here k G sk number.
Proof. intros w i b j P. inversion P. reflexivity. Qed.
Lemma starts_comma k G sk : starts_here k G sk comma.
Proof. intros w i b j P. inversion P. reflexivity. Qed.
Lemma starts_then k G sk p q : starts_here k G sk p -> starts_here k G sk (PThen p q).
Proof. intros H w i b j P. inversion P; subst. eapply H; eauto. Qed.

(** Prove [tcore] of a concrete parser without mappers. *)
Ltac tshape :=
  repeat (first [progress intros
                | match goal with H : In _ [] |- _ => destruct H end
                | match goal with H : In _ (_ :: _) |- _ => destruct H as [<-|H] end
                | apply tc_leaf; [exact I|shape] | apply tc_pat; shape | apply tc_then | apply tc_ifthen | apply tc_or
                | apply tc_prefix | apply tc_suffix | apply tc_enclose | apply tc_seponce | apply tc_sep
                | apply tc_repeat | apply tc_collect | apply tc_option | apply tc_choice | apply tc_pairchoice
                | apply tc_wrap | apply tc_nonep | apply tc_ref | solve [shape] ]).

(** [key = value], the value optional: "k=12;" *)
Definition pair_pat : pat := PSepOnce (PPat word) (PLit [61]%N) (POption (PPat number)).
Definition pair_text : text := [107; 61; 49; 50; 59]%N.
(** Alternating words and numbers, without separators. *)
Definition mixed_pat : pat := PThen (PRepeat (POr (PPat number) (PPat (PMany1 NAsciiAlphabetic CEmpty))) (CRange (Incl 1) Unb)) (POption (PPat comma)).
Definition mixed_text : text := [97; 98; 49; 50; 99; 44; 33]%N.
