(** C66: the colour parser of bench/nom_cap.rs and the first example of README.md, on every text. *)

From Coq Require Import List Arith NArith ZArith Bool Lia String Ascii ZifyBool.
From Verif Require Import Base Text Context Neu Syntax Regex Ctor Api TextProofs Spec Core Sound Obs Laws UnitLaws
  PegLaws Consumes Term TermLaws ApiLaws
  CtorSpec CtorSound CtorLaws AgreeLaws UnitProps Samples Maps MapLaws SeqLaws Macros MacroLaws Methods Pieces Readme PropMaps PropReadme.
Import ListNotations.
Local Open Scope list_scope.
Local Open Scope nat_scope.

(** ** Specification *)

(** [x] is the hexadecimal digit for [d]; letters are upper case. *)
Definition HexDigit (x : item) (d : nat) : Prop := nth_error (chars_of "0123456789ABCDEF") d = Some x.
(** The text starts with [#] and two digits for each component. *)
Definition Color (w : text) (r g b : Z) (t : text) : Prop :=
  exists x1 x0 y1 y0 z1 z0 r1 r0 g1 g0 b1 b0,
    w = 35%N :: [x1; x0] ++ [y1; y0] ++ [z1; z0] ++ t /\
    HexDigit x1 r1 /\ HexDigit x0 r0 /\ HexDigit y1 g1 /\ HexDigit y0 g0 /\ HexDigit z1 b1 /\ HexDigit z0 b0 /\
    r = Z.of_nat (16 * r1 + r0) /\ g = Z.of_nat (16 * g1 + g0) /\ b = Z.of_nat (16 * b1 + b0).

(** [RegexCtx::new(w).ctor(&color)] returns [r] and leaves the context in state [c]. *)
Definition ColorParses (w : text) (r : res val) (c : ctx) : Prop :=
  Builds extract_text [] [] color (cx KStr w 0) tt r c tt.

(** ** Two digits *)

Lemma hex_class x : is_hex_digit x = true <-> exists d, HexDigit x d.
Proof.
  unfold is_hex_digit, bounds_contain, HexDigit. split.
  - intros H. assert (E : In x (chars_of "0123456789ABCDEF")).
    { unfold chars_of. cbn. assert (X : (48 <= x < 58 \/ 65 <= x < 71)%N) by lia. lia. }
    apply In_nth_error in E. exact E.
  - intros (d & E). apply nth_error_In in E. cbn in E. lia.
Qed.
Lemma hex_value x1 d1 x0 d0 : HexDigit x1 d1 -> HexDigit x0 d0 ->
  try_map (from_str_radix (ITy 1 false) 16) (VText [x1; x0]) = Ok (VNum (Z.of_nat (16 * d1 + d0))).
Proof.
  unfold HexDigit. intros E1 E0.
  assert (X : forallb (fun a => forallb (fun b => match nth_error (chars_of "0123456789ABCDEF") a, nth_error (chars_of "0123456789ABCDEF") b with
     | Some x, Some y => match try_map (from_str_radix (ITy 1 false) 16) (VText [x; y]) with Ok (VNum z) => (z =? Z.of_nat (16 * a + b))%Z | _ => false end
     | _, _ => false end) (seq 0 16)) (seq 0 16) = true) by (vm_compute; reflexivity).
  assert (L : forall d x, nth_error (chars_of "0123456789ABCDEF") d = Some x -> In d (seq 0 16)).
  { intros d x E. apply in_seq. split; [lia|]. change (0 + 16) with (List.length (chars_of "0123456789ABCDEF")). apply nth_error_Some. congruence. }
  rewrite forallb_forall in X. specialize (X d1 (L _ _ E1)). rewrite forallb_forall in X. specialize (X d0 (L _ _ E0)). cbv beta in X.
  rewrite E1, E0 in X. destruct (try_map _ _) as [[]| | |]; try discriminate. apply Z.eqb_eq in X. now subst.
Qed.
Lemma hex_honest k : honest k (NFn is_hex_digit).
Proof. intros x _. apply width_pos. Qed.

Definition two : pat := PBetween 2 (Some 2) (NFn is_hex_digit) CEmpty.
Lemma two_core k : core k [] no_skip two.
Proof. repeat constructor. Qed.
Lemma two_ok k w i b j : i <= List.length w -> (Matches k [] two w i b j <->
  b = i /\ j = i + 2 /\ exists x1 x0 d1 d0 t, skipn i w = [x1; x0] ++ t /\ HexDigit x1 d1 /\ HexDigit x0 d0).
Proof.
  intros Hi. unfold two. rewrite (between_piece k [] (no_env k) _ CEmpty _ (core_empty_cond k) (tests_empty k [])) by (auto; apply hex_honest). split.
  - intros (-> & L & s & t & E & -> & T & D). split; [reflexivity|].
    assert (L2 : List.length s = 2) by (destruct D as [D|[D _]]; [injection D; lia|cbn in D; lia]).
    split; [lia|]. destruct s as [|x1 [|x0 [|y s]]]; try discriminate L2. apply took_plain in T.
    inversion T as [|? ? T1 T2]; subst. inversion T2 as [|? ? T3 _]; subst. cbn [is_match] in T1, T3. apply hex_class in T1 as (d1 & D1), T3 as (d0 & D0).
    exists x1, x0, d1, d0, t. auto.
  - intros (-> & -> & x1 & x0 & d1 & d0 & t & E & D1 & D0). split; [reflexivity|]. split; [lia|]. exists [x1; x0], t. split; [exact E|]. split; [reflexivity|].
    split; [|now left]. apply took_plain. repeat constructor; cbn [is_match]; apply hex_class; eauto.
Qed.
Lemma two_inside k w i b j : Peg k [] no_skip w two i (OK b j) -> i <= List.length w.
Proof.
  intros P. destruct (le_lt_dec i (List.length w)) as [L|L]; [exact L|]. exfalso. unfold two in P. inversion P; subst.
  match goal with X : Spec.Run _ _ _ _ ?i _ _ _ _ _ |- _ => inversion X; subst; try lia end.
  match goal with X : Spec.Acc _ _ _ _ _ _ _ _ (inl true) |- _ => inversion X; subst end.
  match goal with X : nth_error w (?i + 0) = Some _ |- _ => assert (Y : i + 0 < List.length w) by (apply nth_error_Some; congruence) end. lia.
Qed.
Lemma hex_accepts k w i v j : Tree k [] no_skip is_slice w two i v j ->
  exists v', try_map (from_str_radix (ITy 1 false) 16) v = Ok v'.
Proof.
  intros T. apply leafy_inv in T as (b & P & ->); [|exact I]. pose proof (two_inside _ _ _ _ _ P) as Hi.
  apply (matches_peg k [] (no_env k)) in P; [|apply two_core|exact Hi]. apply two_ok in P as (-> & -> & x1 & x0 & d1 & d0 & t & E & D1 & D0); [|exact Hi].
  pose proof (skip_slice w i [x1; x0] t E) as Q. cbn [List.length] in Q. rewrite Q. rewrite (hex_value _ _ _ _ D1 D0). eauto.
Qed.
Lemma color_tcore : tcore KStr [] no_skip is_slice color.
Proof.
  assert (H : tcore KStr [] no_skip is_slice c_hex) by (apply tc_map; [apply tc_leaf; [exact I|apply two_core]|apply hex_accepts]).
  apply tc_prefix; [|constructor]. apply tc_map; [apply tc_then; [exact H|apply tc_then; exact H]|]. intros w i v j _. eexists. reflexivity.
Qed.
Lemma hex_tree w i v j : i <= List.length w -> (Tree KStr [] no_skip is_slice w c_hex i v j <->
  j = i + 2 /\ exists x1 x0 d1 d0 t, skipn i w = [x1; x0] ++ t /\ HexDigit x1 d1 /\ HexDigit x0 d0 /\ v = VNum (Z.of_nat (16 * d1 + d0))).
Proof.
  intros Hi. unfold c_hex, mapped. rewrite map_tree. change (q_count 2 (NFn is_hex_digit)) with two. split.
  - intros (v0 & T & E). apply (leaf_tree KStr [] (no_env KStr)) in T as (b & M & ->); [|exact I|apply two_core|exact Hi].
    apply two_ok in M as (-> & -> & x1 & x0 & d1 & d0 & t & S0 & D1 & D0); [|exact Hi]. split; [reflexivity|].
    pose proof (skip_slice w i [x1; x0] t S0) as Q. cbn [List.length] in Q. rewrite Q in E. rewrite (hex_value _ _ _ _ D1 D0) in E. injection E as <-. exists x1, x0, d1, d0, t. auto.
  - intros (-> & x1 & x0 & d1 & d0 & t & S0 & D1 & D0 & ->). exists (VText [x1; x0]). split; [|now apply hex_value].
    apply (leaf_tree KStr [] (no_env KStr)); [exact I|apply two_core|exact Hi|]. exists i. split.
    + apply two_ok; [exact Hi|]. split; [reflexivity|]. split; [reflexivity|]. exists x1, x0, d1, d0, t. auto.
    + f_equal. symmetry. exact (skip_slice w i [x1; x0] t S0).
Qed.
Lemma then_tree k G w p q i v j : Tree k G no_skip is_slice w (PThen p q) i v j <->
  exists a b m, v = VPair a b /\ Tree k G no_skip is_slice w p i a m /\ Tree k G no_skip is_slice w q m b j.
Proof.
  split.
  - intros T. inversion T; subst; try contradiction. eauto 8.
  - intros (a & b & m & -> & T1 & T2). eapply (Tree_then k G no_skip); eassumption.
Qed.
Lemma prefix_tree k G w p q i v j : Tree k G no_skip is_slice w (PPrefix p q) i v j <->
  exists b m, Peg k G no_skip w q i (OK b m) /\ Tree k G no_skip is_slice w p m v j.
Proof.
  split.
  - intros T. inversion T; subst; try contradiction. eauto 8.
  - intros (b & m & T1 & T2). eapply (Tree_prefix k G no_skip); eassumption.
Qed.

(** ** C66: colours *)

(** The parser succeeds exactly on the texts that start with a colour; it returns the three components and
    leaves the cursor behind the seven characters.  What follows is not looked at. *)
Theorem C66_color : forall w v c,
  ColorParses w (Ok v) c <->
  c = cx KStr w 7 /\ exists r g b t, Color w r g b t /\ v = VList [VNum r; VNum g; VNum b].
Proof.
  intros w v c. unfold ColorParses. rewrite (ctor_tree KStr [] color w 0 v c no_tenv color_tcore (Nat.le_0_l _)). unfold color. split.
  - intros (j & -> & T). apply prefix_tree in T as (b & m & P & T).
    apply (matches_peg KStr [] (no_env KStr)) in P; [|constructor|lia].
    apply (lit_piece KStr [] (no_env KStr)) in P as (-> & -> & t0 & E0); [|lia]. cbn [Nat.add List.length skipn] in *. 
    apply map_tree in T as (v0 & T & EV). cbn [try_map func_mapper] in EV. injection EV as <-.
    apply then_tree in T as (a & v1 & m1 & -> & T1 & T). apply then_tree in T as (a2 & a3 & m2 & -> & T2 & T3).
    pose proof (skip_app w 0 [35%N] t0 E0) as S1. cbn [Nat.add List.length] in S1.
    assert (L1 : 1 <= List.length w) by (rewrite E0; cbn; lia).
    apply hex_tree in T1 as (-> & x1 & x0 & r1 & r0 & t1 & E1 & D1 & D2 & ->); [|exact L1].
    pose proof (skip_len w 1 _ _ E1 L1) as L2. pose proof (skip_app w 1 _ _ E1) as S2. cbn [Nat.add List.length] in *.
    apply hex_tree in T2 as (-> & y1 & y0 & g1 & g0 & t2 & E2 & D3 & D4 & ->); [|exact L2].
    pose proof (skip_len w 3 _ _ E2 L2) as L3. pose proof (skip_app w 3 _ _ E2) as S3. cbn [Nat.add List.length] in *.
    apply hex_tree in T3 as (-> & z1 & z0 & b1 & b0 & t3 & E3 & D5 & D6 & ->); [|exact L3].
    split; [reflexivity|]. eexists _, _, _, t3. split; [|reflexivity].
    exists x1, x0, y1, y0, z1, z0, r1, r0, g1, g0, b1, b0. repeat match goal with |- _ /\ _ => split end; auto.
    rewrite S3 in E3. subst t2. rewrite S2 in E2. subst t1. rewrite S1 in E1. subst t0. exact E0.
  - intros (-> & r & g & b & t & (x1 & x0 & y1 & y0 & z1 & z0 & r1 & r0 & g1 & g0 & b1 & b0 & -> & D1 & D2 & D3 & D4 & D5 & D6 & -> & -> & ->) & ->).
    exists 7. split; [reflexivity|]. apply prefix_tree. exists 0, 1. split.
    + apply (matches_peg KStr [] (no_env KStr)); [constructor|lia|]. apply (lit_piece KStr [] (no_env KStr)); [lia|].
      split; [reflexivity|]. split; [reflexivity|]. eexists. reflexivity.
    + apply map_tree. eexists (VPair _ (VPair _ _)). split; [|reflexivity].
      apply then_tree. eexists _, _, 3. split; [reflexivity|]. split.
      * apply hex_tree; [cbn; lia|]. split; [reflexivity|]. exists x1, x0, r1, r0. eexists. split; [reflexivity|]. auto.
      * apply then_tree. eexists _, _, 5. split; [reflexivity|]. split.
        -- apply hex_tree; [cbn; lia|]. split; [reflexivity|]. exists y1, y0, g1, g0. eexists. split; [reflexivity|]. auto.
        -- apply hex_tree; [cbn; lia|]. split; [reflexivity|]. exists z1, z0, b1, b0. eexists. split; [reflexivity|]. auto.
Qed.

(** A parser without references that is [tcore] either builds a value or returns an error and stays. *)
Lemma builds_or_not p w : tcore KStr [] no_skip is_slice p -> wfb (fun _ => false) (fun _ => 0) 0 0 p = true ->
  ((exists e, Builds extract_text [] [] p (cx KStr w 0) tt (Err e) (cx KStr w 0) tt) <->
   ~ exists v c, Builds extract_text [] [] p (cx KStr w 0) tt (Ok v) c tt).
Proof.
  intros TC WF. pose proof (no_env KStr) as CE. split.
  - intros (e & B1) (v & c & B2). destruct (builds_det _ _ _ _ _ _ _ _ _ _ _ _ B1 B2) as (X & _). discriminate.
  - intros N. destruct (build_total KStr [] no_skip [] no_skip_skipper (no_skip_implements _ _) is_slice unit extract_text (fun _ => 0) 0 p w 0 tt
      no_tenv TC) as (r & c & [] & B).
    + intros. now apply extract_text_slice.
    + intros x q E. destruct x; discriminate.
    + apply (wfb_wf KStr [] no_skip [] no_skip_skipper (no_skip_implements _ _) CE (fun _ => false) (fun _ => 0) 0 ltac:(intros x q E; destruct x; discriminate));
        [exact (tcore_core _ _ _ _ _ TC)|exact WF].
    + lia.
    + destruct (builds_spec KStr [] no_skip [] is_slice extract_text no_skip_skipper no_tenv (no_skip_implements _ _) (extract_text_slice KStr)
        p w 0 tt r c tt TC (Nat.le_0_l _) B) as [(v & j & y & -> & _)|(e & y & -> & -> & _ & _ & Y)]; [exfalso; eauto|].
      unfold no_skip in Y. subst y. eauto.
Qed.
Theorem C66_color_err : forall w,
  (exists e, ColorParses w (Err e) (cx KStr w 0)) <-> ~ exists r g b t, Color w r g b t.
Proof.
  intros w. unfold ColorParses. rewrite (builds_or_not color w color_tcore eq_refl). split; intros N X; apply N.
  - destruct X as (r & g & b & t & C). eexists _, _. apply C66_color. eauto 8.
  - destruct X as (v & c & B). apply C66_color in B as (_ & r & g & b & t & C & _). eauto.
Qed.
(** A text is the spelling of at most one colour, and its components are bytes. *)
Theorem C66_color_unique : forall w r g b t r' g' b' t', Color w r g b t -> Color w r' g' b' t' -> r = r' /\ g = g' /\ b = b' /\ t = t'.
Proof.
  assert (U : forall x d d', HexDigit x d -> HexDigit x d' -> d = d').
  { unfold HexDigit. intros x d d' E E'. apply (proj1 (NoDup_nth_error (chars_of "0123456789ABCDEF"))).
    - repeat constructor; cbn; intuition discriminate.
    - apply nth_error_Some. congruence.
    - congruence. }
  intros w r g b t r' g' b' t' (x1 & x0 & y1 & y0 & z1 & z0 & r1 & r0 & g1 & g0 & b1 & b0 & -> & D1 & D2 & D3 & D4 & D5 & D6 & -> & -> & ->)
    (x1' & x0' & y1' & y0' & z1' & z0' & r1' & r0' & g1' & g0' & b1' & b0' & E & D1' & D2' & D3' & D4' & D5' & D6' & -> & -> & ->).
  injection E as <- <- <- <- <- <- <-.
  rewrite (U _ _ _ D1 D1'), (U _ _ _ D2 D2'), (U _ _ _ D3 D3'), (U _ _ _ D4 D4'), (U _ _ _ D5 D5'), (U _ _ _ D6 D6'). auto.
Qed.
Theorem C66_color_bytes : forall w r g b t, Color w r g b t -> (0 <= r < 256 /\ 0 <= g < 256 /\ 0 <= b < 256)%Z.
Proof.
  intros w r g b t (x1 & x0 & y1 & y0 & z1 & z0 & r1 & r0 & g1 & g0 & b1 & b0 & _ & D1 & D2 & D3 & D4 & D5 & D6 & -> & -> & ->).
  assert (L : forall x d, HexDigit x d -> d < 16).
  { intros x d E. change 16 with (List.length (chars_of "0123456789ABCDEF")). apply nth_error_Some. unfold HexDigit in E. congruence. }
  pose proof (L _ _ D1). pose proof (L _ _ D2). pose proof (L _ _ D3). pose proof (L _ _ D4). pose proof (L _ _ D5). pose proof (L _ _ D6). lia.
Qed.
(** Writing a colour and reading it back. *)
Definition hex_char (d : nat) : item := nth d (chars_of "0123456789ABCDEF") 0%N.
Definition write_byte (n : nat) : text := [hex_char (n / 16); hex_char (n mod 16)].
Definition write_color (r g b : nat) : text := 35%N :: write_byte r ++ write_byte g ++ write_byte b.
Theorem C66_color_round_trip : forall r g b t, r < 256 -> g < 256 -> b < 256 ->
  ColorParses (write_color r g b ++ t) (Ok (VList [VNum (Z.of_nat r); VNum (Z.of_nat g); VNum (Z.of_nat b)])) (cx KStr (write_color r g b ++ t) 7).
Proof.
  intros r g b t Hr Hg Hb.
  assert (H : forall n, n < 256 -> HexDigit (hex_char (n / 16)) (n / 16) /\ HexDigit (hex_char (n mod 16)) (n mod 16) /\ n = 16 * (n / 16) + n mod 16).
  { intros n L. assert (A : n / 16 < 16) by (apply Nat.div_lt_upper_bound; lia). assert (B : n mod 16 < 16) by (apply Nat.mod_upper_bound; lia).
    split; [now apply nth_error_nth'|]. split; [now apply nth_error_nth'|]. apply Nat.div_mod. lia. }
  destruct (H r Hr) as (R1 & R2 & R3), (H g Hg) as (G1 & G2 & G3), (H b Hb) as (B1 & B2 & B3).
  apply C66_color. split; [reflexivity|]. eexists _, _, _, t. split; [|reflexivity].
  eexists _, _, _, _, _, _, _, _, _, _, _, _. split; [reflexivity|]. repeat match goal with |- _ /\ _ => split end; eauto; f_equal; assumption.
Qed.

(** Lower case digits are refused, although the number reader behind the class would read them. *)
Theorem C66_lower_case_refuted :
  (exists e, ColorParses (chars_of "#2f14df") (Err e) (cx KStr (chars_of "#2f14df") 0)) /\
  try_map (from_str_radix (ITy 1 false) 16) (VText (chars_of "2f")) = Ok (VNum 47).
Proof.
  split; [|reflexivity]. exists EBetween. exists 30. split; [vm_compute; reflexivity|discriminate].
Qed.
Example C66_color_case : Color (chars_of "#2F14DF;") 47 20 223 (chars_of ";") /\ write_color 47 20 223 = chars_of "#2F14DF" /\
  ColorParses (chars_of "#2F14DF;") (Ok (VList [VNum 47; VNum 20; VNum 223])) (cx KStr (chars_of "#2F14DF;") 7).
Proof.
  split; [|split; [vm_compute; reflexivity|exists 30; split; [vm_compute; reflexivity|discriminate]]].
  unfold Color, chars_of. cbn. exists 50%N, 70%N, 49%N, 52%N, 68%N, 70%N, 2, 15, 1, 4, 13, 15. repeat split.
Qed.

(** ** The first example of the README: a number and a name *)

Definition AsciiDigit (x : item) : Prop := (48 <= x <= 57)%N.
Definition AsciiLetter (x : item) : Prop := (65 <= x <= 90 \/ 97 <= x <= 122)%N.
(** The number a list of decimal digits stands for. *)
Definition decimal (ds : text) : Z := fold_left (fun a x => (10 * a + (Z.of_N x - 48))%Z) ds 0%Z.
(** The text is a non-empty run of digits followed by a maximal non-empty run of letters; the number fits an [i32]. *)
Definition YearName (w ds name t : text) : Prop :=
  w = ds ++ name ++ t /\ ds <> [] /\ name <> [] /\ Forall AsciiDigit ds /\ Forall AsciiLetter name /\
  (forall x r, t = x :: r -> ~ AsciiLetter x) /\ (decimal ds <= 2147483647)%Z.
(** [CharsCtx::new(w).ctor(&year.then(name))] *)
Definition YearParses (w : text) (r : res val) (c : ctx) : Prop := Builds extract_text [] [] year_name (cx KStr w 0) tt r c tt.

Lemma decimal_snoc ds x : decimal (ds ++ [x]) = (10 * decimal ds + (Z.of_N x - 48))%Z.
Proof. unfold decimal. now rewrite fold_left_app. Qed.
Lemma digit_numeral ds : Forall AsciiDigit ds -> Numeral 10 ds (decimal ds).
Proof.
  induction ds as [|x ds IH] using rev_ind; intros F; [constructor|]. apply Forall_app in F as [F X]. apply Forall_inv in X.
  assert (E : decimal (ds ++ [x]) = (decimal ds * Z.of_N 10 + Z.of_N (x - 48))%Z).
  { rewrite decimal_snoc. unfold AsciiDigit, item in *. lia. }
  rewrite E. apply num_snoc; [auto| |unfold AsciiDigit in X; lia].
  unfold digit_value. replace (is_ascii_digit x) with true; [reflexivity|]. unfold is_ascii_digit, AsciiDigit, between_N in *. lia.
Qed.
Lemma numeral_det r l n : Numeral r l n -> forall m, Numeral r l m -> n = m.
Proof.
  induction 1 as [|l c d n H IH D L]; intros m M.
  - inversion M as [|l' c' d' n' H' D' L' E]; [reflexivity|]. destruct l'; discriminate.
  - inversion M as [E|l' c' d' n' H' D' L' E]; [destruct l; discriminate|]. apply app_inj_tail in E as [-> ->].
    rewrite (IH _ H'). congruence.
Qed.
Lemma decimal_nonneg ds : Forall AsciiDigit ds -> (0 <= decimal ds)%Z.
Proof. intros F. exact (numeral_nonneg _ _ _ (digit_numeral ds F)). Qed.
Lemma from_str_digits ds : Forall AsciiDigit ds -> ds <> [] ->
  try_map (from_str (ITy 4 true)) (VText ds) = if (decimal ds <=? 2147483647)%Z then Ok (VNum (decimal ds)) else Err EFromStr.
Proof.
  intros F N. pose proof (decimal_nonneg ds F) as P.
  destruct (Z.leb_spec (decimal ds) 2147483647) as [L|L].
  - apply (C53_from_str (ITy 4 true) ds); [cbn; lia|]. exists ds, (decimal ds). split; [exact N|]. split; [now apply digit_numeral|].
    split; [auto|]. cbn. lia.
  - destruct (try_map (from_str (ITy 4 true)) (VText ds)) as [v|e| |] eqn:E.
    + exfalso. assert (V : exists z, v = VNum z).
      { unfold from_str, try_map in E. cbn in E. destruct (parse_int _ _ _); [injection E as <-; eauto|discriminate]. }
      destruct V as (z & ->). apply C53_from_str in E; [|cbn; lia]. destruct E as (ds' & n & N' & NU & C & R). cbn in R.
      inversion F as [|x F' HX HF]; [congruence|]. subst ds. unfold AsciiDigit in HX.
      destruct C as [(<- & ->)|[(C & _)|(_ & C & _)]]; [|injection C as -> _; lia|injection C as -> _; lia].
      pose proof (numeral_det _ _ _ NU _ (digit_numeral _ F)). lia.
    + unfold from_str, try_map in E. cbn in E. destruct (parse_int _ _ _); congruence.
    + unfold from_str, try_map in E. cbn in E. destruct (parse_int _ _ _); congruence.
    + unfold from_str, try_map in E. cbn in E. destruct (parse_int _ _ _); congruence.
Qed.

Lemma letter_class x : is_match NAsciiAlphabetic x = true <-> AsciiLetter x.
Proof. cbn. unfold is_ascii_alpha, is_ascii_lower, is_ascii_upper, between_N, AsciiLetter. lia. Qed.
Lemma digit_class x : is_match (class_macro (MRanges true false [(48, 57)]%N)) x = true <-> AsciiDigit x.
Proof.
  rewrite class_set. unfold AsciiDigit. split.
  - intros (a & b & [E|[]] & H). injection E as <- <-. exact H.
  - intros H. exists 48%N, 57%N. split; [now left|exact H].
Qed.
(** A non-empty run of a class as a value. *)
Lemma run_builds u (P : item -> Prop) w i : (forall x, is_match u x = true <-> P x) -> i <= List.length w ->
  (exists s t, skipn i w = s ++ t /\ s <> [] /\ Forall P s /\ (forall x r, t = x :: r -> ~ P x) /\
     Builds extract_text [] [] (PMany1 u CEmpty) (cx KStr w i) tt (Ok (VText s)) (cx KStr w (i + List.length s)) tt) \/
  ((forall x r, skipn i w = x :: r -> ~ P x) /\
     Builds extract_text [] [] (PMany1 u CEmpty) (cx KStr w i) tt (Err EMany1) (cx KStr w i) tt).
Proof.
  intros U Hi. pose proof (no_env KStr) as CE.
  assert (HT : forall t, halted (passes u (fun _ => true)) t -> forall x r, t = x :: r -> ~ P x).
  { intros t H x r -> X. apply U in X. cbn in H. rewrite X in H. discriminate. }
  destruct (run_cut u (fun _ => true) None (skipn i w)) as (s & t & E & T & D).
  destruct D as [D|[_ D]]; [discriminate|]. destruct s as [|x s].
  - right. split; [rewrite E; now apply HT|]. apply leafy_builds; [exact I|]. apply pat_builds_err.
    assert (F : Fails KStr [] (PMany1 u CEmpty) w i EMany1).
    { apply (many1_err KStr [] CE u CEmpty (core_empty_cond KStr)); auto. left. split; [reflexivity|].
      apply (leaves_skip KStr [] u CEmpty (fun _ => true) (tests_empty _ _)). now rewrite E. }
    destruct F as (n & F). exists n. split; [exact F|discriminate].
  - left. exists (x :: s), t. split; [exact E|]. split; [discriminate|].
    split; [apply took_plain in T; eapply Forall_impl; [|exact T]; intros; now apply U|]. split; [now apply HT|].
    pose proof (skip_slice _ _ _ _ E) as Q. unfold slice in Q.
    assert (M : Matches KStr [] (PMany1 u CEmpty) w i i (i + List.length (x :: s))).
    { apply (many1_piece KStr [] CE u CEmpty _ (core_empty_cond KStr) (tests_empty _ _)); auto. split; [reflexivity|]. split; [cbn; lia|].
      exists (x :: s), t. split; [exact E|]. split; [reflexivity|]. split; [exact T|]. right. split; [exact I|exact D]. }
    pose proof (leafy_extract [] (PMany1 u CEmpty) KStr w i i _ I M) as B. rewrite Q in B. exact B.
Qed.

Lemma run_unique (P : item -> Prop) : forall s t s' t' : text, s ++ t = s' ++ t' -> Forall P s -> Forall P s' ->
  (forall x r, t = x :: r -> ~ P x) -> (forall x r, t' = x :: r -> ~ P x) -> s = s' /\ t = t'.
Proof.
  induction s as [|x s IH]; intros t [|y s'] t' E F F' H H'; cbn in E.
  - auto.
  - exfalso. subst t. exact (H _ _ eq_refl (Forall_inv F')).
  - exfalso. subst t'. exact (H' _ _ eq_refl (Forall_inv F)).
  - injection E as <- E. destruct (IH _ _ _ E (Forall_inv_tail F) (Forall_inv_tail F') H H') as [-> ->]. auto.
Qed.
Lemma year_head (name t : text) : name <> [] -> Forall AsciiLetter name -> forall x r, name ++ t = x :: r -> ~ AsciiDigit x.
Proof. intros N F x r E. destruct name as [|y name]; [congruence|]. injection E as -> _. apply Forall_inv in F. unfold AsciiLetter, AsciiDigit in *. lia. Qed.

Lemma year_cases w :
  (exists ds name t, YearName w ds name t /\
     YearParses w (Ok (VPair (VNum (decimal ds)) (VText name))) (cx KStr w (List.length ds + List.length name))) \/
  ((forall ds name t, ~ YearName w ds name t) /\ exists e, YearParses w (Err e) (cx KStr w 0)).
Proof.
  unfold YearParses, year_name, year, regex_macro.
  destruct (run_builds _ _ w 0 digit_class (Nat.le_0_l _)) as [(ds & r & E & N & F & H & B)|(H & B)].
  - cbn [skipn] in E. pose proof (from_str_digits ds F N) as V.
    assert (BM : Builds extract_text [] [] (mapped (PMany1 (class_macro (MRanges true false [(48, 57)]%N)) CEmpty) (from_str (ITy 4 true)))
                   (cx KStr w 0) tt (try_map (from_str (ITy 4 true)) (VText ds)) (cx KStr w (List.length ds)) tt).
    { apply (map_builds_ok extract_text [] [] _ (try_map (from_str (ITy 4 true))) _ _ (VText ds)); [|exact B].
      rewrite V. destruct (_ <=? _)%Z; discriminate. }
    assert (SK : skipn (List.length ds) w = r) by (apply (skip_app w 0); exact E).
    rewrite V in BM. destruct (Z.leb_spec (decimal ds) 2147483647) as [L|L].
    + destruct (run_builds _ _ w (List.length ds) letter_class) as [(name & t & E2 & N2 & F2 & H2 & B2)|(H2 & B2)].
      { rewrite E, app_length. lia. }
      * left. exists ds, name, t. rewrite SK in E2. split; [rewrite E, E2; repeat split; auto|].
        refine (then_builds extract_text [] [] _ _ _ _ (cons_res (VNum (decimal ds)) (cons_res (VText name) (Ok []))) _ _ _).
        eapply parts_build; [exact BM|]. eapply parts_build; [exact B2|]. apply parts_nil.
      * right. split.
        -- intros ds' name t (E' & N' & M' & F' & A' & _). rewrite E in E'.
           destruct (run_unique _ _ _ _ _ E' F F' H (year_head name t M' A')) as [-> R]. rewrite SK, R in H2.
           destruct name as [|y name]; [congruence|]. exact (H2 _ _ eq_refl (Forall_inv A')).
        -- exists EMany1. refine (then_builds extract_text [] [] _ _ _ _ (cons_res (VNum (decimal ds)) (Err EMany1)) (cx KStr w (List.length ds)) _ _).
           eapply parts_build; [exact BM|]. eapply parts_build_err. exact B2.
    + right. split.
      * intros ds' name t (E' & N' & M' & F' & A' & _ & D'). rewrite E in E'.
        destruct (run_unique _ _ _ _ _ E' F F' H (year_head name t M' A')) as [-> R]. lia.
      * exists EFromStr. refine (then_builds extract_text [] [] _ _ _ _ (Err EFromStr) (cx KStr w (List.length ds)) _ _). eapply parts_build_err. exact BM.
  - right. split.
    + intros ds' name t (E' & N' & M' & F' & _). cbn [skipn] in H. destruct ds' as [|y ds']; [congruence|].
      exact (H _ _ E' (Forall_inv F')).
    + exists EMany1. refine (then_builds extract_text [] [] _ _ _ _ (Err EMany1) (cx KStr w 0) _ _). eapply parts_build_err. apply map_builds_err. exact B.
Qed.
Lemma year_unique w ds name t ds' name' t' : YearName w ds name t -> YearName w ds' name' t' -> ds = ds' /\ name = name' /\ t = t'.
Proof.
  intros (E & _ & M & F & A & T & _) (E' & _ & M' & F' & A' & T' & _). rewrite E in E'.
  destruct (run_unique _ _ _ _ _ E' F F' (year_head name t M A) (year_head name' t' M' A')) as [-> R].
  destruct (run_unique _ _ _ _ _ R A A' T T') as [-> ->]. auto.
Qed.
Theorem C66_year : forall w v c, YearParses w (Ok v) c <->
  exists ds name t, YearName w ds name t /\ v = VPair (VNum (decimal ds)) (VText name) /\ c = cx KStr w (List.length ds + List.length name).
Proof.
  intros w v c. destruct (year_cases w) as [(ds & name & t & Y & B)|(N & e & B)]; split.
  - intros B'. destruct (builds_det _ _ _ _ _ _ _ _ _ _ _ _ B B') as (E & <- & _). injection E as <-. eauto 6.
  - intros (ds' & name' & t' & Y' & -> & ->). destruct (year_unique _ _ _ _ _ _ _ Y Y') as (-> & -> & ->). exact B.
  - intros B'. destruct (builds_det _ _ _ _ _ _ _ _ _ _ _ _ B B') as (E & _). discriminate.
  - intros (ds' & name' & t' & Y' & _). destruct (N _ _ _ Y').
Qed.
Theorem C66_year_err : forall w, (exists e, YearParses w (Err e) (cx KStr w 0)) <-> ~ exists ds name t, YearName w ds name t.
Proof.
  intros w. destruct (year_cases w) as [(ds & name & t & Y & B)|(N & e & B)]; split.
  - intros (e & B'). destruct (builds_det _ _ _ _ _ _ _ _ _ _ _ _ B B') as (E & _). discriminate.
  - intros X. destruct X; eauto.
  - intros _ (ds' & name' & t' & Y'). exact (N _ _ _ Y').
  - eauto.
Qed.
Example C66_year_case : YearName (chars_of "2024rust!") (chars_of "2024") (chars_of "rust") (chars_of "!") /\
  YearParses (chars_of "2024rust!") (Ok (VPair (VNum 2024) (VText (chars_of "rust")))) (cx KStr (chars_of "2024rust!") 8) /\
  ~ (exists ds name t, YearName (chars_of "3000000000x") ds name t).
Proof.
  split; [|split].
  - unfold YearName, chars_of. cbn. repeat split; try discriminate; try (repeat constructor; unfold AsciiDigit, AsciiLetter; lia).
    intros x r E. injection E as <- <-. unfold AsciiLetter. lia.
  - exists 30. split; [vm_compute; reflexivity|discriminate].
  - apply C66_year_err. exists EFromStr. exists 30. split; [vm_compute; reflexivity|discriminate].
Qed.

Print Assumptions C66_color.
Print Assumptions C66_color_err.
Print Assumptions C66_color_unique.
Print Assumptions C66_color_bytes.
Print Assumptions C66_color_round_trip.
Print Assumptions C66_lower_case_refuted.
Print Assumptions C66_year.
Print Assumptions C66_year_err.
