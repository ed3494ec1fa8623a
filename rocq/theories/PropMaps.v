(** C38, C39, C53, C54: the mappers. *)

From Coq Require Import List Arith NArith ZArith Bool Lia.
From Verif Require Import Base Text Context Neu Syntax Regex Ctor Api TextProofs Spec Core Obs Laws ApiLaws CursorLaws CtorSpec SeqLaws UnitProps
  Maps MapLaws Samples.
Import ListNotations.

(** A leaf builds what the handler makes of its span. *)
Lemma leafy_builds {S} (h : handler S) G pols p c s r c' s' : leafy p ->
  (Builds h G pols p c s r c' s' <-> Builds h G pols (PPat p) c s r c' s').
Proof.
  intros L.
  assert (forall n, construct h n G [] pols p = construct h n G [] pols (PPat p)) as E
    by (intros [|n]; [reflexivity|]; destruct p; reflexivity || contradiction).
  unfold Builds. split; intros (n & H); exists n; [now rewrite <- E|now rewrite E].
Qed.
Lemma leafy_extract G p k w i b j : leafy p -> Matches k G p w i b j ->
  Builds extract_text G [] p (cx k w i) tt (Ok (VText (firstn (j - b) (skipn b w)))) (cx k w j) tt.
Proof.
  intros L (Hb & Hj & n & E). apply leafy_builds; [exact L|].
  assert (Returns G [] p (cx k w i) (Ok (sp k w b j)) (cx k w j)) as R by (exists n; split; [exact E|discriminate]).
  assert (extract_text (cx k w j) (sp k w b j) tt = (Ok (VText (firstn (j - b) (skipn b w))), tt)) as X.
  { unfold extract_text. now rewrite orig_sub_sp by lia. }
  pose proof (pat_builds extract_text G [] p _ tt _ _ R) as B. rewrite X in B. apply B. discriminate.
Qed.

(** ** C38: decoding integers from bytes

    [byte_of v i] is byte [i] of the two's complement representation of [v], least significant first:
    [(v / 256^i) mod 256]. *)

(** From at least as many bytes as the type has, the result is an integer of the type, and its bytes are
    the first ones of the input, least significant first; the other bytes of the input do not matter. *)
Theorem C38_le : forall t (l : text), 1 <= i_size t -> Forall is_byte l -> i_size t <= length l ->
  exists v, try_map (from_le_bytes t) (VText l) = Ok (VNum v) /\ (i_min t <= v <= i_max t)%Z /\
    forall i, i < i_size t -> nth_error l i = Some (byte_of v i).
Proof.
  intros t l H F L. cbn. unfold from_bytes. destruct (Nat.leb_spec (i_size t) (length l)); [|lia].
  assert (Forall is_byte (firstn (i_size t) l)) as F' by (apply Forall_forall; intros x Hx; rewrite Forall_forall in F; apply F; rewrite <- (firstn_skipn (i_size t) l); apply in_or_app; auto).
  assert (length (firstn (i_size t) l) = i_size t) as EL by (apply firstn_length_le; lia).
  pose proof (le_value_range _ F') as R. rewrite EL in R. destruct (reinterpret_spec t _ H R) as (A & _ & B).
  exists (std_from_le t (firstn (i_size t) l)). split; [reflexivity|]. split; [exact A|].
  intros i Hi. unfold std_from_le. rewrite B by assumption. rewrite <- le_value_byte by (auto; lia).
  rewrite <- (firstn_skipn (i_size t) l) at 1. apply nth_error_app1. lia.
Qed.
(** Most significant byte first. *)
Theorem C38_be : forall t (l : text), 1 <= i_size t -> Forall is_byte l -> i_size t <= length l ->
  exists v, try_map (from_be_bytes t) (VText l) = Ok (VNum v) /\ (i_min t <= v <= i_max t)%Z /\
    forall i, i < i_size t -> nth_error l (i_size t - 1 - i) = Some (byte_of v i).
Proof.
  intros t l H F L. cbn. unfold from_bytes. destruct (Nat.leb_spec (i_size t) (length l)); [|lia].
  assert (Forall is_byte (rev (firstn (i_size t) l))) as F' by (apply Forall_forall; intros x Hx; rewrite Forall_forall in F; apply F; rewrite <- (firstn_skipn (i_size t) l); apply in_or_app; left; now apply in_rev).
  assert (length (rev (firstn (i_size t) l)) = i_size t) as EL by (rewrite rev_length; apply firstn_length_le; lia).
  pose proof (le_value_range _ F') as R. rewrite EL in R. destruct (reinterpret_spec t _ H R) as (A & _ & B).
  exists (std_from_be t (firstn (i_size t) l)). split; [reflexivity|]. split; [exact A|].
  intros i Hi. unfold std_from_be. rewrite B by assumption. rewrite <- le_value_byte by (auto; lia).
  rewrite rev_length in EL. rewrite <- (firstn_skipn (i_size t) l) at 1. rewrite nth_error_app1 by lia.
  assert (exists x, nth_error (firstn (i_size t) l) (i_size t - 1 - i) = Some x) as (x & Ex).
  { destruct (nth_error (firstn (i_size t) l) (i_size t - 1 - i)) eqn:E; [eauto|]. apply nth_error_None in E. lia. }
  rewrite Ex. symmetry. apply nth_error_nth with (d := 0%N) in Ex.
  rewrite (nth_error_nth' _ 0%N) by (rewrite rev_length; lia). f_equal. rewrite rev_nth by lia. rewrite EL. now replace (i_size t - S i) with (i_size t - 1 - i) by lia.
Qed.
(** There is only one such integer. *)
Theorem C38_unique : forall t v w, 1 <= i_size t -> (i_min t <= v <= i_max t)%Z -> (i_min t <= w <= i_max t)%Z ->
  (forall i, i < i_size t -> byte_of v i = byte_of w i) -> v = w.
Proof. exact type_unique. Qed.
(** Native order is one of the two, with its own error. *)
Theorem C38_ne : forall big t l,
  try_map (from_ne_bytes big t) (VText l) =
  if i_size t <=? length l then try_map ((if big then from_be_bytes else from_le_bytes) t) (VText l) else Err EFromNeBytes.
Proof. intros big t l. unfold from_ne_bytes, from_be_bytes, from_le_bytes. destruct big; cbn [try_map bytes_mapper]; unfold from_bytes; (repeat match goal with |- context[Nat.leb ?a ?b] => destruct (Nat.leb_spec a b) end); try reflexivity; unfold text, item in *; lia. Qed.
(** With fewer bytes the decoder returns its error. *)
Theorem C38_short : forall t (l : text), length l < i_size t ->
  try_map (from_le_bytes t) (VText l) = Err EFromLeBytes /\ try_map (from_be_bytes t) (VText l) = Err EFromBeBytes /\
  forall big, try_map (from_ne_bytes big t) (VText l) = Err EFromNeBytes.
Proof.
  intros t l H. repeat split; intros; cbn; unfold from_bytes; (destruct (Nat.leb_spec (i_size t) (length l)); [lia|reflexivity]).
Qed.
(** Decoding the bytes of an integer gives it back, whatever follows. *)
Definition encoded_le (t : ity) (v : Z) : text := map (byte_of v) (seq 0 (i_size t)).
Theorem C38_le_encode : forall t v (rest : text), 1 <= i_size t -> (i_min t <= v <= i_max t)%Z -> Forall is_byte rest ->
  try_map (from_le_bytes t) (VText (encoded_le t v ++ rest)) = Ok (VNum v).
Proof.
  intros t v rest H V F. assert (length (encoded_le t v) = i_size t) as EL by (unfold encoded_le; rewrite map_length; apply seq_length).
  destruct (C38_le t (encoded_le t v ++ rest) H) as (v' & E & R & B).
  - apply Forall_app. split; [|exact F]. apply Forall_forall. intros x Hx. apply in_map_iff in Hx. destruct Hx as (i & <- & _). apply byte_of_byte.
  - rewrite app_length. lia.
  - rewrite E. do 2 f_equal. apply (type_unique t); auto. intros i Hi. specialize (B i Hi). rewrite nth_error_app1 in B by lia.
    unfold encoded_le in B. rewrite (map_nth_error _ _ (seq 0 (i_size t)) (d := i)) in B; [congruence|].
    rewrite (nth_error_nth' _ 0) by (rewrite seq_length; lia). now rewrite seq_nth.
Qed.
Theorem C38_be_encode : forall t v (rest : text), 1 <= i_size t -> (i_min t <= v <= i_max t)%Z -> Forall is_byte rest ->
  try_map (from_be_bytes t) (VText (rev (encoded_le t v) ++ rest)) = Ok (VNum v).
Proof.
  intros t v rest H V F. assert (length (encoded_le t v) = i_size t) as EL by (unfold encoded_le; rewrite map_length; apply seq_length).
  pose proof (C38_le_encode t v rest H V F) as D. cbn in *. unfold from_bytes in *. rewrite !app_length, !rev_length, EL in *.
  destruct (i_size t <=? _); [|discriminate]. injection D as D. unfold std_from_be, std_from_le in *.
  rewrite firstn_app, EL, Nat.sub_diag, firstn_O, app_nil_r in D. rewrite firstn_all2 in D by lia.
  rewrite firstn_app, rev_length, EL, Nat.sub_diag, firstn_O, app_nil_r. rewrite firstn_all2 by (rewrite rev_length; lia). now rewrite rev_involutive, D.
Qed.
(** [consume(n).try_map(m)] on a byte context: with [n = m.out_size()] bytes left, what the mapper says about
    them, and the cursor is behind them; with fewer, [consume]'s error. *)
Theorem C38_parser : forall G (m : mapper) w i, i + out_size m <= length w ->
  try_map m (VText (firstn (out_size m) (skipn i w))) <> OOF ->
  Builds extract_text G [] (mapped (PConsume (out_size m)) m) (Ctx KBytes w i) tt
    (try_map m (VText (firstn (out_size m) (skipn i w)))) (Ctx KBytes w (i + out_size m)) tt.
Proof.
  intros G m w i H N. apply map_builds_ok; [exact N|].
  assert (Ctx KBytes w i = cx KBytes w i) as -> by (unfold cx; now rewrite bo_bytes by lia).
  assert (Ctx KBytes w (i + out_size m) = cx KBytes w (i + out_size m)) as -> by (unfold cx; now rewrite bo_bytes by lia).
  assert (Matches KBytes G (PConsume (out_size m)) w i i (i + out_size m)) as M.
  { split; [lia|]. split; [lia|]. exists 1. unfold cx, sp. rewrite !bo_bytes by lia.
    cbn. unfold consume_parse, bind, remaining, csub, ctx_len. cbn [c_kind c_dat c_off]. rewrite tlen_bytes.
    destruct (Nat.leb_spec i (length w)); [|lia]. destruct (Nat.leb_spec (out_size m) (length w - i)); [|lia]. now replace (i + out_size m - i) with (out_size m) by lia. }
  apply leafy_extract in M; [|exact I]. now replace (i + out_size m - i) with (out_size m) in M by lia.
Qed.
Theorem C38_parser_short : forall G (m : mapper) w i, i <= length w -> length w < i + out_size m ->
  Builds extract_text G [] (mapped (PConsume (out_size m)) m) (Ctx KBytes w i) tt (Err EConsume) (Ctx KBytes w i) tt.
Proof.
  intros G m w i H L. apply map_builds_err. apply leafy_builds; [exact I|]. apply pat_builds_err. apply consume_any_err; unfold ctx_len; cbn [c_kind c_dat c_off]; rewrite tlen_bytes; lia.
Qed.
(** The integer types with instances: the ten sizes and signs, with their ranges. *)
Theorem C38_types :
  (forall t, In t int_types <-> In (i_size t) [1; 2; 4; 8; 16]) /\
  map (fun t => (i_min t, i_max t)) int_types =
  [(-128, 127); (0, 255); (-32768, 32767); (0, 65535); (-2147483648, 2147483647); (0, 4294967295);
   (-9223372036854775808, 9223372036854775807); (0, 18446744073709551615);
   (-170141183460469231731687303715884105728, 170141183460469231731687303715884105727);
   (0, 340282366920938463463374607431768211455)]%Z.
Proof.
  split; [|vm_compute; reflexivity]. intros [n b]. split.
  - intros H. cbn [i_size]. unfold int_types in H. cbn [In] in H. repeat destruct H as [H|H]; try contradiction; injection H as <- <-; cbn; auto 8.
  - cbn [i_size]. intros H. cbn [In] in H. repeat destruct H as [<-|H]; try contradiction; destruct b; cbn; auto 12.
Qed.
Example C38_case :
  Forall is_byte [1; 2; 3; 255]%N /\
  try_map (from_le_bytes (ITy 4 true)) (VText [1; 2; 3; 255; 7]%N) = Ok (VNum (-16580095)%Z) /\
  try_map (from_be_bytes (ITy 2 false)) (VText [255; 254; 7]%N) = Ok (VNum 65534%Z) /\
  try_map (from_be_bytes (ITy 2 true)) (VText [255; 254; 7]%N) = Ok (VNum (-2)%Z) /\
  try_map (from_be_bytes (ITy 2 true)) (VText [255]%N) = Err EFromBeBytes /\
  encoded_le (ITy 4 true) (-16580095)%Z = [1; 2; 3; 255]%N.
Proof. split; [repeat constructor|]. vm_compute. repeat split. Qed.

(** ** C39: bounded, select, with_default *)

(** The [PartialOrd] and [PartialEq] of integers. *)
Definition num_leb (a b : val) : bool := match a, b with VNum x, VNum y => (x <=? y)%Z | _, _ => false end.
Definition num_ltb (a b : val) : bool := match a, b with VNum x, VNum y => (x <? y)%Z | _, _ => false end.

(** [bounded(min, max)] passes exactly the values with [min <= v < max], unchanged. *)
Theorem C39_bounded : forall size lo hi v r,
  try_map (bounded num_leb num_ltb (VNum lo) (VNum hi) size) (VNum v) = Ok r <-> r = VNum v /\ (lo <= v < hi)%Z.
Proof.
  intros. cbn. destruct (Z.leb_spec lo v), (Z.ltb_spec v hi); cbn; split; try discriminate; try (intros [= <-]; split; [reflexivity|lia]);
    try (intros [-> ?]; reflexivity || lia).
Qed.
(** The others are rejected, and nothing else can happen. *)
Theorem C39_bounded_err : forall size lo hi v, ~ (lo <= v < hi)%Z ->
  exists e, try_map (bounded num_leb num_ltb (VNum lo) (VNum hi) size) (VNum v) = Err e.
Proof. intros. cbn. destruct (Z.leb_spec lo v), (Z.ltb_spec v hi); cbn; eauto. lia. Qed.
(** With any other partial order: a value that is not comparable to a bound (a NaN) is rejected. *)
Theorem C39_bounded_partial_order : forall leb ltb size lo hi v, leb lo v = false \/ ltb v hi = false ->
  exists e, try_map (bounded leb ltb lo hi size) v = Err e.
Proof. intros leb ltb size lo hi v [H|H]; cbn [try_map bounded]; rewrite H, ?andb_false_r, ?andb_false_l; exists ESelectEq; reflexivity. Qed.
(** The error is [SelectEq]; the library's [Bounded] error is never used. *)
Theorem C39_bounded_error_refuted : forall leb ltb size lo hi v e,
  try_map (bounded leb ltb lo hi size) v = Err e -> e = ESelectEq /\ e <> EBounded.
Proof. intros leb ltb size lo hi v e. cbn. destruct (_ && _); [discriminate|]. intros [= <-]. split; [reflexivity|discriminate]. Qed.

Theorem C39_select : forall s a b, try_map (select0 s) (VPair a b) = Ok a /\ try_map (select1 s) (VPair a b) = Ok b.
Proof. auto. Qed.
(** [select_eq] passes a pair with equal components, [select_neq] the other pairs; never both. *)
Theorem C39_select_eq : forall (eqb : val -> val -> bool) s a b, (forall x y, eqb x y = true <-> x = y) ->
  (try_map (select_eq eqb s) (VPair a b) = Ok (VPair a b) /\ try_map (select_neq eqb s) (VPair a b) = Err ESelectNeq /\ a = b) \/
  (try_map (select_eq eqb s) (VPair a b) = Err ESelectEq /\ try_map (select_neq eqb s) (VPair a b) = Ok (VPair a b) /\ a <> b).
Proof.
  intros eqb s a b H. cbn. destruct (eqb a b) eqn:E; [left|right]; repeat split; auto.
  - now apply H.
  - intros ->. assert (eqb b b = true) by now apply H. congruence.
Qed.

(** [with_default] gives the mapped value if there is one and the default otherwise; it never fails. *)
Theorem C39_with_default : forall d m v,
  (forall x, try_map m v = Ok x -> try_map (with_default d m) v = Ok x) /\
  (forall e, try_map m v = Err e -> try_map (with_default d m) v = Ok d) /\
  (forall e, try_map (with_default d m) v <> Err e) /\
  out_size (with_default d m) = out_size m.
Proof. intros d m v. cbn. repeat split; intros; try (now rewrite H). destruct (try_map m v); discriminate. Qed.
(** So a parser mapped that way fails only where the parser itself fails. *)
Theorem C39_with_default_parser : forall S (h : handler S) G pols p d m c s r c' s',
  (forall v, try_map m v <> Panic /\ try_map m v <> OOF) -> Builds h G pols p c s r c' s' -> r <> Panic ->
  exists r', Builds h G pols (mapped p (with_default d m)) c s r' c' s' /\
    forall e, r' = Err e <-> r = Err e.
Proof.
  intros S h G pols p d m c s r c' s' T B NP. destruct r as [v|e| |].
  - exists (try_map (with_default d m) v). destruct (T v) as [T1 T2]. split.
    + apply map_builds_ok; [|exact B]. cbn. destruct (try_map m v); congruence.
    + intros e. split; [|discriminate]. intros X. now apply C39_with_default in X.
  - exists (Err e). split; [now apply map_builds_err|]. tauto.
  - congruence.
  - destruct B as (n & _ & X). congruence.
Qed.
Theorem C39_fixed_size : forall n v, try_map (fixed_size n) v = Ok v /\ out_size (fixed_size n) = n.
Proof. auto. Qed.

(** [try_into] at an integer type passes exactly the values of the type, unchanged; the others are the
    [TryInto] error. *)
Theorem C39_try_into : forall t z,
  ((i_min t <= z <= i_max t)%Z /\ try_map (try_into t) (VNum z) = Ok (VNum z)) \/
  (~ (i_min t <= z <= i_max t)%Z /\ try_map (try_into t) (VNum z) = Err ETryInto).
Proof.
  intros t z. cbn [try_into try_map]. unfold in_type. destruct (Z.leb_spec (i_min t) z), (Z.leb_spec z (i_max t)); cbn [andb]; [left|right..]; (split; [lia|reflexivity]).
Qed.
(** The ranges, written out. *)
Theorem C39_ranges : forall n, 1 <= n ->
  i_min (ITy n false) = 0%Z /\ i_max (ITy n false) = (2 ^ (8 * Z.of_nat n) - 1)%Z /\
  i_min (ITy n true) = (- 2 ^ (8 * Z.of_nat n - 1))%Z /\ i_max (ITy n true) = (2 ^ (8 * Z.of_nat n - 1) - 1)%Z.
Proof. intros n _. repeat split. Qed.

(** A closure is a mapper ([try_map(|v| ..)], [map(|v| ..)]): what it returns for the value of the parser is
    what is built; it is not called when the parser fails. *)
Theorem C39_closures : forall S (h : handler S) G pols p size (f : val -> res val) (g : val -> val) c st c' st',
  (forall v, Builds h G pols p c st (Ok v) c' st' -> f v <> OOF ->
     Builds h G pols (mapped p (fn_mapper size f)) c st (f v) c' st' /\
     Builds h G pols (mapped p (func_mapper size g)) c st (Ok (g v)) c' st') /\
  (forall e, Builds h G pols p c st (Err e) c' st' ->
     Builds h G pols (mapped p (fn_mapper size f)) c st (Err e) c' st' /\
     Builds h G pols (mapped p (func_mapper size g)) c st (Err e) c' st').
Proof.
  intros S h G pols p size f g c st c' st'. split.
  - intros v B N. split; [apply (map_builds_ok h G pols p f)|apply (map_builds_ok h G pols p (fun v => Ok (g v)))]; auto; discriminate.
  - intros e B. split; now apply map_builds_err.
Qed.
Example C39_case :
  try_map (try_into (ITy 1 true)) (VNum (-129)%Z) = Err ETryInto /\ try_map (try_into (ITy 1 true)) (VNum (-128)%Z) = Ok (VNum (-128)%Z) /\
  try_map (bounded num_leb num_ltb (VNum 1) (VNum 8) 4) (VNum 1) = Ok (VNum 1) /\
  try_map (bounded num_leb num_ltb (VNum 1) (VNum 8) 4) (VNum 8) = Err ESelectEq /\
  try_map (with_default (VNum 0) (bounded num_leb num_ltb (VNum 1) (VNum 5) 4)) (VNum 7) = Ok (VNum 0).
Proof. vm_compute. auto. Qed.
(** The documentation's "1,3,5,7,9" with [bounded(1, 8)]. *)
Example C39_documented :
  Builds extract_text [] [] (PSep (mapped (mapped number (from_str (ITy 4 true))) (bounded num_leb num_ltb (VNum 1) (VNum 8) 4)) comma 0 true)
    (cx KStr [49; 44; 51; 44; 53; 44; 55; 44; 57]%N 0) tt
    (Ok (VList [VNum 1; VNum 3; VNum 5; VNum 7])) (cx KStr [49; 44; 51; 44; 53; 44; 55; 44; 57]%N 9) tt.
Proof. exists 30. split; [vm_compute; reflexivity|discriminate]. Qed.

(** ** C53: reading numbers

    [Numeral r l n]: [l] consists of digits in base [r], most significant first, and denotes [n]
    (MapLaws.v). *)

(** [from_str_radix] accepts a non-empty numeral, optionally preceded by [+], or by [-] if the type is
    signed, whose value is in the range of the type; it returns that value; everything else is an error. *)
Definition Denotes (t : ity) (radix : N) (l : text) (z : Z) : Prop :=
  exists ds n, ds <> [] /\ Numeral radix ds n /\
    ((l = ds /\ z = n) \/ (l = 43%N :: ds /\ z = n) \/ (i_signed t = true /\ l = 45%N :: ds /\ z = (- n)%Z)) /\
    (i_min t <= z <= i_max t)%Z.

Lemma zero_in_type t : 1 <= i_size t -> in_type t 0 = true.
Proof. intros H. apply in_type_spec. destruct (type_width t H). lia. Qed.
Lemma parse_int_spec t r l z : 1 <= i_size t -> (1 <= r)%N -> parse_int t r l = Some z <-> Denotes t r l z.
Proof.
  intros HT HR. unfold parse_int, Denotes. pose proof (zero_in_type t HT) as Z0.
  assert (forall neg l, read_digits t r neg 0 l = Some z <-> exists n, Numeral r l n /\ z = signed_by neg n /\ in_type t z = true) as RD.
  { intros neg l'. replace 0%Z with (signed_by neg 0) at 1 by now destruct neg.
    rewrite (read_digits_spec t r neg HT HR l' 0 z); [|lia|now destruct neg]. setoid_rewrite <- numeral_numfrom. tauto. }
  assert (forall c ds n, Numeral r ds n -> forall l', ds = c :: l' -> exists d, digit_value c = Some d) as DV.
  { intros c ds n H. apply numeral_numfrom in H. intros l' ->. inversion H; subst. eauto. }
  destruct l as [|c l'].
  { split; [discriminate|]. intros (ds & n & N & _ & [[E _]|[[E _]|(_ & E & _)]] & _); congruence. }
  destruct (N.eqb_spec c 43) as [->|C1].
  { destruct l' as [|c' l'].
    - split; [discriminate|]. intros (ds & n & N & H & [[E _]|[[E _]|(_ & E & _)]] & _); try congruence.
      symmetry in E. destruct (DV _ _ _ H _ E) as (d & D). discriminate.
    - rewrite RD. split.
      + intros (n & H & -> & I). exists (c' :: l'), n. apply in_type_spec in I. repeat split; auto; try discriminate; apply I.
      + intros (ds & n & N & H & [[E _]|[[E Ez]|(_ & E & _)]] & I).
        * symmetry in E. destruct (DV _ _ _ H _ E) as (d & D). discriminate.
        * injection E as ->. exists n. apply in_type_spec in I. auto.
        * discriminate. }
  destruct (N.eqb_spec c 45) as [->|C2]; cbn [andb].
  { destruct (i_signed t) eqn:SG.
    - destruct l' as [|c' l'].
      + split; [discriminate|]. intros (ds & n & N & H & [[E _]|[[E _]|(_ & E & _)]] & _); try congruence.
        symmetry in E. destruct (DV _ _ _ H _ E) as (d & D). discriminate.
      + rewrite RD. split.
        * intros (n & H & -> & I). exists (c' :: l'), n. apply in_type_spec in I. split; [discriminate|]. split; [exact H|]. split; [|exact I]. right. right. auto.
        * intros (ds & n & N & H & [[E _]|[[E Ez]|(_ & E & Ez)]] & I).
          -- symmetry in E. destruct (DV _ _ _ H _ E) as (d & D). discriminate.
          -- discriminate.
          -- injection E as ->. exists n. apply in_type_spec in I. auto.
    - cbn [read_digits]. split; [discriminate|]. intros (ds & n & N & H & [[E _]|[[E Ez]|(X & _)]] & I); try discriminate.
      symmetry in E. destruct (DV _ _ _ H _ E) as (d & D). discriminate. }
  rewrite RD. split.
  - intros (n & H & -> & I). exists (c :: l'), n. apply in_type_spec in I. split; [discriminate|]. auto.
  - intros (ds & n & N & H & [[E Ez]|[[E Ez]|(_ & E & Ez)]] & I); try congruence. subst ds. exists n. apply in_type_spec in I. auto.
Qed.

Theorem C53_from_str_radix : forall t radix l r, 1 <= i_size t -> (2 <= radix <= 36)%N ->
  (forall z, try_map (from_str_radix t radix) (VText l) = Ok (VNum z) <-> Denotes t radix l z) /\
  (try_map (from_str_radix t radix) (VText l) = r -> (exists z, r = Ok (VNum z)) \/ r = Err EFromStr).
Proof.
  intros t radix l r H R. cbn. assert ((2 <=? radix) && (radix <=? 36) = true)%N as -> by lia. split.
  - intros z. rewrite <- parse_int_spec by lia. destruct (parse_int t radix l); split; congruence.
  - intros <-. destruct (parse_int t radix l); eauto.
Qed.
(** [from_str] at an integer type is the decimal case. *)
Theorem C53_from_str : forall t l z, 1 <= i_size t ->
  try_map (from_str t) (VText l) = Ok (VNum z) <-> Denotes t 10 l z.
Proof. intros t l z H. cbn. rewrite <- parse_int_spec by lia. destruct (parse_int t 10 l); split; congruence. Qed.
(** A text denotes at most one number. *)
Theorem C53_unique : forall t radix l z z', 1 <= i_size t -> (2 <= radix <= 36)%N -> Denotes t radix l z -> Denotes t radix l z' -> z = z'.
Proof. intros t radix l z z' H R A B. apply parse_int_spec in A, B; auto; [congruence|lia|lia]. Qed.

(** A run of digits always denotes a number, so a number parser can only fail because there is no digit
    or because the number is out of range: [digit(radix).many1().try_map(from_str_radix(radix))]. *)
Lemma digits_numeral radix ds : (forall x, In x ds -> is_digit radix x = true) -> exists n, Numeral radix ds n.
Proof.
  induction ds as [|c ds IH] using rev_ind; intros H; [eexists; constructor|].
  destruct IH as (n & N); [intros x Hx; apply H, in_or_app; auto|].
  specialize (H c ltac:(apply in_or_app; cbn; auto)). unfold is_digit in H. destruct (digit_value c) as [d|] eqn:D; [|discriminate].
  eexists. econstructor; eauto. now apply N.ltb_lt.
Qed.
Theorem C53_number_parser : forall k G t radix w i n, core_env k G no_skip -> 1 <= i_size t -> (2 <= radix <= 36)%N ->
  i <= length w -> 0 < n -> MaxRun (is_digit radix) w i None n ->
  exists z, Numeral radix (firstn n (skipn i w)) z /\
  Builds extract_text G [] (mapped (PMany1 (NDigit radix) CEmpty) (from_str_radix t radix)) (cx k w i) tt
    (if in_type t z then Ok (VNum z) else Err EFromStr) (cx k w (i + n)) tt.
Proof.
  intros k G t radix w i n CE HT HR Hi Hn MR.
  assert (Matches k G (PMany1 (NDigit radix) CEmpty) w i i (i + n)) as M by (apply (many1_run k G CE (NDigit radix)); eauto).
  pose proof M as (_ & HL & _).
  apply leafy_extract in M; [|exact I]. replace (i + n - i) with n in M by lia.
  destruct (digits_numeral radix (firstn n (skipn i w))) as (z & N).
  { intros x Hx. apply In_nth_error in Hx. destruct Hx as (m & Hm).
    assert (m < n) as Lm. { assert (m < length (firstn n (skipn i w))) by (apply nth_error_Some; intros X; unfold item in *; congruence). rewrite firstn_length in *. lia. }
    destruct MR as (MR & _). destruct (MR m Lm) as (y & Ey & Fy).
    assert (nth_error (skipn i w) m = Some x) as Ex.
    { rewrite <- (firstn_skipn n (skipn i w)). rewrite nth_error_app1; [exact Hm|apply nth_error_Some; intros X; unfold item in *; congruence]. }
    rewrite <- (firstn_skipn i w), nth_error_app2 in Ey by (rewrite firstn_length; lia).
    rewrite firstn_length in Ey. replace (i + m - Nat.min i (length w)) with m in Ey by lia. rewrite Ex in Ey. injection Ey as ->. exact Fy. }
  exists z. split; [exact N|].
  assert (try_map (from_str_radix t radix) (VText (firstn n (skipn i w))) = if in_type t z then Ok (VNum z) else Err EFromStr) as E.
  { destruct (C53_from_str_radix t radix (firstn n (skipn i w)) (try_map (from_str_radix t radix) (VText (firstn n (skipn i w)))) HT HR) as [S1 S2].
    assert (firstn n (skipn i w) <> []) as NE.
    { intros X. assert (length (firstn n (skipn i w)) = 0) as L0 by now rewrite X. rewrite firstn_length, skipn_length in L0. lia. }
    destruct (in_type t z) eqn:I.
    - apply S1. apply in_type_spec in I. exists (firstn n (skipn i w)), z. split; [exact NE|]. split; [exact N|]. split; [left; split; reflexivity|exact I].
    - destruct (S2 eq_refl) as [(z' & X)|X]; [|exact X]. exfalso. apply S1 in X. destruct X as (ds & m & N1 & N2 & [[X Xz]|[[X Xz]|(_ & X & Xz)]] & R).
      + rewrite <- X in N2. apply numeral_numfrom in N2, N. rewrite (numfrom_det _ _ _ _ N2 _ N) in Xz. subst z'. apply in_type_spec in R. congruence.
      + rewrite X in N. apply numeral_numfrom in N. inversion N; subst. discriminate.
      + rewrite X in N. apply numeral_numfrom in N. inversion N; subst. discriminate. }
  rewrite <- E. apply map_builds_ok; [|exact M]. rewrite E. destruct (in_type t z); discriminate.
Qed.
(** Without a digit it fails where it is. *)
Theorem C53_number_parser_err : forall k G t radix w i, core_env k G no_skip -> i <= length w -> MaxRun (is_digit radix) w i None 0 ->
  Builds extract_text G [] (mapped (PMany1 (NDigit radix) CEmpty) (from_str_radix t radix)) (cx k w i) tt (Err EMany1) (cx k w i) tt.
Proof.
  intros k G t radix w i CE Hi MR. apply map_builds_err. apply leafy_builds; [exact I|]. apply pat_builds_err.
  assert (Fails k G (PMany1 (NDigit radix) CEmpty) w i EMany1) as (n & F) by (apply (many1_fails k G CE (NDigit radix)); auto).
  exists n. split; [exact F|discriminate].
Qed.
Example C53_case :
  (* "23" *) Denotes (ITy 1 false) 10 [50; 51]%N 23 /\
  try_map (from_str_radix (ITy 1 true) 16) (VText [45; 56; 48]%N) = Ok (VNum (-128)) /\
  try_map (from_str_radix (ITy 1 true) 16) (VText [56; 48]%N) = Err EFromStr /\
  try_map (from_str_radix (ITy 1 false) 10) (VText [45; 49]%N) = Err EFromStr /\
  try_map (from_str_radix (ITy 1 false) 10) (VText [43]%N) = Err EFromStr /\
  MaxRun (is_digit 10) sample 3 None 2.
Proof.
  repeat split.
  - exists [50; 51]%N, 23%Z. split; [discriminate|]. split; [|split; [auto|cbn; lia]].
    apply (num_snoc 10 [50]%N 51%N 3%N 2%Z); [|reflexivity|reflexivity]. apply (num_snoc 10 [] 50%N 2%N 0%Z); [constructor|reflexivity|reflexivity].
  - intros m Hm. destruct m as [|[|m]]; [eexists; split; reflexivity..|lia].
  - right. cbn. intros x [= <-]. reflexivity.
Qed.

(** ** C54: decoding UTF-8 *)

(** [from_utf8] accepts exactly the byte sequences that are the encoding of a sequence of Unicode scalar
    values, and returns those. *)
Theorem C54_from_utf8 : forall s l t,
  try_map (from_utf8 s) (VText l) = Ok (VText t) <-> valid_text KStr t = true /\ raw KStr t = l.
Proof.
  intros s l t. cbn. split.
  - destruct (decode l) as [t'|] eqn:D; [|discriminate]. intros [= <-]. now apply (decode_raw (length l)).
  - intros [V <-]. now rewrite raw_decode.
Qed.
Theorem C54_otherwise : forall s l, (forall t, valid_text KStr t = true -> raw KStr t <> l) ->
  try_map (from_utf8 s) (VText l) = Err EUtf8Error.
Proof.
  intros s l H. cbn. destruct (decode l) as [t|] eqn:D; [|reflexivity]. apply (decode_raw (length l)) in D; [|lia]. destruct D as [V E]. now apply H in E.
Qed.
(** A text is the only one with its encoding. *)
Theorem C54_unique : forall t t', valid_text KStr t = true -> valid_text KStr t' = true -> raw KStr t = raw KStr t' -> t = t'.
Proof. intros t t' V V' E. apply raw_decode in V, V'. congruence. Qed.
(** Matching the bytes of a text as [&[u8]] and decoding afterwards gives back the text. *)
Theorem C54_parser : forall G s t, valid_text KStr t = true ->
  Builds extract_text G [] (mapped PConsumeAll (from_utf8 s)) (Ctx KBytes (raw KStr t) 0) tt (Ok (VText t)) (Ctx KBytes (raw KStr t) (length (raw KStr t))) tt.
Proof.
  intros G s t V. assert (try_map (from_utf8 s) (VText (raw KStr t)) = Ok (VText t)) as E by now apply C54_from_utf8.
  rewrite <- E. apply map_builds_ok; [rewrite E; discriminate|].
  set (w := raw KStr t) in *. assert (Matches KBytes G PConsumeAll w 0 0 (length w)) as M.
  { split; [lia|]. split; [apply le_n|]. exists 1. unfold cx, sp. rewrite bo_0, bo_bytes by apply le_n. cbn. unfold consume_all_parse, bind, reads, ctx_len. cbn. rewrite tlen_bytes. rewrite !Nat.sub_0_r. reflexivity. }
  apply leafy_extract in M; [|exact I]. unfold cx in M. rewrite bo_0, bo_bytes in M by apply le_n. cbn [skipn] in M.
  rewrite Nat.sub_0_r, firstn_all in M. exact M.
Qed.
Example C54_case :
  try_map (from_utf8 16) (VText [195; 169; 226; 130; 172; 240; 159; 152; 128]%N) = Ok (VText [233; 8364; 128512]%N) /\
  try_map (from_utf8 16) (VText [237; 160; 128]%N) = Err EUtf8Error /\ (* a surrogate *)
  try_map (from_utf8 16) (VText [192; 128]%N) = Err EUtf8Error /\ (* an overlong encoding *)
  try_map (from_utf8 16) (VText [195]%N) = Err EUtf8Error /\ valid_text KStr sample = true.
Proof. vm_compute. repeat split. Qed.

Print Assumptions C38_le.
Print Assumptions C38_be.
Print Assumptions C38_unique.
Print Assumptions C38_ne.
Print Assumptions C38_short.
Print Assumptions C38_le_encode.
Print Assumptions C38_be_encode.
Print Assumptions C38_parser.
Print Assumptions C38_parser_short.
Print Assumptions C38_types.
Print Assumptions C39_bounded.
Print Assumptions C39_bounded_err.
Print Assumptions C39_bounded_partial_order.
Print Assumptions C39_bounded_error_refuted.
Print Assumptions C39_select.
Print Assumptions C39_select_eq.
Print Assumptions C39_with_default.
Print Assumptions C39_with_default_parser.
Print Assumptions C39_fixed_size.
Print Assumptions C39_try_into.
Print Assumptions C39_ranges.
Print Assumptions C39_closures.
Print Assumptions C53_from_str_radix.
Print Assumptions C53_from_str.
Print Assumptions C53_unique.
Print Assumptions C53_number_parser.
Print Assumptions C53_number_parser_err.
Print Assumptions C54_from_utf8.
Print Assumptions C54_otherwise.
Print Assumptions C54_unique.
Print Assumptions C54_parser.
