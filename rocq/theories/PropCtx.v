(** C50, C52: navigating a context, and what a parser can see of the text. *)

From Coq Require Import List Arith NArith ZArith Bool Lia.
From Verif Require Import Base Text Context Neu Syntax Regex Ctor Api TextProofs Spec Core Obs CursorLaws StoreLaws Rel Shift Samples.
Import ListNotations.

(** ** C50: navigation *)

(** On a [str], [orig_at(o)] is the bytes from [o] on exactly when [o] is a character boundary;
    anywhere else, inside a character or behind the end, it is [OutOfBound]. *)
Theorem C50_orig_str : forall c o, c_kind c = KStr -> valid_text KStr (c_dat c) = true ->
  if is_char_boundary (raw KStr (c_dat c)) o
  then exists t, orig_at c o = Ok t /\ raw KStr t = skipn o (raw KStr (c_dat c))
  else orig_at c o = Err EOutOfBound.
Proof.
  intros [k w x] o. cbn [c_kind c_dat]. intros -> V. unfold orig_at. cbn [c_kind c_dat].
  destruct (is_char_boundary _ _) eqn:B.
  - apply (drop_at_boundary w o V) in B. destruct B as [l D]. rewrite D. exists l. split; [reflexivity|].
    apply drop_at_some in D. destruct D as (i & H1 & -> & ->). now rewrite skipn_raw.
  - destruct (drop_at KStr w o) eqn:D; [|reflexivity].
    assert (is_char_boundary (raw KStr w) o = true) by (apply (drop_at_boundary w o V); eauto). congruence.
Qed.

(** On bytes, up to the end. *)
Theorem C50_orig_bytes : forall c o, c_kind c = KBytes -> o <= length (c_dat c) -> orig_at c o = Ok (skipn o (c_dat c)).
Proof.
  intros [k w x] o. cbn [c_kind c_dat]. intros -> H. unfold orig_at, ctx_len, csub. cbn [c_kind c_dat]. rewrite tlen_bytes.
  destruct (Nat.leb_spec o (length w)); [|lia]. unfold orig_sub. cbn [c_kind c_dat].
  rewrite <- (bo_bytes w o) at 1 by lia. rewrite drop_at_bo by lia.
  assert (length w - o = bo KBytes (skipn o w) (length (skipn o w))) as -> by (rewrite bo_len, tlen_bytes, skipn_length; lia).
  rewrite take_at_bo by lia. now rewrite firstn_all.
Qed.
(** Behind the end of a byte slice there is no error but an arithmetic overflow: a panic. *)
Theorem C50_orig_bytes_refuted : forall c o, c_kind c = KBytes -> length (c_dat c) < o ->
  orig_at c o = Panic /\ peek_at c o = Panic /\ clone_at c o = Panic.
Proof.
  intros [k w x] o. cbn [c_kind c_dat]. intros -> H.
  assert (orig_at (Ctx KBytes w x) o = Panic) as E.
  { unfold orig_at, ctx_len, csub. cbn [c_kind c_dat]. rewrite tlen_bytes. destruct (Nat.leb_spec o (length w)); [lia|reflexivity]. }
  unfold peek_at, clone_at. now rewrite E.
Qed.

(** [orig_sub(o, n)] is the [n] bytes from [o] on, if they are inside the text and (for a [str]) both
    ends are character boundaries. *)
Theorem C50_orig_sub : forall c o n t, orig_sub c o n = Ok t ->
  o + n <= ctx_len c /\ raw (c_kind c) t = firstn n (skipn o (raw (c_kind c) (c_dat c))).
Proof.
  intros [k w x] o n t. unfold orig_sub, ctx_len. cbn [c_kind c_dat]. destruct (drop_at k w o) as [l|] eqn:D; [|discriminate].
  apply drop_at_some in D. destruct D as (i & Hi & -> & ->).
  destruct (take_at k (skipn i w) n) as [l|] eqn:T; [|discriminate].
  apply take_at_some in T. destruct T as (j & Hj & -> & ->). intros [= <-]. split.
  - rewrite <- bo_add. apply bo_le_len.
  - rewrite skipn_raw, firstn_raw by assumption. reflexivity.
Qed.
Theorem C50_orig_sub_ok : forall c o n, valid_text (c_kind c) (c_dat c) = true ->
  (exists t, orig_sub c o n = Ok t) <->
  o + n <= ctx_len c /\
  (c_kind c = KStr -> is_char_boundary (raw KStr (c_dat c)) o = true /\ is_char_boundary (raw KStr (c_dat c)) (o + n) = true).
Proof.
  intros [k w x] o n. unfold ctx_len. cbn [c_kind c_dat]. intros V. split.
  - intros [t E]. unfold orig_sub in E. cbn [c_kind c_dat] in E. destruct (drop_at k w o) as [l|] eqn:D; [|discriminate].
    apply drop_at_some in D. destruct D as (i & Hi & -> & ->).
    destruct (take_at k (skipn i w) n) as [l|] eqn:T; [|discriminate].
    apply take_at_some in T. destruct T as (j & Hj & -> & ->). rewrite skipn_length in Hj. rewrite <- bo_add.
    split; [apply bo_le_len|]. intros ->. split; apply (bo_is_boundary w _ V); eexists; (split; [|reflexivity]); lia.
  - intros [H1 H2]. assert (exists i j, i <= length w /\ j <= length w /\ i <= j /\ o = bo k w i /\ o + n = bo k w j) as (i & j & Hi & Hj & Hij & E1 & E2).
    { destruct k.
      - rewrite tlen_bytes in H1. exists o, (o + n). rewrite !bo_bytes by lia. lia.
      - destruct (H2 eq_refl) as [B1 B2]. apply (bo_is_boundary w _ V) in B1, B2. destruct B1 as (i & Hi & E1), B2 as (j & Hj & E2).
        exists i, j. repeat split; auto. apply (bo_le_iff KStr w i j Hi Hj). lia. }
    unfold orig_sub. cbn [c_kind c_dat]. subst o. rewrite drop_at_bo by assumption.
    replace j with (i + (j - i)) in E2 by lia. rewrite bo_add in E2. assert (n = bo k (skipn i w) (j - i)) as -> by lia.
    rewrite take_at_bo by (rewrite skipn_length; lia). eauto.
Qed.

(** [peek_at(o)] walks the items of [orig_at(o)], each with its distance in bytes from [o]. *)
Theorem C50_peek : forall c o l, peek_at c o = Ok l ->
  exists t, orig_at c o = Ok t /\ map snd l = t /\
    forall n d x, nth_error l n = Some (d, x) ->
      d = length (raw (c_kind c) (firstn n t)) /\
      exists rest, skipn (o + d) (raw (c_kind c) (c_dat c)) = enc (c_kind c) x ++ rest.
Proof.
  intros [k w y] o l. unfold peek_at. cbn [c_kind c_dat]. destruct (orig_at (Ctx k w y) o) as [t| | |] eqn:E; try discriminate.
  intros [= <-]. exists t. split; [reflexivity|].
  assert (skipn o (raw k w) = raw k t) as ER.
  { unfold orig_at in E. cbn [c_kind c_dat] in E. destruct k.
    - unfold ctx_len, csub in E. cbn [c_kind c_dat] in E. destruct (Nat.leb_spec o (tlen KBytes w)); [|discriminate].
      apply C50_orig_sub in E. cbn [c_kind c_dat] in E. destruct E as [E1 E2]. rewrite E2. symmetry. apply firstn_all2. rewrite skipn_length, raw_length. lia.
    - destruct (drop_at KStr w o) eqn:D; [|discriminate]. injection E as ->. apply drop_at_some in D. destruct D as (i & Hi & -> & ->).
      symmetry. now rewrite skipn_raw. }
  assert (forall t i, map snd (indices k i t) = t) as HM.
  { induction t0 as [|a t0 IH]; intros i; cbn [indices map snd]; [reflexivity|]. now rewrite IH. }
  split; [apply HM|]. intros n d x H.
  pose proof (nth_error_Some (indices k 0 t) n) as L. rewrite H in L. assert (n < length t) as HL by (rewrite indices_length in L; apply L; discriminate).
  apply (nth_error_nth _ _ (0, 0%N)) in H. rewrite indices_nth in H by assumption. cbn [snd] in H. injection H as <- Hx.
  split; [unfold bo; now rewrite raw_length|].
  exists (raw k (skipn (S n) t)). cbn [Nat.add]. rewrite (skipn_add (raw k w) o (bo k t n)).
  rewrite ER. assert (skipn (bo k t n) (raw k t) = raw k (skipn n t)) as -> by (apply skipn_raw; lia).
  assert (skipn n t = x :: skipn (S n) t) as ->; [|reflexivity].
  subst x. clear -HL. revert n HL. induction t as [|a t IH]; intros n HL; cbn in *; [lia|]. destruct n; [reflexivity|]. cbn [skipn nth]. apply IH. lia.
Qed.

(** [clone_at(o)] is a fresh context over [orig_at(o)]: its offset is 0 and what it sees at offset [x] is
    what the original context sees at [o + x]. *)
Theorem C50_clone : forall c o c', clone_at c o = Ok c' ->
  c_off c' = 0 /\ orig_at c o = Ok (c_dat c') /\ c_kind c' = c_kind c /\
  ctx_len c = o + ctx_len c' /\
  (forall x, orig_at c' x = orig_at c (o + x)) /\
  (forall x, peek_at c' x = peek_at c (o + x)) /\
  (forall x n, orig_sub c' x n = orig_sub c (o + x) n).
Proof.
  intros [k w y] o c'. unfold clone_at. cbn [c_kind c_dat]. destruct (orig_at (Ctx k w y) o) as [t| | |] eqn:E; try discriminate.
  intros [= <-]. cbn.
  assert (exists i, i <= length w /\ o = bo k w i /\ t = skipn i w) as (i & Hi & -> & ->).
  { unfold orig_at in E. cbn [c_kind c_dat] in E. destruct k.
    - unfold ctx_len, csub in E. cbn [c_kind c_dat] in E. destruct (Nat.leb_spec o (tlen KBytes w)); [|discriminate].
      rewrite tlen_bytes in *. exists o. rewrite bo_bytes by lia. repeat split; auto.
      pose proof (C50_orig_bytes (Ctx KBytes w y) o eq_refl) as E'. unfold orig_at, ctx_len, csub in E'. cbn [c_kind c_dat] in E'.
      rewrite tlen_bytes in E'. destruct (Nat.leb_spec o (length w)); [|lia]. rewrite E' in E by lia. now injection E as ->.
    - destruct (drop_at KStr w o) eqn:D; [|discriminate]. injection E as <-. now apply drop_at_some. }
  assert (behind k (firstn i w) (Ctx k w (bo k w i)) (Ctx k (skipn i w) 0)) as B.
  { repeat split; cbn; [symmetry; apply firstn_skipn|]. unfold bo. lia. }
  assert (forall x, orig_at (Ctx k (skipn i w) 0) x = orig_at (Ctx k w y) (bo k w i + x)) as HO.
  { intros x. symmetry. exact (b_orig_at _ _ _ _ x B). }
  repeat split; auto.
  - unfold ctx_len. cbn. rewrite <- (firstn_skipn i w) at 1. now rewrite tlen_app.
  - intros x. unfold peek_at. cbn [c_kind]. now rewrite <- HO.
  - intros x n. symmetry. exact (b_sub _ _ _ _ x n B).
Qed.

(** The cursor operations. *)
Inductive nav : Type :=
| NSetOffset (o : nat) | NInc (n : nat) | NDec (n : nat) | NReset | NWithOffset (o : nat)
| NWithDat (d : text) | NResetWith (d : text).
Definition navigate (a : nav) : M ctx unit :=
  match a with
  | NSetOffset o => set_offset o
  | NInc n => inc n
  | NDec n => dec n
  | NReset => fun c => (Ok tt, reset c)
  | NWithOffset o => fun c => (Ok tt, with_offset c o)
  | NWithDat d => fun c => (Ok tt, with_dat c d)
  | NResetWith d => fun c => (Ok tt, reset_with c d)
  end.
Fixpoint navigates (l : list nav) : M ctx unit :=
  match l with [] => ret tt | a :: l' => navigate a ;; navigates l' end.

(** What the history says: the last text given, and the last position given plus the moves since. *)
Definition last_text (l : list nav) (w : text) : text :=
  fold_left (fun w a => match a with NWithDat d | NResetWith d => d | _ => w end) l w.
Definition position (l : list nav) (o : Z) : Z :=
  fold_left (fun o a => match a with
                        | NSetOffset n | NWithOffset n => Z.of_nat n
                        | NInc n => o + Z.of_nat n
                        | NDec n => o - Z.of_nat n
                        | NReset | NResetWith _ => 0
                        | NWithDat _ => o
                        end)%Z l o.

(** After any history the context is the last text with the cursor where the history puts it. *)
Theorem C50_history : forall l c c', navigates l c = (Ok tt, c') ->
  c_dat c' = last_text l (c_dat c) /\ Z.of_nat (c_off c') = position l (Z.of_nat (c_off c)) /\ c_kind c' = c_kind c.
Proof.
  induction l as [|a l IH]; intros c c' H.
  - cbn in H. injection H as <-. auto.
  - cbn [navigates] in H. unfold bind at 1 in H. unfold last_text, position. cbn [fold_left].
    destruct a; cbn [navigate] in H; unfold set_offset, inc, dec in H; cbn in H;
      try (destruct (IH _ _ H) as (A & B & C); cbn in A, B, C; unfold last_text, position in A, B; rewrite A, B, C; rewrite ?Nat2Z.inj_add; auto; fail).
    unfold csub in H. destruct (Nat.leb_spec n (c_off c)); [|discriminate].
    destruct (IH _ _ H) as (A & B & C). cbn in A, B, C. rewrite Nat2Z.inj_sub in B by assumption. auto.
Qed.
(** It only panics when [dec] is asked to go below 0. *)
Theorem C50_history_defined : forall l c,
  (forall l1 n l2, l = l1 ++ NDec n :: l2 -> (Z.of_nat n <= position l1 (Z.of_nat (c_off c)))%Z) ->
  exists c', navigates l c = (Ok tt, c').
Proof.
  induction l as [|a l IH]; intros c H.
  - eexists. reflexivity.
  - cbn [navigates]. unfold bind at 1.
    assert (exists c1, navigate a c = (Ok tt, c1)) as (c1 & E).
    { destruct a; try (eexists; reflexivity). cbn. unfold dec, csub. specialize (H [] n l eq_refl). cbn in H.
      destruct (Nat.leb_spec n (c_off c)); [eexists; reflexivity|lia]. }
    rewrite E. apply IH. intros l1 n l2 ->. specialize (H (a :: l1) n l2 eq_refl).
    assert (navigates [a] c = (Ok tt, c1)) as E1 by (cbn [navigates]; unfold bind; now rewrite E).
    apply C50_history in E1. destruct E1 as (_ & P & _). unfold position in *. cbn [fold_left] in *. now rewrite P.
Qed.

Example C50_orig_at_accent :
  let c := Ctx KStr sample 0 in
  is_char_boundary (raw KStr sample) 6 = true /\ is_char_boundary (raw KStr sample) 7 = false /\
  orig_at c 6 = Ok [233; 8364; 128512]%N /\ orig_at c 7 = Err EOutOfBound /\ orig_at c 16 = Err EOutOfBound /\
  clone_at c 8 = Ok (Ctx KStr [8364; 128512]%N 0) /\ peek_at c 6 = Ok [(0, 233%N); (2, 8364%N); (5, 128512%N)] /\
  orig_sub c 6 5 = Ok [233; 8364]%N /\ orig_sub c 6 3 = Err EOutOfBound.
Proof. vm_compute. repeat split. Qed.
Example C50_bytes_past_end : orig_at (Ctx KBytes [1; 2]%N 0) 2 = Ok [] /\ orig_at (Ctx KBytes [1; 2]%N 0) 3 = Panic.
Proof. vm_compute. auto. Qed.
Example C50_some_history :
  navigates [NInc 5; NDec 2; NWithDat [1; 2]%N; NInc 1] (Ctx KBytes [7]%N 0) = (Ok tt, Ctx KBytes [1; 2]%N 4).
Proof. reflexivity. Qed.

(** ** C52: a parser sees the text from the cursor on, nothing else *)

(** Move a result by [d] bytes. *)
Definition moved_by (d : nat) (r : res span) : res span :=
  match r with Ok s => Ok (Span (d + sbeg s) (slen s)) | r => r end.

Lemma clone_behind c c0 : clone_at c (c_off c) = Ok c0 ->
  exists u, behind (c_kind c) u c c0 /\ tlen (c_kind c) u = c_off c.
Proof.
  destruct c as [k w o]. intros H. pose proof (C50_clone _ _ _ H) as (H0 & H1 & H2 & H3 & _).
  cbn [c_kind c_off] in *.
  assert (exists i, i <= length w /\ o = bo k w i /\ c_dat c0 = skipn i w) as (i & Hi & -> & E).
  { unfold orig_at in H1. cbn [c_kind c_dat] in H1. destruct k.
    - unfold ctx_len, csub in H1. cbn [c_kind c_dat] in H1. destruct (Nat.leb_spec o (tlen KBytes w)); [|discriminate].
      unfold orig_sub in H1. cbn [c_kind c_dat] in H1. destruct (drop_at KBytes w o) as [l|] eqn:D; [|discriminate].
      destruct (take_at KBytes l (tlen KBytes w - o)) as [l'|] eqn:T; [|discriminate]. injection H1 as ->.
      apply drop_at_some in D. destruct D as (i & Hi & -> & ->). apply take_at_some in T. destruct T as (j & Hj & T1 & T2).
      exists i. repeat split; auto. rewrite T2.
      assert (tlen KBytes w = bo KBytes w i + tlen KBytes (skipn i w)) as L by (rewrite <- (firstn_skipn i w) at 1; now rewrite tlen_app).
      apply firstn_all2. rewrite skipn_length in *. rewrite tlen_bytes, bo_bytes in * by lia. rewrite tlen_bytes in L.
      rewrite bo_bytes in T1 by (rewrite skipn_length; lia). lia.
    - destruct (drop_at KStr w o) eqn:D; [|discriminate]. injection H1 as ->. now apply drop_at_some. }
  exists (firstn i w). split; [|reflexivity]. repeat split; cbn; auto.
  - rewrite E. symmetry. apply firstn_skipn.
  - rewrite H0. unfold bo. lia.
Qed.

(** Matching at the cursor of any context, with any local policies, is matching a fresh context over
    the rest of the text, moved to the cursor: same outcome, same length, same advance. *)
Theorem C52_match : forall G pols p c c0, local_env G -> Forall local pols -> local p ->
  clone_at c (c_off c) = Ok c0 ->
  (forall r c', Returns G pols p c0 r c' ->
     exists c'', Returns G pols p c (moved_by (c_off c) r) c'' /\ c_off c'' = c_off c + c_off c') /\
  (forall r c', Returns G pols p c r c' ->
     exists r0 c0', Returns G pols p c0 r0 c0' /\ r = moved_by (c_off c) r0 /\ c_off c' = c_off c + c_off c0') /\
  (Diverges G pols p c <-> Diverges G pols p c0).
Proof.
  intros G pols p c c0 LE LP L H. apply clone_behind in H. destruct H as (u & B & D).
  assert (forall n, rsim (moved (c_kind c) u) (fst (try_mat_top n G pols p c)) (fst (try_mat_top n G pols p c0)) /\
    behind (c_kind c) u (snd (try_mat_top n G pols p c)) (snd (try_mat_top n G pols p c0))) as S.
  { intros n. now apply (try_mat_shift (c_kind c) u G LE n pols p LP L). }
  assert (forall r r0, rsim (moved (c_kind c) u) r r0 -> r = moved_by (c_off c) r0) as HM.
  { intros r r0 [[a1 a2] [b1 b2] [E1 E2]|e| |]; cbn in *; try reflexivity. subst. now rewrite D. }
  repeat split.
  - intros r c' (n & E & NO). specialize (S n). rewrite E in S. cbn [fst snd] in S. destruct S as [S1 S2].
    destruct (try_mat_top n G pols p c) as [r1 c1] eqn:E1. cbn [fst snd] in *. exists c1. split.
    + exists n. rewrite E1. rewrite (HM _ _ S1). split; [reflexivity|]. destruct r; cbn; congruence.
    + destruct S2 as (_ & _ & _ & S2). now rewrite S2, D.
  - intros r c' (n & E & NO). specialize (S n). rewrite E in S. cbn [fst snd] in S. destruct S as [S1 S2].
    destruct (try_mat_top n G pols p c0) as [r1 c1] eqn:E1. cbn [fst snd] in *. exists r1, c1. repeat split.
    + exists n. rewrite E1. split; [reflexivity|]. destruct S1; congruence.
    + now apply HM.
    + destruct S2 as (_ & _ & _ & S2). now rewrite S2, D.
  - intros H n. destruct (S n) as [S1 _]. specialize (H n). rewrite H in S1. now inversion S1.
  - intros H n. destruct (S n) as [S1 _]. specialize (H n). rewrite H in S1. now inversion S1.
Qed.

(** The same for [ctor]: the same value is built. *)
Theorem C52_ctor : forall G pols p c c0, local_env G -> Forall local pols -> local p ->
  clone_at c (c_off c) = Ok c0 ->
  (forall r c', Builds extract_text G pols p c0 tt r c' tt ->
     exists c'', Builds extract_text G pols p c tt r c'' tt /\ c_off c'' = c_off c + c_off c') /\
  (forall r c', Builds extract_text G pols p c tt r c' tt ->
     exists c0', Builds extract_text G pols p c0 tt r c0' tt /\ c_off c' = c_off c + c_off c0') /\
  (BuildDiverges extract_text G pols p c tt <-> BuildDiverges extract_text G pols p c0 tt).
Proof.
  intros G pols p c c0 LE LP L H. apply clone_behind in H. destruct H as (u & B & D).
  assert (forall x y s s' st, behind (c_kind c) u x y -> moved (c_kind c) u s s' -> extract_text x s st = extract_text y s' st) as HH.
  { intros x y s s' st BB [M1 M2]. unfold extract_text, span_orig. now rewrite M1, M2, (b_sub _ _ _ _ _ _ BB). }
  assert (forall n, rsim eq (fst (construct extract_text n G [] pols p (c, tt))) (fst (construct extract_text n G [] pols p (c0, tt))) /\
    pbehind (c_kind c) u (snd (construct extract_text n G [] pols p (c, tt))) (snd (construct extract_text n G [] pols p (c0, tt)))) as S.
  { intros n. apply (construct_shift (c_kind c) u extract_text HH G LE n [] pols p LP L). now constructor. }
  assert (forall r r0, rsim (@eq val) r r0 -> r = r0) as HM by (intros r r0 [a b ->|e| |]; reflexivity).
  repeat split.
  - intros r c' (n & E & NO). specialize (S n). rewrite E in S. cbn [fst snd] in S. destruct S as [S1 S2].
    destruct (construct extract_text n G [] pols p (c, tt)) as [r1 [c1 []]] eqn:E1. cbn [fst snd] in *. exists c1. split.
    + exists n. rewrite E1. rewrite (HM _ _ S1). auto.
    + inversion S2 as [x y st B2]; subst. destruct B2 as (_ & _ & _ & B2). now rewrite B2, D.
  - intros r c' (n & E & NO). specialize (S n). rewrite E in S. cbn [fst snd] in S. destruct S as [S1 S2].
    destruct (construct extract_text n G [] pols p (c0, tt)) as [r1 [c1 []]] eqn:E1. cbn [fst snd] in *. exists c1. split.
    + exists n. rewrite E1. rewrite (HM _ _ S1). split; [reflexivity|]. destruct S1; congruence.
    + inversion S2 as [x y st B2]; subst. destruct B2 as (_ & _ & _ & B2). now rewrite B2, D.
  - intros H n. destruct (S n) as [S1 _]. specialize (H n). rewrite H in S1. now inversion S1.
  - intros H n. destruct (S n) as [S1 _]. specialize (H n). rewrite H in S1. now inversion S1.
Qed.

(** So it is for every handler that sees the match alone, wherever it stands ([anywhere], Shift.v), and its state. *)
Theorem C52_handler : forall S (h : handler S) G pols p c c0 st, anywhere h -> local_env G -> Forall local pols -> local p ->
  clone_at c (c_off c) = Ok c0 ->
  (forall r c' st', Builds h G pols p c0 st r c' st' ->
     exists c'', Builds h G pols p c st r c'' st' /\ c_off c'' = c_off c + c_off c') /\
  (forall r c' st', Builds h G pols p c st r c' st' ->
     exists c0', Builds h G pols p c0 st r c0' st' /\ c_off c' = c_off c + c_off c0') /\
  (BuildDiverges h G pols p c st <-> BuildDiverges h G pols p c0 st).
Proof.
  intros T h G pols p c c0 st AH LE LP L H. apply clone_behind in H. destruct H as (u & B & D).
  assert (S : forall n, rsim (@eq val) (fst (construct h n G [] pols p (c, st))) (fst (construct h n G [] pols p (c0, st))) /\
    pbehind (c_kind c) u (snd (construct h n G [] pols p (c, st))) (snd (construct h n G [] pols p (c0, st)))).
  { intros n. apply (construct_shift (c_kind c) u h (AH (c_kind c) u) G LE n [] pols p LP L). now constructor. }
  assert (HM : forall r r0, rsim (@eq val) r r0 -> r = r0) by (intros r r0 [a b ->|e| |]; reflexivity).
  repeat split.
  - intros r c' st' (n & E & NO). specialize (S n). rewrite E in S. cbn [fst snd] in S. destruct S as [S1 S2].
    destruct (construct h n G [] pols p (c, st)) as [r1 [c1 st1]] eqn:E1. cbn [fst snd] in *.
    inversion S2 as [x y t (_ & _ & _ & B2)]; subst. exists c1. split; [|now rewrite B2, D].
    exists n. rewrite E1, (HM _ _ S1). auto.
  - intros r c' st' (n & E & NO). specialize (S n). rewrite E in S. cbn [fst snd] in S. destruct S as [S1 S2].
    destruct (construct h n G [] pols p (c0, st)) as [r1 [c1 st1]] eqn:E1. cbn [fst snd] in *.
    inversion S2 as [x y t (_ & _ & _ & B2)]; subst. exists c1. split; [|now rewrite B2, D].
    apply HM in S1. subst. exists n. auto.
  - intros H n. destruct (S n) as [S1 _]. specialize (H n). rewrite H in S1. now inversion S1.
  - intros H n. destruct (S n) as [S1 _]. specialize (H n). rewrite H in S1. now inversion S1.
Qed.
(** A handler that counts its calls and gives the length of the match. *)
Example C52_handler_case : anywhere ((fun _ s n => (Ok (VNum (Z.of_nat (slen s))), Datatypes.S n)) : handler nat).
Proof. intros k u x y s s' st _ (_ & E). now rewrite E. Qed.

(** The only parser of the library that looks behind is the start anchor. *)
Theorem C52_start_refuted : exists c c0 c1 c2, clone_at c (c_off c) = Ok c0 /\
  Returns [] [] PStart c (Err EAnchorStart) c1 /\ Returns [] [] PStart c0 (Ok (Span 0 0)) c2.
Proof.
  exists (Ctx KStr sample 3), (Ctx KStr (skipn 3 sample) 0), (Ctx KStr sample 3), (Ctx KStr (skipn 3 sample) 0).
  split; [reflexivity|]. split; returns 5.
Qed.

Ltac lshape :=
  repeat (first [progress intros
                | match goal with H : In _ [] |- _ => destruct H end
                | match goal with H : In _ (_ :: _) |- _ => destruct H as [<-|H] end
                | econstructor ]).
Example C52_nested_local : local_env nested_env /\ local (PRef 0) /\ Forall local skip_ascii_whitespace.
Proof. split; [closed_env; unfold number, lbrack, rbrack, comma; lshape|]. split; lshape. Qed.
(** "[1,23]..." from the "2" on: two bytes, at offset 3. *)
Example C52_in_sample :
  Returns nested_env [] (PRef 0) (Ctx KStr (skipn 3 sample) 0) (Ok (Span 0 2)) (Ctx KStr (skipn 3 sample) 2) /\
  Returns nested_env [] (PRef 0) (Ctx KStr sample 3) (Ok (Span 3 2)) (Ctx KStr sample 5).
Proof. split; returns 40. Qed.

Print Assumptions C50_orig_str.
Print Assumptions C50_orig_bytes.
Print Assumptions C50_orig_bytes_refuted.
Print Assumptions C50_orig_sub.
Print Assumptions C50_orig_sub_ok.
Print Assumptions C50_peek.
Print Assumptions C50_clone.
Print Assumptions C50_history.
Print Assumptions C50_history_defined.
Print Assumptions C52_match.
Print Assumptions C52_ctor.
Print Assumptions C52_start_refuted.
Print Assumptions C52_handler.
