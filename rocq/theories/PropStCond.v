(** C62: stateful units under a condition, and the length check of nested units. *)

From Coq Require Import List Arith NArith Bool Lia.
From Verif Require Import Base Text Context Neu Syntax Regex TextProofs Spec Obs Units UnitProps PrefixUnit PropPrefix Stateful PropStateful.
Import ListNotations.

(** * Specification *)

(** An item passes when the unit and the condition both say yes. *)
Definition both (bs cs : list bool) : list bool := map (fun p => fst p && snd p) (combine bs cs).

(** The items from the cursor on with their distance in bytes from it, as a condition sees them. *)
Definition ahead (k : kind) (w : text) (i : nat) : list (nat * item) := indices k 0 (skipn i w).

(** The condition says yes to the first [n] items and ends with [e] on the next. *)
Definition Stops {A} (f : nat * item -> res bool) (l : list (nat * item)) (n : nat) (e : res A) : Prop :=
  (forall j x, j < n -> nth_error l j = Some x -> f x = Ok true) /\
  exists x, nth_error l n = Some x /\
    match f x, e with Err a, Err b => a = b | Panic, Panic => True | OOF, OOF => True | _, _ => False end.

(** A nested unit in which no complement is taken of something that claims to be wider than one byte. *)
Fixpoint plain_nested (k : kind) (t : snode) : bool :=
  match t with
  | SPure u => plain_unit k u
  | SPrefix _ _ _ => true
  | SNot a => smin k a <=? 1
  | SOr a b | SAnd a b => plain_nested k a && plain_nested k b
  end.

(** A nested unit in which, of every [or], some operand and, of every [and], both operands are a prefix. *)
Fixpoint unsized (t : snode) : Prop :=
  match t with
  | SPure _ => False
  | SPrefix _ _ _ => True
  | SNot a => unsized a
  | SOr a b => unsized a \/ unsized b
  | SAnd a b => unsized a /\ unsized b
  end.

(** * Proofs *)

Section Any.
Context {S : Type}.
Variable k : kind.
Variable m : sunit S.

(** The unit and the condition as one unit. *)
Definition mc : sunit (S * list bool) := fun x st =>
  let (b, s) := m x (fst st) in (b && hd false (snd st), (s, tl (snd st))).

Lemma mc_cons x s b cs : mc x (s, b :: cs) = (fst (m x s) && b, (snd (m x s), cs)).
Proof. unfold mc. cbn [fst snd hd tl]. now destruct (m x s). Qed.

Lemma feed_mc l : forall s cs, length cs = length l ->
  fst (feed mc (s, cs) l) = both (fst (feed m s l)) cs /\ fst (snd (feed mc (s, cs) l)) = snd (feed m s l).
Proof.
  induction l as [|x l IH]; intros s cs L; [now destruct cs|]. destruct cs as [|c cs]; [discriminate|].
  rewrite !feed_cons, mc_cons. destruct (m x s) as [b s1]. cbn [fst snd].
  destruct (IH s1 cs ltac:(cbn in L; lia)) as [-> ->]. auto.
Qed.
Lemma feed_mc_firstn n l : forall s cs, length cs = length l ->
  fst (snd (feed mc (s, cs) (firstn n l))) = snd (feed m s (firstn n l)).
Proof.
  revert l. induction n as [|n IH]; intros l s cs L; [reflexivity|]. destruct l as [|x l]; [reflexivity|]. destruct cs as [|c cs]; [discriminate|].
  cbn [firstn]. rewrite !feed_cons, mc_cons. destruct (m x s) as [b s1]. cbn [fst snd].
  apply IH. cbn in L. lia.
Qed.

Lemma scan_n_cond f more l : forall cnt beg s,
  scan_n_st m (fun x => Ok (f x)) more cnt beg l s =
  let (r, st) := scan_n_st mc (fun _ => Ok true) more cnt beg l (s, map f l) in (r, fst st).
Proof.
  induction l as [|x l IH]; intros cnt beg s; [reflexivity|]. cbn [scan_n_st map].
  destruct (more cnt); [|reflexivity]. rewrite mc_cons. destruct (m (snd x) s) as [b s1].
  cbn [fst snd]. destruct b; [|reflexivity]. cbn [andb]. destruct (f x); [|reflexivity]. apply IH.
Qed.
Lemma scan_cond f l : forall beg s,
  scan_st m (fun x => Ok (f x)) beg l s = let (r, st) := scan_st mc (fun _ => Ok true) beg l (s, map f l) in (r, fst st).
Proof.
  induction l as [|x l IH]; intros beg s; [reflexivity|]. cbn [scan_st map].
  rewrite mc_cons. destruct (m (snd x) s) as [b s1].
  cbn [fst snd]. destruct b; [|reflexivity]. cbn [andb negb]. destruct (f x); [|reflexivity]. apply IH.
Qed.

(** Forget the condition's part of the state. *)
Definition forget {A} (p : res A * (ctx * (S * list bool))) : res A * (ctx * S) :=
  (fst p, (fst (snd p), fst (snd (snd p)))).

Variable ml : kind -> S -> nat.
Variable cond : ctx -> nat * item -> bool.
Let chk : check_t := fun c x => Ok (cond c x).

Section At.
Variable w : text.
Variable i : nat.
Hypothesis Hi : i <= length w.
Let c := cx k w i.
Let cs := map (cond c) (items k w i 0).

Ltac start Hi :=
  unfold forget, times_st, between_st, many0_st, many1_st, opt_st, once_st, bind, onc, reads, catch, offset, ask, lift;
  cbn [fst snd]; rewrite ?peek_cx by exact Hi; cbn [fst snd]; rewrite ?remaining_cx; cbn [fst snd];
  rewrite ?peek_cx by exact Hi; cbn [fst snd]; change (c_kind (cx k w i)) with k.
Ltac finish :=
  repeat (cbn [fst snd]; match goal with
  | |- context [if ?b then _ else _] => destruct b; try reflexivity
  | |- context [match calc_length ?a ?b ?c with _ => _ end] => destruct (calc_length a b c); try reflexivity
  | |- context [new_span_inc ?n ?c] => destruct (new_span_inc n c); try reflexivity
  end).

Lemma times_forget r s : times_st m ml chk r (c, s) = forget (times_st mc (fun k st => ml k (fst st)) no_cond r (c, (s, cs))).
Proof.
  subst c. start Hi. finish. unfold chk, no_cond. rewrite scan_n_cond. fold cs.
  destruct (scan_n_st mc _ _ _ _ _ _) as [[[[n b] e]| | |] st]; try reflexivity. finish.
Qed.
Lemma between_forget lo hi s : between_st m ml chk lo hi (c, s) = forget (between_st mc (fun k st => ml k (fst st)) no_cond lo hi (c, (s, cs))).
Proof.
  subst c. start Hi. finish. unfold chk, no_cond. rewrite scan_n_cond. fold cs.
  destruct (scan_n_st mc _ _ _ _ _ _) as [[[[n b] e]| | |] st]; try reflexivity. finish.
Qed.
Lemma many1_forget s : many1_st m chk (c, s) = forget (many1_st mc no_cond (c, (s, cs))).
Proof.
  subst c. start Hi. unfold chk, no_cond. rewrite scan_cond. fold cs.
  destruct (scan_st mc _ _ _ _) as [[[[b|] e]| | |] st]; try reflexivity. cbn [fst snd]. finish.
Qed.
Lemma many0_forget s : many0_st m chk (c, s) = forget (many0_st mc no_cond (c, (s, cs))).
Proof.
  subst c. start Hi. unfold chk, no_cond. rewrite scan_cond. fold cs.
  destruct (scan_st mc _ _ _ _) as [[[[b|] e]| | |] st]; try reflexivity. cbn [fst snd]. finish.
Qed.
Lemma once_forget s : once_st m chk (c, s) = forget (once_st mc no_cond (c, (s, cs))).
Proof.
  subst c. start Hi. subst cs. destruct (items k w i 0) as [|x l]; [reflexivity|]. unfold mc. cbn [map fst snd hd tl].
  destruct (m (snd x) s) as [[] s1]; cbn [andb]; [|reflexivity]. unfold chk, no_cond. destruct (cond _ x); [|reflexivity]. finish.
Qed.
Lemma opt_forget s : opt_st m chk (c, s) = forget (opt_st mc no_cond (c, (s, cs))).
Proof.
  subst c. start Hi. subst cs. destruct (items k w i 0) as [|x l]; [reflexivity|]. unfold mc. cbn [map fst snd hd tl].
  destruct (m (snd x) s) as [[] s1]; cbn [andb]; [|reflexivity]. unfold chk, no_cond. destruct (cond _ x); [|reflexivity]. finish.
Qed.

Lemma cs_length : length cs = length (skipn i w).
Proof. subst cs. now rewrite map_length, items_length, skipn_length, Nat.add_0_r. Qed.
End At.

(** ** C62 under a condition *)

(** As without a condition, an item counting as accepted when the unit and the condition both accept it;
    the unit is asked about the item the condition refuses, and about no further one. *)
Theorem C62_times_cond : forall r w i s, i <= length w ->
  match r_lo r with Incl a => a * ml k s | Excl a => (a - 1) * ml k s | Unb => 0 end <= tlen k w - bo k w i ->
  exists n, Lead (cap r) (both (fst (feed m s (skipn i w))) (map (cond (cx k w i)) (ahead k w i))) n /\
  let s' := snd (feed m s (firstn (asked (cap r) n) (skipn i w))) in
  (InRange r n /\ times_st m ml chk r (cx k w i, s) = (Ok (sp k w i (i + n)), (cx k w (i + n), s')) \/
   ~ InRange r n /\ times_st m ml chk r (cx k w i, s) = (Err ETimes, (cx k w i, s'))).
Proof.
  intros r w i s Hi Hm. rewrite times_forget by exact Hi. set (cs := map _ (items _ _ _ _)).
  pose proof (cs_length w i : length cs = _) as L.
  destruct (C62_times k mc (fun k st => ml k (fst st)) r w i (s, cs) Hi Hm) as (n & Ld & R).
  exists n. cbv zeta in R |- *. rewrite (proj1 (feed_mc _ _ _ L)) in Ld. split; [exact Ld|].
  rewrite <- (feed_mc_firstn (asked (cap r) n) (skipn i w) s cs L).
  destruct R as [[I R]|[I R]]; rewrite R; [left|right]; (split; [exact I|reflexivity]).
Qed.
Theorem C62_between_cond : forall lo hi w i s, i <= length w -> lo * ml k s <= tlen k w - bo k w i ->
  exists n, Lead hi (both (fst (feed m s (skipn i w))) (map (cond (cx k w i)) (ahead k w i))) n /\
  let s' := snd (feed m s (firstn (asked hi n) (skipn i w))) in
  (lo <= n /\ between_st m ml chk lo hi (cx k w i, s) = (Ok (sp k w i (i + n)), (cx k w (i + n), s')) \/
   n < lo /\ between_st m ml chk lo hi (cx k w i, s) = (Err EBetween, (cx k w i, s'))).
Proof.
  intros lo hi w i s Hi Hm. rewrite between_forget by exact Hi. set (cs := map _ (items _ _ _ _)).
  pose proof (cs_length w i : length cs = _) as L.
  destruct (C62_between k mc (fun k st => ml k (fst st)) lo hi w i (s, cs) Hi Hm) as (n & Ld & R).
  exists n. cbv zeta in R |- *. rewrite (proj1 (feed_mc _ _ _ L)) in Ld. split; [exact Ld|].
  rewrite <- (feed_mc_firstn (asked hi n) (skipn i w) s cs L).
  destruct R as [[I R]|[I R]]; rewrite R; [left|right]; (split; [exact I|reflexivity]).
Qed.
Theorem C62_many_cond : forall w i s, i <= length w ->
  exists n, Lead None (both (fst (feed m s (skipn i w))) (map (cond (cx k w i)) (ahead k w i))) n /\
  let s' := snd (feed m s (firstn (Datatypes.S n) (skipn i w))) in
  many0_st m chk (cx k w i, s) = (Ok (sp k w i (i + n)), (cx k w (i + n), s')) /\
  many1_st m chk (cx k w i, s) =
    (if n =? 0 then (Err EMany1, (cx k w i, s')) else (Ok (sp k w i (i + n)), (cx k w (i + n), s'))).
Proof.
  intros w i s Hi. rewrite many0_forget, many1_forget by exact Hi. set (cs := map _ (items _ _ _ _)).
  pose proof (cs_length w i : length cs = _) as L.
  destruct (C62_many k mc w i (s, cs) Hi) as (n & Ld & R0 & R1).
  exists n. cbv zeta in R0, R1 |- *. rewrite (proj1 (feed_mc _ _ _ L)) in Ld. split; [exact Ld|].
  rewrite <- (feed_mc_firstn (Datatypes.S n) (skipn i w) s cs L). rewrite R0, R1. split; [reflexivity|now destruct (n =? 0)].
Qed.
Theorem C62_one_cond : forall w i s, i <= length w ->
  exists n, Lead (Some 1) (both (fst (feed m s (skipn i w))) (map (cond (cx k w i)) (ahead k w i))) n /\
  let s' := snd (feed m s (firstn 1 (skipn i w))) in
  opt_st m chk (cx k w i, s) = (Ok (sp k w i (i + n)), (cx k w (i + n), s')) /\
  once_st m chk (cx k w i, s) =
    (if n =? 0 then (Err EOnce, (cx k w i, s')) else (Ok (sp k w i (i + n)), (cx k w (i + n), s'))).
Proof.
  clear ml. intros w i s Hi. rewrite opt_forget, once_forget by exact Hi. set (cs := map _ (items _ _ _ _)).
  pose proof (cs_length w i : length cs = _) as L.
  destruct (C62_one k mc w i (s, cs) Hi) as (n & Ld & R0 & R1).
  exists n. cbv zeta in R0, R1 |- *. rewrite (proj1 (feed_mc _ _ _ L)) in Ld. split; [exact Ld|].
  rewrite <- (feed_mc_firstn 1 (skipn i w) s cs L). rewrite R0, R1. split; [reflexivity|now destruct (n =? 0)].
Qed.

(** A condition that itself ends in an error (or a panic, or never ends) ends the regex that way, whatever
    the items before it; the unit was asked up to and including the item the condition saw. *)
Lemma scan_n_stops (f : nat * item -> res bool) more (e : res span) l : forall cnt beg s n, Stops f l n e ->
  (forall j, j <= n -> nth_error (fst (feed m s (map snd l))) j = Some true) -> (forall j, j <= n -> more (cnt + j) = true) ->
  scan_n_st m f more cnt beg l s = (match e with Ok _ => OOF | Err e => Err e | Panic => Panic | OOF => OOF end, snd (feed m s (firstn (Datatypes.S n) (map snd l)))).
Proof.
  induction l as [|x l IH]; intros cnt beg s n (A & y & Y & E) F M; [now destruct n|].
  cbn [scan_n_st map firstn] in *. rewrite feed_cons in F |- *. pose proof (M 0 ltac:(lia)) as M0. rewrite Nat.add_0_r in M0. rewrite M0.
  pose proof (F 0 ltac:(lia)) as F0. cbn in F0. destruct (m (snd x) s) as [b s1]. cbn [fst snd] in *. injection F0 as ->.
  destruct n as [|n].
  - cbn in Y. injection Y as <-. cbn [firstn feed snd]. destruct (f x), e; try easy. now subst.
  - rewrite (A 0 x ltac:(lia) eq_refl). apply IH.
    + split; [|now exists y]. intros j z J. exact (A (Datatypes.S j) z ltac:(lia)).
    + intros j J. exact (F (Datatypes.S j) ltac:(lia)).
    + intros j J. replace (Datatypes.S cnt + j) with (cnt + Datatypes.S j) by lia. apply M. lia.
Qed.
Lemma scan_stops (f : nat * item -> res bool) (e : res span) l : forall beg s n, Stops f l n e ->
  (forall j, j <= n -> nth_error (fst (feed m s (map snd l))) j = Some true) ->
  scan_st m f beg l s = (match e with Ok _ => OOF | Err e => Err e | Panic => Panic | OOF => OOF end, snd (feed m s (firstn (Datatypes.S n) (map snd l)))).
Proof.
  induction l as [|x l IH]; intros beg s n (A & y & Y & E) F; [now destruct n|].
  cbn [scan_st map firstn] in *. rewrite feed_cons in F |- *.
  pose proof (F 0 ltac:(lia)) as F0. cbn in F0. destruct (m (snd x) s) as [b s1]. cbn [fst snd] in *. injection F0 as ->. cbn [negb].
  destruct n as [|n].
  - cbn in Y. injection Y as <-. cbn [firstn feed snd]. destruct (f x), e; try easy. now subst.
  - rewrite (A 0 x ltac:(lia) eq_refl). apply IH.
    + split; [|now exists y]. intros j z J. exact (A (Datatypes.S j) z ltac:(lia)).
    + intros j J. exact (F (Datatypes.S j) ltac:(lia)).
Qed.
Lemma stops_not_ok (f : nat * item -> res bool) l n (e : res span) : Stops f l n e -> match e with Ok _ => False | _ => True end.
Proof. intros (_ & x & _ & E). destruct (f x), e; easy. Qed.

Theorem C62_cond_error : forall (f : check_t) w i s n e, i <= length w ->
  Stops (f (cx k w i)) (ahead k w i) n e -> (forall j, j <= n -> nth_error (fst (feed m s (skipn i w))) j = Some true) ->
  let out := (e, (cx k w i, snd (feed m s (firstn (Datatypes.S n) (skipn i w))))) in
  many0_st m f (cx k w i, s) = out /\ many1_st m f (cx k w i, s) = out /\
  (n = 0 -> opt_st m f (cx k w i, s) = out /\ once_st m f (cx k w i, s) = out) /\
  (forall lo hi, lo * ml k s <= tlen k w - bo k w i -> match hi with Some c => n < c | None => True end ->
     between_st m ml f lo hi (cx k w i, s) = out) /\
  (forall r, match r_lo r with Incl a => a * ml k s | Excl a => (a - 1) * ml k s | Unb => 0 end <= tlen k w - bo k w i ->
     match cap r with Some c => n < c | None => True end -> times_st m ml f r (cx k w i, s) = out).
Proof.
  intros f w i s n e Hi St F. cbv zeta. change (ahead k w i) with (items k w i 0) in St. pose proof (stops_not_ok _ _ _ _ St) as NO.
  rewrite <- (items_snd k w i) in F |- *.
  unfold times_st, between_st, many0_st, many1_st, opt_st, once_st, bind, onc, reads, catch, offset, ask, lift;
  cbn [fst snd]; rewrite ?peek_cx by exact Hi; cbn [fst snd]; rewrite ?remaining_cx; cbn [fst snd];
  rewrite ?peek_cx by exact Hi; cbn [fst snd]; change (c_kind (cx k w i)) with k.
  rewrite (scan_stops _ e _ None s n St F). split; [destruct e; easy|]. split; [destruct e; easy|]. split; [|split].
  - intros ->. destruct St as (_ & x & X & E). specialize (F 0 ltac:(lia)). destruct (items k w i 0) as [|y l]; [discriminate|].
    cbn in X. injection X as ->. cbn [map firstn] in *. rewrite feed_cons in F |- *. cbn in F.
    destruct (m (snd x) s) as [b s1] eqn:Em. cbn [fst snd] in *. injection F as ->. cbn [feed snd].
    destruct (f (cx k w i) x) eqn:Ef, e; try easy; subst; cbn [fst snd]; rewrite Em; cbn [fst snd]; rewrite Ef; auto.
  - intros lo hi Hm Hc. apply Nat.leb_le in Hm. rewrite Hm. cbn [fst snd].
    rewrite (scan_n_stops _ _ e _ 0 None s n St F); [destruct e; easy|]. intros j J. destruct hi; auto. apply Nat.ltb_lt. lia.
  - intros r Hm Hc. apply Nat.leb_le in Hm. rewrite Hm. cbn [fst snd].
    rewrite (scan_n_stops _ _ e _ 0 None s n St F); [destruct e; easy|]. intros j J. rewrite times_capped. unfold capped.
    destruct (cap r); auto. apply Nat.ltb_lt. lia.
Qed.
End Any.

(** ** The length check of nested units *)

Lemma smin_keep k x t : smin k (snd (smatch x t)) = smin k t.
Proof.
  induction t; cbn [smatch].
  - reflexivity.
  - destruct (p_value cells); [|reflexivity]. destruct (p_count cells =? 0).
    + now destruct (smatch x t2).
    + now destruct (smatch x t1).
  - destruct (smatch x t). exact IHt.
  - destruct (smatch x t1) as [[] a]; cbn [fst snd smin] in *.
    + now rewrite IHt1.
    + destruct (smatch x t2). cbn [fst snd smin] in *. now rewrite IHt1, IHt2.
  - destruct (smatch x t1) as [[] a]; cbn [fst snd smin] in *.
    + destruct (smatch x t2). cbn [fst snd smin] in *. now rewrite IHt1, IHt2.
    + now rewrite IHt1.
Qed.
Lemma plain_keep k x t : plain_nested k (snd (smatch x t)) = plain_nested k t.
Proof.
  induction t; cbn [smatch].
  - reflexivity.
  - destruct (p_value cells); [|reflexivity]. destruct (p_count cells =? 0).
    + now destruct (smatch x t2).
    + now destruct (smatch x t1).
  - pose proof (smin_keep k x t). destruct (smatch x t). cbn [fst snd plain_nested] in *. congruence.
  - destruct (smatch x t1) as [[] a]; cbn [fst snd plain_nested] in *.
    + now rewrite IHt1.
    + destruct (smatch x t2). cbn [fst snd plain_nested] in *. now rewrite IHt1, IHt2.
  - destruct (smatch x t1) as [[] a]; cbn [fst snd plain_nested] in *.
    + destruct (smatch x t2). cbn [fst snd plain_nested] in *. now rewrite IHt1, IHt2.
    + now rewrite IHt1.
Qed.
Lemma smin_honest k x t : plain_nested k t = true -> fst (smatch x t) = true -> smin k t <= width k x.
Proof.
  induction t; cbn [smatch smin plain_nested]; intros P M.
  - now apply (plain_honest k u).
  - lia.
  - apply Nat.leb_le in P. pose proof (width_pos k x). lia.
  - apply andb_true_iff in P as [P1 P2]. destruct (smatch x t1) as [[] a]; cbn [fst] in *.
    + specialize (IHt1 P1 eq_refl). lia.
    + destruct (smatch x t2). cbn [fst] in *. specialize (IHt2 P2 M). lia.
  - apply andb_true_iff in P as [P1 P2]. destruct (smatch x t1) as [[] a]; cbn [fst] in *; [|discriminate].
    specialize (IHt1 P1 eq_refl). destruct (smatch x t2). cbn [fst] in *. specialize (IHt2 P2 M). lia.
Qed.

Lemma unsized_0 k t : unsized t -> smin k t = 0.
Proof. induction t; cbn [unsized smin]; intros U; try easy; [auto| |]; intuition lia. Qed.

Lemma lead_width k l : forall t n, plain_nested k t = true -> (forall j, j < n -> nth_error (fst (feed_u t l)) j = Some true) ->
  n * smin k t <= bo k l n.
Proof.
  induction l as [|x l IH]; intros t n P A.
  - destruct n; [lia|]. specialize (A 0 ltac:(lia)). discriminate.
  - destruct n; [lia|]. rewrite feed_cons in A. pose proof (A 0 ltac:(lia)) as A0. cbn in A0. injection A0 as A0.
    pose proof (smin_honest k x t P A0) as W.
    specialize (IH (snd (smatch x t)) n ltac:(now rewrite plain_keep) (fun j J => A (S j) ltac:(lia))). rewrite smin_keep in IH.
    unfold bo in *. cbn [firstn tlen Nat.mul]. lia.
Qed.
Lemma lead_room k w i t n : i <= length w -> plain_nested k t = true -> (forall j, j < n -> nth_error (fst (feed_u t (skipn i w))) j = Some true) ->
  n * smin k t <= tlen k w - bo k w i.
Proof.
  intros Hi P A. pose proof (lead_width k _ _ _ P A) as W. pose proof (bo_add k w i n). pose proof (bo_le_len k w (i + n)). lia.
Qed.

(** The check never refuses a text the unit would have accepted often enough: the answer is decided by
    the accepted run alone. *)
Theorem C62_length_check : forall k t w i, plain_nested k t = true -> i <= length w ->
  (forall r, exists n, Lead (cap r) (fst (feed_u t (skipn i w))) n /\
     (InRange r n /\ fst (times_st smatch smin no_cond r (cx k w i, t)) = Ok (sp k w i (i + n)) \/
      ~ InRange r n /\ fst (times_st smatch smin no_cond r (cx k w i, t)) = Err ETimes)) /\
  (forall lo hi, exists n, Lead hi (fst (feed_u t (skipn i w))) n /\
     (lo <= n /\ fst (between_st smatch smin no_cond lo hi (cx k w i, t)) = Ok (sp k w i (i + n)) \/
      n < lo /\ fst (between_st smatch smin no_cond lo hi (cx k w i, t)) = Err EBetween)).
Proof.
  intros k t w i P Hi. destruct (C62_precheck k smatch smin w i t Hi) as [Pt Pb]. split.
  - intros r. destruct (Nat.le_gt_cases (match r_lo r with Incl a => a * smin k t | Excl a => (a - 1) * smin k t | Unb => 0 end) (tlen k w - bo k w i)) as [L|L].
    + destruct (C62_times k smatch smin r w i t Hi L) as (n & Ld & R). exists n. split; [exact Ld|].
      destruct R as [[I R]|[I R]]; rewrite R; auto.
    + destruct (lead_lead (cap r) smatch (skipn i w) t) as [Ld _]. eexists. split; [exact Ld|]. right. rewrite (Pt r L). split; [|reflexivity].
      destruct Ld as [A _]. pose proof (lead_room k w i t _ Hi P A) as W. set (n := fst (lead _ _ _ _ _)) in *. clearbody n.
      unfold InRange. destruct (r_lo r) as [a|a|]; try lia; intros [I _];
        [pose proof (Nat.mul_le_mono_r a n (smin k t))|pose proof (Nat.mul_le_mono_r (a - 1) n (smin k t))]; lia.
  - intros lo hi. destruct (Nat.le_gt_cases (lo * smin k t) (tlen k w - bo k w i)) as [L|L].
    + destruct (C62_between k smatch smin lo hi w i t Hi L) as (n & Ld & R). exists n. split; [exact Ld|].
      destruct R as [[I R]|[I R]]; rewrite R; auto.
    + destruct (lead_lead hi smatch (skipn i w) t) as [Ld _]. eexists. split; [exact Ld|]. right. rewrite (Pb lo hi L). split; [|reflexivity].
      destruct Ld as [A _]. pose proof (lead_room k w i t _ Hi P A) as W. set (n := fst (lead _ _ _ _ _)) in *. clearbody n.
      destruct (Nat.lt_ge_cases n lo) as [|G]; [assumption|]. pose proof (Nat.mul_le_mono_r lo n (smin k t) G). lia.
Qed.

(** A prefix claims no length: it is asked however short the text, and its cells show it. *)
Theorem C62_prefix_asked : forall k t w i, unsized t -> i <= length w ->
  (forall r, exists n, Lead (cap r) (fst (feed_u t (skipn i w))) n /\
     snd (snd (times_st smatch smin no_cond r (cx k w i, t))) = snd (feed_u t (firstn (asked (cap r) n) (skipn i w)))) /\
  (forall lo hi, exists n, Lead hi (fst (feed_u t (skipn i w))) n /\
     snd (snd (between_st smatch smin no_cond lo hi (cx k w i, t))) = snd (feed_u t (firstn (asked hi n) (skipn i w)))).
Proof.
  intros k t w i U Hi. pose proof (unsized_0 k t U) as Z. split.
  - intros r. destruct (C62_times k smatch smin r w i t Hi) as (n & Ld & R); [rewrite Z; destruct (r_lo r); lia|].
    exists n. split; [exact Ld|]. destruct R as [[I R]|[I R]]; now rewrite R.
  - intros lo hi. destruct (C62_between k smatch smin lo hi w i t Hi) as (n & Ld & R); [rewrite Z; lia|].
    exists n. split; [exact Ld|]. destruct R as [[I R]|[I R]]; now rewrite R.
Qed.

(** Two units: the euro sign wide as a character, of unknown width behind a prefix. *)
Example C62_case_check :
  let a := SAnd (SPure (NChar 8364%N)) (SPure NAlways) in
  let b := SOr (fresh (UPrefix (lit 97) 1 (UPure NAlways))) (SPure (NChar 8364%N)) in
  plain_nested KStr a = true /\ smin KStr a = 3 /\ unsized b /\ plain_nested KStr (SNot a) = false /\
  fst (between_st smatch smin no_cond 2 None (cx KStr [8364; 8364]%N 0, a)) = Ok (Span 0 6) /\
  snd (snd (between_st smatch smin no_cond 9 None (cx KStr [98]%N 0, b))) <> b.
Proof. cbv zeta. repeat split; try reflexivity; [now left|]. vm_compute. discriminate. Qed.

(** A condition that allows only the first two bytes, and one that fails at the third item. *)
Example C62_case_cond :
  let f := fun (_ : ctx) (x : nat * item) => fst x <? 2 in
  let g := fun (_ : ctx) (x : nat * item) => if fst x <? 2 then Ok true else Err EFail : res bool in
  let u := fresh (UPrefix (lit 97) 1 (UPure NAlways)) in
  many1_st smatch (fun c x => Ok (f c x)) (cx KStr [97; 98; 99; 100]%N 0, u)
    = (Ok (Span 0 2), (Ctx KStr [97; 98; 99; 100]%N 2, snd (feed_u u [97; 98; 99]%N))) /\
  fst (times_st smatch smin (fun c x => Ok (f c x)) (CRange (Incl 3) Unb) (cx KStr [97; 98; 99; 100]%N 0, u)) = Err ETimes /\
  Stops (g (cx KStr [97; 98; 99; 100]%N 0)) (ahead KStr [97; 98; 99; 100]%N 0) 2 (Err EFail : res span) /\
  fst (feed_u u [97; 98; 99; 100]%N) = [true; true; true; true].
Proof.
  cbv zeta. split; [reflexivity|]. split; [reflexivity|]. split; [|reflexivity].
  split; [|exists (2, 99%N); split; reflexivity]. intros [|[|j]] x J E; [| |lia]; cbn in E; injection E as <-; reflexivity.
Qed.

Print Assumptions C62_times_cond.
Print Assumptions C62_between_cond.
Print Assumptions C62_many_cond.
Print Assumptions C62_one_cond.
Print Assumptions C62_cond_error.
Print Assumptions C62_length_check.
Print Assumptions C62_prefix_asked.
