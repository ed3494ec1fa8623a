(** Without recursive handles matching is polynomial: the degree is the nesting of loops. *)

From Coq Require Import List Arith NArith Bool Lia.
From Verif Require Import Base Text Context Neu Syntax Regex Ctor Api TextProofs Spec Core Sound Obs Laws
  ApiLaws Complete Term Work.
Import ListNotations.

(** No recursive handles, nor parsers made while matching. *)
Fixpoint flat (p : pat) : bool :=
  match p with
  | PEmpty | PFail | PStart | PEnd | PConsume _ | PConsumeAll | PLit _ | PFn _ | PNoneP => true
  | PAssert p _ | PLeaf p | PPat p | PRepeat p _ | PRepeat2 p _ _ | PCollect p _ | POption p | PMap p _ | PWrap p => flat p
  | POnce _ c | PMany1 _ c | POpt _ c | PMany0 _ c | PBetween _ _ _ c | PTimes _ _ c | PNeuThen _ _ c => flat_cond c
  | PThen p q | PSuffix p q | PPrefix p q | POr p q | PLongest p q | PBranch _ p q
  | PSep p q _ _ | PSepCollect p q _ _ | PSep2 p q _ _ _ => flat p && flat q
  | PIfThen p t q | PSepOnce p t q | PEnclose p t q => flat p && flat t && flat q
  | PChoice _ _ ps => forallb flat ps
  | PPairChoice _ _ ps => forallb (fun x => flat (fst x)) ps
  | PRef _ | PBuilder _ _ | PDynThen _ _ | PCtorFn _ | PLock _ => false
  end
with flat_cond (c : cond) : bool := match c with CEmpty | CFn _ => true | CRegex p => flat p end.

(** How deep loops are nested in each other; a run of units is a loop, a loop of bounded length is not. *)
Definition open_loop (r : crange) : nat := match limit_of r with None => 1 | Some _ => 0 end.
Fixpoint loops (p : pat) : nat :=
  match p with
  | PAssert p _ | PLeaf p | PPat p | PRepeat2 p _ _ | POption p | PMap p _ | PWrap p => loops p
  | PRepeat p r => open_loop r + loops p
  | PCollect p _ => S (loops p)
  | PSep p q _ _ | PSepCollect p q _ _ => S (Nat.max (loops p) (loops q))
  | PSep2 p q _ _ _ => Nat.max (loops p) (loops q)
  | POnce _ c | POpt _ c | PNeuThen _ _ c => loops_cond c
  | PMany1 _ c | PMany0 _ c | PBetween _ _ _ c | PTimes _ _ c => S (loops_cond c)
  | PThen p q | PSuffix p q | PPrefix p q | POr p q | PLongest p q | PBranch _ p q => Nat.max (loops p) (loops q)
  | PIfThen p t q | PSepOnce p t q | PEnclose p t q => Nat.max (loops p) (Nat.max (loops t) (loops q))
  | PChoice _ _ ps => (fix go ps := match ps with [] => 0 | p :: r => Nat.max (loops p) (go r) end) ps
  | PPairChoice _ _ ps => (fix go (ps : list (pat * val)) := match ps with [] => 0 | x :: r => Nat.max (loops (fst x)) (go r) end) ps
  | _ => 0
  end
with loops_cond (c : cond) : nat := match c with CRegex p => loops p | _ => 0 end.

(** A constant for each parser. *)
Fixpoint share (p : pat) : nat :=
  match p with
  | PAssert p _ | PLeaf p | PPat p | POption p | PMap p _ | PWrap p | PCollect p _ => S (share p)
  | PRepeat p r => S (match limit_of r with None => 1 | Some l => l end * share p)
  | PRepeat2 p _ l => S (S l * share p)
  | PSep p q _ _ | PSepCollect p q _ _ => S (share p + share q)
  | PSep2 p q _ l _ => S (S l * (share p + share q))
  | POnce _ c | POpt _ c => S (S (share_cond c))
  | PNeuThen _ _ c => S (S (share_cond c) + S (share_cond c))
  | PMany1 _ c | PMany0 _ c | PBetween _ _ _ c | PTimes _ _ c => S (S (share_cond c))
  | PThen p q | PSuffix p q | PPrefix p q | POr p q | PLongest p q | PBranch _ p q => S (share p + share q)
  | PIfThen p t q | PSepOnce p t q | PEnclose p t q => S (share p + share t + share q)
  | PChoice _ _ ps => S ((fix go ps := match ps with [] => 0 | p :: r => share p + go r end) ps)
  | PPairChoice _ _ ps => S ((fix go (ps : list (pat * val)) := match ps with [] => 0 | x :: r => share (fst x) + go r end) ps)
  | _ => 1
  end
with share_cond (c : cond) : nat := match c with CRegex p => share p | _ => 0 end.
Definition share_all := fix go (ps : list pat) := match ps with [] => 0 | p :: r => share p + go r end.
Definition loops_all := fix go (ps : list pat) := match ps with [] => 0 | p :: r => Nat.max (loops p) (go r) end.
Lemma share_pairs e b ps : share (PPairChoice e b ps) = S (share_all (map fst ps)).
Proof. cbn [share]. f_equal. induction ps as [|[p v] r IH]; cbn; [reflexivity|]. now f_equal. Qed.
Lemma loops_pairs e b ps : loops (PPairChoice e b ps) = loops_all (map fst ps).
Proof. cbn [loops]. induction ps as [|[p v] r IH]; cbn [map fst loops_all]; [reflexivity|]. now f_equal. Qed.
Lemma flat_pairs ps : forallb (fun x : pat * val => flat (fst x)) ps = forallb flat (map fst ps).
Proof. induction ps as [|[p v] r IH]; cbn; [reflexivity|]. now f_equal. Qed.

Section Poly.
  Variable k : kind.
  Variable G : env.
  Variable sk : text -> nat -> nat.
  Variable pols : list pat.
  Hypothesis SK : skipper sk.
  Hypothesis CE : core_env k G sk.
  Hypothesis IM : implements k G sk pols.
  Variable M : nat.
  Hypothesis M1 : 1 <= M.
  Notation core := (core k G sk).
  Notation ccore := (core_cond k G sk).
  Notation Work := (Work k G sk).
  Notation Peg := (Peg k G sk).

  Lemma pow1 d : 1 <= M ^ d.
  Proof. induction d as [|d IH]; cbn; [lia|]. nia. Qed.
  Lemma pow_le d e : d <= e -> M ^ d <= M ^ e.
  Proof. intros H. apply Nat.pow_le_mono_r; lia. Qed.
  Lemma lift a s d e : a <= s * M ^ d -> d <= e -> a <= s * M ^ e.
  Proof. intros H L. pose proof (pow_le d e L). nia. Qed.
  Lemma more a s d : a <= s * M ^ d -> S a <= S s * M ^ d.
  Proof. intros H. pose proof (pow1 d). cbn. lia. Qed.
  Lemma both a b s t d e : a <= s * M ^ d -> b <= t * M ^ e -> a + b <= (s + t) * M ^ (Nat.max d e).
  Proof.
    intros H1 H2. pose proof (lift _ _ _ (Nat.max d e) H1 (Nat.le_max_l _ _)).
    pose proof (lift _ _ _ (Nat.max d e) H2 (Nat.le_max_r _ _)). rewrite Nat.mul_add_distr_r. lia.
  Qed.

  Lemma inside w p i b j n : Work w p i (OK b j) n -> core p -> i <= length w -> sk w i = i -> i <= j /\ j <= length w.
  Proof.
    intros W C Hi S0. apply (proj1 (work_peg k G sk)) in W.
    pose proof (ok_in k G sk SK CE pols IM p w i b j C Hi S0 W). lia.
  Qed.
  Lemma there w i : i <= length w -> i <= sk w i /\ sk w i <= length w /\ sk w (sk w i) = sk w i.
  Proof. apply (sk_at sk SK). Qed.

  (** A loop without a limit does not repeat a match that leaves the cursor where it is. *)
  Lemma reps_forward n w p i j b : core p -> i <= length w -> Reps k G sk w p None i n j -> Peg w p (sk w i) (OK b i) -> False.
  Proof.
    revert i. induction n as [|n IH]; intros i C Hi R P; destruct (there w i Hi) as (S1 & S2 & S3); inversion R; subst;
      match goal with P : Peg w p ?x (OK b _), H : Peg w p ?x ?o |- _ =>
        pose proof (peg_det k G sk pols SK CE IM w p _ _ _ C S2 S3 P H) as E; try discriminate E; clear H end.
    injection E as -> ->. eapply IH; eauto.
  Qed.
  Lemma seps_forward n w p d i j b b' j1 : core p -> core d -> i <= length w -> Seps k G sk w p d None i n j ->
    Peg w p (sk w i) (OK b j1) -> j1 <= length w -> Peg w d (sk w j1) (OK b' i) -> False.
  Proof.
    revert i. induction n as [|n IH]; intros i C D Hi R P Hj P'; destruct (there w i Hi) as (S1 & S2 & S3); destruct (there w j1 Hj) as (T1 & T2 & T3).
    - inversion R; subst;
      match goal with P : Peg w p ?x (OK b _), H : Peg w p ?x ?o |- _ =>
        pose proof (peg_det k G sk pols SK CE IM w p _ _ _ C S2 S3 P H) as E; try discriminate E end.
    - inversion R; subst;
      match goal with P : Peg w p ?x (OK b _), H : Peg w p ?x ?o |- _ =>
        pose proof (peg_det k G sk pols SK CE IM w p _ _ _ C S2 S3 P H) as E; try discriminate E; clear H end;
      injection E as -> ->;
      match goal with P' : Peg w d ?x (OK b' _), H : Peg w d ?x ?o |- _ =>
        pose proof (peg_det k G sk pols SK CE IM w d _ _ _ D T2 T3 P' H) as E; try discriminate E; clear H end.
      injection E as -> ->. match goal with H : Seps _ _ _ _ _ _ (limit_pred None) ?x n j |- _ => exact (IH x C D Hi H P Hj P') end.
  Qed.

  Definition upto (a s D : nat) : Prop := a <= s * M ^ D.
  Lemma lift' a s d D : a <= s * M ^ d -> d <= D -> upto a s D.
  Proof. apply lift. Qed.
  Lemma scaled a t s d : a <= t * (s * M ^ d) -> t <= M -> a <= s * M ^ S d.
  Proof. intros H L. cbn [Nat.pow]. pose proof (Nat.mul_le_mono_r _ _ (s * M ^ d) L). lia. Qed.
  Definition times (l : option nat) (n i : nat) : nat := match l with Some m => m | None => S (n - i) end.
  Lemma first_time l n i a X : l <> Some 0 -> a <= X -> a <= times l n i * X.
  Proof. intros L H. destruct l as [[|m]|]; [congruence|cbn [times Nat.mul]; eapply Nat.le_trans; [exact H|apply Nat.le_add_r]..]. Qed.
  Lemma next_time l n i j a b X : l <> Some 0 -> (l = None -> i < j /\ j <= n) -> a <= X -> b <= times (limit_pred l) n j * X ->
    a + b <= times l n i * X.
  Proof.
    intros L F HA HB. destruct l as [[|m]|]; [congruence|cbn [limit_pred option_map times Nat.mul pred] in *; lia|]. destruct (F eq_refl) as [F1 F2]. cbn [limit_pred times] in *.
    assert (E : S (S (n - j)) <= S (n - i)) by lia. pose proof (Nat.mul_le_mono_r _ _ X E) as E'. cbn [Nat.mul] in *. clear E. eapply Nat.le_trans; [|exact E']. apply Nat.add_le_mono; [exact HA|exact HB].
  Qed.

  Lemma work_poly :
    (forall w p i o N, Work w p i o N -> core p -> flat p = true -> i <= length w -> sk w i = i -> S (length w) <= M ->
       N <= share p * M ^ loops p) /\
    (forall w i u d m r N, AccW k G sk w i u d m r N -> ccore d -> flat_cond d = true -> i <= length w -> S (length w) <= M ->
       N <= S (share_cond d) * M ^ loops_cond d /\ (r = inl true -> i + m < length w)) /\
    (forall w i d m x r N, ChkW k G sk w i d m x r N -> ccore d -> flat_cond d = true -> i <= length w -> S (length w) <= M ->
       N <= share_cond d * M ^ loops_cond d) /\
    (forall w i u d l m r N, RunW k G sk w i u d l m r N -> ccore d -> flat_cond d = true -> i <= length w -> S (length w) <= M ->
       N <= S (length w - (i + m)) * (S (share_cond d) * M ^ loops_cond d)) /\
    (forall w p l i a j N, RepsW k G sk w p l i a j N -> core p -> flat p = true -> i <= length w -> S (length w) <= M ->
       N <= times l (length w) i * (share p * M ^ loops p)) /\
    (forall w p d l i a j N, SepsW k G sk w p d l i a j N -> core p -> core d -> flat p = true -> flat d = true -> i <= length w -> S (length w) <= M ->
       N <= times l (length w) i * ((share p + share d) * M ^ Nat.max (loops p) (loops d))) /\
    (forall w ps i e o N, FirstW k G sk w ps i e o N -> Forall core ps -> forallb flat ps = true -> i <= length w -> sk w i = i -> S (length w) <= M ->
       N <= share_all ps * M ^ loops_all ps).
  Proof.
    apply Work_mutind; intros.
    all: try discriminate.
    all: try match goal with C : core ?p |- _ => is_var p; fail 1 | C : core _ |- _ => inversion C; subst end.
    all: try match goal with E : flat ?p = true |- _ => is_var p; fail 1 | E : flat _ = true |- _ => cbn [flat] in E end.
    all: repeat match goal with X : _ && _ = true |- _ => apply andb_true_iff in X; destruct X end.
    all: try match goal with W : Work ?w _ (sk ?w ?i) _ _, J : ?i <= length ?w |- _ => destruct (there w i J) as (? & ? & ?) end.
    all: repeat match goal with
         | W : Work ?w ?p ?i (OK ?b ?j) ?z, C : core ?p, J : ?i <= length ?w, Z : sk ?w ?i = ?i |- _ =>
             lazymatch goal with V : i <= j /\ j <= length w |- _ => fail | _ => idtac end;
             let V := fresh in pose proof (inside _ _ _ _ _ _ W C J Z) as V;
             let V1 := fresh in assert (V1 : j <= length w) by apply V;
             destruct (there w j V1) as (? & ? & ?)
         end.
    all: repeat match goal with IH : ?P -> _ |- _ => match type of P with Prop => specialize (IH ltac:(assumption)) end end.
    all: repeat match goal with X : _ <= _ /\ (_ -> _) |- _ => destruct X end.
    all: try solve [apply Nat.le_0_l].
    all: cbn [share loops share_cond loops_cond]; try solve [
      match goal with |- _ <= _ * M ^ ?D =>
        pose proof (pow1 D); repeat match goal with H : ?z <= ?s * M ^ ?d |- _ => apply (lift' z s d D) in H; [|lia] end;
        unfold upto in *; lia end].
    all: try solve [
      match goal with H : ?z <= S (length ?w - (?i + 0)) * (?s * M ^ ?d), L : S (length ?w) <= M |- _ <= _ * M ^ S ?d =>
        apply scaled in H; [|lia]; pose proof (pow1 (S d)); lia end].
    all: try solve [
      match goal with H : ?z <= times None (length ?w) ?i * (?s * M ^ ?d), L : S (length ?w) <= M |- _ <= _ * M ^ S ?d =>
        cbn [times] in H; apply scaled in H; [|lia]; pose proof (pow1 (S d)); lia end].
    all: try solve [
      match goal with H : ?z <= times (Some _) (length ?w) ?i * (?s * M ^ ?d) |- _ <= _ * M ^ ?d =>
        cbn [times] in H; pose proof (pow1 d); rewrite Nat.mul_assoc in H; lia end].
    all: try solve [
      match goal with |- context [open_loop ?r] => unfold open_loop; destruct (limit_of r);
        match goal with
        | H : ?z <= times (Some _) (length ?w) ?i * (?s * M ^ ?d) |- _ =>
            cbn [times] in H; pose proof (pow1 d); rewrite Nat.mul_assoc in H; cbn [Nat.add]; lia
        | H : ?z <= times None (length ?w) ?i * (?s * M ^ ?d), L : S (length ?w) <= M |- _ =>
            cbn [times] in H; apply scaled in H; [|lia]; pose proof (pow1 (S d)); cbn [Nat.add]; lia
        end end].
    all: try solve [match goal with |- _ <= S (share_cond ?c) * M ^ loops_cond ?c /\ _ =>
      pose proof (pow1 (loops_cond c)); split; [lia|intros E; first [discriminate E | apply nth_error_Some; congruence]] end].
    all: try solve [match goal with IH : core ?p -> flat ?p = true -> sk ?v 0 <= length ?v -> _, C : ccore (CRegex ?p) |- _ =>
      inversion C; subst; destruct (there v 0 (Nat.le_0_l _)) as (? & ? & ?); apply IH; try assumption; rewrite skipn_length; lia end].
    all: try solve [match goal with E : inl true = inl true -> _ |- _ => specialize (E eq_refl) end;
      match goal with |- ?a + ?b <= S (?n - (?i + ?m)) * ?X => replace (n - (i + m)) with (S (n - (i + S m))) by lia; cbn [Nat.mul] in *; lia end].
    - change (S z1 <= S (share_all ps) * M ^ loops_all ps). now apply more.
    - rewrite flat_pairs in *. change (S z1 <= share (PPairChoice e false ps) * M ^ loops (PPairChoice e false ps)).
      rewrite share_pairs, loops_pairs. apply more. auto.
    - cbn [Nat.mul]. eapply Nat.le_trans; [eassumption|apply Nat.le_add_r].
    - cbn [Nat.mul]. eapply Nat.le_trans; [eassumption|apply Nat.le_add_r].
    - now apply first_time.
    - apply (next_time lim (length w) i j); try assumption. intros ->. destruct (Nat.eq_dec i j) as [<-|]; [exfalso|lia].
      eapply (reps_forward n w p i); try eassumption; eapply work_peg; eassumption.
    - apply first_time; [assumption|].
      match goal with A : z1 <= _ |- _ => pose proof (lift _ _ _ (Nat.max (loops p) (loops s)) A (Nat.le_max_l _ _)) end. lia.
    - apply first_time; [assumption|]. now apply both.
    - apply (next_time lim (length w) i j'); try assumption; [|now apply both].
      intros ->. destruct (Nat.eq_dec i j') as [<-|]; [exfalso|lia].
      eapply (seps_forward n w p s i j'' b b' j); try eassumption; first [eapply (proj1 (work_peg k G sk)); eassumption | eapply work_peg; eassumption].
    - inversion H1; subst. cbn [forallb] in H2. apply andb_true_iff in H2. destruct H2. cbn [share_all loops_all].
      assert (A : z1 <= share p * M ^ loops p) by auto.
      pose proof (lift _ _ _ (Nat.max (loops p) (loops_all ps)) A (Nat.le_max_l _ _)). fold share_all loops_all. lia.
    - inversion H3; subst. cbn [forallb] in H4. apply andb_true_iff in H4. destruct H4. cbn [share_all loops_all].
      fold share_all loops_all. apply both; auto.
  Qed.
End Poly.

Theorem poly_work k G sk pols p : skipper sk -> core_env k G sk -> implements k G sk pols -> core k G sk p -> flat p = true ->
  forall w i o N, i <= length w -> sk w i = i -> Work k G sk w p i o N -> N <= share p * S (length w) ^ loops p.
Proof.
  intros SK CE IM C F w i o N Hi S0 W.
  apply (proj1 (work_poly k G sk pols SK CE IM (S (length w)) (le_n_S _ _ (Nat.le_0_l _))) w p i o N W C F Hi S0 (le_n _)).
Qed.
