(** Without recursion the stack has a height of the parser's own; with it, linear in the text that is left. *)

From Coq Require Import List Arith NArith Bool Lia.
From Verif Require Import Base Text Context Neu Syntax Regex Ctor Api TextProofs Spec Core Sound Obs Laws
  ApiLaws Complete Term WorkPoly Deep.
Import ListNotations.

(** No parsers made while matching. *)
Fixpoint fixed (p : pat) : bool :=
  match p with
  | PEmpty | PFail | PStart | PEnd | PConsume _ | PConsumeAll | PLit _ | PFn _ | PNoneP | PRef _ => true
  | PAssert p _ | PLeaf p | PPat p | PRepeat p _ | PRepeat2 p _ _ | PCollect p _ | POption p | PMap p _ | PWrap p => fixed p
  | POnce _ c | PMany1 _ c | POpt _ c | PMany0 _ c | PBetween _ _ _ c | PTimes _ _ c | PNeuThen _ _ c => fixed_cond c
  | PThen p q | PSuffix p q | PPrefix p q | POr p q | PLongest p q | PBranch _ p q
  | PSep p q _ _ | PSepCollect p q _ _ | PSep2 p q _ _ _ => fixed p && fixed q
  | PIfThen p t q | PSepOnce p t q | PEnclose p t q => fixed p && fixed t && fixed q
  | PChoice _ _ ps => forallb fixed ps
  | PPairChoice _ _ ps => forallb (fun x => fixed (fst x)) ps
  | PBuilder _ _ | PDynThen _ _ | PCtorFn _ | PLock _ => false
  end
with fixed_cond (c : cond) : bool := match c with CEmpty | CFn _ => true | CRegex p => fixed p end.

(** The nesting of the parser itself; a recursive handle counts one. *)
Fixpoint height (p : pat) : nat :=
  match p with
  | PAssert p _ | PLeaf p | PPat p | PRepeat p _ | PRepeat2 p _ _ | PCollect p _ | POption p | PMap p _ | PWrap p => S (height p)
  | POnce _ c | PMany1 _ c | POpt _ c | PMany0 _ c | PBetween _ _ _ c | PTimes _ _ c | PNeuThen _ _ c => S (S (height_cond c))
  | PThen p q | PSuffix p q | PPrefix p q | POr p q | PLongest p q | PBranch _ p q
  | PSep p q _ _ | PSepCollect p q _ _ | PSep2 p q _ _ _ => S (Nat.max (height p) (height q))
  | PIfThen p t q | PSepOnce p t q | PEnclose p t q => S (Nat.max (height p) (Nat.max (height t) (height q)))
  | PChoice _ _ ps => S ((fix go ps := match ps with [] => 0 | p :: r => Nat.max (height p) (go r) end) ps)
  | PPairChoice _ _ ps => S ((fix go (ps : list (pat * val)) := match ps with [] => 0 | x :: r => Nat.max (height (fst x)) (go r) end) ps)
  | _ => 1
  end
with height_cond (c : cond) : nat := match c with CRegex p => height p | _ => 0 end.
Definition height_all := fix go (ps : list pat) := match ps with [] => 0 | p :: r => Nat.max (height p) (go r) end.
Lemma height_pairs e b ps : height (PPairChoice e b ps) = S (height_all (map fst ps)).
Proof. cbn [height]. f_equal. induction ps as [|[p v] r IH]; cbn; [reflexivity|]. now f_equal. Qed.
Lemma fixed_pairs ps : forallb (fun x : pat * val => fixed (fst x)) ps = forallb fixed (map fst ps).
Proof. induction ps as [|[p v] r IH]; cbn; [reflexivity|]. now f_equal. Qed.

Lemma deep_flat k G sk :
  (forall w p i o N, Deep k G sk w p i o N -> flat p = true -> N <= height p) /\
  (forall w i u d m r N, AccD k G sk w i u d m r N -> flat_cond d = true -> N <= S (height_cond d)) /\
  (forall w i d m x r N, ChkD k G sk w i d m x r N -> flat_cond d = true -> N <= height_cond d) /\
  (forall w i u d l m r N, RunD k G sk w i u d l m r N -> flat_cond d = true -> N <= S (height_cond d)) /\
  (forall w p l i a j N, RepsD k G sk w p l i a j N -> flat p = true -> N <= height p) /\
  (forall w p d l i a j N, SepsD k G sk w p d l i a j N -> flat p = true -> flat d = true -> N <= Nat.max (height p) (height d)) /\
  (forall w ps i e o N, FirstD k G sk w ps i e o N -> forallb flat ps = true -> N <= height_all ps).
Proof.
  apply Deep_mutind; intros; try discriminate.
  all: try match goal with E : forallb _ (_ :: _) = true |- _ => cbn [forallb] in E end.
  all: try match goal with E : flat ?p = true |- _ => is_var p; fail 1 | E : flat _ = true |- _ => cbn [flat] in E end.
  all: repeat match goal with X : _ && _ = true |- _ => apply andb_true_iff in X; destruct X end.
  all: try rewrite flat_pairs in *.
  all: repeat match goal with IH : ?P -> _ |- _ => match type of P with Prop => specialize (IH ltac:(assumption)) end end.
  all: try rewrite height_pairs.
  all: cbn [height height_cond]; fold height_all; try lia.
  all: try (cbn [height_all]; fold height_all; lia).
Qed.

Section Linear.
  Variable k : kind.
  Variable G : env.
  Variable sk : text -> nat -> nat.
  Variable pols : list pat.
  Hypothesis SK : skipper sk.
  Hypothesis CE : core_env k G sk.
  Hypothesis IM : implements k G sk pols.
  Variable rk : nat -> nat.
  Hypothesis WE : wf_env k G sk rk.
  (** Above all ranks; above the heights of all bodies. *)
  Variable R H : nat.
  Hypothesis HR : forall x p, env_get G x = Some p -> rk x < R.
  Hypothesis HH : forall x p, env_get G x = Some p -> fixed p = true /\ height p < H.
  Notation core := (core k G sk).
  Notation ccore := (core_cond k G sk).
  Notation Deep := (Deep k G sk).
  Notation wf := (wf k G sk rk).
  Notation wfc := (wf_cond k G sk rk).
  Notation next_level := (next_level k G sk).

  (** How many handles can still be entered: by rank, and anew for each item. *)
  Definition room (m r : nat) : nat := Nat.min m R + r * R.
  Lemma room_less m r r' : r' <= r -> room m r' <= room m r.
  Proof. intros L. unfold room. pose proof (Nat.mul_le_mono_r _ _ R L). lia. Qed.
  Lemma room_fresh m m' r r' : r' < r -> room m' r' <= room m r.
  Proof. intros L. unfold room. assert (E : S r' <= r) by lia. pose proof (Nat.mul_le_mono_r _ _ R E). cbn [Nat.mul] in *. lia. Qed.

  Definition cap (m r : nat) : nat := H * room m r.
  Lemma cap_less m r r' : r' <= r -> cap m r' <= cap m r.
  Proof. intros L. apply Nat.mul_le_mono_l. now apply room_less. Qed.
  Lemma cap_fresh m m' r r' : r' < r -> cap m' r' <= cap m r.
  Proof. intros L. apply Nat.mul_le_mono_l. now apply room_fresh. Qed.
  Lemma cap_ref m x r p : env_get G x = Some p -> rk x < m -> height p + cap (rk x) r < cap m r.
  Proof.
    intros E L. unfold cap, room. pose proof (HR x p E). pose proof (proj2 (HH x p E)).
    assert (A : S (Nat.min (rk x) R + r * R) <= Nat.min m R + r * R) by lia.
    pose proof (Nat.mul_le_mono_l _ _ H A) as B. rewrite Nat.mul_succ_r in B. lia.
  Qed.

  Lemma inside w p i b j n : Deep w p i (OK b j) n -> core p -> i <= length w -> sk w i = i -> i <= j /\ j <= length w.
  Proof.
    intros W C Hi S0. apply (proj1 (deep_peg k G sk)) in W.
    pose proof (ok_in k G sk SK CE pols IM p w i b j C Hi S0 W). lia.
  Qed.
  Lemma there w i : i <= length w -> i <= sk w i /\ sk w i <= length w /\ sk w (sk w i) = sk w i.
  Proof. apply (sk_at sk SK). Qed.
  (** What follows a match has no more room than what came before. *)
  Lemma onward m p m' w i b j n t : next_level m p m' -> Deep w p i (OK b j) n -> core p -> i <= length w -> sk w i = i ->
    j <= t -> cap m' (length w - t) <= cap m (length w - i).
  Proof.
    intros L W C Hi S0 T. pose proof (inside w p i b j n W C Hi S0). destruct L as [->|A]; [apply cap_less; lia|].
    apply (proj1 (deep_peg k G sk)) in W. specialize (A w i b j Hi S0 W). apply cap_fresh. lia.
  Qed.

  Lemma deep_linear :
    (forall w p i o N, Deep w p i o N -> forall m, wf m p -> core p -> fixed p = true -> i <= length w -> sk w i = i ->
       N <= height p + cap m (length w - i)) /\
    (forall w i u d a r N, AccD k G sk w i u d a r N -> forall m, wfc m d -> ccore d -> fixed_cond d = true -> i <= length w ->
       N <= S (height_cond d) + cap m (length w - i)) /\
    (forall w i d a x r N, ChkD k G sk w i d a x r N -> forall m, wfc m d -> ccore d -> fixed_cond d = true -> i <= length w ->
       N <= height_cond d + cap m (length w - i)) /\
    (forall w i u d l a r N, RunD k G sk w i u d l a r N -> forall m, wfc m d -> ccore d -> fixed_cond d = true -> i <= length w ->
       N <= S (height_cond d) + cap m (length w - i)) /\
    (forall w p l i a j N, RepsD k G sk w p l i a j N -> forall m, wf m p -> core p -> fixed p = true -> i <= length w ->
       N <= height p + cap m (length w - i)) /\
    (forall w p d l i a j N, SepsD k G sk w p d l i a j N -> forall m m', wf m p -> next_level m p m' -> wf m' d ->
       core p -> core d -> fixed p = true -> fixed d = true -> i <= length w ->
       N <= Nat.max (height p) (height d) + cap m (length w - i)) /\
    (forall w ps i e o N, FirstD k G sk w ps i e o N -> forall m, (forall p, In p ps -> wf m p) -> Forall core ps -> forallb fixed ps = true -> i <= length w -> sk w i = i ->
       N <= height_all ps + cap m (length w - i)).
  Proof.
    apply Deep_mutind; intros.
    all: try discriminate.
    all: try match goal with C : core ?p |- _ => is_var p; fail 1 | C : core _ |- _ => inversion C; subst end.
    all: try match goal with C : wf _ ?p |- _ => is_var p; fail 1 | C : wf _ _ |- _ => inversion C; subst; try contradiction end.
    all: try match goal with E : fixed ?p = true |- _ => is_var p; fail 1 | E : fixed _ = true |- _ => cbn [fixed] in E end.
    all: repeat match goal with X : _ && _ = true |- _ => apply andb_true_iff in X; destruct X end.
    all: try match goal with W : Deep ?w _ (sk ?w ?i) _ _, J : ?i <= length ?w |- _ => destruct (there w i J) as (? & ? & ?) end.
    all: repeat match goal with
         | W : Deep ?w ?p ?i (OK ?b ?j) ?z, C : core ?p, J : ?i <= length ?w, Z : sk ?w ?i = ?i |- _ =>
             lazymatch goal with V : i <= j /\ j <= length w |- _ => fail | _ => idtac end;
             let V := fresh in pose proof (inside _ _ _ _ _ _ W C J Z) as V;
             let V1 := fresh in assert (V1 : j <= length w) by apply V;
             destruct (there w j V1) as (? & ? & ?)
         end.
    all: repeat match goal with
         | W : Deep ?w ?p ?i (OK ?b ?j) ?z, C : core ?p, J : ?i <= length ?w, Z : sk ?w ?i = ?i, L : next_level ?m ?p ?m', Q : ?j <= sk ?w ?j |- _ =>
             lazymatch goal with V : cap m' (length w - sk w j) <= cap m (length w - i) |- _ => fail | _ => idtac end;
             pose proof (onward m p m' w i b j z (sk w j) L W C J Z Q)
         end.
    all: repeat match goal with IH : forall m, wf m ?p -> _, X : wf ?m ?p |- _ => specialize (IH m X) end.
    all: repeat match goal with IH : forall m, wfc m ?p -> _, X : wfc ?m ?p |- _ => specialize (IH m X) end.
    all: repeat match goal with IH : ?P -> _ |- _ => match type of P with Prop => specialize (IH ltac:(assumption)) end end.
    all: cbn [height height_cond]; try lia.
    all: try solve [match goal with IH : forall m m' : nat, wf m ?p -> _, A : wf ?a ?p, L : next_level ?a ?p ?a', B : wf ?a' _ |- _ =>
      specialize (IH a a' A L B); apply le_n_S, IH; assumption end].
    all: try solve [match goal with C : ccore (CRegex _), D : wfc _ (CRegex _) |- _ => inversion C; inversion D; subst end;
      match goal with IH : forall m, wf m ?p -> _ -> _ -> sk ?v 0 <= _ -> _, A : wf ?a ?p, J : ?i <= length ?w |- _ =>
        destruct (there v 0 (Nat.le_0_l _)) as (_ & V1 & V2); specialize (IH a A ltac:(assumption) ltac:(assumption) V1 V2);
        pose proof (cap_less a (length w - i) (length v - sk v 0) ltac:(rewrite skipn_length; lia)); lia end].
    - change (S z1 <= S (height_all ps) + cap m (length w - i)). apply le_n_S. now apply H1.
    - change (S z1 <= height (PPairChoice e false ps) + cap m (length w - i)). rewrite height_pairs. apply le_n_S.
      rewrite fixed_pairs in *. now apply H1.
    - match goal with E : env_get G x = Some p, L : _ -> rk x < m |- _ =>
        pose proof (cap_ref m x (length w - i) p E (L ltac:(congruence))); pose proof (H2 (rk x) (WE x p E) (CE x p E) (proj1 (HH x p E)) ltac:(assumption) ltac:(assumption)) end.
      lia.
    - pose proof (cap_less m (length w - i) (length w - sk w i) ltac:(lia)). lia.
    - pose proof (cap_less m (length w - i) (length w - sk w i) ltac:(lia)). pose proof (cap_less m (length w - i) (length w - j) ltac:(lia)). lia.
    - pose proof (cap_less m (length w - i) (length w - sk w i) ltac:(lia)). lia.
    - pose proof (cap_less m (length w - i) (length w - sk w i) ltac:(lia)). lia.
    - pose proof (cap_less m (length w - i) (length w - sk w i) ltac:(lia)). pose proof (cap_less m (length w - i) (length w - j') ltac:(lia)). 
      specialize (H6 m m'). assert (z3 <= Nat.max (height p) (height s) + cap m (length w - j')) by auto. lia.
    - inversion H3; subst. cbn [forallb] in H4. apply andb_true_iff in H4. destruct H4. cbn [height_all]. fold height_all.
      assert (z1 <= height p + cap m (length w - i)) by (apply H1; auto; apply H2; now left). lia.
    - inversion H5; subst. cbn [forallb] in H6. apply andb_true_iff in H6. destruct H6. cbn [height_all]. fold height_all.
      assert (z1 <= height p + cap m (length w - i)) by (apply H1; auto; apply H4; now left).
      assert (z2 <= height_all ps + cap m (length w - i)) by (apply H3; auto; intros q Q; apply H4; now right). lia.
  Qed.
End Linear.

Lemma below (f : nat -> nat) n : exists B, forall x, x < n -> f x < B.
Proof.
  induction n as [|n [B H]]; [exists 0; lia|]. exists (Nat.max B (S (f n))). intros x L.
  destruct (Nat.eq_dec x n) as [->|]; [lia|]. specialize (H x). lia.
Qed.
Lemma env_in (G : env) x p : env_get G x = Some p -> x < length G.
Proof. intros E. destruct (le_lt_dec (length G) x) as [L|]; [|assumption]. unfold env_get in E. rewrite nth_overflow in E by assumption. discriminate. Qed.

Theorem linear_depth k G sk pols rk m p : skipper sk -> implements k G sk pols -> core_env k G sk -> wf_env k G sk rk ->
  (forall x q, env_get G x = Some q -> fixed q = true) -> wf k G sk rk m p -> core k G sk p -> fixed p = true ->
  exists c, forall w i o n, i <= length w -> sk w i = i -> Deep k G sk w p i o n -> n <= c * S (length w - i).
Proof.
  intros SK IM CE WE FE W C F.
  destruct (below rk (length G)) as [R HR].
  destruct (below (fun x => match env_get G x with Some q => height q | None => 0 end) (length G)) as [H HH].
  exists (height p + H * R). intros w i o n Hi S0 D.
  assert (A : n <= height p + cap R H m (length w - i)).
  { apply (proj1 (deep_linear k G sk pols SK CE IM rk WE R H
      (fun x q E => HR x (env_in G x q E))
      (fun x q E => conj (FE x q E) (eq_rect _ (fun t => match t with Some q => height q | None => 0 end < H) (HH x (env_in G x q E)) _ E)))
      w p i o n D m W C F Hi S0). }
  unfold cap, room in A. assert (B : Nat.min m R + (length w - i) * R <= R * S (length w - i)) by (rewrite Nat.mul_succ_r; lia).
  pose proof (Nat.mul_le_mono_l _ _ H B) as B'. rewrite Nat.mul_add_distr_r. rewrite Nat.mul_assoc in B'.
  assert (height p <= height p * S (length w - i)) by (rewrite Nat.mul_succ_r; apply Nat.le_add_l). lia.
Qed.
