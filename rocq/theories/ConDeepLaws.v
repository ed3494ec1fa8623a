(** The height of the stack while values are built: without recursion a number of the parser's own, with it linear in the
    text that is left. *)

From Coq Require Import List Arith NArith Bool Lia.
From Verif Require Import Base Text Context Neu Syntax Regex Ctor Api TextProofs Spec Core Sound Obs Laws ApiLaws Complete
  CtorSpec ConSpec ConSound ConComplete Term Consumes TermLaws ConTerm WorkPoly Deep DeepLaws ConDeep.
Import ListNotations.

Lemma plain_fst ps : map fst (plain ps) = ps.
Proof. induction ps as [|p r IH]; cbn; [reflexivity|]. now f_equal. Qed.
Lemma keyed_fst ps : map fst (keyed ps) = map fst ps.
Proof. induction ps as [|p r IH]; cbn; [reflexivity|]. now f_equal. Qed.

Lemma condeep_flat k G sk {ST} (hv : text -> nat -> nat -> ST -> res val * ST) :
  (forall w p i s o N, ConD k G sk hv w p i s o N -> flat p = true -> N <= S (height p)) /\
  (forall w p l i s o N, CrepsD k G sk hv w p l i s o N -> flat p = true -> N <= S (height p)) /\
  (forall w p q b l i s o N, CsepsD k G sk hv w p q b l i s o N -> flat p = true -> flat q = true ->
     N <= S (Nat.max (height p) (height q))) /\
  (forall w p q b e i s o N, CpollsD k G sk hv w p q b e i s o N -> flat p = true -> flat q = true ->
     N <= S (Nat.max (height p) (height q))) /\
  (forall w e ps i s o N, CfirstD k G sk hv w e ps i s o N -> forallb flat (map fst ps) = true -> N <= S (height_all (map fst ps))) /\
  (forall w e ps i b en cur s o N, ClongestD k G sk hv w e ps i b en cur s o N -> forallb flat (map fst ps) = true ->
     N <= S (height_all (map fst ps))).
Proof.
  apply ConD_mutind; intros; try discriminate.
  all: try match goal with E : forallb _ (map _ (_ :: _)) = true |- _ => cbn [map fst forallb] in E end.
  all: try match goal with E : flat ?p = true |- _ => is_var p; fail 1 | E : flat _ = true |- _ => cbn [flat] in E end.
  all: try rewrite flat_pairs in *.
  all: try rewrite plain_fst in *.
  all: try rewrite keyed_fst in *.
  all: repeat match goal with X : _ && _ = true |- _ => apply andb_true_iff in X; destruct X end.
  all: try match goal with b : bool |- _ => destruct b end.
  all: repeat match goal with IH : ?P -> _ |- _ => match type of P with Prop => specialize (IH ltac:(assumption)) end end.
  all: repeat match goal with D : Deep ?k ?G ?sk ?w ?p ?i ?o ?n, F : flat ?p = true |- _ =>
         lazymatch goal with _ : n <= height p |- _ => fail | _ => pose proof (proj1 (deep_flat k G sk) _ _ _ _ _ D F) end end.
  all: try rewrite height_pairs.
  all: cbn [height height_cond]; fold height_all; try lia.
  all: try (cbn [map fst height_all]; fold height_all; lia).
Qed.

Section Linear.
  Variable k : kind.
  Variable G : env.
  Variable sk : text -> nat -> nat.
  Variable pols : list pat.
  Context {ST : Type}.
  Variable hv : text -> nat -> nat -> ST -> res val * ST.
  Variable h : handler ST.
  Hypothesis SK : skipper sk.
  Hypothesis CEnv : core_env k G sk.
  Hypothesis IM : implements k G sk pols.
  Hypothesis OE : con_ok_env k G sk.
  Hypothesis HA : answers k sk hv h.
  Variable rk : nat -> nat.
  Hypothesis WE : wf_env k G sk rk.
  Hypothesis CWE : cwf_env k G sk hv rk.
  (** Above all ranks; above the heights of all bodies. *)
  Variable R H : nat.
  Hypothesis HR : forall x p, env_get G x = Some p -> rk x < R.
  Hypothesis HH : forall x p, env_get G x = Some p -> fixed p = true /\ S (height p) < H.
  Notation core := (core k G sk).
  Notation con_ok := (con_ok k G sk).
  Notation Deep := (Deep k G sk).
  Notation ConD := (ConD k G sk hv).
  Notation cwf := (cwf k G sk hv rk).
  Notation pwf := (pwf k G sk rk).
  Notation next_level := (next_level k G sk).
  Notation cnext := (cnext k G sk hv).

  Lemma HH' x p : env_get G x = Some p -> fixed p = true /\ height p < H.
  Proof. intros E. destruct (HH x p E). split; [assumption|lia]. Qed.

  (** Room for building, and for matching from there on. *)
  Definition both (m r : nat) : nat := cap R H m r + H * (R * S r).
  Lemma both_less m r r' : r' <= r -> both m r' <= both m r.
  Proof.
    intros L. unfold both. pose proof (cap_less G rk R H HR HH' m r r' L). assert (A : S r' <= S r) by lia.
    pose proof (Nat.mul_le_mono_l _ _ H (Nat.mul_le_mono_l _ _ R A)). lia.
  Qed.
  Lemma both_fresh m m' r r' : r' < r -> both m' r' <= both m r.
  Proof.
    intros L. unfold both. pose proof (cap_fresh G rk R H HR HH' m m' r r' L). assert (A : S r' <= S r) by lia.
    pose proof (Nat.mul_le_mono_l _ _ H (Nat.mul_le_mono_l _ _ R A)). lia.
  Qed.
  Lemma both_ref m x r p : env_get G x = Some p -> rk x < m -> S (height p) + both (rk x) r < both m r.
  Proof.
    intros E L. unfold both, cap, room. pose proof (HR x p E). pose proof (proj2 (HH x p E)).
    assert (A : S (Nat.min (rk x) R + r * R) <= Nat.min m R + r * R) by lia.
    pose proof (Nat.mul_le_mono_l _ _ H A) as B. rewrite Nat.mul_succ_r in B. lia.
  Qed.
  (** A part that is only matched. *)
  Lemma only_matched w p i o n m : Deep w p (sk w i) o n -> pwf p -> core p -> fixed p = true -> i <= length w ->
    n <= height p + both m (length w - sk w i).
  Proof.
    intros D [a W] C F Hi. pose proof (sk_up sk SK w i Hi) as [_ S1]. pose proof (sk_idem sk SK w i Hi) as S2.
    pose proof (proj1 (deep_linear k G sk pols SK CEnv IM rk WE R H HR HH') w p _ o n D a W C F S1 S2) as B.
    unfold both. assert (A : cap R H a (length w - sk w i) <= H * (R * S (length w - sk w i))).
    { unfold cap, room. apply Nat.mul_le_mono_l. rewrite Nat.mul_succ_r, (Nat.mul_comm R). lia. }
    lia.
  Qed.
  Lemma con_at w p i s v j s' n : ConD w p i s (CV v j s') n -> con_ok p -> i <= length w -> sk w i <= sk w j /\ j <= length w.
  Proof.
    intros D C Hi. apply (proj1 (condeep_con k G sk hv)) in D.
    exact (con_in k G sk pols hv h SK CEnv IM OE HA w p i s _ D C Hi).
  Qed.
  Lemma con_on m p m' w i s v j s' n : cnext m p m' -> ConD w p i s (CV v j s') n -> con_ok p -> i <= length w ->
    both m' (length w - sk w j) <= both m (length w - sk w i).
  Proof.
    intros L D C Hi. destruct (con_at _ _ _ _ _ _ _ _ D C Hi) as [A B]. destruct L as [->|L]; [apply both_less; lia|].
    apply (proj1 (condeep_con k G sk hv)) in D. specialize (L w i s v j s' Hi D). pose proof (sk_up sk SK w j B). apply both_fresh. lia.
  Qed.
  Lemma mat_at w p i b j n : Deep w p (sk w i) (OK b j) n -> core p -> i <= length w -> sk w i <= sk w j /\ j <= length w.
  Proof. intros D C Hi. apply (proj1 (deep_peg k G sk)) in D. exact (peg_in k G sk pols SK CEnv IM w p i b j D C Hi). Qed.
  Lemma mat_on m p m' w i b j n : next_level m p m' -> Deep w p (sk w i) (OK b j) n -> core p -> i <= length w ->
    both m' (length w - sk w j) <= both m (length w - sk w i).
  Proof.
    intros L D C Hi. destruct (mat_at _ _ _ _ _ _ D C Hi) as [A B]. destruct L as [->|L]; [apply both_less; lia|].
    apply (proj1 (deep_peg k G sk)) in D. pose proof (peg_adv k G sk pols SK CEnv IM w p i b j L D C Hi).
    pose proof (sk_up sk SK w j B). apply both_fresh. lia.
  Qed.
  Lemma leaf_wf m p : leafy p -> cwf m p -> pwf p.
  Proof. intros L W. inversion W; subst; try contradiction. assumption. Qed.
  Lemma leaf_core p : leafy p -> con_ok p -> core p.
  Proof. intros L W. inversion W; subst; try contradiction. assumption. Qed.

  Lemma condeep_linear :
    (forall w p i s o N, ConD w p i s o N -> forall m, cwf m p -> con_ok p -> fixed p = true -> i <= length w ->
       N <= S (height p) + both m (length w - sk w i)) /\
    (forall w p l i s o N, CrepsD k G sk hv w p l i s o N -> forall m, cwf m p -> con_ok p -> fixed p = true -> i <= length w ->
       N <= S (height p) + both m (length w - sk w i)) /\
    (forall w p q b l i s o N, CsepsD k G sk hv w p q b l i s o N -> forall m, cwf m p -> con_ok p -> fixed p = true ->
       pwf q -> core q -> fixed q = true -> i <= length w ->
       N <= S (Nat.max (height p) (height q)) + both m (length w - sk w i)) /\
    (forall w p q b e i s o N, CpollsD k G sk hv w p q b e i s o N -> forall m, cwf m p -> con_ok p -> fixed p = true ->
       pwf q -> core q -> fixed q = true -> i <= length w ->
       N <= S (Nat.max (height p) (height q)) + both m (length w - sk w i)) /\
    (forall w e ps i s o N, CfirstD k G sk hv w e ps i s o N -> forall m, (forall p, In p (map fst ps) -> cwf m p) ->
       (forall p, In p (map fst ps) -> con_ok p) -> forallb fixed (map fst ps) = true -> i <= length w ->
       N <= S (height_all (map fst ps)) + both m (length w - sk w i)) /\
    (forall w e ps i b en cur s o N, ClongestD k G sk hv w e ps i b en cur s o N -> forall m, (forall p, In p (map fst ps) -> cwf m p) ->
       (forall p, In p (map fst ps) -> con_ok p) -> forallb fixed (map fst ps) = true -> i <= length w ->
       N <= S (height_all (map fst ps)) + both m (length w - sk w i)).
  Proof.
    apply ConD_mutind; intros.
    all: try discriminate.
    all: try match goal with C : con_ok ?p |- _ => is_var p; fail 1 | C : con_ok _ |- _ => inversion C; subst; try contradiction end.
    all: try match goal with C : cwf _ ?p |- _ => is_var p; fail 1 | C : cwf _ _ |- _ => inversion C; subst; try contradiction end.
    all: try match goal with E : fixed ?p = true |- _ => is_var p; fail 1 | E : fixed _ = true |- _ => cbn [fixed] in E end.
    all: repeat match goal with X : _ && _ = true |- _ => apply andb_true_iff in X; destruct X end.
    all: try match goal with L : leafy ?p, W : cwf _ ?p, C : con_ok ?p |- _ => pose proof (leaf_wf _ _ L W); pose proof (leaf_core _ L C) end.
    all: repeat match goal with
         | W : ConD ?w ?p ?i ?s (CV ?v ?j ?s') ?z, C : con_ok ?p, J : ?i <= length ?w |- _ =>
             lazymatch goal with V : sk w i <= sk w j /\ j <= length w |- _ => fail | _ => idtac end;
             let V := fresh in pose proof (con_at _ _ _ _ _ _ _ _ W C J) as V;
             assert (j <= length w) by apply V
         | W : Deep ?w ?p (sk ?w ?i) (OK ?b ?j) ?z, C : core ?p, J : ?i <= length ?w |- _ =>
             lazymatch goal with V : sk w i <= sk w j /\ j <= length w |- _ => fail | _ => idtac end;
             let V := fresh in pose proof (mat_at _ _ _ _ _ _ W C J) as V;
             assert (j <= length w) by apply V
         end.
    all: repeat match goal with
         | W : ConD ?w ?p ?i ?s (CV ?v ?j ?s') ?z, C : con_ok ?p, J : ?i <= length ?w, L : cnext ?m ?p ?m' |- _ =>
             lazymatch goal with V : both m' (length w - sk w j) <= both m (length w - sk w i) |- _ => fail | _ => idtac end;
             pose proof (con_on _ _ _ _ _ _ _ _ _ _ L W C J)
         | W : Deep ?w ?p (sk ?w ?i) (OK ?b ?j) ?z, C : core ?p, J : ?i <= length ?w, L : next_level ?m ?p ?m' |- _ =>
             lazymatch goal with V : both m' (length w - sk w j) <= both m (length w - sk w i) |- _ => fail | _ => idtac end;
             pose proof (mat_on _ _ _ _ _ _ _ _ L W C J)
         end.
    all: repeat match goal with
         | W : Deep ?w ?p (sk ?w ?i) _ ?z, P : pwf ?p, C : core ?p, F : fixed ?p = true, J : ?i <= length ?w |- _ <= _ + both ?m (length ?w - sk ?w ?x) =>
             lazymatch goal with V : z <= height p + both m (length w - sk w i) |- _ => fail | _ => idtac end;
             pose proof (only_matched _ _ _ _ _ m W P C F J); pose proof (both_less m (length w - sk w x) (length w - sk w i) ltac:(lia))
         end.
    all: repeat match goal with IH : forall m, cwf m ?p -> _, X : cwf ?m ?p |- _ => specialize (IH m X) end.
    all: repeat match goal with IH : ?P -> _ |- _ => match type of P with Prop => specialize (IH ltac:(assumption)) end end.
    all: cbn [height]; try lia.
    all: try solve [match goal with V : sk ?w ?i <= sk ?w ?j /\ _ |- _ <= _ + both ?m (length ?w - sk ?w ?i) =>
      pose proof (both_less m (length w - sk w i) (length w - sk w j) ltac:(lia)); lia end].
    all: try solve [cbn [map fst forallb] in *; match goal with X : fixed _ && forallb _ _ = true |- _ => apply andb_true_iff in X; destruct X end;
      cbn [height_all]; fold height_all;
      repeat match goal with
         | IH : forall m, cwf m ?p -> _, X : forall q, In q (?p :: ?r) -> cwf ?m q, Y : forall q, In q (?p :: ?r) -> con_ok q |- _ =>
             specialize (IH m (X p (or_introl eq_refl)) (Y p (or_introl eq_refl)) ltac:(assumption) ltac:(assumption))
         | IH : forall m, (forall q, In q ?r -> cwf m q) -> _, X : forall q, In q (?p :: ?r) -> cwf ?m q, Y : forall q, In q (?p :: ?r) -> con_ok q |- _ =>
             specialize (IH m (fun q Q => X q (or_intror Q)) (fun q Q => Y q (or_intror Q)) ltac:(assumption) ltac:(assumption))
         end; lia].
    - destruct b.
      + specialize (H2 m ltac:(assumption) ltac:(assumption) ltac:(assumption) ltac:(assumption)). lia.
      + specialize (H2 m ltac:(assumption) ltac:(assumption) ltac:(assumption) ltac:(assumption)). lia.
    - change (S z1 <= S (S (height_all ps)) + both m (length w - sk w i)). rewrite plain_fst in *. apply le_n_S. now apply H1.
    - change (S z1 <= S (S (height_all ps)) + both m (length w - sk w i)). rewrite plain_fst in *. apply le_n_S. now apply H1.
    - change (S z1 <= S (height (PPairChoice e false ps)) + both m (length w - sk w i)). rewrite height_pairs. apply le_n_S.
      rewrite fixed_pairs in *. rewrite keyed_fst in *. apply H1; auto; intros q Q; apply in_map_iff in Q; destruct Q as (x & <- & Q); auto.
    - change (S z1 <= S (height (PPairChoice e true ps)) + both m (length w - sk w i)). rewrite height_pairs. apply le_n_S.
      rewrite fixed_pairs in *. rewrite keyed_fst in *. apply H1; auto; intros q Q; apply in_map_iff in Q; destruct Q as (x & <- & Q); auto.
    - match goal with E : env_get G x = Some p, L : _ -> rk x < m |- _ =>
        pose proof (both_ref m x (length w - sk w i) p E (L ltac:(congruence)));
        pose proof (H2 (rk x) (CWE x p E) (OE x p E) (proj1 (HH x p E)) ltac:(assumption)) end.
      lia.
    - pose proof (both_less m (length w - sk w i) (length w - sk w j') ltac:(lia)). lia.
    - pose proof (both_less m (length w - sk w i) (length w - sk w j') ltac:(lia)). lia.
  Qed.
End Linear.

Theorem con_linear_depth k G sk pols {ST} (hv : text -> nat -> nat -> ST -> res val * ST) (h : handler ST) rk m p :
  skipper sk -> implements k G sk pols -> core_env k G sk -> con_ok_env k G sk -> answers k sk hv h ->
  wf_env k G sk rk -> cwf_env k G sk hv rk -> (forall x q, env_get G x = Some q -> fixed q = true) ->
  cwf k G sk hv rk m p -> con_ok k G sk p -> fixed p = true ->
  exists c, forall w i s o n, i <= length w -> ConD k G sk hv w p i s o n -> n <= c * S (length w - sk w i).
Proof.
  intros SK IM CE OE HA WE CWE FE W C F.
  destruct (below rk (length G)) as [R HR].
  destruct (below (fun x => match env_get G x with Some q => S (height q) | None => 0 end) (length G)) as [H HH].
  exists (S (height p) + H * R + H * R). intros w i s o n Hi D.
  assert (A : n <= S (height p) + both R H m (length w - sk w i)).
  { apply (proj1 (condeep_linear k G sk pols hv h SK CE IM OE HA rk WE CWE R H
      (fun x q E => HR x (env_in G x q E))
      (fun x q E => conj (FE x q E) (eq_rect _ (fun t => match t with Some q => S (height q) | None => 0 end < H) (HH x (env_in G x q E)) _ E)))
      w p i s o n D m W C F Hi). }
  unfold both, cap, room in A. set (r := length w - sk w i) in *.
  assert (B : Nat.min m R + r * R <= R * S r) by (rewrite Nat.mul_succ_r; lia).
  pose proof (Nat.mul_le_mono_l _ _ H B) as B'. rewrite !Nat.mul_add_distr_r. rewrite Nat.mul_assoc in A, B'.
  assert (S (height p) <= S (height p) * S r) by (rewrite Nat.mul_succ_r; apply Nat.le_add_l). lia.
Qed.
