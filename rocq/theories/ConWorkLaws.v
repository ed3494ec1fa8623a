(** The steps taken while values are built, without recursion: polynomial in the length of the text. *)

From Coq Require Import List Arith NArith Bool Lia.
From Verif Require Import Base Text Context Neu Syntax Regex Ctor Api TextProofs Spec Core Sound Obs Laws ApiLaws Complete
  CtorSpec ConSpec ConSound ConComplete Term Consumes TermLaws ConTerm Work WorkPoly ConWork ConDeepLaws.
Import ListNotations.

(** A constant for each parser, as [share] of WorkPoly.v. *)
Fixpoint cshare (p : pat) : nat :=
  match p with
  | POption p | PMap p _ | PWrap p | PCollect p _ => S (cshare p)
  | PRepeat p r => S (match limit_of r with None => 1 | Some l => l end * cshare p)
  | PRepeat2 p _ l => S (S l * cshare p)
  | PSep p q _ _ => S (cshare p + share q)
  | PSepCollect p q _ _ => S (2 * (cshare p + share q))
  | PSep2 p q _ l _ => S (S l * (cshare p + share q))
  | PThen p q | POr p q | PLongest p q | PBranch _ p q => S (cshare p + cshare q)
  | PSuffix p q | PPrefix p q => S (cshare p + share q)
  | PIfThen p t q | PSepOnce p t q => S (cshare p + share t + cshare q)
  | PEnclose p o c => S (cshare p + share o + share c)
  | PChoice _ _ ps => S ((fix go ps := match ps with [] => 0 | p :: r => cshare p + go r end) ps)
  | PPairChoice _ _ ps => S ((fix go (ps : list (pat * val)) := match ps with [] => 0 | x :: r => cshare (fst x) + go r end) ps)
  | PPat p => S (share p)
  | p => S (share p)
  end.
Definition cshare_all := fix go (ps : list pat) := match ps with [] => 0 | p :: r => cshare p + go r end.
Lemma cshare_pairs e b ps : cshare (PPairChoice e b ps) = S (cshare_all (map fst ps)).
Proof. cbn [cshare]. f_equal. induction ps as [|[p v] r IH]; cbn; [reflexivity|]. now f_equal. Qed.
Lemma cshare_leaf p : leafy p -> cshare p = S (share p).
Proof. destruct p; cbn [leafy]; intros L; try contradiction; reflexivity. Qed.

Section Poly.
  Variable k : kind.
  Variable G : env.
  Variable sk : text -> nat -> nat.
  Variable pols : list pat.
  Context {ST : Type}.
  Variable hv : text -> nat -> nat -> ST -> res val * ST.
  Variable h : handler ST.
  Hypothesis SK : skipper sk.
  Hypothesis CEnv : core_env k G sk.
  Hypothesis IM : implements k G sk pols.
  Hypothesis OE : con_ok_env k G sk.
  Hypothesis HA : answers k sk hv h.
  Variable rk : nat -> nat.
  Variable M : nat.
  Hypothesis M1 : 1 <= M.
  Notation core := (core k G sk).
  Notation con_ok := (con_ok k G sk).
  Notation Work := (Work k G sk).
  Notation ConW := (ConW k G sk hv).
  Notation cwf := (cwf k G sk hv rk).
  Notation cadvances := (cadvances k G sk hv).
  Notation advances := (advances k G sk).

  Lemma conw_at w p i s v j s' n : ConW w p i s (CV v j s') n -> con_ok p -> i <= length w -> sk w i <= sk w j /\ j <= length w.
  Proof.
    intros D C Hi. apply (proj1 (conwork_con k G sk hv)) in D.
    exact (con_in k G sk pols hv h SK CEnv IM OE HA w p i s _ D C Hi).
  Qed.
  Lemma matw_at w p i b j n : Work w p (sk w i) (OK b j) n -> core p -> i <= length w -> sk w i <= sk w j /\ j <= length w.
  Proof. intros D C Hi. apply (proj1 (work_peg k G sk)) in D. exact (peg_in k G sk pols SK CEnv IM w p i b j D C Hi). Qed.
  Lemma conw_adv w p i s v j s' n : cadvances p -> ConW w p i s (CV v j s') n -> i <= length w -> sk w i < sk w j.
  Proof. intros A D Hi. apply (proj1 (conwork_con k G sk hv)) in D. eauto. Qed.
  Lemma matw_adv w p i b j n : advances p -> Work w p (sk w i) (OK b j) n -> core p -> i <= length w -> sk w i < sk w j.
  Proof. intros A D C Hi. apply (proj1 (work_peg k G sk)) in D. exact (peg_adv k G sk pols SK CEnv IM w p i b j A D C Hi). Qed.
  Lemma matw_cost w p i o n : Work w p (sk w i) o n -> core p -> flat p = true -> i <= length w -> S (length w) <= M ->
    n <= share p * M ^ loops p.
  Proof.
    intros D C F Hi HM. pose proof (sk_up sk SK w i Hi) as [_ S1]. pose proof (sk_idem sk SK w i Hi) as S2.
    exact (proj1 (work_poly k G sk pols SK CEnv IM M M1) w p (sk w i) o n D C F S1 S2 HM).
  Qed.
  Lemma conw_next w p q i s v j s' z1 b j' z2 : cadvances p \/ advances q -> ConW w p i s (CV v j s') z1 -> Work w q (sk w j) (OK b j') z2 ->
    con_ok p -> core q -> i <= length w -> sk w i < sk w j' /\ sk w j' <= length w.
  Proof.
    intros A D E C Cq Hi. destruct (conw_at _ _ _ _ _ _ _ _ D C Hi) as [V1 V2]. destruct (matw_at _ _ _ _ _ _ E Cq V2) as [V3 V4].
    pose proof (sk_up sk SK w j' V4). split; [|lia].
    destruct A as [A|A]; [pose proof (conw_adv _ _ _ _ _ _ _ _ A D Hi)|pose proof (matw_adv _ _ _ _ _ _ A E Cq V2)]; lia.
  Qed.
  Lemma still_limited l (X : Prop) : l <> None \/ X -> limit_pred l <> None \/ X.
  Proof. intros [L|L]; [left|right; exact L]. destruct l; cbn; congruence. Qed.
  Notation cost p := (cshare p * M ^ loops p).
  Notation turn p q := ((cshare p + share q) * M ^ Nat.max (loops p) (loops q)).

  Lemma conwork_poly :
    (forall w p i s o N, ConW w p i s o N -> forall m, cwf m p -> con_ok p -> flat p = true -> i <= length w -> S (length w) <= M ->
       N <= cost p) /\
    (forall w p l i s o N, CrepsW k G sk hv w p l i s o N -> forall m, cwf m p -> con_ok p -> flat p = true -> l <> None \/ cadvances p ->
       i <= length w -> S (length w) <= M -> N <= times l (length w) (sk w i) * cost p) /\
    (forall w p q b l i s o N, CsepsW k G sk hv w p q b l i s o N -> forall m, cwf m p -> con_ok p -> flat p = true ->
       core q -> flat q = true -> l <> None \/ cadvances p \/ advances q -> i <= length w -> S (length w) <= M ->
       N <= times l (length w) (sk w i) * turn p q) /\
    (forall w p q b e i s o N, CpollsW k G sk hv w p q b e i s o N -> forall m, cwf m p -> con_ok p -> flat p = true ->
       core q -> flat q = true -> cadvances p \/ advances q -> i <= length w -> S (length w) <= M ->
       N <= (if e then 1 else S (S (length w - sk w i))) * turn p q) /\
    (forall w e ps i s o N, CfirstW k G sk hv w e ps i s o N -> forall m, (forall p, In p (map fst ps) -> cwf m p) ->
       (forall p, In p (map fst ps) -> con_ok p) -> forallb flat (map fst ps) = true -> i <= length w -> S (length w) <= M ->
       N <= cshare_all (map fst ps) * M ^ loops_all (map fst ps)) /\
    (forall w e ps i b en cur s o N, ClongestW k G sk hv w e ps i b en cur s o N -> forall m, (forall p, In p (map fst ps) -> cwf m p) ->
       (forall p, In p (map fst ps) -> con_ok p) -> forallb flat (map fst ps) = true -> i <= length w -> S (length w) <= M ->
       N <= cshare_all (map fst ps) * M ^ loops_all (map fst ps)).
  Proof.
    apply ConW_mutind; intros.
    all: try discriminate.
    all: try match goal with C : con_ok ?p |- _ => is_var p; fail 1 | C : con_ok _ |- _ => inversion C; subst; try contradiction end.
    all: try match goal with C : cwf _ ?p |- _ => is_var p; fail 1 | C : cwf _ _ |- _ => inversion C; subst; try contradiction end.
    all: try match goal with E : flat ?p = true |- _ => is_var p; fail 1 | E : flat _ = true |- _ => cbn [flat] in E end.
    all: repeat match goal with X : _ && _ = true |- _ => apply andb_true_iff in X; destruct X end.
    all: try match goal with L : leafy ?p, C : con_ok ?p |- _ => pose proof (leaf_core _ _ _ _ L C); rewrite (cshare_leaf _ L) end.
    all: repeat match goal with
         | W : ConW ?w ?p ?i ?s (CV ?v ?j ?s') ?z, C : con_ok ?p, J : ?i <= length ?w |- _ =>
             lazymatch goal with V : sk w i <= sk w j /\ j <= length w |- _ => fail | _ => idtac end;
             let V := fresh in pose proof (conw_at _ _ _ _ _ _ _ _ W C J) as V;
             assert (j <= length w) by apply V
         | W : Work ?w ?p (sk ?w ?i) (OK ?b ?j) ?z, C : core ?p, J : ?i <= length ?w |- _ =>
             lazymatch goal with V : sk w i <= sk w j /\ j <= length w |- _ => fail | _ => idtac end;
             let V := fresh in pose proof (matw_at _ _ _ _ _ _ W C J) as V;
             assert (j <= length w) by apply V
         end.
    all: repeat match goal with
         | W : Work ?w ?p (sk ?w ?i) _ ?z, C : core ?p, F : flat ?p = true, J : ?i <= length ?w, Q : S (length ?w) <= M |- _ =>
             lazymatch goal with V : z <= share p * M ^ loops p |- _ => fail | _ => idtac end;
             pose proof (matw_cost _ _ _ _ _ W C F J Q)
         end.
    all: repeat match goal with IH : forall m, cwf m ?p -> _, X : cwf ?m ?p |- _ => specialize (IH m X) end.
    all: repeat match goal with IH : ?P -> _ |- _ => match type of P with Prop => specialize (IH ltac:(first [assumption | left; discriminate | tauto])) end end.
    all: try solve [apply Nat.le_0_l].
    all: cbn [cshare loops]; try solve [
      match goal with |- _ <= _ * M ^ ?D =>
        pose proof (pow1 M M1 D); repeat match goal with H : ?z <= ?s * M ^ ?d |- _ => apply (lift' M M1 z s d D) in H; [|lia] end;
        unfold upto in *; lia end].
    all: try solve [
      match goal with H : ?z <= times None (length ?w) ?i * (?s * M ^ ?d), L : S (length ?w) <= M |- _ <= _ * M ^ S ?d =>
        cbn [times] in H; apply (scaled M M1) in H; [|lia]; pose proof (pow1 M M1 (S d)); lia end].
    all: try solve [
      match goal with H : ?z <= times (Some _) (length ?w) ?i * (?s * M ^ ?d) |- _ <= _ * M ^ ?d =>
        cbn [times] in H; pose proof (pow1 M M1 d); rewrite Nat.mul_assoc in H; lia end].
    all: try solve [
      match goal with |- context [open_loop ?r] => unfold open_loop; destruct (limit_of r);
        match goal with
        | H : ?z <= times (Some _) (length ?w) ?i * (?s * M ^ ?d) |- _ =>
            cbn [times] in H; pose proof (pow1 M M1 d); rewrite Nat.mul_assoc in H; cbn [Nat.add]; lia
        | H : ?z <= times None (length ?w) ?i * (?s * M ^ ?d), L : S (length ?w) <= M |- _ =>
            cbn [times] in H; apply (scaled M M1) in H; [|lia]; pose proof (pow1 M M1 (S d)); cbn [Nat.add]; lia
        end end].
    all: try solve [match goal with A : ?z1 <= cost ?p |- ?z1 <= times _ _ _ * turn ?p ?q => idtac end; apply first_time; [assumption|];
      match goal with A : ?z1 <= cost ?p |- ?z1 <= turn ?p ?q => pose proof (lift' M M1 _ _ _ (Nat.max (loops p) (loops q)) A (Nat.le_max_l _ _)); unfold upto in *; lia end].
    all: try solve [apply first_time; [assumption|]; first [assumption | now apply (WorkPoly.both M M1)]].
    all: try match goal with A : ?z1 <= cost ?p |- context [turn ?p ?q] =>
      assert (z1 <= turn p q) by (pose proof (lift' M M1 _ _ _ (Nat.max (loops p) (loops q)) A (Nat.le_max_l _ _)); unfold upto in *; lia) end.
    all: try match goal with A : ?z1 <= cost ?p, B : ?z2 <= share ?q * M ^ loops ?q |- context [turn ?p ?q] =>
      pose proof (WorkPoly.both M M1 _ _ _ _ _ _ A B) end.
    all: try solve [cbn [map fst forallb] in *; match goal with X : flat _ && forallb _ _ = true |- _ => apply andb_true_iff in X; destruct X end;
      cbn [cshare_all loops_all]; fold cshare_all; fold loops_all;
      repeat match goal with
         | IH : forall m, cwf m ?p -> _, X : forall q, In q (?p :: ?r) -> cwf ?m q, Y : forall q, In q (?p :: ?r) -> con_ok q |- _ =>
             specialize (IH m (X p (or_introl eq_refl)) (Y p (or_introl eq_refl)) ltac:(assumption) ltac:(assumption) ltac:(assumption))
         | IH : forall m, (forall q, In q ?r -> cwf m q) -> _, X : forall q, In q (?p :: ?r) -> cwf ?m q, Y : forall q, In q (?p :: ?r) -> con_ok q |- _ =>
             specialize (IH m (fun q Q => X q (or_intror Q)) (fun q Q => Y q (or_intror Q)) ltac:(assumption) ltac:(assumption) ltac:(assumption))
         end;
      first [now apply (WorkPoly.both M M1)
            | match goal with A : _ <= cost ?p |- _ <= _ * M ^ ?D => pose proof (lift' M M1 _ _ _ D A (Nat.le_max_l _ _)); unfold upto in *; lia end]].
    all: try match goal with |- _ <= _ * turn ?p ?q => set (X := turn p q) in * end.
    all: try solve [try destruct en; cbn [Nat.mul] in *; lia].
    - assert (A : z1 <= S (length w - sk w i) * ((2 * (cshare p + share q)) * M ^ Nat.max (loops p) (loops q))).
      { eapply Nat.le_trans; [eassumption|]. set (n := length w - sk w i). set (Y := M ^ Nat.max (loops p) (loops q)).
        replace (2 * (cshare p + share q) * Y) with (2 * ((cshare p + share q) * Y)) by lia.
        set (Z := (cshare p + share q) * Y). cbn [Nat.mul]. pose proof (Nat.le_0_l (n * Z)). lia. }
      apply (scaled M M1) in A; [|lia]. pose proof (pow1 M M1 (S (Nat.max (loops p) (loops q)))). cbn [Nat.mul] in *. lia.
    - match goal with IH : forall m, cwf m (if b then p else q) -> _ |- _ => destruct b; specialize (IH m ltac:(assumption) ltac:(assumption) ltac:(assumption) ltac:(assumption) ltac:(assumption)) end.
      all: match goal with A : _ <= cost ?p |- _ <= _ * M ^ ?D => pose proof (lift' M M1 _ _ _ D A ltac:(lia)); unfold upto in *; pose proof (pow1 M M1 D); lia end.
    - change (S z1 <= S (cshare_all ps) * M ^ loops_all ps). rewrite plain_fst in *. apply (more M M1). eauto.
    - change (S z1 <= S (cshare_all ps) * M ^ loops_all ps). rewrite plain_fst in *. apply (more M M1). eauto.
    - change (S z1 <= cshare (PPairChoice e false ps) * M ^ loops (PPairChoice e false ps)). rewrite cshare_pairs, loops_pairs. apply (more M M1).
      rewrite flat_pairs in *. rewrite keyed_fst in *. eapply H0 with (m := m); auto; intros q Q; apply in_map_iff in Q; destruct Q as (x & <- & Q); auto.
    - change (S z1 <= cshare (PPairChoice e true ps) * M ^ loops (PPairChoice e true ps)). rewrite cshare_pairs, loops_pairs. apply (more M M1).
      rewrite flat_pairs in *. rewrite keyed_fst in *. eapply H0 with (m := m); auto; intros q Q; apply in_map_iff in Q; destruct Q as (x & <- & Q); auto.
    - apply (next_time M M1 lim (length w) (sk w i) (sk w j)); try assumption.
      + intros ->. pose proof (sk_up sk SK w j ltac:(assumption)).
        match goal with A : None <> None \/ cadvances p |- _ => destruct A as [A|A]; [congruence|]; pose proof (conw_adv _ _ _ _ _ _ _ _ A ltac:(eassumption) ltac:(assumption)) end. lia.
      + match goal with IH : limit_pred lim <> None \/ _ -> _ |- _ => apply IH; auto; now apply still_limited end.
    - apply (next_time M M1 lim (length w) (sk w i) (sk w j')); try assumption.
      + intros ->. match goal with A : None <> None \/ _ |- _ => destruct A as [A|A]; [congruence|]; eapply conw_next; eassumption end.
      + match goal with IH : limit_pred lim <> None \/ _ -> _ |- _ => apply IH; auto; now apply still_limited end.
    - destruct en; set (n := length w - sk w i) in *; cbn [Nat.mul]; pose proof (Nat.le_0_l (n * X)); lia.
    - destruct en; set (n := length w - sk w i) in *; cbn [Nat.mul]; pose proof (Nat.le_0_l (n * X)); lia.
    - set (n := length w - sk w i) in *. cbn [Nat.mul] in *. pose proof (Nat.le_0_l (n * X)). lia.
    - set (n := length w - sk w i) in *. cbn [Nat.mul] in *. pose proof (Nat.le_0_l (n * X)). lia.
    - destruct (conw_next w p q i s v j s1 z1 b j' z2 ltac:(assumption) ltac:(assumption) ltac:(assumption) ltac:(assumption) ltac:(assumption) ltac:(assumption)) as [N1 N2].
      assert (E : S (S (S (length w - sk w j'))) <= S (S (length w - sk w i))) by lia.
      pose proof (Nat.mul_le_mono_r _ _ X E) as E'. cbn [Nat.mul] in *. lia.
  Qed.
End Poly.

Theorem con_poly_work k G sk pols {ST} (hv : text -> nat -> nat -> ST -> res val * ST) (h : handler ST) rk m p :
  skipper sk -> implements k G sk pols -> core_env k G sk -> con_ok_env k G sk -> answers k sk hv h ->
  cwf k G sk hv rk m p -> con_ok k G sk p -> flat p = true ->
  forall w i s o n, i <= length w -> ConW k G sk hv w p i s o n -> n <= cshare p * S (length w) ^ loops p.
Proof.
  intros SK IM CE OE HA W C F w i s o n Hi D.
  exact (proj1 (conwork_poly k G sk pols hv h SK CE IM OE HA rk (S (length w)) (le_n_S _ _ (Nat.le_0_l _))) w p i s o n D m W C F Hi (le_n _)).
Qed.
