(** How far ahead building may look at most: no further than matching does (Reach.v). *)

From Coq Require Import List Arith NArith Bool Lia.
From Verif Require Import Base Text Context Neu Syntax Ctor TextProofs Spec Core CtorSpec ConSpec Look LookLaws Reach ConDeep ConDeepLaws ConLook.
Import ListNotations.

Section ConReach.
  Variable k : kind.
  Variable G : env.
  Context {ST : Type}.
  Variable hv : text -> nat -> nat -> ST -> res val * ST.
  Notation Con := (Con k G no_skip hv).
  Notation ConL := (ConL k G no_skip no_look hv).
  Notation Look := (Look k G no_skip no_look).
  Notation Peg := (Peg k G no_skip).
  Notation near := (near k G).

  Definition ends (w : text) (i n : nat) (o : cout ST) : Prop :=
    match o with CV _ j _ | CE _ j _ => i <= j /\ j <= i + n /\ j <= length w | CP => True end.
  Definition lends (w : text) (i n : nat) (l : lout ST) : Prop :=
    match l with LV _ j _ => i <= j /\ j <= i + n /\ j <= length w | LP => True end.
  Definition bnear (p : pat) (n : nat) : Prop := forall w i s o, i <= length w -> Con w p i s o ->
    ConL w (i + n) p i s o /\ ends w i n o.

  Ltac stay := repeat match goal with H : context [no_skip ?w ?i] |- _ => change (no_skip w i) with i in H end.

  Lemma bmore w z y p i s o : ConL w z p i s o -> z <= y -> ConL w y p i s o.
  Proof. intros L H. exact (proj1 (conlook_more k G no_skip no_look hv) _ _ _ _ _ _ L _ H). Qed.
  Lemma settle_ends w i n j r : i <= j -> j <= i + n -> j <= length w -> ends w i n (settle j r).
  Proof. destruct r as [[] s]; cbn; auto. Qed.
  Lemma undo_ends w i n m o : ends w i n o -> i <= length w -> ends w i m (undo i o) \/ exists v j s, o = CV v j s.
  Proof. destruct o; cbn; intros; [right; eauto|left; lia|now left]. Qed.
  Lemma count_ends w i n g e f l : i <= length w -> lends w i n l -> ends w i n (count_ok g e i f l).
  Proof. destruct l as [vs j s|]; cbn; [|auto]. intros. destruct (g vs); cbn; lia. Qed.
  Lemma capacity_lends w i n c l : lends w i n l -> lends w i n (capacity c l).
  Proof. destruct l as [vs j s|]; cbn; [|auto]. destruct (length vs <=? c); cbn; auto. Qed.

  Lemma leaf_bnear p n : near p n -> forall w i s o, i <= length w -> leafy p -> Con w p i s o -> 
    (forall b j, Peg w p i (OK b j) -> ConL w (i + n) p i s (settle j (hv w b j s)) /\ ends w i n (settle j (hv w b j s))) /\
    (forall e, Peg w p i (KO e) -> ConL w (i + n) p i s (CE e i s) /\ ends w i n (CE e i s)).
  Proof.
    intros N w i s o Hi L _. split.
    - intros b j P. destruct (N w i _ Hi P) as (A & B1 & B2 & B3). split; [|now apply settle_ends].
      apply ConL_leaf; auto. apply Nat.le_0_l.
    - intros e P. destruct (N w i _ Hi P) as (A & _). split; [|cbn; lia]. apply ConL_leaf_ko; auto. apply Nat.le_0_l.
  Qed.

  Lemma breps_near w p a : bnear p a -> forall l i s o, Creps k G no_skip hv w p (Some l) i s o -> i <= length w ->
    CrepsL k G no_skip no_look hv w (i + l * a) p (Some l) i s o /\ lends w i (l * a) o.
  Proof.
    intros A. induction l as [|l IH]; intros i s o R Hi; cbn [Nat.mul].
    - inversion R; subst; try congruence. split; [constructor|]. cbn. lia.
    - inversion R; subst; cbn [limit_pred option_map] in *;
        match goal with H : ConSpec.Con _ _ _ _ _ _ _ _ _ |- _ => destruct (A _ _ _ _ Hi H) as [L B]; cbn in B end.
      + split; [|cbn; lia]. eapply CrepsL_stop; [congruence|]. eapply bmore; [exact L|lia].
      + split; [|exact I]. eapply CrepsL_panic; [congruence|]. eapply bmore; [exact L|lia].
      + match goal with H : Creps _ _ _ _ _ _ _ _ _ _ |- _ => destruct (IH _ _ _ H) as [L' B']; [lia|] end.
        split; [|destruct l0; cbn in *; [lia|exact I]].
        eapply CrepsL_step; [congruence|eapply bmore; [exact L|lia]|].
        refine (proj1 (proj2 (conlook_more k G no_skip no_look hv)) _ _ _ _ _ _ _ L' _ _). lia.
  Qed.

  Lemma bseps_near w p q b a c : bnear p a -> near q c -> forall l i s o, Cseps k G no_skip hv w p q b (Some l) i s o -> i <= length w ->
    CsepsL k G no_skip no_look hv w (i + l * (a + c)) p q b (Some l) i s o /\ lends w i (l * (a + c)) o.
  Proof.
    intros A Q. induction l as [|l IH]; intros i s o R Hi; cbn [Nat.mul].
    - inversion R; subst; try congruence. split; [constructor|]. cbn. lia.
    - inversion R; subst; cbn [limit_pred option_map] in *; stay;
        match goal with H : ConSpec.Con _ _ _ _ _ _ _ _ _ |- _ => destruct (A _ _ _ _ Hi H) as [L B]; cbn in B end.
      + split; [|cbn; lia]. eapply CsepsL_stop; [congruence|]. eapply bmore; [exact L|lia].
      + split; [|exact I]. eapply CsepsL_panic; [congruence|]. eapply bmore; [exact L|lia].
      + match goal with H : Spec.Peg _ _ _ _ q ?j _ |- _ => destruct (Q w j _ ltac:(lia) H) as [L' _] end.
        split; [|cbn; lia]. eapply CsepsL_last; [congruence|eapply bmore; [exact L|lia]|apply Nat.le_0_l|].
        eapply more; [exact L'|lia].
      + match goal with H : Spec.Peg _ _ _ _ q ?j _ |- _ => destruct (Q w j _ ltac:(lia) H) as (L' & ? & ? & ?) end.
        match goal with H : Cseps _ _ _ _ _ _ _ _ _ _ _ _ |- _ => destruct (IH _ _ _ H) as [L'' B']; [lia|] end.
        split; [|destruct l0; cbn in *; [lia|exact I]].
        eapply CsepsL_step; [congruence|eapply bmore; [exact L|lia]|apply Nat.le_0_l|eapply more; [exact L'|lia]|].
        refine (proj1 (proj2 (proj2 (conlook_more k G no_skip no_look hv))) _ _ _ _ _ _ _ _ _ L'' _ _). lia.
  Qed.

  Lemma bfirst_near w e ps n : (forall p, In p (map fst ps) -> bnear p n) -> forall i s o, Cfirst k G no_skip hv w e ps i s o -> i <= length w ->
    CfirstL k G no_skip no_look hv w (i + n) e ps i s o /\ ends w i n o.
  Proof.
    induction ps as [|[p g] ps IH]; intros N i s o F Hi; inversion F; subst.
    - split; [constructor|]. cbn. lia.
    - match goal with H : ConSpec.Con _ _ _ _ _ _ _ _ _ |- _ => destruct (N p (or_introl eq_refl) _ _ _ _ Hi H) as [L B] end.
      split; [now apply CfirstL_hit|exact B].
    - match goal with H : ConSpec.Con _ _ _ _ _ _ _ _ _ |- _ => destruct (N p (or_introl eq_refl) _ _ _ _ Hi H) as [L B] end.
      split; [now apply CfirstL_panic|exact I].
    - match goal with H : ConSpec.Con _ _ _ _ _ _ _ _ _ |- _ => destruct (N p (or_introl eq_refl) _ _ _ _ Hi H) as [L B] end.
      match goal with H : Cfirst _ _ _ _ _ _ _ _ _ _ |- _ => destruct (IH (fun q I => N q (or_intror I)) _ _ _ H Hi) as [L' B'] end.
      split; [eapply CfirstL_next; eauto|exact B'].
  Qed.

  Ltac flatten := repeat match goal with H : _ /\ _ |- _ => destruct H end.
  Ltac walk := repeat match goal with
    | N : bnear ?q ?a, P : ConSpec.Con _ _ _ _ ?w ?q ?i ?s ?o |- _ =>
        let B := fresh in assert (B : i <= length w) by lia; destruct (N w i s o B P) as [? ?]; clear P B; cbn [ends] in *; flatten
    | N : Reach.near _ _ ?q ?a, P : Spec.Peg _ _ _ ?w ?q ?i ?o |- _ =>
        let B := fresh in assert (B : i <= length w) by lia; destruct (N w i o B P) as [? ?]; clear P B; flatten
    end;
    repeat match goal with
    | H : ConLook.ConL _ _ _ _ _ ?w ?y ?q ?i ?s ?o |- ConLook.ConL _ _ _ _ _ ?w ?z _ _ _ _ /\ _ =>
        tryif constr_eq y z then fail else (apply (bmore w y z) in H; [|lia])
    | H : Look.Look _ _ _ _ ?w ?y ?q ?i ?o |- ConLook.ConL _ _ _ _ _ ?w ?z _ _ _ _ /\ _ =>
        tryif constr_eq y z then fail else (apply (more _ _ w y z) in H; [|lia])
    end.

  Lemma reach_conlook : (forall p n, Reach k G p n -> Reach k G p n /\ bnear p n) /\ (forall c a, CReach k G c a -> CReach k G c a).
  Proof.
    apply Reach_mutind; auto.
    { intros p m n _ [R H] L. split; [eapply R_more; eauto|]. intros w i s o Hi P. destruct (H w i s o Hi P) as [A B].
      split; [eapply bmore; [exact A|lia]|]. destruct o; cbn in *; try exact I; lia. }
    all: intros; repeat match goal with H : _ /\ _ |- _ => destruct H end.
    all: try (apply R_cregex; assumption); try apply R_cempty.
    all: match goal with |- Reach ?k ?G ?q ?n /\ _ => assert (R : Reach k G q n); [first
      [eapply R_empty; eauto; fail | eapply R_fail; eauto; fail | eapply R_start; eauto; fail | eapply R_end; eauto; fail | eapply R_consume; eauto; fail | eapply R_lit; eauto; fail | eapply R_assert; eauto; fail | eapply R_leaf; eauto; fail | eapply R_once; eauto; fail | eapply R_opt; eauto; fail | eapply R_between; eauto; fail | eapply R_times; eauto; fail | eapply R_neuthen; eauto; fail | eapply R_then; eauto; fail | eapply R_ifthen; eauto; fail | eapply R_prefix; eauto; fail | eapply R_suffix; eauto; fail | eapply R_enclose; eauto; fail | eapply R_seponce; eauto; fail | eapply R_or; eauto; fail | eapply R_longest; eauto; fail | eapply R_option; eauto; fail | eapply R_sep2; eauto; fail | eapply R_repeat; eauto; fail | eapply R_repeat2; eauto; fail | eapply R_pat; eauto; fail | eapply R_map; eauto; fail | eapply R_wrap; eauto; fail | eapply R_nonep; eauto; fail | eapply R_ref; eauto; fail
      | apply R_choice; intros ? X; match goal with F : forall p, In p _ -> _ /\ _ |- _ => exact (proj1 (F _ X)) end
      | apply R_pairchoice; intros ? X; match goal with F : forall p, In p _ -> _ /\ _ |- _ => exact (proj1 (F _ X)) end]|] end.
    all: split; [exact R|]; match goal with R : Reach ?k ?G ?q ?n |- bnear ?q ?n => pose proof (proj1 (reach_look k G) _ _ R) as NR end.
    all: intros w i s' o Hi P; inversion P; subst; try contradiction; clear P; stay.
    all: try match goal with L : leafy ?p, N : Reach.near ?k ?G ?p ?n, Q : Spec.Peg _ _ _ ?w ?p ?i _ |- _ =>
       destruct (N w i _ Hi Q) as [? ?]; split; [first [apply ConL_leaf | apply ConL_leaf_ko]; auto; try apply Nat.le_0_l; lia|first [apply settle_ends; lia | cbn; lia]] end.
    all: repeat match goal with H : Reach ?k ?G ?q ?n |- _ => pose proof (proj1 (reach_look k G) _ _ H); clear H end.
    all: walk.
    all: try solve [split; [solve [econstructor; eauto; apply Nat.le_0_l]|cbn; lia]].
    all: try solve [split; [solve [econstructor; eauto; apply Nat.le_0_l]|
      match goal with O : stops ?o |- _ => destruct o; cbn in *; try contradiction; try exact I; lia end]].
    all: try solve [split; [solve [econstructor; eauto; apply Nat.le_0_l]|
      match goal with |- context [?o] => is_var o; destruct o; cbn in *; try exact I; try lia end]].
    - split; [eapply ConL_prefix; eauto; apply Nat.le_0_l|]. destruct o0; cbn in *; try exact I; lia.
    - split; [eapply ConL_or2; eauto|]. destruct o0; cbn in *; try exact I; lia.
    - split; [eapply ConL_longest_v; eauto|]. destruct o0; cbn in *; try exact I; repeat match goal with |- context [if ?x then _ else _] => destruct x end; cbn; lia.
    - split; [eapply ConL_longest_e; eauto|]. destruct o0; cbn in *; try exact I; repeat match goal with |- context [if ?x then _ else _] => destruct x end; cbn; lia.
    - match goal with F : Cfirst _ _ _ _ _ _ _ _ _ _ |- _ => eapply (bfirst_near w e (plain ps) n) in F as [? ?] end.
      + split; [now apply ConL_choice|assumption].
      + rewrite plain_fst. intros p I. now apply H0.
      + assumption.
    - match goal with F : Cfirst _ _ _ _ _ _ _ _ _ _ |- _ => eapply (bfirst_near w e (keyed ps) n) in F as [? ?] end.
      + split; [now apply ConL_pairchoice|assumption].
      + rewrite keyed_fst. intros p I. now apply H0.
      + assumption.
    - match goal with F : Cseps _ _ _ _ _ _ _ _ _ _ _ _ |- _ => eapply (bseps_near w p s true a b) in F as [? ?]; eauto end.
      split; [now apply ConL_sep2|]. apply count_ends; [assumption|]. now apply capacity_lends.
    - match goal with F : Creps _ _ _ _ _ _ _ _ _ _, E : limit_of r = Some l |- _ => rewrite E in F; eapply (breps_near w p a) in F as [? ?]; eauto; rewrite <- E in * end.
      split; [now apply ConL_repeat|]. now apply count_ends.
    - match goal with F : Creps _ _ _ _ _ _ _ _ _ _ |- _ => eapply (breps_near w p a) in F as [? ?]; eauto end.
      split; [now apply ConL_repeat2|]. apply count_ends; [assumption|]. now apply capacity_lends.
    - split; [eapply ConL_pat; eauto; first [apply Nat.le_0_l | lia]|]. apply settle_ends; lia.
    - split; [eapply ConL_map; eauto|]. apply settle_ends; lia.
    - split; [eapply ConL_wrap; eauto|assumption].
    - match goal with E : env_get G x = Some p, E' : env_get G x = Some ?q |- _ => rewrite E in E'; injection E' as <- end. walk.
      split; [eapply ConL_ref; eauto|assumption].
  Qed.
End ConReach.
