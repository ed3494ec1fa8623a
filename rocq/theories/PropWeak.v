(** Property C77: what the synchronized prefix unit guarantees under relaxed memory. *)

From Coq Require Import List Arith NArith Bool Lia Permutation.
From Verif Require Import Base Text Context Neu Syntax Regex TextProofs Spec Obs Units PrefixUnit PropPrefix WeakPrefix.
Import ListNotations.

Lemma stored p u k v c : w_store p u k = Some (v, c) -> w_value k = true /\ w_count k = S c /\ v = p (w_item k) /\ w_test p u k = ByPrefix.
Proof.
  unfold w_store, w_test, w_answer, weak_match. destruct (w_value k); [|discriminate]. destruct (w_count k =? 0) eqn:E; [discriminate|]. apply Nat.eqb_neq in E.
  cbn. intros [= <- <-]. rewrite andb_true_r. repeat split. lia.
Qed.
Lemma chain p u n e hb rank : Execution p u n e hb rank -> forall r i k, rank i <= r -> nth_error e i = Some k -> w_value k = true ->
  exists js, NoDup js /\ length js + w_count k = n /\ forall j, In j js -> rank j < rank i /\ exists k', nth_error e j = Some k' /\ w_test p u k' = ByPrefix.
Proof.
  intros X. induction r as [r IH] using lt_wf_ind. intros i k R E V. pose proof (ex_count _ _ _ _ _ _ X i k E V) as C.
  destruct (w_cfrom k) as [j|] eqn:F.
  - destruct C as (k' & v & E' & S). apply stored in S as (V' & C' & _ & T').
    pose proof (ex_no_thin_air _ _ _ _ _ _ X i k j E (or_intror (conj V F))) as L.
    destruct (IH (rank j) ltac:(lia) j k' (le_n _) E' V') as (js & N1 & L1 & H). exists (j :: js). split; [|split].
    + constructor; [|exact N1]. intros I. apply H in I as [I _]. lia.
    + cbn [length]. lia.
    + intros a [<-|I]; [split; [exact L|eauto]|]. apply H in I as [I1 I2]. split; [lia|exact I2].
  - exists []. split; [constructor|]. split; [cbn; lia|intros j []].
Qed.

(** The count that a call loads is never more than the initial one. *)
Theorem C77_bounded : forall p u n e hb rank i k, Execution p u n e hb rank -> nth_error e i = Some k -> w_value k = true -> w_count k <= n.
Proof. intros p u n e hb rank i k X E V. destruct (chain _ _ _ _ _ _ X _ i k (le_n _) E V) as (js & _ & L & _). lia. Qed.
(** A call answered by the unit: at least [n] different calls were answered by the prefix, and it depends on
    each of them. *)
Theorem C77_prefix_first : forall p u n e hb rank i k, Execution p u n e hb rank -> nth_error e i = Some k -> w_test p u k = ByUnit ->
  exists js, NoDup js /\ length js = n /\ forall j, In j js -> rank j < rank i /\ exists k', nth_error e j = Some k' /\ w_test p u k' = ByPrefix.
Proof.
  intros p u n e hb rank i k X E T.
  assert (V : w_value k = true /\ w_count k = 0).
  { unfold w_test, w_answer, weak_match in T. destruct (w_value k); [|discriminate]. destruct (w_count k =? 0) eqn:Z; [|discriminate]. apply Nat.eqb_eq in Z. auto. }
  destruct V as [V C]. destruct (chain _ _ _ _ _ _ X _ i k (le_n _) E V) as (js & N1 & L & H). exists js. split; [exact N1|]. split; [lia|exact H].
Qed.
(** A call refused by the flag depends on a call whose item failed the prefix test. *)
Theorem C77_flag : forall p u n e hb rank i k, Execution p u n e hb rank -> nth_error e i = Some k -> w_test p u k = ByFlag ->
  exists j k', nth_error e j = Some k' /\ rank j < rank i /\ w_answer p u k' = (w_item k', ByPrefix, false) /\ p (w_item k') = false.
Proof.
  intros p u n e hb rank i k X E T.
  assert (V : w_value k = false).
  { unfold w_test, w_answer, weak_match in T. destruct (w_value k); [|reflexivity]. destruct (w_count k =? 0); discriminate. }
  pose proof (ex_value _ _ _ _ _ _ X i k E) as F. destruct (w_vfrom k) as [j|] eqn:Fr; [|congruence]. destruct F as (k' & c & E' & S). rewrite V in S.
  exists j, k'. split; [exact E'|]. split; [eapply (ex_no_thin_air _ _ _ _ _ _ X); eauto|]. apply stored in S as (V' & C' & P' & T').
  split; [|auto]. unfold w_answer, weak_match. rewrite V', C'. cbn. now rewrite <- P'.
Qed.
(** If every item passes the prefix, no call is refused by the flag. *)
Theorem C77_alive : forall p u n e hb rank, Execution p u n e hb rank -> (forall k, In k e -> p (w_item k) = true) ->
  forall k, In k e -> w_test p u k <> ByFlag.
Proof.
  intros p u n e hb rank X P k I T. apply In_nth_error in I as [i E]. destruct (C77_flag _ _ _ _ _ _ i k X E T) as (j & k' & E' & _ & _ & F).
  rewrite (P k') in F; [discriminate|]. eapply nth_error_In; eauto.
Qed.
(** What a call accepts passes the prefix or the unit. *)
Theorem C77_accepted : forall p u k, snd (w_answer p u k) = true -> p (w_item k) = true \/ u (w_item k) = true.
Proof.
  intros p u k. unfold w_answer, weak_match. destruct (w_value k); [|discriminate]. destruct (w_count k =? 0); cbn; rewrite andb_true_r; auto.
Qed.

(** Calls that are all ordered by happens-before (one thread, or a lock around the unit) are answered like
    those of the unsynchronized unit: the relaxed orderings make no difference. *)
Definition LastV (p u : item -> bool) (e : list wcall) (i : nat) (v : bool) : Prop :=
  (v = true /\ forall m km, m < i -> nth_error e m = Some km -> w_store p u km = None) \/
  exists j k c, j < i /\ nth_error e j = Some k /\ w_store p u k = Some (v, c) /\ forall m km, j < m < i -> nth_error e m = Some km -> w_store p u km = None.
Definition LastC (p u : item -> bool) (n : nat) (e : list wcall) (i : nat) (c : nat) : Prop :=
  (c = n /\ forall m km, m < i -> nth_error e m = Some km -> w_store p u km = None) \/
  exists j k v, j < i /\ nth_error e j = Some k /\ w_store p u k = Some (v, c) /\ forall m km, j < m < i -> nth_error e m = Some km -> w_store p u km = None.
Lemma lastv_one p u e i v v' : LastV p u e i v -> LastV p u e i v' -> v = v'.
Proof.
  intros [[-> A]|(j & k & c & L & E & S & A)] [[-> A']|(j' & k' & c' & L' & E' & S' & A')]; [reflexivity| | |].
  - rewrite (A j' k' L' E') in S'. discriminate.
  - rewrite (A' j k L E) in S. discriminate.
  - destruct (lt_eq_lt_dec j j') as [[D|<-]|D]; [|congruence|].
    + rewrite (A j' k') in S'; [discriminate|lia|exact E'].
    + rewrite (A' j k) in S; [discriminate|lia|exact E].
Qed.
Lemma lastc_one p u n e i v v' : LastC p u n e i v -> LastC p u n e i v' -> v = v'.
Proof.
  intros [[-> A]|(j & k & c & L & E & S & A)] [[-> A']|(j' & k' & c' & L' & E' & S' & A')]; [reflexivity| | |].
  - rewrite (A j' k' L' E') in S'. discriminate.
  - rewrite (A' j k L E) in S. discriminate.
  - destruct (lt_eq_lt_dec j j') as [[D|<-]|D]; [|congruence|].
    + rewrite (A j' k') in S'; [discriminate|lia|exact E'].
    + rewrite (A' j k) in S; [discriminate|lia|exact E].
Qed.
Theorem C77_serial : forall p u n e hb rank, Execution p u n e hb rank -> (forall i j, i < length e -> j < length e -> (hb i j <-> i < j)) ->
  map (fun k => snd (w_answer p u k)) e = fst (feed (prefix_match p u) (prefix_new n) (map w_item e)).
Proof.
  intros p u n e hb rank X H.
  assert (LT : forall i k, nth_error e i = Some k -> i < length e) by (intros i k E; apply nth_error_Some; congruence).
  assert (NONE : forall km, w_store p u km = None \/ w_store p u km <> None) by (intros km; destruct (w_store p u km); [right; discriminate|now left]).
  assert (RV : forall i k, nth_error e i = Some k -> LastV p u e i (w_value k)).
  { intros i k E. pose proof (ex_value _ _ _ _ _ _ X i k E) as F. destruct (w_vfrom k) as [j|] eqn:Fr.
    - destruct F as (k' & c & E' & S). right. exists j, k', c. pose proof (ex_no_thin_air _ _ _ _ _ _ X i k j E (or_introl Fr)) as R.
      pose proof (ex_no_future _ _ _ _ _ _ X i k j E (or_introl Fr)) as NF. rewrite H in NF by eauto.
      assert (i <> j) by (intros ->; lia). split; [lia|]. split; [exact E'|]. split; [exact S|].
      intros m km B Em. destruct (NONE km) as [N1|N1]; [exact N1|]. exfalso.
      pose proof (ex_value_fresh _ _ _ _ _ _ X i k m km E Em N1 ltac:(apply H; eauto; lia)) as FR. rewrite Fr in FR. apply FR. apply H; eauto. lia.
    - left. split; [exact F|]. intros m km B Em. destruct (NONE km) as [N1|N1]; [exact N1|]. exfalso.
      pose proof (ex_value_fresh _ _ _ _ _ _ X i k m km E Em N1 ltac:(apply H; eauto; lia)) as FR. now rewrite Fr in FR. }
  assert (RC : forall i k, nth_error e i = Some k -> w_value k = true -> LastC p u n e i (w_count k)).
  { intros i k E V. pose proof (ex_count _ _ _ _ _ _ X i k E V) as F. destruct (w_cfrom k) as [j|] eqn:Fr.
    - destruct F as (k' & c & E' & S). right. exists j, k', c. pose proof (ex_no_thin_air _ _ _ _ _ _ X i k j E (or_intror (conj V Fr))) as R.
      pose proof (ex_no_future _ _ _ _ _ _ X i k j E (or_intror (conj V Fr))) as NF. rewrite H in NF by eauto.
      assert (i <> j) by (intros ->; lia). split; [lia|]. split; [exact E'|]. split; [exact S|].
      intros m km B Em. destruct (NONE km) as [N1|N1]; [exact N1|]. exfalso.
      pose proof (ex_count_fresh _ _ _ _ _ _ X i k m km E V Em N1 ltac:(apply H; eauto; lia)) as FR. rewrite Fr in FR. apply FR. apply H; eauto. lia.
    - left. split; [exact F|]. intros m km B Em. destruct (NONE km) as [N1|N1]; [exact N1|]. exfalso.
      pose proof (ex_count_fresh _ _ _ _ _ _ X i k m km E V Em N1 ltac:(apply H; eauto; lia)) as FR. now rewrite Fr in FR. }
  clear X H.
  assert (GO : forall e2 e1 s, e = e1 ++ e2 -> LastV p u e (length e1) (p_value s) -> LastC p u n e (length e1) (p_count s) ->
    map (fun k => snd (w_answer p u k)) e2 = fst (feed (prefix_match p u) s (map w_item e2))).
  { induction e2 as [|k e2 IH]; intros e1 s -> HV HC; [reflexivity|]. cbn [map feed].
    assert (E : nth_error (e1 ++ k :: e2) (length e1) = Some k) by (rewrite nth_error_app2, Nat.sub_diag; [reflexivity|lia]).
    pose proof (lastv_one _ _ _ _ _ _ HV (RV _ _ E)) as EV.
    destruct s as [c v]; cbn [p_value p_count] in *. subst v.
    assert (ST : w_store p u k = (if w_value k then if c =? 0 then None else Some (p (w_item k), c - 1) else None) /\
                 snd (w_answer p u k) = fst (prefix_match p u (w_item k) (PS c (w_value k)))).
    { unfold w_store, w_answer, weak_match, prefix_match. cbn [p_value p_count]. destruct (w_value k) eqn:V; [|split; reflexivity].
      pose proof (lastc_one _ _ _ _ _ _ _ HC (RC _ _ E V)) as ->. destruct (w_count k =? 0); cbn; rewrite ?andb_true_r; split; reflexivity. }
    destruct ST as [ST SA].
    assert (KEEP : forall v' c', (w_store p u k = Some (v', c') \/ (w_store p u k = None /\ v' = w_value k /\ c' = c)) ->
      LastV p u (e1 ++ k :: e2) (length (e1 ++ [k])) v' /\ LastC p u n (e1 ++ k :: e2) (length (e1 ++ [k])) c').
    { intros v' c' D. rewrite app_length. cbn [length]. destruct D as [D|(D & -> & ->)].
      - split; right; exists (length e1), k; eexists; (split; [lia|]); (split; [exact E|]); (split; [exact D|]); intros; lia.
      - split.
        + destruct HV as [[V A]|(j & kj & cj & L & Ej & S & A)]; [left|right; exists j, kj, cj].
          * split; [exact V|]. intros m km B Em. destruct (Nat.eq_dec m (length e1)) as [->|]; [congruence|]. apply (A m km); [lia|exact Em].
          * split; [lia|]. split; [exact Ej|]. split; [exact S|]. intros m km B Em. destruct (Nat.eq_dec m (length e1)) as [->|]; [congruence|]. apply (A m km); [lia|exact Em].
        + destruct HC as [[V A]|(j & kj & cj & L & Ej & S & A)]; [left|right; exists j, kj, cj].
          * split; [exact V|]. intros m km B Em. destruct (Nat.eq_dec m (length e1)) as [->|]; [congruence|]. apply (A m km); [lia|exact Em].
          * split; [lia|]. split; [exact Ej|]. split; [exact S|]. intros m km B Em. destruct (Nat.eq_dec m (length e1)) as [->|]; [congruence|]. apply (A m km); [lia|exact Em]. }
    destruct (prefix_match p u (w_item k) (PS c (w_value k))) as [b s1] eqn:PM. cbn [fst] in SA.
    assert (K : w_store p u k = Some (p_value s1, p_count s1) \/ (w_store p u k = None /\ p_value s1 = w_value k /\ p_count s1 = c)).
    { unfold prefix_match in PM. cbn [p_value p_count] in PM. rewrite ST. destruct (w_value k).
      - destruct (c =? 0); injection PM as <- <-; cbn; rewrite ?andb_true_r; auto.
      - injection PM as <- <-. auto. }
    apply KEEP in K as [K1 K2].
    pose proof (IH (e1 ++ [k]) s1 ltac:(now rewrite <- app_assoc) K1 K2) as REC.
    destruct (feed (prefix_match p u) s1 (map w_item e2)) as [bs s2]. cbn [fst] in *. now rewrite SA, REC. }
  apply (GO e [] (prefix_new n) eq_refl); left; split; try reflexivity; intros; cbn in *; lia.
Qed.

(** ** Interleavings are executions *)
Section Interleaving.
  Variables (p u : item -> bool) (n : nat).

  (** The calls that have loaded all they load, each with the calls that were complete when it began. *)
  Notation ghost := (list (wcall * list nat)).
  Definition calls (e : ghost) : list wcall := map fst e.
  Definition before (e : ghost) (j : nat) : list nat := match nth_error e j with Some kb => snd kb | None => [] end.
  Definition Writer (e : ghost) (j : nat) (v : bool) (c : nat) : Prop := exists k, nth_error (calls e) j = Some k /\ w_store p u k = Some (v, c).
  (** Where a thread stands: what its value load read from and what was complete then, or its call. *)
  Inductive stand := Idle | Loaded (vf : option nat) (b : list nat) | Call (i : nat).

  (** A load of [value] giving [v] from [vf], by a call that began after [b]. *)
  Definition LoadV (e : ghost) (v : bool) (vf : option nat) (b : list nat) : Prop :=
    match vf with None => v = true | Some j => exists c, Writer e j v c end /\
    forall m, In m b -> (exists v c, Writer e m v c) -> match vf with None => False | Some j => ~ In j (before e m) end.
  Definition LoadC (e : ghost) (c : nat) (cf : option nat) (b : list nat) : Prop :=
    match cf with None => c = n | Some j => exists v, Writer e j v c end /\
    forall m, In m b -> (exists v c, Writer e m v c) -> match cf with None => False | Some j => ~ In j (before e m) end.

  Definition Stands (e : ghost) (comp vs : list nat) (t : thread) (s : stand) : Prop :=
    match at_ t with
    | AtStart => s = Idle
    | AtCount x => exists vf b, s = Loaded vf b /\ LoadV e true vf b /\ incl b comp
    | AtValue x c => exists i k, s = Call i /\ nth_error (calls e) i = Some k /\ w_item k = x /\ w_value k = true /\ w_count k = c /\ c <> 0 /\ ~ In i comp /\ ~ In i vs
    | AtStore x c => exists i k, s = Call i /\ nth_error (calls e) i = Some k /\ w_item k = x /\ w_value k = true /\ w_count k = c /\ c <> 0 /\ ~ In i comp /\ In i vs
    end.

  Record Sim (g : config) (e : ghost) (comp vs : list nat) (lv lc : option nat) (st : list stand) : Prop := {
    s_value : match lv with None => value (mem g) = true /\ vs = [] | Some j => In j vs /\ (exists c, Writer e j (value (mem g)) c) /\ forall m, In m vs -> ~ In j (before e m) end;
    s_count : match lc with None => count (mem g) = n /\ (forall m v c, In m comp -> ~ Writer e m v c) | Some j => In j comp /\ (exists v, Writer e j v (count (mem g))) /\ forall m, In m comp -> (exists v c, Writer e m v c) -> ~ In j (before e m) end;
    s_threads : length st = length (threads g) /\ forall i t s, nth_error (threads g) i = Some t -> nth_error st i = Some s -> Stands e comp vs t s;
    s_apart : forall a b i, nth_error st a = Some (Call i) -> nth_error st b = Some (Call i) -> a = b;
    s_all : forall i, i < length e -> In i comp \/ exists a, nth_error st a = Some (Call i);
    s_comp : NoDup comp /\ (forall i, In i comp -> i < length e) /\ map (fun i => option_map (w_answer p u) (nth_error (calls e) i)) comp = map Some (answers g);
    s_vs : (forall m, In m vs -> m < length e) /\ forall m v c, In m comp -> Writer e m v c -> In m vs;
    s_calls : forall i k b, nth_error e i = Some (k, b) ->
      incl b comp /\ (forall m, In m b -> m < i) /\ LoadV e (w_value k) (w_vfrom k) b /\ (w_value k = true -> LoadC e (w_count k) (w_cfrom k) b) /\
      forall j, w_vfrom k = Some j \/ (w_value k = true /\ w_cfrom k = Some j) -> j < i
  }.

  Lemma writer_app e x j v c : Writer e j v c -> Writer (e ++ [x]) j v c.
  Proof. intros (k & E & S). exists k. split; [|exact S]. unfold calls. rewrite map_app, nth_error_app1; [exact E|]. apply nth_error_Some. unfold calls in E. congruence. Qed.
  Lemma writer_old e x j v c : j < length e -> Writer (e ++ [x]) j v c -> Writer e j v c.
  Proof. intros L (k & E & S). exists k. split; [|exact S]. unfold calls in *. rewrite map_app, nth_error_app1 in E; [exact E|]. now rewrite map_length. Qed.
  Lemma writer_lt e j v c : Writer e j v c -> j < length e.
  Proof. intros (k & E & _). unfold calls in E. assert (nth_error (map fst e) j <> None) by congruence. apply nth_error_Some in H. now rewrite map_length in H. Qed.
  Lemma before_app e x m : m < length e -> before (e ++ [x]) m = before e m.
  Proof. intros L. unfold before. now rewrite nth_error_app1. Qed.
  Lemma loadv_app e x v vf b : (forall m, In m b -> m < length e) -> LoadV e v vf b -> LoadV (e ++ [x]) v vf b.
  Proof.
    intros B [A F]. split.
    - destruct vf; [destruct A as [c A]; exists c; now apply writer_app|exact A].
    - intros m I (v' & c' & W). specialize (F m I). destruct vf as [j|]; [rewrite before_app by auto; apply F|apply F]; exists v', c'; eapply writer_old; eauto.
  Qed.
  Lemma loadc_app e x v vf b : (forall m, In m b -> m < length e) -> LoadC e v vf b -> LoadC (e ++ [x]) v vf b.
  Proof.
    intros B [A F]. split.
    - destruct vf; [destruct A as [c A]; exists c; now apply writer_app|exact A].
    - intros m I (v' & c' & W). specialize (F m I). destruct vf as [j|]; [rewrite before_app by auto; apply F|apply F]; exists v', c'; eapply writer_old; eauto.
  Qed.
  Lemma calls_app e x : calls (e ++ [x]) = calls e ++ [fst x].
  Proof. unfold calls. now rewrite map_app. Qed.
  Lemma nth_old {A} (l : list A) x i a : nth_error l i = Some a -> nth_error (l ++ [x]) i = Some a.
  Proof. intros E. rewrite nth_error_app1; [exact E|]. apply nth_error_Some. congruence. Qed.
  Lemma nth_snoc {A} (l : list A) x i a : nth_error (l ++ [x]) i = Some a -> (i = length l /\ a = x) \/ (i < length l /\ nth_error l i = Some a).
  Proof.
    intros E. destruct (lt_eq_lt_dec i (length l)) as [[L| ->]|L].
    - right. now rewrite nth_error_app1 in E.
    - left. rewrite nth_error_app2, Nat.sub_diag in E by lia. injection E as ->. auto.
    - exfalso. assert (i < length (l ++ [x])) by (apply nth_error_Some; congruence). rewrite app_length in H. cbn in H. lia.
  Qed.
  Lemma stands_app e x comp vs t s : (forall i, In i comp -> i < length e) -> Stands e comp vs t s -> Stands (e ++ [x]) comp vs t s.
  Proof.
    intros CB H. unfold Stands in *. destruct (at_ t); [exact H| | |].
    - destruct H as (vf & b & -> & L & I). exists vf, b. split; [reflexivity|]. split; [|exact I]. apply loadv_app; auto.
    - destruct H as (i & k & -> & E & H). exists i, k. split; [reflexivity|]. rewrite calls_app. split; [now apply nth_old|exact H].
    - destruct H as (i & k & -> & E & H). exists i, k. split; [reflexivity|]. rewrite calls_app. split; [now apply nth_old|exact H].
  Qed.
  Lemma stands_more e comp vs comp' vs' t s : Stands e comp vs t s -> incl comp comp' ->
    (forall i, s = Call i -> In i comp' -> In i comp) -> (forall i, s = Call i -> (In i vs' <-> In i vs)) -> Stands e comp' vs' t s.
  Proof.
    intros H I C V. unfold Stands in *. destruct (at_ t); [exact H| | |].
    - destruct H as (vf & b & -> & L & B). exists vf, b. split; [reflexivity|]. split; [exact L|]. intros m M. auto.
    - destruct H as (i & k & -> & E & A1 & A2 & A3 & A4 & A5 & A6). exists i, k. rewrite (V i eq_refl). repeat (split; [assumption || reflexivity|]). split; [|assumption]. intros M. apply A5. auto.
    - destruct H as (i & k & -> & E & A1 & A2 & A3 & A4 & A5 & A6). exists i, k. rewrite (V i eq_refl). repeat (split; [assumption || reflexivity|]). split; [|assumption]. intros M. apply A5. auto.
  Qed.
  Lemma threads_upd (P : thread -> stand -> Prop) ts st tid t' s' : tid < length ts -> length st = length ts ->
    (forall i t s, i <> tid -> nth_error ts i = Some t -> nth_error st i = Some s -> P t s) -> P t' s' ->
    length (set_nth tid s' st) = length (set_nth tid t' ts) /\
    forall i t s, nth_error (set_nth tid t' ts) i = Some t -> nth_error (set_nth tid s' st) i = Some s -> P t s.
  Proof.
    intros L E H Q. split; [rewrite !set_nth_length by lia; exact E|]. intros i t s. destruct (Nat.eq_dec i tid) as [->|D].
    - rewrite !nth_set_same by lia. intros [= <-] [= <-]. exact Q.
    - rewrite !nth_set_other by (lia || congruence). intros A B. eapply H; eauto.
  Qed.
  Lemma answers_more g e x comp : (forall i, In i comp -> i < length e) ->
    map (fun i => option_map (w_answer p u) (nth_error (calls e) i)) comp = map Some (answers g) ->
    map (fun i => option_map (w_answer p u) (nth_error (calls (e ++ [x])) i)) comp = map Some (answers g).
  Proof.
    intros B <-. apply map_ext_in. intros i I. rewrite calls_app, nth_error_app1; [reflexivity|]. unfold calls. rewrite map_length. auto.
  Qed.
  Lemma not_self {A} (l : list A) (c : list nat) : (forall i, In i c -> i < length l) -> ~ In (length l) c.
  Proof. intros B I. apply B in I. lia. Qed.
  Lemma nodup_snoc (l : list nat) x : NoDup l -> ~ In x l -> NoDup (l ++ [x]).
  Proof. intros N1 N2. apply NoDup_Add with (a := x) (l := l); [|auto]. rewrite <- (app_nil_r l) at 1. apply Add_app. Qed.

  (** A new call [k] that began after [b], whose stores are still to come: everything said of the others stays. *)
  Lemma sim_calls e comp comp' k b : (forall i, In i comp -> i < length e) -> incl comp comp' ->
    (forall i k b, nth_error e i = Some (k, b) -> incl b comp /\ (forall m, In m b -> m < i) /\ LoadV e (w_value k) (w_vfrom k) b /\
      (w_value k = true -> LoadC e (w_count k) (w_cfrom k) b) /\ forall j, w_vfrom k = Some j \/ (w_value k = true /\ w_cfrom k = Some j) -> j < i) ->
    incl b comp -> LoadV e (w_value k) (w_vfrom k) b -> (w_value k = true -> LoadC e (w_count k) (w_cfrom k) b) ->
    forall i k' b', nth_error (e ++ [(k, b)]) i = Some (k', b') -> incl b' comp' /\ (forall m, In m b' -> m < i) /\ LoadV (e ++ [(k, b)]) (w_value k') (w_vfrom k') b' /\
      (w_value k' = true -> LoadC (e ++ [(k, b)]) (w_count k') (w_cfrom k') b') /\ forall j, w_vfrom k' = Some j \/ (w_value k' = true /\ w_cfrom k' = Some j) -> j < i.
  Proof.
    intros CB CI H B LV LC i k' b' E. apply nth_snoc in E as [[-> E]|[L E]].
    - injection E as -> ->. split; [intros m M; auto|]. split; [intros m M; auto|]. split; [apply loadv_app; auto|]. split; [intros V; apply loadc_app; auto|].
      intros j [F|[V F]].
      + destruct LV as [LV _]. rewrite F in LV. destruct LV as [c W]. eapply writer_lt; eauto.
      + destruct (LC V) as [LC' _]. rewrite F in LC'. destruct LC' as [c W]. eapply writer_lt; eauto.
    - apply H in E as (A1 & A2 & A3 & A4 & A5). split; [intros m M; auto|]. split; [exact A2|]. split; [apply loadv_app; auto|]. split; [intros V; apply loadc_app; auto|exact A5].
  Qed.

  Lemma sim_step g e comp vs lv lc st tid : Sim g e comp vs lv lc st -> exists e' comp' vs' lv' lc' st', Sim (step p u tid g) e' comp' vs' lv' lc' st'.
  Proof.
    intros S. unfold step. destruct (nth_error (threads g) tid) as [t|] eqn:Et; [|eauto 10]. destruct (access p u (mem g) t) as [[[mm t'] a]|] eqn:Ac; [|eauto 10].
    pose proof S as [SV SC [SL ST] SA SALL (SN & SB & SANS) [SVB SVC] SCALLS].
    assert (LT : tid < length (threads g)) by (apply nth_error_Some; congruence).
    destruct (nth_error st tid) as [s|] eqn:Es; [|apply nth_error_None in Es; lia].
    pose proof (ST _ _ _ Et Es) as STAND. destruct t as [l q]. unfold access in Ac. unfold Stands in STAND. cbn [at_ todo] in *.
    assert (CALLB : forall a i, nth_error st a = Some (Call i) -> i < length e /\ ~ In i comp).
    { intros a0 i H. destruct (nth_error (threads g) a0) as [t0|] eqn:E0; [|apply nth_error_None in E0; assert (a0 < length st) by (apply nth_error_Some; congruence); lia].
      pose proof (ST _ _ _ E0 H) as H0. unfold Stands in H0. destruct (at_ t0); [discriminate|destruct H0 as (? & ? & X & _); discriminate| |];
        destruct H0 as (i' & k & [= <-] & E & _ & _ & _ & _ & N1 & _); split; auto; unfold calls in E; assert (nth_error (map fst e) i <> None) by congruence; apply nth_error_Some in H0; now rewrite map_length in H0. }
    destruct q as [|x|x c|x c].
    - (* the load of [value] *)
      destruct l as [|x l]; [discriminate|]. subst s. destruct (value (mem g)) eqn:V; injection Ac as <- <- <-.
      + exists e, comp, vs, lv, lc, (set_nth tid (Loaded lv comp) st). constructor; cbn [mem threads done_]; auto.
        * rewrite V. exact SV.
        * apply (threads_upd (Stands e comp vs)); auto; [intros; eapply ST; eauto|]. unfold Stands. cbn [at_]. exists lv, comp. split; [reflexivity|]. split; [|apply incl_refl].
          destruct lv as [j|]; [destruct SV as (I & W & F)|destruct SV as (E & F)]; split; auto.
          -- intros m M (v' & c' & W'). apply F. eapply SVC; eauto.
          -- intros m M (v' & c' & W'). apply (SVC _ _ _ M) in W'. rewrite F in W'. destruct W'.
        * intros a0 b0 i. destruct (Nat.eq_dec a0 tid) as [->|D1]; [rewrite nth_set_same by lia; discriminate|]. destruct (Nat.eq_dec b0 tid) as [->|D2]; [rewrite (nth_set_same tid) by lia; discriminate|].
          rewrite !nth_set_other by (lia || congruence). apply SA.
        * intros i L. destruct (SALL i L) as [I|[a0 I]]; [now left|]. right. exists a0. destruct (Nat.eq_dec a0 tid) as [->|D]; [congruence|]. rewrite nth_set_other by (lia || congruence). exact I.
      + set (k := WCall x false 0 lv None).
        assert (NW : forall v c, ~ Writer (e ++ [(k, comp)]) (length e) v c).
        { intros v' c' (k' & E & W). rewrite calls_app in E. unfold calls in E. rewrite nth_error_app2, map_length, Nat.sub_diag in E by (rewrite map_length; lia). cbn in E. injection E as <-. discriminate W. }
        exists (e ++ [(k, comp)]), (comp ++ [length e]), vs, lv, lc, st.
        constructor; cbn [mem threads done_]; auto.
        * rewrite V. destruct lv as [j|]; [|exact SV]. destruct SV as (I & [c W] & F). split; [exact I|]. split; [exists c; now apply writer_app|]. intros m M. rewrite before_app by auto. auto.
        * destruct lc as [j|].
          -- destruct SC as (I & [v' W] & F). split; [apply in_or_app; auto|]. split; [exists v'; now apply writer_app|]. intros m M W'. apply in_app_or in M as [M|[<-|[]]].
             ++ rewrite before_app by auto. apply F; [exact M|]. destruct W' as (v2 & c2 & W'). exists v2, c2. eapply writer_old; eauto.
             ++ destruct W' as (v2 & c2 & W'). now apply NW in W'.
          -- destruct SC as [E F]. split; [exact E|]. intros m v' c' M W. apply in_app_or in M as [M|[<-|[]]]; [|now apply NW in W]. eapply F; eauto. eapply writer_old; eauto.
        * replace st with (set_nth tid Idle st).
          2: { unfold set_nth. rewrite <- (firstn_skipn tid st) at 3. f_equal. clear -Es. revert tid Es. induction st as [|s0 st IH]; intros [|tid] E; cbn in *; try discriminate; [injection E as ->; reflexivity|auto]. }
          apply (threads_upd (Stands (e ++ [(k, comp)]) (comp ++ [length e]) vs)); auto; [|unfold Stands; reflexivity].
          intros i t s D E1 E2. eapply stands_more; [apply stands_app; [exact SB|eapply ST; eauto]|intros y Y; apply in_or_app; auto| |tauto].
          intros i0 -> Y. apply in_app_or in Y as [Y|[<-|[]]]; [exact Y|]. apply CALLB in E2 as [E2 _]. lia.
        * intros i L. rewrite app_length in L. cbn in L. destruct (Nat.eq_dec i (length e)) as [->|D]; [left; apply in_or_app; right; now left|].
          destruct (SALL i ltac:(lia)) as [I|I]; [left; apply in_or_app; auto|auto].
        * split; [apply nodup_snoc; [exact SN|now apply (not_self e)]|]. split.
          -- intros i I. rewrite app_length. cbn. apply in_app_or in I as [I|[<-|[]]]; [apply SB in I; lia|lia].
          -- unfold answers. cbn [done_]. rewrite !map_app. f_equal; [apply (answers_more g); auto|]. cbn. rewrite calls_app. unfold calls. rewrite nth_error_app2, map_length, Nat.sub_diag by (rewrite map_length; lia). reflexivity.
        * split; [intros m M; rewrite app_length; cbn; apply SVB in M; lia|]. intros m v' c' M W. apply in_app_or in M as [M|[<-|[]]]; [|now apply NW in W]. eapply SVC; eauto. eapply writer_old; eauto.
        * apply (sim_calls e comp); auto; [intros y Y; apply in_or_app; auto|apply incl_refl| |discriminate]. cbn [w_value w_vfrom k].
          destruct lv as [j|]; [destruct SV as (I & W & F)|destruct SV as (E & F)]; [|congruence]. split; [exact W|].
          intros m M (v' & c' & W'). apply F. eapply SVC; eauto.
    - (* the load of [count] *)
      destruct STAND as (vf & b & -> & LV & BC).
      set (k := WCall x true (count (mem g)) vf lc).
      assert (LC : LoadC e (count (mem g)) lc b).
      { destruct lc as [j|]; [destruct SC as (I & W & F)|destruct SC as (E & F)]; split; auto. intros m M (v' & c' & W'). exact (F _ _ _ (BC _ M) W'). }
      assert (CS : forall comp', incl comp comp' -> forall i k' b', nth_error (e ++ [(k, b)]) i = Some (k', b') -> incl b' comp' /\ (forall m, In m b' -> m < i) /\ LoadV (e ++ [(k, b)]) (w_value k') (w_vfrom k') b' /\
        (w_value k' = true -> LoadC (e ++ [(k, b)]) (w_count k') (w_cfrom k') b') /\ forall j, w_vfrom k' = Some j \/ (w_value k' = true /\ w_cfrom k' = Some j) -> j < i).
      { intros comp' CI. apply (sim_calls e comp); auto. }
      assert (VAL : match lv with None => value (mem g) = true /\ vs = [] | Some j => In j vs /\ (exists c, Writer (e ++ [(k, b)]) j (value (mem g)) c) /\ forall m, In m vs -> ~ In j (before (e ++ [(k, b)]) m) end).
      { destruct lv as [j|]; [|exact SV]. destruct SV as (I & [c W] & F). split; [exact I|]. split; [exists c; now apply writer_app|]. intros m M. rewrite before_app by auto. auto. }
      destruct (count (mem g) =? 0) eqn:Z; injection Ac as <- <- <-.
      + apply Nat.eqb_eq in Z.
        assert (NW : forall v c, ~ Writer (e ++ [(k, b)]) (length e) v c).
        { intros v' c' (k' & E & W). rewrite calls_app in E. unfold calls in E. rewrite nth_error_app2, map_length, Nat.sub_diag in E by (rewrite map_length; lia). cbn in E. injection E as <-.
          unfold w_store, weak_match, k in W. cbn in W. rewrite Z in W. discriminate W. }
        exists (e ++ [(k, b)]), (comp ++ [length e]), vs, lv, lc, (set_nth tid Idle st).
        constructor; cbn [mem threads done_]; auto.
        * destruct lc as [j|].
          -- destruct SC as (I & [v' W] & F). split; [apply in_or_app; auto|]. split; [exists v'; now apply writer_app|]. intros m M W'. apply in_app_or in M as [M|[<-|[]]].
             ++ rewrite before_app by auto. apply F; [exact M|]. destruct W' as (v2 & c2 & W'). exists v2, c2. eapply writer_old; eauto.
             ++ destruct W' as (v2 & c2 & W'). now apply NW in W'.
          -- destruct SC as [E F]. split; [exact E|]. intros m v' c' M W. apply in_app_or in M as [M|[<-|[]]]; [|now apply NW in W]. eapply F; eauto. eapply writer_old; eauto.
        * apply (threads_upd (Stands (e ++ [(k, b)]) (comp ++ [length e]) vs)); auto; [|unfold Stands; reflexivity].
          intros i t s D E1 E2. eapply stands_more; [apply stands_app; [exact SB|eapply ST; eauto]|intros y Y; apply in_or_app; auto| |tauto].
          intros i0 -> Y. apply in_app_or in Y as [Y|[<-|[]]]; [exact Y|]. apply CALLB in E2 as [E2 _]. lia.
        * intros a0 b0 i. destruct (Nat.eq_dec a0 tid) as [->|D1]; [rewrite nth_set_same by lia; discriminate|]. destruct (Nat.eq_dec b0 tid) as [->|D2]; [rewrite (nth_set_same tid) by lia; discriminate|].
          rewrite !nth_set_other by (lia || congruence). apply SA.
        * intros i L. rewrite app_length in L. cbn in L. destruct (Nat.eq_dec i (length e)) as [->|D]; [left; apply in_or_app; right; now left|].
          destruct (SALL i ltac:(lia)) as [I|[a0 I]]; [left; apply in_or_app; auto|]. right. exists a0. destruct (Nat.eq_dec a0 tid) as [->|D']; [congruence|]. rewrite nth_set_other by (lia || congruence). exact I.
        * split; [apply nodup_snoc; [exact SN|now apply (not_self e)]|]. split.
          -- intros i I. rewrite app_length. cbn. apply in_app_or in I as [I|[<-|[]]]; [apply SB in I; lia|lia].
          -- unfold answers. cbn [done_]. rewrite !map_app. f_equal; [apply (answers_more g); auto|]. cbn. rewrite calls_app. unfold calls. rewrite nth_error_app2, map_length, Nat.sub_diag by (rewrite map_length; lia).
             cbn. unfold w_answer, weak_match. cbn. rewrite Z. cbn. now rewrite andb_true_r.
        * split; [intros m M; rewrite app_length; cbn; apply SVB in M; lia|]. intros m v' c' M W. apply in_app_or in M as [M|[<-|[]]]; [|now apply NW in W]. eapply SVC; eauto. eapply writer_old; eauto.
        * apply CS. intros y Y; apply in_or_app; auto.
      + apply Nat.eqb_neq in Z. exists (e ++ [(k, b)]), comp, vs, lv, lc, (set_nth tid (Call (length e)) st).
        constructor; cbn [mem threads done_]; auto.
        * destruct lc as [j|].
          -- destruct SC as (I & [v' W] & F). split; [exact I|]. split; [exists v'; now apply writer_app|]. intros m M W'.
             rewrite before_app by auto. apply F; [exact M|]. destruct W' as (v2 & c2 & W'). exists v2, c2. eapply writer_old; eauto.
          -- destruct SC as [E F]. split; [exact E|]. intros m v' c' M W. eapply F; eauto. eapply writer_old; eauto.
        * apply (threads_upd (Stands (e ++ [(k, b)]) comp vs)); auto.
          -- intros i t s D E1 E2. apply stands_app; [exact SB|eapply ST; eauto].
          -- unfold Stands. cbn [at_]. exists (length e), k. split; [reflexivity|]. split.
             { rewrite calls_app. unfold calls. rewrite nth_error_app2, map_length, Nat.sub_diag by (rewrite map_length; lia). reflexivity. }
             repeat (split; [reflexivity || assumption|]). split; [now apply (not_self e)|]. now apply (not_self e).
        * intros a0 b0 i. destruct (Nat.eq_dec a0 tid) as [->|D1]; destruct (Nat.eq_dec b0 tid) as [->|D2]; auto.
          -- rewrite nth_set_same, nth_set_other by (lia || congruence). intros [= <-] X. apply CALLB in X as [X _]. lia.
          -- rewrite nth_set_same, nth_set_other by (lia || congruence). intros X [= <-]. apply CALLB in X as [X _]. lia.
          -- rewrite !nth_set_other by (lia || congruence). apply SA.
        * intros i L. rewrite app_length in L. cbn in L. destruct (Nat.eq_dec i (length e)) as [->|D]; [right; exists tid; now rewrite nth_set_same by lia|].
          destruct (SALL i ltac:(lia)) as [I|[a0 I]]; [now left|]. right. exists a0. destruct (Nat.eq_dec a0 tid) as [->|D']; [congruence|]. rewrite nth_set_other by (lia || congruence). exact I.
        * split; [exact SN|]. split; [intros i I; rewrite app_length; cbn; apply SB in I; lia|]. apply (answers_more g); auto.
        * split; [intros m M; rewrite app_length; cbn; apply SVB in M; lia|]. intros m v' c' M W. eapply SVC; eauto. eapply writer_old; eauto.
        * apply CS, incl_refl.
    - (* the store to [value] *)
      injection Ac as <- <- <-. destruct STAND as (i & k & -> & E & <- & Vk & <- & Z & NC & NV).
      exists e, comp, (vs ++ [i]), (Some i), lc, st. constructor; cbn [mem threads done_ value count]; auto.
      + split; [apply in_or_app; right; now left|]. split.
        * exists (w_count k - 1), k. split; [exact E|]. unfold w_store, weak_match. rewrite Vk. apply Nat.eqb_neq in Z. rewrite Z. cbn. now rewrite andb_true_r.
        * intros m _ I. unfold before in I. destruct (nth_error e m) as [[km bm]|] eqn:Em; [|destruct I]. apply SCALLS in Em as [Em _]. apply NC. auto.
      + replace st with (set_nth tid (Call i) st).
        2: { unfold set_nth. rewrite <- (firstn_skipn tid st) at 3. f_equal. clear -Es. revert tid Es. induction st as [|s0 st IH]; intros [|tid] E; cbn in *; try discriminate; [injection E as ->; reflexivity|auto]. }
        apply (threads_upd (Stands e comp (vs ++ [i]))); auto.
        * intros j t s D E1 E2. eapply stands_more; [eapply ST; eauto|apply incl_refl|auto|]. intros i0 ->. rewrite in_app_iff. cbn. split; [|auto]. intros [I|[<-|[]]]; [exact I|]. destruct (D (SA _ _ _ E2 Es)).
        * unfold Stands. cbn [at_]. exists i, k. repeat (split; [reflexivity || assumption|]). apply in_or_app. right. now left.
      + split; [|intros m v' c' M W; apply in_or_app; left; eauto]. intros m M. apply in_app_or in M as [M|[<-|[]]]; [auto|]. apply CALLB in Es as [Es' _]. exact Es'.
    - (* the store to [count] *)
      injection Ac as <- <- <-. destruct STAND as (i & k & -> & E & <- & Vk & <- & Z & NC & NV).
      exists e, (comp ++ [i]), vs, lv, (Some i), (set_nth tid Idle st). constructor; cbn [mem threads done_ value count]; auto.
      + split; [apply in_or_app; right; now left|]. split.
        * exists (p (w_item k)), k. split; [exact E|]. unfold w_store, weak_match. rewrite Vk. apply Nat.eqb_neq in Z. rewrite Z. cbn. now rewrite andb_true_r.
        * intros m _ _ I. unfold before in I. destruct (nth_error e m) as [[km bm]|] eqn:Em; [|destruct I]. apply SCALLS in Em as [Em _]. apply NC. auto.
      + apply (threads_upd (Stands e (comp ++ [i]) vs)); auto; [|unfold Stands; reflexivity].
        intros j t s D E1 E2. eapply stands_more; [eapply ST; eauto|intros y Y; apply in_or_app; auto| |tauto].
        intros i0 -> Y. apply in_app_or in Y as [Y|[<-|[]]]; [exact Y|]. destruct (D (SA _ _ _ E2 Es)).
      + intros a0 b0 j. destruct (Nat.eq_dec a0 tid) as [->|D1]; [rewrite nth_set_same by lia; discriminate|]. destruct (Nat.eq_dec b0 tid) as [->|D2]; [rewrite (nth_set_same tid) by lia; discriminate|].
        rewrite !nth_set_other by (lia || congruence). apply SA.
      + intros j L. destruct (SALL j L) as [I|[a0 I]]; [left; apply in_or_app; auto|]. destruct (Nat.eq_dec a0 tid) as [->|D].
        * rewrite Es in I. injection I as <-. left. apply in_or_app. right. now left.
        * right. exists a0. rewrite nth_set_other by (lia || congruence). exact I.
      + apply CALLB in Es as [Lk _]. split; [now apply nodup_snoc|]. split; [intros j I; apply in_app_or in I as [I|[<-|[]]]; auto|].
        unfold answers. cbn [done_]. rewrite !map_app. f_equal; [exact SANS|]. cbn. rewrite E. cbn. unfold w_answer, weak_match. rewrite Vk. apply Nat.eqb_neq in Z. rewrite Z. cbn. now rewrite andb_true_r.
      + split; [exact SVB|]. intros m v' c' M W. apply in_app_or in M as [M|[<-|[]]]; [eauto|exact NV].
      + intros j kj bj Ej. apply SCALLS in Ej as (A1 & A2). split; [intros y Y; apply in_or_app; auto|exact A2].
  Qed.
  Lemma sim_start work : Sim (start n work) [] [] [] None None (map (fun _ => Idle) work).
  Proof.
    constructor; cbn [start mem value count threads done_ length]; auto.
    - split; [now rewrite !map_length|]. intros i t s E1 E2. apply nth_error_In, in_map_iff in E1 as (l & <- & _). apply nth_error_In, in_map_iff in E2 as (l' & <- & _). reflexivity.
    - intros a b i H. apply nth_error_In, in_map_iff in H as (l & H & _). discriminate.
    - intros i H. inversion H.
    - split; [constructor|]. split; [intros i []|reflexivity].
    - split; [intros m []|intros m v c []].
    - intros [|i] k b E; discriminate.
  Qed.
  Lemma sim_run sched : forall g e comp vs lv lc st, Sim g e comp vs lv lc st -> exists e' comp' vs' lv' lc' st', Sim (run p u sched g) e' comp' vs' lv' lc' st'.
  Proof.
    induction sched as [|i sched IH]; intros g e comp vs lv lc st S; [cbn; eauto 10|]. cbn [run fold_left].
    destruct (sim_step _ _ _ _ _ _ _ i S) as (e' & comp' & vs' & lv' & lc' & st' & S'). eapply IH; eauto.
  Qed.
End Interleaving.

(** No thread is inside a call. *)
Definition quiet (g : config) : Prop := forall t, In t (threads g) -> at_ t = AtStart.
(** Every sequentially consistent run that has come to rest is an execution in this sense, with the same
    answers.  (In the proof [hb a b] holds when [a] had returned before [b] was called.) *)
Theorem C77_interleavings : forall p u n work g, Reachable p u n work g -> quiet g ->
  exists e hb rank, Execution p u n e hb rank /\ Permutation (map (w_answer p u) e) (answers g).
Proof.
  intros p u n work g [sched ->] Q.
  destruct (sim_run p u n sched _ _ _ _ _ _ _ (sim_start p u n work)) as (e & comp & vs & lv & lc & st & S).
  set (g := run p u sched (start n work)) in *. pose proof S as [SV SC [SL ST] SA SALL (SN & SB & SANS) [SVB SVC] SCALLS].
  assert (ALL : forall i, i < length e -> In i comp).
  { intros i L. destruct (SALL i L) as [I|[a I]]; [exact I|]. exfalso. destruct (nth_error (threads g) a) as [t|] eqn:Et.
    - pose proof (ST _ _ _ Et I) as X. unfold Stands in X. rewrite (Q t) in X by (eapply nth_error_In; eauto). discriminate.
    - apply nth_error_None in Et. assert (a < length st) by (apply nth_error_Some; congruence). lia. }
  assert (AT : forall i k, nth_error (calls e) i = Some k -> exists b, nth_error e i = Some (k, b)).
  { intros i k E. unfold calls in E. destruct (nth_error e i) as [[k' b]|] eqn:Ei.
    - apply (map_nth_error fst) in Ei. cbn in Ei. rewrite E in Ei. injection Ei as ->. eauto.
    - exfalso. apply nth_error_None in Ei. assert (i < length (map fst e)) by (apply nth_error_Some; congruence). rewrite map_length in H. lia. }
  assert (WR : forall m km, nth_error (calls e) m = Some km -> w_store p u km <> None -> exists v c, Writer p u e m v c).
  { intros m km E W. destruct (w_store p u km) as [[v c]|] eqn:Es; [|congruence]. exists v, c, km. auto. }
  exists (calls e), (fun a b => In a (before e b)), (fun i => i). split; [constructor|].
  - intros i k E. destruct (AT i k E) as [b Eb]. apply SCALLS in Eb as (_ & _ & [LV _] & _). destruct (w_vfrom k) as [j|]; [|exact LV]. destruct LV as (c & k' & A & B). eauto.
  - intros i k E V. destruct (AT i k E) as [b Eb]. apply SCALLS in Eb as (_ & _ & _ & LC & _). destruct (LC V) as [LC' _]. destruct (w_cfrom k) as [j|]; [|exact LC']. destruct LC' as (c & k' & A & B). eauto.
  - intros i k j E F. destruct (AT i k E) as [b Eb]. apply SCALLS in Eb as (_ & _ & _ & _ & A). now apply A.
  - intros i k j E F I. destruct (AT i k E) as [b Eb]. apply SCALLS in Eb as (_ & _ & _ & _ & A). apply A in F.
    unfold before in I. destruct (nth_error e j) as [[kj bj]|] eqn:Ej; [|destruct I]. apply SCALLS in Ej as (_ & B & _). apply B in I. lia.
  - intros i k m km E Em W I. destruct (AT i k E) as [b Eb]. pose proof Eb as Eb'. apply SCALLS in Eb as (_ & _ & [_ F] & _). unfold before in I. rewrite Eb' in I. cbn in I.
    exact (F m I (WR m km Em W)).
  - intros i k m km E V Em W I. destruct (AT i k E) as [b Eb]. pose proof Eb as Eb'. apply SCALLS in Eb as (_ & _ & _ & LC & _). destruct (LC V) as [_ F]. unfold before in I. rewrite Eb' in I. cbn in I.
    exact (F m I (WR m km Em W)).
  - assert (P : Permutation (seq 0 (length e)) comp).
    { apply NoDup_Permutation; [apply seq_NoDup|exact SN|]. intros i. rewrite in_seq. split; [intros [_ L]; apply ALL; lia|intros I; apply SB in I; lia]. }
    assert (M : map Some (map (w_answer p u) (calls e)) = map (fun i => option_map (w_answer p u) (nth_error (calls e) i)) (seq 0 (length e))).
    { unfold calls. rewrite <- (map_length fst e). generalize (map fst e) as l. clear. intros l.
      assert (G : forall l2 l1, map Some (map (w_answer p u) l2) = map (fun i => option_map (w_answer p u) (nth_error (l1 ++ l2) i)) (seq (length l1) (length l2))).
      { induction l2 as [|k l2 IH]; intros l1; [reflexivity|]. cbn [map seq length]. f_equal.
        - rewrite nth_error_app2, Nat.sub_diag by lia. reflexivity.
        - specialize (IH (l1 ++ [k])). rewrite app_length, Nat.add_1_r in IH. rewrite <- app_assoc in IH. exact IH. }
      apply (G l []). }
    apply (Permutation_map (fun i => option_map (w_answer p u) (nth_error (calls e) i))) in P. rewrite <- M, SANS in P.
    apply Permutation_map_inv in P as (l & E & P). apply (f_equal (map (fun o => match o with Some a => a | None => (0%N, ByFlag, false) end))) in E.
    rewrite !map_map in E. cbn in E. rewrite !map_id in E. subst l. now apply Permutation_sym.
Qed.

(** Beyond interleavings: one failed prefix test (call 0) lowers the flag and the count.  Another thread sees
    the count but not the flag, in one call (1) and in the next (2): its items are judged by the unit. *)
Definition stale : list wcall := [WCall 99%N true 1 None None; WCall 98%N true 0 None (Some 0); WCall 98%N true 0 None (Some 0)].
Theorem C77_stale_refuted : exists p u n e hb rank i j, Execution p u n e hb rank /\ hb i j /\
  (exists k, nth_error e i = Some k /\ w_cfrom k = Some 0 /\ w_test p u k = ByUnit) /\
  (exists k, nth_error e 0 = Some k /\ w_answer p u k = (w_item k, ByPrefix, false)) /\
  (exists k, nth_error e j = Some k /\ snd (w_answer p u k) = true).
Proof.
  exists (N.eqb 97), (N.eqb 98), 1, stale, (fun a b => a = 1 /\ b = 2), (fun i => i), 1, 2. split.
  - constructor.
    + intros [|[|[|i]]] k E; try (destruct i; discriminate); injection E as <-; reflexivity.
    + intros [|[|[|i]]] k E _; try (destruct i; discriminate); injection E as <-; [reflexivity| |]; (eexists; exists false; split; reflexivity).
    + intros [|[|[|i]]] k j E; try (destruct i; discriminate); injection E as <-; cbn; intros [F|[_ F]]; try discriminate; injection F as <-; lia.
    + intros [|[|[|i]]] k j E; try (destruct i; discriminate); injection E as <-; cbn; intros [F|[_ F]]; try discriminate; injection F as <-; lia.
    + intros i k m km E Em W [-> ->]. injection Em as <-. destruct W. reflexivity.
    + intros i k m km E V Em W [-> ->]. injection Em as <-. destruct W. reflexivity.
  - split; [auto|]. split; [eexists; repeat split; reflexivity|]. split; eexists; split; reflexivity.
Qed.
(** Two prefix tests that pass, then the unit, all in one thread: the hypotheses of [C77_serial]. *)
Example C77_serial_ex : Execution (N.eqb 97) (N.eqb 98) 2
    [WCall 97%N true 2 None None; WCall 97%N true 1 (Some 0) (Some 0); WCall 98%N true 0 (Some 1) (Some 1)] lt (fun i => i) /\
  map (fun k => snd (w_answer (N.eqb 97) (N.eqb 98) k)) [WCall 97%N true 2 None None; WCall 97%N true 1 (Some 0) (Some 0); WCall 98%N true 0 (Some 1) (Some 1)] = [true; true; true].
Proof.
  split; [|reflexivity]. constructor.
  - intros [|[|[|i]]] k E; try (destruct i; discriminate); injection E as <-; cbn; [reflexivity| |]; (eexists; eexists; split; reflexivity).
  - intros [|[|[|i]]] k E _; try (destruct i; discriminate); injection E as <-; cbn; [reflexivity| |]; (eexists; eexists; split; reflexivity).
  - intros [|[|[|i]]] k j E; try (destruct i; discriminate); injection E as <-; cbn; intros [F|[_ F]]; try discriminate; injection F as <-; lia.
  - intros [|[|[|i]]] k j E; try (destruct i; discriminate); injection E as <-; cbn; intros [F|[_ F]]; try discriminate; injection F as <-; lia.
  - intros [|[|[|i]]] k [|[|[|m]]] km E Em W L; try (destruct i; discriminate); try (destruct m; discriminate); try lia; injection E as <-; cbn; lia.
  - intros [|[|[|i]]] k [|[|[|m]]] km E V Em W L; try (destruct i; discriminate); try (destruct m; discriminate); try lia; injection E as <-; cbn; lia.
Qed.
(** A refused item needs a failed test, and here is one; a quiet interleaving with two threads. *)
Example C77_flag_ex : Execution (N.eqb 97) (N.eqb 98) 1 [WCall 99%N true 1 None None; WCall 98%N false 0 (Some 0) None] (fun _ _ => False) (fun i => i).
Proof.
  constructor; try (intros; contradiction).
  - intros [|[|i]] k E; try (destruct i; discriminate); injection E as <-; cbn; [reflexivity|]. eexists; eexists; split; reflexivity.
  - intros [|[|i]] k E V; try (destruct i; discriminate); injection E as <-; cbn in *; [reflexivity|discriminate].
  - intros [|[|i]] k j E; try (destruct i; discriminate); injection E as <-; cbn; intros [F|[V F]]; try discriminate; injection F as <-; lia.
  - intros; tauto.
Qed.
Example C77_interleavings_ex : let g := run (N.eqb 97) (N.eqb 98) [0;0;1;1;0;0;1;1;0;0] (start 1 [[97; 98]; [97]]%N) in quiet g /\ length (answers g) = 3.
Proof. split; [|reflexivity]. intros t [<-|[<-|[]]]; reflexivity. Qed.

Print Assumptions C77_bounded.
Print Assumptions C77_prefix_first.
Print Assumptions C77_flag.
Print Assumptions C77_alive.
Print Assumptions C77_accepted.
Print Assumptions C77_serial.
Print Assumptions C77_interleavings.
Print Assumptions C77_stale_refuted.
