(** Parsers that need one item of lookahead build the value of what they read (C83), the building
    counterpart of C79.  The value of a word is [Mean] (file Meaning.v): the values of its parts put
    together, and given to the mappers, without positions, choice order or greediness. *)

From Coq Require Import List Arith NArith ZArith Bool Lia.
From Verif Require Import Base Text Context Neu Syntax Regex Ctor Api TextProofs Spec Core Sound Complete Obs Laws ApiLaws PegLaws PolicyLaws
  Consumes Term TermLaws CtorSpec CtorLaws ConSpec ConSound ConComplete ConTerm Lang Ll1 Meaning MeanLaws OwnedLaws Samples PropCon.
Import ListNotations.

(** The handler makes [lv t] of the text [t] a leaf matched, and keeps its state. *)
Definition says {S} (k : kind) (lv : text -> val) (h : handler S) : Prop :=
  forall w b j st, b <= j -> j <= length w -> h (cx k w j) (sp k w b j) st = (Ok (lv (slice w b j)), st).

(** One item of lookahead decides ([ll1], Ll1.v), the mappers accept what their parts build ([fed],
    Meaning.v), and no handle reaches itself before an item was read (the checks of C20 and C70). *)
Definition builds_ahead (k : kind) (G : env) (R : nat -> info) (lv : text -> val) (p : pat) : Prop :=
  ll1_env R k G /\ fed_env G lv R /\ ll1 R k p /\ fed G lv R p /\
  exists K KC rk L m,
    (forall x q, env_get G x = Some q -> K x = true -> consumes K q = true) /\
    (forall x q, env_get G x = Some q -> KC x = true -> cconsumes K KC q = true) /\
    (forall x q, env_get G x = Some q -> wfb K rk L (rk x) q = true /\ cwfb K KC rk L (rk x) q = true) /\
    cwfb K KC rk L m p = true.

Section Scope.
  Context {S : Type}.
  Variable k : kind.
  Variable G : env.
  Variable R : nat -> info.
  Variable lv : text -> val.
  Variable h : handler S.
  Hypothesis HS : says k lv h.
  Lemma says_answers : ConSpec.answers k no_skip (tells lv) h.
  Proof.
    intros w x b j st Q B. pose proof (plain_same _ _ _ Q) as ->. destruct Q as (_ & Q & _).
    rewrite HS by auto. split; [reflexivity|discriminate].
  Qed.
  Lemma ahead_scope p : builds_ahead k G R lv p -> InPlainScope k G (tells lv) h p.
  Proof.
    intros (RE & FE & C & F & _). constructor; [apply no_skip_skipper|apply no_skip_implements| | | |exact says_answers].
    - now apply (ll1_core_env k G R).
    - now apply (fed_ok_env k G R lv).
    - now apply (fed_con_ok k G R lv).
  Qed.
  Lemma ahead_con p s v w i t (st : S) : builds_ahead k G R lv p -> Mean G lv p s v -> i <= length w -> skipn i w = s ++ t ->
    ~ ahead t (ex (info_of R p)) -> Con k G no_skip (tells lv) w p i st (CV v (i + length s) st).
  Proof.
    intros (RE & FE & C & F & K & KC & rk & L & m & KE & KCE & WE & W) M Hi E N.
    exact (built k G R lv RE FE K KC rk L h says_answers KE KCE WE p s v M m C F W w i t st Hi E N).
  Qed.
  Lemma ahead_out p w i (st : S) : builds_ahead k G R lv p -> i <= length w ->
    exists o, Con k G no_skip (tells lv) w p i st o /\ meant G lv w p i st o.
  Proof.
    intros (RE & FE & C & F & K & KC & rk & L & m & KE & KCE & WE & W) Hi.
    destruct (con_answers k G R lv RE FE K KC rk L h says_answers KE KCE WE m p w i st C F W Hi) as [o P].
    exists o. split; [exact P|]. exact (proj1 (con_mean k G R lv RE FE) w p i st o P C F Hi).
  Qed.
End Scope.

(** [ctor]: the handler of [Extract<&str>] and [Extract<&[u8]>] says the text itself. *)
Lemma extract_says k : says k VText extract_text.
Proof.
  intros w b j st B J. destruct (slice_answers k no_skip w j b j st (conj eq_refl (conj J J)) B) as [E _].
  exact E.
Qed.
(** A handler for any [lv]. *)
Definition read (lv : text -> val) : handler unit := fun c s st =>
  (match fst (extract_text c s st) with Ok (VText t) => Ok (lv t) | r => r end, st).
Lemma read_says k lv : says k lv (read lv).
Proof. intros w b j st B J. unfold read. now rewrite (extract_says k w b j st B J). Qed.

(** ** C83 *)

(** The value of a word in front of the cursor is built, if no item follows that could continue the
    word; the cursor is left behind the word. *)
Theorem C83_build : forall S k G R lv (h : handler S) p a s t v st,
  says k lv h -> builds_ahead k G R lv p -> Mean G lv p s v -> ~ ahead t (ex (info_of R p)) ->
  Builds h G [] p (cx k (a ++ s ++ t) (length a)) st (Ok v) (cx k (a ++ s ++ t) (length a + length s)) st.
Proof.
  intros S k G R lv h p a s t v st HS B M N.
  assert (Hi : length a <= length (a ++ s ++ t)) by (rewrite app_length; lia).
  apply (C70_built S k G (tells lv) h p (a ++ s ++ t)); [now apply (ahead_scope k G R lv h HS)|exact Hi|rewrite !app_length; lia|].
  apply (ahead_con k G R lv h HS p s v _ _ t); auto. rewrite skipn_app, skipn_all, Nat.sub_diag. reflexivity.
Qed.

(** Whatever is built is the value of what was consumed, the state of the handler is kept, a failure
    leaves the cursor where it was, and nothing panics. *)
Theorem C83_sound : forall S k G R lv (h : handler S) p w i st r c st',
  says k lv h -> builds_ahead k G R lv p -> i <= length w -> Builds h G [] p (cx k w i) st r c st' ->
  st' = st /\
  ((exists v j, r = Ok v /\ i <= j /\ j <= length w /\ c = cx k w j /\ Mean G lv p (slice w i j) v) \/
   (exists e, r = Err e /\ c = cx k w i)).
Proof.
  intros S k G R lv h p w i st r c st' HS B Hi X.
  pose proof (ahead_scope k G R lv h HS p B) as SC.
  destruct (ahead_out k G R lv h HS p w i st B Hi) as (o & P & M).
  destruct (C70_outcomes S k G no_skip [] (tells lv) h p w i st r c st' SC Hi X) as [->|(y & j & -> & Q & _ & O)].
  - assert (Y : Con k G no_skip (tells lv) w p i st CP) by (apply (C70_panicked S k G no_skip [] (tells lv) h); eauto).
    pose proof (C70_deterministic S k G (tells lv) h p w i st _ _ SC Hi P Y) as ->. destruct M.
  - apply plain_same in Q as ->. destruct O as [(v & -> & Y)|(e & -> & Y)];
      pose proof (C70_deterministic S k G (tells lv) h p w i st _ _ SC Hi P Y) as ->; cbn [meant] in M.
    + destruct M as (H1 & H2 & M & ->). split; [reflexivity|]. left. eauto 10.
    + destruct M as [-> ->]. split; [reflexivity|]. right. eauto.
Qed.

(** Anchored at the end, the parser builds the value of the text, for the texts that have one. *)
Theorem C83_whole : forall S k G R lv (h : handler S) p w st v,
  says k lv h -> builds_ahead k G R lv p ->
  (Builds h G [] (PSuffix p PEnd) (cx k w 0) st (Ok v) (cx k w (length w)) st <-> Mean G lv p w v).
Proof.
  intros S k G R lv h p w st v HS B.
  pose proof (ahead_scope k G R lv h HS p B) as [C1 C2 C3 C4 C5 C6].
  assert (SC : InPlainScope k G (tells lv) h (PSuffix p PEnd)) by (constructor; auto; apply ok_suffix; auto; constructor).
  rewrite (C70_built S k G (tells lv) h (PSuffix p PEnd) w 0 st v (length w) st SC) by lia. split.
  - intros X. inversion X; subst; try contradiction.
    + destruct o; try contradiction; discriminate.
    + match goal with H : Peg _ _ _ _ PEnd _ _ |- _ => inversion H; subst end.
      destruct B as (RE & FE & C & F & _).
      match goal with H : Con _ _ _ _ _ p _ _ _ |- _ => destruct (proj1 (con_mean k G R lv RE FE) _ _ _ _ _ H C F (Nat.le_0_l _)) as (_ & _ & M & _) end.
      unfold no_skip in *. match goal with H : ?x = length w |- _ => is_var x; subst x | _ => idtac end.
      unfold slice in M. rewrite Nat.sub_0_r in M. cbn [skipn] in M. now rewrite firstn_all in M.
  - intros M. eapply Con_suffix with (j := length w).
    + change (length w) with (0 + length w). eapply (ahead_con k G R lv h HS p w v w 0 [] st B M); [lia|cbn; now rewrite app_nil_r|now intros []].
    + unfold no_skip. now apply Peg_end.
Qed.

(** Every word of the language has a value, only words have, and only one. *)
Theorem C83_values : forall k G R lv p s, builds_ahead k G R lv p ->
  (Lang G p s <-> exists v, Mean G lv p s v) /\ forall v v', Mean G lv p s v -> Mean G lv p s v' -> v = v'.
Proof.
  intros k G R lv p s B. split; [split|].
  - intros H. destruct B as (RE & FE & C & F & _). now apply (lang_mean G lv k R RE FE).
  - intros [v H]. now apply mean_lang in H.
  - intros v v' H H'. pose proof (read_says k lv) as HS. pose proof (ahead_scope k G R lv (read lv) HS p B) as SC.
    assert (X : forall v, Mean G lv p s v -> Con k G no_skip (tells lv) s p 0 tt (CV v (length s) tt)).
    { intros u M. apply (ahead_con k G R lv (read lv) HS p s u s 0 [] tt B M); [lia|cbn; now rewrite app_nil_r|now intros []]. }
    pose proof (C70_deterministic unit k G (tells lv) (read lv) p s 0 tt _ _ SC (Nat.le_0_l _) (X v H) (X v' H')) as E.
    now injection E.
Qed.

(** A text that is no word is rejected with an error, and the cursor is back at the start. *)
Theorem C83_reject : forall S k G R lv (h : handler S) p w st,
  says k lv h -> builds_ahead k G R lv p ->
  (~ Lang G p w <-> exists e, Builds h G [] (PSuffix p PEnd) (cx k w 0) st (Err e) (cx k w 0) st).
Proof.
  intros S k G R lv h p w st HS B.
  pose proof (ahead_scope k G R lv h HS p B) as [C1 C2 C3 C4 C5 C6].
  assert (SC : InPlainScope k G (tells lv) h (PSuffix p PEnd)) by (constructor; auto; apply ok_suffix; auto; constructor).
  rewrite (proj1 (C83_values k G R lv p w B)). split.
  - intros N. destruct (ahead_out k G R lv h HS p w 0 st B (Nat.le_0_l _)) as ([v j st'|e j st'|] & P & M); cbn [meant] in M; [| |destruct M].
    + destruct M as (_ & H2 & M & ->). exists EAnchorEnd.
      apply (C70_failed S k G (tells lv) h (PSuffix p PEnd) w 0 st); [exact SC|lia..|].
      eapply Con_suffix_ko; [exact P|]. unfold no_skip. apply Peg_end_ko.
      destruct (Nat.eq_dec j (length w)) as [->|]; [|lia]. exfalso. apply N. exists v.
      unfold slice in M. rewrite Nat.sub_0_r in M. cbn [skipn] in M. now rewrite firstn_all in M.
    + destruct M as [-> ->]. exists e. apply (C70_failed S k G (tells lv) h (PSuffix p PEnd) w 0 st); [exact SC|lia..|].
      change (CE e 0 st) with (undo 0 (CE e 0 st)). apply Con_suffix1; [exact P|exact I].
  - intros (e & X) (v & M). apply (C83_whole S k G R lv h p w st v HS B) in M.
    apply (C70_built S k G (tells lv) h (PSuffix p PEnd) w 0 st) in M; [|exact SC|lia..].
    apply (C70_failed S k G (tells lv) h (PSuffix p PEnd) w 0 st) in X; [|exact SC|lia..].
    pose proof (C70_deterministic S k G (tells lv) h _ w 0 st _ _ SC (Nat.le_0_l _) M X). discriminate.
Qed.

(** ** A calculator *)

(** [expr = term (("+" | "-") term)*], [term = factor ("*" factor)*], [factor = digit+ | "(" expr ")"],
    the handle of [expr] being number 0.  The mappers turn digits into their number and a list of
    operators and operands into the result. *)
Definition decimal (ds : text) : Z := fold_left (fun a x => (10 * a + (Z.of_N x - 48))%Z) ds 0%Z.
Definition apply_op (c : item) (a b : Z) : Z := if N.eqb c 43 then (a + b)%Z else if N.eqb c 45 then (a - b)%Z else (a * b)%Z.
Definition to_num (v : val) : res val := match v with VText t => Ok (VNum (decimal t)) | _ => Err EFail end.
Fixpoint run (a : Z) (l : list val) : res val :=
  match l with
  | [] => Ok (VNum a)
  | VPair (VText [c]) (VNum b) :: r => run (apply_op c a b) r
  | _ => Err EFail
  end.
Definition eval (v : val) : res val := match v with VPair (VNum a) (VList l) => run a l | _ => Err EFail end.

Definition addop : neu := NSet [43; 45]%N.
Definition mulop : neu := NSet [42]%N.
Definition level (p : pat) (o : neu) : pat :=
  PMap (PThen p (PRepeat (PThen (POnce o CEmpty) p) (CRange (Incl 0) Unb))) eval.
Definition factor : pat := POr (PMap number to_num) (PEnclose (PRef 0) (PLit [40]%N) (PLit [41]%N)).
Definition calc : pat := level (level factor mulop) addop.
Definition calc_env : env := [Some calc].
Definition calc_info (i : nat) : info :=
  Info false (fun x => is_match NAsciiDigit x = true \/ x = 40%N)
    (fun x => is_match NAsciiDigit x = true \/ is_match addop x = true \/ is_match mulop x = true).

(** What such a text stands for, left to right: operands of kind [F] joined by operators. *)
Inductive Chain (F : text -> Z -> Prop) (ops : list item) : text -> Z -> Prop :=
| chain_one s z : F s z -> Chain F ops s z
| chain_more s z c t y : Chain F ops s z -> In c ops -> F t y -> Chain F ops (s ++ c :: t) (apply_op c z y).
Inductive Factor : text -> Z -> Prop :=
| factor_num s : s <> [] -> (forall x, In x s -> (48 <= x <= 57)%N) -> Factor s (decimal s)
| factor_par s z : Chain (Chain Factor [42%N]) [43; 45]%N s z -> Factor (40%N :: s ++ [41%N]) z.
Definition Product : text -> Z -> Prop := Chain Factor [42%N].
Definition Sum : text -> Z -> Prop := Chain Product [43; 45]%N.

Lemma add_in x : is_match addop x = true -> x = 43%N \/ x = 45%N.
Proof. cbn. rewrite !orb_true_iff, !N.eqb_eq. intuition (subst; auto; try discriminate). Qed.
Lemma mul_in x : is_match mulop x = true -> x = 42%N.
Proof. cbn. rewrite !orb_true_iff, !N.eqb_eq. intuition (subst; auto; try discriminate). Qed.
Ltac sets := repeat match goal with
  | H : False |- _ => destruct H
  | H : _ /\ _ |- _ => destruct H
  | H : _ \/ _ |- _ => destruct H
  | H : is_match addop _ = true |- _ => apply add_in in H
  | H : is_match mulop _ = true |- _ => apply mul_in in H
  | H : Some _ = Some _ |- _ => injection H as H
  | H : ?x = _ |- _ => is_var x; subst x
  | H : _ = ?x |- _ => is_var x; subst x
  end; try discriminate.

Notation MM := (Mean calc_env VText).
Lemma run_num l : forall a v, run a l = Ok v -> exists z, v = VNum z.
Proof.
  induction l as [|u l IH]; cbn; intros a v E; [injection E as <-; eauto|].
  destruct u as [| | | |[| | |t| | | |] [|b| | | | | |]| | |]; try discriminate E; destruct t as [|c [|c' t]]; try discriminate E. eauto.
Qed.
Lemma level_num p o s v : MM (level p o) s v -> exists z, v = VNum z.
Proof.
  intros H. inversion H; subst; [contradiction|]. match goal with E : eval ?u = Ok v |- _ => destruct u as [| | | |[] []| | |]; try discriminate E; now apply run_num in E end.
Qed.
Lemma ref_num s v : MM (PRef 0) s v -> exists z, v = VNum z.
Proof. intros H. inversion H; subst; [contradiction|]. match goal with E : env_get _ _ = Some _ |- _ => injection E as <- end. eapply level_num; eauto. Qed.
Lemma factor_value s v : MM factor s v -> exists z, v = VNum z.
Proof.
  intros H. inversion H; subst; [contradiction| |].
  - match goal with H : MM (PMap _ _) _ _ |- _ => inversion H; subst; [contradiction|] end.
    match goal with E : to_num ?u = Ok v |- _ => destruct u; try discriminate E; injection E as <-; eauto end.
  - match goal with H : MM (PEnclose _ _ _) _ _ |- _ => inversion H; subst; [contradiction|] end. eapply ref_num; eauto.
Qed.

(** The values of the operators and operands behind the first one. *)
Lemma tail_shape p o vs s : (forall s v, MM p s v -> exists z, v = VNum z) ->
  Vals (MM (PThen (POnce o CEmpty) p)) vs s -> forall a, exists u, run a vs = Ok u.
Proof.
  intros P H. induction H as [|v vs s t A H IH]; intros a; [cbn; eauto|].
  inversion A; subst; [contradiction|].
  match goal with B : MM (POnce _ _) _ _ |- _ => inversion B; subst end.
  match goal with B : Lang _ (POnce _ _) _ |- _ => inversion B; subst end.
  match goal with B : MM p _ _ |- _ => destruct (P _ _ B) as [z ->] end. cbn. apply IH.
Qed.
Lemma level_fed p o : (forall s v, MM p s v -> exists z, v = VNum z) ->
  forall s v, MM (PThen p (PRepeat (PThen (POnce o CEmpty) p) (CRange (Incl 0) Unb))) s v -> exists u, eval v = Ok u.
Proof.
  intros P s v H. inversion H; subst; [contradiction|].
  match goal with B : MM (PRepeat _ _) _ _ |- _ => inversion B; subst; [contradiction|] end.
  match goal with B : MM p _ _ |- _ => destruct (P _ _ B) as [z ->] end. cbn. eapply tail_shape; eauto.
Qed.

Lemma calc_ready : builds_ahead KStr calc_env calc_info VText (PRef 0).
Proof.
  assert (NE : forall l a, run a l <> OOF).
  { induction l as [|u l IH]; intros a; [discriminate|]. cbn.
    destruct u as [| | | |[| | |t| | | |] [|b| | | | | |]| | |]; try discriminate; destruct t as [|c [|c' t]]; try discriminate. apply IH. }
  assert (EE : forall v, eval v <> OOF) by (intros [| | | |[] []| | |]; try discriminate; apply NE).
  split; [|split; [|split; [exact I|split; [exact I|]]]].
  - intros [|i]; [|split; [discriminate|intros p E; destruct i; discriminate E]].
    split; [discriminate|intros p [= <-]].
    split; [cbn [calc level factor number ll1 info_of]|]; repeat split; try discriminate.
    all: try (intros x; cbn -[is_match]; unfold of, none; intros; sets; fail).
    all: intros x; cbn -[is_match]; unfold of, none; intros; sets; auto.
  - intros [|i] p E; [|destruct i; discriminate E]. injection E as <-. cbn [calc level factor number fed].
    repeat split; auto; try (apply level_fed; first [apply factor_value|apply level_num]).
    + intros []; discriminate.
    + intros s v H. inversion H; subst; cbn; eauto.
    + intros []; discriminate.
    + intros s v H. inversion H; subst; cbn; eauto.
    + intros []; discriminate.
    + intros s v H. inversion H; subst; cbn; eauto.
    + intros []; discriminate.
    + intros s v H. inversion H; subst; cbn; eauto.
  - exists (fun _ => true), (fun _ => true), (fun _ => 0), 1, 1. repeat split.
    all: intros; try (destruct x as [|x]; [|destruct x; discriminate]).
    all: match goal with E : env_get _ _ = Some _ |- _ => injection E as <- end; reflexivity.
Qed.

Section ChainMap.
  Variable F F' : text -> Z -> Prop.
  Variable ops : list item.
  Variable f : forall s z, F s z -> F' s z.
  Fixpoint chain_map s z (H : Chain F ops s z) : Chain F' ops s z :=
    match H in Chain _ _ s z return Chain F' ops s z with
    | chain_one _ _ s z a => chain_one F' ops s z (f s z a)
    | chain_more _ _ s z c t y a b d => chain_more F' ops s z c t y (chain_map s z a) b (f t y d)
    end.
End ChainMap.

Lemma vals_snoc M vs s v t : Vals M vs s -> M t v -> Vals M (vs ++ [v]) (s ++ t).
Proof.
  intros H A. induction H as [|u vs s s' B H IH]; [rewrite <- (app_nil_r t); cbn; repeat constructor; auto; now rewrite app_nil_r|].
  cbn. rewrite <- app_assoc. now constructor.
Qed.
Lemma run_app l l' : forall a z, run a l = Ok (VNum z) -> run a (l ++ l') = run z l'.
Proof.
  induction l as [|u l IH]; cbn; intros a z E; [now injection E as ->|].
  destruct u as [| | | |[| | |t| | | |] [|b| | | | | |]| | |]; try discriminate E; destruct t as [|c [|c' t]]; try discriminate E. now apply IH.
Qed.

Lemma digit_range x : is_match NAsciiDigit x = true <-> (48 <= x <= 57)%N.
Proof. cbn [is_match]. unfold is_ascii_digit, between_N. rewrite andb_true_iff, !N.leb_le. lia. Qed.

(** A chain is read by the parser of its level. *)
Lemma chain_mean p o ops s z : (forall x, In x ops -> is_match o x = true) ->
  Chain (fun s z => MM p s (VNum z)) ops s z -> MM (level p o) s (VNum z).
Proof.
  intros O H.
  assert (X : exists s0 z0 s1 vs, s = s0 ++ s1 /\ MM p s0 (VNum z0) /\ Vals (MM (PThen (POnce o CEmpty) p)) vs s1 /\ run z0 vs = Ok (VNum z)).
  { induction H as [s z A|s z c t y H IH IC A].
    - exists s, z, [], []. rewrite app_nil_r. repeat split; auto. constructor.
    - destruct IH as (s0 & z0 & s1 & vs & -> & B & V & E).
      exists s0, z0, (s1 ++ c :: t), (vs ++ [VPair (VText [c]) (VNum y)]). rewrite <- app_assoc. repeat split; auto.
      + apply vals_snoc; [exact V|]. apply (M_then _ _ _ _ [c] t); [|exact A]. apply (M_leaf _ _ (POnce o CEmpty) [c]); [exact I|].
        constructor. auto.
      + now rewrite (run_app _ _ _ _ E). }
  destruct X as (s0 & z0 & s1 & vs & -> & A & V & E). apply (M_map _ _ _ eval _ (VPair (VNum z0) (VList vs))); [|exact E].
  apply (M_then _ _ _ _ s0 s1); [exact A|]. apply M_repeat; [|exact V]. split; [apply Nat.le_0_l|exact I].
Qed.
(** And conversely. *)
Lemma mean_chain (F : text -> Z -> Prop) p o ops s v :
  (forall x, is_match o x = true -> In x ops) ->
  (forall t u, length t <= length s -> MM p t u -> exists z, u = VNum z /\ F t z) ->
  MM (level p o) s v -> exists z, v = VNum z /\ Chain F ops s z.
Proof.
  intros O P H. inversion H as [| | | | | | | | | | | | | | | |? ? ? u ? A E| | |]; subst; [contradiction|].
  inversion A as [| |? ? s0 s1 a b B D| | | | | | | | | | | | | | | | |]; subst; [contradiction|].
  inversion D as [| | | | | | | | | | | |? ? vs ? IR V| | | | | | |]; subst; [contradiction|].
  rewrite app_length in P. destruct (P s0 a ltac:(lia) B) as (z0 & -> & F0). cbn [eval] in E.
  assert (P' : forall t u, length t <= length s1 -> MM p t u -> exists z, u = VNum z /\ F t z) by (intros; apply P; auto; lia).
  clear P A B D IR H. assert (C : Chain F ops s0 z0) by now apply chain_one. clear F0. revert s0 z0 C E.
  induction V as [|w vs t t' X V IH]; intros s0 z0 C E.
  - injection E as <-. exists z0. rewrite app_nil_r. auto.
  - inversion X as [| |? ? c1 t1 a b X1 X2| | | | | | | | | | | | | | | | |]; subst; [contradiction|].
    inversion X1; subst. match goal with B : Lang _ (POnce _ _) _ |- _ => inversion B; subst end.
    destruct (P' t1 b) as (y & -> & FY); [rewrite !app_length; lia|exact X2|].
    cbn [run] in E. rewrite app_assoc. apply (IH ltac:(intros; apply P'; auto; rewrite !app_length; lia) _ (apply_op x z0 y)); [|exact E].
    cbn [app]. apply chain_more; auto.
Qed.

Lemma factor_mean : forall s z, Factor s z -> MM factor s (VNum z).
Proof.
  fix F 3. intros s z H. destruct H as [s N D|s z C].
  - apply M_or_l. eapply M_map; [apply (M_leaf _ _ number s)|reflexivity]; [exact I|]. constructor; [exact N|].
    intros x Ix. apply digit_range. auto.
  - apply M_or_r. apply (M_enclose _ _ (PRef 0) (PLit [40]%N) (PLit [41]%N) [40%N] s [41%N]); [constructor| |constructor].
    eapply M_ref; [reflexivity|]. apply (chain_mean _ _ [43; 45]%N); [intros x [<-|[<-|[]]]; reflexivity|].
    apply (chain_map (Chain Factor [42%N]) (fun s z => MM (level factor mulop) s (VNum z)) [43; 45]%N); [|exact C].
    intros s' z' C'. apply (chain_mean _ _ [42]%N); [intros x [<-|[]]; reflexivity|].
    exact (chain_map Factor (fun s z => MM factor s (VNum z)) [42%N] F s' z' C').
Qed.

Lemma calc_means s v : MM (PRef 0) s v <-> exists z, v = VNum z /\ Sum s z.
Proof.
  split.
  - revert v. remember (length s) as n eqn:E. assert (Hn : length s <= n) by lia. clear E. revert s Hn.
    induction n as [|n IH]; intros s Hn v H.
    all: inversion H; subst; [contradiction|]; match goal with E : env_get _ _ = Some _ |- _ => injection E as <- end.
    all: match goal with H : MM calc _ _ |- _ => revert H end; apply mean_chain; [intros x Hx; apply add_in in Hx as [->| ->]; cbn; auto|].
    all: intros t u Ht; apply mean_chain; [intros x Hx; apply mul_in in Hx as ->; cbn; auto|].
    all: intros t' u' Ht' M; inversion M; subst; [contradiction| |].
    all: try (match goal with X : MM (PMap _ _) _ _ |- _ => inversion X; subst; [contradiction|] end;
      match goal with X : MM number _ _ |- _ => inversion X; subst end;
      match goal with X : to_num _ = Ok _ |- _ => injection X as <- end;
      match goal with X : Lang _ number _ |- _ => inversion X; subst end;
      eexists; split; [reflexivity|]; apply factor_num; [assumption|]; intros x Hx; apply digit_range; auto).
    all: match goal with X : MM (PEnclose _ _ _) _ _ |- _ => inversion X; subst; [contradiction|] end;
      repeat match goal with X : Lang _ (PLit _) _ |- _ => inversion X; subst; clear X end; cbn [app] in *;
      cbn [length] in Ht'; rewrite app_length in Ht'; cbn [length] in Ht'.
    + lia.
    + match goal with X : MM (PRef 0) ?s0 u' |- _ => destruct (IH s0 ltac:(lia) u' X) as (z & -> & SZ) end.
      exists z. split; [reflexivity|]. now apply factor_par.
  - intros (z & -> & H). eapply M_ref; [reflexivity|]. apply (chain_mean _ _ [43; 45]%N); [intros x [<-|[<-|[]]]; reflexivity|].
    apply (chain_map Product (fun s z => MM (level factor mulop) s (VNum z)) [43; 45]%N); [|exact H].
    intros s' z' C'. apply (chain_mean _ _ [42]%N); [intros x [<-|[]]; reflexivity|].
    exact (chain_map Factor (fun s z => MM factor s (VNum z)) [42%N] factor_mean s' z' C').
Qed.

(** The calculator computes what the text stands for, rejects every other text, and a text stands for
    one number at most. *)
Theorem C83_calculator : forall w,
  (forall z, Builds extract_text calc_env [] (PSuffix (PRef 0) PEnd) (cx KStr w 0) tt (Ok (VNum z)) (cx KStr w (length w)) tt <-> Sum w z) /\
  ((forall z, ~ Sum w z) <-> exists e, Builds extract_text calc_env [] (PSuffix (PRef 0) PEnd) (cx KStr w 0) tt (Err e) (cx KStr w 0) tt) /\
  (forall z z', Sum w z -> Sum w z' -> z = z').
Proof.
  intros w. pose proof (extract_says KStr) as HS. pose proof calc_ready as B. split; [|split].
  - intros z. rewrite (C83_whole unit KStr calc_env calc_info VText extract_text (PRef 0) w tt (VNum z) HS B), calc_means.
    split; [intros (z' & [= <-] & H); exact H|eauto].
  - rewrite <- (C83_reject unit KStr calc_env calc_info VText extract_text (PRef 0) w tt HS B).
    rewrite (proj1 (C83_values KStr calc_env calc_info VText (PRef 0) w B)). split.
    + intros N (v & M). apply calc_means in M. destruct M as (z & _ & H). exact (N z H).
    + intros N z H. apply N. exists (VNum z). apply calc_means. eauto.
  - intros z z' H H'. assert (E : VNum z = VNum z'); [|now injection E].
    apply (proj2 (C83_values KStr calc_env calc_info VText (PRef 0) w B)); apply calc_means; eauto.
Qed.

(** "2*(3+4)-5" stands for 9, and the calculator says so; before a semicolon too. *)
Definition calc_text : text := [50; 42; 40; 51; 43; 52; 41; 45; 53]%N.
Lemma calc_word : Sum calc_text 9.
Proof.
  assert (D : forall x, (48 <= x <= 57)%N -> Factor [x] (decimal [x])).
  { intros x Hx. apply factor_num; [discriminate|]. now intros y [<-|[]]. }
  apply (chain_more _ _ [50; 42; 40; 51; 43; 52; 41]%N 14 45%N [53%N] 5); [|cbn; auto|apply chain_one, (D 53%N); lia].
  apply chain_one. apply (chain_more _ _ [50]%N 2 42%N [40; 51; 43; 52; 41]%N 7); [apply chain_one, (D 50%N); lia|cbn; auto|].
  apply (factor_par [51; 43; 52]%N). apply (chain_more _ _ [51]%N 3 43%N [52]%N 4); [|cbn; auto|apply chain_one, (D 52%N); lia].
  apply chain_one, chain_one, (D 51%N). lia.
Qed.
Example C83_build_case : says KStr VText extract_text /\ builds_ahead KStr calc_env calc_info VText (PRef 0) /\
  MM (PRef 0) calc_text (VNum 9) /\ ~ ahead [59]%N (ex (info_of calc_info (PRef 0))) /\
  Builds extract_text calc_env [] (PRef 0) (cx KStr ([32] ++ calc_text ++ [59])%N 1) tt (Ok (VNum 9)) (cx KStr ([32] ++ calc_text ++ [59])%N 10) tt.
Proof.
  split; [apply extract_says|]. split; [exact calc_ready|]. split; [apply calc_means; exists 9%Z; split; [reflexivity|exact calc_word]|].
  split; [cbn -[is_match]; intros [H|[H|H]]; discriminate H|]. exists 90. split; [vm_compute; reflexivity|discriminate].
Qed.
Example C83_reject_case : says KStr VText extract_text /\ builds_ahead KStr calc_env calc_info VText (PRef 0) /\
  Builds extract_text calc_env [] (PSuffix (PRef 0) PEnd) (cx KStr (calc_text ++ [45])%N 0) tt (Err EAnchorEnd) (cx KStr (calc_text ++ [45])%N 0) tt.
Proof.
  split; [apply extract_says|]. split; [exact calc_ready|]. exists 90. split; [vm_compute; reflexivity|discriminate].
Qed.

Print Assumptions C83_build.
Print Assumptions C83_sound.
Print Assumptions C83_whole.
Print Assumptions C83_values.
Print Assumptions C83_reject.
Print Assumptions C83_calculator.
