(** The [use] declarations of tests/11_policy.rs, on a context that skips white space.

    Specification: [Ident], [Path], [Use] and [Uses] say which front of a text is a name, a path, a
    declaration and a list of declarations, and what is left behind it. *)

From Coq Require Import List Arith NArith Bool Lia.
From Verif Require Import Base Text Context Neu Syntax Regex Ctor Api TextProofs Spec Core Obs UnitProps CtorSpec CtorLaws PolicyLaws
  ApiLaws Pieces SkipPieces SkipText Decls.
Import ListNotations.

(** ** Specification *)

(** White space, the letters a name can start with, and those it can go on with. *)
Definition Blank (x : N) : Prop :=
  In x [9; 10; 11; 12; 13; 32; 133; 160; 5760; 8192; 8193; 8194; 8195; 8196; 8197; 8198; 8199; 8200;
        8201; 8202; 8232; 8233; 8239; 8287; 12288]%N.
Definition Letter (x : N) : Prop := (65 <= x <= 90 \/ 97 <= x <= 122 \/ x = 95)%N.
Definition Part (x : N) : Prop := Letter x \/ (48 <= x <= 57)%N.
(** [r] is [s] followed by [t]; [s] consists of items in [P] and [t] does not start with one. *)
Definition Longest (P : N -> Prop) (r s t : text) : Prop :=
  r = s ++ t /\ Forall P s /\ forall y t', t = y :: t' -> ~ P y.
(** [r] is white space followed by [r'], which does not start with white space. *)
Definition Gap (r r' : text) : Prop := exists g, Longest Blank r g r'.
(** Behind white space the text [r] goes on with [l]; [t] is the rest. *)
Definition Token (l r t : text) : Prop := Gap r (l ++ t).
(** A name: a letter, then the longest run of letters and digits; white space between the two becomes
    part of the name. *)
Definition Ident (r id t : text) : Prop :=
  exists x g s m, r = x :: g ++ m /\ Letter x /\ Longest Blank (g ++ m) g m /\ Longest Part m s t /\ id = x :: g ++ s.
Definition colons : text := [58; 58]%N.
Definition semicolon : text := [59]%N.
Definition asterisk : text := [42]%N.
Definition use_word : text := [117; 115; 101]%N.
(** Names separated by double colons; a double colon at the end is taken, too. *)
Inductive Path : text -> list text -> text -> Prop :=
| Path_stop r r' : Gap r r' -> (forall id t, ~ Ident r' id t) -> Path r [] r
| Path_last r r' id t : Gap r r' -> Ident r' id t -> (forall m, ~ Token colons t m) -> Path r [id] t
| Path_more r r' id t m ids e : Gap r r' -> Ident r' id t -> Token colons t m -> Path m ids e -> Path r (id :: ids) e.
(** The word, a path with at least one name, perhaps an asterisk, a semicolon. *)
Definition Use (r : text) (ids : list text) (star : bool) (t : text) : Prop :=
  exists m n o, Token use_word r m /\ Path m ids n /\ ids <> [] /\
    (if star then Token asterisk n o else (forall o', ~ Token asterisk n o') /\ o = n) /\ Token semicolon o t.
(** As many declarations as there are at the front of the text. *)
Inductive Uses : text -> list (list text * bool) -> text -> Prop :=
| Uses_stop r : (forall ids star t, ~ Use r ids star t) -> Uses r [] r
| Uses_more r ids star m l t : Use r ids star m -> Uses m l t -> Uses r ((ids, star) :: l) t.

(** The value of a declaration: the vector of its names and the optional asterisk. *)
Definition use_val (d : list text * bool) : val :=
  VPair (VList (map VText (fst d))) (if snd d then VSome (VText asterisk) else VNone).
(** The call [CharsCtx::new(w).skip_before(neu::whitespace().many0()).ctor(&p)] returns [r] and leaves
    the context [c]. *)
Definition Reads (p : pat) (w : text) (r : res val) (c : ctx) : Prop :=
  Builds extract_text [] d_policy p (Ctx KStr w 0) tt r c tt.

(** ** The units *)

Lemma blank_ws x : is_match NWhitespace x = true <-> Blank x.
Proof. apply (ws_set x). Qed.
Lemma first_letter x : is_match d_first x = true <-> Letter x.
Proof.
  cbn [d_first Methods.u_or is_match]. unfold is_ascii_alpha, is_ascii_lower, is_ascii_upper, between_N, Letter.
  rewrite !orb_true_iff, !andb_true_iff, !N.leb_le, N.eqb_eq. intuition lia.
Qed.
Lemma rest_part x : is_match d_rest x = true <-> Part x.
Proof.
  cbn [d_rest Methods.u_or is_match]. unfold is_ascii_alnum, is_ascii_alpha, is_ascii_lower, is_ascii_upper, is_ascii_digit, between_N, Part, Letter.
  rewrite !orb_true_iff, !andb_true_iff, !N.leb_le, N.eqb_eq. intuition lia.
Qed.
Lemma part_not_blank x : Part x -> ~ Blank x.
Proof.
  unfold Part, Letter, Blank. intros H I. repeat (destruct I as [<-|I]; [lia|]). destruct I.
Qed.

Lemma longest_run n P r s t : (forall x, is_match n x = true <-> P x) -> (Longest P r s t <-> Run_of n r s t).
Proof.
  intros H. unfold Longest, Run_of. assert (F : Forall P s <-> Forall (fun x => is_match n x = true) s).
  { split; apply Forall_impl; intros; now apply H. }
  assert (T : (forall y t', t = y :: t' -> ~ P y) <-> trim (is_match n) t = t).
  { split.
    - intros N. destruct t as [|y t]; [reflexivity|]. apply trim_id. destruct (is_match n y) eqn:E; [|reflexivity]. exfalso. eapply N; [reflexivity|]. now apply H.
    - intros E y t' ->. apply trim_head in E. intros X. apply H in X. congruence. }
  rewrite F, T. tauto.
Qed.
Notation tr := (trim (is_match NWhitespace)).
Lemma gap_trim r r' : Gap r r' <-> r' = tr r.
Proof.
  unfold Gap. split.
  - intros (g & L). apply (longest_run NWhitespace _ _ _ _ blank_ws) in L as (-> & F & E). rewrite trim_app by exact F. now symmetry.
  - intros ->. destruct (trim_split (is_match NWhitespace) r) as (g & E & F). exists g. apply (longest_run NWhitespace _ _ _ _ blank_ws).
    split; [exact E|]. split; [exact F|]. apply trim_idem.
Qed.
Lemma token_trim l r t : Token l r t <-> tr r = l ++ t.
Proof. unfold Token. rewrite gap_trim. split; congruence. Qed.
Lemma token_idem l r t : Token l (tr r) t <-> Token l r t.
Proof. rewrite !token_trim. now rewrite trim_idem. Qed.
Lemma gap_idem r r' : Gap (tr r) r' <-> Gap r r'.
Proof. rewrite !gap_trim. now rewrite trim_idem. Qed.

(** ** The parsers *)

Notation Makes := (Makes NWhitespace).
Notation Eats := (Eats NWhitespace).
Notation tfine := (tfine NWhitespace).
Notation fine := (fine NWhitespace).

Lemma lit_ko (l r : text) : (~ exists t, r = l ++ t) <-> forall t, r <> l ++ t.
Proof. split; [intros N t E; apply N; eauto|intros N (t & E); now apply (N t)]. Qed.

Section PatIdent.
  Variables (h : neu) (q : pat) (H P : N -> Prop) (ok : text -> Prop).
  Hypothesis HH : forall x, is_match h x = true <-> H x.
  Hypothesis CQ : core KStr [] (skip_run NWhitespace) q.
  Hypothesis HQ : forall w i j, i <= length w -> ((exists b, Peg KStr [] (skip_run NWhitespace) w q i (OK b j)) <->
    exists s, Longest P (skipn i w) s (skipn j w) /\ ok s /\ j = i + length s).
  (** A letter, white space, a run, all matched as one piece. *)
  Lemma pat_ident : Makes (PPat (PThen (POnce h CEmpty) q))
    (fun r v t => exists x g s m, r = x :: g ++ m /\ H x /\ Longest Blank (g ++ m) g m /\ Longest P m s t /\ ok s /\ v = VText (x :: g ++ s)).
  Proof.
    assert (C1 : core KStr [] (skip_run NWhitespace) (POnce h CEmpty)) by (repeat constructor).
    intros w i v t Hi Hs. split.
    - intros (j & T & <-). apply tr_pat in T as (b & P0 & ->). inversion P0; subst.
      match goal with A : Spec.Peg _ _ _ _ (POnce _ _) _ _, B : Spec.Peg _ _ _ _ q _ _ |- _ => rename A into A0; rename B into B0 end.
      apply peg_once in A0 as (-> & -> & x & t & E & M). apply HH in M. replace (S i) with (i + 1) in * by lia.
      assert (L : i + 1 <= length w). { apply (f_equal (@length item)) in E. rewrite skipn_length in E. cbn in E. lia. }
      assert (E1 : skipn (i + 1) w = t) by (rewrite skipn_add, E; reflexivity).
      destruct (prefix_cut (is_match NWhitespace) t) as (g & m & Eg & Lg & Fg & Em).
      assert (Em' : skipn (skip_run NWhitespace w (i + 1)) w = m) by (rewrite skip_trim, E1; now symmetry).
      destruct (proj1 (HQ w _ j (s_le NWhitespace w _ L))) as (s & Ls & O & Ej); [eauto|]. rewrite Em' in Ls.
      exists x, g, s, m. rewrite E, Eg. split; [reflexivity|]. split; [exact M|].
      split; [apply (longest_run NWhitespace _ _ _ _ blank_ws); split; [reflexivity|]; split; [exact Fg|]; rewrite Em; apply trim_idem|].
      split; [exact Ls|]. split; [exact O|]. f_equal.
      pose proof (s_bnd NWhitespace w q _ _ j CQ (s_le NWhitespace w _ L) (s_idem NWhitespace w _ L) B0) as Lj.
      assert (Li : i + 1 <= skip_run NWhitespace w (i + 1)) by (unfold skip_run; lia).
      destruct Ls as (Es & _).
      assert (X : skipn i w = (x :: g ++ s) ++ skipn j w) by (rewrite E, Eg, Es; cbn; now rewrite <- app_assoc).
      rewrite (slice_pre w i j ltac:(lia)) in X. now apply app_inv_tail in X.
    - intros (x & g & s & m & E & M & Lg & Ls & O & ->).
      assert (L : i + 1 <= length w). { apply (f_equal (@length item)) in E. rewrite skipn_length in E. cbn in E. lia. }
      assert (E1 : skipn (i + 1) w = g ++ m) by (rewrite skipn_add, E; reflexivity).
      apply (longest_run NWhitespace _ _ _ _ blank_ws) in Lg as (_ & Fg & Tg).
      assert (Em' : skipn (skip_run NWhitespace w (i + 1)) w = m) by (rewrite skip_trim, E1, trim_app by exact Fg; exact Tg).
      set (a := skip_run NWhitespace w (i + 1)) in *. pose proof (s_le NWhitespace w _ L) as La. fold a in La.
      assert (Et : skipn (a + length s) w = t) by (rewrite skipn_add, Em', (proj1 Ls), skipn_app, skipn_all, Nat.sub_diag; reflexivity).
      destruct (proj2 (HQ w a (a + length s) La)) as (b & B); [exists s; rewrite Em', Et; auto|].
      exists (a + length s). split; [|exact Et]. apply tr_pat. exists i. split.
      + eapply Peg_then; [apply (proj2 (peg_once KStr [] (skip_run NWhitespace) w i h i (i + 1))); split; [reflexivity|]; split; [lia|]; exists x, (g ++ m); split; [exact E|now apply HH]|exact B].
      + unfold is_slice. f_equal. symmetry. pose proof (s_bnd NWhitespace w q a b _ CQ La (s_idem NWhitespace w _ L) B) as Lj.
        assert (Li : i + 1 <= a) by (unfold a, skip_run; lia).
        assert (X : skipn i w = (x :: g ++ s) ++ skipn (a + length s) w) by (rewrite E, Et, (proj1 Ls); cbn; now rewrite <- app_assoc).
        rewrite (slice_pre w i (a + length s) ltac:(lia)) in X. now apply app_inv_tail in X.
  Qed.
End PatIdent.

Notation skw := (skip_run NWhitespace).
Lemma run_at n P (w : text) i j : (forall x, is_match n x = true <-> P x) ->
  (j = i + prefix_len (is_match n) (skipn i w) <-> exists s, Longest P (skipn i w) s (skipn j w) /\ j = i + length s).
Proof.
  intros H. pose proof (prefix_len_le (is_match n) (skipn i w)) as L. split.
  - intros ->. exists (firstn (prefix_len (is_match n) (skipn i w)) (skipn i w)). split.
    + apply (longest_run n P _ _ _ H). apply run_of. now rewrite skipn_add.
    + rewrite firstn_length. lia.
  - intros (s & X & ->). apply (longest_run n P _ _ _ H) in X. apply run_of in X as (E & _). rewrite E, firstn_length. lia.
Qed.
Lemma many0_at n P w i j : (forall x, is_match n x = true <-> P x) ->
  ((exists b, Peg KStr [] skw w (PMany0 n CEmpty) i (OK b j)) <-> exists s, Longest P (skipn i w) s (skipn j w) /\ True /\ j = i + length s).
Proof.
  intros H. split.
  - intros (b & X). apply peg_many0 in X as (-> & X). apply (run_at n P _ _ _ H) in X as (s & X & Y). eauto.
  - intros (s & X & _ & Y). exists i. apply peg_many0. split; [reflexivity|]. apply (run_at n P _ _ _ H). eauto.
Qed.
Lemma many1_at n P w i j : (forall x, is_match n x = true <-> P x) ->
  ((exists b, Peg KStr [] skw w (PMany1 n CEmpty) i (OK b j)) <-> exists s, Longest P (skipn i w) s (skipn j w) /\ s <> [] /\ j = i + length s).
Proof.
  intros H. split.
  - intros (b & X). apply peg_many1 in X as (-> & X & L). pose proof X as Y. apply (run_at n P _ _ _ H) in Y as (s & Y & Z).
    exists s. split; [exact Y|]. split; [|exact Z]. intros ->. cbn in Z. lia.
  - intros (s & X & N & Y). exists i. apply peg_many1. split; [reflexivity|].
    assert (Z : j = i + prefix_len (is_match n) (skipn i w)) by (apply (run_at n P _ _ _ H); eauto). split; [exact Z|].
    destruct s; [now elim N|]. cbn in Y. lia.
Qed.

Lemma ident_makes : Makes d_ident (fun r v t => exists id, Ident r id t /\ v = VText id).
Proof.
  eapply makes_ext; [|apply (pat_ident d_first (PMany0 d_rest CEmpty) Letter Part (fun _ => True) first_letter); [repeat constructor|]].
  - intros r v t. cbn. unfold Ident. split.
    + intros (x & g & s & m & A & B & C & D & _ & ->). eauto 12.
    + intros (id & (x & g & s & m & A & B & C & D & ->) & ->). exists x, g, s, m. auto 7.
  - intros w i j _. apply (many0_at d_rest Part). apply rest_part.
Qed.
Lemma ident_tfine : tfine d_ident.
Proof. split; [|reflexivity]. apply tc_pat. repeat constructor. Qed.
Lemma path_tfine : tfine d_path.
Proof. split; [|reflexivity]. apply tc_sep; [apply ident_tfine|constructor]. Qed.
Lemma path_makes : Makes d_path (fun r v t => exists ids, Path r ids t /\ ids <> [] /\ v = VList (map VText ids)).
Proof.
  eapply makes_ext; [|apply (sep_makes NWhitespace d_ident (PLit [58; 58]%N) 1 _ (fun r t => r = [58; 58]%N ++ t) ident_tfine (lit_fine _ _) ident_makes (lit_eats _ _))].
  intros r v t. cbn beta. split.
  - intros (vs & B & L & ->). assert (X : exists ids, Path r ids t /\ vs = map VText ids).
    { clear L. induction B as [r N|r v t (id & I & ->) N|r v m m' vs t (id & I & ->) E B (ids & IH & ->)].
      - exists []. split; [|reflexivity]. eapply Path_stop; [now apply gap_trim|]. intros id t I. apply N. eauto.
      - exists [id]. split; [|reflexivity]. eapply Path_last; [now apply gap_trim|exact I|]. intros m X. apply token_trim in X. apply N. eauto.
      - exists (id :: ids). split; [|reflexivity]. eapply Path_more; [now apply gap_trim|exact I|apply token_trim; exact E|exact IH]. }
    destruct X as (ids & X & ->). exists ids. split; [exact X|]. split; [|reflexivity]. intros ->. cbn in L. lia.
  - intros (ids & P & N & ->). exists (map VText ids). split; [|split; [|reflexivity]].
    + clear N. induction P as [r r' Gp N|r r' id t Gp I N|r r' id t m ids e Gp I T P IH]; apply gap_trim in Gp as ->.
      * apply Between_stop. intros (v & t & id & I & _). now apply (N id t).
      * cbn [map]. apply Between_last; [eauto|]. intros (t' & E). apply (N t'). now apply token_trim.
      * cbn [map]. eapply Between_step; [eauto|apply token_trim; exact T|exact IH].
    + rewrite map_length. destruct ids; [now elim N|cbn; lia].
Qed.
Lemma use_tfine : tfine d_use.
Proof.
  split; [|reflexivity]. apply tc_suffix; [|constructor]. apply tc_prefix; [|constructor]. apply tc_then; [apply path_tfine|].
  apply tc_option. apply tc_leaf; [exact I|constructor].
Qed.
Lemma star_makes : Makes (POption (PLit [42]%N))
  (fun r v t => (r = [42]%N ++ t /\ v = VSome (VText asterisk)) \/ ((forall t', r <> [42]%N ++ t') /\ v = VNone /\ t = r)).
Proof.
  eapply makes_ext; [|apply (option_makes NWhitespace _ _ (conj (tc_leaf _ _ _ _ (PLit [42]%N) I ltac:(constructor)) eq_refl) (lit_makes _ _))].
  intros r v t. cbn beta. split.
  - intros [(a & (E & ->) & ->)|(N & -> & ->)]; [auto|]. right. split; [|auto]. intros t' E. apply N. eauto.
  - intros [(E & ->)|(N & -> & ->)]; [left; eauto|]. right. split; [|auto]. intros (a & t' & E & _). now apply (N t').
Qed.
Lemma use_makes : Makes d_use (fun r v t => exists d, Use r (fst d) (snd d) t /\ v = use_val d).
Proof.
  eapply makes_ext'; [|apply suffix_makes with (E := fun r t => r = [59]%N ++ t); [|apply prefix_makes with (E := fun r t => r = [117; 115; 101]%N ++ t); [constructor|apply then_makes; [apply path_tfine|apply path_makes|apply star_makes]|apply lit_eats]|apply lit_eats]].
  2: { apply tc_prefix; [|constructor]. apply tc_then; [apply path_tfine|]. apply tc_option. apply tc_leaf; [exact I|constructor]. }
  intros r v t Hr. cbn beta. split.
  - intros (o & (m & E & a & n & b & (ids & P & N & ->) & S & ->) & F).
    assert (P' : Path m ids n).
    { inversion P; subst; [now elim N| |].
      - eapply Path_last; eauto. now apply gap_idem.
      - eapply Path_more; eauto. now apply gap_idem. }
    destruct S as [(S & ->)|(S & -> & ->)].
    + exists (ids, true). split; [|reflexivity]. exists m, n, o. split; [apply token_trim; now rewrite Hr|]. split; [exact P'|]. split; [exact N|].
      split; apply token_trim; auto.
    + exists (ids, false). split; [|reflexivity]. exists m, n, n. split; [apply token_trim; now rewrite Hr|]. split; [exact P'|]. split; [exact N|].
      split; [split; [|reflexivity]|].
      * intros o' X. apply token_trim in X. now apply (S o').
      * apply token_trim. now rewrite <- (trim_idem _ n).
  - intros ((ids & star) & (m & n & o & U & P & N & S & F) & ->). cbn [fst snd] in *. apply token_trim in U, F. rewrite Hr in U.
    assert (P' : Path (tr m) ids n).
    { inversion P; subst; [now elim N| |].
      - eapply Path_last; eauto. now apply gap_idem.
      - eapply Path_more; eauto. now apply gap_idem. }
    destruct star.
    + exists o. split; [|exact F]. exists m. split; [exact U|]. eexists _, n, _. split; [eauto|]. split; [|reflexivity].
      left. split; [|reflexivity]. now apply token_trim in S.
    + destruct S as (S & ->). exists (tr n). split; [|now rewrite trim_idem]. exists m. split; [exact U|]. eexists _, n, _. split; [eauto|]. split; [|reflexivity].
      right. split; [|auto]. intros t' E. apply (S t'). now apply token_trim.
Qed.
Lemma use_idem r ids star t : Use (tr r) ids star t <-> Use r ids star t.
Proof. unfold Use. split; intros (m & n & o & U & X); exists m, n, o; (split; [now apply token_idem|exact X]) || (split; [now apply token_idem in U|exact X]). Qed.
Lemma uses_makes : Makes d_uses (fun r v t => exists l, Uses r l t /\ l <> [] /\ v = VList (map use_val l)).
Proof.
  eapply makes_ext; [|apply (collect_makes NWhitespace d_use 1 _ use_tfine use_makes)].
  intros r v t. cbn beta. split.
  - intros (vs & B & L & ->). assert (X : exists l, Uses r l t /\ vs = map use_val l).
    { clear L. induction B as [r N|r v m vs t ((ids & star) & U & ->) B (l & IH & ->)].
      - exists []. split; [|reflexivity]. apply Uses_stop. intros ids star t U. apply N. exists (use_val (ids, star)), t, (ids, star). split; [now apply use_idem|reflexivity].
      - exists ((ids, star) :: l). split; [|reflexivity]. eapply Uses_more; [apply use_idem; exact U|exact IH]. }
    destruct X as (l & X & ->). exists l. split; [exact X|]. split; [|reflexivity]. intros ->. cbn in L. lia.
  - intros (l & P & N & ->). exists (map use_val l). split; [|split; [|reflexivity]].
    + clear N. induction P as [r N|r ids star m l t U P IH].
      * apply Each_stop. intros (v & t & (ids & star) & U & _). apply (N ids star t). now apply use_idem.
      * cbn [map]. eapply Each_step; [|exact IH]. exists (ids, star). split; [apply use_idem; exact U|reflexivity].
    + rewrite map_length. destruct l; [now elim N|cbn; lia].
Qed.
Lemma uses_tfine : tfine d_uses.
Proof. split; [|reflexivity]. apply tc_collect, use_tfine. Qed.
Lemma uses_idem r l t : l <> [] -> (Uses (tr r) l t <-> Uses r l t).
Proof.
  intros N. split; intros U; inversion U; subst; try (now elim N); eapply Uses_more; eauto; now apply use_idem.
Qed.

(** ** C68 *)

(** The list of declarations is read exactly if there is at least one at the front of the text; the
    value is the list of all of them, in order. *)
Theorem C68_uses w v :
  (exists c, Reads d_uses w (Ok v) c) <-> exists l t, Uses w l t /\ l <> [] /\ v = VList (map use_val l).
Proof.
  destruct (skip_builds NWhitespace d_uses _ w uses_tfine uses_makes) as (A & B & _). split.
  - intros (c & R). destruct (A v c (ex_intro _ tt R)) as (t & (l & U & N & ->) & _). exists l, t. split; [now apply uses_idem|auto].
  - intros (l & t & U & N & ->). destruct (B _ t (ex_intro _ l (conj (proj2 (uses_idem w l t N) U) (conj N eq_refl)))) as (y & R & _). eauto.
Qed.
(** The cursor stands behind the last declaration, up to white space. *)
Theorem C68_uses_cursor w v c : Reads d_uses w (Ok v) c ->
  exists l t y, Uses w l t /\ v = VList (map use_val l) /\ c = cx KStr w y /\ exists r, Gap (skipn y w) r /\ Gap t r.
Proof.
  intros R. destruct (skip_builds NWhitespace d_uses _ w uses_tfine uses_makes) as (A & _ & _).
  destruct (A v c (ex_intro _ tt R)) as (t & (l & U & N & ->) & y & -> & _ & Y). exists l, t, y. split; [now apply uses_idem|].
  split; [reflexivity|]. split; [reflexivity|]. exists (tr t). rewrite !gap_trim. auto.
Qed.

Lemma gap_len r r' : Gap r r' -> length r' <= length r.
Proof. intros (g & -> & _). rewrite app_length. lia. Qed.
Lemma token_len l r t : Token l r t -> length t + length l <= length r.
Proof. intros H. apply gap_len in H. rewrite app_length in H. lia. Qed.
Lemma ident_len r id t : Ident r id t -> length t <= length r.
Proof. intros (x & g & s & m & -> & _ & _ & (-> & _) & _). cbn. rewrite !app_length. lia. Qed.
Lemma path_len r ids t : Path r ids t -> length t <= length r.
Proof.
  induction 1 as [| |r r' id t m ids e Gp Id T P IH]; [lia| |];
  repeat match goal with H : Gap _ _ |- _ => apply gap_len in H | H : Ident _ _ _ |- _ => apply ident_len in H | H : Token _ _ _ |- _ => apply token_len in H end; lia.
Qed.
Lemma use_len r ids star t : Use r ids star t -> length t < length r.
Proof.
  intros (m & n & o & U & P & _ & S & F). apply token_len in U, F. apply path_len in P. cbn in U, F.
  destruct star; [apply token_len in S; lia|]. destruct S as (_ & ->). lia.
Qed.
Lemma use_dec r : (exists ids star t, Use r ids star t) \/ forall ids star t, ~ Use r ids star t.
Proof.
  destruct (makes_dec NWhitespace d_use _ r use_tfine use_makes) as [(v & t & (ids & star) & U & _)|N].
  - left. exists ids, star, t. now apply use_idem.
  - right. intros ids star t U. apply N. exists (use_val (ids, star)), t, (ids, star). split; [now apply use_idem|reflexivity].
Qed.
Lemma uses_exist : forall n r, length r <= n -> exists l t, Uses r l t.
Proof.
  induction n as [|n IH]; intros r L; (destruct (use_dec r) as [(ids & star & m & U)|N]; [|eexists [], r; now constructor]).
  - apply use_len in U. lia.
  - pose proof (use_len _ _ _ _ U). destruct (IH m ltac:(lia)) as (l & t & X). exists ((ids, star) :: l), t. econstructor; eauto.
Qed.

(** It is refused exactly if there is none; it never panics. *)
Theorem C68_uses_err w : (exists e c, Reads d_uses w (Err e) c) <-> forall ids star t, ~ Use w ids star t.
Proof.
  destruct (skip_builds NWhitespace d_uses _ w uses_tfine uses_makes) as (_ & _ & C). unfold Reads. rewrite C. split.
  - intros N ids star t U. apply N. destruct (uses_exist _ t (le_n _)) as (l & e & X).
    exists (VList (map use_val ((ids, star) :: l))), e, ((ids, star) :: l). split; [|split; [discriminate|reflexivity]].
    apply uses_idem; [discriminate|]. econstructor; eauto.
  - intros N (v & t & l & U & NE & _). apply (proj1 (uses_idem w l t NE)) in U. inversion U; subst; [now elim NE|]. eapply N; eauto.
Qed.
Theorem C68_total w : (exists v c, Reads d_uses w (Ok v) c) \/ (exists e c, Reads d_uses w (Err e) c).
Proof.
  destruct (use_dec w) as [(ids & star & m & U)|N]; [left|right; now apply C68_uses_err].
  destruct (uses_exist _ m (le_n _)) as (l & e & X). exists (VList (map use_val ((ids, star) :: l))). apply C68_uses.
  exists ((ids, star) :: l), e. split; [econstructor; eauto|]. split; [discriminate|reflexivity].
Qed.

(** Written declarations.  White space can stand between any two tokens, except behind a name of one
    letter. *)
Definition Name (id : text) : Prop := exists x s, id = x :: s /\ Letter x /\ Forall Part s.
Definition Behind (id g : text) : Prop := Forall Blank g /\ (length id = 1 -> g = []).
Inductive WPath : list text -> text -> Prop :=
| WP_one id g : Name id -> Behind id g -> WPath [id] (id ++ g)
| WP_trail id g g' : Name id -> Behind id g -> Forall Blank g' -> WPath [id] (id ++ g ++ colons ++ g')
| WP_more id g g' ids s : Name id -> Behind id g -> Forall Blank g' -> WPath ids s -> WPath (id :: ids) (id ++ g ++ colons ++ g' ++ s).
Inductive WUses : list (list text * bool) -> text -> Prop :=
| WU_nil : WUses [] []
| WU_star ids g g' g'' s l w : Forall Blank g -> Forall Blank g' -> Forall Blank g'' -> WPath ids s -> WUses l w ->
    WUses ((ids, true) :: l) (g ++ use_word ++ g' ++ s ++ asterisk ++ g'' ++ semicolon ++ w)
| WU_plain ids g g' s l w : Forall Blank g -> Forall Blank g' -> WPath ids s -> WUses l w ->
    WUses ((ids, false) :: l) (g ++ use_word ++ g' ++ s ++ semicolon ++ w).

Lemma blanks_trim g r : Forall Blank g -> tr (g ++ r) = tr r.
Proof. intros F. apply trim_app. eapply Forall_impl; [|exact F]. intros x. apply blank_ws. Qed.
Lemma solid_trim y r : ~ Blank y -> tr (y :: r) = y :: r.
Proof. intros N. apply trim_id. destruct (is_match NWhitespace y) eqn:E; [|reflexivity]. elim N. now apply blank_ws. Qed.
Lemma gap_blanks g y r : Forall Blank g -> ~ Blank y -> Gap (g ++ y :: r) (y :: r).
Proof. intros F N. apply gap_trim. now rewrite blanks_trim, solid_trim. Qed.
Lemma blank_not_part x : Blank x -> ~ Part x.
Proof. intros B P. now apply part_not_blank in P. Qed.
Lemma ident_written id g y r : Name id -> Behind id g -> ~ Part y -> ~ Blank y -> Ident (id ++ g ++ y :: r) id (g ++ y :: r).
Proof.
  intros (x & s & -> & Lx & Fs) (Fg & One) Ny By. destruct s as [|z s].
  - rewrite (One eq_refl). cbn. exists x, [], [], (y :: r). split; [reflexivity|]. split; [exact Lx|].
    split; [split; [reflexivity|]; split; [constructor|]; intros a b E; now injection E as <- _|].
    split; [|reflexivity]. split; [reflexivity|]. split; [constructor|]. intros a b E; now injection E as <- _.
  - exists x, [], (z :: s), ((z :: s) ++ g ++ y :: r). split; [reflexivity|]. split; [exact Lx|]. inversion Fs; subst.
    split; [split; [reflexivity|]; split; [constructor|]; intros a b E; injection E as <- _; now apply part_not_blank|].
    split; [|reflexivity]. split; [reflexivity|]. split; [exact Fs|]. intros a b E. destruct Fg as [|c g Bc Fg]; injection E as <- _; [exact Ny|now apply blank_not_part].
Qed.
Lemma name_head id r : Name id -> exists x t, id ++ r = x :: t /\ ~ Blank x.
Proof. intros (x & s & -> & L & _). exists x, (s ++ r). split; [reflexivity|]. apply part_not_blank. now left. Qed.
Lemma name_gap g id r : Forall Blank g -> Name id -> Gap (g ++ id ++ r) (id ++ r).
Proof. intros F N. destruct (name_head id r N) as (x & t & -> & B). now apply gap_blanks. Qed.
Lemma no_ident y r id t : ~ Letter y -> ~ Ident (y :: r) id t.
Proof. intros N (x & g & s & m & E & L & _). injection E as <- _. contradiction. Qed.
Ltac nope := unfold Part, Letter, Blank; cbn [In]; intuition (lia || discriminate).
Lemma path_written ids s y r g : WPath ids s -> Forall Blank g -> (y = 42 \/ y = 59)%N -> exists n, Path (g ++ s ++ y :: r) ids n /\ Gap n (y :: r).
Proof.
  intros P Fg Hy. assert (Ny : ~ Part y) by (destruct Hy as [-> | ->]; nope). assert (By : ~ Blank y) by (destruct Hy as [-> | ->]; nope).
  revert g Fg. induction P as [id g1 N B|id g1 g2 N B F2|id g1 g2 ids s N B F2 P IH]; intros g Fg.
  - rewrite <- !app_assoc. exists (g1 ++ y :: r). split; [|apply gap_blanks; [apply B|exact By]].
    eapply Path_last; [now apply name_gap|now apply ident_written|]. intros m X. apply token_trim in X.
    rewrite blanks_trim, solid_trim in X by (apply B || exact By). injection X as -> _. destruct Hy; discriminate.
  - rewrite <- !app_assoc. exists (g2 ++ y :: r). split; [|now apply gap_blanks].
    eapply Path_more; [now apply name_gap|apply ident_written; [exact N|exact B|nope|nope]|apply gap_blanks; [apply B|nope]|].
    eapply Path_stop; [now apply gap_blanks|]. intros id' t. apply no_ident. intros L. apply Ny. now left.
  - destruct (IH g2 F2) as (n & X & Y). exists n. split; [|exact Y]. rewrite <- !app_assoc.
    eapply Path_more; [now apply name_gap|apply ident_written; [exact N|exact B|nope|nope]|apply gap_blanks; [apply B|nope]|exact X].
Qed.
Lemma wpath_ne ids s : WPath ids s -> ids <> [].
Proof. now destruct 1. Qed.
Lemma uses_written l w tail : WUses l w -> (forall ids star t, ~ Use tail ids star t) -> Uses (w ++ tail) l tail.
Proof.
  intros U N. induction U as [|ids g g' g'' s l w F F' F'' P U IH|ids g g' s l w F F' P U IH].
  - now constructor.
  - eapply Uses_more; [|exact IH]. rewrite <- !app_assoc. destruct (path_written ids s 42%N (g'' ++ semicolon ++ w ++ tail) g' P F' (or_introl eq_refl)) as (n & X & Y).
    exists (g' ++ s ++ asterisk ++ g'' ++ semicolon ++ w ++ tail), n, (g'' ++ semicolon ++ w ++ tail).
    split; [apply gap_blanks; [exact F|nope]|]. split; [exact X|]. split; [exact (wpath_ne _ _ P)|]. split; [exact Y|]. apply gap_blanks; [exact F''|nope].
  - eapply Uses_more; [|exact IH]. rewrite <- !app_assoc. destruct (path_written ids s 59%N (w ++ tail) g' P F' (or_intror eq_refl)) as (n & X & Y).
    exists (g' ++ s ++ semicolon ++ w ++ tail), n, n.
    split; [apply gap_blanks; [exact F|nope]|]. split; [exact X|]. split; [exact (wpath_ne _ _ P)|]. split; [|exact Y].
    split; [|reflexivity]. intros o Z. apply gap_trim in Y. apply token_trim in Z. rewrite Z in Y. discriminate.
Qed.
(** Reading written declarations gives them back, whatever the white space and whatever comes behind,
    as long as that is not another declaration. *)
Theorem C68_written l w tail : WUses l w -> l <> [] -> (forall ids star t, ~ Use tail ids star t) ->
  forall v, (exists c, Reads d_uses (w ++ tail) (Ok v) c) <-> v = VList (map use_val l).
Proof.
  intros U N T v. pose proof (uses_written l w tail U T) as X.
  assert (E : exists c, Reads d_uses (w ++ tail) (Ok (VList (map use_val l))) c) by (apply C68_uses; eauto).
  split; [|intros ->; exact E]. intros (c & R). destruct E as (c' & R'). destruct (builds_det _ _ _ _ _ _ _ _ _ _ _ _ R R') as (Y & _). now injection Y as ->.
Qed.

(** A name of one letter swallows the white space behind it and the word behind that: the claim that
    white space never becomes part of a name is false. *)
Theorem C68_one_letter_refuted x g s : Letter x -> Forall Blank g -> Forall Part s -> exists c,
  Reads d_uses (use_word ++ [32]%N ++ (x :: g ++ s) ++ semicolon) (Ok (VList [use_val ([x :: g ++ s], false)])) c.
Proof.
  intros L F P. apply C68_uses. exists [([x :: g ++ s], false)], []. split; [|split; [discriminate|reflexivity]].
  assert (B32 : Forall Blank [32%N]) by (repeat constructor; cbn; tauto).
  apply Uses_more with (m := []); [|constructor; intros ids star t (m & n & o & T & _); apply token_len in T; cbn in T; lia].
  exists ([32]%N ++ (x :: g ++ s) ++ semicolon), semicolon, semicolon. split; [apply (gap_blanks [] 117%N); [constructor|nope]|].
  assert (Tk : forall t, ~ Token colons semicolon t) by (intros t T; apply token_trim in T; discriminate).
  split; [|split; [discriminate|]; split; [split; [|reflexivity]; intros o T; apply token_trim in T; discriminate|apply (gap_blanks [] 59%N); [constructor|nope]]].
  eapply Path_last; [apply (gap_blanks [32]%N); [exact B32|apply part_not_blank; now left]| |exact Tk].
  exists x, g, s, (s ++ semicolon). split; [symmetry; exact (f_equal (cons x) (app_assoc g s semicolon))|]. split; [exact L|].
  split; [|split; [|reflexivity]]; (split; [reflexivity|]; split; [assumption|]; intros a b E).
  - destruct P as [|c s Pc P]; injection E as <- _; [nope|now apply part_not_blank].
  - injection E as <- _. nope.
Qed.
(** No white space is needed behind the word [use]. *)
Theorem C68_glued_refuted id : Name id -> exists c, Reads d_uses (use_word ++ id ++ semicolon) (Ok (VList [use_val ([id], false)])) c.
Proof.
  intros N. pose proof (C68_written [([id], false)] ([] ++ use_word ++ [] ++ (id ++ []) ++ semicolon ++ []) []) as W. rewrite !app_nil_r in W. cbn [app] in W.
  apply W; [|discriminate| |reflexivity].
  - change (WUses [([id], false)] ([] ++ use_word ++ [] ++ id ++ semicolon ++ [])). replace id with (id ++ []) at 2 by apply app_nil_r. constructor; try constructor; auto. split; [constructor|reflexivity].
  - intros ids star t (m & n & o & T & _). apply token_len in T. cbn in T. lia.
Qed.

(** [use neure::prelude::*;] and [use std :: fs::read_to_string;] on two lines, then something else. *)
Example C68_case :
  let w := (use_word ++ [32; 110; 101; 117; 114; 101] ++ colons ++ [112; 114; 101] ++ colons ++ asterisk ++ semicolon ++
    [10] ++ use_word ++ [32; 115; 116; 100; 32] ++ colons ++ [32; 102; 115] ++ semicolon ++ [10; 35])%N in
  exists c, Reads d_uses w (Ok (VList [use_val ([[110; 101; 117; 114; 101]; [112; 114; 101]]%N, true); use_val ([[115; 116; 100]; [102; 115]]%N, false)])) c.
Proof. eexists. exists 30. split; [vm_compute; reflexivity|discriminate]. Qed.

Print Assumptions C68_uses.
Print Assumptions C68_uses_cursor.
Print Assumptions C68_uses_err.
Print Assumptions C68_total.
Print Assumptions C68_written.
Print Assumptions C68_one_letter_refuted.
Print Assumptions C68_glued_refuted.
