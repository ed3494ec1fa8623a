(** Equivalences between parsers: the way their proofs go. *)

From Coq Require Import List Arith NArith Bool Lia.
From Verif Require Import Base Text Context Neu Syntax Regex Ctor Api TextProofs Spec Units ByteInv Sound Obs Mono Refactor Solid Cong.
Import ListNotations.

Definition into (E : error -> error -> Prop) {X A} (a b : res A * X) : Prop :=
  fst a = OOF \/ (snd a = snd b /\ Alike E (fst a) (fst b)).

Lemma same_match E G p q d :
  (forall held n c, into E (parse n G held [] p c) (parse (d + n) G held [] q c)) ->
  (forall held n c, into (fun a b => E b a) (parse n G held [] q c) (parse (d + n) G held [] p c)) ->
  SameMatch E G [] p q.
Proof.
  intros H1 H2 held c c'. split.
  - intros r (n & A & B). specialize (H1 held n c). rewrite A in H1. destruct H1 as [H1|[H1 H3]]; [easy|].
    destruct (parse (d + n) G held [] q c) as [r' c1] eqn:E1. cbn in *. subst c1.
    exists r'. split; [assumption|]. exists (d + n). split; [assumption|]. intros ->. inversion H3.
  - intros r (n & A & B). specialize (H2 held n c). rewrite A in H2. destruct H2 as [H2|[H2 H3]]; [easy|].
    destruct (parse (d + n) G held [] p c) as [r' c1] eqn:E1. cbn in *. subst c1.
    exists r'. split; [inversion H3; subst; constructor; assumption|].
    exists (d + n). split; [assumption|]. intros ->. inversion H3.
Qed.
Lemma same_build {S} E (h : handler S) G p q d :
  (forall held n c, into E (construct h n G held [] p c) (construct h (d + n) G held [] q c)) ->
  (forall held n c, into (fun a b => E b a) (construct h n G held [] q c) (construct h (d + n) G held [] p c)) ->
  SameBuild E h G [] p q.
Proof.
  intros H1 H2 held c s c' s'. split.
  - intros r (n & A & B). specialize (H1 held n (c, s)). rewrite A in H1. destruct H1 as [H1|[H1 H3]]; [easy|].
    destruct (construct h (d + n) G held [] q (c, s)) as [r' c1] eqn:E1. cbn in *. subst c1.
    exists r'. split; [assumption|]. exists (d + n). split; [assumption|]. intros ->. inversion H3.
  - intros r (n & A & B). specialize (H2 held n (c, s)). rewrite A in H2. destruct H2 as [H2|[H2 H3]]; [easy|].
    destruct (construct h (d + n) G held [] p (c, s)) as [r' c1] eqn:E1. cbn in *. subst c1.
    exists r'. split; [inversion H3; subst; constructor; assumption|].
    exists (d + n). split; [assumption|]. intros ->. inversion H3.
Qed.

Lemma up G held p c n m r c' : parse n G held [] p c = (r, c') -> r <> OOF -> n <= m -> parse m G held [] p c = (r, c').
Proof.
  intros H1 H2 H3. pose proof (parse_mono n m G held [] p H3) as H. apply mle_eq with (x := c) (r := r) (x' := c') in H; auto.
Qed.
Lemma cup {S} (h : handler S) G held p c n m r c' :
  construct h n G held [] p c = (r, c') -> r <> OOF -> n <= m -> construct h m G held [] p c = (r, c').
Proof.
  intros H1 H2 H3. pose proof (construct_mono h n m G held [] p H3) as H.
  apply mle_eq with (x := c) (r := r) (x' := c') in H; auto.
Qed.
Lemma steady_cres G p held c n : Steady G p -> cres c (parse n G held [] p c).
Proof.
  intros H. destruct (parse n G held [] p c) as [[s|e| |] c'] eqn:E; try constructor.
  - destruct (H held c (Ok s) c') as [H1 H2]; [exists n; split; [exact E|discriminate]|]. subst. destruct s as [b m].
    cbn in *. subst b. constructor.
  - rewrite (H held c (Err e) c'); [constructor|exists n; split; [exact E|discriminate]].
Qed.

Ltac kstep := cbv beta iota zeta delta
  [bind catch ret fail panic oof lift reads offset set_offset get_off put_off ctx_offset pair_offset on_ctx
   with_guard g_new g_beg g_on g_try g_drop g_ctx g_offset g_reset join on_err_reset accept fst snd eqb Bool.eqb].
Ltac ctxs :=
  repeat match goal with
  | |- context [Ctx (c_kind ?a) (c_dat ?a) ?o] => change (Ctx (c_kind a) (c_dat a) o) with (mv a o)
  end; rewrite ?mv_mv, ?mv_self; cbn [c_off mv].
Lemma into_ok (E : error -> error -> Prop) {X A} (a a' : A) (x x' : X) : a = a' -> x = x' -> into E (Ok a, x) (Ok a', x').
Proof. intros -> ->. right. split; [reflexivity|constructor]. Qed.
Lemma into_err (E : error -> error -> Prop) {X A} e e' (x x' : X) : E e e' -> x = x' -> into (A := A) E (Err e, x) (Err e', x').
Proof. intros H ->. right. split; [reflexivity|now constructor]. Qed.
Lemma into_panic (E : error -> error -> Prop) {X A} (x x' : X) : x = x' -> into (A := A) E (Panic, x) (Panic, x').
Proof. intros ->. right. split; [reflexivity|constructor]. Qed.
Lemma into_refl (E : error -> error -> Prop) {X A} (a : res A * X) : (forall e, E e e) -> into E a a.
Proof. intros H. destruct a as [[a|e| |] x]; [right|right|right|left]; try split; try constructor; auto. Qed.
Ltac stop :=
  first [ left; reflexivity
        | apply into_refl; first [reflexivity|intros; exact I]
        | apply into_ok; [first [reflexivity|f_equal; lia]|first [reflexivity|f_equal; lia]]
        | apply into_err; [first [reflexivity|exact I]|reflexivity]
        | apply into_panic; reflexivity ].
Ltac reuse :=
  repeat match goal with
  | E : parse ?n ?G ?h [] ?p ?c = (?r, _) |- context [parse ?m ?G ?h [] ?p ?c] =>
      rewrite (up G h p c n m _ _ E) by (first [discriminate|lia])
  | E : construct ?hd ?n ?G ?h [] ?p ?c = (?r, _) |- context [construct ?hd ?m ?G ?h [] ?p ?c] =>
      rewrite (cup hd G h p c n m _ _ E) by (first [discriminate|lia])
  end.
Ltac head t := lazymatch t with ?f _ => head f | _ => t end.
(* one evaluation of the left-hand side *)
Ltac run1 :=
  match goal with
  | |- into _ ?l _ =>
    match l with
    | context [parse ?n ?G ?h [] ?p ?c] =>
        is_var n; let hd := head p in is_constructor hd;
        destruct n as [|n]; [cbn [parse]; unfold oof; kstep; try stop|]
    | context [construct ?hd ?n ?G ?h [] ?p ?c] =>
        is_var n; let k := head p in is_constructor k;
        destruct n as [|n]; [cbn [construct]; unfold oof; kstep; try stop|]
    | context [parse ?n ?G ?h [] ?p ?c] =>
        let E := fresh "E" in
        match goal with
        | H : Steady G p |- _ =>
            let K := fresh "K" in
            pose proof (steady_cres G p h c n H) as K;
            destruct (parse n G h [] p c) as [[[? ?]|?| |] ?] eqn:E; inversion K; clear K; subst
        | _ => destruct (parse n G h [] p c) as [[?|?| |] ?] eqn:E
        end;
        try stop
    | context [construct ?hd ?n ?G ?h [] ?p ?c] =>
        let E := fresh "E" in
        destruct (construct hd n G h [] p c) as [[?|?| |] [? ?]] eqn:E;
        try stop
    end
  end.
Ltac joins := rewrite ?join_bytes by lia; rewrite ?add_assign_b by lia.
Lemma parse_S n G held pols p c : parse (S n) G held pols p c = parse_step G (parse n G) n held pols p c.
Proof. reflexivity. Qed.
Lemma construct_S {S} (h : handler S) n G held pols p c :
  construct h (Datatypes.S n) G held pols p c = construct_step h G (parse n G) (fun hl => construct h n G hl pols) n held pols p c.
Proof. reflexivity. Qed.
Ltac unroll :=
  repeat (match goal with
  | |- context [parse (S ?n) ?G ?h [] ?p ?c] =>
      let hd := head p in is_constructor hd; rewrite (parse_S n G h [] p c); cbn [parse_step]; unfold tm, try_mat; kstep
  | |- context [construct ?hd (S ?n) ?G ?h [] ?p ?c] =>
      let k := head p in is_constructor k; rewrite (construct_S hd n G h [] p c); cbn [construct_step];
      unfold leaf, ctm, tm, try_mat, invoke; kstep
  end; ctxs).
Ltac law_side :=
  let held := fresh "held" in let n := fresh "n" in let c := fresh "c" in
  intros held n c;
  do 4 (try (destruct n as [|n]; [left; reflexivity|])).

Ltac tidy := repeat (progress (reuse; kstep; ctxs; unroll; joins)); try stop.
Ltac runs := repeat (run1; tidy).
Ltac law := apply same_match with (d := 8); law_side; cbn [Nat.add]; tidy; runs.
Ltac claw := apply same_build with (d := 8); law_side; cbn [Nat.add]; tidy; runs.

Lemma or_assoc G p q r : SameMatch same_error G [] (POr (POr p q) r) (POr p (POr q r)).
Proof. law. Qed.
Lemma or_assoc_c {S} (h : handler S) G p q r : SameBuild same_error h G [] (POr (POr p q) r) (POr p (POr q r)).
Proof. claw. Qed.
Lemma then_assoc G p q r : Steady G p -> Steady G q -> Steady G r ->
  SameMatch same_error G [] (PThen (PThen p q) r) (PThen p (PThen q r)).
Proof. intros P Q R. law. Qed.
Lemma then_empty_l G p : Steady G p -> SameMatch same_error G [] (PThen PEmpty p) p.
Proof. intros P. law. Qed.
Lemma then_empty_r G p : Steady G p -> SameMatch same_error G [] (PThen p PEmpty) p.
Proof. intros P. law. Qed.
Lemma or_idem G p : Steady G p -> SameMatch same_error G [] (POr p p) p.
Proof. intros P. law. Qed.
Lemma or_fail_l G p : Steady G p -> SameMatch same_error G [] (POr PFail p) p.
Proof. intros P. law. Qed.
Lemma or_fail_r G p : Steady G p -> SameMatch any_error G [] (POr p PFail) p.
Proof. intros P. law. Qed.
Lemma then_fail_l G p : SameMatch same_error G [] (PThen PFail p) PFail.
Proof. law. Qed.
Lemma factor G p q r : Steady G p -> Steady G q -> Steady G r ->
  SameMatch same_error G [] (POr (PThen p q) (PThen p r)) (PThen p (POr q r)).
Proof. intros P Q R. law. Qed.
Lemma option_option G p : SameMatch same_error G [] (POption (POption p)) (POption p).
Proof. law. Qed.
Lemma option_or G p : SameMatch same_error G [] (POption p) (POr p PEmpty).
Proof. law. Qed.
Lemma not_not G p : SameMatch any_error G [] (PAssert (PAssert p false) false) (PAssert p true).
Proof. law. Qed.
Lemma assert_assert G p v : SameMatch any_error G [] (PAssert (PAssert p v) true) (PAssert p v).
Proof. destruct v; law. Qed.
Lemma ahead G p : Steady G p -> SameMatch any_error G [] (PThen (PAssert p true) p) p.
Proof. intros P. law. Qed.
Lemma seponce G p s q : Steady G p -> Steady G s -> Steady G q ->
  SameMatch same_error G [] (PSepOnce p s q) (PThen (PThen p s) q).
Proof. intros P Q R. law. Qed.
Lemma enclose G p o c : Steady G p -> Steady G o -> Steady G c ->
  SameMatch same_error G [] (PEnclose p o c) (PThen (PThen o p) c).
Proof. intros P Q R. law. Qed.
Lemma prefix_then G p q : SameMatch same_error G [] (PPrefix p q) (PThen q p).
Proof. law. Qed.
Lemma suffix_then G p q : SameMatch same_error G [] (PSuffix p q) (PThen p q).
Proof. law. Qed.
Lemma ifthen G p t q : Steady G p -> Steady G t -> Steady G q ->
  SameMatch any_error G [] (PIfThen p t q) (PThen p (POr (PThen t q) (PAssert t false))).
Proof. intros P Q R. law. Qed.
Lemma map_map {S} (h : handler S) G p f g :
  SameBuild same_error h G [] (PMap (PMap p f) g)
    (PMap p (fun v => match f v with Ok w => g w | Err e => Err e | Panic => Panic | OOF => OOF end)).
Proof. claw; destruct (f a); stop. Qed.
Lemma then_assoc_c {S} (h : handler S) G p q r f : (forall a b c, f (VPair (VPair a b) c) = Ok (VPair a (VPair b c))) ->
  SameBuild same_error h G [] (PMap (PThen (PThen p q) r) f) (PThen p (PThen q r)).
Proof. intros F. claw; rewrite F; stop. Qed.

Ltac pick :=
  repeat (cbn [Base.slen] in *; rewrite ?Nat.add_0_r, ?mv_self in *;
          match goal with
          | |- context [?a <=? ?b] => let H := fresh in destruct (a <=? b) eqn:H; [apply Nat.leb_le in H|apply Nat.leb_gt in H]
          end); cbn [Base.slen] in *; rewrite ?Nat.add_0_r, ?mv_self in *.
Lemma longest_idem G p : Steady G p -> SameMatch same_error G [] (PLongest p p) p.
Proof. intros P. law; pick; try stop; try (exfalso; lia). Qed.
Lemma longest_assoc G p q r : Steady G p -> Steady G q -> Steady G r ->
  SameMatch same_error G [] (PLongest (PLongest p q) r) (PLongest p (PLongest q r)).
Proof.
  intros P Q R. apply same_match with (d := 8); law_side; cbn [Nat.add]; tidy.
  all: repeat (run1; tidy; rewrite ?Nat.add_0_r, ?mv_self; tidy).
  all: try (pick; try stop; try (exfalso; lia)).
  all: repeat (match goal with
         H : context [?a <=? ?b] |- _ => let L := fresh in destruct (a <=? b) eqn:L; [apply Nat.leb_le in L|apply Nat.leb_gt in L]
         end; cbn [Base.slen] in *); first [exfalso; lia|stop].
Qed.

