(** Closure-free parsers consume one piece at the cursor, in every context. *)

From Coq Require Import List Arith NArith Bool Lia.
From Verif Require Import Base Text Context Neu Syntax Regex Ctor Api TextProofs Spec Units ByteInv Sound Obs Mono Refactor.
Import ListNotations.

Inductive cres (c : ctx) : res span * ctx -> Prop :=
| COk n : cres c (Ok (Span (c_off c) n), mv c (c_off c + n))
| CErr e : cres c (Err e, c)
| CPanic c' : cres c (Panic, c')
| COof c' : cres c (OOF, c').

Lemma cres_empty c : cres c (Ok (Span (c_off c) 0), c).
Proof. pose proof (COk c 0) as H. rewrite Nat.add_0_r, mv_self in H. exact H. Qed.
Lemma cres_inc c n : cres c (new_span_inc n c).
Proof. cbv [new_span_inc bind offset inc ret get_off ctx_offset]. apply (COk c n). Qed.

Definition still {A} (m : M ctx A) : Prop := forall c, snd (m c) = c.
Lemma still_reads {A} (f : ctx -> res A) : still (reads f).
Proof. intro c. reflexivity. Qed.
Lemma still_lift {A} (r : res A) : still (lift r).
Proof. intro c. reflexivity. Qed.
Lemma still_offset : still offset.
Proof. intro c. reflexivity. Qed.
Lemma still_remaining : still remaining.
Proof. intro c. reflexivity. Qed.
Lemma still_catch {A} (m : M ctx A) : still m -> still (catch m).
Proof. intros H c. specialize (H c). unfold catch. destruct (m c) as [[a|e| |] c']; exact H. Qed.
Lemma cres_bind {A} (m : M ctx A) k c :
  still m -> (forall a, cres c (k a c)) -> cres c (bind m k c).
Proof.
  intros H K. specialize (H c). unfold bind. destruct (m c) as [[a|e| |] c']; cbn in H; subst; auto; constructor.
Qed.
Lemma cres_offset k c : cres c (k (c_off c) c) -> cres c (bind offset k c).
Proof. intros. exact H. Qed.

Section Solid.
  Variable G : env.
  Section Step.
    Variable pr : list nat -> list pat -> pat -> M ctx span.
    Hypothesis PR : forall held p c, solid p -> cres c (pr held [] p c).
    Variable fuel : nat.
    Variable held : list nat.
    Notation tm := (tm pr held []).

    Lemma tm_s p c : solid p -> cres c (tm p c).
    Proof. intros. now apply PR. Qed.

    Lemma repeat_s p c more o : solid p -> forall n cnt x, o <= x ->
      (exists cnt' y, repeat_loop (tm p) n more cnt (Span o (x - o)) (mv c x)
          = (Ok (cnt', Span o (y - o)), mv c y) /\ x <= y) \/
      (exists c', repeat_loop (tm p) n more cnt (Span o (x - o)) (mv c x) = (OOF, c')) \/
      (exists c', repeat_loop (tm p) n more cnt (Span o (x - o)) (mv c x) = (Panic, c')).
    Proof.
      intros Hp n. induction n as [|n IH]; intros cnt x Hx; cbn [repeat_loop]; [right; left; eexists; reflexivity|].
      destruct (more cnt); [|left; exists cnt, x; split; [reflexivity|lia]].
      unfold bind, catch. destruct (tm_s p (mv c x) Hp) as [m|e|c'|c'].
      - cbn [c_off mv] in *. rewrite join_bytes by lia. change (mv (mv c x) (x + m)) with (mv c (x + m)).
        destruct (IH (S cnt) (x + m)) as [(cnt' & y & E & A1)|[(c' & E)|(c' & E)]]; try lia.
        + left. exists cnt', y. split; [exact E|lia].
        + right. left. eexists. exact E.
        + right. right. eexists. exact E.
      - left. exists cnt, x. split; [reflexivity|lia].
      - right. right. eexists. reflexivity.
      - right. left. eexists. reflexivity.
    Qed.
    Lemma sep_s p s c more o : solid p -> solid s -> forall n cnt x, o <= x ->
      (exists cnt' y, sep_loop (tm p) (tm s) n more true cnt (Span o (x - o)) (mv c x)
          = (Ok (cnt', Span o (y - o)), mv c y) /\ x <= y) \/
      (exists c', sep_loop (tm p) (tm s) n more true cnt (Span o (x - o)) (mv c x) = (OOF, c')) \/
      (exists c', sep_loop (tm p) (tm s) n more true cnt (Span o (x - o)) (mv c x) = (Panic, c')).
    Proof.
      intros Hp Hs n. induction n as [|n IH]; intros cnt x Hx; cbn [sep_loop]; [right; left; eexists; reflexivity|].
      destruct (more cnt); [|left; exists cnt, x; split; [reflexivity|lia]].
      unfold bind, catch. destruct (tm_s p (mv c x) Hp) as [m|e|c'|c'].
      - cbn [c_off mv] in *. change (mv (mv c x) (x + m)) with (mv c (x + m)).
        destruct (tm_s s (mv c (x + m)) Hs) as [m'|e|c'|c'].
        + cbn [c_off mv] in *. rewrite join_bytes by lia. rewrite join_bytes by lia.
          change (mv (mv c (x + m)) (x + m + m')) with (mv c (x + m + m')).
          destruct (IH (S cnt) (x + m + m')) as [(cnt' & y & E & A1)|[(c' & E)|(c' & E)]]; try lia.
          * left. exists cnt', y. split; [exact E|lia].
          * right. left. eexists. exact E.
          * right. right. eexists. exact E.
        + rewrite join_bytes by lia. left. exists (S cnt), (x + m). split; [reflexivity|lia].
        + right. right. eexists. reflexivity.
        + right. left. eexists. reflexivity.
      - left. exists cnt, x. split; [reflexivity|lia].
      - right. right. eexists. reflexivity.
      - right. left. eexists. reflexivity.
    Qed.
    Lemma choice_s c e ps : (forall p, In p ps -> solid p) -> cres c (choice tm (c_off c) e ps c).
    Proof.
      intros Hp. induction ps as [|p ps IH]; cbn [choice]; [constructor|].
      unfold bind, catch, on_err_reset.
      destruct (tm_s p c (Hp p (or_introl eq_refl))) as [m|e'|c'|c']; try constructor.
      change (put_off (c_off c) c) with (mv c (c_off c)). rewrite mv_self. apply IH.
      intros q Hq. apply Hp. now right.
    Qed.
    Lemma accept_s c y (ok : bool) e : c_off c <= y ->
      cres c (accept ok e (c_off c) (Span (c_off c) (y - c_off c)) (mv c y)).
    Proof.
      intros H1. unfold accept. destruct ok.
      - unfold ret. replace (mv c y) with (mv c (c_off c + (y - c_off c))) by (f_equal; lia). constructor.
      - cbv [bind set_offset fail put_off ctx_offset]. fold (mv (mv c y) (c_off c)). rewrite mv_mv, mv_self. constructor.
    Qed.

    Ltac unit_s :=
      unfold once_parse, many1_parse, opt_parse, many0_parse, between_parse, times_parse, neuthen_parse, literal_parse,
        consume_parse, consume_all_parse, start_parse, end_parse;
      repeat match goal with
      | |- cres _ (new_span_inc _ _) => apply cres_inc
      | |- cres _ (fail _ _) => apply CErr
      | |- cres _ (ret (Span _ 0) _) => apply cres_empty
      | |- cres _ (bind offset _ _) => apply cres_offset; cbv beta
      | |- cres _ (bind _ _ _) =>
          apply cres_bind; [first [apply still_reads|apply still_lift|apply still_remaining|apply still_catch, still_reads]|intro; cbv beta]
      | |- cres _ ((match ?x with _ => _ end) _) => destruct x
      end.
    Ltac sub p c := let m := fresh "m" in let e := fresh "e" in let c' := fresh "c'" in
      destruct (tm_s p c) as [m|e|c'|c']; [assumption| | | |].
    Ltac fin :=
      repeat match goal with
      | |- context [Ctx (c_kind ?a) (c_dat ?a) ?o] => change (Ctx (c_kind a) (c_dat a) o) with (mv a o)
      end;
      rewrite ?mv_mv, ?mv_self;
      match goal with
      | |- cres _ (Err _, _) => apply CErr
      | |- cres _ (Panic, _) => apply CPanic
      | |- cres _ (OOF, _) => apply COof
      | |- cres _ (Ok (Span (c_off ?c) 0), ?c) => apply cres_empty
      | BJ : forall y, c_off ?c <= y -> _ |- cres ?c (Ok (Span (c_off ?c) (_ - c_off ?c)), _) => apply BJ; lia
      | |- cres _ (Ok _, _) => apply COk
      end.
    Ltac onp :=
      repeat first
      [ fin
      | match goal with
        | |- context [Ctx (c_kind ?a) (c_dat ?a) ?o] => change (Ctx (c_kind a) (c_dat a) o) with (mv a o)
        end; rewrite ?mv_mv, ?mv_self
      | match goal with
        | |- context [match tm ?p ?c with _ => _ end] =>
          let H := fresh in assert (H : solid p) by assumption;
          destruct (tm_s p c H); cbn [c_kind c_dat c_off mv slen] in *; clear H
        | |- context [add_assign (Span ?a ?n) (Span ?b ?m)] => rewrite add_assign_b by lia
        end ].

    Lemma step_s p c : solid p -> whole G -> cres c (parse_step G pr fuel held [] p c).
    Proof.
      intros Hp HE.
      assert (BJ : forall y, c_off c <= y -> cres c (Ok (Span (c_off c) (y - c_off c)), mv c y)).
      { intros y A1. replace (mv c y) with (mv c (c_off c + (y - c_off c))) by (f_equal; lia). constructor. }
      destruct Hp; cbn [parse_step];
        try solve [constructor | apply cres_empty | unit_s | now apply PR | now apply tm_s | now apply choice_s].
      - mstep. onp; destruct v; cbn; fin.
      - specialize (H c). destruct (f c) as [[[b m]|e| |] c']; cbn in H; try destruct H; subst; constructor.
      - mstep. onp.
      - mstep. onp.
      - mstep. onp.
      - mstep. onp; try match goal with |- context [?a <=? ?b] => destruct (a <=? b) end; rewrite ?Nat.add_0_r; cbn [slen]; onp.
      - mstep. onp.
      - mstep. onp.
      - mstep. onp.
      - mstep. onp.
      - unfold bind at 1, offset. cbn [get_off ctx_offset]. unfold bind.
        destruct (sep_s p s c (fun _ => true) (c_off c) Hp1 Hp2 fuel 0 (c_off c))
          as [(cnt & y & E & A1)|[(c' & E)|(c' & E)]]; auto; rewrite Nat.sub_diag, mv_self in E; rewrite E.
        + cbn [fst snd]. now apply accept_s.
        + constructor.
        + constructor.
      - unfold bind at 1, offset. cbn [get_off ctx_offset]. unfold bind.
        destruct (sep_s p s c (fun cnt => cnt <=? n) (c_off c) Hp1 Hp2 fuel 0 (c_off c))
          as [(cnt & y & E & A1)|[(c' & E)|(c' & E)]]; auto; rewrite Nat.sub_diag, mv_self in E; rewrite E.
        + cbn [fst snd]. now apply accept_s.
        + constructor.
        + constructor.
      - unfold bind at 1, offset. cbn [get_off ctx_offset]. unfold bind.
        destruct (sep_s p s c (fun _ => true) (c_off c) Hp1 Hp2 fuel 0 (c_off c))
          as [(cnt & y & E & A1)|[(c' & E)|(c' & E)]]; auto; rewrite Nat.sub_diag, mv_self in E; rewrite E.
        + cbn [fst snd]. now apply accept_s.
        + constructor.
        + constructor.
      - unfold bind at 1, offset. cbn [get_off ctx_offset]. unfold bind.
        destruct (repeat_s p c (repeat_more r) (c_off c) Hp fuel 0 (c_off c))
          as [(cnt & y & E & A1)|[(c' & E)|(c' & E)]]; auto; rewrite Nat.sub_diag, mv_self in E; rewrite E.
        + cbn [fst snd]. now apply accept_s.
        + constructor.
        + constructor.
      - unfold bind at 1, offset. cbn [get_off ctx_offset]. unfold bind.
        destruct (repeat_s p c (fun cnt => cnt <=? n) (c_off c) Hp fuel 0 (c_off c))
          as [(cnt & y & E & A1)|[(c' & E)|(c' & E)]]; auto; rewrite Nat.sub_diag, mv_self in E; rewrite E.
        + cbn [fst snd]. now apply accept_s.
        + constructor.
        + constructor.
      - unfold bind at 1, offset. cbn [get_off ctx_offset]. unfold bind, collect_loop.
        destruct (repeat_s p c (fun _ => true) (c_off c) Hp fuel 0 (c_off c))
          as [(cnt & y & E & A1)|[(c' & E)|(c' & E)]]; auto; rewrite Nat.sub_diag, mv_self in E; rewrite E.
        + cbn [fst snd]. now apply accept_s.
        + constructor.
        + constructor.
      - mstep. onp.
      - mstep. destruct (t c) as [[|]|e| |]; onp.
      - destruct (env_get G i) as [q|] eqn:E; [|constructor]. apply PR. now apply (HE i).
      - destruct (existsb (Nat.eqb i) held); [constructor|].
        destruct (env_get G i) as [q|] eqn:E; [|constructor]. apply PR. now apply (HE i).
    Qed.
  End Step.

  Theorem parse_s : whole G -> forall n held p c, solid p -> cres c (parse n G held [] p c).
  Proof.
    intros HE n. induction n as [|n IH]; intros held p c Hp; [constructor|].
    cbn [parse]. apply step_s; auto.
  Qed.

  Theorem solid_steady p : whole G -> solid p -> Steady G p.
  Proof.
    intros HE Hp held c r c' (n & NR & H). pose proof (parse_s HE n held p c Hp) as P.
    rewrite NR in P. inversion P; subst; auto.
  Qed.
End Solid.
