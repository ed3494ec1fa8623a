(** Constructing mode: [Ctor::construct] with a [Handler]. *)

From Coq Require Import List Arith NArith Bool.
From Verif Require Import Base Text Context Neu Syntax Regex.
Import ListNotations.

(** src/ctor.rs:120-137 [Handler::invoke]: reads the context and the span, mutates its own state. *)
Definition handler (S : Type) : Type := ctx -> span -> S -> res val * S.

#[global] Instance pair_offset {X S} `{HasOffset X} : HasOffset (X * S) :=
  { get_off := fun x => get_off (fst x); put_off := fun o x => (put_off o (fst x), snd x) }.

(** A computation on the context alone. *)
Definition on_ctx {S A} (m : M ctx A) : M (ctx * S) A :=
  fun x => let (r, c) := m (fst x) in (r, (c, snd x)).

Section ValueLoops.
  Context {X : Type} `{HasOffset X}.
  Variable con : M X val.
  Variable tms : M X span.

  (** src/ctor/repeat.rs:220-227: pushes every value. *)
  Fixpoint repeat_vals (fuel : nat) (more : nat -> bool) (acc : list val) : M X (list val) :=
    match fuel with
    | 0 => oof
    | S fuel' =>
        if more (length acc) then
          r <- catch con ;;
          match r with
          | inl v => repeat_vals fuel' more (acc ++ [v])
          | inr _ => ret acc
          end
        else ret acc
    end.

  (** src/ctor/repeat2.rs:168-175: [vals[cnt] = Some(val)] on an array of [n] cells, inside
      [while cnt <= N]. *)
  Fixpoint repeat2_vals (fuel n : nat) (acc : list val) : M X (list val) :=
    match fuel with
    | 0 => oof
    | S fuel' =>
        if length acc <=? n then
          r <- catch con ;;
          match r with
          | inl v => if length acc <? n then repeat2_vals fuel' n (acc ++ [v]) else panic
          | inr _ => ret acc
          end
        else ret acc
    end.

  (** src/ctor/sep.rs:511-520 (Separate). *)
  Fixpoint sep_vals (fuel : nat) (skip : bool) (acc : list val) : M X (list val) :=
    match fuel with
    | 0 => oof
    | S fuel' =>
        r <- catch con ;;
        match r with
        | inl v =>
            s <- catch tms ;;
            match s with
            | inl _ => sep_vals fuel' skip (acc ++ [v])
            | inr _ => ret (if skip then acc ++ [v] else acc)
            end
        | inr _ => ret acc
        end
    end.

  (** src/ctor/sep.rs:793-806 (Separate2): [vals[cnt] = Some(val)] on an array of [n] cells. *)
  Fixpoint sep2_vals (fuel n : nat) (skip : bool) (acc : list val) : M X (list val) :=
    match fuel with
    | 0 => oof
    | S fuel' =>
        if length acc <=? n then
          r <- catch con ;;
          match r with
          | inl v =>
              s <- catch tms ;;
              match s with
              | inl _ => if length acc <? n then sep2_vals fuel' n skip (acc ++ [v]) else panic
              | inr _ =>
                  if skip then if length acc <? n then ret (acc ++ [v]) else panic
                  else ret acc
              end
          | inr _ => ret acc
          end
        else ret acc
    end.

  (** src/ctor/sep.rs:1101-1117 (SepCollect): the closure given to [from_fn], polled until it
      returns [None] (the collection type is modelled as one that polls exactly until then). *)
  Fixpoint sepcollect_vals (fuel : nat) (skip : bool) (en : bool) (acc : list val)
    : M X (list val) :=
    match fuel with
    | 0 => oof
    | S fuel' =>
        r <- catch con ;;
        match r with
        | inr _ => ret acc
        | inl v =>
            s <- catch tms ;;
            if en then ret acc
            else
              let en' := match s with inl _ => false | inr _ => true end in
              if negb en' || skip then sepcollect_vals fuel' skip en' (acc ++ [v])
              else ret acc
        end
    end.
End ValueLoops.

(** An array of [n] options of which the first cells are filled:
    src/ctor/repeat2.rs:165, sep.rs:788. *)
Definition cells (n : nat) (vs : list val) : val :=
  VList (map VSome vs ++ repeat VNone (n - length vs)).

(** src/ctor.rs:912-940 [handler]: first alternative that constructs; [r2r] pairs the value with
    the stored one for the key-value containers (975-989). *)
Fixpoint con_choice {X} `{HasOffset X} (con : pat -> M X val) (o : nat) (e : error)
    (ps : list (pat * (val -> val))) : M X val :=
  match ps with
  | [] => fail e
  | p :: ps' =>
      r <- catch (on_err_reset o (con (fst p))) ;;
      match r with
      | inl v => ret (snd p v)
      | inr _ => con_choice con o e ps'
      end
  end.

(** src/ctor.rs:942-973 [handler_ltm]: an alternative replaces the best one only if it ended
    strictly after it, starting from [beg]; the cursor stays where the last attempt left it. *)
Fixpoint con_choice_ltm {X} `{HasOffset X} (con : pat -> M X val) (o : nat) (e : error)
    (best : option val) (en : nat) (ps : list (pat * (val -> val))) : M X val :=
  match ps with
  | [] => match best with Some v => ret v | None => fail e end
  | p :: ps' =>
      set_offset o ;;
      r <- catch (con (fst p)) ;;
      o' <- offset ;;
      match r with
      | inl v => if en <? o' then con_choice_ltm con o e (Some (snd p v)) o' ps'
                 else con_choice_ltm con o e best en ps'
      | inr _ => con_choice_ltm con o e best en ps'
      end
  end.

(** src/ctor.rs:975-989: [sel]/[r2r] and [sel_kv]/[r2r_kv]. *)
Definition plain (ps : list pat) : list (pat * (val -> val)) := map (fun p => (p, fun v => v)) ps.
(** src/ctor.rs:979-989 [sel_kv], [r2r_kv]: the selected key is paired with its value. *)
Definition keyed (ps : list (pat * val)) : list (pat * (val -> val)) :=
  map (fun p => (fst p, fun v => VPair v (snd p))) ps.

Section CtorStep.
  Context {S : Type}.
  Variable h : handler S.
  Variable G : env.
  Variable pr : list nat -> list pat -> pat -> M ctx span.
  Variable con : list nat -> pat -> M (ctx * S) val.
  Variable fuel : nat.
  Variable held : list nat.
  Variable pols : list pat.

  (** [ctx.try_mat(&p)] in the current context. *)
  Definition ctm (p : pat) : M (ctx * S) span := on_ctx (tm pr held pols p).

  (** [func.invoke(ctx, &span)]. *)
  Definition invoke (s : span) : M (ctx * S) val :=
    fun x => let (r, st) := h (fst x) s (snd x) in (r, (fst x, st)).

  (** The [construct] of every leaf (e.g. src/regex/empty.rs:73-77, src/neu/once.rs:171-175):
      [let ret = ctx.try_mat(self)?; func.invoke(ctx, &ret)]. *)
  Definition leaf (p : pat) : M (ctx * S) val := s <- ctm p ;; invoke s.

  (** [Ctor::construct], cited per constructor in Syntax.v. *)
  Definition construct_step (p : pat) : M (ctx * S) val :=
    match p with
    | PEmpty | PFail | PStart | PEnd | PConsume _ | PConsumeAll | PLit _ | PAssert _ _ | PFn _
    | PBuilder _ _ | PLeaf _ | POnce _ _ | PMany1 _ _ | POpt _ _ | PMany0 _ _
    | PBetween _ _ _ _ | PTimes _ _ _ | PNeuThen _ _ _ => leaf p
    | PThen q r =>
        with_guard (g_try (a <- con held q ;; b <- con held r ;; ret (VPair a b)))
    | PIfThen q t r =>
        with_guard
          (a <- g_try (con held q) ;;
           s <- catch (g_on (with_guard (g_try (ctm t)))) ;;
           match s with
           | inl _ => b <- g_try (con held r) ;; ret (VPair a (VSome b))
           | inr _ => ret (VPair a VNone)
           end)
    | POr q r =>
        o <- offset ;;
        on_err_reset o
          (a <- catch (con held q) ;;
           match a with
           | inl v => ret v
           | inr _ => set_offset o ;; con held r
           end)
    | PLongest q r =>
        o <- offset ;;
        a <- catch (con held q) ;;
        ol <- offset ;;
        set_offset o ;;
        b <- catch (con held r) ;;
        or <- offset ;;
        match a, b with
        | inl v, inl w => if or <=? ol then (set_offset ol ;; ret v) else (set_offset or ;; ret w)
        | inl v, inr _ => set_offset ol ;; ret v
        | inr _, inl w => set_offset or ;; ret w
        | inr _, inr e => set_offset o ;; fail e
        end
    | PPat q => s <- ctm q ;; invoke s
    | PPrefix q pre =>
        with_guard (g_try (ctm pre) ;; g_try (con held q))
    | PSuffix q suf =>
        with_guard (v <- g_try (con held q) ;; g_try (ctm suf) ;; ret v)
    | PEnclose q op cl =>
        with_guard (g_try (ctm op) ;; v <- g_try (con held q) ;; g_try (ctm cl) ;; ret v)
    | PSepOnce q s r =>
        with_guard
          (a <- g_try (con held q) ;;
           g_try (ctm s) ;;
           b <- g_try (con held r) ;;
           ret (VPair a b))
    | PSep q s mn skip =>
        o <- offset ;;
        vs <- sep_vals (con held q) (ctm s) fuel skip [] ;;
        accept (mn <=? length vs) ESeparate o (VList vs)
    | PSep2 q s m n skip =>
        o <- offset ;;
        vs <- sep2_vals (con held q) (ctm s) fuel n skip [] ;;
        accept (m <=? length vs) ESeparate2 o (cells n vs)
    | PSepCollect q s mn skip =>
        o <- offset ;;
        vs <- sepcollect_vals (con held q) (ctm s) fuel skip false [] ;;
        accept (mn <=? length vs) ESepCollect o (VList vs)
    | PRepeat q r =>
        o <- offset ;;
        vs <- repeat_vals (con held q) fuel (repeat_more r) [] ;;
        accept (crange_contains r (length vs)) ERepeat o (VList vs)
    | PRepeat2 q m n =>
        o <- offset ;;
        vs <- repeat2_vals (con held q) fuel n [] ;;
        accept ((m <=? length vs) && (length vs <=? n)) ERepeat2 o (cells n vs)
    | PCollect q mn =>
        o <- offset ;;
        vs <- repeat_vals (con held q) fuel (fun _ => true) [] ;;
        accept (mn <=? length vs) ECollect o (VList vs)
    | POption q =>
        o <- offset ;;
        a <- catch (on_err_reset o (con held q)) ;;
        match a with
        | inl v => ret (VSome v)
        | inr _ => ret VNone
        end
    | PBranch t q r =>
        o <- offset ;;
        b <- reads (fun x : ctx * S => t (fst x)) ;;
        on_err_reset o (if b : bool then con held q else con held r)
    | PMap q f => v <- con held q ;; lift (f v)
    | PDynThen q f =>
        with_guard
          (a <- g_try (con held q) ;;
           q' <- g_on (on_ctx (fun c => f c a)) ;;
           b <- g_try (con held q') ;;
           ret (VPair a b))
    | PCtorFn f => on_ctx f
    | PChoice e ltm ps =>
        o <- offset ;;
        if ltm then con_choice_ltm (con held) o e None o (plain ps)
        else con_choice (con held) o e (plain ps)
    | PPairChoice e ltm ps =>
        o <- offset ;;
        if ltm then con_choice_ltm (con held) o e None o (keyed ps)
        else con_choice (con held) o e (keyed ps)
    | PWrap q => con held q
    | PNoneP => fail EOption
    | PRef i =>
        match env_get G i with
        | Some q => con held q
        | None => fail EOption
        end
    | PLock i =>
        if existsb (Nat.eqb i) held then panic
        else match env_get G i with
             | Some q => con (i :: held) q
             | None => fail EOption
             end
    end.
End CtorStep.

(** [Ctor::construct] in a context wrapped in the policies [pols]. *)
Fixpoint construct {S} (h : handler S) (fuel : nat) (G : env) (held : list nat) (pols : list pat)
    (p : pat) : M (ctx * S) val :=
  match fuel with
  | 0 => oof
  | Datatypes.S fuel' =>
      construct_step h G (parse fuel' G) (fun hl => construct h fuel' G hl pols) fuel' held pols p
  end.
