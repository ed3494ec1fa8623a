(** The types of parsers in constructing mode.

    [val] (Syntax.v) erases the Rust types.  [typed p T] gives them back: its rules are the headers of the
    [impl Ctor<C, O, H>] blocks, one per node, and [inh T v] says which values have the type [T]. *)

From Coq Require Import List Arith NArith Bool.
From Verif Require Import Base Text Context Neu Syntax Ctor CtorSpec.
Import ListNotations.

(** The output types [O] that occur in the headers of the implementations. *)
Inductive ty : Type :=
| TOut                      (* [H::Out]: what the handler makes of a piece of text *)
| TPair (a b : ty)          (* [(A, B)] *)
| TVec (a : ty)             (* [Vec<A>] *)
| TArray (n : nat) (a : ty) (* [[Option<A>; N]] *)
| TOpt (a : ty)             (* [Option<A>] *)
| TIs (P : val -> Prop).    (* a type chosen by the user: the values in [P] *)

Section Types.
  (** The values of [H::Out]. *)
  Variable Out : val -> Prop.

  (** [None], or [Some] of a value in [P]. *)
  Definition maybe (P : val -> Prop) (v : val) : Prop :=
    match v with VNone => True | VSome x => P x | _ => False end.

  (** The values of a type. *)
  Fixpoint inh (t : ty) (v : val) : Prop :=
    match t with
    | TOut => Out v
    | TPair a b => match v with VPair x y => inh a x /\ inh b y | _ => False end
    | TVec a => match v with VList l => Forall (inh a) l | _ => False end
    | TArray n a => match v with VList l => length l = n /\ Forall (maybe (inh a)) l | _ => False end
    | TOpt a => maybe (inh a) v
    | TIs P => P v
    end.

  (** [calm] asks in addition that nothing the user supplies panics on arguments of its type, and leaves
      out what may panic by itself (arrays of fixed capacity, locks). *)
  Variable calm : bool.
  (** A user function answers with a value of type [B] or an error. *)
  Definition gives (B : ty) (r : res val) : Prop :=
    match r with Ok v => inh B v | Err _ => True | Panic => calm = false | OOF => calm = false end.

  (** The types of the parsers behind the recursive handles. *)
  Variable T : nat -> ty.

  Inductive typed : pat -> ty -> Prop :=
  | t_leaf p : leafy p -> typed p TOut                                        (* e.g. src/neu/once.rs:163, src/regex/literal.rs:84 *)
  | t_pat p : typed (PPat p) TOut                                             (* src/ctor/pat.rs:130 *)
  | t_then p q A B : typed p A -> typed q B -> typed (PThen p q) (TPair A B)   (* src/ctor/then.rs:210 *)
  | t_ifthen p t q A B : typed p A -> typed q B ->
      typed (PIfThen p t q) (TPair A (TOpt B))                                (* src/ctor/then.rs:444 *)
  | t_or p q A : typed p A -> typed q A -> typed (POr p q) A                   (* src/ctor/or.rs:205 *)
  | t_longest p q A : typed p A -> typed q A -> typed (PLongest p q) A         (* src/ctor/longest.rs:188 *)
  | t_prefix p q A : typed p A -> typed (PPrefix p q) A                        (* src/ctor/affix.rs:395 *)
  | t_suffix p q A : typed p A -> typed (PSuffix p q) A                        (* src/ctor/affix.rs:186 *)
  | t_enclose p o c A : typed p A -> typed (PEnclose p o c) A                  (* src/ctor/enclose.rs:209 *)
  | t_seponce p s q A B : typed p A -> typed q B -> typed (PSepOnce p s q) (TPair A B)   (* src/ctor/sep.rs:212 *)
  | t_sep p s m b A : typed p A -> typed (PSep p s m b) (TVec A)               (* src/ctor/sep.rs:497 *)
  | t_sep2 p s m n b A : calm = false -> typed p A -> typed (PSep2 p s m n b) (TArray n A)   (* src/ctor/sep.rs:776 *)
  | t_sepcollect p s m b A : typed p A -> typed (PSepCollect p s m b) (TVec A) (* src/ctor/sep.rs:1085; the collection is a [Vec] *)
  | t_repeat p r A : typed p A -> typed (PRepeat p r) (TVec A)                 (* src/ctor/repeat.rs:207 *)
  | t_repeat2 p m n A : calm = false -> typed p A -> typed (PRepeat2 p m n) (TArray n A)     (* src/ctor/repeat2.rs:153 *)
  | t_collect p m A : typed p A -> typed (PCollect p m) (TVec A)               (* src/ctor/collect.rs:158; the collection is a [Vec] *)
  | t_option p A : typed p A -> typed (POption p) (TOpt A)                     (* src/ctor/opt.rs:148 *)
  | t_branch t p q A : (calm = true -> forall c, t c <> Panic /\ t c <> OOF) -> typed p A -> typed q A ->
      typed (PBranch t p q) A                                                 (* src/ctor/branch.rs:212 *)
  | t_map p f A B : typed p A -> (forall v, inh A v -> gives B (f v)) -> typed (PMap p f) B   (* src/ctor/map.rs:222 *)
  | t_dyn p f A B : typed p A ->
      (forall c v q, inh A v -> fst (f c v) = Ok q -> typed q B) ->
      (calm = true -> forall c v, inh A v -> fst (f c v) <> Panic /\ fst (f c v) <> OOF) ->
      typed (PDynThen p f) (TPair A B)                                        (* src/ctor/dthen.rs:208 *)
  | t_fn f A : (forall c, gives A (fst (f c))) -> typed (PCtorFn f) A          (* src/ctor/adapter.rs:151 *)
  | t_choice e b ps A : (forall p, In p ps -> typed p A) -> typed (PChoice e b ps) A   (* src/ctor/array.rs:127, vec.rs:131, slice.rs:138 *)
  | t_pairchoice e b ps A (V : val -> Prop) : (forall p v, In (p, v) ps -> typed p A /\ V v) ->
      typed (PPairChoice e b ps) (TPair A (TIs V))                            (* src/ctor/array.rs:252, vec.rs:301, slice.rs:313 *)
  | t_wrap p A : typed p A -> typed (PWrap p) A                                (* src/ctor.rs:139-291 *)
  | t_nonep A : typed PNoneP A                                                (* src/ctor.rs:139-291: an [Option] holding [None] *)
  | t_ref i : typed (PRef i) (T i)                                            (* src/regex/rec.rs:168-182 *)
  | t_lock i : calm = false -> typed (PLock i) (T i).                         (* src/regex/rec.rs:45-59 *)

  (** Every filled cell has the type of its handle. *)
  Definition typed_env (G : env) : Prop := forall i p, env_get G i = Some p -> typed p (T i).
End Types.
