(** Span storers (src/span.rs) and the span iterators (src/iter). *)

From Coq Require Import List Arith NArith Bool.
From Verif Require Import Base Text Context Neu Syntax Regex Ctor.
Import ListNotations.

(** ** Slicing by span *)

(** src/iter/mod.rs:18-66 [IndexBySpan for str, &str, [u8], &[u8], Vec<u8>, &Vec<u8>]: all are
    [self.get(span.beg..(span.beg + span.len))].  The overflow of [beg + len] past [usize::MAX] is not
    modelled. *)
Definition get_by_span (k : kind) (w : text) (s : span) : option text :=
  match drop_at k w (sbeg s) with
  | Some l => take_at k l (slen s)
  | None => None
  end.

(** src/ctx/regex.rs:470-485 [IndexBySpan for RegexCtx]: [span.orig(self).ok()]; src/ctx/policy.rs:187-196
    [IndexBySpan for PolicyCtx] delegates to the wrapped context. *)
Definition ctx_get_by_span (c : ctx) (s : span) : option text :=
  match span_orig s c with Ok t => Some t | _ => None end.

(** ** Helpers for mutable lists *)

(** std: [v[i] = f(v[i])] for an index in range; no change otherwise. *)
Fixpoint update {A} (l : list A) (i : nat) (f : A -> A) : list A :=
  match l, i with
  | [], _ => []
  | x :: l', 0 => f x :: l'
  | x :: l', S i' => x :: update l' i' f
  end.

(** ** VecStorer *)

(** src/span.rs:97-100 [struct VecStorer]: one list of spans per group. *)
Definition vstore := list (list span).

(** src/span.rs:105-109 [VecStorer::new]. *)
Definition vs_new (capacity : nat) : vstore := repeat [] capacity.
(** src/span.rs:112-114 [VecStorer::new_with]. *)
Definition vs_new_with (spans : list (list span)) : vstore := spans.
(** src/span.rs:120-123 [VecStorer::with_capacity]. *)
Definition vs_with_capacity (st : vstore) (capacity : nat) : vstore := repeat [] capacity.
(** src/span.rs:126-128 [VecStorer::len]. *)
Definition vs_len (st : vstore) : nat := length st.
(** src/span.rs:130-132 [VecStorer::is_empty]. *)
Definition vs_is_empty (st : vstore) : bool := vs_len st =? 0.
(** src/span.rs:137-140 [VecStorer::reset]. *)
Definition vs_reset (st : vstore) : vstore := map (fun _ => []) st.
(** src/span.rs:148-150 [VecStorer::contain]. *)
Definition vs_contain (st : vstore) (id : nat) : bool :=
  match nth_error st id with Some v => negb (length v =? 0) | None => false end.
(** src/span.rs:156-159 [VecStorer::add_span]: [self.spans[id].push(span)]; the index panics when out of
    range. *)
Definition vs_add_span (id : nat) (s : span) : M vstore unit :=
  fun st => if id <? length st then (Ok tt, update st id (fun v => v ++ [s])) else (Panic, st).
(** src/span.rs:164-169 [VecStorer::clr_span]. *)
Definition vs_clr_span (st : vstore) (id : nat) : vstore := update st id (fun _ => []).
(** src/span.rs:176-178 [VecStorer::span]. *)
Definition vs_span (st : vstore) (id index : nat) : option span :=
  match nth_error st id with Some v => nth_error v index | None => None end.
(** src/span.rs:185-189 [VecStorer::spans]. *)
Definition vs_spans (st : vstore) (id : nat) : option (list span) :=
  match nth_error st id with
  | Some v => if length v =? 0 then None else Some v
  | None => None
  end.
(** src/span.rs:209-221 [VecStorer::slice] (for any [value] that can be indexed by spans). *)
Definition vs_slice (get : span -> option text) (st : vstore) (id index : nat) : option text :=
  match vs_span st id index with Some s => get s | None => None end.

(** A method of the storer called while the context is borrowed as well. *)
Definition on_store {S A} (m : M S A) : M (ctx * S) A :=
  fun x => let (r, s) := m (snd x) in (r, (fst x, s)).

(** src/span.rs:279-288 [VecStorer::try_cap]. *)
Definition vs_try_cap (fuel : nat) (G : env) (pols : list pat) (id : nat) (p : pat) : M (ctx * vstore) span :=
  s <- on_ctx (try_mat_top fuel G pols p) ;;
  on_store (vs_add_span id s) ;;
  ret s.

(** ** ArrayStorer *)

(** src/span.rs:303-306 [struct ArrayStorer<M, N>]: [M] arrays of [N] optional spans. *)
Definition astore := list (list (option span)).

(** src/span.rs:317-321 [ArrayStorer::new] ([Default] 308-312 is the same). *)
Definition as_new (m n : nat) : astore := repeat (repeat None n) m.
(** src/span.rs:324-326 [ArrayStorer::new_with]. *)
Definition as_new_with (spans : list (list (option span))) : astore := spans.
(** src/span.rs:329-331 [ArrayStorer::len]. *)
Definition as_len (st : astore) : nat := length st.
(** src/span.rs:333-335 [ArrayStorer::is_empty]. *)
Definition as_is_empty (st : astore) : bool := as_len st =? 0.
(** src/span.rs:340-347 [ArrayStorer::reset]. *)
Definition as_reset (st : astore) : astore := map (map (fun _ => None)) st.
(** src/span.rs:355-360 [ArrayStorer::contain]. *)
Definition as_contain (st : astore) (id : nat) : bool :=
  match nth_error st id with
  | Some v => existsb (fun o : option span => match o with Some _ => true | None => false end) v
  | None => false
  end.
(** src/span.rs:366-369 [ArrayStorer::set_span]: both indices panic when out of range. *)
Definition as_set_span (id index : nat) (s : span) : M astore unit :=
  fun st => match nth_error st id with
            | Some v => if index <? length v then (Ok tt, update st id (fun v => update v index (fun _ => Some s)))
                        else (Panic, st)
            | None => (Panic, st)
            end.
(** src/span.rs:374-381 [ArrayStorer::clr_span]. *)
Definition as_clr_span (st : astore) (id : nat) : astore := update st id (map (fun _ => None)).
(** src/span.rs:388-392 [ArrayStorer::span]. *)
Definition as_span (st : astore) (id index : nat) : option span :=
  match nth_error st id with
  | Some v => match nth_error v index with Some o => o | None => None end
  | None => None
  end.
(** src/span.rs:399-407 [ArrayStorer::spans]: [v.is_empty()] asks whether the array has length 0. *)
Definition as_spans (st : astore) (id : nat) : option (list (option span)) :=
  match nth_error st id with
  | Some v => if length v =? 0 then None else Some v
  | None => None
  end.
(** src/span.rs:427-439 [ArrayStorer::slice]. *)
Definition as_slice (get : span -> option text) (st : astore) (id index : nat) : option text :=
  match as_span st id index with Some s => get s | None => None end.
(** src/span.rs:505-520 [ArrayStorer::try_cap]. *)
Definition as_try_cap (fuel : nat) (G : env) (pols : list pat) (id index : nat) (p : pat)
  : M (ctx * astore) span :=
  s <- on_ctx (try_mat_top fuel G pols p) ;;
  on_store (as_set_span id index s) ;;
  ret s.

(** ** The iterators *)

(** The state of each iterator is its position; the borrowed slice does not change.  [next] maps the
    position to the produced item and the new position. *)

(** src/iter/span.rs:38-43 [IteratorBySpan::next]. *)
Definition by_span_next (get : span -> option text) (spans : list span) (cur : nat) : option text * nat :=
  (match nth_error spans cur with Some s => get s | None => None end, cur + 1).
(** src/iter/span.rs:45-49 [IteratorBySpan::size_hint]: the subtraction is checked. *)
Definition by_span_size_hint (spans : list span) (cur : nat) : res nat := csub (length spans) cur.

(** src/iter/span.rs:70-79 [SpanIterator::next]. *)
Definition span_iter_next (spans : list span) (offset : nat) : option span * nat :=
  if offset <? length spans then (nth_error spans offset, offset + 1) else (None, offset).

(** src/iter/span.rs:107-115 [IteratorByOptionSpan::next]. *)
Definition by_ospan_next (get : span -> option text) (spans : list (option span)) (cur : nat)
  : option text * nat :=
  (match nth_error spans cur with
   | Some (Some s) => get s
   | _ => None
   end, cur + 1).
(** src/iter/span.rs:117-121 [IteratorByOptionSpan::size_hint]. *)
Definition by_ospan_size_hint (spans : list (option span)) (cur : nat) : res nat := csub (length spans) cur.

(** src/iter/span.rs:142-151 [OptionSpanIterator::next]. *)
Definition ospan_iter_next (spans : list (option span)) (offset : nat) : option span * nat :=
  if offset <? length spans
  then (match nth_error spans offset with Some o => o | None => None end, offset + 1)
  else (None, offset).

(** src/iter/byte.rs:28-37 [BytesIndices::next] (the index is in range). *)
Definition bytes_next (bytes : text) (offset : nat) : option (nat * item) * nat :=
  match nth_error bytes offset with
  | Some x => (Some (offset, x), offset + 1)
  | None => (None, offset)
  end.
(** src/iter/byte.rs:39-43 [BytesIndices::size_hint]. *)
Definition bytes_size_hint (bytes : text) (offset : nat) : res nat := csub (length bytes) offset.

(** src/span.rs:194-196 [VecStorer::spans_iter]. *)
Definition vs_spans_iter (st : vstore) (id : nat) : option (list span * nat) :=
  option_map (fun v => (v, 0)) (vs_spans st id).
(** src/span.rs:226-231 [VecStorer::slice_iter]. *)
Definition vs_slice_iter (st : vstore) (id : nat) : option (list span * nat) :=
  option_map (fun v => (v, 0)) (vs_spans st id).
(** src/span.rs:412-414 [ArrayStorer::spans_iter]. *)
Definition as_spans_iter (st : astore) (id : nat) : option (list (option span) * nat) :=
  option_map (fun v => (v, 0)) (as_spans st id).
(** src/span.rs:444-453 [ArrayStorer::slice_iter]. *)
Definition as_slice_iter (st : astore) (id : nat) : option (list (option span) * nat) :=
  option_map (fun v => (v, 0)) (as_spans st id).
