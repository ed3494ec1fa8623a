(** The project's own tests and documentation examples, replayed on the model.

    This file is not part of any property.  It is evidence that the model is faithful: every
    [Example] transcribes an assertion of /repo (cited by file and line) and is settled by
    evaluation.  A disagreement between the model and an assertion of the project would show up
    here as a failing proof. *)

From Coq Require Import List Arith NArith ZArith Bool String Ascii.
From Verif Require Import Base Text Context Neu Syntax Regex Ctor Api Maps.
Import ListNotations.
Local Open Scope string_scope.
Local Open Scope list_scope.
Local Open Scope nat_scope.

(** Test device: the code points of a string literal (UTF-8 decoded) and its bytes. *)
Definition bytes_of (s : string) : text := map N_of_ascii (list_ascii_of_string s).
Definition tx (s : string) : text :=
  match decode (bytes_of s) with Some t => t | None => [] end.
Definition ch (s : string) : item := hd 0%N (tx s).

(** Test device: one call of the API on a fresh context. *)
Definition F : nat := 300.
Definition mat (p : pat) (s : string) : res span := fst (try_mat_top F [] [] p (ctx_new KStr (tx s))).
Definition matb (p : pat) (s : string) : res span := fst (try_mat_top F [] [] p (ctx_new KBytes (bytes_of s))).
Definition vals (p : pat) (s : string) : res val := fst (ctor F [] [] p (ctx_new KStr (tx s))).
Definition valb (p : pat) (s : string) : res val := fst (ctor F [] [] p (ctx_new KBytes (bytes_of s))).
Definition spans (p : pat) (s : string) : res val := fst (ctor_span F [] [] p (ctx_new KStr (tx s))).
(** Test device: the same under [skip_before(neu::whitespace().many0())]. *)
Definition vals_ws (p : pat) (s : string) : res val :=
  fst (ctor F [] [PMany0 NWhitespace CEmpty] p (ctx_new KStr (tx s))).
(** Test device: several matches in a row on the same context. *)
Fixpoint mats (ps : list pat) (c : ctx) : list (option span) :=
  match ps with
  | [] => []
  | p :: ps' => let (r, c') := try_mat_top F [] [] p c in
                (match r with Ok s => Some s | _ => None end) :: mats ps' c'
  end.
Definition run (ps : list pat) (s : string) : list (option span) := mats ps (ctx_new KStr (tx s)).
Definition is_err {A} (r : res A) : bool := match r with Err _ => true | _ => false end.

(** Test device: shorthands for the fluent API (src/ctor.rs:300-360, src/neu.rs, src/regex.rs). *)
Definition L (s : string) : pat := PLit (tx s).
Definition C (s : string) : neu := NChar (ch s).
Definition T (s : string) : val := VText (tx s).
Definition B (s : string) : val := VText (bytes_of s).
Definition once u := POnce u CEmpty.
Definition many1 u := PMany1 u CEmpty.
Definition many0 u := PMany0 u CEmpty.
Definition uopt u := POpt u CEmpty.
Definition count n u := PBetween n (Some n) u CEmpty.
Definition between m n u := PBetween m (Some n) u CEmpty.
Definition at_least m u := PBetween m None u CEmpty.
Definition ws := many0 NWhitespace.
Definition skip_ws p := PSuffix p ws.
Definition skip_ws_leading p := PPrefix p ws.
Definition sep p s := PSep p s 1 true.
Definition sep_collect p s := PSepCollect p s 1 true.
Definition collect p := PCollect p 1.
Definition from_1 := CRange (Incl 1) Unb.
Definition fst_of p := mapped p (select0 0).
Definition snd_of p := mapped p (select1 0).
Definition i16 := ITy 2 true.
Definition i32 := ITy 4 true.
Definition i64 := ITy 8 true.
Definition usz := ITy 8 false.
Definition digits := many1 (NDigit 10).
Definition lower := NRange (Incl (ch "a")) (Incl (ch "z")).
Definition upper := NRange (Incl (ch "A")) (Incl (ch "Z")).
Definition zs (l : list Z) : res val := Ok (VList (map VNum l)).
Definition ts (l : list string) : res val := Ok (VList (map T l)).
(** Test device: [char::is_alphabetic] needs Unicode tables; on the inputs below it agrees with
    the ASCII class. *)
Definition alphabetic := NFn is_ascii_alpha.

(* tests/01_collect.rs:10-23 *)
Example t01 : spans (collect (once NAsciiAlphabetic)) "abcdf"
  = Ok (VList [VSpan (Span 0 1); VSpan (Span 1 1); VSpan (Span 2 1); VSpan (Span 3 1); VSpan (Span 4 1)]).
Proof. vm_compute. reflexivity. Qed.

(* tests/02_ltm.rs:10-25 *)
Definition port := PSepOnce (L "localhost") (L ":") (L "8080").
Example t02a : mat (POr (L "localhost") port) "localhost" = Ok (Span 0 9).
Proof. vm_compute. reflexivity. Qed.
Example t02b : mat (POr (L "localhost") port) "localhost:8080" = Ok (Span 0 9).
Proof. vm_compute. reflexivity. Qed.
Example t02c : mat (PLongest (L "localhost") port) "localhost:8080" = Ok (Span 0 14).
Proof. vm_compute. reflexivity. Qed.

(* tests/03_or.rs *)
Example t03 : map (mat (POr (L "localhost") (L "127.0.0.1"))) ["127.0.0.1"; "localhost"]
  = [Ok (Span 0 9); Ok (Span 0 9)].
Proof. vm_compute. reflexivity. Qed.

(* tests/04_quote.rs:10-39 *)
Definition digit09 := many1 (NRange (Incl (ch "0")) (Incl (ch "9"))).
Example t04a : spans (PEnclose (PSep2 digit09 (once (C ",")) 1 5 true) (L "[") (L "]")) "[123,456,789]"
  = Ok (VList [VSome (VSpan (Span 1 3)); VSome (VSpan (Span 5 3)); VSome (VSpan (Span 9 3)); VNone; VNone]).
Proof. vm_compute. reflexivity. Qed.
Example t04b : spans (PEnclose (sep digit09 (once (C ","))) (L "[") (L "]")) "[123,456,789]"
  = Ok (VList [VSpan (Span 1 3); VSpan (Span 5 3); VSpan (Span 9 3)]).
Proof. vm_compute. reflexivity. Qed.

(* tests/05_repeat.rs:8-44 *)
Definition foos := PRepeat (L "foo") (CRange (Incl 2) (Incl 5)).
Example t05a : is_err (spans foos "foo") = true.
Proof. vm_compute. reflexivity. Qed.
Example t05b : spans foos "foofoofoofoo"
  = Ok (VList [VSpan (Span 0 3); VSpan (Span 3 3); VSpan (Span 6 3); VSpan (Span 9 3)]).
Proof. vm_compute. reflexivity. Qed.
Example t05c : is_err (spans (PRepeat2 (L "foo") 2 5) "foo") = true.
Proof. vm_compute. reflexivity. Qed.
Example t05d : spans (PRepeat2 (L "foo") 2 5) "foofoofoofoo"
  = Ok (VList [VSome (VSpan (Span 0 3)); VSome (VSpan (Span 3 3)); VSome (VSpan (Span 6 3));
               VSome (VSpan (Span 9 3)); VNone]).
Proof. vm_compute. reflexivity. Qed.

(* tests/06_sep_once.rs *)
Example t06 : spans (PSepOnce (many1 (NNot (C ":"))) (L ":") (many1 (NNot (C ":"))))
    "Explained: What is programming language?"
  = Ok (VPair (VSpan (Span 0 9)) (VSpan (Span 10 30))).
Proof. vm_compute. reflexivity. Qed.

(* tests/07_sep_collect.rs *)
Definition host := many1 (NOr (C ".") NAsciiAlphabetic).
Example t07 : spans (sep_collect (POr (PSepOnce (L "http") (L "://") host)
                                      (PSepOnce (L "https") (L "://") host)) (L ","))
    "https://developer.mozilla.org,http://developer.mozilla.org"
  = Ok (VList [VPair (VSpan (Span 0 5)) (VSpan (Span 8 21)); VPair (VSpan (Span 30 4)) (VSpan (Span 37 21))]).
Proof. vm_compute. reflexivity. Qed.

(* tests/08_sep.rs *)
Example t08a : spans (PSep2 digit09 (once (C ",")) 1 3 true) "123,456,789"
  = Ok (VList [VSome (VSpan (Span 0 3)); VSome (VSpan (Span 4 3)); VSome (VSpan (Span 8 3))]).
Proof. vm_compute. reflexivity. Qed.
Example t08b : spans (sep digit09 (once (C ","))) "123,456,789"
  = Ok (VList [VSpan (Span 0 3); VSpan (Span 4 3); VSpan (Span 8 3)]).
Proof. vm_compute. reflexivity. Qed.

(* tests/09_then.rs *)
Example t09 : spans (PThen (many1 NAsciiAlphabetic) (many1 NAsciiAlphanumeric)) "abc42"
  = Ok (VPair (VSpan (Span 0 3)) (VSpan (Span 3 2))).
Proof. vm_compute. reflexivity. Qed.

(* tests/10_wrap.rs:43-100; the struct built by the mappers is a tagged pair here *)
Definition ident10 := many1 (NOr (NOr NAsciiAlphabetic NAsciiAlphanumeric) (C "_")).
Definition ty10 := PPat (PThen (once (NOr NAsciiAlphabetic (C "_"))) ident10).
Definition tag (z : Z) (v : val) : res val := Ok (VPair (VNum z) v).
Definition layer0 := PMap ty10 (tag 0).
Definition layer1 := PMap (PWrap (PThen ty10 (PEnclose ty10 (L "<") (L ">")))) (tag 1).
Definition layer2 := PMap (PWrap (PThen ty10 (PEnclose (PThen ty10 (PEnclose ty10 (L "<") (L ">"))) (L "<") (L ">")))) (tag 2).
Definition field10 := PSepOnce ident10 (L ":") (POr layer2 (POr layer1 layer0)).
Definition parser10 := sep (POr (PMap (PPrefix field10 (L "pub")) (tag 1)) (PMap field10 (tag 0))) (L ",").
Example t10 : vals_ws parser10 "a: i64, b: Option<String>, pub c: bool"
  = Ok (VList [VPair (VNum 0) (VPair (T "a") (VPair (VNum 0) (T "i64")));
               VPair (VNum 0) (VPair (T "b") (VPair (VNum 1) (VPair (T "Option") (T "String"))));
               VPair (VNum 1) (VPair (T "c") (VPair (VNum 0) (T "bool")))]).
Proof. vm_compute. reflexivity. Qed.

(* tests/11_policy.rs:37-57: the head of the test file itself *)
Definition ident11 := PPat (PThen (once (NOr NAsciiAlphabetic (C "_"))) (many0 (NOr NAsciiAlphanumeric (C "_")))).
Definition use11 p := PSuffix (PPrefix (PThen p (POption (L "*"))) (L "use")) (L ";").
Definition dat11 := "use neure::prelude::*;
use std::fs::read_to_string;

#[test]
fn policy() {".
Example t11a : vals_ws (collect (use11 (sep ident11 (L "::")))) dat11
  = Ok (VList [VPair (VList [T "neure"; T "prelude"]) (VSome (T "*"));
               VPair (VList [T "std"; T "fs"; T "read_to_string"]) VNone]).
Proof. vm_compute. reflexivity. Qed.
Example t11b : vals_ws (collect (use11 (PSep2 ident11 (L "::") 1 5 true))) dat11
  = Ok (VList [VPair (VList [VSome (T "neure"); VSome (T "prelude"); VNone; VNone; VNone]) (VSome (T "*"));
               VPair (VList [VSome (T "std"); VSome (T "fs"); VSome (T "read_to_string"); VNone; VNone]) VNone]).
Proof. vm_compute. reflexivity. Qed.

(* src/ctor.rs:379-396 *)
Definition arr379 := PEnclose (sep (mapped digits (from_str i64)) (skip_ws (L ","))) (L "[") (L "]").
Example d379 : (vals arr379 "[2, 4, 8, 16, 42]", vals (PPat arr379) "[2, 4, 8, 16, 42]")
  = (zs [2; 4; 8; 16; 42]%Z, Ok (T "[2, 4, 8, 16, 42]")).
Proof. vm_compute. reflexivity. Qed.

(* src/ctor.rs:405-420 *)
Example d405 : map (vals (POption (mapped digits (from_str usz)))) ["foo"; "955"]
  = [Ok VNone; Ok (VSome (VNum 955))].
Proof. vm_compute. reflexivity. Qed.

(* src/ctor.rs:429-445 *)
Example d429 : vals (PEnclose (sep (PEnclose (once NAscii) (L "'") (L "'")) (skip_ws (L ","))) (L "[") (L "]"))
    "['a', 'c', 'd', 'f']" = ts ["a"; "c"; "d"; "f"].
Proof. vm_compute. reflexivity. Qed.

(* src/ctor.rs:454-470 *)
Example d454 : vals (PEnclose (sep (many1 (NNot (NOr (NOr (NOr NNever (NEqual (ch ","))) (NEqual (ch "]"))) (NEqual (ch "[")))))
                               (skip_ws (once (C ",")))) (L "[") (L "]")) "[c, rust, java, c++]"
  = ts ["c"; "rust"; "java"; "c++"].
Proof. vm_compute. reflexivity. Qed.

(* src/ctor.rs:483-510, 517-545 *)
Definition ele483 := PSepOnce (skip_ws (many1 alphabetic)) (skip_ws (L "=>"))
                              (skip_ws (many1 (NNot (NOr NWhitespace (C ","))))).
Definition text483 := "{
        c => c11,
        cpp => c++23,
        rust => 2021,
    }".
Definition pairs483 : res val :=
  Ok (VList [VPair (T "c") (T "c11"); VPair (T "cpp") (T "c++23"); VPair (T "rust") (T "2021")]).
Example d483 : vals (PEnclose (sep ele483 (skip_ws (L ","))) (skip_ws (L "{")) (L "}")) text483 = pairs483.
Proof. vm_compute. reflexivity. Qed.
Example d517 : vals (PEnclose (sep_collect ele483 (skip_ws (L ","))) (skip_ws (L "{")) (L "}")) text483 = pairs483.
Proof. vm_compute. reflexivity. Qed.

(* src/ctor.rs:554-580 *)
Definition esc554 : text := [92; 34]%N.
Definition str554 := PPat (PRepeat (POr (PMany1 (NNot (NOr NNever (NEqual 34%N))) (CRegex (PAssert (PLit esc554) false)))
                                        (PLit esc554)) from_1).
Definition quote := PLit [34]%N.
Example d554 : fst (ctor F [] [] (sep (PEnclose str554 quote quote) (skip_ws (L ",")))
      (ctx_new KStr (([34] ++ tx "lily" ++ [92; 34; 34; 44; 32; 34] ++ tx "lilei" ++ [34; 44; 32; 34]
                      ++ tx "lucy" ++ [34])%N)))
  = Ok (VList [VText (tx "lily" ++ esc554); T "lilei"; T "lucy"]).
Proof. vm_compute. reflexivity. Qed.

(* src/ctor.rs:588-606 *)
Example d588 : vals (PEnclose (sep (PLongest (L "v") (PLongest (L "val") (L "value"))) (skip_ws (L ","))) (L "{") (L "}"))
    "{val, v, value}" = ts ["val"; "v"; "value"].
Proof. vm_compute. reflexivity. Qed.

(* src/ctor.rs:615-632 *)
Definition id615 := many1 NAsciiAlphabetic.
Definition ty615 := POr (snd_of (PThen (skip_ws (L "struct")) id615)) (snd_of (PThen (skip_ws (L "enum")) id615)).
Example d615 : vals (fst_of (PThen (skip_ws ty615) (PEnclose ws (L "{") (L "}")))) "struct widget { }" = Ok (T "widget").
Proof. vm_compute. reflexivity. Qed.

(* src/ctor.rs:641-672 *)
Definition using641 := PIfThen
  (snd_of (PSepOnce (L "use") (L "") (sep (many1 (NOr (NOr NAsciiAlphanumeric (C "*")) (C "_"))) (L "::"))))
  (L "as") (many1 NAsciiAlphanumeric).
Example d641 : map (vals_ws using641) ["use neure::prelude::*"; "use neure as regex"]
  = [Ok (VPair (VList [T "neure"; T "prelude"; T "*"]) VNone); Ok (VPair (VList [T "neure"]) (VSome (T "regex")))].
Proof. vm_compute. reflexivity. Qed.

(* src/ctor.rs:681-696 *)
Example d681 : vals (PRepeat (skip_ws (mapped digits (from_str_radix i32 10))) (CRange (Incl 3) (Excl 5))) "1 2 3 4"
  = zs [1; 2; 3; 4]%Z.
Proof. vm_compute. reflexivity. Qed.

(* src/ctor.rs:709-726 *)
Example d709 : fst (ctor F [] [] (collect (mapped (PConsume 2) (from_le_bytes i16)))
                      (ctx_new KBytes [0x2f; 0; 0x1f; 0; 0x0f; 0]%N)) = zs [0x2f; 0x1f; 0x0f]%Z.
Proof. vm_compute. reflexivity. Qed.

(* src/ctor.rs:735-750 *)
Definition branch735 := PBranch (fun c => match orig c with
                                          | Ok t => Ok (starts_with t (tx "file"))
                                          | Err e => Err e | Panic => Panic | OOF => OOF end) (L "file://") (L "http://").
Example d735 : map (vals branch735) ["file://"; "http://"] = [Ok (T "file://"); Ok (T "http://")].
Proof. vm_compute. reflexivity. Qed.

(* src/ctor.rs:764-785 *)
Definition sep764 := NOr (NOr NNever (NEqual (ch "，"))) (NEqual (ch ";")).
Definition end764 := NOr (NOr (NOr NNever (NEqual (ch "。"))) (NEqual (ch "？"))) (NEqual (ch "！")).
Definition sent764 := PSuffix (sep (many1 (NNot (NOr sep764 end764))) (skip_ws (once sep764))) (once end764).
Example d764 : (match vals (PRepeat sent764 from_1)
   "暖日晴风初破冻。柳眼眉腮，已觉春心动。酒意诗情谁与共。泪融残粉花钿重。乍试夹衫金缕缝。山枕斜敧，枕损钗头凤。独抱浓愁无好梦。夜阑犹剪灯花弄。"
   with Ok (VList l) => List.length l | _ => 0 end) = 8.
Proof. vm_compute. reflexivity. Qed.

(* src/ctor.rs:793-823 *)
Definition num793 := count 2 (NDigit 10).
Definition time793 := skip_ws (PEnclose (PSepOnce num793 (L ":") num793) (L "[") (L "]")).
Definition record793 := PThen (PPrefix (skip_ws (many1 (NNot NWhitespace))) (skip_ws (count 3 (C "*"))))
                              (skip_ws (POr (L "left") (L "joined"))).
Definition rec_val (a b c d : string) := VPair (VPair (T a) (T b)) (VPair (T c) (T d)).
Example d793 : vals (PRepeat (PThen time793 record793) from_1)
"[20:59] *** jpn left
        [21:00] *** jpn joined
        [21:06] *** guifa left
        [21:07] *** guifa joined"
  = Ok (VList [rec_val "20" "59" "jpn" "left"; rec_val "21" "00" "jpn" "joined";
               rec_val "21" "06" "guifa" "left"; rec_val "21" "07" "guifa" "joined"]).
Proof. vm_compute. reflexivity. Qed.

(* src/ctor.rs:829-842, 864-877 *)
Example d829 : (vals (skip_ws (L "file://")) "file://      ", mat (skip_ws (L "file://")) "file://      ")
  = (Ok (T "file://"), Ok (Span 0 13)).
Proof. vm_compute. reflexivity. Qed.
Example d864 : (vals (skip_ws_leading (L "file://")) "      file://", mat (skip_ws_leading (L "file://")) "      file://")
  = (Ok (T "file://"), Ok (Span 0 13)).
Proof. vm_compute. reflexivity. Qed.

(* src/ctor/adapter.rs:216-240, src/neu/then.rs:28-40 *)
Definition hex216 := PPat (PThen (PNeuThen (NOr (C "+") (C "-")) NAsciiHexDigit CEmpty) (count 3 NAsciiHexDigit)).
Example d216 : (valb hex216 "+AE00", is_err (valb hex216 "-GH66"), valb hex216 "-83FD")
  = (Ok (B "+AE00"), true, Ok (B "-83FD")).
Proof. vm_compute. reflexivity. Qed.
Example d216m : valb (mapped hex216 (from_utf8 0)) "+AE00" = Ok (T "+AE00").
Proof. vm_compute. reflexivity. Qed.

(* src/ctor/adapter.rs:166-205: a constructing function that moves the cursor itself; [find] of std
   is written out as a loop over the items *)
Fixpoint find_digit (k : kind) (o : nat) (l : text) : option (nat * nat) :=
  match l with
  | [] => None
  | c :: l' => if is_ascii_digit c then Some (o, width k c) else find_digit k (o + width k c) l'
  end.
Definition numeric166 := PCtorFn (fun c =>
  match orig c with
  | Ok t => match find_digit (c_kind c) (c_off c) t with
            | Some (o, n) => let c' := with_offset c (o + n) in
                             (match orig_sub c' o n with Ok v => Ok (VText v) | Err e => Err e | Panic => Panic | OOF => OOF end, c')
            | None => (Err (EUid 1), c)
            end
  | Err e => (Err e, c) | Panic => (Panic, c) | OOF => (OOF, c)
  end).
Example d166 : map (vals (PThen numeric166 numeric166)) ["fo1ba5"; "foobar"]
  = [Ok (VPair (T "1") (T "5")); Err (EUid 1)].
Proof. vm_compute. reflexivity. Qed.

(* src/ctor/adapter.rs:247-270, src/ctor/into.rs:90-110 *)
Definition date247 := PWrap (PSepOnce (count 4 NAsciiDigit) (L "-") (PSepOnce (count 2 NAsciiDigit) (L "-") (count 2 NAsciiDigit))).
Definition time247 := PSepOnce (count 2 NAsciiDigit) (L ":") (PSepOnce (count 2 NAsciiDigit) (L ":") (count 2 NAsciiDigit)).
Definition date_val := VPair (T "2024") (VPair (T "01") (T "08")).
Example d247 : (vals date247 "2024-01-08", vals (PSepOnce date247 (L " ") time247) "2024-01-08 10:01:13")
  = (Ok date_val, Ok (VPair date_val (VPair (T "10") (VPair (T "01") (T "13"))))).
Proof. vm_compute. reflexivity. Qed.

(* src/ctor/adapter.rs:281-295 *)
Definition two281 := PWrap (PNeuThen NAsciiHexDigit NAsciiHexDigit CEmpty).
Example d281 : (valb two281 "AE", is_err (valb two281 "GH")) = (Ok (B "AE"), true).
Proof. vm_compute. reflexivity. Qed.

(* src/ctor/adapter.rs:334-360 *)
Definition prog334 := PWrap (PSepOnce (at_least 3 NAsciiDigit) (PWrap (L "/")) (at_least 3 NAsciiDigit)).
Example d334 : (vals prog334 "999/1000", is_err (vals prog334 "99A/100")) = (Ok (VPair (T "999") (T "1000")), true).
Proof. vm_compute. reflexivity. Qed.

(* src/ctor/adapter.rs:370-385 *)
Definition cjk370 := PWrap (PEnclose (many1 (NRange (Incl 0x4e00) (Incl 0x9fff))%N) (L "《") (L "》")).
Example d370 : (vals cjk370 "《东方力量》", is_err (vals cjk370 "《Power》")) = (Ok (T "东方力量"), true).
Proof. vm_compute. reflexivity. Qed.

(* src/ctor/adapter.rs:395-415 *)
Definition num395 := mapped (mapped (once NAsciiDigit) (from_utf8 0)) (from_str usz).
Example d395 : map (valb (PWrap (PSepOnce num395 (L ",") num395))) ["3,0"; "2,1"; "0,3"]
  = map (fun ab => Ok (VPair (VNum (fst ab)) (VNum (snd ab)))) [(3, 0); (2, 1); (0, 3)]%Z.
Proof. vm_compute. reflexivity. Qed.

(* src/ctor/adapter.rs:472-490 *)
Example d472 : vals (PWrap (fst_of (PSepOnce (PSepOnce (many1 NAsciiAlphabetic) (L "_") (count 10 NAsciiDigit)) (L ".") (L "txt"))))
    "video_1135897722.txt" = Ok (VPair (T "video") (T "1135897722")).
Proof. vm_compute. reflexivity. Qed.

(* src/ctor/adapter.rs:545-570 *)
Definition path545 := PWrap (PThen (POption (L "/")) (POption (sep (many1 (NNot (C "/"))) (L "/")))).
Example d545 : map (vals path545) ["/"; "/foo"; "foo/bar"]
  = [Ok (VPair (VSome (T "/")) VNone); Ok (VPair (VSome (T "/")) (VSome (VList [T "foo"])));
     Ok (VPair VNone (VSome (VList [T "foo"; T "bar"])))].
Proof. vm_compute. reflexivity. Qed.

(* src/ctor/affix.rs:35-50, 59-75, 246-260, 269-285 *)
Definition protocol35 := PSuffix (POr (L "https") (POr (L "http") (L "ftp"))) (L "://").
Definition domain35 := PSep (many1 alphabetic) (L ".") 2 true.
Example d35 : mat (PThen protocol35 domain35) "ftp://ftp.kernel.org" = Ok (Span 0 20).
Proof. vm_compute. reflexivity. Qed.
Example d59 : vals (PThen protocol35 domain35) "https://www.mozilla.org"
  = Ok (VPair (T "https") (VList [T "www"; T "mozilla"; T "org"])).
Proof. vm_compute. reflexivity. Qed.
Example d246 : (mat (PPrefix domain35 protocol35) "ftp://ftp.kernel.org", vals (PPrefix domain35 protocol35) "ftp://ftp.kernel.org")
  = (Ok (Span 0 20), ts ["ftp"; "kernel"; "org"]).
Proof. vm_compute. reflexivity. Qed.

(* src/ctor/array.rs:33-45, 61-70 *)
Definition abc33 := PChoice EArray false [L "a"; L "b"; L "c"].
Example d33 : map (fun s => let (r, c) := try_mat_top F [] [] abc33 (ctx_new KStr (tx s)) in (is_err r, c_off c)) ["abc"; "xyz"]
  = [(false, 1); (true, 0)].
Proof. vm_compute. reflexivity. Qed.
Example d61 : (spans abc33 "abc", vals abc33 "bcd", spans abc33 "cde") = (Ok (VSpan (Span 0 1)), Ok (T "b"), Ok (VSpan (Span 0 1))).
Proof. vm_compute. reflexivity. Qed.

(* src/ctor/array.rs:186-200, src/ctor/slice.rs:253-268, src/ctor/vec.rs:195-250 *)
Example d186 : vals (PPairChoice EPairArray false [(L "a", VNum 0); (L "b", VNum 1); (L "c", VNum 2)]%Z) "cab"
  = Ok (VPair (T "c") (VNum 2)).
Proof. vm_compute. reflexivity. Qed.
Definition keywords195 := PPairChoice EPairVector false [(L "for", VNum 0); (L "while", VNum 1); (L "repeat", VNum 2)]%Z.
Example d195 : (map (mat keywords195) ["while"; "repeat"], map (vals keywords195) ["while"; "repeat"])
  = ([Ok (Span 0 5); Ok (Span 0 6)], [Ok (VPair (T "while") (VNum 1)); Ok (VPair (T "repeat") (VNum 2))]).
Proof. vm_compute. reflexivity. Qed.

(* src/ctor/branch.rs:34-50, 60-85 *)
Definition branch34 := PBranch (fun c => match csub (ctx_len c) (c_off c) with
                                         | Ok d => Ok (3 <=? d) | Err e => Err e | Panic => Panic | OOF => OOF end)
                               (count 3 NAsciiDigit) (many0 NAsciiDigit).
Example d34 : map (mat branch34) ["21345"; "42"] = [Ok (Span 0 3); Ok (Span 0 2)].
Proof. vm_compute. reflexivity. Qed.
Definition ends_with (t : text) (s : string) : bool := starts_with (rev t) (rev (tx s)).
Definition google60 := PBranch (fun c => match orig c with
                                         | Ok t => Ok (ends_with t "jp" || ends_with t "kr")
                                         | Err e => Err e | Panic => Panic | OOF => OOF end)
  (PPat (PSepOnce (L "google") (L ".") (PSepOnce (L "co") (L ".") (POr (L "kr") (L "jp")))))
  (PPat (PSepOnce (L "google") (L ".") (POr (L "com") (L "is")))).
Example d60 : map (vals google60) ["google.com"; "google.is"; "google.co.jp"; "google.co.kr"]
  = map (fun s => Ok (T s)) ["google.com"; "google.is"; "google.co.jp"; "google.co.kr"].
Proof. vm_compute. reflexivity. Qed.

(* src/ctor/collect.rs:28-40, 54-66 *)
Example d28 : (is_err (matb (collect (L "+")) "---A"), matb (collect (L "+")) "+++A", is_err (matb (PCollect (L "+") 3) "++-A"))
  = (true, Ok (Span 0 3), true).
Proof. vm_compute. reflexivity. Qed.
Example d54 : (is_err (valb (collect (L "+")) "---A"), valb (collect (L "+")) "+++A", valb (collect (L "+")) "++-A")
  = (true, ts ["+"; "+"; "+"], ts ["+"; "+"]).
Proof. vm_compute. reflexivity. Qed.

(* src/ctor/dthen.rs:46-58, 66-95 *)
Definition data46 := PDynThen (mapped (PConsume 2) (from_le_bytes i16))
  (fun c v => (match v with VNum z => Ok (PConsume (Z.to_nat z)) | _ => Err EFail end, c)).
Example d46 : fst (ctor F [] [] data46 (ctx_new KBytes ([31; 0]%N ++ bytes_of "Hello there, where are you from?")))
  = Ok (VPair (VNum 31) (B "Hello there, where are you from")).
Proof. vm_compute. reflexivity. Qed.
Definition times_n (z : Z) u := PTimes (CRange (Incl (Z.to_nat z)) (Incl (Z.to_nat z))) u CEmpty.
Definition plus66 := PDynThen (PSepOnce num395 (L ",") num395)
  (fun c v => (match v with
               | VPair (VNum a) (VNum b) => Ok (PThen (times_n a (C "+")) (times_n b (C "-")))
               | _ => Err EFail end, c)).
Example d66 : map (valb plus66) ["3,0+++"; "2,1++-"; "0,3---"]
  = [Ok (VPair (VPair (VNum 3) (VNum 0)) (VPair (B "+++") (B "")));
     Ok (VPair (VPair (VNum 2) (VNum 1)) (VPair (B "++") (B "-")));
     Ok (VPair (VPair (VNum 0) (VNum 3)) (VPair (B "") (B "---")))].
Proof. vm_compute. reflexivity. Qed.

(* src/ctor/enclose.rs:38-48, 64-75, 79-95 *)
Example d38 : mat (PEnclose (many0 (NDigit 10)) (L "(") (L ")")) "(42686)" = Ok (Span 0 7).
Proof. vm_compute. reflexivity. Qed.
Example d64 : fst (ctor F [] [] (PEnclose (many1 (NNot (NChar 34%N))) quote quote) (ctx_new KStr ([34] ++ tx "rust" ++ [34])%N))
  = Ok (T "rust").
Proof. vm_compute. reflexivity. Qed.
Example d79 : vals (PEnclose (PMany1 (NNot (C "#")) (CRegex (PAssert (PNeuThen (C "r") (C "#") CEmpty) false))) (L "r#") (L "#"))
    "r#rust raw string#" = Ok (T "rust raw string").
Proof. vm_compute. reflexivity. Qed.

(* src/ctor/longest.rs:36-50, 66-80 *)
Example d36 : map (mat (PLongest (L "http") (L "https"))) ["https://docs.rs"; "http://docs.rs"] = [Ok (Span 0 5); Ok (Span 0 4)].
Proof. vm_compute. reflexivity. Qed.
Definition num66 := PLongest (mapped digits (from_str_radix i32 10)) (mapped (many1 (NDigit 16)) (from_str_radix i32 16)).
Example d66b : vals (PEnclose (sep num66 (skip_ws (L ","))) (L "{") (L "}")) "{12, 1E, A8, 88, 2F}"
  = zs [12; 0x1e; 0xa8; 88; 0x2f]%Z.
Proof. vm_compute. reflexivity. Qed.

(* src/ctor/map.rs:30-50, 59-75, 88-105 *)
Example d59m : (mat (PThen (count 3 NAsciiAlphabetic) (mapped (count 3 (NDigit 10)) (from_str i32))) "foo777",
                vals (PThen (count 3 NAsciiAlphabetic) (mapped (count 3 (NDigit 10)) (from_str i32))) "foo777")
  = (Ok (Span 0 6), Ok (VPair (T "foo") (VNum 777))).
Proof. vm_compute. reflexivity. Qed.
Example d88 : fst (map_text F [] [] (count 3 (NDigit 10)) (try_map (from_str i32)) (ctx_new KStr (tx "777"), tt)) = Ok (VNum 777).
Proof. vm_compute. reflexivity. Qed.

(* src/ctor/opt.rs:33-45, 55-66 *)
Example d33o : map (mat (POption (many1 (NDigit 16)))) ["f1"; "p8"] = [Ok (Span 0 2); Ok span_default].
Proof. vm_compute. reflexivity. Qed.
Example d55o : map (vals (POption (mapped digits (from_str i32)))) ["42"; "f1"] = [Ok (VSome (VNum 42)); Ok VNone].
Proof. vm_compute. reflexivity. Qed.

(* src/ctor/or.rs:35-52, 62-95 *)
Example d35o : map (mat (POr (many1 (NDigit 16)) (many1 (NOr lower upper)))) ["8848"; "hello world"] = [Ok (Span 0 4); Ok (Span 0 5)].
Proof. vm_compute. reflexivity. Qed.
Definition radix62 (s : string) (r : N) := snd_of (PThen (L s) (mapped (many1 (NDigit r)) (from_str_radix i64 r))).
Definition const62 (z : Z) (_ : val) : res val := Ok (VNum z).
Definition sign62 := POr (PMap (L "+") (const62 1)) (POr (PMap (L "-") (const62 (-1))) (PMap PEmpty (const62 1))).
Definition num62 := PMap (PThen sign62 (POr (radix62 "0b" 2) (POr (radix62 "0o" 8) (POr (radix62 "0d" 10) (radix62 "0x" 16)))))
  (fun v => match v with VPair (VNum a) (VNum b) => Ok (VNum (a * b)) | _ => Err EFail end).
Example d62 : vals (sep num62 (skip_ws (L ","))) "0d18, +0o17, -0x18, -0b1010" = zs [18; 15; -24; -10]%Z.
Proof. vm_compute. reflexivity. Qed.

(* src/ctor/pat.rs:30-40, 49-60 *)
Definition website := PSepOnce (L "abc") (L ".") (L "com").
Example d30 : (mat website "abc.com", mat (PPat website) "abc.com", vals website "abc.com", vals (PPat website) "abc.com")
  = (Ok (Span 0 7), Ok (Span 0 7), Ok (VPair (T "abc") (T "com")), Ok (T "abc.com")).
Proof. vm_compute. reflexivity. Qed.

(* src/ctor/repeat.rs:36-46, 62-72; src/ctor/repeat2.rs:36-46, 62-72 *)
Example d36r : (mat (PRepeat (skip_ws (count 2 NWord)) from_1) "Hello, World!", mat (PRepeat2 (skip_ws (count 2 NWord)) 1 32) "Hello, World!")
  = (Ok (Span 0 4), Ok (Span 0 4)).
Proof. vm_compute. reflexivity. Qed.
Example d62r : vals (PRepeat (skip_ws (once NAlways)) from_1) "你好，世界？" = ts ["你"; "好"; "，"; "世"; "界"; "？"].
Proof. vm_compute. reflexivity. Qed.
Example d62r2 : vals (PRepeat2 (skip_ws (once NAlways)) 1 6) "你好，世界？"
  = Ok (VList (map (fun s => VSome (T s)) ["你"; "好"; "，"; "世"; "界"; "？"])).
Proof. vm_compute. reflexivity. Qed.

(* src/ctor/sep.rs:47-60, 73-90 *)
Example d47 : mat (PSepOnce (many1 (NNot (C "="))) (L "=") (many1 (NNot (C "=")))) "lang=rust" = Ok (Span 0 9).
Proof. vm_compute. reflexivity. Qed.
Example d73 : vals (PSepOnce (PSepOnce num793 (L ":") num793) (L ":") num793) "20:31:42"
  = Ok (VPair (VPair (T "20") (T "31")) (T "42")).
Proof. vm_compute. reflexivity. Qed.

(* src/ctor/sep.rs:300-315, 608-622 *)
Example d300 : (mat (PEnclose (sep digits (PSuffix (L ",") ws)) (L "{") (L "}")) "{11, 42, 8, 99}",
                mat (PEnclose (PSep2 digits (PSuffix (L ",") ws) 0 8 true) (L "{") (L "}")) "{11, 42, 8, 99}")
  = (Ok (Span 0 15), Ok (Span 0 15)).
Proof. vm_compute. reflexivity. Qed.

(* src/ctor/sep.rs:327-343, 635-655 *)
Definition ty327 := PPat (PThen (once (NOr lower upper)) (many0 NWord)).
Example d327 : vals (PEnclose (sep ty327 (PSuffix (L ",") ws)) (L "<") (L ">")) "<Ctx, T, O1, O2>" = ts ["Ctx"; "T"; "O1"; "O2"].
Proof. vm_compute. reflexivity. Qed.
Example d635 : vals (PEnclose (PSep2 ty327 (PSuffix (L ",") ws) 1 4 true) (L "<") (L ">")) "<Ctx, T, O1, O2>"
  = Ok (VList (map (fun s => VSome (T s)) ["Ctx"; "T"; "O1"; "O2"])).
Proof. vm_compute. reflexivity. Qed.

(* src/ctor/sep.rs:889-905, 920-945 *)
Example d889 : mat (PEnclose (sep_collect digits (skip_ws (L ","))) (L "[") (L "]")) "[18, 24, 42, 58, 69]" = Ok (Span 0 20).
Proof. vm_compute. reflexivity. Qed.
Example d920 : vals (PEnclose (sep_collect (PSepOnce (many1 NWord) (L " => ") (mapped digits (from_str (ITy 4 false)))) (L ", ")) (L "{") (L "}"))
    "{rust => 2015, golang => 2012, java => 1996}"
  = Ok (VList [VPair (T "rust") (VNum 2015); VPair (T "golang") (VNum 2012); VPair (T "java") (VNum 1996)]).
Proof. vm_compute. reflexivity. Qed.

(* src/ctor/slice.rs:46-56, 77-87, 209-240 *)
Example d77 : vals (PChoice ESlice false [L "abc"; L "def"; L "ghi"]) "ghi" = Ok (T "ghi").
Proof. vm_compute. reflexivity. Qed.
Definition kinds209 := PPairChoice EPairSlice false [(PWrap digits, VNum 0); (PWrap (many1 NWord), VNum 1); (PWrap PConsumeAll, VNum 2)]%Z.
Example d209 : (vals kinds209 "crab", vals kinds209 "2025", mat kinds209 "&ptr")
  = (Ok (VPair (T "crab") (VNum 1)), Ok (VPair (T "2025") (VNum 0)), Ok (Span 0 4)).
Proof. vm_compute. reflexivity. Qed.

(* src/ctor/then.rs:53-68, 89-105 *)
Example d53 : fst (try_mat_top F [] [] (PThen (PEnclose (many1 NAsciiAlphabetic) quote quote) (PPrefix digits (L " ")))
                     (ctx_new KStr ([34] ++ tx "Galaxy" ++ [34] ++ tx " 42")%N)) = Ok (Span 0 11).
Proof. vm_compute. reflexivity. Qed.
Example d89 : vals (PThen digits (PPrefix (sep (many1 NWord) ws) (L " "))) "42 is the answer"
  = Ok (VPair (T "42") (VList [T "is"; T "the"; T "answer"])).
Proof. vm_compute. reflexivity. Qed.

(* src/ctor/then.rs:275-292, 302-316 *)
Definition generic275 := PIfThen (many1 NWord) (PAssert (L "<") true) (PEnclose (sep (many1 NWord) (L ", ")) (L "<") (L ">")).
Example d275 : map (mat generic275) ["Vec"; "Vec<A, B>"] = [Ok (Span 0 3); Ok (Span 0 9)].
Proof. vm_compute. reflexivity. Qed.
Definition tuple302 := PEnclose (PIfThen (many1 NAsciiAlphabetic) (skip_ws (L ",")) (many1 NAsciiAlphabetic)) (L "(") (L ")").
Example d302 : map (vals tuple302) ["(abc)"; "(abc, cde)"] = [Ok (VPair (T "abc") VNone); Ok (VPair (T "abc") (VSome (T "cde")))].
Proof. vm_compute. reflexivity. Qed.

(* src/ctor/vec.rs:39-50, 57-95 *)
Example d39 : map (mat (PChoice EVector false [L "for"; L "while"; L "repeat"])) ["while"; "repeat"] = [Ok (Span 0 5); Ok (Span 0 6)].
Proof. vm_compute. reflexivity. Qed.
Definition year := count 4 (NDigit 10).
Definition style1 := PMap (PSepOnce year (L "-") (PSepOnce num793 (L "-") num793)) (fun v => Ok v).
Definition style2 := PMap (PSepOnce num793 (L "/") (PSepOnce num793 (L "/") year))
  (fun v => match v with VPair d (VPair m y) => Ok (VPair y (VPair m d)) | _ => Err EFail end).
Definition style3 := PMap (PThen year (PThen num793 num793)) (fun v => Ok v).
Definition ymd y m d := Ok (VPair (T y) (VPair (T m) (T d))).
Example d57 : map (vals (PChoice EVector false [PWrap style1; PWrap style2; PWrap style3])) ["20251112"; "12/10/2025"; "2025-10-08"]
  = [ymd "2025" "11" "12"; ymd "2025" "10" "12"; ymd "2025" "10" "08"].
Proof. vm_compute. reflexivity. Qed.

(* src/ctx.rs:100, 124, 193-205, 246-250 *)
Example d100 : (fst (is_mat F [] [] digits (ctx_new KStr (tx "98"))), mat digits "98") = (Ok true, Ok (Span 0 2)).
Proof. vm_compute. reflexivity. Qed.
Example d193 : fst (try_mat_policy (try_mat_top F [] [] (PSuffix (L "Give me") (many0 NAsciiWhitespace)))
                                   (try_mat_top F [] [] digits)
                                   (try_mat_top F [] [] (PPrefix (L "cents") (many0 NAsciiWhitespace)))
                                   (ctx_new KStr (tx "Give me 98 cents."))) = Ok (Span 8 2).
Proof. vm_compute. reflexivity. Qed.
Example d246a : (let (r, c) := try_assert F [] [] (L "42") (ctx_new KStr (tx "42")) in (r, c_off c)) = (Ok true, 0).
Proof. vm_compute. reflexivity. Qed.

(* src/ctx.rs:469-485, 549-565, 600-625 *)
Definition date469 := PSepOnce (L "Dec") (L ". ") (between 1 2 (NDigit 10)).
Definition text469 := "Dec. 19   What do people love about Rust?
Dec. 16     Project goals update — November 2025
".
Example d469 : fst (find extract_text F [] [] date469 (ctx_new KStr (tx text469), tt)) = Ok (Some (T "Dec. 19")).
Proof. vm_compute. reflexivity. Qed.
Definition num549 := at_least 1 (NDigit 10).
Definition ver549 := PPat (PSepOnce (PSepOnce num549 (L ".") num549) (L ".") num549).
Definition text549 := "Stable: 1.92.0
Beta: 1.93.0 (22 January, 2026, 33 days left)
Nightly: 1.94.0 (5 March, 2026, 75 days left)
".
Example d549 : fst (find_all extract_text F [] [] ver549 (ctx_new KStr (tx text549), tt)) = Ok (map T ["1.92.0"; "1.93.0"; "1.94.0"]).
Proof. vm_compute. reflexivity. Qed.
Definition parser600 := PSuffix (PSepOnce date469 (skip_ws (L "")) (at_least 1 NWild)) (PLit [10]%N).
Example d600 : fst (match_seq extract_text F [] [] parser600 (ctx_new KStr (tx text469), tt))
  = Ok [VText (tx "Dec. 19   What do people love about Rust?" ++ [10]%N);
        VText (tx "Dec. 16     Project goals update — November 2025" ++ [10]%N)].
Proof. vm_compute. reflexivity. Qed.

(* src/ctx/regex.rs:97-105, 218-300: the instruction grammar under [skip_ascii_whitespace()] *)
Example d97 : vals (mapped (PPrefix digits (L "rust")) (from_str i32)) "rust2026" = Ok (VNum 2026).
Proof. vm_compute. reflexivity. Qed.
Definition data218 := "
123 -> x
456 -> y
x AND y -> d
x OR y -> e
x LSHIFT 2 -> f
y RSHIFT 2 -> g
NOT x -> h
NOT y -> i
     ".
Definition wire218 := many1 NAsciiLowercase.
Definition sig218 := PMap digits (tag 0).
Definition op218 := POr sig218 (PMap wire218 (tag 1)).
Definition src218 := PWrap (POr (PMap (PSepOnce op218 (L "AND") op218) (tag 10))
  (POr (PMap (PSepOnce op218 (L "OR") op218) (tag 11))
  (POr (PMap (PSepOnce op218 (L "LSHIFT") op218) (tag 12))
  (POr (PMap (PSepOnce op218 (L "RSHIFT") op218) (tag 13))
  (POr (PMap (PPrefix op218 (L "NOT")) (tag 14)) (PMap sig218 (tag 15))))))).
Definition dat_handler : handler unit := fun c s u =>
  (match span_orig s c with Ok t => Ok (VPair (VSpan s) (VText t)) | Err e => Err e | Panic => Panic | OOF => OOF end, u).
Definition out218 := fst (ctor_handler dat_handler tt F [] skip_ascii_whitespace (collect (PSepOnce src218 (L "->") wire218))
                            (ctx_new KStr (tx data218))).
Definition nth218 (n : nat) := match out218 with Ok (VList l) => nth_error l n | _ => None end.
Definition dat (b n : nat) (s : string) := VPair (VSpan (Span b n)) (T s).
Example d218 : ((match out218 with Ok (VList l) => List.length l | _ => 0 end), nth218 0, nth218 6)
  = (8, Some (VPair (VPair (VNum 15) (VPair (VNum 0) (dat 1 3 "123"))) (dat 8 1 "x")),
     Some (VPair (VPair (VNum 14) (VPair (VNum 1) (dat 80 1 "x"))) (dat 85 1 "h"))).
Proof. vm_compute. reflexivity. Qed.

(* src/macro.rs:271-285 *)
Definition strval271 := PPat (PRepeat (POr (PMany1 (NNot (NChar 34%N)) (CRegex (PAssert (PNeuThen (NChar 92%N) (NSet [92; 34; 9]%N) CEmpty) false)))
                                           (PNeuThen (NChar 92%N) (NSet [92; 34; 9]%N) CEmpty)) (CRange (Incl 0) Unb)).
Example d271 : fst (ctor F [] [] (PEnclose strval271 quote quote) (ctx_new KBytes ([34] ++ bytes_of "abc" ++ [9; 34])%N))
  = Ok (VText (bytes_of "abc" ++ [9]%N)).
Proof. vm_compute. reflexivity. Qed.

(* src/map.rs:606, 628, 684-695, 791-802, 845-862 *)
Definition le606 := [1; 2; 3; 4]%N.
Example d606 : (fst (ctor F [] [] (mapped (PConsume 4) (from_le_bytes i32)) (ctx_new KBytes le606)),
                fst (ctor F [] [] (mapped (PConsume 4) (from_be_bytes i32)) (ctx_new KBytes le606)))
  = (Ok (VNum 0x04030201), Ok (VNum 0x01020304)).
Proof. vm_compute. reflexivity. Qed.
Definition zleb (a b : val) := match a, b with VNum x, VNum y => (x <=? y)%Z | _, _ => false end.
Definition zltb (a b : val) := match a, b with VNum x, VNum y => (x <? y)%Z | _, _ => false end.
Definition bounded684 hi := bounded zleb zltb (VNum 1) (VNum hi) 0.
Definition int684 := mapped digits (from_str i32).
Example d684 : vals (sep (mapped int684 (bounded684 8)) (L ",")) "1,3,5,7,9" = zs [1; 3; 5; 7]%Z.
Proof. vm_compute. reflexivity. Qed.
Example d791 : vals (sep (mapped int684 (with_default (VNum 0) (bounded684 5))) (L ",")) "1,3,5,7,9" = zs [1; 3; 0; 0; 0]%Z.
Proof. vm_compute. reflexivity. Qed.
Definition consume_map (m : mapper) := mapped (PConsume (out_size m)) m.
Example d845 : (let (r, x) := ctor F [] [] (consume_map (from_be_bytes (ITy 1 false))) (ctx_new KBytes ([11]%N ++ bytes_of "helloworld!")) in
                match r with
                | Ok (VNum n) => fst (ctor F [] [] (consume_map (fixed_size (Z.to_nat n))) (fst x))
                | _ => Err EFail end) = Ok (B "helloworld!").
Proof. vm_compute. reflexivity. Qed.

(* src/neu.rs:260-300 *)
Definition arr260 := PTimes (CRange (Incl 2) (Excl 6)) (NSet (tx "acfe")) CEmpty.
Example d260 : (map (mat arr260) ["aaffeeeaccc"; "acdde"], map (matb arr260) ["aaffeeeaccc"; "acdde"])
  = ([Ok (Span 0 5); Ok (Span 0 2)], [Ok (Span 0 5); Ok (Span 0 2)]).
Proof. vm_compute. reflexivity. Qed.

(* src/neu.rs:307-325, 338-660: the set and every kind of range, {1,6} *)
Definition a := ch "a".
Definition f := ch "f".
Definition g := ch "g".
Example d307 : map (fun u => mat (between 1 6 u) "aabbccgg")
    [NSet (tx "abcdef"); NRange (Incl a) (Excl g); NRange (Incl a) Unb; NRange Unb Unb; NRange (Incl a) (Incl f);
     NRange Unb (Excl g); NRange Unb (Incl f)]
  = repeat (Ok (Span 0 6)) 7.
Proof. vm_compute. reflexivity. Qed.
Example d307e : is_err (mat (between 1 6 (NSet (tx "abcdef"))) "0xbbb") = true.
Proof. vm_compute. reflexivity. Qed.

(* src/neu/bool.rs:54, 114; src/neu/equal.rs:39; src/neu/range.rs:232 *)
Example d54n : (mat (count 6 NAlways) "abc%$#&", is_err (mat (count 6 NNever) "abc%$#&")) = (Ok (Span 0 6), true).
Proof. vm_compute. reflexivity. Qed.
Example d39n : run [count 3 (NEqual (ch "A")); count 3 (NEqual (ch "A"))] "AAAabcd" = [Some (Span 0 3); None].
Proof. vm_compute. reflexivity. Qed.
Example d232n : run [count 3 (NRange (Incl a) (Incl f)); count 3 (NRange (Incl a) (Incl f))] "adfwgh" = [Some (Span 0 3); None].
Proof. vm_compute. reflexivity. Qed.

(* src/neu/cond.rs:30-48, 136-152 *)
Definition hello30 : text := ([34] ++ bytes_of "Hello world from " ++ [92; 34] ++ bytes_of "rust" ++ [92; 34] ++ bytes_of "!" ++ [34])%N.
Definition cond30 := CFn (fun c oi => match orig_at c (c_off c + fst oi) with
                                      | Ok t => Ok (negb (starts_with t [92; 34]%N))
                                      | Err e => Err e | Panic => Panic | OOF => OOF end).
Definition str30 := PPat (PRepeat (POr (PMany1 (NNot (NChar 34%N)) cond30) (PLit [92; 34]%N)) from_1).
Example d30n : fst (try_mat_top F [] [] (PEnclose str30 quote quote) (ctx_new KBytes hello30)) = Ok (Span 0 28).
Proof. vm_compute. reflexivity. Qed.
Definition escape136 := PNeuThen (NChar 92%N) (NChar 34%N) CEmpty.
Definition str136 := PPat (PRepeat (POr (PMany1 (NNot (NChar 34%N)) (CRegex (PAssert escape136 false))) escape136) from_1).
Example d136n : fst (try_mat_top F [] [] (PEnclose str136 quote quote) (ctx_new KBytes hello30)) = Ok (Span 0 28).
Proof. vm_compute. reflexivity. Qed.

(* src/neu/once.rs:42, 236; src/neu/opt.rs:52, 248; src/neu/times.rs:58, 73, 88, 103, 298 *)
Definition hex42 := NRange (Incl a) (Excl g).
Example d42 : map (fun p => mat p "aabbccgg")
    [once hex42; many1 hex42; uopt hex42; many0 hex42; between 1 6 hex42; between 0 6 hex42; at_least 2 hex42;
     PTimes (CRange (Incl 1) (Excl 7)) hex42 CEmpty]
  = map (fun n => Ok (Span 0 n)) [1; 6; 1; 6; 6; 6; 6; 6].
Proof. vm_compute. reflexivity. Qed.

(* src/neu/op_and.rs:13-30, 165-178; op_not.rs:13-28, 121-132; op_or.rs:13-28, 164-172 *)
Definition digit13 := NAnd (NDigit 10) (NFn (fun c => (ch "7" <? c)%N)).
Example d13 : map (mat (between 1 3 digit13)) ["899"; "99c"] = [Ok (Span 0 3); Ok (Span 0 2)].
Proof. vm_compute. reflexivity. Qed.
Example d165 : (matb (PTimes (CRange (Incl 6) Unb) (NAnd (NFn (fun c => (96 <? c)%N)) (NFn (fun c => (c <? 123)%N))) CEmpty) "abcedfgABCEE",
                matb (PTimes (CRange (Incl 6) Unb) (NNot NAsciiUppercase) CEmpty) "abcedfgABCEE")
  = (Ok (Span 0 7), Ok (Span 0 7)).
Proof. vm_compute. reflexivity. Qed.
Example d13n : map (mat (between 1 3 (NNot (NDigit 10)))) ["cc9"; "c99"] = [Ok (Span 0 2); Ok (Span 0 1)].
Proof. vm_compute. reflexivity. Qed.
Example d13o : (mat (between 1 2 (NOr (C "a") (C "b"))) "abc", valb (PPrefix (count 4 (NOr NAsciiHexDigit (NOr (C "g") (C "G")))) (L "0x")) "0xcfag")
  = (Ok (Span 0 2), Ok (B "cfag")).
Proof. vm_compute. reflexivity. Qed.

(* src/neu/units.rs:148-720: the classes that need no Unicode table; two matches in a row *)
Definition twice (n : nat) (u : neu) := [count n u; count n u].
Example d148 : map (fun us => run (twice 2 (fst us)) (snd us))
    [(NAscii, "ab❤e"); (NAsciiAlphabetic, "ab%e"); (NAsciiAlphanumeric, "8a%e"); (NAsciiDigit, "90fe");
     (NAsciiHexDigit, "9fg0"); (NAsciiLowercase, "efAE"); (NAsciiUppercase, "EFef"); (NDigit 10, "54aa")]
  = repeat [Some (Span 0 2); None] 8.
Proof. vm_compute. reflexivity. Qed.
Example d227 : map (fun us => mats (twice 2 (fst us)) (ctx_new KStr (snd us)))
    [(NAsciiControl, [13; 10; 37; 101]); (NAsciiGraphic, [97; 37; 13; 10]); (NAsciiPunctuation, [37; 37; 10; 69]);
     (NWild, [97; 97; 13; 10])]%N
  = [[Some (Span 0 2); None]; [Some (Span 0 2); None]; [Some (Span 0 2); None]; [Some (Span 0 2); None]].
Proof. vm_compute. reflexivity. Qed.
Example d402 : mats [count 1 NAsciiWhitespace; count 3 NAsciiWhitespace; count 1 NAsciiWhitespace] (ctx_new KStr [32; 32; 32; 32; 119; 160; 97]%N)
  = [Some (Span 0 1); Some (Span 1 3); None].
Proof. vm_compute. reflexivity. Qed.
Example d576 : mats [count 1 NWhitespace; count 3 NWhitespace; count 1 NWhitespace] (ctx_new KStr [32; 32; 32; 160; 97; 98]%N)
  = [Some (Span 0 1); Some (Span 1 4); None].
Proof. vm_compute. reflexivity. Qed.
Example d712 : mats [many1 NWord; many1 NWord] (ctx_new KStr (tx "TheLolipop_1" ++ [13; 10]%N)) = [Some (Span 0 12); None].
Proof. vm_compute. reflexivity. Qed.

(* src/regex.rs:251-270, 282-305, 314-330, 344-360 *)
Example d251 : (run [once (C "+"); digit09] "+2077", run [once (C "+")] "2077", run [uopt (C "+"); digit09] "+2077", run [uopt (C "+"); digit09] "2077")
  = ([Some (Span 0 1); Some (Span 1 4)], [None], [Some (Span 0 1); Some (Span 1 4)], [Some (Span 0 0); Some (Span 0 4)]).
Proof. vm_compute. reflexivity. Qed.
Definition digit0 := many0 (NRange (Incl (ch "0")) (Incl (ch "9"))).
Example d314 : (map (mat digit0) ["2048mb"; "rust2021"], mat digit09 "2048mb", is_err (mat digit09 "rust2021"))
  = ([Ok (Span 0 4); Ok (Span 0 0)], Ok (Span 0 4), true).
Proof. vm_compute. reflexivity. Qed.

(* src/regex.rs:373-390, 402-430 *)
Definition dot_later := CFn (fun c oi => match orig c with
  | Ok t => Ok (negb (snd oi =? ch ".")%N ||
                match drop_at (c_kind c) t (fst oi + 1) with Some r => existsb (N.eqb (ch ".")) r | None => false end)
  | Err e => Err e | Panic => Panic | OOF => OOF end).
Definition az := NRange (Incl a) (Excl (ch "{")).
Example d373 : (mat (at_least 0 az) "example.com", mat (PBetween 0 None (NOr az (C ".")) dot_later) "domain.example.com")
  = (Ok (Span 0 7), Ok (Span 0 14)).
Proof. vm_compute. reflexivity. Qed.

(* src/regex.rs:442-460, 495-530 *)
Definition decl (s : string) (id : pat) := PSepOnce (many1 NAsciiAlphabetic) (L s) id.
Definition decls := [decl "" id615; decl "*" id615; decl "&" id615].
Example d442 : map (vals_ws (PChoice EVector false decls)) ["int a"; "int *a"; "int &a"] = repeat (Ok (VPair (T "int") (T "a"))) 3.
Proof. vm_compute. reflexivity. Qed.
Example d495 : map (vals_ws (PPairChoice EPairVector false (combine decls (map VNum [0; 1; 2]%Z)))) ["int a"; "int *a"; "int &a"]
  = map (fun z => Ok (VPair (VPair (T "int") (T "a")) (VNum z))) [0; 1; 2]%Z.
Proof. vm_compute. reflexivity. Qed.

(* src/regex.rs:470-485, 541-575 *)
Example d470 : map (mat (PChoice EVector true [decl " " PEmpty; decl " *" PEmpty; decl " &" PEmpty])) ["int &"; "int *"]
  = [Ok (Span 0 5); Ok (Span 0 5)].
Proof. vm_compute. reflexivity. Qed.
Example d541 : map (vals_ws (PPairChoice EPairVector true (combine [decl "" PEmpty; decl "*" PEmpty; decl "&" PEmpty] (map VNum [0; 1; 2]%Z))))
    ["int "; "int *"; "int &"]
  = map (fun z => Ok (VPair (VPair (T "int") (T "")) (VNum z))) [0; 1; 2]%Z.
Proof. vm_compute. reflexivity. Qed.

(* src/regex.rs:585-760: arrays and slices, first-match and longest-match *)
Example d585 : (matb (PChoice EArray false [L "rust"; L "jawa"; L "golang"]) "rust is so awesome!",
                matb (PChoice EArray true [L "go"; L "golang"]) "golang is so awesome!",
                matb (PChoice ESlice true [L "g"; L "go"; L "golang"]) "go is so awesome!",
                matb (PPairChoice EPairArray false [(L "rust", VUnit); (L "jawa", VUnit); (L "golang", VUnit)]) "golang is so awesome!",
                matb (PPairChoice EPairArray true [(L "http", VUnit); (L "https", VUnit)]) "https://docs.example.dev")
  = (Ok (Span 0 4), Ok (Span 0 6), Ok (Span 0 2), Ok (Span 0 6), Ok (Span 0 5)).
Proof. vm_compute. reflexivity. Qed.

(* src/regex/adapter.rs:111-125, 138-200, 257-275 *)
Definition fn111 (s : string) := PFn (fun c => try_mat_top F [] [] (L s) c).
Example d111 : (vals (PWrap (fn111 "who")) "who are you?", vals (PThen (PWrap (fn111 "@")) (PWrap (fn111 "@"))) "@@",
                vals (PWrap (PLeaf (PPrefix (L " are you from?") (L "where")))) "where are you from?")
  = (Ok (T "who"), Ok (VPair (T "@") (T "@")), Ok (T "where are you from?")).
Proof. vm_compute. reflexivity. Qed.
