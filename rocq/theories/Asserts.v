(** * Asserts: the assertions of internal/pkg/test (C66): testy.go, require.go and util.go:11-59. *)
From Coq Require Import List Bool Arith NArith Ascii String.
Import ListNotations.
From Verif Require Import Base.
Local Open Scope list_scope.

(** Texts are lists of bytes. *)
Definition bytes (s : string) : list N := map N_of_ascii (list_ascii_of_string s).

(** The texts of the helpers that theorems mention: util.go:45, testy.go:67, 52 (require.go:57, 42). *)
Definition colon : list N := bytes ": ".
Definition noPanicText : list N := bytes "no panic".
Definition panicText (x : list N) : list N := bytes "panic(" ++ x ++ bytes ")".

(** The part of a *testing.T that the helpers change: whether the test is marked as failed, and what was logged. t.Helper() only
    affects line numbers and is left out. *)
Record testT := mkT { t_failed : bool; t_log : list (list N) }.
Definition newT : testT := mkT false [].

(** The trailing arguments [msgAndArgs ...any]: none, a format that is a string with its arguments ([s]: the text fmt.Fprintf makes of
    them), or a first argument that is not a string. *)
Inductive msg := NoMsg | Msg (s : list N) | NotString.

(** How a call ends: it returns, panics ([isNil]: with the value nil, which recover does not report for the go 1.19 of go.mod:3), or
    ends the goroutine (t.FailNow calls runtime.Goexit). *)
Inductive ending (R : Type) := Returns (r : R) | Panics (isNil : bool) | Exits.
Arguments Returns {R} _.
Arguments Panics {R} _.
Arguments Exits {R}.
Definition cmd (R : Type) : Type := testT -> testT * ending R.

(** util.go:41-51: the loop that writes the two messages; [None]: the type assertion of :47 panics. *)
Definition addMsg (sb : option (list N)) (m : msg) : option (list N) :=
  match sb, m with
  | None, _ => None
  | Some s, NoMsg => Some s
  | Some s, Msg x => Some (match s with [] => x | _ => s ++ colon ++ x end)
  | Some _, NotString => None
  end.
(** util.go:39-59 [failX]. *)
Definition failX (now : bool) (m2 m1 : msg) : cmd bool := fun t =>
  match addMsg (addMsg (Some []) m1) m2 with
  | None => (t, Panics false)
  | Some line => (mkT true (t_log t ++ [line]), if now then Exits else Returns false)
  end.
(** util.go:29-32 [fail]. *)
Definition fail_ (m2 m1 : msg) : cmd bool := failX false m2 m1.
(** util.go:34-37 [failNow]. *)
Definition failNow_ (m2 m1 : msg) : cmd bool := failX true m2 m1.
(** util.go:21-27 [check]; [assert] (:11-14) and [require] (:16-19) are its two values of [now]. *)
Definition check (pass now : bool) (m2 m1 : msg) : cmd bool := fun t => if pass then (t, Returns true) else failX now m2 m1 t.

(** The assertions on a condition: [now = false] is the function of testy.go, [now = true] its Require of require.go. The texts with
    values in them ([x]) are what fmt makes of the format named. [eq]: the answer of reflect.DeepEqual.
    testy.go:70-73, require.go:60-63. *)
Definition True_ (now b : bool) (m : msg) : cmd bool := check b now m (Msg (bytes "!true")).
(** testy.go:33-36, require.go:23-26. *)
Definition False_ (now b : bool) (m : msg) : cmd bool := check (negb b) now m (Msg (bytes "!false")).
(** testy.go:28-31, require.go:18-21; "%v != %v". *)
Definition Equal_ (now eq : bool) (x y : list N) (m : msg) : cmd bool := check eq now m (Msg (x ++ bytes " != " ++ y)).
(** testy.go:43-46, require.go:33-36; also "%v != %v". *)
Definition NotEqual_ (now eq : bool) (x y : list N) (m : msg) : cmd bool := check (negb eq) now m (Msg (x ++ bytes " != " ++ y)).
(** testy.go:38-41, require.go:28-31; "error %v != nil"; [isNil]: err == nil. *)
Definition NoError_ (now isNil : bool) (x : list N) (m : msg) : cmd bool := check isNil now m (Msg (bytes "error " ++ x ++ bytes " != nil")).
(** testy.go:23-26, require.go:13-16; "%v not empty"; [len]: reflect's Len, [None]: a value that has none, where Len panics. *)
Definition Empty_ (now : bool) (len : option nat) (x : list N) (m : msg) : cmd bool := fun t =>
  match len with None => (t, Panics false) | Some n => check (Nat.eqb n 0) now m (Msg (x ++ bytes " not empty")) t end.
(** testy.go:18-21, require.go:8-11; "elements differ:..."; [same]: the answer of sameElements (TestSupport). *)
Definition ElementsMatch_ (now same : bool) (x : list N) (m : msg) : cmd bool := check same now m (Msg (bytes "elements differ:" ++ x)).

(** testy.go:8-11 [Fail]. *)
Definition Fail_ (m : msg) : cmd bool := fail_ m NoMsg.
(** testy.go:13-16 [FailNow]: it calls [fail] as well. *)
Definition FailNow_ (m : msg) : cmd bool := fail_ m NoMsg.

(** testy.go:59-68 [Panic], require.go:49-58 [RequirePanic]. The deferred function also runs when failX panics; recover stops either panic, and
    the result is true unless the value is nil. *)
Definition recovers (t : testT) (o : ending bool) : testT * ending bool :=
  match o with Panics isNil => (t, Returns (negb isNil)) | _ => (t, o) end.
Definition Panic_ (now : bool) (f : cmd unit) (m : msg) : cmd bool := fun t =>
  let (t1, o) := f t in
  match o with
  | Exits => (t1, Exits)
  | Panics isNil => recovers t1 (Panics isNil)
  | Returns _ => let (t2, o2) := failX now m (Msg noPanicText) t1 in recovers t2 o2
  end.
(** testy.go:48-57 [NoPanic], require.go:38-47 [RequireNoPanic]; "panic(%v)" with the value [x]. *)
Definition NoPanic_ (now : bool) (f : cmd unit) (x : list N) (m : msg) : cmd bool := fun t =>
  let (t1, o) := f t in
  match o with
  | Exits => (t1, Exits)
  | Panics true => (t1, Returns false)
  | Panics false => failX now m (Msg (panicText x)) t1
  | Returns _ => (t1, Returns true)
  end.

(** A test function made of assertions on conditions; what follows can depend on the answer. *)
Inductive testFn := Done | Assert (now pass : bool) (m1 : list N) (m2 : msg) (next : bool -> testFn).
Fixpoint runTest (f : testFn) (t : testT) : testT * ending unit :=
  match f with
  | Done => (t, Returns tt)
  | Assert now pass m1 m2 next =>
      let (t1, o) := check pass now m2 (Msg m1) t in
      match o with Returns b => runTest (next b) t1 | Panics isNil => (t1, Panics isNil) | Exits => (t1, Exits) end
  end.
(** The answers of the assertions that are reached. *)
Fixpoint reached (f : testFn) : list bool :=
  match f with
  | Done => []
  | Assert now pass _ m2 next => pass :: (if pass then reached (next true) else match m2 with NotString => [] | _ => if now then [] else reached (next false) end)
  end.
