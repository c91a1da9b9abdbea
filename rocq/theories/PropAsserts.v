(** * PropAsserts: assertions of the tests (C66).

    Generated by tools/genprops.py from SpecAsserts.v and tools/examples/PropAsserts.txt.
    Every theorem is followed by a case that meets its hypotheses. *)
From Verif Require Import Base Asserts SpecAsserts.

(** A test that has already logged a line; the caller's message is "i". *)
Definition tA : testT := mkT false [[97; 98]%N].
Definition mI : msg := Msg [105]%N.
Lemma mI_string : isString mI.
Proof. discriminate. Qed.
(** Functions under test: one that fails its test and then panics, and one that returns. *)
Definition fPanics : cmd unit := fun t => (marked t [120]%N, Panics false).
Definition fReturns : cmd unit := fun t => (t, Returns tt).
(** A test function with four assertions of which the third is reached only if the second fails. *)
Definition fourChecks (second : bool) : testFn :=
  Assert true true [49]%N NoMsg (fun _ => Assert false second [50]%N mI (fun b =>
    if b then Assert true true [52]%N mI (fun _ => Done) else Assert true false [51]%N NoMsg (fun _ => Assert false true [52]%N NoMsg (fun _ => Done)))).

Theorem C66_holds : forall (now : bool) m1 m2 t,
  check true now m2 m1 t = (t, Returns true).
Proof. exact @c66_holds. Qed.
Print Assumptions C66_holds.
Example C66_holds_case := C66_holds true (Msg [49]%N) NotString tA.
Example C66_holds_run : True_ true true mI tA = (tA, Returns true).
Proof. vm_compute. reflexivity. Qed.

Theorem C66_fails : forall now m1 m2 t,
  isString m2 -> check false now m2 (Msg m1) t = (marked t (lineOf m1 m2), if now then Exits else Returns false).
Proof. exact @c66_fails. Qed.
Print Assumptions C66_fails.
Example C66_fails_case := C66_fails true [49]%N mI tA mI_string.
Example C66_fails_run : (True_ false false mI tA, True_ true false NoMsg tA) =
  ((mkT true [[97; 98]; [33; 116; 114; 117; 101; 58; 32; 105]], Returns false), (mkT true [[97; 98]; [33; 116; 114; 117; 101]], Exits))%N.
Proof. vm_compute. reflexivity. Qed.

Theorem C66_conditions : forall (now : bool) m t,
  isString m ->
  let ok (c : bool) (r : testT * ending bool) := t_failed (fst r) = orb (t_failed t) (negb c) /\ snd r = (if c then Returns true else if now then Exits else Returns false) in
  (forall b, ok b (True_ now b m t)) /\ (forall b, ok (negb b) (False_ now b m t)) /\ (forall eq x y, ok eq (Equal_ now eq x y m t)) /\
  (forall eq x y, ok (negb eq) (NotEqual_ now eq x y m t)) /\ (forall e x, ok e (NoError_ now e x m t)) /\
  (forall n x, ok (Nat.eqb n 0) (Empty_ now (Some n) x m t)) /\ (forall s x, ok s (ElementsMatch_ now s x m t)).
Proof. exact @c66_conditions. Qed.
Print Assumptions C66_conditions.
Example C66_conditions_case := C66_conditions true mI tA mI_string.
Example C66_conditions_run : let r (c : cmd bool) := let (t, o) := c tA in (t_failed t, o) in
  (r (False_ true false mI), r (Equal_ false false [49] [50] mI), r (NotEqual_ true true [49] [49] mI), r (NoError_ false true [] mI), r (Empty_ true (Some 3%nat) [51] mI), r (Empty_ true None [51] mI), r (ElementsMatch_ false false [51] NoMsg))%N =
  ((false, Returns true), (true, Returns false), (true, Exits), (false, Returns true), (true, Exits), (false, Panics false), (true, Returns false)).
Proof. vm_compute. reflexivity. Qed.

Theorem C66_badMessage : forall now m1 t,
  check false now NotString (Msg m1) t = (t, Panics false).
Proof. exact @c66_badMessage. Qed.
Print Assumptions C66_badMessage.
Example C66_badMessage_case := C66_badMessage true [49]%N tA.

Theorem C66_tests : forall f,
  forall t, snd (runTest f t) <> Panics false ->
  t_failed (fst (runTest f t)) = orb (t_failed t) (negb (forallb id (reached f))).
Proof. exact @c66_tests. Qed.
Print Assumptions C66_tests.
Example C66_tests_case : t_failed (fst (runTest (fourChecks false) tA)) = true.
Proof. rewrite C66_tests; [vm_compute; reflexivity|vm_compute; discriminate]. Qed.
Example C66_tests_run : (runTest (fourChecks true) tA, reached (fourChecks true), snd (runTest (fourChecks false) tA), reached (fourChecks false)) =
  (tA, Returns tt, [true; true; true], Exits, [true; false; false]).
Proof. vm_compute. reflexivity. Qed.

Theorem C66_panic_partial : forall now f m t,
  isString m -> snd (f t) <> Panics true ->
  match snd (f t) with
  | Panics _ => Panic_ now f m t = (fst (f t), Returns true)
  | Returns _ => Panic_ now f m t = (marked (fst (f t)) (lineOf noPanicText m), if now then Exits else Returns false)
  | Exits => Panic_ now f m t = (fst (f t), Exits)
  end.
Proof. exact @c66_panic. Qed.
Print Assumptions C66_panic_partial.
Example C66_panic_case : Panic_ true fPanics mI tA = (marked tA [120]%N, Returns true).
Proof. apply (C66_panic_partial true fPanics mI tA mI_string). discriminate. Qed.
Example C66_panic_run : Panic_ true fReturns mI tA = (marked tA [110; 111; 32; 112; 97; 110; 105; 99; 58; 32; 105]%N, Exits).
Proof. vm_compute. reflexivity. Qed.

Theorem C66_panic_refuted : exists f m, snd (f newT) = Returns tt /\ forall now, Panic_ now f m newT = (newT, Returns true).
Proof. exact @c66_panic_refuted. Qed.
Print Assumptions C66_panic_refuted.
Example C66_panic_refuted_run : (Panic_ true fReturns NotString tA, snd (Panic_ true fReturns NoMsg tA)) = (tA, Returns true, Exits).
Proof. vm_compute. reflexivity. Qed.

Theorem C66_nil_refuted : exists f, snd (f newT) = Panics true /\
  (forall now m, Panic_ now f m newT = (newT, Returns false)) /\ forall now x m, NoPanic_ now f x m newT = (newT, Returns false).
Proof. exact @c66_nil_refuted. Qed.
Print Assumptions C66_nil_refuted.
Example C66_nil_refuted_run : let f : cmd unit := fun t => (t, Panics true) in (Panic_ true f mI tA, NoPanic_ true f [] mI tA) = ((tA, Returns false), (tA, Returns false)).
Proof. vm_compute. reflexivity. Qed.

Theorem C66_noPanic_partial : forall now f x m t,
  isString m -> snd (f t) <> Panics true ->
  match snd (f t) with
  | Returns _ => NoPanic_ now f x m t = (fst (f t), Returns true)
  | Panics _ => NoPanic_ now f x m t = (marked (fst (f t)) (lineOf (panicText x) m), if now then Exits else Returns false)
  | Exits => NoPanic_ now f x m t = (fst (f t), Exits)
  end.
Proof. exact @c66_noPanic. Qed.
Print Assumptions C66_noPanic_partial.
Example C66_noPanic_case : NoPanic_ true fReturns [] mI tA = (tA, Returns true).
Proof. apply (C66_noPanic_partial true fReturns [] mI tA mI_string). discriminate. Qed.
Example C66_noPanic_run : NoPanic_ false fPanics [55]%N NoMsg tA = (marked (marked tA [120]) [112; 97; 110; 105; 99; 40; 55; 41], Returns false)%N.
Proof. vm_compute. reflexivity. Qed.

Theorem C66_fail : forall m t,
  isString m -> Fail_ m t = (marked t (lineOf [] m), Returns false).
Proof. exact @c66_fail. Qed.
Print Assumptions C66_fail.
Example C66_fail_case := C66_fail mI tA mI_string.

Theorem C66_failNow_refuted : forall m t, FailNow_ m t = Fail_ m t /\ snd (FailNow_ m t) <> Exits.
Proof. exact @c66_failNow_refuted. Qed.
Print Assumptions C66_failNow_refuted.
Example C66_failNow_refuted_run : FailNow_ mI tA = (mkT true [[97; 98]; [105]]%N, Returns false).
Proof. vm_compute. reflexivity. Qed.

Theorem C66_words_refuted : forall now x y m t, NotEqual_ now true x y m t = Equal_ now false x y m t.
Proof. exact @c66_words_refuted. Qed.
Print Assumptions C66_words_refuted.
Example C66_words_refuted_case := C66_words_refuted true [49]%N [49]%N mI tA.
