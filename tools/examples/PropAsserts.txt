@@ Preamble
(** A test that has already logged a line; the caller's message is "i". *)
Definition tA : testT := mkT false [[97; 98]%N].
Definition mI : msg := Msg [105]%N.
Lemma mI_string : isString mI.
Proof. discriminate. Qed.
(** Functions under test: one that fails its test and then panics, and one that returns. *)
Definition fPanics : cmd unit := fun t => (marked t [120]%N, Panics false).
Definition fReturns : cmd unit := fun t => (t, Returns tt).
(** A test function with four assertions of which the third is reached only if the second fails. *)
Definition fourChecks (second : bool) : testFn :=
  Assert true true [49]%N NoMsg (fun _ => Assert false second [50]%N mI (fun b =>
    if b then Assert true true [52]%N mI (fun _ => Done) else Assert true false [51]%N NoMsg (fun _ => Assert false true [52]%N NoMsg (fun _ => Done)))).

@@ C66_holds
Example C66_holds_case := C66_holds true (Msg [49]%N) NotString tA.
Example C66_holds_run : True_ true true mI tA = (tA, Returns true).
Proof. vm_compute. reflexivity. Qed.

@@ C66_fails
Example C66_fails_case := C66_fails true [49]%N mI tA mI_string.
Example C66_fails_run : (True_ false false mI tA, True_ true false NoMsg tA) =
  ((mkT true [[97; 98]; [33; 116; 114; 117; 101; 58; 32; 105]], Returns false), (mkT true [[97; 98]; [33; 116; 114; 117; 101]], Exits))%N.
Proof. vm_compute. reflexivity. Qed.

@@ C66_conditions
Example C66_conditions_case := C66_conditions true mI tA mI_string.
Example C66_conditions_run : let r (c : cmd bool) := let (t, o) := c tA in (t_failed t, o) in
  (r (False_ true false mI), r (Equal_ false false [49] [50] mI), r (NotEqual_ true true [49] [49] mI), r (NoError_ false true [] mI), r (Empty_ true (Some 3%nat) [51] mI), r (Empty_ true None [51] mI), r (ElementsMatch_ false false [51] NoMsg))%N =
  ((false, Returns true), (true, Returns false), (true, Exits), (false, Returns true), (true, Exits), (false, Panics false), (true, Returns false)).
Proof. vm_compute. reflexivity. Qed.

@@ C66_badMessage
Example C66_badMessage_case := C66_badMessage true [49]%N tA.

@@ C66_tests
Example C66_tests_case : t_failed (fst (runTest (fourChecks false) tA)) = true.
Proof. rewrite C66_tests; [vm_compute; reflexivity|vm_compute; discriminate]. Qed.
Example C66_tests_run : (runTest (fourChecks true) tA, reached (fourChecks true), snd (runTest (fourChecks false) tA), reached (fourChecks false)) =
  (tA, Returns tt, [true; true; true], Exits, [true; false; false]).
Proof. vm_compute. reflexivity. Qed.

@@ C66_panic_partial
Example C66_panic_case : Panic_ true fPanics mI tA = (marked tA [120]%N, Returns true).
Proof. apply (C66_panic_partial true fPanics mI tA mI_string). discriminate. Qed.
Example C66_panic_run : Panic_ true fReturns mI tA = (marked tA [110; 111; 32; 112; 97; 110; 105; 99; 58; 32; 105]%N, Exits).
Proof. vm_compute. reflexivity. Qed.

@@ C66_panic_refuted
Example C66_panic_refuted_run : (Panic_ true fReturns NotString tA, snd (Panic_ true fReturns NoMsg tA)) = (tA, Returns true, Exits).
Proof. vm_compute. reflexivity. Qed.

@@ C66_noPanic_partial
Example C66_noPanic_case : NoPanic_ true fReturns [] mI tA = (tA, Returns true).
Proof. apply (C66_noPanic_partial true fReturns [] mI tA mI_string). discriminate. Qed.
Example C66_noPanic_run : NoPanic_ false fPanics [55]%N NoMsg tA = (marked (marked tA [120]) [112; 97; 110; 105; 99; 40; 55; 41], Returns false)%N.
Proof. vm_compute. reflexivity. Qed.

@@ C66_fail
Example C66_fail_case := C66_fail mI tA mI_string.

@@ C66_failNow_refuted
Example C66_failNow_refuted_run : FailNow_ mI tA = (mkT true [[97; 98]; [105]]%N, Returns false).
Proof. vm_compute. reflexivity. Qed.

@@ C66_nil_refuted
Example C66_nil_refuted_run : let f : cmd unit := fun t => (t, Panics true) in (Panic_ true f mI tA, NoPanic_ true f [] mI tA) = ((tA, Returns false), (tA, Returns false)).
Proof. vm_compute. reflexivity. Qed.

@@ C66_words_refuted
Example C66_words_refuted_case := C66_words_refuted true [49]%N [49]%N mI tA.
