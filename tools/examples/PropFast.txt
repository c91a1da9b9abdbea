@@ Preamble
Local Open Scope Z_scope.
#[local] Existing Instances KL KL_ok BL.
(** The even ones of {1,2,3,4}; with 7; that intersected with {2,3}; and some sets made of these, as the package makes them. *)
Definition xW : lset Z := LMemo 0 (LWhere (LFrozen s14) Z.even).
Definition xU : lset Z := LMemo 1 (LUnion (LWhere (LFrozen s14) Z.even) (LFrozen s7)).
Definition xI : lset Z := LMemo 2 (LInter (LFrozen s23) xU).
Definition xD : lset Z := LMemo 3 (LDiff (LUnion (LFrozen s14) xW) xU).
Definition xP : lset Z := LMemo 4 (LPow (LFrozen s23)).
(** As [xU], with another predicate. *)
Definition xU' : lset Z := LMemo 1 (LUnion (LWhere (LFrozen s14) Z.odd) (LFrozen s7)).
(** Nothing has been memoised yet. *)
Definition hF : lheap Z := [None; None; None; None; None].
(** The even ones of {1,2,3,4} have been memoised. *)
Definition hG : lheap Z := [Some (newL [2; 4]); None; None; None; None].
(** What a Fast method answers, and the number of its calls. *)
Definition fastRun {A} (m : prog Z (A * nat)) (h : lheap Z) : res (A * nat) := r <- exec m h ;; Ok (fst r).
Lemma xU_alike : Alike xU xU'.
Proof. repeat constructor. Qed.
Lemma xU_none L : NoneEmpty L xU.
Proof. intros _. split; [|split; [|split; exact Logic.I]]; repeat constructor; discriminate. Qed.
Lemma xD_none L : NoneEmpty L xD.
Proof. intros _. exact Logic.I. Qed.

@@ C72_fastIsEmpty_same
Example C72_fastIsEmpty_same_case := C72_fastIsEmpty_same xW.

@@ C72_fastCount_same
Example C72_fastCount_same_case := C72_fastCount_same xP.

@@ C72_fastHas_same
Example C72_fastHas_same_case := C72_fastHas_same xD 3%Z.

@@ C72_fastCountUpTo_same
Example C72_fastCountUpTo_same_case := C72_fastCountUpTo_same xU 2%Z.

@@ C72_fastIsEmpty
Example C72_fastIsEmpty_case := C72_fastIsEmpty anyLoad xW.
Example C72_fastIsEmpty_alone_run : (objects xW, fastRun (l_fastIsEmptyN xW) hF, fastRun (l_fastIsEmptyN xW) hG) =
  (3, Ok (None, 3), Ok (Some false, 2)).
Proof. vm_compute. reflexivity. Qed.

@@ C72_fastCount
Example C72_fastCount_case := C72_fastCount anyLoad xP.
Example C72_fastCount_alone_run : (objects xP, fastRun (l_fastCountN xP) hF, fastRun (l_fastCountN xW) hF, fastRun (l_fastCountN xW) hG) =
  (3, Ok (Some 4%Z, 3), Ok (None, 2), Ok (Some 2%Z, 2)).
Proof. vm_compute. reflexivity. Qed.

@@ C72_fastCountUpTo_partial
Example C72_fastCountUpTo_case := C72_fastCountUpTo_partial anyLoad xU 1%Z (xU_none _).
Example C72_fastCountUpTo_alone_run : (objects xU, fastRun (l_fastCountUpToN xU 1%Z) hF, fastRun (l_fastCountUpToN xU 2%Z) hF) =
  (5, Ok (Some 1%Z, 7), Ok (None, 7)).
Proof. vm_compute. reflexivity. Qed.

@@ C72_fastCountUpTo_iterated
Example C72_fastCountUpTo_iterated_case := C72_fastCountUpTo_iterated anyLoad (LWhere (LFrozen s14) Z.even) 9%Z Logic.I.
Example C72_fastCountUpTo_iterated_xD := C72_fastCountUpTo_partial anyLoad xD 5%Z (xD_none _).

@@ C72_fastHas_partial
(** [xD] asks the first operand of the union twice if that cannot answer; here it can. *)
Example C72_fastHas_case := C72_fastHas_partial anyLoad xD 3%Z.
Example C72_fastHas_alone_run : (hasCalls xU, fastRun (l_fastHasN xU 4%Z) hF, hasCalls xI, fastRun (l_fastHasN xI 2%Z) hF, fastRun (l_fastHasN xI 5%Z) hF) =
  (4, Ok (None, 4), 7, Ok (None, 7), Ok (Some false, 3)).
Proof. vm_compute. reflexivity. Qed.

@@ C72_fastHas_known_partial
Lemma xD_known : Known xD.
Proof. exact Logic.I. Qed.
Example C72_fastHas_known_case := C72_fastHas_known_partial anyLoad xD 3%Z xD_known.
Example C72_fastHas_known_alone_run : (objects xD, hasCalls xD, fastRun (l_fastHasN xD 3%Z) hF) =
  (12, 8, Ok (Some true, 4)).
Proof. vm_compute. reflexivity. Qed.

@@ C72_fastHas_flat_partial
(** A union in a difference, neither of which has another to its left. *)
Example C72_fastHas_flat_case := C72_fastHas_flat_partial anyLoad xI 3%Z ltac:(vm_compute; repeat constructor).

@@ C72_fastIsEmpty_functions
Example C72_fastIsEmpty_functions_case := C72_fastIsEmpty_functions anyLoad xU xU' xU_alike.

@@ C72_fastCount_functions
Example C72_fastCount_functions_case := C72_fastCount_functions anyLoad xU xU' xU_alike.

@@ C72_fastHas_functions
Example C72_fastHas_functions_case := C72_fastHas_functions anyLoad xU xU' 4%Z xU_alike.

@@ C72_fastCountUpTo_functions_partial
Example C72_fastCountUpTo_functions_case := C72_fastCountUpTo_functions_partial anyLoad xU xU' 2%Z xU_alike (xU_none _).
(** Without the condition it does not hold: this union with a set known to be empty answers with the number of even, or odd, elements. *)
Example C72_fastCountUpTo_predicate_run :
  (fastRun (l_fastCountUpToN (LUnion (LFrozen s_empty) (LWhere (LFrozen s14) Z.even)) 9%Z) hF,
   fastRun (l_fastCountUpToN (LUnion (LFrozen s_empty) (LWhere (LFrozen s14) (fun z => z <? 4)%Z)) 9%Z) hF) =
  (Ok (Some 2%Z, 8), Ok (Some 3%Z, 9)).
Proof. vm_compute. reflexivity. Qed.

@@ C72_fastIsEmpty_run
Example C72_fastIsEmpty_run_case := C72_fastIsEmpty_run xW hG (Some false) hG ltac:(vm_compute; reflexivity).

@@ C72_fastCount_run
Example C72_fastCount_run_case := C72_fastCount_run xP hF (Some 4%Z) hF ltac:(vm_compute; reflexivity).

@@ C72_fastCountUpTo_run_partial
Example C72_fastCountUpTo_run_case := C72_fastCountUpTo_run_partial xU 1%Z hF (Some 1%Z) hF (xU_none _) ltac:(vm_compute; reflexivity).

@@ C72_fastHas_run_partial
Lemma xD_runs : exec (l_fastHas xD 3%Z) hF = Ok (Some true, hF).
Proof. vm_compute. reflexivity. Qed.
Example C72_fastHas_run_case := C72_fastHas_run_partial xD 3%Z hF (Some true) hF xD_runs.

@@ C72_fastHas_refuted
Lemma s7_new : s_new [7%Z] = Ok s7.
Proof. vm_compute. reflexivity. Qed.
Example C72_fastHas_refuted_case := C72_fastHas_refuted s14 Z.even 7%Z s7 40 4%Z s7_new.
(** The number of calls after 0 to 5 calls of With. *)
Definition callsAfter (n : nat) : res (option bool * nat) := x <- exec (whereWiths s14 Z.even 7%Z n) [] ;; fastRun (l_fastHasN (fst x) 4%Z) (snd x).
Example C72_fastHas_doubling_run : map callsAfter (seq 0 6) =
  [Ok (None, 2); Ok (None, 4); Ok (None, 8); Ok (None, 16); Ok (None, 32); Ok (None, 64)].
Proof. vm_compute. reflexivity. Qed.

@@ C72_fastCountUpTo_refuted
Example C72_fastCountUpTo_refuted_case := C72_fastCountUpTo_refuted s14 9%Z s14_reach ltac:(vm_compute; discriminate).
Example C72_fastCountUpTo_iterates_run :
  (x <- exec (emptyOrWhere s14 Z.even) [] ;; y <- exec (l_fastCountUpToN (fst x) 9%Z) (snd x) ;; Ok (fst y)) = Ok (Some 2%Z, 10).
Proof. vm_compute. reflexivity. Qed.
(** If the other operand is itself a union, the memo of its second operand is stored. *)
Definition emptyOrUnion : prog Z (lset Z) :=
  a <~ l_where (LFrozen s14) Z.even ;; b <~ l_where (LFrozen s23) Z.odd ;; c <~ l_union a b ;; l_union (LFrozen s_empty) c.
Example C72_fastCountUpTo_stores_run :
  (x <- exec emptyOrUnion [] ;; y <- exec (l_fastCountUpToN (fst x) 9%Z) (snd x) ;; Ok (map isSome (snd x), fst y, map isSome (snd y))) =
  Ok ([false; false; false; false], (Some 3%Z, 19), [false; true; false; false]).
Proof. vm_compute. reflexivity. Qed.
