@@ Preamble
Local Open Scope Z_scope.
#[local] Existing Instances KL KL_ok BL.
(** The even ones of {1,2,3,4}, those that are also in {2,3}, and the first with 7 added. *)
Definition yW : lset Z := LWhere (LFrozen s14) Z.even.
Definition yI : lset Z := LInter yW (LFrozen s23).
Definition yU : lset Z := LUnion (LMemo 0 yW) (LFrozen s7).
(** Nothing has been memoised yet; the first set has been. *)
Definition hM : lheap Z := [None; None].
Definition hN : lheap Z := [Some (newL [2; 4]); None].
(** What a call answers, and which memo pointers hold a frozen set after it. *)
Definition memoRun {A} (m : prog Z A) (h : lheap Z) : res (A * list bool) :=
  r <- exec m h ;; Ok (fst r, map (fun o => match o with Some _ => true | None => false end) (snd r)).
(** The same without the answer. *)
Definition memoAfter {A} (m : prog Z A) (h : lheap Z) : res (list bool) := r <- memoRun m h ;; Ok (snd r).
Lemma yW_avoids : Avoids 0 yW.
Proof. exact Logic.I. Qed.
Lemma yI_avoids : Avoids 0 yI.
Proof. split; exact Logic.I. Qed.
Lemma yU_avoids : Avoids 1 yU.
Proof. split; [split; [discriminate|exact Logic.I]|exact Logic.I]. Qed.
Lemma yW_counted : exec (l_count (LMemo 0 yW)) hM = Ok (2, hM).
Proof. vm_compute. reflexivity. Qed.
Lemma yW_iterated : exec (l_toList (LMemo 0 yW)) hM = Ok ([2; 4], hN).
Proof. vm_compute. reflexivity. Qed.
Lemma yU_counted : exec (l_count (LMemo 1 yU)) hN = Ok (3, hN).
Proof. vm_compute. reflexivity. Qed.

@@ C73_count_refuted
Example C73_count_refuted_case := C73_count_refuted 1 yU yU_avoids.
(** Counted twice, and it is still not memoised. The union's Range memoises its operand. *)
Example C73_count_run :
  (memoRun (l_count (LMemo 0 yW)) hM, memoRun (c <~ l_count (LMemo 0 yW) ;; l_count (LMemo 0 yW)) hM, memoRun (l_count (LMemo 1 yU)) hM) = (Ok (2%Z, [false; false]), Ok (2%Z, [false; false]), Ok (3%Z, [true; false])).
Proof. vm_compute. reflexivity. Qed.

@@ C73_countUpTo_refuted
Example C73_countUpTo_refuted_case := C73_countUpTo_refuted 0 yW 9 yW_avoids.
Example C73_countUpTo_run : memoRun (l_countUpTo (LMemo 0 yW) 9) hM = Ok (2%Z, [false; false]).
Proof. vm_compute. reflexivity. Qed.

@@ C73_freeze_refuted
Example C73_freeze_refuted_case := C73_freeze_refuted 0 yW yW_avoids.
(** The frozen set is stored in a memoSet that Freeze made for itself. *)
Example C73_freeze_run : memoAfter (l_freeze (LMemo 0 yW)) hM = Ok [false; false; true].
Proof. vm_compute. reflexivity. Qed.

@@ C73_hash_refuted
Example C73_hash_refuted_case := C73_hash_refuted 0 yW 5%N yW_avoids.
Example C73_hash_run : memoAfter (l_hash (LMemo 0 yW) 5%N) hM = Ok [false; false].
Proof. vm_compute. reflexivity. Qed.

@@ C73_equalSet_refuted
Example C73_equalSet_refuted_case := C73_equalSet_refuted 0 yW (LFrozen s23) yW_avoids Logic.I.
Example C73_equalSet_run : memoRun (l_equalSet (LMemo 0 yW) (LFrozen s23)) hM = Ok (false, [false; false; true]).
Proof. vm_compute. reflexivity. Qed.

@@ C73_equal_refuted
Example C73_equal_refuted_case := C73_equal_refuted 0 yI (LFrozen s23) yI_avoids Logic.I.
Example C73_equal_run : memoRun (l_equal (LMemo 0 yI) (LFrozen s23)) hM = Ok (false, [false; false; true]).
Proof. vm_compute. reflexivity. Qed.

@@ C73_isSubsetOf_refuted
Example C73_isSubsetOf_refuted_case := C73_isSubsetOf_refuted 0 yW (LFrozen s14) yW_avoids Logic.I.
Example C73_isSubsetOf_run : memoRun (l_isSubsetOf (LMemo 0 yW) (LFrozen s14)) hM = Ok (true, [false; false; true]).
Proof. vm_compute. reflexivity. Qed.

@@ C73_has_refuted
Example C73_has_refuted_case := C73_has_refuted 0 (LMap (LFrozen s14) Z.double) 6%Z Logic.I.
Example C73_has_run : memoRun (l_has (LMemo 0 (LMap (LFrozen s14) Z.double)) 7%Z) hM = Ok (false, [false; false]).
Proof. vm_compute. reflexivity. Qed.

@@ C73_isEmpty_refuted
Example C73_isEmpty_refuted_case := C73_isEmpty_refuted 0 (LWhere (LFrozen s23) (fun _ => false)) Logic.I.
Example C73_isEmpty_run : memoRun (l_isEmpty (LMemo 0 (LWhere (LFrozen s23) (fun _ => false)))) hM = Ok (true, [false; false]).
Proof. vm_compute. reflexivity. Qed.

@@ C73_again
Example C73_again_case := C73_again 0 (l_count (LMemo 0 yW)) hM 2%Z hM (C73_count_refuted 0 yW yW_avoids) eq_refl yW_counted.

@@ C73_source
Example C73_source_case := C73_source 0 yW hM eq_refl.

@@ C73_range_partial
Example C73_range_case := C73_range_partial 0 yW hM _ _ yW_iterated.
Example C73_range_run : (memoRun (l_toList (LMemo 0 yW)) hM, memoRun (_ <~ l_toList (LMemo 0 yW) ;; l_count (LMemo 0 yW)) hM) = (Ok ([2%Z; 4%Z], [true; false]), Ok (2%Z, [true; false])).
Proof. vm_compute. reflexivity. Qed.

@@ C73_stays
Example C73_stays_case := C73_stays 0 (l_count (LMemo 1 yU)) hN _ _ yU_counted (ex_intro _ (newL [2%Z; 4%Z]) eq_refl).

@@ C73_used
Example C73_used_case := C73_used 0 yW hN (newL [2%Z; 4%Z]) eq_refl.
(** The source is not looked at: with the wrong one the answers are the same. *)
Example C73_used_run : (memoRun (l_count (LMemo 0 yI)) hN, memoRun (l_has (LMemo 0 yI) 4%Z) hN, memoRun (l_toList (LMemo 0 yI)) hN) = (Ok (2%Z, [true; false]), Ok (true, [true; false]), Ok ([2%Z; 4%Z], [true; false])).
Proof. vm_compute. reflexivity. Qed.

@@ C73_built
Example C73_built_case := C73_built 0 yW hN (newL [2%Z; 4%Z]) eq_refl.

@@ C73_derived_refuted
Example C73_derived_refuted_case := C73_derived_refuted 0 yW yW_avoids.
(** Where on the set, then the set is iterated over and memoised: counting the new set memoises nothing, and it has its own copy of the
    source expression. *)
Example C73_derived_run :
  memoRun (x <~ l_where (LMemo 0 yW) (fun v => (v <? 3)%Z) ;; _ <~ l_toList (LMemo 0 yW) ;;
           Ret (match x with LMemo p (LWhere (LWhere (LFrozen _) _) _) => Some p | _ => None end)) hM =
  Ok (Some 2, [true; false; false]).
Proof. vm_compute. reflexivity. Qed.
