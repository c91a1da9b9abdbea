@@ Preamble
Local Open Scope Z_scope.
#[local] Existing Instances KL KL_ok BL.
(** The even ones of {1,2,3,4}, and the odd ones: alike but for the predicate. *)
Definition zE : lset Z := LMemo 0 (LWhere (LFrozen s14) Z.even).
Definition zO : lset Z := LMemo 0 (LWhere (LFrozen s14) Z.odd).
Lemma zEO_alike : Alike zE zO.
Proof. repeat constructor. Qed.
Lemma z23_alike : Alike (LFrozen s23) (LFrozen s23).
Proof. constructor. Qed.
(** Its doubled elements. *)
Definition zM : lset Z := LMap (LWhere (LFrozen s14) Z.even) Z.double.
Definition zM' : lset Z := LMap (LWhere (LFrozen s14) Z.odd) Z.succ.
Lemma zM_alike : Alike zM zM'.
Proof. repeat constructor. Qed.
(** The objects of an expression, outermost first, and the number of memo pointers after a call. *)
Fixpoint shape (e : lset Z) : list nat :=
  match e with
  | LEmpty => [0] | LFrozen _ => [1] | LMemo _ src => 2 :: shape src | LUnion a b => 3 :: shape a ++ shape b
  | LInter a b => 4 :: shape a ++ shape b | LDiff a b => 5 :: shape a ++ shape b | LWhere src _ => 6 :: shape src
  | LMap src _ => 7 :: shape src | LPow src => 8 :: shape src
  end%nat.
Definition buildRun (m : prog Z (lset Z)) : res (list nat * lheap Z) := r <- exec m [None] ;; Ok (shape (fst r), snd r).

@@ C74_where
(** Any two predicates: neither is called. *)
Example C74_where_case := C74_where zE zO (fun v => (v <? 3)%Z) (fun _ => true) zEO_alike.
Example C74_where_run : buildRun (l_where zE (fun v => (v <? 3)%Z)) = Ok ([2; 6; 6; 1], [None; None]).
Proof. vm_compute. reflexivity. Qed.

@@ C74_map_partial
Example C74_map_case := C74_map_partial zM zM' Z.succ Z.double zM_alike Logic.I.
Example C74_map_run : buildRun (l_map zM Z.succ) = Ok ([2; 7; 7; 6; 1], [None; None]).
Proof. vm_compute. reflexivity. Qed.

@@ C74_with
Example C74_with_case := C74_with zE zO 5%Z zEO_alike.
Example C74_with_run : buildRun (l_with zE 5%Z) = Ok ([2; 3; 6; 1; 1], [None; None]).
Proof. vm_compute. reflexivity. Qed.

@@ C74_without
Example C74_without_case := C74_without zE zO 2%Z zEO_alike.
Example C74_without_run : buildRun (l_without zE 2%Z) = Ok ([2; 5; 6; 1; 1], [None; None]).
Proof. vm_compute. reflexivity. Qed.

@@ C74_union
Example C74_union_case := C74_union zE zO zM zM' zEO_alike zM_alike.
Example C74_union_run : buildRun (l_union zE zM) = Ok ([2; 3; 6; 1; 7; 6; 1], [None; None]).
Proof. vm_compute. reflexivity. Qed.

@@ C74_intersection
Example C74_intersection_case := C74_intersection zE zO zM zM' zEO_alike zM_alike.
Example C74_intersection_run : buildRun (l_intersection zE zM) = Ok ([2; 4; 6; 1; 7; 6; 1], [None; None]).
Proof. vm_compute. reflexivity. Qed.

@@ C74_difference
Example C74_difference_case := C74_difference zE zO (LFrozen s23) (LFrozen s23) zEO_alike z23_alike.
Example C74_difference_run : buildRun (l_difference zE (LFrozen s23)) = Ok ([2; 5; 6; 1; 1], [None; None]).
Proof. vm_compute. reflexivity. Qed.

@@ C74_symmetricDifference
Example C74_symmetricDifference_case := C74_symmetricDifference zE zO zM zM' zEO_alike zM_alike.
Example C74_symmetricDifference_run : buildRun (l_symmetricDifference zE (LFrozen s23)) = Ok ([2; 3; 5; 6; 1; 1; 2; 5; 1; 6; 1], [None; None; None; None]).
Proof. vm_compute. reflexivity. Qed.

@@ C74_powerset
Example C74_powerset_case := C74_powerset zE zO zEO_alike.
Example C74_powerset_run : buildRun (l_powerset zE) = Ok ([2; 8; 6; 1], [None; None]).
Proof. vm_compute. reflexivity. Qed.

@@ C74_map_memo_partial
Example C74_map_memo_case := C74_map_memo_partial 0 (LWhere (LFrozen s14) Z.even) (LWhere (LFrozen s14) Z.odd) Z.succ Z.double [None]
  ltac:(repeat constructor) Logic.I eq_refl.

@@ C74_map_refuted
Lemma s14_maps : s_map s14 Z.succ <> s_map s14 Z.double.
Proof. vm_compute. discriminate. Qed.
Example C74_map_refuted_case := fun n => C74_map_refuted s14 Z.succ Z.double n s14_maps.
