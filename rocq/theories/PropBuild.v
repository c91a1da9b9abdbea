(** * PropBuild: making lazy sets evaluates nothing (C74).

    Generated by tools/genprops.py from SpecBuild.v and tools/examples/PropBuild.txt.
    Every theorem is followed by a case that meets its hypotheses. *)
From Verif Require Import Base Bits Env EnvFacts Node Iter Tree SetApi Lazy LazyCost SpecBuild ExampleData PropLazy.

Local Open Scope Z_scope.
#[local] Existing Instances KL KL_ok BL.
(** The even ones of {1,2,3,4}, and the odd ones: alike but for the predicate. *)
Definition zE : lset Z := LMemo 0 (LWhere (LFrozen s14) Z.even).
Definition zO : lset Z := LMemo 0 (LWhere (LFrozen s14) Z.odd).
Lemma zEO_alike : Alike zE zO.
Proof. repeat constructor. Qed.
Lemma z23_alike : Alike (LFrozen s23) (LFrozen s23).
Proof. constructor. Qed.
(** Its doubled elements. *)
Definition zM : lset Z := LMap (LWhere (LFrozen s14) Z.even) Z.double.
Definition zM' : lset Z := LMap (LWhere (LFrozen s14) Z.odd) Z.succ.
Lemma zM_alike : Alike zM zM'.
Proof. repeat constructor. Qed.
(** The objects of an expression, outermost first, and the number of memo pointers after a call. *)
Fixpoint shape (e : lset Z) : list nat :=
  match e with
  | LEmpty => [0] | LFrozen _ => [1] | LMemo _ src => 2 :: shape src | LUnion a b => 3 :: shape a ++ shape b
  | LInter a b => 4 :: shape a ++ shape b | LDiff a b => 5 :: shape a ++ shape b | LWhere src _ => 6 :: shape src
  | LMap src _ => 7 :: shape src | LPow src => 8 :: shape src
  end%nat.
Definition buildRun (m : prog Z (lset Z)) : res (list nat * lheap Z) := r <- exec m [None] ;; Ok (shape (fst r), snd r).

Local Open Scope nat_scope.

Theorem C74_where : forall {T : Type}
    (e e' : lset T) q q',
  Alike e e' -> Builds Alike 2 (l_where e q) (l_where e' q').
Proof. exact @c74_where. Qed.
Print Assumptions C74_where.
(** Any two predicates: neither is called. *)
Example C74_where_case := C74_where zE zO (fun v => (v <? 3)%Z) (fun _ => true) zEO_alike.
Example C74_where_run : buildRun (l_where zE (fun v => (v <? 3)%Z)) = Ok ([2; 6; 6; 1], [None; None]).
Proof. vm_compute. reflexivity. Qed.

Theorem C74_map_partial : forall {E : Env} {T : Type} {K : Key T}
    (e e' : lset T) m m',
  Alike e e' -> match e with LFrozen _ => False | LMemo _ _ => False | _ => True end ->
  Builds Alike 2 (l_map e m) (l_map e' m').
Proof. exact @c74_map. Qed.
Print Assumptions C74_map_partial.
Example C74_map_case := C74_map_partial zM zM' Z.succ Z.double zM_alike Logic.I.
Example C74_map_run : buildRun (l_map zM Z.succ) = Ok ([2; 7; 7; 6; 1], [None; None]).
Proof. vm_compute. reflexivity. Qed.

Theorem C74_with : forall {E : Env} {T : Type} {K : Key T}
    (e e' : lset T) v,
  Alike e e' -> Builds Alike 2 (l_with e v) (l_with e' v).
Proof. exact @c74_with. Qed.
Print Assumptions C74_with.
Example C74_with_case := C74_with zE zO 5%Z zEO_alike.
Example C74_with_run : buildRun (l_with zE 5%Z) = Ok ([2; 3; 6; 1; 1], [None; None]).
Proof. vm_compute. reflexivity. Qed.

Theorem C74_without : forall {E : Env} {T : Type} {K : Key T}
    (e e' : lset T) v,
  Alike e e' -> Builds Alike (3 + objects e) (l_without e v) (l_without e' v).
Proof. exact @c74_without. Qed.
Print Assumptions C74_without.
Example C74_without_case := C74_without zE zO 2%Z zEO_alike.
Example C74_without_run : buildRun (l_without zE 2%Z) = Ok ([2; 5; 6; 1; 1], [None; None]).
Proof. vm_compute. reflexivity. Qed.

Theorem C74_union : forall {T : Type}
    (e e' t t' : lset T),
  Alike e e' -> Alike t t' -> Builds Alike 2 (l_union e t) (l_union e' t').
Proof. exact @c74_union. Qed.
Print Assumptions C74_union.
Example C74_union_case := C74_union zE zO zM zM' zEO_alike zM_alike.
Example C74_union_run : buildRun (l_union zE zM) = Ok ([2; 3; 6; 1; 7; 6; 1], [None; None]).
Proof. vm_compute. reflexivity. Qed.

Theorem C74_intersection : forall {T : Type}
    (e e' t t' : lset T),
  Alike e e' -> Alike t t' ->
  Builds Alike (2 + objects e + objects t) (l_intersection e t) (l_intersection e' t').
Proof. exact @c74_intersection. Qed.
Print Assumptions C74_intersection.
Example C74_intersection_case := C74_intersection zE zO zM zM' zEO_alike zM_alike.
Example C74_intersection_run : buildRun (l_intersection zE zM) = Ok ([2; 4; 6; 1; 7; 6; 1], [None; None]).
Proof. vm_compute. reflexivity. Qed.

Theorem C74_difference : forall {T : Type}
    (e e' t t' : lset T),
  Alike e e' -> Alike t t' ->
  Builds Alike (2 + objects e + objects t) (l_difference e t) (l_difference e' t').
Proof. exact @c74_difference. Qed.
Print Assumptions C74_difference.
Example C74_difference_case := C74_difference zE zO (LFrozen s23) (LFrozen s23) zEO_alike z23_alike.
Example C74_difference_run : buildRun (l_difference zE (LFrozen s23)) = Ok ([2; 5; 6; 1; 1], [None; None]).
Proof. vm_compute. reflexivity. Qed.

Theorem C74_symmetricDifference : forall {T : Type}
    (e e' t t' : lset T),
  Alike e e' -> Alike t t' ->
  Builds Alike (7 + 2 * (objects e + objects t)) (l_symmetricDifference e t) (l_symmetricDifference e' t').
Proof. exact @c74_symmetricDifference. Qed.
Print Assumptions C74_symmetricDifference.
Example C74_symmetricDifference_case := C74_symmetricDifference zE zO zM zM' zEO_alike zM_alike.
Example C74_symmetricDifference_run : buildRun (l_symmetricDifference zE (LFrozen s23)) = Ok ([2; 3; 5; 6; 1; 1; 2; 5; 1; 6; 1], [None; None; None; None]).
Proof. vm_compute. reflexivity. Qed.

Theorem C74_powerset : forall {E : Env} {T : Type} {K : Key T} {B : Boxes T}
    (e e' : lset T),
  Alike e e' -> Builds Alike 2 (l_powerset e) (l_powerset e').
Proof. exact @c74_powerset. Qed.
Print Assumptions C74_powerset.
Example C74_powerset_case := C74_powerset zE zO zEO_alike.
Example C74_powerset_run : buildRun (l_powerset zE) = Ok ([2; 8; 6; 1], [None; None]).
Proof. vm_compute. reflexivity. Qed.

Theorem C74_map_memo_partial : forall {E : Env} {T : Type} {K : Key T}
    p (src src' : lset T) m m' h,
  Alike src src' -> match src with LFrozen _ => False | LMemo _ _ => False | _ => True end ->
  nth_error h p = Some None ->
  exec (l_map (LMemo p src) m) h = exec (l_map src m) h /\ Builds Alike 2 (l_map src m) (l_map src' m').
Proof. exact @c74_map_memo. Qed.
Print Assumptions C74_map_memo_partial.
Example C74_map_memo_case := C74_map_memo_partial 0 (LWhere (LFrozen s14) Z.even) (LWhere (LFrozen s14) Z.odd) Z.succ Z.double [None]
  ltac:(repeat constructor) Logic.I eq_refl.

Theorem C74_map_refuted : forall {E : Env} {T : Type} {K : Key T}
    (s : set T) m m' n,
  s_map s m <> s_map s m' -> ~ Builds Alike n (l_map (LFrozen s) m) (l_map (LFrozen s) m').
Proof. exact @c74_map_refuted. Qed.
Print Assumptions C74_map_refuted.
Lemma s14_maps : s_map s14 Z.succ <> s_map s14 Z.double.
Proof. vm_compute. discriminate. Qed.
Example C74_map_refuted_case := fun n => C74_map_refuted s14 Z.succ Z.double n s14_maps.
