(** * PropAlloc: allocation and sharing (C53).

    Generated by tools/genprops.py from SpecAlloc.v and tools/examples/PropAlloc.txt.
    Every theorem is followed by a case that meets its hypotheses. *)
From Verif Require Import Base Bits Env EnvFacts Node Iter Tree SetApi MapApi HeapModel HeapProg HeapAlloc HeapDeep SpecHeap SpecAlloc ExampleData PropHeap.

Local Open Scope Z_scope.

(** How much a computation allocates. *)
Definition allocates {T A} (m : M (T := T) A) (h : heap (T := T)) : nat := hsize (snd (m h)) - hsize h.
(** A set of 1, 5 (of the same hash), 2 and 3, a builder and a set of 1 and 5, and a set of 40 elements of 4 hashes. *)
Definition pair : list (cmd Z) := [CNew; CAdd 0 1; CAdd 0 5; CAdd 0 2; CAdd 0 3; CFinish 0; CNew; CAdd 1 1; CAdd 1 5; CNew; CAdd 2 1; CAdd 2 5; CFinish 2].
Definition wide : list (cmd Z) := CNew :: map (fun i => CAdd 0 (Z.of_nat i)) (seq 0 40) ++ [CFinish 0].
Definition pairS : ptree := Eval vm_compute in nth 0 (st_sets (reached dbl pair)) emptyPT.
Definition twoS : ptree := Eval vm_compute in nth 1 (st_sets (reached dbl pair)) emptyPT.
Definition pairB : ptree := Eval vm_compute in nth 1 (st_builders (reached dbl pair)) emptyPT.
Definition wideS : ptree := Eval vm_compute in nth 0 (st_sets (reached dbl wide)) emptyPT.
Definition pairH : heap (T := Z) := Eval vm_compute in st_heap (reached dbl pair).
Lemma pair_set : nth_error (st_sets (reached dbl pair)) 0 = Some pairS.
Proof. vm_compute. reflexivity. Qed.
Lemma pair_bld : nth_error (st_builders (reached dbl pair)) 1 = Some pairB.
Proof. vm_compute. reflexivity. Qed.
Lemma wide_set : nth_error (st_sets (reached dbl wide)) 0 = Some wideS.
Proof. vm_compute. reflexivity. Qed.

Local Open Scope nat_scope.

Theorem C53_levels : forall {E : Env} {T : Type} {K : Key T} {grow : nat -> nat -> nat}
    (cs : list (cmd T)) i t p,
  nth_error (st_sets (reached grow cs)) i = Some t -> pt_root t = Some p ->
  deep (st_heap (reached grow cs)) p 0.
Proof. exact @c53_levels. Qed.
Print Assumptions C53_levels.
Example C53_levels_case p (H : pt_root wideS = Some p) := C53_levels (grow := dbl) wide 0 wideS p wide_set H.
(** Levels of the nodes on the way to a bucket. *)
Fixpoint pathTo {T} {K : Key T} {E : Env} (fuel : nat) (h : heap (T := T)) (p : nat) (hs : N) : list obj :=
  match fuel, nth_error (h_objs h) p with
  | S k, Some (OBranch m d) =>
      OBranch m [] :: match childP d (h_hash hs) with Some c => pathTo k h c (h_next hs) | None => [] end
  | _, Some o => [o]
  | _, None => []
  end.
Example C53_levels_run :
  let l := match pt_root wideS with Some p => pathTo 40 (st_heap (reached dbl wide)) p (newHasher 7%Z 0) | None => [] end in
  (length l, maxTreeDepth) = (23, 22)%nat.
Proof. vm_compute. reflexivity. Qed.

Theorem C53_with : forall {E : Env} {T : Type} {K : Key T} {grow : nat -> nat -> nat}
    (cs : list (cmd T)) i t v,
  nth_error (st_sets (reached grow cs)) i = Some t ->
  let h := st_heap (reached grow cs) in hsize (snd (tH_with grow t v h)) <= hsize h + (4 * maxTreeDepth + 3).
Proof. exact @c53_with. Qed.
Print Assumptions C53_with.
Example C53_with_case v := C53_with (grow := dbl) pair 0 pairS v pair_set.
(** The bound is all but reached when a third element of the same hash arrives at a leaf that is the root; a new bucket element costs one copy of the path. *)
Example C53_with_run : (allocates (tH_with dbl twoS 9%Z) pairH, allocates (tH_with dbl wideS 43%Z) (st_heap (reached dbl wide)), 4 * maxTreeDepth + 3)%nat = (90, 23, 91)%nat.
Proof. vm_compute. reflexivity. Qed.

Theorem C53_without : forall {E : Env} {T : Type} {K : Key T} {grow : nat -> nat -> nat}
    (cs : list (cmd T)) i t v,
  nth_error (st_sets (reached grow cs)) i = Some t ->
  let h := st_heap (reached grow cs) in hsize (snd (tH_without grow t v h)) <= hsize h + (4 * maxTreeDepth + 3).
Proof. exact @c53_without. Qed.
Print Assumptions C53_without.
Example C53_without_case v := C53_without (grow := dbl) wide 0 wideS v wide_set.
Example C53_without_run : (allocates (tH_without dbl pairS 5%Z) pairH, allocates (tH_without dbl wideS 7%Z) (st_heap (reached dbl wide)))%nat = (22, 24)%nat.
Proof. vm_compute. reflexivity. Qed.

Theorem C53_add : forall {E : Env} {T : Type} {K : Key T} {grow : nat -> nat -> nat}
    (cs : list (cmd T)) i t v,
  nth_error (st_builders (reached grow cs)) i = Some t ->
  let h := st_heap (reached grow cs) in hsize (snd (bH_add grow t v h)) <= hsize h + (4 * maxTreeDepth + 2).
Proof. exact @c53_add. Qed.
Print Assumptions C53_add.
Example C53_add_case v := C53_add (grow := dbl) pair 1 pairB v pair_bld.
Example C53_add_run : (allocates (bH_add dbl pairB 9%Z) pairH, allocates (bH_add dbl pairB 2%Z) pairH, 4 * maxTreeDepth + 2)%nat = (90, 85, 90)%nat.
Proof. vm_compute. reflexivity. Qed.

Theorem C53_remove : forall {E : Env} {T : Type} {K : Key T} {grow : nat -> nat -> nat}
    (cs : list (cmd T)) i t v,
  nth_error (st_builders (reached grow cs)) i = Some t ->
  let h := st_heap (reached grow cs) in hsize (snd (bH_remove grow t v h)) <= hsize h + (2 * maxTreeDepth + 1).
Proof. exact @c53_remove. Qed.
Print Assumptions C53_remove.
Example C53_remove_case v := C53_remove (grow := dbl) pair 1 pairB v pair_bld.
Example C53_remove_run : (allocates (bH_remove dbl pairB 5%Z) pairH, allocates (bH_remove dbl pairB 7%Z) pairH)%nat = (1, 0)%nat.
Proof. vm_compute. reflexivity. Qed.

Theorem C53_with_shares : forall {E : Env} {T : Type} {K : Key T} {grow : nat -> nat -> nat}
    (h h' : heap (T := T)) t t' v,
  tH_with grow t v h = (Ok t', h') ->
  (forall q, nodeOf h' t' q -> nodeOf h t q \/ length (h_objs h) <= q) /\
  (forall r, arrayOf h' t' r -> arrayOf h t r \/ length (h_arrs h) <= r).
Proof. exact @c53_with_shares. Qed.
Print Assumptions C53_with_shares.
Definition afterWith := Eval vm_compute in tH_with dbl pairS 9%Z pairH.
Lemma afterWith_ok : tH_with dbl pairS 9%Z pairH = (fst afterWith, snd afterWith).
Proof. vm_compute. reflexivity. Qed.
Definition withS : ptree := Eval vm_compute in match fst afterWith with Ok t => t | _ => emptyPT end.
Example C53_with_shares_case := C53_with_shares (grow := dbl) pairH (snd afterWith) pairS withS 9%Z afterWith_ok.
(** The nodes of a set, and those of the result that are not new: here the leaf with 2 and 3. *)
Fixpoint nodes {T} (fuel : nat) (h : heap (T := T)) (p : nat) : list nat :=
  match fuel, nth_error (h_objs h) p with
  | S k, Some (OBranch _ d) => p :: flat_map (fun c => match c with Some q => nodes k h q | None => [] end) d
  | _, Some _ => [p]
  | _, None => []
  end.
Definition oldNodes (h h' : heap (T := Z)) (t : ptree) : list nat :=
  match pt_root t with Some p => filter (fun q => q <? length (h_objs h)) (nodes 40 h' p) | None => [] end.
Example C53_with_shares_run : (length (oldNodes pairH pairH pairS), oldNodes pairH (snd afterWith) withS) = (23, [66])%nat.
Proof. vm_compute. reflexivity. Qed.

Theorem C53_without_shares : forall {E : Env} {T : Type} {K : Key T} {grow : nat -> nat -> nat}
    (h h' : heap (T := T)) t t' v,
  tH_without grow t v h = (Ok t', h') ->
  (forall q, nodeOf h' t' q -> nodeOf h t q \/ length (h_objs h) <= q) /\
  (forall r, arrayOf h' t' r -> arrayOf h t r \/ length (h_arrs h) <= r).
Proof. exact @c53_without_shares. Qed.
Print Assumptions C53_without_shares.
Definition afterOut := Eval vm_compute in tH_without dbl pairS 5%Z pairH.
Lemma afterOut_ok : tH_without dbl pairS 5%Z pairH = (fst afterOut, snd afterOut).
Proof. vm_compute. reflexivity. Qed.
Definition outS : ptree := Eval vm_compute in match fst afterOut with Ok t => t | _ => emptyPT end.
Example C53_without_shares_case := C53_without_shares (grow := dbl) pairH (snd afterOut) pairS outS 5%Z afterOut_ok.
Example C53_without_shares_run : (length (oldNodes pairH pairH pairS), oldNodes pairH (snd afterOut) outS) = (23, [66])%nat.
Proof. vm_compute. reflexivity. Qed.

Theorem C53_without_absent : forall {E : Env} {T : Type} {K : Key T} {grow : nat -> nat -> nat}
    (t : ptree) v (h h' : heap (T := T)),
  tH_get t v h = (Ok None, h') -> tH_without grow t v h = (Ok t, h).
Proof. exact @c53_without_absent. Qed.
Print Assumptions C53_without_absent.
Lemma absent_get : tH_get pairS 9%Z pairH = (Ok None, pairH).
Proof. vm_compute. reflexivity. Qed.
Example C53_without_absent_case := C53_without_absent (grow := dbl) pairS 9%Z pairH pairH absent_get.
(** With of an element that is there does make a new set. *)
Example C53_without_absent_run : (fst (tH_without dbl pairS 9%Z pairH), allocates (tH_without dbl pairS 9%Z) pairH, allocates (tH_with dbl pairS 5%Z) pairH) = (Ok pairS, 0, 22)%nat.
Proof. vm_compute. reflexivity. Qed.

Theorem C53_get : forall {E : Env} {T : Type} {K : Key T} {grow : nat -> nat -> nat}
    (cs : list (cmd T)) i t p v,
  nth_error (st_sets (reached grow cs)) i = Some t -> pt_root t = Some p ->
  let h := st_heap (reached grow cs) in
  fst (getH (S maxTreeDepth) p v (newHasher v 0) h) <> Fuel /\ tH_get t v h = getH (S maxTreeDepth) p v (newHasher v 0) h.
Proof. exact @c53_get. Qed.
Print Assumptions C53_get.
Example C53_get_case p (H : pt_root wideS = Some p) := C53_get (grow := dbl) wide 0 wideS p 39%Z wide_set H.
Example C53_get_run : (fst (tH_get wideS 39%Z (st_heap (reached dbl wide))), fst (tH_get wideS 40%Z (st_heap (reached dbl wide)))) = (Ok (Some 39%Z), Ok None).
Proof. vm_compute. reflexivity. Qed.
