(** * PropMemo: which calls memoise a lazy set (C73).

    Generated by tools/genprops.py from SpecMemo.v and tools/examples/PropMemo.txt.
    Every theorem is followed by a case that meets its hypotheses. *)
From Verif Require Import Base Bits Env EnvFacts Node Iter Tree SetApi Lazy LazyCost SpecMemo ExampleData PropLazy.

Local Open Scope Z_scope.
#[local] Existing Instances KL KL_ok BL.
(** The even ones of {1,2,3,4}, those that are also in {2,3}, and the first with 7 added. *)
Definition yW : lset Z := LWhere (LFrozen s14) Z.even.
Definition yI : lset Z := LInter yW (LFrozen s23).
Definition yU : lset Z := LUnion (LMemo 0 yW) (LFrozen s7).
(** Nothing has been memoised yet; the first set has been. *)
Definition hM : lheap Z := [None; None].
Definition hN : lheap Z := [Some (newL [2; 4]); None].
(** What a call answers, and which memo pointers hold a frozen set after it. *)
Definition memoRun {A} (m : prog Z A) (h : lheap Z) : res (A * list bool) :=
  r <- exec m h ;; Ok (fst r, map (fun o => match o with Some _ => true | None => false end) (snd r)).
(** The same without the answer. *)
Definition memoAfter {A} (m : prog Z A) (h : lheap Z) : res (list bool) := r <- memoRun m h ;; Ok (snd r).
Lemma yW_avoids : Avoids 0 yW.
Proof. exact Logic.I. Qed.
Lemma yI_avoids : Avoids 0 yI.
Proof. split; exact Logic.I. Qed.
Lemma yU_avoids : Avoids 1 yU.
Proof. split; [split; [discriminate|exact Logic.I]|exact Logic.I]. Qed.
Lemma yW_counted : exec (l_count (LMemo 0 yW)) hM = Ok (2, hM).
Proof. vm_compute. reflexivity. Qed.
Lemma yW_iterated : exec (l_toList (LMemo 0 yW)) hM = Ok ([2; 4], hN).
Proof. vm_compute. reflexivity. Qed.
Lemma yU_counted : exec (l_count (LMemo 1 yU)) hN = Ok (3, hN).
Proof. vm_compute. reflexivity. Qed.

Local Open Scope nat_scope.

Theorem C73_count_refuted : forall {E : Env} {T : Type} {K : Key T} {B : Boxes T}
    p (src : lset T),
  Avoids p src -> Spares p (l_count (LMemo p src)).
Proof. exact @c73_count_refuted. Qed.
Print Assumptions C73_count_refuted.
Example C73_count_refuted_case := C73_count_refuted 1 yU yU_avoids.
(** Counted twice, and it is still not memoised. The union's Range memoises its operand. *)
Example C73_count_run :
  (memoRun (l_count (LMemo 0 yW)) hM, memoRun (c <~ l_count (LMemo 0 yW) ;; l_count (LMemo 0 yW)) hM, memoRun (l_count (LMemo 1 yU)) hM) = (Ok (2%Z, [false; false]), Ok (2%Z, [false; false]), Ok (3%Z, [true; false])).
Proof. vm_compute. reflexivity. Qed.

Theorem C73_countUpTo_refuted : forall {E : Env} {T : Type} {K : Key T} {B : Boxes T}
    p (src : lset T) limit,
  Avoids p src -> Spares p (l_countUpTo (LMemo p src) limit).
Proof. exact @c73_countUpTo_refuted. Qed.
Print Assumptions C73_countUpTo_refuted.
Example C73_countUpTo_refuted_case := C73_countUpTo_refuted 0 yW 9 yW_avoids.
Example C73_countUpTo_run : memoRun (l_countUpTo (LMemo 0 yW) 9) hM = Ok (2%Z, [false; false]).
Proof. vm_compute. reflexivity. Qed.

Theorem C73_freeze_refuted : forall {E : Env} {T : Type} {K : Key T} {B : Boxes T}
    p (src : lset T),
  Avoids p src -> Spares p (l_freeze (LMemo p src)).
Proof. exact @c73_freeze_refuted. Qed.
Print Assumptions C73_freeze_refuted.
Example C73_freeze_refuted_case := C73_freeze_refuted 0 yW yW_avoids.
(** The frozen set is stored in a memoSet that Freeze made for itself. *)
Example C73_freeze_run : memoAfter (l_freeze (LMemo 0 yW)) hM = Ok [false; false; true].
Proof. vm_compute. reflexivity. Qed.

Theorem C73_hash_refuted : forall {E : Env} {T : Type} {K : Key T} {B : Boxes T}
    p (src : lset T) seed,
  Avoids p src -> Spares p (l_hash (LMemo p src) seed).
Proof. exact @c73_hash_refuted. Qed.
Print Assumptions C73_hash_refuted.
Example C73_hash_refuted_case := C73_hash_refuted 0 yW 5%N yW_avoids.
Example C73_hash_run : memoAfter (l_hash (LMemo 0 yW) 5%N) hM = Ok [false; false].
Proof. vm_compute. reflexivity. Qed.

Theorem C73_equalSet_refuted : forall {E : Env} {T : Type} {K : Key T} {B : Boxes T}
    p (src t : lset T),
  Avoids p src -> Avoids p t -> Spares p (l_equalSet (LMemo p src) t).
Proof. exact @c73_equalSet_refuted. Qed.
Print Assumptions C73_equalSet_refuted.
Example C73_equalSet_refuted_case := C73_equalSet_refuted 0 yW (LFrozen s23) yW_avoids Logic.I.
Example C73_equalSet_run : memoRun (l_equalSet (LMemo 0 yW) (LFrozen s23)) hM = Ok (false, [false; false; true]).
Proof. vm_compute. reflexivity. Qed.

Theorem C73_equal_refuted : forall {E : Env} {T : Type} {K : Key T} {B : Boxes T}
    p (src t : lset T),
  Avoids p src -> Avoids p t -> Spares p (l_equal (LMemo p src) t).
Proof. exact @c73_equal_refuted. Qed.
Print Assumptions C73_equal_refuted.
Example C73_equal_refuted_case := C73_equal_refuted 0 yI (LFrozen s23) yI_avoids Logic.I.
Example C73_equal_run : memoRun (l_equal (LMemo 0 yI) (LFrozen s23)) hM = Ok (false, [false; false; true]).
Proof. vm_compute. reflexivity. Qed.

Theorem C73_isSubsetOf_refuted : forall {E : Env} {T : Type} {K : Key T} {B : Boxes T}
    p (src t : lset T),
  Avoids p src -> Avoids p t -> Spares p (l_isSubsetOf (LMemo p src) t).
Proof. exact @c73_isSubsetOf_refuted. Qed.
Print Assumptions C73_isSubsetOf_refuted.
Example C73_isSubsetOf_refuted_case := C73_isSubsetOf_refuted 0 yW (LFrozen s14) yW_avoids Logic.I.
Example C73_isSubsetOf_run : memoRun (l_isSubsetOf (LMemo 0 yW) (LFrozen s14)) hM = Ok (true, [false; false; true]).
Proof. vm_compute. reflexivity. Qed.

Theorem C73_has_refuted : forall {E : Env} {T : Type} {K : Key T} {B : Boxes T}
    p (src : lset T) el,
  Avoids p src -> Spares p (l_has (LMemo p src) el).
Proof. exact @c73_has_refuted. Qed.
Print Assumptions C73_has_refuted.
Example C73_has_refuted_case := C73_has_refuted 0 (LMap (LFrozen s14) Z.double) 6%Z Logic.I.
Example C73_has_run : memoRun (l_has (LMemo 0 (LMap (LFrozen s14) Z.double)) 7%Z) hM = Ok (false, [false; false]).
Proof. vm_compute. reflexivity. Qed.

Theorem C73_isEmpty_refuted : forall {E : Env} {T : Type} {K : Key T} {B : Boxes T}
    p (src : lset T),
  Avoids p src -> Spares p (l_isEmpty (LMemo p src)).
Proof. exact @c73_isEmpty_refuted. Qed.
Print Assumptions C73_isEmpty_refuted.
Example C73_isEmpty_refuted_case := C73_isEmpty_refuted 0 (LWhere (LFrozen s23) (fun _ => false)) Logic.I.
Example C73_isEmpty_run : memoRun (l_isEmpty (LMemo 0 (LWhere (LFrozen s23) (fun _ => false)))) hM = Ok (true, [false; false]).
Proof. vm_compute. reflexivity. Qed.

Theorem C73_again : forall {T : Type}
    {A} p (m : prog T A) h a h',
  Spares p m -> nth_error h p = Some None -> exec m h = Ok (a, h') ->
  nth_error h' p = Some None.
Proof. exact @c73_again. Qed.
Print Assumptions C73_again.
Example C73_again_case := C73_again 0 (l_count (LMemo 0 yW)) hM 2%Z hM (C73_count_refuted 0 yW yW_avoids) eq_refl yW_counted.

Theorem C73_source : forall {E : Env} {T : Type} {K : Key T} {B : Boxes T}
    p (src : lset T) h,
  nth_error h p = Some None ->
  exec (l_count (LMemo p src)) h = exec (l_count src) h /\
  (forall limit, exec (l_countUpTo (LMemo p src) limit) h = exec (l_countUpTo src limit) h) /\
  exec (l_freeze (LMemo p src)) h = exec (l_freeze src) h /\
  (forall seed, exec (l_hash (LMemo p src) seed) h = exec (l_hash src seed) h) /\
  (forall t, exec (l_equalSet (LMemo p src) t) h = exec (l_equalSet src t) h) /\
  (forall t, exec (l_equal (LMemo p src) t) h = exec (l_equal src t) h) /\
  (forall t, exec (l_isSubsetOf (LMemo p src) t) h = exec (l_isSubsetOf src t) h) /\
  exec (l_isEmpty (LMemo p src)) h = exec (l_isEmpty src) h.
Proof. exact @c73_source. Qed.
Print Assumptions C73_source.
Example C73_source_case := C73_source 0 yW hM eq_refl.

Theorem C73_range_partial : forall {E : Env} {T : Type} {K : Key T} {B : Boxes T}
    p (src : lset T) h l h',
  exec (l_toList (LMemo p src)) h = Ok (l, h') -> memoised h' p.
Proof. exact @c73_range. Qed.
Print Assumptions C73_range_partial.
Example C73_range_case := C73_range_partial 0 yW hM _ _ yW_iterated.
Example C73_range_run : (memoRun (l_toList (LMemo 0 yW)) hM, memoRun (_ <~ l_toList (LMemo 0 yW) ;; l_count (LMemo 0 yW)) hM) = (Ok ([2%Z; 4%Z], [true; false]), Ok (2%Z, [true; false])).
Proof. vm_compute. reflexivity. Qed.

Theorem C73_stays : forall {T : Type}
    {A} p (m : prog T A) h a h',
  exec m h = Ok (a, h') -> memoised h p -> memoised h' p.
Proof. exact @c73_stays. Qed.
Print Assumptions C73_stays.
Example C73_stays_case := C73_stays 0 (l_count (LMemo 1 yU)) hN _ _ yU_counted (ex_intro _ (newL [2%Z; 4%Z]) eq_refl).

Theorem C73_used : forall {E : Env} {T : Type} {K : Key T} {B : Boxes T}
    p (src : lset T) h f,
  nth_error h p = Some (Some f) ->
  exec (l_count (LMemo p src)) h = exec (l_count (LFrozen f)) h /\
  (forall limit, exec (l_countUpTo (LMemo p src) limit) h = exec (l_countUpTo (LFrozen f) limit) h) /\
  (forall limit, exec (l_fastCountUpTo (LMemo p src) limit) h = exec (l_fastCountUpTo (LFrozen f) limit) h) /\
  exec (l_fastCount (LMemo p src)) h = exec (l_fastCount (LFrozen f)) h /\
  exec (l_isEmpty (LMemo p src)) h = exec (l_isEmpty (LFrozen f)) h /\
  exec (l_fastIsEmpty (LMemo p src)) h = exec (l_fastIsEmpty (LFrozen f)) h /\
  (forall el, exec (l_has (LMemo p src) el) h = exec (l_has (LFrozen f) el) h) /\
  (forall el, exec (l_fastHas (LMemo p src) el) h = exec (l_fastHas (LFrozen f) el) h) /\
  exec (l_toList (LMemo p src)) h = exec (l_toList (LFrozen f)) h /\
  exec (l_freeze (LMemo p src)) h = exec (l_freeze (LFrozen f)) h /\
  (forall seed, exec (l_hash (LMemo p src) seed) h = exec (l_hash (LFrozen f) seed) h) /\
  (forall t, exec (l_equalSet (LMemo p src) t) h = exec (l_equalSet (LFrozen f) t) h) /\
  (forall t, exec (l_equal (LMemo p src) t) h = exec (l_equal (LFrozen f) t) h) /\
  (forall t, exec (l_isSubsetOf (LMemo p src) t) h = exec (l_isSubsetOf (LFrozen f) t) h).
Proof. exact @c73_used. Qed.
Print Assumptions C73_used.
Example C73_used_case := C73_used 0 yW hN (newL [2%Z; 4%Z]) eq_refl.
(** The source is not looked at: with the wrong one the answers are the same. *)
Example C73_used_run : (memoRun (l_count (LMemo 0 yI)) hN, memoRun (l_has (LMemo 0 yI) 4%Z) hN, memoRun (l_toList (LMemo 0 yI)) hN) = (Ok (2%Z, [true; false]), Ok (true, [true; false]), Ok ([2%Z; 4%Z], [true; false])).
Proof. vm_compute. reflexivity. Qed.

Theorem C73_built : forall {E : Env} {T : Type} {K : Key T} {B : Boxes T}
    p (src : lset T) h f,
  nth_error h p = Some (Some f) ->
  (forall v, exec (l_with (LMemo p src) v) h = exec (l_with (LFrozen f) v) h) /\
  (forall v, exec (l_without (LMemo p src) v) h = exec (l_without (LFrozen f) v) h) /\
  (forall q, exec (l_where (LMemo p src) q) h = exec (l_where (LFrozen f) q) h) /\
  (forall m, exec (l_map (LMemo p src) m) h = exec (l_map (LFrozen f) m) h) /\
  (forall t, exec (l_union (LMemo p src) t) h = exec (l_union (LFrozen f) t) h) /\
  (forall t, exec (l_intersection (LMemo p src) t) h = exec (l_intersection (LFrozen f) t) h) /\
  (forall t, exec (l_difference (LMemo p src) t) h = exec (l_difference (LFrozen f) t) h) /\
  (forall t, exec (l_symmetricDifference (LMemo p src) t) h = exec (l_symmetricDifference (LFrozen f) t) h) /\
  exec (l_powerset (LMemo p src)) h = exec (l_powerset (LFrozen f)) h.
Proof. exact @c73_built. Qed.
Print Assumptions C73_built.
Example C73_built_case := C73_built 0 yW hN (newL [2%Z; 4%Z]) eq_refl.

Theorem C73_derived_refuted : forall {E : Env} {T : Type} {K : Key T} {B : Boxes T}
    p (src : lset T),
  Avoids p src ->
  (forall v, Keeps p (Avoids p) (l_with (LMemo p src) v)) /\
  (forall v, Keeps p (Avoids p) (l_without (LMemo p src) v)) /\
  (forall q, Keeps p (Avoids p) (l_where (LMemo p src) q)) /\
  (forall m, Keeps p (Avoids p) (l_map (LMemo p src) m)) /\
  (forall t, Avoids p t -> Keeps p (Avoids p) (l_union (LMemo p src) t)) /\
  (forall t, Avoids p t -> Keeps p (Avoids p) (l_intersection (LMemo p src) t)) /\
  (forall t, Avoids p t -> Keeps p (Avoids p) (l_difference (LMemo p src) t)) /\
  (forall t, Avoids p t -> Keeps p (Avoids p) (l_symmetricDifference (LMemo p src) t)) /\
  Keeps p (Avoids p) (l_powerset (LMemo p src)).
Proof. exact @c73_derived_refuted. Qed.
Print Assumptions C73_derived_refuted.
Example C73_derived_refuted_case := C73_derived_refuted 0 yW yW_avoids.
(** Where on the set, then the set is iterated over and memoised: counting the new set memoises nothing, and it has its own copy of the
    source expression. *)
Example C73_derived_run :
  memoRun (x <~ l_where (LMemo 0 yW) (fun v => (v <? 3)%Z) ;; _ <~ l_toList (LMemo 0 yW) ;;
           Ret (match x with LMemo p (LWhere (LWhere (LFrozen _) _) _) => Some p | _ => None end)) hM =
  Ok (Some 2, [true; false; false]).
Proof. vm_compute. reflexivity. Qed.
