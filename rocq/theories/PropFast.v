(** * PropFast: the Fast methods of lazy sets (C72).

    Generated by tools/genprops.py from SpecFast.v and tools/examples/PropFast.txt.
    Every theorem is followed by a case that meets its hypotheses. *)
From Verif Require Import Base Bits Env EnvFacts Node NodeWf Iter Tree SetApi Reach Spec Lazy LazyFacts LazyCost SpecFast ExampleData PropLazy.

Local Open Scope Z_scope.
#[local] Existing Instances KL KL_ok BL.
(** The even ones of {1,2,3,4}; with 7; that intersected with {2,3}; and some sets made of these, as the package makes them. *)
Definition xW : lset Z := LMemo 0 (LWhere (LFrozen s14) Z.even).
Definition xU : lset Z := LMemo 1 (LUnion (LWhere (LFrozen s14) Z.even) (LFrozen s7)).
Definition xI : lset Z := LMemo 2 (LInter (LFrozen s23) xU).
Definition xD : lset Z := LMemo 3 (LDiff (LUnion (LFrozen s14) xW) xU).
Definition xP : lset Z := LMemo 4 (LPow (LFrozen s23)).
(** As [xU], with another predicate. *)
Definition xU' : lset Z := LMemo 1 (LUnion (LWhere (LFrozen s14) Z.odd) (LFrozen s7)).
(** Nothing has been memoised yet. *)
Definition hF : lheap Z := [None; None; None; None; None].
(** The even ones of {1,2,3,4} have been memoised. *)
Definition hG : lheap Z := [Some (newL [2; 4]); None; None; None; None].
(** What a Fast method answers, and the number of its calls. *)
Definition fastRun {A} (m : prog Z (A * nat)) (h : lheap Z) : res (A * nat) := r <- exec m h ;; Ok (fst r).
Lemma xU_alike : Alike xU xU'.
Proof. repeat constructor. Qed.
Lemma xU_none L : NoneEmpty L xU.
Proof. intros _. split; [|split; [|split; exact Logic.I]]; repeat constructor; discriminate. Qed.
Lemma xD_none L : NoneEmpty L xD.
Proof. intros _. exact Logic.I. Qed.

Local Open Scope nat_scope.

Theorem C72_fastIsEmpty_same : forall {T : Type}
    (e : lset T),
  Same (@anyLoad T) counting (l_fastIsEmpty e) (l_fastIsEmptyN e).
Proof. exact @c72_fastIsEmpty_same. Qed.
Print Assumptions C72_fastIsEmpty_same.
Example C72_fastIsEmpty_same_case := C72_fastIsEmpty_same xW.

Theorem C72_fastCount_same : forall {T : Type}
    (e : lset T),
  Same (@anyLoad T) counting (l_fastCount e) (l_fastCountN e).
Proof. exact @c72_fastCount_same. Qed.
Print Assumptions C72_fastCount_same.
Example C72_fastCount_same_case := C72_fastCount_same xP.

Theorem C72_fastHas_same : forall {E : Env} {T : Type} {K : Key T}
    (e : lset T) el,
  Same (@anyLoad T) counting (l_fastHas e el) (l_fastHasN e el).
Proof. exact @c72_fastHas_same. Qed.
Print Assumptions C72_fastHas_same.
Example C72_fastHas_same_case := C72_fastHas_same xD 3%Z.

Theorem C72_fastCountUpTo_same : forall {E : Env} {T : Type} {K : Key T} {B : Boxes T}
    (e : lset T) limit,
  Same (@anyLoad T) counting (l_fastCountUpTo e limit) (l_fastCountUpToN e limit).
Proof. exact @c72_fastCountUpTo_same. Qed.
Print Assumptions C72_fastCountUpTo_same.
Example C72_fastCountUpTo_same_case := C72_fastCountUpTo_same xU 2%Z.

Theorem C72_fastIsEmpty : forall {T : Type}
    (L : @loads T) (e : lset T),
  Within L (objects e) (fun _ => True) (l_fastIsEmptyN e).
Proof. exact @c72_fastIsEmpty. Qed.
Print Assumptions C72_fastIsEmpty.
Example C72_fastIsEmpty_case := C72_fastIsEmpty anyLoad xW.
Example C72_fastIsEmpty_alone_run : (objects xW, fastRun (l_fastIsEmptyN xW) hF, fastRun (l_fastIsEmptyN xW) hG) =
  (3, Ok (None, 3), Ok (Some false, 2)).
Proof. vm_compute. reflexivity. Qed.

Theorem C72_fastCount : forall {T : Type}
    (L : @loads T) (e : lset T),
  Within L (objects e) (fun _ => True) (l_fastCountN e).
Proof. exact @c72_fastCount. Qed.
Print Assumptions C72_fastCount.
Example C72_fastCount_case := C72_fastCount anyLoad xP.
Example C72_fastCount_alone_run : (objects xP, fastRun (l_fastCountN xP) hF, fastRun (l_fastCountN xW) hF, fastRun (l_fastCountN xW) hG) =
  (3, Ok (Some 4%Z, 3), Ok (None, 2), Ok (Some 2%Z, 2)).
Proof. vm_compute. reflexivity. Qed.

Theorem C72_fastCountUpTo_partial : forall {E : Env} {T : Type} {K : Key T} {B : Boxes T}
    (L : @loads T) (e : lset T) limit,
  NoneEmpty L e ->
  Within L (2 * objects e) (fun _ => True) (l_fastCountUpToN e limit).
Proof. exact @c72_fastCountUpTo. Qed.
Print Assumptions C72_fastCountUpTo_partial.
Example C72_fastCountUpTo_case := C72_fastCountUpTo_partial anyLoad xU 1%Z (xU_none _).
Example C72_fastCountUpTo_alone_run : (objects xU, fastRun (l_fastCountUpToN xU 1%Z) hF, fastRun (l_fastCountUpToN xU 2%Z) hF) =
  (5, Ok (Some 1%Z, 7), Ok (None, 7)).
Proof. vm_compute. reflexivity. Qed.

Theorem C72_fastCountUpTo_iterated : forall {E : Env} {T : Type} {K : Key T} {B : Boxes T}
    (L : @loads T) (e : lset T) limit,
  match e with LInter _ _ | LDiff _ _ | LWhere _ _ | LMap _ _ => True | _ => False end ->
  Within L 1 (fun r => r = None) (l_fastCountUpToN e limit).
Proof. exact @c72_fastCountUpTo_iterated. Qed.
Print Assumptions C72_fastCountUpTo_iterated.
Example C72_fastCountUpTo_iterated_case := C72_fastCountUpTo_iterated anyLoad (LWhere (LFrozen s14) Z.even) 9%Z Logic.I.
Example C72_fastCountUpTo_iterated_xD := C72_fastCountUpTo_partial anyLoad xD 5%Z (xD_none _).

Theorem C72_fastHas_partial : forall {E : Env} {T : Type} {K : Key T}
    (L : @loads T) (e : lset T) el,
  Within L (hasCalls e) (fun _ => True) (l_fastHasN e el).
Proof. exact @c72_fastHas. Qed.
Print Assumptions C72_fastHas_partial.
(** [xD] asks the first operand of the union twice if that cannot answer; here it can. *)
Example C72_fastHas_case := C72_fastHas_partial anyLoad xD 3%Z.
Example C72_fastHas_alone_run : (hasCalls xU, fastRun (l_fastHasN xU 4%Z) hF, hasCalls xI, fastRun (l_fastHasN xI 2%Z) hF, fastRun (l_fastHasN xI 5%Z) hF) =
  (4, Ok (None, 4), 7, Ok (None, 7), Ok (Some false, 3)).
Proof. vm_compute. reflexivity. Qed.

Theorem C72_fastHas_known_partial : forall {E : Env} {T : Type} {K : Key T}
    (L : @loads T) (e : lset T) el,
  Known e -> Within L (objects e) (fun r => r <> None) (l_fastHasN e el).
Proof. exact @c72_fastHas_known. Qed.
Print Assumptions C72_fastHas_known_partial.
Lemma xD_known : Known xD.
Proof. exact Logic.I. Qed.
Example C72_fastHas_known_case := C72_fastHas_known_partial anyLoad xD 3%Z xD_known.
Example C72_fastHas_known_alone_run : (objects xD, hasCalls xD, fastRun (l_fastHasN xD 3%Z) hF) =
  (12, 8, Ok (Some true, 4)).
Proof. vm_compute. reflexivity. Qed.

Theorem C72_fastHas_flat_partial : forall {E : Env} {T : Type} {K : Key T}
    (L : @loads T) (e : lset T) el,
  hasCalls e <= objects e -> Within L (objects e) (fun _ => True) (l_fastHasN e el).
Proof. exact @c72_fastHas_flat. Qed.
Print Assumptions C72_fastHas_flat_partial.
(** A union in a difference, neither of which has another to its left. *)
Example C72_fastHas_flat_case := C72_fastHas_flat_partial anyLoad xI 3%Z ltac:(vm_compute; repeat constructor).

Theorem C72_fastIsEmpty_functions : forall {T : Type}
    (L : @loads T) (e e' : lset T),
  Alike e e' -> Same L eq (l_fastIsEmptyN e) (l_fastIsEmptyN e').
Proof. exact @c72_fastIsEmpty_functions. Qed.
Print Assumptions C72_fastIsEmpty_functions.
Example C72_fastIsEmpty_functions_case := C72_fastIsEmpty_functions anyLoad xU xU' xU_alike.

Theorem C72_fastCount_functions : forall {T : Type}
    (L : @loads T) (e e' : lset T),
  Alike e e' -> Same L eq (l_fastCountN e) (l_fastCountN e').
Proof. exact @c72_fastCount_functions. Qed.
Print Assumptions C72_fastCount_functions.
Example C72_fastCount_functions_case := C72_fastCount_functions anyLoad xU xU' xU_alike.

Theorem C72_fastHas_functions : forall {E : Env} {T : Type} {K : Key T}
    (L : @loads T) (e e' : lset T) el,
  Alike e e' -> Same L eq (l_fastHasN e el) (l_fastHasN e' el).
Proof. exact @c72_fastHas_functions. Qed.
Print Assumptions C72_fastHas_functions.
Example C72_fastHas_functions_case := C72_fastHas_functions anyLoad xU xU' 4%Z xU_alike.

Theorem C72_fastCountUpTo_functions_partial : forall {E : Env} {T : Type} {K : Key T} {B : Boxes T}
    (L : @loads T) (e e' : lset T) limit,
  Alike e e' -> NoneEmpty L e ->
  Same L eq (l_fastCountUpToN e limit) (l_fastCountUpToN e' limit).
Proof. exact @c72_fastCountUpTo_functions. Qed.
Print Assumptions C72_fastCountUpTo_functions_partial.
Example C72_fastCountUpTo_functions_case := C72_fastCountUpTo_functions_partial anyLoad xU xU' 2%Z xU_alike (xU_none _).
(** Without the condition it does not hold: this union with a set known to be empty answers with the number of even, or odd, elements. *)
Example C72_fastCountUpTo_predicate_run :
  (fastRun (l_fastCountUpToN (LUnion (LFrozen s_empty) (LWhere (LFrozen s14) Z.even)) 9%Z) hF,
   fastRun (l_fastCountUpToN (LUnion (LFrozen s_empty) (LWhere (LFrozen s14) (fun z => z <? 4)%Z)) 9%Z) hF) =
  (Ok (Some 2%Z, 8), Ok (Some 3%Z, 9)).
Proof. vm_compute. reflexivity. Qed.

Theorem C72_fastIsEmpty_run : forall {T : Type}
    (e : lset T) h a h',
  exec (l_fastIsEmpty e) h = Ok (a, h') ->
  h' = h /\ exists j, exec (l_fastIsEmptyN e) h = Ok (a, j, h) /\ j <= objects e.
Proof. exact @c72_fastIsEmpty_run. Qed.
Print Assumptions C72_fastIsEmpty_run.
Example C72_fastIsEmpty_run_case := C72_fastIsEmpty_run xW hG (Some false) hG ltac:(vm_compute; reflexivity).

Theorem C72_fastCount_run : forall {T : Type}
    (e : lset T) h a h',
  exec (l_fastCount e) h = Ok (a, h') ->
  h' = h /\ exists j, exec (l_fastCountN e) h = Ok (a, j, h) /\ j <= objects e.
Proof. exact @c72_fastCount_run. Qed.
Print Assumptions C72_fastCount_run.
Example C72_fastCount_run_case := C72_fastCount_run xP hF (Some 4%Z) hF ltac:(vm_compute; reflexivity).

Theorem C72_fastCountUpTo_run_partial : forall {E : Env} {T : Type} {K : Key T} {B : Boxes T}
    (e : lset T) limit h a h',
  NoneEmpty (aloneIn h) e -> exec (l_fastCountUpTo e limit) h = Ok (a, h') ->
  h' = h /\ exists j, exec (l_fastCountUpToN e limit) h = Ok (a, j, h) /\ j <= 2 * objects e.
Proof. exact @c72_fastCountUpTo_run. Qed.
Print Assumptions C72_fastCountUpTo_run_partial.
Example C72_fastCountUpTo_run_case := C72_fastCountUpTo_run_partial xU 1%Z hF (Some 1%Z) hF (xU_none _) ltac:(vm_compute; reflexivity).

Theorem C72_fastHas_run_partial : forall {E : Env} {T : Type} {K : Key T}
    (e : lset T) el h a h',
  exec (l_fastHas e el) h = Ok (a, h') ->
  h' = h /\ exists j, exec (l_fastHasN e el) h = Ok (a, j, h) /\ j <= hasCalls e.
Proof. exact @c72_fastHas_run. Qed.
Print Assumptions C72_fastHas_run_partial.
Lemma xD_runs : exec (l_fastHas xD 3%Z) hF = Ok (Some true, hF).
Proof. vm_compute. reflexivity. Qed.
Example C72_fastHas_run_case := C72_fastHas_run_partial xD 3%Z hF (Some true) hF xD_runs.

Theorem C72_fastHas_refuted : forall {E : Env} {T : Type} {K : Key T}
    s p v t n el,
  s_new [v] = Ok t -> exists e h j, exec (whereWiths s p v n) [] = Ok (e, h) /\
  objects e = 3 + 2 * n /\ exec (l_fastHasN e el) h = Ok (None, j, h) /\ 2 ^ n <= j.
Proof. exact @c72_fastHas_refuted. Qed.
Print Assumptions C72_fastHas_refuted.
Lemma s7_new : s_new [7%Z] = Ok s7.
Proof. vm_compute. reflexivity. Qed.
Example C72_fastHas_refuted_case := C72_fastHas_refuted s14 Z.even 7%Z s7 40 4%Z s7_new.
(** The number of calls after 0 to 5 calls of With. *)
Definition callsAfter (n : nat) : res (option bool * nat) := x <- exec (whereWiths s14 Z.even 7%Z n) [] ;; fastRun (l_fastHasN (fst x) 4%Z) (snd x).
Example C72_fastHas_doubling_run : map callsAfter (seq 0 6) =
  [Ok (None, 2); Ok (None, 4); Ok (None, 8); Ok (None, 16); Ok (None, 32); Ok (None, 64)].
Proof. vm_compute. reflexivity. Qed.

Theorem C72_fastCountUpTo_refuted : forall {E : Env} {HE : EnvOk E} {T : Type} {K : Key T} {vok : T -> Prop} {KO : KeyOk K vok} {B : Boxes T}
    (s : set T) limit,
  SetReach vok s -> (0 <= limit)%Z -> exists e h j h',
  exec (emptyOrWhere s (fun _ => true)) [] = Ok (e, h) /\ objects e = 6 /\
  exec (l_fastCountUpToN e limit) h = Ok (Some (Z.min limit (s_count s)), j, h') /\ (Z.min limit (s_count s) <= Z.of_nat j)%Z.
Proof. exact @c72_fastCountUpTo_refuted. Qed.
Print Assumptions C72_fastCountUpTo_refuted.
Example C72_fastCountUpTo_refuted_case := C72_fastCountUpTo_refuted s14 9%Z s14_reach ltac:(vm_compute; discriminate).
Example C72_fastCountUpTo_iterates_run :
  (x <- exec (emptyOrWhere s14 Z.even) [] ;; y <- exec (l_fastCountUpToN (fst x) 9%Z) (snd x) ;; Ok (fst y)) = Ok (Some 2%Z, 10).
Proof. vm_compute. reflexivity. Qed.
(** If the other operand is itself a union, the memo of its second operand is stored. *)
Definition emptyOrUnion : prog Z (lset Z) :=
  a <~ l_where (LFrozen s14) Z.even ;; b <~ l_where (LFrozen s23) Z.odd ;; c <~ l_union a b ;; l_union (LFrozen s_empty) c.
Example C72_fastCountUpTo_stores_run :
  (x <- exec emptyOrUnion [] ;; y <- exec (l_fastCountUpToN (fst x) 9%Z) (snd x) ;; Ok (map isSome (snd x), fst y, map isSome (snd y))) =
  Ok ([false; false; false; false], (Some 3%Z, 19), [false; true; false; false]).
Proof. vm_compute. reflexivity. Qed.
