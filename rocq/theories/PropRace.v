(** * PropRace: data races between the goroutines of an operation (C71).

    Generated by tools/genprops.py from SpecRace.v and tools/examples/PropRace.txt.
    Every theorem is followed by a case that meets its hypotheses. *)
From Coq Require Import Strings.String.
From Coq Require Import Sorting.Permutation.
From Verif Require Import Base Bits Env EnvFacts Node Iter Tree SetApi MapApi Reach Concurrency ConcOps ConcApi ConcRun Goroutines GoOps GoRun Config SpecConc Races SpecRace ExampleData.

Local Open Scope Z_scope.
(** Integers whose place in the root branch is their value modulo 8. *)
#[local] Instance KC : Key Z := {| veq := Z.eqb; vhash := fun a seed => wrap 64 (Z.to_N a * 2 ^ 61) |}.
#[local] Instance KC_ok : KeyOk KC anyZ.
Proof.
  constructor; cbn; intros; try (apply wrap_lt).
  - apply Z.eqb_refl.
  - rewrite Z.eqb_sym. auto.
  - rewrite Z.eqb_eq in *. congruence.
  - rewrite Z.eqb_eq in *. congruence.
Qed.
Definition sP : set Z := Eval vm_compute in okOr s_empty (s_new [0; 1; 2]).
Definition sQ : set Z := Eval vm_compute in okOr s_empty (s_new [5; 6; 2; 10]).
Lemma sP_reach : SetReach anyZ sP.
Proof. apply (sr_new _ _ _ [0; 1; 2]); [intros v _; exact I|]. vm_compute. reflexivity. Qed.
Lemma sQ_reach : SetReach anyZ sQ.
Proof. apply (sr_new _ _ _ [5; 6; 2; 10]); [intros v _; exact I|]. vm_compute. reflexivity. Qed.
Definition mP : gomap Z Z := Eval vm_compute in okOr m_empty (m_new [mkKV 0 1; mkKV 1 2; mkKV 2 3]).
Definition mQ : gomap Z Z := Eval vm_compute in okOr m_empty (m_new [mkKV 5 6; mkKV 6 7; mkKV 2 4; mkKV 10 11]).
Lemma mP_reach : MapReach anyZ anyZ mP.
Proof. apply (mr_new _ _ _ _ _ _ [mkKV 0 1; mkKV 1 2; mkKV 2 3]); [intros kv _; split; exact I|]. vm_compute. reflexivity. Qed.
Lemma mQ_reach : MapReach anyZ anyZ mQ.
Proof. apply (mr_new _ _ _ _ _ _ [mkKV 5 6; mkKV 6 7; mkKV 2 4; mkKV 10 11]); [intros kv _; split; exact I|]. vm_compute. reflexivity. Qed.

(** The accesses that the goroutines are about to make after a schedule. *)
Definition about {B} (cs : list (nat * list nat)) (p : conc B) : option (list access) :=
  match p with
  | CRun g _ => match ssched fanout cs (start g) with Some s => Some (pendingTs (snd (fst s)) 0) | None => None end
  | _ => None
  end.
(** The caller's workers run alone, the last first, [steps] steps each. *)
Definition lastFirst (steps : list nat) : list (nat * list nat) :=
  flat_map (fun p => repeat (O, [fst p]) (snd p)) (rev (List.combine (seq 0 (length steps)) steps)).

Local Open Scope Z_scope.

Theorem C71_union_partial : forall {E : Env} {HE : EnvOk E} {T : Type} {K : Key T} {vok : T -> Prop} {KO : KeyOk K vok}
    limit s t,
  SetReach vok s -> SetReach vok t ->
  MildRaces (s_unionC limit s t) /\ (limit <= 0 -> RaceFree (s_unionC limit s t)).
Proof. exact @c71_union. Qed.
Print Assumptions C71_union_partial.
Example C71_union_case := C71_union_partial 1 sP sQ sP_reach sQ_reach.
(** Worker 0 is about to write the mask and workers 1, 3 and 4 are about to read it; worker 2 is at [flipped]. *)
Example C71_union_run : about [(0, [0])]%nat (s_unionC 1 sP sQ) =
  Some [(PMask [0%nat], true); (PMask [0%nat], false); (PFlip, false); (PMask [0%nat], false); (PMask [0%nat], false)].
Proof. vm_compute. reflexivity. Qed.

Theorem C71_symmetricDifference_partial : forall {E : Env} {HE : EnvOk E} {T : Type} {K : Key T} {vok : T -> Prop} {KO : KeyOk K vok}
    limit s t,
  SetReach vok s -> SetReach vok t ->
  MildRaces (s_symmetricDifferenceC limit s t) /\ (limit <= 0 -> RaceFree (s_symmetricDifferenceC limit s t)).
Proof. exact @c71_symmetricDifference. Qed.
Print Assumptions C71_symmetricDifference_partial.
Example C71_symmetricDifference_case := C71_symmetricDifference_partial 1 sP sQ sP_reach sQ_reach.

Theorem C71_intersection : forall {E : Env} {HE : EnvOk E} {T : Type} {K : Key T} {vok : T -> Prop} {KO : KeyOk K vok}
    limit s t,
  SetReach vok s -> SetReach vok t -> RaceFree (s_intersectionC limit s t).
Proof. exact @c71_intersection. Qed.
Print Assumptions C71_intersection.
Example C71_intersection_case := C71_intersection 1 sP sQ sP_reach sQ_reach.
(** The goroutine is about to fill its slot; then the caller is about to read the branch. *)
Example C71_intersection_run : about [(0, [0])]%nat (s_intersectionC 1 sP sQ) = Some [(PSlot [0%nat] 2, true)] /\
  about ([(0, [0]); (0, [0]); (0, [0]); (0, [])])%nat (s_intersectionC 1 sP sQ) =
    Some ((PMask [0%nat], false) :: map (fun i => (PSlot [0%nat] i, false)) (seq 0 8)).
Proof. vm_compute. auto. Qed.

Theorem C71_difference : forall {E : Env} {HE : EnvOk E} {T : Type} {K : Key T} {vok : T -> Prop} {KO : KeyOk K vok}
    limit s t,
  SetReach vok s -> SetReach vok t -> RaceFree (s_differenceC limit s t).
Proof. exact @c71_difference. Qed.
Print Assumptions C71_difference.
Example C71_difference_case := C71_difference 1 sQ sP sQ_reach sP_reach.
(** Three goroutines, one of them after its recursive call, are about to fill their slots. *)
Example C71_difference_run : about [(0, [0])]%nat (s_differenceC 1 sQ sP) =
  Some [(PSlot [0%nat] 2, true); (PSlot [0%nat] 5, true); (PSlot [0%nat] 6, true)].
Proof. vm_compute. reflexivity. Qed.

Theorem C71_where : forall {E : Env} {HE : EnvOk E} {T : Type} {K : Key T} {vok : T -> Prop} {KO : KeyOk K vok}
    limit s pred,
  SetReach vok s -> RaceFree (s_whereC limit s pred).
Proof. exact @c71_where. Qed.
Print Assumptions C71_where.
Example C71_where_case := C71_where 1 sQ Z.even sQ_reach.
Example C71_where_run : about [(0, [0]); (0, [2])]%nat (s_whereC 1 sQ Z.even) = Some [(PSlot [0%nat] 2, true); (PSlot [0%nat] 6, true)].
Proof. vm_compute. reflexivity. Qed.

Theorem C71_equal : forall {E : Env} {HE : EnvOk E} {T : Type} {K : Key T} {vok : T -> Prop} {KO : KeyOk K vok}
    limit s t,
  SetReach vok s -> SetReach vok t -> RaceFree (s_equalC limit s t).
Proof. exact @c71_equal. Qed.
Print Assumptions C71_equal.
Example C71_equal_case := C71_equal 1 sQ sQ sQ_reach sQ_reach.

Theorem C71_isSubsetOf : forall {E : Env} {HE : EnvOk E} {T : Type} {K : Key T} {vok : T -> Prop} {KO : KeyOk K vok}
    limit s t,
  SetReach vok s -> SetReach vok t -> RaceFree (s_isSubsetOfC limit s t).
Proof. exact @c71_isSubsetOf. Qed.
Print Assumptions C71_isSubsetOf.
Example C71_isSubsetOf_case := C71_isSubsetOf 1 sP sQ sP_reach sQ_reach.
(** After the caller has gone: nothing is accessed. *)
Example C71_isSubsetOf_run : about [(0, [1]); (0, [])]%nat (s_isSubsetOfC 1 sP sQ) = Some [].
Proof. vm_compute. reflexivity. Qed.

Theorem C71_reduce : forall {E : Env} {HE : EnvOk E} {T : Type} {K : Key T} {vok : T -> Prop} {KO : KeyOk K vok}
    limit s f,
  SetReach vok s -> RaceFree (s_reduceC limit s f).
Proof. exact @c71_reduce. Qed.
Print Assumptions C71_reduce.
Example C71_reduce_case := C71_reduce 1 sQ (fun l => fold_left Z.add l 0) sQ_reach.

Theorem C71_merge_partial : forall {E : Env} {HE : EnvOk E} {X : Type} {V : Type} {KX : Key X} {kok : X -> Prop} {KO : KeyOk KX kok} {valok : V -> Prop}
    limit m n resolve,
  MapReach kok valok m -> MapReach kok valok n ->
  MildRaces (m_mergeC limit m n resolve) /\ (limit <= 0 -> RaceFree (m_mergeC limit m n resolve)).
Proof. exact @c71_merge. Qed.
Print Assumptions C71_merge_partial.
Example C71_merge_case := C71_merge_partial 1 mP mQ (fun _ a b => a - b) mP_reach mQ_reach.
Example C71_merge_run : about [(0, [1])]%nat (m_mergeC 1 mP mQ (fun _ a b => a - b)) =
  Some [(PMask [0%nat], false); (PMask [0%nat], true); (PFlip, false); (PMask [0%nat], false); (PMask [0%nat], false)].
Proof. vm_compute. reflexivity. Qed.

Theorem C71_update_partial : forall {E : Env} {HE : EnvOk E} {X : Type} {V : Type} {KX : Key X} {kok : X -> Prop} {KO : KeyOk KX kok} {valok : V -> Prop}
    limit m n,
  MapReach kok valok m -> MapReach kok valok n ->
  MildRaces (m_updateC limit m n) /\ (limit <= 0 -> RaceFree (m_updateC limit m n)).
Proof. exact @c71_update. Qed.
Print Assumptions C71_update_partial.
Example C71_update_case := C71_update_partial 1 mP mQ mP_reach mQ_reach.

Theorem C71_mapEqual : forall {E : Env} {HE : EnvOk E} {X : Type} {V : Type} {KX : Key X} {kok : X -> Prop} {KO : KeyOk KX kok} {valok : V -> Prop}
    {KV : Key V} limit m n,
  MapReach kok valok m -> MapReach kok valok n -> RaceFree (m_equalC limit m n).
Proof. exact @c71_mapEqual. Qed.
Print Assumptions C71_mapEqual.
Example C71_mapEqual_case := C71_mapEqual 1 mP mP mP_reach mP_reach.

Theorem C71_union_races : forall {E : Env} {HE : EnvOk E} {T : Type} {K : Key T} {vok : T -> Prop} {KO : KeyOk K vok}
    limit s t r m1 d1 m2 d2 i j,
  1 <= limit -> SetReach vok s -> SetReach vok t -> s_union s t = Ok r ->
  t_root (s_tree s) = Some (Branch m1 d1) -> t_root (s_tree t) = Some (Branch m2 d2) ->
  In i (mask_indices (N.lor m1 m2)) -> In j (mask_indices (N.lor m1 m2)) -> i <> j ->
  child d1 i = None \/ child d2 i = None -> child d1 j = None \/ child d2 j = None ->
  Races (PMask [0%nat]) (s_unionC limit s t).
Proof. exact @c71_union_races. Qed.
Print Assumptions C71_union_races.
Example C71_union_races_case : Races (PMask [0%nat]) (s_unionC 3 sP sQ).
Proof.
  eapply (C71_union_races 3 sP sQ (okOr s_empty (s_union sP sQ))) with (i := 1%nat) (j := 6%nat);
    [lia|exact sP_reach|exact sQ_reach|vm_compute; reflexivity|reflexivity|reflexivity| | |discriminate|right; reflexivity|left; reflexivity];
    vm_compute; auto 9.
Qed.

Theorem C71_union_refuted : exists (s t u : set Z), SetReach (K := keyC) anyZ s /\ SetReach (K := keyC) anyZ t /\ SetReach (K := keyC) anyZ u /\
  gaugeFor "-1" 8 (s_count s) = 1 /\
  Races (PMask [0%nat]) (s_unionC (K := keyC) 1 s u) /\ Races PFlip (s_unionC (K := keyC) 1 s t).
Proof. exact @c71_union_refuted. Qed.
Print Assumptions C71_union_refuted.
Example C71_union_refuted_case := C71_union_refuted.
