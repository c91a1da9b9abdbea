(** * PropVet: vetting (C56, C59).

    Generated by tools/genprops.py from SpecVet.v, SpecVetWhat.v and tools/examples/PropVet.txt.
    Every theorem is followed by a case that meets its hypotheses. *)
From Verif Require Import Base Bits Env EnvFacts Node NodeWf NodeAdd Iter Tree TreeFacts SetApi MapApi MapFacts Reach Vetting HeapModel HeapProg HeapProgSim HeapClone SpecHeap SpecAlloc SpecReduce SpecVet SpecVetWhat ExampleData PropHeap PropAlloc.

Local Open Scope Z_scope.

Local Open Scope Z_scope.

Theorem C56_set : forall {E : Env} {HE : EnvOk E} {T : Type} {K : Key T} {vok : T -> Prop} {KO : KeyOk K vok}
    s s',
  SetReach vok s -> SetReach vok s' -> VetSame (s_tree s) (s_tree s').
Proof. exact @c56_set. Qed.
Print Assumptions C56_set.
Example C56_set_case := C56_set sA sB sA_reach sB_reach.
(** With vetting on, [sA] with 7, without 1, and its elements in [sB]. *)
Example C56_set_run :
  (rmap t_count (t_withV (s_tree sA) 7), rmap t_count (t_withoutV (s_tree sA) 1),
   rmap (fun t => elemso (t_root t)) (t_intersectionV (t_gauge (s_tree sA)) (s_tree sA) (s_tree sB))) = (Ok 6, Ok 4, Ok [2; 3]).
Proof. vm_compute. reflexivity. Qed.

Theorem C56_builder : forall {E : Env} {HE : EnvOk E} {T : Type} {K : Key T} {vok : T -> Prop} {KO : KeyOk K vok}
    b,
  SBReach vok b -> BuildSame vok (sb_tree b).
Proof. exact @c56_builder. Qed.
Print Assumptions C56_builder.
Lemma vetB_reach b : sb_add (newSetBuilder 0) 5 = Ok b -> SBReach anyZ b.
Proof. intros H. eapply (sbr_add _ _ _ (newSetBuilder 0) 5); [constructor|exact Logic.I|exact H]. Qed.
Definition vetB : setBuilder Z := Eval vm_compute in okOr (newSetBuilder 0) (sb_add (newSetBuilder 0) 5).
Lemma vetB_ok : sb_add (newSetBuilder 0) 5 = Ok vetB.
Proof. vm_compute. reflexivity. Qed.
Example C56_builder_case := C56_builder vetB (vetB_reach vetB vetB_ok).
Example C56_builder_run :
  (rmap t_count (b_addV (sb_tree vetB) 6), rmap t_count (b_addV (sb_tree vetB) 5), rmap t_count (b_removeV (sb_tree vetB) 5),
   match b_clone (sb_tree vetB) with Ok t => elemso (t_root t) | _ => [] end) = (Ok 2, Ok 1, Ok 0, [5]).
Proof. vm_compute. reflexivity. Qed.

Theorem C56_fails : forall {E : Env} {T : Type} {K : Key T}
    t u,
  t_vet t = Panic ->
  (forall args, t_combineV args t u = Panic) /\
  (forall g, t_differenceV g t u = Panic) /\
  (forall g, t_intersectionV g t u = Panic) /\
  (forall g pred, t_whereV g pred t = Panic) /\
  (forall v, t_withV t v = Panic) /\
  (forall v, t_withoutV t v = Panic).
Proof. exact @c56_fails. Qed.
Print Assumptions C56_fails.
(** A tree that counts one element too many. *)
Definition miscounted : tree Z := mkTree (t_root (s_tree sA)) (t_count (s_tree sA) + 1).
Lemma miscounted_vet : t_vet miscounted = Panic.
Proof. vm_compute. reflexivity. Qed.
Example C56_fails_case := C56_fails miscounted (s_tree sB) miscounted_vet.
(** With finds nothing wrong without vetting. *)
Example C56_fails_run : (rmap t_count (t_with miscounted 7), rmap t_count (t_withV miscounted 7)) = (Ok 7, Panic).
Proof. vm_compute. reflexivity. Qed.

Theorem C56_map : forall {E : Env} {HE : EnvOk E} {T : Type} {K : Key T} {vok : T -> Prop} {KO : KeyOk K vok} {U : Type} {KU : Key U} {uok : U -> Prop} {KUO : KeyOk KU uok}
    s (f : T -> U),
  SetReach vok s -> (forall v, vok v -> uok (f v)) ->
  t_mapV f (s_tree s) = t_map f (s_tree s).
Proof. exact @c56_map. Qed.
Print Assumptions C56_map.
Example C56_map_case := C56_map (uok := anyZ) sA (fun v => v / 2) sA_reach (fun v H => H).
Example C56_map_run : rmap (fun t => elemso (t_root t)) (t_mapV (fun v => v / 2) (s_tree sA)) = Ok [0; 4; 1; 2].
Proof. vm_compute. reflexivity. Qed.

Theorem C56_maps : forall {E : Env} {HE : EnvOk E} {X : Type} {V : Type} {KX : Key X} {kok : X -> Prop} {KO : KeyOk KX kok} {valok : V -> Prop}
    (m m' : gomap X V),
  MapReach kok valok m -> MapReach kok valok m' ->
  VetSame (m_tree m) (m_tree m').
Proof. exact @c56_maps. Qed.
Print Assumptions C56_maps.
Example C56_maps_case := C56_maps mA mB mA_reach mB_reach.
Example C56_maps_run : rmap (fun t => elemso (t_root t)) (t_whereV (t_gauge (m_tree mA)) (fun e => 3 <? e_key e) (m_tree mA)) =
  Ok [mkEntry 5 50; mkEntry 9 90; mkEntry 102 22].
Proof. vm_compute. reflexivity. Qed.

Theorem C56_mapBuilder : forall {E : Env} {HE : EnvOk E} {X : Type} {V : Type} {KX : Key X} {kok : X -> Prop} {KO : KeyOk KX kok} {valok : V -> Prop}
    (b : mapBuilder X V),
  MBReach kok valok b ->
  BuildSame (eok (kok := kok)) (mb_tree b).
Proof. exact @c56_mapBuilder. Qed.
Print Assumptions C56_mapBuilder.
Definition vetM : mapBuilder Z Z := Eval vm_compute in okOr (newMapBuilder 0) (mb_put (newMapBuilder 0) 5 50).
Lemma vetM_reach : MBReach anyZ anyZ vetM.
Proof. eapply (mbr_put _ _ _ _ _ _ (newMapBuilder 0) 5 50); [constructor|exact Logic.I|exact Logic.I|vm_compute; reflexivity]. Qed.
Example C56_mapBuilder_case := C56_mapBuilder (kok := anyZ) (valok := anyZ) vetM vetM_reach.
Example C56_mapBuilder_run : rmap (fun t => elemso (t_root t)) (b_addV (mb_tree vetM) (mkEntry 5 51)) = Ok [mkEntry 5 51].
Proof. vm_compute. reflexivity. Qed.

Local Open Scope nat_scope.

Theorem C56_copy : forall {E : Env} {T : Type} {K : Key T} {vok : T -> Prop} {KO : KeyOk K vok} {grow : nat -> nat -> nat}
    (cs : list (cmd T)) i t p,
  progOk vok cs ->
  nth_error (st_builders (reached grow cs)) i = Some t -> pt_root t = Some p ->
  let h := st_heap (reached grow cs) in
  exists t' h', bH_clone grow t h = (Ok t', h') /\
    (forall fuel s u, readT fuel h s = Some u -> readT fuel h' s = Some u) /\
    readT treeFuel h' t' = readT treeFuel h t /\ readT treeFuel h t <> None /\
    (forall q, nodeOf h' t' q -> length (h_objs h) <= q) /\
    (forall r, arrayOf h' t' r -> length (h_arrs h) <= r) /\
    apart h' t t'.
Proof. exact @c56_copy. Qed.
Print Assumptions C56_copy.
(** A builder of 1, 5 and 9, which have one hash, and of 2. *)
Definition vetCs : list (cmd Z) := [CNew; CAdd 0 1; CAdd 0 5; CAdd 0 9; CAdd 0 2]%Z.
Definition vetBl : ptree := Eval vm_compute in nth 0 (st_builders (reached dbl vetCs)) emptyPT.
Definition vetH : heap (T := Z) := Eval vm_compute in st_heap (reached dbl vetCs).
Lemma vet_bld : nth_error (st_builders (reached dbl vetCs)) 0 = Some vetBl.
Proof. vm_compute. reflexivity. Qed.
Example C56_copy_case p (H : pt_root vetBl = Some p) :=
  C56_copy (vok := anyZ) (grow := dbl) vetCs 0 vetBl p ltac:(anyOk) vet_bld H.
(** The copy needs 24 nodes (22 branches) and one array. *)
Example C56_copy_run :
  (allocates (bH_clone dbl vetBl) vetH, length (h_objs vetH), pt_root vetBl, rmap pt_root (fst (bH_clone dbl vetBl vetH))) =
  (25, 70, Some 2, Ok (Some 93))%nat.
Proof. vm_compute. reflexivity. Qed.

Theorem C56_backup : forall {E : Env} {T : Type} {K : Key T} {vok : T -> Prop} {KO : KeyOk K vok} {grow : nat -> nat -> nat}
    (cs : list (cmd T)) i t p v,
  progOk vok cs ->
  nth_error (st_builders (reached grow cs)) i = Some t -> pt_root t = Some p ->
  let h := st_heap (reached grow cs) in
  exists t' h', bH_clone grow t h = (Ok t', h') /\
    readT treeFuel (snd (bH_add grow t v h')) t' = readT treeFuel h t /\
    readT treeFuel (snd (bH_remove grow t v h')) t' = readT treeFuel h t.
Proof. exact @c56_backup. Qed.
Print Assumptions C56_backup.
Example C56_backup_case p v (H : pt_root vetBl = Some p) :=
  C56_backup (vok := anyZ) (grow := dbl) vetCs 0 vetBl p v ltac:(anyOk) vet_bld H.
(** Removing 5 in place changes the bucket of the builder, not the copy taken before. *)
Example C56_backup_run :
  match bH_clone dbl vetBl vetH with
  | (Ok t', h') =>
      (option_map (fun t => elemso (t_root t)) (readT treeFuel (snd (bH_remove dbl vetBl 5%Z h')) vetBl),
       option_map (fun t => elemso (t_root t)) (readT treeFuel (snd (bH_remove dbl vetBl 5%Z h')) t'))
  | _ => (None, None)
  end = (Some [1; 9; 2], Some [1; 5; 9; 2])%Z.
Proof. vm_compute. reflexivity. Qed.

Theorem C59_vet : forall {E : Env} {T : Type} {K : Key T}
    (t : tree T),
  (forall n, t_root t = Some n -> sized treeFuel n) ->
  (t_vet t = Ok tt /\ VetsTree t) \/ (t_vet t = Panic /\ ~ VetsTree t).
Proof. exact @c59_vet. Qed.
Print Assumptions C59_vet.
(** The root of a set in the wrong place of a new root. *)
Definition misplaced : tree Z :=
  mkTree (match t_root (s_tree sB) with Some (Branch _ data) => Some (newBranch (updateMask (None :: removelast data), None :: removelast data)) | o => o end) (t_count (s_tree sB)).
Lemma misplaced_sized : forall n, t_root misplaced = Some n -> sized treeFuel n.
Proof. intros n [= <-]. apply sizedb_ok. vm_compute. reflexivity. Qed.
Example C59_vet_case := C59_vet misplaced misplaced_sized.
(** Vet accepts it, though Has does not find the elements; and a leaf with equal elements, and a branch with one element. *)
Example C59_vet_run :
  (t_vet misplaced, rmap (map (fun v => (v, s_has (mkSet misplaced) v))) (s_elements (mkSet misplaced)),
   t_vet (mkTree (Some (Leaf2 1 101)) 2)%Z,
   t_vet (mkTree (Some (newBranch (1%N, set_nth emptyData 0 (Some (Leaf1 1%Z))))) 1%Z),
   t_vet (mkTree (Some (Branch 3%N (set_nth emptyData 0 (Some (Leaf1 1%Z))))) 1%Z),
   t_vet (mkTree (Some (Twig [1; 5])) 2)%Z, t_vet (mkTree (Some (Twig [1; 5; 2])) 3)%Z, t_vet (mkTree (Some (Twig [1; 5; 9])) 3)%Z,
   t_vet miscounted) =
  (Ok tt, Ok [(4, Ok false); (102, Ok false); (6, Ok false); (203, Ok false)]%Z, Ok tt, Ok tt, Panic, Panic, Panic, Ok tt, Panic).
Proof. vm_compute. reflexivity. Qed.

Theorem C59_reach : forall {E : Env} {HE : EnvOk E} {T : Type} {K : Key T} {vok : T -> Prop} {KO : KeyOk K vok}
    (s : set T),
  SetReach vok s ->
  (forall n, t_root (s_tree s) = Some n -> sized treeFuel n) /\ VetsTree (s_tree s).
Proof. exact @c59_reach. Qed.
Print Assumptions C59_reach.
Example C59_reach_case := C59_reach sA sA_reach.
Example C59_reach_run : (t_vet (s_tree sA), t_vet (s_tree sAB)) = (Ok tt, Ok tt).
Proof. vm_compute. reflexivity. Qed.

Theorem C56_fails_second : forall {E : Env} {T : Type} {K : Key T}
    (t u : tree T),
  t_vet t = Ok tt -> t_vet u = Panic ->
  (forall args, t_combineV args t u = Panic) /\
  (forall g, t_differenceV g t u = Panic) /\
  (forall g, t_intersectionV g t u = Panic).
Proof. exact @c56_fails_second. Qed.
Print Assumptions C56_fails_second.
Lemma sB_vet : t_vet (s_tree sB) = Ok tt.
Proof. vm_compute. reflexivity. Qed.
Example C56_fails_second_case := C56_fails_second (s_tree sB) miscounted sB_vet miscounted_vet.
Example C56_fails_second_run : (rmap t_count (t_difference NonParallel (s_tree sB) miscounted), rmap t_count (t_differenceV NonParallel (s_tree sB) miscounted)) = (Ok 2, Panic)%Z.
Proof. vm_compute. reflexivity. Qed.

Theorem C56_fails_builder : forall {E : Env} {T : Type} {K : Key T}
    (b : tree T) (op : res (tree T)),
  t_root b <> None ->
  t_vet b = Panic \/ (exists b', op = Ok b' /\ t_vet b' = Panic) -> forall r, b_vetted b op <> Ok r.
Proof. exact @c56_fails_builder. Qed.
Print Assumptions C56_fails_builder.
Lemma miscounted_root : t_root miscounted <> None.
Proof. discriminate. Qed.
Example C56_fails_builder_case := C56_fails_builder miscounted (b_add miscounted 7%Z) miscounted_root (or_introl miscounted_vet).
(** An operation that loses the count of the builder is found afterwards. *)
Definition sBt : tree Z := s_tree sB.
Lemma sBt_root : t_root sBt <> None.
Proof. discriminate. Qed.
Example C56_fails_builder_after := C56_fails_builder sBt (Ok miscounted) sBt_root
  (or_intror (ex_intro _ miscounted (conj eq_refl miscounted_vet))).
Example C56_fails_builder_run : (rmap t_count (b_addV miscounted 7%Z), rmap t_count (b_vetted sBt (Ok miscounted)), rmap t_count (b_addV sBt 7%Z)) = (Panic, Panic, Ok 5)%Z.
Proof. vm_compute. reflexivity. Qed.
