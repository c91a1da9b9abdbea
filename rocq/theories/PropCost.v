(** * PropCost: calls of hash and equality (C58).

    Generated by tools/genprops.py from SpecCost.v and tools/examples/PropCost.txt.
    Every theorem is followed by a case that meets its hypotheses. *)
From Verif Require Import Base Bits Env EnvFacts Node NodeWf Iter Tree TreeFacts SetApi MapApi MapFacts Reach Spec SpecSet SpecMap Cost CostFacts CostBin SpecCost ExampleData.

Local Open Scope Z_scope.

(** How many calls of hash and of equality were made. *)
Definition counts {T A} (m : cres (T := T) A) : res (nat * nat) := rmap (fun x => (hashes (snd x), compares (snd x))) m.

(** In the sets and maps below at most four elements have the same hash. *)
Lemma share4 (l : list Z) : forallb (fun v => (sameHash l v <=? 4)%nat) l = true -> shareAtMost 4 l.
Proof. intros H v Hv. rewrite forallb_forall in H. apply Nat.leb_le, H, Hv. Qed.
Definition elAB : list Z := Eval vm_compute in okOr [] (s_elements sAB).
Lemma elAB_ok : s_elements sAB = Ok elAB. Proof. vm_compute. reflexivity. Qed.
Lemma shareA : shareAtMost 4 elA. Proof. apply share4. vm_compute. reflexivity. Qed.
Lemma shareB : shareAtMost 4 elB. Proof. apply share4. vm_compute. reflexivity. Qed.
Lemma shareAB : shareAtMost 4 elAB. Proof. apply share4. vm_compute. reflexivity. Qed.
Lemma two4 : (2 <= 4)%nat. Proof. repeat constructor. Qed.

Local Open Scope nat_scope.

Theorem C58_has : forall {E : Env} {HE : EnvOk E} {T : Type} {K : Key T} {vok : T -> Prop} {KO : KeyOk K vok}
    (s : set T) v,
  SetReach vok s -> vok v ->
  exists l asked b, s_elements s = Ok l /\ s_has s v = Ok b /\
    s_hasC s v = Ok (b, match l with [] => [] | _ => AHash v :: map (fun e => AEq e v) asked end) /\
    NoDup asked /\ incl asked l /\ length asked <= max 2 (sameHash l v) /\
    (forall l1 e l2, asked = l1 ++ e :: l2 -> veq e v = true -> l2 = []).
Proof. exact @c58_has. Qed.
Print Assumptions C58_has.
Example C58_has_case := C58_has (vok := anyZ) sAB 105%Z sAB_reach Logic.I.
Example C58_has_run : (s_hasC sAB 105%Z, s_hasC sAB 13%Z, s_hasC sAB 104%Z) =
  (Ok (true, [AHash 105; AEq 1 105; AEq 5 105]), Ok (false, [AHash 13; AEq 1 13; AEq 5 13; AEq 9 13]), Ok (true, [AHash 104; AEq 4 104]))%Z.
Proof. vm_compute. reflexivity. Qed.

Theorem C58_with : forall {E : Env} {HE : EnvOk E} {T : Type} {K : Key T} {vok : T -> Prop} {KO : KeyOk K vok}
    (s : set T) v,
  SetReach vok s -> vok v ->
  exists l r tr, s_elements s = Ok l /\ s_with s v = Ok r /\ s_withC s v = Ok (r, tr) /\
    hashes tr <= 1 + pathHashes /\ compares tr <= max (2 + pathHashes) (sameHash l v).
Proof. exact @c58_with. Qed.
Print Assumptions C58_with.
Example C58_with_case := C58_with (vok := anyZ) sAB 13%Z sAB_reach Logic.I.
Example C58_with_run : (counts (s_withC sAB 13%Z), counts (s_withC sAB 10%Z), counts (s_withC sAB 14%Z), counts (s_withC sB 10%Z)) = (Ok (1, 3), Ok (1, 2), Ok (1, 2), Ok (1, 2))%nat.
Proof. vm_compute. reflexivity. Qed.
(** A third element of one hash makes a path of the greatest length: the bounds are reached. *)
Example C58_with_path_run : (s <- s_new [1; 5]%Z ;; rmap (fun x => (x, pathHashes)) (counts (s_withC s 9%Z))) = Ok (67, 68, 66)%nat.
Proof. vm_compute. reflexivity. Qed.

Theorem C58_without : forall {E : Env} {HE : EnvOk E} {T : Type} {K : Key T} {vok : T -> Prop} {KO : KeyOk K vok}
    (s : set T) v,
  SetReach vok s -> vok v ->
  exists l r tr, s_elements s = Ok l /\ s_without s v = Ok r /\ s_withoutC s v = Ok (r, tr) /\
    hashes tr <= 1 /\ compares tr <= max 2 (sameHash l v).
Proof. exact @c58_without. Qed.
Print Assumptions C58_without.
Example C58_without_case := C58_without (vok := anyZ) sAB 105%Z sAB_reach Logic.I.
Example C58_without_run : (counts (s_withoutC sAB 105%Z), counts (s_withoutC sAB 10%Z)) = (Ok (1, 2), Ok (1, 2))%nat.
Proof. vm_compute. reflexivity. Qed.

Theorem C58_add : forall {E : Env} {HE : EnvOk E} {T : Type} {K : Key T} {vok : T -> Prop} {KO : KeyOk K vok}
    (b : setBuilder T) v,
  SBReach vok b -> vok v ->
  exists l r tr, s_elements (fst (sb_finish b)) = Ok l /\ sb_add b v = Ok r /\ sb_addC b v = Ok (r, tr) /\
    hashes tr <= 1 + pathHashes /\ compares tr <= max (2 + pathHashes) (sameHash l v).
Proof. exact @c58_add. Qed.
Print Assumptions C58_add.
Definition bA : setBuilder Z := Eval vm_compute in okOr (newSetBuilder 0%Z) (sb_addAll (newSetBuilder 0%Z) lA).
Lemma bA_reach : SBReach anyZ bA.
Proof.
  assert (H : forall vs b r, SBReach anyZ b -> sb_addAll b vs = Ok r -> SBReach anyZ r).
  { induction vs as [|v vs IH]; intros b r Hb Hr; cbn in Hr; [injection Hr as <-; exact Hb|].
    destruct (sb_add b v) as [b'| |] eqn:Eb; try discriminate. eapply IH; [|exact Hr]. eapply sbr_add; eauto. exact Logic.I. }
  apply (H lA (newSetBuilder 0%Z)); [constructor|vm_compute; reflexivity].
Qed.
Example C58_add_case := C58_add (vok := anyZ) bA 13%Z bA_reach Logic.I.
Example C58_add_run : (counts (sb_addC bA 13%Z), counts (sb_addC bA 2%Z), counts (sb_addC bA 6%Z)) = (Ok (1, 3), Ok (1, 1), Ok (4, 3))%nat.
Proof. vm_compute. reflexivity. Qed.

Theorem C58_remove : forall {E : Env} {HE : EnvOk E} {T : Type} {K : Key T} {vok : T -> Prop} {KO : KeyOk K vok}
    (b : setBuilder T) v,
  SBReach vok b -> vok v ->
  exists l r tr, s_elements (fst (sb_finish b)) = Ok l /\ sb_remove b v = Ok r /\ sb_removeC b v = Ok (r, tr) /\
    hashes tr <= 1 /\ compares tr <= max 2 (sameHash l v).
Proof. exact @c58_remove. Qed.
Print Assumptions C58_remove.
Example C58_remove_case := C58_remove (vok := anyZ) bA 9%Z bA_reach Logic.I.
Example C58_remove_run : (counts (sb_removeC bA 9%Z), counts (sb_removeC bA 13%Z)) = (Ok (1, 3), Ok (1, 3))%nat.
Proof. vm_compute. reflexivity. Qed.

Theorem C58_with_asks : forall {E : Env} {HE : EnvOk E} {T : Type} {K : Key T} {vok : T -> Prop} {KO : KeyOk K vok}
    (s : set T) v,
  SetReach vok s -> vok v ->
  exists b asked rest, s_hasC s v = Ok (b, asked) /\ s_withC s v = rmap (fun r => (r, asked ++ rest)) (s_with s v) /\
    (b = true -> rest = []) /\ hashes rest <= pathHashes /\ compares rest <= pathHashes.
Proof. exact @c58_with_asks. Qed.
Print Assumptions C58_with_asks.
Example C58_with_asks_case := C58_with_asks (vok := anyZ) sAB 105%Z sAB_reach Logic.I.
Example C58_with_asks_run : (rmap snd (s_withC sAB 105%Z), rmap snd (s_withC sAB 10%Z), rmap snd (s_hasC sAB 10%Z)) =
  (Ok [AHash 105; AEq 1 105; AEq 5 105], Ok [AHash 10; AEq 102 10; AEq 6 10], Ok [AHash 10; AEq 102 10; AEq 6 10])%Z.
Proof. vm_compute. reflexivity. Qed.

Theorem C58_without_asks : forall {E : Env} {HE : EnvOk E} {T : Type} {K : Key T} {vok : T -> Prop} {KO : KeyOk K vok}
    (s : set T) v,
  SetReach vok s -> vok v ->
  exists b asked, s_hasC s v = Ok (b, asked) /\ s_withoutC s v = rmap (fun r => (r, asked)) (s_without s v).
Proof. exact @c58_without_asks. Qed.
Print Assumptions C58_without_asks.
Example C58_without_asks_case := C58_without_asks (vok := anyZ) sAB 105%Z sAB_reach Logic.I.
Example C58_without_asks_run : (rmap snd (s_withoutC sAB 105%Z), rmap snd (s_withoutC sAB 10%Z)) =
  (Ok [AHash 105; AEq 1 105; AEq 5 105], Ok [AHash 10; AEq 102 10; AEq 6 10])%Z.
Proof. vm_compute. reflexivity. Qed.

Theorem C58_add_asks : forall {E : Env} {HE : EnvOk E} {T : Type} {K : Key T} {vok : T -> Prop} {KO : KeyOk K vok}
    (b : setBuilder T) v,
  SBReach vok b -> vok v ->
  exists h asked rest, s_hasC (fst (sb_finish b)) v = Ok (h, asked) /\ sb_addC b v = rmap (fun r => (r, asked ++ rest)) (sb_add b v) /\
    (h = true -> rest = []) /\ hashes rest <= pathHashes /\ compares rest <= pathHashes.
Proof. exact @c58_add_asks. Qed.
Print Assumptions C58_add_asks.
Example C58_add_asks_case := C58_add_asks (vok := anyZ) bA 6%Z bA_reach Logic.I.
Example C58_add_asks_run : (rmap snd (s_hasC (fst (sb_finish bA)) 6%Z), rmap snd (sb_addC bA 6%Z), rmap snd (sb_addC bA 105%Z)) =
  (Ok [AHash 6; AEq 2 6; AEq 3 6], Ok [AHash 6; AEq 2 6; AEq 3 6; AHash 2; AHash 3; AHash 6; AEq 2 6], Ok [AHash 105; AEq 1 105; AEq 5 105])%Z.
Proof. vm_compute. reflexivity. Qed.

Theorem C58_remove_asks : forall {E : Env} {HE : EnvOk E} {T : Type} {K : Key T} {vok : T -> Prop} {KO : KeyOk K vok}
    (b : setBuilder T) v,
  SBReach vok b -> vok v ->
  exists h asked, s_hasC (fst (sb_finish b)) v = Ok (h, asked) /\ sb_removeC b v = rmap (fun r => (r, asked)) (sb_remove b v).
Proof. exact @c58_remove_asks. Qed.
Print Assumptions C58_remove_asks.
Example C58_remove_asks_case := C58_remove_asks (vok := anyZ) bA 9%Z bA_reach Logic.I.
Example C58_remove_asks_run : rmap snd (sb_removeC bA 9%Z) = Ok [AHash 9; AEq 1 9; AEq 5 9; AEq 9 9]%Z.
Proof. vm_compute. reflexivity. Qed.

Theorem C58_new : forall {E : Env} {T : Type} {K : Key T} {vok : T -> Prop} {KO : KeyOk K vok}
    (vs : list T) B,
  (forall v, In v vs -> vok v) -> shareAtMost B vs ->
  exists r tr, s_new vs = Ok r /\ s_newC vs = Ok (r, tr) /\
    hashes tr <= (1 + pathHashes) * length vs /\ compares tr <= max (2 + pathHashes) B * length vs.
Proof. exact @c58_new. Qed.
Print Assumptions C58_new.
Lemma lA_share : shareAtMost 3 lA.
Proof. intros v Hv. apply Nat.leb_le. revert v Hv. apply forallb_forall. vm_compute. reflexivity. Qed.
Example C58_new_case := C58_new (vok := anyZ) lA 3 (fun _ _ => Logic.I) lA_share.
Example C58_new_run : counts (s_newC lA) = Ok (70, 70)%nat.
Proof. vm_compute. reflexivity. Qed.

Theorem C58_difference : forall {E : Env} {HE : EnvOk E} {T : Type} {K : Key T} {vok : T -> Prop} {KO : KeyOk K vok}
    (s t : set T) B,
  SetReach vok s -> SetReach vok t -> 2 <= B ->
  forall l1 l2, s_elements s = Ok l1 -> s_elements t = Ok l2 -> shareAtMost B l1 -> shareAtMost B l2 ->
  exists tr, s_differenceC s t = rmap (fun r => (r, tr)) (s_difference s t) /\
    let k := min (length l1) (B * length l2) in hashes tr <= k /\ compares tr <= B * k.
Proof. exact @c58_difference. Qed.
Print Assumptions C58_difference.
Example C58_difference_case := C58_difference (vok := anyZ) sAB sA 4 sAB_reach sA_reach two4 elAB elA elAB_ok sA_elements shareAB shareA.
Example C58_difference_run : (counts (s_differenceC sAB sA), counts (s_differenceC sA sAB), counts (s_differenceC sAB sB)) = (Ok (5, 9), Ok (5, 8), Ok (4, 5))%nat.
Proof. vm_compute. reflexivity. Qed.

Theorem C58_subset : forall {E : Env} {HE : EnvOk E} {T : Type} {K : Key T} {vok : T -> Prop} {KO : KeyOk K vok}
    (s t : set T) B,
  SetReach vok s -> SetReach vok t -> 2 <= B ->
  forall l1 l2, s_elements s = Ok l1 -> s_elements t = Ok l2 -> shareAtMost B l1 -> shareAtMost B l2 ->
  exists tr, s_isSubsetOfC s t = rmap (fun r => (r, tr)) (s_isSubsetOf s t) /\
    let k := min (length l1) (B * length l2) in hashes tr <= k /\ compares tr <= B * k.
Proof. exact @c58_subset. Qed.
Print Assumptions C58_subset.
Example C58_subset_case := C58_subset (vok := anyZ) sA sAB 4 sA_reach sAB_reach two4 elA elAB sA_elements elAB_ok shareA shareAB.
Example C58_subset_run : (counts (s_isSubsetOfC sA sAB), counts (s_isSubsetOfC sAB sA)) = (Ok (5, 8), Ok (0, 0))%nat.
Proof. vm_compute. reflexivity. Qed.

Theorem C58_intersection : forall {E : Env} {HE : EnvOk E} {T : Type} {K : Key T} {vok : T -> Prop} {KO : KeyOk K vok}
    (s t : set T) B,
  SetReach vok s -> SetReach vok t -> 2 <= B ->
  forall l1 l2, s_elements s = Ok l1 -> s_elements t = Ok l2 -> shareAtMost B l1 -> shareAtMost B l2 ->
  exists tr, s_intersectionC s t = rmap (fun r => (r, tr)) (s_intersection s t) /\
    let k := min (length l1) (length l2) in hashes tr <= k /\ compares tr <= B * k.
Proof. exact @c58_intersection. Qed.
Print Assumptions C58_intersection.
Example C58_intersection_case := C58_intersection (vok := anyZ) sAB sB 4 sAB_reach sB_reach two4 elAB elB elAB_ok sB_elements shareAB shareB.
Example C58_intersection_run : (counts (s_intersectionC sAB sB), counts (s_intersectionC sB sAB)) = (Ok (4, 5), Ok (4, 5))%nat.
Proof. vm_compute. reflexivity. Qed.

Theorem C58_equal : forall {E : Env} {HE : EnvOk E} {T : Type} {K : Key T} {vok : T -> Prop} {KO : KeyOk K vok}
    (s t : set T) B,
  SetReach vok s -> SetReach vok t -> 2 <= B ->
  forall l1 l2, s_elements s = Ok l1 -> s_elements t = Ok l2 -> shareAtMost B l1 ->
  exists tr, s_equalC s t = rmap (fun r => (r, tr)) (s_equal s t) /\
    hashes tr = 0 /\ compares tr <= if length l1 =? length l2 then B * length l1 else 0.
Proof. exact @c58_equal. Qed.
Print Assumptions C58_equal.
Definition elA' : list Z := Eval vm_compute in okOr [] (s_elements sA').
Lemma elA'_ok : s_elements sA' = Ok elA'. Proof. vm_compute. reflexivity. Qed.
Example C58_equal_case := C58_equal (vok := anyZ) sA sA' 4 sA_reach sA'_reach two4 elA elA' sA_elements elA'_ok shareA.
Example C58_equal_run : (counts (s_equalC sA sA'), counts (s_equalC sA sAB)) = (Ok (0, 9), Ok (0, 0))%nat.
Proof. vm_compute. reflexivity. Qed.

Theorem C58_union : forall {E : Env} {HE : EnvOk E} {T : Type} {K : Key T} {vok : T -> Prop} {KO : KeyOk K vok}
    (s t : set T) B,
  SetReach vok s -> SetReach vok t -> 2 <= B ->
  forall l1 l2, s_elements s = Ok l1 -> s_elements t = Ok l2 -> shareAtMost B l1 -> shareAtMost B l2 ->
  exists tr, s_unionC s t = rmap (fun r => (r, tr)) (s_union s t) /\
    let k := min (length l1) (length l2) in hashes tr <= (1 + pathHashes) * k /\ compares tr <= max (S B) (2 + pathHashes) * k.
Proof. exact @c58_union. Qed.
Print Assumptions C58_union.
Example C58_union_case := C58_union (vok := anyZ) sA sB 4 sA_reach sB_reach two4 elA elB sA_elements sB_elements shareA shareB.
Example C58_union_run : (counts (s_unionC sA sB), counts (s_unionC sB sA), counts (s_unionC sA sC)) = (Ok (3, 2), Ok (3, 2), Panic)%nat.
Proof. vm_compute. reflexivity. Qed.

Theorem C58_get : forall {E : Env} {HE : EnvOk E} {X : Type} {V : Type} {KX : Key X} {kok : X -> Prop} {valok : V -> Prop} {KO : KeyOk KX kok} {ZV : Zero V}
    (m : gomap X V) k,
  MapReach kok valok m -> kok k ->
  exists l o tr, m_entries m = Ok l /\ m_get m k = Ok o /\ m_getC m k = Ok (o, tr) /\
    hashes tr <= 1 /\ compares tr <= max 2 (sameHash (map fst l) k).
Proof. exact @c58_get. Qed.
Print Assumptions C58_get.
Example C58_get_case := C58_get (kok := anyZ) (valok := anyZ) mA 105%Z mA_reach Logic.I.
Example C58_get_run : (counts (m_getC mA 105%Z), counts (m_getC mA 13%Z)) = (Ok (1, 2), Ok (1, 3))%nat.
Proof. vm_compute. reflexivity. Qed.

Theorem C58_map_with : forall {E : Env} {HE : EnvOk E} {X : Type} {V : Type} {KX : Key X} {kok : X -> Prop} {valok : V -> Prop} {KO : KeyOk KX kok}
    (m : gomap X V) k v,
  MapReach kok valok m -> kok k ->
  exists l r tr, m_entries m = Ok l /\ m_with m k v = Ok r /\ m_withC m k v = Ok (r, tr) /\
    hashes tr <= 1 + pathHashes /\ compares tr <= max (2 + pathHashes) (sameHash (map fst l) k).
Proof. exact @c58_map_with. Qed.
Print Assumptions C58_map_with.
Example C58_map_with_case := C58_map_with (kok := anyZ) (valok := anyZ) mA 13%Z 0%Z mA_reach Logic.I.
Example C58_map_with_run : counts (m_withC mA 13%Z 0%Z) = Ok (1, 3)%nat.
Proof. vm_compute. reflexivity. Qed.

Theorem C58_map_without : forall {E : Env} {HE : EnvOk E} {X : Type} {V : Type} {KX : Key X} {kok : X -> Prop} {valok : V -> Prop} {KO : KeyOk KX kok} {ZV : Zero V}
    (m : gomap X V) k,
  MapReach kok valok m -> kok k ->
  exists l r tr, m_entries m = Ok l /\ m_without m k = Ok r /\ m_withoutC m k = Ok (r, tr) /\
    hashes tr <= 1 /\ compares tr <= max 2 (sameHash (map fst l) k).
Proof. exact @c58_map_without. Qed.
Print Assumptions C58_map_without.
Example C58_map_without_case := C58_map_without (kok := anyZ) (valok := anyZ) mA 5%Z mA_reach Logic.I.
Example C58_map_without_run : counts (m_withoutC mA 5%Z) = Ok (1, 2)%nat.
Proof. vm_compute. reflexivity. Qed.

Theorem C58_update : forall {E : Env} {HE : EnvOk E} {X : Type} {V : Type} {KX : Key X} {kok : X -> Prop} {valok : V -> Prop} {KO : KeyOk KX kok}
    (m n : gomap X V) B,
  MapReach kok valok m -> MapReach kok valok n -> 2 <= B ->
  forall l1 l2, m_entries m = Ok l1 -> m_entries n = Ok l2 -> shareAtMost B (map fst l1) -> shareAtMost B (map fst l2) ->
  exists tr, m_updateC m n = rmap (fun r => (r, tr)) (m_update m n) /\
    let k := min (length l1) (length l2) in hashes tr <= (1 + pathHashes) * k /\ compares tr <= max (S B) (2 + pathHashes) * k.
Proof. exact @c58_update. Qed.
Print Assumptions C58_update.
Definition enA : list (Z * Z) := Eval vm_compute in okOr [] (m_entries mA).
Definition enB : list (Z * Z) := Eval vm_compute in okOr [] (m_entries mB).
Lemma enA_ok : m_entries mA = Ok enA. Proof. vm_compute. reflexivity. Qed.
Lemma enB_ok : m_entries mB = Ok enB. Proof. vm_compute. reflexivity. Qed.
Lemma share_enA : shareAtMost 4 (map fst enA). Proof. apply share4. vm_compute. reflexivity. Qed.
Lemma share_enB : shareAtMost 4 (map fst enB). Proof. apply share4. vm_compute. reflexivity. Qed.
Example C58_update_case := C58_update (kok := anyZ) (valok := anyZ) mA mB 4 mA_reach mB_reach two4 enA enB enA_ok enB_ok share_enA share_enB.
Example C58_update_run : (counts (m_updateC mA mB), counts (m_updateC mB mA)) = (Ok (1, 1), Ok (1, 1))%nat.
Proof. vm_compute. reflexivity. Qed.
