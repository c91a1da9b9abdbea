(** * PropSet: the set API (C01-C16).

    Generated by tools/genprops.py from SpecSet.v and tools/examples/PropSet.txt.
    Every theorem is followed by a case that meets its hypotheses. *)
From Coq Require Import Sorting.Sorted.
From Verif Require Import Base Bits Env EnvFacts Node Iter Tree SetApi GoHeap Ordered MapApi GroupFacts Reach Spec SpecSet ExampleData.

(** The sets of the examples ([ExampleData]): equality is agreement modulo 100, hashes take four values;
    [sA] is {1, 2, 3, 5, 9}, [sB] is {102, 203, 6, 4}, [sA'] equals [sA] but has another history and other
    representatives, [sC] is {13, 17, 21}, [sD] is {13, 101}. *)
Example sets_run : map s_count [sA; sB; sA'; sC; sD] = [5; 4; 5; 3; 2]%Z.
Proof. reflexivity. Qed.

Theorem C01_has : forall {E : Env} {HE : EnvOk E} {T : Type} {K : Key T} {vok : T -> Prop} {KO : KeyOk K vok}
    s v,
  SetReach vok s -> vok v ->
  exists b, s_has s v = Ok b /\ (b = true <-> exists e, Holds s e /\ veq e v = true).
Proof. exact @c01_has. Qed.
Print Assumptions C01_has.
Example C01_has_case := C01_has sA 105%Z sA_reach I.
Example C01_has_run : s_has sA 105%Z = Ok true /\ s_has sA 13%Z = Ok false.
Proof. vm_compute. auto. Qed.

Theorem C01_with : forall {E : Env} {HE : EnvOk E} {T : Type} {K : Key T} {vok : T -> Prop} {KO : KeyOk K vok}
    s v,
  SetReach vok s -> vok v ->
  exists r, s_with s v = Ok r /\
    Answers vok r (fun w => veq v w = true \/ Has s w) /\
    (forall e, Holds r e <-> e = v \/ Holds s e /\ veq v e = false).
Proof. exact @c01_with. Qed.
Print Assumptions C01_with.
Example C01_with_case := C01_with sA 105%Z sA_reach I.
Example C01_with_run : rmap s_count (s_with sA 105%Z) = Ok 5%Z /\ rmap s_count (s_with sA 13%Z) = Ok 6%Z.
Proof. vm_compute. auto. Qed.

Theorem C01_without : forall {E : Env} {HE : EnvOk E} {T : Type} {K : Key T} {vok : T -> Prop} {KO : KeyOk K vok}
    s v,
  SetReach vok s -> vok v ->
  exists r, s_without s v = Ok r /\
    Answers vok r (fun w => veq v w = false /\ Has s w) /\
    (forall e, Holds r e <-> Holds s e /\ veq v e = false).
Proof. exact @c01_without. Qed.
Print Assumptions C01_without.
Example C01_without_case := C01_without sA 105%Z sA_reach I.
Example C01_without_run : rmap s_count (s_without sA 105%Z) = Ok 4%Z /\ rmap s_count (s_without sA 13%Z) = Ok 5%Z.
Proof. vm_compute. auto. Qed.

Theorem C02_union : forall {E : Env} {HE : EnvOk E} {T : Type} {K : Key T} {vok : T -> Prop} {KO : KeyOk K vok}
    s t r,
  SetReach vok s -> SetReach vok t -> s_union s t = Ok r ->
  Answers vok r (fun w => Has s w \/ Has t w) /\
  (forall e, Holds r e <-> Holds t e \/ Holds s e /\ ~ Has t e).
Proof. exact @c02_union. Qed.
Print Assumptions C02_union.
Example C02_union_case := C02_union sA sB sAB sA_reach sB_reach sAB_union.
Example C02_union_run : s_count sAB = 7%Z /\ s_has sAB 9%Z = Ok true /\ s_has sAB 6%Z = Ok true /\ s_has sAB 8%Z = Ok false.
Proof. vm_compute. auto. Qed.

Theorem C02_intersection : forall {E : Env} {HE : EnvOk E} {T : Type} {K : Key T} {vok : T -> Prop} {KO : KeyOk K vok}
    s t,
  SetReach vok s -> SetReach vok t ->
  exists r, s_intersection s t = Ok r /\
    Answers vok r (fun w => Has s w /\ Has t w) /\
    (forall e, Holds r e -> Holds s e \/ Holds t e).
Proof. exact @c02_intersection. Qed.
Print Assumptions C02_intersection.
Example C02_intersection_case := C02_intersection sA sB sA_reach sB_reach.
Example C02_intersection_run : (r <- s_intersection sA sB ;; s_elements r) = Ok [2; 3]%Z.
Proof. vm_compute. auto. Qed.

Theorem C02_difference : forall {E : Env} {HE : EnvOk E} {T : Type} {K : Key T} {vok : T -> Prop} {KO : KeyOk K vok}
    s t,
  SetReach vok s -> SetReach vok t ->
  exists r, s_difference s t = Ok r /\
    Answers vok r (fun w => Has s w /\ ~ Has t w) /\
    (forall e, Holds r e <-> Holds s e /\ ~ Has t e).
Proof. exact @c02_difference. Qed.
Print Assumptions C02_difference.
Example C02_difference_case := C02_difference sA sB sA_reach sB_reach.
Example C02_difference_run : rmap s_count (s_difference sA sB) = Ok 3%Z.
Proof. vm_compute. auto. Qed.

Theorem C02_symmetricDifference : forall {E : Env} {HE : EnvOk E} {T : Type} {K : Key T} {vok : T -> Prop} {KO : KeyOk K vok}
    s t r,
  SetReach vok s -> SetReach vok t -> s_symmetricDifference s t = Ok r ->
  Answers vok r (fun w => Has s w /\ ~ Has t w \/ Has t w /\ ~ Has s w) /\
  (forall e, Holds r e <-> Holds s e /\ ~ Has t e \/ Holds t e /\ ~ Has s e).
Proof. exact @c02_symmetricDifference. Qed.
Print Assumptions C02_symmetricDifference.
Example C02_symmetricDifference_case := C02_symmetricDifference sA sB sXor sA_reach sB_reach sXor_ok.
Example C02_symmetricDifference_run : rmap s_count (s_symmetricDifference sA sB) = Ok 5%Z.
Proof. vm_compute. auto. Qed.

Theorem C03_count : forall {E : Env} {HE : EnvOk E} {T : Type} {K : Key T} {vok : T -> Prop} {KO : KeyOk K vok}
    s,
  SetReach vok s ->
  Answers vok s (Has s) /\
  (s_isEmpty s = true <-> forall v, vok v -> ~ Has s v) /\
  (s_isEmpty s = true <-> s_count s = 0%Z).
Proof. exact @c03_count. Qed.
Print Assumptions C03_count.
Example C03_count_case := C03_count sAB sAB_reach.

Theorem C04_range : forall {E : Env} {HE : EnvOk E} {T : Type} {K : Key T} {vok : T -> Prop} {KO : KeyOk K vok}
    s,
  SetReach vok s ->
  exists l, Yields (s_range s) l /\ s_elements s = Ok l /\ Lists vok l (Has s).
Proof. exact @c04_range. Qed.
Print Assumptions C04_range.
Example C04_range_case := C04_range sAB sAB_reach.

Theorem C05_equal : forall {E : Env} {HE : EnvOk E} {T : Type} {K : Key T} {vok : T -> Prop} {KO : KeyOk K vok}
    s t,
  SetReach vok s -> SetReach vok t ->
  exists b, s_equal s t = Ok b /\ (b = true <-> SameMembers vok s t).
Proof. exact @c05_equal. Qed.
Print Assumptions C05_equal.
Example C05_equal_case := C05_equal sA sA' sA_reach sA'_reach.
Example C05_equal_run : s_equal sA sA' = Ok true /\ s_equal sA sAB = Ok false.
Proof. vm_compute. auto. Qed.

Theorem C05_equivalence : forall {E : Env} {HE : EnvOk E} {T : Type} {K : Key T} {vok : T -> Prop} {KO : KeyOk K vok}
    s t u,
  SetReach vok s -> SetReach vok t -> SetReach vok u ->
  s_equal s s = Ok true /\ s_equal s t = s_equal t s /\
  (s_equal s t = Ok true -> s_equal t u = Ok true -> s_equal s u = Ok true) /\
  s_same s (Some t) = s_equal s t /\ s_same s None = Ok false.
Proof. exact @c05_equivalence. Qed.
Print Assumptions C05_equivalence.
Example C05_equivalence_case := C05_equivalence sA sA' sB sA_reach sA'_reach sB_reach.

Theorem C06_isSubsetOf : forall {E : Env} {HE : EnvOk E} {T : Type} {K : Key T} {vok : T -> Prop} {KO : KeyOk K vok}
    s t,
  SetReach vok s -> SetReach vok t ->
  exists b, s_isSubsetOf s t = Ok b /\ (b = true <-> forall v, vok v -> Has s v -> Has t v).
Proof. exact @c06_isSubsetOf. Qed.
Print Assumptions C06_isSubsetOf.
Example C06_isSubsetOf_case := C06_isSubsetOf sA' sAB sA'_reach sAB_reach.
Example C06_isSubsetOf_run : s_isSubsetOf sA' sAB = Ok true /\ s_isSubsetOf sAB sA' = Ok false.
Proof. vm_compute. auto. Qed.

Theorem C07_hash : forall {E : Env} {HE : EnvOk E} {T : Type} {K : Key T} {vok : T -> Prop} {KO : KeyOk K vok}
    s t seed,
  SetReach vok s -> SetReach vok t -> s_equal s t = Ok true ->
  exists h, s_hash s seed = Ok h /\ s_hash t seed = Ok h /\ (h < 2 ^ 64)%N.
Proof. exact @c07_hash. Qed.
Print Assumptions C07_hash.
Example C07_hash_case := C07_hash sA sA' 7%N sA_reach sA'_reach eq_refl.

Theorem C07_lawful : forall {E : Env} {HE : EnvOk E} {T : Type} {K : Key T} {vok : T -> Prop} {KO : KeyOk K vok},
  KeyOk (@setKey E T K) (SetReach vok).
Proof. exact @c07_lawful. Qed.
Print Assumptions C07_lawful.
Example C07_lawful_case : @vhash (set Z) setKey sA 3 = @vhash (set Z) setKey sA' 3.
Proof. apply (@vhash_compat _ _ _ (C07_lawful (vok := anyZ))); [exact sA_reach|exact sA'_reach|vm_compute; auto]. Qed.

Theorem C08_where : forall {E : Env} {HE : EnvOk E} {T : Type} {K : Key T} {vok : T -> Prop} {KO : KeyOk K vok}
    s pred,
  SetReach vok s ->
  exists r l, s_where s pred = Ok r /\ s_elements s = Ok l /\ s_elements r = Ok (filter pred l) /\
    Answers vok r (fun w => exists e, Holds s e /\ veq e w = true /\ pred e = true) /\
    (forall e, Holds r e <-> Holds s e /\ pred e = true).
Proof. exact @c08_where. Qed.
Print Assumptions C08_where.
Example C08_where_case := C08_where sA Z.odd sA_reach.
Example C08_where_run : rmap s_count (s_where sA Z.odd) = Ok 4%Z.
Proof. vm_compute. auto. Qed.

Theorem C08_comprehension : forall {E : Env} {HE : EnvOk E} {T : Type} {K : Key T} {vok : T -> Prop} {KO : KeyOk K vok}
    s pred,
  SetReach vok s ->
  (forall a b, vok a -> vok b -> veq a b = true -> pred a = pred b) ->
  exists r, s_where s pred = Ok r /\ Answers vok r (fun w => Has s w /\ pred w = true).
Proof. exact @c08_comprehension. Qed.
Print Assumptions C08_comprehension.
Example C08_comprehension_case : exists r, s_where sA (fun z => z mod 100 <? 5)%Z = Ok r /\
  Answers anyZ r (fun w => Has sA w /\ (w mod 100 <? 5)%Z = true).
Proof.
  apply C08_comprehension; [exact sA_reach|]. intros a b _ _ H. cbn in H. apply Z.eqb_eq in H. rewrite H. reflexivity.
Qed.

Theorem C10_reduce : forall {E : Env} {HE : EnvOk E} {T : Type} {K : Key T} {vok : T -> Prop} {KO : KeyOk K vok}
    s (r : list T -> T) l,
  SetReach vok s -> s_elements s = Ok l ->
  (forall ls, ls <> [] -> (forall l', In l' ls -> l' <> []) -> r (map r ls) = r (concat ls)) ->
  s_reduce s r = Ok (match l with [] => None | _ => Some (r l) end).
Proof. exact @c10_reduce. Qed.
Print Assumptions C10_reduce.
(** The sum of the elements modulo 100, which is associative. *)
Definition sumZ100 (l : list Z) : Z := fold_right Z.add 0%Z l mod 100.
Lemma sumZ100_assoc ls : sumZ100 (map sumZ100 ls) = sumZ100 (concat ls).
Proof.
  unfold sumZ100. induction ls as [|l ls IH]; cbn; auto. rewrite Zplus_mod, IH, <- Zplus_mod.
  rewrite Zplus_mod_idemp_l. f_equal. induction l as [|a l IHl]; cbn; auto. lia.
Qed.
Lemma sumZ100_perm l1 l2 : Permutation l1 l2 -> sumZ100 l1 = sumZ100 l2.
Proof. intros H. unfold sumZ100. f_equal. induction H; cbn; lia. Qed.
Example C10_reduce_case := C10_reduce sA sumZ100 elA sA_reach sA_elements (fun ls _ _ => sumZ100_assoc ls).
Example C10_reduce_run : s_reduce sA sumZ100 = Ok (Some 20%Z).
Proof. vm_compute. auto. Qed.

Theorem C10_any_order : forall {E : Env} {HE : EnvOk E} {T : Type} {K : Key T} {vok : T -> Prop} {KO : KeyOk K vok}
    s (r : list T -> T) l,
  SetReach vok s ->
  (exists l0, s_elements s = Ok l0 /\ Permutation l l0) ->
  (forall ls, ls <> [] -> (forall l', In l' ls -> l' <> []) -> r (map r ls) = r (concat ls)) ->
  (forall l1 l2, Permutation l1 l2 -> r l1 = r l2) ->
  s_reduce s r = Ok (match l with [] => None | _ => Some (r l) end).
Proof. exact @c10_any_order. Qed.
Print Assumptions C10_any_order.
Example C10_any_order_case :=
  C10_any_order sA sumZ100 (rev elA) sA_reach
    (ex_intro _ elA (conj sA_elements (Permutation_sym (Permutation_rev elA)))) (fun ls _ _ => sumZ100_assoc ls) sumZ100_perm.

Theorem C10_never_empty : forall {E : Env} {HE : EnvOk E} {T : Type} {K : Key T} {vok : T -> Prop} {KO : KeyOk K vok}
    s (r r' : list T -> T),
  SetReach vok s ->
  (forall l, l <> [] -> r l = r' l) -> s_reduce s r = s_reduce s r'.
Proof. exact @c10_never_empty. Qed.
Print Assumptions C10_never_empty.
Example C10_never_empty_case : s_reduce sA sumZ100 = s_reduce sA (fun l => match l with [] => (-1)%Z | _ => sumZ100 l end).
Proof. apply (C10_never_empty (vok := anyZ)); [exact sA_reach|]. intros [|a l] H; [congruence|reflexivity]. Qed.

Theorem C10_reduce2 : forall {E : Env} {HE : EnvOk E} {T : Type} {K : Key T} {vok : T -> Prop} {KO : KeyOk K vok}
    dflt s (op : T -> T -> T) l,
  SetReach vok s ->
  (exists l0, s_elements s = Ok l0 /\ Permutation l l0) ->
  (forall a b c, op (op a b) c = op a (op b c)) -> (forall a b, op a b = op b a) ->
  s_reduce2 dflt s op = Ok (match l with [] => None | a :: l' => Some (fold_left op l' a) end).
Proof. exact @c10_reduce2. Qed.
Print Assumptions C10_reduce2.
Example C10_reduce2_case : s_reduce2 0%Z sA Z.add = Ok (Some 20%Z).
Proof.
  apply (C10_reduce2 0%Z sA Z.add [1; 2; 3; 5; 9]%Z sA_reach).
  - eexists. split; [vm_compute; reflexivity|].
    apply (NoDup_Permutation (l := [1; 2; 3; 5; 9]%Z)); [| |cbn; intuition lia];
      repeat constructor; cbn; intuition lia.
  - intros. symmetry. apply Z.add_assoc.
  - apply Z.add_comm.
Qed.

Theorem C11_powerset : forall {E : Env} {HE : EnvOk E} {T : Type} {K : Key T} {vok : T -> Prop} {KO : KeyOk K vok}
    s,
  SetReach vok s -> (s_count s <= 63)%Z ->
  exists r : set (set T), s_powerset s = Ok r /\ s_count r = (2 ^ s_count s)%Z /\
    (forall u, SetReach vok u -> exists b, s_has r u = Ok b /\ (b = true <-> forall v, vok v -> Has u v -> Has s v)) /\
    (forall u, Holds r u -> SetReach vok u).
Proof. exact @c11_powerset. Qed.
Print Assumptions C11_powerset.
Example C11_powerset_case := C11_powerset sA sA_reach ltac:(vm_compute; discriminate).
Example C11_powerset_run : (r <- s_powerset sB ;; s_has r sD) = Ok false /\ rmap s_count (s_powerset sD) = Ok 4%Z.
Proof. vm_compute. auto. Qed.

Theorem C11_big : forall {E : Env} {T : Type} {K : Key T}
    s,
  (63 < s_count s)%Z -> s_powerset s = Panic.
Proof. exact @c11_big. Qed.
Print Assumptions C11_big.
(** A set of 64 elements. *)
Example C11_big_case : exists s : set Z, s_new (map Z.of_nat (seq 0 64)) = Ok s /\ s_powerset s = Panic.
Proof.
  eexists. split; [vm_compute; reflexivity|]. apply C11_big. vm_compute. reflexivity.
Qed.

Theorem C13_orderedElements : forall {E : Env} {HE : EnvOk E} {T : Type} {K : Key T} {vok : T -> Prop} {KO : KeyOk K vok}
    s less,
  SetReach vok s -> StrictWeak vok less ->
  exists l l0, s_elements s = Ok l0 /\ s_orderedElements less s = Ok l /\ Permutation l l0 /\
    StronglySorted (fun a b => less b a = false) l.
Proof. exact @c13_orderedElements. Qed.
Print Assumptions C13_orderedElements.
Example C13_orderedElements_case := C13_orderedElements sA' lessZ sA'_reach lessZ_ok.
Example C13_orderedElements_run : s_orderedElements lessZ sA' = Ok [1; 2; 103; 5; 309]%Z.
Proof. vm_compute. auto. Qed.

Theorem C13_orderedFirstN : forall {E : Env} {HE : EnvOk E} {T : Type} {K : Key T} {vok : T -> Prop} {KO : KeyOk K vok}
    s less n,
  SetReach vok s -> StrictWeak vok less -> (0 <= n)%Z ->
  exists l rest l0, s_elements s = Ok l0 /\ s_orderedFirstN n less s = Ok l /\ Permutation (l ++ rest) l0 /\
    StronglySorted (fun a b => less b a = false) l /\
    Z.of_nat (length l) = Z.min n (s_count s) /\
    (forall x y, In x rest -> In y l -> less x y = false) /\
    exists r, s_firstN n less s = Ok r /\ s_count r = Z.of_nat (length l) /\ (forall e, Holds r e <-> In e l).
Proof. exact @c13_orderedFirstN. Qed.
Print Assumptions C13_orderedFirstN.
Example C13_orderedFirstN_case := C13_orderedFirstN sA' lessZ 3%Z sA'_reach lessZ_ok ltac:(lia).
Example C13_orderedFirstN_run : s_orderedFirstN 3 lessZ sA' = Ok [1; 2; 103]%Z.
Proof. vm_compute. auto. Qed.

Theorem C13_first : forall {E : Env} {HE : EnvOk E} {T : Type} {K : Key T} {vok : T -> Prop} {KO : KeyOk K vok}
    s less,
  SetReach vok s -> StrictWeak vok less ->
  (s_count s = 0%Z -> s_first less s = Panic) /\
  (s_count s <> 0%Z -> exists x, s_first less s = Ok x /\ Holds s x /\ forall e, Holds s e -> less e x = false).
Proof. exact @c13_first. Qed.
Print Assumptions C13_first.
Example C13_first_case := C13_first sA' lessZ sA'_reach lessZ_ok.

Theorem C13_negative : forall {E : Env} {T : Type} {K : Key T}
    s less n,
  (n < 0)%Z -> s_orderedFirstN n less s = Panic /\ s_firstN n less s = Panic.
Proof. exact @c13_negative. Qed.
Print Assumptions C13_negative.
Example C13_negative_case := C13_negative sA lessZ (-1)%Z ltac:(lia).

Theorem C14_any : forall {E : Env} {HE : EnvOk E} {T : Type} {K : Key T} {vok : T -> Prop} {KO : KeyOk K vok}
    s,
  SetReach vok s ->
  (s_count s = 0%Z -> s_any s = Panic) /\ (s_count s <> 0%Z -> exists e, s_any s = Ok e /\ Holds s e).
Proof. exact @c14_any. Qed.
Print Assumptions C14_any.
Example C14_any_case := C14_any sA sA_reach.

Theorem C14_anyN : forall {E : Env} {HE : EnvOk E} {T : Type} {K : Key T} {vok : T -> Prop} {KO : KeyOk K vok}
    s n,
  SetReach vok s ->
  exists r, s_anyN s n = Ok r /\ s_count r = Z.max 0 (Z.min n (s_count s)) /\ (forall e, Holds r e -> Holds s e).
Proof. exact @c14_anyN. Qed.
Print Assumptions C14_anyN.
Example C14_anyN_case := C14_anyN sA 2%Z sA_reach.
Example C14_anyN_run : rmap s_count (s_anyN sA 2) = Ok 2%Z /\ rmap s_count (s_anyN sA 8) = Ok 5%Z.
Proof. vm_compute. auto. Qed.

Theorem C15_unionN : forall {E : Env} {HE : EnvOk E} {T : Type} {K : Key T} {vok : T -> Prop} {KO : KeyOk K vok}
    ss r,
  (forall s, In s ss -> SetReach vok s) -> s_unionN ss = Ok r ->
  Answers vok r (fun w => exists s, In s ss /\ Has s w).
Proof. exact @c15_unionN. Qed.
Print Assumptions C15_unionN.
Lemma reachable3 s : In s [sA; sB; sA] -> SetReach anyZ s.
Proof. intros [<-|[<-|[<-|[]]]]; [exact sA_reach|exact sB_reach|exact sA_reach]. Qed.
Lemma reachable2 s : In s [sA; sB] -> SetReach anyZ s.
Proof. intros [<-|[<-|[]]]; [exact sA_reach|exact sB_reach]. Qed.
Example C15_unionN_case : exists r, s_unionN [sA; sB] = Ok r /\ s_count r = 7%Z /\
  Answers anyZ r (fun w => exists s, In s [sA; sB] /\ Has s w).
Proof.
  eexists. split; [vm_compute; reflexivity|]. split; [vm_compute; reflexivity|].
  apply C15_unionN; [exact reachable2|]. vm_compute. reflexivity.
Qed.

Theorem C15_unionN_total : forall {E : Env} {HE : EnvOk E} {T : Type} {K : Key T} {vok : T -> Prop} {KO : KeyOk K vok}
    ss,
  (forall s, In s ss -> SetReach vok s) ->
  s_unionN ss = Panic \/ exists r, s_unionN ss = Ok r.
Proof. exact @c15_unionN_total. Qed.
Print Assumptions C15_unionN_total.
Example C15_unionN_total_case := C15_unionN_total [sA; sB; sA] reachable3.

Theorem C15_unionN_returns : forall {E : Env} {HE : EnvOk E} {T : Type} {K : Key T} {vok : T -> Prop} {KO : KeyOk K vok}
    ss all,
  (forall s, In s ss -> SetReach vok s) ->
  (forall e, In e all <-> exists s, In s ss /\ Holds s e) ->
  (forall h l, NoDup l -> (forall e, In e l -> In e all /\ vhash e 0 = h) -> length l <= 2) ->
  exists r, s_unionN ss = Ok r.
Proof. exact @c15_unionN_returns. Qed.
Print Assumptions C15_unionN_returns.
(** No three elements share a hash. *)
Example C15_unionN_returns_case : exists r, s_unionN [sB; sB] = Ok r.
Proof.
  apply (C15_unionN_returns (vok := anyZ) [sB; sB] [102; 203; 6; 4]%Z).
  - intros s [<-|[<-|[]]]; exact sB_reach.
  - assert (Hl : s_elements sB = Ok [4; 102; 6; 203]%Z) by (vm_compute; reflexivity).
    intros e. split.
    + intros H. exists sB. split; [left; reflexivity|]. exists [4; 102; 6; 203]%Z. split; auto.
      cbn in *. tauto.
    + intros (s & Hs & l & El & He). assert (s = sB) as -> by (destruct Hs as [<-|[<-|[]]]; auto).
      rewrite Hl in El. injection El as <-. cbn in *. tauto.
  - intros h l Hl Hc. destruct l as [|a [|b [|c l]]]; cbn [length]; try lia. exfalso.
    destruct (Hc a) as [Ha1 Ha2]; [cbn; auto|]. destruct (Hc b) as [Hb1 Hb2]; [cbn; auto|].
    destruct (Hc c) as [Hc1 Hc2]; [cbn; auto|].
    inversion Hl as [|? ? N1 Hl1]; subst. inversion Hl1 as [|? ? N2 _]; subst. cbn in N1, N2.
    assert (a <> b /\ a <> c /\ b <> c) as (? & ? & ?) by (repeat split; intros ->; tauto).
    clear N1 N2 Hl Hl1 Hc.
    cbn [In] in Ha1, Hb1, Hc1.
    repeat match goal with H : _ \/ _ |- _ => destruct H as [<-|H] | H : False |- _ => destruct H end;
      try congruence; vm_compute in Hb2, Hc2; congruence.
Qed.

Theorem C15_intersectionN : forall {E : Env} {HE : EnvOk E} {T : Type} {K : Key T} {vok : T -> Prop} {KO : KeyOk K vok}
    s ss,
  SetReach vok s -> (forall t, In t ss -> SetReach vok t) ->
  exists r, s_intersectionN (s :: ss) = Ok r /\
    Answers vok r (fun w => Has s w /\ forall t, In t ss -> Has t w).
Proof. exact @c15_intersectionN. Qed.
Print Assumptions C15_intersectionN.
Example C15_intersectionN_case := C15_intersectionN sA [sAB; sB] sA_reach
  ltac:(intros t [<-|[<-|[]]]; [exact sAB_reach|exact sB_reach]).
Example C15_intersectionN_run : rmap s_count (s_intersectionN [sA; sAB; sB]) = Ok 2%Z.
Proof. vm_compute. auto. Qed.

Theorem C15_intersection0 : forall {E : Env} {T : Type} {K : Key T},
  s_intersectionN (@nil (set T)) = Panic.
Proof. exact @c15_intersection0. Qed.
Print Assumptions C15_intersection0.
Example C15_intersection0_case := C15_intersection0 (T := Z).

Theorem C16_builder : forall {E : Env} {T : Type} {K : Key T} {vok : T -> Prop} {KO : KeyOk K vok}
    cap ops,
  Forall (sbOpOk vok) ops ->
  exists b out, sb_run (newSetBuilder cap) ops = Ok (b, out) /\
    SbAnswers vok b (fst (sb_math (fun _ => False) ops)) /\
    Forall2 (Answers vok) out (snd (sb_math (fun _ => False) ops)).
Proof. exact @c16_builder. Qed.
Print Assumptions C16_builder.
Definition builderOps : list (sbOp Z) :=
  [SbAdd 1; SbAdd 5; SbAdd 9; SbAdd 105; SbRemove 1; SbFinish; SbAdd 2; SbRemove 3; SbAdd 7; SbFinish; SbAdd 8]%Z.
Example C16_builder_case := C16_builder (vok := anyZ) 10%Z builderOps ltac:(repeat constructor).
Example C16_builder_run :
  rmap (fun '(b, out) => (sb_count b, map s_count out)) (sb_run (newSetBuilder 10) builderOps) = Ok (1, [2; 2])%Z.
Proof. vm_compute. auto. Qed.

Theorem C16_finished_reachable : forall {E : Env} {T : Type} {K : Key T} {vok : T -> Prop}
    ops,
  forall b b' out, SBReach vok b -> Forall (sbOpOk vok) ops ->
  sb_run b ops = Ok (b', out) -> Forall (SetReach vok) out /\ SBReach vok b'.
Proof. exact @c16_finished_reachable. Qed.
Print Assumptions C16_finished_reachable.
Example C16_finished_reachable_case : exists b out, sb_run (newSetBuilder 10%Z) builderOps = Ok (b, out) /\
  Forall (SetReach anyZ) out /\ SBReach anyZ b.
Proof.
  eexists. eexists. split; [vm_compute; reflexivity|].
  apply (C16_finished_reachable builderOps (newSetBuilder 10%Z)); [constructor|repeat constructor|vm_compute; reflexivity].
Qed.

Theorem C16_newSet : forall {E : Env} {T : Type} {K : Key T} {vok : T -> Prop} {KO : KeyOk K vok}
    vs,
  (forall v, In v vs -> vok v) ->
  exists s, s_new vs = Ok s /\ Answers vok s (fun w => exists v, In v vs /\ veq v w = true) /\
    (forall e, Holds s e -> In e vs).
Proof. exact @c16_newSet. Qed.
Print Assumptions C16_newSet.
Example C16_newSet_case := C16_newSet (vok := anyZ) [1; 5; 9; 105; 1]%Z (fun _ _ => I).
Example C16_newSet_run : rmap s_count (s_new [1; 5; 9; 105; 1]%Z) = Ok 3%Z.
Proof. vm_compute. auto. Qed.

Theorem C09_map : forall {E : Env} {HE : EnvOk E} {T : Type} {U : Type} {K : Key T} {vok : T -> Prop} {KO : KeyOk K vok} {KU : Key U} {uok : U -> Prop} {KUO : KeyOk KU uok}
    (s : set T) (f : T -> U),
  SetReach vok s -> (forall e, Holds s e -> uok (f e)) ->
  exists r, s_map s f = Ok r /\
    Answers uok r (fun w => exists e, Holds s e /\ veq (f e) w = true) /\
    (forall u, Holds r u -> exists e, Holds s e /\ u = f e).
Proof. exact @c09_map. Qed.
Print Assumptions C09_map.
Example C09_map_case := C09_map (uok := anyZ) sA (fun z => z / 2)%Z sA_reach (fun _ _ => I).
Example C09_map_run : rmap s_count (s_map sA (fun z => z / 2)%Z) = Ok 4%Z.
Proof. vm_compute. auto. Qed.

Theorem C09_asAny : forall {E : Env} {HE : EnvOk E} {T : Type} {U : Type} {K : Key T} {vok : T -> Prop} {KO : KeyOk K vok} {KU : Key U} {uok : U -> Prop} {KUO : KeyOk KU uok}
    (s : set T) (inj : T -> U),
  SetReach vok s -> (forall e, Holds s e -> uok (inj e)) ->
  exists r, s_asAny inj s = Ok r /\
    Answers uok r (fun w => exists e, Holds s e /\ veq (inj e) w = true) /\
    (forall u, Holds r u -> exists e, Holds s e /\ u = inj e).
Proof. exact @c09_asAny. Qed.
Print Assumptions C09_asAny.
Example C09_asAny_case := C09_asAny (uok := anyZ) sA (fun z => z + 100)%Z sA_reach (fun _ _ => I).

Theorem C09_as : forall {E : Env} {HE : EnvOk E} {T : Type} {U : Type} {K : Key T} {vok : T -> Prop} {KO : KeyOk K vok} {KU : Key U} {uok : U -> Prop} {KUO : KeyOk KU uok}
    (s : set T) (conv : T -> option U),
  SetReach vok s ->
  (forall e u, Holds s e -> conv e = Some u -> uok u) ->
  ((exists e, Holds s e /\ conv e = None) /\ s_as conv s = Panic) \/
  ((forall e, Holds s e -> conv e <> None) /\
   exists r, s_as conv s = Ok r /\ Answers uok r (fun w => exists e u, Holds s e /\ conv e = Some u /\ veq u w = true)).
Proof. exact @c09_as. Qed.
Print Assumptions C09_as.
Example C09_as_case := C09_as (uok := anyZ) sA (fun z => if Z.even z then None else Some z) sA_reach (fun _ _ _ _ => I).
Example C09_as_run : s_as (fun z => if Z.even z then None else Some z) sA = Panic /\
  rmap s_count (s_as (fun z => if (z =? 7)%Z then None else Some z) sA) = Ok 5%Z.
Proof. vm_compute. auto. Qed.

Theorem C12_groupBy : forall {E : Env} {HE : EnvOk E} {T : Type} {U : Type} {K : Key T} {vok : T -> Prop} {KO : KeyOk K vok} {KU : Key U} {uok : U -> Prop} {KUO : KeyOk KU uok}
    (s : set T) (key : T -> U),
  SetReach vok s -> (forall e, Holds s e -> uok (key e)) ->
  exists m, s_groupBy s key = Ok m /\
    forall k, uok k ->
      (exists g, m_get m k = Ok (Some g) /\
         (exists e, Holds s e /\ veq (key e) k = true) /\
         (forall e, Holds g e <-> Holds s e /\ veq (key e) k = true) /\
         Answers vok g (fun w => exists e, Holds s e /\ veq (key e) k = true /\ veq e w = true)) \/
      (m_get m k = Ok None /\ forall e, Holds s e -> veq (key e) k = false).
Proof. exact @c12_groupBy. Qed.
Print Assumptions C12_groupBy.
Example C12_groupBy_case := C12_groupBy (uok := anyZ) sA (fun z => z mod 2)%Z sA_reach (fun _ _ => I).
Example C12_groupBy_run : (m <- s_groupBy sA (fun z => z mod 2)%Z ;; rmap (option_map s_count) (m_get m 101%Z)) = Ok (Some 4%Z).
Proof. vm_compute. auto. Qed.
