@@ Preamble
(** The sets of the examples ([ExampleData]): equality is agreement modulo 100, hashes take four values;
    [sA] is {1, 2, 3, 5, 9}, [sB] is {102, 203, 6, 4}, [sA'] equals [sA] but has another history and other
    representatives, [sC] is {13, 17, 21}, [sD] is {13, 101}. *)
Example sets_run : map s_count [sA; sB; sA'; sC; sD] = [5; 4; 5; 3; 2]%Z.
Proof. reflexivity. Qed.
@@ C01_has
Example C01_has_case := C01_has sA 105%Z sA_reach I.
Example C01_has_run : s_has sA 105%Z = Ok true /\ s_has sA 13%Z = Ok false.
Proof. vm_compute. auto. Qed.
@@ C01_with
Example C01_with_case := C01_with sA 105%Z sA_reach I.
Example C01_with_run : rmap s_count (s_with sA 105%Z) = Ok 5%Z /\ rmap s_count (s_with sA 13%Z) = Ok 6%Z.
Proof. vm_compute. auto. Qed.
@@ C01_without
Example C01_without_case := C01_without sA 105%Z sA_reach I.
Example C01_without_run : rmap s_count (s_without sA 105%Z) = Ok 4%Z /\ rmap s_count (s_without sA 13%Z) = Ok 5%Z.
Proof. vm_compute. auto. Qed.
@@ C02_union
Example C02_union_case := C02_union sA sB sAB sA_reach sB_reach sAB_union.
Example C02_union_run : s_count sAB = 7%Z /\ s_has sAB 9%Z = Ok true /\ s_has sAB 6%Z = Ok true /\ s_has sAB 8%Z = Ok false.
Proof. vm_compute. auto. Qed.
@@ C02_intersection
Example C02_intersection_case := C02_intersection sA sB sA_reach sB_reach.
Example C02_intersection_run : (r <- s_intersection sA sB ;; s_elements r) = Ok [2; 3]%Z.
Proof. vm_compute. auto. Qed.
@@ C02_difference
Example C02_difference_case := C02_difference sA sB sA_reach sB_reach.
Example C02_difference_run : rmap s_count (s_difference sA sB) = Ok 3%Z.
Proof. vm_compute. auto. Qed.
@@ C02_symmetricDifference
Example C02_symmetricDifference_case := C02_symmetricDifference sA sB sXor sA_reach sB_reach sXor_ok.
Example C02_symmetricDifference_run : rmap s_count (s_symmetricDifference sA sB) = Ok 5%Z.
Proof. vm_compute. auto. Qed.
@@ C03_count
Example C03_count_case := C03_count sAB sAB_reach.
@@ C04_range
Example C04_range_case := C04_range sAB sAB_reach.
@@ C05_equal
Example C05_equal_case := C05_equal sA sA' sA_reach sA'_reach.
Example C05_equal_run : s_equal sA sA' = Ok true /\ s_equal sA sAB = Ok false.
Proof. vm_compute. auto. Qed.
@@ C05_equivalence
Example C05_equivalence_case := C05_equivalence sA sA' sB sA_reach sA'_reach sB_reach.
@@ C06_isSubsetOf
Example C06_isSubsetOf_case := C06_isSubsetOf sA' sAB sA'_reach sAB_reach.
Example C06_isSubsetOf_run : s_isSubsetOf sA' sAB = Ok true /\ s_isSubsetOf sAB sA' = Ok false.
Proof. vm_compute. auto. Qed.
@@ C07_hash
Example C07_hash_case := C07_hash sA sA' 7%N sA_reach sA'_reach eq_refl.
@@ C07_lawful
Example C07_lawful_case : @vhash (set Z) setKey sA 3 = @vhash (set Z) setKey sA' 3.
Proof. apply (@vhash_compat _ _ _ (C07_lawful (vok := anyZ))); [exact sA_reach|exact sA'_reach|vm_compute; auto]. Qed.
@@ C08_where
Example C08_where_case := C08_where sA Z.odd sA_reach.
Example C08_where_run : rmap s_count (s_where sA Z.odd) = Ok 4%Z.
Proof. vm_compute. auto. Qed.
@@ C08_comprehension
Example C08_comprehension_case : exists r, s_where sA (fun z => z mod 100 <? 5)%Z = Ok r /\
  Answers anyZ r (fun w => Has sA w /\ (w mod 100 <? 5)%Z = true).
Proof.
  apply C08_comprehension; [exact sA_reach|]. intros a b _ _ H. cbn in H. apply Z.eqb_eq in H. rewrite H. reflexivity.
Qed.
@@ C10_reduce
(** The sum of the elements modulo 100, which is associative. *)
Definition sumZ100 (l : list Z) : Z := fold_right Z.add 0%Z l mod 100.
Lemma sumZ100_assoc ls : sumZ100 (map sumZ100 ls) = sumZ100 (concat ls).
Proof.
  unfold sumZ100. induction ls as [|l ls IH]; cbn; auto. rewrite Zplus_mod, IH, <- Zplus_mod.
  rewrite Zplus_mod_idemp_l. f_equal. induction l as [|a l IHl]; cbn; auto. lia.
Qed.
Lemma sumZ100_perm l1 l2 : Permutation l1 l2 -> sumZ100 l1 = sumZ100 l2.
Proof. intros H. unfold sumZ100. f_equal. induction H; cbn; lia. Qed.
Example C10_reduce_case := C10_reduce sA sumZ100 elA sA_reach sA_elements (fun ls _ _ => sumZ100_assoc ls).
Example C10_reduce_run : s_reduce sA sumZ100 = Ok (Some 20%Z).
Proof. vm_compute. auto. Qed.
@@ C10_any_order
Example C10_any_order_case :=
  C10_any_order sA sumZ100 (rev elA) sA_reach
    (ex_intro _ elA (conj sA_elements (Permutation_sym (Permutation_rev elA)))) (fun ls _ _ => sumZ100_assoc ls) sumZ100_perm.
@@ C10_never_empty
Example C10_never_empty_case : s_reduce sA sumZ100 = s_reduce sA (fun l => match l with [] => (-1)%Z | _ => sumZ100 l end).
Proof. apply (C10_never_empty (vok := anyZ)); [exact sA_reach|]. intros [|a l] H; [congruence|reflexivity]. Qed.
@@ C10_reduce2
Example C10_reduce2_case : s_reduce2 0%Z sA Z.add = Ok (Some 20%Z).
Proof.
  apply (C10_reduce2 0%Z sA Z.add [1; 2; 3; 5; 9]%Z sA_reach).
  - eexists. split; [vm_compute; reflexivity|].
    apply (NoDup_Permutation (l := [1; 2; 3; 5; 9]%Z)); [| |cbn; intuition lia];
      repeat constructor; cbn; intuition lia.
  - intros. symmetry. apply Z.add_assoc.
  - apply Z.add_comm.
Qed.
@@ C11_powerset
Example C11_powerset_case := C11_powerset sA sA_reach ltac:(vm_compute; discriminate).
Example C11_powerset_run : (r <- s_powerset sB ;; s_has r sD) = Ok false /\ rmap s_count (s_powerset sD) = Ok 4%Z.
Proof. vm_compute. auto. Qed.
@@ C11_big
(** A set of 64 elements. *)
Example C11_big_case : exists s : set Z, s_new (map Z.of_nat (seq 0 64)) = Ok s /\ s_powerset s = Panic.
Proof.
  eexists. split; [vm_compute; reflexivity|]. apply C11_big. vm_compute. reflexivity.
Qed.
@@ C13_orderedElements
Example C13_orderedElements_case := C13_orderedElements sA' lessZ sA'_reach lessZ_ok.
Example C13_orderedElements_run : s_orderedElements lessZ sA' = Ok [1; 2; 103; 5; 309]%Z.
Proof. vm_compute. auto. Qed.
@@ C13_orderedFirstN
Example C13_orderedFirstN_case := C13_orderedFirstN sA' lessZ 3%Z sA'_reach lessZ_ok ltac:(lia).
Example C13_orderedFirstN_run : s_orderedFirstN 3 lessZ sA' = Ok [1; 2; 103]%Z.
Proof. vm_compute. auto. Qed.
@@ C13_first
Example C13_first_case := C13_first sA' lessZ sA'_reach lessZ_ok.
@@ C13_negative
Example C13_negative_case := C13_negative sA lessZ (-1)%Z ltac:(lia).
@@ C14_any
Example C14_any_case := C14_any sA sA_reach.
@@ C14_anyN
Example C14_anyN_case := C14_anyN sA 2%Z sA_reach.
Example C14_anyN_run : rmap s_count (s_anyN sA 2) = Ok 2%Z /\ rmap s_count (s_anyN sA 8) = Ok 5%Z.
Proof. vm_compute. auto. Qed.
@@ C15_unionN
Lemma reachable3 s : In s [sA; sB; sA] -> SetReach anyZ s.
Proof. intros [<-|[<-|[<-|[]]]]; [exact sA_reach|exact sB_reach|exact sA_reach]. Qed.
Lemma reachable2 s : In s [sA; sB] -> SetReach anyZ s.
Proof. intros [<-|[<-|[]]]; [exact sA_reach|exact sB_reach]. Qed.
Example C15_unionN_case : exists r, s_unionN [sA; sB] = Ok r /\ s_count r = 7%Z /\
  Answers anyZ r (fun w => exists s, In s [sA; sB] /\ Has s w).
Proof.
  eexists. split; [vm_compute; reflexivity|]. split; [vm_compute; reflexivity|].
  apply C15_unionN; [exact reachable2|]. vm_compute. reflexivity.
Qed.
@@ C15_unionN_total
Example C15_unionN_total_case := C15_unionN_total [sA; sB; sA] reachable3.
@@ C15_unionN_returns
(** No three elements share a hash. *)
Example C15_unionN_returns_case : exists r, s_unionN [sB; sB] = Ok r.
Proof.
  apply (C15_unionN_returns (vok := anyZ) [sB; sB] [102; 203; 6; 4]%Z).
  - intros s [<-|[<-|[]]]; exact sB_reach.
  - assert (Hl : s_elements sB = Ok [4; 102; 6; 203]%Z) by (vm_compute; reflexivity).
    intros e. split.
    + intros H. exists sB. split; [left; reflexivity|]. exists [4; 102; 6; 203]%Z. split; auto.
      cbn in *. tauto.
    + intros (s & Hs & l & El & He). assert (s = sB) as -> by (destruct Hs as [<-|[<-|[]]]; auto).
      rewrite Hl in El. injection El as <-. cbn in *. tauto.
  - intros h l Hl Hc. destruct l as [|a [|b [|c l]]]; cbn [length]; try lia. exfalso.
    destruct (Hc a) as [Ha1 Ha2]; [cbn; auto|]. destruct (Hc b) as [Hb1 Hb2]; [cbn; auto|].
    destruct (Hc c) as [Hc1 Hc2]; [cbn; auto|].
    inversion Hl as [|? ? N1 Hl1]; subst. inversion Hl1 as [|? ? N2 _]; subst. cbn in N1, N2.
    assert (a <> b /\ a <> c /\ b <> c) as (? & ? & ?) by (repeat split; intros ->; tauto).
    clear N1 N2 Hl Hl1 Hc.
    cbn [In] in Ha1, Hb1, Hc1.
    repeat match goal with H : _ \/ _ |- _ => destruct H as [<-|H] | H : False |- _ => destruct H end;
      try congruence; vm_compute in Hb2, Hc2; congruence.
Qed.
@@ C15_intersectionN
Example C15_intersectionN_case := C15_intersectionN sA [sAB; sB] sA_reach
  ltac:(intros t [<-|[<-|[]]]; [exact sAB_reach|exact sB_reach]).
Example C15_intersectionN_run : rmap s_count (s_intersectionN [sA; sAB; sB]) = Ok 2%Z.
Proof. vm_compute. auto. Qed.
@@ C15_intersection0
Example C15_intersection0_case := C15_intersection0 (T := Z).
@@ C16_builder
Definition builderOps : list (sbOp Z) :=
  [SbAdd 1; SbAdd 5; SbAdd 9; SbAdd 105; SbRemove 1; SbFinish; SbAdd 2; SbRemove 3; SbAdd 7; SbFinish; SbAdd 8]%Z.
Example C16_builder_case := C16_builder (vok := anyZ) 10%Z builderOps ltac:(repeat constructor).
Example C16_builder_run :
  rmap (fun '(b, out) => (sb_count b, map s_count out)) (sb_run (newSetBuilder 10) builderOps) = Ok (1, [2; 2])%Z.
Proof. vm_compute. auto. Qed.
@@ C16_finished_reachable
Example C16_finished_reachable_case : exists b out, sb_run (newSetBuilder 10%Z) builderOps = Ok (b, out) /\
  Forall (SetReach anyZ) out /\ SBReach anyZ b.
Proof.
  eexists. eexists. split; [vm_compute; reflexivity|].
  apply (C16_finished_reachable builderOps (newSetBuilder 10%Z)); [constructor|repeat constructor|vm_compute; reflexivity].
Qed.
@@ C16_newSet
Example C16_newSet_case := C16_newSet (vok := anyZ) [1; 5; 9; 105; 1]%Z (fun _ _ => I).
Example C16_newSet_run : rmap s_count (s_new [1; 5; 9; 105; 1]%Z) = Ok 3%Z.
Proof. vm_compute. auto. Qed.
@@ C09_map
Example C09_map_case := C09_map (uok := anyZ) sA (fun z => z / 2)%Z sA_reach (fun _ _ => I).
Example C09_map_run : rmap s_count (s_map sA (fun z => z / 2)%Z) = Ok 4%Z.
Proof. vm_compute. auto. Qed.
@@ C09_asAny
Example C09_asAny_case := C09_asAny (uok := anyZ) sA (fun z => z + 100)%Z sA_reach (fun _ _ => I).
@@ C09_as
Example C09_as_case := C09_as (uok := anyZ) sA (fun z => if Z.even z then None else Some z) sA_reach (fun _ _ _ _ => I).
Example C09_as_run : s_as (fun z => if Z.even z then None else Some z) sA = Panic /\
  rmap s_count (s_as (fun z => if (z =? 7)%Z then None else Some z) sA) = Ok 5%Z.
Proof. vm_compute. auto. Qed.
@@ C12_groupBy
Example C12_groupBy_case := C12_groupBy (uok := anyZ) sA (fun z => z mod 2)%Z sA_reach (fun _ _ => I).
Example C12_groupBy_run : (m <- s_groupBy sA (fun z => z mod 2)%Z ;; rmap (option_map s_count) (m_get m 101%Z)) = Ok (Some 4%Z).
Proof. vm_compute. auto. Qed.
