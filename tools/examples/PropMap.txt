@@ Preamble
(** The maps of the examples: [mA] is {1: 10, 102: 22, 5: 50, 9: 90} (keys agree modulo 100, so NewMap
    replaced 2: 20 by 102: 22), [mB] is {2: 200, 6: 60, 7: 70}; [mA'] equals [mA] but has another history. *)
Definition FA : Z -> option Z := lastFor (pairsOf kvsA).
Definition FB : Z -> option Z := lastFor (pairsOf kvsB).
Lemma mA_answers : MapAnswers anyZ mA FA.
Proof. destruct (c28_newMap (kok := anyZ) kvsA) as (m & E1 & H); [intros; exact I|]. rewrite mA_new in E1. injection E1 as <-. exact H. Qed.
Lemma mB_answers : MapAnswers anyZ mB FB.
Proof. destruct (c28_newMap (kok := anyZ) kvsB) as (m & E1 & H); [intros; exact I|]. rewrite mB_new in E1. injection E1 as <-. exact H. Qed.
@@ C21_answers
Example C21_answers_case := C21_answers mA mA_reach.
@@ C21_with
Example C21_with_case := C21_with mA FA 109%Z 7%Z mA_reach mA_answers I.
Example C21_with_run : (m <- m_with mA 109 7 ;; m_get m 9)%Z = Ok (Some 7%Z) /\ rmap m_count (m_with mA 109 7)%Z = Ok 4%Z.
Proof. vm_compute. auto. Qed.
@@ C21_without
Example C21_without_case := C21_without mA FA 109%Z mA_reach mA_answers I.
Example C21_without_run : rmap m_count (m_without mA 109%Z) = Ok 3%Z.
Proof. vm_compute. auto. Qed.
@@ C21_variants
Example C21_variants_case1 := C21_variants mA FA 105%Z mA_reach mA_answers I.
Example C21_variants_case2 := C21_variants mA FA 106%Z mA_reach mA_answers I.
Example C21_variants_run : m_mustGet mA 105%Z = Ok 50%Z /\ m_mustGet mA 106%Z = Panic.
Proof. vm_compute. auto. Qed.
@@ C21_any
Example C21_any_case := C21_any mA mA_reach.
@@ C22_merge
Example C22_merge_case := C22_merge mA mB (fun _ a b => a - b)%Z mMerge mA_reach mB_reach mMerge_ok.
Example C22_merge_run : m_get mMerge 2%Z = Ok (Some (-178)%Z) /\ m_count mMerge = 6%Z.
Proof. vm_compute. auto. Qed.
@@ C22_merge_answers
Example C22_merge_answers_case := C22_merge_answers mA mB FA FB (fun _ a b => a - b)%Z mMerge mA_reach mB_reach mMerge_ok
  mA_answers mB_answers (fun _ _ _ _ _ _ _ => eq_refl).
@@ C23_update
Example C23_update_case := C23_update mA mB FA FB mUpd mA_reach mB_reach mUpd_ok mA_answers mB_answers.
Example C23_update_run : m_get mUpd 2%Z = Ok (Some 200%Z) /\ m_get mUpd 5%Z = Ok (Some 50%Z).
Proof. vm_compute. auto. Qed.
@@ C24_range
Example C24_range_case := C24_range mMerge (mr_merge _ _ _ _ _ _ _ _ _ _ mA_reach mB_reach (fun _ _ _ _ _ _ => I) mMerge_ok).
@@ C24_keys
Example C24_keys_case := C24_keys mA mA_reach.
@@ C24_values
Example C24_values_case := C24_values mA mA_reach.
@@ C24_fromGoMap
Example C24_fromGoMap_case := C24_fromGoMap (kok := anyZ) [(1, 10); (5, 50); (9, 90)]%Z (fun _ _ => I).
@@ C24_goMap_roundtrip
Example C24_goMap_roundtrip_case := C24_goMap_roundtrip Z.eqb mA FA mA_reach mA_answers Z.eqb_eq.
@@ C25_where
Example C25_where_case := C25_where mA (fun k v => k <? v)%Z mA_reach.
Example C25_where_run : rmap m_count (m_where mA (fun k v => k <? v)%Z) = Ok 3%Z.
Proof. vm_compute. auto. Qed.
@@ C25_project
Example C25_project_case := C25_project mA FA [101; 9; 8]%Z mA_reach mA_answers (fun _ _ => I).
Example C25_project_run : rmap m_count (m_project mA [101; 9; 8]%Z) = Ok 2%Z.
Proof. vm_compute. auto. Qed.
@@ C25_fromKeys
Example C25_fromKeys_case := C25_fromKeys sA (fun k => 2 * k)%Z sA_reach.
@@ C25_get_entry
Example C25_get_entry_case := C25_get_entry mA 105%Z 50%Z mA_reach I.
@@ C25_map
Example C25_map_case := C25_map mA (fun k v => k + v)%Z mA_reach.
Example C25_map_run : (m <- m_map mA (fun k v => k + v)%Z ;; m_get m 102%Z) = Ok (Some 124%Z).
Proof. vm_compute. auto. Qed.
@@ C26_equal
Example C26_equal_case := C26_equal mA mB FA FB mA_reach mB_reach mA_answers mB_answers.
Example C26_equal_run : m_equal mA mA' = Ok true /\ m_equal mA mB = Ok false.
Proof. vm_compute. auto. Qed.
@@ C26_same
Example C26_same_case := C26_same mA mA'.
@@ C27_hash
Lemma mA_mA' : m_equal mA mA' = Ok true. Proof. vm_compute. reflexivity. Qed.
Example C27_hash_case := C27_hash mA mA' 5%N mA_reach mA'_reach mA_mA'.
@@ C27_lawful
Example C27_lawful_case : @vhash _ mapKey mA 3 = @vhash _ mapKey mA' 3.
Proof. apply (@vhash_compat _ _ _ (C27_lawful (kok := anyZ) (valok := anyZ))); [exact mA_reach|exact mA'_reach|vm_compute; auto]. Qed.
@@ C28_builder
Definition mapOps : list (mbOp Z Z) :=
  [MbPut 1 10; MbPut 5 50; MbPut 9 90; MbPut 105 55; MbRemove 1; MbFinish; MbPut 2 20; MbRemove 3; MbFinish; MbPut 8 80]%Z.
Example C28_builder_case := C28_builder (kok := anyZ) 10%Z mapOps ltac:(repeat constructor).
Example C28_builder_run :
  rmap (fun '(b, out) => (mb_count b, map m_count out)) (mb_run (newMapBuilder 10) mapOps) = Ok (1, [2; 1])%Z.
Proof. vm_compute. auto. Qed.
@@ C28_newMap
Example C28_newMap_case := C28_newMap (kok := anyZ) kvsA (fun _ _ => I).
@@ C43_lawful
Example C43_lawful_case : @vhash _ kvKey (mkKV 1 2)%Z 3 = @vhash _ kvKey (mkKV 101 302)%Z 3.
Proof. apply (@vhash_compat _ _ _ (C43_lawful (kok := anyZ) (valok := anyZ))); [repeat split|repeat split|vm_compute; auto]. Qed.
@@ C43_same
Example C43_same_case := C43_same (mkKV 1 2)%Z (mkKV 101 302)%Z.
