(** * PropMap: the map API (C21-C28, C43).

    Generated by tools/genprops.py from SpecMap.v and tools/examples/PropMap.txt.
    Every theorem is followed by a case that meets its hypotheses. *)
From Verif Require Import Base Bits Env EnvFacts Node Iter Tree SetApi GoHeap Ordered MapApi GroupFacts Reach Spec SpecSet SpecMap ExampleData.

(** The maps of the examples: [mA] is {1: 10, 102: 22, 5: 50, 9: 90} (keys agree modulo 100, so NewMap
    replaced 2: 20 by 102: 22), [mB] is {2: 200, 6: 60, 7: 70}; [mA'] equals [mA] but has another history. *)
Definition FA : Z -> option Z := lastFor (pairsOf kvsA).
Definition FB : Z -> option Z := lastFor (pairsOf kvsB).
Lemma mA_answers : MapAnswers anyZ mA FA.
Proof. destruct (c28_newMap (kok := anyZ) kvsA) as (m & E1 & H); [intros; exact I|]. rewrite mA_new in E1. injection E1 as <-. exact H. Qed.
Lemma mB_answers : MapAnswers anyZ mB FB.
Proof. destruct (c28_newMap (kok := anyZ) kvsB) as (m & E1 & H); [intros; exact I|]. rewrite mB_new in E1. injection E1 as <-. exact H. Qed.

Theorem C21_answers : forall {E : Env} {HE : EnvOk E} {X : Type} {V : Type} {KX : Key X} {kok : X -> Prop} {KO : KeyOk KX kok} {ZV : Zero V} {valok : V -> Prop}
    m,
  MapReach kok valok m ->
  exists F, MapAnswers kok m F /\ (forall k v, kok k -> F k = Some v <-> exists k', Entry m k' v /\ veq k' k = true).
Proof. exact @c21_answers. Qed.
Print Assumptions C21_answers.
Example C21_answers_case := C21_answers mA mA_reach.

Theorem C21_with : forall {E : Env} {HE : EnvOk E} {X : Type} {V : Type} {KX : Key X} {kok : X -> Prop} {KO : KeyOk KX kok} {ZV : Zero V} {valok : V -> Prop}
    m F k v,
  MapReach kok valok m -> MapAnswers kok m F -> kok k ->
  exists r, m_with m k v = Ok r /\ MapAnswers kok r (fun j => if veq k j then Some v else F j) /\
    (forall k' v', Entry r k' v' <-> k' = k /\ v' = v \/ veq k k' = false /\ Entry m k' v').
Proof. exact @c21_with. Qed.
Print Assumptions C21_with.
Example C21_with_case := C21_with mA FA 109%Z 7%Z mA_reach mA_answers I.
Example C21_with_run : (m <- m_with mA 109 7 ;; m_get m 9)%Z = Ok (Some 7%Z) /\ rmap m_count (m_with mA 109 7)%Z = Ok 4%Z.
Proof. vm_compute. auto. Qed.

Theorem C21_without : forall {E : Env} {HE : EnvOk E} {X : Type} {V : Type} {KX : Key X} {kok : X -> Prop} {KO : KeyOk KX kok} {ZV : Zero V} {valok : V -> Prop}
    m F k,
  MapReach kok valok m -> MapAnswers kok m F -> kok k ->
  exists r, m_without m k = Ok r /\ MapAnswers kok r (fun j => if veq k j then None else F j) /\
    (forall k' v', Entry r k' v' <-> veq k k' = false /\ Entry m k' v').
Proof. exact @c21_without. Qed.
Print Assumptions C21_without.
Example C21_without_case := C21_without mA FA 109%Z mA_reach mA_answers I.
Example C21_without_run : rmap m_count (m_without mA 109%Z) = Ok 3%Z.
Proof. vm_compute. auto. Qed.

Theorem C21_variants : forall {E : Env} {X : Type} {V : Type} {KX : Key X} {kok : X -> Prop} {ZV : Zero V} {valok : V -> Prop}
    m F k,
  MapReach kok valok m -> MapAnswers kok m F -> kok k ->
  match F k with
  | Some v => m_get m k = Ok (Some v) /\ m_has m k = Ok true /\ m_mustGet m k = Ok v /\
      (forall d, m_getElse m k d = Ok v) /\ (forall d, m_getElseFunc m k d = Ok v)
  | None => m_get m k = Ok None /\ m_has m k = Ok false /\ m_mustGet m k = Panic /\
      (forall d, m_getElse m k d = Ok d) /\ (forall d, m_getElseFunc m k d = d tt)
  end.
Proof. exact @c21_variants. Qed.
Print Assumptions C21_variants.
Example C21_variants_case1 := C21_variants mA FA 105%Z mA_reach mA_answers I.
Example C21_variants_case2 := C21_variants mA FA 106%Z mA_reach mA_answers I.
Example C21_variants_run : m_mustGet mA 105%Z = Ok 50%Z /\ m_mustGet mA 106%Z = Panic.
Proof. vm_compute. auto. Qed.

Theorem C21_any : forall {E : Env} {HE : EnvOk E} {X : Type} {V : Type} {KX : Key X} {kok : X -> Prop} {KO : KeyOk KX kok} {valok : V -> Prop}
    m,
  MapReach kok valok m ->
  (m_count m = 0%Z -> m_any m = Panic) /\ (m_count m <> 0%Z -> exists k v, m_any m = Ok (k, v) /\ Entry m k v).
Proof. exact @c21_any. Qed.
Print Assumptions C21_any.
Example C21_any_case := C21_any mA mA_reach.

Theorem C22_merge : forall {E : Env} {HE : EnvOk E} {X : Type} {V : Type} {KX : Key X} {kok : X -> Prop} {KO : KeyOk KX kok} {ZV : Zero V} {valok : V -> Prop}
    m n resolve r,
  MapReach kok valok m -> MapReach kok valok n -> m_merge m n resolve = Ok r ->
  (forall k a b, kok k -> Maps m k a -> Maps n k b ->
     exists k', Entry m k' a /\ veq k' k = true /\ Maps r k (resolve k' a b)) /\
  (forall k a, kok k -> Maps m k a -> Misses n k -> Maps r k a) /\
  (forall k b, kok k -> Misses m k -> Maps n k b -> Maps r k b) /\
  (forall k, kok k -> Misses m k -> Misses n k -> Misses r k) /\
  exists l, m_entries r = Ok l /\ UnequalKeys l /\ m_count r = Z.of_nat (length l).
Proof. exact @c22_merge. Qed.
Print Assumptions C22_merge.
Example C22_merge_case := C22_merge mA mB (fun _ a b => a - b)%Z mMerge mA_reach mB_reach mMerge_ok.
Example C22_merge_run : m_get mMerge 2%Z = Ok (Some (-178)%Z) /\ m_count mMerge = 6%Z.
Proof. vm_compute. auto. Qed.

Theorem C22_merge_answers : forall {E : Env} {HE : EnvOk E} {X : Type} {V : Type} {KX : Key X} {kok : X -> Prop} {KO : KeyOk KX kok} {ZV : Zero V} {valok : V -> Prop}
    m n F G resolve r,
  MapReach kok valok m -> MapReach kok valok n -> m_merge m n resolve = Ok r ->
  MapAnswers kok m F -> MapAnswers kok n G ->
  (forall k k' a b, kok k -> kok k' -> veq k k' = true -> resolve k a b = resolve k' a b) ->
  MapAnswers kok r (fun k => match F k, G k with
                             | Some a, Some b => Some (resolve k a b)
                             | Some a, None => Some a
                             | None, o => o
                             end).
Proof. exact @c22_merge_answers. Qed.
Print Assumptions C22_merge_answers.
Example C22_merge_answers_case := C22_merge_answers mA mB FA FB (fun _ a b => a - b)%Z mMerge mA_reach mB_reach mMerge_ok
  mA_answers mB_answers (fun _ _ _ _ _ _ _ => eq_refl).

Theorem C23_update : forall {E : Env} {HE : EnvOk E} {X : Type} {V : Type} {KX : Key X} {kok : X -> Prop} {KO : KeyOk KX kok} {ZV : Zero V} {valok : V -> Prop}
    m n F G r,
  MapReach kok valok m -> MapReach kok valok n -> m_update m n = Ok r ->
  MapAnswers kok m F -> MapAnswers kok n G ->
  MapAnswers kok r (fun k => match G k with Some b => Some b | None => F k end).
Proof. exact @c23_update. Qed.
Print Assumptions C23_update.
Example C23_update_case := C23_update mA mB FA FB mUpd mA_reach mB_reach mUpd_ok mA_answers mB_answers.
Example C23_update_run : m_get mUpd 2%Z = Ok (Some 200%Z) /\ m_get mUpd 5%Z = Ok (Some 50%Z).
Proof. vm_compute. auto. Qed.

Theorem C24_range : forall {E : Env} {HE : EnvOk E} {X : Type} {V : Type} {KX : Key X} {kok : X -> Prop} {KO : KeyOk KX kok} {ZV : Zero V} {valok : V -> Prop}
    m,
  MapReach kok valok m ->
  exists l, MapYields (m_range m) l /\ m_entries m = Ok l /\ UnequalKeys l /\
    m_count m = Z.of_nat (length l) /\
    (m_isEmpty m = true <-> l = []) /\
    (forall k v, In (k, v) l -> Maps m k v) /\
    (forall k v, kok k -> Maps m k v -> exists k', In (k', v) l /\ veq k' k = true).
Proof. exact @c24_range. Qed.
Print Assumptions C24_range.
Example C24_range_case := C24_range mMerge (mr_merge _ _ _ _ _ _ _ _ _ _ mA_reach mB_reach (fun _ _ _ _ _ _ => I) mMerge_ok).

Theorem C24_keys : forall {E : Env} {HE : EnvOk E} {X : Type} {V : Type} {KX : Key X} {kok : X -> Prop} {KO : KeyOk KX kok} {ZV : Zero V} {valok : V -> Prop}
    m,
  MapReach kok valok m ->
  exists r : set X, m_keys m = Ok r /\ Answers kok r (fun k => exists v, Maps m k v) /\
    (forall k, Holds r k <-> exists v, Entry m k v).
Proof. exact @c24_keys. Qed.
Print Assumptions C24_keys.
Example C24_keys_case := C24_keys mA mA_reach.

Theorem C24_values : forall {E : Env} {HE : EnvOk E} {X : Type} {V : Type} {KX : Key X} {kok : X -> Prop} {KO : KeyOk KX kok} {valok : V -> Prop}
    {KV : Key V} {KVO : KeyOk KV valok} m,
  MapReach kok valok m ->
  exists r : set V, m_values m = Ok r /\ Answers valok r (fun w => exists k v, Entry m k v /\ veq v w = true).
Proof. exact @c24_values. Qed.
Print Assumptions C24_values.
Example C24_values_case := C24_values mA mA_reach.

Theorem C24_fromGoMap : forall {E : Env} {X : Type} {V : Type} {KX : Key X} {kok : X -> Prop} {KO : KeyOk KX kok} {ZV : Zero V}
    (g : list (X * V)),
  (forall kv, In kv g -> kok (fst kv)) ->
  exists m, m_fromGoMap g = Ok m /\ MapAnswers kok m (lastFor g).
Proof. exact @c24_fromGoMap. Qed.
Print Assumptions C24_fromGoMap.
Example C24_fromGoMap_case := C24_fromGoMap (kok := anyZ) [(1, 10); (5, 50); (9, 90)]%Z (fun _ _ => I).

Theorem C24_goMap_roundtrip : forall {E : Env} {HE : EnvOk E} {X : Type} {V : Type} {KX : Key X} {kok : X -> Prop} {KO : KeyOk KX kok} {ZV : Zero V} {valok : V -> Prop}
    (geq : X -> X -> bool) m F,
  MapReach kok valok m -> MapAnswers kok m F ->
  (forall a b, geq a b = true <-> a = b) ->
  exists g, m_toGoMap geq m = Ok g /\ NoDup (map fst g) /\ ListsMap kok g F /\
    forall g', Permutation g' g -> exists r, m_fromGoMap g' = Ok r /\ MapAnswers kok r F.
Proof. exact @c24_goMap_roundtrip. Qed.
Print Assumptions C24_goMap_roundtrip.
Example C24_goMap_roundtrip_case := C24_goMap_roundtrip Z.eqb mA FA mA_reach mA_answers Z.eqb_eq.

Theorem C25_where : forall {E : Env} {HE : EnvOk E} {X : Type} {V : Type} {KX : Key X} {kok : X -> Prop} {KO : KeyOk KX kok} {ZV : Zero V} {valok : V -> Prop}
    m pred,
  MapReach kok valok m ->
  exists r, m_where m pred = Ok r /\ (forall k v, Entry r k v <-> Entry m k v /\ pred k v = true).
Proof. exact @c25_where. Qed.
Print Assumptions C25_where.
Example C25_where_case := C25_where mA (fun k v => k <? v)%Z mA_reach.
Example C25_where_run : rmap m_count (m_where mA (fun k v => k <? v)%Z) = Ok 3%Z.
Proof. vm_compute. auto. Qed.

Theorem C25_project : forall {E : Env} {HE : EnvOk E} {X : Type} {V : Type} {KX : Key X} {kok : X -> Prop} {KO : KeyOk KX kok} {ZV : Zero V} {valok : V -> Prop}
    m F ks,
  MapReach kok valok m -> MapAnswers kok m F -> (forall k, In k ks -> kok k) ->
  exists r, m_project m ks = Ok r /\
    MapAnswers kok r (fun j => if existsb (fun k => veq k j) ks then F j else None).
Proof. exact @c25_project. Qed.
Print Assumptions C25_project.
Example C25_project_case := C25_project mA FA [101; 9; 8]%Z mA_reach mA_answers (fun _ _ => I).
Example C25_project_run : rmap m_count (m_project mA [101; 9; 8]%Z) = Ok 2%Z.
Proof. vm_compute. auto. Qed.

Theorem C25_fromKeys : forall {E : Env} {HE : EnvOk E} {X : Type} {V : Type} {KX : Key X} {kok : X -> Prop} {KO : KeyOk KX kok} {ZV : Zero V}
    (s : set X) (f : X -> V),
  SetReach kok s ->
  exists r, m_fromKeys s f = Ok r /\ (forall k v, Entry r k v <-> Holds s k /\ v = f k).
Proof. exact @c25_fromKeys. Qed.
Print Assumptions C25_fromKeys.
Example C25_fromKeys_case := C25_fromKeys sA (fun k => 2 * k)%Z sA_reach.

Theorem C25_get_entry : forall {E : Env} {HE : EnvOk E} {X : Type} {V : Type} {KX : Key X} {kok : X -> Prop} {KO : KeyOk KX kok} {ZV : Zero V} {valok : V -> Prop}
    m k v,
  MapReach kok valok m -> kok k ->
  Maps m k v <-> exists k', Entry m k' v /\ veq k' k = true.
Proof. exact @c25_get_entry. Qed.
Print Assumptions C25_get_entry.
Example C25_get_entry_case := C25_get_entry mA 105%Z 50%Z mA_reach I.

Theorem C26_equal : forall {E : Env} {HE : EnvOk E} {X : Type} {V : Type} {KX : Key X} {kok : X -> Prop} {KO : KeyOk KX kok} {ZV : Zero V} {valok : V -> Prop}
    {KV : Key V} m n F G,
  MapReach kok valok m -> MapReach kok valok n ->
  MapAnswers kok m F -> MapAnswers kok n G ->
  exists b, m_equal m n = Ok b /\
    (b = true <-> forall k, kok k -> match F k, G k with
                                     | Some a, Some b => veq a b = true
                                     | None, None => True
                                     | _, _ => False
                                     end).
Proof. exact @c26_equal. Qed.
Print Assumptions C26_equal.
Example C26_equal_case := C26_equal mA mB FA FB mA_reach mB_reach mA_answers mB_answers.
Example C26_equal_run : m_equal mA mA' = Ok true /\ m_equal mA mB = Ok false.
Proof. vm_compute. auto. Qed.

Theorem C27_hash : forall {E : Env} {HE : EnvOk E} {X : Type} {V : Type} {KX : Key X} {kok : X -> Prop} {KO : KeyOk KX kok} {ZV : Zero V} {valok : V -> Prop}
    {KV : Key V} {KVO : KeyOk KV valok} m n seed,
  MapReach kok valok m -> MapReach kok valok n ->
  m_equal m n = Ok true -> exists h, m_hash m seed = Ok h /\ m_hash n seed = Ok h /\ (h < 2 ^ 64)%N.
Proof. exact @c27_hash. Qed.
Print Assumptions C27_hash.
Lemma mA_mA' : m_equal mA mA' = Ok true. Proof. vm_compute. reflexivity. Qed.
Example C27_hash_case := C27_hash mA mA' 5%N mA_reach mA'_reach mA_mA'.

Theorem C27_lawful : forall {E : Env} {HE : EnvOk E} {X : Type} {V : Type} {KX : Key X} {kok : X -> Prop} {KO : KeyOk KX kok} {ZV : Zero V} {valok : V -> Prop}
    {KV : Key V} {KVO : KeyOk KV valok},
  KeyOk (@mapKey E X V KX KV) (MapReach kok valok).
Proof. exact @c27_lawful. Qed.
Print Assumptions C27_lawful.
Example C27_lawful_case : @vhash _ mapKey mA 3 = @vhash _ mapKey mA' 3.
Proof. apply (@vhash_compat _ _ _ (C27_lawful (kok := anyZ) (valok := anyZ))); [exact mA_reach|exact mA'_reach|vm_compute; auto]. Qed.

Theorem C26_same : forall {E : Env} {X : Type} {V : Type} {KX : Key X}
    {KV : Key V} (m n : gomap X V),
  m_same m (Some n) = m_equal m n /\ m_same m None = Ok false.
Proof. exact @c26_same. Qed.
Print Assumptions C26_same.
Example C26_same_case := C26_same mA mA'.

Theorem C28_builder : forall {E : Env} {X : Type} {V : Type} {KX : Key X} {kok : X -> Prop} {KO : KeyOk KX kok} {ZV : Zero V}
    cap ops,
  Forall (mbOpOk kok) ops ->
  exists b out, mb_run (newMapBuilder cap) ops = Ok (b, out) /\
    MbAnswers kok b (fst (mb_math (fun _ => None) ops)) /\
    Forall2 (MapAnswers kok) out (snd (mb_math (fun _ => None) ops)).
Proof. exact @c28_builder. Qed.
Print Assumptions C28_builder.
Definition mapOps : list (mbOp Z Z) :=
  [MbPut 1 10; MbPut 5 50; MbPut 9 90; MbPut 105 55; MbRemove 1; MbFinish; MbPut 2 20; MbRemove 3; MbFinish; MbPut 8 80]%Z.
Example C28_builder_case := C28_builder (kok := anyZ) 10%Z mapOps ltac:(repeat constructor).
Example C28_builder_run :
  rmap (fun '(b, out) => (mb_count b, map m_count out)) (mb_run (newMapBuilder 10) mapOps) = Ok (1, [2; 1])%Z.
Proof. vm_compute. auto. Qed.

Theorem C28_newMap : forall {E : Env} {X : Type} {V : Type} {KX : Key X} {kok : X -> Prop} {KO : KeyOk KX kok} {ZV : Zero V}
    (kvs : list (keyValue X V)),
  (forall kv, In kv kvs -> kok (kv_key kv)) ->
  exists m, m_new kvs = Ok m /\ MapAnswers kok m (lastFor (map (fun kv => (kv_key kv, kv_val kv)) kvs)).
Proof. exact @c28_newMap. Qed.
Print Assumptions C28_newMap.
Example C28_newMap_case := C28_newMap (kok := anyZ) kvsA (fun _ _ => I).

Theorem C43_lawful : forall {X : Type} {V : Type} {KX : Key X} {kok : X -> Prop} {KO : KeyOk KX kok} {valok : V -> Prop}
    {KV : Key V} {KVO : KeyOk KV valok},
  KeyOk (@kvKey X V KX KV) (fun kv => kok (kv_key kv) /\ valok (kv_val kv)).
Proof. exact @c43_lawful. Qed.
Print Assumptions C43_lawful.
Example C43_lawful_case : @vhash _ kvKey (mkKV 1 2)%Z 3 = @vhash _ kvKey (mkKV 101 302)%Z 3.
Proof. apply (@vhash_compat _ _ _ (C43_lawful (kok := anyZ) (valok := anyZ))); [repeat split|repeat split|vm_compute; auto]. Qed.

Theorem C43_same : forall {X : Type} {V : Type} {KX : Key X}
    {KV : Key V} (a b : keyValue X V),
  kv_same a (Some b) = veq a b /\ kv_same a None = false.
Proof. exact @c43_same. Qed.
Print Assumptions C43_same.
Example C43_same_case := C43_same (mkKV 1 2)%Z (mkKV 101 302)%Z.

Theorem C25_map : forall {E : Env} {HE : EnvOk E} {X : Type} {V : Type} {U : Type} {KX : Key X} {kok : X -> Prop} {KO : KeyOk KX kok} {ZV : Zero V} {ZU : Zero U} {valok : V -> Prop}
    (m : gomap X V) (f : X -> V -> U),
  MapReach kok valok m ->
  exists r, m_map m f = Ok r /\ (forall k u, Entry r k u <-> exists v, Entry m k v /\ u = f k v).
Proof. exact @c25_map. Qed.
Print Assumptions C25_map.
Example C25_map_case := C25_map mA (fun k v => k + v)%Z mA_reach.
Example C25_map_run : (m <- m_map mA (fun k v => k + v)%Z ;; m_get m 102%Z) = Ok (Some 124%Z).
Proof. vm_compute. auto. Qed.
