(** * SpecConc: results do not depend on goroutine scheduling (C20). *)
From Verif Require Import Base Bits Env EnvFacts Node NodeWf NodeAdd NodeRemove NodeBin NodeBin2 NodeUn Iter Tree TreeFacts
  SetApi SetFacts MapApi MapFacts Reach Concurrency ConcOps ConcApi.
Local Open Scope Z_scope.

Section SpecConc.
Local Opaque maxTreeDepth fanout fb.
Context {E : Env} {HE : EnvOk E} {T : Type} {K : Key T} {vok : T -> Prop} {KO : KeyOk K vok}.

Lemma newGauge_config mc md sc n : EnvOk (withConfig mc md sc) -> gaugeOk (newGauge (E := withConfig mc md sc) n).
Proof. intros H p l. apply H. Qed.

(** The trie operations use the configuration only through the gauge. *)
Lemma t_combine_config mc md sc args t u : t_combine (E := withConfig mc md sc) (T := T) args t u = t_combine args t u.
Proof. reflexivity. Qed.
Lemma t_intersection_config mc md sc g t u : t_intersection (E := withConfig mc md sc) (T := T) g t u = t_intersection g t u.
Proof. reflexivity. Qed.
Lemma t_difference_config mc md sc g t u : t_difference (E := withConfig mc md sc) (T := T) g t u = t_difference g t u.
Proof. reflexivity. Qed.
Lemma t_equal_config mc md sc g eq t u : t_equal (E := withConfig mc md sc) (T := T) g eq t u = t_equal g eq t u.
Proof. reflexivity. Qed.
Lemma t_subsetOf_config mc md sc g t u : t_subsetOf (E := withConfig mc md sc) (T := T) g t u = t_subsetOf g t u.
Proof. reflexivity. Qed.
Lemma t_where_config mc md sc g p t : t_where (E := withConfig mc md sc) (T := T) g p t = t_where g p t.
Proof. reflexivity. Qed.
Lemma t_reduce_config mc md sc g r t : t_reduce (E := withConfig mc md sc) (T := T) g r t = t_reduce g r t.
Proof. reflexivity. Qed.

Lemma union_fuel g s t : sok vok s -> sok vok t -> gaugeOk g ->
  t_combine (mkCombineArgs g veq useRHS) (s_tree s) (s_tree t) <> Fuel.
Proof.
  intros Hs Ht Hg. destruct (t_combine_ok (vok := vok) (mkCombineArgs g veq useRHS) (s_tree s) (s_tree t)) as [[_ ->]|(_ & r & -> & _)]; auto; try discriminate.
  apply cfok_rhs.
Qed.

Lemma union_config mc md sc s t : sok vok s -> sok vok t -> EnvOk (withConfig mc md sc) ->
  s_union (E := withConfig mc md sc) s t = s_union s t.
Proof.
  intros Hs Ht H. unfold s_union. rewrite t_combine_config. unfold combineArgs, s_gauge.
  rewrite (t_combine_any (vok := vok) (newGauge (E := withConfig mc md sc) (s_count s)) (newGauge (s_count s))); auto using union_fuel, newGauge_config.
Qed.

Lemma union_always limit s t : sok vok s -> sok vok t -> Always (s_unionC limit s t) (s_union s t).
Proof.
  intros Hs Ht. apply always_map. apply (t_combine_always (vok := vok)); auto. apply union_fuel; auto.
Qed.

Lemma c20_union s t : SetReach vok s -> SetReach vok t ->
  (forall limit, Always (s_unionC limit s t) (s_union s t)) /\
  (forall mc md sc, EnvOk (withConfig mc md sc) -> s_union (E := withConfig mc md sc) s t = s_union s t).
Proof.
  intros Hs Ht. apply sreach_ok in Hs. apply sreach_ok in Ht. split.
  - intros limit. apply union_always; auto.
  - intros mc md sc H. apply union_config; auto.
Qed.

Lemma c20_intersection s t : SetReach vok s -> SetReach vok t ->
  (forall limit, Always (s_intersectionC limit s t) (s_intersection s t)) /\
  (forall mc md sc, EnvOk (withConfig mc md sc) -> s_intersection (E := withConfig mc md sc) s t = s_intersection s t).
Proof.
  intros Hs Ht. apply sreach_ok in Hs. apply sreach_ok in Ht. split.
  - intros limit. apply always_map. apply (t_intersection_always (vok := vok)); auto.
  - intros mc md sc H. unfold s_intersection. rewrite t_intersection_config. unfold s_gauge.
    rewrite (t_intersection_any (vok := vok) (newGauge (E := withConfig mc md sc) (s_count s)) (newGauge (s_count s))); auto using newGauge_config.
Qed.

Lemma c20_difference s t : SetReach vok s -> SetReach vok t ->
  (forall limit, Always (s_differenceC limit s t) (s_difference s t)) /\
  (forall mc md sc, EnvOk (withConfig mc md sc) -> s_difference (E := withConfig mc md sc) s t = s_difference s t).
Proof.
  intros Hs Ht. apply sreach_ok in Hs. apply sreach_ok in Ht. split.
  - intros limit. apply always_map. apply (t_difference_always (vok := vok)); auto.
  - intros mc md sc H. unfold s_difference. rewrite t_difference_config.
    rewrite (t_difference_any (vok := vok) (NonParallel (E := withConfig mc md sc)) NonParallel); auto.
Qed.

Lemma c20_symmetricDifference s t : SetReach vok s -> SetReach vok t ->
  (forall limit, Always (s_symmetricDifferenceC limit s t) (s_symmetricDifference s t)) /\
  (forall mc md sc, EnvOk (withConfig mc md sc) -> s_symmetricDifference (E := withConfig mc md sc) s t = s_symmetricDifference s t).
Proof.
  intros Hs Ht. apply sreach_ok in Hs. apply sreach_ok in Ht.
  destruct (s_difference_ok (vok := vok) s t) as (a & E1 & Ha & _); auto.
  destruct (s_difference_ok (vok := vok) t s) as (b & E2 & Hb & _); auto. split.
  - intros limit. unfold s_symmetricDifferenceC, s_symmetricDifference. rewrite E1, E2. cbn [bind]. apply union_always; auto.
  - intros mc md sc H. unfold s_symmetricDifference.
    assert (Hd : forall s t, sok vok s -> sok vok t -> s_difference (E := withConfig mc md sc) s t = s_difference s t).
    { intros x y Hx Hy. unfold s_difference. rewrite t_difference_config.
      rewrite (t_difference_any (vok := vok) (NonParallel (E := withConfig mc md sc)) NonParallel); auto. }
    rewrite !Hd, E1, E2 by auto. cbn [bind]. apply union_config; auto.
Qed.

Lemma c20_where s pred : SetReach vok s ->
  (forall limit, Always (s_whereC limit s pred) (s_where s pred)) /\
  (forall mc md sc, EnvOk (withConfig mc md sc) -> s_where (E := withConfig mc md sc) s pred = s_where s pred).
Proof.
  intros Hs. apply sreach_ok in Hs. split.
  - intros limit. apply always_map. apply (t_where_always (vok := vok)); auto.
  - intros mc md sc H. unfold s_where. rewrite t_where_config. unfold s_gauge.
    rewrite (t_where_any (vok := vok) (newGauge (E := withConfig mc md sc) (s_count s)) (newGauge (s_count s))); auto using newGauge_config.
Qed.

Lemma c20_equal s t : SetReach vok s -> SetReach vok t ->
  (forall limit, Always (s_equalC limit s t) (s_equal s t)) /\
  (forall mc md sc, EnvOk (withConfig mc md sc) -> s_equal (E := withConfig mc md sc) s t = s_equal s t).
Proof.
  intros Hs Ht. apply sreach_ok in Hs. apply sreach_ok in Ht. split.
  - intros limit. apply (t_equal_always (vok := vok)); auto.
  - intros mc md sc H. unfold s_equal. rewrite t_equal_config. unfold s_gauge.
    rewrite (t_equal_any (vok := vok) (newGauge (E := withConfig mc md sc) (s_count s)) (newGauge (s_count s))); auto using newGauge_config.
Qed.

Lemma c20_isSubsetOf s t : SetReach vok s -> SetReach vok t ->
  (forall limit, Always (s_isSubsetOfC limit s t) (s_isSubsetOf s t)) /\
  (forall mc md sc, EnvOk (withConfig mc md sc) -> s_isSubsetOf (E := withConfig mc md sc) s t = s_isSubsetOf s t).
Proof.
  intros Hs Ht. apply sreach_ok in Hs. apply sreach_ok in Ht. split.
  - intros limit. apply (t_subsetOf_always (vok := vok)); auto.
  - intros mc md sc H. unfold s_isSubsetOf. rewrite t_subsetOf_config. unfold s_gauge.
    rewrite (t_subsetOf_any (vok := vok) (newGauge (E := withConfig mc md sc) (s_count s)) (newGauge (s_count s))); auto using newGauge_config.
Qed.

Lemma c20_reduce s f : SetReach vok s ->
  (forall limit, Always (s_reduceC limit s f) (s_reduce s f)) /\
  (forall mc md sc, EnvOk (withConfig mc md sc) -> s_reduce (E := withConfig mc md sc) s f = s_reduce s f).
Proof.
  intros Hs. apply sreach_ok in Hs. split.
  - intros limit. apply (t_reduce_always (vok := vok)); auto.
  - intros mc md sc H. unfold s_reduce. rewrite t_reduce_config. unfold s_gauge.
    rewrite (t_reduce_any (vok := vok) (newGauge (E := withConfig mc md sc) (s_count s)) (newGauge (s_count s))); auto using newGauge_config.
Qed.

Lemma c20_reduce2 dflt s op : SetReach vok s ->
  (forall limit, Always (s_reduce2C limit dflt s op) (s_reduce2 dflt s op)) /\
  (forall mc md sc, EnvOk (withConfig mc md sc) -> s_reduce2 (E := withConfig mc md sc) dflt s op = s_reduce2 dflt s op).
Proof.
  intros Hs. apply sreach_ok in Hs. split.
  - intros limit. apply (t_reduce_always (vok := vok)); auto.
  - intros mc md sc H. unfold s_reduce2, s_reduce. rewrite t_reduce_config. unfold s_gauge.
    rewrite (t_reduce_any (vok := vok) (newGauge (E := withConfig mc md sc) (s_count s)) (newGauge (s_count s))); auto using newGauge_config.
Qed.

End SpecConc.

Section SpecConcMap.
Local Opaque maxTreeDepth fanout fb.
Context {E : Env} {HE : EnvOk E} {X V : Type} {KX : Key X} {kok : X -> Prop} {KO : KeyOk KX kok} {valok : V -> Prop} {ZV : Zero V}.

Lemma entries_fuel g (f : entry X V -> entry X V -> entry X V) m n :
  (forall a b, e_key (f a b) = e_key a \/ e_key (f a b) = e_key b) -> mok kok m -> mok kok n -> gaugeOk g ->
  t_combine (mkCombineArgs g veq f) (m_tree m) (m_tree n) <> Fuel.
Proof.
  intros Hf Hm Hn Hg.
  destruct (t_combine_ok (vok := eok (kok := kok)) (mkCombineArgs g veq f) (m_tree m) (m_tree n)) as [[_ ->]|(_ & r & -> & _)]; auto; try discriminate.
  intros a b Ha Hb Hq. cbn [c_f]. unfold eok in *. destruct (Hf a b) as [E1|E1]; cbn in Hq |- *; rewrite E1.
  - split; auto; apply (veq_refl (vok := kok)); auto.
  - split; auto; try (apply (veq_refl (vok := kok))); try (apply (veq_sym (vok := kok))); auto.
Qed.

Lemma entries_config mc md sc n1 n2 (f : entry X V -> entry X V -> entry X V) m n :
  (forall a b, e_key (f a b) = e_key a \/ e_key (f a b) = e_key b) -> mok kok m -> mok kok n -> EnvOk (withConfig mc md sc) ->
  t_combine (E := withConfig mc md sc) (mkCombineArgs (newGauge (E := withConfig mc md sc) n1) veq f) (m_tree m) (m_tree n) =
  t_combine (mkCombineArgs (newGauge n2) veq f) (m_tree m) (m_tree n).
Proof.
  intros Hf Hm Hn H. rewrite t_combine_config.
  apply (t_combine_any (vok := eok (kok := kok))); auto using newGauge_config, entries_fuel.
Qed.

Lemma entries_always limit k (f : entry X V -> entry X V -> entry X V) m n :
  (forall a b, e_key (f a b) = e_key a \/ e_key (f a b) = e_key b) -> mok kok m -> mok kok n ->
  Always (t_combineC limit veq f (m_tree m) (m_tree n)) (t_combine (mkCombineArgs (newGauge k) veq f) (m_tree m) (m_tree n)).
Proof.
  intros Hf Hm Hn. apply (t_combine_always (vok := eok (kok := kok))); auto. apply entries_fuel; auto.
Qed.

Lemma c20_merge m n resolve : MapReach kok valok m -> MapReach kok valok n ->
  (forall limit, Always (m_mergeC limit m n resolve) (m_merge m n resolve)) /\
  (forall mc md sc, EnvOk (withConfig mc md sc) -> m_merge (E := withConfig mc md sc) m n resolve = m_merge m n resolve).
Proof.
  intros Hm Hn. apply mreach_ok in Hm. apply mreach_ok in Hn. split.
  - intros limit. apply always_map. apply entries_always; auto.
  - intros mc md sc H. unfold m_merge. f_equal. apply entries_config; auto.
Qed.

Lemma c20_update m n : MapReach kok valok m -> MapReach kok valok n ->
  (forall limit, Always (m_updateC limit m n) (m_update m n)) /\
  (forall mc md sc, EnvOk (withConfig mc md sc) -> m_update (E := withConfig mc md sc) m n = m_update m n).
Proof.
  intros Hm Hn. apply mreach_ok in Hm. apply mreach_ok in Hn. unfold m_updateC, m_update.
  destruct (m_count n <? m_count m); split.
  - intros limit. apply always_map. apply entries_always; auto.
  - intros mc md sc H. f_equal. apply entries_config; auto.
  - intros limit. apply always_map. apply entries_always; auto.
  - intros mc md sc H. f_equal. apply entries_config; auto.
Qed.

Lemma c20_mapEqual {KV : Key V} m n : MapReach kok valok m -> MapReach kok valok n ->
  (forall limit, Always (m_equalC limit m n) (m_equal m n)) /\
  (forall mc md sc, EnvOk (withConfig mc md sc) -> m_equal (E := withConfig mc md sc) m n = m_equal m n).
Proof.
  intros Hm Hn. apply mreach_ok in Hm. apply mreach_ok in Hn. split.
  - intros limit. apply (t_equal_always (vok := eok (kok := kok))); auto.
  - intros mc md sc H. unfold m_equal. rewrite t_equal_config.
    apply (t_equal_any (vok := eok (kok := kok))); auto using newGauge_config.
Qed.

End SpecConcMap.
