(** * Reach: the sets, maps and builders a program can obtain from the API.

    One rule per exported function that returns a set, a map or a builder.
    [SetReach vok s]: [s] can be obtained by calls whose element arguments all satisfy [vok]
    (callbacks return values satisfying the target's predicate). Rules that move from one element
    type to another require the source type to be lawful ([KeyOk]). *)
From Verif Require Import Base Bits Env EnvFacts Node NodeWf NodeAdd NodeRemove NodeBin NodeBin2 NodeUn Iter Tree TreeFacts
  SetApi SetFacts GoHeap Ordered PowersetFacts MapApi MapFacts GroupFacts.

Inductive SetReach {E : Env} : forall {T : Type} {K : Key T}, (T -> Prop) -> set T -> Prop :=
| sr_empty T (K : Key T) (vok : T -> Prop) : SetReach vok (@s_empty T)
| sr_new T (K : Key T) (vok : T -> Prop) vs s : (forall v, In v vs -> vok v) -> s_new vs = Ok s -> SetReach vok s
| sr_finish T (K : Key T) (vok : T -> Prop) b : SBReach vok b -> SetReach vok (fst (@sb_finish T b))
| sr_with T (K : Key T) (vok : T -> Prop) s v r : SetReach vok s -> vok v -> s_with s v = Ok r -> SetReach vok r
| sr_without T (K : Key T) (vok : T -> Prop) s v r : SetReach vok s -> vok v -> s_without s v = Ok r -> SetReach vok r
| sr_union T (K : Key T) (vok : T -> Prop) s t r : SetReach vok s -> SetReach vok t -> s_union s t = Ok r -> SetReach vok r
| sr_intersection T (K : Key T) (vok : T -> Prop) s t r :
    SetReach vok s -> SetReach vok t -> s_intersection s t = Ok r -> SetReach vok r
| sr_difference T (K : Key T) (vok : T -> Prop) s t r :
    SetReach vok s -> SetReach vok t -> s_difference s t = Ok r -> SetReach vok r
| sr_symmetricDifference T (K : Key T) (vok : T -> Prop) s t r :
    SetReach vok s -> SetReach vok t -> s_symmetricDifference s t = Ok r -> SetReach vok r
| sr_where T (K : Key T) (vok : T -> Prop) s pred r : SetReach vok s -> s_where s pred = Ok r -> SetReach vok r
| sr_anyN T (K : Key T) (vok : T -> Prop) s n r : SetReach vok s -> s_anyN s n = Ok r -> SetReach vok r
| sr_firstN T (K : Key T) (vok : T -> Prop) s n less r :
    SetReach vok s -> StrictWeak vok less -> s_firstN n less s = Ok r -> SetReach vok r
| sr_map T (K : Key T) (vok : T -> Prop) U (KU : Key U) (uok : U -> Prop) s (f : T -> U) r :
    KeyOk K vok -> SetReach vok s -> (forall v, vok v -> uok (f v)) -> s_map s f = Ok r -> SetReach uok r
| sr_as T (K : Key T) (vok : T -> Prop) U (KU : Key U) (uok : U -> Prop) s (conv : T -> option U) r :
    KeyOk K vok -> SetReach vok s -> (forall v u, vok v -> conv v = Some u -> uok u) -> s_as conv s = Ok r -> SetReach uok r
| sr_asAny T (K : Key T) (vok : T -> Prop) U (KU : Key U) (uok : U -> Prop) s (inj : T -> U) r :
    KeyOk K vok -> SetReach vok s -> (forall v, vok v -> uok (inj v)) -> s_asAny inj s = Ok r -> SetReach uok r
| sr_powerset T (K : Key T) (vok : T -> Prop) s r :
    KeyOk K vok -> SetReach vok s -> s_powerset s = Ok r -> SetReach (sok vok) r
| sr_keys X V (KX : Key X) (ZV : Zero V) (kok : X -> Prop) (valok : V -> Prop) m r :
    MapReach kok valok m -> m_keys m = Ok r -> SetReach kok r
| sr_values X V (KX : Key X) (ZV : Zero V) (KV : Key V) (kok : X -> Prop) (valok : V -> Prop) m r :
    KeyOk KX kok -> MapReach kok valok m -> m_values m = Ok r -> SetReach valok r
| sr_value X T (KX : Key X) (K : Key T) (kok : X -> Prop) (vok : T -> Prop) (m : gomap X (set T)) k s :
    (* a set read from a map whose values are valid sets *)
    KeyOk KX kok -> MapReach kok (sok vok) m -> kok k -> m_get m k = Ok (Some s) -> SetReach vok s
| sr_element T (K : Key T) (vok : T -> Prop) (s : set (set T)) e l :
    (* a set read from a set of valid sets *)
    KeyOk K vok -> SetReach (sok vok) s -> s_elements s = Ok l -> In e l -> SetReach vok e

with MapReach {E : Env} : forall {X V : Type} {KX : Key X}, (X -> Prop) -> (V -> Prop) -> gomap X V -> Prop :=
| mr_empty X V (KX : Key X) (kok : X -> Prop) (valok : V -> Prop) : MapReach kok valok (@m_empty X V)
| mr_new X V (KX : Key X) (ZV : Zero V) (kok : X -> Prop) (valok : V -> Prop) kvs m :
    (forall kv, In kv kvs -> kok (kv_key kv) /\ valok (kv_val kv)) -> m_new kvs = Ok m -> MapReach kok valok m
| mr_fromKeys X V (KX : Key X) (ZV : Zero V) (kok : X -> Prop) (valok : V -> Prop) s (f : X -> V) m :
    SetReach kok s -> (forall k, kok k -> valok (f k)) -> m_fromKeys s f = Ok m -> MapReach kok valok m
| mr_fromGoMap X V (KX : Key X) (ZV : Zero V) (kok : X -> Prop) (valok : V -> Prop) g m :
    (forall kv, In kv g -> kok (fst kv) /\ valok (snd kv)) -> m_fromGoMap g = Ok m -> MapReach kok valok m
| mr_finish X V (KX : Key X) (kok : X -> Prop) (valok : V -> Prop) b : MBReach kok valok b -> MapReach kok valok (fst (@mb_finish X V b))
| mr_with X V (KX : Key X) (ZV : Zero V) (kok : X -> Prop) (valok : V -> Prop) m k v r :
    MapReach kok valok m -> kok k -> valok v -> m_with m k v = Ok r -> MapReach kok valok r
| mr_without X V (KX : Key X) (ZV : Zero V) (kok : X -> Prop) (valok : V -> Prop) m k r :
    MapReach kok valok m -> kok k -> m_without m k = Ok r -> MapReach kok valok r
| mr_project X V (KX : Key X) (ZV : Zero V) (kok : X -> Prop) (valok : V -> Prop) m ks r :
    MapReach kok valok m -> (forall k, In k ks -> kok k) -> m_project m ks = Ok r -> MapReach kok valok r
| mr_where X V (KX : Key X) (ZV : Zero V) (kok : X -> Prop) (valok : V -> Prop) m pred r :
    MapReach kok valok m -> m_where m pred = Ok r -> MapReach kok valok r
| mr_map X V U (KX : Key X) (ZV : Zero V) (ZU : Zero U) (kok : X -> Prop) (valok : V -> Prop) (uok : U -> Prop) m f r :
    MapReach kok valok m -> (forall k v, kok k -> valok v -> uok (f k v)) -> m_map m f = Ok r -> MapReach kok uok r
| mr_merge X V (KX : Key X) (ZV : Zero V) (kok : X -> Prop) (valok : V -> Prop) m n resolve r :
    MapReach kok valok m -> MapReach kok valok n ->
    (forall k a b, kok k -> valok a -> valok b -> valok (resolve k a b)) ->
    m_merge m n resolve = Ok r -> MapReach kok valok r
| mr_update X V (KX : Key X) (ZV : Zero V) (kok : X -> Prop) (valok : V -> Prop) m n r :
    MapReach kok valok m -> MapReach kok valok n -> m_update m n = Ok r -> MapReach kok valok r
| mr_groupBy T (K : Key T) (vok : T -> Prop) X (KX : Key X) (kok : X -> Prop) s (key : T -> X) r :
    KeyOk K vok -> SetReach vok s -> (forall v, vok v -> kok (key v)) ->
    s_groupBy s key = Ok r -> MapReach kok (sok vok) r

with SBReach {E : Env} : forall {T : Type} {K : Key T}, (T -> Prop) -> setBuilder T -> Prop :=
| sbr_new T (K : Key T) (vok : T -> Prop) n : SBReach vok (@newSetBuilder T n)
| sbr_add T (K : Key T) (vok : T -> Prop) b v r : SBReach vok b -> vok v -> sb_add b v = Ok r -> SBReach vok r
| sbr_remove T (K : Key T) (vok : T -> Prop) b v r : SBReach vok b -> vok v -> sb_remove b v = Ok r -> SBReach vok r
| sbr_finish T (K : Key T) (vok : T -> Prop) b : SBReach vok b -> SBReach vok (snd (@sb_finish T b))

with MBReach {E : Env} : forall {X V : Type} {KX : Key X}, (X -> Prop) -> (V -> Prop) -> mapBuilder X V -> Prop :=
| mbr_new X V (KX : Key X) (kok : X -> Prop) (valok : V -> Prop) n : MBReach kok valok (@newMapBuilder X V n)
| mbr_put X V (KX : Key X) (ZV : Zero V) (kok : X -> Prop) (valok : V -> Prop) b k v r :
    MBReach kok valok b -> kok k -> valok v -> mb_put b k v = Ok r -> MBReach kok valok r
| mbr_remove X V (KX : Key X) (ZV : Zero V) (kok : X -> Prop) (valok : V -> Prop) b k r :
    MBReach kok valok b -> kok k -> mb_remove b k = Ok r -> MBReach kok valok r
| mbr_finish X V (KX : Key X) (kok : X -> Prop) (valok : V -> Prop) b : MBReach kok valok b -> MBReach kok valok (snd (@mb_finish X V b)).

Scheme SetReach_min := Minimality for SetReach Sort Prop
  with MapReach_min := Minimality for MapReach Sort Prop
  with SBReach_min := Minimality for SBReach Sort Prop
  with MBReach_min := Minimality for MBReach Sort Prop.
Combined Scheme Reach_min from SetReach_min, MapReach_min, SBReach_min, MBReach_min.

Section ReachOk.
Local Opaque maxTreeDepth fanout fb.
Context {E : Env} {HE : EnvOk E}.

(** Valid values, from what lookups find. *)
Lemma vals_from_klk {X V} {KX : Key X} {kok} {KO : KeyOk KX kok} (valok : V -> Prop) (l : list (entry X V)) :
  allok (eok (kok := kok)) l -> distinct l ->
  (forall j e, kok j -> klk l j = Some e -> valok (e_val e)) -> forall e, In e l -> valok (e_val e).
Proof.
  intros Ho Hd H e He. apply (H (e_key e) e); [apply (Ho e He)|].
  refine (proj2 (lookup_iff (vok := eok (kok := kok)) l e e Hd Ho (Ho e He)) _). split; auto.
  apply (veq_refl (vok := kok)). apply (Ho e He).
Qed.

Lemma klk_valok {X V} {KX : Key X} (valok : V -> Prop) (l : list (entry X V)) j e :
  (forall e, In e l -> valok (e_val e)) -> klk l j = Some e -> valok (e_val e).
Proof. intros H Hk. apply klk_Some in Hk as [He _]. auto. Qed.

Theorem reach_ok :
  (forall T (K : Key T) vok s, SetReach vok s -> KeyOk K vok -> sok vok s) /\
  (forall X V (KX : Key X) kok (valok : V -> Prop) m, MapReach kok valok m -> KeyOk KX kok -> mok kok m /\ vals_ok valok m) /\
  (forall T (K : Key T) vok b, SBReach vok b -> KeyOk K vok -> bok (vok := vok) b) /\
  (forall X V (KX : Key X) kok (valok : V -> Prop) b, MBReach kok valok b -> KeyOk KX kok ->
     mbok (kok := kok) b /\ forall e, In e (mbel b) -> valok (e_val e)).
Proof.
  apply Reach_min.
  - (* empty *) intros. apply sok_empty.
  - intros T K vok vs s Hvs H1 KO. destruct (s_new_ok (vok := vok) vs) as (r & E1 & Hr & _); auto. congruence.
  - intros T K vok b _ IH KO. apply IH; auto.
  - intros T K vok s v r _ IH Hv H1 KO. destruct (s_with_ok (vok := vok) s v) as (r' & E1 & Hr & _); auto. congruence.
  - intros T K vok s v r _ IH Hv H1 KO. destruct (s_without_ok (vok := vok) s v) as (r' & E1 & Hr & _); auto. congruence.
  - intros T K vok s t r _ IHs _ IHt H1 KO.
    destruct (s_union_ok (vok := vok) s t) as [[_ E1]|(_ & r' & E1 & Hr & _)]; auto; congruence.
  - intros T K vok s t r _ IHs _ IHt H1 KO. destruct (s_intersection_ok (vok := vok) s t) as (r' & E1 & Hr & _); auto. congruence.
  - intros T K vok s t r _ IHs _ IHt H1 KO. destruct (s_difference_ok (vok := vok) s t) as (r' & E1 & Hr & _); auto. congruence.
  - intros T K vok s t r _ IHs _ IHt H1 KO.
    destruct (s_symmetricDifference_ok (vok := vok) s t) as (a & b & _ & _ & _ & _ & HH); auto.
    destruct HH as [[_ E1]|(_ & r' & E1 & Hr & _)]; congruence.
  - intros T K vok s pred r _ IH H1 KO. destruct (s_where_ok (vok := vok) s pred) as (r' & E1 & Hr & _); auto. congruence.
  - intros T K vok s n r _ IH H1 KO.
    destruct (s_anyN_ok (vok := vok) s n) as [[_ E1]|(_ & r' & E1 & Hr & _)]; auto.
    + assert (r = s) as -> by congruence. auto.
    + congruence.
  - intros T K vok s n less r _ IH SW H1 KO. destruct (Z.lt_ge_cases n 0) as [Hn|Hn].
    + unfold s_firstN in H1. rewrite s_orderedFirstN_neg in H1 by auto. discriminate.
    + destruct (s_firstN_ok (vok := vok) less SW s n) as (l & d & r' & E0 & E1 & Hr & _); auto. congruence.
  - intros T K vok U KU uok s f r KO _ IH Hf H1 KUO.
    destruct (s_map_ok (vok := vok) (uok := uok) s f) as (r' & E1 & Hr & _); auto.
    { intros e He. apply Hf. apply (sok_allok s (IH KO)); auto. }
    congruence.
  - intros T K vok U KU uok s conv r KO _ IH Hf H1 KUO.
    destruct (s_as_ok (vok := vok) (uok := uok) s conv) as [[_ E1]|(_ & r' & E1 & Hr & _)]; auto; try congruence.
    intros e u He. apply Hf. apply (sok_allok s (IH KO)); auto.
  - intros T K vok U KU uok s f r KO _ IH Hf H1 KUO.
    destruct (s_asAny_ok (vok := vok) (uok := uok) s f) as (r' & E1 & Hr & _); auto.
    { intros e He. apply Hf. apply (sok_allok s (IH KO)); auto. }
    congruence.
  - intros T K vok s r KO _ IH H1 _. destruct (Z.le_gt_cases (s_count s) 63) as [Hn|Hn].
    + destruct (s_powerset_ok (vok := vok) s) as (r' & E1 & Hr & _); auto. congruence.
    + rewrite s_powerset_big in H1 by lia. discriminate.
  - intros X V KX ZV kok valok m r _ IH H1 KO. destruct (IH KO) as [Hm Hv].
    destruct (m_keys_ok (kok := kok) m Hm) as (r' & E1 & Hr & _). congruence.
  - intros X V KX ZV KV kok valok m r KO _ IH H1 KVO. destruct (IH KO) as [Hm Hv].
    destruct (m_values_ok (kok := kok) (valok := valok) m Hm Hv) as (r' & E1 & Hr & _). congruence.
  - intros X T KX K kok vok m k s KO _ IH Hk H1 KTO. destruct (IH KO) as [Hm Hv].
    rewrite (m_get_ok (kok := kok)) in H1 by auto. unfold mget in H1.
    destruct (klk (mel m) k) as [e|] eqn:Ek; [|discriminate]. injection H1 as <-. eapply klk_valok; eauto.
  - intros T K vok s e l KO _ IH H1 He _. rewrite (s_elements_ok (vok := sok vok)) in H1 by (apply IH; apply setKeyOk).
    injection H1 as <-. apply (sok_allok (vok := sok vok) s); auto. apply IH. apply setKeyOk.
  - intros X V KX kok valok KO. split; [apply mok_empty|]. intros e [].
  - intros X V KX ZV kok valok kvs m Hkvs H1 KO.
    destruct (m_new_ok (kok := kok) kvs) as (r & E1 & Hr & HR); [intros kv Hkv; apply Hkvs; auto|].
    assert (m = r) as -> by congruence. split; auto.
    refine (vals_from_klk (kok := kok) valok (mel r) _ _ _); [apply mok_allok; auto|eapply mok_distinct; eauto|].
    intros j e Hj He. rewrite HR in He by auto. apply klast_Some in He as [He _].
    apply in_map_iff in He as (kv & <- & Hkv). cbn. apply Hkvs; auto.
  - intros X V KX ZV kok valok s f m _ IH Hf H1 KO.
    destruct (m_fromKeys_ok (kok := kok) s f (IH KO)) as (r & E1 & Hr & HR).
    assert (m = r) as -> by congruence. split; auto.
    refine (vals_from_klk (kok := kok) _ (mel r) _ _ _); [apply mok_allok; auto|eapply mok_distinct; eauto|].
    intros j e Hj He. rewrite HR in He by auto. destruct (lookup (sel s) j) as [k|] eqn:Ek; [|discriminate].
    injection He as <-. cbn. apply Hf. apply lookup_Some in Ek as [Hk _]. apply (sok_allok s (IH KO)); auto.
  - intros X V KX ZV kok valok g m Hg H1 KO.
    destruct (m_fromGoMap_ok (kok := kok) g) as (r & E1 & Hr & HR); [intros kv Hkv; apply Hg; auto|].
    assert (m = r) as -> by congruence. split; auto.
    refine (vals_from_klk (kok := kok) _ (mel r) _ _ _); [apply mok_allok; auto|eapply mok_distinct; eauto|].
    intros j e Hj He. rewrite HR in He by auto. apply klast_Some in He as [He _].
    apply in_map_iff in He as (kv & <- & Hkv). cbn. apply Hg; auto.
  - intros X V KX kok valok b _ IH KO. apply IH; auto.
  - intros X V KX ZV kok valok m k v r _ IH Hk Hv H1 KO. destruct (IH KO) as [Hm Hvm].
    destruct (m_with_ok (kok := kok) m k v Hm Hk) as (r' & E1 & Hr & HR & _).
    assert (r = r') as -> by congruence. split; auto.
    refine (vals_from_klk (kok := kok) _ (mel r') _ _ _); [apply mok_allok; auto|eapply mok_distinct; eauto|].
    intros j e Hj He. rewrite HR in He by auto. destruct (veq k j).
    + injection He as <-. auto.
    + eapply klk_valok; eauto.
  - intros X V KX ZV kok valok m k r _ IH Hk H1 KO. destruct (IH KO) as [Hm Hvm].
    destruct (m_without_ok (kok := kok) m k Hm Hk) as (r' & E1 & Hr & HR & _).
    assert (r = r') as -> by congruence. split; auto.
    refine (vals_from_klk (kok := kok) _ (mel r') _ _ _); [apply mok_allok; auto|eapply mok_distinct; eauto|].
    intros j e Hj He. rewrite HR in He by auto. destruct (veq k j); [discriminate|]. eapply klk_valok; eauto.
  - intros X V KX ZV kok valok m ks r _ IH Hks H1 KO. destruct (IH KO) as [Hm Hvm].
    destruct (m_project_ok (kok := kok) m ks Hm Hks) as (r' & E1 & Hr & HR).
    assert (r = r') as -> by congruence. split; auto.
    refine (vals_from_klk (kok := kok) _ (mel r') _ _ _); [apply mok_allok; auto|eapply mok_distinct; eauto|].
    intros j e Hj He. specialize (HR j Hj). unfold mget in HR. rewrite He in HR. cbn in HR.
    destruct (existsb _ ks); [|discriminate]. destruct (klk (mel m) j) as [e'|] eqn:Ek; [|discriminate].
    cbn in HR. injection HR as ->. eapply klk_valok; eauto.
  - intros X V KX ZV kok valok m pred r _ IH H1 KO. destruct (IH KO) as [Hm Hvm].
    destruct (m_where_ok (kok := kok) m pred Hm) as (r' & E1 & Hr & HR).
    assert (r = r') as -> by congruence. split; auto.
    refine (vals_from_klk (kok := kok) _ (mel r') _ _ _); [apply mok_allok; auto|eapply mok_distinct; eauto|].
    intros j e Hj He. rewrite HR in He by auto. destruct (klk (mel m) j) as [e'|] eqn:Ek; [|discriminate].
    destruct (pred (e_key e') (e_val e')); [|discriminate]. injection He as <-. eapply klk_valok; eauto.
  - intros X V U KX ZV ZU kok valok uok m f r _ IH Hf H1 KO. destruct (IH KO) as [Hm Hvm].
    destruct (m_map_ok (kok := kok) m f Hm) as (r' & E1 & Hr & HR).
    assert (r = r') as -> by congruence. split; auto.
    refine (vals_from_klk (kok := kok) _ (mel r') _ _ _); [apply mok_allok; auto|eapply mok_distinct; eauto|].
    intros j e Hj He. rewrite HR in He by auto. destruct (klk (mel m) j) as [e'|] eqn:Ek; [|discriminate].
    injection He as <-. cbn. apply Hf; [|eapply klk_valok; eauto].
    apply klk_Some in Ek as [He' _]. apply (mok_allok m Hm e' He').
  - intros X V KX ZV kok valok m n resolve r _ IHm _ IHn Hres H1 KO. destruct (IHm KO) as [Hm Hvm], (IHn KO) as [Hn Hvn].
    destruct (m_merge_ok (kok := kok) m n resolve Hm Hn) as [[_ E1]|(_ & r' & E1 & Hr & HR)]; [congruence|].
    assert (r = r') as -> by congruence. split; auto.
    refine (vals_from_klk (kok := kok) _ (mel r') _ _ _); [apply mok_allok; auto|eapply mok_distinct; eauto|].
    intros j e Hj He. rewrite HR in He by auto.
    destruct (klk (mel m) j) as [a|] eqn:Ea, (klk (mel n) j) as [b|] eqn:Eb; try discriminate.
    + injection He as <-. cbn. apply Hres; [|exact (klk_valok _ _ _ _ Hvm Ea)|exact (klk_valok _ _ _ _ Hvn Eb)].
      apply klk_Some in Ea as [Ha _]. apply (mok_allok m Hm a Ha).
    + injection He as <-. exact (klk_valok _ _ _ _ Hvm Ea).
    + injection He as <-. exact (klk_valok _ _ _ _ Hvn Eb).
  - intros X V KX ZV kok valok m n r _ IHm _ IHn H1 KO. destruct (IHm KO) as [Hm Hvm], (IHn KO) as [Hn Hvn].
    destruct (m_update_ok (kok := kok) m n Hm Hn) as [[_ E1]|(_ & r' & E1 & Hr & HR)]; [congruence|].
    assert (r = r') as -> by congruence. split; auto.
    refine (vals_from_klk (kok := kok) _ (mel r') _ _ _); [apply mok_allok; auto|eapply mok_distinct; eauto|].
    intros j e Hj He. rewrite HR in He by auto.
    destruct (klk (mel n) j) as [b|] eqn:Eb.
    + injection He as <-. exact (klk_valok _ _ _ _ Hvn Eb).
    + exact (klk_valok _ _ _ _ Hvm He).
  - intros T K vok X KX kok s key r KO _ IH Hkey H1 KXO.
    destruct (s_groupBy_ok (vok := vok) (kok := kok) key s (IH KO)) as (r' & E1 & Hr & HR).
    { intros v Hv. apply Hkey. apply (sok_allok s (IH KO)); auto. }
    assert (r = r') as -> by congruence. split; auto.
    refine (vals_from_klk (kok := kok) _ (mel r') _ _ _); [apply mok_allok; auto|eapply mok_distinct; eauto|].
    intros j e Hj He. specialize (HR j Hj). rewrite He in HR. tauto.
  - intros. apply bok_empty.
  - intros T K vok b v r _ IH Hv H1 KO. destruct (sb_add_ok (vok := vok) b v) as (r' & E1 & Hr & _); auto. congruence.
  - intros T K vok b v r _ IH Hv H1 KO. destruct (sb_remove_ok (vok := vok) b v) as (r' & E1 & Hr & _); auto. congruence.
  - intros. apply bok_empty.
  - intros X V KX kok valok n KO. split; [apply mbok_empty|]. intros e [].
  - intros X V KX ZV kok valok b k v r _ IH Hk Hv H1 KO. destruct (IH KO) as [Hb Hvb].
    destruct (mb_put_ok (kok := kok) b k v Hb Hk) as (r' & E1 & Hr & HR & _).
    assert (r = r') as -> by congruence. split; auto.
    apply (vals_from_klk (kok := kok)).
    { apply tok_allok. exact Hr. } { eapply tok_distinct. exact Hr. }
    intros j e Hj He. rewrite HR in He by auto. destruct (veq k j).
    + injection He as <-. auto.
    + eapply klk_valok; eauto.
  - intros X V KX ZV kok valok b k r _ IH Hk H1 KO. destruct (IH KO) as [Hb Hvb].
    destruct (mb_remove_ok (kok := kok) b k Hb Hk) as (r' & E1 & Hr & HR & _).
    assert (r = r') as -> by congruence. split; auto.
    apply (vals_from_klk (kok := kok)).
    { apply tok_allok. exact Hr. } { eapply tok_distinct. exact Hr. }
    intros j e Hj He. rewrite HR in He by auto. destruct (veq k j); [discriminate|]. eapply klk_valok; eauto.
  - intros X V KX kok valok b _ IH KO. split; [apply mbok_empty|]. intros e [].
Qed.

Lemma sreach_ok {T} {K : Key T} {vok} {KO : KeyOk K vok} s : SetReach vok s -> sok vok s.
Proof. intros H. apply (proj1 reach_ok); auto. Qed.
Lemma mreach_ok {X V} {KX : Key X} {kok} {valok : V -> Prop} {KO : KeyOk KX kok} m : MapReach kok valok m -> mok kok m.
Proof. intros H. apply (proj1 (proj2 reach_ok) X V KX kok valok m); auto. Qed.
Lemma mreach_vals {X V} {KX : Key X} {kok} {valok : V -> Prop} {KO : KeyOk KX kok} m : MapReach kok valok m -> vals_ok valok m.
Proof. intros H. apply (proj1 (proj2 reach_ok) X V KX kok valok m); auto. Qed.
Lemma sbreach_ok {T} {K : Key T} {vok} {KO : KeyOk K vok} b : SBReach vok b -> bok (vok := vok) b.
Proof. intros H. apply (proj1 (proj2 (proj2 reach_ok))); auto. Qed.
Lemma mbreach_ok {X V} {KX : Key X} {kok} {valok : V -> Prop} {KO : KeyOk KX kok} b : MBReach kok valok b -> mbok (kok := kok) b.
Proof. intros H. apply (proj2 (proj2 (proj2 reach_ok)) X V KX kok valok b); auto. Qed.
Lemma mbreach_vals {X V} {KX : Key X} {kok} {valok : V -> Prop} {KO : KeyOk KX kok} b : MBReach kok valok b ->
  forall e, In e (mbel b) -> valok (e_val e).
Proof. intros H. apply (proj2 (proj2 (proj2 reach_ok)) X V KX kok valok b); auto. Qed.
End ReachOk.
