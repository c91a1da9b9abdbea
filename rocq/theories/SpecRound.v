(** * SpecRound: there and back (C76). What a set or map lists, given back to a constructor, makes an equal set or map. *)
From Coq Require Import Permutation.
From Verif Require Import Base Bits Env EnvFacts Node NodeWf NodeBin NodeBin2 NodeUn Iter Tree TreeFacts SetApi SetFacts MapApi MapFacts Ordered Reach Spec SpecSet SpecMap.

Section RoundSet.
Context {E : Env} {HE : EnvOk E} {T : Type} {K : Key T} {vok : T -> Prop} {KO : KeyOk K vok}.
Local Opaque maxTreeDepth fanout fb.

(** NewSet (set.go:33-39) of the elements of a set, in any order and with any repetitions, is that set. *)
Lemma c76_elements (s : set T) l l' : SetReach vok s -> s_elements s = Ok l -> (forall e, In e l' <-> In e l) ->
  exists r, s_new l' = Ok r /\ s_equal r s = Ok true.
Proof.
  intros Hs El Hl. destruct (c04_range s Hs) as (l0 & _ & E0 & (H1 & _ & H3)). assert (l0 = l) as -> by congruence.
  assert (Hv : forall v, In v l' -> vok v) by (intros v Hv; apply H1, Hl, Hv).
  destruct (c16_newSet l' Hv) as (r & Er & (A & _) & _). exists r. split; auto.
  assert (Hr : SetReach vok r) by (apply (sr_new T K vok l'); auto).
  destruct (c05_equal r s Hr Hs) as (b & Eb & Hb). rewrite Eb. f_equal. apply Hb.
  intros v Ho. destruct (A v Ho) as (x & Ex & Hx). rewrite (H3 v Ho). unfold Has. rewrite Ex. split.
  - intros Hi. injection Hi as ->. destruct (proj1 Hx eq_refl) as (e & He & Hq). exists e. split; auto. apply Hl; auto.
  - intros (e & He & Hq). f_equal. apply Hx. exists e. split; auto. apply Hl; auto.
Qed.

(** So is NewSet of OrderedElements, whatever the order. *)
Lemma c76_ordered (s : set T) less : SetReach vok s -> StrictWeak vok less ->
  exists l r, s_orderedElements less s = Ok l /\ s_new l = Ok r /\ s_equal r s = Ok true.
Proof.
  intros Hs SW. destruct (c13_orderedElements s less Hs SW) as (l & l0 & E0 & E1 & HP & _).
  destruct (c76_elements s l0 l Hs E0) as (r & Er & Hr).
  { intros e. split; apply Permutation_in; auto. apply Permutation_sym; auto. }
  exists l, r. auto.
Qed.

(** Where with a predicate that is always true, and Map with the identity, give the set back. *)
Lemma c76_identity (s : set T) : SetReach vok s ->
  (exists r, s_where s (fun _ => true) = Ok r /\ s_equal r s = Ok true) /\
  (exists r, s_map s (fun v => v) = Ok r /\ s_equal r s = Ok true).
Proof.
  intros Hs. destruct (c04_range s Hs) as (l & _ & E0 & (H1 & _ & H3)). split.
  - destruct (c08_where s (fun _ => true) Hs) as (r & l1 & Er & El & _ & (A & _) & _). exists r. split; auto.
    assert (Hr : SetReach vok r) by (eapply sr_where; eauto).
    destruct (c05_equal r s Hr Hs) as (b & Eb & Hb). rewrite Eb. f_equal. apply Hb.
    intros v Ho. destruct (A v Ho) as (x & Ex & Hx). rewrite (H3 v Ho). unfold Has. rewrite Ex. split.
    + intros Hi. injection Hi as ->. destruct (proj1 Hx eq_refl) as (e & (l2 & E2 & He) & Hq & _). exists e. split; auto. congruence.
    + intros (e & He & Hq). f_equal. apply Hx. exists e. split; auto. exists l. auto.
  - assert (Hh : forall e, Holds s e -> vok e) by (intros e (l2 & E2 & He); apply H1; congruence).
    destruct (c09_map s (fun v => v) Hs Hh) as (r & Er & (A & _) & _). exists r. split; auto.
    assert (Hr : SetReach vok r) by (apply (sr_map T K vok T K vok s (fun v => v) r); auto).
    destruct (c05_equal r s Hr Hs) as (b & Eb & Hb). rewrite Eb. f_equal. apply Hb.
    intros v Ho. destruct (A v Ho) as (x & Ex & Hx). rewrite (H3 v Ho). unfold Has. rewrite Ex. split.
    + intros Hi. injection Hi as ->. destruct (proj1 Hx eq_refl) as (e & (l2 & E2 & He) & Hq). exists e. split; auto. congruence.
    + intros (e & He & Hq). f_equal. apply Hx. exists e. split; auto. exists l. auto.
Qed.

End RoundSet.

Section RoundMap.
Context {E : Env} {HE : EnvOk E} {X V : Type} {KX : Key X} {KV : Key V} {kok : X -> Prop} {valok : V -> Prop} {KO : KeyOk KX kok} {KOV : KeyOk KV valok} {ZV : Zero V}.
Local Opaque maxTreeDepth fanout fb.

Lemma entry_valok (m : gomap X V) k v : MapReach kok valok m -> Entry m k v -> kok k /\ valok v.
Proof.
  intros Hm He. pose proof (mreach_vals m Hm) as Hv. pose proof (mreach_ok m Hm) as Ho. split; [apply (entry_ok m k v); auto|].
  destruct He as (l & El & Hi). rewrite (m_entries_ok (kok := kok)) in El by auto. injection El as <-.
  apply in_map_iff in Hi as (e & He & Hi). specialize (Hv e Hi). destruct e; cbn in *. injection He as <- <-. auto.
Qed.

(** Maps with the same entries are equal. *)
Lemma c76_entries_equal (m n : gomap X V) : MapReach kok valok m -> MapReach kok valok n ->
  (forall k v, Entry m k v <-> Entry n k v) -> m_equal m n = Ok true.
Proof.
  intros Hm Hn He. pose proof (mreach_vals m Hm) as Hv. pose proof Hm as Hm0. pose proof Hn as Hn0.
  apply mreach_ok in Hm. apply mreach_ok in Hn.
  destruct (m_equal_ok (kok := kok) m n Hm Hn) as (b & -> & Hb). f_equal. apply Hb. intros k Hk.
  assert (Q : forall v, mget m k = Some v <-> mget n k = Some v).
  { intros v. rewrite (mget_entry (kok := kok) m k v), (mget_entry (kok := kok) n k v) by auto.
    split; intros (k' & H1 & H2); exists k'; split; auto; apply He; auto. }
  destruct (mget m k) as [v|] eqn:E1.
  - rewrite (proj1 (Q v) eq_refl). apply (mget_entry (kok := kok)) in E1 as (k' & H1 & _); auto.
    apply (veq_refl (KeyOk := KOV)). apply (entry_valok m k' v Hm0 H1).
  - destruct (mget n k) as [v|] eqn:E2; auto. pose proof (proj2 (Q v) eq_refl). discriminate.
Qed.

Lemma lastFor_some (l : list (X * V)) k v : lastFor l k = Some v -> exists k', In (k', v) l /\ veq k' k = true.
Proof.
  induction l as [|[k1 v1] l IH]; cbn [lastFor]; [discriminate|]. destruct (lastFor l k) as [v2|].
  - intros H. injection H as <-. destruct (IH eq_refl) as (k' & H1 & H2). exists k'. simpl. auto.
  - destruct (veq k1 k) eqn:Eq; [|discriminate]. intros H. injection H as <-. exists k1. simpl. auto.
Qed.

Lemma lastFor_none (l : list (X * V)) k : lastFor l k = None -> forall k' v, In (k', v) l -> veq k' k = false.
Proof.
  induction l as [|[k1 v1] l IH]; cbn [lastFor]; [intros _ k' v []|]. destruct (lastFor l k) as [v2|]; [discriminate|].
  destruct (veq k1 k) eqn:Eq; [discriminate|]. intros _ k' v [H|H]; [injection H as <- <-; auto|eauto].
Qed.

(** NewMap (map.go:24-30) and NewMapFromGoMap (map.go:43-49) of the entries of a map, in any order and with any repetitions, are that
    map. *)
Lemma c76_entries (m : gomap X V) l l' : MapReach kok valok m -> m_entries m = Ok l -> (forall kv, In kv l' <-> In kv l) ->
  (exists r, m_new (map (fun kv => mkKV (fst kv) (snd kv)) l') = Ok r /\ m_equal r m = Ok true) /\
  (exists r, m_fromGoMap l' = Ok r /\ m_equal r m = Ok true).
Proof.
  intros Hm El Hl.
  assert (HE' : forall k v, In (k, v) l' <-> Entry m k v).
  { intros k v. rewrite Hl. split; [intros H; exists l; auto|]. intros (l0 & E0 & H). congruence. }
  assert (Hok : forall kv, In kv l' -> kok (fst kv) /\ valok (snd kv)).
  { intros [k v] H. apply HE' in H. apply (entry_valok m k v Hm H). }
  assert (HA : MapAnswers kok m (fun k => mget m k)).
  { apply answers_mget; auto. apply (mreach_ok m Hm). }
  assert (Q : forall r, MapReach kok valok r -> MapAnswers kok r (lastFor l') -> m_equal r m = Ok true).
  { intros r Hr Ar. destruct (c26_equal r m _ _ Hr Hm Ar HA) as (b & -> & Hb). f_equal. apply Hb. intros k Hk.
    pose proof (mreach_ok m Hm) as Ho. destruct (lastFor l' k) as [v|] eqn:E1.
    - apply lastFor_some in E1 as (k' & Hi & Hq). rewrite (proj2 (mget_entry (kok := kok) m k v Ho Hk)).
      + apply (veq_refl (KeyOk := KOV)). apply (Hok (k', v) Hi).
      + exists k'. split; auto. apply HE'; auto.
    - destruct (mget m k) as [v|] eqn:E2; auto. apply (mget_entry (kok := kok)) in E2 as (k' & Hi & Hq); auto.
      apply HE' in Hi. pose proof (lastFor_none l' k E1 k' v Hi). congruence. }
  split.
  - destruct (c28_newMap (kok := kok) (map (fun kv => mkKV (fst kv) (snd kv)) l')) as (r & Er & Ar).
    { intros kv H. apply in_map_iff in H as (p & <- & H). apply Hok; auto. }
    exists r. split; auto. apply Q.
    + apply (mr_new X V KX ZV kok valok (map (fun kv => mkKV (fst kv) (snd kv)) l')); auto. intros kv H. apply in_map_iff in H as (p & <- & H). apply Hok; auto.
    + rewrite map_map in Ar. cbn in Ar. rewrite (map_ext (fun x : X * V => (fst x, snd x)) (fun x => x)) in Ar by (intros []; auto).
      rewrite map_id in Ar. auto.
  - destruct (c24_fromGoMap (kok := kok) l') as (r & Er & Ar); [intros kv H; apply Hok; auto|].
    exists r. split; auto. apply Q; auto. eapply mr_fromGoMap; eauto.
Qed.

(** NewMapFromKeys (map.go:33-40) of the keys of a map, with a function that gives each key its value in the map, is that map. *)
Lemma c76_fromKeys (m : gomap X V) ks f : MapReach kok valok m -> m_keys m = Ok ks ->
  (forall k v, Entry m k v -> f k = v) -> (forall k, kok k -> valok (f k)) ->
  exists r, m_fromKeys ks f = Ok r /\ m_equal r m = Ok true.
Proof.
  intros Hm Ek Hf Hv. destruct (c24_keys m Hm) as (ks0 & E0 & _ & Hk). assert (ks0 = ks) as -> by congruence.
  assert (Hks : SetReach kok ks) by (eapply sr_keys; eauto).
  destruct (c25_fromKeys ks f Hks) as (r & Er & HR). exists r. split; auto.
  apply c76_entries_equal; auto; [eapply mr_fromKeys; eauto|].
  intros k v. rewrite HR, Hk. split.
  - intros [(v0 & H0) ->]. rewrite (Hf k v0 H0). auto.
  - intros H. split; [eauto|]. symmetry. apply Hf; auto.
Qed.

(** Project on all of a map's keys, Where with a predicate that is always true and MapMap with the identity give the map back. *)
Lemma c76_map_identity (m : gomap X V) ks l : MapReach kok valok m -> m_keys m = Ok ks -> s_elements ks = Ok l ->
  (exists r, m_project m l = Ok r /\ m_equal r m = Ok true) /\
  (exists r, m_where m (fun _ _ => true) = Ok r /\ m_equal r m = Ok true) /\
  (exists r, m_map m (fun _ v => v) = Ok r /\ m_equal r m = Ok true).
Proof.
  intros Hm Ek El. destruct (c24_keys m Hm) as (ks0 & E0 & _ & Hk). assert (ks0 = ks) as -> by congruence.
  pose proof (mreach_ok m Hm) as Ho. split; [|split].
  - assert (Hl : forall k, In k l <-> exists v, Entry m k v).
    { intros k. rewrite <- Hk. split; [intros H; exists l; auto|]. intros (l0 & E1 & H). congruence. }
    assert (Hok : forall k, In k l -> kok k) by (intros k H; apply Hl in H as (v & H); apply (entry_valok m k v Hm H)).
    assert (HA : MapAnswers kok m (fun k => mget m k)) by (apply answers_mget; auto).
    destruct (c25_project m _ l Hm HA Hok) as (r & Er & Ar). exists r. split; auto.
    assert (Hr : MapReach kok valok r) by (eapply mr_project; eauto).
    destruct (c26_equal r m _ _ Hr Hm Ar HA) as (b & -> & Hb). f_equal. apply Hb. intros k Hkk.
    destruct (mget m k) as [v|] eqn:E2; [|destruct (existsb _ l); auto].
    apply (mget_entry (kok := kok)) in E2 as (k' & Hi & Hq); auto.
    replace (existsb (fun k0 => veq k0 k) l) with true.
    + apply (veq_refl (KeyOk := KOV)). apply (entry_valok m k' v Hm Hi).
    + symmetry. apply existsb_exists. exists k'. split; auto. apply Hl. eauto.
  - destruct (c25_where m (fun _ _ => true) Hm) as (r & Er & HR). exists r. split; auto.
    apply c76_entries_equal; auto; [eapply mr_where; eauto|]. intros k v. rewrite HR. tauto.
  - destruct (c25_map m (fun _ v => v) Hm) as (r & Er & HR). exists r. split; auto.
    apply c76_entries_equal; auto; [apply (mr_map X V V KX ZV ZV kok valok valok m (fun _ v => v) r); auto|]. intros k v. rewrite HR. split; [intros (v0 & H & ->); auto|eauto].
Qed.

End RoundMap.
