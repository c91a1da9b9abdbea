(** * SpecMap: the map properties, proved from the facts about valid maps. *)
From Verif Require Import Base Bits Env EnvFacts Node NodeWf NodeAdd NodeRemove NodeBin NodeBin2 NodeUn Iter Tree TreeFacts
  SetApi SetFacts MapApi MapFacts GroupFacts Clash Reach Spec SpecSet.

Section SpecMap.
Local Opaque maxTreeDepth fanout fb.
Context {E : Env} {HE : EnvOk E} {X V : Type} {KX : Key X} {kok : X -> Prop} {KO : KeyOk KX kok} {ZV : Zero V}.
Implicit Types (m n r : gomap X V) (k j : X).

(** ** Bridges *)

Lemma entry_In m k v : mok kok m -> Entry m k v <-> In (mkEntry k v) (mel m).
Proof.
  intros Hm. unfold Entry. rewrite (m_entries_ok (kok := kok)) by auto. split.
  - intros (l & H & Hin). injection H as <-. apply in_map_iff in Hin as ([k' v'] & H & Hin). unfold pair_of in H. simpl in H. congruence.
  - intros H. eexists. split; [reflexivity|]. apply (in_map pair_of) in H. exact H.
Qed.

Lemma entry_ok m k v : mok kok m -> Entry m k v -> kok k.
Proof. intros Hm He. apply entry_In in He; auto. apply (mok_allok m Hm _ He). Qed.

Lemma entry_klk m k v : mok kok m -> kok k -> Entry m k v <-> klk (mel m) k = Some (mkEntry k v).
Proof.
  intros Hm Hk. rewrite entry_In, (klk_iff (kok := kok)) by auto. cbn. rewrite (veq_refl (vok := kok)) by auto. tauto.
Qed.

Lemma maps_mget m k v : mok kok m -> kok k -> Maps m k v <-> mget m k = Some v.
Proof. intros Hm Hk. unfold Maps. rewrite (m_get_ok (kok := kok)) by auto. split; congruence. Qed.
Lemma misses_mget m k : mok kok m -> kok k -> Misses m k <-> mget m k = None.
Proof. intros Hm Hk. unfold Misses. rewrite (m_get_ok (kok := kok)) by auto. split; congruence. Qed.
Lemma misses_klk m k : mok kok m -> kok k -> Misses m k <-> klk (mel m) k = None.
Proof. intros Hm Hk. rewrite misses_mget by auto. unfold mget. destruct (klk (mel m) k); simpl; split; congruence. Qed.

Lemma mget_entry m k v : mok kok m -> kok k -> mget m k = Some v <-> exists k', Entry m k' v /\ veq k' k = true.
Proof.
  intros Hm Hk. unfold mget. split.
  - destruct (klk (mel m) k) as [[k' v']|] eqn:Ek; [|discriminate]. simpl. intros H. injection H as <-.
    apply klk_Some in Ek as [H1 H2]. exists k'. split; auto. apply entry_In; auto.
  - intros (k' & He & Hq). apply entry_In in He; auto.
    rewrite (proj2 (klk_iff (kok := kok) m k (mkEntry k' v) Hm Hk)); auto.
Qed.

Lemma ListsMap_l (l : list (entry X V)) (F : X -> option V) : allok (eok (kok := kok)) l -> distinct l ->
  (forall k, kok k -> option_map e_val (klk l k) = F k) -> ListsMap kok (map pair_of l) F.
Proof.
  intros Ho Hd HF. split; [|split].
  - intros kv H. apply in_map_iff in H as (e & <- & He). apply (Ho e He).
  - unfold UnequalKeys. rewrite map_map. intros i j a b Hi Hj Hij.
    rewrite nth_error_map in Hi, Hj. destruct (nth_error l i) as [x|] eqn:Ei; [|discriminate].
    destruct (nth_error l j) as [y|] eqn:Ej; [|discriminate]. injection Hi as <-. injection Hj as <-.
    exact (distinct_Unequal (vok := eok (kok := kok)) l Ho Hd i j x y Ei Ej Hij).
  - intros k v Hk. rewrite <- HF by auto. split.
    + destruct (klk l k) as [[k' v']|] eqn:Ek; [|discriminate]. simpl. intros H. injection H as <-.
      apply klk_Some in Ek as [H1 H2]. exists k'. split; auto. apply (in_map pair_of) in H1. exact H1.
    + intros (k' & Hin & Hq). apply in_map_iff in Hin as ([k1 v1] & H & Hin). unfold pair_of in H. simpl in H.
      injection H as -> ->.
      assert (klk l k = Some (mkEntry k' v)) as ->; auto.
      refine (proj2 (lookup_iff (vok := eok (kok := kok)) l (mkEntry k v) _ Hd Ho _) _); auto.
Qed.

Lemma answers_mget m (F : X -> option V) : mok kok m -> (forall k, kok k -> mget m k = F k) -> MapAnswers kok m F.
Proof.
  intros Hm HF. split.
  - intros k Hk. rewrite (m_get_ok (kok := kok)), HF by auto. auto.
  - exists (map pair_of (mel m)). split; [apply (m_entries_ok (kok := kok)); auto|]. split.
    + apply ListsMap_l; auto. { apply mok_allok; auto. } { eapply mok_distinct; eauto. }
    + rewrite map_length. apply (m_count_ok (kok := kok)); auto.
Qed.

Lemma answers_get m F k : MapAnswers kok m F -> mok kok m -> kok k -> F k = mget m k.
Proof. intros [H _] Hm Hk. specialize (H k Hk). rewrite (m_get_ok (kok := kok)) in H by auto. congruence. Qed.

Ltac mreach := repeat match goal with H : MapReach _ _ _ |- _ => apply mreach_ok in H end.

(** ** C21 *)

Context {valok : V -> Prop}.

Lemma c21_answers m : MapReach kok valok m ->
  exists F, MapAnswers kok m F /\ (forall k v, kok k -> F k = Some v <-> exists k', Entry m k' v /\ veq k' k = true).
Proof.
  intros Hm. mreach. exists (mget m). split; [apply answers_mget; auto|]. intros. apply mget_entry; auto.
Qed.

Lemma c21_with m F k v : MapReach kok valok m -> MapAnswers kok m F -> kok k ->
  exists r, m_with m k v = Ok r /\ MapAnswers kok r (fun j => if veq k j then Some v else F j) /\
    (forall k' v', Entry r k' v' <-> k' = k /\ v' = v \/ veq k k' = false /\ Entry m k' v').
Proof.
  intros Hm HF Hk. mreach. destruct (m_with_ok (kok := kok) m k v Hm Hk) as (r & E1 & Hr & HR & _).
  exists r. split; auto. split.
  - apply answers_mget; auto. intros j Hj. unfold mget. rewrite HR, (answers_get m F) by auto. destruct (veq k j); auto.
  - intros k' v'.
    assert (HH : kok k' -> Entry r k' v' <-> k' = k /\ v' = v \/ veq k k' = false /\ Entry m k' v').
    { intros Hk'. rewrite !entry_klk, HR by auto. destruct (veq k k') eqn:Eq.
      - split; [intros H; injection H as -> ->; auto|]. intros [[-> ->]|[H _]]; [auto|discriminate].
      - split; [auto|]. intros [[-> ->]|[_ H]]; auto. rewrite (veq_refl (vok := kok)) in Eq by auto. discriminate. }
    split; intros H; apply HH; auto.
    + apply (entry_ok r k' v'); auto.
    + destruct H as [[-> _]|[_ H]]; auto. apply (entry_ok m k' v'); auto.
Qed.

Lemma c21_without m F k : MapReach kok valok m -> MapAnswers kok m F -> kok k ->
  exists r, m_without m k = Ok r /\ MapAnswers kok r (fun j => if veq k j then None else F j) /\
    (forall k' v', Entry r k' v' <-> veq k k' = false /\ Entry m k' v').
Proof.
  intros Hm HF Hk. mreach. destruct (m_without_ok (kok := kok) m k Hm Hk) as (r & E1 & Hr & HR & _).
  exists r. split; auto. split.
  - apply answers_mget; auto. intros j Hj. unfold mget. rewrite HR, (answers_get m F) by auto. destruct (veq k j); auto.
  - intros k' v'.
    assert (HH : kok k' -> Entry r k' v' <-> veq k k' = false /\ Entry m k' v').
    { intros Hk'. rewrite !entry_klk, HR by auto. destruct (veq k k') eqn:Eq; split; try tauto; try discriminate.
      intros [H _]; discriminate. }
    split; intros H; apply HH; auto.
    + apply (entry_ok r k' v'); auto.
    + apply (entry_ok m k' v'); tauto.
Qed.

Lemma c21_variants m F k : MapReach kok valok m -> MapAnswers kok m F -> kok k ->
  match F k with
  | Some v => m_get m k = Ok (Some v) /\ m_has m k = Ok true /\ m_mustGet m k = Ok v /\
      (forall d, m_getElse m k d = Ok v) /\ (forall d, m_getElseFunc m k d = Ok v)
  | None => m_get m k = Ok None /\ m_has m k = Ok false /\ m_mustGet m k = Panic /\
      (forall d, m_getElse m k d = Ok d) /\ (forall d, m_getElseFunc m k d = d tt)
  end.
Proof.
  intros Hm [HF _] Hk. specialize (HF k Hk). unfold m_has, m_mustGet, m_getElse, m_getElseFunc. rewrite HF.
  destruct (F k); cbn; auto.
Qed.

Lemma c21_any m : MapReach kok valok m ->
  (m_count m = 0%Z -> m_any m = Panic) /\ (m_count m <> 0%Z -> exists k v, m_any m = Ok (k, v) /\ Entry m k v).
Proof.
  intros Hm. mreach. rewrite (m_any_ok (kok := kok)), (m_count_ok (kok := kok)) by auto.
  destruct (mel m) as [|[k v] l] eqn:El; simpl length; split; try congruence; try lia.
  intros _. exists k, v. split; auto. apply entry_In; auto. rewrite El. left; auto.
Qed.

(** ** C22, C23 and C19 for maps *)

Lemma Overfull_map (la lb : list (entry X V)) :
  Overfull (map e_key la) (map e_key lb) <-> overfull la lb.
Proof.
  rewrite <- Overfull_overfull. unfold Overfull, number. rewrite !lastBits_low.
  assert (HL : forall (p : X -> bool) (l : list (entry X V)), length (filter p (map e_key l)) = length (filter (fun e => p (e_key e)) l)).
  { intros p l. induction l as [|x l IH]; simpl; auto. destruct (p (e_key x)); simpl; auto. }
  split.
  - intros (a & b & Ha & Hb & Hh & H1 & H2 & H3). apply in_map_iff in Ha as (x & <- & Hx). apply in_map_iff in Hb as (y & <- & Hy).
    exists x, y. rewrite HL in H1, H2. split; auto. split; auto. split; auto. split; [exact H1|]. split; [exact H2|].
    destruct H3 as [H3|H3]; rewrite HL in H3; [left|right]; exact H3.
  - intros (x & y & Hx & Hy & Hh & H1 & H2 & H3). exists (e_key x), (e_key y).
    split; [apply in_map; auto|]. split; [apply in_map; auto|]. split; auto. split; [rewrite HL; exact H1|]. split; [rewrite HL; exact H2|].
    destruct H3 as [H3|H3]; [left|right]; rewrite HL; exact H3.
Qed.

Lemma map_fst_pair (l : list (entry X V)) : map fst (map pair_of l) = map e_key l.
Proof. rewrite map_map. reflexivity. Qed.

Lemma mclash_Overfull m n : mok kok m -> mok kok n ->
  mclash m n <-> Overfull (map fst (map pair_of (mel m))) (map fst (map pair_of (mel n))).
Proof.
  intros Hm Hn. rewrite !map_fst_pair, Overfull_map. apply (tclash_overfull (vok := eok (kok := kok))); auto.
Qed.

Lemma c19_merge_exact m n resolve lm ln : MapReach kok valok m -> MapReach kok valok n ->
  m_entries m = Ok lm -> m_entries n = Ok ln ->
  (Overfull (map fst lm) (map fst ln) /\ m_merge m n resolve = Panic /\ m_update m n = Panic) \/
  (~ Overfull (map fst lm) (map fst ln) /\ (exists r, m_merge m n resolve = Ok r) /\ (exists r, m_update m n = Ok r)).
Proof.
  intros Hm Hn El1 El2. mreach. rewrite (m_entries_ok (kok := kok)) in El1, El2 by auto.
  injection El1 as <-. injection El2 as <-. rewrite <- mclash_Overfull by auto.
  destruct (m_merge_ok (kok := kok) m n resolve Hm Hn) as [[H1 H2]|(H1 & r & H2 & _)];
    destruct (m_update_ok (kok := kok) m n Hm Hn) as [[H3 H4]|(H3 & r' & H4 & _)]; try tauto.
  right. eauto.
Qed.

Lemma c22_merge m n resolve r : MapReach kok valok m -> MapReach kok valok n -> m_merge m n resolve = Ok r ->
  (forall k a b, kok k -> Maps m k a -> Maps n k b ->
     exists k', Entry m k' a /\ veq k' k = true /\ Maps r k (resolve k' a b)) /\
  (forall k a, kok k -> Maps m k a -> Misses n k -> Maps r k a) /\
  (forall k b, kok k -> Misses m k -> Maps n k b -> Maps r k b) /\
  (forall k, kok k -> Misses m k -> Misses n k -> Misses r k) /\
  exists l, m_entries r = Ok l /\ UnequalKeys l /\ m_count r = Z.of_nat (length l).
Proof.
  intros Hm Hn H1. mreach. destruct (m_merge_ok (kok := kok) m n resolve Hm Hn) as [[_ E1]|(_ & r' & E1 & Hr & HR)]; [congruence|].
  assert (r' = r) as -> by congruence.
  split; [|split; [|split; [|split]]].
  - intros k a b Hk Ha Hb. rewrite maps_mget in Ha, Hb by auto. unfold mget in Ha, Hb.
    destruct (klk (mel m) k) as [x|] eqn:Ex; [|discriminate]. destruct (klk (mel n) k) as [y|] eqn:Ey; [|discriminate].
    simpl in Ha, Hb. injection Ha as <-. injection Hb as <-. exists (e_key x). apply klk_Some in Ex as [He Hq].
    split; [apply entry_In; auto; destruct x; auto|]. split; auto. apply maps_mget; auto. unfold mget. rewrite HR by auto.
    assert (klk (mel m) k = Some x) as -> by (apply (klk_iff (kok := kok)); auto). rewrite Ey. reflexivity.
  - intros k a Hk Ha Hb. rewrite maps_mget by auto. rewrite maps_mget in Ha by auto. rewrite misses_mget in Hb by auto. unfold mget in *. rewrite HR by auto.
    destruct (klk (mel m) k); [|discriminate]. destruct (klk (mel n) k); [discriminate|]. auto.
  - intros k a Hk Hb Ha. rewrite maps_mget by auto. rewrite maps_mget in Ha by auto. rewrite misses_mget in Hb by auto. unfold mget in *. rewrite HR by auto.
    destruct (klk (mel m) k); [discriminate|]. auto.
  - intros k Hk Ha Hb. rewrite misses_mget by auto. rewrite misses_mget in Ha, Hb by auto. unfold mget in *. rewrite HR by auto.
    destruct (klk (mel m) k); [discriminate|]. auto.
  - destruct (answers_mget r (mget r) Hr) as [_ (l & H2 & (_ & H3 & _) & H4)]; eauto.
Qed.

(** With a resolver that does not distinguish equal keys, as an equation on finite maps. *)
Lemma c22_merge_answers m n F G resolve r : MapReach kok valok m -> MapReach kok valok n -> m_merge m n resolve = Ok r ->
  MapAnswers kok m F -> MapAnswers kok n G ->
  (forall k k' a b, kok k -> kok k' -> veq k k' = true -> resolve k a b = resolve k' a b) ->
  MapAnswers kok r (fun k => match F k, G k with
                             | Some a, Some b => Some (resolve k a b)
                             | Some a, None => Some a
                             | None, o => o
                             end).
Proof.
  intros Hm Hn H1 HF HG Hres. mreach.
  destruct (m_merge_ok (kok := kok) m n resolve Hm Hn) as [[_ E1]|(_ & r' & E1 & Hr & HR)]; [congruence|].
  assert (r' = r) as -> by congruence. apply answers_mget; auto. intros k Hk.
  rewrite (answers_get m F), (answers_get n G) by auto. unfold mget. rewrite HR by auto.
  destruct (klk (mel m) k) as [x|] eqn:Ex, (klk (mel n) k) as [y|] eqn:Ey; auto. simpl. f_equal.
  apply klk_Some in Ex as [He Hq]. apply Hres; auto. apply (mok_allok m Hm x He).
Qed.

Lemma c23_update m n F G r : MapReach kok valok m -> MapReach kok valok n -> m_update m n = Ok r ->
  MapAnswers kok m F -> MapAnswers kok n G ->
  MapAnswers kok r (fun k => match G k with Some b => Some b | None => F k end).
Proof.
  intros Hm Hn H1 HF HG. mreach.
  destruct (m_update_ok (kok := kok) m n Hm Hn) as [[_ E1]|(_ & r' & E1 & Hr & HR)]; [congruence|].
  assert (r' = r) as -> by congruence. apply answers_mget; auto. intros k Hk.
  rewrite (answers_get m F), (answers_get n G) by auto. unfold mget. rewrite HR by auto.
  destruct (klk (mel n) k); auto.
Qed.

(** ** C24 *)

Lemma c24_range m : MapReach kok valok m ->
  exists l, MapYields (m_range m) l /\ m_entries m = Ok l /\ UnequalKeys l /\
    m_count m = Z.of_nat (length l) /\
    (m_isEmpty m = true <-> l = []) /\
    (forall k v, In (k, v) l -> Maps m k v) /\
    (forall k v, kok k -> Maps m k v -> exists k', In (k', v) l /\ veq k' k = true).
Proof.
  intros Hm. mreach. exists (map pair_of (mel m)).
  assert (HY : forall (l : list (entry X V)) (it : mapIter (X := X) (V := V)), iok (vok := eok (kok := kok)) 0 (mi_i it) -> remaining (mi_i it) = l -> MapYields it (map pair_of l)).
  { induction l as [|x l IH]; intros it Hi Hr.
    - apply mapYields_end. intros n. revert it Hi Hr. induction n as [|n IHn]; intros it Hi Hr; simpl; auto.
      destruct (mi_next_ok (kok := kok) it Hi) as (b & it' & E1 & Hi' & H2). rewrite Hr in H2. destruct H2 as [-> H2].
      exists it'. auto.
    - destruct (mi_next_ok (kok := kok) it Hi) as (b & it' & E1 & Hi' & H2). rewrite Hr in H2. destruct H2 as (-> & H2 & H3).
      apply (mapYields_step it it'); auto. }
  destruct (m_range_ok (kok := kok) m Hm) as [H1 H2].
  destruct (answers_mget m (mget m) Hm) as [_ (l & H3 & (_ & H4 & H5) & H6)]; auto.
  rewrite (m_entries_ok (kok := kok)) in H3 by auto. injection H3 as <-.
  split; [apply HY; auto|]. split; [apply (m_entries_ok (kok := kok)); auto|]. split; auto. split; auto. split; [|split].
  - rewrite (m_isEmpty_ok (kok := kok)) by auto. destruct (mel m); simpl; split; congruence.
  - intros k v H. assert (HE1 : Entry m k v). { eexists. split; [apply (m_entries_ok (kok := kok)); auto|auto]. }
    pose proof (entry_ok m k v Hm HE1). apply maps_mget; auto. apply mget_entry; auto. exists k. split; auto.
    apply (veq_refl (vok := kok)); auto.
  - intros k v Hk H. apply H5; auto. apply maps_mget; auto.
Qed.

Lemma c24_keys m : MapReach kok valok m ->
  exists r : set X, m_keys m = Ok r /\ Answers kok r (fun k => exists v, Maps m k v) /\
    (forall k, Holds r k <-> exists v, Entry m k v).
Proof.
  intros Hm. mreach. destruct (m_keys_ok (kok := kok) m Hm) as (r & E1 & Hr & HR).
  exists r. split; auto. split.
  - apply answers_lookup; auto. intros w Hw. rewrite HR by auto. split.
    + intros H. destruct (klk (mel m) w) as [e|] eqn:Ek; [|simpl in H; congruence]. exists (e_val e).
      apply maps_mget; auto. unfold mget. rewrite Ek. auto.
    + intros (v & H). apply maps_mget in H; auto. unfold mget in H. destruct (klk (mel m) w); simpl in *; congruence.
  - intros k. split.
    + intros H. pose proof (holds_ok (vok := kok) r k Hr H) as Hk. apply (holds_lookup (vok := kok)) in H; auto. rewrite HR in H by auto.
      destruct (klk (mel m) k) as [[k' v]|] eqn:Ek; [|discriminate]. simpl in H. injection H as ->. exists v. apply entry_klk; auto.
    + intros (v & H). pose proof (entry_ok m k v Hm H) as Hk. apply (holds_lookup (vok := kok)); auto. rewrite HR by auto.
      apply entry_klk in H; auto. rewrite H. auto.
Qed.

Lemma c24_values {KV : Key V} {KVO : KeyOk KV valok} m : MapReach kok valok m ->
  exists r : set V, m_values m = Ok r /\ Answers valok r (fun w => exists k v, Entry m k v /\ veq v w = true).
Proof.
  intros Hm. pose proof (mreach_vals m Hm) as Hv. mreach.
  destruct (m_values_ok (kok := kok) (valok := valok) m Hm Hv) as (r & E1 & Hr & HR).
  exists r. split; auto. apply answers_lookup; auto. intros w Hw. rewrite HR by auto. split.
  - intros ([k v] & He & Hq). exists k, v. split; auto. apply entry_In; auto.
  - intros (k & v & He & Hq). exists (mkEntry k v). split; auto. apply entry_In; auto.
Qed.

(** Go maps: lists with no two identical keys, in whatever order the runtime visits them. *)
Lemma lastFor_klast (l : list (X * V)) k :
  lastFor l k = option_map e_val (klast (map (fun kv => mkEntry (fst kv) (snd kv)) l) k).
Proof.
  induction l as [|[k' v] l IH]; cbn [lastFor map]; auto. rewrite IH. unfold klast. cbn [rev fst snd].
  unfold klk. rewrite find_app. destruct (find _ (rev (map _ l))) as [e|]; auto. simpl. destruct (veq k' k); auto.
Qed.

Lemma c24_fromGoMap (g : list (X * V)) : (forall kv, In kv g -> kok (fst kv)) ->
  exists m, m_fromGoMap g = Ok m /\ MapAnswers kok m (lastFor g).
Proof.
  intros Hg. destruct (m_fromGoMap_ok (kok := kok) g Hg) as (m & E1 & Hm & HM). exists m. split; auto.
  apply answers_mget; auto. intros k Hk. unfold mget. rewrite HM, lastFor_klast by auto. auto.
Qed.

Lemma lastFor_In (g : list (X * V)) k : (forall kv, In kv g -> kok (fst kv)) -> kok k -> UnequalKeys g ->
  forall v, lastFor g k = Some v <-> exists k', In (k', v) g /\ veq k' k = true.
Proof.
  intros Hg Hk. induction g as [|[k1 v1] g IH]; intros HU v; cbn [lastFor].
  - split; [discriminate|]. intros (k' & [] & _).
  - assert (HU' : UnequalKeys g). { intros i j a b Hi Hj Hij. apply (HU (S i) (S j) a b); auto. }
    assert (Hg' : forall kv, In kv g -> kok (fst kv)) by (intros; apply Hg; right; auto).
    specialize (IH Hg' HU'). destruct (lastFor g k) as [v'|] eqn:El.
    + split.
      * intros H. injection H as <-. destruct (proj1 (IH v') eq_refl) as (k' & Hin & Hq). exists k'. split; [right|]; auto.
      * intros (k' & [H|Hin] & Hq).
        -- injection H as -> ->. exfalso. destruct (proj1 (IH v') eq_refl) as (k2 & Hin & Hq2).
           apply In_nth_error in Hin as (j & Hj).
           assert (veq k' k2 = false).
           { apply (HU 0 (S j)); auto. simpl. rewrite nth_error_map, Hj. auto. }
           assert (veq k' k2 = true).
           { pose proof (Hg (k', v) (or_introl eq_refl)). pose proof (Hg' (k2, v') (nth_error_In _ _ Hj)). simpl in *.
             apply (veq_trans (vok := kok) k' k k2); auto. apply (veq_sym (vok := kok)); auto. }
           congruence.
        -- apply IH. eauto.
    + destruct (veq k1 k) eqn:Eq.
      * split.
        -- intros H. injection H as <-. exists k1. split; [left|]; auto.
        -- intros (k' & [H|Hin] & Hq); [congruence|]. assert (None = Some v) by (apply IH; eauto). discriminate.
      * split; [discriminate|]. intros (k' & [H|Hin] & Hq); [congruence|]. apply IH. eauto.
Qed.

Lemma lastFor_eq (g : list (X * V)) (F : X -> option V) k : ListsMap kok g F -> kok k -> lastFor g k = F k.
Proof.
  intros (H1 & H2 & H3) Hk. destruct (F k) as [v|] eqn:EF.
  - apply lastFor_In; auto. apply H3; auto.
  - destruct (lastFor g k) as [v|] eqn:El; auto. apply lastFor_In in El; auto. apply H3 in El; auto. congruence.
Qed.

Lemma ListsMap_perm (l l' : list (X * V)) (F : X -> option V) : Permutation l l' -> ListsMap kok l F -> ListsMap kok l' F.
Proof.
  intros HP (H1 & H2 & H3). split; [|split].
  - intros kv Hkv. apply H1. apply (Permutation_in kv (Permutation_sym HP)); auto.
  - assert (HE1 : forall l : list (X * V), (forall kv, In kv l -> kok (fst kv)) -> UnequalKeys l <-> distinct (map fst l)).
    { clear - KO. intros l Ho. split.
      - intros HU. unfold UnequalKeys in HU. induction (map fst l) as [|a la IH]; constructor.
        + intros b Hb. apply In_nth_error in Hb as (j & Hj). apply (HU 0 (S j)); auto.
        + apply IH. intros i j x y Hi Hj Hij. apply (HU (S i) (S j)); auto.
      - intros Hd. apply (distinct_Unequal (vok := kok)); auto. intros e He. apply in_map_iff in He as (kv & <- & Hkv). auto. }
    apply HE1. { intros kv Hkv. apply H1. apply (Permutation_in kv (Permutation_sym HP)); auto. }
    apply HE1 in H2; auto.
    apply (distinct_perm (vok := kok)) with (l1 := map fst l); auto.
    { intros e He. apply in_map_iff in He as (kv & <- & Hkv). auto. }
    apply Permutation_map; auto.
  - intros k v Hk. rewrite H3 by auto. split; intros (k' & Hin & Hq); exists k'; split; auto.
    + apply (Permutation_in _ HP); auto.
    + apply (Permutation_in _ (Permutation_sym HP)); auto.
Qed.

Lemma c24_goMap_roundtrip (geq : X -> X -> bool) m F : MapReach kok valok m -> MapAnswers kok m F ->
  (forall a b, geq a b = true <-> a = b) ->
  exists g, m_toGoMap geq m = Ok g /\ NoDup (map fst g) /\ ListsMap kok g F /\
    forall g', Permutation g' g -> exists r, m_fromGoMap g' = Ok r /\ MapAnswers kok r F.
Proof.
  intros Hm HF Hgeq. mreach. exists (map pair_of (mel m)).
  assert (HL : ListsMap kok (map pair_of (mel m)) F).
  { apply ListsMap_l. { apply mok_allok; auto. } { eapply mok_distinct; eauto. }
    intros k Hk. rewrite (answers_get m F) by auto. auto. }
  split; [apply (m_toGoMap_ok (kok := kok)); auto|]. split; [rewrite map_fst_pair; apply (mel_keys_NoDup (kok := kok)); auto|].
  split; auto. intros g' HP. assert (HL' : ListsMap kok g' F) by (apply (ListsMap_perm _ _ _ (Permutation_sym HP)); auto).
  destruct (m_fromGoMap_ok (kok := kok) g') as (r & E1 & Hr & HR); [apply HL'|].
  exists r. split; auto. apply answers_mget; auto. intros k Hk. unfold mget. rewrite HR by auto.
  rewrite <- lastFor_klast. apply lastFor_eq; auto.
Qed.

(** ** C25 *)

Lemma c25_where m pred : MapReach kok valok m ->
  exists r, m_where m pred = Ok r /\ (forall k v, Entry r k v <-> Entry m k v /\ pred k v = true).
Proof.
  intros Hm. mreach. destruct (m_where_ok (kok := kok) m pred Hm) as (r & E1 & Hr & HR). exists r. split; auto.
  intros k v. assert (HH : kok k -> Entry r k v <-> Entry m k v /\ pred k v = true).
  { intros Hk. rewrite !entry_klk, HR by auto. destruct (klk (mel m) k) as [[k' v']|]; cbn [e_key e_val].
    - destruct (pred k' v') eqn:Ep; split; try discriminate.
      + intros H. injection H as -> ->. auto.
      + intros [H _]. auto.
      + intros [H Hp]. injection H as -> ->. congruence.
    - split; [discriminate|intros [H _]; discriminate]. }
  split; intros H; apply HH; auto.
  - apply (entry_ok r k v); auto.
  - apply (entry_ok m k v); tauto.
Qed.

Lemma c25_project m F ks : MapReach kok valok m -> MapAnswers kok m F -> (forall k, In k ks -> kok k) ->
  exists r, m_project m ks = Ok r /\
    MapAnswers kok r (fun j => if existsb (fun k => veq k j) ks then F j else None).
Proof.
  intros Hm HF Hks. mreach. destruct (m_project_ok (kok := kok) m ks Hm Hks) as (r & E1 & Hr & HR).
  exists r. split; auto. apply answers_mget; auto. intros j Hj. rewrite HR, (answers_get m F) by auto. auto.
Qed.

Lemma c25_fromKeys (s : set X) (f : X -> V) : SetReach kok s ->
  exists r, m_fromKeys s f = Ok r /\ (forall k v, Entry r k v <-> Holds s k /\ v = f k).
Proof.
  clear valok. intros Hs. apply sreach_ok in Hs. destruct (m_fromKeys_ok (kok := kok) s f Hs) as (r & E1 & Hr & HR).
  exists r. split; auto. intros k v. assert (HH : kok k -> Entry r k v <-> Holds s k /\ v = f k).
  { intros Hk. rewrite entry_klk, HR, (holds_lookup (vok := kok)) by auto. destruct (lookup (sel s) k) as [x|]; simpl.
    - split; [intros H; injection H as <- <-; auto|]. intros [H ->]. congruence.
    - split; [discriminate|intros [H _]; discriminate]. }
  split; intros H; apply HH; auto.
  - apply (entry_ok r k v); auto.
  - apply (holds_ok (vok := kok) s); tauto.
Qed.

(** A map's Get answers are determined by its entries. *)
Lemma c25_get_entry m k v : MapReach kok valok m -> kok k ->
  Maps m k v <-> exists k', Entry m k' v /\ veq k' k = true.
Proof. intros Hm Hk. mreach. rewrite maps_mget by auto. apply mget_entry; auto. Qed.

(** ** C26, C27 *)

Lemma c26_equal {KV : Key V} m n F G : MapReach kok valok m -> MapReach kok valok n ->
  MapAnswers kok m F -> MapAnswers kok n G ->
  exists b, m_equal m n = Ok b /\
    (b = true <-> forall k, kok k -> match F k, G k with
                                     | Some a, Some b => veq a b = true
                                     | None, None => True
                                     | _, _ => False
                                     end).
Proof.
  intros Hm Hn HF HG. mreach. destruct (m_equal_ok (kok := kok) m n Hm Hn) as (b & E1 & Hb). exists b. split; auto.
  rewrite Hb. unfold meqv. split; intros H k Hk; specialize (H k Hk);
    rewrite (answers_get m F), (answers_get n G) in * by auto; auto.
Qed.

Lemma c27_hash {KV : Key V} {KVO : KeyOk KV valok} m n seed : MapReach kok valok m -> MapReach kok valok n ->
  m_equal m n = Ok true -> exists h, m_hash m seed = Ok h /\ m_hash n seed = Ok h /\ (h < 2 ^ 64)%N.
Proof.
  intros Hm Hn H1. pose proof (mreach_vals m Hm) as Hvm. pose proof (mreach_vals n Hn) as Hvn. mreach.
  destruct (m_equal_ok (kok := kok) m n Hm Hn) as (b & E1 & Hb). assert (b = true) as -> by congruence.
  exists (mhashOf seed (mel m)). split; [apply (m_hash_ok (kok := kok)); auto|]. split.
  - rewrite (m_hash_ok (kok := kok)) by auto. f_equal. symmetry. apply (mhashOf_meqv (kok := kok) (valok := valok)); auto. apply Hb; auto.
  - apply (mhashOf_lt (kok := kok) (valok := valok)). intros e He. split; [|apply Hvm; auto]. apply (mok_allok m Hm e He).
Qed.

(** Equality is an equivalence and hashes agree, so maps are lawful elements and keys. *)
Lemma c27_lawful {KV : Key V} {KVO : KeyOk KV valok} : KeyOk (@mapKey E X V KX KV) (MapReach kok valok).
Proof.
  assert (HR : forall m, MapReach kok valok m -> mok kok m /\ vals_ok valok m).
  { intros m Hm. split; [apply (mreach_ok m Hm)|apply (mreach_vals m Hm)]. }
  destruct (mapKeyOk (kok := kok) (valok := valok)) as [H1 H2 H3 H4 H5]. unfold mvok in *.
  constructor; eauto 10.
Qed.

Lemma c26_same {KV : Key V} (m n : gomap X V) : m_same m (Some n) = m_equal m n /\ m_same m None = Ok false.
Proof. auto. Qed.

(** ** C28 *)

Lemma mbAnswers_l b (F : X -> option V) : mbok (kok := kok) b ->
  (forall k, kok k -> option_map e_val (klk (mbel b) k) = F k) -> MbAnswers kok b F.
Proof.
  intros Hb HF. split.
  - intros k Hk. unfold mb_has. rewrite (mb_get_ok (kok := kok)), HF by auto. split; auto.
  - exists (map pair_of (mbel b)). split; [|rewrite map_length; apply (tok_count (vok := eok (kok := kok))); auto].
    apply ListsMap_l; auto. { apply tok_allok; auto. } { eapply tok_distinct; eauto. }
Qed.

Lemma mb_run_ok ops : forall b (F : X -> option V), mbok (kok := kok) b ->
  (forall k, kok k -> option_map e_val (klk (mbel b) k) = F k) -> Forall (mbOpOk kok) ops ->
  exists b' out, mb_run b ops = Ok (b', out) /\
    MbAnswers kok b' (fst (mb_math F ops)) /\ Forall2 (MapAnswers kok) out (snd (mb_math F ops)).
Proof.
  induction ops as [|op ops IH]; intros b F Hb HF Hops.
  - exists b, []. split; auto. split; [apply mbAnswers_l; auto|]. constructor.
  - apply Forall_inv in Hops as Hop. apply Forall_inv_tail in Hops. destruct op as [k v|k|]; cbn [mb_run mb_math].
    + destruct (mb_put_ok (kok := kok) b k v Hb Hop) as (b1 & E1 & Hb1 & Hl & _). rewrite E1. cbn [bind].
      apply IH; auto. intros j Hj. rewrite Hl by auto. destruct (veq k j); auto.
    + destruct (mb_remove_ok (kok := kok) b k Hb Hop) as (b1 & E1 & Hb1 & Hl & _). rewrite E1. cbn [bind].
      apply IH; auto. intros j Hj. rewrite Hl by auto. destruct (veq k j); auto.
    + destruct (mb_finish b) as [m b1] eqn:Ef.
      assert (Hs : m = fst (mb_finish b)) by (rewrite Ef; auto). assert (Hb1 : b1 = snd (mb_finish b)) by (rewrite Ef; auto).
      destruct (IH b1 (fun _ => None)) as (b' & out & E1 & HA & HF2); auto.
      { subst b1. apply mbok_empty. }
      { intros k Hk. subst b1. reflexivity. }
      rewrite E1. cbn [bind]. destruct (mb_math (fun _ => None) ops) as [F' outs] eqn:Em.
      exists b', (m :: out). split; auto. split; auto. constructor; auto. subst m.
      destruct (mb_finish_ok b Hb) as [Hm Hel]. apply answers_mget; auto.
Qed.

Lemma c28_builder cap ops : Forall (mbOpOk kok) ops ->
  exists b out, mb_run (newMapBuilder cap) ops = Ok (b, out) /\
    MbAnswers kok b (fst (mb_math (fun _ => None) ops)) /\
    Forall2 (MapAnswers kok) out (snd (mb_math (fun _ => None) ops)).
Proof. intros Hops. apply mb_run_ok; auto. apply mbok_empty. Qed.

Lemma c28_newMap (kvs : list (keyValue X V)) : (forall kv, In kv kvs -> kok (kv_key kv)) ->
  exists m, m_new kvs = Ok m /\ MapAnswers kok m (lastFor (map (fun kv => (kv_key kv, kv_val kv)) kvs)).
Proof.
  intros Hkvs. destruct (m_new_ok (kok := kok) kvs Hkvs) as (m & E1 & Hm & HM). exists m. split; auto.
  apply answers_mget; auto. intros k Hk. unfold mget. rewrite HM, lastFor_klast, map_map by auto. auto.
Qed.

(** ** C43 *)

Lemma c43_lawful {KV : Key V} {KVO : KeyOk KV valok} :
  KeyOk (@kvKey X V KX KV) (fun kv => kok (kv_key kv) /\ valok (kv_val kv)).
Proof. exact (kvKeyOk (kok := kok) (valok := valok)). Qed.

Lemma c43_same {KV : Key V} (a b : keyValue X V) : kv_same a (Some b) = veq a b /\ kv_same a None = false.
Proof. auto. Qed.

End SpecMap.

Section SpecMap2.
Local Opaque maxTreeDepth fanout fb.
Context {E : Env} {HE : EnvOk E} {X V U : Type} {KX : Key X} {kok : X -> Prop} {KO : KeyOk KX kok}.
Context {ZV : Zero V} {ZU : Zero U} {valok : V -> Prop}.

Lemma c25_map (m : gomap X V) (f : X -> V -> U) : MapReach kok valok m ->
  exists r, m_map m f = Ok r /\ (forall k u, Entry r k u <-> exists v, Entry m k v /\ u = f k v).
Proof.
  intros Hm. apply mreach_ok in Hm. destruct (m_map_ok (kok := kok) m f Hm) as (r & E1 & Hr & HR). exists r. split; auto.
  intros k u. assert (HH : kok k -> Entry r k u <-> exists v, Entry m k v /\ u = f k v).
  { intros Hk. rewrite (entry_klk (kok := kok)), HR by auto. split.
    - destruct (klk (mel m) k) as [[k' v]|] eqn:Ek; [|discriminate]. simpl. intros H. injection H as -> <-.
      exists v. split; auto. apply (entry_klk (kok := kok)); auto.
    - intros (v & H & ->). apply (entry_klk (kok := kok)) in H; auto. rewrite H. auto. }
  split; intros H; apply HH; auto.
  - apply (entry_ok (kok := kok) r k u); auto.
  - destruct H as (v & H & _). apply (entry_ok (kok := kok) m k v); auto.
Qed.
End SpecMap2.
