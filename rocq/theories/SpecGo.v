(** * SpecGo: statements about the goroutines an operation starts (C70). *)
From Coq Require Import String.
From Verif Require Import Base Bits Env EnvFacts Node NodeWf NodeAdd NodeRemove NodeBin NodeBin2 NodeUn Iter Tree TreeFacts
  SetApi SetFacts MapApi MapFacts Reach Concurrency ConcOps ConcApi SpecConc Goroutines GoOps Config.
Local Open Scope Z_scope.

(** A call whose goroutines are considered until the last one has ended, also those that run on after the call has returned.
    Every run is finite; at most [n] goroutines are started; and in every state that is reached:
    - if the call has the result [r]: no goroutine has panicked, the caller has not returned anything else, and either all
      goroutines have ended and the caller has returned, or some goroutine can go on (so none is left waiting);
    - if the call panics: the caller has not returned, and a goroutine has panicked or can go on. *)
Definition Clean {E : Env} {B} (n : nat) (p : conc B) (r : res B) : Prop :=
  match p with
  | CRet b => r = Ok b
  | CPanic => r = Panic
  | CRun g fin =>
      Acc (sback fanout) (start g) /\
      forall s, sruns fanout (start g) s ->
        exists c g' l k, s = (c, TProg g' :: l, k) /\ (k <= n)%nat /\
        match r with
        | Ok b => ~ scrashed s /\ (forall a, g' = GRet a -> fin a = b) /\
            (Forall tended (TProg g' :: l) \/ exists s', sstep fanout s s')
        | Panic => (forall a, g' <> GRet a) /\ (scrashed s \/ exists s', sstep fanout s s')
        | Fuel => False
        end
  end.

Section Facts.
Context {E : Env}.

Lemma clean_run {A X F B} m n (g : gprog A X F) (fin : A -> B) r : New fanout m n g -> Always (CRun g fin) r -> Clean n (CRun g fin) r.
Proof.
  intros Hn [_ Ha]. destruct (goroutines fanout m n g Hn) as [H1 H2]. split; auto. intros s Hs.
  destruct (H2 s Hs) as (c & g' & l & k & -> & Hk & Hr & Hc & Hg). exists c, g', l, k. split; auto. split; auto.
  specialize (Ha c g' Hr). destruct r as [b| |]; auto.
  - destruct Ha as [Hnc Hres]. split; [tauto|]. split.
    + intros a ->. destruct Hres as [(a' & Ea & <-)|(c2 & g2 & Hst)]; [inversion Ea; auto|inversion Hst].
    + tauto.
  - destruct Ha as [Hnr Hp]. split; auto. destruct Hg as [Hcr|[Hall|Hs']]; auto.
    + left. exists (TProg g'). split; [left; auto|exact Hcr].
    + inversion Hall as [|? ? Hm _]; subst. destruct Hm as [a Ea]. contradiction (Hnr a); auto.
Qed.

Lemma clean_map {B C} n (f : B -> C) p r : Clean n p r -> Clean n (cmap f p) (rmap f r).
Proof.
  destruct p as [b| |A X F g fin]; simpl.
  - intros ->. reflexivity.
  - intros ->. reflexivity.
  - intros [H1 H2]. split; auto. intros s Hs. destruct (H2 s Hs) as (c & g' & l & k & E1 & Hk & Hr). exists c, g', l, k. split; auto. split; auto.
    destruct r as [b| |]; simpl; auto. destruct Hr as (H3 & H4 & H5). split; auto. split; auto. intros a Ha. f_equal. auto.
Qed.

Lemma clean_mono {B} n n' (p : conc B) r : (n <= n')%nat -> Clean n p r -> Clean n' p r.
Proof.
  intros Hn. destruct p; simpl; auto. intros [H1 H2]. split; auto. intros s Hs.
  destruct (H2 s Hs) as (c & g' & l & k & E1 & Hk & Hr). exists c, g', l, k. split; auto. split; auto. lia.
Qed.

Lemma budget_depth0 limit : (limit - Z.of_nat 0) = limit.
Proof. lia. Qed.

Context {T : Type} {K : Key T} {vok : T -> Prop} {KO : KeyOk K vok}.
Notation tok := (tok vok).
Notation upTo limit := (budget (Z.to_nat limit)).

Ltac levels H := let H' := fresh in pose proof H as H'; rewrite budget_depth0 in H'; exact H'.

Lemma t_combine_clean limit g f t u : tok t -> tok u -> gaugeOk g -> t_combine (mkCombineArgs g veq f) t u <> Fuel ->
  Clean (upTo limit) (t_combineC limit veq f t u) (t_combine (mkCombineArgs g veq f) t u).
Proof.
  intros Ht Hu Hg Hnf. pose proof (t_combine_always limit g f t u Ht Hu Hg Hnf) as Ha.
  destruct Ht as [Ht _], Hu as [Hu _]. revert Ha. unfold t_combineC, t_combine.
  destruct (t_root t) as [n|]; [destruct (t_root u) as [n2|]|]; auto.
  apply (clean_run true). levels (combine_new (vok := vok) treeFuel limit veq f 0 n n2 (Ht n eq_refl) (Hu n2 eq_refl)).
Qed.

Lemma t_equal_clean limit g eq t u : tok t -> tok u -> gaugeOk g -> Clean (upTo limit) (t_equalC limit eq t u) (t_equal g eq t u).
Proof.
  intros Ht Hu Hg. pose proof (t_equal_always limit g eq t u Ht Hu Hg) as Ha.
  destruct Ht as [Ht _], Hu as [Hu _]. revert Ha. unfold t_equalC, t_equal.
  destruct (negb _); auto. destruct (_ && _); auto.
  destruct (t_root t) as [n|]; [destruct (t_root u) as [n2|]|]; auto.
  apply (clean_run false). levels (equal_new (vok := vok) treeFuel limit eq 0 n n2 (Ht n eq_refl) (Hu n2 eq_refl) fuelBin_tree).
Qed.

Lemma t_subsetOf_clean limit g t u : tok t -> tok u -> gaugeOk g -> Clean (upTo limit) (t_subsetOfC limit t u) (t_subsetOf g t u).
Proof.
  intros Ht Hu Hg. pose proof (t_subsetOf_always limit g t u Ht Hu Hg) as Ha.
  destruct Ht as [Ht _], Hu as [Hu _]. revert Ha. unfold t_subsetOfC, t_subsetOf.
  destruct (t_root t) as [n|]; [destruct (t_root u) as [n2|]|]; auto.
  apply (clean_run false). levels (subsetOf_new (vok := vok) treeFuel limit 0 n n2 (Ht n eq_refl) (Hu n2 eq_refl) fuelBin_tree).
Qed.

Lemma t_intersection_clean limit g t u : tok t -> tok u -> gaugeOk g ->
  Clean (upTo limit) (t_intersectionC limit t u) (t_intersection g t u).
Proof.
  intros Ht Hu Hg. pose proof (t_intersection_always limit g t u Ht Hu Hg) as Ha.
  destruct Ht as [Ht _], Hu as [Hu _]. revert Ha. unfold t_intersectionC, t_intersection.
  destruct (t_root t) as [n|]; [destruct (t_root u) as [n2|]|]; auto.
  destruct (_ <? _); apply (clean_run true).
  - levels (intersection_new (vok := vok) treeFuel limit 0 n2 n (Hu n2 eq_refl) (Ht n eq_refl)).
  - levels (intersection_new (vok := vok) treeFuel limit 0 n n2 (Ht n eq_refl) (Hu n2 eq_refl)).
Qed.

Lemma t_difference_clean limit g t u : tok t -> tok u -> gaugeOk g ->
  Clean (upTo limit) (t_differenceC limit t u) (t_difference g t u).
Proof.
  intros Ht Hu Hg. pose proof (t_difference_always limit g t u Ht Hu Hg) as Ha.
  destruct Ht as [Ht _], Hu as [Hu _]. revert Ha. unfold t_differenceC, t_difference.
  destruct (t_root t) as [n|]; [destruct (t_root u) as [n2|]|]; auto.
  apply (clean_run true). levels (difference_new (vok := vok) treeFuel limit 0 n n2 (Ht n eq_refl) (Hu n2 eq_refl)).
Qed.

Lemma t_where_clean limit g pred t : tok t -> gaugeOk g -> Clean (upTo limit) (t_whereC limit pred t) (t_where g pred t).
Proof.
  intros Ht Hg. pose proof (t_where_always limit g pred t Ht Hg) as Ha.
  destruct Ht as [Ht _]. revert Ha. unfold t_whereC, t_where. destruct (t_root t) as [n|]; auto.
  apply (clean_run true). levels (where_new (vok := vok) treeFuel limit pred 0 n (Ht n eq_refl)).
Qed.

Lemma t_reduce_clean limit g r t : tok t -> gaugeOk g -> Clean (upTo limit) (t_reduceC limit r t) (t_reduce g r t).
Proof.
  intros Ht Hg. pose proof (t_reduce_always limit g r t Ht Hg) as Ha.
  destruct Ht as [Ht _]. revert Ha. unfold t_reduceC, t_reduce. destruct (t_root t) as [n|]; auto.
  apply (clean_run true). levels (reduce_new (vok := vok) treeFuel limit r 0 n (Ht n eq_refl)).
Qed.

End Facts.

Section SpecGo.
Local Opaque maxTreeDepth fanout fb.
Context {E : Env} {HE : EnvOk E} {T : Type} {K : Key T} {vok : T -> Prop} {KO : KeyOk K vok}.

Lemma union_clean limit s t : sok vok s -> sok vok t -> Clean (budget (Z.to_nat limit)) (s_unionC limit s t) (s_union s t).
Proof. intros Hs Ht. apply clean_map. apply (t_combine_clean (vok := vok)); auto. apply union_fuel; auto. Qed.

Lemma c70_union limit s t : SetReach vok s -> SetReach vok t ->
  Clean (budget (Z.to_nat limit)) (s_unionC limit s t) (s_union s t).
Proof. intros Hs Ht. apply sreach_ok in Hs. apply sreach_ok in Ht. apply union_clean; auto. Qed.

Lemma c70_intersection limit s t : SetReach vok s -> SetReach vok t ->
  Clean (budget (Z.to_nat limit)) (s_intersectionC limit s t) (s_intersection s t).
Proof. intros Hs Ht. apply sreach_ok in Hs. apply sreach_ok in Ht. apply clean_map. apply (t_intersection_clean (vok := vok)); auto. Qed.

Lemma c70_difference s t : SetReach vok s -> SetReach vok t ->
  Clean 0 (s_differenceC (-1) s t) (s_difference s t).
Proof.
  intros Hs Ht. apply sreach_ok in Hs. apply sreach_ok in Ht. apply clean_map.
  apply (t_difference_clean (vok := vok) (-1)); auto.
Qed.

Lemma c70_symmetricDifference limit s t : SetReach vok s -> SetReach vok t ->
  Clean (budget (Z.to_nat limit)) (s_symmetricDifferenceC limit s t) (s_symmetricDifference s t).
Proof.
  intros Hs Ht. apply sreach_ok in Hs. apply sreach_ok in Ht.
  destruct (s_difference_ok s t) as (a & Ea & Ha & _); auto. destruct (s_difference_ok t s) as (b & Eb & Hb & _); auto.
  unfold s_symmetricDifferenceC, s_symmetricDifference. rewrite Ea, Eb. cbn [bind]. apply union_clean; auto.
Qed.

Lemma c70_where limit s pred : SetReach vok s -> Clean (budget (Z.to_nat limit)) (s_whereC limit s pred) (s_where s pred).
Proof. intros Hs. apply sreach_ok in Hs. apply clean_map. apply (t_where_clean (vok := vok)); auto. Qed.

Lemma c70_equal limit s t : SetReach vok s -> SetReach vok t -> Clean (budget (Z.to_nat limit)) (s_equalC limit s t) (s_equal s t).
Proof. intros Hs Ht. apply sreach_ok in Hs. apply sreach_ok in Ht. apply (t_equal_clean (vok := vok)); auto. Qed.

Lemma c70_isSubsetOf limit s t : SetReach vok s -> SetReach vok t ->
  Clean (budget (Z.to_nat limit)) (s_isSubsetOfC limit s t) (s_isSubsetOf s t).
Proof. intros Hs Ht. apply sreach_ok in Hs. apply sreach_ok in Ht. apply (t_subsetOf_clean (vok := vok)); auto. Qed.

Lemma c70_reduce limit s f : SetReach vok s -> Clean (budget (Z.to_nat limit)) (s_reduceC limit s f) (s_reduce s f).
Proof. intros Hs. apply sreach_ok in Hs. apply (t_reduce_clean (vok := vok)); auto. Qed.

End SpecGo.

Section SpecGoMap.
Local Opaque maxTreeDepth fanout fb.
Context {E : Env} {HE : EnvOk E} {X V : Type} {KX : Key X} {kok : X -> Prop} {KO : KeyOk KX kok} {valok : V -> Prop} {ZV : Zero V}.

Lemma entries_clean limit k (f : entry X V -> entry X V -> entry X V) m n :
  (forall a b, e_key (f a b) = e_key a \/ e_key (f a b) = e_key b) -> mok kok m -> mok kok n ->
  Clean (budget (Z.to_nat limit)) (t_combineC limit veq f (m_tree m) (m_tree n)) (t_combine (mkCombineArgs (newGauge k) veq f) (m_tree m) (m_tree n)).
Proof. intros Hf Hm Hn. apply (t_combine_clean (vok := eok (kok := kok))); auto. apply entries_fuel; auto. Qed.

Lemma c70_merge limit m n resolve : MapReach kok valok m -> MapReach kok valok n ->
  Clean (budget (Z.to_nat limit)) (m_mergeC limit m n resolve) (m_merge m n resolve).
Proof. intros Hm Hn. apply mreach_ok in Hm. apply mreach_ok in Hn. apply clean_map. apply entries_clean; auto. Qed.

Lemma c70_update limit m n : MapReach kok valok m -> MapReach kok valok n ->
  Clean (budget (Z.to_nat limit)) (m_updateC limit m n) (m_update m n).
Proof.
  intros Hm Hn. apply mreach_ok in Hm. apply mreach_ok in Hn. unfold m_updateC, m_update.
  destruct (m_count n <? m_count m); apply clean_map; apply entries_clean; auto.
Qed.

Lemma c70_mapEqual {KV : Key V} limit m n : MapReach kok valok m -> MapReach kok valok n ->
  Clean (budget (Z.to_nat limit)) (m_equalC limit m n) (m_equal m n).
Proof. intros Hm Hn. apply mreach_ok in Hm. apply mreach_ok in Hn. apply (t_equal_clean (vok := eok (kok := kok))); auto. Qed.

End SpecGoMap.

(** ** The configuration *)

Section Configuration.
Context {E : Env}.

Lemma fb_cases : fb = 2%nat \/ fb = 3%nat.
Proof. unfold fb. destruct env_build; auto. Qed.
Lemma fanout_pow : Z.of_nat fanout = 2 ^ Z.of_nat fb.
Proof. unfold fanout. destruct fb_cases as [-> | ->]; reflexivity. Qed.

Lemma bitlen_bounds n k : (n < 2 ^ k)%N -> (bitlen n <= k)%N.
Proof.
  intros H. unfold bitlen. destruct (N.eq_dec n 0) as [->|Hn]; [simpl; lia|].
  rewrite N.size_log2 by auto. apply N.le_succ_l. apply N.log2_lt_pow2; lia.
Qed.
Lemma bitlen_ge n k : (2 ^ k <= n)%N -> (k < bitlen n)%N.
Proof.
  intros H. unfold bitlen. assert (n <> 0)%N by (pose proof (N.pow_nonzero 2 k); lia).
  rewrite N.size_log2 by auto. apply N.lt_succ_r. apply N.log2_le_pow2; lia.
Qed.
Lemma bitlen_Z n k : 0 <= n < 2 ^ k -> 0 <= k -> 0 <= Z.of_N (bitlen (Z.to_N n)) <= k.
Proof.
  intros H Hk. split; [lia|]. assert (bitlen (Z.to_N n) <= Z.to_N k)%N; [|lia]. apply bitlen_bounds.
  apply N2Z.inj_lt. rewrite N2Z.inj_pow, !Z2N.id by lia. apply H.
Qed.
Lemma bitlen_Z_ge n k : 0 <= k -> 2 ^ k <= n -> k < Z.of_N (bitlen (Z.to_N n)).
Proof.
  intros Hk H. assert (Z.to_N k < bitlen (Z.to_N n))%N; [|lia]. apply bitlen_ge.
  assert (0 <= n) by (eapply Z.le_trans; [|exact H]; apply Z.pow_nonneg; lia).
  apply N2Z.inj_le. rewrite N2Z.inj_pow, !Z2N.id by lia. exact H.
Qed.

Lemma int64_id z : - 2 ^ 63 <= z < 2 ^ 63 -> int64 z = z.
Proof. intros H. unfold int64. rewrite Z.mod_small by lia. lia. Qed.

Lemma atoi_range s z : atoi s = Some z -> - 2 ^ 63 <= z < 2 ^ 63.
Proof.
  unfold atoi. destruct (match s with "" => _ | _ => _ end)%string as [v|]; [|discriminate].
  destruct ((- 2 ^ 63 <=? v) && (v <? 2 ^ 63)) eqn:Ec; [|discriminate]. intros H. inversion H; subst.
  apply andb_prop in Ec as [H1 H2]. apply Z.leb_le in H1. apply Z.ltb_lt in H2. lia.
Qed.
Lemma maxConcurrency_range v : - 2 ^ 63 <= maxConcurrencyOf v < 2 ^ 63.
Proof.
  unfold maxConcurrencyOf. destruct (String.eqb _ _); [lia|]. destruct (atoi v) as [z|] eqn:Ez; [apply (atoi_range v); auto|lia].
Qed.

(** The gauge of the model without wrap-around (Env.v) is the gauge. *)
Lemma c70_gauge v procs sched count : 0 <= count < 2 ^ 63 -> - 2 ^ 63 + 63 < maxConcurrencyOf v ->
  gaugeFor v procs count = g_limit (newGauge (E := withConfig (maxConcurrencyOf v) (maxDepthOf procs) sched) count).
Proof.
  intros Hc Hv. unfold gaugeFor, gaugeOf, newGauge. cbn [g_limit env_maxDepth env_maxConcurrency withConfig].
  pose proof (bitlen_Z count 63 Hc) as Hb. pose proof (maxConcurrency_range v). rewrite int64_id by lia. reflexivity.
Qed.

(** FROZEN_CONCURRENCY=off. *)
Lemma c70_off v procs count : toLower v = "off"%string -> 0 <= count < 2 ^ 63 -> budget (Z.to_nat (gaugeFor v procs count)) = 0%nat.
Proof.
  intros Hv Hc. unfold gaugeFor, gaugeOf, maxConcurrencyOf. rewrite Hv. cbn [String.eqb Ascii.eqb Bool.eqb].
  pose proof (bitlen_Z count 63 Hc) as Hb. rewrite int64_id by lia.
  set (g := Z.quot _ _). assert (g <= 0).
  { unfold g. replace (Z.of_N (bitlen (Z.to_N count)) - (2 ^ 63 - 1)) with (- ((2 ^ 63 - 1) - Z.of_N (bitlen (Z.to_N count)))) by lia.
    rewrite Z.quot_opp_l by (destruct fb_cases as [-> | ->]; discriminate).
    apply Z.opp_nonpos_nonneg. apply Z.quot_pos; [lia|]. destruct fb_cases as [-> | ->]; lia. }
  destruct (_ <? g) eqn:Eg; [apply Z.ltb_lt in Eg|]; replace (Z.to_nat _) with 0%nat by lia; reflexivity.
Qed.

Lemma maxDepth_pos procs : 1 <= procs -> 1 <= maxDepthOf procs.
Proof.
  intros H. unfold maxDepthOf. destruct (Z.eq_dec procs 1) as [->|Hn]; [destruct fb_cases as [-> | ->]; cbn; lia|].
  pose proof (bitlen_Z_ge (procs - 1) 0). destruct fb_cases as [-> | ->].
  all: match goal with |- context [Z.quot ?a ?b] => assert (0 <= Z.quot a b) by (apply Z.quot_pos; lia) end; lia.
Qed.

(** The default: goroutines are started for sets of [2^(14 + FanoutBits)] and more elements, and for no others. *)
Lemma c70_default v procs count : toLower v <> "off"%string -> atoi v = None -> 1 <= procs -> 0 <= count < 2 ^ 63 ->
  (gaugeFor v procs count <= 0 <-> count < 2 ^ (14 + Z.of_nat fb)).
Proof.
  intros Hv Ha Hp Hc. unfold gaugeFor, gaugeOf, maxConcurrencyOf. apply String.eqb_neq in Hv. rewrite Hv, Ha.
  pose proof (bitlen_Z count 63 Hc) as Hb. rewrite int64_id by lia. pose proof (maxDepth_pos procs Hp) as Hd.
  assert (Hq : Z.quot (Z.of_N (bitlen (Z.to_N count)) - 15) (Z.of_nat fb) <= 0 <-> count < 2 ^ (14 + Z.of_nat fb)).
  { split.
    - intros Hg. apply Z.nle_gt. intros Hge. apply bitlen_Z_ge in Hge; [|lia].
      assert (1 <= Z.quot (Z.of_N (bitlen (Z.to_N count)) - 15) (Z.of_nat fb)); [|lia].
      apply Z.quot_le_lower_bound; destruct fb_cases as [Efb|Efb]; rewrite Efb in *; lia.
    - intros Hlt. pose proof (bitlen_Z count (14 + Z.of_nat fb)) as Hb2.
      destruct (Z.le_gt_cases 15 (Z.of_N (bitlen (Z.to_N count)))).
      + rewrite Z.quot_small; [lia|]. lia.
      + replace (Z.of_N (bitlen (Z.to_N count)) - 15) with (- (15 - Z.of_N (bitlen (Z.to_N count)))) by lia.
        rewrite Z.quot_opp_l by (destruct fb_cases as [-> | ->]; discriminate).
        apply Z.opp_nonpos_nonneg. apply Z.quot_pos; [lia|]. destruct fb_cases as [-> | ->]; lia. }
  destruct (maxDepthOf procs <? _) eqn:Eg; [apply Z.ltb_lt in Eg|]; rewrite <- Hq; lia.
Qed.

(** The deepest level has a goroutine for every core, and the one above has not, if there is more than one core. *)
Lemma c70_cores procs : 1 <= procs ->
  procs <= Z.of_nat fanout ^ maxDepthOf procs /\ (2 <= procs -> Z.of_nat fanout ^ (maxDepthOf procs - 1) < procs).
Proof.
  intros Hp. pose proof (maxDepth_pos procs Hp) as Hd. rewrite fanout_pow, <- !Z.pow_mul_r by lia.
  unfold maxDepthOf in *. set (L := Z.of_N (bitlen (Z.to_N (procs - 1)))) in *. set (b := Z.of_nat fb) in *.
  assert (Hb : 0 < b) by (unfold b; destruct fb_cases as [-> | ->]; lia).
  assert (HL : procs - 1 < 2 ^ L).
  { apply Z.nle_gt. intros H. apply bitlen_Z_ge in H; [|unfold L; lia]. unfold L in H. lia. }
  destruct (Z.eq_dec procs 1) as [->|Hn].
  - split; [|lia]. pose proof (Z.pow_pos_nonneg 2 (b * (Z.quot (L - 1) b + 1))). nia.
  - assert (HL1 : 1 <= L) by (unfold L; pose proof (bitlen_Z_ge (procs - 1) 0); lia).
    assert (Hlow : 2 ^ (L - 1) <= procs - 1).
    { apply Z.nlt_ge. intros H. pose proof (bitlen_Z (procs - 1) (L - 1)). unfold L in *. lia. }
    pose proof (Z.quot_div_nonneg (L - 1) b). rewrite H by lia. pose proof (Z.div_mod (L - 1) b). pose proof (Z.mod_pos_bound (L - 1) b).
    split.
    + assert (2 ^ L <= 2 ^ (b * ((L - 1) / b + 1))) by (apply Z.pow_le_mono_r; lia). lia.
    + intros _. assert (2 ^ (b * ((L - 1) / b + 1 - 1)) <= 2 ^ (L - 1)) by (apply Z.pow_le_mono_r; lia). lia.
Qed.

Lemma budget_le j : (budget j <= 2 * fanout ^ j)%nat.
Proof.
  assert (Hf : (2 <= fanout)%nat) by (unfold fanout; destruct fb_cases as [-> | ->]; simpl; lia).
  enough (budget j + 2 <= 2 * fanout ^ j)%nat by lia. induction j as [|j IH]; [simpl; lia|].
  cbn [budget]. rewrite Nat.pow_succ_r'. nia.
Qed.
Lemma budget_mono j j' : (j <= j')%nat -> (budget j <= budget j')%nat.
Proof. revert j'. induction j as [|j IH]; intros [|j'] H; cbn [budget]; try lia. apply Nat.mul_le_mono_l. specialize (IH j'). lia. Qed.

(** Whatever the variable and however large the sets, an operation starts few goroutines per core. *)
Lemma c70_bound v procs count : 1 <= procs -> Z.of_nat (budget (Z.to_nat (gaugeFor v procs count))) <= 2 * Z.of_nat fanout * procs.
Proof.
  intros Hp. assert (Hg : gaugeFor v procs count <= maxDepthOf procs).
  { unfold gaugeFor, gaugeOf. destruct (_ <? _) eqn:Eg; [lia|]. apply Z.ltb_ge in Eg. exact Eg. }
  pose proof (maxDepth_pos procs Hp) as Hd. destruct (c70_cores procs Hp) as [_ Hc].
  assert (Hf : 2 <= Z.of_nat fanout) by (rewrite fanout_pow; destruct fb_cases as [-> | ->]; simpl; lia).
  pose proof (budget_mono (Z.to_nat (gaugeFor v procs count)) (Z.to_nat (maxDepthOf procs))) as Hm.
  pose proof (budget_le (Z.to_nat (maxDepthOf procs))) as Hl.
  assert (HP : Z.of_nat (fanout ^ Z.to_nat (maxDepthOf procs)) = Z.of_nat fanout ^ maxDepthOf procs).
  { rewrite Nat2Z.inj_pow, Z2Nat.id by lia. reflexivity. }
  assert (Z.of_nat fanout ^ maxDepthOf procs <= Z.of_nat fanout * procs); [|lia].
  destruct (Z.eq_dec procs 1) as [->|Hn].
  - replace (maxDepthOf 1) with 1; [lia|]. unfold maxDepthOf. destruct fb_cases as [-> | ->]; reflexivity.
  - replace (maxDepthOf procs) with (Z.succ (maxDepthOf procs - 1)) by lia. rewrite Z.pow_succ_r by lia.
    apply Z.mul_le_mono_nonneg_l; lia.
Qed.

End Configuration.
