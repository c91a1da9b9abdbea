(** * SpecCost: how often the operations hash and compare elements (C58). *)
From Coq Require Import Sorting.Permutation.
From Verif Require Import Base Bits Env EnvFacts Node NodeWf NodeAdd NodeRemove NodeBin NodeBin2 NodeUn Iter Tree TreeFacts
  SetApi SetFacts MapApi MapFacts Clash Reach Spec SpecSet SpecMap Cost CostFacts CostBin CostAsk.
Local Open Scope nat_scope.

(** The number of elements of [l] with the hash of [v]. *)
Definition sameHash {T} {K : Key T} (l : list T) (v : T) : nat := length (filter (fun e => N.eqb (vhash v 0) (vhash e 0)) l).

(** No hash belongs to more than [B] elements of [l]. *)
Definition shareAtMost {T} {K : Key T} (B : nat) (l : list T) : Prop := forall v, In v l -> sameHash l v <= B.

(** The most that one insertion hashes, besides the element inserted: three elements at each level of a new path. *)
Definition pathHashes {E : Env} : nat := 3 * maxTreeDepth.

Section TreeCost.
Context {E : Env} {HE : EnvOk E} {T : Type} {K : Key T} {vok : T -> Prop} {KO : KeyOk K vok}.
Notation tok := (tok vok).
Notation D := maxTreeDepth.
Local Opaque maxTreeDepth fanout fb.

Lemma near_same v n : wf vok 0 n -> vok v -> near 0 v n = sameHash (elems n) v.
Proof.
  intros Hwf Hv. unfold near, cnt, sameHash. pose proof (wf_allok _ _ Hwf) as Hok.
  induction (elems n) as [|e l IH]; auto. cbn [filter].
  rewrite agree_hash by (apply vhash_range; auto; apply Hok; left; auto).
  destruct (N.eqb _ _); cbn [length]; rewrite IH; auto; intros x Hx; apply Hok; right; auto.
Qed.

Lemma twigsLe_share B d n : wf vok d n -> NodeUn.agree d (elems n) ->
  (forall l, NoDup l -> incl l (elems n) -> (forall a b, In a l -> In b l -> vhash a 0 = vhash b 0) -> length l <= B) -> twigsLe B n.
Proof.
  induction 1 as [d a Hd Hv|d a b Hd Hv1 Hv2 Hab|d l Hd Hl Hok Hdis|d m data Hd Hlen Hm Hch IH Hp Hl]; intros Ha Hs; try constructor.
  - cbn [elems] in *. apply Hs.
    + apply (distinct_NoDup (vok := vok)); auto.
    + apply incl_refl.
    + intros a b Hina Hinb. apply (NodeUn.agree_hash (vok := vok)); auto.
      intros x y k Hx Hy Hk. apply Ha; simpl in *; intuition (subst; auto).
  - intros i c Hc. apply (IH i c Hc).
    + eapply (agree_child (vok := vok)); eauto. constructor; auto.
    + intros l Hn Hi. apply Hs; auto. intros e He. rewrite elems_branch. apply in_flat_map_child. exists i. rewrite Hc. apply Hi. auto.
Qed.

Lemma share_twigs B n : wf vok 0 n -> shareAtMost B (elems n) -> twigsLe B n.
Proof.
  intros Hwf Hs. apply (twigsLe_share B 0 n); auto.
  - intros a b k _ _ Hk. lia.
  - intros l Hn Hi Hh. destruct l as [|a l]; [cbn; lia|].
    etransitivity; [|apply (Hs a); apply Hi; left; auto]. apply NoDup_incl_length; auto.
    intros e He. apply filter_In. split; auto. apply N.eqb_eq. apply Hh; [left; auto|auto].
Qed.

(** What [cost] says, without it. *)
Lemma cost_out {A} (m : cres (T := T) A) r P : cost m r P -> P [] -> exists tr, m = rmap (fun a => (a, tr)) r /\ P tr.
Proof. intros H H0. unfold cost in H. destruct r; cbn in *; [|subst m; exists []; auto|subst m; exists []; auto]. destruct H as (tr & -> & Hp). eauto. Qed.

Lemma t_getC_cost t v : tok t -> vok v ->
  cost (t_getC t v) (t_get t v) (fun tr => exists l, tr = match tel t with [] => [] | _ => AHash v :: map (fun e => AEq e v) l end /\
    NoDup l /\ incl l (tel t) /\ length l <= max 2 (sameHash (tel t) v) /\ (forall l1 e l2, l = l1 ++ e :: l2 -> veq e v = true -> l2 = [])).
Proof.
  intros [Hw Hc] Hv. unfold t_getC, t_get, tel in *. destruct (t_root t) as [n|] eqn:En.
  - assert (Hwf : wf vok 0 n) by (apply Hw; auto). cbn [elemso].
    eapply cost_bind with (r := Ok (newHasher v 0)) (k' := fun _ => get treeFuel n v (newHasher v 0)) (P := fun tr => tr = [AHash v]).
    + eexists. split; reflexivity.
    + intros a tr [= <-] ->. eapply cost_weak; [apply (getC_cost (vok := vok)); auto|]. intros tr (l & -> & Hl).
      pose proof (lookedAt_few 0 n v l Hwf Hl) as Hf. destruct Hl as (H1 & H2 & _ & H4).
      change (cnt (Clash.agree 0 D v) (elems n)) with (near 0 v n) in Hf. rewrite near_same in Hf by auto.
      exists l. pose proof (size_pos (vok := vok) 0 n Hwf) as Hp. unfold size in Hp. destruct (elems n); [cbn in Hp; lia|].
      split; [reflexivity|]. auto.
  - apply cost_ret. exists []. cbn. repeat split; auto; try lia; [constructor|intros e []|]. intros [|] ? ? H; discriminate.
Qed.

Lemma t_withC_cost t v : tok t -> vok v -> cost (t_withC t v) (t_with t v) (atMost (1 + 3 * D) (max (2 + 3 * D) (sameHash (tel t) v))).
Proof.
  intros [Hw Hc] Hv. unfold t_withC, t_with, tel in *. destruct (t_root t) as [n|] eqn:En; [|apply cost_ret, atMost_nil].
  assert (Hwf : wf vok 0 n) by (apply Hw; auto). cbn [elemso]. apply cost_thenhash.
  eapply (cost_seq _ _ _ _ (3 * D) (max (2 + 3 * D) (sameHash (elems n) v)) 0 0); [| |lia|lia].
  - eapply cost_le; [apply (withFastC_cost (vok := vok)); auto using fuelAt_tree|lia|]. rewrite near_same by auto. lia.
  - intros [r m] _. apply cost_ret, atMost_nil.
Qed.

Lemma t_withoutC_cost t v : tok t -> vok v -> cost (t_withoutC t v) (t_without t v) (atMost 1 (max 2 (sameHash (tel t) v))).
Proof.
  intros [Hw Hc] Hv. unfold t_withoutC, t_without, tel in *. destruct (t_root t) as [n|] eqn:En; [|apply cost_ret, atMost_nil].
  assert (Hwf : wf vok 0 n) by (apply Hw; auto). cbn [elemso]. apply cost_thenhash.
  eapply (cost_seq _ _ _ _ 0 (max 2 (sameHash (elems n) v)) 0 0); [| |lia|lia].
  - eapply cost_le; [apply (withoutC_cost (vok := vok)); auto|lia|]. rewrite near_same by auto. lia.
  - intros [r m] _. apply cost_ret, atMost_nil.
Qed.

Lemma b_addC_cost t v : tok t -> vok v -> cost (b_addC t v) (b_add t v) (atMost (1 + 3 * D) (max (2 + 3 * D) (sameHash (tel t) v))).
Proof.
  intros [Hw Hc] Hv. unfold b_addC, b_add, tel in *. destruct (t_root t) as [n|] eqn:En; [|apply cost_ret, atMost_nil].
  assert (Hwf : wf vok 0 n) by (apply Hw; auto). cbn [elemso]. apply cost_thenhash.
  eapply (cost_seq _ _ _ _ (3 * D) (max (2 + 3 * D) (sameHash (elems n) v)) 0 0); [| |lia|lia].
  - eapply cost_le; [apply (addFastC_cost (vok := vok)); auto using fuelAt_tree|lia|]. rewrite near_same by auto. lia.
  - intros [r m] _. apply cost_ret, atMost_nil.
Qed.

Lemma b_removeC_cost t v : tok t -> vok v -> cost (b_removeC t v) (b_remove t v) (atMost 1 (max 2 (sameHash (tel t) v))).
Proof.
  intros [Hw Hc] Hv. unfold b_removeC, b_remove, tel in *. destruct (t_root t) as [n|] eqn:En; [|apply cost_ret, atMost_nil].
  assert (Hwf : wf vok 0 n) by (apply Hw; auto). cbn [elemso]. apply cost_thenhash.
  eapply (cost_seq _ _ _ _ 0 (max 2 (sameHash (elems n) v)) 0 0); [| |lia|lia].
  - eapply cost_le; [apply (removeC_cost (vok := vok)); auto|lia|]. rewrite near_same by auto. lia.
  - intros [r m] _. apply cost_ret, atMost_nil.
Qed.

Lemma with_asks t v : tok t -> vok v ->
  exists o asked rest, t_getC t v = Ok (o, asked) /\ t_withC t v = rmap (fun r => (r, asked ++ rest)) (t_with t v) /\
    (o <> None -> rest = []) /\ hashes rest <= pathHashes /\ compares rest <= pathHashes.
Proof.
  intros Ht Hv. destruct (t_with_ok (vok := vok) t v Ht Hv) as (r & Hr & _). destruct Ht as [Hw _]. revert Hr.
  unfold t_getC, t_withC, t_with, pathHashes. destruct (t_root t) as [n|] eqn:En;
    [|intros _; exists None, [], []; repeat split; cbn; lia].
  pose proof (withFastC_asks (vok := vok) treeFuel 0 n v fuelAt_tree (Hw _ eq_refl) Hv) as Hc. unfold cost in Hc.
  destruct (withFast treeFuel n v 0 (newHasher v 0)) as [[n' m]| |]; try discriminate. intros _.
  destruct Hc as (tr & Ec & o & t0 & rest & Eg & -> & H1 & H2). exists o, (AHash v :: t0), rest.
  unfold hashC, cbind. cbn [bind fst snd]. rewrite Ec, Eg. cbn [bind fst snd rmap cret app]. rewrite app_nil_r.
  rewrite Nat.sub_0_r in H2. repeat split; try apply H2; auto.
Qed.
Lemma without_asks t v : tok t -> vok v ->
  exists o asked, t_getC t v = Ok (o, asked) /\ t_withoutC t v = rmap (fun r => (r, asked)) (t_without t v).
Proof.
  intros Ht Hv. destruct (t_without_ok (vok := vok) t v Ht Hv) as (r & Hr & _). destruct Ht as [Hw _]. revert Hr.
  unfold t_getC, t_withoutC, t_without. destruct (t_root t) as [n|] eqn:En;
    [|intros _; exists None, []; split; reflexivity].
  pose proof (withoutC_asks (vok := vok) treeFuel 0 n v (Hw _ eq_refl) Hv) as Hc. unfold cost in Hc.
  destruct (without treeFuel n v 0 (newHasher v 0)) as [[n' m]| |]; try discriminate. intros _.
  destruct Hc as (tr & Ec & o & Eg). exists o, (AHash v :: tr).
  unfold hashC, cbind. cbn [bind fst snd]. rewrite Ec, Eg. cbn [bind fst snd rmap cret app]. rewrite app_nil_r. split; reflexivity.
Qed.
Lemma add_asks t v : tok t -> vok v ->
  exists o asked rest, t_getC t v = Ok (o, asked) /\ b_addC t v = rmap (fun r => (r, asked ++ rest)) (b_add t v) /\
    (o <> None -> rest = []) /\ hashes rest <= pathHashes /\ compares rest <= pathHashes.
Proof.
  intros Ht Hv. destruct (b_add_ok (vok := vok) t v Ht Hv) as (r & Hr & _). destruct Ht as [Hw _]. revert Hr.
  unfold t_getC, b_addC, b_add, pathHashes. destruct (t_root t) as [n|] eqn:En;
    [|intros _; exists None, [], []; repeat split; cbn; lia].
  pose proof (addFastC_asks (vok := vok) treeFuel 0 n v fuelAt_tree (Hw _ eq_refl) Hv) as Hc. unfold cost in Hc.
  destruct (addFast treeFuel n v 0 (newHasher v 0)) as [[n' m]| |]; try discriminate. intros _.
  destruct Hc as (tr & Ec & o & t0 & rest & Eg & -> & H1 & H2). exists o, (AHash v :: t0), rest.
  unfold hashC, cbind. cbn [bind fst snd]. rewrite Ec, Eg. cbn [bind fst snd rmap cret app]. rewrite app_nil_r.
  rewrite Nat.sub_0_r in H2. repeat split; try apply H2; auto.
Qed.
Lemma remove_asks t v : tok t -> vok v ->
  exists o asked, t_getC t v = Ok (o, asked) /\ b_removeC t v = rmap (fun r => (r, asked)) (b_remove t v).
Proof.
  intros Ht Hv. destruct (b_remove_ok (vok := vok) t v Ht Hv) as (r & Hr & _). destruct Ht as [Hw _]. revert Hr.
  unfold t_getC, b_removeC, b_remove. destruct (t_root t) as [n|] eqn:En;
    [|intros _; exists None, []; split; reflexivity].
  pose proof (removeC_asks (vok := vok) treeFuel 0 n v (Hw _ eq_refl) Hv) as Hc. unfold cost in Hc.
  destruct (remove_ treeFuel n v 0 (newHasher v 0)) as [[n' m]| |]; try discriminate. intros _.
  destruct Hc as (tr & Ec & o & Eg). exists o, (AHash v :: tr).
  unfold hashC, cbind. cbn [bind fst snd]. rewrite Ec, Eg. cbn [bind fst snd rmap cret app]. rewrite app_nil_r. split; reflexivity.
Qed.

Lemma root_twigs B t n : tok t -> shareAtMost B (tel t) -> t_root t = Some n -> wf vok 0 n /\ twigsLe B n /\ size n = length (tel t).
Proof.
  intros [Hw _] Hs En. assert (Hwf : wf vok 0 n) by (apply Hw; auto). unfold tel in *. rewrite En in *. cbn [elemso] in *.
  split; auto. split; [apply share_twigs; auto|reflexivity].
Qed.

Lemma t_differenceC_cost B g t u : 2 <= B -> gaugeOk g -> tok t -> tok u -> shareAtMost B (tel t) -> shareAtMost B (tel u) ->
  cost (t_differenceC g t u) (t_difference g t u) (within B (lesser B (length (tel t)) (length (tel u)))).
Proof.
  intros HB Hg Ht Hu Hst Hsu. unfold t_differenceC, t_difference.
  destruct (t_root t) as [n|] eqn:En; [|apply cost_ret, atMost_nil].
  destruct (t_root u) as [n2|] eqn:En2; [|apply cost_ret, atMost_nil].
  destruct (root_twigs B t n Ht Hst En) as (W1 & T1 & <-). destruct (root_twigs B u n2 Hu Hsu En2) as (W2 & T2 & <-).
  eapply cost_seq with (h2 := 0) (c2 := 0); [apply (differenceC_cost (vok := vok) B HB); auto; try apply fuelBin_tree| |rewrite Nat.add_0_r; reflexivity|rewrite Nat.add_0_r; reflexivity].
  intros [r m] _. apply cost_ret, atMost_nil.
Qed.

Lemma t_intersectionC_cost B g t u : 2 <= B -> gaugeOk g -> tok t -> tok u -> shareAtMost B (tel t) -> shareAtMost B (tel u) ->
  cost (t_intersectionC g t u) (t_intersection g t u) (within B (min (length (tel t)) (length (tel u)))).
Proof.
  intros HB Hg Ht Hu Hst Hsu. unfold t_intersectionC, t_intersection.
  destruct (t_root t) as [n|] eqn:En; [|apply cost_ret, atMost_nil].
  destruct (t_root u) as [n2|] eqn:En2; [|apply cost_ret, atMost_nil].
  destruct (root_twigs B t n Ht Hst En) as (W1 & T1 & S1). destruct (root_twigs B u n2 Hu Hsu En2) as (W2 & T2 & S2).
  destruct Ht as [_ Ct]. destruct Hu as [_ Cu]. rewrite Ct, Cu.
  assert (Hk : forall k k', k <= k' -> forall tr : list (ask T), within B k tr -> within B k' tr).
  { intros k k' Hk tr [H1 H2]. split; [lia|nia]. }
  destruct (Z.ltb_spec (Z.of_nat (length (tel u))) (Z.of_nat (length (tel t)))).
  - eapply cost_weak; [eapply cost_seq with (h2 := 0) (c2 := 0); [apply (intersectionC_cost (vok := vok) B HB); auto| |rewrite Nat.add_0_r; reflexivity|rewrite Nat.add_0_r; reflexivity]|].
    + intros [r m] _. apply cost_ret, atMost_nil.
    + apply Hk. rewrite S1, S2. unfold lesser. lia.
  - eapply cost_weak; [eapply cost_seq with (h2 := 0) (c2 := 0); [apply (intersectionC_cost (vok := vok) B HB); auto| |rewrite Nat.add_0_r; reflexivity|rewrite Nat.add_0_r; reflexivity]|].
    + intros [r m] _. apply cost_ret, atMost_nil.
    + apply Hk. rewrite S1, S2. unfold lesser. lia.
Qed.

Lemma t_subsetOfC_cost B g t u : 2 <= B -> gaugeOk g -> tok t -> tok u -> shareAtMost B (tel t) -> shareAtMost B (tel u) ->
  cost (t_subsetOfC g t u) (t_subsetOf g t u) (within B (lesser B (length (tel t)) (length (tel u)))).
Proof.
  intros HB Hg Ht Hu Hst Hsu. unfold t_subsetOfC, t_subsetOf.
  destruct (t_root t) as [n|] eqn:En; [|apply cost_ret, atMost_nil].
  destruct (t_root u) as [n2|] eqn:En2; [|apply cost_ret, atMost_nil].
  destruct (root_twigs B t n Ht Hst En) as (W1 & T1 & <-). destruct (root_twigs B u n2 Hu Hsu En2) as (W2 & T2 & <-).
  apply (subsetOfC_cost (vok := vok) B HB); auto.
Qed.

Lemma t_equalC_cost B g eq t u : 2 <= B -> gaugeOk g -> tok t -> tok u -> shareAtMost B (tel t) ->
  cost (t_equalC g eq t u) (t_equal g eq t u) (atMost 0 (if (length (tel t) =? length (tel u)) then B * length (tel t) else 0)).
Proof.
  intros HB Hg Ht Hu Hst. unfold t_equalC, t_equal. pose proof Ht as [_ Ct]. pose proof Hu as [Hwu Cu]. rewrite Ct, Cu.
  destruct (Nat.eqb_spec (length (tel t)) (length (tel u))) as [He|He].
  - rewrite He, Z.eqb_refl. cbn [negb]. destruct (_ && _)%bool; [apply cost_ret, atMost_nil|].
    destruct (t_root t) as [n|] eqn:En; [|reflexivity].
    destruct (t_root u) as [n2|] eqn:En2; [|apply cost_ret, atMost_nil].
    destruct (root_twigs B t n Ht Hst En) as (W1 & T1 & S1). rewrite <- He, <- S1. apply (equalC_cost (vok := vok) B HB); auto.
  - destruct (Z.eqb_spec (Z.of_nat (length (tel t))) (Z.of_nat (length (tel u)))); [lia|]. apply cost_ret, atMost_nil.
Qed.

Lemma t_combineC_cost B args t u : 2 <= B -> gaugeOk (c_gauge args) -> c_eq args = veq -> cfok (vok := vok) (c_f args) ->
  tok t -> tok u -> shareAtMost B (tel t) -> shareAtMost B (tel u) ->
  cost (t_combineC args t u) (t_combine args t u) (inserts B (min (length (tel t)) (length (tel u)))).
Proof.
  intros HB Hg Heq Hcf Ht Hu Hst Hsu. unfold t_combineC, t_combine.
  destruct (t_root t) as [n|] eqn:En; [|apply cost_ret, atMost_nil].
  destruct (t_root u) as [n2|] eqn:En2; [|apply cost_ret, atMost_nil].
  destruct (root_twigs B t n Ht Hst En) as (W1 & T1 & <-). destruct (root_twigs B u n2 Hu Hsu En2) as (W2 & T2 & <-).
  eapply cost_seq with (h2 := 0) (c2 := 0); [apply (combineC_cost (vok := vok) B HB); auto using fuelBin_tree| |rewrite Nat.add_0_r; reflexivity|rewrite Nat.add_0_r; reflexivity].
  intros [r m] _. apply cost_ret, atMost_nil.
Qed.

End TreeCost.

(** ** Sets *)

Section SetCost.
Context {E : Env} {HE : EnvOk E} {T : Type} {K : Key T} {vok : T -> Prop} {KO : KeyOk K vok}.
Local Opaque maxTreeDepth fanout fb.

(** Has hashes its argument once and compares it with few elements, none of them twice, until one is equal. *)
Lemma c58_has (s : set T) v : SetReach vok s -> vok v ->
  exists l asked b, s_elements s = Ok l /\ s_has s v = Ok b /\
    s_hasC s v = Ok (b, match l with [] => [] | _ => AHash v :: map (fun e => AEq e v) asked end) /\
    NoDup asked /\ incl asked l /\ length asked <= max 2 (sameHash l v) /\
    (forall l1 e l2, asked = l1 ++ e :: l2 -> veq e v = true -> l2 = []).
Proof.
  intros Hs Hv. apply sreach_ok in Hs. pose proof (t_get_ok (vok := vok) (s_tree s) v Hs Hv) as Hg.
  pose proof (t_getC_cost (s_tree s) v Hs Hv) as Hc. unfold s_hasC, s_has. rewrite Hg in *.
  destruct Hc as (tr & E1 & l & -> & H). exists (sel s), l, (isSome (lookup (tel (s_tree s)) v)).
  split; [apply (s_elements_ok (vok := vok)); auto|]. split; [reflexivity|]. rewrite E1. split; [reflexivity|]. exact H.
Qed.

(** With. *)
Lemma c58_with (s : set T) v : SetReach vok s -> vok v ->
  exists l r tr, s_elements s = Ok l /\ s_with s v = Ok r /\ s_withC s v = Ok (r, tr) /\
    hashes tr <= 1 + pathHashes /\ compares tr <= max (2 + pathHashes) (sameHash l v).
Proof.
  intros Hs Hv. apply sreach_ok in Hs. destruct (t_with_ok (vok := vok) (s_tree s) v Hs Hv) as (r & Hg & _).
  pose proof (t_withC_cost (s_tree s) v Hs Hv) as Hc. unfold s_withC, s_with. rewrite Hg in *.
  destruct Hc as (tr & -> & H). exists (sel s), (mkSet r), tr.
  split; [apply (s_elements_ok (vok := vok)); auto|]. split; [reflexivity|]. split; [reflexivity|]. exact H.
Qed.

(** Without. *)
Lemma c58_without (s : set T) v : SetReach vok s -> vok v ->
  exists l r tr, s_elements s = Ok l /\ s_without s v = Ok r /\ s_withoutC s v = Ok (r, tr) /\
    hashes tr <= 1 /\ compares tr <= max 2 (sameHash l v).
Proof.
  intros Hs Hv. apply sreach_ok in Hs. destruct (t_without_ok (vok := vok) (s_tree s) v Hs Hv) as (r & Hg & _).
  pose proof (t_withoutC_cost (s_tree s) v Hs Hv) as Hc. unfold s_withoutC, s_without. rewrite Hg in *.
  destruct Hc as (tr & -> & H). exists (sel s), (mkSet r), tr.
  split; [apply (s_elements_ok (vok := vok)); auto|]. split; [reflexivity|]. split; [reflexivity|]. exact H.
Qed.

(** The builder's Add and Remove. *)
Lemma c58_add (b : setBuilder T) v : SBReach vok b -> vok v ->
  exists l r tr, s_elements (fst (sb_finish b)) = Ok l /\ sb_add b v = Ok r /\ sb_addC b v = Ok (r, tr) /\
    hashes tr <= 1 + pathHashes /\ compares tr <= max (2 + pathHashes) (sameHash l v).
Proof.
  intros Hs Hv. apply sbreach_ok in Hs. destruct (b_add_ok (vok := vok) (sb_tree b) v Hs Hv) as (r & Hg & _).
  pose proof (b_addC_cost (sb_tree b) v Hs Hv) as Hc. unfold sb_addC, sb_add. rewrite Hg in *.
  destruct Hc as (tr & -> & H). exists (tel (sb_tree b)), (mkSB r), tr.
  split; [apply (s_elements_ok (vok := vok) (mkSet (sb_tree b))); exact Hs|]. split; [reflexivity|]. split; [reflexivity|]. exact H.
Qed.
Lemma c58_remove (b : setBuilder T) v : SBReach vok b -> vok v ->
  exists l r tr, s_elements (fst (sb_finish b)) = Ok l /\ sb_remove b v = Ok r /\ sb_removeC b v = Ok (r, tr) /\
    hashes tr <= 1 /\ compares tr <= max 2 (sameHash l v).
Proof.
  intros Hs Hv. apply sbreach_ok in Hs. destruct (b_remove_ok (vok := vok) (sb_tree b) v Hs Hv) as (r & Hg & _).
  pose proof (b_removeC_cost (sb_tree b) v Hs Hv) as Hc. unfold sb_removeC, sb_remove. rewrite Hg in *.
  destruct Hc as (tr & -> & H). exists (tel (sb_tree b)), (mkSB r), tr.
  split; [apply (s_elements_ok (vok := vok) (mkSet (sb_tree b))); exact Hs|]. split; [reflexivity|]. split; [reflexivity|]. exact H.
Qed.

(** With asks what Has asks, and more only to make room for an element that was not there. *)
Lemma c58_with_asks (s : set T) v : SetReach vok s -> vok v ->
  exists b asked rest, s_hasC s v = Ok (b, asked) /\ s_withC s v = rmap (fun r => (r, asked ++ rest)) (s_with s v) /\
    (b = true -> rest = []) /\ hashes rest <= pathHashes /\ compares rest <= pathHashes.
Proof.
  intros Hs Hv. apply sreach_ok in Hs.
  destruct (with_asks (s_tree s) v Hs Hv) as (o & asked & rest & H1 & H2 & H3 & H4).
  unfold s_hasC, s_withC, s_with. rewrite H1, H2. exists (isSome o), asked, rest. split; [reflexivity|].
  split; [destruct (t_with (s_tree s) v); reflexivity|]. split; [|exact H4].
  intros Ho. apply H3. destruct o; discriminate.
Qed.

(** Without asks what Has asks. *)
Lemma c58_without_asks (s : set T) v : SetReach vok s -> vok v ->
  exists b asked, s_hasC s v = Ok (b, asked) /\ s_withoutC s v = rmap (fun r => (r, asked)) (s_without s v).
Proof.
  intros Hs Hv. apply sreach_ok in Hs.
  destruct (without_asks (s_tree s) v Hs Hv) as (o & asked & H1 & H2).
  unfold s_hasC, s_withoutC, s_without. rewrite H1, H2. exists (isSome o), asked. split; [reflexivity|].
  destruct (t_without (s_tree s) v); reflexivity.
Qed.

(** So do Add and Remove of a builder. *)
Lemma c58_add_asks (b : setBuilder T) v : SBReach vok b -> vok v ->
  exists h asked rest, s_hasC (fst (sb_finish b)) v = Ok (h, asked) /\ sb_addC b v = rmap (fun r => (r, asked ++ rest)) (sb_add b v) /\
    (h = true -> rest = []) /\ hashes rest <= pathHashes /\ compares rest <= pathHashes.
Proof.
  intros Hs Hv. apply sbreach_ok in Hs.
  destruct (add_asks (sb_tree b) v Hs Hv) as (o & asked & rest & H1 & H2 & H3 & H4).
  unfold s_hasC, sb_addC, sb_add. cbn [sb_finish fst s_tree b_finish]. rewrite H1, H2. exists (isSome o), asked, rest. split; [reflexivity|].
  split; [destruct (b_add (sb_tree b) v); reflexivity|]. split; [|exact H4].
  intros Ho. apply H3. destruct o; discriminate.
Qed.
Lemma c58_remove_asks (b : setBuilder T) v : SBReach vok b -> vok v ->
  exists h asked, s_hasC (fst (sb_finish b)) v = Ok (h, asked) /\ sb_removeC b v = rmap (fun r => (r, asked)) (sb_remove b v).
Proof.
  intros Hs Hv. apply sbreach_ok in Hs.
  destruct (remove_asks (sb_tree b) v Hs Hv) as (o & asked & H1 & H2).
  unfold s_hasC, sb_removeC, sb_remove. cbn [sb_finish fst s_tree b_finish]. rewrite H1, H2. exists (isSome o), asked. split; [reflexivity|].
  destruct (b_remove (sb_tree b) v); reflexivity.
Qed.

Lemma newC_fold B vs0 : (forall v, In v vs0 -> vok v) -> shareAtMost B vs0 -> forall vs b, incl vs vs0 -> bok (vok := vok) b -> incl (bel b) vs0 ->
  cost (cfold sb_addC b vs) (foldM sb_add b vs) (atMost ((1 + pathHashes) * length vs) (max (2 + pathHashes) B * length vs)).
Proof.
  intros Hok Hs. induction vs as [|v vs IH]; intros b Hi Hb Hin; cbn [cfold foldM]; [apply cost_ret, atMost_nil|].
  assert (Hv : vok v) by (apply Hok, Hi; left; auto).
  destruct (sb_add_ok (vok := vok) b v Hb Hv) as (r & Er & Hr & Hl & _).
  eapply (cost_seq _ _ _ _ (1 + pathHashes) (max (2 + pathHashes) B) ((1 + pathHashes) * length vs) (max (2 + pathHashes) B * length vs));
    [unfold sb_addC, sb_add; apply cost_map| |cbn [length]; rewrite Nat.mul_succ_r; lia|cbn [length]; rewrite Nat.mul_succ_r; lia].
  - eapply cost_le; [apply (b_addC_cost (vok := vok)); auto|unfold pathHashes; lia|].
    assert (H : sameHash (tel (sb_tree b)) v <= B); [|unfold pathHashes; lia].
    etransitivity; [|apply (Hs v), Hi; left; auto]. unfold sameHash. apply NoDup_incl_length.
    + apply NoDup_filter, (distinct_NoDup (vok := vok)); [apply tok_allok; auto|apply (tok_distinct (vok := vok)); auto].
    + intros e He. apply filter_In in He as [He1 He2]. apply filter_In. split; auto.
  - intros r' Er'. rewrite Er in Er'. injection Er' as <-. apply IH; auto.
    + intros x Hx. apply Hi. right. auto.
    + intros e He. assert (Hve : vok e) by (apply (tok_allok (vok := vok) (sb_tree r)); auto).
      pose proof (lookup_In (vok := vok) (bel r) e) as Hlk. rewrite Hl in Hlk by auto.
      assert (Hd : distinct (bel r)) by (apply (tok_distinct (vok := vok)); auto).
      assert (Ha : allok vok (bel r)) by (apply tok_allok; auto). specialize (Hlk Hd Ha He).
      destruct (veq v e).
      * injection Hlk as <-. apply Hi. left. auto.
      * apply Hin. apply lookup_Some in Hlk. tauto.
Qed.

(** NewSet of n elements makes at most n insertions. *)
Lemma c58_new (vs : list T) B : (forall v, In v vs -> vok v) -> shareAtMost B vs ->
  exists r tr, s_new vs = Ok r /\ s_newC vs = Ok (r, tr) /\
    hashes tr <= (1 + pathHashes) * length vs /\ compares tr <= max (2 + pathHashes) B * length vs.
Proof.
  intros Hok Hs. destruct (s_new_ok (vok := vok) vs Hok) as (r & Er & _).
  assert (Hc : cost (s_newC vs) (s_new vs) (atMost ((1 + pathHashes) * length vs) (max (2 + pathHashes) B * length vs))).
  { unfold s_newC, s_new, sb_addAll. eapply cost_seq with (h2 := 0) (c2 := 0); [apply (newC_fold B vs Hok Hs); auto| |..].
    - apply incl_refl.
    - apply tok_empty.
    - intros e [].
    - intros b _. apply cost_ret, atMost_nil.
    - lia.
    - lia. }
  rewrite Er in Hc. destruct Hc as (tr & E1 & H). exists r, tr. auto.
Qed.

(** Difference and IsSubsetOf ask at most once about each element of the first set, and at most B times for each of the second. *)
Lemma c58_difference (s t : set T) B : SetReach vok s -> SetReach vok t -> 2 <= B ->
  forall l1 l2, s_elements s = Ok l1 -> s_elements t = Ok l2 -> shareAtMost B l1 -> shareAtMost B l2 ->
  exists tr, s_differenceC s t = rmap (fun r => (r, tr)) (s_difference s t) /\
    let k := min (length l1) (B * length l2) in hashes tr <= k /\ compares tr <= B * k.
Proof.
  intros Hs Ht HB l1 l2 H1 H2 S1 S2. apply sreach_ok in Hs. apply sreach_ok in Ht.
  rewrite (s_elements_ok (vok := vok)) in H1, H2 by auto. injection H1 as <-. injection H2 as <-.
  apply (cost_out (T := T)); [|apply atMost_nil]. apply cost_map, (t_differenceC_cost (vok := vok)); auto.
Qed.
Lemma c58_subset (s t : set T) B : SetReach vok s -> SetReach vok t -> 2 <= B ->
  forall l1 l2, s_elements s = Ok l1 -> s_elements t = Ok l2 -> shareAtMost B l1 -> shareAtMost B l2 ->
  exists tr, s_isSubsetOfC s t = rmap (fun r => (r, tr)) (s_isSubsetOf s t) /\
    let k := min (length l1) (B * length l2) in hashes tr <= k /\ compares tr <= B * k.
Proof.
  intros Hs Ht HB l1 l2 H1 H2 S1 S2. apply sreach_ok in Hs. apply sreach_ok in Ht.
  rewrite (s_elements_ok (vok := vok)) in H1, H2 by auto. injection H1 as <-. injection H2 as <-.
  apply (cost_out (T := T)); [|apply atMost_nil]. apply (t_subsetOfC_cost (vok := vok)); auto; try (apply gaugeOk_new; exact HE).
Qed.

(** Intersection asks at most once about each element of the smaller set. *)
Lemma c58_intersection (s t : set T) B : SetReach vok s -> SetReach vok t -> 2 <= B ->
  forall l1 l2, s_elements s = Ok l1 -> s_elements t = Ok l2 -> shareAtMost B l1 -> shareAtMost B l2 ->
  exists tr, s_intersectionC s t = rmap (fun r => (r, tr)) (s_intersection s t) /\
    let k := min (length l1) (length l2) in hashes tr <= k /\ compares tr <= B * k.
Proof.
  intros Hs Ht HB l1 l2 H1 H2 S1 S2. apply sreach_ok in Hs. apply sreach_ok in Ht.
  rewrite (s_elements_ok (vok := vok)) in H1, H2 by auto. injection H1 as <-. injection H2 as <-.
  apply (cost_out (T := T)); [|apply atMost_nil]. apply cost_map, (t_intersectionC_cost (vok := vok)); auto; try (apply gaugeOk_new; exact HE).
Qed.

(** Equal never hashes, and does not compare elements of sets of different sizes. *)
Lemma c58_equal (s t : set T) B : SetReach vok s -> SetReach vok t -> 2 <= B ->
  forall l1 l2, s_elements s = Ok l1 -> s_elements t = Ok l2 -> shareAtMost B l1 ->
  exists tr, s_equalC s t = rmap (fun r => (r, tr)) (s_equal s t) /\
    hashes tr = 0 /\ compares tr <= if length l1 =? length l2 then B * length l1 else 0.
Proof.
  intros Hs Ht HB l1 l2 H1 H2 S1. apply sreach_ok in Hs. apply sreach_ok in Ht.
  rewrite (s_elements_ok (vok := vok)) in H1, H2 by auto. injection H1 as <-. injection H2 as <-.
  destruct (cost_out (T := T) _ _ _ (t_equalC_cost (vok := vok) B (s_gauge s) veq (s_tree s) (s_tree t) HB (gaugeOk_new _ HE) Hs Ht S1)) as (tr & E1 & H3 & H4); [apply atMost_nil|].
  exists tr. split; [exact E1|]. split; [lia|exact H4].
Qed.

(** Union makes at most as many insertions as the smaller set has elements. *)
Lemma c58_union (s t : set T) B : SetReach vok s -> SetReach vok t -> 2 <= B ->
  forall l1 l2, s_elements s = Ok l1 -> s_elements t = Ok l2 -> shareAtMost B l1 -> shareAtMost B l2 ->
  exists tr, s_unionC s t = rmap (fun r => (r, tr)) (s_union s t) /\
    let k := min (length l1) (length l2) in hashes tr <= (1 + pathHashes) * k /\ compares tr <= max (S B) (2 + pathHashes) * k.
Proof.
  intros Hs Ht HB l1 l2 H1 H2 S1 S2. apply sreach_ok in Hs. apply sreach_ok in Ht.
  rewrite (s_elements_ok (vok := vok)) in H1, H2 by auto. injection H1 as <-. injection H2 as <-.
  apply (cost_out (T := T)); [|apply atMost_nil]. apply cost_map, (t_combineC_cost (vok := vok)); auto; try (apply gaugeOk_new; exact HE); apply cfok_rhs.
Qed.

End SetCost.

(** ** Maps *)

Section MapCost.
Context {E : Env} {HE : EnvOk E} {X V : Type} {KX : Key X} {kok : X -> Prop} {valok : V -> Prop} {KO : KeyOk KX kok} {ZV : Zero V}.
Local Opaque maxTreeDepth fanout fb.

Lemma sameHash_keys (l : list (entry X V)) e : sameHash l e = sameHash (map fst (map pair_of l)) (e_key e).
Proof.
  unfold sameHash. induction l as [|a l IH]; auto. cbn [map filter].
  change (vhash e 0 =? vhash a 0)%N with (vhash (e_key e) 0 =? vhash (fst (pair_of a)) 0)%N.
  destruct (N.eqb _ _); cbn [length]; rewrite IH; auto.
Qed.
Lemma share_keys B (l : list (entry X V)) : shareAtMost B (map fst (map pair_of l)) -> shareAtMost B l.
Proof.
  intros H e He. rewrite sameHash_keys. apply H. apply in_map_iff. exists (pair_of e). split; [reflexivity|]. apply in_map. auto.
Qed.

(** Get hashes its key once. *)
Lemma c58_get (m : gomap X V) k : MapReach kok valok m -> kok k ->
  exists l o tr, m_entries m = Ok l /\ m_get m k = Ok o /\ m_getC m k = Ok (o, tr) /\
    hashes tr <= 1 /\ compares tr <= max 2 (sameHash (map fst l) k).
Proof.
  intros Hs Hv. apply mreach_ok in Hs. assert (He : eok (kok := kok) (newMapKey k)) by exact Hv.
  pose proof (t_get_ok (vok := eok (kok := kok)) (m_tree m) (newMapKey k) Hs He) as Hg.
  pose proof (t_getC_cost (m_tree m) (newMapKey k) Hs He) as Hc. unfold m_getC, m_get. rewrite Hg in *.
  destruct Hc as (tr & -> & l & H & _ & _ & H3 & _). rewrite sameHash_keys in H3.
  exists (map pair_of (mel m)), (option_map (@e_val X V) (lookup (tel (m_tree m)) (newMapKey k))), tr.
  split; [apply (m_entries_ok (kok := kok)); auto|]. split; [reflexivity|]. split; [reflexivity|].
  change (tel (m_tree m)) with (mel m) in *. destruct (asks_count (newMapKey k) l) as [A1 A2]. unfold asks in A1, A2.
  assert (H1 : hashes tr <= 1 /\ compares tr <= length l).
  { subst tr. destruct (mel m); [split; cbn; lia|]. unfold hashes, compares in *. cbn [filter isHash negb length]. rewrite A1, A2. auto. }
  split; [lia|]. etransitivity; [apply H1|exact H3].
Qed.

Lemma c58_map_with (m : gomap X V) k v : MapReach kok valok m -> kok k ->
  exists l r tr, m_entries m = Ok l /\ m_with m k v = Ok r /\ m_withC m k v = Ok (r, tr) /\
    hashes tr <= 1 + pathHashes /\ compares tr <= max (2 + pathHashes) (sameHash (map fst l) k).
Proof.
  intros Hs Hv. apply mreach_ok in Hs. assert (He : eok (kok := kok) (newMapEntry k v)) by exact Hv.
  destruct (t_with_ok (vok := eok (kok := kok)) (m_tree m) (newMapEntry k v) Hs He) as (r & Hg & _).
  pose proof (t_withC_cost (m_tree m) (newMapEntry k v) Hs He) as Hc. unfold m_withC, m_with. rewrite Hg in *.
  destruct Hc as (tr & -> & H). rewrite sameHash_keys in H. exists (map pair_of (mel m)), (mkMap r), tr.
  split; [apply (m_entries_ok (kok := kok)); auto|]. split; [reflexivity|]. split; [reflexivity|]. exact H.
Qed.

Lemma c58_map_without (m : gomap X V) k : MapReach kok valok m -> kok k ->
  exists l r tr, m_entries m = Ok l /\ m_without m k = Ok r /\ m_withoutC m k = Ok (r, tr) /\
    hashes tr <= 1 /\ compares tr <= max 2 (sameHash (map fst l) k).
Proof.
  intros Hs Hv. apply mreach_ok in Hs. assert (He : eok (kok := kok) (newMapKey k)) by exact Hv.
  destruct (t_without_ok (vok := eok (kok := kok)) (m_tree m) (newMapKey k) Hs He) as (r & Hg & _).
  pose proof (t_withoutC_cost (m_tree m) (newMapKey k) Hs He) as Hc. unfold m_withoutC, m_without. rewrite Hg in *.
  destruct Hc as (tr & -> & H). rewrite sameHash_keys in H. exists (map pair_of (mel m)), (mkMap r), tr.
  split; [apply (m_entries_ok (kok := kok)); auto|]. split; [reflexivity|]. split; [reflexivity|]. exact H.
Qed.

(** Update makes at most as many insertions as the smaller map has keys. *)
Lemma c58_update (m n : gomap X V) B : MapReach kok valok m -> MapReach kok valok n -> 2 <= B ->
  forall l1 l2, m_entries m = Ok l1 -> m_entries n = Ok l2 -> shareAtMost B (map fst l1) -> shareAtMost B (map fst l2) ->
  exists tr, m_updateC m n = rmap (fun r => (r, tr)) (m_update m n) /\
    let k := min (length l1) (length l2) in hashes tr <= (1 + pathHashes) * k /\ compares tr <= max (S B) (2 + pathHashes) * k.
Proof.
  intros Hs Ht HB l1 l2 H1 H2 S1 S2. apply mreach_ok in Hs. apply mreach_ok in Ht.
  rewrite (m_entries_ok (kok := kok)) in H1, H2 by auto. injection H1 as <-. injection H2 as <-.
  apply share_keys in S1. apply share_keys in S2. rewrite !map_length. cbn zeta.
  apply (cost_out (T := entry X V)); [|apply atMost_nil]. unfold m_updateC, m_update.
  destruct (_ <? _)%Z.
  - rewrite Nat.min_comm. apply cost_map, (t_combineC_cost (vok := eok (kok := kok))); auto; try (apply gaugeOk_new; exact HE); apply cfok_lhs.
  - apply cost_map, (t_combineC_cost (vok := eok (kok := kok))); auto; try (apply gaugeOk_new; exact HE); apply cfok_rhs.
Qed.

End MapCost.
