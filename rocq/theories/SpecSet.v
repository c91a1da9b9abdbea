(** * SpecSet: the set properties, proved from the facts about valid sets. *)
From Coq Require Import Sorting.Sorted.
From Verif Require Import Base Bits Env EnvFacts Node NodeWf NodeAdd NodeRemove NodeBin NodeBin2 NodeUn Iter Tree TreeFacts
  SetApi SetFacts GoHeap Ordered PowersetFacts MapApi MapFacts GroupFacts Clash Reach Spec.

Section SpecSet.
Local Opaque maxTreeDepth fanout fb.
Context {E : Env} {HE : EnvOk E} {T : Type} {K : Key T} {vok : T -> Prop} {KO : KeyOk K vok}.
Implicit Types (s t r : set T) (v w e : T).

(** ** Bridges *)

Lemma distinct_Unequal l : allok vok l -> distinct l -> Unequal l.
Proof.
  intros Ho Hd. induction Hd as [|a l Ha Hd IH]; intros i j x y Hi Hj Hij.
  - destruct i; discriminate.
  - assert (IH' := IH (fun e He => Ho e (or_intror He))).
    destruct i as [|i], j as [|j]; simpl in Hi, Hj.
    + congruence.
    + injection Hi as <-. apply Ha. apply nth_error_In in Hj; auto.
    + injection Hj as <-. apply nth_error_In in Hi. apply (veq_false_sym (vok := vok)); auto.
      * apply Ho; left; auto.
      * apply Ho; right; auto.
    + apply (IH' i j); auto.
Qed.

Lemma has_lookup s v : sok vok s -> vok v -> Has s v <-> lookup (sel s) v <> None.
Proof.
  intros Hs Hv. unfold Has. rewrite (s_has_ok (vok := vok)) by auto.
  destruct (lookup (sel s) v); simpl; split; congruence.
Qed.

Lemma holds_In s e : sok vok s -> Holds s e <-> In e (sel s).
Proof.
  intros Hs. unfold Holds. rewrite (s_elements_ok (vok := vok)) by auto. split.
  - intros (l & H & He). congruence.
  - eauto.
Qed.

Lemma holds_lookup s e : sok vok s -> vok e -> Holds s e <-> lookup (sel s) e = Some e.
Proof. intros Hs He. rewrite holds_In by auto. apply (In_lookup (vok := vok)); auto using sok_distinct, sok_allok. Qed.

Lemma holds_ok s e : sok vok s -> Holds s e -> vok e.
Proof. intros Hs He. apply holds_In in He; auto. eapply sok_allok; eauto. Qed.

Lemma lookup_not_None l v : lookup l v <> None <-> exists e, In e l /\ veq e v = true.
Proof.
  destruct (lookup l v) as [e|] eqn:El.
  - apply lookup_Some in El. split; [eauto|discriminate].
  - split; [congruence|]. intros (e & He & Hq). pose proof (proj1 (lookup_None l v) El e He). congruence.
Qed.

Lemma Lists_lookup l (P : T -> Prop) : allok vok l -> distinct l ->
  (forall w, vok w -> lookup l w <> None <-> P w) -> Lists vok l P.
Proof.
  intros Ho Hd HP. split; [exact Ho|]. split; [apply distinct_Unequal; auto|].
  intros v Hv. rewrite <- HP by auto. apply lookup_not_None.
Qed.

Lemma answers_lookup s (P : T -> Prop) : sok vok s ->
  (forall w, vok w -> lookup (sel s) w <> None <-> P w) -> Answers vok s P.
Proof.
  intros Hs HP. split.
  - intros v Hv. rewrite (s_has_ok (vok := vok)) by auto. eexists. split; [reflexivity|].
    rewrite <- HP by auto. destruct (lookup (sel s) v); simpl; split; congruence.
  - exists (sel s). split; [apply (s_elements_ok (vok := vok)); auto|].
    split; [|apply (s_count_ok (vok := vok)); auto].
    apply Lists_lookup; auto. { apply sok_allok; auto. } { eapply sok_distinct; eauto. }
Qed.

Lemma holds_has s e : sok vok s -> Holds s e -> Has s e.
Proof.
  intros Hs He. pose proof (holds_ok s e Hs He) as Hv. apply has_lookup; auto. apply holds_lookup in He; congruence.
Qed.

Ltac reach := repeat match goal with H : SetReach _ _ |- _ => apply sreach_ok in H end.

(** ** C01 *)

Lemma c01_has s v : SetReach vok s -> vok v ->
  exists b, s_has s v = Ok b /\ (b = true <-> exists e, Holds s e /\ veq e v = true).
Proof.
  intros Hs Hv. reach. rewrite (s_has_ok (vok := vok)) by auto. eexists. split; [reflexivity|].
  transitivity (lookup (sel s) v <> None).
  - destruct (lookup (sel s) v); simpl; split; congruence.
  - rewrite lookup_not_None. split; intros (e & He & Hq); exists e; split; auto; apply holds_In; auto.
Qed.

Lemma c01_with s v : SetReach vok s -> vok v ->
  exists r, s_with s v = Ok r /\
    Answers vok r (fun w => veq v w = true \/ Has s w) /\
    (forall e, Holds r e <-> e = v \/ Holds s e /\ veq v e = false).
Proof.
  intros Hs Hv. reach. destruct (s_with_ok (vok := vok) s v) as (r & E1 & Hr & Hl & _); auto.
  exists r. split; auto. split.
  - apply answers_lookup; auto. intros w Hw. rewrite Hl, has_lookup by auto.
    destruct (veq v w); split; try tauto; try congruence. intros [H|H]; congruence.
  - intros e. split.
    + intros He. pose proof (holds_ok r e Hr He) as Ho. apply holds_lookup in He; auto. rewrite Hl in He by auto.
      destruct (veq v e) eqn:Eq; [left; congruence|]. right. split; auto. apply holds_lookup; auto.
    + intros [->|[He Eq]].
      * apply holds_lookup; auto. rewrite Hl, (veq_refl (vok := vok)) by auto. auto.
      * pose proof (holds_ok s e Hs He) as Ho. apply holds_lookup; auto. rewrite Hl, Eq by auto. apply holds_lookup; auto.
Qed.

Lemma c01_without s v : SetReach vok s -> vok v ->
  exists r, s_without s v = Ok r /\
    Answers vok r (fun w => veq v w = false /\ Has s w) /\
    (forall e, Holds r e <-> Holds s e /\ veq v e = false).
Proof.
  intros Hs Hv. reach. destruct (s_without_ok (vok := vok) s v) as (r & E1 & Hr & Hl & _); auto.
  exists r. split; auto. split.
  - apply answers_lookup; auto. intros w Hw. rewrite Hl, has_lookup by auto.
    destruct (veq v w); split; try tauto; try congruence. intros [H1 H2]; congruence.
  - intros e. split.
    + intros He. pose proof (holds_ok r e Hr He) as Ho. apply holds_lookup in He; auto. rewrite Hl in He by auto.
      destruct (veq v e) eqn:Eq; [congruence|]. split; auto. apply holds_lookup; auto.
    + intros [He Eq]. pose proof (holds_ok s e Hs He) as Ho. apply holds_lookup; auto. rewrite Hl, Eq by auto. apply holds_lookup; auto.
Qed.

(** ** C02, C19 *)

Lemma lastBits_low : lastBits = lowBits.
Proof. Local Transparent maxTreeDepth fb. unfold lastBits, lowBits, maxTreeDepth, fb. destruct env_build; reflexivity. Qed.
Local Opaque maxTreeDepth fb.

Lemma Overfull_overfull l1 l2 : Overfull l1 l2 <-> overfull l1 l2.
Proof. unfold Overfull, overfull, number. rewrite lastBits_low. reflexivity. Qed.

Lemma sclash_Overfull s t : sok vok s -> sok vok t -> sclash s t <-> Overfull (sel s) (sel t).
Proof. intros Hs Ht. rewrite Overfull_overfull. apply (tclash_overfull (vok := vok)); auto. Qed.

Lemma c02_union s t r : SetReach vok s -> SetReach vok t -> s_union s t = Ok r ->
  Answers vok r (fun w => Has s w \/ Has t w) /\
  (forall e, Holds r e <-> Holds t e \/ Holds s e /\ ~ Has t e).
Proof.
  intros Hs Ht H1. reach. destruct (s_union_ok (vok := vok) s t) as [[_ E1]|(_ & r' & E1 & Hr & Hl)]; auto; [congruence|].
  assert (r' = r) as -> by congruence. split.
  - apply answers_lookup; auto. intros w Hw. rewrite Hl, !has_lookup by auto.
    destruct (lookup (sel t) w); [|tauto]. split; [|congruence]. right. congruence.
  - intros e. split.
    + intros He. pose proof (holds_ok r e Hr He) as Ho. apply holds_lookup in He; auto. rewrite Hl in He by auto.
      rewrite has_lookup, !holds_lookup by auto. destruct (lookup (sel t) e); auto.
    + intros He. assert (Ho : vok e) by (destruct He as [He|[He _]]; (eapply holds_ok; [|exact He]; auto)).
      rewrite holds_lookup, Hl by auto. rewrite has_lookup, !holds_lookup in He by auto.
      destruct (lookup (sel t) e); destruct He as [He|[He Hn]]; try congruence. exfalso. apply Hn. congruence.
Qed.

Lemma c02_intersection s t : SetReach vok s -> SetReach vok t ->
  exists r, s_intersection s t = Ok r /\
    Answers vok r (fun w => Has s w /\ Has t w) /\
    (forall e, Holds r e -> Holds s e \/ Holds t e).
Proof.
  intros Hs Ht. reach. destruct (s_intersection_ok (vok := vok) s t) as (r & E1 & Hr & Hl); auto.
  exists r. split; auto. split.
  - apply answers_lookup; auto. intros w Hw. rewrite !has_lookup by auto. specialize (Hl w Hw). unfold isect in Hl.
    destruct (lookup (sel s) w), (lookup (sel t) w); try destruct Hl as [Hl|Hl]; rewrite Hl; split; try congruence; tauto || (split; congruence).
  - intros e He. pose proof (holds_ok r e Hr He) as Ho. rewrite holds_lookup in He by auto. specialize (Hl e Ho).
    rewrite !holds_lookup by auto. unfold isect in Hl. rewrite He in Hl.
    destruct (lookup (sel s) e), (lookup (sel t) e); try discriminate; intuition congruence.
Qed.

Lemma c02_difference s t : SetReach vok s -> SetReach vok t ->
  exists r, s_difference s t = Ok r /\
    Answers vok r (fun w => Has s w /\ ~ Has t w) /\
    (forall e, Holds r e <-> Holds s e /\ ~ Has t e).
Proof.
  intros Hs Ht. reach. destruct (s_difference_ok (vok := vok) s t) as (r & E1 & Hr & Hl); auto.
  exists r. split; auto. split.
  - apply answers_lookup; auto. intros w Hw. rewrite Hl, !has_lookup by auto.
    destruct (lookup (sel t) w); split; try tauto; try congruence. intros [_ H]. exfalso. apply H. congruence.
  - intros e. split.
    + intros He. pose proof (holds_ok r e Hr He) as Ho. rewrite holds_lookup, Hl in He by auto.
      rewrite has_lookup, holds_lookup by auto. destruct (lookup (sel t) e); [congruence|]. auto.
    + intros [He Hn]. pose proof (holds_ok s e Hs He) as Ho. rewrite holds_lookup, Hl by auto.
      rewrite has_lookup in Hn by auto. rewrite holds_lookup in He by auto. destruct (lookup (sel t) e); auto.
      exfalso. apply Hn. congruence.
Qed.

Lemma c02_symmetricDifference s t r : SetReach vok s -> SetReach vok t -> s_symmetricDifference s t = Ok r ->
  Answers vok r (fun w => Has s w /\ ~ Has t w \/ Has t w /\ ~ Has s w) /\
  (forall e, Holds r e <-> Holds s e /\ ~ Has t e \/ Holds t e /\ ~ Has s e).
Proof.
  intros Hs Ht H1. reach. destruct (s_symmetricDifference_ok (vok := vok) s t) as (a & b & _ & _ & _ & _ & HH); auto.
  destruct HH as [[_ E1]|(_ & r' & E1 & Hr & Hl)]; [congruence|].
  assert (r' = r) as -> by congruence. clear E1. split.
  - apply answers_lookup; auto. intros w Hw. rewrite Hl, !has_lookup by auto.
    assert (Hsome : forall x : T, Some x <> None) by congruence.
    destruct (lookup (sel s) w) as [x|], (lookup (sel t) w) as [y|]; try pose proof (Hsome x); try pose proof (Hsome y); tauto.
  - intros e.
    assert (HH : vok e -> Holds r e <-> Holds s e /\ ~ Has t e \/ Holds t e /\ ~ Has s e).
    { intros Ho. rewrite !has_lookup, !holds_lookup, Hl by auto.
      assert (Hsome : forall x : T, Some x <> None) by congruence.
      destruct (lookup (sel s) e) as [x|], (lookup (sel t) e) as [y|]; try pose proof (Hsome x); try pose proof (Hsome y); 
        intuition congruence. }
    split; intros He; apply HH; auto.
    + eapply holds_ok; [|exact He]; auto.
    + destruct He as [[He _]|[He _]]; (eapply holds_ok; [|exact He]; auto).
Qed.

Lemma c19_union_exact s t ls lt : SetReach vok s -> SetReach vok t -> s_elements s = Ok ls -> s_elements t = Ok lt ->
  (Overfull ls lt /\ s_union s t = Panic) \/ (~ Overfull ls lt /\ exists r, s_union s t = Ok r).
Proof.
  intros Hs Ht Els Elt. reach. rewrite (s_elements_ok (vok := vok)) in Els, Elt by auto.
  injection Els as <-. injection Elt as <-. rewrite <- sclash_Overfull by auto.
  destruct (s_union_ok (vok := vok) s t) as [[H1 H2]|(H1 & r & H2 & _)]; eauto.
Qed.

Lemma c19_no_triples s t ls lt : SetReach vok s -> SetReach vok t -> s_elements s = Ok ls -> s_elements t = Ok lt ->
  (forall h, number (fun e => N.eqb (vhash e 0) h) ls <= 2) ->
  (forall h, number (fun e => N.eqb (vhash e 0) h) lt <= 2) ->
  exists r, s_union s t = Ok r.
Proof.
  intros Hs Ht Els Elt H1 H2. destruct (c19_union_exact s t ls lt) as [[HO _]|[_ H]]; auto.
  apply Overfull_overfull in HO. exfalso. revert HO. apply not_overfull; auto.
Qed.

Lemma c19_triples s t ls lt h : SetReach vok s -> SetReach vok t -> s_elements s = Ok ls -> s_elements t = Ok lt ->
  3 <= number (fun e => N.eqb (vhash e 0) h) ls ->
  3 <= number (fun e => N.eqb (vhash e 0) h) lt ->
  s_union s t = Panic.
Proof.
  intros Hs Ht Els Elt H1 H2. destruct (c19_union_exact s t ls lt) as [[_ H]|[HO _]]; auto.
  exfalso. apply HO. apply Overfull_overfull. apply (is_overfull _ _ h); auto.
Qed.

(** ** C03, C04 *)

Lemma c03_count s : SetReach vok s ->
  Answers vok s (Has s) /\
  (s_isEmpty s = true <-> forall v, vok v -> ~ Has s v) /\
  (s_isEmpty s = true <-> s_count s = 0%Z).
Proof.
  intros Hs. reach. split; [|split].
  - apply answers_lookup; auto. intros w Hw. rewrite has_lookup by auto. tauto.
  - rewrite (s_isEmpty_ok (vok := vok)) by auto. destruct (sel s) as [|e l] eqn:El.
    + split; auto. intros _ v Hv. rewrite has_lookup, El by auto. simpl. congruence.
    + split; [congruence|]. intros H. exfalso.
      assert (He : Holds s e) by (apply holds_In; auto; rewrite El; left; auto).
      apply (H e); [eapply holds_ok; eauto|]. apply holds_has; auto.
  - unfold s_isEmpty, s_count. apply Z.eqb_eq.
Qed.

Lemma c04_range s : SetReach vok s ->
  exists l, Yields (s_range s) l /\ s_elements s = Ok l /\ Lists vok l (Has s).
Proof.
  intros Hs. reach. exists (sel s).
  assert (HY : forall l it, iok (vok := vok) 0 it -> remaining it = l -> Yields it l).
  { induction l as [|x l IH]; intros it Hi Hr.
    - apply yields_end. intros n. revert it Hi Hr. induction n as [|n IHn]; intros it Hi Hr; simpl; auto.
      destruct (i_next_ok (vok := vok) it Hi) as (b & it' & E1 & Hi' & H2). rewrite Hr in H2. destruct H2 as [-> H2].
      exists it'. auto.
    - destruct (i_next_ok (vok := vok) it Hi) as (b & it' & E1 & Hi' & H2). rewrite Hr in H2. destruct H2 as (-> & H2 & H3).
      apply (yields_step it it'); auto. }
  destruct (range_iok (vok := vok) s Hs) as [H1 H2].
  split; [apply HY; auto|]. split; [apply (s_elements_ok (vok := vok)); auto|].
  apply Lists_lookup; [apply sok_allok; auto|eapply sok_distinct; eauto|].
  intros w Hw. rewrite has_lookup by auto. tauto.
Qed.

(** ** C05, C06, C07 *)

Lemma seqv_SameMembers s t : sok vok s -> sok vok t -> seqv vok s t <-> SameMembers vok s t.
Proof. intros Hs Ht. split; intros H w Hw; specialize (H w Hw); rewrite !has_lookup in *; auto. Qed.

Lemma c05_equal s t : SetReach vok s -> SetReach vok t ->
  exists b, s_equal s t = Ok b /\ (b = true <-> SameMembers vok s t).
Proof.
  intros Hs Ht. reach. destruct (s_equal_ok (vok := vok) s t) as (b & E1 & Hb); auto. exists b. split; auto.
  rewrite Hb. apply seqv_SameMembers; auto.
Qed.

Lemma c05_equivalence s t u : SetReach vok s -> SetReach vok t -> SetReach vok u ->
  s_equal s s = Ok true /\ s_equal s t = s_equal t s /\
  (s_equal s t = Ok true -> s_equal t u = Ok true -> s_equal s u = Ok true) /\
  s_same s (Some t) = s_equal s t /\ s_same s None = Ok false.
Proof.
  intros Hs Ht Hu.
  assert (HQ : forall a b, SetReach vok a -> SetReach vok b -> s_equal a b = Ok true <-> SameMembers vok a b).
  { intros a b Ha Hb. destruct (c05_equal a b Ha Hb) as (x & -> & Hx). rewrite <- Hx. split; congruence. }
  split; [apply HQ; auto; intros v _; tauto|]. split; [|split; auto].
  - destruct (c05_equal s t Hs Ht) as (x & -> & Hx), (c05_equal t s Ht Hs) as (y & -> & Hy). f_equal.
    apply eq_true_iff_eq. rewrite Hx, Hy. split; intros H v Hv; specialize (H v Hv); tauto.
  - intros H1 H2. apply HQ in H1, H2; auto. apply HQ; auto. intros v Hv. rewrite (H1 v Hv). auto.
Qed.

Lemma c06_isSubsetOf s t : SetReach vok s -> SetReach vok t ->
  exists b, s_isSubsetOf s t = Ok b /\ (b = true <-> forall v, vok v -> Has s v -> Has t v).
Proof.
  intros Hs Ht. reach. destruct (s_isSubsetOf_ok (vok := vok) s t) as (b & E1 & Hb); auto. exists b. split; auto.
  rewrite Hb. split.
  - intros H v Hv Hh. rewrite has_lookup in * by auto. apply lookup_not_None in Hh as (e & He & Hq).
    pose proof (H e He) as Hn. apply lookup_not_None in Hn as (f & Hf & Hqf). apply lookup_not_None. exists f. split; auto.
    eapply (veq_trans (vok := vok)); [| | |exact Hqf|exact Hq]; auto; [exact (sok_allok t Ht f Hf)|exact (sok_allok s Hs e He)].
  - intros H e He. pose proof (sok_allok s Hs e He) as Ho. apply has_lookup; auto. apply H; auto.
    apply holds_has; auto. apply holds_In; auto.
Qed.

Lemma c07_hash s t seed : SetReach vok s -> SetReach vok t -> s_equal s t = Ok true ->
  exists h, s_hash s seed = Ok h /\ s_hash t seed = Ok h /\ (h < 2 ^ 64)%N.
Proof.
  intros Hs Ht H1. reach. destruct (s_equal_ok (vok := vok) s t) as (b & E1 & Hb); auto.
  assert (b = true) as -> by congruence. exists (hashOf seed (sel s)).
  split; [apply (s_hash_ok (vok := vok)); auto|]. split; [|apply (hashOf_lt (vok := vok)); apply sok_allok; auto].
  rewrite (s_hash_ok (vok := vok)) by auto. f_equal. symmetry. apply (hashOf_seqv (vok := vok)); auto. apply Hb; auto.
Qed.

Lemma c07_lawful : KeyOk (@setKey E T K) (SetReach vok).
Proof.
  destruct (setKeyOk (vok := vok)) as [H1 H2 H3 H4 H5].
  constructor; intros; reach; eauto.
Qed.

(** ** C08, C09, C10 *)

Lemma c08_where s pred : SetReach vok s ->
  exists r l, s_where s pred = Ok r /\ s_elements s = Ok l /\ s_elements r = Ok (filter pred l) /\
    Answers vok r (fun w => exists e, Holds s e /\ veq e w = true /\ pred e = true) /\
    (forall e, Holds r e <-> Holds s e /\ pred e = true).
Proof.
  intros Hs. reach. destruct (s_where_ok (vok := vok) s pred) as (r & E1 & Hr & Hl); auto.
  exists r, (sel s). split; auto. split; [apply (s_elements_ok (vok := vok)); auto|].
  split; [rewrite (s_elements_ok (vok := vok)), Hl by auto; auto|].
  assert (HH : forall e, Holds r e <-> Holds s e /\ pred e = true).
  { intros e. rewrite !holds_In, Hl, filter_In by auto. tauto. }
  split; auto. apply answers_lookup; auto. intros w Hw. rewrite lookup_not_None. split.
  - intros (e & He & Hq). exists e. apply holds_In in He; auto. apply HH in He. tauto.
  - intros (e & He & Hq & Hp). exists e. split; auto. apply holds_In; auto. apply HH; auto.
Qed.

(** Equal answers need a predicate that respects equality; then [Where] is comprehension. *)
Lemma c08_comprehension s pred : SetReach vok s ->
  (forall a b, vok a -> vok b -> veq a b = true -> pred a = pred b) ->
  exists r, s_where s pred = Ok r /\ Answers vok r (fun w => Has s w /\ pred w = true).
Proof.
  intros Hs Hp. pose proof (sreach_ok s Hs) as Ho. destruct (c08_where s pred Hs) as (r & l & E1 & _ & _ & [A1 A2] & _).
  assert (HP : forall w, vok w -> (exists e, Holds s e /\ veq e w = true /\ pred e = true) <-> Has s w /\ pred w = true).
  { intros w Hw. rewrite has_lookup, lookup_not_None by auto. split.
    - intros (e & He & Hq & Hpe). pose proof (holds_ok s e Ho He). split.
      + exists e. split; auto. apply holds_In; auto.
      + rewrite <- (Hp e w); auto.
    - intros [(e & He & Hq) Hpw]. exists e. apply holds_In in He; auto. pose proof (holds_ok s e Ho He).
      split; auto. split; auto. rewrite (Hp e w); auto. }
  exists r. split; auto. split.
  - intros v Hv. destruct (A1 v Hv) as (x & Hx & Hi). exists x. split; auto. rewrite <- HP; auto.
  - destruct A2 as (lr & E2 & (L1 & L2 & L3) & Hc). exists lr. split; auto. split; auto. split; auto. split; auto.
    intros v Hv. rewrite <- HP by auto. auto.
Qed.

Lemma c10_reduce s (r : list T -> T) l : SetReach vok s -> s_elements s = Ok l ->
  (forall ls, ls <> [] -> (forall l', In l' ls -> l' <> []) -> r (map r ls) = r (concat ls)) ->
  s_reduce s r = Ok (match l with [] => None | _ => Some (r l) end).
Proof.
  intros Hs El Hr. reach. rewrite (s_elements_ok (vok := vok)) in El by auto. injection El as <-.
  rewrite (s_reduce_assoc (vok := vok)) by auto. destruct (sel s); reflexivity.
Qed.

Lemma c10_any_order s (r : list T -> T) l : SetReach vok s ->
  (exists l0, s_elements s = Ok l0 /\ Permutation l l0) ->
  (forall ls, ls <> [] -> (forall l', In l' ls -> l' <> []) -> r (map r ls) = r (concat ls)) ->
  (forall l1 l2, Permutation l1 l2 -> r l1 = r l2) ->
  s_reduce s r = Ok (match l with [] => None | _ => Some (r l) end).
Proof.
  intros Hs (l0 & El & HP) Hr Hc. rewrite (c10_reduce s r l0) by auto. f_equal.
  destruct l as [|a l].
  - apply Permutation_nil in HP. subst l0. auto.
  - destruct l0 as [|b l0]; [apply Permutation_sym, Permutation_nil in HP; discriminate|].
    rewrite (Hc _ _ HP). auto.
Qed.

Lemma c10_never_empty s (r r' : list T -> T) : SetReach vok s ->
  (forall l, l <> [] -> r l = r' l) -> s_reduce s r = s_reduce s r'.
Proof. intros Hs H. reach. apply (s_reduce_ext (vok := vok)); auto. Qed.

Lemma fold_assoc (op : T -> T -> T) : (forall a b c, op (op a b) c = op a (op b c)) ->
  forall l a b, op a (fold_left op l b) = fold_left op l (op a b).
Proof.
  intros Ha. induction l as [|x l IH]; intros a b; simpl; auto. rewrite IH, Ha. auto.
Qed.

Lemma reducer2_assoc dflt (op : T -> T -> T) : (forall a b c, op (op a b) c = op a (op b c)) ->
  forall ls, ls <> [] -> (forall l', In l' ls -> l' <> []) ->
  reducer2 dflt op (map (reducer2 dflt op) ls) = reducer2 dflt op (concat ls).
Proof.
  intros Ha ls. destruct ls as [|l0 ls]; [congruence|]. intros _ Hn.
  destruct l0 as [|x l0]; [exfalso; apply (Hn []); simpl; auto|].
  assert (Hls : forall l', In l' ls -> l' <> []) by (intros; apply Hn; right; auto). clear Hn.
  cbn [map concat app reducer2]. rewrite fold_left_app. revert x l0. induction ls as [|l1 ls IH]; intros x l0; simpl; auto.
  destruct l1 as [|y l1]; [exfalso; apply (Hls []); simpl; auto|].
  assert (Hls' : forall l', In l' ls -> l' <> []) by (intros; apply Hls; right; auto).
  specialize (IH Hls'). cbn [reducer2 app fold_left]. rewrite fold_left_app.
  rewrite fold_assoc by auto. exact (IH (op (fold_left op l0 x) y) l1).
Qed.

Lemma fold_comm_perm (op : T -> T -> T) : (forall a b c, op (op a b) c = op a (op b c)) ->
  (forall a b, op a b = op b a) -> forall l1 l2, Permutation l1 l2 -> forall a, fold_left op l1 a = fold_left op l2 a.
Proof.
  intros Ha Hc l1 l2 HP. induction HP as [|x l l' HP IH|x y l|l l' l'' HP1 IH1 HP2 IH2]; intros a; simpl; auto.
  - f_equal. rewrite !Ha. f_equal. apply Hc.
  - rewrite IH1. apply IH2.
Qed.

Lemma fold_hd_perm (op : T -> T -> T) : (forall a b c, op (op a b) c = op a (op b c)) ->
  (forall a b, op a b = op b a) -> forall a b l1 l2, Permutation (a :: l1) (b :: l2) -> fold_left op l1 a = fold_left op l2 b.
Proof.
  intros Ha Hc a b l1 l2 HP.
  destruct (Permutation_vs_cons_inv HP) as (p & q & Hpq).
  destruct p as [|x p].
  - simpl in Hpq. injection Hpq as <- <-. apply Permutation_cons_inv in HP. apply fold_comm_perm; auto.
  - simpl in Hpq. injection Hpq as <- ->.
    assert (HP2 : Permutation (a :: p ++ q) l2).
    { apply Permutation_cons_inv with (a := b). rewrite <- HP. rewrite perm_swap. constructor. apply Permutation_middle. }
    rewrite <- (fold_comm_perm op Ha Hc _ _ HP2 b). simpl.
    rewrite !fold_left_app. simpl.
    replace (op (fold_left op p a) b) with (fold_left op p (op b a)); auto. rewrite <- fold_assoc by auto. apply Hc.
Qed.

Lemma c10_reduce2 dflt s (op : T -> T -> T) l : SetReach vok s ->
  (exists l0, s_elements s = Ok l0 /\ Permutation l l0) ->
  (forall a b c, op (op a b) c = op a (op b c)) -> (forall a b, op a b = op b a) ->
  s_reduce2 dflt s op = Ok (match l with [] => None | a :: l' => Some (fold_left op l' a) end).
Proof.
  intros Hs (l0 & El & HP) Ha Hc. unfold s_reduce2. rewrite (c10_reduce s _ l0) by (auto using reducer2_assoc). f_equal.
  destruct l as [|a l].
  - apply Permutation_nil in HP. subst l0. auto.
  - destruct l0 as [|b l0]; [apply Permutation_sym, Permutation_nil in HP; discriminate|].
    cbn [reducer2]. f_equal. symmetry. apply fold_hd_perm; auto.
Qed.

(** ** C11 *)

Lemma c11_powerset s : SetReach vok s -> (s_count s <= 63)%Z ->
  exists r : set (set T), s_powerset s = Ok r /\ s_count r = (2 ^ s_count s)%Z /\
    (forall u, SetReach vok u -> exists b, s_has r u = Ok b /\ (b = true <-> forall v, vok v -> Has u v -> Has s v)) /\
    (forall u, Holds r u -> SetReach vok u).
Proof.
  intros Hs Hc. pose proof (sreach_ok s Hs) as Ho. destruct (s_powerset_ok (vok := vok) s) as (r & E1 & Hr & Hn & Hl); auto.
  exists r. split; auto. split; auto. split.
  - intros u Hu. pose proof (sreach_ok u Hu) as Hou. rewrite (s_has_ok (vok := sok vok)) by auto. eexists. split; [reflexivity|].
    transitivity (lookup (sel r) u <> None).
    { destruct (lookup (sel r) u); simpl; split; congruence. }
    rewrite Hl by auto. split; intros H v Hv; specialize (H v Hv); rewrite !has_lookup in *; auto.
  - intros u (lr & Er & Hu). eapply sr_element; eauto. eapply sr_powerset; eauto.
Qed.

Lemma c11_big s : (63 < s_count s)%Z -> s_powerset s = Panic.
Proof. apply s_powerset_big. Qed.

(** ** C13 *)

Lemma c13_orderedElements s less : SetReach vok s -> StrictWeak vok less ->
  exists l l0, s_elements s = Ok l0 /\ s_orderedElements less s = Ok l /\ Permutation l l0 /\
    StronglySorted (fun a b => less b a = false) l.
Proof.
  intros Hs SW. reach. destruct (s_orderedElements_ok (vok := vok) less SW s) as (l & E1 & HP & HO); auto.
  exists l, (sel s). split; auto. apply (s_elements_ok (vok := vok)); auto.
Qed.

Lemma c13_orderedFirstN s less n : SetReach vok s -> StrictWeak vok less -> (0 <= n)%Z ->
  exists l rest l0, s_elements s = Ok l0 /\ s_orderedFirstN n less s = Ok l /\ Permutation (l ++ rest) l0 /\
    StronglySorted (fun a b => less b a = false) l /\
    Z.of_nat (length l) = Z.min n (s_count s) /\
    (forall x y, In x rest -> In y l -> less x y = false) /\
    exists r, s_firstN n less s = Ok r /\ s_count r = Z.of_nat (length l) /\ (forall e, Holds r e <-> In e l).
Proof.
  intros Hs SW Hn. reach. destruct (s_firstN_ok (vok := vok) less SW s n) as (l & d & r & E1 & E2 & Hr & HP1 & HP & Hd & HO & Hc); auto.
  exists l, d, (sel s). split; [apply (s_elements_ok (vok := vok)); auto|]. split; auto. split; auto. split; auto.
  assert (HL : Z.of_nat (length l) = Z.min n (s_count s)).
  { rewrite <- Hc, (s_count_ok (vok := vok) r) by auto. f_equal. symmetry. apply Permutation_length; auto. }
  split; auto. split; auto. exists r. split; auto. split; [lia|].
  intros e. rewrite holds_In by auto. split; intros He.
  - apply (Permutation_in e HP1); auto.
  - apply (Permutation_in e (Permutation_sym HP1)); auto.
Qed.

Lemma c13_first s less : SetReach vok s -> StrictWeak vok less ->
  (s_count s = 0%Z -> s_first less s = Panic) /\
  (s_count s <> 0%Z -> exists x, s_first less s = Ok x /\ Holds s x /\ forall e, Holds s e -> less e x = false).
Proof.
  intros Hs SW. reach. pose proof (s_first_ok (vok := vok) less SW s Hs) as H.
  rewrite (s_count_ok (vok := vok)) by auto. destruct (sel s) as [|a l] eqn:El.
  - split; auto. simpl. congruence.
  - split; [simpl length; lia|]. intros _. destruct H as (x & E1 & Hx & Hm). exists x. split; auto.
    split; [apply holds_In; auto; rewrite El; auto|]. intros e He. apply Hm. apply holds_In in He; auto. congruence.
Qed.

Lemma c13_negative s less n : (n < 0)%Z -> s_orderedFirstN n less s = Panic /\ s_firstN n less s = Panic.
Proof. intros H. pose proof (s_orderedFirstN_neg less s n H) as H1. split; auto. unfold s_firstN. rewrite H1. auto. Qed.

(** ** C14 *)

Lemma c14_any s : SetReach vok s ->
  (s_count s = 0%Z -> s_any s = Panic) /\ (s_count s <> 0%Z -> exists e, s_any s = Ok e /\ Holds s e).
Proof.
  intros Hs. reach. rewrite (s_any_ok (vok := vok)), (s_count_ok (vok := vok)) by auto.
  destruct (sel s) as [|a l] eqn:El; simpl length; split; try congruence; try lia.
  intros _. exists a. split; auto. apply holds_In; auto. rewrite El. left; auto.
Qed.

Lemma c14_anyN s n : SetReach vok s ->
  exists r, s_anyN s n = Ok r /\ s_count r = Z.max 0 (Z.min n (s_count s)) /\ (forall e, Holds r e -> Holds s e).
Proof.
  intros Hs. reach. pose proof (s_count_ok (vok := vok) s Hs) as Hc.
  destruct (s_anyN_ok (vok := vok) s n) as [[Hn E1]|(Hn & r & E1 & Hr & Hl)]; auto.
  - exists s. split; auto. split; [lia|]. auto.
  - exists r. split; auto.
    assert (Hsub : forall e, In e (firstn (Z.to_nat n) (sel s)) -> In e (sel s)).
    { intros e He. rewrite <- (firstn_skipn (Z.to_nat n) (sel s)). apply in_or_app; auto. }
    assert (Hao : allok vok (firstn (Z.to_nat n) (sel s))) by (intros e He; apply (sok_allok s Hs); auto).
    assert (Hdi : distinct (firstn (Z.to_nat n) (sel s))).
    { pose proof (sok_distinct s Hs) as Hd. generalize (Z.to_nat n) as k. clear - Hd.
      induction Hd as [|a l Ha Hd IH]; intros [|k]; simpl; constructor; auto.
      intros b Hb. apply Ha. rewrite <- (firstn_skipn k l). apply in_or_app; auto. }
    assert (HP : Permutation (sel r) (firstn (Z.to_nat n) (sel s))).
    { apply (lookup_perm (vok := vok)); auto. { eapply sok_distinct; eauto. } { apply sok_allok; auto. } }
    split.
    + rewrite (s_count_ok (vok := vok)) by auto. rewrite (Permutation_length HP), firstn_length. lia.
    + intros e He. rewrite !holds_In in * by auto. apply Hsub. apply (Permutation_in e HP); auto.
Qed.

(** ** C15 *)

Lemma unionN_fold ss : forall s r, sok vok s -> (forall t, In t ss -> sok vok t) -> foldM s_union s ss = Ok r ->
  sok vok r /\ forall w, vok w -> lookup (sel r) w <> None <->
    lookup (sel s) w <> None \/ exists t, In t ss /\ lookup (sel t) w <> None.
Proof.
  induction ss as [|t ss IH]; intros s r Hs Hss H; cbn [foldM] in H.
  - injection H as <-. split; auto. intros w Hw. split; auto. intros [H|(t & [] & _)]; auto.
  - destruct (s_union_ok (vok := vok) s t) as [[_ E1]|(_ & a & E1 & Ha & Hl)]; auto; try (apply Hss; left; auto).
    { rewrite E1 in H. discriminate. }
    rewrite E1 in H. cbn [bind] in H. destruct (IH a r) as [Hr HR]; auto. { intros; apply Hss; right; auto. }
    split; auto. intros w Hw. rewrite HR, Hl by auto. split.
    + intros [H1|(u & Hu & H1)].
      * destruct (lookup (sel t) w) eqn:Et; auto. right. exists t. split; [left; auto|congruence].
      * right. exists u. split; [right; auto|auto].
    + intros [H1|(u & [<-|Hu] & H1)].
      * left. destruct (lookup (sel t) w); auto. congruence.
      * left. destruct (lookup (sel t) w); congruence.
      * right. exists u; auto.
Qed.

Lemma unionN_total ss : forall s, sok vok s -> (forall t, In t ss -> sok vok t) ->
  foldM s_union s ss = Panic \/ exists r, foldM s_union s ss = Ok r.
Proof.
  induction ss as [|t ss IH]; intros s Hs Hss; cbn [foldM]; eauto.
  destruct (s_union_ok (vok := vok) s t) as [[_ E1]|(_ & a & E1 & Ha & Hl)]; auto; try (apply Hss; left; auto).
  - left. rewrite E1. auto.
  - rewrite E1. cbn [bind]. apply IH; auto. intros; apply Hss; right; auto.
Qed.

Lemma c15_unionN ss r : (forall s, In s ss -> SetReach vok s) -> s_unionN ss = Ok r ->
  Answers vok r (fun w => exists s, In s ss /\ Has s w).
Proof.
  intros Hss H. assert (Hok : forall s, In s ss -> sok vok s) by (intros; apply sreach_ok; auto).
  destruct (unionN_fold ss s_empty r) as [Hr HR]; auto using sok_empty.
  apply answers_lookup; auto. intros w Hw. rewrite HR by auto. rewrite sel_empty. split.
  - intros [H1|(t & Ht & H1)]; [simpl in H1; congruence|]. exists t. split; auto. apply has_lookup; auto.
  - intros (t & Ht & H1). right. exists t. split; auto. apply has_lookup in H1; auto.
Qed.

Lemma c15_unionN_total ss : (forall s, In s ss -> SetReach vok s) ->
  s_unionN ss = Panic \/ exists r, s_unionN ss = Ok r.
Proof. intros Hss. apply unionN_total; auto using sok_empty. intros. apply sreach_ok; auto. Qed.

(** No hash is shared by three values of all the operands together: no panic. *)
Lemma c15_unionN_returns ss all : (forall s, In s ss -> SetReach vok s) ->
  (forall e, In e all <-> exists s, In s ss /\ Holds s e) ->
  (forall h l, NoDup l -> (forall e, In e l -> In e all /\ vhash e 0 = h) -> length l <= 2) ->
  exists r, s_unionN ss = Ok r.
Proof.
  intros Hss Hall Hh.
  assert (HG : forall us s, sok vok s -> (forall t, In t us -> sok vok t) ->
    (forall e, In e (sel s) -> In e all) -> (forall t e, In t us -> In e (sel t) -> In e all) ->
    exists r, foldM s_union s us = Ok r).
  { induction us as [|t us IH]; intros s Hs Hus Hsa Hta; cbn [foldM]; eauto.
    assert (Hct : sok vok t) by (apply Hus; left; auto).
    assert (Hsmall : forall u, sok vok u -> (forall e, In e (sel u) -> In e all) ->
       forall h, length (filter (fun e => N.eqb (vhash e 0) h) (sel u)) <= 2).
    { intros u Hu Hua h. apply (Hh h).
      - apply NoDup_filter. pose proof (sok_distinct u Hu) as Hd. pose proof (sok_allok u Hu) as Ho. clear Hua.
        induction Hd as [|a l Ha Hd IHd]; constructor.
        + intros Hin. pose proof (Ha a Hin). rewrite (veq_refl (vok := vok)) in * by (apply Ho; left; auto). congruence.
        + apply IHd. intros e He. apply Ho; right; auto.
      - intros e He. apply filter_In in He as [He Hq]. apply N.eqb_eq in Hq. auto. }
    destruct (s_union_ok (vok := vok) s t) as [[HC _]|(_ & a & E1 & Ha & Hl)]; auto.
    { exfalso. apply sclash_Overfull in HC; auto. apply Overfull_overfull in HC. revert HC.
      apply not_overfull; apply Hsmall; auto. intros e He. apply (Hta t e); auto. left; auto. }
    rewrite E1. cbn [bind]. apply IH; auto.
    - intros; apply Hus; right; auto.
    - intros e He. assert (Hoe : vok e) by (apply (sok_allok a Ha); auto).
      apply (In_lookup (vok := vok)) in He; auto; [|apply (sok_distinct a Ha)|apply sok_allok; auto].
      rewrite Hl in He by auto. destruct (lookup (sel t) e) as [x|] eqn:Et.
      + injection He as ->. apply lookup_Some in Et as [Hx _]. apply (Hta t e); auto. left; auto.
      + apply lookup_Some in He as [Hx _]. apply Hsa; auto.
    - intros u e Hu He. apply (Hta u e); auto. right; auto. }
  apply HG; auto using sok_empty.
  - intros t Ht. apply sreach_ok; auto.
  - intros e [].
  - intros t e Ht He. apply Hall. exists t. split; auto. apply holds_In; auto. apply sreach_ok; auto.
Qed.

Lemma c15_intersectionN s ss : SetReach vok s -> (forall t, In t ss -> SetReach vok t) ->
  exists r, s_intersectionN (s :: ss) = Ok r /\
    Answers vok r (fun w => Has s w /\ forall t, In t ss -> Has t w).
Proof.
  intros Hs Hss. reach. assert (Hok : forall t, In t ss -> sok vok t) by (intros; apply sreach_ok; auto).
  destruct (s_intersectionN_ok (vok := vok) (s :: ss) s) as (r & E1 & Hr & HR); auto.
  { intros t [<-|Ht]; auto. }
  exists r. split; auto. apply answers_lookup; auto. intros w Hw. rewrite HR, has_lookup by auto. split.
  - intros [H1 H2]. split; auto. intros t Ht. apply has_lookup; auto. apply H2. right; auto.
  - intros [H1 H2]. split; auto. intros t [<-|Ht]; auto. apply has_lookup; auto.
Qed.

Lemma c15_intersection0 : s_intersectionN (@nil (set T)) = Panic.
Proof. reflexivity. Qed.

(** ** C16 *)

Lemma sbAnswers_lookup b (P : T -> Prop) : bok (vok := vok) b ->
  (forall w, vok w -> lookup (bel b) w <> None <-> P w) -> SbAnswers vok b P.
Proof.
  intros Hb HP. split.
  - intros v Hv. rewrite (sb_has_ok (vok := vok)) by auto. eexists. split; [reflexivity|].
    rewrite <- HP by auto. destruct (lookup (bel b) v); simpl; split; congruence.
  - exists (bel b). split; [|apply (tok_count (vok := vok)); auto].
    apply Lists_lookup; auto. { apply tok_allok; auto. } { eapply tok_distinct; eauto. }
Qed.

Lemma sb_run_ok ops : forall b (P : T -> Prop), bok (vok := vok) b ->
  (forall w, vok w -> lookup (bel b) w <> None <-> P w) -> Forall (sbOpOk vok) ops ->
  exists b' out, sb_run b ops = Ok (b', out) /\
    SbAnswers vok b' (fst (sb_math P ops)) /\
    Forall2 (Answers vok) out (snd (sb_math P ops)).
Proof.
  induction ops as [|op ops IH]; intros b P Hb HP Hops.
  - exists b, []. split; auto. split; [apply sbAnswers_lookup; auto|]. constructor.
  - apply Forall_inv in Hops as Hop. apply Forall_inv_tail in Hops. destruct op as [v|v|]; cbn [sb_run sb_math].
    + destruct (sb_add_ok (vok := vok) b v Hb Hop) as (b1 & E1 & Hb1 & Hl & _). rewrite E1. cbn [bind].
      apply IH; auto. intros w Hw. rewrite Hl by auto. destruct (veq v w) eqn:Eq.
      * split; [auto|congruence].
      * rewrite HP by auto. split; auto. intros [H|H]; [congruence|auto].
    + destruct (sb_remove_ok (vok := vok) b v Hb Hop) as (b1 & E1 & Hb1 & Hl & _). rewrite E1. cbn [bind].
      apply IH; auto. intros w Hw. rewrite Hl by auto. destruct (veq v w) eqn:Eq.
      * split; [congruence|intros [H _]; congruence].
      * rewrite HP by auto. tauto.
    + destruct (sb_finish b) as [s b1] eqn:Ef.
      assert (Hs : s = fst (sb_finish b)) by (rewrite Ef; auto). assert (Hb1 : b1 = snd (sb_finish b)) by (rewrite Ef; auto).
      destruct (IH b1 (fun _ => False)) as (b' & out & E1 & HA & HF); auto.
      { subst b1. apply bok_empty. }
      { intros w Hw. subst b1. cbn. split; [congruence|tauto]. }
      rewrite E1. cbn [bind]. destruct (sb_math (fun _ => False) ops) as [P' outs] eqn:Em.
      exists b', (s :: out). split; auto. split; auto.
      constructor; auto. subst s. apply answers_lookup; auto.
Qed.

Lemma c16_builder cap ops : Forall (sbOpOk vok) ops ->
  exists b out, sb_run (newSetBuilder cap) ops = Ok (b, out) /\
    SbAnswers vok b (fst (sb_math (fun _ => False) ops)) /\
    Forall2 (Answers vok) out (snd (sb_math (fun _ => False) ops)).
Proof.
  intros Hops. destruct (sb_run_ok ops (newSetBuilder cap) (fun _ => False)) as (b & out & H1 & H2 & H3); auto.
  - apply bok_empty.
  - intros w Hw. cbn. split; [congruence|tauto].
  - exists b, out. auto.
Qed.

(** The sets a builder returns are reachable, so they are Equal to the same set built any other way (C05). *)
Lemma c16_finished_reachable ops : forall b b' out, SBReach vok b -> Forall (sbOpOk vok) ops ->
  sb_run b ops = Ok (b', out) -> Forall (SetReach vok) out /\ SBReach vok b'.
Proof.
  induction ops as [|op ops IH]; intros b b' out Hb Hops H.
  - injection H as <- <-. split; auto.
  - apply Forall_inv in Hops as Hop. apply Forall_inv_tail in Hops. destruct op as [v|v|]; cbn [sb_run] in H.
    + destruct (sb_add b v) as [b1| |] eqn:E1; try discriminate. cbn [bind] in H. apply (IH b1); auto. eapply sbr_add; eauto.
    + destruct (sb_remove b v) as [b1| |] eqn:E1; try discriminate. cbn [bind] in H. apply (IH b1); auto. eapply sbr_remove; eauto.
    + destruct (sb_finish b) as [s b1] eqn:Ef.
      assert (Hs : s = fst (sb_finish b)) by (rewrite Ef; auto). assert (Hb1 : b1 = snd (sb_finish b)) by (rewrite Ef; auto).
      destruct (sb_run b1 ops) as [[b2 out2]| |] eqn:E2; try discriminate. cbn [bind] in H. injection H as <- <-.
      destruct (IH b1 b2 out2) as [H1 H2]; auto. { subst b1. apply sbr_finish; auto. }
      split; auto. constructor; auto. subst s. apply sr_finish; auto.
Qed.

Lemma c16_newSet vs : (forall v, In v vs -> vok v) ->
  exists s, s_new vs = Ok s /\ Answers vok s (fun w => exists v, In v vs /\ veq v w = true) /\
    (forall e, Holds s e -> In e vs).
Proof.
  intros Hvs. destruct (s_new_ok (vok := vok) vs) as (s & E1 & Hs & Hl); auto. exists s. split; auto. split.
  - apply answers_lookup; auto. intros w Hw. rewrite Hl by auto. destruct (findLast vs w) as [e|] eqn:Ef.
    + apply findLast_Some in Ef. split; [eauto|discriminate].
    + split; [congruence|]. intros (v & Hv & Hq). pose proof (proj1 (findLast_None vs w) Ef v Hv). congruence.
  - intros e He. pose proof (holds_ok s e Hs He) as Ho. apply holds_lookup in He; auto. rewrite Hl in He by auto.
    apply findLast_Some in He. tauto.
Qed.

End SpecSet.

Section SpecSet2.
Local Opaque maxTreeDepth fanout fb.
Context {E : Env} {HE : EnvOk E} {T U : Type} {K : Key T} {vok : T -> Prop} {KO : KeyOk K vok}.
Context {KU : Key U} {uok : U -> Prop} {KUO : KeyOk KU uok}.

Lemma findLast_not_None (l : list U) w : findLast l w <> None <-> exists v, In v l /\ veq v w = true.
Proof.
  destruct (findLast l w) as [e|] eqn:Ef.
  - apply findLast_Some in Ef. split; [eauto|discriminate].
  - split; [congruence|]. intros (v & Hv & Hq). pose proof (proj1 (findLast_None l w) Ef v Hv). congruence.
Qed.

Lemma image_answers s (f : T -> U) r : sok vok s -> sok uok r ->
  (forall w, uok w -> lookup (sel r) w = findLast (map f (sel s)) w) ->
  Answers uok r (fun w => exists e, Holds s e /\ veq (f e) w = true) /\
  (forall u, Holds r u -> exists e, Holds s e /\ u = f e).
Proof.
  intros Hs Hr Hl. split.
  - apply answers_lookup; auto. intros w Hw. rewrite Hl, findLast_not_None by auto. split.
    + intros (v & Hv & Hq). apply in_map_iff in Hv as (e & <- & He). exists e. split; auto. apply (holds_In (vok := vok)); auto.
    + intros (e & He & Hq). exists (f e). split; auto. apply in_map. apply (holds_In (vok := vok)) in He; auto.
  - intros u Hu. pose proof (holds_ok (vok := uok) r u Hr Hu) as Ho. apply (holds_lookup (vok := uok)) in Hu; auto. rewrite Hl in Hu by auto.
    apply findLast_Some in Hu as [Hu _]. apply in_map_iff in Hu as (e & <- & He). exists e. split; auto. apply (holds_In (vok := vok)); auto.
Qed.

Lemma c09_map (s : set T) (f : T -> U) : SetReach vok s -> (forall e, Holds s e -> uok (f e)) ->
  exists r, s_map s f = Ok r /\
    Answers uok r (fun w => exists e, Holds s e /\ veq (f e) w = true) /\
    (forall u, Holds r u -> exists e, Holds s e /\ u = f e).
Proof.
  intros Hs Hf. apply sreach_ok in Hs.
  destruct (s_map_ok (vok := vok) (uok := uok) s f) as (r & E1 & Hr & Hl); auto.
  { intros e He. apply Hf. apply (holds_In (vok := vok)); auto. }
  exists r. split; auto. apply image_answers; auto.
Qed.

(** set.go:283-289 AsSetAny; [inj] is the conversion to [any]. *)
Lemma c09_asAny (s : set T) (inj : T -> U) : SetReach vok s -> (forall e, Holds s e -> uok (inj e)) ->
  exists r, s_asAny inj s = Ok r /\
    Answers uok r (fun w => exists e, Holds s e /\ veq (inj e) w = true) /\
    (forall u, Holds r u -> exists e, Holds s e /\ u = inj e).
Proof.
  intros Hs Hf. apply sreach_ok in Hs.
  destruct (s_asAny_ok (vok := vok) (uok := uok) s inj) as (r & E1 & Hr & Hl); auto.
  { intros e He. apply Hf. apply (holds_In (vok := vok)); auto. }
  exists r. split; auto. apply image_answers; auto.
Qed.

(** set.go:274-281 SetAs; [conv] is the type assertion. *)
Lemma c09_as (s : set T) (conv : T -> option U) : SetReach vok s ->
  (forall e u, Holds s e -> conv e = Some u -> uok u) ->
  ((exists e, Holds s e /\ conv e = None) /\ s_as conv s = Panic) \/
  ((forall e, Holds s e -> conv e <> None) /\
   exists r, s_as conv s = Ok r /\ Answers uok r (fun w => exists e u, Holds s e /\ conv e = Some u /\ veq u w = true)).
Proof.
  intros Hs Hf. apply sreach_ok in Hs.
  assert (HI : forall e, Holds s e <-> In e (sel s)) by (intros e; apply (holds_In (vok := vok)); auto).
  destruct (s_as_ok (vok := vok) (uok := uok) s conv) as [[(e & He & Hn) E1]|(Hn & r & E1 & Hr & Hl)]; auto.
  { intros e u He. apply Hf. apply HI; auto. }
  - left. split; auto. exists e. split; auto. apply HI; auto.
  - right. split; [intros e He; apply Hn; apply HI; auto|]. exists r. split; auto.
    apply answers_lookup; auto. intros w Hw. rewrite Hl by auto.
    split; intros (e & u & He & Hq); exists e, u; split; auto; apply HI; auto.
Qed.

(** ** C12 *)

Lemma c12_groupBy (s : set T) (key : T -> U) : SetReach vok s -> (forall e, Holds s e -> uok (key e)) ->
  exists m, s_groupBy s key = Ok m /\
    forall k, uok k ->
      (exists g, m_get m k = Ok (Some g) /\
         (exists e, Holds s e /\ veq (key e) k = true) /\
         (forall e, Holds g e <-> Holds s e /\ veq (key e) k = true) /\
         Answers vok g (fun w => exists e, Holds s e /\ veq (key e) k = true /\ veq e w = true)) \/
      (m_get m k = Ok None /\ forall e, Holds s e -> veq (key e) k = false).
Proof.
  intros Hs Hk. apply sreach_ok in Hs.
  assert (HI : forall e, Holds s e <-> In e (sel s)) by (intros e; apply (holds_In (vok := vok)); auto).
  destruct (s_groupBy_ok (vok := vok) (kok := uok) key s Hs) as (m & E1 & Hm & HM).
  { intros v Hv. apply Hk. apply HI; auto. }
  exists m. split; auto. intros k Hkk. specialize (HM k Hkk).
  rewrite (m_get_ok (kok := uok)) by auto. unfold mget.
  destruct (klk (mel m) k) as [e|] eqn:Ek.
  - left. exists (e_val e). split; auto. destruct HM as (Hg & (v & Hv & Hkv) & Hl).
    assert (HP : Permutation (sel (e_val e)) (filter (fun v => veq (key v) k) (sel s))).
    { apply (lookup_perm (vok := vok)); auto.
      - apply (sok_distinct _ Hg).
      - apply (distinct_filter _ _ (sok_distinct _ Hs)).
      - apply (sok_allok _ Hg).
      - intros x Hx. apply filter_In in Hx as [Hx _]. apply (sok_allok _ Hs); auto. }
    assert (HG : forall x, Holds (e_val e) x <-> Holds s x /\ veq (key x) k = true).
    { intros x. rewrite (holds_In (vok := vok)), HI by auto. rewrite <- (filter_In (fun v => veq (key v) k)).
      split; apply Permutation_in; auto using Permutation_sym. }
    split; [|split; auto].
    + exists v. split; [apply HI; auto|]. rewrite <- Hkv. apply klk_Some in Ek. tauto.
    + apply answers_lookup; auto. intros w Hw. rewrite lookup_not_None. split.
      * intros (x & Hx & Hq). apply (holds_In (vok := vok)) in Hx; auto. apply HG in Hx. exists x. tauto.
      * intros (x & Hx & Hq & Hq2). exists x. split; auto. apply (holds_In (vok := vok)); auto. apply HG; auto.
  - right. split; auto. intros e He. apply HM. apply HI; auto.
Qed.
End SpecSet2.
