(** * SpecBits: lemmas behind the properties of the trie's shape, of masks, of Iota and of the hasher
    (C29, C31-C34). *)
From Coq Require Import Sorting.Sorted.
From Verif Require Import Base Bits Env EnvFacts Node NodeWf NodeAdd NodeUn Iter Tree TreeFacts SetApi SetFacts.
From Verif Require Import BitFacts ExtraFacts MapApi MapFacts Reach Spec SpecSet.

(** ** C29 *)

(** [x] occurs in the trie [n], [k] levels below its root. *)
Inductive below {T} : nat -> node T -> node T -> Prop :=
| below_self n : below 0 n n
| below_child k m data i c x : child data i = Some c -> below k c x -> below (S k) (Branch m data) x.

(** What Vet checks and a little more, for the node [x] at level [k]: *)
Definition Shaped {E : Env} {T} {K : Key T} (k : nat) (x : node T) : Prop :=
  match x with
  | Leaf1 _ => True
  | Leaf2 a b => veq a b = false
  | Twig l =>
      (** buckets sit on the last level only, hold three elements or more, all of one hash *)
      k = maxTreeDepth /\ 3 <= length l /\ (forall a b, In a l -> In b l -> vhash a 0 = vhash b 0)
  | Branch m data =>
      (** a branch has a slot for every hash digit, its mask marks the used slots, it covers three
          elements or more, and an element is under the slot given by its hash *)
      k < maxTreeDepth /\ length data = fanout /\ 3 <= length (elems x) /\
      (forall i, N.testbit m (N.of_nat i) = isSome (child data i)) /\
      (forall i c e, child data i = Some c -> In e (elems c) -> h_hash (newHasher e k) = i)
  end.

Section C29.
Local Opaque maxTreeDepth fanout fb.
Context {E : Env} {HE : EnvOk E} {T : Type} {K : Key T} {vok : T -> Prop} {KO : KeyOk K vok}.

(** Buckets occur at depth maxTreeDepth only. *)
Lemma wf_twig_depth d (l : list T) : wf vok d (Twig l) -> d = maxTreeDepth.
Proof. inversion 1; auto. Qed.

Lemma below_wf k : forall d (n x : node T), below k n x -> wf vok d n -> agree d (elems n) ->
  wf vok (d + k) x /\ agree (d + k) (elems x).
Proof.
  induction k as [|k IH]; intros d n x Hb Hw Ha; inversion Hb; subst.
  - rewrite Nat.add_0_r. auto.
  - rewrite <- Nat.add_succ_comm. apply (IH (S d) c); auto.
    + inversion Hw; subst. eauto.
    + eapply agree_child; eauto.
Qed.

Lemma wf_Shaped k x : wf vok k x -> agree k (elems x) -> Shaped k x.
Proof.
  intros Hw Ha. destruct x as [a|a b|l|m data]; cbn; auto.
  - inversion Hw; auto.
  - inversion Hw as [| |d' l' Hd Hl Hok Hdis|]; subst d' l'. split; auto. split; auto.
    intros a b Hina Hinb. apply (agree_hash (vok := vok)); auto.
    intros x y j Hx Hy Hj. apply Ha; try lia; cbn in *; intuition (subst; auto).
  - inversion Hw as [| | |d' m' data' Hd Hlen Hm Hch Hp Hl]; subst d' m' data'.
    split; auto. split; auto. split; auto. split.
    + intros i. subst m. rewrite updateMask_testbit by auto. reflexivity.
    + intros i c e Hc He. apply Hp. rewrite Hc. auto.
Qed.

Lemma maxTreeDepth_eq : maxTreeDepth = (1 + 63 / fb)%nat.
Proof. reflexivity. Qed.

Lemma tok_shape (t : tree T) n k x : tok vok t -> t_root t = Some n -> below k n x ->
  k <= 1 + 63 / fb /\ Shaped k x.
Proof.
  intros [Hw _] Hn Hb. specialize (Hw n Hn).
  destruct (below_wf k 0 n x Hb Hw) as [Hx Ha]. { intros a b j _ _ Hj. lia. }
  split; [rewrite <- maxTreeDepth_eq; apply (wf_depth _ _ Hx)|]. apply wf_Shaped; auto.
Qed.

Lemma tok_get_bound (t : tree T) n v : tok vok t -> t_root t = Some n -> vok v ->
  get (2 + 63 / fb) n v (newHasher v 0) = t_get t v /\ t_get t v = Ok (lookup (tel t) v).
Proof.
  intros Ht Hn Hv. pose proof (proj1 Ht n Hn) as Hw. unfold t_get, tel. rewrite Hn. cbn [elemso].
  rewrite (get_wf (vok := vok) treeFuel 0) by auto using fuelGet_tree. split; auto.
  change (2 + 63 / fb)%nat with (S maxTreeDepth). rewrite (get_wf (vok := vok) (S maxTreeDepth) 0); auto; lia.
Qed.

Lemma c29_depth s n k x : SetReach vok s -> t_root (s_tree s) = Some n -> below k n x -> k <= 1 + 63 / fb.
Proof. intros Hs Hn Hb. apply sreach_ok in Hs; auto. apply (tok_shape _ _ _ _ Hs Hn Hb). Qed.

Lemma c29_shape s n k x : SetReach vok s -> t_root (s_tree s) = Some n -> below k n x -> Shaped k x.
Proof. intros Hs Hn Hb. apply sreach_ok in Hs; auto. apply (tok_shape _ _ _ _ Hs Hn Hb). Qed.

Lemma c29_vet s : SetReach vok s -> t_vet (s_tree s) = Ok tt.
Proof. intros Hs. apply sreach_ok in Hs; auto. apply (t_vet_ok (vok := vok)). auto. Qed.

(** One unit of fuel is one node visited. *)
Lemma c29_lookup s n v : SetReach vok s -> t_root (s_tree s) = Some n -> vok v ->
  exists o, get (2 + 63 / fb) n v (newHasher v 0) = Ok o /\ t_get (s_tree s) v = Ok o.
Proof.
  intros Hs Hn Hv. apply sreach_ok in Hs; auto. destruct (tok_get_bound _ n v Hs Hn Hv) as [H1 H2].
  exists (lookup (tel (s_tree s)) v). rewrite H1. auto.
Qed.

Lemma c29_builder b : SBReach vok b ->
  t_vet (sb_tree b) = Ok tt /\
  forall n k x, t_root (sb_tree b) = Some n -> below k n x -> k <= 1 + 63 / fb /\ Shaped k x.
Proof.
  intros Hb. apply sbreach_ok in Hb; auto. split; [apply (t_vet_ok (vok := vok)); auto|].
  intros n k x. apply tok_shape; auto.
Qed.

End C29.

Section C29Map.
Local Opaque maxTreeDepth fanout fb.
Context {E : Env} {HE : EnvOk E} {X V : Type} {KX : Key X} {kok : X -> Prop} {KO : KeyOk KX kok}.
Context {valok : V -> Prop}.

Lemma c29_map (m : gomap X V) : MapReach kok valok m ->
  t_vet (m_tree m) = Ok tt /\
  (forall n k x, t_root (m_tree m) = Some n -> below k n x -> k <= 1 + 63 / fb /\ Shaped k x) /\
  (forall n v, t_root (m_tree m) = Some n -> kok (e_key v) ->
     exists o, get (2 + 63 / fb) n v (newHasher v 0) = Ok o /\ t_get (m_tree m) v = Ok o).
Proof.
  intros Hm. apply mreach_ok in Hm; auto. split; [|split].
  - apply (t_vet_ok (vok := eok (kok := kok))). auto.
  - intros n k x. apply (tok_shape (vok := eok (kok := kok))). auto.
  - intros n v Hn Hv. destruct (tok_get_bound (vok := eok (kok := kok)) _ n v Hm Hn Hv) as [H1 H2].
    eexists. rewrite H1. eauto.
Qed.

Lemma c29_mapBuilder (b : mapBuilder X V) : MBReach kok valok b ->
  t_vet (mb_tree b) = Ok tt /\
  forall n k x, t_root (mb_tree b) = Some n -> below k n x -> k <= 1 + 63 / fb /\ Shaped k x.
Proof.
  intros Hb. apply mbreach_ok in Hb; auto. split; [apply (t_vet_ok (vok := eok (kok := kok))); auto|].
  intros n k x. apply (tok_shape (vok := eok (kok := kok))); auto.
Qed.
End C29Map.

(** ** C31 *)

Local Open Scope N_scope.

Lemma c31_enumerates m : m < 2 ^ 16 ->
  StronglySorted lt (mask_indices m) /\
  forall i, In i (mask_indices m) <-> N.testbit m (N.of_nat i) = true.
Proof.
  intros H. split; [rewrite mask_indices_spec by auto; apply one_bits_sorted|].
  intros i. rewrite mask_indices_In by auto. split; [tauto|]. intros Hi. split; auto.
  destruct (Nat.lt_ge_cases i 16) as [|Hge]; auto.
  rewrite (testbit_above 16 m (N.of_nat i) H) in Hi; [discriminate|]. clear - Hge. lia.
Qed.

Lemma c31_first m : m < 2 ^ 16 -> m <> 0 ->
  N.testbit m (N.of_nat (m_firstIndex m)) = true /\
  (forall i, N.testbit m (N.of_nat i) = true -> (m_firstIndex m <= i)%nat) /\
  m_first m = 2 ^ N.of_nat (m_firstIndex m) /\
  m_next m = m - m_first m.
Proof.
  intros H H0. pose proof (ctz_lt 16 m H H0) as Hlt. fold (m_firstIndex m) in Hlt.
  assert (Hb : N.testbit m (N.of_nat (m_firstIndex m)) = true) by (apply ctz_testbit; auto).
  split; auto. split; [intros i; apply m_firstIndex_least; auto|].
  assert (Hf : m_first m = 2 ^ N.of_nat (m_firstIndex m)).
  { rewrite m_first_spec, newMasker_eq by auto. reflexivity. }
  split; auto. rewrite Hf.
  assert (Hn : m_next m = N.ldiff m (2 ^ N.of_nat (m_firstIndex m))).
  { apply N.bits_inj. intros j. unfold m_next, strip_low, m_firstIndex in *.
    rewrite N.land_spec, N.ldiff_spec, N.pow2_bits_eqb.
    replace (wsub 16 m 1) with (N.pred m).
    2:{ unfold wsub, wrap. replace (m + 2 ^ 16 - 1) with (N.pred m + 1 * 2 ^ 16) by lia.
        rewrite N.mod_add by (apply N.pow_nonzero; lia). symmetry. apply N.mod_small. lia. }
    rewrite (pred_testbit 16) by auto.
    destruct (N.eqb_spec (N.of_nat (ctz 16 m)) j) as [<-|Hne].
    - rewrite N.leb_refl, Hb. reflexivity.
    - destruct (N.leb_spec j (N.of_nat (ctz 16 m))) as [Hle|].
      + destruct (N.testbit m j) eqn:Ej; auto. exfalso.
        pose proof (m_firstIndex_least m (N.to_nat j) H H0) as Hl.
        rewrite N2Nat.id in Hl. specialize (Hl Ej). unfold m_firstIndex in Hl. lia.
      + destruct (N.testbit m j); auto. }
  rewrite Hn. symmetry. apply N.sub_nocarry_ldiff. apply N.bits_inj. intros j.
  rewrite N.ldiff_spec, N.pow2_bits_eqb, N.bits_0.
  destruct (N.eqb_spec (N.of_nat (m_firstIndex m)) j) as [<-|]; auto. rewrite Hb. reflexivity.
Qed.

Lemma c31_firstIsIn m n : m < 2 ^ 16 -> m <> 0 ->
  m_firstIsIn m n = N.testbit n (N.of_nat (m_firstIndex m)).
Proof. apply m_firstIsIn_spec. Qed.

Lemma c31_subsetOf m n : m_subsetOf m n = true <->
  (forall i, N.testbit m i = true -> N.testbit n i = true).
Proof. apply m_subsetOf_spec. Qed.

(** ** C32 *)

Lemma c32_has b i : bi_has b i = ((i <? 64)%nat && N.testbit b (N.of_nat i))%bool.
Proof.
  destruct (Nat.ltb_spec i 64); [apply bi_has_spec; auto|]. apply bi_has_big; auto.
Qed.

Lemma c32_with b i : b < 2 ^ 64 -> (i < 64)%nat ->
  bi_with b i < 2 ^ 64 /\
  forall j, N.testbit (bi_with b i) (N.of_nat j) = ((j =? i)%nat || N.testbit b (N.of_nat j))%bool.
Proof. intros Hb Hi. split; [apply bi_with_lt; auto|]. intros j. apply bi_with_spec; auto. Qed.

Lemma strip_low_spec (w : nat) b : b < 2 ^ N.of_nat w -> b <> 0 ->
  N.testbit b (N.of_nat (ctz w b)) = true /\
  forall j, N.testbit (strip_low (N.of_nat w) b) (N.of_nat j) = (N.testbit b (N.of_nat j) && (ctz w b <? j)%nat)%bool.
Proof.
  intros H H0. split; [apply ctz_testbit; auto|].
  assert (Hleast : forall j, N.testbit b (N.of_nat j) = true -> (ctz w b <= j)%nat).
  { intros j Hj. assert (In j (one_bits w b)) as Hin.
    { apply one_bits_In. split; auto. destruct (Nat.lt_ge_cases j w) as [|Hge]; auto.
      rewrite (testbit_above (N.of_nat w) b (N.of_nat j) H) in Hj; [discriminate|]. clear - Hge. lia. }
    pose proof (one_bits_sorted w b) as HS. rewrite one_bits_cons in Hin, HS by auto.
    destruct Hin as [<-|Hin]; auto.
    apply StronglySorted_inv in HS as [_ HF]. rewrite Forall_forall in HF. apply HF in Hin. lia. }
  intros j. unfold strip_low. rewrite N.land_spec.
  replace (wsub (N.of_nat w) b 1) with (N.pred b).
  2:{ unfold wsub, wrap. replace (b + 2 ^ N.of_nat w - 1) with (N.pred b + 1 * 2 ^ N.of_nat w) by lia.
      rewrite N.mod_add by (apply N.pow_nonzero; lia). symmetry. apply N.mod_small. lia. }
  rewrite (pred_testbit w) by auto. specialize (Hleast j).
  destruct (N.testbit b (N.of_nat j)); cbn [andb]; auto. specialize (Hleast eq_refl).
  destruct (N.leb_spec (N.of_nat j) (N.of_nat (ctz w b))), (Nat.ltb_spec (ctz w b) j); auto; lia.
Qed.

Lemma c32_next b : b < 2 ^ 64 -> b <> 0 ->
  N.testbit b (N.of_nat (bi_index b)) = true /\
  forall j, N.testbit (bi_next b) (N.of_nat j) = (N.testbit b (N.of_nat j) && (bi_index b <? j)%nat)%bool.
Proof. exact (strip_low_spec 64 b). Qed.

Lemma c32_enumerates b : b < 2 ^ 64 ->
  StronglySorted lt (bi_indices b) /\
  (forall i, In i (bi_indices b) <-> (i < 64)%nat /\ N.testbit b (N.of_nat i) = true) /\
  bi_count b = length (bi_indices b).
Proof.
  intros H. rewrite bi_count_spec, bi_indices_spec by auto. split; [apply one_bits_sorted|].
  split; auto. intros i. apply one_bits_In.
Qed.

(** What Without is meant to do. *)
Definition clearsBit (b : N) (i : nat) (r : N) : Prop :=
  forall j, (j < 64)%nat -> N.testbit r (N.of_nat j) = (negb (j =? i)%nat && N.testbit b (N.of_nat j))%bool.

Lemma c32_without_refuted : ~ (forall b i, b < 2 ^ 64 -> (i < 64)%nat -> clearsBit b i (bi_without b i)).
Proof. intros H. specialize (H 1 1%nat eq_refl ltac:(lia) 0%nat ltac:(lia)). vm_compute in H. discriminate. Qed.

Lemma c32_without_computes b i j : (j < 64)%nat ->
  N.testbit (bi_without b i) (N.of_nat j) = ((i <? j)%nat && N.testbit b (N.of_nat (j - i)))%bool.
Proof. apply bi_without_bits. Qed.

Lemma c32_without_zero b : b < 2 ^ 64 -> clearsBit b 0 (bi_without b 0).
Proof.
  intros Hb j Hj. rewrite bi_without_bits by auto. rewrite Nat.sub_0_r.
  destruct j; cbn; auto.
Qed.

(** ** C33 *)

Local Open Scope Z_scope.

Section C33.
Local Opaque maxTreeDepth fanout fb.
Context {E : Env} {HE : EnvOk E} (h : Z -> N -> N).
#[local] Instance iK : Key Z := intKey h.
#[local] Instance iKO : KeyOk iK isInt := intKeyOk h isInt.

Lemma int_holds s v : sok isInt s -> Holds s v <-> In v (sel s).
Proof. apply holds_In. Qed.

Lemma c33_iota3 fuel start stop step : isInt start -> isInt stop -> step <> 0 -> noOverflow stop step ->
  (iotaRounds start stop <= fuel)%nat ->
  exists r, s_iota3 (K := intKey h) fuel start stop step = Ok r /\
    (forall v, isInt v -> Has (K := intKey h) r v <-> exists k, 0 <= k /\ v = start + k * step /\ before step v stop).
Proof.
  intros H1 H2 H0 HO Hf. destruct (s_iota3_ok h fuel start stop step) as (r & Er & Hr & HI); auto.
  exists r. split; auto. intros v Hv. rewrite <- HI. rewrite (has_lookup (vok := isInt)) by auto.
  apply int_lookup.
Qed.

Lemma c33_iota3_zero fuel start stop :
  s_iota3 (K := intKey h) fuel start stop 0 = if start =? stop then Ok s_empty else Panic.
Proof. reflexivity. Qed.

(** The overflow that the hypothesis [noOverflow] excludes is real: Iota3(0, MaxInt, 2) never ends. *)
Lemma c33_forever fuel : s_iota3 (K := intKey h) fuel 0 (2 ^ 63 - 1) 2 = Fuel.
Proof. apply s_iota3_forever. Qed.

Lemma c33_mask mask : (mask < 2 ^ 64)%N ->
  exists r, s_fromMask64 (K := intKey h) mask = Ok r /\
    (forall v, isInt v -> Has (K := intKey h) r v <-> 0 <= v < 64 /\ N.testbit mask (Z.to_N v) = true) /\
    s_count r = Z.of_nat (bi_count mask).
Proof.
  intros Hm. destruct (s_fromMask64_ok h mask Hm) as (r & Er & Hr & HI & Hc).
  exists r. split; auto. split; auto. intros v Hv. rewrite <- HI. rewrite (has_lookup (vok := isInt)) by auto.
  apply int_lookup.
Qed.
End C33.

(** ** C34 *)

(** The child index taken by a lookup of [v] at level [k]: the hasher advanced [k] times. *)
Definition childIndex {E : Env} {T} {K : Key T} (k : nat) (v : T) : nat :=
  h_hash (Nat.iter k h_next (newHasher v 0)).

Lemma childIndex_digit {E : Env} {T} {K : Key T} k (v : T) : childIndex k v = digit k v.
Proof.
  unfold childIndex, digit. f_equal. induction k as [|k IH]; auto. rewrite newHasher_S, <- IH. reflexivity.
Qed.

Section C34.
Context {E : Env} {T : Type} {K : Key T}.
Lemma c34_range k (v : T) : (childIndex k v < fanout)%nat.
Proof. rewrite childIndex_digit. apply digit_lt. Qed.

Lemma c34_restart k (v : T) : newHasher v k = Nat.iter k h_next (newHasher v 0).
Proof. induction k as [|k IH]; auto. rewrite newHasher_S, IH. reflexivity. Qed.

Lemma c34_all_bits (a b : T) : (vhash a 0 < 2 ^ 64)%N -> (vhash b 0 < 2 ^ 64)%N ->
  (forall k, (k < maxTreeDepth)%nat -> childIndex k a = childIndex k b) <-> vhash a 0 = vhash b 0.
Proof.
  intros Ha Hb. split.
  - intros H. apply digits_hash; auto. intros k Hk. rewrite <- !childIndex_digit. auto.
  - intros H k _. rewrite !childIndex_digit. apply hash_digit. auto.
Qed.
End C34.
