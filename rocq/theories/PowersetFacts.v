(** * PowersetFacts: Powerset visits every subset exactly once. *)
From Verif Require Import Base Bits Env EnvFacts Node NodeWf NodeAdd NodeRemove NodeBin NodeBin2 NodeUn Iter Tree TreeFacts SetApi SetFacts BitFacts.

Section Powerset.
Local Opaque maxTreeDepth fanout fb.
Context {E : Env} {HE : EnvOk E} {T : Type} {K : Key T} {vok : T -> Prop} {KO : KeyOk K vok}.
Notation sok := (sok vok).
Notation allok := (allok vok).
#[local] Instance subsetKeyOk : KeyOk (@setKey E T K) sok := setKeyOk (HE := HE).
Notation pok := (SetFacts.sok (E := E) (K := setKey) sok).

(** The subset of the elements [es] selected by the bits of [g]. *)
Definition matches (es : list T) (u : set T) (g : N) : Prop :=
  forall w, vok w -> lookup (sel u) w <> None <->
    exists j e, nth_error es j = Some e /\ veq e w = true /\ N.testbit g (N.of_nat j) = true.

Lemma nth_distinct es i j a b w : distinct es -> allok es -> vok w ->
  nth_error es i = Some a -> nth_error es j = Some b -> veq a w = true -> veq b w = true -> i = j.
Proof.
  intros Hd Ho Hw Hi Hj Ha Hb.
  assert (Hia : In a es) by (eapply nth_error_In; eauto).
  assert (Hib : In b es) by (eapply nth_error_In; eauto).
  assert (a = b) as ->.
  { assert (lookup es w = Some a) by (apply (lookup_iff (vok := vok)); auto).
    assert (lookup es w = Some b) by (apply (lookup_iff (vok := vok)); auto). congruence. }
  assert (HN : NoDup es) by (apply (distinct_NoDup (vok := vok)); auto).
  eapply NoDup_nth_error; eauto.
  - apply nth_error_Some. congruence.
  - congruence.
Qed.

Lemma matches_bit es u g j e : distinct es -> allok es -> matches es u g -> nth_error es j = Some e ->
  lookup (sel u) e <> None <-> N.testbit g (N.of_nat j) = true.
Proof.
  intros Hd Ho HM Hj. assert (He : vok e) by (apply Ho; eapply nth_error_In; eauto).
  rewrite (HM e He). split.
  - intros (i & a & Hi & Ha & Hb). assert (i = j) as -> by (eapply (nth_distinct es i j a e e); eauto using veq_refl). auto.
  - intros Hb. exists j, e. split; auto. split; auto. apply veq_refl; auto.
Qed.

Lemma matches_inj es u g g' : distinct es -> allok es -> matches es u g -> matches es u g' ->
  (g < 2 ^ N.of_nat (length es))%N -> (g' < 2 ^ N.of_nat (length es))%N -> g = g'.
Proof.
  intros Hd Ho H H' Hg Hg'. apply N.bits_inj. intros j.
  destruct (N.lt_ge_cases j (N.of_nat (length es))) as [Hj|Hj].
  - destruct (nth_error es (N.to_nat j)) as [e|] eqn:Ej.
    2:{ apply nth_error_None in Ej. lia. }
    pose proof (matches_bit es u g _ e Hd Ho H Ej) as H1. pose proof (matches_bit es u g' _ e Hd Ho H' Ej) as H2.
    rewrite N2Nat.id in *. destruct (N.testbit g j), (N.testbit g' j); auto; exfalso.
    + assert (lookup (sel u) e <> None) by tauto. assert (false = true) by tauto. discriminate.
    + assert (lookup (sel u) e <> None) by tauto. assert (false = true) by tauto. discriminate.
  - rewrite (testbit_above _ _ _ Hg Hj), (testbit_above _ _ _ Hg' Hj). reflexivity.
Qed.

Lemma matches_seqv es u v g : matches es u g -> matches es v g -> seqv vok u v.
Proof. intros H H' w Hw. rewrite (H w Hw), (H' w Hw). tauto. Qed.

(** Flipping the bit of [m] that differs between two neighbours in the counting order. *)
Lemma flip_ok es subset (m : N) :
  distinct es -> allok es -> (length es <= 63)%nat -> sok subset ->
  (m < 2 ^ N.of_nat (length es))%N -> m <> 0%N -> matches es subset (gray (N.pred m)) ->
  exists e, nth_error es (bi_index m) = Some e /\
    exists subset', (if bi_has m (bi_index m + 1) then s_without subset e else s_with subset e) = Ok subset' /\
    sok subset' /\ matches es subset' (gray m).
Proof.
  intros Hd Ho Hn Hs Hm H0 HM.
  assert (Hm64 : (m < 2 ^ N.of_nat 64)%N).
  { eapply N.lt_le_trans; [apply Hm|]. apply N.pow_le_mono_r; lia. }
  set (c := ctz 64 m). change (bi_index m) with c.
  assert (Hbit : N.testbit m (N.of_nat c) = true) by (apply ctz_testbit; auto).
  assert (Hc : (c < length es)%nat).
  { destruct (Nat.lt_ge_cases c (length es)) as [|Hge]; auto.
    rewrite (testbit_above _ m (N.of_nat c) Hm) in Hbit; [discriminate|lia]. }
  destruct (nth_error es c) as [e|] eqn:Ee; [|apply nth_error_None in Ee; lia].
  assert (He : vok e) by (apply Ho; eapply nth_error_In; eauto).
  exists e. split; [reflexivity|]. rewrite bi_has_spec by lia. replace (N.of_nat (c + 1)) with (N.succ (N.of_nat c)) by lia.
  assert (HMj : forall j a w, vok w -> nth_error es j = Some a -> veq a w = true -> (j = c <-> veq e w = true)).
  { intros j a w Hw Hj Ha. split.
    - intros ->. assert (a = e) by congruence. subst; auto.
    - intros Hew. eapply (nth_distinct es j c a e w); eauto. }
  destruct (N.testbit m (N.succ (N.of_nat c))) eqn:Eb.
  - destruct (s_without_ok subset e Hs He) as (r & E1 & Hr & Hl & _). exists r. split; auto. split; auto.
    intros w Hw. rewrite Hl by auto. split.
    + destruct (veq e w) eqn:Eq; [congruence|]. intros Hx. apply (HM w Hw) in Hx as (j & a & Hj & Ha & Hb).
      exists j, a. split; auto. split; auto. rewrite (gray_step 64 m) by auto. fold c.
      destruct (N.eqb_spec (N.of_nat j) (N.of_nat c)) as [Ej|]; auto.
      exfalso. assert (j = c) by lia. rewrite (proj1 (HMj j a w Hw Hj Ha)) in Eq; auto. discriminate.
    + intros (j & a & Hj & Ha & Hb). rewrite (gray_step 64 m) in Hb by auto. fold c in Hb.
      destruct (N.eqb_spec (N.of_nat j) (N.of_nat c)) as [Ej|Ej].
      * rewrite Ej, Eb in Hb. discriminate.
      * destruct (veq e w) eqn:Eq.
        -- exfalso. apply Ej. f_equal. apply (HMj j a w); auto.
        -- apply (HM w Hw). exists j, a. auto.
  - destruct (s_with_ok subset e Hs He) as (r & E1 & Hr & Hl & _). exists r. split; auto. split; auto.
    intros w Hw. rewrite Hl by auto. split.
    + destruct (veq e w) eqn:Eq.
      * intros _. exists c, e. split; auto. split; auto. rewrite (gray_step 64 m) by auto. fold c.
        rewrite N.eqb_refl, Eb. reflexivity.
      * intros Hx. apply (HM w Hw) in Hx as (j & a & Hj & Ha & Hb).
        exists j, a. split; auto. split; auto. rewrite (gray_step 64 m) by auto. fold c.
        destruct (N.eqb_spec (N.of_nat j) (N.of_nat c)) as [Ej|]; auto.
        exfalso. assert (j = c) by lia. rewrite (proj1 (HMj j a w Hw Hj Ha)) in Eq; auto. discriminate.
    + intros (j & a & Hj & Ha & Hb). destruct (veq e w) eqn:Eq; [discriminate|].
      rewrite (gray_step 64 m) in Hb by auto. fold c in Hb.
      destruct (N.eqb_spec (N.of_nat j) (N.of_nat c)) as [Ej|Ej].
      * exfalso. assert (j = c) by lia. rewrite (proj1 (HMj j a w Hw Hj Ha)) in Eq; auto. discriminate.
      * apply (HM w Hw). exists j, a. auto.
Qed.

Lemma powerset_step_ok es subset result (m : N) :
  distinct es -> allok es -> (length es <= 63)%nat -> sok subset -> pok result ->
  (m < 2 ^ N.of_nat (length es))%N -> m <> 0%N -> matches es subset (gray (N.pred m)) ->
  (forall u, sok u -> lookup (sel result) u <> None <-> exists k, (k < m)%N /\ matches es u (gray k)) ->
  exists subset' result', powerset_step es (subset, result) m = Ok (subset', result') /\
    sok subset' /\ pok result' /\ matches es subset' (gray m) /\
    (forall u, sok u -> lookup (sel result') u <> None <-> exists k, (k <= m)%N /\ matches es u (gray k)) /\
    s_count result' = (s_count result + 1)%Z.
Proof.
  intros Hd Ho Hn Hs Hp Hm H0 HM HR. unfold powerset_step.
  destruct (flip_ok es subset m) as (e & Ee & subset' & E1 & Hs' & HM'); auto.
  rewrite Ee, E1. cbn [bind].
  destruct (s_with_ok (vok := sok) result subset' Hp Hs') as (r & E2 & Hr & Hl & Hcnt).
  rewrite E2. cbn [bind]. exists subset', r. split; auto. split; auto. split; auto. split; auto.
  assert (HQ : forall a b, sok a -> sok b -> @veq _ setKey a b = true <-> seqv vok a b).
  { intros a b Ha Hb. destruct (s_equal_ok (HE := HE) (vok := vok) a b Ha Hb) as (x & E3 & Hx). cbn. rewrite E3. auto. }
  split.
  - intros u Hu. rewrite Hl by auto. destruct (veq subset' u) eqn:Eq.
    + split; [intros _|discriminate]. exists m. split; [lia|].
      apply HQ in Eq; auto. intros w Hw. rewrite <- (Eq w Hw). auto.
    + rewrite (HR u Hu). split; intros (k & Hk & Hmk).
      * exists k. split; auto. lia.
      * exists k. split; auto. assert (k <> m); [|lia]. intros ->.
        rewrite (proj2 (HQ subset' u Hs' Hu)) in Eq; [discriminate|]. eapply matches_seqv; eauto.
  - rewrite Hcnt. destruct (lookup (sel result) subset') as [z|] eqn:El; [|reflexivity]. exfalso.
    assert (lookup (sel result) subset' <> None) as Hx by congruence.
    apply (HR subset' Hs') in Hx as (k & Hk & Hmk).
    assert (gray k = gray m); [|apply gray_inj in H; lia].
    apply (matches_inj es subset'); auto; apply gray_lt; auto. lia.
Qed.

Lemma powerset_loop_ok es : distinct es -> allok es -> (length es <= 63)%nat ->
  forall n i subset result, i + n <= 2 ^ length es -> 0 < i -> sok subset -> pok result ->
  matches es subset (gray (N.of_nat (i - 1))) ->
  (forall u, sok u -> lookup (sel result) u <> None <-> exists k, (k < N.of_nat i)%N /\ matches es u (gray k)) ->
  exists subset' result', foldM (powerset_step es) (subset, result) (map N.of_nat (seq i n)) = Ok (subset', result') /\
    pok result' /\
    (forall u, sok u -> lookup (sel result') u <> None <-> exists k, (k < N.of_nat (i + n))%N /\ matches es u (gray k)) /\
    s_count result' = (s_count result + Z.of_nat n)%Z.
Proof.
  intros Hd Ho Hlen. induction n as [|n IH]; intros i subset result Hi Hi0 Hs Hp HM HR; cbn [seq map foldM].
  - exists subset, result. rewrite Nat.add_0_r. split; auto. split; auto. split; auto. lia.
  - destruct (powerset_step_ok es subset result (N.of_nat i)) as (s1 & r1 & E1 & Hs1 & Hp1 & HM1 & HR1 & Hc1); auto.
    { replace (2 ^ N.of_nat (length es))%N with (N.of_nat (2 ^ length es)).
      - lia.
      - rewrite Nat2N.inj_pow. reflexivity. }
    { lia. }
    { replace (N.pred (N.of_nat i)) with (N.of_nat (i - 1)) by lia. auto. }
    rewrite E1. cbn [bind].
    destruct (IH (S i) s1 r1) as (s2 & r2 & E2 & Hp2 & HR2 & Hc2); auto; try lia.
    { replace (S i - 1) with i by lia. auto. }
    { intros u Hu. rewrite (HR1 u Hu). split; intros (k & Hk & Hmk); exists k; split; auto; lia. }
    exists s2, r2. split; auto. split; auto. split; [|lia].
    intros u Hu. rewrite (HR2 u Hu). replace (S i + n) with (i + S n) by lia. tauto.
Qed.

(** A subset of [es] is selected by some bit mask. *)
Lemma subset_mask es : forall P : T -> Prop, (forall e, In e es -> P e \/ ~ P e) ->
  exists g, (g < 2 ^ N.of_nat (length es))%N /\
    forall j e, nth_error es j = Some e -> P e <-> N.testbit g (N.of_nat j) = true.
Proof.
  induction es as [|e es IH]; intros P HP.
  - exists 0%N. split; [simpl; lia|]. intros [|j] e; discriminate.
  - destruct (IH P) as (g & Hg & HG); [intros; apply HP; right; auto|].
    assert (HS : (2 ^ N.of_nat (length (e :: es)) = 2 * 2 ^ N.of_nat (length es))%N).
    { cbn [length]. rewrite Nat2N.inj_succ, N.pow_succ_r'. auto. }
    destruct (HP e (or_introl eq_refl)) as [He|He].
    + exists (2 * g + 1)%N. split; [lia|]. intros [|j] a Ha; simpl in Ha.
      * injection Ha as <-. rewrite N.testbit_odd_0. tauto.
      * rewrite Nat2N.inj_succ, N.testbit_odd_succ by lia. auto.
    + exists (2 * g)%N. split; [lia|]. intros [|j] a Ha; simpl in Ha.
      * injection Ha as <-. rewrite N.testbit_even_0. split; [tauto|discriminate].
      * rewrite Nat2N.inj_succ, N.testbit_even_succ by lia. auto.
Qed.

(** A set of elements of [es] is the subset of some position in the counting order. *)
Lemma subset_matches es u : allok es -> sok u -> (forall w, vok w -> lookup (sel u) w <> None -> lookup es w <> None) ->
  exists k, (k < 2 ^ N.of_nat (length es))%N /\ matches es u (gray k).
Proof.
  intros Ho Hu Hsub. destruct (subset_mask es (fun e => lookup (sel u) e <> None)) as (g & Hg & HG).
  { intros e He. destruct (lookup (sel u) e); [left|right]; congruence. }
  destruct (gray_surj (length es) g Hg) as (k & Hk & Ek). exists k. split; auto.
  intros w Hw. rewrite Ek. split.
  - intros Hx. pose proof (Hsub w Hw Hx) as Hy. destruct (lookup es w) as [e|] eqn:El; [|congruence].
    apply lookup_Some in El as [He Hq]. apply In_nth_error in He as (j & Hj). exists j, e. split; auto. split; auto.
    apply (HG j e Hj). rewrite (lookup_veq (vok := vok) (sel u) e w); auto.
    + apply sok_allok; auto.
    + apply Ho. eapply nth_error_In; eauto.
  - intros (j & e & Hj & Hq & Hb). apply (HG j e Hj) in Hb.
    rewrite <- (lookup_veq (vok := vok) (sel u) e w); auto.
    + apply sok_allok; auto.
    + apply Ho. eapply nth_error_In; eauto.
Qed.

Lemma s_powerset_ok s : sok s -> (s_count s <= 63)%Z ->
  exists r, s_powerset s = Ok r /\ pok r /\ s_count r = (2 ^ s_count s)%Z /\
    (forall u, sok u -> lookup (sel r) u <> None <->
       (forall w, vok w -> lookup (sel u) w <> None -> lookup (sel s) w <> None)).
Proof.
  intros Hs Hc. unfold s_powerset. pose proof (s_count_ok s Hs) as Hn.
  destruct (Z.ltb_spec 63 (s_count s)); [lia|].
  rewrite (s_elements_ok (vok := vok)) by auto. cbn [bind].
  set (es := sel s) in *.
  assert (Hd : distinct es) by (apply sok_distinct; auto).
  assert (Ho : allok es) by (apply sok_allok; auto).
  destruct (s_new_ok (vok := sok) [s_empty]) as (r0 & E0 & Hr0 & Hl0).
  { intros e [<-|[]]. apply sok_empty. }
  rewrite E0. cbn [bind].
  assert (HQ : forall a b, sok a -> sok b -> @veq _ setKey a b = true <-> seqv vok a b).
  { intros a b Ha Hb. destruct (s_equal_ok (HE := HE) (vok := vok) a b Ha Hb) as (x & E3 & Hx). cbn. rewrite E3. auto. }
  assert (Hpow : 1 + (2 ^ Z.to_nat (s_count s) - 1) = 2 ^ length es).
  { rewrite Hn, Nat2Z.id. pose proof (Nat.pow_nonzero 2 (length es)). lia. }
  assert (HM0 : matches es s_empty (gray 0)).
  { intros w Hw. split; [cbn; congruence|]. intros (j & e & _ & _ & Hb). change (gray 0) with 0%N in Hb.
    rewrite N.bits_0 in Hb. discriminate. }
  destruct (powerset_loop_ok es Hd Ho) with (n := 2 ^ Z.to_nat (s_count s) - 1) (i := 1) (subset := @s_empty T) (result := r0)
    as (s' & r & E1 & Hr & HR & Hcnt); auto.
  { lia. } { lia. } { apply sok_empty. }
  { intros u Hu. rewrite Hl0 by auto. unfold findLast. cbn [rev app find].
    destruct (veq s_empty u) eqn:Eq.
    - split; [intros _|discriminate]. exists 0%N. split; [lia|].
      apply HQ in Eq; auto using sok_empty. intros w Hw. rewrite <- (Eq w Hw). apply HM0; auto.
    - split; [congruence|]. intros (k & Hk & Hmk). exfalso. assert (k = 0%N) by lia. subst k.
      rewrite (proj2 (HQ s_empty u (sok_empty) Hu)) in Eq; [discriminate|]. eapply matches_seqv; eauto. }
  rewrite E1. cbn [bind]. exists r. split; auto. split; auto. split.
  - rewrite Hcnt. rewrite (s_count_ok (vok := sok) r0 Hr0).
    assert (HP0 : Permutation (sel r0) [s_empty]).
    { apply (lookup_perm (vok := sok)).
      - apply (sok_distinct (vok := sok)); auto.
      - constructor; [intros e []|constructor].
      - apply (sok_allok (vok := sok)); auto.
      - intros e [<-|[]]. apply sok_empty.
      - exact Hl0. }
    rewrite (Permutation_length HP0). cbn [length].
    rewrite Hn at 2. replace (2 ^ Z.of_nat (length es))%Z with (Z.of_nat (2 ^ length es)); [lia|].
    rewrite Nat2Z.inj_pow. reflexivity.
  - intros u Hu. rewrite (HR u Hu). rewrite Hpow. split.
    + intros (k & Hk & Hmk) w Hw Hx. apply (Hmk w Hw) in Hx as (j & e & Hj & He & _).
      intros Hf. pose proof (proj1 (lookup_None es w) Hf e (nth_error_In _ _ Hj)). congruence.
    + intros Hsub. destruct (subset_matches es u Ho Hu Hsub) as (k & Hk & Hmk). exists k. split; auto.
      rewrite Nat2N.inj_pow. exact Hk.
Qed.

Lemma s_powerset_big s : (63 < s_count s)%Z -> s_powerset s = Panic.
Proof. intros H. unfold s_powerset. destruct (Z.ltb_spec 63 (s_count s)); auto. lia. Qed.
End Powerset.
