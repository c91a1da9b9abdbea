(** * ExtraFacts: Iota and NewSetFromMask64 (set_extra.go). *)
From Verif Require Import Base Bits Env EnvFacts Node NodeWf NodeAdd NodeRemove NodeBin NodeBin2 NodeUn Iter Tree TreeFacts SetApi SetFacts BitFacts.
Local Open Scope Z_scope.

(** Go's [int] as an element type: [==] and any 64-bit hash. *)
Definition intKey (h : Z -> N -> N) : Key Z := {| veq := Z.eqb; vhash := fun v seed => wrap 64 (h v seed) |}.

Lemma intKeyOk h (vok : Z -> Prop) : KeyOk (intKey h) vok.
Proof.
  constructor; cbn; intros.
  - apply Z.eqb_refl.
  - rewrite Z.eqb_sym. auto.
  - apply Z.eqb_eq. rewrite Z.eqb_eq in *. congruence.
  - rewrite Z.eqb_eq in *. congruence.
  - apply wrap_lt.
Qed.

(** The range of a 64-bit [int]. *)
Definition isInt (z : Z) : Prop := - 2 ^ 63 <= z < 2 ^ 63.

Lemma int64_id z : isInt z -> int64 z = z.
Proof. unfold isInt, int64. intros H. rewrite Z.mod_small; lia. Qed.
Lemma int64_isInt z : isInt (int64 z).
Proof. unfold isInt, int64. pose proof (Z.mod_pos_bound (z + 2 ^ 63) (2 ^ 64)). lia. Qed.

(** [v] comes strictly before [stop] in the direction of [step]. *)
Definition before (step v stop : Z) : Prop := 0 < step /\ v < stop \/ step < 0 /\ stop < v.

(** The loop does not overflow: the first value not before [stop] is still an [int]. *)
Definition noOverflow (stop step : Z) : Prop :=
  0 < step /\ stop - 1 + step < 2 ^ 63 \/ step < 0 /\ - 2 ^ 63 <= stop + 1 + step.

(** Number of rounds that always suffices. *)
Definition iotaRounds (start stop : Z) : nat := S (Z.to_nat (Z.abs (stop - start))).

Lemma iota_loop_ok fuel : forall i stop step, isInt i -> isInt stop -> step <> 0 -> noOverflow stop step ->
  (Z.to_nat (Z.abs (stop - i)) < fuel)%nat \/ (~ before step i stop /\ 0 < fuel)%nat ->
  exists l, iota_loop fuel i stop step = Ok l /\ NoDup l /\
    (forall v, In v l <-> exists k, 0 <= k /\ v = i + k * step /\ before step v stop).
Proof.
  induction fuel as [|fuel IH]; intros i stop step Hi Hs H0 HO Hf; [lia|]. cbn [iota_loop].
  assert (Hb : (if 0 <? step then i <? stop else stop <? i) = true <-> before step i stop).
  { unfold before. destruct (Z.ltb_spec 0 step); [destruct (Z.ltb_spec i stop)|destruct (Z.ltb_spec stop i)]; split; intros; try lia; discriminate. }
  destruct (if 0 <? step then i <? stop else stop <? i).
  - pose proof (proj1 Hb eq_refl) as HB. clear Hb.
    assert (Hn : isInt (i + step)) by (unfold isInt, before, noOverflow in *; lia).
    rewrite int64_id by auto.
    destruct (IH (i + step) stop step) as (l & El & HN & HI); auto.
    { destruct Hf as [Hf|[Hf _]]; [|tauto]. destruct fuel as [|fuel].
      - unfold before in *. lia.
      - destruct (Z_lt_dec (Z.abs (stop - (i + step))) (Z.abs (stop - i))); [left; lia|].
        right. split; [|lia]. unfold before in *. lia. }
    rewrite El. cbn [bind]. exists (i :: l). split; auto. split.
    + constructor; auto. rewrite HI. intros (k & Hk & Hv & _). nia.
    + intros v. cbn [In]. rewrite HI. split.
      * intros [<-|(k & Hk & Hv & Hvb)].
        -- exists 0. split; [lia|]. split; [lia|]. auto.
        -- exists (k + 1). split; [lia|]. split; [lia|]. auto.
      * intros (k & Hk & Hv & Hvb). destruct (Z.eq_dec k 0) as [->|Hk0]; [left; lia|].
        right. exists (k - 1). split; [lia|]. split; [lia|]. auto.
  - exists []. split; auto. split; [constructor|]. intros v. split; [intros []|].
    intros (k & Hk & Hv & Hvb). exfalso. assert (~ before step i stop) as HB by (rewrite <- Hb; discriminate).
    unfold before in *. nia.
Qed.

Section Iota.
Local Opaque maxTreeDepth fanout fb.
Context {E : Env} (h : Z -> N -> N).
#[local] Instance iK : Key Z := intKey h.
#[local] Instance iKO : KeyOk iK isInt := intKeyOk h isInt.

Lemma int_lookup (l : list Z) w : lookup l w <> None <-> In w l.
Proof.
  split.
  - intros H. destruct (lookup l w) as [e|] eqn:El; [|congruence]. apply lookup_Some in El as [He Hq].
    cbn in Hq. apply Z.eqb_eq in Hq. subst; auto.
  - intros H Hn. pose proof (proj1 (lookup_None l w) Hn w H) as Hq. cbn in Hq. rewrite Z.eqb_refl in Hq. discriminate.
Qed.

Lemma int_findLast (l : list Z) w : findLast l w <> None <-> In w l.
Proof.
  unfold findLast. split.
  - intros H. apply in_rev. apply int_lookup. exact H.
  - intros H. apply in_rev in H. apply int_lookup in H. exact H.
Qed.

(** The set built by adding [vs] one after another. *)
Lemma intset_built vs : (forall v, In v vs -> isInt v) -> NoDup vs ->
  exists b, sb_addAll (mkSB emptyTree) vs = Ok b /\ sok isInt (fst (sb_finish b)) /\
    (forall v, In v (sel (fst (sb_finish b))) <-> In v vs) /\
    s_count (fst (sb_finish b)) = Z.of_nat (length vs).
Proof.
  intros Hv HN. destruct (sb_addAll_ok (vok := isInt) vs (mkSB emptyTree) bok_empty Hv) as (b & E1 & Hb & Hl).
  exists b. split; auto. split; auto.
  set (s := fst (sb_finish b)). assert (Hs : sok isInt s) by exact Hb.
  assert (HIn : forall v, In v (sel s) <-> In v vs).
  { intros v. split.
    - intros H. assert (Hvok : isInt v) by (apply (sok_allok s Hs); auto).
      apply int_lookup in H. change (lookup (sel s) v) with (lookup (bel b) v) in H. rewrite Hl in H by auto.
      apply int_findLast. destruct (findLast vs v); [discriminate|]. exfalso. apply H. reflexivity.
    - intros H. apply int_lookup. change (lookup (sel s) v) with (lookup (bel b) v). rewrite Hl by auto.
      apply int_findLast in H. destruct (findLast vs v); congruence. }
  split; auto.
  rewrite (s_count_ok s Hs). f_equal. apply Permutation_length. apply NoDup_Permutation; auto.
  apply (distinct_NoDup (vok := isInt)); [apply sok_allok|apply sok_distinct]; auto.
Qed.

Lemma s_iota3_ok fuel start stop step : isInt start -> isInt stop -> step <> 0 -> noOverflow stop step ->
  (iotaRounds start stop <= fuel)%nat ->
  exists r, s_iota3 fuel start stop step = Ok r /\ sok isInt r /\
    (forall v, In v (sel r) <-> exists k, 0 <= k /\ v = start + k * step /\ before step v stop).
Proof.
  intros H1 H2 H0 HO Hf. unfold s_iota3. destruct (Z.eqb_spec step 0); [lia|].
  destruct (iota_loop_ok fuel start stop step) as (l & El & HN & HI); auto.
  rewrite El. cbn [bind].
  destruct (intset_built l) as (b & Eb & Hs & HIn & _); auto.
  { intros v Hv. apply HI in Hv as (k & Hk & -> & Hb). unfold isInt, before in *. nia. }
  rewrite Eb. cbn [bind]. eexists. split; [reflexivity|]. split; auto.
  intros v. rewrite HIn. apply HI.
Qed.

Lemma s_iota3_zero fuel start stop :
  s_iota3 fuel start stop 0 = if start =? stop then Ok s_empty else Panic.
Proof. reflexivity. Qed.

(** Iota3(0, math.MaxInt, 2) does not end. *)
Lemma iota_loop_forever fuel : forall i, isInt i -> Z.even i = true ->
  iota_loop fuel i (2 ^ 63 - 1) 2 = Fuel.
Proof.
  induction fuel as [|fuel IH]; intros i Hi He; [reflexivity|]. cbn [iota_loop].
  change (0 <? 2) with true. cbv iota.
  assert (Hne : i <> 2 ^ 63 - 1). { intros ->. discriminate He. }
  destruct (Z.ltb_spec i (2 ^ 63 - 1)) as [_|Hge]; [|unfold isInt in Hi; lia].
  rewrite IH; auto.
  - apply int64_isInt.
  - unfold int64. apply Z.even_spec in He as [q Hq].
    assert (Hm : exists r, (i + 2 + 2 ^ 63) mod 2 ^ 64 = 2 * r).
    { exists ((i + 2 + 2 ^ 63 - 2 ^ 64 * ((i + 2 + 2 ^ 63) / 2 ^ 64)) / 2).
      rewrite Z.mod_eq by lia. set (d := (i + 2 + 2 ^ 63) / 2 ^ 64).
      replace (i + 2 + 2 ^ 63 - 2 ^ 64 * d) with ((q + 1 + 2 ^ 62 - 2 ^ 63 * d) * 2) by lia.
      rewrite Z.div_mul by lia. lia. }
    destruct Hm as [r ->]. apply Z.even_spec. exists (r - 2 ^ 62). lia.
Qed.

Lemma s_iota3_forever fuel : s_iota3 fuel 0 (2 ^ 63 - 1) 2 = Fuel.
Proof.
  unfold s_iota3. change (2 =? 0) with false. cbv iota.
  rewrite iota_loop_forever; auto. unfold isInt. lia.
Qed.

Lemma s_fromMask64_ok mask : (mask < 2 ^ 64)%N ->
  exists r, s_fromMask64 mask = Ok r /\ sok isInt r /\
    (forall v, In v (sel r) <-> 0 <= v < 64 /\ N.testbit mask (Z.to_N v) = true) /\
    s_count r = Z.of_nat (bi_count mask).
Proof.
  intros Hm. unfold s_fromMask64. rewrite bi_indices_spec by auto.
  destruct (intset_built (map Z.of_nat (one_bits 64 mask))) as (b & Eb & Hs & HIn & Hc).
  { intros v Hv. apply in_map_iff in Hv as (i & <- & Hi). apply one_bits_In in Hi as [Hi _]. unfold isInt. lia. }
  { apply FinFun.Injective_map_NoDup; [|apply one_bits_NoDup]. intros a b. apply Nat2Z.inj. }
  rewrite Eb. cbn [bind]. eexists. split; [reflexivity|]. split; auto. split.
  - intros v. rewrite HIn, in_map_iff. split.
    + intros (i & <- & Hi). apply one_bits_In in Hi as [Hi Hb]. split; [lia|].
      replace (Z.to_N (Z.of_nat i)) with (N.of_nat i) by lia. auto.
    + intros [Hv Hb]. exists (Z.to_nat v). split; [lia|]. apply one_bits_In. split; [lia|].
      replace (N.of_nat (Z.to_nat v)) with (Z.to_N v) by lia. auto.
  - rewrite Hc, map_length, bi_count_spec. reflexivity.
Qed.
End Iota.
