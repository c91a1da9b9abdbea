(** * BitFacts: maskers, bit iterators and the Gray code used by Powerset. *)
From Coq Require Import Sorted.
From Verif Require Import Base Bits Env EnvFacts Node Iter Tree SetApi.
Local Open Scope N_scope.

(** ** BitIterator *)

Lemma shl1 i : (i < 64)%nat -> wshl 64 1 (N.of_nat i) = 2 ^ N.of_nat i.
Proof.
  intros H. unfold wshl. rewrite N.shiftl_1_l. apply wrap_small. apply N.pow_lt_mono_r; lia.
Qed.
Lemma shl1_big i : (64 <= i)%nat -> wshl 64 1 (N.of_nat i) = 0.
Proof.
  intros H. unfold wshl, wrap. rewrite N.shiftl_1_l.
  replace (N.of_nat i) with (64 + N.of_nat (i - 64)) by lia. rewrite N.pow_add_r.
  rewrite N.mul_comm. apply N.mod_mul. apply N.pow_nonzero. lia.
Qed.

Lemma land_pow2 b i : (N.land b (2 ^ i) =? 0) = negb (N.testbit b i).
Proof.
  destruct (N.testbit b i) eqn:Eb; simpl.
  - apply N.eqb_neq. intros H.
    assert (N.testbit (N.land b (2 ^ i)) i = true) as H1.
    { rewrite N.land_spec, Eb, N.pow2_bits_true. reflexivity. }
    rewrite H, N.bits_0 in H1. discriminate.
  - apply N.eqb_eq. apply N.bits_inj. intros j. rewrite N.land_spec, N.bits_0, N.pow2_bits_eqb.
    destruct (N.eqb_spec i j) as [->|]; [rewrite Eb|]; auto using andb_false_r.
Qed.

Lemma bi_has_spec b i : (i < 64)%nat -> bi_has b i = N.testbit b (N.of_nat i).
Proof. intros H. unfold bi_has. rewrite shl1 by auto. rewrite land_pow2, negb_involutive. auto. Qed.

Lemma bi_has_big b i : (64 <= i)%nat -> bi_has b i = false.
Proof. intros H. unfold bi_has. rewrite shl1_big by auto. rewrite N.land_0_r. reflexivity. Qed.

Lemma bi_with_spec b i j : (i < 64)%nat ->
  N.testbit (bi_with b i) (N.of_nat j) = ((j =? i)%nat || N.testbit b (N.of_nat j))%bool.
Proof.
  intros H. unfold bi_with. rewrite shl1 by auto. rewrite N.lor_spec, N.pow2_bits_eqb.
  rewrite orb_comm. f_equal. destruct (N.eqb_spec (N.of_nat i) (N.of_nat j)), (Nat.eqb_spec j i); auto; lia.
Qed.
Lemma bi_with_lt b i : b < 2 ^ 64 -> bi_with b i < 2 ^ 64.
Proof. intros H. unfold bi_with. apply lt_pow_lor; auto. apply wrap_lt. Qed.

(** What [Without] computes: bit 0 cleared, then everything shifted up by [i]. *)
Lemma bi_without_bits b i j : (j < 64)%nat ->
  N.testbit (bi_without b i) (N.of_nat j) =
  ((i <? j)%nat && N.testbit b (N.of_nat (j - i)))%bool.
Proof.
  intros H. unfold bi_without, wshl, wrap. rewrite N.mod_pow2_bits_low by lia.
  destruct (Nat.ltb_spec i j) as [Hij|Hij]; simpl.
  - rewrite N.shiftl_spec_high by lia. rewrite N.ldiff_spec.
    replace (N.of_nat j - N.of_nat i) with (N.of_nat (j - i)) by lia.
    replace (N.testbit 1 (N.of_nat (j - i))) with false; [apply andb_true_r|].
    change 1 with (2 ^ 0). rewrite N.pow2_bits_eqb. symmetry. apply N.eqb_neq. lia.
  - destruct (Nat.eq_dec i j) as [->|Hne].
    + rewrite N.shiftl_spec_high by lia. rewrite N.sub_diag, N.ldiff_spec. simpl. apply andb_false_r.
    + apply N.shiftl_spec_low. lia.
Qed.

Lemma one_bits_sorted w m : StronglySorted lt (one_bits w m).
Proof.
  unfold one_bits. generalize 0%nat as k. induction w as [|w IH]; intros k; simpl; [constructor|].
  destruct (N.testbit m (N.of_nat k)); auto. constructor; auto.
  apply Forall_forall. intros x Hx. apply filter_In in Hx as [Hx _]. apply in_seq in Hx. lia.
Qed.

Lemma bi_indices_spec b : b < 2 ^ 64 -> bi_indices b = one_bits 64 b.
Proof. intros H. unfold bi_indices. apply bit_loop_one_bits; auto. apply one_bits_length. Qed.

Lemma bi_count_spec b : bi_count b = length (one_bits 64 b).
Proof. apply popcount_one_bits. Qed.

(** ** Masker *)

Lemma m_subsetOf_spec m n : m_subsetOf m n = true <->
  (forall i, N.testbit m i = true -> N.testbit n i = true).
Proof.
  unfold m_subsetOf. rewrite N.eqb_eq. split.
  - intros H i Hi. assert (N.testbit (N.ldiff m n) i = false) as H1 by (rewrite H; apply N.bits_0).
    rewrite N.ldiff_spec, Hi in H1. simpl in H1. apply negb_false_iff in H1. auto.
  - intros H. apply N.bits_inj. intros i. rewrite N.ldiff_spec, N.bits_0.
    destruct (N.testbit m i) eqn:Em; auto. rewrite (H i Em). reflexivity.
Qed.

Lemma m_firstIsIn_spec m n : m < 2 ^ 16 -> m <> 0 ->
  m_firstIsIn m n = N.testbit n (N.of_nat (m_firstIndex m)).
Proof.
  intros H H0. unfold m_firstIsIn. rewrite m_first_spec by auto.
  pose proof (ctz_lt 16 m H H0) as Hlt. unfold m_firstIndex. rewrite newMasker_eq by auto.
  destruct (N.testbit n _) eqn:En.
  - apply m_subsetOf_spec. intros i. rewrite N.pow2_bits_eqb. intros Hi. apply N.eqb_eq in Hi. subst i. auto.
  - apply not_true_iff_false. intros Ht. pose proof (proj1 (m_subsetOf_spec _ _) Ht) as Hs. rewrite Hs in En; [discriminate|].
    apply N.pow2_bits_true.
Qed.

Lemma m_firstIndex_least m i : m < 2 ^ 16 -> m <> 0 ->
  N.testbit m (N.of_nat i) = true -> (m_firstIndex m <= i)%nat.
Proof.
  intros H H0 Hi.
  assert (In i (one_bits 16 m)) as Hin.
  { apply one_bits_In. split; auto. destruct (Nat.lt_ge_cases i 16) as [|Hge]; auto.
    rewrite (testbit_above 16 m (N.of_nat i) H) in Hi; [discriminate|]. clear - Hge. lia. }
  pose proof (one_bits_sorted 16 m) as HS. rewrite one_bits_cons in Hin, HS by auto.
  unfold m_firstIndex. destruct Hin as [<-|Hin]; auto.
  apply StronglySorted_inv in HS as [_ HF]. rewrite Forall_forall in HF. apply HF in Hin. lia.
Qed.

(** ** Gray code *)

Lemma pred_testbit w : forall m j, m < 2 ^ N.of_nat w -> m <> 0 ->
  N.testbit (N.pred m) j = if j <=? N.of_nat (ctz w m) then negb (N.testbit m j) else N.testbit m j.
Proof.
  induction w as [|w IH]; intros m j H H0; [simpl in H; lia|]. cbn [ctz].
  destruct (N.odd m) eqn:Eo.
  - pose proof (div2_odd_eq m Eo) as Em. set (q := N.div2 m) in *. rewrite Em.
    replace (N.pred (N.succ_double q)) with (N.double q) by (rewrite N.succ_double_spec, N.double_spec; lia).
    rewrite N.double_spec, N.succ_double_spec. destruct j as [|j] using N.peano_ind.
    + rewrite N.testbit_even_0, N.testbit_odd_0. reflexivity.
    + rewrite N.testbit_even_succ, N.testbit_odd_succ by lia.
      destruct (N.leb_spec (N.succ j) (N.of_nat 0)); auto. lia.
  - pose proof (div2_even_eq m Eo) as Em. pose proof (div2_lt_pow w m H) as Hq. set (q := N.div2 m) in *. rewrite Em.
    assert (q <> 0). { intros Hq0. rewrite Hq0 in Em. simpl in Em. auto. }
    rewrite pred_double by auto. rewrite N.double_spec, N.succ_double_spec. destruct j as [|j] using N.peano_ind.
    + rewrite N.testbit_even_0, N.testbit_odd_0. reflexivity.
    + rewrite N.testbit_even_succ, N.testbit_odd_succ by lia. rewrite IH by auto.
      destruct (N.leb_spec j (N.of_nat (ctz w q))), (N.leb_spec (N.succ j) (N.of_nat (S (ctz w q)))); auto; lia.
Qed.

Definition gray (i : N) : N := N.lxor i (N.div2 i).

Lemma gray_testbit i j : N.testbit (gray i) j = xorb (N.testbit i j) (N.testbit i (N.succ j)).
Proof. unfold gray. rewrite N.lxor_spec, testbit_div2'. reflexivity. Qed.

(** One step of the Gray code flips the bit at the index of the lowest one-bit. *)
Lemma gray_step w m j : m < 2 ^ N.of_nat w -> m <> 0 ->
  N.testbit (gray m) j =
  if j =? N.of_nat (ctz w m) then negb (N.testbit m (N.succ j)) else N.testbit (gray (N.pred m)) j.
Proof.
  intros H H0. rewrite !gray_testbit. rewrite !(pred_testbit w m) by auto.
  destruct (N.eqb_spec j (N.of_nat (ctz w m))) as [->|Hne].
  - rewrite ctz_testbit by auto. reflexivity.
  - destruct (N.leb_spec j (N.of_nat (ctz w m))), (N.leb_spec (N.succ j) (N.of_nat (ctz w m))); auto; try lia.
    destruct (N.testbit m j), (N.testbit m (N.succ j)); auto.
Qed.

Lemma gray_step_bit w m : m < 2 ^ N.of_nat w -> m <> 0 ->
  N.testbit (gray (N.pred m)) (N.of_nat (ctz w m)) = N.testbit m (N.succ (N.of_nat (ctz w m))).
Proof.
  intros H H0. rewrite gray_testbit, !(pred_testbit w m) by auto. rewrite N.leb_refl.
  destruct (N.leb_spec (N.succ (N.of_nat (ctz w m))) (N.of_nat (ctz w m))); [lia|].
  rewrite ctz_testbit by auto. simpl. destruct (N.testbit m _); auto.
Qed.

Lemma gray_lt w i : i < 2 ^ w -> gray i < 2 ^ w.
Proof.
  intros H. apply bits_lt. intros j Hj. rewrite gray_testbit, !(@testbit_above w i) by (auto; lia). reflexivity.
Qed.

Lemma gray_inj a b : gray a = gray b -> a = b.
Proof.
  intros H. apply N.lxor_eq. set (d := N.lxor a b).
  assert (Hd : N.div2 d = d).
  { apply N.lxor_eq. unfold d. apply N.bits_inj. intros i.
    assert (N.testbit (gray a) i = N.testbit (gray b) i) as Hi by (rewrite H; auto).
    rewrite !gray_testbit in Hi. rewrite N.bits_0, N.lxor_spec, testbit_div2', !N.lxor_spec.
    destruct (N.testbit a i), (N.testbit a (N.succ i)), (N.testbit b i), (N.testbit b (N.succ i)); simpl in *; congruence. }
  rewrite N.div2_div in Hd. destruct (N.eq_dec d 0) as [|Hd0]; auto.
  pose proof (N.div_lt d 2 ltac:(lia) ltac:(lia)). lia.
Qed.

Lemma gray_surj w : forall g, g < 2 ^ N.of_nat w -> exists k, k < 2 ^ N.of_nat w /\ gray k = g.
Proof.
  induction w as [|w IH]; intros g Hg.
  - exists 0. simpl in *. split; [lia|]. change (gray 0) with 0. lia.
  - destruct (IH (N.div2 g) (div2_lt_pow w g Hg)) as (k & Hk & Ek).
    set (b := xorb (N.testbit g 0) (N.testbit k 0)).
    exists (2 * k + N.b2n b).
    assert (HS : 2 ^ N.of_nat (S w) = 2 * 2 ^ N.of_nat w) by (rewrite Nat2N.inj_succ, N.pow_succ_r'; auto).
    split; [destruct b; simpl N.b2n; lia|].
    apply N.bits_inj. intros j. rewrite gray_testbit. rewrite N.testbit_succ_r.
    destruct j as [|j] using N.peano_ind.
    + rewrite N.testbit_0_r. unfold b. destruct (N.testbit g 0), (N.testbit k 0); auto.
    + rewrite N.testbit_succ_r. rewrite <- gray_testbit, Ek. apply testbit_div2'.
Qed.
