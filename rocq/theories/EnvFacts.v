(** * EnvFacts: lemmas about the masker, the hasher and [Gauge.Parallel]. *)
From Verif Require Import Base Bits Env.
Local Open Scope N_scope.

Lemma mask_loop_bit_loop n m : mask_loop n m = bit_loop n 16 m.
Proof. revert m; induction n as [|n IH]; intros m; simpl; auto. rewrite IH; auto. Qed.

Lemma mask_indices_spec m : m < 2 ^ 16 -> mask_indices m = one_bits 16 m.
Proof.
  intros H. unfold mask_indices. rewrite mask_loop_bit_loop.
  apply bit_loop_one_bits; auto. apply one_bits_length.
Qed.

Lemma mask_indices_In m i : m < 2 ^ 16 ->
  In i (mask_indices m) <-> (i < 16)%nat /\ N.testbit m (N.of_nat i) = true.
Proof. intros H. rewrite mask_indices_spec by auto. apply one_bits_In. Qed.

Lemma mask_indices_NoDup m : m < 2 ^ 16 -> NoDup (mask_indices m).
Proof. intros H. rewrite mask_indices_spec by auto. apply one_bits_NoDup. Qed.

Lemma newMasker_eq i : (i < 16)%nat -> newMasker i = 2 ^ N.of_nat i.
Proof.
  intros H. unfold newMasker, wshl. rewrite N.shiftl_1_l. apply wrap_small.
  apply N.pow_lt_mono_r; lia.
Qed.

Lemma newMasker_lt i : newMasker i < 2 ^ 16.
Proof. apply wrap_lt. Qed.

Lemma newMasker_testbit i j : (i < 16)%nat ->
  N.testbit (newMasker i) (N.of_nat j) = Nat.eqb i j.
Proof.
  intros H. rewrite newMasker_eq by auto. rewrite N.pow2_bits_eqb.
  destruct (N.eqb_spec (N.of_nat i) (N.of_nat j)), (Nat.eqb_spec i j); auto; lia.
Qed.

(** [First] isolates the lowest one-bit. *)
Lemma m_first_spec m : m < 2 ^ 16 -> m <> 0 -> m_first m = newMasker (m_firstIndex m).
Proof.
  intros H H0. unfold m_first, m_firstIndex.
  pose proof (ctz_lt 16 m H H0) as Hlt.
  rewrite newMasker_eq by auto.
  pose proof (strip_low_spec 16 m H H0) as E.
  rewrite wsub_1 by auto.
  apply N.bits_inj. intro n. rewrite N.ldiff_spec, N.pow2_bits_eqb.
  assert (En : N.testbit (N.land m (N.pred m)) n = N.testbit (N.clearbit m (N.of_nat (ctz 16 m))) n)
    by (f_equal; exact E).
  rewrite N.land_spec, N.clearbit_eqb in En.
  destruct (N.eqb_spec (N.of_nat (ctz 16 m)) n) as [Hn|Hn].
  - subst n. pose proof (ctz_testbit 16 m H H0) as Ht. rewrite Ht in En |- *.
    destruct (N.testbit (N.pred m) (N.of_nat (ctz 16 m))); cbn [andb negb] in *; congruence.
  - destruct (N.testbit m n), (N.testbit (N.pred m) n); cbn [andb negb] in *; congruence.
Qed.

Section WithEnv.
Context {E : Env}.

Lemma fb_cases : fb = 2%nat \/ fb = 3%nat.
Proof. unfold fb. destruct env_build; simpl; auto. Qed.

Lemma fb_pos : (0 < fb)%nat.
Proof. destruct fb_cases as [H|H]; rewrite H; lia. Qed.

Lemma fanout_cases : fanout = 4%nat \/ fanout = 8%nat.
Proof. unfold fanout. destruct fb_cases as [H|H]; rewrite H; simpl; auto. Qed.

Lemma fanout_le : (fanout <= 16)%nat.
Proof. destruct fanout_cases as [H|H]; rewrite H; lia. Qed.

Lemma fanout_pos : (0 < fanout)%nat.
Proof. destruct fanout_cases as [H|H]; rewrite H; lia. Qed.

Lemma maxTreeDepth_cases : (fb = 2 /\ maxTreeDepth = 32)%nat \/ (fb = 3 /\ maxTreeDepth = 22)%nat.
Proof. unfold maxTreeDepth, fb. destruct env_build; vm_compute; auto. Qed.

Lemma maxTreeDepth_bits : (64 <= maxTreeDepth * fb)%nat.
Proof. destruct maxTreeDepth_cases as [[-> ->]|[-> ->]]; lia. Qed.

Lemma lt_maxTreeDepth_bits d : (d < maxTreeDepth -> d * fb < 64)%nat.
Proof. destruct maxTreeDepth_cases as [[-> ->]|[-> ->]]; lia. Qed.

Lemma maxTreeDepth_pos : (0 < maxTreeDepth)%nat.
Proof. unfold maxTreeDepth. lia. Qed.

Section Hasher.
Context {T : Type} {K : Key T}.

Lemma newHasher_lt (e : T) d : newHasher e d < 2 ^ 64.
Proof. apply wrap_lt. Qed.

Lemma newHasher_testbit (e : T) d i :
  N.testbit (newHasher e d) i =
  (i <? 64) && (N.of_nat (d * fb) <=? i) && N.testbit (vhash e 0) (i - N.of_nat (d * fb)).
Proof.
  unfold newHasher, wshl, wrap.
  destruct (N.ltb_spec i 64) as [H|H].
  - rewrite N.mod_pow2_bits_low by auto.
    destruct (N.leb_spec (N.of_nat (d * fb)) i) as [H1|H1].
    + rewrite N.shiftl_spec_high by lia. reflexivity.
    + rewrite N.shiftl_spec_low by lia. reflexivity.
  - rewrite N.mod_pow2_bits_high by auto. reflexivity.
Qed.

Lemma newHasher_S (e : T) d : newHasher e (S d) = h_next (newHasher e d).
Proof.
  apply N.bits_inj. intro i. rewrite newHasher_testbit.
  unfold h_next, wshl, wrap.
  destruct (N.ltb_spec i 64) as [H|H].
  - rewrite N.mod_pow2_bits_low by auto.
    destruct (N.leb_spec (N.of_nat fb) i) as [H1|H1].
    + rewrite N.shiftl_spec_high by lia. rewrite newHasher_testbit.
      destruct (N.ltb_spec (i - N.of_nat fb) 64); [|lia].
      destruct (N.leb_spec (N.of_nat (S d * fb)) i), (N.leb_spec (N.of_nat (d * fb)) (i - N.of_nat fb));
        simpl; try lia; auto.
      f_equal. lia.
    + rewrite N.shiftl_spec_low by lia.
      destruct (N.leb_spec (N.of_nat (S d * fb)) i); auto. lia.
  - rewrite N.mod_pow2_bits_high by auto. reflexivity.
Qed.

(** The child index selected at [depth] for an element. *)
Definition digit (d : nat) (e : T) : nat := h_hash (newHasher e d).

Lemma h_hash_testbit h i : h < 2 ^ 64 ->
  N.testbit (N.of_nat (h_hash h)) i = N.testbit h (i + N.of_nat (64 - fb)).
Proof.
  intros H. unfold h_hash, hashBitsOffset, hashBits. rewrite N2Nat.id, N.shiftr_spec by lia. reflexivity.
Qed.

Lemma digit_lt d e : (digit d e < fanout)%nat.
Proof.
  unfold digit, h_hash, fanout, hashBitsOffset, hashBits.
  assert (N.shiftr (newHasher e d) (N.of_nat (64 - fb)) < 2 ^ N.of_nat fb) as H.
  { rewrite N.shiftr_div_pow2. apply N.div_lt_upper_bound; [apply N.pow_nonzero; lia|].
    rewrite <- N.pow_add_r.
    replace (N.of_nat (64 - fb) + N.of_nat fb) with 64 by (destruct fb_cases as [X|X]; rewrite X; reflexivity).
    apply newHasher_lt. }
  destruct fb_cases as [X|X]; rewrite X in *; simpl N.of_nat in *; simpl Nat.pow; lia.
Qed.

Lemma digit_testbit d e i : (i < fb)%nat ->
  N.testbit (N.of_nat (digit d e)) (N.of_nat i) =
  (d * fb + fb - i <=? 64)%nat && N.testbit (vhash e 0) (N.of_nat (64 - (d * fb + fb - i))).
Proof.
  intros Hi. unfold digit. rewrite h_hash_testbit by apply newHasher_lt.
  rewrite newHasher_testbit.
  assert (Hfb : (fb <= 3)%nat) by (destruct fb_cases as [X|X]; rewrite X; lia).
  generalize (d * fb)%nat as q. intros q.
  destruct (N.ltb_spec (N.of_nat i + N.of_nat (64 - fb)) 64); [|lia].
  destruct (Nat.leb_spec (q + fb - i) 64),
    (N.leb_spec (N.of_nat q) (N.of_nat i + N.of_nat (64 - fb))); cbn [andb]; auto; try lia.
  f_equal. lia.
Qed.

(** Elements that agree on every trie index have the same 64-bit hash. *)
Lemma digits_hash (a b : T) :
  vhash a 0 < 2 ^ 64 -> vhash b 0 < 2 ^ 64 ->
  (forall k, (k < maxTreeDepth)%nat -> digit k a = digit k b) -> vhash a 0 = vhash b 0.
Proof.
  intros Ha Hb H. apply N.bits_inj. intro n.
  destruct (N.lt_ge_cases n 64) as [Hn|Hn].
  2:{ rewrite !(@testbit_above 64) by auto. reflexivity. }
  set (j := N.to_nat n). assert (Hj : (j < 64)%nat) by lia.
  replace n with (N.of_nat j) by lia.
  (* bit j sits in the digit at depth k with offset i *)
  set (k := ((63 - j) / fb)%nat).
  pose proof fb_pos as Hfb.
  pose proof (Nat.div_mod (63 - j) fb ltac:(lia)) as Hdm. fold k in Hdm.
  pose proof (Nat.mod_upper_bound (63 - j) fb ltac:(lia)) as Hmod.
  set (r := ((63 - j) mod fb)%nat) in *.
  assert (Hk : (k < maxTreeDepth)%nat).
  { unfold maxTreeDepth, hashBits. assert (k <= (64 - 1) / fb)%nat; [|lia].
    unfold k. apply Nat.div_le_mono; lia. }
  assert (Hd := H k Hk).
  assert (Hi : (fb - 1 - r < fb)%nat) by lia.
  pose proof (digit_testbit k a (fb - 1 - r) Hi) as Ea.
  pose proof (digit_testbit k b (fb - 1 - r) Hi) as Eb.
  rewrite Hd in Ea. rewrite Ea in Eb.
  assert (Hkr : (k * fb + r = 63 - j)%nat) by lia.
  destruct (Nat.leb_spec (k * fb + fb - (fb - 1 - r)) 64); [|lia].
  cbn [andb] in Eb.
  replace (64 - (k * fb + fb - (fb - 1 - r)))%nat with j in Eb by lia.
  exact Eb.
Qed.

Lemma hash_digit (a b : T) d : vhash a 0 = vhash b 0 -> digit d a = digit d b.
Proof. intros H. unfold digit, newHasher. rewrite H. reflexivity. Qed.

End Hasher.

(** ** Parallel *)

Lemma par_order_perm g d m : gaugeOk g -> Permutation (par_order g d m) (mask_indices m).
Proof. intros H. unfold par_order. destruct (_ <? _)%Z; auto. Qed.

Lemma gaugeOk_sub g i : gaugeOk g -> gaugeOk (g_sub i g).
Proof. intros H p l. simpl. apply H. Qed.

Lemma gaugeOk_NonParallel : EnvOk E -> gaugeOk NonParallel.
Proof. intros H p l. apply H. Qed.

Lemma gaugeOk_new c : EnvOk E -> gaugeOk (newGauge c).
Proof. intros H p l. apply H. Qed.

End WithEnv.

(** Matches reported by one worker (0 for a worker that does not return). *)
Definition outZ {A} (r : res (A * Z)) : Z := match r with Ok (_, m) => m | _ => 0%Z end.

(** The closures of the trie operations fill slot [i] of the result with the outcome of
    an independent computation [g i]; whatever the completion order, the slots and the
    total are the same. *)
Section ParSlots.
Context {A M : Type}.
(** Worker [i] runs [g i] and stores its first component in slot [i]. *)
Definition slot_worker (g : nat -> res (A * Z)) (f : nat -> (M * list A) -> res (bool * Z * (M * list A)))
    (order : list nat) : Prop :=
  forall i s, In i order -> exists fm : M -> M,
    f i s = bind (g i) (fun rm => Ok (true, snd rm, (fm (fst s), set_nth (snd s) i (fst rm)))).

Lemma slot_worker_cons g f i order : slot_worker g f (i :: order) -> slot_worker g f order.
Proof. intros H j s Hj. apply H. right; auto. Qed.

Lemma par_slots g f order acc s dft :
  slot_worker g f order ->
  NoDup order ->
  (forall i, In i order -> (i < length (snd s))%nat) ->
  (forall i, In i order -> exists r m, g i = Ok (r, m)) ->
  exists s',
    par_loop f order acc s = Ok (true, (acc + sumZ (map (fun i => outZ (g i)) order))%Z, s') /\
    length (snd s') = length (snd s) /\
    (forall i r m, In i order -> g i = Ok (r, m) -> nth i (snd s') dft = r) /\
    (forall i, ~ In i order -> nth i (snd s') dft = nth i (snd s) dft).
Proof.
  revert acc s; induction order as [|i order IH]; intros acc s Hf Hnd Hlt Hok.
  - exists s. simpl. rewrite Z.add_0_r. repeat split; auto; intros; contradiction.
  - inversion Hnd as [|? ? Hni Hnd']; subst.
    destruct (Hok i (or_introl eq_refl)) as (r & m & Hg).
    destruct (Hf i s (or_introl eq_refl)) as (fm & Hfi). simpl par_loop. rewrite Hfi, Hg. simpl.
    set (s1 := (fm (fst s), set_nth (snd s) i r)).
    destruct (IH (acc + m)%Z s1) as (s' & E1 & E2 & E3 & E4); auto.
    { eapply slot_worker_cons; eauto. }
    { intros j Hj. simpl. rewrite set_nth_length. apply Hlt. right; auto. }
    { intros j Hj. apply Hok; right; auto. }
    exists s'. split; [|split; [|split]].
    + rewrite E1. simpl. rewrite Hg. simpl. rewrite Z.add_assoc. reflexivity.
    + rewrite E2. simpl. apply set_nth_length.
    + intros j r' m' [<-|Hj] Hg'.
      * rewrite Hg in Hg'; inversion Hg'; subst.
        rewrite E4 by auto. simpl. apply nth_set_nth_eq. apply Hlt. left; auto.
      * apply E3 with m'; auto.
    + intros j Hj. rewrite E4; [|intro; apply Hj; right; auto].
      simpl. apply nth_set_nth_ne. intro; subst; apply Hj; left; auto.
Qed.

(** If no worker runs out of fuel and one of them panics, the whole operation panics. *)
Lemma par_slots_panic g f order acc s :
  slot_worker g f order ->
  (forall i, In i order -> g i <> Fuel) ->
  (exists i, In i order /\ g i = Panic) ->
  par_loop f order acc s = Panic.
Proof.
  revert acc s; induction order as [|i order IH]; intros acc s Hf Hnf (j & Hj & Hp).
  - contradiction.
  - simpl. destruct (Hf i s (or_introl eq_refl)) as (fm & Hfi). rewrite Hfi.
    destruct (g i) as [[r m]| |] eqn:Hg; simpl; auto.
    + destruct Hj as [<-|Hj]; [congruence|].
      apply IH; [eapply slot_worker_cons; eauto | intros; apply Hnf; right; auto | exists j; auto].
    + exfalso. apply (Hnf i); auto. left; auto.
Qed.
End ParSlots.

(** Workers that only report a boolean (Equal, SubsetOf). *)
Lemma par_bool (g : nat -> res bool) (f : nat -> unit -> res (bool * Z * unit)) order acc :
  (forall i u, In i order -> f i u = bind (g i) (fun b => Ok (b, 0%Z, tt))) ->
  (forall i, In i order -> exists b, g i = Ok b) ->
  exists m, par_loop f order acc tt = Ok (forallb (fun i => match g i with Ok b => b | _ => false end) order, m, tt).
Proof.
  revert acc; induction order as [|i order IH]; intros acc Hf Hok.
  - simpl; eauto.
  - simpl. rewrite Hf by (left; auto). destruct (Hok i (or_introl eq_refl)) as (b & Hg). rewrite Hg. simpl.
    destruct b; simpl; eauto.
    apply IH; intros; [apply Hf | apply Hok]; right; auto.
Qed.

Lemma sumZ_perm l1 l2 : Permutation l1 l2 -> sumZ l1 = sumZ l2.
Proof. induction 1; simpl; try lia. Qed.

Lemma sumZ_app l1 l2 : sumZ (l1 ++ l2) = (sumZ l1 + sumZ l2)%Z.
Proof. induction l1; simpl; lia. Qed.

Lemma sumZ_filter {A} (f : A -> Z) (p : A -> bool) l :
  sumZ (map f (filter p l)) = sumZ (map (fun a => if p a then f a else 0%Z) l).
Proof. induction l as [|a l IH]; simpl; auto. destruct (p a); simpl; lia. Qed.

Lemma sumZ_ext {A} (f g : A -> Z) l : (forall a, In a l -> f a = g a) -> sumZ (map f l) = sumZ (map g l).
Proof.
  induction l as [|a l IH]; simpl; intros H; auto. rewrite H, IH; auto.
Qed.

Lemma sumZ_plus {A} (f g : A -> Z) l :
  sumZ (map (fun a => f a + g a)%Z l) = (sumZ (map f l) + sumZ (map g l))%Z.
Proof. induction l; simpl; lia. Qed.

Lemma sumZ_minus {A} (f g : A -> Z) l :
  sumZ (map (fun a => f a - g a)%Z l) = (sumZ (map f l) - sumZ (map g l))%Z.
Proof. induction l; simpl; lia. Qed.

Lemma sumZ_mask {E : Env} (h : nat -> Z) m :
  (m < 2 ^ 16)%N -> (forall i, (fanout <= i)%nat -> N.testbit m (N.of_nat i) = false) ->
  (forall i, (i < fanout)%nat -> N.testbit m (N.of_nat i) = false -> h i = 0%Z) ->
  sumZ (map h (mask_indices m)) = sumZ (map h (seq 0 fanout)).
Proof.
  intros Hm Hhi Hz. rewrite mask_indices_spec by auto. unfold one_bits.
  rewrite sumZ_filter.
  pose proof fanout_le as Hfl.
  replace 16%nat with (fanout + (16 - fanout))%nat by lia.
  rewrite seq_app, map_app, sumZ_app.
  assert (H2 : sumZ (map (fun a => if N.testbit m (N.of_nat a) then h a else 0%Z) (seq (0 + fanout) (16 - fanout))) = 0%Z).
  { assert (forall l, (forall a, In a l -> (fanout <= a)%nat) ->
      sumZ (map (fun a => if N.testbit m (N.of_nat a) then h a else 0%Z) l) = 0%Z) as Hl.
    { induction l as [|a l IH]; simpl; intros Ha; auto. rewrite Hhi, IH; auto. }
    apply Hl. intros a Ha. apply in_seq in Ha. lia. }
  rewrite H2, Z.add_0_r. apply sumZ_ext. intros a Ha. apply in_seq in Ha.
  destruct (N.testbit m (N.of_nat a)) eqn:Et; auto. symmetry. apply Hz; auto. lia.
Qed.
