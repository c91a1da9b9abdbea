(** * SpecHasher: the text of a hasher (C60). *)
From Verif Require Import Base Bits Env EnvFacts HasherText.
Local Open Scope N_scope.

Section Hasher.
Context {E : Env}.

Lemma wshl_plus a m n : wshl 64 (wshl 64 a m) n = wshl 64 a (m + n).
Proof.
  unfold wshl, wrap. apply N.bits_inj. intros k. destruct (N.ltb_spec k 64) as [Hk|Hk]; [|rewrite !N.mod_pow2_bits_high; auto].
  rewrite !N.mod_pow2_bits_low by auto. destruct (N.ltb_spec k n) as [Hn|Hn].
  - rewrite !N.shiftl_spec_low by lia. auto.
  - rewrite N.shiftl_spec_high' by auto. rewrite N.mod_pow2_bits_low by lia. destruct (N.ltb_spec (k - n) m) as [Hm|Hm].
    + rewrite !N.shiftl_spec_low by lia. auto.
    + rewrite !N.shiftl_spec_high' by lia. f_equal. lia.
Qed.
Lemma wshl_all a n : 64 <= n -> wshl 64 a n = 0.
Proof.
  intros Hn. unfold wshl, wrap. rewrite N.shiftl_mul_pow2. replace n with (n - 64 + 64) by lia.
  rewrite N.pow_add_r, N.mul_assoc. apply N.mod_mul. discriminate.
Qed.
Lemma wshl_lt64 a n : wshl 64 a n < 2 ^ 64.
Proof. apply wrap_lt. Qed.

Lemma octalPairs_ok n : forall h m, 64 <= m + 6 * N.of_nat n -> exists l, octalPairs n (wshl 64 h m) = Ok l /\ (length l <= n)%nat.
Proof.
  induction n as [|n IH]; intros h m Hm; cbn [octalPairs].
  - rewrite wshl_all by lia. exists []. auto.
  - destruct (N.eqb_spec (wshl 64 h m) 0); [exists []; cbn; split; auto; lia|].
    rewrite wshl_plus. destruct (IH h (m + 6)) as (l & -> & Hl); [lia|]. eexists. split; [reflexivity|]. cbn. lia.
Qed.

Hypothesis H8 : env_build = branch8.

Lemma fb3 : fb = 3%nat.
Proof. unfold fb. rewrite H8. reflexivity. Qed.
Lemma next2 h : h_next (h_next h) = wshl 64 h 6.
Proof. unfold h_next. rewrite fb3. apply wshl_plus. Qed.
Lemma hash_top h : N.of_nat (h_hash h) = N.shiftr h 61.
Proof. unfold h_hash, hashBitsOffset, hashBits. rewrite fb3. apply N2Nat.id. Qed.
Lemma top_lt h : h < 2 ^ 64 -> N.shiftr h 61 < 8.
Proof. intros Hh. rewrite N.shiftr_div_pow2. apply N.div_lt_upper_bound; [discriminate|]. exact Hh. Qed.

(** The first six bits. *)
Lemma pair_inj a b : a < 2 ^ 64 -> b < 2 ^ 64 ->
  0x2800 + N.of_nat (h_hash a) + N.shiftl (N.of_nat (h_hash (h_next a))) 3 = 0x2800 + N.of_nat (h_hash b) + N.shiftl (N.of_nat (h_hash (h_next b))) 3 ->
  N.shiftr a 61 = N.shiftr b 61 /\ N.shiftr (wshl 64 a 3) 61 = N.shiftr (wshl 64 b 3) 61.
Proof.
  intros Ha Hb. rewrite !hash_top. unfold h_next. rewrite fb3. change (N.of_nat 3) with 3. rewrite !N.shiftl_mul_pow2.
  pose proof (top_lt a Ha). pose proof (top_lt b Hb).
  generalize dependent (N.shiftr a 61). generalize dependent (N.shiftr b 61).
  generalize (N.shiftr (wshl 64 a 3) 61) (N.shiftr (wshl 64 b 3) 61). intros x y u Hu v Hv. change (2 ^ 3) with 8. lia.
Qed.

Lemma shl6_inj a b : a < 2 ^ 64 -> b < 2 ^ 64 -> N.shiftr a 61 = N.shiftr b 61 -> N.shiftr (wshl 64 a 3) 61 = N.shiftr (wshl 64 b 3) 61 ->
  wshl 64 a 6 = wshl 64 b 6 -> a = b.
Proof.
  intros Ha Hb H1 H2 H3. apply N.bits_inj. intros k. destruct (N.ltb_spec k 58) as [Hk|Hk].
  - apply (f_equal (fun x => N.testbit x (k + 6))) in H3. unfold wshl, wrap in H3.
    rewrite !N.mod_pow2_bits_low in H3 by lia. rewrite !N.shiftl_spec_high' in H3 by lia.
    replace (k + 6 - 6) with k in H3 by lia. auto.
  - destruct (N.ltb_spec k 61) as [Hk1|Hk1].
    + apply (f_equal (fun x => N.testbit x (k - 58))) in H2. rewrite !N.shiftr_spec' in H2. unfold wshl, wrap in H2.
      rewrite !N.mod_pow2_bits_low in H2 by lia. rewrite !N.shiftl_spec_high' in H2 by lia.
      replace (k - 58 + 61 - 3) with k in H2 by lia. auto.
    + apply (f_equal (fun x => N.testbit x (k - 61))) in H1. rewrite !N.shiftr_spec' in H1.
      replace (k - 61 + 61) with k in H1 by lia. auto.
Qed.

Lemma octalPairs_inj n : forall a b l, a < 2 ^ 64 -> b < 2 ^ 64 -> octalPairs n a = Ok l -> octalPairs n b = Ok l -> a = b.
Proof.
  induction n as [|n IH]; intros a b l Ha Hb H1 H2; cbn [octalPairs] in *.
  - destruct (N.eqb_spec a 0), (N.eqb_spec b 0); congruence.
  - destruct (N.eqb_spec a 0) as [->|Na], (N.eqb_spec b 0) as [->|Nb]; auto.
    + destruct (octalPairs n (wshl 64 b 6)); try discriminate. cbn [bind] in H2. congruence.
    + destruct (octalPairs n (wshl 64 a 6)); try discriminate. cbn [bind] in H1. congruence.
    + destruct (octalPairs n (wshl 64 a 6)) as [la| |] eqn:Ea; try discriminate.
      destruct (octalPairs n (wshl 64 b 6)) as [lb| |] eqn:Eb; try discriminate. cbn [bind] in H1, H2.
      rewrite <- H1 in H2. apply (f_equal (fun r => match r with Ok (x :: l) => (x, l) | _ => (0, []) end)) in H2.
      apply pair_equal_spec in H2. destruct H2 as [Hx <-].
      destruct (pair_inj a b Ha Hb (eq_sym Hx)) as [H3 H4]. apply shl6_inj; auto.
      apply (IH _ _ lb); auto using wshl_lt64.
Qed.

Lemma octalPairs_digits n : forall h l, octalPairs n h = Ok l ->
  (forall j, (j < length l)%nat -> nth j l 0 = 0x2800 + N.of_nat (h_hash (Nat.iter (2 * j) h_next h)) + 8 * N.of_nat (h_hash (Nat.iter (2 * j + 1) h_next h))) /\
  Nat.iter (2 * length l) h_next h = 0.
Proof.
  induction n as [|n IH]; intros h l H; cbn [octalPairs] in H.
  - destruct (N.eqb_spec h 0) as [->|]; [|discriminate]. injection H as <-. split; [cbn; intros j Hj; lia|reflexivity].
  - destruct (N.eqb_spec h 0) as [->|]; [injection H as <-; split; [cbn; intros j Hj; lia|reflexivity]|].
    destruct (octalPairs n (wshl 64 h 6)) as [l'| |] eqn:El; try discriminate. cbn [bind] in H.
    apply (f_equal (fun r => match r with Ok x => x | _ => [] end)) in H. subst l.
    destruct (IH _ _ El) as [H1 H2]. rewrite <- next2 in H1, H2.
    assert (Hi : forall k, Nat.iter k h_next (h_next (h_next h)) = Nat.iter (S (S k)) h_next h).
    { induction k as [|k IHk]; [reflexivity|]. unfold Nat.iter in *. cbn [nat_rect]. rewrite IHk. reflexivity. }
    split.
    + intros [|j] Hj.
      * cbn [nth]. rewrite N.shiftl_mul_pow2. change (2 ^ 3) with 8. rewrite (N.mul_comm _ 8). reflexivity.
      * cbn [nth]. cbn [length] in Hj. rewrite H1 by lia. rewrite !Hi. repeat f_equal; lia.
    + cbn [length]. rewrite Hi in H2. replace (2 * S (length l'))%nat with (S (S (2 * length l'))) by lia. auto.
Qed.
End Hasher.

(** With eight children per branch the text is # and one character for two digits, until the rest is zero. *)
Lemma c60_text {E : Env} fuel h : env_build = branch8 -> h < 2 ^ 64 ->
  exists l, hs_string (S fuel) h = Ok (35 :: l) /\ (length l <= 11)%nat /\
    (forall j, (j < length l)%nat -> nth j l 0 = 0x2800 + N.of_nat (h_hash (Nat.iter (2 * j) h_next h)) + 8 * N.of_nat (h_hash (Nat.iter (2 * j + 1) h_next h))) /\
    Nat.iter (2 * length l) h_next h = 0.
Proof.
  intros H8 Hh. cbn [hs_string]. rewrite H8.
  destruct (octalPairs_ok 11 h 0) as (l & El & Hl); [discriminate|].
  assert (Hw : wshl 64 h 0 = h) by (unfold wshl, wrap; rewrite N.shiftl_0_r; apply N.mod_small; auto).
  rewrite Hw in El. rewrite El. cbn [bind]. exists l. split; auto. split; auto. apply (octalPairs_digits H8 11); auto.
Qed.

(** Different hashers have different texts. *)
Lemma c60_injective {E : Env} fuel a b : env_build = branch8 -> a < 2 ^ 64 -> b < 2 ^ 64 ->
  hs_string (S fuel) a = hs_string (S fuel) b -> a = b.
Proof.
  intros H8 Ha Hb H. destruct (c60_text fuel a H8 Ha) as (l & El & _). rewrite El in H. symmetry in H. revert El H.
  cbn [hs_string]. rewrite H8. destruct (octalPairs 11 a) as [la| |] eqn:Ea; try discriminate.
  destruct (octalPairs 11 b) as [lb| |] eqn:Eb; try discriminate. cbn [bind]. intros H1 H2.
  assert (la = l) as -> by congruence. assert (lb = l) as -> by congruence. apply (octalPairs_inj H8 11 a b l); auto.
Qed.

(** With other builds no number of calls is enough. *)
Lemma c60_recurs {E : Env} : env_build <> branch8 -> forall fuel h, hs_string fuel h = Fuel.
Proof. intros H fuel. induction fuel as [|fuel IH]; intros h; cbn [hs_string]; auto. destruct env_build; auto. congruence. Qed.

Lemma c60_masker m : mk_string m = Panic.
Proof. reflexivity. Qed.
