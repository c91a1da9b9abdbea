(** * Bits: unsigned machine words as [N], trailing zeros, population count,
    enumeration of one-bits.

    Models math/bits (Go standard library) as used by
    internal/pkg/masker/masker.go, internal/pkg/iterator/bititer.go, bititer.go,
    intset.go and internal/pkg/depth/gauge.go. *)
From Verif Require Import Base.
Local Open Scope N_scope.

(** Truncation to a [w]-bit unsigned word. *)
Definition wrap (w : N) (x : N) : N := x mod 2 ^ w.

(** Go [a - b] on [w]-bit unsigned words (wraps around). *)
Definition wsub (w a b : N) : N := wrap w (a + 2 ^ w - b).

(** Go [a << k] on [w]-bit unsigned words: shifts by >= w give 0. *)
Definition wshl (w a k : N) : N := wrap w (N.shiftl a k).

(** bits.TrailingZeros16 / 64: [w] for 0. *)
Fixpoint ctz (w : nat) (m : N) : nat :=
  match w with
  | O => O
  | S w' => if N.odd m then O else S (ctz w' (N.div2 m))
  end.

(** bits.OnesCount64. *)
Fixpoint popcount (w : nat) (m : N) : nat :=
  match w with
  | O => O
  | S w' => ((if N.odd m then 1 else 0) + popcount w' (N.div2 m))%nat
  end.

(** bits.Len64. *)
Definition bitlen (m : N) : N := N.size m.

(** [m & (m-1)]: strip the lowest one-bit (masker.go:31-33, bititer.go:12-14,
    intset.go:255-257). *)
Definition strip_low (w m : N) : N := N.land m (wsub w m 1).

(** The Go loop [for m := mask; m != 0; m = m.Next() { ... m.FirstIndex() ... }],
    as the list of indices visited, on explicit fuel [n]. *)
Fixpoint bit_loop (n : nat) (w : nat) (m : N) : list nat :=
  match n with
  | O => []
  | S n' => if m =? 0 then [] else ctz w m :: bit_loop n' w (strip_low (N.of_nat w) m)
  end.

(** Specification: indices of one-bits below [w], ascending. *)
Definition one_bits (w : nat) (m : N) : list nat :=
  filter (fun i => N.testbit m (N.of_nat i)) (seq 0 w).

(* ------------------------------------------------------------------ *)

Lemma wrap_small w x : x < 2 ^ w -> wrap w x = x.
Proof. intros; unfold wrap; apply N.mod_small; auto. Qed.

Lemma wrap_lt w x : wrap w x < 2 ^ w.
Proof. unfold wrap; apply N.mod_lt. apply N.pow_nonzero; lia. Qed.

Lemma wsub_1 w m : m < 2 ^ w -> m <> 0 -> wsub w m 1 = N.pred m.
Proof.
  intros H H0. unfold wsub, wrap.
  replace (m + 2 ^ w - 1) with (N.pred m + 1 * 2 ^ w) by lia.
  rewrite N.mod_add by (apply N.pow_nonzero; lia).
  apply N.mod_small; lia.
Qed.

Lemma strip_low_pred w m : m < 2 ^ w -> strip_low w m = N.land m (N.pred m).
Proof.
  intros H. unfold strip_low.
  destruct (N.eq_dec m 0) as [->|H0].
  - reflexivity.
  - rewrite wsub_1; auto.
Qed.

Lemma div2_lt_pow w m : m < 2 ^ N.of_nat (S w) -> N.div2 m < 2 ^ N.of_nat w.
Proof.
  intros H. rewrite N.div2_div.
  apply N.div_lt_upper_bound; [lia|].
  replace (2 * 2 ^ N.of_nat w) with (2 ^ N.of_nat (S w)); auto.
  rewrite Nat2N.inj_succ, N.pow_succ_r'; reflexivity.
Qed.

Lemma land_double a b : N.land (N.double a) (N.double b) = N.double (N.land a b).
Proof. destruct a, b; simpl; auto. Qed.

Lemma land_double_succ a b : N.land (N.double a) (N.succ_double b) = N.double (N.land a b).
Proof. destruct a, b; simpl; auto. Qed.

Lemma div2_odd_eq m : N.odd m = true -> m = N.succ_double (N.div2 m).
Proof. destruct m as [|[p|p|]]; simpl; auto; discriminate. Qed.
Lemma div2_even_eq m : N.odd m = false -> m = N.double (N.div2 m).
Proof. destruct m as [|[p|p|]]; simpl; auto; discriminate. Qed.

Lemma clearbit_double m k :
  N.clearbit (N.double m) (N.succ k) = N.double (N.clearbit m k).
Proof.
  apply N.bits_inj. intro n.
  rewrite N.clearbit_eqb, !N.double_spec.
  destruct n as [|p] using N.peano_ind.
  - rewrite !N.testbit_even_0. reflexivity.
  - rewrite !N.testbit_even_succ by lia. rewrite N.clearbit_eqb.
    f_equal. f_equal. destruct (N.eqb_spec k p), (N.eqb_spec (N.succ k) (N.succ p)); auto; lia.
Qed.

Lemma pred_double q : q <> 0 -> N.pred (N.double q) = N.succ_double (N.pred q).
Proof. intros; rewrite N.succ_double_spec, N.double_spec; lia. Qed.

Lemma strip_low_spec w m :
  m < 2 ^ N.of_nat w -> m <> 0 ->
  N.land m (N.pred m) = N.clearbit m (N.of_nat (ctz w m)).
Proof.
  revert m; induction w as [|w IH]; intros m H H0.
  - simpl in H. lia.
  - simpl ctz. pose proof (div2_lt_pow _ _ H) as Hq. destruct (N.odd m) eqn:Ho.
    + pose proof (div2_odd_eq _ Ho) as E. set (q := N.div2 m) in *. clearbody q. subst m.
      replace (N.pred (N.succ_double q)) with (N.double q)
        by (rewrite N.double_spec, N.succ_double_spec, N.pred_sub; lia).
      rewrite N.land_comm, land_double_succ, N.land_diag.
      apply N.bits_inj. intro n. simpl N.of_nat. rewrite N.clearbit_eqb, N.double_spec, N.succ_double_spec.
      destruct n as [|p] using N.peano_ind.
      * rewrite N.testbit_even_0, N.testbit_odd_0. reflexivity.
      * rewrite N.testbit_even_succ, N.testbit_odd_succ by lia.
        destruct (N.eqb_spec 0 (N.succ p)); [lia|]. simpl. rewrite andb_true_r. reflexivity.
    + pose proof (div2_even_eq _ Ho) as E. set (q := N.div2 m) in *. clearbody q. subst m.
      assert (q <> 0) by (intro E0; subst q; simpl in H0; lia).
      rewrite Nat2N.inj_succ, clearbit_double.
      rewrite <- IH by auto.
      rewrite pred_double by auto.
      apply land_double_succ.
Qed.

Lemma filter_length_le' {A} (f : A -> bool) l : (length (filter f l) <= length l)%nat.
Proof. induction l as [|a l IH]; simpl; auto. destruct (f a); simpl; lia. Qed.

Lemma testbit_div2' m i : N.testbit (N.div2 m) i = N.testbit m (N.succ i).
Proof. rewrite N.div2_spec, N.shiftr_spec by lia. f_equal; lia. Qed.

Lemma one_bits_S w m :
  one_bits (S w) m =
  (if N.odd m then [O] else []) ++ map S (one_bits w (N.div2 m)).
Proof.
  unfold one_bits. simpl seq. simpl filter.
  rewrite N.bit0_odd.
  assert (E : filter (fun i => N.testbit m (N.of_nat i)) (seq 1 w)
              = map S (filter (fun i => N.testbit (N.div2 m) (N.of_nat i)) (seq 0 w))).
  { rewrite <- seq_shift. induction (seq 0 w) as [|a l IH]; simpl; auto.
    rewrite testbit_div2'. rewrite <- Nat2N.inj_succ.
    change (N.pos (Pos.of_succ_nat a)) with (N.of_nat (S a)).
    destruct (N.testbit m (N.of_nat (S a))); simpl; rewrite IH; auto. }
  rewrite E. destruct (N.odd m); reflexivity.
Qed.

Lemma one_bits_0 w : one_bits w 0 = [].
Proof. unfold one_bits. induction (seq 0 w); simpl; auto. Qed.

(** The lowest one-bit is the head of [one_bits]; stripping it leaves the tail. *)
Lemma one_bits_cons w m :
  m < 2 ^ N.of_nat w -> m <> 0 ->
  one_bits w m = ctz w m :: one_bits w (strip_low (N.of_nat w) m).
Proof.
  intros H H0. rewrite strip_low_pred by auto.
  rewrite strip_low_spec with (w := w) by auto.
  revert m H H0; induction w as [|w IH]; intros m H H0; [simpl in H; lia|].
  rewrite !one_bits_S. simpl ctz. destruct (N.odd m) eqn:Ho.
  - simpl N.of_nat. cbn [app]. f_equal.
    assert (E : N.clearbit m 0 = N.double (N.div2 m)).
    { apply N.bits_inj. intro n. rewrite N.clearbit_eqb, N.double_spec.
      destruct n as [|p] using N.peano_ind.
      - rewrite N.testbit_even_0. destruct (N.eqb_spec 0 0); [|lia]. apply andb_false_r.
      - rewrite N.testbit_even_succ by lia. rewrite testbit_div2'.
        destruct (N.eqb_spec 0 (N.succ p)); [lia|]. apply andb_true_r. }
    rewrite E. destruct (N.div2 m); reflexivity.
  - pose proof (div2_even_eq _ Ho) as E. pose proof (div2_lt_pow _ _ H) as Hq.
    set (q := N.div2 m) in *. clearbody q. subst m.
    assert (Hd : q <> 0) by (intro E0; subst q; simpl in H0; lia).
    rewrite Nat2N.inj_succ, clearbit_double.
    assert (Eo : forall x, N.odd (N.double x) = false) by (destruct x; reflexivity).
    assert (Ed : forall x, N.div2 (N.double x) = x) by (destruct x; reflexivity).
    rewrite Eo, Ed. cbn [app]. rewrite (IH q) at 1 by auto.
    reflexivity.
Qed.

Lemma strip_low_lt w m : m < 2 ^ w -> strip_low w m < 2 ^ w.
Proof.
  intros H. unfold strip_low.
  destruct (N.eq_dec m 0) as [->|Hm]; [simpl; lia|].
  set (x := N.land m (wsub w m 1)).
  destruct (N.eq_dec x 0) as [->|Hx]; [lia|].
  apply N.log2_lt_pow2; [lia|].
  assert (N.log2 x <= N.log2 m).
  { unfold x. pose proof (N.log2_land m (wsub w m 1)). lia. }
  apply N.log2_lt_pow2 in H; lia.
Qed.

Lemma bit_loop_one_bits n w m :
  m < 2 ^ N.of_nat w -> (length (one_bits w m) <= n)%nat ->
  bit_loop n w m = one_bits w m.
Proof.
  revert m; induction n as [|n IH]; intros m H HL.
  - destruct (one_bits w m); simpl in *; auto; lia.
  - simpl. destruct (N.eqb_spec m 0) as [->|H0].
    + rewrite one_bits_0; auto.
    + rewrite one_bits_cons in HL |- * by auto. simpl in HL.
      rewrite IH; auto; [apply strip_low_lt; auto | lia].
Qed.

Lemma one_bits_length w m : (length (one_bits w m) <= w)%nat.
Proof.
  unfold one_bits. etransitivity; [apply filter_length_le'|]. rewrite seq_length; auto.
Qed.

Lemma one_bits_In w m i : In i (one_bits w m) <-> (i < w)%nat /\ N.testbit m (N.of_nat i) = true.
Proof. unfold one_bits. rewrite filter_In, in_seq. split; intros [? ?]; split; auto; lia. Qed.

Lemma one_bits_NoDup w m : NoDup (one_bits w m).
Proof. apply NoDup_filter, seq_NoDup. Qed.

Lemma popcount_one_bits w m : popcount w m = length (one_bits w m).
Proof.
  revert m; induction w as [|w IH]; intros m; [reflexivity|].
  rewrite one_bits_S, app_length, map_length, <- IH.
  simpl. destruct (N.odd m); reflexivity.
Qed.

Lemma testbit_above w m i : m < 2 ^ w -> w <= i -> N.testbit m i = false.
Proof.
  intros H Hi. destruct (N.eq_dec m 0) as [->|H0]; [apply N.bits_0|].
  apply N.bits_above_log2. apply N.log2_lt_pow2 in H; lia.
Qed.

Lemma bits_lt w m : (forall i, w <= i -> N.testbit m i = false) -> m < 2 ^ w.
Proof.
  intros H. destruct (N.eq_dec m 0) as [->|H0].
  - pose proof (N.pow_nonzero 2 w); lia.
  - apply N.log2_lt_pow2; [lia|].
    destruct (N.lt_ge_cases (N.log2 m) w) as [|Hge]; auto.
    apply H in Hge. rewrite N.bit_log2 in Hge; [discriminate|auto].
Qed.

Lemma ctz_lt w m : m < 2 ^ N.of_nat w -> m <> 0 -> (ctz w m < w)%nat.
Proof.
  intros H H0. assert (In (ctz w m) (one_bits w m)) as Hin.
  { rewrite one_bits_cons by auto. left; auto. }
  apply one_bits_In in Hin. lia.
Qed.

Lemma ctz_testbit w m : m < 2 ^ N.of_nat w -> m <> 0 -> N.testbit m (N.of_nat (ctz w m)) = true.
Proof.
  intros H H0. assert (In (ctz w m) (one_bits w m)) as Hin.
  { rewrite one_bits_cons by auto. left; auto. }
  apply one_bits_In in Hin. tauto.
Qed.

Lemma one_bits_nil w m : m < 2 ^ N.of_nat w -> one_bits w m = [] -> m = 0.
Proof.
  intros H E. destruct (N.eq_dec m 0) as [|H0]; auto.
  rewrite one_bits_cons in E by auto. discriminate.
Qed.

Lemma lt_pow_land w a b : a < 2 ^ w -> N.land a b < 2 ^ w.
Proof.
  intros H. apply bits_lt. intros i Hi. rewrite N.land_spec, (@testbit_above w a); auto.
Qed.
Lemma lt_pow_lor w a b : a < 2 ^ w -> b < 2 ^ w -> N.lor a b < 2 ^ w.
Proof.
  intros H H'. apply bits_lt. intros i Hi.
  rewrite N.lor_spec, (@testbit_above w a), (@testbit_above w b); auto.
Qed.
Lemma lt_pow_ldiff w a b : a < 2 ^ w -> N.ldiff a b < 2 ^ w.
Proof.
  intros H. apply bits_lt. intros i Hi. rewrite N.ldiff_spec, (@testbit_above w a); auto.
Qed.
