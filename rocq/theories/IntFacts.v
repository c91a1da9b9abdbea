(** * IntFacts: facts about the functions of intset.go. *)
From Coq Require Import Permutation.
From Verif Require Import Base Bits Env EnvFacts Node NodeWf Iter Tree TreeFacts SetApi SetFacts MapApi MapFacts ExtraFacts IntSet.
Local Open Scope Z_scope.

(** ** Arithmetic *)

(** Go's integer types: at least 8 bits. *)
Definition it_ok (I : intTy) : Prop := 8 <= it_width I.

(** The integers that intset.go handles: not negative, or a multiple of 64. *)
Definition fits (i : Z) : Prop := 0 <= i \/ i mod 64 = 0.

Lemma pow_split w : 6 <= w -> 2 ^ w = 64 * 2 ^ (w - 6).
Proof. intros H. replace w with (6 + (w - 6)) at 1 by lia. rewrite Z.pow_add_r by lia. reflexivity. Qed.

Lemma it_wrap_id I i : it_in I i -> it_wrap I i = i.
Proof.
  unfold it_in, it_wrap. intros H. rewrite Z.mod_small by lia. lia.
Qed.

Lemma it_wrap_add I a b : it_ok I -> it_wrap I (it_wrap I a + b) = it_wrap I (a + b).
Proof.
  unfold it_ok, it_wrap. intros H. f_equal.
  assert (0 < 2 ^ it_width I) by (apply Z.pow_pos_nonneg; lia).
  replace (it_min I + (a - it_min I) mod 2 ^ it_width I + b - it_min I)
    with ((a - it_min I) mod 2 ^ it_width I + b) by lia.
  rewrite Zplus_mod_idemp_l. f_equal. lia.
Qed.

Lemma cell_value_id I k j : it_ok I -> it_in I (64 * k + j) -> cell_value I k j = 64 * k + j.
Proof.
  intros H1 H2. unfold cell_value. rewrite it_wrap_add by auto. rewrite Z.shiftl_mul_pow2 by lia.
  replace (k * 2 ^ 6 + j) with (64 * k + j) by lia. apply it_wrap_id; auto.
Qed.

Definition bitOf (i : Z) : N := Z.to_N (i mod 64).

Lemma bitOf_lt i : (bitOf i < 64)%N.
Proof. unfold bitOf. pose proof (Z.mod_pos_bound i 64). lia. Qed.

Lemma wshl_bit j : (j < 64)%N -> wshl 64 1 j = (2 ^ j)%N.
Proof.
  intros H. unfold wshl. rewrite N.shiftl_1_l. apply wrap_small. apply N.pow_lt_mono_r; lia.
Qed.

Lemma locate_fits i : fits i -> locateCell i = (i / 64, (2 ^ bitOf i)%N).
Proof.
  intros H. unfold locateCell. rewrite Z.shiftr_div_pow2 by lia. change (2 ^ 6) with 64. f_equal.
  assert (Z.rem i 64 = i mod 64) as ->.
  { destruct H as [H|H].
    - apply Z.rem_mod_nonneg; lia.
    - rewrite H. apply Z.rem_divide; [lia|]. apply Z.mod_divide; [lia|auto]. }
  pose proof (Z.mod_pos_bound i 64). destruct (Z.ltb_spec (i mod 64) 0); [lia|].
  apply wshl_bit. apply bitOf_lt.
Qed.

Lemma locate_unfit i : ~ fits i -> locateCell i = (i / 64, 0%N).
Proof.
  intros H. unfold locateCell. rewrite Z.shiftr_div_pow2 by lia. change (2 ^ 6) with 64. f_equal.
  assert (i < 0 /\ i mod 64 <> 0) as [H1 H2] by (unfold fits in H; lia).
  assert (Z.rem i 64 <> 0) as H3.
  { intros H3. apply Z.rem_divide in H3; [|lia]. apply H2. apply Z.mod_divide; [lia|auto]. }
  pose proof (Z.rem_nonpos i 64). destruct (Z.ltb_spec (Z.rem i 64) 0); [auto|lia].
Qed.

Lemma fits_dec i : {fits i} + {~ fits i}.
Proof.
  unfold fits. destruct (Z_le_dec 0 i); [left; auto|]. destruct (Z.eq_dec (i mod 64) 0); [left; auto|right; lia].
Qed.

Lemma div_mod_64 i : i = 64 * (i / 64) + Z.of_N (bitOf i).
Proof. unfold bitOf. pose proof (Z.div_mod i 64). pose proof (Z.mod_pos_bound i 64). lia. Qed.

Lemma cell_of k j : (j < 64)%N -> (64 * k + Z.of_N j) / 64 = k /\ bitOf (64 * k + Z.of_N j) = j.
Proof.
  intros H. unfold bitOf. rewrite (Z.add_comm (64 * k)), (Z.mul_comm 64 k).
  rewrite Z.div_add, Z.mod_add by lia. rewrite Z.div_small, Z.mod_small by lia. lia.
Qed.

(** A cell is a 64-bit word. *)
Definition isCell (c : N) : Prop := (c < 2 ^ 64)%N.

Lemma isCell_bits c : isCell c <-> forall j, N.testbit c j = true -> (j < 64)%N.
Proof.
  split.
  - intros H j Hj. destruct (N.lt_ge_cases j 64); auto. rewrite (testbit_above 64) in Hj; auto; discriminate.
  - intros H. apply bits_lt. intros i Hi. destruct (N.testbit c i) eqn:Ec; auto. apply H in Ec. lia.
Qed.

Lemma land_bit c j : (N.land c (2 ^ j) =? 0)%N = negb (N.testbit c j).
Proof.
  destruct (N.eqb_spec (N.land c (2 ^ j)) 0) as [E|E].
  - assert (N.testbit (N.land c (2 ^ j)) j = false) as H by (rewrite E; apply N.bits_0).
    rewrite N.land_spec, N.pow2_bits_true, andb_true_r in H. rewrite H; auto.
  - destruct (N.testbit c j) eqn:Ec; auto. exfalso. apply E. apply N.bits_inj. intros i.
    rewrite N.land_spec, N.bits_0. destruct (N.eq_dec j i) as [<-|Hn]; [rewrite Ec; auto|].
    rewrite N.pow2_bits_false by auto. apply andb_false_r.
Qed.

(** Population counts. *)
Lemma popcount_filter_seq w c : popcount w c = length (filter (fun i => N.testbit c (N.of_nat i)) (seq 0 w)).
Proof. apply popcount_one_bits. Qed.

Lemma popcount_0 w : popcount w 0 = O.
Proof. rewrite popcount_one_bits, one_bits_0. reflexivity. Qed.

Lemma filter_split {A} (f g k : A -> bool) l :
  (forall x, (f x = (g x || k x)%bool) /\ (g x && k x)%bool = false) ->
  (length (filter f l) = length (filter g l) + length (filter k l))%nat.
Proof.
  intros H. induction l as [|a l IH]; simpl; auto.
  destruct (H a) as [-> Hn]. destruct (g a), (k a); simpl in *; try lia; discriminate.
Qed.

Lemma popcount_split w a b c :
  (forall j, N.testbit a j = (N.testbit b j || N.testbit c j)%bool /\ (N.testbit b j && N.testbit c j)%bool = false) ->
  popcount w a = (popcount w b + popcount w c)%nat.
Proof. intros H. rewrite !popcount_filter_seq. apply filter_split. intros x. apply H. Qed.

Lemma popcount_pow2 j : (j < 64)%N -> popcount 64 (2 ^ j) = 1%nat.
Proof.
  intros H. rewrite popcount_one_bits.
  assert (NoDup (one_bits 64 (2 ^ j))) as HN by apply one_bits_NoDup.
  assert (forall i, In i (one_bits 64 (2 ^ j)) <-> i = N.to_nat j) as Hi.
  { intros i. rewrite one_bits_In. rewrite N.pow2_bits_eqb. rewrite N.eqb_eq. lia. }
  apply (NoDup_Permutation (l' := [N.to_nat j])) in HN.
  - apply Permutation_length in HN. exact HN.
  - constructor; [intros []|constructor].
  - intros x. rewrite Hi. simpl. split; intros; [left; auto|]. destruct H0 as [<-|[]]; auto.
Qed.

Lemma popcount_set c j : (j < 64)%N -> N.testbit c j = false ->
  popcount 64 (N.lor c (2 ^ j)) = S (popcount 64 c).
Proof.
  intros H Hc. rewrite (popcount_split 64 _ c (2 ^ j)).
  - rewrite popcount_pow2 by auto. lia.
  - intros i. rewrite N.lor_spec. split; auto. rewrite N.pow2_bits_eqb.
    destruct (N.eqb_spec j i) as [<-|]; [rewrite Hc; auto|apply andb_false_r].
Qed.

Lemma popcount_clear c j : (j < 64)%N -> N.testbit c j = true ->
  popcount 64 c = S (popcount 64 (N.ldiff c (2 ^ j))).
Proof.
  intros H Hc. rewrite (popcount_split 64 c (N.ldiff c (2 ^ j)) (2 ^ j)).
  - rewrite popcount_pow2 by auto. lia.
  - intros i. rewrite N.ldiff_spec, N.pow2_bits_eqb.
    destruct (N.eqb_spec j i) as [<-|]; [rewrite Hc; auto|]. simpl. rewrite !andb_false_r, andb_true_r, orb_false_r. auto.
Qed.

Lemma popcount_union a b :
  popcount 64 (N.lor a b) = (popcount 64 a + popcount 64 (N.lxor (N.lor a b) a))%nat.
Proof.
  apply popcount_split. intros j. rewrite N.lxor_spec, N.lor_spec.
  destruct (N.testbit a j), (N.testbit b j); auto.
Qed.

Lemma one_bits_nz c : isCell c -> c <> 0%N -> one_bits 64 c <> [].
Proof. intros H H0 E. apply H0. exact (one_bits_nil 64 c H E). Qed.

Lemma cells_eq a b : (forall j, N.testbit a j = true <-> N.testbit b j = true) -> a = b.
Proof.
  intros H. apply N.bits_inj. intros j. specialize (H j).
  destruct (N.testbit a j), (N.testbit b j); auto; [symmetry; apply H; auto|apply H; auto].
Qed.

(** ** Cells of a map *)

Lemma NoDup_append {A} (l1 l2 : list A) : NoDup l1 -> NoDup l2 -> (forall x, In x l1 -> ~ In x l2) -> NoDup (l1 ++ l2).
Proof.
  intros H1 H2 H. induction H1 as [|a l1 Ha H1 IH]; simpl; auto. constructor.
  - rewrite in_app_iff. intros [?|?]; auto. apply (H a); auto. left; auto.
  - apply IH. intros x Hx. apply H. right; auto.
Qed.

Lemma NoDup_injmap {A B} (f : A -> B) l : (forall a b, f a = f b -> a = b) -> NoDup l -> NoDup (map f l).
Proof.
  intros Hf H. induction H as [|a l Ha H IH]; simpl; constructor; auto.
  intros Hi. apply in_map_iff in Hi as (b & Hb & Hi). apply Hf in Hb. congruence.
Qed.

Section IntFacts.
Local Opaque maxTreeDepth fanout fb ctz popcount one_bits strip_low.
Context {E : Env} {HE : EnvOk E} (I : intTy) (h : Z -> N -> N) (HI : it_ok I).
#[local] Instance ifK : Key Z := intKey h.
(** Every integer is an acceptable key. *)
Definition anyKey (_ : Z) : Prop := True.
#[local] Instance ifKO : KeyOk ifK anyKey := intKeyOk h anyKey.
Notation centry := (entry Z N).
Notation cmap := (gomap Z N).
Notation cmok := (mok (E := E) (KX := ifK) (V := N) anyKey).

(** The cell at an index: 0 if there is none. *)
Definition cellAt (m : cmap) (k : Z) : N := match mget m k with Some c => c | None => 0%N end.

(** Sum of the cell counts. *)
Definition total (l : list centry) : Z := fold_right (fun e n => cell_count (e_val e) + n) 0 l.

Lemma total_cons e l : total (e :: l) = cell_count (e_val e) + total l.
Proof. reflexivity. Qed.
Lemma total_app l1 l2 : total (l1 ++ l2) = total l1 + total l2.
Proof. induction l1; simpl; lia. Qed.
Lemma total_perm l1 l2 : Permutation l1 l2 -> total l1 = total l2.
Proof. induction 1; simpl; lia. Qed.

Lemma klk_In (l : list centry) k e : NoDup (map e_key l) -> klk l k = Some e <-> In e l /\ e_key e = k.
Proof.
  unfold klk. cbn [veq intKey ifK]. induction l as [|a l IH]; intros HN; simpl; [split; [discriminate|intros [[] _]]|].
  inversion_clear HN as [|? ? Ha HN']. destruct (Z.eqb_spec (e_key a) k) as [Ek|Ek].
  - split.
    + intros Hs. injection Hs as <-. auto.
    + intros [[->|Hi] He]; auto. exfalso. apply Ha. rewrite Ek, <- He. apply in_map; auto.
  - rewrite IH by auto. split; [intros [? ?]; auto|]. intros [[->|Hi] He]; auto; congruence.
Qed.

Lemma klk_None (l : list centry) k : klk l k = None <-> ~ In k (map e_key l).
Proof.
  unfold klk. cbn [veq intKey ifK]. induction l as [|a l IH]; simpl; [split; auto|].
  destruct (Z.eqb_spec (e_key a) k) as [Ek|Ek].
  - split; [discriminate|]. intros H. exfalso. apply H. auto.
  - rewrite IH. split; intros H; [intros [?|?]; auto|auto].
Qed.

Lemma keys_NoDup (l : list centry) : NoDup (map e_key l) -> NoDup l.
Proof. apply NoDup_map_inv. Qed.

Lemma klk_perm (l1 l2 : list centry) : NoDup (map e_key l1) -> NoDup (map e_key l2) ->
  (forall k, klk l1 k = klk l2 k) -> Permutation l1 l2.
Proof.
  intros H1 H2 H. apply NoDup_Permutation; auto using keys_NoDup. intros e.
  pose proof (klk_In l1 (e_key e) e H1) as Q1. pose proof (klk_In l2 (e_key e) e H2) as Q2.
  rewrite H in Q1. intuition.
Qed.

Definition dropKey (k : Z) (l : list centry) : list centry := filter (fun e => negb (e_key e =? k)) l.

Lemma dropKey_In k l e : In e (dropKey k l) <-> In e l /\ e_key e <> k.
Proof.
  unfold dropKey. rewrite filter_In, negb_true_iff, Z.eqb_neq. tauto.
Qed.
Lemma dropKey_NoDup k l : NoDup (map e_key l) -> NoDup (map e_key (dropKey k l)).
Proof.
  unfold dropKey. induction l as [|a l IH]; simpl; intros HN; auto. inversion_clear HN as [|? ? Ha HN'].
  destruct (negb (e_key a =? k)); simpl; auto. constructor; auto. intros Hi. apply Ha.
  apply in_map_iff in Hi as (b & <- & Hb). apply filter_In in Hb as [Hb _]. apply in_map; auto.
Qed.

(** Splitting off the entry of a key. *)
Lemma total_split l k : NoDup (map e_key l) ->
  total l = (match klk l k with Some e => cell_count (e_val e) | None => 0 end) + total (dropKey k l).
Proof.
  intros HN. destruct (klk l k) as [e|] eqn:Ek.
  - pose proof Ek as Ek'. apply klk_In in Ek' as [Hi He]; auto.
    change (cell_count (e_val e) + total (dropKey k l)) with (total (e :: dropKey k l)).
    apply total_perm. apply NoDup_Permutation; auto using keys_NoDup.
    + constructor; [|apply keys_NoDup, dropKey_NoDup; auto]. rewrite dropKey_In. tauto.
    + intros x. simpl. rewrite dropKey_In. split.
      * intros Hx. destruct (Z.eq_dec (e_key x) k) as [Hk|Hk]; [left|right; auto].
        assert (klk l k = Some x) as Q by (apply klk_In; auto). congruence.
      * intros [<-|[? _]]; auto.
  - rewrite Z.add_0_l. f_equal. symmetry. unfold dropKey. apply klk_None in Ek.
    clear HN. induction l as [|a l IH]; simpl; auto. simpl in Ek.
    destruct (Z.eqb_spec (e_key a) k) as [Hk|Hk]; simpl; [tauto|]. f_equal. apply IH. tauto.
Qed.

Lemma dropKey_klk k l j : NoDup (map e_key l) -> klk (dropKey k l) j = if j =? k then None else klk l j.
Proof.
  intros HN. destruct (Z.eqb_spec j k) as [->|Hn].
  - apply klk_None. intros Hi. apply in_map_iff in Hi as (e & He & Hi). apply dropKey_In in Hi. tauto.
  - destruct (klk l j) as [e|] eqn:El.
    + apply klk_In in El as [Hi He]; auto. apply klk_In; [apply dropKey_NoDup; auto|]. split; auto.
      apply dropKey_In. split; auto. congruence.
    + apply klk_None. apply klk_None in El. intros Hi. apply El. apply in_map_iff in Hi as (e & He & Hi).
      apply dropKey_In in Hi as [Hi _]. rewrite <- He. apply in_map; auto.
Qed.

(** [total] after replacing, adding or deleting the entry of a key. *)
Lemma total_update (l r : list centry) k o : NoDup (map e_key l) -> NoDup (map e_key r) ->
  (forall e, o = Some e -> e_key e = k) ->
  (forall j, klk r j = if k =? j then o else klk l j) ->
  total r = total l - (match klk l k with Some e => cell_count (e_val e) | None => 0 end)
            + match o with Some e => cell_count (e_val e) | None => 0 end.
Proof.
  intros Hl Hr Ho H. rewrite (total_split l k Hl), (total_split r k Hr). rewrite H, Z.eqb_refl.
  assert (total (dropKey k r) = total (dropKey k l)) as ->; [|destruct o; lia].
  apply total_perm, klk_perm; auto using dropKey_NoDup. intros j. rewrite !dropKey_klk by auto.
  destruct (Z.eqb_spec j k); auto. rewrite H. destruct (Z.eqb_spec k j); auto; congruence.
Qed.

(** ** The invariant *)

Record isok (s : intSet) : Prop := mkIsok {
  isok_data : cmok (is_data s);
  isok_cells : forall k c, mget (is_data s) k = Some c -> isCell c /\ c <> 0%N;
  isok_bits : forall k j, N.testbit (cellAt (is_data s) k) j = true ->
    it_in I (64 * k + Z.of_N j) /\ fits (64 * k + Z.of_N j);
  isok_count : is_cnt s = total (mel (is_data s))
}.

(** Membership. *)
Definition member (s : intSet) (i : Z) : bool := N.testbit (cellAt (is_data s) (i / 64)) (bitOf i).

Lemma cellAt_cell s k : isok s -> isCell (cellAt (is_data s) k).
Proof.
  intros H. unfold cellAt. destruct (mget (is_data s) k) as [c|] eqn:Ec; [apply (isok_cells s H k c Ec)|].
  unfold isCell. lia.
Qed.

Lemma member_fits s i : isok s -> member s i = true -> it_in I i /\ fits i.
Proof. intros H Hm. rewrite (div_mod_64 i). apply (isok_bits s H). exact Hm. Qed.

Lemma member_at s k j : (j < 64)%N -> member s (64 * k + Z.of_N j) = N.testbit (cellAt (is_data s) k) j.
Proof. intros H. unfold member. destruct (cell_of k j H) as [-> ->]. reflexivity. Qed.

Lemma mget_cellAt s k : isok s ->
  mget (is_data s) k = if (cellAt (is_data s) k =? 0)%N then None else Some (cellAt (is_data s) k).
Proof.
  intros H. unfold cellAt. destruct (mget (is_data s) k) as [c|] eqn:Ec; auto.
  destruct (isok_cells s H k c Ec) as [_ Hc]. destruct (N.eqb_spec c 0); auto; congruence.
Qed.

Lemma isok_empty : isok is_empty.
Proof. constructor; [apply mok_empty|discriminate|discriminate|reflexivity]. Qed.

Lemma mget_In (m : cmap) e : cmok m -> In e (mel m) -> mget m (e_key e) = Some (e_val e).
Proof.
  intros Hm Hi. unfold mget. pose proof (mel_keys_NoDup m Hm) as HN.
  assert (klk (mel m) (e_key e) = Some e) as -> by (apply klk_In; auto). reflexivity.
Qed.
Lemma mget_Some (m : cmap) k c : cmok m -> mget m k = Some c -> In (mkEntry k c) (mel m).
Proof.
  intros Hm Hg. unfold mget in Hg. destruct (klk (mel m) k) as [e|] eqn:Ek; [|discriminate].
  apply klk_In in Ek as [Hi He]; [|apply mel_keys_NoDup; auto]. injection Hg as <-. rewrite <- He. destruct e; auto.
Qed.

(** ** Reading *)

(** The values in a cell, and in all cells. *)
Definition cellVals (e : centry) : list Z := map (fun j => cell_value I (e_key e) (Z.of_nat j)) (one_bits 64 (e_val e)).
Definition isel (s : intSet) : list Z := flat_map cellVals (mel (is_data s)).

Lemma isel_In s i : isok s -> In i (isel s) <-> member s i = true.
Proof.
  intros H. unfold isel. rewrite in_flat_map. split.
  - intros (e & He & Hi). unfold cellVals in Hi. apply in_map_iff in Hi as (j & <- & Hj).
    apply one_bits_In in Hj as [Hj Hb]. pose proof (mget_In _ e (isok_data s H) He) as Hg.
    assert (N.testbit (cellAt (is_data s) (e_key e)) (N.of_nat j) = true) as Hb' by (unfold cellAt; rewrite Hg; auto).
    destruct (isok_bits s H _ _ Hb') as [Hr _]. rewrite nat_N_Z in Hr. rewrite cell_value_id by auto.
    rewrite <- nat_N_Z, member_at by lia. exact Hb'.
  - intros Hm. destruct (member_fits s i H Hm) as [Hr _]. unfold member, cellAt in Hm.
    destruct (mget (is_data s) (i / 64)) as [c|] eqn:Eg; [|rewrite N.bits_0 in Hm; discriminate].
    exists (mkEntry (i / 64) c). split; [apply mget_Some; auto; apply isok_data; auto|].
    unfold cellVals. cbn [e_key e_val]. apply in_map_iff. exists (N.to_nat (bitOf i)).
    pose proof (bitOf_lt i). split.
    + rewrite N_nat_Z. rewrite cell_value_id; auto; rewrite <- div_mod_64; auto.
    + apply one_bits_In. rewrite N2Nat.id. split; auto. lia.
Qed.

Lemma cellVals_good s e : isok s -> In e (mel (is_data s)) ->
  cellVals e = map (fun j => 64 * e_key e + Z.of_nat j) (one_bits 64 (e_val e)).
Proof.
  intros H He. unfold cellVals. apply map_ext_in. intros j Hj. apply one_bits_In in Hj as [Hj Hb].
  apply cell_value_id; auto. rewrite <- nat_N_Z. apply (isok_bits s H). unfold cellAt.
  rewrite (mget_In _ e (isok_data s H) He). auto.
Qed.

Lemma isel_NoDup s : isok s -> NoDup (isel s).
Proof.
  intros H. unfold isel. pose proof (mel_keys_NoDup _ (isok_data s H)) as HN.
  assert (forall e, In e (mel (is_data s)) ->
    cellVals e = map (fun j => 64 * e_key e + Z.of_nat j) (one_bits 64 (e_val e))) as Hc.
  { intros e He. apply (cellVals_good s); auto. }
  induction (mel (is_data s)) as [|e l IH]; cbn [flat_map]; [constructor|].
  cbn [map] in HN. inversion_clear HN as [|? ? Ha HN'].
  apply NoDup_append; auto.
  - rewrite Hc by (left; auto). apply NoDup_injmap; [intros a b; lia|apply one_bits_NoDup].
  - apply IH; auto. intros x Hx. apply Hc. right; auto.
  - intros i Hi Hl. apply in_flat_map in Hl as (e' & He' & Hi').
    rewrite Hc in Hi by (left; auto). rewrite Hc in Hi' by (right; auto).
    apply in_map_iff in Hi as (j & <- & Hj). apply in_map_iff in Hi' as (j' & Ej & Hj').
    apply one_bits_In in Hj as [Hj _]. apply one_bits_In in Hj' as [Hj' _].
    assert (e_key e' = e_key e) as Ek by lia. apply Ha. rewrite <- Ek. apply in_map; auto.
Qed.

Lemma isel_length s : isok s -> Z.of_nat (length (isel s)) = is_cnt s.
Proof.
  intros H. rewrite (isok_count s H). unfold isel. induction (mel (is_data s)) as [|e l IH]; auto.
  cbn [flat_map total fold_right]. rewrite app_length, Nat2Z.inj_add, IH. unfold cellVals.
  rewrite map_length. unfold cell_count. rewrite popcount_one_bits. reflexivity.
Qed.

Lemma is_isEmpty_ok s : isok s -> is_isEmpty s = match isel s with [] => true | _ => false end.
Proof.
  intros H. unfold is_isEmpty. rewrite (m_isEmpty_ok (kok := anyKey)) by apply H. unfold isel.
  destruct (mel (is_data s)) as [|e l] eqn:El; auto. cbn [flat_map].
  destruct (isok_cells s H (e_key e) (e_val e)) as [Hc Hn].
  { apply mget_In; [apply H|]. rewrite El. left; auto. }
  pose proof (one_bits_nz _ Hc Hn). unfold cellVals. destruct (one_bits 64 (e_val e)); [congruence|]. reflexivity.
Qed.

(** The iterator. *)
Definition cellsOk (l : list centry) : Prop := forall e, In e l -> isCell (e_val e) /\ e_val e <> 0%N.
Definition iiok (i : intIter) : Prop :=
  iok (vok := eok (kok := anyKey)) 0 (mi_i (ii_it i)) /\ cellsOk (remaining (mi_i (ii_it i))) /\ isCell (ii_cell i).
Definition iiRest (i : intIter) : list Z :=
  map (fun j => cell_value I (ii_first i) (Z.of_nat j)) (one_bits 64 (cell_next (ii_cell i)))
  ++ flat_map cellVals (remaining (mi_i (ii_it i))).

Lemma cell_next_cell c : isCell c -> isCell (cell_next c).
Proof. apply (strip_low_lt 64). Qed.
Lemma cell_bits c : isCell c -> c <> 0%N -> one_bits 64 c = ctz 64 c :: one_bits 64 (cell_next c).
Proof. exact (one_bits_cons 64 c). Qed.

Lemma ii_next_ok i : iiok i ->
  exists b i', ii_next i = Ok (b, i') /\ iiok i' /\
    match iiRest i with
    | [] => b = false /\ iiRest i' = []
    | x :: xs => b = true /\ iiRest i' = xs /\ ii_value I i' = x
    end.
Proof.
  intros (Hi & Hl & Hc). unfold ii_next, iiRest. pose proof (cell_next_cell _ Hc) as Hc'.
  destruct (N.eqb_spec (cell_next (ii_cell i)) 0) as [E0|E0].
  - rewrite E0, one_bits_0. cbn [map app].
    destruct (mi_next_ok (kok := anyKey) (ii_it i) Hi) as (b & it & E1 & Hi' & Hn). rewrite E1. cbn [bind].
    destruct (remaining (mi_i (ii_it i))) as [|e es].
    + destruct Hn as [-> Hn]. eexists _, _. split; [reflexivity|]. cbn [flat_map]. unfold iiok. cbn [ii_it ii_cell ii_first].
      rewrite Hn. split; [split; [auto|split; [intros e []|unfold isCell; lia]]|]. split; auto.
    + destruct Hn as (-> & Hn & He). rewrite He. cbn [pair_of].
      eexists _, _. split; [reflexivity|]. unfold iiok. cbn [ii_it ii_cell ii_first].
      destruct (Hl e) as [Hce Hz]; [left; auto|]. split.
      { split; auto. rewrite Hn. split; auto. intros x Hx. apply Hl. right; auto. }
      cbn [flat_map]. unfold cellVals at 1. rewrite (cell_bits _ Hce Hz). cbn [map app]. rewrite Hn. auto.
  - eexists _, _. split; [reflexivity|]. unfold iiok. cbn [ii_it ii_cell ii_first]. split; auto.
    rewrite (cell_bits _ Hc' E0). cbn [map app]. auto.
Qed.

Lemma ii_drain_ok fuel : forall i, iiok i -> (length (iiRest i) < fuel)%nat -> ii_drain I fuel i = Ok (iiRest i).
Proof.
  induction fuel as [|fuel IH]; intros i Hi Hf; [lia|]. cbn [ii_drain].
  destruct (ii_next_ok i Hi) as (b & i' & E1 & Hi' & Hn). rewrite E1. cbn [bind].
  destruct (iiRest i) as [|x xs].
  - destruct Hn as [-> _]. reflexivity.
  - destruct Hn as (-> & Hn & Hv). rewrite IH; auto; [|rewrite Hn; simpl in Hf; lia].
    cbn [bind]. rewrite Hn, Hv. reflexivity.
Qed.

Lemma cellsOk_s s : isok s -> cellsOk (mel (is_data s)).
Proof. intros H e He. apply (isok_cells s H (e_key e)). apply mget_In; auto. apply H. Qed.

Lemma is_range_ok s : isok s -> iiok (is_range s) /\ iiRest (is_range s) = isel s.
Proof.
  intros H. unfold iiok, iiRest, is_range. cbn [ii_it ii_cell ii_first].
  destruct (m_range_ok (kok := anyKey) (is_data s) (isok_data s H)) as [Hi Hr]. rewrite Hr.
  split; [split; [auto|split; [apply cellsOk_s; auto|unfold isCell; lia]]|].
  replace (cell_next 1) with 0%N by reflexivity. rewrite one_bits_0. reflexivity.
Qed.

Lemma isel_bound (l : list centry) : (length (flat_map cellVals l) <= 64 * length l)%nat.
Proof.
  induction l as [|e l IH]; [simpl; lia|]. cbn [flat_map length]. rewrite app_length. unfold cellVals at 1.
  rewrite map_length. pose proof (one_bits_length 64 (e_val e)). lia.
Qed.

Lemma is_elements_ok s : isok s -> is_elements I s = Ok (isel s).
Proof.
  intros H. unfold is_elements. destruct (is_range_ok s H) as [Hi Hr].
  rewrite ii_drain_ok; auto; [rewrite Hr; auto|]. rewrite Hr. pose proof (isel_bound (mel (is_data s))) as Hb.
  unfold isel. unfold mel, tel in *. lia.
Qed.

Lemma is_any_ok s : isok s -> is_any I s = match isel s with [] => Panic | i :: _ => Ok i end.
Proof.
  intros H. unfold is_any. rewrite (m_any_ok (kok := anyKey)) by apply H. unfold isel.
  pose proof (cellsOk_s s H) as Hc.
  destruct (mel (is_data s)) as [|e l]; auto. cbn [pair_of bind flat_map].
  destruct (Hc e) as [Hce Hz]; [left; auto|]. unfold cellVals. rewrite (cell_bits _ Hce Hz). reflexivity.
Qed.

Lemma is_locate_ok s i : isok s ->
  is_locate h s i = Ok (cellAt (is_data s) (i / 64), i / 64, if fits_dec i then (2 ^ bitOf i)%N else 0%N).
Proof.
  intros H. unfold is_locate.
  assert (locateCell i = (i / 64, if fits_dec i then (2 ^ bitOf i)%N else 0%N)) as ->.
  { destruct (fits_dec i); [apply locate_fits|apply locate_unfit]; auto. }
  rewrite (m_get_ok (KX := ifK) (kok := anyKey)); [|apply H|exact Logic.I]. cbn [bind]. unfold cellAt.
  destruct (mget (is_data s) (i / 64)); reflexivity.
Qed.

Lemma is_has_ok s i : isok s -> is_has h s i = Ok (member s i).
Proof.
  intros H. unfold is_has. rewrite is_locate_ok by auto. cbn [bind]. destruct (fits_dec i) as [Hf|Hf].
  - rewrite land_bit, negb_involutive. reflexivity.
  - rewrite N.land_0_r. cbn. destruct (member s i) eqn:Em; auto. apply member_fits in Em; auto. tauto.
Qed.

(** ** Equality, subset, hash *)

Lemma is_equal_ok s t : isok s -> isok t ->
  exists b, is_equal h s t = Ok b /\ (b = true <-> forall i, member s i = member t i).
Proof.
  intros Hs Ht. unfold is_equal.
  destruct (m_equal_ok (KX := ifK) (kok := anyKey) (is_data s) (is_data t)) as (b & E1 & Hb); [apply Hs|apply Ht|].
  exists b. split; auto. rewrite Hb. clear b E1 Hb. split.
  - intros H i. unfold member, cellAt. specialize (H (i / 64) Logic.I).
    destruct (mget (is_data s) (i / 64)), (mget (is_data t) (i / 64)); try tauto. cbn in H.
    apply N.eqb_eq in H. congruence.
  - intros H k _. rewrite (mget_cellAt s k Hs), (mget_cellAt t k Ht).
    assert (cellAt (is_data s) k = cellAt (is_data t) k) as ->.
    { apply cells_eq. intros j. destruct (N.lt_ge_cases j 64) as [Hj|Hj].
      - rewrite <- !member_at by auto. rewrite H. tauto.
      - rewrite !(testbit_above 64); auto; try apply cellAt_cell; auto. tauto. }
    destruct (cellAt (is_data t) k =? 0)%N; auto. cbn. apply N.eqb_refl.
Qed.

Lemma ldiff_0 a b : (N.ldiff a b =? 0)%N = true <-> forall j, N.testbit a j = true -> N.testbit b j = true.
Proof.
  rewrite N.eqb_eq. split.
  - intros H j Hj. assert (N.testbit (N.ldiff a b) j = false) as Q by (rewrite H; apply N.bits_0).
    rewrite N.ldiff_spec, Hj in Q. destruct (N.testbit b j); auto; discriminate.
  - intros H. apply N.bits_inj. intros j. rewrite N.ldiff_spec, N.bits_0. specialize (H j).
    destruct (N.testbit a j); auto. rewrite H; auto.
Qed.

Lemma subset_loop_ok t l : isok t -> (forall e, In e l -> e_val e <> 0%N) ->
  exists b, subset_loop h t (map pair_of l) = Ok b /\
    (b = true <-> forall e j, In e l -> N.testbit (e_val e) j = true -> N.testbit (cellAt (is_data t) (e_key e)) j = true).
Proof.
  intros Ht. induction l as [|e l IH]; intros Hl; cbn [map subset_loop].
  - exists true. split; [reflexivity|]. split; [intros _ e j []|reflexivity].
  - unfold pair_of at 1. rewrite (m_get_ok (KX := ifK) (kok := anyKey)); [|apply Ht|exact Logic.I]. cbn [bind].
    destruct (mget (is_data t) (e_key e)) as [c|] eqn:Eg.
    + assert (cellAt (is_data t) (e_key e) = c) as Ec by (unfold cellAt; rewrite Eg; auto).
      destruct (N.ldiff (e_val e) c =? 0)%N eqn:Ed.
      * destruct IH as (b & E1 & Hb); [intros; apply Hl; right; auto|]. exists b. split; auto. rewrite Hb.
        pose proof (proj1 (ldiff_0 _ _) Ed) as Hd. split.
        -- intros H x j [<-|Hx] Hj; auto. rewrite Ec. auto.
        -- intros H x j Hx. apply H. right; auto.
      * exists false. split; auto. split; [discriminate|]. intros H.
        assert ((N.ldiff (e_val e) c =? 0)%N = true) as Q; [|congruence].
        apply ldiff_0. intros j Hj. rewrite <- Ec. apply H; auto. left; auto.
    + exists false. split; auto. split; [discriminate|]. intros H. exfalso. apply (Hl e); [left; auto|].
      apply N.bits_inj. intros j. rewrite N.bits_0. destruct (N.testbit (e_val e) j) eqn:Ej; auto.
      apply H in Ej; [|left; auto]. unfold cellAt in Ej. rewrite Eg, N.bits_0 in Ej. discriminate.
Qed.

Lemma is_isSubsetOf_ok s t : isok s -> isok t ->
  exists b, is_isSubsetOf h s t = Ok b /\ (b = true <-> forall i, member s i = true -> member t i = true).
Proof.
  intros Hs Ht. unfold is_isSubsetOf. rewrite (m_entries_ok (KX := ifK) (kok := anyKey)) by apply Hs. cbn [bind].
  destruct (subset_loop_ok t (mel (is_data s)) Ht) as (b & E1 & Hb).
  { intros e He. apply (cellsOk_s s Hs e He). }
  exists b. split; auto. rewrite Hb. split.
  - intros H i Hi. unfold member in *. unfold cellAt in Hi at 1.
    destruct (mget (is_data s) (i / 64)) as [c|] eqn:Eg; [|rewrite N.bits_0 in Hi; discriminate].
    apply (H (mkEntry (i / 64) c)); auto. apply mget_Some; auto. apply Hs.
  - intros H e j He Hj. destruct (cellsOk_s s Hs e He) as [Hc _].
    pose proof (proj1 (isCell_bits _) Hc j Hj) as Hlt. rewrite <- member_at by auto. apply H.
    rewrite member_at by auto. unfold cellAt. rewrite (mget_In _ e (isok_data s Hs) He). auto.
Qed.

Lemma isel_perm s t : isok s -> isok t -> (forall i, member s i = member t i) -> Permutation (isel s) (isel t).
Proof.
  intros Hs Ht H. apply NoDup_Permutation; auto using isel_NoDup. intros i. rewrite !isel_In by auto. rewrite H. tauto.
Qed.

Lemma fold_lxor_perm {A} (f : A -> N) l1 l2 : Permutation l1 l2 -> forall a,
  fold_left (fun acc x => N.lxor acc (f x)) l1 a = fold_left (fun acc x => N.lxor acc (f x)) l2 a.
Proof.
  induction 1; intros a; simpl; auto.
  - f_equal. rewrite !N.lxor_assoc. f_equal. apply N.lxor_comm.
  - rewrite IHPermutation1. auto.
Qed.

Lemma is_hash_ok s t seed : isok s -> isok t -> (forall i, member s i = member t i) ->
  exists v, is_hash I h s seed = Ok v /\ is_hash I h t seed = Ok v.
Proof.
  intros Hs Ht H. unfold is_hash. rewrite !is_elements_ok by auto. cbn [bind].
  eexists. split; [reflexivity|]. f_equal.
  apply (fold_lxor_perm (fun i => @vhash Z (isK h) i 0%N)). apply isel_perm; auto.
Qed.

(** ** Updates *)

(** How an update of [data] at one cell preserves the invariant. *)
Lemma isok_update s d k o cnt : isok s -> cmok d ->
  (forall j, klk (mel d) j = if k =? j then option_map (mkEntry k) o else klk (mel (is_data s)) j) ->
  (forall c, o = Some c -> isCell c /\ c <> 0%N /\ forall j, N.testbit c j = true ->
     it_in I (64 * k + Z.of_N j) /\ fits (64 * k + Z.of_N j)) ->
  cnt = is_cnt s - cell_count (cellAt (is_data s) k) + cell_count (match o with Some c => c | None => 0%N end) ->
  isok (mkIS d cnt) /\
  forall j, cellAt d j = if k =? j then match o with Some c => c | None => 0%N end else cellAt (is_data s) j.
Proof.
  intros H Hd Hk Ho Hc.
  assert (forall j, mget d j = if k =? j then o else mget (is_data s) j) as Hg.
  { intros j. unfold mget. rewrite Hk. destruct (k =? j); auto. destruct o; auto. }
  assert (forall j, cellAt d j = if k =? j then match o with Some c => c | None => 0%N end else cellAt (is_data s) j) as Ha.
  { intros j. unfold cellAt. rewrite Hg. destruct (k =? j); auto. }
  split; auto. constructor; cbn [is_data is_cnt]; auto.
  - intros j c Hj. rewrite Hg in Hj. destruct (k =? j); [split; apply (Ho c Hj)|apply (isok_cells s H j c Hj)].
  - intros j b Hj. rewrite Ha in Hj. destruct (Z.eqb_spec k j) as [<-|]; [|apply (isok_bits s H); auto].
    destruct o as [c|]; [|rewrite N.bits_0 in Hj; discriminate]. destruct (Ho c eq_refl) as (_ & _ & Hb). auto.
  - rewrite Hc. rewrite (total_update (mel (is_data s)) (mel d) k (option_map (mkEntry k) o)).
    + rewrite (isok_count s H). unfold cellAt, mget. f_equal.
      * f_equal. destruct (klk (mel (is_data s)) k) as [e|]; auto.
      * destruct o as [c|]; auto.
    + apply mel_keys_NoDup; apply H.
    + apply mel_keys_NoDup; auto.
    + intros e He. destruct o; [injection He as <-|discriminate]. reflexivity.
    + exact Hk.
Qed.

Lemma cell_count_0 : cell_count 0 = 0.
Proof. unfold cell_count. rewrite popcount_0. reflexivity. Qed.

Lemma is_with_ok s i : isok s -> it_in I i -> fits i ->
  exists r, is_with h s i = Ok r /\ isok r /\ forall j, member r j = ((i =? j) || member s j)%bool.
Proof.
  intros H Hr Hf. unfold is_with. rewrite is_locate_ok by auto. cbn [bind].
  destruct (fits_dec i) as [_|?]; [|tauto]. rewrite land_bit. fold (member s i). pose proof (bitOf_lt i) as Hb.
  destruct (member s i) eqn:Em; cbn [negb].
  - exists s. split; auto. split; auto. intros j. destruct (Z.eqb_spec i j); subst; auto.
  - set (c := cellAt (is_data s) (i / 64)) in *.
    destruct (m_with_ok (KX := ifK) (kok := anyKey) (is_data s) (i / 64) (N.lor c (2 ^ bitOf i))) as (d & E1 & Hd & Hk & _);
      [apply H|exact Logic.I|]. change (m_with (KX := isK h)) with (m_with (KX := ifK) (V := N)). rewrite E1. cbn [bind].
    assert (isCell c) as Hc by (apply cellAt_cell; auto).
    assert (isCell (N.lor c (2 ^ bitOf i))) as Hc'.
    { apply isCell_bits. intros j. rewrite N.lor_spec, N.pow2_bits_eqb. rewrite orb_true_iff, N.eqb_eq.
      intros [Hj|<-]; auto. apply (proj1 (isCell_bits c)); auto. }
    destruct (isok_update s d (i / 64) (Some (N.lor c (2 ^ bitOf i))) (is_cnt s + 1)) as [Hok Ha]; auto.
    + intros j. apply (Hk j Logic.I).
    + intros c' Hc2. injection Hc2 as <-. split; auto. split.
      * intros E0. assert (N.testbit (N.lor c (2 ^ bitOf i)) (bitOf i) = false) as Q by (rewrite E0; apply N.bits_0).
        rewrite N.lor_spec, N.pow2_bits_true, orb_true_r in Q. discriminate.
      * intros j. rewrite N.lor_spec, N.pow2_bits_eqb, orb_true_iff, N.eqb_eq. intros [Hj|<-].
        -- apply (isok_bits s H). auto.
        -- rewrite <- div_mod_64. auto.
    + fold c. unfold cell_count. rewrite popcount_set; auto. lia.
    + exists (mkIS d (is_cnt s + 1)). split; auto. split; auto. intros j. unfold member. cbn [is_data]. rewrite Ha.
      destruct (Z.eqb_spec (i / 64) (j / 64)) as [Ed|Ed].
      * rewrite N.lor_spec, N.pow2_bits_eqb. rewrite orb_comm. unfold c. rewrite Ed. f_equal.
        destruct (N.eqb_spec (bitOf i) (bitOf j)) as [Eb|Eb]; destruct (Z.eqb_spec i j) as [Ei|Ei]; auto; [|congruence].
        exfalso. apply Ei. rewrite (div_mod_64 i), (div_mod_64 j). congruence.
      * destruct (Z.eqb_spec i j); auto. congruence.
Qed.

Lemma is_without_ok s i : isok s ->
  exists r, is_without h s i = Ok r /\ isok r /\ forall j, member r j = (negb (i =? j) && member s j)%bool.
Proof.
  intros H. unfold is_without. rewrite is_locate_ok by auto. cbn [bind].
  assert ((N.land (cellAt (is_data s) (i / 64)) (if fits_dec i then 2 ^ bitOf i else 0) =? 0)%N = negb (member s i)) as ->.
  { destruct (fits_dec i); [apply land_bit|]. rewrite N.land_0_r. cbn. destruct (member s i) eqn:Em; auto.
    apply member_fits in Em; auto. tauto. }
  pose proof (bitOf_lt i) as Hb.
  destruct (member s i) eqn:Em; cbn [negb].
  - destruct (fits_dec i) as [Hf|Hf]; [|apply member_fits in Em; tauto].
    set (c := cellAt (is_data s) (i / 64)) in *. set (c' := N.ldiff c (2 ^ bitOf i)).
    assert (isCell c) as Hc by (apply cellAt_cell; auto).
    assert (forall j, N.testbit c' j = (N.testbit c j && negb (bitOf i =? j)%N)%bool) as Hb'.
    { intros j. unfold c'. rewrite N.ldiff_spec, N.pow2_bits_eqb. auto. }
    assert (isCell c') as Hc'.
    { apply isCell_bits. intros j. rewrite Hb', andb_true_iff. intros [Hj _]. apply (proj1 (isCell_bits c)); auto. }
    assert (exists d, (if (c' =? 0)%N then m_without (is_data s) (i / 64) else m_with (is_data s) (i / 64) c') = Ok d /\
      cmok d /\ forall j, klk (mel d) j = if i / 64 =? j then option_map (mkEntry (i / 64)) (if (c' =? 0)%N then None else Some c')
        else klk (mel (is_data s)) j) as (d & E1 & Hd & Hk).
    { destruct (c' =? 0)%N.
      - destruct (m_without_ok (KX := ifK) (kok := anyKey) (is_data s) (i / 64)) as (d & E1 & Hd & Hk & _); [apply H|exact Logic.I|].
        exists d. split; auto. split; auto. intros j. apply (Hk j Logic.I).
      - destruct (m_with_ok (KX := ifK) (kok := anyKey) (is_data s) (i / 64) c') as (d & E1 & Hd & Hk & _); [apply H|exact Logic.I|].
        exists d. split; auto. split; auto. intros j. apply (Hk j Logic.I). }
    change (isK h) with ifK. rewrite E1. cbn [bind].
    assert (match (if (c' =? 0)%N then None else Some c') with Some x => x | None => 0%N end = c') as Hm.
    { destruct (N.eqb_spec c' 0); auto. }
    destruct (isok_update s d (i / 64) (if (c' =? 0)%N then None else Some c') (is_cnt s - 1)) as [Hok Ha]; auto.
    + intros x Hx. destruct (N.eqb_spec c' 0) as [E0|E0]; [discriminate|]. injection Hx as <-. split; auto. split; auto.
      intros j Hj. rewrite Hb', andb_true_iff in Hj. apply (isok_bits s H). tauto.
    + rewrite Hm. fold c. unfold cell_count. rewrite (popcount_clear c (bitOf i)); auto. fold c'. lia.
    + exists (mkIS d (is_cnt s - 1)). split; auto. split; auto. intros j. unfold member. cbn [is_data]. rewrite Ha, Hm.
      destruct (Z.eqb_spec (i / 64) (j / 64)) as [Ed|Ed].
      * rewrite Hb'. unfold c. rewrite Ed, andb_comm. f_equal. f_equal.
        destruct (N.eqb_spec (bitOf i) (bitOf j)) as [Eb|Eb]; destruct (Z.eqb_spec i j) as [Ei|Ei]; auto; [|congruence].
        exfalso. apply Ei. rewrite (div_mod_64 i), (div_mod_64 j). congruence.
      * destruct (Z.eqb_spec i j); auto. congruence.
  - exists s. split; auto. split; auto. intros j. destruct (Z.eqb_spec i j) as [<-|]; auto.
Qed.

(** ** Building from cells *)

(** A fold that puts, for each element of a list, at most one cell. *)
Lemma put_fold_ok {A} (f : A -> option centry) (step : mapBuilder Z N * Z -> A -> res (mapBuilder Z N * Z)) l :
  (forall bc a, In a l -> mbok (KX := ifK) (kok := anyKey) (fst bc) ->
     step bc a = match f a with
                 | Some e => b <- mb_put (KX := ifK) (fst bc) (e_key e) (e_val e) ;; Ok (b, snd bc + cell_count (e_val e))
                 | None => Ok bc
                 end) ->
  NoDup (map e_key (flat_map (fun a => match f a with Some e => [e] | None => [] end) l)) ->
  exists b, foldM step (mkMB emptyTree, 0) l =
      Ok (b, total (flat_map (fun a => match f a with Some e => [e] | None => [] end) l)) /\
    mbok (KX := ifK) (kok := anyKey) b /\
    forall k, klk (mbel b) k = klk (flat_map (fun a => match f a with Some e => [e] | None => [] end) l) k.
Proof.
  intros Hs HN.
  assert (forall b0 n, mbok (KX := ifK) (kok := anyKey) b0 ->
    exists b, foldM step (b0, n) l =
      Ok (b, n + total (flat_map (fun a => match f a with Some e => [e] | None => [] end) l)) /\
    mbok (KX := ifK) (kok := anyKey) b /\
    forall k, klk (mbel b) k = match klk (flat_map (fun a => match f a with Some e => [e] | None => [] end) l) k with
      Some e => Some e | None => klk (mbel b0) k end) as G.
  { induction l as [|a l IH]; intros b0 n Hb0.
    - exists b0. simpl. rewrite Z.add_0_r. auto.
    - cbn [foldM flat_map] in *. rewrite Hs by (auto; left; auto). cbn [fst snd].
      assert (forall bc a0, In a0 l -> mbok (KX := ifK) (kok := anyKey) (fst bc) ->
        step bc a0 = match f a0 with
                     | Some e => b <- mb_put (KX := ifK) (fst bc) (e_key e) (e_val e) ;; Ok (b, snd bc + cell_count (e_val e))
                     | None => Ok bc
                     end) as Hs' by (intros; apply Hs; auto; right; auto).
      destruct (f a) as [e|].
      + cbn [app map] in HN. inversion_clear HN as [|? ? Ha HN'].
        destruct (mb_put_ok (KX := ifK) (kok := anyKey) b0 (e_key e) (e_val e) Hb0 Logic.I) as (b1 & E1 & Hb1 & Hk1 & _).
        rewrite E1. cbn [bind]. destruct (IH Hs' HN' b1 (n + cell_count (e_val e)) Hb1) as (b & E2 & Hb & Hk).
        exists b. rewrite E2. split; [f_equal; f_equal; cbn [app]; rewrite total_cons; lia|]. split; auto.
        intros k. rewrite Hk. cbn [app]. unfold klk at 3. cbn [find].
        specialize (Hk1 k Logic.I). cbn [veq ifK intKey] in Hk1 |- *. destruct (Z.eqb_spec (e_key e) k) as [Ek|Hn].
        * assert (klk (flat_map (fun a => match f a with Some e => [e] | None => [] end) l) k = None) as ->.
          { apply klk_None. rewrite <- Ek. auto. }
          rewrite Hk1. destruct e; auto.
        * fold (klk (flat_map (fun a => match f a with Some e => [e] | None => [] end) l) k).
          rewrite Hk1. reflexivity.
      + cbn [app] in *. cbn [bind]. apply IH; auto. }
  destruct (G (mkMB emptyTree) 0) as (b & E1 & Hb & Hk); [apply mbok_empty|].
  exists b. split; auto. split; auto. intros k. rewrite Hk. destruct (klk _ k); auto.
Qed.

(** A set built from a list of non-zero cells. *)
Lemma isok_built b (L : list centry) : mbok (KX := ifK) (kok := anyKey) b -> NoDup (map e_key L) ->
  (forall k, klk (mbel b) k = klk L k) ->
  cellsOk L -> (forall e j, In e L -> N.testbit (e_val e) j = true ->
    it_in I (64 * e_key e + Z.of_N j) /\ fits (64 * e_key e + Z.of_N j)) ->
  isok (mkIS (fst (mb_finish b)) (total L)) /\
  forall k, cellAt (fst (mb_finish b)) k = match klk L k with Some e => e_val e | None => 0%N end.
Proof.
  intros Hb HN Hk Hc Hj. destruct (mb_finish_ok (KX := ifK) (kok := anyKey) b Hb) as [Hm He].
  assert (forall k, mget (fst (mb_finish b)) k = option_map e_val (klk L k)) as Hg.
  { intros k. unfold mget. rewrite He, Hk. reflexivity. }
  assert (forall k, cellAt (fst (mb_finish b)) k = match klk L k with Some e => e_val e | None => 0%N end) as Ha.
  { intros k. unfold cellAt. rewrite Hg. destruct (klk L k); auto. }
  split; auto. constructor; cbn [is_data is_cnt]; auto.
  - intros k c Hs. rewrite Hg in Hs. destruct (klk L k) as [e|] eqn:Ek; [|discriminate]. injection Hs as <-.
    apply klk_In in Ek as [Hi _]; auto.
  - intros k j Hs. rewrite Ha in Hs. destruct (klk L k) as [e|] eqn:Ek; [|rewrite N.bits_0 in Hs; discriminate].
    apply klk_In in Ek as [Hi <-]; auto.
  - rewrite He. apply total_perm, klk_perm; auto. rewrite <- He. apply mel_keys_NoDup; auto.
Qed.

(** ** NewIntSet *)

Lemma go_put_keys (g : list (Z * N)) k v : NoDup (map fst g) -> NoDup (map fst (go_put Z.eqb g k v)) /\
  (forall j, In j (map fst (go_put Z.eqb g k v)) <-> j = k \/ In j (map fst g)).
Proof.
  induction g as [|[k' v'] g IH]; cbn [go_put map fst]; intros HN.
  - split; [constructor; auto; intros []|]. intros j. simpl. intuition.
  - inversion_clear HN as [|? ? Ha HN']. destruct (Z.eqb_spec k' k) as [->|Hn]; cbn [map fst].
    + split; [constructor; auto|]. intros j. simpl. intuition.
    + destruct (IH HN') as [H1 H2]. split.
      * constructor; auto. rewrite H2. intros [?|?]; auto.
      * intros j. simpl. rewrite H2. intuition.
Qed.

Lemma go_get_put (g : list (Z * N)) k v j : go_get (go_put Z.eqb g k v) j = if k =? j then v else go_get g j.
Proof.
  unfold go_get. induction g as [|[k' v'] g IH]; cbn [go_put find fst snd].
  - destruct (k =? j); auto.
  - destruct (Z.eqb_spec k' k) as [->|Hn]; cbn [find fst snd].
    + destruct (k =? j); auto.
    + destruct (Z.eqb_spec k' j) as [->|].
      * destruct (Z.eqb_spec k j); auto; congruence.
      * exact IH.
Qed.

Lemma go_get_klk g k : go_get g k = match klk (map (fun kv => mkEntry (fst kv) (snd kv)) g) k with Some e => e_val e | None => 0%N end.
Proof.
  unfold go_get, klk. induction g as [|[k' v'] g IH]; simpl; auto. destruct (k' =? k); auto.
Qed.

(** The Go map built by the first loop. *)
Definition cellMap (l : list Z) (g : list (Z * N)) : list (Z * N) :=
  fold_left (fun m i => let '(cellIndex, bitMask) := locateCell i in
    go_put Z.eqb m cellIndex (N.lor (go_get m cellIndex) bitMask)) l g.

Lemma cellMap_ok l : (forall i, In i l -> fits i) -> forall g, NoDup (map fst g) ->
  NoDup (map fst (cellMap l g)) /\
  (forall k, In k (map fst (cellMap l g)) -> In k (map fst g) \/ exists i, In i l /\ k = i / 64) /\
  (forall k j, N.testbit (go_get (cellMap l g) k) j = true <->
     N.testbit (go_get g k) j = true \/ exists i, In i l /\ k = i / 64 /\ j = bitOf i).
Proof.
  induction l as [|a l IH]; intros Hl g HN.
  - cbn. split; auto. split; auto. intros k j. split; auto. intros [?|(i & [] & _)]; auto.
  - cbn [cellMap fold_left]. rewrite locate_fits by (apply Hl; left; auto).
    fold (cellMap l (go_put Z.eqb g (a / 64) (N.lor (go_get g (a / 64)) (2 ^ bitOf a)))).
    destruct (go_put_keys g (a / 64) (N.lor (go_get g (a / 64)) (2 ^ bitOf a)) HN) as [HN1 HK1].
    destruct (IH (fun i Hi => Hl i (or_intror Hi)) _ HN1) as (H1 & H2 & H3). split; auto. split.
    + intros k Hk. apply H2 in Hk as [Hk|(i & Hi & ->)]; [|right; exists i; split; [right|]; auto].
      apply HK1 in Hk as [->|Hk]; auto. right. exists a. split; [left|]; auto.
    + intros k j. rewrite H3, go_get_put. destruct (Z.eqb_spec (a / 64) k) as [<-|Hn].
      * rewrite N.lor_spec, N.pow2_bits_eqb, orb_true_iff, N.eqb_eq. split.
        -- intros [[?|<-]|(i & Hi & ? & ?)]; auto; right; [exists a; split; [left|]|exists i; split; [right|]]; auto.
        -- intros [?|(i & [<-|Hi] & ? & ?)]; auto. right. exists i; auto.
      * split.
        -- intros [?|(i & Hi & ? & ?)]; auto. right. exists i. split; [right|]; auto.
        -- intros [?|(i & [<-|Hi] & ? & ?)]; auto; try congruence. right. exists i; auto.
Qed.

Lemma cellMap_values l : (forall i, In i l -> fits i) -> forall g,
  (forall kv, In kv g -> snd kv <> 0%N) -> forall kv, In kv (cellMap l g) -> snd kv <> 0%N.
Proof.
  induction l as [|a l IH]; intros Hl g Hg; [exact Hg|].
  cbn [cellMap fold_left]. rewrite locate_fits by (apply Hl; left; auto).
  apply (IH (fun i Hi => Hl i (or_intror Hi))).
  assert (forall c, N.lor c (2 ^ bitOf a) <> 0%N) as Hz.
  { intros c E0. assert (N.testbit (N.lor c (2 ^ bitOf a)) (bitOf a) = false) as Q by (rewrite E0; apply N.bits_0).
    rewrite N.lor_spec, N.pow2_bits_true, orb_true_r in Q. discriminate. }
  generalize (N.lor (go_get g (a / 64)) (2 ^ bitOf a)), (Hz (go_get g (a / 64))). intros v Hv. clear IH Hl Hz l.
  induction g as [|[k' v'] g IHg]; cbn [go_put]; intros kv.
  - intros [<-|[]]. auto.
  - destruct (k' =? a / 64).
    + intros [<-|Hi]; [auto|]. apply Hg. right; auto.
    + intros [<-|Hi]; [apply (Hg (k', v')); left; auto|]. apply IHg; auto. intros x Hx. apply Hg. right; auto.
Qed.

Lemma flat_single {A B} (f : A -> B) l : flat_map (fun a => [f a]) l = map f l.
Proof. induction l; simpl; congruence. Qed.

Lemma is_new_ok ord l : (forall g, Permutation (ord g) g) -> (forall i, In i l -> it_in I i /\ fits i) ->
  exists r, is_new h ord l = Ok r /\ isok r /\ forall i, member r i = true <-> In i l.
Proof.
  intros Ho Hl. unfold is_new. fold (cellMap l []).
  destruct (cellMap_ok l (fun i Hi => proj2 (Hl i Hi)) [] (NoDup_nil _)) as (H1 & H2 & H3).
  pose proof (cellMap_values l (fun i Hi => proj2 (Hl i Hi)) [] (fun kv (F : In kv []) => match F with end)) as H4.
  set (g := cellMap l []) in *. specialize (Ho g).
  assert (NoDup (map fst (ord g))) as HNo.
  { eapply Permutation_NoDup; [|exact H1]. apply Permutation_map. symmetry; auto. }
  set (L := map (fun kv => mkEntry (fst kv) (snd kv)) (ord g)).
  assert (NoDup (map e_key L)) as HL by (unfold L; rewrite map_map; exact HNo).
  destruct (put_fold_ok (fun kv => Some (mkEntry (fst kv) (snd kv)))
    (fun bc kv => b <- mb_put (KX := ifK) (fst bc) (fst kv) (snd kv) ;; Ok (b, snd bc + cell_count (snd kv))) (ord g)) as (b & E1 & Hb & Hk).
  { reflexivity. }
  { rewrite flat_single. exact HL. }
  rewrite flat_single in E1, Hk. fold L in E1, Hk.
  change (isK h) with ifK. change (newMapBuilder (Z.of_nat (length g))) with (mkMB (X := Z) (V := N) emptyTree). rewrite E1. cbn [bind].
  assert (forall e, In e L -> go_get g (e_key e) = e_val e) as HgL.
  { intros e He. rewrite go_get_klk.
    assert (klk (map (fun kv => mkEntry (fst kv) (snd kv)) g) (e_key e) = Some e) as ->; auto.
    apply klk_In; [rewrite map_map; exact H1|]. split; auto.
    eapply Permutation_in; [|exact He]. apply Permutation_map. auto. }
  assert (forall e j, In e L -> N.testbit (e_val e) j = true -> exists i, In i l /\ e_key e = i / 64 /\ j = bitOf i) as HbL.
  { intros e j He Hj. rewrite <- HgL in Hj by auto. apply H3 in Hj as [Hj|?]; auto. rewrite N.bits_0 in Hj. discriminate. }
  destruct (isok_built b L Hb HL Hk) as [Hok Ha].
  - intros e He. split.
    + apply isCell_bits. intros j Hj. destruct (HbL e j He Hj) as (i & _ & _ & ->). apply bitOf_lt.
    + apply in_map_iff in He as (kv & <- & Hkv). apply H4. eapply Permutation_in; eauto.
  - intros e j He Hj. destruct (HbL e j He Hj) as (i & Hi & -> & ->). rewrite <- div_mod_64. apply Hl; auto.
  - eexists. split; [reflexivity|]. split; [exact Hok|]. intros i. unfold member. cbn [is_data]. rewrite Ha.
    assert (match klk L (i / 64) with Some e => e_val e | None => 0%N end = go_get g (i / 64)) as ->.
    { destruct (klk L (i / 64)) as [e|] eqn:Ek.
      - apply klk_In in Ek as [He <-]; auto. symmetry; auto.
      - rewrite go_get_klk. apply klk_None in Ek.
        assert (klk (map (fun kv => mkEntry (fst kv) (snd kv)) g) (i / 64) = None) as ->; auto.
        apply klk_None. intros Hi. apply Ek. revert Hi. apply Permutation_in. apply Permutation_map.
        apply Permutation_map. symmetry; auto. }
    rewrite H3. split.
    + intros [Hj|(i' & Hi & Hd & Hm)]; [rewrite N.bits_0 in Hj; discriminate|].
      rewrite (div_mod_64 i), Hd, Hm, <- div_mod_64. auto.
    + intros Hi. right. exists i; auto.
Qed.

Lemma is_map_ok ord s f : (forall g, Permutation (ord g) g) -> isok s ->
  (forall i, member s i = true -> it_in I (f i) /\ fits (f i)) ->
  exists r, is_map I h ord s f = Ok r /\ isok r /\
    forall i, member r i = true <-> exists j, member s j = true /\ f j = i.
Proof.
  intros Ho Hs Hf. unfold is_map. rewrite is_elements_ok by auto. cbn [bind].
  destruct (is_new_ok ord (map f (isel s)) Ho) as (r & E1 & Hr & Hm).
  { intros i Hi. apply in_map_iff in Hi as (j & <- & Hj). apply Hf. apply isel_In; auto. }
  exists r. split; auto. split; auto. intros i. rewrite Hm, in_map_iff. split.
  - intros (j & Ej & Hj). exists j. split; auto. apply isel_In; auto.
  - intros (j & Hj & Ej). exists j. split; auto. apply isel_In; auto.
Qed.

(** ** Where *)

Lemma where_fold (p : nat -> bool) l : forall c0 j, (forall x, In x l -> (x < 64)%nat) ->
  N.testbit (fold_left (fun c x => if p x then N.lor c (wshl 64 1 (N.of_nat x)) else c) l c0) j = true <->
  N.testbit c0 j = true \/ exists x, In x l /\ p x = true /\ j = N.of_nat x.
Proof.
  induction l as [|a l IH]; intros c0 j Hl; cbn [fold_left].
  - split; auto. intros [?|(x & [] & _)]; auto.
  - rewrite IH by (intros; apply Hl; right; auto). assert (a < 64)%nat by (apply Hl; left; auto).
    destruct (p a) eqn:Ep.
    + rewrite wshl_bit by lia. rewrite N.lor_spec, N.pow2_bits_eqb, orb_true_iff, N.eqb_eq. split.
      * intros [[?|<-]|(x & ? & ?)]; auto; right; [exists a; split; [left|]|exists x; split; [right|]]; auto.
      * intros [?|(x & [<-|?] & ? & ->)]; auto. right. exists x; auto.
    + split.
      * intros [?|(x & ? & ?)]; auto. right. exists x. split; [right|]; auto.
      * intros [?|(x & [<-|?] & ? & ?)]; auto; try congruence. right. exists x; auto.
Qed.

Lemma where_cell_ok pred k c j : isCell c ->
  (forall j, N.testbit c j = true -> it_in I (64 * k + Z.of_N j)) ->
  N.testbit (where_cell I pred k c) j = true <-> N.testbit c j = true /\ pred (64 * k + Z.of_N j) = true.
Proof.
  intros Hc Hr. unfold where_cell.
  assert (bit_loop 64 64 c = one_bits 64 c) as -> by exact (bit_loop_one_bits 64 64 c Hc (one_bits_length 64 c)).
  rewrite (where_fold (fun x => pred (it_wrap I (it_wrap I (k * 64) + Z.of_nat x)))).
  - rewrite N.bits_0. split.
    + intros [?|(x & Hx & Hp & ->)]; [discriminate|]. apply one_bits_In in Hx as [Hx Hb]. split; auto.
      rewrite it_wrap_add in Hp by auto. rewrite nat_N_Z. rewrite it_wrap_id in Hp.
      * replace (64 * k + Z.of_nat x) with (k * 64 + Z.of_nat x) by lia. auto.
      * specialize (Hr _ Hb). rewrite nat_N_Z in Hr. replace (k * 64 + Z.of_nat x) with (64 * k + Z.of_nat x) by lia. auto.
    + intros [Hb Hp]. right. exists (N.to_nat j). pose proof (proj1 (isCell_bits c) Hc j Hb).
      split; [apply one_bits_In; rewrite N2Nat.id; split; auto; lia|]. rewrite N2Nat.id. split; auto.
      rewrite it_wrap_add by auto. rewrite N_nat_Z. replace (k * 64 + Z.of_N j) with (64 * k + Z.of_N j) by lia.
      rewrite it_wrap_id; auto.
  - intros x Hx. apply one_bits_In in Hx. tauto.
Qed.

(** Building a set from a function of the cells of another. *)
Lemma built_from s (F : centry -> N) (step : mapBuilder Z N * Z -> Z * N -> res (mapBuilder Z N * Z)) : isok s ->
  (forall bc e, In e (mel (is_data s)) -> step bc (pair_of e) = put_cell h bc (e_key e) (F e)) ->
  (forall e j, In e (mel (is_data s)) -> N.testbit (F e) j = true -> N.testbit (e_val e) j = true) ->
  exists b, foldM step (mkMB emptyTree, 0) (map pair_of (mel (is_data s))) = Ok b /\
    isok (mkIS (fst (mb_finish (fst b))) (snd b)) /\
    forall k, cellAt (fst (mb_finish (fst b))) k =
      match klk (mel (is_data s)) k with Some e => F e | None => 0%N end.
Proof.
  intros Hs Hst HF. pose proof (mel_keys_NoDup _ (isok_data s Hs)) as HN. pose proof (cellsOk_s s Hs) as Hc.
  assert (forall e j, In e (mel (is_data s)) -> N.testbit (e_val e) j = true ->
    it_in I (64 * e_key e + Z.of_N j) /\ fits (64 * e_key e + Z.of_N j)) as Hbits.
  { intros e j He Hj. apply (isok_bits s Hs). unfold cellAt. rewrite (mget_In _ e (isok_data s Hs) He). auto. }
  set (M := mel (is_data s)) in *.
  set (f := fun kv : Z * N => let e := mkEntry (fst kv) (snd kv) in
    if (F e =? 0)%N then None else Some (mkEntry (fst kv) (F e))).
  set (L := flat_map (fun a => match f a with Some e => [e] | None => [] end) (map pair_of M)).
  assert (forall e, In e L <-> exists a, In a M /\ F a <> 0%N /\ e = mkEntry (e_key a) (F a)) as HL.
  { intros e. unfold L. rewrite in_flat_map. split.
    - intros (kv & Hkv & He). apply in_map_iff in Hkv as (a & <- & Ha). unfold f, pair_of in He. cbn [fst snd] in He.
      destruct a as [k v]; cbn [e_key e_val] in *. destruct (N.eqb_spec (F (mkEntry k v)) 0); [destruct He|].
      destruct He as [<-|[]]. exists (mkEntry k v). auto.
    - intros (a & Ha & Hn & ->). exists (pair_of a). split; [apply in_map; auto|]. unfold f, pair_of. cbn [fst snd].
      destruct a as [k v]; cbn [e_key e_val] in *. destruct (N.eqb_spec (F (mkEntry k v)) 0); [congruence|]. left; auto. }
  assert (NoDup (map e_key L)) as HNL.
  { unfold L. clear HL L Hst HF Hc Hbits. induction M as [|a M IH]; [constructor|].
    cbn [map] in HN. inversion_clear HN as [|? ? Ha HN']. cbn [map flat_map]. rewrite map_app. unfold f at 1, pair_of at 1. cbn [fst snd].
    destruct (F _ =? 0)%N; [apply IH; auto|]. cbn [map app e_key]. constructor; [|apply IH; auto].
    intros Hi. apply Ha. apply in_map_iff in Hi as (e & He & Hi). apply in_flat_map in Hi as (kv & Hkv & Hi).
    apply in_map_iff in Hkv as (x & <- & Hx). unfold f, pair_of in Hi. cbn [fst snd] in Hi.
    destruct (F _ =? 0)%N; [destruct Hi|]. destruct Hi as [<-|[]]. cbn in He. rewrite <- He. apply in_map; auto. }
  destruct (put_fold_ok f step (map pair_of M)) as (b & E1 & Hb & Hk); auto.
  { intros bc kv Hkv _. apply in_map_iff in Hkv as (e & <- & He). rewrite Hst by auto. unfold put_cell, f, pair_of. cbn [fst snd].
    destruct e as [k v]; cbn [e_key e_val]. destruct (F (mkEntry k v) =? 0)%N; auto. }
  exists (b, total L). split; auto. cbn [fst snd]. fold L in Hk.
  destruct (isok_built b L Hb HNL Hk) as [Hok Ha].
  - intros e He. apply HL in He as (a & Hin & Hn & ->). cbn [e_val]. split; auto. apply isCell_bits. intros j Hj.
    apply (proj1 (isCell_bits (e_val a))); [apply Hc|apply HF]; auto.
  - intros e j He Hj. apply HL in He as (a & Hin & Hn & ->). cbn [e_val e_key] in *. apply Hbits; auto.
  - split; auto. intros k. rewrite Ha. destruct (klk M k) as [a|] eqn:Ek.
    + pose proof (proj1 (klk_In M k a HN) Ek) as [Hi Hke]. destruct (klk L k) as [e|] eqn:El.
      * apply klk_In in El as [He Hk']; auto. apply HL in He as (a' & Ha' & _ & ->). cbn [e_key e_val] in *.
        assert (klk M k = Some a') as Q by (apply klk_In; auto). congruence.
      * apply klk_None in El. destruct (N.eq_dec (F a) 0) as [|Hn]; auto. exfalso. apply El. rewrite <- Hke.
        change (e_key a) with (e_key (mkEntry (e_key a) (F a))). apply in_map. apply HL. exists a; auto.
    + apply klk_None in Ek. destruct (klk L k) as [e|] eqn:El; auto.
      apply klk_In in El as [He Hk']; auto. apply HL in He as (a' & Ha' & _ & ->). cbn [e_key] in Hk'.
      exfalso. apply Ek. rewrite <- Hk'. apply in_map; auto.
Qed.

Lemma is_where_ok s pred : isok s ->
  exists r, is_where I h s pred = Ok r /\ isok r /\ forall i, member r i = (member s i && pred i)%bool.
Proof.
  intros Hs. unfold is_where. rewrite (m_entries_ok (KX := ifK) (kok := anyKey)) by apply Hs. cbn [bind].
  assert (forall e j, In e (mel (is_data s)) ->
    N.testbit (where_cell I pred (e_key e) (e_val e)) j = true <->
    N.testbit (e_val e) j = true /\ pred (64 * e_key e + Z.of_N j) = true) as HW.
  { intros e j He. apply where_cell_ok; [apply (cellsOk_s s Hs e He)|]. intros x Hx. apply (isok_bits s Hs).
    unfold cellAt. rewrite (mget_In _ e (isok_data s Hs) He). auto. }
  destruct (built_from s (fun e => where_cell I pred (e_key e) (e_val e))
    (fun bc kv => put_cell h bc (fst kv) (where_cell I pred (fst kv) (snd kv))) Hs) as ([b n] & E1 & Hok & Ha).
  { intros; reflexivity. }
  { intros e j He Hj. apply HW in Hj; auto. tauto. }
  rewrite E1. cbn [bind fst snd] in *. eexists. split; [reflexivity|]. split; [exact Hok|].
  intros i. unfold member. cbn [is_data]. rewrite Ha. unfold cellAt at 1, mget.
  destruct (klk (mel (is_data s)) (i / 64)) as [e|] eqn:Ek; cbn [option_map].
  - apply klk_In in Ek as [He Hk]; [|apply mel_keys_NoDup; apply Hs].
    specialize (HW e (bitOf i) He). rewrite Hk, <- div_mod_64 in HW. rewrite Hk.
    apply eq_true_iff_eq. rewrite HW, andb_true_iff. tauto.
  - rewrite N.bits_0. reflexivity.
Qed.

Lemma is_intersection_ok s t : isok s -> isok t ->
  exists r, is_intersection h s t = Ok r /\ isok r /\ forall i, member r i = (member s i && member t i)%bool.
Proof.
  intros Hs Ht. unfold is_intersection. rewrite (m_entries_ok (KX := ifK) (kok := anyKey)) by apply Ht. cbn [bind].
  match goal with |- context [foldM ?f _ _] => set (step := f) end.
  destruct (built_from t (fun e => N.land (cellAt (is_data s) (e_key e)) (e_val e)) step Ht) as ([b n] & E1 & Hok & Ha).
  { intros bc e He. unfold step, pair_of. cbn [fst snd]. rewrite (m_get_ok (KX := ifK) (kok := anyKey)); [|apply Hs|exact Logic.I].
    cbn [bind]. unfold cellAt. destruct (mget (is_data s) (e_key e)) as [c|]; auto. }
  { intros e j He Hj. rewrite N.land_spec, andb_true_iff in Hj. tauto. }
  rewrite E1. cbn [bind fst snd] in *. eexists. split; [reflexivity|]. split; [exact Hok|].
  intros i. unfold member. cbn [is_data]. rewrite Ha. unfold cellAt at 3, mget.
  destruct (klk (mel (is_data t)) (i / 64)) as [e|] eqn:Ek; cbn [option_map].
  - apply klk_In in Ek as [He Hk]; [|apply mel_keys_NoDup; apply Ht]. rewrite N.land_spec, Hk. reflexivity.
  - rewrite N.bits_0, andb_false_r. reflexivity.
Qed.

(** ** Union *)

Lemma is_union_ok s t : isok s -> isok t ->
  exists r, is_union h s t = Ok r /\ isok r /\ forall i, member r i = (member s i || member t i)%bool.
Proof.
  intros Hs Ht. unfold is_union. rewrite (m_entries_ok (KX := ifK) (kok := anyKey)) by apply Ht. cbn [bind].
  pose proof (mel_keys_NoDup _ (isok_data t Ht)) as HN. pose proof (cellsOk_s t Ht) as Hc.
  assert (forall e j, In e (mel (is_data t)) -> N.testbit (e_val e) j = true ->
    it_in I (64 * e_key e + Z.of_N j) /\ fits (64 * e_key e + Z.of_N j)) as Hbits.
  { intros e j He Hj. apply (isok_bits t Ht). unfold cellAt. rewrite (mget_In _ e (isok_data t Ht) He). auto. }
  assert (forall M u, NoDup (map e_key M) -> cellsOk M ->
    (forall e j, In e M -> N.testbit (e_val e) j = true ->
       it_in I (64 * e_key e + Z.of_N j) /\ fits (64 * e_key e + Z.of_N j)) ->
    isok u -> (forall k, In k (map e_key M) -> cellAt (is_data u) k = cellAt (is_data s) k) ->
    exists d n, foldM (union_step h s) (is_data u, is_cnt u) (map pair_of M) = Ok (d, n) /\ isok (mkIS d n) /\
      forall k, cellAt d k = N.lor (cellAt (is_data u) k) (match klk M k with Some e => e_val e | None => 0%N end)) as G.
  { clear HN Hc Hbits. induction M as [|e M IH]; intros u HN Hc Hbits Hu Hsame.
    - exists (is_data u), (is_cnt u). split; auto. split; [destruct u; auto|]. intros k. cbn. rewrite N.lor_0_r. auto.
    - cbn [map foldM]. inversion_clear HN as [|? ? Ha HN']. unfold union_step at 1, pair_of at 1. cbn [fst snd].
      rewrite (m_get_ok (KX := ifK) (kok := anyKey)); [|apply Hs|exact Logic.I]. cbn [bind].
      set (uc := N.lor (cellAt (is_data s) (e_key e)) (e_val e)).
      assert (cellAt (is_data u) (e_key e) = cellAt (is_data s) (e_key e)) as Hce by (apply Hsame; left; auto).
      assert (exists n, match mget (is_data s) (e_key e) with
          | Some sCell => (N.lor sCell (e_val e), is_cnt u + cell_diffCount (N.lor sCell (e_val e)) sCell)
          | None => (e_val e, is_cnt u + cell_count (e_val e)) end = (uc, n) /\
          n = is_cnt u - cell_count (cellAt (is_data u) (e_key e)) + cell_count uc) as (n & E0 & Hn).
      { rewrite Hce. unfold uc, cellAt. destruct (mget (is_data s) (e_key e)) as [c|].
        - eexists. split; [reflexivity|]. unfold cell_diffCount, cell_count. pose proof (popcount_union c (e_val e)). lia.
        - rewrite N.lor_0_l, cell_count_0. eexists. split; [reflexivity|]. lia. }
      match goal with |- context [let '(_, _) := ?Q in _] => replace Q with (uc, n) by (symmetry; exact E0) end.
      destruct (Hc e) as [Hce1 Hce2]; [left; auto|].
      destruct (m_with_ok (KX := ifK) (kok := anyKey) (is_data u) (e_key e) uc) as (d & E1 & Hd & Hk & _);
        [apply Hu|exact Logic.I|]. change (fst (pair_of e)) with (e_key e). change (isK h) with ifK. rewrite E1. cbn [bind].
      assert (forall j, N.testbit uc j = true -> N.testbit (cellAt (is_data s) (e_key e)) j = true \/ N.testbit (e_val e) j = true) as Hub.
      { intros j. unfold uc. rewrite N.lor_spec, orb_true_iff. auto. }
      destruct (isok_update u d (e_key e) (Some uc) n) as [Hok Hat]; auto.
      + intros j. apply (Hk j Logic.I).
      + intros c Hcu. injection Hcu as <-. split; [|split].
        * apply isCell_bits. intros j Hj. apply Hub in Hj as [Hj|Hj].
          -- apply (proj1 (isCell_bits _) (cellAt_cell s (e_key e) Hs)); auto.
          -- apply (proj1 (isCell_bits _) Hce1); auto.
        * intros E00. unfold uc in E00. apply N.lor_eq_0_iff in E00. tauto.
        * intros j Hj. apply Hub in Hj as [Hj|Hj]; [apply (isok_bits s Hs); auto|]. apply Hbits; auto. left; auto.
      + destruct (IH (mkIS d n) HN') as (d' & n' & E2 & Hok' & Hat').
        * intros x Hx. apply Hc. right; auto.
        * intros x j Hx. apply Hbits. right; auto.
        * auto.
        * intros k Hkk. cbn [is_data]. rewrite Hat. destruct (Z.eqb_spec (e_key e) k) as [<-|]; [tauto|].
          apply Hsame. right; auto.
        * exists d', n'. split; auto. split; auto. intros k. rewrite Hat'. cbn [is_data]. rewrite Hat.
          unfold klk at 2. cbn [find]. cbn [veq ifK intKey]. destruct (Z.eqb_spec (e_key e) k) as [<-|Hne].
          -- assert (klk M (e_key e) = None) as -> by (apply klk_None; auto). rewrite N.lor_0_r, Hce. reflexivity.
          -- reflexivity. }
  destruct (G (mel (is_data t)) s HN Hc Hbits Hs (fun k _ => eq_refl)) as (d & n & E1 & Hok & Hat).
  rewrite E1. cbn [bind]. exists (mkIS d n). split; auto. split; auto. intros i. unfold member. cbn [is_data]. rewrite Hat.
  rewrite N.lor_spec. f_equal. unfold cellAt, mget. destruct (klk (mel (is_data t)) (i / 64)); auto.
Qed.
End IntFacts.
