(** * NodeWf: the representation invariant of the trie and its first consequences. *)
From Verif Require Import Base Bits Env EnvFacts Node.

Section NodeWf.
Context {E : Env} {T : Type} {K : Key T} {vok : T -> Prop} {KO : KeyOk K vok}.
Notation node := (node T).

(** ** Lists of pairwise different elements *)

(** The element of [l] equal to [w], if any. *)
Definition lookup (l : list T) (w : T) : option T := find (fun e => veq e w) l.

Inductive distinct : list T -> Prop :=
| distinct_nil : distinct []
| distinct_cons a l : (forall b, In b l -> veq a b = false) -> distinct l -> distinct (a :: l).

Definition allok (l : list T) : Prop := forall e, In e l -> vok e.

Lemma veq_false_sym a b : vok a -> vok b -> veq a b = false -> veq b a = false.
Proof.
  intros Ha Hb H. destruct (veq b a) eqn:E1; auto.
  apply veq_sym in E1; auto. congruence.
Qed.

Lemma veq_comm a b : vok a -> vok b -> veq a b = veq b a.
Proof.
  intros Ha Hb. destruct (veq b a) eqn:E1.
  - apply veq_sym in E1; auto.
  - apply veq_false_sym; auto.
Qed.

Lemma veq_trans_l a b c : vok a -> vok b -> vok c -> veq a b = true -> veq b c = veq a c.
Proof.
  intros Ha Hb Hc H. destruct (veq b c) eqn:E1.
  - symmetry. eapply (veq_trans a b c); auto.
  - destruct (veq a c) eqn:E2; auto.
    assert (veq b c = true); [|congruence].
    apply (veq_trans b a c); auto. apply veq_sym; auto.
Qed.

Lemma veq_trans_r a b c : vok a -> vok b -> vok c -> veq b c = true -> veq a b = veq a c.
Proof.
  intros Ha Hb Hc H. rewrite (veq_comm a b), (veq_comm a c); auto.
  symmetry. apply veq_trans_l; auto.
Qed.

Lemma veq_digit a b d : vok a -> vok b -> veq a b = true -> digit d a = digit d b.
Proof. intros Ha Hb H. apply hash_digit. apply vhash_compat; auto. Qed.

Lemma allok_nil : allok [].
Proof. intros e []. Qed.
Lemma allok_cons a l : vok a -> allok l -> allok (a :: l).
Proof. intros H1 H2 e [<-|H]; auto. Qed.
Lemma allok_app l1 l2 : allok (l1 ++ l2) <-> allok l1 /\ allok l2.
Proof.
  split.
  - intros H; split; intros e He; apply H; apply in_or_app; auto.
  - intros [H1 H2] e He. apply in_app_or in He as [He|He]; auto.
Qed.
Lemma allok_tl a l : allok (a :: l) -> allok l.
Proof. intros H e He. apply H; right; auto. Qed.
Lemma allok_hd a l : allok (a :: l) -> vok a.
Proof. intros H. apply H; left; auto. Qed.
Lemma allok_incl l1 l2 : incl l1 l2 -> allok l2 -> allok l1.
Proof. intros H1 H2 e He; auto. Qed.

Lemma lookup_app l1 l2 w :
  lookup (l1 ++ l2) w = match lookup l1 w with Some e => Some e | None => lookup l2 w end.
Proof.
  unfold lookup. induction l1 as [|a l1 IH]; simpl; auto. destruct (veq a w); auto.
Qed.

Lemma lookup_Some l w e : lookup l w = Some e -> In e l /\ veq e w = true.
Proof. intros H. apply find_some in H. auto. Qed.

Lemma lookup_None l w : lookup l w = None <-> (forall e, In e l -> veq e w = false).
Proof.
  unfold lookup. split.
  - intros H e He. eapply find_none in H; eauto.
  - induction l as [|a l IH]; simpl; intros H; auto.
    rewrite H by auto. apply IH. intros; apply H; auto.
Qed.

Lemma lookup_In l e : distinct l -> allok l -> In e l -> lookup l e = Some e.
Proof.
  intros Hd Hok. induction Hd as [|a l Ha Hd IH]; intros He; [contradiction|].
  unfold lookup; simpl. destruct He as [<-|He].
  - rewrite veq_refl; auto. apply Hok; left; auto.
  - rewrite Ha by auto. apply IH; auto. eapply allok_tl; eauto.
Qed.

Lemma lookup_iff l w e : distinct l -> allok l -> vok w ->
  (lookup l w = Some e <-> In e l /\ veq e w = true).
Proof.
  intros Hd Hok Hw. split; [apply lookup_Some|].
  intros [He Hq]. induction Hd as [|a l Ha Hd IH]; [contradiction|].
  unfold lookup; simpl. destruct He as [<-|He].
  - rewrite Hq; auto.
  - destruct (veq a w) eqn:E1.
    + assert (veq a e = true); [|rewrite Ha in *; auto; discriminate].
      apply (veq_trans a w e); auto.
      * apply Hok; left; auto.
      * apply Hok; right; auto.
      * apply veq_sym; auto. apply Hok; right; auto.
    + apply IH; auto. eapply allok_tl; eauto.
Qed.

Lemma lookup_veq l a b : allok l -> vok a -> vok b -> veq a b = true -> lookup l a = lookup l b.
Proof.
  intros Hok Ha Hb H. unfold lookup. induction l as [|e l IH]; simpl; auto.
  rewrite (veq_trans_r e a b); auto; [|apply Hok; left; auto].
  destruct (veq e b); auto. apply IH. eapply allok_tl; eauto.
Qed.

Lemma distinct_app l1 l2 : distinct (l1 ++ l2) <->
  distinct l1 /\ distinct l2 /\ (forall a b, In a l1 -> In b l2 -> veq a b = false).
Proof.
  induction l1 as [|x l1 IH]; simpl.
  - split; [intros H; repeat split; auto; [constructor|intros a b []]|tauto].
  - split.
    + intros H. inversion H as [|? ? H1 H2]; subst. apply IH in H2 as (H3 & H4 & H5).
      repeat split; auto.
      * constructor; auto. intros b Hb. apply H1. apply in_or_app; auto.
      * intros a b [<-|Ha] Hb; auto. apply H1. apply in_or_app; auto.
    + intros (H1 & H2 & H3). inversion H1 as [|? ? H4 H5]; subst. constructor.
      * intros b Hb. apply in_app_or in Hb as [Hb|Hb]; auto.
      * apply IH; auto.
Qed.

Lemma distinct_perm l1 l2 : allok l1 -> Permutation l1 l2 -> distinct l1 -> distinct l2.
Proof.
  intros Hok HP. induction HP as [|x l l' HP IH|x y l|l l' l'' HP1 IH1 HP2 IH2]; intros Hd; auto.
  - inversion Hd as [|? ? H1 H2]; subst. constructor.
    + intros b Hb. apply H1. eapply Permutation_in; [symmetry|]; eauto.
    + apply IH; auto. eapply allok_tl; eauto.
  - inversion Hd as [|? ? H1 H2]; subst. inversion H2 as [|? ? H3 H4]; subst.
    constructor; [|constructor; auto].
    + intros b [<-|Hb]; auto. apply veq_false_sym; try (apply Hok; simpl; auto). apply H1; left; auto.
    + intros b Hb. apply H1; right; auto.
  - apply IH2; auto. eapply allok_incl; eauto. intros e He. eapply Permutation_in; [symmetry|]; eauto.
Qed.

Lemma distinct_filter p l : distinct l -> distinct (filter p l).
Proof.
  induction 1 as [|a l Ha Hd IH]; simpl; [constructor|].
  destruct (p a); auto. constructor; auto.
  intros b Hb. apply filter_In in Hb as [Hb _]; auto.
Qed.

Lemma allok_filter p l : allok l -> allok (filter p l).
Proof. intros H e He. apply filter_In in He as [He _]; auto. Qed.

Lemma distinct_NoDup l : allok l -> distinct l -> NoDup l.
Proof.
  intros Hok H; induction H as [|a l Ha Hd IH]; constructor; auto.
  - intros Hin. apply Ha in Hin. rewrite veq_refl in Hin; [discriminate|apply Hok; left; auto].
  - apply IH. eapply allok_tl; eauto.
Qed.

(** Two lists of different elements containing the same elements up to equality have
    the same length. *)
Lemma distinct_length_le l1 l2 :
  distinct l1 -> allok l1 -> allok l2 ->
  (forall a, In a l1 -> exists b, In b l2 /\ veq a b = true) -> length l1 <= length l2.
Proof.
  revert l2; induction l1 as [|a l1 IH]; intros l2 Hd Hok1 Hok2 H; simpl; [lia|].
  inversion Hd as [|? ? H1 H2]; subst.
  destruct (H a) as (b & Hb & Hab); [left; auto|].
  apply in_split in Hb as (l2a & l2b & ->).
  rewrite app_length; simpl.
  assert (length l1 <= length (l2a ++ l2b)); [|rewrite app_length in *; lia].
  apply IH; auto.
  - eapply allok_tl; eauto.
  - intros e He. apply Hok2. apply in_app_or in He as [He|He]; apply in_or_app; simpl; auto.
  - intros x Hx. destruct (H x) as (y & Hy & Hxy); [right; auto|].
    exists y. split; auto. apply in_or_app. apply in_app_or in Hy as [Hy|[<-|Hy]]; auto.
    exfalso. specialize (H1 x Hx).
    assert (veq a x = true); [|congruence].
    assert (vok a) by (eapply allok_hd; eauto).
    assert (vok x) by (apply Hok1; right; auto).
    assert (vok b) by (apply Hok2; apply in_or_app; simpl; auto).
    apply (veq_trans a b x); auto. apply veq_sym; auto.
Qed.

Lemma distinct_length_eq l1 l2 :
  distinct l1 -> distinct l2 -> allok l1 -> allok l2 ->
  (forall w, vok w -> (lookup l1 w = None <-> lookup l2 w = None)) -> length l1 = length l2.
Proof.
  intros Hd1 Hd2 Hok1 Hok2 H.
  assert (Hin : forall l l', distinct l -> allok l -> allok l' ->
    (forall w, vok w -> (lookup l w = None <-> lookup l' w = None)) ->
    forall a, In a l -> exists b, In b l' /\ veq a b = true).
  { intros l l' Hd Hok Hok' Hl a Ha.
    destruct (lookup l' a) as [b|] eqn:Eb.
    - apply lookup_Some in Eb as [Hb Hq]. exists b; split; auto.
      apply veq_sym; auto.
    - apply Hl in Eb; auto. rewrite lookup_In in Eb; auto. discriminate. }
  apply Nat.le_antisymm; apply distinct_length_le; auto.
  - apply Hin; auto.
  - apply Hin; auto. intros w Hw. symmetry; auto.
Qed.

(** ** Branches *)

Lemma elems_branch m (data : list (option node)) : elems (Branch m data) = flat_map elemso data.
Proof.
  simpl. induction data as [|[c|] data IH]; simpl; auto. f_equal; auto.
Qed.

(** Every child sits at the index its elements hash to, at depth [d]. *)
Definition placed (d : nat) (data : list (option node)) : Prop :=
  forall i e, In e (elemso (child data i)) -> digit d e = i.

Inductive wf : nat -> node -> Prop :=
| wf_leaf1 d a : d <= maxTreeDepth -> vok a -> wf d (Leaf1 a)
| wf_leaf2 d a b : d <= maxTreeDepth -> vok a -> vok b -> veq a b = false -> wf d (Leaf2 a b)
| wf_twig d l : d = maxTreeDepth -> 3 <= length l -> allok l -> distinct l -> wf d (Twig l)
| wf_branch d m data :
    d < maxTreeDepth -> length data = fanout -> m = updateMask data ->
    (forall i c, child data i = Some c -> wf (S d) c) ->
    placed d data -> 3 <= length (elems (Branch m data)) -> wf d (Branch m data).

(** A branch under construction: like [wf] but possibly with fewer than 3 elements. *)
Inductive pre : nat -> node -> Prop :=
| pre_branch d m data :
    d < maxTreeDepth -> length data = fanout -> m = updateMask data ->
    (forall i c, child data i = Some c -> wf (S d) c) ->
    placed d data -> pre d (Branch m data).

Lemma wf_pre d m data : wf d (Branch m data) -> pre d (Branch m data).
Proof. inversion 1; subst; constructor; auto. Qed.

Lemma pre_wf d n : pre d n -> 3 <= length (elems n) -> wf d n.
Proof. inversion 1; subst; intros; constructor; auto. Qed.

Lemma wf_depth d n : wf d n -> d <= maxTreeDepth.
Proof. inversion 1; subst; lia. Qed.

Definition wfo (d : nat) (o : option node) : Prop := forall n, o = Some n -> wf d n.

Lemma wfo_None d : wfo d None.
Proof. intros n H; discriminate. Qed.
Lemma wfo_Some d n : wfo d (Some n) <-> wf d n.
Proof. split; [intros H; apply H; auto | intros H m [= ->]; auto]. Qed.

Lemma child_overflow data i : length data <= i -> child data i = (None : option node).
Proof. intros. unfold child. apply nth_overflow; auto. Qed.

Lemma in_flat_map_child data (e : T) :
  In e (flat_map elemso data) <-> exists i, In e (elemso (child data i)).
Proof.
  split.
  - intros H. apply in_flat_map in H as (o & Ho & He).
    apply In_nth with (d := None) in Ho as (i & Hi & Ei). exists i. unfold child. rewrite Ei; auto.
  - intros (i & H). apply in_flat_map. destruct (Nat.lt_ge_cases i (length data)) as [Hi|Hi].
    + exists (child data i). split; auto. unfold child. apply nth_In; auto.
    + rewrite child_overflow in H by auto. contradiction.
Qed.

Lemma elemso_in o (e : T) : In e (elemso o) -> exists c, o = Some c /\ In e (elems c).
Proof. destruct o as [c|]; simpl; [eauto|contradiction]. Qed.

Lemma wf_allok d n : wf d n -> allok (elems n).
Proof.
  induction 1 as [d a Hd Ha|d a b Hd Ha Hb Hab|d l Hd Hl Hok Hdis|d m data Hd Hlen Hm Hc IH Hp Hl].
  - apply allok_cons; auto. apply allok_nil.
  - repeat apply allok_cons; auto. apply allok_nil.
  - exact Hok.
  - rewrite elems_branch. intros e He. apply in_flat_map_child in He as (i & He).
    apply elemso_in in He as (c & Ec & He). apply (IH i c); auto.
Qed.

(** A lookup in a branch is a lookup in the child selected by the hash. *)
Lemma lookup_placed d data w :
  placed d data -> allok (flat_map elemso data) -> vok w ->
  lookup (flat_map elemso data) w = lookup (elemso (child data (digit d w))) w.
Proof.
  intros Hp Hok Hw.
  assert (Hp' : forall k data', (forall i e, In e (elemso (child data' i)) -> digit d e = (k + i)%nat) ->
    allok (flat_map elemso data') ->
    lookup (flat_map elemso data') w =
      if digit d w <? k then None else lookup (elemso (child data' (digit d w - k))) w).
  { clear Hp Hok. intros k data'. revert k.
    induction data' as [|o data' IH]; intros k Hp Hok.
    - simpl. destruct (_ <? _); auto. unfold child. destruct (digit d w - k); reflexivity.
    - simpl. rewrite lookup_app.
      simpl in Hok. apply allok_app in Hok as [Hok1 Hok2].
      rewrite (IH (S k)); auto.
      2:{ intros i e He. rewrite (Hp (S i) e) by auto; lia. }
      destruct (lookup (elemso o) w) as [e|] eqn:Eo.
      + apply lookup_Some in Eo as Eo'. destruct Eo' as [He Hq].
        assert (digit d e = k) by (rewrite (Hp 0 e); auto; lia).
        assert (digit d w = k) by (rewrite <- H; symmetry; apply veq_digit; auto).
        destruct (Nat.ltb_spec (digit d w) k); [lia|].
        rewrite H0, Nat.sub_diag. unfold child. simpl. auto.
      + destruct (Nat.ltb_spec (digit d w) (S k)), (Nat.ltb_spec (digit d w) k); auto; try lia.
        * replace (digit d w - k)%nat with 0%nat by lia. unfold child; simpl; auto.
        * replace (digit d w - k)%nat with (S (digit d w - S k)) by lia. reflexivity. }
  rewrite (Hp' 0 data); auto. rewrite Nat.sub_0_r. reflexivity.
Qed.

Lemma distinct_placed d data :
  placed d data -> allok (flat_map elemso data) ->
  (forall i, distinct (elemso (child data i))) -> distinct (flat_map elemso data).
Proof.
  intros Hp Hok Hd.
  assert (Hp' : forall k data', (forall i e, In e (elemso (child data' i)) -> digit d e = (k + i)%nat) ->
    allok (flat_map elemso data') -> (forall i, distinct (elemso (child data' i))) ->
    distinct (flat_map elemso data')).
  { clear Hp Hok Hd. intros k data'; revert k; induction data' as [|o data' IH]; intros k Hp Hok Hd.
    - constructor.
    - simpl in *. apply allok_app in Hok as [Hok1 Hok2]. apply distinct_app. repeat split.
      + apply (Hd 0).
      + apply (IH (S k)); auto.
        * intros i e He. rewrite (Hp (S i) e) by auto; lia.
        * intros i. apply (Hd (S i)).
      + intros a b Ha Hb. destruct (veq a b) eqn:Eq; auto. exfalso.
        apply in_flat_map_child in Hb as Hb'. destruct Hb' as (i & Hi).
        assert (digit d a = (k + 0)%nat) by (apply (Hp 0 a); auto).
        assert (digit d b = (k + S i)%nat) by (apply (Hp (S i) b); auto).
        assert (digit d a = digit d b) by (apply veq_digit; auto). lia. }
  apply (Hp' 0); auto.
Qed.

Lemma wf_distinct d n : wf d n -> distinct (elems n).
Proof.
  intros H. pose proof (wf_allok _ _ H) as Hok. revert Hok.
  induction H as [d a Hd Ha|d a b Hd Ha Hb Hab|d l Hd Hl Hok' Hdis|d m data Hd Hlen Hm Hc IH Hp Hl]; intros Hok.
  - repeat constructor. intros b [].
  - repeat constructor; [|intros x []]. intros x [<-|[]]; auto.
  - exact Hdis.
  - rewrite elems_branch in *. apply distinct_placed with d; auto.
    intros i. destruct (child data i) as [c|] eqn:Ec; simpl; [|constructor].
    apply (IH i c); auto. apply wf_allok with (S d). eauto.
Qed.

Lemma pre_allok d n : pre d n -> allok (elems n).
Proof.
  inversion 1 as [d' m data Hd Hlen Hm Hc Hp]; subst.
  rewrite elems_branch. intros e He. apply in_flat_map_child in He as (i & He).
  apply elemso_in in He as (c & Ec & He). apply (wf_allok (S d) c); auto. eauto.
Qed.

Lemma pre_distinct d n : pre d n -> distinct (elems n).
Proof.
  intros H. pose proof (pre_allok _ _ H) as Hok.
  inversion H as [d' m data Hd Hlen Hm Hc Hp]; subst.
  rewrite elems_branch in *. apply distinct_placed with d; auto.
  intros i. destruct (child data i) as [c|] eqn:Ec; simpl; [|constructor].
  apply wf_distinct with (S d). eauto.
Qed.

Lemma wf_nonempty d n : wf d n -> 1 <= length (elems n).
Proof. inversion 1; subst; simpl; try lia. simpl in *; lia. Qed.

Lemma wf_nonnil d n : wf d n -> elems n <> [].
Proof. intros H E0. apply wf_nonempty in H. rewrite E0 in H. simpl in H; lia. Qed.

(** ** Lengths *)

Definition leno (o : option node) : Z := Z.of_nat (length (elemso o)).

Lemma length_branch (data : list (option node)) n :
  length data = n ->
  Z.of_nat (length (flat_map elemso data)) = sumZ (map (fun i => leno (child data i)) (seq 0 n)).
Proof.
  intros <-. induction data as [|o data IH]; simpl; auto.
  rewrite app_length, Nat2Z.inj_add, IH.
  unfold leno at 1. unfold child; simpl. f_equal.
  rewrite <- seq_shift, map_map. reflexivity.
Qed.

(** ** Masks *)

Lemma updateMask_from_testbit (data : list (option node)) k m j :
  (k + length data <= 16)%nat ->
  N.testbit (updateMask_from k data m) (N.of_nat j) =
  N.testbit m (N.of_nat j) ||
  ((k <=? j)%nat && match child data (j - k) with Some _ => true | None => false end)%bool.
Proof.
  revert k m; induction data as [|o data IH]; intros k m H; simpl in *.
  - unfold child. destruct (j - k); rewrite andb_false_r, orb_false_r; reflexivity.
  - destruct o as [c|].
    + rewrite IH by lia. rewrite N.lor_spec, newMasker_testbit by lia.
      destruct (Nat.leb_spec (S k) j), (Nat.leb_spec k j), (Nat.eqb_spec k j); try lia; simpl.
      * replace (j - k)%nat with (S (j - S k)) by lia. unfold child; simpl.
        rewrite orb_false_r. reflexivity.
      * replace (j - k)%nat with 0%nat by lia. unfold child; simpl.
        rewrite !orb_true_r. reflexivity.
      * rewrite !orb_false_r. reflexivity.
    + rewrite IH by lia.
      destruct (Nat.leb_spec (S k) j), (Nat.leb_spec k j); try lia; simpl; auto.
      * replace (j - k)%nat with (S (j - S k)) by lia. unfold child; simpl. reflexivity.
      * replace (j - k)%nat with 0%nat by lia. unfold child; simpl. reflexivity.
Qed.

Lemma updateMask_from_lt (data : list (option node)) k m :
  (m < 2 ^ 16)%N -> (@updateMask_from T k data m < 2 ^ 16)%N.
Proof.
  revert k m; induction data as [|[c|] data IH]; intros k m H; simpl; auto.
  apply IH. apply lt_pow_lor; auto. apply newMasker_lt.
Qed.

Lemma updateMask_lt (data : list (option node)) : (@updateMask T data < 2 ^ 16)%N.
Proof. apply updateMask_from_lt. reflexivity. Qed.

Lemma updateMask_testbit (data : list (option node)) j : length data = fanout ->
  N.testbit (updateMask data) (N.of_nat j) = isSome (child data j).
Proof.
  intros H. unfold updateMask. rewrite updateMask_from_testbit.
  2:{ rewrite H. simpl. apply fanout_le. }
  rewrite N.bits_0, Nat.sub_0_r. reflexivity.
Qed.

(** Two masks with the same 16 bits are equal. *)
Lemma mask_ext a b : (a < 2 ^ 16)%N -> (b < 2 ^ 16)%N ->
  (forall j, N.testbit a (N.of_nat j) = N.testbit b (N.of_nat j)) -> a = b.
Proof.
  intros Ha Hb H. apply N.bits_inj. intro n. specialize (H (N.to_nat n)). rewrite N2Nat.id in H. auto.
Qed.

Lemma mask_indices_updateMask (data : list (option node)) i : length data = fanout ->
  In i (mask_indices (updateMask data)) <-> exists c, child data i = Some c.
Proof.
  intros H. rewrite mask_indices_In by apply updateMask_lt. rewrite updateMask_testbit by auto.
  split.
  - intros [_ Hs]. destruct (child data i); [eauto|discriminate].
  - intros (c & Hc). rewrite Hc. split; auto.
    destruct (Nat.lt_ge_cases i 16); auto.
    rewrite child_overflow in Hc; [discriminate|]. rewrite H. pose proof fanout_le; lia.
Qed.

Lemma setNonNil_mask (data : list (option node)) i c : length data = fanout -> i < fanout ->
  N.lor (updateMask data) (newMasker i) = updateMask (set_nth data i (Some c)).
Proof.
  intros HL Hi. pose proof fanout_le.
  apply mask_ext.
  - apply lt_pow_lor; [apply updateMask_lt|apply newMasker_lt].
  - apply updateMask_lt.
  - intros j. rewrite N.lor_spec, newMasker_testbit by lia.
    rewrite !updateMask_testbit by (rewrite ?set_nth_length; auto).
    unfold child. destruct (Nat.eqb_spec i j) as [->|Hne].
    + rewrite nth_set_nth_eq by lia. rewrite orb_true_r. reflexivity.
    + rewrite nth_set_nth_ne by auto. rewrite orb_false_r. reflexivity.
Qed.

Lemma setNil_mask (data : list (option node)) i : length data = fanout -> i < fanout ->
  N.ldiff (updateMask data) (newMasker i) = updateMask (set_nth data i None).
Proof.
  intros HL Hi. pose proof fanout_le.
  apply mask_ext.
  - apply lt_pow_ldiff; apply updateMask_lt.
  - apply updateMask_lt.
  - intros j. rewrite N.ldiff_spec, newMasker_testbit by lia.
    rewrite !updateMask_testbit by (rewrite ?set_nth_length; auto).
    unfold child. destruct (Nat.eqb_spec i j) as [->|Hne].
    + rewrite nth_set_nth_eq by lia. rewrite andb_false_r. reflexivity.
    + rewrite nth_set_nth_ne by auto. rewrite andb_true_r. reflexivity.
Qed.

Lemma child_set_eq (data : list (option node)) i o : i < length data -> child (set_nth data i o) i = o.
Proof. intros. unfold child. apply nth_set_nth_eq; auto. Qed.
Lemma child_set_ne (data : list (option node)) i j o : i <> j -> child (set_nth data i o) j = child data j.
Proof. intros. unfold child. apply nth_set_nth_ne; auto. Qed.

Lemma child_emptyData i : child (emptyData : list (option node)) i = None.
Proof.
  unfold child, emptyData. destruct (Nat.lt_ge_cases i fanout) as [H|H].
  - apply nth_repeat.
  - apply nth_overflow. rewrite repeat_length; auto.
Qed.

Lemma updateMask_empty : @updateMask T emptyData = 0%N.
Proof.
  apply mask_ext.
  - apply updateMask_lt.
  - reflexivity.
  - intros j. rewrite updateMask_testbit by (unfold emptyData; apply repeat_length).
    rewrite child_emptyData, N.bits_0. reflexivity.
Qed.

Lemma emptyData_length : length (@emptyData E T) = fanout.
Proof. apply repeat_length. Qed.

Lemma flat_map_empty : flat_map elemso (emptyData : list (option node)) = [].
Proof. unfold emptyData. induction fanout; simpl; auto. Qed.

Lemma pre_empty d : d < maxTreeDepth -> pre d (newBranch emptyPacker).
Proof.
  intros H. unfold newBranch, emptyPacker; simpl. constructor; auto.
  - apply emptyData_length.
  - symmetry; apply updateMask_empty.
  - intros i c Hc. rewrite child_emptyData in Hc. discriminate.
  - intros i e He. rewrite child_emptyData in He. contradiction.
Qed.

Lemma elems_empty : elems (newBranch (emptyPacker : packer T)) = [].
Proof. unfold newBranch, emptyPacker; simpl fst; simpl snd. rewrite elems_branch. apply flat_map_empty. Qed.

(** Placing a well-formed child keeps a branch well placed. *)
Lemma placed_set d data i o :
  placed d data -> (forall e, In e (elemso o) -> digit d e = i) -> placed d (set_nth data i o).
Proof.
  intros Hp Ho j e He. destruct (Nat.eq_dec i j) as [<-|Hne].
  - destruct (Nat.lt_ge_cases i (length data)) as [Hl|Hl].
    + rewrite child_set_eq in He by auto. auto.
    + rewrite child_overflow in He by (rewrite set_nth_length; auto). contradiction.
  - rewrite child_set_ne in He by auto. apply (Hp j e); auto.
Qed.

Lemma pre_set d m data i c :
  pre d (Branch m data) -> i < fanout -> wf (S d) c -> (forall e, In e (elems c) -> digit d e = i) ->
  pre d (newBranch (setNonNilChild (m, data) i (Some c))).
Proof.
  intros H Hi Hc Hdig. inversion H as [d' m' data' Hd Hlen Hm Hch Hp]; subst.
  unfold newBranch, setNonNilChild; simpl. constructor; auto.
  - rewrite set_nth_length; auto.
  - apply setNonNil_mask; auto.
  - intros j x Hx. destruct (Nat.eq_dec i j) as [<-|Hne].
    + rewrite child_set_eq in Hx by lia. inversion Hx; subst; auto.
    + rewrite child_set_ne in Hx by auto. eauto.
  - apply placed_set; auto.
Qed.

(** Lookup and length of a branch one of whose children was replaced. *)
Lemma lookup_set d data i o w :
  placed d data -> allok (flat_map elemso data) ->
  (forall e, In e (elemso o) -> digit d e = i) -> allok (elemso o) ->
  i < length data -> vok w ->
  lookup (flat_map elemso (set_nth data i o)) w =
  if (i =? digit d w)%nat then lookup (elemso o) w else lookup (flat_map elemso data) w.
Proof.
  intros Hp Hok Hdig Hok2 Hi Hw.
  assert (allok (flat_map elemso (set_nth data i o))) as Hok'.
  { intros e He. apply in_flat_map_child in He as (j & Hj).
    destruct (Nat.eq_dec i j) as [<-|Hne].
    - rewrite child_set_eq in Hj by auto. auto.
    - rewrite child_set_ne in Hj by auto. apply Hok. apply in_flat_map_child. eauto. }
  rewrite (lookup_placed d) by (auto; apply placed_set; auto).
  rewrite (lookup_placed d data) by auto.
  destruct (Nat.eqb_spec i (digit d w)) as [<-|Hne].
  - rewrite child_set_eq by auto. reflexivity.
  - rewrite child_set_ne by auto. reflexivity.
Qed.

Lemma length_set (data : list (option node)) i o :
  i < length data ->
  (Z.of_nat (length (flat_map elemso (set_nth data i o))) =
   Z.of_nat (length (flat_map elemso data)) - leno (child data i) + leno o)%Z.
Proof.
  intros Hi. destruct (@set_nth_split _ data i o None Hi) as (l1 & l2 & E1 & E2 & E3).
  rewrite E2. fold (child data i) in E1.
  replace (flat_map elemso data) with (flat_map elemso (l1 ++ child data i :: l2)) by (rewrite <- E1; auto).
  rewrite !flat_map_app. simpl. rewrite !app_length. unfold leno. lia.
Qed.

End NodeWf.

Arguments wf {E T K} vok _ _.
Arguments wfo {E T K} vok _ _.
Arguments pre {E T K} vok _ _.
Arguments allok {T} vok _.
