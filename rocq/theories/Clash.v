(** * Clash: when [Combine] panics, in terms of the hashes of the elements. *)
From Verif Require Import Base Bits Env EnvFacts Node NodeWf NodeBin Tree TreeFacts.

Section Clash.
Context {E : Env} {T : Type} {K : Key T} {vok : T -> Prop} {KO : KeyOk K vok}.
Notation node := (node T).
Notation wf := (wf vok).

(** How many elements of [l] satisfy [p]. *)
Definition cnt (p : T -> bool) (l : list T) : nat := length (filter p l).

(** The elements select the same child at depths [d], ..., [k - 1]. *)
Definition agree (d k : nat) (a e : T) : bool :=
  forallb (fun j => digit j a =? digit j e) (seq d (k - d)).

Lemma agree_iff d k a e : agree d k a e = true <-> forall j, d <= j < k -> digit j a = digit j e.
Proof.
  unfold agree. rewrite forallb_forall. split.
  - intros H j Hj. apply Nat.eqb_eq, H, in_seq. lia.
  - intros H j Hj. apply in_seq in Hj. apply Nat.eqb_eq, H. lia.
Qed.

Lemma agree_step d k a e : d < k -> agree d k a e = ((digit d a =? digit d e) && agree (S d) k a e)%bool.
Proof.
  intros H. unfold agree. replace (k - d) with (S (k - S d)) by lia. reflexivity.
Qed.

Lemma agree_nil d k a e : k <= d -> agree d k a e = true.
Proof. intros H. unfold agree. replace (k - d) with 0 by lia. reflexivity. Qed.

Lemma filter_true {A} (p : A -> bool) l : (forall e, In e l -> p e = true) -> filter p l = l.
Proof.
  induction l as [|x l IH]; simpl; intros H; auto. rewrite H by auto. f_equal. auto.
Qed.

Lemma filter_flat_map {A B} (p : B -> bool) (f : A -> list B) l :
  filter p (flat_map f l) = flat_map (fun x => filter p (f x)) l.
Proof. induction l as [|x l IH]; simpl; auto. rewrite filter_app, IH. auto. Qed.

Lemma flat_map_only {A B} (f : option A -> list B) data i :
  f None = [] -> (forall j, j <> i -> f (nth j data None) = []) -> flat_map f data = f (nth i data None).
Proof.
  intros H0. revert i. induction data as [|x data IH]; intros i H.
  - destruct i; auto.
  - simpl. destruct i as [|i].
    + rewrite (IH (length data)).
      * rewrite (nth_overflow data) by lia. rewrite H0, app_nil_r. auto.
      * intros j _. apply (H (S j)). lia.
    + pose proof (H 0 ltac:(lia)) as Hx; simpl in Hx; rewrite Hx. apply IH. intros j Hj. apply (H (S j)). lia.
Qed.

Lemma cnt_branch d k a data : placed d data -> d < k ->
  cnt (agree d k a) (flat_map elemso data) = cnt (agree (S d) k a) (elemso (child data (digit d a))).
Proof.
  intros Hp Hd. unfold cnt. rewrite filter_flat_map.
  rewrite (flat_map_only (fun o => filter (agree d k a) (elemso o)) data (digit d a)); auto.
  - change (nth (digit d a) data None) with (child data (digit d a)). f_equal. apply filter_ext_in.
    intros e He. rewrite agree_step by auto. rewrite (Hp _ _ He), Nat.eqb_refl. reflexivity.
  - intros j Hj. change (nth j data None) with (child data j).
    assert (HF : forall e, In e (elemso (child data j)) -> agree d k a e = false).
    { intros e He. rewrite agree_step by auto. rewrite (Hp _ _ He). destruct (Nat.eqb_spec (digit d a) j); auto. congruence. }
    revert HF. generalize (elemso (child data j)). induction l as [|x l IH]; simpl; intros HF; auto.
    rewrite HF by auto. apply IH; auto.
Qed.

Lemma agree_self d k a : agree d k a a = true.
Proof. apply agree_iff. auto. Qed.

(** Below the root: [d < maxTreeDepth]. *)
Definition clashAt (d : nat) (l1 l2 : list T) : Prop :=
  exists a b, In a l1 /\ In b l2 /\ agree d maxTreeDepth a b = true /\
    3 <= cnt (agree d (maxTreeDepth - 1) a) l1 /\ 3 <= cnt (agree d (maxTreeDepth - 1) a) l2 /\
    (3 <= cnt (agree d maxTreeDepth a) l1 \/ 3 <= cnt (agree d maxTreeDepth a) l2).

Lemma cnt_le p l : cnt p l <= length l.
Proof. unfold cnt. induction l; simpl; [lia|]. destruct (p a); simpl; lia. Qed.

Lemma clash_bottom n1 n2 : wf maxTreeDepth n1 -> wf maxTreeDepth n2 ->
  clash n1 n2 <-> 3 <= length (elems n1) \/ 3 <= length (elems n2).
Proof.
  intros H1 H2. split.
  - intros Hc. inversion Hc; subst.
    + left. inversion H1; subst; auto.
    + right. inversion H2; subst; auto.
    + inversion H1; subst. lia.
  - intros [H|H].
    + inversion H1; subst; simpl in H; try lia. constructor.
    + inversion H2; subst; simpl in H; try lia. constructor.
Qed.

Lemma elemso_child_in data i (e : T) : In e (elemso (child data i)) -> In e (flat_map elemso data).
Proof. intros H. apply in_flat_map_child. eauto. Qed.

Lemma clash_iff k : forall d n1 n2, d + S k = maxTreeDepth -> wf d n1 -> wf d n2 ->
  clash n1 n2 <-> clashAt d (elems n1) (elems n2).
Proof.
  induction k as [|k IH]; intros d n1 n2 Hd H1 H2.
  - (* the last level of branches *)
    destruct n1 as [a|a b|l1|m1 d1].
    1-2: split; [intros Hc; inversion Hc; subst; inversion H2; subst; lia|];
      intros (x & y & _ & _ & _ & Hx & _); exfalso; pose proof (cnt_le (agree d (maxTreeDepth - 1) x)) as HL;
      pose proof (Nat.le_trans _ _ _ Hx (HL _)) as HB; simpl in HB; lia.
    { inversion H1; subst. lia. }
    destruct n2 as [a|a b|l2|m2 d2].
    1-2: split; [intros Hc; inversion Hc|];
      intros (x & y & _ & _ & _ & _ & Hx & _); exfalso; pose proof (cnt_le (agree d (maxTreeDepth - 1) x)) as HL;
      pose proof (Nat.le_trans _ _ _ Hx (HL _)) as HB; simpl in HB; lia.
    { inversion H2; subst. lia. }
    inversion H1 as [| | |? ? ? Hd1 Hl1 Hm1 Hc1 Hp1 H31]; subst. inversion H2 as [| | |? ? ? Hd2 Hl2 Hm2 Hc2 Hp2 H32]; subst.
    assert (HD : S d = maxTreeDepth) by lia.
    rewrite elems_branch in H31, H32. rewrite !elems_branch.
    assert (Hall : forall x l, cnt (agree d (maxTreeDepth - 1) x) l = length l).
    { intros x l. unfold cnt. rewrite filter_true; auto. intros e _. apply agree_nil. lia. }
    assert (Hch : forall x l, cnt (agree (S d) maxTreeDepth x) l = length l).
    { intros x l. unfold cnt. rewrite filter_true; auto. intros e _. apply agree_nil. lia. }
    split.
    + intros Hc. inversion Hc as [| |? ? ? ? i x y Hx Hy Hxy]; subst.
      assert (Hwx : wf (S d) x) by (eapply Hc1; eauto). assert (Hwy : wf (S d) y) by (eapply Hc2; eauto).
      apply clash_bottom in Hxy; [|rewrite <- HD; auto|rewrite <- HD; auto].
      assert (Hnx : exists a, In a (elems x)).
      { pose proof (wf_nonnil _ _ Hwx) as Hn. destruct (elems x) as [|a ?]; [congruence|]. exists a. left; auto. }
      assert (Hny : exists b, In b (elems y)).
      { pose proof (wf_nonnil _ _ Hwy) as Hn. destruct (elems y) as [|b ?]; [congruence|]. exists b. left; auto. }
      destruct Hnx as (a & Ha), Hny as (b & Hb).
      assert (Ha' : In a (elemso (child d1 i))) by (rewrite Hx; auto).
      assert (Hb' : In b (elemso (child d2 i))) by (rewrite Hy; auto).
      exists a, b. split; [eapply elemso_child_in; eauto|]. split; [eapply elemso_child_in; eauto|].
      rewrite !Hall. split; [|split; [auto|split; [auto|]]].
      * rewrite agree_step by lia. rewrite (Hp1 _ _ Ha'), (Hp2 _ _ Hb'), Nat.eqb_refl. apply agree_nil. lia.
      * rewrite (cnt_branch d), (cnt_branch d) by (auto; lia). rewrite !Hch.
        rewrite (Hp1 _ _ Ha'), Hx, Hy. exact Hxy.
    + intros (a & b & Ha & Hb & Hab & _ & _ & Hor).
      rewrite (cnt_branch d), (cnt_branch d) in Hor by (auto; lia). rewrite !Hch in Hor.
      rewrite agree_step in Hab by lia. apply andb_true_iff in Hab as [Hab _]. apply Nat.eqb_eq in Hab.
      apply in_flat_map_child in Ha as (i & Ha). apply in_flat_map_child in Hb as (j & Hb).
      pose proof (Hp1 _ _ Ha) as Hi. pose proof (Hp2 _ _ Hb) as Hj. rewrite <- Hab, Hi in Hj. subst j.
      rewrite Hi in Hor.
      destruct (child d1 i) as [x|] eqn:Hx; [|destruct Ha]. destruct (child d2 i) as [y|] eqn:Hy; [|destruct Hb].
      apply (clash_branch _ _ _ _ i x y); auto. apply clash_bottom; auto; rewrite <- HD; eauto.
  - destruct n1 as [a|a b|l1|m1 d1].
    1-2: split; [intros Hc; inversion Hc; subst; inversion H2; subst; lia|];
      intros (x & y & _ & _ & _ & Hx & _); exfalso; pose proof (cnt_le (agree d (maxTreeDepth - 1) x)) as HL;
      pose proof (Nat.le_trans _ _ _ Hx (HL _)) as HB; simpl in HB; lia.
    { inversion H1; subst. lia. }
    destruct n2 as [a|a b|l2|m2 d2].
    1-2: split; [intros Hc; inversion Hc|];
      intros (x & y & _ & _ & _ & _ & Hx & _); exfalso; pose proof (cnt_le (agree d (maxTreeDepth - 1) x)) as HL;
      pose proof (Nat.le_trans _ _ _ Hx (HL _)) as HB; simpl in HB; lia.
    { inversion H2; subst. lia. }
    inversion H1 as [| | |? ? ? Hd1 Hl1 Hm1 Hc1 Hp1 H31]; subst. inversion H2 as [| | |? ? ? Hd2 Hl2 Hm2 Hc2 Hp2 H32]; subst.
    rewrite !elems_branch. split.
    + intros Hc. inversion Hc as [| |? ? ? ? i x y Hx Hy Hxy]; subst.
      apply (IH (S d)) in Hxy; [|lia|eapply Hc1; eauto|eapply Hc2; eauto].
      destruct Hxy as (a & b & Ha & Hb & Hab & Ha3 & Hb3 & Hor).
      assert (Ha' : In a (elemso (child d1 i))) by (rewrite Hx; auto).
      assert (Hb' : In b (elemso (child d2 i))) by (rewrite Hy; auto).
      exists a, b. split; [eapply elemso_child_in; eauto|]. split; [eapply elemso_child_in; eauto|].
      rewrite agree_step by lia. rewrite !(cnt_branch d) by (auto; lia).
      rewrite (Hp1 _ _ Ha'), (Hp2 _ _ Hb'), Nat.eqb_refl, Hx, Hy. cbn [elemso]. auto.
    + intros (a & b & Ha & Hb & Hab & H3 & H4 & Hor).
      rewrite (cnt_branch d (maxTreeDepth - 1) a d1) in H3 by (auto; lia). rewrite (cnt_branch d (maxTreeDepth - 1) a d2) in H4 by (auto; lia).
      rewrite (cnt_branch d maxTreeDepth a d1), (cnt_branch d maxTreeDepth a d2) in Hor by (auto; lia).
      rewrite agree_step in Hab by lia. apply andb_true_iff in Hab as [Hab Hab']. apply Nat.eqb_eq in Hab.
      apply in_flat_map_child in Ha as (i & Ha). apply in_flat_map_child in Hb as (j & Hb).
      pose proof (Hp1 _ _ Ha) as Hi. pose proof (Hp2 _ _ Hb) as Hj. rewrite <- Hab, Hi in Hj. subst j.
      rewrite Hi in H3, H4, Hor.
      destruct (child d1 i) as [x|] eqn:Hx; [|destruct Ha]. destruct (child d2 i) as [y|] eqn:Hy; [|destruct Hb].
      apply (clash_branch _ _ _ _ i x y); auto. apply (IH (S d)); [lia|eauto|eauto|].
      exists a, b. cbn [elemso] in *. tauto.
Qed.

(** ** In terms of hashes *)

(** Agreement on the first [k] child indices is agreement of the leading [k * fb] hash bits. *)
Lemma agree_shift k a b : k * fb <= 64 -> (vhash a 0 < 2 ^ 64)%N -> (vhash b 0 < 2 ^ 64)%N ->
  agree 0 k a b = N.eqb (N.shiftr (vhash a 0) (N.of_nat (64 - k * fb))) (N.shiftr (vhash b 0) (N.of_nat (64 - k * fb))).
Proof.
  intros Hk Ha Hb. apply eq_true_iff_eq. rewrite agree_iff, N.eqb_eq. pose proof fb_pos as Hfb. split.
  - intros H. apply N.bits_inj. intros n. rewrite !N.shiftr_spec by lia.
    set (p := (n + N.of_nat (64 - k * fb))%N).
    destruct (N.lt_ge_cases p 64) as [Hn|Hn].
    2:{ rewrite !(@testbit_above 64) by auto. reflexivity. }
    set (j := N.to_nat p). assert (Hj : j < 64) by lia. replace p with (N.of_nat j) by lia.
    set (q := (63 - j) / fb).
    pose proof (Nat.div_mod (63 - j) fb ltac:(lia)) as Hdm. fold q in Hdm.
    pose proof (Nat.mod_upper_bound (63 - j) fb ltac:(lia)) as Hmod.
    set (r := (63 - j) mod fb) in *.
    assert (Hq : q < k).
    { destruct (Nat.lt_ge_cases q k) as [|Hge]; auto. exfalso.
      assert (fb * k <= fb * q) by (apply Nat.mul_le_mono_l; auto). lia. }
    pose proof (H q ltac:(lia)) as Hdg.
    assert (Hi : fb - 1 - r < fb) by lia.
    pose proof (digit_testbit q a (fb - 1 - r) Hi) as Ea.
    pose proof (digit_testbit q b (fb - 1 - r) Hi) as Eb.
    rewrite Hdg in Ea. rewrite Ea in Eb.
    assert (Hkr : q * fb + r = 63 - j) by lia.
    destruct (Nat.leb_spec (q * fb + fb - (fb - 1 - r)) 64); [|lia].
    cbn [andb] in Eb.
    replace (64 - (q * fb + fb - (fb - 1 - r))) with j in Eb by lia.
    exact Eb.
  - intros H j Hj. apply Nat2N.inj. apply N.bits_inj. intros n.
    destruct (N.lt_ge_cases n (N.of_nat fb)) as [Hn|Hn].
    + replace n with (N.of_nat (N.to_nat n)) by lia. rewrite !digit_testbit by lia.
      set (i := N.to_nat n). assert (Hi : i < fb) by lia.
      assert (Hjk : S j * fb <= k * fb) by (apply Nat.mul_le_mono_r; lia).
      f_equal. set (p := 64 - (j * fb + fb - i)).
      assert (Hp : 64 - k * fb <= p) by (unfold p; cbn [Nat.mul] in Hjk; lia).
      replace (N.of_nat p) with (N.of_nat (p - (64 - k * fb)) + N.of_nat (64 - k * fb))%N by lia.
      rewrite <- !N.shiftr_spec by lia. rewrite H. reflexivity.
    + assert (HL : forall x : T, (N.of_nat (digit j x) < 2 ^ N.of_nat fb)%N).
      { intros x. pose proof (digit_lt j x) as Hx. unfold fanout in Hx.
        replace 2%N with (N.of_nat 2) by auto. rewrite <- Nat2N.inj_pow. lia. }
      rewrite !(@testbit_above (N.of_nat fb)) by auto. reflexivity.
Qed.

(** 2^lowBits is the number of children that can be told apart at the last level of branches. *)
Definition lowBits : N := N.of_nat (64 - (maxTreeDepth - 1) * fb).

(** Two collections of elements whose tries cannot be merged. *)
Definition overfull (l1 l2 : list T) : Prop :=
  exists a b, In a l1 /\ In b l2 /\ vhash a 0 = vhash b 0 /\
    let prefix e := N.eqb (N.shiftr (vhash e 0) lowBits) (N.shiftr (vhash a 0) lowBits) in
    let same e := N.eqb (vhash e 0) (vhash a 0) in
    3 <= length (filter prefix l1) /\ 3 <= length (filter prefix l2) /\
    (3 <= length (filter same l1) \/ 3 <= length (filter same l2)).

Lemma agree_hash a b : (vhash a 0 < 2 ^ 64)%N -> (vhash b 0 < 2 ^ 64)%N ->
  agree 0 maxTreeDepth a b = N.eqb (vhash a 0) (vhash b 0).
Proof.
  intros Ha Hb. apply eq_true_iff_eq. rewrite agree_iff, N.eqb_eq. split.
  - intros H. apply digits_hash; auto. intros k Hk. apply H. lia.
  - intros H j Hj. apply hash_digit. auto.
Qed.

Lemma clashAt_overfull l1 l2 : allok vok l1 -> allok vok l2 -> clashAt 0 l1 l2 <-> overfull l1 l2.
Proof.
  intros Ho1 Ho2.
  assert (Hr : forall l a, allok vok l -> vok a ->
    cnt (agree 0 maxTreeDepth a) l = length (filter (fun e => N.eqb (vhash e 0) (vhash a 0)) l) /\
    cnt (agree 0 (maxTreeDepth - 1) a) l =
      length (filter (fun e => N.eqb (N.shiftr (vhash e 0) lowBits) (N.shiftr (vhash a 0) lowBits)) l)).
  { intros l a Ho Ha. unfold cnt. split; f_equal; apply filter_ext_in; intros e He; pose proof (Ho e He) as Hoe.
    - rewrite agree_hash by (apply vhash_range; auto). apply N.eqb_sym.
    - rewrite agree_shift.
      + apply N.eqb_sym.
      + pose proof maxTreeDepth_pos. pose proof (lt_maxTreeDepth_bits (maxTreeDepth - 1)). lia.
      + apply vhash_range; auto.
      + apply vhash_range; auto. }
  unfold clashAt, overfull. split; intros (a & b & Ha & Hb & H).
  - exists a, b. split; auto. split; auto. destruct H as (H1 & H2 & H3 & H4).
    rewrite agree_hash in H1 by (apply vhash_range; auto). apply N.eqb_eq in H1. split; auto. cbv zeta.
    destruct (Hr l1 a Ho1) as [<- <-]; auto. destruct (Hr l2 a Ho2) as [<- <-]; auto.
  - exists a, b. split; auto. split; auto. cbv zeta in H. destruct H as (H1 & H2 & H3 & H4).
    rewrite agree_hash by (apply vhash_range; auto). split; [apply N.eqb_eq; auto|].
    destruct (Hr l1 a Ho1) as [-> ->]; auto. destruct (Hr l2 a Ho2) as [-> ->]; auto.
Qed.

Lemma tclash_overfull t u : tok vok t -> tok vok u -> tclash t u <-> overfull (tel t) (tel u).
Proof.
  intros Ht Hu. pose proof (tok_allok _ Ht) as Hot. pose proof (tok_allok _ Hu) as Hou.
  rewrite <- clashAt_overfull by auto. destruct Ht as [Hwt _], Hu as [Hwu _]. unfold tclash, tel in *.
  destruct (t_root t) as [n|]; [destruct (t_root u) as [n2|]|].
  - apply (clash_iff (maxTreeDepth - 1)); auto. pose proof maxTreeDepth_pos. lia.
  - split; [tauto|]. intros (a & b & _ & [] & _).
  - split; [tauto|]. intros (a & b & [] & _).
Qed.

(** No three elements of one hash on either side: no clash. *)
Lemma not_overfull l1 l2 :
  (forall h, length (filter (fun e => N.eqb (vhash e 0) h) l1) <= 2) ->
  (forall h, length (filter (fun e => N.eqb (vhash e 0) h) l2) <= 2) -> ~ overfull l1 l2.
Proof.
  intros H1 H2 (a & b & _ & _ & _ & _ & _ & [H|H]).
  - specialize (H1 (vhash a 0)). lia.
  - specialize (H2 (vhash a 0)). lia.
Qed.

Lemma filter_le {A} (p q : A -> bool) l : (forall e, p e = true -> q e = true) -> length (filter p l) <= length (filter q l).
Proof.
  intros H. induction l as [|x l IH]; simpl; auto. destruct (p x) eqn:Ep.
  - rewrite (H x Ep). simpl. lia.
  - destruct (q x); simpl; lia.
Qed.

(** Three or more elements of one hash on both sides: clash. *)
Lemma is_overfull l1 l2 h :
  3 <= length (filter (fun e => N.eqb (vhash e 0) h) l1) ->
  3 <= length (filter (fun e => N.eqb (vhash e 0) h) l2) -> overfull l1 l2.
Proof.
  intros H1 H2.
  destruct (filter (fun e => N.eqb (vhash e 0) h) l1) as [|a f1] eqn:F1; [simpl in H1; lia|].
  destruct (filter (fun e => N.eqb (vhash e 0) h) l2) as [|b f2] eqn:F2; [simpl in H2; lia|].
  assert (Ha : In a l1 /\ N.eqb (vhash a 0) h = true) by (apply (filter_In (fun e => N.eqb (vhash e 0) h)); rewrite F1; left; auto).
  assert (Hb : In b l2 /\ N.eqb (vhash b 0) h = true) by (apply (filter_In (fun e => N.eqb (vhash e 0) h)); rewrite F2; left; auto).
  destruct Ha as [Ha Hah], Hb as [Hb Hbh]. apply N.eqb_eq in Hah, Hbh.
  exists a, b. split; auto. split; auto. split; [congruence|]. cbv zeta. rewrite Hah.
  rewrite <- F1 in H1. rewrite <- F2 in H2. split; [|split; auto].
  - eapply Nat.le_trans; [exact H1|]. apply filter_le. intros e He. apply N.eqb_eq in He. rewrite He. apply N.eqb_refl.
  - eapply Nat.le_trans; [exact H2|]. apply filter_le. intros e He. apply N.eqb_eq in He. rewrite He. apply N.eqb_refl.
Qed.
End Clash.
