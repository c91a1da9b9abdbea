(** * SpecShape: the shape of a trie depends on its elements only, not on how the set was made (C64). *)
From Coq Require Import Sorting.Permutation.
From Verif Require Import Base Bits Env EnvFacts Node NodeWf NodeBin NodeBin2 NodeUn Iter Tree TreeFacts SetApi SetFacts MapApi MapFacts Reach Spec SpecSet SpecMap.

Section Twin.
Context {T : Type} {K : Key T}.

(** The same elements (up to equality), in any order. *)
Definition sameUpToOrder (l l' : list T) : Prop := exists l'', Permutation l' l'' /\ Forall2 (fun a b => veq a b = true) l l''.
(** Tries of one shape: branches with the same masks at the same places, the same kinds of leaves, equal elements in each leaf. Only the
    order in a leaf may differ. *)
Inductive twin : node T -> node T -> Prop :=
| twin_leaf1 a b : veq a b = true -> twin (Leaf1 a) (Leaf1 b)
| twin_leaf2 a b c d : sameUpToOrder [a; b] [c; d] -> twin (Leaf2 a b) (Leaf2 c d)
| twin_twig l l' : sameUpToOrder l l' -> twin (Twig l) (Twig l')
| twin_branch m p q : length p = length q -> (forall i, twino (child p i) (child q i)) -> twin (Branch m p) (Branch m q)
with twino : option (node T) -> option (node T) -> Prop :=
| twino_None : twino None None
| twino_Some n n' : twin n n' -> twino (Some n) (Some n').

(** The number of nodes (leaves and branches), and the number of levels. *)
Fixpoint nodeCount (n : node T) : nat :=
  match n with Branch _ p => S (fold_right (fun o k => (match o with Some c => nodeCount c | None => 0 end) + k) 0 p) | _ => 1 end%nat.
Fixpoint levels (n : node T) : nat :=
  match n with Branch _ p => S (fold_right (fun o k => Nat.max (match o with Some c => levels c | None => 0 end) k) 0 p) | _ => 1 end%nat.
Definition nodeCounto (o : option (node T)) : nat := match o with Some n => nodeCount n | None => 0 end.
Definition levelso (o : option (node T)) : nat := match o with Some n => levels n | None => 0 end.
(** The elements leaf by leaf, from the first slot to the last. *)
Fixpoint leaves (n : node T) : list (list T) :=
  match n with Branch _ p => flat_map (fun o => match o with Some c => leaves c | None => [] end) p | _ => [elems n] end.
Definition leaveso (o : option (node T)) : list (list T) := match o with Some n => leaves n | None => [] end.
End Twin.

Section Shape.
Context {E : Env} {HE : EnvOk E} {T : Type} {K : Key T} {vok : T -> Prop} {KO : KeyOk K vok}.
Local Opaque maxTreeDepth fanout fb.
Notation same := (fun a b : T => veq a b = true).

Lemma eqv_perm l : forall l', distinct l -> distinct l' -> allok vok l -> allok vok l' -> eqv veq l l' -> sameUpToOrder l l'.
Proof.
  induction l as [|a l IH]; intros l' Hd Hd' Ho Ho' Hq.
  - destruct Hq as [_ H]. destruct l' as [|b l']; [exists []; split; auto|]. destruct (H b) as (e & [] & _). left. auto.
  - destruct (proj1 Hq a (or_introl eq_refl)) as (b & Hb & Hab). apply in_split in Hb as (l1 & l2 & ->).
    assert (Hov : vok a) by (apply Ho; left; auto). assert (Hbv : vok b) by (apply Ho'; apply in_or_app; right; left; auto).
    assert (Hp : Permutation (l1 ++ b :: l2) (b :: l1 ++ l2)) by (symmetry; apply Permutation_middle).
    assert (Ho2 : allok vok (b :: l1 ++ l2)) by (intros e He; apply Ho'; eapply Permutation_in; [symmetry; exact Hp|exact He]).
    assert (Hd2 : distinct (b :: l1 ++ l2)) by (apply (distinct_perm (vok := vok) (l1 ++ b :: l2)); auto).
    destruct (IH (l1 ++ l2)) as (l'' & P & F).
    + inversion Hd; auto.
    + inversion Hd2; auto.
    + intros e He. apply Ho. right. auto.
    + intros e He. apply Ho2. right. auto.
    + inversion Hd as [|? ? Ha Hdl]; subst. inversion Hd2 as [|? ? Hbn Hdl']; subst. split.
      * intros e He. destruct (proj1 Hq e (or_intror He)) as (f & Hf & Hef). exists f. split; auto.
        apply (Permutation_in f Hp) in Hf as [<-|Hf]; auto. exfalso.
        assert (He' : vok e) by (apply Ho; right; auto).
        assert (veq a e = true) by (apply (veq_trans a b e); auto; apply veq_sym; auto). rewrite Ha in H; auto. discriminate.
      * intros f Hf. destruct (proj2 Hq f) as (e & [<-|He] & Hef); eauto.
        { apply (Permutation_in f (Permutation_sym Hp)). right. auto. }
        exfalso. assert (Hf' : vok f) by (apply Ho2; right; auto).
        assert (veq b f = true) by (apply (veq_trans b a f); auto; apply veq_sym; auto). rewrite Hbn in H; auto. discriminate.
    + exists (b :: l''). split; [rewrite Hp; auto|]. constructor; auto.
Qed.

Lemma perm_eqv l l' : allok vok l -> allok vok l' -> sameUpToOrder l l' -> eqv veq l l'.
Proof.
  intros Ho Ho' (l'' & P & F).
  assert (H : forall l l'', Forall2 same l l'' -> eqv veq l l'').
  { clear. induction 1 as [|a b l l' H F [I1 I2]]; [split; intros e []|]. split.
    - intros e [<-|He]; [exists b; split; auto; left; auto|]. destruct (I1 e He) as (f & Hf & Hq). exists f. split; auto. right. auto.
    - intros f [<-|Hf]; [exists a; split; auto; left; auto|]. destruct (I2 f Hf) as (e & He & Hq). exists e. split; auto. right. auto. }
  destruct (H _ _ F) as [H1 H2]. split.
  - intros e He. destruct (H1 e He) as (f & Hf & Hq). exists f. split; auto. apply (Permutation_in f (Permutation_sym P)). auto.
  - intros f Hf. apply H2. apply (Permutation_in f P). auto.
Qed.

Lemma eqv_children d m1 d1 m2 d2 : wf vok d (Branch m1 d1) -> wf vok d (Branch m2 d2) -> eqv veq (elems (Branch m1 d1)) (elems (Branch m2 d2)) ->
  forall i, eqv veq (elemso (child d1 i)) (elemso (child d2 i)).
Proof.
  intros Hwf1 Hwf2. pose proof (wf_allok _ _ Hwf1) as Hok1. pose proof (wf_allok _ _ Hwf2) as Hok2. rewrite !elems_branch in *.
  inversion Hwf1 as [| | |? ? ? Hd Hlen1 Hm1 Hch1 Hp1 Hl1]; subst. inversion Hwf2 as [| | |? ? ? Hd' Hlen2 Hm2 Hch2 Hp2 Hl2]; subst.
  assert (Hin1 : forall i e, In e (elemso (child d1 i)) -> vok e) by (intros i e He; apply Hok1; apply in_flat_map_child; eauto).
  assert (Hin2 : forall i e, In e (elemso (child d2 i)) -> vok e) by (intros i e He; apply Hok2; apply in_flat_map_child; eauto).
  intros [H1 H2] i. split.
  - intros e He. destruct (H1 e) as (f & Hff & Hq); [apply in_flat_map_child; eauto|].
    exists f. split; auto. apply in_flat_map_child in Hff as (j & Hj).
    replace i with j; auto. rewrite <- (Hp1 i e He), <- (Hp2 j f Hj). symmetry. apply (veq_digit (vok := vok)); eauto.
  - intros f Hff. destruct (H2 f) as (e & He & Hq); [apply in_flat_map_child; eauto|].
    exists e. split; auto. apply in_flat_map_child in He as (j & Hj).
    replace i with j; auto. rewrite <- (Hp2 i f Hff), <- (Hp1 j e Hj). apply (veq_digit (vok := vok)); eauto.
Qed.

(** Valid tries with the same elements are twins. *)
Lemma twin_of_eqv d n : wf vok d n -> forall n', wf vok d n' -> eqv veq (elems n) (elems n') -> twin n n'.
Proof.
  intros Hw0. pose proof Hw0 as Hw1. revert Hw1.
  induction Hw0 as [d a Hd Hv|d a b Hd Hv1 Hv2 Hab|d l Hd Hl Hok Hdis|d m data Hd Hlen Hm Hch IH Hp Hl]; intros Hw n' Hw' Hq;
    pose proof (eqv_length (vok := vok) veq (fun _ _ _ _ H => H) _ _ (wf_distinct _ _ Hw) (wf_distinct _ _ Hw') (wf_allok _ _ Hw) (wf_allok _ _ Hw') Hq) as HL;
    pose proof (eqv_perm _ _ (wf_distinct _ _ Hw) (wf_distinct _ _ Hw') (wf_allok _ _ Hw) (wf_allok _ _ Hw') Hq) as HS;
    inversion Hw' as [d' x Hd' Hx|d' x y Hd' Hx Hy Hxy|d' l' Hd' Hl' Hok' Hdis'|d' m' p' Hd' Hlen' Hm' Hch' Hp' Hl']; subst d' n';
    try (exfalso; cbn [elems length] in *; lia).
  - constructor. destruct Hq as [Hq _]. destruct (Hq a (or_introl eq_refl)) as (f & [<-|[]] & H). exact H.
  - constructor. exact HS.
  - constructor. exact HS.
  - pose proof (eqv_children _ _ _ _ _ Hw Hw' Hq) as Hc.
    assert (Hnil : forall c, wf vok (S d) c -> eqv veq [] (elems c) -> False).
    { intros c Hwc [_ H]. apply wf_nonnil in Hwc. destruct (elems c) as [|e es]; [congruence|]. destruct (H e) as (z & [] & _). left; auto. }
    assert (Hnil' : forall c, wf vok (S d) c -> eqv veq (elems c) [] -> False).
    { intros c Hwc [H _]. apply wf_nonnil in Hwc. destruct (elems c) as [|e es]; [congruence|]. destruct (H e) as (z & [] & _). left; auto. }
    replace m' with m.
    + constructor; [congruence|]. intros i. specialize (Hc i). destruct (child data i) as [c|] eqn:Ec, (child p' i) as [c'|] eqn:Ec'; cbn [elemso] in Hc.
      * constructor. apply (IH i c Ec (Hch i c Ec) c' (Hch' i c' Ec') Hc).
      * destruct (Hnil' c); eauto.
      * destruct (Hnil c'); eauto.
      * constructor.
    + rewrite Hm, Hm'. apply mask_ext; try apply updateMask_lt. intros i. rewrite !updateMask_testbit by auto. specialize (Hc i).
      destruct (child data i) as [c|] eqn:Ec, (child p' i) as [c'|] eqn:Ec'; auto; exfalso; cbn [elemso] in Hc; eauto.
Qed.

(** Leaf by leaf. *)
Lemma elems_leaves (n : node T) : concat (leaves n) = elems n.
Proof.
  revert n. fix IH 1. intros [a|a b|l|m p]; cbn [leaves]; try (cbn [concat]; apply app_nil_r).
  rewrite elems_branch. induction p as [|[c|] p IHp]; cbn [flat_map elemso]; auto. rewrite concat_app, IH, IHp. reflexivity.
Qed.
Lemma Forall2_flat {A B} (R : B -> B -> Prop) (f : option A -> list B) (p q : list (option A)) : length p = length q -> f None = [] ->
  (forall i, Forall2 R (f (nth i p None)) (f (nth i q None))) -> Forall2 R (flat_map f p) (flat_map f q).
Proof.
  revert q. induction p as [|a p IH]; intros [|b q] Hl Hf H; try discriminate; constructor || idtac. cbn [flat_map]. apply Forall2_app; [exact (H 0%nat)|].
  apply IH; auto. intros i. exact (H (S i)).
Qed.
Lemma twin_leaves d n : wf vok d n -> forall n', twin n n' -> Forall2 sameUpToOrder (leaves n) (leaves n').
Proof.
  induction 1 as [d a Hd Hv|d a b Hd Hv1 Hv2 Hab|d l Hd Hl Hok Hdis|d m data Hd Hlen Hm Hch IH Hp Hl]; intros n' Ht; inversion Ht as [? b' Hq|? ? x y Hq|? l' Hq|? ? q Hlq Hq]; subst;
    cbn [leaves elems]; try (constructor; [|constructor]; auto; fail).
  - constructor; [|constructor]. exists [b']. split; auto.
  - apply (Forall2_flat sameUpToOrder (fun o => match o with Some c => leaves c | None => [] end)); auto. intros i. fold (child data i) (child q i). specialize (Hq i). inversion Hq as [E1 E2|c c' Hc E1 E2]; [constructor|].
    eapply IH; eauto.
Qed.
Lemma twin_eqv d n : wf vok d n -> forall n', wf vok d n' -> twin n n' -> eqv veq (elems n) (elems n').
Proof.
  intros Hw n' Hw' Ht. apply perm_eqv; [eapply wf_allok; eauto|eapply wf_allok; eauto|].
  pose proof (twin_leaves d n Hw n' Ht) as F. rewrite <- !elems_leaves. clear - F. induction F as [|a b ls ls' H F IH]; [exists []; split; constructor|]. destruct H as (a' & P & F1), IH as (r & Pr & Fr). cbn [concat].
  exists (a' ++ r). split; [apply Permutation_app; auto|]. apply Forall2_app; auto.
Qed.

(** The number of nodes and the number of levels. *)
Lemma fold_same {A B} (g : option A -> B -> B) (z : B) (p q : list (option A)) : length p = length q ->
  (forall i k, g (nth i p None) k = g (nth i q None) k) -> fold_right g z p = fold_right g z q.
Proof.
  revert q. induction p as [|a p IH]; intros [|b q] Hl H; try discriminate; auto. cbn [fold_right]. rewrite (IH q); auto; [exact (H 0%nat _)|]. intros i k. exact (H (S i) k).
Qed.
Lemma twin_counts d n : wf vok d n -> forall n', twin n n' -> nodeCount n = nodeCount n' /\ levels n = levels n'.
Proof.
  induction 1 as [d a Hd Hv|d a b Hd Hv1 Hv2 Hab|d l Hd Hl Hok Hdis|d m data Hd Hlen Hm Hch IH Hp Hl]; intros n' Ht; inversion Ht as [? b' Hq|? ? x y Hq|? l' Hq|? ? q Hlq Hq]; subst; auto.
  assert (Hi : forall i, (match child data i with Some c => nodeCount c | None => 0 end = match child q i with Some c => nodeCount c | None => 0 end)%nat /\
    (match child data i with Some c => levels c | None => 0 end = match child q i with Some c => levels c | None => 0 end)%nat).
  { intros i. specialize (Hq i). inversion Hq as [E1 E2|c c' Hc E1 E2]; auto. symmetry in E1. exact (IH i c E1 c' Hc). }
  cbn [nodeCount levels]. split; f_equal; apply fold_same; auto; intros i k; destruct (Hi i) as [H1 H2]; unfold child in *; congruence.
Qed.

(** Leaves with three or more elements hold elements of one hash. *)
Lemma leaves_small d n : wf vok d n -> NodeUn.agree d (elems n) -> forall l, In l (leaves n) ->
  (1 <= length l)%nat /\ ((length l <= 2)%nat \/ forall a b, In a l -> In b l -> vhash a 0 = vhash b 0).
Proof.
  induction 1 as [d a Hd Hv|d a b Hd Hv1 Hv2 Hab|d l Hd Hl Hok Hdis|d m data Hd Hlen Hm Hch IH Hp Hl]; intros Ha l' Hin; cbn [leaves elems] in *.
  - destruct Hin as [<-|[]]. cbn. auto.
  - destruct Hin as [<-|[]]. cbn. auto.
  - destruct Hin as [<-|[]]. split; [lia|]. right. intros a b Hina Hinb. apply (NodeUn.agree_hash (vok := vok)); auto.
    intros x y k Hx Hy Hk. apply Ha; simpl in *; intuition (subst; auto).
  - apply in_flat_map in Hin as ([c|] & Hc & Hin); [|destruct Hin]. apply In_nth with (d := None) in Hc as (i & Hi & Hc).
    apply (IH i c Hc); auto. eapply (agree_child (vok := vok)); eauto. constructor; auto.
Qed.

Lemma twino_tok t t' : tok vok t -> tok vok t' -> twino (t_root t) (t_root t') <-> eqv veq (tel t) (tel t').
Proof.
  intros [Hw _] [Hw' _]. unfold tel. destruct (t_root t) as [n|] eqn:E1, (t_root t') as [n'|] eqn:E2; cbn [elemso].
  - split; [inversion 1; subst; apply (twin_eqv 0); auto|]. intros H. constructor. apply (twin_of_eqv 0); auto.
  - specialize (Hw n eq_refl). apply wf_nonnil in Hw. split; [inversion 1|]. intros [H _]. destruct (elems n) as [|e l]; [congruence|]. destruct (H e) as (f & [] & _). left. auto.
  - specialize (Hw' n' eq_refl). apply wf_nonnil in Hw'. split; [inversion 1|]. intros [_ H]. destruct (elems n') as [|e l]; [congruence|]. destruct (H e) as (f & [] & _). left. auto.
  - split; [intros _; split; intros e []|constructor].
Qed.
Lemma tel_leaves (t : tree T) : tel t = concat (leaveso (t_root t)).
Proof. unfold tel. destruct (t_root t) as [n|]; auto. symmetry. apply elems_leaves. Qed.
Lemma twino_leaves t o : tok vok t -> twino (t_root t) o -> Forall2 sameUpToOrder (leaveso (t_root t)) (leaveso o).
Proof. intros [Hw _] H. inversion H as [E1 E2|n n' Ht E1 E2]; [constructor|]. apply (twin_leaves 0); auto. Qed.
Lemma tok_leaves t l : tok vok t -> In l (leaveso (t_root t)) ->
  (1 <= length l)%nat /\ ((length l <= 2)%nat \/ forall a b, In a l -> In b l -> vhash a 0 = vhash b 0).
Proof.
  intros [Hw _] Hin. destruct (t_root t) as [n|]; [|destruct Hin]. apply (leaves_small 0 n); auto. intros x y k Hx Hy Hk. lia.
Qed.

Lemma sets_eqv s t : sok vok s -> sok vok t -> s_equal s t = Ok true <-> eqv veq (sel s) (sel t).
Proof.
  intros Hs Ht. destruct (s_equal_ok (vok := vok) s t) as (b & E1 & Hb); auto. rewrite E1. unfold seqv in Hb.
  rewrite (eqv_veq (vok := vok)) by (auto using (sok_allok (vok := vok)), (sok_distinct (vok := vok))). rewrite <- Hb. split; congruence.
Qed.

(** Sets are equal if and only if their tries are twins. *)
Lemma c64_twins s t : SetReach vok s -> SetReach vok t -> s_equal s t = Ok true <-> twino (t_root (s_tree s)) (t_root (s_tree t)).
Proof. intros Hs Ht. apply sreach_ok in Hs, Ht. rewrite sets_eqv by auto. symmetry. apply twino_tok; auto. Qed.

(** Equal sets have the same number of nodes and the same depth. *)
Lemma c64_sizes s t : SetReach vok s -> SetReach vok t -> s_equal s t = Ok true ->
  nodeCounto (t_root (s_tree s)) = nodeCounto (t_root (s_tree t)) /\ levelso (t_root (s_tree s)) = levelso (t_root (s_tree t)).
Proof.
  intros Hs Ht Hq. apply c64_twins in Hq; auto. apply sreach_ok in Hs. destruct Hs as [Hw _].
  inversion Hq as [E1 E2|n n' Hn E1 E2]; auto. apply (twin_counts 0); auto.
Qed.

(** Equal sets are ranged over in the same order, up to the order of the one or two elements of a leaf, or of the elements of a bucket, which
    have one hash. *)
Lemma c64_order s t : SetReach vok s -> SetReach vok t -> s_equal s t = Ok true ->
  exists bs bt, s_elements s = Ok (concat bs) /\ s_elements t = Ok (concat bt) /\ Forall2 sameUpToOrder bs bt /\
    forall b, In b bs -> (1 <= length b)%nat /\ ((length b <= 2)%nat \/ forall x y, In x b -> In y b -> vhash x 0 = vhash y 0).
Proof.
  intros Hs Ht Hq. apply c64_twins in Hq; auto. apply sreach_ok in Hs, Ht. exists (leaveso (t_root (s_tree s))), (leaveso (t_root (s_tree t))).
  rewrite !(s_elements_ok (vok := vok)) by auto. unfold sel. rewrite !tel_leaves. split; auto. split; auto. split; [apply twino_leaves; auto|].
  intros b Hb. exact (tok_leaves (s_tree s) b Hs Hb).
Qed.

Lemma same_length (b c : list T) : sameUpToOrder b c -> length b = length c.
Proof. intros (c' & P & F). rewrite (Permutation_length P). clear P. induction F; cbn; congruence. Qed.
Lemma small_same (b c : list T) i e : sameUpToOrder b c -> (length b <= 2)%nat -> nth_error b i = Some e ->
  length b = length c /\ exists j f, nth_error c j = Some f /\ veq e f = true /\ (j <= 1)%nat.
Proof.
  intros H Hl He. pose proof (same_length b c H) as Hlen. destruct H as (c' & P & F). split; auto.
  assert (H : exists f, In f c' /\ veq e f = true).
  { clear - F He. revert i He. induction F as [|a f b c H F IH]; intros [|i] He; try discriminate.
    - injection He as <-. exists f. split; [left|]; auto.
    - destruct (IH i He) as (f' & Hf & Hq). exists f'. split; [right|]; auto. }
  destruct H as (f & Hf & Hq). apply (Permutation_in f (Permutation_sym P)) in Hf. apply In_nth_error in Hf as (j & Hj). exists j, f. repeat split; auto.
  assert (j < length c)%nat by (apply nth_error_Some; congruence). lia.
Qed.
Lemma near_same_blocks (bs bt : list (list T)) : Forall2 sameUpToOrder bs bt -> (forall b, In b bs -> (length b <= 2)%nat) ->
  forall i e, nth_error (concat bs) i = Some e -> exists j f, nth_error (concat bt) j = Some f /\ veq e f = true /\ (i <= S j)%nat /\ (j <= S i)%nat.
Proof.
  induction 1 as [|b c bs bt H F IH]; intros Hl i e He; [destruct i; discriminate|]. cbn [concat] in *.
  assert (Hb : (length b <= 2)%nat) by (apply Hl; left; auto).
  destruct (Nat.lt_ge_cases i (length b)) as [Hi|Hi].
  - rewrite nth_error_app1 in He by auto. destruct (small_same b c i e H Hb He) as (Hlen & j & f & Hj & Hq & Hj1). exists j, f.
    assert (j < length c)%nat by (apply nth_error_Some; congruence). rewrite nth_error_app1 by auto. repeat split; auto; lia.
  - rewrite nth_error_app2 in He by auto. destruct (IH (fun b' Hb' => Hl b' (or_intror Hb')) _ _ He) as (j & f & Hj & Hq & H1 & H2).
    pose proof (same_length b c H) as Hlen.
    exists (length c + j)%nat, f. rewrite nth_error_app2 by lia. replace (length c + j - length c)%nat with j by lia. repeat split; auto; lia.
Qed.
(** So where no three elements share a hash, every element is at most one place further or nearer in an equal set. *)
Lemma c64_nearby s t l l' i e : SetReach vok s -> SetReach vok t -> s_equal s t = Ok true -> s_elements s = Ok l -> s_elements t = Ok l' ->
  (forall a, In a l -> (number (fun b => N.eqb (vhash b 0) (vhash a 0)) l <= 2)%nat) -> nth_error l i = Some e ->
  exists j f, nth_error l' j = Some f /\ veq e f = true /\ (i <= S j)%nat /\ (j <= S i)%nat.
Proof.
  intros Hs Ht Hq El El' Hn He. destruct (c64_order s t Hs Ht Hq) as (bs & bt & E1 & E2 & F & Hb).
  assert (Hnd : NoDup l). { apply sreach_ok in Hs. rewrite (s_elements_ok (vok := vok)) in El by auto. injection El as <-. apply (distinct_NoDup (vok := vok)); [apply (sok_allok (vok := vok))|apply (sok_distinct (vok := vok))]; auto. }
  rewrite E1 in El. rewrite E2 in El'. injection El as El. injection El' as El'. subst l l'.
  apply (near_same_blocks bs bt F); auto. intros b Hin. destruct (Hb b Hin) as [H1 [H2|H2]]; auto.
  destruct b as [|a b0] eqn:Eb; [cbn; lia|]. rewrite <- Eb in *. assert (Ha : In a b) by (rewrite Eb; left; auto).
  assert (Hi : incl b (concat bs)) by (intros x Hx; apply in_concat; eauto).
  etransitivity; [|apply (Hn a (Hi a Ha))]. unfold number. apply NoDup_incl_length.
  - apply in_split in Hin as (l1 & l2 & ->). rewrite concat_app in Hnd. cbn [concat] in Hnd. clear - Hnd.
    induction (concat l1) as [|x l IH]; cbn [app] in Hnd; [|inversion Hnd; auto]. clear - Hnd. induction b as [|x b IH]; [constructor|]. inversion Hnd; subst. constructor; auto. intros H. apply H1. apply in_or_app. auto.
  - intros x Hx. apply filter_In. split; auto. apply N.eqb_eq. auto.
Qed.

(** A set made at once of the elements of [s], in any order, has a twin of its trie. *)
Lemma c64_again s l l' t : SetReach vok s -> s_elements s = Ok l -> Permutation l l' -> s_new l' = Ok t -> twino (t_root (s_tree s)) (t_root (s_tree t)).
Proof.
  intros Hs El P Et. apply sreach_ok in Hs. rewrite (s_elements_ok (vok := vok)) in El by auto. injection El as <-.
  assert (Ho : allok vok l') by (intros e He; apply (sok_allok s Hs); apply (Permutation_in e (Permutation_sym P)); auto).
  destruct (s_new_ok (vok := vok) l' Ho) as (r & E1 & Hr & Hl). rewrite Et in E1. injection E1 as <-. apply twino_tok; auto. change (eqv veq (sel s) (sel t)).
  assert (Hd : distinct l') by (apply (distinct_perm (vok := vok) (sel s)); auto; [apply (sok_allok s Hs)|apply (sok_distinct (vok := vok) s Hs)]).
  apply (eqv_veq (vok := vok)); try apply (sok_allok (vok := vok)); try apply (sok_distinct (vok := vok)); auto.
  intros w Hw. rewrite Hl, (findLast_distinct (vok := vok)) by auto. revert w Hw.
  apply (eqv_veq (vok := vok)); auto; try apply (sok_allok (vok := vok)); try apply (sok_distinct (vok := vok)); auto. split.
  - intros e He. exists e. split; [apply (Permutation_in e P); auto|]. apply veq_refl. apply (sok_allok s Hs); auto.
  - intros e He. exists e. split; [apply (Permutation_in e (Permutation_sym P)); auto|]. apply veq_refl. auto.
Qed.

(** A builder's trie is a twin of the trie of any set equal to the one it would finish with. *)
Lemma c64_builder (b : setBuilder T) s : SBReach vok b -> SetReach vok s -> s_equal (fst (sb_finish b)) s = Ok true ->
  twino (t_root (sb_tree b)) (t_root (s_tree s)).
Proof.
  intros Hb Hs H. apply sbreach_ok in Hb. apply sreach_ok in Hs. assert (Hb' : sok vok (mkSet (sb_tree b))) by exact Hb.
  change (fst (sb_finish b)) with (mkSet (sb_tree b)) in H. apply sets_eqv in H; auto. apply twino_tok; auto.
Qed.
End Shape.

Section Maps.
Context {E : Env} {HE : EnvOk E} {X V : Type} {ZV : Zero V} {KX : Key X} {kok : X -> Prop} {valok : V -> Prop} {KO : KeyOk KX kok}.
Local Opaque maxTreeDepth fanout fb.

(** The tries of maps with the same keys are twins: the values do not matter. *)
Lemma c64_maps (m n : gomap X V) : MapReach kok valok m -> MapReach kok valok n -> (forall k, kok k -> m_has m k = m_has n k) ->
  twino (K := entryKey) (t_root (m_tree m)) (t_root (m_tree n)).
Proof.
  intros Hm Hn H. apply mreach_ok in Hm, Hn. apply (twino_tok (vok := eok (kok := kok))); auto. change (eqv veq (mel m) (mel n)).
  apply (eqv_veq (vok := eok (kok := kok))); try apply (mok_allok (kok := kok)); try apply (mok_distinct (kok := kok)); auto.
  intros w Hw. specialize (H (e_key w) Hw). unfold m_has in H. rewrite !(m_get_ok (kok := kok)) in H by auto.
  destruct w as [k v]. rewrite !klk_lookup. unfold mget in H. cbn in H. destruct (klk (mel m) k), (klk (mel n) k); cbn in H; split; congruence.
Qed.
End Maps.
