(** * LazyOps2: comparing lazy sets, and making new ones. *)
From Verif Require Import Base Bits Env EnvFacts Node NodeWf Iter Tree TreeFacts SetApi SetFacts ExtraFacts BitFacts PowersetFacts Lazy LazyLists LazyFacts LazyOps.

Section LazyOps2.
Context {E : Env} {HE : EnvOk E} {T : Type} {K : Key T} {vok : T -> Prop} {KO : KeyOk K vok} {B : Boxes T}.
Notation lset := (lset T).
Notation liter := (liter T).
Notation prog := (prog T).
Notation sok := (sok vok).
Notation allok := (NodeWf.allok vok).
Notation ghost := (@ghost T).
Notation wp := (wp (vok := vok)).
Notation lok := (lok (vok := vok)).
Notation itok := (itok (vok := vok)).
Notation ind := (ind (vok := vok)).
Notation nodupE := (nodupE (vok := vok)).
Notation cardIs := (cardIs (vok := vok)).
Notation countOk := (countOk (vok := vok)).

(** A set with as many elements as one of its supersets is that superset. *)
Lemma card_full a b n : allok a -> allok b -> (forall x, vok x -> mem a x = true -> mem b x = true) ->
  cardIs a n -> cardIs b n -> forall x, vok x -> mem a x = mem b x.
Proof.
  intros Ha Hb Hs (l1 & A1 & D1 & M1 & ->) (l2 & A2 & D2 & M2 & Hn) x Hx.
  destruct (mem a x) eqn:Ea; [symmetry; auto|]. destruct (mem b x) eqn:Eb; auto. exfalso.
  assert (Hlen : length (x :: l1) <= length l2).
  { apply (distinct_mem_length (vok := vok)); auto.
    - apply allok_cons; auto.
    - constructor; auto. intros y Hy. rewrite (veq_comm (vok := vok)) by auto.
      apply mem_false with (l := l1); auto. rewrite M1; auto.
    - intros y Hy. change (mem (x :: l1) y) with (veq x y || mem l1 y)%bool. rewrite M1, M2 by auto.
      destruct (veq x y) eqn:Ev; cbn [orb]; auto.
      intros _. rewrite <- Eb. symmetry. apply (mem_veq (vok := vok)); auto. }
  simpl in Hlen. lia.
Qed.

Lemma il_step_mem it it' v (g : ghost) : vok v -> (forall x, vok x -> mem (il it) x = (veq v x || mem (il it') x)%bool) ->
  forall (P : T -> bool), predOk (vok := vok) P -> allok (il it') ->
  ((forall x, vok x -> mem (il it) x = true -> P x = true) <->
   (P v = true /\ forall x, vok x -> mem (il it') x = true -> P x = true)).
Proof.
  intros Hv Hm P HP Ho. split.
  - intros H. split.
    + apply H; auto. rewrite Hm, veq_refl by auto. auto.
    + intros x Hx Hx'. apply H; auto. rewrite Hm, Hx' by auto. apply orb_true_r.
  - intros [H1 H2] x Hx. rewrite Hm by auto. destruct (veq v x) eqn:Ev; simpl; auto.
    intros _. rewrite <- (HP v x); auto.
Qed.

Lemma equalLoop_wp n : forall s c it g k, sok s -> itok g it -> ind it -> rem it < n -> (0 <= c)%Z -> cardIs (il it) k ->
  wp (equalLoop n s c it)
     (fun _ b => b = true <-> (forall x, vok x -> mem (il it) x = true -> mem (sel s) x = true) /\ k = c) g.
Proof.
  induction n as [|n IH]; intros s c it g k Hs Hi Hd Hn Hc Hk; [lia|]. cbn [equalLoop].
  assert (Hso : allok (sel s)) by (apply sok_allok; auto).
  destruct (Z.ltb_spec 0 c) as [Hp|Hp].
  - eapply wp_seq; [apply next_wp; auto|]. intros g1 [[|] it'] Hx; cbn [LazyFacts.nextPost].
    + intros (v & H1 & H2 & H3 & H4 & H5 & H6 & _ & H8). destruct (H8 Hd) as [Hd' Hv].
      apply wp_lift_bind with (a := v); auto.
      eapply wp_lift_bind; [apply (s_has_ok (vok := vok)); auto|]. rewrite <- mem_lookup.
      destruct (card_step (vok := vok) (il it) (il it') v k) as (k' & Hk' & ->); auto; [eapply itok_allok; eauto|].
      pose proof (il_step_mem it it' v g1 H2 H4 (mem (sel s)) (mem_predOk _ Hso) (itok_allok g1 it' H3)) as Hst.
      destruct (mem (sel s) v) eqn:Hsv.
      * eapply wp_mono; [apply IH with (k := k'); auto; lia|]. intros g2 b _ ->. rewrite Hst.
        split; intros [? ?]; split; try lia; tauto.
      * cbn [LazyFacts.wp]. split; [discriminate|]. intros [HA _]. apply Hst in HA as [? _]. congruence.
    + intros [H1 _]. cbn [LazyFacts.wp]. assert (k = 0%Z).
      { apply (cardIs_unique (vok := vok) (il it)); auto. apply (cardIs_ext (vok := vok) []); [|apply cardIs_nil].
        intros x Hx0. rewrite H1; auto. }
      destruct (Z.eqb_spec c 0); split; try discriminate; try lia.
  - assert (c = 0)%Z by lia. subst c. eapply wp_seq; [apply next_wp; auto|].
    intros g1 [[|] it'] Hx; cbn [LazyFacts.nextPost LazyFacts.wp].
    + intros (v & H1 & H2 & H3 & H4 & H5 & H6 & _ & H8). destruct (H8 Hd) as [Hd' Hv]. simpl.
      split; [discriminate|]. intros [_ ->].
      destruct (card_step (vok := vok) (il it) (il it') v 0) as (k' & Hk' & Hk''); auto; [eapply itok_allok; eauto|].
      apply card_nonneg in Hk'. lia.
    + intros [H1 _]. simpl. split; auto. intros _. split.
      * intros x Hx0. rewrite H1 by auto. discriminate.
      * apply (cardIs_unique (vok := vok) (il it)); auto. apply (cardIs_ext (vok := vok) []); [|apply cardIs_nil].
        intros x Hx0. rewrite H1; auto.
Qed.

Definition sameAs (l1 l2 : list T) : Prop := forall x, vok x -> mem l1 x = mem l2 x.

Lemma frozen_equalSet_wp s t g : sok s -> lok g t -> rangeOk t -> nodupE t ->
  wp (frozen_equalSet s t) (fun _ b => b = true <-> sameAs (sel s) (dl t)) g.
Proof.
  intros Hs Ht Hr Hn.
  assert (Hloop : wp (it <~ l_range t ;; equalLoop (S (rem it)) s (s_count s) it)
                     (fun _ b => b = true <-> sameAs (sel s) (dl t)) g).
  { eapply wp_seq; [apply range_wp; auto|]. intros g1 it Hx (H1 & H2 & H3 & H4 & H5 & _).
    assert (Ho : allok (il it)) by (eapply itok_allok; eauto).
    destruct (card_exists (vok := vok) (il it)) as [k Hk]; auto.
    eapply wp_mono; [apply equalLoop_wp with (k := k); auto|].
    - rewrite (s_count_ok (vok := vok)) by auto. lia.
    - intros g2 b _ ->. unfold sameAs. split.
      + intros [HA ->] x Hx0. symmetry. rewrite <- H2 by auto.
        apply (card_full (il it) (sel s) (s_count s)); auto using cardIs_set. apply sok_allok; auto.
      + intros HS. split.
        * intros x Hx0. rewrite H2, <- HS; auto.
        * apply (cardIs_unique (vok := vok) (il it)); auto. apply (cardIs_ext (vok := vok) (sel s)).
          -- intros x Hx0. rewrite H2; auto.
          -- apply cardIs_set; auto. }
  unfold frozen_equalSet. destruct t; auto. clear Hloop.
  destruct (s_equal_ok (vok := vok) s s0) as (b & Eb & Hb); auto. eapply wp_lift; eauto. rewrite Hb.
  unfold sameAs, seqv. simpl. split; intros H x Hx; specialize (H x Hx).
  - rewrite !mem_lookup. destruct (lookup (sel s) x), (lookup (sel s0) x); simpl; auto; exfalso;
      solve [apply (proj1 H); congruence | apply (proj2 H); congruence].
  - rewrite !mem_lookup in H. destruct (lookup (sel s) x), (lookup (sel s0) x); simpl in *; split; congruence.
Qed.

Lemma sameAs_trans_l l1 l2 l3 : sameAs l1 l2 -> (sameAs l1 l3 <-> sameAs l2 l3).
Proof. intros H. unfold sameAs. split; intros H' x Hx; rewrite <- H' by auto; rewrite H by auto; auto. Qed.
Lemma sameAs_trans_r l1 l2 l3 : sameAs l1 l2 -> (sameAs l3 l1 <-> sameAs l3 l2).
Proof. intros H. unfold sameAs. split; intros H' x Hx; rewrite H' by auto; [rewrite H|rewrite <- H]; auto. Qed.

Lemma equalSet_wp : forall e t g, lok g e -> lok g t -> rangeOk e -> rangeOk t -> nodupE t ->
  wp (l_equalSet e t) (fun _ b => b = true <-> sameAs (dl e) (dl t)) g.
Proof.
  assert (Hbase : forall e t g, lok g e -> lok g t -> rangeOk e -> rangeOk t -> nodupE t ->
    wp (freezeBoth e t frozen_equalSet) (fun _ b => b = true <-> sameAs (dl e) (dl t)) g).
  { intros e t g He Ht Re Rt Nt. unfold freezeBoth. eapply wp_seq; [apply freeze_wp; auto|].
    intros g1 e' Hx1 (f1 & -> & Hf1 & M1). eapply wp_seq; [apply freeze_wp; auto; eapply lok_ext; eauto|].
    intros g2 t' Hx2 (f2 & -> & Hf2 & M2). eapply wp_mono; [apply frozen_equalSet_wp; simpl; auto; try exact Logic.I|].
    intros g3 b _ ->. simpl. rewrite (sameAs_trans_l _ _ _ M1). apply (sameAs_trans_r _ _ _ M2). }
  induction e as [|s|p src IH|a IHa b IHb|a IHa b IHb|a IHa b IHb|src IH q|src IH m|src IH];
    intros t g Hl Ht Hr Rt Nt; cbn [l_equalSet]; try (apply Hbase; auto; fail).
  - eapply wp_mono; [apply isEmpty_wp; auto|]. intros g1 b _ ->. unfold noneIn, sameAs. simpl.
    split; intros H x Hx; specialize (H x Hx); auto.
  - apply frozen_equalSet_wp; auto.
  - destruct Hl as (Hp & Hw & Hl). simpl in Hr. apply wp_load with (src := src); auto.
    intros g1 o Hx Hp1 [_ Hcell]. destruct o as [f|].
    + destruct (Hcell f eq_refl) as [Hf Hm]. specialize (Hm Hr).
      eapply wp_mono; [apply frozen_equalSet_wp; auto; eapply lok_ext; eauto|].
      intros g2 b _ ->. simpl. apply (sameAs_trans_l _ _ _ Hm).
    + apply IH; auto; eapply lok_ext; eauto.
Qed.

Lemma equal_wp e t g : e <> LEmpty -> lok g e -> lok g t -> rangeOk e -> rangeOk t -> nodupE t ->
  wp (l_equal e t) (fun _ b => b = true <-> sameAs (dl e) (dl t)) g.
Proof.
  intros Hne Hl Ht Hr Rt Nt. destruct e as [|s|p src|a b|a b|a b|src q|src m|src]; cbn [l_equal];
    try (apply equalSet_wp; auto; fail).
  - destruct Hne; auto.
  - destruct Hl as (Hp & Hw & Hl). simpl in Hr. apply wp_load with (src := src); auto.
    intros g1 o Hx Hp1 [_ Hcell]. destruct o as [f|].
    + destruct (Hcell f eq_refl) as [Hf Hm]. specialize (Hm Hr).
      eapply wp_mono; [apply frozen_equalSet_wp; auto; eapply lok_ext; eauto|].
      intros g2 b _ ->. simpl. apply (sameAs_trans_l _ _ _ Hm).
    + assert (Hs : wp (l_equalSet src t) (fun _ b => b = true <-> sameAs (dl src) (dl t)) g1).
      { apply equalSet_wp; auto; eapply lok_ext; eauto. }
      destruct src; simpl in Hw; try tauto; exact Hs.
Qed.

(** ** IsSubsetOf *)

Lemma subLoop_wp n : forall s c it g k, sok s -> itok g it -> ind it -> rem it + icost it < n -> (0 <= c)%Z ->
  cardIs (filter (mem (sel s)) (il it)) k ->
  wp (subLoop n s c it) (fun _ b => b = true <-> (c <= k)%Z) g.
Proof.
  induction n as [|n IH]; intros s c it g k Hs Hi Hd Hn Hc Hk; [lia|]. cbn [subLoop].
  assert (Hso : allok (sel s)) by (apply sok_allok; auto).
  assert (Ho : allok (il it)) by (eapply itok_allok; eauto).
  pose proof (card_nonneg (vok := vok) _ _ Hk) as Hk0.
  destruct (Z.ltb_spec 0 c) as [Hp|Hp].
  - eapply wp_seq; [apply lazy_spec; auto; lia|]. intros g1 [[|] it'] Hx; cbn [LazyFacts.nextPost].
    + intros (v & H1 & H2 & H3 & H4 & H5 & H6 & _ & H8). destruct (H8 Hd) as [Hd' Hv].
      assert (Ho' : allok (il it')) by (eapply itok_allok; eauto).
      apply wp_lift_bind with (a := v); auto.
      eapply wp_lift_bind; [apply (s_has_ok (vok := vok)); auto|]. rewrite <- mem_lookup.
      assert (Hst : forall x, vok x -> mem (filter (mem (sel s)) (il it)) x =
                ((veq v x && mem (sel s) v) || mem (filter (mem (sel s)) (il it')) x)%bool).
      { intros x Hx0. apply (filter_step (vok := vok)); auto using mem_predOk. }
      destruct (mem (sel s) v) eqn:Hsv.
      * destruct (card_step (vok := vok) (filter (mem (sel s)) (il it)) (filter (mem (sel s)) (il it')) v k)
          as (k' & Hk' & ->); auto.
        -- apply allok_filter; auto.
        -- intros x Hx0. rewrite Hst by auto. rewrite andb_true_r. auto.
        -- rewrite (mem_filter (vok := vok)) by auto using mem_predOk. rewrite Hv. auto.
        -- eapply wp_mono; [apply IH with (k := k'); auto; lia|]. intros g2 b _ ->. lia.
      * eapply wp_mono; [apply IH with (k := k); auto; try lia|].
        -- eapply cardIs_ext; [|eauto]. intros x Hx0. rewrite Hst by auto. rewrite andb_false_r. auto.
        -- intros g2 b _ ->. lia.
    + intros [H1 _]. cbn [LazyFacts.wp]. assert (k = 0%Z).
      { apply (cardIs_unique (vok := vok) (filter (mem (sel s)) (il it))); auto.
        apply (cardIs_ext (vok := vok) []); [|apply cardIs_nil].
        intros x Hx0. rewrite (mem_filter (vok := vok)) by auto using mem_predOk. rewrite H1; auto. }
      destruct (Z.eqb_spec c 0); split; try discriminate; try lia.
  - assert (c = 0)%Z by lia. subst c. cbn [LazyFacts.wp]. split; auto.
Qed.

Definition within (l1 l2 : list T) : Prop := forall x, vok x -> mem l1 x = true -> mem l2 x = true.

Lemma frozen_isSubsetOf_wp s t g : sok s -> lok g t -> rangeOk t -> nodupE t ->
  wp (frozen_isSubsetOf s t) (fun _ b => b = true <-> within (sel s) (dl t)) g.
Proof.
  intros Hs Ht Hr Hn. unfold frozen_isSubsetOf.
  assert (Hloop : forall t g, lok g t -> rangeOk t -> nodupE t ->
    wp (it <~ l_range t ;; subLoop (S (rem it + icost it)) s (s_count s) it)
       (fun _ b => b = true <-> within (sel s) (dl t)) g).
  { clear - Hs HE KO. intros t g Ht Hr Hn.
    eapply wp_seq; [apply range_wp; auto|]. intros g1 it Hx (H1 & H2 & H3 & H4 & H5 & _).
    assert (Ho : allok (il it)) by (eapply itok_allok; eauto).
    assert (Hso : allok (sel s)) by (apply sok_allok; auto).
    assert (Hfo : allok (filter (mem (sel s)) (il it))) by (apply allok_filter; auto).
    assert (Hmf : forall x, vok x -> mem (filter (mem (sel s)) (il it)) x = (mem (dl t) x && mem (sel s) x)%bool).
    { intros x Hx0. rewrite (mem_filter (vok := vok)) by auto using mem_predOk. rewrite H2; auto. }
    destruct (card_exists (vok := vok) (filter (mem (sel s)) (il it))) as [k Hk]; auto.
    eapply wp_mono; [apply subLoop_wp with (k := k); auto|].
    - rewrite (s_count_ok (vok := vok)) by auto. lia.
    - intros g2 b _ ->. unfold within. pose proof (cardIs_set (vok := vok) s Hs) as Hcs.
      assert (Hle : (k <= s_count s)%Z).
      { eapply (card_le (vok := vok)); [|exact Hk|exact Hcs]. intros x Hx0. rewrite Hmf by auto.
        intros H. apply andb_true_iff in H. tauto. }
      split.
      + intros Hge x Hx0 Hsx. assert (k = s_count s) by lia. subst k.
        assert (Heq : mem (filter (mem (sel s)) (il it)) x = mem (sel s) x).
        { apply (card_full _ (sel s) (s_count s)); auto. intros y Hy. rewrite Hmf by auto.
          intros H. apply andb_true_iff in H. tauto. }
        rewrite Hmf, Hsx, andb_true_r in Heq by auto. auto.
      + intros HS. eapply (card_le (vok := vok)); [|exact Hcs|exact Hk]. intros x Hx0 Hsx. rewrite Hmf by auto.
        rewrite HS, Hsx by auto. auto. }
  destruct t as [|s'|p src|a b|a b|a b|src q|src m|src]; try (apply Hloop; auto; fail).
  destruct Ht as (Hp & Hw & Hl). simpl in Hr. apply wp_load with (src := src); auto.
  intros g1 o Hx Hp1 [_ Hcell]. destruct o as [f|].
  - destruct (Hcell f eq_refl) as [Hf Hm]. specialize (Hm Hr).
    eapply wp_mono; [apply Hloop; simpl; auto; try exact Logic.I|]. intros g2 b _ ->. unfold within. simpl.
    split; intros H x Hx0; [rewrite <- Hm|rewrite Hm]; auto.
  - apply Hloop; auto. simpl. split; eauto. split; auto. eapply lok_ext; eauto.
Qed.

Lemma isSubsetOf_wp : forall e t g, lok g e -> lok g t -> rangeOk e -> rangeOk t -> nodupE t ->
  wp (l_isSubsetOf e t) (fun _ b => b = true <-> within (dl e) (dl t)) g.
Proof.
  assert (Hbase : forall e t g, lok g e -> lok g t -> rangeOk e -> rangeOk t -> nodupE t ->
    wp (freezeBoth e t frozen_isSubsetOf) (fun _ b => b = true <-> within (dl e) (dl t)) g).
  { intros e t g He Ht Re Rt Nt. unfold freezeBoth. eapply wp_seq; [apply freeze_wp; auto|].
    intros g1 e' Hx1 (f1 & -> & Hf1 & M1). eapply wp_seq; [apply freeze_wp; auto; eapply lok_ext; eauto|].
    intros g2 t' Hx2 (f2 & -> & Hf2 & M2). eapply wp_mono; [apply frozen_isSubsetOf_wp; simpl; auto; try exact Logic.I|].
    intros g3 b _ ->. unfold within. simpl. split; intros H x Hx0; specialize (H x Hx0);
      rewrite M1, M2 in * by auto; auto. }
  induction e as [|s|p src IH|a IHa b IHb|a IHa b IHb|a IHa b IHb|src IH q|src IH m|src IH];
    intros t g Hl Ht Hr Rt Nt; cbn [l_isSubsetOf]; try (apply Hbase; auto; fail).
  - split; auto. intros _ x _. discriminate.
  - apply frozen_isSubsetOf_wp; auto.
  - destruct Hl as (Hp & Hw & Hl). simpl in Hr. apply wp_load with (src := src); auto.
    intros g1 o Hx Hp1 [_ Hcell]. destruct o as [f|].
    + destruct (Hcell f eq_refl) as [Hf Hm]. specialize (Hm Hr).
      eapply wp_mono; [apply frozen_isSubsetOf_wp; auto; eapply lok_ext; eauto|].
      intros g2 b _ ->. unfold within. simpl. split; intros H x Hx0; specialize (H x Hx0);
        rewrite Hm in * by auto; auto.
    + apply IH; auto; eapply lok_ext; eauto.
Qed.

(** ** New sets *)

Lemma hasOk_rangeOk (e : lset) : hasOk e -> rangeOk e.
Proof.
  induction e as [|s|p src IH|a IHa b IHb|a IHa b IHb|a IHa b IHb|src IH q|src IH m|src IH]; intros H;
    try exact Logic.I; try (destruct H; fail); try exact (proj2 H).
  - destruct H as [H1 H2]. exact (conj (IHa H1) (IHb H2)).
  - destruct H as [H1 H2]. exact (conj (IHa H1) H2).
  - exact (IH H).
  - exact H.
Qed.

Lemma countOk_nodupE (e : lset) : countOk e -> nodupE e.
Proof. destruct e; intros H; try exact Logic.I; try (destruct H; fail); simpl in H |- *; tauto. Qed.

Definition isMemo (e : lset) : Prop := match e with LMemo _ _ => True | _ => False end.
(** A set that holds its elements: emptySet or frozenSet. *)
Definition isFrozen (e : lset) : Prop := match e with LEmpty | LFrozen _ => True | _ => False end.

(** What is known of a lazy set: its elements are those that pass [P]; and under each of the conditions [H], [N], [C],
    [F], [Z] and [L] one more thing: Has is right, Range gives no value twice, Count is right, FastHas is right, it
    holds its elements, it is not the emptySet. *)
Definition made (P : T -> bool) (H N C F Z L : Prop) (g : ghost) (r : lset) : Prop :=
  lok g r /\ (forall x, vok x -> mem (dl r) x = P x) /\ rangeOk r /\ (H -> hasOk r) /\ (N -> nodupE r) /\
  (C -> countOk r) /\ (F -> fastOk r) /\ (Z -> isFrozen r) /\ (L -> r <> LEmpty).

Lemma made_ext P H N C F Z L g g' r : ext g g' -> made P H N C F Z L g r -> made P H N C F Z L g' r.
Proof. intros Hx (H1 & H2). split; auto. eapply lok_ext; eauto. Qed.

Lemma made_imp P H N C F Z L (P' : T -> bool) (H' N' C' F' Z' L' : Prop) g r : made P H N C F Z L g r ->
  (forall x, vok x -> P x = P' x) -> (H' -> H) -> (N' -> N) -> (C' -> C) -> (F' -> F) -> (Z' -> Z) -> (L' -> L) ->
  made P' H' N' C' F' Z' L' g r.
Proof.
  intros (H1 & H2 & H3 & H4 & H5 & H6 & H7 & H8 & H9) Q1 Q2 Q3 Q4 Q5 Q6 Q7.
  split; auto. split; [|split; auto; tauto]. intros x Hx. rewrite H2; auto.
Qed.

(** The set behind a memoSet: all that is known stays known, and where Count is right Range gives no value twice. *)
Lemma deref_wp P H N C F Z L e g : made P H N C F Z L g e ->
  wp (deref e) (fun g' e' => made P H C C F Z L g' e' /\ ~ isMemo e') g.
Proof.
  intros (Hl & Hm & Hr & H4 & H5 & H6 & H7 & H8 & H9).
  destruct e as [|s|p src|a b|a b|a b|src q|src m|src]; cbn [deref];
    try (cbn [LazyFacts.wp]; split; [|intros []]; split; [exact Hl|]; split; [exact Hm|]; split; [exact Hr|];
         split; [exact H4|]; split; [intros Hc; apply countOk_nodupE; auto|]; tauto).
  destruct Hl as (Hp & Hw & Hl). change (rangeOk src) in Hr. apply wp_load with (src := src); auto.
  intros g1 o Hx Hp1 [_ Hcell]. cbn [LazyFacts.wp]. destruct o as [f|]; cbn [cur].
  - destruct (Hcell f eq_refl) as [Hf Hc]. specialize (Hc Hr). split; [|intros []].
    split; auto. split; [intros x Hx0; simpl; rewrite Hc by auto; apply Hm; auto|].
    split; [exact Logic.I|]. split; [intros; exact Logic.I|]. split; [intros; exact Logic.I|].
    split; [intros; exact Logic.I|]. split; [intros; exact Logic.I|]. split; [intros; exact Logic.I|]. discriminate.
  - split; [|destruct src; auto]. split; [eapply lok_ext; eauto|]. split; auto. split; auto.
    split; [intros h; destruct (H4 h); auto|].
    split; [intros h; destruct (H6 h); apply countOk_nodupE; auto|].
    split; [intros h; destruct (H6 h); auto|].
    split; [intros h; destruct (H7 h); auto|]. split; [intros h; destruct (H8 h)|].
    intros _. destruct src; simpl in Hw; try tauto; discriminate.
Qed.

Lemma memo_wp e g P (H C F : Prop) : raw e -> lok g e -> (forall x, vok x -> mem (dl e) x = P x) -> rangeOk e ->
  (H -> hasOk e) -> (C -> countOk e) -> (F -> fastOk e) ->
  wp (l_memo e) (made P H True C F False True) g.
Proof.
  intros Hw Hl Hm Hr HH HC HF.
  assert (HA : wp (Alloc e (fun p => Ret (LMemo p e))) (made P H True C F False True) g).
  { cbn [LazyFacts.wp]. split; auto. split; auto. split; auto. intros g1 Hx.
    split; [|split; [exact Hm|split; [exact Hr|split; [intros h; exact (conj (HH h) Hr)|
      split; [intros; exact Logic.I|split; [intros h; exact (conj (HC h) Hr)|split; [intros h; exact (conj (HF h) Hr)|
      split; [intros []|discriminate]]]]]]]].
    simpl. split; [|split; auto].
    - exists false. rewrite nth_error_app2 by auto. rewrite Nat.sub_diag. reflexivity.
    - eapply lok_ext; [|eauto]. eapply ext_trans; [eauto|apply ext_app]. }
  destruct e; simpl in Hw; try tauto; exact HA.
Qed.

Lemma made_frozen s P H N C F Z L g : sok s -> (forall x, vok x -> mem (sel s) x = P x) ->
  made P H N C F Z L g (LFrozen s).
Proof.
  intros Hs Hm. split; auto. split; auto. split; [exact Logic.I|]. split; [intros; exact Logic.I|].
  split; [intros; exact Logic.I|]. split; [intros; exact Logic.I|]. split; [intros; exact Logic.I|].
  split; [intros; exact Logic.I|]. discriminate.
Qed.

Lemma made_empty P H N C F Z (L : Prop) g : (forall x, vok x -> P x = false) -> ~ L -> made P H N C F Z L g LEmpty.
Proof.
  intros HP HL. split; [exact Logic.I|]. split; [intros x Hx; rewrite HP; auto|]. split; [exact Logic.I|].
  split; [intros; exact Logic.I|]. split; [intros; exact Logic.I|]. split; [intros; exact Logic.I|].
  split; [intros; exact Logic.I|]. split; [intros; exact Logic.I|]. intros h; destruct HL; auto.
Qed.

Lemma fastEmpty_wp e g : lok g e -> rangeOk e -> wp (fastEmpty e) (fun _ b => b = true -> noneIn (vok := vok) e) g.
Proof.
  intros Hl Hr. unfold fastEmpty. eapply wp_seq; [apply fastIsEmpty_wp; auto|]. intros g1 r Hx H.
  cbn [LazyFacts.wp]. destruct r as [[|]|]; try discriminate. intros _. apply (H true); auto.
Qed.

Lemma single_wp v g : vok v -> wp (single v) (fun _ r => exists s, r = LFrozen s /\ sok s /\
  forall x, vok x -> mem (sel s) x = veq v x) g.
Proof.
  intros Hv. unfold single. destruct (s_new_ok (vok := vok) [v]) as (s & E1 & Hs & Hl).
  { intros y [<-|[]]; auto. }
  eapply wp_lift_bind; [exact E1|]. cbn [LazyFacts.wp]. exists s. split; auto. split; auto.
  intros x Hx. rewrite mem_lookup, Hl by auto. unfold findLast. simpl. destruct (veq v x); auto.
Qed.


(** *** Union *)
Lemma union_wp P1 H1 C1 F1 Z1 L1 P2 H2 N2 C2 F2 Z2 L2 a b g :
  made P1 H1 C1 C1 F1 Z1 L1 g a -> ~ isMemo a -> made P2 H2 N2 C2 F2 Z2 L2 g b ->
  wp (union a b) (made (fun x => P1 x || P2 x)%bool (H1 /\ H2) True
     (C1 /\ C2 /\ forall x, vok x -> P1 x = true -> P2 x = false) False False True) g.
Proof.
  intros (A1 & A2 & A3 & A4 & A5 & A6 & A7 & A8 & A9) Hn (B1 & B2 & B3 & B4 & B5 & B6 & B7 & B8 & B9).
  unfold union. apply memo_wp; simpl; auto.
  - intros x Hx. rewrite mem_app, A2, B2; auto.
  - exact (conj A3 B3).
  - intros [h1 h2]. exact (conj (A4 h1) (B4 h2)).
  - intros (h1 & h2 & h3). split; auto. split; auto. split; auto. split; auto. split; auto.
    split; [apply countOk_nodupE; auto|]. intros x Hx. rewrite A2, B2 by auto. auto.
Qed.

Lemma union_call_wp P1 H1 N1 C1 F1 Z1 L1 P2 H2 N2 C2 F2 Z2 L2 a b g :
  made P1 H1 N1 C1 F1 Z1 L1 g a -> made P2 H2 N2 C2 F2 Z2 L2 g b ->
  wp (l_union a b) (made (fun x => P1 x || P2 x)%bool (H1 /\ H2) (L1 \/ N2)
     (C1 /\ C2 /\ forall x, vok x -> P1 x = true -> P2 x = false) False False (L1 \/ L2)) g.
Proof.
  intros Ha Hb. unfold l_union. eapply wp_seq; [eapply deref_wp; eauto|].
  intros g1 e Hx [He Hn]. apply (made_ext _ _ _ _ _ _ _ _ _ _ Hx) in Hb.
  assert (Hu : wp (union e b) (made (fun x => P1 x || P2 x)%bool (H1 /\ H2) (L1 \/ N2)
     (C1 /\ C2 /\ forall x, vok x -> P1 x = true -> P2 x = false) False False (L1 \/ L2)) g1).
  { eapply wp_mono; [eapply union_wp; eauto|]. intros g2 r _ Hr. eapply made_imp; eauto. }
  destruct e; auto. cbn [LazyFacts.wp]. destruct He as (_ & He & _ & _ & _ & _ & _ & _ & HL).
  eapply made_imp; [exact Hb|..]; try tauto.
  intros x Hx0. specialize (He x Hx0). simpl in He. rewrite <- He. auto.
Qed.

(** *** With *)
Lemma with_wp P H N C F Z L e v g : made P H N C F Z L g e -> vok v ->
  wp (l_with e v) (made (fun x => veq v x || P x)%bool H True (Z \/ (C /\ P v = false)) Z Z True) g.
Proof.
  intros Ha Hv. unfold l_with. eapply wp_seq; [eapply deref_wp; eauto|].
  intros g1 e1 Hx [He Hn].
  assert (Hu : ~ isFrozen e1 -> wp (t <~ single v ;; union e1 t)
    (made (fun x => veq v x || P x)%bool H True (Z \/ (C /\ P v = false)) Z Z True) g1).
  { intros HZ. assert (HnZ : ~ Z) by (destruct He as (_ & _ & _ & _ & _ & _ & _ & h & _); tauto).
    eapply wp_seq; [apply single_wp; auto|]. intros g2 r Hx2 (s & -> & Hs & Hm).
    eapply wp_mono; [eapply union_wp with (H2 := True) (N2 := True) (C2 := True) (F2 := True) (Z2 := True) (L2 := True);
      [eapply made_ext; eauto|auto|apply made_frozen; eauto]|].
    intros g3 r _ Hr. eapply made_imp; [exact Hr|..]; try tauto.
    - intros x Hx0. simpl. apply orb_comm.
    - intros [h|[h1 h2]]; [tauto|]. split; auto. split; auto. intros x Hx0 Hpx. simpl.
      destruct (veq v x) eqn:Ev; auto. exfalso. destruct He as (Hlo & He & _).
      rewrite <- He in Hpx, h2 by auto.
      rewrite (mem_veq (vok := vok) _ v x) in h2; auto; [congruence|]. eapply lok_allok; eauto. }
  destruct e1; auto.
  - cbn [LazyFacts.wp]. eapply wp_mono; [apply single_wp; auto|]. intros g2 r _ (s & -> & Hs & Hm).
    apply made_frozen; auto. intros x Hx0. rewrite Hm by auto. destruct He as (_ & He & _).
    rewrite <- He by auto. simpl. rewrite orb_false_r. auto.
  - destruct He as (Hs & He & _). destruct (s_with_ok (vok := vok) s v) as (r & E1 & Hr & Hlk & _); auto.
    eapply wp_lift_bind; [exact E1|]. cbn [LazyFacts.wp]. apply made_frozen; auto. intros x Hx0.
    rewrite mem_lookup, Hlk by auto. rewrite <- He by auto. simpl. rewrite mem_lookup. destruct (veq v x); auto.
Qed.

(** *** Difference and Without *)
Lemma difference_wp P1 H1 C1 F1 Z1 L1 P2 H2 N2 C2 F2 Z2 L2 a b g :
  made P1 H1 C1 C1 F1 Z1 L1 g a -> ~ isMemo a -> made P2 H2 N2 C2 F2 Z2 L2 g b -> H2 ->
  wp (difference a b) (made (fun x => P1 x && negb (P2 x))%bool False C1 C1 False False L1) g.
Proof.
  intros Ha Hn Hb h2. unfold difference.
  pose proof Ha as (A1 & A2 & A3 & A4 & A5 & A6 & A7 & A8 & A9).
  pose proof Hb as (B1 & B2 & B3 & B4 & B5 & B6 & B7 & B8 & B9).
  eapply wp_seq; [apply fastEmpty_wp; auto|]. intros g1 [|] Hx1 Q1.
  - cbn [LazyFacts.wp]. eapply made_imp; [eapply made_ext; [|exact Ha]; auto|..]; try tauto.
    intros x Hx. specialize (Q1 eq_refl x Hx). rewrite A2 in Q1 by auto. rewrite Q1. auto.
  - eapply wp_seq; [apply fastEmpty_wp; auto; eapply lok_ext; eauto|]. intros g2 [|] Hx2 Q2.
    + cbn [LazyFacts.wp]. assert (Hx : ext g g2) by (eapply ext_trans; eauto).
      eapply made_imp; [eapply made_ext; [|exact Ha]; auto|..]; try tauto.
      intros x Hx0. specialize (Q2 eq_refl x Hx0). rewrite B2 in Q2 by auto. rewrite Q2, andb_true_r. auto.
    + assert (Hx : ext g g2) by (eapply ext_trans; eauto).
      eapply wp_mono; [apply memo_wp with (P := fun x => (P1 x && negb (P2 x))%bool) (H := False) (C := C1) (F := False);
        simpl; auto; try tauto|].
      * split; eapply lok_ext; eauto.
      * intros x Hx0. rewrite (mem_filter (vok := vok) (fun x => negb (mem (dl b) x)));
          [rewrite A2, B2; auto|eapply lok_allok; eauto|auto|apply negb_predOk; apply mem_predOk; eapply lok_allok; eauto].
      * exact (conj A3 (B4 h2)).
      * intros h. split; [exact (conj A3 (B4 h2))|apply A5; auto].
      * intros g3 r _ Hr. eapply made_imp; [exact Hr|..]; auto.
Qed.

Lemma difference_call_wp P1 H1 N1 C1 F1 Z1 L1 P2 H2 N2 C2 F2 Z2 L2 a b g :
  made P1 H1 N1 C1 F1 Z1 L1 g a -> made P2 H2 N2 C2 F2 Z2 L2 g b -> H2 ->
  wp (l_difference a b) (made (fun x => P1 x && negb (P2 x))%bool False C1 C1 False False L1) g.
Proof.
  intros Ha Hb h2. unfold l_difference. eapply wp_seq; [eapply deref_wp; eauto|].
  intros g1 e Hx [He Hn]. apply (made_ext _ _ _ _ _ _ _ _ _ _ Hx) in Hb.
  assert (Hu : wp (difference e b) (made (fun x => P1 x && negb (P2 x))%bool False C1 C1 False False L1) g1).
  { eapply difference_wp; eauto. }
  destruct e; exact Hu.
Qed.

Lemma without_wp P H N C F Z L e v g : made P H N C F Z L g e -> vok v ->
  wp (l_without e v) (made (fun x => negb (veq v x) && P x)%bool Z C C Z Z L) g.
Proof.
  intros Ha Hv. unfold l_without. eapply wp_seq; [eapply deref_wp; eauto|].
  intros g1 e1 Hx [He Hn].
  assert (Hu : ~ isFrozen e1 -> wp (t <~ single v ;; difference e1 t)
    (made (fun x => negb (veq v x) && P x)%bool Z C C Z Z L) g1).
  { intros HZ. assert (HnZ : ~ Z) by (destruct He as (_ & _ & _ & _ & _ & _ & _ & h & _); tauto).
    eapply wp_seq; [apply single_wp; auto|]. intros g2 r Hx2 (s & -> & Hs & Hm).
    eapply wp_mono; [eapply difference_wp with (H2 := True) (N2 := True) (C2 := True) (F2 := True) (Z2 := True) (L2 := True);
      [eapply made_ext; eauto|auto|apply made_frozen; eauto|auto]|].
    intros g3 r _ Hr. eapply made_imp; [exact Hr|..]; try tauto.
    intros x Hx0. simpl. apply andb_comm. }
  destruct e1; auto.
  - cbn [LazyFacts.wp]. destruct He as (_ & He & _ & _ & _ & _ & _ & _ & HL).
    apply made_empty; [|intros h; apply (HL h); auto].
    intros x Hx0. specialize (He x Hx0). simpl in He. rewrite <- He. apply andb_false_r.
  - destruct He as (Hs & He & _). destruct (s_without_ok (vok := vok) s v) as (r & E1 & Hr & Hlk & _); auto.
    eapply wp_lift_bind; [exact E1|]. cbn [LazyFacts.wp]. apply made_frozen; auto. intros x Hx0.
    rewrite mem_lookup, Hlk by auto. rewrite <- He by auto. simpl. rewrite mem_lookup. destruct (veq v x); auto.
Qed.

(** *** Intersection *)
Lemma intersection_wp P1 H1 N1 C1 F1 Z1 L1 P2 H2 N2 C2 F2 Z2 L2 a b g :
  made P1 H1 N1 C1 F1 Z1 L1 g a -> made P2 H2 N2 C2 F2 Z2 L2 g b -> H2 ->
  wp (l_intersection a b) (made (fun x => P1 x && P2 x)%bool (H1 /\ H2) True C1 (F1 /\ F2) False False) g.
Proof.
  intros Ha Hb h2. unfold l_intersection. eapply wp_seq; [eapply deref_wp; eauto|].
  intros g1 e Hx [He Hn]. apply (made_ext _ _ _ _ _ _ _ _ _ _ Hx) in Hb.
  pose proof He as (A1 & A2 & A3 & A4 & A5 & A6 & A7 & A8 & A9).
  pose proof Hb as (B1 & B2 & B3 & B4 & B5 & B6 & B7 & B8 & B9).
  assert (Hu : wp (intersection e b) (made (fun x => P1 x && P2 x)%bool (H1 /\ H2) True C1 (F1 /\ F2) False False) g1).
  { unfold intersection. eapply wp_seq; [apply fastEmpty_wp; auto|]. intros g2 [|] Hx1 Q1.
    - cbn [LazyFacts.wp]. apply made_empty; auto.
      intros x Hx0. specialize (Q1 eq_refl x Hx0). rewrite A2 in Q1 by auto. rewrite Q1. auto.
    - eapply wp_seq; [apply fastEmpty_wp; auto; eapply lok_ext; eauto|]. intros g3 [|] Hx2 Q2.
      + cbn [LazyFacts.wp]. apply made_empty; auto.
        intros x Hx0. specialize (Q2 eq_refl x Hx0). rewrite B2 in Q2 by auto. rewrite Q2. apply andb_false_r.
      + assert (Hx' : ext g1 g3) by (eapply ext_trans; eauto).
        eapply wp_mono; [apply memo_wp with (P := fun x => (P1 x && P2 x)%bool) (H := H1 /\ H2) (C := C1) (F := F1 /\ F2);
          simpl; auto; try tauto|].
        * split; eapply lok_ext; eauto.
        * intros x Hx0. rewrite (mem_filter (vok := vok) (mem (dl b)));
            [rewrite A2, B2; auto|eapply lok_allok; eauto|auto|apply mem_predOk; eapply lok_allok; eauto].
        * exact (conj A3 (B4 h2)).
        * intros [h _]. exact (conj (A4 h) (B4 h2)).
        * intros h. split; [exact (conj A3 (B4 h2))|apply A5; auto].
        * intros g4 r _ Hr. eapply made_imp; [exact Hr|..]; auto; tauto. }
  destruct e; exact Hu.
Qed.

(** *** Where and Map *)
Lemma where_wp P H N C F Z L e p g : made P H N C F Z L g e -> predOk (vok := vok) p ->
  wp (l_where e p) (made (fun x => P x && p x)%bool H True C True False L) g.
Proof.
  intros Ha Hp. unfold l_where. eapply wp_seq; [eapply deref_wp; eauto|].
  intros g1 e1 Hx [He Hn]. pose proof He as (A1 & A2 & A3 & A4 & A5 & A6 & A7 & A8 & A9).
  assert (Hu : wp (l_memo (LWhere e1 p)) (made (fun x => P x && p x)%bool H True C True False L) g1).
  { eapply wp_mono; [apply memo_wp with (P := fun x => (P x && p x)%bool) (H := H) (C := C) (F := True);
      simpl; auto; try tauto|].
    - intros x Hx0. rewrite (mem_filter (vok := vok)); auto; [rewrite A2; auto|eapply lok_allok; eauto].
    - intros g4 r _ Hr. eapply made_imp; [exact Hr|..]; auto; tauto. }
  destruct e1; auto. cbn [LazyFacts.wp].
  apply made_empty; [|intros h; apply (A9 h); auto]. intros x Hx0. specialize (A2 x Hx0). simpl in A2. rewrite <- A2. auto.
Qed.

(** *** Powerset *)
Lemma powerset_wp P (H N C : Prop) F Z L e l n g : made P H N C F Z L g e -> C ->
  allok l -> (forall x, vok x -> mem l x = P x) -> boxLaw (vok := vok) l -> cardIs l n -> (1 <= n <= 62)%Z ->
  wp (l_powerset e) (made (mem (pset l)) False True True True False True) g.
Proof.
  intros Ha Hc Hl Hm HB Hn Hle. unfold l_powerset. eapply wp_seq; [eapply deref_wp; eauto|].
  intros g1 e1 Hx [He Hn1]. destruct He as (A1 & A2 & A3 & A4 & A5 & A6 & A7 & A8 & A9).
  assert (Hml : forall x, vok x -> mem l x = mem (dl e1) x) by (intros x Hx0; rewrite A2; auto).
  assert (Ho : allok (dl e1)) by (eapply lok_allok; eauto).
  assert (Hu : wp (l_memo (LPow e1)) (made (mem (pset l)) False True True True False True) g1).
  { apply memo_wp; simpl; auto.
    - split; auto. split; auto. split; auto. split; [eapply boxLaw_mem; eauto|]. exists n. split; auto.
      eapply cardIs_ext; [|eauto]. auto.
    - intros x Hx0. symmetry. apply pset_ext; auto. }
  destruct e1; auto. exfalso. assert (n = 0%Z); [|lia]. apply (cardIs_unique (vok := vok) l); auto.
  apply (cardIs_ext []); [|apply cardIs_nil]. intros x Hx0. rewrite Hml; auto.
Qed.

Lemma mem_map (m : T -> T) (l : list T) (x : T) : mem (map m l) x = existsb (fun y => veq (m y) x) l.
Proof. unfold mem. induction l as [|a l IH]; auto. simpl. rewrite IH. auto. Qed.

(** The result has the images of the elements. *)
Lemma map_wp P H N C F Z L e m g : made P H N C F Z L g e -> mapOk (vok := vok) m ->
  forall P' : T -> bool,
  (forall x, vok x -> P' x = true <-> exists y, vok y /\ P y = true /\ veq (m y) x = true) ->
  wp (l_map e m) (made P' True True
    (Z \/ (C /\ forall y z, vok y -> vok z -> P y = true -> P z = true -> veq (m y) (m z) = true -> veq y z = true))
    True Z L) g.
Proof.
  intros Ha [Hm1 Hm2] P' HP'. unfold l_map. eapply wp_seq; [eapply deref_wp; eauto|].
  intros g1 e1 Hx [He Hn]. pose proof He as (A1 & A2 & A3 & A4 & A5 & A6 & A7 & A8 & A9).
  pose proof (lok_allok (vok := vok) _ _ A1) as Ho.
  assert (Hmem : forall x, vok x -> mem (map m (dl e1)) x = P' x).
  { intros x Hx0. apply eq_true_iff_eq. rewrite HP' by auto. rewrite mem_map, existsb_exists. split.
    - intros (y & Hy & Hv). exists y. split; [apply Ho; auto|]. split; auto. rewrite <- A2 by (apply Ho; auto).
      apply mem_true. exists y. split; auto. apply veq_refl. apply Ho; auto.
    - intros (y & Hy & Hpy & Hv). rewrite <- A2 in Hpy by auto. apply mem_true in Hpy as (z & Hz & Hzy).
      exists z. split; auto. apply (veq_trans (vok := vok)) with (m y); auto. }
  match goal with |- LazyFacts.wp _ ?Q _ => assert (Hu : ~ isFrozen e1 -> wp (l_memo (LMap e1 m)) Q g1) end.
  { intros HZ. assert (HnZ : ~ Z) by tauto.
    eapply wp_mono; [apply memo_wp with (P := P') (H := True) (F := True)
      (C := C /\ forall y z, vok y -> vok z -> P y = true -> P z = true -> veq (m y) (m z) = true -> veq y z = true);
      simpl; auto; try tauto|].
    - split; auto. split; auto.
    - intros [h1 h2]. split; [exact A3|]. split; [apply A5; auto|].
      intros y z Hy Hz Hy' Hz'. apply h2; auto; rewrite <- A2; auto.
    - intros g4 r _ Hr. eapply made_imp; [exact Hr|..]; auto; tauto. }
  destruct e1; auto.
  - cbn [LazyFacts.wp]. apply made_empty; [|intros h; apply (A9 h); auto].
    intros x Hx0. rewrite <- Hmem by auto. reflexivity.
  - destruct (s_map_ok (vok := vok) (uok := vok) s m A1) as (r & E1 & Hr & Hlk).
    { intros y Hy. apply Hm1. apply Ho. auto. }
    eapply wp_lift_bind; [exact E1|]. cbn [LazyFacts.wp]. apply made_frozen; auto. intros x Hx0.
    rewrite mem_lookup, Hlk, findLast_mem by auto. apply Hmem; auto.
Qed.

Lemma symdiff_wp P1 H1 N1 C1 F1 Z1 L1 P2 H2 N2 C2 F2 Z2 L2 a b g :
  made P1 H1 N1 C1 F1 Z1 L1 g a -> made P2 H2 N2 C2 F2 Z2 L2 g b -> H1 -> H2 ->
  wp (l_symmetricDifference a b) (made (fun x => xorb (P1 x) (P2 x)) False (L1 \/ N2) (C1 /\ C2) False False (L1 \/ L2)) g.
Proof.
  intros Ha Hb h1 h2. unfold l_symmetricDifference. eapply wp_seq; [eapply deref_wp; eauto|].
  intros g1 e Hx [He Hn]. apply (made_ext _ _ _ _ _ _ _ _ _ _ Hx) in Hb.
  match goal with |- LazyFacts.wp _ ?Q _ =>
    assert (Hu : e <> LEmpty -> wp (st <~ l_difference e b ;; ts <~ l_difference b e ;; l_union st ts) Q g1) end.
  { intros Hne. assert (He' : made P1 H1 C1 C1 F1 Z1 True g1 e) by (unfold made in He |- *; tauto).
    eapply wp_seq; [eapply difference_call_wp; eauto|]. intros g2 st Hx2 Hst.
    eapply wp_seq; [eapply difference_call_wp; [eapply made_ext; [|exact Hb]; auto|eapply made_ext; [|exact He']; auto|auto]|].
    intros g3 ts Hx3 Hts.
    eapply wp_mono; [eapply union_call_wp; [eapply made_ext; [|exact Hst]; auto|exact Hts]|].
    intros g4 r _ Hr. eapply made_imp; [exact Hr|..]; try tauto.
    - intros x Hx0. simpl. destruct (P1 x), (P2 x); auto.
    - intros [q1 q2]. split; auto. split; auto. intros x Hx0. destruct (P1 x), (P2 x); auto. }
  destruct e; try (apply Hu; discriminate). cbn [LazyFacts.wp].
  destruct He as (_ & He & _ & _ & _ & _ & _ & _ & HL).
  eapply made_imp; [exact Hb|..]; try tauto.
  intros x Hx0. specialize (He x Hx0). simpl in He. rewrite <- He. destruct (P2 x); auto.
Qed.

(** Hash folds the hashes of the elements, each once, in some order. *)
Lemma hash_wp : forall e seed g, lok g e -> countOk e ->
  wp (l_hash e seed) (fun _ h => exists l, allok l /\ distinct l /\ (forall x, vok x -> mem l x = mem (dl e) x) /\
    h = fold_left (fun h v => vhash v h) l (env_uintptr hashSeed seed)) g.
Proof.
  assert (Hbase : forall e seed g, lok g e -> countOk e ->
    wp (l <~ l_toList e ;; Ret (fold_left (fun h v => vhash v h) l (env_uintptr hashSeed seed)))
      (fun _ h => exists l, allok l /\ distinct l /\ (forall x, vok x -> mem l x = mem (dl e) x) /\
        h = fold_left (fun h v => vhash v h) l (env_uintptr hashSeed seed)) g).
  { intros e seed g Hl Hc. eapply wp_seq; [apply toList_wp; auto; apply (countOk_rangeOk (vok := vok)); auto|].
    intros g1 l _ (L1 & L2 & L3 & _). cbn [LazyFacts.wp]. exists l. split; auto. split; [apply L3, countOk_nodupE; auto|]. auto. }
  induction e as [|s|p src IH|a IHa b IHb|a IHa b IHb|a IHa b IHb|src IH q|src IH m|src IH];
    intros seed g Hl Hc; cbn [l_hash]; try (apply Hbase; auto; fail).
  - exists []. split; [apply allok_nil|]. split; [constructor|]. auto.
  - destruct Hl as (Hp & Hw & Hl). destruct Hc as [Hc Hr]. apply wp_load with (src := src); auto.
    intros g1 o Hx Hp1 [_ Hco]. destruct o as [f|].
    + destruct (Hco f eq_refl) as [Hf Hm]. eapply wp_mono; [apply (Hbase (LFrozen f)); auto; exact Logic.I|].
      intros g2 h _ (l & H1 & H2 & H3 & H4). exists l. split; auto. split; auto. split; auto.
      intros x Hx0. rewrite H3 by auto. simpl. auto.
    + apply IH; auto. eapply lok_ext; eauto.
Qed.

End LazyOps2.
