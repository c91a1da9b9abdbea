(** * LazyOps: the methods of lazy sets in the program logic of LazyFacts.v. *)
From Verif Require Import Base Bits Env EnvFacts Node NodeWf Iter Tree TreeFacts SetApi SetFacts ExtraFacts BitFacts PowersetFacts Lazy LazyLists LazyFacts.

Section LazyOps.
Context {E : Env} {HE : EnvOk E} {T : Type} {K : Key T} {vok : T -> Prop} {KO : KeyOk K vok} {B : Boxes T}.
Notation lset := (lset T).
Notation liter := (liter T).
Notation prog := (prog T).
Notation sok := (sok vok).
Notation bok := (SetFacts.bok (vok := vok)).
Notation allok := (NodeWf.allok vok).
Notation ghost := (@ghost T).
Notation wp := (wp (vok := vok)).
Notation lok := (lok (vok := vok)).
Notation itok := (itok (vok := vok)).
Notation nextPost := (nextPost (vok := vok)).
Notation cardIs := (cardIs (vok := vok)).
Notation countOk := (countOk (vok := vok)).
Notation mem_filter := (mem_filter (vok := vok)).

Lemma next_wp it g : itok g it -> wp (l_next it) (nextPost it) g.
Proof. intros H. apply lazy_spec; auto. Qed.

Lemma has_wp e el g : lok g e -> hasOk e -> vok el -> wp (l_has e el) (fun _ b => b = mem (dl e) el) g.
Proof. intros. apply lazy_spec; auto. Qed.

(** ** Iterating to the end *)

Definition drainPost (it : liter) (g : ghost) (l : list T) : Prop :=
  allok l /\ (forall x, vok x -> mem l x = mem (il it) x) /\ (ind (vok := vok) it -> distinct l) /\
  (forall p, target it = Some p -> done g p).

Lemma drain_wp n : forall it g, itok g it -> rem it < n -> wp (l_drain n it) (drainPost it) g.
Proof.
  induction n as [|n IH]; intros it g Hi Hn; [lia|]. cbn [l_drain].
  eapply wp_seq; [apply next_wp; auto|]. intros g1 [[|] it'] Hx; cbn [LazyFacts.nextPost].
  - intros (v & H1 & H2 & H3 & H4 & H5 & H6 & H7 & H8). apply wp_lift_bind with (a := v); auto.
    eapply wp_seq; [apply IH; auto; lia|]. intros g2 l Hx2 (D1 & D2 & D3 & D4). cbn [LazyFacts.wp].
    split; [apply allok_cons; auto|]. split; [|split].
    + intros x Hx0. rewrite H4 by auto. simpl. unfold mem in *. rewrite D2; auto.
    + intros Hd. destruct (H8 Hd) as [Hd' Hv]. constructor; auto. intros b Hb.
      rewrite (veq_comm (vok := vok)) by auto. apply mem_false with (l := l); auto. rewrite D2; auto.
    + intros p. rewrite <- H7. auto.
  - intros [H1 H2]. cbn [LazyFacts.wp]. split; [apply allok_nil|]. split; [|split]; auto.
    + intros x Hx0. rewrite H1; auto.
    + constructor.
Qed.

Definition listPost (e : lset) (g : ghost) (l : list T) : Prop :=
  allok l /\ (forall x, vok x -> mem l x = mem (dl e) x) /\ (nodupE (vok := vok) e -> distinct l) /\
  (forall p src, e = LMemo p src -> done g p).

Lemma toList_wp e g : lok g e -> rangeOk e -> wp (l_toList e) (listPost e) g.
Proof.
  intros Hl Hr. unfold l_toList. eapply wp_seq; [apply range_wp; auto|].
  intros g1 it Hx (H1 & H2 & H3 & H4 & H5 & H6). eapply wp_mono; [apply drain_wp; auto|].
  intros g2 l Hx2 (D1 & D2 & D3 & D4). split; auto. split; [|split]; auto.
  - intros x Hx0. rewrite D2, H2; auto.
  - intros p src Ep. destruct (H6 p src Ep) as [Hd|Ht]; auto. eapply done_ext; eauto.
Qed.

(** ** Freeze *)

Definition frozenAs (e : lset) (e' : lset) : Prop :=
  exists f, e' = LFrozen f /\ sok f /\ forall x, vok x -> mem (sel f) x = mem (dl e) x.

Lemma base_freeze_wp e g : raw e -> lok g e -> rangeOk e -> wp (base_freeze e) (fun _ => frozenAs e) g.
Proof.
  intros Hw Hl Hr. unfold base_freeze. cbn [LazyFacts.wp]. split; auto. split; auto. split; auto. intros g1 Hx1.
  set (g2 := g1 ++ [(e, false)]). assert (Hx12 : ext g1 g2) by apply ext_app.
  assert (Hp : nth_error g2 (length g1) = Some (e, false)).
  { unfold g2. rewrite nth_error_app2 by auto. rewrite Nat.sub_diag. reflexivity. }
  assert (Hl2 : lok g2 e).
  { eapply lok_ext; [|eauto]. eapply ext_trans; eauto. }
  eapply wp_seq; [apply toList_wp; simpl; eauto|]. intros g3 l Hx3 (_ & _ & _ & Hd).
  specialize (Hd _ _ eq_refl). apply wp_load with (src := e).
  - apply Hx3 in Hp as (d & Hp & _). eauto.
  - intros g4 o Hx4 Hp4 [_ Hc]. assert (Ho : isSome o = true).
    { destruct (done_ext g3 g4 _ Hx4 Hd) as (src & Hd'). rewrite Hd' in Hp4. congruence. }
    destruct o as [f|]; [|discriminate]. destruct (Hc f eq_refl) as [Hf Hm].
    cbn [LazyFacts.wp cur]. exists f. auto.
Qed.

Lemma freeze_wp e : forall g, lok g e -> rangeOk e -> wp (l_freeze e) (fun _ => frozenAs e) g.
Proof.
  induction e as [|s|p src IH|a IHa b IHb|a IHa b IHb|a IHa b IHb|src IH q|src IH m|src IH]; intros g Hl Hr;
    cbn [l_freeze]; try (apply base_freeze_wp; simpl; auto; fail).
  - exists s_empty. split; auto. split; [apply sok_empty|]. reflexivity.
  - exists s. auto.
  - destruct Hl as (Hp & Hw & Hl). apply wp_load with (src := src); auto.
    intros g1 o Hx Hp1 [_ Hc]. destruct o as [f|].
    + destruct (Hc f eq_refl) as [Hf Hm]. exists f. auto.
    + apply IH; auto. eapply lok_ext; eauto.
Qed.

(** ** FastIsEmpty and IsEmpty *)

Lemma mem_nil_iff l : allok l -> (l = [] <-> forall x, vok x -> mem l x = false).
Proof.
  intros Ho. split; [intros -> x _; reflexivity|]. intros H. destruct l as [|a l]; auto.
  assert (Ha : vok a) by (apply Ho; left; auto). specialize (H a Ha). simpl in H.
  rewrite veq_refl in H by auto. discriminate.
Qed.

Definition noneIn (e : lset) : Prop := forall x, vok x -> mem (dl e) x = false.

Lemma s_isEmpty_iff f : sok f -> s_isEmpty f = true <-> forall x, vok x -> mem (sel f) x = false.
Proof.
  intros Hf. rewrite (s_isEmpty_ok (vok := vok)) by auto. rewrite <- mem_nil_iff by (apply sok_allok; auto).
  destruct (sel f); split; auto; discriminate.
Qed.

(** A power set is not empty, and neither is its source. *)
Lemma pow_nonempty g src : lok g (LPow src) -> ~ noneIn src /\ ~ noneIn (LPow src).
Proof.
  intros (Hl & _ & _ & HB & n & Hn & Hle). assert (Ho : allok (dl src)) by (eapply lok_allok; eauto).
  assert (Hc : forall l k, cardIs l k -> (forall x, vok x -> mem l x = false) -> k = 0%Z).
  { intros l k Hk H. eapply (cardIs_unique (vok := vok) l); eauto. apply (cardIs_ext []); [|apply cardIs_nil].
    intros x Hx. rewrite H; auto. }
  split; intros H.
  - apply (Hc _ n) in H; auto. lia.
  - apply (Hc _ (2 ^ n)%Z) in H; [|apply pset_card; auto]. assert (0 < 2 ^ n)%Z by (apply Z.pow_pos_nonneg; lia). lia.
Qed.

Lemma fastIsEmpty_wp e : forall g, lok g e -> rangeOk e ->
  wp (l_fastIsEmpty e) (fun _ r => forall b, r = Some b -> (b = true <-> noneIn e)) g.
Proof.
  induction e as [|s|p src IH|a IHa b IHb|a IHa b IHb|a IHa b IHb|src IH q|src IH m|src IH]; intros g Hl Hr;
    cbn [l_fastIsEmpty]; try (intros ? [=]; fail).
  - intros b [= <-]. split; auto. intros _ x _. reflexivity.
  - intros b [= <-]. apply s_isEmpty_iff; auto.
  - destruct Hl as (Hp & Hw & Hl). simpl in Hr. apply wp_load with (src := src); auto.
    intros g1 o Hx Hp1 [_ Hc]. destruct o as [f|].
    + destruct (Hc f eq_refl) as [Hf Hm]. specialize (Hm Hr). intros b [= <-]. rewrite s_isEmpty_iff by auto.
      unfold noneIn. simpl. split; intros H x Hx0; specialize (H x Hx0); rewrite <- H; [symmetry|]; auto.
    + apply IH; auto. eapply lok_ext; eauto.
  - destruct Hl as [Hl Hq]. eapply wp_seq; [apply IH; auto|]. intros g1 r Hx H. cbn [LazyFacts.wp].
    destruct r as [[|]|]; try discriminate. intros b [= <-]. split; auto. intros _ x Hx0. simpl.
    rewrite mem_filter by eauto using lok_allok. rewrite (proj1 (H true eq_refl)); auto.
  - eapply wp_mono; [apply IH; auto; apply Hl|]. intros g1 r _ H b Hb. destruct (pow_nonempty g src Hl) as [H1 H2].
    rewrite (H b Hb). tauto.
Qed.

Lemma rem0_next it g : itok g it -> wp (l_next it) (fun _ r => fst r = negb (match il it with [] => true | _ => false end)) g.
Proof.
  intros Hi. assert (Ho : allok (il it)) by (eapply itok_allok; eauto).
  eapply wp_mono; [apply next_wp; auto|]. intros g1 [[|] it'] _; cbn [LazyFacts.nextPost fst].
  - intros (v & _ & Hv & _ & H4 & _). destruct (il it) as [|a l]; auto. specialize (H4 v Hv). simpl in H4.
    rewrite veq_refl in H4 by auto. discriminate.
  - intros [H1 _]. apply mem_nil_iff in H1; auto. rewrite H1. reflexivity.
Qed.

Lemma isEmpty_wp : forall e g, lok g e -> rangeOk e ->
  wp (l_isEmpty e) (fun _ b => b = true <-> noneIn e) g.
Proof.
  assert (Hbase : forall e g, lok g e -> rangeOk e ->
    wp (r <~ l_fastIsEmpty e ;;
        match r with
        | Some b => Ret b
        | None => it <~ l_range e ;; '(ok, _) <~ l_next it ;; Ret (negb ok)
        end) (fun _ b => b = true <-> noneIn e) g).
  { intros e g Hl Hr. eapply wp_seq; [apply fastIsEmpty_wp; auto|]. intros g1 [b|] Hx H.
    - cbn [LazyFacts.wp]. auto.
    - eapply wp_seq; [apply range_wp; auto; eapply lok_ext; eauto|]. intros g2 it Hx2 (H1 & H2 & _).
      eapply wp_seq; [apply rem0_next; eauto|]. intros g3 [ok it'] _. cbn [fst LazyFacts.wp]. intros ->.
      rewrite negb_involutive. assert (Ho : allok (il it)) by (eapply itok_allok; eauto).
      transitivity (il it = []); [destruct (il it); split; auto; discriminate|].
      rewrite mem_nil_iff by auto. unfold noneIn. split; intros Hm x Hx0; specialize (Hm x Hx0); rewrite <- Hm; auto.
      symmetry; auto. }
  induction e as [|s|p src IH|a IHa b IHb|a IHa b IHb|a IHa b IHb|src IH q|src IH m|src IH]; intros g Hl Hr;
    cbn [l_isEmpty]; try (apply Hbase; auto; fail).
  - split; auto. intros _ x _. reflexivity.
  - apply s_isEmpty_iff; auto.
  - destruct Hl as (Hp & Hw & Hl). simpl in Hr. apply wp_load with (src := src); auto.
    intros g1 o Hx Hp1 [_ Hc]. destruct o as [f|].
    + destruct (Hc f eq_refl) as [Hf Hm]. specialize (Hm Hr). cbn [LazyFacts.wp]. rewrite s_isEmpty_iff by auto.
      unfold noneIn. simpl. split; intros H x Hx0; specialize (H x Hx0); rewrite <- H; [symmetry|]; auto.
    + apply IH; auto. eapply lok_ext; eauto.
  - eapply wp_mono; [apply IH; auto; apply Hl|]. intros g1 r _ H. destruct (pow_nonempty g src Hl) as [H1 H2].
    rewrite H. tauto.
Qed.

(** ** FastHas *)

(** Expressions whose [FastHas] answers correctly. *)
Fixpoint fastOk (e : lset) : Prop :=
  match e with
  | LEmpty | LFrozen _ | LWhere _ _ | LMap _ _ | LPow _ => True
  | LMemo _ src => fastOk src /\ rangeOk src
  | LInter a b => fastOk a /\ fastOk b
  | LUnion _ _ | LDiff _ _ => False
  end.

Lemma fastHas_wp e el : vok el -> forall g, lok g e -> fastOk e ->
  wp (l_fastHas e el) (fun _ r => forall b, r = Some b -> b = mem (dl e) el) g.
Proof.
  intros Hv.
  induction e as [|s|p src IH|a IHa b IHb|a IHa b IHb|a IHa b IHb|src IH q|src IH m|src IH]; intros g Hl Hr;
    cbn [l_fastHas]; try (intros ? [=]; fail); try (destruct Hr; fail).
  - intros b [= <-]. reflexivity.
  - eapply wp_lift_bind; [apply (s_has_ok (vok := vok)); auto|]. intros b [= <-]. rewrite <- mem_lookup. auto.
  - destruct Hl as (Hp & Hw & Hl). destruct Hr as [Hf Hr]. apply wp_load with (src := src); auto.
    intros g1 o Hx Hp1 [_ Hc]. destruct o as [f|].
    + destruct (Hc f eq_refl) as [Hfo Hm]. eapply wp_lift_bind; [apply (s_has_ok (vok := vok)); auto|].
      intros b [= <-]. rewrite <- mem_lookup. simpl. auto.
    + apply IH; auto. eapply lok_ext; eauto.
  - destruct Hl as [Ha Hb]. destruct Hr as [Fa Fb]. eapply wp_seq; [apply IHa; auto|]. intros g1 r1 Hx1 H1.
    assert (Hmem : mem (dl (LInter a b)) el = (mem (dl a) el && mem (dl b) el)%bool).
    { simpl. apply mem_filter; eauto using lok_allok, mem_predOk. }
    rewrite Hmem. assert (Hb1 : lok g1 b) by (eapply lok_ext; eauto).
    destruct r1 as [[|]|].
    + eapply wp_seq; [apply IHb; auto|]. intros g2 r2 Hx2 H2. rewrite <- (H1 true) by auto.
      destruct r2 as [[|]|]; cbn [LazyFacts.wp]; intros y [= <-]; rewrite <- (H2 _ eq_refl); auto.
    + cbn [LazyFacts.wp]. intros y [= <-]. rewrite <- (H1 false) by auto. auto.
    + eapply wp_seq; [apply IHb; auto|]. intros g2 r2 Hx2 H2.
      destruct r2 as [[|]|]; cbn [LazyFacts.wp]; intros y [= <-]. rewrite <- (H2 _ eq_refl). rewrite andb_false_r. auto.
Qed.

(** ** Counting *)

Lemma cardIs_set f : sok f -> cardIs (sel f) (s_count f).
Proof.
  intros Hf. exists (sel f). split; [apply sok_allok; auto|]. split; [apply (sok_distinct (vok := vok)); auto|].
  split; auto. apply (s_count_ok (vok := vok)); auto.
Qed.

Lemma countOk_rangeOk e : countOk e -> rangeOk e.
Proof. destruct e; intros H; try exact Logic.I; try (destruct H; fail); destruct H as [H1 H2]; auto; split; tauto. Qed.

(** The counting loop on an iterator that gives no value twice. *)
Lemma countLoop_wp n : forall it c limit g k, itok g it -> ind (vok := vok) it -> rem it < n ->
  (c <= limit)%Z -> cardIs (il it) k -> wp (countLoop n it c limit) (fun _ r => r = Z.min limit (c + k)) g.
Proof.
  induction n as [|n IH]; intros it c limit g k Hi Hd Hn Hc Hk; [lia|]. cbn [countLoop].
  pose proof (card_nonneg _ _ Hk) as Hk0.
  destruct (Z.ltb_spec c limit) as [Hlt|Hge]; [|cbn [LazyFacts.wp]; lia].
  eapply wp_seq; [apply next_wp; auto|]. intros g1 [[|] it'] Hx; cbn [LazyFacts.nextPost].
  - intros (v & H1 & H2 & H3 & H4 & H5 & H6 & _ & H8). destruct (H8 Hd) as [Hd' Hv].
    destruct (card_step (il it) (il it') v k) as (k' & Hk' & ->); auto; [eapply itok_allok; eauto|].
    eapply wp_mono; [apply IH; eauto; lia|]. intros g2 r _ ->. lia.
  - intros [H1 _]. cbn [LazyFacts.wp]. assert (k = 0%Z); [|lia]. apply (cardIs_unique (il it)); auto.
    apply (cardIs_ext []); [|apply cardIs_nil]. intros x Hx0. rewrite H1; auto.
Qed.

Definition upto (limit n : Z) : Z := Z.min limit n.

Lemma upTo_min n limit : upTo n limit = Z.min limit n.
Proof. unfold upTo. destruct (Z.ltb_spec n limit); lia. Qed.

(** A range over a set, counted. *)
Lemma base_count_wp e limit g k : lok g e -> rangeOk e -> nodupE (vok := vok) e -> (0 <= limit)%Z -> cardIs (dl e) k ->
  wp (base_countUpTo None (l_range e) limit) (fun _ r => r = Z.min limit k) g.
Proof.
  intros Hl Hr Hn Hlim Hk. unfold base_countUpTo. eapply wp_seq; [apply range_wp; auto|].
  intros g1 it Hx (H1 & H2 & H3 & H4 & H5 & _). eapply wp_mono; [apply countLoop_wp with (k := k); auto|].
  - eapply cardIs_ext; [|eauto]. intros x Hx0. symmetry. auto.
  - intros g2 r _ ->. f_equal.
Qed.

Lemma card_union_empty_l a b k : (forall x, vok x -> mem a x = false) -> cardIs (a ++ b) k -> cardIs b k.
Proof. intros H. apply cardIs_ext. intros x Hx. rewrite mem_app, H; auto. Qed.

Lemma card_union_empty_r a b k : (forall x, vok x -> mem b x = false) -> cardIs (a ++ b) k -> cardIs a k.
Proof. intros H. apply cardIs_ext. intros x Hx. rewrite mem_app, H by auto. apply orb_false_r. Qed.

Lemma pow2_ok c : (0 <= c <= 62)%Z -> pow2 (T := T) c = Ret (2 ^ c)%Z.
Proof.
  intros H. unfold pow2. replace (c <? 64)%Z with true by lia. f_equal. apply int64_id. unfold isInt.
  assert (2 ^ c <= 2 ^ 62)%Z by (apply Z.pow_le_mono_r; lia). assert (0 < 2 ^ c)%Z by (apply Z.pow_pos_nonneg; lia). lia.
Qed.

Lemma fastCount_wp e : forall g k, lok g e -> rangeOk e -> cardIs (dl e) k ->
  wp (l_fastCount e) (fun _ r => forall c, r = Some c -> c = k) g.
Proof.
  induction e as [|s|p src IH|a IHa b IHb|a IHa b IHb|a IHa b IHb|src IH q|src IH m|src IH];
    intros g k Hl Hr Hk; cbn [l_fastCount]; try (intros c [=]; fail).
  - intros c [= <-]. apply (cardIs_unique []); auto using cardIs_nil.
  - intros c [= <-]. apply (cardIs_unique (sel s)); auto using cardIs_set.
  - destruct Hl as (Hp & Hw & Hl). simpl in Hr. apply wp_load with (src := src); auto.
    intros g1 o Hx Hp1 [_ Hcell]. destruct o as [f|].
    + destruct (Hcell f eq_refl) as [Hf Hmm]. specialize (Hmm Hr). cbn [LazyFacts.wp]. intros c [= <-].
      apply (cardIs_unique (sel f)); [apply cardIs_set; auto|].
      eapply cardIs_ext; [|eauto]. intros x Hx0. symmetry. auto.
    + apply IH; auto. eapply lok_ext; eauto.
  - assert (Hl' := Hl). destruct Hl' as (Hl1 & _ & _ & HB & n & Hn & Hle). simpl in Hr.
    assert (k = 2 ^ n)%Z as ->.
    { apply (cardIs_unique (vok := vok) (pset (dl src))); auto. apply pset_card; auto. eapply lok_allok; eauto. }
    eapply wp_seq; [apply IH; eauto|]. intros g1 [c|] _ H; [|intros c [=]].
    rewrite (H c eq_refl), pow2_ok by lia. intros c' [= <-]. auto.
Qed.

Lemma countUpTo_wp : forall e fast limit g k, lok g e -> countOk e -> (0 <= limit)%Z -> cardIs (dl e) k ->
  wp (l_countUpTo_ fast e limit)
     (fun _ r => (fast = false -> r <> None) /\ forall c, r = Some c -> c = Z.min limit k) g.
Proof.
  assert (Hbase : forall e (fast : bool) limit g k, lok g e -> rangeOk e -> nodupE (vok := vok) e -> (0 <= limit)%Z -> cardIs (dl e) k ->
    wp (if fast then Ret None else c <~ base_countUpTo None (l_range e) limit ;; Ret (Some c))
     (fun _ r => (fast = false -> r <> None) /\ forall c, r = Some c -> c = Z.min limit k) g).
  { intros e fast limit g k Hl Hr Hn Hlim Hk. destruct fast.
    - cbn [LazyFacts.wp]. split; [discriminate|]. intros c [=].
    - eapply wp_seq; [apply base_count_wp; eauto|]. intros g1 c _ ->. cbn [LazyFacts.wp]. split; [discriminate|].
      intros c [= <-]. auto. }
  induction e as [|s|p src IH|a IHa b IHb|a IHa b IHb|a IHa b IHb|src IH q|src IH m|src IH];
    intros fast limit g k Hl Hr Hlim Hk; cbn [l_countUpTo_];
    try (apply Hbase; simpl in *; tauto).
  - cbn [LazyFacts.wp]. split; [discriminate|]. intros c [= <-].
    assert (k = 0%Z) by (apply (cardIs_unique []); auto using cardIs_nil). lia.
  - cbn [LazyFacts.wp]. split; [discriminate|]. intros c [= <-]. rewrite upTo_min.
    rewrite (cardIs_unique (sel s) k (s_count s)); auto using cardIs_set.
  - destruct Hl as (Hp & Hw & Hl). destruct Hr as [Hc Hr]. apply wp_load with (src := src); auto.
    intros g1 o Hx Hp1 [_ Hcell]. destruct o as [f|].
    + destruct (Hcell f eq_refl) as [Hf Hm]. specialize (Hm Hr). cbn [LazyFacts.wp]. split; [discriminate|].
      intros c [= <-]. rewrite upTo_min. f_equal. apply (cardIs_unique (sel f)); [apply cardIs_set; auto|].
      eapply cardIs_ext; [|eauto]. intros x Hx0. symmetry. auto.
    + apply IH; auto. eapply lok_ext; eauto.
  - destruct Hl as [La Lb]. destruct Hr as (Ca & Cb & Ra & Rb & Hnd). cbn [dl] in Hk.
    destruct (card_exists (dl a)) as [ka Ka]; [eapply lok_allok; eauto|].
    destruct (card_exists (dl b)) as [kb Kb]; [eapply lok_allok; eauto|].
    assert (Hka : (ka <= k)%Z).
    { apply (card_le (dl a) (dl a ++ dl b)); auto. intros x Hx H. rewrite mem_app, H. auto. }
    assert (Hkb : (kb <= k)%Z).
    { apply (card_le (dl b) (dl a ++ dl b)); auto. intros x Hx H. rewrite mem_app, H. apply orb_true_r. }
    eapply wp_seq with (P := fun _ r => forall c, r = Some c -> c = Z.min limit k).
    + eapply wp_seq; [apply fastIsEmpty_wp; auto|]. intros g1 ea Hx1 Ea.
      assert (La1 : lok g1 a) by (eapply lok_ext; eauto). assert (Lb1 : lok g1 b) by (eapply lok_ext; eauto).
      destruct ea as [[|]|].
      * eapply wp_mono; [apply IHb with (k := k); auto|intros g2 r _ [_ H]; auto].
        eapply card_union_empty_l; eauto. apply (Ea true); auto.
      * eapply wp_seq; [apply fastIsEmpty_wp; auto|]. intros g2 eb Hx2 Eb.
        assert (La2 : lok g2 a) by (eapply lok_ext; eauto). assert (Lb2 : lok g2 b) by (eapply lok_ext; eauto).
        assert (Hrest : wp (ca <~ l_countUpTo_ true a limit ;;
                    if match ca with Some c => (c =? limit)%Z | None => false end then Ret ca
                    else
                      cb <~ l_countUpTo_ true b limit ;;
                      if match cb with Some c => (c =? limit)%Z | None => false end then Ret cb
                      else Ret None) (fun _ r => forall c, r = Some c -> c = Z.min limit k) g2).
        { eapply wp_seq; [apply IHa; eauto|]. intros g3 ca Hx3 [_ Hca].
          destruct (match ca with Some c => (c =? limit)%Z | None => false end) eqn:T1.
          - cbn [LazyFacts.wp]. intros c ->. apply Z.eqb_eq in T1. specialize (Hca _ eq_refl). lia.
          - eapply wp_seq; [apply IHb; eauto; eapply lok_ext; eauto|]. intros g4 cb Hx4 [_ Hcb].
            destruct (match cb with Some c => (c =? limit)%Z | None => false end) eqn:T2.
            + cbn [LazyFacts.wp]. intros c ->. apply Z.eqb_eq in T2. specialize (Hcb _ eq_refl). lia.
            + cbn [LazyFacts.wp]. intros c [=]. }
        destruct eb as [[|]|]; auto.
        eapply wp_mono; [apply IHa with (k := k); auto|intros g3 r _ [_ H]; auto].
        eapply card_union_empty_r; eauto. apply (Eb true); auto.
      * eapply wp_seq; [apply fastIsEmpty_wp; auto|]. intros g2 eb Hx2 Eb.
        assert (La2 : lok g2 a) by (eapply lok_ext; eauto). assert (Lb2 : lok g2 b) by (eapply lok_ext; eauto).
        assert (Hrest : wp (ca <~ l_countUpTo_ true a limit ;;
                    if match ca with Some c => (c =? limit)%Z | None => false end then Ret ca
                    else
                      cb <~ l_countUpTo_ true b limit ;;
                      if match cb with Some c => (c =? limit)%Z | None => false end then Ret cb
                      else Ret None) (fun _ r => forall c, r = Some c -> c = Z.min limit k) g2).
        { eapply wp_seq; [apply IHa; eauto|]. intros g3 ca Hx3 [_ Hca].
          destruct (match ca with Some c => (c =? limit)%Z | None => false end) eqn:T1.
          - cbn [LazyFacts.wp]. intros c ->. apply Z.eqb_eq in T1. specialize (Hca _ eq_refl). lia.
          - eapply wp_seq; [apply IHb; eauto; eapply lok_ext; eauto|]. intros g4 cb Hx4 [_ Hcb].
            destruct (match cb with Some c => (c =? limit)%Z | None => false end) eqn:T2.
            + cbn [LazyFacts.wp]. intros c ->. apply Z.eqb_eq in T2. specialize (Hcb _ eq_refl). lia.
            + cbn [LazyFacts.wp]. intros c [=]. }
        destruct eb as [[|]|]; auto.
        eapply wp_mono; [apply IHa with (k := k); auto|intros g3 r _ [_ H]; auto].
        eapply card_union_empty_r; eauto. apply (Eb true); auto.
    + intros g1 r Hx1 Hres. destruct fast.
      * cbn [LazyFacts.wp]. split; [discriminate|]. auto.
      * destruct r as [c|].
        -- cbn. split; [discriminate|]. intros c' [= <-]. auto.
        -- eapply wp_seq with (P := fun _ r => r = Z.min limit k).
           ++ apply base_count_wp; [split; eapply lok_ext; eauto|split; auto|exact Hnd|auto|auto].
           ++ intros g2 c _ ->. cbn [LazyFacts.wp]. split; [discriminate|]. intros c [= <-]. auto.
  - assert (Hl' := Hl). destruct Hl' as (Hl1 & _ & _ & HB & n & Hn & Hle). destruct Hr as [Hc Hr].
    assert (k = 2 ^ n)%Z as ->.
    { apply (cardIs_unique (vok := vok) (pset (dl src))); auto. apply pset_card; auto. eapply lok_allok; eauto. }
    eapply wp_seq with (P := fun _ r => forall c, r = Some c -> c = Z.min limit (2 ^ n)%Z).
    + eapply wp_seq; [apply fastCount_wp; eauto|]. intros g1 [c|] _ H; [|cbn [LazyFacts.wp]; intros c [=]].
      rewrite (H c eq_refl), pow2_ok by lia. intros c' [= <-]. apply upTo_min.
    + intros g1 r Hx1 Hres. destruct fast.
      * cbn [LazyFacts.wp]. split; [discriminate|]. auto.
      * destruct r as [c|].
        -- cbn. split; [discriminate|]. intros c' [= <-]. auto.
        -- eapply wp_seq with (P := fun _ r => r = Z.min limit (2 ^ n)%Z).
           ++ apply base_count_wp; [eapply lok_ext; eauto|exact Hr|exact Logic.I|auto|exact Hk].
           ++ intros g2 c _ ->. cbn [LazyFacts.wp]. split; [discriminate|]. intros c [= <-]. auto.
Qed.

Lemma count_wp : forall e g k, lok g e -> countOk e -> cardIs (dl e) k -> (k <= maxInt)%Z ->
  wp (l_count e) (fun _ r => r = k) g.
Proof.
  assert (Hbase : forall e g k, lok g e -> countOk e -> cardIs (dl e) k -> (k <= maxInt)%Z ->
    wp (l_countUpTo e maxInt) (fun _ r => r = k) g).
  { intros e g k Hl Hc Hk Hm. unfold l_countUpTo. eapply wp_seq.
    - apply countUpTo_wp with (k := k); auto. unfold maxInt. lia.
    - intros g1 [c|] _ [H1 H2]; [|destruct (H1 eq_refl); auto]. cbn [LazyFacts.wp].
      rewrite (H2 c eq_refl). lia. }
  induction e as [|s|p src IH|a IHa b IHb|a IHa b IHb|a IHa b IHb|src IH q|src IH m|src IH];
    intros g k Hl Hr Hk Hm; cbn [l_count]; try (apply Hbase; auto; fail).
  - apply (cardIs_unique []); auto using cardIs_nil.
  - apply (cardIs_unique (sel s)); auto using cardIs_set.
  - destruct Hl as (Hp & Hw & Hl). destruct Hr as [Hc Hr]. apply wp_load with (src := src); auto.
    intros g1 o Hx Hp1 [_ Hcell]. destruct o as [f|].
    + destruct (Hcell f eq_refl) as [Hf Hmm]. specialize (Hmm Hr). cbn [LazyFacts.wp].
      apply (cardIs_unique (sel f)); [apply cardIs_set; auto|].
      eapply cardIs_ext; [|eauto]. intros x Hx0. symmetry. auto.
    + apply IH; auto. eapply lok_ext; eauto.
  - assert (Hl' := Hl). destruct Hl' as (Hl1 & _ & _ & HB & n & Hn & Hle). destruct Hr as [Hc Hr].
    assert (k = 2 ^ n)%Z as ->.
    { apply (cardIs_unique (vok := vok) (pset (dl src))); auto. apply pset_card; auto. eapply lok_allok; eauto. }
    eapply wp_seq; [apply IH; eauto; unfold maxInt; lia|]. intros g1 c _ ->. rewrite pow2_ok by lia. reflexivity.
Qed.

End LazyOps.
