(** * LazyWeak: calls that may answer wrongly still end, do not panic, and leave the memo pointers in order. *)
From Verif Require Import Base Bits Env EnvFacts Node NodeWf Iter Tree TreeFacts SetApi SetFacts ExtraFacts
  BitFacts PowersetFacts Lazy LazyLists LazyFacts LazyOps LazyOps2.

Section LazyWeak.
Context {E : Env} {HE : EnvOk E} {T : Type} {K : Key T} {vok : T -> Prop} {KO : KeyOk K vok} {B : Boxes T}.
Notation lset := (lset T).
Notation liter := (liter T).
Notation prog := (prog T).
Notation sok := (sok vok).
Notation ghost := (@ghost T).
Notation wp := (wp (vok := vok)).
Notation lok := (lok (vok := vok)).
Notation itok := (itok (vok := vok)).

(** The program ends. *)
Notation ends m g := (wp m (fun _ _ => True) g).

Lemma s_has_ends s el g : sok s -> vok el -> ends (lift (s_has s el)) g.
Proof. intros. eapply wp_lift; [apply (s_has_ok (vok := vok)); auto|auto]. Qed.

Lemma subLoop_ends n : forall s c it g, sok s -> itok g it -> rem it + icost it < n -> ends (subLoop n s c it) g.
Proof.
  induction n as [|n IH]; intros s c it g Hs Hi Hn; [lia|]. cbn [subLoop]. destruct (0 <? c)%Z; [|exact Logic.I].
  eapply wp_seq; [apply lazy_spec; auto; lia|].
  intros g1 [[|] it'] Hx; cbn [LazyFacts.nextPost]; [|intros; exact Logic.I].
  intros (v & H1 & H2 & H3 & H4 & H5 & H6 & _). apply wp_lift_bind with (a := v); auto.
  eapply wp_lift_bind; [apply (s_has_ok (vok := vok)); auto|]. apply IH; auto. lia.
Qed.

Lemma has_ends n : forall e el g, lok g e -> rangeOk e -> vok el -> cost e <= n -> ends (has n e el) g.
Proof.
  induction n as [|n IH]; intros e el g Hl Hr Hv Hn; [pose proof (cost_pos e); lia|].
  destruct e as [|s|p src|a b|a b|a b|src q|src m|src]; simpl in Hn.
  - exact Logic.I.
  - apply s_has_ends; auto.
  - cbn [has]. destruct Hl as (Hp & Hw & Hl). change (rangeOk src) in Hr. apply wp_load with (src := src); auto.
    intros g1 o Hx Hp1 [_ Hc]. destruct o as [f|].
    + destruct (Hc f eq_refl) as [Hf _]. apply s_has_ends; auto.
    + apply IH; auto; [eapply lok_ext; eauto|lia].
  - cbn [has]. destruct Hl as [Ha Hb]. destruct Hr as [Ra Rb]. eapply wp_seq; [apply IH; auto; lia|].
    intros g1 [|] Hx _; [exact Logic.I|]. apply IH; auto; [eapply lok_ext; eauto|lia].
  - cbn [has]. destruct Hl as [Ha Hb]. destruct Hr as [Ra Rb]. apply hasOk_rangeOk in Rb.
    eapply wp_seq; [apply IH; auto; lia|].
    intros g1 [|] Hx _; [|exact Logic.I]. apply IH; auto; [eapply lok_ext; eauto|lia].
  - cbn [has]. destruct Hl as [Ha Hb]. destruct Hr as [Ra Rb]. apply hasOk_rangeOk in Rb.
    eapply wp_seq; [apply IH; auto; lia|].
    intros g1 [|] Hx _; [exact Logic.I|]. apply IH; auto; [eapply lok_ext; eauto|lia].
  - cbn [has]. destruct Hl as [Ha Hq]. change (rangeOk src) in Hr. destruct (q el); [|exact Logic.I]. apply IH; auto. lia.
  - eapply wp_mono; [apply (proj1 (proj2 (lazy_spec (S n)))); [exact Hl|exact Hr|exact Hv|simpl; lia]|]. auto.
  - cbn [has]. destruct Hl as (Hl & _ & _ & (_ & _ & HU) & _). change (rangeOk src) in Hr.
    destruct (unbox el) as [ss|] eqn:Eu; [|exact Logic.I]. assert (Hss : sok ss) by (apply rok_ok; eauto).
    assert (Hloop : forall g1, ext g g1 -> ends (i <~ l_range src ;; subLoop n ss (s_count ss) i) g1).
    { intros g1 Hx. eapply wp_seq; [apply range_wp; auto; eapply lok_ext; eauto|].
      intros g2 it _ (H1 & _ & H3 & H4 & _). apply subLoop_ends; auto. lia. }
    destruct src as [|s'|p src|a b|a b|a b|src q|src m|src]; try (apply Hloop, ext_refl; fail).
    pose proof Hl as (Hp & Hw & Hl'). apply wp_load with (src := src); auto.
    intros g1 o Hx Hp1 [_ Hc]. destruct o as [f|]; [|apply Hloop; auto].
    destruct (Hc f eq_refl) as [Hf Hm]. change (rangeOk src) in Hr. specialize (Hm Hr).
    destruct (itok_frozen (vok := vok) g1 f Hf) as [Hi _]. apply subLoop_ends; auto.
    rewrite (rem_frozen (vok := vok)) by auto. simpl. simpl in Hn.
    assert (length (sel f) <= bound src) by (eapply (frozen_bound (vok := vok)); eauto). lia.
Qed.

Lemma fastHas_ends e el : vok el -> forall g, lok g e -> ends (l_fastHas e el) g.
Proof.
  intros Hv.
  induction e as [|s|p src IH|a IHa b IHb|a IHa b IHb|a IHa b IHb|src IH q|src IH m|src IH]; intros g Hl;
    cbn [l_fastHas]; try exact Logic.I.
  - eapply wp_lift_bind; [apply (s_has_ok (vok := vok)); auto|exact Logic.I].
  - destruct Hl as (Hp & Hw & Hl). apply wp_load with (src := src); auto.
    intros g1 o Hx Hp1 [_ Hc]. destruct o as [f|].
    + destruct (Hc f eq_refl) as [Hf _]. eapply wp_lift_bind; [apply (s_has_ok (vok := vok)); auto|exact Logic.I].
    + apply IH. eapply lok_ext; eauto.
  - destruct Hl as [Ha Hb]. eapply wp_seq; [apply IHa; auto|]. intros g1 [x|] Hx _; [exact Logic.I|].
    apply IHa. eapply lok_ext; eauto.
  - destruct Hl as [Ha Hb]. eapply wp_seq; [apply IHa; auto|]. intros g1 r1 Hx _.
    assert (H2 : forall j : option bool -> prog (option bool), (forall g' r, ends (j r) g') -> ends (r2 <~ l_fastHas b el ;; j r2) g1).
    { intros j Hj. eapply wp_seq; [apply IHb; eapply lok_ext; eauto|]. intros; apply Hj. }
    destruct r1 as [[|]|]; try exact Logic.I; apply H2; intros g' [[|]|]; exact Logic.I.
  - destruct Hl as [Ha Hb]. eapply wp_seq; [apply IHa; auto|]. intros g1 [x|] Hx _; [exact Logic.I|].
    apply IHa. eapply lok_ext; eauto.
Qed.

Lemma countLoop_ends n : forall it c limit g, itok g it -> rem it < n -> ends (countLoop n it c limit) g.
Proof.
  induction n as [|n IH]; intros it c limit g Hi Hn; [lia|]. cbn [countLoop].
  destruct (c <? limit)%Z; [|exact Logic.I].
  eapply wp_seq; [apply next_wp; auto|]. intros g1 [[|] it'] Hx; cbn [LazyFacts.nextPost]; [|intros; exact Logic.I].
  intros (v & H1 & H2 & H3 & H4 & H5 & H6 & _). apply IH; auto. lia.
Qed.

Lemma base_count_ends e r limit g : lok g e -> rangeOk e -> ends (base_countUpTo r (l_range e) limit) g.
Proof.
  intros Hl Hr. unfold base_countUpTo. destruct r; [exact Logic.I|].
  eapply wp_seq; [apply range_wp; auto|]. intros g1 it Hx (H1 & _). apply countLoop_ends; auto.
Qed.

Lemma countUpTo_ends : forall e fast limit g, lok g e -> rangeOk e ->
  wp (l_countUpTo_ fast e limit) (fun _ r => fast = false -> r <> None) g.
Proof.
  assert (Hbase : forall e (fast : bool) r limit g, lok g e -> rangeOk e ->
    wp (if fast then Ret r else c <~ base_countUpTo r (l_range e) limit ;; Ret (Some c))
       (fun _ r => fast = false -> r <> None) g).
  { intros e [|] r limit g Hl Hr; [discriminate|]. eapply wp_seq; [apply base_count_ends; auto|].
    intros; discriminate. }
  induction e as [|s|p src IH|a IHa b IHb|a IHa b IHb|a IHa b IHb|src IH q|src IH m|src IH];
    intros fast limit g Hl Hr; cbn [l_countUpTo_]; try (apply Hbase; auto; fail); try discriminate.
  - destruct Hl as (Hp & Hw & Hl). change (rangeOk src) in Hr. apply wp_load with (src := src); auto.
    intros g1 o Hx Hp1 _. destruct o as [f|]; [discriminate|]. apply IH; auto. eapply lok_ext; eauto.
  - pose proof Hl as [Ha Hb]. pose proof Hr as [Ra Rb].
    eapply wp_seq with (P := fun _ _ => True).
    + eapply wp_seq; [apply fastIsEmpty_wp; auto|]. intros g1 ea Hx1 _.
      assert (Hlb : lok g1 b) by (eapply lok_ext; eauto). assert (Hla : lok g1 a) by (eapply lok_ext; eauto).
      assert (Hmid : ends (eb <~ l_fastIsEmpty b ;;
        match eb with
        | Some true => l_countUpTo_ false a limit
        | _ =>
            ca <~ l_countUpTo_ true a limit ;;
            if match ca with Some c => c =? limit | None => false end then Ret ca
            else
              cb <~ l_countUpTo_ true b limit ;;
              if match cb with Some c => c =? limit | None => false end then Ret cb else Ret None
        end)%Z g1).
      { eapply wp_seq; [apply fastIsEmpty_wp; auto|]. intros g2 eb Hx2 _.
        assert (Hlb2 : lok g2 b) by (eapply lok_ext; eauto). assert (Hla2 : lok g2 a) by (eapply lok_ext; eauto).
        match goal with |- LazyFacts.wp (match _ with _ => _ end) _ _ => idtac end.
        assert (Hrest : ends (ca <~ l_countUpTo_ true a limit ;;
            if match ca with Some c => c =? limit | None => false end then Ret ca
            else
              cb <~ l_countUpTo_ true b limit ;;
              if match cb with Some c => c =? limit | None => false end then Ret cb else Ret None)%Z g2).
        { eapply wp_seq; [apply IHa; auto|]. intros g3 ca Hx3 _.
          destruct (match ca with Some c => (c =? limit)%Z | None => false end); [exact Logic.I|].
          eapply wp_seq; [apply IHb; auto; eapply lok_ext; eauto|]. intros g4 cb _ _.
          destruct (match cb with Some c => (c =? limit)%Z | None => false end); exact Logic.I. }
        destruct eb as [[|]|]; auto. eapply wp_mono; [apply IHa; auto|auto]. }
      destruct ea as [[|]|]; auto. eapply wp_mono; [apply IHb; auto|auto].
    + intros g1 r Hx _. apply Hbase; [eapply lok_ext; eauto|auto].
  - pose proof Hl as (Hl1 & _ & _ & _ & n & Hn & Hle). change (rangeOk src) in Hr.
    eapply wp_seq with (P := fun _ _ => True).
    + eapply wp_seq; [apply fastCount_wp; eauto|]. intros g1 [c|] _ H; [|exact Logic.I].
      rewrite (H c eq_refl), pow2_ok by lia. exact Logic.I.
    + intros g1 r Hx _. apply Hbase; [eapply lok_ext; eauto|auto].
Qed.

Lemma countUpTo_call_ends e limit g : lok g e -> rangeOk e -> ends (l_countUpTo e limit) g.
Proof.
  intros Hl Hr. unfold l_countUpTo. eapply wp_seq; [apply countUpTo_ends; auto|].
  intros g1 [c|] _ H; [exact Logic.I|]. destruct (H eq_refl); auto.
Qed.

Lemma count_ends : forall e g, lok g e -> rangeOk e -> ends (l_count e) g.
Proof.
  induction e as [|s|p src IH|a IHa b IHb|a IHa b IHb|a IHa b IHb|src IH q|src IH m|src IH];
    intros g Hl Hr; cbn [l_count]; try exact Logic.I; try (apply countUpTo_call_ends; auto; fail).
  - destruct Hl as (Hp & Hw & Hl). change (rangeOk src) in Hr. apply wp_load with (src := src); auto.
    intros g1 o Hx Hp1 _. destruct o as [f|]; [exact Logic.I|]. apply IH; auto. eapply lok_ext; eauto.
  - destruct Hl as (Hl1 & _ & Hc & _ & n & Hn & Hle).
    eapply wp_seq; [apply count_wp with (k := n); auto; unfold maxInt; lia|]. intros g1 c _ ->. rewrite pow2_ok by lia.
    exact Logic.I.
Qed.

Lemma fastCount_ends e : forall g, lok g e -> rangeOk e -> ends (l_fastCount e) g.
Proof.
  induction e as [|s|p src IH|a IHa b IHb|a IHa b IHb|a IHa b IHb|src IH q|src IH m|src IH];
    intros g Hl Hr; cbn [l_fastCount]; try exact Logic.I.
  - destruct Hl as (Hp & Hw & Hl). change (rangeOk src) in Hr. apply wp_load with (src := src); auto.
    intros g1 o Hx Hp1 _. destruct o as [f|]; [exact Logic.I|]. apply IH; auto. eapply lok_ext; eauto.
  - destruct Hl as (Hl1 & _ & _ & _ & n & Hn & Hle). change (rangeOk src) in Hr.
    eapply wp_seq; [apply fastCount_wp; eauto|]. intros g1 [c|] _ H; [|exact Logic.I].
    rewrite (H c eq_refl), pow2_ok by lia. exact Logic.I.
Qed.

Lemma equalLoop_ends n : forall s c it g, sok s -> itok g it -> rem it < n -> ends (equalLoop n s c it) g.
Proof.
  induction n as [|n IH]; intros s c it g Hs Hi Hn; [lia|]. cbn [equalLoop]. destruct (0 <? c)%Z.
  - eapply wp_seq; [apply next_wp; auto|]. intros g1 [[|] it'] Hx; cbn [LazyFacts.nextPost]; [|intros; exact Logic.I].
    intros (v & H1 & H2 & H3 & H4 & H5 & H6 & _). apply wp_lift_bind with (a := v); auto.
    eapply wp_lift_bind; [apply (s_has_ok (vok := vok)); auto|].
    destruct (isSome (NodeWf.lookup (sel s) v)); [|exact Logic.I]. apply IH; auto. lia.
  - eapply wp_seq; [apply next_wp; auto|]. intros g1 [ok it'] Hx _. exact Logic.I.
Qed.

Lemma frozen_equalSet_ends s t g : sok s -> lok g t -> rangeOk t -> ends (frozen_equalSet s t) g.
Proof.
  intros Hs Ht Hr.
  assert (Hloop : ends (it <~ l_range t ;; equalLoop (S (rem it)) s (s_count s) it) g).
  { eapply wp_seq; [apply range_wp; auto|]. intros g1 it Hx (H1 & _). apply equalLoop_ends; auto. }
  unfold frozen_equalSet. destruct t; auto. clear Hloop.
  destruct (s_equal_ok (vok := vok) s s0) as (b & Eb & _); auto. eapply wp_lift; eauto.
Qed.

Lemma freezeBoth_ends e t k g : lok g e -> rangeOk e -> lok g t -> rangeOk t ->
  (forall f u g, sok f -> lok g u -> rangeOk u -> ends (k f u) g) -> ends (freezeBoth e t k) g.
Proof.
  intros He Re Ht Rt Hk. unfold freezeBoth. eapply wp_seq; [apply freeze_wp; auto|].
  intros g1 e' Hx1 (f1 & -> & Hf1 & M1). eapply wp_seq; [apply freeze_wp; auto; eapply lok_ext; eauto|].
  intros g2 t' Hx2 (f2 & -> & Hf2 & M2). apply Hk; auto. exact Logic.I.
Qed.

Lemma equalSet_ends : forall e t g, lok g e -> rangeOk e -> lok g t -> rangeOk t -> ends (l_equalSet e t) g.
Proof.
  induction e as [|s|p src IH|a IHa b IHb|a IHa b IHb|a IHa b IHb|src IH q|src IH m|src IH];
    intros t g Hl Hr Ht Rt; cbn [l_equalSet];
    try (apply freezeBoth_ends; auto; intros; apply frozen_equalSet_ends; auto; fail).
  - eapply wp_mono; [apply isEmpty_wp; auto|auto].
  - apply frozen_equalSet_ends; auto.
  - destruct Hl as (Hp & Hw & Hl). change (rangeOk src) in Hr. apply wp_load with (src := src); auto.
    intros g1 o Hx Hp1 [_ Hc]. destruct o as [f|].
    + destruct (Hc f eq_refl) as [Hf _]. apply frozen_equalSet_ends; auto. eapply lok_ext; eauto.
    + apply IH; auto; eapply lok_ext; eauto.
Qed.

Lemma equal_ends e t g : lok g e -> rangeOk e -> lok g t -> rangeOk t -> ends (l_equal e t) g.
Proof.
  intros Hl Hr Ht Rt.
  destruct e as [|s|p src|a b|a b|a b|src q|src m|src]; cbn [l_equal]; try (apply equalSet_ends; auto; fail).
  destruct Hl as (Hp & Hw & Hl). change (rangeOk src) in Hr. apply wp_load with (src := src); auto.
  intros g1 o Hx Hp1 [_ Hc]. destruct o as [f|].
  - destruct (Hc f eq_refl) as [Hf _]. apply frozen_equalSet_ends; auto. eapply lok_ext; eauto.
  - assert (Hs : ends (l_equalSet src t) g1) by (apply equalSet_ends; auto; eapply lok_ext; eauto).
    destruct src; simpl in Hw; try tauto; exact Hs.
Qed.

(** Equal on EmptySet compares the argument with itself. *)
Lemma equal_empty_wp t g : lok g t -> rangeOk t -> nodupE (vok := vok) t -> wp (l_equal LEmpty t) (fun _ b => b = true) g.
Proof.
  intros Ht Rt Nt. cbn [l_equal]. eapply wp_mono; [apply equalSet_wp; auto|]. intros g1 b _ Hb. apply Hb.
  intros x _. reflexivity.
Qed.

Lemma frozen_isSubsetOf_ends s t g : sok s -> lok g t -> rangeOk t -> ends (frozen_isSubsetOf s t) g.
Proof.
  intros Hs Ht Hr. unfold frozen_isSubsetOf.
  assert (Hloop : forall t g, lok g t -> rangeOk t ->
    ends (it <~ l_range t ;; subLoop (S (rem it + icost it)) s (s_count s) it) g).
  { clear - Hs HE KO. intros t g Ht Hr.
    eapply wp_seq; [apply range_wp; auto|]. intros g1 it Hx (H1 & _). apply subLoop_ends; auto. }
  destruct t as [|s'|p src|a b|a b|a b|src q|src m|src]; try (apply Hloop; auto; fail).
  pose proof Ht as (Hp & Hw & Hl). apply wp_load with (src := src); auto.
  intros g1 o Hx Hp1 [_ Hc]. destruct o as [f|].
  - destruct (Hc f eq_refl) as [Hf _]. apply Hloop; auto. exact Logic.I.
  - apply Hloop; auto. eapply lok_ext; eauto.
Qed.

Lemma isSubsetOf_ends : forall e t g, lok g e -> rangeOk e -> lok g t -> rangeOk t -> ends (l_isSubsetOf e t) g.
Proof.
  induction e as [|s|p src IH|a IHa b IHb|a IHa b IHb|a IHa b IHb|src IH q|src IH m|src IH];
    intros t g Hl Hr Ht Rt; cbn [l_isSubsetOf];
    try (apply freezeBoth_ends; auto; intros; apply frozen_isSubsetOf_ends; auto; fail).
  - exact Logic.I.
  - apply frozen_isSubsetOf_ends; auto.
  - destruct Hl as (Hp & Hw & Hl). change (rangeOk src) in Hr. apply wp_load with (src := src); auto.
    intros g1 o Hx Hp1 [_ Hc]. destruct o as [f|].
    + destruct (Hc f eq_refl) as [Hf _]. apply frozen_isSubsetOf_ends; auto. eapply lok_ext; eauto.
    + apply IH; auto; eapply lok_ext; eauto.
Qed.

Lemma hash_ends : forall e seed g, lok g e -> rangeOk e -> ends (l_hash e seed) g.
Proof.
  assert (Hbase : forall e (seed : N) (f : list T -> N) g, lok g e -> rangeOk e -> ends (l <~ l_toList e ;; Ret (f l)) g).
  { intros e seed f g Hl Hr. eapply wp_seq; [apply toList_wp; auto|]. intros; exact Logic.I. }
  induction e as [|s|p src IH|a IHa b IHb|a IHa b IHb|a IHa b IHb|src IH q|src IH m|src IH];
    intros seed g Hl Hr; cbn [l_hash]; try exact Logic.I;
    try (apply Hbase with (f := fun l => fold_left (fun h v => vhash v h) l (env_uintptr hashSeed seed)); auto; fail).
  destruct Hl as (Hp & Hw & Hl). change (rangeOk src) in Hr. apply wp_load with (src := src); auto.
  intros g1 o Hx Hp1 [_ Hc]. destruct o as [f|].
  - destruct (Hc f eq_refl) as [Hf _]. apply Hbase with (f := fun l => fold_left (fun h v => vhash v h) l (env_uintptr hashSeed seed)); auto. exact Logic.I.
  - apply IH; auto. eapply lok_ext; eauto.
Qed.

End LazyWeak.
