(** * HeapSim: the operations on the heap agree with the pure model.

    For builders always (exclusive ownership); for sets as long as no claimed slot is overwritten. *)
From Verif Require Import Base Bits Env EnvFacts Node NodeWf NodeAdd NodeRemove HeapModel HeapFrame HeapOwn HeapRep.
Local Open Scope nat_scope.

Section Sim.
Context {E : Env} {T : Type} {K : Key T} (grow : nat -> nat -> nat).
Notation obj := (obj (T := T)).
Notation heap := (heap (T := T)).
Notation array := (array (T := T)).
Notation M := (M (T := T)).
Notation node := (node T).
Local Opaque maxTreeDepth fanout fb.

(** ** Remove *)

Definition shapeo (d : nat) (o : option node) : Prop := forall n, o = Some n -> shape true d n.

Lemma findIndex_lt (p : T -> bool) l i : findIndex p l = Some i -> i < length l.
Proof. intros H. apply findIndex_Some in H as (l1 & e & l2 & -> & <- & _). rewrite app_length. cbn. lia. Qed.

Lemma swapRemove_length (l : list T) i v : l <> [] -> length (swapRemove l i v) = length l - 1.
Proof.
  intros H. unfold swapRemove. destruct (i =? _); rewrite ?set_nth_length, firstn_length; lia.
Qed.

Lemma deep_bits d : maxTreeDepth <= d -> 64 <= d * fb.
Proof. intros H. pose proof maxTreeDepth_bits. nia. Qed.

Lemma owno_agree (h h' : heap) x y L R : owno h x y L R ->
  (forall q, In q L -> nth_error (h_objs h') q = nth_error (h_objs h) q) ->
  (forall r, In r R -> nth_error (h_arrs h') r = nth_error (h_arrs h) r) -> owno h' x y L R.
Proof. intros [|p n L0 R0 H] HL HR; constructor. eapply own_agree; eauto. Qed.

(** Everything owned lies in the region of the result. *)
Lemma owno_closed P Q (h : heap) x y L R : closed P Q h -> owno h x y L R -> (forall c, x = Some c -> P c) ->
  (forall q, In q L -> P q) /\ (forall r, In r R -> Q r).
Proof.
  intros Hc [|p n L0 R0 H] Hx; [split; intros z []|]. eapply own_closed; eauto.
Qed.

Definition removed (h : heap) (d : nat) (o : res (option nat * Z) * heap) (r : res (option node * Z)) : Prop :=
  h_over (snd o) = h_over h /\
  agrees (fst o) r (fun a a' => snd a = snd a' /\
    exists L' R', owno (snd o) (fst a) (fst a') L' R' /\ NoDup L' /\ NoDup R' /\ shapeo d (fst a')).

Lemma removed_same (h : heap) p n L R d (m : Z) : own h p n L R -> NoDup L -> NoDup R -> shape true d n ->
  removed h d (Ok (Some p, m), h) (Ok (Some n, m)).
Proof.
  intros Ho HL HR Hs. split; auto. exists (Some p, m). split; auto. split; auto. exists L, R. split; [constructor; auto|].
  split; auto. split; auto. intros x [= <-]. auto.
Qed.
Lemma removed_none (h h' : heap) d (m : Z) : h_over h' = h_over h -> removed h d (Ok (None, m), h') (Ok (None, m)).
Proof.
  intros H. split; auto. exists (None, m). split; auto. split; auto. exists [], []. split; [constructor|].
  split; [constructor|]. split; [constructor|]. intros x [=].
Qed.
Lemma removed_leaf1 (h h' : heap) d a (m : Z) : h_over h' = h_over h ->
  removed h d (Ok (Some (length (h_objs h')), m), mkHeap (h_objs h' ++ [OLeaf1 a]) (h_arrs h') (h_over h') (h_log h')) (Ok (Some (Leaf1 a), m)).
Proof.
  intros H. split; auto. eexists. split; [reflexivity|]. split; auto. exists [length (h_objs h')], [].
  split; [constructor; constructor; cbn; apply nth_error_new|]. split; [repeat constructor; auto|]. split; [constructor|].
  intros x [= <-]. constructor.
Qed.
Lemma removed_leaf2 (h h' : heap) d a b (m : Z) : h_over h' = h_over h ->
  removed h d (Ok (Some (length (h_objs h')), m), mkHeap (h_objs h' ++ [OLeaf2 a b]) (h_arrs h') (h_over h') (h_log h')) (Ok (Some (Leaf2 a b), m)).
Proof.
  intros H. split; auto. eexists. split; [reflexivity|]. split; auto. exists [length (h_objs h')], [].
  split; [constructor; constructor; cbn; apply nth_error_new|]. split; [repeat constructor; auto|]. split; [constructor|].
  intros x [= <-]. constructor.
Qed.

Lemma remove_own fuel : forall p n v d h L R,
  own h p n L R -> NoDup L -> NoDup R -> shape true d n ->
  removed h d (removeH grow fuel p v d (newHasher v d) h) (remove_ fuel n v d (newHasher v d)).
Proof.
  induction fuel as [|k IH]; intros p n v d h L R Ho HL HR Hs.
  { split; reflexivity. }
  cbn [removeH remove_]. inversion Ho as [p0 a Hp|p0 a b Hp|p0 r a l Hp Hr Hu Hl|p0 m da ds L0 R0 Hp Hds]; subst;
    rewrite (bindM_ok _ _ _ _ _ (load_ok _ _ _ Hp)).
  - destruct (veq a v); [apply removed_none; auto|]. eapply removed_same; eauto.
  - destruct (veq a v); [apply removed_leaf1; auto|]. destruct (veq b v); [apply removed_leaf1; auto|]. eapply removed_same; eauto.
  - assert (Hlt := nth_error_Some_lt _ _ _ Hp). assert (Hlr := nth_error_Some_lt _ _ _ Hr).
    rewrite (bindM_ok _ _ _ _ _ (elemsOf_ok _ _ _ _ _ Hr Hl)).
    unfold indexOf. destruct (findIndex _ l) as [i|] eqn:Ei; [|eapply removed_same; eauto].
    apply findIndex_lt in Ei. destruct (Nat.eqb_spec (length l - 1) 0) as [E0|E0]; [apply removed_none; auto|].
    assert (maxTreeDepth <= d /\ 3 <= length l) as [Hd H3] by (inversion Hs; auto).
    assert (Hlen : length l <= length (a_slots a)).
    { rewrite <- Hl at 1. rewrite firstn_length. lia. }
    set (l' := swapRemove l i v).
    assert (Hl' : length l' = length l - 1) by (apply swapRemove_length; intros ->; cbn in *; lia).
    set (a1 := mkArray (if i <? length l - 1 then set_nth (a_slots a) i (nth (length l - 1) l v) else a_slots a) (a_cap a) (length l')).
    set (h1 := mkHeap (set_nth (h_objs h) p (OTwig r (length l'))) (set_nth (h_arrs h) r a1) (h_over h)
      ((if i <? length l - 1 then (h_log h ++ [WSlot r i]) ++ [WGhost r] else h_log h ++ [WGhost r]) ++ [WObj p])).
    assert (Hf : firstn (length l') (a_slots a1) = l').
    { cbn [a_slots a1]. unfold l' at 2, swapRemove. rewrite Hl'.
      assert (Hfl : firstn (length l - 1) l = firstn (length l - 1) (a_slots a)).
      { rewrite <- Hl at 2. rewrite firstn_firstn. f_equal. lia. }
      destruct (Nat.ltb_spec i (length l - 1)) as [Hi|Hi]; destruct (Nat.eqb_spec i (length l - 1)) as [Hi'|Hi']; try lia.
      - rewrite firstn_set_nth, Hfl. auto.
      - auto. }
    match goal with |- removed h d (?X h) _ =>
      assert (HX : X h = (o <~ canonicalTwigH grow k d p (r, length l') ;; ret (o, 1%Z)) h1) end.
    { unfold setSlot. cbn [fst snd]. destruct (i <? length l - 1) eqn:Eb.
      - erewrite (bindM_ok _ _ h) by (erewrite (bindM_ok _ _ h) by (apply loadArr_ok; eauto); reflexivity).
        erewrite (bindM_ok _ _ _) by (apply loadArr_ok; cbn; apply nth_error_set_nth_eq; auto).
        cbn [storeArr slotOf store bindM h_objs h_arrs h_over h_log a_slots a_cap a_used].
        assert (Hss : forall (A : Type) (z : list A) j x y, set_nth (set_nth z j x) j y = set_nth z j y).
        { intros A z. induction z as [|w z IHz]; intros [|j] x y; cbn; auto. f_equal. auto. }
        rewrite Hss. unfold h1, a1. rewrite ?Eb, ?Hl'. reflexivity.
      - erewrite (bindM_ok _ _ h) by reflexivity.
        erewrite (bindM_ok _ _ h) by (apply loadArr_ok; eauto).
        cbn [storeArr slotOf store bindM h_objs h_arrs h_over h_log a_slots a_cap a_used].
        unfold h1, a1. rewrite ?Eb, ?Hl'. reflexivity. }
    rewrite HX. clear HX.
    assert (Hov1 : h_over h1 = h_over h) by reflexivity.
    assert (Ho1 : own h1 p (Twig l') [p] [r]).
    { econstructor; [cbn; apply nth_error_set_nth_eq; auto|cbn; apply nth_error_set_nth_eq; auto|reflexivity|exact Hf]. }
    assert (Hel : elemsOf (r, length l') h1 = (Ok l', h1)).
    { eapply elemsOf_ok; [cbn; apply nth_error_set_nth_eq; auto|exact Hf]. }
    fold l'. unfold bindM at 1. unfold canonicalTwigH. rewrite (bindM_ok _ _ _ _ _ Hel). unfold canonicalTwig.
    clearbody h1 a1. clear Hf Hel.
    destruct l' as [|x [|y [|z l'']]] eqn:El'.
    + apply removed_none; auto.
    + apply removed_leaf1; auto.
    + apply removed_leaf2; auto.
    + rewrite (proj2 (Nat.leb_le 64 (d * fb)) (deep_bits d Hd)), Bool.orb_true_r. cbn [bind].
      split; auto. eexists. split; [reflexivity|]. split; auto. exists [p], [r]. split; [constructor; auto|]. split; auto. split; auto.
      intros x' [= <-]. constructor; auto. cbn. lia.
  - assert (Hlt := nth_error_Some_lt _ _ _ Hp). fold (digit d v). set (i := digit d v) in *.
    assert (Hi : i < length da).
    { rewrite (owns_length _ _ _ _ _ Hds). inversion Hs as [| | |? ? ? _ Hlen _]; subst. rewrite Hlen. apply digit_lt. }
    destruct (owns_child _ _ _ _ _ i Hds Hi) as (L1 & Lc & L2 & R1 & Rc & R2 & -> & -> & Hc & Hset).
    inversion HL as [|? ? HpL HL']; subst. destruct (owns_lt _ _ _ _ _ Hds) as [HltL HltR].
    destruct (NoDup_split _ _ _ HL') as (NLc & NL1 & NL2). destruct (NoDup_split _ _ _ HR) as (NRc & NR1 & NR2).
    destruct (childP da i) as [c|]; inversion Hc as [|c0 nc Lc0 Rc0 Hown E2 E3]; subst; [|eapply removed_same; eauto].
    assert (Hsc : shape true (S d) nc) by (inversion Hs; subst; eauto).
    specialize (IH c nc v (S d) h Lc Rc Hown NLc NRc Hsc). rewrite newHasher_S in IH.
    destruct IH as [Hov Hres].
    assert (Hsafe := safe_removeH grow (inO h Lc) (inA h Rc) k c v (S d) (h_next (newHasher v d))).
    destruct (safe_roomy _ _ _ _ h (Hsafe (or_introl (own_root _ _ _ _ _ Hown))) (own_roomy _ _ _ _ _ Hown)) as (Hcl & (W1 & W2 & W3 & W4 & _) & Hpost).
    destruct (removeH grow k c v (S d) _ h) as [fo fh] eqn:EF. cbn [fst snd] in *.
    destruct (remove_ k nc v (S d) (h_next (newHasher v d))) as [[n' m']| |]; cbn [bind agrees] in *;
      [|subst fo; rewrite (bindM_panic _ _ _ _ EF); split; auto; reflexivity|subst fo; rewrite (bindM_fuel _ _ _ _ EF); split; auto; reflexivity].
    destruct Hres as ([x mx] & -> & Em & Lq & Rq & Ho' & HLq & HRq & Hs'). cbn [fst snd] in *. subst mx.
    rewrite (bindM_ok _ _ _ _ _ EF).
    destruct (owno_closed _ _ _ _ _ _ _ Hcl Ho' (Hpost _ eq_refl)) as [HinL HinR].
    assert (HoutL : forall x, In x (L1 ++ L2) -> ~ inO h Lc x).
    { intros z Hx [Hin|Hin]; apply in_app_or in Hx as [Hx|Hx].
      - eapply NL1; eauto. - eapply NL2; eauto.
      - assert (z < length (h_objs h)) by (apply HltL; rewrite !in_app_iff; tauto). lia.
      - assert (z < length (h_objs h)) by (apply HltL; rewrite !in_app_iff; tauto). lia. }
    assert (HoutR : forall x, In x (R1 ++ R2) -> ~ inA h Rc x).
    { intros z Hx [Hin|Hin]; apply in_app_or in Hx as [Hx|Hx].
      - eapply NR1; eauto. - eapply NR2; eauto.
      - assert (z < length (h_arrs h)) by (apply HltR; rewrite !in_app_iff; tauto). lia.
      - assert (z < length (h_arrs h)) by (apply HltR; rewrite !in_app_iff; tauto). lia. }
    assert (Hown2 : owns fh (set_nth da i x) (set_nth ds i n') (L1 ++ Lq ++ L2) (R1 ++ Rq ++ R2)).
    { apply Hset; auto. }
    assert (Hmask : updateMaskP (set_nth da i x) = updateMask (set_nth ds i n')).
    { eapply updateMaskP_rep. eapply (proj2 (own_rep_mut fh)); eauto. }
    rewrite Hmask. set (q := length (h_objs fh)).
    set (h2 := mkHeap (h_objs fh ++ [OBranch (updateMask (set_nth ds i n')) (set_nth da i x)]) (h_arrs fh) (h_over fh) (h_log fh)).
    set (n2 := Branch (updateMask (set_nth ds i n')) (set_nth ds i n')).
    erewrite (bindM_ok _ _ fh) by reflexivity. fold q. cbn [fst snd]. fold h2.
    assert (Hown3 : own h2 q n2 (q :: L1 ++ Lq ++ L2) (R1 ++ Rq ++ R2)).
    { econstructor; [cbn; apply nth_error_new|]. eapply owns_agree; eauto. intros z Hz. cbn. apply nth_error_snoc.
      destruct (owns_lt _ _ _ _ _ Hown2) as [Hz' _]. specialize (Hz' z Hz). lia. }
    assert (HND : NoDup (q :: L1 ++ Lq ++ L2)).
    { constructor.
      - intros Hz. destruct (owns_lt _ _ _ _ _ Hown2) as [Hz' _]. specialize (Hz' q Hz). unfold q in Hz'. lia.
      - apply (NoDup_swap (length (h_objs h)) L1 Lc Lq L2); auto.
        intros z Hx. apply HltL. apply in_app_or in Hx. rewrite !in_app_iff. tauto. }
    assert (HNDR : NoDup (R1 ++ Rq ++ R2)).
    { apply (NoDup_swap (length (h_arrs h)) R1 Rc Rq R2); auto.
      intros z Hx. apply HltR. apply in_app_or in Hx. rewrite !in_app_iff. tauto. }
    assert (Hs2 : shape true d n2) by (eapply shape_set; [exact Hs|auto]).
    assert (Hov2 : h_over h2 = h_over h) by (cbn; auto).
    assert (Hkeep : removed h d (Ok (Some q, m'), h2) (Ok (Some n2, m'))).
    { split; auto. eexists. split; [reflexivity|]. split; auto. eexists; eexists. split; [constructor; eauto|].
      split; auto. split; auto. intros z [= <-]. auto. }
    assert (Hwalk : appendToH walkFuel maxLeafLen q [] h2 = (Ok (appendTo maxLeafLen n2 []), h2)).
    { eapply walk_rep; [|exact Hs2]. eapply own_rep; eauto. }
    assert (Hleaf : removed h d ((d0 <~ appendToH walkFuel maxLeafLen q [] ;;
                  match d0 with Some es => l <~ newLeafH es ;; ret (Some l, m') | None => ret (Some q, m') end) h2)
        match appendTo maxLeafLen (Branch m (set_nth ds i n')) [] with
        | Some es => l <- newLeaf es;; Ok (Some l, m')
        | None => Ok (Some n2, m')
        end).
    { rewrite (bindM_ok _ _ _ _ _ Hwalk). change (appendTo maxLeafLen (Branch m (set_nth ds i n')) []) with (appendTo maxLeafLen n2 []).
      destruct (appendTo maxLeafLen n2 []) as [es|]; [|exact Hkeep]. unfold newLeafH, newLeaf.
      destruct es as [|y1 [|y2 [|y3 es]]]; cbn [bind].
      - split; auto. reflexivity.
      - erewrite (bindM_ok _ _ h2) by reflexivity. apply removed_leaf1; auto.
      - erewrite (bindM_ok _ _ h2) by reflexivity. apply removed_leaf2; auto.
      - split; auto. reflexivity. }
    inversion Ho' as [Ea Eb Ec Ed|x0 nx Lx Rx Hox Ea Eb]; subst.
    + erewrite (bindM_ok _ _ h2) by reflexivity. exact Hleaf.
    + assert (Hx2 : own h2 x0 nx Lq Rq).
      { eapply own_agree; eauto. intros z Hz. cbn. apply nth_error_snoc. destruct (own_lt _ _ _ _ _ Hox) as [Hz' _]. specialize (Hz' z Hz). lia. }
      assert (Hobj : exists ox, nth_error (h_objs h2) x0 = Some ox /\ match ox with OBranch _ _ => isBranch nx | _ => ~ isBranch nx end).
      { inversion Hx2; subst; eexists; (split; [eassumption|cbn; auto]). }
      destruct Hobj as (ox & Hz & Hb).
      erewrite (bindM_ok _ _ h2) by (rewrite (bindM_ok _ _ _ _ _ (load_ok _ _ _ Hz)); reflexivity).
      destruct ox, nx; cbn in Hb; try contradiction; try (exfalso; tauto); first [exact Hleaf|exact Hkeep].
Qed.

End Sim.
