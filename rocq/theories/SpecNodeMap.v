(** * SpecNodeMap: lemmas behind the property of the Map method of the nodes (C57). *)
From Verif Require Import Base Bits Env EnvFacts Node NodeWf NodeAdd NodeBin NodeUn Tree TreeFacts Clash HeapProg SpecHeap NodeMap
  Iter SetApi SetFacts Reach Spec SpecSet.
Local Open Scope Z_scope.

(** What images of [P] become when some of them are resolved by [cf]. *)
Inductive Made {T : Type} (cf : T -> T -> T) (f : T -> T) (P : T -> Prop) : T -> Prop :=
| made_image e : P e -> Made cf f P (f e)
| made_merge a b : Made cf f P a -> Made cf f P b -> Made cf f P (cf a b).

(** The function and the arguments are as the other operations need them: Equal of the elements, and a resolving function that
    keeps the key. *)
Definition MapFine {E : Env} {T : Type} {K : Key T} (vok : T -> Prop) (args : CombineArgs T) (f : T -> T) : Prop :=
  (forall v, vok v -> vok (f v)) /\ c_eq args = veq /\ cfok (vok := vok) (c_f args) /\ gaugeOk (c_gauge args).

Section NodeMapFacts.
Local Opaque maxTreeDepth fanout fb.
Context {E : Env} {HE : EnvOk E} {T : Type} {K : Key T} {vok : T -> Prop} {KO : KeyOk K vok}.
Notation node := (node T).
Notation tree := (tree T).
Notation wf := (wf vok).
Notation tok := (tok vok).
Notation cfok := (cfok (vok := vok)).
Notation lookup := NodeWf.lookup.

(** A trie, from the root, that holds the images of [l], with conflicts settled by [cf] if at all. *)
Definition images (cf : T -> T -> T) (f : T -> T) (l : list T) (n : node) : Prop :=
  wf 0 n /\ (forall w, vok w -> isSome (lookup (elems n) w) = existsb (fun e => veq (f e) w) l) /\
  (forall x, In x (elems n) -> Made cf f (fun e => In e l) x).

Lemma made_mono cf (f : T -> T) (P Q : T -> Prop) x : (forall e, P e -> Q e) -> Made cf f P x -> Made cf f Q x.
Proof. intros H M. induction M; [constructor; auto|constructor 2; auto]. Qed.

Lemma isSome_comb cf l1 l2 w : isSome (comb cf l1 l2 w) = isSome (lookup l1 w) || isSome (lookup l2 w).
Proof. unfold comb. destruct (lookup l1 w), (lookup l2 w); auto. Qed.
Lemma isSome_upd cf l v w : isSome (upd cf l v w) = veq v w || isSome (lookup l w).
Proof. unfold upd. destruct (veq v w); auto. Qed.

Lemma few_clash n n2 : noTripleHash vok -> wf 0 n -> wf 0 n2 -> ~ clash n n2.
Proof.
  intros Hno H1 H2 Hc.
  assert (Hle : forall m h, wf 0 m -> (length (filter (fun e => N.eqb (vhash e 0) h) (elems m)) <= 2)%nat).
  { intros m h Hm. destruct (filter _ (elems m)) as [|a [|b [|c l]]] eqn:Ef; cbn [length]; try lia. exfalso.
    assert (HI : forall e, In e [a; b; c] -> In e (elems m) /\ vhash e 0 = h).
    { intros e He. assert (Hin : In e (a :: b :: c :: l)) by (cbn in He |- *; tauto). rewrite <- Ef in Hin.
      apply filter_In in Hin as [Q1 Q2]. apply N.eqb_eq in Q2. auto. }
    assert (Hd : distinct (a :: b :: c :: l)).
    { rewrite <- Ef. apply distinct_filter. apply (wf_distinct _ _ Hm). }
    destruct (HI a) as [Ia Ea]; [cbn; auto|]. destruct (HI b) as [Ib Eb]; [cbn; auto|]. destruct (HI c) as [Ic Ec]; [cbn; auto|].
    pose proof (wf_allok _ _ Hm) as Ho.
    inversion Hd as [|? ? Hda Hd1]; subst. inversion Hd1 as [|? ? Hdb Hd2]; subst.
    apply (Hno a b c); auto; [apply Hda; cbn; auto|apply Hda; cbn; auto|apply Hdb; cbn; auto]. }
  assert (Ht : forall m, wf 0 m -> tok (mkTree (Some m) (Z.of_nat (length (elems m))))).
  { intros m Hm. split; [apply wfo_Some; auto|reflexivity]. }
  apply (not_overfull (elems n) (elems n2)); auto.
  apply (tclash_overfull (vok := vok) _ _ (Ht n H1) (Ht n2 H2)). exact Hc.
Qed.

Section Map.
Variables (f : T -> T).
Hypothesis (Hf : forall v, vok v -> vok (f v)).

Lemma map_bucket args l : c_eq args = veq -> cfok (c_f args) -> forall t l0, allok vok l -> l <> [] \/ t_root t <> None ->
  tok t -> (forall w, vok w -> isSome (lookup (tel t) w) = existsb (fun e => veq (f e) w) l0) ->
  (forall x, In x (tel t) -> Made (c_f args) f (fun e => In e l0) x) ->
  exists n, foldM (fun b e => b_addArgs args b (f e)) t l = Ok (mkTree (Some n) (Z.of_nat (length (elems n)))) /\ images (c_f args) f (l0 ++ l) n.
Proof.
  intros He' Hc'. induction l as [|e l IH]; intros t l0 Hl Hne Ht Hi Hm; cbn [foldM].
  - destruct Hne as [Hne|Hne]; [congruence|]. destruct t as [[n|] c]; cbn [t_root] in Hne; [|congruence].
    exists n. rewrite app_nil_r. destruct Ht as [H1 H2]. cbn in H1, H2. split; [rewrite H2; reflexivity|].
    split; [apply wfo_Some; auto|]. split; auto.
  - assert (Hfe : vok (f e)) by (apply Hf, Hl; left; auto).
    destruct (b_addArgs_ok args t (f e) Ht Hfe He' Hc') as (r & Er & Hr & Hlk). rewrite Er. cbn [bind].
    destruct (IH r (l0 ++ [e])) as (u & Eu & Hu); auto.
    + intros x Hx. apply Hl. right; auto.
    + right. specialize (Hlk (f e) Hfe). intros Hnone. unfold tel in Hlk. rewrite Hnone in Hlk. cbn in Hlk.
      unfold upd in Hlk. rewrite (veq_refl (vok := vok)) in Hlk by auto. discriminate.
    + intros w Hw. rewrite Hlk, isSome_upd, Hi, existsb_app by auto.
      cbn [existsb]. rewrite orb_false_r. apply orb_comm.
    + intros x Hx. pose proof (tok_allok (vok := vok) _ Hr) as Har. pose proof (tok_distinct (vok := vok) _ Hr) as Hdr.
      apply (In_lookup (vok := vok)) in Hx as Hlx; auto. rewrite Hlk in Hlx by auto.
      assert (Hnew : Made (c_f args) f (fun e0 => In e0 (l0 ++ [e])) (f e)) by (constructor; apply in_or_app; right; left; auto).
      assert (Hold : forall y, In y (tel t) -> Made (c_f args) f (fun e0 => In e0 (l0 ++ [e])) y).
      { intros y Hy. eapply made_mono; [|apply Hm; auto]. intros z Hz. apply in_or_app. auto. }
      unfold upd in Hlx. destruct (veq (f e) x).
      * injection Hlx as <-. destruct (lookup (tel t) (f e)) as [y|] eqn:Ey; auto. apply lookup_Some in Ey as [Hy _]. constructor 2; auto.
      * apply lookup_Some in Hlx as [Hy _]. auto.
    + exists u. split; auto. rewrite <- app_assoc in Hu. exact Hu.
Qed.

Lemma gather_loop args data (L : nat -> list T) : c_eq args = veq -> cfok (c_f args) -> gaugeOk (c_gauge args) ->
  forall is c l0 dup, images (c_f args) f l0 c ->
  (forall j, In j is -> exists c', child data j = Some c' /\ images (c_f args) f (L j) c') ->
  let r := foldM (fun (s : node * Z) j =>
            match child data j with
            | None => Panic
            | Some c' => '(r, d) <- combine treeFuel args (fst s) c' 0 ;; Ok (r, snd s + d)
            end) (c, dup) is in
  (~ noTripleHash vok /\ r = Panic) \/
  exists n dup', r = Ok (n, dup') /\ images (c_f args) f (l0 ++ flat_map L is) n /\
    Z.of_nat (length (elems n)) + dup' =
    Z.of_nat (length (elems c)) + dup + sumZ (map (fun j => leno (child data j)) is).
Proof.
  intros Heq Hcf Hg. induction is as [|j is IH]; intros c l0 dup Hc Hch r; subst r; cbn [foldM].
  - right. exists c, dup. split; auto. cbn. rewrite app_nil_r. split; auto. lia.
  - destruct (Hch j) as (c' & Ec & Hc'); [left; auto|]. rewrite Ec. cbn [fst snd].
    destruct Hc as (Hw1 & Hi1 & Hm1), Hc' as (Hw2 & Hi2 & Hm2).
    destruct (combine_wf (vok := vok) treeFuel 0 args c c') as [[HC E1]|(HC & n & m & E1 & Hwf & H1 & H2)]; auto using fuelBin_tree.
    + left. rewrite E1. split; auto. intros Hno. revert HC. apply few_clash; auto.
    + rewrite E1. cbn [bind].
      destruct (IH n (l0 ++ L j) (dup + m)) as [[Hno E2]|(n' & dup' & E2 & Hn' & Hlen)].
      * split; auto. split.
        { intros w Hw. rewrite H1, isSome_comb, Hi1, Hi2, existsb_app by auto. reflexivity. }
        intros x Hx. pose proof (wf_allok _ _ Hwf) as Har. pose proof (wf_distinct _ _ Hwf) as Hdr.
        apply (In_lookup (vok := vok)) in Hx as Hlx; auto. rewrite H1 in Hlx by auto.
        assert (G1 : forall y, In y (elems c) -> Made (c_f args) f (fun e => In e (l0 ++ L j)) y).
        { intros y Hy. eapply made_mono; [|apply Hm1; auto]. intros z Hz. apply in_or_app. auto. }
        assert (G2 : forall y, In y (elems c') -> Made (c_f args) f (fun e => In e (l0 ++ L j)) y).
        { intros y Hy. eapply made_mono; [|apply Hm2; auto]. intros z Hz. apply in_or_app. auto. }
        unfold comb in Hlx. destruct (lookup (elems c) x) as [y|] eqn:Ey, (lookup (elems c') x) as [z|] eqn:Ez; try discriminate;
          injection Hlx as <-; try apply lookup_Some in Ey as [Ey _]; try apply lookup_Some in Ez as [Ez _]; auto.
        constructor 2; auto.
      * intros k Hk. apply Hch. right; auto.
      * left. auto.
      * right. exists n', dup'. split; auto. cbn [flat_map map sumZ]. rewrite app_assoc. split; auto.
        unfold sumZ in *. cbn [fold_right]. rewrite Ec. change (leno (Some c')) with (Z.of_nat (length (elems c'))). lia.
Qed.

Theorem n_map_wf fuel : forall args d n, c_eq args = veq -> cfok (c_f args) -> gaugeOk (c_gauge args) ->
  wf d n -> (maxTreeDepth - d < fuel)%nat ->
  (~ noTripleHash vok /\ n_map fuel args n d f = Panic) \/
  exists r, n_map fuel args n d f = Ok (Some r, Z.of_nat (length (elems r))) /\ images (c_f args) f (elems n) r.
Proof.
  induction fuel as [|fuel IH]; intros args d n Heq Hcf Hg Hwf Hfu; [lia|].
  destruct n as [a|a b|l|m1 d1]; cbn [n_map].
  - right. exists (Leaf1 (f a)). split; auto. inversion Hwf; subst. split; [constructor; auto; lia|].
    split; [intros w Hw; unfold lookup; cbn; rewrite orb_false_r; destruct (veq (f a) w); auto|].
    intros x [<-|[]]. constructor. left; auto.
  - right. inversion Hwf as [|d' a' b' Hd Ha Hb Hab| |]; subst. rewrite Heq. destruct (veq (f a) (f b)) eqn:Eab.
    + exists (Leaf1 (f a)). split; auto. split; [constructor; auto; lia|].
      split; [|intros x [<-|[]]; constructor; left; auto]. intros w Hw. unfold lookup. cbn.
      rewrite orb_false_r.
      rewrite (veq_trans_l (vok := vok) (f a) (f b) w) by auto.
      destruct (veq (f a) w); auto.
    + exists (Leaf2 (f a) (f b)). split; auto. split; [constructor; auto; lia|].
      split; [|intros x [<-|[<-|[]]]; constructor; cbn; auto]. intros w Hw. unfold lookup. cbn.
      rewrite orb_false_r. destruct (veq (f a) w); auto. destruct (veq (f b) w); auto.
  - right. inversion Hwf; subst.
    destruct (map_bucket args l Heq Hcf emptyTree []) as (n & En & Hn); auto.
    + left. intros ->. cbn in *. lia.
    + apply tok_empty.
    + intros x [].
    + rewrite En. cbn [bind]. exists n. split; auto.
  - inversion Hwf as [| | |d' m' data' Hd Hlen1 Hm1 Hch1 Hp1 Hl1]; subst d' m' data'.
    set (w := fun i => match child d1 i with None => Ok (None, 0) | Some x => n_map fuel (c_sub i args) x (S d) f end).
    match goal with |- context [parallel _ _ _ ?F emptyPacker] => set (F0 := F) end.
    assert (Hw : forall i x, child d1 i = Some x ->
      (~ noTripleHash vok /\ w i = Panic) \/
      exists r, w i = Ok (Some r, Z.of_nat (length (elems r))) /\ images (c_f args) f (elems x) r).
    { intros i x Ex. unfold w. rewrite Ex. apply (IH (c_sub i args) (S d) x); auto; [apply gaugeOk_sub; auto|eauto|lia]. }
    assert (Hsw : slot_worker w F0 (mask_indices m1)).
    { intros i s Hi. unfold w, F0. rewrite Hm1 in Hi. apply mask_indices_updateMask in Hi as (x & Ex); auto.
      rewrite Ex. exists (fun m => m). destruct (n_map _ _ _ _ _) as [[r m]| |]; reflexivity. }
    assert (Hlt : (m1 < 2 ^ 16)%N) by (subst m1; apply updateMask_lt).
    destruct (existsb (fun i => match w i with Panic => true | _ => false end) (mask_indices m1)) eqn:Ep.
    { apply existsb_exists in Ep as (i & Hi & Ep). destruct (w i) as [| |] eqn:Ew; try discriminate.
      assert (Hi' := Hi). rewrite Hm1 in Hi'. apply mask_indices_updateMask in Hi' as (x & Ex); auto.
      left. destruct (Hw i x Ex) as [[Hno _]|(r & Er & _)]; [|congruence]. split; auto.
      rewrite (par_branch_panic (c_gauge args) d m1 F0 w); auto; [|eauto].
      intros j Hj. rewrite Hm1 in Hj. apply mask_indices_updateMask in Hj as (y & Ey); auto.
      destruct (Hw j y Ey) as [[_ ->]|(r & -> & _)]; discriminate. }
    assert (Hok : forall i x, child d1 i = Some x -> exists r, w i = Ok (Some r, Z.of_nat (length (elems r))) /\ images (c_f args) f (elems x) r).
    { intros i x Ex. destruct (Hw i x Ex) as [[_ Ew]|H]; auto. exfalso.
      assert (Hi : In i (mask_indices m1)) by (rewrite Hm1; apply mask_indices_updateMask; eauto).
      assert (Hc : existsb (fun i => match w i with Panic => true | _ => false end) (mask_indices m1) = true).
      { apply existsb_exists. exists i. rewrite Ew. auto. }
      congruence. }
    assert (Hnone : forall i, child d1 i = None -> w i = Ok (None, 0)) by (intros i Ex; unfold w; rewrite Ex; auto).
    destruct (par_branch (c_gauge args) d m1 F0 w) as (s' & E1 & Hs & Hsc); auto.
    { intros i Hi. subst m1. apply mask_ge_fanout; auto. }
    { intros i Hi. destruct (child d1 i) as [x|] eqn:Ex; [|eauto].
      destruct (Hok i x Ex) as (r & Er & _). eauto. }
    { intros i Hi Ht. rewrite Hm1, updateMask_testbit in Ht by auto. apply Hnone. destruct (child d1 i); [discriminate|auto]. }
    rewrite E1. cbn [bind snd].
    assert (Hc1 : forall i, child d1 i = None -> child (snd s') i = None).
    { intros i Ex. destruct (Nat.lt_ge_cases i fanout) as [Hi|Hi]; [|apply child_overflow; lia].
      apply (Hsc i None 0); auto. }
    assert (Hc2 : forall i x, child d1 i = Some x -> exists r, w i = Ok (Some r, Z.of_nat (length (elems r))) /\
      child (snd s') i = Some r /\ images (c_f args) f (elems x) r).
    { intros i x Ex. destruct (Hok i x Ex) as (r & Er & Hr). exists r. split; auto. split; auto.
      destruct (Nat.lt_ge_cases i fanout) as [Hi|Hi]; [|rewrite child_overflow in Ex by lia; discriminate].
      eapply Hsc; eauto. }
    assert (Hmask : updateMask (snd s') = m1).
    { rewrite Hm1. apply mask_ext; try apply updateMask_lt. intros i. rewrite !updateMask_testbit by auto.
      destruct (child d1 i) as [x|] eqn:Ex.
      - destruct (Hc2 i x Ex) as (r & _ & -> & _). reflexivity.
      - rewrite Hc1 by auto. reflexivity. }
    unfold map_gather. rewrite Hmask.
    assert (Hsum : sumZ (map (fun i => outZ (w i)) (seq 0 fanout)) = sumZ (map (fun i => leno (child (snd s') i)) (mask_indices m1))).
    { rewrite <- sumZ_mask with (m := m1); auto.
      - apply sumZ_ext. intros i Hi. rewrite Hm1 in Hi. apply mask_indices_updateMask in Hi as (x & Ex); auto.
        destruct (Hc2 i x Ex) as (r & -> & -> & _). reflexivity.
      - intros i Hi. subst m1. apply mask_ge_fanout; auto.
      - intros i Hi Ht. rewrite Hm1, updateMask_testbit in Ht by auto. rewrite Hnone; auto. destruct (child d1 i); [discriminate|auto]. }
    assert (Hall : flat_map (fun i => elemso (child d1 i)) (mask_indices m1) = flat_map elemso d1).
    { rewrite Hm1. apply flat_map_mask; auto. }
    assert (Hin : forall j, In j (mask_indices m1) -> exists c', child (snd s') j = Some c' /\ images (c_f args) f (elemso (child d1 j)) c').
    { intros j Hj. rewrite Hm1 in Hj. apply mask_indices_updateMask in Hj as (x & Ex); auto.
      destruct (Hc2 j x Ex) as (r & _ & Hr & Hr'). exists r. rewrite Ex. auto. }
    rewrite elems_branch in Hl1 |- *. rewrite <- Hall in Hl1 |- *. rewrite Hsum.
    destruct (mask_indices m1) as [|i0 is]; [cbn in Hl1; lia|].
    destruct (Hin i0 (or_introl eq_refl)) as (c & Ec & Hc). rewrite Ec.
    destruct (gather_loop args (snd s') (fun j => elemso (child d1 j)) Heq Hcf Hg is c (elemso (child d1 i0)) 0 Hc) as
      [[Hno E2]|(n & dup & E2 & Hn & Hlen)].
    + intros j Hj. apply Hin. right; auto.
    + left. split; auto. rewrite E2. reflexivity.
    + right. exists n. rewrite E2. cbn [bind]. split; auto. do 2 f_equal. cbn [map sumZ]. unfold sumZ in *. cbn [fold_right].
      rewrite Ec. change (leno (Some c)) with (Z.of_nat (length (elems c))). lia.
Qed.

End Map.

Section Statements.
Variables (s : set T) (args : CombineArgs T) (f : T -> T).
Hypotheses (Hs : SetReach vok s) (Hf : forall v, vok v -> vok (f v)).
Hypotheses (Heq : c_eq args = veq) (Hcf : cfok (c_f args)) (Hg : gaugeOk (c_gauge args)).

Lemma nodeMap_ok :
  (~ noTripleHash vok /\ s_nodeMap args s f = Panic) \/
  exists r, s_nodeMap args s f = Ok r /\ sok vok r /\
    (forall w, vok w -> isSome (lookup (sel r) w) = existsb (fun e => veq (f e) w) (sel s)) /\
    (t_root (s_tree s) <> None -> forall x, In x (sel r) -> Made (c_f args) f (fun e => In e (sel s)) x).
Proof.
  assert (Hk := sreach_ok s Hs). unfold s_nodeMap. destruct (t_root (s_tree s)) as [n|] eqn:En.
  - assert (Hn : wf 0 n) by (apply Hk; auto).
    destruct (n_map_wf f Hf treeFuel args 0 n) as [[Hno E1]|(r & E1 & Hr)]; auto.
    + unfold treeFuel. lia.
    + left. rewrite E1. auto.
    + right. rewrite E1. cbn [bind]. eexists. split; [reflexivity|]. destruct Hr as (Hr1 & Hr2 & Hr3). split; [|split].
      * split; [apply wfo_Some; auto|reflexivity].
      * intros w Hw. unfold sel, tel. cbn. rewrite En. cbn. apply Hr2; auto.
      * intros _ x Hx. unfold sel, tel in *. cbn in Hx. rewrite En. cbn. apply Hr3; auto.
  - right. exists s. split; auto. split; auto. split; [|congruence]. intros w Hw. unfold sel, tel. rewrite En. reflexivity.
Qed.

Lemma existsb_image w : existsb (fun e => veq (f e) w) (sel s) = true <-> exists e, Holds s e /\ veq (f e) w = true.
Proof.
  assert (Hk := sreach_ok s Hs). rewrite existsb_exists. split; intros (e & H1 & H2); exists e; split; auto; apply (holds_In (vok := vok)) in H1 || apply (holds_In (vok := vok)); auto.
Qed.

(** What the method returns holds exactly the images, and passes Vet. *)
Lemma l57_images r : s_nodeMap args s f = Ok r ->
  Answers vok r (fun w => exists e, Holds s e /\ veq (f e) w = true) /\
  (forall x, Holds r x -> Made (c_f args) f (Holds s) x) /\ t_vet (s_tree r) = Ok tt.
Proof.
  intros E1. destruct nodeMap_ok as [[_ E2]|(r' & E2 & Hr & Hl & Hm)]; [congruence|]. assert (r' = r) as -> by congruence.
  split; [|split].
  - apply answers_lookup; auto. intros w Hw. rewrite <- existsb_image, <- Hl by auto. destruct (lookup (sel r) w); cbn; split; congruence.
  - assert (Hk := sreach_ok s Hs). intros x Hx. apply (holds_In (vok := vok)) in Hx; auto.
    destruct (t_root (s_tree s)) as [n|] eqn:En.
    + eapply made_mono; [|apply Hm; auto; congruence]. intros e He. apply (holds_In (vok := vok)); auto.
    + exfalso. unfold s_nodeMap in E1. rewrite En in E1. injection E1 as <-. unfold sel, tel in Hx. rewrite En in Hx. auto.
  - apply (t_vet_ok (vok := vok)). exact Hr.
Qed.

Lemma l57_returns : noTripleHash vok -> exists r, s_nodeMap args s f = Ok r.
Proof. intros Hno. destruct nodeMap_ok as [[H _]|(r & E2 & _)]; [tauto|eauto]. Qed.

(** The exported SetMap always returns, and gives an equal set where the method returns. *)
Lemma l57_map r : s_nodeMap args s f = Ok r -> exists r', s_map s f = Ok r' /\ s_equal r r' = Ok true.
Proof.
  intros E1. destruct nodeMap_ok as [[_ E2]|(r0 & E2 & Hr & Hl & _)]; [congruence|]. assert (r0 = r) as -> by congruence.
  assert (Hk := sreach_ok s Hs). pose proof (sok_allok s Hk) as Ha.
  destruct (s_map_ok (vok := vok) (uok := vok) s f Hk) as (r' & E3 & Hr' & Hl'); auto.
  exists r'. split; auto. destruct (s_equal_ok (vok := vok) r r' Hr Hr') as (b & Eb & Hb). rewrite Eb. f_equal. apply Hb.
  intros w Hw. rewrite Hl' by auto. specialize (Hl w Hw).
  assert (Hfl : forall l, findLast (map f l) w <> None <-> existsb (fun e => veq (f e) w) l = true).
  { intros l. rewrite existsb_exists. unfold findLast. split.
    - intros Hn. destruct (find _ _) as [x|] eqn:Ex; [|congruence]. apply find_some in Ex as [Ex1 Ex2].
      rewrite <- in_rev in Ex1. apply in_map_iff in Ex1 as (e & <- & He). eauto.
    - intros (e & He & Hv) Hn. eapply find_none in Hn; [|rewrite <- in_rev; apply in_map; eauto]. congruence. }
  rewrite Hfl, <- Hl. destruct (lookup (sel r) w); cbn; split; congruence.
Qed.
End Statements.

(** What the method returns holds exactly the images, each of them an image or made of images by [args.f], and passes Vet. *)
Lemma c57_images (s : set T) args f r : SetReach vok s -> MapFine vok args f -> s_nodeMap args s f = Ok r ->
  Answers vok r (fun w => exists e, Holds s e /\ veq (f e) w = true) /\
  (forall x, Holds r x -> Made (c_f args) f (Holds s) x) /\ t_vet (s_tree r) = Ok tt.
Proof. intros Hs (H1 & H2 & H3 & H4). apply l57_images; auto. Qed.

(** It returns if no three different elements have one hash. *)
Lemma c57_returns (s : set T) args f : SetReach vok s -> MapFine vok args f -> noTripleHash vok ->
  exists r, s_nodeMap args s f = Ok r.
Proof. intros Hs (H1 & H2 & H3 & H4). apply l57_returns; auto. Qed.

(** The exported SetMap always returns, and gives an equal set where the method returns. *)
Lemma c57_map (s : set T) args f r : SetReach vok s -> MapFine vok args f -> s_nodeMap args s f = Ok r ->
  exists r', s_map s f = Ok r' /\ s_equal r r' = Ok true.
Proof. intros Hs (H1 & H2 & H3 & H4). apply l57_map; auto. Qed.
End NodeMapFacts.
