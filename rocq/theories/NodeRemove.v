(** * NodeRemove: Without and Remove. *)
From Verif Require Import Base Bits Env EnvFacts Node NodeWf NodeAdd.

Section NodeRemove.
Local Opaque maxTreeDepth fanout fb.
Context {E : Env} {T : Type} {K : Key T} {vok : T -> Prop} {KO : KeyOk K vok}.
Notation node := (node T).
Notation wf := (wf vok).
Notation pre := (pre vok).
Notation allok := (allok vok).

Lemma allok_perm l1 l2 : Permutation l1 l2 -> allok l1 -> allok l2.
Proof. intros HP H e He. apply H. eapply Permutation_in; [symmetry|]; eauto. Qed.

Lemma lookup_perm l1 l2 w :
  Permutation l1 l2 -> distinct l1 -> allok l1 -> vok w -> lookup l1 w = lookup l2 w.
Proof.
  intros HP Hd Hok Hw.
  assert (Hd2 : distinct l2) by (eapply distinct_perm; eauto).
  assert (Hok2 : allok l2) by (eapply allok_perm; eauto).
  destruct (lookup l2 w) as [e|] eqn:E2.
  - apply lookup_Some in E2 as [Hin Hq]. apply lookup_iff; auto. split; auto.
    eapply Permutation_in; [symmetry|]; eauto.
  - rewrite lookup_None in *. intros e He. apply E2. eapply Permutation_in; eauto.
Qed.

(** ** swapRemove *)

Lemma findIndex_None (p : T -> bool) l : findIndex p l = None <-> find p l = None.
Proof.
  induction l as [|a l IH]; simpl; [tauto|]. destruct (p a); [split; discriminate|].
  destruct (findIndex p l); simpl; split; intros H; auto; try discriminate.
  - apply IH in H; discriminate.
  - apply IH; auto.
Qed.

Lemma findIndex_Some (p : T -> bool) l i :
  findIndex p l = Some i ->
  exists l1 e l2, l = l1 ++ e :: l2 /\ length l1 = i /\ find p l = Some e.
Proof.
  revert i; induction l as [|a l IH]; simpl; intros i H; [discriminate|].
  destruct (p a).
  - inversion H; subst. exists [], a, l; auto.
  - destruct (findIndex p l) as [j|]; simpl in H; [|discriminate]. inversion H; subst.
    destruct (IH j) as (l1 & e & l2 & -> & <- & H3); auto.
    exists (a :: l1), e, l2; auto.
Qed.

Lemma set_nth_app (l1 : list T) x y l2 :
  set_nth (l1 ++ x :: l2) (length l1) y = l1 ++ y :: l2.
Proof. induction l1 as [|a l1 IH]; simpl; auto. f_equal; auto. Qed.

Lemma swapRemove_perm l1 (e : T) l2 d :
  Permutation (swapRemove (l1 ++ e :: l2) (length l1) d) (l1 ++ l2).
Proof.
  unfold swapRemove. rewrite app_length. simpl length.
  replace (length l1 + S (length l2) - 1) with (length l1 + length l2) by lia.
  destruct l2 as [|z l2' _] using rev_ind.
  - simpl. rewrite Nat.add_0_r, Nat.eqb_refl. rewrite firstn_app, Nat.sub_diag, firstn_all. simpl.
    reflexivity.
  - rewrite app_length. simpl length.
    destruct (Nat.eqb_spec (length l1) (length l1 + (length l2' + 1))) as [H|_]; [lia|].
    replace (length l1 + (length l2' + 1)) with (length (l1 ++ e :: l2')) by (rewrite app_length; simpl; lia).
    replace (l1 ++ e :: l2' ++ [z]) with ((l1 ++ e :: l2') ++ [z]) by (rewrite <- app_assoc; auto).
    rewrite firstn_app, Nat.sub_diag, firstn_all. simpl firstn. rewrite app_nil_r.
    rewrite app_nth2 by lia. rewrite Nat.sub_diag. simpl nth.
    rewrite set_nth_app. apply Permutation_app_head.
    change (z :: l2') with ([z] ++ l2'). apply Permutation_app_comm.
Qed.

(** ** Result of a removal *)

Definition rmv (l : list T) (v w : T) : option T := if veq v w then None else lookup l w.

Definition remres (l : list T) (v : T) (r : list T) (m : Z) : Prop :=
  (forall w, vok w -> lookup r w = rmv l v w) /\
  (Z.of_nat (length r) + m = Z.of_nat (length l))%Z /\
  m = hit l v.

Lemma remres_in l v r m e :
  distinct r -> allok r -> remres l v r m -> In e r -> In e l.
Proof.
  intros Hd Hok (H1 & _) He.
  pose proof (lookup_In r e Hd Hok He) as El.
  rewrite H1 in El by auto. unfold rmv in El. destruct (veq v e); [discriminate|].
  apply lookup_Some in El; tauto.
Qed.

Lemma lookup_split l1 (e : T) l2 v w :
  distinct (l1 ++ e :: l2) -> allok (l1 ++ e :: l2) -> vok v -> vok w -> veq e v = true ->
  lookup (l1 ++ l2) w = rmv (l1 ++ e :: l2) v w.
Proof.
  intros Hd Hok Hv Hw Hq. unfold rmv.
  assert (Hoke : vok e) by (apply Hok; apply in_or_app; right; left; auto).
  apply allok_app in Hok as [Hok1 Hok2]. apply distinct_app in Hd as (Hd1 & Hd2 & Hd3).
  inversion Hd2 as [|? ? H1 H2]; subst.
  destruct (veq v w) eqn:Ew.
  - assert (Hew : veq e w = true) by (apply (veq_trans e v w); auto).
    apply lookup_None. intros x Hx.
    destruct (veq x w) eqn:Ex; auto. exfalso.
    apply in_app_or in Hx as [Hx|Hx].
    + assert (veq x e = false) by (apply Hd3; auto; left; auto).
      assert (veq x e = true); [|congruence]. apply (veq_trans x w e); auto. apply veq_sym; auto.
    + assert (veq e x = false) by (apply H1; auto).
      assert (vok x) by (apply Hok2; right; auto).
      assert (veq e x = true); [|congruence]. apply (veq_trans e w x); auto. apply veq_sym; auto.
  - rewrite !lookup_app. destruct (lookup l1 w) as [x|]; auto.
    unfold lookup; simpl.
    assert (veq e w = false) as ->; auto.
    destruct (veq e w) eqn:Ee; auto. exfalso.
    rewrite <- (veq_trans_l e v w) in Ee by auto. congruence.
Qed.

Lemma remres_split l1 e l2 (v : T) r :
  distinct (l1 ++ e :: l2) -> allok (l1 ++ e :: l2) -> vok v -> veq e v = true ->
  (forall w, vok w -> lookup r w = lookup (l1 ++ l2) w) -> length r = length (l1 ++ l2) ->
  remres (l1 ++ e :: l2) v r 1.
Proof.
  intros Hd Hok Hv Hq Hl Hlen. repeat split.
  - intros w Hw. rewrite Hl by auto. apply lookup_split; auto.
  - rewrite Hlen, !app_length. simpl. lia.
  - unfold hit. assert (lookup (l1 ++ e :: l2) v = Some e) as ->; auto.
    apply lookup_iff; auto. split; auto. apply in_or_app; right; left; auto.
Qed.

Lemma remres_none l (v : T) :
  allok l -> vok v -> lookup l v = None -> remres l v l 0.
Proof.
  intros Hok Hv Hn. repeat split.
  - intros w Hw. unfold rmv. destruct (veq v w) eqn:Eq; auto.
    rewrite <- (lookup_veq l v w) by auto. auto.
  - lia.
  - unfold hit; rewrite Hn; auto.
Qed.

Lemma distinct_split l1 (e : T) l2 : distinct (l1 ++ e :: l2) -> distinct (l1 ++ l2).
Proof.
  intros H. apply distinct_app in H as (H1 & H2 & H3). inversion H2; subst.
  apply distinct_app. repeat split; auto. intros a b Ha Hb. apply H3; auto. right; auto.
Qed.
Lemma allok_split l1 (e : T) l2 : allok (l1 ++ e :: l2) -> allok (l1 ++ l2).
Proof.
  intros H x Hx. apply H. apply in_app_or in Hx as [Hx|Hx]; apply in_or_app; simpl; auto.
Qed.

(** Removing from one child of a branch. *)
Lemma remres_branch d data v c r m :
  placed d data -> allok (flat_map elemso data) -> length data = fanout -> vok v ->
  child data (digit d v) = Some c -> wfo vok (S d) r -> remres (elems c) v (elemso r) m ->
  remres (flat_map elemso data) v (flat_map elemso (set_nth data (digit d v) r)) m.
Proof.
  intros Hp Hok Hlen Hv Hc Hr Ha.
  assert (Hi : digit d v < length data) by (rewrite Hlen; apply digit_lt).
  assert (Hokr : allok (elemso r)).
  { destruct r as [r|]; simpl; [|apply allok_nil]. apply wf_allok with (S d). apply wfo_Some; auto. }
  assert (Hdr : distinct (elemso r)).
  { destruct r as [r|]; simpl; [|constructor]. apply wf_distinct with (S d). apply wfo_Some; auto. }
  assert (Hdig : forall e, In e (elemso r) -> digit d e = digit d v).
  { intros e He. apply (Hp _ e). rewrite Hc. simpl. eapply remres_in; eauto. }
  assert (Hlv : lookup (flat_map elemso data) v = lookup (elems c) v).
  { rewrite (lookup_placed d) by auto. rewrite Hc. auto. }
  destruct Ha as (H1 & H2 & H3). repeat split.
  - intros w Hw. rewrite (lookup_set d); auto. unfold rmv.
    destruct (Nat.eqb_spec (digit d v) (digit d w)) as [Hdw|Hdw].
    + rewrite H1 by auto. unfold rmv. destruct (veq v w); auto.
      rewrite (lookup_placed d data) by auto. rewrite <- Hdw, Hc. auto.
    + destruct (veq v w) eqn:Eq; auto. exfalso. apply Hdw. apply veq_digit; auto.
  - rewrite length_set by auto. rewrite Hc. unfold leno. cbn [elemso]. lia.
  - rewrite H3. unfold hit. rewrite Hlv. auto.
Qed.

Lemma withChild_mask m data i o :
  m = updateMask data -> length data = fanout -> i < fanout ->
  newBranch (withChild (m, data) i o) = Branch (updateMask (set_nth data i o)) (set_nth data i o : list (option node)).
Proof.
  intros -> Hlen Hi. unfold newBranch, withChild, setChild. destruct o as [c|]; simpl.
  - rewrite (setNonNil_mask data i c); auto.
  - rewrite setNil_mask; auto.
Qed.

Lemma updateMaskBit_set m (data : list (option node)) i c :
  m = updateMask data -> length data = fanout -> i < fanout -> child data i = Some c ->
  updateMaskBit (m, data) (newMasker i) = (m, data).
Proof.
  intros -> Hlen Hi Hc. unfold updateMaskBit; simpl. f_equal.
  rewrite (setNonNil_mask data i c) by auto. f_equal.
  rewrite <- Hc. unfold child. apply set_nth_same. lia.
Qed.

Lemma set_children d data i r :
  (forall j c, child data j = Some c -> wf (S d) c) -> wfo vok (S d) r -> i < length data ->
  forall j c, child (set_nth data i r) j = Some c -> wf (S d) c.
Proof.
  intros Hc Hr Hi j c Hj. destruct (Nat.eq_dec i j) as [<-|Hne].
  - rewrite child_set_eq in Hj by auto. subst r. apply wfo_Some; auto.
  - rewrite child_set_ne in Hj by auto. eauto.
Qed.

Lemma twig_remove fuel d l v i :
  2 * (maxTreeDepth - d) <= fuel -> d <= maxTreeDepth -> distinct l -> allok l -> vok v ->
  findIndex (fun e => veq e v) l = Some i ->
  exists o, canonicalTwig fuel d (swapRemove l i v) = Ok o /\ wfo vok d o /\
    remres l v (elemso o) 1.
Proof.
  intros Hf Hd Hdis Hok Hv Hi.
  apply findIndex_Some in Hi as (l1 & e & l2 & -> & <- & Hf2).
  apply find_some in Hf2 as [_ Hq].
  pose proof (swapRemove_perm l1 e l2 v) as HP.
  assert (Hd2 : distinct (l1 ++ l2)) by (eapply distinct_split; eauto).
  assert (Hok2 : allok (l1 ++ l2)) by (eapply allok_split; eauto).
  assert (Hd3 : distinct (swapRemove (l1 ++ e :: l2) (length l1) v))
    by (eapply distinct_perm; [|symmetry; exact HP|]; auto).
  assert (Hok3 : allok (swapRemove (l1 ++ e :: l2) (length l1) v))
    by (eapply allok_perm; [symmetry; exact HP|]; auto).
  destruct (canonicalTwig_wf d fuel (swapRemove (l1 ++ e :: l2) (length l1) v)) as (o & E1 & Ho & H1 & H2); auto.
  exists o. split; auto. split; auto.
  apply remres_split; auto.
  - intros w Hw. rewrite H1 by auto. apply lookup_perm; auto.
  - rewrite H2. apply Permutation_length; auto.
Qed.

Lemma without_wf fuel : forall d n v,
  wf d n -> vok v -> fuelAt d <= fuel ->
  exists o m, without fuel n v d (newHasher v d) = Ok (o, m) /\ wfo vok d o /\
    remres (elems n) v (elemso o) m /\ (m = 0%Z -> o = Some n).
Proof.
  induction fuel as [|fuel IH]; intros d n v Hwf Hv Hf; [unfold fuelAt in Hf; lia|].
  pose proof (wf_allok _ _ Hwf) as Hok0. pose proof (wf_distinct _ _ Hwf) as Hdis0.
  unfold fuelAt in Hf.
  inversion Hwf as [d' a Hd Ha|d' a b Hd Ha Hb Hab|d' l Hd Hl Hok Hdis|d' mk data Hd Hlen Hm Hch Hp Hl];
    subst d' n; cbn [without].
  - destruct (veq a v) eqn:Eq.
    + exists None, 1%Z. split; auto. split; [apply wfo_None|]. split; [|lia].
      apply (remres_split [] a [] v []); auto.
    + exists (Some (Leaf1 a)), 0%Z. split; auto. split; [apply wfo_Some; auto|]. split; auto.
      apply remres_none; auto. unfold lookup; simpl; rewrite Eq; auto.
  - destruct (veq a v) eqn:Eq1; [|destruct (veq b v) eqn:Eq2].
    + exists (Some (Leaf1 b)), 1%Z. split; auto. split; [apply wfo_Some; constructor; auto|]. split; [|lia].
      apply (remres_split [] a [b] v [b]); auto.
    + exists (Some (Leaf1 a)), 1%Z. split; auto. split; [apply wfo_Some; constructor; auto|]. split; [|lia].
      apply (remres_split [a] b [] v [a]); auto.
    + exists (Some (Leaf2 a b)), 0%Z. split; auto. split; [apply wfo_Some; auto|]. split; auto.
      apply remres_none; auto. unfold lookup; simpl; rewrite Eq1, Eq2; auto.
  - destruct (findIndex (fun e => veq e v) l) as [i|] eqn:Ei.
    + destruct (twig_remove fuel d l v i) as (o & E1 & Ho & Hr); auto; try lia.
      rewrite E1. simpl. exists o, 1%Z. split; auto. split; auto. split; auto. lia.
    + exists (Some (Twig l)), 0%Z. split; auto. split; [apply wfo_Some; auto|]. split; auto.
      apply findIndex_None in Ei. apply remres_none; auto.
  - fold (digit d v). rewrite elems_branch in *.
    assert (Hi : digit d v < fanout) by apply digit_lt.
    destruct (child data (digit d v)) as [c|] eqn:Ec.
    + rewrite <- newHasher_S.
      destruct (IH (S d) c v) as (o & m & E1 & Ho & Hr & Hz); eauto; [unfold fuelAt; lia|].
      rewrite E1. cbn [bind].
      assert (Hb : remres (flat_map elemso data) v (flat_map elemso (set_nth data (digit d v) o)) m)
        by (eapply remres_branch; eauto).
      destruct (Z.eqb_spec m 0) as [->|Hm0].
      * exists (Some (Branch mk data)), 0%Z. split; auto. split; [apply wfo_Some; auto|]. split; auto.
        cbn [elemso]. rewrite (elems_branch mk data).
        rewrite Hz in Hb by auto.
        rewrite <- Ec in Hb. unfold child in Hb. rewrite set_nth_same in Hb by lia. auto.
      * rewrite (updateMaskBit_set mk data (digit d v) c) by auto.
        rewrite withChild_mask by auto.
        assert (Hokr : allok (elemso o)).
        { destruct o as [r|]; simpl; [|apply allok_nil]. apply wf_allok with (S d). apply wfo_Some; auto. }
        assert (Hdr : distinct (elemso o)).
        { destruct o as [r|]; simpl; [|constructor]. apply wf_distinct with (S d). apply wfo_Some; auto. }
        destruct (canonical_branch fuel d (set_nth data (digit d v) o)) as (o' & E2 & Ho' & He); auto.
        { rewrite set_nth_length; auto. }
        { apply set_children; auto. lia. }
        { apply placed_set; auto. intros e He. apply (Hp _ e). rewrite Ec. simpl. eapply remres_in; eauto. }
        rewrite E2. simpl. exists o', m. split; auto. split; auto. split; [|lia].
        rewrite He. auto.
    + exists (Some (Branch mk data)), 0%Z. split; auto. split; [apply wfo_Some; auto|]. split; auto.
      cbn [elemso]. rewrite (elems_branch mk data).
      apply remres_none; auto. rewrite (lookup_placed d) by auto. rewrite Ec. auto.
Qed.

(** Remove (the builder's removal). *)
Lemma remove_wf fuel : forall d n v,
  wf d n -> vok v -> fuelAt d <= fuel ->
  exists o m, remove_ fuel n v d (newHasher v d) = Ok (o, m) /\ wfo vok d o /\
    remres (elems n) v (elemso o) m.
Proof.
  induction fuel as [|fuel IH]; intros d n v Hwf Hv Hf; [unfold fuelAt in Hf; lia|].
  pose proof (wf_allok _ _ Hwf) as Hok0. pose proof (wf_distinct _ _ Hwf) as Hdis0.
  unfold fuelAt in Hf.
  inversion Hwf as [d' a Hd Ha|d' a b Hd Ha Hb Hab|d' l Hd Hl Hok Hdis|d' mk data Hd Hlen Hm Hch Hp Hl];
    subst d' n; cbn [remove_].
  - destruct (veq a v) eqn:Eq.
    + exists None, 1%Z. split; auto. split; [apply wfo_None|].
      apply (remres_split [] a [] v []); auto.
    + exists (Some (Leaf1 a)), 0%Z. split; auto. split; [apply wfo_Some; auto|].
      apply remres_none; auto. unfold lookup; simpl; rewrite Eq; auto.
  - destruct (veq a v) eqn:Eq1; [|destruct (veq b v) eqn:Eq2].
    + exists (Some (Leaf1 b)), 1%Z. split; auto. split; [apply wfo_Some; constructor; auto|].
      apply (remres_split [] a [b] v [b]); auto.
    + exists (Some (Leaf1 a)), 1%Z. split; auto. split; [apply wfo_Some; constructor; auto|].
      apply (remres_split [a] b [] v [a]); auto.
    + exists (Some (Leaf2 a b)), 0%Z. split; auto. split; [apply wfo_Some; auto|].
      apply remres_none; auto. unfold lookup; simpl; rewrite Eq1, Eq2; auto.
  - destruct (findIndex (fun e => veq e v) l) as [i|] eqn:Ei.
    + destruct (twig_remove fuel d l v i) as (o & E1 & Ho & Hr); auto; try lia.
      destruct (Nat.eqb_spec (length l - 1) 0) as [H0|H0]; [lia|].
      rewrite E1. simpl. exists o, 1%Z. split; auto.
    + exists (Some (Twig l)), 0%Z. split; auto. split; [apply wfo_Some; auto|].
      apply findIndex_None in Ei. apply remres_none; auto.
  - fold (digit d v).
    assert (Hi : digit d v < fanout) by apply digit_lt.
    destruct (child data (digit d v)) as [c|] eqn:Ec.
    + rewrite <- newHasher_S.
      destruct (IH (S d) c v) as (o & m & E1 & Ho & Hr); eauto; [unfold fuelAt; lia|].
      rewrite E1. cbn [bind].
      rewrite elems_branch in *.
      assert (Hb : remres (flat_map elemso data) v (flat_map elemso (set_nth data (digit d v) o)) m)
        by (eapply remres_branch; eauto).
      assert (Hokr : allok (elemso o)).
      { destruct o as [r|]; simpl; [|apply allok_nil]. apply wf_allok with (S d). apply wfo_Some; auto. }
      assert (Hdr : distinct (elemso o)).
      { destruct o as [r|]; simpl; [|constructor]. apply wf_distinct with (S d). apply wfo_Some; auto. }
      assert (Hpl : placed d (set_nth data (digit d v) o)).
      { apply placed_set; auto. intros e He. apply (Hp _ e). rewrite Ec. simpl. eapply remres_in; eauto. }
      assert (Hch' : forall j x, child (set_nth data (digit d v) o) j = Some x -> wf (S d) x).
      { apply set_children; auto. lia. }
      assert (Hlen' : length (set_nth data (digit d v) o) = fanout) by (rewrite set_nth_length; auto).
      set (data' := set_nth data (digit d v) o) in *.
      assert (Hpre : pre d (Branch (updateMask data') data')) by (constructor; auto).
      pose proof (pre_allok _ _ Hpre) as Hok'. pose proof (pre_distinct _ _ Hpre) as Hdis'.
      rewrite (elems_branch (updateMask data') data') in *.
      assert (Hge : 2 <= length (flat_map elemso data')).
      { destruct Hb as (_ & Hb2 & Hb3). unfold hit in Hb3. destruct (isSome _); lia. }
      (* the three ways out *)
      assert (Hkeep : 3 <= length (flat_map elemso data') ->
        exists o0 m0, Ok (Some (Branch (updateMask data') data'), m) = Ok (o0, m0) /\ wfo vok d o0 /\
          remres (flat_map elemso data) v (elemso o0) m0).
      { intros H3. do 2 eexists. split; [reflexivity|]. split.
        - apply wfo_Some. apply pre_wf; auto. rewrite (elems_branch (updateMask data') data'). auto.
        - cbn [elemso]. rewrite (elems_branch (updateMask data') data'). auto. }
      assert (Hother : exists o0 m0,
        match appendTo maxLeafLen (Branch mk data') [] with
        | Some es => l <- newLeaf es ;; Ok (Some l, m)
        | None => Ok (Some (Branch (updateMask data') data'), m)
        end = Ok (o0, m0) /\ wfo vok d o0 /\ remres (flat_map elemso data) v (elemso o0) m0).
      { rewrite appendTo_spec by (simpl; lia). rewrite (elems_branch mk data').
        simpl length. unfold maxLeafLen. simpl app.
        destruct (Nat.ltb_spec 2 (0 + length (flat_map elemso data'))) as [H3|H3].
        - apply Hkeep. simpl in H3; lia.
        - destruct (flat_map elemso data') as [|a [|b [|? ?]]]; simpl in H3, Hge; try lia. simpl.
          do 2 eexists. split; [reflexivity|]. split; auto.
          apply wfo_Some. inversion Hdis'; subst. constructor; [lia|apply Hok'; left; auto|apply Hok'; right; left; auto|].
          apply H1; left; auto. }
      destruct o as [[a|a b|l|m' d2]|]; auto.
      apply Hkeep.
      (* the child is still a branch, so it has at least 3 elements *)
      apply wfo_Some in Ho. inversion Ho as [| | |? ? ? ? ? ? ? ? Hl3]; subst.
      assert (Hge3 : (Z.of_nat (length (flat_map elemso data')) >= leno (child data' (digit d v)))%Z).
      { unfold data'. rewrite length_set by lia. rewrite child_set_eq by lia.
        assert (leno (child data (digit d v)) <= Z.of_nat (length (flat_map elemso data)))%Z; [|lia].
        rewrite (length_branch data fanout) by auto.
        assert (Hin : In (digit d v) (seq 0 fanout)) by (apply in_seq; lia).
        clear -Hin. induction (seq 0 fanout) as [|x l IHl]; [contradiction|].
        assert (Hnn : forall l', (0 <= sumZ (map (fun i => leno (child data i)) l'))%Z).
        { induction l' as [|y l' IHl']; simpl; [lia|]. unfold leno at 1. lia. }
        simpl. destruct Hin as [->|Hin].
        - pose proof (Hnn l). lia.
        - specialize (IHl Hin). unfold leno at 2. lia. }
      assert (Hc' : child data' (digit d v) = Some (Branch (updateMask d2) d2)) by (apply child_set_eq; lia).
      rewrite Hc' in Hge3. unfold leno in Hge3. cbn [elemso] in Hge3. lia.
    + exists (Some (Branch mk data)), 0%Z. split; auto. split; [apply wfo_Some; auto|].
      cbn [elemso]. apply remres_none; auto.
      rewrite elems_branch in *. rewrite (lookup_placed d) by auto. rewrite Ec. auto.
Qed.

End NodeRemove.
